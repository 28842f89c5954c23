(** C26: canonicalization does not change the value of terms and expressions. *)
Set Warnings "-notation-overridden,-ambiguous-paths".
From Coq Require Import ZArith List Ascii Lia Permutation.
From mathcomp Require Import all_ssreflect ssralg matrix ssrint rat ssrnum.
From Verif Require Import Res RationalModel RationalSpec RationalProofs RegistryModel CoreModel AlgebraModel AlgebraSpec SortSpec SortModel OperatorModel AdjointModel
  ScalarSem LadderSpec CanonModel CanonSpec CanonProofs CanonSemSpec CanonSemProofs.
Set Implicit Arguments.
Unset Strict Implicit.
Unset Printing Implicit Defensive.
Import GRing.Theory.
Local Open Scope ring_scope.

(** For every field, all tensor values with the declared symmetry, every choice of orbitals and every way [W] to give values to
    normal-ordered products of operators (changing sign when two neighbours are exchanged): a term summed over its indices is
    the returned sign times the canonical term summed over its. *)
Theorem C26_term_value : forall (K : fieldType) (V : lmodType K) (orb : eqType) (W : seq (bool * (Z * orb)) -> V)
    (T : text -> seq (Z * orb) -> seq (Z * orb) -> bool -> K) (orbs : Z -> seq orb) (phi0 : index -> orb) (st : osi) (t t' : term) (s : Z),
  alternating -%R W -> term_spaces st t -> ops_covered t -> (forall d, In d (tm_tens t) -> symmetric_as_declared T d) ->
  term_canonicalize st t (Ok (t', s)) ->
  term_value W T orbs phi0 t = zr K s *: term_value W T orbs phi0 t'.
Proof. exact (fun K V orb W T orbs phi0 st t t' s AC => @term_value_eq K V orb W AC T orbs phi0 st t t' s). Qed.
Print Assumptions C26_term_value.
(** The order in which the indices are summed and the starting assignment do not matter. *)
Theorem C26_any_summation_order : forall (K : fieldType) (V : lmodType K) (orb : eqType) (W : seq (bool * (Z * orb)) -> V)
    (T : text -> seq (Z * orb) -> seq (Z * orb) -> bool -> K) (orbs : Z -> seq orb) (phi0 psi0 : index -> orb) (st : osi) (t t' : term) (s : Z) (l l' : seq index),
  alternating -%R W -> term_spaces st t -> ops_covered t -> (forall d, In d (tm_tens t) -> symmetric_as_declared T d) ->
  term_canonicalize st t (Ok (t', s)) -> lists_indices l t -> lists_indices l' t' ->
  sum_over orbs l phi0 (fun phi => value_at W T phi t) = zr K s *: sum_over orbs l' psi0 (fun phi => value_at W T phi t').
Proof. exact (fun K V orb W T orbs phi0 psi0 st t t' s l l' AC H C S => @term_value_canon K V orb W AC T orbs st t t' s phi0 psi0 l l' H C S). Qed.
Print Assumptions C26_any_summation_order.
(** Expressions: the canonicalized expression has the same value. *)
Theorem C26_expression_value : forall (K : fieldType) (V : lmodType K) (orb : eqType) (W : seq (bool * (Z * orb)) -> V)
    (T : text -> seq (Z * orb) -> seq (Z * orb) -> bool -> K) (orbs : Z -> seq orb) (phi0 : index -> orb) (st : osi) (e r : expression),
  [char K] =i pred0 -> alternating -%R W -> mcanon e ->
  (forall x, In x e -> term_spaces st x.1 /\ ops_covered x.1 /\ no_conj x.1 /\ (forall d, In d (tm_tens x.1) -> symmetric_as_declared T d)) ->
  expr_canonicalize st e r -> expr_value W T orbs phi0 r = expr_value W T orbs phi0 e.
Proof. exact (fun K V orb W T orbs phi0 st e r ch AC => @expr_value_canon K V orb W ch AC T orbs phi0 st e r). Qed.
Print Assumptions C26_expression_value.
(** In particular for the product of anticommuting operators in an algebra. *)
Theorem C26_anticommuting_product : forall (K : fieldType) (A : algType K) (orb : eqType) (cre ann : Z -> orb -> A),
  anticommuting cre ann -> alternating -%R (word_product cre ann).
Proof. exact word_product_alternating. Qed.
Print Assumptions C26_anticommuting_product.

(** Non-vacuity: two anticommuting 4x4 matrices and the antisymmetric tensor T^{pq} = q - p. *)
Notation "# k" := (@Ordinal 4 k isT) (at level 1).
Definition cre4 (_ : Z) (p : bool) : 'M[rat]_4 := if p then delta_mx #2 #0 - delta_mx #3 #1 else delta_mx #1 #0 + delta_mx #3 #2.
Definition ann4 (_ : Z) (p : bool) : 'M[rat]_4 := 0.
Definition eps2 (l : seq (Z * bool)) : rat :=
  match l with
  | [::] => 1
  | [:: _] => 1
  | [:: x; y] => (nat_of_bool y.2)%:R - (nat_of_bool x.2)%:R
  | _ => 0
  end.
Definition T4 (_ : text) (lo up : seq (Z * bool)) (_ : bool) : rat := eps2 lo * eps2 up.
Lemma eps2_alt : alternating -%R eps2.
Proof. move=> [|a [|b l1]] x y [|c l2] //=; rewrite ?oppr0 ?opprB //. by case: l1 => [|? []]; rewrite /= ?oppr0. all: by case: l1 => [|? []]; rewrite /= oppr0. Qed.
Definition os1 : osi := mkOSI [:: mkOS "o"%char Occupied Fermion [::] [::]] [::] [::].
Definition ex26 : term := mkTerm true [:: mkSQ true (mkI Z0 (Zpos xH)); mkSQ true (mkI Z0 Z0)] [:: mkT [:: "T"%char] [::] [:: mkI Z0 Z0; mkI Z0 (Zpos xH)] Antisymmetric false].
Lemma cre4_anti : anticommuting cre4 ann4.
Proof.
  have M (i j k l : 'I_4) : delta_mx i j * delta_mx k l = delta_mx i l *+ (j == k) :> 'M[rat]_4 by rewrite -mul_delta_mx_cond.
  move=> s p t q. split; last by rewrite /ann4 !mulr0 mul0r oppr0.
  rewrite /cre4. case: p; case: q; rewrite !(mulrDl, mulrDr, mulNr, mulrN, M) /= ?mulr0n ?mulr1n ?addr0 ?add0r ?oppr0 ?opprK //. all: by rewrite ?(addr0, add0r, oppr0, opprK).
Qed.

Example C26_nonvacuous : [char rat] =i pred0 /\ anticommuting cre4 ann4 /\ term_spaces os1 ex26 /\ ops_covered ex26 /\ no_conj ex26 /\ (forall d, In d (tm_tens ex26) -> symmetric_as_declared T4 d) /\
  term_canonicalize os1 ex26 (Ok (mkTerm true [:: mkSQ true (mkI Z0 Z0); mkSQ true (mkI Z0 (Zpos xH))] (tm_tens ex26), Zneg xH)) /\
  lists_indices [:: mkI Z0 Z0; mkI Z0 (Zpos xH)] ex26 /\
  forall phi0, sum_over (fun=> [:: false; true]) [:: mkI Z0 Z0; mkI Z0 (Zpos xH)] phi0 (fun phi => value_at (word_product cre4 ann4) T4 phi ex26) = - delta_mx #3 #0 - delta_mx #3 #0.
Proof.
  split; first exact: Num.Theory.char_num. split; first exact: cre4_anti.
  have U : forall p, (Z.le Z0 (isp (mkI Z0 p)) /\ Z.lt (isp (mkI Z0 p)) (num_spaces os1)) by move=> p; rewrite /num_spaces /=; lia.
  split. { move=> i [[o [[<-|[<-|[]]] <-]]|[d [[<-|[]] [[]|[<-|[<-|[]]]]]]]; exact: U. }
  split. { move=> i [o [[<-|[<-|[]]] <-]]; eexists; (split; first by left); right; [by right; left|by left]. }
  split; first by repeat constructor.
  split. { move=> d [<-|[]]. split=> z l1 x y l2; rewrite /T4 eps2_alt ?mulrN ?mulNr //. }
  split.
  { exists (tm_tens ex26). split; last by vm_compute.
    case E: (mapM (tensor_score os1 (tm_tens ex26)) (tm_tens ex26)) => [sc| | |]; try by vm_compute in E.
    exists sc, sc. split; first by []. split; first by apply: Permutation_refl. vm_compute in E. case: E => <-. split; last by []. by repeat constructor. }
  split.
  { split; first by apply: NoDup_cons; [move=> [|[]]|apply: NoDup_cons; [|exact: NoDup_nil]].
    move=> i. split; last by case=> [[o [[<-|[<-|[]]] <-]]|[d [[<-|[]] [[]|[<-|[<-|[]]]]]]]; [right; left|left|left|right; left].
    case=> [<-|[<-|[]]]; right; eexists; (split; first by left); right; [by left|by right; left]. }
  move=> phi0. rewrite /= !big_cons !big_nil /value_at /word_product /= !big_cons !big_nil /elem_at /T4 /=.
  have M (i j k l : 'I_4) : delta_mx i j * delta_mx k l = delta_mx i l *+ (j == k) :> 'M[rat]_4 by rewrite -mul_delta_mx_cond.
  rewrite !(mul1r, mulr1, subrr, subr0, scale0r, scale1r, add0r, addr0) scaleN1r !(mulrDl, mulrDr, mulNr, mulrN, M) /=.
  by rewrite ?(mulr0n, mulr1n, addr0, add0r, oppr0, opprK).
Qed.
