(** C25, C33, C35: what canonicalized products, commutators, BCH series and adjoints denote. *)
Set Warnings "-notation-overridden,-ambiguous-paths".
From Coq Require Import ZArith List Ascii Lia.
From mathcomp Require Import all_ssreflect ssralg matrix ssrint rat ssrnum.
From Verif Require Import Res RationalModel RationalSpec RationalProofs RegistryModel CoreModel AlgebraModel AlgebraSpec AlgebraProofs AlgebraProofs2 OperatorModel OperatorSpec SortSpec NormalOrderModel
  ScalarSem LadderSpec LadderProofs LadderProps AdjointModel OperatorSemSpec OperatorSemProofs BchProofs.
Set Implicit Arguments.
Unset Strict Implicit.
Unset Printing Implicit Defensive.
Import GRing.Theory.
Local Open Scope ring_scope.

(** ** C33: meaning of canonicalization.  In every algebra in which commuting operators graded-commute ... *)
Theorem C33_product_meaning : forall (K : fieldType) (A : algType K) (den : oper -> A) (st : osi) (P : oper -> Prop),
  graded_commuting den st P -> forall p p' s, Forall P p -> oprod_canonicalize st p = (p', s) ->
  prod_den den p = zr K s *: prod_den den p'.
Proof. exact (fun K A den st P G p p' s F => canon_den G F). Qed.
Print Assumptions C33_product_meaning.
Theorem C33_expression_meaning : forall (K : fieldType) (A : algType K) (den : oper -> A) (st : osi) (P : oper -> Prop),
  [char K] =i pred0 -> graded_commuting den st P -> forall e, keysP (Forall P) e -> mcanon e ->
  opexpr_den den (opexpr_canonicalize st e) = opexpr_den den e.
Proof. exact (fun K A den st P ch G e => opexpr_canon_den ch G). Qed.
Print Assumptions C33_expression_meaning.
(** ... which holds when the operators are linear combinations of words in fermionic creation and annihilation
    operators with the numbers of each kind that the operator records. *)
Theorem C33_fermions_commute : forall (K : fieldType) (A : algType K) (orb : eqType) (st : osi) (cre ann : Z -> orb -> A),
  ladder_relations st cre ann -> all_fermions st -> forall den : oper -> A, (length (space_info st) <= max_spaces)%coq_nat ->
  (forall o, proper st o -> combination_for st cre ann o (den o)) -> graded_commuting den st (proper st).
Proof. exact (fun K A orb st cre ann R F den => @combinations_commute K A orb st cre ann R F den). Qed.
Print Assumptions C33_fermions_commute.

(** With bosonic spaces the sign is wrong: bosonic creation operators commute, exchanging them is counted -1. *)
Definition one_boson : osi := mkOSI [:: mkOS "b"%char General Boson [::] [::]] [::] [::].
Definition bos (c : ascii) := mkOp [:: c] ((Zpos xH, Z0) :: repeat (Z0, Z0) 7).
Theorem C33_boson_sign_refuted : exists (st : osi) (a b : oper), (forall s, registered st s -> field_of st s = Boson) /\
  proper st a /\ proper st b /\ oprod_canonicalize st [:: b; a] = ([:: a; b], Zneg xH) /\
  forall (K : fieldType) (A : algType K) (orb : eqType) (cre ann : Z -> orb -> A), [char K] =i pred0 -> ladder_relations st cre ann ->
  forall p q : orb, p != q -> word_of st a [:: (true, Z0, p)] /\ word_of st b [:: (true, Z0, q)] /\
    cre Z0 q * cre Z0 p = cre Z0 p * cre Z0 q /\ cre Z0 q * cre Z0 p <> - (cre Z0 p * cre Z0 q).
Proof.
  exists one_boson, (bos "x"), (bos "y").
  have R0 : forall s, registered one_boson s -> s = Z0 by move=> s; rewrite /registered /num_spaces /=; lia.
  have R : registered one_boson Z0 by rewrite /registered /num_spaces /=; lia.
  have Pr c : proper one_boson (bos c).
  { split.
    - split=> // i Hi. have L1 : Peano.le 1 i by exact: (proj1 Hi). have L2 : Peano.lt i 8 by exact: (proj2 Hi).
      do 8 (destruct i as [|i]; [first [reflexivity | exfalso; lia]|]). exfalso. lia.
    - move=> s /R0 ->. by []. }
  split; first by move=> s /R0 ->. do 2 (split; first exact: Pr). split; first by vm_compute.
  move=> K A orb cre ann charK REL p q N.
  have W c r : word_of one_boson (bos c) [:: (true, Z0, r)] by split; [move=> x [<-|//]|move=> s /R0 ->].
  do 2 (split; first exact: W).
  have X : exch K one_boson Z0 Z0 = 1 by [].
  have C : cre Z0 q * cre Z0 p = cre Z0 p * cre Z0 q by rewrite (rel_cc REL q p R R) X scale1r.
  split=> // E.
  have Z : cre Z0 p * cre Z0 q = 0.
  { have D : (cre Z0 p * cre Z0 q) *+ 2 = 0 by rewrite mulr2n -{1}C E addNr.
    have N2 : 2%:R != 0 :> K by move/charf0P: charK => ->.
    by apply: (scalerI N2); rewrite scaler0 scaler_nat. }
  have AQ : ann Z0 q * cre Z0 q = 1 + cre Z0 q * ann Z0 q by rewrite (rel_ac REL q q R R) Z.eqb_refl eqxx X scale1r.
  have AQP : ann Z0 q * cre Z0 p = cre Z0 p * ann Z0 q.
  { by rewrite (rel_ac REL q p R R) Z.eqb_refl eq_sym (negbTE N) X scale1r add0r. }
  have AP : ann Z0 p * cre Z0 p = 1 + cre Z0 p * ann Z0 p by rewrite (rel_ac REL p p R R) Z.eqb_refl eqxx X scale1r.
  have P0 : cre Z0 p = 0.
  { have : ann Z0 q * (cre Z0 p * cre Z0 q) = 0 by rewrite Z mulr0.
    by rewrite mulrA AQP -mulrA AQ mulrDr mulr1 mulrA Z mul0r addr0. }
  move: AP. rewrite P0 mulr0 mul0r addr0 => /esym/eqP. by rewrite oner_eq0.
Qed.
Print Assumptions C33_boson_sign_refuted.

(** Non-vacuity: one fermionic mode as 2x2 matrices; every operator denotes a word with its counts. *)
Definition word1 (o : oper) : seq (bool * Z * unit_eqType) :=
  nseq (Z.to_nat (cre_of (op_gm o) Z0)) (true, Z0, tt) ++ nseq (Z.to_nat (ann_of (op_gm o) Z0)) (false, Z0, tt).
Example C33_nonvacuous : ladder_relations one_fermion cre2 ann2 /\ all_fermions one_fermion /\
  (forall o, proper one_fermion o -> combination_for one_fermion cre2 ann2 o (word_den cre2 ann2 (word1 o))) /\
  proper one_fermion (bos "x") /\ oprod_canonicalize one_fermion [:: bos "y"; bos "x"] = ([:: bos "x"; bos "y"], Zneg xH).
Proof.
  have R0 : forall s, registered one_fermion s -> s = Z0 by move=> s; rewrite /registered /num_spaces /=; lia.
  have R : registered one_fermion Z0 by rewrite /registered /num_spaces /=; lia.
  split; first exact: one_fermion_relations. split; first by move=> s /R0 ->.
  split.
  { move=> o [_ N]. exists [:: (1, word1 o)]. split; last by rewrite big_seq1 scale1r.
    move=> y [<-|//] /=. split.
    - move=> x. rewrite /word1. elim: (Z.to_nat (cre_of _ _)) => [|n IH].
      + elim: (Z.to_nat (ann_of _ _)) => [|n IH] //= [<-|H]; [exact: R|exact: IH].
      + move=> [<-|H]; [exact: R|exact: IH].
    - move=> s Hs. have [N1 N2] := N s Hs. move: (R0 s Hs) N1 N2 => -> N1 N2. rewrite /word1 /in_space.
      have F1 (b c : bool) (n : nat) : filter (fun x : bool * Z * unit_eqType => (x.1.1 == c) && Z.eqb x.1.2 Z0) (nseq n (b, Z0, tt)) = if b == c then nseq n (b, Z0, tt) else [::].
      { elim: n => [|n IH]; first by case: ifP. rewrite /= IH andbT. by case: (b == c). }
      rewrite !filter_cat !F1 /= cats0 !size_nseq. lia. }
  split; last by vm_compute. split.
  - split=> // i Hi. have L1 : Peano.le 1 i by exact: (proj1 Hi). have L2 : Peano.lt i 8 by exact: (proj2 Hi).
    do 8 (destruct i as [|i]; [first [reflexivity | exfalso; lia]|]). exfalso. lia.
  - move=> s /R0 ->. by [].
Qed.

(** ** C35: commutators and BCH series, in every algebra and for every meaning of the operators. *)
Theorem C35_commutator : forall (K : fieldType) (A : algType K) (den : oper -> A), [char K] =i pred0 ->
  forall a b, wf oprod_ltb a -> wf oprod_ltb b ->
  exists r, op_commutator a b = Ok r /\ wf oprod_ltb r /\
    opexpr_den den r = opexpr_den den a * opexpr_den den b - opexpr_den den b * opexpr_den den a.
Proof. exact (fun K A den ch a b => @commutator_den K A ch den a b). Qed.
Print Assumptions C35_commutator.
(** The Python function commutator(a, b, c, ...) is [[[a, b], c], ...]. *)
Theorem C35_commutator_args : forall (K : fieldType) (A : algType K) (den : oper -> A), [char K] =i pred0 ->
  forall a l, wf oprod_ltb a -> Forall (wf oprod_ltb) l ->
  exists r, commutator_args (a :: l) = Ok r /\ wf oprod_ltb r /\
    opexpr_den den r = foldl (fun x y => x * y - y * x) (opexpr_den den a) [seq opexpr_den den b | b <- l].
Proof. exact (fun K A den ch a l => @commutator_args_den K A ch den l a). Qed.
Print Assumptions C35_commutator_args.
Theorem C35_bch_series : forall (K : fieldType) (A : algType K) (den : oper -> A), [char K] =i pred0 ->
  forall a b n, wf oprod_ltb a -> wf oprod_ltb b ->
  exists r, bch_series a b n = Ok r /\ wf oprod_ltb r /\
    opexpr_den den r = \sum_(k < (Z.to_nat n).+1) (k`!%:R)^-1 *: iter k (fun z => z * opexpr_den den b - opexpr_den den b * z) (opexpr_den den a).
Proof. exact (fun K A den ch a b n => @bch_series_den K A ch den a b n). Qed.
Print Assumptions C35_bch_series.
(** The series to order n consists of the terms of order at most n in B of exp(-B) A exp(B) ... *)
Theorem C35_bch_order : forall (K : fieldType) (A : algType K) (den : oper -> A), [char K] =i pred0 ->
  forall a b (n : nat), wf oprod_ltb a -> wf oprod_ltb b ->
  exists r, bch_series a b (Z.of_nat n) = Ok r /\
    opexpr_den den r = \sum_(i < n.+1) \sum_(j < n.+1 | (i + j <= n)%N)
      ((i`!%:R)^-1 *: (- opexpr_den den b) ^+ i) * opexpr_den den a * ((j`!%:R)^-1 *: opexpr_den den b ^+ j).
Proof.
  move=> K A den ch a b n Wa Wb. have [r [E [_ D]]] := C35_bch_series den ch (Z.of_nat n) Wa Wb. exists r. split=> //.
  rewrite D Nat2Z.id. exact: bch_order.
Qed.
Print Assumptions C35_bch_order.
(** ... and equals it when B is nilpotent and n is large enough. *)
Theorem C35_bch_exact : forall (K : fieldType) (A : algType K) (den : oper -> A), [char K] =i pred0 ->
  forall a b (m n : nat), wf oprod_ltb a -> wf oprod_ltb b -> opexpr_den den b ^+ m = 0 -> (m + m <= n.+2)%N ->
  exists r, bch_series a b (Z.of_nat n) = Ok r /\
    opexpr_den den r = (\sum_(i < m) (i`!%:R)^-1 *: (- opexpr_den den b) ^+ i) * opexpr_den den a * (\sum_(j < m) (j`!%:R)^-1 *: opexpr_den den b ^+ j).
Proof.
  move=> K A den ch a b m n Wa Wb N L. have [r [E [_ D]]] := C35_bch_series den ch (Z.of_nat n) Wa Wb. exists r. split=> //.
  rewrite D Nat2Z.id. exact: bch_nilpotent.
Qed.
Print Assumptions C35_bch_exact.
Definition ex_a : opexpr := [:: ([:: bos "x"], rat_of_Z (Zpos xH))].
Definition ex_b : opexpr := [:: ([:: bos "y"], rat_of_Z (Zpos xH))].
Example C35_nonvacuous : wf oprod_ltb ex_a /\ wf oprod_ltb ex_b /\
  bch_series ex_a ex_b (Zpos (xO xH)) = Ok [:: ([:: bos "x"], rat_of_Z (Zpos xH)); ([:: bos "x"; bos "y"], rat_of_Z (Zpos xH)); ([:: bos "x"; bos "y"; bos "y"], rat_make (Zpos xH) (Zpos (xO xH)));
    ([:: bos "y"; bos "x"], rat_of_Z (Zneg xH)); ([:: bos "y"; bos "x"; bos "y"], rat_of_Z (Zneg xH)); ([:: bos "y"; bos "y"; bos "x"], rat_make (Zpos xH) (Zpos (xO xH)))] /\
  exists den : oper -> 'M[rat]_2, opexpr_den den ex_b ^+ 2 = 0 /\ opexpr_den den ex_b != 0 /\ opexpr_den den ex_a * opexpr_den den ex_b != opexpr_den den ex_b * opexpr_den den ex_a.
Proof.
  split; first by split; [|split]; repeat constructor; vm_compute; discriminate.
  split; first by split; [|split]; repeat constructor; vm_compute; discriminate.
  split; first by vm_compute.
  exists (fun o => if oper_eqb o (bos "x") then cre2 Z0 tt else ann2 Z0 tt).
  have EB : opexpr_den (fun o => if oper_eqb o (bos "x") then cre2 Z0 tt else ann2 Z0 tt) ex_b = ann2 Z0 tt.
  { rewrite /opexpr_den /= /prod_den big_seq1 /ratK /= divr1 scale1r addr0. by []. }
  have EA : opexpr_den (fun o => if oper_eqb o (bos "x") then cre2 Z0 tt else ann2 Z0 tt) ex_a = cre2 Z0 tt.
  { rewrite /opexpr_den /= /prod_den big_seq1 /ratK /= divr1 scale1r addr0. by []. }
  rewrite EA EB /cre2 /ann2. split; first by rewrite expr2 -mulmxE mul_delta_mx_0.
  split. { apply/eqP=> /matrixP /(_ ord0 ord_max). by rewrite !mxE. }
  rewrite -!mulmxE !mul_delta_mx. apply/eqP=> /matrixP /(_ ord0 ord0). by rewrite !mxE.
Qed.

(** ** C25: the adjoint of an expression denotes the adjoint of the operator, in every algebra with a conjugate-linear
    anti-automorphism exchanging creation and annihilation operators.  (All tensors must carry the same conjugation
    flag, because == of terms ignores it.) *)
Theorem C25_expression_meaning : forall (K : fieldType) (A : algType K) (orb : eqType) (cre ann : Z -> orb -> A) (phi : index -> orb)
  (T : tensor_values K) (conj : {rmorphism K -> K}) (star : A -> A), [char K] =i pred0 -> adjoint_map cre ann T conj star ->
  forall (b : bool) (e : expression), mcanon e -> (forall x, In x e -> conj_flags b x.1) ->
  expr_den cre ann phi T (expr_adjoint e) = star (expr_den cre ann phi T e).
Proof. exact (fun K A orb cre ann phi T conj star ch S b e => @expr_adjoint_den K A orb cre ann phi T conj star ch S b e). Qed.
Print Assumptions C25_expression_meaning.
(** One term: any flags. *)
Theorem C25_term_meaning : forall (K : fieldType) (A : algType K) (orb : eqType) (cre ann : Z -> orb -> A) (phi : index -> orb)
  (T : tensor_values K) (conj : {rmorphism K -> K}) (star : A -> A), adjoint_map cre ann T conj star ->
  forall t, term_den cre ann phi T (term_adjoint t) = star (term_den cre ann phi T t).
Proof. exact (fun K A orb cre ann phi T conj star S t => esym (star_term phi S t)). Qed.
Print Assumptions C25_term_meaning.
Example C25_nonvacuous_meaning : adjoint_map cre2 ann2 T1 [rmorphism of @idfun rat] (fun M : 'M[rat]_2 => M^T).
Proof.
  split=> //; rewrite /cre2 /ann2.
  - move=> x y. exact: raddfD.
  - move=> x y. by rewrite -mulmxE trmx_mul.
  - exact: trmx1.
  - move=> c x. by rewrite linearZ.
  - move=> s p. by rewrite trmx_delta.
  - move=> s p. by rewrite trmx_delta.
Qed.
