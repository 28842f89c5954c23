(** Specification for C61: density cumulants, generalized normal ordering, multireference states. *)
Set Warnings "-notation-overridden,-ambiguous-paths".
From Coq Require Import ZArith List.
From mathcomp Require Import all_ssreflect ssralg.
From Verif Require Import RationalModel RegistryModel CoreModel OperatorModel DecModel SortSpec ScalarSem LadderSpec CanonSemSpec
  WickSearchModel WickSearchSpec WickCombSpec WickLegSpec WickProductSpec WickTheoremSpec.
Set Implicit Arguments.
Unset Strict Implicit.
Unset Printing Implicit Defensive.
Import GRing.Theory.
Local Open Scope ring_scope.

(** ** Splitting words *)
Section Splits.
  Variable X : Type.
  (** All ways to choose some letters of a word: the number of exchanges needed to move the chosen letters to the front, the
      chosen letters, the others. *)
  Fixpoint splits (w : seq X) : seq (nat * seq X * seq X) :=
    match w with
    | [::] => [:: (0%N, [::], [::])]
    | x :: w' => [seq (p.1.1, x :: p.1.2, p.2) | p <- splits w'] ++ [seq ((p.1.1 + size p.1.2)%N, p.1.2, x :: p.2) | p <- splits w']
    end.
  Variables (K : fieldType) (V : lmodType K).
  (** The sum over all ways to choose letters [b] of [sign * f b * G (others)]. *)
  Definition split_sum (f : seq X -> K) (G : seq X -> V) (w : seq X) : V :=
    \sum_(p <- splits w) ((-1) ^+ p.1.1 * f p.1.2) *: G p.2.
  (** The sum over all ways to divide a word into groups of the product of [lam] of the groups, with the sign of the
      rearrangement: the first letter forms a group with some of the others, then the rest is divided. *)
  Fixpoint divide (lam : seq X -> K) (n : nat) (w : seq X) : K :=
    match w, n with
    | [::], _ => 1
    | _, 0 => 0
    | x :: w', n'.+1 => \sum_(p <- splits w') (-1) ^+ p.1.1 * lam (x :: p.1.2) * divide lam n' p.2
    end.
  Definition moment (lam : seq X -> K) (w : seq X) : K := divide lam (size w) w.
End Splits.

Section General.
  Variables (K : fieldType) (A : algType K) (orb : eqType) (st : osi) (cre ann : Z -> orb -> A).
  Variable T : text -> seq (Z * orb) -> seq (Z * orb) -> bool -> K.
  Variable maxcumulant : nat.
  Notation word := (seq (bool * (Z * orb))).

  (** All registered spaces are fermionic and occupied, unoccupied or general. *)
  Definition multi_reference : Prop :=
    forall s, registered st s -> field_of st s = Fermion /\ (stype st s = Some Occupied \/ stype st s = Some Unoccupied \/ stype st s = Some General).

  (** The product with all creation operators to the left of all annihilation operators, with the sign of the exchanges. *)
  Fixpoint vacuum_product (w : word) : A :=
    match w with
    | [::] => 1
    | x :: w' => if x.1 then ladder cre ann x * vacuum_product w' else (-1) ^+ size w' *: (vacuum_product w' * ladder cre ann x)
    end.

  (** The density cumulants of the reference state: products of creation operators of the orbitals [c] and annihilation operators
      of the orbitals [a], all of one space: a determinant in occupied and unoccupied spaces, the tensors gamma1, lambda2, ... up to
      the order [maxcumulant] in general spaces. *)
  Definition lambda_text (k : nat) : text := (lambda_label ++ dec_text (Z.of_nat k))%list.
  Definition density (ty : option space_type) (c a : seq (Z * orb)) : K :=
    match ty with
    | Some Occupied => if (c, a) is ([:: p], [:: q]) then (p.2 == q.2)%:R else 0
    | Some General =>
      if size c == 1%N then T gamma1_label a c false
      else if (2 <= size c <= maxcumulant)%N then T (lambda_text (size c)) (rev a) c false else 0
    | _ => 0
    end.
  (** The number of exchanges that bring the creation operators to the front. *)
  Fixpoint exchanges (b : word) : nat := match b with [::] => 0%N | x :: b' => ((if x.1 then 0 else count fst b') + exchanges b')%N end.
  Definition cumulant (b : word) : K :=
    let c := [seq x.2 | x <- b & x.1] in let a := [seq x.2 | x <- b & ~~ x.1] in
    if b is x :: _ then
      if all (fun y => (y.2.1 =? x.2.1)%Z) b && (size c == size a) then (-1) ^+ exchanges b * density (stype st x.2.1) c a else 0
    else 0.

  (** Antisymmetric densities; the one-hole density. *)
  Record densities : Prop := {
    den_gamma : antisymmetric_tensor T gamma1_label;
    den_eta_anti : antisymmetric_tensor T eta1_label;
    den_lambda : forall k, (2 <= k)%N -> antisymmetric_tensor T (lambda_text k);
    den_eta : forall s p q, registered st s -> stype st s = Some General -> T eta1_label [:: (s, q)] [:: (s, p)] false = (p == q)%:R - T gamma1_label [:: (s, q)] [:: (s, p)] false }.

  (** Generalized normal ordering: [N] is the normal-ordered product if every product with creation operators on the left is the sum
      over all choices of contracted operators of the moments of the contracted ones times [N] of the others. *)
  Definition generalized_normal_product (N : word -> A) : Prop :=
    forall w, (forall x, In x w -> registered st x.2.1) -> vacuum_product w = split_sum (moment cumulant) N w.
  (** A reference state with these cumulants: its expectation values are the moments. *)
  Record correlated_state (f : A -> K) : Prop := {
    cor_one : f 1 = 1;
    cor_moments : forall w, (forall x, In x w -> registered st x.2.1) -> f (vacuum_product w) = moment cumulant w }.

  (** Operators and their products as in C48, with the generalized normal product [N]. *)
  Variables (N : word -> A) (orbs : Z -> seq orb) (phi0 : index -> orb).
  Definition gop_value (o : oper) : A := (op_norm st o)%:R^-1 *: term_value N T orbs phi0 (op_as_term st o).
  Definition gproduct_value (ops : oprod) : A := \prod_(o <- ops) gop_value o.
  Definition gopexpr_value (e : seq (oprod * rational)) : A := rsum gproduct_value e.
  (** Valid operators with antisymmetric tensors; no contraction can be carried out three times. *)
  Definition no_triple (ops : oprod) : Prop := forall c, allowed st (Z.of_nat maxcumulant) ops c -> ~ enough_legs st ops [:: c; c; c].
  Definition gproduct_ok (ops : oprod) : Prop :=
    ops_ok st ops /\ no_triple ops /\ (forall o, In o ops -> antisymmetric_tensor T (op_label o)).
  Definition gonly_ranks (V : lmodType K) (f : A -> V) (bound lo hi : Z) : Prop :=
    forall w : word, (forall x, In x w -> registered st x.2.1) -> (Z.of_nat (size w) <= bound)%Z ->
      ~ (lo <= Z.of_nat (size w) <= hi)%Z -> f (N w) = 0.
End General.
