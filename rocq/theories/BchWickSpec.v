(** Specification for C74: operators of an expression, excitations, the transformed operator. *)
Set Warnings "-notation-overridden,-ambiguous-paths".
From Coq Require Import ZArith List.
From mathcomp Require Import all_ssreflect ssralg.
From Verif Require Import RationalModel RegistryModel CoreModel AlgebraModel OperatorModel OperatorSpec AlgebraSpec LadderSpec WickSearchModel WickSearchSpec WickEvalModel WickTheoremSpec.
Set Implicit Arguments.
Unset Strict Implicit.
Unset Printing Implicit Defensive.
Import GRing.Theory.
Local Open Scope ring_scope.

(** The operators in the products of an expression. *)
Definition operators_of (e : opexpr) (o : oper) : Prop := exists x, In x e /\ In o x.1.
(** No product has more than [n] legs. *)
Definition legs_at_most (e : opexpr) (n : Z) : Prop := forall x, In x e -> (ops_rank x.1 <= n)%Z.
(** [a] to the left of [b] cannot be contracted three times with it in the same way: in every space one of the two has at most two of the legs
    that contractions use. *)
Definition twice_at_most (st : osi) (a b : oper) : Prop := forall s, is_space st s ->
  (stype st s = Some Occupied -> (cre_of (op_gm a) s <= 2)%Z \/ (ann_of (op_gm b) s <= 2)%Z) /\
  (stype st s = Some Unoccupied -> (ann_of (op_gm a) s <= 2)%Z \/ (cre_of (op_gm b) s <= 2)%Z).
(** With general spaces: whichever stands to the left. *)
Definition never_thrice (st : osi) (a b : oper) : Prop := forall s, is_space st s -> (cre_of (op_gm a) s <= 2)%Z \/ (ann_of (op_gm b) s <= 2)%Z.
(** At most two creation and two annihilation operators of every space. *)
Definition two_body (st : osi) (o : oper) : Prop := forall s, is_space st s -> (cre_of (op_gm o) s <= 2)%Z /\ (ann_of (op_gm o) s <= 2)%Z.
(** Excitations with respect to the determinant: they annihilate occupied and create unoccupied orbitals. *)
Definition only_excites (st : osi) (o : oper) : Prop := forall s, is_space st s ->
  (stype st s = Some Occupied -> cre_of (op_gm o) s = 0%Z) /\ (stype st s = Some Unoccupied -> ann_of (op_gm o) s = 0%Z).
(** The cluster operators: sums of products of excitations with an even, non-zero, number of legs. *)
Definition cluster_operator (st : osi) (e : opexpr) : Prop :=
  forall x, In x e -> (forall o, In o x.1 -> only_excites st o) /\ Z.even (ops_rank x.1) = true /\ (0 < ops_rank x.1)%Z.

Section Data.
  Variables (K : fieldType) (orb : eqType) (st : osi) (T : text -> seq (Z * orb) -> seq (Z * orb) -> bool -> K).
  Definition operators_ok (e : opexpr) : Prop :=
    (nsp st <= max_spaces)%coq_nat /\ forall o, operators_of e o -> op_valid st o /\ nonneg_counts st o /\ antisymmetric_tensor T (op_label o).
End Data.

Section Series.
  Variables (K : fieldType) (A : algType K).
  (** [...[[x,y1],y2]...], *)
  Definition commutators_of (x : A) (l : seq A) : A := foldl (fun x y => x * y - y * x) x l.
  (** the Baker-Campbell-Hausdorff series of exp(-y) x exp(y) to order n, *)
  Definition bch_sum (x y : A) (n : nat) : A := \sum_(k < n.+1) (k`!%:R)^-1 *: iter k (fun z => z * y - y * z) x.
  (** and the exponential of a nilpotent element, y^m = 0. *)
  Definition exponential (m : nat) (y : A) : A := \sum_(i < m) (i`!%:R)^-1 *: y ^+ i.
End Series.
