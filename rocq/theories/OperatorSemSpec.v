(** Specification: meaning of operator products and operator expressions in an algebra. *)
Set Warnings "-notation-overridden,-ambiguous-paths".
From Coq Require Import ZArith List.
From mathcomp Require Import all_ssreflect ssralg.
From Verif Require Import RationalModel RegistryModel CoreModel AlgebraModel OperatorModel OperatorSpec SortSpec ScalarSem LadderSpec.
Set Implicit Arguments.
Unset Strict Implicit.
Unset Printing Implicit Defensive.
Import GRing.Theory.
Local Open Scope ring_scope.

Section Sem.
  Variables (K : fieldType) (A : algType K).
  (** [den o]: the element denoted by the operator [o]. *)
  Variable den : oper -> A.
  Definition prod_den (p : oprod) : A := \prod_(o <- p) den o.
  Definition opexpr_den (e : seq (oprod * rational)) : A := rsum prod_den e.

  (** Operators (among those satisfying [P]) that the code considers commuting commute up to the sign
      (-1)^(number of legs of [a] times that of [b]). *)
  Definition graded_commuting (st : osi) (P : oper -> Prop) : Prop := forall a b, P a -> P b -> ops_commute st a b = true ->
    den a * den b = zr K (nsign (Z.mul (op_num a) (op_num b))) *: (den b * den a).
End Sem.

Section Ladder.
  Variables (K : fieldType) (A : algType K) (orb : eqType) (st : osi) (cre ann : Z -> orb -> A).
  (** Words in creation ([true]) and annihilation operators of orbitals of given spaces. *)
  Definition letter_den (x : bool * Z * orb) : A := if x.1.1 then cre x.1.2 x.2 else ann x.1.2 x.2.
  Definition word_den (w : seq (bool * Z * orb)) : A := \prod_(x <- w) letter_den x.
  Definition in_space (b : bool) (s : Z) (w : seq (bool * Z * orb)) : seq (bool * Z * orb) :=
    [seq x <- w | (x.1.1 == b) && Z.eqb x.1.2 s].
  (** [w] has, in each registered space, the numbers of creation and annihilation operators of [o], and nothing else. *)
  Definition word_of (o : oper) (w : seq (bool * Z * orb)) : Prop :=
    (forall x, In x w -> registered st x.1.2) /\
    (forall s, registered st s -> Z.of_nat (size (in_space true s w)) = cre_of (op_gm o) s /\
                                  Z.of_nat (size (in_space false s w)) = ann_of (op_gm o) s).
  (** An element of the kind an operator such as "T(v+ o)" stands for: any linear combination of such words. *)
  Definition combination_for (o : oper) (x : A) : Prop :=
    exists l : seq (K * seq (bool * Z * orb)), (forall y, In y l -> word_of o y.2) /\ x = \sum_(y <- l) y.1 *: word_den y.2.
  (** Operators that can arise with the registered spaces. *)
  Definition proper (o : oper) : Prop := op_valid st o /\ nonneg_counts st o.
  Definition all_fermions : Prop := forall s, registered st s -> field_of st s = Fermion.
End Ladder.

(** Commutator and its iterates. *)
Definition commutator_of (R : ringType) (x y : R) : R := x * y - y * x.

(** An adjoint: conjugate-linear anti-automorphism exchanging creation and annihilation of each orbital. *)
Record adjoint_map (K : fieldType) (A : algType K) (orb : eqType) (cre ann : Z -> orb -> A) (T : tensor_values K)
  (conj : {rmorphism K -> K}) (star : A -> A) : Prop := {
  star_add : forall x y, star (x + y) = star x + star y;
  star_mul : forall x y, star (x * y) = star y * star x;
  star_one : star 1 = 1;
  star_scale : forall c x, star (c *: x) = conj c *: star x;
  star_cre : forall s p, star (cre s p) = ann s p;
  star_ann : forall s p, star (ann s p) = cre s p;
  conj_tensor : forall l lo up cc, T l lo up (negb cc) = conj (T l lo up cc) }.

(** All tensors of the term carry the conjugation flag [b]. *)
Definition conj_flags (b : bool) (t : term) : Prop := Forall (fun d => t_cc d = b) (tm_tens t).
