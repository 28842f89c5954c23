(** Specification for C77: adjoints of algebras of operators, Hermitian tensors, adjoints of words. *)
Set Warnings "-notation-overridden,-ambiguous-paths".
From Coq Require Import ZArith List.
From mathcomp Require Import all_ssreflect ssralg.
From Verif Require Import RationalModel RegistryModel CoreModel OperatorModel LadderSpec WickSearchModel WickLegSpec WickProductSpec WickTheoremSpec WickGeneralSpec.
Set Implicit Arguments.
Unset Strict Implicit.
Unset Printing Implicit Defensive.
Import GRing.Theory.
Local Open Scope ring_scope.

Section Adjoint.
  Variables (K : fieldType) (A : algType K) (orb : eqType) (cre ann : Z -> orb -> A) (conj : {rmorphism K -> K}) (star : A -> A).
  (** An adjoint of the algebra: a conjugate-linear map that reverses products and exchanges the creation and the annihilation
      operator of every orbital. *)
  Record operator_adjoint : Prop := {
    adj_add : forall x y, star (x + y) = star x + star y;
    adj_mul : forall x y, star (x * y) = star y * star x;
    adj_one : star 1 = 1;
    adj_scale : forall c x, star (c *: x) = conj c *: star x;
    adj_cre : forall s p, star (cre s p) = ann s p;
    adj_ann : forall s p, star (ann s p) = cre s p }.
  (** The adjoint of a word of creation (true) and annihilation (false) operators. *)
  Definition adjoint_word (w : seq (bool * (Z * orb))) : seq (bool * (Z * orb)) := rev [seq (~~ x.1, x.2) | x <- w].

  Variable T : text -> seq (Z * orb) -> seq (Z * orb) -> bool -> K.
  (** Exchanging the lower and the upper orbitals conjugates the elements of the tensor. *)
  Definition hermitian_tensor (label : text) : Prop := forall lo up, T label up lo false = conj (T label lo up false).
  (** The flag of a tensor stands for its conjugate, with lower and upper indices as they are. *)
  Definition flag_conjugates (label : text) : Prop := forall lo up, T label lo up true = conj (T label lo up false).
  (** One-particle density matrix and density cumulants are Hermitian. *)
  Definition hermitian_densities (st : osi) : Prop :=
    (exists s, registered st s /\ stype st s = Some General) -> hermitian_tensor gamma1_label /\ forall k, (2 <= k)%N -> hermitian_tensor (lambda_text k).
End Adjoint.
