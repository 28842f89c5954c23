(** Specification for C48: antisymmetric tensors, expectation values in the reference state. *)
Set Warnings "-notation-overridden,-ambiguous-paths".
From Coq Require Import ZArith List.
From mathcomp Require Import all_ssreflect ssralg.
From Verif Require Import RationalModel RegistryModel CoreModel OperatorModel SortSpec ScalarSem LadderSpec CanonSemSpec WickProductSpec WickSearchModel WickSearchSpec WickPairSpec.
Set Implicit Arguments.
Unset Strict Implicit.
Unset Printing Implicit Defensive.
Import GRing.Theory.
Local Open Scope ring_scope.

Section Spec.
  Variables (K : fieldType) (A : algType K) (orb : eqType) (st : osi) (cre ann : Z -> orb -> A).
  Variable T : text -> seq (Z * orb) -> seq (Z * orb) -> bool -> K.
  (** Antisymmetric in the lower and in the upper indices. *)
  Definition antisymmetric_tensor (label : text) : Prop :=
    (forall lo, alternating -%R (fun up => T label lo up false)) /\ (forall up, alternating -%R (fun lo => T label lo up false)).
  (** Valid operators with antisymmetric tensors, any two of them linked by at most two equal contractions. *)
  Definition product_ok (ops : oprod) : Prop :=
    ops_ok st ops /\ at_most_double st ops /\ (forall o, In o ops -> antisymmetric_tensor (op_label o)).
  (** [f] vanishes on the normal-ordered products of [n] operators unless [lo <= n <= hi]. *)
  Definition only_ranks (V : lmodType K) (f : A -> V) (bound lo hi : Z) : Prop :=
    forall w : seq (bool * (Z * orb)), (forall x, In x w -> registered st x.2.1) -> (Z.of_nat (size w) <= bound)%Z ->
      ~ (lo <= Z.of_nat (size w) <= hi)%Z -> f (normal_product st cre ann w) = 0.
  (** The expectation value in the reference state: excitations on the left and de-excitations on the right give 0. *)
  Record reference_state (f : A -> K) : Prop := {
    ref_one : f 1 = 1;
    ref_left : forall x a, registered st x.2.1 -> makes_excitation st x -> f (ladder cre ann x * a) = 0;
    ref_right : forall x a, registered st x.2.1 -> ~~ makes_excitation st x -> f (a * ladder cre ann x) = 0 }.
  (** The value of the terms without operators. *)
  Definition no_operators (w : seq (bool * (Z * orb))) : K^o := if w is [::] then 1 else 0.
  (** The value of an operator expression. *)
  Variables (orbs : Z -> seq orb) (phi0 : index -> orb).
  Definition opexpr_value (e : seq (oprod * rational)) : A := rsum (product_value st cre ann T orbs phi0) e.
End Spec.
