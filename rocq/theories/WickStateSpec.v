(** Specification for C61: reference states with a determinant in the occupied and unoccupied spaces and any state in the others. *)
Set Warnings "-notation-overridden,-ambiguous-paths".
From Coq Require Import ZArith List.
From mathcomp Require Import all_ssreflect ssralg.
From Verif Require Import RegistryModel CoreModel OperatorModel WickSearchModel WickLegSpec LadderSpec WickProductSpec.
Set Implicit Arguments.
Unset Strict Implicit.
Unset Printing Implicit Defensive.
Import GRing.Theory.
Local Open Scope ring_scope.

(** The labels of the density cumulants. *)
Definition density_label (label : text) : Prop := label = gamma1_label \/ label = eta1_label \/ exists t, label = (lambda_label ++ t)%list.
(** At most one general space. *)
Definition one_active_space (st : osi) : Prop :=
  forall s s', registered st s -> registered st s' -> stype st s = Some General -> stype st s' = Some General -> s = s'.

Section State.
  Variables (K : fieldType) (A : algType K) (orb : eqType) (st : osi) (cre ann : Z -> orb -> A).
  Notation word := (seq (bool * (Z * orb))).
  (** The product of the operators of a word. *)
  Definition word_product (w : word) : A := \prod_(x <- w) ladder cre ann x.
  Definition registered_word (w : word) : Prop := forall x, In x w -> registered st x.2.1.
  (** In occupied and unoccupied spaces excitations on the left and de-excitations on the right give 0; in each general space
      the number of particles is conserved. *)
  Record active_state (f : A -> K) : Prop := {
    act_one : f 1 = 1;
    act_left : forall x a, registered st x.2.1 -> stype st x.2.1 <> Some General -> makes_excitation st x -> f (ladder cre ann x * a) = 0;
    act_right : forall x a, registered st x.2.1 -> stype st x.2.1 <> Some General -> ~~ makes_excitation st x -> f (a * ladder cre ann x) = 0;
    act_number : forall s w, registered st s -> stype st s = Some General -> (forall x, In x w -> x.2.1 = s) ->
      count (fun x => x.1) w <> count (fun x => ~~ x.1) w -> f (word_product w) = 0 }.
  (** Different spaces are independent. *)
  Definition independent_spaces (f : A -> K) : Prop :=
    forall u v, registered_word u -> registered_word v -> (forall x y, In x u -> In y v -> x.2.1 <> y.2.1) ->
      f (word_product u * word_product v) = f (word_product u) * f (word_product v).
End State.
