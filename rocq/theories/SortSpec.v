(** Specification vocabulary: rearrangements with a sign. *)
From Coq Require Import ZArith List Bool Sorted.
From Verif Require Import RegistryModel CoreModel.
Import ListNotations.
Local Open Scope Z_scope.

(** [sperm l s l']: [l'] is obtained from [l] by exchanging neighbours, [s] is +1 (-1) if the number
    of exchanges is even (odd). *)
Inductive sperm {A} : list A -> Z -> list A -> Prop :=
| sp_refl l : sperm l 1 l
| sp_swap l1 x y l2 s l' : sperm (l1 ++ y :: x :: l2) s l' -> sperm (l1 ++ x :: y :: l2) (- s) l'.

(** No element is smaller than an earlier one. *)
Definition ordered {A} (lt : A -> A -> bool) (l : list A) : Prop :=
  StronglySorted (fun a b => lt b a = false) l.

(** Values with a sign: [sgn v 1 = v], [sgn v (-1) = - v]. *)
Definition sgn {V} (opp : V -> V) (s : Z) (v : V) : V := if s =? 1 then v else opp v.

(** A function of an index list that changes sign (does not change) when neighbours are exchanged. *)
Definition alternating {A V} (opp : V -> V) (f : list A -> V) : Prop :=
  forall l1 x y l2, f (l1 ++ x :: y :: l2) = opp (f (l1 ++ y :: x :: l2)).
Definition symmetric_fn {A V} (f : list A -> V) : Prop :=
  forall l1 x y l2, f (l1 ++ x :: y :: l2) = f (l1 ++ y :: x :: l2).

(** A numerical tensor: element for given label, lower and upper indices and conjugation flag. *)
Definition tensor_values (V : Type) := text -> list index -> list index -> bool -> V.
Definition tensor_elem {V} (T : tensor_values V) (t : tensor) : V :=
  T (t_label t) (t_lower t) (t_upper t) (t_cc t).
