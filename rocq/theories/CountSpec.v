(** Counting the ways to pick disjoint groups of objects: specification (nothing here models /repo). *)
From Coq Require Import List Permutation.
Import ListNotations.

(** [subseq b l]: [b] is [l] with some entries removed; a subset of the (distinct) entries of [l]. *)
Inductive subseq {A} : list A -> list A -> Prop :=
| sub_nil : subseq [] []
| sub_skip x b l : subseq b l -> subseq b (x :: l)
| sub_take x b l : subseq b l -> subseq (x :: b) (x :: l).

(** [bs]: one subset of [legs] for each pattern of [cs], of that pattern, no element in two of them. *)
Definition realizes {L C} (fits : list L -> C -> Prop) (legs : list L) (cs : list C) (bs : list (list L)) : Prop :=
  Forall2 fits bs cs /\ Forall (fun b => subseq b legs) bs /\ NoDup (concat bs).

(** [R] contains exactly one of the orders of every collection of subsets that realizes [cs]: its length is the
    number of ways to realize the multiset [cs]. *)
Record counts_ways {L C} (fits : list L -> C -> Prop) (legs : list L) (cs : list C) (R : list (list (list L))) : Prop := {
  cw_sound : forall bs, In bs R -> realizes fits legs cs bs;
  cw_complete : forall cs' bs, Permutation cs cs' -> realizes fits legs cs' bs -> exists bs', In bs' R /\ Permutation bs bs';
  cw_once : ForallOrdPairs (fun x y => ~ Permutation x y) R }.
