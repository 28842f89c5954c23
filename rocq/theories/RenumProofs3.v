(** C78: [op] with the same text in both registries makes the same operator. *)
From Coq Require Import Ascii ZArith List Bool Lia.
From Verif Require Import Res PartitionsModel RationalModel RegistryModel RegistryProofs CoreModel OperatorModel OperatorSpec OperatorProofs2 WickSearchModel WickSearchSpec LadderSpec RenumSpec.
Import ListNotations.
Local Open Scope Z_scope.
Lemma occurrences_nonneg s c d : 0 <= occurrences s c d.
Proof. unfold occurrences. lia. Qed.
Lemma registered_label st s : registered st s -> exists l, space_label st s = Ok l.
Proof.
  intros H. unfold registered, num_spaces in H. unfold space_label, aget. destruct (Z.ltb_spec s 0); [lia|].
  destruct (nth_error (space_info st) (Z.to_nat s)) eqn:E; [eexists; reflexivity|]. apply nth_error_None in E. lia.
Qed.
Theorem component_renum st st' pi label s : reachable st -> reachable st' -> (length (space_info st) <= 8)%nat -> renumbering st st' pi ->
  (forall t, registered st' t -> space_label st' t = space_label st (pi t)) -> (forall t l, space_label st t = Ok l -> letter l) ->
  known_letters st s -> known_letters st' s ->
  exists o o', component_op st label s = Ok o /\ component_op st' label s = Ok o' /\ same_oper st' pi o o' /\ ops_ok st [o] /\ ops_ok st' [o'].
Proof.
  intros R R' Hn Rn HL Hl K K'. assert (Hn' : (length (space_info st') <= 8)%nat) by (pose proof (ren_num Rn) as E; unfold num_spaces in E; lia).
  destruct (component_op_spec st label s (reachable_ok st R) Hn K) as (o & E & L & V & C).
  destruct (component_op_spec st' label s (reachable_ok st' R') Hn' K') as (o' & E' & L' & V' & C').
  assert (NN : forall t, registered st t -> 0 <= cre_of (op_gm o) t /\ 0 <= ann_of (op_gm o) t).
  { intros t Ht. destruct (registered_label st t Ht) as [l El]. destruct (C t l El (Hl t l El)) as [-> ->]. split; apply occurrences_nonneg. }
  assert (SO : forall t, registered st' t -> cre_of (op_gm o') t = cre_of (op_gm o) (pi t) /\ ann_of (op_gm o') t = ann_of (op_gm o) (pi t)).
  { intros t Ht. destruct (registered_label st (pi t) (ren_reg Rn Ht)) as [l El]. pose proof (HL t Ht) as El'. rewrite El in El'.
    destruct (C _ l El (Hl _ l El)) as [-> ->]. destruct (C' t l El' (Hl _ l El)) as [-> ->]. split; reflexivity. }
  exists o, o'. split; [exact E|]. split; [exact E'|]. split; [split; [congruence|exact SO]|]. split.
  - split; [exact Hn|]. constructor; [|constructor]. split; [exact V|]. intros t Ht. exact (NN t Ht).
  - split; [exact Hn'|]. constructor; [|constructor]. split; [exact V'|]. intros t Ht. destruct (SO t Ht) as [-> ->]. exact (NN _ (ren_reg Rn Ht)).
Qed.
