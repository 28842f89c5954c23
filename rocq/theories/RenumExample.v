(** Registries that differ in the order of the spaces. *)
From Coq Require Import Ascii String ZArith List Bool Arith Lia.
From Verif Require Import Res PartitionsModel RegistryModel RegistryProofs CoreModel RationalModel OperatorModel OperatorSpec WickSearchModel WickSearchSpec WickCombSpec WickEvalModel WickTotalProofs WickSearchProps WickLinearProps WickProductExample WickGeneralExample OperatorProofs2 LadderSpec OperatorProps RenumSpec.
Import ListNotations.
Local Open Scope string_scope.
Local Open Scope Z_scope.
(** o, v and v, o; V and T of C48. *)
Definition rp_st : osi := mkOSI [mkOS "v"%char Unoccupied Fermion [] []; mkOS "o"%char Occupied Fermion [] []] [] [].
Definition rp_pi (s : Z) : Z := 1 - s.
Definition rp_ops : oprod := [mkOp ["V"%char] (ws_gm [(0, 2); (2, 0)]); mkOp ["T"%char] (ws_gm [(2, 0); (0, 2)])].
Lemma rp_space s : is_space rp_st s -> s = 0 \/ s = 1.
Proof. unfold is_space, num_spaces. simpl. lia. Qed.
Lemma rp_ren : renumbering wp_st rp_st rp_pi.
Proof.
  constructor; [reflexivity| | | |].
  - intros s H. destruct (rp_space s H) as [-> | ->]; split; vm_compute; congruence.
  - intros s t _ _. unfold rp_pi. lia.
  - intros s H. destruct (rp_space s H) as [-> | ->]; reflexivity.
  - intros s H. destruct (rp_space s H) as [-> | ->]; reflexivity.
Qed.
Lemma rp_ok : ops_ok rp_st rp_ops.
Proof.
  split; [vm_compute; lia|]. repeat constructor; try (intros i Hi; simpl in Hi; unfold max_spaces in Hi; do 8 (destruct i as [|i]; [try lia; reflexivity|]); lia);
    match goal with H : _ <= ?s < _ |- _ => destruct (rp_space s H) as [-> | ->] end; vm_compute; discriminate.
Qed.
Lemma rp_same : same_product rp_st rp_pi wp_ops rp_ops.
Proof. repeat constructor; match goal with H : registered _ ?s |- _ => destruct (rp_space s H) as [-> | ->] end; reflexivity. Qed.
Lemma rp_contract o minr maxr : exists r, contract o rp_st (rat_of_Z 1) rp_ops minr maxr (Ok r).
Proof.
  destruct (C56_outcome o rp_st (rat_of_Z 1) rp_ops minr maxr rp_ok) as (r & H).
  destruct (C56_returns o rp_st (rat_of_Z 1) rp_ops minr maxr rp_ok r) as (e & ->); [|vm_compute; discriminate|exact H|exists e; exact H].
  intros s Hs. destruct (rp_space s Hs) as [-> | ->]; vm_compute; discriminate.
Qed.
(** o, a, v and v, o, a; F and G of C61. *)
Definition rg_st : osi := mkOSI [mkOS "v"%char Unoccupied Fermion [] []; mkOS "o"%char Occupied Fermion [] []; mkOS "a"%char General Fermion [] []] [] [].
Definition rg_pi (s : Z) : Z := (s + 2) mod 3.
Definition rg_ops : oprod := [mkOp ["F"%char] (ws_gm [(0, 0); (0, 0); (1, 1)]); mkOp ["G"%char] (ws_gm [(0, 0); (0, 0); (1, 1)])].
Lemma rg_space s : is_space rg_st s -> s = 0 \/ s = 1 \/ s = 2.
Proof. unfold is_space, num_spaces. simpl. lia. Qed.
Lemma rg_ren : renumbering wg_st rg_st rg_pi.
Proof.
  constructor; [reflexivity| | | |].
  - intros s H. destruct (rg_space s H) as [-> | [-> | ->]]; split; vm_compute; congruence.
  - intros s t Hs Ht. destruct (rg_space s Hs) as [-> | [-> | ->]]; destruct (rg_space t Ht) as [-> | [-> | ->]]; vm_compute; congruence.
  - intros s H. destruct (rg_space s H) as [-> | [-> | ->]]; reflexivity.
  - intros s H. destruct (rg_space s H) as [-> | [-> | ->]]; reflexivity.
Qed.
Lemma rg_ok : ops_ok rg_st rg_ops.
Proof.
  split; [vm_compute; lia|]. repeat constructor; try (intros i Hi; simpl in Hi; unfold max_spaces in Hi; do 8 (destruct i as [|i]; [try lia; reflexivity|]); lia);
    match goal with H : _ <= ?s < _ |- _ => destruct (rg_space s H) as [-> | [-> | ->]] end; vm_compute; discriminate.
Qed.
Lemma rg_few : few_legs rg_st rg_ops.
Proof.
  intros A B s HA HB N Hs. simpl in HA, HB. left. destruct A as [|[|A]]; [| |lia]; destruct (rg_space s Hs) as [-> | [-> | ->]]; vm_compute; discriminate.
Qed.
Lemma rg_same : same_product rg_st rg_pi wg_ops rg_ops.
Proof. repeat constructor; match goal with H : registered _ ?s |- _ => destruct (rg_space s H) as [-> | [-> | ->]] end; reflexivity. Qed.
Lemma rg_contract o minr maxr : exists r, contract o rg_st (rat_of_Z 1) rg_ops minr maxr (Ok r).
Proof.
  destruct (C56_outcome o rg_st (rat_of_Z 1) rg_ops minr maxr rg_ok) as (r & H).
  destruct (C56_returns o rg_st (rat_of_Z 1) rg_ops minr maxr rg_ok r) as (e & ->); [|vm_compute; discriminate|exact H|exists e; exact H].
  intros s Hs. destruct (rg_space s Hs) as [-> | [-> | ->]]; vm_compute; discriminate.
Qed.
(** The spaces of [two_spaces] added in the other order. *)
Definition spaces_two : osi := fst (add_space (fst (add_space reset_space "v"%char Fermion Unoccupied [tx "a"; tx "b"] [])) "o"%char Fermion Occupied [tx "i"; tx "j"] []).
Lemma spaces_two_reachable : reachable spaces_two.
Proof.
  apply (RS (fst (add_space reset_space "v"%char Fermion Unoccupied [tx "a"; tx "b"] [])) (CAdd "o"%char Fermion Occupied [tx "i"; tx "j"] [])); [|reflexivity].
  apply (RS reset_space (CAdd "v"%char Fermion Unoccupied [tx "a"; tx "b"] [])); [constructor|reflexivity].
Qed.
Lemma two_space s : registered spaces_two s -> s = 0 \/ s = 1.
Proof. unfold registered, num_spaces. simpl. lia. Qed.
Lemma two_ren : renumbering two_spaces spaces_two rp_pi.
Proof.
  constructor; [reflexivity| | | |].
  - intros s H. destruct (two_space s H) as [-> | ->]; split; vm_compute; congruence.
  - intros s t _ _. unfold rp_pi. lia.
  - intros s H. destruct (two_space s H) as [-> | ->]; reflexivity.
  - intros s H. destruct (two_space s H) as [-> | ->]; reflexivity.
Qed.
Lemma two_labels t : registered spaces_two t -> space_label spaces_two t = space_label two_spaces (rp_pi t).
Proof. intros H. destruct (two_space t H) as [-> | ->]; reflexivity. Qed.
Lemma two_letters t l : space_label two_spaces t = Ok l -> letter l.
Proof.
  intros H. destruct t as [|[p|p|]|p]; try discriminate H.
  - injection H as <-. apply is_letter_ok. reflexivity.
  - exfalso. unfold space_label, aget in H. destruct (nth_error (space_info two_spaces) _) eqn:E in H; try discriminate H.
    assert (nth_error (space_info two_spaces) (Z.to_nat (Z.pos p~1)) <> None) as N by congruence. apply nth_error_Some in N. simpl length in N. lia.
  - exfalso. unfold space_label, aget in H. destruct (nth_error (space_info two_spaces) _) eqn:E in H; try discriminate H.
    assert (nth_error (space_info two_spaces) (Z.to_nat (Z.pos p~0)) <> None) as N by congruence. apply nth_error_Some in N. simpl length in N. lia.
  - injection H as <-. apply is_letter_ok. reflexivity.
Qed.
Lemma two_known (st : osi) : (st = two_spaces \/ st = spaces_two) -> Forall (known_letters st) [tx "v+ o"; tx "v+ v+ o o"].
Proof.
  intros H. repeat constructor; intros c Hc Hl; apply is_letter_ok in Hl;
  destruct H as [-> | ->]; repeat (destruct Hc as [<-|Hc]; [vm_compute in Hl; try discriminate; eexists; reflexivity|]); destruct Hc.
Qed.
