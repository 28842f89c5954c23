(** Products that meet the hypotheses of C77. *)
From Coq Require Import Ascii ZArith List Bool Arith Lia.
From Verif Require Import Res RegistryModel CoreModel RationalModel OperatorModel OperatorSpec AdjointModel WickSearchModel WickSearchSpec WickCombSpec WickEvalModel WickTotalProofs WickPairSpec WickSearchProps WickLinearProps WickProductExample WickGeneralExample AdjWickProofs4.
Import ListNotations.
Local Open Scope Z_scope.
(** The adjoint of V T is T+ V+, with creation and annihilation operators exchanged. *)
Definition wp_adj : oprod := [mkOp ["T"%char] (ws_gm [(2, 0); (0, 2)]); mkOp ["V"%char] (ws_gm [(0, 2); (2, 0)])].
Lemma wp_adjoint : oprod_adjoint wp_st wp_ops = Ok wp_adj.
Proof. vm_compute. reflexivity. Qed.
(** V V+ is its own adjoint. *)
Definition sa_ops : oprod := [mkOp ["V"%char] (ws_gm [(2, 0); (0, 2)]); mkOp ["V"%char] (ws_gm [(0, 2); (2, 0)])].
Lemma sa_adjoint : oprod_adjoint wp_st sa_ops = Ok sa_ops.
Proof. vm_compute. reflexivity. Qed.
Lemma wp_adj_ok : ops_ok wp_st wp_adj.
Proof.
  split; [vm_compute; lia|]. repeat constructor; try (intros i Hi; simpl in Hi; unfold max_spaces in Hi; do 8 (destruct i as [|i]; [try lia; reflexivity|]); lia);
    match goal with H : _ <= ?s < _ |- _ => destruct (wp_space s H) as [-> | ->] end; vm_compute; discriminate.
Qed.
Lemma sa_ok : ops_ok wp_st sa_ops.
Proof.
  split; [vm_compute; lia|]. repeat constructor; try (intros i Hi; simpl in Hi; unfold max_spaces in Hi; do 8 (destruct i as [|i]; [try lia; reflexivity|]); lia);
    match goal with H : _ <= ?s < _ |- _ => destruct (wp_space s H) as [-> | ->] end; vm_compute; discriminate.
Qed.
Lemma sa_double : at_most_double wp_st sa_ops.
Proof.
  intros A B s H Hs. simpl in H. assert (A = O) as -> by lia. assert (B = 1%nat) as -> by lia. destruct (wp_space s Hs) as [-> | ->]; split; intros E; first [left; vm_compute; discriminate|vm_compute in E; discriminate].
Qed.
Lemma wp_adj_contract o minr maxr : exists r, contract o wp_st (rat_of_Z 1) wp_adj minr maxr (Ok r).
Proof.
  destruct (C56_outcome o wp_st (rat_of_Z 1) wp_adj minr maxr wp_adj_ok) as (r & H).
  destruct (C56_returns o wp_st (rat_of_Z 1) wp_adj minr maxr wp_adj_ok r) as (e & ->); [|vm_compute; discriminate|exact H|exists e; exact H].
  intros s Hs. destruct (wp_space s Hs) as [-> | ->]; vm_compute; discriminate.
Qed.
Lemma sa_contract o minr maxr : exists r, contract o wp_st (rat_of_Z 1) sa_ops minr maxr (Ok r).
Proof.
  destruct (C56_outcome o wp_st (rat_of_Z 1) sa_ops minr maxr sa_ok) as (r & H).
  destruct (C56_returns o wp_st (rat_of_Z 1) sa_ops minr maxr sa_ok r) as (e & ->); [|vm_compute; discriminate|exact H|exists e; exact H].
  intros s Hs. destruct (wp_space s Hs) as [-> | ->]; vm_compute; discriminate.
Qed.
Lemma sa_search : exists els cvs, search 50 (mkWT 8 true) wp_st sa_ops 0 0 = Ok (els, cvs) /\ (1 <= length cvs)%nat.
Proof. eexists. eexists. split; [vm_compute; reflexivity|vm_compute; lia]. Qed.
(** F G with a general space; the adjoint is G+ F+. *)
Definition wg_adj : oprod := [mkOp ["G"%char] (ws_gm [(0, 0); (1, 1)]); mkOp ["F"%char] (ws_gm [(0, 0); (1, 1)])].
Lemma wg_adjoint : oprod_adjoint wg_st wg_ops = Ok wg_adj.
Proof. vm_compute. reflexivity. Qed.
Lemma wg_adj_few : few_legs wg_st wg_adj.
Proof. pose proof (prodadj_few wg_st wg_ops wg_ok wg_few) as H. rewrite <- (prodadj_eq wg_st wg_ops wg_adj wg_ok wg_adjoint) in H. exact H. Qed.
Lemma wg_adj_ok : ops_ok wg_st wg_adj.
Proof. pose proof (prodadj_ops_ok wg_st wg_ops wg_ok) as H. rewrite <- (prodadj_eq wg_st wg_ops wg_adj wg_ok wg_adjoint) in H. exact H. Qed.
Lemma wg_adj_contract o minr maxr : exists r, contract o wg_st (rat_of_Z 1) wg_adj minr maxr (Ok r).
Proof.
  destruct (C56_outcome o wg_st (rat_of_Z 1) wg_adj minr maxr wg_adj_ok) as (r & H).
  destruct (C56_returns o wg_st (rat_of_Z 1) wg_adj minr maxr wg_adj_ok r) as (e & ->); [|vm_compute; discriminate|exact H|exists e; exact H].
  intros s Hs. destruct (wg_space s Hs) as [-> | [-> | ->]]; vm_compute; discriminate.
Qed.
