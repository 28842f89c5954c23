(** A product that meets the hypotheses of C48: two-electron operators V (creates o o, annihilates v v) and T (creates v v, annihilates o o). *)
From Coq Require Import Ascii ZArith List Bool Arith Lia.
From Verif Require Import Res RegistryModel CoreModel RationalModel OperatorModel WickSearchModel WickSearchSpec WickEvalModel WickTotalProofs WickPairSpec WickSearchProps WickLinearProps.
Import ListNotations.
Local Open Scope Z_scope.
Definition wp_st : osi := mkOSI [mkOS "o"%char Occupied Fermion [] []; mkOS "v"%char Unoccupied Fermion [] []] [] [].
Definition wp_ops : oprod := [mkOp ["V"%char] (ws_gm [(2, 0); (0, 2)]); mkOp ["T"%char] (ws_gm [(0, 2); (2, 0)])].
Lemma wp_space s : is_space wp_st s -> s = 0 \/ s = 1.
Proof. unfold is_space, num_spaces. simpl. lia. Qed.
Lemma wp_ok : ops_ok wp_st wp_ops.
Proof.
  split; [vm_compute; lia|]. repeat constructor; try (intros i Hi; simpl in Hi; unfold max_spaces in Hi; do 8 (destruct i as [|i]; [try lia; reflexivity|]); lia);
    match goal with H : _ <= ?s < _ |- _ => destruct (wp_space s H) as [-> | ->] end; vm_compute; discriminate.
Qed.
Lemma wp_double : at_most_double wp_st wp_ops.
Proof.
  intros A B s H Hs. simpl in H. assert (A = O) as -> by lia. assert (B = 1%nat) as -> by lia. destruct (wp_space s Hs) as [-> | ->]; split; intros E; first [left; vm_compute; discriminate|vm_compute in E; discriminate].
Qed.
Lemma wp_search : exists els cvs, search 50 (mkWT 8 true) wp_st wp_ops 0 8 = Ok (els, cvs) /\ length cvs = 9%nat.
Proof. eexists. eexists. split; vm_compute; reflexivity. Qed.
Lemma wp_contract o minr maxr : exists r, contract o wp_st (rat_of_Z 1) wp_ops minr maxr (Ok r).
Proof.
  destruct (C56_outcome o wp_st (rat_of_Z 1) wp_ops minr maxr wp_ok) as (r & H).
  destruct (C56_returns o wp_st (rat_of_Z 1) wp_ops minr maxr wp_ok r) as (e & ->); [|vm_compute; discriminate|exact H|exists e; exact H].
  intros s Hs. destruct (wp_space s Hs) as [-> | ->]; vm_compute; discriminate.
Qed.
