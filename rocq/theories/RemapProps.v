(** C53: [remap]. *)
From Coq Require Import ZArith List Bool Lia Sorting.Sorted.
From Verif Require Import Res CoreModel AdjointModel TextModel RemapModel RemapProofs.
Import ListNotations.
Local Open Scope Z_scope.

(** C53: for a second list without repetitions, the map renames every index that occurs in the first list, renames nothing else
    except indices that it has itself just handed out, keeps the space, hands out new indices that do not occur in the first list
    and are pairwise different; so after renaming, the second list shares no index with the first. *)
Theorem C53_remap_avoids : forall a b m, NoDup b -> remap a b = Ok m ->
  (forall i, In i b -> In i a -> exists j, imfind i m = Some j) /\
  (forall i j, imfind i m = Some j -> In i b /\ (In i a \/ exists i', imfind i' m = Some i) /\ isp j = isp i /\ ~ In j a) /\
  (forall i i' j, imfind i m = Some j -> imfind i' m = Some j -> i = i') /\
  (forall i, In i b -> ~ In (reindex m i) a).
Proof. exact remap_sound. Qed.
Print Assumptions C53_remap_avoids.
(** C53: if positions increase along the second list in each space, different indices stay different. *)
Theorem C53_remap_injective : forall a b m i i', StronglySorted (fun i i' => isp i = isp i' -> ipos i < ipos i') b ->
  remap a b = Ok m -> In i b -> In i' b -> reindex m i = reindex m i' -> i = i'.
Proof. exact remap_inj. Qed.
Print Assumptions C53_remap_injective.
(** C53: it returns if there is room for the new positions in an [int]. *)
Theorem C53_remap_defined : forall a b, (forall i, In i a -> ipos i <= max_int - Z.of_nat (length b)) -> exists m, remap a b = Ok m.
Proof. exact remap_defined. Qed.
Print Assumptions C53_remap_defined.
(** C53 refuted in general: a new index can coincide with an index of the second list that was passed earlier and kept. *)
Theorem C53_clash_refuted : exists a b m i i', NoDup b /\ remap a b = Ok m /\ In i b /\ In i' b /\ i <> i' /\ reindex m i = reindex m i'.
Proof.
  exists [mkI 0 0], [mkI 0 1; mkI 0 0], [(mkI 0 0, mkI 0 1)], (mkI 0 1), (mkI 0 0).
  split; [repeat constructor; cbn; intuition discriminate|]. split; [reflexivity|]. split; [left; auto|]. split; [right; left; auto|]. split; [discriminate|reflexivity].
Qed.
Print Assumptions C53_clash_refuted.

Example C53_nonvacuous : remap [mkI 0 0; mkI 1 4; mkI 0 2] [mkI 0 0; mkI 0 3; mkI 1 0; mkI 1 4] = Ok [(mkI 0 0, mkI 0 3); (mkI 0 3, mkI 0 4); (mkI 1 4, mkI 1 5)] /\
  StronglySorted (fun i i' => isp i = isp i' -> ipos i < ipos i') [mkI 0 0; mkI 0 3; mkI 1 0; mkI 1 4].
Proof. split; [reflexivity|]. repeat (apply SSorted_cons; [|repeat apply Forall_cons; try apply Forall_nil; cbn; lia]). apply SSorted_nil. Qed.
