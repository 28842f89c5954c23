(** C45 (threads give the single-threaded result) and C46 (timers). *)
From Coq Require Import Ascii ZArith List Bool Arith Lia.
From Verif Require Import Res RegistryModel CoreModel RationalModel AlgebraModel OperatorModel WickSearchModel WickSearchSpec WickCompProofs WickSearchProofs WickEvalModel WickThreadModel WickThreadSpec WickThreadProofs WickThreadProofs2
  WickTotalProofs WickSearchProps WickCombProps.
Import ListNotations.
Local Open Scope Z_scope.

(** ** C45 *)
(** Whatever the schedule and the clocks: when the launching thread is done, its result is the one of the loop that adds the
    outcomes of the contractions one after the other (which is the single-threaded step, [process_contractions]). *)
Theorem C45_every_schedule : forall o st els cvs ops factor minrank maxrank outcome time tm s,
  (forall cv, In cv cvs -> process_single o st els ops factor minrank maxrank cv (outcome cv)) ->
  msteps cvs (rank_test els ops minrank maxrank) outcome time (ms_init tm) s -> ms_final cvs s ->
  ms_acc s = foldM add_outcome [] (map outcome cvs).
Proof. exact threads_result. Qed.
Print Assumptions C45_every_schedule.
(** The two modes have the same set of possible results, for the contractions of every search. *)
Theorem C45_same_results : forall fuel o st ops minrank maxrank els cvs factor r, ops_ok st ops ->
  search fuel o st ops minrank maxrank = Ok (els, cvs) ->
  process_contractions_threads o st els cvs ops factor minrank maxrank r <-> process_contractions o st els cvs ops factor minrank maxrank r.
Proof. exact (fun fuel o st ops minrank maxrank els cvs factor r Hok E => conj (threads_single o st els cvs ops factor minrank maxrank r) (single_threads o st els cvs ops factor minrank maxrank r (search_nodup fuel o st ops minrank maxrank els cvs Hok E))). Qed.
Print Assumptions C45_same_results.
(** No schedule gets stuck or runs forever. *)
Theorem C45_no_deadlock : forall cvs in_range outcome time tm s, msteps cvs in_range outcome time (ms_init tm) s ->
  ms_final cvs s \/ exists s', mstep cvs in_range outcome time s s'.
Proof. exact progress. Qed.
Print Assumptions C45_no_deadlock.
Theorem C45_terminates : forall cvs in_range outcome time f, ~ (forall n, mstep cvs in_range outcome time (f n) (f (S n))).
Proof. exact no_infinite. Qed.
Print Assumptions C45_terminates.
Theorem C45_completes : forall cvs in_range outcome time tm s, msteps cvs in_range outcome time (ms_init tm) s ->
  exists s', msteps cvs in_range outcome time s s' /\ ms_final cvs s'.
Proof. exact completes. Qed.
Print Assumptions C45_completes.

(** Two contractions (none and one pair): the call has a result in either mode. *)
Definition ct_cvs : list (list Z) := [[]; [0]].
Lemma ct_search : search 5 (mkWT 100 true) wo_st cw_ops 4 6 = Ok ([cw_c], ct_cvs).
Proof. vm_compute. reflexivity. Qed.
Lemma ct_legs s : is_space wo_st s -> legs_in_space cw_ops s <= 32.
Proof. intros Hs. unfold is_space, num_spaces in Hs. simpl in Hs. assert (s = 0) as -> by lia. vm_compute. discriminate. Qed.
Lemma ct_outcome : exists outcome, forall cv, In cv ct_cvs -> process_single (mkWT 100 true) wo_st [cw_c] cw_ops (rat_of_Z 1) 4 6 cv (outcome cv) /\ exists l, outcome cv = Ok l.
Proof.
  assert (X : forall cv, In cv ct_cvs -> exists r, process_single (mkWT 100 true) wo_st [cw_c] cw_ops (rat_of_Z 1) 4 6 cv r /\ exists l, r = Ok l).
  { intros cv Hcv. destruct (single_defined (mkWT 100 true) wo_st (rat_of_Z 1) cw_ops 4 6 cw_ok 5 _ _ cv ct_search Hcv) as (r & R). exists r. split; [exact R|].
    exact (single_succeeds (mkWT 100 true) wo_st (rat_of_Z 1) cw_ops 4 6 cw_ok 5 _ _ cv r ct_legs ct_search Hcv R). }
  destruct (X []) as (r0 & R0); [left; auto|]. destruct (X [0]) as (r1 & R1); [right; left; auto|]. exists (fun cv => match cv with [] => r0 | _ => r1 end). intros cv [<-|[<-|[]]]; auto.
Qed.
Example C45_nonvacuous : exists e, process_contractions (mkWT 100 true) wo_st [cw_c] ct_cvs cw_ops (rat_of_Z 1) 4 6 (Ok e) /\
  process_contractions_threads (mkWT 100 true) wo_st [cw_c] ct_cvs cw_ops (rat_of_Z 1) 4 6 (Ok e).
Proof.
  destruct ct_outcome as (oc & H). destruct (H []) as (P0 & l0 & E0); [left; auto|]. destruct (H [0]) as (P1 & l1 & E1); [right; left; auto|].
  assert (R : process_contractions (mkWT 100 true) wo_st [cw_c] ct_cvs cw_ops (rat_of_Z 1) 4 6 (Ok (mplus term_ltb (mplus term_ltb [] l0) l1))).
  { exists [Ok l0; Ok l1]. split; [|reflexivity]. rewrite <- E0, <- E1. repeat constructor; auto. }
  eexists. split; [exact R|]. apply (C45_same_results 5 _ _ _ _ _ _ _ _ _ cw_ok ct_search). exact R.
Qed.

(** ** C46 *)
(** Single-threaded: each timer grows by the time spent in all contractions within the rank range. *)
Theorem C46_single_threaded : forall cvs in_range time tm k,
  timer_get k (single_timers cvs in_range time tm) = timer_get k tm + spent in_range time k 0 cvs.
Proof. exact spent_single. Qed.
Print Assumptions C46_single_threaded.
(** Multi-threaded, every schedule: at most that, and at least the time of one task. *)
Theorem C46_bounds : forall cvs in_range outcome time, (forall i k, 0 <= time i k) -> forall tm s k,
  msteps cvs in_range outcome time (ms_init tm) s -> length (ms_workers s) = length cvs -> ms_collected s = length cvs ->
  timer_get k tm <= timer_get k (ms_timers s) <= timer_get k tm + spent in_range time k 0 cvs /\
  (0 < spent in_range time k 0 cvs -> exists i cv, nth_error cvs i = Some cv /\ in_range cv = true /\ timer_get k tm + time i k <= timer_get k (ms_timers s)).
Proof. exact timer_bounds. Qed.
Print Assumptions C46_bounds.
(** If no step comes between the read and the write of a timer, the timers are exact. *)
Theorem C46_exact_if_atomic : forall cvs in_range outcome time tm s k,
  atomic_steps cvs in_range outcome time (ms_init tm) s -> length (ms_workers s) = length cvs -> ms_collected s = length cvs ->
  timer_get k (ms_timers s) = timer_get k tm + spent in_range time k 0 cvs.
Proof. exact (fun cvs in_range outcome time tm s k H L C => eq_trans (atomic_exact cvs in_range outcome time tm s k H L C) (spent_single cvs in_range time tm k)). Qed.
Print Assumptions C46_exact_if_atomic.

Example C46_nonvacuous : spent (rank_test [cw_c] cw_ops 4 6) (fun i _ => Z.of_nat i + 3) Teval 0 ct_cvs = 7.
Proof. reflexivity. Qed.

Section Run.
  Variables (outcome : list Z -> res (list (term * rational))) (l0 l1 : list (term * rational)).
  Hypothesis E0 : outcome [] = Ok l0.
  Hypothesis E1 : outcome [0] = Ok l1.
  Variable R : list Z -> bool.
  Hypothesis R0 : R [] = true.
  Hypothesis R1 : R [0] = true.
  Let T : nat -> timer_key -> Z := fun _ _ => 1.
  Let D (cv : list Z) := W_done (task_result outcome cv).
  (** Both tasks have read the timer and neither has written it. *)
  Definition race_state : mstate := mkMS [W_canon_write 0; W_canon_write 0] 0 (Ok []) [(Tcanon, 0)].
  Definition lost_state : mstate := mkMS [D []; D [0]] 2 (Ok (mplus term_ltb (mplus term_ltb [] (mplus term_ltb [] l0)) (mplus term_ltb [] l1))) [(Tcanon, 1); (Teval, 2)].
  Local Ltac w0 := eapply ms_next; [eapply (st_worker ct_cvs R outcome T [] _ _ _ _ _ [] _ _ eq_refl); cbn [worker_step]; rewrite ?R0, ?R1; reflexivity|]; cbn [app].
  Local Ltac w1 p := eapply ms_next; [eapply (st_worker ct_cvs R outcome T [p] _ [] _ _ _ [0] _ _ eq_refl); cbn [worker_step]; rewrite ?R0, ?R1; reflexivity|]; cbn [app].
  Lemma to_race : msteps ct_cvs R outcome T (ms_init []) race_state.
  Proof.
    eapply ms_next; [apply st_launch; cbn; lia|]. eapply ms_next; [apply st_launch; cbn; lia|]. cbn [app]. w0. w0. w1 (W_canon_write 0). w1 (W_canon_write 0). apply ms_refl.
  Qed.
  Lemma to_lost : msteps ct_cvs R outcome T race_state lost_state.
  Proof.
    unfold race_state. w0. w1 W_eval. do 4 w0. w1 (D []). w1 (D []). w1 (D []). w1 (D []).
    assert (T0 : task_result outcome [] = Ok (mplus term_ltb [] l0)) by (unfold task_result; rewrite E0; reflexivity). assert (T1 : task_result outcome [0] = Ok (mplus term_ltb [] l1)) by (unfold task_result; rewrite E1; reflexivity).
    unfold lost_state, D. rewrite T0, T1. eapply ms_next; [eapply st_get; reflexivity|]. cbn [bind]. eapply ms_next; [eapply st_get; reflexivity|]. cbn [bind]. apply ms_refl.
  Qed.
End Run.
(** The unprotected update loses time: a schedule of the two tasks of a call, each spending one tick in each phase, after which
    the first timer shows one tick instead of two. *)
Theorem C46_lost_update_refuted : exists outcome, (forall cv, In cv ct_cvs -> process_single (mkWT 100 true) wo_st [cw_c] cw_ops (rat_of_Z 1) 4 6 cv (outcome cv)) /\
  let rt := rank_test [cw_c] cw_ops 4 6 in let time := fun (_ : nat) (_ : timer_key) => 1 in
  exists s, msteps ct_cvs rt outcome time (ms_init []) s /\ ms_final ct_cvs s /\ ms_collected s = length ct_cvs /\
    timer_get Tcanon (ms_timers s) = 1 /\ spent rt time Tcanon 0 ct_cvs = 2 /\ timer_get Teval (ms_timers s) = spent rt time Teval 0 ct_cvs.
Proof.
  destruct ct_outcome as (oc & H). destruct (H []) as (P0 & l0 & E0); [left; auto|]. destruct (H [0]) as (P1 & l1 & E1); [right; left; auto|].
  exists oc. split; [intros cv Hcv; apply H, Hcv|]. cbn zeta. exists (lost_state oc l0 l1). split; [eapply msteps_app; [apply to_race; reflexivity|apply to_lost; auto; reflexivity]|]. repeat split; auto.
Qed.
Print Assumptions C46_lost_update_refuted.
(** A data race (undefined behaviour in C++): a reachable state in which two tasks are about to write the same timer. *)
Theorem C46_data_race_refuted : exists outcome time s v w, msteps ct_cvs (rank_test [cw_c] cw_ops 4 6) outcome time (ms_init []) s /\
  nth_error (ms_workers s) 0 = Some (W_canon_write v) /\ nth_error (ms_workers s) 1 = Some (W_canon_write w).
Proof. exists (fun _ => Ok []), (fun _ _ => 1), race_state, 0, 0. split; [apply (to_race _); reflexivity|]. split; reflexivity. Qed.
Print Assumptions C46_data_race_refuted.
