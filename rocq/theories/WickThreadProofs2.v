From Coq Require Import ZArith List Bool Arith Lia.
From Verif Require Import Res RegistryModel RegistryProofs CoreModel RationalModel AlgebraModel OperatorModel WickSearchModel WickEvalModel WickThreadModel WickThreadSpec WickThreadProofs.
Import ListNotations.
Local Open Scope Z_scope.

Section Thr.
  Context (tasks : list (list Z)) (in_range : list Z -> bool) (outcome : list Z -> res (list (term * rational))) (time : nat -> timer_key -> Z).
  Notation mstep := (mstep tasks in_range outcome time).
  Notation msteps := (msteps tasks in_range outcome time).
  Notation tsum := (tsum tasks in_range time).

  (** A task that has passed the rank test is in range. *)
  Definition active (p : wpc) : bool := match p with W_start | W_done _ => false | _ => true end.
  Definition rinv (s : mstate) : Prop := forall i cv p, nth_error tasks i = Some cv -> nth_error (ms_workers s) i = Some p -> active p = true -> in_range cv = true.
  Lemma rinv_step s s' : mstep s s' -> rinv s -> rinv s'.
  Proof.
    intros H I. destruct H as [ws acc tm Hl|ws1 p ws2 c acc tm cv p' tm' Hcv Hw|ws c acc tm r Hl Hr]; unfold rinv in *; cbn [ms_workers] in *; auto; intros i cv' q Hi Hq Ha.
    - destruct (Nat.lt_ge_cases i (length ws)) as [Li|Li]; [rewrite nth_error_app1 in Hq by auto; eauto|]. rewrite nth_error_app2 in Hq by auto. destruct (i - length ws)%nat as [|[|j]]; try discriminate. injection Hq as <-. discriminate.
    - destruct (Nat.lt_trichotomy i (length ws1)) as [Li|[->|Li]].
      + apply (I i cv' q Hi); auto. rewrite nth_error_app1 in Hq |- * by auto. auto.
      + rewrite nth_error_app2, Nat.sub_diag in Hq by lia. injection Hq as ->. rewrite Hcv in Hi. injection Hi as <-.
        assert (Ip : active p = true -> in_range cv = true) by (apply (I (length ws1) cv p Hcv); rewrite nth_error_app2, Nat.sub_diag by lia; reflexivity).
        destruct p; cbn [worker_step] in Hw; try discriminate; try (apply Ip; reflexivity). injection Hw as <- <-. destruct (in_range cv); [reflexivity|discriminate].
      + apply (I i cv' q Hi); auto. rewrite nth_error_app2 in Hq |- * by lia. destruct (i - length ws1)%nat eqn:E; [lia|]. exact Hq.
  Qed.
  Lemma rinv_init tm : rinv (ms_init tm).
  Proof. intros [|i] cv p _ H; discriminate. Qed.
  Lemma pend_active k p v : pend k p = Some v -> active p = true.
  Proof. destruct k, p; simpl; congruence || auto. Qed.

  (** Restated with the index of the worker. *)
  Lemma step_timer' k s s' : mstep s s' -> rinv s ->
    (tsum k 0 (ms_workers s') = tsum k 0 (ms_workers s) /\ tstate s' k = tstate s k /\ (forall p v, In p (ms_workers s') -> pend k p = Some v -> In p (ms_workers s) \/ v = tstate s k)) \/
    (exists i cv v p, nth_error tasks i = Some cv /\ in_range cv = true /\ In p (ms_workers s) /\ pend k p = Some v /\ tsum k 0 (ms_workers s') = tsum k 0 (ms_workers s) + time i k /\ tstate s' k = v + time i k /\
       forall p, In p (ms_workers s') -> pend k p <> None -> In p (ms_workers s)).
  Proof.
    intros H I. destruct H as [ws acc tm Hl|ws1 p ws2 c acc tm cv p' tm' Hcv Hw|ws c acc tm r Hl Hr]; unfold tstate; cbn [ms_workers ms_timers].
    - left. rewrite tsum_app. cbn [WickThreadProofs.tsum]. unfold past. rewrite andb_comm. destruct k; cbn [andb]; (split; [lia|split; [reflexivity|]]); intros p v Hp Hv; apply in_app_or in Hp; destruct Hp as [Hp|[<-|[]]]; auto; discriminate.
    - assert (En := nth_error_task tasks _ _ Hcv).
      assert (Ip : active p = true -> in_range cv = true) by (apply (I (length ws1) cv p Hcv); cbn [ms_workers]; rewrite nth_error_app2, Nat.sub_diag by lia; reflexivity).
      assert (K : forall q, In q (ws1 ++ p' :: ws2) -> In q (ws1 ++ p :: ws2) \/ q = p') by (intros q Hq; apply in_app_or in Hq; destruct Hq as [|[|]]; auto; left; apply in_or_app; simpl; auto).
      assert (T : tsum k 0 (ws1 ++ p' :: ws2) = tsum k 0 (ws1 ++ p :: ws2) + (if past in_range k cv p' then time (length ws1) k else 0) - (if past in_range k cv p then time (length ws1) k else 0)) by (rewrite !tsum_app; cbn [WickThreadProofs.tsum plus]; rewrite En; lia).
      destruct p, k; cbn [worker_step] in Hw; try discriminate; injection Hw as <- <-;
        try (left; rewrite T; split; [unfold past; try destruct (in_range cv) eqn:Er; cbn [andb]; rewrite ?Er; cbn [andb]; lia|]; split; [rewrite ?get_put; reflexivity|];
          intros q v' Hq Hv; destruct (K q Hq) as [|Eq]; [left; assumption|subst q; try destruct (in_range cv); cbn [pend] in Hv; try discriminate; injection Hv as <-; right; reflexivity]).
      + right. exists (length ws1), cv, v, (W_canon_write v). split; auto. split; [apply Ip; reflexivity|]. split; [apply in_or_app; simpl; auto|]. split; [reflexivity|]. split.
        * rewrite T. unfold past. rewrite (Ip eq_refl). cbn [andb]. lia.
        * split; [rewrite get_put; reflexivity|]. intros q Hq Hn. destruct (K q Hq) as [|Eq]; auto. subst q. exfalso. apply Hn. reflexivity.
      + right. exists (length ws1), cv, v, (W_eval_write v). split; auto. split; [apply Ip; reflexivity|]. split; [apply in_or_app; simpl; auto|]. split; [reflexivity|]. split.
        * rewrite T. unfold past. rewrite (Ip eq_refl). cbn [andb]. lia.
        * split; [rewrite get_put; reflexivity|]. intros q Hq Hn. destruct (K q Hq) as [|Eq]; auto. subst q. exfalso. apply Hn. reflexivity.
    - left. split; auto.
  Qed.

  (** *** Bounds for every schedule *)
  Hypothesis Hpos : forall i k, 0 <= time i k.
  Definition binv (tm0 : timers) (k : timer_key) (s : mstate) : Prop :=
    let base := timer_get k tm0 in let sum := tsum k 0 (ms_workers s) in
    base <= tstate s k <= base + sum /\ (forall p v, In p (ms_workers s) -> pend k p = Some v -> base <= v <= base + sum) /\
    (0 < sum -> exists i cv, nth_error tasks i = Some cv /\ in_range cv = true /\ base + time i k <= tstate s k).
  Lemma binv_step tm0 k s s' : mstep s s' -> rinv s -> binv tm0 k s -> binv tm0 k s'.
  Proof.
    intros H R (A & B & C). unfold binv. destruct (step_timer' k s s' H R) as [(E1 & E2 & E3)|(i & cv & v & p & Hi & Hr & Hp & Hv & E1 & E2 & E3)].
    - rewrite E1, E2. split; [exact A|]. split; [|exact C]. intros p v Hp Hv. destruct (E3 p v Hp Hv) as [| ->]; [eauto|exact A].
    - rewrite E1, E2. destruct (B p v Hp Hv) as (B1 & B2). specialize (Hpos i k). split; [lia|]. split.
      + intros q w Hq Hw. destruct (B q w) as (B3 & B4); [apply E3; auto; congruence|exact Hw|]. lia.
      + intros _. exists i, cv. split; auto. split; auto. lia.
  Qed.
  Lemma binv_steps tm0 k s s' : msteps s s' -> rinv s -> binv tm0 k s -> binv tm0 k s'.
  Proof. induction 1; auto. intros. apply IHmsteps; [eapply rinv_step; eauto|eapply binv_step; eauto]. Qed.
  Lemma timer_bounds tm s k : msteps (ms_init tm) s -> length (ms_workers s) = length tasks -> ms_collected s = length tasks ->
    timer_get k tm <= timer_get k (ms_timers s) <= timer_get k tm + spent in_range time k 0 tasks /\
    (0 < spent in_range time k 0 tasks -> exists i cv, nth_error tasks i = Some cv /\ in_range cv = true /\ timer_get k tm + time i k <= timer_get k (ms_timers s)).
  Proof.
    intros H L C. destruct (minv_steps _ _ _ _ _ _ H (minv_init _ _ tm)) as [_ _ _ CD _].
    assert (E : tsum k 0 (ms_workers s) = spent in_range time k 0 tasks) by (apply tsum_done; auto; intros i Hi; apply CD; lia).
    destruct (binv_steps tm k _ _ H (rinv_init tm)) as (A & _ & B).
    - unfold binv, tstate, ms_init. cbn [ms_timers ms_workers WickThreadProofs.tsum]. split; [lia|]. split; [intros p v []|lia].
    - rewrite E in A, B. split; [exact A|exact B].
  Qed.

End Thr.

Section Atomic.
  Context (tasks : list (list Z)) (in_range : list Z -> bool) (outcome : list Z -> res (list (term * rational))) (time : nat -> timer_key -> Z).
  Notation mstep := (mstep tasks in_range outcome time).
  Notation msteps := (msteps tasks in_range outcome time).
  Notation tsum := (tsum tasks in_range time).
  Notation atomic_steps := (atomic_steps tasks in_range outcome time).

  (** *** Exact if the updates are atomic *)
  Definition einv (tm0 : timers) (k : timer_key) (s : mstate) : Prop := tstate s k = timer_get k tm0 + tsum k 0 (ms_workers s).
  Definition pinv (k : timer_key) (s : mstate) : Prop := forall p v, In p (ms_workers s) -> pend k p = Some v -> v = tstate s k.
  Lemma pend_pending k p v : pend k p = Some v -> is_pending p = true.
  Proof. destruct k, p; simpl; congruence || auto. Qed.
  Lemma no_pend k s : no_pending s -> pinv k s.
  Proof. intros H p v Hp Hv. exfalso. unfold no_pending in H. rewrite Forall_forall in H. specialize (H p Hp). apply pend_pending in Hv. congruence. Qed.
  Lemma einv_step tm0 k s s' : mstep s s' -> rinv tasks in_range s -> einv tm0 k s -> pinv k s -> einv tm0 k s' /\ (no_pending s -> pinv k s').
  Proof.
    intros H R E P. destruct (step_timer' _ _ _ _ k s s' H R) as [(E1 & E2 & E3)|(i & cv & v & p & Hi & Hr & Hp & Hv & E1 & E2 & E3)].
    - split; [unfold einv in *; rewrite E1, E2; exact E|]. intros N p v Hp Hv. rewrite E2. destruct (E3 p v Hp Hv) as [Hi|Ev]; [exact (P p v Hi Hv)|exact Ev].
    - split; [unfold einv in *; rewrite E1, E2, (P p v Hp Hv), E; lia|]. intros N q w Hq Hw. exfalso. unfold no_pending in N. rewrite Forall_forall in N. assert (X := E3 q Hq ltac:(congruence)). specialize (N q X). apply pend_pending in Hw. congruence.
  Qed.
  Lemma einv_steps tm0 k s s' : atomic_steps s s' -> no_pending s -> rinv tasks in_range s -> einv tm0 k s -> einv tm0 k s'.
  Proof.
    induction 1 as [s|s s1 s2 H1 N1 _ IH|s s1 s2 s3 H1 H2 N2 _ IH]; intros N R E; auto.
    - apply IH; auto; [eapply rinv_step; eauto|]. eapply einv_step; eauto. apply no_pend, N.
    - destruct (einv_step tm0 k s s1 H1 R E (no_pend k s N)) as (E1 & P1). assert (R1 : rinv tasks in_range s1) by (eapply rinv_step; eauto).
      apply IH; auto; [eapply rinv_step; eauto|]. eapply einv_step; eauto.
  Qed.
  Lemma atomic_are_steps s s' : atomic_steps s s' -> msteps s s'.
  Proof. induction 1; [constructor|econstructor; eauto|econstructor; [eauto|econstructor; eauto]]. Qed.
  Lemma atomic_exact tm s k : atomic_steps (ms_init tm) s -> length (ms_workers s) = length tasks -> ms_collected s = length tasks ->
    timer_get k (ms_timers s) = timer_get k (single_timers tasks in_range time tm).
  Proof.
    intros H L C. rewrite spent_single. destruct (minv_steps _ _ _ _ _ _ (atomic_are_steps _ _ H) (minv_init _ _ tm)) as [_ _ _ CD _].
    assert (E : tsum k 0 (ms_workers s) = spent in_range time k 0 tasks) by (apply tsum_done; auto; intros i Hi; apply CD; lia).
    rewrite <- E. apply (einv_steps tm k _ _ H); [constructor|apply rinv_init|unfold einv, tstate, ms_init; cbn [ms_timers ms_workers WickThreadProofs.tsum]; lia].
  Qed.
End Atomic.

(** ** The results *)
Lemma single_result o st els ops factor minrank maxrank cv r acc : process_single o st els ops factor minrank maxrank cv r ->
  bind (bind r (fun l => Ok (mplus term_ltb [] l))) (fun e => Ok (mplus term_ltb acc e)) = add_outcome acc r.
Proof.
  intros H. assert (G : forall l, (length l <= 1)%nat -> mplus term_ltb acc (mplus term_ltb [] l) = mplus term_ltb acc l).
  { intros [|[t c] [|y l]] Hl; [reflexivity| |simpl in Hl; lia]. unfold mplus. cbn [fold_left fst snd]. unfold madd at 2. cbn [mfind mset]. destruct (rat_is0 c) eqn:E; [|reflexivity]. cbn [fold_left]. unfold madd. rewrite E. reflexivity. }
  assert (L : forall l, r = Ok l -> (length l <= 1)%nat).
  { intros l ->. unfold process_single in H. destruct ((minrank <=? ops_rank ops - con_rank els cv) && (ops_rank ops - con_rank els cv <=? maxrank)); [|injection H as ->; simpl; lia].
    destruct H as (bops & bcs & s & canon & _ & _ & E). destruct (evaluate_contraction st bops bcs (rat_mul factor (rat_of_Z s))) as [[t f]| | |]; try discriminate. cbn [bind] in E. destruct canon as [[t' s']| | |]; try discriminate. cbn [bind] in E. injection E as ->. simpl. lia. }
  unfold add_outcome. destruct r as [l| | |]; cbn [bind]; try reflexivity. rewrite G by (apply L; reflexivity). reflexivity.
Qed.
Lemma foldM_outcomes {A} (g : A -> res (list (term * rational))) (h : expression -> A -> res expression) l : (forall x acc, In x l -> h acc x = add_outcome acc (g x)) ->
  forall acc, foldM h acc l = foldM add_outcome acc (map g l).
Proof.
  induction l as [|x l IH]; intros H acc; [reflexivity|]. cbn [foldM map]. rewrite H by (left; auto). destruct (add_outcome acc (g x)); cbn [bind]; auto. apply IH. intros; apply H; right; auto.
Qed.
Lemma threads_result o st els cvs ops factor minrank maxrank outcome time tm s :
  (forall cv, In cv cvs -> process_single o st els ops factor minrank maxrank cv (outcome cv)) ->
  msteps cvs (rank_test els ops minrank maxrank) outcome time (ms_init tm) s -> ms_final cvs s ->
  ms_acc s = foldM add_outcome [] (map outcome cvs).
Proof.
  intros H R F. rewrite (final_result _ _ _ _ tm s R F). apply foldM_outcomes. intros cv acc Hcv. unfold add_res, task_result. apply (single_result o st els ops factor minrank maxrank cv); auto.
Qed.
Lemma threads_single o st els cvs ops factor minrank maxrank r : process_contractions_threads o st els cvs ops factor minrank maxrank r ->
  process_contractions o st els cvs ops factor minrank maxrank r.
Proof.
  intros (outcome & time & tm & s & H & R & F & <-). exists (map outcome cvs). split; [|eapply threads_result; eauto].
  clear - H. induction cvs as [|cv cvs IH]; constructor; [apply H; left; auto|apply IH; intros; apply H; right; auto].
Qed.
Lemma single_threads o st els cvs ops factor minrank maxrank r : NoDup cvs -> process_contractions o st els cvs ops factor minrank maxrank r ->
  process_contractions_threads o st els cvs ops factor minrank maxrank r.
Proof.
  intros N (rs & F & ->). assert (X : exists outcome, (forall cv, In cv cvs -> process_single o st els ops factor minrank maxrank cv (outcome cv)) /\ map outcome cvs = rs).
  { induction F as [|cv r cvs rs Hr F IH]; [exists (fun _ => Throw); split; [intros ? []|reflexivity]|]. inversion N as [|? ? Nc N']; subst. destruct (IH N') as (oc & H & E).
    exists (fun x => if list_eq_dec Z.eq_dec x cv then r else oc x). split.
    - intros x [<-|Hx]; [destruct (list_eq_dec Z.eq_dec cv cv); [auto|tauto]|]. destruct (list_eq_dec Z.eq_dec x cv) as [->|]; auto.
    - cbn [map]. destruct (list_eq_dec Z.eq_dec cv cv); [|tauto]. f_equal. rewrite <- E. apply map_ext_in. intros x Hx. destruct (list_eq_dec Z.eq_dec x cv) as [->|]; [tauto|reflexivity]. }
  destruct X as (oc & H & E). destruct (completes cvs (rank_test els ops minrank maxrank) oc (fun _ _ => 0) [] (ms_init []) (ms_refl _ _ _ _ _)) as (s & R & Fi).
  exists oc, (fun _ _ => 0), [], s. split; auto. split; auto. split; auto. rewrite <- E. eapply threads_result; eauto.
Qed.

(** ** Histories *)
Lemma call_result st b factor ops minrank maxrank r b' : contract_call st b factor ops minrank maxrank r b' ->
  contract (ob_opts b) st factor ops minrank maxrank r.
Proof.
  intros (fuel & Nf & H). exists fuel. split; auto. unfold contract_run. unfold wt_clear in *. cbn [ob_opts] in *. destruct (search fuel (ob_opts b) st ops minrank maxrank) as [[els cvs]| | |]; auto; [|contradiction].
  destruct H as (-> & H). cbn [ob_single ob_opts ob_els ob_cvs app] in H. destruct (ob_single b); [exact H|apply threads_single; exact H].
Qed.
