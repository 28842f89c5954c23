From Coq Require Import ZArith List Bool Arith Lia.
From Verif Require Import Res RegistryModel RegistryProofs CoreModel RationalModel AlgebraModel OperatorModel WickSearchModel WickEvalModel WickThreadModel WickThreadSpec.
Import ListNotations.
Local Open Scope Z_scope.

Lemma msteps_app T R O D s1 s2 s3 : msteps T R O D s1 s2 -> msteps T R O D s2 s3 -> msteps T R O D s1 s3.
Proof. induction 1; auto. intros. econstructor; eauto. Qed.
Lemma timer_eqb_eq a b : timer_eqb a b = true <-> a = b.
Proof. destruct a, b; simpl; split; congruence. Qed.
Lemma get_put k k' v m : timer_get k (aput timer_eqb k' v m) = if timer_eqb k k' then v else timer_get k m.
Proof.
  unfold timer_get. induction m as [|[a b] m IH]; cbn [aput afind].
  - destruct (timer_eqb k k'); reflexivity.
  - destruct (timer_eqb k' a) eqn:E; cbn [afind].
    + apply timer_eqb_eq in E. subst a. destruct (timer_eqb k k'); reflexivity.
    + destruct (timer_eqb k a) eqn:E2; [|exact IH]. apply timer_eqb_eq in E2. subst a. destruct (timer_eqb k k') eqn:E3; auto. apply timer_eqb_eq in E3. subst. destruct k'; discriminate.
Qed.

Section Thr.
  Context (tasks : list (list Z)) (in_range : list Z -> bool) (outcome : list Z -> res (list (term * rational))) (time : nat -> timer_key -> Z).
  Notation mstep := (mstep tasks in_range outcome time).
  Notation msteps := (msteps tasks in_range outcome time).
  Notation task_result := (task_result outcome).

  Definition add_res (acc : expression) (cv : list Z) : res expression := bind (task_result cv) (fun e => Ok (mplus term_ltb acc e)).
  Record minv (s : mstate) : Prop := {
    mi_len : (length (ms_workers s) <= length tasks)%nat;
    mi_done : forall i cv r, nth_error tasks i = Some cv -> nth_error (ms_workers s) i = Some (W_done r) -> r = task_result cv;
    mi_col : (ms_collected s <= length tasks)%nat /\ ((0 < ms_collected s)%nat -> length (ms_workers s) = length tasks);
    mi_cdone : forall i, (i < ms_collected s)%nat -> exists r, nth_error (ms_workers s) i = Some (W_done r);
    mi_acc : ms_acc s = foldM add_res [] (firstn (ms_collected s) tasks) }.
  Lemma minv_init tm : minv (ms_init tm).
  Proof. split; cbn; try lia; auto. intros [|i] cv r _ H; discriminate. Qed.
  Lemma done_no_step i cv r tm x : worker_step in_range outcome time i cv (W_done r) tm = Some x -> False.
  Proof. discriminate. Qed.
  Lemma step_done i cv p tm r tm' : worker_step in_range outcome time i cv p tm = Some (W_done r, tm') -> r = task_result cv.
  Proof. destruct p; cbn [worker_step]; try discriminate; [destruct (in_range cv); intros E; injection E; congruence|intros E; injection E; congruence]. Qed.
  Lemma firstn_S {A} (l : list A) n x : nth_error l n = Some x -> firstn (S n) l = firstn n l ++ [x].
  Proof. revert n. induction l as [|a l IH]; intros [|n] E; simpl in *; try discriminate; [injection E; congruence|]. f_equal. apply IH, E. Qed.

  Lemma minv_step s s' : mstep s s' -> minv s -> minv s'.
  Proof.
    intros H [L D (C1 & C2) CD A]. destruct H as [ws acc tm Hl|ws1 p ws2 c acc tm cv p' tm' Hcv Hw|ws c acc tm r Hl Hr]; cbn [ms_workers ms_collected ms_acc ms_timers] in *.
    - split; cbn [ms_workers ms_collected ms_acc ms_timers]; auto.
      + rewrite app_length. cbn [length]. lia.
      + intros i cv r Hi Hd. destruct (Nat.lt_ge_cases i (length ws)) as [Li|Li]; [rewrite nth_error_app1 in Hd by auto; eauto|]. rewrite nth_error_app2 in Hd by auto. destruct (i - length ws)%nat as [|[|j]]; discriminate.
      + split; [lia|]. lia.
      + intros i Hi. lia.
    - assert (Len : length (ws1 ++ p' :: ws2) = length (ws1 ++ p :: ws2)) by (rewrite !app_length; reflexivity).
      split; cbn [ms_workers ms_collected ms_acc ms_timers]; rewrite ?Len; auto.
      + intros i cv' r Hi Hd. destruct (Nat.lt_trichotomy i (length ws1)) as [Li|[->|Li]].
        * apply (D i cv' r Hi). rewrite nth_error_app1 in Hd |- * by auto. auto.
        * rewrite nth_error_app2, Nat.sub_diag in Hd by lia. injection Hd as ->. rewrite Hcv in Hi. injection Hi as <-. eapply step_done; eauto.
        * apply (D i cv' r Hi). rewrite nth_error_app2 in Hd |- * by lia. destruct (i - length ws1)%nat eqn:E; [lia|]. exact Hd.
      + intros i Hi. destruct (CD i Hi) as (r & Hr). destruct (Nat.lt_trichotomy i (length ws1)) as [Li|[->|Li]].
        * exists r. rewrite nth_error_app1 in Hr |- * by auto. auto.
        * rewrite nth_error_app2, Nat.sub_diag in Hr by lia. injection Hr as ->. discriminate Hw.
        * exists r. rewrite nth_error_app2 in Hr |- * by lia. destruct (i - length ws1)%nat eqn:E; [lia|]. exact Hr.
    - assert (Hc : (c < length tasks)%nat) by (rewrite <- Hl; apply nth_error_Some; congruence).
      destruct (nth_error tasks c) as [cv|] eqn:Ecv; [|apply nth_error_None in Ecv; lia]. specialize (D c cv r Ecv Hr) as Er.
      split; cbn [ms_workers ms_collected ms_acc ms_timers]; auto.
      + intros i Hi. destruct (Nat.eq_dec i c) as [->|]; [eauto|apply CD; lia].
      + rewrite (firstn_S _ _ _ Ecv), foldM_app, <- A. cbn [bind foldM]. unfold add_res. rewrite Er. destruct (task_result cv); reflexivity.
  Qed.
  Lemma minv_steps s s' : msteps s s' -> minv s -> minv s'.
  Proof. induction 1; auto. intros. apply IHmsteps. eapply minv_step; eauto. Qed.

  Lemma final_result tm s : msteps (ms_init tm) s -> ms_final tasks s -> ms_acc s = foldM add_res [] tasks.
  Proof.
    intros R (_ & F). destruct (minv_steps _ _ R (minv_init tm)) as [_ _ _ _ A]. destruct F as [F|F].
    - rewrite A, F, firstn_all. reflexivity.
    - rewrite <- (firstn_skipn (ms_collected s) tasks) at 1. rewrite foldM_app, <- A. destruct (ms_acc s) as [e| | |]; try reflexivity. exfalso. apply (F e). reflexivity.
  Qed.

  (** ** Progress and termination *)
  Lemma step_or_done i cv p tm : (exists r, p = W_done r) \/ exists p' tm', worker_step in_range outcome time i cv p tm = Some (p', tm').
  Proof. destruct p; cbn [worker_step]; eauto. Qed.
  Lemma progress tm s : msteps (ms_init tm) s -> ms_final tasks s \/ exists s', mstep s s'.
  Proof.
    intros R. destruct (minv_steps _ _ R (minv_init tm)) as [L D (C1 & C2) CD A]. destruct s as [ws c acc tm']. cbn [ms_workers ms_collected ms_acc ms_timers] in *.
    destruct (Nat.eq_dec (length ws) (length tasks)) as [E|E].
    - destruct acc as [acc| | |]; try (left; split; [exact E|right; intros e X; discriminate]).
      destruct (Nat.eq_dec c (length tasks)) as [Ec|Ec]; [left; split; auto|right].
      destruct (nth_error ws c) as [p|] eqn:Ep; [|apply nth_error_None in Ep; lia]. destruct (nth_error tasks c) as [cv|] eqn:Ecv; [|apply nth_error_None in Ecv; lia].
      destruct (step_or_done c cv p tm') as [(r & ->)|(p' & tm2 & Hs)]; [eexists; apply st_get; eauto|].
      destruct (nth_error_split _ _ Ep) as (w1 & w2 & -> & Lw). eexists. eapply st_worker; rewrite Lw; eauto.
    - right. assert (c = O) by (destruct c; auto; exfalso; apply E, C2; lia). subst c. eexists. apply st_launch. lia.
  Qed.
  Definition weight (p : wpc) : nat :=
    match p with W_start => 7 | W_canon_read => 6 | W_canon_write _ => 5 | W_eval => 4 | W_eval_read => 3 | W_eval_write _ => 2 | W_finish => 1 | W_done _ => 0 end.
  Definition measure (s : mstate) : nat :=
    (8 * (length tasks - length (ms_workers s)) + list_sum (map weight (ms_workers s)) + (length tasks - ms_collected s))%nat.
  Lemma list_sum_app' l l' : list_sum (l ++ l') = (list_sum l + list_sum l')%nat.
  Proof. induction l; simpl; lia. Qed.
  Lemma step_measure s s' : mstep s s' -> (measure s' < measure s)%nat.
  Proof.
    intros H. destruct H as [ws acc tm Hl|ws1 p ws2 c acc tm cv p' tm' Hcv Hw|ws c acc tm r Hl Hr]; unfold measure; cbn [ms_workers ms_collected].
    - rewrite app_length, map_app, list_sum_app'. cbn [map list_sum fold_right weight length]. unfold list_sum. cbn. lia.
    - rewrite !app_length, !map_app, !list_sum_app'. cbn [map length]. cbn [list_sum fold_right]. assert (weight p' < weight p)%nat; [|unfold list_sum; cbn; lia].
      destruct p; cbn [worker_step] in Hw; try discriminate; injection Hw as <- <-; cbn [weight]; try lia. destruct (in_range cv); cbn [weight]; lia.
    - assert (c < length tasks)%nat by (rewrite <- Hl; apply nth_error_Some; congruence). lia.
  Qed.
  Lemma no_infinite (f : nat -> mstate) : ~ (forall n, mstep (f n) (f (S n))).
  Proof.
    intros H. assert (G : forall n, (measure (f n) + n <= measure (f O))%nat); [|specialize (G (S (measure (f O)))); lia].
    induction n as [|n IH]; [lia|]. specialize (step_measure _ _ (H n)). lia.
  Qed.
  Lemma completes tm : forall s, msteps (ms_init tm) s -> exists s', msteps s s' /\ ms_final tasks s'.
  Proof.
    intros s. remember (measure s) as k eqn:Ek. revert s Ek. induction k as [k IH] using lt_wf_ind. intros s -> R.
    destruct (progress tm s R) as [F|(s1 & S1)]; [exists s; split; [constructor|auto]|].
    destruct (IH (measure s1) (step_measure _ _ S1) s1 eq_refl) as (s' & R' & F); [eapply msteps_app; [exact R|econstructor; [exact S1|constructor]]|].
    exists s'. split; auto. econstructor; eauto.
  Qed.

  (** ** Timers *)
  Definition past (k : timer_key) (cv : list Z) (p : wpc) : bool :=
    in_range cv && match k, p with
    | Tcanon, (W_eval | W_eval_read | W_eval_write _ | W_finish | W_done _) => true
    | Teval, (W_finish | W_done _) => true
    | _, _ => false end.
  Fixpoint tsum (k : timer_key) (i : nat) (ws : list wpc) : Z :=
    match ws with [] => 0 | p :: ws' => (if past k (nth i tasks []) p then time i k else 0) + tsum k (S i) ws' end.
  Lemma tsum_app k ws ws' : forall i, tsum k i (ws ++ ws') = tsum k i ws + tsum k (i + length ws) ws'.
  Proof. induction ws as [|p ws IH]; intros i; cbn [app tsum length]; [rewrite Nat.add_0_r; lia|]. rewrite IH. replace (S i + length ws)%nat with (i + S (length ws))%nat by lia. lia. Qed.
  Definition pend (k : timer_key) (p : wpc) : option Z := match k, p with Tcanon, W_canon_write v => Some v | Teval, W_eval_write v => Some v | _, _ => None end.

  Lemma spent_single tm k : timer_get k (single_timers tasks in_range time tm) = timer_get k tm + spent in_range time k 0 tasks.
  Proof.
    unfold single_timers. generalize O. revert tm. induction tasks as [|cv l IH]; intros tm i; cbn [length seq combine fold_left spent]; [lia|].
    rewrite IH. cbn [fst snd]. destruct (in_range cv); [|lia]. unfold add_time. rewrite !get_put. destruct k; cbn [timer_eqb]; rewrite ?get_put; cbn [timer_eqb]; lia.
  Qed.
  Lemma tsum_done k ws : length ws = length tasks -> (forall i, (i < length ws)%nat -> exists r, nth_error ws i = Some (W_done r)) -> tsum k 0 ws = spent in_range time k 0 tasks.
  Proof.
    intros L H. assert (G : forall l1 l2 w1 w2, tasks = l1 ++ l2 -> ws = w1 ++ w2 -> length l1 = length w1 -> tsum k (length l1) w2 = spent in_range time k (length l1) l2).
    { intros l1 l2. revert l1. induction l2 as [|cv l2 IH]; intros l1 w1 w2 E1 E2 E3.
      - destruct w2; [reflexivity|]. exfalso. rewrite E1, E2, !app_length in L. simpl in L. lia.
      - destruct w2 as [|p w2]; [exfalso; rewrite E1, E2, !app_length in L; simpl in L; lia|]. cbn [tsum spent].
        destruct (H (length w1)) as (r & Hr); [rewrite E2, app_length; simpl; lia|]. rewrite E2, nth_error_app2, Nat.sub_diag in Hr by lia. injection Hr as ->.
        assert (En : nth (length l1) tasks [] = cv) by (rewrite E1, app_nth2, Nat.sub_diag by lia; reflexivity). rewrite En.
        specialize (IH (l1 ++ [cv]) (w1 ++ [W_done r]) w2). rewrite !app_length, <- !app_assoc in IH. cbn [length app] in IH. rewrite Nat.add_1_r in IH. rewrite IH by (auto; lia).
        unfold past. destruct k; rewrite andb_true_r; reflexivity. }
    apply (G [] tasks [] ws); auto.
  Qed.

  (** Value read but not yet written, and the entry itself. *)
  Definition tstate (s : mstate) (k : timer_key) : Z := timer_get k (ms_timers s).
  Lemma nth_error_task (i : nat) cv : nth_error tasks i = Some cv -> nth i tasks [] = cv.
  Proof. intros E. apply nth_error_nth. exact E. Qed.

  (** Effect of a step on the sum of the completed updates and on the entry. *)
  Lemma step_timer k s s' : mstep s s' ->
    (tsum k 0 (ms_workers s') = tsum k 0 (ms_workers s) /\ tstate s' k = tstate s k /\ (forall p v, In p (ms_workers s') -> pend k p = Some v -> In p (ms_workers s) \/ v = tstate s k)) \/
    (exists i v p, In p (ms_workers s) /\ pend k p = Some v /\ (exists cv, nth_error tasks i = Some cv /\ (in_range cv = true -> tsum k 0 (ms_workers s') = tsum k 0 (ms_workers s) + time i k)) /\ tstate s' k = v + time i k /\
       forall p, In p (ms_workers s') -> pend k p <> None -> In p (ms_workers s)).
  Proof.
    intros H. destruct H as [ws acc tm Hl|ws1 p ws2 c acc tm cv p' tm' Hcv Hw|ws c acc tm r Hl Hr]; unfold tstate; cbn [ms_workers ms_timers].
    - left. rewrite tsum_app. cbn [tsum]. unfold past. rewrite andb_comm. destruct k; cbn [andb]; (split; [lia|split; [reflexivity|]]); intros p v Hp Hv; apply in_app_or in Hp; destruct Hp as [Hp|[<-|[]]]; auto; discriminate.
    - assert (En := nth_error_task _ _ Hcv).
      assert (K : forall q, In q (ws1 ++ p' :: ws2) -> In q (ws1 ++ p :: ws2) \/ q = p') by (intros q Hq; apply in_app_or in Hq; destruct Hq as [|[|]]; auto; left; apply in_or_app; simpl; auto).
      assert (T : tsum k 0 (ws1 ++ p' :: ws2) = tsum k 0 (ws1 ++ p :: ws2) + (if past k cv p' then time (length ws1) k else 0) - (if past k cv p then time (length ws1) k else 0)) by (rewrite !tsum_app; cbn [tsum plus]; rewrite En; lia).
      destruct p, k; cbn [worker_step] in Hw; try discriminate; injection Hw as <- <-;
        try (left; rewrite T; split; [unfold past; try destruct (in_range cv) eqn:Er; cbn [andb]; rewrite ?Er; cbn [andb]; lia|]; split; [rewrite ?get_put; reflexivity|];
          intros q v' Hq Hv; destruct (K q Hq) as [|Eq]; [left; assumption|subst q; try destruct (in_range cv); cbn [pend] in Hv; try discriminate; injection Hv as <-; right; reflexivity]).
      + right. exists (length ws1), v, (W_canon_write v). split; [apply in_or_app; simpl; auto|]. split; [reflexivity|]. split.
        * exists cv. split; auto. intros Er. rewrite T. unfold past. rewrite Er. cbn [andb]. lia.
        * split; [rewrite get_put; reflexivity|]. intros q Hq Hn. destruct (K q Hq) as [|Eq]; auto. subst q. exfalso. apply Hn. reflexivity.
      + right. exists (length ws1), v, (W_eval_write v). split; [apply in_or_app; simpl; auto|]. split; [reflexivity|]. split.
        * exists cv. split; auto. intros Er. rewrite T. unfold past. rewrite Er. cbn [andb]. lia.
        * split; [rewrite get_put; reflexivity|]. intros q Hq Hn. destruct (K q Hq) as [|Eq]; auto. subst q. exfalso. apply Hn. reflexivity.
    - left. split; auto.
  Qed.
End Thr.
