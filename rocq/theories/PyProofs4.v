(** C72: histories that read no stale name follow the value semantics. *)
From Coq Require Import ZArith List Bool Arith Lia Sorted.
From Verif Require Import Res RationalModel RegistryModel CoreModel OrderProofs AlgebraModel AlgebraSpec AlgebraProofs AdjointModel NormalOrderModel CanonModel PyModel PySpec PyProofs PyProofs2 PyProofs3.
Import ListNotations.

Definition nodead (v : venv) : Prop := forall x, v x <> Some WDead.
Definition agree (s : state) (v : venv) (d : var -> bool) : Prop := forall x, d x = false -> v x = view s x.

Lemma nodead_upd v x w : nodead v -> w <> Some WDead -> nodead (upd v x w).
Proof. intros N W y. unfold upd. destruct (x =? y); [exact W|apply N]. Qed.
(** The value semantics with the helpers of the model. *)
Definition vexec0 (st : osi) (r : res expression) (v : venv) (c : cmd) : venv * status :=
  match c with
  | CLet z e => match eval_rhs st v e with Ok a => (upd v z (Some (WE a)), Done) | Throw => (v, Raised) | _ => (v, Undef) end
  | CAlias y x => match v x with Some w => (upd v y (Some w), Done) | None => (v, Raised) end
  | CDel x => match v x with Some _ => (upd v x None, Done) | None => (v, Raised) end
  | CIadd x y =>
      match v x, v y with
      | Some WDead, Some _ | Some _, Some WDead => (v, Undef)
      | Some (WE a), Some (WE b) => (upd v x (Some (WE (mplus term_ltb a b))), Done)
      | Some (WE a), Some (WT t) => (upd v x (Some (WE (madd term_ltb (to_term t) (to_coef t) a))), Done)
      | Some (WE a), Some (WN k) => (upd v x (Some (WE (madd term_ltb k one a))), Done)
      | Some (WQ a), Some (WQ b) => (upd v x (Some (WQ (rat_add a b))), Done)
      | _, _ => (v, Raised)
      end
  | CIaddP x t q =>
      match v x, v t, v q with
      | Some (WE a), Some WDead, Some _ | Some (WE a), Some _, Some WDead => (v, Undef)
      | Some (WE a), Some w, Some (WQ b) =>
          match symterm_of w with Some k => (upd v x (Some (WE (madd term_ltb k b a))), Done) | None => (v, Raised) end
      | _, _, _ => (v, Raised)
      end
  | CCanon y x =>
      match v x with
      | Some (WE a) =>
          match r with
          | Ok e => (match y with Some y => upd (upd v x (Some (WE e))) y (Some (WE e)) | None => upd v x (Some (WE e)) end, Done)
          | Throw => (v, Raised)
          | _ => (v, Undef)
          end
      | _ => (v, Raised)
      end
  | CIter i x =>
      match v x with
      | Some (WE a) => (upd v i (Some (WI a)), Done)
      | Some (WI l) => (upd v i (Some (WI l)), Done)
      | _ => (v, Raised)
      end
  | CNext t q i =>
      match v i with
      | Some (WI []) => (v, Stop)
      | Some (WI ((k, c) :: l)) => (upd (upd (upd v i (Some (WI l))) t (Some (WN k))) q (Some (WQ c)), Yield k c)
      | _ => (v, Raised)
      end
  | CTerm t b => (upd v t (Some (WT (mkTO b (mkTerm false [] []) one))), Done)
  | CTermOf t u =>
      match v u with
      | Some WDead => (v, Undef)
      | Some w => match symterm_of w with Some k => (upd v t (Some (WT (mkTO true k one))), Done) | None => (v, Raised) end
      | None => (v, Raised)
      end
  | CMut t m =>
      match v t with
      | Some (WT u) => match mutate m u with Some u' => (upd v t (Some (WT u')), Done) | None => (v, Raised) end
      | Some (WN _) => (v, Undef)
      | _ => (v, Raised)
      end
  | CMutC t q =>
      match v t, v q with
      | Some (WT u), Some WDead => (v, Undef)
      | Some (WT u), Some (WQ a) => if to_coeffed u then (upd v t (Some (WT (mkTO true (to_term u) a))), Done) else (v, Raised)
      | _, _ => (v, Raised)
      end
  | CQ q a => (upd v q (Some (WQ a)), Done)
  | CQop q f a b =>
      match v a, v b with
      | Some WDead, _ | _, Some WDead => (v, Undef)
      | Some (WQ a), Some (WQ b) => (upd v q (Some (WQ (eval_qop f a b))), Done)
      | _, _ => (v, Raised)
      end
  | CShow x => match v x with Some WDead => (v, Undef) | Some (WI _) => (v, Done) | Some w => (v, Out w) | None => (v, Raised) end
  end.

Lemma vrhs_eq st v e : vrhs st v e = eval_rhs st v e.
Proof.
  unfold vrhs, eval_rhs. destruct e as [|l|x y|x y|x y|x c|x|x|x b]; cbn [rhs_reads existsb]; try reflexivity;
    destruct (v x) as [[]|]; try reflexivity; try (destruct (v y) as [[]|]; reflexivity); destruct (v c) as [[]|]; reflexivity.
Qed.
Lemma vmut_eq m u : vmut m u = mutate m u.
Proof. destruct m, u as [[] [f ops ts] q]; reflexivity. Qed.
Lemma vkey_eq w : vkey w = symterm_of w.
Proof. destruct w as [|[[] k q]| | | |]; reflexivity. Qed.
Lemma vqop_eq f a b : vqop f a b = eval_qop f a b.
Proof. destruct f; reflexivity. Qed.
Lemma vexec_eq st r v c : vexec st r v c = vexec0 st r v c.
Proof.
  destruct c; try reflexivity; cbn [vexec vexec0].
  - now rewrite vrhs_eq.
  - destruct (v x) as [[]|]; try reflexivity. destruct (v t) as [w|]; try reflexivity. now rewrite vkey_eq.
  - destruct (v u) as [w|]; try reflexivity. now rewrite vkey_eq.
  - destruct (v t) as [[]|]; try reflexivity. now rewrite vmut_eq.
  - destruct (v a) as [[]|]; try reflexivity; destruct (v b) as [[]|]; try reflexivity. now rewrite vqop_eq.
Qed.
Lemma vexec_nodead st r v c v' o : nodead v -> vexec st r v c = (v', o) -> nodead v'.
Proof.
  rewrite vexec_eq. intros N. destruct c as [z e|y x|x|x y|x t q|y x|i x|t q i|t b|t u|t m|t q|q a|q f a b|x]; cbn [vexec0]; bust;
    intros H; injection H as <- <-; repeat (apply nodead_upd); try exact N; try discriminate.
  intros H. injection H as ->. apply (N x). assumption.
Qed.

Lemma eval_ext st v1 v2 e : Forall (fun x => v1 x = v2 x) (rhs_reads e) -> eval_rhs st v1 e = eval_rhs st v2 e.
Proof.
  destruct e as [|l|x y|x y|x y|x q|x|x|x b]; cbn; intros H; try reflexivity;
    repeat match goal with H : Forall _ (_ :: _) |- _ => inversion H; clear H; subst end;
    repeat match goal with H : v1 _ = v2 _ |- _ => rewrite H; clear H end; reflexivity.
Qed.
Lemma look_env s env v : look (mkS (s_exprs s) (s_terms s) (s_iters s) (s_next s) env) v = look s v.
Proof. destruct v; reflexivity. Qed.
Lemma look_assign s x w v : look (assign x w s) v = look s v.
Proof. destruct v; reflexivity. Qed.

Section Step.
  Variables (st : osi) (r : res expression) (s : state) (c : cmd) (s' : state) (o : status) (v v' : venv) (d : var -> bool).
  Hypothesis I : inv s.
  Hypothesis E : exec st r s c = (s', o).
  Hypothesis A : agree s v d.
  Definition targets : list var := binds c ++ match writes s c with Some (x, _) => [x] | None => [] end.
  Lemma agree_step : (forall y, ~ In y targets -> v' y = v y) -> (forall y, In y targets -> v' y = view s' y) -> agree s' v' (stale_after s c o d).
  Proof.
    intros H1 H2 y S. destruct (in_dec Nat.eq_dec y targets) as [T|T]; [now apply H2|]. rewrite (H1 y T). unfold stale_after in S.
    assert (B : ~ In y (binds c)) by (intros B; apply T; apply in_or_app; now left).
    assert (Eb : existsb (Nat.eqb y) (binds c) = false). { apply not_true_iff_false. intros X. apply existsb_exists in X. destruct X as (z & Z1 & Z2). apply Nat.eqb_eq in Z2. subst z. exact (B Z1). }
    rewrite Eb in S. cbn in S. apply orb_false_iff in S. destruct S as [S1 S2]. rewrite (A y S1). symmetry. apply (frame_view st r s c s' o); [exact I|exact E|exact B|].
    intros x a W. rewrite W in S2. assert (x <> y) by (intros ->; apply T; apply in_or_app; right; rewrite W; now left). apply Nat.eqb_neq in H. rewrite H in S2. exact S2.
  Qed.
End Step.
Lemma agree_raised s c v d : agree s v d -> agree s v (stale_after s c Raised d).
Proof. intros A y S. apply A. unfold stale_after in S. rewrite andb_false_r in S. now apply orb_false_iff in S. Qed.
Lemma agree_nobind s c o v d : agree s v d -> binds c = [] -> agree s v (stale_after s c o d).
Proof. intros A B y S. apply A. unfold stale_after in S. rewrite B in S. cbn in S. now apply orb_false_iff in S. Qed.


Ltac sel H := match type of H with Forall _ (_ :: _) => let H1 := fresh "R" in inversion H as [|? ? H1 H']; clear H; subst; rename H' into H end.
Lemma view_Some s x w : s_env s x = Some w -> view s x = Some (look s w).
Proof. unfold view. now intros ->. Qed.
Lemma view_None s x : s_env s x = None -> view s x = None.
Proof. unfold view. now intros ->. Qed.
Lemma look_VE s o' m : nth_error (s_exprs s) o' = Some m -> look s (VE o') = WE (entries m).
Proof. cbn. now intros ->. Qed.
Lemma bound_VE s x o' : inv s -> s_env s x = Some (VE o') -> exists m, nth_error (s_exprs s) o' = Some m /\ view s x = Some (WE (entries m)).
Proof. intros I H. destruct (lt_nth _ _ (i_env s I _ _ H)) as (m & Em). exists m. split; [exact Em|]. rewrite (view_Some _ _ _ H). now rewrite (look_VE _ _ _ Em). Qed.
Lemma bound_VT s x o' : inv s -> s_env s x = Some (VT o') -> exists m, nth_error (s_terms s) o' = Some m /\ view s x = Some (WT m).
Proof. intros I H. destruct (lt_nth _ _ (i_env s I _ _ H)) as (m & Em). exists m. split; [exact Em|]. rewrite (view_Some _ _ _ H). cbn. now rewrite Em. Qed.
Lemma look_not_WE s w e : (forall o', w <> VE o') -> look s w <> WE e.
Proof. intros N. destruct w as [o'|o'|o' n|q|o' n|j]; [exfalso; now apply (N o')|cbn; bust; discriminate..]. Qed.

Ltac fin1 := let Y := fresh "y" in let N := fresh "N" in intros Y N; cbn in N; repeat (rewrite upd_other by (intros ->; apply N; tauto)); reflexivity.
Ltac raised := eexists; split; [reflexivity|]; intros _; apply agree_raised; assumption.
Ltac undef := eexists; split; [reflexivity|]; let X := fresh in intros X; exfalso; apply X; reflexivity.
Ltac ii H := injection H as <- <-.

Lemma sim0 st r s c s' o v d : inv s -> agree s v d -> nodead v -> Forall (fun x => d x = false) (reads c) -> exec st r s c = (s', o) ->
  exists v', vexec0 st r v c = (v', o) /\ (o <> Undef -> agree s' v' (stale_after s c o d)).
Proof.
  intros I A ND R E0. pose proof E0 as E.
  destruct c as [z e|y x|x|x y|x t q|y x|i x|t q i|t b|t u|t m|t q|q a|q f a b|x]; cbn [exec reads vexec0] in E, R |- *.
  - (* CLet *)
    assert (X : eval_rhs st v e = eval_rhs st (view s) e). { apply eval_ext. revert R. apply Forall_impl. exact A. } rewrite X.
    destruct (eval_rhs st (view s) e) as [a| | |]; ii E; [|raised|undef|undef].
    eexists; split; [reflexivity|]. intros _. eapply agree_step; [exact I|exact E0|exact A|fin1|].
    intros y [<-|[]]. rewrite upd_same. unfold view. cbn. rewrite upd_same. cbn. rewrite nth_app_new, entries_fresh. reflexivity.
  - (* CAlias *)
    sel R. rewrite (A x) by assumption. destruct (s_env s x) as [w|] eqn:Ex; [rewrite (view_Some _ _ _ Ex)|rewrite (view_None _ _ Ex)]; ii E; [|raised].
    eexists; split; [reflexivity|]. intros _. eapply agree_step; [exact I|exact E0|exact A|fin1|].
    intros y' [<-|[]]. rewrite upd_same. unfold view. cbn [s_env assign]. rewrite upd_same. cbn [option_map]. now rewrite look_assign.
  - (* CDel *)
    sel R. rewrite (A x) by assumption. destruct (s_env s x) as [w|] eqn:Ex; [rewrite (view_Some _ _ _ Ex)|rewrite (view_None _ _ Ex)]; ii E; [|raised].
    eexists; split; [reflexivity|]. intros _. eapply agree_step; [exact I|exact E0|exact A|fin1|].
    intros y' [<-|[]]. rewrite upd_same. unfold view. cbn [s_env]. now rewrite upd_same.
  - (* CIadd *)
    sel R. sel R. pose proof (A x R0) as Ax. pose proof (A y R1) as Ay. pose proof (ND x) as Dx. pose proof (ND y) as Dy. rewrite Ax in Dx |- *. rewrite Ay in Dy |- *.
    destruct (s_env s x) as [w|] eqn:Ex; [|rewrite (view_None _ _ Ex) in *; ii E; raised].
    destruct (view s y) as [wy|] eqn:Ey; [|rewrite (view_Some _ _ _ Ex) in *; destruct w; ii E; destruct (look s _); raised].
    assert (Q : (exists o', w = VE o') \/ (forall o', w <> VE o')) by (destruct w; [left; eexists; reflexivity|right; discriminate..]).
    destruct Q as [[o' ->]|Q].
    + destruct (bound_VE _ _ _ I Ex) as (m & Em & Vx). rewrite Vx in *. rewrite Em in E.
      destruct wy as [b|t|k|q|l|]; cbn [addend] in E; ii E; try raised; [| | |exfalso; now apply Dy].
      * eexists; split; [reflexivity|]. intros _. eapply agree_step; [exact I|exact E0|exact A|unfold targets; cbn [writes binds]; rewrite Ex, Ey; fin1|].
        unfold targets; cbn [writes binds]; rewrite Ex, Ey. intros y' [<-|[]]. rewrite upd_same. unfold view. cbn. rewrite upd_same. cbn. now rewrite nth_app_new, entries_fresh.
      * eexists; split; [reflexivity|]. intros _. eapply agree_step; [exact I|exact E0|exact A|unfold targets; cbn [writes binds]; rewrite Ex, Ey; fin1|].
        unfold targets; cbn [writes binds]; rewrite Ex, Ey. intros y' Iy. assert (y' = x) as -> by (cbn in Iy; intuition congruence). rewrite upd_same. unfold view. cbn [s_env add_in_place]. rewrite Ex. cbn [option_map look s_exprs add_in_place]. rewrite set_nth_same by exact (nth_lt _ _ _ Em). now rewrite entries_nadd.
      * eexists; split; [reflexivity|]. intros _. eapply agree_step; [exact I|exact E0|exact A|unfold targets; cbn [writes binds]; rewrite Ex, Ey; fin1|].
        unfold targets; cbn [writes binds]; rewrite Ex, Ey. intros y' Iy. assert (y' = x) as -> by (cbn in Iy; intuition congruence). rewrite upd_same. unfold view. cbn [s_env add_in_place]. rewrite Ex. cbn [option_map look s_exprs add_in_place]. rewrite set_nth_same by exact (nth_lt _ _ _ Em). now rewrite entries_nadd.
    + rewrite (view_Some _ _ _ Ex) in *. pose proof (look_not_WE s w) as NE.
      assert (E' : match look s w, wy with WDead, _ | _, WDead => (s, Undef) | WQ a, WQ b => (assign x (VQ (rat_add a b)) s, Done) | _, _ => (s, Raised) end = (s', o)) by (destruct w; [exfalso; now apply (Q o0)|exact E..]).
      clear E. assert (W : writes s (CIadd x y) = None) by (cbn; rewrite Ex; destruct w; [exfalso; now apply (Q o0)|reflexivity..]).
      destruct (look s w) as [e|t|k|q|l|] eqn:Ew; [exfalso; now apply (NE e Q)| | | | |exfalso; now apply Dx]; destruct wy; try (exfalso; now apply Dy); ii E'; try raised.
      eexists; split; [reflexivity|]. intros _. eapply agree_step; [exact I|exact E0|exact A|unfold targets; rewrite W; fin1|].
      unfold targets; rewrite W. intros y' [<-|[]]. rewrite upd_same. unfold view. cbn. now rewrite upd_same.
  - (* CIaddP *)
    sel R. sel R. sel R. pose proof (ND t) as Dt. pose proof (ND q) as Dq. rewrite (A x), (A t), (A q) in * by assumption.
    destruct (s_env s x) as [w|] eqn:Ex; [|rewrite (view_None _ _ Ex) in *; ii E; raised].
    assert (Q : (exists o', w = VE o') \/ (forall o', w <> VE o')) by (destruct w; [left; eexists; reflexivity|right; discriminate..]).
    destruct Q as [[o' ->]|Q].
    + destruct (bound_VE _ _ _ I Ex) as (m & Em & Vx). rewrite Vx in *.
      destruct (view s t) as [wt|] eqn:Et; [|ii E; raised].
      destruct (view s q) as [wq|] eqn:Eq; [|ii E; destruct wt; raised].
      rewrite Em in E. destruct wq as [e1|t1|k1|a|l1|]; [| | | | |exfalso; now apply Dq]; (destruct wt as [e2|u|k|q2|l2|]; [| | | | |exfalso; now apply Dt]); cbn [symterm_of] in *; try (ii E; raised).
      * destruct (to_coeffed u); ii E; [raised|]. eexists; split; [reflexivity|]. intros _. eapply agree_step; [exact I|exact E0|exact A|unfold targets; cbn [writes binds]; rewrite Ex; fin1|].
        unfold targets; cbn [writes binds]; rewrite Ex. intros y' Iy. assert (y' = x) as -> by (cbn in Iy; intuition congruence). rewrite upd_same. unfold view. cbn [s_env add_in_place]. rewrite Ex. cbn [option_map look s_exprs add_in_place]. rewrite set_nth_same by exact (nth_lt _ _ _ Em). now rewrite entries_nadd.
      * ii E. eexists; split; [reflexivity|]. intros _. eapply agree_step; [exact I|exact E0|exact A|unfold targets; cbn [writes binds]; rewrite Ex; fin1|].
        unfold targets; cbn [writes binds]; rewrite Ex. intros y' Iy. assert (y' = x) as -> by (cbn in Iy; intuition congruence). rewrite upd_same. unfold view. cbn [s_env add_in_place]. rewrite Ex. cbn [option_map look s_exprs add_in_place]. rewrite set_nth_same by exact (nth_lt _ _ _ Em). now rewrite entries_nadd.
    + rewrite (view_Some _ _ _ Ex). assert (E' : (s, Raised) = (s', o)) by (destruct w; [exfalso; now apply (Q o0)|exact E..]). ii E'. pose proof (look_not_WE s w) as NE.
      destruct (look s w) as [e|?|?|?|?|]; [exfalso; now apply (NE e Q)|raised..].
  - (* CCanon *)
    sel R. rewrite (A x) by assumption. destruct (s_env s x) as [w|] eqn:Ex; [|rewrite (view_None _ _ Ex) in *; ii E; raised].
    assert (Q : (exists o', w = VE o') \/ (forall o', w <> VE o')) by (destruct w; [left; eexists; reflexivity|right; discriminate..]).
    destruct Q as [[o' ->]|Q].
    + destruct (bound_VE _ _ _ I Ex) as (m & Em & Vx). rewrite Vx. destruct r as [a| | |]; [|ii E; raised|ii E; undef..]. destruct y as [y|]; ii E.
      * eexists; split; [reflexivity|]. intros _. eapply agree_step; [exact I|exact E0|exact A|unfold targets; cbn [writes binds]; rewrite Ex; fin1|].
        unfold targets; cbn [writes binds]; rewrite Ex. intros y' Iy. assert (Z : upd (upd v x (Some (WE a))) y (Some (WE a)) y' = Some (WE a)).
        { destruct (Nat.eq_dec y y') as [->|N]; [apply upd_same|]. rewrite upd_other by exact N. assert (y' = x) as -> by (cbn in Iy; intuition congruence). apply upd_same. }
        rewrite Z. unfold view. cbn [s_env assign replace]. destruct (Nat.eq_dec y y') as [->|N].
        -- rewrite upd_same. cbn. rewrite set_nth_same by exact (nth_lt _ _ _ Em). now rewrite entries_fresh.
        -- rewrite upd_other by exact N. assert (y' = x) as -> by (cbn in Iy; intuition congruence). rewrite Ex. cbn. rewrite set_nth_same by exact (nth_lt _ _ _ Em). now rewrite entries_fresh.
      * eexists; split; [reflexivity|]. intros _. eapply agree_step; [exact I|exact E0|exact A|unfold targets; cbn [writes binds]; rewrite Ex; fin1|].
        unfold targets; cbn [writes binds]; rewrite Ex. intros y' [<-|[]]. rewrite upd_same. unfold view. cbn [s_env replace]. rewrite Ex. cbn [option_map look s_exprs replace]. rewrite set_nth_same by exact (nth_lt _ _ _ Em). now rewrite entries_fresh.
    + rewrite (view_Some _ _ _ Ex). assert (E' : (s, Raised) = (s', o)) by (destruct w; [exfalso; now apply (Q o0)|exact E..]). ii E'. pose proof (look_not_WE s w) as NE.
      destruct (look s w) as [e|?|?|?|?|]; [exfalso; now apply (NE e Q)|raised..].
  - (* CIter *)
    sel R. pose proof (ND x) as Dx. rewrite (A x) in * by assumption. destruct (s_env s x) as [w|] eqn:Ex; [|rewrite (view_None _ _ Ex) in *; ii E; raised].
    rewrite (view_Some _ _ _ Ex) in *. destruct w as [o'|o'|o' n|q|o' n|j]; cbn [look] in *.
    + destruct (nth_error (s_exprs s) o') as [m|] eqn:Em; ii E; [|exfalso; now apply Dx]. eexists; split; [reflexivity|]. intros _. eapply agree_step; [exact I|exact E0|exact A|fin1|].
      intros y' [<-|[]]. rewrite upd_same. unfold view. cbn [s_env new_iter]. rewrite upd_same. cbn. rewrite nth_app_new. cbn [io_expr]. rewrite Em. now rewrite rest_first.
    + destruct (nth_error (s_terms s) o'); ii E; raised.
    + destruct (nth_error (s_exprs s) o') as [m|]; [destruct (node n m)|]; ii E; raised.
    + ii E; raised.
    + destruct (nth_error (s_exprs s) o') as [m|]; [destruct (node n m)|]; ii E; raised.
    + ii E. destruct (nth_error (s_iters s) j) as [it|] eqn:Ej; [|exfalso; now apply Dx]. destruct (nth_error (s_exprs s) (io_expr it)) as [m|] eqn:Em; [|exfalso; now apply Dx].
      destruct (rest m it) as [l|] eqn:Er; [|exfalso; now apply Dx]. eexists; split; [reflexivity|]. intros _. eapply agree_step; [exact I|exact E0|exact A|fin1|].
      intros y' [<-|[]]. rewrite upd_same. unfold view. cbn [s_env assign]. rewrite upd_same. cbn. now rewrite Ej, Em, Er.
  - (* CNext *)
    sel R. pose proof (ND i) as Dx. rewrite (A i) in * by assumption. destruct (s_env s i) as [w|] eqn:Ex; [|rewrite (view_None _ _ Ex) in *; ii E; raised].
    rewrite (view_Some _ _ _ Ex) in *. destruct w as [o'|o'|o' n|q'|o' n|j]; cbn [look] in *.
    + destruct (nth_error (s_exprs s) o'); ii E; raised.
    + destruct (nth_error (s_terms s) o'); ii E; raised.
    + destruct (nth_error (s_exprs s) o') as [m|]; [destruct (node n m)|]; ii E; raised.
    + ii E; raised.
    + destruct (nth_error (s_exprs s) o') as [m|]; [destruct (node n m)|]; ii E; raised.
    + destruct (nth_error (s_iters s) j) as [it|] eqn:Ej; [|exfalso; now apply Dx]. destruct (nth_error (s_exprs s) (io_expr it)) as [m|] eqn:Em; [|exfalso; now apply Dx].
      destruct (rest m it) as [l|] eqn:Er; [|exfalso; now apply Dx]. pose proof (nth_lt _ _ _ Ej) as Lj. destruct l as [|[n [k a]] l]; cbn [entries map snd fst] in *; ii E.
      * eexists; split; [reflexivity|]. intros _ y S. unfold stale_after in S. rewrite andb_false_r in S. apply orb_false_iff in S. destruct S as [S1 S2]. cbn [writes] in S2. rewrite Ex in S2.
        rewrite (A y S1). destruct (Nat.eq_dec i y) as [<-|N].
        -- rewrite (view_Some _ _ _ Ex). unfold view. cbn [s_env set_iter]. rewrite Ex. cbn. rewrite Ej, Em, Er. rewrite set_nth_same by exact Lj. cbn [io_expr]. rewrite Em. reflexivity.
        -- assert (Nb := N). apply Nat.eqb_neq in Nb. rewrite Nb in S2. cbn in S2. unfold view. cbn [s_env set_iter]. destruct (s_env s y) as [wy|] eqn:Ey; [|reflexivity]. cbn [option_map]. f_equal. symmetry.
           apply (frame_look _ _ _ _ _ _ _ I E0 (i_env s I _ _ Ey)). cbn [writes]. rewrite Ex. intros x' a' W. injection W as <- <-. exact (depends_false _ _ _ _ Ey S2).
      * eexists; split; [reflexivity|]. intros _. eapply agree_step; [exact I|exact E0|exact A|unfold targets; cbn [writes binds]; rewrite Ex; fin1|].
        unfold targets; cbn [writes binds]; rewrite Ex. intros y' Iy. cbn in Iy. destruct (rest_tail _ _ _ Er) as (pre & Epre).
        destruct (i_nd s I _ _ Em) as [NDm _]. assert (Nn : ~ In n (map fst pre)) by (rewrite Epre, map_app in NDm; apply nodup_mid in NDm; tauto).
        unfold view. cbn [s_env assign set_iter]. destruct (Nat.eq_dec q y') as [<-|Nq].
        -- rewrite !upd_same. cbn. rewrite Em. rewrite Epre, node_mid by exact Nn. reflexivity.
        -- rewrite !(upd_other _ q) by exact Nq. destruct (Nat.eq_dec t y') as [<-|Nt].
           ++ rewrite !upd_same. cbn. rewrite Em. rewrite Epre, node_mid by exact Nn. reflexivity.
           ++ rewrite !(upd_other _ t) by exact Nt. assert (y' = i) as -> by intuition congruence. rewrite upd_same, Ex. cbn. rewrite set_nth_same by exact Lj. cbn [io_expr]. rewrite Em.
              now rewrite (rest_next m _ pre n (k, a) l NDm Epre).
  - (* CTerm *)
    ii E. eexists; split; [reflexivity|]. intros _. eapply agree_step; [exact I|exact E0|exact A|fin1|].
    intros y [<-|[]]. rewrite upd_same. unfold view. cbn. rewrite upd_same. cbn. now rewrite nth_app_new.
  - (* CTermOf *)
    sel R. rewrite (A u) by assumption. destruct (view s u) as [w|]; [|ii E; raised]. destruct w as [?|t'|k|?|?|]; cbn [symterm_of] in *; try (ii E; raised); try (ii E; undef).
    + destruct (to_coeffed t'); ii E; [raised|]. eexists; split; [reflexivity|]. intros _. eapply agree_step; [exact I|exact E0|exact A|fin1|].
      intros y [<-|[]]. rewrite upd_same. unfold view. cbn. rewrite upd_same. cbn. now rewrite nth_app_new.
    + ii E. eexists; split; [reflexivity|]. intros _. eapply agree_step; [exact I|exact E0|exact A|fin1|].
      intros y [<-|[]]. rewrite upd_same. unfold view. cbn. rewrite upd_same. cbn. now rewrite nth_app_new.
  - (* CMut *)
    sel R. pose proof (ND t) as Dx. rewrite (A t) in * by assumption. destruct (s_env s t) as [w|] eqn:Ex; [|rewrite (view_None _ _ Ex) in *; ii E; raised].
    rewrite (view_Some _ _ _ Ex) in *. destruct w as [o'|o'|o' n|q|o' n|j]; cbn [look] in *.
    + destruct (nth_error (s_exprs s) o'); ii E; raised.
    + destruct (nth_error (s_terms s) o') as [u|] eqn:Eu; [|exfalso; now apply Dx]. destruct (mutate m u) as [u'|]; ii E; [|raised].
      eexists; split; [reflexivity|]. intros _. eapply agree_step; [exact I|exact E0|exact A|unfold targets; cbn [writes binds]; rewrite Ex; fin1|].
      unfold targets; cbn [writes binds]; rewrite Ex. intros y' [<-|[]]. rewrite upd_same. unfold view. cbn [s_env set_term]. rewrite Ex. cbn. now rewrite set_nth_same by exact (nth_lt _ _ _ Eu).
    + destruct (nth_error (s_exprs s) o') as [m'|]; [|exfalso; now apply Dx]. destruct (node n m'); [|exfalso; now apply Dx]. ii E; undef.
    + ii E; raised.
    + destruct (nth_error (s_exprs s) o') as [m'|]; [destruct (node n m')|]; ii E; raised.
    + destruct (nth_error (s_iters s) j) as [it|]; [destruct (nth_error (s_exprs s) (io_expr it)) as [m'|]; [destruct (rest m' it)|]|]; ii E; raised.
  - (* CMutC *)
    sel R. sel R. pose proof (ND t) as Dx. pose proof (ND q) as Dq. rewrite (A t), (A q) in * by assumption. destruct (s_env s t) as [w|] eqn:Ex; [|rewrite (view_None _ _ Ex) in *; ii E; raised].
    rewrite (view_Some _ _ _ Ex) in *. destruct w as [o'|o'|o' n|q'|o' n|j]; cbn [look] in *.
    + destruct (nth_error (s_exprs s) o'); ii E; raised.
    + destruct (nth_error (s_terms s) o') as [u|] eqn:Eu; [|exfalso; now apply Dx]. destruct (view s q) as [wq|]; [|ii E; raised].
      destruct wq as [?|?|?|a|?|]; try (ii E; raised); [|exfalso; now apply Dq]. destruct (to_coeffed u); ii E; [|raised].
      eexists; split; [reflexivity|]. intros _. eapply agree_step; [exact I|exact E0|exact A|unfold targets; cbn [writes binds]; rewrite Ex; fin1|].
      unfold targets; cbn [writes binds]; rewrite Ex. intros y' [<-|[]]. rewrite upd_same. unfold view. cbn [s_env set_term]. rewrite Ex. cbn. now rewrite set_nth_same by exact (nth_lt _ _ _ Eu).
    + destruct (nth_error (s_exprs s) o') as [m'|]; [destruct (node n m')|]; ii E; raised.
    + ii E; raised.
    + destruct (nth_error (s_exprs s) o') as [m'|]; [destruct (node n m')|]; ii E; raised.
    + destruct (nth_error (s_iters s) j) as [it|]; [destruct (nth_error (s_exprs s) (io_expr it)) as [m'|]; [destruct (rest m' it)|]|]; ii E; raised.
  - (* CQ *)
    ii E. eexists; split; [reflexivity|]. intros _. eapply agree_step; [exact I|exact E0|exact A|fin1|].
    intros y [<-|[]]. rewrite upd_same. unfold view. cbn. now rewrite upd_same.
  - (* CQop *)
    sel R. sel R. pose proof (ND a) as Da. pose proof (ND b) as Db. rewrite (A a), (A b) in * by assumption.
    destruct (view s a) as [wa|]; [|destruct (view s b) as [[?|?|?|?|?|]|]; try (exfalso; now apply Db); ii E; raised].
    destruct wa as [?|?|?|qa|?|]; try (exfalso; now apply Da); destruct (view s b) as [[?|?|?|qb|?|]|]; try (exfalso; now apply Db); ii E; try raised.
    eexists; split; [reflexivity|]. intros _. eapply agree_step; [exact I|exact E0|exact A|fin1|].
    intros y [<-|[]]. rewrite upd_same. unfold view. cbn. now rewrite upd_same.
  - (* CShow *)
    sel R. rewrite (A x) by assumption. destruct (view s x) as [[?|?|?|?|?|]|]; ii E; eexists; (split; [reflexivity|]); intros Z; try (exfalso; now apply Z); (apply agree_nobind; [assumption|reflexivity]).
Qed.
Lemma sim st r s c s' o v d : inv s -> agree s v d -> nodead v -> Forall (fun x => d x = false) (reads c) -> exec st r s c = (s', o) ->
  exists v', vexec st r v c = (v', o) /\ (o <> Undef -> agree s' v' (stale_after s c o d)).
Proof. intros. rewrite vexec_eq. eapply sim0; eassumption. Qed.
