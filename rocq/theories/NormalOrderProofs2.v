(** Vacuum normal ordering of expressions: totality, form, idempotence. *)
From Coq Require Import ZArith QArith List Bool Lia Sorted Permutation.
From Verif Require Import Res RegistryModel CoreModel OrderProofs RationalModel RationalSpec RationalProofs AlgebraModel AlgebraSpec AlgebraProofs AlgebraCases SortSpec NormalOrderModel NormalOrderProofs.
Import ListNotations.

Definition vno_step (st : osi) (only : bool) (r : expression) (x : term * rational) : res expression :=
  bind (term_vno st only (fst x)) (fun l => Ok (fold_left (fun r y => madd term_ltb (fst y) (rat_mul (snd x) (snd y)) r) l r)).
Lemma expr_vno_unfold st only e : expr_vno st only e = if existsb (fun x => tm_no (fst x)) e then Throw else foldM (vno_step st only) [] e.
Proof. reflexivity. Qed.

Lemma vno_fold_total st only e r : exists r', foldM (vno_step st only) r e = Ok r'.
Proof.
  revert r. induction e as [|x e IH]; intros r; simpl; [eauto|].
  unfold vno_step at 1. destruct (term_vno_total st only (fst x)) as [l ->]. simpl. apply IH.
Qed.

Lemma expr_vno_outcome st only e :
  (expr_vno st only e = Throw /\ exists x, In x e /\ tm_no (fst x) = true) \/
  ((exists r, expr_vno st only e = Ok r) /\ forall x, In x e -> tm_no (fst x) = false).
Proof.
  rewrite expr_vno_unfold. destruct (existsb _ e) eqn:E.
  - left. split; [reflexivity|]. apply existsb_exists in E. exact E.
  - right. split; [apply vno_fold_total|]. intros x Hx. destruct (tm_no (fst x)) eqn:E1; [|reflexivity].
    assert (existsb (fun x => tm_no (fst x)) e = true) by (apply existsb_exists; eauto). congruence.
Qed.
Lemma expr_vno_throws st only e : expr_vno st only e = Throw <-> exists x, In x e /\ tm_no (fst x) = true.
Proof.
  destruct (expr_vno_outcome st only e) as [[-> H]|[[r ->] H]]; split; try tauto; try discriminate.
  intros (x & Hx & H1). rewrite (H x Hx) in H1. discriminate.
Qed.
Lemma expr_vno_total st only e : (forall x, In x e -> tm_no (fst x) = false) -> exists r, expr_vno st only e = Ok r.
Proof.
  intros H. destruct (expr_vno_outcome st only e) as [[_ (x & Hx & H1)]|[H1 _]]; [|exact H1].
  rewrite (H x Hx) in H1. discriminate.
Qed.

Lemma madd_fold_keys (Q : term -> Prop) c l r : Forall (fun y => Q (fst y)) l -> Forall (fun x => Q (fst x)) r ->
  Forall (fun x => Q (fst x)) (fold_left (fun r y => madd term_ltb (fst y) (rat_mul c (snd y)) r) l r).
Proof.
  revert r. induction l as [|y l IH]; intros r Hl Hr; simpl; [exact Hr|].
  inversion Hl; subst. apply IH; [assumption|].
  apply Forall_forall. intros x Hx. rewrite Forall_forall in Hr.
  assert (Hk : In (fst x) (map fst (madd term_ltb (fst y) (rat_mul c (snd y)) r))) by (apply in_map; exact Hx).
  apply (keys_madd_in _ _ swo_term) in Hk. destruct Hk as [Hk|Hk].
  - apply in_map_iff in Hk as (z & Hz & Hz'). rewrite <- Hz. apply Hr. exact Hz'.
  - rewrite Hk. assumption.
Qed.

(** Every term of the result comes from some term of the input. *)
Definition vno_of (st : osi) (e : expression) (t : term) : Prop :=
  settled st t /\ tm_no t = false /\ exists x ds, In x e /\ tm_tens t = tm_tens (fst x) ++ ds /\ Forall is_delta ds.
Lemma expr_vno_form st only e r : expr_vno st only e = Ok r -> Forall (fun x => vno_of st e (fst x)) r.
Proof.
  rewrite expr_vno_unfold. destruct (existsb _ e) eqn:E; [discriminate|].
  assert (HN : forall x, In x e -> tm_no (fst x) = false).
  { intros x Hx. destruct (tm_no (fst x)) eqn:E1; [|reflexivity].
    assert (existsb (fun x => tm_no (fst x)) e = true) by (apply existsb_exists; eauto). congruence. }
  clear E. intros H.
  assert (G : forall e' r0, (forall x, In x e' -> In x e) -> Forall (fun x => vno_of st e (fst x)) r0 -> foldM (vno_step st only) r0 e' = Ok r ->
     Forall (fun x => vno_of st e (fst x)) r); [|apply (G e []); auto].
  clear H. induction e' as [|x e' IH]; intros r0 Hin H0; simpl; [intros [= <-]; exact H0|].
  unfold vno_step at 1. destruct (term_vno_total st only (fst x)) as [l El]. rewrite El. simpl.
  apply IH; [auto using in_cons|]. apply madd_fold_keys; [|exact H0].
  pose proof (vno_run_settled _ _ _ _ _ (vno_rec_run _ _ _ _ _ _ El)) as HS.
  eapply Forall_impl; [|exact HS]. simpl. intros y (H1 & H2 & ds & H3 & H4).
  split; [exact H1|split; [apply H2, HN, Hin; left; reflexivity|]]. exists x, ds. split; [apply Hin; left; reflexivity|auto].
Qed.

Lemma wf_madd_fold c l r : canonical c -> Forall (fun y : term * rational => canonical (snd y)) l -> wf term_ltb r ->
  wf term_ltb (fold_left (fun r y => madd term_ltb (fst y) (rat_mul c (snd y)) r) l r).
Proof.
  intros Hc. revert r. induction l as [|y l IH]; intros r Hl Hr; simpl; [exact Hr|].
  inversion Hl; subst. apply IH; [assumption|]. apply (wf_madd _ _ swo_term); [apply rat_mul_canonical; assumption|assumption].
Qed.
Lemma expr_vno_wf st only e r : mcanon e -> expr_vno st only e = Ok r -> wf term_ltb r.
Proof.
  intros He. rewrite expr_vno_unfold. destruct (existsb _ e); [discriminate|].
  assert (G : forall e' r0, mcanon e' -> wf term_ltb r0 -> foldM (vno_step st only) r0 e' = Ok r -> wf term_ltb r).
  { induction e' as [|x e' IH]; intros r0 Hm H0; simpl; [intros [= <-]; exact H0|].
    unfold vno_step at 1. destruct (term_vno_total st only (fst x)) as [l El]. rewrite El. simpl. inversion Hm; subst.
    apply IH; [assumption|]. apply wf_madd_fold; [assumption| |assumption].
    apply (vno_run_canon _ _ _ _ _ (vno_rec_run _ _ _ _ _ _ El)). apply rat_of_Z_canonical. }
  intros H. apply (G e []); auto. apply wf_nil.
Qed.

Lemma rat_mul_1_r c : canonical c -> rat_mul c (rat_of_Z 1) = c.
Proof.
  intros H. apply canonical_val_inj; [apply rat_mul_canonical; [exact H|apply rat_of_Z_canonical]|exact H|].
  rewrite rat_mul_val; [|apply canonical_den; exact H|simpl; lia]. rewrite rat_of_Z_val. ring.
Qed.

Lemma term_vno_settled st only t : settled st t -> term_vno st only t = Ok [(t, rat_of_Z 1)].
Proof.
  intros [H1 H2]. unfold term_vno. cbn [vno_rec]. unfold term_is_vno in H1.
  destruct (first_adj _ (tm_ops t)) eqn:E; [discriminate|].
  destruct (tm_ops t) eqn:Eo; [reflexivity|]. rewrite H2. reflexivity.
Qed.

Lemma expr_vno_fixed st only e : wf term_ltb e -> (forall x, In x e -> settled st (fst x) /\ tm_no (fst x) = false) -> expr_vno st only e = Ok e.
Proof.
  intros We He. rewrite expr_vno_unfold. destruct (existsb _ e) eqn:E.
  { apply existsb_exists in E as (x & Hx & H1). rewrite (proj2 (He x Hx)) in H1. discriminate. }
  clear E. assert (G : forall e2 e1, e = e1 ++ e2 -> foldM (vno_step st only) e1 e2 = Ok e); [|apply (G e []); reflexivity].
  induction e2 as [|x e2 IH]; intros e1 Ee; simpl; [rewrite app_nil_r in Ee; subst; reflexivity|].
  unfold vno_step at 1. rewrite term_vno_settled; [|apply He; subst e; apply in_or_app; right; left; reflexivity]. simpl.
  destruct We as (Ws & Wc & Wn). destruct x as [k c]. simpl.
  assert (Hc : canonical c). { unfold mcanon in Wc. rewrite Forall_forall in Wc. apply (Wc (k, c)). subst e. apply in_or_app. right. left. reflexivity. }
  rewrite rat_mul_1_r by exact Hc.
  rewrite (madd_last term_ltb).
  - rewrite IH; [reflexivity|]. rewrite <- app_assoc. exact Ee.
  - subst e. unfold msorted in *. clear -Ws. induction e1 as [|y e1 IH]; simpl in *; [repeat constructor|].
    inversion Ws as [|? ? H1 H2]; subst. constructor; [apply IH; exact H1|].
    rewrite Forall_app in H2. destruct H2 as [H2 H3]. inversion H3; subst. apply Forall_app. split; [exact H2|constructor; auto].
  - apply rat_is0_val_f; [apply canonical_den; exact Hc|]. unfold mnz in Wn. rewrite Forall_forall in Wn.
    apply (Wn (k, c)). subst e. apply in_or_app. right. left. reflexivity.
Qed.

Lemma expr_vno_idem st only only' e r : mcanon e -> expr_vno st only e = Ok r -> expr_vno st only' r = Ok r.
Proof.
  intros He H. apply expr_vno_fixed; [eapply expr_vno_wf; eauto|].
  pose proof (expr_vno_form _ _ _ _ H) as F. rewrite Forall_forall in F. intros x Hx. destruct (F x Hx) as (H1 & H2 & _). auto.
Qed.
