(** Proofs about linear combinations. *)
From Coq Require Import ZArith QArith List Bool Sorted Lia Setoid.
From Verif Require Import Res RationalModel RationalSpec RationalProofs CoreModel OrderProofs AlgebraModel AlgebraSpec.
Import ListNotations.
Local Open Scope Q_scope.

Lemma rat_is0_num c : rat_is0 c = true <-> num c = 0%Z.
Proof.
  unfold rat_is0, rat_eqb, rat_of_Z; simpl. destruct (Z.eqb_spec (num c) 0); simpl; split; intros; congruence || reflexivity || auto.
Qed.
Lemma Qval0_num c : den c <> 0%Z -> Qval c == 0 <-> num c = 0%Z.
Proof.
  intros H. split.
  - intros E. assert (X : Qval c == inject_Z 0 / inject_Z 1) by (rewrite E; reflexivity).
    apply Qval_iff in X; [lia|assumption|lia].
  - intros E. unfold Qval. rewrite E. unfold Qdiv. now rewrite Qmult_0_l.
Qed.
Lemma rat_is0_val c : den c <> 0%Z -> rat_is0 c = true <-> Qval c == 0.
Proof. intros H. now rewrite rat_is0_num, Qval0_num. Qed.
Lemma rat_is0_val_f c : den c <> 0%Z -> rat_is0 c = false <-> ~ Qval c == 0.
Proof. intros H. rewrite <- rat_is0_val by assumption. destruct (rat_is0 c); intuition congruence. Qed.
Lemma rat_add_den a b : den a <> 0%Z -> den b <> 0%Z -> den (rat_add a b) <> 0%Z.
Proof. intros. apply reduce_den_nz; simpl; nia. Qed.
Lemma rat_mul_den a b : den a <> 0%Z -> den b <> 0%Z -> den (rat_mul a b) <> 0%Z.
Proof. intros. apply reduce_den_nz; simpl; nia. Qed.
Lemma rat_neg_den a : den a <> 0%Z -> den (rat_neg a) <> 0%Z.
Proof. intros. unfold rat_neg. pose proof (rat_make_canonical (- num a) (den a) H) as [X _]. lia. Qed.
Lemma canonical_den c : canonical c -> den c <> 0%Z.
Proof. intros [H _]. lia. Qed.
Global Hint Resolve canonical_den : core.

Section A.
  Context {K : Type} (lt eqb : K -> K -> bool) (H : swo lt eqb) (P : K -> Prop).

  Lemma lsum_app g (m1 m2 : list (K * rational)) : lsum g (m1 ++ m2) == lsum g m1 + lsum g m2.
  Proof. induction m1 as [|x m1 IH]; simpl; [ring|]. rewrite IH. ring. Qed.

  Lemma lsum_ext g g' (m : list (K * rational)) : (forall k, g k == g' k) -> lsum g m == lsum g' m.
  Proof. intros E. induction m as [|x m IH]; simpl; [reflexivity|]. now rewrite E, IH. Qed.

  Lemma lsum_ext_in g g' (m : list (K * rational)) : (forall x, In x m -> g (fst x) == g' (fst x)) -> lsum g m == lsum g' m.
  Proof. intros E. induction m as [|x m IH]; simpl; [reflexivity|]. rewrite E by (now left). rewrite IH; [reflexivity|]. intros; apply E; now right. Qed.

  Lemma lsum_lin2 g1 g2 a b (m : list (K * rational)) :
    lsum (fun k => a * g1 k + b * g2 k) m == a * lsum g1 m + b * lsum g2 m.
  Proof. induction m as [|x m IH]; simpl; [ring|]. rewrite IH. ring. Qed.

  Lemma lsum_0 (m : list (K * rational)) g : (forall x, In x m -> g (fst x) == 0) -> lsum g m == 0.
  Proof. intros E. induction m as [|x m IH]; simpl; [reflexivity|]. rewrite E by (now left). rewrite IH; [ring|]. intros; apply E; now right. Qed.

  Lemma find_eq k m : forall c, mfind lt k m = Some c -> exists k', eqb k' k = true /\ In (k', c) m.
  Proof.
    induction m as [|[k' c'] m IH]; intros c; simpl; [discriminate|].
    destruct (lt k' k) eqn:E1.
    - intros X. destruct (IH c X) as (k0 & ? & ?). eauto.
    - destruct (lt k k') eqn:E2; [discriminate|]. intros [= <-]. exists k'. split; [|now left].
      apply (swo_eq _ _ H). auto.
  Qed.

  Lemma lsum_mset_none g k c m : mfind lt k m = None -> lsum g (mset lt k c m) == lsum g m + Qval c * g k.
  Proof.
    induction m as [|[k' c'] m IH]; simpl; [intros; ring|].
    destruct (lt k' k); [|destruct (lt k k')]; simpl; intros X; try discriminate; [rewrite (IH X)|]; ring.
  Qed.

  Lemma lsum_mset_some g k c c0 m : respects eqb P g -> P k -> keysP P m -> mfind lt k m = Some c0 ->
    lsum g (mset lt k c m) == lsum g m + (Qval c - Qval c0) * g k.
  Proof.
    intros R Pk. induction m as [|[k' c'] m IH]; simpl; [discriminate|]. intros F. inversion F as [|? ? Pk' F']; subst.
    destruct (lt k' k) eqn:E1; [|destruct (lt k k') eqn:E2]; simpl; intros X; try discriminate.
    - rewrite (IH F' X). ring.
    - injection X as <-. assert (E : g k' == g k) by (apply R; auto; apply (swo_eq _ _ H); auto). rewrite E. ring.
  Qed.

  Lemma lsum_merase g k c0 m : respects eqb P g -> P k -> keysP P m -> mfind lt k m = Some c0 ->
    lsum g (merase lt k m) == lsum g m - Qval c0 * g k.
  Proof.
    intros R Pk. induction m as [|[k' c'] m IH]; simpl; [discriminate|]. intros F. inversion F as [|? ? Pk' F']; subst.
    destruct (lt k' k) eqn:E1; [|destruct (lt k k') eqn:E2]; simpl; intros X; try discriminate.
    - rewrite (IH F' X). ring.
    - injection X as <-. assert (E : g k' == g k) by (apply R; auto; apply (swo_eq _ _ H); auto). rewrite E. ring.
  Qed.

  Lemma find_forall (R : rational -> Prop) k m c : Forall (fun x : K * rational => R (snd x)) m -> mfind lt k m = Some c -> R c.
  Proof. intros F X. destruct (find_eq _ _ _ X) as (k' & _ & I). rewrite Forall_forall in F. exact (F _ I). Qed.

  (** The key lemma: [add] adds [c * g k] to every linear functional. *)
  Lemma lsum_madd g k c m : respects eqb P g -> P k -> keysP P m -> mgood m -> den c <> 0%Z ->
    lsum g (madd lt k c m) == lsum g m + Qval c * g k.
  Proof.
    intros R Pk KP G Dc. unfold madd. destruct (rat_is0 c) eqn:Z0.
    - apply rat_is0_val in Z0; [|assumption]. rewrite Z0. ring.
    - destruct (mfind lt k m) as [c0|] eqn:F; [|now apply lsum_mset_none].
      assert (D0 : den c0 <> 0%Z) by exact (find_forall (fun c => den c <> 0%Z) _ _ _ G F).
      assert (V := rat_add_val c0 c D0 Dc).
      cbv zeta. destruct (rat_is0 (rat_add c0 c)) eqn:Z1.
      + apply rat_is0_val in Z1; [|now apply rat_add_den].
        rewrite (lsum_merase g k c0 m R Pk KP F). rewrite V in Z1.
        assert (E : Qval c == - Qval c0) by (rewrite <- (Qplus_0_r (- Qval c0)), <- Z1; ring). rewrite E. ring.
      + rewrite (lsum_mset_some g k _ c0 m R Pk KP F), V. ring.
  Qed.

  Lemma Forall_mset (R : K * rational -> Prop) k c m : (forall k', eqb k' k = true -> R (k', c)) -> R (k, c) ->
    Forall R m -> Forall R (mset lt k c m).
  Proof.
    intros Pe Pk. induction 1 as [|[k' c'] m X F IH]; simpl; [repeat constructor; assumption|].
    destruct (lt k' k) eqn:E1; [constructor; assumption|]. destruct (lt k k') eqn:E2; [repeat constructor; assumption|].
    constructor; [|assumption]. apply Pe, (swo_eq _ _ H); auto.
  Qed.
  Lemma Forall_merase (R : K * rational -> Prop) k m : Forall R m -> Forall R (merase lt k m).
  Proof.
    induction 1 as [|[k' c'] m X F IH]; simpl; [constructor|].
    destruct (lt k' k); [constructor; assumption|]. destruct (lt k k'); [constructor; assumption|assumption].
  Qed.

  Lemma Forall_madd_snd (R : rational -> Prop) k c m : (rat_is0 c = false -> R c) ->
    (forall c0, R c0 -> rat_is0 (rat_add c0 c) = false -> R (rat_add c0 c)) ->
    Forall (fun x : K * rational => R (snd x)) m -> Forall (fun x => R (snd x)) (madd lt k c m).
  Proof.
    intros P0 P1 F. unfold madd. destruct (rat_is0 c) eqn:Z0; [assumption|].
    destruct (mfind lt k m) as [c0|] eqn:Fd.
    - cbv zeta. destruct (rat_is0 (rat_add c0 c)) eqn:Z1; [now apply Forall_merase|].
      apply Forall_mset; simpl; auto; intros; apply P1; auto; exact (find_forall R _ _ _ F Fd).
    - apply Forall_mset; simpl; auto.
  Qed.

  Lemma mgood_madd k c m : den c <> 0%Z -> mgood m -> mgood (madd lt k c m).
  Proof. intros D G. apply (Forall_madd_snd (fun c => den c <> 0%Z)); auto. intros; now apply rat_add_den. Qed.
  Lemma mcanon_madd k c m : canonical c -> mcanon m -> mcanon (madd lt k c m).
  Proof. intros D G. apply (Forall_madd_snd canonical); auto. intros; now apply rat_add_canonical. Qed.
  Lemma mcanon_good m : mcanon m -> mgood (K:=K) m.
  Proof. apply Forall_impl. auto. Qed.
  Lemma mnz_madd k c m : den c <> 0%Z -> mgood m -> mnz m -> mnz (madd lt k c m).
  Proof.
    intros D G N.
    assert (X : Forall (fun x : K * rational => den (snd x) <> 0%Z /\ ~ Qval (snd x) == 0) (madd lt k c m)).
    { apply (Forall_madd_snd (fun c => den c <> 0%Z /\ ~ Qval c == 0)).
      - intros Z0. split; [assumption|]. now apply rat_is0_val_f.
      - intros c0 [D0 _] Z1. split; [now apply rat_add_den|]. apply rat_is0_val_f; [now apply rat_add_den|assumption].
      - apply Forall_and; assumption. }
    eapply Forall_impl; [|exact X]. intros x [_ ?]; assumption.
  Qed.

  Lemma msorted_mset k c m : msorted lt m -> msorted lt (mset lt k c m).
  Proof.
    unfold msorted. induction 1 as [|[k' c'] m S IH F]; simpl; [repeat constructor|].
    destruct (lt k' k) eqn:E1.
    - constructor; [assumption|]. apply Forall_mset; simpl; auto.
      intros k0 E. apply (swo_lt_eq _ _ H k' k k0 E1). now apply (swo_eqsym _ _ H).
    - destruct (lt k k') eqn:E2.
      + constructor; [constructor; assumption|]. constructor; [assumption|].
        eapply Forall_impl; [|exact F]. intros [k0 c0]; simpl. intros L. eapply (swo_trans _ _ H); eauto.
      + constructor; assumption.
  Qed.
  Lemma msorted_merase k m : msorted lt m -> msorted lt (merase lt k m).
  Proof.
    unfold msorted. induction 1 as [|[k' c'] m S IH F]; simpl; [constructor|].
    destruct (lt k' k); [constructor; [assumption|]; now apply Forall_merase|].
    destruct (lt k k'); [constructor; assumption|assumption].
  Qed.
  Lemma msorted_madd k c m : msorted lt m -> msorted lt (madd lt k c m).
  Proof.
    intros S. unfold madd. destruct (rat_is0 c); [assumption|]. destruct (mfind lt k m).
    - cbv zeta. destruct (rat_is0 _); [now apply msorted_merase|now apply msorted_mset].
    - now apply msorted_mset.
  Qed.

  Lemma wf_madd k c m : canonical c -> wf lt m -> wf lt (madd lt k c m).
  Proof.
    intros C (S & G & N). split; [now apply msorted_madd|]. split; [now apply mcanon_madd|].
    apply mnz_madd; auto. now apply mcanon_good.
  Qed.
  Lemma wf_nil : wf lt ([] : emap K).
  Proof. repeat split; constructor. Qed.

  (** Keys of [madd] come from the map or are the new key. *)
  Lemma keysP_madd k c m : P k -> keysP P m -> keysP P (madd lt k c m).
  Proof.
    unfold keysP. intros Pk F.
    assert (S : forall c0 m, Forall (fun x : K * rational => P (fst x)) m -> Forall (fun x => P (fst x)) (mset lt k c0 m)).
    { clear - Pk. intros c0 m. induction 1 as [|[k' c'] m X F IH]; simpl; [repeat constructor; assumption|].
      destruct (lt k' k); [constructor; auto|]. destruct (lt k k'); repeat constructor; auto. }
    unfold madd. destruct (rat_is0 c); [assumption|]. destruct (mfind lt k m); [cbv zeta; destruct (rat_is0 _); [now apply Forall_merase|]|]; auto.
  Qed.

  (** ** Folds of [madd] *)
  Section Fold.
    Context {X : Type} (fk : X -> K) (fc : X -> rational).
    Notation addall := (fold_left (fun r x => madd lt (fk x) (fc x) r)).

    Lemma mgood_addall l m : Forall (fun x => den (fc x) <> 0%Z) l -> mgood m -> mgood (addall l m).
    Proof. intros F. revert m. induction F; simpl; intros; auto using mgood_madd. Qed.
    Lemma wf_addall l m : Forall (fun x => canonical (fc x)) l -> wf lt m -> wf lt (addall l m).
    Proof. intros F. revert m. induction F; simpl; intros; auto using wf_madd. Qed.
    Lemma keysP_addall l m : Forall (fun x => P (fk x)) l -> keysP P m -> keysP P (addall l m).
    Proof. intros F. revert m. induction F; simpl; intros; auto using keysP_madd. Qed.
    Lemma lsum_addall g l m : respects eqb P g -> Forall (fun x => P (fk x)) l -> keysP P m -> Forall (fun x => den (fc x) <> 0%Z) l -> mgood m ->
      lsum g (addall l m) == lsum g m + fold_right (fun x s => Qval (fc x) * g (fk x) + s) 0 l.
    Proof.
      intros R FK KP F. revert m KP FK. induction F as [|x l D F IH]; simpl; intros m KP FK G; [ring|].
      inversion FK; subst. rewrite IH by (try apply mgood_madd; try apply keysP_madd; assumption). rewrite lsum_madd by assumption. ring.
    Qed.
  End Fold.

  Lemma Forall_map_c (R S : rational -> Prop) (m : emap K) : (forall c, R c -> S c) -> Forall (fun x => R (snd x)) m -> Forall (fun x => S (snd x)) m.
  Proof. intros I. apply Forall_impl. auto. Qed.

  Lemma lsum_mplus g a b : respects eqb P g -> keysP P a -> keysP P b -> mgood a -> mgood b -> lsum g (mplus lt a b) == lsum g a + lsum g b.
  Proof. intros R KA KB A B. unfold mplus. rewrite lsum_addall by assumption. reflexivity. Qed.
  Lemma keysP_mplus a b : keysP P a -> keysP P b -> keysP P (mplus lt a b).
  Proof. intros. now apply keysP_addall. Qed.
  Lemma keysP_mminus a b : keysP P a -> keysP P b -> keysP P (mminus lt a b).
  Proof. intros. now apply keysP_addall. Qed.
  Lemma keysP_mneg a : keysP P a -> keysP P (mneg lt a).
  Proof. intros. apply keysP_addall; [assumption|constructor]. Qed.
  Lemma keysP_mscale (a : emap K) c : keysP P a -> keysP P (mscale a c).
  Proof. intros. unfold keysP, mscale. now rewrite Forall_map. Qed.
  Lemma wf_mplus a b : wf lt a -> mcanon b -> wf lt (mplus lt a b).
  Proof. intros. unfold mplus. now apply wf_addall. Qed.

  Lemma sum_neg g (b : emap K) : mgood b -> fold_right (fun x s => Qval (rat_neg (snd x)) * g (fst x) + s) 0 b == - lsum g b.
  Proof. induction 1 as [|x b D F IH]; simpl; [reflexivity|]. rewrite IH, rat_neg_val by assumption. ring. Qed.

  Lemma lsum_mminus g a b : respects eqb P g -> keysP P a -> keysP P b -> mgood a -> mgood b -> lsum g (mminus lt a b) == lsum g a - lsum g b.
  Proof.
    intros R KA KB A B. unfold mminus. rewrite lsum_addall; auto; [rewrite sum_neg by assumption; ring|].
    eapply Forall_impl; [|exact B]. simpl; intros; now apply rat_neg_den.
  Qed.
  Lemma wf_mminus a b : wf lt a -> mcanon b -> wf lt (mminus lt a b).
  Proof. intros A B. unfold mminus. apply wf_addall; auto. eapply Forall_impl; [|exact B]. simpl; intros; now apply rat_neg_canonical. Qed.

  Lemma lsum_mneg g a : respects eqb P g -> keysP P a -> mgood a -> lsum g (mneg lt a) == - lsum g a.
  Proof.
    intros R KA A. unfold mneg. rewrite lsum_addall; auto; [rewrite sum_neg by assumption; simpl; ring|constructor| |constructor].
    eapply Forall_impl; [|exact A]. simpl; intros; now apply rat_neg_den.
  Qed.
  Lemma wf_mneg a : mcanon a -> wf lt (mneg lt a).
  Proof. intros A. unfold mneg. apply wf_addall; [|apply wf_nil]. eapply Forall_impl; [|exact A]. simpl; intros; now apply rat_neg_canonical. Qed.

  Lemma lsum_mscale g (a : emap K) c : mgood a -> den c <> 0%Z -> lsum g (mscale a c) == lsum g a * Qval c.
  Proof.
    intros A D. induction A as [|[k x] a Dx F IH]; simpl in *; [ring|]. fold (mscale a c). rewrite IH, rat_mul_val by assumption. ring.
  Qed.
  Lemma msorted_map f (a : emap K) : msorted lt a -> msorted lt (map (fun x => (fst x, f (snd x))) a).
  Proof.
    unfold msorted. induction 1 as [|x a S IH F]; simpl; constructor; auto.
    rewrite Forall_map. exact F.
  Qed.
  Lemma mcanon_mscale a c : mcanon a -> canonical c -> mcanon (mscale (K:=K) a c).
  Proof. intros A C. unfold mcanon, mscale. rewrite Forall_map; simpl. eapply Forall_impl; [|exact A]. simpl; intros; now apply rat_mul_canonical. Qed.
  Lemma wf_mscale a c : wf lt a -> canonical c -> ~ Qval c == 0 -> wf lt (mscale a c).
  Proof.
    intros (S & A & N) C Z. split; [exact (msorted_map (fun x => rat_mul x c) a S)|]. split; [now apply mcanon_mscale|].
    unfold mnz, mscale. rewrite Forall_map; simpl. rewrite Forall_forall in *. intros x I. simpl.
    rewrite rat_mul_val; auto; [|apply canonical_den; unfold mcanon in A; rewrite Forall_forall in A; now apply A].
    intros E. apply Qmult_integral in E. destruct E as [E|E]; [|contradiction].
    unfold mnz in N. rewrite Forall_forall in N. exact (N x I E).
  Qed.

  (** ** Products *)
  Section Prod.
    Context (mulk : K -> K -> res K).
    Definition mulg (g : K -> Q) (k1 k2 : K) : Q := match mulk k1 k2 with Ok k => g k | _ => 0 end.

    Lemma mprod_inner x b : (forall y k, In y b -> mulk (fst x) (fst y) = Ok k -> P k) -> forall r r', keysP P r -> mgood r -> den (snd x) <> 0%Z -> mgood b ->
      foldM (fun r y => bind (mulk (fst x) (fst y)) (fun k => Ok (madd lt k (rat_mul (snd x) (snd y)) r))) r b = Ok r' ->
      (forall g, respects eqb P g -> lsum g r' == lsum g r + Qval (snd x) * lsum (mulg g (fst x)) b) /\ mgood r' /\ keysP P r'.
    Proof.
      induction b as [|y b IH]; intros CL r r' KP G D B; cbn [foldM].
      - intros [= <-]. split; [|now split]. intros; simpl; ring.
      - destruct (mulk (fst x) (fst y)) as [k| | |] eqn:E; cbn [bind]; try discriminate.
        inversion B as [|? ? Dy B']; subst. intros X.
        assert (Dm : den (rat_mul (snd x) (snd y)) <> 0%Z) by (now apply rat_mul_den).
        assert (Pk : P k) by (apply (CL y k); [now left|assumption]).
        destruct (IH (fun y' k' I => CL y' k' (or_intror I)) _ _ (keysP_madd k _ r Pk KP) (mgood_madd k _ r Dm G) D B' X) as [L Gr]. split; [|assumption].
        intros g R. rewrite (L g R), lsum_madd, rat_mul_val by assumption. simpl. unfold mulg at 2. rewrite E. ring.
    Qed.

    Lemma mprod_outer b : mgood b -> forall a r r', (forall x y k, In x a -> In y b -> mulk (fst x) (fst y) = Ok k -> P k) -> keysP P r -> mgood r -> mgood a ->
      foldM (fun r x => foldM (fun r y =>
        bind (mulk (fst x) (fst y)) (fun k => Ok (madd lt k (rat_mul (snd x) (snd y)) r))) r b) r a = Ok r' ->
      (forall g, respects eqb P g -> lsum g r' == lsum g r + lsum (fun k1 => lsum (mulg g k1) b) a) /\ mgood r' /\ keysP P r'.
    Proof.
      intros B. induction a as [|x a IH]; intros r r' CL KP G A; cbn [foldM].
      - intros [= <-]. split; [|now split]. intros; simpl; ring.
      - intros X. apply bind_Ok in X. destruct X as (r1 & X1 & X2). inversion A as [|? ? Dx A']; subst.
        destruct (mprod_inner x b (fun y k I => CL x y k (or_introl eq_refl) I) r r1 KP G Dx B X1) as (L1 & G1 & K1).
        destruct (IH r1 r' (fun x' y k I => CL x' y k (or_intror I)) K1 G1 A' X2) as [L2 G2].
        split; [|assumption]. intros g R. rewrite (L2 g R), (L1 g R). simpl. ring.
    Qed.

    Lemma lsum_mprod a b r : (forall x y k, In x a -> In y b -> mulk (fst x) (fst y) = Ok k -> P k) ->
      mgood a -> mgood b -> mprod lt mulk a b = Ok r ->
      (forall g, respects eqb P g -> lsum g r == lsum (fun k1 => lsum (mulg g k1) b) a) /\ mgood r /\ keysP P r.
    Proof.
      intros CL A B X. unfold mprod in X.
      apply mprod_outer in X; [|assumption|assumption|constructor|constructor|assumption].
      destruct X as (L & X). split; [|exact X]. intros g R. rewrite (L g R). simpl. ring.
    Qed.

    Lemma mprod_inner_wf x b r r' : canonical (snd x) -> mcanon b -> wf lt r ->
      foldM (fun r y => bind (mulk (fst x) (fst y)) (fun k => Ok (madd lt k (rat_mul (snd x) (snd y)) r))) r b = Ok r' -> wf lt r'.
    Proof.
      intros C B. revert r. induction B as [|y b Cy B IH]; intros r W; cbn [foldM]; [now intros [= <-]|].
      destruct (mulk (fst x) (fst y)); cbn [bind]; try discriminate. apply IH. apply wf_madd; [|assumption]. now apply rat_mul_canonical.
    Qed.
    Lemma wf_mprod a b r : mcanon a -> mcanon b -> mprod lt mulk a b = Ok r -> wf lt r.
    Proof.
      intros A B. unfold mprod. generalize (wf_nil). generalize (@nil (K * rational)). induction A as [|x a Cx A IH]; intros r0 W; cbn [foldM].
      - now intros [= <-].
      - intros X. apply bind_Ok in X. destruct X as (r1 & X1 & X2). apply (IH r1); [|assumption]. eapply mprod_inner_wf; eauto.
    Qed.

    (** The product of sums succeeds exactly when every product of terms does. *)
    Lemma mprod_inner_ok x b : (forall y, In y b -> exists k, mulk (fst x) (fst y) = Ok k) -> forall r, exists r',
      foldM (fun r y => bind (mulk (fst x) (fst y)) (fun k => Ok (madd lt k (rat_mul (snd x) (snd y)) r))) r b = Ok r'.
    Proof.
      induction b as [|y b IH]; intros X r; cbn [foldM]; [eauto|].
      destruct (X y (or_introl eq_refl)) as [k ->]. cbn [bind]. apply IH. intros; apply X; now right.
    Qed.
    Lemma mprod_ok a b : (forall x y, In x a -> In y b -> exists k, mulk (fst x) (fst y) = Ok k) -> exists r, mprod lt mulk a b = Ok r.
    Proof.
      unfold mprod. generalize (@nil (K * rational)). induction a as [|x a IH]; intros r X; cbn [foldM]; [eauto|].
      destruct (mprod_inner_ok x b (fun y I => X x y (or_introl eq_refl) I) r) as [r1 E]. rewrite E. cbn [bind].
      apply IH. intros; apply X; auto. now right.
    Qed.
    Lemma mprod_inner_throw x b : (forall k1 k2, (exists k, mulk k1 k2 = Ok k) \/ mulk k1 k2 = Throw) ->
      (exists y, In y b /\ mulk (fst x) (fst y) = Throw) -> forall r,
      foldM (fun r y => bind (mulk (fst x) (fst y)) (fun k => Ok (madd lt k (rat_mul (snd x) (snd y)) r))) r b = Throw.
    Proof.
      intros T. induction b as [|y b IH]; intros (y0 & I & X) r; [destruct I|]; cbn [foldM].
      destruct (T (fst x) (fst y)) as [[k E]|E]; rewrite E; cbn [bind]; [|reflexivity].
      apply IH. destruct I as [->|I]; [congruence|eauto].
    Qed.
    Lemma mprod_throw a b : (forall k1 k2, (exists k, mulk k1 k2 = Ok k) \/ mulk k1 k2 = Throw) ->
      (exists x y, In x a /\ In y b /\ mulk (fst x) (fst y) = Throw) -> mprod lt mulk a b = Throw.
    Proof.
      intros T. unfold mprod. generalize (@nil (K * rational)). induction a as [|x a IH]; intros r (x0 & y0 & I & J & X); [destruct I|]; cbn [foldM].
      destruct (existsb (fun y => match mulk (fst x) (fst y) with Throw => true | _ => false end) b) eqn:E.
      - apply existsb_exists in E. destruct E as (y & Iy & E). rewrite mprod_inner_throw; [reflexivity|assumption|].
        exists y. split; [assumption|]. destruct (mulk (fst x) (fst y)); congruence || reflexivity.
      - assert (O : forall y, In y b -> exists k, mulk (fst x) (fst y) = Ok k).
        { intros y Iy. destruct (T (fst x) (fst y)) as [|E']; [assumption|]. exfalso.
          assert (existsb (fun y => match mulk (fst x) (fst y) with Throw => true | _ => false end) b = true); [|congruence].
          apply existsb_exists. exists y. split; [assumption|]. now rewrite E'. }
        destruct (mprod_inner_ok x b O r) as [r1 E1]. rewrite E1. cbn [bind]. apply IH.
        destruct I as [->|I]; [|eauto]. destruct (O y0 J) as [k Ek]. congruence.
    Qed.
  End Prod.
End A.
