(** More about linear combinations: uniqueness, dot, programs, ring laws. *)
From Coq Require Import ZArith QArith List Bool Sorted Lia Setoid.
From Verif Require Import Res RationalModel RationalSpec RationalProofs CoreModel OrderProofs AlgebraModel AlgebraSpec AlgebraProofs.
Import ListNotations.
Local Open Scope Q_scope.

Section B.
  Context {K : Type} (lt eqb : K -> K -> bool) (H : swo lt eqb).

  Lemma ind_respects P k : respects eqb P (ind eqb k).
  Proof.
    intros k1 k2 _ _ E. unfold ind. destruct (eqb k1 k) eqn:E1, (eqb k2 k) eqn:E2; try reflexivity; exfalso.
    - rewrite (swo_eqtrans _ _ H k2 k1 k (swo_eqsym _ _ H _ _ E) E1) in E2. discriminate.
    - rewrite (swo_eqtrans _ _ H k1 k2 k E E2) in E1. discriminate.
  Qed.
  Lemma ind_sym k k' : ind eqb k k' = ind eqb k' k.
  Proof.
    unfold ind. destruct (eqb k' k) eqn:E1, (eqb k k') eqn:E2; try reflexivity; exfalso.
    - rewrite (swo_eqsym _ _ H _ _ E1) in E2. discriminate.
    - rewrite (swo_eqsym _ _ H _ _ E2) in E1. discriminate.
  Qed.

  Lemma coef_respects P m : respects eqb P (coef eqb m).
  Proof.
    intros k1 k2 _ _ E. unfold coef. apply lsum_ext. intros k. rewrite (ind_sym k1), (ind_sym k2).
    now apply (ind_respects (fun _ => True)).
  Qed.

  Lemma coef_above k m : Forall (fun x : K * rational => lt k (fst x) = true) m -> coef eqb m k == 0.
  Proof.
    intros F. apply lsum_0. intros x I. unfold ind. rewrite Forall_forall in F. assert (L := F x I).
    destruct (eqb (fst x) k) eqn:E; [|reflexivity]. apply (swo_eq _ _ H) in E. destruct E. congruence.
  Qed.

  Lemma coef_find k m : msorted lt m ->
    match mfind lt k m with Some c => coef eqb m k == Qval c | None => coef eqb m k == 0 end.
  Proof.
    unfold msorted. induction 1 as [|[k' c'] m S IH F]; simpl; [reflexivity|].
    unfold coef in *; simpl. destruct (lt k' k) eqn:E1.
    - assert (E : ind eqb k k' == 0).
      { unfold ind. destruct (eqb k' k) eqn:E; [|reflexivity]. apply (swo_eq _ _ H) in E. destruct E. congruence. }
      destruct (mfind lt k m); rewrite E, IH; ring.
    - destruct (lt k k') eqn:E2.
      + assert (E : ind eqb k k' == 0).
        { unfold ind. destruct (eqb k' k) eqn:E; [|reflexivity]. apply (swo_eq _ _ H) in E. destruct E. congruence. }
        rewrite E. assert (X := coef_above k m). unfold coef in X. rewrite X; [ring|].
        eapply Forall_impl; [|exact F]. simpl. intros x L. exact (swo_trans _ _ H _ _ _ E2 L).
      + assert (Ek : eqb k' k = true) by (apply (swo_eq _ _ H); auto).
        assert (E : ind eqb k k' == 1) by (unfold ind; now rewrite Ek).
        rewrite E. assert (X := coef_above k m). unfold coef in X. rewrite X; [ring|].
        eapply Forall_impl; [|exact F]. simpl. intros x L. exact (swo_eq_lt _ _ H _ _ _ (swo_eqsym _ _ H _ _ Ek) L).
  Qed.

  Lemma coef_head k k' c m : msorted lt ((k', c) :: m) -> eqb k' k = true -> coef eqb ((k', c) :: m) k == Qval c.
  Proof.
    intros S E. assert (X := coef_find k _ S). simpl in X. apply (swo_eq _ _ H) in E. destruct E as [E1 E2].
    rewrite E1, E2 in X. exact X.
  Qed.

  Lemma coef_in k c m : msorted lt m -> In (k, c) m -> coef eqb m k == Qval c.
  Proof.
    unfold msorted. induction 1 as [|[k' c'] m S IH F]; intros I; [destruct I|].
    destruct I as [[= -> ->]|I].
    - apply coef_head; [constructor; assumption|]. apply (swo_eqrefl _ _ H).
    - unfold coef; simpl. fold (coef eqb m k). rewrite (IH I).
      rewrite Forall_forall in F. assert (L := F _ I). simpl in L. unfold ind.
      destruct (eqb k' k) eqn:E; [|ring]. apply (swo_eq _ _ H) in E. destruct E. congruence.
  Qed.

  (** Equality of well-formed sums is equality of all coefficients. *)
  Lemma mequal_coef a b : wf lt a -> wf lt b -> mequal eqb a b = true <-> (forall k, coef eqb a k == coef eqb b k).
  Proof.
    intros (Sa & Ca & Na) (Sb & Cb & Nb). unfold mequal. split.
    - revert b Sb Cb Nb. clear Sa Na. induction a as [|[k1 c1] a IH]; intros [|[k2 c2] b] Sb Cb Nb; simpl; try discriminate; [reflexivity|].
      rewrite !andb_true_iff. intros [[E1 E2] E3] k.
      inversion Sb as [|? ? Sb' Fb]; subst. inversion Ca as [|? ? C1 Ca']; subst. inversion Cb as [|? ? C2 Cb']; subst. inversion Nb as [|? ? N2 Nb']; subst.
      apply (rat_eqb_spec c1 c2) in E2; [|assumption..]. unfold coef; simpl. fold (coef eqb a k) (coef eqb b k).
      rewrite (IH Ca' b Sb' Cb' Nb' E3 k). rewrite E2.
      assert (I : ind eqb k k1 == ind eqb k k2) by (apply (ind_respects (fun _ => True)); auto). rewrite I. reflexivity.
    - revert b Sb Cb Nb. induction Sa as [|[k1 c1] a Sa IH Fa]; intros b Sb Cb Nb E.
      + destruct b as [|[k2 c2] b]; [reflexivity|]. exfalso. inversion Nb as [|? ? N2 Nb']; subst. apply N2. simpl.
        rewrite <- (coef_head k2 k2 c2 b Sb (swo_eqrefl _ _ H k2)). rewrite <- E. reflexivity.
      + inversion Ca as [|? ? C1 Ca']; subst. inversion Na as [|? ? N1 Na']; subst. simpl in N1, C1.
        assert (Sa1 : msorted lt ((k1, c1) :: a)) by (constructor; assumption).
        assert (X1 := coef_head k1 k1 c1 a Sa1 (swo_eqrefl _ _ H k1)).
        destruct b as [|[k2 c2] b].
        * exfalso. apply N1. rewrite <- X1, E. reflexivity.
        * inversion Sb as [|? ? Sb' Fb]; subst. inversion Cb as [|? ? C2 Cb']; subst. inversion Nb as [|? ? N2 Nb']; subst. simpl in N2, C2.
          assert (X2 := coef_head k2 k2 c2 b Sb (swo_eqrefl _ _ H k2)).
          destruct (lt k1 k2) eqn:L1.
          { exfalso. apply N1. rewrite <- X1, E. apply coef_above. constructor; [assumption|].
            eapply Forall_impl; [|exact Fb]. simpl. intros x L. exact (swo_trans _ _ H _ _ _ L1 L). }
          destruct (lt k2 k1) eqn:L2.
          { exfalso. apply N2. rewrite <- X2, <- E. apply coef_above. constructor; [assumption|].
            eapply Forall_impl; [|exact Fa]. simpl. intros x L. exact (swo_trans _ _ H _ _ _ L2 L). }
          assert (Ek : eqb k1 k2 = true) by (apply (swo_eq _ _ H); auto).
          assert (Ec : Qval c1 == Qval c2).
          { rewrite <- X1, <- X2, <- E. now apply (coef_respects (fun _ => True)). }
          simpl. rewrite !andb_true_iff. split; [split; [assumption|now apply rat_eqb_spec]|].
          apply IH; auto. intros k. assert (Ek' := E k). unfold coef in Ek'. simpl in Ek'. fold (coef eqb a k) (coef eqb b k) in Ek'.
          assert (I : ind eqb k k1 == ind eqb k k2) by (apply (ind_respects (fun _ => True)); auto).
          rewrite I, Ec in Ek'. now apply Qplus_inj_l in Ek'.
  Qed.

  Lemma mequal_refl a : wf lt a -> mequal eqb a a = true.
  Proof. intros W. apply mequal_coef; auto. reflexivity. Qed.

  (** ** dot *)
  Lemma mdot_gen b : msorted lt b -> mgood b -> forall a r, mgood a -> den r <> 0%Z ->
    let d := fold_left (fun r x => match mfind lt (fst x) b with
                          | Some c => rat_add r (rat_mul (snd x) c) | None => r end) a r in
    Qval d == Qval r + lsum (coef eqb b) a /\ den d <> 0%Z.
  Proof.
    intros S B. induction a as [|[k c] a IH]; intros r A D; simpl; [split; [ring|assumption]|].
    inversion A as [|? ? Dc A']; subst. simpl in Dc. assert (X := coef_find k b S).
    destruct (mfind lt k b) as [c'|] eqn:Fd.
    - assert (Dc' : den c' <> 0%Z) by exact (find_forall lt eqb H (fun c => den c <> 0%Z) _ _ _ B Fd).
      destruct (IH (rat_add r (rat_mul c c')) A') as [E1 E2].
      { apply rat_add_den; [assumption|]. now apply rat_mul_den. }
      split; [|exact E2]. rewrite E1, rat_add_val, rat_mul_val by auto using rat_mul_den. rewrite X. ring.
    - destruct (IH r A' D) as [E1 E2]. split; [|exact E2]. rewrite E1, X. ring.
  Qed.
  Lemma mdot_val a b : msorted lt b -> mgood a -> mgood b -> Qval (mdot lt a b) == lsum (coef eqb b) a.
  Proof.
    intros S A B. destruct (mdot_gen b S B a (rat_of_Z 0) A) as [E _]; [simpl; lia|].
    unfold mdot. rewrite E, rat_of_Z_val. unfold inject_Z. ring.
  Qed.

  Lemma fubini (h : K -> K -> Q) (a b : list (K * rational)) :
    lsum (fun k1 => lsum (h k1) b) a == lsum (fun k2 => lsum (fun k1 => h k1 k2) a) b.
  Proof.
    induction a as [|x a IH]; simpl.
    - symmetry. apply lsum_0. reflexivity.
    - rewrite IH. induction b as [|y b IHb]; simpl; [ring|]. 
      assert (X : forall b, lsum (fun k2 => Qval (snd x) * h (fst x) k2 + lsum (fun k1 => h k1 k2) a) b
         == Qval (snd x) * lsum (h (fst x)) b + lsum (fun k2 => lsum (fun k1 => h k1 k2) a) b).
      { clear. intros b. induction b as [|z b IH]; simpl; [ring|]. rewrite IH. ring. }
      rewrite X. ring.
  Qed.

  Lemma coef_pair_sym a b : lsum (coef eqb b) a == lsum (coef eqb a) b.
  Proof.
    unfold coef. rewrite fubini. apply lsum_ext. intros k. apply lsum_ext. intros k'. rewrite ind_sym. reflexivity.
  Qed.

  Lemma lsum_self a : msorted lt a -> lsum (coef eqb a) a == fold_right (fun x s => Qval (snd x) * Qval (snd x) + s) 0 a.
  Proof.
    intros S.
    assert (G : forall m, (forall x, In x m -> coef eqb a (fst x) == Qval (snd x)) ->
       lsum (coef eqb a) m == fold_right (fun x s => Qval (snd x) * Qval (snd x) + s) 0 m).
    { clear. induction m as [|x m IH]; intros X; simpl; [reflexivity|]. rewrite IH, X; [reflexivity|now left|intros; apply X; now right]. }
    apply G. intros [k c] I. now apply coef_in.
  Qed.

  Lemma sumsq_nonneg (a : list (K * rational)) : 0 <= fold_right (fun x s => Qval (snd x) * Qval (snd x) + s) 0 a.
  Proof.
    induction a as [|x a IH]; simpl; [apply Qle_refl|].
    assert (0 <= Qval (snd x) * Qval (snd x)) by (destruct (Qval (snd x)) as [p q]; unfold Qle; simpl; nia).
    apply Qle_trans with (0 + 0); [apply Qle_refl|]. now apply Qplus_le_compat.
  Qed.
  Lemma sumsq_pos (a : list (K * rational)) : mnz a -> a <> [] -> 0 < fold_right (fun x s => Qval (snd x) * Qval (snd x) + s) 0 a.
  Proof.
    intros N E. destruct a as [|x a]; [congruence|]. simpl. inversion N as [|? ? N1 N']; subst.
    assert (0 < Qval (snd x) * Qval (snd x)).
    { destruct (Qval (snd x)) as [p q]. unfold Qeq in N1; simpl in N1. unfold Qlt; simpl. nia. }
    assert (X := sumsq_nonneg a). apply Qlt_le_trans with (Qval (snd x) * Qval (snd x) + 0); [rewrite Qplus_0_r; assumption|].
    apply Qplus_le_compat; [apply Qle_refl|assumption].
  Qed.

  (** ** Programs *)
  Section Mul.
    Context (P : K -> Prop) (mulk : K -> K -> res K) (M : mul_ok eqb P mulk).

    Lemma keysP_in (m : emap K) x : keysP P m -> In x m -> P (fst x).
    Proof. unfold keysP. rewrite Forall_forall. auto. Qed.

    Lemma mulg_congr g k1 k2 k1' k2' : respects eqb P g -> P k1 -> P k2 -> P k1' -> P k2' ->
      eqb k1 k1' = true -> eqb k2 k2' = true -> mulg mulk g k1 k2 == mulg mulk g k1' k2'.
    Proof.
      intros R P1 P2 P1' P2' E1 E2. unfold mulg.
      destruct (mul_total _ _ _ M k1 k2 P1 P2) as (x & X & Px). destruct (mul_total _ _ _ M k1' k2' P1' P2') as (y & Y & Py).
      rewrite X, Y. apply R; auto. exact (mul_congr _ _ _ M _ _ _ _ _ _ P1 P2 P1' P2' E1 E2 X Y).
    Qed.

    Lemma mprod_total a b : keysP P a -> keysP P b -> exists r, mprod lt mulk a b = Ok r.
    Proof.
      intros A B. apply mprod_ok. intros x y I J.
      destruct (mul_total _ _ _ M (fst x) (fst y)) as (k & E & _); eauto using keysP_in.
    Qed.
    Lemma mprod_closed a b : keysP P a -> keysP P b ->
      forall x y k, In x a -> In y b -> mulk (fst x) (fst y) = Ok k -> P k.
    Proof.
      intros A B x y k I J E. destruct (mul_total _ _ _ M (fst x) (fst y)) as (k' & E' & P'); eauto using keysP_in. congruence.
    Qed.
    Lemma mprod_spec a b : wf lt a -> wf lt b -> keysP P a -> keysP P b -> exists r, mprod lt mulk a b = Ok r /\ wf lt r /\ keysP P r /\
      forall g, respects eqb P g -> lsum g r == lsum (fun k1 => lsum (mulg mulk g k1) b) a.
    Proof.
      intros (_ & Ca & _) (_ & Cb & _) A B. destruct (mprod_total a b A B) as [r E]. exists r. split; [assumption|].
      split; [exact (wf_mprod lt eqb H mulk a b r Ca Cb E)|].
      destruct (lsum_mprod lt eqb H P mulk a b r (mprod_closed a b A B) (mcanon_good a Ca) (mcanon_good b Cb) E) as (L & _ & KP).
      auto.
    Qed.

    Theorem peval_ok p : pok p -> pkeys P p ->
      exists e, peval lt mulk p = Ok e /\ wf lt e /\ keysP P e /\ forall g, respects eqb P g -> lsum g e == pmean mulk g p.
    Proof.
      induction p as [|p IHp k c|p IHp q IHq|p IHp q IHq|p IHp|p IHp c|p IHp q IHq]; simpl; intros O KP.
      - exists []. split; [reflexivity|]. split; [apply wf_nil|]. split; [constructor|]. reflexivity.
      - destruct O as [O C], KP as [KP Pk]. destruct (IHp O KP) as (e & -> & W & KE & L). simpl. eexists. split; [reflexivity|].
        split; [now apply (wf_madd lt eqb H)|]. split; [now apply keysP_madd|].
        intros g R. rewrite (lsum_madd lt eqb H P), (L g R); auto; [reflexivity|]. apply mcanon_good, W.
      - destruct O as [O O'], KP as [KP KP']. destruct (IHp O KP) as (e & -> & W & KE & L). destruct (IHq O' KP') as (e' & -> & W' & KE' & L').
        simpl. eexists. split; [reflexivity|]. split; [apply (wf_mplus lt eqb H); auto; apply W'|]. split; [now apply keysP_mplus|].
        intros g R. rewrite (lsum_mplus lt eqb H P), (L g R), (L' g R); auto; try (apply mcanon_good; (apply W || apply W')). reflexivity.
      - destruct O as [O O'], KP as [KP KP']. destruct (IHp O KP) as (e & -> & W & KE & L). destruct (IHq O' KP') as (e' & -> & W' & KE' & L').
        simpl. eexists. split; [reflexivity|]. split; [apply (wf_mminus lt eqb H); auto; apply W'|]. split; [now apply keysP_mminus|].
        intros g R. rewrite (lsum_mminus lt eqb H P), (L g R), (L' g R); auto; try (apply mcanon_good; (apply W || apply W')). reflexivity.
      - destruct (IHp O KP) as (e & -> & W & KE & L). simpl. eexists. split; [reflexivity|].
        split; [apply (wf_mneg lt eqb H); apply W|]. split; [now apply keysP_mneg|].
        intros g R. rewrite (lsum_mneg lt eqb H P), (L g R); auto; [reflexivity|]. apply mcanon_good, W.
      - destruct O as (O & C & N). destruct (IHp O KP) as (e & -> & W & KE & L). simpl. eexists. split; [reflexivity|].
        split; [now apply (wf_mscale lt)|]. split; [now apply keysP_mscale|].
        intros g R. rewrite lsum_mscale, (L g R); auto; [reflexivity|]. apply mcanon_good, W.
      - destruct O as [O O'], KP as [KP KP']. destruct (IHp O KP) as (e & -> & W & KE & L). destruct (IHq O' KP') as (e' & -> & W' & KE' & L').
        simpl. destruct (mprod_spec e e' W W' KE KE') as (r & E & Wr & KR & LR). exists r. split; [assumption|]. split; [assumption|]. split; [assumption|].
        intros g R. rewrite (LR g R). fold (mulg mulk g).
        assert (Q1 : forall k1, P k1 -> lsum (mulg mulk g k1) e' == pmean mulk (mulg mulk g k1) q).
        { intros k1 P1. apply L'. intros k2 k2' P2 P2' E2. apply mulg_congr; auto. apply (swo_eqrefl _ _ H). }
        rewrite (lsum_ext_in _ (fun k1 => pmean mulk (mulg mulk g k1) q)).
        2:{ intros x I. apply Q1. eauto using keysP_in. }
        apply L. intros k1 k1' P1 P1' E1. cbv beta; rewrite <- (Q1 k1 P1), <- (Q1 k1' P1'). apply lsum_ext_in. intros y I.
        apply mulg_congr; eauto using keysP_in. apply (swo_eqrefl _ _ H).
    Qed.

    (** ** Laws of the product *)
    Lemma mprod_plus_l a b c : wf lt a -> wf lt b -> wf lt c -> keysP P a -> keysP P b -> keysP P c ->
      exists r ac bc, mprod lt mulk (mplus lt a b) c = Ok r /\ mprod lt mulk a c = Ok ac /\ mprod lt mulk b c = Ok bc /\
        mequal eqb r (mplus lt ac bc) = true.
    Proof.
      intros Wa Wb Wc Ka Kb Kc.
      assert (Wab : wf lt (mplus lt a b)) by (apply (wf_mplus lt eqb H); auto; apply Wb).
      destruct (mprod_spec _ c Wab Wc (keysP_mplus lt P a b Ka Kb) Kc) as (r & E & Wr & Kr & L).
      destruct (mprod_spec a c Wa Wc Ka Kc) as (ac & E1 & W1 & K1 & L1).
      destruct (mprod_spec b c Wb Wc Kb Kc) as (bc & E2 & W2 & K2 & L2).
      exists r, ac, bc. repeat (split; [assumption|]).
      apply mequal_coef; auto. { apply (wf_mplus lt eqb H); auto; apply W2. }
      intros k. unfold coef. assert (R := ind_respects P k).
      assert (Ga := mcanon_good a (proj1 (proj2 Wa))). assert (Gb := mcanon_good b (proj1 (proj2 Wb))).
      assert (G1 := mcanon_good ac (proj1 (proj2 W1))). assert (G2 := mcanon_good bc (proj1 (proj2 W2))).
      rewrite (L _ R), (lsum_mplus lt eqb H P _ ac bc R K1 K2 G1 G2), (L1 _ R), (L2 _ R).
      apply (lsum_mplus lt eqb H P); auto.
      intros k1 k1' P1 P1' E'. apply lsum_ext_in. intros y I. apply mulg_congr; eauto using keysP_in. apply (swo_eqrefl _ _ H).
    Qed.

    Lemma mprod_plus_r a b c : wf lt a -> wf lt b -> wf lt c -> keysP P a -> keysP P b -> keysP P c ->
      exists r ca cb, mprod lt mulk c (mplus lt a b) = Ok r /\ mprod lt mulk c a = Ok ca /\ mprod lt mulk c b = Ok cb /\
        mequal eqb r (mplus lt ca cb) = true.
    Proof.
      intros Wa Wb Wc Ka Kb Kc.
      assert (Wab : wf lt (mplus lt a b)) by (apply (wf_mplus lt eqb H); auto; apply Wb).
      destruct (mprod_spec c _ Wc Wab Kc (keysP_mplus lt P a b Ka Kb)) as (r & E & Wr & Kr & L).
      destruct (mprod_spec c a Wc Wa Kc Ka) as (ac & E1 & W1 & K1 & L1).
      destruct (mprod_spec c b Wc Wb Kc Kb) as (bc & E2 & W2 & K2 & L2).
      exists r, ac, bc. repeat (split; [assumption|]).
      apply mequal_coef; auto. { apply (wf_mplus lt eqb H); auto; apply W2. }
      intros k. unfold coef. assert (R := ind_respects P k).
      assert (Ga := mcanon_good a (proj1 (proj2 Wa))). assert (Gb := mcanon_good b (proj1 (proj2 Wb))).
      assert (G1 := mcanon_good ac (proj1 (proj2 W1))). assert (G2 := mcanon_good bc (proj1 (proj2 W2))).
      rewrite (L _ R), (lsum_mplus lt eqb H P _ ac bc R K1 K2 G1 G2), (L1 _ R), (L2 _ R).
      rewrite <- (Qmult_1_l (lsum (fun k1 => lsum (mulg mulk (ind eqb k) k1) a) c)), <- (Qmult_1_l (lsum (fun k1 => lsum (mulg mulk (ind eqb k) k1) b) c)).
      rewrite <- lsum_lin2. apply lsum_ext_in. intros x I. rewrite !Qmult_1_l.
      apply (lsum_mplus lt eqb H P); auto.
      intros k1 k1' P1 P1' E'. apply mulg_congr; eauto using keysP_in. apply (swo_eqrefl _ _ H).
    Qed.

    Lemma mprod_assoc a b c : wf lt a -> wf lt b -> wf lt c -> keysP P a -> keysP P b -> keysP P c ->
      exists ab bc l r, mprod lt mulk a b = Ok ab /\ mprod lt mulk ab c = Ok l /\ mprod lt mulk b c = Ok bc /\ mprod lt mulk a bc = Ok r /\
        mequal eqb l r = true.
    Proof.
      intros Wa Wb Wc Ka Kb Kc.
      destruct (mprod_spec a b Wa Wb Ka Kb) as (ab & E1 & W1 & K1 & L1).
      destruct (mprod_spec ab c W1 Wc K1 Kc) as (l & E2 & W2 & K2 & L2).
      destruct (mprod_spec b c Wb Wc Kb Kc) as (bc & E3 & W3 & K3 & L3).
      destruct (mprod_spec a bc Wa W3 Ka K3) as (r & E4 & W4 & K4 & L4).
      exists ab, bc, l, r. repeat (split; [assumption|]).
      apply mequal_coef; auto. intros k. unfold coef. assert (R := ind_respects P k).
      rewrite (L2 _ R), (L4 _ R). rewrite L1.
      2:{ intros k1 k1' P1 P1' E'. apply lsum_ext_in. intros y I. apply mulg_congr; eauto using keysP_in. apply (swo_eqrefl _ _ H). }
      apply lsum_ext_in. intros x I. rewrite L3.
      2:{ intros k1 k1' P1 P1' E'. apply mulg_congr; eauto using keysP_in. apply (swo_eqrefl _ _ H). }
      apply lsum_ext_in. intros y J. unfold mulg at 1.
      destruct (mul_total _ _ _ M (fst x) (fst y)) as (xy & Exy & Pxy); eauto using keysP_in. rewrite Exy.
      apply lsum_ext_in. intros z Z. unfold mulg.
      destruct (mul_total _ _ _ M (fst y) (fst z)) as (yz & Eyz & Pyz); eauto using keysP_in. rewrite Eyz.
      destruct (mul_total _ _ _ M xy (fst z)) as (u & Eu & Pu); eauto using keysP_in.
      destruct (mul_total _ _ _ M (fst x) yz) as (v & Ev & Pv); eauto using keysP_in. rewrite Eu, Ev.
      apply R; auto. eapply (mul_assoc _ _ _ M (fst x) (fst y) (fst z)); eauto using keysP_in.
    Qed.
  End Mul.
End B.

(** ** Instances *)
Lemma list_eqb_app {A} (eqb : A -> A -> bool) l1 l2 l1' l2' :
  list_eqb eqb l1 l1' = true -> list_eqb eqb l2 l2' = true -> list_eqb eqb (l1 ++ l2) (l1' ++ l2') = true.
Proof.
  revert l1'. induction l1 as [|a l1 IH]; intros [|b l1']; simpl; try congruence. rewrite !andb_true_iff. intros [? ?] ?. auto.
Qed.

Lemma oprod_mul_ok : mul_ok oprod_eqb (fun _ => True) oprod_mul.
Proof.
  split; unfold oprod_mul.
  - eauto.
  - intros a b a' b' k k' _ _ _ _ E1 E2 [= <-] [= <-]. now apply list_eqb_app.
  - intros a b c ab bc x y _ _ _ [= <-] [= <-] [= <-] [= <-]. rewrite app_assoc. apply (swo_eqrefl _ _ swo_oprod).
Qed.

Lemma term_mul_ok : mul_ok term_eqb plain term_mul.
Proof.
  split; unfold term_mul, plain.
  - intros a b -> ->. simpl. eauto.
  - intros a b a' b' k k' -> -> -> -> E1 E2 [= <-] [= <-]. unfold term_eqb in *; simpl.
    rewrite andb_true_iff in *. destruct E1, E2. split; now apply list_eqb_app.
  - intros a b c ab bc x y A B C. rewrite A, B, C. simpl. intros [= <-]. simpl. intros [= <-] [= <-]. simpl. intros [= <-].
    rewrite !app_assoc. apply (swo_eqrefl _ _ swo_term).
Qed.

(** ** Statements used in the Props files *)
Section C.
  Context {K : Type} (lt eqb : K -> K -> bool) (H : swo lt eqb).

  Definition build (h : list (K * rational)) : emap K := fold_left (fun e x => madd lt (fst x) (snd x) e) h [].

  Lemma keysP_True (m : emap K) : keysP (fun _ => True) m.
  Proof. apply Forall_forall. auto. Qed.

  Lemma build_wf h : Forall (fun x : K * rational => canonical (snd x)) h -> wf lt (build h).
  Proof. intros F. apply (wf_addall lt eqb H); [assumption|apply wf_nil]. Qed.

  Lemma build_coef h k : Forall (fun x : K * rational => canonical (snd x)) h -> coef eqb (build h) k == coef eqb h k.
  Proof.
    intros F. unfold build, coef. rewrite (lsum_addall lt eqb H (fun _ => True)).
    - simpl. unfold lsum. ring.
    - now apply (ind_respects lt eqb H).
    - apply Forall_forall. auto.
    - constructor.
    - eapply Forall_impl; [|exact F]. simpl. auto.
    - constructor.
  Qed.

  Lemma wf_distinct e : wf lt e -> forall e1 x e2 y e3, e = e1 ++ x :: e2 ++ y :: e3 -> eqb (fst x) (fst y) = false.
  Proof.
    intros (S & _ & _) e1 x e2 y e3 ->. unfold msorted in S. 
    destruct (eqb (fst x) (fst y)) eqn:E; [|reflexivity]. exfalso.
    induction e1 as [|z e1 IH]; simpl in S; inversion S as [|? ? S' F]; subst; [|auto].
    rewrite Forall_forall in F. assert (L : lt (fst x) (fst y) = true) by (apply F, in_or_app; right; now left).
    apply (swo_eq _ _ H) in E. destruct E. congruence.
  Qed.

  Lemma build_sum h : Forall (fun x : K * rational => canonical (snd x)) h ->
    (forall k, coef eqb (build h) k == coef eqb h k) /\
    (forall e1 x e2 y e3, build h = e1 ++ x :: e2 ++ y :: e3 -> eqb (fst x) (fst y) = false) /\
    (forall x, In x (build h) -> ~ Qval (snd x) == 0) /\
    (forall k, mcontains lt k (build h) = true <-> ~ coef eqb h k == 0).
  Proof.
    intros F. assert (W := build_wf h F). split; [intros; now apply build_coef|]. split; [now apply wf_distinct|].
    destruct W as (S & C & N). split.
    - intros x I. unfold mnz in N. rewrite Forall_forall in N. now apply N.
    - intros k. rewrite <- (build_coef h k F). unfold mcontains.
      assert (X := coef_find lt eqb H k (build h) S). destruct (mfind lt k (build h)) as [c|] eqn:E.
      + split; [|reflexivity]. intros _. rewrite X. 
        exact (find_forall lt eqb H (fun c => ~ Qval c == 0) _ _ _ N E).
      + split; [discriminate|]. intros Y. contradiction.
  Qed.

  Lemma build_equal h1 h2 : Forall (fun x : K * rational => canonical (snd x)) h1 -> Forall (fun x : K * rational => canonical (snd x)) h2 ->
    mequal eqb (build h1) (build h2) = true <-> (forall k, coef eqb h1 k == coef eqb h2 k).
  Proof.
    intros F1 F2. rewrite (mequal_coef lt eqb H) by now apply build_wf.
    split; intros E k; specialize (E k); rewrite !build_coef in * by assumption; assumption.
  Qed.

  Lemma scale_exact e c k : wf lt e -> canonical c -> ~ Qval c == 0 ->
    wf lt (mscale e c) /\ coef eqb (mscale e c) k == coef eqb e k * Qval c.
  Proof.
    intros W C N. split; [now apply wf_mscale|]. apply lsum_mscale; auto. apply mcanon_good, W.
  Qed.
  Lemma scale_zero e : wf lt e -> length (mscale e (rat_of_Z 0)) = length e /\
    (forall x, In x (mscale e (rat_of_Z 0)) -> Qval (snd x) == 0) /\
    (mequal eqb (mscale e (rat_of_Z 0)) [] = true <-> e = []).
  Proof.
    intros (S & C & N). split; [apply map_length|]. split.
    - intros x I. apply in_map_iff in I. destruct I as (y & <- & I). simpl. unfold mcanon in C. rewrite Forall_forall in C.
      rewrite rat_mul_val; [|now apply canonical_den, C|simpl; lia]. rewrite rat_of_Z_val. unfold inject_Z. ring.
    - unfold mequal. destruct e; simpl; split; congruence || reflexivity.
  Qed.

  Lemma div_spec e c : wf lt e -> canonical c ->
    (Qval c == 0 -> mdiv e c = Throw) /\
    (~ Qval c == 0 -> exists e', mdiv e c = Ok e' /\ (forall k, coef eqb e' k == coef eqb e k / Qval c) /\ (0 < Qval c -> wf lt e')).
  Proof.
    intros (S & C & N) Cc. assert (Dc := canonical_den c Cc). unfold mdiv. split.
    - intros Z. apply Qval0_num in Z; [|assumption]. unfold rat_eqb, rat_make; simpl. rewrite Z. reflexivity.
    - intros Z. assert (Nc : num c <> 0%Z) by (rewrite <- Qval0_num; assumption).
      assert (E : rat_eqb c (rat_make 0 1) = false).
      { unfold rat_eqb, rat_make; simpl. destruct (Z.eqb_spec (num c) 0); [contradiction|reflexivity]. }
      rewrite E. eexists. split; [reflexivity|]. split.
      + intros k. unfold coef. clear S N E. induction C as [|[k' c'] e C1 C IH]; [simpl; field; assumption|].
        simpl in *. rewrite IH, rat_div_val by (auto; apply canonical_den; assumption). field. assumption.
      + intros Pc. apply Qval_pos_num in Pc; [|apply Cc]. split; [exact (msorted_map lt (fun x => rat_div x c) e S)|]. split.
        * unfold mcanon. rewrite Forall_map; simpl. eapply Forall_impl; [|exact C]. simpl. intros. now apply rat_div_canonical.
        * unfold mnz. rewrite Forall_map; simpl. rewrite Forall_forall. intros x I.
          unfold mcanon in C. rewrite Forall_forall in C. unfold mnz in N. rewrite Forall_forall in N.
          rewrite rat_div_val by (auto; apply canonical_den; now apply C). intros X. apply (N x I).
          rewrite <- (Qmult_div_r (Qval (snd x)) (Qval c) Z), X. ring.
  Qed.

  Lemma dot_spec a b : wf lt a -> wf lt b ->
    Qval (mdot lt a b) == lsum (coef eqb b) a /\ Qval (mdot lt a b) == Qval (mdot lt b a).
  Proof.
    intros (Sa & Ca & Na) (Sb & Cb & Nb). assert (E := mdot_val lt eqb H a b Sb (mcanon_good a Ca) (mcanon_good b Cb)).
    split; [exact E|]. rewrite E, (mdot_val lt eqb H b a Sa (mcanon_good b Cb) (mcanon_good a Ca)). now apply (coef_pair_sym lt eqb H).
  Qed.
  Lemma dot_linear a b c s : wf lt a -> wf lt b -> wf lt c -> canonical s ->
    Qval (mdot lt (mplus lt a b) c) == Qval (mdot lt a c) + Qval (mdot lt b c) /\
    Qval (mdot lt (mminus lt a b) c) == Qval (mdot lt a c) - Qval (mdot lt b c) /\
    Qval (mdot lt (mneg lt a) c) == - Qval (mdot lt a c) /\
    Qval (mdot lt (mscale a s) c) == Qval (mdot lt a c) * Qval s.
  Proof.
    intros Wa Wb (Sc & Cc & Nc) Cs. assert (Ga := mcanon_good a (proj1 (proj2 Wa))). assert (Gb := mcanon_good b (proj1 (proj2 Wb))).
    assert (Gc := mcanon_good c Cc). assert (R := coef_respects lt eqb H (fun _ => True) c).
    assert (Wp : wf lt (mplus lt a b)) by (apply (wf_mplus lt eqb H); [assumption|apply Wb]).
    assert (Wm : wf lt (mminus lt a b)) by (apply (wf_mminus lt eqb H); [assumption|apply Wb]).
    assert (Wn : wf lt (mneg lt a)) by (apply (wf_mneg lt eqb H); apply Wa).
    repeat split; rewrite !(mdot_val lt eqb H); auto; try (apply mcanon_good; (apply Wp || apply Wm || apply Wn)).
    - apply (lsum_mplus lt eqb H (fun _ => True)); auto using keysP_True.
    - apply (lsum_mminus lt eqb H (fun _ => True)); auto using keysP_True.
    - apply (lsum_mneg lt eqb H (fun _ => True)); auto using keysP_True.
    - apply lsum_mscale; auto.
    - apply mcanon_good, mcanon_mscale; [apply Wa|assumption].
  Qed.
  Lemma dot_pos a : wf lt a -> a <> [] -> 0 < Qval (mdot lt a a).
  Proof.
    intros (S & C & N) E. rewrite (mdot_val lt eqb H) by auto using mcanon_good.
    rewrite (lsum_self lt eqb H) by assumption. now apply sumsq_pos.
  Qed.

  Lemma mprod_coef P mulk a b : mul_ok eqb P mulk -> wf lt a -> wf lt b -> keysP P a -> keysP P b ->
    exists r, mprod lt mulk a b = Ok r /\ wf lt r /\
      forall k, coef eqb r k == lsum (fun k1 => lsum (fun k2 => match mulk k1 k2 with Ok k' => ind eqb k k' | _ => 0 end) b) a.
  Proof.
    intros M Wa Wb Ka Kb. destruct (mprod_spec lt eqb H P mulk M a b Wa Wb Ka Kb) as (r & E & W & _ & L).
    exists r. split; [assumption|]. split; [assumption|]. intros k. apply L. now apply (ind_respects lt eqb H).
  Qed.
End C.

Lemma term_mul_dich a b : (exists k, term_mul a b = Ok k) \/ term_mul a b = Throw.
Proof. unfold term_mul. destruct (_ || _); eauto. Qed.

Lemma expr_prod_throws (a b : expression) :
  mprod term_ltb term_mul a b = Throw <-> exists x y, In x a /\ In y b /\ (tm_no (fst x) = true \/ tm_no (fst y) = true).
Proof.
  split.
  - intros X. destruct (existsb (fun x => existsb (fun y => tm_no (fst x) || tm_no (fst y)) b) a) eqn:E.
    + apply existsb_exists in E. destruct E as (x & I & E). apply existsb_exists in E. destruct E as (y & J & E).
      apply orb_true_iff in E. eauto 6.
    + exfalso. destruct (mprod_ok term_ltb term_mul a b) as [r R]; [|congruence].
      intros x y I J. destruct (tm_no (fst x) || tm_no (fst y)) eqn:F; [|unfold term_mul; rewrite F; eauto].
      assert (existsb (fun x => existsb (fun y => tm_no (fst x) || tm_no (fst y)) b) a = true); [|congruence].
      apply existsb_exists. exists x. split; [assumption|]. apply existsb_exists. eauto.
  - intros (x & y & I & J & E). apply mprod_throw; [apply term_mul_dich|]. exists x, y. repeat split; auto.
    unfold term_mul. apply orb_true_iff in E. now rewrite E.
Qed.

(** [==] of terms: same operators, and tensors with the same labels and indices. *)
Definition tkey (t : tensor) : RegistryModel.text * list index * list index := (t_label t, t_lower t, t_upper t).

Lemma tensor_eqb_key a b : tensor_eqb a b = true <-> tkey a = tkey b.
Proof.
  unfold tensor_eqb, tkey. rewrite !andb_true_iff, RegistryProofs.text_eqb_ok, !(list_eqb_eq index_eqb index_eqb_eq).
  split; [intros [[-> ->] ->]; reflexivity|intros [= -> -> ->]; auto].
Qed.
Lemma term_eqb_key a b : term_eqb a b = true <-> tm_ops a = tm_ops b /\ map tkey (tm_tens a) = map tkey (tm_tens b).
Proof.
  unfold term_eqb. rewrite andb_true_iff, (list_eqb_eq sqop_eqb sqop_eqb_eq).
  assert (X : forall l l', list_eqb tensor_eqb l l' = true <-> map tkey l = map tkey l').
  { induction l as [|x l IH]; intros [|y l']; simpl; try (split; congruence).
    rewrite andb_true_iff, tensor_eqb_key, IH. split; [intros [E1 E2]; now rewrite E1, E2|]. intros E. injection E as E1 E2 E3 E4. unfold tkey. rewrite E1, E2, E3. auto. }
  rewrite X. tauto.
Qed.
Lemma flag_merge t t' c : tm_ops t = tm_ops t' -> map tkey (tm_tens t) = map tkey (tm_tens t') -> canonical c -> ~ Qval c == 0 ->
  build term_ltb [(t, c); (t', c)] = [(t, rat_add c c)] /\ build term_ltb [(t, c); (t', rat_neg c)] = [].
Proof.
  intros E1 E2 C N. assert (E : term_eqb t t' = true) by (apply term_eqb_key; auto).
  apply (swo_eq _ _ swo_term) in E. destruct E as [L1 L2].
  assert (D := canonical_den c C). assert (Z0 : rat_is0 c = false) by now apply rat_is0_val_f.
  assert (Zn : rat_is0 (rat_neg c) = false).
  { apply rat_is0_val_f; [now apply rat_neg_den|]. rewrite rat_neg_val by assumption. intros X. apply N. rewrite <- (Qopp_involutive (Qval c)), X. reflexivity. }
  assert (Z2 : rat_is0 (rat_add c c) = false).
  { apply rat_is0_val_f; [now apply rat_add_den|]. rewrite rat_add_val by assumption. intros X. apply N.
    rewrite <- (Qmult_1_l (Qval c)). setoid_replace 1 with ((1#2) * 2) by reflexivity. rewrite <- Qmult_assoc.
    setoid_replace (2 * Qval c) with (Qval c + Qval c) by ring. rewrite X. ring. }
  assert (Z3 : rat_is0 (rat_add c (rat_neg c)) = true).
  { apply rat_is0_val; [now apply rat_add_den; try apply rat_neg_den|]. rewrite rat_add_val, rat_neg_val by (auto; now apply rat_neg_den). ring. }
  unfold build, madd; cbn [fold_left fst snd mfind mset]. rewrite Z0, Zn. cbn [mfind mset merase]. rewrite L1, L2, Z2, Z3. auto.
Qed.

Lemma opexpr_programs (p : eprog oprod) : pok p ->
  exists e, peval oprod_ltb oprod_mul p = Ok e /\ wf oprod_ltb e /\ forall g, lsum g e == pmean oprod_mul g p.
Proof.
  intros O. assert (KP : pkeys (fun _ => True) p) by (clear; induction p; simpl; auto).
  destruct (peval_ok oprod_ltb oprod_eqb swo_oprod _ oprod_mul oprod_mul_ok p O KP) as (e & E & W & _ & L).
  exists e. split; [assumption|]. split; [assumption|]. intros g. apply L. intros k k' _ _ X. apply oprod_eqb_eq in X. now subst.
Qed.

Lemma expr_mprod_coef (a b : expression) : wf term_ltb a -> wf term_ltb b -> keysP plain a -> keysP plain b ->
  exists r, mprod term_ltb term_mul a b = Ok r /\ wf term_ltb r /\
    forall k, coef term_eqb r k == lsum (fun k1 => lsum (fun k2 => ind term_eqb k (juxtapose k1 k2)) b) a.
Proof.
  intros Wa Wb Ka Kb.
  destruct (mprod_coef term_ltb term_eqb swo_term plain term_mul a b term_mul_ok Wa Wb Ka Kb) as (r & E & W & L).
  exists r. split; [assumption|]. split; [assumption|]. intros k. rewrite L.
  apply lsum_ext_in. intros x I. apply lsum_ext_in. intros y J.
  unfold keysP in Ka, Kb. rewrite Forall_forall in Ka, Kb. unfold term_mul.
  assert (A := Ka _ I). assert (B := Kb _ J). unfold plain in A, B. rewrite A, B. reflexivity.
Qed.
Lemma opexpr_mprod_coef (a b : opexpr) : wf oprod_ltb a -> wf oprod_ltb b ->
  exists r, mprod oprod_ltb oprod_mul a b = Ok r /\ wf oprod_ltb r /\
    forall k, coef oprod_eqb r k == lsum (fun k1 => lsum (fun k2 => ind oprod_eqb k (k1 ++ k2)) b) a.
Proof.
  intros Wa Wb.
  apply (mprod_coef oprod_ltb oprod_eqb swo_oprod (fun _ => True) oprod_mul a b oprod_mul_ok Wa Wb);
  apply Forall_forall; auto.
Qed.
