(** Counting realizations of a multiset of patterns. *)
From Coq Require Import List Arith Lia Permutation Bool.
From Verif Require Import CombinatoricsProofs NextPermProofs WickElemProofs CountSpec.
Import ListNotations.

Section Subseq.
  Context {A : Type}.
  Lemma subseq_in (b l : list A) x : subseq b l -> In x b -> In x l.
  Proof. induction 1; simpl; intuition. Qed.
  Lemma subseq_nodup (b l : list A) : subseq b l -> NoDup l -> NoDup b.
  Proof. induction 1; intros N; auto; inversion N; subst; auto. constructor; auto. intros I. eapply subseq_in in I; eauto. Qed.
  Lemma subseq_refl (l : list A) : subseq l l.
  Proof. induction l; [apply sub_nil|apply sub_take]; auto. Qed.
  Lemma subseq_nil (l : list A) : subseq [] l.
  Proof. induction l; [apply sub_nil|apply sub_skip]; auto. Qed.
  Lemma subseq_trans (c b l : list A) : subseq b l -> subseq c b -> subseq c l.
  Proof. intros H. revert c. induction H; intros c Hc; auto; [apply sub_skip; auto|]. inversion Hc; subst; [apply sub_skip|apply sub_take]; auto. Qed.
  Lemma subseq_filter f (l : list A) : subseq (filter f l) l.
  Proof. induction l; simpl; [constructor|]. destruct (f a); [apply sub_take|apply sub_skip]; auto. Qed.
  Lemma subseq_filter_of f (b l : list A) : subseq b l -> (forall x, In x b -> f x = true) -> subseq b (filter f l).
  Proof.
    induction 1; simpl; intros F; [constructor| |].
    - destruct (f x); [apply sub_skip|]; auto.
    - rewrite (F x) by (left; reflexivity). apply sub_take. auto.
  Qed.
  Lemma subseq_length (b l : list A) : subseq b l -> length b <= length l.
  Proof. induction 1; simpl; lia. Qed.
  Lemma subseq_unique (b c l : list A) : NoDup l -> subseq b l -> subseq c l -> (forall x, In x b <-> In x c) -> b = c.
  Proof.
    intros N H. revert c. induction H as [|x b l H IH|x b l H IH]; intros c Hc E.
    - inversion Hc; auto.
    - inversion N; subst. inversion Hc; subst; [auto|]. exfalso. assert (In x b) by (apply E; left; auto). eapply subseq_in in H0; eauto.
    - inversion N; subst. inversion Hc; subst.
      + exfalso. assert (In x c) by (apply E; left; auto). eapply subseq_in in H0; eauto.
      + f_equal. apply IH; auto. intros y. specialize (E y). simpl in E.
        assert (x = y -> ~ In y b) by (intros -> I; eapply subseq_in in I; eauto).
        assert (x = y -> ~ In y b0) by (intros -> I; eapply subseq_in in I; eauto). tauto.
  Qed.
  Fixpoint subl (l : list A) : list (list A) := match l with [] => [[]] | x :: l' => map (cons x) (subl l') ++ subl l' end.
  Lemma in_subl l : forall b, In b (subl l) <-> subseq b l.
  Proof.
    induction l as [|x l IH]; simpl; intros b; [split; [intros [<- | []]; constructor|intros H; inversion H; auto]|].
    rewrite in_app_iff, in_map_iff. split.
    - intros [(c & <- & H)|H]; [apply sub_take|apply sub_skip]; apply IH; auto.
    - intros H. inversion H; subst; [right; apply IH; auto|left; eexists; split; eauto; apply IH; auto].
  Qed.
  Lemma subl_nodup l : NoDup l -> NoDup (subl l).
  Proof.
    induction 1 as [|x l H N IH]; simpl; [repeat constructor; auto|]. apply nodup_app; auto.
    - apply FinFun.Injective_map_NoDup; auto. intros a b E. injection E; auto.
    - intros b Hb Hc. apply in_map_iff in Hb. destruct Hb as (c & <- & _). apply in_subl in Hc. apply H. eapply subseq_in; eauto. left; auto.
  Qed.
End Subseq.

Section Count.
  Context {L K C : Type} (kdec : forall a b : K, {a = b} + {a <> b}) (ldec : forall a b : L, {a = b} + {a <> b})
    (cdec : forall a b : C, {a = b} + {a <> b}) (kf : L -> K) (keys : list K) (NK : NoDup keys) (cn : C -> K -> nat).

  Definition cnt (k : K) (l : list L) : nat := count_occ kdec (map kf l) k.
  Definition fitsK (c : K -> nat) (b : list L) : Prop := forall k, In k keys -> cnt k b = c k.
  Definition fitsKb (c : K -> nat) (b : list L) : bool := forallb (fun k => cnt k b =? c k) keys.
  Lemma fitsKb_ok c b : fitsKb c b = true <-> fitsK c b.
  Proof. unfold fitsKb, fitsK. rewrite forallb_forall. split; intros H k Hk; apply Nat.eqb_eq; apply H; auto. Qed.
  Definition prodk (f : K -> nat) : nat := fold_right (fun k n => f k * n) 1 keys.

  Lemma prod_ext l (f g : K -> nat) : (forall k, In k l -> f k = g k) -> fold_right (fun k n => f k * n) 1 l = fold_right (fun k n => g k * n) 1 l.
  Proof. induction l; simpl; intros H; auto. Qed.
  Lemma prod_split k0 (f g h : K -> nat) : forall l, NoDup l -> In k0 l -> f k0 + g k0 = h k0 ->
    (forall k, k <> k0 -> f k = h k /\ g k = h k) ->
    fold_right (fun k n => f k * n) 1 l + fold_right (fun k n => g k * n) 1 l = fold_right (fun k n => h k * n) 1 l.
  Proof.
    induction l as [|k l IH]; simpl; intros N I E H; [tauto|]. inversion N; subst. destruct I as [-> |I].
    - rewrite <- E, Nat.mul_add_distr_r. f_equal; f_equal; apply prod_ext; intros k Hk; apply H; intros ->; auto.
    - destruct (H k) as (E1 & E2); [intros ->; auto|]. rewrite E1, E2, <- Nat.mul_add_distr_l. f_equal. auto.
  Qed.

  Lemma filter_map_length {X Y} (f : X -> Y) p l : length (filter p (map f l)) = length (filter (fun x => p (f x)) l).
  Proof. induction l; simpl; auto. destruct (p (f a)); simpl; auto. Qed.
  Lemma filter_ext_length {X} (p q : X -> bool) l : (forall x, p x = q x) -> length (filter p l) = length (filter q l).
  Proof. intros H. rewrite (filter_ext _ _ H). auto. Qed.

  Definition sel (c : K -> nat) (F : list L) : list (list L) := filter (fitsKb c) (subl F).
  Lemma cnt_cons k x l : cnt k (x :: l) = (if kdec (kf x) k then 1 else 0) + cnt k l.
  Proof. unfold cnt. simpl. destruct (kdec (kf x) k); auto. Qed.
  Lemma sel_length F : Forall (fun x => In (kf x) keys) F -> forall c, length (sel c F) = prodk (fun k => choose (cnt k F) (c k)).
  Proof.
    unfold sel. induction 1 as [|x F Hx HF IH]; intros c.
    - simpl. assert (E : forall l, (if forallb (fun k => 0 =? c k) l then 1 else 0) = fold_right (fun k n => choose 0 (c k) * n) 1 l).
      { induction l as [|a l IHl]; auto. cbn [forallb fold_right]. rewrite <- IHl. destruct (c a); cbn [Nat.eqb andb choose]; destruct (forallb _ _); auto. }
      unfold prodk. transitivity (if forallb (fun k => 0 =? c k) keys then 1 else 0); [|exact (E keys)]. unfold fitsKb, cnt. simpl. destruct (forallb _ _); auto.
    - simpl. rewrite filter_app, app_length, filter_map_length, IH.
      assert (E : length (filter (fun b => fitsKb c (x :: b)) (subl F)) =
        prodk (fun k => if kdec k (kf x) then match c k with O => 0 | S m => choose (cnt k F) m end else choose (cnt k F) (c k))).
      { destruct (c (kf x)) as [|m] eqn:Ec.
        - rewrite (filter_ext_length _ (fun _ => false)).
          + assert (Z1 : forall (l : list (list L)), length (filter (fun _ => false) l) = 0) by (induction l; auto). rewrite Z1.
            unfold prodk. clear - Hx Ec. induction keys; simpl in *; [tauto|]. destruct Hx as [-> |I].
            * destruct (kdec _ _); [|tauto]. rewrite Ec. auto.
            * rewrite <- IHl by auto. lia.
          + intros b. destruct (fitsKb c (x :: b)) eqn:Ef; auto. apply fitsKb_ok in Ef. specialize (Ef _ Hx). rewrite cnt_cons in Ef.
            destruct (kdec _ _); [|tauto]. lia.
        - rewrite (filter_ext_length _ (fitsKb (fun k => if kdec k (kf x) then m else c k))).
          + rewrite IH. apply prod_ext. intros k _. destruct (kdec k (kf x)) as [-> |]; auto. rewrite Ec. auto.
          + intros b. apply eq_true_iff_eq. rewrite !fitsKb_ok. unfold fitsK. split; intros H k Hk; specialize (H k Hk); rewrite ?cnt_cons in *.
            * destruct (kdec (kf x) k) as [<- |]; destruct (kdec _ _); try tauto; try lia; congruence.
            * destruct (kdec (kf x) k) as [<- |]; destruct (kdec _ _); try tauto; try lia; congruence. }
      rewrite E. unfold prodk. apply (prod_split (kf x)); auto.
      + rewrite cnt_cons. destruct (kdec _ _); [|tauto]. destruct (c (kf x)); simpl; [destruct (cnt _ _); auto|lia].
      + intros k Hk. rewrite cnt_cons. destruct (kdec k (kf x)); [tauto|]. destruct (kdec _ _); [congruence|]. auto.
  Qed.

  Definition diff (F b : list L) : list L := filter (fun x => if in_dec ldec x b then false else true) F.
  Lemma diff_in x F b : In x (diff F b) <-> In x F /\ ~ In x b.
  Proof. unfold diff. rewrite filter_In. destruct (in_dec ldec x b); intuition discriminate. Qed.
  Lemma diff_ext F b b' : (forall x, In x F -> (In x b <-> In x b')) -> diff F b = diff F b'.
  Proof. intros H. apply filter_ext_in. intros x Hx. destruct (in_dec ldec x b), (in_dec ldec x b'); auto; exfalso; firstorder. Qed.
  Lemma cnt_diff F b : subseq b F -> NoDup F -> forall k, cnt k (diff F b) + cnt k b = cnt k F.
  Proof.
    induction 1 as [|x b F H IH|x b F H IH]; intros N k; auto; inversion N; subst; specialize (IH H3 k); rewrite (cnt_cons k x F), <- IH; unfold diff at 1; cbn [filter].
    - destruct (in_dec ldec x b) as [I|I]; [exfalso; eapply subseq_in in I; eauto|]. rewrite cnt_cons. fold (diff F b). lia.
    - fold (diff F (x :: b)). destruct (in_dec ldec x (x :: b)) as [_|I]; [|exfalso; apply I; left; auto]. rewrite (diff_ext F (x :: b) b), cnt_cons; [lia|].
      intros y Hy. simpl. split; auto. intros [E | ?]; auto. subst. contradiction.
  Qed.
  Lemma diff_nodup F b : NoDup F -> NoDup (diff F b).
  Proof. apply NoDup_filter. Qed.

  Definition fits (b : list L) (c : C) : Prop := fitsK (cn c) b.
  Fixpoint reals (cs : list C) (F : list L) : list (list (list L)) :=
    match cs with [] => [[]] | c :: cs' => flat_map (fun b => map (cons b) (reals cs' (diff F b))) (sel (cn c) F) end.
  Lemma sel_in b c F : In b (sel c F) <-> subseq b F /\ fitsK c b.
  Proof. unfold sel. rewrite filter_In, in_subl, fitsKb_ok. tauto. Qed.

  Lemma subseq_diff_of b b' F : subseq b' F -> (forall x, In x b' -> ~ In x b) -> subseq b' (diff F b).
  Proof. intros H D. apply subseq_filter_of; auto. intros x Hx. destruct (in_dec ldec x b); auto. exfalso. eapply D; eauto. Qed.
  Lemma nodup_app_inv {X} (l1 l2 : list X) : NoDup (l1 ++ l2) -> NoDup l1 /\ NoDup l2 /\ forall x, In x l1 -> ~ In x l2.
  Proof.
    induction l1 as [|a l1 IH]; simpl; intros N; [split; [constructor|]; split; auto|]. inversion N; subst. destruct (IH H2) as (A & B & D).
    rewrite in_app_iff in H1. split; [constructor; tauto|]. split; auto. intros x [-> |Hx]; auto.
  Qed.
  Lemma perm_concat {X} (l l' : list (list X)) : Permutation l l' -> Permutation (concat l) (concat l').
  Proof. induction 1; simpl; auto; [apply Permutation_app_head; auto|rewrite !app_assoc; apply Permutation_app_tail, Permutation_app_comm|etransitivity; eauto]. Qed.
  Lemma reals_in cs : forall F bs, NoDup F -> In bs (reals cs F) <-> realizes fits F cs bs.
  Proof.
    induction cs as [|c cs IH]; intros F bs N; simpl.
    - split; [intros [<- | []]; repeat constructor|]. intros (H & _). inversion H; auto.
    - rewrite in_flat_map. split.
      + intros (b & Hb & Hi). apply in_map_iff in Hi. destruct Hi as (bs' & <- & Hi). apply sel_in in Hb. destruct Hb as (S & Fi).
        apply IH in Hi; [|apply diff_nodup; auto]. destruct Hi as (H1 & H2 & H3). split; [|split].
        * constructor; auto.
        * constructor; auto. revert H2. apply Forall_impl. intros b' Hb'. eapply subseq_trans; [apply subseq_filter|exact Hb'].
        * simpl. apply nodup_app; auto; [eapply subseq_nodup; eauto|]. intros x Hx Hy. apply in_concat in Hy. destruct Hy as (b' & Hb' & Hy).
          rewrite Forall_forall in H2. apply H2 in Hb'. eapply subseq_in in Hy; eauto. apply diff_in in Hy. tauto.
      + intros (H1 & H2 & H3). inversion H1 as [|b c' bs' cs' Fb F2]; subst. inversion H2; subst. simpl in H3. apply nodup_app_inv in H3. destruct H3 as (N1 & N2 & D).
        exists b. split; [apply sel_in; split; auto|]. apply in_map. apply IH; [apply diff_nodup; auto|]. split; [auto|split; auto].
        rewrite Forall_forall in *. intros b' Hb'. apply subseq_diff_of; auto. intros x Hx Hxb. apply (D x); auto. apply in_concat. eauto.
  Qed.
  Lemma sel_nodup c F : NoDup F -> NoDup (sel c F).
  Proof. intros N. apply NoDup_filter, subl_nodup, N. Qed.
  Lemma reals_nodup cs : forall F, NoDup F -> NoDup (reals cs F).
  Proof.
    induction cs as [|c cs IH]; simpl; intros F N; [repeat constructor; auto|]. apply nodup_flat_map.
    - apply sel_nodup; auto.
    - intros b _. apply FinFun.Injective_map_NoDup; [intros x y E; injection E; auto|]. apply IH, diff_nodup, N.
    - intros a b x _ _ Ha Hb. apply in_map_iff in Ha, Hb. destruct Ha as (? & <- & _), Hb as (? & E & _). injection E; auto.
  Qed.

  Fixpoint weight (cs : list C) (n : K -> nat) : nat :=
    match cs with [] => 1 | c :: cs' => prodk (fun k => choose (n k) (cn c k)) * weight cs' (fun k => n k - cn c k) end.
  Lemma weight_ext cs : forall n m, (forall k, In k keys -> n k = m k) -> weight cs n = weight cs m.
  Proof. induction cs as [|c cs IH]; simpl; intros n m H; auto. f_equal; [apply prod_ext; intros k Hk; rewrite H; auto|apply IH; intros k Hk; rewrite H; auto]. Qed.
  Lemma flat_map_length_const {X Y} (f : X -> list Y) m l : (forall x, In x l -> length (f x) = m) -> length (flat_map f l) = length l * m.
  Proof. induction l; simpl; intros H; auto. rewrite app_length, H, IHl; auto. Qed.
  Lemma reals_length cs : forall F, NoDup F -> Forall (fun x => In (kf x) keys) F -> length (reals cs F) = weight cs (fun k => cnt k F).
  Proof.
    induction cs as [|c cs IH]; simpl; intros F N HF; auto. rewrite (flat_map_length_const _ (weight cs (fun k => cnt k F - cn c k))).
    - rewrite sel_length; auto.
    - intros b Hb. rewrite map_length. apply sel_in in Hb. destruct Hb as (S & Fi). rewrite IH.
      + apply weight_ext. intros k Hk. rewrite <- (cnt_diff F b S N k), <- (Fi k Hk). lia.
      + apply diff_nodup; auto.
      + rewrite Forall_forall in *. intros x Hx. apply diff_in in Hx. apply HF. tauto.
  Qed.

  (** Arrangements of a realization over a list of patterns. *)
  Definition bdec := list_eq_dec ldec.
  Fixpoint arr (cs : list C) (bs : list (list L)) : list (list (list L)) :=
    match cs with [] => [[]] | c :: cs' => flat_map (fun b => map (cons b) (arr cs' (remove bdec b bs))) (filter (fitsKb (cn c)) bs) end.
  Fixpoint fact_mult (cs : list C) : nat := match cs with [] => 1 | c :: cs' => S (count_occ cdec cs' c) * fact_mult cs' end.

  Lemma remove_perm (b : list L) bs : NoDup bs -> In b bs -> Permutation bs (b :: remove bdec b bs).
  Proof.
    intros N I. apply NoDup_Permutation; auto.
    - constructor; [apply remove_In|]. clear I. induction N; simpl; [constructor|]. destruct (bdec b x); auto. constructor; auto. intros I. apply in_remove in I. tauto.
    - intros x. simpl. split; intros H.
      + destruct (bdec b x); auto. right. apply in_in_remove; auto.
      + destruct H as [<- |H]; auto. apply in_remove in H. tauto.
  Qed.
  Lemma remove_nodup (b : list L) bs : NoDup bs -> NoDup (remove bdec b bs).
  Proof. induction 1; simpl; [constructor|]. destruct (bdec b x); auto. constructor; auto. intros I. apply in_remove in I. tauto. Qed.
  Lemma arr_in cs : forall bs o, NoDup bs -> length bs = length cs -> In o (arr cs bs) <-> Permutation bs o /\ Forall2 fits o cs.
  Proof.
    induction cs as [|c cs IH]; simpl; intros bs o N E.
    - destruct bs; [|discriminate]. split; [intros [<- | []]; repeat constructor|]. intros (P & _). apply Permutation_nil in P. auto.
    - rewrite in_flat_map. split.
      + intros (b & Hb & Ho). apply in_map_iff in Ho. destruct Ho as (o' & <- & Ho). apply filter_In in Hb. destruct Hb as (Ib & Fb). apply fitsKb_ok in Fb.
        pose proof (remove_perm b bs N Ib) as P. apply IH in Ho; [|apply remove_nodup; auto|apply Permutation_length in P; simpl in P; lia].
        destruct Ho as (P' & F2). split; [rewrite P; auto|constructor; auto].
      + intros (P & F2). inversion F2 as [|b c' o' cs' Fb F2']; subst. assert (Ib : In b bs) by (eapply Permutation_in; [apply Permutation_sym, P|left; auto]).
        pose proof (remove_perm b bs N Ib) as P'. exists b. split; [apply filter_In; split; auto; apply fitsKb_ok; auto|].
        apply in_map, IH; [apply remove_nodup; auto|apply Permutation_length in P'; simpl in P'; lia|]. split; auto.
        apply (Permutation_cons_inv (a := b)). rewrite <- P'. auto.
  Qed.
  Lemma arr_nodup cs : forall bs, NoDup bs -> NoDup (arr cs bs).
  Proof.
    induction cs as [|c cs IH]; simpl; intros bs N; [repeat constructor; auto|]. apply nodup_flat_map.
    - apply NoDup_filter; auto.
    - intros b _. apply FinFun.Injective_map_NoDup; [intros x y E; injection E; auto|]. apply IH, remove_nodup, N.
    - intros a b x _ _ Ha Hb. apply in_map_iff in Ha, Hb. destruct Ha as (? & <- & _), Hb as (? & E & _). injection E; auto.
  Qed.

  Definition separated (cs : list C) : Prop := forall c c', In c cs -> In c' cs -> (forall k, In k keys -> cn c k = cn c' k) -> c = c'.
  Definition nonempty_patterns (cs : list C) : Prop := forall c, In c cs -> exists k, In k keys /\ cn c k <> 0.

  Lemma filter_fits_count c cs' bs : Forall2 fits bs cs' -> separated (c :: cs') -> length (filter (fitsKb (cn c)) bs) = count_occ cdec cs' c.
  Proof.
    induction 1 as [|b c' bs cs' Fb F2 IH]; simpl; intros S; auto.
    assert (S' : separated (c :: cs')) by (intros x y Hx Hy; apply S; simpl in *; tauto). specialize (IH S').
    destruct (fitsKb (cn c) b) eqn:Ef, (cdec c' c) as [E|E]; simpl; auto; exfalso.
    - apply E. apply S; simpl; auto. intros k Hk. apply fitsKb_ok in Ef. rewrite <- (Ef k Hk), <- (Fb k Hk). auto.
    - subst c'. apply fitsKb_ok in Fb. congruence.
  Qed.
  Lemma Forall2_remove b c cs' bs : NoDup bs -> Forall2 fits bs cs' -> separated (c :: cs') -> In b bs -> fits b c ->
    exists cs'', Forall2 fits (remove bdec b bs) cs'' /\ Permutation cs' (c :: cs'').
  Proof.
    intros N H. revert N. induction H as [|b' c' bs cs' Fb F2 IH]; simpl; intros N S I Fi; [tauto|]. inversion N; subst.
    assert (S' : separated (c :: cs')) by (intros x y Hx Hy; apply S; simpl in *; tauto). destruct (bdec b b') as [<- |Ne].
    - rewrite notin_remove by auto. exists cs'. split; auto. replace c' with c; auto. apply S; simpl; auto. intros k Hk. rewrite <- (Fi k Hk), <- (Fb k Hk). auto.
    - destruct I as [E|I]; [congruence|]. destruct (IH H2 S' I Fi) as (cs'' & A & B). exists (c' :: cs''). split; [constructor; auto|]. rewrite B. apply perm_swap.
  Qed.
  Lemma separated_perm cs cs' : Permutation cs cs' -> separated cs -> separated cs'.
  Proof. intros P S c c' Hc Hc'. apply S; (eapply Permutation_in; [apply Permutation_sym, P|auto]). Qed.
  Lemma arr_length cs : forall cs' bs, NoDup bs -> Forall2 fits bs cs' -> Permutation cs' cs -> separated cs -> length (arr cs bs) = fact_mult cs.
  Proof.
    induction cs as [|c cs IH]; intros cs' bs N F2 P S; auto. cbn [arr fact_mult].
    assert (S' : separated (c :: cs')) by (intros x y Hx Hy; apply S; eapply Permutation_in; try apply P; simpl in *; destruct Hx, Hy; subst; auto; apply Permutation_in with (1 := Permutation_sym P); left; auto).
    rewrite (flat_map_length_const _ (fact_mult cs)).
    - rewrite (filter_fits_count c cs' bs F2 S'). rewrite (proj1 (Permutation_count_occ cdec _ _) P c). simpl. destruct (cdec c c); [|tauto]. auto.
    - intros b Hb. rewrite map_length. apply filter_In in Hb. destruct Hb as (I & Fb). apply fitsKb_ok in Fb.
      destruct (Forall2_remove b c cs' bs N F2 S' I Fb) as (cs'' & A & B). eapply IH; eauto.
      + apply remove_nodup; auto.
      + apply (Permutation_cons_inv (a := c)). rewrite <- B. auto.
      + intros x y Hx Hy. apply S; right; auto.
  Qed.

  Lemma blocks_nodup (bs : list (list L)) : NoDup (concat bs) -> Forall (fun b => b <> []) bs -> NoDup bs.
  Proof.
    induction bs as [|b bs IH]; simpl; intros N F; [constructor|]. inversion F; subst. apply nodup_app_inv in N. destruct N as (N1 & N2 & D).
    constructor; auto. intros I. destruct b as [|x b]; [tauto|]. apply (D x); [left; auto|]. apply in_concat. exists (x :: b). split; auto. left; auto.
  Qed.
  Lemma realizes_nodup F cs bs : nonempty_patterns cs -> realizes fits F cs bs -> NoDup bs.
  Proof.
    intros NE (H1 & H2 & H3). apply blocks_nodup; auto. clear - NE H1. induction H1 as [|b c bs cs Fb F2 IH]; constructor.
    - intros ->. destruct (NE c) as (k & Hk & Hn); [left; auto|]. specialize (Fb k Hk). unfold cnt in Fb. simpl in Fb. auto.
    - apply IH. intros c' Hc'. apply NE. right; auto.
  Qed.

  (** Classes of equal size. *)
  Definition same (x y : list (list L)) : bool :=
    forallb (fun b => if in_dec bdec b y then true else false) x && forallb (fun b => if in_dec bdec b x then true else false) y.
  Lemma same_ok x y : NoDup x -> NoDup y -> same x y = true <-> Permutation x y.
  Proof.
    intros Nx Ny. unfold same. rewrite andb_true_iff, !forallb_forall. split.
    - intros (A & B). apply NoDup_Permutation; auto. intros b. specialize (A b). specialize (B b). destruct (in_dec bdec b x), (in_dec bdec b y); split; intros; auto; try tauto; exfalso; intuition discriminate.
    - intros P. split; intros b Hb; destruct (in_dec bdec b _); auto; exfalso; apply n; [eapply Permutation_in; eauto|]. eapply Permutation_in; [apply Permutation_sym, P|auto].
  Qed.
  Lemma classes n N : forall O : list (list (list L)), length O <= n -> (forall x, In x O -> NoDup x) -> NoDup O ->
    (forall x, In x O -> length (filter (same x) O) = N) ->
    exists R, (forall x, In x R -> In x O) /\ (forall x, In x O -> exists y, In y R /\ Permutation x y) /\
      ForallOrdPairs (fun x y => ~ Permutation x y) R /\ length O = length R * N.
  Proof.
    induction n as [|n IH]; intros O Ln ND NO H.
    - destruct O; [|simpl in Ln; lia]. exists []. simpl. repeat split; auto; try tauto. constructor.
    - destruct O as [|x O]; [exists []; simpl; repeat split; auto; try tauto; constructor|].
      set (O' := filter (fun y => negb (same x y)) (x :: O)).
      assert (Sx : same x x = true) by (apply same_ok; auto; apply ND; left; auto).
      assert (Len : length O' + N = length (x :: O)).
      { rewrite <- (H x) by (left; auto). unfold O'. clear. induction (x :: O) as [|y l IHl]; simpl; auto. destruct (same x y); simpl; lia. }
      assert (Npos : 0 < N) by (rewrite <- (H x) by (left; auto); simpl; rewrite Sx; simpl; lia).
      assert (Isub : forall y, In y O' -> In y (x :: O)) by (intros y Hy; apply filter_In in Hy; tauto).
      destruct (IH O') as (R & R1 & R2 & R3 & R4); [simpl in Len, Ln; lia| | | |].
      + intros y Hy. auto.
      + apply NoDup_filter; auto.
      + intros y Hy. rewrite <- (H y) by auto. unfold O'. assert (Hyx : same x y = false) by (apply filter_In in Hy; destruct (same x y); auto; destruct Hy; discriminate).
        assert (E : forall l, (forall z, In z l -> In z (x :: O)) -> length (filter (same y) (filter (fun z => negb (same x z)) l)) = length (filter (same y) l)).
        { induction l as [|z l IHl]; cbn [filter]; intros Hl; auto. assert (Hl' : forall z', In z' l -> In z' (x :: O)) by (intros z' Hz'; apply Hl; right; auto).
          assert (Hz : In z (x :: O)) by (apply Hl; left; auto). specialize (IHl Hl'). destruct (same x z) eqn:Exz; cbn [filter negb]; [|destruct (same y z); cbn [length]; rewrite IHl; auto].
          destruct (same y z) eqn:Eyz; [|exact IHl]. exfalso. apply same_ok in Exz; [|apply ND; left; auto|apply ND; auto].
          apply same_ok in Eyz; [|apply ND; auto|apply ND; auto]. assert (same x y = true); [|congruence]. apply same_ok; [apply ND; left; auto|apply ND; auto|].
          transitivity z; [exact Exz|apply Permutation_sym; exact Eyz]. }
        apply E. auto.
      + exists (x :: R). split; [|split; [|split]].
        * intros y [<- |Hy]; [left; auto|]. auto.
        * intros y Hy. destruct (same x y) eqn:E.
          -- exists x. split; [left; auto|]. apply Permutation_sym, same_ok; auto; apply ND; auto; left; auto.
          -- destruct (R2 y) as (z & Hz & P); [apply filter_In; split; auto; rewrite E; auto|]. exists z. split; [right|]; auto.
        * constructor; auto. rewrite Forall_forall. intros y Hy P. apply R1 in Hy. pose proof (Isub y Hy) as Hy'. apply filter_In in Hy. destruct Hy as (_ & E).
          assert (same x y = true) by (apply same_ok; auto; apply ND; auto; left; auto). rewrite H0 in E. discriminate.
        * rewrite <- Len, R4. simpl. lia.
  Qed.

  Lemma Forall2_flip {X Y} (P : X -> Y -> Prop) l m : Forall2 P l m -> Forall2 (fun y x => P x y) m l.
  Proof. induction 1; constructor; auto. Qed.
  Theorem ways_exist cs F : NoDup F -> Forall (fun x => In (kf x) keys) F -> separated cs -> nonempty_patterns cs ->
    exists R, counts_ways fits F cs R /\ length R * fact_mult cs = weight cs (fun k => cnt k F).
  Proof.
    intros N HF S NE. destruct (classes (length (reals cs F)) (fact_mult cs) (reals cs F)) as (R & R1 & R2 & R3 & R4); auto.
    - intros x Hx. apply reals_in in Hx; auto. eapply realizes_nodup; eauto.
    - apply reals_nodup; auto.
    - intros x Hx. apply reals_in in Hx; auto. pose proof (realizes_nodup _ _ _ NE Hx) as Nx. pose proof Hx as (X1 & X2 & X3).
      rewrite <- (arr_length cs cs x Nx X1 (Permutation_refl _) S). apply Permutation_length, NoDup_Permutation.
      + apply NoDup_filter, reals_nodup; auto.
      + apply arr_nodup; auto.
      + intros o. rewrite filter_In, reals_in, arr_in; auto; [|clear - X1; induction X1; simpl; auto]. split.
        * intros (Ho & E). pose proof (realizes_nodup _ _ _ NE Ho). apply same_ok in E; auto. split; auto. apply Ho.
        * intros (P & F2). assert (Ho : realizes fits F cs o).
          { split; [auto|split].
            - rewrite Forall_forall in *. intros b Hb. apply X2. eapply Permutation_in; [apply Permutation_sym, P|auto].
            - eapply Permutation_NoDup; [|exact X3]. apply perm_concat, P. }
          split; auto. apply same_ok; auto. eapply realizes_nodup; eauto.
    - exists R. split; [|rewrite <- R4; apply reals_length; auto]. constructor; auto.
      + intros bs Hb. apply reals_in; auto.
      + intros cs' bs P (B1 & B2 & B3). destruct (Permutation_Forall2 (Permutation_sym P) (Forall2_flip _ _ _ B1)) as (bs' & P' & F2).
        destruct (R2 bs') as (y & Hy & P2).
        * apply reals_in; auto. split; [apply Forall2_flip in F2; exact F2|split].
          -- rewrite Forall_forall in *. intros b Hb. apply B2. eapply Permutation_in; [apply Permutation_sym, P'|auto].
          -- eapply Permutation_NoDup; [|exact B3]. apply perm_concat, P'.
        * exists y. split; auto. rewrite P'. auto.
  Qed.
End Count.
