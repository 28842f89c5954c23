(** The graph canonicalization: the sets of contracted pairs correspond to each other. *)
From Coq Require Import ZArith List Bool Arith Lia Permutation.
From Verif Require Import Res RegistryModel CoreModel AdjointModel OperatorModel OperatorSpec OperatorProofs SortSpec SortProofs WickSearchModel WickSearchSpec CountSpec CountProofs WickCombSpec WickCombProofs WickElemProofs WickElemProofs2 WickCompProofs WickSearchProofs WickEvalModel WickGraphSpec WickGraphProofs WickGraphProofs2 WickLegSpec WickLegProofs WickLegProofs3 WickLegProofs6 WickPairProofs WickPairProofs2 WickPairProofs3 WickPairProofs4 WickPairProofs5.
Import ListNotations.
Local Open Scope Z_scope.

Lemma map_inj_in {X Y} (f : X -> Y) l : forall l', (forall x y, In x l -> In y l' -> f x = f y -> x = y) -> map f l = map f l' -> l = l'.
Proof.
  induction l as [|x l IH]; intros [|y l'] H E; try discriminate; auto. cbn [map] in E. injection E as E1 E2. f_equal; [apply H; simpl; auto|]. apply IH; auto. intros; apply H; simpl; auto.
Qed.
Lemma perm_map_inj {X Y} (f : X -> Y) l l' : (forall x y, In x l -> In y l' -> f x = f y -> x = y) -> Permutation (map f l) (map f l') -> Permutation l l'.
Proof.
  intros H P. destruct (Permutation_map_inv _ _ P) as (m & E & Q). rewrite (map_inj_in f l m); auto; [apply Permutation_sym, Q|]. intros x y Hx Hy. apply H; auto. apply (Permutation_in y (Permutation_sym Q)), Hy.
Qed.
Lemma fop_map_in {X Y} (f : X -> Y) (R : X -> X -> Prop) (R' : Y -> Y -> Prop) l : (forall x y, In x l -> In y l -> R x y -> R' (f x) (f y)) -> ForallOrdPairs R l -> ForallOrdPairs R' (map f l).
Proof.
  intros H O. induction O as [|x l F O IH]; cbn [map]; constructor.
  - apply Forall_forall. intros y Hy. apply in_map_iff in Hy. destruct Hy as (z & <- & Hz). rewrite Forall_forall in F. apply H; simpl; auto.
  - apply IH. intros; apply H; simpl; auto.
Qed.
Lemma fop_filter {X} (R : X -> X -> Prop) (P : X -> bool) l : ForallOrdPairs R l -> ForallOrdPairs R (filter P l).
Proof. induction 1 as [|x l F O IH]; cbn [filter]; [constructor|]. destruct (P x); auto. constructor; auto. rewrite Forall_forall in *. intros y Hy. apply filter_In in Hy. apply F. tauto. Qed.
Lemma in_unpair ps l : In l (unpair ps) <-> exists x, In x ps /\ (l = fst x \/ l = snd x).
Proof.
  unfold unpair. rewrite in_flat_map. split; intros (x & H1 & H2); exists x; (split; [exact H1|]).
  - destruct H2 as [<-|[<-|[]]]; auto.
  - destruct H2 as [-> | ->]; simpl; auto.
Qed.
Lemma unpair_map f ps : unpair (map (fun x => (f (fst x), f (snd x))) ps) = map f (unpair ps).
Proof. unfold unpair. induction ps as [|x ps IH]; auto. cbn [map flat_map app]. cbn [fst snd]. rewrite IH. reflexivity. Qed.
Lemma ren2_unpair p ps : unpair (map (ren2 p) ps) = map (ren p) (unpair ps).
Proof. apply unpair_map. Qed.

Section Corr.
  Variables (st : osi) (ops : oprod) (p q : list nat) (cs : list econ).
  Hypothesis Hok : ops_ok st ops.
  Notation n := (length ops).
  Hypothesis HP : rearrangement n p.
  Hypothesis HQ : rearrangement (length cs) q.
  Notation ops' := (pick_ops ops p).
  Notation cs' := (pick_cons cs p q).
  Hypothesis HJ : keeps_joined_order st cs p.
  Hypothesis H2 : forall c, In c cs -> ec_num_ops c = 2.
  Hypothesis Hn : forall c, In c cs -> length c = n.
  Notation len' := (len' ops p HP).

  Lemma pick_cons_perm : Permutation cs' (map (pick_con p) cs).
  Proof.
    unfold pick_cons, pick_con. rewrite <- (map_map (fun j => nth j cs []) (fun c => map (fun A => nth A c gm_zero) p)). apply Permutation_map. apply Permutation_sym, (rearr_map cs [] (length cs) q); auto.
  Qed.
  Lemma pick_mult k : (forall c, mult cs c <= k)%nat -> forall c, (mult cs' c <= k)%nat.
  Proof.
    intros H c. unfold mult. rewrite (proj1 (Permutation_count_occ econ_dec _ _) pick_cons_perm c).
    destruct (in_dec econ_dec c (map (pick_con p) cs)) as [I|N]; [|rewrite (proj1 (count_occ_not_In econ_dec _ _) N); lia]. apply in_map_iff in I. destruct I as (d & <- & Hd).
    enough (X : count_occ econ_dec (map (pick_con p) cs) (pick_con p d) = count_occ econ_dec cs d) by (rewrite X; apply H).
    assert (Ld := Hn d Hd). clear Hd H H2 HJ HQ. assert (Hn' := Hn). clear Hn. induction cs as [|a l IH]; auto. cbn [map count_occ]. rewrite IH by (intros; apply Hn'; right; auto).
    destruct (econ_dec (pick_con p a) (pick_con p d)) as [E|E], (econ_dec a d) as [E'|E']; auto; exfalso; [|congruence]. apply E'. apply (pick_inj ops p HP); auto. apply Hn'. left; auto.
  Qed.
  Lemma econ_ren x : pair_ok st ops' (fst x) (snd x) -> econ_pair ops' x = pick_con p (econ_pair ops (ren2 p x)).
  Proof.
    intros (Lx & Ly & _). unfold econ_pair, pair_legs. rewrite len'. symmetry. apply (pick_econ st ops p Hok HP [fst x; snd x]).
    intros l [<-|[<-|[]]]; (split; [rewrite <- len'|]); apply Lx || apply Ly.
  Qed.
  Lemma corr_fwd ps : (forall x, In x ps -> pair_ok st ops' (fst x) (snd x)) -> Permutation (map (econ_pair ops') ps) cs' ->
    (forall x, In x (map (ren2 p) ps) -> pair_ok st ops (fst x) (snd x)) /\ Permutation (map (econ_pair ops) (map (ren2 p) ps)) cs.
  Proof.
    intros H P. assert (X : Permutation (map (econ_pair ops) (map (ren2 p) ps)) cs).
    { apply (perm_map_inj (pick_con p)).
      - intros c d Hc Hd. apply (pick_inj ops p HP); auto. apply in_map_iff in Hc. destruct Hc as (x & <- & _). unfold econ_pair, econ_of. rewrite map_length, seq_length. reflexivity.
      - rewrite !map_map. eapply Permutation_trans; [|apply pick_cons_perm]. eapply Permutation_trans; [|exact P]. rewrite (map_ext_in (econ_pair ops') (fun x => pick_con p (econ_pair ops (ren2 p x)))); auto. intros x Hx. apply econ_ren, H, Hx. }
    split; auto. intros x Hx. assert (Ic := Permutation_in _ X (in_map (econ_pair ops) _ _ Hx)). apply in_map_iff in Hx. destruct Hx as (y & <- & Hy). apply (ren_pair_fwd st ops p Hok HP cs HJ H2); auto.
  Qed.
  Lemma corr_bwd ps : (forall x, In x ps -> pair_ok st ops (fst x) (snd x)) -> Permutation (map (econ_pair ops) ps) cs ->
    exists ps', ps = map (ren2 p) ps' /\ (forall x, In x ps' -> pair_ok st ops' (fst x) (snd x)) /\ Permutation (map (econ_pair ops') ps') cs'.
  Proof.
    intros H P. assert (Ic : forall x, In x ps -> In (econ_pair ops x) cs) by (intros x Hx; apply (Permutation_in _ P), in_map, Hx).
    assert (X : exists ps', ps = map (ren2 p) ps' /\ (forall x, In x ps' -> pair_ok st ops' (fst x) (snd x))).
    { clear P. induction ps as [|x ps IH]; [exists []; split; [auto|easy]|]. destruct IH as (ps' & E & H'); [intros; apply H; right; auto|intros; apply Ic; right; auto|].
      destruct (H x (or_introl eq_refl)) as (Lx & Ly & R). destruct (ren_onto ops p HP (fst x)) as (a & Ha & Ea); [apply Lx|]. destruct (ren_onto ops p HP (snd x)) as (b & Hb & Eb); [apply Ly|].
      exists ((a, b) :: ps'). split; [cbn [map]; rewrite <- E; f_equal; unfold ren2; cbn [fst snd]; rewrite Ea, Eb; destruct x; auto|].
      intros y [<-|Hy]; auto. cbn [fst snd]. apply (ren_pair_bwd st ops p Hok HP cs HJ H2); auto; rewrite Ea, Eb; [apply H; left; auto|]. apply (Ic x). left; auto. }
    destruct X as (ps' & -> & H'). exists ps'. split; auto. split; auto.
    rewrite (map_ext_in (econ_pair ops') (fun x => pick_con p (econ_pair ops (ren2 p x)))) by (intros x Hx; apply econ_ren, H', Hx).
    rewrite <- (map_map (fun x => econ_pair ops (ren2 p x)) (pick_con p)). eapply Permutation_trans; [|apply Permutation_sym, pick_cons_perm]. apply Permutation_map. rewrite map_map in P. exact P.
  Qed.
  Lemma pair_ops x : pair_ok st ops' (fst x) (snd x) -> (leg_op (fst x) < n)%nat /\ (leg_op (snd x) < n)%nat.
  Proof. intros (Lx & Ly & _). rewrite <- len'. split; [apply Lx|apply Ly]. Qed.
  Lemma ren2_inj x y : pair_ok st ops' (fst x) (snd x) -> pair_ok st ops' (fst y) (snd y) -> ren2 p x = ren2 p y -> x = y.
  Proof.
    intros Hx Hy E. destruct (pair_ops x Hx), (pair_ops y Hy). destruct x as [x1 x2], y as [y1 y2]. cbn [fst snd] in *. injection E as E1 E2 E3 E4 E5 E6 E7 E8. f_equal; apply (ren_inj ops p HP); auto; unfold ren; congruence.
  Qed.
  Lemma ren_nodup ps : (forall x, In x ps -> pair_ok st ops' (fst x) (snd x)) -> NoDup (unpair (map (ren2 p) ps)) <-> NoDup (unpair ps).
  Proof.
    intros H. rewrite ren2_unpair. split; [apply NoDup_map_inv|]. intros ND. assert (Hl : forall l, In l (unpair ps) -> (leg_op l < n)%nat).
    { intros l Hl. apply in_unpair in Hl. destruct Hl as (x & Hx & E). destruct (pair_ops x (H x Hx)). destruct E as [-> | ->]; auto. }
    induction (unpair ps) as [|l L IH]; cbn [map]; [constructor|]. inversion ND; subst. constructor; [|apply IH; auto; intros; apply Hl; right; auto].
    intros I. apply in_map_iff in I. destruct I as (l' & E & Hl'). apply (ren_inj ops p HP) in E; [subst; auto|apply Hl; right; auto|apply Hl; left; auto].
  Qed.

  Variables (ms ms' : list (list (leg * leg))).
  Hypothesis M1 : forall ps, In ps ms -> pairs_ok st ops ps.
  Hypothesis M2 : forall ps, pairs_ok st ops ps -> exists m, In m ms /\ Permutation m ps.
  Hypothesis M3 : ForallOrdPairs (fun m m' => ~ Permutation m m') ms.
  Hypothesis N1 : forall ps, In ps ms' -> pairs_ok st ops' ps.
  Hypothesis N2 : forall ps, pairs_ok st ops' ps -> exists m, In m ms' /\ Permutation m ps.
  Hypothesis N3 : ForallOrdPairs (fun m m' => ~ Permutation m m') ms'.
  Theorem corr_count : length (filter (matches ops' cs') ms') = length (filter (matches ops cs) ms).
  Proof.
    apply Nat.le_antisymm; (rewrite <- (map_length (map (ren2 p)) (filter (matches ops' cs') ms'))).
    - apply le_reps.
      + apply (fop_map_in _ (fun m m' => ~ Permutation m m')); [|apply fop_filter, N3]. intros x y Hx Hy H P. apply H. apply filter_In in Hx, Hy. destruct Hx as (Hx & _), Hy as (Hy & _).
        apply (perm_map_inj (ren2 p)); auto. intros a b Ha Hb. apply ren2_inj; [apply (proj1 (N1 x Hx)), Ha|apply (proj1 (N1 y Hy)), Hb].
      + intros r Hr. apply in_map_iff in Hr. destruct Hr as (m' & <- & Hm'). apply filter_In in Hm'. destruct Hm' as (Hm' & Mt). apply permb_spec in Mt. destruct (N1 m' Hm') as (A1 & A2).
        destruct (corr_fwd m' A1 Mt) as (B1 & B2). destruct (M2 (map (ren2 p) m')) as (m & Hm & Pm); [split; auto; apply ren_nodup; auto|].
        exists m. split; [|apply Permutation_sym, Pm]. apply filter_In. split; auto. apply permb_spec. apply (Permutation_trans (Permutation_map (econ_pair ops) Pm)), B2.
    - apply le_reps; [apply fop_filter, M3|]. intros m Hm. apply filter_In in Hm. destruct Hm as (Hm & Mt). apply permb_spec in Mt. destruct (M1 m Hm) as (A1 & A2).
      destruct (corr_bwd m A1 Mt) as (ps' & E & B1 & B2). destruct (N2 ps') as (m' & Hm' & Pm'). { split; auto. apply ren_nodup; auto. rewrite <- E. exact A2. }
      exists (map (ren2 p) m'). split; [|rewrite E; apply Permutation_map, Permutation_sym, Pm']. apply in_map, filter_In. split; auto. apply permb_spec. apply (Permutation_trans (Permutation_map (econ_pair ops') Pm')), B2.
  Qed.
End Corr.
