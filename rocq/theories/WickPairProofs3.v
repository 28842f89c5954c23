(** The sets of contracted pairs with given contractions: their number. *)
From Coq Require Import ZArith List Bool Arith Lia Permutation.
From Verif Require Import Res RegistryModel CoreModel AdjointModel OperatorModel OperatorSpec OperatorProofs SortSpec SortProofs WickSearchModel WickSearchSpec CountSpec CountProofs WickCombSpec WickCombProofs WickElemProofs WickLegSpec WickLegProofs WickPairProofs WickPairProofs2.
Import ListNotations.
Local Open Scope Z_scope.

(** Deciding [Permutation]. *)
Definition permb (l l' : list econ) : bool := forallb (fun c => (count_occ econ_dec l c =? count_occ econ_dec l' c)%nat) (l ++ l').
Lemma permb_spec l l' : permb l l' = true <-> Permutation l l'.
Proof.
  unfold permb. rewrite forallb_forall. split; intros H.
  - apply (Permutation_count_occ econ_dec). intros c. destruct (in_dec econ_dec c (l ++ l')) as [I|N]; [apply Nat.eqb_eq, H, I|].
    rewrite !(proj1 (count_occ_not_In econ_dec _ _)); auto; intros I; apply N, in_or_app; auto.
  - intros c _. apply Nat.eqb_eq. apply (Permutation_count_occ econ_dec). exact H.
Qed.

Lemma subseq_in {A} (b l : list A) x : subseq b l -> In x b -> In x l.
Proof. intros H. revert x. induction H; intros z Hz; simpl in *; firstorder. Qed.
Lemma subseq_two {A} (x y : A) l1 l2 : In x l1 -> In y l2 -> subseq [x; y] (l1 ++ l2).
Proof.
  assert (N : forall l : list A, subseq [] l) by (induction l; constructor; auto).
  intros Hx Hy. induction l1 as [|z l1 IH]; [easy|]. destruct Hx as [->|Hx]; simpl.
  - apply sub_take. clear IH. induction l1 as [|w l1 IH]; simpl; [|constructor; auto]. induction l2 as [|w l2 IH]; [easy|]. destruct Hy as [->|Hy]; [apply sub_take, N|apply sub_skip; auto].
  - apply sub_skip; auto.
Qed.
Lemma subseq_nodup {A} (b l : list A) : subseq b l -> NoDup l -> NoDup b.
Proof. induction 1; intros ND; auto; inversion ND; subst; auto. constructor; auto. intros I. apply H2. eapply subseq_in; eauto. Qed.
Lemma subseq_antisym {A} (x y : A) l : NoDup l -> x <> y -> subseq [x; y] l -> subseq [y; x] l -> False.
Proof.
  induction l as [|z l IH]; intros ND Ne H1 H2; [inversion H1|]. inversion ND; subst.
  inversion H1 as [|? ? ? S1|? ? ? S1]; subst; inversion H2 as [|? ? ? S2|? ? ? S2]; subst; try congruence; auto; apply H3.
  - apply (subseq_in _ _ _ S1). simpl; auto.
  - apply (subseq_in _ _ _ S2). simpl; auto.
Qed.

Lemma Forall2_in_r {A B} (P : A -> B -> Prop) l R b : Forall2 P l R -> In b R -> exists a, In a l /\ P a b.
Proof. induction 1 as [|x y l R H F IH]; [easy|]. intros [<-|Hb]; [exists x; simpl; auto|]. destruct (IH Hb) as (a & Ha & Pa). exists a. simpl; auto. Qed.
Lemma Forall2_in_l {A B} (P : A -> B -> Prop) l R a : Forall2 P l R -> In a l -> exists b, In b R /\ P a b.
Proof. induction 1 as [|x y l R H F IH]; [easy|]. intros [<-|Hb]; [exists y; simpl; auto|]. destruct (IH Hb) as (b & Ha & Pa). exists b. simpl; auto. Qed.

Section Ways.
  Variables (st : osi) (ops : oprod) (maxc : Z).
  Hypothesis Hok : ops_ok st ops.
  Hypothesis Hg : no_general st.
  Notation n := (length ops).
  Definition pair_legs (p : leg * leg) : list leg := [fst p; snd p].
  Definition econ_pair (p : leg * leg) : econ := econ_of n (pair_legs p).
  Definition pairs_ok (ps : list (leg * leg)) : Prop := (forall p, In p ps -> pair_ok st ops (fst p) (snd p)) /\ NoDup (unpair ps).

  Lemma in_all_legs l : In l (all_legs st ops) <-> is_leg st ops l.
  Proof.
    unfold all_legs. rewrite in_flat_map. split.
    - intros (k & Hk & H). apply in_map_iff in H. destruct H as (i & <- & Hi). apply range_in in Hi. destruct k as [[A s] b]. apply kinds_in in Hk. destruct Hk. split; auto.
    - intros (H1 & H2 & H3). exists (fst l). split; [rewrite leg_kind_eta; apply kinds_in; auto|]. apply in_map_iff. exists (snd l). split; [destruct l; auto|apply range_in; auto].
  Qed.
  Definition legs_of_ops (As : list nat) : list leg :=
    flat_map (fun k => map (fun i => (k, i)) (range (leg_count ops k))) (flat_map (fun A => flat_map (fun s => [(A, s, true); (A, s, false)]) (range (num_spaces st))) As).
  Lemma all_legs_split k : (k <= n)%nat -> all_legs st ops = legs_of_ops (seq 0 k) ++ legs_of_ops (seq k (n - k)).
  Proof. intros Hk. unfold all_legs, kinds, legs_of_ops. replace n with (k + (n - k))%nat at 1 by lia. rewrite seq_app, !flat_map_app. reflexivity. Qed.
  Lemma in_legs_of_ops As l : In (leg_op l) As -> is_space st (leg_space l) -> 0 <= snd l < leg_count ops (fst l) -> In l (legs_of_ops As).
  Proof.
    intros HA Hs Hi. unfold legs_of_ops. apply in_flat_map. exists (fst l). split.
    - apply in_flat_map. exists (leg_op l). split; auto. apply in_flat_map. exists (leg_space l). split; [apply range_in, Hs|]. rewrite leg_kind_eta. destruct (leg_cre l); simpl; auto.
    - apply in_map_iff. exists (snd l). split; [destruct l; auto|apply range_in; auto].
  Qed.
  Lemma pair_subseq x y : pair_ok st ops x y -> subseq [x; y] (all_legs st ops).
  Proof.
    intros ((X1 & X2 & X3) & (Y1 & Y2 & Y3) & _ & O & _). rewrite (all_legs_split (leg_op y)) by lia. apply subseq_two; apply in_legs_of_ops; auto; apply in_seq; lia.
  Qed.
  Lemma pair_ordered x y b : pair_ok st ops x y -> Permutation b [x; y] -> subseq b (all_legs st ops) -> b = [x; y].
  Proof.
    intros P Pb S. assert (Q := pair_subseq x y P). apply Permutation_sym, Permutation_length_2_inv in Pb. destruct Pb as [->| ->]; auto. exfalso.
    apply (subseq_antisym x y (all_legs st ops)); auto; [apply legs_nodup|]. destruct P as (_ & _ & _ & O & _). intros ->. lia.
  Qed.
  Lemma concat_pairs ps : concat (map pair_legs ps) = unpair ps.
  Proof. unfold unpair. rewrite flat_map_concat_map. reflexivity. Qed.
  Lemma unpair_perm ps qs : Permutation ps qs -> Permutation (unpair ps) (unpair qs).
  Proof. intros P. unfold unpair. apply Permutation_flat_map. exact P. Qed.
  Lemma realize_pairs ps : pairs_ok ps -> realizes (carries_out st n) (all_legs st ops) (map econ_pair ps) (map pair_legs ps).
  Proof.
    intros (H & ND). split; [|split].
    - clear ND. induction ps as [|p ps IH]; cbn [map]; [constructor|]. constructor; [apply econ_of_carries, Hok|]. apply IH. intros q Hq; apply H; right; auto.
    - apply Forall_forall. intros b Hb. apply in_map_iff in Hb. destruct Hb as (p & <- & Hp). apply pair_subseq, H, Hp.
    - rewrite concat_pairs. exact ND.
  Qed.
  Lemma realized_pairs cs bs : Forall (allowed st maxc ops) cs -> realizes (carries_out st n) (all_legs st ops) cs bs ->
    exists ps, pairs_ok ps /\ map econ_pair ps = cs /\ bs = map pair_legs ps.
  Proof.
    intros Al (F & S & ND). assert (X : exists ps, (forall p, In p ps -> pair_ok st ops (fst p) (snd p)) /\ map econ_pair ps = cs /\ bs = map pair_legs ps).
    { clear ND. induction F as [|b c bs cs Fc F IH]; [exists []; split; [easy|]; auto|]. inversion Al; subst. inversion S; subst. destruct IH as (ps & A & B & C); auto.
      destruct (allowed_pair st ops Hok Hg maxc c b) as (x & y & P & Po & E); auto.
      { intros l Hl. apply in_all_legs. eapply subseq_in; eauto. }
      exists ((x, y) :: ps). split; [intros p [<-|Hp]; auto|]. cbn [map]. rewrite B, <- C. split; [unfold econ_pair, pair_legs at 1; cbn [fst snd]; rewrite E; auto|].
      unfold pair_legs at 1. cbn [fst snd]. rewrite (pair_ordered x y b); auto. }
    destruct X as (ps & A & B & C). exists ps. split; auto. split; auto. rewrite <- concat_pairs, <- C. exact ND.
  Qed.

  Variable ms : list (list (leg * leg)).
  Hypothesis M1 : forall ps, In ps ms -> pairs_ok ps.
  Hypothesis M2 : forall ps, pairs_ok ps -> exists m, In m ms /\ Permutation m ps.
  Hypothesis M3 : ForallOrdPairs (fun m m' => ~ Permutation m m') ms.
  Definition matches (cs : list econ) (ps : list (leg * leg)) : bool := permb (map econ_pair ps) cs.

  Lemma pairs_ok_perm ps qs : Permutation ps qs -> pairs_ok ps -> pairs_ok qs.
  Proof.
    intros P (A & B). split; [intros p Hp; apply A, (Permutation_in p (Permutation_sym P)), Hp|]. apply (Permutation_NoDup (unpair_perm _ _ P)), B.
  Qed.
  Lemma pair_legs_inj ps qs : Permutation (map pair_legs ps) (map pair_legs qs) -> Permutation ps qs.
  Proof.
    intros P. assert (E : forall l, map (fun b => match b with [x; y] => (x, y) | _ => (((0%nat, 0, true), 0), ((0%nat, 0, true), 0)) end) (map pair_legs l) = l).
    { intros l. rewrite map_map. rewrite <- (map_id l) at 2. apply map_ext. intros [x y]. reflexivity. }
    rewrite <- (E ps), <- (E qs). apply Permutation_map, P.
  Qed.
  Theorem ways_matchings cs : Forall (allowed st maxc ops) cs ->
    exists R, counts_ways (carries_out st n) (all_legs st ops) cs R /\ length R = length (filter (matches cs) ms).
  Proof.
    intros Al.
    assert (X : forall l, (forall m, In m l -> In m ms /\ matches cs m = true) -> exists R, Forall2 (fun m bs => exists ps, Permutation m ps /\ map econ_pair ps = cs /\ bs = map pair_legs ps) l R).
    { induction l as [|m l IH]; intros H; [exists []; constructor|]. destruct IH as (R & F); [intros x Hx; apply H; right; auto|]. destruct (H m (or_introl eq_refl)) as (_ & E). apply permb_spec in E.
      apply Permutation_sym in E. destruct (Permutation_map_inv _ _ E) as (ps & Ep & Pp). exists (map pair_legs ps :: R). constructor; auto. exists ps. auto. }
    destruct (X (filter (matches cs) ms)) as (R & F). { intros m Hm. apply filter_In in Hm. exact Hm. }
    exists R. split; [|clear - F; induction F; simpl; auto].
    assert (Y : forall bs, In bs R -> exists m ps, In m ms /\ Permutation m ps /\ map econ_pair ps = cs /\ bs = map pair_legs ps).
    { intros bs Hbs. destruct (Forall2_in_r _ _ _ _ F Hbs) as (m & Hm & ps & P & E1 & E2). exists m, ps. split; auto. apply filter_In in Hm. tauto. }
    split.
    - intros bs Hbs. destruct (Y bs Hbs) as (m & ps & Hm & P & <- & ->). apply realize_pairs. apply (pairs_ok_perm _ _ P), M1, Hm.
    - intros cs' bs P Re. destruct (realized_pairs cs' bs) as (ps & Po & E & ->); auto; [eapply Forall_perm; eauto|]. destruct (M2 ps Po) as (m & Hm & Pm).
      assert (Hm' : In m (filter (matches cs) ms)). { apply filter_In. split; auto. apply permb_spec. apply (Permutation_trans (Permutation_map econ_pair Pm)). rewrite E. apply Permutation_sym, P. }
      assert (exists bs', In bs' R /\ exists qs, Permutation m qs /\ bs' = map pair_legs qs).
      { destruct (Forall2_in_l _ _ _ _ F Hm') as (b & Hb & qs & P' & _ & E2). exists b. split; eauto. }
      destruct H as (bs' & Hb' & qs & Pq & ->). exists (map pair_legs qs). split; auto. apply Permutation_map. apply (Permutation_trans (Permutation_sym Pm) Pq).
    - assert (O : ForallOrdPairs (fun m m' => ~ Permutation m m') (filter (matches cs) ms)).
      { clear - M3. induction M3 as [|x l Fx O IH]; simpl; [constructor|]. destruct (matches cs x); auto. constructor; auto. rewrite Forall_forall in *. intros y Hy. apply filter_In in Hy. apply Fx. tauto. }
      clear - F O. induction F as [|m b l R (ps & P & _ & E) F IH]; [constructor|]. inversion O as [|? ? Fm O']; subst. constructor; auto.
      clear - F P Fm. induction F as [|m' b l R (qs & Q & _ & ->) F IH]; [constructor|]. inversion Fm; subst. constructor; auto.
      intros C. apply pair_legs_inj in C. apply H1. apply (Permutation_trans P), (Permutation_trans C), Permutation_sym, Q.
  Qed.
End Ways.
