From Coq Require Import ZArith List Bool Arith Lia Permutation Sorted.
From Verif Require Import Res RegistryModel CoreModel OrderProofs SortSpec SortProofs SortModel NextPermModel NextPermProofs OperatorModel OperatorSpec OperatorProofs
  WickSearchModel WickSearchSpec WickElemProofs WickEvalModel CountSpec WickCombSpec WickCombProofs WickGraphSpec WickGraphProofs.
Import ListNotations.
Local Open Scope Z_scope.

Lemma rearr_length n p : rearrangement n p -> length p = n.
Proof. intros P. apply Permutation_length in P. rewrite seq_length in P. auto. Qed.
Lemma rearr_in n p x : rearrangement n p -> In x p <-> (x < n)%nat.
Proof. intros P. rewrite <- P, in_seq. lia. Qed.
Lemma rearr_nodup n p : rearrangement n p -> NoDup p.
Proof. intros P. eapply Permutation_NoDup; [exact P|apply seq_NoDup]. Qed.
Lemma rearr_intro n p : NoDup p -> length p = n -> (forall x, In x p -> (x < n)%nat) -> rearrangement n p.
Proof.
  intros N L I. apply Permutation_sym. apply NoDup_Permutation_bis; auto; [rewrite seq_length; lia|]. intros x Hx. apply in_seq. specialize (I x Hx). lia.
Qed.

Definition candidate (st : osi) (ops : oprod) (cs : list econ) (p q : list nat) : Prop :=
  rearrangement (length ops) p /\ rearrangement (length cs) q /\ keeps_joined_order st cs p.

Theorem canon_spec st ops cs ops' cs' s : ops_ok st ops -> canonicalize_graph st ops cs (ops', cs', s) ->
  exists p q, rearrangement (length ops) p /\ rearrangement (length cs) q /\ keeps_joined_order st cs p /\
    ops' = pick_ops ops p /\ cs' = pick_cons cs p q /\ s = exchange_sign (odd_op ops) p /\
    forall p' q', rearrangement (length ops) p' -> rearrangement (length cs) q' -> keeps_joined_order st cs p' ->
      ~ preferred (pick_ops ops p', pick_cons cs p' q') (ops', cs').
Proof.
  intros Hok (g & gs & s0 & P & O & V & E). injection E as -> -> ->.
  assert (Hg : In g (graphs st ops cs)) by (rewrite P; left; auto). apply graphs_spec in Hg. destruct Hg as (p & q & Rp & Rq & K & ->).
  exists p, q. rewrite gops_pick, gcon_pick. repeat split; auto.
  - assert (X := valid_spec ops (commutable st cs) (map Z.of_nat p)). cbn [fst] in V. rewrite V in X. destruct X as (_ & ->). eapply psig_spec; eauto.
  - intros p' q' Rp' Rq' K' Hpr. apply preferred_glt in Hpr. cbn [fst snd] in Hpr. fold (gk ops cs p' q') (gk ops cs p q) in Hpr.
    assert (Lp := rearr_length _ _ Rp). assert (Lq := rearr_length _ _ Rq). assert (Lp' := rearr_length _ _ Rp'). assert (Lq' := rearr_length _ _ Rq').
    rewrite <- graph_less_glt in Hpr by congruence.
    assert (Hin : In (map Z.of_nat p', map Z.of_nat q') ((map Z.of_nat p, map Z.of_nat q) :: gs)) by (rewrite <- P; apply graphs_spec; eauto 10).
    destruct Hin as [Eq|Hin].
    + rewrite <- Eq in Hpr. assert (X := graph_less_glt ops cs p q p q eq_refl eq_refl). rewrite (swo_irrefl _ _ glt_swo) in X. congruence.
    + inversion O as [|? ? _ F]; subst. rewrite Forall_forall in F. specialize (F _ Hin). congruence.
Qed.

(** [graph_less] is a strict weak order on the candidates, so [std::sort] may be used. *)
Definition cand_of (st : osi) (ops : oprod) (cs : list econ) (g : graph) : Prop := In g (graphs st ops cs).
Lemma cand_less st ops cs g h : In g (graphs st ops cs) -> In h (graphs st ops cs) ->
  graph_less ops cs g h = glt (gops ops g, concat (gcon cs g)) (gops ops h, concat (gcon cs h)).
Proof.
  intros Hg Hh. apply graphs_spec in Hg, Hh. destruct Hg as (p & q & Rp & Rq & _ & ->), Hh as (p' & q' & Rp' & Rq' & _ & ->).
  rewrite graph_less_glt; [rewrite !gops_pick, !gcon_pick; reflexivity| |];
    rewrite ?(rearr_length _ _ Rp), ?(rearr_length _ _ Rp'), ?(rearr_length _ _ Rq), ?(rearr_length _ _ Rq'); auto.
Qed.
Theorem less_swo st ops cs : let C := fun g => In g (graphs st ops cs) in let lt := graph_less ops cs in
  (forall a, C a -> lt a a = false) /\
  (forall a b c, C a -> C b -> C c -> lt a b = true -> lt b c = true -> lt a c = true) /\
  (forall a b c, C a -> C b -> C c -> lt a b = false -> lt b a = false -> lt b c = false -> lt c b = false -> lt a c = false /\ lt c a = false).
Proof.
  simpl. assert (L := fun g h => cand_less st ops cs g h). split; [|split].
  - intros a Ha. rewrite L by auto. apply (swo_irrefl _ _ glt_swo).
  - intros a b c Ha Hb Hc. rewrite !L by auto. apply (swo_trans _ _ glt_swo).
  - intros a b c Ha Hb Hc. rewrite !L by auto. intros H1 H2 H3 H4. exact (swo_inc_trans _ _ glt_swo _ _ _ H1 H2 H3 H4).
Qed.

Theorem canon_exists st ops cs : exists r, canonicalize_graph st ops cs r.
Proof.
  assert (W := less_swo st ops cs).
  set (gs := graphs st ops cs).
  assert (Hid : In (map Z.of_nat (seq 0 (length ops)), map Z.of_nat (seq 0 (length cs))) gs).
  { apply graphs_spec. exists (seq 0 (length ops)), (seq 0 (length cs)). repeat split; try apply Permutation_refl.
    intros A B (i & j & L & Ei & Ej) LA. exfalso. assert (Li : (i < length (seq 0 (length ops)))%nat) by (apply nth_error_Some; congruence).
    assert (Lj : (j < length (seq 0 (length ops)))%nat) by (apply nth_error_Some; congruence).
    rewrite seq_length in Li, Lj. apply (nth_error_nth _ _ O) in Ei, Ej. rewrite seq_nth in Ei, Ej by auto. lia. }
  (* insertion sort restricted to candidates *)
  assert (S : exists l, Permutation gs l /\ ordered (graph_less ops cs) l).
  { assert (G : forall l, (forall g, In g l -> In g gs) -> exists l', Permutation l l' /\ ordered (fun a b => glt (gops ops a, concat (gcon cs a)) (gops ops b, concat (gcon cs b))) l').
    { intros l _. exists (sort_by (fun a b => glt (gops ops a, concat (gcon cs a)) (gops ops b, concat (gcon cs b))) l). split; [apply sort_by_perm|].
      eapply sort_by_ordered. apply (swo_inv (fun g => (gops ops g, concat (gcon cs g))) _ _ glt_swo). }
    destruct (G gs (fun g H => H)) as (l & P & O). exists l. split; auto. assert (Hl : forall g, In g l -> In g gs) by (intros; rewrite P; auto).
    clear P. induction O as [|g l Sl IH F]; [constructor|]. constructor; [apply IH; intros; apply Hl; right; auto|].
    apply Forall_forall. intros h Hh. rewrite Forall_forall in F. rewrite (cand_less st); [apply F; auto|apply Hl; right; auto|apply Hl; left; auto]. }
  destruct S as ([|g l] & P & O); [apply Permutation_sym, Permutation_nil in P; rewrite P in Hid; destruct Hid|].
  assert (Hg : In g gs) by (rewrite P; left; auto). apply graphs_spec in Hg. destruct Hg as (p & q & Rp & Rq & K & ->).
  assert (X := valid_spec ops (commutable st cs) (map Z.of_nat p)). destruct (is_ops_permutation_valid ops (commutable st cs) (map Z.of_nat p)) as [s|] eqn:V.
  - exists (gops ops (map Z.of_nat p, map Z.of_nat q), gcon cs (map Z.of_nat p, map Z.of_nat q), s). exists (map Z.of_nat p, map Z.of_nat q), l, s. auto.
  - apply pok_spec in K. tauto.
Qed.

Lemma concat_inj {A} n : forall (l l' : list (list A)), Forall (fun x => length x = n) l -> Forall (fun x => length x = n) l' -> length l = length l' ->
  concat l = concat l' -> l = l'.
Proof.
  induction l as [|x l IH]; intros [|x' l'] F F' L E; try discriminate; auto. inversion F; inversion F'; subst. simpl in E.
  assert (x = x' /\ concat l = concat l') as (-> & E').
  { assert (G : forall (a b c d : list A), length a = length b -> a ++ c = b ++ d -> a = b /\ c = d).
    { induction a; intros [|] c d La Ea; try discriminate; auto. simpl in Ea. injection Ea as -> Ea. simpl in La. destruct (IHa l0 c d ltac:(lia) Ea). split; congruence. }
    apply G; auto. }
  f_equal. apply IH; auto.
Qed.
Lemma preferred_total ops cs p q ops2 cs2 p2 q2 : length p = length p2 -> length q = length q2 ->
  ~ preferred (pick_ops ops p, pick_cons cs p q) (pick_ops ops2 p2, pick_cons cs2 p2 q2) ->
  ~ preferred (pick_ops ops2 p2, pick_cons cs2 p2 q2) (pick_ops ops p, pick_cons cs p q) ->
  pick_ops ops p = pick_ops ops2 p2 /\ pick_cons cs p q = pick_cons cs2 p2 q2.
Proof.
  intros Lp Lq H1 H2. rewrite preferred_glt in H1, H2. apply not_true_is_false in H1, H2. cbn [fst snd] in *.
  assert (X : geq (pick_ops ops p, concat (pick_cons cs p q)) (pick_ops ops2 p2, concat (pick_cons cs2 p2 q2)) = true) by (apply (swo_eq _ _ glt_swo); auto).
  unfold geq in X. cbn [fst snd] in X. apply andb_true_iff in X. destruct X as (X1 & X2).
  apply (OrderProofs.list_eqb_eq _ oper_eqb_eq) in X1. apply (OrderProofs.list_eqb_eq _ gmat_eqb_eq) in X2. split; auto.
  apply (concat_inj (length p)); auto.
  - apply Forall_forall. intros x Hx. apply in_map_iff in Hx. destruct Hx as (c & <- & _). apply map_length.
  - apply Forall_forall. intros x Hx. apply in_map_iff in Hx. destruct Hx as (c & <- & _). rewrite map_length. auto.
  - unfold pick_cons. rewrite !map_length. auto.
Qed.

(** ** Composition and inversion of allowed rearrangements *)
Lemma seq_nth_id {A} (c : list A) d : map (fun i => nth i c d) (seq 0 (length c)) = c.
Proof. apply (nth_ext _ _ d d); [rewrite map_length, seq_length; auto|]. intros i Hi. rewrite map_length, seq_length in Hi. apply (nth_seq_map (fun i => nth i c d)). auto. Qed.
Lemma rearr_map {A} (c : list A) d n p : length c = n -> rearrangement n p -> Permutation c (map (fun i => nth i c d) p).
Proof. intros L P. rewrite <- (seq_nth_id c d) at 1. rewrite L. apply Permutation_map. exact P. Qed.
Lemma ec_num_sum c : ec_num_ops c = fold_right (fun g a => gm_num_ops g + a) 0 c.
Proof. unfold ec_num_ops. rewrite <- fold_left_rev_right. induction c as [|g c IH] using rev_ind; [reflexivity|]. rewrite rev_app_distr. simpl. rewrite IH. clear.
  induction c; simpl; lia. Qed.
Lemma ec_num_perm c p n : length c = n -> rearrangement n p -> ec_num_ops (map (fun A => nth A c gm_zero) p) = ec_num_ops c.
Proof.
  intros L P. rewrite !ec_num_sum. assert (Q := rearr_map c gm_zero n p L P). revert Q. generalize (map (fun A => nth A c gm_zero) p). intros c' Q. clear L P.
  induction Q; simpl; lia.
Qed.

Definition comp (p p2 : list nat) : list nat := map (fun a => nth a p O) p2.
Lemma comp_rearr n p p2 : rearrangement n p -> rearrangement n p2 -> rearrangement n (comp p p2).
Proof. intros P P2. unfold rearrangement. etransitivity; [exact P|]. apply (rearr_map p O n p2); auto. eapply rearr_length; eauto. Qed.
Lemma pick_ops_comp n ops p p2 : rearrangement n p -> rearrangement n p2 -> pick_ops (pick_ops ops p) p2 = pick_ops ops (comp p p2).
Proof.
  intros P P2. unfold pick_ops, comp. rewrite map_map. apply map_ext_in. intros a Ha. apply (rearr_in n _ _ P2) in Ha. rewrite <- (rearr_length _ _ P) in Ha.
  rewrite nth_indep with (d' := nth O ops (mkOp [] gm_zero)) by (rewrite map_length; auto). rewrite (map_nth (fun A => nth A ops (mkOp [] gm_zero))). reflexivity.
Qed.
Lemma pick_cons_comp n m cs p q p2 q2 : rearrangement n p -> rearrangement n p2 -> rearrangement m q -> rearrangement m q2 ->
  pick_cons (pick_cons cs p q) p2 q2 = pick_cons cs (comp p p2) (comp q q2).
Proof.
  intros P P2 Q Q2. unfold pick_cons, comp. rewrite !map_map. apply map_ext_in. intros c Hc. apply (rearr_in m _ _ Q2) in Hc. rewrite <- (rearr_length _ _ Q) in Hc.
  rewrite !map_map. apply map_ext_in. intros a Ha. apply (rearr_in n _ _ P2) in Ha. rewrite <- (rearr_length _ _ P) in Ha.
  rewrite (nth_indep _ [] (map (fun A => nth A (nth O cs []) gm_zero) p)) by (rewrite map_length; auto).
  rewrite (map_nth (fun c => map (fun A => nth A (nth c cs []) gm_zero) p)).
  rewrite (nth_indep _ gm_zero (nth O (nth (nth c q O) cs []) gm_zero)) by (rewrite map_length; auto).
  rewrite (map_nth (fun A => nth A (nth (nth c q O) cs []) gm_zero)). reflexivity.
Qed.

Section Moved.
  Context (st : osi) (n : nat) (cs : list econ).
  Hypothesis Hc : Forall (fun c => length c = n) cs.
  Lemma joined_pick p q a b : rearrangement n p -> rearrangement (length cs) q -> (a < n)%nat -> (b < n)%nat ->
    joined st (pick_cons cs p q) a b <-> joined st cs (nth a p O) (nth b p O).
  Proof.
    intros P Q Ha Hb. rewrite Forall_forall in Hc. assert (Lp := rearr_length _ _ P).
    assert (N : forall c x, (x < n)%nat -> nth x (map (fun A => nth A c gm_zero) p) gm_zero = nth (nth x p O) c gm_zero).
    { intros c x Hx. rewrite (nth_indep _ gm_zero (nth O c gm_zero)) by (rewrite map_length; lia). rewrite (map_nth (fun A => nth A c gm_zero)). reflexivity. }
    unfold joined, ec_cre, ec_ann. split.
    - intros (c & s & Hin & Hs & Hn & J). unfold pick_cons in Hin. apply in_map_iff in Hin. destruct Hin as (k & <- & Hk).
      apply (rearr_in _ _ _ Q) in Hk. exists (nth k cs []), s. assert (Hi := nth_In cs [] Hk). rewrite (ec_num_perm _ _ n) in Hn by (auto; apply Hc; auto). rewrite !N in J by auto. auto.
    - intros (c & s & Hin & Hs & Hn & J). destruct (In_nth cs c [] Hin) as (k & Hk & Ek). exists (map (fun A => nth A c gm_zero) p), s.
      split; [|split; [auto|split; [rewrite (ec_num_perm _ _ n); auto|rewrite !N by auto; auto]]].
      unfold pick_cons. apply in_map_iff. exists k. rewrite Ek. split; auto. apply (rearr_in _ _ _ Q). auto.
  Qed.
  Lemma keeps_comp p q p2 : rearrangement n p -> rearrangement (length cs) q -> rearrangement n p2 ->
    keeps_joined_order st cs p -> keeps_joined_order st (pick_cons cs p q) p2 -> keeps_joined_order st cs (comp p p2).
  Proof.
    intros P Q P2 K K2 A B (i & j & L & Ei & Ej) LA. unfold comp in Ei, Ej. rewrite nth_error_map in Ei, Ej.
    destruct (nth_error p2 i) as [a|] eqn:Ea; [|discriminate]. destruct (nth_error p2 j) as [b|] eqn:Eb; [|discriminate].
    cbn [option_map] in Ei, Ej. injection Ei as Ei. injection Ej as Ej.
    assert (Ha : (a < n)%nat) by (apply (rearr_in _ _ _ P2); eapply nth_error_In; eauto). assert (Hb : (b < n)%nat) by (apply (rearr_in _ _ _ P2); eapply nth_error_In; eauto).
    assert (Lp := rearr_length _ _ P).
    destruct (lt_eq_lt_dec a b) as [[Lt|E]|Gt].
    - apply K; auto. exists a, b. split; auto. rewrite <- Ei, <- Ej. split; apply nth_error_nth'; lia.
    - subst b. lia.
    - intros J. apply (K2 a b); [exists i, j; auto|auto|]. apply joined_pick; auto. congruence.
  Qed.
End Moved.

Fixpoint posn (x : nat) (p : list nat) : nat := match p with [] => O | y :: p' => if Nat.eqb y x then O else S (posn x p') end.
Lemma posn_spec x p : In x p -> (posn x p < length p)%nat /\ nth (posn x p) p O = x.
Proof. induction p as [|y p IH]; [intros []|]. intros H. simpl. destruct (Nat.eqb_spec y x); [split; [lia|auto]|]. destruct H as [|H]; [congruence|]. destruct (IH H). split; [lia|auto]. Qed.
Definition invp (p : list nat) : list nat := map (fun x => posn x p) (seq 0 (length p)).
Lemma invp_rearr n p : rearrangement n p -> rearrangement n (invp p).
Proof.
  intros P. assert (L := rearr_length _ _ P). assert (Hin : forall x, In x (seq 0 (length p)) -> In x p) by (intros x Hx; rewrite L in Hx; rewrite <- P; auto).
  apply rearr_intro.
  - unfold invp. apply NoDup_nth_error. rewrite map_length, seq_length. intros i j Li E. assert (Lj : (j < length p)%nat).
    { destruct (Nat.lt_ge_cases j (length p)); auto. rewrite (proj2 (nth_error_None _ j)) in E by (rewrite map_length, seq_length; lia).
      apply nth_error_None in E. rewrite map_length, seq_length in E. lia. }
    rewrite !nth_error_map in E. rewrite (nth_error_nth' (seq 0 (length p)) O (n := i)), (nth_error_nth' (seq 0 (length p)) O (n := j)) in E by (rewrite seq_length; auto).
    cbn [option_map] in E. injection E as E. rewrite !seq_nth in E by auto. cbn [plus] in E.
    destruct (posn_spec i p) as (_ & E1); [apply Hin, in_seq; lia|]. destruct (posn_spec j p) as (_ & E2); [apply Hin, in_seq; lia|]. congruence.
  - unfold invp. rewrite map_length, seq_length. auto.
  - intros x Hx. apply in_map_iff in Hx. destruct Hx as (y & <- & Hy). rewrite <- L. apply posn_spec. auto.
Qed.
Lemma comp_inv n p : rearrangement n p -> comp p (invp p) = seq 0 n.
Proof.
  intros P. assert (L := rearr_length _ _ P). unfold comp, invp. rewrite map_map, L. rewrite <- (map_id (seq 0 n)) at 2. apply map_ext_in. intros x Hx. apply posn_spec.
  rewrite <- P. auto.
Qed.
Lemma invp_nth n p x : rearrangement n p -> (x < n)%nat -> nth (nth x p O) (invp p) O = x.
Proof.
  intros P Hx. assert (L := rearr_length _ _ P). assert (Hy : (nth x p O < n)%nat) by (apply (rearr_in _ _ _ P); apply nth_In; lia).
  unfold invp. rewrite nth_seq_map by lia. destruct (posn_spec (nth x p O) p) as (L1 & E); [apply nth_In; lia|].
  assert (N := rearr_nodup _ _ P). eapply (proj1 (NoDup_nth p O)); auto. lia.
Qed.
Lemma inv_comp n p : rearrangement n p -> comp (invp p) p = seq 0 n.
Proof.
  intros P. assert (L := rearr_length _ _ P). unfold comp. apply (nth_ext _ _ O O); [rewrite map_length, seq_length; auto|]. intros i Hi. rewrite map_length in Hi.
  rewrite seq_nth by lia. rewrite (nth_indep _ O (nth O (invp p) O)) by (rewrite map_length; auto). rewrite (map_nth (fun a => nth a (invp p) O)). eapply invp_nth; eauto. lia.
Qed.

Section Inverse.
  Context (st : osi) (n : nat) (cs : list econ).
  Hypothesis Hc : Forall (fun c => length c = n) cs.
  Lemma joined_sym A B : joined st cs A B <-> joined st cs B A.
  Proof. unfold joined. split; intros (c & s & H1 & H2 & H3 & H4); exists c, s; (split; [exact H1|split; [exact H2|split; [exact H3|]]]); (destruct H4 as [H4|H4]; [right|left]; lia). Qed.
  Lemma keeps_inv p q : rearrangement n p -> rearrangement (length cs) q -> keeps_joined_order st cs p -> keeps_joined_order st (pick_cons cs p q) (invp p).
  Proof.
    intros P Q K a b (i & j & L & Ei & Ej) Lb J. assert (Pi := invp_rearr _ _ P). assert (Li := rearr_length _ _ Pi). assert (Lp := rearr_length _ _ P).
    assert (Ha : (a < n)%nat) by (apply (rearr_in _ _ _ Pi); eapply nth_error_In; eauto). assert (Hb : (b < n)%nat) by (apply (rearr_in _ _ _ Pi); eapply nth_error_In; eauto).
    assert (i < n)%nat by (rewrite <- Li; apply nth_error_Some; congruence). assert (j < n)%nat by (rewrite <- Li; apply nth_error_Some; congruence).
    apply (joined_pick st n cs Hc) in J; auto.
    assert (Na : nth a p O = i /\ nth b p O = j).
    { assert (F : forall x y, (x < n)%nat -> nth_error (invp p) x = Some y -> nth y p O = x).
      { intros x y Hx E. unfold invp in E. rewrite nth_error_map, Lp in E. rewrite (nth_error_nth' (seq 0 n) O (n := x)) in E by (rewrite seq_length; auto).
        cbn [option_map] in E. injection E as <-. rewrite seq_nth by auto. apply posn_spec. apply (rearr_in _ _ _ P). lia. }
      split; apply F; auto. }
    destruct Na as (Ea & Eb). rewrite Ea, Eb in J. apply (K j i); auto; [|apply joined_sym; exact J].
    exists b, a. rewrite <- Ea, <- Eb. repeat split; auto; apply nth_error_nth'; lia.
  Qed.
End Inverse.

(** Equivalent contractions have the same canonical form. *)
Theorem canon_invariant st ops cs p q ops1 cs1 s1 ops2 cs2 s2 : ops_ok st ops -> Forall (fun c => length c = length ops) cs ->
  rearrangement (length ops) p -> rearrangement (length cs) q -> keeps_joined_order st cs p ->
  canonicalize_graph st ops cs (ops1, cs1, s1) -> canonicalize_graph st (pick_ops ops p) (pick_cons cs p q) (ops2, cs2, s2) ->
  ops1 = ops2 /\ cs1 = cs2.
Proof.
  intros Hok Hc P Q K C1 C2.
  assert (Lo : length (pick_ops ops p) = length ops) by (unfold pick_ops; rewrite map_length; eapply rearr_length; eauto).
  assert (Lc : length (pick_cons cs p q) = length cs) by (unfold pick_cons; rewrite map_length; eapply rearr_length; eauto).
  assert (Hok2 : ops_ok st (pick_ops ops p)).
  { destruct Hok as (H1 & H2). split; auto. rewrite <- (rearr_map ops (mkOp [] gm_zero) _ p eq_refl P). exact H2. }
  destruct (canon_spec _ _ _ _ _ _ Hok C1) as (p1 & q1 & P1 & Q1 & K1 & -> & -> & _ & M1).
  destruct (canon_spec _ _ _ _ _ _ Hok2 C2) as (p2 & q2 & P2 & Q2 & K2 & -> & -> & _ & M2). rewrite Lo in P2. rewrite Lc in Q2.
  rewrite (pick_ops_comp (length ops)) by auto. rewrite (pick_cons_comp (length ops) (length cs)) by auto.
  assert (Pc := comp_rearr _ _ _ P P2). assert (Qc := comp_rearr _ _ _ Q Q2).
  apply preferred_total.
  - rewrite (rearr_length _ _ P1), (rearr_length _ _ Pc). auto.
  - rewrite (rearr_length _ _ Q1), (rearr_length _ _ Qc). auto.
  - (* the first form is a candidate of the second product *)
    assert (Pi := invp_rearr _ _ P). assert (Qi := invp_rearr _ _ Q).
    assert (Hc2 : Forall (fun c => length c = length ops) (pick_cons cs p q)).
    { apply Forall_forall. intros c Hin. apply in_map_iff in Hin. destruct Hin as (k & <- & _). rewrite map_length. eapply rearr_length; eauto. }
    assert (Back : pick_cons (pick_cons cs p q) (invp p) (invp q) = cs).
    { rewrite (pick_cons_comp (length ops) (length cs)) by auto. rewrite (comp_inv _ _ P), (comp_inv _ _ Q). unfold pick_cons.
      transitivity (map (fun i => nth i cs []) (seq 0 (length cs))); [|apply seq_nth_id]. apply map_ext_in. intros c Hin. apply in_seq in Hin. transitivity (map (fun i => nth i (nth c cs []) gm_zero) (seq 0 (length (nth c cs [])))); [|apply seq_nth_id].
      rewrite Forall_forall in Hc. rewrite (Hc (nth c cs [])) by (apply nth_In; lia). reflexivity. }
    specialize (M2 (comp (invp p) p1) (comp (invp q) q1)). rewrite Lo, Lc in M2.
    rewrite (pick_ops_comp (length ops)) in M2 by (auto using comp_rearr). rewrite (pick_ops_comp (length ops)) in M2 by (auto using comp_rearr).
    rewrite (pick_cons_comp (length ops) (length cs)) in M2 by (auto using comp_rearr). rewrite (pick_cons_comp (length ops) (length cs)) in M2 by (auto using comp_rearr).
    assert (Ep : forall n a b, rearrangement n a -> rearrangement n b -> comp a (comp (invp a) b) = b).
    { intros n a b Ra Rb. unfold comp at 1 2. rewrite map_map. rewrite <- (map_id b) at 2. apply map_ext_in. intros x Hx. apply (rearr_in _ _ _ Rb) in Hx.
      assert (La := rearr_length _ _ Ra). unfold invp. rewrite nth_seq_map by lia. apply posn_spec. apply (rearr_in _ _ _ Ra). auto. }
    rewrite (Ep _ _ _ P P1), (Ep _ _ _ Q Q1) in M2. apply M2; auto using comp_rearr.
    apply (keeps_comp st (length ops) (pick_cons cs p q) Hc2 (invp p) (invp q)); auto; [rewrite Lc; auto|apply (keeps_inv st (length ops)); auto|rewrite Back; auto].
  - apply M1; auto. apply (keeps_comp st (length ops) cs Hc p q); auto.
Qed.

(** ** C43: the sign *)
Lemma exchange_filter odd p : exchange_sign odd p = exchange_sign (fun _ => true) (filter odd p).
Proof.
  induction p as [|x p IH]; [reflexivity|]. cbn [exchange_sign filter]. destruct (odd x) eqn:Ox.
  - cbn [exchange_sign]. rewrite <- IH. f_equal. clear IH. induction p as [|y p IH]; [reflexivity|]. cbn [fold_right filter]. rewrite IH. unfold pair_sign. rewrite Ox.
    destruct (odd y); cbn [fold_right].
    + reflexivity.
    + rewrite !andb_false_r. destruct (fold_right _ _ (filter odd p)); reflexivity.
  - rewrite <- IH. assert (fold_right (fun y s => pair_sign odd x y * s) 1 p = 1) as ->; [|destruct (exchange_sign odd p); reflexivity].
    clear IH. induction p as [|y p IH]; [reflexivity|]. cbn [fold_right]. rewrite IH. unfold pair_sign. rewrite Ox, andb_false_r. reflexivity.
Qed.
Lemma map_inj_in {A B} (f : A -> B) : forall l l', (forall x y, In x l -> In y l' -> f x = f y -> x = y) -> map f l = map f l' -> l = l'.
Proof. induction l; intros [|] H E; try discriminate; auto. simpl in E. injection E as E1 E2. f_equal; [apply H; simpl; auto|apply IHl; auto; intros; apply H; simpl; auto]. Qed.
Lemma filter_map {A B} (f : A -> B) P l : map f (filter (fun x => P (f x)) l) = filter P (map f l).
Proof. induction l; simpl; auto. destruct (P (f a)); simpl; congruence. Qed.
Theorem sign_unique st ops cs ops1 cs1 s1 ops2 cs2 s2 : ops_ok st ops ->
  canonicalize_graph st ops cs (ops1, cs1, s1) -> canonicalize_graph st ops cs (ops2, cs2, s2) ->
  ops1 = ops2 /\ cs1 = cs2 /\
  ((forall A B, (A < B < length ops)%nat -> odd_op ops A = true -> nth A ops (mkOp [] gm_zero) <> nth B ops (mkOp [] gm_zero)) -> s1 = s2).
Proof.
  intros Hok C1 C2. destruct (canon_spec _ _ _ _ _ _ Hok C1) as (p1 & q1 & P1 & Q1 & K1 & -> & -> & -> & M1).
  destruct (canon_spec _ _ _ _ _ _ Hok C2) as (p2 & q2 & P2 & Q2 & K2 & -> & -> & -> & M2).
  assert (E : pick_ops ops p1 = pick_ops ops p2 /\ pick_cons cs p1 q1 = pick_cons cs p2 q2).
  { apply preferred_total; [rewrite (rearr_length _ _ P1), (rearr_length _ _ P2); auto|rewrite (rearr_length _ _ Q1), (rearr_length _ _ Q2); auto|apply M2; auto|apply M1; auto]. }
  destruct E as (E1 & E2). repeat split; auto. intros D. rewrite (exchange_filter _ p1), (exchange_filter _ p2). f_equal.
  apply (map_inj_in (fun A => nth A ops (mkOp [] gm_zero))).
  - intros x y Hx Hy E. apply filter_In in Hx, Hy. destruct Hx as (Hx & Ox), Hy as (Hy & Oy). apply (rearr_in _ _ _ P1) in Hx. apply (rearr_in _ _ _ P2) in Hy.
    destruct (lt_eq_lt_dec x y) as [[L|L]|L]; auto; exfalso; [apply (D x y)|apply (D y x)]; auto.
  - unfold odd_op. rewrite !(filter_map (fun A => nth A ops (mkOp [] gm_zero)) (fun o => Z.odd (op_num o))). f_equal. exact E1.
Qed.
