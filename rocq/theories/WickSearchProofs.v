(** The search on the generated elementary contractions. *)
From Coq Require Import ZArith List Bool Arith Lia Permutation Sorted.
From Verif Require Import Res PartitionsModel PartitionsSpec RegistryModel CoreModel AlgebraModel AlgebraSpec
  OperatorModel OperatorSpec OperatorProofs NextPermProofs WickSearchModel WickSearchSpec WickElemProofs WickElemProofs2 WickCompProofs.
Import ListNotations.
Local Open Scope Z_scope.

Lemma gsum_at g s : (forall i, i <> s -> nthp g i = (0, 0)) -> (s < length g)%nat -> gsum g = fst (nthp g s) + snd (nthp g s).
Proof.
  revert s. induction g as [|p g IH]; intros s H L; simpl in *; [lia|]. destruct s as [|s].
  - assert (G0 : gsum g = 0); [|rewrite G0; unfold nthp; simpl; lia]. clear IH L. assert (H' : forall i, nthp g i = (0, 0)) by (intros i; apply (H (S i)); lia). clear H.
    induction g as [|q g IH]; auto. simpl. assert (E := H' 0%nat). unfold nthp in E. simpl in E. subst q. rewrite IH; [auto|]. intros i. apply (H' (S i)).
  - assert (E := H 0%nat ltac:(lia)). unfold nthp in E. simpl in E. subst p. rewrite (IH s); [reflexivity| |lia]. intros i Hi. apply (H (S i)). lia.
Qed.
Lemma mk_ec_num n s f g : (s < max_spaces)%nat -> ec_num_ops (mk_ec n (Z.of_nat s) f g) = total n f + total n g.
Proof.
  intros Hs. unfold ec_num_ops. rewrite fold_sum_total. unfold mk_ec at 1. rewrite map_length, seq_length, <- total_add. apply total_ext. intros A HA.
  unfold mk_ec. rewrite nth_seq_map by auto. destruct (gm1_spec s (f A) (g A) Hs) as [L E]. rewrite gm_num_sum, (gsum_at _ s).
  - rewrite E, Nat.eqb_refl. reflexivity.
  - intros i Hi. rewrite E. destruct (Nat.eqb_spec i s); [lia|reflexivity].
  - rewrite L. exact Hs.
Qed.
Lemma total_delta n l : (l < n)%nat -> total n (delta l) = 1.
Proof.
  induction n as [|n IH]; intros H; [lia|]. simpl. destruct (Nat.eq_dec l n) as [->|].
  - assert (E : total n (delta n) = 0). { clear. enough (forall m, (m <= n)%nat -> total m (delta n) = 0) by auto. induction m; intros H; simpl; auto. rewrite IHm by lia. unfold delta. destruct (Nat.eq_dec m n); lia. }
    rewrite E. unfold delta. destruct (Nat.eq_dec n n); lia.
  - rewrite IH by lia. unfold delta. destruct (Nat.eq_dec n l); lia.
Qed.

Lemma allowed_legs st maxc ops c : ops_ok st ops -> allowed st maxc ops c -> con_shape st (length ops) c /\ 2 <= ec_num_ops c /\
  forall A s, (A < length ops)%nat -> is_space st s -> 0 <= ec_cre c A s /\ 0 <= ec_ann c A s.
Proof.
  intros OK H. apply in_space_allowed in H; auto. destruct H as (s & Hs & H). destruct (in_space_leg _ _ _ _ _ OK Hs H) as (Sh & _ & _).
  assert (H8 := s8 _ _ _ OK Hs). split; auto. unfold in_space in H. assert (D : forall l A, 0 <= delta l A) by (intros l A; unfold delta; destruct (Nat.eq_dec A l); lia).
  assert (CT := fun f g A s' HA => mk_ec_counts (length ops) s f g A s' H8 HA).
  destruct (stype st (Z.of_nat s)) as [[| |]|]; [| | |tauto].
  - destruct H as (l & r & L & _ & _ & ->). rewrite mk_ec_num, !total_delta by lia. split; [lia|]. intros A s' HA Hs'. apply is_space_nat in Hs'. destruct Hs' as (i & -> & _).
    destruct (CT (delta l) (delta r) A i HA) as [-> ->]. destruct (i =? s)%nat; auto; split; try lia; apply D.
  - destruct H as (l & r & L & _ & _ & ->). rewrite mk_ec_num, !total_delta by lia. split; [lia|]. intros A s' HA Hs'. apply is_space_nat in Hs'. destruct Hs' as (i & -> & _).
    destruct (CT (delta r) (delta l) A i HA) as [-> ->]. destruct (i =? s)%nat; auto; split; try lia; apply D.
  - destruct H as (k & K & f & g & -> & T1 & T2 & F & _). rewrite mk_ec_num by auto. split; [lia|]. intros A s' HA Hs'. apply is_space_nat in Hs'. destruct Hs' as (i & -> & _).
    destruct (CT f g A i HA) as [-> ->]. destruct (i =? s)%nat; [|lia]. specialize (F A HA). lia.
Qed.

Section S.
  Variables (fuel : nat) (st : osi) (maxc : Z) (ops : oprod) (els : list econ) (minrank maxrank : Z).
  Hypothesis OK : ops_ok st ops.
  Hypothesis EL : elementary_contractions fuel st maxc ops = Ok els.

  Lemma els_allowed : NoDup els /\ forall c, In c els <-> allowed st maxc ops c.
  Proof.
    destruct (elementary_exact st maxc ops OK) as (L & f0 & E & N & M). assert (EL' : elementary_contractions (Nat.max fuel f0) st maxc ops = Ok els).
    { (* more fuel does not change a result *)
      clear - EL. revert EL. set (f' := Nat.max fuel f0). assert (Hf : (fuel <= f')%nat) by (unfold f'; lia). clearbody f'.
      assert (INN : forall f f', (f <= f')%nat -> forall x m j r, zs2_inner f x m j = Ok r -> zs2_inner f' x m j = Ok r).
      { clear. induction f as [|f IH]; intros f' H x m j r; [discriminate|]. destruct f' as [|f']; [lia|]. cbn [zs2_inner].
        destruct (aget x j); cbn [bind]; auto. destruct (aget x (m - 1)); cbn [bind]; auto. destruct (a =? a0); auto. destruct (aset x j 1); cbn [bind]; auto. apply IH. lia. }
      assert (STP : forall f f', (f <= f')%nat -> forall x h m r, zs2_step f x h m = Ok r -> zs2_step f' x h m = Ok r).
      { intros f1 f2 H x h m r. unfold zs2_step. destruct (1 <? m - h); auto. intros E. apply bind_Ok in E. destruct E as (p & E & E2). rewrite (INN _ _ H _ _ _ _ E). exact E2. }
      assert (LOOP : forall f f', (f <= f')%nat -> forall n ml x h m acc r, zs2_loop f n ml x h m acc = Ok r -> zs2_loop f' n ml x h m acc = Ok r).
      { induction f as [|f IH]; intros f2 H n ml x h m acc r; [discriminate|]. destruct f2 as [|f2]; [lia|]. intros E. cbn [zs2_loop] in *.
        destruct (aget x 1); cbn [bind] in *; auto. destruct (a =? n); auto. apply bind_Ok in E. destruct E as (p & E1 & E2). rewrite (STP _ _ H _ _ _ _ E1). cbn [bind].
        destruct p as [[x' h'] m']. apply bind_Ok in E2. destruct E2 as (acc' & E2 & E3). rewrite E2. cbn [bind]. apply IH; auto. lia. }
      assert (IP : forall n ml r, integer_partitions fuel n ml = Ok r -> integer_partitions f' n ml = Ok r).
      { intros n ml r. unfold integer_partitions. destruct (1 <? n); auto. cbv zeta. intros E. apply bind_Ok in E. destruct E as (a1 & E1 & E). apply bind_Ok in E. destruct E as (a2 & E2 & E). apply bind_Ok in E. destruct E as (a3 & E3 & E).
        apply bind_Ok in E. destruct E as (a4 & E4 & E). rewrite E1; cbn [bind]; rewrite E2; cbn [bind]; rewrite E3; cbn [bind]; rewrite E4; cbn [bind]. eapply LOOP; eauto. }
      assert (LV : forall n k c r, legs_vec fuel n k c = Ok r -> legs_vec f' n k c = Ok r).
      { intros n k c r E. unfold legs_vec in *. apply bind_Ok in E. destruct E as (p & E & E2). rewrite (IP _ _ _ E). exact E2. }
      assert (GL : forall s k r, general_legs fuel ops s k = Ok r -> general_legs f' ops s k = Ok r).
      { intros s k r E. unfold general_legs in *. apply bind_Ok in E. destruct E as (p & E & E2). rewrite (LV _ _ _ _ E). cbn [bind]. apply bind_Ok in E2. destruct E2 as (p2 & E2 & E3). rewrite (LV _ _ _ _ E2). exact E3. }
      assert (FM : forall {S A} (f g : S -> A -> res S) l s r, (forall s a r, f s a = Ok r -> g s a = Ok r) -> foldM f s l = Ok r -> foldM g s l = Ok r).
      { clear. intros S A f g l. induction l as [|a l IH]; intros s r H E; cbn [foldM] in *; auto. apply bind_Ok in E. destruct E as (p & E & E2). rewrite (H _ _ _ E). cbn [bind]. eauto. }
      apply FM. intros v s r. destruct (stype st s) as [[| |]|]; auto. intros E. apply bind_Ok in E. destruct E as (p & E & E2). unfold elementary_general in E.
      eapply FM with (g := fun v k => bind (general_legs f' ops s k) (fun r => Ok (v ++ r))) in E.
      - unfold elementary_general. rewrite E. exact E2.
      - intros v' k r' E'. apply bind_Ok in E'. destruct E' as (q & E' & E''). rewrite (GL _ _ _ E'). exact E''. }
    rewrite E in EL' by lia. injection EL' as <-. auto.
  Qed.
  Lemma els_ok : Forall (fun c => con_shape st (length ops) c /\ forall A s, (A < length ops)%nat -> is_space st s -> 0 <= ec_cre c A s /\ 0 <= ec_ann c A s) els.
  Proof. apply Forall_forall. intros c Hc. apply els_allowed in Hc. apply allowed_legs in Hc; auto. tauto. Qed.

  Lemma left_over_nonneg cs : is_multiset els cs -> compatible st els ops cs -> 0 <= left_over els ops cs.
  Proof.
    intros [_ F] C. rewrite <- (free_num st ops els OK els_ok) by exact F. unfold sum_num_ops. rewrite fold_sum_total.
    destruct (free_shape st ops els OK els_ok cs F) as [L V]. rewrite L.
    assert (T0 : forall n f, (forall A, (A < n)%nat -> 0 <= f A) -> 0 <= total n f).
    { induction n; intros f H; simpl; [lia|]. specialize (IHn f ltac:(intros; apply H; lia)). specialize (H n ltac:(lia)). lia. }
    apply T0. intros A HA. rewrite gm_num_sum. specialize (V A HA). assert (P : forall i, 0 <= fst (nthp (nth A (free_of st ops els cs) gm_zero) i) /\ 0 <= snd (nthp (nth A (free_of st ops els cs) gm_zero) i)).
    { intros i. destruct (Nat.lt_ge_cases i (nsp st)) as [Hi|Hi].
      - destruct (free_counts st ops els OK els_ok cs A i F HA) as [E1 E2]. rewrite cre_of_nat in E1. rewrite ann_of_nat in E2. rewrite E1, E2.
        specialize (C A (Z.of_nat i) HA (nat_is_space _ _ Hi)). lia.
      - destruct V as [Lv V]. destruct (Nat.lt_ge_cases i max_spaces); [rewrite (nthp_of _ _ _ (V i ltac:(lia)))|unfold nthp; rewrite nth_overflow by lia]; simpl; lia. }
    revert P. generalize (nth A (free_of st ops els cs) gm_zero). clear. intros g. induction g as [|p g IH]; intros P; simpl; [lia|].
    assert (P0 := P 0%nat). unfold nthp in P0. simpl in P0. specialize (IH (fun i => P (S i))). lia.
  Qed.
  Lemma short_enough cs : is_multiset els cs -> compatible st els ops cs -> 2 * Z.of_nat (length cs) <= fold_left (fun a o => a + op_num o) ops 0.
  Proof.
    intros M C. assert (L := left_over_nonneg cs M C). unfold left_over in L. enough (2 * Z.of_nat (length cs) <= used ec_num_ops els cs) by lia.
    destruct M as [_ F]. clear C L. induction F as [|c cs Hc F IH]; [simpl; lia|]. cbn [length used].
    assert (2 <= ec_num_ops (nth (Z.to_nat c) els [])). { apply (allowed_legs st maxc ops); auto. apply els_allowed. apply nth_In. lia. } lia.
  Qed.

  Lemma search_ok depth : (101 <= depth)%nat -> (forall cs, is_multiset els cs -> compatible st els ops cs -> (length cs <= 100)%nat) ->
    exists L, composite_contractions depth st els ops minrank maxrank = Ok (L, map op_gm ops) /\ NoDup L /\
      forall cs, In cs L <-> is_multiset els cs /\ compatible st els ops cs /\ minrank <= left_over els ops cs <= maxrank.
  Proof.
    intros Hd B. destruct (search_spec st ops els minrank maxrank OK els_ok depth Hd) as [(L & E & N & I & _)|(_ & cs & M & C & Lc)].
    - exists L. split; auto. split; auto. intros cs. rewrite I. unfold rank_ok. tauto.
    - specialize (B cs M C). lia.
  Qed.
  Lemma search_ub depth : (101 <= depth)%nat -> (composite_contractions depth st els ops minrank maxrank = UB <->
    exists cs, is_multiset els cs /\ compatible st els ops cs /\ (100 < length cs)%nat).
  Proof.
    intros Hd. destruct (search_spec st ops els minrank maxrank OK els_ok depth Hd) as [(L & E & N & I & B)|(E & cs & M & C & Lc)].
    - split; [rewrite E; discriminate|]. intros (cs & M & C & Lc). specialize (B cs M C). lia.
    - split; auto. intros _. exists cs. split; [exact M|]. split; [exact C|lia].
  Qed.
  Lemma search_201 depth : (101 <= depth)%nat -> fold_left (fun a o => a + op_num o) ops 0 <= 201 -> exists L, composite_contractions depth st els ops minrank maxrank = Ok (L, map op_gm ops).
  Proof.
    intros Hd H. destruct (search_ok depth Hd) as (L & E & _); eauto. intros cs M C. assert (S := short_enough cs M C). lia.
  Qed.
End S.
