(** Proofs about the elementary contractions: general spaces and the whole list. *)
From Coq Require Import ZArith List Bool Arith Lia Permutation Sorted.
From Verif Require Import Res PartitionsModel PartitionsSpec PartitionsProofs RegistryModel CoreModel AlgebraModel AlgebraSpec
  OperatorModel OperatorSpec OperatorProofs SortModel SortSpec SortProofs NextPermModel NextPermProofs WickSearchModel WickSearchSpec WickElemProofs.
Import ListNotations.
Local Open Scope Z_scope.

Lemma fold_total n f a : fold_left (fun a A => a + f A) (seq 0 n) a = a + total n f.
Proof. revert a. induction n as [|n IH]; intros a; [simpl; lia|]. rewrite seq_S, fold_left_app, IH. cbn [fold_left total]. rewrite Nat.add_0_l. lia. Qed.
Lemma total_le n f g : (forall A, (A < n)%nat -> f A <= g A) -> total n f <= total n g.
Proof. induction n as [|n IH]; intros H; simpl; [lia|]. specialize (IH ltac:(intros; apply H; lia)). specialize (H n ltac:(lia)). lia. Qed.
Lemma total_ext n f g : (forall A, (A < n)%nat -> f A = g A) -> total n f = total n g.
Proof. induction n as [|n IH]; intros H; simpl; [lia|]. rewrite (IH ltac:(intros; apply H; lia)), (H n ltac:(lia)). lia. Qed.
Lemma total_add n f g : total n (fun A => f A + g A) = total n f + total n g.
Proof. induction n as [|n IH]; simpl; lia. Qed.
Lemma zsum_total p : zsum p = total (length p) (fun A => nth A p 0).
Proof.
  assert (G : forall l x, zsum (l ++ [x]) = zsum l + x) by (intros; rewrite zsum_app; unfold zsum; simpl; lia).
  induction p as [|x p IH] using rev_ind; [reflexivity|]. rewrite G, IH, app_length. simpl. rewrite Nat.add_1_r. cbn [total].
  rewrite app_nth2, Nat.sub_diag by lia. simpl. f_equal. apply total_ext. intros A HA. rewrite app_nth1 by auto. reflexivity.
Qed.
Lemma count_filter {T} (p : T -> bool) l a : fold_left (fun n A => n + (if p A then 1 else 0)) l a = a + Z.of_nat (length (filter p l)).
Proof. revert a. induction l as [|x l IH]; intros a; cbn [fold_left filter length]; [lia|]. rewrite IH. destruct (p x); cbn [length]; lia. Qed.
Lemma two_in (p : nat -> bool) n : (2 <= length (filter p (seq 0 n)))%nat <-> exists A B, (A < B < n)%nat /\ p A = true /\ p B = true.
Proof.
  split.
  - intros H. destruct (filter p (seq 0 n)) as [|a [|b m]] eqn:E; simpl in H; try lia.
    assert (Ia : In a (filter p (seq 0 n))) by (rewrite E; simpl; auto). assert (Ib : In b (filter p (seq 0 n))) by (rewrite E; simpl; auto).
    apply filter_In in Ia. apply filter_In in Ib. rewrite in_seq in *.
    assert (N : NoDup (filter p (seq 0 n))) by (apply NoDup_filter, seq_NoDup). rewrite E in N. inversion N as [|? ? Na _]; subst. simpl in Na.
    destruct (Nat.lt_trichotomy a b) as [L|[L|L]]; [exists a, b|exfalso; subst; tauto|exists b, a]; repeat split; try tauto; lia.
  - intros (A & B & H & pA & pB). change 2%nat with (length [A; B]). apply NoDup_incl_length.
    + constructor; [simpl; lia|constructor; [simpl; tauto|constructor]].
    + intros x [<-|[<-|[]]]; apply filter_In; rewrite in_seq; split; auto; lia.
Qed.

Section G.
  Variables (st : osi) (ops : oprod) (s : nat).
  Hypothesis OK : ops_ok st ops.
  Hypothesis Hs : (s < nsp st)%nat.
  Let n := length ops.
  Let zs := Z.of_nat s.

  Definition gen_k (k : Z) (c : econ) : Prop := exists f g,
    c = mk_ec n zs f g /\ total n f = k /\ total n g = k /\
    (forall A, (A < n)%nat -> 0 <= f A <= ops_cre ops A zs /\ 0 <= g A <= ops_ann ops A zs) /\
    exists A B, (A < B < n)%nat /\ 0 < f A + g A /\ 0 < f B + g B.

  Lemma combine_spec cl al c : length cl = n -> length al = n -> (In c (combine_legs n zs cl al) <->
    c = mk_ec n zs (fun A => nth A cl 0) (fun A => nth A al 0) /\ exists A B, (A < B < n)%nat /\ 0 < nth A cl 0 + nth A al 0 /\ 0 < nth B cl 0 + nth B al 0).
  Proof.
    intros L1 L2. unfold combine_legs. rewrite count_filter, Z.add_0_l.
    assert (T := two_in (fun A => 0 <? nth A cl 0 + nth A al 0) n). destruct (Z.ltb_spec (Z.of_nat (length (filter (fun A => 0 <? nth A cl 0 + nth A al 0) (seq 0 n)))) 2).
    - split; [intros []|]. intros (_ & A & B & HAB & P1 & P2). exfalso. enough (2 <= length (filter (fun A => 0 <? nth A cl 0 + nth A al 0)%Z (seq 0 n)))%nat by lia.
      apply T. exists A, B. rewrite !Z.ltb_lt. auto.
    - split.
      + intros [<-|[]]. split; [reflexivity|]. destruct T as [T _]. destruct T as (A & B & HAB & P1 & P2); [lia|]. rewrite !Z.ltb_lt in *. eauto.
      + intros (-> & _). simpl. auto.
  Qed.

  Lemma general_k_spec k : (1 <= n)%nat -> 1 <= k -> exists L f0,
    (forall fuel, (f0 <= fuel)%nat -> general_legs fuel ops zs k = Ok L) /\ NoDup L /\ forall c, In c L <-> gen_k k c.
  Proof.
    intros Hn Hk. destruct (legs_vec_spec n k (fun A => ops_cre ops A zs) Hn Hk) as (CV & f1 & E1 & N1 & M1).
    destruct (legs_vec_spec n k (fun A => ops_ann ops A zs) Hn Hk) as (AV & f2 & E2 & N2 & M2).
    exists (flat_map (fun cl => flat_map (combine_legs n zs cl) AV) CV), (Nat.max f1 f2). split; [|split].
    - intros fuel Hf. unfold general_legs. fold n. rewrite E1 by lia. cbn [bind]. rewrite E2 by lia. reflexivity.
    - assert (J : forall cl al cl' al' c, In cl CV -> In cl' CV -> In al AV -> In al' AV -> In c (combine_legs n zs cl al) -> In c (combine_legs n zs cl' al') -> cl = cl' /\ al = al').
      { intros cl al cl' al' c H1 H2 H3 H4 I1 I2. apply M1 in H1. apply M1 in H2. apply M2 in H3. apply M2 in H4.
        destruct H1 as (L1 & _ & _), H2 as (L2 & _ & _), H3 as (L3 & _ & _), H4 as (L4 & _ & _).
        apply combine_spec in I1; auto. apply combine_spec in I2; auto. destruct I1 as [-> _], I2 as [E _].
        pose proof (mk_ec_inj _ _ _ _ _ _ (s8 _ _ _ OK Hs) E) as J.
        split; (apply (nth_ext _ _ 0 0); [congruence|]); intros A HA; apply J; lia. }
      apply nodup_flat_map; auto.
      + intros cl Hcl. apply nodup_flat_map; auto.
        * intros al _. unfold combine_legs. destruct (_ <? 2); repeat constructor; simpl; tauto.
        * intros al al' c H1 H2 I1 I2. destruct (J cl al cl al' c); auto.
      + intros cl cl' c H1 H2 I1 I2. apply in_flat_map in I1. apply in_flat_map in I2. destruct I1 as (al & ? & I1), I2 as (al' & ? & I2). destruct (J cl al cl' al' c); auto.
    - intros c. rewrite in_flat_map. split.
      + intros (cl & Hcl & I). apply in_flat_map in I. destruct I as (al & Hal & I). apply M1 in Hcl. apply M2 in Hal.
        destruct Hcl as (L1 & S1 & F1), Hal as (L2 & S2 & F2). apply combine_spec in I; auto. destruct I as (-> & T).
        exists (fun A => nth A cl 0), (fun A => nth A al 0). rewrite zsum_total in S1, S2. rewrite L1 in S1. rewrite L2 in S2. repeat split; auto; try (apply F1; auto); apply F2; auto.
      + intros (f & g & -> & T1 & T2 & F & X). exists (map f (seq 0 n)). assert (L : forall h : nat -> Z, length (map h (seq 0 n)) = n) by (intros; rewrite map_length, seq_length; auto).
        split.
        * apply M1. split; [apply L|]. split; [rewrite zsum_total, L, <- T1; apply total_ext; intros; apply nth_seq_map; auto|]. intros A HA. rewrite nth_seq_map by auto. apply F; auto.
        * apply in_flat_map. exists (map g (seq 0 n)). split.
          -- apply M2. split; [apply L|]. split; [rewrite zsum_total, L, <- T2; apply total_ext; intros; apply nth_seq_map; auto|]. intros A HA. rewrite nth_seq_map by auto. apply F; auto.
          -- apply combine_spec; auto. split; [apply mk_ec_ext; intros; rewrite !nth_seq_map by auto; auto|].
             destruct X as (A & B & H & P1 & P2). exists A, B. rewrite !nth_seq_map by lia. auto.
  Qed.

  Lemma general_spec maxc : exists L f0, (forall fuel, (f0 <= fuel)%nat -> elementary_general fuel maxc ops zs = Ok L) /\ NoDup L /\
    forall c, In c L <-> exists k, 1 <= k <= maxc /\ gen_k k c.
  Proof.
    set (ks := map (fun k => k + 1) (range (max_half_legs maxc ops zs))).
    assert (K : forall k, In k ks <-> 1 <= k <= max_half_legs maxc ops zs).
    { intros k. unfold ks, range. rewrite map_map, in_map_iff. split.
      - intros (i & <- & Hi). apply in_seq in Hi. lia.
      - intros H. exists (Z.to_nat (k - 1)). split; [lia|]. apply in_seq. lia. }
    assert (Sc : sum_cre ops zs = total n (fun A => ops_cre ops A zs)) by (unfold sum_cre; rewrite fold_total; reflexivity).
    assert (Sa : sum_ann ops zs = total n (fun A => ops_ann ops A zs)) by (unfold sum_ann; rewrite fold_total; reflexivity).
    destruct (collect gen_k (fun fuel k => general_legs fuel ops zs k) ks) as (R & f0 & E & N & M).
    - unfold ks, range. rewrite map_map. apply FinFun.Injective_map_NoDup; [intros x y; lia|apply seq_NoDup].
    - intros k k' c _ _ (f & g & -> & T1 & _) (f' & g' & E & T2 & _). pose proof (mk_ec_inj _ _ _ _ _ _ (s8 _ _ _ OK Hs) E) as J.
      rewrite <- T1, <- T2. apply total_ext. intros A HA. apply J; auto.
    - intros k Hk. apply K in Hk. apply general_k_spec; [|lia].
      unfold max_half_legs in Hk. rewrite Sc in Hk. destruct n; [simpl in Hk; lia|lia].
    - exists R, f0. split; [|split; auto].
      + intros fuel Hf. unfold elementary_general. exact (E fuel Hf []).
      + intros c. rewrite M. split.
        * intros (k & Hk & Q). apply K in Hk. exists k. split; auto. unfold max_half_legs in Hk. lia.
        * intros (k & Hk & Q). exists k. split; auto. apply K. unfold max_half_legs. rewrite Sc, Sa. destruct Q as (f & g & _ & T1 & T2 & F & _).
          assert (total n f <= total n (fun A => ops_cre ops A zs)) by (apply total_le; intros; apply F; auto).
          assert (total n g <= total n (fun A => ops_ann ops A zs)) by (apply total_le; intros; apply F; auto). lia.
  Qed.
End G.

(** Contractions of one space, by kind of space. *)
Definition in_space (st : osi) (maxc : Z) (ops : oprod) (s : nat) (c : econ) : Prop :=
  match stype st (Z.of_nat s) with
  | Some Occupied => exists l r, (l < r < length ops)%nat /\ 1 <= ops_cre ops l (Z.of_nat s) /\ 1 <= ops_ann ops r (Z.of_nat s) /\ c = mk_ec (length ops) (Z.of_nat s) (delta l) (delta r)
  | Some Unoccupied => exists l r, (l < r < length ops)%nat /\ 1 <= ops_ann ops l (Z.of_nat s) /\ 1 <= ops_cre ops r (Z.of_nat s) /\ c = mk_ec (length ops) (Z.of_nat s) (delta r) (delta l)
  | Some General => exists k, 1 <= k <= maxc /\ gen_k ops s k c
  | None => False
  end.

Lemma in_space_leg st maxc ops s c : ops_ok st ops -> (s < nsp st)%nat -> in_space st maxc ops s c ->
  con_shape st (length ops) c /\ only_space st c (Z.of_nat s) /\ exists A, (A < length ops)%nat /\ 0 < ec_cre c A (Z.of_nat s) + ec_ann c A (Z.of_nat s).
Proof.
  intros OK Hs H. assert (H8 := s8 _ _ _ OK Hs). destruct OK as [Hn _]. unfold in_space in H. destruct (stype st (Z.of_nat s)) as [[| |]|]; [| | |tauto].
  - destruct H as (l & r & L & _ & _ & ->). split; [apply mk_ec_shape; auto|]. split; [apply mk_ec_only; auto|]. exists l. split; [lia|].
    destruct (mk_ec_counts (length ops) s (delta l) (delta r) l s H8 ltac:(lia)) as [-> ->]. rewrite Nat.eqb_refl. unfold delta. destruct (Nat.eq_dec l l), (Nat.eq_dec l r); lia.
  - destruct H as (l & r & L & _ & _ & ->). split; [apply mk_ec_shape; auto|]. split; [apply mk_ec_only; auto|]. exists l. split; [lia|].
    destruct (mk_ec_counts (length ops) s (delta r) (delta l) l s H8 ltac:(lia)) as [-> ->]. rewrite Nat.eqb_refl. unfold delta. destruct (Nat.eq_dec l l), (Nat.eq_dec l r); lia.
  - destruct H as (k & _ & f & g & -> & _ & _ & _ & A & B & L & P & _). split; [apply mk_ec_shape; auto|]. split; [apply mk_ec_only; auto|]. exists A. split; [lia|].
    destruct (mk_ec_counts (length ops) s f g A s H8 ltac:(lia)) as [-> ->]. rewrite Nat.eqb_refl. exact P.
Qed.

Lemma in_space_allowed st maxc ops c : ops_ok st ops -> (allowed st maxc ops c <-> exists s, (s < nsp st)%nat /\ in_space st maxc ops s c).
Proof.
  intros OK. assert (Hn := proj1 OK). split.
  - intros [s l r Sh Is Os Ty L U1 U2 C1 C2|s l r Sh Is Os Ty L U1 U2 C1 C2|s k Sh Is Os Ty K T1 T2 F X]; apply is_space_nat in Is; destruct Is as (i & -> & Hi);
      exists i; (split; [auto|]); unfold in_space; rewrite Ty.
    + exists l, r. repeat split; auto; try lia. rewrite (mk_ec_unique st (length ops) i c) at 1 by auto. apply mk_ec_ext. intros A HA. rewrite (U1 A HA), (U2 A HA). auto.
    + exists l, r. repeat split; auto; try lia. rewrite (mk_ec_unique st (length ops) i c) at 1 by auto. apply mk_ec_ext. intros A HA. rewrite (U1 A HA), (U2 A HA). auto.
    + exists k. split; auto. exists (fun A => ec_cre c A (Z.of_nat i)), (fun A => ec_ann c A (Z.of_nat i)). repeat split; auto; try (apply F; auto).
      apply (mk_ec_unique st); auto.
  - intros (s & Hs & H). destruct (in_space_leg _ _ _ _ _ OK Hs H) as (Sh & Os & _). assert (H8 := s8 _ _ _ OK Hs). assert (Is := nat_is_space _ _ Hs).
    assert (CT := fun f g A HA => mk_ec_counts (length ops) s f g A s H8 HA). setoid_rewrite Nat.eqb_refl in CT.
    unfold in_space in H. destruct (stype st (Z.of_nat s)) as [[| |]|] eqn:Ty; [| | |tauto].
    + destruct H as (l & r & L & C1 & C2 & ->). apply (al_occ _ _ _ _ (Z.of_nat s) l r); auto; intros A HA; destruct (CT (delta l) (delta r) A HA) as [E1 E2]; [rewrite E1|rewrite E2]; reflexivity.
    + destruct H as (l & r & L & C1 & C2 & ->). apply (al_unocc _ _ _ _ (Z.of_nat s) l r); auto; intros A HA; destruct (CT (delta r) (delta l) A HA) as [E1 E2]; [rewrite E2|rewrite E1]; reflexivity.
    + destruct H as (k & K & f & g & -> & T1 & T2 & F & A & B & L & P1 & P2). apply (al_gen _ _ _ _ (Z.of_nat s) k); auto.
      * rewrite <- T1. apply total_ext. intros A' HA. apply CT; auto.
      * rewrite <- T2. apply total_ext. intros A' HA. apply CT; auto.
      * intros A' HA. destruct (CT f g A' HA) as [-> ->]. apply F; auto.
      * exists A, B. split; auto. destruct (CT f g A ltac:(lia)) as [-> ->], (CT f g B ltac:(lia)) as [-> ->]. auto.
Qed.

Lemma stype_reg st s : (s < nsp st)%nat -> stype st (Z.of_nat s) <> None.
Proof. intros H. unfold stype. rewrite aget_nat. destruct (nth_error (space_info st) s) eqn:E; [discriminate|]. apply nth_error_None in E. lia. Qed.

Theorem elementary_exact st maxc ops : ops_ok st ops -> exists L f0,
  (forall fuel, (f0 <= fuel)%nat -> elementary_contractions fuel st maxc ops = Ok L) /\ NoDup L /\ forall c, In c L <-> allowed st maxc ops c.
Proof.
  intros OK. set (g := fun (fuel : nat) (s : Z) => match stype st s with
    | Some Occupied => Ok (elementary_occupied ops s)
    | Some Unoccupied => Ok (elementary_unoccupied ops s)
    | Some General => elementary_general fuel maxc ops s | None => UB end).
  destruct (collect (fun z c => in_space st maxc ops (Z.to_nat z) c) g (range (num_spaces st))) as (R & f0 & E & N & M).
  - rewrite range_spaces. apply FinFun.Injective_map_NoDup; [intros x y Exy; lia|apply seq_NoDup].
  - intros a b c Ha Hb Qa Qb. rewrite range_spaces in Ha, Hb. apply in_map_iff in Ha. apply in_map_iff in Hb. destruct Ha as (i & <- & Hi), Hb as (j & <- & Hj).
    apply in_seq in Hi. apply in_seq in Hj. rewrite Nat2Z.id in *. destruct (Nat.eq_dec i j) as [->|Ne]; auto.
    assert (Hi' : (i < nsp st)%nat) by lia. assert (Hj' : (j < nsp st)%nat) by lia. destruct (in_space_leg _ _ _ _ _ OK Hi' Qa) as ((Lc & _) & _ & A & HA & P). destruct (in_space_leg _ _ _ _ _ OK Hj' Qb) as (_ & O & _).
    destruct (O A (Z.of_nat i) ltac:(lia) ltac:(apply nat_is_space; lia) ltac:(lia)) as [E1 E2]. lia.
  - intros a Ha. rewrite range_spaces in Ha. apply in_map_iff in Ha. destruct Ha as (i & <- & Hi). apply in_seq in Hi. rewrite Nat2Z.id.
    unfold in_space, g. destruct (stype st (Z.of_nat i)) as [[| |]|] eqn:Ty; [| | |exfalso; eapply stype_reg; [|exact Ty]; lia].
    + destruct (occ_spec st ops i OK ltac:(lia)) as [N M]. eexists _, 0%nat. eauto.
    + destruct (unocc_spec st ops i OK ltac:(lia)) as [N M]. eexists _, 0%nat. eauto.
    + apply (general_spec st ops i OK ltac:(lia) maxc).
  - exists R, f0. split; [|split; auto].
    + intros fuel Hf. unfold elementary_contractions. etransitivity; [|exact (E fuel Hf [])]. apply foldM_ext. intros v s. unfold g.
      destruct (stype st s) as [[| |]|]; reflexivity.
    + intros c. rewrite M, in_space_allowed by auto. split.
      * intros (z & Hz & Q). rewrite range_spaces in Hz. apply in_map_iff in Hz. destruct Hz as (i & <- & Hi). apply in_seq in Hi. rewrite Nat2Z.id in Q. exists i. split; auto. lia.
      * intros (i & Hi & Q). exists (Z.of_nat i). rewrite Nat2Z.id. split; auto. rewrite range_spaces. apply in_map. apply in_seq. lia.
Qed.
