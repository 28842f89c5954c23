From Coq Require Import Ascii ZArith List Bool Arith Lia Permutation Sorted.
From Verif Require Import Res PartitionsModel RegistryModel RegistryProofs CoreModel OrderProofs SortSpec SortModel SortProofs AdjointModel OperatorModel OperatorSpec OperatorProofs
  WickSearchModel WickSearchSpec WickElemProofs WickEvalModel CountSpec CountProofs WickCombSpec WickCombProofs WickLegSpec WickLegProofs.
Import ListNotations.
Local Open Scope Z_scope.

(** ** The legs taken by a contraction *)
Definition gcount (g : gmat) (s : Z) (b : bool) : Z := if b then cre_of g s else ann_of g s.
Definition pick1 (c : econ) (s : Z) (F : nat -> Z -> bool -> Z) (b : bool) (v : nat) : list leg :=
  map (fun i => ((v, s, b), F v s b + i) : leg) (range (ec_count c (v, s, b))).
Definition pick (n : nat) (c : econ) (s : Z) (F : nat -> Z -> bool -> Z) (b : bool) : list leg := flat_map (pick1 c s F b) (seq 0 n).
Definition oinv (st : osi) (n : nat) (off : list gmat) (F : nat -> Z -> bool -> Z) : Prop :=
  length off = n /\ forall v, (v < n)%nat -> length (nth v off gm_zero) = max_spaces /\ forall s b, is_space st s -> gcount (nth v off gm_zero) s b = F v s b.

Lemma in_pick1 c s F b v l : In l (pick1 c s F b v) <-> fst l = (v, s, b) /\ F v s b <= snd l < F v s b + ec_count c (v, s, b).
Proof.
  unfold pick1. rewrite in_map_iff. destruct l as [k j]. split.
  - intros (i & E & Hi). injection E as <- <-. apply range_in in Hi. cbn [fst snd]. split; [reflexivity|lia].
  - cbn [fst snd]. intros (-> & H). exists (j - F v s b). split; [f_equal; lia|]. apply range_in. lia.
Qed.
Lemma in_pick n c s F b l : In l (pick n c s F b) <-> exists v, (v < n)%nat /\ fst l = (v, s, b) /\ F v s b <= snd l < F v s b + ec_count c (v, s, b).
Proof. unfold pick. rewrite in_flat_map. split; intros (v & Hv & H); exists v; [apply in_seq in Hv; apply in_pick1 in H; split; [lia|tauto]|split; [apply in_seq; lia|apply in_pick1; tauto]]. Qed.
Lemma pick1_nodup c s F b v : NoDup (pick1 c s F b v).
Proof. unfold pick1. apply FinFun.Injective_map_NoDup; [intros x y E; injection E; lia|apply range_nodup]. Qed.
Lemma pick_nodup n c s F b : NoDup (pick n c s F b).
Proof.
  unfold pick. apply nodup_flat_map; [apply seq_NoDup|intros; apply pick1_nodup|]. intros v v' l _ _ H H'. apply in_pick1 in H, H'. destruct H as (E & _), H' as (E' & _). congruence.
Qed.

Section Pick.
  Context (st : osi) (n : nat) (c : econ) (s : Z).
  Hypothesis Hsp : (nsp st <= max_spaces)%nat.
  Hypothesis Hc : con_ok st n c.
  Hypothesis Hs : is_space st s.
  Hypothesis Honly : only_space st c s.

  Lemma ec_len : length c = n. Proof. apply Hc. Qed.
  Lemma ec_space_ok : ec_space st c = Ok s.
  Proof.
    unfold ec_space. assert (All : forall x, In x (ec_spaces st c) -> x = s).
    { intros x Hx. unfold ec_spaces in Hx. apply in_flat_map in Hx. destruct Hx as (g & Hg & Hx). apply filter_In in Hx. destruct Hx as (Hr & Hp). apply range_in in Hr.
      destruct (In_nth c g gm_zero Hg) as (A & HA & <-). destruct (Z.eq_dec x s); auto. destruct (Honly A x HA Hr n0) as (E1 & E2). unfold ec_cre, ec_ann in *. apply Z.ltb_lt in Hp. lia. }
    assert (Ne : exists x, In x (ec_spaces st c)).
    { destruct Hc as (_ & NN & ([[A s'] b] & Hk & Hn)). assert (NA := NN (A, s', true)). assert (NB := NN (A, s', false)). 
      apply kinds_in in Hk as Hk'. destruct Hk' as (HA & Hs'). assert (K : forall b, In (A, s', b) (kinds st n)) by (intros; apply kinds_in; auto).
      specialize (NA (K _)). specialize (NB (K _)). exists s'. unfold ec_spaces. apply in_flat_map. exists (nth A c gm_zero). split; [apply nth_In; rewrite ec_len; auto|].
      apply filter_In. split; [apply range_in; auto|]. apply Z.ltb_lt. unfold ec_count, ec_cre, ec_ann in *. destruct b; lia. }
    destruct Ne as (x & Hx). destruct (ec_spaces st c) as [|y l]; [destruct Hx|]. unfold aget. simpl. rewrite (All y (or_introl eq_refl)). reflexivity.
  Qed.

  Context (L : list leg) (m : assoc key).
  Hypothesis Hm : forall l, afind key_eqb l m = if in_dec leg_dec l L then Some (Z.of_nat (lpos l L)) else None.
  Definition posL (l : leg) : Z := Z.of_nat (lpos l L).

  Lemma inner_loop v b o k : forall r : list Z, (forall i, 0 <= i < Z.of_nat k -> In (((v, s, b), o + i) : leg) L) ->
    foldM (fun (r : list Z) i => match afind key_eqb (v, s, b, o + i) m with Some p => Ok (r ++ [p]) | None => Throw end) r (range (Z.of_nat k)) =
    Ok (r ++ map posL (map (fun i => ((v, s, b), o + i) : leg) (range (Z.of_nat k)))).
  Proof.
    induction k as [|k IH]; intros r H; [cbn; rewrite app_nil_r; reflexivity|].
    rewrite !range_nat in *. rewrite seq_S, !map_app, foldM_app, IH by (intros; apply H; lia). cbn [bind map foldM plus].
    assert (Hin := H (Z.of_nat k) ltac:(lia)). rewrite Hm. destruct (in_dec leg_dec _ L) as [_|N]; [|exfalso; apply N; exact Hin]. cbn [bind]. rewrite <- app_assoc. reflexivity.
  Qed.

  Lemma gset (g : gmat) (b : bool) (v : Z) : length g = max_spaces -> length (if b then set_cre g s v else set_ann g s v) = max_spaces /\
    forall s' b', is_space st s' -> gcount (if b then set_cre g s v else set_ann g s v) s' b' = if (s' =? s) && Bool.eqb b' b then v else gcount g s' b'.
  Proof.
    intros Lg. assert (X : exists k, s = Z.of_nat k /\ (k < max_spaces)%nat) by (exists (Z.to_nat s); unfold is_space, num_spaces, nsp in *; lia). destruct X as (k & -> & Ls).
    assert (Y : forall s', is_space st s' -> exists k', s' = Z.of_nat k') by (intros s' Hs'; exists (Z.to_nat s'); unfold is_space in Hs'; lia). destruct b.
    - split; [apply (proj1 (nthp_cre g k v O Lg Ls))|]. intros s' b' Hs'. destruct (Y s' Hs') as (k' & ->).
      unfold gcount. rewrite cre_of_nat, ann_of_nat, (proj2 (nthp_cre g k v k' Lg Ls)), cre_of_nat, ann_of_nat. destruct (Nat.eqb_spec k' k), (Z.eqb_spec (Z.of_nat k') (Z.of_nat k)); try lia; [subst k'|]; destruct b'; reflexivity.
    - split; [apply (proj1 (nthp_ann g k v O Lg Ls))|]. intros s' b' Hs'. destruct (Y s' Hs') as (k' & ->).
      unfold gcount. rewrite cre_of_nat, ann_of_nat, (proj2 (nthp_ann g k v k' Lg Ls)), cre_of_nat, ann_of_nat. destruct (Nat.eqb_spec k' k), (Z.eqb_spec (Z.of_nat k') (Z.of_nat k)); try lia; [subst k'|]; destruct b'; reflexivity.
  Qed.

  Lemma nth_lset {A} (l : list A) i v d j : (i < length l)%nat -> nth j (lset l i v) d = if (j =? i)%nat then v else nth j l d.
  Proof.
    intros H. assert (E := lset_nth l i v j H). destruct (Nat.eqb_spec j i); [apply nth_error_nth with (d := d) in E; exact E|].
    destruct (nth_error l j) eqn:E'; [rewrite (nth_error_nth _ _ _ E), (nth_error_nth _ _ _ E'); auto|]. apply nth_error_None in E, E'. rewrite !nth_overflow by auto. reflexivity.
  Qed.

  Lemma elements_ok b off F : oinv st n off F -> incl (pick n c s F b) L ->
    exists off', elements_vec_to_pos st c off m b = Ok (map posL (pick n c s F b), off') /\
      oinv st n off' (fun v s' b' => F v s' b' + if Bool.eqb b' b then ec_count c (v, s', b') else 0).
  Proof.
    intros (Lo & Ho) Hi. unfold elements_vec_to_pos. rewrite ec_space_ok. cbn [bind]. rewrite ec_len.
    assert (G : forall k, (k <= n)%nat -> exists off', foldM (fun (x : list Z * list gmat) v =>
        let '(r, off) := x in
        let g := nth v c gm_zero in
        let nops := if b then cre_of g s else ann_of g s in
        bind (aget off (Z.of_nat v)) (fun ov =>
        let o := if b then cre_of ov s else ann_of ov s in
        bind (foldM (fun (r : list Z) i => match afind key_eqb (v, s, b, o + i) m with Some p => Ok (r ++ [p]) | None => Throw end) r (range nops)) (fun r =>
        Ok (r, lset off v (if b then set_cre ov s (o + nops) else set_ann ov s (o + nops)))))) ([], off) (seq 0 k) = Ok (map posL (flat_map (pick1 c s F b) (seq 0 k)), off') /\
      oinv st n off' (fun v s' b' => F v s' b' + if (v <? k)%nat && Bool.eqb b' b then ec_count c (v, s', b') else 0)).
    { induction k as [|k IH]; intros Hk.
      - exists off. split; [reflexivity|]. split; auto. intros v Hv. destruct (Ho v Hv) as (H1 & H2). split; auto. intros. rewrite H2 by auto. simpl. lia.
      - destruct IH as (off' & E & (Lo' & Ho')); [lia|]. rewrite seq_S, foldM_app, E. cbn [bind foldM plus].
        rewrite aget_nat, (nth_error_nth' off' gm_zero) by lia. cbn [bind].
        destruct (Ho' k ltac:(lia)) as (Lk & Hk'). assert (V := Hk' s b Hs). unfold gcount in V. rewrite V. rewrite Nat.ltb_irrefl. cbn [andb]. rewrite Z.add_0_r.
        assert (En : (if b then cre_of (nth k c gm_zero) s else ann_of (nth k c gm_zero) s) = ec_count c (k, s, b)) by reflexivity. rewrite En.
        assert (Nn : 0 <= ec_count c (k, s, b)) by (apply Hc; apply kinds_in; split; [lia|auto]).
        destruct (Z_of_nat_complete _ Nn) as (q & Ez). rewrite Ez in *. rewrite inner_loop.
        2: { intros i Hi'. apply Hi. apply in_pick. exists k. split; [lia|]. cbn [fst snd]. split; [reflexivity|]. lia. }
        cbn [bind]. eexists. split; [f_equal; f_equal; rewrite flat_map_app, map_app; cbn [flat_map]; rewrite app_nil_r; unfold pick1; rewrite Ez; reflexivity|].
        destruct (gset (nth k off' gm_zero) b (F k s b + Z.of_nat q) Lk) as (G1 & G2).
        split; [rewrite lset_length; auto|]. intros v Hv. rewrite nth_lset by lia. destruct (Nat.eqb_spec v k) as [->|Nv].
        + split; [exact G1|]. intros s' b' Hs'. rewrite G2 by auto. assert (K1 : (k <? S k)%nat = true) by (apply Nat.ltb_lt; lia). rewrite K1. cbn [andb].
          destruct (Z.eqb_spec s' s) as [->|Ns]; cbn [andb].
          * destruct (Bool.eqb_spec b' b) as [->|Nb]; [rewrite Ez; reflexivity|]. rewrite Hk' by auto. rewrite Nat.ltb_irrefl. reflexivity.
          * rewrite Hk' by auto. rewrite Nat.ltb_irrefl. cbn [andb]. destruct (Bool.eqb_spec b' b) as [->|Nb]; [|reflexivity].
            destruct (Honly k s' ltac:(rewrite ec_len; lia) Hs' Ns) as (X1 & X2). unfold ec_count. destruct b; rewrite ?X1, ?X2; reflexivity.
        + destruct (Ho' v Hv) as (Lv & Hv'). split; [exact Lv|]. intros s' b' Hs'. rewrite Hv' by auto.
          destruct (Nat.ltb_spec v k), (Nat.ltb_spec v (S k)); try lia; reflexivity. }
    destruct (G n (le_n n)) as (off' & E & (Lo' & Ho')). exists off'. split; [exact E|]. split; auto. intros v Hv. destruct (Ho' v Hv) as (X & Y). split; auto.
    intros s' b' Hs'. rewrite Y by auto. apply Nat.ltb_lt in Hv. rewrite Hv. reflexivity.
  Qed.
End Pick.
