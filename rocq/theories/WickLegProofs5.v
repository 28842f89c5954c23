From Coq Require Import Ascii ZArith List Bool Arith Lia Permutation Sorted.
From Verif Require Import Res PartitionsModel RegistryModel RegistryProofs CoreModel OrderProofs CombinatoricsModel CombinatoricsProofs SortSpec SortModel SortProofs SignProofs AdjointModel RationalModel OperatorModel OperatorSpec OperatorProofs
  WickSearchModel WickSearchSpec WickElemProofs WickElemProofs2 WickCompProofs WickSearchProofs DecModel WickEvalModel CountSpec CountProofs WickCombSpec WickCombProofs WickLegSpec WickLegProofs WickLegProofs2 WickLegProofs3 WickLegProofs4.
Import ListNotations.
Local Open Scope Z_scope.

Definition legs_of (picks : list (list leg * list leg)) : list leg := flat_map (fun p => fst p ++ snd p) picks.

Section Loop.
  Context (st : osi) (maxc : Z) (ops : oprod).
  Hypothesis Hok : ops_ok st ops.
  Let n := length ops.
  Let L := product_legs st ops.
  Let ix := ixf L.
  Let sq := map (leg_sqop ix) L.
  Context (m : assoc key).
  Hypothesis Hm : forall l, afind key_eqb l m = if in_dec leg_dec l L then Some (Z.of_nat (lpos l L)) else None.

  Lemma eval_loop cs : forall F W T M U off, Forall (allowed st maxc ops) cs -> oinv st n off F -> ready st ops F W M ->
    (forall v s b, In (v, s, b) (kinds st n) -> 0 <= F v s b /\ F v s b + total_of (fun c => ec_count c (v, s, b)) cs <= leg_count ops (v, s, b)) ->
    exists picks effects off', let W' := W ++ legs_of picks in
      foldM (eval_contr st sq m) (mkES T off (Z.of_nat (length W)) (Z.of_nat (length W)) U M (ordf L W)) cs =
        Ok (mkES (T ++ flat_map (fun e => snd (fst e)) effects) off' (Z.of_nat (length W')) (Z.of_nat (length W'))
              (U * fold_right Z.mul 1 (map snd effects)) (M ++ flat_map (fun e => fst (fst e)) effects) (ordf L W')) /\
      NoDup W' /\ incl W' L /\
      Forall2 (fun p c => carries_out st n (fst p ++ snd p) c /\ Forall (fun l => leg_cre l = true) (fst p) /\ Forall (fun l => leg_cre l = false) (snd p)) picks cs /\
      Forall2 (fun p e => contribution st L ix (fst p) (snd p) e) picks effects.
  Proof.
    induction cs as [|c cs IH]; intros F W T M U off HA Ho R HF.
    - exists [], [], off. cbn zeta. cbn [legs_of flat_map map fold_right foldM]. rewrite !app_nil_r, Z.mul_1_r. split; [reflexivity|]. destruct R. auto.
    - inversion HA as [|? ? Hc HA']; subst. assert (NN : forall c', In c' cs -> forall k, In k (kinds st n) -> 0 <= ec_count c' k).
      { intros c' Hi k Hk. rewrite Forall_forall in HA'. destruct k as [[v s] b]. apply (allowed_con_ok st maxc ops c' Hok (HA' c' Hi)). exact Hk. }
      assert (TN : forall k, In k (kinds st n) -> 0 <= total_of (fun c => ec_count c k) cs).
      { intros k Hk. clear - NN Hk. induction cs as [|a cs IH]; cbn [total_of fold_right]; [lia|]. assert (0 <= ec_count a k) by (apply NN; [left|]; auto). assert (0 <= total_of (fun c => ec_count c k) cs) by (apply IH; intros; apply NN; [right|]; auto). unfold total_of in *. lia. }
      destruct (eval_step st maxc ops Hok m Hm c F W T M U off Hc Ho R) as (pc & pa & eff & off1 & E1 & O1 & R1 & Ca & Fc & Fa & Con).
      { intros v s b Hk. destruct (HF v s b Hk) as (H0 & H1). split; auto. specialize (TN _ Hk). cbn [total_of fold_right] in H1. unfold total_of in TN. lia. }
      cbn zeta in E1. destruct (IH (upd F c) (W ++ pc ++ pa) (T ++ snd (fst eff)) (M ++ fst (fst eff)) (U * snd eff) off1 HA' O1 R1) as (picks & effects & off2 & E2 & N2 & I2 & P2 & Q2).
      { intros v s b Hk. destruct (HF v s b Hk) as (H0 & H1). cbn [total_of fold_right] in H1. unfold upd. assert (0 <= ec_count c (v, s, b)).
        { apply (allowed_con_ok st maxc ops c Hok Hc). exact Hk. }
        unfold total_of. lia. }
      cbn zeta in E2. exists ((pc, pa) :: picks), (eff :: effects), off2. cbn zeta. unfold legs_of in *. cbn [flat_map map fold_right foldM fst snd].
      assert (EW : W ++ (pc ++ pa) ++ flat_map (fun p : list leg * list leg => fst p ++ snd p) picks = (W ++ pc ++ pa) ++ flat_map (fun p : list leg * list leg => fst p ++ snd p) picks) by (rewrite !app_assoc; reflexivity).
      rewrite EW. split; [|split; [exact N2|split; [exact I2|split; [constructor; auto|constructor; auto]]]].
      rewrite !app_assoc, Z.mul_assoc. rewrite app_assoc in E2.
      eapply eq_trans; [apply (f_equal (fun r => bind r (fun s' => foldM (eval_contr st sq m) s' cs)) E1)|]. cbn [bind]. rewrite !app_assoc in *. exact E2.
  Qed.

  (** ** The uncontracted operators *)
  Definition of_key (k : bool * Z) (l : leg) : bool := (leg_space l =? snd k) && Bool.eqb (leg_cre l) (fst k).
  Definition fresh (W : list leg) (l : leg) : bool := if in_dec leg_dec l W then false else true.
  Definition key_legs (W : list leg) (k : bool * Z) : list leg := filter (fun l => fresh W l && of_key k l) L.
  Fixpoint rest_legs (W : list leg) (ks : list (bool * Z)) : list leg :=
    match ks with [] => [] | k :: ks' => key_legs W k ++ rest_legs (W ++ key_legs W k) ks' end.

  Lemma all_pos : range (Z.of_nat (length sq)) = map (posL L) L.
  Proof.
    unfold sq. rewrite map_length, range_nat. apply list_nth_ext. intros i. rewrite !nth_error_map. destruct (nth_error L i) as [l|] eqn:E.
    - assert (Hi : (i < length L)%nat) by (apply nth_error_Some; congruence). rewrite (nth_error_nth' _ O) by (rewrite seq_length; auto). cbn [option_map]. rewrite seq_nth by auto. f_equal. unfold posL. f_equal.
      assert (X := lpos_nth_error l L (nth_error_In _ _ E)). symmetry. eapply (proj1 (NoDup_nth_error L)); [apply product_nodup|apply lpos_lt; eapply nth_error_In; eauto|cbn [plus]; congruence].
    - apply nth_error_None in E. rewrite (proj2 (nth_error_None (seq 0 (length L)) i)) by (rewrite seq_length; auto). reflexivity.
  Qed.
  Lemma fresh_true W l : fresh W l = true <-> ~ In l W.
  Proof. unfold fresh. destruct (in_dec leg_dec l W); split; congruence || tauto. Qed.

  Lemma key_pass k L2 : forall W, NoDup L2 -> incl L2 L -> NoDup W -> incl W L ->
    foldM (fun (x : list Z * Z) i => let '(ord, pos) := x in bind (aget ord i) (fun v => bind (aget sq i) (fun o =>
      if (v =? -1) && (s_space o =? snd k) && Bool.eqb (s_cre o) (fst k) then bind (aset ord i pos) (fun ord => Ok (ord, pos + 1)) else Ok (ord, pos))))
      (ordf L W, Z.of_nat (length W)) (map (posL L) L2) =
    let W' := W ++ filter (fun l => fresh W l && of_key k l) L2 in Ok (ordf L W', Z.of_nat (length W')).
  Proof.
    induction L2 as [|l L2 IH]; intros W N I NW IW; [cbn zeta; cbn [map filter foldM]; rewrite app_nil_r; reflexivity|].
    inversion N as [|? ? Hl N']; subst. assert (Il : In l L) by (apply I; left; auto). assert (I' : incl L2 L) by (intros x Hx; apply I; right; auto).
    cbn [map foldM]. unfold posL at 1 2 3. rewrite !aget_nat. unfold ordf at 1. unfold sq at 1. rewrite !nth_error_map, lpos_nth_error by auto. cbn [option_map bind].
    change (s_space (leg_sqop ix l)) with (isp (ixf L l)). change (s_cre (leg_sqop ix l)) with (leg_cre l). rewrite (proj1 (proj1 (ixf_labels L) l Il)).
    cbn zeta; cbn [filter]. assert (Ef : fresh W l = if in_dec leg_dec l W then false else true) by reflexivity. rewrite !Ef. destruct (in_dec leg_dec l W) as [Hw|Hw]; cbn [andb].
    - destruct (Z.eqb_spec (Z.of_nat (lpos l W)) (-1)) as [E|_]; [lia|]. cbn [andb bind]. apply IH; auto.
    - rewrite Z.eqb_refl. cbn [andb]. fold (of_key k l). destruct (of_key k l); [|apply IH; auto].
      rewrite aset_nat, ordf_length. destruct (Nat.ltb_spec (lpos l L) (length L)) as [_|G]; [|specialize (lpos_lt l L Il); lia]. cbn [bind].
      rewrite ordf_set by (auto; apply product_nodup). replace (Z.of_nat (length W) + 1) with (Z.of_nat (length (W ++ [l]))) by (rewrite app_length; cbn [length]; lia).
      rewrite IH; auto.
      + cbn zeta. assert (E : filter (fun l0 => fresh (W ++ [l]) l0 && of_key k l0) L2 = filter (fun l0 => fresh W l0 && of_key k l0) L2).
        { apply filter_ext_in. intros x Hx. f_equal. unfold fresh. destruct (in_dec leg_dec x (W ++ [l])) as [X|X], (in_dec leg_dec x W) as [Y|Y]; auto; exfalso.
          - apply in_app_or in X. destruct X as [X|[<-|[]]]; auto.
          - apply X, in_or_app; auto. }
        rewrite E, <- app_assoc. reflexivity.
      + apply nodup_app; auto; [constructor; [intros []|constructor]|]. intros x Hx [<-|[]]. auto.
      + intros x Hx. apply in_app_or in Hx. destruct Hx as [Hx|[<-|[]]]; auto.
  Qed.
  Lemma key_legs_in W k l : In l (key_legs W k) <-> In l L /\ ~ In l W /\ of_key k l = true.
  Proof. unfold key_legs. rewrite filter_In, andb_true_iff, fresh_true. tauto. Qed.
  Lemma key_legs_nodup W k : NoDup W -> NoDup (W ++ key_legs W k).
  Proof. intros N. apply nodup_app; auto; [apply NoDup_filter, product_nodup|]. intros l Hl Hk. apply key_legs_in in Hk. tauto. Qed.
  Lemma key_legs_incl W k : incl W L -> incl (W ++ key_legs W k) L.
  Proof. intros I l Hl. apply in_app_or in Hl. destruct Hl as [Hl|Hl]; auto. apply key_legs_in in Hl. tauto. Qed.
  Lemma rest_pass ks : forall W, NoDup W -> incl W L ->
    foldM (fun x (cs : bool * Z) =>
      foldM (fun (x : list Z * Z) i => let '(ord, pos) := x in bind (aget ord i) (fun v => bind (aget sq i) (fun o =>
        if (v =? -1) && (s_space o =? snd cs) && Bool.eqb (s_cre o) (fst cs) then bind (aset ord i pos) (fun ord => Ok (ord, pos + 1)) else Ok (ord, pos))))
      x (range (Z.of_nat (length sq)))) (ordf L W, Z.of_nat (length W)) ks =
    Ok (ordf L (W ++ rest_legs W ks), Z.of_nat (length (W ++ rest_legs W ks))).
  Proof.
    induction ks as [|k ks IH]; intros W N I; [cbn [foldM rest_legs]; rewrite app_nil_r; reflexivity|].
    cbn [foldM rest_legs]. rewrite all_pos, key_pass by (auto; apply product_nodup || apply incl_refl). cbn zeta. cbn [bind]. fold (key_legs W k).
    rewrite <- all_pos, IH by (apply key_legs_nodup || apply key_legs_incl; auto). rewrite app_assoc. reflexivity.
  Qed.
  Lemma rest_in ks : forall W l, In l (rest_legs W ks) <-> In l L /\ ~ In l W /\ exists k, In k ks /\ of_key k l = true.
  Proof.
    induction ks as [|k ks IH]; intros W l; cbn [rest_legs]; [simpl; split; [tauto|intros (_ & _ & k & [] & _)]|].
    rewrite in_app_iff, IH, in_app_iff, key_legs_in. split.
    - intros [(A & B & C)|(A & B & k' & C & D)]; split; auto; split; try tauto; [exists k|exists k']; simpl; auto.
    - intros (A & B & k' & [<-|C] & D); [left; auto|]. destruct (of_key k l) eqn:E; [left; auto|]. right. split; auto. split; [intros [|(_ & _ & X)]; congruence|eauto].
  Qed.
  Lemma rest_nodup ks : forall W, NoDup W -> NoDup (W ++ rest_legs W ks).
  Proof. induction ks as [|k ks IH]; intros W N; cbn [rest_legs]; [rewrite app_nil_r; auto|]. rewrite app_assoc. apply IH, key_legs_nodup, N. Qed.

  Definition key_before (k k' : bool * Z) : bool :=
    if fst k then if fst k' then snd k <? snd k' else true else if fst k' then false else snd k <? snd k'.
  Lemma of_key_before k k' l l' : of_key k l = true -> of_key k' l' = true -> rest_before l l' = key_before k k'.
  Proof.
    unfold of_key. rewrite !andb_true_iff. intros (E1 & E2) (E3 & E4). apply Bool.eqb_prop in E2, E4. apply Z.eqb_eq in E1, E3. unfold rest_before, key_before. rewrite E1, E2, E3, E4. reflexivity.
  Qed.
  Lemma key_before_irrefl k : key_before k k = false.
  Proof. unfold key_before. destruct (fst k); apply Z.ltb_irrefl. Qed.
  Lemma rest_ordered ks : forall W, StronglySorted (fun k k' => key_before k' k = false) ks -> ordered rest_before (rest_legs W ks).
  Proof.
    induction ks as [|k ks IH]; intros W So; cbn [rest_legs]; [constructor|]. inversion So as [|? ? So' Fk]; subst. unfold ordered in *.
    assert (G : forall A B, StronglySorted (fun a b => rest_before b a = false) A -> StronglySorted (fun a b => rest_before b a = false) B -> (forall a b, In a A -> In b B -> rest_before b a = false) ->
       StronglySorted (fun a b => rest_before b a = false) (A ++ B)).
    { clear. induction A as [|a A IHA]; intros B SA SB H; [exact SB|]. inversion SA; subst. cbn [app]. constructor; [apply IHA; auto; intros; apply H; simpl; auto|]. apply Forall_app. split; auto. apply Forall_forall. intros b Hb. apply H; simpl; auto. }
    apply G; [|apply IH; auto|].
    - unfold key_legs. clear. induction L as [|l L' IHL]; cbn [filter]; [constructor|]. destruct (fresh W l && of_key k l) eqn:E; auto. constructor; auto. apply Forall_forall. intros b Hb. apply filter_In in Hb. destruct Hb as (_ & Hb).
      apply andb_true_iff in Hb, E. rewrite (of_key_before k k) by tauto. apply key_before_irrefl.
    - intros a b Ha Hb. apply key_legs_in in Ha. apply rest_in in Hb. destruct Ha as (_ & _ & Ha), Hb as (_ & _ & k' & Hk' & Hb). rewrite (of_key_before k' k) by auto. rewrite Forall_forall in Fk. auto.
  Qed.
  Definition all_keys : list (bool * Z) := map (fun s => (true, s)) (range (num_spaces st)) ++ map (fun s => (false, s)) (range (num_spaces st)).
  Lemma keys_sorted : StronglySorted (fun k k' => key_before k' k = false) all_keys.
  Proof.
    assert (SR : forall b a j, StronglySorted (fun k k' => key_before k' k = false) (map (fun s => (b, s)) (map Z.of_nat (seq a j)))).
    { intros b a j. revert a. induction j as [|j IH]; intros a; cbn [seq map]; constructor; auto. apply Forall_forall. intros k Hk. apply in_map_iff in Hk. destruct Hk as (s & <- & Hs). apply in_map_iff in Hs. destruct Hs as (i & <- & Hi). apply in_seq in Hi.
      unfold key_before. cbn [fst snd]. destruct b; apply Z.ltb_ge; lia. }
    unfold all_keys, range. assert (A := SR true 0%nat (Z.to_nat (num_spaces st))). assert (B := SR false 0%nat (Z.to_nat (num_spaces st))). clear SR.
    set (X := map (fun s => (true, s)) _) in *. set (Y := map (fun s => (false, s)) _) in *.
    assert (H : forall x y, In x X -> In y Y -> key_before y x = false).
    { intros x y Hx Hy. apply in_map_iff in Hx, Hy. destruct Hx as (? & <- & _), Hy as (? & <- & _). reflexivity. }
    clearbody X Y. revert A H. induction X as [|x X IH]; intros A H; [exact B|]. inversion A; subst. cbn [app]. constructor; [apply IH; auto; intros; apply H; simpl; auto|]. apply Forall_app. split; auto. apply Forall_forall. intros y Hy. apply H; simpl; auto.
  Qed.
  Lemma all_rest W : NoDup W -> incl W L -> Permutation L (W ++ rest_legs W all_keys).
  Proof.
    intros N I. apply NoDup_Permutation; [apply product_nodup|apply rest_nodup; auto|]. intros l. rewrite in_app_iff, rest_in. split; [|intros [H|(H & _)]; auto].
    intros Hl. destruct (in_dec leg_dec l W) as [H|H]; [left; auto|right]. split; auto. split; auto. exists (leg_cre l, leg_space l). split.
    - unfold all_keys. apply in_or_app. apply in_product in Hl. destruct Hl as (_ & Hs & _). destruct (leg_cre l); [left|right]; apply in_map_iff; eexists; (split; [reflexivity|]); apply range_in; exact Hs.
    - unfold of_key. cbn [fst snd]. rewrite Z.eqb_refl, Bool.eqb_reflx. reflexivity.
  Qed.

  (** ** Signs and the final order *)
  Definition posW (W : list leg) (l : leg) : Z := Z.of_nat (lpos l W).
  Lemma posW_iota W : NoDup W -> map (posW W) W = map Z.of_nat (seq 0 (length W)).
  Proof.
    intros N. apply list_nth_ext. intros i. rewrite !nth_error_map. destruct (nth_error W i) as [l|] eqn:E.
    - assert (Hi : (i < length W)%nat) by (apply nth_error_Some; congruence). rewrite (nth_error_nth' _ O) by (rewrite seq_length; auto). cbn [option_map]. rewrite seq_nth by auto. f_equal. unfold posW. f_equal.
      assert (X := lpos_nth_error l W (nth_error_In _ _ E)). eapply (proj1 (NoDup_nth_error W)); [auto|apply lpos_lt; eapply nth_error_In; eauto|cbn; congruence].
    - apply nth_error_None in E. rewrite (proj2 (nth_error_None (seq 0 (length W)) i)) by (rewrite seq_length; auto). reflexivity.
  Qed.
  Lemma iota_sorted j : forall a, StronglySorted Z.lt (map Z.of_nat (seq a j)).
  Proof. induction j as [|j IH]; intros a; cbn [seq map]; constructor; auto. apply Forall_forall. intros k Hk. apply in_map_iff in Hk. destruct Hk as (i & <- & Hi). apply in_seq in Hi. lia. Qed.
  Lemma ss_weaken {A} (P Q : A -> A -> Prop) l : (forall a b, P a b -> Q a b) -> StronglySorted P l -> StronglySorted Q l.
  Proof. intros H. induction 1 as [|a l Sl IH F]; constructor; auto. eapply Forall_impl; [|exact F]. auto. Qed.
  Lemma ordf_full W : Permutation L W -> ordf L W = map (posW W) L.
  Proof. intros P. apply map_ext_in. intros l Hl. destruct (in_dec leg_dec l W) as [_|X]; [reflexivity|]. exfalso. apply X. eapply Permutation_in; eauto. Qed.
  Lemma order_sign W s : NoDup W -> Permutation L W -> sperm L s W -> permutation_sign (ordf L W) = s.
  Proof.
    intros N P Sp. rewrite ordf_full by auto. assert (E := posW_iota W N). apply (sperm_map (posW W)) in Sp. rewrite E in Sp.
    assert (Nd : NoDup (map (posW W) L)).
    { eapply Permutation_NoDup; [apply Permutation_map, Permutation_sym, P|]. rewrite E. assert (X := iota_sorted (length W) 0). clear - X. induction X as [|a l Sl IH F]; constructor; auto. intros H. rewrite Forall_forall in F. specialize (F a H). lia. }
    rewrite (sperm_psign _ _ _ Nd Sp). assert (X : permutation_sign (map Z.of_nat (seq 0 (length W))) = 1); [|lia].
    apply psign_sorted. eapply ss_weaken; [|apply iota_sorted]. intros; lia.
  Qed.
  Lemma combine_map {A B C} (f : A -> B) (g : A -> C) l : combine (map f l) (map g l) = map (fun x => (f x, g x)) l.
  Proof. induction l; simpl; congruence. Qed.
  Lemma order_sorted W : NoDup W -> Permutation L W -> sort_by (pair_ltb Z.ltb sqop_ltb) (combine (ordf L W) sq) = map (fun l => (posW W l, leg_sqop ix l)) W.
  Proof.
    intros N P. rewrite ordf_full by auto. unfold sq. rewrite combine_map. symmetry.
    apply (sort_unique _ _ (swo_pair _ _ _ _ swo_Z swo_sqop)).
    - intros [a b] [a' b']. cbn [fst snd]. rewrite andb_true_iff, Z.eqb_eq, sqop_eqb_eq. intros (-> & ->). reflexivity.
    - unfold ordered. assert (X := iota_sorted (length W) 0). rewrite <- posW_iota in X by auto. clear - X. set (f := posW W) in *. clearbody f. induction W as [|l W IH]; cbn [map] in *; constructor; inversion X; subst; auto.
      apply Forall_forall. intros y Hy. apply in_map_iff in Hy. destruct Hy as (l' & <- & Hl'). rewrite Forall_forall in H2. specialize (H2 (f l') ltac:(apply in_map; auto)). unfold pair_ltb. cbn [fst snd].
      destruct (Z.ltb_spec (f l') (f l)); [lia|]. destruct (Z.ltb_spec (f l) (f l')); [reflexivity|lia].
    - apply Permutation_map. exact P.
  Qed.
End Loop.

Lemma evaluate_ok st maxc ops cs factor : ops_ok st ops -> Forall (allowed st maxc ops) cs -> enough_legs st ops cs ->
  exists t s ix picks effects rest,
    evaluate_contraction st ops cs factor =
      Ok (t, rat_mul (rat_mul (rat_of_Z s) (fold_left (fun f o => rat_mul f (op_factor st o)) ops factor)) (combinatorial_factor st ops cs)) /\
    evaluation st ops cs t s ix picks effects rest.
Proof.
  intros Hok HA En. destruct (tensors_sqops st ops) as (e & E & [Lsq Lm _] & Lt). set (L := product_legs st ops) in *.
  assert (O0 : oinv st (length ops) (repeat gm_zero (length ops)) (fun _ _ _ => 0)).
  { split; [apply repeat_length|]. intros v Hv. assert (X : nth v (repeat gm_zero (length ops)) gm_zero = gm_zero) by (clear; revert v; induction (length ops); intros [|v]; simpl; auto). rewrite X. split; [reflexivity|].
    intros s b Hs. destruct (is_space_nat st s Hs) as (k & -> & Hk). unfold gcount. rewrite ?cre_of_nat, ?ann_of_nat. assert (Z0 : nthp gm_zero k = (0, 0)) by (unfold nthp, gm_zero; clear; revert k; induction max_spaces; intros [|k]; simpl; auto). rewrite Z0. destruct b; reflexivity. }
  assert (R0 : ready st ops (fun _ _ _ => 0) [] []) by (split; [constructor|intros ? []|intros ? []|intros ? []]).
  destruct (eval_loop st maxc ops Hok (ls_map e) Lm cs (fun _ _ _ => 0) [] (ls_tens e) [] 1 _ HA O0 R0) as (picks & effects & off & Ev & N & I & Hp & He).
  { intros v s b Hk. split; [lia|]. specialize (En _ Hk). lia. }
  cbn zeta in Ev. cbn [app length Z.of_nat] in Ev. fold L in Ev, I, He. set (W := legs_of picks) in *.
  set (rest := rest_legs st ops W (all_keys st)). assert (P := all_rest st ops W N I). fold L rest in P. destruct (perm_sperm _ _ P) as (s & Hs).
  assert (N' : NoDup (W ++ rest)) by (apply rest_nodup; auto).
  exists (term_reindex (flat_map (fun e => fst (fst e)) effects) (mkTerm false (map (leg_sqop (ixf L)) rest) (ls_tens e ++ flat_map (fun e => snd (fst e)) effects))),
    (fold_right Z.mul 1 (map snd effects) * s), (ixf L), picks, effects, rest. split.
  - unfold evaluate_contraction. rewrite E. cbn [bind]. rewrite Lsq. rewrite map_length.
    assert (X : forall L0 : list leg, repeat (-1) (length L0) = ordf L0 []) by (intros L0; unfold ordf; induction L0 as [|? ? IH]; [reflexivity|cbn [repeat length map]; rewrite IH; reflexivity]). rewrite X. rewrite Ev. cbn [bind es_ord es_pos es_usign es_ncon es_map es_tens].
    
    assert (RP : order_rest st (map (leg_sqop (ixf L)) L) (ordf L W) (Z.of_nat (length W)) = Ok (ordf L (W ++ rest), Z.of_nat (length (W ++ rest)))) by exact (rest_pass st ops (all_keys st) W N I).
    rewrite RP. cbn [bind].
    assert (OS := order_sorted st ops (W ++ rest) N' P). assert (OG := order_sign st ops (W ++ rest) s N' P Hs). fold L in OS, OG. cbv zeta in OS. rewrite OG, OS. rewrite Nat2Z.id, map_app.
    rewrite <- (map_length (fun l => (posW (W ++ rest) l, leg_sqop (ixf L) l)) W). rewrite skipn_app, skipn_all, Nat.sub_diag, skipn_O. cbn [app]. rewrite map_map. cbn [snd]. rewrite Z.mul_1_l. reflexivity.
  - split.
    + apply ixf_labels.
    + exact Hp.
    + exact He.
    + exists s. split; [exact Hs|reflexivity].
    + apply rest_ordered, keys_sorted. exact ops.
    + rewrite Lt. reflexivity.
Qed.
