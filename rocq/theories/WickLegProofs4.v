From Coq Require Import Ascii ZArith List Bool Arith Lia Permutation Sorted.
From Verif Require Import Res PartitionsModel RegistryModel RegistryProofs CoreModel OrderProofs CombinatoricsModel CombinatoricsProofs SortSpec SortModel SortProofs AdjointModel RationalModel OperatorModel OperatorSpec OperatorProofs
  WickSearchModel WickSearchSpec WickElemProofs WickElemProofs2 WickCompProofs WickSearchProofs DecModel WickEvalModel CountSpec CountProofs WickCombSpec WickCombProofs WickLegSpec WickLegProofs WickLegProofs2 WickLegProofs3.
Import ListNotations.
Local Open Scope Z_scope.

Definition upd (F : nat -> Z -> bool -> Z) (c : econ) : nat -> Z -> bool -> Z := fun v s b => F v s b + ec_count c (v, s, b).
Definition below (F : nat -> Z -> bool -> Z) (l : leg) : Prop := snd l < F (leg_op l) (leg_space l) (leg_cre l).

Lemma count_pick1 c s F b v k : 0 <= ec_count c (v, s, b) -> count_occ kind_dec (map fst (pick1 c s F b v)) k = if kind_dec (v, s, b) k then Z.to_nat (ec_count c (v, s, b)) else O.
Proof.
  intros H. unfold pick1. rewrite map_map. cbn [fst]. assert (E : map (fun _ : Z => (v, s, b) : leg_kind) (range (ec_count c (v, s, b))) = repeat (v, s, b) (Z.to_nat (ec_count c (v, s, b)))).
  { unfold range. rewrite map_map. generalize (Z.to_nat (ec_count c (v, s, b))). intros n. generalize O. induction n as [|n IH]; intros k0; [reflexivity|]. cbn [seq map repeat]. f_equal. apply IH. }
  rewrite E. destruct (kind_dec (v, s, b) k) as [<-|Ne]; [apply count_occ_repeat_eq; reflexivity|apply count_occ_repeat_neq; auto].
Qed.
Lemma count_pick n c s F b v s' b' : (forall v, (v < n)%nat -> 0 <= ec_count c (v, s, b)) -> 
  count_occ kind_dec (map fst (pick n c s F b)) (v, s', b') = if (v <? n)%nat && (s' =? s) && Bool.eqb b' b then Z.to_nat (ec_count c (v, s, b)) else O.
Proof.
  unfold pick. induction n as [|n IH]; intros H; [reflexivity|]. rewrite seq_S, flat_map_app, map_app, count_occ_app. unfold leg in *. rewrite IH by (intros; apply H; lia). cbn [flat_map plus]. rewrite app_nil_r.
  rewrite count_pick1 by (apply H; lia). destruct (kind_dec (n, s, b) (v, s', b')) as [E|E].
  - injection E as <- <- <-. rewrite Nat.ltb_irrefl. cbn [andb]. assert ((n <? S n)%nat = true) as -> by (apply Nat.ltb_lt; lia). rewrite Z.eqb_refl, Bool.eqb_reflx. reflexivity.
  - rewrite Nat.add_0_r. destruct (Z.eqb_spec s' s) as [->|Ns]; [|rewrite !andb_false_r; reflexivity]. destruct (Bool.eqb b' b) eqn:Eb; [|rewrite !andb_false_r; reflexivity].
    apply Bool.eqb_prop in Eb. subst b'. rewrite !andb_true_r. destruct (Nat.ltb_spec v n), (Nat.ltb_spec v (S n)); auto; try lia. assert (v = n) by lia. congruence.
Qed.

Section Step.
  Context (st : osi) (maxc : Z) (ops : oprod).
  Hypothesis Hok : ops_ok st ops.
  Let n := length ops.
  Let L := product_legs st ops.
  Let ix := ixf L.
  Let sq := map (leg_sqop ix) L.
  Context (m : assoc key).
  Hypothesis Hm : forall l, afind key_eqb l m = if in_dec leg_dec l L then Some (Z.of_nat (lpos l L)) else None.

  Record ready (F : nat -> Z -> bool -> Z) (W : list leg) (M : index_map) : Prop := {
    rd_nodup : NoDup W; rd_incl : incl W L; rd_below : forall l, In l W -> below F l;
    rd_map : forall x, In x M -> exists l, In l W /\ fst x = ix l }.

  Lemma eval_step c F W T M U off : allowed st maxc ops c -> oinv st n off F -> ready F W M ->
    (forall v s b, In (v, s, b) (kinds st n) -> 0 <= F v s b /\ F v s b + ec_count c (v, s, b) <= leg_count ops (v, s, b)) ->
    exists pc pa eff off', let W' := W ++ pc ++ pa in
      eval_contr st sq m (mkES T off (Z.of_nat (length W)) (Z.of_nat (length W)) U M (ordf L W)) c =
        Ok (mkES (T ++ snd (fst eff)) off' (Z.of_nat (length W')) (Z.of_nat (length W')) (U * snd eff) (M ++ fst (fst eff)) (ordf L W')) /\
      oinv st n off' (upd F c) /\ ready (upd F c) W' (M ++ fst (fst eff)) /\
      carries_out st n (pc ++ pa) c /\ Forall (fun l => leg_cre l = true) pc /\ Forall (fun l => leg_cre l = false) pa /\
      contribution st L ix pc pa eff.
  Proof.
    intros Hal Ho [N HW Hb HM] HF. destruct (allowed_space _ _ _ _ Hal) as (s & Hs & On & (k & Hk & Tc & Ta & Ty & _)).
    assert (Hc : con_ok st n c) by (eapply allowed_con_ok; eauto). assert (Sh : con_shape st n c) by apply Hc.
    assert (Hsp : (nsp st <= max_spaces)%nat) by apply Hok.
    assert (NN : forall v b, (v < n)%nat -> 0 <= ec_count c (v, s, b)) by (intros v b Hv; apply Hc, kinds_in; auto).
    set (pc := pick n c s F true). set (pa := pick n c s (fun v s' b' => F v s' b' + if Bool.eqb b' true then ec_count c (v, s', b') else 0) false).
    assert (Epa : pa = pick n c s F false).
    { unfold pa, pick. apply flat_map_ext. intros v. unfold pick1. apply map_ext. intros i. simpl. f_equal. lia. }
    assert (Lc : Z.of_nat (length pc) = Z.of_nat k) by (unfold pc; rewrite pick_length by (intros; apply NN; auto); exact Tc).
    assert (La : Z.of_nat (length pa) = Z.of_nat k) by (rewrite Epa, pick_length by (intros; apply NN; auto); exact Ta).
    assert (Hin : forall b, incl (pick n c s F b) L).
    { intros b l Hl. apply in_pick in Hl. destruct Hl as (v & Hv & E & Hi). apply in_product. destruct l as [k0 j]. cbn [fst snd] in *. subst k0.
      unfold leg_op, leg_space. cbn [fst snd]. split; [exact Hv|]. split; [exact Hs|]. destruct (HF v s b ltac:(apply kinds_in; auto)). lia. }
    assert (Hpc : incl pc L) by apply Hin. assert (Hpa : incl pa L) by (rewrite Epa; apply Hin).
    destruct (elements_ok st n c s Hsp Hc Hs On L m Hm true off F Ho Hpc) as (off1 & E1 & O1).
    destruct (elements_ok st n c s Hsp Hc Hs On L m Hm false off1 _ O1 Hpa) as (off2 & E2 & O2). fold pc in E1. fold pa in E2.
    assert (O2' : oinv st n off2 (upd F c)).
    { destruct O2 as (X & Y). split; auto. intros v Hv. destruct (Y v Hv) as (Y1 & Y2). split; auto. intros s' b' Hs'. rewrite Y2 by auto. unfold upd. destruct b'; simpl; lia. }
    assert (NW : NoDup (W ++ pc ++ pa)).
    { apply nodup_app; auto.
      - apply nodup_app; [apply pick_nodup|rewrite Epa; apply pick_nodup|]. intros l Hl Hl'. rewrite Epa in Hl'. apply in_pick in Hl, Hl'. destruct Hl as (v & _ & E & _), Hl' as (v' & _ & E' & _). congruence.
      - intros l Hl Hl'. specialize (Hb l Hl). unfold below in Hb. assert (X : exists b, In l (pick n c s F b)). { apply in_app_or in Hl'. destruct Hl' as [Hl'|Hl']; [exists true; auto|exists false; rewrite <- Epa; auto]. }
        destruct X as (b & X). apply in_pick in X. destruct X as (v & _ & E & Hi). destruct l as [k0 j]. cbn [fst snd] in *. subst k0. unfold leg_op, leg_space, leg_cre in Hb. cbn [fst snd] in Hb. lia. }
    assert (NW1 : NoDup (W ++ pc)) by (rewrite app_assoc in NW; apply nodup_app_inv in NW; tauto).
    assert (HW' : incl (W ++ pc ++ pa) L) by (intros l Hl; apply in_app_or in Hl; destruct Hl as [|Hl]; auto; apply in_app_or in Hl; destruct Hl; auto).
    assert (Hb' : forall l, In l (W ++ pc ++ pa) -> below (upd F c) l).
    { intros l Hl. apply in_app_or in Hl. destruct Hl as [Hl|Hl].
      - specialize (Hb l Hl). unfold below, upd in *. apply HW in Hl. apply in_product in Hl. destruct Hl as (Hv & Hs' & _).
        assert (0 <= ec_count c (leg_op l, leg_space l, leg_cre l)) by (apply Hc, kinds_in; auto). lia.
      - assert (X : exists b, In l (pick n c s F b)). { apply in_app_or in Hl. destruct Hl as [Hl'|Hl']; [exists true; auto|exists false; rewrite <- Epa; auto]. }
        destruct X as (b & X). apply in_pick in X. destruct X as (v & _ & E & Hi). destruct l as [k0 j]. cbn [fst snd] in *. subst k0. unfold below, upd, leg_op, leg_space, leg_cre. cbn [fst snd]. lia. }
    assert (Hca : carries_out st n (pc ++ pa) c).
    { intros [[v s'] b] Hk'. apply kinds_in in Hk' as (Hv & Hs'). rewrite map_app, count_occ_app. unfold pc. rewrite Epa, !count_pick by (intros; apply NN; auto).
      apply Nat.ltb_lt in Hv as Hv'. rewrite Hv'. cbn [andb]. destruct (Z.eqb_spec s' s) as [->|Ns]; cbn [andb].
      - specialize (NN v b Hv). destruct b; cbn [Bool.eqb andb]; lia.
      - destruct (On v s' ltac:(destruct Sh; lia) Hs' Ns) as (X1 & X2). unfold ec_count. destruct b; lia. }
    assert (Fc : Forall (fun l => leg_cre l = true) pc). { apply Forall_forall. intros l Hl. apply in_pick in Hl. destruct Hl as (v & _ & E & _). unfold leg_cre. rewrite E. reflexivity. }
    assert (Fa : Forall (fun l => leg_cre l = false) pa). { apply Forall_forall. intros l Hl. rewrite Epa in Hl. apply in_pick in Hl. destruct Hl as (v & _ & E & _). unfold leg_cre. rewrite E. reflexivity. }
    assert (Spc : forall l, In l pc -> leg_space l = s). { intros l Hl. apply in_pick in Hl. destruct Hl as (v & _ & E & _). unfold leg_space. rewrite E. reflexivity. }
    assert (Rank : ec_num_ops c = Z.of_nat k + Z.of_nat k) by (rewrite (ec_num_total st n c s); auto; unfold n; rewrite Tc, Ta; reflexivity).
    assert (Ln : Z.of_nat (length W) + ec_num_ops c = Z.of_nat (length (W ++ pc ++ pa))) by (rewrite !app_length, !Nat2Z.inj_add, Lc, La; lia).
    assert (K0 : forall ca, eval_contr st sq m (mkES T off (Z.of_nat (length W)) (Z.of_nat (length W)) U M (ordf L W)) c = ca ->
      match stype st s with
      | Some Occupied => bind (aget (map (posL L) pc) 0) (fun p => bind (aget (map (posL L) pa) 0) (fun q => bind (sq_index sq p) (fun ci => bind (sq_index sq q) (fun ai =>
          Ok (mkES T off2 (Z.of_nat (length (W ++ pc ++ pa))) (Z.of_nat (length (W ++ pc ++ pa))) U (imput ai ci M) (ordf L (W ++ pc ++ pa)))))))
      | Some Unoccupied => bind (aget (map (posL L) pc) 0) (fun p => bind (aget (map (posL L) pa) 0) (fun q => bind (sq_index sq p) (fun ci => bind (sq_index sq q) (fun ai =>
          Ok (mkES T off2 (Z.of_nat (length (W ++ pc ++ pa))) (Z.of_nat (length (W ++ pc ++ pa))) (- U) (imput ci ai M) (ordf L (W ++ pc ++ pa)))))))
      | Some General => bind (mapM (sq_index sq) (map (posL L) pc)) (fun upper => bind (mapM (sq_index sq) (map (posL L) pa)) (fun lower =>
          bind (if Z.of_nat k + Z.of_nat k =? 2 then
                  bind (aget (map (posL L) pc) 0) (fun p => bind (aget (map (posL L) pa) 0) (fun q => Ok (if p <? q then (gamma1, U) else (eta1, - U))))
                else Ok (lambda_ ++ dec_text (Z.quot (Z.of_nat k + Z.of_nat k) 2), U)) (fun x => let '(label, us) := x in
          Ok (mkES (T ++ [mkT label (rev lower) upper Antisymmetric false]) off2 (Z.of_nat (length (W ++ pc ++ pa))) (Z.of_nat (length (W ++ pc ++ pa))) us M (ordf L (W ++ pc ++ pa))))))
      | None => UB end = ca).
    { intros ca Eca. rewrite <- Eca. unfold eval_contr. cbn [es_off es_tens es_pos es_ncon es_usign es_map es_ord]. rewrite (ec_space_ok st n c s Hsp Hc On). cbn [bind]. rewrite E1. cbn [bind]. rewrite E2. cbn [bind].
      rewrite (mark_ok L (product_nodup st ops) pc W NW1 Hpc). cbn [bind]. rewrite (mark_ok L (product_nodup st ops) pa (W ++ pc)); [|rewrite <- app_assoc; exact NW|exact Hpa]. cbn [bind].
      rewrite <- !app_assoc, Ln, Rank. reflexivity. }
    specialize (K0 _ eq_refl).
    assert (Fresh : forall x l, In x M -> In l (pc ++ pa) -> fst x <> ix l).
    { intros x l Hx Hl E. destruct (HM x Hx) as (l' & Hl' & E'). assert (l' = l). { apply (proj2 (ixf_labels L)); [apply HW; auto|apply HW', in_or_app; right; auto|]. fold ix. congruence. }
      subst l'. apply nodup_app_inv in NW. destruct NW as (_ & _ & D). apply (D l); auto. }
    assert (MapOk : forall l y, In l (pc ++ pa) -> forall x, In x (M ++ [(ix l, y)]) -> exists l', In l' (W ++ pc ++ pa) /\ fst x = ix l').
    { intros l y Hl x Hx. apply in_app_or in Hx. destruct Hx as [Hx|[<-|[]]]; [destruct (HM x Hx) as (l' & ? & ?); exists l'; split; auto; apply in_or_app; auto|exists l; split; [apply in_or_app; auto|reflexivity]]. }
    assert (MapOk' : forall x, In x M -> exists l', In l' (W ++ pc ++ pa) /\ fst x = ix l').
    { intros x Hx. destruct (HM x Hx) as (l' & ? & ?). exists l'. split; auto. apply in_or_app; auto. }
    destruct (Nat.eq_dec k 1) as [Ek|Ek].
    - (* one creation and one annihilation operator *)
      subst k. assert (X : exists p, pc = [p]) by (destruct pc as [|p [|]]; simpl in Lc; try lia; eauto). destruct X as (p & Ep).
      assert (X : exists q, pa = [q]) by (destruct pa as [|q [|]]; simpl in La; try lia; eauto). destruct X as (q & Eq).
      assert (Hp : In p L) by (apply Hpc; rewrite Ep; left; auto). assert (Hq : In q L) by (apply Hpa; rewrite Eq; left; auto).
      assert (Sp : leg_space p = s) by (apply Spc; rewrite Ep; left; auto).
      assert (Hpq : p <> q). { rewrite Ep, Eq in NW. apply nodup_app_inv in NW. destruct NW as (_ & N2 & _). inversion N2; subst. simpl in *. intuition. }
      destruct Ty as [([Ty|Ty] & _)|Ty]; rewrite Ty in K0.
      + exists pc, pa, ([(ix q, ix p)], [], 1), off2. cbn zeta. cbn [fst snd]. split; [|split; [exact O2'|split; [|split; [exact Hca|split; [exact Fc|split; [exact Fa|]]]]]].
        * rewrite <- K0. rewrite Ep, Eq. cbn [map]. change (aget [posL L p] 0) with (Ok (posL L p)). change (aget [posL L q] 0) with (Ok (posL L q)). cbn [bind]. unfold sq. rewrite !sq_index_ok by auto. cbn [bind].
          rewrite imput_fresh by (intros x Hx; apply Fresh; auto; rewrite Ep, Eq; simpl; auto). rewrite app_nil_r. do 2 f_equal. lia.
        * split; auto. apply MapOk. rewrite Ep, Eq. simpl; auto.
        * rewrite Ep, Eq. constructor. congruence.
      + exists pc, pa, ([(ix p, ix q)], [], -1), off2. cbn zeta. cbn [fst snd]. split; [|split; [exact O2'|split; [|split; [exact Hca|split; [exact Fc|split; [exact Fa|]]]]]].
        * rewrite <- K0. rewrite Ep, Eq. cbn [map]. change (aget [posL L p] 0) with (Ok (posL L p)). change (aget [posL L q] 0) with (Ok (posL L q)). cbn [bind]. unfold sq. rewrite !sq_index_ok by auto. cbn [bind].
          rewrite imput_fresh by (intros x Hx; apply Fresh; auto; rewrite Ep, Eq; simpl; auto). rewrite app_nil_r. do 2 f_equal. lia.
        * split; auto. apply MapOk. rewrite Ep, Eq. simpl; auto.
        * rewrite Ep, Eq. constructor. congruence.
      + unfold sq in K0. rewrite !sq_indices_ok in K0 by auto. fold sq in K0. cbn [bind] in K0. change (Z.of_nat 1 + Z.of_nat 1 =? 2) with true in K0. cbn match in K0.
        rewrite Ep, Eq in K0. cbn [map] in K0. change (aget [posL L p] 0) with (Ok (posL L p)) in K0. change (aget [posL L q] 0) with (Ok (posL L q)) in K0. cbn [bind rev app] in K0.
        rewrite Ep, Eq in NW, HW', Hb', Hca, MapOk'. unfold posL in K0. destruct (Z.ltb_spec (Z.of_nat (lpos p L)) (Z.of_nat (lpos q L))) as [Lt|Ge].
        * exists [p], [q], ([], [mkT gamma1_label [ix q] [ix p] Antisymmetric false], 1), off2. cbn zeta. cbn [fst snd]. split; [|split; [exact O2'|split; [|split; [exact Hca|split; [rewrite <- Ep; exact Fc|split; [rewrite <- Eq; exact Fa|]]]]]].
          -- rewrite <- K0, app_nil_r, Z.mul_1_r. reflexivity.
          -- split; auto. rewrite app_nil_r. auto.
          -- constructor; [congruence|]. apply precedes_lpos; auto. lia.
        * exists [p], [q], ([], [mkT eta1_label [ix q] [ix p] Antisymmetric false], -1), off2. cbn zeta. cbn [fst snd]. split; [|split; [exact O2'|split; [|split; [exact Hca|split; [rewrite <- Ep; exact Fc|split; [rewrite <- Eq; exact Fa|]]]]]].
          -- rewrite <- K0, app_nil_r. do 2 f_equal. lia.
          -- split; auto. rewrite app_nil_r. auto.
          -- constructor; [congruence|]. apply precedes_lpos; auto. assert (lpos p L <> lpos q L) by (intros E; apply Hpq; eapply lpos_inj; eauto). lia.
    - destruct Ty as [(_ & E)|Ty]; [contradiction|]. rewrite Ty in K0. unfold sq in K0. rewrite !sq_indices_ok in K0 by auto. fold sq in K0. cbn [bind] in K0.
      destruct (Z.eqb_spec (Z.of_nat k + Z.of_nat k) 2) as [E|_]; [lia|]. cbn [bind] in K0.
      exists pc, pa, ([], [mkT (lambda_label ++ dec_text (Z.of_nat k)) (rev (map ix pa)) (map ix pc) Antisymmetric false], 1), off2. cbn zeta. cbn [fst snd].
      split; [|split; [exact O2'|split; [|split; [exact Hca|split; [exact Fc|split; [exact Fa|]]]]]].
      + rewrite <- K0, app_nil_r, Z.mul_1_r. replace (Z.quot (Z.of_nat k + Z.of_nat k) 2) with (Z.of_nat k); [reflexivity|].
        replace (Z.of_nat k + Z.of_nat k) with (Z.of_nat k * 2) by lia. rewrite Z.quot_mul; lia.
      + split; auto. rewrite app_nil_r. auto.
      + assert (exists p pc', pc = p :: pc') as (p & pc' & Ep) by (destruct pc; simpl in Lc; [lia|eauto]).
        rewrite Ep. apply con_cum; [rewrite <- Ty; f_equal; apply Spc; rewrite Ep; left; auto|rewrite <- Ep; lia|lia|lia].
  Qed.
End Step.
