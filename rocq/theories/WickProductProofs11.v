(** C48: the contribution of a set of contracted pairs after the rearrangement of the operators. *)
Set Warnings "-notation-overridden,-ambiguous-paths".
From Coq Require Import ZArith List Lia Permutation.
From mathcomp Require Import all_ssreflect ssralg.
From Verif Require Import CountProofs Res RationalModel RegistryModel CoreModel OperatorModel OrderProofs WickSearchModel WickSearchSpec CountSpec WickCombSpec WickCombProofs WickLegSpec WickLegProofs SortSpec SortProofs ScalarSem LadderSpec CanonSpec CanonSemSpec CanonSemProofs
  WickMatchProofs WickMatchProofs2 WickProductSpec WickProductProofs WickProductProofs2 WickProductProofs3 WickProductProofs4 WickProductProofs5 WickProductProofs6 WickProductProofs7 WickEvalModel WickPairProofs WickPairProofs2 WickPairProofs3 WickPairProofs4 WickProductProofs9 WickProductProofs10
  WickGraphSpec WickGraphProofs WickGraphProofs2 WickLegProofs6 WickPairProofs5 WickPairProofs6.
Set Implicit Arguments.
Unset Strict Implicit.
Unset Printing Implicit Defensive.
Import GRing.Theory.
Local Open Scope ring_scope.
Local Notation iota := seq.iota.

Section Graph.
  Variables (K : fieldType) (V : lmodType K) (orb : eqType) (st : osi).
  Variables (ops : oprod) (T : text -> seq (Z * orb) -> seq (Z * orb) -> bool -> K) (orbs : Z -> seq orb) (W : seq (bool * (Z * orb)) -> V).
  Notation n := (length ops).
  Hypothesis Hok : ops_ok st ops.
  Hypothesis Talt : forall B, (B < n)%N -> (forall lo, alternating -%R (fun up => T (labA ops B) lo up false)) /\ (forall up, alternating -%R (fun lo => T (labA ops B) lo up false)).
  Variables (p q : seq nat) (cs : seq econ).
  Hypothesis HP : rearrangement n p.
  Notation ops' := (pick_ops ops p).
  Notation rho := (ren p).
  Notation L := (product_legs st ops).
  Notation L' := (product_legs st ops').
  Notation sgn := (exchange_sign (odd_op ops) p).

  Lemma lab_pick i : (i < n)%N -> labA ops' i = labA ops (List.nth i p O).
  Proof. move=> /ltP Hi. by rewrite /labA (pick_op ops p HP). Qed.
  Lemma nth_lt i : (i < n)%N -> (List.nth i p O < n)%N.
  Proof. move=> /ltP Hi. apply/ltP. exact: rearr_nth_lt. Qed.
  Lemma Talt' B : (B < length ops')%N -> (forall lo, alternating -%R (fun up => T (labA ops' B) lo up false)) /\ (forall up, alternating -%R (fun lo => T (labA ops' B) lo up false)).
  Proof. rewrite (pick_ops_length ops p HP) => HB. rewrite (lab_pick HB). exact: Talt (nth_lt HB). Qed.
  Lemma tel_pick v v' i : (i < n)%N -> (forall l, In l L' -> v' l = v (rho l)) -> tel T st ops' v' i = tel T st ops v (List.nth i p O).
  Proof.
    move=> Hi E. have Hi' : (i < n)%coq_nat by apply/ltP. rewrite /tel (pick_op ops p HP) // -(ren_cre_legs st ops p HP) // -(ren_ann_legs st ops p HP) // !List.map_map.
    have In' l : In l (op_cre_legs st ops' i) \/ In l (op_ann_legs st ops' i) -> In l L'.
    { move=> H. apply in_flat_map. exists i. split; first by apply/in_seq; rewrite (pick_ops_length ops p HP); lia. apply: List.in_or_app. case: H => H; [by left|right]. by apply List.in_rev; rewrite List.rev_involutive. }
    congr (T _ _ _ _); apply: List.map_ext_in => l Hl; rewrite /xs E //; apply: In'; tauto.
  Qed.
  Lemma legs_op l : In l L' -> (leg_op l < n)%coq_nat.
  Proof. move=> /in_product [H _]. by rewrite (pick_ops_length ops p HP) in H. Qed.
  Lemma Phi_pick v v' U : Permutation L' U -> (forall l, In l L' -> v' l = v (rho l)) ->
    zr K sgn * PhiL ops' T (List.map (kv v') U) = PhiL ops T (List.map (kv v) (List.map rho U)).
  Proof.
    move=> P E. have [s S] := perm_sperm _ _ P.
    have A1 := alt_spermK (PhiL_alternating Talt') (sperm_map (kv v') _ _ _ S).
    have A2 := alt_spermK (PhiL_alternating Talt) (sperm_map (kv v) _ _ _ (sperm_map rho _ _ _ S)).
    have A3 := alt_spermK (PhiL_alternating Talt) (sperm_map (kv v) _ _ _ (ren_sperm st ops p Hok HP)).
    have A4 : PhiL ops' T (List.map (kv v') L') = PhiL ops T (List.map (kv v) L).
    { rewrite !Phi_legs (pick_ops_length ops p HP).
      transitivity (\prod_(A <- [seq List.nth i p O | i <- iota 0 n]) tel T st ops v A).
      - rewrite big_map. apply: eq_big_seq => i. rewrite mem_iota add0n /= => Hi. exact: tel_pick.
      - apply: prod_perm. rewrite -[[seq _ | i <- _]]/(List.map (fun i => List.nth i p O) (List.seq 0 n)). rewrite -(rearr_length _ _ HP) seq_nth_id. apply: Permutation_sym. rewrite (rearr_length _ _ HP). exact: HP. }
    have Z : zr K s * (zr K sgn * PhiL ops' T (List.map (kv v') U)) = zr K s * PhiL ops T (List.map (kv v) (List.map rho U)).
    { by rewrite mulrCA -A1 -A2 A3 A4. }
    have Z2 := congr1 (fun x => zr K s * x) Z. by rewrite /= !mulrA (zr_sq K S) !mul1r in Z2.
  Qed.
  Lemma unz_ren ps : unz (List.map (ren2 p) ps) = List.map rho (unz ps).
  Proof. by rewrite -!unpair_unz ren2_unpair. Qed.
  Lemma Fv_pick ps rest v0 v0' : Permutation L' (unz ps ++ rest) ->
    zr K sgn *: Fv orbs W (PhiL ops' T) ps rest v0' = Fv orbs W (PhiL ops T) (List.map (ren2 p) ps) (List.map rho rest) v0.
  Proof.
    move=> P. have ND : NoDup (unz ps ++ rest) by exact: Permutation_NoDup P (product_nodup st ops').
    have Hin l : In l (unz ps ++ rest) -> In l L' by move=> Hl; exact: (Permutation_in l (Permutation_sym P) Hl).
    have EU : unz (List.map (ren2 p) ps) ++ List.map rho rest = List.map rho (unz ps ++ rest) by rewrite unz_ren List.map_app.
    rewrite /Fv scaler_sumr EU. apply: asum_pos.
    - rewrite List.map_map. exact: List.map_ext.
    - exact: ND.
    - apply: map_nodup => // x y Hx Hy. apply: (ren_inj ops p HP); apply: legs_op; exact: Hin.
    - move=> v' v. rewrite List.map_map => E.
      have Eg l : In l L' -> v' l = v (rho l) by move=> Hl; exact: (@List.ext_in_map _ _ _ _ _ E l (Permutation_in l P Hl)).
      rewrite /Ev scalerA mulrA. congr (_ *: _).
      + congr (_ * _).
        * have -> : unz (List.map (kvp v') ps) ++ List.map (kv v') rest = List.map (kv v') (unz ps ++ rest) by rewrite List.map_app map_unz.
          have -> : unz (List.map (kvp v) (List.map (ren2 p) ps)) ++ List.map (kv v) (List.map rho rest) = List.map (kv v) (List.map rho (unz ps ++ rest)) by rewrite -EU List.map_app map_unz.
          exact: Phi_pick.
        * rewrite /dl List.map_map -[List.map (kvp v') ps]/(map _ _) big_map. apply: prod_ext => x Hx. rewrite /= !Eg //; apply: Hin; apply: List.in_or_app; left; [apply: snd_unz|apply: fst_unz]; exact: List.in_map.
      + congr (W _). rewrite /wordl !List.map_map. apply: List.map_ext_in => l Hl. rewrite /kv /lcr /lsp /= Eg //. apply: Hin. apply: List.in_or_app. by right.
  Qed.

  Hypothesis HQ : rearrangement (length cs) q.
  Notation cs' := (pick_cons cs p q).
  Hypothesis HJ : keeps_joined_order st cs p.
  Hypothesis H2 : forall c, In c cs -> ec_num_ops c = 2%Z.
  Hypothesis Hn : forall c, In c cs -> length c = n.
  Lemma rep_pick ps rest : rep st ops' cs' ps rest -> rep st ops cs (List.map (ren2 p) ps) (List.map rho rest).
  Proof.
    move=> [A1 [A2 A3]]. have [B1 B2] := corr_fwd st ops p q cs Hok HP HQ HJ H2 Hn ps A1 A2. split=> //. split=> //.
    have -> : unz (List.map (ren2 p) ps) ++ List.map rho rest = List.map rho (unz ps ++ rest) by rewrite unz_ren List.map_app.
    apply: (Permutation_trans (l' := List.map rho L')); last exact: Permutation_map.
    apply: Permutation_sym. exact: sperm_perm (ren_sperm st ops p Hok HP).
  Qed.
  Hypothesis HS : single_reference st.
  Lemma count_pick maxc : Forall (allowed st maxc ops) cs -> enough_legs st ops cs -> (forall c, (mult cs c <= 2)%coq_nat) ->
    combinatorial_factor st ops' cs' = combinatorial_factor st ops cs.
  Proof.
    move=> Al En M. have Hok' := pick_ops_ok st ops p Hok HP.
    have Al' : Forall (allowed st maxc ops') cs'.
    { apply/List.Forall_forall => c Hc. have [j [<- Hj]] := proj1 (in_map_iff _ _ _) Hc. apply (rearr_in _ _ _ HQ) in Hj.
      apply: (pick_allowed st maxc ops cs p Hok HP HJ (List.nth j cs [::])); first exact: nth_In. move/List.Forall_forall: Al; apply. exact: nth_In. }
    have En' := pick_enough st ops cs p HP q HQ En.
    have M' := pick_mult ops p q cs HP HQ Hn 2 M.
    rewrite (class_count HS Hok Al En M) (class_count HS Hok' Al' En' M'). congr (rat_of_Z (Z.of_nat _)).
    exact: (corr_count st ops p q cs Hok HP HQ HJ H2 Hn _ _ (fun ps H => ms_ok HS H) (fun ps H => ms_complete (ltnSn _) H) (ms_once _ _ _)
      (fun ps H => ms_ok HS H) (fun ps H => ms_complete (ltnSn _) H) (ms_once _ _ _)).
  Qed.
End Graph.
