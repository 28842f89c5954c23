(** C70: the result of [contract] when all selections of contractions have the same repetition weight. *)
Set Warnings "-notation-overridden,-ambiguous-paths".
From Coq Require Import ZArith QArith List Lia Permutation.
From mathcomp Require Import all_ssreflect ssralg.
From Verif Require Import CountProofs Res RationalModel RationalSpec RationalProofs RegistryModel CoreModel AlgebraModel AlgebraSpec AlgebraProofs OperatorModel OperatorSpec OperatorProofs3 CombinatoricsModel CombinatoricsProofs AdjointModel OrderProofs WickSearchModel WickSearchSpec CountSpec WickCombSpec WickCombProofs WickLegSpec WickLegProofs SortSpec SortProofs ScalarSem LadderSpec CanonModel CanonSpec CanonProofs2 CanonSemSpec CanonSemProofs
  WickMatchProofs WickMatchProofs2 WickProductSpec WickProductProofs WickProductProofs2 WickProductProofs3 WickProductProofs4 WickProductProofs5 WickProductProofs6 WickProductProofs7 WickProductProofs8 WickEvalModel WickPairProofs WickPairProofs2 WickPairProofs3 WickPairProofs4 WickProductProofs9 WickProductProofs10
  WickGraphSpec WickGraphProofs WickGraphProofs2 WickLegProofs5 WickLegProofs6 WickPairProofs5 WickPairProofs6 WickProductProofs11 WickTotalProofs WickLinearProofs WickProductProofs12 WickElemProofs WickCompProofs WickSearchProofs WickProductProofs13 WickPairSpec WickPairProofs7 WickProductProofs14 WickTheoremSpec WickProductProofs15 WickMultSpec WickMultProofs.
Set Implicit Arguments.
Unset Strict Implicit.
Unset Printing Implicit Defensive.
Import GRing.Theory.
Local Open Scope ring_scope.
Local Notation iota := seq.iota.

Section Outcome.
  Variables (K : fieldType) (A : algType K) (orb : eqType) (st : osi) (cre ann : Z -> orb -> A).
  Hypothesis charK : [char K] =i pred0.
  Hypothesis HL : ladder_relations st cre ann.
  Hypothesis HS : single_reference st.
  Variables (T : text -> seq (Z * orb) -> seq (Z * orb) -> bool -> K) (orbs : Z -> seq orb).
  Hypothesis Uorbs : forall s, uniq (orbs s).
  Variables (ops : oprod) (phi0 : index -> orb) (v0 : leg -> orb).
  Notation n := (length ops).
  Hypothesis Hok : ops_ok st ops.
  Hypothesis Talt : forall B, (B < n)%N -> (forall lo, alternating -%R (fun up => T (labA ops B) lo up false)) /\ (forall up, alternating -%R (fun lo => T (labA ops B) lo up false)).
  Notation NPw := (NP st cre ann).
  Notation Nw := (normal_product st cre ann).
  Notation tv := (term_value NPw T orbs phi0).
  Notation F := (fun ps rest => Fv orbs NPw (PhiL ops T) ps rest v0).
  Notation norms l := (\prod_(o <- l) (op_norm st o)%:R^-1 : K).
  Notation mts := (mats (lcp st) (msize (blks st ops)).+1 (blks st ops)).

  Lemma class_count_gen ops0 maxc cs : ops_ok st ops0 -> Forall (allowed st maxc ops0) cs -> enough_legs st ops0 cs ->
    combinatorial_factor st ops0 cs = rat_of_Z (repetition_weight cs * Z.of_nat (length (List.filter (matches ops0 cs) [seq m.1.1 | m <- mats (lcp st) (msize (blks st ops0)).+1 (blks st ops0)]))).
  Proof.
    move=> Hok0 Al En. have [R [C E]] := @ways_matchings st ops0 maxc Hok0 (single_no_general HS) [seq m.1.1 | m <- mats (lcp st) (msize (blks st ops0)).+1 (blks st ops0)] (fun ps H => ms_ok HS H) (fun ps H => ms_complete (ltnSn _) H) (ms_once _ _ _) cs Al.
    rewrite -E. exact: weight_integer Hok0 Al En R C.
  Qed.
  Lemma count_pick_gen maxc cs p q : rearrangement n p -> rearrangement (length cs) q -> keeps_joined_order st cs p -> (forall c, In c cs -> ec_num_ops c = 2%Z) -> (forall c, In c cs -> length c = n) ->
    Forall (allowed st maxc ops) cs -> enough_legs st ops cs -> combinatorial_factor st (pick_ops ops p) (pick_cons cs p q) = combinatorial_factor st ops cs.
  Proof.
    move=> HP HQ HJ H2 Hn Al En. have Hok' := pick_ops_ok st ops p Hok HP.
    have Al' : Forall (allowed st maxc (pick_ops ops p)) (pick_cons cs p q).
    { apply/List.Forall_forall => c Hc. have [j [<- Hj]] := proj1 (in_map_iff _ _ _) Hc. apply (rearr_in _ _ _ HQ) in Hj.
      apply: (pick_allowed st maxc ops cs p Hok HP HJ (List.nth j cs [::])); first exact: nth_In. move/List.Forall_forall: Al; apply. exact: nth_In. }
    have En' := pick_enough st ops cs p HP q HQ En.
    rewrite (class_count_gen Hok Al En) (class_count_gen Hok' Al' En'). congr (rat_of_Z (_ * Z.of_nat _)).
    - apply: (prod_mult_image (pick_con p)); last exact: pick_cons_perm. move=> c d Hc Hd. apply: (pick_inj ops p HP); exact: Hn.
    - exact: (corr_count st ops p q cs Hok HP HQ HJ H2 Hn _ _ (fun ps H => ms_ok HS H) (fun ps H => ms_complete (ltnSn _) H) (ms_once _ _ _)
      (fun ps H => ms_ok HS H) (fun ps H => ms_complete (ltnSn _) H) (ms_once _ _ _)).
  Qed.
  Lemma graph_value_gen o cs bops bcs sign factor t fc maxc : canonical factor -> Forall (allowed st maxc ops) cs -> enough_legs st ops cs ->
    graph_choice o st ops cs (bops, bcs, sign) -> evaluate_contraction st bops bcs (rat_mul factor (rat_of_Z sign)) = Ok (t, fc) ->
    good_term st T t /\ canonical fc /\ exists ps rest, rep st ops cs ps rest /\
      ratK K fc *: tv t = (ratK K factor * norms ops * ratK K (combinatorial_factor st ops cs)) *: F ps rest.
  Proof.
    move=> Cf Al En G E. have Cs : canonical (rat_mul factor (rat_of_Z sign)) by apply: rat_mul_canonical => //; exact: rat_of_Z_canonical.
    have Es : ratK K (rat_mul factor (rat_of_Z sign)) = ratK K factor * zr K sign by rewrite ratK_mul // ?ratK_Z //; exact: canonical_den.
    have [Hok' [Al' En']] := graph_allowed _ _ _ _ _ _ _ _ Hok Al En G.
    move: G. rewrite /graph_choice. case: (wt_canonicalize o) => G.
    - have [p [q [P [Q [J [Eo [Ec [Esg _]]]]]]]] := canon_spec _ _ _ _ _ _ Hok G. rewrite {bops}Eo {bcs}Ec in E Hok' Al' En' G *.
      have H2 c : In c cs -> ec_num_ops c = 2%Z by move=> Hc; apply: (allowed_two st maxc ops Hok (single_no_general HS)); move/List.Forall_forall: Al; apply.
      have Hn c : In c cs -> length c = n. { move=> Hc. have : allowed st maxc ops c by move/List.Forall_forall: Al; apply. by case=> [? ? ? []|? ? ? []|? ? []]. }
      have [Gt [Cc [ps [rest [R V]]]]] := eval_value charK HS NPw Uorbs Hok' (@Talt' _ _ ops T Talt p P) Al' En' phi0 v0 Cs E.
      split=> //; split=> //. exists (List.map (ren2 p) ps), (List.map (ren p) rest). split; first exact: (rep_pick Hok P Q J H2 Hn R).
      rewrite V -(@Fv_pick _ _ _ _ _ T orbs NPw Hok Talt p P ps rest v0 v0 (proj2 (proj2 R))) -Esg scalerA. congr (_ *: _).
      rewrite Es (count_pick_gen P Q J H2 Hn Al En) (prod_perm _ (pick_ops_perm P)). move: (ratK K factor) (\prod_(o <- ops) _) (ratK K (combinatorial_factor _ _ _)) => a b c. by rewrite -!mulrA; congr (_ * _); rewrite mulrC -!mulrA.
    - case: G => Eo Ec Esg. rewrite {bops}Eo {bcs}Ec {sign}Esg in E Es Cs Hok' Al' En' *.
      have [Gt [Cc [ps [rest [R V]]]]] := eval_value charK HS NPw Uorbs Hok Talt Al En phi0 v0 Cs E.
      split=> //; split=> //. exists ps, rest. split=> //. by rewrite V Es zr1 mulr1.
  Qed.

  Variables (V : lmodType K) (f : {linear A -> V}).
  Notation g := (fun t => f (tv t)).
  Lemma outcome_value_gen fuel o els cvs cv factor minr maxr l : canonical factor -> search fuel o st ops minr maxr = Ok (els, cvs) -> In cv cvs ->
    let cs := List.map (fun c => List.nth (Z.to_nat c) els [::]) cv in
    process_single o st els ops factor minr maxr cv (Ok l) ->
    keysP (key_ok st) l /\ mcanon l /\ rsum g l = (ratK K factor * norms ops) *: (zr K (repetition_weight cs) *: \sum_(m <- mts | matches ops cs m.1.1) f (F m.1.1 m.1.2)).
  Proof.
    move=> Cf E Hcv cs. rewrite /process_single con_rank_used. have [_ R] := proj1 (search_in Hok E cv) Hcv. rewrite /left_over -/(ops_rank ops) in R.
    have -> : ((minr <=? ops_rank ops - used ec_num_ops els cv) && (ops_rank ops - used ec_num_ops els cv <=? maxr))%Z by apply/andP; split; apply/Z.leb_le; lia.
    move=> [bops [bcs [sign [canon [G [C El]]]]]]. have [Al En] := generated_ok _ _ _ _ _ _ _ _ _ Hok E Hcv. rewrite -/cs in G Al En.
    move: El C. case Ee: (evaluate_contraction _ _ _ _) => [[t fc]| | |] //= El C. have Tc := C t fc erefl. case Ec: canon El Tc => [[t' s]| | |] //= -[->] Tc {C canon Ec}.
    have [Gt [Cc [ps [rest [Rp V1]]]]] := graph_value_gen Cf Al En G Ee. have [Kt Vt] := canon_key HL HS orbs phi0 Gt Tc.
    have Cc' : canonical (rat_mul (rat_of_Z s) fc) by apply: rat_mul_canonical => //; exact: rat_of_Z_canonical.
    split; first by constructor. split; first by constructor.
    rewrite /= addr0 (class_value HL HS orbs Hok Talt f v0 Rp) !scalerA. rewrite (class_count_gen Hok Al En) ratK_Z zrM zr_nat mulrA in V1.
    rewrite -!linearZ -V1 Vt scalerA ratK_mul //; [|exact: canonical_den]. by rewrite ratK_Z mulrC.
  Qed.

  Lemma process_value_gen fuel o els cvs factor minr maxr r : canonical factor -> search fuel o st ops minr maxr = Ok (els, cvs) ->
    process_contractions o st els cvs ops factor minr maxr (Ok r) ->
    keysP (key_ok st) r /\ rsum g r = (ratK K factor * norms ops) *: \sum_(cv <- cvs) zr K (repetition_weight (List.map (fun c => List.nth (Z.to_nat c) els [::]) cv)) *: \sum_(m <- mts | matches ops (List.map (fun c => List.nth (Z.to_nat c) els [::]) cv) m.1.1) f (F m.1.1 m.1.2).
  Proof.
    move=> Cf E [rs [Fr Er]].
    have Rg : respectsV (V := V) term_eqb (key_ok st) g by move=> k k' [Hk _] [Hk' _] Ek; rewrite (tv_respects NPw T orbs phi0 Hk Hk' Ek).
    have G : forall cvs0 rs0, Forall2 (process_single o st els ops factor minr maxr) cvs0 rs0 -> (forall cv, In cv cvs0 -> In cv cvs) ->
      forall acc r0, keysP (key_ok st) acc -> mgood acc -> foldM add_outcome acc rs0 = Ok r0 ->
      keysP (key_ok st) r0 /\ rsum g r0 = rsum g acc + (ratK K factor * norms ops) *: \sum_(cv <- cvs0) zr K (repetition_weight (List.map (fun c => List.nth (Z.to_nat c) els [::]) cv)) *: \sum_(m <- mts | matches ops (List.map (fun c => List.nth (Z.to_nat c) els [::]) cv) m.1.1) f (F m.1.1 m.1.2).
    { move=> cvs0 rs0. elim=> [|cv r1 cvs1 rs1 P1 F1 IH] Hin acc r0 Ka Ga.
      - move=> [<-]. by rewrite big_nil scaler0 addr0.
      - rewrite /=. case E1: r1 P1 => [l| | |] //= P1 Ef. have Hcv := Hin cv (or_introl erefl).
        have [Kl [Cl Vl]] := outcome_value_gen Cf E Hcv P1.
        have Gl : mgood l by exact: mcanon_good Cl.
        have [Kr Vr] := IH (fun x Hx => Hin x (or_intror Hx)) _ _ (keysP_mplus term_ltb _ _ _ Ka Kl) (mgood_addall term_ltb term_eqb swo_term fst snd l acc Gl Ga) Ef.
        split=> //. rewrite Vr big_cons scalerDr addrA. congr (_ + _). rewrite -Vl /mplus (rsum_addall charK swo_term Rg) //. congr (_ + rsum _ _). elim: (l) => [|[k c] l' IHl] //=. by rewrite IHl. }
    have [Kr Vr] := G cvs rs Fr (fun _ H => H) [::] r (List.Forall_nil _) (List.Forall_nil _) (esym Er). split=> //. by rewrite Vr /= add0r.
  Qed.
  Variables (minr maxr : Z).
  Hypothesis Hf : only_ranks st cre ann f (ops_rank ops) minr maxr.
  Theorem contract_value_gen o factor r w : uniform_weight st (wt_maxcumulant o) ops minr maxr w -> canonical factor -> contract o st factor ops minr maxr (Ok r) ->
    f (expr_value Nw T orbs phi0 r) = (zr K w * ratK K factor) *: f (product_value st cre ann T orbs phi0 ops).
  Proof.
    move=> D Cf [fuel [C _]]. move: C. rewrite /contract_run. case E: (search fuel o st ops minr maxr) => [[els cvs]| | |] // C.
    have Hg := single_no_general HS.
    have [Kr Vr] := process_value_gen Cf E C.
    have -> : f (expr_value Nw T orbs phi0 r) = rsum (fun t => f (term_value NPw T orbs phi0 t)) r.
    { rewrite rsum_linear /expr_value. congr (f _). apply: rsum_ext_in => x Hx. symmetry. apply: key_value. move/List.Forall_forall: Kr; exact. }
    have U cv : In cv cvs -> repetition_weight (List.map (fun c => List.nth (Z.to_nat c) els [::]) cv) = w.
    { move=> Hcv. have [Al En] := generated_ok _ _ _ _ _ _ _ _ _ Hok E Hcv. apply: D => //. have [_ R] := proj1 (search_in Hok E cv) Hcv. by rewrite /left_after -used_total. }
    have -> : f (product_value st cre ann T orbs phi0 ops) = norms ops *: f (\prod_(o0 <- ops) term_value Nw T orbs phi0 (op_as_term st o0)) by rewrite product_norms linearZ.
    have -> : rsum (fun t => f (tv t)) r = (ratK K factor * norms ops * zr K w) *: \sum_(cv <- cvs) \sum_(m <- mts | matches ops (List.map (fun c => List.nth (Z.to_nat c) els [::]) cv) m.1.1) f (F m.1.1 m.1.2).
    { rewrite Vr -[RHS]scalerA. congr (_ *: _). rewrite scaler_sumr. apply: eq_big_In => cv Hcv. by rewrite U. }
    rewrite [RHS]scalerA. congr (_ *: _); first by rewrite [zr K w * _]mulrC mulrAC.
    rewrite (product_matchings HL HS orbs Talt phi0 v0 (ltnSn _)) linear_sum /=. symmetry. have [E1 _] := search_inv E.
    apply: (sum_classes (P := fun cv m => matches ops (List.map (fun c => List.nth (Z.to_nat c) els [::]) cv) m.1.1)); first exact: search_nodup Hok E.
    move=> m Hm. have Po : pairs_ok st ops m.1.1 by apply: (ms_ok HS (fuel := (msize (blks st ops)).+1)); apply/in_map_iff; exists m.
    have [cv [Mc [Cc Pc]]] := class_exists _ _ _ _ _ Hok E1 _ Po.
    have Lo := class_left_over st 0%Z ops els Hok Hg _ _ Po Pc.
    case Rk: ((minr <=? left_over els ops cv) && (left_over els ops cv <=? maxr))%Z.
    - left. exists cv. move/andP: Rk => [/Z.leb_le R1 /Z.leb_le R2]. have Hcv : In cv cvs by apply/(search_in Hok E); split.
      split=> // cv' Hcv'. split=> [/permb_spec P'|->]; last by apply/permb_spec. have [[Mc' _] _] := proj1 (search_in Hok E cv') Hcv'.
      apply: (class_unique _ _ _ _ _ Hok E1) => //. exact: Permutation_trans (Permutation_sym P') Pc.
    - right. split.
      + apply: (outside T orbs v0 Hok Hf); [by have := sperm_perm _ _ _ (mats_sperm (fuel := (msize (blks st ops)).+1) Hm); rewrite -legs_blks|].
        rewrite -Lo => -[R1 R2]. move/Z.leb_le: R1 Rk => ->. by move/Z.leb_le: R2 => ->.
      + move=> cv' Hcv'. apply/negP => /permb_spec P'. have [_ R'] := proj1 (search_in Hok E cv') Hcv'.
        move: R'. rewrite (class_left_over st 0%Z ops els Hok Hg _ _ Po P') -Lo => -[R1 R2]. move/Z.leb_le: R1 Rk => ->. by move/Z.leb_le: R2 => ->.
  Qed.
End Outcome.
