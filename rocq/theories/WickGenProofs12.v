(** C61: the outcome of one composite contraction. *)
Set Warnings "-notation-overridden,-ambiguous-paths".
From Coq Require Import ZArith QArith List Lia Permutation.
From mathcomp Require Import all_ssreflect ssralg.
From Verif Require Import SignPerm CountProofs Res RationalModel RationalSpec RationalProofs RegistryModel CoreModel AlgebraModel AlgebraSpec AlgebraProofs AdjointModel OperatorModel DecModel OrderProofs WickSearchModel WickSearchSpec CountSpec WickCombSpec WickCombProofs WickLegSpec WickLegProofs SortSpec SortProofs ScalarSem LadderSpec CanonModel CanonSpec CanonProofs2 CanonSemSpec CanonSemProofs
  WickMatchProofs WickMatchProofs2 WickProductSpec WickTheoremSpec WickProductProofs WickProductProofs2 WickProductProofs3 WickProductProofs4 WickProductProofs5 WickProductProofs6 WickProductProofs7 WickProductProofs8 WickProductProofs9 WickProductProofs10 WickProductProofs11 WickProductProofs12 WickEvalModel WickPairProofs WickPairProofs2 WickPairProofs3 WickPairProofs4 WickGraphSpec WickGraphProofs WickGraphProofs2 WickElemProofs2 WickLegProofs5 WickLegProofs6 WickTotalProofs WickLinearProofs WickPairProofs5 WickPairProofs6
  WickGeneralSpec WickConvProofs WickConvProofs2 WickBlockProofs WickGenProofs WickGenProofs2 WickGenProofs3 WickGenProofs4 WickGenProofs5 WickGenProofs6 WickGenProofs7 WickGenProofs8 WickGenProofs9 WickGenProofs10 WickGenProofs11 OperatorSpec OperatorProofs3 CombinatoricsModel CombinatoricsProofs WickElemProofs WickCompProofs WickSearchProofs WickProductProofs13 WickProductProofs14.
Set Implicit Arguments.
Unset Strict Implicit.
Unset Printing Implicit Defensive.
Import GRing.Theory.
Local Open Scope ring_scope.
Local Notation lsub := CountSpec.subseq.
Local Notation iota := seq.iota.
Local Notation leg_dec := WickCombProofs.leg_dec.
#[local] Arguments WickCombProofs.leg_dec : simpl never.

Section Outcome.
  Variables (K : fieldType) (A : algType K) (orb : eqType) (st : osi) (cre ann : Z -> orb -> A).
  Hypothesis charK : [char K] =i pred0.
  Hypothesis HL : ladder_relations st cre ann.
  Hypothesis HS : multi_reference st.
  Variables (T : text -> seq (Z * orb) -> seq (Z * orb) -> bool -> K) (orbs : Z -> seq orb) (maxc : nat).
  Hypothesis Hm1 : (1 <= maxc)%N.
  Hypothesis HD : densities st T.
  Hypothesis Uorbs : forall s, uniq (orbs s).
  Variables (ops : oprod) (phi0 : index -> orb) (v0 : leg -> orb).
  Notation n := (length ops).
  Notation L := (product_legs st ops).
  Hypothesis Hok : ops_ok st ops.
  Hypothesis Talt : forall B, (B < n)%N -> (forall lo, alternating -%R (fun up => T (labA ops B) lo up false)) /\ (forall up, alternating -%R (fun lo => T (labA ops B) lo up false)).
  Notation NGw := (NG st cre ann (cumulant st T maxc)).
  Notation tv := (term_value NGw T orbs phi0).
  Notation F := (fun bs rest => BFv orbs NGw (PhiL ops T) (lnk st T maxc) bs rest v0).
  Notation norms l := (\prod_(o <- l) (op_norm st o)%:R^-1 : K).

  Lemma ggraph_value o cs bops bcs sign factor t fc : canonical factor -> Forall (allowed st (Z.of_nat maxc) ops) cs -> enough_legs st ops cs -> (forall c, (mult cs c <= 2)%coq_nat) ->
    graph_choice o st ops cs (bops, bcs, sign) -> evaluate_contraction st bops bcs (rat_mul factor (rat_of_Z sign)) = Ok (t, fc) ->
    good_term st T t /\ canonical fc /\ exists bs rest, brep st ops cs bs rest /\
      ratK K fc *: tv t = (ratK K factor * norms ops * ratK K (combinatorial_factor st ops cs)) *: F bs rest.
  Proof.
    move=> Cf Al En M G E. have Cs : canonical (rat_mul factor (rat_of_Z sign)) by apply: rat_mul_canonical => //; exact: rat_of_Z_canonical.
    have Es : ratK K (rat_mul factor (rat_of_Z sign)) = ratK K factor * zr K sign by rewrite ratK_mul // ?ratK_Z //; exact: canonical_den.
    have [Hok' [Al' En']] := graph_allowed _ _ _ _ _ _ _ _ Hok Al En G.
    move: G. rewrite /graph_choice. case: (wt_canonicalize o) => G.
    - have [p [q [P [Q [J [Eo [Ec [Esg _]]]]]]]] := canon_spec _ _ _ _ _ _ Hok G. rewrite {bops}Eo {bcs}Ec in E Hok' Al' En' G *.
      have [Gt [Cc [bs [rest [R V]]]]] := geval_value charK NGw HD Uorbs Hok' (@Talt' _ _ ops T Talt p P) Al' En' phi0 v0 Cs E.
      split=> //; split=> //. exists (List.map (List.map (ren p)) bs), (List.map (ren p) rest). split; first exact: (brep_pick st ops p q cs (Z.of_nat maxc) Hok P Q Al bs rest R).
      rewrite V -(BFv_pick orbs NGw Hok Talt P Q J Al v0 v0 R) -Esg scalerA. congr (_ *: _).
      rewrite Es (bcount_pick Hok P Q J Al En M) (prod_perm _ (pick_ops_perm P)). move: (ratK K factor) (\prod_(o <- ops) _) (ratK K (combinatorial_factor _ _ _)) => a b c. by rewrite -!mulrA; congr (_ * _); rewrite mulrC -!mulrA.
    - case: G => Eo Ec Esg. rewrite {bops}Eo {bcs}Ec {sign}Esg in E Es Cs Hok' Al' En' *.
      have [Gt [Cc [bs [rest [R V]]]]] := geval_value charK NGw HD Uorbs Hok Talt Al En phi0 v0 Cs E.
      split=> //; split=> //. exists bs, rest. split=> //. by rewrite V Es zr1 mulr1.
  Qed.

  Variables (V : lmodType K) (f : {linear A -> V}).
  Notation g := (fun t => f (tv t)).
  Notation key_ok := (key_ok st).
  Lemma gcanon_key t t' s : good_term st T t -> term_canonicalize st t (Ok (t', s)) -> key_ok t' /\ tv t = zr K s *: tv t'.
  Proof.
    move=> [Sp [Cov [Nc Sd]]] Tc. have [h [Hs [_ [_ Rn]]]] := canon_renaming _ _ _ _ Sp Tc. split; first split.
    - exact: renamed_no_conj Rn Nc.
    - move=> i. case=> [/(renamed_in_ops _ _ _ i Rn)|/(renamed_in_tensors _ _ _ i Rn)] [j [Hj <-]]; rewrite Hs; apply: Sp; [by left|by right].
    - apply: term_value_eq Tc => //. exact: (NGw_alternating HL HS maxc HD).
  Qed.
  Lemma goutcome_value fuel o els cvs cv factor minr maxr l : wt_maxcumulant o = Z.of_nat maxc -> canonical factor -> search fuel o st ops minr maxr = Ok (els, cvs) -> In cv cvs ->
    let cs := List.map (fun c => List.nth (Z.to_nat c) els [::]) cv in (forall c, (mult cs c <= 2)%coq_nat) ->
    process_single o st els ops factor minr maxr cv (Ok l) ->
    keysP key_ok l /\ mcanon l /\ rsum g l = (ratK K factor * norms ops) *: \sum_(m <- bmats (cpb st ops els) (size L) L | bmatches ops cs m.1.1) f (F m.1.1 m.1.2).
  Proof.
    move=> Em Cf E Hcv cs M. rewrite /process_single con_rank_used. have [_ R] := proj1 (search_in Hok E cv) Hcv. rewrite /left_over -/(ops_rank ops) in R.
    have -> : ((minr <=? ops_rank ops - used ec_num_ops els cv) && (ops_rank ops - used ec_num_ops els cv <=? maxr))%Z by apply/andP; split; apply/Z.leb_le; lia.
    have [E1 _] := search_inv E. rewrite Em in E1. have [_ Hels] := els_allowed fuel st (Z.of_nat maxc) ops els Hok E1.
    move=> [bops [bcs [sign [canon [G [C El]]]]]]. have [Al En] := generated_ok _ _ _ _ _ _ _ _ _ Hok E Hcv. rewrite -/cs in G Al En. rewrite Em in Al.
    move: El C. case Ee: (evaluate_contraction _ _ _ _) => [[t fc]| | |] //= El C. have Tc := C t fc erefl. case Ec: canon El Tc => [[t' s]| | |] //= -[->] Tc {C canon Ec}.
    have [Gt [Cc [bs [rest [Rp V1]]]]] := ggraph_value Cf Al En M G Ee. have [Kt Vt] := gcanon_key Gt Tc.
    have Cc' : canonical (rat_mul (rat_of_Z s) fc) by apply: rat_mul_canonical => //; exact: rat_of_Z_canonical.
    split; first by constructor. split; first by constructor.
    rewrite /= addr0 (bclass_value HL HS orbs HD Hok Talt Hels f v0 Al Rp) scalerA. rewrite (bclass_count Hok Hels Al En M) ratK_Z zr_nat in V1.
    rewrite -!linearZ -V1 Vt scalerA ratK_mul //; [|exact: canonical_den]. by rewrite ratK_Z mulrC.
  Qed.

  Lemma gprocess_value fuel o els cvs factor minr maxr r : wt_maxcumulant o = Z.of_nat maxc -> canonical factor -> search fuel o st ops minr maxr = Ok (els, cvs) ->
    (forall cv, In cv cvs -> forall c, (mult (List.map (fun c => List.nth (Z.to_nat c) els [::]) cv) c <= 2)%coq_nat) ->
    process_contractions o st els cvs ops factor minr maxr (Ok r) ->
    keysP key_ok r /\ rsum g r = (ratK K factor * norms ops) *: \sum_(cv <- cvs) \sum_(m <- bmats (cpb st ops els) (size L) L | bmatches ops (List.map (fun c => List.nth (Z.to_nat c) els [::]) cv) m.1.1) f (F m.1.1 m.1.2).
  Proof.
    move=> Em Cf E M [rs [Fr Er]].
    have Rg : respectsV (V := V) term_eqb key_ok g by move=> k k' [Hk _] [Hk' _] Ek; rewrite (tv_respects NGw T orbs phi0 Hk Hk' Ek).
    have G : forall cvs0 rs0, Forall2 (process_single o st els ops factor minr maxr) cvs0 rs0 -> (forall cv, In cv cvs0 -> In cv cvs) ->
      forall acc r0, keysP key_ok acc -> mgood acc -> foldM add_outcome acc rs0 = Ok r0 ->
      keysP key_ok r0 /\ rsum g r0 = rsum g acc + (ratK K factor * norms ops) *: \sum_(cv <- cvs0) \sum_(m <- bmats (cpb st ops els) (size L) L | bmatches ops (List.map (fun c => List.nth (Z.to_nat c) els [::]) cv) m.1.1) f (F m.1.1 m.1.2).
    { move=> cvs0 rs0. elim=> [|cv r1 cvs1 rs1 P1 F1 IH] Hin acc r0 Ka Ga.
      - move=> [<-]. by rewrite big_nil scaler0 addr0.
      - rewrite /=. case E1: r1 P1 => [l| | |] //= P1 Ef. have Hcv := Hin cv (or_introl erefl).
        have [Kl [Cl Vl]] := goutcome_value Em Cf E Hcv (M cv Hcv) P1.
        have Gl : mgood l by exact: mcanon_good Cl.
        have [Kr Vr] := IH (fun x Hx => Hin x (or_intror Hx)) _ _ (keysP_mplus term_ltb _ _ _ Ka Kl) (mgood_addall term_ltb term_eqb swo_term fst snd l acc Gl Ga) Ef.
        split=> //. rewrite Vr big_cons scalerDr addrA. congr (_ + _). rewrite -Vl /mplus (rsum_addall charK swo_term Rg) //. congr (_ + rsum _ _). elim: (l) => [|[k c] l' IHl] //=. by rewrite IHl. }
    have [Kr Vr] := G cvs rs Fr (fun _ H => H) [::] r (List.Forall_nil _) (List.Forall_nil _) (esym Er). split=> //. by rewrite Vr /= add0r.
  Qed.
End Outcome.

Section Final.
  Variables (K : fieldType) (A : algType K) (orb : eqType) (st : osi) (cre ann : Z -> orb -> A).
  Hypothesis charK : [char K] =i pred0.
  Hypothesis HL : ladder_relations st cre ann.
  Hypothesis HS : multi_reference st.
  Variables (T : text -> seq (Z * orb) -> seq (Z * orb) -> bool -> K) (orbs : Z -> seq orb) (maxc : nat).
  Hypothesis Hm1 : (1 <= maxc)%N.
  Hypothesis HD : densities st T.
  Variable N : seq (bool * (Z * orb)) -> A.
  Hypothesis HN : generalized_normal_product st cre ann T maxc N.
  Hypothesis Uorbs : forall s, uniq (orbs s).
  Variables (phi0 : index -> orb).
  Notation NGw := (NG st cre ann (cumulant st T maxc)).
  Notation norms l := (\prod_(o <- l) (op_norm st o)%:R^-1 : K).

  Lemma gkey_value t : key_ok st t -> term_value NGw T orbs phi0 t = term_value N T orbs phi0 t.
  Proof.
    move=> [_ Sp]. apply: sum_over_ext => phi. rewrite /value_at. congr (_ *: _). apply: (NGw_N HN) => x Hx.
    have [o [<- Ho]] := proj1 (in_map_iff _ _ _) Hx. apply: Sp. left. by exists o.
  Qed.
  Lemma gproduct_norms ops : gproduct_value st T N orbs phi0 ops = norms ops *: \prod_(o <- ops) term_value N T orbs phi0 (op_as_term st o).
  Proof. by rewrite /gproduct_value -scaler_prod. Qed.
  Lemma glabels ops : gproduct_ok st T maxc ops -> forall B, (B < length ops)%N -> antisymmetric_tensor T (labA ops B).
  Proof. move=> [_ [_ H]] B HB. apply: H. apply: nth_In. exact/ltP. Qed.
  Lemma mult_times (h : econ -> Z) cs c : (forall d, In d cs -> (0 <= h d)%Z) -> (Z.of_nat (mult cs c) * h c <= total_of h cs)%Z.
  Proof.
    elim: cs => [|d cs IH] NN; first by rewrite /=; lia. have := IH (fun x Hx => NN x (or_intror Hx)). have := NN d (or_introl erefl).
    rewrite /mult /=. case: (econ_dec d c) => [->|_]; rewrite -/(mult cs c) -/(total_of h cs); lia.
  Qed.
  Lemma no_triple_mult ops cs : ops_ok st ops -> no_triple st maxc ops -> Forall (allowed st (Z.of_nat maxc) ops) cs -> enough_legs st ops cs -> forall c, (mult cs c <= 2)%coq_nat.
  Proof.
    move=> Hok NT Al En c. case: (Compare_dec.le_lt_dec (mult cs c) 2) => // M. exfalso.
    have Hc : In c cs. { case: (in_dec econ_dec c cs) => // H. move: M. rewrite /mult (proj1 (count_occ_not_In _ _ _) H). lia. }
    have Ai d : In d cs -> allowed st (Z.of_nat maxc) ops d by move/List.Forall_forall: Al; apply.
    apply: (NT c); first exact: Ai. move=> k Hk. have NN d : In d cs -> (0 <= ec_count d k)%Z.
    { move=> Hd. exact: (proj1 (proj2 (allowed_con_ok _ _ _ _ Hok (Ai d Hd))) k Hk). }
    have := @mult_times _ cs c NN. have := En k Hk. have := NN c Hc. rewrite /=. nia.
  Qed.

  Variables (ops : oprod) (v0 : leg -> orb).
  Notation n := (length ops).
  Notation L := (product_legs st ops).
  Hypothesis Pok : gproduct_ok st T maxc ops.
  Let Hok : ops_ok st ops := proj1 Pok.
  Let NT : no_triple st maxc ops := proj1 (proj2 Pok).
  Let Talt := glabels Pok.
  Notation F := (fun bs rest => BFv orbs NGw (PhiL ops T) (lnk st T maxc) bs rest v0).
  Variables (V : lmodType K) (f : {linear A -> V}) (minr maxr : Z).
  Hypothesis Hf : gonly_ranks st N f (ops_rank ops) minr maxr.
  Lemma goutside bs rest : Permutation (product_legs st ops) (flatten bs ++ rest) -> ~ (minr <= ops_rank ops - Z.of_nat (length (flatten bs)) <= maxr)%Z -> f (F bs rest) = 0.
  Proof.
    move=> P Hr. rewrite /BFv linear_sum /=. apply: big1 => v _. rewrite /BE linearZ /=.
    have Hl := Permutation_length P. rewrite List.app_length in Hl. have El := legs_rank st ops Hok. rewrite Hl in El.
    set w := wordl _. have Ew : size w = length rest by rewrite /w /wordl; change (length (List.map (fun y => (lcr y, lsp y)) (List.map (kv v) rest)) = length rest); rewrite !List.map_length.
    have Rw x : In x w -> registered st x.2.1.
    { move=> Hx. have [y [<- Hy]] := proj1 (in_map_iff _ _ _) Hx. have [l [<- Hl']] := proj1 (in_map_iff _ _ _) Hy.
      have I : In l (product_legs st ops) by apply: (Permutation_in l (Permutation_sym P)); apply: List.in_or_app; right.
      by have [_ [? _]] := proj1 (in_product st ops l) I. }
    rewrite (NGw_N HN Rw) Hf ?scaler0 //; rewrite Ew; move: El Hr; lia.
  Qed.
  Theorem gcontract_value o factor r : wt_maxcumulant o = Z.of_nat maxc -> canonical factor -> contract o st factor ops minr maxr (Ok r) ->
    keysP (key_ok st) r /\ f (expr_value N T orbs phi0 r) = ratK K factor *: f (gproduct_value st T N orbs phi0 ops).
  Proof.
    move=> Em Cf [fuel [C _]]. move: C. rewrite /contract_run. case E: (search fuel o st ops minr maxr) => [[els cvs]| | |] // C.
    have M cv : In cv cvs -> forall c, (mult (List.map (fun c => List.nth (Z.to_nat c) els [::]) cv) c <= 2)%coq_nat.
    { move=> Hcv. have [Al En] := generated_ok _ _ _ _ _ _ _ _ _ Hok E Hcv. rewrite Em in Al. exact: (no_triple_mult Hok NT Al En). }
    have [Kr Vr] := gprocess_value charK HL HS HD Uorbs phi0 v0 Hok Talt f Em Cf E M C. split=> //.
    have -> : f (expr_value N T orbs phi0 r) = rsum (fun t => f (term_value NGw T orbs phi0 t)) r.
    { rewrite rsum_linear /expr_value. congr (f _). apply: rsum_ext_in => x Hx. symmetry. apply: gkey_value. move/List.Forall_forall: Kr; exact. }
    have [E1 _] := search_inv E. have E1' := E1. rewrite Em in E1'. have [_ Hels] := els_allowed fuel st (Z.of_nat maxc) ops els Hok E1'.
    rewrite Vr gproduct_norms linearZ scalerA /=. congr (_ *: _).
    rewrite (product_blocks HL HS orbs Talt HN (cpbE Hok Hels) (cpbM HS Hm1 HD Hok Hels) phi0 v0) linear_sum /=. symmetry.
    apply: (sum_classes (P := fun cv m => bmatches ops (List.map (fun c => List.nth (Z.to_nat c) els [::]) cv) m.1.1)); first exact: search_nodup Hok E.
    move=> m Hm. have Po : block_set st ops (Z.of_nat maxc) m.1.1 by apply: (ms_set Hok Hels); apply: (in_map (fun m => m.1.1)).
    have [cv [Mc [Cc Pc]]] := bclass_exists _ _ _ _ _ Hok E1' _ Po.
    have Lo := bclass_left_over st (Z.of_nat maxc) ops els Hok _ _ Po Pc.
    case Rk: ((minr <=? left_over els ops cv) && (left_over els ops cv <=? maxr))%Z.
    - left. exists cv. move/andP: Rk => [/Z.leb_le R1 /Z.leb_le R2]. have Hcv : In cv cvs by apply/(search_in Hok E); split.
      split=> // cv' Hcv'. split=> [/permb_spec P'|->]; last by apply/permb_spec. have [[Mc' _] _] := proj1 (search_in Hok E cv') Hcv'.
      apply: (class_unique _ _ _ _ _ Hok E1) => //. exact: Permutation_trans (Permutation_sym P') Pc.
    - right. split.
      + apply: goutside; first exact: (bmats_perm (cpbE Hok Hels) Hm).
        rewrite flat_cc -Lo => -[R1 R2]. move/Z.leb_le: R1 Rk => ->. by move/Z.leb_le: R2 => ->.
      + move=> cv' Hcv'. apply/negP => /permb_spec P'. have [_ R'] := proj1 (search_in Hok E cv') Hcv'.
        move: R'. rewrite (bclass_left_over st (Z.of_nat maxc) ops els Hok _ _ Po P') -Lo => -[R1 R2]. move/Z.leb_le: R1 Rk => ->. by move/Z.leb_le: R2 => ->.
  Qed.
End Final.
