(** C61: the value of one evaluated contraction, after the rearrangement of the operators. *)
Set Warnings "-notation-overridden,-ambiguous-paths".
From Coq Require Import ZArith QArith List Lia Permutation.
From mathcomp Require Import all_ssreflect ssralg.
From Verif Require Import SignPerm CountProofs Res RationalModel RationalSpec RationalProofs RegistryModel CoreModel AlgebraModel AlgebraSpec AlgebraProofs AdjointModel OperatorModel DecModel OrderProofs WickSearchModel WickSearchSpec CountSpec WickCombSpec WickCombProofs WickLegSpec WickLegProofs SortSpec SortProofs ScalarSem LadderSpec CanonModel CanonSpec CanonProofs2 CanonSemSpec CanonSemProofs
  WickMatchProofs WickMatchProofs2 WickProductSpec WickTheoremSpec WickProductProofs WickProductProofs2 WickProductProofs3 WickProductProofs4 WickProductProofs5 WickProductProofs6 WickProductProofs7 WickProductProofs8 WickProductProofs9 WickProductProofs10 WickProductProofs11 WickProductProofs12 WickEvalModel WickPairProofs WickPairProofs2 WickPairProofs3 WickPairProofs4 WickGraphSpec WickGraphProofs WickGraphProofs2 WickElemProofs2 WickLegProofs5 WickLegProofs6 WickTotalProofs WickLinearProofs WickPairProofs5 WickPairProofs6
  WickGeneralSpec WickConvProofs WickConvProofs2 WickBlockProofs WickGenProofs WickGenProofs2 WickGenProofs3 WickGenProofs4 WickGenProofs5 WickGenProofs6 WickGenProofs7 WickGenProofs8 WickGenProofs9 WickGenProofs10.
Set Implicit Arguments.
Unset Strict Implicit.
Unset Printing Implicit Defensive.
Import GRing.Theory.
Local Open Scope ring_scope.
Local Notation lsub := CountSpec.subseq.
Local Notation iota := seq.iota.
Local Notation leg_dec := WickCombProofs.leg_dec.
#[local] Arguments WickCombProofs.leg_dec : simpl never.



Section Graph.
  Variables (K : fieldType) (V : lmodType K) (orb : eqType) (st : osi).
  Variables (ops : oprod) (T : text -> seq (Z * orb) -> seq (Z * orb) -> bool -> K) (orbs : Z -> seq orb) (W : seq (bool * (Z * orb)) -> V) (maxc : nat).
  Notation n := (length ops).
  Hypothesis Hok : ops_ok st ops.
  Hypothesis Talt : forall B, (B < n)%N -> (forall lo, alternating -%R (fun up => T (labA ops B) lo up false)) /\ (forall up, alternating -%R (fun lo => T (labA ops B) lo up false)).
  Variables (p q : seq nat) (cs : seq econ).
  Hypothesis HP : rearrangement n p.
  Hypothesis HQ : rearrangement (length cs) q.
  Notation ops' := (pick_ops ops p).
  Notation cs' := (pick_cons cs p q).
  Notation rho := (ren p).
  Notation L := (product_legs st ops).
  Notation L' := (product_legs st ops').
  Notation sgn := (exchange_sign (odd_op ops) p).
  Notation M := (lnk st T maxc).
  Hypothesis HJ : keeps_joined_order st cs p.
  Hypothesis Al : Forall (allowed st (Z.of_nat maxc) ops) cs.

  Lemma lnk_pick (v v' : leg -> orb) b : (forall l, In l b -> In l L') -> In (econ_of n (List.map rho b)) cs -> (forall l, In l L' -> v' l = v (rho l)) ->
    M (List.map (kv v') b) = M (List.map (kv v) (List.map rho b)).
  Proof.
    move=> Hb Hc E. have Ew : wordl (List.map (kv v') b) = wordl (List.map (kv v) (List.map rho b)).
    { rewrite /wordl !List.map_map. apply: List.map_ext_in => l Hl. rewrite /kv /lcr /lsp /= E //. exact: Hb. }
    have Inj x y : In x b -> In y b -> (lop (kv v' x) == lop (kv v' y)) = (lop (kv v (rho x)) == lop (kv v (rho y))).
    { move=> Hx Hy. have [Ox _] := legs_lt st ops p HP x (Hb x Hx). have [Oy _] := legs_lt st ops p HP y (Hb y Hy).
      rewrite /lop /= -[x.1.1.1]/(leg_op x) -[y.1.1.1]/(leg_op y). apply/eqP/eqP => [-> //|]. exact: (rearr_inj ops p HP). }
    have Eo : onetag (@lop orb) (List.map (kv v') b) = onetag (@lop orb) (List.map (kv v) (List.map rho b)).
    { clear - Inj. case: b Inj => [|x b] Inj //. have X c : (forall y, In y c -> In y (x :: b)) -> all (fun y => lop y == lop (kv v' x)) (List.map (kv v') c) = all (fun y => lop y == lop (kv v (rho x))) (List.map (kv v) (List.map rho c)).
      { elim: c => [|y c IH] H //=. rewrite IH; last by move=> z Hz; apply: H; right. rewrite Inj //; [apply: H|]; by left. }
      exact: (X (x :: b)). }
    rewrite /lnk /links Eo /cumL Ew. congr (_ + _). case: b Hb Hc Inj {Ew Eo} => [|x [|y [|z b]]] Hb Hc Inj //=.
    have Hx := Hb x (or_introl erefl). have Hy := Hb y (or_intror (or_introl erefl)).
    have Eg z z' : In z L' -> In z' L' -> gdL K st (kv v' z) (kv v' z') = gdL K st (kv v (rho z)) (kv v (rho z')).
    { move=> Hz Hz'. rewrite /gdL. congr (gd K st _ _); by rewrite /wl /kv /lcr /lsp /= E. }
    rewrite !Eg //. rewrite /lop /= -[x.1.1.1]/(leg_op x) -[y.1.1.1]/(leg_op y).
    case: (ltngtP (leg_op x) (leg_op y)) => C.
    - have C' := order_kept st ops p cs (Z.of_nat maxc) Hok HP HJ Al x y Hx Hy Hc (elimT ltP C). move/ltP: C'. rewrite !ren_op => C'. by rewrite C'.
    - have Hc' : In (econ_of n (List.map rho [:: y; x])) cs by rewrite (econ_of_perm n _ (List.map rho [:: x; y])) //; apply: Permutation_map; exact: perm_swap.
      have C' := order_kept st ops p cs (Z.of_nat maxc) Hok HP HJ Al y x Hy Hx Hc' (elimT ltP C). move/ltP: C'. rewrite !ren_op => C'. by rewrite C' ltnNge (ltnW C').
    - by rewrite C ltnn.
  Qed.
  Lemma BFv_pick bs rest v0 v0' : brep st ops' cs' bs rest ->
    zr K sgn *: BFv orbs W (PhiL ops' T) M bs rest v0' = BFv orbs W (PhiL ops T) M (List.map (List.map rho) bs) (List.map rho rest) v0.
  Proof.
    move=> R. have [P1 _] := brep_pick st ops p q cs (Z.of_nat maxc) Hok HP HQ Al bs rest R. case: R => [P2 P]. rewrite -flat_cc in P.
    have ND : NoDup (flatten bs ++ rest) by exact: Permutation_NoDup P (product_nodup st ops').
    have Hin l : In l (flatten bs ++ rest) -> In l L' by move=> Hl; exact: (Permutation_in l (Permutation_sym P) Hl).
    have EU : flatten (List.map (List.map rho) bs) ++ List.map rho rest = List.map rho (flatten bs ++ rest) by rewrite List.map_app map_flatten_l.
    rewrite /BFv scaler_sumr EU. apply: asum_pos.
    - rewrite List.map_map. exact: List.map_ext.
    - exact: ND.
    - apply: map_nodup => // x y Hx Hy. apply: (ren_inj ops p HP); apply: (legs_op HP); exact: Hin.
    - move=> v' v. rewrite List.map_map => E.
      have Eg l : In l L' -> v' l = v (rho l) by move=> Hl; exact: (@List.ext_in_map _ _ _ _ _ E l (Permutation_in l P Hl)).
      rewrite /BE scalerA mulrA. congr (_ *: _).
      + congr (_ * _).
        * have -> : flatten (List.map (List.map (kv v')) bs) ++ List.map (kv v') rest = List.map (kv v') (flatten bs ++ rest) by rewrite List.map_app map_flatten_l.
          have -> : flatten (List.map (List.map (kv v)) (List.map (List.map rho) bs)) ++ List.map (kv v) (List.map rho rest) = List.map (kv v) (List.map rho (flatten bs ++ rest)) by rewrite -EU List.map_app map_flatten_l.
          exact: (Phi_pick Hok Talt HP).
        * rewrite List.map_map. have Y (f : seq leg -> seq (letter orb)) (l : seq (seq leg)) : \prod_(b <- List.map f l) M b = \prod_(b <- l) M (f b) by rewrite -[List.map _ _]/(map _ _) big_map.
          rewrite !Y. apply: prod_in => b Hb. apply: lnk_pick => //.
          -- move=> l Hl. apply: Hin. apply: List.in_or_app. left. exact: in_flat Hb Hl.
          -- apply: (Permutation_in _ P1). apply: (in_map (econ_of n)). exact: (in_map (List.map rho)).
      + congr (W _). rewrite /wordl !List.map_map. apply: List.map_ext_in => l Hl. rewrite /kv /lcr /lsp /= Eg //. apply: Hin. apply: List.in_or_app. by right.
  Qed.
  Lemma pick_cs_allowed : Forall (allowed st (Z.of_nat maxc) ops') cs'.
  Proof.
    apply/List.Forall_forall => c Hc. have [j [<- Hj]] := proj1 (in_map_iff _ _ _) Hc. apply (rearr_in _ _ _ HQ) in Hj.
    apply: (pick_allowed st (Z.of_nat maxc) ops cs p Hok HP HJ (List.nth j cs [::])); first exact: nth_In. move/List.Forall_forall: Al; apply. exact: nth_In.
  Qed.
  Hypothesis Hm1 : (1 <= maxc)%N.
  Lemma bcount_pick : enough_legs st ops cs -> (forall c, (mult cs c <= 2)%coq_nat) -> combinatorial_factor st ops' cs' = combinatorial_factor st ops cs.
  Proof.
    move=> En Mu. have Hok' := pick_ops_ok st ops p Hok HP. have Al' := pick_cs_allowed.
    have En' := pick_enough st ops cs p HP q HQ En. have Hn := al_length st ops cs (Z.of_nat maxc) Al.
    have M' := pick_mult ops p q cs HP HQ Hn 2 Mu.
    have [els [f0 [_ [_ He]]]] := elementary_exact st (Z.of_nat maxc) ops Hok. have [els' [f0' [_ [_ He']]]] := elementary_exact st (Z.of_nat maxc) ops' Hok'.
    rewrite (bclass_count Hok He Al En Mu) (bclass_count Hok' He' Al' En' M'). congr (rat_of_Z (Z.of_nat _)).
    exact: (bcorr_count st ops p q cs (Z.of_nat maxc) Hok HP HQ HJ Al _ _ (ms_set Hok He) (ms_all Hok He) (ms_one Hok He) (ms_set Hok' He') (ms_all Hok' He') (ms_one Hok' He')).
  Qed.
End Graph.

Section Eval.
  Variables (K : fieldType) (V : lmodType K) (orb : eqType) (st : osi).
  Hypothesis charK : [char K] =i pred0.
  Hypothesis HS : multi_reference st.
  Variables (T : text -> seq (Z * orb) -> seq (Z * orb) -> bool -> K) (orbs : Z -> seq orb) (W : seq (bool * (Z * orb)) -> V) (maxc : nat).
  Hypothesis HD : densities st T.
  Hypothesis Uorbs : forall s, uniq (orbs s).
  Variables (ops : oprod) (cs : seq econ).
  Notation n := (length ops).
  Hypothesis Hok : ops_ok st ops.
  Hypothesis Talt : forall B, (B < n)%N -> (forall lo, alternating -%R (fun up => T (labA ops B) lo up false)) /\ (forall up, alternating -%R (fun lo => T (labA ops B) lo up false)).
  Hypothesis Al : Forall (allowed st (Z.of_nat maxc) ops) cs.
  Hypothesis En : enough_legs st ops cs.
  Lemma geval_value f t fc phi0 v0 : canonical f -> evaluate_contraction st ops cs f = Ok (t, fc) ->
    good_term st T t /\ canonical fc /\ exists bs rest, brep st ops cs bs rest /\
      ratK K fc *: term_value W T orbs phi0 t = (ratK K f * \prod_(o <- ops) (op_norm st o)%:R^-1 * ratK K (combinatorial_factor st ops cs)) *: BFv orbs W (PhiL ops T) (lnk st T maxc) bs rest v0.
  Proof.
    move=> Cf E. have [t0 [s [ix [picks [effects [rest [E' Ev]]]]]]] := evaluate_ok st (Z.of_nat maxc) ops cs f Hok Al En. move: E. rewrite E' => -[Et <-] {fc}. rewrite {t0}Et in E' Ev.
    have [P Cov Nc Sd PT] := evaluation_value W HD Hok Talt Uorbs phi0 v0 Al Ev.
    have CK := combinatorial_canonical st ops cs. have CF := factors_canonical st ops f Cf.
    have Cc : canonical (rat_mul (rat_of_Z s) (fold_left (fun f o => rat_mul f (op_factor st o)) ops f)) by apply: rat_mul_canonical => //; exact: rat_of_Z_canonical.
    split; [split; [|split; [|split]]|split; [exact: rat_mul_canonical|]] => //.
    - exact: eval_spaces Al Ev.
    - exists (List.map (fun p => p.1 ++ p.2) picks), rest. split.
      + split; last by rewrite -flat_cc. have -> : List.map (econ_of n) (List.map (fun p => p.1 ++ p.2) picks) = cs; last by [].
        have Hl l : In l (flat_map (fun p : seq leg * seq leg => p.1 ++ p.2) picks) -> is_leg st ops l.
        { move=> Hl. apply/(in_product st ops). apply: (Permutation_in l (Permutation_sym P)). apply: List.in_or_app. left. by rewrite -flat_concat. }
        have G : forall cs0, Forall2 (fun p c => carries_out st n (p.1 ++ p.2) c /\ Forall (fun l => leg_cre l = true) p.1 /\ Forall (fun l => leg_cre l = false) p.2) picks cs0 -> Forall (allowed st (Z.of_nat maxc) ops) cs0 -> List.map (econ_of n) (List.map (fun p => p.1 ++ p.2) picks) = cs0.
        { clear - Hl Hok. move=> cs0 F. elim: F Hl => [|p c picks' cs' [Ca _] _ IH] //= Hl /Forall_cons_iff [Ac Al'].
          rewrite IH //; last by move=> l H; apply: Hl; apply: List.in_or_app; right. congr (_ :: _). symmetry.
          have Hs : con_shape st n c by case: Ac.
          have Hp l : In l (p.1 ++ p.2) -> is_space st (leg_space l).
          { move=> H. have [_ [H2 _]] : is_leg st ops l by apply: Hl; apply: List.in_or_app; left. exact: H2. }
          exact: (proj1 (@carries_econ st n (proj1 Hok) (p.1 ++ p.2) c Hs Hp) Ca). }
        exact: G _ (ev_picks _ _ _ _ _ _ _ _ _ Ev) Al.
      + rewrite -PT scalerA ratK_mul //; [|exact: canonical_den|exact: canonical_den]. rewrite ratK_mul //; [|exact: canonical_den]. rewrite ratK_Z fold_factors //. congr (_ *: _).
        by rewrite -[zr K s * _ * _]mulrA mulrC.
  Qed.
End Eval.
