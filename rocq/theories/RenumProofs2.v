(** C78: normal-ordered products, densities, states and contracted products for both numberings. *)
Set Warnings "-notation-overridden,-ambiguous-paths".
From Coq Require Import ZArith List Lia Permutation.
From mathcomp Require Import all_ssreflect ssralg.
From Verif Require Import Res RationalModel RationalSpec RegistryModel CoreModel OrderProofs AlgebraModel AlgebraSpec AlgebraProofs OperatorModel OperatorSpec SortSpec SortProofs ScalarSem LadderSpec CanonSpec CanonSemSpec CanonSemProofs WickSearchModel WickSearchSpec WickCombSpec WickLegSpec WickEvalModel
  WickMatchProofs WickPairSpec WickProductSpec WickTheoremSpec WickProductProofs3 WickProductProofs13 WickProductProofs14 WickProductProofs15 WickGeneralSpec WickConvProofs WickConvProofs2 WickGenProofs WickGenProofs3 WickGenProofs13 ContractShapeProofs3 RenumSpec RenumProofs.
Set Implicit Arguments.
Unset Strict Implicit.
Unset Printing Implicit Defensive.
Import GRing.Theory.
Local Open Scope ring_scope.

Section Transfer.
  Variables (K : fieldType) (A : algType K) (orb : eqType) (st st' : osi) (pi : Z -> Z) (cre ann : Z -> orb -> A).
  Hypothesis R : renumbering st st' pi.
  Variable T : text -> seq (Z * orb) -> seq (Z * orb) -> bool -> K.
  Notation wletter := (bool * (Z * orb))%type.
  Notation cre' := (renum_ladder pi cre).
  Notation ann' := (renum_ladder pi ann).
  Notation T' := (renum_tensor pi T).
  Notation rw := (@renum_word orb pi).
  Lemma eqb_pi s t : registered st' s -> registered st' t -> (pi s =? pi t)%Z = (s =? t)%Z.
  Proof. move=> Hs Ht. case: (Z.eqb_spec s t) => [->|N]; first exact: Z.eqb_refl. apply/Z.eqb_neq => E. apply: N. exact: (ren_inj R). Qed.
  Lemma ladder_renum : ladder_relations st cre ann -> ladder_relations st' cre' ann'.
  Proof.
    move=> HL. have X s t : registered st' s -> registered st' t -> exch K st' s t = exch K st (pi s) (pi t) by move=> Hs Ht; rewrite /exch !(ren_field R).
    split=> s p t q Hs Ht; rewrite X // /renum_ladder.
    - by apply: (rel_cc HL); apply: (ren_reg R).
    - by apply: (rel_aa HL); apply: (ren_reg R).
    - rewrite -eqb_pi //. by apply: (rel_ac HL); apply: (ren_reg R).
  Qed.
  Lemma single_renum : single_reference st -> single_reference st'.
  Proof. move=> HS s Hs. rewrite (ren_field R Hs) (ren_type R Hs). exact: HS (ren_reg R Hs). Qed.
  Lemma multi_renum : multi_reference st -> multi_reference st'.
  Proof. move=> HS s Hs. rewrite (ren_field R Hs) (ren_type R Hs). exact: HS (ren_reg R Hs). Qed.
  Lemma reg_rw w : (forall x : wletter, In x w -> registered st' x.2.1) -> forall x : wletter, In x (rw w) -> registered st x.2.1.
  Proof. move=> H x /in_map_iff [y [<- Hy]]. exact: (ren_reg R (H _ Hy)). Qed.
  Lemma size_rw (w : seq wletter) : size (rw w) = size w. Proof. exact: size_map. Qed.
  Lemma ex_rw (x : wletter) : registered st' x.2.1 -> makes_excitation st' x = makes_excitation st (x.1, renum_orbital pi x.2).
  Proof. move=> H. by rewrite /makes_excitation (ren_type R H). Qed.
  Lemma normal_renum w : (forall x : wletter, In x w -> registered st' x.2.1) -> normal_product st' cre' ann' w = normal_product st cre ann (rw w).
  Proof.
    elim: w => [|x w IH] H //=. rewrite size_map IH; last by move=> y Hy; apply: H; right.
    by rewrite -ex_rw; last by apply: H; left.
  Qed.
  Lemma vacuum_renum (w : seq wletter) : vacuum_product cre' ann' w = vacuum_product cre ann (rw w).
  Proof. elim: w => [|x w IH] //=. by rewrite size_map IH. Qed.
  Lemma antisym_renum label : antisymmetric_tensor T label -> antisymmetric_tensor T' label.
  Proof. move=> [H1 H2]. split=> [lo|up] l1 x y l2; rewrite /renum_tensor -![map _ (_ ++ _)%list]/(List.map _ _) !List.map_app /=; [exact: H1|exact: H2]. Qed.
  Lemma same_nth ops ops' n : same_product st' pi ops ops' -> (n < length ops)%coq_nat ->
    same_oper st' pi (List.nth n ops (mkOp [::] gm_zero)) (List.nth n ops' (mkOp [::] gm_zero)).
  Proof. move=> H. elim: H n => [|o o' l l' Ho _ IH] [|n] /= Hn; try lia; first exact: Ho. apply: IH. lia. Qed.
  Lemma same_length ops ops' : same_product st' pi ops ops' -> length ops = length ops'.
  Proof. by elim=> //= o o' l l' _ _ ->. Qed.
  Lemma double_renum ops ops' : at_most_double st ops -> same_product st' pi ops ops' -> at_most_double st' ops'.
  Proof.
    move=> D H B C s HBC Hs. have L := same_length H. rewrite -L in HBC. have [D1 D2] := D B C (pi s) HBC (ren_reg R Hs).
    have [_ HB] := same_nth (n := B) H ltac:(lia). have [_ HC] := same_nth (n := C) H ltac:(lia). have [B1 B2] := HB s Hs. have [C1 C2] := HC s Hs.
    rewrite (ren_type R Hs) /ops_cre /ops_ann B1 B2 C1 C2. by split.
  Qed.
  Lemma labels_renum ops ops' : (forall o, In o ops -> antisymmetric_tensor T (op_label o)) -> same_product st' pi ops ops' -> forall o, In o ops' -> antisymmetric_tensor T' (op_label o).
  Proof.
    move=> HT H. elim: H HT => [|o o' l l' [Ho _] _ IH] HT q //= [<-|Hq]; first by rewrite Ho; apply: antisym_renum; apply: HT; left.
    apply: IH Hq => x Hx. by apply: HT; right.
  Qed.
  Lemma product_ok_renum ops ops' : product_ok st T ops -> ops_ok st' ops' -> same_product st' pi ops ops' -> product_ok st' T' ops'.
  Proof. move=> [H1 [H2 H3]] Ok' H. split=> //. split; [exact: double_renum H2 H|exact: labels_renum H3 H]. Qed.
  Lemma gproduct_ok_renum maxc ops ops' : gproduct_ok st T maxc ops -> ops_ok st' ops' -> no_triple st' maxc ops' -> same_product st' pi ops ops' -> gproduct_ok st' T' maxc ops'.
  Proof. move=> [H1 [H2 H3]] Ok' Nt H. split=> //. split=> //. exact: labels_renum H3 H. Qed.
  Lemma reference_renum (f : A -> K) : reference_state st cre ann f -> reference_state st' cre' ann' f.
  Proof.
    move=> Rf. split; first exact: ref_one Rf.
    - move=> x a Hx Ex. exact: (@ref_left _ _ _ _ _ _ _ Rf (x.1, renum_orbital pi x.2) a (ren_reg R Hx)) (etrans (esym (ex_rw Hx)) Ex).
    - move=> x a Hx Ex. apply: (@ref_right _ _ _ _ _ _ _ Rf (x.1, renum_orbital pi x.2) a (ren_reg R Hx)). by rewrite -ex_rw.
  Qed.
  Lemma ranks_renum (V : lmodType K) (f : A -> V) N N' b lo hi : (forall w, (forall x : wletter, In x w -> registered st' x.2.1) -> N' w = N (rw w)) ->
    gonly_ranks st N f b lo hi -> gonly_ranks st' N' f b lo hi.
  Proof. move=> HN Hf w Hw H1 H2. rewrite HN //. apply: Hf; [exact: reg_rw|by rewrite size_rw|by rewrite size_rw]. Qed.

  (** Densities. *)
  Variable maxc : nat.
  Lemma densities_renum : densities st T -> densities st' T'.
  Proof.
    move=> D. split.
    - exact: antisym_renum (den_gamma D). - exact: antisym_renum (den_eta_anti D). - move=> k Hk. exact: antisym_renum (den_lambda D Hk).
    - move=> s p q Hs. rewrite (ren_type R Hs) => Hg. rewrite /renum_tensor /=. exact: (den_eta D p q (ren_reg R Hs) Hg).
  Qed.
  Lemma cumulant_renum b : all (fun x : wletter => regb st' x.2.1) b -> cumulant st' T' maxc b = cumulant st T maxc (rw b).
  Proof.
    case: b => [|x b] // Rb. have Rx : registered st' x.2.1 by move/andP: Rb => [/regP].
    rewrite /cumulant [rw _]/=. have Ec (w : seq wletter) : [seq y.2 | y <- rw w & y.1] = map (renum_orbital pi) [seq y.2 | y <- w & y.1].
    { elim: w => [|y w IH] //=. by case: (y.1) => //=; rewrite IH. }
    have Ea (w : seq wletter) : [seq y.2 | y <- rw w & ~~ y.1] = map (renum_orbital pi) [seq y.2 | y <- w & ~~ y.1].
    { elim: w => [|y w IH] //=. by case: (y.1) => //=; rewrite IH. }
    have Ex (w : seq wletter) : exchanges (rw w) = exchanges w.
    { elim: w => [|y w IH] //=. rewrite IH. congr (_ + _)%N. case: (y.1) => //. by rewrite /renum_word count_map; apply: eq_count. }
    have Es (w : seq wletter) : all (fun y : wletter => regb st' y.2.1) w -> all (fun y : wletter => (y.2.1 =? (renum_orbital pi x.2).1)%Z) (rw w) = all (fun y : wletter => (y.2.1 =? x.2.1)%Z) w.
    { elim: w => [|y w IH] //= /andP [/regP Ry Rw]. by rewrite IH // eqb_pi. }
    rewrite -[(x.1, renum_orbital pi x.2) :: _]/(rw (x :: b)) Ec Ea Ex Es // !size_map.
    case: ifP => // /andP [_ /eqP Sz]. congr (_ * _). rewrite (ren_type R Rx) -[((x.1, renum_orbital pi x.2).2).1]/(pi x.2.1). move: Sz. move: [seq y.2 | y <- x :: b & y.1] [seq y.2 | y <- x :: b & ~~ y.1] => c a Sz.
    rewrite /density. case: (stype st (pi x.2.1)) => [[| |]|] //.
    - by case: c Sz => [|p [|? ?]]; case: a => [|q [|? ?]].
    - by rewrite size_map /renum_tensor -!map_rev.
  Qed.
  Lemma split_renum (V : lmodType K) (G : seq wletter -> V) w : (forall x : wletter, In x w -> registered st' x.2.1) ->
    split_sum (moment (cumulant st T maxc)) G (rw w) = split_sum (moment (cumulant st' T' maxc)) (fun b => G (rw b)) w.
  Proof.
    move=> Hw. rewrite -!conv_splits /renum_word. rewrite -[map _ w]/(List.map _ w) exp_map.
    apply: (exp_extQ (all_reg Hw)) => // b Hb _. symmetry. exact: cumulant_renum.
  Qed.
  Lemma normal_product_renum N : generalized_normal_product st cre ann T maxc N -> generalized_normal_product st' cre' ann' T' maxc (fun w => N (rw w)).
  Proof. move=> HN w Hw. rewrite vacuum_renum HN; last exact: reg_rw. exact: split_renum. Qed.
  Lemma moment_renum w : (forall x : wletter, In x w -> registered st' x.2.1) -> moment (cumulant st' T' maxc) w = moment (cumulant st T maxc) (rw w).
  Proof.
    move=> Hw. rewrite /renum_word -[map _ w]/(List.map _ w) moment_map. apply: (moment_extQ (all_reg Hw)) => b Hb _. exact: cumulant_renum.
  Qed.
  Lemma correlated_renum f : correlated_state st cre ann T maxc f -> correlated_state st' cre' ann' T' maxc f.
  Proof.
    move=> Rf. split; first exact: cor_one Rf. move=> w Hw. rewrite vacuum_renum (cor_moments Rf); last exact: reg_rw. by rewrite moment_renum.
  Qed.
End Transfer.

Section SR.
  Variables (K : fieldType) (A : algType K) (orb : eqType) (st st' : osi) (pi : Z -> Z) (cre ann : Z -> orb -> A).
  Hypothesis ch : [char K] =i pred0.
  Hypothesis HL : ladder_relations st cre ann.
  Hypothesis HS : single_reference st.
  Hypothesis R : renumbering st st' pi.
  Variables (T : text -> seq (Z * orb) -> seq (Z * orb) -> bool -> K) (orbs : Z -> seq orb) (phi0 phi0' : index -> orb).
  Hypothesis U : forall s, uniq (orbs s).
  Notation cre' := (renum_ladder pi cre).
  Notation ann' := (renum_ladder pi ann).
  Notation T' := (renum_tensor pi T).
  Notation orbs' := (renum_orbitals pi orbs).
  Notation N := (normal_product st cre ann).
  Notation N' := (normal_product st' cre' ann').
  Notation ev := (expr_value N T orbs phi0).
  Notation ev' := (expr_value N' T' orbs' phi0').
  Let U' s : uniq (orbs' s). Proof. exact: U. Qed.
  Let HL' := ladder_renum R HL.
  Let HS' := single_renum R HS.
  Let HN' : forall w, (forall x : bool * (Z * orb), In x w -> registered st' x.2.1) -> N' w = N (renum_word pi w).
  Proof. move=> w. exact: (normal_renum cre ann R). Qed.
  Let HW : forall w, (forall x : bool * (Z * orb), In x w -> registered st x.2.1) -> N w = NP st cre ann w.
  Proof. move=> w Hw. symmetry. exact: NP_normal. Qed.
  Let Walt := NP_alternating HL HS.
  Lemma sren_prod ops ops' : (forall o, In o ops -> antisymmetric_tensor T (op_label o)) -> same_product st' pi ops ops' ->
    product_value st' cre' ann' T' orbs' phi0' ops' = product_value st cre ann T orbs phi0 ops.
  Proof. exact: (prod_renum R orbs phi0 phi0' Walt HW HN'). Qed.
  Theorem sren_ranks (V : lmodType K) (f : {linear A -> V}) ops ops' minr maxr o o' factor r r' :
    product_ok st T ops -> ops_ok st' ops' -> same_product st' pi ops ops' -> canonical factor -> only_ranks st cre ann f (ops_rank ops) minr maxr ->
    contract o st factor ops minr maxr (Ok r) -> contract o' st' factor ops' minr maxr (Ok r') -> f (ev' r') = f (ev r).
  Proof.
    move=> P Ok' H Cf Hf C C'. rewrite (contract_product ch HL HS U phi0 P Hf Cf C).
    have P' := product_ok_renum R P Ok' H.
    have Hf' : only_ranks st' cre' ann' f (ops_rank ops') minr maxr by rewrite (rank_renum R (proj1 P) Ok' H); exact: (ranks_renum R HN' Hf).
    rewrite (contract_product ch HL' HS' U' phi0' P' Hf' Cf C'). congr (_ *: f _). exact: (sren_prod (proj2 (proj2 P)) H).
  Qed.
  Theorem sren_product ops ops' minr maxr o o' factor r r' : product_ok st T ops -> ops_ok st' ops' -> same_product st' pi ops ops' -> canonical factor ->
    (minr <= 0)%Z -> (ops_rank ops <= maxr)%Z ->
    contract o st factor ops minr maxr (Ok r) -> contract o' st' factor ops' minr maxr (Ok r') -> ev' r' = ev r.
  Proof.
    move=> P Ok' H Cf H1 H2. exact: (sren_ranks (f := [linear of idfun]) P Ok' H Cf (@only_full K A orb st cre ann _ _ _ H1 H2)).
  Qed.
  Theorem sren_expr (V : lmodType K) (f : {linear A -> V}) e e' minr maxr o o' factor r r' : mcanon e -> mcanon e' -> canonical factor ->
    (forall x, In x e -> product_ok st T x.1 /\ only_ranks st cre ann f (ops_rank x.1) minr maxr) -> (forall x, In x e' -> ops_ok st' x.1) -> same_sum st' pi e e' ->
    contract_expr o st factor e minr maxr (Ok r) -> contract_expr o' st' factor e' minr maxr (Ok r') -> f (ev' r') = f (ev r).
  Proof.
    move=> Ce Ce' Cf H Ok' Hs C C'. rewrite (@expr_contract _ _ _ _ _ _ ch HL HS T orbs U phi0 V f minr maxr o factor e r Cf Ce H C).
    have H' x : In x e' -> product_ok st' T' x.1 /\ only_ranks st' cre' ann' f (ops_rank x.1) minr maxr.
    { move=> Hx. have [e1 [P F]] := Hs. have Hx1 : In x e1 := Permutation_in _ (Permutation_sym P) Hx.
      have [y [Hy [Sy _]]] : exists y, In y e /\ same_product st' pi y.1 x.1 /\ y.2 = x.2.
      { elim: F {P H Ok' Hs C C' Ce Ce'} Hx1 => [|a b l l' Hab _ IH] //= [<-|Hb]; first by exists a; split=> //; left.
        have [y [Hy Sy]] := IH Hb. exists y. split=> //. by right. }
      have [Py Ry] := H y Hy. split; first (have Q := product_ok_renum R Py (Ok' x Hx) Sy; exact: Q).
      rewrite (rank_renum R (proj1 Py) (Ok' x Hx) Sy). exact: (ranks_renum R HN' Ry). }
    rewrite (@expr_contract _ _ _ _ _ _ ch HL' HS' T' orbs' U' phi0' V f minr maxr o' factor e' r' Cf Ce' H' C'). congr (_ *: f _).
    apply: (expr_renum R orbs phi0 phi0' Walt HW HN' _ Hs) => x /H [[_ [_ HT]] _]. exact: HT.
  Qed.
  Theorem sren_expectation (f : {linear A -> K^o}) ops ops' o o' factor r r' : reference_state st cre ann f -> product_ok st T ops -> ops_ok st' ops' -> same_product st' pi ops ops' -> canonical factor ->
    contract o st factor ops 0 0 (Ok r) -> contract o' st' factor ops' 0 0 (Ok r') ->
    expr_value (no_operators K (orb := orb)) T' orbs' phi0' r' = expr_value (no_operators K (orb := orb)) T orbs phi0 r.
  Proof.
    move=> Rf P Ok' H Cf C C'. rewrite (expectation ch HL HS U phi0 Rf P Cf C).
    rewrite (expectation ch HL' HS' U' phi0' (reference_renum R Rf) (product_ok_renum R P Ok' H) Cf C'). congr (_ * f _). exact: (sren_prod (proj2 (proj2 P)) H).
  Qed.
End SR.

Section GR.
  Variables (K : fieldType) (A : algType K) (orb : eqType) (st st' : osi) (pi : Z -> Z) (cre ann : Z -> orb -> A).
  Hypothesis ch : [char K] =i pred0.
  Hypothesis HL : ladder_relations st cre ann.
  Hypothesis HS : multi_reference st.
  Hypothesis R : renumbering st st' pi.
  Variables (T : text -> seq (Z * orb) -> seq (Z * orb) -> bool -> K) (maxc : nat) (orbs : Z -> seq orb) (phi0 phi0' : index -> orb).
  Hypothesis U : forall s, uniq (orbs s).
  Hypothesis M1 : (1 <= maxc)%N.
  Hypothesis HD : densities st T.
  Notation cre' := (renum_ladder pi cre).
  Notation ann' := (renum_ladder pi ann).
  Notation T' := (renum_tensor pi T).
  Notation orbs' := (renum_orbitals pi orbs).
  Variables N N' : seq (bool * (Z * orb)) -> A.
  Hypothesis HN : generalized_normal_product st cre ann T maxc N.
  Hypothesis HN1 : generalized_normal_product st' cre' ann' T' maxc N'.
  Notation ev := (expr_value N T orbs phi0).
  Notation ev' := (expr_value N' T' orbs' phi0').
  Let U' s : uniq (orbs' s). Proof. exact: U. Qed.
  Let HL' := ladder_renum R HL.
  Let HS' := multi_renum R HS.
  Let HD' := densities_renum R HD.
  Let HN' : forall w, (forall x : bool * (Z * orb), In x w -> registered st' x.2.1) -> N' w = N (renum_word pi w).
  Proof. exact: (normal_unique HN1 (normal_product_renum R HN)). Qed.
  Let HW : forall w, (forall x : bool * (Z * orb), In x w -> registered st x.2.1) -> N w = NG st cre ann (cumulant st T maxc) w.
  Proof. move=> w Hw. symmetry. exact: (NGw_N HN Hw). Qed.
  Let Walt := NGw_alternating HL HS maxc HD.
  Lemma gren_normal w : (forall x : bool * (Z * orb), In x w -> registered st' x.2.1) -> N' w = N (renum_word pi w).
  Proof. exact: HN'. Qed.
  Lemma gren_prod ops ops' : (forall o, In o ops -> antisymmetric_tensor T (op_label o)) -> same_product st' pi ops ops' ->
    gproduct_value st' T' N' orbs' phi0' ops' = gproduct_value st T N orbs phi0 ops.
  Proof. exact: (prod_renum R orbs phi0 phi0' Walt HW HN'). Qed.
  Theorem gren_ranks (V : lmodType K) (f : {linear A -> V}) ops ops' minr maxr o o' factor r r' :
    gproduct_ok st T maxc ops -> ops_ok st' ops' -> no_triple st' maxc ops' -> same_product st' pi ops ops' ->
    wt_maxcumulant o = Z.of_nat maxc -> wt_maxcumulant o' = Z.of_nat maxc -> canonical factor -> gonly_ranks st N f (ops_rank ops) minr maxr ->
    contract o st factor ops minr maxr (Ok r) -> contract o' st' factor ops' minr maxr (Ok r') -> f (ev' r') = f (ev r).
  Proof.
    move=> P Ok' Nt H Em Em' Cf Hf C C'. rewrite (proj2 (gcontract_product ch HL HS M1 HD HN U phi0 Em P Hf Cf C)).
    have P' := gproduct_ok_renum P Ok' Nt H.
    have Hf' : gonly_ranks st' N' f (ops_rank ops') minr maxr by rewrite (rank_renum R (proj1 P) Ok' H); exact: (ranks_renum R HN' Hf).
    rewrite (proj2 (gcontract_product ch HL' HS' M1 HD' HN1 U' phi0' Em' P' Hf' Cf C')). congr (_ *: f _). exact: (gren_prod (proj2 (proj2 P)) H).
  Qed.
  Theorem gren_product ops ops' minr maxr o o' factor r r' : gproduct_ok st T maxc ops -> ops_ok st' ops' -> no_triple st' maxc ops' -> same_product st' pi ops ops' ->
    wt_maxcumulant o = Z.of_nat maxc -> wt_maxcumulant o' = Z.of_nat maxc -> canonical factor -> (minr <= 0)%Z -> (ops_rank ops <= maxr)%Z ->
    contract o st factor ops minr maxr (Ok r) -> contract o' st' factor ops' minr maxr (Ok r') -> ev' r' = ev r.
  Proof.
    move=> P Ok' Nt H Em Em' Cf H1 H2. exact: (gren_ranks (f := [linear of idfun]) P Ok' Nt H Em Em' Cf (@gonly_full K A orb st maxc N _ _ _ H1 H2)).
  Qed.
  Theorem gren_expr (V : lmodType K) (f : {linear A -> V}) e e' minr maxr o o' factor r r' : mcanon e -> mcanon e' -> canonical factor ->
    wt_maxcumulant o = Z.of_nat maxc -> wt_maxcumulant o' = Z.of_nat maxc ->
    (forall x, In x e -> gproduct_ok st T maxc x.1 /\ gonly_ranks st N f (ops_rank x.1) minr maxr) -> (forall x, In x e' -> ops_ok st' x.1 /\ no_triple st' maxc x.1) -> same_sum st' pi e e' ->
    contract_expr o st factor e minr maxr (Ok r) -> contract_expr o' st' factor e' minr maxr (Ok r') -> f (ev' r') = f (ev r).
  Proof.
    move=> Ce Ce' Cf Em Em' H Ok' Hs C C'. rewrite (gexpr_contract ch HL HS M1 HD HN U phi0 Em Cf Ce H C).
    have H' x : In x e' -> gproduct_ok st' T' maxc x.1 /\ gonly_ranks st' N' f (ops_rank x.1) minr maxr.
    { move=> Hx. have [e1 [P F]] := Hs. have Hx1 : In x e1 := Permutation_in _ (Permutation_sym P) Hx.
      have [y [Hy [Sy _]]] : exists y, In y e /\ same_product st' pi y.1 x.1 /\ y.2 = x.2.
      { elim: F {P H Ok' Hs C C' Ce Ce'} Hx1 => [|a b l l' Hab _ IH] //= [<-|Hb]; first by exists a; split=> //; left.
        have [y [Hy Sy]] := IH Hb. exists y. split=> //. by right. }
      have [Py Ry] := H y Hy. have [Ok1 Nt1] := Ok' x Hx. split; first (have Q := gproduct_ok_renum Py Ok1 Nt1 Sy; exact: Q).
      rewrite (rank_renum R (proj1 Py) Ok1 Sy). exact: (ranks_renum R HN' Ry). }
    rewrite (gexpr_contract ch HL' HS' M1 HD' HN1 U' phi0' Em' Cf Ce' H' C'). congr (_ *: f _).
    apply: (expr_renum R orbs phi0 phi0' Walt HW HN' _ Hs) => x /H [[_ [_ HT]] _]. exact: HT.
  Qed.
  Theorem gren_expectation (f : {linear A -> K^o}) ops ops' o o' factor r r' : correlated_state st cre ann T maxc f -> gproduct_ok st T maxc ops -> ops_ok st' ops' -> no_triple st' maxc ops' -> same_product st' pi ops ops' ->
    wt_maxcumulant o = Z.of_nat maxc -> wt_maxcumulant o' = Z.of_nat maxc -> canonical factor ->
    contract o st factor ops 0 0 (Ok r) -> contract o' st' factor ops' 0 0 (Ok r') ->
    expr_value (no_operators K (orb := orb)) T' orbs' phi0' r' = expr_value (no_operators K (orb := orb)) T orbs phi0 r.
  Proof.
    move=> Rf P Ok' Nt H Em Em' Cf C C'. rewrite (gexpectation ch HL HS M1 HD HN U phi0 Em Rf P Cf C).
    rewrite (gexpectation ch HL' HS' M1 HD' HN1 U' phi0' Em' (correlated_renum R Rf) (gproduct_ok_renum P Ok' Nt H) Cf C'). congr (_ * f _). exact: (gren_prod (proj2 (proj2 P)) H).
  Qed.
End GR.
