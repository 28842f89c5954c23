(** C78: operators and products have the same values for both numberings. *)
Set Warnings "-notation-overridden,-ambiguous-paths".
From Coq Require Import ZArith List Lia Permutation.
From mathcomp Require Import all_ssreflect ssralg.
From Verif Require Import Res RationalModel RationalSpec RationalProofs RegistryModel CoreModel OrderProofs AlgebraModel AlgebraSpec AlgebraProofs OperatorModel OperatorSpec SortSpec SortProofs ScalarSem LadderSpec CanonSpec CanonSemSpec CanonSemProofs WickSearchModel WickSearchSpec WickCombSpec WickCombProofs CountProofs WickLegSpec WickLegProofs WickEvalModel
  WickMatchProofs WickPairSpec WickPairProofs2 WickPairProofs4 WickProductSpec WickTheoremSpec WickProductProofs WickProductProofs2 WickProductProofs3 WickProductProofs4 WickGeneralSpec AdjWickProofs4 ContractShapeProofs RenumSpec.
Set Implicit Arguments.
Unset Strict Implicit.
Unset Printing Implicit Defensive.
Import GRing.Theory.
Local Open Scope ring_scope.

Section Assign.
  Variables (orb : eqType) (V : zmodType).
  (** Corresponding legs with the same orbitals. *)
  Lemma asum_pos2 (orbs orbs' : Z -> seq orb) (F F' : (leg -> orb) -> V) u u' v0 v0' :
    List.map (fun l => orbs (leg_space l)) u = List.map (fun l => orbs' (leg_space l)) u' -> NoDup u -> NoDup u' ->
    (forall v v', List.map v u = List.map v' u' -> F v = F' v') -> \sum_(v <- assigns orbs u v0) F v = \sum_(v <- assigns orbs' u' v0') F' v.
  Proof.
    have G D D' : List.map (fun l => orbs (leg_space l)) u = List.map (fun l => orbs' (leg_space l)) u' -> NoDup (D ++ u) -> NoDup (D' ++ u') ->
      List.map v0 D = List.map v0' D' -> (forall v v', List.map v (D ++ u) = List.map v' (D' ++ u') -> F v = F' v') ->
      \sum_(v <- assigns orbs u v0) F v = \sum_(v <- assigns orbs' u' v0') F' v.
    { elim: u u' D D' v0 v0' => [|l w IH] [|l' w'] D D' y0 y0' E ND ND' Ev H; try discriminate E.
      - rewrite !asum_nil. apply: H. by rewrite !cats0.
      - rewrite !asum_cons. case: E => El E. rewrite El. apply: eq_bigr => p _.
        have Ec x (y : seq leg) D0 : D0 ++ x :: y = (D0 ++ [:: x]) ++ y by rewrite -catA.
        apply: (IH w' (D ++ [:: l]) (D' ++ [:: l'])) => //; rewrite -?Ec // ?List.map_app /= ?lupd_same.
        have Nl D0 k (u0 : seq leg) v : NoDup (D0 ++ k :: u0) -> List.map (lupd (orb := orb) v k p) D0 = List.map v D0.
        { move=> N. apply: List.map_ext_in => x Hx. apply: lupd_other => Exk. apply: (NoDup_remove_2 _ _ _ N). rewrite -Exk. by apply: List.in_or_app; left. }
        by rewrite (Nl _ _ _ _ ND) (Nl _ _ _ _ ND') Ev. }
    move=> E ND ND' H. exact: (G [::] [::]).
  Qed.
End Assign.
Lemma sperm_rev (X : Type) (l l' : seq X) s : sperm l s l' -> sperm (List.rev l) s (List.rev l').
Proof.
  elim=> [u|u x y v t u' _ IH]; first by constructor.
  have R a b : List.rev (u ++ a :: b :: v) = (List.rev v ++ b :: a :: List.rev u)%list by rewrite List.rev_app_distr /= -!List.app_assoc.
  rewrite R. apply: sp_swap. by rewrite -R.
Qed.

Section Legs.
  Variables (st st' : osi) (pi : Z -> Z).
  Hypothesis R : renumbering st st' pi.
  Lemma range_pi : Permutation (List.map pi (range (num_spaces st'))) (range (num_spaces st)).
  Proof.
    have ND n : NoDup (range n) by exact: range_nodup.
    apply: NoDup_Permutation_bis.
    - have H s : In s (range (num_spaces st')) -> is_space st' s by move/range_in.
      elim: (range (num_spaces st')) (ND (num_spaces st')) H => [|s l IH] ND1 H; first by constructor.
      have [Ns ND0] := proj1 (NoDup_cons_iff _ _) ND1. rewrite /=. constructor; last by apply: IH => // x Hx; apply: H; right.
      move=> /in_map_iff [t [E Ht]]. apply: Ns. have -> : s = t by apply: (ren_inj R); [apply: H; left|apply: H; right|]. exact: Ht.
    - rewrite List.map_length (ren_num R). by [].
    - move=> x /in_map_iff [s [<- /range_in Hs]]. apply/range_in. exact: (ren_reg R Hs).
  Qed.
  Definition pleg (l : leg) : leg := ((leg_op l, pi (leg_space l), leg_cre l), snd l).
  Variables o o' : oper.
  Hypothesis Ho : forall s, registered st' s -> cre_of (op_gm o') s = cre_of (op_gm o) (pi s) /\ ann_of (op_gm o') s = ann_of (op_gm o) (pi s).
  Lemma cre_pi : Permutation (List.map pleg (op_cre_legs st' [:: o'] 0)) (op_cre_legs st [:: o] 0).
  Proof.
    rewrite /op_cre_legs. apply: Permutation_trans (Permutation_flat_map _ range_pi).
    rewrite (List.flat_map_concat_map _ (List.map _ _)) List.map_map -List.flat_map_concat_map.
    have H s : In s (range (num_spaces st')) -> is_space st' s by move/range_in.
    elim: (range (num_spaces st')) H => [|s l IH] H //=. rewrite List.map_app. apply: Permutation_app; last by apply: IH => x Hx; apply: H; right.
    have Hs : is_space st' s by apply: H; left. have E1 : ops_cre [:: o'] 0 s = ops_cre [:: o] 0 (pi s) := proj1 (Ho Hs).
    by rewrite E1 List.map_map.
  Qed.
  Lemma ann_pi : Permutation (List.map pleg (op_ann_legs st' [:: o'] 0)) (op_ann_legs st [:: o] 0).
  Proof.
    rewrite /op_ann_legs. apply: Permutation_trans (Permutation_flat_map _ range_pi).
    rewrite (List.flat_map_concat_map _ (List.map _ _)) List.map_map -List.flat_map_concat_map.
    have H s : In s (range (num_spaces st')) -> is_space st' s by move/range_in.
    elim: (range (num_spaces st')) H => [|s l IH] H //=. rewrite List.map_app. apply: Permutation_app; last by apply: IH => x Hx; apply: H; right.
    have Hs : is_space st' s by apply: H; left. have E1 : ops_ann [:: o'] 0 s = ops_ann [:: o] 0 (pi s) := proj2 (Ho Hs).
    by rewrite E1 List.map_map.
  Qed.
  Lemma blk_pi : Permutation (List.map pleg (blk st' [:: o'] 0)) (blk st [:: o] 0).
  Proof.
    rewrite /blk List.map_app. apply: Permutation_app; first exact: cre_pi. rewrite List.map_rev.
    apply: Permutation_trans (Permutation_rev _). apply: Permutation_trans ann_pi. exact: Permutation_sym (Permutation_rev _).
  Qed.
  Lemma norm_pi : op_norm st' o' = op_norm st o.
  Proof.
    rewrite /op_norm. have G (F : Z -> nat) l l' : Permutation l l' -> (\prod_(s <- l) F s = \prod_(s <- l') F s)%N.
    { elim=> [|x u v _ IH|x y u|u v w _ E1 _ E2]. done. by rewrite !big_cons IH. by rewrite !big_cons mulnCA. by rewrite E1. }
    rewrite -(G _ _ _ range_pi) -[List.map pi _]/(map pi _) [RHS]big_map. have H s : In s (range (num_spaces st')) -> is_space st' s by move/range_in.
    elim: (range (num_spaces st')) H => [|s l IH] H; first by rewrite !big_nil.
    rewrite !big_cons IH; last by move=> x Hx; apply: H; right.
    by have [-> ->] := Ho (H s (or_introl erefl)).
  Qed.
End Legs.

Section Values.
  Variables (K : fieldType) (A : algType K) (orb : eqType) (st st' : osi) (pi : Z -> Z).
  Hypothesis R : renumbering st st' pi.
  Variables (T : text -> seq (Z * orb) -> seq (Z * orb) -> bool -> K) (N N' W : seq (bool * (Z * orb)) -> A) (orbs : Z -> seq orb) (phi0 phi0' : index -> orb).
  Hypothesis Walt : alternating -%R W.
  Hypothesis HW : forall w, (forall x, In x w -> registered st x.2.1) -> N w = W w.
  Hypothesis HN' : forall w, (forall x, In x w -> registered st' x.2.1) -> N' w = N (renum_word pi w).
  Notation T' := (renum_tensor pi T).
  Notation orbs' := (renum_orbitals pi orbs).
  Lemma op_renum o o' : antisymmetric_tensor T (op_label o) -> same_oper st' pi o o' -> gop_value st' T' N' orbs' phi0' o' = gop_value st T N orbs phi0 o.
  Proof.
    move=> [Tu Tl] [El Ho]. rewrite /gop_value (norm_pi R Ho). congr (_ *: _).
    pose v0 (l : leg) := phi0 (mkI Z0 Z0).
    have E1 := op_term_value N T orbs st [:: o] phi0 v0 0. have E2 := op_term_value N' T' orbs' st' [:: o'] phi0' v0 0.
    rewrite [List.nth 0 [:: o] _]/= in E1. rewrite [List.nth 0 [:: o'] _]/= in E2. rewrite {}E1 {}E2.
    have ND : NoDup (blk st [:: o] 0) by have := product_nodup st [:: o]; rewrite /product_legs /= List.app_nil_r.
    have ND' : NoDup (blk st' [:: o'] 0) by have := product_nodup st' [:: o']; rewrite /product_legs /= List.app_nil_r.
    have Pb := blk_pi R Ho. have NDp := Permutation_NoDup (Permutation_sym Pb) ND.
    have [s Sc] := perm_sperm _ _ (cre_pi R Ho). have [t Sa] := perm_sperm _ _ (ann_pi R Ho).
    set G := fun w : leg -> orb => tel T st [:: o] w 0 *: W (List.map (xl w) (blk st [:: o] 0)).
    have Gx v w : v =1 w -> G v = G w.
    { move=> E. rewrite /G /tel. congr (T _ _ _ _ *: W _); apply: List.map_ext => l; by rewrite /xl /xs E. }
    transitivity (\sum_(v <- assigns orbs (blk st [:: o] 0) v0) G v); last first.
    { apply: eq_bigr => v _. rewrite /G HW // => x /in_map_iff [l [<- /in_blk [_ Hl]]]. exact: Hl. }
    rewrite -(asum_perm orbs v0 Gx NDp Pb).
    apply: asum_pos2 => //; first by rewrite List.map_map.
    move=> v w. rewrite List.map_map => Ev. have Hv l : In l (blk st' [:: o'] 0) -> v l = w (pleg pi l).
    { move=> Hl. exact: (@List.ext_in_map _ _ _ _ _ Ev). }
    rewrite HN'; last by move=> x /in_map_iff [l [<- /in_blk [_ Hl]]]; exact: Hl.
    have Ew : renum_word pi (List.map (xl v) (blk st' [:: o'] 0)) = List.map (xl w) (List.map (pleg pi) (blk st' [:: o'] 0)).
    { rewrite /renum_word -[map _ (List.map _ _)]/(List.map _ (List.map _ _)) !List.map_map. apply: List.map_ext_in => l Hl. by rewrite /xl /xs /renum_orbital /= Hv. }
    rewrite Ew HW; last first.
    { move=> x /in_map_iff [l [<- /in_map_iff [k [<- /in_blk [_ Hk]]]]]. exact: (ren_reg R Hk). }
    have Ec : List.map (renum_orbital pi) (List.map (xs v) (op_cre_legs st' [:: o'] 0)) = List.map (xs w) (List.map (pleg pi) (op_cre_legs st' [:: o'] 0)).
    { rewrite !List.map_map. apply: List.map_ext_in => l Hl. rewrite /xs /renum_orbital /= Hv //. apply: List.in_or_app. by left. }
    have Ea : List.map (renum_orbital pi) (List.map (xs v) (op_ann_legs st' [:: o'] 0)) = List.map (xs w) (List.map (pleg pi) (op_ann_legs st' [:: o'] 0)).
    { rewrite !List.map_map. apply: List.map_ext_in => l Hl. rewrite /xs /renum_orbital /= Hv //. apply: List.in_or_app. right. exact: (proj1 (List.in_rev _ _) Hl). }
    rewrite /G /tel /renum_tensor /= El -![map (renum_orbital pi) _]/(List.map _ _) Ec Ea.
    rewrite (alt_spermK (Tl _) (sperm_map (xs w) _ _ _ Sc)) (alt_spermK (Tu _) (sperm_map (xs w) _ _ _ Sa)).
    have Sb : sperm (List.map (pleg pi) (blk st' [:: o'] 0)) (s * t) (blk st [:: o] 0).
    { rewrite /blk List.map_app List.map_rev. apply: sperm_trans (sperm_prefix _ _ _ _ Sc) _. apply: sperm_suffix. exact: sperm_rev. }
    rewrite (alt_sperm Walt (sperm_map (xl w) _ _ _ Sb)) scalerA zrM. congr (_ *: _).
    set X := T _ _ _ _. rewrite -!mulrA [X * _]mulrC !mulrA.
    have := zr_sq K Sc. have := zr_sq K Sa. move: (zr K s) (zr K t) => a b Eb Eaa. by rewrite -[a * b * a]mulrA [b * a]mulrC mulrA Eaa mul1r Eb mul1r.
  Qed.
  Lemma prod_renum ops ops' : (forall o, In o ops -> antisymmetric_tensor T (op_label o)) -> same_product st' pi ops ops' ->
    gproduct_value st' T' N' orbs' phi0' ops' = gproduct_value st T N orbs phi0 ops.
  Proof.
    move=> HT H. rewrite /gproduct_value. elim: H HT => [|o o' l l' Ho _ IH] HT; first by rewrite !big_nil.
    rewrite !big_cons IH; last by move=> x Hx; apply: HT; right. congr (_ * _). apply: op_renum Ho. by apply: HT; left.
  Qed.
  Lemma expr_renum e e' : (forall x, In x e -> forall o, In o x.1 -> antisymmetric_tensor T (op_label o)) -> same_sum st' pi e e' ->
    gopexpr_value st' T' N' orbs' phi0' e' = gopexpr_value st T N orbs phi0 e.
  Proof.
    move=> HT [e1 [P H]]. rewrite /gopexpr_value. transitivity (rsum (gproduct_value st' T' N' orbs' phi0') e1).
    - elim: P => [|x u v _ IH|x y u|u v w _ E1 _ E2] //=; [by rewrite IH|by rewrite addrCA|by rewrite E2].
    - elim: H HT => [|x y l l' [Hx Ex] _ IH] HT //=. rewrite IH; last by move=> z Hz; apply: HT; right.
      rewrite -Ex (prod_renum _ Hx) //. by apply: HT; left.
  Qed.
End Values.

Section Ranks.
  Variables (st st' : osi) (pi : Z -> Z).
  Hypothesis R : renumbering st st' pi.
  Lemma num_renum o o' : ops_ok st [:: o] -> ops_ok st' [:: o'] -> same_oper st' pi o o' -> op_num o' = op_num o.
  Proof.
    move=> Ok1 Ok2 [_ Ho]. have L1 := legs_rank st [:: o] Ok1. have L2 := legs_rank st' [:: o'] Ok2.
    have E := Permutation_length (blk_pi R Ho). rewrite List.map_length in E. move: L1 L2. rewrite /ops_rank /product_legs /= !List.app_nil_r. rewrite /blk in E. rewrite E. by move=> <- <-.
  Qed.
  Lemma ops_ok_one o l : ops_ok st (o :: l) -> ops_ok st [:: o] /\ ops_ok st l.
  Proof. move=> [Hn F]. split; split=> //; [constructor=> //; exact: List.Forall_inv F|exact: List.Forall_inv_tail F]. Qed.
End Ranks.
Lemma rank_renum st st' pi ops ops' : renumbering st st' pi -> ops_ok st ops -> ops_ok st' ops' -> same_product st' pi ops ops' -> ops_rank ops' = ops_rank ops.
Proof.
  move=> R H1 H2 H. elim: H H1 H2 => [|o o' l l' Ho _ IH] // /ops_ok_one [H1 H1'] /ops_ok_one [H2 H2'].
  by rewrite !ops_rank_cons IH // (num_renum R H1 H2 Ho).
Qed.
