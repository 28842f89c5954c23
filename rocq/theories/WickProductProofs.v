(** C48: sums over the orbitals of the legs, and the contribution of a set of contracted pairs. *)
Set Warnings "-notation-overridden,-ambiguous-paths".
From Coq Require Import ZArith List Lia Permutation.
From mathcomp Require Import all_ssreflect ssralg.
From Verif Require Import CountProofs Res RationalModel RegistryModel CoreModel OperatorModel OrderProofs WickSearchModel CountSpec WickCombSpec WickCombProofs WickLegSpec SortSpec SortProofs ScalarSem LadderSpec CanonSemSpec CanonSemProofs
  WickMatchProofs WickMatchProofs2.
Set Implicit Arguments.
Unset Strict Implicit.
Unset Printing Implicit Defensive.
Import GRing.Theory.
Local Open Scope ring_scope.

Section Assign.
  Variables (orb : eqType) (orbs : Z -> seq orb).
  Definition lupd (v : leg -> orb) (l : leg) (p : orb) : leg -> orb := fun k => if leg_dec k l then p else v k.
  (** All assignments of orbitals to the legs [L]. *)
  Fixpoint assigns (L : seq leg) (v : leg -> orb) : seq (leg -> orb) :=
    match L with [::] => [:: v] | l :: L' => flatten [seq assigns L' (lupd v l p) | p <- orbs (leg_space l)] end.
  Lemma lupd_same v l p : lupd v l p l = p.
  Proof. rewrite /lupd. by case: (leg_dec l l). Qed.
  Lemma lupd_other v l p k : k <> l -> lupd v l p k = v k.
  Proof. rewrite /lupd. by case: (leg_dec k l). Qed.
  Lemma assigns_out L v0 v l : In v (assigns L v0) -> ~ In l L -> v l = v0 l.
  Proof.
    elim: L v0 => [|k L IH] v0 /=; first by case=> // ->.
    move/In_flatten => [vs [/in_map_iff [p [<- _]] Hv]] N. rewrite (IH _ Hv); last by tauto. rewrite lupd_other // => E. by apply: N; left.
  Qed.

  Section Sum.
  Variable V : zmodType.
  Implicit Types F G : (leg -> orb) -> V.
  Lemma asum_cons l L v0 F : \sum_(v <- assigns (l :: L) v0) F v = \sum_(p <- orbs (leg_space l)) \sum_(v <- assigns L (lupd v0 l p)) F v.
  Proof. by rewrite /= big_flatten big_map. Qed.
  Lemma asum_nil v0 F : \sum_(v <- assigns [::] v0) F v = F v0.
  Proof. by rewrite /= big_cons big_nil addr0. Qed.
  Lemma asum_cat L1 L2 v0 F : \sum_(v <- assigns (L1 ++ L2) v0) F v = \sum_(v1 <- assigns L1 v0) \sum_(v <- assigns L2 v1) F v.
  Proof.
    elim: L1 v0 => [|l L1 IH] v0; first by rewrite asum_nil. rewrite cat_cons !asum_cons. apply: eq_bigr => p _. exact: IH.
  Qed.
  (** Positions: two lists of legs with the same spaces. *)
  Lemma asum_rel F F' u u' D D' v0 v0' : List.map leg_space u = List.map leg_space u' -> NoDup (D ++ u) -> NoDup (D' ++ u') ->
    List.map v0 D = List.map v0' D' -> (forall v v', List.map v (D ++ u) = List.map v' (D' ++ u') -> F v = F' v') ->
    \sum_(v <- assigns u v0) F v = \sum_(v <- assigns u' v0') F' v.
  Proof.
    elim: u u' D D' v0 v0' => [|l u IH] [|l' u'] D D' v0 v0' E ND ND' Ev H; try discriminate E.
    - rewrite !asum_nil. apply: H. by rewrite !cats0.
    - rewrite !asum_cons. case: E => El E. rewrite El. apply: eq_bigr => p _.
      have Ec x (y : seq leg) D0 : D0 ++ x :: y = (D0 ++ [:: x]) ++ y by rewrite -catA.
      apply: (IH u' (D ++ [:: l]) (D' ++ [:: l'])) => //; rewrite -?Ec // ?List.map_app /= ?lupd_same.
      have Nl D0 k (u0 : seq leg) v : NoDup (D0 ++ k :: u0) -> List.map (lupd v k p) D0 = List.map v D0.
      { move=> N. apply: List.map_ext_in => x Hx. apply: lupd_other => Exk. apply: (NoDup_remove_2 _ _ _ N). rewrite -Exk. by apply: List.in_or_app; left. }
      by rewrite (Nl _ _ _ _ ND) (Nl _ _ _ _ ND') Ev.
  Qed.
  Lemma asum_pos F F' u u' v0 v0' : List.map leg_space u = List.map leg_space u' -> NoDup u -> NoDup u' ->
    (forall v v', List.map v u = List.map v' u' -> F v = F' v') -> \sum_(v <- assigns u v0) F v = \sum_(v <- assigns u' v0') F' v.
  Proof. move=> E ND ND' H. by apply: (@asum_rel F F' u u' [::] [::]). Qed.
  Lemma asum_ext F F' u v0 v0' : NoDup u -> (forall v v', (forall l, In l u -> v l = v' l) -> F v = F' v') -> \sum_(v <- assigns u v0) F v = \sum_(v <- assigns u v0') F' v.
  Proof. move=> ND H. apply: asum_pos => // v v' E. apply: H => l Hl. exact: (@List.ext_in_map _ _ _ _ _ E l Hl). Qed.
  Lemma asum_start F u v w : (forall v v', v =1 v' -> F v = F v') -> v =1 w -> \sum_(x <- assigns u v) F x = \sum_(x <- assigns u w) F x.
  Proof.
    move=> X. elim: u v w => [|l u IH] v w E; first (by rewrite !asum_nil; exact: X).
    rewrite !asum_cons. apply: eq_bigr => p _. apply: IH => k. rewrite /lupd. case: (leg_dec k l) => [?|?]; [done|exact: E].
  Qed.
  Lemma asum_perm F u u' v0 : (forall v v', v =1 v' -> F v = F v') -> NoDup u -> Permutation u u' ->
    \sum_(v <- assigns u v0) F v = \sum_(v <- assigns u' v0) F v.
  Proof.
    move=> X ND P. elim: P ND v0 => [|i a b _ IH|i j a|a b c P1 IH1 _ IH2] ND v0.
    - by [].
    - rewrite !asum_cons. apply: eq_bigr => p _. case/NoDup_cons_iff: ND => Ni ND. exact: IH.
    - rewrite !asum_cons. under eq_bigr do rewrite asum_cons. under [in RHS]eq_bigr do rewrite asum_cons.
      rewrite exchange_big /=. apply: eq_bigr => p _. apply: eq_bigr => q _.
      case/NoDup_cons_iff: ND => N _. have Nij : i <> j by move=> E; apply: N; left.
      apply: asum_start => // k. rewrite /lupd. case: (leg_dec k i) => [Ei|//]; case: (leg_dec k j) => [Ej|//]. case: Nij. by rewrite -Ei.
    - rewrite IH1 // IH2 //. exact: Permutation_NoDup P1 ND.
  Qed.
  (** Products of sums over different legs. *)
  End Sum.
  Lemma asum_mul (K : ringType) (F G : (leg -> orb) -> K) L1 L2 v0 : NoDup (L1 ++ L2) ->
    (forall v v', (forall l, In l L1 -> v l = v' l) -> F v = F v') -> (forall v v', (forall l, In l L2 -> v l = v' l) -> G v = G v') ->
    (\sum_(v <- assigns L1 v0) F v) * (\sum_(v <- assigns L2 v0) G v) = \sum_(v <- assigns (L1 ++ L2) v0) F v * G v.
  Proof.
    move=> ND XF XG. rewrite asum_cat mulr_suml. apply: eq_bigr => v1 _.
    have ND2 : NoDup L2 by apply: (proj1 (proj2 (nodup_app_inv _ _ ND))).
    rewrite (@asum_ext _ G G L2 v0 v1) // mulr_sumr. apply: eq_big_In => v Hv. congr (_ * _). apply: XF => l Hl. apply/esym. apply: assigns_out Hv _ => Hl2.
    exact: (proj2 (proj2 (nodup_app_inv _ _ ND))) Hl Hl2.
  Qed.

  (** Sums over indices. *)
  Lemma asum_rel_index (K : fieldType) (V : lmodType K) (G : (index -> orb) -> V) (F : (leg -> orb) -> V) l u D D' phi0 v0 :
    List.map isp l = List.map leg_space u -> NoDup (D ++ l) -> NoDup (D' ++ u) -> List.map phi0 D = List.map v0 D' ->
    (forall phi v, List.map phi (D ++ l) = List.map v (D' ++ u) -> G phi = F v) ->
    sum_over orbs l phi0 G = \sum_(v <- assigns u v0) F v.
  Proof.
    elim: l u D D' phi0 v0 => [|i l IH] [|k u] D D' phi0 v0 E ND ND' Ev H; try discriminate E.
    - rewrite asum_nil /=. apply: H. by rewrite !cats0.
    - rewrite asum_cons /=. case: E => El E. rewrite El. apply: eq_bigr => p _.
      have Ec (Y : Type) (x : Y) (y : seq Y) D0 : D0 ++ x :: y = (D0 ++ [:: x]) ++ y by rewrite -catA.
      apply: (IH u (D ++ [:: i]) (D' ++ [:: k])) => //; rewrite -?Ec // ?List.map_app /= ?lupd_same ?upd_same.
      have Nl : List.map (lupd v0 k p) D' = List.map v0 D'.
      { apply: List.map_ext_in => x Hx. apply: lupd_other => Exk. apply: (NoDup_remove_2 _ _ _ ND'). rewrite -Exk. by apply: List.in_or_app; left. }
      have Ni : List.map (upd phi0 i p) D = List.map phi0 D.
      { apply: List.map_ext_in => x Hx. apply: upd_other => Exk. apply: (NoDup_remove_2 _ _ _ ND). rewrite -Exk. by apply: List.in_or_app; left. }
      by rewrite Nl Ni Ev.
  Qed.
  Lemma asum_index (K : fieldType) (V : lmodType K) (G : (index -> orb) -> V) (F : (leg -> orb) -> V) l u phi0 v0 :
    List.map isp l = List.map leg_space u -> NoDup l -> NoDup u -> (forall phi v, List.map phi l = List.map v u -> G phi = F v) ->
    sum_over orbs l phi0 G = \sum_(v <- assigns u v0) F v.
  Proof. move=> E ND ND' H. by apply: (@asum_rel_index K V G F l u [::] [::]). Qed.
End Assign.
