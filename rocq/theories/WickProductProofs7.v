(** C48: the term of a set of contractions evaluates to the contribution of the contracted pairs. *)
Set Warnings "-notation-overridden,-ambiguous-paths".
From Coq Require Import ZArith List Lia Permutation.
From mathcomp Require Import all_ssreflect ssralg.
From Verif Require Import SignPerm CountProofs Res RationalModel RegistryModel CoreModel AdjointModel OperatorModel OrderProofs WickSearchModel WickSearchSpec CountSpec WickCombSpec WickCombProofs WickLegSpec WickLegProofs SortSpec SortProofs ScalarSem LadderSpec CanonSpec CanonSemSpec CanonSemProofs
  WickMatchProofs WickMatchProofs2 WickProductSpec WickProductProofs WickProductProofs2 WickProductProofs3 WickProductProofs4 WickProductProofs5 WickProductProofs6 WickPairProofs WickPairProofs2.
Set Implicit Arguments.
Unset Strict Implicit.
Unset Printing Implicit Defensive.
Import GRing.Theory.
Local Open Scope ring_scope.

Lemma unpair_unz ps : unpair ps = unz ps.
Proof. by elim: ps => [|p ps IH] //=; rewrite IH. Qed.

Local Notation leg_dec := WickCombProofs.leg_dec.
#[local] Arguments WickCombProofs.leg_dec : simpl never.
(** Contracted legs are identified with the first leg of their pair. *)
Fixpoint rd (ps : seq (leg * leg)) (l : leg) : leg :=
  match ps with [::] => l | p :: ps' => match leg_dec l p.2 with left _ => p.1 | right _ => rd ps' l end end.
Lemma rd_out ps l : ~ In l (List.map snd ps) -> rd ps l = l.
Proof. elim: ps => [|p ps IH] //= N. case: (leg_dec l p.2) => [E|_]; [case: N; by left|apply: IH => H; apply: N; by right]. Qed.
Lemma rd_in ps l : In (rd ps l) (List.map fst ps) \/ rd ps l = l.
Proof. elim: ps => [|p ps IH] /=; [by right|]. case: (leg_dec l p.2) => [_|_]; [by left; left|]. case: IH => H; [left; by right|by right]. Qed.
Lemma rd_space ps l : (forall p, In p ps -> leg_space p.1 = leg_space p.2) -> leg_space (rd ps l) = leg_space l.
Proof. elim: ps => [|p ps IH] //= H. case: (leg_dec l p.2) => [->|_]; [apply: H; by left|apply: IH => q Hq; apply: H; by right]. Qed.
Lemma fst_unz (ps : seq (leg * leg)) l : In l (List.map fst ps) -> In l (unz ps).
Proof. move=> H. have [p [<- Hp]] := proj1 (in_map_iff _ _ _) H. apply: (proj2 (in_unz (fun _ _ => true) _ _)). exists p. split=> //. by left. Qed.
Lemma snd_unz (ps : seq (leg * leg)) l : In l (List.map snd ps) -> In l (unz ps).
Proof. move=> H. have [p [<- Hp]] := proj1 (in_map_iff _ _ _) H. apply: (proj2 (in_unz (fun _ _ => true) _ _)). exists p. split=> //. by right. Qed.
Lemma rd_fst ps rest l : NoDup (unz ps ++ rest) -> In l (List.map fst ps ++ rest) -> rd ps l = l.
Proof.
  elim: ps => [|p ps IH] //= ND H. case/NoDup_cons_iff: ND => N1 ND. case/NoDup_cons_iff: ND => N2 ND.
  case: (leg_dec l p.2) => [E|Nl].
  - exfalso. case: H => [Ex|H]; [apply: N1; left; by rewrite -E|]. apply: N2. rewrite -E. apply List.in_app_or in H. apply: List.in_or_app. case: H => H; [left; exact: fst_unz|by right].
  - case: H => [<-|H]; last exact: IH. apply: rd_out => H. apply: N1. right. apply: List.in_or_app. left. exact: snd_unz.
Qed.
Lemma rd_pairs ps rest p : NoDup (unz ps ++ rest) -> In p ps -> rd ps p.1 = rd ps p.2.
Proof.
  move=> ND Hp. rewrite (@rd_fst ps rest) //; last by apply: List.in_or_app; left; apply: List.in_map.
  elim: ps ND Hp => [|q ps IH] //= ND. case/NoDup_cons_iff: ND => N1 ND. case/NoDup_cons_iff: ND => N2 ND. case=> [->|Hp]; first by case: (leg_dec p.2 p.2).
  case: (leg_dec p.2 q.2) => [E|_]; last exact: IH. exfalso. apply: N2. rewrite -E. apply: List.in_or_app. left. by apply: snd_unz; apply: List.in_map.
Qed.
Lemma nodup_fst (ps : seq (leg * leg)) (rest : seq leg) : NoDup (unz ps ++ rest) -> NoDup (List.map fst ps ++ rest).
Proof.
  elim: ps => [|p ps IH] //= ND. case/NoDup_cons_iff: ND => N1 ND. case/NoDup_cons_iff: ND => N2 ND. constructor; last exact: IH.
  move=> H. apply: N1. right. apply List.in_app_or in H. apply: List.in_or_app. case: H => H; [left; exact: fst_unz|by right].
Qed.

Section Collapse.
  Variables (K : fieldType) (V : lmodType K) (orb : eqType) (orbs : Z -> seq orb).
  Hypothesis Uorbs : forall s, uniq (orbs s).
  Lemma asum_base (F : (leg -> orb) -> V) u w y a : ~ In y u -> (forall v v', v =1 v' -> F v = F v') ->
    \sum_(v <- assigns orbs u (lupd w y a)) F v = \sum_(v <- assigns orbs u w) F (lupd v y a).
  Proof.
    move=> N X. elim: u w N => [|l u IH] w N; first by rewrite !asum_nil.
    rewrite !asum_cons. apply: eq_bigr => p _. rewrite -IH; last by move=> H; apply: N; right.
    apply: asum_start; first exact: X. move=> k. rewrite /lupd. case: (leg_dec k l) => [E|?] //. case: (leg_dec k y) => [Ey|] //. case: N. left. by rewrite -E -Ey.
  Qed.
  Lemma collapse (G : (leg -> orb) -> V) ps R v0 : NoDup (unz ps ++ R) -> (forall p, In p ps -> leg_space p.1 = leg_space p.2) -> (forall v v', v =1 v' -> G v = G v') ->
    \sum_(v <- assigns orbs (unz ps ++ R) v0) (\prod_(p <- ps) (v p.1 == v p.2)%:R) *: G v = \sum_(v <- assigns orbs (List.map fst ps ++ R) v0) G (v \o rd ps).
  Proof.
    move=> ND Hs X. elim: ps v0 ND Hs => [|p ps IH] v0 ND Hs.
    - apply: eq_bigr => v _. by rewrite big_nil scale1r.
    - rewrite -[unz (p :: ps) ++ R]/(p.1 :: p.2 :: (unz ps ++ R)) -[List.map fst (p :: ps) ++ R]/(p.1 :: (List.map fst ps ++ R)).
      case/NoDup_cons_iff: (ND) => N1 ND1. case/NoDup_cons_iff: ND1 => N2 ND2. have N12 : p.1 <> p.2 by move=> E; apply: N1; left. have N1' : ~ In p.1 (unz ps ++ R) by move=> H; apply: N1; right.
      rewrite !asum_cons. apply: eq_big_In => a Ha. rewrite asum_cons -(Hs p (or_introl erefl)).
      have E b : \sum_(v <- assigns orbs (unz ps ++ R) (lupd (lupd v0 p.1 a) p.2 b)) (\prod_(q <- p :: ps) (v q.1 == v q.2)%:R) *: G v =
        if b == a then \sum_(v <- assigns orbs (List.map fst ps ++ R) (lupd (lupd v0 p.1 a) p.2 a)) G (v \o rd ps) else 0.
      { case: eqP => [->|Nb].
        - rewrite -IH //; last by move=> q Hq; apply: Hs; right. apply: eq_big_In => v Hv. rewrite big_cons.
          by rewrite (assigns_out Hv N2) lupd_same (assigns_out Hv N1') (lupd_other _ _ N12) lupd_same eqxx mul1r.
        - transitivity (\sum_(v <- assigns orbs (unz ps ++ R) (lupd (lupd v0 p.1 a) p.2 b)) (0 : V)); last by rewrite big1_eq. apply: eq_big_In => v Hv. rewrite big_cons.
          rewrite (assigns_out Hv N2) lupd_same (assigns_out Hv N1') (lupd_other _ _ N12) lupd_same.
          have -> : (a == b) = false by apply/eqP => Eab; apply: Nb. by rewrite mul0r scale0r. }
      under eq_bigr do rewrite E. rewrite (bigD1_seq a) //=; last exact: (proj1 (In_mem _ _)). rewrite eqxx [Y in _ + Y]big1 ?addr0; last by move=> b Hb; rewrite (negbTE Hb).
      rewrite (asum_base _ _ _ (y := p.2)).
      + apply: eq_big_In => v Hv. apply: X => l /=. rewrite /lupd. case: (leg_dec l p.2) => [->|Nl].
        * rewrite rd_out; last by move=> H; apply: N2; apply: List.in_or_app; left; exact: snd_unz.
          case: (leg_dec p.2 p.2) => // ?. rewrite /= (assigns_out Hv) ?lupd_same // => H. apply: N1. right. apply List.in_app_or in H. apply: List.in_or_app. case: H => H; [left; exact: fst_unz|by right].
        * case: (leg_dec (rd ps l) p.2) => // Er. exfalso. case: (rd_in ps l) => H; last by apply: Nl; rewrite -H.
          apply: N2. rewrite -Er. apply: List.in_or_app. left. exact: fst_unz.
      + move=> H. apply: N2. apply List.in_app_or in H. apply: List.in_or_app. case: H => H; [left; exact: fst_unz|by right].
      + move=> v v' Ev'. apply: X => l /=. exact: Ev'.
  Qed.
End Collapse.
