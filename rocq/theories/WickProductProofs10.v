(** C48: the sum over the sets of contracted pairs of one composite contraction. *)
Set Warnings "-notation-overridden,-ambiguous-paths".
From Coq Require Import ZArith List Lia Permutation.
From mathcomp Require Import all_ssreflect ssralg.
From Verif Require Import CountProofs Res RationalModel RegistryModel CoreModel OperatorModel OrderProofs WickSearchModel WickSearchSpec CountSpec WickCombSpec WickCombProofs WickLegSpec WickLegProofs SortSpec SortProofs ScalarSem LadderSpec CanonSpec CanonSemSpec CanonSemProofs
  WickMatchProofs WickMatchProofs2 WickProductSpec WickProductProofs WickProductProofs2 WickProductProofs3 WickProductProofs4 WickProductProofs5 WickProductProofs6 WickProductProofs7 WickEvalModel WickPairProofs WickPairProofs2 WickPairProofs3 WickPairProofs4 WickProductProofs9.
Set Implicit Arguments.
Unset Strict Implicit.
Unset Printing Implicit Defensive.
Import GRing.Theory.
Local Open Scope ring_scope.
Local Notation iota := seq.iota.

(** [ps]: pairs of legs that carry out the contractions [cs]; [rest]: the other legs. *)
Definition rep (st : osi) (ops : oprod) (cs : seq econ) (ps : seq (leg * leg)) (rest : seq leg) : Prop :=
  (forall p, In p ps -> pair_ok st ops p.1 p.2) /\ Permutation (List.map (econ_pair ops) ps) cs /\ Permutation (product_legs st ops) (unz ps ++ rest).

Lemma filter_eq (X : Type) (P : X -> bool) l : List.filter P l = filter P l.
Proof. by elim: l => [|x l IH] //=; rewrite IH. Qed.

Section Class.
  Variables (K : fieldType) (A : algType K) (orb : eqType) (st : osi) (cre ann : Z -> orb -> A).
  Hypothesis HL : ladder_relations st cre ann.
  Hypothesis HS : single_reference st.
  Variables (ops : oprod) (T : text -> seq (Z * orb) -> seq (Z * orb) -> bool -> K) (orbs : Z -> seq orb).
  Notation n := (length ops).
  Notation L := (product_legs st ops).
  Hypothesis Hok : ops_ok st ops.
  Hypothesis Talt : forall B, (B < n)%N -> (forall lo, alternating -%R (fun up => T (labA ops B) lo up false)) /\ (forall up, alternating -%R (fun lo => T (labA ops B) lo up false)).
  Notation N := (normal_product st cre ann).
  Notation NPw := (NP st cre ann).
  Notation F := (Fv orbs NPw (PhiL ops T)).
  Notation mts := (mats (lcp st) (msize (blks st ops)).+1 (blks st ops)).

  Lemma rep_nodup cs ps rest : rep st ops cs ps rest -> NoDup (unz ps ++ rest).
  Proof. move=> [_ [_ P]]. exact: Permutation_NoDup P (product_nodup st ops). Qed.
  Lemma kinds_perm ps ps' : (forall p, In p ps -> pair_ok st ops p.1 p.2) -> (forall p, In p ps' -> pair_ok st ops p.1 p.2) ->
    Permutation (List.map (econ_pair ops) ps) (List.map (econ_pair ops) ps') -> Permutation (List.map pk ps) (List.map pk ps').
  Proof.
    move=> H H' P. have [qs [E Q]] := Permutation_map_inv _ _ P. apply: (Permutation_trans (l' := List.map pk qs)); last by apply: Permutation_map; exact: Permutation_sym.
    have Hq : forall p, In p qs -> pair_ok st ops p.1 p.2 by move=> p Hp; apply: H'; exact: (Permutation_in p (Permutation_sym Q) Hp).
    have -> // : List.map pk ps = List.map pk qs. elim: ps qs E H Hq {P H' Q} => [|p ps IH] [|q qs] //= [E1 E2] H Hq.
    have [K1 K2] := pair_kinds _ _ Hok _ _ (H p (or_introl erefl)) (Hq q (or_introl erefl)) E1. rewrite /pk K1 K2 (IH qs) // => x Hx; [apply: H|apply: Hq]; by right.
  Qed.
  Lemma rep_value cs ps rest ps' rest' v0 v0' : rep st ops cs ps rest -> rep st ops cs ps' rest' -> F ps rest v0 = F ps' rest' v0'.
  Proof.
    move=> R R'. have ND := rep_nodup R. have ND' := rep_nodup R'. case: R => [H [P Q]]. case: R' => [H' [P' Q']].
    have Pk := kinds_perm H H' (Permutation_trans P (Permutation_sym P')).
    apply: Fv_kinds => //; [exact: NP_alternating|exact: PhiL_alternating|].
    have X : Permutation (List.map fst (unz ps) ++ List.map fst rest) (List.map fst (unz ps') ++ List.map fst rest').
    { have X := Permutation_map fst (Permutation_trans (Permutation_sym Q) Q'). rewrite !List.map_app in X. exact: X. }
    have Y : Permutation (List.map fst (unz ps)) (List.map fst (unz ps')) by rewrite !map_unz; exact: unz_perm.
    apply: (Permutation_app_inv_l (List.map fst (unz ps))). apply: (Permutation_trans X). apply: Permutation_app_tail. exact: Permutation_sym.
  Qed.
  Lemma mts_rep cs m : In m mts -> matches ops cs m.1.1 -> rep st ops cs m.1.1 m.1.2.
  Proof.
    move=> Hm M. have [H _] : pairs_ok st ops m.1.1. { apply: (ms_ok HS). exact: (in_map (fun m => m.1.1) _ m Hm). }
    split=> //. split; first by apply/permb_spec. have := sperm_perm _ _ _ (mats_sperm Hm). by rewrite -legs_blks.
  Qed.
  Lemma class_value (V : lmodType K) (f : {linear A -> V}) cs ps rest v0 : rep st ops cs ps rest ->
    \sum_(m <- mts | matches ops cs m.1.1) f (F m.1.1 m.1.2 v0) = (length (List.filter (matches ops cs) [seq m.1.1 | m <- mts]))%:R *: f (F ps rest v0).
  Proof.
    move=> R. transitivity (\sum_(m <- mts | matches ops cs m.1.1) f (F ps rest v0)).
    - rewrite big_mkcond [RHS]big_mkcond. apply: eq_big_In => m Hm. case M: (matches _ _ _) => //. by rewrite (rep_value v0 v0 (mts_rep Hm M) R).
    - rewrite big_const_seq. rewrite filter_eq -[length _]/(size _) size_filter count_map. rewrite /preim /=.
      elim: (count _ mts) => [|k IH] /=; first by rewrite scale0r. by rewrite IH -addn1 natrD scalerDl scale1r addrC.
  Qed.
  Lemma class_count maxc cs : Forall (allowed st maxc ops) cs -> enough_legs st ops cs -> (forall c, (mult cs c <= 2)%coq_nat) ->
    combinatorial_factor st ops cs = rat_of_Z (Z.of_nat (length (List.filter (matches ops cs) [seq m.1.1 | m <- mts]))).
  Proof.
    move=> Al En M. have [R [C E]] := @ways_matchings st ops maxc Hok (single_no_general HS) [seq m.1.1 | m <- mts] (fun ps H => ms_ok HS H) (fun ps H => ms_complete (ltnSn _) H) (ms_once _ _ _) cs Al.
    rewrite -E. exact: (proj2 (proj2 (weight_exact st maxc ops cs Hok Al En) R C) M).
  Qed.
End Class.
