(** C48: the sum over sets of contracted pairs, grouped by the contractions of the search. *)
Set Warnings "-notation-overridden,-ambiguous-paths".
From Coq Require Import ZArith List Lia Permutation.
From mathcomp Require Import all_ssreflect ssralg.
From Verif Require Import CountProofs Res RationalModel RegistryModel CoreModel OperatorModel OrderProofs WickSearchModel WickSearchSpec CountSpec WickCombSpec WickCombProofs WickLegSpec WickLegProofs SortSpec SortProofs ScalarSem LadderSpec CanonSpec CanonSemSpec CanonSemProofs
  WickMatchProofs WickMatchProofs2 WickProductSpec WickProductProofs WickProductProofs2 WickProductProofs3 WickProductProofs4 WickProductProofs5 WickProductProofs6 WickProductProofs7 WickEvalModel WickPairProofs WickPairProofs2 WickPairProofs3 WickPairProofs4.
Set Implicit Arguments.
Unset Strict Implicit.
Unset Printing Implicit Defensive.
Import GRing.Theory.
Local Open Scope ring_scope.

Local Notation iota := seq.iota.
Lemma single_no_general st : single_reference st -> no_general st.
Proof. move=> HS s Hs. exact: (proj2 (HS s Hs)). Qed.

Section Matchings.
  Variables (st : osi) (ops : oprod).
  Hypothesis HS : single_reference st.
  Notation n := (length ops).
  Notation L := (product_legs st ops).
  Definition pcp (x y : leg) : bool := lcp st x y && (leg_op x < leg_op y)%N.
  Notation ms fuel := [seq m.1.1 | m <- mats (lcp st) fuel (blks st ops)].

  Lemma in_blks_from k m l : In l (flatten [seq blk st ops A | A <- iota k m]) -> (k <= leg_op l)%N.
  Proof.
    move=> H. have [b [Hb Hl]] := proj1 (In_flatten _ _) H. have [A [E HA]] := proj1 (in_map_iff _ _ _) Hb. rewrite -E in Hl. have [-> _] := in_blk Hl.
    move: HA. change (In A (List.seq k m) -> (k <= A)%N). rewrite in_seq => HA. apply/leP. lia.
  Qed.
  Lemma mats_pcp fuel : mats (lcp st) fuel (blks st ops) = mats pcp fuel (blks st ops).
  Proof.
    apply: mats_ext. rewrite /blks. elim: (n) 0%N => [|m IH] k //=. split; last exact: IH.
    move=> x y Hx Hy. have [Ex _] := in_blk Hx. have Ey := in_blks_from Hy. by rewrite /pcp Ex Ey andbT.
  Qed.
  Lemma pcp_ok : blocks_ok pcp (blks st ops).
  Proof.
    rewrite /blks. elim: (n) 0%N => [|m IH] k //=. split; [|split; last exact: IH].
    - move=> x y Hx Hy. have [Ex _] := in_blk Hx. have [Ey _] := in_blk Hy. by rewrite /pcp Ex Ey ltnn andbF.
    - move=> x y Hx Hy. have [Ex _] := in_blk Hx. have Ey := in_blks_from Hy. by rewrite /pcp Ex ltnNge (ltnW Ey) andbF.
  Qed.
  Lemma pair_pcp x y : pair_ok st ops x y -> pcp x y.
  Proof.
    move=> [[X1 [X2 X3]] [[Y1 [Y2 Y3]] [Es [Ho C]]]]. rewrite /pcp /lcp /lex -Es. rewrite (regI X2) Z.eqb_refl. have -> : (leg_op x < leg_op y)%N by apply/ltP.
    by case: C => -[-> [-> ->]].
  Qed.
  Lemma pcp_pair x y : In x L -> In y L -> pcp x y -> pair_ok st ops x y.
  Proof.
    move=> Hx Hy /andP [/and4P [R /Z.eqb_eq E Nx Ny] /ltP Ho]. have Lx := proj1 (in_product st ops x) Hx. have Ly := proj1 (in_product st ops y) Hy.
    do 4! split=> //. move: Nx Ny. rewrite /lex -E. case: (proj2 (HS (regP R))) => ->.
    - rewrite negbK => -> /negbTE ->. by left.
    - by move=> /negbTE -> ->; right.
  Qed.
  Lemma ms_ok fuel ps : In ps (ms fuel) -> pairs_ok st ops ps.
  Proof.
    move=> H. have [m [<- Hm]] := proj1 (in_map_iff _ _ _) H. rewrite mats_pcp in Hm.
    have Sp := mats_sperm Hm. rewrite -legs_blks in Sp. have P := sperm_perm _ _ _ Sp. split.
    - move=> p Hp. have I x : In x (unz m.1.1) -> In x L by move=> Hx; apply: (Permutation_in x (Permutation_sym P)); apply: List.in_or_app; left.
      apply: pcp_pair; [apply: I; apply: fst_unz; exact: List.in_map|apply: I; apply: snd_unz; exact: List.in_map|exact: mats_cp Hm _ Hp].
    - rewrite unpair_unz. exact: (proj1 (nodup_app_inv _ _ (Permutation_NoDup P (product_nodup st ops)))).
  Qed.
  Lemma ms_complete fuel ps : (msize (blks st ops) < fuel)%N -> pairs_ok st ops ps -> exists m, In m (ms fuel) /\ Permutation m ps.
  Proof.
    move=> Hf [H ND]. have [||||m [Hm P]] := @mats_complete _ pcp WickCombProofs.leg_dec fuel (blks st ops) ps Hf pcp_ok.
    - rewrite -legs_blks. exact: product_nodup.
    - move=> p Hp. apply: pair_pcp. exact: H.
    - by rewrite -unpair_unz.
    - rewrite -legs_blks => l Hl. have [p [Hp E]] := proj1 (in_unz (fun _ _ => true) _ _) Hl. have [Lx [Ly _]] := H p Hp. apply/(in_product st ops). by case: E => ->.
    - exists m.1.1. split=> //. rewrite mats_pcp. exact: (in_map (fun m => m.1.1) _ m Hm).
  Qed.
  Lemma ms_once fuel : ForallOrdPairs (fun m m' => ~ Permutation m m') (ms fuel).
  Proof. apply: fop_map. apply: mats_once. rewrite -legs_blks. exact: product_nodup. Qed.
End Matchings.

(** Sums over a list partitioned into classes. *)
Lemma sum_none (V : zmodType) (C : Type) (P : C -> bool) (x : V) (l : seq C) : (forall c, In c l -> P c = false) -> \sum_(c <- l | P c) x = 0.
Proof. elim: l => [|d l IH] H; first by rewrite big_nil. rewrite big_cons H; last by left. apply: IH => c Hc. by apply: H; right. Qed.
Lemma sum_one (V : zmodType) (C : Type) (P : C -> bool) (x : V) (l : seq C) c : NoDup l -> In c l -> (forall c', In c' l -> P c' <-> c' = c) -> \sum_(c' <- l | P c') x = x.
Proof.
  elim: l => [|d l IH] // ND H X. case/NoDup_cons_iff: ND => Nd ND. rewrite big_cons. case: H => [E|H].
  - rewrite (proj2 (X d (or_introl erefl)) E). rewrite sum_none ?addr0 //. move=> c' Hc'. apply/negP => Pc. apply: Nd. by rewrite E -(proj1 (X c' (or_intror Hc')) Pc).
  - case Pd: (P d); last by apply: IH => // c' Hc'; apply: X; right. exfalso. apply: Nd. by rewrite (proj1 (X d (or_introl erefl)) Pd).
Qed.
Lemma sum_classes (V : zmodType) (C M : Type) (P : C -> M -> bool) (F : M -> V) (cs : seq C) (ms : seq M) : NoDup cs ->
  (forall m, In m ms -> (exists c, In c cs /\ forall c', In c' cs -> P c' m <-> c' = c) \/ (F m = 0 /\ forall c, In c cs -> P c m = false)) ->
  \sum_(m <- ms) F m = \sum_(c <- cs) \sum_(m <- ms | P c m) F m.
Proof.
  move=> ND H. transitivity (\sum_(m <- ms) \sum_(c <- cs | P c m) F m).
  - apply: eq_big_In => m Hm. case: (H m Hm) => [[c [Hc X]]|[-> X]]; [by rewrite (sum_one _ ND Hc X)|by rewrite sum_none].
  - under eq_bigr do rewrite big_mkcond. rewrite exchange_big /=. apply: eq_bigr => c _. by rewrite -big_mkcond.
Qed.
