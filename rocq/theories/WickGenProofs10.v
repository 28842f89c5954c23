(** C61: the sum over the sets of contracted blocks of one composite contraction. *)
Set Warnings "-notation-overridden,-ambiguous-paths".
From Coq Require Import ZArith List Lia Permutation.
From mathcomp Require Import all_ssreflect ssralg.
From Verif Require Import SignPerm CountProofs Res RationalModel RegistryModel CoreModel AdjointModel OperatorModel DecModel OrderProofs WickSearchModel WickSearchSpec CountSpec WickCombSpec WickCombProofs WickLegSpec WickLegProofs SortSpec SortProofs ScalarSem LadderSpec CanonSpec CanonSemSpec CanonSemProofs
  WickMatchProofs WickMatchProofs2 WickProductSpec WickTheoremSpec WickProductProofs WickProductProofs2 WickProductProofs3 WickProductProofs4 WickProductProofs5 WickProductProofs6 WickProductProofs7 WickProductProofs8 WickProductProofs9 WickProductProofs10 WickProductProofs11 WickEvalModel WickPairProofs WickPairProofs2 WickPairProofs3 WickPairProofs4 WickGraphSpec WickGraphProofs WickGraphProofs2 WickLegProofs6 WickPairProofs5 WickPairProofs6
  WickGeneralSpec WickConvProofs WickConvProofs2 WickBlockProofs WickGenProofs WickGenProofs2 WickGenProofs3 WickGenProofs4 WickGenProofs5 WickGenProofs6 WickGenProofs7 WickGenProofs8 WickGenProofs9.
Set Implicit Arguments.
Unset Strict Implicit.
Unset Printing Implicit Defensive.
Import GRing.Theory.
Local Open Scope ring_scope.
Local Notation lsub := CountSpec.subseq.
Local Notation iota := seq.iota.
Local Notation leg_dec := WickCombProofs.leg_dec.
#[local] Arguments WickCombProofs.leg_dec : simpl never.


Lemma flat_cc (X : Type) (bs : seq (seq X)) : flatten bs = concat bs.
Proof. by elim: bs => [|b l IH] //=; rewrite IH. Qed.
Lemma even_size m : (exists k, Z.of_nat m = (k + k)%Z) -> ~~ odd m.
Proof.
  move=> [k E]. have X : m = (Z.to_nat k + Z.to_nat k)%coq_nat by lia. rewrite X. change (~~ odd (Z.to_nat k + Z.to_nat k)%N). by rewrite addnn odd_double.
Qed.

Section Class.
  Variables (K : fieldType) (A : algType K) (orb : eqType) (st : osi) (cre ann : Z -> orb -> A).
  Hypothesis HL : ladder_relations st cre ann.
  Hypothesis HS : multi_reference st.
  Variables (ops : oprod) (T : text -> seq (Z * orb) -> seq (Z * orb) -> bool -> K) (orbs : Z -> seq orb) (maxc : nat).
  Hypothesis Hm1 : (1 <= maxc)%N.
  Hypothesis HD : densities st T.
  Notation n := (length ops).
  Notation L := (product_legs st ops).
  Hypothesis Hok : ops_ok st ops.
  Hypothesis Talt : forall B, (B < n)%N -> (forall lo, alternating -%R (fun up => T (labA ops B) lo up false)) /\ (forall up, alternating -%R (fun lo => T (labA ops B) lo up false)).
  Variable els : seq econ.
  Hypothesis Hels : forall c, In c els <-> allowed st (Z.of_nat maxc) ops c.
  Notation NGw := (NG st cre ann (cumulant st T maxc)).
  Notation M := (lnk st T maxc).
  Notation F := (BFv orbs NGw (PhiL ops T) M).
  Notation ec := (econ_of n).
  Definition cpb (b : seq leg) : bool := all (fun l => if in_dec leg_dec l L then true else false) b && (if in_dec econ_dec (ec b) els then true else false).
  Notation mts := (bmats cpb (size L) L).
  Notation ms := [seq m.1.1 | m <- mts].

  Lemma cpb_in b : cpb b -> (forall l, In l b -> In l L) /\ allowed st (Z.of_nat maxc) ops (ec b).
  Proof.
    move=> /andP [H1 H2]. split; last by apply/Hels; move: H2; case: in_dec.
    move=> l. elim: b H1 {H2} => [|x b IH] //= /andP [Hx Hb] [<-|Hl]; [by move: Hx; case: in_dec|exact: IH].
  Qed.
  Lemma cpb_intro b : (forall l, In l b -> In l L) -> allowed st (Z.of_nat maxc) ops (ec b) -> cpb b.
  Proof.
    move=> H1 /Hels H2. apply/andP. split; last by case: in_dec. elim: b H1 {H2} => [|x b IH] //= H. apply/andP. split; first by case: in_dec => //; case; apply: H; left.
    apply: IH => l Hl. apply: H. by right.
  Qed.
  Lemma allowed_even b : (forall l, In l b -> In l L) -> allowed st (Z.of_nat maxc) ops (ec b) -> ~~ odd (size b).
  Proof.
    move=> H Ab. apply: even_size. exists (ncre true b). rewrite -[size b]/(length b) -ncre_split. congr (_ + _)%Z. symmetry. apply: (good_even st ops (Z.of_nat maxc)).
    apply: (allowed_good st ops _ Hok _ _ Ab); last exact: econ_of_carries (proj1 Hok) _. move=> l Hl. by apply/(in_product st ops); apply: H.
  Qed.
  Lemma cpbE b : cpb b -> ~~ odd (size b).
  Proof. by move=> /cpb_in [H1 H2]; exact: allowed_even. Qed.
  Lemma allowed_nonempty : ~ allowed st (Z.of_nat maxc) ops (ec [::]).
  Proof.
    move=> Ab. case: (allowed_good st ops _ Hok _ [::] Ab (fun l (H : In l [::]) => False_ind _ H) (econ_of_carries st n (proj1 Hok) [::])) => [[x [y [P _]]]|[s [_ [_ [_ [_ [_ [l [l' [[] _]]]]]]]]]].
    by have := Permutation_length P.
  Qed.
  Lemma cpbM (v : leg -> orb) b : lsub b L -> cpb b = false -> b <> [::] -> M (List.map (kv v) b) = 0.
  Proof.
    move=> S C Nb. case: (M (List.map (kv v) b) =P 0) => // NZ. exfalso. move/negP: C; apply.
    have Hl l : In l b -> In l L by move=> Hl; exact: (WickPairProofs3.subseq_in _ _ _ S Hl).
    have Hl' l : In l b -> is_leg st ops l by move=> H; apply/(in_product st ops); exact: Hl.
    apply: cpb_intro => //. apply: (good_allowed st ops _ Hok) => //; last exact: (lnk_good HS HD Hm1 Hl' Nb NZ).
    apply: (WickPairProofs3.subseq_nodup _ _ S). exact: product_nodup.
  Qed.
  Lemma ms_set bs : In bs ms -> block_set st ops (Z.of_nat maxc) bs.
  Proof.
    move=> H. have [m [<- Hm]] := proj1 (in_map_iff _ _ _) H. have [Sb _] := bmats_sub Hm. split.
    - move=> b Hb. split; first exact: Sb. by have [/cpb_in [_ ?] _] := bmats_cp Hm Hb.
    - rewrite -flat_cc. exact: (proj1 (nodup_app_inv _ _ (Permutation_NoDup (bmats_perm cpbE Hm) (product_nodup st ops)))).
  Qed.
  Lemma ms_all bs : block_set st ops (Z.of_nat maxc) bs -> exists m, In m ms /\ Permutation m bs.
  Proof.
    move=> [H ND]. have [|||m [Hm P]] := @bmats_complete _ cpb (size L) L bs (leqnn _) (product_nodup st ops).
    - move=> b Hb. have [Sb Ab] := H b Hb. split; [|split=> //].
      + apply: cpb_intro => // l Hl. exact: (WickPairProofs3.subseq_in _ _ _ Sb Hl).
      + move=> E. rewrite E in Ab. exact: allowed_nonempty.
    - by rewrite flat_cc.
    - exact: leg_dec.
    - exists m.1.1. split=> //. exact: (in_map (fun m => m.1.1) _ m Hm).
  Qed.
  Lemma ms_one : ForallOrdPairs (fun m m' => ~ Permutation m m') ms.
  Proof. apply: fop_map. apply: (bmats_once cpbE). exact: product_nodup. Qed.

  Lemma brep_legs cs bs rest : brep st ops cs bs rest -> forall b l, In b bs -> In l b -> In l L.
  Proof. move=> [_ P] b l Hb Hl. apply: (Permutation_in l (Permutation_sym P)). apply: List.in_or_app. left. apply/in_concat. by exists b. Qed.
  Lemma brep_nodup cs bs rest : brep st ops cs bs rest -> NoDup (flatten bs ++ rest).
  Proof. move=> [_ P]. rewrite flat_cc. exact: Permutation_NoDup P (product_nodup st ops). Qed.
  Lemma brep_value cs bs rest bs' rest' v0 v0' : Forall (allowed st (Z.of_nat maxc) ops) cs -> brep st ops cs bs rest -> brep st ops cs bs' rest' -> F bs rest v0 = F bs' rest' v0'.
  Proof.
    move=> Al R R'. have ND := brep_nodup R. have ND' := brep_nodup R'. have Hl := brep_legs R. have Hl' := brep_legs R'. case: R => [P Q]. case: R' => [P' Q'].
    have [bs1 [B1 B2]] : exists bs1, Permutation bs bs1 /\ Forall2 (fun b b' => Permutation (List.map fst b) (List.map fst b')) bs1 bs'.
    { apply: (class_kinds st ops Hok) => [b l Hb Hlb|b l Hb Hlb|]; [apply/(in_product st ops); exact: Hl Hb Hlb|apply/(in_product st ops); exact: Hl' Hb Hlb|exact: Permutation_trans P (Permutation_sym P')]. }
    apply: (@BFv_kinds _ _ _ orbs NGw (PhiL ops T) M _ _ _ bs bs1 bs') => //.
    - exact: (NGw_alternating HL HS maxc HD).
    - exact: PhiL_alternating.
    - exact: lnk_alternating.
    - move=> b Hb. apply: allowed_even; first by move=> l; exact: Hl. move/List.Forall_forall: Al; apply. apply: (Permutation_in _ P). exact: in_map.
    - apply: (kinds_rest bs bs1 bs') => //. exact: Permutation_trans (Permutation_sym Q) Q'.
  Qed.
  Lemma mts_brep cs m : In m mts -> bmatches ops cs m.1.1 -> brep st ops cs m.1.1 m.1.2.
  Proof. move=> Hm Mt. split; first exact/permb_spec. rewrite -flat_cc. exact: (bmats_perm cpbE Hm). Qed.
  Lemma bclass_value (V : lmodType K) (f : {linear A -> V}) cs bs rest v0 : Forall (allowed st (Z.of_nat maxc) ops) cs -> brep st ops cs bs rest ->
    \sum_(m <- mts | bmatches ops cs m.1.1) f (F m.1.1 m.1.2 v0) = (length (List.filter (bmatches ops cs) ms))%:R *: f (F bs rest v0).
  Proof.
    move=> Al R. transitivity (\sum_(m <- mts | bmatches ops cs m.1.1) f (F bs rest v0)).
    - rewrite big_mkcond [RHS]big_mkcond. apply: eq_big_In => m Hm. case E: (bmatches _ _ _) => //. by rewrite (brep_value v0 v0 Al (mts_brep Hm E) R).
    - rewrite big_const_seq. rewrite filter_eq -[length _]/(size _) size_filter count_map. rewrite /preim /=.
      elim: (count _ mts) => [|k IH] /=; first by rewrite scale0r. by rewrite IH -addn1 natrD scalerDl scale1r addrC.
  Qed.
  Lemma bclass_count cs : Forall (allowed st (Z.of_nat maxc) ops) cs -> enough_legs st ops cs -> (forall c, (mult cs c <= 2)%coq_nat) ->
    combinatorial_factor st ops cs = rat_of_Z (Z.of_nat (length (List.filter (bmatches ops cs) ms))).
  Proof.
    move=> Al En Mu. have [R [C E]] := ways_blocks st ops (Z.of_nat maxc) Hok ms ms_set ms_all ms_one cs Al.
    rewrite -E. exact: (proj2 (proj2 (weight_exact st (Z.of_nat maxc) ops cs Hok Al En) R C) Mu).
  Qed.
End Class.
