(** C61: the term of a set of contractions evaluates to the contribution of the contracted blocks. *)
Set Warnings "-notation-overridden,-ambiguous-paths".
From Coq Require Import ZArith List Lia Permutation.
From mathcomp Require Import all_ssreflect ssralg.
From Verif Require Import SignPerm CountProofs Res RationalModel RegistryModel CoreModel AdjointModel OperatorModel DecModel OrderProofs WickSearchModel WickSearchSpec CountSpec WickCombSpec WickCombProofs WickLegSpec WickLegProofs SortSpec SortProofs ScalarSem LadderSpec CanonSpec CanonSemSpec CanonSemProofs
  WickMatchProofs WickMatchProofs2 WickProductSpec WickTheoremSpec WickProductProofs WickProductProofs2 WickProductProofs3 WickProductProofs4 WickProductProofs5 WickProductProofs6 WickProductProofs7 WickProductProofs8 WickProductProofs9 WickPairProofs WickPairProofs2
  WickGeneralSpec WickConvProofs WickConvProofs2 WickBlockProofs WickGenProofs WickGenProofs2 WickGenProofs3 WickGenProofs4 WickGenProofs6 WickGenProofs7.
Set Implicit Arguments.
Unset Strict Implicit.
Unset Printing Implicit Defensive.
Import GRing.Theory.
Local Open Scope ring_scope.
Local Notation lsub := CountSpec.subseq.
Local Notation iota := seq.iota.
Local Notation leg_dec := WickCombProofs.leg_dec.
#[local] Arguments WickCombProofs.leg_dec : simpl never.

Lemma prod_in (K : fieldType) (X : Type) (F G : X -> K) l : (forall x, In x l -> F x = G x) -> \prod_(x <- l) F x = \prod_(x <- l) G x.
Proof. elim: l => [|x l IH] H; first by rewrite !big_nil. rewrite !big_cons (H x); last by left. congr (_ * _). apply: IH => z Hz. by apply: H; right. Qed.

Section Value.
  Variables (K : fieldType) (V : lmodType K) (orb : eqType) (st : osi) (ops : oprod).
  Variables (W : seq (bool * (Z * orb)) -> V) (T : text -> seq (Z * orb) -> seq (Z * orb) -> bool -> K) (orbs : Z -> seq orb).
  Notation n := (length ops).
  Notation L := (product_legs st ops).
  Hypothesis Talt : forall B, (B < n)%N -> (forall lo, alternating -%R (fun up => T (labA ops B) lo up false)) /\ (forall up, alternating -%R (fun lo => T (labA ops B) lo up false)).
  Hypothesis Uorbs : forall s, uniq (orbs s).
  Variables (ix : leg -> index) (ps : seq (leg * leg)) (gl : seq dten) (rest : seq leg).
  Notation R := (dlegs gl ++ rest).
  Hypothesis Hix : labels_legs L ix.
  Hypothesis Hps : forall p, In p ps -> leg_space p.1 = leg_space p.2.
  Hypothesis PL : Permutation L (unz ps ++ R).
  Let M : index_map := List.map (fun p => (ix (snd p), ix (fst p))) ps.
  Definition gen_term : term := term_reindex M (mkTerm false (List.map (leg_sqop ix) rest) (List.map (op_tensor st ops ix) (List.seq 0 n) ++ List.map (dtens ix) gl)).
  Let NDu : NoDup (unz ps ++ R).
  Proof. exact: Permutation_NoDup PL (product_nodup st ops). Qed.
  Let F := List.map fst ps ++ R.
  Lemma gt_in l : In l L -> In (rd ps l) F.
  Proof.
    move=> /(Permutation_in l PL) H. rewrite /F. case: (rd_in ps l) => E; first by apply: List.in_or_app; left.
    rewrite E. apply List.in_app_or in H. apply: List.in_or_app. case: H => H; last by right. left.
    have [p [Hp [E1|E1]]] := proj1 (in_unz (fun _ _ => true) _ _) H; first by rewrite E1; apply: List.in_map.
    rewrite -E E1 -(rd_pairs NDu Hp) (rd_fst NDu); first by apply: List.in_map. by apply: List.in_or_app; left; apply: List.in_map.
  Qed.
  Lemma F_in l : In l F -> In l L.
  Proof.
    move=> H. apply: (Permutation_in l (Permutation_sym PL)). apply List.in_app_or in H. apply: List.in_or_app. case: H => H; [left; exact: fst_unz|by right].
  Qed.
  Lemma gt_reindex l : In l L -> reindex M (ix l) = ix (rd ps l).
  Proof.
    move=> Hl. have : forall p, In p ps -> In p.2 L.
    { move=> p Hp. apply: (Permutation_in _ (Permutation_sym PL)). apply: List.in_or_app. left. by apply: snd_unz; apply: List.in_map. }
    rewrite /reindex /M. elim: (ps) => [|p qs IH] //= H. case: (leg_dec l p.2) => [->|N].
    - by rewrite (proj2 (index_eqb_eq _ _)).
    - case E: (index_eqb _ _); last by apply: IH => q Hq; apply: H; right. exfalso. apply: N. apply: (proj2 Hix) => //; first by apply: H; left. exact: (proj1 (index_eqb_eq _ _)).
  Qed.
  Lemma gt_rest l : In l rest -> In l L.
  Proof. move=> H. apply: F_in. apply: List.in_or_app. right. apply: List.in_or_app. by right. Qed.
  Lemma gt_dlegs g l : In g gl -> In l g.1.2 \/ In l g.2 -> In l L.
  Proof. move=> Hg Hl. apply: F_in. apply: List.in_or_app. right. apply: List.in_or_app. left. apply/in_flat_map. exists g. split=> //. apply: List.in_or_app. tauto. Qed.
  Lemma gt_tens d : In d (tm_tens gen_term) -> (exists A, (A < n)%coq_nat /\ d = tensor_reindex M (op_tensor st ops ix A)) \/ (exists g, In g gl /\ d = tensor_reindex M (dtens ix g)).
  Proof.
    move=> Hd. have [e [<- He]] := proj1 (in_map_iff _ _ _) Hd. apply List.in_app_or in He. case: He => He; [left|right].
    - have [A [EA /in_seq HA]] := proj1 (in_map_iff _ _ _) He. exists A. split; [lia|by rewrite EA].
    - have [g [Eg Hg]] := proj1 (in_map_iff _ _ _) He. exists g. by rewrite Eg.
  Qed.
  Lemma gt_indices : lists_indices (List.map ix F) gen_term.
  Proof.
    split.
    - apply: map_nodup; first exact: nodup_fst. move=> x y Hx Hy. apply: (proj2 Hix); exact: F_in.
    - move=> i. rewrite in_map_iff. split.
      + move=> [l [<- Hl]]. right. have Hl' := F_in Hl. have [A [HA HlA]] := leg_in_op Hl'.
        exists (tensor_reindex M (op_tensor st ops ix A)). split; first by apply: List.in_map; apply: List.in_or_app; left; apply: List.in_map; apply/in_seq; lia.
        have E : ix l = reindex M (ix l) by rewrite gt_reindex // (rd_fst NDu).
        rewrite /tensor_reindex /op_tensor /= !List.map_map E. case: HlA => H; [left|right]; apply/in_map_iff; by exists l.
      + case.
        * move=> [x [Hx <-]]. have [y [<- Hy]] := proj1 (in_map_iff _ _ _) Hx. have [l [<- Hl]] := proj1 (in_map_iff _ _ _) Hy.
          exists (rd ps l). have Hl' := gt_rest Hl. split; [by rewrite /= gt_reindex|exact: gt_in].
        * move=> [d [/gt_tens [[A [HA ->]]|[g [Hg ->]]] Hi]]; move: Hi; rewrite /= !List.map_map.
          { move=> H. have [l [<- Hl']] : exists l, reindex M (ix l) = i /\ In l L.
            { case: H => /in_map_iff [l [<- Hl]]; exists l; split=> //; apply: (op_leg_in HA); tauto. }
            exists (rd ps l). split; [by rewrite (gt_reindex Hl')|exact: gt_in]. }
          { move=> H. have [l [<- Hl']] : exists l, reindex M (ix l) = i /\ In l L.
            { case: H => /in_map_iff [l [<- Hl]]; exists l; split=> //; apply: (gt_dlegs Hg); tauto. }
            exists (rd ps l). split; [by rewrite (gt_reindex Hl')|exact: gt_in]. }
  Qed.
  Theorem gen_term_value phi0 v0 : term_value W T orbs phi0 gen_term =
    \sum_(v <- assigns orbs (unz ps ++ R) v0) (\prod_(p <- ps) (v p.1 == v p.2)%:R) *: ((\prod_(g <- gl) dval T v g * PhiL ops T (List.map (kv v) L)) *: W (List.map (xl v) rest)).
  Proof.
    rewrite (term_value_list W T orbs phi0 gt_indices).
    pose H (v : leg -> orb) : V := (\prod_(g <- gl) dval T v g * PhiL ops T (List.map (kv v) L)) *: W (List.map (xl v) rest).
    have EH v v' : v =1 v' -> H v = H v'.
    { move=> E. rewrite /H (List.map_ext _ _ (kv_ext E)). congr (_ * _ *: W _).
      - apply: eq_bigr => g _. rewrite /dval. congr (T _ _ _ _); apply: List.map_ext => l; by rewrite /xs E.
      - apply: List.map_ext => l. by rewrite /xl /xs E. }
    rewrite (@asum_index _ orbs K V _ (fun v => H (v \o rd ps)) _ F _ v0).
    - by rewrite -(collapse Uorbs).
    - rewrite /F List.map_map. apply: List.map_ext_in => l Hl. exact: (proj1 (proj1 Hix l (F_in Hl))).
    - exact: (proj1 gt_indices).
    - exact: nodup_fst.
    - move=> phi v. rewrite List.map_map => E.
      have Ag l : In l L -> phi (ix (rd ps l)) = v (rd ps l) by move=> Hl; exact: (@List.ext_in_map _ _ _ _ _ E _ (gt_in Hl)).
      have Ao l : In l L -> orb_of phi (reindex M (ix l)) = xs (v \o rd ps) l.
      { move=> Hl. rewrite gt_reindex // /orb_of /xs Ag //. congr (_, _). rewrite -(rd_space l Hps). exact: (proj1 (proj1 Hix _ (F_in (gt_in Hl)))). }
      rewrite /value_at /H Phi_legs /gen_term /term_reindex /=. congr (_ *: W _).
      + rewrite List.map_app big_cat /= mulrC. congr (_ * _).
        * have Y ll : \prod_(i <- List.map (tensor_reindex M) (List.map (dtens ix) ll)) elem_at T phi i = \prod_(g <- ll) elem_at T phi (tensor_reindex M (dtens ix g)) by rewrite -!/(map _ _) !big_map.
          rewrite Y. apply: prod_in => g Hg. rewrite /elem_at /dval /= !List.map_map.
          congr (T _ _ _ _); apply: List.map_ext_in => l Hl; apply: Ao; apply: (gt_dlegs Hg); tauto.
        * rewrite -[List.seq 0 n]/(iota 0 n) -!/(map _ _) !big_map. apply: eq_big_seq => A. rewrite mem_iota add0n => /= /ltP HA. rewrite /elem_at /tel /= !List.map_map.
          congr (T _ _ _ _); apply: List.map_ext_in => l Hl; apply: Ao; apply: (op_leg_in HA); tauto.
      + rewrite /word !List.map_map. apply: List.map_ext_in => l Hl. rewrite /= /xl Ao //. exact: gt_rest.
  Qed.
End Value.

(** The evaluated contraction. *)
Section Evaluated.
  Variables (K : fieldType) (V : lmodType K) (orb : eqType) (st : osi) (ops : oprod).
  Variables (W : seq (bool * (Z * orb)) -> V) (T : text -> seq (Z * orb) -> seq (Z * orb) -> bool -> K) (orbs : Z -> seq orb) (maxc : nat).
  Notation n := (length ops).
  Notation L := (product_legs st ops).
  Notation M := (lnk st T maxc).
  Hypothesis HS : multi_reference st.
  Hypothesis HD : densities st T.
  Hypothesis Hok : ops_ok st ops.
  Hypothesis Talt : forall B, (B < n)%N -> (forall lo, alternating -%R (fun up => T (labA ops B) lo up false)) /\ (forall up, alternating -%R (fun lo => T (labA ops B) lo up false)).
  Hypothesis Uorbs : forall s, uniq (orbs s).
  Lemma flat_concat (picks : seq (seq leg * seq leg)) : flat_map (fun p => p.1 ++ p.2) picks = flatten (List.map (fun p => p.1 ++ p.2) picks).
  Proof. by elim: picks => [|p l IH] //=; rewrite IH. Qed.
  Theorem evaluation_value cs t s ix picks effects rest phi0 v0 : Forall (allowed st (Z.of_nat maxc) ops) cs -> evaluation st ops cs t s ix picks effects rest ->
    [/\ Permutation L (flatten (List.map (fun p => p.1 ++ p.2) picks) ++ rest), ops_covered t, no_conj t,
        (forall d, In d (tm_tens t) -> symmetric_as_declared T d) &
        zr K s *: term_value W T orbs phi0 t = BFv orbs W (PhiL ops T) M (List.map (fun p => p.1 ++ p.2) picks) rest v0].
  Proof.
    move=> Al Ev. have Hix := ev_labels _ _ _ _ _ _ _ _ _ Ev. have [s0 [Sp Es]] := ev_rest _ _ _ _ _ _ _ _ _ Ev. have Et := ev_term _ _ _ _ _ _ _ _ _ Ev.
    have P := sperm_perm _ _ _ Sp.
    have Hl l : In l (flat_map (fun p : seq leg * seq leg => p.1 ++ p.2) picks) -> is_leg st ops l.
    { move=> Hl. apply/(in_product st ops). apply: (Permutation_in l (Permutation_sym P)). apply: List.in_or_app. by left. }
    have [ps [gl [A1 A2 A3 A4 [A5 A6]]]] := picks_split HD Hok Al (ev_picks _ _ _ _ _ _ _ _ _ Ev) (ev_effects _ _ _ _ _ _ _ _ _ Ev) Hl.
    have PL : Permutation L (unz ps ++ (dlegs gl ++ rest)).
    { rewrite catA. apply: (Permutation_trans P). exact: Permutation_app_tail. }
    have Eg : t = gen_term st ops ix ps gl rest by rewrite Et A1 A2.
    rewrite -flat_concat. split=> //.
    - move=> i [x [Hx <-]]. rewrite Eg in Hx. have [y [<- Hy]] := proj1 (in_map_iff _ _ _) Hx. have [l [<- Hl']] := proj1 (in_map_iff _ _ _) Hy.
      have Hl2 : In l L by exact: gt_rest PL _ Hl'. have [A [HA HlA]] := leg_in_op Hl2.
      rewrite Eg /in_tensors /gen_term /=. eexists. split; first by apply: List.in_map; apply: List.in_or_app; left; apply: List.in_map; apply/in_seq; split; [exact: Nat.le_0_l|exact: HA].
      rewrite /tensor_reindex /op_tensor /= !List.map_map. case: HlA => H; [left|right]; apply/in_map_iff; by exists l.
    - rewrite /no_conj Eg. apply/List.Forall_forall => d Hd. by case: (gt_tens Hd) => [[A [_ ->]]|[g [_ ->]]].
    - move=> d. rewrite Eg => Hd. case: (gt_tens Hd) => [[A [/ltP HA ->]]|[g [Hg ->]]]; rewrite /symmetric_as_declared /=; first exact: (Talt HA).
      case: (A4 g Hg) => [->|[->|[k [Hk ->]]]]; [exact: den_gamma HD|exact: den_eta_anti HD|exact: den_lambda HD _ Hk].
    - rewrite {1}Eg (gen_term_value W T Uorbs Hix A3 PL phi0 v0) /BFv -flat_concat Es scaler_sumr.
      rewrite [RHS](@asum_perm _ _ _ _ _ (unz ps ++ (dlegs gl ++ rest))).
      + apply: eq_bigr => v _. rewrite /BE (alt_spermK (PhiL_alternating Talt) (sperm_map (kv v) _ _ _ Sp)) !scalerA. rewrite -map_flatten_l -flat_concat.
        have -> : wordl (List.map (kv v) rest) = List.map (xl v) rest by rewrite /wordl List.map_map. congr (_ *: _). rewrite List.map_app.

        have -> : \prod_(b <- List.map (List.map (kv v)) (List.map (fun p => p.1 ++ p.2) picks)) M b = \prod_(p <- picks) M (List.map (kv v) (p.1 ++ p.2)).
        { rewrite List.map_map -[List.map _ picks]/(map _ _) big_map. by []. }
        rewrite A6 zrM. set a := zr K _. set b := zr K s0. set c := \prod_(p <- ps) _. set d := \prod_(g <- gl) _. set x := PhiL _ _ _.
        have Eb : b * b = 1 by exact: zr_sq Sp. rewrite -[RHS]mul1r -Eb -!mulrA (mulrCA d b x) (mulrCA c b) (mulrCA a b) (mulrCA a b). congr (_ * (_ * _)). by rewrite [RHS]mulrC -!mulrA.
      + move=> v v' E. exact: BE_ext.
      + exact: Permutation_NoDup P (product_nodup st ops).
      + rewrite catA. exact: Permutation_app_tail.
  Qed.
End Evaluated.
