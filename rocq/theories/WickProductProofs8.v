(** C48: the term of a set of contractions evaluates to the contribution of the contracted pairs. *)
Set Warnings "-notation-overridden,-ambiguous-paths".
From Coq Require Import ZArith List Lia Permutation.
From mathcomp Require Import all_ssreflect ssralg.
From Verif Require Import SignPerm CountProofs Res RationalModel RegistryModel CoreModel AdjointModel OperatorModel OrderProofs WickSearchModel WickSearchSpec CountSpec WickCombSpec WickCombProofs WickLegSpec WickLegProofs SortSpec SortProofs ScalarSem LadderSpec CanonSpec CanonSemSpec CanonSemProofs
  WickMatchProofs WickMatchProofs2 WickProductSpec WickProductProofs WickProductProofs2 WickProductProofs3 WickProductProofs4 WickProductProofs5 WickProductProofs6 WickProductProofs7 WickPairProofs WickPairProofs2.
Set Implicit Arguments.
Unset Strict Implicit.
Unset Printing Implicit Defensive.
Import GRing.Theory.
Local Open Scope ring_scope.
Local Notation leg_dec := WickCombProofs.leg_dec.
#[local] Arguments WickCombProofs.leg_dec : simpl never.

Section Value.
  Variables (K : fieldType) (V : lmodType K) (orb : eqType) (st : osi) (ops : oprod).
  Variables (W : seq (bool * (Z * orb)) -> V) (T : text -> seq (Z * orb) -> seq (Z * orb) -> bool -> K) (orbs : Z -> seq orb).
  Notation n := (length ops).
  Notation L := (product_legs st ops).
  Hypothesis Talt : forall B, (B < n)%N -> (forall lo, alternating -%R (fun up => T (labA ops B) lo up false)) /\ (forall up, alternating -%R (fun lo => T (labA ops B) lo up false)).
  Hypothesis Uorbs : forall s, uniq (orbs s).
  Variables (ix : leg -> index) (ps : seq (leg * leg)) (rest : seq leg) (s : Z).
  Hypothesis Hix : labels_legs L ix.
  Hypothesis Hps : forall p, In p ps -> leg_space p.1 = leg_space p.2.
  Hypothesis Hsp : sperm L s (unz ps ++ rest).
  Let M : index_map := List.map (fun p => (ix (snd p), ix (fst p))) ps.
  Definition pair_term : term := term_reindex M (mkTerm false (List.map (leg_sqop ix) rest) (List.map (op_tensor st ops ix) (List.seq 0 n))).
  Let PL : Permutation L (unz ps ++ rest) := sperm_perm _ _ _ Hsp.
  Let NDu : NoDup (unz ps ++ rest).
  Proof. exact: Permutation_NoDup PL (product_nodup st ops). Qed.
  Let F := List.map fst ps ++ rest.
  Lemma pt_in l : In l L -> In (rd ps l) F.
  Proof.
    move=> /(Permutation_in l PL) H. rewrite /F. case: (rd_in ps l) => E; first by apply: List.in_or_app; left.
    rewrite E. apply List.in_app_or in H. apply: List.in_or_app. case: H => H; last by right. left.
    have [p [Hp [E1|E1]]] := proj1 (in_unz (fun _ _ => true) _ _) H; first by rewrite E1; apply: List.in_map.
    rewrite -E E1 -(rd_pairs NDu Hp) (rd_fst NDu); first by apply: List.in_map. by apply: List.in_or_app; left; apply: List.in_map.
  Qed.
  Lemma F_in l : In l F -> In l L.
  Proof.
    move=> H. apply: (Permutation_in l (Permutation_sym PL)). apply List.in_app_or in H. apply: List.in_or_app. case: H => H; [left; exact: fst_unz|by right].
  Qed.
  Lemma pt_reindex l : In l L -> reindex M (ix l) = ix (rd ps l).
  Proof.
    move=> Hl. have : forall p, In p ps -> In p.2 L.
    { move=> p Hp. apply: (Permutation_in _ (Permutation_sym PL)). apply: List.in_or_app. left. by apply: snd_unz; apply: List.in_map. }
    rewrite /reindex /M. elim: (ps) => [|p qs IH] //= H. case: (leg_dec l p.2) => [->|N].
    - by rewrite (proj2 (index_eqb_eq _ _)).
    - case E: (index_eqb _ _); last by apply: IH => q Hq; apply: H; right. exfalso. apply: N. apply: (proj2 Hix) => //; first by apply: H; left. exact: (proj1 (index_eqb_eq _ _)).
  Qed.
  Lemma leg_in_op l : In l L -> exists A, (A < n)%coq_nat /\ (In l (op_cre_legs st ops A) \/ In l (op_ann_legs st ops A)).
  Proof.
    rewrite /product_legs => H. apply in_flat_map in H. case: H => A [/in_seq HA H]. exists A. split; first lia.
    apply List.in_app_or in H. case: H => H; [by left|right]. by apply List.in_rev.
  Qed.
  Lemma op_leg_in A l : (A < n)%coq_nat -> In l (op_cre_legs st ops A) \/ In l (op_ann_legs st ops A) -> In l L.
  Proof.
    move=> HA H. apply in_flat_map. exists A. split; first by apply/in_seq; lia. apply: List.in_or_app. case: H => H; [by left|right]. by apply List.in_rev; rewrite List.rev_involutive.
  Qed.
  Lemma pt_rest l : In l rest -> In l L.
  Proof. move=> H. apply: F_in. apply: List.in_or_app. by right. Qed.
  Lemma pt_indices : lists_indices (List.map ix F) pair_term.
  Proof.
    split.
    - apply: map_nodup; first exact: nodup_fst. move=> x y Hx Hy. apply: (proj2 Hix); exact: F_in.
    - move=> i. rewrite in_map_iff. split.
      + move=> [l [<- Hl]]. right. have Hl' := F_in Hl. have [A [HA HlA]] := leg_in_op Hl'.
        exists (tensor_reindex M (op_tensor st ops ix A)). split; first by apply: List.in_map; apply: List.in_map; apply/in_seq; lia.
        have E : ix l = reindex M (ix l) by rewrite pt_reindex // (rd_fst NDu).
        rewrite /tensor_reindex /op_tensor /= !List.map_map E. case: HlA => H; [left|right]; apply/in_map_iff; by exists l.
      + case.
        * move=> [x [Hx <-]]. have [y [<- Hy]] := proj1 (in_map_iff _ _ _) Hx. have [l [<- Hl]] := proj1 (in_map_iff _ _ _) Hy.
          exists (rd ps l). have Hl' := pt_rest Hl. split; [by rewrite /= pt_reindex|exact: pt_in].
        * move=> [d [Hd Hi]]. have [e [Ee He]] := proj1 (in_map_iff _ _ _) Hd. have [A [EA /in_seq HA]] := proj1 (in_map_iff _ _ _) He. move: Hi. rewrite -Ee -EA /= !List.map_map.
          case=> /in_map_iff [l [<- Hl]]; exists (rd ps l); have Hl' : In l L by (apply: (@op_leg_in A); [lia|tauto]).
          all: by split; [rewrite pt_reindex|exact: pt_in].
  Qed.
  Theorem pair_term_value phi0 v0 : zr K s *: term_value W T orbs phi0 pair_term = Fv orbs W (PhiL ops T) ps rest v0.
  Proof.
    rewrite (term_value_list W T orbs phi0 pt_indices).
    pose H (v : leg -> orb) : V := PhiL ops T (List.map (kv v) L) *: W (List.map (xl v) rest).
    have EH v v' : v =1 v' -> H v = H v'.
    { move=> E. rewrite /H (List.map_ext _ _ (kv_ext E)). congr (_ *: W _). apply: List.map_ext => l. by rewrite /xl /xs E. }
    rewrite (@asum_index _ orbs K V _ (fun v => H (v \o rd ps)) _ F _ v0).
    - rewrite -(collapse Uorbs) // /Fv scaler_sumr. apply: eq_bigr => v _. rewrite /H (alt_spermK (PhiL_alternating Talt) (sperm_map (kv v) _ _ _ Hsp)) /Ev.
      rewrite !scalerA List.map_app map_unz /wordl List.map_map. congr (_ *: _). rewrite mulrC [zr K s * _]mulrC -mulrA.
      have -> : [seq (kv v p.1, kv v p.2) | p <- ps] = List.map (kvp v) ps by []. congr (_ * _). rewrite mulrA (zr_sq K Hsp) mul1r. by rewrite /dl -[List.map _ _]/(map _ _) big_map.
    - rewrite /F List.map_map. apply: List.map_ext_in => l Hl. exact: (proj1 (proj1 Hix l (F_in Hl))).
    - exact: (proj1 pt_indices).
    - exact: nodup_fst.
    - move=> phi v. rewrite List.map_map => E.
      have Ag l : In l L -> phi (ix (rd ps l)) = v (rd ps l) by move=> Hl; exact: (@List.ext_in_map _ _ _ _ _ E _ (pt_in Hl)).
      have Ao l : In l L -> orb_of phi (reindex M (ix l)) = xs (v \o rd ps) l.
      { move=> Hl. rewrite pt_reindex // /orb_of /xs Ag //. congr (_, _). rewrite -(rd_space l Hps). exact: (proj1 (proj1 Hix _ (F_in (pt_in Hl)))). }
      rewrite /value_at /H Phi_legs /pair_term /term_reindex /=. congr (_ *: W _).
      + rewrite -[List.seq 0 n]/(iota 0 n) -!/(map _ _) !big_map. apply: eq_big_seq => A. rewrite mem_iota add0n => /= /ltP HA. rewrite /elem_at /tel /= !List.map_map.
        congr (T _ _ _ _); apply: List.map_ext_in => l Hl; apply: Ao; apply: (op_leg_in HA); tauto.
      + rewrite /word !List.map_map. apply: List.map_ext_in => l Hl. rewrite /= /xl Ao //. exact: pt_rest.
  Qed.
End Value.
