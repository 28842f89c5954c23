(** C77: the value of the adjoint of an expression. *)
Set Warnings "-notation-overridden,-ambiguous-paths".
From Coq Require Import ZArith List Lia Permutation.
From mathcomp Require Import all_ssreflect ssralg.
From Verif Require Import Res RationalModel RationalSpec RegistryModel CoreModel OrderProofs AlgebraModel AlgebraSpec AlgebraProofs AlgebraProofs2 OperatorModel OperatorSpec AdjointModel OperatorSemSpec OperatorSemProofs AdjointProofs SortSpec SortProofs ScalarSem WickProductProofs4 LadderSpec CanonSpec CanonSemSpec CanonSemProofs WickSearchModel WickSearchSpec WickCombSpec WickLegSpec WickEvalModel
  WickMatchProofs WickPairSpec WickProductSpec WickTheoremSpec WickProductProofs3 WickProductProofs13 WickProductProofs14 WickProductProofs15 WickGeneralSpec WickGenProofs WickGenProofs3 WickGenProofs13 AdjWickSpec AdjWickProofs AdjWickProofs2 AdjWickProofs3 AdjWickProofs4 AdjWickProofs5.
Set Implicit Arguments.
Unset Strict Implicit.
Unset Printing Implicit Defensive.
Import GRing.Theory.
Local Open Scope ring_scope.

Section Value.
  Variables (K : fieldType) (V : lmodType K) (orb : eqType) (W : seq (bool * (Z * orb)) -> V) (T : text -> seq (Z * orb) -> seq (Z * orb) -> bool -> K) (orbs : Z -> seq orb) (phi0 : index -> orb).
  Lemma value_key_flags b k k' phi : conj_flags b k -> conj_flags b k' -> term_eqb k k' = true -> value_at W T phi k = value_at W T phi k'.
  Proof.
    move=> Hk Hk' /term_eqb_key [E1 E2]. rewrite /value_at E1. congr (_ *: _).
    move: Hk Hk' E2. rewrite /conj_flags. elim: (tm_tens k) (tm_tens k') => [|d ds IH] [|d' ds'] //= H H' E; try discriminate E.
    case: E => F1 F2 F3 E. rewrite !big_cons.
    rewrite (IH ds' (List.Forall_inv_tail H) (List.Forall_inv_tail H') E).
    congr (_ * _). rewrite /elem_at. have -> := List.Forall_inv H. have -> := List.Forall_inv H'.
    by rewrite F1 F2 F3.
  Qed.
  Lemma tv_respects_flags b : respectsV (V := V) term_eqb (conj_flags b) (term_value W T orbs phi0).
  Proof.
    move=> k k' Hk Hk' E. rewrite /term_value (slots_key E). apply: sum_over_ext => phi. exact: value_key_flags Hk Hk' E.
  Qed.
End Value.

Section Adj.
  Variables (K : fieldType) (A : algType K) (orb : eqType) (st : osi) (cre ann : Z -> orb -> A) (conj : {rmorphism K -> K}) (star : A -> A).
  Hypothesis ch : [char K] =i pred0.
  Hypothesis S : operator_adjoint cre ann conj star.
  Variables (T : text -> seq (Z * orb) -> seq (Z * orb) -> bool -> K) (orbs : Z -> seq orb) (phi0 : index -> orb).
  Variable N : seq (bool * (Z * orb)) -> A.
  Hypothesis SN : forall w, (forall x, In x w -> registered st x.2.1) -> star (N w) = N (adjoint_word w).
  Hypothesis HC : forall label, flag_conjugates conj T label.
  Notation tv := (term_value N T orbs phi0).
  Lemma star_sum_over l (phi : index -> orb) (F : (index -> orb) -> A) : star (sum_over orbs l phi F) = sum_over orbs l phi (fun p => star (F p)).
  Proof. elim: l phi => [|i l IH] phi //=. rewrite (star_sum S). by apply: eq_bigr => p _; exact: IH. Qed.
  Lemma in_adjoint t i : in_term (term_adjoint t) i <-> in_term t i.
  Proof.
    rewrite /in_term /in_ops /in_tensors /= /sqops_adjoint. split.
    - case=> [[o [H E]]|[d [H E]]].
      + left. have /in_map_iff [o' [Eo Ho]] := proj2 (in_rev _ _) H. exists o'. split=> //. by rewrite -E -Eo.
      + right. have [d' [Ed Hd]] := proj1 (in_map_iff _ _ _) H. exists d'. split=> //. by rewrite -Ed in E.
    - case=> [[o [H E]]|[d [H E]]].
      + left. exists (sqop_adjoint o). split=> //. apply: (proj1 (in_rev _ _)). exact: in_map.
      + right. exists (tensor_adjoint d). split=> //. exact: in_map.
  Qed.
  Lemma value_adjoint t phi : no_conj t -> term_spaces st t -> value_at N T phi (term_adjoint t) = star (value_at N T phi t).
  Proof.
    move=> Hc Hs. rewrite /value_at (adj_scale S) SN; last first.
    { move=> x /in_map_iff [o [<- Ho]]. apply: Hs. left. by exists o. }
    congr (_ *: N _).
    - rewrite rmorph_prod /=. move: Hc. rewrite /no_conj. elim: (tm_tens t) => [|d ds IH] Hc; first by rewrite !big_nil.
      rewrite [List.map _ _]/= !big_cons (IH (List.Forall_inv_tail Hc)). congr (_ * _). rewrite /elem_at /=. have Hd : t_cc d = false := List.Forall_inv Hc.
      by rewrite Hd -HC.
    - rewrite /word /term_adjoint /sqops_adjoint /= adjointE -!rev_eq List.map_rev. congr List.rev. rewrite -[map (@fl orb) _]/(List.map _ _) !List.map_map. by apply: List.map_ext.
  Qed.
  Lemma term_adjoint_value t : no_conj t -> term_spaces st t -> tv (term_adjoint t) = star (tv t).
  Proof.
    move=> Hc Hs. rewrite /term_value star_sum_over. transitivity (sum_over orbs (nodup index_dec (slots t)) phi0 (fun phi => value_at N T phi (term_adjoint t))).
    - apply: sum_perm; first by move=> p q E; apply: value_ext => i _; exact: E.
      + exact: NoDup_nodup.
      + apply: NoDup_Permutation; [exact: NoDup_nodup|exact: NoDup_nodup|]. move=> i. by rewrite !nodup_In !slots_in_term in_adjoint.
    - apply: sum_over_ext => phi. exact: value_adjoint.
  Qed.
  Theorem expr_adjoint_value r : mcanon r -> keysP (key_ok st) r -> expr_value N T orbs phi0 (expr_adjoint r) = star (expr_value N T orbs phi0 r).
  Proof.
    move=> C /List.Forall_forall F. rewrite /expr_adjoint /expr_value.
    rewrite (rsum_addall ch swo_term (@tv_respects_flags _ _ _ N T orbs phi0 true) (fk := fun x => term_adjoint x.1) (fc := snd)); first last.
    - by constructor.
    - exact: mcanon_good.
    - by constructor.
    - apply/List.Forall_forall => x /F [H _]. move: H. rewrite /no_conj /conj_flags /=. elim: (tm_tens x.1) => [|d ds IH] H; first by constructor.
      constructor; [by rewrite /= (List.Forall_inv H)|exact: (IH (List.Forall_inv_tail H))].
    rewrite /= add0r. elim: (r) F => [|x e' IH] F; first by rewrite /= (star0 S).
    rewrite /= IH; last by move=> y Hy; apply: F; right. have [H1 H2] := F x (or_introl erefl).
    by rewrite (adj_add S) (adj_scale S) conj_rat term_adjoint_value.
  Qed.
End Adj.
