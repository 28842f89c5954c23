(** A correlated state that meets the hypotheses of C61: the two orbitals of the general space are both empty or both occupied, each with weight 1/2. *)
Set Warnings "-notation-overridden,-ambiguous-paths".
From Coq Require Import ZArith List Lia.
From mathcomp Require Import all_ssreflect ssralg ssrint rat ssrnum matrix.
From Verif Require Import Res RationalModel RationalSpec RegistryModel CoreModel AlgebraModel AlgebraSpec OperatorModel WickSearchModel WickSearchSpec WickCombSpec WickLegSpec SortSpec ScalarSem LadderSpec CanonSemSpec
  WickProductSpec WickEvalModel WickTheoremSpec WickGeneralSpec WickStateSpec WickFockProofs WickFockProofs2 WickGeneralExample.
Set Implicit Arguments.
Unset Strict Implicit.
Unset Printing Implicit Defensive.
Import GRing.Theory.
Local Open Scope ring_scope.
Local Notation orb := [finType of bool].
Local Notation M := [finType of 'I_(Z.to_nat (num_spaces wg_st)).+1 * orb].
Local Notation B := {ffun M -> bool}.

Lemma wg_multi : multi_reference wg_st.
Proof. move=> s /wg_space [->|[->|->]]; split=> //; [by left|by right; right|by right; left]. Qed.
Lemma wg_one : one_active_space wg_st.
Proof. by move=> s s' /wg_space [->|[->|->]] /wg_space [->|[->|->]]. Qed.
(** Space 0 full, space 1 full or empty, space 2 empty. *)
Definition occupation (b : bool) : B := [ffun m : M => if nat_of_ord m.1 is 0 then true else if nat_of_ord m.1 is 1 then b else false].
Lemma occupation_mode b s p : registered wg_st s -> occupation b (mode wg_st s p) = if Z.eqb s Z0 then true else if Z.eqb s (Zpos xH) then b else false.
Proof. move=> /wg_space [->|[->|->]]; by rewrite ffunE /= inordK. Qed.
Definition wg_D (t t' : B) : rat := 2%:R^-1 * ((t == occupation true) && (t' == occupation true))%:R + 2%:R^-1 * ((t == occupation false) && (t' == occupation false))%:R.
Lemma sum_at (g : B -> rat) t0 : \sum_t (t == t0)%:R * g t = g t0.
Proof. rewrite (bigD1 t0) //= eqxx mul1r big1 ?addr0 // => t /negbTE ->. by rewrite mul0r. Qed.
Lemma wg_weights : \sum_t wg_D t t = 1.
Proof.
  rewrite /wg_D big_split /= -!mulr_sumr.
  have E b : \sum_(t : B) ((t == occupation b) && (t == occupation b))%:R = 1 :> rat.
  { under eq_bigr => t _ do rewrite andbb -[_%:R]mulr1. exact: (sum_at (fun _ => 1)). }
  by rewrite !E !mulr1.
Qed.
Lemma wg_D_nz t t' : wg_D t t' != 0 -> exists b, t = occupation b /\ t' = occupation b.
Proof.
  rewrite /wg_D. case E1: ((t == occupation true) && _); first by move: E1 => /andP [/eqP -> /eqP ->] _; exists true.
  case E2: (_ && _); first by move: E2 => /andP [/eqP -> /eqP ->] _; exists false. by rewrite !mulr0 addr0 eqxx.
Qed.
Lemma wg_active b : active_occupation (st := wg_st) (occupation b).
Proof. move=> s p Hs. rewrite occupation_mode //. by move: Hs => /wg_space [->|[->|->]]. Qed.
Lemma wg_density : density_matrix (st := wg_st) wg_D.
Proof.
  split; first exact: wg_weights.
  - move=> t t' /wg_D_nz [b [-> _]]. exact: wg_active.
  - move=> t t' /wg_D_nz [b [_ ->]]. exact: wg_active.
  - by move=> t t' s _ /wg_D_nz [b [-> ->]].
Qed.
Section Values.
  Variable d : nat.
  Hypothesis dE : d.+1 = #|{: B}|.
  Local Notation one := (Zpos xH).
  Definition occ_op (p : bool) : 'M[rat]_(d.+1) := fock_cre _ dE one p * fock_ann _ dE one p.
  Lemma occ_diag p : occ_op p = \matrix_(i, j) ((i == j) && state dE j (mode wg_st one p))%:R.
  Proof.
    rewrite /occ_op /fock_cre /fock_ann fock_mul. apply/matrixP => i j. rewrite !mxE ffunE eqxx flipK fsign_flip /before ltnn mul1r fsign_sq mulr1.
    have -> : (state dE i == state dE j) = (i == j) by apply/eqP/eqP => [E|->] //; rewrite -(stateK dE i) E stateK.
    by case: (state dE j _); rewrite /= ?andbF ?andbT.
  Qed.
  Lemma occ_two p q : occ_op p * occ_op q = \matrix_(i, j) [&& i == j, state dE j (mode wg_st one p) & state dE j (mode wg_st one q)]%:R.
  Proof.
    rewrite !occ_diag. apply/matrixP => i j. rewrite -mulmxE !mxE (bigD1 j) //= !mxE eqxx big1 ?addr0 => [|k /negbTE N]; last by rewrite !mxE N mulr0.
    rewrite -natrM mulnb. by rewrite -andbA.
  Qed.
  Lemma expect_diag (g : B -> bool) (X : 'M[rat]_(d.+1)) : X = \matrix_(i, j) ((i == j) && g (state dE j))%:R ->
    expect dE wg_D X = 2%:R^-1 * (g (occupation true))%:R + 2%:R^-1 * (g (occupation false))%:R.
  Proof.
    move=> ->. rewrite /expect. have E t : \sum_t' wg_D t t' * (\matrix_(i, j) ((i == j) && g (state dE j))%:R : 'M[rat]_(d.+1)) (number dE t) (number dE t') = wg_D t t * (g t)%:R.
    { rewrite (bigD1 t) //= mxE eqxx numberK big1 ?addr0 // => t' N. rewrite mxE.
      have -> : (number dE t == number dE t') = false by apply/eqP => E; move: N; rewrite -(numberK dE t) E numberK eqxx. by rewrite mulr0. }
    under eq_bigr => t _ do rewrite E /wg_D !andbb mulrDl -!mulrA. rewrite big_split /= -!mulr_sumr. by rewrite !sum_at.
  Qed.
  (** The occupations of the two orbitals are correlated. *)
  Lemma wg_correlated : expect dE wg_D (occ_op true) = 2%:R^-1 /\ expect dE wg_D (occ_op false) = 2%:R^-1 /\ expect dE wg_D (occ_op true * occ_op false) = 2%:R^-1.
  Proof.
    have R1 : registered wg_st one by vm_compute; split.
    split; last split.
    - by rewrite (expect_diag (g := fun t => t (mode wg_st one true)) (occ_diag true)) !occupation_mode //= mulr1 mulr0 addr0.
    - by rewrite (expect_diag (g := fun t => t (mode wg_st one false)) (occ_diag false)) !occupation_mode //= mulr1 mulr0 addr0.
    - by rewrite (expect_diag (g := fun t => t (mode wg_st one true) && t (mode wg_st one false)) (occ_two true false)) !occupation_mode //= mulr1 mulr0 addr0.
  Qed.
End Values.
