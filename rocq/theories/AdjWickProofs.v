(** C77: the adjoint of a normal-ordered product. *)
Set Warnings "-notation-overridden,-ambiguous-paths".
From Coq Require Import ZArith List Lia Permutation.
From mathcomp Require Import all_ssreflect ssralg.
From Verif Require Import Res RationalModel RegistryModel CoreModel OperatorModel SortSpec SortProofs ScalarSem LadderSpec CanonSpec CanonSemSpec CanonSemProofs WickSearchModel WickSearchSpec WickLegSpec
  WickMatchProofs WickProductSpec WickTheoremSpec WickProductProofs2 WickProductProofs3 WickGeneralSpec WickConvProofs WickConvProofs2 WickGenProofs WickGenProofs3 WickGenProofs13 AdjWickSpec.
Set Implicit Arguments.
Unset Strict Implicit.
Unset Printing Implicit Defensive.
Import GRing.Theory.
Local Open Scope ring_scope.

(** The sign of the reversal of a word. *)
Fixpoint rv (n : nat) : nat := if n is m.+1 then (rv m + m)%N else 0%N.
Section Rev.
  Variables (K : fieldType).
  Notation sg n := ((-1) ^+ n : K).
  Lemma sgD m n : sg (m + n) = sg m * sg n. Proof. exact: exprD. Qed.
  Lemma sg_even n : ~~ odd n -> sg n = 1.
  Proof. by rewrite -signr_odd => /negbTE ->. Qed.
  Lemma rv_add a b : odd (rv (a + b)) = odd (rv a + rv b + a * b).
  Proof. elim: b => [|b IH]; first by rewrite addn0 muln0 !addn0. rewrite addnS /= !oddD IH mulnS !oddD /=. by case: (odd (rv a)); case: (odd (rv b)); case: (odd a); case: (odd b); case: (odd (a * b)). Qed.
  Lemma rv_even a b : ~~ odd a -> sg (rv (a + b)) = sg (rv a) * sg (rv b).
  Proof. move=> E. rewrite -signr_odd rv_add !oddD oddM (negbTE E) /= addbF -oddD signr_odd. exact: sgD. Qed.
  Lemma rv_double k : sg (rv (k + k)) = sg k.
  Proof.
    rewrite -signr_odd rv_add !oddD addbb oddM andbb /=. by rewrite signr_odd.
  Qed.

  Variables (V : lmodType K) (X : Type) (f : seq X -> V).
  Hypothesis Hf : alternating -%R f.
  Lemma alt_front l x r : f (l ++ x :: r) = sg (size l) *: f (x :: l ++ r).
  Proof.
    elim/last_ind: l r => [|l y IH] r; first by rewrite expr0 scale1r.
    rewrite size_rcons -cats1 -!catA /= Hf IH exprS mulN1r scaleNr. congr (- (_ *: _)).
  Qed.
  Lemma alt_cons (x : X) : alternating -%R (fun u => f (x :: u)).
  Proof. move=> l1 a b l2. exact: (Hf (x :: l1)). Qed.
End Rev.
Lemma alt_reverse (K : fieldType) (V : lmodType K) (X : Type) (f : seq X -> V) w : alternating -%R f -> f (rev w) = (-1) ^+ rv (size w) *: f w.
Proof.
  elim: w f => [|x w IH] f Hf; first by rewrite expr0 scale1r.
  rewrite rev_cons -cats1 (alt_front Hf) cats0 (IH (fun u => f (x :: u)) (@alt_cons _ _ _ _ Hf x)) /= size_rev scalerA -exprD. by rewrite addnC.
Qed.

Section Npr.
  Variables (K : fieldType) (A : algType K) (X : Type) (a : X -> A) (cr : X -> bool).
  Hypothesis H1 : forall x y, cr x = cr y -> a x * a y = - (a y * a x).
  Notation npr := (npr a cr).
  Lemma npr_rcons w x : npr (rcons w x) = if cr x then (-1) ^+ size w *: (a x * npr w) else npr w * a x.
  Proof.
    elim: w => [|y w IH]; first by rewrite /= expr0 !scale1r mulr1 mul1r.
    rewrite /= IH size_rcons. case Cx: (cr x); case Cy: (cr y).
    - by rewrite -scalerAr [a y * (a x * _)]mulrA (@H1 y x) ?Cx ?Cy // mulNr scalerN exprS mulN1r scaleNr mulrA.
    - by rewrite -scalerAl -scalerAr !scalerA mulrA.
    - by rewrite mulrA.
    - by rewrite -!scalerAl -!mulrA (@H1 x y) ?Cx ?Cy // mulrN scalerN exprS mulN1r scaleNr opprK.
  Qed.
  Variables (conj : {rmorphism K -> K}) (star : A -> A) (h : X -> X).
  Hypothesis S1 : star 1 = 1.
  Hypothesis SM : forall x y, star (x * y) = star y * star x.
  Hypothesis SZ : forall c x, star (c *: x) = conj c *: star x.
  Hypothesis Sa : forall x, star (a x) = a (h x).
  Hypothesis Sc : forall x, cr (h x) = ~~ cr x.
  Lemma npr_star w : star (npr w) = npr (rev [seq h x | x <- w]).
  Proof.
    elim: w => [|x w IH] //=. rewrite rev_cons npr_rcons Sc size_rev size_map. case: (cr x) => /=.
    - by rewrite SM IH Sa.
    - by rewrite SZ SM IH Sa rmorphX rmorphN rmorph1.
  Qed.
End Npr.

Section Moments.
  Variables (K : fieldType) (X : Type) (conj : {rmorphism K -> K}).
  (** Conjugated cumulants give conjugated moments. *)
  Lemma moment_conj (lam : seq X -> K) w : even lam -> moment (fun b => (-1) ^+ rv (size b) * conj (lam b)) w = (-1) ^+ rv (size w) * conj (moment lam w).
  Proof.
    move=> El. have [n] := ubnP (size w). elim: n w => // n IH [|x w] Hw; first by rewrite /= expr0 mul1r rmorph1.
    rewrite !moment_cons /convK !conv_splits /split_sum rmorph_sum /= mulr_sumr. apply: eq_big_In => p /splits_size Sp.
    rewrite IH; last by move: Hw; rewrite /= ltnS -Sp; apply: leq_ltn_trans; exact: leq_addl.
    rewrite /dx /GRing.scale /= !rmorphM rmorphX rmorphN rmorph1. case O: (odd (size p.1.2)).
    - have -> : (-1) ^+ rv (size (x :: w)) = (-1) ^+ rv (size (x :: p.1.2)) * (-1) ^+ rv (size p.2) :> K by rewrite [size (_ :: w)]/= -Sp -addSn rv_even //= O.
      have Q (e s1 s2 u v : K) : e * (s1 * u) * (s2 * v) = s1 * s2 * (e * u * v) by rewrite -!mulrA [s2 * (e * _)]mulrCA [s1 * (e * _)]mulrCA [s2 * (u * _)]mulrCA.
      by rewrite Q.
    - by rewrite El /= ?O // rmorph0 !mulr0 !mul0r !mulr0.
  Qed.
End Moments.
