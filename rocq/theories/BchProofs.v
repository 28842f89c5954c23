(** The BCH series as the low-order part of exp(-b) a exp(b). *)
Set Warnings "-notation-overridden,-ambiguous-paths".
From Coq Require Import ZArith.
From mathcomp Require Import all_ssreflect ssralg.
From Verif Require Import OperatorSemSpec.
Set Implicit Arguments.
Unset Strict Implicit.
Unset Printing Implicit Defensive.
Import GRing.Theory.
Local Open Scope ring_scope.

Section Bch.
  Variables (K : fieldType) (A : algType K).
  Hypothesis charK : [char K] =i pred0.
  Variables a b : A.
  Let h (i j : nat) : A := (- b) ^+ i * a * b ^+ j.

  Lemma h_comm i j : commutator_of (h i j) b = h i j.+1 + h i.+1 j.
  Proof. by rewrite /commutator_of /h exprSr !mulrA exprS !mulNr -!mulrA. Qed.

  Lemma iter_binom k : iter k (fun z => commutator_of z b) a = \sum_(i < k.+1) h i (k - i) *+ 'C(k, i).
  Proof.
    elim: k => [|k IH]; first by rewrite big_ord_recl big_ord0 addr0 /h /= subnn !expr0 mul1r mulr1 bin0.
    rewrite iterS IH.
    have D : forall (I : Type) (r : seq I) (F : I -> A), commutator_of (\sum_(i <- r) F i) b = \sum_(i <- r) commutator_of (F i) b.
    { move=> I r F. by rewrite /commutator_of big_distrl big_distrr /= -sumrB. }
    rewrite D. under eq_bigr => i _.
    - have -> : commutator_of (h i (k - i) *+ 'C(k, i)) b = h i (k - i).+1 *+ 'C(k, i) + h i.+1 (k - i) *+ 'C(k, i).
      { rewrite -mulrnDl -h_comm /commutator_of mulrnAl mulrnAr. by rewrite mulrnBl. }
      over.
    rewrite big_split /= [in RHS]big_ord_recl /= [in LHS]big_ord_recl /= !bin0 subn0 -addrA; congr (_ + _).
    under [in RHS]eq_bigr => i _ do rewrite /bump /= add1n binS mulrnDr subSS.
    rewrite [in RHS]big_split /=. congr (_ + _).
    rewrite [in RHS]big_ord_recr /= bin_small // mulr0n addr0. apply: eq_bigr => i _. by rewrite /bump /= add1n -subSn.
  Qed.

  Let f (n : nat) : K := (n`!%:R)^-1.
  Lemma fact_neq0 n : n`!%:R != 0 :> K.
  Proof. move/charf0P: charK => ->. by rewrite -lt0n fact_gt0. Qed.
  Lemma bin_inv k i : (i <= k)%N -> f k * 'C(k, i)%:R = f i * f (k - i).
  Proof.
    move=> L. rewrite /f. apply: (mulfI (fact_neq0 k)). rewrite mulVKf ?fact_neq0 // -(bin_fact L) !natrM.
    rewrite -invfM mulfK // mulf_neq0 ?fact_neq0 //.
  Qed.

  Lemma shift_sum (n i : nat) (G : nat -> A) : (i <= n)%N ->
    \sum_(k < n.+1 | (i <= k)%N) G (k - i)%N = \sum_(j < n.+1 | (i + j <= n)%N) G j.
  Proof.
    move=> Li.
    rewrite -(big_mkord (fun k => (i <= k)%N) (fun k => G (k - i)%N)) -(big_mkord (fun j => (i + j <= n)%N) G).
    rewrite (big_cat_nat _ (n := i)) //=; last by apply: leqW.
    rewrite big_nat_cond big_pred0 ?add0r; last by move=> k; rewrite leq0n /= andbC ltnNge andbN.
    rewrite -[X in index_iota X]add0n big_addn.
    rewrite [RHS](big_cat_nat _ (n := (n.+1 - i)%N)) //=; last exact: leq_subr.
    rewrite [X in _ = _ + X]big_nat_cond [X in _ = _ + X]big_pred0 ?addr0; last first.
    { move=> j. apply/negbTE/negP => /andP[/andP[L1 L2] L3]. move: L1. rewrite leq_subLR. by rewrite ltnNge L3. }
    rewrite big_nat_cond [RHS]big_nat_cond. apply: eq_big => j; last by move=> _; rewrite addnK.
    rewrite leq_addl andbT leq0n /=. case L: (j < n.+1 - i)%N => //=. move: L. by rewrite ltn_subRL ltnS => ->.
  Qed.

  (** Terms of order at most [n] in [b] of exp(-b) a exp(b). *)
  Lemma bch_order n : \sum_(k < n.+1) f k *: iter k (fun z => commutator_of z b) a =
    \sum_(i < n.+1) \sum_(j < n.+1 | (i + j <= n)%N) (f i *: (- b) ^+ i) * a * (f j *: b ^+ j).
  Proof.
    have E k : f k *: iter k (fun z => commutator_of z b) a = \sum_(i < k.+1) (f i *: (- b) ^+ i) * a * (f (k - i) *: b ^+ (k - i)).
    { rewrite iter_binom scaler_sumr. apply: eq_bigr => i _. have L : (i <= k)%N by rewrite -ltnS.
      rewrite -!scalerAl -scalerAr scalerA -bin_inv // -scaler_nat scalerA. by []. }
    under eq_bigr => k _ do rewrite E.
    under eq_bigr => k _ do rewrite (big_ord_widen n.+1 (fun i => (f i *: (- b) ^+ i) * a * (f (k - i) *: b ^+ (k - i)))) //.
    rewrite (exchange_big_dep xpredT) //=. apply: eq_bigr => i _.
    have Li : (i <= n)%N by rewrite -ltnS.
    pose G j := (f i *: (- b) ^+ i) * a * (f j *: b ^+ j).
    transitivity (\sum_(k < n.+1 | (i <= k)%N) G (k - i)%N).
    { apply: eq_bigl => k. by rewrite ltnS. }
    rewrite -/(G _). transitivity (\sum_(j < n.+1 | (i + j <= n)%N) G j); last by [].
    exact: shift_sum.
  Qed.

  (** If [b] is nilpotent, the series terminates at the transformed operator. *)
  Lemma bch_nilpotent m n : b ^+ m = 0 -> (m + m <= n.+2)%N -> \sum_(k < n.+1) f k *: iter k (fun z => commutator_of z b) a =
    (\sum_(i < m) f i *: (- b) ^+ i) * a * (\sum_(j < m) f j *: b ^+ j).
  Proof.
    move=> Nb L. case: m Nb L => [|m] Nb L.
    { move: Nb. rewrite expr0 => /eqP. by rewrite oner_eq0. }
    have Z j : (m < j)%N -> b ^+ j = 0 by move=> H; rewrite -(subnK H) exprD Nb mulr0.
    have ZN i : (m < i)%N -> (- b) ^+ i = 0 by move=> H; rewrite exprNn Z // mulr0.
    rewrite bch_order. have Lm : (m + m <= n)%N by move: L; rewrite addnS addSn.
    have Lmn : (m.+1 <= n.+1)%N by rewrite ltnS (leq_trans _ Lm) // leq_addr.
    rewrite (big_ord_widen n.+1 (fun i => f i *: (- b) ^+ i)) // (big_ord_widen n.+1 (fun j => f j *: b ^+ j)) //.
    rewrite !big_distrl /=. rewrite [in RHS]big_mkcond /=. apply: eq_bigr => i _. case: ifP => Hi; last first.
    { apply: big1 => j _. by rewrite ZN ?scaler0 ?mul0r // ltnNge -ltnS Hi. }
    rewrite big_distrr /= [in LHS]big_mkcond [in RHS]big_mkcond /=. apply: eq_bigr => j _.
    case: (ltnP j m.+1) => Hj.
    - have -> : (i + j <= n)%N by apply: leq_trans Lm; apply: leq_add; rewrite -ltnS.
      by [].
    - by case: ifP => //; rewrite Z // scaler0 mulr0.
  Qed.
End Bch.
