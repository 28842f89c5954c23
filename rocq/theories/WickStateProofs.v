(** C61: the cumulants of a function of words. *)
Set Warnings "-notation-overridden,-ambiguous-paths".
From Coq Require Import ZArith List Permutation.
From mathcomp Require Import all_ssreflect ssralg.
From Verif Require Import SortSpec SortProofs ScalarSem WickMatchProofs WickGeneralSpec WickConvProofs WickConvProofs2.
Set Implicit Arguments.
Unset Strict Implicit.
Unset Printing Implicit Defensive.
Import GRing.Theory.
Local Open Scope ring_scope.

Section Pre.
  Variables (K : fieldType) (X : Type).
  Implicit Types (w b u : seq X).
  Lemma conv_full (V : lmodType K) f (G : seq X -> V) w : (forall b, (size b < size w)%N -> f b = 0) -> conv f G w = f w *: G [::].
  Proof.
    elim: w f G => [|x w IH] f G H //=. rewrite IH; last by move=> b Hb; apply: H; rewrite /= ltnS.
    rewrite conv0l ?addr0 // => b Hb. by rewrite /sgf H ?mulr0 //= ltnS.
  Qed.
  Lemma moment_top (lam mu : seq X -> K) x w : (forall b, (0 < size b <= size w)%N -> lam b = mu b) -> (forall b, size b = (size w).+1 -> mu b = 0) ->
    moment lam (x :: w) = lam (x :: w) + moment mu (x :: w).
  Proof.
    move=> H H0. pose top b := if size b == size w then lam (x :: b) else 0.
    rewrite !moment_cons (@convK_ext _ _ (dx x lam) (fun b => top b + dx x mu b) _ (moment mu)).
    - rewrite /convK convDl (conv_full (f := top)) /top; first by rewrite eqxx -[_ *: _]/(_ * _) mulr1. move=> b Hb. by rewrite (ltn_eqF Hb).
    - move=> b Hb. rewrite /top. case: (ltngtP (size b) (size w)) (Hb) => // E _; first by rewrite add0r /dx H //= E.
      by rewrite /dx (H0 (x :: b)) /= ?E ?addr0.
    - move=> b Hb. apply: moment_ext => c /andP [H1 H2]. apply: H. rewrite H1 /=. exact: leq_trans H2 Hb.
  Qed.
  (** Functions that vanish unless the letters add up to 0. *)
  Variable gr : X -> Z.
  Fixpoint grade w : Z := if w is x :: w' then (gr x + grade w')%Z else 0%Z.
  Lemma splits_grade w p : In p (splits w) -> grade w = (grade p.1.2 + grade p.2)%Z.
  Proof.
    elim: w p => [|x w IH] p /=; first by case=> // <-.
    move=> H. apply List.in_app_or in H. case: H => /in_map_iff [q [<- Hq]] /=; rewrite (IH _ Hq); ring.
  Qed.
  Lemma moment_grade (lam : seq X -> K) w : (forall b, grade b <> 0%Z -> lam b = 0) -> grade w <> 0%Z -> moment lam w = 0.
  Proof.
    move=> Hl. have [n] := ubnP (size w). elim: n w => // n IH [|x w] //=. rewrite ltnS => Hw G. rewrite moment_cons /convK conv_splits /split_sum.
    rewrite (@eq_big_In _ _ _ (fun _ => 0)) ?big1_eq // => p Hp. have Sp := splits_size Hp. have Gp := splits_grade Hp. rewrite /dx.
    case: (Z.eq_dec (grade (x :: p.1.2)) 0) => [E|N]; last by rewrite Hl ?mulr0 ?scale0r.
    rewrite IH ?scaler0 //; first by apply: leq_trans Hw; rewrite ltnS -Sp leq_addl. move=> E'. apply: G. rewrite Gp E'. move: E => /=. rewrite Z.add_0_r. by [].
  Qed.
  (** Two kinds of letters without common groups. *)
  Lemma moment_product (P : pred X) (lam : seq X -> K) u v : even lam -> (forall b, has P b -> has (predC P) b -> lam b = 0) -> all P u -> all (predC P) v ->
    moment lam (u ++ v) = moment lam u * moment lam v.
  Proof.
    move=> El H Pu Pv. pose l1 b := if has (predC P) b then 0 else lam b. pose l2 b := if has P b then 0 else lam b.
    have E1 : even l1 by move=> b O; rewrite /l1; case: (has _ _) => //; exact: El.
    have E2 : even l2 by move=> b O; rewrite /l2; case: (has _ _) => //; exact: El.
    have -> : moment lam (u ++ v) = moment (fun b => l1 b + l2 b) (u ++ v).
    { apply: moment_ext => b /andP [Hb _]. rewrite /l1 /l2. case H1: (has P b); case H2: (has (predC P) b).
      - by rewrite addr0 H.
      - by rewrite addr0.
      - by rewrite add0r.
      - move: Hb H1 H2. case: (b) => [|x c] //= _. by case: (P x). }
    have V1 b : has (predC P) b -> moment l1 b = 0 by apply: moment_vanish => c Hc; rewrite /l1 Hc.
    have V2 b : has P b -> moment l2 b = 0 by apply: moment_vanish => c Hc; rewrite /l2 Hc.
    rewrite moment_add // /convK (conv_skip _ _ V1) //.
    rewrite (_ : moment lam u = moment l1 u); last first.
    { apply: (moment_extQ Pu) => b Pb _. rewrite /l1. by rewrite has_predC Pb. }
    rewrite (_ : moment lam v = moment l2 v); last first.
    { apply: (moment_extQ Pv) => b. rewrite all_predC /l2 => /negbTE ->. by []. }
    have Q : @conv K X [lmodType K of K^o] (moment l1) (fun b => moment l2 (b ++ v)) u = @conv K X [lmodType K of K^o] (moment l1) (fun b => moment l2 v *: (unit_word K b : K^o)) u.
    { apply: (conv_extQ Pu) => // b Pb. case: b Pb => [|x b] Pb; first by rewrite /= -[_ *: _]/(_ * _) mulr1. rewrite V2 ?scaler0 //=. by move: Pb => /= /andP [-> _]. }
    rewrite Q convZr -[Y in _ *: Y]/(convK (moment l1) (unit_word K (X := X)) u) (convK_even _ _ (moment_even E1)) /convK conv_unit //; last by case.
    by rewrite -[_ *: _]/(_ * _) mulrC.
  Qed.
End Pre.

Section Log.
  Variables (K : fieldType) (X : Type) (E : seq X -> K).
  Hypothesis E1 : E [::] = 1.
  Hypothesis Ee : even E.
  Hypothesis Ea : alternating -%R E.
  Implicit Types (w b u : seq X).
  Fixpoint logn (n : nat) (b : seq X) : K :=
    match n with
    | 0 => 0
    | n'.+1 => if (size b <= n')%N then logn n' b else if size b == n'.+1 then E b - moment (logn n') b else 0
    end.
  Lemma logn_gt n b : (n < size b)%N -> logn n b = 0.
  Proof. case: n => [|n] //= H. by rewrite leqNgt (ltn_trans (ltnSn n) H) /= eqn_leq leqNgt H. Qed.
  Lemma logn_le n m b : (size b <= n)%N -> (n <= m)%N -> logn m b = logn n b.
  Proof.
    move=> H. elim: m => [|m IH]; first by rewrite leqn0 => /eqP ->. rewrite leq_eqVlt => /orP [/eqP <- //|Hm]. rewrite /= (leq_trans H) // IH //.
  Qed.
  Definition log (b : seq X) : K := logn (size b) b.
  Lemma logn_even n : even (logn n).
  Proof. elim: n => [|n IH] b O //=. case: ifP => _; first exact: IH. case: ifP => // _. rewrite Ee // (moment_even IH) ?subr0 //. Qed.
  Lemma log_even : even log.
  Proof. move=> b O. exact: logn_even. Qed.
  Lemma logn_alternating n : alternating -%R (logn n).
  Proof.
    elim: n => [|n IH] l1 x y l2; first by rewrite oppr0. have Es : size (l1 ++ x :: y :: l2)%list = size (l1 ++ y :: x :: l2)%list by rewrite !size_cat.
    rewrite /= Es. case: ifP => _; first exact: IH. case: ifP => _; last by rewrite oppr0.
    rewrite Ea (moment_alternating (@logn_even n) IH). by rewrite opprB opprK addrC.
  Qed.
  Lemma log_alternating : alternating -%R log.
  Proof. move=> l1 x y l2. rewrite /log logn_alternating. congr (- logn _ _). by rewrite !size_cat. Qed.
  Lemma logn_moment n w : (size w <= n)%N -> moment (logn n) w = E w.
  Proof.
    elim: n w => [|n IH] w; first by rewrite leqn0 => /nilP ->. rewrite leq_eqVlt ltnS => /orP [/eqP S|S]; last first.
    { rewrite -IH //. apply: moment_ext => b /andP [_ Hb]. by rewrite /= (leq_trans Hb S). }
    case: w S => [|x w] //= [S]. rewrite (@moment_top _ _ _ (logn n)); last 2 first.
    - move=> b /andP [_ Hb]. by rewrite /= -S Hb.
    - move=> b Hb. apply: logn_gt. by rewrite Hb S.
    - rewrite /= S ltnn eqxx. by rewrite subrK.
  Qed.
  Lemma log_moment w : moment log w = E w.
  Proof. rewrite -(logn_moment (leqnn (size w))). apply: moment_ext => b /andP [_ Hb]. by rewrite /log (logn_le (leqnn _) Hb). Qed.
  Lemma log_grade (gr : X -> Z) : (forall b, grade gr b <> 0%Z -> E b = 0) -> forall b, grade gr b <> 0%Z -> log b = 0.
  Proof.
    move=> H b. rewrite /log. move: (size b) => n. elim: n b => [|n IH] b G //=. case: ifP => _; first exact: IH. case: ifP => // _.
    by rewrite H // (moment_grade IH) // subr0.
  Qed.
End Log.
