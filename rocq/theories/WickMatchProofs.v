(** Wick's theorem for a product of normal-ordered words, over abstract letters. *)
Set Warnings "-notation-overridden,-ambiguous-paths".
From Coq Require Import ZArith List Permutation.
From mathcomp Require Import all_ssreflect ssralg.
From Verif Require Import SortSpec SortProofs ScalarSem.
Set Implicit Arguments.
Unset Strict Implicit.
Unset Printing Implicit Defensive.
Import GRing.Theory.
Local Open Scope ring_scope.

Lemma eq_big_In (V : zmodType) (Y : Type) (F G : Y -> V) l : (forall y, In y l -> F y = G y) -> \sum_(y <- l) F y = \sum_(y <- l) G y.
Proof.
  elim: l => [|y l IH] H; first by rewrite !big_nil. rewrite !big_cons (H y); last by left. congr (_ + _). apply: IH => z Hz. by apply: H; right.
Qed.

Lemma In_flatten (Y : Type) (y : Y) ls : In y (flatten ls) <-> exists l, In l ls /\ In y l.
Proof.
  elim: ls => [|l ls IH] /=; first by split=> // -[l []].
  rewrite in_app_iff IH. split.
  - case=> [H|[l' [H1 H2]]]; [exists l|exists l']; split=> //; by [left|right].
  - case=> l' [[<-|H1] H2]; [by left|right; by exists l'].
Qed.

Section Match.
  Variables (X : Type) (cp : X -> X -> bool).
  (** Removing one letter: how many letters come before it, the letter, the others. *)
  Fixpoint picks (l : seq X) : seq (nat * X * seq X) :=
    match l with
    | [::] => [::]
    | x :: l' => (0%N, x, l') :: [seq (p.1.1.+1, p.1.2, x :: p.2) | p <- picks l']
    end.
  Fixpoint bpicks (ws : seq (seq X)) : seq (nat * X * seq (seq X)) :=
    match ws with
    | [::] => [::]
    | w :: ws' => [seq (p.1.1, p.1.2, p.2 :: ws') | p <- picks w] ++ [seq ((size w + p.1.1)%N, p.1.2, w :: p.2) | p <- bpicks ws']
    end.
  Lemma picks_size l p : In p (picks l) -> size l = (size p.2).+1.
  Proof.
    elim: l p => [|x l IH] p //= [<- //|]. move/in_map_iff => [q [<- Hq]] /=. by rewrite (IH _ Hq).
  Qed.
  Definition sgz (n : nat) : Z := if odd n then Zneg xH else Zpos xH.
  Definition matching := (seq (X * X) * seq X * Z)%type.
  (** All sets of disjoint pairs (a letter and an admissible partner from a later word), the letters left over, and the sign. *)
  Fixpoint mats (fuel : nat) (ws : seq (seq X)) : seq matching :=
    match fuel with
    | 0 => [::]
    | n.+1 =>
      match ws with
      | [::] => [:: ([::], [::], Zpos xH)]
      | [::] :: ws' => mats n ws'
      | (x :: w) :: ws' =>
        [seq (m.1.1, x :: m.1.2, m.2) | m <- mats n (w :: ws')] ++
        flatten [seq [seq ((x, p.1.2) :: m.1.1, m.1.2, (sgz (size w + p.1.1) * m.2)%Z) | m <- mats n (w :: p.2)] | p <- bpicks ws' & cp x p.1.2]
      end
    end.
  Lemma bpicks_size ws p : In p (bpicks ws) -> size (flatten ws) = (size (flatten p.2)).+1 /\ size p.2 = size ws.
  Proof.
    elim: ws p => [|w ws IH] p //= H. apply List.in_app_or in H. case: H => /in_map_iff [q [<- Hq]] /=.
    - by rewrite !size_cat (picks_size Hq).
    - have [E1 E2] := IH _ Hq. by rewrite !size_cat E1 E2 addnS.
  Qed.
  Lemma sgz_add m n : sgz (m + n) = (sgz m * sgz n)%Z.
  Proof. rewrite /sgz oddD. by case: (odd m); case: (odd n). Qed.
  Lemma mats_size fuel ws m : In m (mats fuel ws) -> size (flatten ws) = (2 * size m.1.1 + size m.1.2)%N.
  Proof.
    elim: fuel ws m => [|n IH] ws m //. case: ws => [|[|x w] ws] /=; first by case=> // <-.
    - exact: IH.
    - move=> H. apply List.in_app_or in H. case: H => [/in_map_iff [q [<- Hq]] /=|].
      + have := IH _ _ Hq. rewrite /= => ->. by rewrite addnS.
      + move/In_flatten => [l [/in_map_iff [p [<- /filter_In [Hp _]]] /in_map_iff [q [<- Hq]]]] /=.
        have [E1 _] := bpicks_size Hp. have := IH _ _ Hq. rewrite /= size_cat => E2. rewrite size_cat E1 addnS E2. by rewrite mulnS.
  Qed.
  Definition msize (ws : seq (seq X)) : nat := (size (flatten ws) + size ws)%N.
End Match.

Section Wick.
  Variables (K : fieldType) (A : algType K) (X : Type) (cp : X -> X -> bool) (a : X -> A) (cr : X -> bool) (d : X -> X -> K).
  Hypothesis H1 : forall x y, cr x = cr y -> a x * a y = - (a y * a x).
  Hypothesis H2 : forall x y, cr x = false -> a x * a y = (d x y)%:A - a y * a x.
  Hypothesis H3 : forall x y, cp x y = false -> d x y = 0.
  Hypothesis H4 : forall x y, cr x = true -> cp x y = false.
  Hypothesis H5 : forall x y, cr y = false -> d x y = 0.

  Fixpoint npr (w : seq X) : A :=
    match w with
    | [::] => 1
    | x :: w' => if cr x then a x * npr w' else (-1) ^+ size w' *: (npr w' * a x)
    end.

  Lemma sg2 n : (-1) ^+ n * (-1) ^+ n = 1 :> K.
  Proof. by rewrite -exprD -signr_odd addnn odd_double. Qed.
  Lemma npr_alternating : alternating -%R npr.
  Proof.
    elim=> [|z l1 IH] x y l2.
    - rewrite /=. case Ex: (cr x); case Ey: (cr y).
      + by rewrite !mulrA H1 ?mulNr // Ex Ey.
      + by rewrite exprS mulN1r scaleNr opprK -scalerAr mulrA.
      + by rewrite exprS mulN1r scaleNr -scalerAr mulrA.
      + rewrite !exprS !mulN1r !scaleNr -!scalerAl -!mulrA (H1 (x := y) (y := x)) ?Ex ?Ey //. by rewrite mulrN !scalerN.
    - rewrite /=. have -> : size (l1 ++ x :: y :: l2)%list = size (l1 ++ y :: x :: l2)%list by rewrite !size_cat.
      rewrite IH. case: (cr z); by rewrite ?mulrN ?mulNr ?scalerN.
  Qed.

  (** Moving an annihilating letter through a normal-ordered word. *)
  Lemma npr_move x w : cr x = false ->
    a x * npr w = (-1) ^+ size w *: (npr w * a x) + \sum_(p <- picks w) ((-1) ^+ p.1.1 * d x p.1.2) *: npr p.2.
  Proof.
    move=> Cx. elim: w => [|y w IH].
    - by rewrite /= big_nil addr0 expr0 scale1r mulr1 mul1r.
    - rewrite /= big_cons /= big_map expr0 mul1r. case Cy: (cr y).
      + rewrite mulrA H2 // mulrBl -mulrA IH -scalerAl mul1r mulrDr opprD addrCA. congr (_ + _).
        * by rewrite exprS mulN1r scaleNr -scalerAr mulrA.
        * congr (_ + _). rewrite mulr_sumr -sumrN. apply: eq_bigr => p _. by rewrite /= Cy exprS mulN1r mulNr scaleNr -scalerAr.
      + rewrite (H5 x Cy) scale0r add0r -scalerAr mulrA IH mulrDl scalerDr. congr (_ + _).
        * rewrite -!scalerAl -mulrA (@H1 x y) ?Cx ?Cy // exprS mulN1r mulrN scaleNr !scalerN. by rewrite !mulrA.
        * rewrite mulr_suml scaler_sumr. apply: eq_big_In => p /picks_size Sp. rewrite -scalerAl !scalerA /= Cy !exprS Sp exprS scalerA. congr (_ *: _).
          rewrite !mulN1r !mulNr. congr (- _). by rewrite mulrC.
  Qed.
  Definition bprod (ws : seq (seq X)) : A := \prod_(w <- ws) npr w.
  Lemma bprod_move x ws : cr x = false ->
    a x * bprod ws = (-1) ^+ size (flatten ws) *: (bprod ws * a x) + \sum_(p <- bpicks ws) ((-1) ^+ p.1.1 * d x p.1.2) *: bprod p.2.
  Proof.
    move=> Cx. rewrite /bprod. elim: ws => [|w ws IH].
    - by rewrite /= !big_nil addr0 expr0 scale1r mulr1 mul1r.
    - rewrite /= !big_cons big_cat /= !big_map mulrA npr_move // mulrDl -scalerAl -[npr w * a x * _]mulrA. rewrite IH mulrDr scalerDr -addrA. congr (_ + _).
      + by rewrite size_cat exprD -scalerAr scalerA mulrA.
      + rewrite addrC. congr (_ + _).
        * rewrite mulr_suml. apply: eq_bigr => p _. by rewrite /= big_cons -scalerAl.
        * rewrite mulr_sumr scaler_sumr. apply: eq_bigr => p _. by rewrite /= big_cons -scalerAr scalerA mulrA exprD.
  Qed.
  Lemma zr_sgz n : zr K (sgz n) = (-1) ^+ n.
  Proof. rewrite -signr_odd /sgz. case: (odd n); by rewrite ?zr1 // -[Zneg xH]/(Z.opp (Zpos xH)) zrN zr1. Qed.

  Definition mval (m : matching X) : A := (zr K m.2 * \prod_(p <- m.1.1) d p.1 p.2) *: npr m.1.2.
  Theorem wick_blocks fuel ws : (msize ws < fuel)%N -> bprod ws = \sum_(m <- mats cp fuel ws) mval m.
  Proof.
    elim: fuel ws => [|n IH] ws //. case: ws => [|[|x w] ws] /= H.
    - by rewrite /bprod big_nil big_cons big_nil /mval /= big_nil mulr1 scale1r addr0.
    - rewrite -IH; last by move: H; rewrite /msize /= addnS ltnS => H; apply: leq_trans H _. by rewrite /bprod big_cons mul1r.
    - rewrite big_cat big_map big_flatten big_map big_filter /=.
      have Hw : (msize (w :: ws) < n)%N by move: H; rewrite /msize /= size_cat.
      have Hp p : In p (bpicks ws) -> (msize (w :: p.2) < n)%N.
      { move=> /bpicks_size [E1 E2]. move: Hw. rewrite /msize /= !size_cat E1 E2. apply: leq_trans. by rewrite ltnS leq_add2r leq_add2l. }
      have E2 : \sum_(i <- bpicks ws | cp x i.1.2) \sum_(m <- [seq ((x, i.1.2) :: m.1.1, m.1.2, (sgz (size w + i.1.1) * m.2)%Z) | m <- mats cp n (w :: i.2)]) mval m =
        \sum_(i <- bpicks ws) ((-1) ^+ (size w + i.1.1) * d x i.1.2) *: bprod (w :: i.2).
      { rewrite big_mkcond. apply: eq_big_In => p Hip. case Ec: (cp x p.1.2); last by rewrite H3 // mulr0 scale0r.
        rewrite big_map IH; last exact: Hp. rewrite scaler_sumr. apply: eq_bigr => m _.
        rewrite /mval /= big_cons zrM zr_sgz scalerA. congr (_ *: _). by rewrite /= -!mulrA; congr (_ * _); rewrite mulrCA. }
      rewrite E2 {E2}. rewrite {1}/bprod big_cons /=. case Cx: (cr x).
      + have -> : \sum_(i <- bpicks ws) ((-1) ^+ (size w + i.1.1) * d x i.1.2) *: bprod (w :: i.2) = 0.
        { rewrite (@eq_big_In _ _ _ (fun _ => 0)) ?big1_eq // => p _. by rewrite H3 ?H4 // mulr0 scale0r. }
        have := IH _ Hw. rewrite addr0 /bprod big_cons -mulrA => ->. rewrite mulr_sumr. apply: eq_bigr => m _. by rewrite /mval /= Cx -scalerAr.
      + rewrite -scalerAl -mulrA -/(bprod ws) bprod_move // mulrDr scalerDr. congr (_ + _).
        * rewrite -scalerAr scalerA mulrA -exprD -size_cat. have := IH _ Hw. rewrite /bprod big_cons => ->.
          rewrite mulr_suml scaler_sumr. apply: eq_big_In => m /mats_size Sm. rewrite /= in Sm.
          rewrite /mval /= Cx Sm -scalerAl !scalerA. congr (_ *: _). rewrite mulrC. congr (_ * _).
          by rewrite exprD mulnC exprM sqrr_sign mul1r.
        * rewrite mulr_sumr scaler_sumr. apply: eq_bigr => p _. by rewrite /bprod big_cons -scalerAr scalerA mulrA -exprD.
  Qed.
End Wick.
