(** C61: products of generalized normal-ordered words. *)
Set Warnings "-notation-overridden,-ambiguous-paths".
From Coq Require Import ZArith List Permutation.
From mathcomp Require Import all_ssreflect ssralg.
From Verif Require Import SortSpec SortProofs ScalarSem WickMatchProofs WickGeneralSpec WickConvProofs.
Set Implicit Arguments.
Unset Strict Implicit.
Unset Printing Implicit Defensive.
Import GRing.Theory.
Local Open Scope ring_scope.

Section More.
  Variables (K : fieldType) (X : Type).
  Implicit Types (f g h lam mu : seq X -> K) (w b u : seq X).
  Section V.
  Variable V : lmodType K.
  Lemma conv_extQ (Q : pred X) f f' (G G' : seq X -> V) w : all Q w -> (forall b, all Q b -> f b = f' b) -> (forall b, all Q b -> G b = G' b) -> conv f G w = conv f' G' w.
  Proof.
    elim: w f f' G G' => [|x w IH] f f' G G' /=; first by move=> _ Hf HG; rewrite Hf ?HG.
    case/andP=> Qx Qw Hf HG. congr (_ + _); apply: IH => // b Hb.
    - by apply: Hf; rewrite /= Qx. - by rewrite /sgf Hf. - by apply: HG; rewrite /= Qx.
  Qed.
  Lemma conv_oddl (P : pred X) f (G : seq X -> V) w0 w1 : oddf f -> (forall b, has P b -> f b = 0) -> all P w0 ->
    conv f G (w0 ++ w1) = (-1) ^+ size w0 *: conv f (fun u => G (w0 ++ u)) w1.
  Proof.
    move=> Of Hf. elim: w0 G => [|x w0 IH] G; first by move=> _; rewrite expr0 scale1r.
    rewrite [all _ _]/= cat_cons. case/andP=> Px Pw. rewrite conv_cons_odd // conv0l ?sub0r; last by move=> b _; rewrite /dx Hf //= Px.
    by rewrite IH // [size _]/= exprS mulN1r scaleNr.
  Qed.
  Lemma conv_single f (G : seq X -> V) w : (forall b, size b != 1%N -> f b = 0) -> conv f G w = \sum_(p <- picks w) ((-1) ^+ p.1.1 * f [:: p.1.2]) *: G p.2.
  Proof.
    move=> Hf. elim: w G => [|x w IH] G; first by rewrite /= big_nil Hf // scale0r.
    have Of : oddf f by move=> b O; apply: Hf; apply/eqP => E; rewrite E in O.
    rewrite conv_cons_odd // [picks _]/= big_cons big_map /= expr0 mul1r. congr (_ + _).
    - have -> : conv (dx x f) G w = f [:: x] *: conv (unit_word K (X := X)) G w.
      { rewrite !conv_splits /split_sum scaler_sumr. apply: eq_bigr => p _. rewrite scalerA /dx /unit_word. case: p.1.2 => [|y c]; first by rewrite mulr1 mulrC.
        by rewrite Hf // !mulr0. }
      by rewrite conv_unit // => -[].
    - rewrite IH -sumrN. apply: eq_bigr => p _. by rewrite /dx exprS mulN1r mulNr scaleNr.
  Qed.
  End V.
  Lemma moment_extQ (Q : pred X) lam mu w : all Q w -> (forall b, all Q b -> b <> [::] -> lam b = mu b) -> moment lam w = moment mu w.
  Proof.
    have [n] := ubnP (size w). elim: n w => // n IH [|x w] //= Hw /andP [Qx Qw] H. rewrite !moment_cons /convK !conv_splits /split_sum.
    apply: eq_big_In => p Hp. have Sp := splits_size Hp.
    have : all Q p.1.2 && all Q p.2.
    { move: Qw. rewrite -all_cat. elim: w p Hp {Hw Sp} => [|y w IHw] p /=; first by case=> // <-.
      move=> Hp /andP [Qy Qw]. apply List.in_app_or in Hp. case: Hp => /in_map_iff [q [<- Hq]] /=; have := IHw _ Hq Qw; rewrite !all_cat /= Qy // => /andP [-> ->]. }
    case/andP=> Q1 Q2. rewrite /dx H //=; last by rewrite Qx. rewrite (IH p.2) //. apply: (@leq_ltn_trans (size w)) => //. by rewrite -Sp leq_addl.
  Qed.
  Lemma exp_extQ (Q : pred X) lam mu (V : lmodType K) (G G' : seq X -> V) w : all Q w -> (forall b, all Q b -> b <> [::] -> lam b = mu b) -> (forall b, all Q b -> G b = G' b) ->
    conv (moment lam) G w = conv (moment mu) G' w.
  Proof. move=> Qw H HG. apply: (conv_extQ Qw) => // b Qb. exact: moment_extQ Qb H. Qed.

  Variable A : algType K.
  Lemma conv_mull f (G : seq X -> A) a w : conv f (fun u => a * G u) w = a * conv f G w.
  Proof. rewrite !conv_splits /split_sum mulr_sumr. apply: eq_bigr => p _. by rewrite scalerAr. Qed.
  Lemma conv_mulr f (G : seq X -> A) a w : conv f (fun u => G u * a) w = conv f G w * a.
  Proof. rewrite !conv_splits /split_sum mulr_suml. apply: eq_bigr => p _. by rewrite scalerAl. Qed.
  Lemma conv_signr f (V : lmodType K) (G : seq X -> V) w : even f -> conv f (fun u => (-1) ^+ size u *: G u) w = (-1) ^+ size w *: conv f G w.
  Proof.
    move=> Ef. rewrite !conv_splits /split_sum scaler_sumr. apply: eq_big_In => p /splits_size Sp. rewrite !scalerA. 
    case O: (odd (size p.1.2)); first by rewrite Ef // !mulr0 mul0r.
    rewrite mulrC. congr ((_ * _) *: _). by rewrite -Sp exprD -[X in _ = X * _]signr_odd O mul1r.
  Qed.
End More.

Section Wick.
  Variables (K : fieldType) (A : algType K) (X : Type) (a : X -> A) (cr : X -> bool) (d : X -> X -> K).
  Hypothesis H1 : forall x y, cr x = cr y -> a x * a y = - (a y * a x).
  Hypothesis H2 : forall x y, cr x = false -> a x * a y = (d x y)%:A - a y * a x.
  Hypothesis H4 : forall x y, cr x = true -> d x y = 0.
  Hypothesis H5 : forall x y, cr y = false -> d x y = 0.
  Notation vac := (npr a cr).
  Implicit Types (w b u : seq X).

  (** ** Two words, told apart by [P] *)
  Section Two.
  Variable P : pred X.
  Definition pair2 b : K := if b is [:: x; y] then if P x && ~~ P y then d x y else if ~~ P x && P y then - d y x else 0 else 0.
  Lemma pair2_even : even pair2.
  Proof. by case=> [|x [|y [|z b]]]. Qed.
  Lemma pair2_none b : all (predC P) b -> pair2 b = 0.
  Proof. case: b => [|x [|y [|z b]]] //= /and3P [Hx Hy _]. by rewrite (negbTE Hx) (negbTE Hy). Qed.
  Lemma pair2_single x b : size b != 1%N -> dx x pair2 b = 0.
  Proof. by case: b => [|y [|z b]]. Qed.
  Lemma vac_two w0 w1 : all P w0 -> all (predC P) w1 -> vac w0 * vac w1 = conv (moment pair2) vac (w0 ++ w1).
  Proof.
    move=> P0. have Ev := moment_even pair2_even. elim: w0 w1 P0 => [|x w0 IH] w1 P0 P1.
    - rewrite mul1r /=. symmetry. rewrite (exp_extQ (mu := fun _ => 0) (G' := vac) P1) //; first exact: exp_zero. move=> b Qb _. exact: pair2_none.
    - rewrite cat_cons exp_cons; last exact: pair2_even. move: P0 => /= /andP [Px P0]. case Cx: (cr x).
      + rewrite conv0l; last first.
        { case=> [|y [|z b]] //= _. rewrite /dx /pair2 Px /=. by case: (P y) => //=; rewrite H4. }
        rewrite add0r -mulrA IH // -conv_mull. apply: conv_ext => // b _. by rewrite /dx /= Cx.
      + rewrite -scalerAl -mulrA (@npr_move _ _ _ _ _ d) // mulrDr scalerDr addrC. congr (_ + _).
        * rewrite (@conv_oddl _ _ _ P) //; [|exact: even_dx pair2_even|]; last first.
          { case=> [|y [|z b]] //=. rewrite orbF => Py. by rewrite /dx /pair2 Px Py. }
          rewrite conv_single; last exact: pair2_single. rewrite !mulr_sumr. congr (_ *: _). apply: eq_big_In => p Hp.
          have [l1 [l2 E]] : exists l1 l2, w1 = l1 ++ p.1.2 :: l2 /\ p.2 = l1 ++ l2.
          { elim: w1 p Hp {P1} => [|y w1 IHw] p //= [<-|]; first by exists [::], w1. move/in_map_iff => [q [<- /IHw [l1 [l2 [-> ->]]]]]. by exists (y :: l1), l2. }
          case: E => E1 E2. have := P1. rewrite E1 all_cat /= => /and3P [Q1 Qy Q2]. rewrite -scalerAr IH ?E2 ?all_cat ?Q1 //. congr ((_ * _) *: _). by rewrite /dx /pair2 Px /= Qy.
        * rewrite -scalerAr scalerA -exprD mulrA IH // -size_cat -conv_mulr -conv_signr //. apply: conv_ext => // b _. by rewrite /dx /= Cx.
  Qed.

  Variables (lam : seq X -> K) (N : seq X -> A).
  Hypothesis El : even lam.
  Hypothesis HN : forall w, vac w = conv (moment lam) N w.
  Lemma normal_inv w : N w = conv (moment (fun b => - lam b)) vac w.
  Proof. rewrite -[LHS](exp_inv N w El). by apply: conv_ext. Qed.
  Definition cross2 b : K := lam b - (if all P b then lam b else 0) - (if all (predC P) b then lam b else 0) + pair2 b.
  Lemma even_if (p : pred (seq X)) f : even f -> even (fun b : seq X => if p b then f b else 0 : K).
  Proof. move=> E b O. case: (p b) => //. exact: E. Qed.
  Lemma even_opp f : even f -> even (fun b : seq X => - f b : K).
  Proof. move=> E b O. by rewrite E ?oppr0. Qed.
  Lemma even_add f g : even f -> even g -> even (fun b : seq X => f b + g b : K).
  Proof. move=> E E' b O. by rewrite E ?E' ?addr0. Qed.
  Lemma normal_two w0 w1 : all P w0 -> all (predC P) w1 -> N w0 * N w1 = conv (moment cross2) N (w0 ++ w1).
  Proof.
    move=> P0 P1.
    pose l0 b := - (if all P b then lam b else 0). pose l1 b := - (if all (predC P) b then lam b else 0).
    have E0 : even l0 by apply: even_opp; apply: even_if.
    have E1 : even l1 by apply: even_opp; apply: even_if.
    have Ep := pair2_even.
    transitivity (conv (moment l0) (conv (moment l1) (conv (moment pair2) (conv (moment lam) N))) (w0 ++ w1)); last first.
    { rewrite -(@conv_ext _ _ _ (moment l0) _ (conv (moment l1) (conv (moment (fun b => pair2 b + lam b)) N))) //; last first.
      { move=> b _. apply: conv_ext => // c _. by rewrite exp_exp. }
      rewrite -(@conv_ext _ _ _ (moment l0) _ (conv (moment (fun b => l1 b + (pair2 b + lam b))) N)) //; last first.
      { move=> b _. by rewrite -exp_exp //; apply: even_add. }
      rewrite exp_exp //; last by apply: even_add => //; apply: even_add.
      apply: conv_ext => // b _. apply: moment_ext => c _. rewrite /cross2 /l0 /l1. rewrite addrA [in RHS]addrC !addrA. rewrite [_ + _ + pair2 c]addrC !addrA. rewrite -!addrA. congr (_ + _). rewrite addrC -addrA addrC -!addrA. by []. }
    have V0 b : has (predC P) b -> l0 b = 0 by rewrite has_predC => /negbTE H; rewrite /l0 H oppr0.
    have V1 b : has P b -> l1 b = 0 by rewrite /l1 all_predC => ->; rewrite oppr0.
    rewrite (@conv_skip _ _ (predC P)) //; last by move=> b; apply: moment_vanish.
    transitivity (conv (moment l0) (fun u => vac u * N w1) w0).
    { rewrite conv_mulr. congr (_ * _). rewrite normal_inv. apply: (exp_extQ P0) => // b Pb _. by rewrite /l0 Pb. }
    apply: (conv_extQ P0) => // u Pu. rewrite (@exp_skip _ _ P) // normal_inv -conv_mull. apply: (exp_extQ P1).
    - move=> b Pb _. by rewrite /l1 Pb.
    - move=> b Pb. rewrite (vac_two Pu Pb). by apply: conv_ext.
  Qed.
  End Two.

  (** ** Many words, told apart by tags *)
  Section Many.
  Variables (lam : seq X -> K) (N : seq X -> A) (tg : X -> nat).
  Hypothesis El : even lam.
  Hypothesis HN : forall w, vac w = conv (moment lam) N w.
  Definition onetag b : bool := if b is x :: _ then all (fun y => tg y == tg x) b else true.
  Definition pairs b : K := if b is [:: x; y] then if (tg x < tg y)%N then d x y else if (tg y < tg x)%N then - d y x else 0 else 0.
  Definition links b : K := (if onetag b then 0 else lam b) + pairs b.
  Lemma links_even : even links.
  Proof. move=> b O. rewrite /links El // if_same add0r. by case: b O => [|x [|y [|z b]]]. Qed.
  Fixpoint tagged (k : nat) (ws : seq (seq X)) : bool := if ws is w :: ws' then all (fun x => tg x == k) w && tagged k.+1 ws' else true.
  Lemma tagged_ge k ws : tagged k ws -> all (fun x => (k <= tg x)%N) (flatten ws).
  Proof.
    elim: ws k => //= w ws IH k /andP [Hw /IH Hs]. rewrite all_cat. apply/andP; split; first by apply: sub_all Hw => x /eqP ->.
    apply: sub_all Hs => x. exact: ltnW.
  Qed.
  Lemma normal_nil : N [::] = 1.
  Proof. by rewrite (normal_inv El HN) /= scale1r. Qed.
  Lemma normal_many k ws : tagged k ws -> \prod_(w <- ws) N w = conv (moment links) N (flatten ws).
  Proof.
    elim: ws k => [|w ws IH] k /=; first by rewrite big_nil normal_nil scale1r.
    case/andP=> Hw Hs. rewrite big_cons (IH _ Hs) -conv_mull. pose P := fun x => tg x == k. have Hg := tagged_ge Hs.
    pose M1 b := if has P b then 0 else links b. have E1 : even M1 by move=> b O; rewrite /M1 links_even // if_same.
    have Ec : even (cross2 P lam).
    { move=> b O. by rewrite /cross2 El // !if_same !subr0 add0r pair2_even. }
    have PC x : (k < tg x)%N -> predC P x by rewrite /= /P; case: ltngtP.
    transitivity (conv (moment M1) (fun u => conv (moment (cross2 P lam)) N (w ++ u)) (flatten ws)).
    { apply: (exp_extQ Hg) => b Qb.
      - move=> _. rewrite /M1. by have -> : has P b = false by apply/negbTE; rewrite -all_predC; apply: sub_all Qb; exact: PC.
      - apply: normal_two => //. apply: sub_all Qb. exact: PC. }
    rewrite -(@exp_skip _ _ P) //; last by move=> b Hb; rewrite /M1 Hb.
    rewrite exp_exp //. apply: (@exp_extQ _ _ (fun x => (k <= tg x)%N)) => //; first by apply: (@tagged_ge k (w :: ws)); rewrite /= Hw.
    move=> b Qb Nb. rewrite /M1 /cross2 all_predC. case Hh: (has P b) => /=; last first.
    { have Hc : all (predC P) b by rewrite all_predC Hh. rewrite (pair2_none Hc). have -> : all P b = false.
      { case: b Nb Hc {Qb Hh} => //= x b _ /andP [Hx _]. by rewrite (negbTE Hx). }
      by rewrite subr0 subrr !addr0. }
    rewrite add0r subr0. have -> : pair2 P b = pairs b.
    { case: b Qb Hh {Nb} => [|x [|y [|z b]]] //= /and3P [Hx Hy _]. rewrite /P orbF => Hh. case: (ltngtP (tg x) (tg y)) => Hxy.
      - have -> : tg x == k by case/orP: Hh => // /eqP Ey; move: Hxy Hx; rewrite Ey; case: ltngtP.
        have -> // : tg y == k = false by apply/negbTE/eqP => Ey; move: Hxy Hx; rewrite Ey; case: ltngtP.
      - have -> : tg y == k by case/orP: Hh => // /eqP Ex; move: Hxy Hy; rewrite Ex; case: ltngtP.
        have -> // : tg x == k = false by apply/negbTE/eqP => Ex; move: Hxy Hy; rewrite Ex; case: ltngtP.
      - by rewrite Hxy andbN andNb. }
    rewrite /links. congr (_ + _). case Ha: (all P b).
    - rewrite subrr. case: b Nb Ha {Qb Hh} => // x b _ Ha. have -> // : onetag (x :: b). move: Ha => /= /andP [/eqP Hx Hb]. rewrite eqxx /=. by rewrite Hx.
    - rewrite subr0. have -> // : onetag b = false. case: b Hh Ha {Qb Nb} => // x b Hh Ha. apply/negbTE/negP => /= /andP [_ Hb]. 
      have Ex : tg x = k.
      { move: Hh => /= /orP [/eqP //|]. elim: b Hb {Ha} => //= y b IHb /andP [/eqP Hy Hb] /orP [/eqP Ey|]; [by rewrite -Hy|exact: IHb]. }
      move: Ha. rewrite /= /P Ex eqxx /=. by rewrite -Ex Hb.
  Qed.
  End Many.
End Wick.
