(** C61: the algebra of functions of words under splitting. *)
Set Warnings "-notation-overridden,-ambiguous-paths".
From Coq Require Import ZArith List Permutation.
From mathcomp Require Import all_ssreflect ssralg.
From Verif Require Import SortSpec SortProofs ScalarSem WickMatchProofs WickGeneralSpec.
Set Implicit Arguments.
Unset Strict Implicit.
Unset Printing Implicit Defensive.
Import GRing.Theory.
Local Open Scope ring_scope.

Section Conv.
  Variables (K : fieldType) (X : Type).
  Implicit Types (f g h : seq X -> K) (w b u : seq X).
  Definition dx (V : Type) (x : X) (F : seq X -> V) : seq X -> V := fun u => F (x :: u).
  Definition sgf f : seq X -> K := fun b => (-1) ^+ size b * f b.
  Definition even f : Prop := forall b, odd (size b) -> f b = 0.
  Definition oddf f : Prop := forall b, ~~ odd (size b) -> f b = 0.

  Section Mod.
  Variable V : lmodType K.
  Implicit Types F G H : seq X -> V.
  Fixpoint conv f G w : V :=
    match w with
    | [::] => f [::] *: G [::]
    | x :: w' => conv (dx x f) G w' + conv (sgf f) (dx x G) w'
    end.
  Lemma conv_ext f f' G G' w : (forall b, (size b <= size w)%N -> f b = f' b) -> (forall b, (size b <= size w)%N -> G b = G' b) -> conv f G w = conv f' G' w.
  Proof.
    elim: w f f' G G' => [|x w IH] f f' G G' Hf HG /=; first by rewrite Hf ?HG.
    congr (_ + _); apply: IH => b Hb.
    - exact: Hf. - apply: HG. exact: leqW. - rewrite /sgf Hf //. exact: leqW. - exact: HG.
  Qed.
  Lemma conv_splits f G w : conv f G w = split_sum f G w.
  Proof.
    rewrite /split_sum. elim: w f G => [|x w IH] f G /=; first by rewrite big_cons big_nil /= addr0 expr0 mul1r.
    rewrite big_cat !big_map !IH. congr (_ + _). apply: eq_bigr => p _. by rewrite /sgf /= mulrA -exprD.
  Qed.
  Lemma convDl f g G w : conv (fun b => f b + g b) G w = conv f G w + conv g G w.
  Proof. rewrite !conv_splits /split_sum -big_split. apply: eq_bigr => p _. by rewrite /= mulrDr scalerDl. Qed.
  Lemma convDr f F G w : conv f (fun b => F b + G b) w = conv f F w + conv f G w.
  Proof. rewrite !conv_splits /split_sum -big_split. apply: eq_bigr => p _. by rewrite /= scalerDr. Qed.
  Lemma convNl f G w : conv (fun b => - f b) G w = - conv f G w.
  Proof. rewrite !conv_splits /split_sum -sumrN. apply: eq_bigr => p _. by rewrite mulrN scaleNr. Qed.
  Lemma convNr f G w : conv f (fun b => - G b) w = - conv f G w.
  Proof. rewrite !conv_splits /split_sum -sumrN. apply: eq_bigr => p _. by rewrite scalerN. Qed.
  Lemma convZr f c G w : conv f (fun b => c *: G b) w = c *: conv f G w.
  Proof. rewrite !conv_splits /split_sum scaler_sumr. apply: eq_bigr => p _. by rewrite !scalerA mulrC. Qed.
  Lemma splits_size w p : In p (splits w) -> (size p.1.2 + size p.2)%N = size w.
  Proof.
    elim: w p => [|x w IH] p /=; first by case=> // <-.
    move=> H. apply List.in_app_or in H. case: H => /in_map_iff [q [<- Hq]] /=; by rewrite ?addnS -(IH _ Hq).
  Qed.
  Lemma conv0l f G w : (forall b, (size b <= size w)%N -> f b = 0) -> conv f G w = 0.
  Proof.
    move=> Hf. rewrite conv_splits /split_sum (@eq_big_In _ _ _ (fun _ => 0)) ?big1_eq // => p /splits_size Sp.
    by rewrite Hf ?mulr0 ?scale0r // -Sp leq_addr.
  Qed.
  Lemma conv0r f G w : (forall b, (size b <= size w)%N -> G b = 0) -> conv f G w = 0.
  Proof.
    move=> Hf. rewrite conv_splits /split_sum (@eq_big_In _ _ _ (fun _ => 0)) ?big1_eq // => p /splits_size Sp.
    by rewrite Hf ?scaler0 // -Sp leq_addl.
  Qed.
  (** The unit. *)
  Definition unit_word b : K := if b is [::] then 1 else 0.
  Lemma conv_unit f G w : f [::] = 1 -> (forall b, (0 < size b <= size w)%N -> f b = 0) -> conv f G w = G w.
  Proof.
    elim: w f G => [|x w IH] f G H0 Hf /=; first by rewrite H0 scale1r.
    rewrite conv0l; last by move=> b Hb; apply: Hf; rewrite /= ltnS Hb.
    rewrite add0r IH //; first by rewrite /sgf H0 mulr1.
    move=> b /andP [H1 H2]. rewrite /sgf Hf ?mulr0 // H1 /=. exact: leqW.
  Qed.
  Lemma sgf_inv f b : sgf (sgf f) b = f b.
  Proof. by rewrite /sgf mulrA -exprD addnn -signr_odd odd_double mul1r. Qed.
  Lemma dx_sgf x f b : dx x (sgf f) b = - sgf (dx x f) b.
  Proof. by rewrite /dx /sgf /= exprS mulN1r mulNr. Qed.
  Lemma even_sgf f b : even f -> sgf f b = f b.
  Proof. rewrite /sgf => E. rewrite -signr_odd. case O: (odd _); last by rewrite mul1r. by rewrite E ?mulr0. Qed.
  Lemma odd_sgf f b : oddf f -> sgf f b = - f b.
  Proof. rewrite /sgf => E. rewrite -signr_odd. case O: (odd _); first by rewrite mulN1r. by rewrite E ?O // mulr0 oppr0. Qed.
  Lemma even_dx x f : even f -> oddf (dx x f).
  Proof. move=> E b O. by rewrite /dx E. Qed.
  Lemma odd_dx x f : oddf f -> even (dx x f).
  Proof. move=> E b O. by rewrite /dx E //= O. Qed.
  (** First letter, for an even function. *)
  Lemma conv_cons_even f G x w : even f -> conv f G (x :: w) = conv (dx x f) G w + conv f (dx x G) w.
  Proof. move=> E /=. congr (_ + _). apply: conv_ext => // b _. exact: even_sgf. Qed.
  Lemma conv_cons_odd f G x w : oddf f -> conv f G (x :: w) = conv (dx x f) G w - conv f (dx x G) w.
  Proof. move=> E /=. congr (_ + _). rewrite -convNl. apply: conv_ext => // b _. exact: odd_sgf. Qed.
  End Mod.
  Notation cvo := (@conv [lmodType K of K^o]).
  Definition convK f g : seq X -> K := cvo f g.
  Lemma convKNl f g w : convK (fun b => - f b) g w = - convK f g w.
  Proof. exact: (@convNl [lmodType K of K^o]). Qed.
  Lemma convK_ext f f' g g' w : (forall b, (size b <= size w)%N -> f b = f' b) -> (forall b, (size b <= size w)%N -> g b = g' b) -> convK f g w = convK f' g' w.
  Proof. exact: (@conv_ext [lmodType K of K^o]). Qed.

  Lemma convK_sgf f g w : convK (sgf f) (sgf g) w = sgf (convK f g) w.
  Proof.
    rewrite /convK. elim: w f g => [|x w IH] f g; first by rewrite /= /sgf /= expr0 !mul1r.
    transitivity (cvo (dx x (sgf f)) (sgf g) w + cvo (sgf (sgf f)) (dx x (sgf g)) w : K); first by [].
    have -> : cvo (dx x (sgf f)) (sgf g) w = - cvo (sgf (dx x f)) (sgf g) w by rewrite -convNl; apply: conv_ext => // b _; exact: dx_sgf.
    have -> : cvo (sgf (sgf f)) (dx x (sgf g)) w = - cvo (sgf (sgf f)) (sgf (dx x g)) w by rewrite -convNr; apply: conv_ext => // b _; exact: dx_sgf.
    rewrite !IH -opprD /sgf /= exprS mulN1r mulNr. congr (- _). by rewrite -mulrDr.
  Qed.
  Lemma conv_assoc (V : lmodType K) f g (G : seq X -> V) w : conv (convK f g) G w = conv f (conv g G) w.
  Proof.
    elim: w f g G => [|x w IH] f g G /=; first by rewrite scalerA.
    have E1 : conv (dx x (convK f g)) G w = conv (fun b => convK (dx x f) g b + convK (sgf f) (dx x g) b) G w by apply: conv_ext.
    have E2 : conv (sgf (convK f g)) (dx x G) w = conv (convK (sgf f) (sgf g)) (dx x G) w by apply: conv_ext => // b _; rewrite convK_sgf.
    have E3 : conv (sgf f) (dx x (conv g G)) w = conv (sgf f) (fun b => conv (dx x g) G b + conv (sgf g) (dx x G) b) w by apply: conv_ext.
    by rewrite E1 E2 E3 convDl convDr !IH addrA.
  Qed.
  Lemma convK_comm w : (forall f g, even f -> convK f g w = convK g f w) /\ (forall f g, oddf f -> convK f g w = convK (sgf g) f w).
  Proof.
    rewrite /convK. elim: w => [|x w [IH1 IH2]]; split=> f g E.
    - by rewrite /= /GRing.scale /= mulrC. - by rewrite /= /sgf /GRing.scale /= expr0 mul1r mulrC.
    - rewrite conv_cons_even //= addrC IH1 // (IH2 (dx x f)) //. exact: even_dx.
    - rewrite conv_cons_odd //= IH1; last exact: odd_dx. rewrite addrC. congr (_ + _).
      + rewrite IH2 //. transitivity (cvo (fun b => - sgf (dx x g) b) f w : K); first by rewrite convNl. apply: (@conv_ext [lmodType K of K^o]) => // b _. by rewrite dx_sgf.
      + apply: (@conv_ext [lmodType K of K^o]) => // b _. by rewrite sgf_inv.
  Qed.
  Lemma convK_even f g w : even f -> convK f g w = convK g f w.
  Proof. exact: (proj1 (convK_comm w)). Qed.
  Lemma convK_odd f g w : oddf f -> convK f g w = convK (sgf g) f w.
  Proof. exact: (proj2 (convK_comm w)). Qed.
  (** Even functions can be moved past any function. *)
  Lemma conv_swap (V : lmodType K) f g (G : seq X -> V) w : even f -> conv f (conv g G) w = conv g (conv f G) w.
  Proof. move=> E. rewrite -!conv_assoc. apply: conv_ext => // b _. exact: convK_even. Qed.
  Lemma conv_swap_odd (V : lmodType K) f g (G : seq X -> V) w : oddf f -> oddf g -> conv f (conv g G) w = - conv g (conv f G) w.
  Proof.
    move=> E E'. rewrite -!conv_assoc -convNl. apply: conv_ext => // b _. rewrite convK_odd // -convKNl. apply: convK_ext => // c _. exact: odd_sgf.
  Qed.
  Lemma even_conv f g : even f -> even g -> even (convK f g).
  Proof.
    move=> E E' b O. rewrite /convK conv_splits /split_sum.
    rewrite (@eq_big_In _ _ _ (fun _ => 0)) ?big1_eq // => p /splits_size Sp. move: O. rewrite -Sp oddD. case O1: (odd (size p.1.2)).
    - by rewrite E ?O1 // mulr0 scale0r.
    - rewrite addFb => /E' Eg. by rewrite Eg scaler0.
  Qed.

  (** ** The exponential *)
  Variable lam : seq X -> K.
  Notation E := (moment lam).
  Lemma divide_fuel n m w : (size w <= n)%N -> (size w <= m)%N -> divide lam n w = divide lam m w.
  Proof.
    elim: n m w => [|n IH] [|m] [|x w] //= Hn Hm. apply: eq_big_In => p /splits_size Sp. congr (_ * _). apply: IH; [move: Hn|move: Hm]; rewrite ltnS; apply: leq_trans; by rewrite -Sp leq_addl.
  Qed.
  Lemma moment_nil : E [::] = 1. Proof. by []. Qed.
  Lemma moment_cons x w : E (x :: w) = convK (dx x lam) E w.
  Proof.
    rewrite /convK conv_splits /split_sum /moment /=. apply: eq_big_In => p /splits_size Sp. congr (_ * _). apply: divide_fuel => //. by rewrite -Sp leq_addl.
  Qed.
End Conv.

Section Exp.
  Variables (K : fieldType) (X : Type).
  Notation cvo := (@conv K X [lmodType K of K^o]).
  Implicit Types (f g h lam mu : seq X -> K) (w b u : seq X).
  Lemma moment_even lam : even lam -> even (moment lam).
  Proof.
    move=> El b. have [n] := ubnP (size b). elim: n b => // n IH [|x b] //= Hb O.
    rewrite moment_cons /convK conv_splits /split_sum (@eq_big_In _ _ _ (fun _ => 0)) ?big1_eq // => p /splits_size Sp.
    move: O. rewrite -Sp oddD negb_add /dx. case O1: (odd (size p.1.2)).
    - move=> /eqP O2. rewrite IH ?scaler0 -?O2 //. apply: (@leq_ltn_trans (size b)) => //. by rewrite -Sp leq_addl.
    - move=> _. by rewrite El ?mulr0 ?scale0r //= O1.
  Qed.
  Lemma dx_moment lam x (V : lmodType K) (G : seq X -> V) w : conv (dx x (moment lam)) G w = conv (dx x lam) (conv (moment lam) G) w.
  Proof. rewrite -conv_assoc. apply: conv_ext => // b _. by rewrite /dx moment_cons. Qed.
  Lemma exp_cons lam (V : lmodType K) (G : seq X -> V) x w : even lam ->
    conv (moment lam) G (x :: w) = conv (dx x lam) (conv (moment lam) G) w + conv (moment lam) (dx x G) w.
  Proof. move=> El. rewrite conv_cons_even ?dx_moment //. exact: moment_even. Qed.
  Lemma moment_ext lam mu w : (forall b, (0 < size b <= size w)%N -> lam b = mu b) -> moment lam w = moment mu w.
  Proof.
    have [n] := ubnP (size w). elim: n w => // n IH [|x w] //= Hw H. rewrite !moment_cons. apply: convK_ext => b Hb.
    - apply: H. by rewrite /= ltnS Hb.
    - apply: IH; first exact: leq_ltn_trans Hb Hw. move=> c /andP [H1 H2]. apply: H. rewrite H1 /=. apply: leqW. exact: leq_trans H2 Hb.
  Qed.
  Lemma moment_zero lam w : (forall b, (0 < size b <= size w)%N -> lam b = 0) -> moment lam w = unit_word K w.
  Proof.
    case: w => [|x w] //= H. rewrite moment_cons /convK conv0l // => b Hb. by apply: H; rewrite /= ltnS Hb.
  Qed.
  (** The exponential of a sum. *)
  Lemma moment_add lam mu w : even lam -> even mu -> moment (fun b => lam b + mu b) w = convK (moment lam) (moment mu) w.
  Proof.
    move=> El Em. have Es : even (fun b => lam b + mu b) by move=> b O; rewrite El ?Em ?addr0.
    have [n] := ubnP (size w). elim: n w => // n IH [|x w] /= Hw.
    - by rewrite /convK /= /GRing.scale /= mulr1.
    - rewrite moment_cons. etransitivity; last exact: (esym (exp_cons (V := [lmodType K of K^o]) (moment mu) x w El)).
      have -> : cvo (moment lam) (dx x (moment mu)) w = cvo (dx x mu) (cvo (moment lam) (moment mu)) w.
      { rewrite -(conv_swap (V := [lmodType K of K^o]) (dx x mu) (moment mu) w (moment_even El)). apply: (@conv_ext _ _ [lmodType K of K^o]) => // b _. by rewrite /dx moment_cons. }
      rewrite -convDl. apply: (@conv_ext _ _ [lmodType K of K^o]) => // b Hb. apply: IH. exact: leq_ltn_trans Hb Hw.
  Qed.
  Lemma exp_exp lam mu (V : lmodType K) (G : seq X -> V) w : even lam -> even mu ->
    conv (moment lam) (conv (moment mu) G) w = conv (moment (fun b => lam b + mu b)) G w.
  Proof. move=> El Em. rewrite -conv_assoc. apply: conv_ext => // b _. by rewrite moment_add. Qed.
  Lemma exp_zero lam (V : lmodType K) (G : seq X -> V) w : (forall b, (0 < size b <= size w)%N -> lam b = 0) -> conv (moment lam) G w = G w.
  Proof.
    move=> H. apply: conv_unit => // b /andP [H1 H2]. rewrite moment_zero; first by case: b H1 H2.
    move=> c /andP [H3 H4]. apply: H. rewrite H3 /=. exact: leq_trans H4 H2.
  Qed.
  Lemma exp_inv lam (V : lmodType K) (G : seq X -> V) w : even lam -> conv (moment (fun b => - lam b)) (conv (moment lam) G) w = G w.
  Proof. move=> El. rewrite exp_exp //; last by move=> b O; rewrite El ?oppr0. apply: exp_zero => b _. by rewrite addNr. Qed.
  Lemma exp_inv' lam (V : lmodType K) (G : seq X -> V) w : even lam -> conv (moment lam) (conv (moment (fun b => - lam b)) G) w = G w.
  Proof. move=> El. rewrite exp_exp //; last by move=> b O; rewrite El ?oppr0. apply: exp_zero => b _. by rewrite addrN. Qed.

  (** ** Alternating functions *)
  Definition altn (V : zmodType) (n : nat) (F : seq X -> V) : Prop :=
    forall l1 x y l2, (size (l1 ++ x :: y :: l2) <= n)%N -> F (l1 ++ x :: y :: l2) = - F (l1 ++ y :: x :: l2).
  Lemma altn_le (V : zmodType) n m (F : seq X -> V) : (m <= n)%N -> altn n F -> altn m F.
  Proof. move=> L H l1 x y l2 S. apply: H. exact: leq_trans S L. Qed.
  Lemma altn_dx (V : zmodType) n (F : seq X -> V) z : altn n.+1 F -> altn n (dx z F).
  Proof. move=> H l1 x y l2 S. exact: (H (z :: l1)). Qed.
  Lemma altn_sgf n f : altn n f -> altn n (sgf f).
  Proof. move=> H l1 x y l2 S. rewrite /sgf H // mulrN !size_cat. by []. Qed.
  Lemma altn_all (V : zmodType) (F : seq X -> V) : (forall n, altn n F) -> alternating -%R F.
  Proof. move=> H l1 x y l2. exact: (H (size (l1 ++ x :: y :: l2))). Qed.
  Lemma all_altn (V : zmodType) (F : seq X -> V) n : alternating -%R F -> altn n F.
  Proof. move=> H l1 x y l2 _. exact: H. Qed.
  Lemma conv_altn n f (V : lmodType K) (G : seq X -> V) : altn n f -> altn n G -> altn n (conv f G).
  Proof.
    move=> Hf HG l1. elim: l1 n f G Hf HG => [|z l1 IH] n f G Hf HG x y l2 S.
    - rewrite /= !opprD /=.
      have E1 : conv (dx y (dx x f)) G l2 = - conv (dx x (dx y f)) G l2.
      { rewrite -convNl. apply: conv_ext => // b Hb. apply: (Hf [::]). apply: leq_trans S. by rewrite /= !ltnS. }
      have E2 : conv (sgf (sgf f)) (dx y (dx x G)) l2 = - conv (sgf (sgf f)) (dx x (dx y G)) l2.
      { rewrite -convNr. apply: conv_ext => // b Hb. apply: (HG [::]). apply: leq_trans S. by rewrite /= !ltnS. }
      have E3 (a c : X) : conv (dx a (sgf f)) (dx c G) l2 = - conv (sgf (dx a f)) (dx c G) l2 by rewrite -convNl; apply: conv_ext => // b _; exact: dx_sgf.
      rewrite E1 E2 !E3 !opprK. rewrite -!addrA. congr (_ + _). rewrite addrA addrC [RHS]addrA [RHS]addrC. congr (_ + _). by rewrite addrC.
    - case: n Hf HG S => [|n] // Hf HG S. rewrite /= opprD. congr (_ + _).
      + apply: (IH n) => //; [exact: altn_dx|exact: altn_le HG].
      + apply: (IH n) => //; [apply: altn_sgf; exact: altn_le Hf|exact: altn_dx].
  Qed.
  Lemma moment_altn n lam : even lam -> altn n lam -> altn n (moment lam).
  Proof.
    move=> El. elim: n => [|n IH] Hl; first by move=> l1 x y l2; rewrite size_cat /= !addnS ltn0.
    move=> [|z l1] x y l2 S.
    - rewrite /= !moment_cons. do 2! (rewrite {1}[convK _ _ (_ :: _)]/convK (@conv_cons_odd _ _ [lmodType K of K^o]); last exact: even_dx).
      have E1 : cvo (dx y (dx x lam)) (moment lam) l2 = - cvo (dx x (dx y lam)) (moment lam) l2.
      { rewrite -convNl. apply: (@conv_ext _ _ [lmodType K of K^o]) => // b Hb. apply: (Hl [::]). apply: leq_trans S. by rewrite /= !ltnS. }
      have E2 (a c : X) : cvo (dx a lam) (dx c (moment lam)) l2 = cvo (dx a lam) (cvo (dx c lam) (moment lam)) l2.
      { apply: (@conv_ext _ _ [lmodType K of K^o]) => // b _. by rewrite /dx moment_cons. }
      rewrite E1 !E2 opprD. congr (_ + _). rewrite conv_swap_odd //; exact: even_dx.
    - rewrite /= !moment_cons. apply: (@conv_altn n _ [lmodType K of K^o]) => //.
      + exact: altn_dx. + apply: IH. exact: altn_le Hl.
  Qed.
  Lemma moment_alternating lam : even lam -> alternating -%R lam -> alternating -%R (moment lam).
  Proof. move=> El H. apply: altn_all => n. apply: moment_altn . exact: El. exact: all_altn. Qed.
  Lemma conv_alternating f (V : lmodType K) (G : seq X -> V) : alternating -%R f -> alternating -%R G -> alternating -%R (conv f G).
  Proof. move=> Hf HG. apply: altn_all => n. apply: conv_altn; exact: all_altn. Qed.

  (** ** Functions that vanish on words with letters of one kind *)
  Lemma exp_skip (P : pred X) lam (V : lmodType K) (G : seq X -> V) w0 w1 : even lam -> (forall b, has P b -> lam b = 0) -> all P w0 ->
    conv (moment lam) G (w0 ++ w1) = conv (moment lam) (fun u => G (w0 ++ u)) w1.
  Proof.
    move=> El Hl. elim: w0 G => [|x w0 IH] G; first by move=> _; apply: conv_ext.
    rewrite [all _ _]/= cat_cons. case/andP=> Px Pw. rewrite exp_cons // conv0l ?add0r; last by move=> b _; rewrite /dx Hl //= Px.
    by rewrite IH.
  Qed.
  Lemma moment_vanish (P : pred X) lam b : (forall b, has P b -> lam b = 0) -> has P b -> moment lam b = 0.
  Proof.
    move=> Hl. have [n] := ubnP (size b). elim: n b => // n IH [|x b] //= Hb Hp. rewrite moment_cons /convK conv_splits /split_sum.
    rewrite (@eq_big_In _ _ _ (fun _ => 0)) ?big1_eq // => p Hp'. have Sp := splits_size Hp'. rewrite /dx.
    case Px: (P x) Hp => /= Hp; first by rewrite Hl ?mulr0 ?scale0r //= Px.
    have Hs : has P b = has P p.1.2 || has P p.2.
    { elim: b p Hp' {Hb Hp Sp} => [|y b IHb] p /=; first by case=> // <-.
      move=> H. apply List.in_app_or in H. case: H => /in_map_iff [q [<- Hq]] /=; rewrite (IHb _ Hq); by [rewrite orbA|rewrite orbCA]. }
    move: Hp. rewrite Hs. case H1: (has P p.1.2) => /=; first by rewrite Hl ?mulr0 ?scale0r //= H1 orbT.
    move=> H2. rewrite IH ?scaler0 //. apply: (@leq_ltn_trans (size b)) => //. by rewrite -Sp leq_addl.
  Qed.
  Lemma conv_skip (P : pred X) f (V : lmodType K) (G : seq X -> V) w0 w1 : (forall b, has P b -> f b = 0) -> all P w1 ->
    conv f G (w0 ++ w1) = conv f (fun u => G (u ++ w1)) w0.
  Proof.
    move=> Hf P1. elim: w0 f G Hf => [|x w0 IH] f G Hf /=.
    - elim: w1 f G Hf P1 => [|y w1 IH] f G Hf //= /andP [Py P1]. rewrite conv0l ?add0r; last by move=> b _; rewrite /dx Hf //= Py.
      rewrite IH //; first by rewrite /sgf expr0 mul1r. move=> b Hb. by rewrite /sgf Hf ?mulr0.
    - rewrite !IH //. + move=> b Hb. by rewrite /sgf Hf ?mulr0. + move=> b Hb. by rewrite /dx Hf //= Hb orbT.
  Qed.
End Exp.
