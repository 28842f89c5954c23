(** C61: with at most one general space the spaces are independent. *)
Set Warnings "-notation-overridden,-ambiguous-paths".
From Coq Require Import ZArith List Lia Permutation.
From mathcomp Require Import all_ssreflect ssralg.
From Verif Require Import SignPerm RegistryModel CoreModel OperatorModel DecModel WickSearchModel WickSearchSpec WickCombSpec WickLegSpec WickEvalModel SortSpec SortProofs ScalarSem LadderSpec CanonSemSpec WickMatchProofs WickProductSpec WickTheoremSpec WickProductProofs2 WickProductProofs3
  WickGeneralSpec WickConvProofs WickConvProofs2 WickGenProofs WickGenProofs3 WickGenProofs13 WickStateSpec WickStateProofs WickStateProofs2 WickStateProofs3.
Set Implicit Arguments.
Unset Strict Implicit.
Unset Printing Implicit Defensive.
Import GRing.Theory.
Local Open Scope ring_scope.

Section One.
  Variables (K : fieldType) (A : algType K) (orb : finType) (st : osi) (cre ann : Z -> orb -> A).
  Hypothesis HL : ladder_relations st cre ann.
  Hypothesis HS : multi_reference st.
  Variable f : {linear A -> K^o}.
  Hypothesis Hf : active_state st cre ann f.
  Notation wletter := (bool * (Z * orb))%type.
  Notation wlad := (wlad st cre ann).
  Notation reg := (fun x : wletter => regb st x.2.1).
  Notation WP := (word_product cre ann).
  Notation NP := (npr wlad predT).
  Notation D := (reg2 K st (orb := orb)).
  Lemma NP_WP w : all reg w -> NP w = WP w.
  Proof. elim: w => [|x w IH] /=; first by rewrite /word_product big_nil. move=> /andP [Rx /IH ->]. by rewrite /word_product big_cons /WickProductProofs3.wlad Rx. Qed.
  Definition det (x : wletter) : bool := regb st x.2.1 && (if stype st x.2.1 is Some General then false else true).
  Lemma conv_extS (V : lmodType K) (Q : pred wletter) (g : seq wletter -> K) (G G' : seq wletter -> V) w : all Q w -> (forall b, all Q b -> (size b <= size w)%N -> G b = G' b) -> conv g G w = conv g G' w.
  Proof.
    move=> Qw H. rewrite (@conv_extQ _ _ _ Q g g G (fun b => if all Q b then G b else 0) w) // => [|b ->] //.
    rewrite [RHS](@conv_extQ _ _ _ Q g g G' (fun b => if all Q b then G' b else 0) w) // => [|b ->] //.
    apply: conv_ext => // b Hb. case: ifP => // Qb. exact: H.
  Qed.
  Lemma det_odd w : all det w -> odd (size w) -> f (NP w) = 0.
  Proof.
    have [n] := ubnP (size w). elim: n w => // n IH [|x w] //. rewrite [size _]/= ltnS => Hn /= /andP [/andP [Rx Gx] Dw] O.
    have Nx : stype st x.2.1 <> Some General by case: (stype st x.2.1) Gx => // -[].
    have Wx : wlad x = ladder cre ann x by rewrite /WickProductProofs3.wlad Rx.
    case E: (makes_excitation st x); first by rewrite Wx (act_left Hf) //; exact: regP.
    rewrite (move_any (anticomm HL HS)) linearD linearZ /= {1}Wx (act_right Hf) ?scaler0 ?add0r //; [|exact: regP|by rewrite E].
    rewrite linear_conv. rewrite (@conv_extS _ det _ _ (fun b => if odd (size b) then 0 else f (NP b)) w) //; last first.
    { move=> b Db Hb. case: ifP => // Ob. apply: IH => //. exact: leq_ltn_trans Hb Hn. }
    rewrite conv_splits /split_sum (@eq_big_In _ _ _ (fun _ => 0)) ?big1_eq // => p /splits_size Sp.
    case E2: (p.1.2) Sp => [|y [|z b]] Sp; rewrite ?mulr0 ?scale0r //. move: O. rewrite -Sp /= negbK => ->. by rewrite scaler0.
  Qed.
  (** Letters of [Q] anticommute with letters of other spaces. *)
  Lemma pass (Q : pred wletter) x U : (forall y z : wletter, y.2.1 = z.2.1 -> Q y = Q z) -> Q x -> all (predC Q) U -> wlad x * NP U = (-1) ^+ size U *: (NP U * wlad x).
  Proof.
    move=> HQ Qx QU. rewrite (move_any (anticomm HL HS)). rewrite (@conv_extQ _ _ _ (predC Q) _ (fun _ => 0) _ NP U) //; last first.
    { move=> [|y [|z b]] //=. rewrite andbT => Qy. rewrite /reg2. case: Z.eqb_spec => Es; last by rewrite !andbF. by rewrite -(HQ _ _ Es) Qx in Qy. }
    by rewrite conv0l // addr0.
  Qed.
  Lemma indep_right (Q : pred wletter) U V : (forall y z : wletter, y.2.1 = z.2.1 -> Q y = Q z) -> all (predC Q) U -> all Q V -> all det V -> f (NP U * NP V) = f (NP U) * f (NP V) :> K.
  Proof.
    move=> HQ QU. have [n] := ubnP (size V). elim: n V => // n IH [|x V]; first by rewrite /= mulr1 (act_one Hf) mulr1.
    rewrite [size _]/= ltnS => Hn. rewrite ![all _ (x :: V)]/= => /andP [Qx QV] /andP [/andP [Rx Gx] DV]. rewrite [NP (x :: V)]/=.
    have Nx : stype st x.2.1 <> Some General by case: (stype st x.2.1) Gx => // -[].
    have Wx : wlad x = ladder cre ann x by rewrite /WickProductProofs3.wlad Rx. have Rx' := regP Rx.
    case E: (makes_excitation st x).
    - rewrite {2}Wx (act_left Hf) // mulr0.
      have -> : NP U * (wlad x * NP V) = (-1) ^+ size U *: ((wlad x * NP U) * NP V) by rewrite (pass HQ Qx QU) -scalerAl scalerA -exprMn mulrNN mulr1 expr1n scale1r mulrA.
      by rewrite -mulrA linearZ /= Wx (act_left Hf) // scaler0.
    - rewrite (move_any (anticomm HL HS)) mulrDr !linearD -scalerAr !linearZ /= !mulrA !Wx !(act_right Hf) ?E // !scaler0 !add0r -conv_mull !linear_conv.
      have QD : all (fun y => Q y && det y) V by elim: (V) QV DV => [|y l IHl] //= /andP [-> Ql] /andP [Dy Dl]; rewrite Dy; exact: IHl.
      rewrite (@conv_extS _ _ _ _ (fun b => f (NP U) * f (NP b) : K^o) V QD); last first.
      { move=> b Hb Sb. have [Qb Db] : all Q b /\ all det b by elim: (b) Hb => [|y l IHl] //= /andP [/andP [-> ->] /IHl [-> ->]]. apply: IH => //. exact: leq_ltn_trans Sb Hn. }
      rewrite !conv_splits /split_sum mulr_sumr. apply: eq_bigr => p _. exact: mulrCA.
  Qed.
  Lemma swap_words (Q : pred wletter) U V : (forall y z : wletter, y.2.1 = z.2.1 -> Q y = Q z) -> all (predC Q) U -> all Q V -> NP V * NP U = (-1) ^+ (size U * size V) *: (NP U * NP V).
  Proof.
    move=> HQ QU. elim: V => [|x V IH]; first by rewrite /= muln0 expr0 scale1r mul1r mulr1. rewrite [all _ _]/= => /andP [Qx /IH E].
    have -> : NP (x :: V) * NP U = wlad x * (NP V * NP U) by rewrite mulrA. rewrite E -scalerAr. have -> : wlad x * (NP U * NP V) = (-1) ^+ size U *: (NP U * NP (x :: V)) by rewrite mulrA (pass HQ Qx QU) -scalerAl -mulrA.
    by rewrite scalerA [size (_ :: _)]/= mulnS exprD mulrC.
  Qed.
  Lemma indep_left (Q : pred wletter) U V : (forall y z : wletter, y.2.1 = z.2.1 -> Q y = Q z) -> all (predC Q) U -> all Q V -> all det V -> f (NP V * NP U) = f (NP V) * f (NP U) :> K.
  Proof.
    move=> HQ QU QV DV. rewrite (swap_words HQ) // linearZ /= (indep_right HQ) //. case O: (odd (size V)); first by rewrite (det_odd DV O) mulr0 mul0r scaler0.
    by rewrite -signr_odd oddM O andbF scale1r mulrC.
  Qed.
  Hypothesis H1 : forall s s', registered st s -> registered st s' -> stype st s = Some General -> stype st s' = Some General -> s = s'.
  Lemma one_general : independent_spaces st cre ann f.
  Proof.
    move=> u v Ru Rv Duv. have Au : all reg u by apply: In_all => x /Ru; exact: regI. have Av : all reg v by apply: In_all => x /Rv; exact: regI.
    rewrite -!NP_WP //.
    pose Q (x : wletter) := has (fun y : wletter => (y.2.1 =? x.2.1)%Z) v.
    have HQ (y z : wletter) : y.2.1 = z.2.1 -> Q y = Q z by rewrite /Q => ->.
    have Qv : all Q v. { apply: In_all => x Hx. rewrite /Q. elim: (v) Hx => [|y l IH] //= [->|/IH ->]; rewrite ?Z.eqb_refl ?orbT //. }
    have Qu : all (predC Q) u. { apply: In_all => x Hx. apply/negP => /has_In [y Hy /Z.eqb_eq E]. by case: (Duv x y Hx Hy). }
    case Dv: (all det v); first exact: (indep_right HQ).
    have Du : all det u.
    { apply: In_all => x Hx. rewrite /det (regI (Ru _ Hx)) /=. case Sx: (stype st x.2.1) => [[| |]|] //.
      move/negP: Dv => []. apply: In_all => y Hy. rewrite /det (regI (Rv _ Hy)) /=. case Sy: (stype st y.2.1) => [[| |]|] //.
      case: (Duv x y Hx Hy). exact: (H1 (Ru _ Hx) (Rv _ Hy)). }
    apply: (indep_left (Q := predC Q)) => //; first by move=> y z /HQ E; rewrite /predC /= E. apply: (sub_all _ Qv) => x Hx. by rewrite /predC /= negbK.
  Qed.
End One.
