(** C61: generalized normal-ordered products of words; cumulants are antisymmetric. *)
Set Warnings "-notation-overridden,-ambiguous-paths".
From Coq Require Import ZArith List Lia Permutation.
From mathcomp Require Import all_ssreflect ssralg.
From Verif Require Import RationalModel RegistryModel CoreModel OperatorModel DecModel SortSpec SortProofs ScalarSem LadderSpec CanonSemSpec WickSearchModel WickSearchSpec WickCombSpec WickLegSpec
  WickProductSpec WickTheoremSpec WickMatchProofs WickProductProofs2 WickProductProofs3 WickGeneralSpec WickConvProofs WickConvProofs2.
Set Implicit Arguments.
Unset Strict Implicit.
Unset Printing Implicit Defensive.
Import GRing.Theory.
Local Open Scope ring_scope.

Section Map.
  Variables (K : fieldType) (X Y : Type) (h : X -> Y).
  Notation mh := (List.map h).
  Lemma conv_map (V : lmodType K) f (G : seq Y -> V) w : conv f G (mh w) = conv (fun b => f (mh b)) (fun b => G (mh b)) w.
  Proof.
    elim: w f G => [|x w IH] f G //=. rewrite !IH. congr (_ + _). apply: conv_ext => // b _. rewrite /sgf. by have -> : size (mh b) = size b by elim: b => //= ? ? ->.
  Qed.
  Lemma moment_map (lam : seq Y -> K) w : moment lam (mh w) = moment (fun b => lam (mh b)) w.
  Proof.
    have [n] := ubnP (size w). elim: n w => // n IH [|x w] //= Hw. rewrite !moment_cons /convK conv_map. 
    apply: convK_ext => // b Hb. apply: IH. exact: leq_ltn_trans Hb Hw.
  Qed.
  Lemma exp_map (V : lmodType K) lam (G : seq Y -> V) w : conv (moment lam) G (mh w) = conv (moment (fun b => lam (mh b))) (fun b => G (mh b)) w.
  Proof. rewrite conv_map. apply: conv_ext => // b _. exact: moment_map. Qed.
End Map.

Section Words.
  Variables (K : fieldType) (A : algType K) (orb : eqType) (st : osi) (cre ann : Z -> orb -> A).
  Hypothesis HL : ladder_relations st cre ann.
  Hypothesis HS : multi_reference st.
  Notation wletter := (bool * (Z * orb))%type.
  Notation wlad := (wlad st cre ann).
  Definition gd (x y : wletter) : K := [&& regb st x.2.1, (x.2.1 =? y.2.1)%Z, ~~ x.1, y.1 & x.2.2 == y.2.2]%:R.
  Lemma gexch s t : registered st s -> registered st t -> exch K st s t = -1.
  Proof. move=> Hs Ht. rewrite /exch. have [-> _] := HS Hs. by have [-> _] := HS Ht. Qed.
  Lemma glad_rel x y : regb st x.2.1 -> regb st y.2.1 ->
    wlad x * wlad y = (if x.1 (+) y.1 then (x.2.1 =? y.2.1)%Z && (x.2.2 == y.2.2) else false)%:R%:A - wlad y * wlad x.
  Proof.
    case: x => [bx [sx px]]; case: y => [by_ [sy py]]. rewrite /WickProductProofs3.wlad /ladder /= => Rx Ry. rewrite Rx Ry.
    have Hx := regP Rx. have Hy := regP Ry. rewrite b2r. case: bx; case: by_ => /=.
    - by rewrite sub0r (rel_cc HL) // gexch // scaleN1r.
    - rewrite (rel_ac HL) // gexch // scaleN1r opprD opprK addrA Z.eqb_sym eq_sym. by rewrite subrr add0r.
    - by rewrite (rel_ac HL) // gexch // scaleN1r.
    - by rewrite sub0r (rel_aa HL) // gexch // scaleN1r.
  Qed.
  Lemma gH1 (x y : wletter) : x.1 = y.1 -> wlad x * wlad y = - (wlad y * wlad x).
  Proof.
    move=> E. case Rx: (regb st x.2.1); last by rewrite /WickProductProofs3.wlad Rx mul0r mulr0 oppr0.
    case Ry: (regb st y.2.1); last by rewrite /WickProductProofs3.wlad Ry mul0r mulr0 oppr0.
    by rewrite glad_rel // E addbb scale0r sub0r.
  Qed.
  Lemma gH2 x y : x.1 = false -> wlad x * wlad y = (gd x y)%:A - wlad y * wlad x.
  Proof.
    move=> E. case Rx: (regb st x.2.1); last by rewrite /WickProductProofs3.wlad /gd Rx /= scale0r mul0r mulr0 subr0.
    case Ry: (regb st y.2.1).
    - rewrite glad_rel // /gd Rx E /=. by case: y.1; case: (_ =? _)%Z.
    - have -> : gd x y = 0. { rewrite /gd. case: (Z.eqb_spec x.2.1 y.2.1) => Es; last by rewrite andbF. by rewrite Es Ry in Rx. }
      by rewrite /WickProductProofs3.wlad Ry scale0r mul0r mulr0 subr0.
  Qed.
  Lemma gH4 (x y : wletter) : x.1 = true -> gd x y = 0.
  Proof. by rewrite /gd => ->; rewrite /= !andbF. Qed.
  Lemma gH5 (x y : wletter) : y.1 = false -> gd x y = 0.
  Proof. by rewrite /gd => ->; rewrite /= !andbF. Qed.
  Notation vac := (npr wlad fst).
  Lemma vac_alternating : alternating -%R vac.
  Proof. apply: npr_alternating. exact: gH1. Qed.
  Lemma vac_product w : (forall x, In x w -> registered st x.2.1) -> vac w = vacuum_product cre ann w.
  Proof.
    elim: w => [|x w IH] H //=. rewrite IH; last by move=> y Hy; apply: H; right.
    by rewrite /WickProductProofs3.wlad regI //; apply: H; left.
  Qed.

  (** Any even cumulants. *)
  Variable lam : seq wletter -> K.
  Hypothesis El : even lam.
  Definition NG (w : seq wletter) : A := conv (moment (fun b => - lam b)) vac w.
  Lemma NG_vac w : vac w = conv (moment lam) NG w.
  Proof. by rewrite /NG exp_inv'. Qed.
  Lemma NG_alternating : alternating -%R lam -> alternating -%R NG.
  Proof.
    move=> Al. apply: conv_alternating vac_alternating. apply: moment_alternating; first by move=> b O; rewrite El ?oppr0.
    move=> l1 x y l2. by rewrite Al.
  Qed.
  Lemma all_reg w : (forall x, In x w -> registered st x.2.1) -> all (fun x : wletter => regb st x.2.1) w.
  Proof. elim: w => [|x w IH] H //=. rewrite regI ?IH //; [|apply: H; by left]. move=> y Hy. apply: H. by right. Qed.
  Lemma reg_all w : all (fun x : wletter => regb st x.2.1) w -> forall x, In x w -> registered st x.2.1.
  Proof. elim: w => [|x w IH] //= /andP [Hx Hw] y [<-|Hy]; [exact: regP|exact: IH]. Qed.
  Lemma NG_unique (N : seq wletter -> A) : (forall w, (forall x, In x w -> registered st x.2.1) -> vacuum_product cre ann w = conv (moment lam) N w) ->
    forall w, (forall x, In x w -> registered st x.2.1) -> NG w = N w.
  Proof.
    move=> H w Hw. rewrite /NG -[RHS](exp_inv N w El). apply: (conv_extQ (all_reg Hw)) => // b Hb. rewrite vac_product ?H //; exact: reg_all.
  Qed.
  Lemma NG_exists w : (forall x, In x w -> registered st x.2.1) -> vacuum_product cre ann w = conv (moment lam) NG w.
  Proof. move=> H. by rewrite -NG_vac vac_product. Qed.
End Words.

Section Cumulant.
  Variables (K : fieldType) (orb : eqType) (st : osi) (T : text -> seq (Z * orb) -> seq (Z * orb) -> bool -> K) (maxc : nat).
  Notation wletter := (bool * (Z * orb))%type.
  Notation cum := (cumulant st T maxc).
  Lemma cum_even : even cum.
  Proof.
    move=> [|x b] // O. rewrite /cumulant. case: ifP => // /andP [_ /eqP E]. exfalso. move: O.
    rewrite -(count_predC (fun y : wletter => y.1) (x :: b)). move: E. rewrite !size_map !size_filter => ->.
    by rewrite oddD addbb.
  Qed.
  Hypothesis HD : densities st T.
  Lemma exchanges_swap l1 (x y : wletter) l2 : x.1 = y.1 -> exchanges (l1 ++ x :: y :: l2) = exchanges (l1 ++ y :: x :: l2).
  Proof. move=> E. elim: l1 => [|z l1 IH] /=; first by rewrite E. by rewrite IH !count_cat /= E. Qed.
  Lemma exchanges_cross l1 (x y : wletter) l2 : x.1 -> y.1 = false -> exchanges (l1 ++ y :: x :: l2) = (exchanges (l1 ++ x :: y :: l2)).+1.
  Proof. move=> Ex Ey. elim: l1 => [|z l1 IH] /=; first by rewrite Ex Ey /= add1n. by rewrite IH !count_cat /= Ex Ey /= addnS. Qed.
  Definition samesp (b : seq wletter) : bool := if b is x :: _ then all (fun y => (y.2.1 =? x.2.1)%Z) b else true.
  Definition spc (b : seq wletter) : Z := if b is x :: _ then x.2.1 else 0%Z.
  Lemma samesp_swap l1 (x y : wletter) l2 : samesp (l1 ++ x :: y :: l2) -> samesp (l1 ++ y :: x :: l2) /\ spc (l1 ++ x :: y :: l2) = spc (l1 ++ y :: x :: l2).
  Proof.
    case: l1 => [|z l1] /=.
    - rewrite !Z.eqb_refl /= => /andP [/Z.eqb_eq -> ->]. by rewrite Z.eqb_refl.
    - rewrite !all_cat /= => /andP [-> /andP [-> /and3P [-> -> ->]]]. by [].
  Qed.
  Lemma cumE b : b <> [::] -> cum b = if samesp b && (size [seq x.2 | x <- b & x.1] == size [seq x.2 | x <- b & ~~ x.1]) then (-1) ^+ exchanges b * density T maxc (stype st (spc b)) [seq x.2 | x <- b & x.1] [seq x.2 | x <- b & ~~ x.1] else 0.
  Proof. by case: b. Qed.
  Lemma filter_one (p : pred wletter) l1 x y l2 : p x = false \/ p y = false -> [seq z <- l1 ++ x :: y :: l2 | p z] = [seq z <- l1 ++ y :: x :: l2 | p z].
  Proof. rewrite !filter_cat /=. by case=> ->; case: (p _). Qed.
  Lemma filter_two (p : pred wletter) l1 x y l2 : p x -> p y -> [seq z <- l1 ++ x :: y :: l2 | p z] = [seq z <- l1 | p z] ++ x :: y :: [seq z <- l2 | p z].
  Proof. by rewrite !filter_cat /= => -> ->. Qed.
  Lemma alt_rev (V : zmodType) (X : Type) (f : seq X -> V) : alternating -%R f -> alternating -%R (fun l => f (rev l)).
  Proof.
    move=> H l1 x y l2. rewrite -!/(cat _ _) !rev_cat !rev_cons -!cats1 -!catA /=. exact: H.
  Qed.
  Lemma density_cre ty c1 p q c2 a : size (c1 ++ p :: q :: c2) = size a -> density T maxc ty (c1 ++ p :: q :: c2) a = - density T maxc ty (c1 ++ q :: p :: c2) a.
  Proof.
    rewrite /density. have E : size (c1 ++ q :: p :: c2) = size (c1 ++ p :: q :: c2) by rewrite !size_cat. rewrite E => Es.
    case: ty => [[| |]|] /=; rewrite ?oppr0 //.
    - by case: c1 {E Es} => [|? [|? ?]]; rewrite ?oppr0.
    - have -> : size (c1 ++ p :: q :: c2) == 1%N = false by apply/negbTE; rewrite size_cat /= !addnS.
      case: ifP => [/andP [H _]|]; last by rewrite oppr0. have [X _] := den_lambda HD H. exact: X.
  Qed.
  Lemma density_ann ty c a1 p q a2 : size c = size (a1 ++ p :: q :: a2) -> density T maxc ty c (a1 ++ p :: q :: a2) = - density T maxc ty c (a1 ++ q :: p :: a2).
  Proof.
    rewrite /density => Es. case: ty => [[| |]|] /=; rewrite ?oppr0 //.
    - case: c Es => [|? [|? ?]]; rewrite ?oppr0 //. by case: a1 => [|? [|? ?]]; rewrite ?oppr0.
    - have -> : size c == 1%N = false by apply/negbTE; rewrite Es size_cat /= !addnS.
      case: ifP => [/andP [H _]|]; last by rewrite oppr0. have [_ X] := den_lambda HD H. exact: (alt_rev (X c)).
  Qed.
  Lemma cum_alternating : alternating -%R cum.
  Proof.
    move=> l1 x y l2. rewrite -!/(cat _ _). have N u v : l1 ++ u :: v :: l2 <> [::] by case: l1.
    rewrite !cumE //. case Sx: (samesp (l1 ++ x :: y :: l2)); last first.
    { have -> : samesp (l1 ++ y :: x :: l2) = false by apply/negP => /samesp_swap [H _]; rewrite H in Sx. by rewrite oppr0. }
    have [-> <-] := samesp_swap Sx. rewrite /=.
    have Ec : size [seq z.2 | z <- l1 ++ y :: x :: l2 & z.1] = size [seq z.2 | z <- l1 ++ x :: y :: l2 & z.1].
    { rewrite !size_map !size_filter !count_cat /=. congr (_ + _)%N. exact: addnCA. }
    have Ea : size [seq z.2 | z <- l1 ++ y :: x :: l2 & ~~ z.1] = size [seq z.2 | z <- l1 ++ x :: y :: l2 & ~~ z.1].
    { rewrite !size_map !size_filter !count_cat /=. congr (_ + _)%N. exact: addnCA. }
    rewrite Ec Ea. case: eqP => [Es|]; last by rewrite oppr0. case Cx: (x.1); case Cy: (y.1).
    - rewrite (@exchanges_swap l1 x y) ?Cx ?Cy // -mulrN. congr (_ * _).
      rewrite (@filter_one (fun z => ~~ z.1) l1 x y) ?Cx; last by left. 
      rewrite (@filter_two fst l1 y x) ?Cx ?Cy // (@filter_two fst l1 x y) ?Cx ?Cy // in Es *. rewrite !map_cat /= in Es *. apply: density_cre.
      rewrite Es. rewrite !size_map !size_filter !count_cat /=. congr (_ + _)%N. exact: addnCA.
    - rewrite (@filter_one fst l1 x y) ?Cy; last by right. rewrite (@filter_one (fun z => ~~ z.1) l1 x y) ?Cx; last by left.
      by rewrite (@exchanges_cross l1 x y) // exprS mulN1r mulNr opprK.
    - rewrite (@filter_one fst l1 x y) ?Cx; last by left. rewrite (@filter_one (fun z => ~~ z.1) l1 x y) ?Cy; last by right.
      by rewrite (@exchanges_cross l1 y x) // exprS mulN1r mulNr.
    - rewrite (@exchanges_swap l1 x y) ?Cx ?Cy // -mulrN. congr (_ * _).
      rewrite (@filter_one fst l1 x y) ?Cx; last by left.
      rewrite (@filter_two (fun z => ~~ z.1) l1 y x) ?Cx ?Cy // (@filter_two (fun z => ~~ z.1) l1 x y) ?Cx ?Cy // in Es *. rewrite !map_cat /= in Es *. apply: density_ann.
      rewrite -Es. rewrite !size_map !size_filter !count_cat /=. congr (_ + _)%N. exact: addnCA.
  Qed.
End Cumulant.
