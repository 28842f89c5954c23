(** C61: every such state has density cumulants. *)
Set Warnings "-notation-overridden,-ambiguous-paths".
From Coq Require Import ZArith List Lia Permutation Ascii.
From mathcomp Require Import all_ssreflect ssralg.
From Verif Require Import RegistryModel CoreModel OperatorModel DecModel WickSearchModel WickSearchSpec WickCombSpec WickLegSpec WickEvalModel SortSpec SortProofs ScalarSem LadderSpec CanonSemSpec WickMatchProofs WickProductSpec WickTheoremSpec WickProductProofs2 WickProductProofs3
  WickGeneralSpec WickConvProofs WickConvProofs2 WickGenProofs WickGenProofs3 WickGenProofs13 WickStateSpec WickStateProofs.
Set Implicit Arguments.
Unset Strict Implicit.
Unset Printing Implicit Defensive.
Import GRing.Theory.
Local Open Scope ring_scope.

Section Alt.
  Variables (K : fieldType) (X : Type).
  Hypothesis char2 : (2%:R : K) != 0.
  Lemma alt_move (F : seq X -> K) l1 x l2 l3 : alternating -%R F -> F (l1 ++ x :: l2 ++ l3) = (-1) ^+ size l2 * F (l1 ++ l2 ++ x :: l3).
  Proof.
    move=> Fa. elim: l2 l1 => [|y l2 IH] l1; first by rewrite /= mul1r.
    rewrite cat_cons (Fa l1 x y) /=. have := IH (l1 ++ [:: y]). rewrite -!catA /= => ->. by rewrite exprS mulN1r mulNr.
  Qed.
  Lemma alt_dup (F : seq X -> K) l1 x l2 l3 : alternating -%R F -> F (l1 ++ x :: l2 ++ x :: l3) = 0.
  Proof.
    move=> Fa. rewrite alt_move //. have E : F (l1 ++ l2 ++ x :: x :: l3) = - F (l1 ++ l2 ++ x :: x :: l3) by rewrite !catA; exact: Fa.
    have : F (l1 ++ l2 ++ x :: x :: l3) + F (l1 ++ l2 ++ x :: x :: l3) = 0 by rewrite {1}E addNr.
    rewrite -mulr2n -mulr_natl => /eqP. rewrite mulf_eq0 (negbTE char2) /= => /eqP ->. by rewrite mulr0.
  Qed.
  Lemma alt_map (Y : Type) (h : Y -> X) (F : seq X -> K) l r : alternating -%R F -> alternating -%R (fun c => F (l ++ map h c ++ r)).
  Proof. move=> Fa l1 x y l2. change (F (l ++ map h (cat l1 (x :: y :: l2)) ++ r) = - F (l ++ map h (cat l1 (y :: x :: l2)) ++ r)). rewrite !map_cat /= -!catA /= [X in F X]catA [X in - F X]catA. exact: Fa. Qed.
End Alt.
Lemma dup_split (X : eqType) (c : seq X) : ~~ uniq c -> exists l1 x l2 l3, c = l1 ++ x :: l2 ++ x :: l3.
Proof.
  elim: c => [|x c IH] //=. case E: (x \in c) => /= H.
  - case/splitPr: E => p1 p2. by exists [::], x, p1, p2.
  - have [l1 [y [l2 [l3 ->]]]] := IH H. by exists (x :: l1), y, l2, l3.
Qed.
Lemma alt_sort (K : fieldType) (orb : eqType) (F : seq (bool * (Z * orb)) -> K) b : alternating -%R F ->
  F b = (-1) ^+ exchanges b * F ([seq x <- b | x.1] ++ [seq x <- b | ~~ x.1]).
Proof.
  move=> Fa. have G : forall l, F (l ++ b) = (-1) ^+ exchanges b * F (l ++ [seq x <- b | x.1] ++ [seq x <- b | ~~ x.1]); last exact: (G [::]).
  elim: b => [|x b IH] l /=; first by rewrite mul1r. have := IH (l ++ [:: x]). rewrite -!catA /= => ->. case Ex: (x.1) => /=; first by rewrite add0n.
  rewrite exprD [_ ^+ count _ _ * _]mulrC -mulrA. congr (_ * _). by rewrite (@alt_move _ _ _ l x [seq x <- b | x.1]) // size_filter.
Qed.
Lemma filter_pair (X : Type) (b : seq (bool * X)) : [seq x <- b | x.1] = map (pair true) [seq x.2 | x <- b & x.1] /\ [seq x <- b | ~~ x.1] = map (pair false) [seq x.2 | x <- b & ~~ x.1].
Proof. split; elim: b => [|[c y] b IH] //=; by case: c => /=; rewrite {1}IH. Qed.

(** ** Tensors from any alternating function of words *)
Section Tensors.
  Variables (K : fieldType) (orb : eqType) (st : osi).
  Notation wletter := (bool * (Z * orb))%type.
  Variables (L : seq wletter -> K) (T0 : text -> seq (Z * orb) -> seq (Z * orb) -> bool -> K).
  Hypothesis La : alternating -%R L.
  Definition Lg (c a : seq (Z * orb)) : K := L (map (pair true) c ++ map (pair false) a).
  Definition textb (a b : text) : bool := if list_eq_dec ascii_dec a b then true else false.
  Definition one_body (g : Z * orb -> Z * orb -> K) (lo up : seq (Z * orb)) : K := match lo, up with [:: q], [:: p] => g p q | _, _ => 0 end.
  Definition state_tensors (label : text) (lo up : seq (Z * orb)) (cc : bool) : K :=
    if textb label gamma1_label then one_body (fun p q => Lg [:: p] [:: q]) lo up
    else if textb label eta1_label then one_body (fun p q => ((p.1 =? q.1)%Z && (p.2 == q.2))%:R - Lg [:: p] [:: q]) lo up
    else if textb (firstn (length lambda_label) label) lambda_label then Lg up (rev lo) else T0 label lo up cc.
  Lemma textbP a b : reflect (a = b) (textb a b).
  Proof. rewrite /textb. case: list_eq_dec => H; by constructor. Qed.
  Lemma text_lambda k : textb (firstn (length lambda_label) (lambda_text k)) lambda_label /\ textb (lambda_text k) gamma1_label = false /\ textb (lambda_text k) eta1_label = false.
  Proof.
    split; first by apply/textbP; rewrite /lambda_text firstn_app Nat.sub_diag List.app_nil_r firstn_all.
    by split; apply/textbP.
  Qed.
  Lemma alt_one (g : Z * orb -> Z * orb -> K) : (forall lo, alternating -%R (fun up => one_body g lo up)) /\ (forall up, alternating -%R (fun lo => one_body g lo up)).
  Proof.
    have Z1 (w : seq (Z * orb)) l1 x y l2 : one_body g w (l1 ++ x :: y :: l2) = 0 by case: w => [|? [|? ?]] //; case: l1 => [|? [|? ?]].
    have Z2 (w : seq (Z * orb)) l1 x y l2 : one_body g (l1 ++ x :: y :: l2) w = 0 by case: l1 => [|? [|? ?]].
    split=> w l1 x y l2; [change (one_body g w (l1 ++ x :: y :: l2) = - one_body g w (l1 ++ y :: x :: l2))|change (one_body g (l1 ++ x :: y :: l2) w = - one_body g (l1 ++ y :: x :: l2) w)]; by rewrite ?Z1 ?Z2 oppr0.
  Qed.
  Lemma alt_pairs : (forall lo, alternating -%R (fun up => Lg up (rev lo))) /\ (forall up, alternating -%R (fun lo => Lg up (rev lo))).
  Proof.
    split=> w; rewrite /Lg.
    - exact: (@alt_map K _ _ (pair true) L [::] (map (pair false) (rev w)) La).
    - apply: (alt_rev (f := fun lo => L (map (pair true) w ++ map (pair false) lo))). have := @alt_map K _ _ (pair false) L (map (pair true) w) [::] La.
      move=> H l1 x y l2. have := H l1 x y l2. by rewrite !cats0.
  Qed.
  Lemma state_densities : densities st state_tensors.
  Proof.
    split.
    - exact: alt_one.
    - exact: alt_one.
    - move=> k _. have [H1 [H2 H3]] := text_lambda k. rewrite /antisymmetric_tensor /state_tensors H1 H2 H3. exact: alt_pairs.
    - move=> s p q _ _. rewrite /state_tensors /=. by rewrite Z.eqb_refl.
  Qed.
  Lemma other_tensors label : label <> gamma1_label -> label <> eta1_label -> (forall t, label <> (lambda_label ++ t)%list) -> state_tensors label = T0 label.
  Proof.
    move=> H1 H2 H3. rewrite /state_tensors. do 2! (case: textbP => // _). case: textbP => // E. case: (H3 (skipn (length lambda_label) label)). by rewrite -{1}(firstn_skipn (length lambda_label) label) E.
  Qed.
  Variable maxc : nat.
  Notation cum := (cumulant st state_tensors maxc).
  (** On words of one general space the cumulants of these tensors are [L]. *)
  Lemma state_cumulant s b : stype st s = Some General -> all (fun x : wletter => (x.2.1 =? s)%Z) b -> b <> [::] ->
    (count (fun x : wletter => x.1) b <> count (fun x : wletter => ~~ x.1) b -> L b = 0) -> ((maxc < count (fun x : wletter => x.1) b)%N -> L b = 0) -> cum b = L b.
  Proof.
    move=> Gs Sb Nb H1 H2. rewrite cumE //. have -> : samesp b = true. 
    { move: Sb. case: (b) => [|x c] //= /andP [/Z.eqb_eq Ex Sc]. rewrite Z.eqb_refl Ex /=. exact: Sc. }
    have -> : spc b = s by move: Sb Nb; case: (b) => [|x c] //= /andP [/Z.eqb_eq].
    rewrite Gs /= !size_map !size_filter. case: eqP => [E|N]; last by rewrite H1.
    have Ek : (0 < count (fun x : wletter => x.1) b)%N.
    { rewrite lt0n. apply/eqP => E0. apply: Nb. apply/nilP. rewrite /nilp -(count_predC (fun x : wletter => x.1) b) E0. move: E. rewrite E0. by rewrite /predC /= => <-. }
    have AS : L b = (-1) ^+ exchanges b * Lg [seq x.2 | x <- b & x.1] [seq x.2 | x <- b & ~~ x.1] by have [F1 F2] := filter_pair b; rewrite /Lg -F1 -F2; exact: alt_sort.
    case: (ltnP maxc (count (fun x : wletter => x.1) b)) => K3.
    { rewrite (H2 K3). case: eqP => [K1|_]; last by rewrite andbF mulr0. 
      have : L b = 0 := H2 K3. rewrite AS => /eqP. rewrite mulf_eq0 signr_eq0 /= => /eqP X0.
      have : size [seq x.2 | x <- b & x.1] = 1%N by rewrite size_map size_filter. have : size [seq x.2 | x <- b & ~~ x.1] = 1%N by rewrite size_map size_filter -E.
      move: X0. rewrite /state_tensors /= /one_body. case: ([seq x.2 | x <- b & ~~ x.1]) => [|q [|]] //; case: ([seq x.2 | x <- b & x.1]) => [|p [|]] //; rewrite /Lg /= => -> _ _; by rewrite mulr0. }
    rewrite AS. congr (_ * _). case: eqP => [K1|K1].
    - have : size [seq x.2 | x <- b & x.1] = 1%N by rewrite size_map size_filter. have : size [seq x.2 | x <- b & ~~ x.1] = 1%N by rewrite size_map size_filter -E.
      rewrite /state_tensors /= /one_body. case: ([seq x.2 | x <- b & ~~ x.1]) => [|q [|]] //; case: ([seq x.2 | x <- b & x.1]) => [|p [|]] //.
    - rewrite andbT ltn_neqAle Ek andbT eq_sym. move/eqP: K1 => -> /=.
      have [T1 [T2 T3]] := text_lambda (count (fun x : wletter => x.1) b). by rewrite /state_tensors T1 T2 T3 revK.
  Qed.
End Tensors.
