(** Vacuum normal ordering preserves the operator denoted. *)
Set Warnings "-notation-overridden,-ambiguous-paths".
From Coq Require Import ZArith List.
From mathcomp Require Import all_ssreflect ssralg.
From Verif Require Import Res RationalModel RationalSpec RationalProofs RegistryModel CoreModel OrderProofs AlgebraModel AlgebraSpec AlgebraProofs AlgebraProofs2 SortSpec NormalOrderModel NormalOrderProofs NormalOrderProofs2 ScalarSem LadderSpec.
Set Implicit Arguments.
Unset Strict Implicit.
Unset Printing Implicit Defensive.
Import GRing.Theory.
Local Open Scope ring_scope.

Lemma and_intro (b c : bool) : b = true -> c = true -> b && c = true. Proof. by move=> -> ->. Qed.

Section Proofs.
  Variables (K : fieldType) (A : algType K) (orb : eqType) (st : osi) (cre ann : Z -> orb -> A).
  Hypothesis charK : [char K] =i pred0.
  Hypothesis REL : ladder_relations st cre ann.
  Variable phi : index -> orb.
  Variable T : tensor_values K.
  Hypothesis DEL : delta_values phi T.
  Notation od := (op_den cre ann phi).
  Notation osd := (ops_den cre ann phi).
  Notation td := (term_den cre ann phi T).

  Lemma osd_app l1 l2 : osd (l1 ++ l2) = osd l1 * osd l2.
  Proof. by rewrite /ops_den big_cat. Qed.
  Lemma osd_cons o l : osd (o :: l) = od o * osd l.
  Proof. by rewrite /ops_den big_cons. Qed.
  Lemma osd_nil : osd [::] = 1. Proof. by rewrite /ops_den big_nil. Qed.

  Lemma exch_cf a b : exch K st (s_space a) (s_space b) = zr K (commutator_factor st a b).
  Proof.
    rewrite /exch /commutator_factor /both_fermions /s_field.
    case: (field_of st (s_space a)); case: (field_of st (s_space b)) => //=.
  Qed.

  (** The contraction of an inverted pair. *)
  Definition contr (a b : sqop) : K :=
    (~~ Bool.eqb (s_cre a) (s_cre b) && (s_space a =? s_space b)%Z && (phi (s_idx a) == phi (s_idx b)))%:R.
  Lemma pair_rule a b : registered st (s_space a) -> registered st (s_space b) -> sqop_ltb b a = true ->
    od a * od b = contr a b *: 1 + zr K (commutator_factor st a b) *: (od b * od a).
  Proof.
    move=> Ra Rb H. rewrite -exch_cf /contr /op_den /sqop_ltb in H *.
    case Ea: (s_cre a) H; case Eb: (s_cre b) => //= H.
    - by rewrite scale0r add0r (rel_cc REL).
    - by rewrite (rel_ac REL) //; congr (_ + _); case: (_ && _); rewrite ?scale1r ?scale0r.
    - by rewrite scale0r add0r (rel_aa REL).
  Qed.

  Lemma zero_rule a : registered st (s_space a) -> both_fermions st a a = true -> od a * od a = 0.
  Proof.
    move=> Ra H. have E : od a * od a = - (od a * od a).
    { have X : exch K st (s_space a) (s_space a) = -1.
      { rewrite exch_cf /commutator_factor H. by rewrite /zr. }
      rewrite /op_den; case: (s_cre a); [rewrite {1}(rel_cc REL)//|rewrite {1}(rel_aa REL)//]; by rewrite X scaleN1r. }
    have H2 : (2%:R : K) *: (od a * od a) = 0.
    { by rewrite -[2%:R]/(1 + 1) scalerDl scale1r {1}E addNr. }
    have N2 : (2%:R : K) != 0 by apply: (natK_neq0 charK).
    by rewrite -[LHS](scalerK N2) H2 scaler0.
  Qed.

  Lemma contr_tensor (only : bool) a b : sqop_ltb b a = true -> (only -> distinct_values phi) ->
    (if contracts only a b then tens_den T (delta_tensors a b) else 0) = contr a b.
  Proof.
    move=> Hlt Honly. rewrite /contracts /contr.
    have [Ec|Ec] := boolP (~~ Bool.eqb (s_cre a) (s_cre b)); last by [].
    have [Es|Es] := boolP (s_space a =? s_space b)%Z; last by rewrite andbF.
    have Es' : isp (s_idx a) = isp (s_idx b) by apply/Z.eqb_eq.
    rewrite /= /delta_tensors. have [Ei|Ei] := boolP (index_eqb (s_idx a) (s_idx b)).
    - rewrite orbT. have -> : s_idx a = s_idx b by apply/index_eqb_eq. by rewrite /tens_den big_nil eqxx.
    - rewrite orbF. have Cr : s_cre b = true /\ s_cre a = false.
      { move: Hlt Ec. rewrite /sqop_ltb. by case: (s_cre a); case: (s_cre b). }
      case: Cr => -> Ea. case: only Honly => Honly /=.
      + case: (phi _ =P phi _) => // E. move: Ei. by rewrite (Honly isT _ _ Es' E) index_eqb_refl.
      + by rewrite /tens_den big_cons big_nil mulr1 /tensor_elem /= DEL.
  Qed.

  Lemma forall_mid (Q : sqop -> Prop) pre a b post : Forall Q (pre ++ a :: b :: post) -> Q a /\ Q b /\ Forall Q (pre ++ b :: a :: post) /\ Forall Q (pre ++ post).
  Proof.
    move=> /List.Forall_app [H1 H2]. inversion H2 as [|? ? Qa H3]; subst. inversion H3 as [|? ? Qb H4]; subst.
    split=> //; split=> //; split; apply/List.Forall_app; split=> //. by constructor=> //; constructor.
  Qed.

  Theorem vno_run_den (only : bool) t c l : vno_run st only t c l -> (only -> distinct_values phi) ->
    term_registered st t -> den c <> 0%Z -> rsum td l = ratK K c *: td t.
  Proof.
    move=> H Honly. elim: H => {t c l}.
    - by move=> t c _ _ _ _ /=; rewrite addr0.
    - move=> t c pre a b post E Eab HB Reg _ /=. move: Reg; rewrite /term_registered E => /forall_mid [Ra _].
      rewrite /term_den E osd_app !osd_cons !mulrA -(mulrA _ (od a)) -Eab zero_rule //; last by rewrite {2}Eab.
      by rewrite mulr0 mul0r !scaler0.
    - move=> t c pre a b post l E Hlt HC _ IH Reg Hc. move: (Reg); rewrite /term_registered E => /forall_mid [Ra [Rb [R1 _]]].
      rewrite IH //; last exact: rat_mul_den. rewrite ratK_mul // ratK_Z /term_den /= E !osd_app !osd_cons.
      have := @contr_tensor only a b Hlt Honly. rewrite HC => C0.
      have -> : od a * (od b * osd post) = zr K (commutator_factor st a b) *: (od b * (od a * osd post)).
      { by rewrite mulrA pair_rule // -C0 scale0r add0r -scalerAl mulrA. }
      rewrite -scalerA -scalerAr; congr (_ *: _). by rewrite !scalerA mulrC.
    - move=> t c pre a b post l1 l2 E Hlt HC _ IH1 _ IH2 Reg Hc. move: (Reg); rewrite /term_registered E => /forall_mid [Ra [Rb [R1 R2]]].
      rewrite rsum_app IH1 // ?IH2 //; last exact: rat_mul_den. rewrite ratK_mul // ratK_Z /term_den /= E !osd_app !osd_cons.
      have := @contr_tensor only a b Hlt Honly. rewrite HC => C0.
      have -> : od a * (od b * osd post) = contr a b *: osd post + zr K (commutator_factor st a b) *: (od b * (od a * osd post)).
      { by rewrite mulrA pair_rule // mulrDl -!scalerAl mul1r mulrA. }
      have -> : tens_den T (tm_tens t ++ delta_tensors a b) = tens_den T (tm_tens t) * contr a b.
      { by rewrite -C0 /tens_den big_cat. }
      rewrite mulrDr -!scalerAr !scalerDr addrC. congr (_ + _); first by rewrite !scalerA !mulrA.
      rewrite -scalerA; congr (_ *: _). by rewrite !scalerA mulrC.
  Qed.

  Theorem term_vno_den (only : bool) t l : term_vno st only t = Ok l -> (only -> distinct_values phi) ->
    term_registered st t -> rsum td l = td t.
  Proof.
    move=> H Ho Hr. rewrite (vno_run_den (vno_rec_run _ _ _ _ _ _ H)) // ratK_Z zr1. by rewrite scale1r.
  Qed.

  (** Terms that compare equal denote the same, if conjugation flags are not used. *)
  Lemma td_respects : respectsV (V := A) term_eqb no_conj td.
  Proof.
    move=> k k' Hk Hk' /term_eqb_key [E1 E2]. rewrite /term_den E1. congr (_ *: _).
    move: Hk Hk' E2. rewrite /no_conj. elim: (tm_tens k) (tm_tens k') => [|d ds IH] [|d' ds'] //= H H' E; try discriminate E.
    case: E => F1 F2 F3 E. rewrite /tens_den !big_cons -/(tens_den T ds) -/(tens_den T ds').
    rewrite (IH ds' (List.Forall_inv_tail H) (List.Forall_inv_tail H') E).
    congr (_ * _). rewrite /tensor_elem. have -> := List.Forall_inv H. have -> := List.Forall_inv H'.
    by rewrite F1 F2 F3.
  Qed.

  Theorem expr_vno_den (only : bool) e r : expr_vno st only e = Ok r -> (only -> distinct_values phi) ->
    mcanon e -> (forall x, In x e -> term_registered st x.1 /\ no_conj x.1) -> expr_den cre ann phi T r = expr_den cre ann phi T e.
  Proof.
    move=> H Ho Hc He. move: H. rewrite expr_vno_unfold. case: (existsb _ e) => //.
    suff G : forall e' r0, (forall x, In x e' -> In x e) -> keysP no_conj r0 -> mgood r0 -> foldM (vno_step st only) r0 e' = Ok r ->
      rsum td r = rsum td r0 + rsum td e'.
    { move=> H. rewrite /expr_den (G e [::]) ?add0r //; by constructor. }
    elim=> [|x e' IH] r0 Hin Kr Cr /=; first by move=> [<-]; rewrite addr0.
    rewrite {1}/vno_step. case: (term_vno_total st only x.1) => l El. rewrite El /=.
    have Xin : In x e by apply: Hin; left.
    have [Xr Xn] := He _ Xin. have Cx : canonical x.2 by move: Hc; rewrite /mcanon List.Forall_forall => /(_ _ Xin).
    have Run := vno_rec_run _ _ _ _ _ _ El.
    have Lc : Forall (fun y => canonical y.2) l by apply: (vno_run_canon _ _ _ _ _ Run); apply: rat_of_Z_canonical.
    have Ln : Forall (fun y => no_conj y.1) l.
    { apply: List.Forall_impl (vno_run_settled _ _ _ _ _ Run) => y /= [_ [_ [ds [E D]]]]. rewrite /no_conj E.
      apply/List.Forall_app; split=> //. apply: List.Forall_impl D => d [lo [up [-> _]]] //. }
    have Lg : Forall (fun y : term * rational => den (rat_mul x.2 y.2) <> 0%Z) l.
    { apply: List.Forall_impl Lc => y Cy. by apply: rat_mul_den; apply: canonical_den. }
    move=> H. rewrite (IH _ _ _ _ H); last 3 first.
    - by move=> y Hy; apply: Hin; right.
    - exact: (keysP_addall term_ltb no_conj fst (fun y => rat_mul x.2 y.2) l r0 Ln Kr).
    - exact: (mgood_addall term_ltb term_eqb swo_term fst (fun y => rat_mul x.2 y.2) l r0 Lg Cr).
    rewrite (rsum_addall charK swo_term td_respects (fk := fst) (fc := fun y => rat_mul x.2 y.2)) // -addrA; congr (_ + (_ + _)).
    rewrite -(term_vno_den El) //. elim: l Lc {El Run Ln Lg H} => [|y l IHl] Lc /=; first by rewrite scaler0.
    rewrite scalerDr -IHl; last exact: (List.Forall_inv_tail Lc). rewrite scalerA ratK_mul //; last by apply: canonical_den; apply: (List.Forall_inv Lc).
    exact: canonical_den.
  Qed.
End Proofs.
