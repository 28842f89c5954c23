(** C61: operator expressions, expectation values; existence of the normal product; a determinant as reference. *)
Set Warnings "-notation-overridden,-ambiguous-paths".
From Coq Require Import ZArith QArith List Lia Permutation.
From mathcomp Require Import all_ssreflect ssralg.
From Verif Require Import CountProofs Res RationalModel RationalSpec RationalProofs RegistryModel CoreModel AlgebraModel AlgebraSpec AlgebraProofs OperatorModel OrderProofs WickSearchModel WickSearchSpec WickCombSpec SortSpec SortProofs ScalarSem LadderSpec CanonModel CanonSpec CanonSemSpec CanonSemProofs
  WickMatchProofs WickProductSpec WickTheoremSpec WickProductProofs2 WickProductProofs3 WickProductProofs5 WickProductProofs9 WickEvalModel WickLegProofs6 WickLinearProofs WickPairProofs WickProductProofs13 WickProductProofs14 WickProductProofs15
  WickGeneralSpec WickConvProofs WickConvProofs2 WickGenProofs WickGenProofs3 WickGenProofs12.
Set Implicit Arguments.
Unset Strict Implicit.
Unset Printing Implicit Defensive.
Import GRing.Theory.
Local Open Scope ring_scope.

Section Expr.
  Variables (K : fieldType) (A : algType K) (orb : eqType) (st : osi) (cre ann : Z -> orb -> A).
  Hypothesis charK : [char K] =i pred0.
  Hypothesis HL : ladder_relations st cre ann.
  Hypothesis HS : multi_reference st.
  Variables (T : text -> seq (Z * orb) -> seq (Z * orb) -> bool -> K) (orbs : Z -> seq orb) (maxc : nat).
  Hypothesis Hm1 : (1 <= maxc)%N.
  Hypothesis HD : densities st T.
  Variable N : seq (bool * (Z * orb)) -> A.
  Hypothesis HN : generalized_normal_product st cre ann T maxc N.
  Hypothesis Uorbs : forall s, uniq (orbs s).
  Variables (phi0 : index -> orb) (o : wt_opts).
  Hypothesis Em : wt_maxcumulant o = Z.of_nat maxc.
  Notation NGw := (NG st cre ann (cumulant st T maxc)).
  Notation tv := (term_value NGw T orbs phi0).
  Notation product_ok := (gproduct_ok st T maxc).

  Lemma gcontract_product ops (V : lmodType K) (f : {linear A -> V}) minr maxr factor r : product_ok ops -> gonly_ranks st N f (ops_rank ops) minr maxr ->
    canonical factor -> contract o st factor ops minr maxr (Ok r) ->
    keysP (key_ok st) r /\ f (expr_value N T orbs phi0 r) = ratK K factor *: f (gproduct_value st T N orbs phi0 ops).
  Proof. move=> P Hf Cf C. exact: (gcontract_value charK HL HS Hm1 HD HN Uorbs phi0 (fun l : leg => phi0 (mkI 0 0)) P Hf Em Cf C). Qed.
  Lemma gonly_full bound lo hi : (lo <= 0)%Z -> (bound <= hi)%Z -> gonly_ranks st N [linear of idfun : A -> A] bound lo hi.
  Proof. move=> H1 H2 w _ Hw []. lia. Qed.
  Lemma gvalue_keys r : keysP (key_ok st) r -> expr_value N T orbs phi0 r = rsum tv r.
  Proof. move=> Kr. apply: rsum_ext_in => x Hx. symmetry. apply: (gkey_value orbs HN). move/List.Forall_forall: Kr; exact. Qed.
  Lemma gtv_ok : respectsV (V := A) term_eqb (key_ok st) tv.
  Proof. move=> k k' [Hk _] [Hk' _] Ek. exact: tv_respects. Qed.

  Lemma gexpr_contract (V : lmodType K) (f : {linear A -> V}) minr maxr factor e r : canonical factor -> mcanon e ->
    (forall x, In x e -> product_ok x.1 /\ gonly_ranks st N f (ops_rank x.1) minr maxr) ->
    contract_expr o st factor e minr maxr (Ok r) ->
    f (expr_value N T orbs phi0 r) = ratK K factor *: f (gopexpr_value st T N orbs phi0 e).
  Proof.
    move=> Cf Ce He [rs [Fr Er]].
    have G : forall e0 rs0, Forall2 (fun x r => contract o st (rat_mul factor x.2) x.1 minr maxr r) e0 rs0 -> mcanon e0 -> (forall x, In x e0 -> In x e) ->
      forall acc r0, keysP (key_ok st) acc -> mgood acc -> foldM add_result acc rs0 = Ok r0 ->
      keysP (key_ok st) r0 /\ f (rsum tv r0) = f (rsum tv acc) + ratK K factor *: f (gopexpr_value st T N orbs phi0 e0).
    { move=> e0 rs0. elim=> [|x r1 e1 rs1 P1 F1 IH] C0 Hin acc r0 Ka Ga.
      - move=> [<-]. by rewrite /gopexpr_value /= linear0 scaler0 addr0.
      - rewrite /=. case E1: r1 P1 => [l| | |] //= P1 Ef. have [Px Rx] := He x (Hin x (or_introl erefl)).
        have Cx : canonical x.2 by case/Forall_cons_iff: C0. have Cm : canonical (rat_mul factor x.2) by exact: rat_mul_canonical.
        have [Kl Vl] := gcontract_product Px Rx Cm P1.
        have N1 : ~ (Qval (rat_of_Z 1) == 0)%Q by [].
        have Gl : mgood l by apply: mcanon_good; exact: (proj2 (contract_scale _ _ _ _ _ _ _ _ Cm (rat_of_Z_canonical 1) N1 P1) l erefl).
        have C1 : mcanon e1 by case/Forall_cons_iff: C0.
        have [Kr Vr] := IH C1 (fun y Hy => Hin y (or_intror Hy)) _ _ (keysP_mplus term_ltb _ _ _ Ka Kl) (mgood_addall term_ltb term_eqb swo_term fst snd l acc Gl Ga) Ef.
        split=> //. rewrite Vr {2}/gopexpr_value /= linearD scalerDr addrA. congr (_ + _).
        rewrite linearZ scalerA /= -ratK_mul //; try exact: canonical_den. rewrite -Vl (gvalue_keys Kl) /mplus (rsum_addall charK swo_term gtv_ok) // linearD /=. congr (_ + f (rsum _ _)).
        elim: (l) => [|[k c] l' IHl] //=. by rewrite IHl. }
    have [Kr Vr] := G e rs Fr Ce (fun _ H => H) [::] r (List.Forall_nil _) (List.Forall_nil _) (esym Er).
    by rewrite (gvalue_keys Kr) Vr /= linear0 add0r.
  Qed.

  (** ** The expectation value *)
  Variable f : {linear A -> K^o}.
  Hypothesis Rf : correlated_state st cre ann T maxc f.
  Lemma linear_conv (V : lmodType K) (h : {linear A -> V}) m (G : seq (bool * (Z * orb)) -> A) w : h (conv m G w) = conv m (fun u => h (G u)) w.
  Proof. rewrite !conv_splits /split_sum linear_sum. apply: eq_bigr => p _. by rewrite linearZ. Qed.
  Lemma cor_normal w : (forall x, In x w -> registered st x.2.1) -> f (N w) = no_operators K w.
  Proof.
    move=> Hw. rewrite -(NGw_N HN Hw) /NG linear_conv. have Ec := @cum_even _ _ st T maxc.
    transitivity (convK (moment (fun b => - cumulant st T maxc b)) (moment (cumulant st T maxc)) w : K^o).
    { apply: (conv_extQ (all_reg Hw)) => // b Hb. have Rb := reg_all Hb. by rewrite vac_product // (cor_moments Rf Rb). }
    rewrite -moment_add //; last by move=> b O; rewrite Ec ?oppr0. rewrite moment_zero; first by case: (w).
    move=> b _. by rewrite addNr.
  Qed.
  Lemma gonly_zero bound : gonly_ranks st N f bound 0 0.
  Proof. move=> w H _ Hs. rewrite cor_normal //. case: w H Hs => [|x w] H Hs //. by case: Hs; split; rewrite /=; lia. Qed.
  Lemma cor_value r : keysP (key_ok st) r -> f (expr_value N T orbs phi0 r) = expr_value (no_operators K (orb := orb)) T orbs phi0 r.
  Proof.
    move=> Kr. rewrite /expr_value -rsum_linear. apply: rsum_ext_in => x Hx. have [_ Sp] : key_ok st x.1 by move/List.Forall_forall: Kr; exact.
    rewrite /term_value sum_over_linear. apply: sum_over_ext => phi. rewrite /value_at linearZ. congr (_ *: _). apply: cor_normal => y Hy.
    have [c [<- Hc]] := proj1 (in_map_iff _ _ _) Hy. apply: Sp. left. by exists c.
  Qed.
  Lemma gexpectation factor ops r : product_ok ops -> canonical factor -> contract o st factor ops 0 0 (Ok r) ->
    expr_value (no_operators K (orb := orb)) T orbs phi0 r = ratK K factor * f (gproduct_value st T N orbs phi0 ops).
  Proof. move=> P Cf C. have [Kr Vr] := gcontract_product P (gonly_zero (bound := _)) Cf C. by rewrite -(cor_value Kr). Qed.
End Expr.

Section Exists.
  Variables (K : fieldType) (A : algType K) (orb : eqType) (st : osi) (cre ann : Z -> orb -> A).
  Variables (T : text -> seq (Z * orb) -> seq (Z * orb) -> bool -> K) (maxc : nat).
  Lemma normal_exists : generalized_normal_product st cre ann T maxc (NG st cre ann (cumulant st T maxc)).
  Proof. move=> w Hw. rewrite -conv_splits. apply: (NG_exists cre ann _ Hw). exact: cum_even. Qed.
  Lemma normal_unique N N' : generalized_normal_product st cre ann T maxc N -> generalized_normal_product st cre ann T maxc N' ->
    forall w, (forall x, In x w -> registered st x.2.1) -> N w = N' w.
  Proof. move=> H H' w Hw. by rewrite -(NGw_N H Hw) -(NGw_N H' Hw). Qed.
End Exists.

(** ** A determinant as reference *)
Section Move.
  Variables (K : fieldType) (A : algType K) (X : Type) (a : X -> A) (D : X -> X -> K).
  Hypothesis HA : forall x y, a x * a y = (D x y)%:A - a y * a x.
  Definition sgl (x : X) (b : seq X) : K := if b is [:: y] then D x y else 0.
  Lemma sgl_odd x : oddf (sgl x).
  Proof. by case=> [|y [|z b]]. Qed.
  Lemma move_any (p : pred X) x w : a x * npr a p w = (-1) ^+ size w *: (npr a p w * a x) + conv (sgl x) (npr a p) w.
  Proof.
    elim: w => [|y w IH]; first by rewrite /= /sgl mulr1 mul1r expr0 scale1r scale0r addr0.
    rewrite conv_cons_odd; last exact: sgl_odd.
    have -> : conv (dx y (sgl x)) (npr a p) w = D x y *: npr a p w.
    { have -> : D x y *: npr a p w = conv (unit_word K (X := X)) (fun u => D x y *: npr a p u) w by rewrite conv_unit //; case.
      rewrite !conv_splits /split_sum. apply: eq_bigr => q _. case: (q.1.2) => [|z [|z' b]]; rewrite /dx /= ?mulr1 ?mulr0 ?scale0r //. by rewrite scalerA. }
    rewrite [npr a p (y :: w)]/= [size _]/=. case Py: (p y).
    - rewrite mulrA HA mulrBl -mulrA IH mulrDr opprD -scalerAl mul1r -scalerAr mulrA exprS mulN1r scaleNr.
      rewrite [LHS]addrCA. congr (_ + (_ - _)). rewrite -conv_mull. apply: conv_ext => // b _. by rewrite /dx /= Py.
    - have EC : conv (sgl x) (dx y (npr a p)) w = - ((-1) ^+ size w *: (conv (sgl x) (npr a p) w * a y)).
      { rewrite !conv_splits /split_sum mulr_suml scaler_sumr -sumrN. apply: eq_big_In => q /splits_size Sq.
        rewrite /dx /= Py. case: (q.1.2) Sq => [|z [|z' b]] Sq; rewrite /sgl ?mulr0 ?scale0r ?mul0r ?scaler0 ?oppr0 //.
        rewrite -scalerAl !scalerA -scaleNr -Sq. congr (_ *: _). rewrite /= add1n exprS mulN1r !mulNr opprK. by rewrite mulrC mulrA. }
      rewrite EC opprK -scalerAr mulrA IH mulrDl scalerDr addrA. congr (_ + _).
      rewrite -scalerAl scalerA sg2 scale1r -scalerAl scalerA exprS -mulrA sg2 mulr1 scaleN1r -!mulrA HA mulrBr -scalerAr mulr1. by rewrite addrC.
  Qed.
  (** Two normal orderings that differ in some letters. *)
  Variables (p e : pred X) (lam : seq X -> K).
  Hypothesis El : even lam.
  Hypothesis L0 : forall x b, p x = e x -> lam (x :: b) = 0.
  Hypothesis L1 : forall x b, p x -> ~~ e x -> lam (x :: b) = sgl x b.
  Hypothesis L2 : forall x b, ~~ p x -> e x -> lam (x :: b) = - sgl x b.
  Lemma reorder w : npr a p w = conv (moment lam) (npr a e) w.
  Proof.
    have Em := moment_even El. have [n] := ubnP (size w). elim: n w => // n IH [|x w]; first by rewrite /= scale1r.
    rewrite [size _]/= ltnS => Hn. rewrite exp_cons // (@conv_ext _ _ _ (dx x lam) (dx x lam) _ (npr a p) w) //; last first.
    { move=> b Hb. symmetry. apply: IH. exact: leq_ltn_trans Hb Hn. }
    have Q : conv (moment lam) (dx x (npr a e)) w = if e x then a x * npr a p w else (-1) ^+ size w *: (npr a p w * a x).
    { case Ex: (e x); rewrite IH // -?conv_mull -?conv_mulr -?conv_signr //; apply: conv_ext => // b _; by rewrite /dx /= Ex. }
    rewrite Q [npr a p (x :: w)]/=. case Px: (p x); case Ex: (e x).
    - rewrite conv0l ?add0r // => b _. by rewrite /dx L0 // Px Ex.
    - rewrite move_any addrC. congr (_ + _). apply: conv_ext => // b _. by rewrite /dx L1 ?Px ?Ex.
    - rewrite move_any (@conv_ext _ _ _ (dx x lam) (fun b => - sgl x b) _ (npr a p) w) //; last by move=> b _; rewrite /dx L2 ?Px ?Ex.
      by rewrite convNl addrCA addNr addr0.
    - rewrite conv0l ?add0r // => b _. by rewrite /dx L0 // Px Ex.
  Qed.
End Move.

Section Letters.
  Variables (K : fieldType) (A : algType K) (orb : eqType) (st : osi) (cre ann : Z -> orb -> A).
  Hypothesis HL : ladder_relations st cre ann.
  Hypothesis HS : multi_reference st.
  Variables (T : text -> seq (Z * orb) -> seq (Z * orb) -> bool -> K) (maxc : nat).
  Notation wletter := (bool * (Z * orb))%type.
  Notation wlad := (wlad st cre ann).
  Definition reg2 (x y : wletter) : K := [&& regb st x.2.1, regb st y.2.1, x.1 (+) y.1, (x.2.1 =? y.2.1)%Z & x.2.2 == y.2.2]%:R.
  Lemma anticomm x y : wlad x * wlad y = (reg2 x y)%:A - wlad y * wlad x.
  Proof.
    case Rx: (regb st x.2.1); last by rewrite /WickProductProofs3.wlad /reg2 Rx /= scale0r mul0r mulr0 subr0.
    case Ry: (regb st y.2.1); last by rewrite /WickProductProofs3.wlad /reg2 Ry andbF /= scale0r mul0r mulr0 subr0.
    rewrite (glad_rel HL HS) // /reg2 Rx Ry /=. by case: (x.1 (+) y.1).
  Qed.
  Lemma unocc_cumulant x b : stype st x.2.1 = Some Unoccupied -> cumulant st T maxc (x :: b) = 0.
  Proof. move=> St. rewrite /cumulant St /density. case: ifP => // _. by rewrite mulr0. Qed.
  Lemma occ_cumulant x b : regb st x.2.1 -> stype st x.2.1 = Some Occupied -> cumulant st T maxc (x :: b) = if x.1 then sgl reg2 x b else - sgl reg2 x b.
  Proof.
    move=> Rx St. rewrite /cumulant /= St Z.eqb_refl. case Px: (x.1) => /=.
    - case: b => [|y [|z b]] //=.
      + rewrite andbT /= /reg2 Rx Px /=. rewrite [(y.2.1 =? _)%Z]Z.eqb_sym.
        case: Z.eqb_spec => [Es|] //=; last by rewrite !andbF. rewrite -Es Rx /=. case: (y.1) => //=. by rewrite expr0 mul1r.
      + case: ifP => // /andP [_ /eqP Es]. move: Es. case: (y.1); case: (z.1); rewrite /= ?mulr0 //; case: (filter (fun x0 => x0.1) b) => [|u l] //=; rewrite ?mulr0 //.
    - case: b => [|y [|z b]] //=.
      + by rewrite oppr0.
      + rewrite andbT /= /reg2 Rx Px /=. rewrite [(y.2.1 =? _)%Z]Z.eqb_sym.
        case: Z.eqb_spec => [Es|] //=; last by rewrite !andbF oppr0. rewrite -Es Rx /=. case: (y.1) => //=; rewrite ?oppr0 //. by rewrite expr1 mulN1r eq_sym.
      + rewrite oppr0. case: ifP => // /andP [_ /eqP Es]. move: Es. case: (y.1); case: (z.1); rewrite /= ?mulr0 //; case: (filter (fun x0 => x0.1) b) => [|u l] //=; rewrite ?mulr0 //; case: (filter (fun x0 => ~~ x0.1) b) => [|u' l'] //=; rewrite ?mulr0 //; case: (l) => [|? ?] //=; by rewrite mulr0.
  Qed.
  (** [sgl reg2 x] is 0 on words with a letter of another space. *)
  Lemma sgl_other (P : pred wletter) x b : P x -> ~~ all P b -> (forall y z : wletter, y.2.1 = z.2.1 -> P y = P z) -> sgl reg2 x b = 0.
  Proof.
    move=> Px N H. case: b N => [|y [|z b]] //=. rewrite andbT => N. rewrite /reg2. case: Z.eqb_spec => E; last by rewrite !andbF. by rewrite (H y x) ?Px in N.
  Qed.
End Letters.

Section Determinant.
  Variables (K : fieldType) (A : algType K) (orb : eqType) (st : osi) (cre ann : Z -> orb -> A).
  Hypothesis HL : ladder_relations st cre ann.
  Hypothesis HS : single_reference st.
  Variables (T : text -> seq (Z * orb) -> seq (Z * orb) -> bool -> K) (maxc : nat).
  Notation wletter := (bool * (Z * orb))%type.
  Notation wlad := (wlad st cre ann).
  Notation ex := (makes_excitation st).
  Lemma single_multi : multi_reference st.
  Proof. move=> s /HS [-> [->|->]]; split=> //; [by left|by right; left]. Qed.
  Definition rcum (b : seq wletter) : K := if all (fun x => regb st x.2.1) b then cumulant st T maxc b else 0.
  Lemma determinant_normal : generalized_normal_product st cre ann T maxc (normal_product st cre ann).
  Proof.
    move=> w Hw. rewrite -conv_splits -(vac_product cre ann Hw).
    have Er : even rcum by move=> b O; rewrite /rcum; case: (all _ _) => //; exact: cum_even.
    have O (x : wletter) b : regb st x.2.1 -> ~~ all (fun y => regb st y.2.1) b -> sgl (reg2 K st (orb := orb)) x b = 0.
    { move=> Rx N. apply: (@sgl_other _ _ _ (fun y => regb st y.2.1)) => // y z Ey. by rewrite Ey. }
    have O' (x : wletter) b : regb st x.2.1 = false -> sgl (reg2 K st (orb := orb)) x b = 0 by case: b => [|y [|z b]] //= Rx; rewrite /reg2 Rx.
    rewrite (@reorder _ _ _ _ _ (anticomm HL single_multi) fst ex rcum Er).
    - apply: (exp_extQ (all_reg Hw)) => b Hb; first by rewrite /rcum Hb. apply: NP_normal => x. exact: reg_all.
    - move=> x b E. rewrite /rcum [all _ _]/=. case: ifP => // /andP [Rx _]. have [_ St] := HS (regP Rx). move: E. rewrite /makes_excitation.
      case: St => St; rewrite St; [by case: (x.1)|by rewrite unocc_cumulant].
    - move=> x b Px Ex. rewrite /rcum [all _ _]/=. case Rx: (regb st x.2.1); rewrite ?andTb ?andFb; last by rewrite O'. case Rb: (all _ b); last by rewrite O ?Rb.
      move: Ex. rewrite /makes_excitation. have [_ St] := HS (regP Rx). case: St => St; rewrite St ?Px // => _. by rewrite occ_cumulant // Px.
    - move=> x b Px Ex. rewrite /rcum [all _ _]/=. case Rx: (regb st x.2.1); rewrite ?andTb ?andFb; last by rewrite O' ?oppr0. case Rb: (all _ b); last by rewrite O ?Rb ?oppr0.
      move: Ex. rewrite /makes_excitation. have [_ St] := HS (regP Rx). case: St => St; rewrite St ?(negbTE Px) // => _. by rewrite occ_cumulant // (negbTE Px).
  Qed.
  (** The expectation value in the determinant is a state with these cumulants. *)
  Lemma determinant_state (f : {linear A -> K^o}) : reference_state st cre ann f -> correlated_state st cre ann T maxc f.
  Proof.
    move=> Rf. split; first exact: ref_one Rf. move=> w Hw. rewrite (determinant_normal Hw) -conv_splits linear_conv.
    have E : conv (moment (cumulant st T maxc)) (fun u => f (normal_product st cre ann u)) w = convK (moment (cumulant st T maxc)) (unit_word K (X := _)) w :> K^o.
    { apply: (conv_extQ (all_reg Hw)) => // b Hb. rewrite (ref_normal Rf (reg_all Hb)). by case: (b). }
    rewrite E.
    have Ec := @cum_even _ _ st T maxc. rewrite convK_even; last exact: moment_even. rewrite /convK conv_unit //. by case.
  Qed.
End Determinant.
