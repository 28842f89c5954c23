(** Meaning of canonicalized products, commutators, BCH series and adjoints. *)
Set Warnings "-notation-overridden,-ambiguous-paths".
From Coq Require Import ZArith QArith_base List Lia.
From mathcomp Require Import all_ssreflect ssralg.
From Verif Require Import Res RationalModel RationalSpec RationalProofs RegistryModel CoreModel OrderProofs AlgebraModel AlgebraSpec AlgebraProofs AlgebraProofs2
  OperatorModel OperatorSpec OperatorProofs OperatorProofs2 OperatorProofs3 SortSpec ScalarSem LadderSpec LadderProofs AdjointModel AdjointProofs OperatorSemSpec.
Set Implicit Arguments.
Unset Strict Implicit.
Unset Printing Implicit Defensive.
Import GRing.Theory.
Local Open Scope ring_scope.

Lemma nsign_pm n : nsign n = Zpos xH \/ nsign n = Zneg xH.
Proof. rewrite /nsign. by case: (Z.even n); [left|right]. Qed.
Lemma nsign_sq n : (nsign n * nsign n)%Z = Zpos xH.
Proof. by case: (nsign_pm n) => ->. Qed.

Section Sem.
  Variables (K : fieldType) (A : algType K).
  Hypothesis charK : [char K] =i pred0.
  Variable den : oper -> A.
  Notation pd := (prod_den den).
  Notation ed := (opexpr_den den).

  Lemma pd_app a b : pd (a ++ b) = pd a * pd b.
  Proof. by rewrite /prod_den big_cat. Qed.
  Lemma pd_cons o p : pd (o :: p) = den o * pd p.
  Proof. by rewrite /prod_den big_cons. Qed.

  (** ** Canonicalization *)
  Lemma swaps_den st P p s q : graded_commuting den st P -> Forall P p -> com_swaps st p s q -> pd p = zr K s *: pd q.
  Proof.
    move=> G F W. elim: W F => [p0|l1 a b l2 s0 p' C _ IH] F; first by rewrite zr1 scale1r.
    have [F1 F2] : Forall P l1 /\ Forall P (a :: b :: l2) by apply/List.Forall_app.
    have Pa := List.Forall_inv F2. have Pb := List.Forall_inv (List.Forall_inv_tail F2). have Pl := List.Forall_inv_tail (List.Forall_inv_tail F2).
    have F' : Forall P (l1 ++ b :: a :: l2) by apply/List.Forall_app; split=> //; constructor=> //; constructor.
    have {}IH := IH F'.
    rewrite zrM -scalerA -IH !pd_app !pd_cons [den a * (den b * _)]mulrA (G a b Pa Pb C) -scalerAl -scalerAr. by rewrite !mulrA.
  Qed.
  Lemma pd_respects : respectsV (V := A) oprod_eqb (fun _ => True) pd.
  Proof. by move=> k k' _ _ /oprod_eqb_eq ->. Qed.
  Lemma allT (T : Type) (l : list T) : Forall (fun _ => True) l.
  Proof. by elim: l => [|x l IH]; constructor. Qed.

  Lemma ed_addall (U : Type) (fk : U -> oprod) (fc : U -> rational) l m :
    Forall (fun x => RationalModel.den (fc x) <> 0%Z) l -> mgood m ->
    rsum pd (fold_left (fun r x => madd oprod_ltb (fk x) (fc x) r) l m) = rsum pd m + rsum pd [seq (fk x, fc x) | x <- l].
  Proof. move=> H1 H2. apply: (rsum_addall charK swo_oprod pd_respects) => //; exact: allT. Qed.

  Lemma canon_den st P p p' s : graded_commuting den st P -> Forall P p -> oprod_canonicalize st p = (p', s) -> pd p = zr K s *: pd p'.
  Proof. move=> G F /canonicalize_swaps. exact: swaps_den G F. Qed.

  Lemma swaps_sign st p s q : com_swaps st p s q -> s = Zpos xH \/ s = Zneg xH.
  Proof. elim=> [p0|l1 a b l2 s0 p' C _ IH]; first by left. by case: (nsign_pm (op_num a * op_num b)) => ->; case: IH => ->; [left|right|right|left]. Qed.

  Lemma opexpr_canon_den st P e : graded_commuting den st P -> keysP (Forall P) e -> mcanon e -> ed (opexpr_canonicalize st e) = ed e.
  Proof.
    move=> G Pe Ce. rewrite /opexpr_canonicalize /opexpr_den.
    have -> : forall m, fold_left (fun r x => let '(p, s) := oprod_canonicalize st x.1 in madd oprod_ltb p (rat_mul (rat_of_Z s) x.2) r) e m =
      fold_left (fun r x => madd oprod_ltb (oprod_canonicalize st x.1).1 (rat_mul (rat_of_Z (oprod_canonicalize st x.1).2) x.2) r) e m.
    { move=> m. elim: (e) m => [|x e' IH] m //=. rewrite IH. by case: (oprod_canonicalize st x.1). }
    rewrite ed_addall; [|apply: List.Forall_impl Ce => x Cx; apply: rat_mul_den; [by []|exact: canonical_den]|by constructor].
    rewrite add0r. elim: (e) Pe Ce => [|x e' IH] Pe Ce //=. rewrite IH; [|exact: List.Forall_inv_tail Pe|exact: List.Forall_inv_tail Ce]. congr (_ + _).
    have Cx := canonical_den _ (List.Forall_inv Ce). rewrite ratK_mul // ratK_Z. case E: (oprod_canonicalize st x.1) => [p s] /=.
    by rewrite (canon_den G (List.Forall_inv Pe) E) scalerA mulrC.
  Qed.

  (** ** Sums and products *)
  Lemma ed_plus a b : mgood a -> mgood b -> ed (mplus oprod_ltb a b) = ed a + ed b.
  Proof.
    move=> Ga Gb. rewrite /opexpr_den /mplus (@ed_addall _ fst snd) //.
    congr (_ + _). by rewrite -[in RHS](map_id b); congr rsum; apply: eq_map => -[].
  Qed.
  Lemma ed_minus a b : mgood a -> mgood b -> ed (mminus oprod_ltb a b) = ed a - ed b.
  Proof.
    move=> Ga Gb. rewrite /opexpr_den /mminus (@ed_addall _ fst (fun x => rat_neg x.2)) //.
    - congr (_ + _). elim: (b) Gb => [|x b' IH] Gb /=; first by rewrite oppr0.
      rewrite IH; last exact: List.Forall_inv_tail Gb. by rewrite ratK_neg ?scaleNr ?opprD //; apply: (List.Forall_inv Gb).
    - apply: List.Forall_impl Gb => x. exact: rat_neg_den.
  Qed.
  Lemma ed_scale a c : mgood a -> RationalModel.den c <> 0%Z -> ed (mscale a c) = ratK K c *: ed a.
  Proof.
    move=> Ga Hc. rewrite /opexpr_den /mscale. elim: a Ga => [|x a IH] Ga /=; first by rewrite scaler0.
    rewrite scalerDr -IH; last exact: List.Forall_inv_tail Ga. by rewrite ratK_mul // ?scalerA; [rewrite [ratK K c * _]mulrC|apply: (List.Forall_inv Ga)].
  Qed.

  Lemma ed_prod_inner x b r r' : RationalModel.den x.2 <> 0%Z -> mgood b -> mgood r ->
    foldM (fun r y => bind (oprod_mul x.1 y.1) (fun k => Ok (madd oprod_ltb k (rat_mul x.2 y.2) r))) r b = Ok r' ->
    ed r' = ed r + ratK K x.2 *: (pd x.1 * ed b) /\ mgood r'.
  Proof.
    move=> Dx. elim: b r => [|y b IH] r Gb Gr /=; first by move=> [<-]; rewrite /opexpr_den /= mulr0 scaler0 addr0.
    have Dy := List.Forall_inv Gb. have Dm : RationalModel.den (rat_mul x.2 y.2) <> 0%Z by apply: rat_mul_den.
    move=> H. have Gm : mgood (madd oprod_ltb (x.1 ++ y.1) (rat_mul x.2 y.2) r) by apply: (mgood_madd oprod_ltb oprod_eqb swo_oprod).
    have [-> G'] := IH _ (List.Forall_inv_tail Gb) Gm H. split=> //.
    rewrite /opexpr_den (rsum_madd charK swo_oprod pd_respects) //; last exact: allT.
    rewrite -addrA; congr (_ + _). rewrite /= mulrDr scalerDr; congr (_ + _). by rewrite pd_app -scalerAr scalerA ratK_mul.
  Qed.
  Lemma ed_prod a b r : mgood a -> mgood b -> mprod oprod_ltb oprod_mul a b = Ok r -> ed r = ed a * ed b /\ mgood r.
  Proof.
    move=> Ga Gb. rewrite /mprod.
    suff G : forall r0, mgood r0 -> foldM (fun r x => foldM (fun r y =>
      bind (oprod_mul x.1 y.1) (fun k => Ok (madd oprod_ltb k (rat_mul x.2 y.2) r))) r b) r0 a = Ok r -> ed r = ed r0 + ed a * ed b /\ mgood r.
    { move=> H. have [-> ?] := G [::] ltac:(by constructor) H. by rewrite {1}/opexpr_den add0r. }
    elim: a Ga => [|x a IH] Ga r0 Gr /=; first by move=> [<-]; rewrite {3}/opexpr_den /= mul0r addr0.
    case E: (foldM _ r0 b) => [r1| | |] //= H. have Dx := List.Forall_inv Ga.
    have [E1 G1] := ed_prod_inner Dx Gb Gr E. have [-> G2] := IH (List.Forall_inv_tail Ga) r1 G1 H. split=> //.
    rewrite E1 -addrA; congr (_ + _). by rewrite {4}/opexpr_den /= mulrDl scalerAl.
  Qed.

  (** ** Commutators *)
  Lemma commutator_den a b : wf oprod_ltb a -> wf oprod_ltb b -> exists r, op_commutator a b = Ok r /\ wf oprod_ltb r /\ ed r = commutator_of (ed a) (ed b).
  Proof.
    move=> Wa Wb. have Ga := mcanon_good a (proj1 (proj2 Wa)). have Gb := mcanon_good b (proj1 (proj2 Wb)).
    have [ab [Eab [Wab _]]] := mprod_spec oprod_ltb oprod_eqb swo_oprod (fun _ => True) oprod_mul oprod_mul_ok a b Wa Wb (keysP_True a) (keysP_True b).
    have [ba [Eba [Wba _]]] := mprod_spec oprod_ltb oprod_eqb swo_oprod (fun _ => True) oprod_mul oprod_mul_ok b a Wb Wa (keysP_True b) (keysP_True a).
    exists (mminus oprod_ltb ab ba). rewrite /op_commutator Eab Eba /=. split=> //. split.
    - apply: (wf_mminus oprod_ltb oprod_eqb swo_oprod) => //. exact: (proj1 (proj2 Wba)).
    - have [E1 G1] := ed_prod Ga Gb Eab. have [E2 G2] := ed_prod Gb Ga Eba. by rewrite ed_minus // E1 E2.
  Qed.

  Fixpoint commutators (x : A) (l : seq A) : A := match l with [::] => x | y :: l' => commutators (commutator_of x y) l' end.
  Lemma commutator_args_den l a : wf oprod_ltb a -> Forall (wf oprod_ltb) l ->
    exists r, commutator_args (a :: l) = Ok r /\ wf oprod_ltb r /\ ed r = commutators (ed a) [seq ed b | b <- l].
  Proof.
    rewrite /commutator_args. elim: l a => [|b l IH] a Wa Wl /=; first by exists a.
    have [r [-> [Wr Er]]] := commutator_den Wa (List.Forall_inv Wl). rewrite /=.
    have [r' [-> [Wr' Er']]] := IH r Wr (List.Forall_inv_tail Wl). exists r'. by rewrite Er' Er.
  Qed.

  Lemma ratK_make1 k : ratK K (rat_make 1 (Z.of_nat k.+1)) = (k.+1%:R)^-1.
  Proof.
    have D : Z.of_nat k.+1 <> 0%Z by [].
    have [Cd Cv] : RationalModel.den (rat_make 1 (Z.of_nat k.+1)) <> 0%Z /\ Qeq (Qval (rat_make 1 (Z.of_nat k.+1))) (QArith_base.Qdiv (inject_Z 1) (inject_Z (Z.of_nat k.+1))).
    { split; first by apply: canonical_den; apply: rat_make_canonical. exact: rat_make_val. }
    have E : qK K (inject_Z (Z.of_nat k.+1)) = k.+1%:R by rewrite /qK zr_nat /= divr1.
    have N : k.+1%:R != 0 :> K by apply: natK_neq0.
    have M : ratK K (rat_make 1 (Z.of_nat k.+1)) * k.+1%:R = 1.
    { rewrite (ratK_q charK Cd) (qK_eq charK Cv) -E -qK_mul -(qK_1 K). apply: (qK_eq charK).
      rewrite QArith_base.Qmult_comm QArith_base.Qmult_div_r; [reflexivity|exact: inject_Z_nz]. }
    by apply: (mulIf N); rewrite M mulVf.
  Qed.

  Lemma comm_scale c (x y : A) : commutator_of (c *: x) y = c *: commutator_of x y.
  Proof. by rewrite /commutator_of -scalerAl -scalerAr scalerBr. Qed.
  Lemma iter_comm_scale c (x y : A) n : iter n (fun z => commutator_of z y) (c *: x) = c *: iter n (fun z => commutator_of z y) x.
  Proof. elim: n => [|n IH] //=. by rewrite IH comm_scale. Qed.

  Lemma bch_loop_den todo k temp b res : wf oprod_ltb temp -> wf oprod_ltb b -> wf oprod_ltb res ->
    exists r, bch_loop todo (Z.of_nat k.+1) temp b res = Ok r /\ wf oprod_ltb r /\
      ed r = ed res + \sum_(i < todo) (k`!%:R / (k + i.+1)`!%:R) *: iter i.+1 (fun z => commutator_of z (ed b)) (ed temp).
  Proof.
    elim: todo k temp res => [|todo IH] k temp res Wt Wb Wr; first by exists res; rewrite big_ord0 addr0.
    cbn [bch_loop]. have [c [-> [Wc Ec]]] := commutator_den Wt Wb. cbn [bind].
    have Ck : canonical (rat_make 1 (Z.of_nat k.+1)) by apply: rat_make_canonical.
    have Nk : ~ Qeq (Qval (rat_make 1 (Z.of_nat k.+1))) (inject_Z 0).
    { have V := rat_make_val 1 (Z.of_nat k.+1) ltac:(by []). rewrite V => X.
      have Y : Qeq (inject_Z 1) (inject_Z 0).
      { rewrite -(QArith_base.Qmult_div_r (inject_Z 1) (inject_Z (Z.of_nat k.+1))); last exact: inject_Z_nz.
        rewrite X. by rewrite QArith_base.Qmult_0_r. }
      by []. }
    have Ws : wf oprod_ltb (mscale c (rat_make 1 (Z.of_nat k.+1))) by apply: wf_mscale.
    have Gs := mcanon_good _ (proj1 (proj2 Ws)). have Gr := mcanon_good _ (proj1 (proj2 Wr)). have Gc := mcanon_good _ (proj1 (proj2 Wc)).
    have Wp : wf oprod_ltb (mplus oprod_ltb res (mscale c (rat_make 1 (Z.of_nat k.+1)))).
    { apply: (wf_mplus oprod_ltb oprod_eqb swo_oprod) => //. exact: (proj1 (proj2 Ws)). }
    have -> : (Z.of_nat k.+1 + 1)%Z = Z.of_nat k.+2 by rewrite !Nat2Z.inj_succ.
    have [r [-> [Wr' Er]]] := IH k.+1 _ _ Ws Wb Wp. exists r. split=> //. split=> //. rewrite Er.
    have Dk := canonical_den _ Ck. rewrite ed_plus // ed_scale // ratK_make1 Ec -addrA; congr (_ + _).
    have F n : n`!%:R != 0 :> K by apply: natK_neq0 => //; rewrite -lt0n fact_gt0.
    have FK : k`!%:R / k.+1`!%:R = (k.+1%:R)^-1 :> K.
    { rewrite factS natrM invfM mulrCA mulfV ?mulr1 //. }
    rewrite big_ord_recl /= addn1 FK; congr (_ + _). apply: eq_bigr => i _. rewrite iter_comm_scale comm_scale scalerA -iterSr /= /bump /= add1n addSnnS; congr (_ *: _).
    set X := (_ + _)`!%:R. by rewrite -FK mulrAC [k`!%:R / _]mulrC mulVKf.
  Qed.

  Theorem bch_series_den a b n : wf oprod_ltb a -> wf oprod_ltb b -> exists r, bch_series a b n = Ok r /\ wf oprod_ltb r /\
    ed r = \sum_(k < (Z.to_nat n).+1) (k`!%:R)^-1 *: iter k (fun z => commutator_of z (ed b)) (ed a).
  Proof.
    move=> Wa Wb. have W0 : wf oprod_ltb (mplus oprod_ltb [::] a).
    { apply: (wf_mplus oprod_ltb oprod_eqb swo_oprod); [exact: wf_nil|exact: (proj1 (proj2 Wa))]. }
    have [r [E [Wr Er]]] := @bch_loop_den (Z.to_nat n) 0 a b _ Wa Wb W0.
    exists r. split=> //. split=> //. rewrite Er ed_plus; [|by constructor|exact: mcanon_good _ (proj1 (proj2 Wa))].
    rewrite {1}/opexpr_den add0r big_ord_recl /= fact0 invr1 scale1r; congr (_ + _). apply: eq_bigr => i _. by rewrite mul1r add0n.
  Qed.
End Sem.

(** ** Ladder words graded-commute *)
Section Ladder.
  Variables (K : fieldType) (A : algType K) (orb : eqType) (st : osi) (cre ann : Z -> orb -> A).
  Hypothesis REL : ladder_relations st cre ann.
  Hypothesis FER : all_fermions st.
  Notation ld := (letter_den cre ann).
  Notation wd := (word_den cre ann).

  Lemma exch_fer s t : registered st s -> registered st t -> exch K st s t = -1.
  Proof. by rewrite /exch => /FER -> /FER ->. Qed.
  Lemma letters_anti x y : registered st x.1.2 -> registered st y.1.2 -> ~ (x.1.1 <> y.1.1 /\ x.1.2 = y.1.2) ->
    ld x * ld y = - (ld y * ld x).
  Proof.
    case: x y => [[b s] p] [[c t] q] /= Rs Rt N. rewrite /letter_den /=. case: b c N => -[] N.
    - by rewrite (rel_cc REL) // exch_fer // scaleN1r.
    - have Nst : (t =? s)%Z = false by apply/Z.eqb_neq => E; apply: N.
      by rewrite (rel_ac REL q p Rt Rs) Nst add0r exch_fer // scaleN1r opprK.
    - have Nst : (s =? t)%Z = false by apply/Z.eqb_neq => E; apply: N.
      by rewrite (rel_ac REL p q Rs Rt) Nst add0r exch_fer // scaleN1r.
    - by rewrite (rel_aa REL) // exch_fer // scaleN1r.
  Qed.
  Definition noshare (w v : seq (bool * Z * orb)) : Prop := forall x y, In x w -> In y v -> ~ (x.1.1 <> y.1.1 /\ x.1.2 = y.1.2).
  Lemma letter_word x v : registered st x.1.2 -> (forall y, In y v -> registered st y.1.2) -> noshare [:: x] v ->
    ld x * wd v = (-1) ^+ size v *: (wd v * ld x).
  Proof.
    move=> Rx. elim: v => [|y v IH] Rv N; first by rewrite /word_den big_nil expr0 scale1r mulr1 mul1r.
    rewrite /word_den big_cons -/(wd v) mulrA letters_anti; [|exact: Rx|by apply: Rv; left|by apply: N; left].
    rewrite mulNr -mulrA IH; [|by move=> z Hz; apply: Rv; right|by move=> a z Ha Hz; apply: N => //; right].
    by rewrite -scalerAr -scaleN1r scalerA /= exprS mulrA.
  Qed.
  Lemma word_word w v : (forall y, In y w -> registered st y.1.2) -> (forall y, In y v -> registered st y.1.2) -> noshare w v ->
    wd w * wd v = (-1) ^+ (size w * size v) *: (wd v * wd w).
  Proof.
    elim: w => [|x w IH] Rw Rv N; first by rewrite /word_den big_nil expr0 scale1r mulr1 mul1r.
    rewrite /word_den big_cons -/(wd w) -/(wd v) -mulrA IH; [|by move=> z Hz; apply: Rw; right|exact: Rv|by move=> a z Ha Hz; apply: N => //; right].
    rewrite -scalerAr [ld x * (wd v * wd w)]mulrA letter_word; [|by apply: Rw; left|exact: Rv|by move=> a z [<-|//] Hz; apply: N => //; left].
    rewrite -scalerAl scalerA /= mulSn exprD -mulrA. by rewrite [_ ^+ (size w * size v) * _]mulrC.
  Qed.

  Lemma in_space_in b s (w : seq (bool * Z * orb)) x : In x w -> x.1.1 = b -> x.1.2 = s -> size (in_space b s w) <> 0%N.
  Proof.
    rewrite /in_space. elim: w => [|y w IH] //= [->|H] E1 E2.
    - by rewrite E1 E2 eqxx Z.eqb_refl.
    - case: ((y.1.1 == b) && _) => //=. exact: IH.
  Qed.

  Lemma word_noshare a b w v : nonneg_counts st a -> nonneg_counts st b -> ops_commute st a b = true -> word_of st a w -> word_of st b v -> noshare w v.
  Proof.
    move=> Na Nb C [Rw Cw] [Rv Cv] x y Hx Hy [N E].
    have /(OperatorProofs3.ops_commute_iff st a b Na Nb) S := C. have Rs := Rw _ Hx. have [S1 S2] := S _ Rs. have [C1 C2] := Cw _ Rs.
    have [D1 D2] := Cv _ Rs.
    have P1 := @in_space_in x.1.1 x.1.2 w x Hx erefl erefl. have P2 := @in_space_in y.1.1 x.1.2 v y Hy erefl (esym E).
    case Ex: x.1.1 N P1; case Ey: y.1.1 P2 => // P2 N P1.
    - have X1 : cre_of (op_gm a) x.1.2 <> 0%Z by rewrite -C1; lia. have X2 : ann_of (op_gm b) x.1.2 <> 0%Z by rewrite -D2; lia. by case: S1.
    - have X1 : ann_of (op_gm a) x.1.2 <> 0%Z by rewrite -C2; lia. have X2 : cre_of (op_gm b) x.1.2 <> 0%Z by rewrite -D1; lia. by case: S2.
  Qed.

  (** Number of letters of a word *)
  Definition zs (f : nat -> Z) (l : list nat) : Z := fold_right (fun i a => (f i + a)%Z) 0%Z l.
  Lemma zs_ext f g l : (forall i, In i l -> f i = g i) -> zs f l = zs g l.
  Proof. elim: l => [|i l IH] //= H. by rewrite H ?IH; auto. Qed.
  Lemma zs_incr f k l : NoDup l -> In k l -> zs (fun i => (f i + if Nat.eqb i k then 1 else 0)%Z) l = (zs f l + 1)%Z.
  Proof.
    elim: l => [|i l IH] // ND H. have {}ND := proj1 (NoDup_cons_iff i l) ND. cbn [zs fold_right]. rewrite -!/(zs _ _).
    case: H => [E0|H]; first subst k.
    - rewrite Nat.eqb_refl (@zs_ext _ f l); first by lia.
      move=> j Hj. case: (Nat.eqb_spec j i) => [E|_]; last by lia. exfalso. apply: (proj1 ND). by subst.
    - case: (Nat.eqb_spec i k) => [E|_]; first by case: (proj1 ND); rewrite E. rewrite IH //; [lia|exact: (proj2 ND)].
  Qed.
  Lemma zs0 l : zs (fun _ => 0%Z) l = 0%Z. Proof. by elim: l. Qed.
  Lemma word_size (n : nat) (w : seq (bool * Z * orb)) : (forall x, In x w -> (0 <= x.1.2 < Z.of_nat n)%Z) ->
    Z.of_nat (size w) = zs (fun i => (Z.of_nat (size (in_space true (Z.of_nat i) w)) + Z.of_nat (size (in_space false (Z.of_nat i) w)))%Z) (List.seq 0 n).
  Proof.
    elim: w => [|x w IH] H; first by rewrite zs0.
    have Hx := H x (or_introl erefl). have {}IH := IH (fun y Hy => H y (or_intror Hy)).
    cbn [size]. rewrite Nat2Z.inj_succ IH -Z.add_1_r -(@zs_incr _ (Z.to_nat x.1.2)); [|exact: seq_NoDup|by apply/in_seq; lia].
    apply: zs_ext => i Hi. rewrite /in_space /=.
    have -> : Z.eqb x.1.2 (Z.of_nat i) = Nat.eqb i (Z.to_nat x.1.2).
    { case: (Nat.eqb_spec i (Z.to_nat x.1.2)) => E; case: (Z.eqb_spec x.1.2 (Z.of_nat i)) => E' //; lia. }
    case: x.1.1; case: (Nat.eqb i (Z.to_nat x.1.2)); cbn [andb eqtype.eq_op size]; cbn -[Z.of_nat Z.add]; cbn [size]; lia.
  Qed.
  Lemma num_ops_sum g : gm_num_ops g = zs (fun i => (cre_of g (Z.of_nat i) + ann_of g (Z.of_nat i))%Z) (List.seq 0 (length g)).
  Proof.
    rewrite /gm_num_ops.
    have E : forall l r, fold_left (fun r p => (r + (p.1 + p.2))%Z) l r = (r + zs (fun i => match nth_error l i with Some p => (p.1 + p.2)%Z | None => 0%Z end) (List.seq 0 (length l)))%Z.
    { elim=> [|p l IH] r; first by cbn; lia. cbn [fold_left length List.seq zs fold_right nth_error]. rewrite IH -List.seq_shift -!/(zs _ _).
      have -> : forall f l0, zs f (List.map S l0) = zs (fun i => f (S i)) l0 by move=> f; elim=> [|j l0 IH0] //=; rewrite -IH0.
      cbn [nth_error]. lia. }
    rewrite E Z.add_0_l. apply: zs_ext => i /in_seq Hi. rewrite /cre_of /ann_of /gm_cre /gm_ann /PartitionsModel.aget.
    have -> : (Z.of_nat i <? 0)%Z = false by apply/Z.ltb_ge; lia.
    rewrite Nat2Z.id. by case: (nth_error g i) => [[c a]|].
  Qed.
  Lemma zs_app f l1 l2 : zs f (l1 ++ l2)%list = (zs f l1 + zs f l2)%Z.
  Proof. elim: l1 => [|i l1 IH]; first by []. cbn [List.app zs fold_right]. rewrite -!/(zs _ _) IH. lia. Qed.
  Lemma word_of_size o (w : seq (bool * Z * orb)) : (nsp st <= max_spaces)%coq_nat -> op_valid st o -> word_of st o w -> Z.of_nat (size w) = op_num o.
  Proof.
    move=> L [Lg Zr] [Rw Cw]. rewrite (@word_size (nsp st)); last by move=> x /Rw.
    rewrite /op_num num_ops_sum Lg. have [d Ed] : exists d, max_spaces = Nat.add (nsp st) d by exists (Nat.sub max_spaces (nsp st)); lia.
    rewrite Ed.
    rewrite List.seq_app zs_app. set z := zs _ (List.seq (0 + _)%coq_nat _). have -> : z = 0%Z.
    { rewrite /z (@zs_ext _ (fun _ => 0%Z)) ?zs0 // => i /in_seq Hi. have E := Zr i ltac:(lia).
      rewrite /cre_of /ann_of /gm_cre /gm_ann /PartitionsModel.aget. have -> : (Z.of_nat i <? 0)%Z = false by apply/Z.ltb_ge; lia.
      by rewrite Nat2Z.id E. }
    rewrite Z.add_0_r. apply: zs_ext => i /in_seq Hi. have [-> ->] := Cw (Z.of_nat i) ltac:(rewrite /registered /num_spaces; lia). by [].
  Qed.

  Lemma nsign_expr n : zr K (nsign (Z.of_nat n)) = (-1) ^+ n.
  Proof.
    rewrite /nsign. elim: n => [|n IH] //. rewrite exprS Nat2Z.inj_succ Z.even_succ -Z.negb_even -IH.
    by case: (Z.even (Z.of_nat n)); rewrite /= ?mulrNN ?mulr1.
  Qed.
  Theorem combinations_commute (den : oper -> A) : (nsp st <= max_spaces)%coq_nat -> (forall o, proper st o -> combination_for st cre ann o (den o)) ->
    graded_commuting den st (proper st).
  Proof.
    move=> L H a b Pa Pb C. have [la [Wa ->]] := H a Pa. have [lb [Wb ->]] := H b Pb. case: Pa Pb => Va Na [Vb Nb].
    rewrite big_distrl [in RHS]big_distrl /= [in RHS](eq_bigr (fun y => \sum_(x <- la) (y.1 *: wd y.2) * (x.1 *: wd x.2))); last by move=> y _; rewrite big_distrr.
    rewrite (exchange_big_dep xpredT) //= scaler_sumr.
    elim: la Wa => [|x la IH] Wa; first by rewrite !big_nil.
    rewrite !big_cons IH; last by move=> y Hy; apply: Wa; right. congr (_ + _).
    rewrite big_distrr /= scaler_sumr. elim: lb Wb {IH} => [|y lb IH] Wb; first by rewrite !big_nil.
    rewrite !big_cons IH; last by move=> z Hz; apply: Wb; right. congr (_ + _).
    have Wx := Wa x (or_introl erefl). have Wy := Wb y (or_introl erefl).
    rewrite -!scalerAl -!scalerAr (word_word (proj1 Wx) (proj1 Wy) (word_noshare Na Nb C Wx Wy)).
    rewrite -(word_of_size L Va Wx) -(word_of_size L Vb Wy) -Nat2Z.inj_mul nsign_expr !scalerA.
    congr (_ *: _). by rewrite mulrC -mulrA [y.1 * _]mulrC.
  Qed.
End Ladder.

(** ** Adjoints of expressions *)
Section Adj.
  Variables (K : fieldType) (A : algType K) (orb : eqType) (cre ann : Z -> orb -> A) (phi : index -> orb) (T : tensor_values K)
    (conj : {rmorphism K -> K}) (star : A -> A).
  Hypothesis charK : [char K] =i pred0.
  Hypothesis S : adjoint_map cre ann T conj star.
  Notation td := (term_den cre ann phi T).

  Lemma star_ops ops : star (ops_den cre ann phi ops) = ops_den cre ann phi (sqops_adjoint ops).
  Proof.
    rewrite /sqops_adjoint /ops_den. elim: ops => [|o ops IH]; first by rewrite !big_nil (star_one S).
    rewrite big_cons (star_mul S) IH. cbn [List.map List.rev]. rewrite big_cat big_seq1. congr (_ * _).
    rewrite /op_den /sqop_adjoint. by case: (o) => [[] i] /=; rewrite ?(star_cre S) ?(star_ann S).
  Qed.
  Lemma conj_tens ts : conj (tens_den T ts) = tens_den T (List.map tensor_adjoint ts).
  Proof.
    rewrite /tens_den. elim: ts => [|t ts IH]; first by rewrite !big_nil rmorph1.
    rewrite /= !big_cons rmorphM IH; congr (_ * _). by rewrite /tensor_elem /= (conj_tensor S).
  Qed.
  Lemma star_term t : star (td t) = td (term_adjoint t).
  Proof. by rewrite /term_den (star_scale S) star_ops conj_tens. Qed.
  Lemma star0 : star 0 = 0.
  Proof. have := star_scale S 0 0. by rewrite !scale0r rmorph0 scale0r. Qed.
  Lemma conj_zr z : conj (zr K z) = zr K z.
  Proof. by case: z => [|p|p]; rewrite /zr ?rmorph0 ?rmorphN ?rmorph_nat. Qed.
  Lemma conj_rat r : conj (ratK K r) = ratK K r.
  Proof. by rewrite /ratK rmorphM fmorphV !conj_zr. Qed.
  Lemma td_respects_flags b : respectsV (V := A) term_eqb (conj_flags b) td.
  Proof.
    move=> k k' Hk Hk' /term_eqb_key [E1 E2]. rewrite /term_den E1. congr (_ *: _).
    move: Hk Hk' E2. rewrite /conj_flags. elim: (tm_tens k) (tm_tens k') => [|d ds IH] [|d' ds'] //= H H' E; try discriminate E.
    case: E => F1 F2 F3 E. rewrite /tens_den !big_cons -/(tens_den T ds) -/(tens_den T ds').
    rewrite (IH ds' (List.Forall_inv_tail H) (List.Forall_inv_tail H') E).
    congr (_ * _). rewrite /tensor_elem. have -> := List.Forall_inv H. have -> := List.Forall_inv H'.
    by rewrite F1 F2 F3.
  Qed.
  Theorem expr_adjoint_den b e : mcanon e -> (forall x, In x e -> conj_flags b x.1) ->
    expr_den cre ann phi T (expr_adjoint e) = star (expr_den cre ann phi T e).
  Proof.
    move=> C F. rewrite /expr_adjoint /expr_den.
    rewrite (rsum_addall charK swo_term (@td_respects_flags (~~ b)) (fk := fun x => term_adjoint x.1) (fc := snd)); first last.
    - by constructor.
    - exact: mcanon_good.
    - by constructor.
    - apply/List.Forall_forall => x /F. rewrite /conj_flags /=. elim: (tm_tens x.1) => [|d ds IH] H; first by constructor.
      constructor; [by rewrite /= (List.Forall_inv H)|exact: (IH (List.Forall_inv_tail H))].
    rewrite /= add0r. elim: (e) => [|x e' IH]; first by rewrite /= star0.
    by rewrite /= IH (star_add S) (star_scale S) conj_rat star_term.
  Qed.
End Adj.
