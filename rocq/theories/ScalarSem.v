(** Meaning of wicked's rational coefficients in an arbitrary field of characteristic 0, and of
    linear combinations in a module over it.  (Specification vocabulary and its basic lemmas.) *)
Set Warnings "-notation-overridden,-ambiguous-paths".
From Coq Require Import ZArith QArith List.
From mathcomp Require Import all_ssreflect ssralg.
From Verif Require Import Res RationalModel RationalSpec RationalProofs CoreModel OrderProofs AlgebraModel AlgebraSpec AlgebraProofs AlgebraCases.
Set Implicit Arguments.
Unset Strict Implicit.
Unset Printing Implicit Defensive.
Import GRing.Theory.
Local Open Scope ring_scope.

(** Integers in a ring. *)
Definition zr (R : ringType) (z : Z) : R :=
  match z with Z0 => 0 | Zpos p => (Pos.to_nat p)%:R | Zneg p => - (Pos.to_nat p)%:R end.

(** The field element denoted by a numerator/denominator pair. *)
Definition ratK (K : fieldType) (r : rational) : K := zr K (num r) / zr K (den r).

(** The element of a module denoted by a linear combination, given the meaning [g] of the keys. *)
Fixpoint rsum (K : fieldType) (V : lmodType K) (T : Type) (g : T -> V) (m : seq (T * rational)) : V :=
  match m with nil => 0 | x :: m' => ratK K x.2 *: g x.1 + rsum g m' end.

Section Zr.
  Variable R : ringType.
  Lemma zr_nat n : zr R (Z.of_nat n) = n%:R.
  Proof. by case: n => [|n] //=; rewrite SuccNat2Pos.id_succ. Qed.
  Lemma zrN x : zr R (- x) = - zr R x.
  Proof. by case: x => [|p|p] /=; rewrite ?oppr0 ?opprK. Qed.
  Lemma zr_sub a b : zr R (Z.of_nat a - Z.of_nat b) = a%:R - b%:R.
  Proof.
    have [L|L] := leqP b a.
    - move: L; move/leP=> L; rewrite -Nat2Z.inj_sub // zr_nat.
      have -> : Nat.sub a b = subn a b by []. rewrite natrB //; exact/leP.
    - have E : (Z.of_nat a - Z.of_nat b)%Z = Z.opp (Z.of_nat (subn b a)).
      { have -> : subn b a = Nat.sub b a by []. move/ltP: L=> L. rewrite Nat2Z.inj_sub; last by apply: Nat.lt_le_incl.
        by rewrite Z.opp_sub_distr Z.add_comm. }
      rewrite E zrN zr_nat natrB ?opprB //; exact: ltnW.
  Qed.
  Lemma z_diff z : exists a b, z = (Z.of_nat a - Z.of_nat b)%Z.
  Proof.
    case: z => [|p|p]; [by exists 0%N, 0%N|exists (Pos.to_nat p), 0%N|exists 0%N, (Pos.to_nat p)].
    - by rewrite positive_nat_Z /= .
    - by rewrite positive_nat_Z /= .
  Qed.
  Lemma zrD x y : zr R (x + y) = zr R x + zr R y.
  Proof.
    case: (z_diff x) => a [b ->]; case: (z_diff y) => c [d ->].
    have -> : (Z.of_nat a - Z.of_nat b + (Z.of_nat c - Z.of_nat d) = Z.of_nat (a + c)%coq_nat - Z.of_nat (b + d)%coq_nat)%Z
      by rewrite !Nat2Z.inj_add; ring.
    rewrite !zr_sub !plusE !natrD opprD !addrA; congr (_ - _); by rewrite addrAC.
  Qed.
  Lemma zrM x y : zr R (x * y) = zr R x * zr R y.
  Proof.
    case: (z_diff x) => a [b ->]; case: (z_diff y) => c [d ->].
    have -> : ((Z.of_nat a - Z.of_nat b) * (Z.of_nat c - Z.of_nat d) = Z.of_nat (a * c + b * d)%coq_nat - Z.of_nat (a * d + b * c)%coq_nat)%Z
      by rewrite !Nat2Z.inj_add !Nat2Z.inj_mul; ring.
    rewrite !zr_sub.
    rewrite ?plusE ?multE !natrD !natrM mulrBl !mulrBr opprB opprD !addrA; congr (_ - _); by rewrite addrAC.
  Qed.
  Lemma zr1 : zr R 1 = 1. Proof. by []. Qed.
End Zr.

Section Scal.
  Variable K : fieldType.
  Hypothesis charK : [char K] =i pred0.

  Lemma natK_neq0 n : (n != 0)%N -> n%:R != 0 :> K.
  Proof. by move/charf0P: charK => ->. Qed.
  Lemma zrK_neq0 z : z <> 0%Z -> zr K z != 0.
  Proof.
    case: z => [|p|p] //= _; rewrite ?oppr_eq0 natK_neq0 // -lt0n; apply/ltP; exact: Pos2Nat.is_pos.
  Qed.

  (** Field element of a standard-library rational. *)
  Definition qK (q : Q) : K := zr K (Qnum q) / zr K (Zpos (Qden q)).
  Lemma qK_frac n d q : d <> 0%Z -> (Qnum q * d = n * Zpos (Qden q))%Z -> zr K n / zr K d = qK q.
  Proof.
    move=> Hd H. rewrite /qK. have Hd' := zrK_neq0 Hd. have Hq : zr K (Zpos (Qden q)) != 0 by apply: zrK_neq0.
    apply: (mulIf Hd'); apply: (mulIf Hq). rewrite divfK // -zrM. rewrite -H zrM. by rewrite mulrAC divfK.
  Qed.
  Lemma qK_eq q r : Qeq q r -> qK q = qK r.
  Proof. rewrite /Qeq => H. symmetry. apply: qK_frac => //. Qed.
  Lemma qK_add q r : qK (Qplus q r) = qK q + qK r.
  Proof.
    have Hq : zr K (Zpos (Qden q)) != 0 by apply: zrK_neq0. have Hr : zr K (Zpos (Qden r)) != 0 by apply: zrK_neq0.
    rewrite /qK addf_div // -!zrM -zrD; congr (_ / _).
  Qed.
  Lemma qK_mul q r : qK (Qmult q r) = qK q * qK r.
  Proof. by rewrite /qK mulf_div -!zrM. Qed.
  Lemma qK_opp q : qK (Qopp q) = - qK q.
  Proof. by rewrite /qK -mulNr -zrN. Qed.
  Lemma qK_1 : qK (1%Q) = 1.
  Proof. by rewrite /qK /= divrr // unitfE oner_neq0. Qed.
  Lemma qK_0 : qK (0%Q) = 0.
  Proof. by rewrite /qK /= mul0r. Qed.

  Lemma ratK_q r : den r <> 0%Z -> ratK K r = qK (Qval r).
  Proof.
    move=> H. rewrite /ratK; apply: qK_frac => //.
    have E : Qeq (Qmult (Qval r) (inject_Z (den r))) (inject_Z (num r)).
    { rewrite /Qval Qmult_comm Qmult_div_r //. exact: inject_Z_nz. }
    move: E. rewrite /Qeq /= !Z.mul_1_r Pos.mul_1_r. by [].
  Qed.
  Lemma ratK_add a b : den a <> 0%Z -> den b <> 0%Z -> ratK K (rat_add a b) = ratK K a + ratK K b.
  Proof.
    move=> Ha Hb. rewrite !ratK_q //; last exact: rat_add_den. by rewrite -qK_add; apply: qK_eq; apply: rat_add_val.
  Qed.
  Lemma ratK_mul a b : den a <> 0%Z -> den b <> 0%Z -> ratK K (rat_mul a b) = ratK K a * ratK K b.
  Proof.
    move=> Ha Hb. rewrite !ratK_q //; last exact: rat_mul_den. by rewrite -qK_mul; apply: qK_eq; apply: rat_mul_val.
  Qed.
  Lemma ratK_neg a : den a <> 0%Z -> ratK K (rat_neg a) = - ratK K a.
  Proof.
    move=> Ha. rewrite !ratK_q //; last exact: rat_neg_den. by rewrite -qK_opp; apply: qK_eq; apply: rat_neg_val.
  Qed.
  Lemma ratK_Z n : ratK K (rat_of_Z n) = zr K n.
  Proof. by rewrite /ratK /= divr1. Qed.
  Lemma ratK_is0 c : den c <> 0%Z -> rat_is0 c = true -> ratK K c = 0.
  Proof. by move=> Hd /rat_is0_num; rewrite /ratK => ->; rewrite mul0r. Qed.

  Section Sums.
    Variable V : lmodType K.
    Variable T : Type.
    Implicit Type g : T -> V.
    Lemma rsum_app g m1 m2 : rsum g (m1 ++ m2) = rsum g m1 + rsum g m2.
    Proof. by elim: m1 => [|x m1 IH] /=; rewrite ?add0r // IH addrA. Qed.
    Lemma rsum_ext_in g g' m : (forall x, In x m -> g x.1 = g' x.1) -> rsum g m = rsum g' m.
    Proof.
      elim: m => [|x m IH] //= H. rewrite H; last by left. rewrite IH // => y Hy. by apply: H; right.
    Qed.
    Variables (lt eqb : T -> T -> bool).
    Hypothesis W : swo lt eqb.
    Variable P : T -> Prop.
    (** [g] does not distinguish [==] keys satisfying [P]. *)
    Definition respectsV g : Prop := forall k k', P k -> P k' -> eqb k k' = true -> g k = g k'.
    Lemma rsum_madd g k c m : respectsV g -> P k -> keysP P m -> mgood m -> den c <> 0%Z ->
      rsum g (madd lt k c m) = rsum g m + ratK K c *: g k.
    Proof.
      move=> Hg Pk Pm Hm Hc.
      case: (madd_cases lt eqb W k c m) => [[H0 ->]|[[_ [m1 [m2 [Em ->]]]]|[_ [m1 [k' [c' [m2 [Em [Ek ->]]]]]]]]].
      - by rewrite ratK_is0 // scale0r addr0.
      - by rewrite Em !rsum_app /= addrCA addrC.
      - move: Pm Hm; rewrite Em. move=> /List.Forall_app [_ Pm] /List.Forall_app [_ Hm].
        move: (List.Forall_inv Pm) (List.Forall_inv Hm) => /= Pk' Hc'.
        rewrite !rsum_app /= (Hg k' k) //.
        have -> : rsum g (if rat_is0 (rat_add c' c) then nil else (k', rat_add c' c) :: nil) = (ratK K c' + ratK K c) *: g k.
        { rewrite -ratK_add //. case E: (rat_is0 _) => /=; last by rewrite addr0 (Hg k' k).
          by rewrite ratK_is0 ?scale0r //; apply: rat_add_den. }
        by rewrite scalerDl -!addrA; congr (_ + (_ + _)); rewrite addrC.
    Qed.
    Lemma rsum_addall g (U : Type) (fk : U -> T) (fc : U -> rational) l m : respectsV g ->
      Forall (fun x => P (fk x)) l -> keysP P m -> Forall (fun x => den (fc x) <> 0%Z) l -> mgood m ->
      rsum g (List.fold_left (fun r x => madd lt (fk x) (fc x) r) l m) = rsum g m + rsum g [seq (fk x, fc x) | x <- l].
    Proof.
      move=> Hg. elim: l m => [|x l IH] m Hl Hm Hc Hgd /=; first by rewrite addr0.
      have Px := List.Forall_inv Hl. have Cx := List.Forall_inv Hc.
      have K1 : keysP P (madd lt (fk x) (fc x) m) by apply: keysP_madd; eauto.
      have K2 : mgood (madd lt (fk x) (fc x) m) by apply: mgood_madd; eauto.
      rewrite (IH _ (List.Forall_inv_tail Hl) K1 (List.Forall_inv_tail Hc) K2).
      by rewrite rsum_madd // ?addrA.
    Qed.
  End Sums.
End Scal.
