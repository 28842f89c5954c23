(** C65: rounding keeps the order of the coefficients and changes with the sign. *)
From Coq Require Import ZArith QArith Qabs Qround Qpower Qfield List Bool Ascii Lia Lqa.
From Verif Require Import Res RegistryModel RationalModel RationalSpec RationalProofs DecModel TextModel TextSpec TextProofs EqTextSpec EqTextProofs DecimalModel DecimalSpec DecimalProofs DecimalProofs2.
Import ListNotations.
Local Open Scope Q_scope.

Lemma nearest_order a b x y : a < b -> Qabs (x - a) <= Qabs (y - a) -> Qabs (y - b) <= Qabs (x - b) -> x <= y.
Proof.
  intros L A B. apply Qnot_lt_le. intros G. revert A B. apply Qabs_case; intros H1; apply Qabs_case; intros H2; intros A; apply Qabs_case; intros H3; apply Qabs_case; intros H4; intros B; lra.
Qed.
Lemma round_double_mono p q : p <= q -> round_double p <= round_double q.
Proof.
  intros L. apply Qle_lteq in L. destruct L as [L|E]; [|rewrite (round_double_eq p q E); apply Qle_refl].
  destruct (round_nearest p) as (D & N). destruct (round_nearest q) as (D' & N'). exact (nearest_order p q _ _ L (N _ D') (N' _ D)).
Qed.
Lemma round_even_mono p q : p <= q -> (round_even p <= round_even q)%Z.
Proof.
  intros L. apply Qle_lteq in L. destruct L as [L|E]; [|rewrite (round_even_comp p q E); lia].
  rewrite Zle_Qle. exact (nearest_order p q _ _ L (round_near p _) (round_near q _)).
Qed.
Lemma to_double_round r : (0 < den r)%Z -> small r -> to_double r == round_double (Qval r).
Proof. intros P (A & B). unfold to_double. apply round_double_eq. rewrite Qval_div by exact P. rewrite !double_exact by (apply int_double; lia). reflexivity. Qed.
Lemma to_double_mono r s : (0 < den r)%Z -> (0 < den s)%Z -> small r -> small s -> Qval r <= Qval s -> to_double r <= to_double s.
Proof. intros P Q A B L. rewrite !to_double_round by assumption. apply round_double_mono, L. Qed.
(** Rounding to decimals. *)
Lemma shown_pos k x : 0 <= x -> shown k x == inject_Z (round_even (x * inject_Z (10 ^ Z.of_nat k))) / inject_Z (10 ^ Z.of_nat k).
Proof.
  intros H. unfold shown, sgn_of. replace (Qle_bool 0 x) with true by (symmetry; apply Qle_bool_iff; exact H). rewrite (round_even_comp (Qabs x * _) (x * inject_Z (10 ^ Z.of_nat k))) by (rewrite Qabs_pos by exact H; reflexivity). change (inject_Z 1) with 1. ring.
Qed.
Lemma shown_neg k x : x < 0 -> shown k x == - (inject_Z (round_even (- x * inject_Z (10 ^ Z.of_nat k))) / inject_Z (10 ^ Z.of_nat k)).
Proof.
  intros H. unfold shown, sgn_of. destruct (Qle_bool 0 x) eqn:E; [apply Qle_bool_iff in E; lra|]. rewrite (round_even_comp (Qabs x * _) (- x * inject_Z (10 ^ Z.of_nat k))) by (rewrite Qabs_neg by lra; reflexivity). change (inject_Z (-1)) with (-1). ring.
Qed.
Lemma tenth_mono k a b : (a <= b)%Z -> inject_Z a / inject_Z (10 ^ Z.of_nat k) <= inject_Z b / inject_Z (10 ^ Z.of_nat k).
Proof. intros H. apply Qmult_le_compat_r; [rewrite <- Zle_Qle; exact H|]. apply Qlt_le_weak, Qinv_lt_0_compat, ten_Q. Qed.
Lemma tenth_nonneg k x : 0 <= x -> 0 <= inject_Z (round_even (x * inject_Z (10 ^ Z.of_nat k))) / inject_Z (10 ^ Z.of_nat k).
Proof.
  intros H. setoid_replace 0 with (inject_Z 0 / inject_Z (10 ^ Z.of_nat k)) by (change (inject_Z 0) with 0; assert (T := ten_Q k); field; lra).
  apply tenth_mono. apply round_nonneg. apply Qmult_le_0_compat; [exact H|]. apply Qlt_le_weak, ten_Q.
Qed.
Lemma shown_mono k x y : x <= y -> shown k x <= shown k y.
Proof.
  intros L. assert (T := ten_Q k). destruct (Qlt_le_dec x 0) as [X|X]; destruct (Qlt_le_dec y 0) as [Y|Y].
  - rewrite (shown_neg k x X), (shown_neg k y Y). apply Qopp_le_compat. apply tenth_mono, round_even_mono. apply Qmult_le_compat_r; lra.
  - rewrite (shown_neg k x X), (shown_pos k y Y). assert (A := tenth_nonneg k (- x) ltac:(lra)). assert (B := tenth_nonneg k y Y). lra.
  - lra.
  - rewrite (shown_pos k x X), (shown_pos k y Y). apply tenth_mono, round_even_mono. apply Qmult_le_compat_r; lra.
Qed.
Lemma decimal_order k r s a b : (0 < den r)%Z -> (0 < den s)%Z -> small r -> small s -> Qval r <= Qval s ->
  reads_decimal k (fixed k (to_double r)) a -> reads_decimal k (fixed k (to_double s)) b -> a <= b.
Proof.
  intros P Q A B L Ra Rb. rewrite (decimal_unique _ _ _ _ Ra (fixed_reads k (to_double r))), (decimal_unique _ _ _ _ Rb (fixed_reads k (to_double s))).
  apply shown_mono, to_double_mono; assumption.
Qed.
(** ** The sign *)
Lemma round_even_opp q : round_even (- q) = (- round_even q)%Z.
Proof.
  assert (H := round_half q). destruct (Qlt_le_dec (Qabs (inject_Z (round_even q) - q)) (1 # 2)) as [S|G].
  - apply round_exact. rewrite inject_Z_opp. setoid_replace (- q - - inject_Z (round_even q)) with (inject_Z (round_even q) - q) by ring. exact S.
  - assert (F : q == inject_Z (Qfloor q) + (1 # 2)).
    { revert G H. unfold round_even. destruct (floor_bounds q) as (A & B). set (f := Qfloor q) in *. destruct (Qcompare_spec (q - inject_Z f) (1 # 2)) as [E|E|E]; [intros; lra|..]; rewrite ?inject_Z_plus; change (inject_Z 1) with 1; apply Qabs_case; intros; lra. }
    set (f := Qfloor q) in *. assert (E : Qfloor (- q) = (- f - 1)%Z).
    { assert (X := floor_bounds (- q)). destruct X as (X1 & X2). assert (Y1 : inject_Z (Qfloor (- q)) < inject_Z (- f)) by (rewrite inject_Z_opp; lra).
      assert (Y2 : inject_Z (- f - 2) < inject_Z (Qfloor (- q))) by (unfold Z.sub; rewrite inject_Z_plus, inject_Z_opp; change (inject_Z (-(2))) with (-2); lra). rewrite <- Zlt_Qlt in Y1. rewrite <- Zlt_Qlt in Y2. lia. }
    unfold round_even. rewrite E. fold f. replace (- q - inject_Z (- f - 1) ?= 1 # 2) with Eq.
    2: { symmetry. apply Qeq_alt. unfold Z.sub. rewrite inject_Z_plus, inject_Z_opp. change (inject_Z (-(1))) with (-1). lra. }
    replace (q - inject_Z f ?= 1 # 2) with Eq by (symmetry; apply Qeq_alt; lra).
    assert (Pa : Z.even (- f - 1) = negb (Z.even f)) by (rewrite Z.even_sub, Z.even_opp; destruct (Z.even f); reflexivity). rewrite Pa. destruct (Z.even f); simpl; lia.
Qed.
Lemma round_double_opp q : round_double (- q) == - round_double q.
Proof.
  assert (E : Qabs (- q) = Qabs q) by (destruct q as [n d]; unfold Qabs, Qopp; simpl; rewrite Z.abs_opp; reflexivity). unfold round_double. rewrite E. set (u := (exponent (Qabs q) - 52)%Z). rewrite (round_even_comp (- q * 2 ^ (- u)) (- (q * 2 ^ (- u)))) by ring. rewrite round_even_opp, inject_Z_opp. ring.
Qed.
Lemma shown_eq k x y : x == y -> shown k x == shown k y.
Proof. intros E. apply Qle_antisym; apply shown_mono; rewrite E; apply Qle_refl. Qed.
Lemma shown_opp k x : shown k (- x) == - shown k x.
Proof.
  assert (T := ten_Q k). destruct (Qlt_le_dec 0 x) as [P|N].
  - rewrite (shown_neg k (- x)) by lra. rewrite (shown_pos k x) by lra. rewrite (round_even_comp (- - x * _) (x * inject_Z (10 ^ Z.of_nat k))) by ring. reflexivity.
  - apply Qle_lteq in N. destruct N as [N|E].
    + rewrite (shown_pos k (- x)) by lra. rewrite (shown_neg k x) by lra. ring.
    + rewrite (shown_eq k (- x) 0) by (rewrite E; reflexivity). rewrite (shown_eq k x 0) by exact E. rewrite (shown_pos k 0) by lra. rewrite (round_even_comp (0 * _) (inject_Z 0)) by (change (inject_Z 0) with 0; ring). rewrite round_int. change (inject_Z 0) with 0. field. lra.
Qed.
Lemma to_double_opp r : (0 < den r)%Z -> to_double (mkR (- num r) (den r)) == - to_double r.
Proof.
  intros P. unfold to_double. cbn [num den]. rewrite <- round_double_opp. apply round_double_eq. rewrite inject_Z_opp, round_double_opp. unfold Qdiv. ring.
Qed.
Lemma decimal_opp k r a b : (0 < den r)%Z -> reads_decimal k (fixed k (to_double r)) a -> reads_decimal k (fixed k (to_double (mkR (- num r) (den r)))) b -> b == - a.
Proof.
  intros P Ra Rb. rewrite (decimal_unique _ _ _ _ Ra (fixed_reads k (to_double r))), (decimal_unique _ _ _ _ Rb (fixed_reads k _)).
  rewrite <- shown_opp. apply shown_eq, to_double_opp, P.
Qed.
Lemma rat_neg_is r : canonical r -> rat_neg r = mkR (- num r) (den r).
Proof.
  intros C. assert (P := proj1 C). apply canonical_val_inj; [apply rat_neg_canonical, C|split; cbn [num den]; [exact P|rewrite Z.gcd_opp_l; apply C]|].
  rewrite rat_neg_val by lia. unfold Qval, Qdiv. cbn [num den]. rewrite inject_Z_opp. ring.
Qed.
Lemma decimal_neg k r a b : canonical r -> reads_decimal k (fixed k (to_double r)) a -> reads_decimal k (fixed k (to_double (rat_neg r))) b -> b == - a.
Proof. intros C. rewrite (rat_neg_is r C). apply decimal_opp, C. Qed.
