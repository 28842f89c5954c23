(** Proofs for C65. *)
From Coq Require Import ZArith QArith Qabs Qround Qpower Qfield List Bool Ascii Lia Lqa.
From Verif Require Import Res RegistryModel RationalModel RationalSpec DecModel TextModel TextSpec TextProofs DecimalModel DecimalSpec.
Import ListNotations.
Local Open Scope Q_scope.

(** ** Rounding to integers *)
Lemma floor_bounds q : inject_Z (Qfloor q) <= q < inject_Z (Qfloor q) + 1.
Proof. split; [apply Qfloor_le|]. assert (H := Qlt_floor q). rewrite inject_Z_plus in H. exact H. Qed.
Lemma round_half q : Qabs (inject_Z (round_even q) - q) <= 1 # 2.
Proof.
  unfold round_even. destruct (floor_bounds q) as (A & B). set (f := Qfloor q) in *. destruct (Qcompare_spec (q - inject_Z f) (1 # 2)) as [E|E|E]; [destruct (Z.even f)|..]; rewrite ?inject_Z_plus; change (inject_Z 1) with 1; apply Qabs_Qle_condition; split; lra.
Qed.
Lemma round_near q z : Qabs (inject_Z (round_even q) - q) <= Qabs (inject_Z z - q).
Proof.
  destruct (Z.eq_dec z (round_even q)) as [->|N]; [apply Qle_refl|]. assert (H := round_half q). apply Qabs_Qle_condition in H. destruct H as (H1 & H2).
  assert (D : (z <= round_even q - 1 \/ round_even q + 1 <= z)%Z) by lia. eapply Qle_trans; [apply round_half|]. destruct D as [D|D]; rewrite Zle_Qle in D.
  - unfold Z.sub in D. rewrite inject_Z_plus in D. change (inject_Z (-(1))) with (-1) in D. rewrite Qabs_neg; lra.
  - rewrite inject_Z_plus in D. change (inject_Z 1) with 1 in D. rewrite Qabs_pos; lra.
Qed.
Lemma round_exact q z : Qabs (q - inject_Z z) < 1 # 2 -> round_even q = z.
Proof.
  intros H. apply Qabs_Qlt_condition in H. destruct H as (H1 & H2). assert (R := round_half q). apply Qabs_Qle_condition in R. destruct R as (R1 & R2).
  assert (A : inject_Z (round_even q) < inject_Z (z + 1)) by (rewrite inject_Z_plus; change (inject_Z 1) with 1; lra). assert (B : inject_Z (z - 1) < inject_Z (round_even q)) by (unfold Z.sub; rewrite inject_Z_plus; change (inject_Z (-(1))) with (-1); lra).
  rewrite <- Zlt_Qlt in A. rewrite <- Zlt_Qlt in B. lia.
Qed.
Lemma round_even_comp p q : p == q -> round_even p = round_even q.
Proof. intros E. unfold round_even. rewrite (Qfloor_comp p q E). assert (X : (p - inject_Z (Qfloor q) ?= 1 # 2) = (q - inject_Z (Qfloor q) ?= 1 # 2)) by (rewrite E; reflexivity). rewrite X. reflexivity. Qed.
Lemma round_int z : round_even (inject_Z z) = z.
Proof. apply round_exact. setoid_replace (inject_Z z - inject_Z z) with 0 by ring. reflexivity. Qed.
Lemma round_nonneg q : 0 <= q -> (0 <= round_even q)%Z.
Proof.
  intros H. unfold round_even. assert (F : (0 <= Qfloor q)%Z) by (change 0%Z with (Qfloor 0); apply Qfloor_resp_le, H). destruct (_ ?= _); try lia. destruct (Z.even _); lia.
Qed.

(** ** Powers of two *)
Lemma p2 e : 0 < 2 ^ e.
Proof. apply Qpower_0_lt. reflexivity. Qed.
Lemma p2_plus a b : 2 ^ (a + b) == 2 ^ a * 2 ^ b.
Proof. apply Qpower_plus. discriminate. Qed.
Lemma p2_opp a : 2 ^ a * 2 ^ (- a) == 1.
Proof. rewrite <- p2_plus, Z.add_opp_diag_r. reflexivity. Qed.
Lemma p2_Z n : (0 <= n)%Z -> 2 ^ n == inject_Z (2 ^ n).
Proof. intros H. symmetry. exact (Zpower_Qpower 2 n H). Qed.
Lemma p2_mono a b : (a <= b)%Z -> 2 ^ a <= 2 ^ b.
Proof. intros H. apply Qpower_le_compat_l; [exact H|discriminate]. Qed.
Lemma Qlt_mult_r a b c : a < b -> 0 < c -> a * c < b * c.
Proof. intros H P. apply Qmult_lt_r; auto. Qed.
Lemma log_bounds n : (0 < n)%Z -> 2 ^ (Z.log2 n) <= inject_Z n < 2 ^ (Z.log2 n) * 2.
Proof.
  intros H. assert (L := Z.log2_nonneg n). destruct (Z.log2_spec n H) as (A & B). split.
  - rewrite p2_Z by exact L. rewrite <- Zle_Qle. exact A.
  - setoid_replace (2 ^ Z.log2 n * 2) with (2 ^ Z.succ (Z.log2 n)) by (rewrite <- Z.add_1_r, p2_plus; reflexivity). rewrite p2_Z by lia. rewrite <- Zlt_Qlt. exact B.
Qed.
Lemma exponent_ok q : 0 < q -> 2 ^ (exponent q) <= q < 2 ^ (exponent q) * 2.
Proof.
  intros H. destruct q as [n d]. assert (Hn : (0 < n)%Z) by (unfold Qlt in H; cbn in H; lia). set (q := n # d) in *.
  destruct (log_bounds n Hn) as (N1 & N2). destruct (log_bounds (Zpos d)) as (D1 & D2); [reflexivity|]. assert (Eq : inject_Z n == q * inject_Z (Zpos d)) by (unfold q, Qeq; cbn; lia).
  unfold exponent. cbn [Qnum Qden q]. fold q. set (a := Z.log2 n) in *. set (b := Z.log2 (Zpos d)) in *. set (k := (a - b)%Z). assert (Ea : 2 ^ a == 2 ^ k * 2 ^ b) by (rewrite <- p2_plus; unfold k; rewrite Z.sub_add; reflexivity).
  assert (Pb := p2 b). assert (Pk := p2 k). assert (Pd : 0 < inject_Z (Zpos d)) by reflexivity.
  assert (U : q < 2 ^ k * 2).
  { apply (Qmult_lt_r _ _ (2 ^ b) Pb). setoid_replace (2 ^ k * 2 * 2 ^ b) with (2 ^ a * 2) by (rewrite Ea; ring). eapply Qle_lt_trans; [|exact N2]. rewrite Eq. rewrite !(Qmult_comm q). apply Qmult_le_compat_r; [exact D1|apply Qlt_le_weak, H]. }
  assert (L : 2 ^ k < q * 2).
  { apply (Qmult_lt_r _ _ (2 ^ b) Pb). rewrite <- Ea. eapply Qle_lt_trans; [exact N1|]. rewrite Eq. setoid_replace (q * 2 * 2 ^ b) with (q * (2 ^ b * 2)) by ring. rewrite !(Qmult_comm q). apply Qlt_mult_r; auto. }
  destruct (Qle_bool (2 ^ k) q) eqn:B.
  - apply Qle_bool_iff in B. split; auto.
  - assert (B' : q < 2 ^ k) by (apply Qnot_le_lt; intros X; apply Qle_bool_iff in X; congruence). assert (E1 : 2 ^ k == 2 ^ (k - 1) * 2) by (setoid_replace (2 ^ (k - 1) * 2) with (2 ^ (k - 1 + 1)) by (rewrite p2_plus; reflexivity); rewrite Z.sub_add; reflexivity). split; lra.
Qed.

(** ** Rounding to 53 bits *)
Lemma round_double_comp p q : p == q -> exponent (Qabs p) = exponent (Qabs q) -> round_double p = round_double q.
Proof. intros E X. unfold round_double. rewrite X. rewrite (round_even_comp (p * _) (q * 2 ^ (- (exponent (Qabs q) - 52)))) by (rewrite E; reflexivity). reflexivity. Qed.
Section One.
  Variable q : Q.
  Let u := (exponent (Qabs q) - 52)%Z.
  Lemma unscale : q == q * 2 ^ (- u) * 2 ^ u.
  Proof. rewrite <- Qmult_assoc, (Qmult_comm (2 ^ (- u))), p2_opp. ring. Qed.
  Lemma grid z : Qabs (round_double q - q) <= Qabs (inject_Z z * 2 ^ u - q).
  Proof.
    assert (P := p2 u). unfold round_double. fold u. assert (X : forall y, Qabs (y * 2 ^ u - q) == Qabs (y - q * 2 ^ (- u)) * 2 ^ u).
    { intros y. rewrite <- (Qabs_pos (2 ^ u)) at 2 by (apply Qlt_le_weak, P). rewrite <- Qabs_Qmult. apply Qabs_wd. rewrite unscale at 1. ring. }
    rewrite !X. apply Qmult_le_compat_r; [apply round_near|apply Qlt_le_weak, P].
  Qed.
  Lemma abs_bounds : ~ q == 0 -> inject_Z (2 ^ 52) * 2 ^ u <= Qabs q < inject_Z (2 ^ 53) * 2 ^ u.
  Proof.
    intros N. assert (H : 0 < Qabs q) by (destruct (Qlt_le_dec 0 (Qabs q)) as [L|L]; auto; exfalso; apply N; apply Qabs_Qle_condition in L; lra).
    assert (E52 : inject_Z (2 ^ 52) * 2 ^ u == 2 ^ exponent (Qabs q)) by (rewrite <- p2_Z by lia; rewrite <- p2_plus; unfold u; rewrite Z.add_sub_assoc, Z.add_comm, Z.add_simpl_r; reflexivity).
    assert (E53 : inject_Z (2 ^ 53) * 2 ^ u == 2 ^ exponent (Qabs q) * 2) by (rewrite <- E52; change (2 ^ 53)%Z with (2 ^ 52 * 2)%Z; rewrite inject_Z_mult; change (inject_Z 2) with 2; ring).
    rewrite E52, E53. apply exponent_ok, H.
  Qed.
  Lemma round_error : Qabs (round_double q - q) <= Qabs q * (1 # 2 ^ 53).
  Proof.
    destruct (Qeq_dec q 0) as [Z0|N].
    - eapply Qle_trans; [apply (grid 0)|]. setoid_replace (inject_Z 0 * 2 ^ u - q) with 0 by (rewrite Z0; change (inject_Z 0) with 0; ring). apply Qmult_le_0_compat; [apply Qabs_nonneg|discriminate].
    - destruct (abs_bounds N) as (L & _). assert (P := p2 u). unfold round_double. fold u.
      setoid_replace (inject_Z (round_even (q * 2 ^ (- u))) * 2 ^ u - q) with ((inject_Z (round_even (q * 2 ^ (- u))) - q * 2 ^ (- u)) * 2 ^ u) by (rewrite unscale at 2; ring).
      rewrite Qabs_Qmult, (Qabs_pos (2 ^ u)) by (apply Qlt_le_weak, P). assert (H := round_half (q * 2 ^ (- u))).
      eapply Qle_trans; [apply Qmult_le_compat_r; [exact H|apply Qlt_le_weak, P]|]. setoid_replace ((1 # 2) * 2 ^ u) with (inject_Z (2 ^ 52) * 2 ^ u * (1 # 2 ^ 53)) by (setoid_replace (inject_Z (2 ^ 52) * 2 ^ u * (1 # 2 ^ 53)) with (inject_Z (2 ^ 52) * (1 # 2 ^ 53) * 2 ^ u) by ring; apply Qmult_comp; reflexivity).
      apply Qmult_le_compat_r; [exact L|discriminate].
  Qed.
  Lemma round_is_double : is_double (round_double q).
  Proof.
    unfold round_double. fold u. set (m := round_even (q * 2 ^ (- u))). assert (B : (Z.abs m <= 2 ^ 53)%Z).
    { destruct (Qeq_dec q 0) as [Z0|N].
      - unfold m. rewrite (round_even_comp _ (inject_Z 0)), round_int; [lia|]. rewrite Z0. change (inject_Z 0) with 0. ring.
      - destruct (abs_bounds N) as (_ & U). assert (P := p2 (- u)). assert (H : Qabs (q * 2 ^ (- u)) < inject_Z (2 ^ 53)).
        { rewrite Qabs_Qmult, (Qabs_pos (2 ^ (- u))) by (apply Qlt_le_weak, P). setoid_replace (inject_Z (2 ^ 53)) with (inject_Z (2 ^ 53) * 2 ^ u * 2 ^ (- u)) by (rewrite <- Qmult_assoc, p2_opp; ring). apply Qlt_mult_r; auto. }
        assert (R := round_half (q * 2 ^ (- u))). fold m in R. apply Qabs_Qlt_condition in H. apply Qabs_Qle_condition in R.
        assert (A1 : inject_Z m < inject_Z (2 ^ 53 + 1)) by (rewrite inject_Z_plus; change (inject_Z 1) with 1; lra). assert (A2 : inject_Z (- (2 ^ 53) - 1) < inject_Z m) by (unfold Z.sub; rewrite inject_Z_plus, inject_Z_opp; change (inject_Z (-(1))) with (-1); lra).
        rewrite <- Zlt_Qlt in A1. rewrite <- Zlt_Qlt in A2. lia. }
    destruct (Z.eq_dec (Z.abs m) (2 ^ 53)) as [E|E]; [|exists m, u; split; [lia|reflexivity]].
    assert (D : m = (m / 2 * 2)%Z) by (assert (m = 2 ^ 53 \/ m = - 2 ^ 53)%Z as [-> | ->] by lia; reflexivity). exists (m / 2)%Z, (1 + u)%Z. split; [assert (m = 2 ^ 53 \/ m = - 2 ^ 53)%Z as [-> | ->] by lia; reflexivity|].
    rewrite D at 1. rewrite inject_Z_mult, p2_plus. change (2 ^ 1) with 2. change (inject_Z 2) with 2. ring.
  Qed.
  Lemma round_nearest : nearest_double (round_double q) q.
  Proof.
    split; [apply round_is_double|]. intros y (m & e & B & Ey). rewrite Ey. destruct (Z_le_gt_dec u e) as [Le|Gt].
    - eapply Qle_trans; [apply (grid (m * 2 ^ (e - u)))|]. apply Qle_lteq. right. apply Qabs_wd. rewrite inject_Z_mult, <- p2_Z by lia. rewrite <- Qmult_assoc, <- p2_plus, Z.sub_add. reflexivity.
    - destruct (Qeq_dec q 0) as [Z0|N].
      + eapply Qle_trans; [apply (grid 0)|]. setoid_replace (inject_Z 0 * 2 ^ u - q) with 0 by (rewrite Z0; change (inject_Z 0) with 0; ring). apply Qabs_nonneg.
      + destruct (abs_bounds N) as (L & _). assert (X : Qabs (inject_Z m * 2 ^ e) <= inject_Z (2 ^ 52) * 2 ^ u).
        { rewrite Qabs_Qmult, (Qabs_pos (2 ^ e)) by (apply Qlt_le_weak, p2). eapply Qle_trans; [apply Qmult_le_compat_r; [|apply Qlt_le_weak, p2]|].
          - assert (Y : Qabs (inject_Z m) <= inject_Z (2 ^ 53)) by (apply Qabs_Qle_condition; rewrite <- inject_Z_opp, <- !Zle_Qle; lia). exact Y.
          - setoid_replace (inject_Z (2 ^ 53) * 2 ^ e) with (inject_Z (2 ^ 52) * 2 ^ (1 + e)) by (rewrite p2_plus; change (2 ^ 1) with 2; change (2 ^ 53)%Z with (2 ^ 52 * 2)%Z; rewrite inject_Z_mult; change (inject_Z 2) with 2; ring).
            rewrite !(Qmult_comm (inject_Z (2 ^ 52))). apply Qmult_le_compat_r; [apply p2_mono; lia|discriminate]. }
        set (h := inject_Z (2 ^ 52) * 2 ^ u) in *. assert (Hy : Qabs q - h <= Qabs (inject_Z m * 2 ^ e - q)).
        { assert (T := Qabs_triangle (inject_Z m * 2 ^ e - q) (- (inject_Z m * 2 ^ e))). setoid_replace (inject_Z m * 2 ^ e - q + - (inject_Z m * 2 ^ e)) with (- q) in T by ring. rewrite !Qabs_opp in T. lra. }
        eapply Qle_trans; [|exact Hy]. destruct (Qlt_le_dec q 0) as [S|S].
        * eapply Qle_trans; [apply (grid (- 2 ^ 52))|]. rewrite inject_Z_opp. setoid_replace (- inject_Z (2 ^ 52) * 2 ^ u - q) with (- q - h) by (unfold h; ring). rewrite (Qabs_neg q) in L |- * by lra. rewrite Qabs_pos by lra. apply Qle_refl.
        * eapply Qle_trans; [apply (grid (2 ^ 52))|]. fold h. rewrite (Qabs_pos q) in L |- * by lra. rewrite Qabs_neg by lra. lra.
  Qed.
End One.
Lemma double_exact q : is_double q -> round_double q == q.
Proof.
  intros D. destruct (round_nearest q) as (_ & N). specialize (N q D). setoid_replace (q - q) with 0 in N by ring. change (Qabs 0) with 0 in N. apply Qabs_Qle_condition in N. lra.
Qed.
Lemma int_double n : (Z.abs n <= 2 ^ 53)%Z -> is_double (inject_Z n).
Proof.
  intros H. destruct (Z.eq_dec (Z.abs n) (2 ^ 53)) as [E|E]; [|exists n, 0%Z; split; [lia|change (2 ^ 0) with 1; ring]].
  assert (n = 2 ^ 53 \/ n = - 2 ^ 53)%Z as [-> | ->] by lia; [exists 1%Z, 53%Z|exists (-1)%Z, 53%Z]; split; reflexivity.
Qed.
