(** Proofs for C68. *)
From Coq Require Import ZArith QArith Qabs Qround Qpower Qfield List Bool Lia Lqa.
From Verif Require Import Res RationalModel RationalSpec RationalProofs CoreModel AlgebraModel AlgebraSpec AlgebraProofs AlgebraProofs2 DecimalModel DecimalSpec DecimalProofs DecimalProofs2 NormModel NormSpec.
Import ListNotations.
Local Open Scope Q_scope.

(** ** The square root *)
Lemma Qsq_le a b : 0 <= a -> a <= b -> a * a <= b * b.
Proof. intros P H. apply Qmult_le_compat_nonneg; auto. Qed.
Lemma Qsq_lt_inv a b : 0 <= b -> a * a < b * b -> a < b.
Proof. intros P H. apply Qnot_le_lt. intros L. assert (X := Qsq_le b a P L). lra. Qed.
(** The integer closest to the root. *)
Definition rsqrt (q : Q) : Z := ((Z.sqrt (Qfloor (4 * q)) + 1) / 2)%Z.
Lemma rsqrt_ok q : 0 <= q -> (0 <= rsqrt q)%Z /\ (inject_Z (rsqrt q) - (1 # 2) <= 0 \/ (inject_Z (rsqrt q) - (1 # 2)) * (inject_Z (rsqrt q) - (1 # 2)) <= q) /\
  q <= (inject_Z (rsqrt q) + (1 # 2)) * (inject_Z (rsqrt q) + (1 # 2)).
Proof.
  intros P. unfold rsqrt. set (f := Qfloor (4 * q)). assert (F : (0 <= f)%Z) by (change 0%Z with (Qfloor 0); apply Qfloor_resp_le; lra).
  destruct (floor_bounds (4 * q)) as (A & B). fold f in A, B. destruct (Z.sqrt_spec f F) as (S1 & S2). set (s := Z.sqrt f) in *. assert (S0 : (0 <= s)%Z) by apply Z.sqrt_nonneg.
  set (n := ((s + 1) / 2)%Z). assert (N : (2 * n <= s + 1 < 2 * n + 2)%Z) by (unfold n; assert (X := Z.div_mod (s + 1) 2); assert (Y := Z.mod_pos_bound (s + 1) 2); lia).
  assert (N0 : (0 <= n)%Z) by lia. split; [exact N0|]. split.
  - destruct (Z.eq_dec n 0) as [E|E]; [left; rewrite E; discriminate|right]. assert (X : ((2 * n - 1) * (2 * n - 1) <= f)%Z) by (assert ((2 * n - 1) * (2 * n - 1) <= s * s)%Z by (apply Z.mul_le_mono_nonneg; lia); lia).
    rewrite Zle_Qle in X. unfold Z.sub in X. rewrite !inject_Z_mult, !inject_Z_plus, !inject_Z_mult in X. change (inject_Z 2) with 2 in X. change (inject_Z (-(1))) with (-1) in X. set (m := inject_Z n) in *.
    assert (Y : (2 * m + -1) * (2 * m + -1) == 4 * ((m - (1 # 2)) * (m - (1 # 2)))) by ring. lra.
  - assert (X : (f + 1 <= (2 * n + 1) * (2 * n + 1))%Z) by (assert ((s + 1) * (s + 1) <= (2 * n + 1) * (2 * n + 1))%Z by (apply Z.mul_le_mono_nonneg; lia); lia).
    rewrite Zle_Qle in X. rewrite !inject_Z_mult, !inject_Z_plus, !inject_Z_mult in X. change (inject_Z 2) with 2 in X. change (inject_Z 1) with 1 in X. set (m := inject_Z n) in *.
    assert (Y : (2 * m + 1) * (2 * m + 1) == 4 * ((m + (1 # 2)) * (m + (1 # 2)))) by ring. lra.
Qed.
Section Sqrt.
  Variable x : Q.
  Hypothesis Px : 0 < x.
  Let u := (exponent x / 2 - 52)%Z.
  Let q := x * 2 ^ (- (2 * u)).
  Let n := rsqrt q.
  Lemma sqrt_n : sqrt_double x = inject_Z n * 2 ^ u.
  Proof. reflexivity. Qed.
  Lemma q_x : x == q * (2 ^ u * 2 ^ u).
  Proof. unfold q. rewrite <- p2_plus. replace (u + u)%Z with (2 * u)%Z by lia. rewrite <- Qmult_assoc, (Qmult_comm (2 ^ (- (2 * u)))), p2_opp. ring. Qed.
  Lemma q_bounds : inject_Z (2 ^ 52) * inject_Z (2 ^ 52) <= q < inject_Z (2 ^ 53) * inject_Z (2 ^ 53).
  Proof.
    destruct (exponent_ok x Px) as (A & B). set (e := exponent x) in *. assert (E : (2 * (e / 2) <= e < 2 * (e / 2) + 2)%Z) by (assert (X := Z.div_mod e 2); assert (Y := Z.mod_pos_bound e 2); lia).
    assert (P := p2 (- (2 * u))). unfold q. rewrite <- !p2_Z by lia. rewrite <- !p2_plus. change (52 + 52)%Z with 104%Z. change (53 + 53)%Z with 106%Z. assert (M : (2 * u = 2 * (e / 2) - 104)%Z) by (unfold u; fold e; lia). split.
    - apply (Qle_trans _ (2 ^ e * 2 ^ (- (2 * u)))); [rewrite <- p2_plus; apply p2_mono; lia|]. apply Qmult_le_compat_r; [exact A|apply Qlt_le_weak, P].
    - apply (Qlt_le_trans _ (2 ^ e * 2 * 2 ^ (- (2 * u)))); [apply Qlt_mult_r; auto|]. setoid_replace (2 ^ e * 2 * 2 ^ (- (2 * u))) with (2 ^ (e + 1 + - (2 * u))) by (rewrite !p2_plus; reflexivity). apply p2_mono. lia.
  Qed.
  Lemma n_bounds : (2 ^ 52 <= n <= 2 ^ 53)%Z.
  Proof.
    destruct q_bounds as (A & B). assert (P0 : 0 <= q) by (eapply Qle_trans; [|exact A]; discriminate). destruct (rsqrt_ok q P0) as (N0 & L & U). fold n in N0, L, U. split.
    - assert (X : inject_Z (2 ^ 52) < inject_Z (n + 1)).
      { rewrite inject_Z_plus. change (inject_Z 1) with 1. assert (Y : inject_Z (2 ^ 52) <= inject_Z n + (1 # 2)); [|lra]. apply Qnot_lt_le. intros Y. assert (Z0 : 0 <= inject_Z n) by (change 0 with (inject_Z 0); rewrite <- Zle_Qle; exact N0).
        assert (W : (inject_Z n + (1 # 2)) * (inject_Z n + (1 # 2)) < inject_Z (2 ^ 52) * inject_Z (2 ^ 52)); [|lra]. apply (Qle_lt_trans _ ((inject_Z n + (1 # 2)) * inject_Z (2 ^ 52))); [rewrite (Qmult_comm _ (inject_Z (2 ^ 52))); apply Qmult_le_compat_r; lra|]. apply Qlt_mult_r; [exact Y|reflexivity]. }
      rewrite <- Zlt_Qlt in X. lia.
    - assert (X : inject_Z n < inject_Z (2 ^ 53 + 1)).
      { rewrite inject_Z_plus. change (inject_Z 1) with 1. assert (Y : inject_Z n - (1 # 2) < inject_Z (2 ^ 53)); [|lra]. destruct L as [L|L]; [eapply Qle_lt_trans; [exact L|reflexivity]|]. apply Qsq_lt_inv; [discriminate|]. lra. }
      rewrite <- Zlt_Qlt in X. lia.
  Qed.
  Lemma n_sq : (inject_Z n - (1 # 2)) * (inject_Z n - (1 # 2)) <= q <= (inject_Z n + (1 # 2)) * (inject_Z n + (1 # 2)).
  Proof.
    destruct q_bounds as (A & B). assert (P0 : 0 <= q) by (eapply Qle_trans; [|exact A]; discriminate). destruct (rsqrt_ok q P0) as (N0 & L & U). fold n in N0, L, U. split; auto. destruct L as [L|L]; auto.
    exfalso. destruct n_bounds as (X & _). rewrite Zle_Qle in X. assert (Y : 1 <= inject_Z (2 ^ 52)) by discriminate. lra.
  Qed.
  Lemma sqrt_is_double : is_double (sqrt_double x).
  Proof.
    rewrite sqrt_n. destruct n_bounds as (A & B). destruct (int_double n) as (m & e & M & E); [lia|]. exists m, (e + u)%Z. split; auto. rewrite E, p2_plus. ring.
  Qed.
  Lemma sqrt_pos : 0 < sqrt_double x.
  Proof. rewrite sqrt_n. destruct n_bounds as (A & _). setoid_replace 0 with (0 * 2 ^ u) by ring. apply Qlt_mult_r; [|apply p2]. change 0 with (inject_Z 0). rewrite <- Zlt_Qlt. lia. Qed.
  (** Compare a multiple of the unit. *)
  Lemma mid_up a : inject_Z n + (1 # 2) <= a -> x <= (a * 2 ^ u) * (a * 2 ^ u).
  Proof.
    intros H. rewrite q_x. setoid_replace (a * 2 ^ u * (a * 2 ^ u)) with (a * a * (2 ^ u * 2 ^ u)) by ring. assert (P := p2 u). apply Qmult_le_compat_r; [|apply Qmult_le_0_compat; apply Qlt_le_weak, P].
    eapply Qle_trans; [apply n_sq|]. apply Qsq_le; [|exact H]. destruct n_bounds as (A & _). rewrite Zle_Qle in A. assert (Y : 1 <= inject_Z (2 ^ 52)) by discriminate. lra.
  Qed.
  Lemma mid_down a : 0 <= a -> a <= inject_Z n - (1 # 2) \/ a <= inject_Z (2 ^ 52) -> (a * 2 ^ u) * (a * 2 ^ u) <= x.
  Proof.
    intros P0 H. rewrite q_x. setoid_replace (a * 2 ^ u * (a * 2 ^ u)) with (a * a * (2 ^ u * 2 ^ u)) by ring. assert (P := p2 u). apply Qmult_le_compat_r; [|apply Qmult_le_0_compat; apply Qlt_le_weak, P].
    destruct H as [H|H]; eapply Qle_trans; try (apply Qsq_le; [exact P0|exact H]); [apply n_sq|apply q_bounds].
  Qed.
  Lemma sqrt_nearest : nearest_sqrt (sqrt_double x) x.
  Proof.
    split; [apply sqrt_is_double|]. split; [apply Qlt_le_weak, sqrt_pos|]. intros z (m & e & M & Ez) Z0. destruct n_bounds as (N1 & N2). assert (P := p2 u). rewrite sqrt_n.
    destruct (Z_le_gt_dec u e) as [Le|Gt].
    - set (k := (m * 2 ^ (e - u))%Z). assert (Ek : z == inject_Z k * 2 ^ u) by (rewrite Ez; unfold k; rewrite inject_Z_mult, <- p2_Z by lia; rewrite <- Qmult_assoc, <- p2_plus, Z.sub_add; reflexivity).
      assert (Em : (inject_Z n * 2 ^ u + z) / 2 == ((inject_Z n + inject_Z k) * (1 # 2)) * 2 ^ u) by (rewrite Ek; field).
      split; intros H; rewrite Ek in H; apply Qmult_lt_r in H; auto; rewrite <- Zlt_Qlt in H; rewrite Em.
      + apply mid_up. assert (X : (n + 1 <= k)%Z) by lia. rewrite Zle_Qle, inject_Z_plus in X. change (inject_Z 1) with 1 in X. lra.
      + assert (K0 : 0 <= inject_Z k) by (rewrite Ek in Z0; apply (Qmult_le_r _ _ (2 ^ u) P); lra). assert (X : (k + 1 <= n)%Z) by lia. rewrite Zle_Qle, inject_Z_plus in X. change (inject_Z 1) with 1 in X. apply mid_down; [lra|]. left. lra.
    - assert (Zu : z < inject_Z (2 ^ 52) * 2 ^ u).
      { rewrite Ez. apply (Qlt_le_trans _ (inject_Z (2 ^ 53) * 2 ^ e)); [apply Qlt_mult_r; [rewrite <- Zlt_Qlt; lia|apply p2]|].
        setoid_replace (inject_Z (2 ^ 53) * 2 ^ e) with (inject_Z (2 ^ 52) * 2 ^ (1 + e)) by (rewrite p2_plus; change (2 ^ 1) with 2; change (2 ^ 53)%Z with (2 ^ 52 * 2)%Z; rewrite inject_Z_mult; change (inject_Z 2) with 2; ring).
        rewrite !(Qmult_comm (inject_Z (2 ^ 52))). apply Qmult_le_compat_r; [apply p2_mono; lia|discriminate]. }
      assert (Nu : inject_Z (2 ^ 52) * 2 ^ u <= inject_Z n * 2 ^ u) by (apply Qmult_le_compat_r; [rewrite <- Zle_Qle; exact N1|apply Qlt_le_weak, P]).
      split; intros H; [lra|]. set (a := z * 2 ^ (- u)). assert (Ea : z == a * 2 ^ u) by (unfold a; rewrite <- Qmult_assoc, (Qmult_comm (2 ^ (- u))), p2_opp; ring).
      assert (A0 : 0 <= a) by (apply Qmult_le_0_compat; [exact Z0|apply Qlt_le_weak, p2]). assert (A1 : a < inject_Z (2 ^ 52)) by (rewrite Ea in Zu; apply Qmult_lt_r in Zu; auto).
      assert (Em : (inject_Z n * 2 ^ u + z) / 2 == ((inject_Z n + a) * (1 # 2)) * 2 ^ u) by (rewrite Ea; field). rewrite Em. assert (Y := N1). rewrite Zle_Qle in Y. assert (Y0 : 0 <= inject_Z (2 ^ 52)) by discriminate. apply mid_down; [lra|].
      destruct (Z.eq_dec n (2 ^ 52)) as [E|E]; [right; rewrite E; lra|left]. assert (X : (2 ^ 52 + 1 <= n)%Z) by lia. rewrite Zle_Qle, inject_Z_plus in X. change (inject_Z 1) with 1 in X. lra.
  Qed.
  (** Relative error. *)
  Definition eps : Q := 1 # 2 ^ 53.
  Lemma sqrt_rel : (sqrt_double x * (1 - eps)) * (sqrt_double x * (1 - eps)) <= x <= (sqrt_double x * (1 + eps)) * (sqrt_double x * (1 + eps)).
  Proof.
    rewrite sqrt_n. destruct n_bounds as (N1 & N2). rewrite Zle_Qle in N1. assert (H : 1 # 2 <= inject_Z n * eps) by (setoid_replace (1 # 2) with (inject_Z (2 ^ 52) * eps) by reflexivity; apply Qmult_le_compat_r; [exact N1|discriminate]).
    assert (Y0 : 0 <= inject_Z (2 ^ 52)) by discriminate. split.
    - setoid_replace (inject_Z n * 2 ^ u * (1 - eps)) with (inject_Z n * (1 - eps) * 2 ^ u) by ring. apply mid_down; [apply Qmult_le_0_compat; [lra|discriminate]|]. left. setoid_replace (inject_Z n * (1 - eps)) with (inject_Z n - inject_Z n * eps) by ring. lra.
    - setoid_replace (inject_Z n * 2 ^ u * (1 + eps)) with (inject_Z n * (1 + eps) * 2 ^ u) by ring. apply mid_up. setoid_replace (inject_Z n * (1 + eps)) with (inject_Z n + inject_Z n * eps) by ring. lra.
  Qed.
End Sqrt.
