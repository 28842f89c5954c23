(** Proofs for C65: coefficients and their texts. *)
From Coq Require Import ZArith QArith Qabs Qround Qpower Qfield List Bool Ascii Lia Lqa.
From Verif Require Import Res RegistryModel RationalModel RationalSpec DecModel TextModel TextSpec TextProofs EqTextSpec EqTextProofs DecimalModel DecimalSpec DecimalProofs.
Import ListNotations.
Local Open Scope Q_scope.

Lemma exponent_unique x a b : 2 ^ a <= x < 2 ^ a * 2 -> 2 ^ b <= x < 2 ^ b * 2 -> a = b.
Proof.
  assert (X : forall a b, 2 ^ a <= x < 2 ^ a * 2 -> 2 ^ b <= x < 2 ^ b * 2 -> (a <= b)%Z); [|intros A B; assert (H1 := X _ _ A B); assert (H2 := X _ _ B A); lia].
  clear. intros a b (A & _) (_ & B). destruct (Z_le_gt_dec a b) as [L|G]; auto. exfalso. assert (M : 2 ^ (b + 1) <= 2 ^ a) by (apply p2_mono; lia). rewrite p2_plus in M. change (2 ^ 1) with 2 in M. lra.
Qed.
Lemma abs_pos q : ~ q == 0 -> 0 < Qabs q.
Proof. intros N. destruct (Qlt_le_dec 0 (Qabs q)) as [L|L]; auto. exfalso. apply N. apply Qabs_Qle_condition in L. lra. Qed.
Lemma round_double_eq p q : p == q -> round_double p == round_double q.
Proof.
  intros E. destruct (Qeq_dec q 0) as [Z0|N].
  - rewrite !double_exact; auto; [exists 0%Z, 0%Z|exists 0%Z, 0%Z]; (split; [reflexivity|]); rewrite ?E, Z0; reflexivity.
  - assert (X : exponent (Qabs p) = exponent (Qabs q)).
    { assert (Y := exponent_ok (Qabs p)). set (ep := exponent (Qabs p)) in *. assert (Y0 : 0 < Qabs p) by (rewrite (Qabs_wd _ _ E); apply abs_pos, N). specialize (Y Y0). rewrite (Qabs_wd _ _ E) in Y. exact (exponent_unique _ _ _ Y (exponent_ok _ (abs_pos _ N))). }
    rewrite (round_double_comp p q E X). reflexivity.
Qed.

Definition small (r : rational) : Prop := (Z.abs (num r) <= 2 ^ 53 /\ den r <= 2 ^ 53)%Z.
Lemma Qval_div r : (0 < den r)%Z -> Qval r == inject_Z (num r) / inject_Z (den r).
Proof. intros H. reflexivity. Qed.
Lemma to_double_small r : (0 < den r)%Z -> small r -> nearest_double (to_double r) (Qval r).
Proof.
  intros P (A & B). assert (E : to_double r == round_double (Qval r)).
  { unfold to_double. apply round_double_eq. rewrite Qval_div by exact P. rewrite !double_exact by (apply int_double; lia). reflexivity. }
  destruct (round_nearest (Qval r)) as ((m & e & Bm & Em) & N). split; [exists m, e; split; [exact Bm|rewrite E; exact Em]|]. intros y Hy. rewrite E. apply N, Hy.
Qed.
Lemma small_error r : (0 < den r)%Z -> small r -> Qabs (to_double r - Qval r) <= Qabs (Qval r) * (1 # 2 ^ 53).
Proof.
  intros P (A & B). assert (E : to_double r == round_double (Qval r)).
  { unfold to_double. apply round_double_eq. rewrite Qval_div by exact P. rewrite !double_exact by (apply int_double; lia). reflexivity. }
  rewrite E. apply round_error.
Qed.
(** No bound on the numerator and the denominator. *)
Lemma to_double_error r : (0 < den r)%Z -> Qabs (to_double r - Qval r) <= Qabs (Qval r) * (1 # 2 ^ 51).
Proof.
  intros P. set (eps := 1 # 2 ^ 53). assert (Peps : 0 < eps) by reflexivity. assert (Seps : eps < 1 # 1000) by reflexivity. assert (E51 : (1 # 2 ^ 51) == 4 * eps) by reflexivity. rewrite E51. set (n := inject_Z (num r)). set (d := inject_Z (den r)). assert (Pd : 0 < d) by (unfold d; change 0 with (inject_Z 0); rewrite <- Zlt_Qlt; exact P).
  set (a := round_double n). set (b := round_double d). assert (Ea : Qabs (a - n) <= Qabs n * eps) by apply round_error. assert (Eb : Qabs (b - d) <= Qabs d * eps) by apply round_error.
  rewrite (Qabs_pos d) in Eb by (apply Qlt_le_weak, Pd). apply Qabs_Qle_condition in Eb. assert (Lb : d * (1 - eps) <= b) by (destruct Eb; setoid_replace (d * (1 - eps)) with (d - d * eps) by ring; lra). assert (Pb : 0 < b) by (eapply Qlt_le_trans; [|exact Lb]; setoid_replace 0 with (0 * (1 - eps)) by ring; apply Qmult_lt_compat_r; lra).
  assert (Ex : Qabs (to_double r - a / b) <= Qabs (a / b) * eps) by apply round_error. set (x := to_double r) in *.
  assert (Eq : Qval r == n / d) by (apply Qval_div, P). set (q := n / d) in *. assert (En : n == q * d) by (unfold q; field; lra). set (t := a / b) in *. assert (Et : a == t * b) by (unfold t; field; lra).
  rewrite Eq. assert (Aq : Qabs n == Qabs q * d) by (rewrite En, Qabs_Qmult, (Qabs_pos d) by lra; reflexivity).
  (* |t - q| * b <= 2 eps |q| d *)
  assert (H1 : Qabs (t - q) * b <= Qabs q * d * (2 * eps)).
  { rewrite <- (Qabs_pos b) at 1 by lra. rewrite <- Qabs_Qmult. setoid_replace ((t - q) * b) with ((a - n) + q * (d - b)) by (rewrite Et, En; ring). eapply Qle_trans; [apply Qabs_triangle|]. rewrite Qabs_Qmult.
    assert (Y : Qabs (d - b) <= d * eps) by (apply Qabs_Qle_condition; lra). assert (Y2 : Qabs q * Qabs (d - b) <= Qabs q * (d * eps)) by (rewrite !(Qmult_comm (Qabs q)); apply Qmult_le_compat_r; [exact Y|apply Qabs_nonneg]).
    rewrite Aq in Ea. setoid_replace (Qabs q * d * (2 * eps)) with (Qabs q * d * eps + Qabs q * (d * eps)) by ring. lra. }
  assert (Aq0 := Qabs_nonneg q). assert (Tq0 := Qabs_nonneg (t - q)).
  assert (H2 : Qabs (t - q) * (1 - eps) <= Qabs q * (2 * eps)).
  { apply (Qmult_le_r _ _ d Pd). eapply Qle_trans; [|setoid_replace (Qabs q * (2 * eps) * d) with (Qabs q * d * (2 * eps)) by ring; exact H1].
    setoid_replace (Qabs (t - q) * (1 - eps) * d) with (d * (1 - eps) * Qabs (t - q)) by ring. rewrite (Qmult_comm (Qabs (t - q))). apply Qmult_le_compat_r; auto. }
  assert (T1 : Qabs t <= Qabs q + Qabs (t - q)) by (assert (T := Qabs_triangle q (t - q)); setoid_replace (q + (t - q)) with t in T by ring; exact T).
  assert (T2 : Qabs (x - q) <= Qabs (x - t) + Qabs (t - q)) by (assert (T := Qabs_triangle (x - t) (t - q)); setoid_replace (x - t + (t - q)) with (x - q) in T by ring; exact T).
  set (A := Qabs (t - q)) in *. set (B := Qabs q) in *. set (C := Qabs t) in *. set (D := Qabs (x - q)) in *. set (F := Qabs (x - t)) in *. clearbody A B C D F. unfold eps in *. change (1 # 2 ^ 53) with (1 # 9007199254740992) in *. clear - Ex H2 T1 T2 Aq0 Tq0. lra.
Qed.

(** ** Texts *)
Lemma last_ok k : forall n acc, (0 <= n)%Z -> length (last_digits k n) = k /\ all_of is_digit (last_digits k n) /\
  fold_left (fun a c => 10 * a + digit_val c)%Z (last_digits k n) acc = (acc * 10 ^ Z.of_nat k + n mod 10 ^ Z.of_nat k)%Z.
Proof.
  induction k as [|k IH]; intros n acc Hn; cbn [last_digits].
  - split; [reflexivity|]. split; [constructor|]. cbn. rewrite Z.mod_1_r. lia.
  - destruct (IH (n / 10)%Z acc) as (A & B & C); [apply Z.div_pos; lia|]. destruct (digit_ok (n mod 10)) as (E & F); [assert (X := Z.mod_pos_bound n 10); lia|].
    split; [rewrite app_length, A; cbn; lia|]. split; [apply Forall_app; split; [exact B|constructor; [exact E|constructor]]|]. rewrite fold_left_app, C. cbn [fold_left]. rewrite F.
    rewrite Nat2Z.inj_succ, Z.pow_succ_r by lia. set (p := (10 ^ Z.of_nat k)%Z). assert (Pp : (0 < p)%Z) by (apply Z.pow_pos_nonneg; lia). rewrite Z.rem_mul_r by lia. lia.
Qed.
Definition sgn_of (x : Q) : Z := if Qle_bool 0 x then 1%Z else (-1)%Z.
Definition shown (k : nat) (x : Q) : Q := inject_Z (sgn_of x) * (inject_Z (round_even (Qabs x * inject_Z (10 ^ Z.of_nat k))) / inject_Z (10 ^ Z.of_nat k)).
Lemma ten k : (0 < 10 ^ Z.of_nat k)%Z.
Proof. apply Z.pow_pos_nonneg; lia. Qed.
Lemma fixed_reads k x : reads_decimal k (fixed k x) (shown k x).
Proof.
  unfold fixed, shown. set (n := round_even (Qabs x * inject_Z (10 ^ Z.of_nat k))). assert (T := ten k). assert (Hn : (0 <= n)%Z).
  { apply round_nonneg. apply Qmult_le_0_compat; [apply Qabs_nonneg|]. change 0 with (inject_Z 0). rewrite <- Zle_Qle. lia. }
  destruct (dec_pos (n / 10 ^ Z.of_nat k)) as (A & B & C); [apply Z.div_pos; lia|]. destruct (last_ok k n (n / 10 ^ Z.of_nat k) Hn) as (D & E & F).
  assert (V : dec_value (dec_text (n / 10 ^ Z.of_nat k) ++ last_digits k n) = n) by (rewrite dec_value_app, C, F; assert (X := Z.div_mod n (10 ^ Z.of_nat k)); lia).
  rewrite <- V at 3. apply rd_intro; auto. unfold sgn_of, sign_text. destruct (Qle_bool 0 x); [left|right; right]; auto.
Qed.
Lemma ten_Q k : 0 < inject_Z (10 ^ Z.of_nat k).
Proof. change 0 with (inject_Z 0). rewrite <- Zlt_Qlt. apply ten. Qed.
Lemma sgn_abs x : x == inject_Z (sgn_of x) * Qabs x.
Proof.
  unfold sgn_of. destruct (Qle_bool 0 x) eqn:E; [apply Qle_bool_iff in E; rewrite Qabs_pos by exact E; change (inject_Z 1) with 1; ring|].
  assert (L : x < 0) by (apply Qnot_le_lt; intros X; apply Qle_bool_iff in X; congruence). rewrite Qabs_neg by lra. change (inject_Z (-1)) with (-1). ring.
Qed.
Lemma sgn_mul x y : Qabs (inject_Z (sgn_of x) * y) == Qabs y.
Proof. rewrite Qabs_Qmult. unfold sgn_of. destruct (Qle_bool 0 x); cbn [inject_Z]; change (Qabs (inject_Z 1)) with 1; change (Qabs (inject_Z (-1))) with 1; ring. Qed.
Lemma shown_error k x : Qabs (shown k x - x) <= (1 # 2) / inject_Z (10 ^ Z.of_nat k).
Proof.
  unfold shown. set (p := inject_Z (10 ^ Z.of_nat k)). assert (P : 0 < p) by apply ten_Q. set (n := inject_Z (round_even (Qabs x * p))).
  setoid_replace (inject_Z (sgn_of x) * (n / p) - x) with (inject_Z (sgn_of x) * ((n - Qabs x * p) / p)) by (rewrite (sgn_abs x) at 2; field; lra). rewrite sgn_mul. unfold Qdiv. rewrite Qabs_Qmult, (Qabs_pos (/ p)) by (apply Qlt_le_weak, Qinv_lt_0_compat, P).
  apply Qmult_le_compat_r; [apply round_half|apply Qlt_le_weak, Qinv_lt_0_compat, P].
Qed.
Lemma decimal_error k r : (0 < den r)%Z -> exists y, reads_decimal k (fixed k (to_double r)) y /\ Qabs (y - Qval r) <= (1 # 2) / inject_Z (10 ^ Z.of_nat k) + Qabs (Qval r) * (1 # 2 ^ 51).
Proof.
  intros P. exists (shown k (to_double r)). split; [apply fixed_reads|]. assert (A := shown_error k (to_double r)). assert (B := to_double_error r P). assert (T := Qabs_triangle (shown k (to_double r) - to_double r) (to_double r - Qval r)).
  setoid_replace (shown k (to_double r) - to_double r + (to_double r - Qval r)) with (shown k (to_double r) - Qval r) in T by ring. lra.
Qed.
Lemma abs_close x q : Qabs (Qabs x - Qabs q) <= Qabs (x - q).
Proof. apply Qabs_Qle_condition. assert (A := Qabs_triangle (x - q) q). setoid_replace (x - q + q) with x in A by ring. assert (B := Qabs_triangle (q - x) x). setoid_replace (q - x + x) with q in B by ring. rewrite (Qabs_Qminus q x) in B. split; lra. Qed.
Lemma decimal_exact k r z : (0 < den r)%Z -> Qval r * inject_Z (10 ^ Z.of_nat k) == inject_Z z -> (Z.abs z < 2 ^ 50)%Z -> exists y, reads_decimal k (fixed k (to_double r)) y /\ y == Qval r.
Proof.
  intros P E B. exists (shown k (to_double r)). split; [apply fixed_reads|]. set (x := to_double r). set (q := Qval r) in *. set (p := inject_Z (10 ^ Z.of_nat k)) in *. assert (Pp : 0 < p) by apply ten_Q.
  assert (Er : Qabs (x - q) <= Qabs q * (1 # 2 ^ 51)) by (apply to_double_error, P). assert (Ab : Qabs q * p == inject_Z (Z.abs z)).
  { rewrite <- (Qabs_pos p) by lra. rewrite <- Qabs_Qmult, E. unfold inject_Z, Qabs. reflexivity. }
  assert (Bz : inject_Z (Z.abs z) < inject_Z (2 ^ 50)) by (rewrite <- Zlt_Qlt; exact B).
  assert (R : round_even (Qabs x * p) = Z.abs z).
  { apply round_exact. rewrite <- Ab. setoid_replace (Qabs x * p - Qabs q * p) with ((Qabs x - Qabs q) * p) by ring. rewrite Qabs_Qmult, (Qabs_pos p) by lra.
    eapply Qle_lt_trans; [apply Qmult_le_compat_r; [eapply Qle_trans; [apply abs_close|exact Er]|lra]|]. setoid_replace (Qabs q * (1 # 2 ^ 51) * p) with (Qabs q * p * (1 # 2 ^ 51)) by ring. rewrite Ab. change (inject_Z (2 ^ 50)) with (1125899906842624 # 1) in Bz. change (1 # 2 ^ 51) with (1 # 2251799813685248). lra. }
  unfold shown. fold p. rewrite R, <- Ab. assert (S : ~ q == 0 -> sgn_of x = sgn_of q).
  { intros N. assert (Aq := abs_pos q N). assert (Er' := Er). apply Qabs_Qle_condition in Er'. change (1 # 2 ^ 51) with (1 # 2251799813685248) in Er'. unfold sgn_of. destruct (Qlt_le_dec q 0) as [L|L].
    - rewrite (Qabs_neg q) in Er' by lra. destruct (Qle_bool 0 x) eqn:X; [apply Qle_bool_iff in X; exfalso; lra|]. destruct (Qle_bool 0 q) eqn:Y; [apply Qle_bool_iff in Y; lra|reflexivity].
    - rewrite (Qabs_pos q) in Er', Aq by lra. replace (Qle_bool 0 x) with true by (symmetry; apply Qle_bool_iff; lra). replace (Qle_bool 0 q) with true by (symmetry; apply Qle_bool_iff; lra). reflexivity. }
  destruct (Qeq_dec q 0) as [Z0|N].
  - rewrite Z0. change (Qabs 0) with 0. field. lra.
  - rewrite (S N). transitivity (inject_Z (sgn_of q) * Qabs q); [field; lra|symmetry; apply sgn_abs].
Qed.
Lemma decimal_vanishes k r : (0 < den r)%Z -> Qabs (Qval r) * inject_Z (10 ^ Z.of_nat k) < 49 # 100 -> exists y, reads_decimal k (fixed k (to_double r)) y /\ y == 0.
Proof.
  intros P B. exists (shown k (to_double r)). split; [apply fixed_reads|]. set (x := to_double r) in *. set (q := Qval r) in *. set (p := inject_Z (10 ^ Z.of_nat k)) in *. assert (Pp : 0 < p) by apply ten_Q.
  assert (Er : Qabs (x - q) <= Qabs q * (1 # 2 ^ 51)) by (apply to_double_error, P). unfold shown. fold p. rewrite (round_exact (Qabs x * p) 0).
  - change (inject_Z 0) with 0. field. lra.
  - change (inject_Z 0) with 0. setoid_replace (Qabs x * p - 0) with (Qabs x * p) by ring. rewrite Qabs_pos by (apply Qmult_le_0_compat; [apply Qabs_nonneg|lra]).
    assert (T := Qabs_triangle (x - q) q). setoid_replace (x - q + q) with x in T by ring. assert (U : Qabs x <= Qabs q * (1 + (1 # 2 ^ 51))) by lra.
    eapply Qle_lt_trans; [apply Qmult_le_compat_r; [exact U|lra]|]. setoid_replace (Qabs q * (1 + (1 # 2 ^ 51)) * p) with (Qabs q * p * (1 + (1 # 2 ^ 51))) by ring. change (1 # 2 ^ 51) with (1 # 2251799813685248). lra.
Qed.
Lemma decimal_unique k s x y : reads_decimal k s x -> reads_decimal k s y -> x == y.
Proof.
  intros H1 H2. destruct H1 as [sg a b v Sg Na Da Db Lb]. remember (sg ++ _) as s eqn:E. destruct H2 as [sg' a' b' v' Sg' Na' Da' Db' Lb'].
  assert (G : forall sg v a b sg' v' a' b', sign_text sg v -> sign_text sg' v' -> a <> [] -> all_of is_digit a -> a' <> [] -> all_of is_digit a' -> sg' ++ a' ++ ["."%char] ++ b' = sg ++ a ++ ["."%char] ++ b -> v = v' /\ a = a' /\ b = b').
  { clear. intros sg v a b sg' v' a' b' S S' Na Da Na' Da' E.
    assert (C : a' ++ ["."%char] ++ b' = a ++ ["."%char] ++ b -> a = a' /\ b = b') by (intros X; apply (cutS is_digit) in X; auto; try reflexivity; destruct X as [-> X]; injection X as ->; auto).
    destruct a as [|c a]; [congruence|]. destruct a' as [|c' a']; [congruence|]. assert (Hc : is_digit c = true) by (inversion Da; auto). assert (Hc' : is_digit c' = true) by (inversion Da'; auto).
    destruct S as [[-> ->]|[[-> ->]|[-> ->]]], S' as [[-> ->]|[[-> ->]|[-> ->]]]; cbn [app] in E; try (injection E as E1 E2; subst; discriminate);
      (split; [reflexivity|]); apply C; first [exact E|injection E as E; cbn [app]; rewrite ?E; congruence]. }
  destruct (G _ _ _ _ _ _ _ _ Sg Sg' Na Da Na' Da' E) as (-> & -> & ->). reflexivity.
Qed.
Lemma fixed_plain k x : plain_name (fixed k x).
Proof.
  assert (D : forall l, all_of is_digit l -> all_of plain_char l).
  { intros l H. eapply Forall_impl; [|exact H]. cbn beta. intros c Hc. destruct (plain_char c) eqn:F; auto. unfold plain_char in F. apply negb_false_iff in F. apply existsb_exists in F. destruct F as (z & Hz & Ez). apply Ascii.eqb_eq in Ez. subst z. cbn in Hz. decompose [or False] Hz; subst c; discriminate. }
  assert (R := fixed_reads k x). destruct R as [sg a b v S Na Da Db Lb]. split.
  - destruct sg; [destruct a; [congruence|discriminate]|discriminate].
  - unfold all_of. rewrite !Forall_app. repeat split; try (apply D; assumption); try (repeat constructor). destruct S as [[-> _]|[[-> _]|[-> _]]]; repeat constructor.
Qed.
