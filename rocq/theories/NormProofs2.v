(** Proofs for C68: the sum and the norm. *)
From Coq Require Import ZArith QArith Qabs Qround Qpower Qfield List Bool Lia Lqa.
From Verif Require Import Res RationalModel RationalSpec RationalProofs CoreModel AlgebraModel AlgebraSpec AlgebraProofs AlgebraProofs2 OrderProofs DecimalModel DecimalSpec DecimalProofs DecimalProofs2 NormModel NormSpec NormProofs.
Import ListNotations.
Local Open Scope Q_scope.

Definition del : Q := 1 # 2 ^ 51.
Fixpoint pw (a : Q) (n : nat) : Q := match n with O => 1 | S n' => a * pw a n' end.
Lemma pw_pos a n : 0 < a -> 0 < pw a n.
Proof. intros H. induction n as [|n IH]; cbn; [reflexivity|]. setoid_replace 0 with (0 * pw a n) by ring. apply Qlt_mult_r; auto. Qed.
Lemma Qml c a b : 0 <= c -> a <= b -> c * a <= c * b.
Proof. intros P H. rewrite (Qmult_comm c a), (Qmult_comm c b). apply Qmult_le_compat_r; auto. Qed.
Lemma Qml1 c a : 0 <= c -> a <= 1 -> c * a <= c.
Proof. intros P H. rewrite <- (Qmult_1_r c) at 2. apply Qml; auto. Qed.
Lemma Qmg1 c a : 0 <= c -> 1 <= a -> c <= c * a.
Proof. intros P H. rewrite <- (Qmult_1_r c) at 1. apply Qml; auto. Qed.
Lemma pw_ge n : 1 <= pw (1 + del) n.
Proof. induction n as [|n IH]; cbn [pw]; [apply Qle_refl|]. apply (Qle_trans _ (pw (1 + del) n)); [exact IH|]. rewrite (Qmult_comm (1 + del)). apply Qmg1; [lra|discriminate]. Qed.
Lemma pw_le n : pw (1 - del) n <= 1.
Proof.
  induction n as [|n IH]; cbn [pw]; [apply Qle_refl|]. apply (Qle_trans _ (pw (1 - del) n)); [|exact IH]. rewrite (Qmult_comm (1 - del)). apply Qml1; [apply Qlt_le_weak, pw_pos; reflexivity|discriminate].
Qed.
Lemma pw_lower n : 1 - inject_Z (Z.of_nat n) * (2 * del) <= pw (1 - del) n.
Proof.
  induction n as [|n IH]; [discriminate|]. cbn [pw]. rewrite Nat2Z.inj_succ, <- Z.add_1_r, inject_Z_plus. change (inject_Z 1) with 1. assert (L := pw_le n). assert (D : 0 <= del) by discriminate.
  assert (X : del * pw (1 - del) n <= del * 1) by (apply Qml; auto). setoid_replace ((1 - del) * pw (1 - del) n) with (pw (1 - del) n - del * pw (1 - del) n) by ring. lra.
Qed.
Lemma pw_upper n : inject_Z (Z.of_nat n) * (2 * del) <= 1 -> pw (1 + del) n <= 1 + inject_Z (Z.of_nat n) * (2 * del).
Proof.
  induction n as [|n IH]; intros H; [discriminate|]. cbn [pw]. rewrite Nat2Z.inj_succ, <- Z.add_1_r, inject_Z_plus in *. change (inject_Z 1) with 1 in *. assert (D : 0 <= del) by discriminate.
  assert (H' : inject_Z (Z.of_nat n) * (2 * del) <= 1) by lra. specialize (IH H'). set (k := inject_Z (Z.of_nat n) * (2 * del)) in *. apply (Qle_trans _ ((1 + del) * (1 + k))).
  - apply Qml; [discriminate|exact IH].
  - assert (X : del * k <= del * 1) by (apply Qml; auto). setoid_replace ((1 + del) * (1 + k)) with (1 + k + del + del * k) by ring. setoid_replace ((inject_Z (Z.of_nat n) + 1) * (2 * del)) with (k + 2 * del) by (unfold k; ring). lra.
Qed.
Lemma sq_nonneg a : 0 <= a * a.
Proof. destruct a as [p q]. unfold Qle. cbn. nia. Qed.

Section Sum.
  Context {K : Type}.
  Definition dens (m : emap K) : Prop := Forall (fun x => (0 < den (snd x))%Z) m.
  Lemma square_val c : (0 < den c)%Z -> (0 < den (rat_mul c c))%Z /\ Qval (rat_mul c c) == Qval c * Qval c.
  Proof.
    intros H. split; [|apply rat_mul_val; lia]. destruct c as [a b]. cbn [den] in H. unfold rat_mul. cbn [num den]. apply reduce_den_pos. cbn [den]. nia.
  Qed.
  Lemma sum_bounds m : dens m -> forall r s n, s * pw (1 - del) (S n) <= r <= s * pw (1 + del) (S n) -> 0 <= s ->
    (s + squares m) * pw (1 - del) (S (length m + n)) <= fold_left (fun r x => round_double (r + to_double (rat_mul (snd x) (snd x)))) m r <= (s + squares m) * pw (1 + del) (S (length m + n)).
  Proof.
    induction m as [|x m IH]; intros D r s n B S0; cbn [fold_left squares fold_right length].
    - rewrite Qplus_0_r. exact B.
    - inversion D as [|? ? Dx D']; subst. destruct (square_val (snd x) Dx) as (D2 & V2). assert (T := to_double_error (rat_mul (snd x) (snd x)) D2). rewrite V2 in T. set (c := Qval (snd x) * Qval (snd x)) in *. assert (C0 : 0 <= c) by apply sq_nonneg.
      rewrite (Qabs_pos c C0) in T. fold del in T. set (d := to_double (rat_mul (snd x) (snd x))) in *. apply Qabs_Qle_condition in T. fold (squares m).
      assert (E : (s + (c + squares m)) == (s + c) + squares m) by ring. rewrite !E. replace (S (S (length m) + n)) with (S (length m + S n)) by lia. apply IH; auto; [|lra].
      set (L := pw (1 - del) (S n)) in *. set (U := pw (1 + del) (S n)) in *. assert (HL : L <= 1 - del) by (unfold L; cbn [pw]; apply Qml1; [discriminate|apply pw_le]).
      assert (HU : 1 + del <= U) by (unfold U; cbn [pw]; apply Qmg1; [discriminate|apply pw_ge]).
      assert (L0 : 0 < L) by (apply pw_pos; reflexivity).
      assert (B1 : (s + c) * L <= r + d).
      { assert (X : c * L <= c * (1 - del)) by (apply Qml; auto). setoid_replace ((s + c) * L) with (s * L + c * L) by ring. setoid_replace (c * (1 - del)) with (c - c * del) in X by ring. lra. }
      assert (B2 : r + d <= (s + c) * U).
      { assert (X : c * (1 + del) <= c * U) by (apply Qml; auto). setoid_replace ((s + c) * U) with (s * U + c * U) by ring. setoid_replace (c * (1 + del)) with (c + c * del) in X by ring. lra. }
      assert (P0 : 0 <= r + d) by (eapply Qle_trans; [|exact B1]; apply Qmult_le_0_compat; lra). assert (R := round_error (r + d)). rewrite (Qabs_pos (r + d) P0) in R. apply Qabs_Qle_condition in R.
      assert (R1 : (r + d) * (1 - del) <= round_double (r + d) <= (r + d) * (1 + del)).
      { assert (X : (r + d) * (1 # 2 ^ 53) <= (r + d) * del) by (apply Qml; [exact P0|discriminate]). setoid_replace ((r + d) * (1 - del)) with (r + d - (r + d) * del) by ring. setoid_replace ((r + d) * (1 + del)) with (r + d + (r + d) * del) by ring. lra. }
      change (pw (1 - del) (S (S n))) with ((1 - del) * L). change (pw (1 + del) (S (S n))) with ((1 + del) * U). split.
      + eapply Qle_trans; [|apply R1]. setoid_replace ((s + c) * ((1 - del) * L)) with ((s + c) * L * (1 - del)) by ring. apply Qmult_le_compat_r; [exact B1|discriminate].
      + eapply Qle_trans; [apply R1|]. setoid_replace ((s + c) * ((1 + del) * U)) with ((s + c) * U * (1 + del)) by ring. apply Qmult_le_compat_r; [exact B2|discriminate].
  Qed.
  Lemma squares_nonneg (m : emap K) : 0 <= squares m.
  Proof. apply sumsq_nonneg. Qed.
  Lemma norm_sum_bounds m : dens m -> squares m * pw (1 - del) (S (length m)) <= norm_sum m <= squares m * pw (1 + del) (S (length m)).
  Proof.
    intros D. assert (X := sum_bounds m D 0 0 0). rewrite Qplus_0_l, Nat.add_0_r in X. apply X; [|apply Qle_refl]. rewrite !Qmult_0_l. split; apply Qle_refl.
  Qed.
  Lemma norm_sum_nonneg m : dens m -> 0 <= norm_sum m.
  Proof. intros D. eapply Qle_trans; [|apply (norm_sum_bounds m D)]. apply Qmult_le_0_compat; [apply squares_nonneg|]. apply Qlt_le_weak, pw_pos. reflexivity. Qed.
  Lemma norm_sum_pos m : dens m -> 0 < squares m -> 0 < norm_sum m.
  Proof. intros D P. eapply Qlt_le_trans; [|apply (norm_sum_bounds m D)]. setoid_replace 0 with (0 * pw (1 - del) (S (length m))) by ring. apply Qlt_mult_r; auto. apply pw_pos. reflexivity. Qed.
  Lemma norm_sum_zero m : dens m -> squares m == 0 -> norm_sum m == 0.
  Proof. intros D P. assert (X := norm_sum_bounds m D). rewrite P, !Qmult_0_l in X. lra. Qed.
  Lemma sqrt_zero x : x == 0 -> sqrt_double x == 0.
  Proof. intros E. assert (X : forall p, 4 * (x * p) == inject_Z 0) by (intros p; rewrite E; change (inject_Z 0) with 0; ring). unfold sqrt_double. rewrite (Qfloor_comp _ _ (X _)). rewrite Qfloor_Z. change ((Z.sqrt 0 + 1) / 2)%Z with 0%Z. change (inject_Z 0) with 0. ring. Qed.
  Lemma norm_nonneg m : dens m -> 0 <= norm m /\ (norm m == 0 <-> squares m == 0).
  Proof.
    intros D. assert (S0 := squares_nonneg m). destruct (Qlt_le_dec 0 (squares m)) as [P|P].
    - assert (X := sqrt_pos _ (norm_sum_pos m D P)). unfold norm. split; [apply Qlt_le_weak, X|]. split; intros E; exfalso; lra.
    - assert (E : squares m == 0) by lra. assert (X : norm m == 0) by (unfold norm; apply sqrt_zero, norm_sum_zero; auto). rewrite X. split; [apply Qle_refl|]. split; intros; auto. reflexivity.
  Qed.
  Lemma norm_bounds m : dens m -> squares m * pw (1 - del) (length m + 3) <= norm m * norm m <= squares m * pw (1 + del) (length m + 3).
  Proof.
    intros D. replace (length m + 3)%nat with (S (S (S (length m)))) by lia. destruct (norm_sum_bounds m D) as (A & B). cbn [pw] in *. set (L := (1 - del) * pw (1 - del) (length m)) in *. set (U := (1 + del) * pw (1 + del) (length m)) in *. assert (S0 := squares_nonneg m). destruct (Qlt_le_dec 0 (squares m)) as [P|P].
    - assert (X := sqrt_rel _ (norm_sum_pos m D P)). fold (norm m) in X. set (y := norm m) in *. set (r := norm_sum m) in *. destruct X as (X1 & X2). split.
      + (* r (1-del)^2 <= y^2 *)
        apply (Qle_trans _ (r * ((1 - del) * (1 - del)))); [setoid_replace (squares m * ((1 - del) * ((1 - del) * L))) with (squares m * L * ((1 - del) * (1 - del))) by ring; apply Qmult_le_compat_r; [exact A|discriminate]|].
        apply (Qle_trans _ (y * (1 + eps) * (y * (1 + eps)) * ((1 - del) * (1 - del)))); [apply Qmult_le_compat_r; [exact X2|discriminate]|]. setoid_replace (y * (1 + eps) * (y * (1 + eps)) * ((1 - del) * (1 - del))) with (y * y * ((1 + eps) * (1 + eps) * ((1 - del) * (1 - del)))) by ring.
        apply Qml1; [apply sq_nonneg|discriminate].
      + apply (Qle_trans _ (r * ((1 + del) * (1 + del)))); [|setoid_replace (squares m * ((1 + del) * ((1 + del) * U))) with (squares m * U * ((1 + del) * (1 + del))) by ring; apply Qmult_le_compat_r; [exact B|discriminate]].
        apply (Qle_trans _ (y * (1 - eps) * (y * (1 - eps)) * ((1 + del) * (1 + del)))); [|apply Qmult_le_compat_r; [exact X1|discriminate]]. setoid_replace (y * (1 - eps) * (y * (1 - eps)) * ((1 + del) * (1 + del))) with (y * y * ((1 - eps) * (1 - eps) * ((1 + del) * (1 + del)))) by ring.
        apply Qmg1; [apply sq_nonneg|discriminate].
    - assert (E : squares m == 0) by lra. assert (N : norm m == 0) by (apply norm_nonneg; auto). rewrite E, N, !Qmult_0_l. split; apply Qle_refl.
  Qed.
  Lemma norm_error m : dens m -> (Z.of_nat (length m) + 3 <= 2 ^ 50)%Z -> Qabs (norm m * norm m - squares m) <= squares m * (inject_Z (Z.of_nat (length m) + 3) * (1 # 2 ^ 50)).
  Proof.
    intros D H. destruct (norm_bounds m D) as (A & B). assert (S0 := squares_nonneg m). assert (Lo := pw_lower (length m + 3)). assert (Up := pw_upper (length m + 3)). rewrite Nat2Z.inj_add in Lo, Up. change (Z.of_nat 3) with 3%Z in *.
    set (k := inject_Z (Z.of_nat (length m) + 3)) in *. assert (Ek : k * (2 * del) == k * (1 # 2 ^ 50)) by (apply Qmult_comp; reflexivity). rewrite Ek in Lo, Up. set (d := k * (1 # 2 ^ 50)) in *.
    assert (Hd : d <= 1) by (unfold d; apply (Qle_trans _ (inject_Z (2 ^ 50) * (1 # 2 ^ 50))); [apply Qmult_le_compat_r; [unfold k; rewrite <- Zle_Qle; exact H|discriminate]|discriminate]). specialize (Up Hd).
    set (s := squares m) in *. apply Qabs_Qle_condition. split.
    - assert (X : s * (1 - d) <= s * pw (1 - del) (length m + 3)) by (apply Qml; auto). setoid_replace (s * (1 - d)) with (s - s * d) in X by ring. lra.
    - assert (X : s * pw (1 + del) (length m + 3) <= s * (1 + d)) by (apply Qml; auto). setoid_replace (s * (1 + d)) with (s + s * d) in X by ring. lra.
  Qed.

  (** ** Integer coefficients *)
  Lemma to_double_int r : den r = 1%Z -> (Z.abs (num r) <= 2 ^ 53)%Z -> to_double r == inject_Z (num r).
  Proof.
    intros D H. unfold to_double. rewrite D. assert (I := int_double (num r) H). rewrite (round_double_eq _ (inject_Z (num r))); [apply double_exact, I|].
    rewrite (double_exact _ I), (double_exact _ (int_double 1 ltac:(lia))). change (inject_Z 1) with 1. field.
  Qed.
  Definition whole (m : emap K) : Prop := Forall (fun x => den (snd x) = 1%Z) m.
  Definition isquares (m : emap K) : Z := fold_right (fun x s => num (snd x) * num (snd x) + s)%Z 0%Z m.
  Lemma isquares_nonneg m : (0 <= isquares m)%Z.
  Proof. induction m as [|x m IH]; cbn; [lia|]. fold (isquares m). nia. Qed.
  Lemma isquares_val m : whole m -> squares m == inject_Z (isquares m).
  Proof.
    intros W. induction W as [|x m H W IH]; [reflexivity|]. cbn [squares isquares fold_right]. fold (squares m) (isquares m). rewrite IH, inject_Z_plus, inject_Z_mult. unfold Qval. rewrite H. change (inject_Z 1) with 1. field.
  Qed.
  Lemma sum_exact m : whole m -> forall r z, r == inject_Z z -> (0 <= z)%Z -> (z + isquares m <= 2 ^ 53)%Z -> fold_left (fun r x => round_double (r + to_double (rat_mul (snd x) (snd x)))) m r == inject_Z (z + isquares m).
  Proof.
    intros W. induction W as [|x m H W IH]; intros r z E Z0 B; cbn [fold_left isquares fold_right] in *.
    - rewrite Z.add_0_r. exact E.
    - fold (isquares m) in *. assert (I := isquares_nonneg m). rewrite Z.add_assoc. apply IH; [|nia|lia].
      assert (X : rat_mul (snd x) (snd x) = mkR (num (snd x) * num (snd x)) 1) by (destruct (snd x) as [a b]; cbn [den] in H; subst b; unfold rat_mul; cbn [num den]; apply canonical_val_inj; [apply reduce_canonical; reflexivity|split; cbn; [lia|apply Z.gcd_1_r]|rewrite reduce_val by discriminate; reflexivity]).
      rewrite X. assert (T : to_double (mkR (num (snd x) * num (snd x)) 1) == inject_Z (num (snd x) * num (snd x))) by (apply to_double_int; cbn [num den]; auto; nia).
      rewrite (round_double_eq _ (inject_Z (z + num (snd x) * num (snd x)))); [apply double_exact, int_double; nia|]. rewrite E, T, inject_Z_plus. reflexivity.
  Qed.
  Lemma norm_sum_whole m : whole m -> squares m <= inject_Z (2 ^ 53) -> norm_sum m == squares m.
  Proof. intros W B. rewrite isquares_val in B by auto. rewrite <- Zle_Qle in B. unfold norm_sum. rewrite (sum_exact m W 0 0%Z); [|reflexivity|lia|exact B]. rewrite isquares_val by auto. reflexivity. Qed.
  Lemma nearest_sqrt_comp y x x' : x == x' -> nearest_sqrt y x -> nearest_sqrt y x'.
  Proof. intros E (A & B & C). split; auto. split; auto. intros z Z1 Z2. destruct (C z Z1 Z2) as (C1 & C2). rewrite E in C1, C2. auto. Qed.
  Lemma whole_dens m : whole m -> dens m.
  Proof. intros W. eapply Forall_impl; [|exact W]. cbn. intros ? ->. reflexivity. Qed.
  Lemma norm_whole m : whole m -> squares m <= inject_Z (2 ^ 53) -> nearest_sqrt (norm m) (squares m).
  Proof.
    intros W B. assert (E := norm_sum_whole m W B). assert (S0 := squares_nonneg m). destruct (Qlt_le_dec 0 (squares m)) as [P|P].
    - eapply nearest_sqrt_comp; [exact E|]. apply sqrt_nearest. rewrite E. exact P.
    - assert (Z0 : squares m == 0) by lra. assert (N : norm m == 0) by (apply norm_nonneg; auto using whole_dens). split; [exists 0%Z, 0%Z; split; [reflexivity|rewrite N; reflexivity]|]. split; [rewrite N; apply Qle_refl|].
      intros z _ Z1. split; intros H; rewrite N in *; [|lra]. rewrite Z0. apply sq_nonneg.
  Qed.
  Lemma norm_root m k : whole m -> squares m == inject_Z k * inject_Z k -> (0 <= k)%Z -> squares m <= inject_Z (2 ^ 53) -> norm m == inject_Z k.
  Proof.
    intros W E K0 B. destruct (norm_whole m W B) as (A & P & N). assert (K1 : 0 <= inject_Z k) by (change 0 with (inject_Z 0); rewrite <- Zle_Qle; exact K0).
    assert (Dk : is_double (inject_Z k)) by (apply int_double; rewrite E, <- inject_Z_mult, <- Zle_Qle in B; nia). destruct (N _ Dk K1) as (N1 & N2). set (y := norm m) in *. set (r := inject_Z k) in *. rewrite E in N1, N2.
    destruct (Qlt_le_dec y r) as [H|H].
    - specialize (N1 H). exfalso. assert (X : (y + r) / 2 * ((y + r) / 2) < r * r); [|lra]. assert (Y : (y + r) / 2 < r) by (unfold Qdiv; change (/ 2) with (1 # 2); lra). assert (Y0 : 0 <= (y + r) / 2) by (unfold Qdiv; change (/ 2) with (1 # 2); lra).
      apply (Qle_lt_trans _ ((y + r) / 2 * r)); [apply Qml; lra|]. apply Qlt_mult_r; lra.
    - destruct (Qlt_le_dec r y) as [H'|H']; [|lra]. specialize (N2 H'). exfalso. assert (X : r * r < (y + r) / 2 * ((y + r) / 2)); [|lra]. assert (Y : r < (y + r) / 2) by (unfold Qdiv; change (/ 2) with (1 # 2); lra).
      apply (Qle_lt_trans _ ((y + r) / 2 * r)); [apply Qmult_le_compat_r; lra|]. rewrite (Qmult_comm _ r). apply Qlt_mult_r; lra.
  Qed.
End Sum.

Lemma dot_squares (a : expression) : wf term_ltb a -> Qval (mdot term_ltb a a) == squares a.
Proof. intros (S & C & N). rewrite (mdot_val term_ltb term_eqb swo_term) by auto using mcanon_good. now rewrite (lsum_self term_ltb term_eqb swo_term). Qed.
Lemma wf_dens (e : expression) : wf term_ltb e -> dens e.
Proof. intros (_ & C & _). eapply Forall_impl; [|exact C]. cbn. intros x X. apply X. Qed.
Lemma expr_norm_error (e : expression) : wf term_ltb e -> (Z.of_nat (length e) + 3 <= 2 ^ 50)%Z ->
  Qabs (norm e * norm e - Qval (mdot term_ltb e e)) <= Qval (mdot term_ltb e e) * (inject_Z (Z.of_nat (length e) + 3) * (1 # 2 ^ 50)).
Proof. intros W H. rewrite (dot_squares e W). apply norm_error; auto using wf_dens. Qed.
Lemma expr_norm_zero (e : expression) : wf term_ltb e -> 0 <= norm e /\ (norm e == 0 <-> e = []).
Proof.
  intros W. destruct (norm_nonneg e (wf_dens e W)) as (P & Z0). split; auto. rewrite Z0. split; [|intros ->; reflexivity]. intros E. destruct e as [|x e]; auto. exfalso.
  destruct W as (_ & _ & N). assert (X := sumsq_pos (x :: e) N ltac:(discriminate)). fold (squares (x :: e)) in X. rewrite E in X. discriminate X.
Qed.
Lemma expr_norm_root (e : expression) k : Forall (fun x => den (snd x) = 1%Z) e -> squares e == inject_Z k * inject_Z k -> (0 <= k <= 94906265)%Z -> norm e == inject_Z k.
Proof. intros W E K. apply norm_root; auto; [lia|]. rewrite E, <- inject_Z_mult, <- Zle_Qle. nia. Qed.
