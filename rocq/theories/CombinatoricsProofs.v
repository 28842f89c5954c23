(** Proofs about factorial and binomial. *)
From Coq Require Import ZArith List Bool Lia Arith Factorial.
From Verif Require Import Res Rational64Model Rational64Proofs CombinatoricsModel.
Import ListNotations.
Local Open Scope Z_scope.

Lemma loop_from2_nat n : loop_from2 (Z.of_nat n) = map Z.of_nat (seq 2 (n - 1)).
Proof. unfold loop_from2. f_equal. f_equal. lia. Qed.

Lemma loop_from2_S n : (1 <= n)%nat ->
  loop_from2 (Z.of_nat (S n)) = loop_from2 (Z.of_nat n) ++ [Z.of_nat (S n)].
Proof.
  intros H. rewrite !loop_from2_nat. replace (S n - 1)%nat with (S (n - 1))%nat by lia.
  rewrite seq_S, map_app. f_equal. simpl. f_equal. lia.
Qed.

Lemma factorial_fact n : factorial (Z.of_nat n) = Z.of_nat (fact n).
Proof.
  induction n as [|n IH]; [reflexivity|]. destruct n as [|n]; [reflexivity|].
  unfold factorial in *. rewrite loop_from2_S by lia. rewrite fold_left_app, IH.
  change (fact (S (S n))) with (S (S n) * fact (S n))%nat. cbn [fold_left]. lia.
Qed.

Lemma factorial_neg n : n <= 1 -> factorial n = 1.
Proof. intros H. unfold factorial, loop_from2. now replace (Z.to_nat (n - 1)) with 0%nat by lia. Qed.

(** Pascal's triangle. *)
Fixpoint choose (n k : nat) : nat :=
  match n, k with
  | _, O => 1
  | O, S _ => 0
  | S n', S k' => choose n' k' + choose n' (S k')
  end.

Lemma choose_gt n : forall k, (n < k)%nat -> choose n k = 0%nat.
Proof. induction n; intros [|k] H; simpl; try lia. rewrite !IHn by lia. reflexivity. Qed.

Lemma choose_n_n n : choose n n = 1%nat.
Proof. induction n; simpl; [reflexivity|]. rewrite IHn, choose_gt; lia. Qed.

Lemma choose_fact n : forall k, (k <= n)%nat ->
  (choose n k * (fact k * fact (n - k)) = fact n)%nat.
Proof.
  induction n as [|n IH]; intros [|k] H; try (simpl; lia).
  destruct (Nat.eq_dec k n) as [->|Hk].
  - rewrite choose_n_n, Nat.sub_diag. simpl. lia.
  - assert (E1 := IH k ltac:(lia)). assert (E2 := IH (S k) ltac:(lia)).
    replace (S n - S k)%nat with (S (n - S k)) by lia.
    replace (n - k)%nat with (S (n - S k)) in E1 by lia.
    simpl choose. set (m := (n - S k)%nat) in *.
    change (fact (S k)) with (S k * fact k)%nat in *. change (fact (S m)) with (S m * fact m)%nat in *.
    change (fact (S n)) with (S n * fact n)%nat.
    replace (S n) with (S k + S m)%nat by lia.
    nia.
Qed.

Lemma choose_succ n k : (k < n)%nat -> (choose n (S k) * S k = choose n k * (n - k))%nat.
Proof.
  intros H. assert (E1 := choose_fact n k ltac:(lia)). assert (E2 := choose_fact n (S k) ltac:(lia)).
  replace (n - k)%nat with (S (n - S k)) in * by lia.
  set (m := (n - S k)%nat) in *.
  change (fact (S k)) with (S k * fact k)%nat in E2. change (fact (S m)) with (S m * fact m)%nat in E1.
  assert (F1 := lt_O_fact k). assert (F2 := lt_O_fact m).
  apply (Nat.mul_cancel_r _ _ (fact k * fact m)); nia.
Qed.

Lemma choose_sym n k : (k <= n)%nat -> choose n (n - k) = choose n k.
Proof.
  intros H. assert (E1 := choose_fact n k H). assert (E2 := choose_fact n (n - k) ltac:(lia)).
  replace (n - (n - k))%nat with k in E2 by lia.
  assert (F1 := lt_O_fact k). assert (F2 := lt_O_fact (n - k)).
  apply (Nat.mul_cancel_r _ _ (fact k * fact (n - k))); nia.
Qed.

Lemma choose_1 n : choose n 1 = n.
Proof. induction n; simpl; [reflexivity|]. destruct n; simpl in *; lia. Qed.

Lemma binomial_loop n k : (1 <= k)%nat -> (k <= n)%nat ->
  fold_left (fun result i => Z.quot (result * (Z.of_nat n - i + 1)) i) (loop_from2 (Z.of_nat k)) (Z.of_nat n)
  = Z.of_nat (choose n k).
Proof.
  intros H1. induction k as [|k IH]; [lia|]. intros H2. destruct k as [|k].
  - rewrite choose_1. reflexivity.
  - rewrite loop_from2_S by lia. rewrite fold_left_app, IH by lia. cbn [fold_left].
    assert (E := choose_succ n (S k) ltac:(lia)).
    replace (Z.of_nat (choose n (S k)) * (Z.of_nat n - Z.of_nat (S (S k)) + 1))
      with (Z.of_nat (choose n (S (S k))) * Z.of_nat (S (S k))) by (rewrite <- Nat2Z.inj_mul, E; nia).
    apply Z.quot_mul. lia.
Qed.

Lemma binomial_choose n k : binomial (Z.of_nat n) (Z.of_nat k) = Z.of_nat (choose n k).
Proof.
  unfold binomial. destruct (Z.ltb_spec (Z.of_nat n) (Z.of_nat k)).
  - rewrite choose_gt by lia. reflexivity.
  - destruct (Z.ltb_spec (Z.of_nat n) (Z.of_nat k * 2)).
    + rewrite <- Nat2Z.inj_sub by lia. rewrite <- (choose_sym n k) by lia.
      destruct (Z.eqb_spec (Z.of_nat (n - k)) 0) as [E|E].
      * replace (n - k)%nat with 0%nat by lia. destruct n; reflexivity.
      * apply binomial_loop; lia.
    + destruct (Z.eqb_spec (Z.of_nat k) 0) as [E|E].
      * replace k with 0%nat by lia. destruct n; reflexivity.
      * apply binomial_loop; lia.
Qed.

Lemma binomial_factorials n k : (k <= n)%nat ->
  binomial (Z.of_nat n) (Z.of_nat k) * (Z.of_nat (fact k) * Z.of_nat (fact (n - k))) = Z.of_nat (fact n).
Proof. intros H. rewrite binomial_choose. rewrite <- (choose_fact n k H). lia. Qed.

(** The truncating divisions in the loop are exact. *)
Lemma binomial_division_exact n i : (1 <= i)%nat -> (i < n)%nat ->
  (Z.of_nat (S i) | binomial (Z.of_nat n) (Z.of_nat i) * (Z.of_nat n - Z.of_nat (S i) + 1)).
Proof.
  intros H1 H2. exists (Z.of_nat (choose n (S i))). rewrite binomial_choose.
  assert (E := choose_succ n i H2). nia.
Qed.

(** ** 64-bit versions *)
Lemma foldM_chk_sound (f : Z -> Z -> res Z) (g : Z -> Z -> Z) l : 
  (forall a i, f a i = Ok (g a i) \/ f a i = UB) ->
  forall a, foldM f a l = Ok (fold_left g l a) \/ foldM f a l = UB.
Proof.
  intros H. induction l as [|i l IH]; intros a; simpl; [auto|].
  destruct (H a i) as [-> | ->]; simpl; auto.
Qed.

Lemma chk_or z : chk z = Ok z \/ chk z = UB.
Proof. destruct (chk_cases z) as [[_ ->]|[_ ->]]; auto. Qed.

Lemma factorial64_sound n : factorial64 n = Ok (factorial n) \/ factorial64 n = UB.
Proof. apply foldM_chk_sound. intros. apply chk_or. Qed.

Lemma fact_mono a b : (a <= b)%nat -> (fact a <= fact b)%nat.
Proof. apply fact_le. Qed.

Lemma factorial64_small n : 0 <= n <= 20 -> factorial64 n = Ok (factorial n).
Proof.
  intros H. assert (E : forallb (fun n => match factorial64 (Z.of_nat n) with Ok v => v =? factorial (Z.of_nat n) | _ => false end) (seq 0 21) = true)
    by (vm_compute; reflexivity).
  rewrite forallb_forall in E. specialize (E (Z.to_nat n)). rewrite Z2Nat.id in E by lia.
  assert (I : In (Z.to_nat n) (seq 0 21)) by (apply in_seq; lia). specialize (E I).
  destruct (factorial64 n); try discriminate. apply Z.eqb_eq in E. now subst.
Qed.

Lemma factorial64_large n : 20 < n -> factorial64 n = UB.
Proof.
  intros H. rewrite <- (Z2Nat.id n) by lia. set (m := Z.to_nat n).
  assert (Hm : (21 <= m)%nat) by lia. clearbody m. clear H n.
  induction Hm as [|m Hm IH]; [vm_compute; reflexivity|].
  unfold factorial64 in *. rewrite loop_from2_S by lia. rewrite foldM_app, IH. reflexivity.
Qed.

Lemma chk32_or z : chk32 z = Ok z \/ chk32 z = UB.
Proof. unfold chk32. destruct (_ && _); auto. Qed.

Lemma binomial64_sound n k : binomial64 n k = Ok (binomial n k) \/ binomial64 n k = UB.
Proof.
  unfold binomial64, binomial. destruct (n <? k); [auto|].
  destruct (chk32_or (k * 2)) as [-> | ->]; simpl; [|auto].
  assert (L : forall j, foldM (fun result i => bind (mul64 result (n - i + 1)) (fun p => div64 p i)) n (loop_from2 j) = Ok
     (fold_left (fun result i => Z.quot (result * (n - i + 1)) i) (loop_from2 j) n) \/ 
     foldM (fun result i => bind (mul64 result (n - i + 1)) (fun p => div64 p i)) n (loop_from2 j) = UB).
  { intros j. apply foldM_chk_sound. intros a i. unfold mul64.
    destruct (chk_or (a * (n - i + 1))) as [-> | ->]; simpl; [|auto].
    unfold div64. destruct (i =? 0); [auto|]. apply chk_or. }
  destruct (n <? k * 2); simpl.
  - destruct (chk32_or (n - k)) as [-> | ->]; simpl; [|auto]. destruct (n - k =? 0); auto.
  - destruct (k =? 0); auto.
Qed.

Lemma binomial64_small n k : 0 <= n <= 61 -> 0 <= k <= 61 -> binomial64 n k = Ok (binomial n k).
Proof.
  intros Hn Hk.
  assert (E : forallb (fun n => forallb (fun k => match binomial64 (Z.of_nat n) (Z.of_nat k) with Ok v => v =? binomial (Z.of_nat n) (Z.of_nat k) | _ => false end) (seq 0 62)) (seq 0 62) = true)
    by (vm_compute; reflexivity).
  rewrite forallb_forall in E. specialize (E (Z.to_nat n)). rewrite Z2Nat.id in E by lia.
  specialize (E ltac:(apply in_seq; lia)).
  rewrite forallb_forall in E. specialize (E (Z.to_nat k)). rewrite Z2Nat.id in E by lia.
  specialize (E ltac:(apply in_seq; lia)).
  destruct (binomial64 n k); try discriminate. apply Z.eqb_eq in E. now subst.
Qed.
