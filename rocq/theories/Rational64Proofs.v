(** Proofs about the 64-bit rational model. *)
From Coq Require Import ZArith Bool Lia.
From Verif Require Import Res RationalModel RationalSpec RationalProofs Rational64Model.
Local Open Scope Z_scope.
Local Open Scope res_scope.

Definition in64 (z : Z) : Prop := - 2 ^ 63 <= z <= 2 ^ 63 - 1.

Lemma chk_cases z : (in64 z /\ chk z = Ok z) \/ (~ in64 z /\ chk z = UB).
Proof.
  unfold chk, fits64, in64, min64, max64.
  destruct (Z.leb_spec (- 2 ^ 63) z), (Z.leb_spec z (2 ^ 63 - 1)); simpl; [left|right..]; split; auto; lia.
Qed.

Lemma chk_ok z r : chk z = Ok r -> r = z.
Proof. destruct (chk_cases z) as [[_ ->]|[_ ->]]; congruence. Qed.

Lemma chk_in z : in64 z -> chk z = Ok z.
Proof. destruct (chk_cases z) as [[_ ->]|[H _]]; tauto. Qed.

Lemma bind_inv {A B} (m : res A) (f : A -> res B) :
  (exists a, m = Ok a /\ bind m f = f a) \/ (m = UB /\ bind m f = UB)
  \/ (m = Throw /\ bind m f = Throw) \/ (m = NoFuel /\ bind m f = NoFuel).
Proof. destruct m; simpl; eauto 6. Qed.

Lemma reduce64_sound n d : reduce64 n d = Ok (reduce (mkR n d)) \/ reduce64 n d = UB.
Proof.
  unfold reduce64, gcd64.
  destruct (chk_cases (Z.abs n)) as [[In ->]|[_ ->]]; simpl; [|auto].
  destruct (chk_cases (Z.abs d)) as [[Id ->]|[_ ->]]; simpl; [|auto].
  destruct (chk_cases (Z.gcd n d)) as [[Ig ->]|[_ ->]]; simpl; [|auto].
  unfold reduce; simpl. destruct (Z.ltb_spec 1 (Z.gcd n d)); [|auto].
  unfold div64. destruct (Z.eqb_spec (Z.gcd n d) 0); simpl; [auto|].
  destruct (chk_cases (Z.quot n (Z.gcd n d))) as [[_ ->]|[_ ->]]; simpl; [|auto].
  destruct (chk_cases (Z.quot d (Z.gcd n d))) as [[_ ->]|[_ ->]]; simpl; auto.
Qed.

Lemma gcd_le_abs n d : Z.gcd n d <= Z.max (Z.abs n) (Z.abs d).
Proof.
  destruct (Z.eq_dec n 0) as [->|Hn].
  - rewrite Z.gcd_0_l. lia.
  - assert (H := Z.gcd_divide_l n d). apply Z.divide_abs_r in H. apply Z.divide_pos_le in H; lia.
Qed.

Lemma quot_le_abs a g : 1 < g -> Z.abs (Z.quot a g) <= Z.abs a.
Proof.
  intros H. rewrite <- Z.quot_abs by lia. rewrite (Z.abs_eq g) by lia.
  apply Z.quot_le_upper_bound; nia.
Qed.

Lemma reduce64_complete n d : Z.abs n <= 2 ^ 63 - 1 -> Z.abs d <= 2 ^ 63 - 1 ->
  reduce64 n d = Ok (reduce (mkR n d)).
Proof.
  intros Hn Hd. unfold reduce64, gcd64, reduce; simpl.
  assert (G := gcd_le_abs n d). assert (G0 := Z.gcd_nonneg n d).
  rewrite !chk_in by (unfold in64; lia). simpl.
  destruct (Z.ltb_spec 1 (Z.gcd n d)) as [H|H]; [|reflexivity].
  unfold div64. destruct (Z.eqb_spec (Z.gcd n d) 0); [lia|].
  assert (Q1 := quot_le_abs n _ H). assert (Q2 := quot_le_abs d _ H).
  rewrite chk_in by (unfold in64; lia). simpl. rewrite chk_in by (unfold in64; lia). reflexivity.
Qed.

Ltac bstep := match goal with
  | |- context [bind (chk ?z) _] => destruct (chk_cases z) as [[? ->]|[? ->]]; simpl; [|now auto]
  end.

Lemma make64_sound n d : make64 n d = Ok (rat_make n d) \/ make64 n d = UB.
Proof.
  unfold make64, rat_make, neg64. destruct (d <? 0); simpl; [|apply reduce64_sound].
  do 2 bstep. apply reduce64_sound.
Qed.

Lemma rneg64_sound r : rneg64 r = Ok (rat_neg r) \/ rneg64 r = UB.
Proof. unfold rneg64, rat_neg, neg64. bstep. apply make64_sound. Qed.

Lemma radd64_sound l r : radd64 l r = Ok (rat_add l r) \/ radd64 l r = UB.
Proof. unfold radd64, rat_add, mul64, add64. do 4 bstep. apply reduce64_sound. Qed.

Lemma rsub64_sound l r : rsub64 l r = Ok (rat_sub l r) \/ rsub64 l r = UB.
Proof. unfold rsub64, rat_sub, mul64, sub64. do 4 bstep. apply reduce64_sound. Qed.

Lemma rmul64_sound l r : rmul64 l r = Ok (rat_mul l r) \/ rmul64 l r = UB.
Proof. unfold rmul64, rat_mul, mul64. do 2 bstep. apply reduce64_sound. Qed.

Lemma rdiv64_sound l r : rdiv64 l r = Ok (rat_div l r) \/ rdiv64 l r = UB.
Proof. unfold rdiv64, rat_div, mul64. do 2 bstep. apply reduce64_sound. Qed.

Definition small31 (r : rational) := Z.abs (num r) <= 2 ^ 31 - 1 /\ Z.abs (den r) <= 2 ^ 31 - 1.

Lemma mul_abs_bound a b B : Z.abs a <= B -> Z.abs b <= B -> Z.abs (a * b) <= B * B.
Proof. intros. rewrite Z.abs_mul. nia. Qed.

Lemma small_complete l r : small31 l -> small31 r ->
  radd64 l r = Ok (rat_add l r) /\ rsub64 l r = Ok (rat_sub l r) /\
  rmul64 l r = Ok (rat_mul l r) /\ rdiv64 l r = Ok (rat_div l r) /\ rneg64 l = Ok (rat_neg l).
Proof.
  intros [Hnl Hdl] [Hnr Hdr].
  pose proof (mul_abs_bound _ _ _ Hdr Hnl). pose proof (mul_abs_bound _ _ _ Hnr Hdl).
  pose proof (mul_abs_bound _ _ _ Hdr Hdl). pose proof (mul_abs_bound _ _ _ Hnl Hnr).
  pose proof (mul_abs_bound _ _ _ Hdl Hdr). pose proof (mul_abs_bound _ _ _ Hnl Hdr).
  pose proof (mul_abs_bound _ _ _ Hdl Hnr).
  unfold radd64, rsub64, rmul64, rdiv64, rneg64, make64, mul64, add64, sub64, neg64.
  set (B := (2 ^ 31 - 1) * (2 ^ 31 - 1)) in *.
  assert (EB : B = 4611686014132420609) by reflexivity.
  assert (E63 : 2 ^ 63 = 9223372036854775808) by reflexivity.
  assert (E31 : 2 ^ 31 = 2147483648) by reflexivity.
  repeat split;
    repeat (rewrite chk_in by (unfold in64; lia); cbn [bind]).
  - apply reduce64_complete; lia.
  - apply reduce64_complete; lia.
  - apply reduce64_complete; lia.
  - apply reduce64_complete; lia.
  - unfold rat_neg, rat_make. destruct (den l <? 0); cbn [bind];
      repeat (rewrite chk_in by (unfold in64; lia); cbn [bind]); apply reduce64_complete; lia.
Qed.

(** Exact characterisation for +: overflow happens iff an intermediate value does not fit. *)
Lemma radd64_ub l r : radd64 l r = UB <->
  ~ (in64 (den r * num l) /\ in64 (num r * den l) /\ in64 (den r * num l + num r * den l) /\
     in64 (den r * den l) /\ Z.abs (den r * num l + num r * den l) <= 2 ^ 63 - 1
     /\ Z.abs (den r * den l) <= 2 ^ 63 - 1).
Proof.
  unfold radd64, mul64, add64. split.
  - intros H (H1 & H2 & H3 & H4 & H5 & H6). revert H.
    repeat (rewrite chk_in by assumption; cbn [bind]). rewrite reduce64_complete by assumption. discriminate.
  - intros H. do 4 bstep. unfold reduce64, gcd64.
    destruct (chk_cases (Z.abs (den r * num l + num r * den l))) as [[In ->]|[_ ->]]; simpl; [|auto].
    destruct (chk_cases (Z.abs (den r * den l))) as [[Id ->]|[_ ->]]; simpl; [|auto].
    exfalso. apply H. unfold in64 in *. repeat split; try lia.
Qed.

Definition fits2 (n d : Z) : Prop := Z.abs n <= 2 ^ 63 - 1 /\ Z.abs d <= 2 ^ 63 - 1.
Lemma reduce64_ub n d : reduce64 n d = UB <-> ~ fits2 n d.
Proof.
  unfold fits2. split.
  - intros H [A B]. rewrite reduce64_complete in H by assumption. discriminate.
  - intros H. unfold reduce64, gcd64.
    destruct (chk_cases (Z.abs n)) as [[In ->]|[_ ->]]; simpl; [|auto].
    destruct (chk_cases (Z.abs d)) as [[Id ->]|[_ ->]]; simpl; [|auto].
    exfalso. apply H. unfold in64 in *. lia.
Qed.
Lemma rsub64_ub l r : rsub64 l r = UB <->
  ~ (in64 (den r * num l) /\ in64 (num r * den l) /\ fits2 (den r * num l - num r * den l) (den r * den l)).
Proof.
  unfold rsub64, mul64, sub64. split.
  - intros H (H1 & H2 & H3). revert H. pose proof H3 as [A B].
    repeat (rewrite chk_in by (try assumption; unfold in64; lia); cbn [bind]). rewrite reduce64_complete by assumption. discriminate.
  - intros H. do 4 bstep. apply reduce64_ub. tauto.
Qed.
Lemma rmul64_ub l r : rmul64 l r = UB <-> ~ fits2 (num l * num r) (den l * den r).
Proof.
  unfold rmul64, mul64. split.
  - intros H H3. revert H. pose proof H3 as [A B].
    repeat (rewrite chk_in by (unfold in64; lia); cbn [bind]). rewrite reduce64_complete by assumption. discriminate.
  - intros H. do 2 bstep. now apply reduce64_ub.
Qed.
Lemma rdiv64_ub l r : rdiv64 l r = UB <-> ~ fits2 (num l * den r) (den l * num r).
Proof.
  unfold rdiv64, mul64. split.
  - intros H H3. revert H. pose proof H3 as [A B].
    repeat (rewrite chk_in by (unfold in64; lia); cbn [bind]). rewrite reduce64_complete by assumption. discriminate.
  - intros H. do 2 bstep. now apply reduce64_ub.
Qed.
Lemma make64_ub n d : make64 n d = UB <-> ~ fits2 n d.
Proof.
  unfold make64, neg64. destruct (Z.ltb_spec d 0) as [L|L]; cbn [bind]; [|apply reduce64_ub]. split.
  - intros H [A B]. revert H. repeat (rewrite chk_in by (unfold in64; lia); cbn [bind]). rewrite reduce64_complete by lia. discriminate.
  - intros H. do 2 bstep. apply reduce64_ub. unfold fits2 in *. rewrite !Z.abs_opp. assumption.
Qed.
