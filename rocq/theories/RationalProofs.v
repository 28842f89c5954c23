(** Proofs about the rational-number model. *)
From Coq Require Import ZArith QArith Bool Lia Znumtheory.
From Verif Require Import RationalModel RationalSpec.
Local Open Scope Z_scope.

Lemma inject_Z_nz z : z <> 0 -> ~ (inject_Z z == 0)%Q.
Proof. intros H E. apply H. unfold Qeq, inject_Z in E; simpl in E; lia. Qed.

Lemma Qval_iff r n d : den r <> 0 -> d <> 0 ->
  (Qval r == inject_Z n / inject_Z d)%Q <-> num r * d = n * den r.
Proof.
  intros Hr Hd. unfold Qval. split.
  - intros E.
    assert (E2 : (inject_Z (num r) * inject_Z d == inject_Z n * inject_Z (den r))%Q).
    { transitivity ((inject_Z (num r) / inject_Z (den r)) * inject_Z (den r) * inject_Z d)%Q.
      - field. now apply inject_Z_nz.
      - rewrite E. field. now apply inject_Z_nz. }
    unfold Qeq in E2; simpl in E2. lia.
  - intros E.
    assert (E2 : (inject_Z (num r) * inject_Z d == inject_Z n * inject_Z (den r))%Q)
      by (unfold Qeq; simpl; lia).
    transitivity ((inject_Z (num r) * inject_Z d) / (inject_Z (den r) * inject_Z d))%Q.
    + field. split; now apply inject_Z_nz.
    + rewrite E2. field. split; now apply inject_Z_nz.
Qed.

Lemma gcd_pos_of_den n d : 0 < d -> 0 < Z.gcd n d.
Proof.
  intros Hd. pose proof (Z.gcd_nonneg n d).
  assert (Z.gcd n d <> 0); [|lia].
  intro E. apply Z.gcd_eq_0_r in E. lia.
Qed.

Lemma quot_exact a g : g <> 0 -> (g | a) -> Z.quot a g * g = a.
Proof. intros Hg [k ->]. rewrite Z.quot_mul by lia. lia. Qed.

Lemma reduce_cross r : num (reduce r) * den r = num r * den (reduce r).
Proof.
  unfold reduce. set (g := Z.gcd (num r) (den r)).
  destruct (Z.ltb_spec 1 g); simpl; [|lia].
  assert (H1 := quot_exact (num r) g ltac:(lia) (Z.gcd_divide_l _ _)).
  assert (H2 := quot_exact (den r) g ltac:(lia) (Z.gcd_divide_r _ _)).
  rewrite <- H1 at 2. rewrite <- H2 at 1. ring.
Qed.

Lemma reduce_scaled r : exists g, 0 <= g /\ num (reduce r) * g = num r /\ den (reduce r) * g = den r.
Proof.
  unfold reduce. set (g := Z.gcd (num r) (den r)).
  destruct (Z.ltb_spec 1 g); simpl.
  - exists g. split; [lia|]. split; apply quot_exact; try lia;
      [apply Z.gcd_divide_l | apply Z.gcd_divide_r].
  - exists 1. lia.
Qed.

Lemma reduce_den_pos r : 0 < den r -> 0 < den (reduce r).
Proof. intros H. destruct (reduce_scaled r) as (g & Hg & _ & E). nia. Qed.

Lemma reduce_den_nz r : den r <> 0 -> den (reduce r) <> 0.
Proof. intros H. destruct (reduce_scaled r) as (g & Hg & _ & E). nia. Qed.

Lemma reduce_coprime r : den r <> 0 -> Z.gcd (num (reduce r)) (den (reduce r)) = 1.
Proof.
  intros H. unfold reduce. set (g := Z.gcd (num r) (den r)).
  assert (Hg : 0 <= g) by apply Z.gcd_nonneg.
  assert (g <> 0) by (intro E; apply Z.gcd_eq_0_r in E; lia).
  destruct (Z.ltb_spec 1 g) as [H1|H1]; simpl.
  - apply (Z.mul_reg_r _ _ g); [lia|].
    assert (E1 := quot_exact (num r) g ltac:(lia) (Z.gcd_divide_l _ _)).
    assert (E2 := quot_exact (den r) g ltac:(lia) (Z.gcd_divide_r _ _)).
    transitivity (Z.gcd (Z.quot (num r) g * g) (Z.quot (den r) g * g)).
    + rewrite Z.gcd_mul_mono_r_nonneg; lia.
    + rewrite E1, E2. fold g. lia.
  - lia.
Qed.

Lemma reduce_canonical r : 0 < den r -> canonical (reduce r).
Proof. split; [now apply reduce_den_pos | apply reduce_coprime; lia]. Qed.

Lemma reduce_val r : den r <> 0 -> (Qval (reduce r) == Qval r)%Q.
Proof.
  intros H. unfold Qval at 2. apply Qval_iff; auto using reduce_den_nz. apply reduce_cross.
Qed.

(** ** Construction *)
Lemma rat_make_canonical n d : d <> 0 -> canonical (rat_make n d).
Proof. intros H. apply reduce_canonical; simpl. destruct (Z.ltb_spec d 0); lia. Qed.

Lemma rat_make_val n d : d <> 0 -> (Qval (rat_make n d) == inject_Z n / inject_Z d)%Q.
Proof.
  intros H. unfold rat_make. rewrite reduce_val by (simpl; destruct (Z.ltb_spec d 0); lia).
  apply Qval_iff; simpl; try assumption; destruct (Z.ltb_spec d 0); lia.
Qed.

Lemma rat_of_Z_canonical n : canonical (rat_of_Z n).
Proof. split; simpl; [lia | apply Z.gcd_1_r]. Qed.

Lemma rat_of_Z_val n : (Qval (rat_of_Z n) == inject_Z n)%Q.
Proof. unfold Qval; simpl. field. Qed.

(** ** Canonical pairs are determined by their value *)
Lemma coprime_cross_eq n1 d1 n2 d2 : 0 < d1 -> 0 < d2 ->
  Z.gcd n1 d1 = 1 -> Z.gcd n2 d2 = 1 -> n1 * d2 = n2 * d1 -> n1 = n2 /\ d1 = d2.
Proof.
  intros P1 P2 G1 G2 E.
  assert (D12 : (d1 | d2)).
  { apply Gauss with n1. - exists n2. lia.
    - apply rel_prime_sym. apply Zgcd_1_rel_prime. exact G1. }
  assert (D21 : (d2 | d1)).
  { apply Gauss with n2. - exists n1. lia.
    - apply rel_prime_sym. apply Zgcd_1_rel_prime. exact G2. }
  assert (d1 = d2) by (apply Z.divide_antisym_nonneg; lia || assumption).
  subst d2. split; [nia|reflexivity].
Qed.

Lemma canonical_val_inj a b : canonical a -> canonical b -> (Qval a == Qval b)%Q -> a = b.
Proof.
  intros [Pa Ga] [Pb Gb] E. unfold Qval at 2 in E.
  apply Qval_iff in E; [|lia|lia].
  destruct (coprime_cross_eq _ _ _ _ Pa Pb Ga Gb E) as [En Ed].
  destruct a, b; simpl in *; subst; reflexivity.
Qed.

Lemma rat_eqb_spec a b : canonical a -> canonical b ->
  rat_eqb a b = true <-> (Qval a == Qval b)%Q.
Proof.
  intros Ca Cb. unfold rat_eqb. split.
  - destruct (andb _ _) eqn:Ez.
    + apply andb_true_iff in Ez. destruct Ez as [Za Zb].
      apply Z.eqb_eq in Za, Zb. intros _. destruct Ca, Cb. unfold Qval at 2.
      apply Qval_iff; try lia.
    + intros E. apply andb_true_iff in E. destruct E as [En Ed].
      apply Z.eqb_eq in En, Ed. unfold Qval. now rewrite En, Ed.
  - intros E. apply canonical_val_inj in E; auto. subst b.
    rewrite !Z.eqb_refl. now destruct (andb _ _).
Qed.

Lemma rat_eqb_eq a b : canonical a -> canonical b -> rat_eqb a b = true <-> a = b.
Proof.
  intros Ca Cb. rewrite rat_eqb_spec by assumption. split; [now apply canonical_val_inj|].
  intros ->; reflexivity.
Qed.

(** ** Arithmetic: values (only nonzero denominators needed) *)
Lemma rat_add_val a b : den a <> 0 -> den b <> 0 -> (Qval (rat_add a b) == Qval a + Qval b)%Q.
Proof.
  intros Ha Hb. unfold rat_add. rewrite reduce_val by (simpl; nia).
  unfold Qval; simpl. rewrite inject_Z_plus, !inject_Z_mult.
  field. split; now apply inject_Z_nz.
Qed.

Lemma rat_sub_val a b : den a <> 0 -> den b <> 0 -> (Qval (rat_sub a b) == Qval a - Qval b)%Q.
Proof.
  intros Ha Hb. unfold rat_sub. rewrite reduce_val by (simpl; nia).
  unfold Qval; simpl. unfold Z.sub. rewrite inject_Z_plus, inject_Z_opp, !inject_Z_mult.
  field. split; now apply inject_Z_nz.
Qed.

Lemma rat_mul_val a b : den a <> 0 -> den b <> 0 -> (Qval (rat_mul a b) == Qval a * Qval b)%Q.
Proof.
  intros Ha Hb. unfold rat_mul. rewrite reduce_val by (simpl; nia).
  unfold Qval; simpl. rewrite !inject_Z_mult. field. split; now apply inject_Z_nz.
Qed.

Lemma rat_div_val a b : den a <> 0 -> den b <> 0 -> num b <> 0 ->
  (Qval (rat_div a b) == Qval a / Qval b)%Q.
Proof.
  intros Ha Hb Hn. unfold rat_div. rewrite reduce_val by (simpl; nia).
  unfold Qval; simpl. rewrite !inject_Z_mult. field. repeat split; now apply inject_Z_nz.
Qed.

Lemma rat_neg_val a : den a <> 0 -> (Qval (rat_neg a) == - Qval a)%Q.
Proof.
  intros Ha. unfold rat_neg. rewrite rat_make_val by assumption.
  unfold Qval. rewrite inject_Z_opp. field. now apply inject_Z_nz.
Qed.

(** ** Arithmetic: canonical form *)
Lemma rat_add_canonical a b : canonical a -> canonical b -> canonical (rat_add a b).
Proof. intros [Ha _] [Hb _]. apply reduce_canonical; simpl; nia. Qed.

Lemma rat_sub_canonical a b : canonical a -> canonical b -> canonical (rat_sub a b).
Proof. intros [Ha _] [Hb _]. apply reduce_canonical; simpl; nia. Qed.

Lemma rat_mul_canonical a b : canonical a -> canonical b -> canonical (rat_mul a b).
Proof. intros [Ha _] [Hb _]. apply reduce_canonical; simpl; nia. Qed.

Lemma rat_neg_canonical a : canonical a -> canonical (rat_neg a).
Proof. intros [Ha _]. apply rat_make_canonical. lia. Qed.

Lemma rat_div_canonical a b : canonical a -> canonical b -> 0 < num b -> canonical (rat_div a b).
Proof. intros [Ha _] [Hb _] Hn. apply reduce_canonical; simpl; nia. Qed.

Lemma rat_div_neg_not_canonical a b :
  canonical a -> canonical b -> num b < 0 -> den (rat_div a b) < 0.
Proof.
  intros [Ha _] [Hb _] Hn. unfold rat_div.
  match goal with |- den (reduce ?r) < 0 => destruct (reduce_scaled r) as (g & Hg & _ & E) end.
  simpl in E. nia.
Qed.

Lemma Qval_nz_num r : den r <> 0 -> ~ (Qval r == 0)%Q -> num r <> 0.
Proof. intros Hd Hv E. apply Hv. unfold Qval. rewrite E. field. now apply inject_Z_nz. Qed.

Lemma Qval_pos_num r : 0 < den r -> (0 < Qval r)%Q -> 0 < num r.
Proof.
  intros Hd Hv. destruct (Z_lt_le_dec 0 (num r)) as [|Hn]; [assumption|].
  exfalso. apply (Qlt_irrefl 0). eapply Qlt_le_trans; [exact Hv|].
  assert (Hd' : (0 < inject_Z (den r))%Q) by (unfold Qlt; simpl; lia).
  unfold Qval. apply Qle_shift_div_r; [exact Hd'|].
  rewrite Qmult_0_l. unfold Qle; simpl; lia.
Qed.

Lemma reval_den_val e : rsafe true e -> den (reval e) <> 0 /\ (Qval (reval e) == rmean e)%Q.
Proof.
  induction e as [n d|n|a IHa b IHb|a IHa b IHb|a IHa b IHb|a IHa|a IHa b IHb]; simpl.
  - intros H. split; [destruct (rat_make_canonical n d H); lia | now apply rat_make_val].
  - intros _. split; [lia | apply rat_of_Z_val].
  - intros [Ha Hb]. destruct (IHa Ha) as [Da Va], (IHb Hb) as [Db Vb]. split.
    + apply reduce_den_nz; simpl; nia.
    + rewrite rat_add_val by assumption. now rewrite Va, Vb.
  - intros [Ha Hb]. destruct (IHa Ha) as [Da Va], (IHb Hb) as [Db Vb]. split.
    + apply reduce_den_nz; simpl; nia.
    + rewrite rat_sub_val by assumption. now rewrite Va, Vb.
  - intros [Ha Hb]. destruct (IHa Ha) as [Da Va], (IHb Hb) as [Db Vb]. split.
    + apply reduce_den_nz; simpl; nia.
    + rewrite rat_mul_val by assumption. now rewrite Va, Vb.
  - intros Ha. destruct (IHa Ha) as [Da Va]. split.
    + destruct (rat_make_canonical (- num (reval a)) (den (reval a)) Da). unfold rat_neg; lia.
    + rewrite rat_neg_val by assumption. now rewrite Va.
  - intros (Ha & Hb & Hnz). destruct (IHa Ha) as [Da Va], (IHb Hb) as [Db Vb].
    assert (Hn : num (reval b) <> 0) by (apply Qval_nz_num; [assumption|now rewrite Vb]).
    split.
    + apply reduce_den_nz; simpl; nia.
    + rewrite rat_div_val by assumption. now rewrite Va, Vb.
Qed.

Lemma rsafe_weaken e : rsafe false e -> rsafe true e.
Proof.
  induction e; simpl; try tauto.
  intros (Ha & Hb & Hp). repeat split; auto. intro E. rewrite E in Hp. now apply Qlt_irrefl in Hp.
Qed.

Lemma reval_canonical e : rsafe false e -> canonical (reval e).
Proof.
  induction e as [n d|n|a IHa b IHb|a IHa b IHb|a IHa b IHb|a IHa|a IHa b IHb]; simpl.
  - apply rat_make_canonical.
  - intros _; apply rat_of_Z_canonical.
  - intros [Ha Hb]; apply rat_add_canonical; auto.
  - intros [Ha Hb]; apply rat_sub_canonical; auto.
  - intros [Ha Hb]; apply rat_mul_canonical; auto.
  - intros Ha; apply rat_neg_canonical; auto.
  - intros (Ha & Hb & Hp). apply rat_div_canonical; auto.
    apply Qval_pos_num; [apply IHb; assumption|].
    destruct (reval_den_val b (rsafe_weaken b Hb)) as [_ Vb]. now rewrite Vb.
Qed.

Lemma reval_eqb e f : rsafe false e -> rsafe false f ->
  rat_eqb (reval e) (reval f) = true <-> (rmean e == rmean f)%Q.
Proof.
  intros He Hf. rewrite rat_eqb_spec by (apply reval_canonical; assumption).
  destruct (reval_den_val e (rsafe_weaken e He)) as [_ Ve].
  destruct (reval_den_val f (rsafe_weaken f Hf)) as [_ Vf].
  rewrite Ve, Vf. reflexivity.
Qed.

(** ** Statements used in Props *)
Lemma rat_make_zero_den n : den (rat_make n 0) = 0.
Proof.
  unfold rat_make, reduce; simpl. destruct (1 <? _); simpl; [|reflexivity].
  destruct (Z.eq_dec (Z.gcd n 0) 0) as [E|E]; [rewrite E; reflexivity | now apply Z.quot_0_l].
Qed.

Lemma rat_arith_exact a b : canonical a -> canonical b ->
  ((Qval (rat_add a b) == Qval a + Qval b)%Q /\ canonical (rat_add a b)) /\
  ((Qval (rat_sub a b) == Qval a - Qval b)%Q /\ canonical (rat_sub a b)) /\
  ((Qval (rat_mul a b) == Qval a * Qval b)%Q /\ canonical (rat_mul a b)) /\
  ((Qval (rat_neg a) == - Qval a)%Q /\ canonical (rat_neg a)).
Proof.
  intros Ha Hb. assert (den a <> 0) by (destruct Ha; lia). assert (den b <> 0) by (destruct Hb; lia).
  repeat split; try (apply rat_add_canonical || apply rat_sub_canonical || apply rat_mul_canonical
    || apply rat_neg_canonical; assumption).
  all: (apply rat_add_val || apply rat_sub_val || apply rat_mul_val || apply rat_neg_val); assumption.
Qed.

Lemma rat_div_exact a b : canonical a -> canonical b -> num b <> 0 ->
  (Qval (rat_div a b) == Qval a / Qval b)%Q /\ (0 < num b -> canonical (rat_div a b)).
Proof.
  intros Ha Hb Hn. split; [|intros; now apply rat_div_canonical].
  apply rat_div_val; auto; [destruct Ha|destruct Hb]; lia.
Qed.

Lemma rat_div_make_val a b : canonical a -> canonical b -> num b <> 0 ->
  (Qval (rat_div a b) == Qval (rat_make (num a * den b) (den a * num b)))%Q.
Proof.
  intros [Ha _] [Hb _] Hn. rewrite rat_make_val by nia.
  unfold rat_div. rewrite reduce_val by (simpl; nia). reflexivity.
Qed.

Lemma rat_div_neg_eq_false a b : canonical a -> canonical b -> num a <> 0 -> num b < 0 ->
  (Qval (rat_div a b) == Qval (rat_make (num a * den b) (den a * num b)))%Q /\
  rat_eqb (rat_div a b) (rat_make (num a * den b) (den a * num b)) = false.
Proof.
  intros Ha Hb Hna Hn. split; [apply rat_div_make_val; auto; lia|].
  assert (H1 := rat_div_neg_not_canonical a b Ha Hb Hn).
  destruct Ha as [Ha Ga], Hb as [Hb Gb].
  destruct (rat_make_canonical (num a * den b) (den a * num b)) as [H2 _]; [nia|].
  assert (Hz : num (rat_div a b) <> 0).
  { unfold rat_div. match goal with |- num (reduce ?r) <> 0 => destruct (reduce_scaled r) as (g & Hg & E & _) end.
    simpl in E. nia. }
  unfold rat_eqb. apply Z.eqb_neq in Hz. rewrite Hz. simpl.
  apply andb_false_iff. right. apply Z.eqb_neq. lia.
Qed.

Lemma rat_div_pos_eq_true a b : canonical a -> canonical b -> 0 < num b \/ (num b <> 0 /\ num a = 0) ->
  rat_eqb (rat_div a b) (rat_make (num a * den b) (den a * num b)) = true.
Proof.
  intros Ha Hb [Hn|[Hn Hz]].
  - assert (0 < den a) by (destruct Ha; lia).
    apply rat_eqb_spec; [now apply rat_div_canonical | apply rat_make_canonical; nia |].
    apply rat_div_make_val; auto; lia.
  - assert (Z0 : forall r, num r = 0 -> num (reduce r) = 0).
    { intros r E. unfold reduce. destruct (1 <? _) eqn:G; simpl; [|assumption].
      rewrite E in *. apply Z.quot_0_l. apply Z.ltb_lt in G. lia. }
    unfold rat_eqb, rat_div, rat_make. rewrite !Z0; simpl; [reflexivity| |]; rewrite Hz; simpl; try lia.
    destruct (_ <? 0); reflexivity.
Qed.

Lemma rat_div_self_wrong r : canonical r -> num r <> 0 -> den r <> 1 ->
  ~ (Qval (rat_div_self r) == 1)%Q /\ (Qval (rat_div_self r) == 1 / inject_Z (den r))%Q.
Proof.
  intros [Hd Hg] Hn H1.
  assert (E : (Qval (rat_div_self r) == 1 / inject_Z (den r))%Q).
  { unfold rat_div_self.
    assert (den r * (num r * den r) <> 0) by (intro C; apply Z.mul_eq_0 in C; destruct C as [C|C]; [lia|];
      apply Z.mul_eq_0 in C; lia).
    rewrite reduce_val by assumption.
    change 1%Q with (inject_Z 1). apply Qval_iff; cbn [num den]; [assumption|lia|ring]. }
  split; [|exact E]. rewrite E. intro C.
  assert (C2 : (inject_Z (den r) == 1)%Q).
  { transitivity (1 / inject_Z (den r) * inject_Z (den r))%Q.
    - rewrite C. ring. - field. apply inject_Z_nz; lia. }
  unfold Qeq in C2; simpl in C2. lia.
Qed.
