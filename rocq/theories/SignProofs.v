(** Theory of [permutation_sign] on lists of integers. *)
From Coq Require Import ZArith List Bool Lia Permutation Sorted Arith.
From Verif Require Import CombinatoricsModel.
Import ListNotations.
Local Open Scope Z_scope.

Notation psign := permutation_sign.

Definition psgn_nat (n : nat) : Z := if Nat.even n then 1 else -1.

Lemma psgn_nat_add a b : psgn_nat (a + b) = psgn_nat a * psgn_nat b.
Proof. unfold psgn_nat. rewrite Nat.even_add. now destruct (Nat.even a), (Nat.even b). Qed.

Lemma psgn_nat_S n : psgn_nat (S n) = - psgn_nat n.
Proof. unfold psgn_nat. rewrite Nat.even_succ, <- Nat.negb_even. now destruct (Nat.even n). Qed.

Lemma psgn_nat_sq n : psgn_nat n * psgn_nat n = 1.
Proof. unfold psgn_nat. now destruct (Nat.even n). Qed.

Lemma psign_pm l : psign l = 1 \/ psign l = -1.
Proof. unfold psign. destruct (Nat.even _); auto. Qed.

Lemma psign_sq l : psign l * psign l = 1.
Proof. destruct (psign_pm l) as [->| ->]; reflexivity. Qed.

Lemma filter_len_perm {A} (f : A -> bool) l l' :
  Permutation l l' -> length (filter f l) = length (filter f l').
Proof.
  induction 1; simpl; auto.
  - destruct (f x); simpl; auto.
  - destruct (f x), (f y); simpl; auto.
  - congruence.
Qed.

Lemma inversions_ctx l1 l l' : Permutation l l' ->
  (inversions (l1 ++ l) + inversions l' = inversions (l1 ++ l') + inversions l)%nat.
Proof.
  intros P. induction l1 as [|a l1 IH]; simpl; [lia|].
  rewrite (filter_len_perm (fun b => b <? a) (l1 ++ l) (l1 ++ l')); [lia|].
  now apply Permutation_app_head.
Qed.

Lemma psgn_nat_cancel a b c d : (a + b = c + d)%nat -> psgn_nat a * psgn_nat b = psgn_nat c * psgn_nat d.
Proof. intros H. now rewrite <- !psgn_nat_add, H. Qed.

Lemma psign_ctx l1 l l' : Permutation l l' ->
  psign (l1 ++ l) * psign l' = psign (l1 ++ l') * psign l.
Proof. intros P. apply psgn_nat_cancel. now apply inversions_ctx. Qed.

Lemma psign_swap2 x y l : x <> y -> psign (x :: y :: l) = - psign (y :: x :: l).
Proof.
  intros H. unfold psign. fold (psgn_nat (inversions (x :: y :: l))).
  fold (psgn_nat (inversions (y :: x :: l))). simpl.
  destruct (Z.ltb_spec y x), (Z.ltb_spec x y); try lia; simpl;
    rewrite ?psgn_nat_S, ?psgn_nat_add; ring.
Qed.

Lemma psign_adj l1 x y l2 : x <> y -> psign (l1 ++ x :: y :: l2) = - psign (l1 ++ y :: x :: l2).
Proof.
  intros H. assert (C := psign_ctx l1 (x :: y :: l2) (y :: x :: l2) (perm_swap _ _ _)).
  rewrite (psign_swap2 x y l2 H) in C.
  destruct (psign_pm (y :: x :: l2)) as [E|E]; rewrite E in C; lia.
Qed.

(** Moving an element over a block. *)
Lemma psign_move l1 x m l2 : ~ In x m ->
  psign (l1 ++ x :: m ++ l2) = psgn_nat (length m) * psign (l1 ++ m ++ x :: l2).
Proof.
  revert l1; induction m as [|a m IH]; intros l1 H; cbn [app length].
  - change (psgn_nat 0) with 1. rewrite Z.mul_1_l. reflexivity.
  - rewrite psign_adj by (intro; subst; apply H; now left).
    specialize (IH (l1 ++ [a])). rewrite <- !app_assoc in IH. simpl in IH.
    rewrite IH by (intro; apply H; now right).
    change (S (length m)) with (1 + length m)%nat. rewrite psgn_nat_add. change (psgn_nat 1) with (-1). ring.
Qed.

(** Exchanging any two entries negates the sign. *)
Lemma psign_exchange l1 x m y l2 : x <> y -> ~ In x m -> ~ In y m ->
  psign (l1 ++ x :: m ++ y :: l2) = - psign (l1 ++ y :: m ++ x :: l2).
Proof.
  intros Hxy Hx Hy.
  rewrite (psign_move l1 x m (y :: l2) Hx).
  rewrite (psign_move l1 y m (x :: l2) Hy).
  rewrite (app_assoc l1 m (x :: y :: l2)), (app_assoc l1 m (y :: x :: l2)).
  rewrite (psign_adj (l1 ++ m) x y l2 Hxy). ring.
Qed.

Lemma inversions_sorted l : StronglySorted Z.le l -> inversions l = 0%nat.
Proof.
  induction 1 as [|a l S IH F]; simpl; [reflexivity|]. rewrite IH.
  replace (filter (fun b => b <? a) l) with (@nil Z); [reflexivity|].
  symmetry. rewrite Forall_forall in F. clear - F.
  induction l as [|b l IH]; simpl; [reflexivity|].
  destruct (Z.ltb_spec b a) as [L|L].
  - specialize (F b (or_introl eq_refl)). lia.
  - apply IH. intros x Hx. apply F. now right.
Qed.

Lemma psign_sorted l : StronglySorted Z.le l -> psign l = 1.
Proof. intros H. unfold psign. now rewrite inversions_sorted. Qed.


(** Sorting by insertion, used to speak about "the sorted list". *)
Fixpoint insert (a : Z) (l : list Z) : list Z :=
  match l with
  | [] => [a]
  | b :: l' => if a <=? b then a :: l else b :: insert a l'
  end.
Fixpoint isort (l : list Z) : list Z :=
  match l with [] => [] | a :: l' => insert a (isort l') end.

Lemma insert_perm a l : Permutation (a :: l) (insert a l).
Proof.
  induction l as [|b l IH]; simpl; [auto|]. destruct (a <=? b); [auto|].
  rewrite perm_swap. now constructor.
Qed.
Lemma isort_perm l : Permutation l (isort l).
Proof. induction l as [|a l IH]; simpl; [auto|]. rewrite <- insert_perm. now constructor. Qed.

Lemma insert_sorted a l : StronglySorted Z.le l -> StronglySorted Z.le (insert a l).
Proof.
  induction 1 as [|b l S IH F]; simpl; [repeat constructor|].
  destruct (Z.leb_spec a b).
  - constructor; [now constructor|]. constructor; [assumption|].
    eapply Forall_impl; [|exact F]. simpl; lia.
  - constructor; [assumption|].
    eapply Permutation_Forall; [apply insert_perm|]. constructor; [lia|assumption].
Qed.
Lemma isort_sorted l : StronglySorted Z.le (isort l).
Proof. induction l; simpl; [constructor|]. now apply insert_sorted. Qed.

Lemma sorted_perm_unique l l' : StronglySorted Z.le l -> StronglySorted Z.le l' ->
  Permutation l l' -> l = l'.
Proof.
  revert l'; induction l as [|a l IH]; intros l' S S' P.
  - apply Permutation_nil in P. now subst.
  - destruct l' as [|b l']; [symmetry in P; now apply Permutation_nil_cons in P|].
    inversion S as [|? ? S1 F1]; inversion S' as [|? ? S2 F2]; subst.
    rewrite Forall_forall in F1, F2.
    assert (a = b).
    { assert (Ia : In a (b :: l')) by (eapply Permutation_in; [exact P|now left]).
      assert (Ib : In b (a :: l)) by (eapply Permutation_in; [symmetry; exact P|now left]).
      destruct Ia as [|Ia]; [auto|]. destruct Ib as [|Ib]; [auto|].
      specialize (F1 b Ib). specialize (F2 a Ia). lia. }
    subst b. f_equal. apply IH; auto. now apply Permutation_cons_inv in P.
Qed.

(** Induction principle: a family of values [f] on lists that is negated by exchanging distinct
    neighbours satisfies [f l = psign l * f (sorted l)]. *)
Lemma alternating_sorted (f : list Z -> Z) :
  (forall l1 x y l2, x <> y -> NoDup (l1 ++ x :: y :: l2) -> f (l1 ++ x :: y :: l2) = - f (l1 ++ y :: x :: l2)) ->
  forall l, NoDup l -> f l = psign l * f (isort l).
Proof.
  intros Hf.
  assert (Ins : forall l1 a l, NoDup (l1 ++ a :: l) ->
     f (l1 ++ a :: l) * psign (l1 ++ insert a l) = psign (l1 ++ a :: l) * f (l1 ++ insert a l)).
  { intros l1 a l; revert l1; induction l as [|b l IH]; intros l1 N; simpl; [ring|].
    destruct (a <=? b); [ring|].
    assert (Hab : a <> b).
    { intro; subst. apply NoDup_remove_2 in N. apply N. apply in_or_app. right. now left. }
    rewrite (Hf l1 a b l Hab N), (psign_adj l1 a b l Hab).
    assert (N' : NoDup ((l1 ++ [b]) ++ a :: l)).
    { rewrite <- app_assoc. simpl. eapply Permutation_NoDup; [|exact N].
      apply Permutation_app_head. constructor. }
    specialize (IH (l1 ++ [b]) N'). rewrite <- !app_assoc in IH. simpl in IH. lia. }
  assert (G : forall l l1, NoDup (l1 ++ l) ->
     f (l1 ++ l) * psign (l1 ++ isort l) = psign (l1 ++ l) * f (l1 ++ isort l)).
  { induction l as [|a l IH]; intros l1 N; simpl; [ring|].
    specialize (IH (l1 ++ [a])). rewrite <- !app_assoc in IH. simpl in IH. specialize (IH N).
    assert (N2 : NoDup (l1 ++ a :: isort l)).
    { eapply Permutation_NoDup; [|exact N]. apply Permutation_app_head. constructor. apply isort_perm. }
    specialize (Ins l1 a (isort l) N2).
    destruct (psign_pm (l1 ++ a :: isort l)) as [E|E]; rewrite E in *; destruct (psign_pm (l1 ++ a :: l)) as [E1|E1]; rewrite E1 in *; lia. }
  intros l N. specialize (G l [] N). simpl in G.
  rewrite (psign_sorted (isort l)) in G by apply isort_sorted. lia.
Qed.

Lemma psign_exchange_nodup l1 x m y l2 : NoDup (l1 ++ x :: m ++ y :: l2) ->
  psign (l1 ++ x :: m ++ y :: l2) = - psign (l1 ++ y :: m ++ x :: l2).
Proof.
  intros N. assert (N1 : NoDup (x :: m ++ y :: l2)).
  { clear - N. induction l1; simpl in N; [assumption|]. inversion N; auto. }
  inversion N1 as [|? ? Hx N2]; subst.
  assert (Hy : ~ In y m).
  { intro Hi. apply NoDup_remove_2 in N2. apply N2. apply in_or_app; auto. }
  apply psign_exchange; auto.
  - intros ->. apply Hx. apply in_or_app; right; now left.
  - intro Hi. apply Hx. apply in_or_app; auto.
Qed.

Lemma alternating_sorted_any (f : list Z -> Z) :
  (forall l1 x y l2, x <> y -> NoDup (l1 ++ x :: y :: l2) ->
     f (l1 ++ x :: y :: l2) = - f (l1 ++ y :: x :: l2)) ->
  forall l l', NoDup l -> Permutation l l' -> StronglySorted Z.le l' -> f l = psign l * f l'.
Proof.
  intros Hf l l' N P S. rewrite (alternating_sorted f Hf l N). f_equal. f_equal.
  apply sorted_perm_unique; auto using isort_sorted. rewrite <- isort_perm. exact P.
Qed.
