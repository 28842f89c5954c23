(** Graph matrices and canonicalization of operator products. *)
From Coq Require Import ZArith Zquot List Bool Lia Permutation.
From Verif Require Import Res PartitionsModel RegistryModel RegistryProofs CoreModel OrderProofs CombinatoricsModel OperatorModel OperatorSpec.
Import ListNotations.
Local Open Scope Z_scope.

(** ** Arrays *)
Lemma lset_length {A} (x : list A) i v : length (lset x i v) = length x.
Proof. revert i. induction x as [|a x IH]; intros [|i]; simpl; auto. Qed.
Lemma lset_nth {A} (x : list A) i v j : (i < length x)%nat -> nth_error (lset x i v) j = if (j =? i)%nat then Some v else nth_error x j.
Proof.
  revert i j. induction x as [|a x IH]; intros [|i] [|j] H; simpl in *; try lia; auto. apply IH. lia.
Qed.
Lemma aget_nat {A} (x : list A) n : aget x (Z.of_nat n) = match nth_error x n with Some a => Ok a | None => UB end.
Proof. unfold aget. destruct (Z.ltb_spec (Z.of_nat n) 0); [lia|]. rewrite Nat2Z.id. reflexivity. Qed.
Lemma aset_nat {A} (x : list A) n v : aset x (Z.of_nat n) v = if (n <? length x)%nat then Ok (lset x n v) else UB.
Proof.
  unfold aset. destruct (Z.ltb_spec (Z.of_nat n) 0); [lia|]. simpl. rewrite Nat2Z.id.
  destruct (Z.leb_spec (Z.of_nat (length x)) (Z.of_nat n)), (Nat.ltb_spec n (length x)); auto; lia.
Qed.

Lemma foldM_ext {S A} (f g : S -> A -> res S) s l : (forall s a, f s a = g s a) -> foldM f s l = foldM g s l.
Proof. intros H. revert s. induction l as [|a l IH]; intros s; simpl; [reflexivity|]. rewrite H. destruct (g s a); simpl; auto. Qed.

(** A loop writing position [i] with a value computed from position [i]. *)
Lemma foldM_upd {A} (F : list A -> Z -> res A) g n (v : nat -> A) : (n <= length g)%nat ->
  (forall g' i, (i < n)%nat -> length g' = length g -> nth_error g' i = nth_error g i -> F g' (Z.of_nat i) = Ok (v i)) ->
  exists r, foldM (fun g s => bind (F g s) (fun x => aset g s x)) g (map Z.of_nat (seq 0 n)) = Ok r /\ length r = length g /\
    forall i, nth_error r i = if (i <? n)%nat then Some (v i) else nth_error g i.
Proof.
  induction n as [|n IH]; intros Hn HF.
  - exists g. simpl. split; [reflexivity|split; [reflexivity|intros; reflexivity]].
  - rewrite seq_S, map_app, foldM_app. simpl.
    destruct IH as (r & -> & Lr & Nr); [lia|intros; apply HF; auto|].
    simpl. rewrite (HF r n); [|lia|exact Lr|rewrite Nr; rewrite Nat.ltb_irrefl; reflexivity].
    simpl. rewrite aset_nat. destruct (Nat.ltb_spec n (length r)); [|lia]. simpl.
    eexists. split; [reflexivity|]. split; [rewrite lset_length; exact Lr|].
    intros i. rewrite lset_nth by lia. rewrite Nr.
    destruct (Nat.eqb_spec i n), (Nat.ltb_spec i (S n)), (Nat.ltb_spec i n); subst; auto; try lia.
Qed.
(** Writing past the end. *)
Lemma foldM_upd_ub {A} (F : list A -> Z -> res A) g n (v : nat -> A) : (length g < n)%nat ->
  (forall g' i, (i < length g)%nat -> length g' = length g -> nth_error g' i = nth_error g i -> F g' (Z.of_nat i) = Ok (v i)) ->
  (forall g', length g' = length g -> F g' (Z.of_nat (length g)) = UB \/ exists x, F g' (Z.of_nat (length g)) = Ok x) ->
  foldM (fun g s => bind (F g s) (fun x => aset g s x)) g (map Z.of_nat (seq 0 n)) = UB.
Proof.
  intros Hn HF HU. replace n with (length g + (S (n - length g - 1)))%nat by lia.
  rewrite seq_app, map_app, foldM_app. destruct (foldM_upd F g (length g) v) as (r & -> & Lr & _); [lia|exact HF|].
  simpl. destruct (HU r Lr) as [->|[x ->]]; [reflexivity|]. simpl.
  rewrite aset_nat. destruct (Nat.ltb_spec (length g) (length r)); [lia|reflexivity].
Qed.

Lemma num_spaces_nat st : Z.to_nat (num_spaces st) = length (space_info st).
Proof. unfold num_spaces. apply Nat2Z.id. Qed.
Lemma range_spaces st : range (num_spaces st) = map Z.of_nat (seq 0 (nsp st)).
Proof. unfold range. rewrite num_spaces_nat. reflexivity. Qed.

(** ** Graph matrices *)
Lemma list_nth_ext {A} (l1 l2 : list A) : (forall i, nth_error l1 i = nth_error l2 i) -> l1 = l2.
Proof.
  revert l2. induction l1 as [|a l1 IH]; intros [|b l2] H; auto.
  - specialize (H 0%nat). discriminate.
  - specialize (H 0%nat). discriminate.
  - pose proof (H 0%nat) as H0. injection H0 as ->. f_equal. apply IH. intros i. apply (H (S i)).
Qed.

Definition nthp (g : gmat) (i : nat) : Z * Z := nth i g (0, 0).
Lemma nthp_ok g i : (i < length g)%nat -> nth_error g i = Some (nthp g i).
Proof. apply nth_error_nth'. Qed.

Lemma gm_op_spec (f : Z -> Z -> Z) st g h : length g = max_spaces -> length h = max_spaces -> (nsp st <= max_spaces)%nat ->
  exists r, foldM (fun g s => bind (aget g s) (fun x => bind (aget h s) (fun y => aset g s (f (fst x) (fst y), f (snd x) (snd y))))) g (range (num_spaces st)) = Ok r
    /\ length r = max_spaces /\ forall i, nth_error r i = if (i <? nsp st)%nat then
         Some (f (fst (nthp g i)) (fst (nthp h i)), f (snd (nthp g i)) (snd (nthp h i))) else nth_error g i.
Proof.
  intros Lg Lh Hn. rewrite range_spaces.
  destruct (foldM_upd (fun g s => bind (aget g s) (fun x => bind (aget h s) (fun y => Ok (f (fst x) (fst y), f (snd x) (snd y))))) g (nsp st)
    (fun i => (f (fst (nthp g i)) (fst (nthp h i)), f (snd (nthp g i)) (snd (nthp h i))))) as (r & E & L & N); [lia| |].
  - intros g' i Hi Lg' Eg. rewrite !aget_nat, Eg, (nthp_ok g) by lia. simpl. rewrite (nthp_ok h) by lia. reflexivity.
  - exists r. split; [|rewrite L; auto]. etransitivity; [|exact E]. apply foldM_ext. intros s a.
    destruct (aget s a); simpl; auto. destruct (aget h a); simpl; auto.
Qed.

Lemma gm_add_sub st g h : length g = max_spaces -> length h = max_spaces -> (nsp st <= max_spaces)%nat ->
  exists s, gm_add st g h = Ok s /\ gm_sub st s h = Ok g /\ length s = max_spaces.
Proof.
  intros Lg Lh Hn. destruct (gm_op_spec Z.add st g h Lg Lh Hn) as (s & E & L & N).
  exists s. split; [exact E|]. destruct (gm_op_spec Z.sub st s h L Lh Hn) as (r & E' & L' & N').
  split; [|exact L]. unfold gm_sub. rewrite E'. f_equal. apply list_nth_ext. intros i. rewrite N'.
  destruct (Nat.ltb_spec i (nsp st)).
  - rewrite (nthp_ok g) by lia. unfold nthp at 1 3. assert (Hs := nthp_ok s i). rewrite N in Hs.
    destruct (Nat.ltb_spec i (nsp st)); [|lia]. specialize (Hs ltac:(lia)). injection Hs as Hs. fold (nthp s i). rewrite <- Hs. simpl.
    destruct (nthp g i), (nthp h i). simpl. do 2 f_equal; lia.
  - rewrite N. destruct (Nat.ltb_spec i (nsp st)); [lia|reflexivity].
Qed.

Lemma cre_of_nat g i : cre_of g (Z.of_nat i) = fst (nthp g i).
Proof. unfold cre_of, gm_cre, nthp. rewrite aget_nat. destruct (nth_error g i) eqn:E; simpl.
  - rewrite (nth_error_nth _ _ (0,0) E). reflexivity.
  - apply nth_error_None in E. rewrite nth_overflow by exact E. reflexivity. Qed.
Lemma ann_of_nat g i : ann_of g (Z.of_nat i) = snd (nthp g i).
Proof. unfold ann_of, gm_ann, nthp. rewrite aget_nat. destruct (nth_error g i) eqn:E; simpl.
  - rewrite (nth_error_nth _ _ (0,0) E). reflexivity.
  - apply nth_error_None in E. rewrite nth_overflow by exact E. reflexivity. Qed.

Lemma nthp_of r i x : nth_error r i = Some x -> nthp r i = x.
Proof. intros H. unfold nthp. apply nth_error_nth. exact H. Qed.

Lemma gm_add_counts st g h s i : length g = max_spaces -> length h = max_spaces -> (nsp st <= max_spaces)%nat ->
  gm_add st g h = Ok s -> 0 <= i < num_spaces st ->
  cre_of s i = cre_of g i + cre_of h i /\ ann_of s i = ann_of g i + ann_of h i.
Proof.
  intros Lg Lh Hn E Hi. destruct (gm_op_spec Z.add st g h Lg Lh Hn) as (s' & E' & L & N).
  unfold gm_add in E. rewrite E' in E. injection E as <-.
  unfold num_spaces in Hi. rewrite <- (Z2Nat.id i) by lia. rewrite !cre_of_nat, !ann_of_nat.
  specialize (N (Z.to_nat i)). destruct (Nat.ltb_spec (Z.to_nat i) (nsp st)); [|lia].
  rewrite (nthp_of _ _ _ N). simpl. auto.
Qed.

Fixpoint gsum (g : gmat) : Z := match g with [] => 0 | p :: g' => fst p + snd p + gsum g' end.
Lemma gm_num_sum g : gm_num_ops g = gsum g.
Proof.
  unfold gm_num_ops. enough (G : forall a, fold_left (fun r p => r + (fst p + snd p)) g a = a + gsum g) by (rewrite G; lia).
  induction g as [|p g IH]; intros a; simpl; [lia|]. rewrite IH. lia.
Qed.
Lemma gsum_nth g g' h : (forall i, fst (nthp h i) + snd (nthp h i) = (fst (nthp g i) + snd (nthp g i)) + (fst (nthp g' i) + snd (nthp g' i))) ->
  length g = length h -> length g' = length h -> gsum h = gsum g + gsum g'.
Proof.
  revert g g'. induction h as [|z h IH]; intros [|x g] [|y g'] H L1 L2; simpl in *; try lia.
  pose proof (H 0%nat) as H0. unfold nthp in H0. simpl in H0. rewrite (IH g g'); [lia| |lia|lia].
  intros i. apply (H (S i)).
Qed.

Lemma gm_add_num st g h s : gm_valid st h -> length g = max_spaces -> (nsp st <= max_spaces)%nat ->
  gm_add st g h = Ok s -> gm_num_ops s = gm_num_ops g + gm_num_ops h.
Proof.
  intros [Lh Vh] Lg Hn E. destruct (gm_op_spec Z.add st g h Lg Lh Hn) as (s' & E' & L & N).
  unfold gm_add in E. rewrite E' in E. injection E as <-. rewrite !gm_num_sum. apply gsum_nth; [|lia|lia].
  intros i. specialize (N i). destruct (Nat.ltb_spec i (nsp st)).
  - rewrite (nthp_of _ _ _ N). simpl. lia.
  - assert (nthp s' i = nthp g i) as ->. { unfold nthp. destruct (nth_error g i) eqn:Eg.
      - rewrite (nth_error_nth _ _ _ N), (nth_error_nth _ _ _ Eg). reflexivity.
      - rewrite !nth_overflow; [reflexivity|apply nth_error_None; exact Eg|apply nth_error_None; exact N]. }
    assert (nthp h i = (0, 0)) as ->; [|simpl; lia].
    destruct (Nat.lt_ge_cases i max_spaces); [apply nthp_of, Vh; lia|unfold nthp; apply nth_overflow; lia].
Qed.

(** The constructor. *)
Lemma gm_zero_nth i : (i < max_spaces)%nat -> nth_error gm_zero i = Some (0, 0).
Proof. intros H. unfold gm_zero. rewrite nth_error_repeat; auto. Qed.
Lemma gm_make_spec st cre ann : length cre = nsp st -> length ann = nsp st -> (nsp st <= max_spaces)%nat ->
  exists g, gm_make st cre ann = Ok g /\ gm_valid st g /\ forall i, (i < nsp st)%nat -> nth_error g i = Some (nth i cre 0, nth i ann 0).
Proof.
  intros Lc La Hn. unfold gm_make. rewrite range_spaces.
  destruct (foldM_upd (fun g s => bind (aget cre s) (fun c => bind (aget ann s) (fun a => Ok (c, a)))) gm_zero (nsp st)
    (fun i => (nth i cre 0, nth i ann 0))) as (r & E & L & N).
  - unfold gm_zero. rewrite repeat_length. exact Hn.
  - intros g' i Hi _ _. rewrite !aget_nat, (nth_error_nth' cre 0), (nth_error_nth' ann 0) by lia. reflexivity.
  - exists r. split; [|split; [split|]].
    + etransitivity; [|exact E]. apply foldM_ext. intros s a. destruct (aget cre a); simpl; auto. destruct (aget ann a); simpl; auto.
    + rewrite L. unfold gm_zero. apply repeat_length.
    + intros i Hi. rewrite N. destruct (Nat.ltb_spec i (nsp st)); [lia|]. apply gm_zero_nth. lia.
    + intros i Hi. rewrite N. destruct (Nat.ltb_spec i (nsp st)); [reflexivity|lia].
Qed.
Lemma gm_make_ub st cre ann : length cre = nsp st -> length ann = nsp st -> (max_spaces < nsp st)%nat -> gm_make st cre ann = UB.
Proof.
  intros Lc La Hn. unfold gm_make. rewrite range_spaces.
  etransitivity; [|apply (foldM_upd_ub (fun g s => bind (aget cre s) (fun c => bind (aget ann s) (fun a => Ok (c, a)))) gm_zero (nsp st)
    (fun i => (nth i cre 0, nth i ann 0)))].
  - apply foldM_ext. intros s a. destruct (aget cre a); simpl; auto. destruct (aget ann a); simpl; auto.
  - unfold gm_zero. rewrite repeat_length. exact Hn.
  - unfold gm_zero. rewrite repeat_length. intros g' i Hi _ _. rewrite !aget_nat, (nth_error_nth' cre 0), (nth_error_nth' ann 0) by lia. reflexivity.
  - intros g' _. unfold gm_zero. rewrite repeat_length, !aget_nat, (nth_error_nth' cre 0), (nth_error_nth' ann 0) by lia. right. eexists. reflexivity.
Qed.

Lemma mapM_get (f : Z -> res Z) (v : nat -> Z) n : (forall i, (i < n)%nat -> f (Z.of_nat i) = Ok (v i)) ->
  mapM f (map Z.of_nat (seq 0 n)) = Ok (map v (seq 0 n)).
Proof.
  intros H. assert (G : forall l, (forall i, In i l -> (i < n)%nat) -> mapM f (map Z.of_nat l) = Ok (map v l)).
  { induction l as [|a l IH]; intros Hl; simpl; [reflexivity|]. rewrite (H a) by (apply Hl; left; reflexivity). simpl.
    rewrite IH by (intros i Hi; apply Hl; right; exact Hi). reflexivity. }
  apply G. intros i Hi. apply in_seq in Hi. lia.
Qed.

Lemma gm_adjoint_spec st g : gm_valid st g -> (nsp st <= max_spaces)%nat ->
  exists h, gm_adjoint st g = Ok h /\ gm_valid st h /\ forall i, nthp h i = (snd (nthp g i), fst (nthp g i)).
Proof.
  intros [Lg Vg] Hn. unfold gm_adjoint. rewrite range_spaces.
  rewrite (mapM_get _ (fun i => snd (nthp g i))), (mapM_get _ (fun i => fst (nthp g i))).
  2,3: intros i Hi; unfold gm_cre, gm_ann; rewrite aget_nat, nthp_ok by lia; reflexivity.
  simpl. destruct (gm_make_spec st (map (fun i => snd (nthp g i)) (seq 0 (nsp st))) (map (fun i => fst (nthp g i)) (seq 0 (nsp st))))
    as (h & -> & Vh & Nh); try (rewrite map_length, seq_length; reflexivity); [exact Hn|].
  exists h. split; [reflexivity|split; [exact Vh|]]. intros i.
  destruct (Nat.lt_ge_cases i (nsp st)) as [Hi|Hi].
  - rewrite (nthp_of _ _ _ (Nh i Hi)). f_equal.
    + rewrite (nth_indep _ 0 (snd (nthp g 0))) by (rewrite map_length, seq_length; lia).
      rewrite (map_nth (fun i => snd (nthp g i))), seq_nth by lia. reflexivity.
    + rewrite (nth_indep _ 0 (fst (nthp g 0))) by (rewrite map_length, seq_length; lia).
      rewrite (map_nth (fun i => fst (nthp g i))), seq_nth by lia. reflexivity.
  - destruct Vh as [Lh Vh]. destruct (Nat.lt_ge_cases i max_spaces) as [Hi'|Hi'].
    + rewrite (nthp_of h i (0,0)), (nthp_of g i (0,0)) by (try apply Vh; try apply Vg; lia). reflexivity.
    + unfold nthp. rewrite !nth_overflow by lia. reflexivity.
Qed.
Lemma nthp_ext g h : length g = length h -> (forall i, nthp g i = nthp h i) -> g = h.
Proof. intros L H. apply list_nth_ext. intros i. destruct (Nat.lt_ge_cases i (length g)).
  - rewrite !nthp_ok by lia. rewrite H. reflexivity.
  - rewrite !(proj2 (nth_error_None _ _)) by lia. reflexivity. Qed.
Lemma gm_adjoint_invol st g : gm_valid st g -> (nsp st <= max_spaces)%nat ->
  exists h, gm_adjoint st g = Ok h /\ gm_valid st h /\ gm_adjoint st h = Ok g /\ gm_num_ops h = gm_num_ops g /\
   forall s, 0 <= s < num_spaces st -> cre_of h s = ann_of g s /\ ann_of h s = cre_of g s.
Proof.
  intros V Hn. destruct (gm_adjoint_spec st g V Hn) as (h & E & Vh & Nh).
  destruct (gm_adjoint_spec st h Vh Hn) as (k & E' & Vk & Nk).
  exists h. split; [exact E|split; [exact Vh|split; [|split]]].
  - rewrite E'. f_equal. apply nthp_ext; [destruct Vk as [-> _]; destruct V as [-> _]; reflexivity|].
    intros i. rewrite Nk, Nh. simpl. symmetry. apply surjective_pairing.
  - rewrite !gm_num_sum. enough (gsum h = gsum g + gsum (repeat (0,0) (length h))) as ->.
    { enough (forall n, gsum (repeat (0,0) n) = 0) as -> by lia. induction n; simpl; lia. }
    apply gsum_nth; [|destruct V as [-> _]; destruct Vh as [-> _]; reflexivity|apply repeat_length].
    intros i. rewrite Nh. simpl. unfold nthp at 5 6. rewrite nth_repeat. simpl. lia.
  - intros s Hs. rewrite <- (Z2Nat.id s) by lia. rewrite !cre_of_nat, !ann_of_nat, Nh. simpl. auto.
Qed.

(** ** Bubble sort of operator products *)
Lemma nsign_add a b : nsign (a + b) = nsign a * nsign b.
Proof. unfold nsign. rewrite Z.even_add. destruct (Z.even a), (Z.even b); reflexivity. Qed.
Lemma nsign_rem n : (if Z.rem n 2 =? 0 then 1 else -1) = nsign n.
Proof. unfold nsign. rewrite Zeven_rem. reflexivity. Qed.

Lemma cs_trans st p q r s t : com_swaps st p s q -> com_swaps st q t r -> com_swaps st p (s * t) r.
Proof.
  induction 1 as [p|l1 a b l2 s p' C H IH]; intros H'; [rewrite Z.mul_1_l; exact H'|].
  rewrite <- Z.mul_assoc. constructor; auto.
Qed.
Lemma cs_cons st x p q s : com_swaps st p s q -> com_swaps st (x :: p) s (x :: q).
Proof. induction 1; [constructor|]. apply (cs_step st (x :: l1)); assumption. Qed.
Lemma cs_perm st p q s : com_swaps st p s q -> Permutation p q.
Proof.
  induction 1 as [|l1 a b l2 s p' C H IH]; [reflexivity|]. rewrite <- IH. apply Permutation_app_head. apply perm_swap.
Qed.

Lemma ops_commute_sym st a b : ops_commute st a b = ops_commute st b a.
Proof.
  unfold ops_commute. f_equal. generalize (range (num_spaces st)) as l. intros l. generalize 0 as z.
  induction l as [|s l IH]; intros z; cbn [fold_left]; [reflexivity|].
  rewrite <- IH. f_equal. lia.
Qed.
Lemma ncless_commute st a b : op_ncless st a b = true -> ops_commute st a b = true /\ oper_ltb a b = true.
Proof. unfold op_ncless. destruct (ops_commute st a b); [auto|discriminate]. Qed.
Lemma ncless_asym st a b : op_ncless st a b = true -> op_ncless st b a = false.
Proof.
  intros H. apply ncless_commute in H as [_ H]. unfold op_ncless. destruct (ops_commute st b a); [|reflexivity].
  apply (swo_asym _ _ swo_oper). exact H.
Qed.

Lemma pass_acc st k l n : bubble_pass st k l n = (fst (bubble_pass st k l 0), n + snd (bubble_pass st k l 0)).
Proof.
  revert l n. induction k as [|k IH]; intros l n; [simpl; f_equal; lia|].
  destruct l as [|a [|b l]]; try (simpl; f_equal; lia). cbn [bubble_pass].
  destruct (op_ncless st b a).
  - rewrite (IH _ (n + _)), (IH _ (0 + _)). simpl. f_equal. lia.
  - rewrite (IH _ n), (IH _ 0). simpl. f_equal.
Qed.

Lemma pass_swaps st k l : com_swaps st l (nsign (snd (bubble_pass st k l 0))) (fst (bubble_pass st k l 0)).
Proof.
  revert l. induction k as [|k IH]; intros l; [constructor|].
  destruct l as [|a [|b l]]; try (constructor; fail). cbn [bubble_pass].
  destruct (op_ncless st b a) eqn:E.
  - rewrite pass_acc. cbn [fst snd]. rewrite Z.add_0_l, nsign_add. apply ncless_commute in E as [E _].
    rewrite ops_commute_sym in E. apply (cs_step st [] a b l); [exact E|]. apply cs_cons. apply IH.
  - rewrite pass_acc. cbn [fst snd]. rewrite Z.add_0_l. apply cs_cons. apply IH.
Qed.
Lemma sort_swaps st k l n : exists p m, bubble_sort st k l n = (p, n + m) /\ com_swaps st l (nsign m) p.
Proof.
  revert l n. induction k as [|k IH]; intros l n.
  - exists l, 0. split; [simpl; f_equal; lia|constructor].
  - cbn [bubble_sort]. rewrite pass_acc. destruct (IH (fst (bubble_pass st (S k) l 0)) (n + snd (bubble_pass st (S k) l 0))) as (p & m & -> & H).
    exists p, (snd (bubble_pass st (S k) l 0) + m). split; [f_equal; lia|]. rewrite nsign_add.
    eapply cs_trans; [apply pass_swaps|exact H].
Qed.
Lemma canonicalize_swaps st p p' s : oprod_canonicalize st p = (p', s) -> com_swaps st p s p'.
Proof.
  unfold oprod_canonicalize. destruct (sort_swaps st (length p - 1) p 0) as (q & m & -> & H).
  intros [= <- <-]. rewrite nsign_rem. exact H.
Qed.

(** ** The result has no neighbours out of order; idempotence *)
(** The pass restricted to the first [k+1] elements. *)
Lemma pass_length st k l n : length (fst (bubble_pass st k l n)) = length l.
Proof. rewrite pass_acc. simpl. symmetry. apply Permutation_length. eapply cs_perm. apply pass_swaps. Qed.

Lemma pass_app st k l l2 : length l = S k -> fst (bubble_pass st k (l ++ l2) 0) = fst (bubble_pass st k l 0) ++ l2.
Proof.
  revert l. induction k as [|k IH]; intros l H.
  - reflexivity.
  - destruct l as [|a [|b l]]; simpl in H; try lia. cbn [bubble_pass app].
    destruct (op_ncless st b a).
    + rewrite (pass_acc st k (a :: l ++ l2)), (pass_acc st k (a :: l)). cbn [fst]. change (a :: l ++ l2) with ((a :: l) ++ l2).
      rewrite IH by (simpl; lia). reflexivity.
    + rewrite (pass_acc st k (b :: l ++ l2)), (pass_acc st k (b :: l)). cbn [fst]. change (b :: l ++ l2) with ((b :: l) ++ l2).
      rewrite IH by (simpl; lia). reflexivity.
Qed.

(** After a pass no element could move past everything that follows it. *)
Lemma pass_blocked st k l : length l = S k -> forall u c v, fst (bubble_pass st k l 0) = u ++ c :: v -> v <> [] ->
  exists b, In b v /\ op_ncless st b c = false.
Proof.
  revert l. induction k as [|k IH]; intros l H u c v E Hv.
  - destruct l as [|a [|]]; simpl in H; try lia. simpl in E. destruct u as [|? [|]]; try discriminate. injection E as -> <-. congruence.
  - destruct l as [|a [|b l]]; simpl in H; try lia. cbn [bubble_pass] in E.
    destruct (op_ncless st b a) eqn:Eba; rewrite pass_acc in E; cbn [fst] in E.
    + assert (P : Permutation (a :: l) (fst (bubble_pass st k (a :: l) 0))) by (eapply cs_perm; apply pass_swaps).
      destruct u as [|z u].
      * injection E as <- E. exists a. split; [rewrite <- E; eapply Permutation_in; [exact P|left; reflexivity]|].
        apply ncless_asym. exact Eba.
      * injection E as <- E. eapply (IH (a :: l)); [simpl; lia|exact E|exact Hv].
    + assert (P : Permutation (b :: l) (fst (bubble_pass st k (b :: l) 0))) by (eapply cs_perm; apply pass_swaps).
      destruct u as [|z u].
      * injection E as <- E. exists b. split; [rewrite <- E; eapply Permutation_in; [exact P|left; reflexivity]|exact Eba].
      * injection E as <- E. eapply (IH (b :: l)); [simpl; lia|exact E|exact Hv].
Qed.
(** The last element of a pass moved past everything that followed it. *)
Lemma pass_last st k l : length l = S k -> exists w y u v, fst (bubble_pass st k l 0) = w ++ [y] /\ l = u ++ y :: v /\
  (forall b, In b v -> op_ncless st b y = true).
Proof.
  revert l. induction k as [|k IH]; intros l H.
  - destruct l as [|a [|]]; simpl in H; try lia. exists [], a, [], []. simpl. split; [reflexivity|split; [reflexivity|intros b []]].
  - destruct l as [|a [|b l]]; simpl in H; try lia. cbn [bubble_pass].
    destruct (op_ncless st b a) eqn:Eba; rewrite pass_acc; cbn [fst].
    + destruct (IH (a :: l)) as (w & y & u & v & E1 & E2 & E3); [simpl; lia|]. rewrite E1.
      exists (b :: w), y. destruct u as [|z u].
      * injection E2 as -> ->. exists [], (b :: v). repeat split. intros x [<-|Hx]; auto.
      * injection E2 as -> ->. exists (z :: b :: u), v. repeat split. exact E3.
    + destruct (IH (b :: l)) as (w & y & u & v & E1 & E2 & E3); [simpl; lia|]. rewrite E1, E2.
      exists (a :: w), y, (a :: u), v. repeat split. exact E3.
Qed.

(** Invariant of the outer loop. *)
Lemma sort_settled st k W S0 : length W = S k ->
  settledp st S0 -> (forall x S1, S0 = x :: S1 -> forall u c v, W = u ++ c :: v -> exists b, In b (v ++ [x]) /\ op_ncless st b c = false) ->
  settledp st (fst (bubble_sort st k (W ++ S0) 0)).
Proof.
  revert W S0. induction k as [|k IH]; intros W S0 LW HS HB.
  - destruct W as [|c [|]]; simpl in LW; try lia. simpl. intros l1 a b l2 E. destruct l1 as [|z l1].
    + injection E as -> ->. destruct (HB b l2 eq_refl [] a []) as (x & [<-|[]] & Hx); [reflexivity|exact Hx].
    + injection E as -> E. eapply HS. exact E.
  - cbn [bubble_sort]. rewrite pass_acc. rewrite pass_app by exact LW.
    destruct (sort_swaps st k (fst (bubble_pass st (S k) W 0) ++ S0) (0 + snd (bubble_pass st (S k) (W ++ S0) 0))) as (q & m & Eq & _).
    destruct (sort_swaps st k (fst (bubble_pass st (S k) W 0) ++ S0) 0) as (q' & m' & Eq' & _).
    destruct (pass_last st (S k) W LW) as (w & y & u & v & E1 & E2 & E3).
    assert (Lw : length w = S k).
    { pose proof (pass_length st (S k) W 0) as L. rewrite E1, app_length in L. simpl in L. lia. }
    assert (Acc : forall k l n, fst (bubble_sort st k l n) = fst (bubble_sort st k l 0)).
    { clear. induction k as [|k IH]; intros l n; [reflexivity|]. cbn [bubble_sort]. rewrite (pass_acc st (S k) l n), (pass_acc st (S k) l 0).
      rewrite IH. symmetry. rewrite IH. reflexivity. }
    rewrite Acc. rewrite E1, <- app_assoc. simpl. apply (IH w (y :: S0)); [exact Lw| |].
    + intros l1 a b l2 E. destruct l1 as [|z l1].
      * injection E as <- E. destruct S0 as [|x S1]; [discriminate|]. injection E as -> ->.
        destruct (HB b l2 eq_refl u y v E2) as (x & Hx & Hn). apply in_app_iff in Hx as [Hx|[<-|[]]]; [|exact Hn].
        rewrite (E3 x Hx) in Hn. discriminate.
      * injection E as -> E. eapply HS. exact E.
    + intros x S1 [= <- <-] u' c v' Ew. eapply (pass_blocked st (S k) W LW u').
      * rewrite E1, Ew, <- app_assoc. reflexivity.
      * destruct v'; discriminate.
Qed.
Lemma canonicalize_settled st p p' s : oprod_canonicalize st p = (p', s) -> settledp st p'.
Proof.
  unfold oprod_canonicalize. destruct (bubble_sort st (length p - 1) p 0) as [q m] eqn:E. intros [= <- _].
  destruct p as [|a p]; [simpl in E; injection E as <- _; intros [|] ? ? ? ?; discriminate|].
  replace (length (a :: p) - 1)%nat with (length p) in E by (simpl; lia).
  assert (S : settledp st (fst (bubble_sort st (length p) ((a :: p) ++ []) 0))).
  { apply sort_settled; [reflexivity|intros [|] ? ? ? ?; discriminate|intros x S1 H; discriminate]. }
  rewrite app_nil_r, E in S. exact S.
Qed.

Lemma pass_settled st k l n : settledp st l -> bubble_pass st k l n = (l, n).
Proof.
  revert l n. induction k as [|k IH]; intros l n H; [reflexivity|]. destruct l as [|a [|b l]]; try reflexivity.
  cbn [bubble_pass]. rewrite (H [] a b l eq_refl). rewrite IH; [reflexivity|].
  intros l1 x y l2 E. apply (H (a :: l1) x y l2). rewrite E. reflexivity.
Qed.
Lemma canonicalize_fixed st p : settledp st p -> oprod_canonicalize st p = (p, 1).
Proof.
  intros H. unfold oprod_canonicalize. assert (E : forall k n, bubble_sort st k p n = (p, n)).
  { induction k as [|k IH]; intros n; [reflexivity|]. cbn [bubble_sort]. rewrite pass_settled by exact H. apply IH. }
  rewrite E. reflexivity.
Qed.
Lemma canonicalize_idem st p p' s : oprod_canonicalize st p = (p', s) -> oprod_canonicalize st p' = (p', 1).
Proof. intros H. apply canonicalize_fixed. eapply canonicalize_settled; eauto. Qed.
