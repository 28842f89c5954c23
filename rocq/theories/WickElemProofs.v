(** Proofs about the elementary contractions. *)
From Coq Require Import ZArith List Bool Arith Lia Permutation Sorted.
From Verif Require Import Res PartitionsModel PartitionsSpec PartitionsProofs RegistryModel CoreModel AlgebraModel AlgebraSpec
  OperatorModel OperatorSpec OperatorProofs OrderProofs SortModel SortSpec SortProofs NextPermModel NextPermProofs WickSearchModel WickSearchSpec CanonIdem.
Import ListNotations.
Local Open Scope Z_scope.

(** ** Loops collecting lists *)
Lemma nodup_app {A} (l1 l2 : list A) : NoDup l1 -> NoDup l2 -> (forall x, In x l1 -> In x l2 -> False) -> NoDup (l1 ++ l2).
Proof. induction l1 as [|a l1 IH]; simpl; auto. intros N1 N2 D. inversion N1; subst. constructor.
  - intros H. apply in_app_or in H. destruct H; [auto|]. eapply D; eauto.
  - apply IH; auto. intros x Hx Hx'. eapply D; eauto. Qed.

Lemma collect {A B} (Q : A -> B -> Prop) (g : nat -> A -> res (list B)) l : NoDup l ->
  (forall a b x, In a l -> In b l -> Q a x -> Q b x -> a = b) ->
  (forall a, In a l -> exists h f0, (forall fuel, (f0 <= fuel)%nat -> g fuel a = Ok h) /\ NoDup h /\ forall x, In x h <-> Q a x) ->
  exists R f0, (forall fuel, (f0 <= fuel)%nat -> forall v, foldM (fun v a => bind (g fuel a) (fun r => Ok (v ++ r))) v l = Ok (v ++ R)) /\
    NoDup R /\ forall x, In x R <-> exists a, In a l /\ Q a x.
Proof.
  intros N D H. induction l as [|a l IH].
  - exists [], 0%nat. split; [intros; simpl; rewrite app_nil_r; auto|]. split; [constructor|]. simpl. intros x. split; [tauto|]. intros (a & [] & _).
  - inversion N as [|? ? Na Nl]; subst. destruct (H a) as (h & f1 & E1 & N1 & M1); [simpl; auto|].
    destruct IH as (R & f2 & E2 & N2 & M2); auto.
    { intros a' b x Ha Hb. apply D; simpl; auto. } { intros a' Ha. apply H; simpl; auto. }
    exists (h ++ R), (Nat.max f1 f2). split; [|split].
    + intros fuel Hf v. simpl. rewrite E1 by lia. simpl. rewrite E2 by lia. rewrite app_assoc. reflexivity.
    + apply nodup_app; auto. intros x Hx Hy. apply M1 in Hx. apply M2 in Hy. destruct Hy as (b & Hb & Q2).
      assert (a = b) by (eapply D; simpl; eauto). subst. auto.
    + intros x. rewrite in_app_iff, M1, M2. simpl. split.
      * intros [Hx|(b & Hb & Hx)]; eauto.
      * intros (b & [<-|Hb] & Hx); eauto.
Qed.

(** ** Legs distributions *)
Lemma zsum_app l l' : zsum (l ++ l') = zsum l + zsum l'.
Proof. unfold zsum. induction l; simpl; lia. Qed.
Lemma zsum_perm l l' : Permutation l l' -> zsum l = zsum l'.
Proof. unfold zsum. induction 1; simpl; lia. Qed.
Lemma zsum_zeros n : zsum (repeat 0 n) = 0.
Proof. induction n; simpl; auto. Qed.
Lemma filter_repeat0 n : filter (fun a => negb (a =? 0)) (repeat 0 n) = [].
Proof. induction n; simpl; auto. Qed.
Lemma filter_pos l : Forall (fun a => 1 <= a) l -> filter (fun a => negb (a =? 0)) l = l.
Proof. induction 1 as [|a l H F IH]; simpl; auto. destruct (Z.eqb_spec a 0); [lia|]. simpl. rewrite IH. reflexivity. Qed.
Lemma zero_split l : exists m, Permutation l (filter (fun a => negb (a =? 0)) l ++ repeat 0 m) /\ (length l = length (filter (fun a => negb (a =? 0)%Z) l) + m)%nat.
Proof.
  induction l as [|a l (m & P & L)]; [exists 0%nat; simpl; auto|]. simpl. destruct (Z.eqb_spec a 0) as [->|]; simpl.
  - exists (S m). split; [|lia]. simpl. rewrite P at 1. apply Permutation_middle.
  - exists m. split; [constructor; auto|lia].
Qed.
Lemma sort_Z_le l : StronglySorted Z.le (sort_by Z.ltb l).
Proof.
  assert (O := sort_by_ordered Z.ltb Z.eqb swo_Z l). unfold ordered in O. induction O as [|a m S IH F]; constructor; auto.
  eapply Forall_impl; [|exact F]. simpl. intros b. destruct (Z.ltb_spec b a); [discriminate|lia].
Qed.
Lemma ss_rev_le l : StronglySorted Z.le l -> StronglySorted Z.ge (rev l).
Proof. induction l as [|x l IH]; simpl; intros S; [constructor|]. apply StronglySorted_inv in S. destruct S as [S F].
  apply ss_app; auto; [repeat constructor|]. intros a b Ha [<-|[]]. rewrite Forall_forall in F. apply in_rev in Ha. specialize (F _ Ha). lia. Qed.
Lemma ge_perm_unique l l' : StronglySorted Z.ge l -> StronglySorted Z.ge l' -> Permutation l l' -> l = l'.
Proof.
  intros S S' P. destruct (sorted_max _ _ S P) as [H|H]; auto. destruct (sorted_max _ _ S' (Permutation_sym P)) as [H'|H']; auto.
  exfalso. eapply lex_irrefl, lex_trans; eauto.
Qed.

Definition legs_ok (n : nat) (k : Z) (count : nat -> Z) (p : list Z) : Prop :=
  length p = n /\ zsum p = k /\ forall A, (A < n)%nat -> 0 <= nth A p 0 <= count A.

Lemma fits_iff count p : fits_legs count p = true <-> forall A, (A < length p)%nat -> nth A p 0 <= count A.
Proof.
  unfold fits_legs. rewrite forallb_forall. split; intros H A HA.
  - specialize (H A). rewrite in_seq in H. specialize (H ltac:(lia)). destruct (Z.ltb_spec (count A) (nth A p 0)); [discriminate|lia].
  - apply in_seq in HA. destruct (Z.ltb_spec (count A) (nth A p 0)); [|reflexivity]. specialize (H A ltac:(lia)). lia.
Qed.

Lemma legs_vec_spec n k count : (1 <= n)%nat -> 1 <= k -> exists L f0,
  (forall fuel, (f0 <= fuel)%nat -> legs_vec fuel n k count = Ok L) /\ NoDup L /\ forall p, In p L <-> legs_ok n k count p.
Proof.
  intros Hn Hk. destruct (integer_partitions_exact k (Z.of_nat n)) as (parts & f0 & E & M & N); [lia|lia|].
  set (Q := fun part p => Permutation (part ++ repeat 0 (n - length part)) p /\ fits_legs count p = true).
  destruct (collect Q (fun _ part => bind (padded n part) (fun perm => Ok (filter (fits_legs count) (np_visited perm)))) parts N) as (R & f1 & ER & NR & MR).
  - intros a b x Ha Hb [Pa _] [Pb _]. apply M in Ha. apply M in Hb. destruct Ha as [(Fa & Sa & _) _], Hb as [(Fb & Sb & _) _].
    apply ge_perm_unique; auto. pose proof (Permutation_filter (fun a => negb (a =? 0)) _ _ Pa) as P1. pose proof (Permutation_filter (fun a => negb (a =? 0)) _ _ Pb) as P2.
    rewrite filter_app, filter_repeat0, app_nil_r, filter_pos in P1, P2 by auto. rewrite P1, P2. reflexivity.
  - intros part Hp. apply M in Hp. destruct Hp as [_ Lp]. exists (filter (fits_legs count) (np_visited (sort_by Z.ltb (part ++ repeat 0 (n - length part))))), 0%nat.
    split; [|split].
    + intros fuel _. unfold padded. destruct (Nat.leb_spec (length part) n); [reflexivity|lia].
    + apply NoDup_filter. apply np_visited_spec, sort_Z_le.
    + intros x. rewrite filter_In. destruct (np_visited_spec _ (sort_Z_le (part ++ repeat 0 (n - length part)))) as (_ & V & _). rewrite V. unfold Q.
      rewrite <- sort_by_perm. tauto.
  - exists R, (Nat.max f0 f1). split; [|split; auto].
    + intros fuel Hf. unfold legs_vec. rewrite E by lia. cbn [bind]. etransitivity; [|exact (ER f1 ltac:(lia) [])].
      apply foldM_ext. intros v part. destruct (padded n part); reflexivity.
    + intros p. rewrite MR. split.
      * intros (part & Hp & P & F). apply M in Hp. destruct Hp as [(Fp & Sp & Zp) Lp].
        assert (Lq : length p = n). { rewrite <- (Permutation_length P), app_length, repeat_length. lia. }
        split; [auto|]. split. { rewrite <- (zsum_perm _ _ P), zsum_app, zsum_zeros. lia. }
        intros A HA. split; [|apply (proj1 (fits_iff _ _) F); lia].
        assert (I : In (nth A p 0) (part ++ repeat 0 (n - length part))) by (apply (Permutation_in _ (Permutation_sym P)), nth_In; lia).
        apply in_app_or in I. destruct I as [I|I]; [rewrite Forall_forall in Fp; specialize (Fp _ I); lia|]. apply repeat_spec in I. lia.
      * intros (L & Z & H). set (q := filter (fun a => negb (a =? 0)) p). exists (rev (sort_by Z.ltb q)).
        destruct (zero_split p) as (m & P & Lm). fold q in P, Lm.
        assert (Pq : Permutation q (rev (sort_by Z.ltb q))) by (rewrite <- Permutation_rev; apply sort_by_perm).
        assert (Lq := Permutation_length Pq). split; [|split].
        -- apply M. split; [|lia]. split; [|split].
           ++ apply Forall_forall. intros a Ha. apply (Permutation_in _ (Permutation_sym Pq)) in Ha. unfold q in Ha. apply filter_In in Ha. destruct Ha as [Ha Hz].
              destruct (In_nth _ _ 0 Ha) as (i & Hi & <-). specialize (H i ltac:(lia)). destruct (Z.eqb_spec (nth i p 0) 0); [discriminate|lia].
           ++ apply ss_rev_le, sort_Z_le.
           ++ rewrite <- (zsum_perm _ _ Pq). rewrite <- Z, (zsum_perm _ _ P), zsum_app, zsum_zeros. lia.
        -- rewrite P at 1. replace (n - length (rev (sort_by Z.ltb q)))%nat with m by lia. apply Permutation_app_tail. symmetry. exact Pq.
        -- apply fits_iff. intros A HA. apply H. lia.
Qed.

(** ** Building contractions in one space *)
Definition mk_ec (n : nat) (s : Z) (f g : nat -> Z) : econ :=
  map (fun A => set_ann (set_cre gm_zero s (f A)) s (g A)) (seq 0 n).

Lemma set_cre_spec g i v : (i < length g)%nat -> set_cre g (Z.of_nat i) v = lset g i (v, snd (nthp g i)).
Proof. intros H. unfold set_cre. rewrite aget_nat, (nthp_ok g) by auto. rewrite aset_nat. destruct (Nat.ltb_spec i (length g)); [reflexivity|lia]. Qed.
Lemma set_ann_spec g i v : (i < length g)%nat -> set_ann g (Z.of_nat i) v = lset g i (fst (nthp g i), v).
Proof. intros H. unfold set_ann. rewrite aget_nat, (nthp_ok g) by auto. rewrite aset_nat. destruct (Nat.ltb_spec i (length g)); [reflexivity|lia]. Qed.
Lemma nthp_lset g i v j : (i < length g)%nat -> nthp (lset g i v) j = if (j =? i)%nat then v else nthp g j.
Proof. intros H. unfold nthp. assert (E := lset_nth g i v j H). destruct (Nat.eqb_spec j i).
  - apply nth_error_nth with (d := (0,0)) in E. exact E.
  - destruct (nth_error g j) as [p|] eqn:Eg; [apply nth_error_nth with (d := (0,0)) in E; apply nth_error_nth with (d := (0,0)) in Eg; congruence|].
    apply nth_error_None in E. apply nth_error_None in Eg. rewrite !nth_overflow by auto. reflexivity. Qed.
Lemma nthp_zero i : nthp gm_zero i = (0, 0).
Proof. destruct (Nat.lt_ge_cases i max_spaces); [apply nthp_of, gm_zero_nth; auto|]. unfold nthp. apply nth_overflow. exact H. Qed.

Lemma nthp_cre g s v j : length g = max_spaces -> (s < max_spaces)%nat -> length (set_cre g (Z.of_nat s) v) = max_spaces /\
  nthp (set_cre g (Z.of_nat s) v) j = if (j =? s)%nat then (v, snd (nthp g s)) else nthp g j.
Proof. intros L H. rewrite set_cre_spec by lia. rewrite lset_length, nthp_lset by lia. auto. Qed.
Lemma nthp_ann g s v j : length g = max_spaces -> (s < max_spaces)%nat -> length (set_ann g (Z.of_nat s) v) = max_spaces /\
  nthp (set_ann g (Z.of_nat s) v) j = if (j =? s)%nat then (fst (nthp g s), v) else nthp g j.
Proof. intros L H. rewrite set_ann_spec by lia. rewrite lset_length, nthp_lset by lia. auto. Qed.

Lemma gm1_spec s a b : (s < max_spaces)%nat -> let g := set_ann (set_cre gm_zero (Z.of_nat s) a) (Z.of_nat s) b in
  length g = max_spaces /\ forall j, nthp g j = if (j =? s)%nat then (a, b) else (0, 0).
Proof.
  intros H g. destruct (nthp_cre gm_zero s a 0 eq_refl H) as [L _]. destruct (nthp_ann _ s b 0 L H) as [L' _]. split; [exact L'|].
  intros j. unfold g. rewrite (proj2 (nthp_ann _ s b j L H)). rewrite !(proj2 (nthp_cre gm_zero s a _ eq_refl H)), Nat.eqb_refl, !nthp_zero. simpl.
  destruct (j =? s)%nat; auto.
Qed.
Lemma nth_seq_map {B} (f : nat -> B) n A d : (A < n)%nat -> nth A (map f (seq 0 n)) d = f A.
Proof. intros H. rewrite nth_indep with (d' := f 0%nat) by (rewrite map_length, seq_length; auto). rewrite map_nth, seq_nth; auto. Qed.
Lemma econ_ext (c c' : econ) n : length c = n -> length c' = n -> (forall A, (A < n)%nat -> nth A c gm_zero = nth A c' gm_zero) -> c = c'.
Proof. intros L L' H. apply (nth_ext _ _ gm_zero gm_zero); [congruence|]. intros A HA. apply H. lia. Qed.

Lemma mk_ec_counts n s f g A s' : (s < max_spaces)%nat -> (A < n)%nat ->
  ec_cre (mk_ec n (Z.of_nat s) f g) A (Z.of_nat s') = (if (s' =? s)%nat then f A else 0) /\
  ec_ann (mk_ec n (Z.of_nat s) f g) A (Z.of_nat s') = (if (s' =? s)%nat then g A else 0).
Proof.
  intros Hs HA. unfold ec_cre, ec_ann, mk_ec. rewrite nth_seq_map by auto. rewrite cre_of_nat, ann_of_nat.
  destruct (gm1_spec s (f A) (g A) Hs) as [_ E]. rewrite E. destruct (s' =? s)%nat; auto.
Qed.
Lemma mk_ec_shape st n s f g : (nsp st <= max_spaces)%nat -> (s < nsp st)%nat -> con_shape st n (mk_ec n (Z.of_nat s) f g).
Proof.
  intros Hn Hs. split; [unfold mk_ec; rewrite map_length, seq_length; auto|]. apply Forall_forall. intros x Hx. unfold mk_ec in Hx.
  apply in_map_iff in Hx. destruct Hx as (A & <- & _). destruct (gm1_spec s (f A) (g A) ltac:(lia)) as [L E]. split; [exact L|].
  intros i Hi. rewrite nthp_ok by lia. rewrite E. destruct (Nat.eqb_spec i s); [lia|reflexivity].
Qed.
Lemma is_space_nat st s : is_space st s -> exists i, s = Z.of_nat i /\ (i < nsp st)%nat.
Proof. intros H. unfold is_space, num_spaces in H. exists (Z.to_nat s). lia. Qed.
Lemma nat_is_space st i : (i < nsp st)%nat -> is_space st (Z.of_nat i).
Proof. unfold is_space, num_spaces. lia. Qed.
Lemma mk_ec_only st n s f g : (nsp st <= max_spaces)%nat -> (s < nsp st)%nat -> only_space st (mk_ec n (Z.of_nat s) f g) (Z.of_nat s).
Proof.
  intros Hn Hs A s' HA Hs' Ne. unfold mk_ec in HA. rewrite map_length, seq_length in HA. apply is_space_nat in Hs'. destruct Hs' as (i & -> & Hi).
  destruct (mk_ec_counts n s f g A i ltac:(lia) HA) as [-> ->]. destruct (Nat.eqb_spec i s); [subst; tauto|auto].
Qed.
Lemma mk_ec_unique st n s c : (nsp st <= max_spaces)%nat -> (s < nsp st)%nat -> con_shape st n c -> only_space st c (Z.of_nat s) ->
  c = mk_ec n (Z.of_nat s) (fun A => ec_cre c A (Z.of_nat s)) (fun A => ec_ann c A (Z.of_nat s)).
Proof.
  intros Hn Hs [L F] O. apply (econ_ext _ _ n); [auto|unfold mk_ec; rewrite map_length, seq_length; auto|]. intros A HA.
  unfold mk_ec. rewrite nth_seq_map by auto. destruct (gm1_spec s (ec_cre c A (Z.of_nat s)) (ec_ann c A (Z.of_nat s)) ltac:(lia)) as [L' E].
  rewrite Forall_forall in F. assert (V : gm_valid st (nth A c gm_zero)) by (apply F, nth_In; lia). destruct V as [Lg V].
  apply nthp_ext; [congruence|]. intros i. rewrite E. destruct (Nat.eqb_spec i s) as [->|Ne].
  - unfold ec_cre, ec_ann. rewrite cre_of_nat, ann_of_nat. destruct (nthp (nth A c gm_zero) s); reflexivity.
  - destruct (Nat.lt_ge_cases i (nsp st)).
    + destruct (O A (Z.of_nat i) ltac:(lia) (nat_is_space _ _ H) ltac:(lia)) as [E1 E2]. unfold ec_cre, ec_ann in E1, E2. rewrite cre_of_nat in E1. rewrite ann_of_nat in E2.
      destruct (nthp (nth A c gm_zero) i); simpl in *; congruence.
    + destruct (Nat.lt_ge_cases i max_spaces); [apply nthp_of, V; lia|]. unfold nthp. apply nth_overflow. lia.
Qed.
Lemma mk_ec_ext n s f g f' g' : (forall A, (A < n)%nat -> f A = f' A /\ g A = g' A) -> mk_ec n s f g = mk_ec n s f' g'.
Proof. intros H. unfold mk_ec. apply map_ext_in. intros A HA. apply in_seq in HA. destruct (H A ltac:(lia)) as [-> ->]. reflexivity. Qed.

(** ** Pairs *)
Lemma pairs_lt_in n l r : In (l, r) (pairs_lt n) <-> (l < r < n)%nat.
Proof.
  unfold pairs_lt. rewrite in_flat_map. split.
  - intros (l' & Hl & H). apply in_map_iff in H. destruct H as (r' & E & Hr). injection E as -> ->. apply in_seq in Hl. apply in_seq in Hr. lia.
  - intros H. exists l. split; [apply in_seq; lia|]. apply in_map_iff. exists r. split; auto. apply in_seq. lia.
Qed.
Lemma nodup_flat_map {A B} (f : A -> list B) l : NoDup l -> (forall a, In a l -> NoDup (f a)) ->
  (forall a b x, In a l -> In b l -> In x (f a) -> In x (f b) -> a = b) -> NoDup (flat_map f l).
Proof.
  induction l as [|a l IH]; simpl; intros N H D; [constructor|]. inversion N; subst. apply nodup_app; auto.
  - apply IH; auto. intros a' b x Ha Hb. apply D; auto.
  - intros x Hx Hy. apply in_flat_map in Hy. destruct Hy as (b & Hb & Hy). assert (a = b) by (eapply D; eauto). subst. auto.
Qed.
Lemma pairs_lt_nodup n : NoDup (pairs_lt n).
Proof.
  unfold pairs_lt. apply nodup_flat_map; [apply seq_NoDup| |].
  - intros a _. apply FinFun.Injective_map_NoDup; [intros x y E; injection E; auto|apply seq_NoDup].
  - intros a b x _ _ Hx Hy. apply in_map_iff in Hx. apply in_map_iff in Hy. destruct Hx as (? & <- & _), Hy as (? & E & _). injection E; auto.
Qed.

Definition delta (l : nat) : nat -> Z := fun A => if Nat.eq_dec A l then 1 else 0.

Lemma nth_lset {A} (x : list A) i v j d : (i < length x)%nat -> nth j (lset x i v) d = if (j =? i)%nat then v else nth j x d.
Proof.
  intros H. assert (E := lset_nth x i v j H). destruct (Nat.eqb_spec j i); [apply nth_error_nth; auto|].
  destruct (nth_error x j) as [p|] eqn:Eg; [rewrite (nth_error_nth _ _ _ E), (nth_error_nth _ _ _ Eg); auto|].
  apply nth_error_None in E. apply nth_error_None in Eg. rewrite !nth_overflow by auto. reflexivity.
Qed.
Lemma nth_repeat' {A} (x : A) n j : nth j (repeat x n) x = x.
Proof. revert j; induction n; destruct j; simpl; auto. Qed.
Lemma lset_same {A} (x : list A) i d : lset x i (nth i x d) = x.
Proof. revert i; induction x; destruct i; simpl; auto. rewrite IHx; auto. Qed.
Lemma set_cre_zero s : (s < max_spaces)%nat -> set_cre gm_zero (Z.of_nat s) 0 = gm_zero.
Proof. intros H. apply nthp_ext; [apply (nthp_cre gm_zero s 0 0 eq_refl H)|]. intros i. rewrite (proj2 (nthp_cre gm_zero s 0 i eq_refl H)), !nthp_zero. simpl. destruct (i =? s)%nat; auto. Qed.
Lemma set_ann_zero s : (s < max_spaces)%nat -> set_ann gm_zero (Z.of_nat s) 0 = gm_zero.
Proof. intros H. apply nthp_ext; [apply (nthp_ann gm_zero s 0 0 eq_refl H)|]. intros i. rewrite (proj2 (nthp_ann gm_zero s 0 i eq_refl H)), !nthp_zero. simpl. destruct (i =? s)%nat; auto. Qed.
Lemma set_ann_cre0 s v : (s < max_spaces)%nat -> set_ann (set_cre gm_zero (Z.of_nat s) v) (Z.of_nat s) 0 = set_cre gm_zero (Z.of_nat s) v.
Proof. intros H. destruct (nthp_cre gm_zero s v 0 eq_refl H) as [L _]. apply nthp_ext; [rewrite L; apply (nthp_ann _ s 0 0 L H)|].
  intros i. rewrite (proj2 (nthp_ann _ s 0 i L H)), !(proj2 (nthp_cre gm_zero s v _ eq_refl H)), Nat.eqb_refl, !nthp_zero. simpl. destruct (i =? s)%nat; auto. Qed.

Lemma occ_mk n s l r : (s < max_spaces)%nat -> (l < r < n)%nat ->
  (let c := repeat gm_zero n in
   let c := lset c l (set_cre (nth l c gm_zero) (Z.of_nat s) 1) in
   lset c r (set_ann (nth r c gm_zero) (Z.of_nat s) 1)) = mk_ec n (Z.of_nat s) (delta l) (delta r).
Proof.
  intros Hs H. cbv zeta. rewrite nth_lset by (rewrite repeat_length; lia). destruct (Nat.eqb_spec r l); [lia|]. rewrite !nth_repeat'.
  apply (econ_ext _ _ n); [rewrite !lset_length, repeat_length; auto|unfold mk_ec; rewrite map_length, seq_length; auto|].
  intros A HA. rewrite nth_lset by (rewrite lset_length, repeat_length; lia). rewrite nth_lset by (rewrite repeat_length; lia). rewrite nth_repeat'.
  unfold mk_ec. rewrite nth_seq_map by auto. unfold delta.
  destruct (Nat.eqb_spec A r), (Nat.eqb_spec A l), (Nat.eq_dec A l), (Nat.eq_dec A r); try lia.
  - rewrite set_cre_zero; auto.
  - rewrite set_ann_cre0; auto.
  - rewrite set_cre_zero, set_ann_zero; auto.
Qed.
Lemma unocc_mk n s l r : (s < max_spaces)%nat -> (l < r < n)%nat ->
  (let c := repeat gm_zero n in
   let c := lset c l (set_ann (nth l c gm_zero) (Z.of_nat s) 1) in
   lset c r (set_cre (nth r c gm_zero) (Z.of_nat s) 1)) = mk_ec n (Z.of_nat s) (delta r) (delta l).
Proof.
  intros Hs H. cbv zeta. rewrite nth_lset by (rewrite repeat_length; lia). destruct (Nat.eqb_spec r l); [lia|]. rewrite !nth_repeat'.
  apply (econ_ext _ _ n); [rewrite !lset_length, repeat_length; auto|unfold mk_ec; rewrite map_length, seq_length; auto|].
  intros A HA. rewrite nth_lset by (rewrite lset_length, repeat_length; lia). rewrite nth_lset by (rewrite repeat_length; lia). rewrite nth_repeat'.
  unfold mk_ec. rewrite nth_seq_map by auto. unfold delta.
  destruct (Nat.eqb_spec A r), (Nat.eqb_spec A l), (Nat.eq_dec A l), (Nat.eq_dec A r); try lia.
  - rewrite set_ann_cre0; auto.
  - rewrite set_cre_zero; auto.
  - rewrite set_cre_zero, set_ann_zero; auto.
Qed.

Lemma delta_inj n l l' : (l < n)%nat -> (forall A, (A < n)%nat -> delta l A = delta l' A) -> l = l'.
Proof. intros H E. specialize (E l H). unfold delta in E. destruct (Nat.eq_dec l l), (Nat.eq_dec l l'); congruence || lia. Qed.
Lemma mk_ec_inj n s f g f' g' : (s < max_spaces)%nat -> mk_ec n (Z.of_nat s) f g = mk_ec n (Z.of_nat s) f' g' ->
  forall A, (A < n)%nat -> f A = f' A /\ g A = g' A.
Proof.
  intros Hs E A HA. destruct (mk_ec_counts n s f g A s Hs HA) as [E1 E2]. destruct (mk_ec_counts n s f' g' A s Hs HA) as [E3 E4].
  rewrite Nat.eqb_refl in *. rewrite E in *. split; congruence.
Qed.

Section E.
  Variables (st : osi) (ops : oprod) (s : nat).
  Hypothesis OK : ops_ok st ops.
  Hypothesis Hs : (s < nsp st)%nat.
  Let n := length ops.
  Lemma ops_nonneg A : (A < n)%nat -> 0 <= ops_cre ops A (Z.of_nat s) /\ 0 <= ops_ann ops A (Z.of_nat s).
  Proof.
    intros HA. destruct OK as [_ F]. rewrite Forall_forall in F. destruct (F (nth A ops (mkOp [] gm_zero))) as [_ N]; [apply nth_In; auto|].
    apply N. apply (nat_is_space st s Hs).
  Qed.
  Lemma s8 : (s < max_spaces)%nat. Proof. destruct OK. lia. Qed.

  Lemma occ_spec : NoDup (elementary_occupied ops (Z.of_nat s)) /\ forall c, In c (elementary_occupied ops (Z.of_nat s)) <->
    exists l r, (l < r < n)%nat /\ 1 <= ops_cre ops l (Z.of_nat s) /\ 1 <= ops_ann ops r (Z.of_nat s) /\ c = mk_ec n (Z.of_nat s) (delta l) (delta r).
  Proof.
    assert (M : forall l r c, (l < r < n)%nat -> (In c (if 0 <? ops_cre ops l (Z.of_nat s) * ops_ann ops r (Z.of_nat s) then
      let c := repeat gm_zero (length ops) in
      let c := lset c l (set_cre (nth l c gm_zero) (Z.of_nat s) 1) in
      let c := lset c r (set_ann (nth r c gm_zero) (Z.of_nat s) 1) in [c] else []) <->
      1 <= ops_cre ops l (Z.of_nat s) /\ 1 <= ops_ann ops r (Z.of_nat s) /\ c = mk_ec n (Z.of_nat s) (delta l) (delta r))).
    { intros l r c H. destruct (ops_nonneg l ltac:(lia)), (ops_nonneg r ltac:(lia)). rewrite <- occ_mk by (auto using s8). cbv zeta.
      destruct (Z.ltb_spec 0 (ops_cre ops l (Z.of_nat s) * ops_ann ops r (Z.of_nat s))); simpl.
      - split; [intros [<-|[]]; repeat split; nia|]. intros (_ & _ & ->). auto.
      - split; [tauto|]. intros (? & ? & _). nia. }
    unfold elementary_occupied. split.
    - apply nodup_flat_map; [apply pairs_lt_nodup| |].
      + intros [l r] _. cbv zeta. destruct (0 <? _); repeat constructor; simpl; tauto.
      + intros [l r] [l' r'] c H1 H2 I1 I2. apply pairs_lt_in in H1. apply pairs_lt_in in H2. apply M in I1; [|auto]. apply M in I2; [|auto].
        destruct I1 as (_ & _ & ->), I2 as (_ & _ & E). pose proof (mk_ec_inj _ _ _ _ _ _ s8 E) as J.
        f_equal; apply (delta_inj n); try lia; intros A HA; apply J; auto.
    - intros c. rewrite in_flat_map. split.
      + intros ((l, r) & H & I). apply pairs_lt_in in H. apply M in I; [|auto]. exists l, r. tauto.
      + intros (l & r & H & I). exists (l, r). split; [apply pairs_lt_in; auto|]. apply M; auto.
  Qed.
  Lemma unocc_spec : NoDup (elementary_unoccupied ops (Z.of_nat s)) /\ forall c, In c (elementary_unoccupied ops (Z.of_nat s)) <->
    exists l r, (l < r < n)%nat /\ 1 <= ops_ann ops l (Z.of_nat s) /\ 1 <= ops_cre ops r (Z.of_nat s) /\ c = mk_ec n (Z.of_nat s) (delta r) (delta l).
  Proof.
    assert (M : forall l r c, (l < r < n)%nat -> (In c (if 0 <? ops_ann ops l (Z.of_nat s) * ops_cre ops r (Z.of_nat s) then
      let c := repeat gm_zero (length ops) in
      let c := lset c l (set_ann (nth l c gm_zero) (Z.of_nat s) 1) in
      let c := lset c r (set_cre (nth r c gm_zero) (Z.of_nat s) 1) in [c] else []) <->
      1 <= ops_ann ops l (Z.of_nat s) /\ 1 <= ops_cre ops r (Z.of_nat s) /\ c = mk_ec n (Z.of_nat s) (delta r) (delta l))).
    { intros l r c H. destruct (ops_nonneg l ltac:(lia)), (ops_nonneg r ltac:(lia)). rewrite <- unocc_mk by (auto using s8). cbv zeta.
      destruct (Z.ltb_spec 0 (ops_ann ops l (Z.of_nat s) * ops_cre ops r (Z.of_nat s))); simpl.
      - split; [intros [<-|[]]; repeat split; nia|]. intros (_ & _ & ->). auto.
      - split; [tauto|]. intros (? & ? & _). nia. }
    unfold elementary_unoccupied. split.
    - apply nodup_flat_map; [apply pairs_lt_nodup| |].
      + intros [l r] _. cbv zeta. destruct (0 <? _); repeat constructor; simpl; tauto.
      + intros [l r] [l' r'] c H1 H2 I1 I2. apply pairs_lt_in in H1. apply pairs_lt_in in H2. apply M in I1; [|auto]. apply M in I2; [|auto].
        destruct I1 as (_ & _ & ->), I2 as (_ & _ & E). pose proof (mk_ec_inj _ _ _ _ _ _ s8 E) as J.
        f_equal; apply (delta_inj n); try lia; intros A HA; apply J; auto.
    - intros c. rewrite in_flat_map. split.
      + intros ((l, r) & H & I). apply pairs_lt_in in H. apply M in I; [|auto]. exists l, r. tauto.
      + intros (l & r & H & I). exists (l, r). split; [apply pairs_lt_in; auto|]. apply M; auto.
  Qed.
End E.
