(** The combinatorial factor of a contraction. *)
From Coq Require Import ZArith List Bool Arith Lia Permutation QArith.
From Verif Require Import Res RegistryModel CoreModel OrderProofs CombinatoricsModel CombinatoricsProofs RationalModel RationalSpec RationalProofs OperatorModel OperatorSpec OperatorProofs
  PartitionsModel NextPermProofs WickSearchModel WickSearchSpec WickElemProofs WickElemProofs2 WickCompProofs WickSearchProofs WickEvalModel CountSpec CountProofs WickCombSpec.
Import ListNotations.
Local Open Scope Z_scope.

(** ** Kinds and legs *)
Lemma range_nat n : range (Z.of_nat n) = map Z.of_nat (seq 0 n).
Proof. unfold range. rewrite Nat2Z.id. reflexivity. Qed.
Lemma range_in n i : In i (range n) <-> 0 <= i < n.
Proof.
  unfold range. rewrite in_map_iff. split.
  - intros (k & <- & Hk). apply in_seq in Hk. lia.
  - intros H. exists (Z.to_nat i). split; [lia|]. apply in_seq. lia.
Qed.
Lemma range_nodup n : NoDup (range n).
Proof. unfold range. apply FinFun.Injective_map_NoDup; [intros a b; lia|apply seq_NoDup]. Qed.
Lemma kinds_in st n A s b : In (A, s, b) (kinds st n) <-> (A < n)%nat /\ is_space st s.
Proof.
  unfold kinds. rewrite in_flat_map. split.
  - intros (A' & HA & H). apply in_flat_map in H. destruct H as (s' & Hs & H). apply in_seq in HA. apply range_in in Hs.
    simpl in H. unfold is_space. destruct H as [H|[H|[]]]; injection H as <- <- <-; split; auto; lia.
  - intros (HA & Hs). exists A. split; [apply in_seq; lia|]. apply in_flat_map. exists s. split; [apply range_in; exact Hs|]. destruct b; simpl; auto.
Qed.
Lemma kinds_nodup st n : NoDup (kinds st n).
Proof.
  unfold kinds. apply nodup_flat_map; [apply seq_NoDup| |].
  - intros A _. apply nodup_flat_map; [apply range_nodup| |].
    + intros s _. constructor; [|repeat constructor; simpl; tauto]. simpl. intros [H|[]]. discriminate.
    + intros a b x _ _ Ha Hb. simpl in Ha, Hb. destruct Ha as [<-|[<-|[]]], Hb as [E|[E|[]]]; injection E; auto.
  - intros a b x _ _ Ha Hb. apply in_flat_map in Ha, Hb. destruct Ha as (s & _ & Ha), Hb as (s' & _ & Hb).
    simpl in Ha, Hb. destruct Ha as [<-|[<-|[]]], Hb as [E|[E|[]]]; injection E; auto.
Qed.
Lemma legs_nodup st ops : NoDup (all_legs st ops).
Proof.
  unfold all_legs. apply nodup_flat_map; [apply kinds_nodup| |].
  - intros k _. apply FinFun.Injective_map_NoDup; [intros a b E; injection E; auto|apply range_nodup].
  - intros a b x _ _ Ha Hb. apply in_map_iff in Ha, Hb. destruct Ha as (? & <- & _), Hb as (? & E & _). injection E; auto.
Qed.
Lemma legs_kinds st ops : Forall (fun x => In (fst x) (kinds st (length ops))) (all_legs st ops).
Proof.
  apply Forall_forall. intros x H. unfold all_legs in H. apply in_flat_map in H. destruct H as (k & Hk & H). apply in_map_iff in H. destruct H as (i & <- & _). exact Hk.
Qed.
Lemma count_occ_app_k {A} (dec : forall a b : A, {a = b} + {a <> b}) l l' k : count_occ dec (l ++ l') k = (count_occ dec l k + count_occ dec l' k)%nat.
Proof. apply count_occ_app. Qed.
Lemma legs_cnt st ops k : In k (kinds st (length ops)) -> cnt kind_dec fst k (all_legs st ops) = Z.to_nat (leg_count ops k).
Proof.
  unfold all_legs, cnt. generalize (kinds_nodup st (length ops)). induction (kinds st (length ops)) as [|k' l IH]; intros N I; [destruct I|].
  inversion N; subst. cbn [flat_map]. rewrite map_app, count_occ_app_k, map_map. simpl map.
  assert (E : forall (r : list Z), count_occ kind_dec (map (fun _ => k') r) k = if kind_dec k' k then length r else 0%nat).
  { induction r as [|a r IHr]; cbn [map count_occ length]; [destruct (kind_dec k' k); auto|]. rewrite IHr. destruct (kind_dec k' k); auto. }
  rewrite E. assert (Lr : forall z, length (range z) = Z.to_nat z) by (intros; unfold range; rewrite map_length, seq_length; auto). rewrite Lr.
  assert (Z0 : ~ In k l -> count_occ kind_dec (map fst (flat_map (fun k0 => map (fun i => (k0, i)) (range (leg_count ops k0))) l)) k = 0%nat).
  { intros Hn. apply count_occ_not_In. intros Hi. apply Hn. apply in_map_iff in Hi. destruct Hi as (x & <- & Hx). apply in_flat_map in Hx. destruct Hx as (k0 & Hk0 & Hx).
    apply in_map_iff in Hx. destruct Hx as (i & <- & _). exact Hk0. }
  destruct (kind_dec k' k) as [->|Ne].
  - rewrite Z0 by auto. lia.
  - destruct I as [I|I]; [congruence|]. rewrite IH by auto. lia.
Qed.

(** ** Contractions are determined by their counts *)
Lemma gm_valid_ext st g h : gm_valid st g -> gm_valid st h -> (nsp st <= max_spaces)%nat ->
  (forall s, is_space st s -> cre_of g s = cre_of h s /\ ann_of g s = ann_of h s) -> g = h.
Proof.
  intros (Lg & Zg) (Lh & Zh) Hn H. apply nthp_ext; [congruence|]. intros i. destruct (Nat.lt_ge_cases i (nsp st)) as [Hi|Hi].
  - specialize (H (Z.of_nat i) (nat_is_space _ _ Hi)). rewrite !cre_of_nat, !ann_of_nat in H. destruct (nthp g i), (nthp h i); simpl in H; destruct H; congruence.
  - destruct (Nat.lt_ge_cases i max_spaces).
    + rewrite (nthp_of _ _ _ (Zg i ltac:(lia))), (nthp_of _ _ _ (Zh i ltac:(lia))). reflexivity.
    + unfold nthp. rewrite !nth_overflow by lia. reflexivity.
Qed.
Lemma con_ext st n c c' : con_shape st n c -> con_shape st n c' -> (nsp st <= max_spaces)%nat ->
  (forall k, In k (kinds st n) -> ec_count c k = ec_count c' k) -> c = c'.
Proof.
  intros (L & V) (L' & V') Hn H. apply (econ_ext _ _ n); auto. intros A HA. rewrite Forall_forall in V, V'. apply (gm_valid_ext st); auto.
  - apply V, nth_In. lia.
  - apply V', nth_In. lia.
  - intros s Hs. split; [apply (H (A, s, true))|apply (H (A, s, false))]; apply kinds_in; auto.
Qed.

(** Shape used below: non-negative counts, at least one leg. *)
Definition con_ok (st : osi) (n : nat) (c : econ) : Prop :=
  con_shape st n c /\ (forall k, In k (kinds st n) -> 0 <= ec_count c k) /\ exists k, In k (kinds st n) /\ ec_count c k <> 0.
Lemma allowed_con_ok st maxc ops c : ops_ok st ops -> allowed st maxc ops c -> con_ok st (length ops) c.
Proof.
  intros OK H. destruct (allowed_legs st maxc ops c OK H) as (Sh & _ & NN). split; [exact Sh|]. split.
  - intros [[A s] b] Hk. apply kinds_in in Hk. destruct Hk as (HA & Hs). destruct (NN A s HA Hs). destruct b; simpl; auto.
  - inversion H as [s l r ? Hs ? ? Hl Hc|s l r ? Hs ? ? Hl Hc|s k ? Hs ? ? Hk Hc Ha ? Hl].
    + exists (l, s, true). split; [apply kinds_in; split; auto; lia|]. simpl. rewrite Hc by lia. destruct (Nat.eq_dec l l); [lia|tauto].
    + exists (l, s, false). split; [apply kinds_in; split; auto; lia|]. simpl. rewrite Hc by lia. destruct (Nat.eq_dec l l); [lia|tauto].
    + destruct Hl as (A & B & HA & L1 & L2). destruct (Z.eq_dec (ec_cre c A s) 0) as [E|E].
      * exists (A, s, false). split; [apply kinds_in; split; auto; lia|]. simpl. lia.
      * exists (A, s, true). split; [apply kinds_in; split; auto; lia|]. exact E.
Qed.

(** ** The generic count for these kinds *)
Definition cnum (c : econ) (k : leg_kind) : nat := Z.to_nat (ec_count c k).
Lemma carries_fits st n b c : con_ok st n c -> carries_out st n b c <-> fits kind_dec fst (kinds st n) cnum b c.
Proof.
  intros (_ & NN & _). unfold carries_out, fits, fitsK, cnt, cnum. split; intros H k Hk; specialize (H k Hk); specialize (NN k Hk); lia.
Qed.
Lemma realizes_iff st n legs cs bs : Forall (con_ok st n) cs ->
  realizes (carries_out st n) legs cs bs <-> realizes (fits kind_dec fst (kinds st n) cnum) legs cs bs.
Proof.
  intros F. unfold realizes. enough (E : Forall2 (carries_out st n) bs cs <-> Forall2 (fits kind_dec fst (kinds st n) cnum) bs cs) by tauto.
  split; intros H; induction H as [|b c bs cs Hb H IH]; constructor; inversion F; subst; auto; apply carries_fits; auto.
Qed.
Lemma Forall_perm {A} (P : A -> Prop) l l' : Permutation l l' -> Forall P l -> Forall P l'.
Proof. intros H F. rewrite Forall_forall in *. intros x Hx. apply F. eapply Permutation_in; [apply Permutation_sym; eauto|auto]. Qed.
Lemma leg_dec : forall a b : leg, {a = b} + {a <> b}.
Proof. decide equality; [apply Z.eq_dec|apply kind_dec]. Qed.
Lemma ways st ops cs : (nsp st <= max_spaces)%nat -> Forall (con_ok st (length ops)) cs ->
  exists R, counts_ways (carries_out st (length ops)) (all_legs st ops) cs R /\
    (length R * fact_mult econ_dec cs = weight (kinds st (length ops)) cnum cs (fun k => Z.to_nat (leg_count ops k)))%nat.
Proof.
  intros Hn F. destruct (ways_exist kind_dec leg_dec econ_dec fst (kinds st (length ops)) (kinds_nodup _ _) cnum cs (all_legs st ops)) as (R & C & E).
  - apply legs_nodup.
  - apply legs_kinds.
  - intros c c' Hc Hc' H. rewrite Forall_forall in F. destruct (F c Hc) as (S & N & _), (F c' Hc') as (S' & N' & _). apply (con_ext st (length ops)); auto.
    intros k Hk. specialize (H k Hk). unfold cnum in H. specialize (N k Hk). specialize (N' k Hk). lia.
  - intros c Hc. rewrite Forall_forall in F. destruct (F c Hc) as (_ & N & k & Hk & Nz). exists k. split; auto. unfold cnum. specialize (N k Hk). lia.
  - exists R. split.
    + destruct C as [C1 C2 C3]. constructor; auto.
      * intros bs Hb. apply realizes_iff; auto.
      * intros cs' bs P H. apply (C2 cs'); auto. apply realizes_iff in H; auto. eapply Forall_perm; eauto.
    + rewrite E. apply weight_ext. intros k Hk. apply legs_cnt. auto.
Qed.

(** ** The code's product of binomials is the weight *)
Lemma rat_mul_Z a b : rat_mul (rat_of_Z a) (rat_of_Z b) = rat_of_Z (a * b).
Proof.
  apply canonical_val_inj; try apply rat_mul_canonical; try apply rat_of_Z_canonical.
  rewrite rat_mul_val by (simpl; lia). rewrite !rat_of_Z_val. rewrite inject_Z_mult. reflexivity.
Qed.
Definition nat_counts (free : list gmat) (k : leg_kind) : nat := Z.to_nat (let '(A, s, b) := k in if b then cre_of (nth A free gm_zero) s else ann_of (nth A free gm_zero) s).
Definition free_ok (st : osi) (n : nat) (free : list gmat) : Prop :=
  length free = n /\ Forall (gm_valid st) free /\ forall A s, (A < n)%nat -> is_space st s -> 0 <= cre_of (nth A free gm_zero) s /\ 0 <= ann_of (nth A free gm_zero) s.

Definition prodl {A} (f : A -> nat) (l : list A) : nat := fold_right (fun a n => f a * n)%nat 1%nat l.
Lemma prodl_cons {A} (f : A -> nat) a l : prodl f (a :: l) = (f a * prodl f l)%nat.
Proof. reflexivity. Qed.
Lemma prodl_app {A} (f : A -> nat) l l' : prodl f (l ++ l') = (prodl f l * prodl f l')%nat.
Proof. unfold prodl. induction l; simpl; lia. Qed.
Lemma prodl_flat_map {A B} (f : B -> nat) (g : A -> list B) l : prodl f (flat_map g l) = prodl (fun a => prodl f (g a)) l.
Proof. induction l as [|a l IH]; [reflexivity|]. cbn [flat_map]. rewrite prodl_app, IH. reflexivity. Qed.
Lemma prodl_ext {A} (f g : A -> nat) l : (forall a, In a l -> f a = g a) -> prodl f l = prodl g l.
Proof. intros H. unfold prodl. induction l as [|a l IH]; simpl; auto. rewrite H by (left; auto). rewrite IH; auto. intros; apply H; right; auto. Qed.

Lemma binom_nat a b : 0 <= a -> 0 <= b -> binomial a b = Z.of_nat (choose (Z.to_nat a) (Z.to_nat b)).
Proof. intros Ha Hb. rewrite <- binomial_choose, !Z2Nat.id by auto. reflexivity. Qed.

Lemma comb_op_spec st free g z : (forall s, is_space st s -> 0 <= cre_of free s /\ 0 <= ann_of free s /\ 0 <= cre_of g s /\ 0 <= ann_of g s) ->
  comb_op st free g (rat_of_Z z) = rat_of_Z (z * Z.of_nat (prodl (fun s => choose (Z.to_nat (cre_of free s)) (Z.to_nat (cre_of g s)) * choose (Z.to_nat (ann_of free s)) (Z.to_nat (ann_of g s)))%nat (range (num_spaces st)))).
Proof.
  unfold comb_op. assert (I : forall s, In s (range (num_spaces st)) -> is_space st s) by (intros s; rewrite range_in; auto).
  revert z I. induction (range (num_spaces st)) as [|s l IH]; intros z I H; cbn [fold_left].
  - unfold prodl. simpl. f_equal. lia.
  - rewrite !rat_mul_Z, IH; [|intros; apply I; right; auto|auto]. f_equal. destruct (H s (I s (or_introl eq_refl))) as (a & b & c & d).
    rewrite !binom_nat by auto. unfold prodl. cbn [fold_right]. rewrite !Nat2Z.inj_mul. ring.
Qed.

Lemma fold_state {X} (G : nat -> gmat -> X -> X) (H : nat -> gmat -> gmat) m : forall k f free, (k + m <= length free)%nat ->
  exists free', fold_left (fun (x : X * list gmat) v => let '(f, free) := x in (G v (nth v free gm_zero) f, lset free v (H v (nth v free gm_zero)))) (seq k m) (f, free)
    = (fold_left (fun f v => G v (nth v free gm_zero) f) (seq k m) f, free') /\ length free' = length free /\
    forall A, nth A free' gm_zero = if (k <=? A)%nat && (A <? k + m)%nat then H A (nth A free gm_zero) else nth A free gm_zero.
Proof.
  induction m as [|m IH]; intros k f free L.
  - exists free. repeat split; auto. intros A. destruct (Nat.leb_spec k A), (Nat.ltb_spec A (k + 0)); simpl; auto; lia.
  - cbn [seq fold_left]. set (free1 := lset free k (H k (nth k free gm_zero))).
    assert (L1 : length free1 = length free) by apply lset_length.
    assert (N1 : forall A, nth A free1 gm_zero = if (A =? k)%nat then H k (nth k free gm_zero) else nth A free gm_zero).
    { intros A. unfold free1. pose proof (lset_nth free k (H k (nth k free gm_zero)) A ltac:(lia)) as E. destruct (Nat.eqb_spec A k).
      - apply nth_error_nth with (d := gm_zero) in E. exact E.
      - destruct (nth_error free A) eqn:E'; [rewrite (nth_error_nth _ _ _ E), (nth_error_nth _ _ _ E'); auto|].
        apply nth_error_None in E, E'. rewrite !nth_overflow by auto. reflexivity. }
    destruct (IH (S k) (G k (nth k free gm_zero) f) free1 ltac:(lia)) as (free' & E & L' & N'). exists free'. split; [|split; [lia|]].
    + rewrite E. f_equal. assert (EQ : forall l x, (forall v, In v l -> v <> k) -> fold_left (fun f v => G v (nth v free1 gm_zero) f) l x = fold_left (fun f v => G v (nth v free gm_zero) f) l x).
      { induction l as [|v l IHl]; intros x Hl; simpl; auto. rewrite N1. destruct (Nat.eqb_spec v k) as [E0|E0]; [exfalso; apply (Hl v); simpl; auto|]. apply IHl. intros; apply Hl; right; auto. }
      apply EQ. intros v Hv. apply in_seq in Hv. lia.
    + intros A. rewrite N', N1. destruct (Nat.leb_spec (S k) A), (Nat.leb_spec k A), (Nat.ltb_spec A (S k + m)), (Nat.ltb_spec A (k + S m)), (Nat.eqb_spec A k); simpl; subst; auto; lia.
Qed.

Lemma comb_contr_spec st n c free z : (nsp st <= max_spaces)%nat -> con_ok st n c -> free_ok st n free ->
  (forall k, In k (kinds st n) -> (cnum c k <= nat_counts free k)%nat) ->
  exists free', comb_contr st (rat_of_Z z, free) c = (rat_of_Z (z * Z.of_nat (prodl (fun k => choose (nat_counts free k) (cnum c k)) (kinds st n))), free') /\
    free_ok st n free' /\ forall k, In k (kinds st n) -> nat_counts free' k = (nat_counts free k - cnum c k)%nat.
Proof.
  intros Hn (Sh & NN & _) (Lf & Vf & Nf) Le. destruct Sh as (Lc & Vc). unfold comb_contr.
  destruct (fold_state (fun v g f => comb_op st g (nth v c gm_zero) f) (fun v g => gsub st g (nth v c gm_zero)) (length c) 0 (rat_of_Z z) free ltac:(lia)) as (free' & E & L' & N').
  exists free'. rewrite E. clear E. assert (Vnth : forall A, (A < n)%nat -> gm_valid st (nth A free gm_zero) /\ gm_valid st (nth A c gm_zero)).
  { intros A HA. rewrite Forall_forall in Vf, Vc. split; [apply Vf|apply Vc]; apply nth_In; lia. }
  assert (Cnt : forall A s, (A < n)%nat -> is_space st s -> 0 <= cre_of (nth A c gm_zero) s <= cre_of (nth A free gm_zero) s /\ 0 <= ann_of (nth A c gm_zero) s <= ann_of (nth A free gm_zero) s).
  { intros A s HA Hs. destruct (Nf A s HA Hs) as (f1 & f2). assert (K1 := proj2 (kinds_in st n A s true) (conj HA Hs)). assert (K2 := proj2 (kinds_in st n A s false) (conj HA Hs)).
    pose proof (NN _ K1) as n1. pose proof (NN _ K2) as n2. pose proof (Le _ K1) as l1. pose proof (Le _ K2) as l2. unfold cnum, nat_counts in l1, l2. simpl in n1, n2, l1, l2. unfold ec_cre, ec_ann in *. lia. }
  assert (NF : forall A s, (A < n)%nat -> is_space st s -> cre_of (nth A free' gm_zero) s = cre_of (nth A free gm_zero) s - cre_of (nth A c gm_zero) s /\
    ann_of (nth A free' gm_zero) s = ann_of (nth A free gm_zero) s - ann_of (nth A c gm_zero) s).
  { intros A s HA Hs. rewrite N'. destruct (Nat.leb_spec 0 A), (Nat.ltb_spec A (0 + length c)); simpl; try lia. destruct (Vnth A HA) as (V1 & V2).
    destruct (gsub_spec st _ _ V1 V2 Hn) as (_ & G). apply is_space_nat in Hs. destruct Hs as (i & -> & Hi). rewrite !cre_of_nat, !ann_of_nat, G. simpl. auto. }
  split; [|split].
  - f_equal. assert (EQ : forall l z, (forall v, In v l -> (v < n)%nat) -> fold_left (fun f v => comb_op st (nth v free gm_zero) (nth v c gm_zero) f) l (rat_of_Z z) =
      rat_of_Z (z * Z.of_nat (prodl (fun A => prodl (fun s => choose (Z.to_nat (cre_of (nth A free gm_zero) s)) (Z.to_nat (cre_of (nth A c gm_zero) s)) * choose (Z.to_nat (ann_of (nth A free gm_zero) s)) (Z.to_nat (ann_of (nth A c gm_zero) s)))%nat (range (num_spaces st))) l))).
    { induction l as [|v l IHl]; intros z0 Hl; cbn [fold_left]; [unfold prodl; simpl; f_equal; lia|]. rewrite comb_op_spec.
      - rewrite IHl by (intros; apply Hl; right; auto). f_equal. rewrite prodl_cons. rewrite Nat2Z.inj_mul. ring.
      - intros s Hs. destruct (Cnt v s (Hl v (or_introl eq_refl)) Hs). lia. }
    rewrite EQ by (intros v Hv; apply in_seq in Hv; lia). f_equal. f_equal. f_equal. unfold kinds. rewrite prodl_flat_map, Lc. apply prodl_ext. intros A _.
    rewrite prodl_flat_map. apply prodl_ext. intros s _. unfold prodl. cbn [fold_right]. unfold nat_counts, cnum, ec_count, ec_cre, ec_ann. lia.
  - split; [congruence|]. split.
    + apply Forall_forall. intros g Hg. apply In_nth with (d := gm_zero) in Hg. destruct Hg as (A & HA & <-). rewrite L', Lf in HA. rewrite N'.
      destruct (Nat.leb_spec 0 A), (Nat.ltb_spec A (0 + length c)); simpl; try lia. destruct (Vnth A HA) as (V1 & V2). apply (gsub_spec st _ _ V1 V2 Hn).
    + intros A s HA Hs. destruct (NF A s HA Hs) as (-> & ->). destruct (Cnt A s HA Hs). lia.
  - intros [[A s] b] Hk. apply kinds_in in Hk. destruct Hk as (HA & Hs). destruct (NF A s HA Hs) as (E1 & E2). destruct (Cnt A s HA Hs). unfold nat_counts, cnum, ec_count, ec_cre, ec_ann. destruct b; [rewrite E1|rewrite E2]; lia.
Qed.

Lemma total_of_nonneg {A} (f : A -> Z) l : (forall a, In a l -> 0 <= f a) -> 0 <= total_of f l.
Proof. unfold total_of. induction l as [|a l IH]; simpl; intros H; [lia|]. specialize (IH ltac:(intros; apply H; auto)). specialize (H a (or_introl eq_refl)). lia. Qed.
Lemma comb_phase1 st n cs : forall free z, (nsp st <= max_spaces)%nat -> Forall (con_ok st n) cs -> free_ok st n free ->
  (forall k, In k (kinds st n) -> total_of (fun c => ec_count c k) cs <= Z.of_nat (nat_counts free k)) ->
  exists free', fold_left (comb_contr st) cs (rat_of_Z z, free) = (rat_of_Z (z * Z.of_nat (weight (kinds st n) cnum cs (nat_counts free))), free').
Proof.
  induction cs as [|c cs IH]; intros free z Hn F Fo H.
  - exists free. simpl. f_equal. f_equal. lia.
  - inversion F as [|? ? C Fc]; subst. assert (Hc : forall k, In k (kinds st n) -> 0 <= ec_count c k) by apply C.
    assert (Ht : forall k, In k (kinds st n) -> 0 <= total_of (fun c => ec_count c k) cs).
    { intros k Hk. apply total_of_nonneg. intros a Ha. rewrite Forall_forall in Fc. destruct (Fc a Ha) as (_ & N & _). auto. }
    destruct (comb_contr_spec st n c free z Hn C Fo) as (free1 & E & Fo1 & N1).
    { intros k Hk. specialize (H k Hk). specialize (Hc k Hk). specialize (Ht k Hk). unfold cnum. unfold total_of in H. cbn [fold_right] in H. fold (total_of (fun c => ec_count c k) cs) in H. lia. }
    cbn [fold_left]. rewrite E. destruct (IH free1 (z * Z.of_nat (prodl (fun k => choose (nat_counts free k) (cnum c k)) (kinds st n))) Hn Fc Fo1) as (free' & E').
    { intros k Hk. rewrite N1 by auto. specialize (H k Hk). specialize (Hc k Hk). specialize (Ht k Hk). unfold cnum. unfold total_of in H. cbn [fold_right] in H. fold (total_of (fun c => ec_count c k) cs) in H. lia. }
    exists free'. rewrite E'. f_equal. f_equal. cbn [weight]. change (prodk (kinds st n) (fun k => choose (nat_counts free k) (cnum c k))) with (prodl (fun k => choose (nat_counts free k) (cnum c k)) (kinds st n)).
    rewrite (weight_ext (kinds st n) cnum cs _ _ N1). rewrite Nat2Z.inj_mul. ring.
Qed.

(** ** The multiplicities *)
Lemma swo_econ : swo econ_ltb (list_eqb gmat_eqb).
Proof. apply swo_list, swo_gmat. Qed.
Lemma list_eqb_eq {A} (e : A -> A -> bool) : (forall a b, e a b = true -> a = b) -> forall l l', list_eqb e l l' = true -> l = l'.
Proof. intros H. induction l as [|a l IH]; intros [|b l']; simpl; intros E; try discriminate; auto. apply andb_true_iff in E. destruct E as (E1 & E2). f_equal; auto. Qed.
Lemma econ_tri a b : econ_ltb a b = false -> econ_ltb b a = false -> a = b.
Proof.
  intros H1 H2. apply (list_eqb_eq gmat_eqb).
  - intros x y. apply list_eqb_eq. intros [p q] [p' q'] H. unfold pair_eqb in H. simpl in H. apply andb_true_iff in H. rewrite !Z.eqb_eq in H. destruct H; congruence.
  - apply (swo_eq _ _ swo_econ). auto.
Qed.
Definition cc_get (m : list (econ * Z)) (c : econ) : Z := match find (fun x => if econ_dec (fst x) c then true else false) m with Some x => snd x | None => 0 end.
Lemma cc_incr_keys c m : forall c', In c' (map fst (cc_incr c m)) <-> c' = c \/ In c' (map fst m).
Proof.
  induction m as [|[d n] m IH]; intros c'; cbn [cc_incr map fst In]; [intuition|]. destruct (econ_ltb c d) eqn:E1; [cbn [map fst In]; intuition|].
  destruct (econ_ltb d c) eqn:E2; cbn [map fst In]; [rewrite IH; intuition|]. rewrite (econ_tri _ _ E1 E2). intuition.
Qed.
Definition cc_sorted (m : list (econ * Z)) : Prop := Sorted.StronglySorted (fun a b => econ_ltb a b = true) (map fst m).
Lemma cc_incr_sorted c m : cc_sorted m -> cc_sorted (cc_incr c m).
Proof.
  unfold cc_sorted. induction m as [|[d n] m IH]; intros S; cbn [cc_incr]; [repeat constructor|]. simpl in S. inversion S as [|? ? S1 F1]; subst.
  destruct (econ_ltb c d) eqn:E1; [|destruct (econ_ltb d c) eqn:E2].
  - simpl. constructor; auto. constructor; auto. revert F1. apply Forall_impl. intros x Hx. eapply (swo_trans _ _ swo_econ); eauto.
  - simpl. constructor; auto. apply Forall_forall. intros x Hx. apply cc_incr_keys in Hx. rewrite Forall_forall in F1. destruct Hx as [->|Hx]; auto.
  - simpl. constructor; auto.
Qed.
Lemma cc_sorted_nodup m : cc_sorted m -> NoDup (map fst m).
Proof. intros S. eapply ss_nodup; [|exact S]. intros x Hx. cbv beta in Hx. rewrite (swo_irrefl _ _ swo_econ) in Hx. discriminate. Qed.
Lemma cc_get_cons m c x : cc_get (x :: m) c = if econ_dec (fst x) c then snd x else cc_get m c.
Proof. unfold cc_get. cbn [find]. destruct (econ_dec (fst x) c); auto. Qed.
Lemma cc_get_notin m c : ~ In c (map fst m) -> cc_get m c = 0.
Proof. induction m as [|x m IH]; intros H; auto. rewrite cc_get_cons. simpl in H. destruct (econ_dec (fst x) c); [tauto|]. apply IH. tauto. Qed.
Lemma cc_incr_get c m : cc_sorted m -> forall c', cc_get (cc_incr c m) c' = cc_get m c' + (if econ_dec c c' then 1 else 0).
Proof.
  induction m as [|[d n] m IH]; intros S c'; cbn [cc_incr]; [rewrite cc_get_cons; unfold cc_get; simpl; destruct (econ_dec c c'); auto|].
  pose proof (cc_sorted_nodup _ S) as N. unfold cc_sorted in S. simpl in S, N. inversion S as [|? ? S1 F1]; subst. inversion N; subst.
  destruct (econ_ltb c d) eqn:E1; [|destruct (econ_ltb d c) eqn:E2]; rewrite !cc_get_cons; cbn [fst snd].
  - destruct (econ_dec c c') as [<-|]; [|lia]. destruct (econ_dec d c) as [->|Ne]; [exfalso; rewrite (swo_irrefl _ _ swo_econ) in E1; discriminate|].
    rewrite cc_get_notin; [lia|]. intros I. rewrite Forall_forall in F1. specialize (F1 _ I). pose proof (swo_trans _ _ swo_econ _ _ _ E1 F1) as T. rewrite (swo_irrefl _ _ swo_econ) in T. discriminate.
  - destruct (econ_dec d c') as [<-|]; [|apply IH; auto]. destruct (econ_dec c d) as [->|]; [|lia]. exfalso. rewrite (swo_irrefl _ _ swo_econ) in E2. discriminate.
  - pose proof (econ_tri _ _ E1 E2) as <-. destruct (econ_dec c c'); lia.
Qed.
Lemma count_spec cs : let m := contraction_count cs in cc_sorted m /\ (forall c, cc_get m c = Z.of_nat (mult cs c)) /\ forall c, In c (map fst m) <-> In c cs.
Proof.
  induction cs as [|c cs IH] using rev_ind; [repeat split; auto; try constructor; simpl; tauto|].
  unfold contraction_count in *. rewrite fold_left_app. cbn [fold_left]. destruct IH as (S & G & I). split; [apply cc_incr_sorted, S|]. split.
  - intros c'. rewrite cc_incr_get by exact S. rewrite G. unfold mult. rewrite count_occ_app. cbn [count_occ]. destruct (econ_dec c c'); lia.
  - intros c'. rewrite cc_incr_keys, I, in_app_iff. simpl. intuition.
Qed.
Lemma nodup_get m : NoDup (map fst m) -> forall x, In x m -> cc_get m (fst x) = snd x.
Proof.
  induction m as [|y m IH]; intros N x H; [destruct H|]. simpl in N. inversion N; subst. rewrite cc_get_cons. destruct H as [->|H].
  - destruct (econ_dec (fst x) (fst x)); tauto.
  - destruct (econ_dec (fst y) (fst x)) as [E|E]; auto. exfalso. apply H2. rewrite E. apply in_map. exact H.
Qed.

Definition qprod {A} (f : A -> Z) (l : list A) : Z := fold_right (fun a z => f a * z) 1 l.
Lemma qprod_perm {A} (f : A -> Z) l l' : Permutation l l' -> qprod f l = qprod f l'.
Proof. unfold qprod. induction 1; simpl; try lia. Qed.
Lemma qprod_ext {A} (f g : A -> Z) l : (forall a, In a l -> f a = g a) -> qprod f l = qprod g l.
Proof. unfold qprod. induction l; simpl; intros H; auto. rewrite H by auto. rewrite IHl; auto. Qed.
Lemma qprod_map {A B} (f : B -> Z) (g : A -> B) l : qprod f (map g l) = qprod (fun a => f (g a)) l.
Proof. unfold qprod. induction l; simpl; auto. rewrite IHl. auto. Qed.
Lemma qprod_pos {A} (f : A -> Z) l : (forall a, In a l -> 1 <= f a) -> 1 <= qprod f l.
Proof. unfold qprod. induction l as [|a l IH]; simpl; intros H; [lia|]. specialize (IH ltac:(intros; apply H; auto)). specialize (H a (or_introl eq_refl)). nia. Qed.

Lemma div_phase l : Forall (fun kv : econ * Z => 1 <= snd kv) l -> forall f, canonical f ->
  let r := fold_left (fun f kv => rat_div f (rat_of_Z (binomial (snd kv) 1))) l f in
  canonical r /\ (Qval r * inject_Z (qprod snd l) == Qval f)%Q.
Proof.
  induction 1 as [|[c m] l Hm F IH]; intros f Cf; cbn [fold_left].
  - split; auto. unfold qprod. simpl. unfold inject_Z. ring.
  - cbn [snd] in *. rewrite (binom_nat m 1) by lia. change (Z.to_nat 1) with 1%nat. rewrite choose_1, Z2Nat.id by lia.
    assert (C1 : canonical (rat_div f (rat_of_Z m))) by (apply rat_div_canonical; auto; [apply rat_of_Z_canonical|simpl; lia]).
    destruct (IH _ C1) as (C2 & E). split; auto. unfold qprod. cbn [fold_right snd]. fold (qprod snd l). rewrite inject_Z_mult.
    rewrite rat_div_val in E; [|destruct Cf; lia|simpl; lia|simpl; lia]. rewrite rat_of_Z_val in E.
    assert (Nz : ~ (inject_Z m == 0)%Q) by (apply inject_Z_nz; lia).
    setoid_replace (Qval (fold_left (fun f kv => rat_div f (rat_of_Z (binomial (snd kv) 1))) l (rat_div f (rat_of_Z m))) * (inject_Z m * inject_Z (qprod snd l)))%Q
      with ((Qval (fold_left (fun f kv => rat_div f (rat_of_Z (binomial (snd kv) 1))) l (rat_div f (rat_of_Z m))) * inject_Z (qprod snd l)) * inject_Z m)%Q by ring.
    rewrite E. field. exact Nz.
Qed.

Lemma nodup_perm {A} (dec : forall a b : A, {a = b} + {a <> b}) (l l' : list A) : NoDup l -> (forall x, In x l <-> In x l') -> Permutation l (nodup dec l').
Proof. intros N H. apply NoDup_Permutation; auto; [apply NoDup_nodup|]. intros x. rewrite nodup_In. apply H. Qed.

Lemma fact_mult_prod cs : Z.of_nat (fact_mult econ_dec cs) = prod_mult cs fact.
Proof.
  unfold prod_mult. induction cs as [|c cs IH]; [reflexivity|]. cbn [fact_mult]. rewrite Nat2Z.inj_mul, IH. clear IH.
  change (fold_right (fun c0 z => Z.of_nat (fact (mult cs c0)) * z) 1 (nodup econ_dec cs)) with (qprod (fun c0 => Z.of_nat (fact (mult cs c0))) (nodup econ_dec cs)).
  change (fold_right (fun c0 z => Z.of_nat (fact (mult (c :: cs) c0)) * z) 1 (nodup econ_dec (c :: cs))) with (qprod (fun c0 => Z.of_nat (fact (mult (c :: cs) c0))) (nodup econ_dec (c :: cs))).
  assert (Mc : mult (c :: cs) c = S (count_occ econ_dec cs c)) by (unfold mult; simpl; destruct (econ_dec c c); tauto).
  assert (Mo : forall d, d <> c -> mult (c :: cs) d = mult cs d) by (intros d Hd; unfold mult; simpl; destruct (econ_dec c d); congruence).
  cbn [nodup]. destruct (in_dec econ_dec c cs) as [I|I].
  - apply nodup_In with (decA := econ_dec) in I. apply in_split in I. destruct I as (l1 & l2 & E). pose proof (NoDup_nodup econ_dec cs) as N. rewrite E in *.
    rewrite !(qprod_perm _ (l1 ++ c :: l2) (c :: l1 ++ l2)) by (symmetry; apply Permutation_middle). unfold qprod. cbn [fold_right].
    fold (qprod (fun c0 => Z.of_nat (fact (mult cs c0))) (l1 ++ l2)). fold (qprod (fun c0 => Z.of_nat (fact (mult (c :: cs) c0))) (l1 ++ l2)).
    rewrite (qprod_ext (fun c0 => Z.of_nat (fact (mult (c :: cs) c0))) (fun c0 => Z.of_nat (fact (mult cs c0)))).
    + rewrite Mc. change (fact (S (count_occ econ_dec cs c))) with (S (count_occ econ_dec cs c) * fact (mult cs c))%nat. rewrite Nat2Z.inj_mul. ring.
    + intros d Hd. rewrite Mo; auto. intros ->. apply NoDup_remove_2 in N. auto.
  - unfold qprod at 2. cbn [fold_right]. fold (qprod (fun c0 => Z.of_nat (fact (mult (c :: cs) c0))) (nodup econ_dec cs)). rewrite Mc.
    rewrite (proj1 (count_occ_not_In econ_dec cs c) I). rewrite (qprod_ext (fun c0 => Z.of_nat (fact (mult (c :: cs) c0))) (fun c0 => Z.of_nat (fact (mult cs c0)))); [reflexivity|].
    intros d Hd. rewrite Mo; auto. intros ->. apply nodup_In in Hd. auto.
Qed.

Lemma comb_factor_val st ops cs : ops_ok st ops -> Forall (con_ok st (length ops)) cs -> enough_legs st ops cs ->
  canonical (combinatorial_factor st ops cs) /\
  (Qval (combinatorial_factor st ops cs) * inject_Z (prod_mult cs (fun m => m)) == inject_Z (Z.of_nat (weight (kinds st (length ops)) cnum cs (fun k => Z.to_nat (leg_count ops k)))))%Q.
Proof.
  intros (Hn & FO) F En. rewrite Forall_forall in FO. unfold combinatorial_factor.
  assert (Nth : forall A, nth A (map op_gm ops) gm_zero = op_gm (nth A ops (mkOp [] gm_zero))) by (intros A; change gm_zero with (op_gm (mkOp [] gm_zero)) at 1; apply map_nth).
  assert (Cn : forall k, nat_counts (map op_gm ops) k = Z.to_nat (leg_count ops k)).
  { intros [[A s] b]. unfold nat_counts, leg_count, ops_cre, ops_ann. rewrite Nth. reflexivity. }
  assert (NN : forall A s, (A < length ops)%nat -> is_space st s -> 0 <= ops_cre ops A s /\ 0 <= ops_ann ops A s).
  { intros A s HA Hs. destruct (FO (nth A ops (mkOp [] gm_zero)) (nth_In _ _ HA)) as (_ & N). unfold ops_cre, ops_ann. apply N. exact Hs. }
  destruct (comb_phase1 st (length ops) cs (map op_gm ops) 1 Hn F) as (free' & E).
  - split; [apply map_length|]. split.
    + apply Forall_forall. intros g Hg. apply in_map_iff in Hg. destruct Hg as (o & <- & Ho). apply (FO o Ho).
    + intros A s HA Hs. rewrite Nth. apply NN; auto.
  - intros k Hk. rewrite Cn. specialize (En k Hk). destruct k as [[A s] b]. apply kinds_in in Hk. destruct Hk as (HA & Hs). destruct (NN A s HA Hs). rewrite Z2Nat.id; auto. destruct b; auto.
  - rewrite E. destruct (count_spec cs) as (S & G & I). pose proof (cc_sorted_nodup _ S) as N.
    assert (Gm : forall x, In x (contraction_count cs) -> snd x = Z.of_nat (mult cs (fst x))) by (intros x Hx; rewrite <- G; symmetry; apply nodup_get; auto).
    destruct (div_phase (contraction_count cs)) with (f := rat_of_Z (1 * Z.of_nat (weight (kinds st (length ops)) cnum cs (nat_counts (map op_gm ops))))) as (C1 & Q1).
    + apply Forall_forall. intros x Hx. rewrite Gm by auto. unfold mult. assert (In (fst x) cs) by (apply I, in_map; auto). apply (count_occ_In econ_dec) in H. lia.
    + apply rat_of_Z_canonical.
    + split; auto. assert (PM : prod_mult cs (fun m => m) = qprod snd (contraction_count cs)).
      { unfold prod_mult. change (fold_right (fun c z => Z.of_nat (mult cs c) * z) 1 (nodup econ_dec cs)) with (qprod (fun c => Z.of_nat (mult cs c)) (nodup econ_dec cs)).
        rewrite <- (qprod_perm _ _ _ (nodup_perm econ_dec (map fst (contraction_count cs)) cs N I)), qprod_map. apply qprod_ext. intros x Hx. symmetry. auto. }
      rewrite PM, Q1, rat_of_Z_val, Z.mul_1_l. rewrite (weight_ext _ _ _ _ (fun k => Z.to_nat (leg_count ops k))) by (intros; apply Cn). reflexivity.
Qed.

Lemma choose_pos n : forall k, (k <= n)%nat -> (1 <= choose n k)%nat.
Proof. induction n as [|n IH]; intros [|k] H; simpl; try lia. specialize (IH k ltac:(lia)). lia. Qed.
Lemma prodl_pos {A} (f : A -> nat) l : (forall a, In a l -> 1 <= f a)%nat -> (1 <= prodl f l)%nat.
Proof. unfold prodl. induction l as [|a l IH]; simpl; intros H; [lia|]. specialize (IH ltac:(intros; apply H; auto)). specialize (H a (or_introl eq_refl)). nia. Qed.
Lemma weight_pos st n cs : forall f, (forall c, In c cs -> forall k, In k (kinds st n) -> 0 <= ec_count c k) ->
  (forall k, In k (kinds st n) -> total_of (fun c => ec_count c k) cs <= Z.of_nat (f k)) -> (1 <= weight (kinds st n) cnum cs f)%nat.
Proof.
  induction cs as [|c cs IH]; intros f NN H; cbn [weight]; [lia|].
  assert (Ht : forall k, In k (kinds st n) -> 0 <= total_of (fun c => ec_count c k) cs) by (intros k Hk; apply total_of_nonneg; intros a Ha; apply NN; [right|]; auto).
  assert (H' : forall k, In k (kinds st n) -> 0 <= ec_count c k /\ ec_count c k + total_of (fun c => ec_count c k) cs <= Z.of_nat (f k)).
  { intros k Hk. specialize (H k Hk). unfold total_of in H. cbn [fold_right] in H. split; [apply NN; [left|]; auto|exact H]. }
  assert (1 <= prodk (kinds st n) (fun k => choose (f k) (cnum c k)))%nat.
  { apply (prodl_pos (fun k => choose (f k) (cnum c k))). intros k Hk. apply choose_pos. unfold cnum. specialize (H' k Hk). specialize (Ht k Hk). lia. }
  specialize (IH (fun k => (f k - cnum c k)%nat)). assert (1 <= weight (kinds st n) cnum cs (fun k => f k - cnum c k))%nat; [|nia].
  apply IH; [intros; apply NN; [right|]; auto|]. intros k Hk. specialize (H' k Hk). specialize (Ht k Hk). unfold cnum. lia.
Qed.

Theorem weight_counts st maxc ops cs : ops_ok st ops -> Forall (allowed st maxc ops) cs -> enough_legs st ops cs ->
  exists R, counts_ways (carries_out st (length ops)) (all_legs st ops) cs R /\ R <> [] /\ canonical (combinatorial_factor st ops cs) /\
    (Qval (combinatorial_factor st ops cs) * inject_Z (prod_mult cs (fun m => m)) == inject_Z (Z.of_nat (length R)) * inject_Z (prod_mult cs fact))%Q.
Proof.
  intros OK F En. assert (F' : Forall (con_ok st (length ops)) cs) by (revert F; apply Forall_impl; intros c; apply allowed_con_ok; auto).
  destruct (ways st ops cs (proj1 OK) F') as (R & C & E). destruct (comb_factor_val st ops cs OK F' En) as (Ca & V). exists R. split; [auto|]. split; [|split; auto].
  - intros ->. cbn [length] in E. rewrite Nat.mul_0_l in E. assert (P : (1 <= weight (kinds st (length ops)) cnum cs (fun k => Z.to_nat (leg_count ops k)))%nat); [|lia].
    apply weight_pos.
    + intros c Hc k Hk. rewrite Forall_forall in F'. apply (F' c Hc); auto.
    + intros k Hk. specialize (En k Hk). lia.
  - rewrite V, <- E, Nat2Z.inj_mul, fact_mult_prod, inject_Z_mult. reflexivity.
Qed.

Lemma fact_eq_small m : (1 <= m)%nat -> (m <= fact m)%nat /\ (fact m = m <-> m <= 2)%nat.
Proof.
  destruct m as [|[|[|m]]]; intros H; [lia|simpl; lia|simpl; lia|]. pose proof (fact_neq_0 m). assert (L : (S (S (S m)) < fact (S (S (S m))))%nat); [|split; [lia|split; intros; lia]].
  change (fact (S (S (S m)))) with (S (S (S m)) * (S (S m) * (S m * fact m)))%nat. nia.
Qed.
Lemma prod_mult_compare cs : prod_mult cs (fun m => m) <= prod_mult cs fact /\ 1 <= prod_mult cs (fun m => m) /\
  (prod_mult cs (fun m => m) = prod_mult cs fact <-> forall c, (mult cs c <= 2)%nat).
Proof.
  unfold prod_mult. assert (I : forall c, In c (nodup econ_dec cs) -> (1 <= mult cs c)%nat).
  { intros c Hc. apply nodup_In in Hc. apply (count_occ_In econ_dec) in Hc. unfold mult. lia. }
  assert (O : (forall c, (mult cs c <= 2)%nat) <-> forall c, In c (nodup econ_dec cs) -> (mult cs c <= 2)%nat).
  { split; auto. intros H c. destruct (in_dec econ_dec c cs) as [Hc|Hc]; [apply H, nodup_In; auto|]. unfold mult. rewrite (proj1 (count_occ_not_In econ_dec cs c) Hc). lia. }
  rewrite O. clear O. induction (nodup econ_dec cs) as [|c l IH]; simpl; [split; [lia|split; [lia|split; [tauto|auto]]]|].
  destruct IH as (L & P & E); [intros; apply I; right; auto|]. assert (Ic := I c (or_introl eq_refl)). destruct (fact_eq_small _ Ic) as (Lf & Ef).
  split; [|split].
  - apply Z.mul_le_mono_nonneg; lia.
  - nia.
  - split; intros H.
    + assert (Z.of_nat (mult cs c) = Z.of_nat (fact (mult cs c)) /\ fold_right (fun c0 z => Z.of_nat (mult cs c0) * z) 1 l = fold_right (fun c0 z => Z.of_nat (fact (mult cs c0)) * z) 1 l) by nia.
      destruct H0 as (H1 & H2). intros d [<-|Hd]; [apply Ef; lia|apply E; auto].
    + assert (Z.of_nat (fact (mult cs c)) = Z.of_nat (mult cs c)) by (f_equal; apply Ef, H; auto). rewrite H0. f_equal. apply E. intros d Hd. apply H. auto.
Qed.

Theorem weight_exact_iff st maxc ops cs : ops_ok st ops -> Forall (allowed st maxc ops) cs -> enough_legs st ops cs ->
  exists R, counts_ways (carries_out st (length ops)) (all_legs st ops) cs R /\
    (combinatorial_factor st ops cs = rat_of_Z (Z.of_nat (length R)) <-> forall c, (mult cs c <= 2)%nat).
Proof.
  intros OK F En. destruct (weight_counts st maxc ops cs OK F En) as (R & C & NE & Ca & V). exists R. split; auto.
  destruct (prod_mult_compare cs) as (L & P & E). rewrite <- E. split; intros H.
  - rewrite H, rat_of_Z_val, <- !inject_Z_mult in V. rewrite inject_Z_injective in V. destruct R; [tauto|]. cbn [length] in V. nia.
  - apply canonical_val_inj; auto; [apply rat_of_Z_canonical|]. rewrite rat_of_Z_val. rewrite <- H in V.
    assert (Nz : ~ (inject_Z (prod_mult cs (fun m => m)) == 0)%Q) by (apply inject_Z_nz; lia). apply (Qmult_inj_r _ _ _ Nz). exact V.
Qed.

(** The number of ways is well defined. *)
Lemma le_reps {X} (R : list (list X)) : forall R', ForallOrdPairs (fun x y => ~ Permutation x y) R ->
  (forall x, In x R -> exists y, In y R' /\ Permutation x y) -> (length R <= length R')%nat.
Proof.
  induction R as [|x R IH]; intros R' F H; simpl; [lia|]. inversion F as [|? ? F1 F2]; subst. destruct (H x (or_introl eq_refl)) as (y & Hy & P).
  apply in_split in Hy. destruct Hy as (l1 & l2 & ->). rewrite app_length. simpl. enough (length R <= length (l1 ++ l2))%nat by (rewrite app_length in *; lia).
  apply IH; auto. intros z Hz. destruct (H z (or_intror Hz)) as (w & Hw & Pw). exists w. split; auto. apply in_app_iff in Hw. apply in_app_iff. destruct Hw as [|[<-|]]; auto.
  exfalso. rewrite Forall_forall in F1. apply (F1 z Hz). transitivity y; [exact P|apply Permutation_sym; exact Pw].
Qed.
Lemma counts_ways_unique {L C} (fits : list L -> C -> Prop) legs cs R R' : counts_ways fits legs cs R -> counts_ways fits legs cs R' -> length R = length R'.
Proof.
  intros [S1 C1 O1] [S2 C2 O2]. apply Nat.le_antisymm; apply le_reps; auto; intros x Hx.
  - destruct (C2 cs x (Permutation_refl _) (S1 x Hx)) as (y & Hy & P). eauto.
  - destruct (C1 cs x (Permutation_refl _) (S2 x Hx)) as (y & Hy & P). eauto.
Qed.

Theorem weight_exact st maxc ops cs : ops_ok st ops -> Forall (allowed st maxc ops) cs -> enough_legs st ops cs ->
  (exists R, counts_ways (carries_out st (length ops)) (all_legs st ops) cs R) /\
  forall R, counts_ways (carries_out st (length ops)) (all_legs st ops) cs R ->
    (combinatorial_factor st ops cs = rat_of_Z (Z.of_nat (length R)) <-> forall c, (mult cs c <= 2)%nat).
Proof.
  intros OK F En. destruct (weight_exact_iff st maxc ops cs OK F En) as (R & C & E). split; [eauto|]. intros R' C'. rewrite (counts_ways_unique _ _ _ _ _ C' C). exact E.
Qed.
Theorem weight_general st maxc ops cs : ops_ok st ops -> Forall (allowed st maxc ops) cs -> enough_legs st ops cs ->
  forall R, counts_ways (carries_out st (length ops)) (all_legs st ops) cs R ->
    canonical (combinatorial_factor st ops cs) /\
    (Qval (combinatorial_factor st ops cs) * inject_Z (prod_mult cs (fun m => m)) == inject_Z (Z.of_nat (length R)) * inject_Z (prod_mult cs fact))%Q.
Proof.
  intros OK F En R' C'. destruct (weight_counts st maxc ops cs OK F En) as (R & C & _ & Ca & V). rewrite (counts_ways_unique _ _ _ _ _ C' C). auto.
Qed.
