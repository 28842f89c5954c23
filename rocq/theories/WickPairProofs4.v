(** Every set of contracted pairs belongs to exactly one of the composite contractions of the search. *)
From Coq Require Import ZArith List Bool Arith Lia Permutation Sorted.
From Verif Require Import Res RegistryModel CoreModel AdjointModel OperatorModel OperatorSpec OperatorProofs SortSpec SortProofs WickSearchModel WickSearchSpec CountSpec CountProofs WickCombSpec WickCombProofs WickElemProofs WickElemProofs2 WickCompProofs WickSearchProofs WickLegSpec WickLegProofs WickLegProofs6 WickEvalModel WickPairProofs WickPairProofs2 WickPairProofs3.
Import ListNotations.
Local Open Scope Z_scope.

Lemma total_of_perm {A} (f : A -> Z) l l' : Permutation l l' -> total_of f l = total_of f l'.
Proof. induction 1; simpl; lia. Qed.
Lemma total_of_app {A} (f : A -> Z) l l' : total_of f (l ++ l') = total_of f l + total_of f l'.
Proof. induction l; simpl; lia. Qed.
Lemma total_of_map {A B} (f : B -> Z) (g : A -> B) l : total_of f (map g l) = total_of (fun a => f (g a)) l.
Proof. induction l; simpl; lia. Qed.
Lemma total_of_const {A} (f : A -> Z) k l : (forall a, In a l -> f a = k) -> total_of f l = k * Z.of_nat (length l).
Proof. induction l as [|a l IH]; intros H; cbn [total_of fold_right length]; [lia|]. rewrite (H a) by (left; auto). fold (total_of f l). rewrite IH by (intros b Hb; apply H; right; auto). lia. Qed.
Lemma total_of_ext {A} (f g : A -> Z) l : (forall a, In a l -> f a = g a) -> total_of f l = total_of g l.
Proof. induction l as [|a l IH]; intros H; cbn [total_of fold_right]; auto. rewrite (H a) by (left; auto). f_equal. apply IH. intros b Hb; apply H; right; auto. Qed.

(** Sorted rearrangements are unique. *)
Lemma sorted_perm_unique l : forall l', StronglySorted Z.le l -> StronglySorted Z.le l' -> Permutation l l' -> l = l'.
Proof.
  induction l as [|x l IH]; intros l' S S' P; [apply Permutation_nil in P; auto|]. destruct l' as [|y l']; [apply Permutation_sym, Permutation_nil in P; discriminate|].
  inversion S as [|? ? S1 F1]; subst. inversion S' as [|? ? S2 F2]; subst. rewrite Forall_forall in *.
  assert (x = y). { assert (Hx : In x (y :: l')) by (apply (Permutation_in x P); left; auto). assert (Hy : In y (x :: l)) by (apply (Permutation_in y (Permutation_sym P)); left; auto).
    destruct Hx as [|Hx]; auto. destruct Hy as [|Hy]; auto. specialize (F1 _ Hy). specialize (F2 _ Hx). lia. }
  subst y. f_equal. apply IH; auto. apply Permutation_cons_inv in P. exact P.
Qed.
Fixpoint zins (x : Z) (l : list Z) : list Z := match l with [] => [x] | y :: l' => if x <=? y then x :: l else y :: zins x l' end.
Lemma zins_perm x l : Permutation (x :: l) (zins x l).
Proof. induction l as [|y l IH]; simpl; auto. destruct (x <=? y); auto. apply (Permutation_trans (perm_swap y x l)). constructor. exact IH. Qed.
Lemma zins_sorted x l : StronglySorted Z.le l -> StronglySorted Z.le (zins x l).
Proof.
  induction l as [|y l IH]; intros S; simpl; [constructor; constructor|]. inversion S as [|? ? S1 F1]; subst. destruct (Z.leb_spec x y).
  - constructor; auto. constructor; auto. eapply Forall_impl; [|exact F1]. intros; lia.
  - constructor; auto. apply (Forall_perm _ _ _ (zins_perm x l)). constructor; auto. lia.
Qed.
Lemma sorted_exists l : exists l', Permutation l l' /\ StronglySorted Z.le l'.
Proof. induction l as [|x l (l' & P & S)]; [exists []; split; constructor|]. exists (zins x l'). split; [apply (Permutation_trans (perm_skip x P)), zins_perm|apply zins_sorted, S]. Qed.

Section Classes.
  Variables (fuel : nat) (st : osi) (maxc : Z) (ops : oprod) (els : list econ).
  Hypothesis Hok : ops_ok st ops.
  Hypothesis Hg : no_general st.
  Hypothesis EL : elementary_contractions fuel st maxc ops = Ok els.
  Notation n := (length ops).
  Notation el := (fun c => nth (Z.to_nat c) els []).
  Notation econ_pair := (econ_pair ops).

  Lemma allowed_two c : allowed st maxc ops c -> ec_num_ops c = 2.
  Proof.
    intros H. apply in_space_allowed in H; auto. destruct H as (s & Hs & H). assert (H8 := s8 _ _ _ Hok Hs). unfold in_space in H.
    destruct (Hg (Z.of_nat s)) as [E|E]; [apply nat_is_space; auto| |]; rewrite E in H; destruct H as (l & r & L & _ & _ & ->); rewrite mk_ec_num, !total_delta by lia; lia.
  Qed.
  Lemma pair_in_els p : pair_ok st ops (fst p) (snd p) -> In (econ_pair p) els.
  Proof. intros H. apply (els_allowed fuel st maxc ops els Hok EL). apply (pair_allowed st ops Hok). exact H. Qed.
  Lemma kcount_unpair ps k : kcount (unpair ps) k = total_of (fun p => kcount (pair_legs p) k) ps.
  Proof.
    induction ps as [|p ps IH]; auto. change (unpair (p :: ps)) with (pair_legs p ++ unpair ps). cbn [total_of fold_right]. fold (total_of (fun p => kcount (pair_legs p) k) ps). rewrite <- IH.
    unfold kcount. rewrite map_app, count_occ_app_k, Nat2Z.inj_add. reflexivity.
  Qed.
  Lemma kcount_legs ps k : pairs_ok st ops ps -> In k (kinds st n) -> kcount (unpair ps) k <= leg_count ops k.
  Proof.
    intros (A & ND) Hk. assert (Hn : 0 <= leg_count ops k).
    { destruct k as [[B s] b]. apply kinds_in in Hk. destruct Hk as (HB & Hs). destruct Hok as (_ & F). rewrite Forall_forall in F. destruct (F (nth B ops (mkOp [] gm_zero))) as (_ & N); [apply nth_In; auto|]. specialize (N s Hs). destruct b; simpl; unfold ops_cre, ops_ann; tauto. }
    assert (E := legs_cnt st ops k Hk). unfold cnt in E. enough ((count_occ kind_dec (map fst (unpair ps)) k <= count_occ kind_dec (map fst (all_legs st ops)) k)%nat) by (unfold kcount; lia).
    assert (I : incl (unpair ps) (all_legs st ops)). { intros l Hl. apply in_all_legs. unfold unpair in Hl. apply in_flat_map in Hl. destruct Hl as (p & Hp & [<-|[<-|[]]]); apply A in Hp; destruct Hp as (H1 & H2 & _); auto. }
    revert ND I. generalize (unpair ps). generalize (legs_nodup st ops). generalize (all_legs st ops). intros L _ l. revert L. induction l as [|x l IH]; intros L ND I; [simpl; lia|].
    inversion ND; subst. destruct (in_split x L) as (L1 & L2 & ->); [apply I; left; auto|]. assert (J : incl l (L1 ++ L2)).
    { intros y Hy. assert (Z := I y (or_intror Hy)). apply in_app_or in Z. apply in_or_app. destruct Z as [|[->|]]; auto. contradiction. }
    specialize (IH _ H2 J). rewrite map_app, count_occ_app_k in *. cbn [map count_occ]. destruct (kind_dec (fst x) k); lia.
  Qed.
  Lemma class_exists ps : pairs_ok st ops ps -> exists cv, is_multiset els cv /\ compatible st els ops cv /\ Permutation (map econ_pair ps) (map el cv).
  Proof.
    intros Po. assert (X : exists cv, Forall (fun c => 0 <= c < Z.of_nat (length els)) cv /\ map econ_pair ps = map el cv).
    { destruct Po as (A & _). induction ps as [|p ps IH]; [exists []; split; constructor|]. destruct IH as (cv & F & E); [intros q Hq; apply A; right; auto|].
      destruct (In_nth els (econ_pair p) []) as (i & Hi & Ei); [apply pair_in_els, A; left; auto|]. exists (Z.of_nat i :: cv). split; [constructor; [lia|auto]|]. cbn [map]. rewrite E, Nat2Z.id, Ei. reflexivity. }
    destruct X as (cv0 & F & E). destruct (sorted_exists cv0) as (cv & P & S). exists cv.
    assert (Q : Permutation (map econ_pair ps) (map el cv)) by (rewrite E; apply Permutation_map, P).
    split; [split; auto; apply (Forall_perm _ _ _ P), F|]. split; auto.
    assert (C : forall k, In k (kinds st n) -> total_of (fun c => ec_count c k) (map el cv) <= leg_count ops k).
    { intros k Hk. rewrite <- (total_of_perm _ _ _ Q), total_of_map. rewrite (total_of_ext _ (fun p => kcount (pair_legs p) k)).
      - rewrite <- kcount_unpair. apply kcount_legs; auto.
      - intros p _. unfold econ_pair. apply (econ_of_count st); auto. apply Hok. }
    intros A s HA Hs. rewrite !used_total. split; [apply (C (A, s, true))|apply (C (A, s, false))]; apply kinds_in; auto.
  Qed.
  Lemma class_unique cv cv' : is_multiset els cv -> is_multiset els cv' -> Permutation (map el cv) (map el cv') -> cv = cv'.
  Proof.
    intros (S & F) (S' & F') P. apply sorted_perm_unique; auto. destruct (els_allowed fuel st maxc ops els Hok EL) as (ND & _).
    destruct (Permutation_map_inv _ _ P) as (c2 & E & P2). apply Permutation_sym in P2. apply Permutation_sym. apply (Permutation_trans (Permutation_sym P2)).
    assert (c2 = cv) as ->; [|apply Permutation_refl]. assert (F2 := Forall_perm _ _ _ (Permutation_sym P2) F'). clear - ND E F F2. revert cv E F F2. induction c2 as [|a c2 IH]; intros [|b cv] E F F2; cbn [map] in E; try discriminate; auto.
    injection E as E1 E2. inversion F; subst. inversion F2; subst. f_equal; [|apply IH; auto]. rewrite (NoDup_nth els []) in ND. assert (Z.to_nat b = Z.to_nat a) by (apply ND; auto; lia). lia.
  Qed.
  Lemma class_left_over cv ps : pairs_ok st ops ps -> Permutation (map econ_pair ps) (map el cv) -> left_over els ops cv = ops_rank ops - 2 * Z.of_nat (length ps).
  Proof.
    intros (A & _) P. unfold left_over, ops_rank. f_equal. rewrite used_total, <- (total_of_perm _ _ _ P), total_of_map. apply total_of_const. intros p Hp. apply allowed_two. apply (pair_allowed st ops Hok). apply A, Hp.
  Qed.
  (** The kinds of the contracted legs are determined by the contraction. *)
  Lemma pair_kinds p q : pair_ok st ops (fst p) (snd p) -> pair_ok st ops (fst q) (snd q) -> econ_pair p = econ_pair q -> fst (fst p) = fst (fst q) /\ fst (snd p) = fst (snd q).
  Proof.
    destruct p as [x y], q as [x' y']. cbn [fst snd]. intros P Q E. assert (Hn := proj1 Hok).
    assert (K : forall k, In k (kinds st n) -> kcount [x; y] k = kcount [x'; y'] k).
    { intros k Hk. rewrite <- !(econ_of_count st n Hn) by auto. unfold econ_pair, pair_legs in E. cbn [fst snd] in E. rewrite E. reflexivity. }
    destruct P as (Lx & Ly & Es & Ho & C), Q as (Lx' & Ly' & Es' & Ho' & C').
    assert (Kx := K _ (is_leg_kind _ _ _ Lx)). assert (Ky := K _ (is_leg_kind _ _ _ Ly)). rewrite !kcount_pair in Kx, Ky.
    assert (Nxy : fst x <> fst y) by (rewrite !leg_kind_eta; intros X; injection X; intros; lia).
    assert (Nxy' : fst x' <> fst y') by (rewrite !leg_kind_eta; intros X; injection X; intros; lia).
    destruct (kind_dec (fst x) (fst x)) as [_|]; [|congruence]. destruct (kind_dec (fst y) (fst y)) as [_|]; [|congruence].
    destruct (kind_dec (fst y) (fst x)) as [|_]; [congruence|]. destruct (kind_dec (fst x) (fst y)) as [|_]; [congruence|].
    destruct (kind_dec (fst x') (fst x)) as [E1|N1].
    - destruct (kind_dec (fst y') (fst y)) as [E2|N2]; [split; congruence|]. destruct (kind_dec (fst x') (fst y)); [congruence|lia].
    - destruct (kind_dec (fst y') (fst x)) as [E2|N2]; [|lia]. exfalso. destruct (kind_dec (fst x') (fst y)) as [E3|N3]; [|destruct (kind_dec (fst y') (fst y)); [congruence|lia]].
      rewrite !leg_kind_eta in E2, E3. injection E2 as X1 X2 X3. injection E3 as Y1 Y2 Y3. lia.
  Qed.
End Classes.

(** The number of legs. *)
Lemma gsum_total g : gsum g = total (length g) (fun i => fst (nthp g i) + snd (nthp g i)).
Proof.
  assert (H : forall l, total_of (fun p => fst p + snd p) l = gsum l) by (induction l as [|a l IH]; simpl; auto; rewrite <- IH; auto).
  rewrite <- (H g). clear H. induction g as [|x g IH] using rev_ind; [reflexivity|]. rewrite total_of_app, app_length, Nat.add_1_r. cbn [total total_of fold_right]. rewrite IH.
  assert (E : nthp (g ++ [x]) (length g) = x). { unfold nthp. rewrite app_nth2, Nat.sub_diag by lia. reflexivity. }
  rewrite E. replace (fst x + snd x + 0) with (fst x + snd x) by lia. f_equal. apply total_ext. intros i Hi. unfold nthp. rewrite app_nth1 by lia. reflexivity.
Qed.
Lemma length_range z : length (range z) = Z.to_nat z.
Proof. unfold range. rewrite map_length, seq_length. reflexivity. Qed.
Lemma legs_rank st ops : ops_ok st ops -> Z.of_nat (length (product_legs st ops)) = ops_rank ops.
Proof.
  intros (Hn & F).
  assert (X : forall A, (A < length ops)%nat -> Z.of_nat (length (op_cre_legs st ops A ++ rev (op_ann_legs st ops A))) = op_num (nth A ops (mkOp [] gm_zero))).
  { intros A HA. rewrite Forall_forall in F. destruct (F (nth A ops (mkOp [] gm_zero))) as ((L & V) & N); [apply nth_In; auto|].
    unfold op_num. rewrite gm_num_sum, gsum_total, L. set (g := op_gm (nth A ops (mkOp [] gm_zero))) in *.
    assert (Y : forall m f, (m <= max_spaces)%nat -> (forall i, (m <= i < max_spaces)%nat -> f i = 0) -> total max_spaces f = total m f).
    { intros m f Hm. revert Hm. generalize max_spaces as M. intros M. induction M as [|M IH]; intros Hm Z; [replace m with 0%nat by lia; auto|]. destruct (Nat.eq_dec m (S M)) as [->|]; auto. cbn [total]. rewrite (Z M) by lia. rewrite IH by (intros; try apply Z; lia). lia. }
    rewrite (Y (nsp st)); auto. 2: { intros i Hi. rewrite (nthp_of _ _ _ (V i Hi)). reflexivity. }
    rewrite app_length, rev_length, Nat2Z.inj_add. unfold op_cre_legs, op_ann_legs.
    assert (W : forall (b : bool) (h : Z -> Z), (forall s, is_space st s -> 0 <= h s) -> Z.of_nat (length (flat_map (fun s => map (fun i => ((A, s, b), i)) (range (h s))) (range (num_spaces st)))) = total (nsp st) (fun i => h (Z.of_nat i))).
    { intros b h Hh. unfold is_space in Hh. change (num_spaces st) with (Z.of_nat (nsp st)) in *. rewrite range_nat. clear - Hh. revert Hh. generalize (nsp st) as m. induction m as [|m IH]; intros Hh; [reflexivity|].
      rewrite seq_S, map_app, flat_map_app, app_length, Nat2Z.inj_add. cbn [total]. rewrite IH by (intros; apply Hh; lia). cbn [map flat_map plus]. rewrite app_nil_r, map_length, length_range. f_equal. rewrite Z2Nat.id; auto. apply Hh. lia. }
    rewrite !W by (intros s Hs; destruct (N s Hs); auto). rewrite <- total_add. apply total_ext. intros i Hi. unfold ops_cre, ops_ann. fold g. rewrite cre_of_nat, ann_of_nat by lia. reflexivity. }
  unfold ops_rank. rewrite (fold_sum (fun o => op_num o)). unfold product_legs.
  assert (G : forall As l, (forall A, In A As -> (A < length ops)%nat) -> l = map (fun A => nth A ops (mkOp [] gm_zero)) As -> Z.of_nat (length (flat_map (fun A => op_cre_legs st ops A ++ rev (op_ann_legs st ops A)) As)) = 0 + fold_left (fun a o => a + op_num o) l 0).
  { intros As. induction As as [|A As IH]; intros l H ->; [reflexivity|]. cbn [flat_map map fold_left]. rewrite (fold_sum (fun o => op_num o)). rewrite app_length, Nat2Z.inj_add, X by (apply H; left; auto). rewrite (IH _ (fun B HB => H B (or_intror HB)) eq_refl). lia. }
  apply G; [intros A HA; apply in_seq in HA; lia|]. clear. induction ops as [|o l IH]; auto. cbn [length seq map nth]. f_equal. rewrite <- seq_shift, map_map. exact IH.
Qed.
