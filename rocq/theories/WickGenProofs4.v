(** C61: contracted blocks, and the contractions of the search they belong to. *)
From Coq Require Import ZArith List Bool Arith Lia Permutation Sorted.
From Verif Require Import Res RegistryModel CoreModel AdjointModel OperatorModel OperatorSpec OperatorProofs SortSpec SortProofs WickSearchModel WickSearchSpec CountSpec CountProofs WickCombSpec WickCombProofs WickElemProofs WickElemProofs2 WickCompProofs WickSearchProofs WickLegSpec WickLegProofs WickLegProofs3 WickLegProofs6 WickEvalModel WickPairProofs WickPairProofs2 WickPairProofs3 WickPairProofs4.
Import ListNotations.
Local Open Scope Z_scope.

Lemma total_zero n f : (forall A, (A < n)%nat -> f A = 0) -> total n f = 0.
Proof. induction n as [|n IH]; intros H; cbn [total]; auto. rewrite IH by (intros; apply H; lia). rewrite H by lia. reflexivity. Qed.
Definition ncre (c : bool) (b : list leg) : Z := Z.of_nat (length (filter (fun l => Bool.eqb (leg_cre l) c) b)).
Lemma total_kcount n s c b : (forall l, In l b -> (leg_op l < n)%nat /\ leg_space l = s) -> total n (fun A => kcount b (A, s, c)) = ncre c b.
Proof.
  induction b as [|l b IH]; intros H; [unfold kcount, ncre; simpl; apply total_zero; auto|].
  destruct (H l (or_introl eq_refl)) as (Ho & Hs). specialize (IH (fun l' Hl => H l' (or_intror Hl))).
  rewrite (total_ext _ _ (fun A => (if Bool.eqb (leg_cre l) c then delta (leg_op l) A else 0) + kcount b (A, s, c))).
  - rewrite total_add, IH. unfold ncre. cbn [filter]. destruct (Bool.eqb (leg_cre l) c); cbn [length]; [rewrite total_delta by auto; lia|]. rewrite total_zero by auto. lia.
  - intros A HA. unfold kcount. cbn [map count_occ]. rewrite (leg_kind_eta l), Hs. unfold delta.
    destruct (kind_dec (leg_op l, s, leg_cre l) (A, s, c)) as [E|E], (Bool.eqb (leg_cre l) c) eqn:Eb, (Nat.eq_dec A (leg_op l)) as [Ea|Ea]; subst; try lia.
    all: try (apply eqb_prop in Eb; subst); try congruence.
    all: injection E; intros; subst; rewrite Bool.eqb_reflx in Eb; discriminate.
Qed.
Lemma ncre_split b : ncre true b + ncre false b = Z.of_nat (length b).
Proof. unfold ncre. induction b as [|l b IH]; [reflexivity|]. cbn [filter]. destruct (leg_cre l); cbn [Bool.eqb length]; lia. Qed.
Lemma ncre_perm c b b' : Permutation b b' -> ncre c b = ncre c b'.
Proof. intros P. unfold ncre. f_equal. induction P as [|x l l' P IH|x y l|l l' l'' P1 IH1 P2 IH2]; cbn [filter]; auto; repeat (match goal with |- context [if ?e then _ else _] => destruct e end); cbn [length]; auto; lia. Qed.

Section GenBlocks.
  Variables (st : osi) (ops : oprod) (maxc : Z).
  Hypothesis Hok : ops_ok st ops.
  Notation n := (length ops).
  (** A contracted block of legs of one general space. *)
  Definition gen_block (b : list leg) : Prop :=
    exists s, is_space st s /\ stype st s = Some General /\ (forall l, In l b -> leg_space l = s) /\ ncre true b = ncre false b /\ 1 <= ncre true b <= maxc /\
      exists l l', In l b /\ In l' b /\ (leg_op l < leg_op l')%nat.
  Definition good_block (b : list leg) : Prop := (exists x y, Permutation b [x; y] /\ pair_ok st ops x y) \/ gen_block b.

  Lemma kcount_bound b k : NoDup b -> (forall l, In l b -> is_leg st ops l) -> In k (kinds st n) -> 0 <= kcount b k <= leg_count ops k.
  Proof.
    intros ND A Hk. split; [unfold kcount; lia|]. assert (Hn : 0 <= leg_count ops k).
    { destruct k as [[B s] c]. apply kinds_in in Hk. destruct Hk as (HB & Hs). destruct Hok as (_ & F). rewrite Forall_forall in F. destruct (F (nth B ops (mkOp [] gm_zero))) as (_ & N); [apply nth_In; auto|]. specialize (N s Hs). destruct c; simpl; unfold ops_cre, ops_ann; tauto. }
    assert (E := legs_cnt st ops k Hk). unfold cnt in E. enough ((count_occ kind_dec (map fst b) k <= count_occ kind_dec (map fst (all_legs st ops)) k)%nat) by (unfold kcount; lia).
    assert (I : incl b (all_legs st ops)) by (intros l Hl; apply in_all_legs, A, Hl).
    clear A. revert ND I. generalize (legs_nodup st ops). generalize (all_legs st ops). intros L _. revert L. induction b as [|x l IH]; intros L ND I; [simpl; lia|].
    inversion ND; subst. destruct (in_split x L) as (L1 & L2 & ->); [apply I; left; auto|]. assert (J : incl l (L1 ++ L2)).
    { intros y Hy. assert (Z := I y (or_intror Hy)). apply in_app_or in Z. apply in_or_app. destruct Z as [|[->|]]; auto. contradiction. }
    specialize (IH _ H2 J). rewrite map_app, count_occ_app_k in *. cbn [map count_occ]. destruct (kind_dec (fst x) k); lia.
  Qed.
  Lemma kcount_pos b l : In l b -> 0 < kcount b (fst l).
  Proof. intros H. unfold kcount. assert (In (fst l) (map fst b)) as X by (apply in_map; auto). apply (count_occ_In kind_dec) in X. lia. Qed.
  Lemma gen_allowed b : NoDup b -> (forall l, In l b -> is_leg st ops l) -> gen_block b -> allowed st maxc ops (econ_of n b).
  Proof.
    intros ND A (s & Hs & Ty & Sp & Ec & Bd & l & l' & Hl & Hl' & Lt). assert (Hn := proj1 Hok).
    assert (Sh : con_shape st n (econ_of n b)) by (apply econ_of_shape; auto; intros x Hx; apply A, Hx).
    assert (Op : forall x, In x b -> (leg_op x < n)%nat /\ leg_space x = s) by (intros x Hx; split; [apply A, Hx|apply Sp, Hx]).
    assert (Ct : forall B c, (B < n)%nat -> ec_count (econ_of n b) (B, s, c) = kcount b (B, s, c)) by (intros B c HB; apply (econ_of_count st); auto; apply kinds_in; auto).
    apply (al_gen _ _ _ _ s (ncre true b)); auto.
    - intros B s' HB Hs' Ne. rewrite (proj1 Sh) in HB. assert (X : forall c, ec_count (econ_of n b) (B, s', c) = 0).
      { intros c. rewrite (econ_of_count st) by (auto; apply kinds_in; auto). apply kcount_0. intros x Hx E. rewrite leg_kind_eta in E. injection E as _ E _. apply Ne. rewrite <- E. apply Sp, Hx. }
      split; [apply (X true)|apply (X false)].
    - rewrite <- (total_kcount n s true b) by auto. apply total_ext. intros B HB. apply (Ct B true HB).
    - rewrite Ec, <- (total_kcount n s false b) by auto. apply total_ext. intros B HB. apply (Ct B false HB).
    - intros B HB. change (ec_cre (econ_of n b) B s) with (ec_count (econ_of n b) (B, s, true)). change (ec_ann (econ_of n b) B s) with (ec_count (econ_of n b) (B, s, false)). rewrite !Ct by auto.
      split; [apply (kcount_bound b (B, s, true))|apply (kcount_bound b (B, s, false))]; auto; apply kinds_in; auto.
    - exists (leg_op l), (leg_op l'). split; [split; auto; apply A, Hl'|].
      assert (X : forall x, In x b -> 0 < ec_cre (econ_of n b) (leg_op x) s + ec_ann (econ_of n b) (leg_op x) s).
      { intros x Hx. change (ec_cre (econ_of n b) (leg_op x) s) with (ec_count (econ_of n b) (leg_op x, s, true)). change (ec_ann (econ_of n b) (leg_op x) s) with (ec_count (econ_of n b) (leg_op x, s, false)).
        rewrite !Ct by (apply A, Hx). assert (P := kcount_pos b x Hx). rewrite leg_kind_eta, (Sp x Hx) in P. unfold kcount in *. destruct (leg_cre x); lia. }
      split; apply X; auto.
  Qed.
  Lemma good_allowed b : NoDup b -> (forall l, In l b -> is_leg st ops l) -> good_block b -> allowed st maxc ops (econ_of n b).
  Proof.
    intros ND A [(x & y & P & Po)|G]; [|apply gen_allowed; auto]. rewrite (econ_of_perm n b [x; y]) by auto. apply (pair_allowed st ops Hok), Po.
  Qed.
  (** Conversely, legs that carry out an allowed contraction form such a block. *)
  Lemma allowed_good c b : allowed st maxc ops c -> (forall l, In l b -> is_leg st ops l) -> carries_out st n b c -> good_block b.
  Proof.
    intros Al Hb C. destruct Hok as (Hn & _). assert (Hk : forall l, In l b -> In (fst l) (kinds st n)) by (intros l Hl; apply is_leg_kind, Hb, Hl).
    assert (Sc : con_shape st n c) by (inversion Al; auto).
    assert (Leg : forall x y, Permutation b [x; y] -> is_leg st ops x /\ is_leg st ops y).
    { intros x y P. split; apply Hb; [apply (Permutation_in x (Permutation_sym P))|apply (Permutation_in y (Permutation_sym P))]; simpl; auto. }
    destruct Al as [s l r _ Hs On T Hlr U1 U2 _ _|s l r _ Hs On T Hlr U1 U2 _ _|s k _ Hs On T Hk' T1 T2 Bd (A & B & HAB & PA & PB)].
    - left. destruct (two_legs st ops b (l, s, true) (r, s, false)) as (x & y & P & Ex & Ey); auto; try (apply kinds_in; split; auto; lia); [congruence| |].
      + intros k Ik. unfold kcount. rewrite (C k Ik). destruct k as [[A s'] c']. apply kinds_in in Ik. destruct Ik as (HA & Hs').
        destruct (Z.eq_dec s' s) as [-> |Ns].
        * destruct c'; simpl ec_count; [rewrite U1 by auto|rewrite U2 by auto].
          -- destruct (kind_dec (r, s, false) (A, s, true)); [discriminate|]. destruct (kind_dec (l, s, true) (A, s, true)) as [E|E], (Nat.eq_dec A l); try lia; congruence.
          -- destruct (kind_dec (l, s, true) (A, s, false)); [discriminate|]. destruct (kind_dec (r, s, false) (A, s, false)) as [E|E], (Nat.eq_dec A r); try lia; congruence.
        * rewrite <- (proj1 Sc) in HA. destruct (On A s' HA Hs' Ns) as (Z1 & Z2). destruct (kind_dec (l, s, true) (A, s', c')) as [E|_]; [congruence|]. destruct (kind_dec (r, s, false) (A, s', c')) as [E|_]; [congruence|]. destruct c'; simpl; lia.
      + destruct (Leg x y P) as (Lx & Ly). exists x, y. split; auto. rewrite leg_kind_eta in Ex, Ey. injection Ex as E1 E2 E3. injection Ey as F1 F2 F3. unfold pair_ok. rewrite E1, E2, E3, F1, F2, F3. intuition (auto; lia).
    - left. destruct (two_legs st ops b (l, s, false) (r, s, true)) as (x & y & P & Ex & Ey); auto; try (apply kinds_in; split; auto; lia); [congruence| |].
      + intros k Ik. unfold kcount. rewrite (C k Ik). destruct k as [[A s'] c']. apply kinds_in in Ik. destruct Ik as (HA & Hs').
        destruct (Z.eq_dec s' s) as [-> |Ns].
        * destruct c'; simpl ec_count; [rewrite U2 by auto|rewrite U1 by auto].
          -- destruct (kind_dec (l, s, false) (A, s, true)); [discriminate|]. destruct (kind_dec (r, s, true) (A, s, true)) as [E|E], (Nat.eq_dec A r); try lia; congruence.
          -- destruct (kind_dec (r, s, true) (A, s, false)); [discriminate|]. destruct (kind_dec (l, s, false) (A, s, false)) as [E|E], (Nat.eq_dec A l); try lia; congruence.
        * rewrite <- (proj1 Sc) in HA. destruct (On A s' HA Hs' Ns) as (Z1 & Z2). destruct (kind_dec (l, s, false) (A, s', c')) as [E|_]; [congruence|]. destruct (kind_dec (r, s, true) (A, s', c')) as [E|_]; [congruence|]. destruct c'; simpl; lia.
      + destruct (Leg x y P) as (Lx & Ly). exists x, y. split; auto. rewrite leg_kind_eta in Ex, Ey. injection Ex as E1 E2 E3. injection Ey as F1 F2 F3. unfold pair_ok. rewrite E1, E2, E3, F1, F2, F3. intuition (auto; lia).
    - right. exists s. split; auto. split; auto.
      assert (Sp : forall l, In l b -> leg_space l = s).
      { intros l Hl. destruct (Z.eq_dec (leg_space l) s) as [|Ne]; auto. exfalso. assert (Q := kcount_pos b l Hl). unfold kcount in Q. rewrite (C (fst l) (Hk l Hl)) in Q. rewrite leg_kind_eta in Q.
        destruct (Hb l Hl) as (Ho & Hsp & _). destruct (On (leg_op l) (leg_space l)) as (Z1 & Z2); auto; [rewrite (proj1 Sc); auto|]. destruct (leg_cre l); simpl in Q; lia. }
      split; auto. assert (Op : forall x, In x b -> (leg_op x < n)%nat /\ leg_space x = s) by (intros x Hx; split; [apply Hb, Hx|apply Sp, Hx]).
      assert (K : forall c', total n (fun A => ec_count c (A, s, c')) = ncre c' b).
      { intros c'. rewrite <- (total_kcount n s c' b Op). apply total_ext. intros B' HB'. symmetry. apply C. apply kinds_in; auto. }
      assert (K1 := K true). assert (K2 := K false). simpl in K1, K2. rewrite T1 in K1. rewrite T2 in K2. split; [lia|]. split; [lia|].
      assert (X : forall B', (B' < n)%nat -> 0 < ec_cre c B' s + ec_ann c B' s -> exists x, In x b /\ leg_op x = B').
      { intros B' HB' P. assert (Y : 0 < kcount b (B', s, true) \/ 0 < kcount b (B', s, false)).
        { unfold kcount. rewrite !C by (apply kinds_in; auto). simpl. lia. }
        assert (Q : forall c', 0 < kcount b (B', s, c') -> exists x, In x b /\ leg_op x = B').
        { intros c' H. unfold kcount in H. assert (In (B', s, c') (map fst b)) as W by (apply (count_occ_In kind_dec); lia). apply in_map_iff in W. destruct W as (x & E & Hx). exists x. split; auto. rewrite leg_kind_eta in E. congruence. }
        destruct Y as [Y|Y]; eauto. }
      destruct (X A) as (x & Hx & Ex); [lia|auto|]. destruct (X B) as (y & Hy & Ey); [lia|auto|]. exists x, y. split; auto. split; auto. lia.
  Qed.
  Lemma good_even b : good_block b -> ncre true b = ncre false b.
  Proof.
    intros [(x & y & P & Po)|(s & _ & _ & _ & E & _)]; auto. rewrite !(ncre_perm _ _ _ P). destruct Po as (_ & _ & _ & _ & [(_ & Ex & Ey)|(_ & Ex & Ey)]); unfold ncre; cbn [filter]; rewrite Ex, Ey; reflexivity.
  Qed.
  Lemma allowed_length c b : allowed st maxc ops c -> (forall l, In l b -> is_leg st ops l) -> carries_out st n b c -> ec_num_ops c = Z.of_nat (length b).
  Proof.
    intros Al Hb C. assert (Sc : con_shape st n c) by (inversion Al; auto).
    assert (exists s, is_space st s /\ only_space st c s) as (s & Hs & On) by (inversion Al; eauto).
    rewrite (ec_num_total st n c s) by (auto; apply Hok). 
    assert (Sp : forall l, In l b -> leg_space l = s).
    { intros l Hl. destruct (Z.eq_dec (leg_space l) s) as [|Ne]; auto. exfalso. assert (Q := kcount_pos b l Hl). unfold kcount in Q. rewrite (C (fst l)) in Q by (apply is_leg_kind, Hb, Hl). rewrite leg_kind_eta in Q.
      destruct (Hb l Hl) as (Ho & Hsp & _). destruct (On (leg_op l) (leg_space l)) as (Z1 & Z2); auto; [rewrite (proj1 Sc); auto|]. destruct (leg_cre l); simpl in Q; lia. }
    assert (Op : forall x, In x b -> (leg_op x < n)%nat /\ leg_space x = s) by (intros x Hx; split; [apply Hb, Hx|apply Sp, Hx]).
    rewrite <- ncre_split, <- (total_kcount n s true b Op), <- (total_kcount n s false b Op). f_equal; apply total_ext; intros A HA; symmetry; apply C; apply kinds_in; auto.
  Qed.
End GenBlocks.
