(** Pair contractions of occupied and unoccupied spaces and the contracted legs. *)
From Coq Require Import ZArith List Bool Arith Lia Permutation.
From Verif Require Import Res RegistryModel CoreModel OperatorModel OperatorSpec OperatorProofs WickSearchModel WickSearchSpec CountSpec CountProofs WickCombSpec WickCombProofs WickElemProofs WickLegSpec WickLegProofs.
Import ListNotations.
Local Open Scope Z_scope.

(** The numbers of legs of each kind in a list of legs, as a contraction. *)
Definition kcount (b : list leg) (k : leg_kind) : Z := Z.of_nat (count_occ kind_dec (map fst b) k).
Definition econ_of (n : nat) (b : list leg) : econ :=
  map (fun A => map (fun s => (kcount b (A, Z.of_nat s, true), kcount b (A, Z.of_nat s, false))) (seq 0 max_spaces)) (seq 0 n).
Definition no_general (st : osi) : Prop := forall s, is_space st s -> stype st s = Some Occupied \/ stype st s = Some Unoccupied.
Definition is_leg (st : osi) (ops : oprod) (l : leg) : Prop := (leg_op l < length ops)%nat /\ is_space st (leg_space l) /\ 0 <= snd l < leg_count ops (fst l).
(** [x] and [y] may be contracted, [x] standing to the left. *)
Definition pair_ok (st : osi) (ops : oprod) (x y : leg) : Prop :=
  is_leg st ops x /\ is_leg st ops y /\ leg_space x = leg_space y /\ (leg_op x < leg_op y)%nat /\
  ((stype st (leg_space x) = Some Occupied /\ leg_cre x = true /\ leg_cre y = false) \/
   (stype st (leg_space x) = Some Unoccupied /\ leg_cre x = false /\ leg_cre y = true)).

Section Econ.
  Variables (st : osi) (n : nat).
  Hypothesis Hn : (nsp st <= max_spaces)%nat.
  Lemma space_nat s : is_space st s -> exists i, s = Z.of_nat i /\ (i < nsp st)%nat.
  Proof. intros (H0 & H1). exists (Z.to_nat s). unfold num_spaces, nsp in *. split; lia. Qed.
  Lemma econ_of_nth b A : (A < n)%nat -> nth A (econ_of n b) gm_zero = map (fun s => (kcount b (A, Z.of_nat s, true), kcount b (A, Z.of_nat s, false))) (seq 0 max_spaces).
  Proof.
    intros HA. unfold econ_of. set (f := fun A => _). rewrite (nth_indep _ gm_zero (f 0%nat)) by (rewrite map_length, seq_length; lia).
    rewrite map_nth, seq_nth by lia. reflexivity.
  Qed.
  Lemma econ_nthp b A i : (i < max_spaces)%nat -> nthp (map (fun s => (kcount b (A, Z.of_nat s, true), kcount b (A, Z.of_nat s, false))) (seq 0 max_spaces)) i = (kcount b (A, Z.of_nat i, true), kcount b (A, Z.of_nat i, false)).
  Proof.
    intros Hi. apply nthp_of. rewrite nth_error_map. rewrite (nth_error_nth' _ 0%nat) by (rewrite seq_length; lia). rewrite seq_nth by lia. reflexivity.
  Qed.
  Lemma econ_of_count b k : In k (kinds st n) -> ec_count (econ_of n b) k = kcount b k.
  Proof.
    destruct k as [[A s] c]. intros Hk. apply kinds_in in Hk. destruct Hk as (HA & Hs). destruct (space_nat s Hs) as (i & -> & Hi).
    unfold ec_count, ec_cre, ec_ann. rewrite econ_of_nth by auto. rewrite cre_of_nat, ann_of_nat, econ_nthp by lia. destruct c; reflexivity.
  Qed.
  Lemma econ_of_carries b : carries_out st n b (econ_of n b).
  Proof. intros k Hk. rewrite econ_of_count by auto. reflexivity. Qed.
  Lemma kcount_0 b k : (forall l, In l b -> fst l <> k) -> kcount b k = 0.
  Proof.
    intros H. unfold kcount. change 0 with (Z.of_nat 0). f_equal. apply count_occ_not_In. intros Hk. apply in_map_iff in Hk. destruct Hk as (l & E & Hl). exact (H l Hl E).
  Qed.
  Lemma econ_of_shape b : (forall l, In l b -> is_space st (leg_space l)) -> con_shape st n (econ_of n b).
  Proof.
    intros Hb. split; [unfold econ_of; rewrite map_length, seq_length; auto|]. apply Forall_forall. intros g Hg. apply in_map_iff in Hg. destruct Hg as (A & <- & _).
    split; [rewrite map_length, seq_length; reflexivity|]. intros i Hi. rewrite nth_error_map. rewrite (nth_error_nth' _ 0%nat) by (rewrite seq_length; lia). rewrite seq_nth by lia.
    cbn [option_map]. f_equal. assert (X : forall c, kcount b (A, Z.of_nat i, c) = 0).
    { intros c. apply kcount_0. intros l Hl E. specialize (Hb l Hl). unfold leg_space in Hb. rewrite E in Hb. simpl in Hb. unfold is_space, num_spaces in Hb. change (length (space_info st)) with (nsp st) in Hb. lia. }
    rewrite Nat.add_0_l, !X. reflexivity.
  Qed.
  (** A contraction of the right shape is determined by any set of legs that carries it out. *)
  Lemma carries_econ b c : con_shape st n c -> (forall l, In l b -> is_space st (leg_space l)) -> carries_out st n b c <-> c = econ_of n b.
  Proof.
    intros Sc Hb. split.
    - intros H. apply (con_ext st n); auto; [apply econ_of_shape; auto|]. intros k Hk. rewrite econ_of_count by auto. symmetry. apply H, Hk.
    - intros ->. apply econ_of_carries.
  Qed.
  Lemma kcount_perm b b' k : Permutation b b' -> kcount b k = kcount b' k.
  Proof. intros P. unfold kcount. f_equal. apply Permutation_count_occ. apply Permutation_map, P. Qed.
  Lemma econ_of_perm b b' : Permutation b b' -> econ_of n b = econ_of n b'.
  Proof. intros P. unfold econ_of. apply map_ext. intros A. apply map_ext. intros s. rewrite !(kcount_perm b b') by auto. reflexivity. Qed.
  Lemma econ_of_kinds b b' : map fst b = map fst b' -> econ_of n b = econ_of n b'.
  Proof. intros E. unfold econ_of, kcount. rewrite E. reflexivity. Qed.
End Econ.

Lemma kcount_pair x y k : kcount [x; y] k = (if kind_dec (fst x) k then 1 else 0) + (if kind_dec (fst y) k then 1 else 0).
Proof. unfold kcount. cbn [map count_occ]. destruct (kind_dec (fst x) k), (kind_dec (fst y) k); reflexivity. Qed.
Lemma leg_kind_eta l : fst l = (leg_op l, leg_space l, leg_cre l).
Proof. destruct l as [[[A s] b] i]. reflexivity. Qed.
Lemma is_leg_kind st ops l : is_leg st ops l -> In (fst l) (kinds st (length ops)).
Proof. intros (H1 & H2 & _). rewrite leg_kind_eta. apply kinds_in. auto. Qed.

Section Pairs.
  Variables (st : osi) (ops : oprod).
  Hypothesis Hok : ops_ok st ops.
  Hypothesis Hg : no_general st.
  Notation n := (length ops).
  Lemma pair_allowed maxc x y : pair_ok st ops x y -> allowed st maxc ops (econ_of n [x; y]).
  Proof.
    intros (Lx & Ly & Es & Ho & C). assert (Lx' := Lx). assert (Ly' := Ly). destruct Lx as (Ox & Sx & Ix), Ly as (Oy & Sy & Iy). destruct Hok as (Hn & _).
    assert (Sh : con_shape st n (econ_of n [x; y])). { apply econ_of_shape; auto. intros l [<-|[<-|[]]]; auto. }
    rewrite leg_kind_eta in Ix, Iy. assert (Lc := proj1 Sh).
    assert (On : only_space st (econ_of n [x; y]) (leg_space x)).
    { intros A s' HA Hs' Ne. rewrite Lc in HA. assert (X : forall c, kcount [x; y] (A, s', c) = 0).
      { intros c. apply kcount_0. intros l [<-|[<-|[]]] E; rewrite leg_kind_eta in E; injection E as E1 E2 E3; congruence. }
      split; [change (ec_count (econ_of n [x; y]) (A, s', true) = 0)|change (ec_count (econ_of n [x; y]) (A, s', false) = 0)]; rewrite (econ_of_count st) by (auto; apply kinds_in; auto); apply X. }
    assert (U : forall c z w, leg_cre z = c -> leg_cre w = negb c -> leg_space z = leg_space x -> (forall k, kcount [x; y] k = kcount [z; w] k) -> unit_at n (fun A => ec_count (econ_of n [x; y]) (A, leg_space x, c)) (leg_op z)).
    { intros c z w Ez Ew Esz K A HA. rewrite (econ_of_count st) by (auto; apply kinds_in; auto). rewrite K, kcount_pair, (leg_kind_eta z), (leg_kind_eta w), Ez, Ew, Esz.
      destruct (kind_dec (leg_op w, leg_space w, negb c) (A, leg_space x, c)) as [E|_]; [injection E as _ _ E; destruct c; discriminate|].
      destruct (kind_dec (leg_op z, leg_space x, c) (A, leg_space x, c)) as [E|E], (Nat.eq_dec A (leg_op z)) as [E'|E']; auto.
      - injection E as E. congruence.
      - subst. congruence. }
    assert (Sw : forall k, kcount [x; y] k = kcount [y; x] k) by (intros k; apply kcount_perm, perm_swap).
    destruct C as [(T & Cx & Cy)|(T & Cx & Cy)].
    - apply (al_occ _ _ _ _ (leg_space x) (leg_op x) (leg_op y)); auto.
      + apply (U true x y); auto.
      + apply (U false y x); auto.
      + rewrite Cx in Ix. simpl in Ix. lia.
      + rewrite Cy, <- Es in Iy. simpl in Iy. lia.
    - apply (al_unocc _ _ _ _ (leg_space x) (leg_op x) (leg_op y)); auto.
      + apply (U false x y); auto.
      + apply (U true y x); auto.
      + rewrite Cx in Ix. simpl in Ix. lia.
      + rewrite Cy, <- Es in Iy. simpl in Iy. lia.
  Qed.
  Lemma two_legs b k1 k2 : k1 <> k2 -> (forall l, In l b -> In (fst l) (kinds st n)) -> (forall k, In k (kinds st n) -> kcount b k = (if kind_dec k1 k then 1 else 0) + (if kind_dec k2 k then 1 else 0)) ->
    In k1 (kinds st n) -> In k2 (kinds st n) -> exists x y, Permutation b [x; y] /\ fst x = k1 /\ fst y = k2.
  Proof.
    intros Ne Hb H I1 I2.
    assert (G : forall b k, kcount b k > 0 -> exists l b', Permutation b (l :: b') /\ fst l = k).
    { intros b0 k Hk. unfold kcount in Hk. assert (In k (map fst b0)) as X by (apply (count_occ_In kind_dec); lia). apply in_map_iff in X. destruct X as (l & E & Hl). apply in_split in Hl. destruct Hl as (u & v & ->).
      exists l, (u ++ v). split; auto. symmetry. apply Permutation_middle. }
    assert (Kc : forall l b0 k, kcount (l :: b0) k = (if kind_dec (fst l) k then 1 else 0) + kcount b0 k).
    { intros l b0 k. unfold kcount. cbn [map count_occ]. destruct (kind_dec (fst l) k); lia. }
    destruct (G b k1) as (x & b1 & P1 & E1). { rewrite H by auto. destruct (kind_dec k1 k1); [|congruence]. destruct (kind_dec k2 k1); lia. }
    assert (H1 : forall k, In k (kinds st n) -> kcount b1 k = if kind_dec k2 k then 1 else 0).
    { intros k Hk. specialize (H k Hk). rewrite (kcount_perm b (x :: b1)) in H by auto. rewrite Kc, E1 in H. lia. }
    destruct (G b1 k2) as (y & b2 & P2 & E2). { rewrite H1 by auto. destruct (kind_dec k2 k2); [lia|congruence]. }
    assert (H2 : forall k, In k (kinds st n) -> kcount b2 k = 0).
    { intros k Hk. specialize (H1 k Hk). rewrite (kcount_perm b1 (y :: b2)) in H1 by auto. rewrite Kc, E2 in H1. lia. }
    assert (P : Permutation b (x :: y :: b2)) by (rewrite P1, P2; auto).
    destruct b2 as [|z b2].
    - exists x, y. auto.
    - exfalso. assert (Iz : In (fst z) (kinds st n)) by (apply Hb; apply (Permutation_in z (Permutation_sym P)); simpl; auto). specialize (H2 _ Iz). rewrite Kc in H2. destruct (kind_dec (fst z) (fst z)); [|congruence]. unfold kcount in H2. lia.
  Qed.
  Lemma allowed_pair maxc c b : allowed st maxc ops c -> (forall l, In l b -> is_leg st ops l) -> carries_out st n b c ->
    exists x y, Permutation b [x; y] /\ pair_ok st ops x y /\ c = econ_of n [x; y].
  Proof.
    intros Al Hb C. destruct Hok as (Hn & _). assert (Hk : forall l, In l b -> In (fst l) (kinds st n)) by (intros l Hl; apply is_leg_kind, Hb, Hl).
    assert (Sc : con_shape st n c) by (inversion Al; auto).
    assert (Hsp : forall l, In l b -> is_space st (leg_space l)) by (intros l Hl; apply Hb, Hl).
    assert (Ec : c = econ_of n b) by (apply (carries_econ st); auto).
    assert (Fin : forall x y, Permutation b [x; y] -> is_leg st ops x /\ is_leg st ops y /\ c = econ_of n [x; y]).
    { intros x y P. split; [apply Hb, (Permutation_in x (Permutation_sym P)); simpl; auto|]. split; [apply Hb, (Permutation_in y (Permutation_sym P)); simpl; auto|]. rewrite Ec. apply econ_of_perm, P. }
    destruct Al as [s l r _ Hs On T Hlr U1 U2 _ _|s l r _ Hs On T Hlr U1 U2 _ _|s k _ Hs _ T _ _ _ _ _].
    - destruct (two_legs b (l, s, true) (r, s, false)) as (x & y & P & Ex & Ey); auto; try (apply kinds_in; split; auto; lia); [congruence| |].
      + intros k Ik. unfold kcount. rewrite (C k Ik). destruct k as [[A s'] c']. apply kinds_in in Ik. destruct Ik as (HA & Hs').
        destruct (Z.eq_dec s' s) as [-> |Ns].
        * destruct c'; simpl ec_count; [rewrite U1 by auto|rewrite U2 by auto].
          -- destruct (kind_dec (r, s, false) (A, s, true)); [discriminate|]. destruct (kind_dec (l, s, true) (A, s, true)) as [E|E], (Nat.eq_dec A l); try lia; congruence.
          -- destruct (kind_dec (l, s, true) (A, s, false)); [discriminate|]. destruct (kind_dec (r, s, false) (A, s, false)) as [E|E], (Nat.eq_dec A r); try lia; congruence.
        * rewrite <- (proj1 Sc) in HA. destruct (On A s' HA Hs' Ns) as (Z1 & Z2). destruct (kind_dec (l, s, true) (A, s', c')) as [E|_]; [congruence|]. destruct (kind_dec (r, s, false) (A, s', c')) as [E|_]; [congruence|]. destruct c'; simpl; lia.
      + destruct (Fin x y P) as (Lx & Ly & E). exists x, y. split; auto. split; auto. rewrite leg_kind_eta in Ex, Ey. injection Ex as E1 E2 E3. injection Ey as F1 F2 F3. unfold pair_ok. rewrite E1, E2, E3, F1, F2, F3. intuition (auto; lia).
    - destruct (two_legs b (l, s, false) (r, s, true)) as (x & y & P & Ex & Ey); auto; try (apply kinds_in; split; auto; lia); [congruence| |].
      + intros k Ik. unfold kcount. rewrite (C k Ik). destruct k as [[A s'] c']. apply kinds_in in Ik. destruct Ik as (HA & Hs').
        destruct (Z.eq_dec s' s) as [-> |Ns].
        * destruct c'; simpl ec_count; [rewrite U2 by auto|rewrite U1 by auto].
          -- destruct (kind_dec (l, s, false) (A, s, true)); [discriminate|]. destruct (kind_dec (r, s, true) (A, s, true)) as [E|E], (Nat.eq_dec A r); try lia; congruence.
          -- destruct (kind_dec (r, s, true) (A, s, false)); [discriminate|]. destruct (kind_dec (l, s, false) (A, s, false)) as [E|E], (Nat.eq_dec A l); try lia; congruence.
        * rewrite <- (proj1 Sc) in HA. destruct (On A s' HA Hs' Ns) as (Z1 & Z2). destruct (kind_dec (l, s, false) (A, s', c')) as [E|_]; [congruence|]. destruct (kind_dec (r, s, true) (A, s', c')) as [E|_]; [congruence|]. destruct c'; simpl; lia.
      + destruct (Fin x y P) as (Lx & Ly & E). exists x, y. split; auto. split; auto. rewrite leg_kind_eta in Ex, Ey. injection Ex as E1 E2 E3. injection Ey as F1 F2 F3. unfold pair_ok. rewrite E1, E2, E3, F1, F2, F3. intuition (auto; lia).
    - exfalso. destruct (Hg s Hs); congruence.
  Qed.
End Pairs.
