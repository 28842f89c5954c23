(** The graph canonicalization rearranges the operators: signs, contracted pairs. *)
From Coq Require Import ZArith List Bool Arith Lia Permutation.
From Verif Require Import Res RegistryModel CoreModel AdjointModel OperatorModel OperatorSpec OperatorProofs SortSpec SortProofs WickSearchModel WickSearchSpec CountSpec CountProofs WickCombSpec WickCombProofs WickElemProofs WickElemProofs2 WickCompProofs WickSearchProofs WickEvalModel WickGraphSpec WickGraphProofs WickGraphProofs2 WickLegSpec WickLegProofs WickLegProofs3 WickLegProofs6 WickPairProofs WickPairProofs2 WickPairProofs3 WickPairProofs4.
Import ListNotations.
Local Open Scope Z_scope.

(** ** Exchanging blocks *)
Definition sg (b : bool) : Z := if b then -1 else 1.
Lemma sg_xor a b : sg (xorb a b) = sg a * sg b. Proof. destruct a, b; reflexivity. Qed.
Lemma swap_one {X} (x : X) v : sperm (x :: v) (sg (Nat.odd (length v))) (v ++ [x]).
Proof.
  induction v as [|y v IH]; [apply sp_refl|]. cbn [length app]. rewrite Nat.odd_succ, <- Nat.negb_odd. replace (sg (negb (Nat.odd (length v)))) with (- sg (Nat.odd (length v))) by (destruct (Nat.odd (length v)); reflexivity).
  apply (sp_swap [] x y v). cbn [app]. apply sperm_cons. exact IH.
Qed.
Lemma swap_blocks {X} (u v : list X) : sperm (u ++ v) (sg (Nat.odd (length u) && Nat.odd (length v))) (v ++ u).
Proof.
  induction u as [|x u IH]; [rewrite app_nil_r; apply sp_refl|]. cbn [length app]. rewrite Nat.odd_succ, <- Nat.negb_odd.
  replace (sg (negb (Nat.odd (length u)) && Nat.odd (length v))) with (sg (Nat.odd (length u) && Nat.odd (length v)) * sg (Nat.odd (length v))) by (destruct (Nat.odd (length u)), (Nat.odd (length v)); reflexivity).
  eapply (sperm_trans (x :: u ++ v)); [apply sperm_cons, IH|]. assert (S := sperm_prefix _ _ u _ (swap_one x v)). rewrite <- app_assoc in S. exact S.
Qed.

Section Exch.
  Variable odd : nat -> bool.
  Notation ex := (exchange_sign odd).
  Definition crossing (x : nat) (l : list nat) : Z := fold_right (fun y s => pair_sign odd x y * s) 1 l.
  Lemma crossing_app x l l' : crossing x (l ++ l') = crossing x l * crossing x l'.
  Proof. induction l as [|y l IH]; [cbn [app]; unfold crossing at 2; cbn [fold_right]; ring|]. cbn [app]. unfold crossing in *. cbn [fold_right]. rewrite IH. ring. Qed.
  Lemma pm_pair x y : pair_sign odd x y = 1 \/ pair_sign odd x y = -1.
  Proof. unfold pair_sign. destruct (_ && _); auto. Qed.
  Lemma crossing_sq x l : crossing x l * crossing x l = 1.
  Proof. induction l as [|y l IH]; auto. unfold crossing in *. cbn [fold_right]. destruct (pm_pair x y) as [-> | ->]; lia. Qed.
  Lemma ex_cons x l : ex (x :: l) = crossing x l * ex l. Proof. reflexivity. Qed.
  Lemma ex_sq l : ex l * ex l = 1.
  Proof. induction l as [|x l IH]; auto. rewrite ex_cons. replace (crossing x l * ex l * (crossing x l * ex l)) with (crossing x l * crossing x l * (ex l * ex l)) by ring. rewrite crossing_sq, IH. reflexivity. Qed.
  Lemma ex_swap l1 x y l2 : x <> y -> ex (l1 ++ x :: y :: l2) = sg (odd x && odd y) * ex (l1 ++ y :: x :: l2).
  Proof.
    intros Ne. induction l1 as [|z l1 IH]; cbn [app].
    - rewrite !ex_cons. unfold crossing. cbn [fold_right]. fold (crossing x l2) (crossing y l2). unfold pair_sign. destruct (Nat.ltb_spec y x), (Nat.ltb_spec x y); try lia; destruct (odd x), (odd y); cbn [andb sg]; ring.
    - rewrite !ex_cons, IH, !crossing_app. unfold crossing at 2 4. cbn [fold_right]. ring.
  Qed.
  Lemma ex_seq m : forall k, ex (seq k m) = 1.
  Proof.
    induction m as [|m IH]; intros k; auto. cbn [seq]. rewrite ex_cons, IH. assert (X : forall l, (forall y, In y l -> (k < y)%nat) -> crossing k l = 1).
    { induction l as [|y l IHl]; intros H; auto. unfold crossing in *. cbn [fold_right]. rewrite IHl by (intros; apply H; right; auto). unfold pair_sign. assert (k < y)%nat by (apply H; left; auto). destruct (Nat.ltb_spec y k); [lia|]. reflexivity. }
    rewrite X; auto. intros y Hy. apply in_seq in Hy. lia.
  Qed.
  Lemma flat_exchange {X} (B : nat -> list X) p s l : (forall A, In A p -> Nat.odd (length (B A)) = odd A) -> NoDup p -> sperm p s l -> sperm (flat_map B p) (ex p * ex l) (flat_map B l).
  Proof.
    intros Ho ND H. induction H as [l|l1 x y l2 s l H IH]; [rewrite ex_sq; apply sp_refl|].
    assert (P : Permutation (l1 ++ x :: y :: l2) (l1 ++ y :: x :: l2)) by (apply Permutation_app_head, perm_swap).
    assert (Ne : x <> y). { destruct (nodup_app_inv _ _ ND) as (_ & ND2 & _). intros ->. apply NoDup_cons_iff in ND2. destruct ND2 as (N & _). apply N. left; auto. }
    rewrite (ex_swap l1 x y l2 Ne). replace (sg (odd x && odd y) * ex (l1 ++ y :: x :: l2) * ex l) with (sg (odd x && odd y) * (ex (l1 ++ y :: x :: l2) * ex l)) by ring.
    eapply sperm_trans; [|apply IH; [intros A HA; apply Ho, (Permutation_in A (Permutation_sym P)), HA|apply (Permutation_NoDup P ND)]].
    rewrite !flat_map_app. cbn [flat_map]. apply sperm_suffix. rewrite !app_assoc. apply sperm_prefix. rewrite <- (Ho x), <- (Ho y) by (apply in_or_app; right; simpl; auto). apply swap_blocks.
  Qed.
End Exch.

(** ** Renumbered legs *)
Definition ren (p : list nat) (l : leg) : leg := ((nth (leg_op l) p O, leg_space l, leg_cre l), snd l).
Definition ren2 (p : list nat) (x : leg * leg) : leg * leg := (ren p (fst x), ren p (snd x)).
Lemma ren_op p l : leg_op (ren p l) = nth (leg_op l) p O. Proof. reflexivity. Qed.
Lemma ren_space p l : leg_space (ren p l) = leg_space l. Proof. reflexivity. Qed.
Lemma ren_cre p l : leg_cre (ren p l) = leg_cre l. Proof. reflexivity. Qed.
Lemma leg_eta (l : leg) : l = ((leg_op l, leg_space l, leg_cre l), snd l). Proof. destruct l as [[[A s] b] i]. reflexivity. Qed.

Section Ren.
  Variables (st : osi) (ops : oprod) (p : list nat).
  Hypothesis Hok : ops_ok st ops.
  Notation n := (length ops).
  Hypothesis HP : rearrangement n p.
  Notation ops' := (pick_ops ops p).
  Notation rho := (ren p).
  Notation Ln := (rearr_length _ _ HP).
  Lemma len' : length ops' = n. Proof. apply pick_ops_length, HP. Qed.
  Lemma rearr_inj i j : (i < n)%nat -> (j < n)%nat -> nth i p O = nth j p O -> i = j.
  Proof. intros Hi Hj E. apply (proj1 (NoDup_nth p O) (rearr_nodup _ _ HP)) in E; auto; rewrite Ln; auto. Qed.
  Lemma ren_inj l l' : (leg_op l < n)%nat -> (leg_op l' < n)%nat -> rho l = rho l' -> l = l'.
  Proof. intros H H' E. rewrite (leg_eta l), (leg_eta l'). unfold ren in E. injection E as E1 E2 E3 E4. apply rearr_inj in E1; auto. congruence. Qed.
  Lemma ren_count i s b : (i < n)%nat -> leg_count ops' (i, s, b) = leg_count ops (nth i p O, s, b).
  Proof. intros Hi. unfold leg_count, ops_cre, ops_ann. rewrite (pick_op ops p HP) by auto. reflexivity. Qed.
  Lemma ren_leg l : (leg_op l < n)%nat -> is_leg st ops' l <-> is_leg st ops (rho l).
  Proof.
    intros Hl. unfold is_leg. rewrite len', ren_op, ren_space. change (snd (rho l)) with (snd l). change (fst (rho l)) with (nth (leg_op l) p O, leg_space l, leg_cre l).
    rewrite <- ren_count by auto. rewrite (leg_kind_eta l). assert (nth (leg_op l) p O < n)%nat by (apply rearr_nth_lt; auto). tauto.
  Qed.
  (** Every leg of [ops] is the image of one of [ops']. *)
  Lemma ren_onto x : (leg_op x < n)%nat -> exists l, (leg_op l < n)%nat /\ rho l = x.
  Proof.
    intros Hx. destruct (rearr_pos n p (leg_op x) HP Hx) as (i & Hi & _ & E). exists ((i, leg_space x, leg_cre x), snd x). split; auto. unfold ren. cbn [leg_op leg_space leg_cre fst snd]. rewrite E. symmetry. apply leg_eta.
  Qed.

  Definition opb (ops : oprod) (A : nat) : list leg := op_cre_legs st ops A ++ rev (op_ann_legs st ops A).
  Lemma ren_flat {X Y Z'} (f : Y -> Z') (g : X -> list Y) (h : X -> list Z') l : (forall x, map f (g x) = h x) -> map f (flat_map g l) = flat_map h l.
  Proof. intros H. induction l as [|x l IH]; auto. cbn [flat_map]. rewrite map_app, H, IH. reflexivity. Qed.
  Lemma ren_cre_legs i : (i < n)%nat -> map rho (op_cre_legs st ops' i) = op_cre_legs st ops (nth i p O).
  Proof.
    intros Hi. unfold op_cre_legs. apply ren_flat. intros s. rewrite map_map. unfold ops_cre. rewrite (pick_op ops p HP) by auto. reflexivity.
  Qed.
  Lemma ren_ann_legs i : (i < n)%nat -> map rho (op_ann_legs st ops' i) = op_ann_legs st ops (nth i p O).
  Proof.
    intros Hi. unfold op_ann_legs. apply ren_flat. intros s. rewrite map_map. unfold ops_ann. rewrite (pick_op ops p HP) by auto. reflexivity.
  Qed.
  Lemma ren_block i : (i < n)%nat -> map rho (opb ops' i) = opb ops (nth i p O).
  Proof. intros Hi. unfold opb. rewrite map_app, map_rev, ren_cre_legs, ren_ann_legs by auto. reflexivity. Qed.
  Lemma ren_legs : map rho (product_legs st ops') = flat_map (opb ops) p.
  Proof.
    unfold product_legs. rewrite len'. rewrite <- (seq_nth_id p O) at 2. rewrite Ln.
    assert (X : forall l, (forall i, In i l -> (i < n)%nat) -> map rho (flat_map (fun A => op_cre_legs st ops' A ++ rev (op_ann_legs st ops' A)) l) = flat_map (opb ops) (map (fun i => nth i p O) l)).
    { induction l as [|i l IH]; intros H; auto. cbn [flat_map map]. rewrite map_app, IH by (intros; apply H; right; auto). f_equal. apply ren_block, H. left; auto. }
    apply X. intros i Hi. apply in_seq in Hi. lia.
  Qed.
  Lemma z_odd m : Z.odd (Z.of_nat m) = Nat.odd m.
  Proof. induction m as [|m IH]; auto. rewrite Nat2Z.inj_succ, Z.odd_succ, Nat.odd_succ, <- Z.negb_odd, <- Nat.negb_odd, IH. reflexivity. Qed.
  Lemma flat_len {X Y Z'} (f : X -> list Y) (g : X -> list Z') l : (forall x, length (f x) = length (g x)) -> length (flat_map f l) = length (flat_map g l).
  Proof. intros H. induction l as [|x l IH]; auto. cbn [flat_map]. rewrite !app_length, H, IH. reflexivity. Qed.
  Lemma block_odd A : (A < n)%nat -> Nat.odd (length (opb ops A)) = odd_op ops A.
  Proof.
    intros HA. unfold odd_op. assert (X := legs_rank st [nth A ops (mkOp [] gm_zero)]). unfold ops_rank in X. cbn [fold_left] in X.
    assert (E : length (product_legs st [nth A ops (mkOp [] gm_zero)]) = length (opb ops A)).
    { unfold product_legs. cbn [length seq flat_map]. rewrite app_nil_r. unfold opb. rewrite !app_length, !rev_length. unfold op_cre_legs, op_ann_legs, ops_cre, ops_ann. cbn [nth].
      f_equal; apply flat_len; intros s; rewrite !map_length; reflexivity. }
    rewrite E in X. rewrite <- (Z.add_0_l (op_num _)), <- X.
    - symmetry. apply z_odd.
    - destruct Hok as (H1 & H2). split; auto. constructor; [|constructor]. rewrite Forall_forall in H2. apply H2, nth_In, HA.
  Qed.
  Lemma ren_sperm : sperm (map rho (product_legs st ops')) (exchange_sign (odd_op ops) p) (product_legs st ops).
  Proof.
    rewrite ren_legs. destruct (perm_sperm p (seq 0 n) (Permutation_sym HP)) as (s & S).
    assert (X := flat_exchange (odd_op ops) (opb ops) p s (seq 0 n)). rewrite ex_seq, Z.mul_1_r in X. apply X; auto.
    - intros A HA. apply block_odd. apply (rearr_in _ _ _ HP), HA.
    - apply (rearr_nodup _ _ HP).
  Qed.

  (** ** Pairs *)
  Lemma ren_kcount b i s c : (i < n)%nat -> (forall l, In l b -> (leg_op l < n)%nat) -> kcount (map rho b) (nth i p O, s, c) = kcount b (i, s, c).
  Proof.
    intros Hi Hb. unfold kcount. f_equal. induction b as [|l b IH]; auto. cbn [map count_occ]. rewrite IH by (intros; apply Hb; right; auto). rewrite (leg_kind_eta l).
    destruct (kind_dec (fst (rho l)) (nth i p O, s, c)) as [E|E], (kind_dec (leg_op l, leg_space l, leg_cre l) (i, s, c)) as [E'|E']; auto; exfalso.
    - unfold ren in E. cbn [fst] in E. injection E as E1 E2 E3. apply rearr_inj in E1; auto; [congruence|]. apply Hb. left; auto.
    - injection E' as E1 E2 E3. apply E. unfold ren. cbn [fst]. congruence.
  Qed.
  Lemma pick_econ b : (forall l, In l b -> (leg_op l < n)%nat /\ is_space st (leg_space l)) -> pick_con p (econ_of n (map rho b)) = econ_of n b.
  Proof.
    intros Hb. assert (Hn := proj1 Hok). apply (con_ext st n).
    - apply (pick_shape st ops p HP). apply econ_of_shape; auto. intros l Hl. apply in_map_iff in Hl. destruct Hl as (l0 & <- & H0). apply (Hb l0 H0).
    - apply econ_of_shape; [exact Hn|]. intros l Hl. apply (Hb l Hl).
    - exact Hn.
    - intros [[i s] c] Hk. assert (Hk' := Hk). apply kinds_in in Hk'. destruct Hk' as (Hi & Hs). rewrite (pick_count ops p HP _ i s c) by auto. rewrite !(econ_of_count st) by (auto; apply kinds_in; split; auto; apply rearr_nth_lt; auto).
      apply ren_kcount; auto. intros l Hl. apply (Hb l Hl).
  Qed.
  Lemma pick_inj c d : length c = n -> length d = n -> pick_con p c = pick_con p d -> c = d.
  Proof.
    intros Lc Ld E. apply (nth_ext c d gm_zero gm_zero); [congruence|]. intros A HA. rewrite Lc in HA. destruct (rearr_pos n p A HP HA) as (i & Hi & _ & Ei).
    rewrite <- Ei, <- !(pick_nth ops p HP) by auto. rewrite E. reflexivity.
  Qed.

  Variable cs : list econ.
  Hypothesis HJ : keeps_joined_order st cs p.
  Hypothesis H2 : forall c, In c cs -> ec_num_ops c = 2.
  Lemma pair_joined x y : pair_ok st ops x y \/ pair_ok st ops y x -> In (econ_of n [x; y]) cs -> joined st cs (leg_op x) (leg_op y).
  Proof.
    assert (G : forall x y, pair_ok st ops x y -> In (econ_of n [x; y]) cs -> joined st cs (leg_op x) (leg_op y) /\ joined st cs (leg_op y) (leg_op x)).
    { clear x y. intros x y H I. assert (E2 := H2 _ I).
      destruct H as (Lx & Ly & Es & Ho & C). assert (Kx := is_leg_kind _ _ _ Lx). assert (Ky := is_leg_kind _ _ _ Ly).
      assert (G : forall k, In k (kinds st n) -> In k [fst x; fst y] -> 0 < ec_count (econ_of n [x; y]) k).
      { intros k Hk Hin. rewrite (econ_of_count st) by (auto; apply Hok). rewrite kcount_pair. destruct Hin as [<-|[<-|[]]]; [destruct (kind_dec (fst x) (fst x)); [|congruence]; destruct (kind_dec (fst y) (fst x)); lia|destruct (kind_dec (fst y) (fst y)); [|congruence]; destruct (kind_dec (fst x) (fst y)); lia]. }
      assert (Gx := G _ Kx (or_introl eq_refl)). assert (Gy := G _ Ky (or_intror (or_introl eq_refl))). rewrite leg_kind_eta in Gx, Gy. rewrite <- Es in Gy.
      assert (Sx : is_space st (leg_space x)) by apply Lx.
      split; exists (econ_of n [x; y]), (leg_space x); (split; [exact I|]; split; [exact Sx|]; split; [exact E2|]); destruct C as [(_ & Cx & Cy)|(_ & Cx & Cy)]; rewrite Cx in Gx; rewrite Cy in Gy; cbn [ec_count] in Gx, Gy; [left|right|right|left]; nia. }
    intros [H|H] I; [apply (G x y H I)|]. apply (G y x H). rewrite (econ_of_perm n [y; x] [x; y]); auto. apply perm_swap.
  Qed.
  Lemma ren_pair_fwd x y : pair_ok st ops' x y -> In (econ_of n [rho x; rho y]) cs -> pair_ok st ops (rho x) (rho y).
  Proof.
    intros (Lx & Ly & Es & Ho & C) I. assert (Ox : (leg_op x < n)%nat) by (rewrite <- len'; apply Lx). assert (Oy : (leg_op y < n)%nat) by (rewrite <- len'; apply Ly).
    apply ren_leg in Lx, Ly; auto. 
    assert (D : pair_ok st ops (rho x) (rho y) \/ pair_ok st ops (rho x) (rho y) \/ (leg_op (rho y) < leg_op (rho x))%nat).
    { destruct (Nat.lt_trichotomy (leg_op (rho x)) (leg_op (rho y))) as [L|[E|L]]; auto.
      - left. repeat split; auto; apply Lx || apply Ly.
      - exfalso. rewrite !ren_op in E. apply rearr_inj in E; auto. lia. }
    destruct D as [D|[D|L]]; auto. exfalso. apply (HJ (leg_op (rho x)) (leg_op (rho y))); auto.
    - exists (leg_op x), (leg_op y). rewrite !ren_op. repeat split; auto; apply nth_error_nth'; rewrite Ln; auto.
    - assert (E2 : ec_num_ops (econ_of n [rho x; rho y]) = 2 /\ 0 < ec_count (econ_of n [rho x; rho y]) (fst (rho x)) /\ 0 < ec_count (econ_of n [rho x; rho y]) (fst (rho y))).
      { split; [apply H2, I|].
        split; rewrite (econ_of_count st) by (try apply Hok; apply is_leg_kind; auto); rewrite kcount_pair; [destruct (kind_dec (fst (rho x)) (fst (rho x))); [|congruence]; destruct (kind_dec (fst (rho y)) (fst (rho x))); lia|destruct (kind_dec (fst (rho y)) (fst (rho y))); [|congruence]; destruct (kind_dec (fst (rho x)) (fst (rho y))); lia]. }
      destruct E2 as (E2 & Gx & Gy). rewrite leg_kind_eta in Gx, Gy. exists (econ_of n [rho x; rho y]), (leg_space x). split; auto. split; [apply Lx|]. split; auto.
      rewrite ren_space, ren_cre in Gx, Gy. rewrite <- Es in Gy. destruct C as [(_ & Cx & Cy)|(_ & Cx & Cy)]; rewrite Cx in Gx; rewrite Cy in Gy; cbn [ec_count] in Gx, Gy; [right|left]; nia.
  Qed.
  Lemma ren_pair_bwd x y : (leg_op x < n)%nat -> (leg_op y < n)%nat -> pair_ok st ops (rho x) (rho y) -> In (econ_of n [rho x; rho y]) cs -> pair_ok st ops' x y.
  Proof.
    intros Ox Oy H I. assert (J := pair_joined _ _ (or_introl H) I). destruct H as (Lx & Ly & Es & Ho & C). apply ren_leg in Lx, Ly; auto.
    do 4 (split; auto). destruct (Nat.lt_trichotomy (leg_op x) (leg_op y)) as [L|[E|L]]; auto; exfalso.
    - rewrite !ren_op, E in Ho. lia.
    - apply (HJ (leg_op (rho y)) (leg_op (rho x))); auto. exists (leg_op y), (leg_op x). rewrite !ren_op. repeat split; auto; apply nth_error_nth'; rewrite Ln; auto.
  Qed.
End Ren.
