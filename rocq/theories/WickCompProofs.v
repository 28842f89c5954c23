(** Proofs about the search for composite contractions. *)
From Coq Require Import ZArith List Bool Arith Lia Permutation Sorted.
From Verif Require Import Res PartitionsModel PartitionsSpec RegistryModel CoreModel AlgebraModel AlgebraSpec
  OperatorModel OperatorSpec OperatorProofs NextPermProofs WickSearchModel WickSearchSpec WickElemProofs WickElemProofs2.
Import ListNotations.
Local Open Scope Z_scope.

(** ** Arithmetic of the free matrices *)
Lemma gm_op_same (f : Z -> Z -> Z) st g h r : (forall x, f x 0 = x) -> gm_valid st g -> gm_valid st h -> (nsp st <= max_spaces)%nat ->
  length r = max_spaces -> (forall i, nth_error r i = if (i <? nsp st)%nat then
         Some (f (fst (nthp g i)) (fst (nthp h i)), f (snd (nthp g i)) (snd (nthp h i))) else nth_error g i) ->
  gm_valid st r /\ forall i, nthp r i = (f (fst (nthp g i)) (fst (nthp h i)), f (snd (nthp g i)) (snd (nthp h i))).
Proof.
  intros F0 [Lg Vg] [Lh Vh] Hn L N. split.
  - split; auto. intros i Hi. rewrite N. destruct (Nat.ltb_spec i (nsp st)); [lia|]. apply Vg. auto.
  - intros i. destruct (Nat.lt_ge_cases i (nsp st)).
    + apply nthp_of. rewrite N. destruct (Nat.ltb_spec i (nsp st)); [reflexivity|lia].
    + destruct (Nat.lt_ge_cases i max_spaces).
      * rewrite (nthp_of g i _ (Vg i ltac:(lia))), (nthp_of h i _ (Vh i ltac:(lia))). simpl. rewrite F0. apply nthp_of. rewrite N. destruct (Nat.ltb_spec i (nsp st)); [lia|]. apply Vg; lia.
      * unfold nthp. rewrite !nth_overflow by lia. simpl. rewrite F0. reflexivity.
Qed.
Lemma gadd_spec st g h : gm_valid st g -> gm_valid st h -> (nsp st <= max_spaces)%nat ->
  gm_valid st (gadd st g h) /\ forall i, nthp (gadd st g h) i = (fst (nthp g i) + fst (nthp h i), snd (nthp g i) + snd (nthp h i)).
Proof.
  intros Vg Vh Hn. destruct (gm_op_spec Z.add st g h (proj1 Vg) (proj1 Vh) Hn) as (r & E & L & N). unfold gadd, gm_add. rewrite E. apply gm_op_same; auto. intros; lia.
Qed.
Lemma gsub_spec st g h : gm_valid st g -> gm_valid st h -> (nsp st <= max_spaces)%nat ->
  gm_valid st (gsub st g h) /\ forall i, nthp (gsub st g h) i = (fst (nthp g i) - fst (nthp h i), snd (nthp g i) - snd (nthp h i)).
Proof.
  intros Vg Vh Hn. destruct (gm_op_spec Z.sub st g h (proj1 Vg) (proj1 Vh) Hn) as (r & E & L & N). unfold gsub, gm_sub. rewrite E. apply gm_op_same; auto. intros; lia.
Qed.
Lemma gsub_num st g h : gm_valid st g -> gm_valid st h -> (nsp st <= max_spaces)%nat -> gm_num_ops (gsub st g h) = gm_num_ops g - gm_num_ops h.
Proof.
  intros Vg Vh Hn. destruct (gsub_spec st g h Vg Vh Hn) as [V N]. rewrite !gm_num_sum.
  enough (gsum g = gsum (gsub st g h) + gsum h) by lia. apply gsum_nth; [|destruct Vg, V; congruence|destruct Vg, Vh; congruence].
  intros i. rewrite N. simpl. lia.
Qed.

Lemma fold_sum {T} (f : T -> Z) l a : fold_left (fun a g => a + f g) l a = a + fold_left (fun a g => a + f g) l 0.
Proof. revert a. induction l as [|x l IH]; intros a; simpl; [lia|]. rewrite (IH (a + f x)), (IH (f x)). lia. Qed.
Lemma fold_sum_total (f : gmat -> Z) (l : list gmat) : fold_left (fun a g => a + f g) l 0 = total (length l) (fun A => f (nth A l gm_zero)).
Proof.
  induction l as [|x l IH] using rev_ind; [reflexivity|]. rewrite fold_left_app, IH, app_length. simpl. rewrite Nat.add_1_r. cbn [total].
  rewrite app_nth2, Nat.sub_diag by lia. simpl. f_equal. apply total_ext. intros A HA. rewrite app_nth1 by auto. reflexivity.
Qed.

Section C.
  Variables (st : osi) (ops : oprod) (els : list econ) (minrank maxrank : Z).
  Hypothesis OK : ops_ok st ops.
  Hypothesis ELS : Forall (fun c => con_shape st (length ops) c /\ forall A s, (A < length ops)%nat -> is_space st s -> 0 <= ec_cre c A s /\ 0 <= ec_ann c A s) els.
  Let n := length ops.
  Notation el c := (nth (Z.to_nat c) els []).

  (** The free matrices after choosing the contractions [pre]. *)
  Definition free_of (pre : list Z) : list gmat := fold_left (fun fr c => move_sub st fr (el c)) pre (map op_gm ops).
  Definition in_els (c : Z) : Prop := 0 <= c < Z.of_nat (length els).

  Lemma hn : (nsp st <= max_spaces)%nat. Proof. exact (proj1 OK). Qed.
  Lemma el_shape c : in_els c -> con_shape st n (el c).
  Proof. intros H. rewrite Forall_forall in ELS. apply ELS. apply nth_In. unfold in_els in H. lia. Qed.
  Lemma el_nonneg c A s : in_els c -> (A < n)%nat -> is_space st s -> 0 <= ec_cre (el c) A s /\ 0 <= ec_ann (el c) A s.
  Proof. intros H. rewrite Forall_forall in ELS. apply ELS. apply nth_In. unfold in_els in H. lia. Qed.
  Lemma el_valid c A : in_els c -> (A < n)%nat -> gm_valid st (nth A (el c) gm_zero).
  Proof. intros H HA. destruct (el_shape _ H) as [L F]. rewrite Forall_forall in F. apply F, nth_In. lia. Qed.

  Definition shape (fr : list gmat) : Prop := length fr = n /\ forall A, (A < n)%nat -> gm_valid st (nth A fr gm_zero).
  Lemma sub_shape fr c : shape fr -> in_els c -> shape (move_sub st fr (el c)).
  Proof.
    intros [L V] H. unfold move_sub. split; [rewrite map_length, seq_length; auto|]. intros A HA. rewrite nth_seq_map by lia.
    apply gsub_spec; auto using hn, el_valid.
  Qed.
  Lemma add_sub fr c : shape fr -> in_els c -> move_add st (move_sub st fr (el c)) (el c) = fr.
  Proof.
    intros Sh H. pose proof (sub_shape _ _ Sh H) as [L' V']. destruct Sh as [L V]. unfold move_add. rewrite L'.
    apply (nth_ext _ _ gm_zero gm_zero); [rewrite map_length, seq_length; congruence|]. rewrite map_length, seq_length. intros A HA. rewrite nth_seq_map by auto.
    specialize (V' A HA). unfold move_sub in *. rewrite nth_seq_map in * by lia.
    destruct (gadd_spec st _ _ V' (el_valid _ _ H HA) hn) as [[La _] Na]. apply nthp_ext; [rewrite La; symmetry; apply V; auto|].
    intros i. rewrite Na. destruct (gsub_spec st _ _ (V A HA) (el_valid _ _ H HA) hn) as [_ Ns]. rewrite Ns. simpl. destruct (nthp (nth A fr gm_zero) i). simpl. f_equal; lia.
  Qed.
  Lemma free_shape pre : Forall in_els pre -> shape (free_of pre).
  Proof.
    intros F. unfold free_of. assert (S0 : shape (map op_gm ops)).
    { split; [apply map_length|]. intros A HA. destruct OK as [_ FO]. rewrite Forall_forall in FO.
      change gm_zero with (op_gm (mkOp [] gm_zero)). rewrite map_nth. apply FO. apply nth_In. auto. }
    revert S0. generalize (map op_gm ops). induction F as [|c pre Hc F IH]; intros fr S0; simpl; auto. apply IH. apply sub_shape; auto.
  Qed.
  Lemma free_snoc pre c : free_of (pre ++ [c]) = move_sub st (free_of pre) (el c).
  Proof. unfold free_of. rewrite fold_left_app. reflexivity. Qed.
  Lemma used_snoc f pre c : used f els (pre ++ [c]) = used f els pre + f (el c).
  Proof. induction pre; simpl; lia. Qed.
  Lemma used_app f pre c : used f els (pre ++ c) = used f els pre + used f els c.
  Proof. induction pre; simpl; lia. Qed.
  Lemma free_counts pre A s : Forall in_els pre -> (A < n)%nat ->
    cre_of (nth A (free_of pre) gm_zero) (Z.of_nat s) = ops_cre ops A (Z.of_nat s) - used (fun c => ec_cre c A (Z.of_nat s)) els pre /\
    ann_of (nth A (free_of pre) gm_zero) (Z.of_nat s) = ops_ann ops A (Z.of_nat s) - used (fun c => ec_ann c A (Z.of_nat s)) els pre.
  Proof.
    intros F HA. induction pre as [|c pre IH] using rev_ind.
    - unfold free_of, ops_cre, ops_ann. simpl. change gm_zero with (op_gm (mkOp [] gm_zero)) at 1 3. rewrite map_nth. lia.
    - apply Forall_app in F. destruct F as [F Fc]. inversion Fc as [|? ? Hc _]; subst. specialize (IH F). rewrite free_snoc, !used_snoc.
      destruct (free_shape _ F) as [L V]. unfold move_sub. rewrite nth_seq_map by lia. rewrite cre_of_nat, ann_of_nat in *.
      destruct (gsub_spec st _ _ (V A HA) (el_valid _ _ Hc HA) hn) as [_ Ns]. rewrite Ns. simpl. unfold ec_cre, ec_ann in *. rewrite cre_of_nat, ann_of_nat in *. lia.
  Qed.
  Lemma free_num pre : Forall in_els pre -> sum_num_ops (free_of pre) = left_over els ops pre.
  Proof.
    intros F. unfold left_over. induction pre as [|c pre IH] using rev_ind.
    - unfold free_of, sum_num_ops. simpl. rewrite Z.sub_0_r. clear. generalize 0. induction ops as [|o l IH]; simpl; intros a; auto.
    - apply Forall_app in F. destruct F as [F Fc]. inversion Fc as [|? ? Hc _]; subst. specialize (IH F). rewrite free_snoc, used_snoc.
      destruct (free_shape _ F) as [L V]. destruct (sub_shape _ _ (free_shape _ F) Hc) as [L' _]. destruct (el_shape _ Hc) as [Le _].
      unfold sum_num_ops, ec_num_ops in *. rewrite fold_sum_total in *. rewrite (fold_sum_total gm_num_ops (el c)).
      rewrite L' , L, Le in *. assert (E : total n (fun A => gm_num_ops (nth A (move_sub st (free_of pre) (el c)) gm_zero)) + total n (fun A => gm_num_ops (nth A (el c) gm_zero)) = total n (fun A => gm_num_ops (nth A (free_of pre) gm_zero))).
      { rewrite <- total_add. apply total_ext. intros A HA. unfold move_sub. rewrite nth_seq_map by lia. rewrite (gsub_num st); auto using hn, el_valid. lia. }
      lia.
  Qed.

  (** ** Extensions of a partial choice *)
  Definition ext (pre cs : list Z) : Prop := is_multiset els cs /\ compatible st els ops cs /\ exists suf, cs = pre ++ suf.
  Definition next_ok (pre : list Z) (c : Z) : Prop := in_els c /\ (forall x, In x pre -> x <= c) /\ compatible st els ops (pre ++ [c]).

  Lemma used_nonneg A s cs : Forall in_els cs -> (A < n)%nat -> is_space st s ->
    0 <= used (fun c => ec_cre c A s) els cs /\ 0 <= used (fun c => ec_ann c A s) els cs.
  Proof. intros F HA Hs. induction F as [|c cs Hc F IH]; simpl; [lia|]. destruct (el_nonneg c A s Hc HA Hs). lia. Qed.
  Lemma compat_prefix pre suf : Forall in_els suf -> compatible st els ops (pre ++ suf) -> compatible st els ops pre.
  Proof. intros F C A s HA Hs. specialize (C A s HA Hs). rewrite !used_app in C. destruct (used_nonneg A s suf F HA Hs). lia. Qed.
  Lemma ss_app_inv {T} (R : T -> T -> Prop) l1 l2 : StronglySorted R (l1 ++ l2) -> StronglySorted R l1 /\ StronglySorted R l2 /\ forall a b, In a l1 -> In b l2 -> R a b.
  Proof. induction l1 as [|x l1 IH]; simpl; intros S; [repeat split; auto; constructor || tauto|]. apply StronglySorted_inv in S. destruct S as [S F].
    destruct (IH S) as (S1 & S2 & D). rewrite Forall_forall in F. split; [constructor; auto; apply Forall_forall; intros; apply F, in_or_app; auto|]. split; auto.
    intros a b [<-|Ha] Hb; [apply F, in_or_app; auto|auto]. Qed.
  Lemma ext_cases pre cs : is_multiset els pre -> compatible st els ops pre -> (ext pre cs <-> cs = pre \/ exists c, next_ok pre c /\ ext (pre ++ [c]) cs).
  Proof.
    intros [S F] C. split.
    - intros ([Sc Fc] & Cc & [|c suf] & ->); [left; apply app_nil_r|]. right. exists c. apply Forall_app in Fc. destruct Fc as [_ Fs]. inversion Fs; subst.
      assert (E : pre ++ c :: suf = (pre ++ [c]) ++ suf) by (rewrite <- app_assoc; reflexivity). split; [split; [auto|split]|].
      + intros x Hx. apply ss_app_inv in Sc. destruct Sc as (_ & _ & D). apply D; simpl; auto.
      + rewrite E in Cc. apply compat_prefix in Cc; auto.
      + split; [split; auto; apply Forall_app; auto|]. split; auto. exists suf. exact E.
    - intros [->|(c & _ & M & Cc & suf & ->)]; [split; [split; auto|split; auto; exists []; rewrite app_nil_r; auto]|].
      split; auto. split; auto. exists (c :: suf). rewrite <- app_assoc. reflexivity.
  Qed.
  Lemma next_multiset pre c : is_multiset els pre -> next_ok pre c -> is_multiset els (pre ++ [c]) /\ compatible st els ops (pre ++ [c]).
  Proof. intros [S F] (Hc & Hx & C). split; auto. split; [apply ss_app; auto; [repeat constructor|]; intros a b Ha [<-|[]]; auto|apply Forall_app; auto]. Qed.

  (** ** Candidates *)
  Lemma candidate_iff pre c : Forall in_els pre -> in_els c -> (is_candidate st (free_of pre) (el c) = true <-> compatible st els ops (pre ++ [c])).
  Proof.
    intros F Hc. unfold is_candidate. rewrite forallb_forall. destruct (free_shape _ F) as [L _]. rewrite L. split.
    - intros H A s HA Hs. specialize (H A). rewrite in_seq in H. specialize (H ltac:(fold n in HA; lia)). rewrite forallb_forall in H.
      apply is_space_nat in Hs. destruct Hs as (i & -> & Hi). specialize (H (Z.of_nat i)). rewrite range_spaces in H. specialize (H ltac:(apply in_map, in_seq; lia)).
      rewrite !used_snoc. destruct (free_counts pre A i F HA) as [E1 E2]. unfold ec_cre, ec_ann in *. rewrite E1, E2 in H.
      rewrite andb_true_iff, !negb_true_iff, !Z.ltb_ge in H. lia.
    - intros C A HA. apply in_seq in HA. rewrite forallb_forall. intros s Hs. rewrite range_spaces in Hs. apply in_map_iff in Hs. destruct Hs as (i & <- & Hi). apply in_seq in Hi.
      specialize (C A (Z.of_nat i) ltac:(fold n; lia) ltac:(apply nat_is_space; lia)). rewrite !used_snoc in C. destruct (free_counts pre A i F ltac:(lia)) as [E1 E2].
      unfold ec_cre, ec_ann in *. rewrite E1, E2. rewrite andb_true_iff, !negb_true_iff, !Z.ltb_ge. lia.
  Qed.

  Lemma candidates_spec a pre : is_multiset els pre -> firstn (length pre) a = pre -> (length pre <= length a)%nat ->
    exists cands, construct_candidates st a (Z.of_nat (length pre) + 1) els (free_of pre) = Ok cands /\ NoDup cands /\ forall c, In c cands <-> next_ok pre c.
  Proof.
    intros [S F] Fa La. unfold construct_candidates.
    assert (exists minc, (if 1 <? Z.of_nat (length pre) + 1 then aget a (Z.of_nat (length pre) + 1 - 2) else Ok 0) = Ok minc /\ 0 <= minc /\ (forall c, 0 <= c -> (minc <= c <-> forall x, In x pre -> x <= c))) as (minc & E & M0 & M).
    { destruct (Z.ltb_spec 1 (Z.of_nat (length pre) + 1)).
      - destruct (exists_last (l := pre)) as (p & z & Ep); [intros ->; simpl in *; lia|]. exists z. subst pre. rewrite app_length in *. cbn [length] in *.
        replace (Z.of_nat (length p + 1) + 1 - 2) with (Z.of_nat (length p)) by lia. rewrite aget_nat.
        assert (N : nth_error (firstn (length p + 1) a) (length p) = Some z) by (rewrite Fa, nth_error_app2, Nat.sub_diag by lia; reflexivity).
        assert (N' : nth_error a (length p) = Some z). { rewrite <- (firstn_skipn (length p + 1) a). rewrite nth_error_app1; auto. rewrite firstn_length. lia. }
        rewrite N'. apply Forall_app in F. destruct F as [_ Fz]. inversion Fz; subst. split; auto. split; [unfold in_els in *; lia|].
        apply ss_app_inv in S. destruct S as (_ & _ & D). intros c Hc. split.
        + intros Hz x Hx. apply in_app_or in Hx. destruct Hx as [Hx|[<-|[]]]; [specialize (D x z Hx ltac:(simpl; auto)); lia|auto].
        + intros Hx. apply Hx. apply in_or_app. simpl. auto.
      - destruct pre; [|simpl in *; lia]. exists 0. split; auto. split; [lia|]. intros c Hc. simpl. split; [tauto|auto]. }
    rewrite E. cbn [bind]. eexists. split; [reflexivity|]. split.
    - apply NoDup_filter. unfold range. rewrite map_map. apply FinFun.Injective_map_NoDup; [intros x y; lia|apply seq_NoDup].
    - intros c. rewrite filter_In. unfold range. rewrite map_map, in_map_iff. split.
      + intros ((i & <- & Hi) & Hc). apply in_seq in Hi. assert (I : in_els (minc + Z.of_nat i)) by (unfold in_els; lia). split; auto. split.
        * apply M; lia.
        * apply candidate_iff; auto.
      + intros (I & Hx & C). split.
        * exists (Z.to_nat (c - minc)). assert (minc <= c) by (apply M; auto; unfold in_els in I; lia). split; [lia|]. apply in_seq. unfold in_els in I. lia.
        * apply candidate_iff; auto.
  Qed.

  (** ** The search *)
  Definition rank_ok (cs : list Z) : Prop := minrank <= left_over els ops cs <= maxrank.
  Definition outcome (P : list Z -> Prop) (found : list (list Z)) (free : list gmat) (r : res bt_state) : Prop :=
    (exists L, r = Ok (found ++ L, free) /\ NoDup L /\ (forall cs, In cs L <-> P cs /\ rank_ok cs) /\ forall cs, P cs -> (length cs <= 100)%nat) \/
    (r = UB /\ exists cs, P cs /\ length cs = 101%nat).

  Lemma firstn_lset {T} (x : list T) i v k : (k <= i)%nat -> firstn k (lset x i v) = firstn k x.
  Proof. revert i k. induction x as [|a x IH]; intros [|i] [|k] H; simpl; auto; try lia. rewrite IH by lia. reflexivity. Qed.
  Lemma firstn_lset_S {T} (x : list T) i v : (i < length x)%nat -> firstn (S i) (lset x i v) = firstn i x ++ [v].
  Proof. revert i. induction x as [|a x IH]; intros [|i] H; simpl in *; try lia; auto. rewrite <- IH by lia. reflexivity. Qed.

  Lemma backtrack_spec d : forall pre a found, is_multiset els pre -> compatible st els ops pre -> firstn (length pre) a = pre -> length a = 100%nat ->
    (length pre <= 100)%nat -> (101 <= length pre + d)%nat ->
    outcome (ext pre) found (free_of pre) (backtrack d st els minrank maxrank a (Z.of_nat (length pre)) (found, free_of pre)).
  Proof.
    induction d as [|d IH]; intros pre a found Mp Cp Fa La Lp Ld; [lia|].
    cbn [backtrack]. assert (Fp := proj2 Mp).
    set (Lself := if (minrank <=? left_over els ops pre) && (left_over els ops pre <=? maxrank) then [pre] else []).
    assert (Ep : process_contraction a (Z.of_nat (length pre)) minrank maxrank (found, free_of pre) = Ok (found ++ Lself, free_of pre)).
    { unfold process_contraction, Lself. rewrite free_num by auto. destruct (_ && _); [|rewrite app_nil_r; reflexivity].
      destruct (Z.ltb_spec (Z.of_nat (length a)) (Z.of_nat (length pre))); [lia|]. rewrite Nat2Z.id, Fa. reflexivity. }
    assert (Nself : NoDup Lself) by (unfold Lself; destruct (_ && _); repeat constructor; simpl; tauto).
    assert (Iself : forall cs, In cs Lself <-> cs = pre /\ rank_ok cs).
    { intros cs. unfold Lself, rank_ok. destruct (Z.leb_spec minrank (left_over els ops pre)), (Z.leb_spec (left_over els ops pre) maxrank); simpl; split; intuition (subst; auto; lia). }
    rewrite Ep. cbn [bind snd]. destruct (candidates_spec a pre Mp Fa ltac:(lia)) as (cands & Ec & Nc & Ic). rewrite Ec. cbn [bind].
    set (body := fun (x : list Z * bt_state) (c : Z) => _).
    assert (B : forall l a' found', incl l cands -> NoDup l -> firstn (length pre) a' = pre -> length a' = 100%nat ->
      let r := bind (foldM body (a', (found', free_of pre)) l) (fun x => Ok (snd x)) in
      outcome (fun cs => exists c, In c l /\ ext (pre ++ [c]) cs) found' (free_of pre) r).
    { clear Ec Nself Iself Ep Nc. induction l as [|c l IHl]; intros a' found' Il Nl Fa' La'; cbv zeta.
      - left. exists []. cbn. rewrite app_nil_r. split; auto. split; [constructor|]. split; [intros cs; split; [tauto|intros ((c & [] & _) & _)]|]. intros cs (c & [] & _).
      - inversion Nl as [|? ? Ncl Nl']; subst. assert (Hc : next_ok pre c) by (apply Ic, Il; simpl; auto).
        destruct (next_multiset _ _ Mp Hc) as [Mc Cc]. cbn [foldM]. unfold body at 1.
        replace (Z.of_nat (length pre) + 1 - 1) with (Z.of_nat (length pre)) by lia. rewrite aset_nat, La'.
        destruct (Nat.ltb_spec (length pre) 100) as [Lt|Ge].
        + cbn [bind fst snd]. rewrite <- free_snoc.
          replace (Z.of_nat (length pre) + 1) with (Z.of_nat (length (pre ++ [c]))) by (rewrite app_length; simpl; lia).
          assert (Fc : firstn (length (pre ++ [c])) (lset a' (length pre) c) = pre ++ [c]).
          { rewrite app_length, Nat.add_1_r. cbn [length]. rewrite firstn_lset_S by lia. rewrite Fa'. reflexivity. }
          destruct (IH (pre ++ [c]) (lset a' (length pre) c) found' Mc Cc Fc) as [(L & E & NL & IL & BL)|(E & cs & X & Lcs)];
            [rewrite lset_length; auto|rewrite app_length; simpl; lia|rewrite app_length; simpl; lia| |].
          * rewrite E. cbn [bind fst snd]. rewrite aset_nat, lset_length, La'. destruct (Nat.ltb_spec (length pre) 100); [|lia]. cbn [bind].
            rewrite free_snoc, add_sub; [|apply free_shape; auto|apply Hc].
            specialize (IHl (lset (lset a' (length pre) c) (length pre) (-1)) (found' ++ L)).
            destruct IHl as [(L2 & E2 & NL2 & IL2 & BL2)|(E2 & cs & (c' & Ic' & X) & Lcs)].
            -- intros x Hx. apply Il. simpl. auto.
            -- auto.
            -- rewrite !firstn_lset by lia. exact Fa'.
            -- rewrite !lset_length. auto.
            -- left. exists (L ++ L2). rewrite E2, app_assoc. split; [reflexivity|]. split; [|split].
               ++ apply nodup_app; auto. intros cs H1 H2. apply IL in H1. apply IL2 in H2. destruct H1 as [(_ & _ & s1 & ->) _], H2 as [(c' & Hc' & _ & _ & s2 & E') _].
                  rewrite <- !app_assoc in E'. apply app_inv_head in E'. injection E' as -> _. auto.
               ++ intros cs. rewrite in_app_iff, IL, IL2. split.
                  ** intros [[X R]|[(c' & Hc' & X) R]]; split; auto; [exists c|exists c']; simpl; auto.
                  ** intros [(c' & [<-|Hc'] & X) R]; eauto.
               ++ intros cs (c' & [<-|Hc'] & X); [auto|]. apply BL2. eauto.
            -- right. rewrite E2. split; [reflexivity|]. exists cs. split; auto. exists c'. simpl. auto.
          * right. rewrite E. split; [reflexivity|]. exists cs. split; auto. exists c. simpl. auto.
        + right. split; [reflexivity|]. exists (pre ++ [c]). split; [|rewrite app_length; simpl; lia]. exists c. split; [simpl; auto|].
          split; auto. split; auto. exists []. rewrite app_nil_r. reflexivity. }
    specialize (B cands a (found ++ Lself) (fun x H => H) Nc Fa La). cbv zeta in B.
    assert (EB : forall X : res (list Z * bt_state), (bind X (fun x => let '(_, st0) := x in Ok st0)) = bind X (fun x => Ok (snd x))).
    { intros X. destruct X as [[? ?]| | |]; reflexivity. }
    rewrite EB. clear EB.
    destruct B as [(L & E & NL & IL & BL)|(E & cs & (c & Hc & X) & Lcs)].
    - left. exists (Lself ++ L). split; [rewrite app_assoc; exact E|]. split; [|split].
      + apply nodup_app; auto. intros cs H1 H2. apply Iself in H1. apply IL in H2. destruct H1 as [-> _], H2 as [(c & _ & _ & _ & suf & E') _].
        apply (f_equal (@length Z)) in E'. rewrite !app_length in E'. simpl in E'. lia.
      + intros cs. rewrite in_app_iff, Iself, IL, (ext_cases pre cs Mp Cp). split.
        * intros [[-> R]|[(c & Hc & X) R]]; split; auto. right. exists c. split; auto. apply Ic; auto.
        * intros [[->|(c & Hc & X)] R]; auto. right. split; auto. exists c. split; auto. apply Ic; auto.
      + intros cs X. apply (ext_cases pre cs Mp Cp) in X. destruct X as [->|(c & Hc & X)]; [auto|]. apply BL. exists c. split; auto. apply Ic; auto.
    - right. split; [exact E|]. exists cs. split; auto. apply (ext_cases pre cs Mp Cp). right. exists c. split; auto. apply Ic; auto.
  Qed.

  Lemma search_spec d : (101 <= d)%nat ->
    (exists L, composite_contractions d st els ops minrank maxrank = Ok (L, map op_gm ops) /\ NoDup L /\
       (forall cs, In cs L <-> (is_multiset els cs /\ compatible st els ops cs) /\ rank_ok cs) /\
       (forall cs, is_multiset els cs -> compatible st els ops cs -> (length cs <= 100)%nat)) \/
    (composite_contractions d st els ops minrank maxrank = UB /\ exists cs, is_multiset els cs /\ compatible st els ops cs /\ length cs = 101%nat).
  Proof.
    intros Hd. assert (M0 : is_multiset els []) by (split; constructor).
    assert (C0 : compatible st els ops []).
    { intros A s HA Hs. simpl. destruct OK as [_ F]. rewrite Forall_forall in F. destruct (F (nth A ops (mkOp [] gm_zero))) as [_ N]; [apply nth_In; auto|]. apply N. exact Hs. }
    assert (EX : forall cs, ext [] cs <-> is_multiset els cs /\ compatible st els ops cs).
    { intros cs. split; [intros (M & C & _); auto|]. intros [M C]. split; auto. split; auto. exists cs. reflexivity. }
    destruct (backtrack_spec d [] (repeat (-1) 100) [] M0 C0 eq_refl) as [(L & E & N & I & B)|(E & cs & X & Lc)].
    - reflexivity.
    - simpl. lia.
    - simpl. lia.
    - left. exists L. unfold composite_contractions. change (free_of []) with (map op_gm ops) in E. split; [exact E|]. split; auto. split.
      + intros cs. rewrite I, EX. reflexivity.
      + intros cs M C. apply B, EX. auto.
    - right. change (free_of []) with (map op_gm ops) in E. split; [exact E|]. exists cs. apply EX in X. tauto.
  Qed.
End C.
