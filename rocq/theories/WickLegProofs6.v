(** The generated contractions, canonicalized or not, satisfy the hypotheses of [evaluate_ok]. *)
From Coq Require Import Ascii ZArith List Bool Arith Lia Permutation Sorted.
From Verif Require Import Res PartitionsModel RegistryModel RegistryProofs CoreModel OrderProofs CombinatoricsModel CombinatoricsProofs SortSpec SortModel SortProofs AdjointModel RationalModel OperatorModel OperatorSpec OperatorProofs
  WickSearchModel WickSearchSpec WickElemProofs WickElemProofs2 WickCompProofs WickSearchProofs DecModel WickEvalModel CountSpec CountProofs WickCombSpec WickCombProofs WickGraphSpec WickGraphProofs WickGraphProofs2
  WickLegSpec WickLegProofs WickLegProofs2 WickLegProofs3 WickLegProofs4 WickLegProofs5.
Import ListNotations.
Local Open Scope Z_scope.

Lemma total_sum n f : total n f = fold_right Z.add 0 (map f (seq 0 n)).
Proof.
  induction n as [|n IH]; [reflexivity|]. cbn [total]. rewrite seq_S, map_app, fold_right_app. cbn [map fold_right plus]. rewrite IH, Z.add_0_r.
  generalize (f n). intros z. generalize (map f (seq 0 n)). induction l as [|a l IHl]; simpl; lia.
Qed.
Lemma sum_perm_Z l l' : Permutation l l' -> fold_right Z.add 0 l = fold_right Z.add 0 l'.
Proof. induction 1; simpl; lia. Qed.
Lemma nth_map_seq {A} (f : nat -> A) p : map (fun i => f (nth i p O)) (seq 0 (length p)) = map f p.
Proof. rewrite <- (map_map (fun i => nth i p O) f). rewrite seq_nth_id. reflexivity. Qed.
Lemma total_perm n p f : rearrangement n p -> total n (fun i => f (nth i p O)) = total n f.
Proof.
  intros P. rewrite !total_sum. rewrite <- (rearr_length _ _ P) at 1. rewrite nth_map_seq. apply sum_perm_Z, Permutation_map, Permutation_sym, P.
Qed.
Lemma rearr_pos n p x : rearrangement n p -> (x < n)%nat -> exists i, (i < n)%nat /\ nth_error p i = Some x /\ nth i p O = x.
Proof.
  intros P Hx. apply (rearr_in n p x P) in Hx. apply In_nth_error in Hx. destruct Hx as (i & Hi). exists i. split; [rewrite <- (rearr_length _ _ P); apply nth_error_Some; congruence|]. split; auto. apply nth_error_nth. auto.
Qed.
Lemma rearr_nth_lt n p i : rearrangement n p -> (i < n)%nat -> (nth i p O < n)%nat.
Proof. intros P Hi. apply (rearr_in n p _ P). apply nth_In. rewrite (rearr_length _ _ P). auto. Qed.
Lemma unit_pick n p f l l' : rearrangement n p -> (l' < n)%nat -> nth l' p O = l -> unit_at n f l -> unit_at n (fun i => f (nth i p O)) l'.
Proof.
  intros P Hl' El U A HA. rewrite (U (nth A p O)) by (apply rearr_nth_lt; auto). destruct (Nat.eq_dec A l') as [->|Ne]; [destruct (Nat.eq_dec (nth l' p O) l); tauto|].
  destruct (Nat.eq_dec (nth A p O) l) as [E|]; auto. exfalso. apply Ne. rewrite <- El in E. apply (proj1 (NoDup_nth p O) (rearr_nodup _ _ P)) in E; auto; rewrite (rearr_length _ _ P); auto.
Qed.

Section Pick.
  Context (st : osi) (maxc : Z) (ops : oprod) (cs : list econ) (p : list nat).
  Hypothesis Hok : ops_ok st ops.
  Let n := length ops.
  Hypothesis HP : rearrangement n p.
  Hypothesis HJ : keeps_joined_order st cs p.
  Definition pick_con (c : econ) : econ := map (fun A => nth A c gm_zero) p.

  Lemma pick_nth c i : (i < n)%nat -> nth i (pick_con c) gm_zero = nth (nth i p O) c gm_zero.
  Proof. intros Hi. unfold pick_con. apply nth_error_nth. rewrite nth_error_map. rewrite (nth_error_nth' p O) by (rewrite (rearr_length _ _ HP); auto). reflexivity. Qed.
  Lemma pick_cre c i s : (i < n)%nat -> ec_cre (pick_con c) i s = ec_cre c (nth i p O) s.
  Proof. intros Hi. unfold ec_cre. rewrite pick_nth by auto. reflexivity. Qed.
  Lemma pick_ann c i s : (i < n)%nat -> ec_ann (pick_con c) i s = ec_ann c (nth i p O) s.
  Proof. intros Hi. unfold ec_ann. rewrite pick_nth by auto. reflexivity. Qed.
  Lemma pick_op i : (i < n)%nat -> nth i (pick_ops ops p) (mkOp [] gm_zero) = nth (nth i p O) ops (mkOp [] gm_zero).
  Proof. intros Hi. unfold pick_ops. apply nth_error_nth. rewrite nth_error_map. rewrite (nth_error_nth' p O) by (rewrite (rearr_length _ _ HP); auto). reflexivity. Qed.
  Lemma pick_ops_length : length (pick_ops ops p) = n.
  Proof. unfold pick_ops. rewrite map_length. apply rearr_length, HP. Qed.
  Lemma pick_shape c : con_shape st n c -> con_shape st n (pick_con c).
  Proof.
    intros (Lc & V). split; [unfold pick_con; rewrite map_length; apply rearr_length, HP|]. rewrite Forall_forall in *. intros g Hg. unfold pick_con in Hg. apply in_map_iff in Hg. destruct Hg as (A & <- & HA). apply V, nth_In. rewrite Lc. apply (rearr_in _ _ _ HP), HA.
  Qed.
  Lemma pick_only c s : con_shape st n c -> only_space st c s -> only_space st (pick_con c) s.
  Proof.
    intros (Lc & _) H A s' HA Hs Ne. unfold pick_con in HA. rewrite map_length, (rearr_length _ _ HP) in HA. rewrite pick_cre, pick_ann by auto. apply H; auto. rewrite Lc. apply rearr_nth_lt; auto.
  Qed.
  Lemma pick_total f f' : (forall i, (i < n)%nat -> f' i = f (nth i p O)) -> total n f' = total n f.
  Proof. intros H. rewrite (total_ext n f' (fun i => f (nth i p O))) by auto. apply total_perm, HP. Qed.
  Lemma unit_ext f g l : (forall i, (i < n)%nat -> f i = g i) -> unit_at n f l -> unit_at n g l.
  Proof. intros H U A HA. rewrite <- H by auto. apply U. auto. Qed.

  Lemma joined_order c s l r : In c cs -> is_space st s -> ec_num_ops c = 2 -> (l < r < n)%nat -> 0 < ec_cre c l s * ec_ann c r s \/ 0 < ec_ann c l s * ec_cre c r s ->
    exists l' r', (l' < r' < n)%nat /\ nth l' p O = l /\ nth r' p O = r.
  Proof.
    intros Hc Hs H2 Hlr Hj. destruct (rearr_pos n p l HP ltac:(lia)) as (l' & Hl' & El & El'). destruct (rearr_pos n p r HP ltac:(lia)) as (r' & Hr' & Er & Er'). exists l', r'. split; auto. split; auto.
    destruct (Nat.lt_trichotomy l' r') as [|[E|E]]; auto; [subst r'; rewrite El in Er; injection Er; lia|]. exfalso. apply (HJ r l).
    - exists r', l'. auto.
    - lia.
    - exists c, s. split; [exact Hc|]. split; [exact Hs|]. split; [exact H2|exact Hj].
  Qed.

  Lemma pick_allowed c : In c cs -> allowed st maxc ops c -> allowed st maxc (pick_ops ops p) (pick_con c).
  Proof.
    intros Hc H. assert (Hsp : (nsp st <= max_spaces)%nat) by apply Hok. destruct H as [s l r Sh Hs On Ty Hlr Uc Ua Hcr Han|s l r Sh Hs On Ty Hlr Ua Uc Han Hcr|s k Sh Hs On Ty Hk Tc Ta Hb Hx].
    - assert (H2 : ec_num_ops c = 2).
      { rewrite (ec_num_total st n c s) by auto. unfold ec_count. rewrite (total_unit n _ l), (total_unit n _ r); auto; unfold n; lia. }
      destruct (joined_order c s l r Hc Hs H2 Hlr) as (l' & r' & Hlr' & El & Er).
      { left. rewrite (Uc l), (Ua r) by lia. destruct (Nat.eq_dec l l), (Nat.eq_dec r r); lia. }
      apply (al_occ _ _ _ _ s l' r'); rewrite ?pick_ops_length; auto using pick_shape, pick_only.
      + apply (unit_ext (fun i => ec_cre c (nth i p O) s)); [intros; rewrite pick_cre; auto|]. apply (unit_pick _ _ (fun i => ec_cre c i s) l); auto; lia.
      + apply (unit_ext (fun i => ec_ann c (nth i p O) s)); [intros; rewrite pick_ann; auto|]. apply (unit_pick _ _ (fun i => ec_ann c i s) r); auto; lia.
      + unfold ops_cre in *. rewrite pick_op, El by lia. auto.
      + unfold ops_ann in *. rewrite pick_op, Er by lia. auto.
    - assert (H2 : ec_num_ops c = 2).
      { rewrite (ec_num_total st n c s) by auto. unfold ec_count. rewrite (total_unit n _ r), (total_unit n _ l); auto; unfold n; lia. }
      destruct (joined_order c s l r Hc Hs H2 Hlr) as (l' & r' & Hlr' & El & Er).
      { right. rewrite (Ua l), (Uc r) by lia. destruct (Nat.eq_dec l l), (Nat.eq_dec r r); lia. }
      apply (al_unocc _ _ _ _ s l' r'); rewrite ?pick_ops_length; auto using pick_shape, pick_only.
      + apply (unit_ext (fun i => ec_ann c (nth i p O) s)); [intros; rewrite pick_ann; auto|]. apply (unit_pick _ _ (fun i => ec_ann c i s) l); auto; lia.
      + apply (unit_ext (fun i => ec_cre c (nth i p O) s)); [intros; rewrite pick_cre; auto|]. apply (unit_pick _ _ (fun i => ec_cre c i s) r); auto; lia.
      + unfold ops_ann in *. rewrite pick_op, El by lia. auto.
      + unfold ops_cre in *. rewrite pick_op, Er by lia. auto.
    - apply (al_gen _ _ _ _ s k); rewrite ?pick_ops_length; auto using pick_shape, pick_only.
      + rewrite <- Tc. apply pick_total. intros; apply pick_cre; auto.
      + rewrite <- Ta. apply pick_total. intros; apply pick_ann; auto.
      + intros A HA. rewrite pick_cre, pick_ann by auto. unfold ops_cre, ops_ann in *. rewrite pick_op by auto. apply Hb, rearr_nth_lt; auto.
      + destruct Hx as (A & B & HAB & HA & HB). destruct (rearr_pos n p A HP ltac:(unfold n; lia)) as (A' & HA' & _ & EA). destruct (rearr_pos n p B HP ltac:(unfold n; lia)) as (B' & HB' & _ & EB).
        destruct (Nat.lt_trichotomy A' B') as [L|[E|L]]; [exists A', B'|subst B'; lia|exists B', A']; rewrite !pick_cre, !pick_ann, ?EA, ?EB by auto; auto.
  Qed.
  Lemma pick_ops_ok : ops_ok st (pick_ops ops p).
  Proof.
    destruct Hok as (Hsp & V). split; auto. rewrite Forall_forall in *. intros o Ho. unfold pick_ops in Ho. apply in_map_iff in Ho. destruct Ho as (A & <- & HA). apply V, nth_In. apply (rearr_in _ _ _ HP), HA.
  Qed.
  Lemma pick_count c i s b : (i < n)%nat -> ec_count (pick_con c) (i, s, b) = ec_count c (nth i p O, s, b).
  Proof. intros Hi. unfold ec_count. rewrite pick_cre, pick_ann by auto. reflexivity. Qed.
  Lemma pick_enough q : rearrangement (length cs) q -> enough_legs st ops cs -> enough_legs st (pick_ops ops p) (pick_cons cs p q).
  Proof.
    intros Q H [[i s] b] Hk. rewrite pick_ops_length in Hk. apply kinds_in in Hk. destruct Hk as (Hi & Hs). specialize (H (nth i p O, s, b)).
    assert (E : total_of (fun c => ec_count c (i, s, b)) (pick_cons cs p q) = total_of (fun c => ec_count c (nth i p O, s, b)) cs).
    { assert (G : forall f (l : list econ), total_of f l = fold_right Z.add 0 (map f l)) by (intros f l; induction l as [|a l IH]; cbn [total_of map fold_right]; unfold total_of in *; lia).
      rewrite !G. transitivity (fold_right Z.add 0 (map (fun c => ec_count c (nth i p O, s, b)) (map (fun j => nth j cs []) q))).
      - unfold pick_cons. rewrite !map_map. f_equal. apply map_ext. intros j. apply (pick_count (nth j cs []) i s b Hi).
      - apply sum_perm_Z, Permutation_map, Permutation_sym. apply (rearr_map cs [] (length cs) q); auto. }
    rewrite E. unfold leg_count, ops_cre, ops_ann in *. rewrite pick_op by auto. apply H. apply kinds_in. split; auto. apply rearr_nth_lt; auto.
  Qed.
End Pick.

Lemma graph_allowed o st maxc ops cs ops' cs' s : ops_ok st ops -> Forall (allowed st maxc ops) cs -> enough_legs st ops cs ->
  graph_choice o st ops cs (ops', cs', s) -> ops_ok st ops' /\ Forall (allowed st maxc ops') cs' /\ enough_legs st ops' cs'.
Proof.
  intros Hok HA En H. unfold graph_choice in H. destruct (wt_canonicalize o); [|injection H as -> -> ->; auto].
  destruct (canon_spec _ _ _ _ _ _ Hok H) as (p & q & P & Q & J & -> & -> & _ & _). split; [apply pick_ops_ok; auto|]. split; [|apply pick_enough; auto].
  rewrite Forall_forall in *. intros c Hc. unfold pick_cons in Hc. apply in_map_iff in Hc. destruct Hc as (j & <- & Hj). apply (rearr_in _ _ _ Q) in Hj.
  apply (pick_allowed st maxc ops cs p Hok P J (nth j cs [])); [apply nth_In; auto|apply HA, nth_In; auto].
Qed.

Lemma used_total f els cv : used f els cv = total_of f (map (fun c => nth (Z.to_nat c) els []) cv).
Proof. induction cv as [|c cv IH]; [reflexivity|]. cbn [used map total_of fold_right]. rewrite IH. reflexivity. Qed.
Lemma generated_ok fuel o st ops minrank maxrank els cvs cv : ops_ok st ops -> search fuel o st ops minrank maxrank = Ok (els, cvs) -> In cv cvs ->
  let cs := map (fun c => nth (Z.to_nat c) els []) cv in Forall (allowed st (wt_maxcumulant o) ops) cs /\ enough_legs st ops cs.
Proof.
  intros Hok E Hcv. unfold search in E. destruct (8 <? num_spaces st); [discriminate|]. destruct (elementary_contractions fuel st (wt_maxcumulant o) ops) as [els'| | |] eqn:E1; try discriminate. cbn [bind] in E.
  destruct (composite_contractions 101 st els' ops minrank maxrank) as [[L x]| | |] eqn:E2; try discriminate. cbn [bind] in E. injection E as -> ->.
  destruct (search_spec st ops els minrank maxrank Hok (els_ok fuel st (wt_maxcumulant o) ops els Hok E1) 101 (le_n _)) as [(L' & E3 & _ & I & _)|(E3 & _)]; [|congruence].
  rewrite E2 in E3. injection E3 as <- _. apply I in Hcv. destruct Hcv as ((M & C) & _). cbn zeta. split.
  - apply Forall_forall. intros c Hc. apply in_map_iff in Hc. destruct Hc as (j & <- & Hj). apply (els_allowed fuel st (wt_maxcumulant o) ops els Hok E1). apply nth_In. destruct M as (_ & M). rewrite Forall_forall in M. specialize (M j Hj). lia.
  - intros [[A s] b] Hk. apply kinds_in in Hk. destruct Hk as (HA & Hs). destruct (C A s HA Hs) as (C1 & C2). rewrite used_total in C1, C2. destruct b; [exact C1|exact C2].
Qed.

Lemma generated_evaluated fuel o st ops minrank maxrank els cvs cv bops bcs sign factor : ops_ok st ops ->
  search fuel o st ops minrank maxrank = Ok (els, cvs) -> In cv cvs ->
  graph_choice o st ops (map (fun c => nth (Z.to_nat c) els []) cv) (bops, bcs, sign) ->
  exists t s ix picks effects rest,
    evaluate_contraction st bops bcs factor =
      Ok (t, rat_mul (rat_mul (rat_of_Z s) (fold_left (fun f o => rat_mul f (op_factor st o)) bops factor)) (combinatorial_factor st bops bcs)) /\
    evaluation st bops bcs t s ix picks effects rest.
Proof.
  intros Hok E Hcv G. destruct (generated_ok _ _ _ _ _ _ _ _ _ Hok E Hcv) as (HA & En). destruct (graph_allowed _ _ _ _ _ _ _ _ Hok HA En G) as (Hok' & HA' & En').
  exact (evaluate_ok st (wt_maxcumulant o) bops bcs factor Hok' HA' En').
Qed.
