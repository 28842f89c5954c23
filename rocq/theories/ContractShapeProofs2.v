(** The terms returned by [contract] (C63): canonicalization, and the sum of all contractions. *)
From Coq Require Import Ascii ZArith List Bool Arith Lia Permutation Sorting.Sorted.
From Verif Require Import Res PartitionsModel RegistryModel RegistryProofs CoreModel CombinatoricsModel SortSpec SortModel SortProofs OrderProofs AdjointModel AdjointProofs RationalModel AlgebraModel AlgebraSpec AlgebraProofs OperatorModel OperatorSpec OperatorProofs CanonModel CanonSpec CanonProofs CanonProofs2 CanonIdem
  WickSearchModel WickSearchSpec WickElemProofs WickElemProofs2 WickCompProofs WickSearchProofs DecModel WickEvalModel CountSpec CountProofs WickCombSpec WickCombProofs WickGraphSpec WickGraphProofs WickGraphProofs2
  WickLegSpec WickLegProofs WickLegProofs2 WickLegProofs3 WickLegProofs4 WickLegProofs5 WickLegProofs6 WickTotalProofs EquationSpec ContractShapeSpec WickPairProofs4 WickGenProofs4 ContractShapeProofs.
Import ListNotations.
Local Open Scope Z_scope.

Lemma perm_eq {A} (l l' : list A) : l = l' -> Permutation l l'.
Proof. intros ->. reflexivity. Qed.
Lemma covered t : NoDup (map s_idx (tm_ops t)) -> Permutation (upper_slots t) (lower_slots t) -> ops_covered t.
Proof.
  intros N P i (o & Ho & E). subst i. destruct (s_cre o) eqn:C.
  - assert (I : In (s_idx o) (upper_slots t)). { apply in_or_app. right. apply in_map, filter_In. auto. }
    apply (Permutation_in _ P) in I. apply in_app_or in I. destruct I as [I|I]; [apply in_flat_map in I; destruct I as (d & Hd & Hi); exists d; auto|]. exfalso.
    apply in_map_iff in I. destruct I as (o' & E & Ho'). apply filter_In in Ho'. destruct Ho' as (Ho' & C'). assert (o' = o); [|subst; rewrite C in C'; discriminate].
    clear - N E Ho Ho'. induction (tm_ops t) as [|x l IH]; [destruct Ho|]. cbn [map] in N. inversion N; subst. destruct Ho as [->|Ho], Ho' as [->|Ho']; auto; exfalso; match goal with X : ~ In _ _ |- _ => apply X end; [rewrite <- E|rewrite E]; apply in_map; auto.
  - assert (I : In (s_idx o) (lower_slots t)). { apply in_or_app. right. apply in_map, filter_In. rewrite C. auto. }
    apply (Permutation_in _ (Permutation_sym P)) in I. apply in_app_or in I. destruct I as [I|I]; [apply in_flat_map in I; destruct I as (d & Hd & Hi); exists d; auto|]. exfalso.
    apply in_map_iff in I. destruct I as (o' & E & Ho'). apply filter_In in Ho'. destruct Ho' as (Ho' & C'). assert (o' = o); [|subst; rewrite C in C'; discriminate].
    clear - N E Ho Ho'. induction (tm_ops t) as [|x l IH]; [destruct Ho|]. cbn [map] in N. inversion N; subst. destruct Ho as [->|Ho], Ho' as [->|Ho']; auto; exfalso; match goal with X : ~ In _ _ |- _ => apply X end; [rewrite <- E|rewrite E]; apply in_map; auto.
Qed.
Lemma nodup_inj {A B} (P : A -> Prop) (f : A -> B) l : (forall x y, P x -> P y -> f x = f y -> x = y) -> (forall x, In x l -> P x) -> NoDup l -> NoDup (map f l).
Proof.
  intros J I N. induction N as [|x l Nx N IH]; [constructor|]. cbn [map]. constructor; [|apply IH; intros y Hy; apply I; right; auto].
  intros K. apply in_map_iff in K. destruct K as (y & E & Hy). apply J in E; [subst; tauto| |]; apply I; [right|left]; auto.
Qed.
Lemma ordered_cre_first l : ordered sqop_ltb l -> cre_first l.
Proof.
  intros H. induction H as [|x l H IH F]; [exists O; auto|]. destruct (s_cre x) eqn:C.
  - destruct IH as (n & H1 & H2). exists (S n). cbn [firstn skipn forallb]. rewrite C. auto.
  - exists O. split; [reflexivity|]. cbn [skipn forallb]. rewrite C. cbn [negb andb]. apply forallb_forall. intros y Hy. rewrite Forall_forall in F. specialize (F y Hy). unfold sqop_ltb in F. rewrite C in F. destruct (s_cre y); [discriminate|reflexivity].
Qed.

Section Rename.
  Context (st : osi) (f : index -> index) (t t' : term).
  Hypothesis Sp : forall i, isp (f i) = isp i.
  Hypothesis R : renamed f t t'.
  Lemma rn_creators : Permutation (map f (creators (tm_ops t))) (creators (tm_ops t')).
  Proof.
    destruct R as (_ & P & _). unfold creators. rewrite <- (Permutation_map s_idx (filter_perm s_cre _ _ P)). apply perm_eq. clear. induction (tm_ops t) as [|o l IH]; [reflexivity|]. cbn [map filter rename_op s_cre]. destruct (s_cre o); cbn [map s_idx]; [f_equal|]; exact IH.
  Qed.
  Lemma rn_annihilators : Permutation (map f (annihilators (tm_ops t))) (annihilators (tm_ops t')).
  Proof.
    destruct R as (_ & P & _). unfold annihilators. rewrite <- (Permutation_map s_idx (filter_perm (fun o => negb (s_cre o)) _ _ P)). apply perm_eq. clear. induction (tm_ops t) as [|o l IH]; [reflexivity|]. cbn [map filter rename_op s_cre]. destruct (s_cre o); cbn [map s_idx negb]; [|f_equal]; exact IH.
  Qed.
  Lemma rn_flat (g : tensor -> list index) : (forall d, g (rename_tensor f d) = map f (g d)) -> (forall d d', same_tensor d d' -> Permutation (g d) (g d')) -> Permutation (map f (flat_map g (tm_tens t))) (flat_map g (tm_tens t')).
  Proof.
    intros G1 G2. destruct R as (_ & _ & ts & P & S). transitivity (flat_map g ts).
    - rewrite <- (Permutation_flat_map g P). apply perm_eq. clear - G1. induction (tm_tens t) as [|d l IH]; [reflexivity|]. cbn [flat_map map]. rewrite map_app, G1, IH. reflexivity.
    - clear - S G2. induction S as [|d d' l l' Sd S IH]; [constructor|]. cbn [flat_map]. apply Permutation_app; auto.
  Qed.
  Lemma rn_upper : Permutation (map f (upper_slots t)) (upper_slots t').
  Proof. unfold upper_slots. rewrite map_app. apply Permutation_app; [|apply rn_creators]. apply rn_flat; [reflexivity|]. intros d d' H. apply H. Qed.
  Lemma rn_lower : Permutation (map f (lower_slots t)) (lower_slots t').
  Proof. unfold lower_slots. rewrite map_app. apply Permutation_app; [|apply rn_annihilators]. apply rn_flat; [reflexivity|]. intros d d' H. apply H. Qed.
  Lemma rn_profiles : Permutation (map (tensor_profile st) (tm_tens t)) (map (tensor_profile st) (tm_tens t')).
  Proof.
    destruct R as (_ & _ & ts & P & S). transitivity (map (tensor_profile st) ts).
    - rewrite <- (Permutation_map (tensor_profile st) P), map_map. apply perm_eq, map_ext. intros d. unfold tensor_profile, rename_tensor. cbn [t_label t_lower t_upper].
      assert (X : forall l s', in_space (map f l) s' = in_space l s') by (intros l s'; apply icnt_map; intros; apply Sp). f_equal; [f_equal|]; apply map_ext; intros s'; symmetry; apply X.
    - apply perm_eq. clear - S. induction S as [|d d' l l' (S1 & _ & _ & S2 & S3) S IH]; [reflexivity|]. cbn [map]. f_equal; auto. unfold tensor_profile. rewrite S1. f_equal; [f_equal|]; apply map_ext; intros s'; apply in_space_perm; auto.
  Qed.
  Lemma rn_plain : Forall (fun d => t_sym d = Antisymmetric /\ t_cc d = false) (tm_tens t) -> Forall (fun d => t_sym d = Antisymmetric /\ t_cc d = false) (tm_tens t').
  Proof.
    destruct R as (_ & _ & ts & P & S). intros H. assert (G : Forall (fun d => t_sym d = Antisymmetric /\ t_cc d = false) ts).
    { rewrite Forall_forall in *. intros d Hd. apply (Permutation_in _ (Permutation_sym P)) in Hd. apply in_map_iff in Hd. destruct Hd as (d0 & <- & Hd). exact (H d0 Hd). }
    clear - S G. induction S as [|d d' l l' (_ & S1 & S2 & _) S IH]; constructor; inversion G; subst; auto. rewrite <- S1, <- S2. auto.
  Qed.
  Lemma rn_length : length (tm_ops t') = length (tm_ops t).
  Proof. destruct R as (_ & P & _). apply Permutation_length in P. rewrite map_length in P. auto. Qed.
  Lemma rn_in_space l s' : in_space (map f l) s' = in_space l s'.
  Proof. apply icnt_map. intros; apply Sp. Qed.
  Lemma rn_ops_in_space s' : ops_in_space t' s' = ops_in_space t s'.
  Proof.
    destruct R as (_ & P & _). unfold ops_in_space. assert (Q := Permutation_length (filter_perm (fun o => s_space o =? s') _ _ P)). rewrite <- Q. clear - Sp.
    induction (tm_ops t) as [|o l IH]; [reflexivity|]. cbn [map filter]. change (s_space (rename_op f o)) with (isp (f (s_idx o))). rewrite Sp. change (isp (s_idx o)) with (s_space o). destruct (s_space o =? s'); cbn [length]; congruence.
  Qed.
End Rename.

Lemma slots_in t i : In i (upper_slots t) \/ In i (lower_slots t) <-> in_term t i.
Proof.
  unfold upper_slots, lower_slots, in_term, in_ops, in_tensors, creators, annihilators. rewrite !in_app_iff, !in_flat_map, !in_map_iff. split.
  - intros [[(d & A & B)|(o & A & B)]|[(d & A & B)|(o & A & B)]]; [right|left|right|left]; eauto; apply filter_In in B; exists o; tauto.
  - intros [(o & A & B)|(d & A & [B|B])]; [|right; left; eauto|left; left; eauto]. destruct (s_cre o) eqn:C; [left|right]; right; exists o; split; auto; apply filter_In; rewrite ?C; auto.
Qed.

Lemma total_perm_ops (g : oper -> Z) l l' : Permutation l l' -> fold_right (fun o z => g o + z) 0 l = fold_right (fun o z => g o + z) 0 l'.
Proof. intros P. induction P; cbn [fold_right]; lia. Qed.
Lemma rank_perm ops ops' : Permutation ops ops' -> ops_rank ops = ops_rank ops'.
Proof.
  intros P. unfold ops_rank. assert (X : forall l a, fold_left (fun a op => a + op_num op) l a = a + fold_right (fun o z => op_num o + z) 0 l) by (induction l as [|x l IH]; intros a; cbn [fold_left fold_right]; [lia|rewrite IH; lia]).
  rewrite !X, (total_perm_ops op_num _ _ P). reflexivity.
Qed.
(** The outcome of one contraction. *)
Section One.
  Context (st : osi) (maxc : Z) (ops ops0 : oprod) (cs : list econ) (t t' : term) (s s' : Z) (ix : leg -> index) (picks : list (list leg * list leg))
    (effects : list (index_map * list tensor * Z)) (rest : list leg) (minrank maxrank : Z).
  Hypothesis Hok : ops_ok st ops.
  Hypothesis HA : Forall (allowed st maxc ops) cs.
  Hypothesis EV : evaluation st ops cs t s ix picks effects rest.
  Hypothesis HC : term_canonicalize st t (Ok (t', s')).
  Hypothesis HP : Permutation ops ops0.
  Hypothesis HR : minrank <= ops_rank ops - total_of ec_num_ops cs <= maxrank.
  Lemma one_contraction : contraction_of st maxc ops0 minrank maxrank t'.
  Proof.
    assert (Sp := eval_spaces st maxc ops cs t s ix picks effects rest HA EV). destruct (eval_einstein2 st ops cs t s ix picks effects rest EV) as (N & P).
    assert (No := eval_ops_nodup st ops cs t s ix picks effects rest EV). assert (Cv := covered t No P).
    destruct (canon_renaming st t t' s' Sp HC) as (f & Fs & Fi & _ & R).
    assert (J : forall i j, in_term t i -> in_term t j -> f i = f j -> i = j).
    { intros i j Hi Hj. apply Fi; [destruct Hi as [Hi|Hi]|destruct Hj as [Hj|Hj]]; auto. }
    constructor.
    - split.
      + eapply Permutation_NoDup; [apply (rn_upper f t t' R)|]. apply (nodup_inj (in_term t)); auto. intros i Hi. apply slots_in. auto.
      + rewrite <- (rn_upper f t t' R), <- (rn_lower f t t' R). apply Permutation_map, P.
    - destruct R as (_ & Po & _). apply (Permutation_map s_idx) in Po. eapply Permutation_NoDup; [exact Po|]. rewrite map_map. change (NoDup (map (fun o => f (s_idx o)) (tm_ops t))). rewrite <- map_map. apply (nodup_inj (in_term t)); auto.
      intros i Hi. apply in_map_iff in Hi. destruct Hi as (o & <- & Ho). left. exists o. auto.
    - intros i Hi. apply slots_in in Hi. assert (X : exists j, in_term t j /\ i = f j).
      { destruct Hi as [Hi|Hi]; [apply (Permutation_in _ (Permutation_sym (rn_upper f t t' R))) in Hi|apply (Permutation_in _ (Permutation_sym (rn_lower f t t' R))) in Hi]; apply in_map_iff in Hi; destruct Hi as (j & <- & Hj); exists j; split; auto; apply slots_in; auto. }
      destruct X as (j & Hj & ->). rewrite Fs. apply Sp, Hj.
    - intros sp Hsp. rewrite (rn_ops_in_space f t t' Fs R). exact (canon_labels st t t' s' Sp Cv No HC sp Hsp).
    - rewrite <- (Permutation_length (rn_upper f t t' R)), map_length. assert (X := eval_size st ops cs t s ix picks effects rest Hok EV). fold (ops_rank ops0). rewrite <- (rank_perm _ _ HP). exact X.
    - destruct (eval_tensors st maxc ops cs t s ix picks effects rest Hok HA EV) as (ds & D1 & D2). exists ds. split; auto. rewrite <- (rn_profiles st f t t' Fs R), D2. apply Permutation_app_tail, Permutation_map, HP.
    - apply (rn_plain f t t' R). exact (eval_plain st maxc ops cs t s ix picks effects rest Hok HA EV).
    - destruct (canon_order st t t' s' HC) as (O & _). split; auto. split; [apply ordered_cre_first, O|]. destruct R as (E & _). rewrite E. exact (eval_no st ops cs t s ix picks effects rest EV).
    - rewrite (rn_length f t t' R). rewrite (eval_length st maxc ops cs t s ix picks effects rest Hok HA EV). exact HR.
    - intros sp Hsp. unfold cre_in, ann_in. rewrite <- (in_space_perm _ _ sp (rn_creators f t t' R)), <- (in_space_perm _ _ sp (rn_annihilators f t t' R)), !(rn_in_space f Fs).
      unfold cre_total, ann_total. rewrite <- (total_perm_ops (fun o => cre_of (op_gm o) sp) _ _ HP), <- (total_perm_ops (fun o => ann_of (op_gm o) sp) _ _ HP).
      exact (eval_balance st maxc ops cs t s ix picks effects rest Hok HA EV sp Hsp).
  Qed.
End One.

Lemma seq_nth {A} (d : A) l : map (fun i => nth i l d) (seq 0 (length l)) = l.
Proof. induction l as [|x l IH]; [reflexivity|]. cbn [length seq map]. f_equal. rewrite <- seq_shift, map_map. exact IH. Qed.
Lemma ec_num_pick c p : rearrangement (length c) p -> ec_num_ops (map (fun A => nth A c gm_zero) p) = ec_num_ops c.
Proof.
  intros P. unfold ec_num_ops. assert (X : forall l a, fold_left (fun a g => a + gm_num_ops g) l a = a + fold_right (fun o z => gm_num_ops o + z) 0 l) by (induction l as [|x l IH]; intros a; cbn [fold_left fold_right]; [lia|rewrite IH; lia]).
  rewrite !X. f_equal. assert (Q : Permutation (map (fun A => nth A c gm_zero) p) c) by (etransitivity; [apply Permutation_map, Permutation_sym, P|rewrite seq_nth; reflexivity]).
  clear - Q. induction Q; cbn [fold_right]; lia.
Qed.
Lemma graph_perm o st maxc ops cs ops' cs' sg : ops_ok st ops -> Forall (allowed st maxc ops) cs -> graph_choice o st ops cs (ops', cs', sg) -> Permutation ops' ops /\ total_of ec_num_ops cs' = total_of ec_num_ops cs.
Proof.
  intros Hok HA H. unfold graph_choice in H. destruct (wt_canonicalize o); [|injection H as -> -> ->; auto].
  destruct (canon_spec _ _ _ _ _ _ Hok H) as (p & q & P & Q & J & -> & -> & _ & _). split.
  - unfold pick_ops. etransitivity; [apply Permutation_map, Permutation_sym, P|rewrite seq_nth; reflexivity].
  - unfold pick_cons. rewrite total_of_map. rewrite (total_of_ext _ (fun c => ec_num_ops (nth c cs []))).
    + rewrite <- total_of_map. apply total_of_perm. etransitivity; [apply Permutation_map, Permutation_sym, Q|rewrite seq_nth; reflexivity].
    + intros c Hc. apply (rearr_in _ _ _ Q) in Hc. apply ec_num_pick. rewrite Forall_forall in HA. specialize (HA _ (nth_In cs [] Hc)). replace (length (nth c cs [])) with (length ops); [exact P|]. inversion HA; match goal with X : con_shape _ _ _ |- _ => destruct X as (X & _); symmetry; exact X end.
Qed.

Section Run.
  Context (o : wt_opts) (st : osi) (factor : rational) (ops : oprod) (minrank maxrank : Z).
  Hypothesis Hok : ops_ok st ops.
  Lemma single_shape fuel els cvs cv l : search fuel o st ops minrank maxrank = Ok (els, cvs) -> In cv cvs ->
    process_single o st els ops factor minrank maxrank cv (Ok l) -> keysP (contraction_of st (wt_maxcumulant o) ops minrank maxrank) l.
  Proof.
    intros E Hcv H. unfold process_single in H. cbn zeta in H. destruct ((minrank <=? ops_rank ops - con_rank els cv) && (ops_rank ops - con_rank els cv <=? maxrank)) eqn:B; [|injection H as ->; constructor].
    destruct H as (bops & bcs & sg & canon & G & C & El).
    destruct (generated_ok _ _ _ _ _ _ _ _ _ Hok E Hcv) as (HA & En). destruct (graph_allowed _ _ _ _ _ _ _ _ Hok HA En G) as (Hok' & HA' & En').
    destruct (evaluate_ok st (wt_maxcumulant o) bops bcs (rat_mul factor (rat_of_Z sg)) Hok' HA' En') as (t & s & ix & picks & effects & rest & Ev & EV).
    rewrite Ev in El. cbn [bind] in El. specialize (C _ _ Ev). destruct canon as [[t' s']| | |]; try discriminate. cbn [bind] in El. injection El as ->.
    destruct (graph_perm _ _ _ _ _ _ _ _ Hok HA G) as (Pm & Tt). constructor; [|constructor]. cbn [fst].
    apply (one_contraction st (wt_maxcumulant o) bops ops bcs t t' s s' ix picks effects rest); auto.
    rewrite Tt, (rank_perm _ _ Pm). apply andb_true_iff in B. destruct B as (B1 & B2). apply Z.leb_le in B1, B2. assert (X : con_rank els cv = total_of ec_num_ops (map (fun c => nth (Z.to_nat c) els []) cv)).
    { unfold con_rank. assert (Y : forall a, fold_left (fun a c => a + ec_num_ops (nth (Z.to_nat c) els [])) cv a = a + total_of ec_num_ops (map (fun c => nth (Z.to_nat c) els []) cv)) by (clear; induction cv as [|c cv IH]; intros a; cbn [fold_left map total_of fold_right]; [lia|rewrite IH; unfold total_of; lia]). apply (Y 0). }
    lia.
  Qed.
  Lemma contract_shape e : contract o st factor ops minrank maxrank (Ok e) -> keysP (contraction_of st (wt_maxcumulant o) ops minrank maxrank) e.
  Proof.
    intros (fuel & R & _). unfold contract_run in R. destruct (search fuel o st ops minrank maxrank) as [[els cvs]| | |] eqn:E; try discriminate. destruct R as (rs & F & Er).
    assert (G : Forall (fun r => forall l, r = Ok l -> keysP (contraction_of st (wt_maxcumulant o) ops minrank maxrank) l) rs).
    { assert (X : forall cv r, In cv cvs -> process_single o st els ops factor minrank maxrank cv r -> forall l, r = Ok l -> keysP (contraction_of st (wt_maxcumulant o) ops minrank maxrank) l) by (intros cv r Hcv H l ->; eapply single_shape; eauto).
      clear - F X. induction F as [|a b la lb Hab F IHF]; [constructor|]. constructor; [exact (X a b (or_introl eq_refl) Hab)|apply IHF; intros y r0 Hy; exact (X y r0 (or_intror Hy))]. }
    assert (K : keysP (contraction_of st (wt_maxcumulant o) ops minrank maxrank) []) by constructor. revert Er K. generalize (@nil (term * rational)). clear - G. induction G as [|r rs Hr G IH]; intros acc Er K; cbn [foldM] in Er; [injection Er as <-; auto|].
    unfold add_outcome at 1 in Er. destruct r as [l| | |]; try discriminate. cbn [bind] in Er. apply (IH _ Er). apply (keysP_mplus term_ltb (contraction_of st (wt_maxcumulant o) ops minrank maxrank)); auto.
  Qed.
End Run.
(** Sums of operator products. *)
Lemma contract_expr_shape o st factor e minrank maxrank r : Forall (fun x => ops_ok st (fst x)) e -> contract_expr o st factor e minrank maxrank (Ok r) ->
  keysP (fun t => exists x, In x e /\ contraction_of st (wt_maxcumulant o) (fst x) minrank maxrank t) r.
Proof.
  intros Hok (rs & F & Er). set (P := fun t => exists x, In x e /\ contraction_of st (wt_maxcumulant o) (fst x) minrank maxrank t).
  assert (G : Forall (fun r => forall l, r = Ok l -> keysP P l) rs).
  { assert (X : forall x r, In x e -> contract o st (rat_mul factor (snd x)) (fst x) minrank maxrank r -> forall l, r = Ok l -> keysP P l).
    { intros x r0 Hx H l ->. rewrite Forall_forall in Hok. assert (K := contract_shape o st _ _ _ _ (Hok x Hx) l H). unfold keysP in *. rewrite Forall_forall in *. intros y Hy. exists x. auto. }
    clearbody P. clear - F X. induction F as [|a b la lb Hab F IHF]; [constructor|]. constructor; [exact (X a b (or_introl eq_refl) Hab)|apply IHF; intros y r0 Hy; exact (X y r0 (or_intror Hy))]. }
  assert (K : keysP P []) by constructor. revert Er K. generalize (@nil (term * rational)). clearbody P. clear - G. induction G as [|r0 rs Hr G IH]; intros acc Er K; cbn [foldM] in Er; [injection Er as <-; auto|].
  unfold add_result at 1 in Er. destruct r0 as [l| | |]; try discriminate. cbn [bind] in Er. apply (IH _ Er). apply (keysP_mplus term_ltb P); auto.
Qed.
