(** Consequences of the shape of the terms returned by [contract] (C63): printing and parsing, LaTeX, many-body equations. *)
From Coq Require Import Ascii ZArith QArith List Bool Arith Lia Permutation.
From Verif Require Import Res PartitionsModel RegistryModel RegistryProofs RegistryProps CoreModel CombinatoricsModel SortSpec SortModel SortProofs OrderProofs AdjointModel AdjointProofs RationalModel RationalSpec RationalProofs AlgebraModel AlgebraSpec AlgebraProofs OperatorModel OperatorSpec OperatorProofs OperatorProofs3 CanonModel CanonSpec CanonProofs CanonProofs2
  WickSearchModel WickSearchSpec DecModel TextProofs WickEvalModel CountSpec CountProofs WickCombSpec WickCombProofs WickGraphSpec WickGraphProofs WickGraphProofs2
  WickLegSpec WickLegProofs WickLegProofs2 WickLegProofs3 WickLegProofs4 WickLegProofs5 WickLegProofs6 WickTotalProofs WickLinearProofs EquationModel EquationSpec EquationProofs2 TextModel TextSpec ExprTextModel ExprTextSpec ExprTextProofs ExprTextProofs2 ExprTextProofs3 ExprTextProofs4 ExprTextProofs5 LatexModel LatexSpec LatexProofs3 ContractShapeSpec ContractShapeProofs ContractShapeProofs2.
Import ListNotations.
Local Open Scope Z_scope.

(** The result is a well-formed expression: terms in order, each once, reduced non-zero coefficients. *)
Lemma factor_canonical st ops f : canonical f -> canonical (fold_left (fun f o => rat_mul f (op_factor st o)) ops f).
Proof. revert f. induction ops as [|o ops IH]; intros f Hf; [exact Hf|]. cbn [fold_left]. apply IH, rat_mul_canonical; auto. apply op_factor_val. Qed.
Lemma single_canonical o st factor ops minrank maxrank fuel els cvs cv l : ops_ok st ops -> canonical factor -> search fuel o st ops minrank maxrank = Ok (els, cvs) -> In cv cvs ->
  process_single o st els ops factor minrank maxrank cv (Ok l) -> mcanon l.
Proof.
  intros Hok Cf E Hcv H. unfold process_single in H. cbn zeta in H. destruct ((minrank <=? ops_rank ops - con_rank els cv) && (ops_rank ops - con_rank els cv <=? maxrank)) eqn:B; [|injection H as ->; constructor].
  destruct H as (bops & bcs & sg & canon & G & C & El).
  destruct (generated_ok _ _ _ _ _ _ _ _ _ Hok E Hcv) as (HA & En). destruct (graph_allowed _ _ _ _ _ _ _ _ Hok HA En G) as (Hok' & HA' & En').
  destruct (evaluate_ok st (wt_maxcumulant o) bops bcs (rat_mul factor (rat_of_Z sg)) Hok' HA' En') as (t & s & ix & picks & effects & rest & Ev & EV).
  rewrite Ev in El. cbn [bind] in El. destruct canon as [[t' s']| | |]; try discriminate. cbn [bind] in El. injection El as ->. constructor; [|constructor]. cbn [snd].
  repeat apply rat_mul_canonical; auto using rat_of_Z_canonical, combinatorial_canonical. apply factor_canonical, rat_mul_canonical; auto using rat_of_Z_canonical.
Qed.
Lemma contract_wf o st factor ops minrank maxrank e : ops_ok st ops -> canonical factor -> contract o st factor ops minrank maxrank (Ok e) -> wf term_ltb e.
Proof.
  intros Hok Cf (fuel & R & _). unfold contract_run in R. destruct (search fuel o st ops minrank maxrank) as [[els cvs]| | |] eqn:E; try discriminate. destruct R as (rs & F & Er).
  assert (G : Forall (fun r => forall l, r = Ok l -> mcanon l) rs).
  { assert (X : forall cv r, In cv cvs -> process_single o st els ops factor minrank maxrank cv r -> forall l, r = Ok l -> mcanon l) by (intros cv r Hcv H l ->; eapply single_canonical; eauto).
    clear - F X. induction F as [|a b la lb Hab F IHF]; [constructor|]. constructor; [exact (X a b (or_introl eq_refl) Hab)|apply IHF; intros y r0 Hy; exact (X y r0 (or_intror Hy))]. }
  assert (K : wf term_ltb (@nil (term * rational))) by (repeat split; constructor). revert Er K. generalize (@nil (term * rational)). clear - G. induction G as [|r rs Hr G IH]; intros acc Er K; cbn [foldM] in Er; [injection Er as <-; auto|].
  unfold add_outcome at 1 in Er. destruct r as [l| | |]; try discriminate. cbn [bind] in Er. apply (IH _ Er). apply (wf_mplus term_ltb term_eqb swo_term); auto.
Qed.
Lemma contract_expr_wf o st factor e minrank maxrank r : Forall (fun x => ops_ok st (fst x) /\ canonical (snd x)) e -> canonical factor -> contract_expr o st factor e minrank maxrank (Ok r) -> wf term_ltb r.
Proof.
  intros Hok Cf (rs & F & Er). assert (G : Forall (fun r => forall l, r = Ok l -> mcanon l) rs).
  { assert (X : forall x r, In x e -> contract o st (rat_mul factor (snd x)) (fst x) minrank maxrank r -> forall l, r = Ok l -> mcanon l).
    { intros x r0 Hx H l ->. rewrite Forall_forall in Hok. destruct (Hok x Hx) as (H1 & H2). eapply (contract_wf _ _ _ _ _ _ l H1); [|exact H]. apply rat_mul_canonical; auto. }
    clear - F X. induction F as [|a b la lb Hab F IHF]; [constructor|]. constructor; [exact (X a b (or_introl eq_refl) Hab)|apply IHF; intros y r0 Hy; exact (X y r0 (or_intror Hy))]. }
  assert (K : wf term_ltb (@nil (term * rational))) by (repeat split; constructor). revert Er K. generalize (@nil (term * rational)). clear - G. induction G as [|r0 rs Hr G IH]; intros acc Er K; cbn [foldM] in Er; [injection Er as <-; auto|].
  unfold add_result at 1 in Er. destruct r0 as [l| | |]; try discriminate. cbn [bind] in Er. apply (IH _ Er). apply (wf_mplus term_ltb term_eqb swo_term); auto.
Qed.

(** ** Labels *)
Definition nsum (l : list nat) : nat := fold_right Nat.add O l.
Lemma nsum_zero {A} (l : list A) : nsum (map (fun _ => O) l) = O.
Proof. induction l; auto. Qed.
Lemma nsum_add {A} (f g : A -> nat) l : nsum (map (fun x => f x + g x)%nat l) = (nsum (map f l) + nsum (map g l))%nat.
Proof. unfold nsum. induction l as [|x l IH]; [reflexivity|]. cbn [map fold_right]. lia. Qed.
Lemma nsum_one (s : Z) (k : nat) l : NoDup l -> In s l -> nsum (map (fun s' => if s' =? s then k else O) l) = k.
Proof.
  unfold nsum. induction l as [|x l IH]; intros N H; [destruct H|]. cbn [map fold_right]. inversion N; subst. destruct (Z.eqb_spec x s) as [->|Ne].
  - replace (map (fun s' => if s' =? s then k else O) l) with (map (fun _ : Z => O) l); [fold (nsum (map (fun _ : Z => O) l)); rewrite nsum_zero; lia|]. apply map_ext_in. intros y Hy. destruct (Z.eqb_spec y s); [subst; tauto|reflexivity].
  - destruct H as [->|H]; [congruence|]. rewrite IH; auto.
Qed.
Lemma length_by_space st l : (forall i, In i l -> is_space st (isp i)) -> length l = nsum (map (in_space l) (range (num_spaces st))).
Proof.
  induction l as [|i l IH]; intros H; [unfold in_space; cbn [filter length]; rewrite nsum_zero; reflexivity|].
  rewrite (map_ext _ (fun s : Z => Nat.add (if s =? isp i then 1%nat else 0%nat) (in_space l s))).
  - rewrite nsum_add, nsum_one, <- IH; [reflexivity|intros; apply H; right; auto|apply range_nodup|apply range_in, H; left; auto].
  - intros s. unfold in_space. cbn [filter]. rewrite (Z.eqb_sym s). destruct (isp i =? s); reflexivity.
Qed.
Lemma density_telling st maxc d : (forall i, In i (t_upper d) -> is_space st (isp i)) -> density_profile st maxc (tensor_profile st d) -> telling_label d.
Proof.
  intros Sp H. assert (Ln := length_by_space st (t_upper d) Sp). remember (tensor_profile st d) as pr eqn:Ep. unfold tensor_profile in Ep. destruct H as [s Hs Ty|s Hs Ty|s k Hs Ty K1 K2]; injection Ep as E1 E2 E3.
  - rewrite <- E3 in Ln. unfold only_in in Ln. rewrite nsum_one in Ln by (try apply range_nodup; apply range_in, Hs). exists (firstn 5 gamma1_label), (skipn 5 gamma1_label). rewrite <- E1, Ln. repeat split; try (repeat constructor; fail). discriminate.
  - rewrite <- E3 in Ln. unfold only_in in Ln. rewrite nsum_one in Ln by (try apply range_nodup; apply range_in, Hs). exists (firstn 3 eta1_label), (skipn 3 eta1_label). rewrite <- E1, Ln. repeat split; try (repeat constructor; fail). discriminate.
  - rewrite <- E3 in Ln. unfold only_in in Ln. rewrite nsum_one in Ln by (try apply range_nodup; apply range_in, Hs). exists lambda_label, (dec_text (Z.of_nat k)). rewrite <- E1, Ln. repeat split; try (repeat constructor; fail); [discriminate|]. apply dec_pos. lia.
Qed.
Lemma contraction_telling st maxc ops minrank maxrank t : plain_labels ops -> contraction_of st maxc ops minrank maxrank t -> Forall telling_label (tm_tens t).
Proof.
  intros Pl H. destruct (co_tensors _ _ _ _ _ _ H) as (ds & D & P). apply Forall_forall. intros d Hd. assert (Q : In (tensor_profile st d) (map (oper_profile st) ops ++ ds)) by (eapply Permutation_in; [exact P|apply in_map, Hd]).
  apply in_app_or in Q. destruct Q as [Q|Q].
  - apply in_map_iff in Q. destruct Q as (o & E & Ho). unfold plain_labels in Pl. rewrite Forall_forall in Pl. destruct (Pl o Ho) as (s & g & E1 & E2 & E3 & E4 & E5). injection E as El _ _. exists s, g. rewrite <- El, E1. repeat split; auto. rewrite E4. discriminate.
  - rewrite Forall_forall in D. apply (density_telling st maxc); auto. intros i Hi. apply (co_spaces _ _ _ _ _ _ H). right. exists d. auto.
Qed.
(** Different results are printed differently. *)
Lemma contract_latex st sep b1 b2 o1 o2 f1 f2 e1 e2 n1 m1 n2 m2 r1 r2 s : reachable st -> readable_names st -> line_sep sep ->
  Forall (fun x => ops_ok st (fst x) /\ canonical (snd x) /\ plain_labels (fst x)) e1 -> Forall (fun x => ops_ok st (fst x) /\ canonical (snd x) /\ plain_labels (fst x)) e2 -> canonical f1 -> canonical f2 ->
  contract_expr o1 st f1 e1 n1 m1 (Ok r1) -> contract_expr o2 st f2 e2 n2 m2 (Ok r2) -> expr_latex b1 st r1 sep = Ok s -> expr_latex b2 st r2 sep = Ok s -> mequal term_eqb r1 r2 = true.
Proof.
  intros R N Sp H1 H2 C1 C2 K1 K2. assert (G : forall o f e n m r, Forall (fun x => ops_ok st (fst x) /\ canonical (snd x) /\ plain_labels (fst x)) e -> canonical f -> contract_expr o st f e n m (Ok r) ->
    Forall (fun x => canonical (snd x) /\ num (snd x) <> 0 /\ Forall telling_label (tm_tens (fst x))) r).
  { intros o f e n m r H C K. assert (W := contract_expr_wf o st f e n m r). destruct W as (_ & Wc & Wn); auto; [eapply Forall_impl; [|exact H]; cbn; tauto|].
    assert (S := contract_expr_shape o st f e n m r). unfold keysP in S. rewrite !Forall_forall in *. unfold mcanon, mnz in *. rewrite Forall_forall in Wc, Wn. intros x Hx. split; [apply Wc, Hx|]. split.
    - intros Z0. apply (Wn x Hx). unfold Qval. rewrite Z0. destruct (den (snd x)); reflexivity.
    - destruct S with (x := x) as (y & Hy & Sh); auto; [intros z Hz; apply H, Hz|]. eapply contraction_telling; [|exact Sh]. apply H, Hy. }
  intros L1 L2. exact (latex_equal st sep b1 b2 r1 r2 s R N Sp (G _ _ _ _ _ _ H1 C1 K1) (G _ _ _ _ _ _ H2 C2 K2) L1 L2).
Qed.

(** ** Numbers of indices *)
Lemma label_bound st maxc ops minrank maxrank t i : contraction_of st maxc ops minrank maxrank t -> in_term t i -> 0 <= ipos i < ops_rank ops.
Proof.
  intros H Hi. assert (Hs := co_spaces _ _ _ _ _ _ H i Hi). destruct (co_labels _ _ _ _ _ _ H (isp i) Hs) as (k & _ & Lb). set (n := (ops_in_space t (isp i) + k)%nat) in *.
  assert (B : Z.of_nat n <= ops_rank ops).
  { eapply Z.le_trans; [|exact (co_size _ _ _ _ _ _ H)]. apply inj_le. rewrite <- (seq_length n 0), <- (map_length (fun j => mkI (isp i) (Z.of_nat j))). apply NoDup_incl_length.
    - apply FinFun.Injective_map_NoDup; [|apply seq_NoDup]. intros a b E. injection E as E. lia.
    - intros j Hj. apply in_map_iff in Hj. destruct Hj as (a & <- & Ha). apply in_seq in Ha. destruct (co_einstein _ _ _ _ _ _ H) as (_ & P).
      assert (X : in_term t (mkI (isp i) (Z.of_nat a))) by (apply Lb; lia). apply slots_in in X. destruct X as [X|X]; auto. apply (Permutation_in _ (Permutation_sym P)), X. }
  destruct i as [a b]. cbn [isp ipos] in *. apply Lb in Hi. lia.
Qed.

(** ** Printing and parsing *)
Lemma digits_alnum l : all_of is_digit l -> all_of is_alnum l.
Proof. unfold all_of. intros H. eapply Forall_impl; [|exact H]. cbn beta. intros c Hc. unfold is_alnum. rewrite Hc. apply orb_true_r. Qed.
Lemma contraction_printable st maxc ops minrank maxrank t : (forall sp l, space_label st sp = Ok l -> is_alpha l = true) -> Forall (fun o => name_label (op_label o)) ops -> ops_rank ops <= max_int ->
  contraction_of st maxc ops minrank maxrank t -> printable_term st t.
Proof.
  intros Sl Nl Bd H. assert (Pi : forall i, in_term t i -> printable_index st i).
  { intros i Hi. assert (X := label_bound _ _ _ _ _ _ _ H Hi). split; [lia|]. destruct (reg_label_defined st (isp i) (co_spaces _ _ _ _ _ _ H i Hi)) as (l & El). exists l. split; [exact El|]. eapply Sl, El. }
  split; [|apply Forall_forall; intros o Ho; apply Pi; left; exists o; auto].
  destruct (co_tensors _ _ _ _ _ _ H) as (ds & D & P). apply Forall_forall. intros d Hd. split; [|split; apply Forall_forall; intros i Hi; apply Pi; right; exists d; auto].
  assert (Q : In (tensor_profile st d) (map (oper_profile st) ops ++ ds)) by (eapply Permutation_in; [exact P|apply in_map, Hd]). apply in_app_or in Q. destruct Q as [Q|Q].
  - apply in_map_iff in Q. destruct Q as (o & E & Ho). rewrite Forall_forall in Nl. injection E as El _ _. rewrite <- El. exact (Nl o Ho).
  - rewrite Forall_forall in D. specialize (D _ Q). remember (tensor_profile st d) as pr eqn:Ep. unfold tensor_profile in Ep. destruct D as [s Hs Ty|s Hs Ty|s k Hs Ty K1 K2]; injection Ep as E1 E2 E3; rewrite <- E1.
    + eexists _, _. split; [reflexivity|]. split; [reflexivity|repeat constructor].
    + eexists _, _. split; [reflexivity|]. split; [reflexivity|repeat constructor].
    + eexists _, _. split; [reflexivity|]. split; [reflexivity|]. do 5 (constructor; [reflexivity|]). apply digits_alnum, dec_pos. lia.
Qed.
Lemma contract_str o st factor e minrank maxrank r : reachable st -> (forall sp l, space_label st sp = Ok l -> is_alpha l = true) ->
  Forall (fun x => ops_ok st (fst x) /\ canonical (snd x) /\ Forall (fun o => name_label (op_label o)) (fst x) /\ ops_rank (fst x) <= max_int) e -> canonical factor ->
  contract_expr o st factor e minrank maxrank (Ok r) -> Forall (fun x => in_int (snd x)) r -> (forall x r', r = x :: r' -> ~ glued x) ->
  exists s r', expr_str st r = Ok s /\ string_to_expr st s = Ok r' /\ mequal term_eqb r' r = true.
Proof.
  intros R Sl H C K I G. apply expr_roundtrip_equal; auto.
  - eapply contract_expr_wf; [|exact C|exact K]. eapply Forall_impl; [|exact H]. cbn. tauto.
  - assert (S := contract_expr_shape o st factor e minrank maxrank r). unfold keysP in S. rewrite !Forall_forall in *. intros x Hx. split; [|apply I, Hx]. destruct S with (x := x) as (y & Hy & Sh); auto; [intros z Hz; apply H, Hz|].
    destruct (H y Hy) as (_ & _ & N & B). eapply contraction_printable; eauto.
Qed.

(** ** Many-body equations *)
Lemma contract_manybody o st factor e minrank maxrank r label : Forall (fun x => ops_ok st (fst x)) e -> contract_expr o st factor e minrank maxrank (Ok r) ->
  exists m, to_manybody st label r = Ok m /\ Permutation (concat (map snd m)) (map (equation_of label) r) /\ forall x y, In x r -> In y r -> equation_of label x = equation_of label y -> x = y.
Proof.
  intros H K. assert (S := contract_expr_shape o st factor e minrank maxrank r H K). unfold keysP in S. rewrite Forall_forall in S.
  destruct (manybody_ok st label r) as (m & E & _ & _ & _ & P).
  - intros x q Hx Hq. destruct (S x Hx) as (y & _ & Sh). apply (co_spaces _ _ _ _ _ _ Sh). left. exists q. auto.
  - exists m. split; [exact E|]. split; [exact P|]. intros x y Hx Hy. destruct (S x Hx) as (x' & _ & Sx). destruct (S y Hy) as (y' & _ & Sy). destruct (co_order _ _ _ _ _ _ Sx) as (_ & O1 & N1). destruct (co_order _ _ _ _ _ _ Sy) as (_ & O2 & N2).
    apply equation_inj; auto. congruence.
Qed.
(** The left-hand tensor of such an equation: distinct indices, all of them on the right-hand side. *)
Lemma contraction_lhs st maxc ops minrank maxrank t label c : contraction_of st maxc ops minrank maxrank t ->
  let e := equation_of label (t, c) in exists lhs, tm_tens (eq_lhs e) = [lhs] /\ NoDup (slots_of lhs) /\ incl (slots_of lhs) (flat_map slots_of (tm_tens (eq_rhs e))) /\
    (forall d, In d (lhs :: tm_tens (eq_rhs e)) -> forall i, In i (slots_of d) -> is_space st (isp i)) /\
    (Z.of_nat (length (nodup index_dec (flat_map slots_of (tm_tens (eq_rhs e) ++ [lhs])))) <= ops_rank ops) /\ (ops <> [] -> tm_tens (eq_rhs e) <> []).
Proof.
  intros H e. set (lhs := mkT label (creators (tm_ops t)) (rev (annihilators (tm_ops t))) Antisymmetric false). exists lhs. split; [reflexivity|]. change (tm_tens (eq_rhs e)) with (tm_tens t). unfold slots_of at 1 2. cbn [lhs t_upper t_lower].
  assert (Pm : Permutation (rev (annihilators (tm_ops t)) ++ creators (tm_ops t)) (map s_idx (tm_ops t))).
  { rewrite <- Permutation_rev. unfold creators, annihilators. rewrite <- map_app. apply Permutation_map. clear. induction (tm_ops t) as [|o l IH]; [reflexivity|]. cbn [filter]. destruct (s_cre o); cbn [negb app]; [|apply perm_skip, IH].
    etransitivity; [apply Permutation_sym, Permutation_middle|]. apply perm_skip, IH. }
  destruct (co_einstein _ _ _ _ _ _ H) as (N & P). assert (Cv := covered t (co_open _ _ _ _ _ _ H) P).
  assert (In1 : forall i, In i (flat_map slots_of (tm_tens t)) <-> in_tensors t i).
  { intros i. unfold in_tensors, slots_of. rewrite in_flat_map. split; intros (d & Hd & Hi); exists d; split; auto; rewrite in_app_iff in *; tauto. }
  assert (In2 : forall i, In i (slots_of lhs) -> in_ops t i).
  { intros i Hi. apply (Permutation_in _ Pm) in Hi. apply in_map_iff in Hi. destruct Hi as (o & E & Ho). exists o. auto. }
  split; [eapply Permutation_NoDup; [apply Permutation_sym, Pm|apply (co_open _ _ _ _ _ _ H)]|]. split.
  { intros i Hi. apply In1, Cv, In2, Hi. }
  split; [|split].
  - intros d [<-|Hd] i Hi; apply (co_spaces _ _ _ _ _ _ H); [left; apply In2, Hi|right; apply In1, in_flat_map; eauto].
  - eapply Z.le_trans; [|exact (co_size _ _ _ _ _ _ H)]. apply inj_le, NoDup_incl_length; [apply NoDup_nodup|]. intros i Hi. apply nodup_In in Hi. rewrite flat_map_app, in_app_iff in Hi.
    assert (X : in_term t i) by (destruct Hi as [Hi|Hi]; [right; apply In1, Hi|cbn [flat_map] in Hi; rewrite app_nil_r in Hi; left; apply In2, Hi]). apply slots_in in X. destruct X as [X|X]; auto. apply (Permutation_in _ (Permutation_sym P)), X.
  - destruct (co_tensors _ _ _ _ _ _ H) as (ds & _ & Pt). intros Ne E. rewrite E in Pt. apply Permutation_nil in Pt. destruct ops; [congruence|discriminate].
Qed.
