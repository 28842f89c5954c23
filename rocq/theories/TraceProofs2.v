(** Step 3 with output: the results are those without output. *)
From Coq Require Import String.
From Coq Require Import ZArith List Bool Arith Ascii Permutation Lia.
From Verif Require Import Res PartitionsModel RegistryModel RegistryProofs CoreModel CombinatoricsModel RationalModel AlgebraModel SortModel SortSpec
  OperatorModel OperatorSpec OperatorProofs AdjointModel CanonModel NextPermModel WickSearchModel WickSearchSpec WickElemProofs WickElemProofs2 WickCompProofs WickSearchProofs WickEvalModel WickCombProofs WickLegSpec WickLegProofs6 WickTotalProofs
  DecModel TextModel ExprTextModel EquationModel OpTextModel TraceModel TraceProofs.
Import ListNotations.
Local Open Scope Z_scope.

(** ** Evaluation *)
Lemma aset_any {A B} (l : list A) (l' : list B) p v v' : length l = length l' -> (aset l p v = UB /\ aset l' p v' = UB) \/ (exists x x', aset l p v = Ok x /\ aset l' p v' = Ok x' /\ length x = length l /\ length x' = length l').
Proof.
  intros E. unfold aset. rewrite E. destruct ((p <? 0) || _); [left; auto|right]. do 2 eexists. split; [reflexivity|]. split; [reflexivity|]. rewrite !lset_length. auto.
Qed.
Lemma mark_bits_mark ps : forall (b : list bool) (ord : list Z) pos, length b = length ord ->
  (mark_bits b ps = UB /\ mark (ord, pos) ps = UB) \/ (exists b' ord' pos', mark_bits b ps = Ok b' /\ mark (ord, pos) ps = Ok (ord', pos') /\ length b' = length b /\ length ord' = length ord).
Proof.
  unfold mark_bits, mark. induction ps as [|p ps IH]; intros b ord pos E; [right; exists b, ord, pos; auto|]. cbn [foldM].
  destruct (aset_any b ord p true pos E) as [[-> ->]|(x & x' & -> & -> & L & L')]; cbn [bind]; [left; auto|]. destruct (IH x x' (pos + 1)) as [H|(b' & o' & p' & A & B & C & D)]; [congruence|left; exact H|].
  right. exists b', o', p'. split; auto. split; auto. split; congruence.
Qed.
Lemma eval_contr_length st sq m e c e' : eval_contr st sq m e c = Ok e' -> length (es_ord e') = length (es_ord e).
Proof.
  unfold eval_contr. intros E. repeat (apply bind_Ok in E; destruct E as (? & ? & E)). destruct x0 as [pc off]. repeat (apply bind_Ok in E; destruct E as (? & ? & E)). destruct x0 as [pa off2].
  repeat (apply bind_Ok in E; destruct E as (? & ? & E)). destruct x1 as [ord pos].
  assert (M : forall x ps y, mark x ps = Ok y -> length (fst y) = length (fst x)).
  { clear. intros x ps. unfold mark. revert x. induction ps as [|p ps IH]; intros x y E; [injection E as <-; auto|]. cbn [foldM] in E. apply bind_Ok in E. destruct E as (z & E1 & E). apply IH in E. rewrite E. destruct x as [o q]. apply bind_Ok in E1. destruct E1 as (o' & A & E1). injection E1 as <-. cbn [fst].
    unfold aset in A. destruct (_ || _); [discriminate|]. injection A as <-. apply lset_length. }
  apply M in H2, H3. cbn [fst] in *. assert (L : length ord = length (es_ord e)) by congruence.
  destruct (stype st x) as [[]|]; try discriminate; repeat (apply bind_Ok in E; destruct E as (? & ? & E)); try (injection E as <-; exact L).
  destruct x3. injection E as <-. exact L.
Qed.
Lemma contr_trace_erase st sq m e c : length (es_ord e) = length sq ->
  bind (contr_trace st (length sq) m (es_off e) c) (fun _ => eval_contr st sq m e c) = eval_contr st sq m e c.
Proof.
  intros L. unfold contr_trace, eval_contr. destruct (ec_space st c) as [s| | |]; cbn [bind]; try reflexivity. destruct (elements_vec_to_pos st c (es_off e) m true) as [[pc off]| | |]; cbn [bind]; try reflexivity.
  destruct (elements_vec_to_pos st c off m false) as [[pa off2]| | |]; cbn [bind]; try reflexivity.
  destruct (mark_bits_mark pc (repeat false (length sq)) (es_ord e) (es_pos e)) as [[-> ->]|(b & o & q & -> & -> & Lb & Lo)]; [rewrite repeat_length; auto|reflexivity|]. cbn [bind]. rewrite repeat_length in Lb.
  destruct (mark_bits_mark pa b o q) as [[-> ->]|(b' & o' & q' & -> & -> & _)]; [congruence|reflexivity|]. cbn [bind]. reflexivity.
Qed.
Definition trace_body (st : osi) (sq : list sqop) (m : assoc key) (x : eval_state * list (list bool) * list event) (c : econ) : res (eval_state * list (list bool) * list event) :=
  let '(e, bits, ev) := x in bind (contr_trace st (length sq) m (es_off e) c) (fun y => let '(b, ev') := y in bind (eval_contr st sq m e c) (fun e => Ok (e, bits ++ [b], ev ++ ev'))).
Lemma trace_fold_erase st sq m cs : forall e bits ev, length (es_ord e) = length sq ->
  rmap (fun x : eval_state * list (list bool) * list event => fst (fst x)) (foldM (trace_body st sq m) (e, bits, ev) cs) = foldM (eval_contr st sq m) e cs.
Proof.
  induction cs as [|c cs IH]; intros e bits ev L; [reflexivity|]. cbn [foldM]. unfold trace_body at 1. assert (X := contr_trace_erase st sq m e c L).
  destruct (contr_trace st (length sq) m (es_off e) c) as [[b ev']| | |]; cbn [bind] in *; try (rewrite <- X; reflexivity).
  destruct (eval_contr st sq m e c) as [e'| | |] eqn:E; cbn [bind rmap]; try reflexivity. apply IH. apply eval_contr_length in E. congruence.
Qed.
Lemma eval_erase st ops cs factor : rmap fst (eval_traced st ops cs factor) = evaluate_contraction st ops cs factor.
Proof.
  unfold eval_traced, evaluate_contraction. destruct (contraction_tensors_sqops st ops) as [l| | |]; cbn [bind rmap]; try reflexivity.
  set (e0 := mkES (ls_tens l) (repeat gm_zero (length ops)) 0 0 1 [] (repeat (-1) (length (ls_sq l)))).
  assert (X := trace_fold_erase st (ls_sq l) (ls_map l) cs e0 [] (product_events st ops)). rewrite <- X by (cbn; apply repeat_length). clear X. fold (trace_body st (ls_sq l) (ls_map l)).
  destruct (foldM (trace_body st (ls_sq l) (ls_map l)) (e0, [], product_events st ops) cs) as [[[e bits] ev]| | |]; cbn [bind rmap fst]; try reflexivity.
  destruct (order_rest st (ls_sq l) (es_ord e) (es_pos e)) as [[ord ?]| | |]; cbn [bind rmap fst]; reflexivity.
Qed.

(** ** Step 3 *)
Lemma graph_traced_1 o st ops cs r ev : graph_choice_traced o st ops cs r ev -> graph_choice o st ops cs r.
Proof.
  unfold graph_choice_traced, graph_choice. destruct (wt_canonicalize o); [|tauto]. intros (g & gs & s & A & B & C & D & _). exists g, gs, s. auto.
Qed.
Lemma graph_traced_2 o st ops cs r : graph_choice o st ops cs r -> exists ev, graph_choice_traced o st ops cs r ev.
Proof.
  unfold graph_choice_traced, graph_choice. destruct (wt_canonicalize o); [|eauto]. intros (g & gs & s & A & B & C & D). eexists. exists g, gs, s. auto.
Qed.
Section S.
  Context (o : wt_opts) (st : osi) (els : list econ) (ops : oprod) (factor : rational) (minrank maxrank : Z).
  Lemma eval_fst a b f : match eval_traced st a b f with Ok (x, _) => evaluate_contraction st a b f = Ok x | Throw => evaluate_contraction st a b f = Throw | UB => evaluate_contraction st a b f = UB | NoFuel => evaluate_contraction st a b f = NoFuel end.
  Proof. assert (X := eval_erase st a b f). destruct (eval_traced st a b f) as [[x ev]| | |]; cbn [rmap fst] in X; congruence. Qed.
  Lemma single_traced_1 n cv r : single_traced o st els ops factor minrank maxrank n cv r -> process_single o st els ops factor minrank maxrank cv (rmap fst r).
  Proof.
    unfold single_traced, process_single. cbn zeta. destruct (_ && _); [|intros ->; reflexivity]. intros (bops & bcs & sign & canon & gev & G & C & ->). exists bops, bcs, sign, canon. split; [eapply graph_traced_1; eauto|].
    assert (X := eval_fst bops bcs (rat_mul factor (rat_of_Z sign))). split.
    - intros t f E. destruct (eval_traced st bops bcs (rat_mul factor (rat_of_Z sign))) as [[[t' f'] ev]| | |]; try congruence. rewrite E in X. injection X as <- <-. eapply C; reflexivity.
    - destruct (eval_traced st bops bcs (rat_mul factor (rat_of_Z sign))) as [[[t' f'] ev]| | |]; rewrite X; cbn [bind rmap]; try reflexivity. destruct canon as [[t s]| | |]; reflexivity.
  Qed.
  Lemma single_traced_2 n cv r : process_single o st els ops factor minrank maxrank cv r -> exists r', single_traced o st els ops factor minrank maxrank n cv r' /\ rmap fst r' = r.
  Proof.
    unfold single_traced, process_single. cbn zeta. destruct (_ && _); [|intros ->; eexists; split; reflexivity]. intros (bops & bcs & sign & canon & G & C & ->). destruct (graph_traced_2 _ _ _ _ _ G) as (gev & G').
    assert (X := eval_fst bops bcs (rat_mul factor (rat_of_Z sign))). eexists. split; [exists bops, bcs, sign, canon, gev; split; [exact G'|split; [|reflexivity]]|].
    - intros t f ev E. rewrite E in X. eapply C; eauto.
    - destruct (eval_traced st bops bcs (rat_mul factor (rat_of_Z sign))) as [[[t' f'] ev]| | |]; rewrite X; cbn [bind rmap]; try reflexivity. destruct canon as [[t s]| | |]; reflexivity.
  Qed.
  Lemma run_traced_1 (Def : list (list Z) -> Prop) : (forall cv cvs, Def (cv :: cvs) -> Def cvs /\ exists r, process_single o st els ops factor minrank maxrank cv r) ->
    forall n x cvs n' r, run_traced o st els ops factor minrank maxrank n x cvs n' r -> Def cvs -> exists rs, Forall2 (process_single o st els ops factor minrank maxrank) cvs rs /\ rmap fst r = foldM add_outcome (fst x) rs.
  Proof.
    intros HD n x cvs n' r R. induction R as [n acc ev|n acc ev cv cvs l ev' n' r S R IH|n acc ev cv cvs f f' S F]; intros D.
    - exists []. split; [constructor|reflexivity].
    - destruct (HD _ _ D) as (D' & _). destruct (IH D') as (rs & F & E). apply single_traced_1 in S. cbn [rmap fst] in *. exists (Ok l :: rs). split; [constructor; auto|]. cbn [foldM]. unfold add_outcome at 1. cbn [bind]. exact E.
    - assert (G : forall l, Def l -> exists rs, Forall2 (process_single o st els ops factor minrank maxrank) l rs). { induction l as [|c l IH]; intros Dl; [exists []; constructor|]. destruct (HD _ _ Dl) as (Dl' & (q & Hq)). destruct (IH Dl') as (rs & Hrs). exists (q :: rs). constructor; auto. }
      destruct (HD _ _ D) as (D' & _). destruct (G cvs D') as (rs & Hrs). apply single_traced_1 in S. exists (rmap fst f :: rs). split; [constructor; auto|]. cbn [foldM]. destruct F as [[-> ->]|[[-> ->]|[-> ->]]]; reflexivity.
  Qed.
  Lemma run_traced_2 cvs : forall rs acc n ev, Forall2 (process_single o st els ops factor minrank maxrank) cvs rs ->
    exists n' r, run_traced o st els ops factor minrank maxrank n (acc, ev) cvs n' r /\ rmap fst r = foldM add_outcome acc rs.
  Proof.
    induction cvs as [|cv cvs IH]; intros rs acc n ev F; inversion F as [|? r ? rs' Hr F']; subst; [exists n, (Ok (acc, ev)); split; [constructor|reflexivity]|].
    destruct (single_traced_2 n cv r Hr) as (q & Q & <-). destruct q as [[l ev']| | |]; cbn [rmap fst foldM].
    - destruct (IH rs' (mplus term_ltb acc l) (n + Z.of_nat (length l)) (ev ++ ev') F') as (n' & r' & R & E). exists n', r'. split; [econstructor; eauto|exact E].
    - exists n, Throw. split; [eapply rt_fail; eauto|reflexivity].
    - exists n, UB. split; [eapply rt_fail; eauto|reflexivity].
    - exists n, NoFuel. split; [eapply rt_fail; eauto|reflexivity].
  Qed.
End S.

(** ** The whole call *)
Lemma search_erase fuel o st ops minrank maxrank : rmap fst (search_traced fuel o st ops minrank maxrank) = search fuel o st ops minrank maxrank.
Proof.
  unfold search_traced, search. destruct (8 <? num_spaces st); [reflexivity|]. rewrite <- (step1_erase fuel st (wt_maxcumulant o) ops). destruct (step1_traced fuel st (wt_maxcumulant o) ops) as [[els ev1]| | |]; cbn [bind rmap fst]; try reflexivity.
  assert (X := step2_erase 101 st els ops minrank maxrank). destruct (composite_contractions 101 st els ops minrank maxrank) as [[cvs y]| | |]; cbn [bind fst] in *; destruct (step2_traced 101 st els ops minrank maxrank) as [[cvs' ev2]| | |]; cbn [bind rmap fst] in *; congruence.
Qed.
Lemma traced_run_1 fuel o st factor ops minrank maxrank x : ops_ok st ops -> traced_run fuel o st factor ops minrank maxrank x -> contract_run fuel o st factor ops minrank maxrank (rmap fst x).
Proof.
  intros Hok R. unfold traced_run, contract_run in *. assert (X := search_erase fuel o st ops minrank maxrank). destruct (search_traced fuel o st ops minrank maxrank) as [[[els cvs] ev]| | |]; cbn [rmap fst] in X; rewrite <- X; try (subst x; reflexivity).
  destruct R as (y & (n & z & R & ->) & ->). symmetry in X.
  destruct (run_traced_1 o st els ops factor minrank maxrank (fun l => incl l cvs)) with (2 := R) as (rs & F & E).
  - intros cv l I. split; [intros c Hc; apply I; right; auto|]. eapply single_defined; eauto. apply I. left; auto.
  - apply incl_refl.
  - exists rs. split; auto. cbn [fst] in E. rewrite <- E. destruct z as [[? ?]| | |]; reflexivity.
Qed.
Lemma traced_run_2 fuel o st factor ops minrank maxrank r : contract_run fuel o st factor ops minrank maxrank r -> exists x, traced_run fuel o st factor ops minrank maxrank x /\ rmap fst x = r.
Proof.
  intros R. unfold traced_run, contract_run in *. assert (X := search_erase fuel o st ops minrank maxrank). destruct (search_traced fuel o st ops minrank maxrank) as [[[els cvs] ev]| | |]; cbn [rmap fst] in X; rewrite <- X in R; try (subst r; eexists; split; reflexivity).
  destruct R as (rs & F & ->). destruct (run_traced_2 o st els ops factor minrank maxrank cvs rs [] 0 [step3_head] F) as (n & z & R & E). rewrite <- E. eexists. split; [eexists; split; [exists n, z; split; [exact R|reflexivity]|reflexivity]|]. destruct z as [[? ?]| | |]; reflexivity.
Qed.
Lemma search_fuel fuel o st ops minrank maxrank : search_traced fuel o st ops minrank maxrank = NoFuel <-> search fuel o st ops minrank maxrank = NoFuel.
Proof. rewrite <- search_erase. destruct (search_traced fuel o st ops minrank maxrank) as [[[? ?] ?]| | |]; split; intros E; cbn in *; congruence. Qed.
