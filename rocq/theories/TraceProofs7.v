(** The whole transcript. *)
From Coq Require Import String.
From Coq Require Import ZArith List Bool Arith Ascii Permutation Lia.
From Verif Require Import Res PartitionsModel RegistryModel RegistryProofs CoreModel OrderProofs CombinatoricsModel RationalModel AlgebraModel SortModel SortSpec
  OperatorModel OperatorSpec OperatorProofs AdjointModel CanonModel CanonSpec NextPermModel WickSearchModel WickSearchSpec WickElemProofs WickElemProofs2 WickCompProofs WickSearchProofs WickEvalModel CountSpec WickCombSpec WickCombProofs WickLegSpec
  WickLegProofs WickLegProofs5 WickLegProofs6 ContractShapeSpec ContractShapeProofs2 WickTotalProofs DecModel TextModel ExprTextModel EquationModel OpTextModel TraceModel TraceSpec TraceProofs TraceProofs2 TraceProofs3 TraceProofs4 TraceProofs5 TraceProofs6.
Import ListNotations.
Local Open Scope Z_scope.

Lemma numbered_eq {A B} (f : nat -> A -> B) a l : numbered f a l = map (fun x => f (a + fst x)%nat (snd x)) (combine (seq 0 (length l)) l).
Proof.
  unfold numbered. revert a. induction l as [|x l IH]; intros a; [reflexivity|]. cbn [length seq combine map fst snd]. rewrite Nat.add_0_r. f_equal. rewrite (IH (S a)). rewrite <- seq_shift.
  generalize (seq 0 (length l)). intros s. clear. revert s. induction l as [|y l IH]; intros [|k s]; cbn; auto. f_equal; [|apply IH]. f_equal. lia.
Qed.
Lemma combine_len {A B} (R : A -> B -> Prop) l l' : Forall2 R l l' -> length (combine l l') = length l.
Proof. induction 1; cbn; auto. Qed.

Section T.
  Context (o : wt_opts) (st : osi) (factor : rational) (ops : oprod) (minrank maxrank : Z).
  Hypothesis Hok : ops_ok st ops.
  Lemma piece_ok els n cv p ev : piece_events st factor ops els n cv p ev -> Forall ok_event ev.
  Proof.
    intros (gev & kev & tx & -> & G & K). assert (D : forall i t, ok_event (i, Ok t)) by (intros; eexists; reflexivity). constructor; [apply D|]. apply Forall_app. split; [eapply Forall_impl; [|exact G]; intros e (_ & H); exact H|].
    apply Forall_app. split; [apply Forall_app; split; [eapply Forall_impl; [|exact K]; intros e (_ & H); exact H|]|]; repeat (constructor; [apply D|]); constructor.
  Qed.
  Lemma hide_det p ev : p < Detailed -> Forall det_event ev -> txt p ev = [].
  Proof. intros Hp F. apply txt_hidden. eapply Forall_impl; [|exact F]. intros e (-> & _). exact Hp. Qed.
  Lemma hide_all p ev : p < All -> Forall all_event ev -> txt p ev = [].
  Proof. intros Hp F. apply txt_hidden. eapply Forall_impl; [|exact F]. intros e (-> & _). exact Hp. Qed.
  Lemma piece_basic els n cv p ev : piece_events st factor ops els (Z.of_nat n) cv p ev -> txt Basic ev = basic_piece st els ops (S n) (cv, p).
  Proof.
    intros (gev & kev & tx & -> & G & K). rewrite txt_cons, !txt_app, hide_det, hide_all by (auto; reflexivity). unfold txt. cbn [filter map concat fst snd text_of app].
    change (Basic <=? Basic) with true. change (All <=? Basic) with false. change (Summary <=? Basic) with false. cbn iota. cbn [map concat snd text_of]. rewrite !app_nil_r. unfold basic_piece, header. cbn [fst snd].
    replace (Z.of_nat n + 1) with (Z.of_nat (S n)) by lia. reflexivity.
  Qed.
  Lemma piece_summary els n cv p ev : piece_events st factor ops els (Z.of_nat n) cv p ev -> txt Summary ev = summary_piece st factor els ops (S n) (cv, p).
  Proof.
    intros (gev & kev & tx & -> & G & K). rewrite txt_cons, !txt_app, hide_det, hide_all by (auto; reflexivity). unfold txt. cbn [filter map concat fst snd text_of app].
    change (Basic <=? Summary) with true. change (All <=? Summary) with false. change (Summary <=? Summary) with true. cbn iota. cbn [map concat snd text_of]. rewrite !app_nil_r. unfold summary_piece, basic_piece, header. cbn [fst snd].
    replace (Z.of_nat n + 1) with (Z.of_nat (S n)) by lia. rewrite <- !app_assoc. reflexivity.
  Qed.
  Lemma pieces_text els (F : nat -> list Z * piece -> text) lv l ps evs : (forall n cv p ev, piece_events st factor ops els (Z.of_nat n) cv p ev -> txt lv ev = F (S n) (cv, p)) ->
    length (combine l ps) = length l ->
    Forall2 (fun y e => piece_events st factor ops els (0 + Z.of_nat (fst y)) (fst (snd y)) (snd (snd y)) e) (combine (seq 0 (length l)) (combine l ps)) evs ->
    Forall ok_event (concat evs) /\ txt lv (concat evs) = concat (numbered F 1 (combine l ps)).
  Proof.
    intros HF Lc Q. rewrite numbered_eq, Lc. revert Q. generalize (combine (seq 0 (length l)) (combine l ps)). intros zs Q. induction Q as [|z ev zs es H Q (I1 & I2)]; [split; [constructor|reflexivity]|]. cbn [concat map]. split.
    - apply Forall_app. split; auto. eapply piece_ok; eauto.
    - rewrite txt_app, I2. f_equal. rewrite Z.add_0_l in H. rewrite (HF _ _ _ _ H). destruct z as [n [cv p]]. reflexivity.
  Qed.

  (** What a successful call prints. *)
  Record all_printed (e : expression) (ev : list event) (els : list econ) (cvs : list (list Z)) (ps : list piece) (ev1 ev2 : list event) (evs : list (list event)) : Prop := {
    ap_events : ev = head_event st ops :: (step1_head st ops ++ ev1) ++ (step2_head ++ ev2) ++ (step3_head :: concat evs ++ step3_tail (Z.of_nat (length cvs)));
    ap_work : worked_out o st factor ops minrank maxrank els cvs ps e;
    ap_listed : listed st 0 els ev1;
    ap_step2 : Forall ok_event (step2_head ++ ev2) /\ Forall (fun e => fst e = Summary) ev2 /\ txt Summary (step2_head ++ ev2) = composites st els ops cvs;
    ap_pieces : Forall2 (fun y e => piece_events st factor ops els (0 + Z.of_nat (fst y)) (fst (snd y)) (snd (snd y)) e) (combine (seq 0 (length cvs)) (combine cvs ps)) evs;
    ap_long : els_long els }.
  Lemma run_all fuel e ev : traced_run fuel o st factor ops minrank maxrank (Ok (e, ev)) -> exists els cvs ps ev1 ev2 evs, all_printed e ev els cvs ps ev1 ev2 evs.
  Proof.
    intros R. unfold traced_run in R. assert (E := search_erase fuel o st ops minrank maxrank). destruct (search_traced fuel o st ops minrank maxrank) as [[[els cvs] ev0]| | |] eqn:ES; try discriminate. cbn [rmap fst] in E. symmetry in E.
    destruct R as (x & (n & y & R & ->) & Ex). destruct y as [[e' ev']| | |]; cbn [bind] in Ex; try discriminate. injection Ex as -> ->.
    destruct (run_printed o st factor ops minrank maxrank fuel els cvs Hok E _ _ _ _ _ R (incl_refl _) _ _ eq_refl) as (ps & evs & F & Ee & -> & -> & Q). cbn [fst snd] in *.
    destruct (search_facts o st ops minrank maxrank fuel els cvs Hok E) as (F1 & F2 & F3).
    unfold search_traced in ES. destruct (8 <? num_spaces st); [discriminate|]. destruct (step1_traced fuel st (wt_maxcumulant o) ops) as [[els1 ev1]| | |] eqn:E1; cbn [bind] in ES; try discriminate.
    destruct (step2_traced 101 st els1 ops minrank maxrank) as [[cvs2 ev2]| | |] eqn:E2; cbn [bind] in ES; try discriminate. injection ES as -> -> <-.
    destruct (step1_listed st (proj1 Hok) fuel _ _ _ _ E1) as (e1 & -> & L1).
    assert (EL : elementary_contractions fuel st (wt_maxcumulant o) ops = Ok els) by (rewrite <- step1_erase, E1; reflexivity).
    assert (ELS := els_ok fuel st (wt_maxcumulant o) ops els Hok EL).
    assert (M : Forall (is_multiset els) cvs) by (apply Forall_forall; intros cv Hcv; apply F3 in Hcv; tauto).
    destruct (step2_text st ops els minrank maxrank Hok ELS cvs ev2 101 M E2) as (O2 & T2).
    assert (EV2 := step2_events st ops els minrank maxrank Hok ELS 101 cvs ev2 E2).
    exists els, cvs, ps, e1, (lines2 st ops els 0 cvs ++ [total_event (Z.of_nat (length cvs))]), evs. subst ev2. constructor; auto.
    - rewrite Z.add_0_l. cbn [app]. rewrite <- !app_assoc. cbn [app]. reflexivity.
    - constructor; auto.
    - split; [exact O2|]. split; [|exact T2]. apply Forall_app. split; [|repeat constructor]. clear. generalize 0. induction cvs as [|cv cvs IH]; intros k; cbn [lines2]; constructor; auto.
    - unfold els_long. eapply Forall_impl; [|exact ELS]. intros c ((_ & H) & _). eapply Forall_impl; [|exact H]. intros g Hg. apply Hg.
  Qed.
  Lemma hide_summary p ev : p < Summary -> Forall (fun e : event => fst e = Summary) ev -> txt p ev = [].
  Proof. intros Hp F. apply txt_hidden. eapply Forall_impl; [|exact F]. intros e ->. exact Hp. Qed.
  Lemma listed_levels n els ev : listed st n els ev -> Forall (fun e : event => fst e = Summary) ev.
  Proof. induction 1; constructor; auto. Qed.
  Lemma all_ok e ev els cvs ps ev1 ev2 evs : all_printed e ev els cvs ps ev1 ev2 evs -> Forall ok_event ev.
  Proof.
    intros [-> W L (O2 & _) Q N]. destruct (opening_ok st ops Hok) as (O1 & _). destruct (listed_text st (proj1 Hok) _ _ _ L N) as (O3 & _).
    destruct (pieces_text els (basic_piece st els ops) Basic cvs ps evs (piece_basic els) (combine_len _ _ _ (wo_pieces _ _ _ _ _ _ _ _ _ _ W)) Q) as (O4 & _).
    inversion O1; subst. constructor; auto. apply Forall_app. split; [apply Forall_app; split; auto|]. apply Forall_app. split; auto. constructor; [eexists; reflexivity|]. apply Forall_app. split; auto.
    unfold step3_tail. destruct (_ =? 0); repeat constructor. eexists; reflexivity.
  Qed.
  Lemma all_summary e ev els cvs ps ev1 ev2 evs : all_printed e ev els cvs ps ev1 ev2 evs -> exists lst, listing st 0 els lst /\
    txt Summary ev = opening st ops ++ lst ++ composites st els ops cvs ++ step3_title ++ concat (numbered (summary_piece st factor els ops) 1 (combine cvs ps)) ++ no_contractions cvs.
  Proof.
    intros [-> W L (_ & _ & T2) Q N]. destruct (opening_ok st ops Hok) as (_ & T1). destruct (listed_text st (proj1 Hok) _ _ _ L N) as (_ & T3).
    destruct (pieces_text els (summary_piece st factor els ops) Summary cvs ps evs (piece_summary els) (combine_len _ _ _ (wo_pieces _ _ _ _ _ _ _ _ _ _ W)) Q) as (_ & T4).
    exists (txt Summary ev1). split; [exact T3|].
    replace (head_event st ops :: (step1_head st ops ++ ev1) ++ (step2_head ++ ev2) ++ step3_head :: concat evs ++ step3_tail (Z.of_nat (length cvs))) with
      ((head_event st ops :: step1_head st ops) ++ ev1 ++ (step2_head ++ ev2) ++ [step3_head] ++ concat evs ++ step3_tail (Z.of_nat (length cvs))) by (cbn [app]; rewrite <- !app_assoc; reflexivity).
    rewrite (txt_app _ (head_event st ops :: step1_head st ops)), (txt_app _ ev1), (txt_app _ (step2_head ++ ev2)), (txt_app _ [step3_head]), (txt_app _ (concat evs)), T1, T2, T4.
    assert (Z1 : txt Summary [step3_head] = step3_title); [|assert (Z2 : txt Summary (step3_tail (Z.of_nat (length cvs))) = no_contractions cvs); [|rewrite Z1, Z2; reflexivity]].
    - unfold txt. cbn [filter map concat fst snd step3_head text_of]. change (Summary <=? Summary) with true. cbn iota. cbn [map concat snd text_of]. rewrite app_nil_r. reflexivity.
    - destruct cvs as [|cv cvs]; [reflexivity|]. unfold step3_tail. cbn [length]. destruct (Z.eqb_spec (Z.of_nat (S (length cvs))) 0); [lia|reflexivity].
  Qed.
  Lemma all_basic e ev els cvs ps ev1 ev2 evs : all_printed e ev els cvs ps ev1 ev2 evs -> txt Basic ev = concat (numbered (basic_piece st els ops) 1 (combine cvs ps)).
  Proof.
    intros [-> W L (_ & S2 & _) Q N].
    destruct (pieces_text els (basic_piece st els ops) Basic cvs ps evs (piece_basic els) (combine_len _ _ _ (wo_pieces _ _ _ _ _ _ _ _ _ _ W)) Q) as (_ & T4).
    rewrite txt_cons, !txt_app, txt_cons, txt_app, T4. rewrite (hide_summary Basic ev1), (hide_summary Basic ev2) by (auto; try reflexivity; eapply listed_levels; eauto).
    assert (Y : txt Basic (step3_tail (Z.of_nat (length cvs))) = []) by (unfold step3_tail; destruct (_ =? 0); reflexivity). rewrite Y. cbn. rewrite !app_nil_r. reflexivity.
  Qed.
  Lemma all_none p e ev els cvs ps ev1 ev2 evs : p <= 0 -> all_printed e ev els cvs ps ev1 ev2 evs -> txt p ev = [].
  Proof.
    intros Hp [-> W L (_ & S2 & _) Q N]. assert (P : p < Summary) by (unfold Summary; lia). apply txt_hidden.
    assert (D : forall l, Forall (fun e : event => fst e = Summary) l -> Forall (fun e : event => p < fst e) l) by (intros l; apply Forall_impl; intros x ->; exact P).
    constructor; [exact P|]. apply Forall_app. split; [apply Forall_app; split; [repeat constructor; exact P|apply D; eapply listed_levels; eauto]|]. apply Forall_app. split; [apply Forall_app; split; [repeat constructor; exact P|auto]|].
    constructor; [exact P|]. apply Forall_app. split.
    - revert Q. generalize (combine (seq 0 (length cvs)) (combine cvs ps)). clear - Hp P. intros zs Q. induction Q as [|z ev zs es (gev & kev & tx & -> & G & K) Q IH]; [constructor|]. cbn [concat]. apply Forall_app. split; auto.
      assert (p < Basic /\ p < Detailed /\ p < All) as (P1 & P3 & P4) by (unfold Basic, Detailed, All; lia).
      constructor; [exact P1|]. apply Forall_app. split; [eapply Forall_impl; [|exact G]; intros x (-> & _); exact P3|]. apply Forall_app. split; [|repeat constructor; exact P]. apply Forall_app. split; [eapply Forall_impl; [|exact K]; intros x (-> & _); exact P4|]. repeat constructor; cbn [fst]; auto.
    - unfold step3_tail. destruct (_ =? 0); repeat constructor. exact P.
  Qed.
  Lemma printed_inv p e t : contract_printed p o st factor ops minrank maxrank (Ok (e, t)) ->
    exists fuel ev els cvs ps ev1 ev2 evs, traced_run fuel o st factor ops minrank maxrank (Ok (e, ev)) /\ search_traced fuel o st ops minrank maxrank <> NoFuel /\ all_printed e ev els cvs ps ev1 ev2 evs /\ t = txt p ev.
  Proof.
    intros (fuel & x & R & NF & E). destruct x as [[e' ev]| | |]; cbn [bind] in E; try discriminate. destruct (run_all fuel e' ev R) as (els & cvs & ps & ev1 & ev2 & evs & A). rewrite (shown_ok p ev (all_ok _ _ _ _ _ _ _ _ A)) in E. cbn [bind] in E. injection E as -> ->.
    exists fuel, ev, els, cvs, ps, ev1, ev2, evs. auto.
  Qed.
  Lemma printed_result p r : contract o st factor ops minrank maxrank r <-> exists r', contract_printed p o st factor ops minrank maxrank r' /\ result_of r' = r.
  Proof.
    split.
    - intros (fuel & R & NF). destruct (traced_run_2 _ _ _ _ _ _ _ _ R) as (x & T & <-). exists (bind x (fun y => let '(e, ev) := y in bind (shown p ev) (fun t => Ok (e, t)))). split.
      + exists fuel, x. split; [exact T|]. split; [rewrite search_fuel; exact NF|]. destruct x as [[? ?]| | |]; reflexivity.
      + destruct x as [[e ev]| | |]; cbn [bind rmap fst]; try reflexivity. destruct (run_all fuel e ev T) as (els & cvs & ps & ev1 & ev2 & evs & A). rewrite (shown_ok p ev (all_ok _ _ _ _ _ _ _ _ A)). reflexivity.
    - intros (r' & (fuel & x & T & NF & ->) & <-). exists fuel. split; [|rewrite <- search_fuel; exact NF]. assert (R := traced_run_1 _ _ _ _ _ _ _ _ Hok T). destruct x as [[e ev]| | |]; cbn [bind rmap fst] in *; try exact R.
      destruct (run_all fuel e ev T) as (els & cvs & ps & ev1 & ev2 & evs & A). rewrite (shown_ok p ev (all_ok _ _ _ _ _ _ _ _ A)). exact R.
  Qed.
  Lemma printed_none p e t : p <= 0 -> contract_printed p o st factor ops minrank maxrank (Ok (e, t)) -> t = [].
  Proof. intros Hp H. destruct (printed_inv _ _ _ H) as (fuel & ev & els & cvs & ps & ev1 & ev2 & evs & _ & _ & A & ->). eapply all_none; eauto. Qed.
  Lemma printed_basic e t : contract_printed Basic o st factor ops minrank maxrank (Ok (e, t)) -> exists els cvs ps,
    worked_out o st factor ops minrank maxrank els cvs ps e /\ t = concat (numbered (basic_piece st els ops) 1 (combine cvs ps)).
  Proof. intros H. destruct (printed_inv _ _ _ H) as (fuel & ev & els & cvs & ps & ev1 & ev2 & evs & _ & _ & A & ->). exists els, cvs, ps. split; [apply A|]. eapply all_basic; eauto. Qed.
  Lemma printed_summary e t : contract_printed Summary o st factor ops minrank maxrank (Ok (e, t)) -> exists els cvs ps lst,
    worked_out o st factor ops minrank maxrank els cvs ps e /\ listing st 0 els lst /\
    t = opening st ops ++ lst ++ composites st els ops cvs ++ step3_title ++ concat (numbered (summary_piece st factor els ops) 1 (combine cvs ps)) ++ no_contractions cvs.
  Proof. intros H. destruct (printed_inv _ _ _ H) as (fuel & ev & els & cvs & ps & ev1 & ev2 & evs & _ & _ & A & ->). destruct (all_summary _ _ _ _ _ _ _ _ A) as (lst & L & T). exists els, cvs, ps, lst. split; [apply A|]. auto. Qed.
  Lemma sublist_refl {A} (l : list A) : sublist l l. Proof. induction l; [apply sl_nil|apply sl_keep; auto]. Qed.
  Lemma sublist_app {A} (a b c d : list A) : sublist a b -> sublist c d -> sublist (a ++ c) (b ++ d).
  Proof. induction 1; intros H'; cbn [app]; [|apply sl_skip; auto|apply sl_keep; auto]. induction l as [|x l IH]; cbn; [auto|apply sl_skip; auto]. Qed.
  Lemma txt_sub p q ev : p <= q -> sublist (txt p ev) (txt q ev).
  Proof. intros H. induction ev as [|e ev IH]; [constructor|]. rewrite !txt_cons. apply sublist_app; auto. destruct (Z.leb_spec (fst e) p), (Z.leb_spec (fst e) q); try lia; [apply sublist_refl|apply sl_nil|apply sl_nil]. Qed.
  Lemma printed_levels p q e t : p <= q -> contract_printed p o st factor ops minrank maxrank (Ok (e, t)) -> exists t', contract_printed q o st factor ops minrank maxrank (Ok (e, t')) /\ sublist t t'.
  Proof.
    intros Hpq H. destruct (printed_inv _ _ _ H) as (fuel & ev & els & cvs & ps & ev1 & ev2 & evs & T & NF & A & ->). exists (txt q ev). split; [|apply txt_sub, Hpq].
    exists fuel, (Ok (e, ev)). split; [exact T|]. split; [exact NF|]. cbn [bind]. rewrite (shown_ok q ev (all_ok _ _ _ _ _ _ _ _ A)). reflexivity.
  Qed.
End T.
