(** The text printed by step 3. *)
From Coq Require Import String.
From Coq Require Import ZArith List Bool Arith Ascii Permutation Lia.
From Verif Require Import Res PartitionsModel RegistryModel RegistryProofs CoreModel OrderProofs CombinatoricsModel RationalModel AlgebraModel SortModel SortSpec
  OperatorModel OperatorSpec OperatorProofs AdjointModel CanonModel CanonSpec NextPermModel WickSearchModel WickSearchSpec WickElemProofs WickElemProofs2 WickCompProofs WickSearchProofs WickEvalModel CountSpec WickCombSpec WickCombProofs WickLegSpec
  WickLegProofs WickLegProofs5 WickLegProofs6 ContractShapeSpec ContractShapeProofs2 WickTotalProofs DecModel TextModel ExprTextModel EquationModel OpTextModel TraceModel TraceSpec TraceProofs TraceProofs2 TraceProofs3 TraceProofs4 TraceProofs5.
Import ListNotations.
Local Open Scope Z_scope.

(** ** The graphs *)
Definition det_event (e : event) : Prop := fst e = Detailed /\ ok_event e.
Section G.
  Context (st : osi) (ops : oprod) (cs : list econ).
  Hypothesis Hn : (nsp st <= max_spaces)%nat.
  Hypothesis Ho : Forall (fun o => length (op_gm o) = max_spaces) ops.
  Hypothesis Hc : Forall (Forall (fun g => length g = max_spaces)) cs.
  Lemma nth_long (l : list gmat) i : Forall (fun g => length g = max_spaces) l -> length (nth i l gm_zero) = max_spaces.
  Proof. intros F. destruct (nth_in_or_default i l gm_zero) as [H| ->]; [|reflexivity]. rewrite Forall_forall in F. auto. Qed.
  Lemma graph_text_ok g : exists t, graph_text st ops cs g = Ok t.
  Proof.
    unfold graph_text. destruct (mapM_all (fun c => bind (gms_str st c) (fun t => Ok (nl ++ t ++ nl))) (gcon cs g)) as (l & ->).
    - intros c Hi. destruct (gms_str_ok st Hn c) as (t & ->); [|cbn [bind]; eauto]. unfold gcon in Hi. apply in_map_iff in Hi. destruct Hi as (j & <- & _). apply Forall_map, Forall_forall. intros i _. apply nth_long.
      destruct (nth_in_or_default (Z.to_nat j) cs []) as [H| ->]; [|constructor]. rewrite Forall_forall in Hc. auto.
    - cbn [bind]. destruct (gms_str_ok st Hn (map op_gm (gops ops g))) as (t & ->); [|cbn [bind]; eauto]. unfold gops. rewrite map_map. apply Forall_map, Forall_forall. intros i _. unfold oper_at.
      destruct (nth_in_or_default (Z.to_nat i) ops (mkOp [] gm_zero)) as [H| ->]; [|reflexivity]. rewrite Forall_forall in Ho. auto.
  Qed.
  Lemma graph_events_ok g s : Forall det_event (graph_events st ops cs g s).
  Proof.
    unfold graph_events. destruct (graph_text_ok (iota (length ops), iota (length cs))) as (t1 & ->). destruct (graph_text_ok g) as (t2 & ->). cbn [bind].
    assert (D : forall t, det_event (Detailed, Ok t)) by (intros; split; [reflexivity|eexists; reflexivity]).
    constructor; [apply D|]. constructor; [apply D|]. apply Forall_app. split; [apply Forall_map, Forall_forall; intros; apply D|]. apply Forall_app. split; [repeat constructor; apply D|].
    apply Forall_app. split; [apply Forall_map, Forall_forall; intros; apply D|]. repeat (constructor; [apply D|]). constructor.
  Qed.
End G.
Lemma choice_events_ok o st maxc ops cs r ev : ops_ok st ops -> Forall (allowed st maxc ops) cs -> graph_choice_traced o st ops cs r ev -> Forall det_event ev.
Proof.
  intros Hok HA. unfold graph_choice_traced. destruct (wt_canonicalize o); [|intros (_ & ->); constructor]. intros (g & gs & s & _ & _ & _ & _ & ->). apply graph_events_ok; [apply Hok| |].
  - destruct Hok as (_ & F). eapply Forall_impl; [|exact F]. intros op (V & _). apply V.
  - eapply Forall_impl; [|exact HA]. intros c H. assert (S : con_shape st (length ops) c) by (inversion H; auto). destruct S as (_ & F). eapply Forall_impl; [|exact F]. intros g0 V. apply V.
Qed.

(** ** The term *)
Lemma Term_str_defined st c t : term_spaces st t -> exists s, Term_str st c t = Ok s.
Proof.
  intros H. unfold Term_str, term_str. destruct (mapM_all (tensor_str st) (tm_tens t)) as (l & ->).
  - intros d Hd. apply tensor_str_ok. intros i Hi. apply H. right. exists d. split; auto. tauto.
  - cbn [bind]. destruct (mapM_all (sqop_str st) (tm_ops t)) as (l' & ->); [|cbn [bind]; eauto]. intros q Hq. assert (Hs : is_space st (isp (s_idx q))) by (apply H; left; exists q; auto).
    unfold sqop_str, op_symbol. destruct (index_str_ok st (s_idx q) Hs) as (i & ->). unfold s_space. destruct (reg_label_defined st _ Hs) as (a & ->). cbn [bind]. eauto.
Qed.

(** ** One composite contraction *)
Section P.
  Context (o : wt_opts) (st : osi) (factor : rational) (ops : oprod) (minrank maxrank : Z) (fuel : nat) (els : list econ) (cvs : list (list Z)).
  Hypothesis Hok : ops_ok st ops.
  Hypothesis HS : search fuel o st ops minrank maxrank = Ok (els, cvs).
  Lemma search_facts : (NoDup els /\ forall c, In c els <-> allowed st (wt_maxcumulant o) ops c) /\
    NoDup cvs /\ forall cv, In cv cvs <-> is_multiset els cv /\ compatible st els ops cv /\ minrank <= left_over els ops cv <= maxrank.
  Proof.
    assert (E := HS). unfold search in E. destruct (8 <? num_spaces st); [discriminate|]. destruct (elementary_contractions fuel st (wt_maxcumulant o) ops) as [els'| | |] eqn:E1; try discriminate. cbn [bind] in E.
    destruct (composite_contractions 101 st els' ops minrank maxrank) as [[L x]| | |] eqn:E2; try discriminate. cbn [bind] in E. injection E as -> ->. split; [apply (els_allowed fuel); auto|].
    destruct (search_spec st ops els minrank maxrank Hok (els_ok fuel st (wt_maxcumulant o) ops els Hok E1) 101 (le_n _)) as [(L' & E3 & N & I & _)|(E3 & _)]; [|congruence].
    rewrite E2 in E3. injection E3 as <- _. split; auto. intros cv. rewrite I. unfold rank_ok. tauto.
  Qed.
  Lemma rank_left cv : ops_rank ops - con_rank els cv = left_over els ops cv.
  Proof.
    unfold left_over, ops_rank, con_rank. f_equal. rewrite used_total. assert (Y : forall a, fold_left (fun a c => a + ec_num_ops (nth (Z.to_nat c) els [])) cv a = a + total_of ec_num_ops (map (fun c => nth (Z.to_nat c) els []) cv)).
    { clear. induction cv as [|c cv IH]; intros a; cbn [fold_left map total_of fold_right]; [lia|rewrite IH; unfold total_of; lia]. } apply (Y 0).
  Qed.
  (** The output for one composite contraction: at the level Basic a header and the drawing, at Summary also the factors and the term. *)
  Definition piece_events (n : Z) (cv : list Z) (p : piece) (ev : list event) : Prop :=
    exists gev kev tx, ev = (Basic, Ok (nl ++ nl ++ str "  Contraction: " ++ dec_text (n + 1) ++ str "  Operator rank: " ++ dec_text (left_over els ops cv) ++ nl)) :: gev ++
        (kev ++ [(Basic, Ok (pc_drawing st p)); (All, Ok tx); (Summary, Ok (factors_text (pc_s p) (pc_factor st factor p) (pc_comb st p)))]) ++
        [(Summary, Ok (term_text st (rat_mul (pc_value st factor p) (pc_coeff st factor p)) (pc_term p)))] /\ Forall det_event gev /\ Forall all_event kev.
  Lemma single_printed n cv l ev : In cv cvs -> single_traced o st els ops factor minrank maxrank n cv (Ok (l, ev)) ->
    exists p, comes_from o st els ops cv p /\ l = [(pc_term p, pc_coeff st factor p)] /\ piece_events n cv p ev.
  Proof.
    intros Hcv H. assert (SH := single_traced_1 _ _ _ _ _ _ _ _ _ _ H). cbn [rmap fst] in SH. apply (single_shape o st factor ops minrank maxrank Hok fuel els cvs cv l HS Hcv) in SH.
    unfold single_traced in H. cbn zeta in H. rewrite rank_left in H. destruct search_facts as (_ & _ & I). destruct (proj1 (I cv) Hcv) as (_ & _ & R1 & R2). apply Z.leb_le in R1, R2. rewrite R1, R2 in H. cbn [andb] in H.
    destruct H as (bops & bcs & sg & canon & gev & G & C & E). destruct (generated_ok _ _ _ _ _ _ _ _ _ Hok HS Hcv) as (HA & En). assert (G' := graph_traced_1 _ _ _ _ _ _ G). destruct (graph_allowed _ _ _ _ _ _ _ _ Hok HA En G') as (Hok' & HA' & En').
    destruct (eval_printed st (wt_maxcumulant o) bops bcs (rat_mul factor (rat_of_Z sg)) Hok' HA' En') as (t & s & ix & picks & effects & rest & kev & X). cbn zeta in X. destruct X as (EV & K & EVAL).
    rewrite EV in E, C. cbn [bind] in E. specialize (C _ _ _ eq_refl). destruct canon as [[t' s']| | |]; try discriminate. cbn [bind] in E. injection E as -> ->.
    set (p := mkPiece bops bcs sg ix picks effects rest s t' s'). exists p. split; [split; [exact G'|exists t; split; [exact EVAL|exact C]]|]. split; [reflexivity|].
    assert (Sp : term_spaces st t') by (inversion SH as [|? ? D _]; subst; apply (co_spaces _ _ _ _ _ _ D)).
    destruct (Term_str_defined st (rat_mul (pc_value st factor p) (pc_coeff st factor p)) t' Sp) as (u & Eu).
    exists gev, kev, (nl ++ str "  positions: " ++ zs_text (map (fun l => place leg_dec l (flat_map (fun p => fst p ++ snd p) picks ++ rest)) (product_legs st bops))). split.
    - assert (W : (Summary, bind (Term_str st (rat_mul (pc_value st factor p) (pc_coeff st factor p)) t') (fun x => Ok (nl ++ str "    term: " ++ x ++ nl))) = (Summary, Ok (term_text st (rat_mul (pc_value st factor p) (pc_coeff st factor p)) (pc_term p)))).
      { unfold term_text. cbn [pc_term p]. rewrite Eu. reflexivity. }
      rewrite <- W. reflexivity.
    - split; [exact (choice_events_ok o st (wt_maxcumulant o) ops _ _ _ Hok HA G)|exact K].
  Qed.
  Lemma run_printed x n' r : forall l n, run_traced o st els ops factor minrank maxrank n x l n' r -> incl l cvs -> forall e ev, r = Ok (e, ev) ->
    exists ps evs, Forall2 (comes_from o st els ops) l ps /\ e = fold_left (fun acc p => mplus term_ltb acc [(pc_term p, pc_coeff st factor p)]) ps (fst x) /\ ev = snd x ++ concat evs /\ n' = n + Z.of_nat (length l) /\
      Forall2 (fun y e => piece_events (n + Z.of_nat (fst y)) (fst (snd y)) (snd (snd y)) e) (combine (seq 0 (length l)) (combine l ps)) evs.
  Proof.
    intros l n R. induction R as [n acc ev|n acc ev cv l0 l ev' n' r HT R IH|n acc ev cv l0 f f' HT F]; intros I e evx E.
    - injection E as <- <-. exists [], []. cbn. rewrite app_nil_r, Z.add_0_r. repeat split; auto.
    - destruct (single_printed n cv l ev' (I cv (or_introl eq_refl)) HT) as (p & C & -> & PE). destruct (IH (fun c Hc => I c (or_intror Hc)) e evx E) as (ps & evs & F & -> & -> & -> & Q). cbn [fst snd length] in *.
      exists (p :: ps), (ev' :: evs). split; [constructor; auto|]. cbn [fold_left concat]. split; [reflexivity|]. split; [rewrite app_assoc; reflexivity|]. split; [lia|]. cbn [length seq combine]. constructor; [cbn [fst snd]; rewrite Z.add_0_r; exact PE|].
      rewrite <- seq_shift. assert (Y : forall (a : list nat) (b : list (list Z * piece)), combine (map S a) b = map (fun z => (S (fst z), snd z)) (combine a b)) by (induction a as [|a0 a IHa]; intros [|b0 b]; cbn; auto; f_equal; apply IHa).
      rewrite Y. clear - Q. induction Q as [|z e0 zs es H Q IHQ]; [constructor|]. cbn [map]. constructor; auto. cbn [fst snd]. replace (n + Z.of_nat (S (fst z))) with (n + Z.of_nat 1 + Z.of_nat (fst z)) by lia. exact H.
    - destruct F as [[_ ->]|[[_ ->]|[_ ->]]]; discriminate.
  Qed.
End P.
