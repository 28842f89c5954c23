(** What the evaluation of a contraction prints. *)
From Coq Require Import String.
From Coq Require Import ZArith List Bool Arith Ascii Permutation Sorted Lia.
From Verif Require Import Res PartitionsModel RegistryModel RegistryProofs CoreModel OrderProofs CombinatoricsModel CombinatoricsProofs RationalModel AlgebraModel SortModel SortSpec SortProofs SignProofs
  OperatorModel OperatorSpec OperatorProofs AdjointModel CanonModel NextPermModel WickSearchModel WickSearchSpec WickElemProofs WickElemProofs2 WickCompProofs WickSearchProofs WickEvalModel CountSpec CountProofs WickCombSpec WickCombProofs WickLegSpec
  WickLegProofs WickLegProofs2 WickLegProofs3 WickLegProofs4 WickLegProofs5 WickLegProofs6 DecModel TextModel ExprTextModel EquationModel OpTextModel TraceModel TraceSpec TraceProofs TraceProofs2 TraceProofs3.
Import ListNotations.
Local Open Scope Z_scope.

Definition ok_event (e : event) : Prop := exists t, snd e = Ok t.
Lemma map_lset {A B} (f : A -> B) l i v : map f (lset l i v) = lset (map f l) i (f v).
Proof. revert i. induction l as [|a l IH]; intros [|i]; cbn; auto. f_equal. apply IH. Qed.
Lemma mark_bits_vals p0 ps : forall b ord pos b' y, p0 <= pos -> b = map (fun v => p0 <=? v) ord -> mark_bits b ps = Ok b' -> mark (ord, pos) ps = Ok y -> b' = map (fun v => p0 <=? v) (fst y) /\ p0 <= snd y.
Proof.
  unfold mark_bits, mark. induction ps as [|p ps IH]; intros b ord pos b' y Hp Eb B M; [injection B as <-; injection M as <-; auto|]. cbn [foldM] in *. unfold aset in B, M. subst b. rewrite map_length in B.
  destruct ((p <? 0) || _); cbn [bind] in *; [discriminate|]. eapply (IH _ _ (pos + 1)) in M; [exact M|lia| |exact B]. rewrite map_lset. f_equal. symmetry. apply Z.leb_le. exact Hp.
Qed.
Lemma trace_bits st n sq m e c b ev e' : contr_trace st n m (es_off e) c = Ok (b, ev) -> eval_contr st sq m e c = Ok e' -> length (es_ord e) = n -> Forall (fun v => v < es_pos e) (es_ord e) ->
  b = map (fun v => es_pos e <=? v) (es_ord e').
Proof.
  intros T E L F. unfold contr_trace in T. unfold eval_contr in E. destruct (ec_space st c) as [s| | |]; cbn [bind] in *; try discriminate. destruct (elements_vec_to_pos st c (es_off e) m true) as [[pc off]| | |]; cbn [bind] in *; try discriminate.
  destruct (elements_vec_to_pos st c off m false) as [[pa off2]| | |]; cbn [bind] in *; try discriminate.
  destruct (mark_bits (repeat false n) pc) as [b1| | |] eqn:B1; cbn [bind] in *; try discriminate. destruct (mark_bits b1 pa) as [b2| | |] eqn:B2; cbn [bind] in *; try discriminate. injection T as <- <-.
  destruct (mark (es_ord e, es_pos e) pc) as [y1| | |] eqn:M1; cbn [bind] in *; try discriminate. destruct (mark y1 pa) as [[ord pos]| | |] eqn:M2; cbn [bind] in *; try discriminate.
  assert (R : repeat false n = map (fun v => es_pos e <=? v) (es_ord e)). { rewrite <- L. clear - F. induction F as [|v l Hv F IH]; [reflexivity|]. cbn. rewrite <- IH. f_equal. symmetry. apply Z.leb_gt. exact Hv. }
  destruct (mark_bits_vals (es_pos e) pc _ _ _ _ _ (Z.le_refl _) R B1 M1) as (E1 & P1). destruct y1 as [o1 q1]. destruct (mark_bits_vals (es_pos e) pa _ _ _ _ _ P1 E1 B2 M2) as (E2 & _). cbn [fst] in E2. rewrite E2. f_equal.
  destruct (stype st s) as [[]|]; try discriminate; repeat (apply bind_Ok in E; destruct E as (? & ? & E)); try (injection E as <-; reflexivity). destruct x1. injection E as <-. reflexivity.
Qed.
Lemma marks_legs L P : NoDup L -> NoDup P -> incl P L -> marks (map (in_legs P) L) = length P.
Proof.
  intros NL NP I. assert (X : marks (map (in_legs P) L) = length (filter (in_legs P) L)). { unfold marks. clear. induction L as [|l L IH]; [reflexivity|]. cbn [map filter]. destruct (in_legs P l) eqn:E; cbn [count_occ length]; destruct (bool_dec _ _); try discriminate; try congruence; rewrite IH; reflexivity. }
  rewrite X. apply Permutation_length, NoDup_Permutation; auto; [apply NoDup_filter; auto|]. intros l. rewrite filter_In. unfold in_legs. destruct (in_dec leg_dec l P); split; intros; auto; try tauto. destruct H; discriminate.
Qed.
Lemma legs_nth (L P : list leg) W W' : NoDup (W ++ P) -> W' = W ++ P -> map (fun v => Z.of_nat (length W) <=? v) (ordf L W') = map (in_legs P) L.
Proof.
  intros N ->. unfold ordf. rewrite map_map. apply map_ext. intros l. unfold in_legs. destruct (in_dec leg_dec l (W ++ P)) as [i|i].
  - destruct (in_dec leg_dec l W) as [w|w].
    + rewrite lpos_app_l by auto. assert (X := lpos_lt l W w). destruct (in_dec leg_dec l P) as [p|p]; [|apply Z.leb_gt; lia]. exfalso. clear - N w p. induction W as [|x W IH]; [destruct w|]. inversion N; subst. destruct w as [->|w]; [apply H1, in_or_app; auto|]. apply IH; auto.
    + rewrite lpos_app_r by auto. destruct (in_dec leg_dec l P) as [p|p]; [apply Z.leb_le; lia|]. exfalso. apply in_app_or in i. tauto.
  - destruct (in_dec leg_dec l P) as [p|p]; [exfalso; apply i, in_or_app; auto|]. apply Z.leb_gt. lia.
Qed.

Definition all_event (e : event) : Prop := fst e = All /\ ok_event e.
Lemma key_events_ok (l : list key) vs : Forall all_event (map (fun x => key_event (fst x) (snd x)) (combine l vs)).
Proof. apply Forall_map, Forall_forall. intros [[[[a b] c] d] v] _. split; [reflexivity|]. eexists. reflexivity. Qed.
Lemma contr_events st n m off c b ev : contr_trace st n m off c = Ok (b, ev) -> Forall all_event ev.
Proof.
  unfold contr_trace. intros T. repeat (apply bind_Ok in T; destruct T as (? & ? & T)). destruct x0 as [pc off1]. repeat (apply bind_Ok in T; destruct T as (? & ? & T)). destruct x0 as [pa off2]. repeat (apply bind_Ok in T; destruct T as (? & ? & T)). assert (T' : ev = pos_events x c off true pc ++ pos_events x c off1 false pa) by congruence. rewrite T'. unfold pos_events.
  apply Forall_app. split; (constructor; [split; [reflexivity|eexists; reflexivity]|]); apply key_events_ok.
Qed.

Section Loop.
  Context (st : osi) (maxc : Z) (ops : oprod).
  Hypothesis Hok : ops_ok st ops.
  Let n := length ops.
  Let L := product_legs st ops.
  Let ix := ixf L.
  Let sq := map (leg_sqop ix) L.
  Context (m : assoc key).
  Hypothesis Hm : forall l, afind key_eqb l m = if in_dec leg_dec l L then Some (Z.of_nat (lpos l L)) else None.
  Definition bits_of (picks : list (list leg * list leg)) : list (list bool) := map (fun p => map (in_legs (fst p ++ snd p)) L) picks.

  Lemma trace_loop cs : forall F W T M U off bits ev, Forall (allowed st maxc ops) cs -> oinv st n off F -> ready st ops F W M ->
    (forall v s b, In (v, s, b) (kinds st n) -> 0 <= F v s b /\ F v s b + total_of (fun c => ec_count c (v, s, b)) cs <= leg_count ops (v, s, b)) ->
    exists picks effects off' evs, let W' := W ++ legs_of picks in
      foldM (trace_body st sq m) (mkES T off (Z.of_nat (length W)) (Z.of_nat (length W)) U M (ordf L W), bits, ev) cs =
        Ok (mkES (T ++ flat_map (fun e => snd (fst e)) effects) off' (Z.of_nat (length W')) (Z.of_nat (length W'))
              (U * fold_right Z.mul 1 (map snd effects)) (M ++ flat_map (fun e => fst (fst e)) effects) (ordf L W'), bits ++ bits_of picks, ev ++ evs) /\
      NoDup W' /\ incl W' L /\
      Forall2 (fun p c => carries_out st n (fst p ++ snd p) c /\ Forall (fun l => leg_cre l = true) (fst p) /\ Forall (fun l => leg_cre l = false) (snd p)) picks cs /\
      Forall2 (fun p e => contribution st L ix (fst p) (snd p) e) picks effects /\ Forall (fun p => NoDup (fst p ++ snd p) /\ incl (fst p ++ snd p) L) picks /\ Forall all_event evs.
  Proof.
    induction cs as [|c cs IH]; intros F W T M U off bits ev HA Ho R HF.
    - exists [], [], off, []. cbn zeta. cbn [legs_of flat_map map fold_right foldM bits_of]. unfold bits_of. cbn [map]. rewrite !app_nil_r, Z.mul_1_r. split; [reflexivity|]. destruct R. repeat split; auto.
    - inversion HA as [|? ? Hc HA']; subst. assert (NN : forall c', In c' cs -> forall k, In k (kinds st n) -> 0 <= ec_count c' k).
      { intros c' Hi k Hk. rewrite Forall_forall in HA'. destruct k as [[v s] b]. apply (allowed_con_ok st maxc ops c' Hok (HA' c' Hi)). exact Hk. }
      assert (TN : forall k, In k (kinds st n) -> 0 <= total_of (fun c => ec_count c k) cs).
      { intros k Hk. clear - NN Hk. induction cs as [|a cs IH]; cbn [total_of fold_right]; [lia|]. assert (0 <= ec_count a k) by (apply NN; [left|]; auto). assert (0 <= total_of (fun c => ec_count c k) cs) by (apply IH; intros; apply NN; [right|]; auto). unfold total_of in *. lia. }
      destruct (eval_step st maxc ops Hok m Hm c F W T M U off Hc Ho R) as (pc & pa & eff & off1 & E1 & O1 & R1 & Ca & Fc & Fa & Con).
      { intros v s b Hk. destruct (HF v s b Hk) as (H0 & H1). split; auto. specialize (TN _ Hk). cbn [total_of fold_right] in H1. unfold total_of in TN. lia. }
      cbn zeta in E1. fold L ix sq in E1.
      assert (NW : NoDup (W ++ pc ++ pa)) by apply R1. assert (IW : incl (W ++ pc ++ pa) L) by apply R1.
      assert (Ls : length (es_ord (mkES T off (Z.of_nat (length W)) (Z.of_nat (length W)) U M (ordf L W))) = length sq) by (cbn [es_ord]; unfold sq; rewrite ordf_length, map_length; reflexivity).
      assert (X := contr_trace_erase st sq m _ c Ls). rewrite E1 in X. destruct (contr_trace st (length sq) m (es_off (mkES T off (Z.of_nat (length W)) (Z.of_nat (length W)) U M (ordf L W))) c) as [[b ev']| | |] eqn:CT; cbn [bind] in X; try discriminate. clear X.
      assert (Eb : b = map (in_legs (pc ++ pa)) L).
      { assert (Y := trace_bits _ _ _ _ _ _ _ _ _ CT E1 Ls). cbn [es_pos es_ord] in Y. rewrite Y; [apply legs_nth; auto|]. apply Forall_forall. intros v Hv. unfold ordf in Hv. apply in_map_iff in Hv. destruct Hv as (l & <- & _). destruct (in_dec leg_dec l W) as [i|i]; [assert (Q := lpos_lt l W i); lia|lia]. }
      destruct (IH (upd F c) (W ++ pc ++ pa) (T ++ snd (fst eff)) (M ++ fst (fst eff)) (U * snd eff) off1 (bits ++ [b]) (ev ++ ev') HA' O1 R1) as (picks & effects & off2 & evs & E2 & N2 & I2 & P2 & Q2 & D2 & K2).
      { intros v s b0 Hk. destruct (HF v s b0 Hk) as (H0 & H1). cbn [total_of fold_right] in H1. unfold upd. assert (0 <= ec_count c (v, s, b0)).
        { apply (allowed_con_ok st maxc ops c Hok Hc). exact Hk. }
        unfold total_of. lia. }
      cbn zeta in E2. exists ((pc, pa) :: picks), (eff :: effects), off2, (ev' ++ evs). cbn zeta. unfold legs_of in *. cbn [flat_map map fold_right foldM fst snd].
      assert (EW : W ++ (pc ++ pa) ++ flat_map (fun p : list leg * list leg => fst p ++ snd p) picks = (W ++ pc ++ pa) ++ flat_map (fun p : list leg * list leg => fst p ++ snd p) picks) by (rewrite !app_assoc; reflexivity).
      rewrite EW. split; [|split; [exact N2|split; [exact I2|split; [constructor; auto|split; [constructor; auto|split; [constructor; auto|]]]]]].
      + unfold trace_body at 1. rewrite CT. cbn [bind]. rewrite E1. cbn [bind]. unfold bits_of in *. cbn [map fst snd]. rewrite <- Eb. rewrite !app_assoc, Z.mul_assoc in *. rewrite <- (app_assoc bits [b]) in E2. cbn [app] in E2. exact E2.
      + cbn [fst snd]. split; [apply nodup_app_inv in NW; tauto|]. intros l Hl. apply IW, in_or_app. auto.
      + apply Forall_app. split; auto. eapply contr_events; eauto.
  Qed.
End Loop.

(** The final positions of the operators. *)
Lemma place_lpos l W : place leg_dec l W = Z.of_nat (lpos l W).
Proof. induction W as [|x W IH]; [reflexivity|]. cbn [place lpos]. destruct (leg_dec x l); [reflexivity|]. rewrite IH. lia. Qed.

Lemma eval_printed st maxc ops cs factor : ops_ok st ops -> Forall (allowed st maxc ops) cs -> enough_legs st ops cs ->
  exists t s ix picks effects rest kev,
    let W := flat_map (fun p => fst p ++ snd p) picks ++ rest in let ord := map (fun l => place leg_dec l W) (product_legs st ops) in
    let f := fold_left (fun f o => rat_mul f (op_factor st o)) ops factor in
    eval_traced st ops cs factor =
      Ok ((t, rat_mul (rat_mul (rat_of_Z s) f) (combinatorial_factor st ops cs)),
          kev ++ [(Basic, Ok (drawing st (map (fun p => map (in_legs (fst p ++ snd p)) (product_legs st ops)) picks) (map (leg_sqop ix) (product_legs st ops)) ord
                               (map (op_tensor st ops ix) (seq 0 (length ops)) ++ flat_map (fun e => snd (fst e)) effects)));
                  (All, Ok (nl ++ str "  positions: " ++ zs_text ord));
                  (Summary, Ok (str "  sign =                 " ++ dec_text s ++ nl ++ str "  factor =               " ++ rat_repr f ++ nl ++
                           str "  combinatorial factor = " ++ rat_repr (combinatorial_factor st ops cs) ++ nl))]) /\
    Forall all_event kev /\ evaluation st ops cs t s ix picks effects rest.
Proof.
  intros Hok HA En. destruct (tensors_sqops st ops) as (e & E & [Lsq Lm _] & Lt). set (L := product_legs st ops) in *.
  assert (O0 : oinv st (length ops) (repeat gm_zero (length ops)) (fun _ _ _ => 0)).
  { split; [apply repeat_length|]. intros v Hv. assert (X : nth v (repeat gm_zero (length ops)) gm_zero = gm_zero) by (clear; revert v; induction (length ops); intros [|v]; simpl; auto). rewrite X. split; [reflexivity|].
    intros s b Hs. destruct (is_space_nat st s Hs) as (k & -> & Hk). unfold gcount. rewrite ?cre_of_nat, ?ann_of_nat. assert (Z0 : nthp gm_zero k = (0, 0)) by (unfold nthp, gm_zero; clear; revert k; induction max_spaces; intros [|k]; simpl; auto). rewrite Z0. destruct b; reflexivity. }
  assert (R0 : ready st ops (fun _ _ _ => 0) [] []) by (split; [constructor|intros ? []|intros ? []|intros ? []]).
  destruct (trace_loop st maxc ops Hok (ls_map e) Lm cs (fun _ _ _ => 0) [] (ls_tens e) [] 1 _ [] (product_events st ops) HA O0 R0) as (picks & effects & off & evs & Ev & N & I & Hp & He & Hn & Hk).
  { intros v s b Hk. split; [lia|]. specialize (En _ Hk). lia. }
  cbn zeta in Ev. cbn [app length Z.of_nat] in Ev. fold L in Ev, I, He. set (W := legs_of picks) in *.
  set (rest := rest_legs st ops W (all_keys st)). assert (P := all_rest st ops W N I). fold L rest in P. destruct (perm_sperm _ _ P) as (s & Hs).
  assert (N' : NoDup (W ++ rest)) by (apply rest_nodup; auto).
  exists (term_reindex (flat_map (fun e => fst (fst e)) effects) (mkTerm false (map (leg_sqop (ixf L)) rest) (ls_tens e ++ flat_map (fun e => snd (fst e)) effects))),
    (fold_right Z.mul 1 (map snd effects) * s), (ixf L), picks, effects, rest, (product_events st ops ++ evs). cbn zeta. 
  assert (EVAL : evaluation st ops cs (term_reindex (flat_map (fun e => fst (fst e)) effects) (mkTerm false (map (leg_sqop (ixf L)) rest) (ls_tens e ++ flat_map (fun e => snd (fst e)) effects))) (fold_right Z.mul 1 (map snd effects) * s) (ixf L) picks effects rest).
  { split; [apply ixf_labels|exact Hp|exact He|exists s; split; [exact Hs|reflexivity]|apply rest_ordered, keys_sorted; exact ops|rewrite Lt; reflexivity]. }
  split; [|split; [|exact EVAL]].
  - unfold eval_traced. rewrite E. cbn [bind]. fold (trace_body st (ls_sq e) (ls_map e)). rewrite Lsq. rewrite map_length.
    assert (X : forall L0 : list leg, repeat (-1) (length L0) = ordf L0 []) by (intros L0; unfold ordf; induction L0 as [|? ? IH]; [reflexivity|cbn [repeat length map]; rewrite IH; reflexivity]). rewrite X. rewrite Ev. cbn [bind es_ord es_pos es_usign es_ncon es_map es_tens].
    assert (RP : order_rest st (map (leg_sqop (ixf L)) L) (ordf L W) (Z.of_nat (length W)) = Ok (ordf L (W ++ rest), Z.of_nat (length (W ++ rest)))) by exact (rest_pass st ops (all_keys st) W N I).
    rewrite RP. cbn [bind].
    assert (OS := order_sorted st ops (W ++ rest) N' P). assert (OG := order_sign st ops (W ++ rest) s N' P Hs). fold L in OS, OG. cbv zeta in OS. rewrite OG, OS. rewrite Nat2Z.id, map_app.
    rewrite <- (map_length (fun l => (posW (W ++ rest) l, leg_sqop (ixf L) l)) W). rewrite skipn_app, skipn_all, Nat.sub_diag, skipn_O. cbn [app]. rewrite map_map. cbn [snd]. rewrite Z.mul_1_l.
    assert (EO : ordf L (W ++ rest) = map (fun l => place leg_dec l (W ++ rest)) L). { assert (OF := ordf_full st ops (W ++ rest) P). fold L in OF. rewrite OF. apply map_ext. intros l. rewrite place_lpos. reflexivity. }
    rewrite EO. change (flat_map (fun p : list leg * list leg => fst p ++ snd p) picks) with W.
    rewrite (contraction_text_ok st (map (leg_sqop (ixf L)) L)).
    + rewrite Lt. cbn [app]. unfold bits_of. fold L. reflexivity.
    + rewrite map_map. cbn [leg_sqop s_idx]. assert (NL : NoDup L) by apply product_nodup. assert (LI := proj2 (ixf_labels L)). clear - NL LI.
      assert (G : forall l, incl l L -> NoDup l -> NoDup (map (fun x => ixf L x) l)). { induction l as [|a l IH]; intros Hi Hn; [constructor|]. inversion Hn; subst. cbn. constructor; [|apply IH; auto; intros x Hx; apply Hi; right; auto]. intros Hx. apply in_map_iff in Hx. destruct Hx as (b & Eb & Hb). apply LI in Eb; [subst; auto|apply Hi; right; auto|apply Hi; left; auto]. }
      apply G; auto. apply incl_refl.
    + assert (LI := proj1 (ixf_labels L)). assert (IN : forall l, In l L -> In (ixf L l) (map s_idx (map (leg_sqop (ixf L)) L)) /\ is_space st (isp (ixf L l))).
      { intros l Hl. split; [rewrite map_map; apply in_map_iff; exists l; auto|]. rewrite (proj1 (LI l Hl)). apply in_product in Hl. tauto. }
      rewrite Lt. apply Forall_app. split.
      * apply Forall_map, Forall_forall. intros A HA'. apply in_seq in HA'. intros i Hi. assert (Y : exists l, In l L /\ i = ixf L l).
        { unfold op_tensor in Hi. cbn [t_upper t_lower] in Hi. destruct Hi as [Hi|Hi]; apply in_map_iff in Hi; destruct Hi as (l & <- & Hl); exists l; (split; [|reflexivity]).
          - apply in_ann_legs in Hl. apply in_product. destruct Hl as (H1 & H2 & H3 & H4). split; [lia|]. split; auto. destruct l as [[[a b] c] j]. unfold leg_op, leg_cre, leg_space in *. cbn [fst snd] in *. subst. exact H4.
          - apply in_cre_legs in Hl. apply in_product. destruct Hl as (H1 & H2 & H3 & H4). split; [lia|]. split; auto. destruct l as [[[a b] c] j]. unfold leg_op, leg_cre, leg_space in *. cbn [fst snd] in *. subst. exact H4. }
        destruct Y as (l & Hl & ->). apply IN, Hl.
      * clear - He I IN. assert (I' : forall p, In p picks -> incl (fst p ++ snd p) L). { intros p Hp l Hl. apply I. unfold W, legs_of. apply in_flat_map. exists p. auto. }
        clear I. subst W. induction He as [|p q ps es Hc He IH]; [constructor|]. cbn [flat_map]. apply Forall_app. split; [|apply IH; intros; apply I'; right; auto].
        assert (Ip := I' p (or_introl eq_refl)). assert (G : forall i, In i (map (ixf L) (fst p)) \/ In i (map (ixf L) (snd p)) -> In i (map s_idx (map (leg_sqop (ixf L)) L)) /\ is_space st (isp i)).
        { intros i [Hi|Hi]; apply in_map_iff in Hi; destruct Hi as (l & <- & Hl); apply IN, Ip, in_or_app; auto. }
        destruct Hc; cbn [fst snd] in *; [constructor|constructor| | |]; (constructor; [|constructor]); intros i Hi; cbn [t_upper t_lower] in Hi; apply G; [exact Hi|exact Hi|]. destruct Hi as [Hi|Hi]; [left; exact Hi|right; rewrite in_rev; exact Hi].
    + intros q Hq. apply in_map_iff in Hq. destruct Hq as (l & <- & Hl). unfold s_space, leg_sqop. cbn [s_idx]. rewrite (proj1 (proj1 (ixf_labels L) l Hl)). apply in_product in Hl. tauto.
    + unfold bits_of. fold L. apply Forall_map. clear - He Hn. induction He as [|p q ps es Hc He IH]; [constructor|]. inversion Hn as [|? ? (Hn1 & Hn2) Hn']; subst. constructor; [|apply IH; auto]. rewrite marks_legs; auto; [|apply product_nodup]. destruct Hc; cbn [fst snd app length] in *; rewrite ?app_length in *; cbn [length] in *; lia.
  - apply Forall_app. split; [apply key_events_ok|exact Hk].
Qed.
