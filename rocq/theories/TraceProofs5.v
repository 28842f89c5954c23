(** The texts printed by steps 1 and 2. *)
From Coq Require Import String.
From Coq Require Import ZArith List Bool Arith Ascii Permutation Lia.
From Verif Require Import Res PartitionsModel RegistryModel RegistryProofs CoreModel OrderProofs CombinatoricsModel RationalModel AlgebraModel SortModel SortSpec
  OperatorModel OperatorSpec OperatorProofs AdjointModel CanonModel NextPermModel WickSearchModel WickSearchSpec WickElemProofs WickElemProofs2 WickCompProofs WickSearchProofs WickEvalModel WickCombProofs WickLegSpec
  DecModel TextModel ExprTextModel EquationModel OpTextModel TraceModel TraceSpec TraceProofs TraceProofs2 TraceProofs3 TraceProofs4.
Import ListNotations.
Local Open Scope Z_scope.

Lemma concat_concat_map {A} (l : list (list (list A))) : concat (concat l) = concat (map (@concat A) l).
Proof. induction l as [|x l IH]; [reflexivity|]. cbn. rewrite concat_app, IH. reflexivity. Qed.
(** ** What is shown at a level *)
Definition txt (p : Z) (ev : list event) : text := concat (map (fun e => text_of (snd e)) (filter (fun e => fst e <=? p) ev)).
Lemma shown_ok p ev : Forall ok_event ev -> shown p ev = Ok (txt p ev).
Proof.
  intros F. unfold shown, txt. assert (M : mapM (fun e : event => snd e) (filter (fun e => fst e <=? p) ev) = Ok (map (fun e => text_of (snd e)) (filter (fun e => fst e <=? p) ev))).
  { induction F as [|e ev (t & Et) F IH]; [reflexivity|]. cbn [filter]. destruct (fst e <=? p); [|exact IH]. cbn [mapM map]. rewrite Et. cbn [bind text_of]. rewrite IH. reflexivity. }
  rewrite M. reflexivity.
Qed.
Lemma txt_app p a b : txt p (a ++ b) = txt p a ++ txt p b.
Proof. unfold txt. rewrite filter_app, map_app, concat_app. reflexivity. Qed.
Lemma txt_cons p e b : txt p (e :: b) = (if fst e <=? p then text_of (snd e) else []) ++ txt p b.
Proof. unfold txt. cbn [filter]. destruct (fst e <=? p); reflexivity. Qed.
Lemma txt_hidden p ev : Forall (fun e => p < fst e) ev -> txt p ev = [].
Proof. induction 1 as [|e ev H F IH]; [reflexivity|]. rewrite txt_cons, IH. destruct (Z.leb_spec (fst e) p); [lia|reflexivity]. Qed.

Section M.
  Context (st : osi).
  Hypothesis Hn : (nsp st <= max_spaces)%nat.
  Lemma char_ok s : is_space st s -> space_label st s = Ok (space_char st s).
  Proof. intros H. unfold space_char. destruct (reg_label_defined st s H) as (l & ->). reflexivity. Qed.
  Lemma gm_at g s : length g = max_spaces -> is_space st s -> gm_cre g s = Ok (cre_of g s) /\ gm_ann g s = Ok (ann_of g s).
  Proof.
    intros Lg Hs. unfold cre_of, ann_of, gm_cre, gm_ann. unfold is_space, num_spaces in Hs. rewrite <- (Z2Nat.id s) by lia. rewrite !aget_nat. destruct (nth_error g (Z.to_nat s)) eqn:E; [split; reflexivity|]. apply nth_error_None in E. lia.
  Qed.
  Lemma mapM_eq {A B} (f : A -> res B) (g : A -> B) l : (forall a, In a l -> f a = Ok (g a)) -> mapM f l = Ok (map g l).
  Proof. induction l as [|a l IH]; intros H; [reflexivity|]. cbn [mapM map]. rewrite H by (left; auto). cbn [bind]. rewrite IH by (intros; apply H; right; auto). reflexivity. Qed.
  Lemma map_const {A B} (b : B) (l : list A) : map (fun _ => b) l = repeat b (length l).
  Proof. induction l as [|a l IH]; cbn; congruence. Qed.
  Lemma gm_words_ok g (cre : bool) s : length g = max_spaces -> is_space st s -> gm_words st g cre s = Ok (repeat (if cre then [space_char st s; "+"%char] else [space_char st s]) (Z.to_nat (if cre then cre_of g s else ann_of g s))).
  Proof.
    intros Lg Hs. unfold gm_words. destruct (gm_at g s Lg Hs) as (E1 & E2). assert (X : (if cre then gm_cre g s else gm_ann g s) = Ok (if cre then cre_of g s else ann_of g s)) by (destruct cre; auto). rewrite X. cbn [bind].
    rewrite (mapM_eq _ (fun _ => if cre then [space_char st s; "+"%char] else [space_char st s])) by (intros; rewrite char_ok by auto; reflexivity). rewrite map_const. unfold range. rewrite map_length, seq_length. reflexivity.
  Qed.
  Lemma gm_str_ok g : length g = max_spaces -> gm_str st g = Ok (op_words st (cre_of g) (ann_of g)).
  Proof.
    intros Lg. unfold gm_str. rewrite (mapM_eq _ (fun s => repeat [space_char st s; "+"%char] (Z.to_nat (cre_of g s)))) by (intros s Hs; apply range_in in Hs; apply (gm_words_ok g true s); auto).
    cbn [bind]. rewrite (mapM_eq _ (fun s => repeat [space_char st s] (Z.to_nat (ann_of g s)))) by (intros s Hs; apply range_in in Hs; apply (gm_words_ok g false s); auto). cbn [bind]. unfold op_words. rewrite !flat_map_concat_map. reflexivity.
  Qed.
  Lemma gms_str_ok gs : Forall (fun g => length g = max_spaces) gs -> exists t, gms_str st gs = Ok t.
  Proof.
    intros F. unfold gms_str. destruct (mapM_all (gms_line gs) (range (num_spaces st))) as (l & ->); [|cbn [bind]; eauto]. intros s Hs. apply range_in in Hs. unfold gms_line.
    destruct (mapM_all (fun g => bind (gm_cre g s) (fun c => bind (gm_ann g s) (fun a => Ok (dec_text c ++ str " " ++ dec_text a ++ str "   ")))) gs) as (r & ->); [|cbn [bind]; eauto].
    intros g Hg. rewrite Forall_forall in F. destruct (gm_at g s (F g Hg) Hs) as (-> & ->). cbn [bind]. eauto.
  Qed.
  Lemma add_all_ok gs : Forall (gm_valid st) gs -> forall g0, length g0 = max_spaces -> exists g, foldM (gm_add st) g0 gs = Ok g /\ length g = max_spaces /\ gm_num_ops g = gm_num_ops g0 + sum_num_ops gs /\
    forall s, is_space st s -> cre_of g s = cre_of g0 s + fold_right Z.add 0 (map (fun h => cre_of h s) gs) /\ ann_of g s = ann_of g0 s + fold_right Z.add 0 (map (fun h => ann_of h s) gs).
  Proof.
    induction 1 as [|h gs Hh F IH]; intros g0 L0.
    - exists g0. split; [reflexivity|]. split; auto. split; [unfold sum_num_ops; cbn; lia|]. intros s Hs. cbn. lia.
    - cbn [foldM]. destruct (gm_add_sub st g0 h L0 (proj1 Hh) Hn) as (s1 & E1 & _ & L1). rewrite E1. cbn [bind]. destruct (IH s1 L1) as (g & E & Lg & Ng & C). exists g. split; auto. split; auto. split.
      + rewrite Ng, (gm_add_num st g0 h s1 Hh L0 Hn E1). assert (Y : forall a, fold_left (fun a h => a + gm_num_ops h) gs a = a + fold_left (fun a h => a + gm_num_ops h) gs 0) by (clear; induction gs as [|x l IH]; intros a; cbn [fold_left]; [lia|]; rewrite (IH (a + _)), (IH (0 + _)); lia).
        unfold sum_num_ops. cbn [fold_left]. rewrite (Y (0 + gm_num_ops h)). lia.
      + intros s Hs. destruct (C s Hs) as (C1 & C2). destruct (gm_add_counts st g0 h s1 s L0 (proj1 Hh) Hn E1 Hs) as (D1 & D2). cbn [map fold_right]. rewrite C1, C2, D1, D2. lia.
  Qed.
End M.
Lemma op_words_ext st c a c' a' : (forall s, is_space st s -> c s = c' s /\ a s = a' s) -> op_words st c a = op_words st c' a'.
Proof.
  intros H. unfold op_words. rewrite !flat_map_concat_map. do 2 f_equal; f_equal; apply map_ext_in; intros s Hs; apply range_in in Hs; destruct (H s Hs) as (E1 & E2); rewrite ?E1, ?E2; reflexivity.
Qed.

(** ** Step 1 *)
Section O.
  Context (st : osi) (ops : oprod).
  Hypothesis Hok : ops_ok st ops.
  Lemma op_len A : length (op_gm (nth A ops (mkOp [] gm_zero))) = max_spaces.
  Proof. destruct (Nat.lt_ge_cases A (length ops)) as [HA|HA]; [|rewrite nth_overflow by auto; reflexivity]. destruct Hok as (_ & F). rewrite Forall_forall in F. apply (F _ (nth_In ops _ HA)). Qed.
  Lemma op_str_any o : In o ops -> exists t, op_str st o = Ok t.
  Proof.
    intros Ho. destruct Hok as (_ & F). rewrite Forall_forall in F. destruct (F o Ho) as (V & _). unfold op_str.
    destruct (mapM_all (cre_words st o) (range (num_spaces st))) as (c & ->). { intros s Hs. apply range_in in Hs. unfold cre_words. rewrite char_ok by auto. cbn [bind]. rewrite (proj1 (gm_at st (proj1 Hok) (op_gm o) s (proj1 V) Hs)). cbn [bind]. eauto. }
    cbn [bind]. destruct (mapM_all (ann_words st o) (rev (range (num_spaces st)))) as (a & ->); [|cbn [bind]; eauto]. intros s Hs. apply in_rev, range_in in Hs. unfold ann_words. rewrite char_ok by auto. cbn [bind]. rewrite (proj2 (gm_at st (proj1 Hok) (op_gm o) s (proj1 V) Hs)). cbn [bind]. eauto.
  Qed.
  Lemma head_text : exists t, head_event st ops = (Summary, Ok t) /\ t = nl ++ str "Contracting the operators: " ++ concat (map (fun o => str " " ++ text_of (op_str st o)) ops) ++ nl.
  Proof.
    unfold head_event. rewrite (mapM_eq _ (fun o => text_of (op_str st o))) by (intros o Ho; destruct (op_str_any o Ho) as (t & ->); reflexivity). cbn [bind]. rewrite map_map. eexists. split; reflexivity.
  Qed.
  Lemma opening_ok : Forall ok_event (head_event st ops :: step1_head st ops) /\ txt Summary (head_event st ops :: step1_head st ops) = opening st ops.
  Proof.
    destruct head_text as (t & E & Et).
    set (row := fun x : nat * Z => nl ++ str "      " ++ dec_text (Z.of_nat (fst x)) ++ str "        " ++ [space_char st (snd x)] ++ str "      " ++ dec_text (ops_cre ops (fst x) (snd x)) ++ str "      " ++ dec_text (ops_ann ops (fst x) (snd x))).
    assert (X : nth 1 (step1_head st ops) (0, UB) = (Summary, Ok (nl ++ str "  Operator   Space   Cre.   Ann." ++ nl ++ str "  ------------------------------" ++ concat (map row (flat_map (fun A => map (fun s => (A, s)) (range (num_spaces st))) (seq 0 (length ops)))) ++ nl))).
    { unfold step1_head. cbn [nth]. rewrite (mapM_eq _ row); [reflexivity|]. intros [A s] Hx. apply in_flat_map in Hx. destruct Hx as (A' & _ & Hx). apply in_map_iff in Hx. destruct Hx as (s' & Ex & Hs). injection Ex as -> ->. apply range_in in Hs. cbn [fst snd]. rewrite char_ok by auto. cbn [bind].
      destruct (gm_at st (proj1 Hok) _ s (op_len A) Hs) as (-> & ->). cbn [bind]. reflexivity. }
    assert (Y : step1_head st ops = [(Summary, Ok (nl ++ str "- Step 1. Generating elementary contractions" ++ nl)); nth 1 (step1_head st ops) (0, UB)]) by reflexivity. rewrite Y, X, E. split.
    - repeat constructor; eexists; reflexivity.
    - rewrite !txt_cons. cbn [fst snd text_of]. change (Summary <=? Summary) with true. cbn iota. unfold txt at 1. cbn [filter map concat]. rewrite Et. unfold opening. rewrite !app_nil_r, <- !app_assoc. do 8 f_equal. f_equal.
      rewrite flat_map_concat_map, concat_map, concat_concat_map. f_equal. unfold row. rewrite !map_map. do 3 f_equal. apply map_ext. intros A. rewrite map_map. reflexivity.
  Qed.
End O.

(** Headings and numbered lines. *)
Section L.
  Context (st : osi).
  Hypothesis Hn : (nsp st <= max_spaces)%nat.
  Definition els_long (cs : list econ) : Prop := Forall (Forall (fun g => length g = max_spaces)) cs.
  Inductive listed : nat -> list econ -> list event -> Prop :=
  | ld_end n : listed n [] []
  | ld_space n s cs ev : is_space st s -> listed n cs ev -> listed n cs (space_event st s :: ev)
  | ld_legs n k cs ev : 0 < k -> listed n cs ev -> listed n cs ((Summary, Ok (nl ++ str "    " ++ dec_text (2 * k) ++ str "-legs contractions")) :: ev)
  | ld_line n c cs ev : listed (S n) cs ev -> listed n (c :: cs) (stored_event st n c :: ev).
  Lemma listed_app n cs ev cs' ev' : listed n cs ev -> listed (n + length cs) cs' ev' -> listed n (cs ++ cs') (ev ++ ev').
  Proof.
    induction 1 as [n|n s cs ev Hs H IH|n k cs ev Hk H IH|n c cs ev H IH]; intros H'; cbn [app].
    - cbn [length] in H'. rewrite Nat.add_0_r in H'. exact H'.
    - apply ld_space; auto.
    - apply ld_legs; auto.
    - apply ld_line. apply IH. cbn [length] in H'. replace (S n + length cs)%nat with (n + S (length cs))%nat by lia. exact H'.
  Qed.
  Lemma listed_stored n cs : listed n cs (stored_events st n cs).
  Proof. revert n. induction cs as [|c cs IH]; intros n; [constructor|]. unfold stored_events. cbn [length seq combine map fst snd]. apply ld_line. apply (IH (S n)). Qed.
  Lemma stored_text n c : Forall (fun g => length g = max_spaces) c -> stored_event st n c = (Summary, Ok (elementary_line st (S n) c)).
  Proof.
    intros F. unfold stored_event. rewrite (mapM_eq _ (fun g => op_words st (cre_of g) (ann_of g))) by (intros g Hg; rewrite Forall_forall in F; apply gm_str_ok; auto). cbn [bind]. unfold elementary_line, elements. do 2 f_equal.
  Qed.
  Lemma listed_text n cs ev : listed n cs ev -> els_long cs -> Forall ok_event ev /\ listing st n cs (txt Summary ev).
  Proof.
    induction 1 as [n|n s cs ev Hs H IH|n k cs ev Hk H IH|n c cs ev H IH]; intros F.
    - split; constructor.
    - destruct (IH F) as (I1 & I2). unfold space_event. rewrite char_ok by auto. cbn [bind]. split; [constructor; auto; eexists; reflexivity|]. rewrite txt_cons. cbn [fst snd text_of]. change (Summary <=? Summary) with true. cbn iota. rewrite <- !app_assoc. apply li_space; auto.
    - destruct (IH F) as (I1 & I2). split; [constructor; auto; eexists; reflexivity|]. rewrite txt_cons. cbn [fst snd text_of]. change (Summary <=? Summary) with true. cbn iota. rewrite <- !app_assoc. apply li_legs; auto.
    - inversion F as [|? ? F1 F2]; subst. destruct (IH F2) as (I1 & I2). rewrite stored_text by auto. split; [constructor; auto; eexists; reflexivity|]. rewrite txt_cons. cbn [fst snd text_of]. change (Summary <=? Summary) with true. cbn iota. apply li_line; auto.
  Qed.
  Lemma general_listed fuel maxc ops s v ev v' ev' : general_traced fuel st maxc ops s (v, ev) = Ok (v', ev') -> exists r e, v' = v ++ r /\ ev' = ev ++ e /\ listed (length v) r e.
  Proof.
    unfold general_traced. assert (K : forall k, In k (map (fun k => k + 1) (range (max_half_legs maxc ops s))) -> 0 < k) by (intros k Hk; apply in_map_iff in Hk; destruct Hk as (j & <- & Hj); apply range_in in Hj; lia). revert K.
    generalize (map (fun k => k + 1) (range (max_half_legs maxc ops s))). intros ks. revert v ev.
    induction ks as [|k ks IH]; intros v ev K E.
    - cbn in E. injection E as <- <-. exists [], []. rewrite !app_nil_r. split; auto. split; auto. constructor.
    - cbn [foldM] in E. destruct (general_legs fuel ops s k) as [r| | |]; cbn [bind fst snd] in E; try discriminate. apply IH in E; [|intros; apply K; right; auto]. destruct E as (r' & e & -> & -> & S).
      exists (r ++ r'), (((Summary, Ok (nl ++ str "    " ++ dec_text (2 * k) ++ str "-legs contractions")) :: stored_events st (length v) r) ++ e). rewrite !app_assoc. split; auto. split; auto.
      apply listed_app; [|rewrite <- app_length; exact S]. apply ld_legs; [apply K; left; auto|apply listed_stored].
  Qed.
  Lemma step1_listed fuel maxc ops els ev : step1_traced fuel st maxc ops = Ok (els, ev) -> exists e, ev = step1_head st ops ++ e /\ listed 0 els e.
  Proof.
    unfold step1_traced. assert (R : forall s, In s (range (num_spaces st)) -> is_space st s) by (intros s Hs; apply range_in in Hs; auto). revert R.
    generalize (range (num_spaces st)). intros l R. match goal with |- foldM ?f _ _ = _ -> _ => set (body := f) end.
    assert (G : forall v ev0 r, foldM body (v, ev0) l = Ok r -> exists q e, r = (v ++ q, ev0 ++ e) /\ listed (length v) q e).
    { induction l as [|s l IH]; intros v ev0 r E.
      - cbn in E. injection E as <-. exists [], []. rewrite !app_nil_r. split; auto. constructor.
      - cbn [foldM] in E. apply bind_Ok in E. destruct E as ([v1 ev1] & E1 & E). assert (S : exists q e, v1 = v ++ q /\ ev1 = ev0 ++ e /\ listed (length v) q e).
        { unfold body in E1. assert (Hs : is_space st s) by (apply R; left; auto).
          assert (S1 : forall r, listed (length v) r ([space_event st s] ++ stored_events st (length v) r)) by (intros r0; apply ld_space; auto; apply listed_stored).
          destruct (stype st s) as [[]|]; try discriminate.
          all: try (injection E1 as <- <-; rewrite <- app_assoc; do 2 eexists; split; [reflexivity|]; split; [reflexivity|]; apply S1; fail).
          apply general_listed in E1. destruct E1 as (r' & e & -> & -> & S). exists r', ([space_event st s] ++ e). rewrite app_assoc. split; auto. split; auto. apply ld_space; auto. }
        destruct S as (q & e & -> & -> & S). apply IH in E; [|intros; apply R; right; auto]. destruct E as (q' & e' & -> & S'). exists (q ++ q'), (e ++ e'). rewrite !app_assoc. split; auto. apply listed_app; auto. rewrite <- app_length. exact S'. }
    intros E. apply G in E. destruct E as (q & e & E & S). injection E as -> ->. cbn [app length] in S. exists e. split; auto.
  Qed.
End L.

(** ** Step 2 *)
Section C2.
  Variables (st : osi) (ops : oprod) (els : list econ) (minrank maxrank : Z).
  Hypothesis OK : ops_ok st ops.
  Hypothesis ELS : Forall (fun c => con_shape st (length ops) c /\ forall A s, (A < length ops)%nat -> is_space st s -> 0 <= ec_cre c A s /\ 0 <= ec_ann c A s) els.
  Lemma sum_total (f : gmat -> Z) (l : list gmat) : fold_right Z.add 0 (map f l) = total (length l) (fun A => f (nth A l gm_zero)).
  Proof.
    induction l as [|g l IH] using rev_ind; [reflexivity|]. rewrite map_app, fold_right_app, app_length, Nat.add_1_r. cbn [map fold_right total]. rewrite app_nth2, Nat.sub_diag by lia. cbn [nth].
    assert (X : forall a, fold_right Z.add a (map f l) = fold_right Z.add 0 (map f l) + a) by (clear; induction l as [|x l IH]; intros a; cbn; [lia|rewrite IH; lia]). rewrite X, IH.
    assert (Y : total (length l) (fun A => f (nth A l gm_zero)) = total (length l) (fun A => f (nth A (l ++ [g]) gm_zero))) by (apply total_ext; intros A HA; rewrite app_nth1 by auto; reflexivity). rewrite Y. lia.
  Qed.
  Lemma line2_text n cv : is_multiset els cv -> line2 st ops els (Z.of_nat n) cv = (Summary, Ok (composite_line st els ops (S n) cv)).
  Proof.
    intros (_ & F). unfold line2, found_event. assert (Sh := free_shape st ops els OK ELS cv F). destruct Sh as (Ln & Va).
    assert (Va' : Forall (gm_valid st) (free_of st ops els cv)). { apply Forall_forall. intros g Hg. apply (In_nth _ _ gm_zero) in Hg. destruct Hg as (A & HA & <-). apply Va. rewrite Ln in HA. exact HA. }
    destruct (add_all_ok st (proj1 OK) _ Va' gm_zero eq_refl) as (g & E & Lg & Ng & Cg). rewrite E. cbn [bind]. rewrite gm_str_ok by (auto; apply OK). cbn [bind]. rewrite Ng, (free_num st ops els OK ELS) by auto.
    assert (W : op_words st (cre_of g) (ann_of g) = op_words st (left_cre els ops cv) (left_ann els ops cv)).
    { apply op_words_ext. intros s Hs. destruct (Cg s Hs) as (C1 & C2). assert (Z0 : cre_of gm_zero s = 0 /\ ann_of gm_zero s = 0).
      { unfold is_space, num_spaces in Hs. rewrite <- (Z2Nat.id s) by lia. rewrite cre_of_nat, ann_of_nat. assert (nthp gm_zero (Z.to_nat s) = (0, 0)) as ->; [|auto]. unfold nthp, gm_zero. apply nth_repeat. }
      rewrite C1, C2, !sum_total, Ln. destruct Z0 as (-> & ->). unfold left_cre, left_ann. split; rewrite Z.add_0_l; apply total_ext; intros A HA; destruct (is_space_nat st s Hs) as (k & -> & Hk); apply (free_counts st ops els OK ELS cv A k F HA). }
    rewrite W. unfold composite_line. rewrite Nat2Z.id, firstn_all. change (gm_num_ops gm_zero) with 0. rewrite Z.add_0_l.
    replace (Z.of_nat n + 1) with (Z.of_nat (S n)) by lia. replace (Z.to_nat (Z.max (24 - 4 * Z.of_nat (length cv)) 2)) with (Nat.max (24 - 4 * length cv) 2) by lia. reflexivity.
  Qed.
  Lemma lines2_text cvs : Forall (is_multiset els) cvs -> forall n, Forall ok_event (lines2 st ops els (Z.of_nat n) cvs) /\ txt Summary (lines2 st ops els (Z.of_nat n) cvs) = concat (numbered (composite_line st els ops) (S (S n)) cvs).
  Proof.
    induction 1 as [|cv cvs Hc F IH]; intros n; [split; [constructor|reflexivity]|]. cbn [lines2]. replace (Z.of_nat n + 1) with (Z.of_nat (S n)) by lia. destruct (IH (S n)) as (I1 & I2). rewrite line2_text by auto. split; [constructor; auto; eexists; reflexivity|].
    rewrite txt_cons, I2. reflexivity.
  Qed.
  Lemma step2_text cvs ev d : Forall (is_multiset els) cvs -> step2_traced d st els ops minrank maxrank = Ok (cvs, ev) -> Forall ok_event ev /\ txt Summary ev = composites st els ops cvs.
  Proof.
    intros F E. rewrite (step2_events st ops els minrank maxrank OK ELS d cvs ev E). destruct (lines2_text cvs F O) as (I1 & I2). cbn [Z.of_nat] in I1, I2. split.
    - apply Forall_app. split; [repeat constructor; eexists; reflexivity|]. apply Forall_app. split; auto. repeat constructor. eexists; reflexivity.
    - rewrite !txt_app, I2. unfold composites. unfold txt, step2_head, total_event. cbn [filter map concat fst snd text_of]. change (Summary <=? Summary) with true. cbn iota. cbn [map concat]. rewrite !app_nil_r, <- !app_assoc. reflexivity.
  Qed.
End C2.
