(** Scanning printed text with the patterns of make_expression. *)
From Coq Require Import ZArith List Bool Ascii Lia.
From Verif Require Import Res RegistryModel RegistryProofs CoreModel RationalModel RationalSpec AlgebraModel DecModel TextModel TextSpec TextProofs TextProofs2 TextProofs3 TextProofs4 ExprTextModel ExprTextSpec.
Import ListNotations.
Local Open Scope Z_scope.

(** ** findall *)
Definition consuming (r : re) : Prop := forall s caps rest, In (caps, rest) (matches r s) -> (length rest < length s)%nat.
Lemma findall_fuel r : consuming r -> forall n s f, (length s <= n)%nat -> (n < f)%nat -> findall_from r f s = findall_from r (S n) s.
Proof.
  intros HC. induction n as [n IH] using lt_wf_ind. intros s f Hs Hf. destruct f as [|f]; [lia|]. cbn [findall_from].
  destruct (matches r s) as [|[caps rest] ms] eqn:E.
  - destruct s as [|c s']; [reflexivity|]. cbn [length] in Hs. destruct n as [|n]; [lia|].
    apply (IH n); lia.
  - f_equal. assert (H : (length rest < length s)%nat) by (apply (HC s caps); rewrite E; left; reflexivity).
    destruct n as [|n]; [lia|]. apply (IH n); lia.
Qed.
Lemma findall_eq r s : consuming r -> findall r s =
  match matches r s with
  | (caps, rest) :: _ => caps ++ findall r rest
  | [] => match s with [] => [] | _ :: s' => findall r s' end
  end.
Proof.
  intros HC. unfold findall at 1. cbn [findall_from]. destruct (matches r s) as [|[caps rest] ms] eqn:E.
  - destruct s as [|c s']; [reflexivity|]. unfold findall. apply findall_fuel; cbn [length]; auto; lia.
  - f_equal. assert (H : (length rest < length s)%nat) by (apply (HC s caps); rewrite E; left; reflexivity).
    unfold findall. apply findall_fuel; auto; lia.
Qed.
Lemma findall_first r s caps rest : consuming r -> first r s caps rest -> findall r s = caps ++ findall r rest.
Proof. intros HC H. rewrite findall_eq by auto. unfold first in H. destruct (matches r s) as [|x ms]; [discriminate|]. cbn in H. injection H as ->. reflexivity. Qed.
Lemma findall_skip r c s : consuming r -> (forall caps rest, ~ some_match r (c :: s) caps rest) -> findall r (c :: s) = findall r s.
Proof.
  intros HC H. rewrite findall_eq by auto. destruct (matches r (c :: s)) as [|[caps rest] ms] eqn:E; [reflexivity|].
  exfalso. apply (H caps rest). unfold some_match. rewrite E. left. reflexivity.
Qed.
Lemma findall_nil r : consuming r -> findall r [] = [].
Proof.
  intros HC. rewrite findall_eq by auto. destruct (matches r []) as [|[caps rest] ms] eqn:E; [reflexivity|].
  exfalso. assert (H : (length rest < length (@nil ascii))%nat) by (apply (HC [] caps); rewrite E; left; reflexivity). cbn in H. lia.
Qed.

Lemma some_len r : forall s caps rest, some_match r s caps rest -> exists pre, s = pre ++ rest.
Proof.
  induction r as [p|p|p|r IH|r1 IH1 r2 IH2|r IH|r IH]; intros s caps rest H.
  - apply some_cls in H. destruct H as [_ (c & -> & _)]. exists [c]. reflexivity.
  - apply some_star in H. destruct H as [_ (pre & -> & _)]. eauto.
  - apply some_plus in H. destruct H as [_ (pre & -> & _)]. eauto.
  - apply some_opt in H. destruct H as [H|[_ ->]]; [eauto|]. exists []. reflexivity.
  - apply some_seq in H. destruct H as (c1 & s1 & c2 & H1 & H2 & _). apply IH1 in H1. apply IH2 in H2. destruct H1 as [p1 ->], H2 as [p2 ->]. exists (p1 ++ p2). rewrite app_assoc. reflexivity.
  - apply some_grp in H. destruct H as (c & H & _). eauto.
  - unfold some_match in H. cbn in H. revert H. generalize (length s) at 1. intros n. revert s caps rest.
    induction n as [|n IHn]; intros s caps rest H; [destruct H|]. apply in_flat_map in H. destruct H as ([c1 s1] & H1 & H2). cbn in H2.
    apply (IH s c1 s1) in H1. destruct H1 as [p ->]. apply in_app_iff in H2. destruct H2 as [H2|[H2|[]]].
    + apply IHn in H2. destruct H2 as [q ->]. exists (p ++ q). rewrite app_assoc. reflexivity.
    + injection H2 as <- <-. eauto.
Qed.
Lemma some_shorter r s caps rest : some_match r s caps rest -> (length rest <= length s)%nat.
Proof. intros H. apply some_len in H. destruct H as [p ->]. rewrite app_length. lia. Qed.
Lemma consuming_cls_seq p r : consuming (RSeq (RCls p) r).
Proof.
  intros s caps rest H. apply some_seq in H. destruct H as (c1 & s1 & c2 & H1 & H2 & _). apply some_cls in H1. destruct H1 as [_ (c & -> & _)].
  apply some_shorter in H2. cbn. lia.
Qed.
Lemma consuming_plus_seq p r : consuming (RSeq (RPlus p) r).
Proof.
  intros s caps rest H. apply some_seq in H. destruct H as (c1 & s1 & c2 & H1 & H2 & _). apply some_plus in H1. destruct H1 as [_ (q & -> & _ & Hq)].
  apply some_shorter in H2. rewrite app_length. destruct q; [congruence|]. cbn. lia.
Qed.
Lemma consuming_grp r : consuming r -> consuming (RGrp r).
Proof. intros H s caps rest Hm. apply some_grp in Hm. destruct Hm as (c & Hm & _). exact (H _ _ _ Hm). Qed.

(** ** Tensors in a text *)
Lemma tensors_consuming : consuming tensors_re.
Proof. apply consuming_grp, consuming_plus_seq. Qed.
Notation fa_T := (findall tensors_re).
Lemma alnum_chr a c : is_alnum c = true -> is_alnum a = false -> is_chr a c = false.
Proof. intros H Ha. unfold is_chr. destruct (Ascii.eqb c a) eqn:E; [|reflexivity]. apply Ascii.eqb_eq in E. congruence. Qed.
(** A match starts with a nonempty alphanumeric run followed by a caret. *)
Lemma tensors_shape s caps rest : some_match tensors_re s caps rest -> exists run s', s = run ++ "^"%char :: s' /\ all_of is_alnum run /\ run <> [].
Proof.
  intros H. apply some_grp in H. destruct H as (c & H & _). apply some_seq in H. destruct H as (c1 & s1 & c2 & H1 & H2 & _).
  apply some_plus in H1. destruct H1 as [_ (q & -> & Hq & Hn)]. apply some_seq in H2. destruct H2 as (c3 & s2 & c4 & H2 & _ & _).
  apply some_cls in H2. destruct H2 as [_ (x & -> & Hx)]. unfold is_chr in Hx. apply Ascii.eqb_eq in Hx. subst x. eauto.
Qed.
Lemma run_split (p : ascii -> bool) : forall (r1 r2 : text) c1 c2 s1 s2, all_of p r1 -> all_of p r2 -> p c1 = false -> p c2 = false ->
  r1 ++ c1 :: s1 = r2 ++ c2 :: s2 -> r1 = r2 /\ c1 = c2 /\ s1 = s2.
Proof.
  induction r1 as [|a r1 IH]; intros [|b r2] c1 c2 s1 s2 H1 H2 P1 P2 E; cbn in E.
  - injection E as -> ->. auto.
  - injection E as -> _. inversion H2; congruence.
  - injection E as -> _. inversion H1; congruence.
  - injection E as -> E. inversion H1; inversion H2; subst. destruct (IH r2 c1 c2 s1 s2) as (-> & -> & ->); auto.
Qed.
Lemma fa_T_run c s : is_alnum c = false -> c <> "^"%char -> forall run, all_of is_alnum run -> fa_T (run ++ c :: s) = fa_T s.
Proof.
  intros Hc Hn. assert (Hno : forall run, all_of is_alnum run -> forall caps rest, ~ some_match tensors_re (run ++ c :: s) caps rest).
  { intros run Hr caps rest H. apply tensors_shape in H. destruct H as (q & s' & E & Hq & _).
    apply (run_split is_alnum) in E; auto. destruct E as (_ & -> & _). congruence. }
  induction run as [|a run IH]; intros Hr; cbn [app].
  - apply findall_skip; [apply tensors_consuming|]. apply (Hno [] Hr).
  - rewrite findall_skip; [|apply tensors_consuming|exact (Hno (a :: run) Hr)]. apply IH. inversion Hr; auto.
Qed.
Lemma fa_T_none s : ~ In "^"%char s -> fa_T s = [].
Proof.
  induction s as [|c s IH]; intros H; [apply findall_nil, tensors_consuming|].
  rewrite findall_skip; [apply IH; intros K; apply H; right; exact K|apply tensors_consuming|].
  intros caps rest Hm. apply tensors_shape in Hm. destruct Hm as (q & s' & E & _). apply H. rewrite E. apply in_or_app. right. left. reflexivity.
Qed.
Definition tensor_text (a u l : text) : text := a ++ ["^"; "{"]%char ++ u ++ ["}"; "_"; "{"]%char ++ l ++ ["}"%char].
Lemma fa_T_tensor a u l s : all_of is_alnum a -> a <> [] -> all_of idx_char u -> all_of idx_char l -> fa_T (tensor_text a u l ++ s) = tensor_text a u l :: fa_T s.
Proof.
  intros Ha Hn Hu Hl. rewrite (findall_first _ _ [tensor_text a u l] s); [reflexivity|apply tensors_consuming|].
  apply (first_grp _ _ _ []). unfold tensor_text. cbn [rseq]. rewrite <- !app_assoc. cbn [app].
  apply (first_seq _ _ _ [] (["^"; "{"]%char ++ u ++ ["}"; "_"; "{"]%char ++ l ++ ["}"%char] ++ s) []); [apply first_plus; auto; reflexivity|].
  cbn [app]. apply (first_seq _ _ _ [] ("{"%char :: u ++ ["}"; "_"; "{"]%char ++ l ++ ["}"%char] ++ s) []); [apply first_cls; reflexivity|].
  apply (first_seq _ _ _ [] (u ++ ["}"; "_"; "{"]%char ++ l ++ ["}"%char] ++ s) []); [apply first_cls; reflexivity|].
  apply (first_seq _ _ _ [] (["}"; "_"; "{"]%char ++ l ++ ["}"%char] ++ s) []); [apply first_star; auto; reflexivity|].
  cbn [app]. apply (first_seq _ _ _ [] ("_"%char :: "{"%char :: l ++ ["}"%char] ++ s) []); [apply first_cls; reflexivity|].
  apply (first_seq _ _ _ [] ("{"%char :: l ++ ["}"%char] ++ s) []); [apply first_cls; reflexivity|].
  apply (first_seq _ _ _ [] (l ++ ["}"%char] ++ s) []); [apply first_cls; reflexivity|].
  apply (first_seq _ _ _ [] ("}"%char :: s) []); [apply first_star; auto; reflexivity|].
  apply first_cls. reflexivity.
Qed.

(** ** Operators in a text *)
Lemma operators_consuming : consuming operators_re.
Proof. apply consuming_cls_seq. Qed.
Notation fa_O := (findall operators_re).
Definition is_ab (c : ascii) : bool := is_chr "a" c || is_chr "b" c.
Lemma is_ab_cases c : is_ab c = true -> c = "a"%char \/ c = "b"%char.
Proof. unfold is_ab, is_chr. intros H. apply orb_prop in H. destruct H as [H|H]; apply Ascii.eqb_eq in H; auto. Qed.
Lemma operators_shape s caps rest : some_match operators_re s caps rest -> exists c g s', s = c :: g :: s' /\ is_ab c = true /\ is_sign g = true.
Proof.
  intros H. apply some_seq in H. destruct H as (c1 & s1 & c2 & H1 & H2 & _). apply some_cls in H1. destruct H1 as [_ (c & -> & Hc)].
  apply some_seq in H2. destruct H2 as (c3 & s2 & c4 & H2 & _ & _). apply some_grp in H2. destruct H2 as (c5 & H2 & _).
  apply some_cls in H2. destruct H2 as [_ (g & -> & Hg)]. eauto 8.
Qed.
Lemma fa_O_noab x s : Forall (fun c => is_ab c = false) x -> fa_O (x ++ s) = fa_O s.
Proof.
  induction 1 as [|c x Hc _ IH]; [reflexivity|]. cbn [app]. rewrite findall_skip; [exact IH|apply operators_consuming|].
  intros caps rest Hm. apply operators_shape in Hm. destruct Hm as (c' & g & s' & E & Hab & _). injection E as <- _. congruence.
Qed.
Lemma fa_O_nosign x c s : Forall (fun c => is_sign c = false) x -> is_sign c = false -> is_ab c = false -> fa_O (x ++ c :: s) = fa_O s.
Proof.
  intros H Hc Hab. assert (K : forall a t, stops is_sign t -> fa_O (a :: t) = fa_O t).
  { intros a t Ht. apply findall_skip; [apply operators_consuming|]. intros caps rest Hm. apply operators_shape in Hm.
    destruct Hm as (c' & g & s' & E & _ & Hg). injection E as _ ->. cbn in Ht. congruence. }
  induction H as [|a x Ha Hx IH].
  - cbn [app]. apply (fa_O_noab [c] s). constructor; auto.
  - cbn [app]. rewrite K; [exact IH|]. destruct x as [|b x]; cbn; [exact Hc|]. inversion Hx; auto.
Qed.
Definition op_text (b : ascii) (g : ascii) (i : text) : text := b :: g :: "("%char :: i ++ [")"%char].
Lemma fa_O_op b g i s : is_ab b = true -> is_sign g = true -> all_of word_char i -> fa_O (op_text b g i ++ s) = [g] :: i :: fa_O s.
Proof.
  intros Hb Hg Hi. rewrite (findall_first _ _ [[g]; i] s); [reflexivity|apply operators_consuming|].
  unfold op_text. cbn [rseq app]. rewrite <- app_assoc. cbn [app].
  apply (first_seq _ _ _ [] (g :: "("%char :: i ++ ")"%char :: s) [[g]; i]); [apply first_cls; exact Hb|].
  apply (first_seq _ _ _ [[g]] ("("%char :: i ++ ")"%char :: s) [i]); [apply (first_grp _ [g] _ []); apply first_cls; exact Hg|].
  apply (first_seq _ _ _ [] (i ++ ")"%char :: s) [i]); [apply first_cls; reflexivity|].
  apply (first_seq _ _ _ [i] (")"%char :: s) []); [|apply first_cls; reflexivity].
  apply (first_grp _ i _ []). apply first_star; auto. reflexivity.
Qed.

(** ** The normal-order braces *)
Notation search_N := (regex_search normal_ordered_re).
Lemma search_skip r c s : (forall caps rest, ~ some_match r (c :: s) caps rest) -> regex_search r (c :: s) = regex_search r s.
Proof. intros H. cbn [regex_search]. destruct (matches r (c :: s)) as [|[a b] l] eqn:E; [reflexivity|]. exfalso. apply (H a b). unfold some_match. rewrite E. left. reflexivity. Qed.
Lemma search_N_nobrace x s : Forall (fun c => c <> "{"%char) x -> search_N (x ++ s) = search_N s.
Proof.
  induction 1 as [|c x Hc _ IH]; [reflexivity|]. cbn [app]. rewrite search_skip; [exact IH|].
  intros caps rest Hm. apply some_seq in Hm. destruct Hm as (c1 & s1 & c2 & H1 & _). apply some_cls in H1. destruct H1 as [_ (c' & E & Hc')].
  injection E as <- _. unfold is_chr in Hc'. apply Ascii.eqb_eq in Hc'. congruence.
Qed.
Definition op_piece : re := rseq [RStar is_ws; RCls (is_chr "a"); RCls is_sign; RCls (is_chr "("); RPlus word_char; RCls (is_chr ")")].
Lemma piece_shape s caps rest : some_match op_piece s caps rest -> exists w g i, s = w ++ op_text "a" g i ++ rest /\ all_of is_ws w /\ is_sign g = true /\ all_of word_char i /\ i <> [].
Proof.
  intros H. apply some_seq in H. destruct H as (c1 & s1 & d1 & H1 & H & _). apply some_star in H1. destruct H1 as [_ (w & -> & Hw)].
  apply some_seq in H. destruct H as (c2 & s2 & d2 & H2 & H & _). apply some_cls in H2. destruct H2 as [_ (a & -> & Ha)]. unfold is_chr in Ha. apply Ascii.eqb_eq in Ha. subst a.
  apply some_seq in H. destruct H as (c3 & s3 & d3 & H3 & H & _). apply some_cls in H3. destruct H3 as [_ (g & -> & Hg)].
  apply some_seq in H. destruct H as (c4 & s4 & d4 & H4 & H & _). apply some_cls in H4. destruct H4 as [_ (p & -> & Hp)]. unfold is_chr in Hp. apply Ascii.eqb_eq in Hp. subst p.
  apply some_seq in H. destruct H as (c5 & s5 & d5 & H5 & H & _). apply some_plus in H5. destruct H5 as [_ (i & -> & Hi & Hin)].
  apply some_cls in H. destruct H as [_ (q & -> & Hq)]. unfold is_chr in Hq. apply Ascii.eqb_eq in Hq. subst q.
  exists w, g, i. split; [|auto]. unfold op_text. cbn [app]. rewrite <- app_assoc. reflexivity.
Qed.
Inductive reps (r : re) : text -> text -> Prop :=
| reps_one s c s1 : some_match r s c s1 -> reps r s s1
| reps_more s c s1 rest : some_match r s c s1 -> reps r s1 rest -> reps r s rest.
Lemma many_reps r s caps rest : some_match (RMany r) s caps rest -> caps = [] /\ reps r s rest.
Proof.
  unfold some_match at 1. cbn [matches]. generalize (length s) at 1. intros n. revert s caps rest.
  induction n as [|n IH]; intros s caps rest H; [destruct H|]. apply in_flat_map in H. destruct H as ([c1 s1] & H1 & H2). cbn in H2.
  apply in_app_iff in H2. destruct H2 as [H2|[H2|[]]].
  - apply IH in H2. destruct H2 as [-> H2]. split; [reflexivity|]. apply (reps_more r s c1 s1); auto.
  - injection H2 as <- <-. split; [reflexivity|]. apply (reps_one r s c1). exact H1.
Qed.
Lemma reps_many r s rest : consuming r -> reps r s rest -> some_match (RMany r) s [] rest.
Proof.
  intros HC H. unfold some_match. cbn [matches]. assert (L : (length s <= length s)%nat) by lia. revert L. generalize (length s) at 2 3. intros n L. revert n L.
  induction H as [s c s1 H|s c s1 rest H Hr IH]; intros n L.
  - assert (K := HC _ _ _ H). destruct n as [|n]; [lia|]. apply in_flat_map. exists (c, s1). split; [exact H|]. apply in_or_app. right. left. reflexivity.
  - assert (K := HC _ _ _ H). destruct n as [|n]; [lia|]. apply in_flat_map. exists (c, s1). split; [exact H|]. apply in_or_app. left. apply IH. cbn. lia.
Qed.
Lemma consuming_star_seq p r : consuming r -> consuming (RSeq (RStar p) r).
Proof.
  intros HC s caps rest H. apply some_seq in H. destruct H as (c1 & s1 & c2 & H1 & H2 & _). apply some_shorter in H1. apply HC in H2. lia.
Qed.
Lemma piece_consuming : consuming op_piece.
Proof. apply consuming_star_seq, consuming_cls_seq. Qed.
Lemma first_some r s caps rest : first r s caps rest -> some_match r s caps rest.
Proof. unfold first, some_match. destruct (matches r s) as [|x l]; [discriminate|]. cbn. intros H. injection H as ->. left. reflexivity. Qed.
Lemma piece_op g i s : is_sign g = true -> all_of word_char i -> i <> [] -> some_match op_piece (" "%char :: op_text "a" g i ++ s) [] s.
Proof.
  intros Hg Hi Hn. apply first_some. unfold op_piece, op_text. cbn [rseq app]. rewrite <- app_assoc. cbn [app].
  apply (first_seq _ _ _ [] ("a"%char :: g :: "("%char :: i ++ ")"%char :: s) []); [apply (first_star is_ws [" "%char]); [repeat constructor|reflexivity]|].
  apply (first_seq _ _ _ [] (g :: "("%char :: i ++ ")"%char :: s) []); [apply first_cls; reflexivity|].
  apply (first_seq _ _ _ [] ("("%char :: i ++ ")"%char :: s) []); [apply first_cls; exact Hg|].
  apply (first_seq _ _ _ [] (i ++ ")"%char :: s) []); [apply first_cls; reflexivity|].
  apply (first_seq _ _ _ [] (")"%char :: s) []); [apply first_plus; auto; reflexivity|]. apply first_cls. reflexivity.
Qed.
Lemma seq_some a b s c1 s1 c2 s2 : some_match a s c1 s1 -> some_match b s1 c2 s2 -> some_match (RSeq a b) s (c1 ++ c2) s2.
Proof. intros H1 H2. unfold some_match. cbn [matches]. apply in_flat_map. exists (c1, s1). split; [exact H1|]. apply in_map_iff. exists (c2, s2). split; [reflexivity|exact H2]. Qed.
Lemma ws1 : all_of is_ws [" "%char].
Proof. repeat constructor. Qed.
Lemma ab_not_ws c : is_ab c = true -> is_ws c = false.
Proof. intros H. destruct (is_ab_cases _ H) as [->| ->]; reflexivity. Qed.
Lemma is_sign_cases c : is_sign c = true -> c = "+"%char \/ c = "-"%char.
Proof. unfold is_sign, is_chr. intros H. apply orb_prop in H. destruct H as [H|H]; apply Ascii.eqb_eq in H; auto. Qed.
Lemma idx_not_ws c : is_ws c = true -> idx_char c = true -> False.
Proof. destruct c as [[] [] [] [] [] [] [] []]; intros H K; discriminate H || discriminate K. Qed.
(** Operator texts as printed: the letter a or b, a sign, an index. *)
Record optxt := mkO { o_b : ascii; o_g : ascii; o_i : text }.
Definition otext (o : optxt) : text := op_text (o_b o) (o_g o) (o_i o).
Definition ogood (o : optxt) : Prop := is_ab (o_b o) = true /\ is_sign (o_g o) = true /\ all_of word_char (o_i o) /\ o_i o <> [].
Definition ospaced (os : list optxt) : text := concat (map (fun o => " "%char :: otext o) os).
Lemma sep_app a b : ospaced (a ++ b) = ospaced a ++ ospaced b.
Proof. unfold ospaced. rewrite map_app, concat_app. reflexivity. Qed.
Lemma word_not_close c : word_char c = true -> c <> ")"%char.
Proof. intros H ->. discriminate H. Qed.
Lemma piece_ospaced o os rest caps s1 : ogood o -> some_match op_piece (ospaced (o :: os) ++ rest) caps s1 -> o_b o = "a"%char /\ s1 = ospaced os ++ rest.
Proof.
  intros (Hb & Hg & Hi & Hn) H. apply piece_shape in H. destruct H as (w & g & i & E & Hw & Hg' & Hi' & Hn').
  unfold ospaced in E. cbn [map concat] in E. fold (ospaced os) in E. rewrite <- app_assoc in E. unfold otext, op_text in E. cbn [app] in E.
  change (" "%char :: o_b o :: o_g o :: "("%char :: (o_i o ++ [")"%char]) ++ ospaced os ++ rest) with ([" "%char] ++ o_b o :: o_g o :: "("%char :: (o_i o ++ [")"%char]) ++ ospaced os ++ rest) in E.
  apply (run_split is_ws [" "%char]) in E; [|exact ws1|exact Hw|exact (ab_not_ws _ Hb)|reflexivity].
  destruct E as (_ & Eb & E). rewrite Eb. split; [reflexivity|]. injection E as _ E. rewrite <- !app_assoc in E. cbn [app] in E.
  apply (run_split word_char) in E; auto. destruct E as (_ & _ & E). symmetry. exact E.
Qed.
Lemma reps_ospaced s rest : reps op_piece s rest -> forall os tail, s = ospaced os ++ " "%char :: "}"%char :: tail -> Forall ogood os ->
  exists k, (0 < k <= length os)%nat /\ rest = ospaced (skipn k os) ++ " "%char :: "}"%char :: tail /\ Forall (fun o => o_b o = "a"%char) (firstn k os).
Proof.
  assert (Z : forall caps s1 tail, ~ some_match op_piece (" "%char :: "}"%char :: tail) caps s1).
  { intros caps s1 tail H. apply piece_shape in H. destruct H as (w & g & i & E & Hw & _).
    change (" "%char :: "}"%char :: tail) with ([" "%char] ++ "}"%char :: tail) in E. unfold op_text in E. cbn [app] in E.
    apply (run_split is_ws [" "%char]) in E; [|exact ws1|exact Hw|reflexivity|reflexivity]. destruct E as (_ & E & _). discriminate. }
  induction 1 as [s c s1 H|s c s1 rest H Hr IH]; intros os tail -> Hos.
  - destruct os as [|o os]; [exfalso; eapply Z; exact H|]. inversion Hos; subst. apply piece_ospaced in H; auto. destruct H as [Hb ->].
    exists 1%nat. cbn. repeat split; try lia. constructor; auto.
  - destruct os as [|o os]; [exfalso; eapply Z; exact H|]. inversion Hos; subst. apply piece_ospaced in H; auto. destruct H as [Hb ->].
    destruct (IH os tail eq_refl) as (k & Hk & -> & Hf); auto. exists (S k). cbn. repeat split; try lia. constructor; auto.
Qed.
(** The braces are recognised exactly when there are operators and all carry the letter a. *)
Lemma search_N_braces os tail : Forall ogood os -> ~ In "{"%char tail ->
  search_N ("{"%char :: ospaced os ++ " "%char :: "}"%char :: tail) = negb (length os =? 0)%nat && forallb (fun o => Ascii.eqb (o_b o) "a") os.
Proof.
  intros Hos Ht. destruct (negb (length os =? 0)%nat && forallb (fun o => Ascii.eqb (o_b o) "a") os) eqn:E.
  - apply andb_prop in E. destruct E as [En Ea]. rewrite forallb_forall in Ea.
    assert (R : reps op_piece (ospaced os ++ " "%char :: "}"%char :: tail) (" "%char :: "}"%char :: tail)).
    { destruct os as [|o os]; [discriminate En|]. clear En. revert o Hos Ea. induction os as [|o' os IH]; intros o Hos Ea.
      - inversion Hos as [|? ? Ho _]; subst. destruct Ho as (_ & Hg & Hi & Hn). apply (reps_one _ _ []). unfold ospaced. cbn [map concat]. rewrite app_nil_r.
        unfold otext. assert (Hb := Ea o (or_introl eq_refl)). apply Ascii.eqb_eq in Hb. rewrite Hb. apply piece_op; auto.
      - inversion Hos as [|? ? Ho Hos']; subst. destruct Ho as (_ & Hg & Hi & Hn). apply (reps_more _ _ [] (ospaced (o' :: os) ++ " "%char :: "}"%char :: tail)).
        + unfold ospaced at 1. cbn [map concat]. rewrite <- app_assoc. unfold otext at 1. assert (Hb := Ea o (or_introl eq_refl)). apply Ascii.eqb_eq in Hb. rewrite Hb. apply piece_op; auto.
        + apply IH; auto. intros x Hx. apply Ea. right. exact Hx. }
    cbn [regex_search]. destruct (matches normal_ordered_re ("{"%char :: ospaced os ++ " "%char :: "}"%char :: tail)) as [|m ms] eqn:Em; [|reflexivity]. exfalso.
    assert (M : some_match normal_ordered_re ("{"%char :: ospaced os ++ " "%char :: "}"%char :: tail) [] tail); [|unfold some_match in M; rewrite Em in M; destruct M].
    apply reps_many in R; [|apply piece_consuming]. unfold normal_ordered_re. cbn [rseq]. fold op_piece.
    apply (seq_some _ _ _ [] (ospaced os ++ " "%char :: "}"%char :: tail) []); [apply first_some, first_cls; reflexivity|].
    apply (seq_some _ _ _ [] (" "%char :: "}"%char :: tail) [] tail R).
    apply (seq_some _ _ _ [] ("}"%char :: tail) []); [apply first_some, (first_star is_ws [" "%char]); [repeat constructor|reflexivity]|].
    apply first_some, first_cls. reflexivity.
  - rewrite search_skip.
    + replace (ospaced os ++ " "%char :: "}"%char :: tail) with ((ospaced os ++ [" "; "}"]%char ++ tail) ++ []) by (rewrite <- !app_assoc; reflexivity || (rewrite app_nil_r; reflexivity)).
      rewrite search_N_nobrace; [reflexivity|]. rewrite !Forall_app. split; [|split].
      * unfold ospaced. apply Forall_concat. apply Forall_map. eapply Forall_impl; [|exact Hos]. intros o (Hb & Hg & Hi & _). unfold otext, op_text.
        constructor; [discriminate|]. constructor; [destruct (is_ab_cases _ Hb) as [->| ->]; discriminate|]. constructor; [intros K; rewrite K in Hg; discriminate|].
        constructor; [discriminate|]. apply Forall_app. split; [|repeat constructor; discriminate]. eapply Forall_impl; [|exact Hi]. cbn. intros c Hc ->. discriminate.
      * repeat constructor; discriminate.
      * apply Forall_forall. intros c Hc ->. auto.
    + intros caps rest M. apply some_seq in M. destruct M as (c1 & s1 & d1 & H1 & M & _). apply some_cls in H1. destruct H1 as [_ (b & Eb & _)]. injection Eb as _ <-.
      apply some_seq in M. destruct M as (c2 & s2 & d2 & H2 & M & _). fold op_piece in H2. apply many_reps in H2. destruct H2 as [_ H2].
      destruct (reps_ospaced _ _ H2 os tail eq_refl Hos) as (k & Hk & -> & Hf).
      apply some_seq in M. destruct M as (c3 & s3 & d3 & H3 & M & _). apply some_star in H3. destruct H3 as [_ (w & Ew & Hw)].
      apply some_cls in M. destruct M as [_ (q & -> & Hq)]. unfold is_chr in Hq. apply Ascii.eqb_eq in Hq. subst q.
      destruct (skipn k os) as [|o os'] eqn:Es.
      * assert (L : (length (skipn k os) = 0)%nat) by (rewrite Es; reflexivity). rewrite skipn_length in L. assert (k = length os) by lia. subst k.
        rewrite firstn_all in Hf. apply andb_false_iff in E. destruct E as [E|E]; [destruct os; [cbn in Hk; lia|discriminate E]|].
        assert (forallb (fun o => Ascii.eqb (o_b o) "a") os = true); [|congruence]. apply forallb_forall. rewrite Forall_forall in Hf. intros o Ho. rewrite (Hf o Ho). reflexivity.
      * unfold ospaced in Ew. cbn [map concat] in Ew. rewrite <- app_assoc in Ew. unfold otext, op_text in Ew. cbn [app] in Ew.
        assert (Ho : ogood o). { rewrite Forall_forall in Hos. apply Hos. rewrite <- (firstn_skipn k os), Es. apply in_or_app. right. left. reflexivity. }
        destruct Ho as (Hb & _).
        match type of Ew with " "%char :: o_b o :: ?t = _ => change (" "%char :: o_b o :: t) with ([" "%char] ++ o_b o :: t) in Ew end.
        apply (run_split is_ws [" "%char]) in Ew; [|exact ws1|exact Hw|exact (ab_not_ws _ Hb)|reflexivity].
        destruct Ew as (_ & K & _). rewrite K in Hb. discriminate.
Qed.
(** Tensor braces are not mistaken for normal-order braces. *)
Lemma search_N_tensor a u l s : all_of is_alnum a -> all_of idx_char u -> all_of idx_char l -> search_N (tensor_text a u l ++ s) = search_N s.
Proof.
  intros Ha Hu Hl.
  assert (B : forall u t, all_of idx_char u -> search_N ("{"%char :: u ++ "}"%char :: t) = search_N t).
  { clear. intros u t Hu. rewrite search_skip.
    - change (u ++ "}"%char :: t) with (u ++ ["}"%char] ++ t). rewrite app_assoc. apply search_N_nobrace. apply Forall_app. split; [|repeat constructor; discriminate].
      eapply Forall_impl; [|exact Hu]. cbn. intros c Hc ->. discriminate.
    - intros caps rest M. apply some_seq in M. destruct M as (c1 & s1 & d1 & H1 & M & _). apply some_cls in H1. destruct H1 as [_ (b & Eb & _)]. injection Eb as _ <-.
      apply some_seq in M. destruct M as (c2 & s2 & d2 & H2 & M & _). fold op_piece in H2. apply many_reps in H2. destruct H2 as [_ H2].
      assert (exists c s', some_match op_piece (u ++ "}"%char :: t) c s') as (c & s' & H) by (inversion H2; eauto). apply piece_shape in H.
      destruct H as (w & g & i & E & Hw & Hg & _). destruct w as [|x w].
      + unfold op_text in E. cbn [app] in E. destruct u as [|x [|y u]]; cbn [app] in E; try discriminate.
        * injection E as _ E _. rewrite <- E in Hg. discriminate.
        * injection E as _ E _. inversion Hu as [|? ? _ K]. inversion K; subst. destruct (is_sign_cases _ Hg) as [E|E]; subst; discriminate.
      + inversion Hw; subst. destruct u as [|y u]; cbn [app] in E; injection E as E _.
        * subst. discriminate.
        * subst. inversion Hu; subst. destruct (idx_not_ws x); auto. }
  unfold tensor_text. rewrite <- !app_assoc. rewrite search_N_nobrace; [|eapply Forall_impl; [|exact Ha]; cbn; intros c Hc ->; discriminate].
  etransitivity; [apply (search_N_nobrace ["^"%char]); repeat constructor; discriminate|].
  etransitivity; [apply (B u (["_"; "{"]%char ++ l ++ ["}"%char] ++ s)); exact Hu|].
  etransitivity; [apply (search_N_nobrace ["_"%char]); repeat constructor; discriminate|]. apply B. exact Hl.
Qed.
