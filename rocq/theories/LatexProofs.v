(** C62: the LaTeX output means the expression printed (soundness of the grammar). *)
From Coq Require Import String ZArith List Bool Ascii Lia.
From Verif Require Import Res RegistryModel RegistryProofs CoreModel RationalModel RationalSpec AlgebraModel DecModel TextModel TextSpec TextProofs TextProofs2 TextProofs3 TextProofs4 ExprTextModel LatexModel LatexSpec.
Import ListNotations.
Local Open Scope Z_scope.
Local Open Scope res_scope.

(** ** Labels *)
Lemma alpha_not_under c : is_alpha c = true -> is_chr "_" c = false /\ is_digit c = false.
Proof. intros H. destruct c as [[] [] [] [] [] [] [] []]; vm_compute in H |- *; try discriminate; auto. Qed.
Lemma digit_not_alpha c : is_digit c = true -> is_alpha c = false.
Proof. intros H. destruct c as [[] [] [] [] [] [] [] []]; vm_compute in H |- *; try discriminate; auto. Qed.
Lemma label_re_complete s u d : s <> [] -> all_of is_alpha s -> (u = [] \/ u = lit "_") -> all_of is_digit d -> regex_match label_re (s ++ u ++ d) = Some [s; d].
Proof.
  intros Ns As Hu Ad. apply first_match. unfold label_re. cbn [rseq].
  change [s; d] with ([s] ++ [] ++ [d]).
  assert (St : stops is_alpha (u ++ d)).
  { destruct Hu as [->| ->]; cbn [app lit list_ascii_of_string]; [|reflexivity]. destruct d as [|c d]; [exact I|]. cbn. apply digit_not_alpha. inversion Ad; auto. }
  apply first_seq with (s1 := u ++ d). { apply first_grp. apply first_plus; auto. }
  apply first_seq with (s1 := d).
  { destruct Hu as [->| ->]; cbn [app lit list_ascii_of_string].
    - apply (first_skip (RCls (is_chr "_"))). destruct d as [|c d]; [reflexivity|]. cbn. rewrite digit_not_under; [reflexivity|]. inversion Ad; auto.
    - apply first_opt. apply first_cls. reflexivity. }
  destruct d as [|c d]; [apply (first_skip (RGrp (RPlus is_digit))); reflexivity|]. apply first_opt. rewrite <- (app_nil_r (c :: d)) at 1. apply first_grp. apply first_plus; [exact Ad|discriminate|exact I].
Qed.
Lemma label_re_sound label caps : regex_match label_re label = Some caps -> exists s u d, label = s ++ u ++ d /\ caps = [s; d] /\ s <> [] /\ all_of is_alpha s /\ (u = [] \/ u = lit "_") /\ all_of is_digit d.
Proof.
  intros H. apply match_some in H. unfold label_re in H. cbn [rseq] in H.
  apply some_seq in H. destruct H as (c1 & s1 & c2 & H1 & H2 & ->). apply some_grp in H1. destruct H1 as (c1' & H1 & ->). apply some_plus in H1. destruct H1 as (-> & s & -> & As & Ns).
  apply some_seq in H2. destruct H2 as (c3 & s2 & c4 & H3 & H4 & ->).
  assert (U : c3 = [] /\ exists u, s1 = u ++ s2 /\ (u = [] \/ u = lit "_")).
  { apply some_opt in H3. destruct H3 as [H3|(-> & ->)]; [|split; [reflexivity|exists []; auto]]. apply some_cls in H3. destruct H3 as (-> & c & -> & E). split; [reflexivity|]. exists [c]. split; [reflexivity|]. right. apply Ascii.eqb_eq in E. subst. reflexivity. }
  destruct U as (-> & u & -> & Hu).
  assert (D : c4 = [s2] /\ all_of is_digit s2).
  { apply some_opt in H4. destruct H4 as [H4|(-> & <-)]; [|split; [reflexivity|constructor]]. apply some_grp in H4. destruct H4 as (c5 & H4 & ->). apply some_plus in H4. destruct H4 as (-> & d & -> & Ad & Nd).
    rewrite cut_pre, app_nil_r. auto. }
  destruct D as (-> & Ad). exists s, u, s2. rewrite cut_pre. auto 7.
Qed.
Lemma label_latex_ok label x : label_latex label = Ok x -> exists l, shown_label label l /\ reads_symbol x l.
Proof.
  unfold label_latex. destruct (regex_match label_re label) as [caps|] eqn:E; [|discriminate]. apply label_re_sound in E. destruct E as (s & u & d & -> & -> & Ns & As & Hu & Ad).
  intros H. injection H as <-. exists (s ++ (if is_greek s then [] else d)). split; [constructor; auto|]. destruct (is_greek s) eqn:G.
  - rewrite app_nil_r. cbn [app]. apply (rs_greek s); auto.
  - destruct d as [|c d].
    + rewrite app_nil_r. cbn [app]. apply (rs_name s); auto.
    + match goal with |- reads_symbol ?a _ => replace a with (lit "{" ++ s ++ lit "_{" ++ (c :: d) ++ lit "}" ++ lit "}") by (cbn; rewrite <- app_assoc; reflexivity) end. apply rs_sub; auto. discriminate.
Qed.
Lemma label_latex_def label : good_label label -> exists x, label_latex label = Ok x.
Proof. intros (s & u & d & -> & Ns & As & Hu & Ad). unfold label_latex. rewrite label_re_complete; auto. eexists. reflexivity. Qed.
Lemma label_latex_throw label : ~ good_label label -> label_latex label = Throw.
Proof.
  intros H. unfold label_latex. destruct (regex_match label_re label) as [caps|] eqn:E; [|reflexivity]. exfalso. apply H. apply label_re_sound in E. destruct E as (s & u & d & -> & -> & Ns & As & Hu & Ad). exists s, u, d. auto 6.
Qed.

(** ** Rows, tensors, operators, terms *)
Lemma row_join st l : forall xs, Forall2 (fun i x => index_latex st i = Ok x) l xs -> reads_row st (join xs (lit " ")) l.
Proof.
  induction l as [|i l IH]; intros xs F; inversion F as [|? x ? xs' Hx F']; subst; [constructor|]. specialize (IH _ F'). destruct F' as [|j y l' ys Hy F']; [constructor; auto|]. cbn [join]. constructor; auto.
Qed.
Lemma tensor_latex_reads st t x : tensor_latex st t = Ok x -> exists t', shown_tensor t t' /\ reads_tensor st x t'.
Proof.
  unfold tensor_latex. intros H. apply bind_ok in H. destruct H as (u & Hu & H). apply bind_ok in H. destruct H as (l & Hl & H). apply bind_ok in H. destruct H as (s & Hs & H). injection H as <-.
  apply label_latex_ok in Hs. destruct Hs as (lb & Sh & Rs). eexists. split; [constructor; exact Sh|]. constructor; auto; apply row_join, mapM_Forall2; auto.
Qed.
Lemma sqop_latex_reads st q x : sqop_latex st q = Ok x -> reads_op st x q.
Proof.
  unfold sqop_latex. intros H. apply bind_ok in H. destruct H as (s & Hs & H). apply bind_ok in H. destruct H as (i & Hi & H). injection H as <-. destruct q as [[] ix]; cbn [s_cre s_idx s_space] in *; [apply ro_cre|apply ro_ann]; auto.
Qed.
Lemma cta_split l : is_creation_then_annihilation l = true -> l = filter s_cre l ++ filter (fun q => negb (s_cre q)) l.
Proof.
  induction l as [|x l IH]; intros H; [reflexivity|]. cbn [filter]. destruct (s_cre x) eqn:Cx; cbn [negb app].
  - f_equal. apply IH. destruct l as [|y l]; [reflexivity|]. cbn [is_creation_then_annihilation] in H. rewrite Cx in H. cbn in H. rewrite andb_false_r in H. exact H.
  - assert (A : filter s_cre l = []).
    { clear IH. revert x Cx H. induction l as [|y l IHl]; intros x Cx H; [reflexivity|]. cbn [is_creation_then_annihilation] in H. rewrite Cx in H. apply andb_prop in H. destruct H as [H1 H2]. cbn [negb] in H1. rewrite andb_true_r in H1.
      apply negb_true_iff in H1. cbn [filter]. rewrite H1. eapply IHl; eauto. }
    rewrite A. cbn [app]. f_equal. clear - A. induction l as [|y l IHl]; [reflexivity|]. cbn [filter] in A |- *. destruct (s_cre y); [discriminate|]. cbn [negb]. f_equal. auto.
Qed.
Lemma mk_cre l : map (mkSQ true) (map s_idx (filter s_cre l)) = filter s_cre l.
Proof. induction l as [|[[] i] l IH]; cbn; congruence. Qed.
Lemma mk_ann l : map (mkSQ false) (map s_idx (filter (fun q => negb (s_cre q)) l)) = filter (fun q => negb (s_cre q)) l.
Proof. induction l as [|[[] i] l IH]; cbn; congruence. Qed.
Lemma Forall2_idx st (l : list sqop) xs : Forall2 (fun q x => index_latex st (s_idx q) = Ok x) l xs -> Forall2 (fun i x => index_latex st i = Ok x) (map s_idx l) xs.
Proof. induction 1; constructor; auto. Qed.
Lemma Forall2_rev {A B} (R : A -> B -> Prop) l m : Forall2 R l m -> Forall2 R (rev l) (rev m).
Proof. induction 1; cbn; [constructor|]. apply Forall2_app; auto. Qed.
Lemma ops_latex_reads st ops xs : ops <> [] -> ops_latex st ops = Ok xs -> reads_ops st (join xs (lit " ")) ops.
Proof.
  intros N. unfold ops_latex. destruct (is_creation_then_annihilation ops) eqn:C; intros H.
  - apply bind_ok in H. destruct H as (c & Hc & H). apply bind_ok in H. destruct H as (a & Ha & H). injection H as <-. cbn [join].
    apply mapM_Forall2, Forall2_idx in Hc. apply mapM_Forall2, Forall2_idx in Ha.
    rewrite (cta_split ops C). rewrite <- (mk_cre ops) at 1. rewrite <- (mk_ann ops). rewrite <- (rev_involutive (map s_idx (filter (fun q => negb (s_cre q)) ops))).
    apply ros_compact; apply row_join; auto. apply Forall2_rev; auto.
  - apply ros_word; [|].
    + destruct ops; [congruence|]. apply mapM_Forall2 in H. inversion H. discriminate.
    + apply mapM_Forall2 in H. clear C N. induction H as [|q x l xs Hx H IH]; constructor; auto. apply sqop_latex_reads; auto.
Qed.
Lemma join_nest (a b : list text) sep : b <> [] -> join (a ++ [join b sep]) sep = join (a ++ b) sep.
Proof.
  intros N. induction a as [|x a IH]; [reflexivity|]. cbn [app].
  assert (E : forall y l, l <> [] -> join (y :: l) sep = y ++ sep ++ join l sep) by (intros y [|]; [congruence|reflexivity]).
  rewrite !E, IH; auto; destruct a; cbn; try congruence; try discriminate.
Qed.
Lemma join_nest3 (a b : list text) p q sep : b <> [] -> join (a ++ [p; join b sep; q]) sep = join (a ++ p :: b ++ [q]) sep.
Proof.
  intros N. assert (E : forall y l, l <> [] -> join (y :: l) sep = y ++ sep ++ join l sep) by (intros y [|]; [congruence|reflexivity]).
  assert (K : forall b, b <> [] -> join (b ++ [q]) sep = join b sep ++ sep ++ q).
  { clear b N. induction b as [|x b IH]; intros N; [congruence|]. destruct b as [|y b]; [reflexivity|]. change ((x :: y :: b) ++ [q]) with (x :: (y :: b) ++ [q]). rewrite E by discriminate. rewrite IH by discriminate. cbn [join]. rewrite !app_assoc. reflexivity. }
  induction a as [|x a IH]; cbn [app].
  - rewrite (E p) by discriminate. rewrite (E p (b ++ [q])) by (destruct b; discriminate). f_equal. f_equal. rewrite K by auto. reflexivity.
  - rewrite !E, IH; auto; destruct a; discriminate.
Qed.
Lemma tensors_latex_reads st ts xs : mapM (tensor_latex st) ts = Ok xs -> exists ts', Forall2 shown_tensor ts ts' /\ Forall2 (reads_tensor st) xs ts'.
Proof.
  intros H. apply mapM_Forall2 in H. induction H as [|t x ts xs Hx H (ts' & A & B)]; [exists []; split; constructor|]. apply tensor_latex_reads in Hx. destruct Hx as (t' & S & R). exists (t' :: ts'). split; constructor; auto.
Qed.
Theorem term_latex_reads st t s : term_latex st t = Ok s -> exists t', shown_term t t' /\ reads_term st s t'.
Proof.
  unfold term_latex. intros H. apply bind_ok in H. destruct H as (xs & Hx & H). apply tensors_latex_reads in Hx. destruct Hx as (ts & Sh & R). apply bind_ok in H. destruct H as (os & Ho & H). injection H as <-.
  eexists. split; [constructor; exact Sh|]. destruct (tm_ops t) as [|q l] eqn:El.
  - injection Ho as <-. rewrite app_nil_r. cbn. rewrite andb_false_r. apply rtm_tensors; auto.
  - apply bind_ok in Ho. destruct Ho as (o & Ho & Hos). assert (No : o <> []).
    { unfold ops_latex in Ho. destruct (is_creation_then_annihilation (q :: l)).
      - apply bind_ok in Ho. destruct Ho as (c & _ & Ho). apply bind_ok in Ho. destruct Ho as (a & _ & Ho). injection Ho as <-. discriminate.
      - apply mapM_Forall2 in Ho. inversion Ho. discriminate. }
    assert (Ro := ops_latex_reads st (q :: l) o ltac:(discriminate) Ho). injection Hos as <-. change (negb (length (q :: l) =? 0)%nat) with true. rewrite andb_true_r.
    destruct (tm_no t).
    + cbn [app]. rewrite <- join_nest3 by auto. apply rtm_normal; auto.
    + cbn [app]. rewrite app_nil_r, <- join_nest by auto. apply rtm_product; auto.
Qed.

(** ** Coefficients, entries, expressions *)
Lemma dec_sign n : n <> 0 -> exists sg v m, sign_text sg v /\ 0 < m /\ n = v * m /\ dec_text n = sg ++ dec_text m /\ (0 < n -> sg = []).
Proof.
  intros H. destruct (Z_lt_le_dec n 0) as [L|L].
  - exists ["-"%char], (-1), (- n). split; [right; right; auto|]. split; [lia|]. split; [lia|]. split; [rewrite (dec_neg n L); reflexivity|lia].
  - exists [], 1, n. split; [left; auto|]. split; [lia|]. split; [lia|]. split; [reflexivity|auto].
Qed.
Lemma rat_latex_reads b r first : canonical r -> num r <> 0 -> reads_coefficient (rat_latex b r first) (num r) (den r).
Proof.
  intros [D G] N. unfold rat_latex. destruct (Z.eqb_spec (num r) 0); [congruence|]. destruct (Z.eqb_spec (den r) 1) as [E1|E1].
  - rewrite E1. destruct (Z.eqb_spec (num r) 1) as [->|N1]; [constructor|]. destruct (Z.eqb_spec (num r) (-1)) as [->|N2]; [constructor|].
    destruct (dec_sign (num r) N) as (sg & v & m & Sg & Pm & Em & Ed & Pl). rewrite Ed. destruct (dec_pos m ltac:(lia)) as (Nd & Ad & Vd).
    assert (K : forall sg' v', sign_text sg' v' -> v' = v -> reads_coefficient (sg' ++ dec_text m) (num r) 1).
    { intros sg' v' S' ->. rewrite Em. replace (v * m) with (v * dec_value (dec_text m)) by congruence. apply rc_int; auto. }
    destruct b; [destruct first; [apply (K sg v); auto|destruct (Z.ltb_spec 0 (num r)) as [L|L]]|apply (K sg v); auto].
    + rewrite Pl in Sg |- * by auto. cbn [app]. apply (K ["+"%char] 1); [right; left; auto|]. destruct Sg as [(_ & ->)|[(? & _)|(? & _)]]; [reflexivity|discriminate|discriminate].
    + apply (K sg v); auto.
  - destruct (dec_pos (Z.abs (num r)) ltac:(lia)) as (Nn & An & Vn). destruct (dec_pos (den r) ltac:(lia)) as (Nd & Ad & Vd).
    destruct (Z.ltb_spec 0 (num r)) as [L|L].
    + assert (E : num r = 1 * dec_value (dec_text (Z.abs (num r)))) by lia. rewrite E at 2. rewrite <- Vd at 2. apply (rc_frac ["+"%char]); auto. right. left. auto.
    + assert (E : num r = (-1) * dec_value (dec_text (Z.abs (num r)))) by lia. rewrite E at 2. rewrite <- Vd at 2. apply (rc_frac ["-"%char]); auto. right. right. auto.
Qed.
Lemma entry_latex_reads b st first x s : canonical (snd x) -> num (snd x) <> 0 -> entry_latex b st first x = Ok s -> exists x', shown_entry x x' /\ reads_entry st s x'.
Proof.
  destruct x as [t c]. cbn [fst snd]. intros Cc Nc H. unfold entry_latex in H. cbn [fst snd] in H. apply bind_ok in H. destruct H as (y & Hy & H). injection H as <-. apply term_latex_reads in Hy. destruct Hy as (t' & Sh & R).
  exists (t', c). split; [constructor; auto|]. rewrite <- (rat_make_self c Cc). apply (re_intro _ (rat_latex b (rat_make (num c) (den c)) first)); auto. rewrite rat_make_self by auto. apply rat_latex_reads; auto.
Qed.
Theorem expr_latex_reads b st e sep s : Forall (fun x => canonical (snd x) /\ num (snd x) <> 0) e -> expr_latex b st e sep = Ok s ->
  exists e', Forall2 shown_entry e e' /\ reads_expr st sep s e'.
Proof.
  intros F H. destruct e as [|x e]. { injection H as <-. exists []. split; [constructor|]. exists []. split; [constructor|reflexivity]. }
  cbn [expr_latex] in H. apply bind_ok in H. destruct H as (y & Hy & H). apply bind_ok in H. destruct H as (l & Hl & H). injection H as <-.
  inversion F as [|? ? (Cx & Nx) F']; subst. apply entry_latex_reads in Hy; auto. destruct Hy as (x' & Sx & Rx). apply mapM_Forall2 in Hl.
  assert (K : exists e', Forall2 shown_entry e e' /\ Forall2 (reads_entry st) l e').
  { clear - F' Hl. induction Hl as [|x y e l Hy H IH]; [exists []; split; constructor|]. inversion F' as [|? ? (Cx & Nx) F'']; subst. destruct (IH F'') as (e' & A & B). apply entry_latex_reads in Hy; auto. destruct Hy as (x' & Sx & Rx).
    exists (x' :: e'). split; constructor; auto. }
  destruct K as (e' & A & B). exists (x' :: e'). split; [constructor; auto|]. exists (y :: l). split; [constructor; auto|reflexivity].
Qed.
