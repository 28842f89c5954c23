(** Printing an expression and parsing it back: the factor and the whole text. *)
From Coq Require Import ZArith List Bool Ascii Lia Sorted.
From Verif Require Import Res RegistryModel RegistryProofs CoreModel RationalModel RationalSpec OrderProofs AlgebraModel AlgebraSpec AlgebraProofs DecModel TextModel TextSpec TextProofs TextProofs2 TextProofs3 TextProofs4 ExprTextModel ExprTextSpec ExprTextProofs ExprTextProofs2.
Import ListNotations.
Local Open Scope Z_scope.

(** ** The factor *)
(** Sign, digits, and possibly a slash with digits. *)
Record ftxt := mkF { f_sg : text; f_n : text; f_sl : text; f_d : text }.
Definition ftext (f : ftxt) : text := f_sg f ++ f_n f ++ f_sl f ++ f_d f.
Definition fgood (f : ftxt) : Prop := (f_sg f = [] \/ exists g, f_sg f = [g] /\ is_sign g = true) /\ all_of is_digit (f_n f) /\ all_of is_digit (f_d f) /\
  ((f_sl f = [] /\ f_d f = []) \/ f_sl f = ["/"%char]).
Definition plain_start (s : text) : Prop := stops is_digit s /\ stops (is_chr "/") s /\ stops is_sign s /\ stops is_ws s.
Lemma stops_nonempty p a b : a <> [] -> stops p a -> stops p (a ++ b).
Proof. destruct a; [congruence|auto]. Qed.
Lemma digit_stops p s b : (forall c, is_digit c = true -> p c = false) -> all_of is_digit s -> stops p b -> stops p (s ++ b).
Proof. intros H Hs Hb. destruct Hs as [|c s Hc Hs]; [exact Hb|]. cbn. auto. Qed.
Lemma digit_facts c : is_digit c = true -> is_ws c = false /\ is_sign c = false /\ is_chr "/" c = false.
Proof. intros H. split; [apply digit_not_ws, H|]. exact (digit_not_sign c H). Qed.
Lemma factor_first f w body : fgood f -> ((w = [" "%char] /\ ftext f <> []) \/ (w = [] /\ plain_start body)) -> factor_of (ftext f ++ w ++ body) = Ok (ftext f).
Proof.
  intros (Hsg & Hn & Hd & Hsl) Hw.
  assert (W : stops is_digit (w ++ body) /\ stops (is_chr "/") (w ++ body) /\ stops is_sign (w ++ body)).
  { destruct Hw as [[-> _]|[-> (A & B & C & D)]]; [repeat split|auto]. }
  destruct W as (W1 & W2 & W3).
  assert (T : exists rest, first factor_re (ftext f ++ w ++ body) [ftext f] rest).
  { (* the final blanks *)
    assert (X : exists w' rest, w ++ body = w' ++ rest /\ all_of is_ws w' /\ stops is_ws rest).
    { clear. induction (w ++ body) as [|c s IH]; [exists [], []; repeat split; constructor|]. destruct (is_ws c) eqn:E.
      - destruct IH as (w' & rest & -> & H1 & H2). exists (c :: w'), rest. repeat split; auto. constructor; auto.
      - exists [], (c :: s). repeat split; auto. constructor. }
    destruct X as (w' & rest & EX & Hw' & Hr). exists rest.
    assert (S0 : stops is_ws (ftext f ++ w ++ body)).
    { destruct Hw as [[-> Hne]|[-> (_ & _ & _ & D)]]; unfold ftext in *; destruct Hsg as [Esg|(g & Esg & Hg)]; rewrite Esg in *.
      - destruct (f_n f) as [|c n] eqn:En.
        + destruct Hsl as [(E1 & E2)|E1]; rewrite E1 in *; [rewrite E2 in Hne; exfalso; apply Hne; reflexivity|reflexivity].
        + cbn. inversion Hn; subst. apply digit_facts; auto.
      - cbn. destruct (is_sign_cases _ Hg) as [->| ->]; reflexivity.
      - destruct (f_n f) as [|c n] eqn:En.
        + destruct Hsl as [(-> & ->)| ->]; cbn [app]; [exact D|reflexivity].
        + cbn. inversion Hn; subst. apply digit_facts; auto.
      - cbn. destruct (is_sign_cases _ Hg) as [->| ->]; reflexivity. }
    assert (G : first (RGrp (rseq [ROpt (RCls is_sign); RStar is_digit; ROpt (RCls (is_chr "/")); RStar is_digit])) (ftext f ++ w ++ body) [ftext f] (w ++ body)).
    { apply (first_grp _ (ftext f) (w ++ body) []). unfold ftext. rewrite <- !app_assoc. cbn [rseq].
      apply (first_seq _ _ _ [] (f_n f ++ f_sl f ++ f_d f ++ w ++ body) []).
      - destruct Hsg as [->|(g & -> & Hg)].
        + cbn [app]. apply first_skip. cbn [matches].
          assert (St : stops is_sign (f_n f ++ f_sl f ++ f_d f ++ w ++ body)).
          { apply digit_stops; auto; [intros c Hc; apply digit_facts, Hc|]. destruct Hsl as [(-> & ->)| ->]; [exact W3|reflexivity]. }
          destruct (f_n f ++ f_sl f ++ f_d f ++ w ++ body) as [|c s]; [reflexivity|]. cbn in St. rewrite St. reflexivity.
        + apply first_opt, first_cls, Hg.
      - apply (first_seq _ _ _ [] (f_sl f ++ f_d f ++ w ++ body) []).
        + apply first_star; [exact Hn|]. destruct Hsl as [(-> & ->)| ->]; [exact W1|reflexivity].
        + apply (first_seq _ _ _ [] (f_d f ++ w ++ body) []).
          * destruct Hsl as [(-> & ->)| ->].
            -- cbn [app]. apply first_skip. cbn [matches]. destruct (w ++ body) as [|c s]; [reflexivity|]. cbn in W2. rewrite W2. reflexivity.
            -- apply first_opt, first_cls. reflexivity.
          * apply first_star; [exact Hd|exact W1]. }
    unfold factor_re. cbn [rseq]. apply (first_seq _ _ _ [] (ftext f ++ w ++ body) [ftext f]); [apply (first_star is_ws []); [constructor|exact S0]|].
    apply (first_seq _ _ _ [ftext f] (w ++ body) []); [exact G|]. rewrite EX. apply first_star; auto. }
  destruct T as (rest & T). unfold factor_of. unfold first in T. destruct (matches factor_re (ftext f ++ w ++ body)) as [|x l]; [discriminate|]. cbn in T. injection T as ->. reflexivity.
Qed.

(** ** A factor followed by the text of a term *)
Lemma fa_T_upto x c s : ~ In "^"%char x -> is_alnum c = false -> c <> "^"%char -> fa_T (x ++ c :: s) = fa_T s.
Proof.
  intros Hx Hc Hn. induction x as [|a x IH]; [apply (fa_T_run c s Hc Hn []); constructor|]. cbn [app]. rewrite findall_skip; [apply IH; intros K; apply Hx; right; exact K|apply tensors_consuming|].
  intros caps rest M. apply tensors_shape in M. destruct M as (run & s' & E & Hr & _). clear IH.
  change (a :: x ++ c :: s) with ((a :: x) ++ c :: s) in E. revert run E Hr. generalize dependent (a :: x). clear a x. induction l as [|a x IH]; intros Hx [|b run] E Hr; cbn [app] in E.
  - injection E as -> _. congruence.
  - injection E as -> _. inversion Hr; congruence.
  - injection E as -> _. apply Hx. left. reflexivity.
  - injection E as _ E. inversion Hr; subst. apply (IH ltac:(intros K; apply Hx; right; exact K) run E); auto.
Qed.
Definition fchar (c : ascii) : bool := is_digit c || is_sign c || is_chr "/" c.
Lemma ftext_chars f : fgood f -> all_of fchar (ftext f).
Proof.
  intros (Hsg & Hn & Hd & Hsl). unfold ftext, fchar. unfold all_of. rewrite !Forall_app. repeat split.
  - destruct Hsg as [->|(g & -> & Hg)]; constructor; auto. rewrite Hg, orb_true_r. reflexivity.
  - eapply Forall_impl; [|exact Hn]. cbn. intros c ->. reflexivity.
  - destruct Hsl as [(-> & _)| ->]; repeat constructor.
  - eapply Forall_impl; [|exact Hd]. cbn. intros c ->. reflexivity.
Qed.
Lemma fchar_not c d : fchar c = true -> fchar d = false -> c <> d.
Proof. congruence. Qed.
Lemma fchar_noab c : fchar c = true -> is_ab c = false.
Proof. intros H. destruct (is_ab c) eqn:E; [|reflexivity]. destruct (is_ab_cases _ E); subst; discriminate. Qed.

(** The body of a term: tensors, then operators. *)
Definition body (xs : list ttxt) (no : bool) (os : list optxt) : text := join (map ttext xs ++ op_part no os) [" "%char].
Lemma body_nil xs no os : body xs no os = [] -> xs = [] /\ os = [].
Proof.
  unfold body. destruct xs as [|x xs]; cbn [map app].
  - destruct os as [|o os]; [auto|]. rewrite op_part_text. destruct no; discriminate.
  - rewrite join_cons. unfold ttext, tensor_text. destruct (tt_a x); discriminate.
Qed.
Lemma alpha_plain c s : is_alpha c = true -> plain_start (c :: s).
Proof. unfold plain_start. cbn. intros H. destruct c as [[] [] [] [] [] [] [] []]; try discriminate H; repeat split; reflexivity. Qed.
Lemma body_start xs no os : Forall tgood xs -> Forall ogood os -> plain_start (body xs no os).
Proof.
  intros Gx Go. unfold body. destruct Gx as [|x xs ((c & l & El & Hc) & _) Gx]; cbn [map app].
  - destruct Go as [|o os (Hb & _) Go]; [repeat split|]. rewrite op_part_text. destruct no; [repeat split|]. unfold otext, op_text. cbn [app]. apply alpha_plain. destruct (is_ab_cases _ Hb) as [->| ->]; reflexivity.
  - rewrite join_cons. unfold ttext, tensor_text. rewrite El. cbn [app]. apply alpha_plain, Hc.
Qed.
Lemma parse_text st sym f w xs no os ts qs c : fgood f -> Forall tgood xs -> Forall ogood os ->
  (w = [" "%char] /\ ftext f <> [] \/ w = [] /\ (xs = [] \/ f_n f = [] /\ f_sl f = [])) -> ftext f ++ w ++ body xs no os <> [] ->
  mapM (fun x => make_tensor st x sym) (map ttext xs) = Ok ts -> make_ops st (ocaps os) = Ok qs -> make_rational (ftext f) = Ok c ->
  make_expression st (ftext f ++ w ++ body xs no os) sym = Ok (madd term_ltb (mkTerm (no && negb (length os =? 0)%nat && forallb (fun o => Ascii.eqb (o_b o) "a") os) qs ts) c []).
Proof.
  intros Gf Gx Go Hw Hne Mt Mo Mr. assert (Gx0 := tgoods_0 _ Gx). assert (Fc := ftext_chars f Gf). unfold all_of in Fc. rewrite Forall_forall in Fc.
  assert (Wc : forall c, In c w -> c = " "%char) by (destruct Hw as [[-> _]|[-> _]]; intros d Hd; [destruct Hd as [<-|[]]; reflexivity|destruct Hd]).
  assert (ET : fa_T (ftext f ++ w ++ body xs no os) = map ttext xs).
  { assert (EB : fa_T (body xs no os) = map ttext xs). { apply fa_T_join; auto. assert (K := part_nocaret no os Go). rewrite Forall_forall in K. intros H. exact (K _ H eq_refl). }
    destruct Hw as [[-> _]|[-> [E|[En Esl]]]].
    - rewrite <- EB. apply fa_T_upto; try reflexivity; try discriminate. intros K. apply Fc in K. discriminate.
    - subst xs. cbn [app map]. apply fa_T_none. intros K. apply in_app_iff in K. destruct K as [K|K]; [apply Fc in K; discriminate|].
      assert (P := part_nocaret no os Go). rewrite Forall_forall in P. exact (P _ K eq_refl).
    - destruct Gf as (Hsg & _ & _ & Hsl). rewrite Esl in Hsl. destruct Hsl as [(_ & Ed)|Hsl]; [|discriminate]. unfold ftext. rewrite En, Esl, Ed. cbn [app]. rewrite app_nil_r.
      destruct Hsg as [->|(g & -> & Hg)]; [exact EB|]. cbn [app]. rewrite <- EB. apply (fa_T_upto [] g); [intros []| |]; destruct (is_sign_cases _ Hg) as [->| ->]; try reflexivity; discriminate. }
  assert (EO : fa_O (ftext f ++ w ++ body xs no os) = ocaps os).
  { rewrite app_assoc, fa_O_noab; [unfold body; rewrite fa_O_join by auto; apply fa_O_part; auto|]. apply Forall_app. split; apply Forall_forall; intros d Hd; [apply fchar_noab, Fc, Hd|]. rewrite (Wc d Hd). reflexivity. }
  assert (EN : search_N (ftext f ++ w ++ body xs no os) = no && negb (length os =? 0)%nat && forallb (fun o => Ascii.eqb (o_b o) "a") os).
  { rewrite app_assoc, search_N_nobrace; [unfold body; rewrite search_N_join by auto; apply search_N_part; auto|]. apply Forall_app. split; apply Forall_forall; intros d Hd; [intros ->; apply Fc in Hd; discriminate|]. rewrite (Wc d Hd). discriminate. }
  assert (EF : factor_of (ftext f ++ w ++ body xs no os) = Ok (ftext f)).
  { apply factor_first; auto. destruct Hw as [[-> Hn]|[-> _]]; [left; auto|right; split; [reflexivity|]]. apply body_start; auto. }
  unfold make_expression. destruct (ftext f ++ w ++ body xs no os) as [|c0 s0] eqn:E; [congruence|]. rewrite ET, EO, EN, EF, Mt. cbn [bind]. rewrite Mo. cbn [bind]. rewrite Mr. reflexivity.
Qed.
