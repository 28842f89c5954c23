(** Printing an expression and parsing it back: the factor glued to the first label. *)
From Coq Require Import ZArith QArith List Bool Ascii Lia Sorted.
From Verif Require Import Res RegistryModel RegistryProofs CoreModel RationalModel RationalSpec OrderProofs AlgebraModel AlgebraSpec AlgebraProofs DecModel TextModel TextSpec TextProofs TextProofs2 TextProofs3 TextProofs4 ExprTextModel ExprTextSpec ExprTextProofs ExprTextProofs2 ExprTextProofs3 ExprTextProofs4 ExprTextProofs5.
Import ListNotations.
Local Open Scope Z_scope.

Lemma digit_alnum c : is_digit c = true -> is_alnum c = true.
Proof. intros H. unfold is_alnum. rewrite H. destruct (is_alpha c); reflexivity. Qed.
Lemma first_tensor st t dg : reachable st -> printable_tensor st t -> all_of is_digit dg -> exists x, tgood x /\ tensor_str st t = Ok (ttext x) /\ tgood0 (mkTT (dg ++ tt_a x) (tt_u x) (tt_l x)) /\
  forall sym, make_tensor st (ttext (mkTT (dg ++ tt_a x) (tt_u x) (tt_l x))) sym = Ok (mkT (dg ++ t_label t) (t_lower t) (t_upper t) sym false).
Proof.
  intros R P Dg. destruct (tensor_piece st t R P) as (x0 & _ & Es & _). assert (P0 := P). destruct P0 as ((c & l & El & Hc & Hl) & PU & PL).
  assert (HA : all_of is_alnum (t_label t)) by (rewrite El; constructor; [apply alpha_alnum, Hc|exact Hl]).
  assert (HD : all_of is_alnum (dg ++ t_label t)) by (apply Forall_app; split; [eapply Forall_impl; [|exact Dg]; apply digit_alnum|exact HA]).
  destruct (tensor_roundtrip st (mkT (dg ++ t_label t) (t_lower t) (t_upper t) (t_sym t) (t_cc t)) R) as (s & Es' & Ms); cbn [t_label t_lower t_upper] in *; auto; [rewrite El; destruct dg; discriminate|].
  unfold tensor_str in *. cbn [t_label t_lower t_upper] in *. destruct (mapM (index_str st) (t_upper t)) as [u| | |] eqn:Eu; try discriminate. destruct (mapM (index_str st) (t_lower t)) as [w| | |] eqn:Ew; try discriminate. cbn [bind] in *.
  exists (mkTT (t_label t) (join u [","%char]) (join w [","%char])). cbn [tt_a tt_u tt_l]. assert (Iu := indices_idx st _ _ PU Eu). assert (Iw := indices_idx st _ _ PL Ew). split.
  - split; [exists c, l; auto|]. auto.
  - split; [reflexivity|]. split; [split; [cbn; rewrite El; destruct dg; discriminate|auto]|]. intros sym. rewrite <- Ms. f_equal. injection Es' as <-. unfold ttext, tensor_text. cbn [tt_a tt_u tt_l]. reflexivity.
Qed.
Lemma ttext_glue dg x : ttext (mkTT (dg ++ tt_a x) (tt_u x) (tt_l x)) = dg ++ ttext x.
Proof. unfold ttext, tensor_text. cbn [tt_a tt_u tt_l]. rewrite <- app_assoc. reflexivity. Qed.
Lemma body_glue dg x xs no os : dg ++ body (x :: xs) no os = body (mkTT (dg ++ tt_a x) (tt_u x) (tt_l x) :: xs) no os.
Proof. unfold body. cbn [map app]. rewrite !join_cons, ttext_glue, <- app_assoc. reflexivity. Qed.
Lemma small_rat c : glued c -> exists d, is_digit d = true /\ dec_text (num (snd c)) = [d] /\ rat_str (snd c) false = [d].
Proof.
  intros (D & N & _). destruct c as [t [n d]]. cbn in D, N |- *. subst d.
  assert (E : n = 2 \/ n = 3 \/ n = 4 \/ n = 5 \/ n = 6 \/ n = 7 \/ n = 8 \/ n = 9) by lia.
  repeat (destruct E as [->|E]; [eexists; repeat split; reflexivity|]). subst. eexists; repeat split; reflexivity.
Qed.
Theorem glued_misread st t c : reachable st -> printable_term st t -> canonical c -> glued (t, c) ->
  exists s, entry_str st true (t, c) = Ok s /\ no_newline s /\ forall sym, make_expression st s sym = Ok [(reread st sym (glue t c), c)].
Proof.
  intros R Pt Cc G. destruct (small_rat _ G) as (d & Hd & Ed & Er). cbn [snd] in Ed, Er. destruct G as (Dn & Nn & Nt). cbn [fst snd] in *. destruct Pt as (PT & PO). destruct (tm_tens t) as [|y ts] eqn:Ets; [congruence|]. inversion PT as [|? ? Py PT']; subst.
  assert (Dg : all_of is_digit [d]) by (repeat constructor; exact Hd).
  destruct (first_tensor st y [d] R Py Dg) as (x & Gx & Ex & Gx0 & Mx). destruct (tensor_pieces st _ R PT') as (xs & Gxs & Lx & Exs & Mxs). destruct (op_pieces st _ R PO) as (os & Go & Lo & Eo & Fo & Mo).
  assert (Et : term_str st t = Ok (body (x :: xs) (tm_no t) os)).
  { unfold term_str. rewrite Ets. cbn [mapM]. rewrite Ex. cbn [bind]. rewrite Exs. cbn [bind]. rewrite Eo. cbn [bind]. unfold body, op_part. do 3 f_equal. destruct (tm_ops t), os; try discriminate; reflexivity. }
  unfold entry_str. cbn [fst snd]. rewrite Et. cbn [bind]. eexists. split; [reflexivity|].
  assert (Bn : (0 <? length (body (x :: xs) (tm_no t) os))%nat = true). { apply Nat.ltb_lt. destruct (body (x :: xs) (tm_no t) os) eqn:B; [apply body_nil in B; destruct B; discriminate|cbn; lia]. }
  rewrite Bn. unfold factor_text. cbn [negb]. rewrite Er. cbn [length Nat.ltb Nat.leb andb].
  split; [apply Forall_app; split; [constructor; [apply alnum_nl, digit_alnum, Hd|constructor]|apply body_nl; auto]|].
  intros sym. assert (Rt := rat_roundtrip c false Cc). rewrite Er in Rt.
  assert (Ic : in_int c) by (unfold in_int, max_int; rewrite Dn; lia). specialize (Rt Ic).
  assert (EF : factor_of ([d] ++ body (x :: xs) (tm_no t) os) = Ok [d]).
  { apply (factor_first (mkF [] [d] [] []) [] (body (x :: xs) (tm_no t) os)); [apply fgood_int; [apply sgood_nil|exact Dg]|]. right. split; [reflexivity|]. apply body_start; auto. }
  assert (EG := body_glue [d] x xs (tm_no t) os). set (x' := mkTT ([d] ++ tt_a x) (tt_u x) (tt_l x)) in *.
  assert (G0 : Forall tgood0 (x' :: xs)) by (constructor; [exact Gx0|apply tgoods_0; exact Gxs]).
  assert (ET : fa_T ([d] ++ body (x :: xs) (tm_no t) os) = map ttext (x' :: xs)).
  { rewrite EG. apply fa_T_join; auto. assert (K := part_nocaret (tm_no t) os Go). rewrite Forall_forall in K. intros H. exact (K _ H eq_refl). }
  assert (EO : fa_O ([d] ++ body (x :: xs) (tm_no t) os) = ocaps os) by (rewrite EG; unfold body; rewrite fa_O_join by auto; apply fa_O_part; auto).
  assert (EN : search_N ([d] ++ body (x :: xs) (tm_no t) os) = tm_no t && negb (length os =? 0)%nat && forallb (fun o => Ascii.eqb (o_b o) "a") os) by (rewrite EG; unfold body; rewrite search_N_join by auto; apply search_N_part; auto).
  unfold make_expression. change ([d] ++ body (x :: xs) (tm_no t) os) with (d :: body (x :: xs) (tm_no t) os) in *. cbv iota. rewrite ET, EO, EN, EF. cbn [map mapM]. rewrite Mx. cbn [bind]. rewrite Mxs. cbn [bind]. rewrite Mo. cbn [bind]. rewrite Rt. cbn [bind].
  rewrite madd_single by lia. do 3 f_equal. unfold reread, glue. rewrite Ets. cbn [tm_no tm_ops tm_tens map t_label t_lower t_upper]. rewrite Lo, Fo, Ed. reflexivity.
Qed.
Lemma text_neq_longer (a : text) d : text_eqb (d :: a) a = false.
Proof. destruct (text_eqb (d :: a) a) eqn:E; [|reflexivity]. apply text_eqb_ok in E. apply (f_equal (@length ascii)) in E. cbn in E. lia. Qed.
Theorem glued_differs st t c : reachable st -> printable_term st t -> canonical c -> glued (t, c) ->
  exists s e', expr_str st [(t, c)] = Ok s /\ string_to_expr st s = Ok e' /\ mequal term_eqb e' [(t, c)] = false.
Proof.
  intros R P C G. destruct (glued_misread st t c R P C G) as (s & Es & Ls & Ms). exists s. eexists. split; [unfold expr_str; rewrite Es; reflexivity|].
  split; [unfold string_to_expr; rewrite (lines_join s [] Ls ltac:(constructor)) || change s with (join [s] [newline]); rewrite ?(lines_join s [] Ls (Forall_nil _)); cbn [foldM]; rewrite Ms; cbn [bind]; reflexivity|].
  assert (N : num c <> 0) by (destruct G as (_ & ? & _); cbn in *; lia). unfold mplus. cbn [fold_left fst snd]. rewrite madd_single by auto.
  destruct (small_rat _ G) as (d & _ & Ed & _). cbn [snd] in Ed. destruct G as (_ & _ & Nt). cbn [fst] in Nt. unfold mequal. cbn [list_eqb fst snd].
  destruct (tm_tens t) as [|y ts] eqn:Ets; [congruence|]. unfold term_eqb, reread, glue. rewrite Ets. cbn [tm_no tm_ops tm_tens map list_eqb t_label]. rewrite Ed. unfold tensor_eqb at 1. cbn [t_label app]. rewrite text_neq_longer. reflexivity.
Qed.
