(** Printing an expression and parsing it back. *)
From Coq Require Import ZArith List Bool Ascii Lia Sorted.
From Verif Require Import Res RegistryModel RegistryProofs CoreModel RationalModel RationalSpec AlgebraModel AlgebraSpec DecModel TextModel TextSpec TextProofs TextProofs2 TextProofs3 TextProofs4 ExprTextModel ExprTextSpec ExprTextProofs.
Import ListNotations.
Local Open Scope Z_scope.

(** ** The pieces of a printed term *)
Record ttxt := mkTT { tt_a : text; tt_u : text; tt_l : text }.
Definition ttext (x : ttxt) : text := tensor_text (tt_a x) (tt_u x) (tt_l x).
Definition tgood (x : ttxt) : Prop := (exists c l, tt_a x = c :: l /\ is_alpha c = true) /\ all_of is_alnum (tt_a x) /\ all_of idx_char (tt_u x) /\ all_of idx_char (tt_l x).
(** The same without the condition on the first character of the label. *)
Definition tgood0 (x : ttxt) : Prop := tt_a x <> [] /\ all_of is_alnum (tt_a x) /\ all_of idx_char (tt_u x) /\ all_of idx_char (tt_l x).
Lemma tgood_0 x : tgood x -> tgood0 x.
Proof. intros ((c & l & E & _) & H). split; [rewrite E; discriminate|exact H]. Qed.
Lemma tgoods_0 xs : Forall tgood xs -> Forall tgood0 xs.
Proof. apply Forall_impl, tgood_0. Qed.
Lemma alnum_idx c : is_alnum c = true -> idx_char c = true.
Proof. intros H. unfold idx_char, is_word. rewrite H. reflexivity. Qed.
Lemma alpha_alnum c : is_alpha c = true -> is_alnum c = true.
Proof. intros H. unfold is_alnum. rewrite H. reflexivity. Qed.
Lemma indices_idx st l s : Forall (printable_index st) l -> mapM (index_str st) l = Ok s -> all_of idx_char (join s [","%char]).
Proof.
  intros P E. apply mapM_Forall2 in E. assert (C : Forall (all_of idx_char) s).
  { induction E as [|i a l s Hi E IH]; [constructor|]. inversion P; subst. constructor; [|auto]. destruct (index_chars st i a) as [_ H]; auto. eapply Forall_impl; [|exact H]. apply alnum_idx. }
  clear - C. induction C as [|a s Ca C IH]; [constructor|]. destruct s as [|b s]; [exact Ca|].
  change (join (a :: b :: s) [","%char]) with (a ++ [","%char] ++ join (b :: s) [","%char]). apply Forall_app. split; [exact Ca|]. constructor; [reflexivity|exact IH].
Qed.
Definition retensor (sym : symmetry) (x : tensor) : tensor := mkT (t_label x) (t_lower x) (t_upper x) sym false.
Lemma tensor_piece st t : reachable st -> printable_tensor st t -> exists x, tgood x /\ tensor_str st t = Ok (ttext x) /\ forall sym, make_tensor st (ttext x) sym = Ok (retensor sym t).
Proof.
  intros R ((c & l & El & Hc & Hl) & PU & PL). assert (HA : all_of is_alnum (t_label t)) by (rewrite El; constructor; [apply alpha_alnum, Hc|exact Hl]).
  destruct (tensor_roundtrip st t R) as (s & Es & Ms); auto; [rewrite El; discriminate|].
  assert (E := Es). unfold tensor_str in E. destruct (mapM (index_str st) (t_upper t)) as [u| | |] eqn:Eu; try discriminate. destruct (mapM (index_str st) (t_lower t)) as [w| | |] eqn:Ew; try discriminate. cbn [bind] in E. injection E as E.
  exists (mkTT (t_label t) (join u [","%char]) (join w [","%char])). split.
  - split; [exists c, l; auto|]. split; [exact HA|]. split; [exact (indices_idx st _ _ PU Eu)|exact (indices_idx st _ _ PL Ew)].
  - match goal with |- context [ttext ?x] => change (ttext x) with (t_label t ++ ["^"; "{"]%char ++ join u [","%char] ++ ["}"; "_"; "{"]%char ++ join w [","%char] ++ ["}"%char]) end.
    cbn [app]. cbn [app] in E. rewrite E. split; [exact Es|exact Ms].
Qed.
Lemma tensor_pieces st ts : reachable st -> Forall (printable_tensor st) ts -> exists xs, Forall tgood xs /\ length xs = length ts /\ mapM (tensor_str st) ts = Ok (map ttext xs) /\ forall sym, mapM (fun x => make_tensor st x sym) (map ttext xs) = Ok (map (retensor sym) ts).
Proof.
  intros R P. induction P as [|t ts Ht P (xs & G & L & E & M)].
  - exists []. repeat split; constructor.
  - destruct (tensor_piece st t R Ht) as (x & Gx & Ex & Mx). exists (x :: xs). split; [constructor; auto|]. split; [cbn; lia|]. cbn [mapM map]. rewrite Ex. cbn [bind]. rewrite E. split; [reflexivity|].
    intros sym. rewrite Mx. cbn [bind]. rewrite M. reflexivity.
Qed.
Lemma op_piece_ok st q : reachable st -> printable_index st (s_idx q) -> exists o, ogood o /\ sqop_str st q = Ok (otext o) /\ Ascii.eqb (o_b o) "a" = is_fermion st q /\ text_eqb [o_g o] ["+"%char] = s_cre q /\ make_index st (o_i o) = Ok (s_idx q).
Proof.
  intros R P. destruct (index_roundtrip st _ R P) as (s & Es & Ms). destruct (index_chars st _ s P Es) as [Hn Hs].
  assert (Hl := P). destruct Hl as (_ & l & Hl & _).
  exists (mkO (match field_of st (s_space q) with Fermion => "a"%char | Boson => "b"%char end) (if s_cre q then "+"%char else "-"%char) s). repeat split.
  - cbn [o_b]. destruct (field_of st (s_space q)); reflexivity.
  - cbn [o_g]. destruct (s_cre q); reflexivity.
  - cbn [o_i]. eapply Forall_impl; [|exact Hs]. intros c Hc. unfold word_char, is_word. rewrite Hc. reflexivity.
  - exact Hn.
  - unfold sqop_str, op_symbol. fold (s_space q) in Hl. rewrite Hl. cbn [bind]. rewrite Es. cbn [bind]. unfold otext, op_text. cbn [o_b o_g o_i]. f_equal. unfold s_space. destruct (field_of st (isp (s_idx q))); reflexivity.
  - cbn [o_b]. unfold is_fermion, s_space. destruct (field_of st (isp (s_idx q))); reflexivity.
  - cbn [o_g]. destruct (s_cre q); reflexivity.
  - exact Ms.
Qed.
Definition ocaps (os : list optxt) : list text := concat (map (fun o => [[o_g o]; o_i o]) os).
Lemma op_pieces st qs : reachable st -> Forall (fun q => printable_index st (s_idx q)) qs -> exists os, Forall ogood os /\ length os = length qs /\ mapM (sqop_str st) qs = Ok (map otext os) /\
  forallb (fun o => Ascii.eqb (o_b o) "a") os = forallb (is_fermion st) qs /\ make_ops st (ocaps os) = Ok qs.
Proof.
  intros R P. induction P as [|q qs Hq P (os & G & L & E & F & M)].
  - exists []. repeat split; constructor.
  - destruct (op_piece_ok st q R Hq) as (o & Go & Eo & Fo & So & Mo). exists (o :: os). split; [constructor; auto|]. split; [cbn; lia|]. cbn [mapM map forallb]. rewrite Eo. cbn [bind]. rewrite E. split; [reflexivity|]. split; [rewrite Fo, F; reflexivity|].
    unfold ocaps. cbn [map concat app make_ops]. rewrite Mo. cbn [bind]. fold (ocaps os). rewrite M. cbn [bind]. rewrite So. destruct q; reflexivity.
Qed.

(** ** Scanning the text of a term *)
Lemma join_cons x l : join (x :: l) [" "%char] = x ++ match l with [] => [] | _ => " "%char :: join l [" "%char] end.
Proof. destruct l; cbn [join]; [rewrite app_nil_r; reflexivity|reflexivity]. Qed.
Lemma fa_T_join xs P : Forall tgood0 xs -> ~ In "^"%char (join P [" "%char]) -> fa_T (join (map ttext xs ++ P) [" "%char]) = map ttext xs.
Proof.
  intros G HP. induction G as [|x xs (El & Ha & Hu & Hl) G IH]; [apply fa_T_none, HP|]. cbn [map app]. rewrite join_cons. unfold ttext at 1.
  rewrite fa_T_tensor; auto. fold (ttext x). f_equal. destruct (map ttext xs ++ P) as [|y r] eqn:E.
  - apply app_eq_nil in E. destruct E as [E _]. rewrite E. apply findall_nil, tensors_consuming.
  - etransitivity; [|exact IH]. apply (fa_T_run " " _ eq_refl ltac:(discriminate) []). constructor.
Qed.
Lemma idx_nosign c : idx_char c = true -> is_sign c = false.
Proof. intros H. destruct (is_sign c) eqn:E; [|reflexivity]. destruct (is_sign_cases _ E); subst; discriminate. Qed.
Lemma fa_O_tensor x s : tgood0 x -> fa_O (ttext x ++ s) = fa_O s.
Proof.
  intros (_ & Ha & Hu & Hl). unfold ttext, tensor_text. rewrite !app_assoc. rewrite <- app_assoc. cbn [app]. rewrite <- !app_assoc.
  transitivity (fa_O ((tt_a x ++ ["^"; "{"]%char ++ tt_u x ++ ["}"; "_"; "{"]%char ++ tt_l x) ++ "}"%char :: s)); [rewrite <- !app_assoc; reflexivity|].
  apply fa_O_nosign; try reflexivity. rewrite !Forall_app. repeat split; try (repeat constructor); eapply Forall_impl; try eassumption; cbn; intros c Hc; apply idx_nosign; auto. apply alnum_idx; auto.
Qed.
Lemma fa_O_join xs P : Forall tgood0 xs -> fa_O (join (map ttext xs ++ P) [" "%char]) = fa_O (join P [" "%char]).
Proof.
  intros G. induction G as [|x xs Gx G IH]; [reflexivity|]. cbn [map app]. rewrite join_cons, fa_O_tensor by auto. destruct (map ttext xs ++ P) as [|y r] eqn:E.
  - apply app_eq_nil in E. destruct E as [_ ->]. reflexivity.
  - rewrite <- IH. apply (fa_O_noab [" "%char]). repeat constructor.
Qed.
Lemma search_N_join xs P : Forall tgood0 xs -> search_N (join (map ttext xs ++ P) [" "%char]) = search_N (join P [" "%char]).
Proof.
  intros G. induction G as [|x xs Gx G IH]; [reflexivity|]. cbn [map app]. rewrite join_cons. unfold ttext at 1. destruct Gx as (_ & Ha & Hu & Hl). rewrite search_N_tensor by auto. destruct (map ttext xs ++ P) as [|y r] eqn:E.
  - apply app_eq_nil in E. destruct E as [_ ->]. reflexivity.
  - rewrite <- IH. apply (search_N_nobrace [" "%char]). repeat constructor. discriminate.
Qed.
(** The operator part. *)
Definition op_part (no : bool) (os : list optxt) : list text :=
  match os with [] => [] | _ => (if no then [["{"%char]] else []) ++ map otext os ++ (if no then [["}"%char]] else []) end.
Lemma join_spaced x os (tl : list text) : join ((x :: map otext os) ++ tl) [" "%char] = x ++ ospaced os ++ match tl with [] => [] | _ => " "%char :: join tl [" "%char] end.
Proof.
  revert x. induction os as [|o os IH]; intros x.
  - cbn [map app]. rewrite join_cons. reflexivity.
  - change ((x :: map otext (o :: os)) ++ tl) with (x :: (otext o :: map otext os) ++ tl). rewrite join_cons. f_equal. cbn [app]. change (otext o :: map otext os ++ tl) with ((otext o :: map otext os) ++ tl).
    rewrite IH. unfold ospaced. cbn [map concat]. rewrite <- app_assoc. reflexivity.
Qed.
Lemma op_part_text no o os : join (op_part no (o :: os)) [" "%char] = if no then "{"%char :: ospaced (o :: os) ++ [" "; "}"]%char else otext o ++ ospaced os.
Proof.
  unfold op_part. destruct no.
  - change ([["{"%char]] ++ map otext (o :: os) ++ [["}"%char]]) with (([["{"%char]] ++ map otext (o :: os)) ++ [["}"%char]]). cbn [app].
    apply (join_spaced ["{"%char] (o :: os) [["}"%char]]).
  - cbn [app]. rewrite app_nil_r. cbn [map]. rewrite <- (app_nil_r (otext o :: map otext os)). rewrite join_spaced, app_nil_r. reflexivity.
Qed.
Lemma fa_O_spaced os s : Forall ogood os -> fa_O (ospaced os ++ s) = ocaps os ++ fa_O s.
Proof.
  intros G. induction G as [|o os (Hb & Hg & Hi & _) G IH]; [reflexivity|]. unfold ospaced. cbn [map concat]. fold (ospaced os). rewrite <- app_assoc.
  etransitivity; [apply (fa_O_noab [" "%char]); repeat constructor|]. unfold otext. rewrite fa_O_op by auto. rewrite IH. reflexivity.
Qed.
Lemma fa_O_part no os : Forall ogood os -> fa_O (join (op_part no os) [" "%char]) = ocaps os.
Proof.
  intros G. destruct os as [|o os]; [apply findall_nil, operators_consuming|]. rewrite op_part_text. destruct no.
  - etransitivity; [apply (fa_O_noab ["{"%char]); repeat constructor|]. rewrite fa_O_spaced by auto. rewrite <- (app_nil_r (ocaps (o :: os))) at 2. f_equal.
  - inversion G as [|? ? Ho G']; subst. destruct Ho as (Hb & Hg & Hi & _). unfold otext at 1. rewrite fa_O_op by auto. rewrite <- (app_nil_r (ospaced os)), fa_O_spaced by auto. rewrite findall_nil by apply operators_consuming. rewrite app_nil_r. reflexivity.
Qed.
Lemma otext_chars o (P : ascii -> Prop) : ogood o -> (forall c, is_ab c = true -> P c) -> (forall c, is_sign c = true -> P c) -> (forall c, word_char c = true -> P c) -> P "("%char -> P ")"%char -> Forall P (otext o).
Proof.
  intros (Hb & Hg & Hi & _) H1 H2 H3 H4 H5. unfold otext, op_text. constructor; auto. constructor; auto. constructor; auto. apply Forall_app. split; [|auto].
  eapply Forall_impl; [|exact Hi]. cbn. auto.
Qed.
Lemma ospaced_chars os (P : ascii -> Prop) : Forall ogood os -> (forall c, is_ab c = true -> P c) -> (forall c, is_sign c = true -> P c) -> (forall c, word_char c = true -> P c) -> P "("%char -> P ")"%char -> P " "%char -> Forall P (ospaced os).
Proof. intros G H1 H2 H3 H4 H5 H6. unfold ospaced. apply Forall_concat, Forall_map. eapply Forall_impl; [|exact G]. intros o Ho. constructor; auto. apply otext_chars; auto. Qed.
Lemma part_chars no os (P : ascii -> Prop) : Forall ogood os -> (forall c, is_ab c = true -> P c) -> (forall c, is_sign c = true -> P c) -> (forall c, word_char c = true -> P c) -> P "("%char -> P ")"%char -> P " "%char ->
  (no = true -> P "{"%char /\ P "}"%char) -> Forall P (join (op_part no os) [" "%char]).
Proof.
  intros G H1 H2 H3 H4 H5 H6 H7. destruct os as [|o os]; [constructor|]. rewrite op_part_text. destruct no.
  - destruct (H7 eq_refl). constructor; auto. apply Forall_app. split; [apply ospaced_chars; auto|auto].
  - inversion G; subst. apply Forall_app. split; [apply otext_chars; auto|apply ospaced_chars; auto].
Qed.
Lemma part_nocaret no os : Forall ogood os -> Forall (fun c => c <> "^"%char) (join (op_part no os) [" "%char]).
Proof. intros G. apply part_chars; auto; try discriminate; intros; try (intros ->; discriminate). split; discriminate. Qed.
Lemma search_N_part no os : Forall ogood os -> search_N (join (op_part no os) [" "%char]) = no && negb (length os =? 0)%nat && forallb (fun o => Ascii.eqb (o_b o) "a") os.
Proof.
  intros G. destruct no; cbn [andb].
  - destruct os as [|o os]; [reflexivity|]. rewrite op_part_text. apply search_N_braces; auto.
  - rewrite <- (app_nil_r (join _ _)), search_N_nobrace; [reflexivity|]. apply part_chars; auto; try discriminate; intros; intros ->; discriminate.
Qed.
