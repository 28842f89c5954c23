(** Printing an expression and parsing it back: entries, sums. *)
From Coq Require Import ZArith List Bool Ascii Lia Sorted.
From Verif Require Import Res RegistryModel RegistryProofs CoreModel RationalModel RationalSpec OrderProofs AlgebraModel AlgebraSpec AlgebraProofs DecModel TextModel TextSpec TextProofs TextProofs2 TextProofs3 TextProofs4 ExprTextModel ExprTextSpec ExprTextProofs ExprTextProofs2 ExprTextProofs3.
Import ListNotations.
Local Open Scope Z_scope.

Lemma dec_digits n : 0 <= n -> all_of is_digit (dec_text n) /\ dec_text n <> [].
Proof. intros H. destruct (dec_pos n H) as (A & B & C). auto. Qed.
Definition sgood (sg : text) : Prop := sg = [] \/ exists g, sg = [g] /\ is_sign g = true.
Lemma sgood_nil : sgood []. Proof. left. reflexivity. Qed.
Lemma sgood_plus : sgood ["+"%char]. Proof. right. exists "+"%char. auto. Qed.
Lemma sgood_minus : sgood ["-"%char]. Proof. right. exists "-"%char. auto. Qed.
Lemma fgood_int sg n : sgood sg -> all_of is_digit n -> fgood (mkF sg n [] []).
Proof. intros H1 H2. split; [exact H1|]. split; [exact H2|]. split; [constructor|]. left. auto. Qed.
Lemma fgood_frac sg n d : sgood sg -> all_of is_digit n -> all_of is_digit d -> fgood (mkF sg n ["/"%char] d).
Proof. intros H1 H2 H3. split; [exact H1|]. split; [exact H2|]. split; [exact H3|]. right. reflexivity. Qed.
Lemma digit1 : all_of is_digit ["1"%char]. Proof. repeat constructor. Qed.
Lemma rat_shape c sign : canonical c -> exists f, fgood f /\ rat_str c sign = ftext f.
Proof.
  intros (P & _). unfold rat_str. destruct (Z.eqb_spec (num c) 0) as [E|E].
  - exists (mkF [] ["0"%char] [] []). split; [|reflexivity]. apply fgood_int; [apply sgood_nil|repeat constructor].
  - assert (S : exists sg m, (sg = [] \/ exists g, sg = [g] /\ is_sign g = true) /\ all_of is_digit m /\ (if sign && (0 <? num c) then ["+"%char] else []) ++ dec_text (num c) = sg ++ m).
    { destruct (Z.ltb_spec 0 (num c)) as [L|L].
      - rewrite andb_true_r. destruct (dec_digits (num c)) as [D _]; [lia|]. destruct sign.
        + exists ["+"%char], (dec_text (num c)). split; [right; exists "+"%char; auto|]. auto.
        + exists [], (dec_text (num c)). auto.
      - rewrite andb_false_r, dec_neg by lia. destruct (dec_digits (- num c)) as [D _]; [lia|]. exists ["-"%char], (dec_text (- num c)). split; [right; exists "-"%char; auto|]. auto. }
    destruct S as (sg & m & Hsg & Hm & Es). destruct (Z.eqb_spec (den c) 1) as [D|D].
    + destruct (Z.eqb_spec (num c) (-1)) as [N|N].
      * rewrite N, andb_false_r. exists (mkF ["-"%char] [] [] []). split; [|reflexivity]. apply fgood_int; [apply sgood_minus|constructor].
      * destruct (Z.eqb_spec (num c) 1) as [O|O]; cbn [negb].
        -- rewrite app_nil_r. exists (mkF (if sign && (0 <? num c) then ["+"%char] else []) [] [] []). split; [|unfold ftext; cbn [f_sg f_n f_sl f_d app]; rewrite !app_nil_r; reflexivity].
           apply fgood_int; [|constructor]. destruct (sign && (0 <? num c)); [apply sgood_plus|apply sgood_nil].
        -- rewrite Es. exists (mkF sg m [] []). split; [|unfold ftext; cbn; rewrite !app_nil_r; reflexivity]. apply fgood_int; auto.
    + rewrite app_assoc, Es. destruct (dec_digits (den c)) as [Dd _]; [lia|]. exists (mkF sg m ["/"%char] (dec_text (den c))). split; [apply fgood_frac; auto|]. unfold ftext. cbn [f_sg f_n f_sl f_d]. rewrite <- app_assoc. reflexivity.
Qed.
Lemma dec_one n : 0 <= n -> (length (dec_text n) <= 1)%nat -> n <= 9.
Proof.
  intros H L. destruct (dec_pos n H) as (A & B & C). destruct (dec_text n) as [|c [|c' l]]; [congruence| |cbn in L; lia]. inversion B as [|? ? D _]; subst.
  cbn. unfold digit_val. unfold is_digit in D. apply andb_prop in D. destruct D as [_ D]. apply N.leb_le in D. lia.
Qed.
(** A short factor in front of a tensor is a sign or nothing. *)
Lemma rat_short c sign : canonical c -> num c <> 0 -> (length (rat_str c sign) <= 1)%nat -> (sign = true \/ ~ (den c = 1 /\ 2 <= num c <= 9)) ->
  (num c = 1 \/ num c = -1) /\ den c = 1.
Proof.
  intros (P & _) N L H. unfold rat_str in L. destruct (Z.eqb_spec (num c) 0); [congruence|]. destruct (Z.eqb_spec (den c) 1) as [D|D].
  - split; [|exact D]. destruct (Z.eqb_spec (num c) (-1)) as [E|E]; [auto|]. destruct (Z.eqb_spec (num c) 1) as [O|O]; [auto|]. exfalso. cbn [negb] in L. rewrite app_length in L.
    destruct (Z.ltb_spec 0 (num c)) as [Lt|Lt].
    + rewrite andb_true_r in L. destruct (dec_digits (num c)) as [_ Dn]; [lia|]. destruct sign; [destruct (dec_text (num c)); [congruence|cbn in L; lia]|]. destruct H as [H|H]; [discriminate|].
      cbn [length Nat.add] in L. apply dec_one in L; [|lia]. lia.
    + rewrite dec_neg in L by lia. destruct (dec_digits (- num c)) as [_ Dn]; [lia|]. destruct (dec_text (- num c)); [congruence|]. cbn [length] in L. lia.
  - exfalso. rewrite !app_length in L. destruct (dec_digits (den c)) as [_ Dd]; [lia|]. destruct (dec_text (den c)); [congruence|]. cbn [length] in L.
    assert (length (dec_text (num c)) <> 0)%nat; [|lia]. destruct (Z.ltb_spec (num c) 0); [rewrite dec_neg by lia; discriminate|]. destruct (dec_digits (num c)) as [_ Dn]; [lia|]. destruct (dec_text (num c)); [congruence|discriminate].
Qed.
Lemma rat_one c : canonical c -> num c = 1 -> den c = 1 -> c = mkR 1 1.
Proof. intros _ A B. destruct c; cbn in *; subst; reflexivity. Qed.

Lemma term_pieces st t : reachable st -> printable_term st t -> exists xs os, Forall tgood xs /\ Forall ogood os /\ length xs = length (tm_tens t) /\ length os = length (tm_ops t) /\
  term_str st t = Ok (body xs (tm_no t) os) /\ (forall sym, mapM (fun x => make_tensor st x sym) (map ttext xs) = Ok (map (retensor sym) (tm_tens t))) /\ make_ops st (ocaps os) = Ok (tm_ops t) /\
  forallb (fun o => Ascii.eqb (o_b o) "a") os = forallb (is_fermion st) (tm_ops t).
Proof.
  intros R (PT & PO). destruct (tensor_pieces st _ R PT) as (xs & Gx & Lx & Ex & Mx). destruct (op_pieces st _ R PO) as (os & Go & Lo & Eo & Fo & Mo).
  exists xs, os. repeat split; auto. unfold term_str. rewrite Ex. cbn [bind]. rewrite Eo. cbn [bind]. unfold body, op_part. do 3 f_equal. destruct (tm_ops t), os; try discriminate; reflexivity.
Qed.
Lemma madd_single t c : num c <> 0 -> madd term_ltb t c [] = [(t, c)].
Proof. intros H. unfold madd. destruct (rat_is0 c) eqn:E; [apply rat_is0_num in E; congruence|]. reflexivity. Qed.
Lemma reread_eq st sym t os : length os = length (tm_ops t) -> forallb (fun o => Ascii.eqb (o_b o) "a") os = forallb (is_fermion st) (tm_ops t) ->
  mkTerm (tm_no t && negb (length os =? 0)%nat && forallb (fun o => Ascii.eqb (o_b o) "a") os) (tm_ops t) (map (retensor sym) (tm_tens t)) = reread st sym t.
Proof. intros L F. unfold reread. rewrite L, F. reflexivity. Qed.

Definition no_newline (s : text) : Prop := Forall (fun c => Ascii.eqb c newline = false) s.
Lemma alnum_nl c : is_alnum c = true -> Ascii.eqb c newline = false.
Proof. intros H. destruct (Ascii.eqb_spec c newline); [subst; discriminate|reflexivity]. Qed.
Lemma idx_nl c : idx_char c = true -> Ascii.eqb c newline = false.
Proof. intros H. destruct (Ascii.eqb_spec c newline); [subst; discriminate|reflexivity]. Qed.
Lemma body_nl xs no os : Forall tgood xs -> Forall ogood os -> no_newline (body xs no os).
Proof.
  intros Gx Go. unfold body. induction Gx as [|x xs (_ & Ha & Hu & Hl) Gx IH]; cbn [map app].
  - apply part_chars; auto; try reflexivity; intros c H; (destruct (Ascii.eqb_spec c newline); [subst; discriminate|reflexivity]) || (split; reflexivity).
  - rewrite join_cons. apply Forall_app. split.
    + unfold ttext, tensor_text. rewrite !Forall_app. repeat split; try (repeat constructor); eapply Forall_impl; try eassumption; cbn; intros c H; auto using alnum_nl, idx_nl.
    + destruct (map ttext xs ++ op_part no os); [constructor|]. constructor; [reflexivity|exact IH].
Qed.
Lemma fchar_nl c : fchar c = true -> Ascii.eqb c newline = false.
Proof. intros H. destruct (Ascii.eqb_spec c newline); [subst; discriminate|reflexivity]. Qed.
Lemma ftext_nl f : fgood f -> no_newline (ftext f).
Proof. intros G. eapply Forall_impl; [|exact (ftext_chars f G)]. exact fchar_nl. Qed.

Lemma entry_parse st first t c : reachable st -> printable_term st t -> canonical c -> in_int c -> num c <> 0 -> (first = true -> ~ glued (t, c)) ->
  exists s, entry_str st first (t, c) = Ok s /\ no_newline s /\ forall sym, make_expression st s sym = Ok [(reread st sym t, c)].
Proof.
  intros R Pt Cc Ic Nc Hg. destruct (term_pieces st t R Pt) as (xs & os & Gx & Go & Lx & Lo & Et & Mt & Mo & Fo).
  unfold entry_str. cbn [fst snd]. rewrite Et. cbn [bind]. eexists. split; [reflexivity|].
  assert (K : forall f w sym, fgood f -> (w = [" "%char] /\ ftext f <> [] \/ w = [] /\ (xs = [] \/ f_n f = [] /\ f_sl f = [])) -> ftext f ++ w ++ body xs (tm_no t) os <> [] -> make_rational (ftext f) = Ok c ->
    make_expression st ((ftext f ++ w) ++ body xs (tm_no t) os) sym = Ok [(reread st sym t, c)]).
  { intros f w sym Gf Hw Hne Hr. rewrite <- app_assoc. rewrite (parse_text st sym f w xs (tm_no t) os _ _ c Gf Gx Go Hw Hne (Mt sym) Mo Hr). rewrite madd_single by auto. rewrite (reread_eq st sym t os) by auto. reflexivity. }
  destruct (rat_shape c (negb first) Cc) as (f & Gf & Ef). assert (Rt := rat_roundtrip c (negb first) Cc Ic). rewrite Ef in Rt.
  unfold factor_text. rewrite Ef. destruct (0 <? length (body xs (tm_no t) os))%nat eqn:B.
  - apply Nat.ltb_lt in B. assert (Bn : body xs (tm_no t) os <> []) by (destruct (body xs (tm_no t) os); [cbn in B; lia|discriminate]).
    assert (Ne : forall a, a ++ body xs (tm_no t) os <> []) by (intros a E; apply app_eq_nil in E; destruct E; auto).
    destruct ((1 <? length (ftext f))%nat && negb (text_eqb (ftext f) ["-"%char])) eqn:L.
    + apply andb_prop in L. destruct L as [L _]. apply Nat.ltb_lt in L. split; [apply Forall_app; split; [apply Forall_app; split; [apply ftext_nl; auto|repeat constructor]|apply body_nl; auto]|].
      intros sym. apply K; auto; [|rewrite app_assoc; apply Ne]. left. split; [reflexivity|]. destruct (ftext f); [cbn in L; lia|discriminate].
    + split; [apply Forall_app; split; [apply ftext_nl; auto|apply body_nl; auto]|]. intros sym. rewrite <- (app_nil_r (ftext f)). apply K; auto. right. split; [reflexivity|].
      destruct xs as [|x xs]; [auto|]. right. assert (Sh : (length (ftext f) <= 1)%nat).
      { apply andb_false_iff in L. destruct L as [L|L]; [apply Nat.ltb_ge in L; exact L|]. apply negb_false_iff, text_eqb_ok in L. rewrite L. cbn. lia. }
      rewrite <- Ef in Sh. apply rat_short in Sh; auto.
      * destruct Sh as ([N|N] & D); unfold rat_str in Ef; rewrite D, N in Ef; destruct first; cbn in Ef; (destruct Gf as (Hsg & Hn & Hd & Hsl));
          unfold ftext in Ef; (destruct (f_n f) as [|a n]; [split; [reflexivity|]; destruct Hsl as [(Hsl & _)|Hsl]; [exact Hsl|]; exfalso|exfalso; inversion Hn; subst]);
          try rewrite Hsl in Ef; destruct Hsg as [Hsg|(g & Hsg & _)]; rewrite Hsg in Ef; cbn [app] in Ef; try discriminate Ef; injection Ef as Ef; try discriminate; subst; discriminate.
      * destruct first; cbn [negb]; [right|left; reflexivity]. intros [D Nn]. apply (Hg eq_refl). split; [exact D|]. split; [exact Nn|]. cbn [fst]. intros E0. rewrite E0 in Lx. discriminate.
  - apply Nat.ltb_ge in B. assert (Bn : body xs (tm_no t) os = []) by (destruct (body xs (tm_no t) os); [reflexivity|cbn in B; lia]). destruct (body_nil _ _ _ Bn) as [-> ->].
    assert (H1 : forall g, fgood g -> ftext g <> [] -> make_rational (ftext g) = Ok c -> no_newline (ftext g ++ body [] (tm_no t) []) /\ forall sym, make_expression st (ftext g ++ body [] (tm_no t) []) sym = Ok [(reread st sym t, c)]).
    { intros g Gg Hn Hr. split; [apply Forall_app; split; [apply ftext_nl; auto|apply body_nl; auto]|]. intros sym. rewrite <- (app_nil_r (ftext g)). apply K; auto. intros E. apply app_eq_nil in E. destruct E; auto. }
    destruct (length (ftext f) =? 0)%nat eqn:L.
    + apply Nat.eqb_eq in L. assert (E0 : ftext f = []) by (destruct (ftext f); [reflexivity|discriminate]). rewrite E0 in Rt. cbn in Rt. injection Rt as <-.
      destruct first; cbn [text_eqb list_eqb].
      * apply (H1 (mkF [] ["1"%char] [] [])); [apply fgood_int; [apply sgood_nil|apply digit1]|discriminate|reflexivity].
      * apply (H1 (mkF ["+"%char] ["1"%char] [] [])); [apply fgood_int; [apply sgood_plus|apply digit1]|discriminate|reflexivity].
    + destruct (text_eqb (ftext f) ["-"%char]) eqn:E.
      * assert (E0 : ftext f = ["-"%char]). { apply text_eqb_ok, E. }
        rewrite E0 in Rt. cbn in Rt. injection Rt as <-. apply (H1 (mkF ["-"%char] ["1"%char] [] [])); [apply fgood_int; [apply sgood_minus|apply digit1]|discriminate|reflexivity].
      * apply H1; auto. destruct (ftext f); [discriminate L|discriminate].
Qed.
