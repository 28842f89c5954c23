(** Printing an expression and parsing it back: sums of entries, Term::str, and the glued factor. *)
From Coq Require Import ZArith QArith List Bool Ascii Lia Sorted.
From Verif Require Import Res RegistryModel RegistryProofs CoreModel RationalModel RationalSpec OrderProofs AlgebraModel AlgebraSpec AlgebraProofs DecModel TextModel TextSpec TextProofs TextProofs2 TextProofs3 TextProofs4 ExprTextModel ExprTextSpec ExprTextProofs ExprTextProofs2 ExprTextProofs3 ExprTextProofs4.
Import ListNotations.
Local Open Scope Z_scope.

(** ** Lines *)
Lemma lines_pre s : no_newline s -> forall rest cur, lines_from (s ++ rest) cur = lines_from rest (rev s ++ cur).
Proof. induction 1 as [|c s Hc H IH]; intros rest cur; [reflexivity|]. cbn [app lines_from]. rewrite Hc, IH. cbn [rev]. rewrite <- app_assoc. reflexivity. Qed.
Lemma lines_join s l : no_newline s -> Forall no_newline l -> lines (join (s :: l) [newline]) = s :: l.
Proof.
  intros Hs Hl. revert s Hs. induction Hl as [|b l Hb Hl IH]; intros s Hs; unfold lines.
  - cbn [join]. rewrite <- (app_nil_r s) at 1. rewrite lines_pre by auto. cbn [lines_from]. rewrite app_nil_r, rev_involutive. reflexivity.
  - change (join (s :: b :: l) [newline]) with (s ++ [newline] ++ join (b :: l) [newline]). rewrite lines_pre by auto. cbn [app lines_from]. rewrite Ascii.eqb_refl, app_nil_r, rev_involutive. f_equal. apply IH, Hb.
Qed.

(** ** Sums *)
Lemma madd_last t c e : num c <> 0 -> Forall (fun x => term_ltb (fst x) t = true) e -> madd term_ltb t c e = e ++ [(t, c)].
Proof.
  intros N H. assert (F : mfind term_ltb t e = None). { induction H as [|[k d] e Hk H IH]; [reflexivity|]. cbn in *. rewrite Hk. exact IH. }
  unfold madd. destruct (rat_is0 c) eqn:E; [apply rat_is0_num in E; congruence|]. rewrite F. clear F. induction H as [|[k d] e Hk H IH]; [reflexivity|]. cbn in *. rewrite Hk, IH. reflexivity.
Qed.
Lemma lexb_map {A} (lt : A -> A -> bool) (f : A -> A) : (forall a b, lt (f a) (f b) = lt a b) -> forall l m, lexb lt (map f l) (map f m) = lexb lt l m.
Proof. intros H. induction l as [|a l IH]; intros [|b m]; try reflexivity. cbn. rewrite !H, IH. reflexivity. Qed.
Lemma reread_ltb st sym a b : term_ltb (reread st sym a) (reread st sym b) = term_ltb a b.
Proof. unfold term_ltb, reread. cbn [tm_ops tm_tens]. rewrite !lexb_map; [reflexivity| |]; intros x y; reflexivity. Qed.
Definition rr (st : osi) (x : term * rational) : term * rational := (reread st Antisymmetric (fst x), snd x).
Lemma sum_lines st : forall e acc ls, Forall2 (fun x s => make_expression st s Antisymmetric = Ok [rr st x]) e ls -> Forall (fun x => num (snd x) <> 0) e ->
  StronglySorted (fun x y => term_ltb (fst x) (fst y) = true) (acc ++ e) ->
  foldM (fun e line => x <- make_expression st line Antisymmetric ;; Ok (mplus term_ltb e x))%res (map (rr st) acc) ls = Ok (map (rr st) (acc ++ e)).
Proof.
  induction e as [|x e IH]; intros acc ls H N S; inversion H as [|? s ? ls' Hx H']; subst.
  - rewrite app_nil_r. reflexivity.
  - cbn [foldM]. rewrite Hx. cbn [bind]. inversion N; subst. unfold mplus. cbn [fold_left fst snd rr]. rewrite madd_last; auto.
    + change (map (rr st) acc ++ [(reread st Antisymmetric (fst x), snd x)]) with (map (rr st) acc ++ map (rr st) [x]). rewrite <- map_app.
      assert (Q := IH (acc ++ [x]) ls'). rewrite <- app_assoc in Q. apply Q; auto.
    + apply Forall_map. cbn. apply Forall_forall. intros y Hy. rewrite reread_ltb. clear - S Hy. induction acc as [|z acc IH]; [destruct Hy|]. cbn [app] in S. inversion S as [|? ? S' F]; subst. destruct Hy as [->|Hy]; [|auto].
      rewrite Forall_forall in F. apply F. apply in_or_app. right. left. reflexivity.
Qed.
Lemma nz_num (c : rational) : canonical c -> ~ (Qval c == 0)%Q -> num c <> 0.
Proof. intros C H E. apply H. apply Qval0_num; auto using canonical_den. Qed.
Theorem expr_roundtrip st e : reachable st -> wf term_ltb e -> Forall (fun x => printable_term st (fst x) /\ in_int (snd x)) e -> (forall x e', e = x :: e' -> ~ glued x) ->
  exists s, expr_str st e = Ok s /\ string_to_expr st s = Ok (map (fun x => (reread st Antisymmetric (fst x), snd x)) e).
Proof.
  intros R (S & C & N) P G. destruct e as [|[t c] e]; [exists []; split; reflexivity|]. inversion C as [|? ? C1 C']; subst. inversion N as [|? ? N1 N']; subst. inversion P as [|? ? [P1 I1] P']; subst. cbn [fst snd] in *.
  destruct (entry_parse st true t c R P1 C1 I1) as (s & Es & Ls & Ms); [apply nz_num; auto|intros _; eapply G; reflexivity|].
  assert (X : exists l, mapM (entry_str st false) e = Ok l /\ Forall no_newline l /\ Forall2 (fun x s => make_expression st s Antisymmetric = Ok [rr st x]) e l).
  { clear - R C' N' P'. induction e as [|[t c] e IH]; [exists []; repeat split; constructor|]. inversion C' as [|? ? C1 C]; subst. inversion N' as [|? ? N1 N]; subst. inversion P' as [|? ? [P1 I1] P]; subst. cbn [fst snd] in *.
    destruct (entry_parse st false t c R P1 C1 I1) as (s & Es & Ls & Ms); [apply nz_num; auto|discriminate|]. destruct IH as (l & El & Ll & Ml); auto. exists (s :: l). cbn [mapM]. rewrite Es. cbn [bind]. rewrite El. split; [reflexivity|]. split; constructor; auto. apply Ms. }
  destruct X as (l & El & Ll & Ml). exists (join (s :: l) [newline]). unfold expr_str. rewrite Es. cbn [bind]. rewrite El. split; [reflexivity|]. unfold string_to_expr. rewrite lines_join by auto.
  apply (sum_lines st ((t, c) :: e) [] (s :: l)); auto.
  - constructor; auto. apply Ms.
  - clear - C N. apply Forall_forall. intros x Hx. unfold mcanon, mnz in *. rewrite Forall_forall in C, N. apply nz_num; [apply C|apply N]; exact Hx.
Qed.
Lemma list_eqb_refl {A} (eqb : A -> A -> bool) l : (forall a, eqb a a = true) -> list_eqb eqb l l = true.
Proof. intros H. induction l as [|a l IH]; [reflexivity|]. cbn. rewrite H, IH. reflexivity. Qed.
Lemma index_refl i : index_eqb i i = true.
Proof. unfold index_eqb. rewrite !Z.eqb_refl. reflexivity. Qed.
Lemma reread_eqb st sym t : term_eqb (reread st sym t) t = true.
Proof.
  unfold term_eqb, reread. cbn [tm_ops tm_tens]. apply andb_true_intro. split.
  - induction (tm_tens t) as [|x l IH]; [reflexivity|]. cbn. rewrite IH. unfold tensor_eqb. cbn. rewrite text_eqb_refl, !list_eqb_refl by apply index_refl. reflexivity.
  - apply list_eqb_refl. intros q. unfold sqop_eqb. rewrite eqb_reflx, index_refl. reflexivity.
Qed.
Theorem expr_roundtrip_equal st e : reachable st -> wf term_ltb e -> Forall (fun x => printable_term st (fst x) /\ in_int (snd x)) e -> (forall x e', e = x :: e' -> ~ glued x) ->
  exists s e', expr_str st e = Ok s /\ string_to_expr st s = Ok e' /\ mequal term_eqb e' e = true.
Proof.
  intros R W P G. destruct (expr_roundtrip st e R W P G) as (s & Es & Ms). exists s. eexists. split; [exact Es|]. split; [exact Ms|]. clear. unfold mequal. induction e as [|x e IH]; [reflexivity|]. cbn. rewrite reread_eqb, IH. unfold rat_eqb. rewrite !Z.eqb_refl. destruct (num (snd x) =? 0); reflexivity.
Qed.

(** ** Term::str *)
Theorem Term_roundtrip st t c : reachable st -> printable_term st t -> canonical c -> in_int c -> num c <> 0 ->
  exists s, Term_str st c t = Ok s /\ forall sym, make_expression st s sym = Ok [(reread st sym t, c)].
Proof.
  intros R Pt Cc Ic Nc. destruct (term_pieces st t R Pt) as (xs & os & Gx & Go & Lx & Lo & Et & Mt & Mo & Fo).
  unfold Term_str. rewrite Et. cbn [bind]. eexists. split; [reflexivity|].
  assert (K : forall f w sym, fgood f -> (w = [" "%char] /\ ftext f <> [] \/ w = [] /\ (xs = [] \/ f_n f = [] /\ f_sl f = [])) -> ftext f ++ w ++ body xs (tm_no t) os <> [] -> make_rational (ftext f) = Ok c ->
    make_expression st (ftext f ++ w ++ body xs (tm_no t) os) sym = Ok [(reread st sym t, c)]).
  { intros f w sym Gf Hw Hne Hr. rewrite (parse_text st sym f w xs (tm_no t) os _ _ c Gf Gx Go Hw Hne (Mt sym) Mo Hr). rewrite madd_single by auto. rewrite (reread_eq st sym t os) by auto. reflexivity. }
  destruct (rat_shape c false Cc) as (f & Gf & Ef). assert (Rt := rat_roundtrip c false Cc Ic). rewrite Ef in *.
  destruct (body xs (tm_no t) os) as [|b0 b] eqn:B.
  - destruct (body_nil _ _ _ B) as [-> ->]. destruct (ftext f) as [|f0 fl] eqn:F.
    + intros sym. cbn in Rt. injection Rt as <-. apply (K (mkF [] ["1"%char] [] []) [] sym); auto; [apply fgood_int; [apply sgood_nil|apply digit1]|discriminate].
    + intros sym. specialize (K f [] sym Gf). rewrite F in K. rewrite <- (app_nil_r (f0 :: fl)). apply K; auto. discriminate.
  - destruct (ftext f) as [|f0 fl] eqn:F; intros sym.
    + cbn in Rt. injection Rt as <-. apply (K (mkF [] [] [] []) [] sym); auto; [apply fgood_int; [apply sgood_nil|constructor]|discriminate].
    + specialize (K f [" "%char] sym Gf). rewrite F in K. apply K; auto; [left; split; [reflexivity|discriminate]|discriminate].
Qed.
