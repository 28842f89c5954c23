(** Proofs for C64: the text of an equation. *)
From Coq Require Import String ZArith List Bool Ascii Lia.
From Verif Require Import Res RegistryModel RegistryProofs CoreModel OrderProofs RationalModel RationalSpec RationalProofs AlgebraModel DecModel TextModel TextSpec TextProofs TextProofs2 TextProofs3 TextProofs4 ExprTextModel ExprTextSpec ExprTextProofs ExprTextProofs2 ExprTextProofs3 ExprTextProofs4 ExprTextProofs5 EquationModel EquationSpec EqTextModel EqTextSpec.
Import ListNotations.
Local Open Scope Z_scope.

(** Two texts that agree, each with a head in [p] and a tail that does not start in [p]. *)
Lemma cutS (p : ascii -> bool) a b r s : all_of p a -> all_of p b -> stops p r -> stops p s -> a ++ r = b ++ s -> a = b /\ r = s.
Proof.
  intros Ha. revert b. induction Ha as [|c a Hc Ha IH]; intros b Hb Hr Hs E.
  - destruct b as [|d b]; [auto|]. cbn [app] in E. subst r. inversion Hb; subst. cbn [stops] in Hr. congruence.
  - destruct b as [|d b]; cbn [app] in E; [subst s; cbn [stops] in Hs; congruence|]. injection E as -> E. inversion Hb; subst. destruct (IH b) as [-> ->]; auto.
Qed.

(** ** Equation::str *)
Definition no_eq (c : ascii) : bool := negb (Ascii.eqb c "=").
Lemma body_no_eq xs no os : Forall tgood xs -> Forall ogood os -> all_of no_eq (body xs no os).
Proof.
  intros Gx Go. unfold body. assert (X : forall p, (forall c, p c = true -> c <> "="%char) -> forall c, p c = true -> no_eq c = true).
  { intros p H c Hc. unfold no_eq. destruct (Ascii.eqb_spec c "="); [exfalso; eapply H; eauto|reflexivity]. }
  induction Gx as [|x xs (_ & Ha & Hu & Hl) Gx IH]; cbn [map app].
  - apply part_chars; auto; try reflexivity; intros c H; unfold no_eq; (destruct (Ascii.eqb_spec c "="); [subst; discriminate|reflexivity]) || (split; reflexivity).
  - rewrite join_cons. apply Forall_app. split.
    + unfold ttext, tensor_text. rewrite !Forall_app. repeat split; try (repeat constructor); eapply Forall_impl; try eassumption; cbn; intros c H; unfold no_eq; (destruct (Ascii.eqb_spec c "="); [subst; discriminate|reflexivity]).
    + destruct (map ttext xs ++ op_part no os); [constructor|]. constructor; [reflexivity|exact IH].
Qed.
Lemma term_str_ok st t : reachable st -> printable_term st t -> exists s, term_str st t = Ok s /\ all_of no_eq s.
Proof. intros R P. destruct (term_pieces st t R P) as (xs & os & Gx & Go & _ & _ & E & _). exists (body xs (tm_no t) os). split; [exact E|]. apply body_no_eq; auto. Qed.
Lemma one_text s : match s, rat_str (mkR 1 1) false with [], [] => ["1"%char] | [], cs => cs | _ :: _, [] => s | _ :: _, cs => cs ++ [" "%char] ++ s end = match s with [] => ["1"%char] | _ => s end.
Proof. destruct s; reflexivity. Qed.
Lemma term_str_inj st a b s : reachable st -> printable_term st a -> printable_term st b -> term_str st a = Ok s -> term_str st b = Ok s ->
  tm_ops a = tm_ops b /\ map (fun x => (t_label x, t_lower x, t_upper x)) (tm_tens a) = map (fun x => (t_label x, t_lower x, t_upper x)) (tm_tens b).
Proof.
  intros R Pa Pb Ea Eb. assert (C1 : canonical (mkR 1 1)) by (split; [cbn; lia|reflexivity]). assert (I1 : in_int (mkR 1 1)) by (unfold in_int, max_int; cbn; lia).
  destruct (Term_roundtrip st a (mkR 1 1) R Pa C1 I1) as (x & Ex & Mx); [discriminate|]. destruct (Term_roundtrip st b (mkR 1 1) R Pb C1 I1) as (y & Ey & My); [discriminate|].
  unfold Term_str in Ex, Ey. rewrite Ea in Ex. rewrite Eb in Ey. rewrite Ex in Ey. injection Ey as <-. assert (Q := Mx Antisymmetric). rewrite My in Q. injection Q as _ Eo Et. split; [auto|].
  assert (X : forall l, map (fun x => (t_label x, t_lower x, t_upper x)) l = map (fun x => (t_label x, t_lower x, t_upper x)) (map (fun x => mkT (t_label x) (t_lower x) (t_upper x) Antisymmetric false) l)) by (intros l; rewrite map_map; reflexivity).
  rewrite (X (tm_tens a)), (X (tm_tens b)), Et. reflexivity.
Qed.
Lemma shown_eqb a b : tm_ops a = tm_ops b -> map (fun x => (t_label x, t_lower x, t_upper x)) (tm_tens a) = map (fun x => (t_label x, t_lower x, t_upper x)) (tm_tens b) -> term_eqb a b = true.
Proof.
  intros Eo Et. unfold term_eqb. rewrite Eo. rewrite (list_eqb_refl sqop_eqb) by (intros q; unfold sqop_eqb; rewrite eqb_reflx, index_refl; reflexivity). rewrite andb_true_r.
  revert Et. generalize (tm_tens b). generalize (tm_tens a). induction l as [|x l IH]; intros [|y l'] E; try discriminate; [reflexivity|]. cbn [map] in E. injection E as E1 E2 E3 E4. cbn [list_eqb].
  rewrite (IH l' E4), andb_true_r. unfold tensor_eqb. rewrite E1, E2, E3, text_eqb_refl, !list_eqb_refl by apply index_refl. reflexivity.
Qed.
Definition no_blank (c : ascii) : bool := negb (Ascii.eqb c " ").
Lemma dec_no_blank n : all_of no_blank (dec_text n).
Proof.
  assert (P : forall m, 0 <= m -> all_of no_blank (dec_text m)).
  { intros m Hm. destruct (dec_pos m Hm) as (_ & D & _). eapply Forall_impl; [|exact D]. cbn beta. intros c Hc. unfold no_blank. destruct (Ascii.eqb_spec c " "); [subst; discriminate|reflexivity]. }
  destruct (Z.neg_nonneg_cases n) as [Hn|Hn]; [|apply P, Hn]. rewrite dec_neg by exact Hn. constructor; [reflexivity|apply P; lia].
Qed.
Lemma rat_str_no_blank r b : all_of no_blank (rat_str r b).
Proof.
  unfold rat_str. destruct (num r =? 0); [repeat constructor|]. apply Forall_app. split; [destruct (b && (0 <? num r)); repeat constructor|].
  destruct (den r =? 1); [|rewrite !Forall_app; repeat split; try apply dec_no_blank; repeat constructor]. destruct (num r =? -1); [repeat constructor|]. destruct (negb (num r =? 1)); [apply dec_no_blank|constructor].
Qed.
Lemma rat_eqb_refl r : rat_eqb r r = true.
Proof. unfold rat_eqb. rewrite !Z.eqb_refl. destruct (_ && _); reflexivity. Qed.
Lemma eq_str_inj st a b s : reachable st -> printable_term st (eq_lhs a) -> printable_term st (eq_rhs a) -> printable_term st (eq_lhs b) -> printable_term st (eq_rhs b) ->
  canonical (eq_factor a) -> canonical (eq_factor b) -> in_int (eq_factor a) -> in_int (eq_factor b) -> eq_str st a = Ok s -> eq_str st b = Ok s -> eq_eqb a b = true.
Proof.
  intros R P1 P2 P3 P4 Ca Cb Ia Ib Ea Eb. unfold eq_str in *.
  destruct (term_str_ok st _ R P1) as (l1 & L1 & N1). destruct (term_str_ok st _ R P2) as (r1 & R1 & _). destruct (term_str_ok st _ R P3) as (l2 & L2 & N2). destruct (term_str_ok st _ R P4) as (r2 & R2 & _).
  rewrite L1, R1 in Ea. rewrite L2, R2 in Eb. cbn [bind] in Ea, Eb. rewrite <- Eb in Ea. injection Ea as E. clear Eb. cbn [join] in E.
  change (str "+=") with ("+"%char :: "="%char :: []) in E. change (str " ") with [" "%char] in E.
  assert (E' : (l1 ++ [" "; "+"]%char) ++ ("="%char :: " "%char :: rat_str (eq_factor a) false ++ [" "%char] ++ r1) = (l2 ++ [" "; "+"]%char) ++ ("="%char :: " "%char :: rat_str (eq_factor b) false ++ [" "%char] ++ r2)).
  { rewrite <- !app_assoc. exact E. }
  apply (cutS no_eq) in E'; try reflexivity; try (apply Forall_app; split; [assumption|repeat constructor]). destruct E' as [El Er]. apply app_inv_tail in El. subst l2.
  injection Er as Er. apply (cutS no_blank) in Er; try reflexivity; try apply rat_str_no_blank. destruct Er as [Ef Er]. injection Er as ->.
  apply rat_str_inj in Ef; auto. unfold eq_eqb. rewrite Ef, rat_eqb_refl, andb_true_r.
  destruct (term_str_inj st _ _ l1 R P1 P3 L1 L2) as (A1 & A2). destruct (term_str_inj st _ _ r2 R P2 P4 R1 R2) as (B1 & B2). rewrite (shown_eqb _ _ A1 A2), (shown_eqb _ _ B1 B2). reflexivity.
Qed.
Lemma eq_str_ok st e : reachable st -> printable_term st (eq_lhs e) -> printable_term st (eq_rhs e) -> exists s, eq_str st e = Ok s.
Proof. intros R P1 P2. unfold eq_str. destruct (term_str_ok st _ R P1) as (l1 & L1 & N1). destruct (term_str_ok st _ R P2) as (r1 & R1 & _). rewrite L1, R1. cbn [bind]. eauto. Qed.

(** ** Ambit statements *)
Definition ref_char (c : ascii) : bool := negb (Ascii.eqb c " ") && negb (Ascii.eqb c ";").
Lemma plain_ref_char c : plain_char c = true -> ref_char c = true.
Proof.
  unfold plain_char, ref_char. cbn [str list_ascii_of_string existsb]. intros H. destruct (Ascii.eqb c " "), (Ascii.eqb c ";"); try reflexivity; rewrite ?orb_true_r, ?orb_true_l in H; cbn [negb] in H; try discriminate.
Qed.
Lemma plain_stop c : In c (str " [],;") -> plain_char c = false.
Proof. intros H. cbn in H. decompose [or False] H; subst; reflexivity. Qed.
Lemma names_chars v : Forall plain_name v -> all_of ref_char (join v (str ",")).
Proof.
  induction 1 as [|n v (_ & Hn) Hv IH]; [constructor|]. assert (A : all_of ref_char n) by (eapply Forall_impl; [|exact Hn]; apply plain_ref_char).
  destruct v as [|m v]; [exact A|]. change (join (n :: m :: v) (str ",")) with (n ++ str "," ++ join (m :: v) (str ",")). unfold all_of; rewrite !Forall_app. repeat split; auto. repeat constructor.
Qed.
Lemma ref_chars r : plain_ref r -> all_of ref_char (aref_text r).
Proof.
  intros ((_ & Hl) & Hv). unfold aref_text. assert (A : all_of ref_char (fst r)) by (eapply Forall_impl; [|exact Hl]; apply plain_ref_char). destruct (snd r) as [|n v]; [exact A|].
  unfold all_of; rewrite !Forall_app. repeat split; auto; try (repeat constructor). apply names_chars, Hv.
Qed.
Lemma names_inj v w : Forall plain_name v -> Forall plain_name w -> v <> [] -> w <> [] -> join v (str ",") ++ str "]" = join w (str ",") ++ str "]" -> v = w.
Proof.
  intros Hv. revert w. induction Hv as [|n v (_ & Hn) Hv IH]; intros w Hw Nv Nw E; [congruence|]. destruct Hw as [|m w (_ & Hm) Hw]; [congruence|].
  assert (J : forall a l, join (a :: l) (str ",") ++ str "]" = a ++ match l with [] => str "]" | _ => str "," ++ join l (str ",") ++ str "]" end).
  { intros a [|b l]; [reflexivity|]. change (join (a :: b :: l) (str ",")) with (a ++ str "," ++ join (b :: l) (str ",")). rewrite <- !app_assoc. reflexivity. }
  rewrite !J in E. apply (cutS plain_char) in E; auto; [|destruct v; reflexivity|destruct w; reflexivity]. destruct E as [-> E]. destruct v as [|n' v], w as [|m' w]; try discriminate; [reflexivity|].
  cbn [str list_ascii_of_string app] in E. injection E as E. f_equal. apply IH; auto; discriminate.
Qed.
Lemma ref_inj r1 r2 : plain_ref r1 -> plain_ref r2 -> aref_text r1 = aref_text r2 -> r1 = r2.
Proof.
  destruct r1 as [l1 v1], r2 as [l2 v2]. intros ((_ & H1) & V1) ((_ & H2) & V2) E. cbn [fst snd] in *.
  assert (T : forall l v, aref_text (l, v) = l ++ match v with [] => [] | _ => str "[" ++ join v (str ",") ++ str "]" end) by (intros l [|a v]; unfold aref_text; cbn [fst snd]; [rewrite app_nil_r|]; reflexivity).
  rewrite !T in E. apply (cutS plain_char) in E; auto; [|destruct v1; reflexivity|destruct v2; reflexivity]. destruct E as [-> E]. f_equal.
  destruct v1 as [|a v1], v2 as [|b v2]; try discriminate; [reflexivity|]. change (str "[") with ["["%char] in E. cbn [app] in E. injection E as E. apply names_inj; auto; discriminate.
Qed.
Lemma refs_inj rs1 rs2 : Forall plain_ref rs1 -> Forall plain_ref rs2 ->
  flat_map (fun r => str " * " ++ aref_text r) rs1 ++ str ";" = flat_map (fun r => str " * " ++ aref_text r) rs2 ++ str ";" -> rs1 = rs2.
Proof.
  intros H1. revert rs2. induction H1 as [|r rs1 Hr H1 IH]; intros rs2 H2 E; destruct H2 as [|r2 rs2 Hr2 H2]; try discriminate; [reflexivity|].
  cbn [flat_map] in E. rewrite <- !app_assoc in E. change (str " * ") with [" "; "*"; " "]%char in E. cbn [app] in E. injection E as E.
  apply (cutS ref_char) in E; try (apply ref_chars; assumption); [|destruct rs1; reflexivity|destruct rs2; reflexivity]. destruct E as [E1 E2]. apply ref_inj in E1; auto. subst. f_equal. apply IH; auto.
Qed.
Lemma ambit_unique s l f rs l' f' rs' : reads_ambit s l f rs -> reads_ambit s l' f' rs' -> l = l' /\ f = f' /\ rs = rs'.
Proof.
  intros H1 H2. destruct H1 as [l f rs Pl (_ & Pf) _ Prs]. remember (aref_text l ++ _) as s eqn:E. destruct H2 as [l' f' rs' Pl' (_ & Pf') _ Prs'].
  assert (A : forall f, all_of plain_char f -> all_of ref_char f) by (intros g Hg; eapply Forall_impl; [|exact Hg]; apply plain_ref_char).
  change (str " += ") with [" "; "+"; "="; " "]%char in E. cbn [app] in E. apply (cutS ref_char) in E; try (apply ref_chars; assumption); try reflexivity. destruct E as [E1 E]. injection E as E.
  apply (cutS ref_char) in E; auto; [|destruct rs'; reflexivity|destruct rs; reflexivity]. destruct E as [-> E]. apply ref_inj in E1; auto. apply refs_inj in E; auto.
Qed.

Lemma mapM_names st f l : (forall i, In i l -> 0 <= isp i < num_spaces st) -> mapM (index_compile st f) l = Ok (map (index_name st) l).
Proof.
  induction l as [|i l IH]; intros H; [reflexivity|]. cbn [mapM map]. destruct (reg_label_defined st (isp i)) as (c & E); [apply H; left; auto|]. unfold index_compile, index_str, index_name. rewrite E. cbn [bind].
  change (fun i0 => l0 <- space_label st (isp i0);; Ok (l0 :: dec_text (ipos i0)))%res with (index_compile st f). rewrite IH by (intros j Hj; apply H; right; exact Hj). reflexivity.
Qed.
Lemma tensor_compile_text st f t : registered st t -> tensor_compile st f t = Ok (aref_text (ref_of st t)).
Proof.
  intros H. unfold tensor_compile. rewrite !mapM_names; try (intros i Hi; apply H; unfold slots_of; rewrite in_app_iff; tauto). cbn [bind]. unfold aref_text, ref_of, slots_of. cbn [fst snd]. rewrite map_app. reflexivity.
Qed.
Lemma mapM_compile st f l : (forall t, In t l -> registered st t) -> mapM (tensor_compile st f) l = Ok (map (fun t => aref_text (ref_of st t)) l).
Proof. induction l as [|t l IH]; intros H; [reflexivity|]. cbn [mapM map]. rewrite tensor_compile_text by (apply H; left; auto). cbn [bind]. rewrite IH by (intros u Hu; apply H; right; exact Hu). reflexivity. Qed.
Lemma term_ambit st t : (forall d, In d (tm_tens t) -> registered st d) ->
  term_compile st (str "ambit") t = if (0 <? length (tm_ops t))%nat then Throw else Ok (join (map (fun d => aref_text (ref_of st d)) (tm_tens t)) (str " * ")).
Proof. intros H. unfold term_compile. rewrite text_eqb_refl, mapM_compile by exact H. reflexivity. Qed.
Lemma join_star (l : list text) a : join (a :: l) (str " * ") = a ++ flat_map (fun x => str " * " ++ x) l.
Proof. revert a. induction l as [|b l IH]; intros a; [cbn; rewrite app_nil_r; reflexivity|]. change (join (a :: b :: l) (str " * ")) with (a ++ str " * " ++ join (b :: l) (str " * ")). rewrite IH. cbn [flat_map]. rewrite <- !app_assoc. reflexivity. Qed.
Lemma ambit_throws fmt st e : (forall d, In d (tm_tens (eq_lhs e) ++ tm_tens (eq_rhs e)) -> registered st d) ->
  compile_ambit fmt st e = Throw <-> tm_ops (eq_lhs e) <> [] \/ tm_ops (eq_rhs e) <> [].
Proof.
  intros H. unfold compile_ambit. rewrite !term_ambit; try (intros d Hd; apply H, in_or_app; tauto). destruct (tm_ops (eq_lhs e)), (tm_ops (eq_rhs e)); cbn [length Nat.ltb Nat.leb bind]; split; try reflexivity; try discriminate; try (intros [A|A]; congruence); intros _; (left; discriminate) || (right; discriminate).
Qed.
Lemma ambit_text fmt st e lhs : tm_tens (eq_lhs e) = [lhs] -> tm_ops (eq_lhs e) = [] -> tm_ops (eq_rhs e) = [] -> (forall d, In d (lhs :: tm_tens (eq_rhs e)) -> registered st d) ->
  compile_ambit fmt st e = Ok (aref_text (ref_of st lhs) ++ str " += " ++ fmt (eq_factor e) ++
    match tm_tens (eq_rhs e) with [] => str " * ;" | ts => flat_map (fun t => str " * " ++ aref_text (ref_of st t)) ts ++ str ";" end).
Proof.
  intros El O1 O2 H. unfold compile_ambit. rewrite !term_ambit; [|intros d Hd; apply H; right; exact Hd|rewrite El; intros d [<-|[]]; apply H; left; auto]. rewrite El, O1, O2. cbn [length Nat.ltb Nat.leb bind map]. f_equal.
  rewrite !join_star. destruct (tm_tens (eq_rhs e)) as [|t ts]; cbn [map flat_map]; rewrite ?app_nil_r, <- ?app_assoc; [reflexivity|]. rewrite join_star, <- ?app_assoc. do 5 f_equal.
  rewrite flat_map_concat_map, map_map, <- flat_map_concat_map. reflexivity.
Qed.
Lemma name_plain st i : plain_labels_of st -> 0 <= isp i < num_spaces st -> plain_name (index_name st i).
Proof.
  intros P H. unfold index_name. destruct (reg_label_defined st (isp i) H) as (c & E). rewrite E. split; [discriminate|]. constructor; [eapply P, E|].
  assert (Q : forall m, 0 <= m -> all_of plain_char (dec_text m)).
  { intros m Hm. destruct (dec_pos m Hm) as (_ & D & _). eapply Forall_impl; [|exact D]. cbn beta. intros d Hd. destruct (plain_char d) eqn:F; auto. unfold plain_char in F. apply negb_false_iff in F. apply existsb_exists in F. destruct F as (x & Hx & Ex).
    apply Ascii.eqb_eq in Ex. subst x. cbn in Hx. decompose [or False] Hx; subst d; discriminate. }
  destruct (Z.neg_nonneg_cases (ipos i)) as [Hn|Hn]; [|apply Q, Hn]. rewrite dec_neg by exact Hn. constructor; [reflexivity|apply Q; lia].
Qed.
Lemma ref_plain st t : plain_labels_of st -> registered st t -> plain_name (t_label t) -> plain_ref (ref_of st t).
Proof. intros P H L. split; [exact L|]. apply Forall_forall. intros n Hn. apply in_map_iff in Hn. destruct Hn as (i & <- & Hi). apply name_plain; auto. Qed.
Lemma ambit_reads fmt st e lhs : plain_labels_of st -> tm_tens (eq_lhs e) = [lhs] -> tm_ops (eq_lhs e) = [] -> tm_ops (eq_rhs e) = [] -> (forall d, In d (lhs :: tm_tens (eq_rhs e)) -> registered st d /\ plain_name (t_label d)) ->
  plain_name (fmt (eq_factor e)) -> tm_tens (eq_rhs e) <> [] -> exists s, compile_ambit fmt st e = Ok s /\ reads_ambit s (ref_of st lhs) (fmt (eq_factor e)) (map (ref_of st) (tm_tens (eq_rhs e))).
Proof.
  intros P El O1 O2 H F N. rewrite (ambit_text fmt st e lhs El O1 O2) by (intros d Hd; apply H, Hd). eexists. split; [reflexivity|].
  destruct (tm_tens (eq_rhs e)) as [|t ts] eqn:Et; [congruence|]. rewrite <- Et in *.
  assert (X : forall l, flat_map (fun t => str " * " ++ aref_text (ref_of st t)) l = flat_map (fun r => str " * " ++ aref_text r) (map (ref_of st) l)) by (intros l; rewrite !flat_map_concat_map, map_map; reflexivity). rewrite X.
  apply ra_intro; auto; [apply ref_plain; auto; apply H; left; auto|rewrite Et; discriminate|].
  apply Forall_forall. intros r Hr. apply in_map_iff in Hr. destruct Hr as (d & <- & Hd). apply ref_plain; auto; apply H; right; exact Hd.
Qed.
Lemma name_inj st i j : reachable st -> 0 <= isp i < num_spaces st -> 0 <= isp j < num_spaces st -> index_name st i = index_name st j -> i = j.
Proof.
  intros R Hi Hj E. unfold index_name in E. destruct (reg_label_defined st (isp i) Hi) as (c & Ec), (reg_label_defined st (isp j) Hj) as (d & Ed). rewrite Ec, Ed in E. injection E as -> E. apply dec_inj in E.
  assert (X1 := reg_label_roundtrip st _ d (reachable_ok st R) Ec). assert (X2 := reg_label_roundtrip st _ d (reachable_ok st R) Ed). destruct i, j. cbn in *. congruence.
Qed.
Lemma ref_of_inj st t u : reachable st -> registered st t -> registered st u -> ref_of st t = ref_of st u -> t_label t = t_label u /\ slots_of t = slots_of u.
Proof.
  intros R Ht Hu E. injection E as E1 E2. split; [exact E1|]. unfold registered in *. revert Ht Hu E2. generalize (slots_of u). generalize (slots_of t). induction l as [|i l IH]; intros [|j l'] H1 H2 E; try discriminate; [reflexivity|].
  cbn [map] in E. injection E as Ea Eb. f_equal; [apply (name_inj st); auto; [apply H1|apply H2]; left; auto|apply IH; auto; intros k Hk; [apply H1|apply H2]; right; auto].
Qed.
Lemma formats fmt9 fmt6 st format : format <> str "ambit" ->
  (forall t, term_compile st format t = Ok []) /\ (forall q, sqop_compile st format q = Throw) /\ (format <> str "einsum" -> forall e, compile fmt9 fmt6 st format e = Throw) /\
  (forall e, compile fmt9 fmt6 st (str "ambit") e = compile_ambit fmt6 st e) /\ (forall e, compile fmt9 fmt6 st (str "einsum") e = compile_einsum fmt9 st e).
Proof.
  assert (N : forall a b, a <> b -> text_eqb a b = false) by (intros a b H; destruct (text_eqb a b) eqn:E; auto; unfold text_eqb in E; destruct (list_eq_dec ascii_dec a b); congruence).
  intros H. unfold term_compile, sqop_compile, compile. rewrite (N _ _ H). repeat split; auto. intros H2 e. rewrite (N _ _ H2). reflexivity.
Qed.
Lemma dangling l f rs : ~ reads_ambit (str "R += 1.0 * ;") l f rs.
Proof.
  intros H. remember (str "R += 1.0 * ;") as s eqn:E. destruct H as [l f rs Pl (Nf & Pf) Nr Prs]. change (str "R += 1.0 * ;") with (str "R" ++ " "%char :: "+"%char :: "="%char :: " "%char :: str "1.0 * ;") in E.
  change (str " += ") with [" "; "+"; "="; " "]%char in E. cbn [app] in E. apply (cutS ref_char) in E; try reflexivity; [|apply ref_chars, Pl|repeat constructor]. destruct E as [_ E]. injection E as E.
  change ["1"; "."; "0"; " "; "*"; " "; ";"]%char with (["1"; "."; "0"]%char ++ [" "; "*"; " "; ";"]%char) in E. assert (A : all_of ref_char f) by (eapply Forall_impl; [|exact Pf]; apply plain_ref_char).
  apply (cutS ref_char) in E; try reflexivity; [|exact A|repeat constructor|destruct rs; reflexivity]. destruct E as [_ E]. destruct rs as [|r rs]; [congruence|]. inversion Prs as [|? ? ((Nr1 & Pr1) & _) _]; subst.
  cbn [flat_map app] in E. injection E as E. rewrite <- app_assoc in E.
  assert (Nt : aref_text r <> []) by (unfold aref_text; destruct (snd r); [exact Nr1|destruct (fst r); [congruence|discriminate]]).
  assert (Rc : all_of ref_char (aref_text r)) by (apply ref_chars; inversion Prs; auto). destruct (aref_text r) as [|c w]; [congruence|]. cbn [app] in E. injection E as -> _. inversion Rc; subst. discriminate.
Qed.
