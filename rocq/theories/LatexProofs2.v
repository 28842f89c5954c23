(** C62: the grammar of the LaTeX output is unambiguous. *)
From Coq Require Import String ZArith List Bool Ascii Lia.
From Verif Require Import Res RegistryModel RegistryProofs CoreModel RationalModel RationalSpec AlgebraModel DecModel TextModel TextSpec TextProofs TextProofs2 TextProofs3 TextProofs4 ExprTextModel LatexModel LatexSpec LatexProofs.
Import ListNotations.
Local Open Scope Z_scope.
Local Open Scope res_scope.

(** ** Matching braces *)
Lemma depth_app a : forall d b, depth d (a ++ b) = match depth d a with Some d' => depth d' b | None => None end.
Proof.
  induction a as [|c a IH]; intros d b; [reflexivity|]. cbn [app depth]. destruct (Ascii.eqb c "{"); [apply IH|]. destruct (Ascii.eqb c "}"); [|apply IH]. destruct d; [reflexivity|apply IH].
Qed.
Lemma balanced_app a b : balanced a -> balanced b -> balanced (a ++ b).
Proof. unfold balanced. intros A B. rewrite depth_app, A. exact B. Qed.
Lemma depth_plus s : forall d e k, depth d s = Some e -> depth (d + k) s = Some (e + k)%nat.
Proof.
  induction s as [|c s IH]; intros d e k H; cbn [depth] in *; [congruence|]. destruct (Ascii.eqb c "{"); [apply (IH (S d) e k H)|]. destruct (Ascii.eqb c "}"); [|apply IH; auto]. destruct d; [discriminate|]. cbn [Nat.add]. apply IH; auto.
Qed.
Lemma balanced_braces s : balanced s -> balanced (lit "{" ++ s ++ lit "}").
Proof. unfold balanced. intros H. cbn [lit list_ascii_of_string app depth Ascii.eqb Bool.eqb]. change (depth 1 (s ++ lit "}") = Some 0%nat). rewrite depth_app. rewrite (depth_plus s 0 0 1 H : depth 1 s = Some 1%nat). reflexivity. Qed.
Lemma balanced_plain s : Forall (fun c => c <> "{"%char /\ c <> "}"%char) s -> balanced s.
Proof.
  unfold balanced. generalize 0%nat as d. induction s as [|c s IH]; intros d F; [reflexivity|]. inversion F as [|? ? (A & B) F']; subst. cbn [depth]. rewrite (proj2 (Ascii.eqb_neq _ _) A), (proj2 (Ascii.eqb_neq _ _) B). auto.
Qed.
(** Only one balanced text stands before the closing brace. *)
Lemma close_unique a b r s : balanced a -> balanced b -> a ++ "}"%char :: r = b ++ "}"%char :: s -> a = b /\ r = s.
Proof.
  intros A B E. assert (K : forall a b k, balanced a -> balanced b -> b = a ++ k -> hd_error (k ++ ["}"%char]) = Some "}"%char -> k = []).
  { clear. intros a b k A B E H. destruct k as [|c k]; [reflexivity|]. cbn in H. injection H as ->. subst b. unfold balanced in *. rewrite depth_app, A in B. discriminate. }
  apply app_eq_app in E. destruct E as (k & [(Ea & Er)|(Ea & Er)]).
  - assert (k = []) as ->. { apply (K b a k); auto. destruct k; [reflexivity|]. cbn in Er |- *. congruence. } rewrite app_nil_r in Ea. split; [auto|]. cbn in Er. congruence.
  - assert (k = []) as ->. { apply (K a b k); auto. destruct k; [reflexivity|]. cbn in Er |- *. congruence. } rewrite app_nil_r in Ea. split; [auto|]. cbn in Er. congruence.
Qed.
(** Only one text without [c] stands before the first [c]. *)
Lemma before_unique c (a b r s : text) : ~ In c a -> ~ In c b -> a ++ c :: r = b ++ c :: s -> a = b /\ r = s.
Proof.
  intros A B E. apply app_eq_app in E. destruct E as (k & [(Ea & Er)|(Ea & Er)]).
  - destruct k as [|x k]; [rewrite app_nil_r in Ea; cbn in Er; split; congruence|]. cbn in Er. injection Er as <- _. exfalso. apply A. rewrite Ea. apply in_or_app. right. left. reflexivity.
  - destruct k as [|x k]; [rewrite app_nil_r in Ea; cbn in Er; split; congruence|]. cbn in Er. injection Er as <- _. exfalso. apply B. rewrite Ea. apply in_or_app. right. left. reflexivity.
Qed.

(** ** Index names *)
Definition plain (s : text) : Prop := Forall (fun c => is_ws c = false) s.
Lemma plain_notin s c : is_ws c = true -> plain s -> ~ In c s.
Proof. unfold plain. rewrite Forall_forall. intros H F I. rewrite (F _ I) in H. discriminate. Qed.
Lemma plain_app a b : plain a -> plain b -> plain (a ++ b).
Proof. intros. apply Forall_app. auto. Qed.
Lemma digits_plain s : all_of is_digit s -> plain s /\ balanced s.
Proof.
  intros F. split; [|apply balanced_plain]; eapply Forall_impl; try exact F; intros c H.
  - apply digit_not_ws; auto.
  - split; intros ->; discriminate.
Qed.
Lemma alpha_plain s : all_of is_alpha s -> plain s /\ balanced s.
Proof.
  intros F. split; [|apply balanced_plain]; eapply Forall_impl; try exact F; intros c H.
  - destruct c as [[] [] [] [] [] [] [] []]; vm_compute in H |- *; try discriminate; auto.
  - split; intros ->; discriminate.
Qed.
Lemma dec_plain n : plain (dec_text n) /\ balanced (dec_text n) /\ dec_text n <> [].
Proof.
  destruct (Z_lt_le_dec n 0) as [L|L].
  - rewrite (dec_neg n L). destruct (dec_pos (- n) ltac:(lia)) as (N & A & _). destruct (digits_plain _ A) as [P B]. split; [constructor; auto|]. split; [exact B|discriminate].
  - destruct (dec_pos n L) as (N & A & _). destruct (digits_plain _ A) as [P B]. auto.
Qed.
Section Names.
Variable st : osi.
Hypothesis R : reachable st.
Hypothesis Nm : readable_names st.
Lemma name_ok i x : index_latex st i = Ok x -> x <> [] /\ balanced x /\ plain x.
Proof.
  destruct Nm as [N1 N2]. unfold index_latex. intros H. apply bind_ok in H. destruct H as (names & En & H). destruct ((0 <=? ipos i) && (ipos i <? Z.of_nat (length names))) eqn:C.
  - injection H as <-. apply andb_prop in C. destruct C as [C1 C2]. apply Z.leb_le in C1. apply Z.ltb_lt in C2. destruct (N1 (isp i) names (nth (Z.to_nat (ipos i)) names []) En) as (_ & A & B & D); [apply nth_In; lia|]. auto.
  - apply bind_ok in H. destruct H as (l & El & H). injection H as <-. destruct (N2 _ _ El) as (A & B & D). destruct (dec_plain (ipos i)) as (P & Q & _). split; [discriminate|]. split.
    + change (balanced ([l] ++ lit "_" ++ (lit "{" ++ dec_text (ipos i) ++ lit "}"))). apply balanced_app; [apply balanced_plain; constructor; auto|]. apply balanced_app; [reflexivity|]. apply balanced_braces; auto.
    + constructor; [exact A|]. constructor; [reflexivity|]. constructor; [reflexivity|]. apply plain_app; [exact P|]. repeat constructor.
Qed.
Lemma name_inj i j x : index_latex st i = Ok x -> index_latex st j = Ok x -> i = j.
Proof. apply index_latex_inj; auto. intros sp names y E I. apply (proj1 Nm sp names y E I). Qed.
Lemma row_ok s l : reads_row st s l -> balanced s /\ (l = [] <-> s = []).
Proof.
  induction 1 as [|x i H|x i s j l H Hr (IH & _)].
  - split; [reflexivity|tauto].
  - destruct (name_ok _ _ H) as (A & B & _). split; [exact B|]. split; [discriminate|contradiction].
  - destruct (name_ok _ _ H) as (A & B & _). split; [apply balanced_app; auto|]. split; [discriminate|]. destruct x; [congruence|discriminate].
Qed.
Lemma row_unique s l : reads_row st s l -> forall l', reads_row st s l' -> l = l'.
Proof.
  induction 1 as [|x i H|x i s j l H Hr IH]; intros l' H'.
  - symmetry. apply (row_ok _ _ H'). reflexivity.
  - inversion H' as [E|y i' Hy E El|y i' s' j' l'' Hy Hr' E El]; subst.
    + exfalso. apply (name_ok _ _ H). reflexivity.
    + f_equal. eapply name_inj; eauto.
    + exfalso. destruct (name_ok _ _ H) as (_ & _ & P). apply (plain_notin _ " "%char eq_refl P). apply in_or_app. right. left. reflexivity.
  - destruct (name_ok _ _ H) as (_ & _ & P). inversion H' as [E|y i' Hy E El|y i' s' j' l'' Hy Hr' E El]; subst.
    + exfalso. destruct x; discriminate.
    + exfalso. destruct (name_ok _ _ Hy) as (_ & _ & P'). apply (plain_notin _ " "%char eq_refl P'). apply in_or_app. right. left. reflexivity.
    + destruct (name_ok _ _ Hy) as (_ & _ & P'). apply before_unique in E; [|apply plain_notin; auto|apply plain_notin; auto]. destruct E as (-> & ->). f_equal; [eapply name_inj; eauto|auto].
Qed.

(** ** Symbols and tensors: self-delimiting *)
Lemma greek_alpha s : is_greek s = true -> s <> [] /\ all_of is_alpha s.
Proof.
  unfold is_greek. intros H. apply existsb_exists in H. destruct H as (g & I & E). unfold text_eqb in E. destruct (list_eq_dec ascii_dec s g) as [->|]; [|discriminate]. cbn in I.
  repeat (destruct I as [<-|I]; [split; [discriminate|repeat constructor]|]). destruct I.
Qed.
Lemma alpha_notin c s : is_alpha c = false -> all_of is_alpha s -> ~ In c s.
Proof. unfold all_of. rewrite Forall_forall. intros H F I. rewrite (F _ I) in H. discriminate. Qed.
Lemma symbol_body s label : reads_symbol s label -> exists b, s = "{"%char :: b ++ ["}"%char] /\ balanced b /\
  ((b = "\"%char :: label /\ is_greek label = true) \/ (b = label /\ is_greek label = false /\ label <> [] /\ all_of is_alpha label) \/
   (exists x d, b = x ++ "_"%char :: "{"%char :: d ++ ["}"%char] /\ label = x ++ d /\ x <> [] /\ all_of is_alpha x)).
Proof.
  intros [x G|x N A G|x d N A G Nd Ad].
  - destruct (greek_alpha x G) as [_ A]. exists ("\"%char :: x). split; [reflexivity|]. split; [|auto]. change (balanced (lit "\" ++ x)). apply balanced_app; [reflexivity|apply alpha_plain; auto].
  - exists x. split; [reflexivity|]. split; [apply alpha_plain; auto|]. right. left. auto.
  - exists (x ++ lit "_{" ++ d ++ lit "}"). split. { cbn. rewrite <- !app_assoc. cbn. rewrite <- !app_assoc. reflexivity. } split.
    + apply balanced_app; [apply alpha_plain; auto|]. change (balanced (lit "_" ++ (lit "{" ++ d ++ lit "}"))). apply balanced_app; [reflexivity|]. apply balanced_braces, digits_plain; auto.
    + right. right. exists x, d. auto.
Qed.
Lemma symbol_unique s1 l1 s2 l2 r1 r2 : reads_symbol s1 l1 -> reads_symbol s2 l2 -> s1 ++ r1 = s2 ++ r2 -> s1 = s2 /\ l1 = l2 /\ r1 = r2.
Proof.
  intros H1 H2 E. apply symbol_body in H1, H2. destruct H1 as (b1 & -> & B1 & C1), H2 as (b2 & -> & B2 & C2). cbn [app] in E. rewrite <- !app_assoc in E. cbn [app] in E. injection E as E. apply close_unique in E; auto. destruct E as (-> & ->).
  split; [reflexivity|]. split; [|reflexivity].
  destruct C1 as [(E1 & _)|[(E1 & G1 & N1 & A1)|(x1 & d1 & E1 & L1 & N1 & A1)]], C2 as [(E2 & _)|[(E2 & G2 & N2 & A2)|(x2 & d2 & E2 & L2 & N2 & A2)]]; subst.
  - congruence.
  - exfalso. inversion A2. discriminate.
  - exfalso. destruct x2 as [|c x2]; [congruence|]. injection E2 as <- _. inversion A2. discriminate.
  - exfalso. inversion A1. discriminate.
  - reflexivity.
  - exfalso. apply (alpha_notin "_"%char _ eq_refl A1). apply in_or_app. right. left. reflexivity.
  - exfalso. destruct x1 as [|c x1]; [congruence|]. injection E2 as -> _. inversion A1. discriminate.
  - exfalso. apply (alpha_notin "_"%char _ eq_refl A2). apply in_or_app. right. left. reflexivity.
  - apply before_unique in E2; [|apply alpha_notin; auto|apply alpha_notin; auto]. destruct E2 as (-> & E2). injection E2 as E2. apply app_inv_tail in E2. congruence.
Qed.
Lemma tensor_unique s1 t1 s2 t2 r1 r2 : reads_tensor st s1 t1 -> reads_tensor st s2 t2 -> s1 ++ r1 = s2 ++ r2 -> s1 = s2 /\ t1 = t2 /\ r1 = r2.
Proof.
  intros [a1 lb1 u1 us1 l1 ls1 A1 U1 L1] [a2 lb2 u2 us2 l2 ls2 A2 U2 L2] E. rewrite <- !app_assoc in E. apply (symbol_unique _ _ _ _ _ _ A1 A2) in E. destruct E as (-> & -> & E). cbn [app lit list_ascii_of_string] in E. injection E as E.
  apply close_unique in E; [|apply (row_ok _ _ U1)|apply (row_ok _ _ U2)]. destruct E as (-> & E). injection E as E. apply close_unique in E; [|apply (row_ok _ _ L1)|apply (row_ok _ _ L2)]. destruct E as (-> & ->).
  rewrite (row_unique _ _ U1 _ U2), (row_unique _ _ L1 _ L2). auto.
Qed.
Lemma tensor_head s t : reads_tensor st s t -> exists s', s = "{"%char :: s'.
Proof. intros [a lb u us l ls A U L]. apply symbol_body in A. destruct A as (b & -> & _). eexists. reflexivity. Qed.

(** ** Operators *)
Lemma symbol_text sp x : op_symbol st sp = Ok x -> x = lit "a" \/ x = lit "b".
Proof. unfold op_symbol. intros H. apply bind_ok in H. destruct H as (l & _ & H). injection H as <-. destruct (field_of st sp); auto. Qed.
Lemma op_shape s q : reads_op st s q -> exists c y, s = lit "\hat{" ++ [c] ++ lit "}" ++ [if s_cre q then "^"%char else "_"%char] ++ lit "{" ++ y ++ lit "}" /\ index_latex st (s_idx q) = Ok y.
Proof. intros [x y i H1 H2|x y i H1 H2]; apply symbol_text in H1; destruct H1 as [->| ->]; eexists; exists y; (split; [reflexivity|exact H2]). Qed.
Lemma op_unique s1 q1 s2 q2 r1 r2 : reads_op st s1 q1 -> reads_op st s2 q2 -> s1 ++ r1 = s2 ++ r2 -> s1 = s2 /\ q1 = q2 /\ r1 = r2.
Proof.
  intros H1 H2 E. apply op_shape in H1, H2. destruct H1 as (c1 & y1 & -> & I1), H2 as (c2 & y2 & -> & I2). cbn [app lit list_ascii_of_string] in E. injection E as E1 E2 E. subst c2. rewrite <- !app_assoc in E. cbn [app] in E.
  apply close_unique in E; [|apply (name_ok _ _ I1)|apply (name_ok _ _ I2)]. destruct E as (-> & ->). destruct q1 as [b1 i1], q2 as [b2 i2]. cbn [s_cre s_idx] in *. assert (b1 = b2) as -> by (destruct b1, b2; congruence).
  split; [reflexivity|]. split; [|reflexivity]. f_equal. eapply name_inj; eauto.
Qed.
Lemma word_unique xs1 qs1 : Forall2 (reads_op st) xs1 qs1 -> forall xs2 qs2, Forall2 (reads_op st) xs2 qs2 -> xs1 <> [] -> xs2 <> [] -> join xs1 (lit " ") = join xs2 (lit " ") -> qs1 = qs2.
Proof.
  induction 1 as [|x1 q1 xs1 qs1 H1 F1 IH]; intros xs2 qs2 F2 N1 N2 E; [congruence|]. destruct F2 as [|x2 q2 xs2 qs2 H2 F2]; [congruence|].
  assert (J : forall (y : text) l, join (y :: l) (lit " ") = y ++ match l with [] => [] | _ => lit " " ++ join l (lit " ") end). { intros y [|]; cbn [join]; [rewrite app_nil_r; reflexivity|reflexivity]. }
  rewrite !J in E. apply (op_unique _ _ _ _ _ _ H1 H2) in E. destruct E as (-> & -> & E). f_equal. destruct xs1 as [|y1 xs1], xs2 as [|y2 xs2]; try discriminate E.
  - inversion F1; inversion F2; reflexivity.
  - apply (IH _ _ F2); try discriminate. injection E as E. exact E.
Qed.
Lemma compact_word u us l xs qs : reads_row st u us -> Forall2 (reads_op st) xs qs -> xs <> [] -> lit "\hat{a}^{" ++ u ++ lit "}_{" ++ l ++ lit "}" = join xs (lit " ") -> False.
Proof.
  intros U F N E. destruct F as [|x q xs qs H F]; [congruence|].
  assert (J : forall (y : text) l, join (y :: l) (lit " ") = y ++ match l with [] => [] | _ => lit " " ++ join l (lit " ") end). { intros y [|]; cbn [join]; [rewrite app_nil_r; reflexivity|reflexivity]. }
  rewrite J in E. apply op_shape in H. destruct H as (c & y & -> & I). cbn [app lit list_ascii_of_string] in E. injection E as E1 E2 E. destruct (s_cre q); [|discriminate]. rewrite <- !app_assoc in E. cbn [app] in E.
  apply close_unique in E; [|apply (row_ok _ _ U)|apply (name_ok _ _ I)]. destruct E as (_ & E). destruct xs; discriminate.
Qed.
Lemma ops_unique s q1 q2 : reads_ops st s q1 -> reads_ops st s q2 -> q1 = q2.
Proof.
  intros H1 H2. inversion H1 as [u1 us1 l1 ls1 U1 L1 E1 Q1|xs1 qs1 N1 F1 E1 Q1]; inversion H2 as [u2 us2 l2 ls2 U2 L2 E2 Q2|xs2 qs2 N2 F2 E2 Q2]; subst.
  - cbn [app lit list_ascii_of_string] in E2. injection E2 as E. symmetry in E. apply close_unique in E; [|apply (row_ok _ _ U1)|apply (row_ok _ _ U2)]. destruct E as (-> & E). injection E as E. apply close_unique in E; [|apply (row_ok _ _ L1)|apply (row_ok _ _ L2)]. destruct E as (-> & _).
    rewrite (row_unique _ _ U1 _ U2), (row_unique _ _ L1 _ L2). reflexivity.
  - exfalso. exact (compact_word _ _ _ _ _ U1 F2 N2 (eq_sym E2)).
  - exfalso. exact (compact_word _ _ _ _ _ U2 F1 N1 E2).
  - eapply word_unique; eauto.
Qed.
Lemma ops_head s q : reads_ops st s q -> exists s', s = "\"%char :: "h"%char :: s'.
Proof.
  intros [u us l ls U L|xs qs N F]; [eexists; reflexivity|]. destruct F as [|x q' xs qs H F]; [congruence|]. apply op_shape in H. destruct H as (c & y & -> & _). destruct xs; cbn; eexists; reflexivity.
Qed.

(** ** Terms *)
(** The tail of a term after its tensors. *)
Inductive reads_tail : list text -> bool -> list sqop -> Prop :=
| tl_none : reads_tail [] false []
| tl_ops o q : reads_ops st o q -> reads_tail [o] false q
| tl_norm o q : reads_ops st o q -> reads_tail [lit "\{"; o; lit "\}"] true q.
Lemma term_tail s t : reads_term st s t -> exists xs tl, Forall2 (reads_tensor st) xs (tm_tens t) /\ reads_tail tl (tm_no t) (tm_ops t) /\ s = join (xs ++ tl) (lit " ").
Proof.
  intros [xs ts F|xs ts o os F O|xs ts o os F O].
  - exists xs, []. split; [exact F|]. split; [apply tl_none|]. rewrite app_nil_r. reflexivity.
  - exists xs, [o]. split; [exact F|]. split; [apply tl_ops; auto|reflexivity].
  - exists xs, [lit "\{"; o; lit "\}"]. split; [exact F|]. split; [apply tl_norm; auto|reflexivity].
Qed.
Lemma tail_unique a b n1 n2 q1 q2 : reads_tail a n1 q1 -> reads_tail b n2 q2 -> join a (lit " ") = join b (lit " ") -> a = b /\ n1 = n2 /\ q1 = q2.
Proof.
  intros H1 H2 E. destruct H1 as [|o1 q1 O1|o1 q1 O1], H2 as [|o2 q2 O2|o2 q2 O2]; auto; cbn [join] in E.
  - apply ops_head in O2. destruct O2 as (s & ->). discriminate.
  - discriminate.
  - apply ops_head in O1. destruct O1 as (s & ->). discriminate.
  - subst. rewrite (ops_unique _ _ _ O1 O2). auto.
  - apply ops_head in O1. destruct O1 as (s & ->). discriminate.
  - discriminate.
  - apply ops_head in O2. destruct O2 as (s & ->). discriminate.
  - cbn [app lit list_ascii_of_string] in E. injection E as E. apply app_inv_tail in E. subst. rewrite (ops_unique _ _ _ O1 O2). auto.
Qed.
Lemma tail_head a n q : reads_tail a n q -> join a (lit " ") = [] \/ exists s, join a (lit " ") = "\"%char :: s.
Proof.
  intros [|o1 q1 O1|o1 q1 O1]; [left; reflexivity| |right; cbn; eexists; reflexivity]. apply ops_head in O1. destruct O1 as (s & ->). right. cbn. eexists. reflexivity.
Qed.
Lemma tensors_unique xs1 ts1 : Forall2 (reads_tensor st) xs1 ts1 -> forall xs2 ts2 tl1 tl2 n1 n2 q1 q2, Forall2 (reads_tensor st) xs2 ts2 -> reads_tail tl1 n1 q1 -> reads_tail tl2 n2 q2 ->
  join (xs1 ++ tl1) (lit " ") = join (xs2 ++ tl2) (lit " ") -> ts1 = ts2 /\ n1 = n2 /\ q1 = q2.
Proof.
  assert (J : forall (y : text) l, join (y :: l) (lit " ") = y ++ match l with [] => [] | _ => lit " " ++ join l (lit " ") end). { intros y [|]; cbn [join]; [rewrite app_nil_r; reflexivity|reflexivity]. }
  induction 1 as [|x1 t1 xs1 ts1 H1 F1 IH]; intros xs2 ts2 tl1 tl2 n1 n2 q1 q2 F2 T1 T2 E.
  - destruct F2 as [|x2 t2 xs2 ts2 H2 F2].
    + apply (tail_unique _ _ _ _ _ _ T1 T2) in E. tauto.
    + exfalso. cbn [app] in E. rewrite J in E. apply tensor_head in H2. destruct H2 as (s' & ->). apply tail_head in T1. destruct T1 as [T1|(s & T1)]; rewrite T1 in E; discriminate.
  - destruct F2 as [|x2 t2 xs2 ts2 H2 F2].
    + exfalso. cbn [app] in E. rewrite J in E. apply tensor_head in H1. destruct H1 as (s' & ->). apply tail_head in T2. destruct T2 as [T2|(s & T2)]; rewrite T2 in E; discriminate.
    + cbn [app] in E. rewrite !J in E. apply (tensor_unique _ _ _ _ _ _ H1 H2) in E. destruct E as (-> & -> & E).
      assert (K : ts1 = ts2 /\ n1 = n2 /\ q1 = q2); [|destruct K as (-> & -> & ->); auto]. apply (IH xs2 ts2 tl1 tl2 n1 n2 q1 q2 F2 T1 T2). destruct (xs1 ++ tl1), (xs2 ++ tl2); try discriminate; [reflexivity|]. injection E as E. exact E.
Qed.
Theorem term_unique s t1 t2 : reads_term st s t1 -> reads_term st s t2 -> t1 = t2.
Proof.
  intros H1 H2. apply term_tail in H1, H2. destruct H1 as (xs1 & tl1 & F1 & T1 & ->), H2 as (xs2 & tl2 & F2 & T2 & E). destruct (tensors_unique _ _ F1 _ _ _ _ _ _ _ _ F2 T1 T2 E) as (A & B & C). destruct t1, t2. cbn in *. congruence.
Qed.

(** ** Coefficients *)
Lemma coef_plain s n d : reads_coefficient s n d -> plain s.
Proof.
  assert (Sg : forall sg v, sign_text sg v -> plain sg) by (intros sg v [(-> & _)|[(-> & _)|(-> & _)]]; repeat constructor).
  intros [| |sg v a S A N|sg v a b S A N B M].
  - repeat constructor.
  - repeat constructor.
  - apply plain_app; [eauto|apply digits_plain; auto].
  - apply plain_app; [eauto|]. apply plain_app; [repeat constructor|]. apply plain_app; [apply digits_plain; auto|]. apply plain_app; [repeat constructor|]. apply plain_app; [apply digits_plain; auto|repeat constructor].
Qed.
(** A coefficient is a sign and an unsigned part. *)
Lemma coef_parts s n d : reads_coefficient s n d -> exists sg v k m, s = sg ++ k /\ sign_text sg v /\ n = v * m /\
  ((k = [] /\ sg <> [] /\ m = 1 /\ d = 1) \/ (all_of is_digit k /\ k <> [] /\ m = dec_value k /\ d = 1) \/
   (exists a b, k = lit "\frac{" ++ a ++ lit "}{" ++ b ++ lit "}" /\ all_of is_digit a /\ all_of is_digit b /\ m = dec_value a /\ d = dec_value b)).
Proof.
  intros [| |sg v a S A N|sg v a b S A N B M].
  - exists (lit "+"), 1, [], 1. split; [reflexivity|]. split; [right; left; auto|]. split; [reflexivity|]. left. repeat split; discriminate.
  - exists (lit "-"), (-1), [], 1. split; [reflexivity|]. split; [right; right; auto|]. split; [reflexivity|]. left. repeat split; discriminate.
  - exists sg, v, a, (dec_value a). repeat split; auto. right. left. auto.
  - exists sg, v, (lit "\frac{" ++ a ++ lit "}{" ++ b ++ lit "}"), (dec_value a). repeat split; auto. right. right. exists a, b. auto 6.
Qed.
Lemma coef_unique s n1 d1 n2 d2 : reads_coefficient s n1 d1 -> reads_coefficient s n2 d2 -> n1 = n2 /\ d1 = d2.
Proof.
  intros H1 H2. apply coef_parts in H1, H2. destruct H1 as (g1 & v1 & k1 & m1 & -> & S1 & -> & C1), H2 as (g2 & v2 & k2 & m2 & E & S2 & -> & C2).
  assert (Hd : forall k, (k = [] \/ (all_of is_digit k /\ k <> []) \/ (exists k', k = "\"%char :: k')) -> forall c k', k = c :: k' -> c <> "+"%char /\ c <> "-"%char).
  { intros k [->|[(A & _)|(k' & ->)]] c k'' E'; [discriminate| |injection E' as <- _; split; discriminate]. subst k. inversion A as [|? ? D _]. split; intros ->; discriminate D. }
  assert (K1 : k1 = [] \/ (all_of is_digit k1 /\ k1 <> []) \/ (exists k', k1 = "\"%char :: k')). { destruct C1 as [(-> & _)|[(A & N & _)|(a & b & -> & _)]]; [auto|auto|right; right; eexists; reflexivity]. }
  assert (K2 : k2 = [] \/ (all_of is_digit k2 /\ k2 <> []) \/ (exists k', k2 = "\"%char :: k')). { destruct C2 as [(-> & _)|[(A & N & _)|(a & b & -> & _)]]; [auto|auto|right; right; eexists; reflexivity]. }
  assert (X : g1 = g2 /\ v1 = v2 /\ k1 = k2).
  { destruct S1 as [(-> & ->)|[(-> & ->)|(-> & ->)]], S2 as [(-> & ->)|[(-> & ->)|(-> & ->)]]; cbn [app] in E; try (injection E as ->; auto; fail); try discriminate; subst; auto.
    - exfalso. destruct (Hd _ K1 _ _ eq_refl). congruence.
    - exfalso. destruct (Hd _ K1 _ _ eq_refl). congruence.
    - exfalso. destruct (Hd _ K2 _ _ eq_refl). congruence.
    - exfalso. destruct (Hd _ K2 _ _ eq_refl). congruence. }
  destruct X as (-> & -> & ->). clear E Hd K1 K2.
  destruct C1 as [(Ek1 & N1 & -> & ->)|[(A1 & N1 & -> & ->)|(a1 & b1 & Ek1 & A1 & B1 & -> & ->)]], C2 as [(Ek2 & N2 & -> & ->)|[(A2 & N2 & -> & ->)|(a2 & b2 & Ek2 & A2 & B2 & -> & ->)]]; auto; try congruence.
  - exfalso. subst k2. discriminate.
  - exfalso. subst k2. inversion A1. discriminate.
  - exfalso. subst k2. discriminate.
  - exfalso. subst k2. inversion A2. discriminate.
  - rewrite Ek1 in Ek2. cbn [app lit list_ascii_of_string] in Ek2. injection Ek2 as E. apply close_unique in E; [|apply digits_plain; auto|apply digits_plain; auto]. destruct E as (-> & E). injection E as E. apply app_inv_tail in E. subst. auto.
Qed.
Lemma entry_unique s x1 x2 : reads_entry st s x1 -> reads_entry st s x2 -> x1 = x2.
Proof.
  intros H1 H2. inversion H1 as [c1 n1 d1 y1 t1 C1 T1 E1]; inversion H2 as [c2 n2 d2 y2 t2 C2 T2 E2]; subst. cbn [app lit list_ascii_of_string] in E2. symmetry in E2. apply before_unique in E2; [|apply plain_notin; [reflexivity|eapply coef_plain; eauto]|apply plain_notin; [reflexivity|eapply coef_plain; eauto]].
  destruct E2 as (-> & ->). destruct (coef_unique _ _ _ _ _ C1 C2) as (-> & ->). rewrite (term_unique _ _ _ T1 T2). reflexivity.
Qed.

(** ** No newline inside an entry *)
Definition one_line (s : text) : Prop := ~ In newline s.
Lemma one_line_app a b : one_line a -> one_line b -> one_line (a ++ b).
Proof. unfold one_line. intros A B H. apply in_app_or in H. tauto. Qed.
Lemma plain_line s : plain s -> one_line s.
Proof. intros P. apply plain_notin; auto. Qed.
Lemma join_line l : Forall one_line l -> one_line (join l (lit " ")).
Proof.
  induction 1 as [|x l H F IH]; [intros []|]. destruct l; [exact H|]. cbn [join]. apply one_line_app; [exact H|]. apply (one_line_app (lit " ")); [|exact IH]. intros [E|[]]. discriminate.
Qed.
Ltac litline := let H := fresh in unfold one_line; cbn; intros H; decompose [or False] H; discriminate.
Lemma row_line s l : reads_row st s l -> one_line s.
Proof.
  induction 1 as [|x i H|x i s j l H Hr IH]; [intros []|apply plain_line, (name_ok _ _ H)|]. apply one_line_app; [apply plain_line, (name_ok _ _ H)|]. apply one_line_app; [litline|exact IH].
Qed.
Lemma tensor_line s t : reads_tensor st s t -> one_line s.
Proof.
  intros [a lb u us l ls A U L]. apply one_line_app; [|].
  - destruct A as [x G|x N A G|x d N A G Nd Ad].
    + destruct (greek_alpha x G) as [_ A]. apply one_line_app; [litline|]. apply one_line_app; [apply plain_line, alpha_plain; auto|litline].
    + apply one_line_app; [litline|]. apply one_line_app; [apply plain_line, alpha_plain; auto|litline].
    + apply one_line_app; [litline|]. apply one_line_app; [apply plain_line, alpha_plain; auto|]. apply one_line_app; [litline|]. apply one_line_app; [apply plain_line, digits_plain; auto|litline].
  - apply one_line_app; [litline|]. apply one_line_app; [eapply row_line; eauto|]. apply one_line_app; [litline|]. apply one_line_app; [eapply row_line; eauto|litline].
Qed.
Lemma op_line s q : reads_op st s q -> one_line s.
Proof.
  intros [x y i H1 H2|x y i H1 H2]; (apply one_line_app; [litline|]); (apply one_line_app; [apply symbol_text in H1; destruct H1 as [->| ->]; litline|]); (apply one_line_app; [litline|]); (apply one_line_app; [apply plain_line, (name_ok _ _ H2)|litline]).
Qed.
Lemma ops_line s q : reads_ops st s q -> one_line s.
Proof.
  intros [u us l ls U L|xs qs N F].
  - apply one_line_app; [litline|]. apply one_line_app; [eapply row_line; eauto|]. apply one_line_app; [litline|]. apply one_line_app; [eapply row_line; eauto|litline].
  - apply join_line. clear N. induction F; constructor; auto. eapply op_line; eauto.
Qed.
Lemma term_line s t : reads_term st s t -> one_line s.
Proof.
  assert (K : forall xs ts, Forall2 (reads_tensor st) xs ts -> Forall one_line xs) by (induction 1; constructor; auto; eapply tensor_line; eauto).
  intros [xs ts F|xs ts o os F O|xs ts o os F O]; apply join_line; [eauto| |]; apply Forall_app; (split; [eauto|]).
  - constructor; [eapply ops_line; eauto|constructor].
  - constructor; [litline|]. constructor; [eapply ops_line; eauto|]. constructor; [litline|constructor].
Qed.
Lemma entry_line s x : reads_entry st s x -> one_line s.
Proof. intros [c n d y t C T]. apply one_line_app; [apply plain_line; eapply coef_plain; eauto|]. apply one_line_app; [litline|]. eapply term_line; eauto. Qed.
Lemma entry_nonempty s x : reads_entry st s x -> s <> [].
Proof. intros [c n d y t C T] E. apply app_eq_nil in E. destruct E as (_ & E). discriminate. Qed.

Lemma lines_unique w xs1 : Forall one_line xs1 -> ~ In newline w -> forall xs2, Forall one_line xs2 -> (forall x, In x (xs1 ++ xs2) -> x <> []) ->
  join xs1 (w ++ [newline]) = join xs2 (w ++ [newline]) -> xs1 = xs2.
Proof.
  intros F1 W. induction F1 as [|x1 xs1 H1 F1 IH]; intros xs2 F2 N E.
  - destruct F2 as [|x2 xs2 H2 F2]; [reflexivity|]. exfalso. apply (N x2); [left; reflexivity|]. destruct xs2; cbn [join] in E; [auto|]. destruct x2; [reflexivity|discriminate].
  - destruct F2 as [|x2 xs2 H2 F2].
    { exfalso. apply (N x1); [left; reflexivity|]. destruct xs1; cbn [join] in E; [auto|]. destruct x1; [reflexivity|discriminate]. }
    assert (B : forall x (y : text) l, one_line x -> x = y ++ (w ++ [newline]) ++ l -> False). { intros x y l H ->. apply H. apply in_or_app. right. apply in_or_app. left. apply in_or_app. right. left. reflexivity. }
    destruct xs1 as [|y1 xs1], xs2 as [|y2 xs2]; cbn [join] in E.
    + congruence.
    + exfalso. eapply (B x1); eauto.
    + exfalso. eapply (B x2); eauto.
    + set (j1 := join (y1 :: xs1) (w ++ [newline])) in *. set (j2 := join (y2 :: xs2) (w ++ [newline])) in *.
      assert (E' : (x1 ++ w) ++ newline :: j1 = (x2 ++ w) ++ newline :: j2) by (change (x1 ++ (w ++ [newline]) ++ j1 = x2 ++ (w ++ [newline]) ++ j2) in E; rewrite <- !app_assoc in E; rewrite <- !app_assoc; exact E).
      unfold one_line in H1, H2. apply before_unique in E'; [|intros I; apply in_app_or in I; tauto|intros I; apply in_app_or in I; tauto]. destruct E' as (E1 & E2). apply app_inv_tail in E1. subst x2. f_equal.
      apply IH; auto. intros x I. apply N. apply in_app_or in I. right. apply in_or_app. destruct I as [I|I]; [left; exact I|right; right; exact I].
Qed.
Theorem expr_unique sep s e1 e2 : line_sep sep -> reads_expr st sep s e1 -> reads_expr st sep s e2 -> e1 = e2.
Proof.
  intros (w & -> & W) (xs1 & F1 & ->) (xs2 & F2 & E).
  assert (L : forall xs e, Forall2 (reads_entry st) xs e -> Forall one_line xs /\ forall x, In x xs -> x <> []).
  { clear - Nm R. induction 1 as [|x y xs e H F (A & B)]; [split; [constructor|intros ? []]|]. split; [constructor; auto; eapply entry_line; eauto|]. intros z [<-|I]; [eapply entry_nonempty; eauto|auto]. }
  destruct (L _ _ F1) as (A1 & B1), (L _ _ F2) as (A2 & B2). apply lines_unique in E; auto; [|intros x I; apply in_app_or in I; destruct I; auto]. subst xs2.
  clear - F1 F2 R Nm. revert e2 F2. induction F1 as [|x y xs e H F IH]; intros e2 F2; inversion F2; subst; [reflexivity|]. f_equal; [eapply entry_unique; eauto|auto].
Qed.
End Names.
