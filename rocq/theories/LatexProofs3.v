(** C62: when the LaTeX output is defined, and what follows from equal outputs. *)
From Coq Require Import String ZArith List Bool Ascii Lia.
From Verif Require Import Res RegistryModel RegistryProofs CoreModel RationalModel RationalSpec AlgebraModel AlgebraSpec AlgebraProofs DecModel TextModel TextSpec TextProofs TextProofs2 TextProofs3 TextProofs4 ExprTextModel ExprTextProofs5 OrderProofs LatexModel LatexSpec LatexProofs LatexProofs2.
Import ListNotations.
Local Open Scope Z_scope.
Local Open Scope res_scope.

Lemma mapM_total {A B} (f : A -> res B) l : (forall a, In a l -> exists b, f a = Ok b) -> exists r, mapM f l = Ok r.
Proof.
  induction l as [|a l IH]; intros H; [exists []; reflexivity|]. destruct (H a) as (b & E); [left; auto|]. destruct IH as (r & E'); [intros; apply H; right; auto|]. exists (b :: r). cbn [mapM]. rewrite E. cbn [bind]. rewrite E'. reflexivity.
Qed.
Lemma mapM_throw {A B} (f : A -> res B) l : (forall a, In a l -> (exists b, f a = Ok b) \/ f a = Throw) -> (exists a, In a l /\ f a = Throw) -> mapM f l = Throw.
Proof.
  induction l as [|a l IH]; intros H (x & I & E); [destruct I|]. cbn [mapM]. destruct (H a) as [(b & E')|E']; [left; auto| |rewrite E'; reflexivity].
  rewrite E'. cbn [bind]. destruct I as [->|I]; [congruence|]. rewrite IH; [reflexivity| |eauto]. intros; apply H; right; auto.
Qed.
Section Def.
Variable st : osi.
Lemma row_def l : Forall (registered_index st) l -> exists r, mapM (index_latex st) l = Ok r.
Proof. rewrite Forall_forall. intros F. apply mapM_total. intros i I. apply index_latex_ok. apply F; auto. Qed.
Lemma row_def_ops l : Forall (fun q => registered_index st (s_idx q)) l -> exists r, mapM (fun q => index_latex st (s_idx q)) l = Ok r.
Proof. rewrite Forall_forall. intros F. apply mapM_total. intros i I. apply index_latex_ok. apply (F i); auto. Qed.
Lemma tensor_def t : registered_tensor st t -> good_label (t_label t) -> exists x, tensor_latex st t = Ok x.
Proof. intros (U & L) G. unfold tensor_latex. destruct (row_def _ U) as (u & ->), (row_def _ L) as (l & ->), (label_latex_def _ G) as (x & ->). eexists. reflexivity. Qed.
Lemma tensor_throw t : registered_tensor st t -> ~ good_label (t_label t) -> tensor_latex st t = Throw.
Proof. intros (U & L) G. unfold tensor_latex. destruct (row_def _ U) as (u & ->), (row_def _ L) as (l & ->). cbn [bind]. rewrite (label_latex_throw _ G). reflexivity. Qed.
Lemma good_label_dec l : good_label l \/ ~ good_label l.
Proof.
  destruct (regex_match label_re l) as [caps|] eqn:E.
  - left. apply label_re_sound in E. destruct E as (s & u & d & -> & -> & Ns & As & Hu & Ad). exists s, u, d. auto 6.
  - right. intros (s & u & d & -> & Ns & As & Hu & Ad). rewrite label_re_complete in E; auto. discriminate.
Qed.
Lemma tensor_outcome t : registered_tensor st t -> (exists x, tensor_latex st t = Ok x) \/ tensor_latex st t = Throw.
Proof. intros H. destruct (good_label_dec (t_label t)); [left; apply tensor_def; auto|right; apply tensor_throw; auto]. Qed.
Lemma sqop_def q : registered_index st (s_idx q) -> exists x, sqop_latex st q = Ok x.
Proof.
  intros H. unfold sqop_latex, op_symbol, s_space. destruct (reg_label_defined st (isp (s_idx q)) H) as (l & ->). destruct (index_latex_ok st (s_idx q) H) as (x & ->). eexists. reflexivity.
Qed.
Lemma ops_def l : Forall (fun q => registered_index st (s_idx q)) l -> exists x, ops_latex st l = Ok x.
Proof.
  intros F. unfold ops_latex. destruct (is_creation_then_annihilation l).
  - assert (K : forall p, Forall (fun q => registered_index st (s_idx q)) (filter p l)). { intros p. rewrite Forall_forall in *. intros q I. apply filter_In in I. apply F, I. }
    destruct (row_def_ops _ (K s_cre)) as (c & ->), (row_def_ops _ (K (fun q => negb (s_cre q)))) as (a & ->). eexists. reflexivity.
  - apply mapM_total. rewrite Forall_forall in F. intros q I. apply sqop_def, F, I.
Qed.
Lemma ops_part_def t : Forall (fun q => registered_index st (s_idx q)) (tm_ops t) -> exists x,
  match tm_ops t with [] => Ok [] | _ => o <- ops_latex st (tm_ops t) ;; Ok ((if tm_no t then [lit "\{"] else []) ++ o ++ (if tm_no t then [lit "\}"] else [])) end = Ok x.
Proof. intros F. destruct (ops_def _ F) as (x & ->). destruct (tm_ops t); eexists; reflexivity. Qed.
Lemma term_def t : registered_term st t -> Forall (fun x => good_label (t_label x)) (tm_tens t) -> exists x, term_latex st t = Ok x.
Proof.
  intros (T & O) G. unfold term_latex. destruct (mapM_total (tensor_latex st) (tm_tens t)) as (ts & ->). { rewrite Forall_forall in *. intros x I. apply tensor_def; auto. } cbn [bind]. destruct (ops_part_def t O) as (x & ->). eexists. reflexivity.
Qed.
Lemma term_throw t : registered_term st t -> Exists (fun x => ~ good_label (t_label x)) (tm_tens t) -> term_latex st t = Throw.
Proof.
  intros (T & O) G. unfold term_latex. rewrite mapM_throw; [reflexivity| |]; rewrite Forall_forall in T.
  - intros x I. apply tensor_outcome; auto.
  - apply Exists_exists in G. destruct G as (x & I & G). exists x. split; [auto|]. apply tensor_throw; auto.
Qed.
Lemma term_outcome t : registered_term st t -> (exists x, term_latex st t = Ok x) \/ (term_latex st t = Throw /\ Exists (fun x => ~ good_label (t_label x)) (tm_tens t)).
Proof.
  intros H. destruct (Forall_Exists_dec (fun x => good_label (t_label x))) with (l := tm_tens t) as [F|E].
  - intros x. destruct (regex_match label_re (t_label x)) as [caps|] eqn:E; [left|right].
    + destruct (label_re_sound _ _ E) as (s & u & d & -> & -> & Ns & As & Hu & Ad). exists s, u, d. auto 6.
    + intros (s & u & d & E' & Ns & As & Hu & Ad). rewrite E', label_re_complete in E; auto. discriminate.
  - left. apply term_def; auto.
  - right. split; [apply term_throw; auto|exact E].
Qed.
Lemma entry_def b first x : registered_term st (fst x) -> Forall (fun x => good_label (t_label x)) (tm_tens (fst x)) -> exists s, entry_latex b st first x = Ok s.
Proof. intros T G. unfold entry_latex. destruct (term_def _ T G) as (s & ->). eexists. reflexivity. Qed.
Lemma entry_outcome b first x : registered_term st (fst x) -> (exists s, entry_latex b st first x = Ok s) \/ entry_latex b st first x = Throw.
Proof. intros T. unfold entry_latex. destruct (term_outcome _ T) as [(s & ->)|(-> & _)]; [left; eexists; reflexivity|right; reflexivity]. Qed.
Theorem expr_def b e sep : Forall (fun x => registered_term st (fst x)) e -> Forall (fun x => Forall (fun x => good_label (t_label x)) (tm_tens (fst x))) e -> exists s, expr_latex b st e sep = Ok s.
Proof.
  intros T G. destruct e as [|x e]; [exists []; reflexivity|]. inversion T as [|? ? T1 T2]; inversion G as [|? ? G1 G2]; subst. cbn [expr_latex]. destruct (entry_def b true x T1 G1) as (s & ->). cbn [bind].
  destruct (mapM_total (entry_latex b st false) e) as (l & ->); [|eexists; reflexivity]. rewrite Forall_forall in *. intros y I. apply entry_def; auto.
Qed.
Theorem expr_throw b e sep : Forall (fun x => registered_term st (fst x)) e -> Exists (fun x => Exists (fun x => ~ good_label (t_label x)) (tm_tens (fst x))) e -> expr_latex b st e sep = Throw.
Proof.
  intros T G. destruct e as [|x e]; [inversion G|]. inversion T as [|? ? T1 T2]; subst. cbn [expr_latex]. destruct (term_outcome _ T1) as [(s & E)|(E & _)]; [|unfold entry_latex; rewrite E; reflexivity].
  assert (E' : entry_latex b st true x = Ok (rat_latex b (snd x) true ++ lit " " ++ s)) by (unfold entry_latex; rewrite E; reflexivity). rewrite E'. cbn [bind].
  rewrite mapM_throw; [reflexivity| |].
  - rewrite Forall_forall in T2. intros y I. apply entry_outcome. auto.
  - apply Exists_exists in G. destruct G as (y & [->|I] & G); [rewrite (term_throw _ T1 G) in E; discriminate|]. exists y. split; [auto|]. unfold entry_latex. rewrite Forall_forall in T2. rewrite (term_throw _ (T2 _ I) G). reflexivity.
Qed.
End Def.

(** ** Equal output *)
Lemma sqop_eqb_refl q : sqop_eqb q q = true.
Proof. unfold sqop_eqb. rewrite index_eqb_refl. destruct (s_cre q); reflexivity. Qed.
Theorem latex_faithful st sep b1 b2 e1 e2 s : reachable st -> readable_names st -> line_sep sep ->
  Forall (fun x => canonical (snd x) /\ num (snd x) <> 0) e1 -> Forall (fun x => canonical (snd x) /\ num (snd x) <> 0) e2 ->
  expr_latex b1 st e1 sep = Ok s -> expr_latex b2 st e2 sep = Ok s -> exists e', Forall2 shown_entry e1 e' /\ Forall2 shown_entry e2 e'.
Proof.
  intros R N L F1 F2 H1 H2. apply expr_latex_reads in H1, H2; auto. destruct H1 as (e & S1 & R1), H2 as (e' & S2 & R2). rewrite (expr_unique st R N sep s e e' L R1 R2) in S1. eauto.
Qed.
Lemma alpha_digit_split (x y d e : text) : all_of is_alpha x -> all_of is_alpha y -> all_of is_digit d -> all_of is_digit e -> x ++ d = y ++ e -> x = y /\ d = e.
Proof.
  revert y. induction x as [|c x IH]; intros y Ax Ay Ad Ae E.
  - destruct y as [|c y]; [auto|]. exfalso. cbn in E. subst d. inversion Ay as [|? ? A _]; inversion Ad as [|? ? D _]. rewrite digit_not_alpha in A; [discriminate|auto].
  - destruct y as [|c' y].
    + exfalso. cbn in E. subst e. inversion Ax as [|? ? A _]; inversion Ae as [|? ? D _]. rewrite digit_not_alpha in A; [discriminate|auto].
    + cbn in E. injection E as <- E. inversion Ax; inversion Ay; subst. destruct (IH y) as (-> & ->); auto.
Qed.
Lemma shown_same t1 t2 t : telling_label t1 -> telling_label t2 -> shown_tensor t1 t -> shown_tensor t2 t -> tensor_eqb t1 t2 = true.
Proof.
  intros (x1 & d1 & E1 & N1 & A1 & D1 & G1) (x2 & d2 & E2 & N2 & A2 & D2 & G2) S1 S2. destruct S1 as [t1 l1 L1]. remember (mkT l1 (t_lower t1) (t_upper t1) Nonsymmetric false) as y eqn:Ey. destruct S2 as [t2 l2 L2]. injection Ey as -> El Eu.
  assert (K : forall x d l, all_of is_alpha x -> all_of is_digit d -> shown_label (x ++ d) l -> l = x ++ (if is_greek x then [] else d)).
  { clear. intros x d l A D S. inversion S as [s u e Ns As Hu Ae E E']. subst l. destruct Hu as [->| ->].
    - cbn [app] in E. apply alpha_digit_split in E; auto. destruct E as (-> & ->). reflexivity.
    - exfalso. assert (I : In "_"%char (x ++ d)) by (rewrite <- E; apply in_or_app; right; left; reflexivity). apply in_app_or in I. unfold all_of in *. rewrite Forall_forall in A, D. destruct I as [I|I]; [apply A in I|apply D in I]; discriminate. }
  rewrite E1 in L1. rewrite E2 in L2. apply K in L1, L2; auto. rewrite L1 in L2. clear K.
  assert (Q : x1 = x2 /\ (if is_greek x1 then [] else d1) = (if is_greek x2 then [] else d2)). { apply alpha_digit_split; auto; [destruct (is_greek x1)|destruct (is_greek x2)]; auto; constructor. }
  destruct Q as (-> & Q). unfold tensor_eqb. rewrite E1, E2. assert (d1 = d2) as ->. { destruct (is_greek x2); [|auto]. rewrite G1, G2; auto. congruence. }
  rewrite El, Eu. rewrite list_eqb_refl by apply index_eqb_refl. rewrite list_eqb_refl by apply index_eqb_refl. unfold text_eqb. destruct (list_eq_dec _ _); [reflexivity|congruence].
Qed.
Theorem latex_equal st sep b1 b2 e1 e2 s : reachable st -> readable_names st -> line_sep sep ->
  Forall (fun x => canonical (snd x) /\ num (snd x) <> 0 /\ Forall telling_label (tm_tens (fst x))) e1 ->
  Forall (fun x => canonical (snd x) /\ num (snd x) <> 0 /\ Forall telling_label (tm_tens (fst x))) e2 ->
  expr_latex b1 st e1 sep = Ok s -> expr_latex b2 st e2 sep = Ok s -> mequal term_eqb e1 e2 = true.
Proof.
  intros R N L F1 F2 H1 H2. destruct (latex_faithful st sep b1 b2 e1 e2 s) as (e & S1 & S2); auto.
  { eapply Forall_impl; [|exact F1]. intros x (A & B & _). auto. } { eapply Forall_impl; [|exact F2]. intros x (A & B & _). auto. }
  clear H1 H2. unfold mequal. revert e2 F2 S2. induction S1 as [|[t1 c1] [t c] e1 e H1 S1 IH]; intros e2 F2 S2; inversion S2 as [|[t2 c2] ? e2' ? H2 S2']; subst; [reflexivity|].
  cbn [list_eqb]. inversion F1 as [|? ? (C1 & Z1 & G1) F1']; inversion F2 as [|? ? (C2 & Z2 & G2) F2']; subst. rewrite IH by auto. rewrite andb_true_r. cbn [fst snd] in *.
  inversion H1 as [? ? ? T1]; inversion H2 as [? ? ? T2]; subst. apply andb_true_intro. split; [|unfold rat_eqb; rewrite !Z.eqb_refl; destruct (_ && _); reflexivity].
  clear H1 H2 IH S2 F1 F2. destruct T1 as [t1 ts1 X1]. remember (mkTerm (tm_no t1 && negb (length (tm_ops t1) =? 0)%nat) (tm_ops t1) ts1) as y eqn:Ey. destruct T2 as [t2 ts2 X2]. injection Ey as _ Eo ->. unfold term_eqb. rewrite Eo. rewrite (list_eqb_refl sqop_eqb) by apply sqop_eqb_refl. rewrite andb_true_r.
  clear - G1 G2 X1 X2. revert X1 G1. generalize (tm_tens t1). revert X2 G2. generalize (tm_tens t2). intros l2 X2. induction X2 as [|x2 y l2 ts H2 X2 IH]; intros G2 l1 X1 G1; inversion X1 as [|x1 ? l1' ? H1 X1']; subst; [reflexivity|].
  inversion G1; inversion G2; subst. cbn [list_eqb]. rewrite (shown_same x1 x2 y) by auto. apply IH; auto.
Qed.
