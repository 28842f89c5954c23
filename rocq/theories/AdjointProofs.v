(** Adjoints of terms, expressions, operators and operator expressions. *)
From Coq Require Import ZArith QArith List Bool Ascii Lia Permutation Sorted.
From Verif Require Import Res PartitionsModel RegistryModel RegistryProofs CoreModel OrderProofs
  RationalModel RationalSpec RationalProofs AlgebraModel AlgebraSpec AlgebraProofs AlgebraProofs2 AlgebraCases
  OperatorModel OperatorSpec OperatorProofs OperatorProofs2 AdjointModel.
Import ListNotations.

(** ** Renaming the keys of a linear combination *)
Section Rekey.
  Context {K : Type} (lt eqb : K -> K -> bool) (W : swo lt eqb).

  Lemma sorted_perm_eq (a b : emap K) : msorted lt a -> msorted lt b -> Permutation a b -> a = b.
  Proof.
    unfold msorted. revert b. induction a as [|x a IH]; intros b Sa Sb P; [apply Permutation_nil in P; auto|].
    destruct b as [|y b]; [apply Permutation_sym, Permutation_nil in P; discriminate|].
    inversion Sa as [|? ? Sa' Fa]; inversion Sb as [|? ? Sb' Fb]; subst. rewrite Forall_forall in Fa, Fb.
    assert (E : x = y).
    { assert (Ix : In x (y :: b)) by (apply (Permutation_in _ P); left; reflexivity).
      assert (Iy : In y (x :: a)) by (apply (Permutation_in _ (Permutation_sym P)); left; reflexivity).
      destruct Ix as [Ix|Ix]; [auto|]. destruct Iy as [Iy|Iy]; [auto|].
      specialize (Fb _ Ix). specialize (Fa _ Iy). rewrite (swo_asym _ _ W _ _ Fa) in Fb. discriminate. }
    subst y. f_equal. apply IH; auto. eapply Permutation_cons_inv; exact P.
  Qed.

  Lemma sorted_distinct (m : emap K) : msorted lt m -> ForallOrdPairs (fun x y => eqb (fst x) (fst y) = false) m.
  Proof.
    unfold msorted. induction m as [|x m IH]; intros S; [constructor|]. inversion S as [|? ? S' F]; subst. constructor; [|auto].
    eapply Forall_impl; [|exact F]. intros y L. simpl in L. destruct (swo_cases _ _ W (fst x) (fst y)) as [X|[X|X]]; try tauto.
    destruct X as (X & _). congruence.
  Qed.

  Lemma addall_perm {X} (fk : X -> K) (fc : X -> rational) l m :
    ForallOrdPairs (fun x y => eqb (fk x) (fk y) = false) l -> Forall (fun x => rat_is0 (fc x) = false) l ->
    (forall x y, In x l -> In y m -> eqb (fst y) (fk x) = false) ->
    Permutation (fold_left (fun r x => madd lt (fk x) (fc x) r) l m) (map (fun x => (fk x, fc x)) l ++ m).
  Proof.
    revert m. induction l as [|x l IH]; intros m D Z N; [reflexivity|]. cbn [fold_left map app].
    inversion D as [|? ? Dx D']; inversion Z as [|? ? Zx Z']; subst.
    assert (P : Permutation (madd lt (fk x) (fc x) m) ((fk x, fc x) :: m)).
    { destruct (madd_cases lt eqb W (fk x) (fc x) m) as [[H _]|[[_ (m1 & m2 & -> & ->)]|[_ (m1 & k1 & c1 & m2 & -> & H & _)]]].
      - congruence.
      - symmetry. apply Permutation_middle.
      - exfalso. rewrite <- not_false_iff_true in H. apply H. apply (N x (k1, c1)); [left; reflexivity|]. apply in_or_app. right. left. reflexivity. }
    rewrite IH; [rewrite P; symmetry; apply Permutation_middle|exact D'|exact Z'|].
    intros x' y Hx' Hy. apply (Permutation_in _ P) in Hy. destruct Hy as [<-|Hy]; [|apply N; [right|]; assumption].
    simpl. rewrite Forall_forall in Dx. apply Dx. exact Hx'.
  Qed.

  Context (f : K -> K).
  Definition rekey (m : emap K) : emap K := fold_left (fun r x => madd lt (f (fst x)) (snd x) r) m [].

  (** [f] injective on the keys of interest, up to [==]. *)
  Lemma rekey_perm (P : K -> Prop) m : (forall k k', P k -> P k' -> eqb (f k) (f k') = eqb k k') -> keysP P m -> wf lt m ->
    Permutation (rekey m) (map (fun x => (f (fst x), snd x)) m).
  Proof.
    intros I KP (S & C & N). unfold rekey. rewrite (addall_perm (fun x => f (fst x)) snd m []).
    - rewrite app_nil_r. reflexivity.
    - apply sorted_distinct in S. unfold keysP in KP. clear C N. induction S as [|x m F S IH]; [constructor|].
      inversion KP as [|? ? Px KP']; subst. constructor; [|auto]. rewrite Forall_forall in *.
      intros y Hy. rewrite I; auto.
    - unfold mcanon, mnz in *. rewrite Forall_forall in *. intros x Hx. apply rat_is0_val_f; [apply canonical_den; auto|auto].
    - intros x y _ [].
  Qed.
  Lemma rekey_wf m : mcanon m -> wf lt (rekey m).
  Proof. intros C. unfold rekey. apply (wf_addall lt eqb W); [exact C|apply wf_nil]. Qed.
  Lemma rekey_keys (P : K -> Prop) m : (forall k, P k -> P (f k)) -> keysP P m -> keysP P (rekey m).
  Proof.
    intros I KP. unfold rekey. apply (keysP_addall lt P (fun x => f (fst x)) snd); [|constructor].
    unfold keysP in KP. rewrite Forall_forall in *. auto.
  Qed.
  Lemma rekey_invol (P : K -> Prop) m : (forall k k', P k -> P k' -> eqb (f k) (f k') = eqb k k') -> (forall k, P k -> P (f k)) ->
    (forall k, P k -> f (f k) = k) -> keysP P m -> wf lt m -> rekey (rekey m) = m.
  Proof.
    intros I C J KP Wm. assert (Wr : wf lt (rekey m)) by (apply rekey_wf; apply Wm).
    assert (KR : keysP P (rekey m)) by (apply rekey_keys; assumption).
    apply sorted_perm_eq; [apply rekey_wf; apply Wr|apply Wm|].
    rewrite (rekey_perm P) by assumption. rewrite (Permutation_map _ (rekey_perm P m I KP Wm)). rewrite map_map. cbn [fst snd].
    rewrite (map_ext_in _ (fun x => x)); [rewrite map_id; reflexivity|].
    intros [k c] H. unfold keysP in KP. rewrite Forall_forall in KP. specialize (KP _ H). simpl in *. rewrite J by exact KP. reflexivity.
  Qed.
  Lemma rekey_lsum (P : K -> Prop) g m : respects eqb P g -> (forall k, P k -> P (f k)) -> keysP P m -> mcanon m ->
    lsum g (rekey m) == lsum (fun k => g (f k)) m.
  Proof.
    intros R I KP C. unfold rekey. rewrite (lsum_addall lt eqb W P (fun x => f (fst x)) snd).
    - simpl. unfold lsum. ring.
    - exact R.
    - unfold keysP in KP. rewrite Forall_forall in *. auto.
    - constructor.
    - apply mcanon_good. exact C.
    - constructor.
  Qed.
  Lemma rekey_coef (P : K -> Prop) m k : (forall k k', P k -> P k' -> eqb (f k) (f k') = eqb k k') -> (forall k, P k -> P (f k)) ->
    P k -> keysP P m -> mcanon m -> coef eqb (rekey m) (f k) == coef eqb m k.
  Proof.
    intros I C Pk KP Cm. unfold coef. rewrite (rekey_lsum P); [|apply (ind_respects lt eqb W)|exact C|exact KP|exact Cm].
    apply lsum_ext_in. intros x Hx. unfold keysP in KP. rewrite Forall_forall in KP. unfold ind. rewrite I; [reflexivity|auto|exact Pk].
  Qed.
End Rekey.

(** ** Terms and expressions *)
Lemma sqop_adjoint_invol a : sqop_adjoint (sqop_adjoint a) = a.
Proof. destruct a as [[] i]; reflexivity. Qed.
Lemma tensor_adjoint_invol t : tensor_adjoint (tensor_adjoint t) = t.
Proof. destruct t as [a b c d []]; reflexivity. Qed.
Lemma sqops_adjoint_app a b : sqops_adjoint (a ++ b) = sqops_adjoint b ++ sqops_adjoint a.
Proof. unfold sqops_adjoint. rewrite map_app, rev_app_distr. reflexivity. Qed.
Lemma sqops_adjoint_invol l : sqops_adjoint (sqops_adjoint l) = l.
Proof.
  unfold sqops_adjoint. rewrite map_rev, rev_involutive, map_map. rewrite (map_ext _ (fun x => x)); [apply map_id|]. apply sqop_adjoint_invol.
Qed.
Lemma term_adjoint_invol t : term_adjoint (term_adjoint t) = t.
Proof.
  destruct t as [n o T]. unfold term_adjoint. simpl. rewrite sqops_adjoint_invol, map_map.
  rewrite (map_ext _ (fun x => x)); [rewrite map_id; reflexivity|]. apply tensor_adjoint_invol.
Qed.
Lemma map_tkey_adjoint l : map tkey (map tensor_adjoint l) = map tkey l.
Proof. rewrite map_map. apply map_ext. intros []; reflexivity. Qed.
Lemma term_adjoint_eqb a b : term_eqb (term_adjoint a) (term_adjoint b) = term_eqb a b.
Proof.
  apply eq_true_iff_eq. rewrite !term_eqb_key. unfold term_adjoint. simpl. rewrite !map_tkey_adjoint.
  split; intros [H1 H2]; (split; [|exact H2]).
  - rewrite <- (sqops_adjoint_invol (tm_ops a)), <- (sqops_adjoint_invol (tm_ops b)), H1. reflexivity.
  - rewrite H1. reflexivity.
Qed.

Lemma expr_adjoint_invol e : wf term_ltb e -> wf term_ltb (expr_adjoint e) /\ expr_adjoint (expr_adjoint e) = e.
Proof.
  intros W. split; [apply (rekey_wf term_ltb term_eqb swo_term); apply W|].
  apply (rekey_invol term_ltb term_eqb swo_term term_adjoint (fun _ => True)); auto using keysP_True, term_adjoint_eqb, term_adjoint_invol.
Qed.
Lemma expr_adjoint_coef e t : wf term_ltb e -> (coef term_eqb (expr_adjoint e) (term_adjoint t) == coef term_eqb e t)%Q.
Proof.
  intros W. apply (rekey_coef term_ltb term_eqb swo_term term_adjoint (fun _ => True)); auto using keysP_True, term_adjoint_eqb; apply W.
Qed.

(** ** Operators *)
Definition opadj (st : osi) (o : oper) : oper := match op_adjoint st o with Ok o' => o' | _ => o end.
Definition prodadj (st : osi) (p : oprod) : oprod := rev (map (opadj st) p).

Lemma op_adjoint_spec st o : (nsp st <= max_spaces)%nat -> op_valid st o ->
  exists o', op_adjoint st o = Ok o' /\ op_valid st o' /\ op_adjoint st o' = Ok o /\ op_label o' = op_label o /\ op_num o' = op_num o /\
    forall s, (0 <= s < num_spaces st)%Z -> cre_of (op_gm o') s = ann_of (op_gm o) s /\ ann_of (op_gm o') s = cre_of (op_gm o) s.
Proof.
  intros Hn V. destruct (gm_adjoint_invol st (op_gm o) V Hn) as (h & E & Vh & E' & N & C).
  unfold op_adjoint. rewrite E. simpl. eexists; split; [reflexivity|]. split; [exact Vh|]. simpl. split.
  - rewrite E'. simpl. destruct o; reflexivity.
  - split; [reflexivity|]. split; [exact N|exact C].
Qed.
Lemma opadj_ok st o : (nsp st <= max_spaces)%nat -> op_valid st o -> op_adjoint st o = Ok (opadj st o) /\ op_valid st (opadj st o) /\ opadj st (opadj st o) = o.
Proof.
  intros Hn V. destruct (op_adjoint_spec st o Hn V) as (o' & E & V' & E' & _). unfold opadj. rewrite E. rewrite E'. auto.
Qed.
Lemma oprod_adjoint_ok st p : (nsp st <= max_spaces)%nat -> oprod_valid st p -> oprod_adjoint st p = Ok (prodadj st p) /\ oprod_valid st (prodadj st p).
Proof.
  intros Hn V. unfold oprod_adjoint, prodadj, oprod_valid in *. assert (E : mapM (op_adjoint st) p = Ok (map (opadj st) p)).
  { induction V as [|o p V Vp IH]; [reflexivity|]. simpl. destruct (opadj_ok st o Hn V) as (-> & _). simpl. rewrite IH. reflexivity. }
  rewrite E. simpl. split; [reflexivity|]. rewrite Forall_forall in *. intros o Ho. apply in_rev in Ho. apply in_map_iff in Ho as (o' & <- & Ho').
  apply opadj_ok; auto.
Qed.
Lemma prodadj_invol st p : (nsp st <= max_spaces)%nat -> oprod_valid st p -> prodadj st (prodadj st p) = p.
Proof.
  intros Hn V. unfold prodadj. rewrite map_rev, rev_involutive, map_map.
  rewrite (map_ext_in _ (fun x => x)); [apply map_id|]. intros o Ho. unfold oprod_valid in V. rewrite Forall_forall in V. apply opadj_ok; auto.
Qed.
Lemma prodadj_app st a b : prodadj st (a ++ b) = prodadj st b ++ prodadj st a.
Proof. unfold prodadj. rewrite map_app, rev_app_distr. reflexivity. Qed.
Lemma oprod_adjoint_app st a b a' b' : oprod_adjoint st a = Ok a' -> oprod_adjoint st b = Ok b' -> oprod_adjoint st (a ++ b) = Ok (b' ++ a').
Proof.
  unfold oprod_adjoint. intros Ha Hb. apply bind_Ok in Ha as (x & Ex & Hx). apply bind_Ok in Hb as (y & Ey & Hy). injection Hx as <-. injection Hy as <-.
  assert (E : mapM (op_adjoint st) (a ++ b) = Ok (x ++ y)).
  { revert x Ex. induction a as [|o a IH]; intros x Ex; simpl in *; [injection Ex as <-; exact Ey|].
    destruct (op_adjoint st o); simpl in *; try discriminate. destruct (mapM (op_adjoint st) a) as [z| | |]; simpl in *; try discriminate.
    injection Ex as <-. rewrite (IH z eq_refl). reflexivity. }
  rewrite E. simpl. rewrite rev_app_distr. reflexivity.
Qed.

(** ** Operator expressions *)
Lemma opexpr_adjoint_ok st e : (nsp st <= max_spaces)%nat -> opexpr_valid st e -> opexpr_adjoint st e = Ok (rekey oprod_ltb (prodadj st) e).
Proof.
  intros Hn V. unfold opexpr_adjoint, rekey. generalize (@nil (oprod * rational)) as m. unfold opexpr_valid, keysP in V.
  induction V as [|[p c] e Vp V IH]; intros m; [reflexivity|]. cbn [foldM fold_left fst snd].
  rewrite (proj1 (oprod_adjoint_ok st p Hn Vp)). cbn [bind]. apply IH.
Qed.
Lemma prodadj_eqb st a b : (nsp st <= max_spaces)%nat -> oprod_valid st a -> oprod_valid st b ->
  oprod_eqb (prodadj st a) (prodadj st b) = oprod_eqb a b.
Proof.
  intros Hn Va Vb. apply eq_true_iff_eq. rewrite !oprod_eqb_eq. split; [|intros ->; reflexivity]. intros H.
  rewrite <- (prodadj_invol st a Hn Va), <- (prodadj_invol st b Hn Vb), H. reflexivity.
Qed.

Lemma opexpr_adjoint_invol st e : (nsp st <= max_spaces)%nat -> opexpr_valid st e -> wf oprod_ltb e ->
  exists e', opexpr_adjoint st e = Ok e' /\ wf oprod_ltb e' /\ opexpr_valid st e' /\ opexpr_adjoint st e' = Ok e /\
    forall p p', oprod_valid st p -> oprod_adjoint st p = Ok p' -> (coef oprod_eqb e' p' == coef oprod_eqb e p)%Q.
Proof.
  intros Hn V W. exists (rekey oprod_ltb (prodadj st) e).
  assert (C : forall k, oprod_valid st k -> oprod_valid st (prodadj st k)) by (intros k Hk; apply oprod_adjoint_ok; auto).
  assert (V' : opexpr_valid st (rekey oprod_ltb (prodadj st) e)) by (apply rekey_keys; auto).
  split; [apply opexpr_adjoint_ok; auto|]. split; [apply (rekey_wf oprod_ltb oprod_eqb swo_oprod); apply W|]. split; [exact V'|]. split.
  - rewrite opexpr_adjoint_ok by auto. f_equal.
    apply (rekey_invol oprod_ltb oprod_eqb swo_oprod (prodadj st) (oprod_valid st)); auto using prodadj_eqb, prodadj_invol.
  - intros p p' Vp E. rewrite (proj1 (oprod_adjoint_ok st p Hn Vp)) in E. injection E as <-.
    apply (rekey_coef oprod_ltb oprod_eqb swo_oprod (prodadj st) (oprod_valid st)); auto using prodadj_eqb. apply W.
Qed.

Lemma opexpr_valid_prod st a b r : opexpr_valid st a -> opexpr_valid st b -> mprod oprod_ltb oprod_mul a b = Ok r -> mgood a -> mgood b -> opexpr_valid st r.
Proof.
  intros Va Vb E Ga Gb. eapply (lsum_mprod oprod_ltb oprod_eqb swo_oprod (oprod_valid st) oprod_mul a b r); auto.
  intros x y k Hx Hy [= <-]. unfold opexpr_valid, keysP in *. rewrite Forall_forall in *. apply Forall_app. split; [apply Va|apply Vb]; assumption.
Qed.

Lemma opexpr_adjoint_prod st a b : (nsp st <= max_spaces)%nat -> opexpr_valid st a -> opexpr_valid st b -> wf oprod_ltb a -> wf oprod_ltb b ->
  exists ab a' b' l r, mprod oprod_ltb oprod_mul a b = Ok ab /\ opexpr_adjoint st a = Ok a' /\ opexpr_adjoint st b = Ok b' /\
    opexpr_adjoint st ab = Ok l /\ mprod oprod_ltb oprod_mul b' a' = Ok r /\ mequal oprod_eqb l r = true.
Proof.
  intros Hn Va Vb Wa Wb.
  destruct (mprod_spec oprod_ltb oprod_eqb swo_oprod (fun _ => True) oprod_mul oprod_mul_ok a b Wa Wb (keysP_True a) (keysP_True b)) as (ab & Eab & Wab & _ & Lab).
  assert (Vab : opexpr_valid st ab) by (apply (opexpr_valid_prod st a b ab Va Vb Eab); apply mcanon_good; [apply Wa|apply Wb]).
  set (a' := rekey oprod_ltb (prodadj st) a). set (b' := rekey oprod_ltb (prodadj st) b).
  assert (Wa' : wf oprod_ltb a') by (apply (rekey_wf oprod_ltb oprod_eqb swo_oprod); apply Wa).
  assert (Wb' : wf oprod_ltb b') by (apply (rekey_wf oprod_ltb oprod_eqb swo_oprod); apply Wb).
  destruct (mprod_spec oprod_ltb oprod_eqb swo_oprod (fun _ => True) oprod_mul oprod_mul_ok b' a' Wb' Wa' (keysP_True b') (keysP_True a')) as (r & Er & Wr & _ & Lr).
  exists ab, a', b', (rekey oprod_ltb (prodadj st) ab), r.
  split; [exact Eab|]. split; [apply opexpr_adjoint_ok; auto|]. split; [apply opexpr_adjoint_ok; auto|]. split; [apply opexpr_adjoint_ok; auto|].
  split; [exact Er|]. apply (mequal_coef oprod_ltb oprod_eqb swo_oprod); [apply (rekey_wf oprod_ltb oprod_eqb swo_oprod); apply Wab|exact Wr|].
  intros k. unfold coef. assert (RS : forall g, respects oprod_eqb (fun _ => True) g) by (intros g; apply respects_eq; exact oprod_eq).
  rewrite (rekey_lsum oprod_ltb oprod_eqb swo_oprod (prodadj st) (fun _ => True)); auto using keysP_True; [|apply Wab].
  rewrite Lab, Lr by apply RS. unfold a', b'.
  rewrite (rekey_lsum oprod_ltb oprod_eqb swo_oprod (prodadj st) (fun _ => True)); auto using keysP_True; [|apply Wb].
  rewrite (fubini (mulg oprod_mul (fun k0 => ind oprod_eqb k (prodadj st k0)))).
  apply lsum_ext_in. intros y Hy.
  rewrite (rekey_lsum oprod_ltb oprod_eqb swo_oprod (prodadj st) (fun _ => True)); auto using keysP_True; [|apply Wa].
  apply lsum_ext_in. intros x Hx. unfold mulg, oprod_mul. rewrite prodadj_app. reflexivity.
Qed.
Lemma opexpr_adjoint_plus st a b : (nsp st <= max_spaces)%nat -> opexpr_valid st a -> opexpr_valid st b -> wf oprod_ltb a -> wf oprod_ltb b ->
  exists a' b' l, opexpr_adjoint st a = Ok a' /\ opexpr_adjoint st b = Ok b' /\
    opexpr_adjoint st (mplus oprod_ltb a b) = Ok l /\ mequal oprod_eqb l (mplus oprod_ltb a' b') = true.
Proof.
  intros Hn Va Vb Wa Wb.
  set (a' := rekey oprod_ltb (prodadj st) a). set (b' := rekey oprod_ltb (prodadj st) b).
  assert (Wa' : wf oprod_ltb a') by (apply (rekey_wf oprod_ltb oprod_eqb swo_oprod); apply Wa).
  assert (Wb' : wf oprod_ltb b') by (apply (rekey_wf oprod_ltb oprod_eqb swo_oprod); apply Wb).
  assert (Wab : wf oprod_ltb (mplus oprod_ltb a b)) by (apply (wf_mplus oprod_ltb oprod_eqb swo_oprod); [exact Wa|apply Wb]).
  assert (RS : forall g, respects oprod_eqb (fun _ => True) g) by (intros g; apply respects_eq; exact oprod_eq).
  exists a', b', (rekey oprod_ltb (prodadj st) (mplus oprod_ltb a b)).
  split; [apply opexpr_adjoint_ok; auto|]. split; [apply opexpr_adjoint_ok; auto|]. split; [apply opexpr_adjoint_ok; auto; apply (keysP_mplus oprod_ltb (oprod_valid st)); auto|].
  apply (mequal_coef oprod_ltb oprod_eqb swo_oprod); [apply (rekey_wf oprod_ltb oprod_eqb swo_oprod); apply Wab|apply (wf_mplus oprod_ltb oprod_eqb swo_oprod); [exact Wa'|apply Wb']|].
  intros k. unfold coef.
  rewrite (rekey_lsum oprod_ltb oprod_eqb swo_oprod (prodadj st) (fun _ => True)); auto using keysP_True; [|apply Wab].
  rewrite !(lsum_mplus oprod_ltb oprod_eqb swo_oprod (fun _ => True)); auto using keysP_True; try (apply mcanon_good; (apply Wa || apply Wb || apply Wa' || apply Wb')).
  unfold a', b'. rewrite !(rekey_lsum oprod_ltb oprod_eqb swo_oprod (prodadj st) (fun _ => True)); auto using keysP_True; try (apply Wa || apply Wb).
  reflexivity.
Qed.
Lemma expr_adjoint_plus a b : wf term_ltb a -> wf term_ltb b ->
  mequal term_eqb (expr_adjoint (mplus term_ltb a b)) (mplus term_ltb (expr_adjoint a) (expr_adjoint b)) = true.
Proof.
  intros Wa Wb. change expr_adjoint with (rekey term_ltb term_adjoint).
  assert (Wa' : wf term_ltb (rekey term_ltb term_adjoint a)) by (apply (rekey_wf term_ltb term_eqb swo_term); apply Wa).
  assert (Wb' : wf term_ltb (rekey term_ltb term_adjoint b)) by (apply (rekey_wf term_ltb term_eqb swo_term); apply Wb).
  assert (Wab : wf term_ltb (mplus term_ltb a b)) by (apply (wf_mplus term_ltb term_eqb swo_term); [exact Wa|apply Wb]).
  apply (mequal_coef term_ltb term_eqb swo_term); [apply (rekey_wf term_ltb term_eqb swo_term); apply Wab|apply (wf_mplus term_ltb term_eqb swo_term); [exact Wa'|apply Wb']|].
  intros k. unfold coef. assert (R0 := ind_respects term_ltb term_eqb swo_term (fun _ => True) k).
  assert (R : respects term_eqb (fun _ => True) (fun x => ind term_eqb k (term_adjoint x))).
  { intros x y _ _ E. apply R0; auto. rewrite term_adjoint_eqb. exact E. }
  rewrite (rekey_lsum term_ltb term_eqb swo_term term_adjoint (fun _ => True)); auto using keysP_True; [|apply Wab].
  rewrite !(lsum_mplus term_ltb term_eqb swo_term (fun _ => True)); auto using keysP_True; try (apply mcanon_good; (apply Wa || apply Wb || apply Wa' || apply Wb')).
  rewrite !(rekey_lsum term_ltb term_eqb swo_term term_adjoint (fun _ => True)); auto using keysP_True; try (apply Wa || apply Wb).
  reflexivity.
Qed.
