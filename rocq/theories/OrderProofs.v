(** The comparison operators are strict weak orderings whose incomparability is [==]. *)
From Coq Require Import ZArith List Bool Ascii NArith Lia.
From Verif Require Import RegistryModel RegistryProofs CoreModel.
Import ListNotations.
Local Open Scope Z_scope.

(** Specification: what [std::map] and [std::sort] require of [<], plus agreement with [==]. *)
Record swo {A} (lt eqb : A -> A -> bool) : Prop := {
  swo_irrefl : forall a, lt a a = false;
  swo_trans : forall a b c, lt a b = true -> lt b c = true -> lt a c = true;
  swo_inc_trans : forall a b c, lt a b = false -> lt b a = false -> lt b c = false -> lt c b = false ->
      lt a c = false /\ lt c a = false;
  swo_eq : forall a b, eqb a b = true <-> lt a b = false /\ lt b a = false }.

Section SWO.
  Context {A : Type} (lt eqb : A -> A -> bool) (H : swo lt eqb).
  Lemma swo_asym a b : lt a b = true -> lt b a = false.
  Proof.
    intros L. destruct (lt b a) eqn:E; [|reflexivity].
    assert (X := swo_trans _ _ H _ _ _ L E). rewrite (swo_irrefl _ _ H) in X. discriminate.
  Qed.
  Lemma swo_eqrefl a : eqb a a = true.
  Proof. apply (swo_eq _ _ H). rewrite (swo_irrefl _ _ H). auto. Qed.
  Lemma swo_eqsym a b : eqb a b = true -> eqb b a = true.
  Proof. rewrite !(swo_eq _ _ H). tauto. Qed.
  Lemma swo_eqtrans a b c : eqb a b = true -> eqb b c = true -> eqb a c = true.
  Proof. rewrite !(swo_eq _ _ H). intros [? ?] [? ?]. eapply swo_inc_trans; eauto. Qed.
  Lemma swo_lt_eq a b c : lt a b = true -> eqb b c = true -> lt a c = true.
  Proof.
    intros L E. destruct (lt a c) eqn:E1; [reflexivity|].
    destruct (lt c a) eqn:E2.
    - assert (X := swo_trans _ _ H _ _ _ E2 L). apply (swo_eq _ _ H) in E. destruct E. congruence.
    - assert (eqb a c = true) by (apply (swo_eq _ _ H); auto).
      assert (X : eqb a b = true) by (eapply swo_eqtrans; [eassumption|]; now apply swo_eqsym).
      apply (swo_eq _ _ H) in X. destruct X. congruence.
  Qed.
  Lemma swo_eq_lt a b c : eqb a b = true -> lt b c = true -> lt a c = true.
  Proof.
    intros E L. destruct (lt a c) eqn:E1; [reflexivity|].
    destruct (lt c a) eqn:E2.
    - assert (X := swo_trans _ _ H _ _ _ L E2). apply (swo_eq _ _ H) in E. destruct E. congruence.
    - assert (eqb a c = true) by (apply (swo_eq _ _ H); auto).
      assert (X : eqb b c = true) by (eapply swo_eqtrans; [|eassumption]; now apply swo_eqsym).
      apply (swo_eq _ _ H) in X. destruct X. congruence.
  Qed.
  Lemma swo_eq_congr a b c : eqb a b = true -> lt a c = lt b c.
  Proof.
    intros E. destruct (lt a c) eqn:E1; symmetry.
    - eapply swo_eq_lt; [apply swo_eqsym; eassumption|assumption].
    - destruct (lt b c) eqn:E2; [|reflexivity]. rewrite (swo_eq_lt a b c E E2) in E1. discriminate.
  Qed.
  Lemma swo_eq_congr_r a b c : eqb a b = true -> lt c a = lt c b.
  Proof.
    intros E. destruct (lt c a) eqn:E1; symmetry.
    - eapply swo_lt_eq; eassumption.
    - destruct (lt c b) eqn:E2; [|reflexivity].
      assert (X := swo_lt_eq c b a E2 (swo_eqsym _ _ E)). congruence.
  Qed.
  Lemma swo_cases a b : (lt a b = true /\ lt b a = false /\ eqb a b = false) \/
     (lt a b = false /\ lt b a = true /\ eqb a b = false) \/ (lt a b = false /\ lt b a = false /\ eqb a b = true).
  Proof.
    destruct (lt a b) eqn:E1.
    - assert (E2 := swo_asym _ _ E1). left. repeat split; auto.
      destruct (eqb a b) eqn:E; [|reflexivity]. apply (swo_eq _ _ H) in E. destruct E. congruence.
    - destruct (lt b a) eqn:E2.
      + right; left. repeat split; auto.
        destruct (eqb a b) eqn:E; [|reflexivity]. apply (swo_eq _ _ H) in E. destruct E. congruence.
      + right; right. repeat split; auto. apply (swo_eq _ _ H); auto.
  Qed.
End SWO.

(** Lexicographic product through two projections. *)
Lemma swo_lex2 {A B C} (f : A -> B) (g : A -> C) lt1 eq1 lt2 eq2 lt eqb :
  swo lt1 eq1 -> swo lt2 eq2 ->
  (forall a b, lt a b = if lt1 (f a) (f b) then true else if lt1 (f b) (f a) then false else lt2 (g a) (g b)) ->
  (forall a b, eqb a b = eq1 (f a) (f b) && eq2 (g a) (g b)) -> swo lt eqb.
Proof.
  intros H1 H2 El Ee.
  assert (Lt : forall a b, lt a b = true <-> lt1 (f a) (f b) = true \/ (eq1 (f a) (f b) = true /\ lt2 (g a) (g b) = true)).
  { intros a b. rewrite El. destruct (swo_cases _ _ H1 (f a) (f b)) as [(A1&A2&A3)|[(A1&A2&A3)|(A1&A2&A3)]]; rewrite A1, ?A2, ?A3; intuition congruence. }
  assert (Eq : forall a b, eqb a b = true <-> lt a b = false /\ lt b a = false).
  { intros a b. rewrite Ee, andb_true_iff, !El.
    destruct (swo_cases _ _ H1 (f a) (f b)) as [(A1&A2&A3)|[(A1&A2&A3)|(A1&A2&A3)]]; rewrite A1, ?A2, ?A3; [intuition congruence..|].
    rewrite (swo_eq _ _ H2). tauto. }
  split.
  - intros a. rewrite El, (swo_irrefl _ _ H1). apply (swo_irrefl _ _ H2).
  - intros a b c. rewrite !Lt. intros [L|[E L]] [L'|[E' L']].
    + left. eapply (swo_trans _ _ H1); eauto.
    + left. eapply (swo_lt_eq _ _ H1); eauto.
    + left. eapply (swo_eq_lt _ _ H1); eauto.
    + right. split; [eapply (swo_eqtrans _ _ H1)|eapply (swo_trans _ _ H2)]; eauto.
  - intros a b c A1 A2 A3 A4. apply Eq. 
    assert (E1 : eqb a b = true) by (apply Eq; auto). assert (E2 : eqb b c = true) by (apply Eq; auto).
    rewrite Ee, andb_true_iff in *. destruct E1, E2. split; [eapply (swo_eqtrans _ _ H1)|eapply (swo_eqtrans _ _ H2)]; eauto.
  - exact Eq.
Qed.

Lemma swo_ext {A} (lt lt' eqb eqb' : A -> A -> bool) : swo lt eqb ->
  (forall a b, lt' a b = lt a b) -> (forall a b, eqb' a b = eqb a b) -> swo lt' eqb'.
Proof.
  intros [I T N E] L Q. split; intros.
  - rewrite L. apply I.
  - rewrite !L in *. eauto.
  - rewrite !L in *. eauto.
  - rewrite Q, !L. apply E.
Qed.

Lemma swo_inv {A B} (f : A -> B) lt eqb : swo lt eqb ->
  swo (fun a b => lt (f a) (f b)) (fun a b => eqb (f a) (f b)).
Proof. intros [I T N E]. split; intros; eauto. Qed.

Lemma swo_rev {A} (lt eqb : A -> A -> bool) : swo lt eqb -> swo (fun a b => lt b a) eqb.
Proof.
  intros [I T N E]. split.
  - intros a. apply I.
  - intros a b c L1 L2. eauto.
  - intros a b c N1 N2 N3 N4. destruct (N a b c); auto.
  - intros a b. rewrite E. tauto.
Qed.

Lemma swo_Z : swo Z.ltb Z.eqb.
Proof.
  split; intros.
  - apply Z.ltb_irrefl.
  - rewrite Z.ltb_lt in *. lia.
  - rewrite !Z.ltb_ge in *. lia.
  - rewrite !Z.ltb_ge, Z.eqb_eq. lia.
Qed.

Lemma swo_list {A} (lt eqb : A -> A -> bool) : swo lt eqb -> swo (lexb lt) (list_eqb eqb).
Proof.
  intros H.
  assert (Lt : forall l1 l2, lexb lt l1 l2 = true <-> 
     match l1, l2 with [], _ :: _ => True | a :: l1', b :: l2' => lt a b = true \/ (eqb a b = true /\ lexb lt l1' l2' = true) | _, _ => False end).
  { intros [|a l1] [|b l2]; simpl; try (split; congruence || tauto).
    destruct (swo_cases _ _ H a b) as [(A1&A2&A3)|[(A1&A2&A3)|(A1&A2&A3)]]; rewrite A1, ?A2, ?A3; intuition congruence. }
  assert (Eq : forall l1 l2, list_eqb eqb l1 l2 = true <-> lexb lt l1 l2 = false /\ lexb lt l2 l1 = false).
  { induction l1 as [|a l1 IH]; intros [|b l2]; simpl; try (split; [congruence|intros [? ?]; congruence]); [tauto|].
    rewrite andb_true_iff, IH.
    destruct (swo_cases _ _ H a b) as [(A1&A2&A3)|[(A1&A2&A3)|(A1&A2&A3)]]; rewrite A1, ?A2, ?A3; intuition congruence. }
  split.
  - induction a as [|a l IH]; simpl; [reflexivity|]. now rewrite (swo_irrefl _ _ H).
  - induction a as [|a l1 IH]; intros [|b l2] [|c l3] X Y; apply Lt in X; apply Lt in Y; apply Lt; try tauto.
    destruct X as [L|[E L]], Y as [L'|[E' L']].
    + left. eapply (swo_trans _ _ H); eauto.
    + left. eapply (swo_lt_eq _ _ H); eauto.
    + left. eapply (swo_eq_lt _ _ H); eauto.
    + right. split; [eapply (swo_eqtrans _ _ H); eauto|]. eapply IH; eauto.
  - intros a b c A1 A2 A3 A4. apply Eq.
    assert (E1 : list_eqb eqb a b = true) by (apply Eq; auto). assert (E2 : list_eqb eqb b c = true) by (apply Eq; auto).
    clear - E1 E2 H. revert b c E1 E2. induction a as [|x a IH]; intros [|y b] [|z c]; simpl; try congruence.
    rewrite !andb_true_iff. intros [? ?] [? ?]. split; [eapply (swo_eqtrans _ _ H)|]; eauto.
  - exact Eq.
Qed.

Lemma swo_pair {A B} (lt1 eq1 : A -> A -> bool) (lt2 eq2 : B -> B -> bool) : swo lt1 eq1 -> swo lt2 eq2 ->
  swo (pair_ltb lt1 lt2) (fun x y => eq1 (fst x) (fst y) && eq2 (snd x) (snd y)).
Proof.
  intros H1 H2. apply (swo_lex2 fst snd lt1 eq1 lt2 eq2); auto.
  intros a b. unfold pair_ltb. destruct (swo_cases _ _ H1 (fst a) (fst b)) as [(A1&A2&A3)|[(A1&A2&A3)|(A1&A2&A3)]]; rewrite A1, A2; reflexivity.
Qed.

Lemma swo_ascii : swo ascii_ltb Ascii.eqb.
Proof.
  unfold ascii_ltb. split; intros.
  - apply N.ltb_irrefl.
  - rewrite N.ltb_lt in *. lia.
  - rewrite !N.ltb_ge in *. lia.
  - rewrite !N.ltb_ge, Ascii.eqb_eq. split; [intros ->; lia|]. intros [? ?].
    rewrite <- (ascii_N_embedding a), <- (ascii_N_embedding b). f_equal. lia.
Qed.

Lemma text_eqb_list a b : text_eqb a b = list_eqb Ascii.eqb a b.
Proof.
  unfold text_eqb. destruct (list_eq_dec ascii_dec a b) as [->|N].
  - symmetry. induction b; simpl; [reflexivity|]. now rewrite Ascii.eqb_refl.
  - symmetry. revert b N. induction a as [|x a IH]; intros [|y b] N; simpl; try reflexivity; [congruence|].
    destruct (Ascii.eqb x y) eqn:E; [|reflexivity]. apply Ascii.eqb_eq in E. subst. simpl. apply IH. congruence.
Qed.

Lemma swo_text : swo text_ltb text_eqb.
Proof.
  apply (swo_ext (lexb ascii_ltb) _ (list_eqb Ascii.eqb)); [apply swo_list, swo_ascii|reflexivity|apply text_eqb_list].
Qed.

Lemma swo_index : swo index_ltb index_eqb.
Proof. exact (swo_inv (fun i => (isp i, ipos i)) _ _ (swo_pair _ _ _ _ swo_Z swo_Z)). Qed.

Lemma index_eqb_eq a b : index_eqb a b = true <-> a = b.
Proof.
  unfold index_eqb. rewrite andb_true_iff, !Z.eqb_eq. destruct a, b; simpl. split; [intros [? ?]; congruence|intros [= -> ->]; auto].
Qed.
Lemma index_eqb_refl a : index_eqb a a = true.
Proof. now apply index_eqb_eq. Qed.

Lemma swo_bool : swo (fun a b => negb a && b) Bool.eqb.
Proof. split; intros; destruct a; try destruct b; try destruct c; simpl in *; intuition congruence. Qed.

Lemma swo_sqop : swo sqop_ltb sqop_eqb.
Proof.
  assert (I := swo_index).
  assert (Eq : forall a b, sqop_eqb a b = true <-> a = b).
  { intros [ca ia] [cb ib]. unfold sqop_eqb; simpl. rewrite andb_true_iff, Bool.eqb_true_iff, index_eqb_eq. split; [intros [? ?]; congruence|intros [= -> ->]; auto]. }
  assert (Q : forall a b, sqop_eqb a b = true <-> sqop_ltb a b = false /\ sqop_ltb b a = false).
  { intros [ca ia] [cb ib]. unfold sqop_eqb, sqop_ltb; simpl.
    destruct ca, cb; simpl; try (rewrite (swo_eq _ _ I)); intuition congruence. }
  split.
  - intros [c i]. unfold sqop_ltb; simpl. destruct c; simpl; apply (swo_irrefl _ _ I).
  - intros [ca ia] [cb ib] [cc ic]. unfold sqop_ltb; simpl.
    destruct ca, cb, cc; simpl; try congruence; intros; eauto using (swo_trans _ _ I).
  - intros a b c A1 A2 A3 A4. apply Q. assert (E1 : sqop_eqb a b = true) by now apply Q.
    assert (E2 : sqop_eqb b c = true) by now apply Q. rewrite Eq in *. congruence.
  - exact Q.
Qed.

Lemma sqop_eqb_eq a b : sqop_eqb a b = true <-> a = b.
Proof.
  destruct a as [ca ia], b as [cb ib]. unfold sqop_eqb; simpl.
  rewrite andb_true_iff, Bool.eqb_true_iff, index_eqb_eq. split; [intros [? ?]; congruence|intros [= -> ->]; auto].
Qed.

Lemma swo_tensor : swo tensor_ltb tensor_eqb.
Proof.
  apply (swo_lex2 t_label (fun t => (t_lower t, t_upper t)) text_ltb text_eqb
    (fun x y => if lexb index_ltb (fst x) (fst y) then true else if lexb index_ltb (fst y) (fst x) then false else lexb index_ltb (snd x) (snd y))
    (fun x y => list_eqb index_eqb (fst x) (fst y) && list_eqb index_eqb (snd x) (snd y))).
  - apply swo_text.
  - apply (swo_lex2 fst snd (lexb index_ltb) (list_eqb index_eqb) (lexb index_ltb) (list_eqb index_eqb));
      [apply swo_list, swo_index|apply swo_list, swo_index|reflexivity|reflexivity].
  - reflexivity.
  - intros a b. unfold tensor_eqb. now rewrite andb_assoc.
Qed.

Lemma swo_term : swo term_ltb term_eqb.
Proof.
  apply (swo_lex2 tm_tens tm_ops (lexb tensor_ltb) (list_eqb tensor_eqb) (lexb sqop_ltb) (list_eqb sqop_eqb)).
  - apply swo_list, swo_tensor.
  - apply swo_list, swo_sqop.
  - intros a b. unfold term_ltb.
    destruct (swo_cases _ _ (swo_list _ _ swo_tensor) (tm_tens a) (tm_tens b)) as [(A1&A2&A3)|[(A1&A2&A3)|(A1&A2&A3)]]; rewrite A1, A2; reflexivity.
  - reflexivity.
Qed.

Lemma swo_gmat : swo gmat_ltb gmat_eqb.
Proof. apply swo_list. apply (swo_pair _ _ _ _ swo_Z swo_Z). Qed.

Lemma swo_oper : swo oper_ltb oper_eqb.
Proof.
  apply (swo_lex2 op_label op_gm text_ltb text_eqb gmat_ltb gmat_eqb); try reflexivity; [apply swo_text|apply swo_gmat].
Qed.

Lemma swo_oprod : swo oprod_ltb oprod_eqb.
Proof. apply swo_list, swo_oper. Qed.

(** Leibniz equality for keys without ignored fields. *)
Lemma list_eqb_eq {A} (eqb : A -> A -> bool) : (forall a b, eqb a b = true <-> a = b) ->
  forall l l', list_eqb eqb l l' = true <-> l = l'.
Proof.
  intros H. induction l as [|a l IH]; intros [|b l']; simpl; try (split; congruence).
  rewrite andb_true_iff, H, IH. split; [intros [-> ->]; reflexivity|intros [= -> ->]; auto].
Qed.
Lemma gmat_eqb_eq a b : gmat_eqb a b = true <-> a = b.
Proof.
  apply list_eqb_eq. intros [x y] [x' y']. unfold pair_eqb; simpl. rewrite andb_true_iff, !Z.eqb_eq.
  split; [intros [-> ->]; reflexivity|intros [= -> ->]; auto].
Qed.
Lemma oper_eqb_eq a b : oper_eqb a b = true <-> a = b.
Proof.
  destruct a, b. unfold oper_eqb; simpl. rewrite andb_true_iff, text_eqb_ok, gmat_eqb_eq.
  split; [intros [-> ->]; reflexivity|intros [= -> ->]; auto].
Qed.
Lemma oprod_eqb_eq a b : oprod_eqb a b = true <-> a = b.
Proof. apply list_eqb_eq, oper_eqb_eq. Qed.
