From Coq Require Import ZArith List Bool Ascii Lia.
From Verif Require Import Res PartitionsModel PartitionsProofs RegistryModel.
Import ListNotations.
Local Open Scope Z_scope.

Section Assoc.
  Context {K : Type} (eqb : K -> K -> bool).
  Hypothesis eqb_ok : forall a b, eqb a b = true <-> a = b.

  Lemma afind_aput k k' v m :
    afind eqb k (aput eqb k' v m) = if eqb k k' then Some v else afind eqb k m.
  Proof.
    induction m as [|[k0 v0] m IH]; simpl; [reflexivity|].
    destruct (eqb k' k0) eqn:E; simpl.
    - apply eqb_ok in E. subst k0. destruct (eqb k k'); reflexivity.
    - rewrite IH. destruct (eqb k k0) eqn:E1, (eqb k k') eqn:E2; try reflexivity.
      apply eqb_ok in E1, E2. subst. assert (eqb k0 k0 = true) by now apply eqb_ok. congruence.
  Qed.
End Assoc.

Lemma text_eqb_ok a b : text_eqb a b = true <-> a = b.
Proof. unfold text_eqb. destruct (list_eq_dec ascii_dec a b); split; congruence. Qed.
Lemma ascii_eqb_ok a b : Ascii.eqb a b = true <-> a = b.
Proof. apply Ascii.eqb_eq. Qed.
Lemma text_eqb_refl a : text_eqb a a = true.
Proof. now apply text_eqb_ok. Qed.

(** Consistency: labels, positions and index names agree. *)
Definition reg_ok (st : osi) : Prop :=
  (forall l p, label_to_space st l = Ok p <->
     exists s, 0 <= p /\ nth_error (space_info st) (Z.to_nat p) = Some s /\ os_label s = l) /\
  (forall x p, afind text_eqb x (indices_to_pos st) = Some p <->
     exists s, 0 <= p /\ nth_error (space_info st) (Z.to_nat p) = Some s /\ In x (os_indices s)) /\
  (forall s, In s (space_info st) -> NoDup (os_indices s)) /\
  (forall s e, In s (space_info st) -> In e (os_elementary s) -> 0 <= e < num_spaces st).

Lemma reg_ok_reset : reg_ok reset_space.
Proof.
  repeat split.
  - intros H; discriminate.
  - intros (s & _ & H & _). destruct (Z.to_nat p); discriminate.
  - intros H; discriminate.
  - intros (s & _ & H & _). destruct (Z.to_nat p); discriminate.
  - intros s [].
  - destruct H.
  - destruct H.
Qed.

Lemma register_spec pos names m m' : register_indices pos names m = (m', true) ->
  NoDup names /\ (forall x, In x names -> afind text_eqb x m = None) /\
  (forall x, afind text_eqb x m' = if in_dec (list_eq_dec ascii_dec) x names then Some pos else afind text_eqb x m).
Proof.
  revert m; induction names as [|a names IH]; intros m H; simpl in H.
  - inversion H; subst. split; [apply NoDup_nil|]. split; [intros x []|]. intros x. reflexivity.
  - destruct (afind text_eqb a m) eqn:Ea; [discriminate|].
    destruct (IH _ H) as (N & F & S). 
    assert (Ha : ~ In a names).
    { intros Hi. specialize (F a Hi). rewrite (afind_aput _ text_eqb_ok), text_eqb_refl in F. discriminate. }
    split; [|split].
    + apply NoDup_cons; assumption.
    + intros x [<-|Hx]; [assumption|]. specialize (F x Hx). rewrite (afind_aput _ text_eqb_ok) in F.
      destruct (text_eqb x a); [discriminate|assumption].
    + intros x. rewrite S, (afind_aput _ text_eqb_ok).
      destruct (in_dec (list_eq_dec ascii_dec) x names) as [Hx|Hx], (in_dec (list_eq_dec ascii_dec) x (a :: names)) as [Hy|Hy].
      * reflexivity.
      * exfalso. apply Hy. now right.
      * destruct Hy as [->|Hy]; [|contradiction]. now rewrite text_eqb_refl.
      * destruct (text_eqb x a) eqn:E; [|reflexivity]. apply text_eqb_ok in E. subst. exfalso. apply Hy. now left.
Qed.

Lemma mapM_in {A B} (f : A -> res B) l bs : mapM f l = Ok bs -> forall b, In b bs -> exists a, In a l /\ f a = Ok b.
Proof.
  revert bs; induction l as [|a l IH]; intros bs H b Hb; simpl in H; [inversion H; subst; destruct Hb|].
  destruct (f a) eqn:Ea; simpl in H; try discriminate. destruct (mapM f l) eqn:El; simpl in H; try discriminate.
  inversion H; subst. destruct Hb as [<-|Hb]; [exists a; split; [now left|assumption]|].
  destruct (IH _ eq_refl b Hb) as (a' & Hi & He). exists a'. split; [now right|assumption].
Qed.

Lemma nth_error_snoc {A} (l : list A) a n x : nth_error (l ++ [a]) n = Some x <->
  nth_error l n = Some x \/ (n = length l /\ x = a).
Proof.
  destruct (Nat.lt_trichotomy n (length l)) as [H|[H|H]].
  - rewrite nth_error_app1 by assumption. split; [auto|]. intros [|[? _]]; [assumption|lia].
  - subst n. rewrite nth_error_app2, Nat.sub_diag by lia. simpl. split.
    + intros [= <-]. auto.
    + intros [H|[_ ->]]; [|reflexivity]. assert (nth_error l (length l) <> None) by congruence.
      apply nth_error_Some in H0. lia.
  - split.
    + intros E. assert (nth_error (l ++ [a]) n <> None) by congruence. apply nth_error_Some in H0.
      rewrite app_length in H0; simpl in H0; lia.
    + intros [E|[E _]]; [|lia]. assert (nth_error l n <> None) by congruence. apply nth_error_Some in H0. lia.
Qed.

Lemma nth_error_lt {A} (l : list A) n x : nth_error l n = Some x -> (n < length l)%nat.
Proof. intros H. apply nth_error_Some. congruence. Qed.

Lemma add_space_ok st l ft sp names el st' : reg_ok st -> add_space st l ft sp names el = (st', Ok tt) ->
  reg_ok st'.
Proof.
  intros (H1 & H2 & H3 & H4). unfold add_space.
  destruct (afind Ascii.eqb l (label_to_pos st)) eqn:El; [discriminate|].
  destruct (register_indices _ _ _) as [i2p done] eqn:Er. destruct done; simpl; [|discriminate].
  destruct (mapM _ el) as [es| | |] eqn:Em; try discriminate. intros E. inversion E; subst st'. clear E.
  destruct (register_spec _ _ _ _ Er) as (N & F & S).
  set (pos := num_spaces st) in *.
  assert (Hpos0 : 0 <= pos) by (unfold pos, num_spaces; lia).
  assert (Hpos : Z.to_nat pos = length (space_info st)) by (unfold pos, num_spaces; lia).
  assert (Lk : forall l0, afind Ascii.eqb l0 (aput Ascii.eqb l pos (label_to_pos st))
     = if Ascii.eqb l0 l then Some pos else afind Ascii.eqb l0 (label_to_pos st)) by (intros; apply (afind_aput _ ascii_eqb_ok)).
  repeat split.
  - unfold label_to_space; simpl. rewrite Lk. destruct (Ascii.eqb l0 l) eqn:Eq; simpl.
    + intros [= <-]. apply ascii_eqb_ok in Eq. subst l0. exists (mkOS l sp ft names es). split; [unfold pos, num_spaces; lia|].
      split; [|reflexivity]. apply nth_error_snoc. right. auto.
    + intros Hf. specialize (H1 l0 p). unfold label_to_space in H1. apply H1 in Hf.
      destruct Hf as (s & Hp & Hn & Hl). exists s. split; [assumption|]. split; [|assumption].
      apply nth_error_snoc. auto.
  - intros (s & Hp & Hn & Hl). unfold label_to_space; simpl. simpl in Hn. rewrite Lk.
    apply nth_error_snoc in Hn. destruct Hn as [Hn|[Hn ->]].
    + assert (Q : label_to_space st l0 = Ok p) by (apply H1; eauto). unfold label_to_space in Q.
      destruct (Ascii.eqb l0 l) eqn:Eq; [|exact Q]. apply ascii_eqb_ok in Eq. subst l0. rewrite Eq, El in Q. discriminate.
    + simpl in Hl. subst l0. assert (Ascii.eqb l l = true) by now apply ascii_eqb_ok. rewrite H. simpl. f_equal. lia.
  - simpl. rewrite S. destruct (in_dec (list_eq_dec ascii_dec) x names) as [Hx|Hx].
    + intros [= <-]. exists (mkOS l sp ft names es). split; [unfold pos, num_spaces; lia|]. split; [|assumption].
      apply nth_error_snoc. auto.
    + intros Hf. apply H2 in Hf. destruct Hf as (s & Hp & Hn & Hi). exists s. repeat split; auto.
      apply nth_error_snoc. auto.
  - simpl. intros (s & Hp & Hn & Hi). rewrite S. apply nth_error_snoc in Hn. destruct Hn as [Hn|[Hn ->]].
    + assert (Q : afind text_eqb x (indices_to_pos st) = Some p) by (apply H2; eauto).
      destruct (in_dec (list_eq_dec ascii_dec) x names) as [Hx|Hx]; [|exact Q]. rewrite (F x Hx) in Q. discriminate.
    + simpl in Hi. destruct (in_dec (list_eq_dec ascii_dec) x names) as [Hx|Hx]; [|contradiction]. f_equal. lia.
  - simpl. intros s Hs. apply in_app_or in Hs. destruct Hs as [Hs|[<-|[]]]; auto.
  - simpl in *. apply in_app_or in H. unfold num_spaces; simpl. destruct H as [Hs|[<-|[]]].
    + destruct (H4 s e Hs H0). lia.
    + simpl in H0. destruct (mapM_in _ _ _ Em e H0) as (a & _ & Ha). unfold label_to_space in Ha; simpl in Ha. rewrite Lk in Ha.
      destruct (Ascii.eqb a l); [inversion Ha; subst; unfold pos, num_spaces; lia|].
      assert (Q := proj1 (H1 a e) Ha). destruct Q as (s & Hp & _). exact Hp.
  - simpl in *. apply in_app_or in H. unfold num_spaces; simpl. rewrite app_length; simpl. destruct H as [Hs|[<-|[]]].
    + destruct (H4 s e Hs H0). unfold num_spaces in *. lia.
    + simpl in H0. destruct (mapM_in _ _ _ Em e H0) as (a & _ & Ha). unfold label_to_space in Ha; simpl in Ha. rewrite Lk in Ha.
      destruct (Ascii.eqb a l); [inversion Ha; subst; unfold pos, num_spaces; lia|].
      assert (Q := proj1 (H1 a e) Ha). destruct Q as (s & Hp & Hn & _). apply nth_error_lt in Hn. lia.
Qed.

(** Histories in which every call succeeds. *)
Inductive reachable : osi -> Prop :=
| R0 : reachable reset_space
| RS st c st' : reachable st -> reg_step st c = (st', Ok tt) -> reachable st'.

Lemma reachable_ok st : reachable st -> reg_ok st.
Proof.
  induction 1 as [|st c st' R IH E]; [apply reg_ok_reset|].
  destruct c; simpl in E; [inversion E; subst; apply reg_ok_reset|]. eapply add_space_ok; eassumption.
Qed.

(** User-facing consequences. *)
Lemma reg_label_roundtrip st i l : reg_ok st -> space_label st i = Ok l -> label_to_space st l = Ok i.
Proof.
  intros (H1 & _) H. unfold space_label, aget in H.
  destruct (Z.ltb_spec i 0); [discriminate|]. destruct (nth_error _ _) eqn:En; simpl in H; [|discriminate].
  inversion H; subst. apply H1. eauto.
Qed.

Lemma reg_label_defined st i : 0 <= i < num_spaces st -> exists l, space_label st i = Ok l.
Proof.
  intros H. unfold space_label, aget. destruct (Z.ltb_spec i 0); [lia|].
  destruct (nth_error (space_info st) (Z.to_nat i)) eqn:En; simpl; [eauto|].
  apply nth_error_None in En. unfold num_spaces in H. lia.
Qed.

Lemma reg_label_known st l i : reg_ok st -> label_to_space st l = Ok i -> space_label st i = Ok l /\ 0 <= i < num_spaces st.
Proof.
  intros (H1 & _) H. apply H1 in H. destruct H as (s & Hp & Hn & Hl).
  unfold space_label, aget. destruct (Z.ltb_spec i 0); [lia|]. rewrite Hn. simpl. rewrite Hl. split; [reflexivity|].
  apply nth_error_lt in Hn. unfold num_spaces. lia.
Qed.

Lemma reg_index_unique st i j ni nj x : reg_ok st -> space_indices st i = Ok ni -> space_indices st j = Ok nj ->
  In x ni -> In x nj -> i = j.
Proof.
  intros (_ & H2 & _) Hi Hj Xi Xj. unfold space_indices, aget in *.
  destruct (Z.ltb_spec i 0); [discriminate|]. destruct (Z.ltb_spec j 0); [discriminate|].
  destruct (nth_error _ (Z.to_nat i)) eqn:Ei; simpl in Hi; [|discriminate].
  destruct (nth_error _ (Z.to_nat j)) eqn:Ej; simpl in Hj; [|discriminate].
  inversion Hi; inversion Hj; subst.
  assert (A : afind text_eqb x (indices_to_pos st) = Some i) by (apply H2; eauto).
  assert (B : afind text_eqb x (indices_to_pos st) = Some j) by (apply H2; eauto). congruence.
Qed.

Lemma label_to_space_res st l : (exists i, label_to_space st l = Ok i) \/ label_to_space st l = Throw.
Proof. unfold label_to_space. destruct (afind _ _ _); simpl; eauto. Qed.

(** Rejected calls. *)
Lemma add_space_dup_label st l ft sp names el : (exists i, label_to_space st l = Ok i) ->
  add_space st l ft sp names el = (st, Throw).
Proof.
  intros [i H]. unfold label_to_space in H. unfold add_space. now destruct (afind _ _ _).
Qed.

Lemma add_space_rejected st l ft sp names el st' : reg_ok st -> label_to_space st l = Throw ->
  add_space st l ft sp names el = (st', Throw) ->
  label_to_space st' l = Ok (num_spaces st') /\ space_label st' (num_spaces st') = UB /\ num_spaces st' = num_spaces st.
Proof.
  intros _ Hl H. unfold add_space in H.
  destruct (afind Ascii.eqb l (label_to_pos st)) eqn:El; [unfold label_to_space in Hl; rewrite El in Hl; discriminate|].
  destruct (register_indices _ _ _) as [i2p done] eqn:Er.
  assert (E : space_info st' = space_info st /\ label_to_pos st' = aput Ascii.eqb l (num_spaces st) (label_to_pos st)).
  { destruct done; simpl in H; [|inversion H; auto].
    destruct (mapM _ el); inversion H; auto. }
  destruct E as [E1 E2]. unfold label_to_space, num_spaces, space_label. rewrite E1, E2.
  rewrite (afind_aput _ ascii_eqb_ok). assert (R : Ascii.eqb l l = true) by now apply ascii_eqb_ok. rewrite R.
  simpl. repeat split. unfold aget. destruct (Z.ltb_spec (Z.of_nat (length (space_info st))) 0); [lia|].
  rewrite Nat2Z.id. replace (nth_error (space_info st) (length (space_info st))) with (@None orbital_space); [reflexivity|].
  symmetry. now apply nth_error_None.
Qed.

Lemma add_space_aliases st l ft sp names el st1 l2 ft2 sp2 names2 el2 st2 : reg_ok st ->
  label_to_space st l = Throw -> add_space st l ft sp names el = (st1, Throw) ->
  l2 <> l -> add_space st1 l2 ft2 sp2 names2 el2 = (st2, Ok tt) ->
  label_to_space st2 l = label_to_space st2 l2 /\ label_to_space st2 l = Ok (num_spaces st1).
Proof.
  intros Hok Hl H1 Hne H2. destruct (add_space_rejected _ _ _ _ _ _ _ Hok Hl H1) as (E & _ & En).
  unfold add_space in H2. destruct (afind Ascii.eqb l2 (label_to_pos st1)) eqn:El2; [discriminate|].
  destruct (register_indices _ _ _) as [i2p done]. destruct done; simpl in H2; [|discriminate].
  destruct (mapM _ el2); inversion H2; subst st2. unfold label_to_space in *; simpl.
  rewrite !(afind_aput _ ascii_eqb_ok). assert (R : Ascii.eqb l2 l2 = true) by now apply ascii_eqb_ok. rewrite R.
  destruct (Ascii.eqb l l2) eqn:Eq; [apply ascii_eqb_ok in Eq; congruence|]. simpl. rewrite E. auto.
Qed.

Lemma registry_consistent st : reachable st ->
  (forall i, 0 <= i < num_spaces st -> exists l, space_label st i = Ok l /\ label_to_space st l = Ok i) /\
  (forall l i, label_to_space st l = Ok i -> space_label st i = Ok l /\ 0 <= i < num_spaces st) /\
  (forall l, (forall i, 0 <= i < num_spaces st -> space_label st i <> Ok l) -> label_to_space st l = Throw) /\
  (forall i j ni nj x, space_indices st i = Ok ni -> space_indices st j = Ok nj ->
     In x ni -> In x nj -> i = j) /\
  (forall i ni, space_indices st i = Ok ni -> NoDup ni) /\
  (forall s e, In s (space_info st) -> In e (os_elementary s) -> 0 <= e < num_spaces st).
Proof.
  intros R. assert (H := reachable_ok st R). repeat match goal with |- _ /\ _ => split end.
  - intros i Hi. destruct (reg_label_defined st i Hi) as [l Hl]. exists l. split; [assumption|]. now apply reg_label_roundtrip.
  - intros l i Hl. now apply reg_label_known.
  - intros l Hno. destruct (label_to_space_res st l) as [[i Hi]|]; [|assumption].
    destruct (reg_label_known st l i H Hi) as [A B]. exfalso. apply (Hno i B A).
  - intros. eapply reg_index_unique; eassumption.
  - intros i ni Hi. destruct H as (_ & _ & H3 & _). unfold space_indices, aget in Hi.
    destruct (i <? 0); [discriminate|]. destruct (nth_error _ _) eqn:E; simpl in Hi; [|discriminate].
    inversion Hi; subst. apply H3. eapply nth_error_In; eassumption.
  - apply H.
Qed.
