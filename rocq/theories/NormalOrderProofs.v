(** Termination and form of vacuum normal ordering. *)
From Coq Require Import ZArith QArith List Bool Lia Sorted Permutation.
From Verif Require Import Res RegistryModel CoreModel OrderProofs RationalModel RationalSpec RationalProofs AlgebraModel AlgebraSpec AlgebraProofs SortSpec NormalOrderModel.
Import ListNotations.
Local Open Scope nat_scope.

Lemma first_adj_some {A} (p : A -> A -> bool) l pre a b post :
  first_adj p l = Some (pre, a, b, post) -> l = pre ++ a :: b :: post /\ p a b = true.
Proof.
  revert pre a b post. induction l as [|x l IH]; intros pre a b post; [discriminate|].
  destruct l as [|y l]; [discriminate|]. cbn [first_adj].
  destruct (p x y) eqn:E.
  - intros [= <- <- <- <-]. auto.
  - change (match l with [] => _ | _ => _ end) with (first_adj p (y :: l)).
    destruct (first_adj p (y :: l)) as [[[[pre' a'] b'] post']|]; [|discriminate].
    intros [= <- <- <- <-]. destruct (IH _ _ _ _ eq_refl) as [-> H]. auto.
Qed.

Lemma first_adj_none {A} (p : A -> A -> bool) l :
  first_adj p l = None <-> (forall pre a b post, l = pre ++ a :: b :: post -> p a b = false).
Proof.
  split.
  - induction l as [|x l IH]; intros H pre a b post E; [destruct pre; discriminate|].
    destruct l as [|y l]; [destruct pre as [|? [|? ?]]; discriminate|].
    cbn [first_adj] in H. destruct (p x y) eqn:E1; [discriminate|].
    change (match l with [] => _ | _ => _ end) with (first_adj p (y :: l)) in H.
    destruct (first_adj p (y :: l)) as [[[[? ?] ?] ?]|]; [discriminate|].
    destruct pre as [|z pre].
    + injection E as -> -> E. exact E1.
    + injection E as -> E. eapply IH; [reflexivity|exact E].
  - intros H. destruct (first_adj p l) as [[[[pre a] b] post]|] eqn:E; [|reflexivity].
    apply first_adj_some in E as [-> E]. rewrite (H _ _ _ _ eq_refl) in E. discriminate.
Qed.

(** ** Inversions *)
Definition nbelow (a : sqop) (l : list sqop) : nat := length (filter (fun b => sqop_ltb b a) l).
Fixpoint inv (l : list sqop) : nat := match l with [] => 0 | a :: l' => nbelow a l' + inv l' end.

Lemma nbelow_app a l1 l2 : nbelow a (l1 ++ l2) = nbelow a l1 + nbelow a l2.
Proof. unfold nbelow. rewrite filter_app, app_length. reflexivity. Qed.
Lemma nbelow_le a l : nbelow a l <= length l.
Proof. unfold nbelow. induction l as [|b l IH]; simpl; [lia|]. destruct (sqop_ltb b a); simpl; lia. Qed.
Lemma nbelow_cons a b l : nbelow a (b :: l) = (if sqop_ltb b a then 1 else 0) + nbelow a l.
Proof. unfold nbelow. simpl. destruct (sqop_ltb b a); reflexivity. Qed.

Lemma inv_swap pre a b post : sqop_ltb b a = true -> inv (pre ++ a :: b :: post) = S (inv (pre ++ b :: a :: post)).
Proof.
  intros H. pose proof (swo_asym _ _ swo_sqop _ _ H) as H'.
  induction pre as [|x pre IH]; cbn [inv app].
  - rewrite !nbelow_cons, H, H'. lia.
  - rewrite IH, !nbelow_app, !nbelow_cons. lia.
Qed.
Lemma inv_remove pre a b post : sqop_ltb b a = true -> inv (pre ++ post) < inv (pre ++ a :: b :: post).
Proof.
  intros H. induction pre as [|x pre IH]; cbn [inv app].
  - rewrite nbelow_cons, H. lia.
  - rewrite !nbelow_app, !nbelow_cons. lia.
Qed.
Lemma inv_bound l : inv l <= length l * length l.
Proof. induction l as [|a l IH]; simpl; [lia|]. pose proof (nbelow_le a l). nia. Qed.

(** ** The recursion terminates *)
Lemma vno_rec_total fuel st only t c : inv (tm_ops t) < fuel -> exists l, vno_rec fuel st only t c = Ok l.
Proof.
  revert t c. induction fuel as [|fuel IH]; intros t c H; [lia|].
  cbn [vno_rec]. destruct (tm_ops t) as [|x xs] eqn:Eops; [eauto|].
  destruct (negb (no_adjacent_identical st (x :: xs))); [eauto|].
  destruct (first_adj _ (x :: xs)) as [[[[pre a] b] post]|] eqn:E; [|eauto].
  apply first_adj_some in E as [E Hlt]. rewrite E in H.
  pose proof (inv_swap pre a b post Hlt). pose proof (inv_remove pre a b post Hlt).
  destruct (IH (mkTerm false (pre ++ b :: a :: post) (tm_tens t)) (rat_mul c (rat_of_Z (commutator_factor st a b)))) as [l1 ->]; [simpl; lia|].
  cbn [bind]. destruct (contracts only a b); [|eauto].
  destruct (IH (mkTerm false (pre ++ post) (tm_tens t ++ delta_tensors a b)) c) as [l2 ->]; [simpl; lia|].
  simpl. eauto.
Qed.
Lemma term_vno_total st only t : exists l, term_vno st only t = Ok l.
Proof. apply vno_rec_total. pose proof (inv_bound (tm_ops t)). lia. Qed.

(** A useful induction principle on successful runs. *)
Inductive vno_run (st : osi) (only : bool) : term -> rational -> list (term * rational) -> Prop :=
| vr_done t c : no_adjacent_identical st (tm_ops t) = true -> first_adj (fun a b => sqop_ltb b a) (tm_ops t) = None ->
    vno_run st only t c [(t, c)]
| vr_zero t c pre a b post : tm_ops t = pre ++ a :: b :: post -> a = b -> both_fermions st a b = true ->
    vno_run st only t c []
| vr_swap t c pre a b post l : tm_ops t = pre ++ a :: b :: post -> sqop_ltb b a = true -> contracts only a b = false ->
    vno_run st only (mkTerm false (pre ++ b :: a :: post) (tm_tens t)) (rat_mul c (rat_of_Z (commutator_factor st a b))) l ->
    vno_run st only t c l
| vr_both t c pre a b post l1 l2 : tm_ops t = pre ++ a :: b :: post -> sqop_ltb b a = true -> contracts only a b = true ->
    vno_run st only (mkTerm false (pre ++ b :: a :: post) (tm_tens t)) (rat_mul c (rat_of_Z (commutator_factor st a b))) l1 ->
    vno_run st only (mkTerm false (pre ++ post) (tm_tens t ++ delta_tensors a b)) c l2 ->
    vno_run st only t c (l1 ++ l2).

Lemma vno_rec_run fuel st only t c l : vno_rec fuel st only t c = Ok l -> vno_run st only t c l.
Proof.
  revert t c l. induction fuel as [|fuel IH]; intros t c l; [discriminate|].
  cbn [vno_rec]. destruct (tm_ops t) as [|x xs] eqn:Eops.
  { intros [= <-]. apply vr_done; rewrite Eops; reflexivity. }
  destruct (no_adjacent_identical st (x :: xs)) eqn:EN; cbn [negb].
  - destruct (first_adj (fun a b => sqop_ltb b a) (x :: xs)) as [[[[pre a] b] post]|] eqn:E.
    + apply first_adj_some in E as [E Hlt].
      destruct (vno_rec fuel st only (mkTerm false (pre ++ b :: a :: post) (tm_tens t)) _) as [l1| | |] eqn:E1; try discriminate.
      cbn [bind]. destruct (contracts only a b) eqn:EC.
      * destruct (vno_rec fuel st only (mkTerm false (pre ++ post) _) c) as [l2| | |] eqn:E2; try discriminate.
        cbn [bind]. intros [= <-]. rewrite E in Eops. eapply vr_both; eauto.
      * intros [= <-]. rewrite E in Eops. eapply vr_swap; eauto.
    + intros [= <-]. apply vr_done; rewrite Eops; assumption.
  - intros [= <-]. unfold no_adjacent_identical in EN.
    destruct (first_adj _ (x :: xs)) as [[[[pre a] b] post]|] eqn:E; [|discriminate].
    apply first_adj_some in E as [E H]. apply andb_true_iff in H as [H1 H2]. apply sqop_eqb_eq in H1.
    rewrite E in Eops. eapply vr_zero; eauto.
Qed.

(** ** Form of the result *)
Lemma term_is_vno_ordered t : term_is_vno t = true <-> ordered sqop_ltb (tm_ops t).
Proof.
  unfold term_is_vno, ordered. transitivity (first_adj (fun a b => sqop_ltb b a) (tm_ops t) = None).
  { destruct (first_adj _ _); split; congruence. }
  rewrite first_adj_none. generalize (tm_ops t) as l. intros l. split.
  - induction l as [|a l IH]; intros H; [constructor|].
    assert (Hl : StronglySorted (fun a b => sqop_ltb b a = false) l).
    { apply IH. intros pre x y post ->. apply (H (a :: pre) x y post). reflexivity. }
    constructor; [exact Hl|]. destruct l as [|b l]; [constructor|].
    pose proof (H [] a b l eq_refl) as Hab. constructor; [exact Hab|].
    inversion Hl as [|? ? _ Hf]; subst. eapply Forall_impl; [|exact Hf]. simpl. intros c Hc.
    destruct (sqop_ltb c a) eqn:E; [|reflexivity].
    destruct (swo_cases _ _ swo_sqop a b) as [[H1 _]|[[_ [H1 _]]|[_ [_ H1]]]].
    + rewrite (swo_trans _ _ swo_sqop _ _ _ E H1) in Hc. discriminate.
    + congruence.
    + rewrite (swo_lt_eq _ _ swo_sqop _ _ _ E H1) in Hc. discriminate.
  - induction l as [|x l IH]; intros Hs pre a b post E; [destruct pre; discriminate|].
    inversion Hs as [|? ? Hl Hf]; subst. destruct pre as [|z pre]; injection E as -> E; subst.
    + inversion Hf; subst. assumption.
    + apply (IH Hl _ _ _ _ eq_refl).
Qed.

(** The terms produced: normal ordered, no adjacent identical fermionic operators, original tensors
    followed by deltas between indices of one space. *)
Definition is_delta (d : tensor) : Prop := exists l u, d = mkT delta_label [l] [u] Nonsymmetric false /\ isp l = isp u /\ l <> u.
Definition settled (st : osi) (t : term) : Prop := term_is_vno t = true /\ no_adjacent_identical st (tm_ops t) = true.

Lemma delta_tensors_delta only a b : contracts only a b = true -> Forall is_delta (delta_tensors a b).
Proof.
  unfold contracts, delta_tensors. rewrite !andb_true_iff. intros [[_ Hs] _]. apply Z.eqb_eq in Hs. unfold s_space in Hs.
  destruct (index_eqb (s_idx a) (s_idx b)) eqn:E; [constructor|].
  assert (s_idx a <> s_idx b) by (intros H; apply index_eqb_eq in H; congruence).
  constructor; [|constructor]. eexists _, _. split; [reflexivity|]. destruct (s_cre b); split; auto.
Qed.

Lemma vno_run_settled st only t c l : vno_run st only t c l ->
  Forall (fun x => settled st (fst x) /\ (tm_no t = false -> tm_no (fst x) = false) /\
    exists ds, tm_tens (fst x) = tm_tens t ++ ds /\ Forall is_delta ds) l.
Proof.
  induction 1 as [t c HN HF|t c pre a b post E Eab HB|t c pre a b post l E Hlt HC _ IH|t c pre a b post l1 l2 E Hlt HC _ IH1 _ IH2].
  - constructor; [|constructor]. simpl. split; [|split; [auto|exists []; rewrite app_nil_r; auto]].
    split; [unfold term_is_vno; rewrite HF; reflexivity|assumption].
  - constructor.
  - eapply Forall_impl; [|exact IH]. simpl. intros x (H1 & H2 & H3). auto.
  - apply Forall_app. split.
    + eapply Forall_impl; [|exact IH1]. simpl. intros x (H1 & H2 & H3). auto.
    + eapply Forall_impl; [|exact IH2]. simpl. intros x (H1 & H2 & ds & -> & H4). split; [exact H1|split; [auto|]].
      exists (delta_tensors a b ++ ds). rewrite app_assoc. split; [reflexivity|].
      apply Forall_app. split; [eapply delta_tensors_delta; eauto|assumption].
Qed.

Lemma vno_run_canon st only t c l : vno_run st only t c l -> canonical c -> Forall (fun x => canonical (snd x)) l.
Proof.
  induction 1 as [t c HN HF|t c pre a b post E Eab HB|t c pre a b post l E Hlt HC _ IH|t c pre a b post l1 l2 E Hlt HC _ IH1 _ IH2]; intros Hc.
  - constructor; [exact Hc|constructor].
  - constructor.
  - apply IH. apply rat_mul_canonical; [exact Hc|apply rat_of_Z_canonical].
  - apply Forall_app; split; [apply IH1; apply rat_mul_canonical; [exact Hc|apply rat_of_Z_canonical]|auto].
Qed.
