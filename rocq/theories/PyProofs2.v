(** C72: the invariant holds in every reachable state. *)
From Coq Require Import ZArith List Bool Arith Lia Sorted.
From Verif Require Import Res RationalModel RegistryModel CoreModel OrderProofs AlgebraModel AlgebraSpec AlgebraProofs AdjointModel NormalOrderModel CanonModel PyModel PySpec PyProofs.
Import ListNotations.

Lemma foldM_inv {S A} (P : S -> Prop) (f : S -> A -> res S) : (forall s a s', P s -> f s a = Ok s' -> P s') -> forall l s s', P s -> foldM f s l = Ok s' -> P s'.
Proof. intros H. induction l as [|a l IH]; cbn; intros s s' I E; [injection E as <-; exact I|]. destruct (f s a) as [s1| | |] eqn:E1; try discriminate. cbn in E. exact (IH _ _ (H _ _ _ I E1) E). Qed.
Notation srt := (msorted term_ltb).
Lemma srt_nil : srt [].
Proof. constructor. Qed.
Lemma srt_madd k c m : srt m -> srt (madd term_ltb k c m).
Proof. exact (msorted_madd term_ltb term_eqb swo_term k c m). Qed.
Lemma srt_addall {A} (fk : A -> term) (fc : A -> rational) l : forall m, srt m -> srt (fold_left (fun r x => madd term_ltb (fk x) (fc x) r) l m).
Proof. induction l as [|x l IH]; cbn; intros m H; [exact H|]. apply IH. now apply srt_madd. Qed.
Definition view_sorted (v : var -> option val) : Prop := forall x e, v x = Some (WE e) -> srt e.
Lemma eval_sorted st v e a : view_sorted v -> eval_rhs st v e = Ok a -> srt a.
Proof.
  intros V. destruct e as [|l|x y|x y|x y|x q|x|x|x b]; cbn.
  - intros H; injection H as <-. apply srt_nil.
  - intros H; injection H as <-. unfold mplus. apply (srt_addall fst snd). apply srt_nil.
  - destruct (v x) as [[a1|?|?|?|?|]|] eqn:E1; destruct (v y) as [[b1|?|?|?|?|]|] eqn:E2; try discriminate. intros H; injection H as <-. apply (srt_addall fst snd). eapply V, E1.
  - destruct (v x) as [[a1|?|?|?|?|]|] eqn:E1; destruct (v y) as [[b1|?|?|?|?|]|] eqn:E2; try discriminate. intros H; injection H as <-. apply (srt_addall fst (fun x => rat_neg (snd x))). eapply V, E1.
  - destruct (v x) as [[a1|?|?|?|?|]|] eqn:E1; destruct (v y) as [[b1|?|?|?|?|]|] eqn:E2; try discriminate. unfold mprod. intros H. revert H. apply (foldM_inv srt); [|apply srt_nil].
    intros r p r' R H. revert H. apply (foldM_inv srt); [|exact R]. clear. intros r p' r' R. destruct (term_mul (fst p) (fst p')) as [k| | |]; cbn; try discriminate. intros H; injection H as <-. now apply srt_madd.
  - destruct (v x) as [[a1|?|?|?|?|]|] eqn:E1; destruct (v q) as [[?|?|?|q1|?|]|] eqn:E2; try discriminate. intros H; injection H as <-. unfold mscale. apply (msorted_map term_ltb (fun c => rat_mul c q1)). eapply V, E1.
  - destruct (v x) as [[a1|?|?|?|?|]|] eqn:E1; try discriminate. intros H; injection H as <-. apply (srt_addall fst (fun x => rat_neg (snd x))). apply srt_nil.
  - destruct (v x) as [[a1|?|?|?|?|]|] eqn:E1; try discriminate. intros H; injection H as <-. apply (srt_addall (fun x => term_adjoint (fst x)) snd). apply srt_nil.
  - destruct (v x) as [[a1|?|?|?|?|]|] eqn:E1; try discriminate. unfold expr_vno. destruct (existsb _ a1); [discriminate|]. apply (foldM_inv srt); [|apply srt_nil].
    intros r p r' R. destruct (term_vno st b (fst p)) as [l| | |]; cbn; try discriminate. intros H; injection H as <-. apply (srt_addall fst (fun y => rat_mul (snd p) (snd y))). exact R.
Qed.
Lemma canon_sorted st e r a : canon_out st e r (Ok a) -> srt r -> srt a.
Proof. intros H. remember (Ok a) as o eqn:E. revert E. induction H; intros E; try discriminate; [injection E as <-; tauto|]. intros R. apply IHcanon_out; [exact E|]. now apply srt_madd. Qed.
(** The outcomes of [canon_out] that are expressions are those of [expr_canonicalize] (CanonModel, C26-C29). *)
Lemma canon_out_ok st e r a : canon_out st e r (Ok a) <-> expr_canon_run st e r a.
Proof.
  split.
  - intros H. remember (Ok a) as o eqn:E. revert E. induction H; intros E; try discriminate; [injection E as <-; constructor|]. econstructor; [exact H|]. now apply IHcanon_out.
  - induction 1; [constructor|]. econstructor; eassumption.
Qed.

Lemma inv_view_sorted s : inv s -> view_sorted (view s).
Proof.
  intros I x e. unfold view. destruct (s_env s x) as [v|]; [|discriminate]. cbn. destruct v as [o|o|o n|q|o n|i]; cbn; try discriminate.
  - destruct (nth_error (s_exprs s) o) as [m|] eqn:E; [|discriminate]. intros H; injection H as <-. exact (i_sorted s I _ _ E).
  - destruct (nth_error (s_terms s) o); discriminate.
  - destruct (nth_error (s_exprs s) o) as [m|]; [|discriminate]. destruct (node n m); discriminate.
  - destruct (nth_error (s_exprs s) o) as [m|]; [|discriminate]. destruct (node n m); discriminate.
  - destruct (nth_error (s_iters s) i) as [it|]; [|discriminate]. destruct (nth_error (s_exprs s) (io_expr it)) as [m|]; [|discriminate]. destruct (rest m it); discriminate.
Qed.

Lemma bounded_mono s s' v : length (s_exprs s) <= length (s_exprs s') -> length (s_terms s) <= length (s_terms s') -> length (s_iters s) <= length (s_iters s') -> s_next s <= s_next s' ->
  bounded s v -> bounded s' v.
Proof. intros A B C D. destruct v; cbn; lia. Qed.
Lemma inv_assign x v s : inv s -> bounded s v -> inv (assign x v s).
Proof. intros I B. constructor; cbn; [|exact (i_it s I)|exact (i_nd s I)|exact (i_sorted s I)]. intros y w. unfold upd. destruct (x =? y); [intros H; injection H as <-; exact B|exact (i_env s I y w)]. Qed.
Lemma inv_new_expr z e s : inv s -> srt e -> inv (new_expr z e s).
Proof.
  intros I S. assert (M : forall v, bounded s v -> bounded (new_expr z e s) v) by (intros v; apply bounded_mono; cbn; rewrite ?app_length; lia). constructor; cbn.
  - intros y w. unfold upd. destruct (z =? y); [intros H; injection H as <-; cbn; rewrite app_length; cbn; lia|]. intros H. apply M. exact (i_env s I y w H).
  - intros j it H. destruct (i_it s I j it H) as [A B]. split; [rewrite app_length; lia|]. intros n N. specialize (B n N). lia.
  - intros o m H. destruct (Nat.lt_ge_cases o (length (s_exprs s))) as [L|L].
    + rewrite nth_app_old in H by exact L. apply (ids_ok_le (s_next s)); [lia|]. exact (i_nd s I _ _ H).
    + rewrite nth_error_app2 in H by exact L. destruct (o - length (s_exprs s)) as [|k]; [|destruct k; discriminate]. injection H as <-. apply ids_ok_fresh.
  - intros o m H. destruct (Nat.lt_ge_cases o (length (s_exprs s))) as [L|L].
    + rewrite nth_app_old in H by exact L. exact (i_sorted s I _ _ H).
    + rewrite nth_error_app2 in H by exact L. destruct (o - length (s_exprs s)) as [|k]; [|destruct k; discriminate]. injection H as <-. now rewrite entries_fresh.
Qed.
Lemma inv_new_term z t s : inv s -> inv (new_term z t s).
Proof.
  intros I. assert (M : forall v, bounded s v -> bounded (new_term z t s) v) by (intros v; apply bounded_mono; cbn; rewrite ?app_length; lia). constructor; cbn.
  - intros y w. unfold upd. destruct (z =? y); [intros H; injection H as <-; cbn; rewrite app_length; cbn; lia|]. intros H. apply M. exact (i_env s I y w H).
  - exact (i_it s I).
  - exact (i_nd s I).
  - exact (i_sorted s I).
Qed.
Lemma inv_new_iter z it s : inv s -> io_expr it < length (s_exprs s) -> (forall n, io_pos it = Some n -> n < s_next s) -> inv (new_iter z it s).
Proof.
  intros I A B. assert (M : forall v, bounded s v -> bounded (new_iter z it s) v) by (intros v; apply bounded_mono; cbn; rewrite ?app_length; lia). constructor; cbn.
  - intros y w. unfold upd. destruct (z =? y); [intros H; injection H as <-; cbn; rewrite app_length; cbn; lia|]. intros H. apply M. exact (i_env s I y w H).
  - intros j it' H. destruct (Nat.lt_ge_cases j (length (s_iters s))) as [L|L].
    + rewrite nth_app_old in H by exact L. exact (i_it s I j it' H).
    + rewrite nth_error_app2 in H by exact L. destruct (j - length (s_iters s)) as [|k]; [|destruct k; discriminate]. injection H as <-. split; assumption.
  - exact (i_nd s I).
  - exact (i_sorted s I).
Qed.
Lemma nth_set {A} i j (a b : A) l : i < length l -> nth_error (set_nth i a l) j = Some b -> (j = i /\ b = a) \/ (j <> i /\ nth_error l j = Some b).
Proof. intros L H. destruct (Nat.eq_dec j i) as [->|N]; [left; rewrite set_nth_same in H by exact L; split; [reflexivity|congruence]|right; rewrite set_nth_other in H by assumption; now split]. Qed.
Lemma inv_set_expr o m next s : inv s -> o < length (s_exprs s) -> s_next s <= next -> ids_ok next m -> srt (entries m) ->
  inv (mkS (set_nth o m (s_exprs s)) (s_terms s) (s_iters s) next (s_env s)).
Proof.
  intros I L N D S. constructor; cbn.
  - intros x v H. apply (bounded_mono s); cbn; rewrite ?set_nth_length by exact L; try lia. exact (i_env s I x v H).
  - intros j it H. rewrite set_nth_length by exact L. destruct (i_it s I j it H) as [A B]. split; [exact A|]. intros n E. specialize (B n E). lia.
  - intros o' m' H. apply nth_set in H; [|exact L]. destruct H as [[-> ->]|[_ H]]; [exact D|]. apply (ids_ok_le (s_next s)); [exact N|]. exact (i_nd s I _ _ H).
  - intros o' m' H. apply nth_set in H; [|exact L]. destruct H as [[-> ->]|[_ H]]; [exact S|]. exact (i_sorted s I _ _ H).
Qed.
Lemma inv_add o k c m s : inv s -> nth_error (s_exprs s) o = Some m -> inv (add_in_place o k c m s).
Proof. intros I E. apply inv_set_expr; [exact I|exact (nth_lt _ _ _ E)|lia|apply ids_ok_nadd; exact (i_nd s I _ _ E)|]. rewrite entries_nadd. apply srt_madd. exact (i_sorted s I _ _ E). Qed.
Lemma inv_replace o e s : inv s -> o < length (s_exprs s) -> srt e -> inv (replace o e s).
Proof. intros I L S. apply inv_set_expr; [exact I|exact L|lia|apply ids_ok_fresh|now rewrite entries_fresh]. Qed.
Lemma inv_set_term o t s : inv s -> o < length (s_terms s) -> inv (set_term o t s).
Proof. intros I L. constructor; cbn; [|exact (i_it s I)|exact (i_nd s I)|exact (i_sorted s I)]. intros x v H. apply (bounded_mono s); cbn; rewrite ?set_nth_length by exact L; try lia. exact (i_env s I x v H). Qed.
Lemma inv_set_iter j it s : inv s -> j < length (s_iters s) -> io_expr it < length (s_exprs s) -> (forall n, io_pos it = Some n -> n < s_next s) -> inv (set_iter j it s).
Proof.
  intros I L A B. constructor; cbn; [|intros j' it' H|exact (i_nd s I)|exact (i_sorted s I)].
  - intros x v H. apply (bounded_mono s); cbn; rewrite ?set_nth_length by exact L; try lia. exact (i_env s I x v H).
  - apply nth_set in H; [|exact L]. destruct H as [[-> ->]|[_ H]]; [split; assumption|exact (i_it s I _ _ H)].
Qed.

Lemma rest_id_lt s o m it n x l : inv s -> nth_error (s_exprs s) o = Some m -> rest m it = Some ((n, x) :: l) -> n < s_next s.
Proof.
  intros I E R. destruct (rest_tail _ _ _ R) as (a & ->). destruct (i_nd s I _ _ E) as [_ F]. rewrite Forall_forall in F. apply F. rewrite map_app. apply in_or_app. right. now left.
Qed.
Lemma front_lt s o m n : inv s -> nth_error (s_exprs s) o = Some m -> front m = Some n -> n < s_next s.
Proof. intros I E R. destruct (i_nd s I _ _ E) as [_ F]. destruct m as [|[n' x] m]; [discriminate|]. cbn in R. injection R as <-. now inversion F. Qed.

Ltac bust := repeat match goal with
  | |- context [match ?x with _ => _ end] => destruct x eqn:?
  end; try (intros; discriminate).
Lemma inv_exec st r s c s' o : inv s -> oracle st (view s) c r -> exec st r s c = (s', o) -> inv s'.
Proof.
  intros I O. destruct c as [z e|y x|x|x y|x t q|y x|i x|t q i|t b|t u|t m|t q|q a|q f a b|x]; cbn [exec].
  - destruct (eval_rhs st (view s) e) as [a| | |] eqn:E; intros H; injection H as <- <-; try exact I. apply inv_new_expr; [exact I|]. exact (eval_sorted _ _ _ _ (inv_view_sorted s I) E).
  - destruct (s_env s x) as [v|] eqn:E; intros H; injection H as <- <-; [|exact I]. apply inv_assign; [exact I|]. exact (i_env s I _ _ E).
  - destruct (s_env s x) as [v|] eqn:E; intros H; injection H as <- <-; [|exact I]. constructor; cbn; [|exact (i_it s I)|exact (i_nd s I)|exact (i_sorted s I)].
    intros y w. unfold upd. destruct (x =? y); [discriminate|exact (i_env s I y w)].
  - destruct (s_env s x) as [v|] eqn:E; [|intros H; injection H as <- <-; exact I]. destruct (view s y) as [w|] eqn:Ey; [|destruct v; intros H; injection H as <- <-; exact I].
    destruct v as [o'| | | | |]; cbn [look].
    + destruct (nth_error (s_exprs s) o') as [m|] eqn:En; [|intros H; injection H as <- <-; exact I].
      assert (N : forall k q, inv (add_in_place o' k q m s)) by (intros; now apply inv_add).
      assert (P : forall b, inv (new_expr x (mplus term_ltb (entries m) b) s)) by (intros b; apply inv_new_expr; [exact I|]; apply (srt_addall fst snd); exact (i_sorted s I _ _ En)).
      destruct w; cbn; intros H; injection H as <- <-; auto.
    + bust; intros H; injection H as <- <-; exact I || (apply inv_assign; [exact I|exact Logic.I]).
    + bust; intros H; injection H as <- <-; exact I || (apply inv_assign; [exact I|exact Logic.I]).
    + bust; intros H; injection H as <- <-; exact I || (apply inv_assign; [exact I|exact Logic.I]).
    + bust; intros H; injection H as <- <-; exact I || (apply inv_assign; [exact I|exact Logic.I]).
    + bust; intros H; injection H as <- <-; exact I || (apply inv_assign; [exact I|exact Logic.I]).
  - destruct (s_env s x) as [v|] eqn:E; [|intros H; injection H as <- <-; exact I]. destruct v as [o'| | | | |]; try (intros H; injection H as <- <-; exact I).
    destruct (nth_error (s_exprs s) o') as [m|] eqn:En.
    + assert (N : forall k q, inv (add_in_place o' k q m s)) by (intros; now apply inv_add).
      bust; intros H; injection H as <- <-; exact I || apply N.
    + bust; intros H; injection H as <- <-; exact I.
  - destruct (s_env s x) as [v|] eqn:E; [|intros H; injection H as <- <-; exact I]. destruct v as [o'| | | | |]; try (intros H; injection H as <- <-; exact I).
    destruct r as [a| | |]; try (intros H; injection H as <- <-; exact I). pose proof (i_env s I _ _ E) as B. cbn in B.
    assert (S : srt a). { destruct (lt_nth _ _ B) as (m & Em). cbn in O. unfold view in O. rewrite E in O. cbn in O. rewrite Em in O. eapply canon_sorted; [apply O; reflexivity|apply srt_nil]. }
    assert (J : inv (replace o' a s)) by now apply inv_replace.
    destruct y as [y|]; intros H; injection H as <- <-; [|exact J]. apply inv_assign; [exact J|]. cbn. now rewrite set_nth_length.
  - destruct (s_env s x) as [v|] eqn:E; [|intros H; injection H as <- <-; exact I]. destruct v as [o'| | | | |j]; try (intros H; injection H as <- <-; exact I).
    + destruct (nth_error (s_exprs s) o') as [m|] eqn:En; intros H; injection H as <- <-; [|exact I]. apply inv_new_iter; [exact I|exact (nth_lt _ _ _ En)|]. cbn. intros n. exact (front_lt _ _ _ _ I En).
    + intros H; injection H as <- <-. apply inv_assign; [exact I|]. exact (i_env s I _ _ E).
  - destruct (s_env s i) as [v|] eqn:E; [|intros H; injection H as <- <-; exact I]. destruct v as [| | | | |j]; try (intros H; injection H as <- <-; exact I).
    destruct (nth_error (s_iters s) j) as [it|] eqn:Ej; [|intros H; injection H as <- <-; exact I]. destruct (i_it s I _ _ Ej) as [B1 B2].
    destruct (nth_error (s_exprs s) (io_expr it)) as [m|] eqn:Em; [|intros H; injection H as <- <-; exact I].
    destruct (rest m it) as [[|[n x] l]|] eqn:Er; intros H; injection H as <- <-; [| |exact I].
    + apply inv_set_iter; [exact I|exact (nth_lt _ _ _ Ej)|exact B1|discriminate].
    + pose proof (rest_id_lt _ _ _ _ _ _ _ I Em Er) as L. apply inv_assign; [apply inv_assign; [apply inv_set_iter; [exact I|exact (nth_lt _ _ _ Ej)|exact B1|]|]|]; cbn; [intros n' H; injection H as <-; exact L|now split|now split].
  - intros H; injection H as <- <-. now apply inv_new_term.
  - bust; intros H; injection H as <- <-; exact I || now apply inv_new_term.
  - destruct (s_env s t) as [v|] eqn:E; [|intros H; injection H as <- <-; exact I]. destruct v as [|o'| | | |]; try (intros H; injection H as <- <-; exact I).
    destruct (nth_error (s_terms s) o') as [u|] eqn:Eu; [|intros H; injection H as <- <-; exact I]. destruct (mutate m u); intros H; injection H as <- <-; [|exact I]. apply inv_set_term; [exact I|exact (nth_lt _ _ _ Eu)].
  - destruct (s_env s t) as [v|] eqn:E; [|intros H; injection H as <- <-; exact I]. destruct v as [|o'| | | |]; try (intros H; injection H as <- <-; exact I).
    destruct (view s q) as [w|]; [|intros H; injection H as <- <-; exact I].
    destruct (nth_error (s_terms s) o') as [u|] eqn:Eu; bust; intros H; injection H as <- <-; exact I || (apply inv_set_term; [exact I|exact (nth_lt _ _ _ Eu)]).
  - intros H; injection H as <- <-. apply inv_assign; [exact I|exact Logic.I].
  - bust; intros H; injection H as <- <-; exact I || (apply inv_assign; [exact I|exact Logic.I]).
  - bust; intros H; injection H as <- <-; exact I.
Qed.
Lemma inv_start : inv start.
Proof. constructor; cbn; [discriminate| | |]; intros [|o] m H; discriminate. Qed.
Lemma inv_step st s c s' o : inv s -> step st s c s' o -> inv s'.
Proof. intros I (r & O & E). exact (inv_exec _ _ _ _ _ _ I O E). Qed.
Lemma inv_run st s h s' : run st s h s' -> inv s -> inv s'.
Proof. induction 1; intros I; [exact I|]. apply IHrun. exact (inv_step _ _ _ _ _ I H). Qed.
Lemma inv_reach st s : pyreach st s -> inv s.
Proof. intros [h H]. exact (inv_run _ _ _ _ H inv_start). Qed.
