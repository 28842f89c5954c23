(** C72: what a statement leaves alone; simulation by the value semantics. *)
From Coq Require Import ZArith List Bool Arith Lia Sorted.
From Verif Require Import Res RationalModel RegistryModel CoreModel OrderProofs AlgebraModel AlgebraSpec AlgebraProofs AdjointModel NormalOrderModel CanonModel PyModel PySpec PyProofs PyProofs2.
Import ListNotations.

(** ** Frame *)
Definition keeps (s s' : state) (w : option (var * obj)) : Prop :=
  (forall o, o < length (s_exprs s) -> (forall x, w <> Some (x, OE o)) -> nth_error (s_exprs s') o = nth_error (s_exprs s) o) /\
  (forall o, o < length (s_terms s) -> (forall x, w <> Some (x, OT o)) -> nth_error (s_terms s') o = nth_error (s_terms s) o) /\
  (forall j, j < length (s_iters s) -> (forall x, w <> Some (x, OI j)) -> nth_error (s_iters s') j = nth_error (s_iters s) j).
Lemma keeps_refl s w : keeps s s w.
Proof. repeat split; reflexivity. Qed.
Lemma keeps_env s env w : keeps s (mkS (s_exprs s) (s_terms s) (s_iters s) (s_next s) env) w.
Proof. repeat split; reflexivity. Qed.
Lemma keeps_new_expr z e s w : keeps s (new_expr z e s) w.
Proof. repeat split; cbn; try reflexivity. intros o L _. now apply nth_app_old. Qed.
Lemma keeps_new_term z e s w : keeps s (new_term z e s) w.
Proof. repeat split; cbn; try reflexivity. intros o L _. now apply nth_app_old. Qed.
Lemma keeps_new_iter z e s w : keeps s (new_iter z e s) w.
Proof. repeat split; cbn; try reflexivity. intros o L _. now apply nth_app_old. Qed.
Lemma keeps_set_expr o m next env s x : o < length (s_exprs s) -> keeps s (mkS (set_nth o m (s_exprs s)) (s_terms s) (s_iters s) next env) (Some (x, OE o)).
Proof. intros L. repeat split; cbn; try reflexivity. intros o' L' N. apply set_nth_other; [exact L|]. intros ->. exact (N x eq_refl). Qed.
Lemma keeps_set_term o t env s x : o < length (s_terms s) -> keeps s (mkS (s_exprs s) (set_nth o t (s_terms s)) (s_iters s) (s_next s) env) (Some (x, OT o)).
Proof. intros L. repeat split; cbn; try reflexivity. intros o' L' N. apply set_nth_other; [exact L|]. intros ->. exact (N x eq_refl). Qed.
Lemma keeps_set_iter o t env s x : o < length (s_iters s) -> keeps s (mkS (s_exprs s) (s_terms s) (set_nth o t (s_iters s)) (s_next s) env) (Some (x, OI o)).
Proof. intros L. repeat split; cbn; try reflexivity. intros o' L' N. apply set_nth_other; [exact L|]. intros ->. exact (N x eq_refl). Qed.

Lemma exec_keeps st r s c s' o : inv s -> exec st r s c = (s', o) -> keeps s s' (writes s c).
Proof.
  intros I. destruct c as [z e|y x|x|x y|x t q|y x|i x|t q i|t b|t u|t m|t q|q a|q f a b|x]; cbn [exec writes].
  - destruct (eval_rhs st (view s) e); intros H; injection H as <- <-; apply keeps_new_expr || apply keeps_refl.
  - destruct (s_env s x); intros H; injection H as <- <-; apply keeps_env || apply keeps_refl.
  - destruct (s_env s x); intros H; injection H as <- <-; apply keeps_env || apply keeps_refl.
  - destruct (s_env s x) as [v|] eqn:E; [|intros H; injection H as <- <-; apply keeps_refl]. destruct (view s y) as [w|] eqn:Ey; [|destruct v; intros H; injection H as <- <-; apply keeps_refl].
    destruct v as [o'|o'|o' n|q|o' n|j].
    + destruct (nth_error (s_exprs s) o') as [m|] eqn:En; [|intros H; injection H as <- <-; apply keeps_refl]. pose proof (nth_lt _ _ _ En) as L.
      destruct w as [b|t|k|q|l|]; cbn; intros H; injection H as <- <-; try apply keeps_refl; [apply keeps_new_expr|now apply keeps_set_expr|now apply keeps_set_expr].
    + set (lk := look s (VT o')). destruct lk; destruct w; intros H; injection H as <- <-; apply keeps_refl || apply keeps_env.
    + set (lk := look s (VN o' n)). destruct lk; destruct w; intros H; injection H as <- <-; apply keeps_refl || apply keeps_env.
    + set (lk := look s (VQ q)). destruct lk; destruct w; intros H; injection H as <- <-; apply keeps_refl || apply keeps_env.
    + set (lk := look s (VC o' n)). destruct lk; destruct w; intros H; injection H as <- <-; apply keeps_refl || apply keeps_env.
    + set (lk := look s (VI j)). destruct lk; destruct w; intros H; injection H as <- <-; apply keeps_refl || apply keeps_env.
  - destruct (s_env s x) as [v|] eqn:E; [|intros H; injection H as <- <-; apply keeps_refl]. destruct v as [o'| | | | |]; try (intros H; injection H as <- <-; apply keeps_refl).
    destruct (view s t) as [w|]; [|intros H; injection H as <- <-; apply keeps_refl]. destruct (view s q) as [u|]; [|intros H; injection H as <- <-; apply keeps_refl].
    destruct (nth_error (s_exprs s) o') as [m|] eqn:En; [|intros H; injection H as <- <-; apply keeps_refl]. pose proof (nth_lt _ _ _ En) as L.
    destruct w as [b|t'|k|q'|l|]; destruct u; cbn; bust; intros H; injection H as <- <-; apply keeps_refl || now apply keeps_set_expr.
  - destruct (s_env s x) as [v|] eqn:E; [|intros H; injection H as <- <-; apply keeps_refl]. destruct v as [o'| | | | |]; try (intros H; injection H as <- <-; apply keeps_refl).
    pose proof (i_env s I _ _ E) as B. cbn in B. destruct r as [a| | |]; try (intros H; injection H as <- <-; apply keeps_refl).
    destruct y; intros H; injection H as <- <-; unfold assign, replace; cbn [s_exprs s_terms s_iters s_next s_env]; now apply keeps_set_expr.
  - destruct (s_env s x) as [v|] eqn:E; [|intros H; injection H as <- <-; apply keeps_refl]. destruct v as [o'| | | | |j]; try (intros H; injection H as <- <-; apply keeps_refl).
    + destruct (nth_error (s_exprs s) o'); intros H; injection H as <- <-; apply keeps_new_iter || apply keeps_refl.
    + intros H; injection H as <- <-; apply keeps_env.
  - destruct (s_env s i) as [v|] eqn:E; [|intros H; injection H as <- <-; apply keeps_refl]. destruct v as [| | | | |j]; try (intros H; injection H as <- <-; apply keeps_refl).
    destruct (nth_error (s_iters s) j) as [it|] eqn:Ej; [|intros H; injection H as <- <-; apply keeps_refl]. pose proof (nth_lt _ _ _ Ej) as L.
    destruct (nth_error (s_exprs s) (io_expr it)) as [m|]; [|intros H; injection H as <- <-; apply keeps_refl].
    destruct (rest m it) as [[|[n x] l]|]; intros H; injection H as <- <-; apply keeps_refl || (unfold assign, set_iter; cbn [s_exprs s_terms s_iters s_next s_env]; now apply keeps_set_iter).
  - intros H; injection H as <- <-. apply keeps_new_term.
  - bust; intros H; injection H as <- <-; apply keeps_new_term || apply keeps_refl.
  - destruct (s_env s t) as [v|] eqn:E; [|intros H; injection H as <- <-; apply keeps_refl]. destruct v as [|o'| | | |]; try (intros H; injection H as <- <-; apply keeps_refl).
    destruct (nth_error (s_terms s) o') as [u|] eqn:Eu; [|intros H; injection H as <- <-; apply keeps_refl]. pose proof (nth_lt _ _ _ Eu) as L.
    destruct (mutate m u); intros H; injection H as <- <-; apply keeps_refl || now apply keeps_set_term.
  - destruct (s_env s t) as [v|] eqn:E; [|intros H; injection H as <- <-; apply keeps_refl]. destruct v as [|o'| | | |]; try (intros H; injection H as <- <-; apply keeps_refl).
    destruct (view s q) as [w|]; [|intros H; injection H as <- <-; apply keeps_refl].
    destruct (nth_error (s_terms s) o') as [u|] eqn:Eu; [|intros H; injection H as <- <-; apply keeps_refl]. pose proof (nth_lt _ _ _ Eu) as L.
    destruct w; bust; intros H; injection H as <- <-; apply keeps_refl || now apply keeps_set_term.
  - intros H; injection H as <- <-. apply keeps_env.
  - bust; intros H; injection H as <- <-; apply keeps_env || apply keeps_refl.
  - bust; intros H; injection H as <- <-; apply keeps_refl.
Qed.
Lemma frame_look st r s c s' o v : inv s -> exec st r s c = (s', o) -> bounded s v -> (forall x a, writes s c = Some (x, a) -> ~ In a (touches s v)) ->
  look s' v = look s v /\ touches s' v = touches s v.
Proof.
  intros I E B N. destruct (exec_keeps _ _ _ _ _ _ I E) as (K1 & K2 & K3). pose proof (fun a => touched_bound s v a I B) as TB. apply look_ext.
  - intros o' T. apply K1; [exact (TB _ T)|]. intros x W. exact (N _ _ W T).
  - intros o' T. apply K2; [exact (TB _ T)|]. intros x W. exact (N _ _ W T).
  - intros j T. apply K3; [exact (TB _ T)|]. intros x W. exact (N _ _ W T).
Qed.
(** Variables that are not bound keep their reference. *)
Lemma exec_env st r s c s' o y : exec st r s c = (s', o) -> ~ In y (binds c) -> s_env s' y = s_env s y.
Proof.
  intros H N. revert H. destruct c as [z e|y' x|x|x y'|x t q|y' x|i x|t q i|t b|t u|t m|t q|q a|q f a b|x]; cbn [exec binds] in *;
    bust; intros H; injection H as <- <-; cbn; try reflexivity;
    repeat (rewrite upd_other by (intros ->; apply N; cbn; tauto)); reflexivity.
Qed.
Lemma obj_eqb_eq a b : obj_eqb a b = true <-> a = b.
Proof. destruct a, b; cbn; rewrite ?Nat.eqb_eq; split; congruence. Qed.
Lemma depends_false s y v a : s_env s y = Some v -> depends s y a = false -> ~ In a (touches s v).
Proof. unfold depends. intros -> H T. assert (X : existsb (obj_eqb a) (touches s v) = true) by (apply existsb_exists; exists a; split; [exact T|now apply obj_eqb_eq]). congruence. Qed.

Lemma frame_view st r s c s' o y : inv s -> exec st r s c = (s', o) -> ~ In y (binds c) -> (forall x a, writes s c = Some (x, a) -> depends s y a = false) -> view s' y = view s y.
Proof.
  intros I E N D. unfold view. rewrite (exec_env _ _ _ _ _ _ _ E N). destruct (s_env s y) as [v|] eqn:Ey; [|reflexivity]. cbn. f_equal.
  apply (frame_look _ _ _ _ _ _ _ I E (i_env s I _ _ Ey)). intros x a W. exact (depends_false _ _ _ _ Ey (D _ _ W)).
Qed.
