(** C68: the norm of an expression. *)
From Coq Require Import ZArith QArith Qabs List Bool Ascii Lia.
From Verif Require Import Res RationalModel RationalSpec RationalProofs CoreModel AlgebraModel AlgebraSpec AlgebraProofs AlgebraProofs2 OrderProofs AdjointModel DecimalModel DecimalSpec NormModel NormSpec NormProofs NormProofs2 NormProofs3.
Import ListNotations.
Local Open Scope Q_scope.

(** The square of [norm] is [dot] of the expression with itself up to a relative error of [(n + 3) 2^-50], [n] the number of terms. *)
Theorem C68_error : forall e : expression, wf term_ltb e -> (Z.of_nat (length e) + 3 <= 2 ^ 50)%Z ->
  Qabs (norm e * norm e - Qval (mdot term_ltb e e)) <= Qval (mdot term_ltb e e) * (inject_Z (Z.of_nat (length e) + 3) * (1 # 2 ^ 50)).
Proof. exact expr_norm_error. Qed.
Print Assumptions C68_error.
(** It is never negative and 0 only for the expression without terms. *)
Theorem C68_zero : forall e : expression, wf term_ltb e -> 0 <= norm e /\ (norm e == 0 <-> e = []).
Proof. exact expr_norm_zero. Qed.
Print Assumptions C68_zero.
(** For integer coefficients it is a 53-bit number closest to the square root of the sum of the squares, and that root if it is an integer. *)
Theorem C68_integers : forall e : expression, Forall (fun x => den (snd x) = 1%Z) e -> squares e <= inject_Z (2 ^ 53) -> nearest_sqrt (norm e) (squares e).
Proof. exact norm_whole. Qed.
Print Assumptions C68_integers.
Theorem C68_integer_root : forall (e : expression) k, Forall (fun x => den (snd x) = 1%Z) e -> squares e == inject_Z k * inject_Z k -> (0 <= k <= 94906265)%Z -> norm e == inject_Z k.
Proof. exact expr_norm_root. Qed.
Print Assumptions C68_integer_root.
(** The norm of the negated expression is exactly the same. *)
Theorem C68_negate : forall e : expression, wf term_ltb e -> norm (mneg term_ltb e) = norm e.
Proof. exact norm_neg. Qed.
Print Assumptions C68_negate.

(** That of the adjoint is not: the sum is taken in the order of the terms. *)
Definition ex_one (cre : bool) (p : Z) : term := mkTerm false [mkSQ cre (mkI 0 p)] [].
Definition ex_norm : expression := mplus term_ltb [] ((ex_one false 0, mkR 1 1) :: map (fun p => (ex_one true p, mkR 1 (2 ^ 27))) [0; 1; 2; 3; 4; 5; 6; 7]%Z).
Lemma ex_wf l : Forall (fun x => canonical (snd x)) l -> wf term_ltb (mplus term_ltb [] l).
Proof.
  intros F. unfold mplus. assert (G : forall m, wf term_ltb m -> wf term_ltb (fold_left (fun r x => madd term_ltb (fst x) (snd x) r) l m)); [|apply G; repeat split; constructor].
  induction F as [|x l H F IH]; intros m W; cbn [fold_left]; auto. apply IH. apply (wf_madd term_ltb term_eqb swo_term); auto.
Qed.
Theorem C68_adjoint_refuted : exists e : expression, wf term_ltb e /\ ~ norm (expr_adjoint e) == norm e.
Proof.
  exists ex_norm. split.
  - apply ex_wf; repeat (constructor; [split; reflexivity|]); constructor.
  - vm_compute. discriminate.
Qed.
Print Assumptions C68_adjoint_refuted.

(** ** A case *)
Definition ex_345 : expression := mplus term_ltb [] [(ex_one true 0, mkR 3 1); (ex_one true 1, mkR (-4) 1)].
Definition ex_2 : expression := mplus term_ltb [] [(ex_one true 0, mkR 1 1); (ex_one true 1, mkR (-1) 1)].
Example C68_nonvacuous : wf term_ltb ex_345 /\ length ex_345 = 2%nat /\ squares ex_345 == 5 * 5 /\ norm ex_345 == 5 /\ norm ex_2 == 6369051672525773 # 4503599627370496 /\
  nearest_sqrt (norm ex_2) 2.
Proof.
  split; [apply ex_wf; repeat (constructor; [split; reflexivity|]); constructor|]. split; [reflexivity|]. split; [reflexivity|]. split; [reflexivity|]. split; [reflexivity|].
  assert (X := C68_integers ex_2). assert (E : squares ex_2 == 2) by reflexivity. apply (nearest_sqrt_comp _ (squares ex_2)); [exact E|]. apply X; [repeat (constructor; [reflexivity|]); constructor|]. rewrite E. discriminate.
Qed.
