(** C69: in-place operations with the same object on both sides. *)
From Coq Require Import ZArith QArith List Bool Lia.
From Verif Require Import Res RationalModel RationalSpec RationalProofs CoreModel AlgebraModel AlgebraSpec AlgebraProofs AlgebraProofs2 OrderProofs OperatorModel AliasModel AliasProofs.
Import ListNotations.
Local Open Scope Q_scope.

(** [o.add2(o, f)] is [(1 + f) o] unless [f] is -1 ... *)
Theorem C69_add2 : forall f (o : opexpr) n, wf oprod_ltb o -> canonical f -> ~ Qval f == -1 -> (length o <= n)%nat ->
  exists r, self_add2 oprod_ltb f n o = Ok r /\ wf oprod_ltb r /\ forall k, coef oprod_eqb r k == (1 + Qval f) * coef oprod_eqb o k.
Proof. exact (add2_scales oprod_ltb oprod_eqb swo_oprod). Qed.
Print Assumptions C69_add2.
(** ... when the first round erases the node the loop stands on, and going on is undefined. *)
Theorem C69_add2_refuted : forall f (o : opexpr) n, wf oprod_ltb o -> canonical f -> Qval f == -1 -> o <> [] -> (length o <= n)%nat -> self_add2 oprod_ltb f n o = UB.
Proof. exact (self_add2_kill oprod_ltb oprod_eqb swo_oprod). Qed.
Print Assumptions C69_add2_refuted.
(** [e += e] doubles an expression, [e -= e] is undefined unless it is empty; likewise for operator expressions. *)
Theorem C69_plus : forall (e : expression) n, wf term_ltb e -> (length e <= n)%nat ->
  exists r, self_plus term_ltb n e = Ok r /\ wf term_ltb r /\ forall k, coef term_eqb r k == 2 * coef term_eqb e k.
Proof. exact (plus_doubles term_ltb term_eqb swo_term). Qed.
Print Assumptions C69_plus.
Theorem C69_plus_operators : forall (e : opexpr) n, wf oprod_ltb e -> (length e <= n)%nat ->
  exists r, self_plus oprod_ltb n e = Ok r /\ wf oprod_ltb r /\ forall k, coef oprod_eqb r k == 2 * coef oprod_eqb e k.
Proof. exact (plus_doubles oprod_ltb oprod_eqb swo_oprod). Qed.
Print Assumptions C69_plus_operators.
Theorem C69_minus_refuted : forall (e : expression) n, wf term_ltb e -> e <> [] -> (length e <= n)%nat -> self_minus term_ltb n e = UB.
Proof. exact (self_minus_kill term_ltb term_eqb swo_term). Qed.
Print Assumptions C69_minus_refuted.
(** [e *= e] and [o *= o] give the square: the coefficient of [k] is summed over the pairs of terms whose product is [k]. *)
Theorem C69_times : forall e : expression, wf term_ltb e -> keysP plain e ->
  exists r, self_times term_ltb term_mul e = Ok r /\ wf term_ltb r /\
    forall k, coef term_eqb r k == lsum (fun k1 => lsum (fun k2 => ind term_eqb k (juxtapose k1 k2)) e) e.
Proof. exact (fun e W P => expr_mprod_coef e e W W P P). Qed.
Print Assumptions C69_times.
Theorem C69_times_operators : forall o : opexpr, wf oprod_ltb o ->
  exists r, self_times oprod_ltb oprod_mul o = Ok r /\ wf oprod_ltb r /\
    forall k, coef oprod_eqb r k == lsum (fun k1 => lsum (fun k2 => ind oprod_eqb k (k1 ++ k2)) o) o.
Proof. exact (fun o W => opexpr_mprod_coef o o W W). Qed.
Print Assumptions C69_times_operators.
(** [r += r], [r -= r] and [r *= r] are exact ([r /= r] is not: C04). *)
Theorem C69_rational : forall r, canonical r -> canonical (rat_self_add r) /\ Qval (rat_self_add r) == 2 * Qval r /\ canonical (rat_self_sub r) /\ Qval (rat_self_sub r) == 0 /\
  canonical (rat_self_mul r) /\ Qval (rat_self_mul r) == Qval r * Qval r.
Proof. exact rat_self_exact. Qed.
Print Assumptions C69_rational.

(** ** A case *)
Definition ex_terms : expression := mplus term_ltb [] [(mkTerm false [mkSQ true (mkI 0 0)] [], mkR 3 2); (mkTerm false [mkSQ true (mkI 0 1)] [], mkR (-4) 1)].
Definition ex_ops : opexpr := mplus oprod_ltb [] [([], mkR 3 2); ([mkOp [] (gm_zero)], mkR 1 3)].
Example C69_nonvacuous : wf term_ltb ex_terms /\ length ex_terms = 2%nat /\ wf oprod_ltb ex_ops /\ length ex_ops = 2%nat /\
  self_plus term_ltb 2 ex_terms = Ok (mplus term_ltb ex_terms ex_terms) /\ self_minus term_ltb 2 ex_terms = UB /\ mminus term_ltb ex_terms ex_terms = [] /\
  self_add2 oprod_ltb (mkR 1 2) 2 ex_ops = Ok [([], mkR 9 4); ([mkOp [] gm_zero], mkR 1 2)] /\ self_add2 oprod_ltb (mkR (-1) 1) 2 ex_ops = UB /\ madd2 oprod_ltb ex_ops ex_ops (mkR (-1) 1) = [] /\
  keysP plain ex_terms /\ (exists r, self_times oprod_ltb oprod_mul ex_ops = Ok r /\ length r = 3%nat).
Proof.
  split; [apply (mplus_nil_wf term_ltb term_eqb swo_term); repeat (constructor; [split; reflexivity|]); constructor|]. split; [reflexivity|].
  split; [apply (mplus_nil_wf oprod_ltb oprod_eqb swo_oprod); repeat (constructor; [split; reflexivity|]); constructor|].
  do 7 (split; [reflexivity|]). split; [repeat constructor|]. eexists. split; reflexivity.
Qed.
