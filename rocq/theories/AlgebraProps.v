(** C12-C18: linear combinations (Expression, OperatorExpression) and the orderings of their keys. *)
From Coq Require Import ZArith QArith List Bool Ascii.
From Verif Require Import Res RationalModel RationalSpec RegistryModel CoreModel OrderProofs AlgebraModel AlgebraSpec
  AlgebraProofs AlgebraProofs2.
Import ListNotations.
Local Open Scope Q_scope.

(** C12: after any history [h] of additions (subtractions are additions of [-c]) the coefficient of
    every term is the exact sum of the coefficients added for it, no two entries are equal terms,
    no entry is zero, and an entry exists exactly for the terms whose total is not zero. *)
Theorem C12_expression_sum : forall h : list (term * rational), Forall (fun x => canonical (snd x)) h ->
  let e := build term_ltb h in
  (forall k, coef term_eqb e k == coef term_eqb h k) /\
  (forall e1 x e2 y e3, e = e1 ++ x :: e2 ++ y :: e3 -> term_eqb (fst x) (fst y) = false) /\
  (forall x, In x e -> ~ Qval (snd x) == 0) /\
  (forall k, mcontains term_ltb k e = true <-> ~ coef term_eqb h k == 0).
Proof. exact (build_sum term_ltb term_eqb swo_term). Qed.
Print Assumptions C12_expression_sum.

Theorem C12_opexpr_sum : forall h : list (oprod * rational), Forall (fun x => canonical (snd x)) h ->
  let e := build oprod_ltb h in
  (forall k, coef oprod_eqb e k == coef oprod_eqb h k) /\
  (forall e1 x e2 y e3, e = e1 ++ x :: e2 ++ y :: e3 -> oprod_eqb (fst x) (fst y) = false) /\
  (forall x, In x e -> ~ Qval (snd x) == 0) /\
  (forall k, mcontains oprod_ltb k e = true <-> ~ coef oprod_eqb h k == 0).
Proof. exact (build_sum oprod_ltb oprod_eqb swo_oprod). Qed.
Print Assumptions C12_opexpr_sum.

(** C12 for whole programs over the API (add, +, -, unary -, scaling, @): the result exists, is
    well formed (sorted keys, canonical nonzero coefficients), and every linear functional takes
    on it the value it takes on the formal sum the program denotes. *)
Theorem C12_expression_programs : forall p : eprog term, pok p -> pkeys plain p ->
  exists e, peval term_ltb term_mul p = Ok e /\ wf term_ltb e /\ keysP plain e /\
    forall g, respects term_eqb plain g -> lsum g e == pmean term_mul g p.
Proof. exact (peval_ok term_ltb term_eqb swo_term plain term_mul term_mul_ok). Qed.
Print Assumptions C12_expression_programs.

Theorem C12_opexpr_programs : forall p : eprog oprod, pok p ->
  exists e, peval oprod_ltb oprod_mul p = Ok e /\ wf oprod_ltb e /\
    forall g, lsum g e == pmean oprod_mul g p.
Proof. exact opexpr_programs. Qed.
Print Assumptions C12_opexpr_programs.

(** C13: [==] decides equality of formal sums, whatever the order of the additions. *)
Theorem C13_expression_equality : forall h1 h2 : list (term * rational),
  Forall (fun x => canonical (snd x)) h1 -> Forall (fun x => canonical (snd x)) h2 ->
  mequal term_eqb (build term_ltb h1) (build term_ltb h2) = true <->
  (forall k, coef term_eqb h1 k == coef term_eqb h2 k).
Proof. exact (build_equal term_ltb term_eqb swo_term). Qed.
Print Assumptions C13_expression_equality.

Theorem C13_opexpr_equality : forall h1 h2 : list (oprod * rational),
  Forall (fun x => canonical (snd x)) h1 -> Forall (fun x => canonical (snd x)) h2 ->
  mequal oprod_eqb (build oprod_ltb h1) (build oprod_ltb h2) = true <->
  (forall k, coef oprod_eqb h1 k == coef oprod_eqb h2 k).
Proof. exact (build_equal oprod_ltb oprod_eqb swo_oprod). Qed.
Print Assumptions C13_opexpr_equality.

Theorem C13_wf_equality : forall a b : expression, wf term_ltb a -> wf term_ltb b ->
  mequal term_eqb a b = true <-> (forall k, coef term_eqb a k == coef term_eqb b k).
Proof. exact (mequal_coef term_ltb term_eqb swo_term). Qed.
Print Assumptions C13_wf_equality.

(** C14: scaling by a nonzero number is exact and keeps the expression well formed. *)
Theorem C14_scale_nonzero : forall (e : expression) c k, wf term_ltb e -> canonical c -> ~ Qval c == 0 ->
  wf term_ltb (mscale e c) /\ coef term_eqb (mscale e c) k == coef term_eqb e k * Qval c.
Proof. exact (scale_exact term_ltb term_eqb). Qed.
Print Assumptions C14_scale_nonzero.

(** C14 refuted: scaling by zero keeps every entry, with coefficient zero; the result compares equal
    to the empty expression only if the expression was empty. *)
Theorem C14_scale_zero_refuted : forall e : expression, wf term_ltb e ->
  length (mscale e (rat_of_Z 0)) = length e /\
  (forall x, In x (mscale e (rat_of_Z 0)) -> Qval (snd x) == 0) /\
  (mequal term_eqb (mscale e (rat_of_Z 0)) [] = true <-> e = []).
Proof. exact (scale_zero term_ltb term_eqb). Qed.
Print Assumptions C14_scale_zero_refuted.

(** C14: division throws exactly on zero, is exact otherwise, and keeps the expression well formed
    if the divisor is positive (for a negative one the coefficients are not canonical, C04). *)
Theorem C14_division : forall (e : expression) c, wf term_ltb e -> canonical c ->
  (Qval c == 0 -> mdiv e c = Throw) /\
  (~ Qval c == 0 -> exists e', mdiv e c = Ok e' /\ (forall k, coef term_eqb e' k == coef term_eqb e k / Qval c) /\
     (0 < Qval c -> wf term_ltb e')).
Proof. exact (div_spec term_ltb term_eqb). Qed.
Print Assumptions C14_division.

(** C15: dot is the sum over the entries of one factor of coefficient times coefficient in the
    other, symmetric, bilinear and positive. *)
Theorem C15_dot_value : forall a b : expression, wf term_ltb a -> wf term_ltb b ->
  Qval (mdot term_ltb a b) == lsum (coef term_eqb b) a /\ Qval (mdot term_ltb a b) == Qval (mdot term_ltb b a).
Proof. exact (dot_spec term_ltb term_eqb swo_term). Qed.
Print Assumptions C15_dot_value.
Theorem C15_dot_linear : forall (a b c : expression) s, wf term_ltb a -> wf term_ltb b -> wf term_ltb c -> canonical s ->
  Qval (mdot term_ltb (mplus term_ltb a b) c) == Qval (mdot term_ltb a c) + Qval (mdot term_ltb b c) /\
  Qval (mdot term_ltb (mminus term_ltb a b) c) == Qval (mdot term_ltb a c) - Qval (mdot term_ltb b c) /\
  Qval (mdot term_ltb (mneg term_ltb a) c) == - Qval (mdot term_ltb a c) /\
  Qval (mdot term_ltb (mscale a s) c) == Qval (mdot term_ltb a c) * Qval s.
Proof. exact (dot_linear term_ltb term_eqb swo_term). Qed.
Print Assumptions C15_dot_linear.
Theorem C15_dot_positive : forall a : expression, wf term_ltb a -> a <> [] -> 0 < Qval (mdot term_ltb a a).
Proof. exact (dot_pos term_ltb term_eqb swo_term). Qed.
Print Assumptions C15_dot_positive.

(** C16: the product of expressions without normal-ordered terms exists; the coefficient of [k] is
    the sum over all pairs of entries of the coefficient products, counting a pair when the terms
    side by side (left operators first) equal [k]. *)
Theorem C16_product_coefficient : forall a b : expression, wf term_ltb a -> wf term_ltb b -> keysP plain a -> keysP plain b ->
  exists r, mprod term_ltb term_mul a b = Ok r /\ wf term_ltb r /\
    forall k, coef term_eqb r k == lsum (fun k1 => lsum (fun k2 => ind term_eqb k (juxtapose k1 k2)) b) a.
Proof. exact expr_mprod_coef. Qed.
Print Assumptions C16_product_coefficient.
Theorem C16_opexpr_product_coefficient : forall a b : opexpr, wf oprod_ltb a -> wf oprod_ltb b ->
  exists r, mprod oprod_ltb oprod_mul a b = Ok r /\ wf oprod_ltb r /\
    forall k, coef oprod_eqb r k == lsum (fun k1 => lsum (fun k2 => ind oprod_eqb k (k1 ++ k2)) b) a.
Proof. exact opexpr_mprod_coef. Qed.
Print Assumptions C16_opexpr_product_coefficient.
Theorem C16_distributes_left : forall a b c : expression, wf term_ltb a -> wf term_ltb b -> wf term_ltb c ->
  keysP plain a -> keysP plain b -> keysP plain c ->
  exists r ac bc, mprod term_ltb term_mul (mplus term_ltb a b) c = Ok r /\ mprod term_ltb term_mul a c = Ok ac /\
    mprod term_ltb term_mul b c = Ok bc /\ mequal term_eqb r (mplus term_ltb ac bc) = true.
Proof. exact (mprod_plus_l term_ltb term_eqb swo_term plain term_mul term_mul_ok). Qed.
Print Assumptions C16_distributes_left.
Theorem C16_distributes_right : forall a b c : expression, wf term_ltb a -> wf term_ltb b -> wf term_ltb c ->
  keysP plain a -> keysP plain b -> keysP plain c ->
  exists r ca cb, mprod term_ltb term_mul c (mplus term_ltb a b) = Ok r /\ mprod term_ltb term_mul c a = Ok ca /\
    mprod term_ltb term_mul c b = Ok cb /\ mequal term_eqb r (mplus term_ltb ca cb) = true.
Proof. exact (mprod_plus_r term_ltb term_eqb swo_term plain term_mul term_mul_ok). Qed.
Print Assumptions C16_distributes_right.
Theorem C16_associative : forall a b c : expression, wf term_ltb a -> wf term_ltb b -> wf term_ltb c ->
  keysP plain a -> keysP plain b -> keysP plain c ->
  exists ab bc l r, mprod term_ltb term_mul a b = Ok ab /\ mprod term_ltb term_mul ab c = Ok l /\
    mprod term_ltb term_mul b c = Ok bc /\ mprod term_ltb term_mul a bc = Ok r /\ mequal term_eqb l r = true.
Proof. exact (mprod_assoc term_ltb term_eqb swo_term plain term_mul term_mul_ok). Qed.
Print Assumptions C16_associative.
Theorem C16_opexpr_associative : forall a b c : opexpr, wf oprod_ltb a -> wf oprod_ltb b -> wf oprod_ltb c ->
  exists ab bc l r, mprod oprod_ltb oprod_mul a b = Ok ab /\ mprod oprod_ltb oprod_mul ab c = Ok l /\
    mprod oprod_ltb oprod_mul b c = Ok bc /\ mprod oprod_ltb oprod_mul a bc = Ok r /\ mequal oprod_eqb l r = true.
Proof.
  exact (fun a b c Wa Wb Wc => mprod_assoc oprod_ltb oprod_eqb swo_oprod (fun _ => True) oprod_mul oprod_mul_ok a b c Wa Wb Wc
    (keysP_True a) (keysP_True b) (keysP_True c)).
Qed.
Print Assumptions C16_opexpr_associative.
(** Multiplying throws exactly when some pair of terms contains a term labelled normal ordered. *)
Theorem C16_product_throws : forall a b : expression,
  mprod term_ltb term_mul a b = Throw <->
  exists x y, In x a /\ In y b /\ (tm_no (fst x) = true \/ tm_no (fst y) = true).
Proof. exact expr_prod_throws. Qed.
Print Assumptions C16_product_throws.

(** C17: what [==] of terms compares: operators, tensor labels and tensor indices, nothing else. *)
Theorem C17_term_equality : forall a b, term_eqb a b = true <->
  tm_ops a = tm_ops b /\ map tkey (tm_tens a) = map tkey (tm_tens b).
Proof. exact term_eqb_key. Qed.
Print Assumptions C17_term_equality.
(** C17 refuted: so terms differing in the normal-order label, in the complex-conjugation flag or in
    the symmetry of their tensors are merged, and [t - t'] is the empty expression. *)
Theorem C17_flags_merged_refuted : forall t t' c, tm_ops t = tm_ops t' -> map tkey (tm_tens t) = map tkey (tm_tens t') ->
  canonical c -> ~ Qval c == 0 ->
  build term_ltb [(t, c); (t', c)] = [(t, rat_add c c)] /\ build term_ltb [(t, c); (t', rat_neg c)] = [].
Proof. exact flag_merge. Qed.
Print Assumptions C17_flags_merged_refuted.

(** C18. *)
Theorem C18_index : swo index_ltb index_eqb.    Proof. exact swo_index. Qed.
Theorem C18_sqop : swo sqop_ltb sqop_eqb.       Proof. exact swo_sqop. Qed.
Theorem C18_tensor : swo tensor_ltb tensor_eqb. Proof. exact swo_tensor. Qed.
Theorem C18_term : swo term_ltb term_eqb.       Proof. exact swo_term. Qed.
Theorem C18_graph_matrix : swo gmat_ltb gmat_eqb. Proof. exact swo_gmat. Qed.
Theorem C18_operator : swo oper_ltb oper_eqb.   Proof. exact swo_oper. Qed.
Theorem C18_operator_product : swo oprod_ltb oprod_eqb. Proof. exact swo_oprod. Qed.
Print Assumptions C18_index. Print Assumptions C18_sqop. Print Assumptions C18_tensor. Print Assumptions C18_term.
Print Assumptions C18_graph_matrix. Print Assumptions C18_operator. Print Assumptions C18_operator_product.

(** ** Non-vacuity *)
Definition ex_t : tensor := mkT ["t"%char] [mkI 0 0] [mkI 1 0] Antisymmetric false.
Definition ex_a : term := mkTerm false [mkSQ true (mkI 0 0); mkSQ false (mkI 1 0)] [ex_t].
Definition ex_b : term := mkTerm false [mkSQ true (mkI 0 1)] [tensor_adjoint ex_t].
Definition ex_h : list (term * rational) := [(ex_a, rat_make 1 2); (ex_b, rat_make 3 1); (ex_a, rat_make (-1) 3)].
Example C12_nonvacuous : Forall (fun x => canonical (snd x)) ex_h /\ length (build term_ltb ex_h) = 2%nat
  /\ build term_ltb (ex_h ++ [(ex_a, rat_make (-1) 6)]) = [(ex_b, rat_make 3 1)].
Proof. repeat split; repeat constructor; reflexivity. Qed.
Example C14_nonvacuous : wf term_ltb (build term_ltb ex_h) /\ keysP plain (build term_ltb ex_h).
Proof. split; [apply (build_wf term_ltb term_eqb swo_term); repeat constructor|repeat constructor]. Qed.
Example C14_witness : mequal term_eqb (mscale (build term_ltb ex_h) (rat_of_Z 0)) [] = false.
Proof. reflexivity. Qed.
Example C16_nonvacuous : exists r, mprod term_ltb term_mul (build term_ltb ex_h) (build term_ltb ex_h) = Ok r /\ length r = 4%nat.
Proof. eexists. split; reflexivity. Qed.
Example C17_witness : ex_t <> tensor_adjoint ex_t /\
  build term_ltb [(mkTerm true [] [ex_t], rat_of_Z 1); (mkTerm false [] [tensor_adjoint ex_t], rat_of_Z (-1))] = [].
Proof. split; [discriminate|reflexivity]. Qed.
