(** C77: contracting the adjoint gives the adjoint. *)
Set Warnings "-notation-overridden,-ambiguous-paths".
From Coq Require Import ZArith List Lia.
From mathcomp Require Import all_ssreflect ssralg ssrint rat ssrnum matrix.
From Verif Require Import Res RationalModel RationalSpec RegistryModel CoreModel AlgebraModel AlgebraSpec OperatorModel AdjointModel WickSearchModel WickSearchSpec WickCombSpec WickLegSpec SortSpec ScalarSem LadderSpec CanonSemSpec
  WickProductSpec WickEvalModel WickPairSpec WickTheoremSpec WickGeneralSpec WickStateSpec WickFockProofs WickFockProofs2 WickProductExample WickProductProps WickGeneralExample WickGeneralExample2 WickGeneralProps
  AdjWickSpec AdjWickProofs3 AdjWickProofs5 AdjWickProofs8 AdjWickExample WickGenProofs13.
Set Implicit Arguments.
Unset Strict Implicit.
Unset Printing Implicit Defensive.
Import GRing.Theory.
Local Open Scope ring_scope.
Local Notation one := (Zpos xH).
Local Notation two := (Zpos (xO xH)).
Local Notation four := (Zpos (xO (xO xH))).
Local Notation eight := (Zpos (xO (xO (xO xH)))).

(** The adjoint of a normal-ordered product is the normal-ordered product of the adjoint operators in the reverse order. *)
Theorem C77_normal_product : forall (K : fieldType) (A : algType K) (orb : eqType) (st : osi) (cre ann : Z -> orb -> A) (cj : {rmorphism K -> K}) (star : A -> A) (w : seq (bool * (Z * orb))),
  ladder_relations st cre ann -> single_reference st -> operator_adjoint cre ann cj star -> (forall x, In x w -> registered st x.2.1) ->
  star (normal_product st cre ann w) = normal_product st cre ann (adjoint_word w).
Proof. exact (fun K A orb st cre ann cj star w HL HS S => @star_normal_product K A orb st cre ann cj star HL HS S w). Qed.
Print Assumptions C77_normal_product.
(** [adjoint] of a product of operators is the adjoint of the product. *)
Theorem C77_operator_product : forall (K : fieldType) (A : algType K) (orb : eqType) (st : osi) (cre ann : Z -> orb -> A) (cj : {rmorphism K -> K}) (star : A -> A)
    (T : text -> seq (Z * orb) -> seq (Z * orb) -> bool -> K) (orbs : Z -> seq orb) (phi0 : index -> orb) (ops ops' : oprod),
  ladder_relations st cre ann -> single_reference st -> operator_adjoint cre ann cj star ->
  ops_ok st ops -> (forall o, In o ops -> hermitian_tensor cj T (op_label o)) -> oprod_adjoint st ops = Ok ops' ->
  product_value st cre ann T orbs phi0 ops' = star (product_value st cre ann T orbs phi0 ops).
Proof.
  exact (fun K A orb st cre ann cj star T orbs phi0 ops ops' HL HS S =>
    @prod_star K A orb st cre ann cj star S T (normal_product st cre ann) orbs phi0 (@star_normal_product K A orb st cre ann cj star HL HS S) ops ops').
Qed.
Print Assumptions C77_operator_product.
(** Contracting the adjoint product gives the adjoint of the result of contracting the product: as operators ... *)
Theorem C77_product : forall (K : fieldType) (A : algType K) (orb : eqType) (st : osi) (cre ann : Z -> orb -> A) (cj : {rmorphism K -> K}) (star : A -> A)
    (T : text -> seq (Z * orb) -> seq (Z * orb) -> bool -> K) (orbs : Z -> seq orb) (phi0 : index -> orb)
    (o o' : wt_opts) (factor : rational) (ops ops' : oprod) (minr maxr : Z) (r r' : expression),
  [char K] =i pred0 -> ladder_relations st cre ann -> single_reference st -> operator_adjoint cre ann cj star -> (forall s, uniq (orbs s)) ->
  product_ok st T ops -> (forall o, In o ops -> hermitian_tensor cj T (op_label o)) -> canonical factor -> Z.le minr Z0 -> Z.le (ops_rank ops) maxr ->
  oprod_adjoint st ops = Ok ops' ->
  contract o st factor ops minr maxr (Ok r) -> contract o' st factor ops' minr maxr (Ok r') ->
  expr_value (normal_product st cre ann) T orbs phi0 r' = star (expr_value (normal_product st cre ann) T orbs phi0 r).
Proof. exact (fun K A orb st cre ann cj star T orbs phi0 o o' factor ops ops' minr maxr r r' ch HL HS S U => @sr_product K A orb st cre ann cj star ch HL HS S T orbs phi0 U ops ops' minr maxr o o' factor r r'). Qed.
Print Assumptions C77_product.
(** ... and as the expression that [Expression::adjoint] returns, where the flag of a tensor stands for its conjugate. *)
Theorem C77_expression_adjoint : forall (K : fieldType) (A : algType K) (orb : eqType) (st : osi) (cre ann : Z -> orb -> A) (cj : {rmorphism K -> K}) (star : A -> A)
    (T : text -> seq (Z * orb) -> seq (Z * orb) -> bool -> K) (orbs : Z -> seq orb) (phi0 : index -> orb)
    (o o' : wt_opts) (factor : rational) (ops ops' : oprod) (minr maxr : Z) (r r' : expression),
  [char K] =i pred0 -> ladder_relations st cre ann -> single_reference st -> operator_adjoint cre ann cj star -> (forall s, uniq (orbs s)) ->
  (forall label, flag_conjugates cj T label) ->
  product_ok st T ops -> (forall o, In o ops -> hermitian_tensor cj T (op_label o)) -> canonical factor -> Z.le minr Z0 -> Z.le (ops_rank ops) maxr ->
  oprod_adjoint st ops = Ok ops' ->
  contract o st factor ops minr maxr (Ok r) -> contract o' st factor ops' minr maxr (Ok r') ->
  expr_value (normal_product st cre ann) T orbs phi0 r' = expr_value (normal_product st cre ann) T orbs phi0 (expr_adjoint r).
Proof. exact (fun K A orb st cre ann cj star T orbs phi0 o o' factor ops ops' minr maxr r r' ch HL HS S U => @sr_adjoint K A orb st cre ann cj star ch HL HS S T orbs phi0 U ops ops' minr maxr o o' factor r r'). Qed.
Print Assumptions C77_expression_adjoint.
(** The same for a range of ranks: for every linear function [f] that vanishes on the normal-ordered products of other lengths,
    and a function [f'] related to it by the adjoint and a conjugate-linear [h]. *)
Theorem C77_ranks : forall (K : fieldType) (A : algType K) (orb : eqType) (st : osi) (cre ann : Z -> orb -> A) (cj : {rmorphism K -> K}) (star : A -> A)
    (T : text -> seq (Z * orb) -> seq (Z * orb) -> bool -> K) (orbs : Z -> seq orb) (phi0 : index -> orb)
    (o o' : wt_opts) (factor : rational) (ops ops' : oprod) (minr maxr : Z) (r r' : expression)
    (V V' : lmodType K) (f : {linear A -> V}) (f' : {linear A -> V'}) (h : V -> V'),
  [char K] =i pred0 -> ladder_relations st cre ann -> single_reference st -> operator_adjoint cre ann cj star -> (forall s, uniq (orbs s)) ->
  (forall u v, h (u + v) = h u + h v) -> (forall c v, h (c *: v) = cj c *: h v) ->
  (forall w, (forall x, In x w -> registered st x.2.1) -> f' (normal_product st cre ann (adjoint_word w)) = h (f (normal_product st cre ann w))) ->
  product_ok st T ops -> (forall o, In o ops -> hermitian_tensor cj T (op_label o)) -> canonical factor -> only_ranks st cre ann f (ops_rank ops) minr maxr ->
  oprod_adjoint st ops = Ok ops' ->
  contract o st factor ops minr maxr (Ok r) -> contract o' st factor ops' minr maxr (Ok r') ->
  f' (expr_value (normal_product st cre ann) T orbs phi0 r') = h (f (expr_value (normal_product st cre ann) T orbs phi0 r)).
Proof. exact (fun K A orb st cre ann cj star T orbs phi0 o o' factor ops ops' minr maxr r r' V V' f f' h ch HL HS S U => @sr_ranks K A orb st cre ann cj star ch HL HS S T orbs phi0 U V V' f f' h ops ops' minr maxr o o' factor r r'). Qed.
Print Assumptions C77_ranks.
(** Sums of products of operators. *)
Theorem C77_expression : forall (K : fieldType) (A : algType K) (orb : eqType) (st : osi) (cre ann : Z -> orb -> A) (cj : {rmorphism K -> K}) (star : A -> A)
    (T : text -> seq (Z * orb) -> seq (Z * orb) -> bool -> K) (orbs : Z -> seq orb) (phi0 : index -> orb)
    (o o' : wt_opts) (factor : rational) (e e' : opexpr) (minr maxr : Z) (r r' : expression)
    (V V' : lmodType K) (f : {linear A -> V}) (f' : {linear A -> V'}) (h : V -> V'),
  [char K] =i pred0 -> ladder_relations st cre ann -> single_reference st -> operator_adjoint cre ann cj star -> (forall s, uniq (orbs s)) ->
  (forall u v, h (u + v) = h u + h v) -> (forall c v, h (c *: v) = cj c *: h v) ->
  (forall w, (forall x, In x w -> registered st x.2.1) -> f' (normal_product st cre ann (adjoint_word w)) = h (f (normal_product st cre ann w))) ->
  le (length (space_info st)) max_spaces -> mcanon e -> canonical factor ->
  (forall x, In x e -> product_ok st T x.1 /\ (forall o, In o x.1 -> hermitian_tensor cj T (op_label o)) /\ only_ranks st cre ann f (ops_rank x.1) minr maxr) ->
  opexpr_adjoint st e = Ok e' ->
  contract_expr o st factor e minr maxr (Ok r) -> contract_expr o' st factor e' minr maxr (Ok r') ->
  f' (expr_value (normal_product st cre ann) T orbs phi0 r') = h (f (expr_value (normal_product st cre ann) T orbs phi0 r)).
Proof. exact (fun K A orb st cre ann cj star T orbs phi0 o o' factor e e' minr maxr r r' V V' f f' h ch HL HS S U => @sr_expr K A orb st cre ann cj star ch HL HS S T orbs phi0 U V V' f f' h e e' minr maxr o o' factor r r'). Qed.
Print Assumptions C77_expression.
(** [contract(factor, adjoint, 0, 0)] is the conjugate of [contract(factor, product, 0, 0)]; ... *)
Theorem C77_expectation_value : forall (K : fieldType) (A : algType K) (orb : eqType) (st : osi) (cre ann : Z -> orb -> A) (cj : {rmorphism K -> K}) (star : A -> A)
    (T : text -> seq (Z * orb) -> seq (Z * orb) -> bool -> K) (orbs : Z -> seq orb) (phi0 : index -> orb)
    (o o' : wt_opts) (factor : rational) (ops ops' : oprod) (r r' : expression) (f : {linear A -> K^o}),
  [char K] =i pred0 -> ladder_relations st cre ann -> single_reference st -> operator_adjoint cre ann cj star -> (forall s, uniq (orbs s)) ->
  reference_state st cre ann f ->
  product_ok st T ops -> (forall o, In o ops -> hermitian_tensor cj T (op_label o)) -> canonical factor ->
  oprod_adjoint st ops = Ok ops' ->
  contract o st factor ops Z0 Z0 (Ok r) -> contract o' st factor ops' Z0 Z0 (Ok r') ->
  expr_value (@no_operators K orb) T orbs phi0 r' = cj (expr_value (@no_operators K orb) T orbs phi0 r : K).
Proof. exact (fun K A orb st cre ann cj star T orbs phi0 o o' factor ops ops' r r' f ch HL HS S U => @sr_expectation K A orb st cre ann cj star ch HL HS S T orbs phi0 U f ops ops' o o' factor r r'). Qed.
Print Assumptions C77_expectation_value.
(** ... so the expectation value of a product that is its own adjoint is real. *)
Theorem C77_self_adjoint : forall (K : fieldType) (A : algType K) (orb : eqType) (st : osi) (cre ann : Z -> orb -> A) (cj : {rmorphism K -> K}) (star : A -> A)
    (T : text -> seq (Z * orb) -> seq (Z * orb) -> bool -> K) (orbs : Z -> seq orb) (phi0 : index -> orb)
    (o : wt_opts) (factor : rational) (ops : oprod) (r : expression) (f : {linear A -> K^o}),
  [char K] =i pred0 -> ladder_relations st cre ann -> single_reference st -> operator_adjoint cre ann cj star -> (forall s, uniq (orbs s)) ->
  reference_state st cre ann f ->
  product_ok st T ops -> (forall o, In o ops -> hermitian_tensor cj T (op_label o)) -> canonical factor ->
  oprod_adjoint st ops = Ok ops ->
  contract o st factor ops Z0 Z0 (Ok r) ->
  cj (expr_value (@no_operators K orb) T orbs phi0 r : K) = expr_value (@no_operators K orb) T orbs phi0 r.
Proof. exact (fun K A orb st cre ann cj star T orbs phi0 o factor ops r f ch HL HS S U => @sr_real K A orb st cre ann cj star ch HL HS S T orbs phi0 U f ops o factor r). Qed.
Print Assumptions C77_self_adjoint.
(** General spaces, with the generalized normal-ordered product of Hermitian densities. *)
(** The adjoint of the generalized normal-ordered product. *)
Theorem C77_general_normal_product : forall (K : fieldType) (A : algType K) (orb : eqType) (st : osi) (cre ann : Z -> orb -> A) (cj : {rmorphism K -> K}) (star : A -> A)
    (T : text -> seq (Z * orb) -> seq (Z * orb) -> bool -> K) (maxc : nat) (N : seq (bool * (Z * orb)) -> A) (w : seq (bool * (Z * orb))),
  ladder_relations st cre ann -> multi_reference st -> operator_adjoint cre ann cj star -> densities st T -> hermitian_densities cj T st ->
  generalized_normal_product st cre ann T maxc N -> (forall x, In x w -> registered st x.2.1) ->
  star (N w) = N (adjoint_word w).
Proof. exact (fun K A orb st cre ann cj star T maxc N w HL HS S HD HH HN => @star_general K A orb st cre ann cj star HL HS S T maxc HD HH N HN w). Qed.
Print Assumptions C77_general_normal_product.
(** Contracting the adjoint product: as operators ... *)
Theorem C77_general_product : forall (K : fieldType) (A : algType K) (orb : eqType) (st : osi) (cre ann : Z -> orb -> A) (cj : {rmorphism K -> K}) (star : A -> A)
    (T : text -> seq (Z * orb) -> seq (Z * orb) -> bool -> K) (maxc : nat) (N : seq (bool * (Z * orb)) -> A) (orbs : Z -> seq orb) (phi0 : index -> orb)
    (o o' : wt_opts) (factor : rational) (ops ops' : oprod) (minr maxr : Z) (r r' : expression),
  [char K] =i pred0 -> ladder_relations st cre ann -> multi_reference st -> operator_adjoint cre ann cj star -> (forall s, uniq (orbs s)) ->
  (1 <= maxc)%N -> densities st T -> hermitian_densities cj T st -> generalized_normal_product st cre ann T maxc N ->
  gproduct_ok st T maxc ops -> no_triple st maxc ops' -> wt_maxcumulant o = Z.of_nat maxc -> wt_maxcumulant o' = Z.of_nat maxc ->
  (forall o, In o ops -> hermitian_tensor cj T (op_label o)) -> canonical factor -> Z.le minr Z0 -> Z.le (ops_rank ops) maxr ->
  oprod_adjoint st ops = Ok ops' ->
  contract o st factor ops minr maxr (Ok r) -> contract o' st factor ops' minr maxr (Ok r') ->
  expr_value N T orbs phi0 r' = star (expr_value N T orbs phi0 r).
Proof. exact (fun K A orb st cre ann cj star T maxc N orbs phi0 o o' factor ops ops' minr maxr r r' ch HL HS S U M1 HD HH HN => @gr_product K A orb st cre ann cj star ch HL HS S T maxc orbs phi0 U M1 HD HH N HN ops ops' minr maxr o o' factor r r'). Qed.
Print Assumptions C77_general_product.
(** ... and as the expression that [Expression::adjoint] returns. *)
Theorem C77_general_expression_adjoint : forall (K : fieldType) (A : algType K) (orb : eqType) (st : osi) (cre ann : Z -> orb -> A) (cj : {rmorphism K -> K}) (star : A -> A)
    (T : text -> seq (Z * orb) -> seq (Z * orb) -> bool -> K) (maxc : nat) (N : seq (bool * (Z * orb)) -> A) (orbs : Z -> seq orb) (phi0 : index -> orb)
    (o o' : wt_opts) (factor : rational) (ops ops' : oprod) (minr maxr : Z) (r r' : expression),
  [char K] =i pred0 -> ladder_relations st cre ann -> multi_reference st -> operator_adjoint cre ann cj star -> (forall s, uniq (orbs s)) ->
  (1 <= maxc)%N -> densities st T -> hermitian_densities cj T st -> generalized_normal_product st cre ann T maxc N ->
  (forall label, flag_conjugates cj T label) ->
  gproduct_ok st T maxc ops -> no_triple st maxc ops' -> wt_maxcumulant o = Z.of_nat maxc -> wt_maxcumulant o' = Z.of_nat maxc ->
  (forall o, In o ops -> hermitian_tensor cj T (op_label o)) -> canonical factor -> Z.le minr Z0 -> Z.le (ops_rank ops) maxr ->
  oprod_adjoint st ops = Ok ops' ->
  contract o st factor ops minr maxr (Ok r) -> contract o' st factor ops' minr maxr (Ok r') ->
  expr_value N T orbs phi0 r' = expr_value N T orbs phi0 (expr_adjoint r).
Proof. exact (fun K A orb st cre ann cj star T maxc N orbs phi0 o o' factor ops ops' minr maxr r r' ch HL HS S U M1 HD HH HN => @gr_adjoint K A orb st cre ann cj star ch HL HS S T maxc orbs phi0 U M1 HD HH N HN ops ops' minr maxr o o' factor r r'). Qed.
Print Assumptions C77_general_expression_adjoint.
(** A range of ranks. *)
Theorem C77_general_ranks : forall (K : fieldType) (A : algType K) (orb : eqType) (st : osi) (cre ann : Z -> orb -> A) (cj : {rmorphism K -> K}) (star : A -> A)
    (T : text -> seq (Z * orb) -> seq (Z * orb) -> bool -> K) (maxc : nat) (N : seq (bool * (Z * orb)) -> A) (orbs : Z -> seq orb) (phi0 : index -> orb)
    (o o' : wt_opts) (factor : rational) (ops ops' : oprod) (minr maxr : Z) (r r' : expression)
    (V V' : lmodType K) (f : {linear A -> V}) (f' : {linear A -> V'}) (h : V -> V'),
  [char K] =i pred0 -> ladder_relations st cre ann -> multi_reference st -> operator_adjoint cre ann cj star -> (forall s, uniq (orbs s)) ->
  (1 <= maxc)%N -> densities st T -> hermitian_densities cj T st -> generalized_normal_product st cre ann T maxc N ->
  (forall u v, h (u + v) = h u + h v) -> (forall c v, h (c *: v) = cj c *: h v) ->
  (forall w, (forall x, In x w -> registered st x.2.1) -> f' (N (adjoint_word w)) = h (f (N w))) ->
  gproduct_ok st T maxc ops -> no_triple st maxc ops' -> wt_maxcumulant o = Z.of_nat maxc -> wt_maxcumulant o' = Z.of_nat maxc ->
  (forall o, In o ops -> hermitian_tensor cj T (op_label o)) -> canonical factor -> gonly_ranks st N f (ops_rank ops) minr maxr ->
  oprod_adjoint st ops = Ok ops' ->
  contract o st factor ops minr maxr (Ok r) -> contract o' st factor ops' minr maxr (Ok r') ->
  f' (expr_value N T orbs phi0 r') = h (f (expr_value N T orbs phi0 r)).
Proof. exact (fun K A orb st cre ann cj star T maxc N orbs phi0 o o' factor ops ops' minr maxr r r' V V' f f' h ch HL HS S U M1 HD HH HN => @gr_ranks K A orb st cre ann cj star ch HL HS S T maxc orbs phi0 U M1 HD HH N HN V V' f f' h ops ops' minr maxr o o' factor r r'). Qed.
Print Assumptions C77_general_ranks.
(** Sums of products of operators. *)
Theorem C77_general_expression : forall (K : fieldType) (A : algType K) (orb : eqType) (st : osi) (cre ann : Z -> orb -> A) (cj : {rmorphism K -> K}) (star : A -> A)
    (T : text -> seq (Z * orb) -> seq (Z * orb) -> bool -> K) (maxc : nat) (N : seq (bool * (Z * orb)) -> A) (orbs : Z -> seq orb) (phi0 : index -> orb)
    (o o' : wt_opts) (factor : rational) (e e' : opexpr) (minr maxr : Z) (r r' : expression)
    (V V' : lmodType K) (f : {linear A -> V}) (f' : {linear A -> V'}) (h : V -> V'),
  [char K] =i pred0 -> ladder_relations st cre ann -> multi_reference st -> operator_adjoint cre ann cj star -> (forall s, uniq (orbs s)) ->
  (1 <= maxc)%N -> densities st T -> hermitian_densities cj T st -> generalized_normal_product st cre ann T maxc N ->
  (forall u v, h (u + v) = h u + h v) -> (forall c v, h (c *: v) = cj c *: h v) ->
  (forall w, (forall x, In x w -> registered st x.2.1) -> f' (N (adjoint_word w)) = h (f (N w))) ->
  le (length (space_info st)) max_spaces -> mcanon e -> wt_maxcumulant o = Z.of_nat maxc -> wt_maxcumulant o' = Z.of_nat maxc -> canonical factor ->
  (forall x, In x e -> gproduct_ok st T maxc x.1 /\ (forall p, oprod_adjoint st x.1 = Ok p -> no_triple st maxc p) /\
    (forall o, In o x.1 -> hermitian_tensor cj T (op_label o)) /\ gonly_ranks st N f (ops_rank x.1) minr maxr) ->
  opexpr_adjoint st e = Ok e' ->
  contract_expr o st factor e minr maxr (Ok r) -> contract_expr o' st factor e' minr maxr (Ok r') ->
  f' (expr_value N T orbs phi0 r') = h (f (expr_value N T orbs phi0 r)).
Proof. exact (fun K A orb st cre ann cj star T maxc N orbs phi0 o o' factor e e' minr maxr r r' V V' f f' h ch HL HS S U M1 HD HH HN => @gr_expr K A orb st cre ann cj star ch HL HS S T maxc orbs phi0 U M1 HD HH N HN V V' f f' h e e' minr maxr o o' factor r r'). Qed.
Print Assumptions C77_general_expression.
(** Expectation values in a correlated state. *)
Theorem C77_general_expectation_value : forall (K : fieldType) (A : algType K) (orb : eqType) (st : osi) (cre ann : Z -> orb -> A) (cj : {rmorphism K -> K}) (star : A -> A)
    (T : text -> seq (Z * orb) -> seq (Z * orb) -> bool -> K) (maxc : nat) (N : seq (bool * (Z * orb)) -> A) (orbs : Z -> seq orb) (phi0 : index -> orb)
    (o o' : wt_opts) (factor : rational) (ops ops' : oprod) (r r' : expression) (f : {linear A -> K^o}),
  [char K] =i pred0 -> ladder_relations st cre ann -> multi_reference st -> operator_adjoint cre ann cj star -> (forall s, uniq (orbs s)) ->
  (1 <= maxc)%N -> densities st T -> hermitian_densities cj T st -> generalized_normal_product st cre ann T maxc N ->
  correlated_state st cre ann T maxc f ->
  gproduct_ok st T maxc ops -> no_triple st maxc ops' -> wt_maxcumulant o = Z.of_nat maxc -> wt_maxcumulant o' = Z.of_nat maxc ->
  (forall o, In o ops -> hermitian_tensor cj T (op_label o)) -> canonical factor ->
  oprod_adjoint st ops = Ok ops' ->
  contract o st factor ops Z0 Z0 (Ok r) -> contract o' st factor ops' Z0 Z0 (Ok r') ->
  expr_value (@no_operators K orb) T orbs phi0 r' = cj (expr_value (@no_operators K orb) T orbs phi0 r : K).
Proof. exact (fun K A orb st cre ann cj star T maxc N orbs phi0 o o' factor ops ops' r r' f ch HL HS S U M1 HD HH HN => @gr_expectation K A orb st cre ann cj star ch HL HS S T maxc orbs phi0 U M1 HD HH N HN f ops ops' o o' factor r r'). Qed.
Print Assumptions C77_general_expectation_value.
(** The expectation value of a product that is its own adjoint is real. *)
Theorem C77_general_self_adjoint : forall (K : fieldType) (A : algType K) (orb : eqType) (st : osi) (cre ann : Z -> orb -> A) (cj : {rmorphism K -> K}) (star : A -> A)
    (T : text -> seq (Z * orb) -> seq (Z * orb) -> bool -> K) (maxc : nat) (N : seq (bool * (Z * orb)) -> A) (orbs : Z -> seq orb) (phi0 : index -> orb)
    (o : wt_opts) (factor : rational) (ops : oprod) (r : expression) (f : {linear A -> K^o}),
  [char K] =i pred0 -> ladder_relations st cre ann -> multi_reference st -> operator_adjoint cre ann cj star -> (forall s, uniq (orbs s)) ->
  (1 <= maxc)%N -> densities st T -> hermitian_densities cj T st -> generalized_normal_product st cre ann T maxc N ->
  correlated_state st cre ann T maxc f ->
  gproduct_ok st T maxc ops -> wt_maxcumulant o = Z.of_nat maxc -> (forall o, In o ops -> hermitian_tensor cj T (op_label o)) -> canonical factor ->
  oprod_adjoint st ops = Ok ops ->
  contract o st factor ops Z0 Z0 (Ok r) ->
  cj (expr_value (@no_operators K orb) T orbs phi0 r : K) = expr_value (@no_operators K orb) T orbs phi0 r.
Proof. exact (fun K A orb st cre ann cj star T maxc N orbs phi0 o factor ops r f ch HL HS S U M1 HD HH HN => @gr_real K A orb st cre ann cj star ch HL HS S T maxc orbs phi0 U M1 HD HH N HN f ops o factor r). Qed.
Print Assumptions C77_general_self_adjoint.
(** The adjoint of a product of operators. *)
Theorem C77_general_operator_product : forall (K : fieldType) (A : algType K) (orb : eqType) (st : osi) (cre ann : Z -> orb -> A) (cj : {rmorphism K -> K}) (star : A -> A)
    (T : text -> seq (Z * orb) -> seq (Z * orb) -> bool -> K) (maxc : nat) (N : seq (bool * (Z * orb)) -> A) (orbs : Z -> seq orb) (phi0 : index -> orb) (ops ops' : oprod),
  ladder_relations st cre ann -> multi_reference st -> operator_adjoint cre ann cj star -> densities st T -> hermitian_densities cj T st ->
  generalized_normal_product st cre ann T maxc N ->
  ops_ok st ops -> (forall o, In o ops -> hermitian_tensor cj T (op_label o)) -> oprod_adjoint st ops = Ok ops' ->
  gproduct_value st T N orbs phi0 ops' = star (gproduct_value st T N orbs phi0 ops).
Proof.
  exact (fun K A orb st cre ann cj star T maxc N orbs phi0 ops ops' HL HS S HD HH HN =>
    @prod_star K A orb st cre ann cj star S T N orbs phi0 (@star_general K A orb st cre ann cj star HL HS S T maxc HD HH N HN) ops ops').
Qed.
Print Assumptions C77_general_operator_product.

(** The hypotheses can be met for every registry, every field with a conjugation and every finite set of orbitals: on the Fock
    space the conjugate transpose is an adjoint. *)
Theorem C77_fock_space : forall (K : fieldType) (st : osi) (orb : finType) (cj : {rmorphism K -> K}), multi_reference st ->
  exists (A : algType K) (cre ann : Z -> orb -> A) (star : A -> A), ladder_relations st cre ann /\ operator_adjoint cre ann cj star /\
    (single_reference st -> exists f : {linear A -> K^o}, reference_state st cre ann f).
Proof.
  exact (fun K st orb cj HM => let: ex_intro n dE := fock_dim [finType of 'I_(Z.to_nat (num_spaces st)).+1 * orb] in
    ex_intro _ _ (ex_intro _ _ (ex_intro _ _ (ex_intro _ _ (conj (fock_relations_multi K HM dE) (conj (@fock_operator_adjoint K st orb n dE cj)
      (fun HS => ex_intro _ _ (fock_reference K HS dE)))))))).
Qed.
Print Assumptions C77_fock_space.

(** Non-vacuity: the adjoint of V T is T+ V+; V V+ is its own adjoint. *)
Example C77_nonvacuous : [char rat] =i pred0 /\ single_reference wp_st /\ product_ok wp_st wp_T wp_ops /\
  (forall label, hermitian_tensor [rmorphism of idfun] wp_T label) /\ (forall label, flag_conjugates [rmorphism of idfun] wp_T label) /\
  oprod_adjoint wp_st wp_ops = Ok wp_adj /\ wp_adj <> wp_ops /\
  (exists r, contract (mkWT two true) wp_st (rat_of_Z one) wp_ops Z0 eight (Ok r)) /\
  (exists r, contract (mkWT two true) wp_st (rat_of_Z one) wp_adj Z0 eight (Ok r)) /\
  product_ok wp_st wp_T sa_ops /\ oprod_adjoint wp_st sa_ops = Ok sa_ops /\
  (exists els cvs, search 50 (mkWT eight true) wp_st sa_ops Z0 Z0 = Ok (els, cvs) /\ (1 <= length cvs)%coq_nat) /\
  (exists r, contract (mkWT two true) wp_st (rat_of_Z one) sa_ops Z0 Z0 (Ok r)) /\
  exists (A : algType [fieldType of rat]) (cre ann : Z -> bool -> A) (star : A -> A), ladder_relations wp_st cre ann /\ operator_adjoint cre ann [rmorphism of idfun] star /\
    (single_reference wp_st -> exists f : {linear A -> rat^o}, reference_state wp_st cre ann f).
Proof.
  have HS : single_reference wp_st by move=> s /wp_space [->|->]; split=> //; [left|right].
  have HA label : antisymmetric_tensor wp_T label by split=> [lo|up] l1 x y l2; rewrite /wp_T anti_alternating ?mulrN ?mulNr.
  split; first exact: Num.Theory.char_num. split=> //. split; first (split; [exact: wp_ok|split=> //; exact: wp_double]).
  split; first by move=> label lo up; rewrite /wp_T /= mulrC. split=> //. split; first exact: wp_adjoint. split=> //.
  split; first exact: wp_contract. split; first exact: wp_adj_contract. split; first (split; [exact: sa_ok|split=> //; exact: sa_double]).
  split; first exact: sa_adjoint. split; first exact: sa_search. split; first exact: sa_contract.
  exact: (@C77_fock_space [fieldType of rat] wp_st [finType of bool] [rmorphism of idfun] (single_multi HS)).
Qed.
(** Densities of half-filled general orbitals; F G and its adjoint. *)
Definition wgT (_ : text) (lo up : seq (Z * bool)) (_ : bool) : rat :=
  if (lo, up) is ([:: p], [:: q]) then 2%:R^-1 * (p.2 == q.2)%:R else anti lo * anti up.
Example C77_general_nonvacuous : [char rat] =i pred0 /\ multi_reference wg_st /\ (1 <= 2)%N /\ densities wg_st wgT /\ hermitian_densities [rmorphism of idfun] wgT wg_st /\
  (exists s, registered wg_st s /\ stype wg_st s = Some General) /\
  (forall label, hermitian_tensor [rmorphism of idfun] wgT label) /\ (forall label, flag_conjugates [rmorphism of idfun] wgT label) /\
  gproduct_ok wg_st wgT 2 wg_ops /\ no_triple wg_st 2 wg_adj /\ oprod_adjoint wg_st wg_ops = Ok wg_adj /\ wg_adj <> wg_ops /\
  (exists r, contract (mkWT two true) wg_st (rat_of_Z one) wg_ops Z0 four (Ok r)) /\
  (exists r, contract (mkWT two true) wg_st (rat_of_Z one) wg_adj Z0 four (Ok r)) /\
  exists (A : algType [fieldType of rat]) (cre ann : Z -> bool -> A) (star : A -> A) (N : seq (bool * (Z * bool)) -> A),
    ladder_relations wg_st cre ann /\ operator_adjoint cre ann [rmorphism of idfun] star /\ generalized_normal_product wg_st cre ann wgT 2 N.
Proof.
  have HA label : antisymmetric_tensor wgT label.
  { have X (g : bool -> seq (Z * bool) -> seq (Z * bool) -> rat) w l1 x y l2 : (forall b v u, g b v u = wgT label v u b) ->
      wgT label w (l1 ++ x :: y :: l2)%list false = - wgT label w (l1 ++ y :: x :: l2)%list false.
    { move=> _. have E : wgT label w (l1 ++ x :: y :: l2)%list false = anti w * anti (l1 ++ x :: y :: l2)%list by rewrite /wgT; case: (w) => [|? [|? ?]] //; case: (l1) => [|? [|? ?]].
      have E' : wgT label w (l1 ++ y :: x :: l2)%list false = anti w * anti (l1 ++ y :: x :: l2)%list by rewrite /wgT; case: (w) => [|? [|? ?]] //; case: (l1) => [|? [|? ?]].
      by rewrite E E' anti_alternating mulrN. }
    have Sy v u b : wgT label v u b = wgT label u v b by rewrite /wgT; case: v => [|p [|? ?]]; case: u => [|q [|? ?]] //; first [exact: mulrC|by rewrite [in LHS]eq_sym].
    split=> [lo|up] l1 x y l2; first exact: (X (fun b v u => wgT label v u b)). rewrite Sy [in RHS]Sy. exact: (X (fun b v u => wgT label v u b)). }
  have HH label : hermitian_tensor [rmorphism of idfun] wgT label.
  { move=> lo up /=. rewrite /wgT; case: lo => [|p [|? ?]]; case: up => [|q [|? ?]] //; first [exact: mulrC|by rewrite [in LHS]eq_sym]. }
  have HM : multi_reference wg_st := wg_multi.
  split; first exact: Num.Theory.char_num. split=> //. split=> //.
  split. { split=> // s p q _ _. rewrite /wgT /= [q == p]eq_sym. case: (p == q); rewrite ?mulr0 ?subr0 // mulr1. }
  split; first by move=> _; split=> [|k _]; exact: HH. split; first by exists one. split; first exact: HH. split=> //.
  split; first (split; [exact: wg_ok|split=> //; exact: (few_legs_no_triple _ _ _ wg_few)]). split; first exact: (few_legs_no_triple _ _ _ wg_adj_few).
  split; first exact: wg_adjoint. split=> //. split; first exact: wg_contract. split; first exact: wg_adj_contract.
  have [A [cre [ann [star [HL [HA' _]]]]]] := @C77_fock_space [fieldType of rat] wg_st [finType of bool] [rmorphism of idfun] HM.
  have [N [HN _]] := @C61_normal_product _ A _ wg_st cre ann wgT 2. by exists A, cre, ann, star, N.
Qed.
