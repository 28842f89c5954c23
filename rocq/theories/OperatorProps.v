(** C25, C30-C34, C36, C55: operators, operator expressions, adjoints (list-level properties). *)
From Coq Require Import Ascii String ZArith QArith List Bool Permutation.
From Verif Require Import Res RegistryModel RegistryProofs CoreModel CombinatoricsModel RationalModel RationalSpec AlgebraModel AlgebraSpec AlgebraProofs AlgebraProofs2 OrderProofs
  SortSpec OperatorModel OperatorSpec OperatorProofs OperatorProofs2 OperatorProofs3 AdjointModel AdjointProofs OperatorExprSpec OperatorExprProofs.
Import ListNotations.
Local Open Scope Z_scope.

(** ** C25: adjoints *)
Theorem C25_term_involution : forall t, term_adjoint (term_adjoint t) = t.
Proof. exact term_adjoint_invol. Qed.
Print Assumptions C25_term_involution.
Theorem C25_expression_involution : forall e, wf term_ltb e -> wf term_ltb (expr_adjoint e) /\ expr_adjoint (expr_adjoint e) = e.
Proof. exact expr_adjoint_invol. Qed.
Print Assumptions C25_expression_involution.
Theorem C25_expression_coefficients : forall e t, wf term_ltb e -> (coef term_eqb (expr_adjoint e) (term_adjoint t) == coef term_eqb e t)%Q.
Proof. exact expr_adjoint_coef. Qed.
Print Assumptions C25_expression_coefficients.
Theorem C25_expression_additive : forall a b, wf term_ltb a -> wf term_ltb b ->
  mequal term_eqb (expr_adjoint (mplus term_ltb a b)) (mplus term_ltb (expr_adjoint a) (expr_adjoint b)) = true.
Proof. exact expr_adjoint_plus. Qed.
Print Assumptions C25_expression_additive.
(** The adjoint of a product of terms has the operators of the product of the adjoints in reverse order and
    the same tensors, but not in the same order ... *)
Theorem C25_term_product : forall a b ab ba, term_mul a b = Ok ab -> term_mul (term_adjoint b) (term_adjoint a) = Ok ba ->
  tm_ops (term_adjoint ab) = tm_ops ba /\ Permutation (tm_tens (term_adjoint ab)) (tm_tens ba) /\ tm_no (term_adjoint ab) = tm_no ba.
Proof.
  exact (fun a b ab ba => ltac:(
    unfold term_mul; simpl; rewrite (orb_comm (tm_no b)); destruct (tm_no a) eqn:?, (tm_no b) eqn:?; simpl; try discriminate;
    intros [= <-] [= <-]; unfold term_adjoint; simpl; rewrite sqops_adjoint_app, map_app;
    split; [reflexivity|split; [apply Permutation_app_comm|congruence]])).
Qed.
Print Assumptions C25_term_product.
(** ... so adjoint(a @ b) == adjoint(b) @ adjoint(a) fails for Expression, although both denote the same. *)
Definition tx (l : string) : text := list_ascii_of_string l.
Definition tens_A := mkT (tx "A") [mkI 0 0] [mkI 0 1] Antisymmetric false.
Definition tens_B := mkT (tx "B") [mkI 0 0] [mkI 0 1] Antisymmetric false.
Definition expr_A : expression := [(mkTerm false [] [tens_A], rat_of_Z 1)].
Definition expr_B : expression := [(mkTerm false [] [tens_B], rat_of_Z 1)].
Theorem C25_expression_product_refuted : exists a b ab ba, wf term_ltb a /\ wf term_ltb b /\
  mprod term_ltb term_mul a b = Ok ab /\ mprod term_ltb term_mul (expr_adjoint b) (expr_adjoint a) = Ok ba /\
  mequal term_eqb (expr_adjoint ab) ba = false.
Proof.
  exists expr_A, expr_B. eexists. eexists. split; [split; [|split]; repeat constructor; vm_compute; discriminate|].
  split; [split; [|split]; repeat constructor; vm_compute; discriminate|]. split; [reflexivity|]. split; reflexivity.
Qed.
Print Assumptions C25_expression_product_refuted.

(** Operators of a registry with at most 8 spaces ([op_valid]: a matrix with entries for the registered spaces). *)
Theorem C25_operator_involution : forall st o, (length (space_info st) <= 8)%nat -> op_valid st o ->
  exists o', op_adjoint st o = Ok o' /\ op_valid st o' /\ op_adjoint st o' = Ok o /\ op_label o' = op_label o /\ op_num o' = op_num o /\
    forall s, 0 <= s < num_spaces st -> cre_of (op_gm o') s = ann_of (op_gm o) s /\ ann_of (op_gm o') s = cre_of (op_gm o) s.
Proof. exact op_adjoint_spec. Qed.
Print Assumptions C25_operator_involution.
Theorem C25_oprod_reverses : forall st a b a' b', oprod_adjoint st a = Ok a' -> oprod_adjoint st b = Ok b' -> oprod_adjoint st (a ++ b) = Ok (b' ++ a').
Proof. exact oprod_adjoint_app. Qed.
Print Assumptions C25_oprod_reverses.
Theorem C25_opexpr_involution : forall st e, (length (space_info st) <= 8)%nat -> opexpr_valid st e -> wf oprod_ltb e ->
  exists e', opexpr_adjoint st e = Ok e' /\ wf oprod_ltb e' /\ opexpr_valid st e' /\ opexpr_adjoint st e' = Ok e /\
    forall p p', oprod_valid st p -> oprod_adjoint st p = Ok p' -> (coef oprod_eqb e' p' == coef oprod_eqb e p)%Q.
Proof. exact opexpr_adjoint_invol. Qed.
Print Assumptions C25_opexpr_involution.
Theorem C25_opexpr_product : forall st a b, (length (space_info st) <= 8)%nat -> opexpr_valid st a -> opexpr_valid st b -> wf oprod_ltb a -> wf oprod_ltb b ->
  exists ab a' b' l r, mprod oprod_ltb oprod_mul a b = Ok ab /\ opexpr_adjoint st a = Ok a' /\ opexpr_adjoint st b = Ok b' /\
    opexpr_adjoint st ab = Ok l /\ mprod oprod_ltb oprod_mul b' a' = Ok r /\ mequal oprod_eqb l r = true.
Proof. exact opexpr_adjoint_prod. Qed.
Print Assumptions C25_opexpr_product.
Theorem C25_opexpr_additive : forall st a b, (length (space_info st) <= 8)%nat -> opexpr_valid st a -> opexpr_valid st b -> wf oprod_ltb a -> wf oprod_ltb b ->
  exists a' b' l, opexpr_adjoint st a = Ok a' /\ opexpr_adjoint st b = Ok b' /\
    opexpr_adjoint st (mplus oprod_ltb a b) = Ok l /\ mequal oprod_eqb l (mplus oprod_ltb a' b') = true.
Proof. exact opexpr_adjoint_plus. Qed.
Print Assumptions C25_opexpr_additive.

(** ** C30: operator_expr *)
(** Each component (words separated by blanks or commas, first characters registered) gives a term with creation
    operators first, pairwise distinct indices, in the spaces given, in the order given, numbered below the number of
    words of the space; the tensor has the creation indices as lower and the reversed annihilation indices as upper
    indices. *)
Theorem C30_component_term : forall st label s ps no sym, reachable st -> joined ps s -> known_heads st ps ->
  exists cre ann, component_term st label s no sym =
      Ok (mkTerm no (map (mkSQ true) cre ++ map (mkSQ false) ann) [mkT label cre (rev ann) sym false]) /\
    NoDup (cre ++ ann) /\ in_spaces_of st cre (cre_pieces ps) /\ in_spaces_of st ann (ann_pieces ps) /\
    (forall i, In i (cre ++ ann) -> 0 <= ipos i < pieces_in st ps (isp i)).
Proof. exact (fun st label s ps no sym R => component_term_spec st label s ps no sym (reachable_ok st R)). Qed.
Print Assumptions C30_component_term.
(** The coefficient of a term is the number of components giving it: the requested coefficient [c] is ignored. *)
Theorem C30_coefficient_ignored : forall st label comps no sym c, (forall s, In s comps -> exists t, component_term st label s no sym = Ok t) ->
  exists e, operator_expr st label comps no sym c = Ok e /\ wf term_ltb e /\
    forall t, (coef term_eqb e t == inject_Z (Z.of_nat (term_count st label comps no sym t)))%Q.
Proof. exact operator_expr_spec. Qed.
Print Assumptions C30_coefficient_ignored.
Definition two_spaces : osi := fst (add_space (fst (add_space reset_space "o"%char Fermion Occupied [tx "i"; tx "j"] []))
  "v"%char Fermion Unoccupied [tx "a"; tx "b"] []).
Example two_spaces_reachable : reachable two_spaces.
Proof.
  apply (RS (fst (add_space reset_space "o"%char Fermion Occupied [tx "i"; tx "j"] [])) (CAdd "v"%char Fermion Unoccupied [tx "a"; tx "b"] [])); [|reflexivity].
  apply (RS reset_space (CAdd "o"%char Fermion Occupied [tx "i"; tx "j"] [])); [constructor|reflexivity].
Qed.
Theorem C30_coefficient_refuted : exists st label comps no sym c e t, reachable st /\
  operator_expr st label comps no sym c = Ok e /\ (forall s, In s comps -> component_term st label s no sym = Ok t) /\ length comps = 1%nat /\
  ~ (coef term_eqb e t == Qval c)%Q.
Proof.
  exists two_spaces, (tx "T"), [tx "v+ o"], true, Antisymmetric, (rat_of_Z 5). eexists. eexists.
  split; [exact two_spaces_reachable|]. split; [reflexivity|]. split; [intros s [<-|[]]; reflexivity|]. split; [reflexivity|]. vm_compute. discriminate.
Qed.
Print Assumptions C30_coefficient_refuted.
Example C30_nonvacuous : joined [tx "v+"; tx "v+"; tx "o"; tx "o"] (tx "v+ v+ o, o") /\ known_heads two_spaces [tx "v+"; tx "v+"; tx "o"; tx "o"] /\
  component_term two_spaces (tx "T") (tx "v+ v+ o, o") true Antisymmetric =
    Ok (mkTerm true [mkSQ true (mkI 1 0); mkSQ true (mkI 1 1); mkSQ false (mkI 0 1); mkSQ false (mkI 0 0)]
      [mkT (tx "T") [mkI 1 0; mkI 1 1] [mkI 0 0; mkI 0 1] Antisymmetric false]).
Proof.
  assert (W : forall w, w <> [] -> forallb (fun c => negb (is_sep c)) w = true -> word w).
  { intros w Hn Hw. split; [exact Hn|]. rewrite forallb_forall in Hw. apply Forall_forall. intros c Hc Hs. apply is_sep_ok in Hs. specialize (Hw c Hc). rewrite Hs in Hw. discriminate. }
  assert (Ga : forall w, w <> [] -> forallb is_sep w = true -> gap w).
  { intros w Hn Hw. split; [exact Hn|]. rewrite forallb_forall in Hw. apply Forall_forall. intros c Hc. apply is_sep_ok. auto. }
  split; [|split; [repeat constructor; eexists; eexists; eexists; (split; [reflexivity|reflexivity])|reflexivity]].
  apply (j_more (tx "v+") (tx " ") [tx "v+"; tx "o"; tx "o"] (tx "v+ o, o")); [apply W; [discriminate|reflexivity]|apply Ga; [discriminate|reflexivity]|].
  apply (j_more (tx "v+") (tx " ") [tx "o"; tx "o"] (tx "o, o")); [apply W; [discriminate|reflexivity]|apply Ga; [discriminate|reflexivity]|].
  apply (j_more (tx "o") (tx ", ") [tx "o"] (tx "o")); [apply W; [discriminate|reflexivity]|apply Ga; [discriminate|reflexivity]|].
  constructor. apply W; [discriminate|reflexivity].
Qed.

(** ** C31: Expression::reindex returns the expression unchanged whatever the map. *)
Theorem C31_reindex_identity : forall m e, expr_reindex m e = e.
Proof. exact (fun m e => eq_refl). Qed.
Print Assumptions C31_reindex_identity.
Theorem C31_reindex_refuted : exists m e, wf term_ltb e /\
  mequal term_eqb (expr_reindex m e) (build term_ltb (map (fun x => (term_reindex m (fst x), snd x)) e)) = false.
Proof.
  exists [(mkI 0 0, mkI 0 5)], expr_A. split; [split; [|split]; repeat constructor; vm_compute; discriminate|reflexivity].
Qed.
Print Assumptions C31_reindex_refuted.
(** Reindexing one term replaces each index by its image, in place. *)
Theorem C31_term_reindex : forall m t,
  map s_idx (tm_ops (term_reindex m t)) = map (reindex m) (map s_idx (tm_ops t)) /\
  map s_cre (tm_ops (term_reindex m t)) = map s_cre (tm_ops t) /\
  map t_lower (tm_tens (term_reindex m t)) = map (map (reindex m)) (map t_lower (tm_tens t)) /\
  map t_upper (tm_tens (term_reindex m t)) = map (map (reindex m)) (map t_upper (tm_tens t)) /\
  map t_label (tm_tens (term_reindex m t)) = map t_label (tm_tens t).
Proof.
  intros m t. unfold term_reindex. cbn [tm_ops tm_tens]. rewrite !map_map.
  split; [reflexivity|split; [reflexivity|split; [reflexivity|split; reflexivity]]].
Qed.
Print Assumptions C31_term_reindex.

(** ** C32: graph matrices *)
Theorem C32_add_sub : forall st g h, length g = 8%nat -> length h = 8%nat -> (length (space_info st) <= 8)%nat ->
  exists s, gm_add st g h = Ok s /\ gm_sub st s h = Ok g /\ length s = 8%nat.
Proof. exact gm_add_sub. Qed.
Print Assumptions C32_add_sub.
Theorem C32_add_counts : forall st g h s i, length g = 8%nat -> length h = 8%nat -> (length (space_info st) <= 8)%nat ->
  gm_add st g h = Ok s -> 0 <= i < num_spaces st ->
  cre_of s i = cre_of g i + cre_of h i /\ ann_of s i = ann_of g i + ann_of h i.
Proof. exact gm_add_counts. Qed.
Print Assumptions C32_add_counts.
Theorem C32_num_ops_additive : forall st g h s, gm_valid st h -> length g = 8%nat -> (length (space_info st) <= 8)%nat ->
  gm_add st g h = Ok s -> gm_num_ops s = gm_num_ops g + gm_num_ops h.
Proof. exact gm_add_num. Qed.
Print Assumptions C32_num_ops_additive.
Theorem C32_adjoint : forall st g, gm_valid st g -> (length (space_info st) <= 8)%nat ->
  exists h, gm_adjoint st g = Ok h /\ gm_valid st h /\ gm_adjoint st h = Ok g /\ gm_num_ops h = gm_num_ops g /\
   forall s, 0 <= s < num_spaces st -> cre_of h s = ann_of g s /\ ann_of h s = cre_of g s.
Proof. exact gm_adjoint_invol. Qed.
Print Assumptions C32_adjoint.
Theorem C32_make : forall st cre ann, length cre = length (space_info st) -> length ann = length (space_info st) -> (length (space_info st) <= 8)%nat ->
  exists g, gm_make st cre ann = Ok g /\ gm_valid st g /\ forall i, (i < length (space_info st))%nat -> nth_error g i = Some (nth i cre 0, nth i ann 0).
Proof. exact gm_make_spec. Qed.
Print Assumptions C32_make.
(** With 9 or more spaces building any operator accesses the array out of bounds. *)
Theorem C32_nine_spaces : forall st cre ann, length cre = length (space_info st) -> length ann = length (space_info st) ->
  (8 < length (space_info st))%nat -> gm_make st cre ann = UB.
Proof. exact gm_make_ub. Qed.
Print Assumptions C32_nine_spaces.

(** ** C33: canonicalizing a product only exchanges neighbours that share no contractible legs (with the sign
    (-1)^(number of legs of one times of the other), see OperatorSemProps for the meaning), leaves no neighbours
    out of order, and is idempotent. *)
Theorem C33_commute_meaning : forall st a b, nonneg_counts st a -> nonneg_counts st b -> ops_commute st a b = true <-> no_shared_legs st a b.
Proof. exact ops_commute_iff. Qed.
Print Assumptions C33_commute_meaning.
Theorem C33_exchanges : forall st p p' s, oprod_canonicalize st p = (p', s) ->
  com_swaps st p s p' /\ Permutation p p' /\ settledp st p' /\ oprod_canonicalize st p' = (p', 1).
Proof.
  exact (fun st p p' s E => conj (canonicalize_swaps st p p' s E) (conj (cs_perm st p p' s (canonicalize_swaps st p p' s E))
    (conj (canonicalize_settled st p p' s E) (canonicalize_idem st p p' s E)))).
Qed.
Print Assumptions C33_exchanges.

(** ** C34 *)
Theorem C34_commuting_products : forall st p q p' q' s t, all_commute st p -> Permutation p q ->
  oprod_canonicalize st p = (p', s) -> oprod_canonicalize st q = (q', t) -> p' = q' /\ ordered oper_ltb p'.
Proof. exact canonical_unique. Qed.
Print Assumptions C34_commuting_products.
Definition op_a := mkOp (tx "A") [(0, 1); (0, 0); (0, 0); (0, 0); (0, 0); (0, 0); (0, 0); (0, 0)].
Definition op_b := mkOp (tx "B") [(0, 0); (1, 0); (0, 0); (0, 0); (0, 0); (0, 0); (0, 0); (0, 0)].
Definition op_c := mkOp (tx "C") [(1, 0); (0, 0); (0, 0); (0, 0); (0, 0); (0, 0); (0, 0); (0, 0)].
Theorem C34_confluence_refuted : exists st p q s p' q' sp sq, reachable st /\ com_swaps st p s q /\
  oprod_canonicalize st p = (p', sp) /\ oprod_canonicalize st q = (q', sq) /\ p' <> q'.
Proof.
  exists two_spaces, [op_c; op_b; op_a], [op_c; op_a; op_b], (-1), [op_b; op_c; op_a], [op_c; op_a; op_b], (-1), 1.
  split; [exact two_spaces_reachable|]. split; [|split; [reflexivity|split; [reflexivity|discriminate]]].
  apply (cs_step two_spaces [op_c] op_b op_a [] 1); [reflexivity|constructor].
Qed.
Print Assumptions C34_confluence_refuted.
Example C34_nonvacuous : all_commute two_spaces [op_b; op_a; op_b] /\ oprod_canonicalize two_spaces [op_b; op_a; op_b] = ([op_a; op_b; op_b], -1).
Proof. split; [|reflexivity]. intros a b Ha Hb. repeat (destruct Ha as [<-|Ha]; [|]); try destruct Ha; repeat (destruct Hb as [<-|Hb]; [|]); try destruct Hb; reflexivity. Qed.

(** ** C36: op(label, components, unique) *)
Theorem C36_component : forall st label s, reachable st -> (length (space_info st) <= 8)%nat -> known_letters st s ->
  exists o, component_op st label s = Ok o /\ op_label o = label /\ gm_valid st (op_gm o) /\
    forall p l, space_label st p = Ok l -> letter l ->
      cre_of (op_gm o) p = occurrences s l true /\ ann_of (op_gm o) p = occurrences s l false.
Proof. exact (fun st label s R => component_op_spec st label s (reachable_ok st R)). Qed.
Print Assumptions C36_component.
Theorem C36_sum : forall st label comps, reachable st -> (length (space_info st) <= 8)%nat -> Forall (known_letters st) comps ->
  exists e, make_op_expr st label comps false = Ok e /\ wf oprod_ltb e /\
    (forall o, (coef oprod_eqb e [o] == inject_Z (Z.of_nat (comp_count st label comps o)))%Q) /\
    (forall k, length k <> 1%nat -> (coef oprod_eqb e k == 0)%Q).
Proof. exact (fun st label comps R => op_spec st label comps (reachable_ok st R)). Qed.
Print Assumptions C36_sum.
Theorem C36_sum_unique : forall st label comps, reachable st -> (length (space_info st) <= 8)%nat -> Forall (known_letters st) comps ->
  exists e, make_op_expr st label comps true = Ok e /\ wf oprod_ltb e /\
    forall k, ((exists o s, k = [o] /\ In s comps /\ component_op st label s = Ok o) -> (coef oprod_eqb e k == 1)%Q) /\
              (~ (exists o s, k = [o] /\ In s comps /\ component_op st label s = Ok o) -> (coef oprod_eqb e k == 0)%Q).
Proof. exact (fun st label comps R => op_spec_unique st label comps (reachable_ok st R)). Qed.
Print Assumptions C36_sum_unique.
Theorem C36_throws : forall st label comps u, reachable st -> (length (space_info st) <= 8)%nat ->
  make_op_expr st label comps u = Throw <-> exists s c, In s comps /\ In c s /\ letter c /\ label_to_space st c = Throw.
Proof. exact (fun st label comps u R => op_throws st label comps u (reachable_ok st R)). Qed.
Print Assumptions C36_throws.
Example C36_nonvacuous : known_letters two_spaces (tx "v+ v+ o o") /\
  make_op_expr two_spaces (tx "T") [tx "v+ v+ o o"; tx "v+ o"; tx "o v+"] false =
    Ok [([mkOp (tx "T") [(0, 1); (1, 0); (0, 0); (0, 0); (0, 0); (0, 0); (0, 0); (0, 0)]], rat_of_Z 2);
        ([mkOp (tx "T") [(0, 2); (2, 0); (0, 0); (0, 0); (0, 0); (0, 0); (0, 0); (0, 0)]], rat_of_Z 1)].
Proof.
  split; [|reflexivity]. intros c Hc Hl. apply is_letter_ok in Hl.
  repeat (destruct Hc as [<-|Hc]; [vm_compute in Hl; try discriminate; eexists; reflexivity|]). destruct Hc.
Qed.

(** ** C55: the factor of an operator is one over the product of the factorials of its counts. *)
Theorem C55_factor : forall st o, canonical (op_factor st o) /\
  (Qval (op_factor st o) * inject_Z (zprod (map (fun s => factorial (cre_of (op_gm o) s)) (range (num_spaces st)))
     * zprod (map (fun s => factorial (ann_of (op_gm o) s)) (range (num_spaces st)))) == 1)%Q.
Proof. exact op_factor_val. Qed.
Print Assumptions C55_factor.
Example C55_nonvacuous : op_factor two_spaces (mkOp (tx "T") [(0, 2); (3, 0); (0, 0); (0, 0); (0, 0); (0, 0); (0, 0); (0, 0)]) = rat_make 1 12.
Proof. reflexivity. Qed.
