(** C19, C20: sorting of indices with a sign, canonical form of a tensor. *)
From Coq Require Import ZArith List Bool Ascii Permutation.
From Verif Require Import Res RegistryModel CoreModel CombinatoricsModel SortModel SortSpec SortProofs.
Import ListNotations.
Local Open Scope Z_scope.

(** C19: the result is a rearrangement, in increasing (decreasing) order, and the sign counts the
    exchanges of neighbours that lead to it. *)
Theorem C19_canonicalize_indices : forall l r l' s, canonicalize_indices l r = (l', s) ->
  sperm l s l' /\ (if r then ordered (fun a b => index_ltb b a) l' else ordered index_ltb l').
Proof. exact canonicalize_indices_spec. Qed.
Print Assumptions C19_canonicalize_indices.
(** For distinct indices this determines the sign: it is the parity of the rearrangement. *)
Theorem C19_sign_is_parity : forall l r l' s s', NoDup l -> canonicalize_indices l r = (l', s) -> sperm l s' l' -> s = s'.
Proof. exact canonicalize_indices_sign. Qed.
Print Assumptions C19_sign_is_parity.
(** Whatever algorithm [std::sort] uses, its result is the one of the model. *)
Theorem C19_sort_deterministic : forall l tl,
  (ordered (pair_ltb index_ltb Z.ltb) tl -> Permutation (with_pos 0 l) tl ->
     canonicalize_indices l false = (map fst tl, permutation_sign (map snd tl))) /\
  (ordered (fun a b => pair_ltb index_ltb Z.ltb b a) tl -> Permutation (with_pos 0 l) tl ->
     canonicalize_indices l true = (map fst tl, permutation_sign (map snd tl))).
Proof. exact canonicalize_indices_sort_unique. Qed.
Print Assumptions C19_sort_deterministic.

(** C20: for every numerical tensor with the declared symmetry (elements in any type with a sign),
    the element is the returned sign times the element at the canonical indices. *)
Theorem C20_tensor_element : forall (V : Type) (opp : V -> V) (T : tensor_values V) t t' s, (forall v, opp (opp v) = v) ->
  tensor_canonicalize t = Ok (t', s) ->
  match t_sym t with
  | Antisymmetric => (forall lab lo cc, alternating opp (fun u => T lab lo u cc)) /\ (forall lab u cc, alternating opp (fun lo => T lab lo u cc))
  | _ => (forall lab lo cc, symmetric_fn (fun u => T lab lo u cc)) /\ (forall lab u cc, symmetric_fn (fun lo => T lab lo u cc))
  end ->
  tensor_elem T t = sgn opp s (tensor_elem T t').
Proof. exact @tensor_canon_elem. Qed.
Print Assumptions C20_tensor_element.
Theorem C20_tensor_form : forall t t' s, tensor_canonicalize t = Ok (t', s) ->
  t_label t' = t_label t /\ t_sym t' = t_sym t /\ t_cc t' = t_cc t /\
  Permutation (t_upper t) (t_upper t') /\ Permutation (t_lower t) (t_lower t') /\
  ordered index_ltb (t_upper t') /\ ordered index_ltb (t_lower t') /\ (s = 1 \/ s = -1) /\ tensor_canonicalize t' = Ok (t', 1).
Proof. exact tensor_canon_form. Qed.
Print Assumptions C20_tensor_form.
Theorem C20_nonsymmetric_throws : forall t, tensor_canonicalize t = Throw <-> t_sym t = Nonsymmetric.
Proof. exact tensor_canon_throws. Qed.
Print Assumptions C20_nonsymmetric_throws.

Definition ex_l := [mkI 0 2; mkI 0 0; mkI 1 0; mkI 0 1].
Example C19_nonvacuous : NoDup ex_l /\ canonicalize_indices ex_l false = ([mkI 0 0; mkI 0 1; mkI 0 2; mkI 1 0], -1)
  /\ canonicalize_indices ex_l true = ([mkI 1 0; mkI 0 2; mkI 0 1; mkI 0 0], -1).
Proof. split; [repeat constructor; simpl; intuition discriminate|split; reflexivity]. Qed.
(** An antisymmetric numerical tensor: elements are integers, the sign of the upper times that of
    the lower index list (0 if an index is repeated). *)
Definition ex_lc (l : list index) : Z :=
  if (Z.of_nat (length l) =? 2) then match l with [a; b] => if index_ltb a b then 1 else if index_ltb b a then -1 else 0 | _ => 0 end else 0.
Example C20_nonvacuous : (forall lab lo cc, alternating Z.opp (fun u => (fun (_ : text) l u (_ : bool) => ex_lc l * ex_lc u) lab lo u cc)) /\
  (fun (_ : text) l u (_ : bool) => ex_lc l * ex_lc u) ["t"%char] [mkI 0 0; mkI 0 1] [mkI 0 0; mkI 0 1] false = 1 /\
  tensor_canonicalize (mkT ["t"%char] [mkI 0 1; mkI 0 0] [mkI 0 0; mkI 0 1] Antisymmetric false) =
    Ok (mkT ["t"%char] [mkI 0 0; mkI 0 1] [mkI 0 0; mkI 0 1] Antisymmetric false, -1).
Proof.
  split; [|split; reflexivity]. intros lab lo cc l1 x y l2. rewrite <- Z.mul_opp_r. f_equal. unfold ex_lc.
  rewrite !app_length. simpl length. destruct (Z.of_nat _ =? 2) eqn:E; [|reflexivity].
  apply Z.eqb_eq in E. destruct l1; simpl in *; [|exfalso; Lia.lia]. destruct l2; simpl in *; [|exfalso; Lia.lia].
  destruct (index_ltb x y) eqn:E1, (index_ltb y x) eqn:E2; try reflexivity.
  assert (X := OrderProofs.swo_asym _ _ OrderProofs.swo_index _ _ E1). congruence.
Qed.
