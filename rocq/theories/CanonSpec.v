(** Specification vocabulary for the canonicalization of terms. *)
From Coq Require Import ZArith List Bool Permutation.
From Verif Require Import RegistryModel CoreModel AlgebraModel SortSpec.
Import ListNotations.
Local Open Scope Z_scope.

(** [i] occurs in a tensor / on an operator of the term. *)
Definition in_tensors (t : term) (i : index) : Prop := exists d, In d (tm_tens t) /\ (In i (t_lower d) \/ In i (t_upper d)).
Definition in_ops (t : term) (i : index) : Prop := exists o, In o (tm_ops t) /\ s_idx o = i.
Definition in_term (t : term) (i : index) : Prop := in_ops t i \/ in_tensors t i.
(** Every operator index occurs in a tensor. *)
Definition ops_covered (t : term) : Prop := forall i, in_ops t i -> in_tensors t i.
(** All indices belong to registered spaces. *)
Definition term_spaces (st : osi) (t : term) : Prop := forall i, in_term t i -> 0 <= isp i < num_spaces st.

(** Renaming the indices of tensors and operators. *)
Definition rename_op (f : index -> index) (o : sqop) : sqop := mkSQ (s_cre o) (f (s_idx o)).
Definition rename_tensor (f : index -> index) (d : tensor) : tensor :=
  mkT (t_label d) (map f (t_lower d)) (map f (t_upper d)) (t_sym d) (t_cc d).
(** The same tensor up to the order of its upper and of its lower indices. *)
Definition same_tensor (d d' : tensor) : Prop :=
  t_label d = t_label d' /\ t_sym d = t_sym d' /\ t_cc d = t_cc d' /\ Permutation (t_lower d) (t_lower d') /\ Permutation (t_upper d) (t_upper d').
(** [t'] is [t] with indices renamed by [f], up to the order of tensors, operators and indices. *)
Definition renamed (f : index -> index) (t t' : term) : Prop :=
  tm_no t' = tm_no t /\ Permutation (map (rename_op f) (tm_ops t)) (tm_ops t') /\
  exists ts, Permutation (map (rename_tensor f) (tm_tens t)) ts /\ Forall2 same_tensor ts (tm_tens t').
Definition injective_on (P : index -> Prop) (f : index -> index) : Prop := forall i j, P i -> P j -> f i = f j -> i = j.

(** Number of operators in a space, number of slots (operators and tensor indices) in a space. *)
Definition ops_in_space (t : term) (s : Z) : nat := length (filter (fun o => s_space o =? s) (tm_ops t)).
Definition slots_in_space (t : term) (s : Z) : nat :=
  (ops_in_space t s + length (filter (fun i => (isp i =? s)%Z) (concat (map (fun d => t_lower d ++ t_upper d) (tm_tens t)))))%nat.
