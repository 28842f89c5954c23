(** Specification of many-body equations (C49) and einsum letters (C50). *)
From Coq Require Import ZArith List Bool Ascii.
From Verif Require Import Res PartitionsModel RegistryModel CoreModel RationalModel AlgebraModel TextModel TextSpec EquationModel.
Import ListNotations.
Local Open Scope Z_scope.

(** The equation of a term: a left-hand tensor with the indices of the creation operators below, in order, and those of the
    annihilation operators above, in reverse order; the tensors of the term on the right; its coefficient. *)
Definition creators (ops : list sqop) : list index := map s_idx (filter s_cre ops).
Definition annihilators (ops : list sqop) : list index := map s_idx (filter (fun o => negb (s_cre o)) ops).
Definition equation_of (label : text) (x : term * rational) : equation :=
  mkEq (mkTerm false [] [mkT label (creators (tm_ops (fst x))) (rev (annihilators (tm_ops (fst x)))) Antisymmetric false])
       (mkTerm false [] (tm_tens (fst x))) (snd x).
(** How many of the indices belong to a space. *)
Definition in_space (l : list index) (sp : Z) : nat := length (filter (fun i => isp i =? sp) l).
(** The labels of the spaces of a list of indices, in the order of the spaces. *)
Definition labels_of (st : osi) (l : list index) : text :=
  flat_map (fun p => repeat (os_label (fst p)) (in_space l (snd p))) (combine (space_info st) (map Z.of_nat (seq 0 (length (space_info st))))).
Definition key_of (st : osi) (x : term * rational) : text :=
  labels_of st (annihilators (tm_ops (fst x))) ++ ["|"%char] ++ rev (labels_of st (creators (tm_ops (fst x)))).
Definition registered_ops (st : osi) (e : expression) : Prop := forall x o, In x e -> In o (tm_ops (fst x)) -> 0 <= isp (s_idx o) < num_spaces st.

(** Slots of a tensor in the order einsum lists them. *)
Definition slots_of (t : tensor) : list index := t_upper t ++ t_lower t.
Definition is_letter (c : ascii) : Prop := In [c] alphabet.
(** All creation operators stand before the annihilation operators. *)
Definition cre_first (ops : list sqop) : Prop := exists n, forallb s_cre (firstn n ops) = true /\ forallb (fun o => negb (s_cre o)) (skipn n ops) = true.
(** No registered index name looks like a generated one. *)
Definition names_ok (st : osi) : Prop := forall sp names y, space_indices st sp = Ok names -> In y names -> ~ generic_name st y.
Definition index_dec (a b : index) : {a = b} + {a <> b}.
Proof. decide equality; apply Z.eq_dec. Defined.
