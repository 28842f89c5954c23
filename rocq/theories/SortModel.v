(** Sorting, [canonicalize_indices], [Tensor::canonicalize], [canonicalize_sqops]. *)
From Coq Require Import ZArith List Bool.
From Verif Require Import Res RegistryModel CoreModel CombinatoricsModel.
Import ListNotations.
Local Open Scope Z_scope.

(** [std::sort] (not a function of /repo).  Insertion sort: for a strict weak ordering it returns a
    sorted rearrangement, and every sorted rearrangement when elements are pairwise
    distinguishable by the ordering ([SortProofs.sort_unique]); where ties are possible the models
    quantify over all sorted rearrangements instead. *)
Fixpoint insert_by {A} (lt : A -> A -> bool) (a : A) (l : list A) : list A :=
  match l with
  | [] => [a]
  | b :: l' => if lt b a then b :: insert_by lt a l' else a :: l
  end.
Fixpoint sort_by {A} (lt : A -> A -> bool) (l : list A) : list A :=
  match l with [] => [] | a :: l' => insert_by lt a (sort_by lt l') end.

(** index.cc:36-39, sqoperator.cc:133-136: pair every element with its position. *)
Fixpoint with_pos {A} (n : Z) (l : list A) : list (A * Z) :=
  match l with [] => [] | a :: l' => (a, n) :: with_pos (n + 1) l' end.

(** index.cc:40-46: [std::sort] of the (element, position) pairs, through reverse iterators for the
    decreasing order. *)
Definition sort_pairs {A} (lt : A -> A -> bool) (reversed : bool) (l : list A) : list (A * Z) :=
  let s := sort_by (pair_ltb lt Z.ltb) (with_pos 0 l) in
  if reversed then rev s else s.

(** index.cc:35-54 and sqoperator.cc:132-151: the rearranged list and the sign. *)
Definition canonicalize_list {A} (lt : A -> A -> bool) (l : list A) (reversed : bool) : list A * Z :=
  let s := sort_pairs lt reversed l in (map fst s, permutation_sign (map snd s)).
Definition canonicalize_indices : list index -> bool -> list index * Z := canonicalize_list index_ltb.
Definition canonicalize_sqops : list sqop -> bool -> list sqop * Z := canonicalize_list sqop_ltb.

(** tensor.cc:77-90.  Signs are kept as integers; [scalar_t] products of 1 and -1 are exact (C02). *)
Definition tensor_canonicalize (t : tensor) : res (tensor * Z) :=
  match t_sym t with
  | Nonsymmetric => Throw
  | _ =>
    let '(u, su) := canonicalize_indices (t_upper t) false in
    let '(l, sl) := canonicalize_indices (t_lower t) false in
    Ok (mkT (t_label t) l u (t_sym t) (t_cc t),
        match t_sym t with Antisymmetric => su * sl | _ => 1 end)
  end.
