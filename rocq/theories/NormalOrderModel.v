(** Model of vacuum normal ordering: symbolic_term_normal_order.cc, expression_normal_order.cc. *)
From Coq Require Import ZArith List Bool Ascii String.
From Verif Require Import Res RegistryModel CoreModel RationalModel AlgebraModel.
Import ListNotations.
Local Open Scope Z_scope.

(** [std::adjacent_find]: the first adjacent pair satisfying [p], with what precedes and follows. *)
Fixpoint first_adj {A} (p : A -> A -> bool) (l : list A) : option (list A * A * A * list A) :=
  match l with
  | a :: ((b :: l'') as l') =>
      if p a b then Some ([], a, b, l'')
      else match first_adj p l' with
           | Some (pre, x, y, post) => Some (a :: pre, x, y, post)
           | None => None
           end
  | _ => None
  end.

(** sqoperator.cc:15-17. *)
Definition s_field (st : osi) (a : sqop) : field_type := field_of st (s_space a).

(** symbolic_term_normal_order.cc:12-15. *)
Definition both_fermions (st : osi) (a b : sqop) : bool :=
  match s_field st a, s_field st b with Fermion, Fermion => true | _, _ => false end.

(** sqoperator.cc:102-115. *)
Definition commutator_factor (st : osi) (a b : sqop) : Z := if both_fermions st a b then -1 else 1.

(** helpers.h:190-199 with the predicate of symbolic_term_normal_order.cc:30-31. *)
Definition no_adjacent_identical (st : osi) (ops : list sqop) : bool :=
  match first_adj (fun a b => sqop_eqb a b && both_fermions st a b) ops with Some _ => false | None => true end.

(** symbolic_term_normal_order.cc:83. *)
Definition delta_label : text := list_ascii_of_string "delta".

(** symbolic_term_normal_order.cc:80-85: the delta tensor of a contraction of different indices. *)
Definition delta_tensors (a b : sqop) : list tensor :=
  if index_eqb (s_idx a) (s_idx b) then []
  else [mkT delta_label [if s_cre b then s_idx a else s_idx b] [if s_cre b then s_idx b else s_idx a]
            Nonsymmetric false].

(** symbolic_term_normal_order.cc:63-66: is the pair contracted? *)
Definition contracts (only_same : bool) (a b : sqop) : bool :=
  negb (Bool.eqb (s_cre a) (s_cre b)) && (s_space a =? s_space b)
  && (negb only_same || index_eqb (s_idx a) (s_idx b)).

(** symbolic_term_normal_order.cc:17-91, [recursive_vacuum_normal_order]: the pairs appended to
    [new_terms], in order.  Recursion on [fuel] (the C++ recursion is bounded by the number of
    inversions, see C21). *)
Fixpoint vno_rec (fuel : nat) (st : osi) (only_same : bool) (t : term) (c : rational) : res (list (term * rational)) :=
  match fuel with
  | O => NoFuel
  | S fuel' =>
    match tm_ops t with
    | [] => Ok [(t, c)]                                                       (* lines 24-27 *)
    | _ =>
      if negb (no_adjacent_identical st (tm_ops t)) then Ok []                (* lines 30-34 *)
      else match first_adj (fun a b => sqop_ltb b a) (tm_ops t) with          (* lines 37-43 *)
      | None => Ok [(t, c)]
      | Some (pre, a, b, post) =>
        bind (vno_rec fuel' st only_same                                      (* lines 49-59 *)
                (mkTerm false (pre ++ b :: a :: post) (tm_tens t))
                (rat_mul c (rat_of_Z (commutator_factor st a b)))) (fun swapped =>
        if contracts only_same a b then                                       (* lines 64-88 *)
          bind (vno_rec fuel' st only_same
                  (mkTerm false (pre ++ post) (tm_tens t ++ delta_tensors a b)) c) (fun contracted =>
          Ok (swapped ++ contracted))
        else Ok swapped)
      end
    end
  end.

(** symbolic_term_normal_order.cc:93-99. *)
Definition term_vno (st : osi) (only_same : bool) (t : term) : res (list (term * rational)) :=
  vno_rec (S (List.length (tm_ops t) * List.length (tm_ops t))) st only_same t (rat_of_Z 1).

(** expression_normal_order.cc:15-33. *)
Definition expr_vno (st : osi) (only_same : bool) (e : expression) : res expression :=
  if existsb (fun x => tm_no (fst x)) e then Throw
  else foldM (fun r x => bind (term_vno st only_same (fst x)) (fun l =>
         Ok (fold_left (fun r y => madd term_ltb (fst y) (rat_mul (snd x) (snd y)) r) l r))) [] e.

(** symbolic_term.cc:24-30, [std::is_sorted]: no adjacent pair is decreasing. *)
Definition term_is_vno (t : term) : bool :=
  match first_adj (fun a b => sqop_ltb b a) (tm_ops t) with Some _ => false | None => true end.

(** expression_normal_order.cc:5-13. *)
Definition expr_is_vno (e : expression) : bool := forallb (fun x => term_is_vno (fst x)) e.
