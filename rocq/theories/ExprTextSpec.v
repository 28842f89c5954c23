(** Specification for printing and parsing of expressions (C57). *)
From Coq Require Import ZArith List Bool Ascii.
From Verif Require Import Res RegistryModel CoreModel RationalModel AlgebraModel DecModel TextModel TextSpec.
Import ListNotations.
Local Open Scope Z_scope.

(** A label made of letters and digits that starts with a letter; printable indices. *)
Definition printable_tensor (st : osi) (t : tensor) : Prop :=
  (exists c l, t_label t = c :: l /\ is_alpha c = true /\ all_of is_alnum l) /\
  Forall (printable_index st) (t_upper t) /\ Forall (printable_index st) (t_lower t).
Definition printable_term (st : osi) (t : term) : Prop :=
  Forall (printable_tensor st) (tm_tens t) /\ Forall (fun q => printable_index st (s_idx q)) (tm_ops t).

(** What the text of a term keeps: labels, indices and operators.  The symmetry is the one requested when parsing, the complex
    conjugation mark is dropped, and the normal-order flag survives only if there are operators and all of them are fermionic. *)
Definition is_fermion (st : osi) (q : sqop) : bool := match field_of st (isp (s_idx q)) with Fermion => true | Boson => false end.
Definition reread (st : osi) (sym : symmetry) (t : term) : term :=
  mkTerm (tm_no t && negb (length (tm_ops t) =? 0)%nat && forallb (is_fermion st) (tm_ops t)) (tm_ops t)
    (map (fun x => mkT (t_label x) (t_lower x) (t_upper x) sym false) (tm_tens t)).

(** The coefficient is one of 2, ..., 9 and the term has a tensor: printed first, with no space in between. *)
Definition glued (x : term * rational) : Prop := den (snd x) = 1 /\ 2 <= num (snd x) <= 9 /\ tm_tens (fst x) <> [].
(** The misreading: the digit becomes part of the first label. *)
Definition glue (t : term) (c : rational) : term :=
  match tm_tens t with
  | [] => t
  | x :: ts => mkTerm (tm_no t) (tm_ops t) (mkT (dec_text (num c) ++ t_label x) (t_lower x) (t_upper x) (t_sym x) (t_cc x) :: ts)
  end.
