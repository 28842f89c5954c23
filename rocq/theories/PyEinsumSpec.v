(** Specification for compile_einsum (C60). *)
From Coq Require Import ZArith List Bool Ascii String.
From Verif Require Import Res RegistryModel CoreModel RationalModel TextModel EquationModel EquationSpec.
Import ListNotations.
Local Open Scope Z_scope.

(** The number of different indices of a space in a list. *)
Definition distinct_in (l : list index) (sp : Z) : nat := List.length (filter (fun i => isp i =? sp) (nodup index_dec l)).
(** Every space has as many index names as there are different indices. *)
Definition enough_names (st : osi) (l : list index) : Prop := forall sp names, space_indices st sp = Ok names -> (distinct_in l sp <= List.length names)%nat.
Definition nonempty_names (st : osi) : Prop := forall sp names x, space_indices st sp = Ok names -> In x names -> x <> [].
Definition py_key (st : osi) (l : list index) : text := map (fun i => match space_label st (isp i) with Ok c => c | _ => zero end) l.
(** The subscripts and the statement for names [f] of the indices and a left-hand tensor without indices. *)
Definition py_subscripts (f : index -> text) (rhs : list tensor) : text :=
  join (map (fun t => List.concat (map f (slots_of t))) rhs) (str ",") ++ str "->".
Definition py_statement (st : osi) (factor : text) (sub : text) (label : text) (rhs : list tensor) : text :=
  label ++ str " += " ++ factor ++ str " * np.einsum('" ++ sub ++ str "', " ++
  flat_map (fun t => t_label t ++ str "[""" ++ py_key st (slots_of t) ++ str """],") rhs ++ str "optimize='optimal')".
