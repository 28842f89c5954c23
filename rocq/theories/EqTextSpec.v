(** Specification for the printed and compiled forms of an equation (C64). *)
From Coq Require Import String ZArith List Bool Ascii.
From Verif Require Import Res RegistryModel CoreModel RationalModel DecModel TextModel TextSpec EquationModel EquationSpec.
Import ListNotations.
Local Open Scope Z_scope.

(** A tensor in an ambit statement: a label and the names of its indices, label[i,j,k]. *)
Definition aref := (text * list text)%type.
Definition aref_text (r : aref) : text := match snd r with [] => fst r | v => fst r ++ str "[" ++ join v (str ",") ++ str "]" end.
(** Names without blanks, brackets, commas and semicolons. *)
Definition plain_char (c : ascii) : bool := negb (existsb (Ascii.eqb c) (str " [],;")).
Definition plain_name (s : text) : Prop := s <> [] /\ all_of plain_char s.
Definition plain_ref (r : aref) : Prop := plain_name (fst r) /\ Forall plain_name (snd r).
(** A statement: left-hand tensor, "+=", factor, right-hand tensors. *)
Inductive reads_ambit : text -> aref -> text -> list aref -> Prop :=
| ra_intro l f rs : plain_ref l -> plain_name f -> rs <> [] -> Forall plain_ref rs ->
    reads_ambit (aref_text l ++ str " += " ++ f ++ flat_map (fun r => str " * " ++ aref_text r) rs ++ str ";") l f rs.
(** The reference to a tensor: its indices named by the label of the space and the number, upper indices first. *)
Definition index_name (st : osi) (i : index) : text := match space_label st (isp i) with Ok c => c :: dec_text (ipos i) | _ => [] end.
Definition ref_of (st : osi) (t : tensor) : aref := (t_label t, map (index_name st) (slots_of t)).
(** The indices of a tensor belong to registered spaces; the labels of the spaces are plain characters. *)
Definition registered (st : osi) (t : tensor) : Prop := forall i, In i (slots_of t) -> 0 <= isp i < num_spaces st.
Definition plain_labels_of (st : osi) : Prop := forall sp c, space_label st sp = Ok c -> plain_char c = true.
