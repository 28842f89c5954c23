(** Specification for C67. *)
From Coq Require Import String.
From Coq Require Import ZArith List Bool Ascii.
From Verif Require Import Res RegistryModel RegistryProofs TextModel EquationModel.
Import ListNotations.
Local Open Scope Z_scope.

(** The documented names. *)
Inductive names_field : string -> field_type -> Prop := nf1 : names_field "fermion" Fermion | nf2 : names_field "boson" Boson.
Inductive names_space : string -> space_type -> Prop := ns1 : names_space "occupied" Occupied | ns2 : names_space "unoccupied" Unoccupied | ns3 : names_space "general" General.
(** Names that do not contain the punctuation of the printed form. *)
Definition clean_name (x : text) : Prop := x <> [] /\ ~ In ","%char x /\ ~ In "]"%char x.
Definition clean_names (st : osi) : Prop := forall s, In s (space_info st) -> Forall clean_name (os_indices s).
(** What is printed of a space. *)
Definition shown_space (s : orbital_space) : ascii * field_type * space_type * list text := (os_label s, os_field s, os_space s, os_indices s).
(** A sequence of calls of [add_space], all accepted. *)
Inductive accepted : osi -> list reg_call -> osi -> Prop :=
| acc_nil st : accepted st [] st
| acc_cons st c st1 l st2 : reg_step st c = (st1, Ok tt) -> accepted st1 l st2 -> accepted st (c :: l) st2.
(** The call that registers space [s] of [st]: [el] are the labels of its elementary spaces. *)
Definition registers (st : osi) (s : orbital_space) (c : reg_call) : Prop :=
  exists el, c = CAdd (os_label s) (os_field s) (os_space s) (os_indices s) el /\ Forall2 (fun l z => space_label st z = Ok l) el (os_elementary s).
