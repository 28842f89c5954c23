(** Model of the Python interface of the orbital-space registry and of its printed form (wicked/helpers/orbital_space.cc:11-20, 44-70, 103-112; api/orbital_space_api.cc:30-42). *)
From Coq Require Import String.
From Coq Require Import ZArith List Bool Ascii.
From Verif Require Import Res RegistryModel TextModel ExprTextModel EquationModel.
Import ListNotations.
Local Open Scope Z_scope.
Local Open Scope res_scope.

(** orbital_space.cc:11-12 and 17-21: the two tables, in the order of the enumerations. *)
Definition field_names : list (field_type * text) := [(Fermion, str "fermion"); (Boson, str "boson")].
Definition space_names : list (space_type * text) := [(Occupied, str "occupied"); (Unoccupied, str "unoccupied"); (General, str "general")].
(** orbital_space.cc:44-58 and 60-70: the first entry with that text. *)
Definition lookup {A} (s : text) (l : list (A * text)) : res A := of_opt_throw (option_map fst (find (fun x => text_eqb s (snd x)) l)).
Definition string_to_space_type (s : text) : res space_type := lookup s space_names.
Definition string_to_field_type (s : text) : res field_type := lookup s field_names.
(** orbital_space_api.cc:32-42: the Python function [add_space]; the field is converted first. *)
Definition add_space_str (st : osi) (label : ascii) (ft sp : text) (names : list text) (elementary : list ascii) : osi * res unit :=
  match string_to_field_type ft with
  | Ok f => match string_to_space_type sp with
            | Ok t => add_space st label f t names elementary
            | Throw => (st, Throw) | UB => (st, UB) | NoFuel => (st, NoFuel)
            end
  | Throw => (st, Throw) | UB => (st, UB) | NoFuel => (st, NoFuel)
  end.
(** orbital_space.cc:103-112; [FieldType_to_str[...]]. *)
Definition field_text (f : field_type) : text := match f with Fermion => str "fermion" | Boson => str "boson" end.
Definition space_text (s : space_type) : text := match s with Occupied => str "occupied" | Unoccupied => str "unoccupied" | General => str "general" end.
Definition space_str (s : orbital_space) : text :=
  str "space label: " ++ [os_label s] ++ [newline] ++ str "field type: " ++ field_text (os_field s) ++ [newline] ++ str "space type: " ++ space_text (os_space s) ++ [newline] ++ str "indices: [" ++ join (os_indices s) (str ",") ++ str "]".
Definition osi_str (st : osi) : text := join (map space_str (space_info st)) [newline; newline].
