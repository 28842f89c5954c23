(** Model of the orbital-space registry, wicked/helpers/orbital_space.{h,cc}. *)
From Coq Require Import ZArith List Bool Ascii.
From Verif Require Import Res PartitionsModel.
Import ListNotations.
Local Open Scope Z_scope.
Local Open Scope res_scope.

(** [std::string] as a list of characters. *)
Definition text := list ascii.
Definition text_eqb (a b : text) : bool := if list_eq_dec ascii_dec a b then true else false.

(** orbital_space.h:9-16 and 19. *)
Inductive space_type := Occupied | Unoccupied | General.
Inductive field_type := Fermion | Boson.

(** orbital_space.h:21-27. *)
Record orbital_space := mkOS {
  os_label : ascii; os_space : space_type; os_field : field_type;
  os_indices : list text; os_elementary : list Z }.

(** A [std::map] used only through [count], [find], [m[k] = v] and [clear]: an association list
    (the order of keys is not observable through these). *)
Definition assoc (K : Type) := list (K * Z).
Fixpoint afind {K} (eqb : K -> K -> bool) (k : K) (m : assoc K) : option Z :=
  match m with [] => None | (k', v) :: m' => if eqb k k' then Some v else afind eqb k m' end.
Fixpoint aput {K} (eqb : K -> K -> bool) (k : K) (v : Z) (m : assoc K) : assoc K :=
  match m with
  | [] => [(k, v)]
  | (k', v') :: m' => if eqb k k' then (k', v) :: m' else (k', v') :: aput eqb k v m'
  end.

(** orbital_space.h:87-95. *)
Record osi := mkOSI {
  space_info : list orbital_space; label_to_pos : assoc ascii; indices_to_pos : assoc text }.

(** orbital_space.cc:159-163 and 72. *)
Definition reset_space : osi := mkOSI [] [] [].

(** orbital_space.h:57. *)
Definition num_spaces (st : osi) : Z := Z.of_nat (length (space_info st)).

(** orbital_space.cc:148-157. *)
Definition label_to_space (st : osi) (l : ascii) : res Z :=
  of_opt_throw (afind Ascii.eqb l (label_to_pos st)).

(** orbital_space.cc:122, 144-146: unchecked vector access. *)
Definition space_label (st : osi) (pos : Z) : res ascii :=
  s <- aget (space_info st) pos ;; Ok (os_label s).
Definition space_indices (st : osi) (pos : Z) : res (list text) :=
  s <- aget (space_info st) pos ;; Ok (os_indices s).

(** orbital_space.cc:86-94: registers the index names one by one; stops at the first duplicate,
    keeping those already registered.  Returns the new map and whether it got to the end. *)
Fixpoint register_indices (pos : Z) (names : list text) (m : assoc text) : assoc text * bool :=
  match names with
  | [] => (m, true)
  | x :: names' =>
    match afind text_eqb x m with
    | Some _ => (m, false)
    | None => register_indices pos names' (aput text_eqb x pos m)
    end
  end.

(** orbital_space.cc:74-101.  Returns the registry after the call (also when an exception is
    thrown) and the outcome. *)
Definition add_space (st : osi) (label : ascii) (ft : field_type) (sp : space_type)
  (names : list text) (elementary : list ascii) : osi * res unit :=
  match afind Ascii.eqb label (label_to_pos st) with
  | Some _ => (st, Throw)                                                    (* lines 78-82 *)
  | None =>
    let pos := num_spaces st in
    let l2p := aput Ascii.eqb label pos (label_to_pos st) in                  (* line 85 *)
    let '(i2p, done) := register_indices pos names (indices_to_pos st) in     (* lines 86-94 *)
    let st1 := mkOSI (space_info st) l2p i2p in
    if negb done then (st1, Throw) else
    match mapM (label_to_space st1) elementary with                          (* lines 95-98 *)
    | Ok es => (mkOSI (space_info st ++ [mkOS label sp ft names es]) l2p i2p, Ok tt)
    | Throw => (st1, Throw) | UB => (st1, UB) | NoFuel => (st1, NoFuel)
    end
  end.

(** One call of the registry API (orbital_space_api.cc:24-43). *)
Inductive reg_call :=
| CReset
| CAdd (label : ascii) (ft : field_type) (sp : space_type) (names : list text) (elementary : list ascii).

Definition reg_step (st : osi) (c : reg_call) : osi * res unit :=
  match c with
  | CReset => (reset_space, Ok tt)
  | CAdd l ft sp names el => add_space st l ft sp names el
  end.

(** orbital_space.cc:132-138; out-of-range positions are UB in C++; this total version (used by the
    operator-algebra models) returns a default there. *)
Definition field_of (st : osi) (pos : Z) : field_type :=
  match aget (space_info st) pos with Ok s => os_field s | _ => Fermion end.
Definition stype_of (st : osi) (pos : Z) : space_type :=
  match aget (space_info st) pos with Ok s => os_space s | _ => General end.
