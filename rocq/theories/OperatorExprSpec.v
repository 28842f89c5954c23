(** Specification vocabulary for [operator_expr]: strings of pieces separated by blanks or commas. *)
From Coq Require Import ZArith List Bool Ascii.
From Verif Require Import Res RegistryModel CoreModel AdjointModel.
Import ListNotations.

(** Blank (space, \t, \n, \v, \f, \r) or comma. *)
Definition separator (c : ascii) : Prop :=
  c = ","%char \/ c = " "%char \/ (9 <= N_of_ascii c <= 13)%N.
Definition word (w : text) : Prop := w <> [] /\ Forall (fun c => ~ separator c) w.
Definition gap (w : text) : Prop := w <> [] /\ Forall separator w.

(** [s] consists of the words [ps], separated by gaps, with possibly a gap at the end. *)
Inductive joined : list text -> text -> Prop :=
| j_last w : word w -> joined [w] w
| j_last_gap w g : word w -> gap g -> joined [w] (w ++ g)
| j_more w g ps s : word w -> gap g -> joined ps s -> joined (w :: ps) (w ++ g ++ s).

(** A creation operator is a two-character piece ("v+", "v^"), anything else an annihilation operator. *)
Definition cre_pieces (ps : list text) : list text := filter (fun w => Nat.eqb (length w) 2) ps.
Definition ann_pieces (ps : list text) : list text := filter (fun w => negb (Nat.eqb (length w) 2)) ps.
(** The indices [is] belong to the spaces named by the first characters of [ps], one by one. *)
Definition in_spaces_of (st : osi) (is_ : list index) (ps : list text) : Prop :=
  Forall2 (fun i w => exists c w', w = c :: w' /\ space_label st (isp i) = Ok c) is_ ps.
(** Number of pieces in space [p]. *)
Definition pieces_in (st : osi) (ps : list text) (p : Z) : Z :=
  Z.of_nat (length (filter (fun w => match w with c :: _ =>
     match label_to_space st c with Ok q => Z.eqb q p | _ => false end | [] => false end) ps)).
(** The first character of every piece is the label of a registered space. *)
Definition known_heads (st : osi) (ps : list text) : Prop := Forall (fun w => exists c w' p, w = c :: w' /\ label_to_space st c = Ok p) ps.

(** How many components give the term [t]. *)
Definition term_count (st : osi) (label : text) (comps : list text) no sym (t : term) : nat :=
  length (filter (fun s => match component_term st label s no sym with Ok t' => term_eqb t' t | _ => false end) comps).
