(** Specification vocabulary for operators: occurrences in component strings, exchanges of factors. *)
From Coq Require Import ZArith List Bool Ascii.
From Verif Require Import Res RegistryModel CoreModel AlgebraModel AlgebraSpec OperatorModel.
Import ListNotations.
Local Open Scope Z_scope.

(** The letters a-z, A-Z. *)
Definition letter (c : ascii) : Prop := exists n, N_of_ascii c = n /\ ((65 <= n <= 90)%N \/ (97 <= n <= 122)%N).

(** Number of positions of [s] holding [c], followed ([dag = true]) or not followed ([dag = false]) by '+' or '^'. *)
Definition plus_at (s : text) (i : nat) : bool :=
  match nth_error s i with Some c => if ascii_dec c "+"%char then true else if ascii_dec c "^"%char then true else false | None => false end.
Definition char_at (s : text) (i : nat) (c : ascii) : bool :=
  match nth_error s i with Some c' => if ascii_dec c' c then true else false | None => false end.
Definition occurrences (s : text) (c : ascii) (dag : bool) : Z :=
  Z.of_nat (length (filter (fun i => char_at s i c && Bool.eqb (plus_at s (S i)) dag) (seq 0 (length s)))).

Notation nsp st := (length (space_info st)).

(** A matrix of the current registry: 8 entries, zero past the registered spaces. *)
Definition gm_valid (st : osi) (g : gmat) : Prop :=
  length g = max_spaces /\ forall i, (nsp st <= i < max_spaces)%nat -> nth_error g i = Some (0, 0).

(** Operators, products and sums with such matrices. *)
Definition op_valid (st : osi) (o : oper) : Prop := gm_valid st (op_gm o).
Definition oprod_valid (st : osi) (p : oprod) : Prop := Forall (op_valid st) p.
Definition opexpr_valid (st : osi) (e : opexpr) : Prop := keysP (oprod_valid st) e.

(** [(-1)^n]. *)
Definition nsign (n : Z) : Z := if Z.even n then 1 else -1.
(** Exchanging neighbours that commute, with the fermionic sign. *)
Inductive com_swaps (st : osi) : oprod -> Z -> oprod -> Prop :=
| cs_refl p : com_swaps st p 1 p
| cs_step l1 a b l2 s p' : ops_commute st a b = true -> com_swaps st (l1 ++ b :: a :: l2) s p' ->
    com_swaps st (l1 ++ a :: b :: l2) (nsign (op_num a * op_num b) * s) p'.

(** Two neighbours are out of order if they commute and the second is smaller. *)
Definition settledp (st : osi) (p : oprod) : Prop := forall l1 a b l2, p = l1 ++ a :: b :: l2 -> op_ncless st b a = false.

Definition all_commute (st : osi) (p : oprod) : Prop := forall a b, In a p -> In b p -> ops_commute st a b = true.


(** The letters of a component string are labels of registered spaces. *)
Definition known_letters (st : osi) (s : text) : Prop := forall c, In c s -> letter c -> exists p, label_to_space st c = Ok p.

(** How many components denote the operator [o]. *)
Definition comp_count (st : osi) (label : text) (comps : list text) (o : oper) : nat :=
  length (filter (fun s => match component_op st label s with Ok o' => oper_eqb o' o | _ => false end) comps).

Definition zprod (l : list Z) : Z := fold_right Z.mul 1 l.

(** Operators whose legs cannot be contracted with each other. *)
Definition no_shared_legs (st : osi) (a b : oper) : Prop := forall s, 0 <= s < num_spaces st ->
  (cre_of (op_gm a) s = 0 \/ ann_of (op_gm b) s = 0) /\ (ann_of (op_gm a) s = 0 \/ cre_of (op_gm b) s = 0).
Definition nonneg_counts (st : osi) (a : oper) : Prop := forall s, 0 <= s < num_spaces st -> 0 <= cre_of (op_gm a) s /\ 0 <= ann_of (op_gm a) s.
