(** Specification vocabulary for the contraction search. *)
From Coq Require Import ZArith List Bool Sorted.
From Verif Require Import Res RegistryModel CoreModel OperatorModel OperatorSpec WickSearchModel.
Import ListNotations.
Local Open Scope Z_scope.

(** How many creation / annihilation legs of operator number [A] in space [s] the contraction [c] uses. *)
Definition ec_cre (c : econ) (A : nat) (s : Z) : Z := cre_of (nth A c gm_zero) s.
Definition ec_ann (c : econ) (A : nat) (s : Z) : Z := ann_of (nth A c gm_zero) s.

(** One matrix over the current registry per operator. *)
Definition con_shape (st : osi) (n : nat) (c : econ) : Prop := length c = n /\ Forall (gm_valid st) c.

Definition is_space (st : osi) (s : Z) : Prop := 0 <= s < num_spaces st.
(** All legs are in space [s]. *)
Definition only_space (st : osi) (c : econ) (s : Z) : Prop :=
  forall A s', (A < length c)%nat -> is_space st s' -> s' <> s -> ec_cre c A s' = 0 /\ ec_ann c A s' = 0.
(** [f A] is 1 for [A = l] and 0 for the other [A < n]. *)
Definition unit_at (n : nat) (f : nat -> Z) (l : nat) : Prop := forall A, (A < n)%nat -> f A = if Nat.eq_dec A l then 1 else 0.
Fixpoint total (n : nat) (f : nat -> Z) : Z := match n with O => 0 | S n' => total n' f + f n' end.

(** The contractions the theory of many-body contractions allows between the operators of a product. *)
Inductive allowed (st : osi) (maxcumulant : Z) (ops : oprod) (c : econ) : Prop :=
| al_occ s l r : con_shape st (length ops) c -> is_space st s -> only_space st c s -> stype st s = Some Occupied ->
    (l < r < length ops)%nat -> unit_at (length ops) (fun A => ec_cre c A s) l -> unit_at (length ops) (fun A => ec_ann c A s) r ->
    1 <= ops_cre ops l s -> 1 <= ops_ann ops r s -> allowed st maxcumulant ops c
| al_unocc s l r : con_shape st (length ops) c -> is_space st s -> only_space st c s -> stype st s = Some Unoccupied ->
    (l < r < length ops)%nat -> unit_at (length ops) (fun A => ec_ann c A s) l -> unit_at (length ops) (fun A => ec_cre c A s) r ->
    1 <= ops_ann ops l s -> 1 <= ops_cre ops r s -> allowed st maxcumulant ops c
| al_gen s k : con_shape st (length ops) c -> is_space st s -> only_space st c s -> stype st s = Some General ->
    1 <= k <= maxcumulant -> total (length ops) (fun A => ec_cre c A s) = k -> total (length ops) (fun A => ec_ann c A s) = k ->
    (forall A, (A < length ops)%nat -> 0 <= ec_cre c A s <= ops_cre ops A s /\ 0 <= ec_ann c A s <= ops_ann ops A s) ->
    (exists A B, (A < B < length ops)%nat /\ 0 < ec_cre c A s + ec_ann c A s /\ 0 < ec_cre c B s + ec_ann c B s) ->
    allowed st maxcumulant ops c.

(** Operators of the current registry with non-negative numbers of legs, at most 8 spaces. *)
Definition ops_ok (st : osi) (ops : oprod) : Prop :=
  (nsp st <= max_spaces)%nat /\ Forall (fun o => op_valid st o /\ nonneg_counts st o) ops.

(** ** Composite contractions: multisets of elementary contractions, as non-decreasing lists of indices. *)
(** Legs of operator [A] in space [s] used by all the contractions numbered in [cs]. *)
Fixpoint used (f : econ -> Z) (els : list econ) (cs : list Z) : Z :=
  match cs with [] => 0 | c :: cs' => f (nth (Z.to_nat c) els []) + used f els cs' end.
(** [cs] does not use more legs than the operators have. *)
Definition compatible (st : osi) (els : list econ) (ops : oprod) (cs : list Z) : Prop :=
  forall A s, (A < length ops)%nat -> is_space st s ->
    used (fun c => ec_cre c A s) els cs <= ops_cre ops A s /\ used (fun c => ec_ann c A s) els cs <= ops_ann ops A s.
Definition is_multiset (els : list econ) (cs : list Z) : Prop :=
  StronglySorted Z.le cs /\ Forall (fun c => 0 <= c < Z.of_nat (length els)) cs.
(** Number of second-quantized operators left over. *)
Definition left_over (els : list econ) (ops : oprod) (cs : list Z) : Z :=
  fold_left (fun a o => a + op_num o) ops 0 - used ec_num_ops els cs.
