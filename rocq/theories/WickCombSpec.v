(** Specification of the weight of a contraction: the legs of the operators and the ways to pick the contracted ones. *)
From Coq Require Import ZArith List Bool Arith.
From Verif Require Import Res RegistryModel CoreModel OperatorModel WickSearchModel WickSearchSpec CountSpec.
Import ListNotations.
Local Open Scope Z_scope.

(** A leg: the [i]-th creation (true) or annihilation (false) operator of space [s] of operator number [A]. *)
Definition leg_kind := (nat * Z * bool)%type.
Definition leg := (leg_kind * Z)%type.
Definition kind_dec : forall a b : leg_kind, {a = b} + {a <> b}.
Proof. decide equality; [apply bool_dec|]. decide equality; [apply Z.eq_dec|apply Nat.eq_dec]. Defined.
Definition leg_count (ops : oprod) (k : leg_kind) : Z := let '(A, s, b) := k in if b then ops_cre ops A s else ops_ann ops A s.
Definition kinds (st : osi) (n : nat) : list leg_kind :=
  flat_map (fun A => flat_map (fun s => [(A, s, true); (A, s, false)]) (range (num_spaces st))) (seq 0 n).
Definition all_legs (st : osi) (ops : oprod) : list leg :=
  flat_map (fun k => map (fun i => (k, i)) (range (leg_count ops k))) (kinds st (length ops)).

(** The set of legs [b] is one way to carry out the contraction [c]: it contains as many legs of each kind as [c] asks for. *)
Definition ec_count (c : econ) (k : leg_kind) : Z := let '(A, s, b) := k in if b then ec_cre c A s else ec_ann c A s.
Definition carries_out (st : osi) (n : nat) (b : list leg) (c : econ) : Prop :=
  forall k, In k (kinds st n) -> Z.of_nat (count_occ kind_dec (map fst b) k) = ec_count c k.

(** No more legs are asked for than there are. *)
Definition econ_dec : forall a b : econ, {a = b} + {a <> b}.
Proof. apply list_eq_dec. apply list_eq_dec. decide equality; apply Z.eq_dec. Defined.
Definition total_of {A} (f : A -> Z) (l : list A) : Z := fold_right (fun a z => f a + z) 0 l.
Definition enough_legs (st : osi) (ops : oprod) (cs : list econ) : Prop :=
  forall k, In k (kinds st (length ops)) -> total_of (fun c => ec_count c k) cs <= leg_count ops k.
(** How often [c] occurs. *)
Definition mult (cs : list econ) (c : econ) : nat := count_occ econ_dec cs c.
Definition prod_mult (cs : list econ) (f : nat -> nat) : Z :=
  fold_right (fun c z => Z.of_nat (f (mult cs c)) * z) 1 (nodup econ_dec cs).
