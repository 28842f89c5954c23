(** Specification vocabulary for the canonical form of a contraction (C42, C43). *)
From Coq Require Import ZArith List Bool Arith Permutation.
From Verif Require Import Res RegistryModel CoreModel OperatorModel OperatorSpec WickSearchModel WickSearchSpec.
Import ListNotations.
Local Open Scope Z_scope.

(** [p] lists 0, ..., n - 1 in some order. *)
Definition rearrangement (n : nat) (p : list nat) : Prop := Permutation (seq 0 n) p.

(** A pair contraction (two legs) takes a creation leg of one of the operators number [A], [B] and an annihilation leg of the other. *)
Definition joined (st : osi) (cs : list econ) (A B : nat) : Prop :=
  exists c s, In c cs /\ is_space st s /\ ec_num_ops c = 2 /\
    (0 < ec_cre c A s * ec_ann c B s \/ 0 < ec_ann c A s * ec_cre c B s).

(** [A] stands before [B] in the list [p]. *)
Definition before (p : list nat) (A B : nat) : Prop := exists i j, (i < j)%nat /\ nth_error p i = Some A /\ nth_error p j = Some B.
(** Two operators that exchange their places must not be joined. *)
Definition keeps_joined_order (st : osi) (cs : list econ) (p : list nat) : Prop :=
  forall A B, before p A B -> (B < A)%nat -> ~ joined st cs B A.

(** Fermionic sign: each pair of operators that exchange their places gives -1 if both have an odd number of legs. *)
Definition pair_sign (odd : nat -> bool) (x y : nat) : Z := if (y <? x)%nat && odd x && odd y then -1 else 1.
Fixpoint exchange_sign (odd : nat -> bool) (p : list nat) : Z :=
  match p with [] => 1 | x :: p' => fold_right (fun y s => pair_sign odd x y * s) 1 p' * exchange_sign odd p' end.
Definition odd_op (ops : oprod) (A : nat) : bool := Z.odd (op_num (nth A ops (mkOp [] gm_zero))).

(** The operators and contractions rearranged: contraction [c] acts on the rearranged operators. *)
Definition pick_ops (ops : oprod) (p : list nat) : oprod := map (fun A => nth A ops (mkOp [] gm_zero)) p.
Definition pick_cons (cs : list econ) (p q : list nat) : list econ := map (fun c => map (fun A => nth A (nth c cs []) gm_zero) p) q.

(** [x] is preferred to [y]: smaller operator list; for equal ones the larger contraction matrices, read one after the other. *)
Definition preferred (x y : oprod * list econ) : Prop :=
  lexb oper_ltb (fst x) (fst y) = true \/ (fst x = fst y /\ lexb gmat_ltb (concat (snd y)) (concat (snd x)) = true).
