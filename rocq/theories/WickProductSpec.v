(** Specification: the operators of a product as elements of an algebra, and their normal-ordered products (C48). *)
Set Warnings "-notation-overridden,-ambiguous-paths".
From Coq Require Import ZArith List.
From mathcomp Require Import all_ssreflect ssralg.
From Verif Require Import Res RationalModel RegistryModel CoreModel OperatorModel CombinatoricsModel WickSearchModel CountSpec WickCombSpec WickLegSpec SortSpec ScalarSem LadderSpec CanonSemSpec.
Set Implicit Arguments.
Unset Strict Implicit.
Unset Printing Implicit Defensive.
Import GRing.Theory.
Local Open Scope ring_scope.

(** All registered spaces are fermionic and either occupied or unoccupied in the reference determinant. *)
Definition single_reference (st : osi) : Prop :=
  forall s, registered st s -> field_of st s = Fermion /\ (stype st s = Some Occupied \/ stype st s = Some Unoccupied).

Section Product.
  Variables (K : fieldType) (A : algType K) (orb : eqType) (st : osi) (cre ann : Z -> orb -> A).
  (** One creation (true) or annihilation (false) operator. *)
  Definition ladder (x : bool * (Z * orb)) : A := if x.1 then cre x.2.1 x.2.2 else ann x.2.1 x.2.2.
  (** Relative to the reference, annihilating an occupied orbital or creating an unoccupied one makes an excitation. *)
  Definition makes_excitation (x : bool * (Z * orb)) : bool :=
    match stype st x.2.1 with Some Occupied => ~~ x.1 | _ => x.1 end.
  (** The normal-ordered product of a word: the operators that make excitations are moved to the left of the others, with the
      sign of the exchanges. *)
  Fixpoint normal_product (w : seq (bool * (Z * orb))) : A :=
    match w with
    | [::] => 1
    | x :: w' => if makes_excitation x then ladder x * normal_product w' else (-1) ^+ size w' *: (normal_product w' * ladder x)
    end.

  (** Operator [o] as a term: different indices for all its legs, creation operators below, annihilation operators above. *)
  Definition op_index (o : oper) (l : leg) : index :=
    mkI (leg_space l) (if leg_cre l then snd l else (cre_of (op_gm o) (leg_space l) + snd l)%Z).
  Definition op_as_term (o : oper) : term :=
    mkTerm false (List.map (leg_sqop (op_index o)) (product_legs st [:: o])) [:: op_tensor st [:: o] (op_index o) 0].
  (** The product of the factorials of the numbers of creation (annihilation) operators of each space. *)
  Definition op_norm (o : oper) : nat :=
    \prod_(s <- range (num_spaces st)) ((Z.to_nat (cre_of (op_gm o) s))`! * (Z.to_nat (ann_of (op_gm o) s))`!)%N.

  Variable T : text -> seq (Z * orb) -> seq (Z * orb) -> bool -> K.
  Variable orbs : Z -> seq orb.
  Variable phi0 : index -> orb.
  (** The operator: 1 / norm times the sum over all orbitals of the tensor element times the normal-ordered product. *)
  Definition op_value (o : oper) : A := (op_norm o)%:R^-1 *: term_value normal_product T orbs phi0 (op_as_term o).
  Definition product_value (ops : oprod) : A := \prod_(o <- ops) op_value o.
End Product.
