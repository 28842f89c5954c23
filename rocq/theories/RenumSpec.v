(** Specification for C78: another numbering (and naming) of the orbital spaces. *)
Set Warnings "-notation-overridden,-ambiguous-paths".
From Coq Require Import ZArith List Permutation.
From mathcomp Require Import all_ssreflect ssralg.
From Verif Require Import RationalModel RegistryModel CoreModel AlgebraModel AlgebraSpec OperatorModel WickSearchModel WickSearchSpec LadderSpec.
Set Implicit Arguments.
Unset Strict Implicit.
Unset Printing Implicit Defensive.
Import GRing.Theory.

(** [st'] has the spaces of [st] in another order: its space [s] is space [pi s] of [st], of the same type, fermionic or bosonic as
    there.  Names and elementary spaces need not agree. *)
Record renumbering (st st' : osi) (pi : Z -> Z) : Prop := {
  ren_num : num_spaces st' = num_spaces st;
  ren_reg : forall s, registered st' s -> registered st (pi s);
  ren_inj : forall s t, registered st' s -> registered st' t -> pi s = pi t -> s = t;
  ren_type : forall s, registered st' s -> stype st' s = stype st (pi s);
  ren_field : forall s, registered st' s -> field_of st' s = field_of st (pi s) }.
(** The same operator: label and, in each space, the numbers of creation and annihilation operators. *)
Definition same_oper (st' : osi) (pi : Z -> Z) (o o' : oper) : Prop :=
  op_label o' = op_label o /\
  forall s, registered st' s -> cre_of (op_gm o') s = cre_of (op_gm o) (pi s) /\ ann_of (op_gm o') s = ann_of (op_gm o) (pi s).
Definition same_product (st' : osi) (pi : Z -> Z) : oprod -> oprod -> Prop := Forall2 (same_oper st' pi).
(** The same sum of products, in any order. *)
Definition same_sum (st' : osi) (pi : Z -> Z) (e e' : seq (oprod * rational)) : Prop :=
  exists e1, Permutation e1 e' /\ Forall2 (fun x y => same_product st' pi x.1 y.1 /\ x.2 = y.2) e e1.
(** ... for sums of the registries: well-formed, with operators of the registry. *)
Definition same_opexpr (st st' : osi) (pi : Z -> Z) (e e' : opexpr) : Prop :=
  wf oprod_ltb e /\ wf oprod_ltb e' /\ (forall x, In x e -> ops_ok st x.1) /\ (forall x, In x e' -> ops_ok st' x.1) /\ same_sum st' pi e e'.
Section Values.
  Variables (K A orb : Type) (pi : Z -> Z).
  (** The ladder operators, orbitals and tensor elements of [st], named by the numbers of [st']. *)
  Definition renum_ladder (c : Z -> orb -> A) : Z -> orb -> A := fun s => c (pi s).
  Definition renum_orbital (x : Z * orb) : Z * orb := (pi x.1, x.2).
  Definition renum_tensor (T : text -> seq (Z * orb) -> seq (Z * orb) -> bool -> K) : text -> seq (Z * orb) -> seq (Z * orb) -> bool -> K :=
    fun label lo up cc => T label (map renum_orbital lo) (map renum_orbital up) cc.
  Definition renum_orbitals (orbs : Z -> seq orb) : Z -> seq orb := fun s => orbs (pi s).
  Definition renum_word (w : seq (bool * (Z * orb))) : seq (bool * (Z * orb)) := [seq (x.1, renum_orbital x.2) | x <- w].
End Values.
