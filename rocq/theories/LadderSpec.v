(** Specification: what the operators, tensors and terms of wicked denote.
    [K] is a field of characteristic 0, [A] an algebra over it, [orb] the set of orbitals. *)
Set Warnings "-notation-overridden,-ambiguous-paths".
From Coq Require Import ZArith List.
From mathcomp Require Import all_ssreflect ssralg.
From Verif Require Import RationalModel RegistryModel CoreModel SortSpec NormalOrderModel ScalarSem.
Set Implicit Arguments.
Unset Strict Implicit.
Unset Printing Implicit Defensive.
Import GRing.Theory.
Local Open Scope ring_scope.

(** A position of the space registry that holds a space (other positions are undefined behaviour). *)
Definition registered (st : osi) (s : Z) : Prop := (0 <= s < num_spaces st)%Z.

Section Ladder.
  Variables (K : fieldType) (A : algType K) (orb : eqType) (st : osi).
  (** [cre s p], [ann s p]: create / annihilate orbital [p] of space [s]. *)
  Variables cre ann : Z -> orb -> A.

  (** -1 for two fermions, else 1. *)
  Definition exch (s t : Z) : K :=
    match field_of st s, field_of st t with Fermion, Fermion => -1 | _, _ => 1 end.

  (** The canonical (anti)commutation relations. *)
  Record ladder_relations : Prop := {
    rel_cc : forall s p t q, registered st s -> registered st t -> cre s p * cre t q = exch s t *: (cre t q * cre s p);
    rel_aa : forall s p t q, registered st s -> registered st t -> ann s p * ann t q = exch s t *: (ann t q * ann s p);
    rel_ac : forall s p t q, registered st s -> registered st t ->
      ann s p * cre t q = ((s =? t)%Z && (p == q))%:R + exch s t *: (cre t q * ann s p) }.

  (** [phi] gives each index its value, an orbital of its space. *)
  Variable phi : index -> orb.
  Definition op_den (o : sqop) : A := if s_cre o then cre (s_space o) (phi (s_idx o)) else ann (s_space o) (phi (s_idx o)).
  Definition ops_den (ops : list sqop) : A := \prod_(o <- ops) op_den o.

  (** [T] gives the tensor elements; a delta is a Kronecker delta. *)
  Variable T : tensor_values K.
  Definition delta_values : Prop := forall l u cc, isp l = isp u -> T delta_label [:: l] [:: u] cc = (phi l == phi u)%:R.
  Definition tens_den (ts : list tensor) : K := \prod_(t <- ts) tensor_elem T t.

  (** A term is the product of its tensor elements times the product of its operators. *)
  Definition term_den (t : term) : A := tens_den (tm_tens t) *: ops_den (tm_ops t).

  (** An expression is a linear combination of terms. *)
  Definition expr_den (e : seq (term * rational)) : A := rsum term_den e.
End Ladder.

(** All operators of a term belong to registered spaces; no tensor carries the conjugation flag. *)
Definition term_registered (st : osi) (t : term) : Prop := Forall (fun o => registered st (s_space o)) (tm_ops t).
Definition no_conj (t : term) : Prop := Forall (fun d => t_cc d = false) (tm_tens t).

(** Different indices of one space have different values. *)
Definition distinct_values (orb : eqType) (phi : index -> orb) : Prop :=
  forall i j, isp i = isp j -> phi i = phi j -> i = j.
