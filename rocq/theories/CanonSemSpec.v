(** Specification: the value of a normal-ordered term summed over its indices. *)
Set Warnings "-notation-overridden,-ambiguous-paths".
From Coq Require Import ZArith List.
From mathcomp Require Import all_ssreflect ssralg.
From Verif Require Import RationalModel RegistryModel CoreModel SortSpec SortProofs ScalarSem LadderSpec CanonSpec.
Set Implicit Arguments.
Unset Strict Implicit.
Unset Printing Implicit Defensive.
Import GRing.Theory.
Local Open Scope ring_scope.

Section Product.
  Variables (K : fieldType) (A : algType K) (orb : eqType).
  (** Inside a normal-ordered product creation and annihilation operators anticommute: [A] is an algebra of such
      products (the operator itself is a linear image of it). *)
  Variables cre ann : Z -> orb -> A.
  Definition anticommuting : Prop := forall s p t q,
    cre s p * cre t q = - (cre t q * cre s p) /\ ann s p * ann t q = - (ann t q * ann s p) /\ cre s p * ann t q = - (ann t q * cre s p).
  (** A product of creation (true) and annihilation (false) operators. *)
  Definition word_product (w : seq (bool * (Z * orb))) : A := \prod_(x <- w) (if x.1 then cre x.2.1 x.2.2 else ann x.2.1 x.2.2).
End Product.

Section Value.
  Variables (K : fieldType) (V : lmodType K) (orb : eqType).
  (** The value of a normal-ordered product of creation (true) and annihilation (false) operators of orbitals; it has to be
      alternating ([alternating -%R W]): [word_product] of anticommuting operators, or the normal-ordered product itself. *)
  Variable W : seq (bool * (Z * orb)) -> V.

  (** Elements of the numerical tensors: label, lower and upper orbitals (with their spaces), conjugation flag. *)
  Variable T : text -> seq (Z * orb) -> seq (Z * orb) -> bool -> K.
  Definition symmetric_as_declared (d : tensor) : Prop :=
    match t_sym d with
    | Antisymmetric => (forall lo, alternating -%R (fun up => T (t_label d) lo up (t_cc d))) /\ (forall up, alternating -%R (fun lo => T (t_label d) lo up (t_cc d)))
    | Symmetric => (forall lo, symmetric_fn (fun up => T (t_label d) lo up (t_cc d))) /\ (forall up, symmetric_fn (fun lo => T (t_label d) lo up (t_cc d)))
    | Nonsymmetric => True
    end.

  (** Value of a tensor and of a term when the indices have the values [phi]. *)
  Definition orb_of (phi : index -> orb) (i : index) : Z * orb := (isp i, phi i).
  Definition elem_at (phi : index -> orb) (d : tensor) : K := T (t_label d) (List.map (orb_of phi) (t_lower d)) (List.map (orb_of phi) (t_upper d)) (t_cc d).
  Definition word (phi : index -> orb) (ops : list sqop) : seq (bool * (Z * orb)) := List.map (fun o => (s_cre o, orb_of phi (s_idx o))) ops.
  Definition value_at (phi : index -> orb) (t : term) : V := (\prod_(d <- tm_tens t) elem_at phi d) *: W (word phi (tm_ops t)).

  (** Sum over the orbitals [orbs s] of the space of each index of a list. *)
  Variable orbs : Z -> seq orb.
  Definition upd (phi : index -> orb) (i : index) (p : orb) : index -> orb := fun j => if index_eqb j i then p else phi j.
  Fixpoint sum_over (l : seq index) (phi : index -> orb) (F : (index -> orb) -> V) : V :=
    match l with
    | [::] => F phi
    | i :: l' => \sum_(p <- orbs (isp i)) sum_over l' (upd phi i p) F
    end.

  (** [l] lists the indices of the term, each once. *)
  Definition lists_indices (l : seq index) (t : term) : Prop := NoDup l /\ forall i, In i l <-> in_term t i.

  (** The term summed over all its indices ([phi0]: any starting assignment, all its relevant values are replaced). *)
  Variable phi0 : index -> orb.
  Definition slots (t : term) : seq index := (List.map s_idx (tm_ops t) ++ flatten [seq t_lower d ++ t_upper d | d <- tm_tens t])%list.
  Definition term_value (t : term) : V := sum_over (nodup index_dec (slots t)) phi0 (fun phi => value_at phi t).
  Definition expr_value (e : seq (term * rational)) : V := rsum term_value e.
End Value.
