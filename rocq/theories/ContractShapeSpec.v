(** Specification of the terms returned by [contract] (C63). *)
From Coq Require Import Ascii ZArith List Bool Permutation.
From Verif Require Import Res RegistryModel CoreModel SortSpec AlgebraModel OperatorModel TextModel TextSpec DecModel LatexModel CanonSpec WickSearchModel WickSearchSpec WickLegSpec EquationSpec.
Import ListNotations.
Local Open Scope Z_scope.

(** The upper and the lower index slots of a term, a creation operator counting as upper, an annihilation operator as lower. *)
Definition upper_slots (t : term) : list index := flat_map t_upper (tm_tens t) ++ creators (tm_ops t).
Definition lower_slots (t : term) : list index := flat_map t_lower (tm_tens t) ++ annihilators (tm_ops t).

(** What is left of a tensor when the names of its indices are forgotten: its label and the numbers of lower and upper indices in
    each space. *)
Definition profile := (text * list nat * list nat)%type.
Definition tensor_profile (st : osi) (d : tensor) : profile :=
  (t_label d, map (in_space (t_lower d)) (range (num_spaces st)), map (in_space (t_upper d)) (range (num_spaces st))).
(** The tensor of an operator: as many lower (upper) indices in each space as the operator has creation (annihilation) legs. *)
Definition oper_profile (st : osi) (o : oper) : profile :=
  (op_label o, map (fun s => Z.to_nat (cre_of (op_gm o) s)) (range (num_spaces st)), map (fun s => Z.to_nat (ann_of (op_gm o) s)) (range (num_spaces st))).
(** A density matrix of a general space: gamma1 or eta1 with two indices, or lambda<k> with 2k indices, 2 <= k <= max. *)
Definition only_in (st : osi) (s : Z) (k : nat) : list nat := map (fun s' => if s' =? s then k else O) (range (num_spaces st)).
Inductive density_profile (st : osi) (maxcumulant : Z) : profile -> Prop :=
| dp_gamma s : is_space st s -> stype st s = Some General -> density_profile st maxcumulant (gamma1_label, only_in st s 1, only_in st s 1)
| dp_eta s : is_space st s -> stype st s = Some General -> density_profile st maxcumulant (eta1_label, only_in st s 1, only_in st s 1)
| dp_lambda s k : is_space st s -> stype st s = Some General -> (2 <= k)%nat -> Z.of_nat k <= maxcumulant ->
    density_profile st maxcumulant (lambda_label ++ dec_text (Z.of_nat k), only_in st s k, only_in st s k).

(** Numbers of creation and annihilation operators in a space. *)
Definition cre_in (t : term) (s : Z) : Z := Z.of_nat (in_space (creators (tm_ops t)) s).
Definition ann_in (t : term) (s : Z) : Z := Z.of_nat (in_space (annihilators (tm_ops t)) s).
Definition cre_total (ops : oprod) (s : Z) : Z := fold_right (fun o z => cre_of (op_gm o) s + z) 0 ops.
Definition ann_total (ops : oprod) (s : Z) : Z := fold_right (fun o z => ann_of (op_gm o) s + z) 0 ops.

(** [t] looks like a contraction of the product [ops] with between [minrank] and [maxrank] operators left over. *)
Record contraction_of (st : osi) (maxcumulant : Z) (ops : oprod) (minrank maxrank : Z) (t : term) : Prop := {
  (** Every index occurs exactly twice: once in an upper and once in a lower slot (Einstein's summation convention). *)
  co_einstein : NoDup (upper_slots t) /\ Permutation (upper_slots t) (lower_slots t);
  (** No index is shared by two operators, so each of them is also the index of a tensor. *)
  co_open : NoDup (map s_idx (tm_ops t));
  (** The indices of each space are numbered from 0 without gaps, those of the operators first. *)
  co_spaces : term_spaces st t;
  co_labels : forall s, is_space st s -> exists k,
    (forall p, in_ops t (mkI s p) <-> 0 <= p < Z.of_nat (ops_in_space t s)) /\ (forall p, in_term t (mkI s p) <-> 0 <= p < Z.of_nat (ops_in_space t s + k));
  (** There are no more of them than legs of the operators. *)
  co_size : Z.of_nat (length (upper_slots t)) <= fold_left (fun a o => a + op_num o) ops 0;
  (** One tensor for each operator and density matrices; all antisymmetric, none conjugated. *)
  co_tensors : exists ds, Forall (density_profile st maxcumulant) ds /\ Permutation (map (tensor_profile st) (tm_tens t)) (map (oper_profile st) ops ++ ds);
  co_plain : Forall (fun d => t_sym d = Antisymmetric /\ t_cc d = false) (tm_tens t);
  (** The operators left over: creation first, ascending; the requested number; in each space at most those of the product, with the
      same difference of creation and annihilation operators. *)
  co_order : ordered sqop_ltb (tm_ops t) /\ cre_first (tm_ops t) /\ tm_no t = false;
  co_rank : minrank <= Z.of_nat (length (tm_ops t)) <= maxrank;
  co_balance : forall s, is_space st s -> cre_in t s <= cre_total ops s /\ ann_in t s <= ann_total ops s /\ cre_in t s - ann_in t s = cre_total ops s - ann_total ops s
}.

(** Labels of operators whose printed forms can be told apart from each other and from the density matrices: a name that is not a Greek
    letter, and digits. *)
Definition plain_label (l : text) : Prop := exists s d, l = s ++ d /\ s <> [] /\ all_of is_alpha s /\ is_greek s = false /\ all_of is_digit d.
Definition plain_labels (ops : oprod) : Prop := Forall (fun o => plain_label (op_label o)) ops.
(** A name the parser reads: a letter, then letters and digits. *)
Definition name_label (l : text) : Prop := exists c r, l = c :: r /\ is_alpha c = true /\ all_of is_alnum r.
