(** Specification for gen_op (C58). *)
From Coq Require Import ZArith List Bool Ascii.
From Verif Require Import Res RegistryModel CoreModel OperatorModel OperatorSpec.
Import ListNotations.
Local Open Scope Z_scope.

Definition zsum (l : list Z) : Z := fold_right Z.add 0 l.
Definition space (st : osi) (s : Z) : Prop := 0 <= s < num_spaces st.
(** An operator with [rank] creation legs in the spaces named in [cre] and [rank] annihilation legs in those named in [ann]. *)
Record component (st : osi) (label : text) (rank : Z) (cre ann : text) (o : oper) : Prop := {
  cp_label : op_label o = label;
  cp_valid : op_valid st o;
  cp_nonneg : nonneg_counts st o;
  cp_cre : zsum (map (cre_of (op_gm o)) (range (num_spaces st))) = rank;
  cp_ann : zsum (map (ann_of (op_gm o)) (range (num_spaces st))) = rank;
  cp_cre_in : forall s l, space_label st s = Ok l -> 0 < cre_of (op_gm o) s -> In l cre;
  cp_ann_in : forall s l, space_label st s = Ok l -> 0 < ann_of (op_gm o) s -> In l ann }.
(** All legs are in one space. *)
Definition one_space (st : osi) (o : oper) : Prop :=
  forall s s', space st s -> space st s' -> 0 < cre_of (op_gm o) s -> 0 < ann_of (op_gm o) s' -> s = s'.
(** Letters that name registered spaces, each listed once. *)
Definition space_list (st : osi) (l : text) : Prop := NoDup l /\ Forall (fun c => letter c /\ exists p, label_to_space st c = Ok p) l.
