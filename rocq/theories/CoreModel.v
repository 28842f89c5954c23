(** Core data types of wicked/algebra: Index, SQOperator, Tensor, SymbolicTerm, with their
    comparison operators. *)
From Coq Require Import ZArith List Bool Ascii NArith.
From Verif Require Import Res RegistryModel.
Import ListNotations.
Local Open Scope Z_scope.

(** [std::vector::operator<] (and [std::array], [std::string]): [std::lexicographical_compare]. *)
Fixpoint lexb {A} (lt : A -> A -> bool) (l1 l2 : list A) : bool :=
  match l1, l2 with
  | _, [] => false
  | [], _ :: _ => true
  | a :: l1', b :: l2' => if lt a b then true else if lt b a then false else lexb lt l1' l2'
  end.

(** [std::vector::operator==]. *)
Fixpoint list_eqb {A} (eqb : A -> A -> bool) (l1 l2 : list A) : bool :=
  match l1, l2 with
  | [], [] => true
  | a :: l1', b :: l2' => eqb a b && list_eqb eqb l1' l2'
  | _, _ => false
  end.

(** [std::pair::operator<]. *)
Definition pair_ltb {A B} (lta : A -> A -> bool) (ltb : B -> B -> bool) (x y : A * B) : bool :=
  lta (fst x) (fst y) || (negb (lta (fst y) (fst x)) && ltb (snd x) (snd y)).

(** [std::string::operator<]: characters compare as unsigned. *)
Definition ascii_ltb (a b : ascii) : bool := (N_of_ascii a <? N_of_ascii b)%N.
Definition text_ltb : text -> text -> bool := lexb ascii_ltb.

(** index.h:62, [std::pair<int,int> index_]. *)
Record index := mkI { isp : Z; ipos : Z }.

(** index.cc:12-14, 16-18. *)
Definition index_eqb (a b : index) : bool := (isp a =? isp b) && (ipos a =? ipos b).
Definition index_ltb (a b : index) : bool :=
  pair_ltb Z.ltb Z.ltb (isp a, ipos a) (isp b, ipos b).

(** sqoperator.h:20, [SQOperatorType::{Creation, Annihilation}] as [s_cre], and the index. *)
Record sqop := mkSQ { s_cre : bool; s_idx : index }.

(** sqoperator.cc:21. *)
Definition s_space (a : sqop) : Z := isp (s_idx a).

(** sqoperator.cc:78-80. *)
Definition sqop_eqb (a b : sqop) : bool := Bool.eqb (s_cre a) (s_cre b) && index_eqb (s_idx a) (s_idx b).

(** sqoperator.cc:46-59. *)
Definition sqop_ltb (a b : sqop) : bool :=
  if negb (Bool.eqb (s_cre a) (s_cre b)) then s_cre a
  else if s_cre a then index_ltb (s_idx a) (s_idx b)
  else index_ltb (s_idx b) (s_idx a).

(** sqoperator.cc:96-100. *)
Definition sqop_adjoint (a : sqop) : sqop := mkSQ (negb (s_cre a)) (s_idx a).

(** tensor.h:10. *)
Inductive symmetry := Symmetric | Antisymmetric | Nonsymmetric.

(** tensor.h:85-90. *)
Record tensor := mkT {
  t_label : text; t_lower : list index; t_upper : list index; t_sym : symmetry; t_cc : bool }.

(** tensor.cc:31-43. *)
Definition tensor_ltb (a b : tensor) : bool :=
  if text_ltb (t_label a) (t_label b) then true
  else if text_ltb (t_label b) (t_label a) then false
  else if lexb index_ltb (t_lower a) (t_lower b) then true
  else if lexb index_ltb (t_lower b) (t_lower a) then false
  else lexb index_ltb (t_upper a) (t_upper b).

(** tensor.cc:45-48. *)
Definition tensor_eqb (a b : tensor) : bool :=
  text_eqb (t_label a) (t_label b) && list_eqb index_eqb (t_lower a) (t_lower b)
  && list_eqb index_eqb (t_upper a) (t_upper b).

(** tensor.cc:92-98. *)
Definition tensor_adjoint (t : tensor) : tensor :=
  mkT (t_label t) (t_lower t) (t_upper t) (t_sym t) (negb (t_cc t)).

(** symbolic_term.h:130-135: normal-order flag, operators, tensors. *)
Record term := mkTerm { tm_no : bool; tm_ops : list sqop; tm_tens : list tensor }.

(** symbolic_term.cc:359-367. *)
Definition term_ltb (a b : term) : bool :=
  if lexb tensor_ltb (tm_tens b) (tm_tens a) then false
  else if lexb tensor_ltb (tm_tens a) (tm_tens b) then true
  else lexb sqop_ltb (tm_ops a) (tm_ops b).

(** symbolic_term.cc:369-371. *)
Definition term_eqb (a b : term) : bool :=
  list_eqb tensor_eqb (tm_tens a) (tm_tens b) && list_eqb sqop_eqb (tm_ops a) (tm_ops b).

(** graph_matrix.h:17: an array of (creation, annihilation) counts, one pair per space (8 of them). *)
Definition gmat := list (Z * Z).
Definition pair_eqb (a b : Z * Z) : bool := (fst a =? fst b) && (snd a =? snd b).

(** graph_matrix.cc:49-55. *)
Definition gmat_ltb : gmat -> gmat -> bool := lexb (pair_ltb Z.ltb Z.ltb).
Definition gmat_eqb : gmat -> gmat -> bool := list_eqb pair_eqb.

(** operator.h:52-56. *)
Record oper := mkOp { op_label : text; op_gm : gmat }.

(** operator.cc:41-53. *)
Definition oper_ltb (a b : oper) : bool :=
  if text_ltb (op_label a) (op_label b) then true
  else if text_ltb (op_label b) (op_label a) then false
  else gmat_ltb (op_gm a) (op_gm b).
Definition oper_eqb (a b : oper) : bool :=
  text_eqb (op_label a) (op_label b) && gmat_eqb (op_gm a) (op_gm b).

(** product.hpp:23-29, 74-77. *)
Definition oprod := list oper.
Definition oprod_ltb : oprod -> oprod -> bool := lexb oper_ltb.
Definition oprod_eqb : oprod -> oprod -> bool := list_eqb oper_eqb.
