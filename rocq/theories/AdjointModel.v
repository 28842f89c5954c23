(** Adjoints, reindexing and [operator_expr] for expressions: symbolic_term.cc, expression.cc. *)
From Coq Require Import ZArith List Bool Ascii.
From Verif Require Import Res PartitionsModel RegistryModel CoreModel RationalModel AlgebraModel OperatorModel.
Import ListNotations.
Local Open Scope Z_scope.
Local Open Scope res_scope.

(** product.hpp:31-38 for [Product<SQOperator>]. *)
Definition sqops_adjoint (l : list sqop) : list sqop := rev (map sqop_adjoint l).

(** symbolic_term.cc:60-68. *)
Definition term_adjoint (t : term) : term :=
  mkTerm (tm_no t) (sqops_adjoint (tm_ops t)) (map tensor_adjoint (tm_tens t)).

(** expression.cc:68-74. *)
Definition expr_adjoint (e : expression) : expression :=
  fold_left (fun r x => madd term_ltb (term_adjoint (fst x)) (snd x) r) e [].

(** index.h: [index_map_t] = [std::map<Index, Index>], used through [count], [find], [m[k] = v]: an association
    list in order of insertion. *)
Definition index_map := list (index * index).
Fixpoint imfind (i : index) (m : index_map) : option index :=
  match m with [] => None | (k, v) :: m' => if index_eqb i k then Some v else imfind i m' end.

(** sqoperator.cc:40-44 / tensor.cc:64-75: an index not in the map is kept. *)
Definition reindex (m : index_map) (i : index) : index := match imfind i m with Some j => j | None => i end.
Definition sqop_reindex (m : index_map) (o : sqop) : sqop := mkSQ (s_cre o) (reindex m (s_idx o)).
Definition tensor_reindex (m : index_map) (t : tensor) : tensor :=
  mkT (t_label t) (map (reindex m) (t_lower t)) (map (reindex m) (t_upper t)) (t_sym t) (t_cc t).

(** symbolic_term.cc:97-104. *)
Definition term_reindex (m : index_map) (t : term) : term :=
  mkTerm (tm_no t) (map (sqop_reindex m) (tm_ops t)) (map (tensor_reindex m) (tm_tens t)).

(** expression.cc:76-84: the reindexed terms are computed into a local map that is then discarded. *)
Definition expr_reindex (m : index_map) (e : expression) : expression :=
  let _reindexed := fold_left (fun r x => madd term_ltb (term_reindex m (fst x)) (snd x) r) e [] in e.

(** ** [operator_expr] (expression.cc:201-247) *)

(** [split(s)] (helpers.cc:44-53) with the regex [[\s,]+], match -1: the pieces between separators.  A
    leading separator gives an empty first piece; a trailing one gives nothing; [""] gives one empty piece. *)
Definition is_sep (c : ascii) : bool :=
  Ascii.eqb c ","%char || Ascii.eqb c " "%char ||
  (let n := Z.of_N (N_of_ascii c) in (9 <=? n) && (n <=? 13)).
Fixpoint split_aux (s cur : text) : list text :=
  match s with
  | [] => [rev cur]
  | c :: s' => if is_sep c then rev cur :: skip_seps s' else split_aux s' (c :: cur)
  end
with skip_seps (s : text) : list text :=
  match s with
  | [] => []
  | c :: s' => if is_sep c then skip_seps s' else split_aux s' [c]
  end.
Definition split (s : text) : list text := split_aux s [].

(** expression.cc:212-216, 219-233 for one piece: [s[0]] of an empty piece is the terminating NUL
    character, which is never a label. *)
Definition head_char (s : text) : ascii := match s with c :: _ => c | [] => zero end.

(** expression.cc:212-215: annihilation counters start at the number of pieces (also the creation ones)
    of each space. *)
Definition count_pieces (st : osi) (pieces : list text) : res (list Z) :=
  foldM (fun v s => sp <- label_to_space st (head_char s) ;; incr v sp) (repeat 0 (Z.to_nat (num_spaces st))) pieces.

(** expression.cc:217-233: creation indices count up from 0, annihilation indices count down from the
    number of pieces. *)
Record opex := mkX { x_cre_count : list Z; x_ann_count : list Z; x_cre : list index; x_ann : list index }.
Definition opex_step (st : osi) (x : opex) (s : text) : res opex :=
  sp <- label_to_space st (head_char s) ;;
  if (length s =? 2)%nat then
    n <- aget (x_cre_count x) sp ;; v <- aset (x_cre_count x) sp (n + 1) ;;
    Ok (mkX v (x_ann_count x) (x_cre x ++ [mkI sp n]) (x_ann x))
  else
    n <- aget (x_ann_count x) sp ;; v <- aset (x_ann_count x) sp (n - 1) ;;
    Ok (mkX (x_cre_count x) v (x_cre x) (x_ann x ++ [mkI sp (n - 1)])).

(** expression.cc:208-244: the term of one component. *)
Definition component_term (st : osi) (label : text) (s : text) (no : bool) (sym : symmetry) : res term :=
  let pieces := split s in
  anns <- count_pieces st pieces ;;
  x <- foldM (opex_step st) (mkX (repeat 0 (Z.to_nat (num_spaces st))) anns [] []) pieces ;;
  Ok (mkTerm no (map (mkSQ true) (x_cre x) ++ map (mkSQ false) (x_ann x))
       [mkT label (x_cre x) (rev (x_ann x)) sym false]).

(** expression.cc:201-247.  Line 244 calls [Algebra::add(const SymbolicTerm &, factor = 1)], so the
    coefficient set in line 235 is not used. *)
Definition operator_expr (st : osi) (label : text) (components : list text) (no : bool) (sym : symmetry)
  (coefficient : rational) : res expression :=
  foldM (fun r s => t <- component_term st label s no sym ;; Ok (madd term_ltb t (rat_of_Z 1) r)) [] components.
