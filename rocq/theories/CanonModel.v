(** [SymbolicTerm::canonicalize] and [Expression::canonicalize]. *)
From Coq Require Import ZArith List Bool Permutation.
From Verif Require Import Res PartitionsModel RegistryModel CoreModel CombinatoricsModel RationalModel AlgebraModel SortModel SortSpec OperatorModel AdjointModel.
Import ListNotations.
Local Open Scope Z_scope.
Local Open Scope res_scope.

(** index.cc:106-112.  Spaces that are not registered index past the vector. *)
Definition indices_per_space (st : osi) (l : list index) : res (list Z) :=
  foldM (fun v i => incr v (isp i)) (repeat 0 (Z.to_nat (num_spaces st))) l.

(** [std::set_intersection] of sorted ranges (not a function of /repo). *)
Fixpoint set_inter (fuel : nat) (a b : list index) : list index :=
  match fuel with
  | O => []
  | S f =>
    match a, b with
    | x :: a', y :: b' =>
        if index_ltb x y then set_inter f a' b
        else if index_ltb y x then set_inter f a b'
        else x :: set_inter f a' b'
    | _, _ => []
    end
  end.

(** symbolic_term.cc:451-479.  [std::sort] of indices (equal indices are identical) and of (string, vector) pairs has one result.
    [common_upper_indices] is computed and not used. *)
Definition conn := list (text * list Z).
Definition conn_elt_ltb := pair_ltb text_ltb (lexb Z.ltb).
Definition tensor_connectivity (st : osi) (tensors : list tensor) (t : tensor) (upper : bool) : res conn :=
  let indices := sort_by index_ltb (if upper then t_upper t else t_lower t) in
  r <- foldM (fun r d =>
      if tensor_eqb t d then Ok r
      else
        let indices2 := sort_by index_ltb (if upper then t_lower d else t_upper d) in
        v <- indices_per_space st (set_inter (length indices + length indices2) indices indices2) ;;
        Ok (r ++ [(t_label d, v)])) [] tensors ;;
  Ok (sort_by conn_elt_ltb r).

(** symbolic_term.cc:115-117, 128-149: the score of a tensor ([Tensor::rank], tensor.h:59). *)
Record score := mkScore { sc_label : text; sc_rank : Z; sc_low : list Z; sc_upp : list Z; sc_lconn : conn; sc_uconn : conn; sc_tensor : tensor }.
Definition tensor_score (st : osi) (tensors : list tensor) (t : tensor) : res score :=
  nl <- indices_per_space st (t_lower t) ;;
  nu <- indices_per_space st (t_upper t) ;;
  lc <- tensor_connectivity st tensors t false ;;
  uc <- tensor_connectivity st tensors t true ;;
  Ok (mkScore (t_label t) (Z.of_nat (length (t_upper t)) + Z.of_nat (length (t_lower t))) nl nu lc uc t).

(** [std::tuple::operator<]: lexicographic. *)
Definition then_ltb {A} (lt : A -> A -> bool) (x y : A) (rest : bool) : bool := if lt x y then true else if lt y x then false else rest.
Definition score_ltb (x y : score) : bool :=
  then_ltb text_ltb (sc_label x) (sc_label y) (
  then_ltb Z.ltb (sc_rank x) (sc_rank y) (
  then_ltb (lexb Z.ltb) (sc_low x) (sc_low y) (
  then_ltb (lexb Z.ltb) (sc_upp x) (sc_upp y) (
  then_ltb (lexb conn_elt_ltb) (sc_lconn x) (sc_lconn y) (
  then_ltb (lexb conn_elt_ltb) (sc_uconn x) (sc_uconn y) (
  tensor_ltb (sc_tensor x) (sc_tensor y))))))).

(** symbolic_term.cc:171-180: the tensors in sorted order.  [std::sort] may put tensors with equivalent scores (they differ
    in their flags only) in either order: any sorted rearrangement. *)
Definition sorted_tensors (st : osi) (t : term) (ts : list tensor) : Prop :=
  exists scores tl, mapM (tensor_score st (tm_tens t)) (tm_tens t) = Ok scores /\
    Permutation scores tl /\ ordered score_ltb tl /\ ts = map sc_tensor tl.

(** symbolic_term.cc:182-228.  [c_sq], [c_tens]: the two counters; [c_map]: [index_map]. *)
Record cstate := mkC { c_sq : list Z; c_tens : list Z; c_map : index_map }.

(** [is_operator_index.count(i) != 0]. *)
Definition is_op_index (ops : list sqop) (i : index) : bool := existsb (fun o => index_eqb (s_idx o) i) ops.

(** symbolic_term.cc:199-212, 216-228: one index of a tensor. *)
Definition relabel_step (ops : list sqop) (c : cstate) (i : index) : res cstate :=
  match imfind i (c_map c) with
  | Some _ => Ok c
  | None =>
    if is_op_index ops i then
      n <- aget (c_sq c) (isp i) ;; v <- incr (c_sq c) (isp i) ;;
      Ok (mkC v (c_tens c) (c_map c ++ [(i, mkI (isp i) n)]))
    else
      n <- aget (c_tens c) (isp i) ;; v <- incr (c_tens c) (isp i) ;;
      Ok (mkC (c_sq c) v (c_map c ++ [(i, mkI (isp i) n)]))
  end.

(** The indices of a tensor in the order of the loops: lower, then upper. *)
Definition tensor_indices (t : tensor) : list index := t_lower t ++ t_upper t.
Definition relabel_map (st : osi) (ops : list sqop) (ts : list tensor) : res index_map :=
  let zeros := repeat 0 (Z.to_nat (num_spaces st)) in
  tc <- foldM (fun v o => incr v (s_space o)) zeros ops ;;
  c <- foldM (relabel_step ops) (mkC zeros tc []) (concat (map tensor_indices ts)) ;;
  Ok (c_map c).

(** symbolic_term.cc:245-293: [simplify] only fills bit masks; [bitset<64>::operator[]] is undefined
    past position 63 (a negative [int] becomes a huge [size_t]). *)
Definition simplify_ok (st : osi) (ts : list tensor) : bool :=
  forallb (fun i => negb ((0 <=? isp i) && (isp i <? num_spaces st)) || ((0 <=? ipos i) && (ipos i <? 64))) (concat (map tensor_indices ts)).

(** symbolic_term.cc:231-236: sort the indices of each tensor, multiply the signs. *)
Definition canon_tensors (ts : list tensor) : res (list tensor * Z) :=
  foldM (fun r t => x <- tensor_canonicalize t ;; Ok (fst r ++ [fst x], snd r * snd x)) ([], 1) ts.

(** symbolic_term.cc:106-243 after the tensors are sorted into [ts]. *)
Definition canonicalize_from (st : osi) (t : term) (ts : list tensor) : res (term * Z) :=
  m <- relabel_map st (tm_ops t) ts ;;
  let t' := term_reindex m (mkTerm (tm_no t) (tm_ops t) ts) in
  x <- canon_tensors (tm_tens t') ;;
  let '(ops, s) := canonicalize_sqops (tm_ops t') false in
  if simplify_ok st (fst x) then Ok (mkTerm (tm_no t) ops (fst x), snd x * s) else UB.

(** symbolic_term.cc:106-243: [term_canonicalize st t r]: [r] is a possible outcome. *)
Definition term_canonicalize (st : osi) (t : term) (r : res (term * Z)) : Prop :=
  exists ts, sorted_tensors st t ts /\ r = canonicalize_from st t ts.

(** expression.cc:57-67: fold over the terms; each term has some outcome. *)
Inductive expr_canon_run (st : osi) : expression -> expression -> expression -> Prop :=
| ec_nil r : expr_canon_run st [] r r
| ec_cons t c e r t' s r' : term_canonicalize st t (Ok (t', s)) ->
    expr_canon_run st e (madd term_ltb t' (rat_mul (rat_of_Z s) c) r) r' -> expr_canon_run st ((t, c) :: e) r r'.
Definition expr_canonicalize (st : osi) (e r : expression) : Prop := expr_canon_run st e [] r.
