(** Model of wicked/diagrams: GraphMatrix, Operator, OperatorProduct, OperatorExpression. *)
From Coq Require Import ZArith List Bool Ascii.
From Verif Require Import Res PartitionsModel RegistryModel CoreModel CombinatoricsModel RationalModel AlgebraModel.
Import ListNotations.
Local Open Scope Z_scope.
Local Open Scope res_scope.

(** [for (int s = 0; s < n; ++s)]: the values taken by the loop variable. *)
Definition range (n : Z) : list Z := map Z.of_nat (seq 0 (Z.to_nat n)).

(** ** GraphMatrix (graph_matrix.{h,cc}): [std::array] of 8 pairs; indexing past it is UB *)

(** graph_matrix.h:16, 68: value-initialised array. *)
Definition max_spaces : nat := 8.
Definition gm_zero : gmat := repeat (0, 0) max_spaces.

(** graph_matrix.cc:26-34, unchecked [elements_[space]]. *)
Definition gm_cre (g : gmat) (s : Z) : res Z := p <- aget g s ;; Ok (fst p).
Definition gm_ann (g : gmat) (s : Z) : res Z := p <- aget g s ;; Ok (snd p).

(** graph_matrix.cc:12-17. *)
Definition gm_make (st : osi) (cre ann : list Z) : res gmat :=
  foldM (fun g i => c <- aget cre i ;; a <- aget ann i ;; aset g i (c, a)) gm_zero (range (num_spaces st)).

(** graph_matrix.cc:61-75. *)
Definition gm_add (st : osi) (g h : gmat) : res gmat :=
  foldM (fun g s => x <- aget g s ;; y <- aget h s ;; aset g s (fst x + fst y, snd x + snd y)) g (range (num_spaces st)).
Definition gm_sub (st : osi) (g h : gmat) : res gmat :=
  foldM (fun g s => x <- aget g s ;; y <- aget h s ;; aset g s (fst x - fst y, snd x - snd y)) g (range (num_spaces st)).

(** graph_matrix.cc:77-85. *)
Definition gm_adjoint (st : osi) (g : gmat) : res gmat :=
  cre_v <- mapM (gm_ann g) (range (num_spaces st)) ;;
  ann_v <- mapM (gm_cre g) (range (num_spaces st)) ;;
  gm_make st cre_v ann_v.

(** graph_matrix.cc:41-47. *)
Definition gm_num_ops (g : gmat) : Z := fold_left (fun r p => r + (fst p + snd p)) g 0.

(** Total accessors used by the models below: entries past the array read as 0 (C++: UB; with at
    most 8 registered spaces no such access is made). *)
Definition cre_of (g : gmat) (s : Z) : Z := match gm_cre g s with Ok c => c | _ => 0 end.
Definition ann_of (g : gmat) (s : Z) : Z := match gm_ann g s with Ok c => c | _ => 0 end.

(** ** Operator (operator.cc) *)

(** operator.cc:20-29. *)
Definition op_factor (st : osi) (o : oper) : rational :=
  let r := fold_left (fun r s => rat_div r (rat_of_Z (factorial (cre_of (op_gm o) s)))) (range (num_spaces st)) (rat_of_Z 1) in
  fold_left (fun r s => rat_div r (rat_of_Z (factorial (ann_of (op_gm o) s)))) (range (num_spaces st)) r.

(** operator.cc:31-33. *)
Definition op_adjoint (st : osi) (o : oper) : res oper :=
  g <- gm_adjoint st (op_gm o) ;; Ok (mkOp (op_label o) g).

(** operator.cc:39. *)
Definition op_num (o : oper) : Z := gm_num_ops (op_gm o).

(** operator.cc:88-94. *)
Definition ops_commute (st : osi) (a b : oper) : bool :=
  fold_left (fun n s => n + (ann_of (op_gm a) s * cre_of (op_gm b) s + cre_of (op_gm a) s * ann_of (op_gm b) s))
    (range (num_spaces st)) 0 =? 0.

(** operator.cc:96-102. *)
Definition op_ncless (st : osi) (a b : oper) : bool := if ops_commute st a b then oper_ltb a b else false.

(** ** OperatorProduct (operator_product.cc, product.hpp) *)

(** product.hpp:31-38 with operator.cc:31-33. *)
Definition oprod_adjoint (st : osi) (p : oprod) : res oprod := d <- mapM (op_adjoint st) p ;; Ok (rev d).

(** operator_product.cc:18-23: one pass of the inner loop over the first [k] adjacent pairs;
    [nperm] is an unbounded integer here ([int] in C++). *)
Fixpoint bubble_pass (st : osi) (k : nat) (l : oprod) (nperm : Z) : oprod * Z :=
  match k, l with
  | S k', a :: b :: l' =>
      if op_ncless st b a
      then let '(r, np) := bubble_pass st k' (a :: l') (nperm + op_num a * op_num b) in (b :: r, np)
      else let '(r, np) := bubble_pass st k' (b :: l') nperm in (a :: r, np)
  | _, _ => (l, nperm)
  end.

(** operator_product.cc:16-24: the outer loop; [i] counts from [n - 1] passes down. *)
Fixpoint bubble_sort (st : osi) (k : nat) (l : oprod) (nperm : Z) : oprod * Z :=
  match k with
  | O => (l, nperm)
  | S k' => let '(l', np) := bubble_pass st k l nperm in bubble_sort st k' l' np
  end.

(** operator_product.cc:13-26. *)
Definition oprod_canonicalize (st : osi) (p : oprod) : oprod * Z :=
  let '(p', nperm) := bubble_sort st (length p - 1) p 0 in
  (p', if Z.rem nperm 2 =? 0 then 1 else -1).

(** ** OperatorExpression (operator_expression.{h,cc}) *)

(** operator_expression.cc:23-31. *)
Definition opexpr_canonicalize (st : osi) (e : opexpr) : opexpr :=
  fold_left (fun r x => let '(p, s) := oprod_canonicalize st (fst x) in
    madd oprod_ltb p (rat_mul (rat_of_Z s) (snd x)) r) e [].

(** operator_expression.h:32-38. *)
Definition opexpr_adjoint (st : osi) (e : opexpr) : res opexpr :=
  foldM (fun r x => p <- oprod_adjoint st (fst x) ;; Ok (madd oprod_ltb p (snd x) r)) [] e.

(** operator_expression.cc:98-101. *)
Definition op_commutator (a b : opexpr) : res opexpr :=
  ab <- mprod oprod_ltb oprod_mul a b ;; ba <- mprod oprod_ltb oprod_mul b a ;; Ok (mminus oprod_ltb ab ba).

(** operator_expression.cc:108-114: iterations [k..n] of the loop ([todo] of them). *)
Fixpoint bch_loop (todo : nat) (k : Z) (temp b result : opexpr) : res opexpr :=
  match todo with
  | O => Ok result
  | S todo' =>
      comm <- op_commutator temp b ;;
      let comm := mscale comm (rat_make 1 k) in
      bch_loop todo' (k + 1) comm b (mplus oprod_ltb result comm)
  end.

(** operator_expression.cc:103-117. *)
Definition bch_series (a b : opexpr) (n : Z) : res opexpr :=
  bch_loop (Z.to_nat n) 1 a b (mplus oprod_ltb [] a).

(** operator_api.cc:62-78: the Python function [commutator( *args)]. *)
Definition commutator_args (args : list opexpr) : res opexpr :=
  match args with
  | [] => Ok []
  | a :: rest => foldM op_commutator a rest
  end.

(** ** [op(label, components, unique)] *)

(** The regular expression [([a-zA-Z][+^]?)] used by [findall] (operator_expression.cc:76): the letters of the
    string, each with a flag telling whether '+' or '^' follows. *)
Definition is_letter (c : ascii) : bool :=
  let n := Z.of_N (N_of_ascii c) in ((65 <=? n) && (n <=? 90)) || ((97 <=? n) && (n <=? 122)).
Definition is_dagger (c : ascii) : bool := Ascii.eqb c "+"%char || Ascii.eqb c "^"%char.
Fixpoint op_tokens (s : text) : list (ascii * bool) :=
  match s with
  | [] => []
  | c :: s' => if is_letter c then (c, match s' with d :: _ => is_dagger d | [] => false end) :: op_tokens s'
               else op_tokens s'
  end.

(** operator_expression.cc:77-87: counts per space ([v[space] += 1]); unknown labels throw. *)
Definition incr (v : list Z) (s : Z) : res (list Z) := x <- aget v s ;; aset v s (x + 1).
Definition count_tokens (st : osi) (toks : list (ascii * bool)) : res (list Z * list Z) :=
  foldM (fun ca t => s <- label_to_space st (fst t) ;;
    if (snd t : bool) then (c' <- incr (fst ca) s ;; Ok (c', snd ca)) else (a' <- incr (snd ca) s ;; Ok (fst ca, a')))
    (repeat 0 (Z.to_nat (num_spaces st)), repeat 0 (Z.to_nat (num_spaces st))) toks.
Definition component_op (st : osi) (label : text) (s : text) : res oper :=
  '(c, a) <- count_tokens st (op_tokens s) ;; g <- gm_make st c a ;; Ok (mkOp label g).

(** operator_expression.cc:69-96. *)
Definition make_op_expr (st : osi) (label : text) (components : list text) (unique : bool) : res opexpr :=
  foldM (fun r s => o <- component_op st label s ;;
    if unique && mcontains oprod_ltb [o] r then Ok r else Ok (madd oprod_ltb [o] (rat_make 1 1) r)) [] components.

(** operator.cc:104-120 ([make_diag_operator]). *)
Definition make_diag_operator (st : osi) (label : text) (cre_labels ann_labels : list ascii) : res oper :=
  let z := repeat 0 (Z.to_nat (num_spaces st)) in
  c <- foldM (fun v l => s <- label_to_space st l ;; incr v s) z cre_labels ;;
  a <- foldM (fun v l => s <- label_to_space st l ;; incr v s) z ann_labels ;;
  g <- gm_make st c a ;; Ok (mkOp label g).
