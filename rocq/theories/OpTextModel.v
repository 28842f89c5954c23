(** Model of the printed form of operators and their sums (wicked/diagrams/operator.cc:59-81, operator_expression.cc:33-44; rational.cc:104-112). *)
From Coq Require Import String.
From Coq Require Import ZArith List Bool Ascii.
From Verif Require Import Res RegistryModel CoreModel RationalModel AlgebraModel OperatorModel DecModel TextModel ExprTextModel EquationModel.
Import ListNotations.
Local Open Scope Z_scope.
Local Open Scope res_scope.

(** operator.cc:66-71: [cre(i)] times the label of space [i] with a plus (none when the number is not positive). *)
Definition cre_words (st : osi) (o : oper) (s : Z) : res (list text) := l <- space_label st s ;; c <- gm_cre (op_gm o) s ;; Ok (repeat [l; "+"%char] (Z.to_nat c)).
(** operator.cc:73-76. *)
Definition ann_words (st : osi) (o : oper) (s : Z) : res (list text) := l <- space_label st s ;; a <- gm_ann (op_gm o) s ;; Ok (repeat [l] (Z.to_nat a)).
(** operator.cc:59-81: the second loop goes down. *)
Definition op_str (st : osi) (o : oper) : res text :=
  c <- mapM (cre_words st o) (range (num_spaces st)) ;;
  a <- mapM (ann_words st o) (rev (range (num_spaces st))) ;;
  let f := op_factor st o in
  Ok (join ((if rat_eqb f (rat_of_Z 1) then [] else [rat_str f false]) ++ [op_label o; str "{"] ++ concat c ++ concat a ++ [str "}"]) (str " ")).
(** operator_expression.cc:33-44: one line for each product, the terms of the map in order. *)
Definition line_str (st : osi) (x : oprod * rational) : res text := ops <- mapM (op_str st) (fst x) ;; Ok (rat_str (snd x) true ++ concat (map (fun w => str " " ++ w) ops)).
Definition opexpr_str (st : osi) (e : opexpr) : res text := ls <- mapM (line_str st) e ;; Ok (join ls [newline]).
(** rational.cc:104-112. *)
Definition rat_repr (r : rational) : text := str "rational(" ++ dec_text (num r) ++ str "," ++ dec_text (den r) ++ str ")".
