(** Model of the printed forms of an equation (wicked/algebra/equation.cc) and of the "ambit" format of the compile functions. *)
From Coq Require Import String ZArith List Bool Ascii.
From Verif Require Import Res RegistryModel CoreModel RationalModel AlgebraModel TextModel ExprTextModel EquationModel.
Import ListNotations.
Local Open Scope Z_scope.
Local Open Scope res_scope.

(** equation.cc:28-31. *)
Definition eq_eqb (a b : equation) : bool := term_eqb (eq_lhs a) (eq_lhs b) && term_eqb (eq_rhs a) (eq_rhs b) && rat_eqb (eq_factor a) (eq_factor b).
(** equation.cc:33-40. *)
Definition eq_str (st : osi) (e : equation) : res text :=
  l <- term_str st (eq_lhs e) ;; r <- term_str st (eq_rhs e) ;; Ok (join [l; str "+="; rat_str (eq_factor e) false; r] (str " ")).
(** equation.cc:42. *)
Definition eq_latex (st : osi) (e : equation) : res text := eq_str st e.

(** index.cc:28: every format. *)
Definition index_compile (st : osi) (format : text) (i : index) : res text := index_str st i.
(** tensor.cc:148-159: every format. *)
Definition tensor_compile (st : osi) (format : text) (t : tensor) : res text :=
  u <- mapM (index_compile st format) (t_upper t) ;; l <- mapM (index_compile st format) (t_lower t) ;;
  Ok (match u ++ l with [] => t_label t | v => t_label t ++ str "[" ++ join v (str ",") ++ str "]" end).
(** sqoperator.cc:117-121. *)
Definition sqop_compile (st : osi) (format : text) (q : sqop) : res text := Throw.
(** symbolic_term.cc:425-438. *)
Definition term_compile (st : osi) (format : text) (t : term) : res text :=
  if text_eqb format (str "ambit") then
    l <- mapM (tensor_compile st format) (tm_tens t) ;;
    if (0 <? length (tm_ops t))%nat then Throw else Ok (join l (str " * "))
  else Ok [].
(** equation.cc:96-101.  [fmt6] stands for [rational::compile] (rational.cc:150-153). *)
Definition compile_ambit (fmt6 : rational -> text) (st : osi) (e : equation) : res text :=
  l <- term_compile st (str "ambit") (eq_lhs e) ;; r <- term_compile st (str "ambit") (eq_rhs e) ;;
  Ok (join [l ++ str " += " ++ fmt6 (eq_factor e); r] (str " * ") ++ str ";").
(** equation.cc:94-156. *)
Definition compile (fmt9 fmt6 : rational -> text) (st : osi) (format : text) (e : equation) : res text :=
  if text_eqb format (str "ambit") then compile_ambit fmt6 st e
  else if text_eqb format (str "einsum") then compile_einsum fmt9 st e
  else Throw.
