(** Model of the LaTeX output: rational::latex (wicked/helpers/rational.cc), Tensor::latex (wicked/algebra/tensor.cc),
    SQOperator::latex (sqoperator.cc), SymbolicTerm::latex (symbolic_term.cc), Term::latex (term.cc) and Expression::latex
    (expression.cc).  [std::string] is [text]; index names are [index_latex] of TextModel. *)
From Coq Require Import String ZArith List Bool Ascii.
From Verif Require Import Res RegistryModel CoreModel RationalModel AlgebraModel DecModel TextModel ExprTextModel.
Import ListNotations.
Local Open Scope Z_scope.
Local Open Scope res_scope.

(** C++ string literals (not a function of /repo). *)
Definition lit (s : string) : text := list_ascii_of_string s.

(** rational.cc:114-148.  [boost]: [USE_BOOST_1024_INT] (the integers are unbounded here in both builds). *)
Definition rat_latex (boost : bool) (r : rational) (first : bool) : text :=
  if num r =? 0 then lit "0"
  else if den r =? 1 then
    (if num r =? 1 then lit "+"
     else if num r =? -1 then lit "-"
     else (if boost then (if first then [] else if 0 <? num r then lit "+" else []) else []) ++ dec_text (num r))
  else (if 0 <? num r then lit "+" else lit "-") ++ lit "\frac{" ++ dec_text (Z.abs (num r)) ++ lit "}{" ++ dec_text (den r) ++ lit "}".

(** tensor.cc:126. *)
Definition label_re : re := rseq [RGrp (RPlus is_alpha); ROpt (RCls (is_chr "_")); ROpt (RGrp (RPlus is_digit))].
(** tensor.cc:132-136. *)
Definition greek : list text :=
  map lit ["alpha"; "beta"; "gamma"; "delta"; "epsilon"; "zeta"; "eta"; "theta"; "iota"; "kappa"; "lambda"; "mu"; "nu"; "xi"; "omicron"; "pi"; "rho"; "sigma"; "tau";
           "upsilon"; "phi"; "chi"; "psi"; "omega"]%string.
(** tensor.cc:137-138. *)
Definition is_greek (symbol : text) : bool := existsb (text_eqb symbol) greek.
(** tensor.cc:125-146: the part of the string before the indices. *)
Definition label_latex (label : text) : res text :=
  match regex_match label_re label with
  | Some [symbol; raw_subscript] =>
      let prefix := if is_greek symbol then lit "{\" else lit "{" in
      let subscript := if is_greek symbol then [] else match raw_subscript with [] => [] | _ => lit "_{" ++ raw_subscript ++ lit "}" end in
      Ok (prefix ++ symbol ++ subscript ++ lit "}")
  | _ => Throw
  end.
(** tensor.cc:113-146. *)
Definition tensor_latex (st : osi) (t : tensor) : res text :=
  u <- mapM (index_latex st) (t_upper t) ;; l <- mapM (index_latex st) (t_lower t) ;;
  s <- label_latex (t_label t) ;;
  Ok (s ++ lit "^{" ++ join u (lit " ") ++ lit "}_{" ++ join l (lit " ") ++ lit "}").
(** sqoperator.cc:89-94. *)
Definition sqop_latex (st : osi) (q : sqop) : res text :=
  s <- op_symbol st (s_space q) ;; i <- index_latex st (s_idx q) ;;
  Ok (lit "\hat{" ++ s ++ lit "}" ++ (if s_cre q then lit "^" else lit "_") ++ lit "{" ++ i ++ lit "}").
(** symbolic_term.cc:32-37: [std::is_sorted] fails at a neighbouring pair [x, y] with [comp(y, x)]. *)
Fixpoint is_creation_then_annihilation (l : list sqop) : bool :=
  match l with
  | x :: ((y :: _) as l') => negb (s_cre y && negb (s_cre x)) && is_creation_then_annihilation l'
  | _ => true
  end.
(** symbolic_term.cc:401-419. *)
Definition ops_latex (st : osi) (ops : list sqop) : res (list text) :=
  if is_creation_then_annihilation ops then
    c <- mapM (fun q => index_latex st (s_idx q)) (filter s_cre ops) ;;
    a <- mapM (fun q => index_latex st (s_idx q)) (filter (fun q => negb (s_cre q)) ops) ;;
    Ok [lit "\hat{a}^{" ++ join c (lit " ") ++ lit "}_{" ++ join (rev a) (lit " ") ++ lit "}"]
  else mapM (sqop_latex st) ops.
(** symbolic_term.cc:391-423.  (In the compact form the names of creators and annihilators are fetched in one pass; the order only
    matters for which undefined access comes first.) *)
Definition term_latex (st : osi) (t : term) : res text :=
  ts <- mapM (tensor_latex st) (tm_tens t) ;;
  os <- match tm_ops t with
        | [] => Ok []
        | _ => o <- ops_latex st (tm_ops t) ;; Ok ((if tm_no t then [lit "\{"] else []) ++ o ++ (if tm_no t then [lit "\}"] else []))
        end ;;
  Ok (join (ts ++ os) (lit " ")).
(** term.cc:44-46 and one entry of expression.cc:148-151. *)
Definition entry_latex (boost : bool) (st : osi) (first : bool) (x : term * rational) : res text :=
  s <- term_latex st (fst x) ;; Ok (rat_latex boost (snd x) first ++ lit " " ++ s).
Definition Term_latex (boost : bool) (st : osi) (c : rational) (t : term) : res text := entry_latex boost st true (t, c).
(** expression.cc:145-153; expression_api.cc:66 gives the default separator. *)
Definition latex_sep : text := lit " \\ " ++ [newline].
Definition expr_latex (boost : bool) (st : osi) (e : expression) (sep : text) : res text :=
  match e with
  | [] => Ok []
  | x :: e' => s <- entry_latex boost st true x ;; l <- mapM (entry_latex boost st false) e' ;; Ok (join (s :: l) sep)
  end.
