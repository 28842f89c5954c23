(** Model of printing and parsing of terms and expressions: SQOperator::str (wicked/algebra/sqoperator.cc), SymbolicTerm::str
    (symbolic_term.cc), Term::str (term.cc), Expression::str and make_expression (expression.cc), findall (helpers.cc) and
    string_to_expr (utils.py). *)
From Coq Require Import ZArith List Bool Ascii.
From Verif Require Import Res RegistryModel CoreModel RationalModel AlgebraModel DecModel TextModel.
Import ListNotations.
Local Open Scope Z_scope.
Local Open Scope res_scope.

(** ** Printing *)
(** orbital_space.cc:14-15, 140-142.  (An out-of-range space is UB.) *)
Definition op_symbol (st : osi) (sp : Z) : res text :=
  _ <- space_label st sp ;; Ok (match field_of st sp with Fermion => ["a"%char] | Boson => ["b"%char] end).
(** sqoperator.cc:82-87. *)
Definition sqop_str (st : osi) (q : sqop) : res text :=
  s <- op_symbol st (s_space q) ;; i <- index_str st (s_idx q) ;;
  Ok (s ++ [if s_cre q then "+"%char else "-"%char] ++ ["("%char] ++ i ++ [")"%char]).
(** symbolic_term.cc:373-389. *)
Definition term_str (st : osi) (t : term) : res text :=
  ts <- mapM (tensor_str st) (tm_tens t) ;; os <- mapM (sqop_str st) (tm_ops t) ;;
  Ok (join (ts ++ (match tm_ops t with
                   | [] => []
                   | _ => (if tm_no t then [["{"%char]] else []) ++ os ++ (if tm_no t then [["}"%char]] else [])
                   end)) [" "%char]).
(** term.cc:31-42. *)
Definition Term_str (st : osi) (c : rational) (t : term) : res text :=
  ts <- term_str st t ;;
  let cs := rat_str c false in
  Ok (match ts, cs with
      | [], [] => ["1"%char]
      | [], _ => cs
      | _, [] => ts
      | _, _ => cs ++ [" "%char] ++ ts
      end).
(** expression.cc:95-139, one term; [first] is [n == 0]. *)
Definition factor_text (c : rational) (first : bool) (has_term : bool) : text :=
  let f := rat_str c (negb first) in
  if has_term then (if (1 <? length f)%nat && negb (text_eqb f ["-"%char]) then f ++ [" "%char] else f)
  else
    let f := if (length f =? 0)%nat then (if first then ["1"%char] else ["+"; "1"]%char) else f in
    if text_eqb f ["-"%char] then ["-"; "1"]%char else f.
Definition entry_str (st : osi) (first : bool) (x : term * rational) : res text :=
  s <- term_str st (fst x) ;; Ok (factor_text (snd x) first (0 <? length s)%nat ++ s).
(** expression.cc:91-143. *)
Definition newline : ascii := ascii_of_N 10.
Definition expr_str (st : osi) (e : expression) : res text :=
  match e with
  | [] => Ok []
  | x :: e' => s <- entry_str st true x ;; l <- mapM (entry_str st false) e' ;; Ok (join (s :: l) [newline])
  end.

(** ** Parsing *)
(** [std::sregex_iterator] as used by [findall], helpers.cc:56-72: the captures of the successive leftmost matches, for a pattern
    that does not match the empty string (so the search goes on at the end of each match).  [fuel]: positions left. *)
Fixpoint findall_from (r : re) (fuel : nat) (s : text) : list text :=
  match fuel with
  | O => []
  | S f =>
      match matches r s with
      | (caps, rest) :: _ => caps ++ findall_from r f rest
      | [] => match s with [] => [] | _ :: s' => findall_from r f s' end
      end
  end.
Definition findall (r : re) (s : text) : list text := findall_from r (S (length s)) s.
(** [std::regex_search]: a match starting anywhere. *)
Fixpoint regex_search (r : re) (s : text) : bool :=
  match matches r s with
  | _ :: _ => true
  | [] => match s with [] => false | _ :: s' => regex_search r s' end
  end.
(** expression.cc:261-264. *)
Definition idx_char (c : ascii) : bool := is_word c || Ascii.eqb c "," || is_digit c.
Definition tensors_re : re :=
  RGrp (rseq [RPlus is_alnum; RCls (is_chr "^"); RCls (is_chr "{"); RStar idx_char; RCls (is_chr "}"); RCls (is_chr "_"); RCls (is_chr "{"); RStar idx_char;
              RCls (is_chr "}")]).
Definition is_sign (c : ascii) : bool := is_chr "+" c || is_chr "-" c.
Definition word_char (c : ascii) : bool := is_word c || is_digit c.
Definition operators_re : re :=
  rseq [RCls (fun c => is_chr "a" c || is_chr "b" c); RGrp (RCls is_sign); RCls (is_chr "("); RGrp (RStar word_char); RCls (is_chr ")")].
Definition factor_re : re :=
  rseq [RStar is_ws; RGrp (rseq [ROpt (RCls is_sign); RStar is_digit; ROpt (RCls (is_chr "/")); RStar is_digit]); RStar is_ws].
Definition normal_ordered_re : re :=
  rseq [RCls (is_chr "{");
        RMany (rseq [RStar is_ws; RCls (is_chr "a"); RCls is_sign; RCls (is_chr "("); RPlus word_char; RCls (is_chr ")")]);
        RStar is_ws; RCls (is_chr "}")].
(** expression.cc:280-285.  An odd number of captures would be read past the end. *)
Fixpoint make_ops (st : osi) (caps : list text) : res (list sqop) :=
  match caps with
  | [] => Ok []
  | [_] => UB
  | sg :: ix :: caps' =>
      i <- make_index st ix ;; l <- make_ops st caps' ;; Ok (mkSQ (text_eqb sg ["+"%char]) i :: l)
  end.
(** expression.cc:287-288: [factor_re] is anchored ([^]), so [factor_vec[0]] is the capture of the match at the start; reading
    element 0 of an empty vector is UB. *)
Definition factor_of (s : text) : res text :=
  match matches factor_re s with ([c], _) :: _ => Ok c | _ => UB end.
(** expression.cc:249-293. *)
Definition make_expression (st : osi) (s : text) (sym : symmetry) : res expression :=
  match s with
  | [] => Ok []
  | _ =>
      ts <- mapM (fun x => make_tensor st x sym) (findall tensors_re s) ;;
      os <- make_ops st (findall operators_re s) ;;
      f <- factor_of s ;; c <- make_rational f ;;
      Ok (madd term_ltb (mkTerm (regex_search normal_ordered_re s) os ts) c [])
  end.
(** [str.split("\n")] of Python (utils.py:12): the pieces between newlines, always at least one. *)
Fixpoint lines_from (s cur : text) : list text :=
  match s with
  | [] => [rev cur]
  | c :: s' => if Ascii.eqb c newline then rev cur :: lines_from s' [] else lines_from s' (c :: cur)
  end.
Definition lines (s : text) : list text := lines_from s [].
(** utils.py:6-14, with expression_api.cc:18-22 ([+=] falls back to [__add__]) and :85-86 (the default symmetry). *)
Definition string_to_expr (st : osi) (s : text) : res expression :=
  foldM (fun e line => x <- make_expression st line Antisymmetric ;; Ok (mplus term_ltb e x)) [] (lines s).
