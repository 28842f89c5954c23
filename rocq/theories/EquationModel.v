(** Model of many-body equations (wicked/algebra/expression.cc:155-194) and of the einsum compiler (wicked/algebra/equation.cc). *)
From Coq Require Import ZArith List Bool Ascii String.
From Verif Require Import Res PartitionsModel RegistryModel CoreModel RationalModel AlgebraModel TextModel.
Import ListNotations.
Local Open Scope Z_scope.
Local Open Scope res_scope.

(** equation.h:43-48. *)
Record equation := mkEq { eq_lhs : term; eq_rhs : term; eq_factor : rational }.
(** equation.cc:22-26. *)
Definition rhs_expression (e : equation) : expression := madd term_ltb (eq_rhs e) (eq_factor e) [].

(** tensor.cc:15-25: per space, the number of upper and of lower indices. *)
Definition signature (st : osi) (t : tensor) : res (list (Z * Z)) :=
  r <- foldM (fun r i => v <- aget r (isp i) ;; aset r (isp i) (fst v + 1, snd v)) (repeat (0, 0) (List.length (space_info st))) (t_upper t) ;;
  foldM (fun r i => v <- aget r (isp i) ;; aset r (isp i) (fst v, snd v + 1)) r (t_lower t).
(** expression.cc:175-182: [std::string(n, c)] for every space in order. *)
Fixpoint signature_texts (st : osi) (pos : Z) (sg : list (Z * Z)) : res (text * text) :=
  match sg with
  | [] => Ok ([], [])
  | (u, l) :: sg' => c <- space_label st pos ;; '(us, ls) <- signature_texts st (pos + 1) sg' ;;
      Ok (repeat c (Z.to_nat u) ++ us, repeat c (Z.to_nat l) ++ ls)
  end.
(** expression.cc:163-171. *)
Fixpoint split_ops (ops : list sqop) (lower upper : list index) : list index * list index :=
  match ops with
  | [] => (lower, upper)
  | o :: ops' => if s_cre o then split_ops ops' (lower ++ [s_idx o]) upper else split_ops ops' lower (s_idx o :: upper)
  end.
(** expression.cc:159-191, one term: the key and the equation. *)
Definition manybody_term (st : osi) (label : text) (x : term * rational) : res (text * equation) :=
  let '(lower, upper) := split_ops (tm_ops (fst x)) [] [] in
  let lhs_tensor := mkT label lower upper Antisymmetric false in
  sg <- signature st lhs_tensor ;;
  '(us, ls) <- signature_texts st 0 sg ;;
  let key := us ++ ["|"%char] ++ rev ls in
  Ok (key, mkEq (mkTerm false [] [lhs_tensor]) (mkTerm false [] (tm_tens (fst x))) (snd x)).
(** [result[key].push_back(eq)] on [std::map<std::string, std::vector<Equation>>], the entries in the order of the keys. *)
Fixpoint mpush {V} (k : text) (v : V) (m : list (text * list V)) : list (text * list V) :=
  match m with
  | [] => [(k, [v])]
  | (k', l) :: m' => if text_ltb k' k then (k', l) :: mpush k v m' else if text_ltb k k' then (k, [v]) :: (k', l) :: m' else (k', l ++ [v]) :: m'
  end.
(** expression.cc:155-194. *)
Definition to_manybody (st : osi) (label : text) (e : expression) : res (list (text * list equation)) :=
  foldM (fun m x => '(k, q) <- manybody_term st label x ;; Ok (mpush k q m)) [] e.

(** equation.cc:114-118. *)
Definition alphabet : list text :=
  map (fun c => [c]) (list_ascii_of_string "ZYXWVUTSRQPONMLKJIHGFEDCBAzyxwvutsrqponmlkjihgfedcba").
(** [std::map<std::string, std::string>] used through [count] and [m[k]]. *)
Definition letter_map := list (text * text).
Fixpoint lfind (s : text) (m : letter_map) : option text := match m with [] => None | (k, v) :: m' => if text_eqb s k then Some v else lfind s m' end.
(** equation.cc:55-80.  [back()] of an empty vector is undefined. *)
Definition get_unique_index (s : text) (x : letter_map * list text) : res (text * (letter_map * list text)) :=
  let '(m, unused) := x in
  match lfind s m with
  | Some v => Ok (v, (m, unused))
  | None =>
      v <- (if (List.length s =? 1)%nat && existsb (text_eqb s) unused then Ok s
            else match unused with [] => UB | _ => Ok (last unused []) end) ;;
      Ok (v, ((s, v) :: m, filter (fun u => negb (text_eqb u v)) unused))
  end.
(** equation.cc:82-95. *)
Fixpoint unique_indices (st : osi) (l : list index) (x : letter_map * list text) : res (text * (letter_map * list text)) :=
  match l with
  | [] => Ok ([], x)
  | i :: l' => s <- index_latex st i ;; '(v, x) <- get_unique_index s x ;; '(vs, x) <- unique_indices st l' x ;; Ok (v ++ vs, x)
  end.
Definition unique_tensor_indices (st : osi) (t : tensor) := unique_indices st (t_upper t ++ t_lower t).
Fixpoint unique_tensors (st : osi) (l : list tensor) (x : letter_map * list text) : res (list text * (letter_map * list text)) :=
  match l with
  | [] => Ok ([], x)
  | t :: l' => '(v, x) <- unique_tensor_indices st t x ;; '(vs, x) <- unique_tensors st l' x ;; Ok (v :: vs, x)
  end.
(** equation.cc:113-131: the index strings of the right-hand tensors, and of the left-hand tensor. *)
Definition einsum_indices (st : osi) (rhs : list tensor) (lhs : tensor) : res (list text * text) :=
  '(ins, x) <- unique_tensors st rhs ([], alphabet) ;; '(out, _) <- unique_tensor_indices st lhs x ;; Ok (ins, out).
Definition str (s : string) : text := list_ascii_of_string s.
(** equation.cc:99-148, [format == "einsum"].  [fmt] stands for [std::format("{:.9f}", factor.to_double())]. *)
Definition compile_einsum (fmt : rational -> text) (st : osi) (e : equation) : res text :=
  lhs <- of_opt_ub (hd_error (tm_tens (eq_lhs e))) ;;
  let labels t := mapM (fun i => space_label st (isp i)) (t_upper t ++ t_lower t) in
  ll <- labels lhs ;;
  '(ins, out) <- einsum_indices st (tm_tens (eq_rhs e)) lhs ;;
  args <- mapM (fun t => l <- labels t ;; Ok (t_label t ++ str "[""" ++ l ++ str """]")) (tm_tens (eq_rhs e)) ;;
  Ok (t_label lhs ++ ll ++ str " += " ++ fmt (eq_factor e) ++ str " * np.einsum(" ++
      join ((str """" ++ join ins (str ",") ++ str "->" ++ out ++ str """") :: args) (str ",") ++ str ",optimize=""optimal"")").
