(** Model of compile_einsum (wicked/utils.py). *)
From Coq Require Import ZArith List Bool Ascii String.
From Verif Require Import Res PartitionsModel RegistryModel CoreModel RationalModel AlgebraModel TextModel EquationModel.
Import ListNotations.
Local Open Scope Z_scope.
Local Open Scope res_scope.

(** orbital_space.cc:114-120: the index names of each label ([d[label] = ...]: a later entry replaces an earlier one).
    Python receives a copy, which the code below consumes. *)
Definition name_dict := list (ascii * list text).
Fixpoint nput (c : ascii) (v : list text) (d : name_dict) : name_dict :=
  match d with [] => [(c, v)] | (k, w) :: d' => if Ascii.eqb c k then (k, v) :: d' else (k, w) :: nput c v d' end.
Fixpoint nget (c : ascii) (d : name_dict) : option (list text) :=
  match d with [] => None | (k, w) :: d' => if Ascii.eqb c k then Some w else nget c d' end.
Definition to_dict (st : osi) : name_dict := fold_left (fun d s => nput (os_label s) (os_indices s) d) (space_info st) [].
(** utils.py:64-75, one index.  [index_dict.get(i)] is false for a missing entry and for an empty name; KeyError and IndexError
    ([pop(0)] of an empty list) are [Throw]. *)
Definition py_index (st : osi) (i : index) (x : name_dict * letter_map) : res (text * (name_dict * letter_map)) :=
  s <- index_str st i ;;
  let fresh :=
    c <- of_opt_throw (hd_error s) ;;
    names <- of_opt_throw (nget c (fst x)) ;;
    match names with
    | [] => Throw
    | n :: rest => Ok (n, (nput c rest (fst x), (s, n) :: snd x))
    end in
  match lfind s (snd x) with
  | Some v => if (List.length v =? 0)%nat then fresh else Ok (v, x)
  | None => fresh
  end.
Fixpoint py_indices (st : osi) (l : list index) (x : name_dict * letter_map) : res (text * (name_dict * letter_map)) :=
  match l with
  | [] => Ok ([], x)
  | i :: l' => '(v, x) <- py_index st i x ;; '(vs, x) <- py_indices st l' x ;; Ok (v ++ vs, x)
  end.
Definition py_tensor_indices (st : osi) (t : tensor) := py_indices st (t_upper t ++ t_lower t).
(** [str(_)[0]] *)
Definition py_label (st : osi) (i : index) : res ascii := s <- index_str st i ;; of_opt_throw (hd_error s).
(** utils.py:88-91: the two strings built side by side. *)
Fixpoint py_rhs (st : osi) (l : list tensor) (x : name_dict * letter_map) (labels idx : text) : res (text * text * (name_dict * letter_map)) :=
  match l with
  | [] => Ok (labels, idx, x)
  | t :: l' =>
      k <- mapM (py_label st) (t_upper t ++ t_lower t) ;;
      '(s, x) <- py_tensor_indices st t x ;;
      py_rhs st l' x (labels ++ t_label t ++ str "[""" ++ k ++ str """],") (idx ++ s ++ str ",")
  end.
(** utils.py:58-111.  [fmt] stands for [f"{float(factor):+.8f}"].  In the branch for a left-hand tensor with indices,
    line 99 passes the list [rhs.tensors()] as the tensor, and a list has no method [upper]: AttributeError. *)
Definition py_compile (fmt : rational -> text) (st : osi) (e : equation) : res text :=
  '(labels, idx, x) <- py_rhs st (tm_tens (eq_rhs e)) (to_dict st, []) [] [] ;;
  let index_string := removelast idx ++ str "->" in
  lhs <- of_opt_throw (hd_error (tm_tens (eq_lhs e))) ;;
  left <- (match t_upper lhs ++ t_lower lhs with
           | [] => Ok (t_label lhs)
           | _ =>
             first <- of_opt_throw (hd_error (tm_tens (eq_rhs e))) ;;
             _ <- mapM (fun i => space_label st (isp i)) (t_upper lhs ++ t_lower lhs) ;;
             Throw
           end) ;;
  Ok (left ++ str " += " ++ fmt (eq_factor e) ++ str " * np.einsum('" ++ index_string ++ str "', " ++ labels ++ str "optimize='optimal')").
