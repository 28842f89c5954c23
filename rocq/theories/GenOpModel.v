(** Model of gen_op (wicked/utils.py). *)
From Coq Require Import ZArith List Bool Ascii.
From Verif Require Import Res RegistryModel CoreModel RationalModel AlgebraModel OperatorModel TextModel.
Import ListNotations.
Local Open Scope Z_scope.
Local Open Scope res_scope.

(** utils.py:36: the dictionary [{osi.label(n): n}]; of two equal labels the later position stays. *)
Definition label_dict (st : osi) : list (ascii * Z) :=
  combine (map os_label (space_info st)) (map Z.of_nat (seq 0 (length (space_info st)))).
Fixpoint dict_get (c : ascii) (d : list (ascii * Z)) : option Z :=
  match d with
  | [] => None
  | (k, v) :: d' => match dict_get c d' with Some x => Some x | None => if Ascii.eqb k c then Some v else None end
  end.
(** [m[c]]: KeyError is [Throw]. *)
Definition label_pos (st : osi) (c : ascii) : res Z := of_opt_throw (dict_get c (label_dict st)).
(** [itertools.product( *[l]*n )]. *)
Fixpoint products (n : nat) (l : text) : list text :=
  match n with
  | O => [[]]
  | S n' => flat_map (fun c => map (cons c) (products n' l)) l
  end.
(** utils.py:42, 45: [all(m[l[i]] <= m[l[i+1]])], resp. [>=]; stops at the first false comparison. *)
Fixpoint monotone (st : osi) (up : bool) (l : text) : res bool :=
  match l with
  | a :: ((b :: _) as l') =>
      x <- label_pos st a ;; y <- label_pos st b ;;
      if (if up then x <=? y else y <=? x) then monotone st up l' else Ok false
  | _ => Ok true
  end.
(** utils.py:48-54. *)
Definition component_text (le re : text) : text :=
  join (map (fun c => [c; "+"%char]) le) [" "%char] ++ [" "%char] ++ join (map (fun c => [c]) re) [" "%char].
(** utils.py:38-54. *)
Definition gen_terms (st : osi) (rank : Z) (cre ann : text) (diagonal : bool) : res (list text) :=
  foldM (fun terms le =>
    le_sorted <- monotone st true le ;;
    if (le_sorted : bool) then
      foldM (fun terms re =>
        re_sorted <- monotone st false re ;;
        Ok (if (re_sorted : bool) && (diagonal || negb (text_eqb le re)) then terms ++ [component_text le re] else terms))
        terms (products (Z.to_nat rank) ann)
    else Ok terms) [] (products (Z.to_nat rank) cre).
(** utils.py:22-55 (a negative rank is an empty range). *)
Definition gen_op (st : osi) (label : text) (rank : Z) (cre ann : text) (diagonal : bool) : res opexpr :=
  terms <- gen_terms st rank cre ann diagonal ;; make_op_expr st label terms false.
