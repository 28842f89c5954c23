(** Model of [integer_partitions], wicked/helpers/combinatorics.cc:42-91. *)
From Coq Require Import ZArith List Bool.
From Verif Require Import Res.
Import ListNotations.
Local Open Scope Z_scope.
Local Open Scope res_scope.

(** [x[i]] on a [std::vector<int>]: out of range is undefined behaviour. *)
Definition aget {A} (x : list A) (i : Z) : res A :=
  if i <? 0 then UB else of_opt_ub (nth_error x (Z.to_nat i)).

Fixpoint lset {A} (x : list A) (i : nat) (v : A) : list A :=
  match x, i with
  | [], _ => []
  | _ :: x', O => v :: x'
  | a :: x', S i' => a :: lset x' i' v
  end.

(** [x[i] = v]. *)
Definition aset {A} (x : list A) (i : Z) (v : A) : res (list A) :=
  if (i <? 0) || (Z.of_nat (length x) <=? i) then UB else Ok (lset x (Z.to_nat i) v).

(** [std::vector<int>(x.begin() + 1, x.begin() + m + 1)]. *)
Definition aslice1 (x : list Z) (m : Z) : res (list Z) :=
  if (m <? 0) || (Z.of_nat (length x) <? m + 1) then UB else Ok (firstn (Z.to_nat m) (skipn 1 x)).

(** combinatorics.cc:65-68, [while (x[j] == x[m - 1]) { x[j] = 1; j--; }]. *)
Fixpoint zs2_inner (fuel : nat) (x : list Z) (m j : Z) : res (list Z * Z) :=
  match fuel with
  | O => NoFuel
  | S f =>
    xj <- aget x j ;; xm1 <- aget x (m - 1) ;;
    if xj =? xm1 then (x' <- aset x j 1 ;; zs2_inner f x' m (j - 1)) else Ok (x, j)
  end.

(** combinatorics.cc:59-77, one iteration of the outer loop without the final push. *)
Definition zs2_step (fuel : nat) (x : list Z) (h m : Z) : res (list Z * Z * Z) :=
  if 1 <? m - h then
    x' <- aset x (h + 1) 2 ;; Ok (x', h + 1, m - 1)
  else
    '(x1, j) <- zs2_inner fuel x m (m - 2) ;;
    let h := j + 1 in
    a <- aget x1 (m - 1) ;;
    x2 <- aset x1 h (a + 1) ;;
    xm <- aget x2 m ;; xm1 <- aget x2 (m - 1) ;;
    let r := xm + xm1 * (m - h - 1) in
    x3 <- aset x2 m 1 ;;
    x4 <- (if 1 <? m - h then aset x3 (m - 1) 1 else Ok x3) ;;
    Ok (x4, h, h + r - 1).

(** combinatorics.cc:78-81 (also 48-50 and 55-57). *)
Definition push_part (x : list Z) (m maxlen : Z) (acc : list (list Z)) : res (list (list Z)) :=
  if m <=? maxlen then (p <- aslice1 x m ;; Ok (acc ++ [p])) else Ok acc.

(** combinatorics.cc:58-82. *)
Fixpoint zs2_loop (fuel : nat) (n maxlen : Z) (x : list Z) (h m : Z) (acc : list (list Z))
  : res (list (list Z)) :=
  match fuel with
  | O => NoFuel
  | S f =>
    x1 <- aget x 1 ;;
    if x1 =? n then Ok acc else
    '(x', h', m') <- zs2_step fuel x h m ;;
    acc' <- push_part x' m' maxlen acc ;;
    zs2_loop f n maxlen x' h' m' acc'
  end.

(** combinatorics.cc:42-91.  [int] overflow is not modelled: every stored value is at most n. *)
Definition integer_partitions (fuel : nat) (n maxlen : Z) : res (list (list Z)) :=
  if 1 <? n then
    let x := repeat 1 (Z.to_nat (n + 1)) in
    acc <- push_part x n maxlen [] ;;
    x <- aset x 0 1 ;;
    x <- aset x 1 2 ;;
    acc <- push_part x (n - 1) maxlen acc ;;
    zs2_loop fuel n maxlen x 1 (n - 1) acc
  else if n =? 0 then Ok [[]]
  else if n =? 1 then Ok [[1]]
  else Ok [].
