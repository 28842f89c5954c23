(** Model of wicked/helpers/combinatorics.cc lines 3-40. *)
From Coq Require Import ZArith List Bool.
From Verif Require Import Res Rational64Model.
Import ListNotations.
Local Open Scope Z_scope.
Local Open Scope res_scope.

(** The values taken by [for (i = 2; i <= n; ++i)]. *)
Definition loop_from2 (n : Z) : list Z := map Z.of_nat (seq 2 (Z.to_nat (n - 1))).

(** combinatorics.cc:3-9, unbounded integers. *)
Definition factorial (n : Z) : Z :=
  fold_left (fun result i => result * i) (loop_from2 n) 1.

(** combinatorics.cc:11-25, unbounded integers; [/=] truncates. *)
Definition binomial (n k : Z) : Z :=
  if n <? k then 0 else
  let k := if n <? k * 2 then n - k else k in
  if k =? 0 then 1 else
  fold_left (fun result i => Z.quot (result * (n - i + 1)) i) (loop_from2 k) n.

(** combinatorics.cc:3-9 with [long long] arithmetic, overflow = UB. *)
Definition factorial64 (n : Z) : res Z :=
  foldM (fun result i => mul64 result i) 1 (loop_from2 n).

(** A 32-bit [int] operation with mathematical result [z]. *)
Definition chk32 (z : Z) : res Z :=
  if (- 2 ^ 31 <=? z) && (z <=? 2 ^ 31 - 1) then Ok z else UB.

(** combinatorics.cc:11-25 with [int] arguments and [long long] result, overflow = UB. *)
Definition binomial64 (n k : Z) : res Z :=
  if n <? k then Ok 0 else
  k2 <- chk32 (k * 2) ;;
  k <- (if n <? k2 then chk32 (n - k) else Ok k) ;;
  if k =? 0 then Ok 1 else
  foldM (fun result i => p <- mul64 result (n - i + 1) ;; div64 p i) n (loop_from2 k).

(** combinatorics.cc:30-38: the number of pairs i<j with vec[i] > vec[j]. *)
Fixpoint inversions (l : list Z) : nat :=
  match l with
  | [] => 0
  | a :: l' => (length (filter (fun b => (b <? a)%Z) l') + inversions l')%nat
  end.

(** combinatorics.cc:27-40. *)
Definition permutation_sign (l : list Z) : Z :=
  if Nat.even (inversions l) then 1 else -1.
