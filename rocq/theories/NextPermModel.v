(** Model of the [do { ... } while (std::next_permutation(v.begin(), v.end()))] loops of
    wicked/diagrams (wick_theorem_elementary_contractions.cc:148-167,
    wick_theorem_canonicalize_graph.cc:190-206, 214-221). *)
From Coq Require Import ZArith List Bool Arith.
Import ListNotations.
Local Open Scope Z_scope.

(** In the (non-decreasing) list [m]: exchange [x] with the first entry larger than [x]; the entry found
    and the changed list. *)
Fixpoint np_swap (x : Z) (m : list Z) : option (Z * list Z) :=
  match m with
  | [] => None
  | y :: m' => if x <? y then Some (y, x :: m')
               else match np_swap x m' with Some (z, m'') => Some (z, y :: m'') | None => None end
  end.

(** [std::next_permutation] (libstdc++ stl_algo.h): the rightmost position whose entry [x] is followed by a
    larger one (found here by recursing into the tail first) is exchanged with the rightmost larger entry,
    and the tail, which is non-increasing, is reversed (here: reversed first, so the rightmost larger entry
    is the first one).  [None] models the return value [false]; the range is not used after that by any of the loops. *)
Fixpoint next_perm (l : list Z) : option (list Z) :=
  match l with
  | [] => None
  | x :: l' =>
    match next_perm l' with
    | Some l'' => Some (x :: l'')
    | None => match np_swap x (rev l') with Some (y, m) => Some (y :: m) | None => None end
    end
  end.

(** The arrangements visited by the [do]-[while] loop started on [l], at most [fuel] of them; [None]: fuel used up. *)
Fixpoint np_loop (fuel : nat) (l : list Z) : option (list (list Z)) :=
  match fuel with
  | O => None
  | S f => match next_perm l with
           | None => Some [l]
           | Some l' => match np_loop f l' with Some r => Some (l :: r) | None => None end
           end
  end.

(** The loop run with fuel n!, which theorem [C37_enumeration_exact] shows to be enough when [l] is sorted. *)
Definition np_visited (l : list Z) : list (list Z) :=
  match np_loop (fact (length l)) l with Some r => r | None => [] end.
