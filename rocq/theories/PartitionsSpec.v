(** Specification of integer partitions. *)
From Coq Require Import ZArith List Sorted.
Import ListNotations.
Local Open Scope Z_scope.

Definition zsum (l : list Z) : Z := fold_right Z.add 0 l.

(** A partition of n: positive parts, in non-increasing order, of sum n. *)
Definition is_partition (n : Z) (p : list Z) : Prop :=
  Forall (fun a => 1 <= a) p /\ StronglySorted Z.ge p /\ zsum p = n.

(** Lexicographic order. *)
Fixpoint lexlt (p q : list Z) : Prop :=
  match p, q with
  | [], _ :: _ => True
  | a :: p', b :: q' => a < b \/ (a = b /\ lexlt p' q')
  | _, [] => False
  end.
