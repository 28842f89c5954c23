(** Specification for the norm (C68). *)
From Coq Require Import ZArith QArith Qabs List.
From Verif Require Import RationalModel RationalSpec DecimalSpec.
Import ListNotations.
Local Open Scope Q_scope.

(** The sum of the squares of the coefficients. *)
Definition squares {K} (m : list (K * rational)) : Q := fold_right (fun x s => Qval (snd x) * Qval (snd x) + s) 0 m.
(** [y] is a non-negative 53-bit number and no other one is closer to the square root of [x]: the point half-way between [y] and [z] is on the
    side of [z] of the root (compared by its square). *)
Definition nearest_sqrt (y x : Q) : Prop :=
  is_double y /\ 0 <= y /\
  forall z, is_double z -> 0 <= z -> (y < z -> x <= ((y + z) / 2) * ((y + z) / 2)) /\ (z < y -> ((y + z) / 2) * ((y + z) / 2) <= x).
