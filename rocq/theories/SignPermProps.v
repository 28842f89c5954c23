(** C08, parity of permutations: statement against mathcomp's permutation groups. *)
From Coq Require Import ZArith.
Set Warnings "-notation-overridden,-ambiguous-paths".
From mathcomp Require Import all_ssreflect fingroup perm.
From Verif Require Import CombinatoricsModel SignPerm.

(** C08: for every permutation of {0..n-1}, given in one-line notation, it is the parity. *)
Theorem C08_sign_is_parity : forall n (s : 'S_n),
  permutation_sign (map (fun i : 'I_n => Z.of_nat (s i)) (enum 'I_n))
  = if odd_perm s then Z.opp 1 else 1%Z.
Proof. exact (fun n s => @oneline_sign n s). Qed.
Print Assumptions C08_sign_is_parity.

(** C08: hence multiplicative under composition. *)
Theorem C08_sign_multiplicative : forall n (s t : 'S_n),
  permutation_sign (oneline (s * t)%g)
  = Z.mul (permutation_sign (oneline s)) (permutation_sign (oneline t)).
Proof. exact (fun n s t => @oneline_mul n s t). Qed.
Print Assumptions C08_sign_multiplicative.
