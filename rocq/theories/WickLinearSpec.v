(** Vocabulary for the linearity of [contract] (C47). *)
From Coq Require Import ZArith List Bool.
From Verif Require Import Res RegistryModel CoreModel RationalModel RationalSpec AlgebraModel AlgebraSpec OperatorModel WickEvalModel.
Import ListNotations.
Local Open Scope Z_scope.

(** [c] times an expression; failures stay failures. *)
Definition scaled (r : res expression) (c : rational) : res expression := bind r (fun e => Ok (mscale e c)).

(** [R] resolves the choices left open by [std::sort] for the products in [P]: [R ops] is an outcome for [ops] with factor 1. *)
Definition resolves (o : wt_opts) (st : osi) (minrank maxrank : Z) (P : oprod -> Prop) (R : oprod -> res expression) : Prop :=
  forall ops, P ops -> contract o st (rat_of_Z 1) ops minrank maxrank (R ops).
(** [factor] times the sum of the results for the products in [e] (the loop of the call on an operator expression). *)
Definition sum_of (R : oprod -> res expression) (factor : rational) (e : opexpr) : res expression :=
  foldM add_result [] (map (fun x => scaled (R (fst x)) (rat_mul factor (snd x))) e).
