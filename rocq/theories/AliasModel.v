(** Model of in-place operations whose argument is the object itself: [e += e], [e -= e], [e *= e] (wicked/helpers/algebra.hpp:95-122) and
    [OperatorExpression::add2] (wicked/diagrams/operator_expression.cc:17-21; Python: api/operator_api.cc:35, where [o.add2(o, f)] passes one
    object twice).  The loop walks the map that its body changes. *)
From Coq Require Import ZArith List Bool.
From Verif Require Import Res RationalModel CoreModel AlgebraModel.
Import ListNotations.
Local Open Scope res_scope.

Section Self.
  Context {K : Type} (lt : K -> K -> bool).
  (** [std::map::begin] and [++it]: an iterator is the key of its node, [None] is [end()]. *)
  Definition first_key (m : emap K) : option K := option_map fst (hd_error m).
  Fixpoint next_key (k : K) (m : emap K) : option K :=
    match m with [] => None | (k', _) :: m' => if lt k k' then Some k' else next_key k m' end.
  (** [for (const auto &[e, c] : terms) body(e, c)] where [body] changes the same map.  An iterator stays valid as long as its node exists
      ([std::map]: insertion invalidates none, erasing only those of the erased node); advancing an iterator whose node was erased is undefined.
      [n]: a bound on the number of rounds. *)
  Fixpoint walk (body : K -> rational -> emap K -> emap K) (n : nat) (it : option K) (m : emap K) : res (emap K) :=
    match it with
    | None => Ok m
    | Some k => match n with
                | O => NoFuel
                | S n' => match mfind lt k m with
                          | None => UB
                          | Some c => let m' := body k c m in if mcontains lt k m' then walk body n' (next_key k m') m' else UB
                          end
                end
    end.
  Definition walk_self (body : K -> rational -> emap K -> emap K) (n : nat) (m : emap K) : res (emap K) := walk body n (first_key m) m.
  (** algebra.hpp:95-100. *)
  Definition self_plus : nat -> emap K -> res (emap K) := walk_self (fun k c m => madd lt k c m).
  (** algebra.hpp:104-109. *)
  Definition self_minus : nat -> emap K -> res (emap K) := walk_self (fun k c m => madd lt k (rat_neg c) m).
  (** operator_expression.cc:17-21. *)
  Definition self_add2 (f : rational) : nat -> emap K -> res (emap K) := walk_self (fun k c m => madd lt k (rat_mul f c) m).
  (** algebra.hpp:113-122: the product is collected in a local object and assigned at the end, so the argument is only read. *)
  Definition self_times (mulk : K -> K -> res K) (m : emap K) : res (emap K) := mprod lt mulk m m.
End Self.
(** rational.cc:44-63: [r += r] assigns the numerator first, and the denominator does not use it; [r *= r] likewise. *)
Definition rat_self_add (r : rational) : rational := let n := (den r * num r + num r * den r)%Z in reduce (mkR n (den r * den r)).
Definition rat_self_sub (r : rational) : rational := let n := (den r * num r - num r * den r)%Z in reduce (mkR n (den r * den r)).
Definition rat_self_mul (r : rational) : rational := let n := (num r * num r)%Z in reduce (mkR n (den r * den r)).
