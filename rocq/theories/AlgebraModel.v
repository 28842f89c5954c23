(** Model of wicked/helpers/algebra.hpp: linear combinations as [std::map<T, rational>]. *)
From Coq Require Import ZArith List Bool.
From Verif Require Import Res RationalModel CoreModel.
Import ListNotations.
Local Open Scope Z_scope.

(** [std::map<T,F>] (algebra.hpp:14): the entries in iteration order, i.e. increasing in [lt].
    The look-ups below are the red-black-tree look-ups written on the sorted sequence; they use
    [lt] only, like [std::map]. *)
Definition emap (K : Type) := list (K * rational).

Section Alg.
  Context {K : Type} (lt eqb : K -> K -> bool).

  (** [std::map::find]. *)
  Fixpoint mfind (k : K) (m : emap K) : option rational :=
    match m with
    | [] => None
    | (k', c) :: m' => if lt k' k then mfind k m' else if lt k k' then None else Some c
    end.

  (** [m[key] = value]; an existing entry keeps its key. *)
  Fixpoint mset (k : K) (c : rational) (m : emap K) : emap K :=
    match m with
    | [] => [(k, c)]
    | (k', c') :: m' =>
        if lt k' k then (k', c') :: mset k c m'
        else if lt k k' then (k, c) :: (k', c') :: m' else (k', c) :: m'
    end.

  (** [std::map::erase] of the entry found for [k]. *)
  Fixpoint merase (k : K) (m : emap K) : emap K :=
    match m with
    | [] => []
    | (k', c') :: m' =>
        if lt k' k then (k', c') :: merase k m'
        else if lt k k' then (k', c') :: m' else m'
    end.

  (** helpers.h:57-77, [add_to_map]; algebra.hpp:33, [add]. *)
  Definition madd (k : K) (c : rational) (m : emap K) : emap K :=
    if rat_is0 c then m
    else match mfind k m with
         | Some c0 => let c1 := rat_add c0 c in if rat_is0 c1 then merase k m else mset k c1 m
         | None => mset k c m
         end.

  (** algebra.hpp:36. *)
  Definition mcontains (k : K) (m : emap K) : bool :=
    match mfind k m with Some _ => true | None => false end.

  (** algebra.hpp:39 (map equality) and expression.cc:86-89. *)
  Definition mequal (a b : emap K) : bool :=
    list_eqb (fun x y => eqb (fst x) (fst y) && rat_eqb (snd x) (snd y)) a b.

  (** algebra.hpp:42-51. *)
  Definition mdot (a b : emap K) : rational :=
    fold_left (fun r x => match mfind (fst x) b with
                          | Some c => rat_add r (rat_mul (snd x) c)
                          | None => r end) a (rat_of_Z 0).

  (** algebra.hpp:64-70. *)
  Definition mneg (a : emap K) : emap K :=
    fold_left (fun r x => madd (fst x) (rat_neg (snd x)) r) a [].

  (** algebra.hpp:87-91. *)
  Definition madd_pair (a : emap K) (p : K * rational) : emap K := madd (fst p) (snd p) a.

  (** algebra.hpp:95-100. *)
  Definition mplus (a b : emap K) : emap K := fold_left (fun r x => madd (fst x) (snd x) r) b a.

  (** algebra.hpp:104-109 ([b] a different object from [a]). *)
  Definition mminus (a b : emap K) : emap K := fold_left (fun r x => madd (fst x) (rat_neg (snd x)) r) b a.

  (** algebra.hpp:126-131. *)
  Definition mscale (a : emap K) (c : rational) : emap K :=
    map (fun x => (fst x, rat_mul (snd x) c)) a.

  (** algebra.hpp:134-142. *)
  Definition mdiv (a : emap K) (c : rational) : res (emap K) :=
    if rat_eqb c (rat_make 0 1) then Throw
    else Ok (map (fun x => (fst x, rat_div (snd x) c)) a).

  (** algebra.hpp:113-122; [mulk] is the product of keys, which may throw. *)
  Definition mprod (mulk : K -> K -> res K) (a b : emap K) : res (emap K) :=
    foldM (fun r x => foldM (fun r y =>
      bind (mulk (fst x) (fst y)) (fun k => Ok (madd k (rat_mul (snd x) (snd y)) r))) r b) [] a.

  (** operator_expression.cc:17-21, [add2]. *)
  Definition madd2 (a b : emap K) (f : rational) : emap K :=
    fold_left (fun r x => madd (fst x) (rat_mul f (snd x)) r) b a.
End Alg.

(** ** The two instances *)
Definition expression := emap term.
Definition opexpr := emap oprod.

(** symbolic_term.cc:70-82 with operator_product, symbolic_term.cc:308-357: only the product of two
    terms not labelled normal ordered is implemented, the other three cases throw. *)
Definition term_mul (a b : term) : res term :=
  if tm_no a || tm_no b then Throw
  else Ok (mkTerm (tm_no a) (tm_ops a ++ tm_ops b) (tm_tens a ++ tm_tens b)).

(** product.hpp:58-72, operator_product.cc: concatenation. *)
Definition oprod_mul (a b : oprod) : res oprod := Ok (a ++ b).
