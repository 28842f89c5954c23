(** Specification vocabulary for linear combinations: coefficients and formal sums. *)
From Coq Require Import ZArith QArith List Bool Sorted.
From Verif Require Import Res RationalModel RationalSpec CoreModel AlgebraModel.
Import ListNotations.
Local Open Scope Q_scope.

Section Spec.
  Context {K : Type} (lt eqb : K -> K -> bool).

  (** Value of the linear functional extending [g] on a list of (key, coefficient) pairs. *)
  Definition lsum (g : K -> Q) (m : list (K * rational)) : Q :=
    fold_right (fun x s => Qval (snd x) * g (fst x) + s) 0 m.

  (** Coefficient of [k]: the sum of the coefficients of the entries whose key [== k]. *)
  Definition ind (k k' : K) : Q := if eqb k' k then 1 else 0.
  Definition coef (m : list (K * rational)) (k : K) : Q := lsum (ind k) m.

  (** Keys strictly increasing: each key occurs once and iteration is in order. *)
  Definition msorted (m : emap K) : Prop :=
    StronglySorted (fun x y => lt (fst x) (fst y) = true) m.

  Definition mgood (m : emap K) : Prop := Forall (fun x => den (snd x) <> 0%Z) m.
  Definition mcanon (m : emap K) : Prop := Forall (fun x => canonical (snd x)) m.
  Definition mnz (m : emap K) : Prop := Forall (fun x => ~ Qval (snd x) == 0) m.

  (** A well-formed expression: what every expression built through the API is. *)
  Definition wf (m : emap K) : Prop := msorted m /\ mcanon m /\ mnz m.

  (** All keys are in [P]; a functional that does not distinguish [==] keys of [P]. *)
  Definition keysP (P : K -> Prop) (m : emap K) : Prop := Forall (fun x => P (fst x)) m.
  Definition respects (P : K -> Prop) (g : K -> Q) : Prop :=
    forall k k', P k -> P k' -> eqb k k' = true -> g k == g k'.
End Spec.

(** ** Programs over the API of Expression / OperatorExpression *)
Inductive eprog (K : Type) :=
| PEmpty
| PAdd (p : eprog K) (k : K) (c : rational)
| PPlus (p q : eprog K)
| PMinus (p q : eprog K)
| PNeg (p : eprog K)
| PScale (p : eprog K) (c : rational)
| PMul (p q : eprog K).
Arguments PEmpty {K}. Arguments PAdd {K}. Arguments PPlus {K}. Arguments PMinus {K}.
Arguments PNeg {K}. Arguments PScale {K}. Arguments PMul {K}.

Section Prog.
  Context {K : Type} (lt : K -> K -> bool) (mulk : K -> K -> res K).

  (** What the code computes. *)
  Fixpoint peval (p : eprog K) : res (emap K) :=
    match p with
    | PEmpty => Ok []
    | PAdd p k c => bind (peval p) (fun a => Ok (madd lt k c a))
    | PPlus p q => bind (peval p) (fun a => bind (peval q) (fun b => Ok (mplus lt a b)))
    | PMinus p q => bind (peval p) (fun a => bind (peval q) (fun b => Ok (mminus lt a b)))
    | PNeg p => bind (peval p) (fun a => Ok (mneg lt a))
    | PScale p c => bind (peval p) (fun a => Ok (mscale a c))
    | PMul p q => bind (peval p) (fun a => bind (peval q) (fun b => mprod lt mulk a b))
    end.

  (** What it should mean: the value of a linear functional [g] on the formal sum. *)
  Fixpoint pmean (g : K -> Q) (p : eprog K) : Q :=
    match p with
    | PEmpty => 0
    | PAdd p k c => pmean g p + Qval c * g k
    | PPlus p q => pmean g p + pmean g q
    | PMinus p q => pmean g p - pmean g q
    | PNeg p => - pmean g p
    | PScale p c => pmean g p * Qval c
    | PMul p q => pmean (fun k1 => pmean (fun k2 => match mulk k1 k2 with Ok k => g k | _ => 0 end) q) p
    end.

  (** All literal coefficients are canonical (e.g. built by [rational(n,d)], C01), scalars nonzero. *)
  Fixpoint pok (p : eprog K) : Prop :=
    match p with
    | PEmpty => True
    | PAdd p k c => pok p /\ canonical c
    | PPlus p q | PMinus p q | PMul p q => pok p /\ pok q
    | PNeg p => pok p
    | PScale p c => pok p /\ canonical c /\ ~ Qval c == 0
    end.

  (** All keys mentioned satisfy [P]. *)
  Fixpoint pkeys (P : K -> Prop) (p : eprog K) : Prop :=
    match p with
    | PEmpty => True
    | PAdd p k c => pkeys P p /\ P k
    | PPlus p q | PMinus p q | PMul p q => pkeys P p /\ pkeys P q
    | PNeg p => pkeys P p
    | PScale p c => pkeys P p
    end.
End Prog.

(** What is needed of the product of keys, on the keys of interest [P]. *)
Record mul_ok {K} (eqb : K -> K -> bool) (P : K -> Prop) (mulk : K -> K -> res K) : Prop := {
  mul_total : forall a b, P a -> P b -> exists k, mulk a b = Ok k /\ P k;
  mul_congr : forall a b a' b' k k', P a -> P b -> P a' -> P b' -> eqb a a' = true -> eqb b b' = true ->
    mulk a b = Ok k -> mulk a' b' = Ok k' -> eqb k k' = true;
  mul_assoc : forall a b c ab bc x y, P a -> P b -> P c -> mulk a b = Ok ab -> mulk ab c = Ok x ->
    mulk b c = Ok bc -> mulk a bc = Ok y -> eqb x y = true }.

(** The terms of an Expression that can be multiplied: not labelled normal ordered. *)
Definition plain (t : term) : Prop := tm_no t = false.

(** Two terms side by side: the operators of the first followed by those of the second, and
    likewise the tensors. *)
Definition juxtapose (a b : term) : term := mkTerm false (tm_ops a ++ tm_ops b) (tm_tens a ++ tm_tens b).
