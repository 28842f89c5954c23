(** Specification vocabulary for C79: the value semantics of the same statements, in which a variable holds a value and [y = x] copies it, and
    the rule that says when it is right. *)
From Coq Require Import ZArith QArith List Bool Arith.
From Verif Require Import Res RationalModel RationalSpec RegistryModel CoreModel AlgebraModel OperatorModel OperatorSpec OpTextModel PyOpModel.
Import ListNotations.
Local Open Scope res_scope.

(** The scalars written in a statement are rationals as the constructor makes them. *)
Definition scalars (c : opcmd) : Prop :=
  match c with OLet _ (OMade _ q) | OAddTerm _ _ q | OAdd2 _ _ q => canonical q | _ => True end.
(** The worlds that some history with such scalars leads to. *)
Definition reached (st : osi) (w : world) : Prop := exists h, oprun st empty_world h w /\ Forall (fun x => scalars (snd (fst x))) h.

(** The operators written in a statement belong to the registry (as those made by its constructor do). *)
Definition products (st : osi) (c : opcmd) : Prop :=
  match c with OLet _ (OMade l _) => Forall (oprod_valid st) l | OAddTerm _ p _ => oprod_valid st p | _ => True end.

(** ** Value semantics *)
Definition values := nat -> option opexpr.
Definition vfinish {A} (v : values) (x : res A) (k : A -> values * opstatus) : values * opstatus :=
  match x with Ok a => k a | Throw => (v, ORaised) | _ => (v, OUndef) end.
(** [x.add2(y, f)] gives [x] the value [x + f y], whatever [y] is. *)
Definition vexec_op (st : osi) (v : values) (c : opcmd) : values * opstatus :=
  match c with
  | OLet z e => vfinish v (eval_op st v e) (fun a => (put v z (Some a), ODone))
  | OAlias y x => match v x with Some a => (put v y (Some a), ODone) | None => (v, ORaised) end
  | ODel x => match v x with Some _ => (put v x None, ODone) | None => (v, ORaised) end
  | OAddTerm x p q => match v x with Some a => (put v x (Some (madd oprod_ltb p q a)), ODone) | None => (v, ORaised) end
  | OAdd2 x y f => match v x, v y with Some a, Some b => (put v x (Some (madd2 oprod_ltb a b f)), ODone) | _, _ => (v, ORaised) end
  | OCanon x => match v x with Some a => (put v x (Some (opexpr_canonicalize st a)), ODone) | None => (v, ORaised) end
  | OShow x => vfinish v (a <- arg v x ;; opexpr_str st a) (fun t => (v, OText t))
  | OEqual x y => vfinish v (a <- arg v x ;; b <- arg v y ;; Ok (mequal oprod_eqb a b)) (fun b => (v, OBool b))
  | OSize x => vfinish v (a <- arg v x ;; Ok (length a)) (fun n => (v, OCount n))
  end.
Inductive voprun (st : osi) : values -> list (opcmd * opstatus) -> values -> Prop :=
| voprun_nil v : voprun st v [] v
| voprun_cons v c v1 o h v2 : vexec_op st v c = (v1, o) -> voprun st v1 h v2 -> voprun st v ((c, o) :: h) v2.

(** ** Stale names *)
(** The variables a statement binds anew, those it reads, and the one whose object it changes in place. *)
Definition op_binds (c : opcmd) : list nat := match c with OLet z _ => [z] | OAlias y _ => [y] | ODel x => [x] | _ => [] end.
Definition rhs_vars (e : oprhs) : list nat :=
  match e with
  | ONew | OMade _ _ | OOp _ _ _ => [] | OCopy x | OAdjoint x => [x] | OAdd x y | OSub x y | OMatmul x y | OBch x y _ => [x; y] | OCommutator xs => xs
  end.
Definition op_reads (c : opcmd) : list nat :=
  match c with
  | OLet _ e => rhs_vars e | OAlias _ x | ODel x | OAddTerm x _ _ | OCanon x | OShow x | OSize x => [x] | OAdd2 x y _ | OEqual x y => [x; y]
  end.
Definition op_changes (c : opcmd) : list nat := match c with OAddTerm x _ _ | OAdd2 x _ _ | OCanon x => [x] | _ => [] end.
(** Two names of one object. *)
Definition same_object (w : world) (x y : nat) : Prop := exists o, w_env w x = Some o /\ w_env w y = Some o.
(** The names that are stale after a statement: those of an object that it changed in place by another name, and those that were stale before and
    are not bound anew.  [D] is the set of the stale names. *)
Definition stale_next (w : world) (c : opcmd) (o : opstatus) (D : nat -> Prop) : nat -> Prop :=
  fun y => (D y /\ ~ (In y (op_binds c) /\ o = ODone)) \/ (o = ODone /\ exists x, In x (op_changes c) /\ x <> y /\ same_object w x y).
(** A history that reads no stale name, and the names that are stale at its end. *)
Fixpoint careful_op (D : nat -> Prop) (h : list (world * opcmd * opstatus)) : Prop :=
  match h with
  | [] => True
  | (w, c, o) :: h' => (forall x, In x (op_reads c) -> ~ D x) /\ careful_op (stale_next w c o D) h'
  end.
Fixpoint stale_last (D : nat -> Prop) (h : list (world * opcmd * opstatus)) : nat -> Prop :=
  match h with [] => D | (w, c, o) :: h' => stale_last (stale_next w c o D) h' end.
Definition op_events (h : list (world * opcmd * opstatus)) : list (opcmd * opstatus) := map (fun x => (snd (fst x), snd x)) h.
(** Subtracting an object that is not zero from itself by [add2]. *)
Definition self_cancel (w : world) (c : opcmd) : Prop :=
  exists x y f a, c = OAdd2 x y f /\ same_object w x y /\ Qval f == -1 /\ seen w x = Some a /\ a <> [].
