(** Specification vocabulary for C72: the value semantics of the same statements, in which a variable holds a value and [y = x] copies it, and
    the rule that says when it is right. *)
From Coq Require Import ZArith List Bool Arith.
From Verif Require Import Res RationalModel RegistryModel CoreModel AlgebraModel AdjointModel NormalOrderModel CanonModel PyModel.
Import ListNotations.

(** ** Value semantics *)
(** Variables hold values; no statement changes any variable but those it names on its left-hand side ([i] in [next(i)] counts: it holds the
    entries still to come).  Iterating takes a copy of the entries. *)
(** The variables a right-hand side reads. *)
Definition rhs_reads (e : rhs) : list var :=
  match e with
  | RNew | RMade _ => [] | RAdd x y | RSub x y | RMatmul x y => [x; y] | RScale x c => [x; c] | RNeg x | RAdj x | RVno x _ => [x]
  end.
Definition venv := var -> option val.
(** What the operators and functions that make an expression return, from the values of their operands. *)
Definition vrhs (st : osi) (v : venv) (e : rhs) : res expression :=
  if existsb (fun x => match v x with Some WDead => true | _ => false end) (rhs_reads e) then UB
  else match e with
       | RNew => Ok []
       | RMade l => Ok (mplus term_ltb [] l)
       | RAdd x y => match v x, v y with Some (WE a), Some (WE b) => Ok (mplus term_ltb a b) | _, _ => Throw end
       | RSub x y => match v x, v y with Some (WE a), Some (WE b) => Ok (mminus term_ltb a b) | _, _ => Throw end
       | RMatmul x y => match v x, v y with Some (WE a), Some (WE b) => mprod term_ltb term_mul a b | _, _ => Throw end
       | RScale x c => match v x, v c with Some (WE a), Some (WQ q) => Ok (mscale a q) | _, _ => Throw end
       | RNeg x => match v x with Some (WE a) => Ok (mneg term_ltb a) | _ => Throw end
       | RAdj x => match v x with Some (WE a) => Ok (expr_adjoint a) | _ => Throw end
       | RVno x b => match v x with Some (WE a) => expr_vno st b a | _ => Throw end
       end.
(** Arithmetic on rationals. *)
Definition vqop (f : qop) (a b : rational) : rational :=
  match f with QAdd => rat_add a b | QSub => rat_sub a b | QMul => rat_mul a b | QDiv => rat_div a b end.
(** [t.add(..)] appends operators or a tensor, [t.set(..)] replaces the operators of a SymbolicTerm (a Term has none such), [t.set_normal_ordered(..)]
    sets the flag; nothing else changes. *)
Definition vmut (m : tmut) (u : tobj) : option tobj :=
  match m, u with
  | MOps l, mkTO b (mkTerm f ops ts) q => Some (mkTO b (mkTerm f (ops ++ l) ts) q)
  | MTensor x, mkTO b (mkTerm f ops ts) q => Some (mkTO b (mkTerm f ops (ts ++ [x])) q)
  | MSetOps l, mkTO false (mkTerm f ops ts) q => Some (mkTO false (mkTerm f l ts) q)
  | MSetOps l, mkTO true _ _ => None
  | MFlag f', mkTO b (mkTerm f ops ts) q => Some (mkTO b (mkTerm f' ops ts) q)
  end.
(** The term a SymbolicTerm or an entry delivered by an iterator stands for; a Term is not one. *)
Definition vkey (w : val) : option term :=
  match w with WT (mkTO false k _) => Some k | WN k => Some k | _ => None end.
Definition vexec (st : osi) (r : res expression) (v : venv) (c : cmd) : venv * status :=
  match c with
  | CLet z e => match vrhs st v e with Ok a => (upd v z (Some (WE a)), Done) | Throw => (v, Raised) | _ => (v, Undef) end
  | CAlias y x => match v x with Some w => (upd v y (Some w), Done) | None => (v, Raised) end
  | CDel x => match v x with Some _ => (upd v x None, Done) | None => (v, Raised) end
  | CIadd x y =>
      match v x, v y with
      | Some WDead, Some _ | Some _, Some WDead => (v, Undef)
      | Some (WE a), Some (WE b) => (upd v x (Some (WE (mplus term_ltb a b))), Done)
      | Some (WE a), Some (WT t) => (upd v x (Some (WE (madd term_ltb (to_term t) (to_coef t) a))), Done)
      | Some (WE a), Some (WN k) => (upd v x (Some (WE (madd term_ltb k (mkR 1 1) a))), Done)
      | Some (WQ a), Some (WQ b) => (upd v x (Some (WQ (rat_add a b))), Done)
      | _, _ => (v, Raised)
      end
  | CIaddP x t q =>
      match v x, v t, v q with
      | Some (WE a), Some WDead, Some _ | Some (WE a), Some _, Some WDead => (v, Undef)
      | Some (WE a), Some w, Some (WQ b) =>
          match vkey w with Some k => (upd v x (Some (WE (madd term_ltb k b a))), Done) | None => (v, Raised) end
      | _, _, _ => (v, Raised)
      end
  | CCanon y x =>
      match v x with
      | Some (WE a) =>
          match r with
          | Ok e => (match y with Some y => upd (upd v x (Some (WE e))) y (Some (WE e)) | None => upd v x (Some (WE e)) end, Done)
          | Throw => (v, Raised)
          | _ => (v, Undef)
          end
      | _ => (v, Raised)
      end
  | CIter i x =>
      match v x with
      | Some (WE a) => (upd v i (Some (WI a)), Done)
      | Some (WI l) => (upd v i (Some (WI l)), Done)
      | _ => (v, Raised)
      end
  | CNext t q i =>
      match v i with
      | Some (WI []) => (v, Stop)
      | Some (WI ((k, c) :: l)) => (upd (upd (upd v i (Some (WI l))) t (Some (WN k))) q (Some (WQ c)), Yield k c)
      | _ => (v, Raised)
      end
  | CTerm t b => (upd v t (Some (WT (mkTO b (mkTerm false [] []) (mkR 1 1)))), Done)
  | CTermOf t u =>
      match v u with
      | Some WDead => (v, Undef)
      | Some w => match vkey w with Some k => (upd v t (Some (WT (mkTO true k (mkR 1 1)))), Done) | None => (v, Raised) end
      | None => (v, Raised)
      end
  | CMut t m =>
      match v t with
      | Some (WT u) => match vmut m u with Some u' => (upd v t (Some (WT u')), Done) | None => (v, Raised) end
      | Some (WN _) => (v, Undef)
      | _ => (v, Raised)
      end
  | CMutC t q =>
      match v t, v q with
      | Some (WT u), Some WDead => (v, Undef)
      | Some (WT u), Some (WQ a) => if to_coeffed u then (upd v t (Some (WT (mkTO true (to_term u) a))), Done) else (v, Raised)
      | _, _ => (v, Raised)
      end
  | CQ q a => (upd v q (Some (WQ a)), Done)
  | CQop q f a b =>
      match v a, v b with
      | Some WDead, _ | _, Some WDead => (v, Undef)
      | Some (WQ a), Some (WQ b) => (upd v q (Some (WQ (vqop f a b))), Done)
      | _, _ => (v, Raised)
      end
  | CShow x => match v x with Some WDead => (v, Undef) | Some (WI _) => (v, Done) | Some w => (v, Out w) | None => (v, Raised) end
  end.

(** ** Objects, names, and stale names *)
Inductive obj := OE (o : nat) | OT (o : nat) | OI (i : nat).
Definition obj_eqb (a b : obj) : bool :=
  match a, b with OE i, OE j | OT i, OT j | OI i, OI j => i =? j | _, _ => false end.
(** The objects the value of a reference depends on: a term or coefficient delivered by an iterator lives in the expression, an iterator walks it. *)
Definition touches (s : state) (v : pv) : list obj :=
  match v with
  | VE o | VN o _ | VC o _ => [OE o]
  | VT o => [OT o]
  | VQ _ => []
  | VI i => OI i :: match nth_error (s_iters s) i with Some it => [OE (io_expr it)] | None => [] end
  end.
Definition depends (s : state) (x : var) (a : obj) : bool :=
  match s_env s x with Some v => existsb (obj_eqb a) (touches s v) | None => false end.
(** The object a statement changes in place, and the name it is changed by: [x += term], [x += (term, c)], [x.canonicalize()], [next(i)],
    [t.add(..)], [t.set(..)], [t.set_normal_ordered(..)].  [x += expression] changes no object. *)
Definition writes (s : state) (c : cmd) : option (var * obj) :=
  match c with
  | CIadd x y => match s_env s x, view s y with
                 | Some (VE o), Some (WT _) | Some (VE o), Some (WN _) => Some (x, OE o)
                 | _, _ => None
                 end
  | CIaddP x _ _ => match s_env s x with Some (VE o) => Some (x, OE o) | _ => None end
  | CCanon _ x => match s_env s x with Some (VE o) => Some (x, OE o) | _ => None end
  | CNext _ _ i => match s_env s i with Some (VI j) => Some (i, OI j) | _ => None end
  | CMut t _ => match s_env s t with Some (VT o) => Some (t, OT o) | _ => None end
  | CMutC t _ => match s_env s t with Some (VT o) => Some (t, OT o) | _ => None end
  | _ => None
  end.
(** The variables a statement binds anew, and those it reads. *)
Definition binds (c : cmd) : list var :=
  match c with
  | CLet z _ => [z] | CAlias y _ => [y] | CDel x => [x] | CIadd x _ => [x] | CIaddP x _ _ => [x]
  | CCanon (Some y) _ => [y] | CCanon None _ => []
  | CIter i _ => [i] | CNext t q _ => [t; q] | CTerm t _ => [t] | CTermOf t _ => [t]
  | CMut _ _ => [] | CMutC _ _ => [] | CQ q _ => [q] | CQop q _ _ _ => [q] | CShow _ => []
  end.
Definition reads (c : cmd) : list var :=
  match c with
  | CLet _ e => rhs_reads e | CAlias _ x => [x] | CDel x => [x] | CIadd x y => [x; y] | CIaddP x t q => [x; t; q]
  | CCanon _ x => [x] | CIter _ x => [x] | CNext _ _ i => [i] | CTerm _ _ => [] | CTermOf _ u => [u]
  | CMut t _ => [t] | CMutC t q => [t; q] | CQ _ _ => [] | CQop _ _ a b => [a; b] | CShow x => [x]
  end.
(** A name is stale once the object it refers to, or into, was changed in place by another name; binding it anew ends that. *)
Definition stale_after (s : state) (c : cmd) (o : status) (d : var -> bool) : var -> bool :=
  fun y => if existsb (Nat.eqb y) (binds c) && negb (match o with Raised | Stop => true | _ => false end) then false
           else d y || match writes s c with Some (x, a) => negb (x =? y) && depends s y a | None => false end.
(** A history that reads no stale name. *)
Fixpoint careful (d : var -> bool) (h : list (state * cmd * status)) : Prop :=
  match h with
  | [] => True
  | (s, c, o) :: h' => Forall (fun x => d x = false) (reads c) /\ careful (stale_after s c o d) h'
  end.
Fixpoint stale_end (d : var -> bool) (h : list (state * cmd * status)) : var -> bool :=
  match h with [] => d | (s, c, o) :: h' => stale_end (stale_after s c o d) h' end.
(** The statements and their outcomes. *)
Definition events (h : list (state * cmd * status)) : list (cmd * status) := map (fun x => (snd (fst x), snd x)) h.
(** The same statements under value semantics. *)
Inductive vrun (st : osi) : venv -> list (cmd * status) -> venv -> Prop :=
| vrun_nil v : vrun st v [] v
| vrun_cons v c r v1 o h v2 : oracle st v c r -> vexec st r v c = (v1, o) -> vrun st v1 h v2 -> vrun st v ((c, o) :: h) v2.

(** ** What an iterator delivers *)
(** The outcomes of the calls [next(i)] that are made on iterator object [j]: an entry, or the end. *)
Definition next_on (j : nat) (x : state * cmd * status) : list (option (term * rational)) :=
  match x with
  | (s, CNext _ _ i, o) => match s_env s i with
                           | Some (VI j') => if j =? j' then match o with Yield k c => [Some (k, c)] | _ => [None] end else []
                           | _ => []
                           end
  | _ => []
  end.
Definition delivered (j : nat) (h : list (state * cmd * status)) : list (option (term * rational)) := concat (map (next_on j) h).
(** No statement of the history changes expression object [o] in place. *)
Definition untouched (o : nat) (h : list (state * cmd * status)) : Prop :=
  Forall (fun x => match writes (fst (fst x)) (snd (fst x)) with Some (_, OE o') => o' <> o | _ => True end) h.
(** The entries of expression object [o]. *)
Definition contents (s : state) (o : nat) : expression := match nth_error (s_exprs s) o with Some m => entries m | None => [] end.
(** No entry of expression object [o] is removed: each statement keeps the nodes it finds. *)
Definition nodes (s : state) (o : nat) : list nat := match nth_error (s_exprs s) o with Some m => map fst m | None => [] end.
(** The state after the first statement of [h], a history that ends in [s2]. *)
Definition after (h : list (state * cmd * status)) (s2 : state) : state := match h with (s', _, _) :: _ => s' | [] => s2 end.
Fixpoint kept (o : nat) (h : list (state * cmd * status)) (s2 : state) : Prop :=
  match h with
  | [] => True
  | (s, _, _) :: h' => incl (nodes s o) (nodes (after h' s2) o) /\ kept o h' s2
  end.
(** The keys delivered. *)
Definition keys_delivered (j : nat) (h : list (state * cmd * status)) : list term :=
  concat (map (fun x => match x with Some (k, _) => [k] | None => [] end) (delivered j h)).
