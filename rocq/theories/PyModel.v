(** Model of the Python objects behind the Expression API: which statements change an object in place, which make a new one, and what the
    iterator of an expression hands out.  wicked/api/expression_api.cc, wicked/api/term_api.cc, wicked/api/rational_api.cc over
    wicked/helpers/algebra.hpp and wicked/helpers/helpers.h.

    From the bindings library (not part of /repo) the model takes three facts: an argument taken by value is a copy; a function that returns a
    reference to an object that Python already holds returns that same Python object; [py::make_iterator] hands out references to the entries of
    the map, which keep the expression alive. *)
From Coq Require Import ZArith List Bool Arith.
From Verif Require Import Res RationalModel RegistryModel CoreModel AlgebraModel AdjointModel NormalOrderModel CanonModel.
Import ListNotations.

(** ** The map of an expression, with the identity of its nodes *)
(** [std::map<SymbolicTerm, scalar_t>] (algebra.hpp:14): each entry lives in a node of its own that stays where it is until it is erased; the
    number is the identity of the node. *)
Definition nmap := list (nat * (term * rational)).
Definition entries (m : nmap) : expression := map snd m.
(** [m[key] = value] (helpers.h:75, and the assignment through [search->second] in line 68): an existing node is kept, a missing one is made. *)
Fixpoint nset (n : nat) (k : term) (c : rational) (m : nmap) : nmap :=
  match m with
  | [] => [(n, (k, c))]
  | (n', (k', c')) :: m' =>
      if term_ltb k' k then (n', (k', c')) :: nset n k c m'
      else if term_ltb k k' then (n, (k, c)) :: (n', (k', c')) :: m' else (n', (k', c)) :: m'
  end.
(** [m.erase(search)] (helpers.h:71). *)
Fixpoint nerase (k : term) (m : nmap) : nmap :=
  match m with
  | [] => []
  | (n', (k', c')) :: m' =>
      if term_ltb k' k then (n', (k', c')) :: nerase k m'
      else if term_ltb k k' then (n', (k', c')) :: m' else m'
  end.
(** helpers.h:57-77, [add_to_map]; [n] is the identity of the node made if the key is new. *)
Definition nadd (n : nat) (k : term) (c : rational) (m : nmap) : nmap :=
  if rat_is0 c then m
  else match mfind term_ltb k (entries m) with
       | Some c0 => let c1 := rat_add c0 c in if rat_is0 c1 then nerase k m else nset n k c1 m
       | None => nset n k c m
       end.
(** A map made from scratch (also by assignment, expression.cc:65): all nodes are new. *)
Fixpoint fresh (n : nat) (e : expression) : nmap :=
  match e with [] => [] | x :: e' => (n, x) :: fresh (S n) e' end.
(** The entry in node [n]. *)
Fixpoint node (n : nat) (m : nmap) : option (term * rational) :=
  match m with [] => None | (n', x) :: m' => if n =? n' then Some x else node n m' end.
(** The nodes from node [n] on, in order; [None] if there is no node [n]. *)
Fixpoint from (n : nat) (m : nmap) : option nmap :=
  match m with [] => None | (n', x) :: m' => if n =? n' then Some m else from n m' end.
(** The first node of a range; [None] is [end()]. *)
Definition front (m : nmap) : option nat := option_map fst (hd_error m).

(** ** Python objects *)
(** term.h:10-36, symbolic_term.h:17-18: a [SymbolicTerm] or (if [to_coeffed]) a [Term], which also has a coefficient. *)
Record tobj := mkTO { to_coeffed : bool; to_term : term; to_coef : rational }.
(** The state of [py::make_iterator] (expression_api.cc:60-63): the expression, the position ([None]: end) and [first_or_done]. *)
Record iobj := mkIO { io_expr : nat; io_pos : option nat; io_first : bool }.
(** What a variable refers to: an Expression, a SymbolicTerm or Term, the term in a node of an expression, a rational, the coefficient in a node
    of an expression, an iterator. *)
Inductive pv := VE (o : nat) | VT (o : nat) | VN (o n : nat) | VQ (q : rational) | VC (o n : nat) | VI (i : nat).
Definition var := nat.
Record state := mkS { s_exprs : list nmap; s_terms : list tobj; s_iters : list iobj; s_next : nat; s_env : var -> option pv }.
Definition start : state := mkS [] [] [] 0 (fun _ => None).

(** What an object looks like from outside: an expression, a term object, a term that is an entry of an expression, a rational, the entries an
    iterator has still to deliver; [WDead]: the node is gone, the reference dangles. *)
Inductive val := WE (e : expression) | WT (t : tobj) | WN (k : term) | WQ (q : rational) | WI (l : expression) | WDead.
(** The entries still to come: all from the position on before the first round, those after it later. *)
Definition rest (m : nmap) (i : iobj) : option nmap :=
  match io_pos i with
  | None => Some []
  | Some n => if io_first i then from n m else option_map (@tl _) (from n m)
  end.
Definition look (s : state) (v : pv) : val :=
  match v with
  | VE o => match nth_error (s_exprs s) o with Some m => WE (entries m) | None => WDead end
  | VT o => match nth_error (s_terms s) o with Some t => WT t | None => WDead end
  | VN o n => match nth_error (s_exprs s) o with Some m => match node n m with Some x => WN (fst x) | None => WDead end | None => WDead end
  | VQ q => WQ q
  | VC o n => match nth_error (s_exprs s) o with Some m => match node n m with Some x => WQ (snd x) | None => WDead end | None => WDead end
  | VI i => match nth_error (s_iters s) i with
            | Some it => match nth_error (s_exprs s) (io_expr it) with
                         | Some m => match rest m it with Some l => WI (entries l) | None => WDead end
                         | None => WDead
                         end
            | None => WDead
            end
  end.
Definition view (s : state) (x : var) : option val := option_map (look s) (s_env s x).

(** ** Statements *)
(** The right-hand sides that make an Expression. *)
Inductive rhs :=
| RNew                                   (* wicked.Expression() *)
| RMade (l : list (term * rational))     (* operator_expr(..), expression(..), contract(..): an Expression made by adding the terms [l] *)
| RAdd (x y : var) | RSub (x y : var) | RMatmul (x y : var) | RScale (x c : var) | RNeg (x : var) | RAdj (x : var) | RVno (x : var) (b : bool).
(** term_api.cc:18-24, 34-39. *)
Inductive tmut := MOps (l : list sqop) | MTensor (t : tensor) | MSetOps (l : list sqop) | MFlag (b : bool).
Inductive qop := QAdd | QSub | QMul | QDiv.
Inductive cmd :=
| CLet (z : var) (e : rhs)               (* z = e *)
| CAlias (y x : var)                     (* y = x *)
| CDel (x : var)                         (* del x *)
| CIadd (x y : var)                      (* x += y *)
| CIaddP (x t c : var)                   (* x += (t, c) *)
| CCanon (y : option var) (x : var)      (* [y =] x.canonicalize() *)
| CIter (i x : var)                      (* i = iter(x) *)
| CNext (t c i : var)                    (* t, c = next(i) *)
| CTerm (t : var) (coeffed : bool)       (* t = SymbolicTerm() / Term() *)
| CTermOf (t u : var)                    (* t = Term(u) *)
| CMut (t : var) (m : tmut)              (* t.add(..), t.set(..), t.set_normal_ordered(..) *)
| CMutC (t c : var)                      (* t.set(c) *)
| CQ (c : var) (q : rational)            (* c = rational(..) *)
| CQop (c : var) (f : qop) (a b : var)   (* c = a + b, ... *)
| CShow (x : var).                       (* print(x) *)
(** How a statement ends: normally, with an exception, with [StopIteration], with the entry [next] delivers, with output, undefined. *)
Inductive status := Done | Raised | Stop | Yield (k : term) (c : rational) | Out (w : val) | Undef.

(** expression_api.cc:12-43, 73-77: all of them take copies or const references and return a new object by value. *)
Definition eval_rhs (st : osi) (r : var -> option val) (e : rhs) : res expression :=
  let two f x y := match r x, r y with
                   | Some WDead, _ | _, Some WDead => UB
                   | Some (WE a), Some (WE b) => f a b
                   | _, _ => Throw
                   end in
  let one f x := match r x with Some WDead => UB | Some (WE a) => f a | _ => Throw end in
  match e with
  | RNew => Ok []
  | RMade l => Ok (mplus term_ltb [] l)
  | RAdd x y => two (fun a b => Ok (mplus term_ltb a b)) x y
  | RSub x y => two (fun a b => Ok (mminus term_ltb a b)) x y
  | RMatmul x y => two (fun a b => mprod term_ltb term_mul a b) x y
  | RScale x c => match r x, r c with
                  | Some WDead, _ | _, Some WDead => UB
                  | Some (WE a), Some (WQ q) => Ok (mscale a q)
                  | _, _ => Throw
                  end
  | RNeg x => one (fun a => Ok (mneg term_ltb a)) x
  | RAdj x => one (fun a => Ok (expr_adjoint a)) x
  | RVno x b => one (fun a => expr_vno st b a) x
  end.
(** rational_api.cc:28-45: new objects. *)
Definition eval_qop (f : qop) : rational -> rational -> rational :=
  match f with QAdd => rat_add | QSub => rat_sub | QMul => rat_mul | QDiv => rat_div end.
(** symbolic_term.cc:20-56 through term_api.cc:18-24 ([SymbolicTerm]) and 34-40 ([Term], where [set] takes a coefficient and not operators). *)
Definition mutate (m : tmut) (t : tobj) : option tobj :=
  let u := to_term t in
  match m with
  | MOps l => Some (mkTO (to_coeffed t) (mkTerm (tm_no u) (tm_ops u ++ l) (tm_tens u)) (to_coef t))
  | MTensor x => Some (mkTO (to_coeffed t) (mkTerm (tm_no u) (tm_ops u) (tm_tens u ++ [x])) (to_coef t))
  | MSetOps l => if to_coeffed t then None else Some (mkTO false (mkTerm (tm_no u) l (tm_tens u)) (to_coef t))
  | MFlag b => Some (mkTO (to_coeffed t) (mkTerm b (tm_ops u) (tm_tens u)) (to_coef t))
  end.
(** term.h:34: the default coefficient is 1; so is the one given to a [SymbolicTerm] in expression_api.cc:55. *)
Definition one : rational := mkR 1 1.
(** The term a [SymbolicTerm] argument stands for: an object of the class, or an entry of an expression. *)
Definition symterm_of (w : val) : option term :=
  match w with WT t => if to_coeffed t then None else Some (to_term t) | WN k => Some k | _ => None end.
(** The pair added by [x += t] (expression_api.cc:44-59). *)
Definition addend (w : val) : option (term * rational) :=
  match w with WT t => Some (to_term t, to_coef t) | WN k => Some (k, one) | _ => None end.

(** ** Execution *)
Definition upd {A} (f : var -> A) (x : var) (a : A) : var -> A := fun y => if x =? y then a else f y.
Definition set_nth {A} (i : nat) (a : A) (l : list A) : list A := firstn i l ++ a :: skipn (S i) l.
Definition assign (x : var) (v : pv) (s : state) : state := mkS (s_exprs s) (s_terms s) (s_iters s) (s_next s) (upd (s_env s) x (Some v)).
(** A new Expression, bound to [z]. *)
Definition new_expr (z : var) (e : expression) (s : state) : state :=
  mkS (s_exprs s ++ [fresh (s_next s) e]) (s_terms s) (s_iters s) (s_next s + length e) (upd (s_env s) z (Some (VE (length (s_exprs s))))).
Definition new_term (z : var) (t : tobj) (s : state) : state :=
  mkS (s_exprs s) (s_terms s ++ [t]) (s_iters s) (s_next s) (upd (s_env s) z (Some (VT (length (s_terms s))))).
Definition new_iter (z : var) (i : iobj) (s : state) : state :=
  mkS (s_exprs s) (s_terms s) (s_iters s ++ [i]) (s_next s) (upd (s_env s) z (Some (VI (length (s_iters s))))).
(** In place: [Algebra::operator+=(pair)] (algebra.hpp:87-91). *)
Definition add_in_place (o : nat) (k : term) (c : rational) (m : nmap) (s : state) : state :=
  mkS (set_nth o (nadd (s_next s) k c m) (s_exprs s)) (s_terms s) (s_iters s) (S (s_next s)) (s_env s).
(** In place: [terms_ = canonical_terms] (expression.cc:65). *)
Definition replace (o : nat) (e : expression) (s : state) : state :=
  mkS (set_nth o (fresh (s_next s) e) (s_exprs s)) (s_terms s) (s_iters s) (s_next s + length e) (s_env s).
Definition set_term (o : nat) (t : tobj) (s : state) : state := mkS (s_exprs s) (set_nth o t (s_terms s)) (s_iters s) (s_next s) (s_env s).
Definition set_iter (i : nat) (it : iobj) (s : state) : state := mkS (s_exprs s) (s_terms s) (set_nth i it (s_iters s)) (s_next s) (s_env s).

(** One statement.  [r]: the outcome of the canonicalization, if the statement makes one (expression.cc:57-67 leaves the object alone until the
    last line).  An exception leaves everything as it was.  A dangling reference used as an operand is undefined. *)
Definition exec (st : osi) (r : res expression) (s : state) (c : cmd) : state * status :=
  match c with
  | CLet z e => match eval_rhs st (view s) e with Ok a => (new_expr z a s, Done) | Throw => (s, Raised) | _ => (s, Undef) end
  | CAlias y x => match s_env s x with Some v => (assign y v s, Done) | None => (s, Raised) end
  | CDel x => match s_env s x with Some _ => (mkS (s_exprs s) (s_terms s) (s_iters s) (s_next s) (upd (s_env s) x None), Done) | None => (s, Raised) end
  | CIadd x y =>
      match s_env s x, view s y with
      | Some (VE o), Some w =>
          match nth_error (s_exprs s) o with
          | None => (s, Undef)
          | Some m =>
            match w with
            | WDead => (s, Undef)
            | WE b => (new_expr x (mplus term_ltb (entries m) b) s, Done)  (* no __iadd__ for it: Python falls back on __add__ *)
            | _ => match addend w with Some (k, q) => (add_in_place o k q m s, Done) | None => (s, Raised) end
            end
          end
      | Some v, Some w =>
          match look s v, w with
          | WDead, _ | _, WDead => (s, Undef)
          | WQ a, WQ b => (assign x (VQ (rat_add a b)) s, Done)
          | _, _ => (s, Raised)
          end
      | _, _ => (s, Raised)
      end
  | CIaddP x t q =>
      match s_env s x, view s t, view s q with
      | Some (VE o), Some w, Some u =>
          match nth_error (s_exprs s) o, w, u with
          | None, _, _ | _, WDead, _ | _, _, WDead => (s, Undef)
          | Some m, _, WQ a => match symterm_of w with Some k => (add_in_place o k a m s, Done) | None => (s, Raised) end
          | _, _, _ => (s, Raised)
          end
      | _, _, _ => (s, Raised)
      end
  | CCanon y x =>
      match s_env s x with
      | Some (VE o) =>
          match r with
          | Ok e => (match y with Some y => assign y (VE o) (replace o e s) | None => replace o e s end, Done)
          | Throw => (s, Raised)
          | _ => (s, Undef)
          end
      | _ => (s, Raised)
      end
  | CIter i x =>
      match s_env s x with
      | Some (VE o) => match nth_error (s_exprs s) o with Some m => (new_iter i (mkIO o (front m) true) s, Done) | None => (s, Undef) end
      | Some (VI j) => (assign i (VI j) s, Done)
      | _ => (s, Raised)
      end
  | CNext t q i =>
      match s_env s i with
      | Some (VI j) =>
          match nth_error (s_iters s) j with
          | None => (s, Undef)
          | Some it =>
            match nth_error (s_exprs s) (io_expr it) with
            | None => (s, Undef)
            | Some m =>
              match rest m it with
              | None => (s, Undef)
              | Some [] => (set_iter j (mkIO (io_expr it) None true) s, Stop)
              | Some ((n, x) :: _) =>
                  (assign q (VC (io_expr it) n) (assign t (VN (io_expr it) n) (set_iter j (mkIO (io_expr it) (Some n) false) s)), Yield (fst x) (snd x))
              end
            end
          end
      | _ => (s, Raised)
      end
  | CTerm t b => (new_term t (mkTO b (mkTerm false [] []) one) s, Done)
  | CTermOf t u =>
      match view s u with
      | Some WDead => (s, Undef)
      | Some w => match symterm_of w with Some k => (new_term t (mkTO true k one) s, Done) | None => (s, Raised) end
      | None => (s, Raised)
      end
  | CMut t m =>
      match s_env s t with
      | Some (VT o) => match nth_error (s_terms s) o with
                       | None => (s, Undef)
                       | Some u => match mutate m u with Some u' => (set_term o u' s, Done) | None => (s, Raised) end
                       end
      | Some (VN _ _) => (s, Undef)           (* the key of a std::map is const: changing it is undefined *)
      | _ => (s, Raised)
      end
  | CMutC t q =>
      match s_env s t, view s q with
      | Some (VT o), Some w =>
          match nth_error (s_terms s) o, w with
          | None, _ | _, WDead => (s, Undef)
          | Some u, WQ a => if to_coeffed u then (set_term o (mkTO true (to_term u) a) s, Done) else (s, Raised)
          | _, _ => (s, Raised)
          end
      | _, _ => (s, Raised)
      end
  | CQ q a => (assign q (VQ a) s, Done)
  | CQop q f a b =>
      match view s a, view s b with
      | Some WDead, _ | _, Some WDead => (s, Undef)
      | Some (WQ a), Some (WQ b) => (assign q (VQ (eval_qop f a b)) s, Done)
      | _, _ => (s, Raised)
      end
  | CShow x => match view s x with Some WDead => (s, Undef) | Some (WI _) => (s, Done) | Some w => (s, Out w) | None => (s, Raised) end
  end.

(** expression.cc:57-67 with every outcome: the terms are canonicalized in order; the first that throws (or is undefined) decides. *)
Inductive canon_out (st : osi) : expression -> expression -> res expression -> Prop :=
| co_nil r : canon_out st [] r (Ok r)
| co_ok t c e r t' s o : term_canonicalize st t (Ok (t', s)) ->
    canon_out st e (madd term_ltb t' (rat_mul (rat_of_Z s) c) r) o -> canon_out st ((t, c) :: e) r o
| co_throw t c e r : term_canonicalize st t Throw \/ mapM (tensor_score st (tm_tens t)) (tm_tens t) = Throw -> canon_out st ((t, c) :: e) r Throw
| co_ub t c e r : term_canonicalize st t UB \/ mapM (tensor_score st (tm_tens t)) (tm_tens t) = UB -> canon_out st ((t, c) :: e) r UB.
(** [r] is an outcome of the canonicalization that statement [c] makes, if it makes one. *)
Definition oracle (st : osi) (v : var -> option val) (c : cmd) (r : res expression) : Prop :=
  match c with CCanon _ x => forall e, v x = Some (WE e) -> canon_out st e [] r | _ => True end.
Definition step (st : osi) (s : state) (c : cmd) (s' : state) (o : status) : Prop :=
  exists r, oracle st (view s) c r /\ exec st r s c = (s', o).

(** A history: the statements executed one after the other, each with the state it found and its outcome; exceptions may be caught, so the
    statements that follow one are arbitrary.  Nothing follows an undefined step. *)
Inductive run (st : osi) : state -> list (state * cmd * status) -> state -> Prop :=
| run_nil s : run st s [] s
| run_cons s c s1 o h s2 : step st s c s1 o -> o <> Undef -> run st s1 h s2 -> run st s ((s, c, o) :: h) s2.
Definition pyreach (st : osi) (s : state) : Prop := exists h, run st start h s.
