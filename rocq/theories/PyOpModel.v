(** Model of the Python objects behind the OperatorExpression API: which statements change an object in place and which make a new one.
    wicked/api/operator_api.cc:23-99 over wicked/diagrams/operator_expression.{h,cc} and wicked/helpers/algebra.hpp.

    From the bindings library (not part of /repo) the model takes: an argument taken by value is a copy, and a result returned by value becomes
    a new object.  There is no [__iadd__], [__isub__] or [__imatmul__]: Python runs [x += y] as [x = x + y], and likewise for the others.  A
    variable that holds no operator expression counts as unbound: using it raises (TypeError instead of NameError).  The products and rationals
    passed to the constructor, [add] and [add2] are constants; they are copied (C72 models rationals as objects). *)
From Coq Require Import ZArith List Bool Arith.
From Verif Require Import Res RationalModel RegistryModel CoreModel AlgebraModel AliasModel OperatorModel OpTextModel.
Import ListNotations.
Local Open Scope res_scope.

(** ** Objects and variables *)
(** The value of each object, the identity of the next new object, and the object each variable refers to. *)
Record world := mkW { w_heap : nat -> opexpr; w_next : nat; w_env : nat -> option nat }.
Definition empty_world : world := mkW (fun _ => []) 0 (fun _ => None).
Definition put {A} (f : nat -> A) (x : nat) (a : A) : nat -> A := fun y => if x =? y then a else f y.
(** What one sees under a name. *)
Definition seen (w : world) (x : nat) : option opexpr := option_map (w_heap w) (w_env w x).

(** ** Statements *)
(** The right-hand sides: [OperatorExpression()], [OperatorExpression(x)], [OperatorExpression(l, q)], [op(label, components, unique)], [x + y],
    [x - y], [x @ y], [x.adjoint()], [commutator(x1, ..)], [bch_series(x, y, n)]. *)
Inductive oprhs :=
| ONew | OCopy (x : nat) | OMade (l : list oprod) (q : rational) | OOp (label : text) (components : list text) (unique : bool)
| OAdd (x y : nat) | OSub (x y : nat) | OMatmul (x y : nat) | OAdjoint (x : nat) | OCommutator (xs : list nat) | OBch (x y : nat) (n : Z).
Inductive opcmd :=
| OLet (z : nat) (e : oprhs)                        (* z = e *)
| OAlias (y x : nat)                                (* y = x *)
| ODel (x : nat)                                    (* del x *)
| OAddTerm (x : nat) (p : oprod) (q : rational)     (* x.add(p, q) *)
| OAdd2 (x y : nat) (f : rational)                  (* x.add2(y, f) *)
| OCanon (x : nat)                                  (* x.canonicalize() *)
| OShow (x : nat)                                   (* print(x) *)
| OEqual (x y : nat)                                (* x == y *)
| OSize (x : nat).                                  (* x.size() *)
Inductive opstatus := ODone | ORaised | OUndef | OText (t : text) | OBool (b : bool) | OCount (n : nat).

Definition arg (r : nat -> option opexpr) (x : nat) : res opexpr := match r x with Some a => Ok a | None => Throw end.
(** operator_api.cc:27-30, 34, 36-45, 54-61, 62-98: what the right-hand sides return, from the values of their operands; all of them work on
    copies or through const references.  operator_expression.cc:10-15 for the constructor, which adds each product with factor [q]. *)
Definition eval_op (st : osi) (r : nat -> option opexpr) (e : oprhs) : res opexpr :=
  match e with
  | ONew => Ok []
  | OCopy x => arg r x
  | OMade l q => Ok (fold_left (fun m p => madd oprod_ltb p q m) l [])
  | OOp label comps u => make_op_expr st label comps u
  | OAdd x y => a <- arg r x ;; b <- arg r y ;; Ok (mplus oprod_ltb a b)
  | OSub x y => a <- arg r x ;; b <- arg r y ;; Ok (mminus oprod_ltb a b)
  | OMatmul x y => a <- arg r x ;; b <- arg r y ;; mprod oprod_ltb oprod_mul a b
  | OAdjoint x => a <- arg r x ;; opexpr_adjoint st a
  | OCommutator xs => l <- mapM (arg r) xs ;; commutator_args l
  | OBch x y n => a <- arg r x ;; b <- arg r y ;; bch_series a b n
  end.
(** A result, or an exception that leaves everything as it was. *)
Definition finish {A} (w : world) (x : res A) (k : A -> world * opstatus) : world * opstatus :=
  match x with Ok a => k a | Throw => (w, ORaised) | _ => (w, OUndef) end.
Definition new_object (w : world) (z : nat) (a : opexpr) : world := mkW (put (w_heap w) (w_next w) a) (S (w_next w)) (put (w_env w) z (Some (w_next w))).
Definition change (w : world) (o : nat) (a : opexpr) : world := mkW (put (w_heap w) o a) (w_next w) (w_env w).

(** One statement.  operator_api.cc:33 ([add]: algebra.hpp:33), 35 ([add2]: operator_expression.cc:17-21; with one object on both sides the loop
    walks the map it changes, and has as many rounds as that map has nodes), 46-49 ([==]), 50-51 ([str]), 56 ([canonicalize]). *)
Definition exec_op (st : osi) (w : world) (c : opcmd) : world * opstatus :=
  match c with
  | OLet z e => finish w (eval_op st (seen w) e) (fun a => (new_object w z a, ODone))
  | OAlias y x => match w_env w x with Some o => (mkW (w_heap w) (w_next w) (put (w_env w) y (Some o)), ODone) | None => (w, ORaised) end
  | ODel x => match w_env w x with Some _ => (mkW (w_heap w) (w_next w) (put (w_env w) x None), ODone) | None => (w, ORaised) end
  | OAddTerm x p q => match w_env w x with Some o => (change w o (madd oprod_ltb p q (w_heap w o)), ODone) | None => (w, ORaised) end
  | OAdd2 x y f =>
      match w_env w x, w_env w y with
      | Some o, Some o' =>
          if o =? o' then finish w (self_add2 oprod_ltb f (length (w_heap w o)) (w_heap w o)) (fun a => (change w o a, ODone))
          else (change w o (madd2 oprod_ltb (w_heap w o) (w_heap w o') f), ODone)
      | _, _ => (w, ORaised)
      end
  | OCanon x => match w_env w x with Some o => (change w o (opexpr_canonicalize st (w_heap w o)), ODone) | None => (w, ORaised) end
  | OShow x => finish w (a <- arg (seen w) x ;; opexpr_str st a) (fun t => (w, OText t))
  | OEqual x y => finish w (a <- arg (seen w) x ;; b <- arg (seen w) y ;; Ok (mequal oprod_eqb a b)) (fun b => (w, OBool b))
  | OSize x => finish w (a <- arg (seen w) x ;; Ok (length a)) (fun n => (w, OCount n))
  end.

(** A history: each statement with the world it found and its outcome; exceptions may be caught.  Nothing follows an undefined statement. *)
Inductive oprun (st : osi) : world -> list (world * opcmd * opstatus) -> world -> Prop :=
| oprun_nil w : oprun st w [] w
| oprun_cons w c w1 o h w2 : exec_op st w c = (w1, o) -> o <> OUndef -> oprun st w1 h w2 -> oprun st w ((w, c, o) :: h) w2.
