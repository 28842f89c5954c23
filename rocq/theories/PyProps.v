(** C72: the Python objects of the Expression API. *)
From Coq Require Import ZArith List Bool Arith Sorted Lia.
From Verif Require Import Res RationalModel RegistryModel CoreModel AlgebraModel AlgebraSpec AdjointModel NormalOrderModel CanonModel PyModel PySpec PyProofs PyProofs2 PyProofs3 PyProofs4 PyProofs5 PyProofs6 PyProofs7 PyProofs8.
Import ListNotations.

(** In every history, whatever exceptions are caught, every expression object keeps its terms in strictly increasing order, each once. *)
Theorem C72_sorted : forall st s o m, pyreach st s -> nth_error (s_exprs s) o = Some m -> msorted term_ltb (entries m).
Proof. exact (fun st s o m P => i_sorted s (inv_reach st s P) o m). Qed.
Print Assumptions C72_sorted.
(** A statement changes the value of a variable only if it binds it, or changes in place the object that the variable refers to or into. *)
Theorem C72_frame : forall st s c s' o y, pyreach st s -> step st s c s' o -> ~ In y (binds c) ->
  (forall x a, writes s c = Some (x, a) -> depends s y a = false) -> view s' y = view s y.
Proof. exact frame_step. Qed.
Print Assumptions C72_frame.
(** The operators [+], [-], [@], [*], unary [-], [adjoint], [vacuum_normal_ordered] and the functions that make an expression bind a new object
    that no other variable refers to or into, and leave every other variable alone ... *)
Theorem C72_new_object : forall st s z e s', pyreach st s -> step st s (CLet z e) s' Done ->
  exists o a, vrhs st (view s) e = Ok a /\ s_env s' z = Some (VE o) /\ view s' z = Some (WE a) /\
    (forall y, y <> z -> depends s' y (OE o) = false /\ view s' y = view s y).
Proof. exact let_fresh. Qed.
Print Assumptions C72_new_object.
(** ... and so does [x += y] when [y] is an expression: other names of the old object of [x] keep it. *)
Theorem C72_iadd_expression : forall st s x y a b s' q, pyreach st s -> view s x = Some (WE a) -> view s y = Some (WE b) -> step st s (CIadd x y) s' q ->
  q = Done /\ exists o, s_env s' x = Some (VE o) /\ view s' x = Some (WE (mplus term_ltb a b)) /\ (forall z, z <> x -> depends s' z (OE o) = false /\ view s' z = view s z).
Proof. exact iadd_expr_fresh. Qed.
Print Assumptions C72_iadd_expression.
(** A history that never reads a stale name (a name whose object was changed in place by another name) runs as if variables held values: the same
    outcome of every statement, the same value of every name that is not stale, no dangling reference; and so does every next such statement. *)
Theorem C72_value_semantics : forall st h s, run st start h s -> careful (fun _ => false) h ->
  exists v, vrun st (fun _ => None) (events h) v /\ (forall x, stale_end (fun _ => false) h x = false -> view s x = v x /\ view s x <> Some WDead) /\
    forall c s' o, Forall (fun x => stale_end (fun _ => false) h x = false) (reads c) -> step st s c s' o ->
      exists r v', oracle st v c r /\ vexec st r v c = (v', o).
Proof. exact value_semantics. Qed.
Print Assumptions C72_value_semantics.
(** Under value semantics nothing is undefined but changing a term delivered by an iterator, and a canonicalization or a normal ordering that is
    itself undefined (C21, C27). *)
Theorem C72_undefined : forall st h v r c v', vrun st (fun _ => None) h v -> vexec st r v c = (v', Undef) ->
  (exists t m k, c = CMut t m /\ v t = Some (WN k)) \/ (exists y x, c = CCanon y x /\ (r = UB \/ r = NoFuel)) \/
  (exists z x b e, c = CLet z (RVno x b) /\ v x = Some (WE e) /\ (expr_vno st b e = UB \/ expr_vno st b e = NoFuel)).
Proof. exact undefined_cases. Qed.
Print Assumptions C72_undefined.
(** Iterating over an expression delivers its entries, each once, in order, then the end for ever, as long as no statement changes that object,
    whatever else happens in between; [next] is defined throughout. *)
Theorem C72_iteration : forall st s i x s1 o, pyreach st s -> s_env s x = Some (VE o) -> step st s (CIter i x) s1 Done ->
  exists j, s_env s1 i = Some (VI j) /\ forall h s2, run st s1 h s2 -> untouched o h ->
    delivered j h = firstn (length (delivered j h)) (map Some (contents s o) ++ repeat None (length (delivered j h))) /\
    forall t c i' s3 q, s_env s2 i' = Some (VI j) -> step st s2 (CNext t c i') s3 q -> q <> Undef.
Proof. exact iterate. Qed.
Print Assumptions C72_iteration.
(** If terms are added to it meanwhile but none is removed, [next] is still defined, the terms come in increasing order, and at the end every
    term present at the start has been delivered. *)
Theorem C72_iteration_growing : forall st s i x s1 o, pyreach st s -> s_env s x = Some (VE o) -> step st s (CIter i x) s1 Done ->
  exists j, s_env s1 i = Some (VI j) /\ forall h s2, run st s1 h s2 -> kept o h s2 ->
    StronglySorted (fun a b => term_ltb a b = true) (keys_delivered j h) /\
    (In None (delivered j h) -> forall k c, In (k, c) (contents s o) -> In k (keys_delivered j h)) /\
    forall t c i' s3 q, s_env s2 i' = Some (VI j) -> step st s2 (CNext t c i') s3 q -> q <> Undef.
Proof. exact iterate_growing. Qed.
Print Assumptions C72_iteration_growing.

(** ** What fails *)
(** [y = x; y += (t, q)] changes [x]. *)
Theorem C72_alias_refuted : forall st s x y t q e w k a s1 s2 o1 o2, pyreach st s -> x <> y -> y <> t -> y <> q ->
  view s x = Some (WE e) -> view s t = Some w -> vkey w = Some k -> view s q = Some (WQ a) ->
  step st s (CAlias y x) s1 o1 -> step st s1 (CIaddP y t q) s2 o2 ->
  o1 = Done /\ o2 = Done /\ view s2 x = Some (WE (madd term_ltb k a e)) /\ view s2 y = Some (WE (madd term_ltb k a e)).
Proof. exact alias_shared. Qed.
Print Assumptions C72_alias_refuted.
(** [y = x.canonicalize()] changes [x], and [y] is another name of [x]. *)
Theorem C72_canonicalize_refuted : forall st s x y e s', pyreach st s -> view s x = Some (WE e) -> step st s (CCanon (Some y) x) s' Done ->
  exists r, canon_out st e [] (Ok r) /\ s_env s' y = s_env s' x /\ s_env s' x = s_env s x /\ view s' x = Some (WE r) /\ view s' y = Some (WE r).
Proof. exact canon_alias. Qed.
Print Assumptions C72_canonicalize_refuted.
(** [for t, c in x: x.canonicalize()]: the second round is undefined. *)
Theorem C72_canonicalize_in_loop_refuted : forall st s x i t c o k a e s1 s2 s3 s4 o1 o2 q t' c', pyreach st s -> s_env s x = Some (VE o) -> contents s o = (k, a) :: e -> NoDup [x; i; t; c] ->
  step st s (CIter i x) s1 o1 -> step st s1 (CNext t c i) s2 o2 -> step st s2 (CCanon None x) s3 Done -> step st s3 (CNext t' c' i) s4 q -> q = Undef.
Proof. exact canon_in_loop. Qed.
Print Assumptions C72_canonicalize_in_loop_refuted.
(** The coefficient an iterator delivers is not a number but a view of the entry: after [t, c = next(i); x += (t, q)] it shows the new
    coefficient, and if the entry was cancelled, reading it is undefined, and so is the next round of the loop. *)
Theorem C72_coefficient_refuted : forall st s x i t c d o k a e q s1 s2 s3 s4 o1 o2 o3 o4, pyreach st s -> s_env s x = Some (VE o) -> contents s o = (k, a) :: e -> NoDup [x; i; t; c; d] -> rat_is0 q = false ->
  step st s (CIter i x) s1 o1 -> step st s1 (CNext t c i) s2 o2 -> step st s2 (CQ d q) s3 o3 -> step st s3 (CIaddP x t d) s4 o4 ->
  view s2 c = Some (WQ a) /\
  (rat_is0 (rat_add a q) = false -> view s4 c = Some (WQ (rat_add a q))) /\
  (rat_is0 (rat_add a q) = true -> (forall s5 w, step st s4 (CShow c) s5 w -> w = Undef) /\ (forall t' c' s5 w, step st s4 (CNext t' c' i) s5 w -> w = Undef)).
Proof. exact add_in_loop. Qed.
Print Assumptions C72_coefficient_refuted.
(** [for t, c in x: u.add([op]); x += u] never ends. *)
Theorem C72_endless_refuted : forall st op u x i t c, NoDup [u; x; i; t; c] ->
  exists h0 s0, run st start h0 s0 /\ map (fun y => snd (fst y)) h0 = [CTerm u false; CLet x RNew; CIadd x u; CIter i x] /\ s_env s0 i = Some (VI 0) /\
    forall n, exists h s, run st s0 h s /\ map (fun y => snd (fst y)) h = concat (repeat [CNext t c i; CMut u (MOps [op]); CIadd x u] n) /\ length (delivered 0 h) = n /\ ~ In None (delivered 0 h).
Proof. exact endless. Qed.
Print Assumptions C72_endless_refuted.

(** ** A case: copying an expression in a loop, then changing both *)
Fixpoint exec_all (st : osi) (s : state) (l : list cmd) : list (state * cmd * status) * state :=
  match l with
  | [] => ([], s)
  | c :: l' => let (s1, o) := exec st Throw s c in let (h, s2) := exec_all st s1 l' in ((s, c, o) :: h, s2)
  end.
Lemma exec_all_run st l : forall s, Forall (fun c => match c with CCanon _ _ => False | _ => True end) l -> Forall (fun x => match snd x with Undef => False | _ => True end) (fst (exec_all st s l)) ->
  run st s (fst (exec_all st s l)) (snd (exec_all st s l)).
Proof.
  induction l as [|c l IH]; intros s C U; [constructor|]. cbn in *. inversion C as [|? ? C1 C2]; subst. destruct (exec st Throw s c) as [s1 o] eqn:E. specialize (IH s1 C2).
  destruct (exec_all st s1 l) as [h s2]. cbn in *. inversion U as [|? ? U1 U2]; subst. cbn in U1. econstructor; [exists Throw; split; [destruct c; tauto|exact E]|intros ->; exact U1|]. now apply IH.
Qed.
Definition ex_a : term := mkTerm false [mkSQ true (mkI 0 0)] [].
Definition ex_b : term := mkTerm false [mkSQ true (mkI 0 1)] [].
(** x = a/2 - 4 b; y = Expression(); for t, c in x: y += (t, c); x += a; print(y); print(x) *)
Definition ex_prog : list cmd :=
  [CLet 0 (RMade [(ex_a, mkR 1 2); (ex_b, mkR (-4) 1)]); CLet 1 RNew; CIter 2 0; CNext 3 4 2; CIaddP 1 3 4; CNext 3 4 2; CIaddP 1 3 4; CNext 3 4 2;
   CTerm 5 false; CMut 5 (MOps [mkSQ true (mkI 0 0)]); CIadd 0 5; CShow 1; CShow 0].
Example C72_nonvacuous : forall st, let (h, s) := exec_all st start ex_prog in
  run st start h s /\ careful (fun _ => false) h /\
  map snd h = [Done; Done; Done; Yield ex_a (mkR 1 2); Done; Yield ex_b (mkR (-4) 1); Done; Stop; Done; Done; Done;
    Out (WE [(ex_a, mkR 1 2); (ex_b, mkR (-4) 1)]); Out (WE [(ex_a, mkR 3 2); (ex_b, mkR (-4) 1)])] /\
  stale_end (fun _ => false) h 4 = true /\ stale_end (fun _ => false) h 1 = false /\ delivered 0 h = [Some (ex_a, mkR 1 2); Some (ex_b, mkR (-4) 1); None].
Proof.
  intros st. assert (X := exec_all_run st ex_prog start). destruct (exec_all st start ex_prog) as [h s] eqn:E. vm_compute in E. injection E as <- <-. split; [apply X; repeat constructor|].
  split; [cbn; repeat split; repeat constructor|]. repeat split; vm_compute; reflexivity.
Qed.
(** The same program after [x = y; y += a] shows the change under both names, and after [t.add(..)] on a delivered term it is undefined. *)
Example C72_alias_case : forall st, map snd (fst (exec_all st start [CLet 0 (RMade [(ex_a, mkR 1 2)]); CAlias 1 0; CTerm 5 false; CIadd 1 5; CShow 0; CShow 1; CIadd 1 0; CShow 0])) =
  [Done; Done; Done; Done; Out (WE [(mkTerm false [] [], mkR 1 1); (ex_a, mkR 1 2)]); Out (WE [(mkTerm false [] [], mkR 1 1); (ex_a, mkR 1 2)]); Done;
   Out (WE [(mkTerm false [] [], mkR 1 1); (ex_a, mkR 1 2)])].
Proof. intros st. vm_compute. reflexivity. Qed.
