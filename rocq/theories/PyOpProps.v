(** C79: the Python objects of the OperatorExpression API. *)
From Coq Require Import String.
From Coq Require Import ZArith QArith List Bool Arith Lia.
From Verif Require Import Res RationalModel RationalSpec RegistryModel RegistryProofs RegistryProps EquationModel TextModel ExprTextModel OperatorProofs2 CoreModel AlgebraModel AlgebraSpec OperatorModel OperatorSpec OpTextModel OpTextSpec PyOpModel PyOpSpec PyOpProofs PyOpProofs2 PyOpProofs3.
Import ListNotations.
Local Open Scope nat_scope.

(** Whatever the history, every sum of products a name shows has its products in strictly increasing order, each once, with non-zero coefficients
    in lowest terms. *)
Theorem C79_well_formed : forall st w x a, reached st w -> seen w x = Some a -> wf oprod_ltb a.
Proof. exact seen_reached. Qed.
Print Assumptions C79_well_formed.
(** A statement changes what a name shows only if it binds the name, or changes in place ([add], [add2], [canonicalize]) the object of the name. *)
Theorem C79_frame : forall st w c w' o y, reached st w -> exec_op st w c = (w', o) -> ~ In y (op_binds c) -> (forall x, In x (op_changes c) -> ~ same_object w x y) -> seen w' y = seen w y.
Proof. exact (fun st w c w' o y R => frame st w c w' o y (reached_inv st w R)). Qed.
Print Assumptions C79_frame.
(** The constructors (also the copy), [op], [+], [-], [@], [adjoint], [commutator] (also of one argument) and [bch_series], and so also [+=], [-=]
    and [@=], give an object that no other name shares, and leave every other name alone. *)
Theorem C79_new_object : forall st w z e w', reached st w -> exec_op st w (OLet z e) = (w', ODone) ->
  exists a, eval_op st (seen w) e = Ok a /\ seen w' z = Some a /\ forall y, y <> z -> ~ same_object w' z y /\ seen w' y = seen w y.
Proof. exact (fun st w z e w' R => let_new st w z e w' (reached_inv st w R)). Qed.
Print Assumptions C79_new_object.
(** A statement that raises an exception changes nothing. *)
Theorem C79_exception : forall st w c w', exec_op st w c = (w', ORaised) -> w' = w.
Proof. exact raised. Qed.
Print Assumptions C79_exception.
(** A history that never reads a stale name (one whose object was changed in place by another name) runs as if variables held values: the same
    outcome of every statement, the same value of every name that is not stale; and so does every next such statement, but for [x.add2(y, -1)]
    where [x] and [y] are names of one object, not zero. *)
Theorem C79_value_semantics : forall st h w, oprun st empty_world h w -> Forall (fun x => scalars (snd (fst x))) h -> careful_op (fun _ => False) h ->
  exists v, voprun st (fun _ => None) (op_events h) v /\ (forall x, ~ stale_last (fun _ => False) h x -> seen w x = v x) /\
    forall c w' o, scalars c -> (forall x, In x (op_reads c) -> ~ stale_last (fun _ => False) h x) -> exec_op st w c = (w', o) ->
      (self_cancel w c /\ o = OUndef) \/ exists v', vexec_op st v c = (v', o).
Proof. exact value_semantics. Qed.
Print Assumptions C79_value_semantics.
(** Nothing else is undefined but [op], [adjoint] and [str] where they are undefined themselves (C36, C32, C66): in particular no sum, difference,
    product, commutator, series, copy, comparison or canonicalization, with any sharing of its operands. *)
Theorem C79_undefined : forall st w c w', reached st w -> scalars c -> exec_op st w c = (w', OUndef) ->
  self_cancel w c \/ (exists z label comps u, c = OLet z (OOp label comps u) /\ (make_op_expr st label comps u = UB \/ make_op_expr st label comps u = NoFuel)) \/
  (exists z x a, c = OLet z (OAdjoint x) /\ seen w x = Some a /\ (opexpr_adjoint st a = UB \/ opexpr_adjoint st a = NoFuel)) \/
  (exists x a, c = OShow x /\ seen w x = Some a /\ (opexpr_str st a = UB \/ opexpr_str st a = NoFuel)).
Proof. exact (fun st w c w' R => undefined st w c w' (reached_inv st w R)). Qed.
Print Assumptions C79_undefined.

(** With at most 8 spaces, letters as their labels, and operators of the registry in the statements, nothing at all is undefined but that
    [x.add2(y, -1)]; and every name always shows operators of the registry. *)
Theorem C79_defined : forall st, reachable st -> lettered st -> forall h w c w', oprun st empty_world h w -> Forall (fun x => scalars (snd (fst x)) /\ products st (snd (fst x))) h ->
  scalars c -> exec_op st w c = (w', OUndef) -> self_cancel w c.
Proof. exact only_cancel. Qed.
Print Assumptions C79_defined.
Theorem C79_valid : forall st, reachable st -> lettered st -> forall h w x a, oprun st empty_world h w -> Forall (fun x => scalars (snd (fst x)) /\ products st (snd (fst x))) h -> seen w x = Some a -> opexpr_valid st a.
Proof. exact shows_valid. Qed.
Print Assumptions C79_valid.

(** ** What fails *)
(** [y = x; y.add(p, q)] changes [x] too, by [q p] ... *)
Theorem C79_alias_refuted : forall st w x y p q a w1 w2 o1 o2, reached st w -> canonical q -> x <> y -> seen w x = Some a ->
  exec_op st w (OAlias y x) = (w1, o1) -> exec_op st w1 (OAddTerm y p q) = (w2, o2) ->
  exists b, seen w2 x = Some b /\ seen w2 y = Some b /\ forall k, (coef oprod_eqb b k == coef oprod_eqb a k + (if oprod_eqb p k then Qval q else 0))%Q.
Proof. exact (fun st w x y p q a w1 w2 o1 o2 R => alias_add st w x y p q a w1 w2 o1 o2 (reached_inv st w R)). Qed.
Print Assumptions C79_alias_refuted.
(** ... and so does every statement that changes [y] in place. *)
Theorem C79_alias_shared_refuted : forall st w x y c a w1 w2 o1 o2, reached st w -> scalars c -> x <> y -> seen w x = Some a -> op_changes c = [y] ->
  exec_op st w (OAlias y x) = (w1, o1) -> exec_op st w1 c = (w2, o2) -> o1 = ODone /\ seen w2 x = seen w2 y.
Proof. exact (fun st w x y c a w1 w2 o1 o2 R => alias_changes st w x y c a w1 w2 o1 o2 (reached_inv st w R)). Qed.
Print Assumptions C79_alias_shared_refuted.
(** [x.add2(y, -1)] with two names of one object is undefined, where the value would be zero. *)
Theorem C79_self_cancel_refuted : forall st w x y f a, reached st w -> canonical f -> same_object w x y -> (Qval f == -1)%Q -> seen w x = Some a -> a <> [] ->
  exec_op st w (OAdd2 x y f) = (w, OUndef) /\ madd2 oprod_ltb a a f = [].
Proof. exact (fun st w x y f a R => cancel_zero st w x y f a (reached_inv st w R)). Qed.
Print Assumptions C79_self_cancel_refuted.

(** ** A case: a name, an alias and a copy *)
Fixpoint exec_ops (st : osi) (w : world) (l : list opcmd) : list (world * opcmd * opstatus) * world :=
  match l with
  | [] => ([], w)
  | c :: l' => let (w1, o) := exec_op st w c in let (h, w2) := exec_ops st w1 l' in ((w, c, o) :: h, w2)
  end.
Lemma exec_ops_run st l : forall w, Forall (fun x => snd x <> OUndef) (fst (exec_ops st w l)) -> oprun st w (fst (exec_ops st w l)) (snd (exec_ops st w l)).
Proof.
  induction l as [|c l IH]; intros w F; [constructor|]. cbn in *. destruct (exec_op st w c) as [w1 o] eqn:E. specialize (IH w1). destruct (exec_ops st w1 l) as [h w2]. cbn in *. inversion F; subst. econstructor; eauto.
Qed.
Definition ex_p : oprod := [mkOp [] gm_zero].
(** x = OperatorExpression([F], 1/2); y = x; z = OperatorExpression(x); z.add2(z, 3); u = commutator(z); u += x; x.add([], 2); y = z; z == y;
    z == u; x.size(); u.size(); print of an unbound name. *)
Definition ex_hist : list opcmd :=
  [OLet 0 (OMade [ex_p] (mkR 1 2)); OAlias 1 0; OLet 2 (OCopy 0); OAdd2 2 2 (mkR 3 1); OLet 3 (OCommutator [2]); OLet 3 (OAdd 3 0); OAddTerm 0 [] (mkR 2 1); OAlias 1 2; OEqual 2 1;
   OEqual 2 3; OSize 0; OSize 3; OShow 7].
Example C79_nonvacuous : forall st, let (h, w) := exec_ops st empty_world ex_hist in
  oprun st empty_world h w /\ Forall (fun x => scalars (snd (fst x))) h /\ careful_op (fun _ => False) h /\
  map snd h = [ODone; ODone; ODone; ODone; ODone; ODone; ODone; ODone; OBool true; OBool false; OCount 2; OCount 1; ORaised] /\
  seen w 0 = Some [([], mkR 2 1); (ex_p, mkR 1 2)] /\ seen w 3 = Some [(ex_p, mkR 5 2)] /\ seen w 2 = Some [(ex_p, mkR 2 1)] /\ same_object w 1 2 /\ ~ same_object w 0 2.
Proof.
  intros st. assert (X := exec_ops_run st ex_hist empty_world). destruct (exec_ops st empty_world ex_hist) as [h w] eqn:E. vm_compute in E. injection E as <- <-.
  split; [apply X; repeat (constructor; [discriminate|]); constructor|]. split; [repeat (constructor; [first [exact I|split; reflexivity]|]); constructor|].
  split; [|split; [reflexivity|]; split; [reflexivity|]; split; [reflexivity|]; split; [reflexivity|]; split; [exists 1; now split|intros (o & A & B); cbn in A, B; congruence]].
  cbn. unfold stale_next, same_object. cbn. repeat split; intros x Hx D; repeat (destruct Hx as [<-|Hx]); try contradiction;
    repeat match goal with
           | H : False |- _ => destruct H
           | H : _ /\ _ |- _ => destruct H
           | H : _ \/ _ |- _ => destruct H
           | H : exists _, _ |- _ => destruct H
           end; subst; try discriminate; try congruence; try lia; try (exfalso; tauto).
Qed.
(** On a registry of two spaces: f = op("F", ["o+ v", "v+ o"]); g = f.adjoint(); h = f; print(f); f == g; h.add2(f, 1); f == g; print(f @ f) of size 4;
    h.add2(f, -1) is undefined. *)
Definition ex_hist2 : list opcmd :=
  [OLet 0 (OOp (str "F") [str "o+ v"; str "v+ o"] false); OLet 1 (OAdjoint 0); OAlias 2 0; OShow 0; OEqual 0 1; OAdd2 2 0 (mkR 1 1); OEqual 0 1; OLet 3 (OMatmul 0 0); OSize 3; OShow 0].
Example C79_defined_nonvacuous : reachable ex_st2 /\ lettered ex_st2 /\ let (h, w) := exec_ops ex_st2 empty_world ex_hist2 in
  oprun ex_st2 empty_world h w /\ Forall (fun x => scalars (snd (fst x)) /\ products ex_st2 (snd (fst x))) h /\
  map snd h = [ODone; ODone; ODone; OText (join [str "+ F { v+ o }"; str "+ F { o+ v }"] [newline]); OBool true; ODone; OBool false; ODone; OCount 4;
    OText (join [str "+2 F { v+ o }"; str "+2 F { o+ v }"] [newline])] /\
  snd (exec_op ex_st2 w (OAdd2 2 0 (mkR (-1) 1))) = OUndef.
Proof.
  split; [apply C10_nonvacuous|]. split; [split; [cbn; lia|]|].
  { intros sp c H. unfold space_label, PartitionsModel.aget in H. destruct (Z.ltb sp 0); [discriminate|]. destruct (Z.to_nat sp) as [|[|[|n]]]; cbn in H; try discriminate; injection H as <-; apply is_letter_ok; reflexivity. }
  assert (X := exec_ops_run ex_st2 ex_hist2 empty_world). destruct (exec_ops ex_st2 empty_world ex_hist2) as [h w] eqn:E. vm_compute in E. injection E as <- <-.
  split; [apply X; repeat (constructor; [discriminate|]); constructor|]. split; [repeat (constructor; [split; first [exact I|split; reflexivity]|]); constructor|]. split; vm_compute; reflexivity.
Qed.
