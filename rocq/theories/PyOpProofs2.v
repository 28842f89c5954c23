(** C79: frame, new objects, value semantics. *)
From Coq Require Import ZArith QArith List Bool Arith Lia.
From Verif Require Import Res RationalModel RationalSpec RationalProofs RegistryModel CoreModel AlgebraModel AlgebraSpec AlgebraProofs AlgebraProofs2 OrderProofs AliasModel AliasProofs OperatorModel OpTextModel PyOpModel PyOpSpec PyOpProofs.
Import ListNotations.
Local Open Scope nat_scope.

Lemma mapM_ext_in {A B} (f g : A -> res B) l : (forall x, In x l -> f x = g x) -> mapM f l = mapM g l.
Proof. induction l as [|x l IH]; intros E; cbn [mapM]; [reflexivity|]. rewrite (E x) by now left. rewrite IH by (intros; apply E; now right). reflexivity. Qed.
Lemma eval_ext st r r' e : (forall x, In x (rhs_vars e) -> r x = r' x) -> eval_op st r e = eval_op st r' e.
Proof.
  intros E. destruct e as [|x|l q|lab comps u|x y|x y|x y|x|xs|x y n]; cbn [eval_op rhs_vars] in *; auto; unfold arg.
  - now rewrite (E x) by (now left).
  - now rewrite (E x), (E y) by (cbn; auto).
  - now rewrite (E x), (E y) by (cbn; auto).
  - now rewrite (E x), (E y) by (cbn; auto).
  - now rewrite (E x) by (now left).
  - rewrite (mapM_ext_in _ (fun x => match r' x with Some a => Ok a | None => Throw end)); [reflexivity|]. intros x I. now rewrite (E x I).
  - now rewrite (E x), (E y) by (cbn; auto).
Qed.

(** ** What a statement leaves alone *)
Lemma change_other w x o a y : w_env w x = Some o -> ~ same_object w x y -> seen (change w o a) y = seen w y.
Proof.
  intros Ex N. unfold seen. cbn. destruct (w_env w y) as [o'|] eqn:Ey; [|reflexivity]. cbn. rewrite put_other; [reflexivity|]. intros ->. apply N. exists o'. now split.
Qed.
Lemma change_seen w x o a : w_env w x = Some o -> seen (change w o a) x = Some a.
Proof. intros Ex. unfold seen. cbn. rewrite Ex. cbn. now rewrite put_same. Qed.
Lemma new_seen w z a : seen (new_object w z a) z = Some a.
Proof. unfold seen. cbn. rewrite put_same. cbn. now rewrite put_same. Qed.
Lemma new_other w z a y : oinv w -> z <> y -> seen (new_object w z a) y = seen w y.
Proof. intros I N. unfold seen. cbn. rewrite put_other by exact N. destruct (w_env w y) as [o|] eqn:E; [|reflexivity]. cbn. rewrite put_other; [reflexivity|]. apply (oi_env w I) in E. lia. Qed.
Lemma put_env_other w z e y : z <> y -> seen (mkW (w_heap w) (w_next w) (put (w_env w) z e)) y = seen w y.
Proof. intros N. unfold seen. cbn. now rewrite put_other by exact N. Qed.

Lemma frame st w c w' o y : oinv w -> exec_op st w c = (w', o) -> ~ In y (op_binds c) -> (forall x, In x (op_changes c) -> ~ same_object w x y) -> seen w' y = seen w y.
Proof.
  intros I E B N. destruct c as [z e|z x|x|x p q|x z f|x|x|x z|x]; cbn [exec_op op_binds op_changes] in *.
  - apply finish_cases in E. destruct E as [(a & _ & E)|[(_ & -> & _)|(_ & -> & _)]]; auto. injection E as <- _. apply new_other; [exact I|]. intros ->. apply B. now left.
  - destruct (w_env w x) as [o1|]; injection E as <- _; auto. apply put_env_other. intros ->. apply B. now left.
  - destruct (w_env w x) as [o1|]; injection E as <- _; auto. apply put_env_other. intros ->. apply B. now left.
  - destruct (w_env w x) as [o1|] eqn:Ex; injection E as <- _; auto. eapply change_other; [exact Ex|]. apply N. now left.
  - destruct (w_env w x) as [o1|] eqn:Ex; [|injection E as <- _; auto]. destruct (w_env w z) as [o2|]; [|injection E as <- _; auto]. destruct (o1 =? o2).
    + apply finish_cases in E. destruct E as [(a & _ & E)|[(_ & -> & _)|(_ & -> & _)]]; auto. injection E as <- _. eapply change_other; [exact Ex|]. apply N. now left.
    + injection E as <- _. eapply change_other; [exact Ex|]. apply N. now left.
  - destruct (w_env w x) as [o1|] eqn:Ex; injection E as <- _; auto. eapply change_other; [exact Ex|]. apply N. now left.
  - apply finish_cases in E. destruct E as [(a & _ & E)|[(_ & -> & _)|(_ & -> & _)]]; auto. now injection E as <- _.
  - apply finish_cases in E. destruct E as [(a & _ & E)|[(_ & -> & _)|(_ & -> & _)]]; auto. now injection E as <- _.
  - apply finish_cases in E. destruct E as [(a & _ & E)|[(_ & -> & _)|(_ & -> & _)]]; auto. now injection E as <- _.
Qed.
Lemma raised st w c w' : exec_op st w c = (w', ORaised) -> w' = w.
Proof.
  intros E. destruct c as [z e|z x|x|x p q|x z f|x|x|x z|x]; cbn [exec_op] in E.
  1, 7, 8, 9: apply finish_cases in E; destruct E as [(a & _ & E)|[(_ & -> & _)|(_ & -> & _)]]; auto; discriminate.
  1, 2, 3, 5: destruct (w_env w x); now injection E.
  destruct (w_env w x) as [o1|]; [|now injection E]. destruct (w_env w z) as [o2|]; [|now injection E]. destruct (o1 =? o2); [|discriminate].
  apply finish_cases in E. destruct E as [(a & _ & E)|[(_ & -> & _)|(_ & -> & _)]]; auto; discriminate.
Qed.
(** A right-hand side gives an object of its own. *)
Lemma let_new st w z e w' : oinv w -> exec_op st w (OLet z e) = (w', ODone) ->
  exists a, eval_op st (seen w) e = Ok a /\ seen w' z = Some a /\ forall y, y <> z -> ~ same_object w' z y /\ seen w' y = seen w y.
Proof.
  intros I E. cbn [exec_op] in E. apply finish_cases in E. destruct E as [(a & Ea & E)|[(_ & _ & X)|(_ & _ & X)]]; try discriminate. injection E as <-. exists a. split; [exact Ea|]. split; [apply new_seen|].
  intros y N. split; [|apply new_other; auto]. intros (o & Ez & Ey). cbn in Ez, Ey. rewrite put_same in Ez. injection Ez as <-. rewrite put_other in Ey by auto. apply (oi_env w I) in Ey. lia.
Qed.

(** ** Value semantics *)
Definition agree (D : nat -> Prop) (w : world) (v : values) : Prop := forall x, ~ D x -> seen w x = v x.
Lemma agree_same w c o D v : agree D w v -> o <> ODone -> agree (stale_next w c o D) w v.
Proof. intros A N y S. apply A. intros d. apply S. left. split; [exact d|]. intros (_ & X). exact (N X). Qed.
Lemma agree_bind w w' c o D v z a : agree D w v -> op_binds c = [z] -> seen w' z = a -> (forall y, z <> y -> seen w' y = seen w y) -> agree (stale_next w c o D) w' (put v z a).
Proof.
  intros A B Z O y S. unfold put. destruct (z =? y) eqn:E; [apply Nat.eqb_eq in E; now subst|]. apply Nat.eqb_neq in E. rewrite O by exact E. apply A. intros d. apply S. left. split; [exact d|]. rewrite B. intros ([X|[]] & _). now apply E.
Qed.
Lemma agree_change w w' c D v x a : agree D w v -> op_binds c = [] -> op_changes c = [x] -> seen w' x = Some a -> (forall y, ~ same_object w x y -> seen w' y = seen w y) ->
  agree (stale_next w c ODone D) w' (put v x (Some a)).
Proof.
  intros A B C X O y S. unfold put. destruct (x =? y) eqn:E; [apply Nat.eqb_eq in E; now subst|]. apply Nat.eqb_neq in E. rewrite O.
  - apply A. intros d. apply S. left. split; [exact d|]. rewrite B. intros ([] & _).
  - intros SO. apply S. right. split; [reflexivity|]. exists x. rewrite C. split; [now left|]. now split.
Qed.
Lemma vfin {A} (v : values) (x : res A) k : (x = Throw -> vfinish v x k = (v, ORaised)) /\ (x = UB \/ x = NoFuel -> vfinish v x k = (v, OUndef)) /\ (forall a, x = Ok a -> vfinish v x k = k a).
Proof. split; [now intros ->|]. split; [now intros [->| ->]|]. now intros a ->. Qed.

Lemma step_values st w c w' o D v : oinv w -> scalars c -> agree D w v -> (forall x, In x (op_reads c) -> ~ D x) -> exec_op st w c = (w', o) ->
  (self_cancel w c /\ o = OUndef) \/ exists v', vexec_op st v c = (v', o) /\ agree (stale_next w c o D) w' v'.
Proof.
  intros I S A F E. destruct c as [z e|y x|x|x p q|x y f|x|x|x y|x]; cbn [exec_op vexec_op op_reads scalars] in *.
  - right. rewrite <- (eval_ext st (seen w) v e) by (intros x X; apply A; auto). apply finish_cases in E. destruct E as [(a & Ea & E)|[(Ea & -> & ->)|(Ea & -> & ->)]].
    + injection E as <- <-. rewrite Ea. eexists. split; [reflexivity|]. eapply agree_bind; [exact A|reflexivity|apply new_seen|]. intros y N. now apply new_other.
    + rewrite Ea. eexists. split; [reflexivity|]. apply agree_same; [exact A|discriminate].
    + exists v. split; [now destruct Ea as [-> | ->]|]. apply agree_same; [exact A|discriminate].
  - right. rewrite <- (A x) by (apply F; now left). unfold seen at 1. destruct (w_env w x) as [o1|] eqn:Ex; injection E as <- <-; cbn [option_map].
    + eexists. split; [reflexivity|]. eapply agree_bind; [exact A|reflexivity| |intros z N; now apply put_env_other]. unfold seen. cbn. now rewrite put_same.
    + eexists. split; [reflexivity|]. apply agree_same; [exact A|discriminate].
  - right. rewrite <- (A x) by (apply F; now left). unfold seen at 1. destruct (w_env w x) as [o1|] eqn:Ex; injection E as <- <-; cbn [option_map].
    + eexists. split; [reflexivity|]. eapply agree_bind; [exact A|reflexivity| |intros z N; now apply put_env_other]. unfold seen. cbn. now rewrite put_same.
    + eexists. split; [reflexivity|]. apply agree_same; [exact A|discriminate].
  - right. rewrite <- (A x) by (apply F; now left). unfold seen at 1. destruct (w_env w x) as [o1|] eqn:Ex; injection E as <- <-; cbn [option_map].
    + eexists. split; [reflexivity|]. eapply agree_change; [exact A|reflexivity|reflexivity|now apply change_seen|]. intros y N. exact (change_other _ _ _ _ _ Ex N).
    + eexists. split; [reflexivity|]. apply agree_same; [exact A|discriminate].
  - rewrite <- (A x), <- (A y) by (apply F; cbn; auto). unfold seen at 1 2. destruct (w_env w x) as [o1|] eqn:Ex; cbn [option_map].
    2: { injection E as <- <-. right. eexists. split; [reflexivity|]. apply agree_same; [exact A|discriminate]. }
    destruct (w_env w y) as [o2|] eqn:Ey; cbn [option_map].
    2: { injection E as <- <-. right. eexists. split; [reflexivity|]. apply agree_same; [exact A|discriminate]. }
    destruct (o1 =? o2) eqn:Eo.
    + apply Nat.eqb_eq in Eo. subst o2. destruct (self_add2_madd2 (w_heap w o1) f (oi_wf w I o1) S) as [X|(Q1 & Ne & X)]; rewrite X in E; cbn [finish] in E; injection E as <- <-.
      * right. eexists. split; [reflexivity|]. eapply agree_change; [exact A|reflexivity|reflexivity|now apply change_seen|]. intros z N. exact (change_other _ _ _ _ _ Ex N).
      * left. split; [|reflexivity]. exists x, y, f, (w_heap w o1). split; [reflexivity|]. split; [exists o1; now split|]. split; [exact Q1|]. split; [unfold seen; now rewrite Ex|exact Ne].
    + injection E as <- <-. right. eexists. split; [reflexivity|]. eapply agree_change; [exact A|reflexivity|reflexivity|now apply change_seen|]. intros z N. exact (change_other _ _ _ _ _ Ex N).
  - right. rewrite <- (A x) by (apply F; now left). unfold seen at 1. destruct (w_env w x) as [o1|] eqn:Ex; injection E as <- <-; cbn [option_map].
    + eexists. split; [reflexivity|]. eapply agree_change; [exact A|reflexivity|reflexivity|now apply change_seen|]. intros y N. exact (change_other _ _ _ _ _ Ex N).
    + eexists. split; [reflexivity|]. apply agree_same; [exact A|discriminate].
  - right. unfold arg in *. rewrite <- (A x) by (apply F; cbn; auto). apply finish_cases in E. destruct E as [(a & Ea & E)|[(Ea & -> & ->)|(Ea & -> & ->)]].
    + injection E as <- <-. rewrite Ea. eexists. split; [reflexivity|]. apply agree_same; [exact A|discriminate].
    + rewrite Ea. eexists. split; [reflexivity|]. apply agree_same; [exact A|discriminate].
    + exists v. split; [now destruct Ea as [-> | ->]|]. apply agree_same; [exact A|discriminate].
  - right. unfold arg in *. rewrite <- (A x), <- (A y) by (apply F; cbn; auto). apply finish_cases in E. destruct E as [(a & Ea & E)|[(Ea & -> & ->)|(Ea & -> & ->)]].
    + injection E as <- <-. rewrite Ea. eexists. split; [reflexivity|]. apply agree_same; [exact A|discriminate].
    + rewrite Ea. eexists. split; [reflexivity|]. apply agree_same; [exact A|discriminate].
    + exists v. split; [now destruct Ea as [-> | ->]|]. apply agree_same; [exact A|discriminate].
  - right. unfold arg in *. rewrite <- (A x) by (apply F; cbn; auto). apply finish_cases in E. destruct E as [(a & Ea & E)|[(Ea & -> & ->)|(Ea & -> & ->)]].
    + injection E as <- <-. rewrite Ea. eexists. split; [reflexivity|]. apply agree_same; [exact A|discriminate].
    + rewrite Ea. eexists. split; [reflexivity|]. apply agree_same; [exact A|discriminate].
    + exists v. split; [now destruct Ea as [-> | ->]|]. apply agree_same; [exact A|discriminate].
Qed.

Lemma run_values st w h w' : oprun st w h w' -> forall D v, oinv w -> Forall (fun x => scalars (snd (fst x))) h -> agree D w v -> careful_op D h ->
  exists v', voprun st v (op_events h) v' /\ agree (stale_last D h) w' v'.
Proof.
  induction 1 as [w|w c w1 o h w2 E N R IH]; intros D v I F A C; [exists v; split; [constructor|exact A]|]. inversion F; subst. destruct C as [C1 C2]. cbn [fst snd] in *.
  destruct (step_values st w c w1 o D v I H1 A C1 E) as [(_ & X)|(v1 & E1 & A1)]; [now elim N|]. destruct (IH _ v1 (exec_inv _ _ _ _ _ I H1 E) H2 A1 C2) as (v' & R' & A').
  exists v'. split; [|exact A']. cbn. econstructor; eauto.
Qed.
Lemma value_semantics st h w : oprun st empty_world h w -> Forall (fun x => scalars (snd (fst x))) h -> careful_op (fun _ => False) h ->
  exists v, voprun st (fun _ => None) (op_events h) v /\ (forall x, ~ stale_last (fun _ => False) h x -> seen w x = v x) /\
    forall c w' o, scalars c -> (forall x, In x (op_reads c) -> ~ stale_last (fun _ => False) h x) -> exec_op st w c = (w', o) ->
      (self_cancel w c /\ o = OUndef) \/ exists v', vexec_op st v c = (v', o).
Proof.
  intros R F C. destruct (run_values st _ _ _ R (fun _ => False) (fun _ => None) empty_inv F (fun _ _ => eq_refl) C) as (v & V & A). exists v. split; [exact V|]. split; [exact A|].
  intros c w' o S N E. destruct (step_values st w c w' o _ v (oprun_inv st _ _ _ R F empty_inv) S A N E) as [X|(v' & X & _)]; [now left|right; now exists v'].
Qed.

(** ** What is undefined *)
Lemma undefined st w c w' : oinv w -> scalars c -> exec_op st w c = (w', OUndef) ->
  self_cancel w c \/ (exists z label comps u, c = OLet z (OOp label comps u) /\ (make_op_expr st label comps u = UB \/ make_op_expr st label comps u = NoFuel)) \/
  (exists z x a, c = OLet z (OAdjoint x) /\ seen w x = Some a /\ (opexpr_adjoint st a = UB \/ opexpr_adjoint st a = NoFuel)) \/
  (exists x a, c = OShow x /\ seen w x = Some a /\ (opexpr_str st a = UB \/ opexpr_str st a = NoFuel)).
Proof.
  intros I S E. destruct c as [z e|y x|x|x p q|x y f|x|x|x y|x]; cbn [exec_op] in E.
  - apply finish_cases in E. destruct E as [(a & _ & E)|[(_ & _ & X)|(U & _)]]; try discriminate.
    assert (G : forall x, arg (seen w) x = Throw \/ exists a, arg (seen w) x = Ok a /\ seen w x = Some a) by (intros x; unfold arg; destruct (seen w x); eauto).
    destruct e as [|x|l q|lab comps u|x y|x y|x y|x|xs|x y n]; cbn [eval_op] in U.
    + destruct U; discriminate.
    + destruct (G x) as [X|(a & X & _)]; rewrite X in U; destruct U; discriminate.
    + destruct U; discriminate.
    + right. left. now exists z, lab, comps, u.
    + destruct (G x) as [X|(a & X & _)]; rewrite X in U; [destruct U; discriminate|]. destruct (G y) as [Y|(b & Y & _)]; rewrite Y in U; destruct U; discriminate.
    + destruct (G x) as [X|(a & X & _)]; rewrite X in U; [destruct U; discriminate|]. destruct (G y) as [Y|(b & Y & _)]; rewrite Y in U; destruct U; discriminate.
    + destruct (G x) as [X|(a & X & _)]; rewrite X in U; [destruct U; discriminate|]. destruct (G y) as [Y|(b & Y & _)]; rewrite Y in U; [destruct U; discriminate|]. cbn [bind] in U.
      destruct (mprod_ok oprod_ltb oprod_mul a b) as (r & X'); [intros; eexists; reflexivity|]. rewrite X' in U. destruct U; discriminate.
    + destruct (G x) as [X|(a & X & Sx)]; rewrite X in U; [destruct U; discriminate|]. right. right. left. exists z, x, a. now repeat split.
    + assert (M : mapM (arg (seen w)) xs = Throw \/ exists l, mapM (arg (seen w)) xs = Ok l).
      { clear U S. induction xs as [|x xs IH]; cbn [mapM]; [right; eauto|]. destruct (G x) as [X|(a & X & _)]; rewrite X; [cbn [bind]; now left|]. cbn [bind]. destruct IH as [-> |(l & ->)]; [cbn; now left|cbn; right; eauto]. }
      destruct M as [M|(l & M)]; rewrite M in U; [destruct U; discriminate|]. cbn [bind] in U. destruct l as [|a l]; cbn [commutator_args] in U; [destruct U; discriminate|]. destruct (commutators_ok l a) as (r & X). rewrite X in U. destruct U; discriminate.
    + destruct (G x) as [X|(a & X & _)]; rewrite X in U; [destruct U; discriminate|]. destruct (G y) as [Y|(b & Y & _)]; rewrite Y in U; [destruct U; discriminate|]. cbn [bind] in U.
      unfold bch_series in U. destruct (bch_loop_ok (Z.to_nat n) 1 a b (mplus oprod_ltb [] a)) as (r & X'). rewrite X' in U. destruct U; discriminate.
  - destruct (w_env w x); discriminate.
  - destruct (w_env w x); discriminate.
  - destruct (w_env w x); discriminate.
  - destruct (w_env w x) as [o1|] eqn:Ex; [|discriminate]. destruct (w_env w y) as [o2|] eqn:Ey; [|discriminate]. destruct (o1 =? o2) eqn:Eo; [|discriminate]. apply Nat.eqb_eq in Eo. subst o2.
    destruct (self_add2_madd2 (w_heap w o1) f (oi_wf w I o1) S) as [X|(Q1 & Ne & X)]; rewrite X in E; [discriminate|]. left. exists x, y, f, (w_heap w o1). split; [reflexivity|]. split; [exists o1; now split|]. split; [exact Q1|]. split; [unfold seen; now rewrite Ex|exact Ne].
  - destruct (w_env w x); discriminate.
  - apply finish_cases in E. destruct E as [(a & _ & E)|[(_ & _ & X)|(U & _)]]; try discriminate. right. right. right. unfold arg in U. destruct (seen w x) as [a|] eqn:Sx; [|destruct U; discriminate]. exists x, a. now repeat split.
  - apply finish_cases in E. destruct E as [(a & _ & E)|[(_ & _ & X)|(U & _)]]; try discriminate. unfold arg in U. destruct (seen w x); [|destruct U; discriminate]. destruct (seen w y); destruct U; discriminate.
  - apply finish_cases in E. destruct E as [(a & _ & E)|[(_ & _ & X)|(U & _)]]; try discriminate. unfold arg in U. destruct (seen w x); destruct U; discriminate.
Qed.
Lemma cancel_undefined st w c : oinv w -> scalars c -> self_cancel w c -> exec_op st w c = (w, OUndef).
Proof.
  intros I S (x & y & f & a & -> & (o & Ex & Ey) & Q1 & Sx & Ne). cbn [exec_op]. rewrite Ex, Ey, Nat.eqb_refl. unfold seen in Sx. rewrite Ex in Sx. injection Sx as <-.
  rewrite (self_add2_kill _ _ swo_oprod f (w_heap w o)); auto. apply (oi_wf w I).
Qed.

(** ** Sharing *)
Lemma alias_changes st w x y c a w1 w2 o1 o2 : oinv w -> scalars c -> x <> y -> seen w x = Some a -> op_changes c = [y] -> exec_op st w (OAlias y x) = (w1, o1) -> exec_op st w1 c = (w2, o2) -> o1 = ODone /\ seen w2 x = seen w2 y.
Proof.
  intros I S N Sx C E1 E2. cbn [exec_op] in E1. unfold seen in Sx. destruct (w_env w x) as [o|] eqn:Ex; [|discriminate]. injection E1 as <- <-. split; [reflexivity|].
  assert (H : w_env w2 = put (w_env w) y (Some o)).
  { destruct c as [z e|z u|u|u p q|u z f|u|u|u z|u]; cbn [op_changes] in C; try discriminate; injection C as ->; cbn [exec_op] in E2; cbn [w_env] in E2; rewrite put_same in E2.
    - now injection E2 as <- _.
    - destruct (put (w_env w) y (Some o) z) as [o'|]; [|now injection E2 as <- _]. destruct (o =? o'); [|now injection E2 as <- _]. apply finish_cases in E2. destruct E2 as [(b & _ & E2)|[(_ & -> & _)|(_ & -> & _)]]; auto. now injection E2 as <- _.
    - now injection E2 as <- _. }
  unfold seen. rewrite H, put_same, put_other by auto. now rewrite Ex.
Qed.
Lemma alias_add st w x y p q a w1 w2 o1 o2 : oinv w -> canonical q -> x <> y -> seen w x = Some a -> exec_op st w (OAlias y x) = (w1, o1) -> exec_op st w1 (OAddTerm y p q) = (w2, o2) ->
  exists b, seen w2 x = Some b /\ seen w2 y = Some b /\ forall k, (coef oprod_eqb b k == coef oprod_eqb a k + (if oprod_eqb p k then Qval q else 0))%Q.
Proof.
  intros I C N Sx E1 E2. assert (W := seen_wf _ _ _ I Sx). cbn [exec_op] in E1. unfold seen in Sx. destruct (w_env w x) as [o|] eqn:Ex; [|discriminate]. injection E1 as <- <-. injection Sx as <-.
  cbn [exec_op w_env w_heap] in E2. rewrite put_same in E2. injection E2 as <- <-. exists (madd oprod_ltb p q (w_heap w o)). unfold seen. cbn. rewrite put_same, put_other by auto. rewrite Ex. cbn. rewrite put_same. split; [reflexivity|]. split; [reflexivity|].
  intros k. assert (X := lsum_addall _ _ swo_oprod (fun _ => True) (fun x : oprod * rational => fst x) snd (ind oprod_eqb k) [(p, q)] (w_heap w o)). cbn [fold_left fold_right fst snd] in X. unfold coef. rewrite X.
  - unfold ind. destruct (oprod_eqb p k); ring.
  - intros a b _ _ E. apply oprod_eqb_eq in E. now subst.
  - repeat constructor.
  - apply Forall_forall. auto.
  - constructor; [now apply cden'|constructor].
  - apply mcanon_good. exact (wf_mc _ W).
Qed.
Lemma cancel_zero st w x y f a : oinv w -> canonical f -> same_object w x y -> (Qval f == -1)%Q -> seen w x = Some a -> a <> [] -> exec_op st w (OAdd2 x y f) = (w, OUndef) /\ madd2 oprod_ltb a a f = [].
Proof.
  intros I C SO Q1 Sx Ne. split; [apply cancel_undefined; auto; now exists x, y, f, a|]. assert (W := seen_wf _ _ _ I Sx). apply wf_coef_eq; [now apply add2_wf|apply wf_nil|]. intros k. rewrite add2_coef by auto. rewrite Q1. unfold coef at 3. cbn. ring.
Qed.
