(** C79: when the constants are valid, nothing but [x.add2(y, -1)] on one object is undefined. *)
From Coq Require Import ZArith QArith List Bool Arith Lia.
From Verif Require Import Res RationalModel RationalSpec RationalProofs RegistryModel RegistryProofs CoreModel AlgebraModel AlgebraSpec AlgebraProofs AlgebraProofs2 OrderProofs AliasModel AliasProofs
  OperatorModel OperatorSpec OperatorProofs OperatorProofs2 AdjointProofs OpTextModel OpTextSpec OpTextProofs PyOpModel PyOpSpec PyOpProofs PyOpProofs2.
Import ListNotations.
Local Open Scope nat_scope.

Section Defined.
  Context (st : osi) (R : reachable st) (LT : lettered st).
  Local Notation VAL := (opexpr_valid st).
  Local Notation WF := (wf oprod_ltb).
  Lemma nmax : (nsp st <= max_spaces)%nat.
  Proof. exact (proj1 LT). Qed.
  Lemma foldM_val {X} (f : opexpr -> X -> res opexpr) (l : list X) : (forall r x r', In x l -> VAL r -> f r x = Ok r' -> VAL r') -> forall r r', VAL r -> foldM f r l = Ok r' -> VAL r'.
  Proof.
    induction l as [|x l IH]; intros P r r' W E; cbn [foldM] in E; [now injection E as <-|].
    destruct (f r x) as [r1| | |] eqn:E1; cbn [bind] in E; try discriminate. apply (IH (fun r x r' I => P r x r' (or_intror I)) r1 r'); [|exact E]. apply (P r x r1); auto. now left.
  Qed.
  Lemma madd_val p q m : oprod_valid st p -> VAL m -> VAL (madd oprod_ltb p q m).
  Proof. intros. now apply keysP_madd. Qed.
  Lemma addall_val {X} (fk : X -> oprod) fc l m : Forall (fun x => oprod_valid st (fk x)) l -> VAL m -> VAL (fold_left (fun r x => madd oprod_ltb (fk x) (fc x) r) l m).
  Proof. intros F. revert m. induction F; intros m V; cbn [fold_left]; [exact V|]. apply IHF. now apply madd_val. Qed.
  Lemma nil_val : VAL [].
  Proof. constructor. Qed.
  Lemma comm_val a b r : WF a -> WF b -> VAL a -> VAL b -> op_commutator a b = Ok r -> VAL r.
  Proof.
    intros A B VA VB E. unfold op_commutator in E. destruct (mprod _ _ a b) as [ab| | |] eqn:E1; cbn [bind] in E; try discriminate. destruct (mprod _ _ b a) as [ba| | |] eqn:E2; cbn [bind] in E; try discriminate. injection E as <-.
    apply addall_val; [apply (opexpr_valid_prod st b a ba VB VA E2)|apply (opexpr_valid_prod st a b ab VA VB E1)]; apply mcanon_good, wf_mc; assumption.
  Qed.
  Lemma swaps_val p s p' : com_swaps st p s p' -> oprod_valid st p -> oprod_valid st p'.
  Proof. induction 1; intros V; unfold oprod_valid in *; [exact V|]. apply IHcom_swaps. rewrite Forall_app in *. destruct V as (V1 & V2). split; [exact V1|]. inversion V2 as [|? ? A V3]; subst. inversion V3; subst. constructor; [assumption|constructor; assumption]. Qed.
  Lemma canon_val a : VAL a -> VAL (opexpr_canonicalize st a).
  Proof.
    intros V. unfold opexpr_canonicalize. generalize nil_val. generalize (@nil (oprod * rational)). induction V as [|x a Vx V IH]; intros m M; cbn [fold_left]; [exact M|]. apply IH.
    destruct (oprod_canonicalize st (fst x)) as [p s] eqn:E. apply madd_val; [|exact M]. exact (swaps_val _ _ _ (canonicalize_swaps _ _ _ _ E) Vx).
  Qed.
  Lemma adjoint_val a : VAL a -> exists r, opexpr_adjoint st a = Ok r /\ VAL r.
  Proof.
    intros V. assert (E := opexpr_adjoint_ok st a nmax V). eexists. split; [exact E|]. revert E. unfold opexpr_adjoint. apply foldM_val; [|apply nil_val]. intros r x r' I Vr Ex.
    unfold opexpr_valid, keysP in V. rewrite Forall_forall in V. destruct (oprod_adjoint_ok st (fst x) nmax (V x I)) as (X & Vp). rewrite X in Ex. cbn [bind] in Ex. injection Ex as <-. now apply madd_val.
  Qed.
  Lemma component_val label s : component_op st label s = Throw \/ exists o, component_op st label s = Ok o /\ op_valid st o.
  Proof.
    destruct (known_dec st s) as [K|K]; [|left; exact (component_op_throw st label s (reachable_ok st R) K)]. right. destruct (component_op_spec st label s (reachable_ok st R) nmax K) as (o & E & _ & V & _). now exists o.
  Qed.
  Lemma op_val label u comps : forall m, VAL m ->
    let r := foldM (fun r s => bind (component_op st label s) (fun o => if u && mcontains oprod_ltb [o] r then Ok r else Ok (madd oprod_ltb [o] (rat_make 1 1) r))) m comps in r = Throw \/ exists a, r = Ok a /\ VAL a.
  Proof.
    induction comps as [|s comps IH]; intros m V; cbn [foldM]; cbv zeta; [right; now exists m|]. destruct (component_val label s) as [E|(o & E & Vo)]; rewrite E; cbn [bind]; [now left|].
    destruct (u && mcontains oprod_ltb [o] m); cbn [bind]; apply IH; [exact V|]. apply madd_val; [|exact V]. now constructor.
  Qed.
  Lemma str_ok a : VAL a -> exists t, opexpr_str st a = Ok t.
  Proof.
    intros V. unfold opexpr_str. assert (X : exists l, mapM (line_str st) a = Ok l); [|destruct X as (l & ->); eexists; reflexivity].
    induction V as [|x a Vx V IH]; cbn [mapM]; [eexists; reflexivity|]. destruct IH as (l & ->). unfold line_str. assert (Y : exists k, mapM (op_str st) (fst x) = Ok k); [|destruct Y as (k & ->); eexists; reflexivity].
    clear -Vx R LT. induction Vx as [|o p Vo Vp IH]; cbn [mapM]; [eexists; reflexivity|]. rewrite (op_str_ok st LT o Vo). destruct IH as (k & ->). eexists; reflexivity.
  Qed.
  Lemma bch_val n : forall k t b r r', (0 < k)%Z -> WF t -> WF b -> VAL t -> VAL b -> VAL r -> bch_loop n k t b r = Ok r' -> VAL r'.
  Proof.
    induction n as [|n IH]; intros k t b r r' L T B VT VB VR E; cbn [bch_loop] in E; [now injection E as <-|]. destruct (op_commutator t b) as [c| | |] eqn:Ec; cbn [bind] in E; try discriminate. cbv zeta in E.
    assert (VC := comm_val _ _ _ T B VT VB Ec). assert (WC := commutator_wf _ _ _ T B Ec). assert (VS : VAL (mscale c (rat_make 1 k))) by (apply keysP_mscale; exact VC). destruct (inv_k k L) as (Ck & Nk).
    eapply IH; [..|exact E]; [lia|now apply wf_mscale|exact B|exact VS|exact VB|]. apply addall_val; [exact VS|exact VR].
  Qed.
  Lemma eval_val r e a : (forall x b, r x = Some b -> WF b /\ VAL b) -> (forall l q, e = OMade l q -> Forall (oprod_valid st) l) -> eval_op st r e = Ok a -> VAL a.
  Proof.
    intros G S E. assert (GW : forall x b, r x = Some b -> WF b) by (intros x b X; apply (G x b X)). assert (GV : forall x b, r x = Some b -> VAL b) by (intros x b X; apply (G x b X)).
    destruct e as [|x|l q|lab comps u|x y|x y|x y|x|xs|x y n]; cbn [eval_op] in E.
    - injection E as <-. apply nil_val.
    - apply arg_ok in E. eauto.
    - injection E as <-. apply (addall_val (fun p => p) (fun _ => q)); [exact (S _ _ eq_refl)|apply nil_val].
    - destruct (op_val lab u comps [] nil_val) as [X|(b & X & V)]; unfold make_op_expr in E; rewrite X in E; [discriminate|]. now injection E as <-.
    - destruct (arg r x) as [b| | |] eqn:Ex; cbn [bind] in E; try discriminate. destruct (arg r y) as [c| | |] eqn:Ey; cbn [bind] in E; try discriminate. apply arg_ok in Ex, Ey. injection E as <-. apply addall_val; [exact (GV _ _ Ey)|exact (GV _ _ Ex)].
    - destruct (arg r x) as [b| | |] eqn:Ex; cbn [bind] in E; try discriminate. destruct (arg r y) as [c| | |] eqn:Ey; cbn [bind] in E; try discriminate. apply arg_ok in Ex, Ey. injection E as <-. apply addall_val; [exact (GV _ _ Ey)|exact (GV _ _ Ex)].
    - destruct (arg r x) as [b| | |] eqn:Ex; cbn [bind] in E; try discriminate. destruct (arg r y) as [c| | |] eqn:Ey; cbn [bind] in E; try discriminate. apply arg_ok in Ex, Ey.
      apply (opexpr_valid_prod st b c a (GV _ _ Ex) (GV _ _ Ey) E); apply mcanon_good, wf_mc; eauto.
    - destruct (arg r x) as [b| | |] eqn:Ex; cbn [bind] in E; try discriminate. apply arg_ok in Ex. destruct (adjoint_val b (GV _ _ Ex)) as (c & X & V). rewrite X in E. now injection E as <-.
    - destruct (mapM (arg r) xs) as [l| | |] eqn:El; cbn [bind] in E; try discriminate. apply args_ok in El. assert (F : Forall (fun b => WF b /\ VAL b) l). { clear E S. induction El as [|x b xs l Hx _ IH]; constructor; [exact (G _ _ Hx)|exact IH]. }
      destruct F as [|b l (Wb & Vb) F]; cbn [commutator_args] in E; [injection E as <-; apply nil_val|]. clear El S. revert b Wb Vb E. induction F as [|c l (Wc & Vc) F IH]; intros b Wb Vb E; cbn [foldM] in E; [now injection E as <-|].
      destruct (op_commutator b c) as [d| | |] eqn:Ed; cbn [bind] in E; try discriminate. apply (IH d); [exact (commutator_wf _ _ _ Wb Wc Ed)|exact (comm_val _ _ _ Wb Wc Vb Vc Ed)|exact E].
    - destruct (arg r x) as [b| | |] eqn:Ex; cbn [bind] in E; try discriminate. destruct (arg r y) as [c| | |] eqn:Ey; cbn [bind] in E; try discriminate. apply arg_ok in Ex, Ey. unfold bch_series in E.
      eapply bch_val; [..|exact E]; [lia|eauto..|]. apply addall_val; [exact (GV _ _ Ex)|apply nil_val].
  Qed.
  Definition all_valid (w : world) : Prop := forall o, VAL (w_heap w o).
  Lemma seen_valid w x a : all_valid w -> seen w x = Some a -> VAL a.
  Proof. intros V. unfold seen. destruct (w_env w x) as [o|]; cbn; [intros [= <-]; apply V|discriminate]. Qed.
  Lemma put_valid w o a e n : all_valid w -> VAL a -> all_valid (mkW (put (w_heap w) o a) n e).
  Proof. intros V A o'. cbn. unfold put. destruct (o =? o'); [exact A|apply V]. Qed.
  Lemma exec_valid w c w' o : oinv w -> all_valid w -> scalars c -> products st c -> exec_op st w c = (w', o) -> all_valid w'.
  Proof.
    intros I V S P E. destruct c as [z e|y x|x|x p q|x y f|x|x|x y|x]; cbn [exec_op] in E.
    - apply finish_cases in E. destruct E as [(a & Ea & E)|[(_ & -> & _)|(_ & -> & _)]]; auto. injection E as <- <-. apply put_valid; [exact V|].
      eapply eval_val; [..|exact Ea]; [intros x b X; split; [exact (seen_wf _ _ _ I X)|exact (seen_valid _ _ _ V X)]|]. intros l q ->. exact P.
    - destruct (w_env w x) as [o1|] eqn:Ex; injection E as <- <-; auto.
    - destruct (w_env w x) as [o1|] eqn:Ex; injection E as <- <-; auto.
    - destruct (w_env w x) as [o1|] eqn:Ex; injection E as <- <-; auto. apply put_valid; [exact V|]. apply madd_val; [exact P|apply V].
    - destruct (w_env w x) as [o1|] eqn:Ex; [|injection E as <- <-; auto]. destruct (w_env w y) as [o2|] eqn:Ey; [|injection E as <- <-; auto]. destruct (o1 =? o2).
      + apply finish_cases in E. destruct E as [(a & Ea & E)|[(_ & -> & _)|(_ & -> & _)]]; auto. injection E as <- <-. apply put_valid; [exact V|].
        destruct (self_add2_madd2 (w_heap w o1) f (oi_wf w I o1) S) as [X|(_ & _ & X)]; rewrite X in Ea; [|discriminate]. injection Ea as <-. apply (addall_val fst (fun x => rat_mul f (snd x))); [apply V|apply V].
      + injection E as <- <-. apply put_valid; [exact V|]. apply (addall_val fst (fun x => rat_mul f (snd x))); [apply V|apply V].
    - destruct (w_env w x) as [o1|] eqn:Ex; injection E as <- <-; auto. apply put_valid; [exact V|]. apply canon_val. apply V.
    - apply finish_cases in E. destruct E as [(a & Ea & E)|[(_ & -> & _)|(_ & -> & _)]]; auto. now injection E as <- _.
    - apply finish_cases in E. destruct E as [(a & Ea & E)|[(_ & -> & _)|(_ & -> & _)]]; auto. now injection E as <- _.
    - apply finish_cases in E. destruct E as [(a & Ea & E)|[(_ & -> & _)|(_ & -> & _)]]; auto. now injection E as <- _.
  Qed.
  Lemma run_valid w h w' : oprun st w h w' -> Forall (fun x => scalars (snd (fst x)) /\ products st (snd (fst x))) h -> oinv w -> all_valid w -> oinv w' /\ all_valid w'.
  Proof.
    induction 1 as [w|w c w1 o h w2 E N Rn IH]; intros F I V; [now split|]. inversion F as [|? ? (S & P) F']; subst. cbn [fst snd] in *. apply IH; [exact F'| |]; [eapply exec_inv|eapply exec_valid]; eauto.
  Qed.
  Lemma only_cancel h w c w' : oprun st empty_world h w -> Forall (fun x => scalars (snd (fst x)) /\ products st (snd (fst x))) h -> scalars c -> exec_op st w c = (w', OUndef) -> self_cancel w c.
  Proof.
    intros Rn F S E. destruct (run_valid _ _ _ Rn F empty_inv (fun _ => nil_val)) as (I & V).
    destruct (undefined st w c w' I S E) as [X|[(z & lab & comps & u & -> & X)|[(z & x & a & -> & Sx & X)|(x & a & -> & Sx & X)]]]; [exact X|exfalso..].
    - destruct (op_val lab u comps [] nil_val) as [Y|(b & Y & _)]; unfold make_op_expr in X; rewrite Y in X; destruct X; discriminate.
    - destruct (adjoint_val a (seen_valid _ _ _ V Sx)) as (r & Y & _). rewrite Y in X. destruct X; discriminate.
    - destruct (str_ok a (seen_valid _ _ _ V Sx)) as (r & Y). rewrite Y in X. destruct X; discriminate.
  Qed.
  Lemma shows_valid h w x a : oprun st empty_world h w -> Forall (fun x => scalars (snd (fst x)) /\ products st (snd (fst x))) h -> seen w x = Some a -> opexpr_valid st a.
  Proof. intros Rn F Sx. destruct (run_valid _ _ _ Rn F empty_inv (fun _ => nil_val)) as (_ & V). exact (seen_valid _ _ _ V Sx). Qed.
End Defined.
