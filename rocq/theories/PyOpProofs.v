(** C79: proofs. *)
From Coq Require Import ZArith QArith List Bool Arith Lia.
From Verif Require Import Res RationalModel RationalSpec RationalProofs RegistryModel CoreModel AlgebraModel AlgebraSpec AlgebraProofs AlgebraProofs2 OrderProofs AliasModel AliasProofs OperatorModel OpTextModel PyOpModel PyOpSpec.
Import ListNotations.
Local Open Scope nat_scope.

Local Notation WF := (wf oprod_ltb).
Local Notation swo := swo_oprod.

(** ** Every result is well formed *)
Lemma wf_mc (m : opexpr) : WF m -> mcanon m.
Proof. intros (_ & C & _). exact C. Qed.
Lemma foldM_wf {X} (f : opexpr -> X -> res opexpr) (l : list X) : (forall r x r', In x l -> WF r -> f r x = Ok r' -> WF r') -> forall r r', WF r -> foldM f r l = Ok r' -> WF r'.
Proof.
  induction l as [|x l IH]; intros P r r' W E; cbn [foldM] in E; [now injection E as <-|].
  destruct (f r x) as [r1| | |] eqn:E1; cbn [bind] in E; try discriminate. apply (IH (fun r x r' I => P r x r' (or_intror I)) r1 r'); [|exact E]. apply (P r x r1); auto. now left.
Qed.
Lemma adjoint_wf st (a r : opexpr) : WF a -> opexpr_adjoint st a = Ok r -> WF r.
Proof.
  intros W E. apply wf_mc in W. unfold mcanon in W. rewrite Forall_forall in W. revert E. apply foldM_wf; [|apply wf_nil]. intros r0 x r1 I W0 E.
  destruct (oprod_adjoint st (fst x)) as [p| | |]; cbn [bind] in E; try discriminate. injection E as <-. apply (wf_madd _ _ swo); [now apply W|exact W0].
Qed.
Lemma canon_wf st (a : opexpr) : WF a -> WF (opexpr_canonicalize st a).
Proof.
  intros W. apply wf_mc in W. unfold opexpr_canonicalize. assert (N : WF []) by apply wf_nil. revert N. generalize (@nil (oprod * rational)). induction W as [|x a C F IH]; intros r N; cbn [fold_left]; [exact N|].
  apply IH. destruct (oprod_canonicalize st (fst x)) as [p s]. apply (wf_madd _ _ swo); [|exact N]. apply rat_mul_canonical; [apply rat_of_Z_canonical|exact C].
Qed.
Lemma commutator_wf (a b r : opexpr) : WF a -> WF b -> op_commutator a b = Ok r -> WF r.
Proof.
  intros A B E. unfold op_commutator in E. destruct (mprod _ _ a b) as [ab| | |] eqn:E1; cbn [bind] in E; try discriminate. destruct (mprod _ _ b a) as [ba| | |] eqn:E2; cbn [bind] in E; try discriminate.
  injection E as <-. apply (wf_mminus _ _ swo); [|apply wf_mc]; [eapply (wf_mprod _ _ swo); [..|exact E1]|eapply (wf_mprod _ _ swo); [..|exact E2]]; now apply wf_mc.
Qed.
Lemma commutator_ok (a b : opexpr) : exists r, op_commutator a b = Ok r.
Proof.
  unfold op_commutator. destruct (mprod_ok oprod_ltb oprod_mul a b) as (r1 & ->); [intros; eexists; reflexivity|]. destruct (mprod_ok oprod_ltb oprod_mul b a) as (r2 & ->); [intros; eexists; reflexivity|].
  cbn [bind]. eexists; reflexivity.
Qed.
Lemma commutators_ok l : forall a : opexpr, exists r, foldM op_commutator a l = Ok r.
Proof. induction l as [|b l IH]; intros a; cbn [foldM]; [eexists; reflexivity|]. destruct (commutator_ok a b) as (r & ->). cbn [bind]. apply IH. Qed.
Lemma bch_loop_ok n : forall k t b r, exists r', bch_loop n k t b r = Ok r'.
Proof. induction n as [|n IH]; intros k t b r; cbn [bch_loop]; [eexists; reflexivity|]. destruct (commutator_ok t b) as (c & ->). cbn [bind]. cbv zeta. apply IH. Qed.
Lemma inv_k k : (0 < k)%Z -> canonical (rat_make 1 k) /\ ~ (Qval (rat_make 1 k) == 0)%Q.
Proof.
  intros L. split; [apply rat_make_canonical; lia|]. rewrite rat_make_val by lia. intros E. assert (D : ~ (inject_Z k == 0)%Q). { intros X. unfold Qeq in X. cbn in X. lia. }
  assert (X : (inject_Z 1 == 0)%Q). { setoid_replace (inject_Z 1) with (inject_Z 1 / inject_Z k * inject_Z k)%Q by (field; exact D). rewrite E. ring. } discriminate.
Qed.
Lemma bch_loop_wf n : forall k t b r r', (0 < k)%Z -> WF t -> WF b -> WF r -> bch_loop n k t b r = Ok r' -> WF r'.
Proof.
  induction n as [|n IH]; intros k t b r r' L T B R E; cbn [bch_loop] in E; [now injection E as <-|]. destruct (op_commutator t b) as [c| | |] eqn:Ec; cbn [bind] in E; try discriminate. cbv zeta in E.
  destruct (inv_k k L) as (Ck & Nk). assert (X : WF (mscale c (rat_make 1 k))) by (apply wf_mscale; [exact (commutator_wf _ _ _ T B Ec)|exact Ck|exact Nk]).
  eapply IH; [..|exact E]; [lia|exact X|exact B|]. apply (wf_mplus _ _ swo); [exact R|now apply wf_mc].
Qed.
Lemma arg_ok r x a : arg r x = Ok a -> r x = Some a.
Proof. unfold arg. destruct (r x); [now intros [= ->]|discriminate]. Qed.
Lemma args_ok r xs l : mapM (arg r) xs = Ok l -> Forall2 (fun x a => r x = Some a) xs l.
Proof.
  revert l. induction xs as [|x xs IH]; intros l E; cbn [mapM] in E; [injection E as <-; constructor|]. destruct (arg r x) as [a| | |] eqn:Ea; cbn [bind] in E; try discriminate.
  destruct (mapM (arg r) xs) as [l'| | |]; cbn [bind] in E; try discriminate. injection E as <-. constructor; [now apply arg_ok|now apply IH].
Qed.
Lemma eval_wf st r e a : (forall x b, r x = Some b -> WF b) -> (forall l q, e = OMade l q -> canonical q) -> eval_op st r e = Ok a -> WF a.
Proof.
  intros R S E. destruct e as [|x|l q|lab comps u|x y|x y|x y|x|xs|x y n]; cbn [eval_op] in E.
  - injection E as <-. apply wf_nil.
  - apply arg_ok in E. eauto.
  - injection E as <-. apply (wf_addall _ _ swo (fun p : oprod => p) (fun _ => q)); [|apply wf_nil]. apply Forall_forall. intros ? _. exact (S _ _ eq_refl).
  - revert E. apply foldM_wf; [|apply wf_nil]. intros r0 s r1 _ W0 E. destruct (component_op st lab s) as [o| | |]; cbn [bind] in E; try discriminate.
    destruct (u && mcontains oprod_ltb [o] r0); injection E as <-; [exact W0|]. apply (wf_madd _ _ swo); [apply rat_make_canonical; lia|exact W0].
  - destruct (arg r x) as [b| | |] eqn:Ex; cbn [bind] in E; try discriminate. destruct (arg r y) as [c| | |] eqn:Ey; cbn [bind] in E; try discriminate. apply arg_ok in Ex, Ey. injection E as <-. apply (wf_mplus _ _ swo); [eauto|apply wf_mc; eauto].
  - destruct (arg r x) as [b| | |] eqn:Ex; cbn [bind] in E; try discriminate. destruct (arg r y) as [c| | |] eqn:Ey; cbn [bind] in E; try discriminate. apply arg_ok in Ex, Ey. injection E as <-. apply (wf_mminus _ _ swo); [eauto|apply wf_mc; eauto].
  - destruct (arg r x) as [b| | |] eqn:Ex; cbn [bind] in E; try discriminate. destruct (arg r y) as [c| | |] eqn:Ey; cbn [bind] in E; try discriminate. apply arg_ok in Ex, Ey. eapply (wf_mprod _ _ swo); [..|exact E]; apply wf_mc; eauto.
  - destruct (arg r x) as [b| | |] eqn:Ex; cbn [bind] in E; try discriminate. apply arg_ok in Ex. eapply adjoint_wf; [|exact E]. eauto.
  - destruct (mapM (arg r) xs) as [l| | |] eqn:El; cbn [bind] in E; try discriminate. apply args_ok in El. assert (F : Forall WF l). { clear E S. induction El as [|x b xs l Hx _ IH]; constructor; [exact (R _ _ Hx)|exact IH]. }
    destruct F as [|b l B F]; cbn [commutator_args] in E; [injection E as <-; apply wf_nil|]. revert E. apply foldM_wf; [|exact B]. intros r0 c r1 I W0. apply commutator_wf; [exact W0|]. rewrite Forall_forall in F. now apply F.
  - destruct (arg r x) as [b| | |] eqn:Ex; cbn [bind] in E; try discriminate. destruct (arg r y) as [c| | |] eqn:Ey; cbn [bind] in E; try discriminate. apply arg_ok in Ex, Ey. unfold bch_series in E.
    eapply bch_loop_wf; [..|exact E]; [lia|eauto|eauto|]. apply (wf_mplus _ _ swo); [apply wf_nil|apply wf_mc; eauto].
Qed.

(** ** [add2] of an object with itself *)
Lemma wf_coef_eq (a b : opexpr) : WF a -> WF b -> (forall k, (coef oprod_eqb a k == coef oprod_eqb b k)%Q) -> a = b.
Proof.
  intros A B E. apply (mequal_coef _ _ swo a b A B) in E. apply wf_mc in A, B. unfold mequal in E. revert b B E. induction A as [|[k c] a C A IH]; intros [|[k' c'] b] B E; cbn in E; try discriminate; [reflexivity|].
  inversion B; subst. apply andb_true_iff in E. destruct E as [E1 E2]. apply andb_true_iff in E1. destruct E1 as [Ek Ec]. cbn in Ek, Ec, C. apply oprod_eqb_eq in Ek. apply rat_eqb_eq in Ec; auto. subst. f_equal. now apply IH.
Qed.
Lemma add2_wf (a b : opexpr) f : WF a -> WF b -> canonical f -> WF (madd2 oprod_ltb a b f).
Proof. intros A B C. apply (wf_addall _ _ swo fst (fun x => rat_mul f (snd x))); [|exact A]. apply wf_mc in B. revert B. apply Forall_impl. intros x X. now apply rat_mul_canonical. Qed.
Lemma cden' r : canonical r -> den r <> 0%Z.
Proof. intros (L & _). lia. Qed.
Lemma add2_coef (a b : opexpr) f k : WF a -> WF b -> canonical f -> (coef oprod_eqb (madd2 oprod_ltb a b f) k == coef oprod_eqb a k + Qval f * coef oprod_eqb b k)%Q.
Proof.
  intros A B C. unfold coef, madd2. pose proof (mcanon_good _ (wf_mc _ A)) as GA. pose proof (wf_mc _ B) as GB.
  rewrite (lsum_addall _ _ swo (fun _ => True) fst (fun x => rat_mul f (snd x))).
  - assert (X : (fold_right (fun x s => Qval (rat_mul f (snd x)) * ind oprod_eqb k (fst x) + s) 0 b == Qval f * lsum (ind oprod_eqb k) b)%Q); [|now rewrite X].
    clear -GB C. induction GB as [|x b X GB IH]; cbn [fold_right lsum]; [ring|]. rewrite IH, rat_mul_val by auto using cden'. unfold lsum. ring.
  - intros x y _ _ E. apply oprod_eqb_eq in E. now subst.
  - apply Forall_forall. auto.
  - apply Forall_forall. auto.
  - revert GB. apply Forall_impl. intros x X. apply cden', rat_mul_canonical; assumption.
  - exact GA.
Qed.
Lemma self_add2_madd2 (a : opexpr) f : WF a -> canonical f ->
  self_add2 oprod_ltb f (length a) a = Ok (madd2 oprod_ltb a a f) \/ ((Qval f == -1)%Q /\ a <> [] /\ self_add2 oprod_ltb f (length a) a = UB).
Proof.
  intros W C. destruct (Qeq_dec (Qval f) (-1)) as [E|N].
  - destruct a as [|x a]; [left; reflexivity|]. right. split; [exact E|]. split; [discriminate|]. apply (self_add2_kill _ _ swo); auto. discriminate.
  - left. rewrite (self_scale _ _ swo) by auto. f_equal. assert (C1 := rat_of_Z_canonical 1). assert (V : (Qval (rat_add (rat_of_Z 1) f) == 1 + Qval f)%Q) by (rewrite rat_add_val by auto using cden'; reflexivity).
    apply wf_coef_eq.
    + apply wf_mscale; [exact W|now apply rat_add_canonical|]. rewrite V. intros X. apply N. setoid_replace (Qval f) with (1 + Qval f - 1)%Q by ring. rewrite X. reflexivity.
    + now apply add2_wf.
    + intros k. rewrite (scale_coef oprod_ltb oprod_eqb a (rat_add (rat_of_Z 1) f) k W (rat_add_canonical _ _ C1 C)), (add2_coef a a f k W W C), V. ring.
Qed.

(** ** The invariant *)
Record oinv (w : world) : Prop := { oi_env : forall x o, w_env w x = Some o -> o < w_next w; oi_wf : forall o, WF (w_heap w o) }.
Lemma put_same {A} (f : nat -> A) x a : put f x a x = a.
Proof. unfold put. now rewrite Nat.eqb_refl. Qed.
Lemma put_other {A} (f : nat -> A) x y a : x <> y -> put f x a y = f y.
Proof. intros N. unfold put. apply Nat.eqb_neq in N. now rewrite N. Qed.
Lemma seen_wf w x a : oinv w -> seen w x = Some a -> WF a.
Proof. intros I. unfold seen. destruct (w_env w x) as [o|]; cbn; [intros [= <-]; apply (oi_wf w I)|discriminate]. Qed.
Lemma change_inv w o a : oinv w -> WF a -> oinv (change w o a).
Proof. intros I W. constructor; [apply (oi_env w I)|]. intros o'. cbn. unfold put. destruct (o =? o'); [exact W|apply (oi_wf w I)]. Qed.
Lemma finish_cases {A} w (x : res A) k w' o : finish w x k = (w', o) -> (exists a, x = Ok a /\ k a = (w', o)) \/ (x = Throw /\ w' = w /\ o = ORaised) \/ ((x = UB \/ x = NoFuel) /\ w' = w /\ o = OUndef).
Proof. destruct x; cbn; intros E; [left; eauto|right; left; injection E as <- <-; auto|right; right; injection E as <- <-; auto..]. Qed.
Lemma exec_inv st w c w' o : oinv w -> scalars c -> exec_op st w c = (w', o) -> oinv w'.
Proof.
  intros I S E. destruct c as [z e|y x|x|x p q|x y f|x|x|x y|x]; cbn [exec_op] in E.
  - apply finish_cases in E. destruct E as [(a & Ea & E)|[(_ & -> & _)|(_ & -> & _)]]; auto. injection E as <- <-. constructor.
    + intros x o. cbn. unfold put. destruct (z =? x); [intros [= <-]; lia|]. intros X. apply (oi_env w I) in X. lia.
    + intros o. cbn. unfold put. destruct (w_next w =? o); [|apply (oi_wf w I)]. eapply eval_wf; [|..|exact Ea]; [intros x b X; exact (seen_wf _ _ _ I X)|]. intros l q ->. exact S.
  - destruct (w_env w x) as [o1|] eqn:Ex; injection E as <- <-; auto. constructor; [|apply (oi_wf w I)]. intros z o. cbn. unfold put. destruct (y =? z); [intros [= <-]; now apply (oi_env w I x)|apply (oi_env w I)].
  - destruct (w_env w x) as [o1|] eqn:Ex; injection E as <- <-; auto. constructor; [|apply (oi_wf w I)]. intros z o. cbn. unfold put. destruct (x =? z); [discriminate|apply (oi_env w I)].
  - destruct (w_env w x) as [o1|] eqn:Ex; injection E as <- <-; auto. apply change_inv; auto. apply (wf_madd _ _ swo); [exact S|apply (oi_wf w I)].
  - destruct (w_env w x) as [o1|] eqn:Ex; [|injection E as <- <-; auto]. destruct (w_env w y) as [o2|] eqn:Ey; [|injection E as <- <-; auto]. destruct (o1 =? o2).
    + apply finish_cases in E. destruct E as [(a & Ea & E)|[(_ & -> & _)|(_ & -> & _)]]; auto. injection E as <- <-. apply change_inv; auto.
      destruct (self_add2_madd2 (w_heap w o1) f (oi_wf w I o1) S) as [X|(_ & _ & X)]; rewrite X in Ea; [|discriminate]. injection Ea as <-. apply add2_wf; auto; apply (oi_wf w I).
    + injection E as <- <-. apply change_inv; auto. apply add2_wf; auto; apply (oi_wf w I).
  - destruct (w_env w x) as [o1|] eqn:Ex; injection E as <- <-; auto. apply change_inv; auto. apply canon_wf. apply (oi_wf w I).
  - apply finish_cases in E. destruct E as [(a & Ea & E)|[(_ & -> & _)|(_ & -> & _)]]; auto. now injection E as <- _.
  - apply finish_cases in E. destruct E as [(a & Ea & E)|[(_ & -> & _)|(_ & -> & _)]]; auto. now injection E as <- _.
  - apply finish_cases in E. destruct E as [(a & Ea & E)|[(_ & -> & _)|(_ & -> & _)]]; auto. now injection E as <- _.
Qed.
Lemma empty_inv : oinv empty_world.
Proof. constructor; [discriminate|]. intros o. apply wf_nil. Qed.
Lemma oprun_inv st w h w' : oprun st w h w' -> Forall (fun x => scalars (snd (fst x))) h -> oinv w -> oinv w'.
Proof. induction 1 as [w|w c w1 o h w2 E N R IH]; intros F I; [exact I|]. inversion F; subst. apply IH; auto. eapply exec_inv; eauto. Qed.
Lemma reached_inv st w : reached st w -> oinv w.
Proof. intros (h & R & F). exact (oprun_inv st _ _ _ R F empty_inv). Qed.
Lemma seen_reached st w x a : reached st w -> seen w x = Some a -> WF a.
Proof. intros R. apply seen_wf. exact (reached_inv _ _ R). Qed.
