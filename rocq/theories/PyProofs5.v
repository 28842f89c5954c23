(** C72: histories; fresh objects; iteration over an expression that is not modified. *)
From Coq Require Import ZArith List Bool Arith Lia Sorted.
From Verif Require Import Res RationalModel RegistryModel CoreModel OrderProofs AlgebraModel AlgebraSpec AlgebraProofs AdjointModel NormalOrderModel CanonModel PyModel PySpec PyProofs PyProofs2 PyProofs3 PyProofs4.
Import ListNotations.

Lemma oracle_agree st s v d c r : agree s v d -> Forall (fun x => d x = false) (reads c) -> oracle st (view s) c r -> oracle st v c r.
Proof. intros A R. destruct c; try (intros; exact Logic.I). cbn in *. intros O e. sel R. rewrite (A x) by assumption. exact (O e). Qed.
Lemma sim_run st s h s' : run st s h s' -> forall v d, inv s -> agree s v d -> nodead v -> careful d h ->
  exists v', vrun st v (events h) v' /\ agree s' v' (stale_end d h) /\ nodead v'.
Proof.
  induction 1 as [s|s c s1 o h s2 H N H' IH]; intros v d I A ND C; cbn in *.
  - exists v. split; [constructor|]. now split.
  - destruct C as [R C]. destruct H as (r & O & E). destruct (sim _ _ _ _ _ _ _ _ I A ND R E) as (v1 & E1 & A1). specialize (A1 N).
    destruct (IH v1 _ (inv_exec _ _ _ _ _ _ I O E) A1 (vexec_nodead _ _ _ _ _ _ ND E1) C) as (v' & V & A' & D'). exists v'. split; [|now split].
    econstructor; [exact (oracle_agree _ _ _ _ _ _ A R O)|exact E1|exact V].
Qed.
Lemma agree_start : agree start (fun _ => None) (fun _ => false).
Proof. intros x _. reflexivity. Qed.
Lemma value_semantics st h s : run st start h s -> careful (fun _ => false) h ->
  exists v, vrun st (fun _ => None) (events h) v /\ (forall x, stale_end (fun _ => false) h x = false -> view s x = v x /\ view s x <> Some WDead) /\
    forall c s' o, Forall (fun x => stale_end (fun _ => false) h x = false) (reads c) -> step st s c s' o ->
      exists r v', oracle st v c r /\ vexec st r v c = (v', o).
Proof.
  intros H C. destruct (sim_run _ _ _ _ H _ _ inv_start agree_start (fun _ => ltac:(discriminate)) C) as (v & V & A & D). exists v. split; [exact V|]. split.
  - intros x S. rewrite <- (A x S). split; [reflexivity|apply D].
  - intros c s' o R (r & O & E). destruct (sim _ _ _ _ _ _ _ _ (inv_run _ _ _ _ H inv_start) A D R E) as (v' & E' & _). exists r, v'. split; [exact (oracle_agree _ _ _ _ _ _ A R O)|exact E'].
Qed.
Lemma vrun_nodead st v h v' : vrun st v h v' -> nodead v -> nodead v'.
Proof. induction 1 as [|v c r v1 o h v2 O E V IH]; intros N; [exact N|]. apply IH. exact (vexec_nodead _ _ _ _ _ _ N E). Qed.
(** Under value semantics only three things are undefined. *)
Lemma vundef st r v c v' : nodead v -> vexec st r v c = (v', Undef) ->
  (exists t m k, c = CMut t m /\ v t = Some (WN k)) \/ (exists y x, c = CCanon y x /\ (r = UB \/ r = NoFuel)) \/
  (exists z x b e, c = CLet z (RVno x b) /\ v x = Some (WE e) /\ (expr_vno st b e = UB \/ expr_vno st b e = NoFuel)) \/
  (exists z x y a b, c = CLet z (RMatmul x y) /\ v x = Some (WE a) /\ v y = Some (WE b) /\ (mprod term_ltb term_mul a b = UB \/ mprod term_ltb term_mul a b = NoFuel)).
Proof.
  rewrite vexec_eq. intros N. destruct c as [z e|y x|x|x y|x t q|y x|i x|t q i|t b|t u|t m|t q|q a|q f a b|x]; cbn [vexec0].
  - destruct (eval_rhs st v e) as [a| | |] eqn:E; intros H; try discriminate; clear H; right; right;
      (destruct e as [|l|x y|x y|x y|x q|x|x|x b]; cbn in E; try discriminate;
       repeat match goal with E : context [match v ?x with _ => _ end] |- _ => let w := fresh "w" in pose proof (N x); destruct (v x) as [w|] eqn:?; [destruct w|] end; try discriminate; try congruence).
    + right. do 5 eexists. repeat split; eauto.
    + left. do 4 eexists. repeat split; eauto.
    + right. do 5 eexists. repeat split; eauto.
    + left. do 4 eexists. repeat split; eauto.
  - bust.
  - bust.
  - pose proof (N x). pose proof (N y). bust; congruence.
  - pose proof (N x). pose proof (N t). pose proof (N q). bust; congruence.
  - intros H. right. left. exists y, x. split; [reflexivity|]. destruct (v x) as [[?|?|?|?|?|]|]; try discriminate. destruct r; try discriminate; tauto.
  - bust.
  - bust.
  - discriminate.
  - pose proof (N u). bust; congruence.
  - destruct (v t) as [[?|u|k|?|?|]|] eqn:E; try discriminate; [destruct (mutate m u); discriminate|]. intros _. left. now exists t, m, k.
  - pose proof (N t). pose proof (N q). bust; congruence.
  - discriminate.
  - pose proof (N a). pose proof (N b). bust; congruence.
  - pose proof (N x). bust; congruence.
Qed.
(** The last two do not happen. *)
Lemma mprod_not_ub a b : mprod term_ltb term_mul a b <> UB /\ mprod term_ltb term_mul a b <> NoFuel.
Proof.
  unfold mprod. generalize (@nil (term * rational)). induction a as [|x a IH]; intros r; cbn; [split; discriminate|].
  match goal with |- context [bind ?F _] => assert (X : (exists r', F = Ok r') \/ F = Throw) end.
  { clear IH. revert r. induction b as [|y b IHb]; intros r; cbn; [left; now exists r|]. unfold term_mul. destruct (tm_no (fst x) || tm_no (fst y)); cbn; [now right|]. apply IHb. }
  destruct X as [(r' & X)|X]; rewrite X; cbn; [apply IH|split; discriminate].
Qed.

Lemma frame_step st s c s' o y : pyreach st s -> step st s c s' o -> ~ In y (binds c) -> (forall x a, writes s c = Some (x, a) -> depends s y a = false) -> view s' y = view s y.
Proof. intros P (r & _ & E). apply (frame_view _ _ _ _ _ _ _ (inv_reach _ _ P) E). Qed.

(** ** New objects *)
Lemma depends_bound s y v o : inv s -> s_env s y = Some v -> depends s y (OE o) = true -> o < length (s_exprs s).
Proof.
  intros I E D. unfold depends in D. rewrite E in D. apply existsb_exists in D. destruct D as (a & T & Q). apply obj_eqb_eq in Q. subst a. exact (touched_bound s v _ I (i_env s I _ _ E) T).
Qed.
Lemma fresh_obj s z e : inv s -> s_env (new_expr z e s) z = Some (VE (length (s_exprs s))) /\
  view (new_expr z e s) z = Some (WE e) /\ forall y, y <> z -> depends (new_expr z e s) y (OE (length (s_exprs s))) = false.
Proof.
  intros I. split; [cbn; apply upd_same|]. split; [unfold view; cbn; rewrite upd_same; cbn; now rewrite nth_app_new, entries_fresh|].
  intros y N. apply not_true_iff_false. intros D. unfold depends in D. cbn [s_env new_expr] in D. rewrite upd_other in D by congruence.
  assert (D' : depends s y (OE (length (s_exprs s))) = true) by exact D. destruct (s_env s y) as [v|] eqn:E; [|unfold depends in D'; now rewrite E in D'].
  pose proof (depends_bound _ _ _ _ I E D'). lia.
Qed.
Lemma let_fresh st s z e s' : pyreach st s -> step st s (CLet z e) s' Done ->
  exists o a, vrhs st (view s) e = Ok a /\ s_env s' z = Some (VE o) /\ view s' z = Some (WE a) /\ (forall y, y <> z -> depends s' y (OE o) = false /\ view s' y = view s y).
Proof.
  intros P St. pose proof (inv_reach _ _ P) as I. destruct St as (r & O & E). cbn [exec] in E. destruct (eval_rhs st (view s) e) as [a| | |] eqn:Ee; try discriminate. injection E as <-.
  destruct (fresh_obj s z a I) as (A & B & C). exists (length (s_exprs s)), a. split; [now rewrite vrhs_eq|]. split; [exact A|]. split; [exact B|]. intros y N. split; [now apply C|].
  apply (frame_view st r s (CLet z e) (new_expr z a s) Done); [exact I|cbn [exec]; now rewrite Ee|cbn; intuition congruence|discriminate].
Qed.
Lemma iadd_expr_fresh st s x y a b s' q : pyreach st s -> view s x = Some (WE a) -> view s y = Some (WE b) -> step st s (CIadd x y) s' q ->
  q = Done /\ exists o, s_env s' x = Some (VE o) /\ view s' x = Some (WE (mplus term_ltb a b)) /\ (forall z, z <> x -> depends s' z (OE o) = false /\ view s' z = view s z).
Proof.
  intros P Vx Vy (r & O & E). pose proof (inv_reach _ _ P) as I. pose proof E as E0. cbn [exec] in E. destruct (s_env s x) as [w|] eqn:Ex; [|unfold view in Vx; rewrite Ex in Vx; discriminate].
  rewrite Vy in E. assert (X : exists o, w = VE o). { rewrite (view_Some _ _ _ Ex) in Vx. destruct w as [o|o|o n|q'|o n|j]; [now exists o|cbn in Vx..]; revert Vx; bust; discriminate. }
  destruct X as (o & ->). destruct (bound_VE _ _ _ I Ex) as (m & Em & Vm). rewrite Vm in Vx. injection Vx as <-. rewrite Em in E. injection E as <- <-. split; [reflexivity|].
  destruct (fresh_obj s x (mplus term_ltb (entries m) b) I) as (A & B & C). exists (length (s_exprs s)). split; [exact A|]. split; [exact B|]. intros z N. split; [now apply C|].
  apply (frame_view _ _ _ _ _ _ _ I E0); [cbn; intuition congruence|]. cbn [writes]. rewrite Ex, Vy. discriminate.
Qed.

(** ** Iterating over an expression that nobody changes *)
Definition tracks (s : state) (j o : nat) (m : nmap) (l : nmap) : Prop :=
  nth_error (s_exprs s) o = Some m /\ exists it, nth_error (s_iters s) j = Some it /\ io_expr it = o /\ rest m it = Some l.
Lemma untouched_keeps st s c s' q o m : inv s -> step st s c s' q -> match writes s c with Some (_, OE o') => o' <> o | _ => True end ->
  nth_error (s_exprs s) o = Some m -> nth_error (s_exprs s') o = Some m.
Proof.
  intros I (r & _ & E) W H. destruct (exec_keeps _ _ _ _ _ _ I E) as (K & _). rewrite K; [exact H|exact (nth_lt _ _ _ H)|]. intros x Hx. rewrite Hx in W. now apply W.
Qed.
(** A step that is not a [next] on [j] leaves the iterator alone. *)
Lemma iter_kept st s c s' q j it : inv s -> step st s c s' q -> next_on j (s, c, q) = [] -> nth_error (s_iters s) j = Some it -> nth_error (s_iters s') j = Some it.
Proof.
  intros I (r & _ & E) W H. destruct (exec_keeps _ _ _ _ _ _ I E) as (_ & _ & K). rewrite K; [exact H|exact (nth_lt _ _ _ H)|].
  intros x Hx. destruct c; cbn [writes] in Hx; revert Hx; bust; intros Hx; try discriminate. injection Hx as -> ->. cbn [next_on] in W. rewrite Heqo in W. rewrite Nat.eqb_refl in W. destruct q; discriminate.
Qed.
Lemma next_on_inv j s c q x l : next_on j (s, c, q) = x :: l -> exists t a i, c = CNext t a i /\ s_env s i = Some (VI j) /\ l = [] /\ x = match q with Yield k c => Some (k, c) | _ => None end.
Proof.
  destruct c; cbn; try discriminate. destruct (s_env s i) as [[| | | | |j']|] eqn:E; try discriminate. destruct (j =? j') eqn:Ej; [|discriminate]. apply Nat.eqb_eq in Ej. subst j'.
  intros H. exists t, c, i. split; [reflexivity|]. split; [exact E|]. destruct q; injection H as <- <-; split; reflexivity.
Qed.
Lemma next_step st s t a i s' q j o m l : inv s -> step st s (CNext t a i) s' q -> s_env s i = Some (VI j) -> tracks s j o m l ->
  (l = [] /\ q = Stop /\ tracks s' j o m []) \/ (exists n k c l', l = (n, (k, c)) :: l' /\ q = Yield k c /\ tracks s' j o m l').
Proof.
  intros I (r & _ & E) Ei (Em & it & Ej & <- & Er). cbn [exec] in E. rewrite Ei, Ej, Em, Er in E. pose proof (nth_lt _ _ _ Ej) as L. destruct l as [|[n [k c]] l]; injection E as <- <-.
  - left. split; [reflexivity|]. split; [reflexivity|]. split; [exact Em|]. eexists. split; [cbn; apply set_nth_same; exact L|]. split; reflexivity.
  - right. exists n, k, c, l. split; [reflexivity|]. split; [reflexivity|]. split; [exact Em|]. eexists. split; [cbn; apply set_nth_same; exact L|]. split; [reflexivity|].
    destruct (rest_tail _ _ _ Er) as (pre & Epre). apply (rest_next _ _ pre n (k, c)); [exact (proj1 (i_nd s I _ _ Em))|exact Epre].
Qed.
Lemma repeat_None_app n : repeat (@None (term * rational)) (S n) = None :: repeat None n.
Proof. reflexivity. Qed.
Lemma iterate_gen st s h s' : run st s h s' -> forall j o m l, inv s -> tracks s j o m l -> untouched o h ->
  delivered j h = firstn (length (delivered j h)) (map Some (entries l) ++ repeat None (length (delivered j h))) /\ exists l', tracks s' j o m l'.
Proof.
  induction 1 as [s|s c s1 q h s2 H N H' IH]; intros j o m l I T U; [split; [reflexivity|now exists l]|]. inversion U as [|? ? U1 U2]; subst. cbn [fst snd] in U1.
  pose proof (inv_step _ _ _ _ _ I H) as I1. unfold delivered. cbn [map concat]. destruct (next_on j (s, c, q)) as [|x r] eqn:Ex.
  - cbn [app]. apply (IH j o m l I1); [|exact U2]. destruct T as (Em & it & Ej & Eo & Er). split; [exact (untouched_keeps _ _ _ _ _ _ _ I H U1 Em)|]. exists it. split; [exact (iter_kept _ _ _ _ _ _ _ I H Ex Ej)|]. now split.
  - destruct (next_on_inv _ _ _ _ _ _ Ex) as (t & a & i & -> & Ei & -> & ->). destruct (next_step _ _ _ _ _ _ _ _ _ _ _ I H Ei T) as [(-> & -> & T1)|(n & k & c' & l' & -> & -> & T1)].
    + destruct (IH j o m [] I1 T1 U2) as (D & l' & T2). split; [|now exists l']. cbn [app entries map]. cbn [entries map app] in D. unfold delivered in D. cbn [length]. rewrite repeat_None_app. cbn [firstn]. f_equal. exact D.
    + destruct (IH j o m l' I1 T1 U2) as (D & l2 & T2). split; [|now exists l2]. cbn [app]. unfold delivered in D. cbn [length]. rewrite D at 1. cbn [entries map snd app firstn]. f_equal.
      set (k0 := length (concat (map (next_on j) h))). change (map Some (map snd l')) with (map Some (entries l')).
      rewrite !firstn_app. f_equal. destruct (Nat.le_gt_cases k0 (length (map Some (entries l')))) as [Le|Gt]; [replace (k0 - length (map Some (entries l'))) with 0 by lia; reflexivity|].
      set (z := k0 - length (map Some (entries l'))). assert (z <= k0) by lia. clearbody z k0. revert H0. clear. intros H.
      assert (X : forall n y, n <= y -> firstn n (repeat (@None (term * rational)) y) = repeat None n). { induction n as [|n IHn]; intros [|y] Y; cbn; try reflexivity; [lia|]. f_equal. apply IHn. lia. }
      rewrite !X by lia. reflexivity.
Qed.
Lemma iterate st s i x s1 o : pyreach st s -> s_env s x = Some (VE o) -> step st s (CIter i x) s1 Done ->
  exists j, s_env s1 i = Some (VI j) /\ forall h s2, run st s1 h s2 -> untouched o h ->
    delivered j h = firstn (length (delivered j h)) (map Some (contents s o) ++ repeat None (length (delivered j h))) /\
    forall t c i' s3 q, s_env s2 i' = Some (VI j) -> step st s2 (CNext t c i') s3 q -> q <> Undef.
Proof.
  intros P Ex St. pose proof (inv_reach _ _ P) as I. pose proof (inv_step _ _ _ _ _ I St) as I1. destruct St as (r & O & E). cbn [exec] in E. rewrite Ex in E. destruct (bound_VE _ _ _ I Ex) as (m & Em & _). rewrite Em in E. injection E as <-.
  exists (length (s_iters s)). split; [cbn; apply upd_same|]. intros h s2 R U.
  assert (T : tracks (new_iter i (mkIO o (front m) true) s) (length (s_iters s)) o m m). { split; [exact Em|]. eexists. split; [cbn; apply nth_app_new|]. split; [reflexivity|apply rest_first]. }
  destruct (iterate_gen _ _ _ _ R _ _ _ _ I1 T U) as (D & l & T2). split; [unfold contents; rewrite Em; exact D|].
  intros t c i' s3 q Ei S3. destruct (next_step _ _ _ _ _ _ _ _ _ _ _ (inv_run _ _ _ _ R I1) S3 Ei T2) as [(_ & -> & _)|(? & ? & ? & ? & _ & -> & _)]; discriminate.
Qed.
Lemma undefined_cases st h v r c v' : vrun st (fun _ => None) h v -> vexec st r v c = (v', Undef) ->
  (exists t m k, c = CMut t m /\ v t = Some (WN k)) \/ (exists y x, c = CCanon y x /\ (r = UB \/ r = NoFuel)) \/
  (exists z x b e, c = CLet z (RVno x b) /\ v x = Some (WE e) /\ (expr_vno st b e = UB \/ expr_vno st b e = NoFuel)).
Proof.
  intros R E. destruct (vundef st r v c v' (vrun_nodead _ _ _ _ R (fun _ => ltac:(discriminate))) E) as [A|[A|[A|(z & x & y & a & b & _ & _ & _ & A)]]]; [now left|right; now left|right; now right|].
  exfalso. destruct (mprod_not_ub a b). tauto.
Qed.
