(** The terms returned by [contract] (C63): before canonicalization. *)
From Coq Require Import Ascii ZArith List Bool Arith Lia Permutation.
From Verif Require Import Res PartitionsModel RegistryModel RegistryProofs CoreModel CombinatoricsModel SortSpec SortModel SortProofs OrderProofs AdjointModel AdjointProofs RationalModel AlgebraModel OperatorModel OperatorSpec OperatorProofs CanonModel CanonSpec CanonProofs CanonProofs2
  WickSearchModel WickSearchSpec WickElemProofs WickElemProofs2 WickCompProofs WickSearchProofs DecModel WickEvalModel CountSpec CountProofs WickCombSpec WickCombProofs WickGraphSpec WickGraphProofs WickGraphProofs2
  WickLegSpec WickLegProofs WickLegProofs2 WickLegProofs3 WickLegProofs4 WickLegProofs5 WickLegProofs6 WickTotalProofs EquationSpec ContractShapeSpec WickPairProofs4 WickGenProofs4.
Import ListNotations.
Local Open Scope Z_scope.

Lemma filter_perm {A} (f : A -> bool) l l' : Permutation l l' -> Permutation (filter f l) (filter f l').
Proof. intros H. induction H; cbn [filter]; auto; repeat match goal with |- context [if ?b then _ else _] => destruct b end; auto. - apply perm_swap. - etransitivity; eauto. Qed.
Lemma filter_all {A} (f : A -> bool) l : Forall (fun x => f x = true) l -> filter f l = l.
Proof. intros H. induction H as [|x l E H IH]; [reflexivity|]. cbn [filter]. rewrite E, IH. reflexivity. Qed.
Lemma filter_none {A} (f : A -> bool) l : Forall (fun x => f x = false) l -> filter f l = [].
Proof. intros H. induction H as [|x l E H IH]; [reflexivity|]. cbn [filter]. rewrite E, IH. reflexivity. Qed.
Lemma reindex_app m1 m2 i : reindex (m1 ++ m2) i = match imfind i m1 with Some j => j | None => reindex m2 i end.
Proof. unfold reindex. induction m1 as [|[k v] m1 IH]; [reflexivity|]. cbn [app imfind]. destruct (index_eqb i k); auto. Qed.
Lemma reindex_skip m1 m2 i : ~ In i (map fst m1) -> reindex (m1 ++ m2) i = reindex m2 i.
Proof. intros H. rewrite reindex_app. apply imfind_none in H. rewrite H. reflexivity. Qed.
Lemma reindex_last m1 m2 i : ~ In i (map fst m2) -> reindex (m1 ++ m2) i = reindex m1 i.
Proof. intros H. rewrite reindex_app. rewrite (reindex_out m2) by auto. unfold reindex. reflexivity. Qed.
Lemma F2_len {A B} (R : A -> B -> Prop) l r : Forall2 R l r -> length l = length r.
Proof. intros H. induction H; simpl; congruence. Qed.
Lemma in_space_app l l' s : in_space (l ++ l') s = (in_space l s + in_space l' s)%nat.
Proof. apply icnt_app. Qed.
Lemma in_space_perm l l' s : Permutation l l' -> in_space l s = in_space l' s.
Proof. apply icnt_perm. Qed.

Section Shape.
  Context (st : osi) (maxc : Z) (ops : oprod) (cs : list econ) (t : term) (s : Z) (ix : leg -> index) (picks : list (list leg * list leg))
    (effects : list (index_map * list tensor * Z)) (rest : list leg).
  Hypothesis Hok : ops_ok st ops.
  Hypothesis HA : Forall (allowed st maxc ops) cs.
  Hypothesis EV : evaluation st ops cs t s ix picks effects rest.
  Let L := product_legs st ops.
  Let m : index_map := flat_map (fun e => fst (fst e)) effects.

  Lemma P_all : Permutation L (flat_map (fun p => fst p ++ snd p) picks ++ rest).
  Proof. exact (all_perm st ops cs t s ix picks effects rest EV). Qed.
  Lemma P_nodup : NoDup (flat_map (fun p => fst p ++ snd p) picks ++ rest).
  Proof. eapply Permutation_NoDup; [apply P_all|apply product_nodup]. Qed.
  Lemma P_kinds : Forall (fun p => Forall (fun l => leg_cre l = true) (fst p) /\ Forall (fun l => leg_cre l = false) (snd p)) picks.
  Proof. assert (P := ev_picks _ _ _ _ _ _ _ _ _ EV). clear - P. induction P as [|p c ps cs0 (_ & H) P IH]; constructor; auto. Qed.
  Lemma filter_flat (b : bool) : Forall (fun p => Forall (fun l => leg_cre l = true) (fst p) /\ Forall (fun l => leg_cre l = false) (snd p)) picks ->
    filter (fun l => Bool.eqb (leg_cre l) b) (flat_map (fun p => fst p ++ snd p) picks) = flat_map (fun p : list leg * list leg => if b then fst p else snd p) picks.
  Proof.
    intros H. clear - H. induction H as [|p ps (H1 & H2) H IH]; [reflexivity|]. cbn [flat_map]. rewrite !filter_app, IH. f_equal. rewrite Forall_forall in H1, H2. destruct b.
    - rewrite filter_all, filter_none, app_nil_r; auto; apply Forall_forall; intros l Hl; rewrite ?(H1 l Hl), ?(H2 l Hl); reflexivity.
    - rewrite filter_none, filter_all; auto; apply Forall_forall; intros l Hl; rewrite ?(H1 l Hl), ?(H2 l Hl); reflexivity.
  Qed.
  Lemma filter_L (b : bool) : Permutation (flat_map (fun A => if b then op_cre_legs st ops A else op_ann_legs st ops A) (seq 0 (length ops))) (filter (fun l => Bool.eqb (leg_cre l) b) L).
  Proof.
    unfold L, product_legs. generalize (seq 0 (length ops)) as As. induction As as [|A As IH]; [constructor|]. cbn [flat_map]. rewrite !filter_app, <- app_assoc.
    assert (C : Forall (fun l => leg_cre l = true) (op_cre_legs st ops A)) by (apply Forall_forall; intros l Hl; apply in_flat_map in Hl; destruct Hl as (s' & _ & Hl); apply in_map_iff in Hl; destruct Hl as (i & <- & _); reflexivity).
    assert (D : Forall (fun l => leg_cre l = false) (rev (op_ann_legs st ops A))) by (apply Forall_forall; intros l Hl; apply in_rev in Hl; apply in_flat_map in Hl; destruct Hl as (s' & _ & Hl); apply in_map_iff in Hl; destruct Hl as (i & <- & _); reflexivity).
    rewrite Forall_forall in C, D. destruct b.
    - rewrite filter_all, (filter_none _ (rev _)); [|apply Forall_forall; intros l Hl; rewrite (D l Hl); reflexivity|apply Forall_forall; intros l Hl; rewrite (C l Hl); reflexivity]. cbn [app]. apply Permutation_app_head, IH.
    - rewrite filter_none, (filter_all _ (rev _)); [|apply Forall_forall; intros l Hl; rewrite (D l Hl); reflexivity|apply Forall_forall; intros l Hl; rewrite (C l Hl); reflexivity]. cbn [app]. apply Permutation_app; [apply Permutation_rev|apply IH].
  Qed.
  Lemma kind_perm (b : bool) : Permutation (flat_map (fun A => if b then op_cre_legs st ops A else op_ann_legs st ops A) (seq 0 (length ops)))
    (flat_map (fun p : list leg * list leg => if b then fst p else snd p) picks ++ filter (fun l => Bool.eqb (leg_cre l) b) rest).
  Proof. rewrite (filter_L b), (filter_perm _ _ _ P_all), filter_app, (filter_flat b P_kinds). reflexivity. Qed.

  Lemma contribution_keys pc pa e a : contribution st L ix pc pa e -> In a (map fst (fst (fst e))) -> exists l, In l (pc ++ pa) /\ a = ix l.
  Proof. intros C H. inversion C; subst; cbn [fst snd map] in H; try contradiction; destruct H as [<-|[]]; eexists; (split; [|reflexivity]); simpl; auto. Qed.
  Lemma effects_keys ps es a : Forall2 (fun p e => contribution st L ix (fst p) (snd p) e) ps es -> In a (map fst (flat_map (fun e => fst (fst e)) es)) -> exists l, In l (flat_map (fun p => fst p ++ snd p) ps) /\ a = ix l.
  Proof.
    intros F. induction F as [|p e ps es C F IH]; [intros []|]. cbn [flat_map]. rewrite map_app, in_app_iff. intros [H|H].
    - destruct (contribution_keys _ _ _ _ C H) as (l & Hl & E). exists l. split; auto. apply in_or_app. auto.
    - destruct (IH H) as (l & Hl & E). exists l. split; auto. apply in_or_app. auto.
  Qed.
  Lemma ix_inj l l' : In l L -> In l' L -> ix l = ix l' -> l = l'.
  Proof. apply (ev_labels _ _ _ _ _ _ _ _ _ EV). Qed.
  Lemma in_picks_L ps l : incl ps picks -> In l (flat_map (fun p => fst p ++ snd p) ps) -> In l L.
  Proof. intros H Hl. eapply Permutation_in; [apply Permutation_sym, P_all|]. apply in_or_app. left. apply in_flat_map in Hl. destruct Hl as (p & Hp & Hl). apply in_flat_map. eauto. Qed.
  Lemma rest_fixed l : In l rest -> reindex m (ix l) = ix l.
  Proof.
    intros Hl. apply reindex_out. intros K. destruct (effects_keys _ _ _ (ev_effects _ _ _ _ _ _ _ _ _ EV) K) as (l' & Hl' & E). apply ix_inj in E; [|eapply rest_in_L; eauto|eapply in_picks_L; eauto; apply incl_refl].
    subst l'. assert (N := P_nodup). clear - N Hl Hl'. revert Hl'. induction (flat_map (fun p => fst p ++ snd p) picks) as [|x xs IH]; [intros []|]. inversion N; subst. intros [->|Hl']; [|apply IH; auto]. match goal with X : ~ _ |- _ => apply X end. apply in_or_app. auto.
  Qed.
  Lemma local p1 p p2 e1 e e2 l : picks = p1 ++ p :: p2 -> effects = e1 ++ e :: e2 -> length p1 = length e1 -> In l (fst p ++ snd p) -> reindex m (ix l) = reindex (fst (fst e)) (ix l).
  Proof.
    intros Ep Ee Ln Hl. assert (F := ev_effects _ _ _ _ _ _ _ _ _ EV). assert (N := P_nodup). rewrite Ep, Ee in F. apply Forall2_app_inv_l in F. destruct F as (x1 & x2 & F1 & F2 & Ex).
    inversion F2 as [|? e' ? es C F3]; subst x2. assert (E1 : e1 = x1 /\ e :: e2 = e' :: es).
    { apply F2_len in F1. clear - Ex Ln F1. revert x1 Ln Ex F1. generalize dependent p1. induction e1 as [|y e1 IH]; intros p1 x1 Ln Ex F1; destruct x1; cbn [length] in *; try lia; [split; auto|]. destruct p1; cbn [length] in *; try lia. injection Ex as -> Ex. destruct (IH p1 x1) as (-> & X); auto. }
    destruct E1 as (<- & E2). injection E2 as <- <-. unfold m. rewrite Ee, flat_map_app. cbn [flat_map]. clear Ex F2.
    assert (D : forall ps es, Forall2 (fun p e => contribution st L ix (fst p) (snd p) e) ps es -> incl ps picks -> (forall l, In l (fst p ++ snd p) -> ~ In l (flat_map (fun p => fst p ++ snd p) ps)) -> ~ In (ix l) (map fst (flat_map (fun e => fst (fst e)) es))).
    { intros ps es F I D K. destruct (effects_keys _ _ _ F K) as (l' & Hl' & E). apply ix_inj in E.
      - subst l'. apply (D l Hl Hl').
      - apply (in_picks_L picks); [apply incl_refl|]. rewrite Ep. apply in_flat_map. exists p. split; auto. apply in_or_app. right. left. reflexivity.
      - eapply in_picks_L; eauto. }
    rewrite Ep, flat_map_app in N. cbn [flat_map] in N. rewrite <- !app_assoc in N. rewrite reindex_skip.
    - apply reindex_last. apply (D p2 e2 F3); [rewrite Ep; intros ? ?; apply in_or_app; right; right; auto|]. intros l' H1 H2. apply nodup_app_inv in N. destruct N as (_ & N & _). rewrite app_assoc in N. apply nodup_app_inv in N. destruct N as (_ & _ & N). apply (N l' H1). apply in_or_app. auto.
    - apply (D p1 e1 F1); [rewrite Ep; intros ? ?; apply in_or_app; auto|]. intros l' H1 H2. apply nodup_app_inv in N. destruct N as (_ & _ & N). apply (N l' H2). rewrite app_assoc. apply in_or_app. left. exact H1.
  Qed.
  (** The legs whose indices survive the contraction, for each pick. *)
  Lemma reps ps es : Forall2 (fun p e => contribution st L ix (fst p) (snd p) e) ps es ->
    (forall p e l, In (p, e) (combine ps es) -> In l (fst p ++ snd p) -> reindex m (ix l) = reindex (fst (fst e)) (ix l)) ->
    exists reps others, Permutation (flat_map (fun p => fst p ++ snd p) ps) (reps ++ others) /\
      Permutation (map (fun l => reindex m (ix l)) (flat_map fst ps) ++ map (reindex m) (flat_map t_lower (flat_map (fun e => snd (fst e)) es))) (map ix reps) /\
      Permutation (map (fun l => reindex m (ix l)) (flat_map snd ps) ++ map (reindex m) (flat_map t_upper (flat_map (fun e => snd (fst e)) es))) (map ix reps).
  Proof.
    intros F. induction F as [|p e ps es C F IH]; intros Lc; [exists [], []; repeat split; constructor|].
    destruct IH as (rs & os & P1 & P2 & P3); [intros p' e' l H; apply Lc; right; auto|]. specialize (Lc p e) as Le. cbn [combine] in Le. assert (Le' := fun l => Le l (or_introl eq_refl)). clear Le Lc.
    destruct p as [pc pa]. cbn [fst snd] in *.
    assert (G : exists r o, Permutation (pc ++ pa) (r ++ o) /\ Permutation (map (fun l => reindex m (ix l)) pc ++ map (reindex m) (flat_map t_lower (snd (fst e)))) (map ix r) /\
      Permutation (map (fun l => reindex m (ix l)) pa ++ map (reindex m) (flat_map t_upper (snd (fst e)))) (map ix r)).
    { inversion C; subst; cbn [fst snd flat_map app map t_lower t_upper] in *.
      - exists [p], [q]. cbn [app map]. split; [reflexivity|]. rewrite !Le' by (simpl; auto). unfold reindex. cbn [imfind]. rewrite index_eqb_refl. destruct (index_eqb (ix p) (ix q)) eqn:E; split; reflexivity.
      - exists [q], [p]. cbn [app map]. split; [apply perm_swap|]. rewrite !Le' by (simpl; auto). unfold reindex. cbn [imfind]. rewrite index_eqb_refl. destruct (index_eqb (ix q) (ix p)) eqn:E; split; reflexivity.
      - exists [p; q], []. cbn [app map]. split; [reflexivity|]. rewrite !Le' by (simpl; auto). unfold reindex at 1 2 3 4. cbn [imfind]. split; [reflexivity|apply perm_swap].
      - exists [p; q], []. cbn [app map]. split; [reflexivity|]. rewrite !Le' by (simpl; auto). unfold reindex at 1 2 3 4. cbn [imfind]. split; [reflexivity|apply perm_swap].
      - exists (p :: pc0 ++ pa), []. rewrite !app_nil_r. split; [reflexivity|]. assert (X : forall l, incl l (p :: pc0 ++ pa) -> map (fun l => reindex m (ix l)) l = map ix l) by (intros l Hl; apply map_ext_in; intros x Hx; apply Le', Hl, Hx).
        assert (Y : forall l, incl l (p :: pc0 ++ pa) -> map (reindex m) (map ix l) = map ix l) by (intros l Hl; rewrite map_map; apply X, Hl).
        assert (I1 : incl (p :: pc0) (p :: pc0 ++ pa)) by (intros y [<-|Hy]; [left; auto|right; apply in_or_app; auto]). assert (I2 : incl pa (p :: pc0 ++ pa)) by (intros y Hy; right; apply in_or_app; auto).
        rewrite map_rev. assert (X1 := X _ I1). assert (X2 := X _ I2). assert (Y1 := Y _ I1). assert (Y2 := Y _ I2). cbn [map] in X1, Y1 |- *. rewrite app_comm_cons, X1, X2, Y1, Y2. clear X1 X2 Y1 Y2. change (ix p :: map ix pc0) with (map ix (p :: pc0)). change (ix p :: map ix (pc0 ++ pa)) with (map ix ((p :: pc0) ++ pa)). change (p :: pc0 ++ pa) with ((p :: pc0) ++ pa). rewrite map_app. split.
        + apply Permutation_app_head, Permutation_sym, Permutation_rev.
        + apply Permutation_app_comm. }
    destruct G as (r & o & Q1 & Q2 & Q3). exists (r ++ rs), (o ++ os). cbn [flat_map]. cbn [fst snd]. split; [|split].
    - rewrite Q1, P1. rewrite <- !app_assoc. apply Permutation_app_head. rewrite !app_assoc. apply Permutation_app_tail, Permutation_app_comm.
    - rewrite !flat_map_app, !map_app. rewrite <- Q2, <- P2. rewrite <- !app_assoc. apply Permutation_app_head. rewrite !app_assoc. apply Permutation_app_tail, Permutation_app_comm.
    - rewrite !flat_map_app, !map_app. rewrite <- Q3, <- P3. rewrite <- !app_assoc. apply Permutation_app_head. rewrite !app_assoc. apply Permutation_app_tail, Permutation_app_comm.
  Qed.
  Lemma combine_split {A B} (l : list A) (l' : list B) a b : length l = length l' -> In (a, b) (combine l l') -> exists l1 l2 l1' l2', l = l1 ++ a :: l2 /\ l' = l1' ++ b :: l2' /\ length l1 = length l1'.
  Proof.
    revert l'. induction l as [|x l IH]; intros [|y l'] Ln H; try (destruct H; fail); try discriminate. destruct H as [H|H].
    - injection H as -> ->. exists [], l, [], l'. auto.
    - destruct (IH l' ltac:(cbn in Ln; lia) H) as (l1 & l2 & l1' & l2' & -> & -> & E). exists (x :: l1), l2, (y :: l1'), l2'. cbn. auto.
  Qed.
  Lemma creators_rest (b : bool) : map s_idx (filter (fun o => Bool.eqb (s_cre o) b) (map (sqop_reindex m) (map (leg_sqop ix) rest))) = map ix (filter (fun l => Bool.eqb (leg_cre l) b) rest).
  Proof.
    assert (H := rest_fixed). revert H. generalize rest as r0. intros r0. induction r0 as [|l r IH]; intros H; [reflexivity|]. cbn [map filter]. change (s_cre (sqop_reindex m (leg_sqop ix l))) with (leg_cre l). destruct (Bool.eqb (leg_cre l) b); cbn [map].
    - f_equal; [apply H; left; auto|apply IH; intros; apply H; right; auto].
    - apply IH. intros; apply H; right; auto.
  Qed.
  Let ots := map (op_tensor st ops ix) (seq 0 (length ops)).
  Let dts := flat_map (fun e : index_map * list tensor * Z => snd (fst e)) effects.
  Lemma flat_reindex (f : tensor -> list index) ts : (forall d, f (tensor_reindex m d) = map (reindex m) (f d)) -> flat_map f (map (tensor_reindex m) ts) = map (reindex m) (flat_map f ts).
  Proof. intros H. induction ts as [|d ts IH]; [reflexivity|]. cbn [map flat_map]. rewrite map_app, H, IH. reflexivity. Qed.
  Lemma ots_lower : flat_map t_lower ots = map ix (flat_map (op_cre_legs st ops) (seq 0 (length ops))).
  Proof. unfold ots. generalize (seq 0 (length ops)) as As. induction As as [|A As IH]; [reflexivity|]. cbn [map flat_map]. rewrite map_app, IH. reflexivity. Qed.
  Lemma ots_upper : flat_map t_upper ots = map ix (flat_map (op_ann_legs st ops) (seq 0 (length ops))).
  Proof. unfold ots. generalize (seq 0 (length ops)) as As. induction As as [|A As IH]; [reflexivity|]. cbn [map flat_map]. rewrite map_app, IH. reflexivity. Qed.
  Lemma t_eq : t = term_reindex m (mkTerm false (map (leg_sqop ix) rest) (ots ++ dts)).
  Proof. exact (ev_term _ _ _ _ _ _ _ _ _ EV). Qed.
  Lemma t_creators : creators (tm_ops t) = map ix (filter (fun l => Bool.eqb (leg_cre l) true) rest).
  Proof. rewrite <- creators_rest, t_eq. unfold creators, term_reindex. cbn [tm_ops]. f_equal. apply filter_ext. intros a. destruct (s_cre a); reflexivity. Qed.
  Lemma t_annihilators : annihilators (tm_ops t) = map ix (filter (fun l => Bool.eqb (leg_cre l) false) rest).
  Proof. rewrite <- creators_rest, t_eq. reflexivity. Qed.
  Lemma map_rest (b : bool) : map (fun l => reindex m (ix l)) (filter (fun l => Bool.eqb (leg_cre l) b) rest) = map ix (filter (fun l => Bool.eqb (leg_cre l) b) rest).
  Proof. apply map_ext_in. intros l Hl. apply filter_In in Hl. apply rest_fixed, Hl. Qed.
  Lemma eval_einstein : exists reps, NoDup reps /\ incl reps L /\ Permutation (upper_slots t) (map ix reps) /\ Permutation (lower_slots t) (map ix reps).
  Proof.
    destruct (reps picks effects (ev_effects _ _ _ _ _ _ _ _ _ EV)) as (rs & os & P1 & P2 & P3).
    { intros p e l H Hl. assert (Ln := F2_len _ _ _ (ev_effects _ _ _ _ _ _ _ _ _ EV)). destruct (combine_split _ _ _ _ Ln H) as (l1 & l2 & l1' & l2' & E1 & E2 & E3). eapply local; eauto. }
    exists (rs ++ rest). assert (Pa := P_all). rewrite P1 in Pa. assert (Pb : Permutation L ((rs ++ rest) ++ os)) by (rewrite Pa, <- !app_assoc; apply Permutation_app_head, Permutation_app_comm).
    assert (ND := Permutation_NoDup Pb (product_nodup st ops)). apply nodup_app_inv in ND. split; [tauto|]. split; [intros l Hl; eapply Permutation_in; [apply Permutation_sym, Pb|apply in_or_app; auto]|].
    assert (R : Permutation rest (filter (fun l => Bool.eqb (leg_cre l) true) rest ++ filter (fun l => Bool.eqb (leg_cre l) false) rest)).
    { clear. induction rest as [|l r IH]; [reflexivity|]. cbn [filter]. destruct (leg_cre l); cbn [Bool.eqb app]; [apply perm_skip, IH|]. etransitivity; [apply perm_skip, IH|]. apply Permutation_middle. }
    split; unfold upper_slots, lower_slots; rewrite t_creators || rewrite t_annihilators; rewrite t_eq; unfold term_reindex; cbn [tm_tens]; rewrite flat_reindex by reflexivity; rewrite flat_map_app, map_app, map_app.
    - rewrite ots_upper, map_map. rewrite (Permutation_map (fun l => reindex m (ix l)) (kind_perm false)), map_app, map_rest. rewrite <- P3, (Permutation_map ix R), map_app. fold dts. rewrite <- !app_assoc. apply Permutation_app_head. rewrite !app_assoc.
      rewrite (Permutation_app_comm (map ix (filter (fun l => eqb (leg_cre l) false) rest))). rewrite <- !app_assoc. apply Permutation_app_head, Permutation_app_comm.
    - rewrite ots_lower, map_map. rewrite (Permutation_map (fun l => reindex m (ix l)) (kind_perm true)), map_app, map_rest. rewrite <- P2, (Permutation_map ix R), map_app. fold dts. rewrite <- !app_assoc. apply Permutation_app_head. rewrite !app_assoc.
      rewrite (Permutation_app_comm (map ix (filter (fun l => eqb (leg_cre l) true) rest))). rewrite <- !app_assoc. reflexivity.
  Qed.
  Lemma eval_einstein2 : NoDup (upper_slots t) /\ Permutation (upper_slots t) (lower_slots t).
  Proof.
    destruct eval_einstein as (rs & N & I & P1 & P2). split; [|rewrite P1, P2; reflexivity]. eapply Permutation_NoDup; [apply Permutation_sym, P1|]. clear P1 P2.
    induction N as [|x l Nx N IH]; [constructor|]. cbn [map]. constructor; [|apply IH; intros y Hy; apply I; right; auto]. intros K. apply in_map_iff in K. destruct K as (y & E & Hy). apply ix_inj in E; [subst; tauto| |]; apply I; [right|left]; auto.
  Qed.
  Lemma map_same i : isp (reindex m i) = isp i.
  Proof. exact (reindex_same st maxc ops cs t s ix picks effects rest HA EV i). Qed.
  Lemma profile_reindex d : tensor_profile st (tensor_reindex m d) = tensor_profile st d.
  Proof.
    unfold tensor_profile. cbn [tensor_reindex t_label t_lower t_upper]. assert (X : forall l s', in_space (map (reindex m) l) s' = in_space l s') by (intros l s'; apply icnt_map; intros; apply map_same).
    f_equal; [f_equal|]; apply map_ext; intros s'; apply X.
  Qed.
  Lemma legs_icnt l s' : (forall x, In x l -> In x L) -> in_space (map ix l) s' = cnt s' l.
  Proof. intros H. apply icnt_legs. intros x Hx. apply (ev_labels _ _ _ _ _ _ _ _ _ EV), H, Hx. Qed.
  Lemma op_profile A : (A < length ops)%nat -> tensor_profile st (op_tensor st ops ix A) = oper_profile st (nth A ops (mkOp [] gm_zero)).
  Proof.
    intros HA0. unfold tensor_profile, oper_profile. cbn [op_tensor t_label t_lower t_upper].
    assert (I : forall x, In x (op_cre_legs st ops A ++ rev (op_ann_legs st ops A)) -> In x L) by (intros x Hx; unfold L, product_legs; apply in_flat_map; exists A; split; auto; apply in_seq; lia).
    f_equal; [f_equal|]; apply map_ext_in; intros s' Hs; rewrite legs_icnt.
    - unfold op_cre_legs. rewrite (cnt_space_list _ (fun x => ops_cre ops A x)).
      + destruct (in_dec Z.eq_dec s' (range (num_spaces st))); [reflexivity|tauto].
      + intros x y Hy. apply in_map_iff in Hy. destruct Hy as (i & <- & _). reflexivity.
      + intros x. rewrite map_length, range_len. reflexivity.
      + apply range_nodup.
    - intros x Hx. apply I. apply in_or_app. auto.
    - unfold op_ann_legs. rewrite (cnt_space_list _ (fun x => ops_ann ops A x)).
      + destruct (in_dec Z.eq_dec s' (range (num_spaces st))); [reflexivity|tauto].
      + intros x y Hy. apply in_map_iff in Hy. destruct Hy as (i & <- & _). reflexivity.
      + intros x. rewrite map_length, range_len. reflexivity.
      + apply range_nodup.
    - intros x Hx. apply I. apply in_or_app. right. rewrite <- in_rev. auto.
  Qed.
  Lemma one_space_profile l s0 : (forall x, In x l -> In x L /\ leg_space x = s0) -> map (in_space (map ix l)) (range (num_spaces st)) = only_in st s0 (length l).
  Proof.
    intros H. apply map_ext. intros s'. rewrite legs_icnt by (intros; apply H; auto). assert (G : forall x, In x l -> leg_space x = s0) by (intros; apply H; auto). clear H. unfold cnt. induction l as [|x l IH]; [destruct (s' =? s0); reflexivity|].
    cbn [filter]. rewrite (G x) by (left; auto). rewrite Z.eqb_sym. specialize (IH (fun y Hy => G y (or_intror Hy))). destruct (s' =? s0); cbn [length]; congruence.
  Qed.
  Lemma density p c e d : In p picks -> In c cs -> carries_out st (length ops) (fst p ++ snd p) c -> contribution st L ix (fst p) (snd p) e -> In d (snd (fst e)) ->
    density_profile st maxc (tensor_profile st d) /\ t_sym d = Antisymmetric /\ t_cc d = false.
  Proof.
    intros Hp Hc Co C Hd. rewrite Forall_forall in HA. assert (Al := HA c Hc). assert (Lg : forall l, In l (fst p ++ snd p) -> In l L) by (intros l Hl; exact (pick_in st ops cs t s ix picks effects rest EV p l Hp Hl)).
    assert (Sp := one_space st maxc ops cs t s ix picks effects rest EV c p Hp Al Co). assert (Gb := allowed_good st ops maxc Hok c _ Al (fun l Hl => proj1 (in_product st ops l) (Lg l Hl)) Co).
    destruct p as [pc pa]. cbn [fst snd] in *.
    assert (G1 : forall q l, In q (pc ++ pa) -> incl l (pc ++ pa) -> map (in_space (map ix l)) (range (num_spaces st)) = only_in st (leg_space q) (length l)).
    { intros q l Hq I. apply one_space_profile. intros x Hx. split; [apply Lg, I, Hx|apply Sp; auto]. }
    assert (Sx : forall l, In l (pc ++ pa) -> is_space st (leg_space l)) by (intros l Hl; apply Lg in Hl; apply in_product in Hl; tauto).
    inversion C; subst; cbn [fst snd] in Hd; try contradiction; destruct Hd as [<-|[]]; (split; [|split; reflexivity]); unfold tensor_profile; cbn [t_label t_lower t_upper].
    - change [ix q] with (map ix [q]). change [ix p] with (map ix [p]). rewrite !(G1 p) by (simpl; auto; intros x [<-|[]]; simpl; auto). apply dp_gamma; auto. apply Sx. simpl. auto.
    - change [ix q] with (map ix [q]). change [ix p] with (map ix [p]). rewrite !(G1 p) by (simpl; auto; intros x [<-|[]]; simpl; auto). apply dp_eta; auto. apply Sx. simpl. auto.
    - rewrite (map_ext (in_space (rev (map ix pa))) (in_space (map ix pa))) by (intros s'; apply in_space_perm, Permutation_sym, Permutation_rev).
      rewrite (G1 p pa), (G1 p (p :: pc0)) by (simpl; auto; intros x Hx; simpl in *; rewrite in_app_iff; tauto). rewrite H1.
      apply dp_lambda; auto; [apply Sx; simpl; auto|]. destruct Gb as [(x & y & Px & _)|(s0 & _ & _ & _ & _ & Bd & _)].
      + apply Permutation_length in Px. rewrite app_length, H1 in Px. cbn [length] in *. lia.
      + assert (X : Forall (fun l => leg_cre l = true) (p :: pc0) /\ Forall (fun l => leg_cre l = false) pa) by (assert (K := P_kinds); rewrite Forall_forall in K; exact (K _ Hp)). destruct X as (X1 & X2).
        rewrite Forall_forall in X1, X2. unfold WickGenProofs4.ncre in Bd. rewrite filter_app, (filter_all _ (p :: pc0)), (filter_none _ pa), app_nil_r in Bd; [lia| |]; apply Forall_forall; intros l Hl; rewrite ?(X1 l Hl), ?(X2 l Hl); reflexivity.
  Qed.
  Lemma dts_profile : Forall (fun d => density_profile st maxc (tensor_profile st d) /\ t_sym d = Antisymmetric /\ t_cc d = false) dts.
  Proof.
    apply Forall_forall. intros d Hd. unfold dts in Hd. apply in_flat_map in Hd. destruct Hd as (e & He & Hd).
    assert (X : exists p c, In p picks /\ In c cs /\ carries_out st (length ops) (fst p ++ snd p) c /\ contribution st L ix (fst p) (snd p) e).
    { assert (P := ev_picks _ _ _ _ _ _ _ _ _ EV). assert (E := ev_effects _ _ _ _ _ _ _ _ _ EV). clear - P E He. fold L in E. revert cs P. induction E as [|p e0 ps es C E IH]; intros cs0 P; [destruct He|]. inversion P as [|? c ? cs1 (C1 & _) P1]; subst. destruct He as [<-|He].
      - exists p, c. split; [left; auto|]. split; [left; auto|]. auto.
      - destruct (IH He _ P1) as (p' & c' & H1 & H2 & H3). exists p', c'. split; [right; auto|]. split; [right; auto|]. auto. }
    destruct X as (p & c & Hp & Hc & Co & C). eapply density; eauto.
  Qed.
  Lemma eval_tensors : exists ds, Forall (density_profile st maxc) ds /\ map (tensor_profile st) (tm_tens t) = map (oper_profile st) ops ++ ds.
  Proof.
    exists (map (tensor_profile st) dts). split; [apply Forall_forall; intros x Hx; apply in_map_iff in Hx; destruct Hx as (d & <- & Hd); assert (K := dts_profile); rewrite Forall_forall in K; apply K, Hd|].
    rewrite t_eq. unfold term_reindex. cbn [tm_tens]. rewrite map_map, (map_ext _ _ profile_reindex), map_app. f_equal. unfold ots. rewrite map_map.
    transitivity (map (oper_profile st) (map (fun A => nth A ops (mkOp [] gm_zero)) (seq 0 (length ops)))).
    - rewrite map_map. apply map_ext_in. intros A H. apply in_seq in H. apply op_profile. lia.
    - f_equal. clear. induction ops as [|o os IH]; [reflexivity|]. cbn [length seq map]. f_equal. rewrite <- seq_shift, map_map. exact IH.
  Qed.
  Lemma eval_plain : Forall (fun d => t_sym d = Antisymmetric /\ t_cc d = false) (tm_tens t).
  Proof.
    rewrite t_eq. unfold term_reindex. cbn [tm_tens]. apply Forall_forall. intros d Hd. apply in_map_iff in Hd. destruct Hd as (d0 & <- & Hd). cbn [tensor_reindex t_sym t_cc]. apply in_app_or in Hd. destruct Hd as [Hd|Hd].
    - apply in_map_iff in Hd. destruct Hd as (A & <- & _). auto.
    - assert (K := dts_profile). rewrite Forall_forall in K. apply K, Hd.
  Qed.
  Lemma eval_no : tm_no t = false.
  Proof. rewrite t_eq. reflexivity. Qed.
  Lemma eval_length : Z.of_nat (length (tm_ops t)) = ops_rank ops - total_of ec_num_ops cs.
  Proof.
    rewrite <- (legs_rank st ops Hok). fold L. rewrite (Permutation_length P_all), app_length. rewrite t_eq. unfold term_reindex. cbn [tm_ops]. rewrite !map_length.
    enough (Z.of_nat (length (flat_map (fun p => fst p ++ snd p) picks)) = total_of ec_num_ops cs) by lia.
    assert (P := ev_picks _ _ _ _ _ _ _ _ _ EV). assert (Lg := fun p l => pick_in st ops cs t s ix picks effects rest EV p l). clear EV.
    induction P as [|p c ps cs0 (C & _) P IH]; [reflexivity|]. cbn [flat_map total_of fold_right]. rewrite app_length, Nat2Z.inj_add. inversion HA; subst. f_equal.
    - symmetry. apply (allowed_length st ops maxc Hok c); auto. intros l Hl. apply in_product. apply (Lg p); [left|]; auto.
    - apply IH; auto. intros p' l Hp. apply Lg. right. auto.
  Qed.
  Lemma pick_balanced s' : cnt s' (flat_map fst picks) = cnt s' (flat_map snd picks).
  Proof.
    assert (E := ev_effects _ _ _ _ _ _ _ _ _ EV). assert (P := ev_picks _ _ _ _ _ _ _ _ _ EV).
    assert (Sp : forall p c, In p picks -> In c cs -> carries_out st (length ops) (fst p ++ snd p) c -> forall l l', In l (fst p ++ snd p) -> In l' (fst p ++ snd p) -> leg_space l = leg_space l').
    { intros p c Hp Hc. rewrite Forall_forall in HA. exact (one_space st maxc ops cs t s ix picks effects rest EV c p Hp (HA c Hc)). }
    clear - E P Sp. revert cs P Sp. induction E as [|p e ps es C E IH]; intros cs0 P Sp; [reflexivity|]. inversion P as [|? c ? cs1 (C1 & _) P1]; subst. cbn [flat_map]. rewrite !cnt_app. f_equal.
    - specialize (Sp p c (or_introl eq_refl) (or_introl eq_refl) C1). destruct p as [pc pa]. cbn [fst snd] in *.
      assert (Ln : length pc = length pa) by (inversion C; subst; cbn [length] in *; congruence). assert (G : forall l s0, (forall x, In x l -> leg_space x = s0) -> cnt s' l = if s' =? s0 then length l else O).
      { intros l s0. unfold cnt. induction l as [|x l IHl]; intros G; [destruct (s' =? s0); reflexivity|]. cbn [filter]. rewrite (G x) by (left; auto). rewrite Z.eqb_sym. specialize (IHl (fun y Hy => G y (or_intror Hy))). destruct (s' =? s0); cbn [length]; congruence. }
      destruct pc as [|q pc]; [destruct pa; [reflexivity|discriminate]|]. rewrite (G _ (leg_space q)), (G pa (leg_space q)), Ln; [reflexivity| |]; intros x Hx; apply Sp; try (left; reflexivity); apply in_or_app; auto.
    - apply (IH cs1 P1). intros p' c' Hp Hc. apply Sp; right; auto.
  Qed.
  Lemma cnt_kind (b : bool) s' : is_space st s' ->
    Z.of_nat (cnt s' (flat_map (fun A => if b then op_cre_legs st ops A else op_ann_legs st ops A) (seq 0 (length ops)))) = if b then cre_total ops s' else ann_total ops s'.
  Proof.
    intros Hs. assert (X : forall os As, (forall A, In A As -> (A < length ops)%nat) -> os = map (fun A => nth A ops (mkOp [] gm_zero)) As -> Z.of_nat (cnt s' (flat_map (fun A => if b then op_cre_legs st ops A else op_ann_legs st ops A) As)) = if b then cre_total os s' else ann_total os s').
    { intros os As. revert os. induction As as [|A As IH]; intros os HAs ->; [destruct b; reflexivity|]. cbn [map flat_map]. rewrite cnt_app, Nat2Z.inj_add, (IH _ (fun B HB => HAs B (or_intror HB)) eq_refl).
      destruct (ops_nonneg st ops s' A Hok Hs (HAs A (or_introl eq_refl))) as (N1 & N2).
      assert (Y : forall h, 0 <= h s' -> Z.of_nat (cnt s' (flat_map (fun s => map (fun i => ((A, s, b), i)) (range (h s))) (range (num_spaces st)))) = h s').
      { intros h Hh. rewrite (cnt_space_list _ h).
        + destruct (in_dec Z.eq_dec s' (range (num_spaces st))) as [|Nn]; [lia|exfalso; apply Nn, range_in, Hs].
        + intros x y Hy. apply in_map_iff in Hy. destruct Hy as (i & <- & _). reflexivity.
        + intros x. rewrite map_length, range_len. reflexivity.
        + apply range_nodup. }
      unfold op_cre_legs, op_ann_legs. destruct b; [rewrite (Y (fun s => ops_cre ops A s)) by exact N1|rewrite (Y (fun s => ops_ann ops A s)) by exact N2]; reflexivity. }
    apply X; [intros A H; apply in_seq in H; lia|]. clear. induction ops as [|o os IH]; [reflexivity|]. cbn [length seq map]. f_equal. rewrite <- seq_shift, map_map. exact IH.
  Qed.
  Lemma eval_balance s' : is_space st s' -> cre_in t s' <= cre_total ops s' /\ ann_in t s' <= ann_total ops s' /\ cre_in t s' - ann_in t s' = cre_total ops s' - ann_total ops s'.
  Proof.
    intros Hs. unfold cre_in, ann_in. rewrite t_creators, t_annihilators, !legs_icnt by (intros x Hx; apply filter_In in Hx; eapply rest_in_L; [exact EV|apply Hx]).
    assert (K1 := cnt_kind true s' Hs). assert (K2 := cnt_kind false s' Hs). rewrite (cnt_perm _ _ _ (kind_perm true)), cnt_app in K1. rewrite (cnt_perm _ _ _ (kind_perm false)), cnt_app in K2. assert (B := pick_balanced s'). cbn beta iota in *.
    change (fun p : list leg * list leg => fst p) with (@fst (list leg) (list leg)) in K1. change (fun p : list leg * list leg => snd p) with (@snd (list leg) (list leg)) in K2. lia.
  Qed.
  Lemma eval_ops_nodup : NoDup (map s_idx (tm_ops t)).
  Proof.
    rewrite t_eq. unfold term_reindex. cbn [tm_ops]. rewrite !map_map. cbn [sqop_reindex leg_sqop s_idx]. rewrite (map_ext_in _ ix) by (intros l Hl; apply rest_fixed, Hl).
    assert (N := P_nodup). apply nodup_app_inv in N. destruct N as (_ & N & _). assert (I := fun l => rest_in_L st ops cs t s ix picks effects rest EV l). assert (J := ix_inj). clear - N I J.
    induction N as [|x l Nx N IH]; [constructor|]. cbn [map]. constructor; [|apply IH; intros y Hy; apply I; right; auto]. intros K. apply in_map_iff in K. destruct K as (y & E & Hy). apply J in E; [subst; tauto| |]; apply I; [right|left]; auto.
  Qed.
  Lemma eval_size : Z.of_nat (length (upper_slots t)) <= ops_rank ops.
  Proof.
    destruct eval_einstein as (rs & N & I & P1 & _). rewrite (Permutation_length P1), map_length, <- (legs_rank st ops Hok). apply inj_le, NoDup_incl_length; auto.
  Qed.
End Shape.
