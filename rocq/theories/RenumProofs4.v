(** C78: [op] with the same texts in both registries makes the same sums. *)
From Coq Require Import Ascii ZArith QArith List Bool Permutation Lia.
From Verif Require Import Res PartitionsModel RationalModel RationalSpec RationalProofs RegistryModel RegistryProofs CoreModel OrderProofs AlgebraModel AlgebraSpec AlgebraProofs AlgebraProofs2 OperatorModel OperatorSpec OperatorProofs OperatorProofs2
  WickSearchModel WickSearchSpec WickCombProofs LadderSpec RenumSpec RenumProofs3.
Import ListNotations.
Local Open Scope Z_scope.
Definition zrange (n : Z) : list Z := map Z.of_nat (seq 0 (Z.to_nat n)).
Lemma zrange_in n s : In s (zrange n) <-> 0 <= s < n.
Proof.
  unfold zrange. rewrite in_map_iff. split.
  - intros (i & <- & Hi). apply in_seq in Hi. lia.
  - intros H. exists (Z.to_nat s). split; [lia|]. apply in_seq. lia.
Qed.
Lemma zrange_nodup n : NoDup (zrange n).
Proof. apply FinFun.Injective_map_NoDup; [intros a b; apply Nat2Z.inj|apply seq_NoDup]. Qed.
Lemma ren_surj st st' pi s : renumbering st st' pi -> registered st s -> exists t, registered st' t /\ pi t = s.
Proof.
  intros R Hs. set (L := zrange (num_spaces st')). set (M := map pi L).
  assert (N : NoDup M).
  { assert (G : forall l, (forall t, In t l -> registered st' t) -> NoDup l -> NoDup (map pi l)).
    { induction l as [|t l IH]; intros Hl Nd; [constructor|]. inversion_clear Nd as [|? ? Nt Nd']. constructor; [|apply IH; [intros u Hu; apply Hl; right; exact Hu|exact Nd']].
      intros X. apply in_map_iff in X. destruct X as (u & E & Hu). apply Nt. rewrite <- (ren_inj R (Hl u (or_intror Hu)) (Hl t (or_introl eq_refl)) E). exact Hu. }
    apply G; [|apply zrange_nodup]. intros t Ht. apply zrange_in in Ht. exact Ht. }
  assert (I : incl (zrange (num_spaces st)) M).
  { apply NoDup_length_incl; [exact N| |].
    - unfold M, L, zrange. rewrite !map_length, !seq_length, (ren_num R). apply le_n.
    - intros u Hu. apply in_map_iff in Hu. destruct Hu as (t & <- & Ht). apply zrange_in in Ht. apply zrange_in. exact (ren_reg R Ht). }
  assert (X : In s M) by (apply I; apply zrange_in; exact Hs). apply in_map_iff in X. destruct X as (t & E & Ht). exists t. split; [apply zrange_in in Ht; exact Ht|exact E].
Qed.
Lemma coef_zero (m : opexpr) k : (forall c, ~ In (k, c) m) -> (coef oprod_eqb m k == 0)%Q.
Proof.
  induction m as [|[k' c'] m IH]; intros H; [reflexivity|]. unfold coef; simpl. fold (coef oprod_eqb m k). rewrite IH; [|intros c Hc; exact (H c (or_intror Hc))].
  unfold ind. destruct (oprod_eqb k' k) eqn:E; [|ring]. apply oprod_eqb_eq in E. subst. exfalso. exact (H c' (or_introl eq_refl)).
Qed.
Lemma coef_nonzero (m : opexpr) k : ~ (coef oprod_eqb m k == 0)%Q -> exists c, In (k, c) m.
Proof.
  intros H. induction m as [|[k' c'] m IH]; [exfalso; apply H; reflexivity|]. destruct (oprod_eqb k' k) eqn:E.
  - apply oprod_eqb_eq in E. subst. exists c'. left. reflexivity.
  - destruct IH as (c & Hc); [|exists c; right; exact Hc]. intros X. apply H. unfold coef; simpl. fold (coef oprod_eqb m k). rewrite X. unfold ind. rewrite E. ring.
Qed.
Lemma text_label st label s o : component_op st label s = Ok o -> op_label o = label.
Proof.
  unfold component_op. destruct (count_tokens st (op_tokens s)) as [[c a]| | |]; try discriminate. cbn [bind]. destruct (gm_make st c a); try discriminate. cbn [bind]. intros [= <-]. reflexivity.
Qed.
Lemma same_iff st st' pi o1 o2 o1' o2' : renumbering st st' pi -> ops_ok st [o1] -> ops_ok st [o2] -> ops_ok st' [o1'] -> ops_ok st' [o2'] ->
  same_oper st' pi o1 o1' -> same_oper st' pi o2 o2' -> (o1 = o2 <-> o1' = o2').
Proof.
  intros R (Hn & V1) (_ & V2) (Hn' & V1') (_ & V2') (L1 & S1) (L2 & S2).
  apply Forall_inv in V1. apply Forall_inv in V2. apply Forall_inv in V1'. apply Forall_inv in V2'. destruct o1 as [l1 g1], o2 as [l2 g2], o1' as [l1' g1'], o2' as [l2' g2']. cbn [op_label op_gm] in *. subst. split.
  - intros [= -> ->]. f_equal. apply (gm_valid_ext st'); [apply V1'|apply V2'|exact Hn'|]. intros s Hs. destruct (S1 s Hs) as [-> ->]. destruct (S2 s Hs) as [-> ->]. split; reflexivity.
  - intros [= -> ->]. f_equal. apply (gm_valid_ext st); [apply V1|apply V2|exact Hn|]. intros s Hs. destruct (ren_surj _ _ _ _ R Hs) as (t & Ht & <-).
    destruct (S1 t Ht) as [<- <-]. destruct (S2 t Ht) as [<- <-]. split; reflexivity.
Qed.
Section Sum.
  Variables (st st' : osi) (pi : Z -> Z) (label : text) (comps : list text).
  Hypothesis R : renumbering st st' pi.
  Hypothesis C : forall s, In s comps -> exists o o', component_op st label s = Ok o /\ component_op st' label s = Ok o' /\ same_oper st' pi o o' /\ ops_ok st [o] /\ ops_ok st' [o'].
  (** The operator of the other registry. *)
  Definition other (k : oprod) : oprod :=
    match k with
    | [o] => match find (fun s => match component_op st label s with Ok q => oper_eqb q o | _ => false end) comps with
             | Some s => match component_op st' label s with Ok o' => [o'] | _ => [] end | None => [] end
    | _ => [] end.
  Lemma comp_iff s1 s2 o1 o2 o1' o2' : In s1 comps -> In s2 comps -> component_op st label s1 = Ok o1 -> component_op st label s2 = Ok o2 ->
    component_op st' label s1 = Ok o1' -> component_op st' label s2 = Ok o2' -> (o1 = o2 <-> o1' = o2').
  Proof.
    intros H1 H2 E1 E2 E1' E2'. destruct (C s1 H1) as (a & a' & A & A' & S & K & K'). destruct (C s2 H2) as (b & b' & B & B' & T & L & L').
    rewrite A in E1. rewrite A' in E1'. rewrite B in E2. rewrite B' in E2'. injection E1 as <-. injection E1' as <-. injection E2 as <-. injection E2' as <-. eapply same_iff; eauto.
  Qed.
  Lemma other_comp s o o' : In s comps -> component_op st label s = Ok o -> component_op st' label s = Ok o' -> other [o] = [o'].
  Proof.
    intros Hs E E'. unfold other. destruct (find _ comps) as [s2|] eqn:F.
    - apply find_some in F. destruct F as (H2 & X). destruct (C s2 H2) as (a & a' & A & A' & _). rewrite A in X. apply oper_eqb_eq in X. subst a. rewrite A'. f_equal.
      exact (proj1 (comp_iff s2 s o o a' o' H2 Hs A E A' E') eq_refl).
    - exfalso. apply (find_none _ _ F) in Hs. rewrite E in Hs. assert (X : oper_eqb o o = true) by (apply oper_eqb_eq; reflexivity). congruence.
  Qed.
  Lemma sum_renum (e e' : opexpr) : wf oprod_ltb e -> wf oprod_ltb e' ->
    (forall k, ~ (coef oprod_eqb e k == 0)%Q -> exists s o, In s comps /\ component_op st label s = Ok o /\ k = [o]) ->
    (forall k, ~ (coef oprod_eqb e' k == 0)%Q -> exists s o, In s comps /\ component_op st' label s = Ok o /\ k = [o]) ->
    (forall s o o', In s comps -> component_op st label s = Ok o -> component_op st' label s = Ok o' -> (coef oprod_eqb e [o] == coef oprod_eqb e' [o'])%Q) ->
    same_sum st' pi e e'.
  Proof.
    intros (Se & Ce & Ne) (Se' & Ce' & Ne') K K' X. unfold mcanon, mnz in *. rewrite Forall_forall in Ce, Ce', Ne, Ne'.
    assert (ND : forall m : opexpr, msorted oprod_ltb m -> NoDup (map fst m)).
    { induction m as [|x m IH]; intros S; [constructor|]. inversion_clear S as [|? ? S' F]. constructor; [|exact (IH S')]. intros I. apply in_map_iff in I. destruct I as (y & Ey & Hy).
      rewrite Forall_forall in F. specialize (F y Hy). cbn beta in F. rewrite Ey in F. destruct (swo_eq _ _ swo_oprod (fst x) (fst x)) as [Q _]. rewrite (proj1 (Q (swo_eqrefl _ _ swo_oprod _))) in F. discriminate. }
    assert (In1 : forall k c, In (k, c) e -> exists s o o', In s comps /\ component_op st label s = Ok o /\ component_op st' label s = Ok o' /\ k = [o] /\ other k = [o'] /\ same_oper st' pi o o').
    { intros k c Hk. destruct (K k) as (s & o & Hs & E & ->). { rewrite (coef_in _ _ swo_oprod k c e Se Hk). exact (Ne _ Hk). }
      destruct (C s Hs) as (q & o' & Eq & E' & S & _). rewrite E in Eq. injection Eq as <-. exists s, o, o'. repeat split; auto; try apply S; auto. exact (other_comp s o o' Hs E E'). }
    exists (map (fun x => (other (fst x), snd x)) e). split.
    - apply NoDup_Permutation.
      + assert (G : forall l, incl l e -> NoDup (map fst l) -> NoDup (map (fun x : oprod * rational => (other (fst x), snd x)) l)).
        { induction l as [|[k c] l IH]; intros Hl Nd; [constructor|]. cbn [map fst] in Nd. inversion_clear Nd as [|? ? Nk Nd']. constructor; [|apply IH; [intros y Hy; apply Hl; right; exact Hy|exact Nd']].
          intros I. apply in_map_iff in I. destruct I as ([k2 c2] & E & Hk2). cbn [fst snd] in E. injection E as Ek _.
          destruct (In1 k c (Hl _ (or_introl eq_refl))) as (s & o & o' & Hs & E1 & E1' & -> & Ot & _). destruct (In1 k2 c2 (Hl _ (or_intror Hk2))) as (s2 & q & q' & Hs2 & E2 & E2' & -> & Ot2 & _).
          rewrite Ot, Ot2 in Ek. injection Ek as Ek. apply Nk. apply (proj2 (comp_iff s2 s q o q' o' Hs2 Hs E2 E1 E2' E1')) in Ek. subst q. apply in_map_iff. exists ([o], c2). split; [reflexivity|exact Hk2]. }
        apply G; [apply incl_refl|apply ND, Se].
      + apply (NoDup_map_inv fst). apply ND, Se'.
      + intros [k' c']. split.
        * intros I. apply in_map_iff in I. destruct I as ([k c] & E & Hk). cbn [fst snd] in E. injection E as <- <-. destruct (In1 k c Hk) as (s & o & o' & Hs & E1 & E1' & -> & Ot & _). rewrite Ot.
          assert (Q : (coef oprod_eqb e' [o'] == Qval c)%Q) by (rewrite <- (X s o o' Hs E1 E1'); exact (coef_in _ _ swo_oprod _ _ e Se Hk)).
          destruct (coef_nonzero e' [o']) as (c2 & H2). { rewrite Q. exact (Ne _ Hk). }
          replace c with c2; [exact H2|]. apply canonical_val_inj; [exact (Ce' _ H2)|exact (Ce _ Hk)|]. rewrite <- Q. symmetry. exact (coef_in _ _ swo_oprod _ _ e' Se' H2).
        * intros Hk. destruct (K' k') as (s & o' & Hs & E1' & ->). { rewrite (coef_in _ _ swo_oprod _ _ e' Se' Hk). exact (Ne' _ Hk). }
          destruct (C s Hs) as (o & q & E1 & Eq & _). rewrite E1' in Eq. injection Eq as <-.
          assert (Q : (coef oprod_eqb e [o] == Qval c')%Q) by (rewrite (X s o o' Hs E1 E1'); exact (coef_in _ _ swo_oprod _ _ e' Se' Hk)).
          destruct (coef_nonzero e [o]) as (c2 & H2). { rewrite Q. exact (Ne' _ Hk). }
          apply in_map_iff. exists ([o], c2). split; [|exact H2]. cbn [fst snd]. rewrite (other_comp s o o' Hs E1 E1'). f_equal.
          apply canonical_val_inj; [exact (Ce _ H2)|exact (Ce' _ Hk)|]. rewrite <- Q. symmetry. exact (coef_in _ _ swo_oprod _ _ e Se H2).
    - assert (G : forall l : opexpr, incl l e -> Forall2 (fun x y => same_product st' pi (fst x) (fst y) /\ snd x = snd y) l (map (fun x => (other (fst x), snd x)) l)).
      { induction l as [|[k c] l IH]; intros Hl; constructor; [|apply IH; intros y Hy; apply Hl; right; exact Hy]. cbn [fst snd]. split; [|reflexivity].
        destruct (In1 k c (Hl _ (or_introl eq_refl))) as (s & o & o' & _ & _ & _ & -> & -> & S). constructor; [exact S|constructor]. }
      apply G, incl_refl.
  Qed.
End Sum.
Lemma count_pos st label comps o : comp_count st label comps o <> O <-> exists s, In s comps /\ component_op st label s = Ok o.
Proof.
  unfold comp_count. split.
  - intros H. destruct (filter _ comps) as [|s l] eqn:E; [exfalso; apply H; reflexivity|]. assert (I : In s (s :: l)) by (left; reflexivity). rewrite <- E in I. apply filter_In in I. destruct I as (Hs & X).
    exists s. split; [exact Hs|]. destruct (component_op st label s); try discriminate. apply oper_eqb_eq in X. subst. reflexivity.
  - intros (s & Hs & E) H. apply length_zero_iff_nil in H. assert (I : In s []); [|destruct I]. rewrite <- H. apply filter_In. split; [exact Hs|]. rewrite E. apply oper_eqb_eq. reflexivity.
Qed.
Lemma nz_dup st label comps (e : opexpr) : (forall o, (coef oprod_eqb e [o] == inject_Z (Z.of_nat (comp_count st label comps o)))%Q) -> (forall k, length k <> 1%nat -> (coef oprod_eqb e k == 0)%Q) ->
  forall k, ~ (coef oprod_eqb e k == 0)%Q -> exists s o, In s comps /\ component_op st label s = Ok o /\ k = [o].
Proof.
  intros A B k H. destruct k as [|o [|? ?]]; [exfalso; apply H, B; discriminate| |exfalso; apply H, B; discriminate].
  assert (N : comp_count st label comps o <> O) by (intros X; apply H; rewrite A, X; reflexivity). apply count_pos in N. destruct N as (s & Hs & E). exists s, o. auto.
Qed.
Lemma nz_uniq st label comps (e : opexpr) : (forall k, ((exists o s, k = [o] /\ In s comps /\ component_op st label s = Ok o) -> (coef oprod_eqb e k == 1)%Q) /\
    (~ (exists o s, k = [o] /\ In s comps /\ component_op st label s = Ok o) -> (coef oprod_eqb e k == 0)%Q)) ->
  forall k, ~ (coef oprod_eqb e k == 0)%Q -> exists s o, In s comps /\ component_op st label s = Ok o /\ k = [o].
Proof.
  intros A k H. destruct k as [|o [|? ?]]; [exfalso; apply H, A; intros (? & ? & X & _); discriminate| |exfalso; apply H, A; intros (? & ? & X & _); discriminate].
  assert (N : comp_count st label comps o <> O). { intros X. apply H, A. intros (q & s & E & Hs & Es). injection E as <-. apply (proj2 (count_pos st label comps o)) in X; [exact X|]. exists s. auto. }
  apply count_pos in N. destruct N as (s & Hs & E). exists s, o. auto.
Qed.
Theorem op_renum_sum st st' pi label comps u : reachable st -> reachable st' -> (length (space_info st) <= 8)%nat -> renumbering st st' pi ->
  (forall t, registered st' t -> space_label st' t = space_label st (pi t)) -> (forall t l, space_label st t = Ok l -> letter l) ->
  Forall (known_letters st) comps -> Forall (known_letters st') comps ->
  exists e e', make_op_expr st label comps u = Ok e /\ make_op_expr st' label comps u = Ok e' /\ same_opexpr st st' pi e e'.
Proof.
  intros Re Re' Hn R HL Hl F F'. assert (Hn' : (length (space_info st') <= 8)%nat) by (pose proof (ren_num R) as E; unfold num_spaces in E; lia).
  assert (C : forall s, In s comps -> exists o o', component_op st label s = Ok o /\ component_op st' label s = Ok o' /\ same_oper st' pi o o' /\ ops_ok st [o] /\ ops_ok st' [o']).
  { intros s Hs. rewrite Forall_forall in F, F'. apply component_renum; auto. }
  assert (K : forall e e', wf oprod_ltb e -> wf oprod_ltb e' -> (forall k, ~ (coef oprod_eqb e k == 0)%Q -> exists s o, In s comps /\ component_op st label s = Ok o /\ k = [o]) ->
    (forall k, ~ (coef oprod_eqb e' k == 0)%Q -> exists s o, In s comps /\ component_op st' label s = Ok o /\ k = [o]) ->
    (forall x, In x e -> ops_ok st (fst x)) /\ (forall x, In x e' -> ops_ok st' (fst x))).
  { intros e e' (Se & Ce & Ne) (Se' & Ce' & Ne') H H'. unfold mnz in *. rewrite Forall_forall in Ne, Ne'. split; intros [k c] Hk.
    - destruct (H k) as (s & o & Hs & E & ->). { rewrite (coef_in _ _ swo_oprod _ _ e Se Hk). exact (Ne _ Hk). } destruct (C s Hs) as (q & q' & Eq & _ & _ & O & _). rewrite E in Eq. injection Eq as <-. exact O.
    - destruct (H' k) as (s & o & Hs & E & ->). { rewrite (coef_in _ _ swo_oprod _ _ e' Se' Hk). exact (Ne' _ Hk). } destruct (C s Hs) as (q & q' & _ & Eq & _ & _ & O). rewrite E in Eq. injection Eq as <-. exact O. }
  destruct u.
  - destruct (op_spec_unique st label comps (reachable_ok st Re) Hn F) as (e & E & W & A). destruct (op_spec_unique st' label comps (reachable_ok st' Re') Hn' F') as (e' & E' & W' & A').
    exists e, e'. split; [exact E|]. split; [exact E'|]. assert (N := nz_uniq st label comps e A). assert (N' := nz_uniq st' label comps e' A'). destruct (K e e' W W' N N') as (O & O').
    split; [exact W|]. split; [exact W'|]. split; [exact O|]. split; [exact O'|]. apply (sum_renum st st' pi label comps R C e e' W W' N N'). intros s o o' Hs Eo Eo'. 
    rewrite (proj1 (A [o])), (proj1 (A' [o'])); [reflexivity| |]; [exists o', s|exists o, s]; auto.
  - destruct (op_spec st label comps (reachable_ok st Re) Hn F) as (e & E & W & A & B). destruct (op_spec st' label comps (reachable_ok st' Re') Hn' F') as (e' & E' & W' & A' & B').
    exists e, e'. split; [exact E|]. split; [exact E'|]. assert (N := nz_dup st label comps e A B). assert (N' := nz_dup st' label comps e' A' B'). destruct (K e e' W W' N N') as (O & O').
    split; [exact W|]. split; [exact W'|]. split; [exact O|]. split; [exact O'|]. apply (sum_renum st st' pi label comps R C e e' W W' N N'). intros s o o' Hs Eo Eo'. 
    rewrite A, A'. apply inject_Z_injective. f_equal. unfold comp_count. f_equal. apply filter_ext_in. intros s2 H2. destruct (C s2 H2) as (q & q' & Eq & Eq' & _). rewrite Eq, Eq'.
    apply eq_true_iff_eq. rewrite !oper_eqb_eq. exact (comp_iff st st' pi label comps R C s2 s q o q' o' H2 Hs Eq Eo Eq' Eo').
Qed.
