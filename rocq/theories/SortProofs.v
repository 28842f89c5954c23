(** Proofs about sorting with signs. *)
From Coq Require Import ZArith List Bool Sorted Permutation Lia.
From Verif Require Import Res RegistryModel CoreModel OrderProofs CombinatoricsModel SignProofs SortModel SortSpec.
Import ListNotations.
Local Open Scope Z_scope.

(** ** sperm *)
Lemma sperm_pm {A} (l l' : list A) s : sperm l s l' -> s = 1 \/ s = -1.
Proof. induction 1; lia. Qed.
Lemma sperm_perm {A} (l l' : list A) s : sperm l s l' -> Permutation l l'.
Proof.
  induction 1; [reflexivity|]. transitivity (l1 ++ y :: x :: l2); [|assumption].
  apply Permutation_app_head. constructor.
Qed.
Lemma sperm_trans {A} (l1 l2 l3 : list A) s t : sperm l1 s l2 -> sperm l2 t l3 -> sperm l1 (s * t) l3.
Proof.
  induction 1 as [l|a x y b s l' H IH]; intros T.
  - now replace (1 * t) with t by lia.
  - replace (- s * t) with (- (s * t)) by lia. constructor. auto.
Qed.
Lemma sperm_swap1 {A} l1 (x y : A) l2 : sperm (l1 ++ x :: y :: l2) (-1) (l1 ++ y :: x :: l2).
Proof. apply (sp_swap l1 x y l2 1). constructor. Qed.
Lemma sperm_cons {A} (a : A) l s l' : sperm l s l' -> sperm (a :: l) s (a :: l').
Proof. induction 1 as [l|l1 x y l2 s l' H IH]; [constructor|]. exact (sp_swap (a :: l1) x y l2 s (a :: l') IH). Qed.
Lemma perm_sperm {A} (l l' : list A) : Permutation l l' -> exists s, sperm l s l'.
Proof.
  induction 1 as [|a l l' P [s IH]|x y l|l1 l2 l3 P1 [s1 H1] P2 [s2 H2]].
  - exists 1. constructor.
  - exists s. now apply sperm_cons.
  - exists (-1). apply (sperm_swap1 [] y x l).
  - exists (s1 * s2). eapply sperm_trans; eauto.
Qed.
Lemma sperm_map {A B} (f : A -> B) l s l' : sperm l s l' -> sperm (map f l) s (map f l').
Proof.
  induction 1 as [l|l1 x y l2 s l' H IH]; [constructor|]. rewrite map_app in *. simpl in *. now constructor.
Qed.
Lemma sperm_psign l s l' : NoDup l -> sperm l s l' -> permutation_sign l = s * permutation_sign l'.
Proof.
  intros N H. induction H as [l|l1 x y l2 s l' H IH]; [lia|].
  assert (P : Permutation (l1 ++ x :: y :: l2) (l1 ++ y :: x :: l2)) by (apply Permutation_app_head; constructor).
  assert (N' : NoDup (l1 ++ y :: x :: l2)) by (eapply Permutation_NoDup; eauto).
  change permutation_sign with psign in *. rewrite psign_adj.
  - rewrite IH by assumption. lia.
  - apply NoDup_remove_2 in N. intros ->. apply N. apply in_or_app. right. now left.
Qed.

Lemma sperm_unique_Z (l : list Z) s s' l' : NoDup l -> sperm l s l' -> sperm l s' l' -> s = s'.
Proof.
  intros N H H'. apply sperm_psign in H; [|assumption]. apply sperm_psign in H'; [|assumption].
  destruct (psign_pm l') as [E|E]; change permutation_sign with psign in *; rewrite E in H, H'; lia.
Qed.

Fixpoint lpos {A} (dec : forall a b : A, {a = b} + {a <> b}) (m : list A) (a : A) : Z :=
  match m with [] => 0 | b :: m' => if dec a b then 0 else 1 + lpos dec m' a end.
Lemma lpos_nonneg {A} dec (m : list A) a : 0 <= lpos dec m a.
Proof. induction m as [|c m IH]; cbn [lpos]; [lia|]. destruct (dec a c); lia. Qed.
Lemma lpos_inj {A} dec (m : list A) a b : In a m -> In b m -> lpos dec m a = lpos dec m b -> a = b.
Proof.
  revert a b. induction m as [|c m IH]; cbn [lpos In]; intros a b Ia Ib; [tauto|].
  assert (Pa := lpos_nonneg dec m a). assert (Pb := lpos_nonneg dec m b).
  destruct (dec a c), (dec b c); subst; auto; intros E; try lia.
  apply IH; [destruct Ia; congruence|destruct Ib; congruence|lia].
Qed.

(** The sign is determined when the elements are pairwise distinct. *)
Lemma sperm_unique {A} (dec : forall a b : A, {a = b} + {a <> b}) (l : list A) s s' l' :
  NoDup l -> sperm l s l' -> sperm l s' l' -> s = s'.
Proof.
  intros N H H'. assert (Inj := lpos_inj dec).
  apply (sperm_unique_Z (map (lpos dec l) l) s s' (map (lpos dec l) l')); try now apply sperm_map.
  clear - N Inj. assert (G : forall m, (forall a, In a m -> In a l) -> NoDup m -> NoDup (map (lpos dec l) m)); [|now apply G].
  induction m as [|a m IH]; intros S Nm; simpl; constructor; inversion Nm; subst.
  - intros I. apply in_map_iff in I. destruct I as (b & E & I). apply Inj in E; [subst; contradiction|apply S; now right|apply S; now left].
  - apply IH; auto. intros; apply S; now right.
Qed.

(** ** Alternating functions *)
Lemma sgn_opp {V} (opp : V -> V) s v : (forall v, opp (opp v) = v) -> s = 1 \/ s = -1 -> sgn opp (- s) v = opp (sgn opp s v).
Proof. intros I [-> | ->]; unfold sgn; simpl; [reflexivity|]. now rewrite I. Qed.
Lemma sgn_mul {V} (opp : V -> V) s t v : (forall v, opp (opp v) = v) -> s = 1 \/ s = -1 -> t = 1 \/ t = -1 ->
  sgn opp (s * t) v = sgn opp s (sgn opp t v).
Proof. intros I [-> | ->] [-> | ->]; unfold sgn; simpl; now rewrite ?I. Qed.
Lemma alternating_sperm {A V} (opp : V -> V) (f : list A -> V) : (forall v, opp (opp v) = v) -> alternating opp f ->
  forall l s l', sperm l s l' -> f l = sgn opp s (f l').
Proof.
  intros I Alt. induction 1 as [l|l1 x y l2 s l' H IH]; [reflexivity|].
  rewrite Alt, IH. symmetry. apply sgn_opp; [assumption|]. eapply sperm_pm; eauto.
Qed.
Lemma symmetric_perm {A V} (f : list A -> V) : symmetric_fn f -> forall l l', Permutation l l' -> f l = f l'.
Proof. intros S l l' P. destruct (perm_sperm _ _ P) as [s H]. induction H; [reflexivity|]. rewrite S. apply IHsperm. now apply sperm_perm in H. Qed.

(** ** Sorting *)
Lemma insert_by_perm {A} (lt : A -> A -> bool) a l : Permutation (a :: l) (insert_by lt a l).
Proof.
  induction l as [|b l IH]; simpl; [reflexivity|]. destruct (lt b a); [|reflexivity].
  transitivity (b :: a :: l); [constructor|]. now constructor.
Qed.
Lemma sort_by_perm {A} (lt : A -> A -> bool) l : Permutation l (sort_by lt l).
Proof. induction l as [|a l IH]; simpl; [reflexivity|]. rewrite <- insert_by_perm. now constructor. Qed.

Section S.
  Context {A : Type} (lt eqb : A -> A -> bool) (H : swo lt eqb).
  Lemma nlt_trans a b c : lt b a = false -> lt c b = false -> lt c a = false.
  Proof.
    intros X Y. destruct (lt c a) eqn:E; [|reflexivity].
    destruct (swo_cases _ _ H a b) as [(A1&A2&A3)|[(A1&A2&A3)|(A1&A2&A3)]]; try congruence.
    - assert (Z := swo_trans _ _ H _ _ _ E A1). congruence.
    - assert (Z := swo_lt_eq _ _ H _ _ _ E A3). congruence.
  Qed.
  Lemma insert_by_ordered a l : ordered lt l -> ordered lt (insert_by lt a l).
  Proof.
    induction 1 as [|b l S IH F]; simpl; [repeat constructor|]. destruct (lt b a) eqn:E.
    - constructor; [assumption|]. rewrite <- insert_by_perm. constructor; [|assumption]. now apply (swo_asym _ _ H).
    - constructor; [constructor; assumption|]. constructor; [assumption|].
      eapply Forall_impl; [|exact F]. simpl. intros c L. eapply nlt_trans; eauto.
  Qed.
  Lemma sort_by_ordered l : ordered lt (sort_by lt l).
  Proof. induction l; simpl; [constructor|]. now apply insert_by_ordered. Qed.

  (** If [==] is identity there is only one ordered rearrangement. *)
  Lemma sort_unique l : (forall a b, eqb a b = true -> a = b) -> forall l', ordered lt l' -> Permutation l l' -> l' = sort_by lt l.
  Proof.
    intros L l' S' P.
    assert (G : forall m m', ordered lt m -> ordered lt m' -> Permutation m m' -> m = m').
    { clear - H L. induction m as [|a m IH]; intros m' S S' P.
      - apply Permutation_nil in P. now subst.
      - destruct m' as [|b m']; [apply Permutation_sym, Permutation_nil in P; discriminate|].
        inversion S as [|? ? S1 F]; subst. inversion S' as [|? ? S1' F']; subst. rewrite Forall_forall in F, F'.
        assert (E : a = b).
        { apply L, (swo_eq _ _ H). split.
          - assert (I : In a (b :: m')) by (rewrite <- P; now left). destruct I as [->|I]; [apply (swo_irrefl _ _ H)|]. now apply F'.
          - assert (I : In b (a :: m)) by (rewrite P; now left). destruct I as [->|I]; [apply (swo_irrefl _ _ H)|]. now apply F. }
        subst. f_equal. apply IH; auto. now apply Permutation_cons_inv in P. }
    apply G; [assumption|apply sort_by_ordered|]. rewrite <- P. apply sort_by_perm.
  Qed.

  Lemma ordered_rev l : ordered lt l -> ordered (fun a b => lt b a) (rev l).
  Proof.
    unfold ordered. induction 1 as [|a l S IH F]; simpl; [constructor|].
    assert (G : forall m, StronglySorted (fun a b => lt a b = false) m -> Forall (fun b => lt b a = false) m ->
      StronglySorted (fun a b => lt a b = false) (m ++ [a])).
    { clear. induction m as [|b m IH]; intros S F; simpl; [repeat constructor|]. inversion S; inversion F; subst. constructor; [auto|].
      rewrite Forall_app. split; [assumption|repeat constructor; assumption]. }
    apply G; [assumption|]. rewrite <- Permutation_rev. assumption.
  Qed.
End S.

Lemma with_pos_fst {A} (l : list A) n : map fst (with_pos n l) = l.
Proof. revert n; induction l as [|a l IH]; intros n; simpl; [reflexivity|]. now rewrite IH. Qed.
Lemma with_pos_snd_sorted {A} (l : list A) n : StronglySorted Z.lt (map snd (with_pos n l)) /\ Forall (Z.le n) (map snd (with_pos n l)).
Proof.
  revert n; induction l as [|a l IH]; intros n; simpl; [split; constructor|].
  destruct (IH (n + 1)) as [S F]. split; (constructor; [|]); auto; try lia.
  - eapply Forall_impl; [|exact F]. intros; simpl in *; lia.
  - eapply Forall_impl; [|exact F]. intros; simpl in *; lia.
Qed.
Lemma with_pos_nodup {A} (l : list A) : NoDup (map snd (with_pos 0 l)).
Proof.
  destruct (with_pos_snd_sorted l 0) as [S _]. induction S as [|a m S IH F]; constructor; auto.
  intros I. rewrite Forall_forall in F. specialize (F _ I). lia.
Qed.
Lemma with_pos_sign {A} (l : list A) : permutation_sign (map snd (with_pos 0 l)) = 1.
Proof.
  apply psign_sorted. destruct (with_pos_snd_sorted l 0) as [S _]. induction S as [|a m S IH F]; constructor; auto.
  eapply Forall_impl; [|exact F]. intros; simpl in *; lia.
Qed.

(** Any rearrangement of the tagged list: the sign of the tags is the sign of the rearrangement. *)
Lemma tagged_sign {A} (l : list A) tl : Permutation (with_pos 0 l) tl ->
  sperm l (permutation_sign (map snd tl)) (map fst tl).
Proof.
  intros P. destruct (perm_sperm _ _ P) as [s H].
  assert (E : s = permutation_sign (map snd tl)).
  { assert (X := sperm_psign _ _ _ (with_pos_nodup l) (sperm_map snd _ _ _ H)). rewrite with_pos_sign in X.
    change permutation_sign with psign in *. destruct (psign_pm (map snd tl)) as [Y|Y]; rewrite Y in *; lia. }
  rewrite <- E. rewrite <- (with_pos_fst l 0) at 1. now apply sperm_map.
Qed.

Section CL.
  Context {A : Type} (lt eqb : A -> A -> bool) (H : swo lt eqb) (L : forall a b, eqb a b = true <-> a = b).

  Lemma swo_tagged : swo (pair_ltb lt Z.ltb) (fun x y : A * Z => eqb (fst x) (fst y) && (snd x =? snd y)).
  Proof. apply swo_pair; [assumption|apply swo_Z]. Qed.

  Lemma ordered_fst tl : ordered (pair_ltb lt Z.ltb) tl -> ordered lt (map fst tl).
  Proof.
    unfold ordered. induction 1 as [|[a n] tl S IH F]; simpl; constructor; auto. rewrite Forall_map.
    eapply Forall_impl; [|exact F]. intros [b m]; unfold pair_ltb; simpl. intros X. apply orb_false_iff in X. apply X.
  Qed.

  Lemma canonicalize_list_spec l r : let '(l', s) := canonicalize_list lt l r in
    sperm l s l' /\ (if r then ordered (fun a b => lt b a) l' else ordered lt l').
  Proof.
    unfold canonicalize_list, sort_pairs. cbv zeta.
    assert (P := sort_by_perm (pair_ltb lt Z.ltb) (with_pos 0 l)). assert (O := sort_by_ordered _ _ swo_tagged (with_pos 0 l)).
    destruct r.
    - split; [apply tagged_sign; now rewrite <- Permutation_rev|]. rewrite map_rev. apply ordered_rev. now apply ordered_fst.
    - split; [now apply tagged_sign|]. now apply ordered_fst.
  Qed.

  (** [std::sort] on the pairs has only one possible result. *)
  Lemma sort_pairs_unique l tl : ordered (pair_ltb lt Z.ltb) tl -> Permutation (with_pos 0 l) tl -> tl = sort_pairs lt false l.
  Proof.
    intros O P. apply (sort_unique _ _ swo_tagged); auto. intros [a n] [b m]; simpl. rewrite andb_true_iff, L, Z.eqb_eq. intros [-> ->]. reflexivity.
  Qed.
  Lemma sort_pairs_unique_rev l tl : ordered (fun a b => pair_ltb lt Z.ltb b a) tl -> Permutation (with_pos 0 l) tl -> tl = sort_pairs lt true l.
  Proof.
    intros O P. unfold sort_pairs. cbv zeta. rewrite <- (rev_involutive tl). f_equal.
    apply sort_pairs_unique; [|now rewrite <- Permutation_rev].
    exact (ordered_rev (fun a b => pair_ltb lt Z.ltb b a) tl O).
  Qed.
  (** Sorting a sorted list changes nothing and gives the sign +1. *)
  Lemma with_pos_ordered l n : ordered lt l -> ordered (pair_ltb lt Z.ltb) (with_pos n l).
  Proof.
    unfold ordered. intros S. revert n. induction S as [|a l S IH F]; intros n; simpl; constructor; auto.
    clear IH S. destruct (with_pos_snd_sorted l (n + 1)) as [_ G]. rewrite <- (with_pos_fst l (n + 1)) in F.
    rewrite Forall_forall in *. intros [b m] I. unfold pair_ltb; simpl.
    assert (X := F b (in_map fst _ _ I)). assert (Y := G m (in_map snd _ _ I)). simpl in Y. rewrite X. simpl.
    assert (Z : m <? n = false) by (apply Z.ltb_ge; lia). rewrite Z. apply andb_false_r.
  Qed.
  Lemma canonicalize_list_sorted l : ordered lt l -> canonicalize_list lt l false = (l, 1).
  Proof.
    intros O. unfold canonicalize_list. rewrite <- (sort_pairs_unique l (with_pos 0 l)); [|now apply with_pos_ordered|reflexivity].
    now rewrite with_pos_fst, with_pos_sign.
  Qed.
End CL.

Lemma canonicalize_indices_spec l r l' s : canonicalize_indices l r = (l', s) ->
  sperm l s l' /\ (if r then ordered (fun a b => index_ltb b a) l' else ordered index_ltb l').
Proof. intros E. assert (X := canonicalize_list_spec index_ltb index_eqb swo_index l r). unfold canonicalize_indices in E. now rewrite E in X. Qed.

Lemma index_dec (a b : index) : {a = b} + {a <> b}.
Proof. decide equality; apply Z.eq_dec. Qed.

Lemma canonicalize_indices_sign l r l' s s' : NoDup l -> canonicalize_indices l r = (l', s) -> sperm l s' l' -> s = s'.
Proof. intros N E S. apply canonicalize_indices_spec in E. destruct E as [S' _]. exact (sperm_unique index_dec l s s' l' N S' S). Qed.

Lemma canonicalize_indices_idem l l' s : canonicalize_indices l false = (l', s) -> canonicalize_indices l' false = (l', 1).
Proof.
  intros E. apply canonicalize_indices_spec in E. destruct E as [_ O].
  exact (canonicalize_list_sorted index_ltb index_eqb swo_index index_eqb_eq l' O).
Qed.

Lemma canonicalize_indices_sort_unique l tl :
  (ordered (pair_ltb index_ltb Z.ltb) tl -> Permutation (with_pos 0 l) tl -> canonicalize_indices l false = (map fst tl, permutation_sign (map snd tl))) /\
  (ordered (fun a b => pair_ltb index_ltb Z.ltb b a) tl -> Permutation (with_pos 0 l) tl -> canonicalize_indices l true = (map fst tl, permutation_sign (map snd tl))).
Proof.
  unfold canonicalize_indices, canonicalize_list. split; intros O P.
  - now rewrite <- (sort_pairs_unique index_ltb index_eqb swo_index index_eqb_eq l tl O P).
  - now rewrite <- (sort_pairs_unique_rev index_ltb index_eqb swo_index index_eqb_eq l tl O P).
Qed.

Lemma tensor_canon_elem {V} (opp : V -> V) (T : tensor_values V) t t' s : (forall v, opp (opp v) = v) ->
  tensor_canonicalize t = Ok (t', s) ->
  match t_sym t with
  | Antisymmetric => (forall lab lo cc, alternating opp (fun u => T lab lo u cc)) /\ (forall lab u cc, alternating opp (fun lo => T lab lo u cc))
  | _ => (forall lab lo cc, symmetric_fn (fun u => T lab lo u cc)) /\ (forall lab u cc, symmetric_fn (fun lo => T lab lo u cc))
  end ->
  tensor_elem T t = sgn opp s (tensor_elem T t').
Proof.
  intros I. unfold tensor_canonicalize. destruct (canonicalize_indices (t_upper t) false) as [u su] eqn:Eu.
  destruct (canonicalize_indices (t_lower t) false) as [l sl] eqn:El.
  apply canonicalize_indices_spec in Eu. apply canonicalize_indices_spec in El. destruct Eu as [Su _], El as [Sl _].
  unfold tensor_elem. destruct (t_sym t); intros [= <- <-] [HU HL]; simpl.
  - rewrite (symmetric_perm _ (HU _ _ _) _ _ (sperm_perm _ _ _ Su)). exact (symmetric_perm _ (HL _ _ _) _ _ (sperm_perm _ _ _ Sl)).
  - rewrite (alternating_sperm opp _ I (HU _ _ _) _ _ _ Su). rewrite (alternating_sperm opp _ I (HL _ _ _) _ _ _ Sl).
    symmetry. apply sgn_mul; auto; eapply sperm_pm; eauto.
Qed.

Lemma tensor_canon_form t t' s : tensor_canonicalize t = Ok (t', s) ->
  t_label t' = t_label t /\ t_sym t' = t_sym t /\ t_cc t' = t_cc t /\
  Permutation (t_upper t) (t_upper t') /\ Permutation (t_lower t) (t_lower t') /\
  ordered index_ltb (t_upper t') /\ ordered index_ltb (t_lower t') /\ (s = 1 \/ s = -1) /\ tensor_canonicalize t' = Ok (t', 1).
Proof.
  unfold tensor_canonicalize. destruct (canonicalize_indices (t_upper t) false) as [u su] eqn:Eu.
  destruct (canonicalize_indices (t_lower t) false) as [l sl] eqn:El.
  assert (Iu := canonicalize_indices_idem _ _ _ Eu). assert (Il := canonicalize_indices_idem _ _ _ El).
  apply canonicalize_indices_spec in Eu. apply canonicalize_indices_spec in El. destruct Eu as [Su Ou], El as [Sl Ol].
  assert (Pu := sperm_pm _ _ _ Su). assert (Pl := sperm_pm _ _ _ Sl). apply sperm_perm in Su. apply sperm_perm in Sl.
  destruct (t_sym t) eqn:E; intros [= <- <-]; cbn [t_label t_lower t_upper t_sym t_cc]; rewrite ?E, ?Iu, ?Il; repeat (split; [now auto|]); try reflexivity.
  split; [nia|reflexivity].
Qed.

Lemma tensor_canon_throws t : tensor_canonicalize t = Throw <-> t_sym t = Nonsymmetric.
Proof.
  unfold tensor_canonicalize. destruct (canonicalize_indices (t_upper t) false), (canonicalize_indices (t_lower t) false).
  destruct (t_sym t); split; congruence.
Qed.
