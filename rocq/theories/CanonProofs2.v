(** Canonicalization of terms: shape of the result, injectivity, labels, totality. *)
From Coq Require Import ZArith List Bool Permutation Lia.
From Verif Require Import Res PartitionsModel PartitionsProofs RegistryModel CoreModel CombinatoricsModel OrderProofs RationalModel AlgebraModel SortModel SortSpec SortProofs
  OperatorModel OperatorSpec OperatorProofs OperatorProofs2 AdjointModel CanonModel CanonSpec CanonProofs.
Import ListNotations.
Local Open Scope Z_scope.

Lemma fold_canon ts r0 s0 r s : foldM (fun r t => bind (tensor_canonicalize t) (fun x => Ok (fst r ++ [fst x], snd r * snd x))) (r0, s0) ts = Ok (r, s) ->
  exists l, mapM tensor_canonicalize ts = Ok l /\ r = r0 ++ map fst l /\ s = s0 * zprod (map snd l).
Proof.
  revert r0 s0. induction ts as [|d ts IH]; intros r0 s0; cbn [foldM mapM].
  - intros [= <- <-]. exists []. split; [reflexivity|]. simpl. rewrite app_nil_r. split; [reflexivity|lia].
  - destruct (tensor_canonicalize d) as [[d' sd]| | |]; cbn [bind]; try discriminate. cbn [fst snd]. intros H.
    destruct (IH _ _ H) as (l & -> & -> & ->). cbn [bind]. eexists. split; [reflexivity|]. cbn [map fst snd]. rewrite <- app_assoc. split; [reflexivity|].
    unfold zprod. cbn [fold_right]. lia.
Qed.

Lemma tensor_reindex_rename m : tensor_reindex m = rename_tensor (reindex m).
Proof. reflexivity. Qed.

Lemma canonicalize_from_inv st t ts t' s : canonicalize_from st t ts = Ok (t', s) ->
  exists m l so, relabel_map st (tm_ops t) ts = Ok m /\ mapM tensor_canonicalize (map (rename_tensor (reindex m)) ts) = Ok l /\
    tm_tens t' = map fst l /\ tm_no t' = tm_no t /\ canonicalize_sqops (map (rename_op (reindex m)) (tm_ops t)) false = (tm_ops t', so) /\
    s = zprod (map snd l) * so.
Proof.
  unfold canonicalize_from. intros H. apply bind_Ok in H. destruct H as (m & Em & H). apply bind_Ok in H. destruct H as ([tl st'] & Ex & H).
  unfold canon_tensors in Ex. apply fold_canon in Ex. destruct Ex as (l & El & -> & ->). cbn [app tm_ops tm_tens term_reindex] in *.
  destruct (canonicalize_sqops (map (sqop_reindex m) (tm_ops t)) false) as [ops so] eqn:Eo.
  cbn [fst snd] in H. rewrite Z.mul_1_l in H. destruct (simplify_ok st _); [|discriminate]. injection H as <- <-. exists m, l, so. cbn [tm_tens tm_no tm_ops fst snd].
  split; [exact Em|]. split; [exact El|]. split; [reflexivity|]. split; [reflexivity|]. split; [exact Eo|]. reflexivity.
Qed.

Lemma canonicalize_sqops_spec l l' s : canonicalize_sqops l false = (l', s) -> sperm l s l' /\ ordered sqop_ltb l'.
Proof. intros E. assert (X := canonicalize_list_spec sqop_ltb sqop_eqb swo_sqop l false). unfold canonicalize_sqops in E. now rewrite E in X. Qed.

Lemma Forall2_map_fst {A B} (R : A -> B -> Prop) (l : list A) (l' : list (B * Z)) :
  Forall2 (fun a x => R a (fst x)) l l' -> Forall2 R l (map fst l').
Proof. induction 1; simpl; constructor; auto. Qed.

Lemma Forall2_impl {A B} (R S : A -> B -> Prop) l l' : (forall a b, R a b -> S a b) -> Forall2 R l l' -> Forall2 S l l'.
Proof. induction 2; constructor; auto. Qed.

Lemma canon_same_tensor d d' s : tensor_canonicalize d = Ok (d', s) -> same_tensor d d'.
Proof.
  intros H. apply tensor_canon_form in H. destruct H as (E1 & E2 & E3 & P1 & P2 & _). unfold same_tensor. auto.
Qed.

Lemma from_renamed st t ts t' s : Permutation (tm_tens t) ts -> canonicalize_from st t ts = Ok (t', s) ->
  exists m, relabel_map st (tm_ops t) ts = Ok m /\ renamed (reindex m) t t'.
Proof.
  intros P H. apply canonicalize_from_inv in H. destruct H as (m & l & so & Em & El & Et & En & Eo & _). exists m. split; [exact Em|].
  unfold renamed. split; [exact En|]. split.
  - pose proof (canonicalize_list_spec sqop_ltb sqop_eqb swo_sqop (map (rename_op (reindex m)) (tm_ops t)) false) as X. unfold canonicalize_sqops in Eo. rewrite Eo in X. eapply sperm_perm. apply X.
  - exists (map (rename_tensor (reindex m)) ts). split; [now apply Permutation_map|]. rewrite Et. apply Forall2_map_fst.
    apply mapM_Ok in El. eapply Forall2_impl; [|exact El]. intros a [b sb] E. simpl. eapply canon_same_tensor. exact E.
Qed.

Lemma perm_slots ts ts' : Permutation ts ts' -> Permutation (concat (map tensor_indices ts)) (concat (map tensor_indices ts')).
Proof.
  induction 1; simpl; [reflexivity|now apply Permutation_app_head| |etransitivity; eassumption].
  rewrite !app_assoc. apply Permutation_app_tail. apply Permutation_app_comm.
Qed.
Lemma slots_in t i : In i (concat (map tensor_indices (tm_tens t))) <-> in_tensors t i.
Proof. apply in_slots. Qed.

Lemma term_relabel st t ts : term_spaces st t -> Permutation (tm_tens t) ts ->
  exists c, relabel_map st (tm_ops t) ts = Ok (c_map c) /\ inv (length (space_info st)) (tm_ops t) c /\
    (forall k, In k (map fst (c_map c)) <-> in_tensors t k).
Proof.
  intros H P. destruct (relabel_spec st (tm_ops t) ts) as (c & E & I & K).
  - intros o Ho. apply H. left. exists o. auto.
  - intros i Hi. apply H. right. apply slots_in. eapply Permutation_in; [|exact Hi]. symmetry. now apply perm_slots.
  - exists c. split; [exact E|]. split; [exact I|]. intros k. rewrite K, <- slots_in. split; apply Permutation_in; [symmetry|]; now apply perm_slots.
Qed.

Lemma reindex_inj n ops c i j : inv n ops c -> In i (map fst (c_map c)) -> In j (map fst (c_map c)) ->
  reindex (c_map c) i = reindex (c_map c) j -> i = j.
Proof.
  intros I Hi Hj E. apply reindex_in in Hi. apply reindex_in in Hj.
  pose proof (inv_inj n ops c _ _ I Hi Hj E) as X. congruence.
Qed.
Lemma reindex_space n ops c i : inv n ops c -> isp (reindex (c_map c) i) = isp i.
Proof.
  intros I. destruct (in_dec index_dec i (map fst (c_map c))) as [H|H].
  - apply reindex_in in H. now apply (inv_space n ops c I) in H.
  - now rewrite reindex_out.
Qed.

Theorem canon_renaming st t t' s : term_spaces st t -> term_canonicalize st t (Ok (t', s)) ->
  exists f, (forall i, isp (f i) = isp i) /\ injective_on (in_tensors t) f /\ (forall i, in_term t i -> ~ in_tensors t i -> f i = i) /\ renamed f t t'.
Proof.
  intros H (ts & S & E). symmetry in E. pose proof (sorted_tensors_perm _ _ _ S) as P.
  destruct (term_relabel st t ts H P) as (c & Em & I & K). destruct (from_renamed st t ts t' s P E) as (m & Em' & R).
  rewrite Em in Em'. injection Em' as <-. exists (reindex (c_map c)). split; [intros i; eapply reindex_space; exact I|]. split; [|split; [|exact R]].
  - intros i j Hi Hj. apply K in Hi. apply K in Hj. eapply reindex_inj; eassumption.
  - intros i _ Hi. apply reindex_out. now rewrite K.
Qed.

(** ** Labels *)
Lemma key_label n ops c i : inv n ops c -> In i (map fst (c_map c)) ->
  let s := isp i in let a := length (filter (opent ops s) (c_map c)) in let b := length (filter (tent ops s) (c_map c)) in
  if is_op_index ops i then 0 <= ipos (reindex (c_map c) i) < Z.of_nat a else nops ops s <= ipos (reindex (c_map c) i) < nops ops s + Z.of_nat b.
Proof.
  intros I Hi s a b. pose proof (reindex_in _ _ Hi) as He. destruct (inv_space n ops c I _ He) as [_ B]. cbn [fst] in B.
  destruct (is_op_index ops i) eqn:Op.
  - destruct (inv_ops n ops c I s B) as [O1 _]. assert (X : In (ipos (reindex (c_map c) i)) (zrange 0 a)).
    { unfold a. rewrite <- O1. apply (in_map (fun e => ipos (snd e)) _ (i, reindex (c_map c) i)). apply filter_In. split; [exact He|].
      unfold opent. cbn [fst]. rewrite Op. apply Z.eqb_refl. }
    apply zrange_in in X. lia.
  - destruct (inv_tns n ops c I s B) as [O1 _]. assert (X : In (ipos (reindex (c_map c) i)) (zrange (nops ops s) b)).
    { unfold b. rewrite <- O1. apply (in_map (fun e => ipos (snd e)) _ (i, reindex (c_map c) i)). apply filter_In. split; [exact He|].
      unfold tent. cbn [fst]. rewrite Op. apply Z.eqb_refl. }
    apply zrange_in in X. lia.
Qed.
Lemma label_key n ops c s p : inv n ops c -> 0 <= s < Z.of_nat n ->
  let a := length (filter (opent ops s) (c_map c)) in let b := length (filter (tent ops s) (c_map c)) in
  (0 <= p < Z.of_nat a -> exists i, In i (map fst (c_map c)) /\ isp i = s /\ is_op_index ops i = true /\ ipos (reindex (c_map c) i) = p) /\
  (nops ops s <= p < nops ops s + Z.of_nat b -> exists i, In i (map fst (c_map c)) /\ isp i = s /\ is_op_index ops i = false /\ ipos (reindex (c_map c) i) = p).
Proof.
  intros I B a b. assert (U : forall e, In e (c_map c) -> reindex (c_map c) (fst e) = snd e).
  { intros e He. pose proof (reindex_in (c_map c) (fst e) (in_map fst _ _ He)) as H2.
    pose proof (filter_nodup_inj fst (c_map c) e _ (inv_keys n ops c I) He H2 eq_refl) as X. rewrite X at 2. reflexivity. }
  split; intros Hp.
  - destruct (inv_ops n ops c I s B) as [O1 _]. assert (X : In p (zrange 0 a)) by (apply zrange_in; lia).
    unfold a in X. rewrite <- O1 in X. apply in_map_iff in X. destruct X as (e & Ee & He). apply filter_In in He. destruct He as [He Ho].
    unfold opent in Ho. apply andb_true_iff in Ho. destruct Ho as [Ho Hs]. apply Z.eqb_eq in Hs. exists (fst e). split; [now apply in_map|]. split; [exact Hs|]. split; [exact Ho|]. now rewrite U.
  - destruct (inv_tns n ops c I s B) as [O1 _]. assert (X : In p (zrange (nops ops s) b)) by (apply zrange_in; lia).
    unfold b in X. rewrite <- O1 in X. apply in_map_iff in X. destruct X as (e & Ee & He). apply filter_In in He. destruct He as [He Ho].
    unfold tent in Ho. apply andb_true_iff in Ho. destruct Ho as [Ho Hs]. apply Z.eqb_eq in Hs. apply negb_true_iff in Ho. exists (fst e). split; [now apply in_map|]. split; [exact Hs|]. split; [exact Ho|]. now rewrite U.
Qed.

(** If the operator indices are distinct and covered, all operators of a space are counted. *)
Lemma ops_exact n ops c s : inv n ops c -> NoDup (map s_idx ops) -> (forall o, In o ops -> In (s_idx o) (map fst (c_map c))) ->
  Z.of_nat (length (filter (opent ops s) (c_map c))) = nops ops s.
Proof.
  intros I ND Cov. apply Z.le_antisymm; [eapply ops_bound; exact I|]. unfold nops. apply Nat2Z.inj_le.
  rewrite <- (map_length s_idx (filter _ ops)), <- (map_length fst (filter (opent ops s) _)). apply NoDup_incl_length.
  - clear -ND. induction ops as [|o ops IH]; simpl; [constructor|]. simpl in ND. apply NoDup_cons_iff in ND. destruct (s_space o =? s); [|apply IH; tauto].
    simpl. constructor; [|apply IH; tauto]. intros H. apply in_map_iff in H. destruct H as (o' & E & H). apply filter_In in H. apply (proj1 ND). rewrite <- E. apply in_map. tauto.
  - intros x Hx. apply in_map_iff in Hx. destruct Hx as (o & <- & Ho). apply filter_In in Ho. destruct Ho as [Ho Hs].
    specialize (Cov o Ho). apply in_map_iff in Cov. destruct Cov as (e & E & He). rewrite <- E. apply in_map. apply filter_In. split; [exact He|].
    unfold opent. rewrite E. apply andb_true_iff. split; [apply is_op_index_iff; eauto|exact Hs].
Qed.

Lemma renamed_in_tensors f t t' j : renamed f t t' -> in_tensors t' j <-> exists i, in_tensors t i /\ f i = j.
Proof.
  intros (_ & _ & ts & P & F). split.
  - intros (d' & Hd' & Hj). assert (X : exists d, In d ts /\ same_tensor d d').
    { clear P. induction F as [|a b l l' S F IH]; [destruct Hd'|]. destruct Hd' as [->|Hd']; [exists a; simpl; auto|]. destruct (IH Hd') as (d & ? & ?). exists d. simpl. auto. }
    destruct X as (d & Hd & (_ & _ & _ & P1 & P2)). eapply Permutation_in in Hd; [|symmetry; exact P]. apply in_map_iff in Hd. destruct Hd as (d0 & <- & Hd0).
    cbn [rename_tensor t_lower t_upper] in P1, P2. destruct Hj as [Hj|Hj]; [eapply Permutation_in in Hj; [|symmetry; exact P1]|eapply Permutation_in in Hj; [|symmetry; exact P2]];
      apply in_map_iff in Hj; destruct Hj as (i & Ei & Hi); exists i; (split; [exists d0; auto|exact Ei]).
  - intros (i & (d & Hd & Hi) & <-). apply (in_map (rename_tensor f)) in Hd. eapply Permutation_in in Hd; [|exact P].
    assert (X : exists d', In d' (tm_tens t') /\ same_tensor (rename_tensor f d) d').
    { clear P. induction F as [|a b l l' S F IH]; [destruct Hd|]. destruct Hd as [<-|Hd']; [exists b; simpl; auto|]. destruct (IH Hd') as (d' & ? & ?). exists d'. simpl. auto. }
    destruct X as (d' & Hd' & (_ & _ & _ & P1 & P2)). exists d'. split; [exact Hd'|]. cbn [rename_tensor t_lower t_upper] in P1, P2.
    destruct Hi as [Hi|Hi]; [left; eapply Permutation_in; [exact P1|]|right; eapply Permutation_in; [exact P2|]]; now apply in_map.
Qed.
Lemma renamed_in_ops f t t' j : renamed f t t' -> in_ops t' j <-> exists i, in_ops t i /\ f i = j.
Proof.
  intros (_ & P & _). split.
  - intros (o & Ho & <-). eapply Permutation_in in Ho; [|symmetry; exact P]. apply in_map_iff in Ho. destruct Ho as (o' & <- & Ho). exists (s_idx o'). split; [exists o'; auto|reflexivity].
  - intros (i & (o & Ho & <-) & <-). exists (rename_op f o). split; [|reflexivity]. eapply Permutation_in; [exact P|]. now apply in_map.
Qed.

Theorem canon_labels st t t' s : term_spaces st t -> ops_covered t -> NoDup (map s_idx (tm_ops t)) -> term_canonicalize st t (Ok (t', s)) ->
  forall sp, 0 <= sp < num_spaces st -> exists k,
    (forall p, in_ops t' (mkI sp p) <-> 0 <= p < Z.of_nat (ops_in_space t sp)) /\
    (forall p, in_term t' (mkI sp p) <-> 0 <= p < Z.of_nat (ops_in_space t sp + k)).
Proof.
  intros H Cov ND (ts & S & E) sp Hsp. symmetry in E. pose proof (sorted_tensors_perm _ _ _ S) as P.
  destruct (term_relabel st t ts H P) as (c & Em & I & K). destruct (from_renamed st t ts t' s P E) as (m & Em' & R).
  rewrite Em in Em'. injection Em' as <-. set (f := reindex (c_map c)) in *. set (ops := tm_ops t) in *.
  assert (OE : Z.of_nat (length (filter (opent ops sp) (c_map c))) = nops ops sp).
  { eapply ops_exact; [exact I|exact ND|]. intros o Ho. apply K, Cov. exists o. auto. }
  change (Z.of_nat (ops_in_space t sp)) with (nops ops sp). exists (length (filter (tent ops sp) (c_map c))).
  rewrite Nat2Z.inj_add. change (Z.of_nat (ops_in_space t sp)) with (nops ops sp).
  assert (A : forall p, in_ops t' (mkI sp p) <-> 0 <= p < nops ops sp).
  { intros p. rewrite (renamed_in_ops f t t' _ R). split.
    - intros (i & Hi & Ei). assert (Ki : In i (map fst (c_map c))) by (apply K, Cov, Hi).
      pose proof (key_label _ _ _ _ I Ki) as L. cbn zeta in L. rewrite (proj2 (is_op_index_iff ops i) Hi) in L. fold f in L.
      assert (isp i = sp) by (rewrite <- (reindex_space _ _ _ i I); fold f; rewrite Ei; reflexivity). rewrite H0, OE, Ei in L. exact L.
    - intros Hp. rewrite <- OE in Hp. destruct (proj1 (label_key _ _ _ sp p I Hsp) Hp) as (i & Ki & Si & Oi & Pi). exists i. split; [now apply is_op_index_iff|].
      fold f in Pi. assert (isp (f i) = sp) by (unfold f; rewrite (reindex_space _ _ _ i I); exact Si). destruct (f i); simpl in *; congruence. }
  split; [exact A|]. intros p. unfold in_term. rewrite A, (renamed_in_tensors f t t' _ R). split.
  - intros [Hp|(i & Hi & Ei)]; [lia|]. apply K in Hi.
    pose proof (key_label _ _ _ _ I Hi) as L. cbn zeta in L. fold f in L.
    assert (Si : isp i = sp) by (rewrite <- (reindex_space _ _ _ i I); fold f; rewrite Ei; reflexivity). rewrite Si, OE, Ei in L. cbn [ipos] in L.
    assert (0 <= nops ops sp) by (unfold nops; lia). destruct (is_op_index ops i); lia.
  - intros Hp. destruct (Z_lt_ge_dec p (nops ops sp)) as [Lt|Ge]; [left; lia|right].
    destruct (proj2 (label_key _ _ _ sp p I Hsp)) as (i & Ki & Si & Oi & Pi); [lia|]. exists i. split; [now apply K|].
    fold f in Pi. assert (isp (f i) = sp) by (unfold f; rewrite (reindex_space _ _ _ i I); exact Si). destruct (f i); simpl in *; congruence.
Qed.

(** ** Totality *)
Lemma canon_tensors_total ts r : (forall d, In d ts -> t_sym d <> Nonsymmetric) ->
  exists r', foldM (fun r t => bind (tensor_canonicalize t) (fun x => Ok (fst r ++ [fst x], snd r * snd x))) r ts = Ok r'.
Proof.
  revert r. induction ts as [|d ts IH]; intros r H; cbn [foldM]; [eauto|].
  pose proof (H d (or_introl eq_refl)) as Hd. unfold tensor_canonicalize at 1. destruct (canonicalize_indices _ _), (canonicalize_indices _ _).
  destruct (t_sym d); try congruence; cbn [bind]; apply IH; intros; apply H; now right.
Qed.
Lemma canon_tensors_throw ts r : (exists d, In d ts /\ t_sym d = Nonsymmetric) ->
  foldM (fun r t => bind (tensor_canonicalize t) (fun x => Ok (fst r ++ [fst x], snd r * snd x))) r ts = Throw.
Proof.
  revert r. induction ts as [|d ts IH]; intros r (e & He & Se); [destruct He|]. cbn [foldM]. destruct (t_sym d) eqn:Sd.
  3:{ unfold tensor_canonicalize at 1. rewrite Sd. reflexivity. }
  all: unfold tensor_canonicalize at 1; rewrite Sd; destruct (canonicalize_indices _ _), (canonicalize_indices _ _); cbn [bind]; apply IH; exists e; (split; [|exact Se]); destruct He as [->|He]; [congruence|exact He].
Qed.

Lemma tents_bound n ops c s l : inv n ops c -> (forall k, In k (map fst (c_map c)) -> In k l) ->
  (length (filter (tent ops s) (c_map c)) <= length (filter (fun i => (isp i =? s)%Z) l))%nat.
Proof.
  intros I Sub. rewrite <- (map_length fst (filter (tent ops s) _)). apply NoDup_incl_length.
  - pose proof (inv_keys n ops c I) as ND. clear I Sub. induction (c_map c) as [|e m IH]; simpl; [constructor|]. simpl in ND. apply NoDup_cons_iff in ND.
    destruct (tent ops s e); [|apply IH; tauto]. simpl. constructor; [|apply IH; tauto]. intros H. apply in_map_iff in H. destruct H as (e' & E & H).
    apply filter_In in H. apply (proj1 ND). rewrite <- E. apply in_map. tauto.
  - intros x Hx. apply in_map_iff in Hx. destruct Hx as (e & <- & He). apply filter_In in He. destruct He as [He Ho].
    unfold tent in Ho. apply andb_true_iff in Ho. apply filter_In. split; [apply Sub; now apply in_map|tauto].
Qed.

Theorem canon_total st t : term_spaces st t -> (forall sp, 0 <= sp < num_spaces st -> (slots_in_space t sp <= 64)%nat) ->
  (exists r, term_canonicalize st t r) /\
  forall r, term_canonicalize st t r -> if existsb (fun d => match t_sym d with Nonsymmetric => true | _ => false end) (tm_tens t) then r = Throw else exists t' s, r = Ok (t', s).
Proof.
  intros H B. split; [destruct (sorted_tensors_ex st t H) as (ts & S); exists (canonicalize_from st t ts), ts; auto|].
  intros r (ts & S & ->). pose proof (sorted_tensors_perm _ _ _ S) as P. destruct (term_relabel st t ts H P) as (c & Em & I & K).
  destruct (existsb _ _) eqn:N.
  - apply existsb_exists in N. destruct N as (d & Hd & Sd). unfold canonicalize_from. rewrite Em. cbn [bind]. unfold canon_tensors.
    rewrite canon_tensors_throw; [reflexivity|]. exists (tensor_reindex (c_map c) d). split; [|destruct d as [? ? ? [] ?]; simpl in *; congruence].
    cbn [term_reindex tm_tens]. apply in_map. eapply Permutation_in; [exact P|exact Hd].
  - assert (NS : forall d, In d ts -> t_sym d <> Nonsymmetric).
    { intros d Hd E. eapply Permutation_in in Hd; [|symmetry; exact P]. assert (X := proj2 (existsb_exists (fun d => match t_sym d with Nonsymmetric => true | _ => false end) (tm_tens t))).
      rewrite N in X. discriminate X. exists d. rewrite E. auto. }
    unfold canonicalize_from. rewrite Em. cbn [bind]. unfold canon_tensors. cbn [term_reindex tm_tens tm_ops].
    destruct (canon_tensors_total (map (tensor_reindex (c_map c)) ts) ([], 1)) as ([tl sg] & Etl).
    { intros d Hd. apply in_map_iff in Hd. destruct Hd as (d0 & <- & Hd0). exact (NS d0 Hd0). }
    rewrite Etl. cbn [bind fst snd]. destruct (canonicalize_sqops _ _) as [ops so] eqn:Eo.
    assert (Sim : simplify_ok st tl = true); [|rewrite Sim; eauto].
    apply fold_canon in Etl. destruct Etl as (l & El & -> & _). cbn [app].
    assert (R : renamed (reindex (c_map c)) (mkTerm false [] ts) (mkTerm false [] (map fst l))).
    { split; [reflexivity|]. split; [reflexivity|]. exists (map (rename_tensor (reindex (c_map c))) ts). split; [reflexivity|]. apply Forall2_map_fst.
      apply mapM_Ok in El. eapply Forall2_impl; [|exact El]. intros a [b sb] E. simpl. eapply canon_same_tensor. exact E. }
    unfold simplify_ok. apply forallb_forall. intros j Hj. apply (proj1 (in_slots _ _)) in Hj.
    apply (renamed_in_tensors _ _ _ j R) in Hj. destruct Hj as (i & Hi & <-).
    assert (Hit : in_tensors t i). { destruct Hi as (d & Hd & Hi). cbn [tm_tens] in Hd. exists d. split; [|exact Hi]. eapply Permutation_in; [symmetry; exact P|exact Hd]. }
    assert (Ki : In i (map fst (c_map c))) by now apply K. pose proof (key_label _ _ _ _ I Ki) as L. cbn zeta in L.
    assert (Bi : 0 <= isp i < num_spaces st) by (apply H; right; exact Hit). specialize (B (isp i) Bi). unfold slots_in_space in B.
    pose proof (ops_bound _ _ _ (isp i) I) as OB. pose proof (tents_bound _ _ _ (isp i) (concat (map tensor_indices (tm_tens t))) I) as TB.
    specialize (TB ltac:(intros k Hk; apply slots_in; now apply K)). unfold tensor_indices in TB.
    rewrite (reindex_space _ _ _ i I). change (nops (tm_ops t) (isp i)) with (Z.of_nat (ops_in_space t (isp i))) in *.
    apply orb_true_iff. right. apply andb_true_iff. rewrite Z.leb_le, Z.ltb_lt. destruct (is_op_index (tm_ops t) i); lia.
Qed.
