(** When does canonicalizing a second time change nothing? *)
From Coq Require Import ZArith List Bool Permutation Sorted Lia.
From Verif Require Import Res PartitionsModel PartitionsProofs RegistryModel CoreModel CombinatoricsModel OrderProofs RationalModel AlgebraModel SortModel SortSpec SortProofs
  OperatorModel OperatorProofs OperatorProofs2 AdjointModel CanonModel CanonSpec CanonProofs CanonProofs2.
Import ListNotations.
Local Open Scope Z_scope.

Definition cnt (c : cstate) (kind : bool) (s : Z) : Z := nth (Z.to_nat s) (if kind then c_sq c else c_tens c) 0.
Definition lo (ops : list sqop) (kind : bool) (s : Z) : Z := if kind then 0 else nops ops s.

Lemma inv_class n ops c s kind : inv n ops c -> 0 <= s < Z.of_nat n ->
  lo ops kind s <= cnt c kind s /\
  forall p, (exists e, In e (c_map c) /\ isp (fst e) = s /\ is_op_index ops (fst e) = kind /\ ipos (snd e) = p) <-> lo ops kind s <= p < cnt c kind s.
Proof.
  intros I Hs. destruct kind; unfold lo, cnt.
  - destruct (inv_ops n ops c I s Hs) as [E1 E2]. cbn zeta in *. rewrite E2. split; [lia|]. intros p.
    replace (0 <= p < Z.of_nat (length (filter (opent ops s) (c_map c)))) with (0 <= p < 0 + Z.of_nat (length (filter (opent ops s) (c_map c)))) by reflexivity.
    rewrite <- (zrange_in 0), <- E1, in_map_iff. split.
    + intros (e & He & Es & Ek & Ep). exists e. split; [exact Ep|]. apply filter_In. split; [exact He|]. unfold opent. rewrite Ek, Es. apply Z.eqb_refl.
    + intros (e & Ep & He). apply filter_In in He. destruct He as [He Ho]. unfold opent in Ho. apply andb_true_iff in Ho. destruct Ho as [Ho Hsp].
      apply Z.eqb_eq in Hsp. exists e. auto.
  - destruct (inv_tns n ops c I s Hs) as [E1 E2]. cbn zeta in *. rewrite E2. split; [lia|]. intros p.
    rewrite <- zrange_in, <- E1, in_map_iff. split.
    + intros (e & He & Es & Ek & Ep). exists e. split; [exact Ep|]. apply filter_In. split; [exact He|]. unfold tent. rewrite Ek, Es. apply Z.eqb_refl.
    + intros (e & Ep & He). apply filter_In in He. destruct He as [He Ho]. unfold tent in Ho. apply andb_true_iff in Ho. destruct Ho as [Ho Hsp].
      apply Z.eqb_eq in Hsp. exists e. split; [exact He|]. split; [exact Hsp|]. split; [|exact Ep]. now destruct (is_op_index ops (fst e)).
Qed.

Definition ident (c : cstate) : Prop := forall e, In e (c_map c) -> snd e = fst e.

(** One step on an index whose label equals the counter. *)
Lemma step_ident n ops c i : inv n ops c -> ident c -> 0 <= isp i < Z.of_nat n ->
  (~ In i (map fst (c_map c)) -> ipos i = cnt c (is_op_index ops i) (isp i)) ->
  exists c', relabel_step ops c i = Ok c' /\ inv n ops c' /\ ident c' /\ (forall k, In k (map fst (c_map c')) <-> k = i \/ In k (map fst (c_map c))).
Proof.
  intros I D Hi H. destruct (step_inv n ops c i I Hi) as (c' & E & I' & K & _). exists c'. split; [exact E|]. split; [exact I'|]. split; [|exact K].
  unfold relabel_step in E. destruct (imfind i (c_map c)) eqn:F; [injection E as <-; exact D|]. apply imfind_none in F. specialize (H F). unfold cnt in H.
  destruct (is_op_index ops i); (rewrite aget_nth in E by (destruct I; lia)); cbn [bind] in E; apply bind_Ok in E; destruct E as (v & _ & E); injection E as <-;
    intros e He; cbn [c_map] in He; apply in_app_or in He; (destruct He as [He|[<-|[]]]; [auto|]); cbn [fst snd]; rewrite <- H; destruct i; reflexivity.
Qed.

Lemma index_ltb_pos s p q : p < q -> index_ltb (mkI s p) (mkI s q) = true.
Proof. intros H. unfold index_ltb, pair_ltb. cbn [isp ipos fst snd]. apply Z.ltb_lt in H. rewrite H, Z.ltb_irrefl. reflexivity. Qed.
Lemma eq_mkI i s p : isp i = s -> ipos i = p -> i = mkI s p.
Proof. intros <- <-. now destruct i. Qed.

Lemma sorted_block n ops l c : inv n ops c -> ident c -> ordered index_ltb l -> (forall i, In i l -> 0 <= isp i < Z.of_nat n) ->
  (forall i, In i l -> ~ In i (map fst (c_map c)) -> let k := is_op_index ops i in cnt c k (isp i) <= ipos i /\
     forall p, cnt c k (isp i) <= p < ipos i -> In (mkI (isp i) p) l /\ is_op_index ops (mkI (isp i) p) = k) ->
  exists c', foldM (relabel_step ops) c l = Ok c' /\ inv n ops c' /\ ident c' /\ (forall k, In k (map fst (c_map c')) <-> In k l \/ In k (map fst (c_map c))).
Proof.
  revert c. induction l as [|i l IH]; intros c I D O S H.
  - exists c. split; [reflexivity|]. split; [exact I|]. split; [exact D|]. simpl. tauto.
  - apply StronglySorted_inv in O. destruct O as [O F]. rewrite Forall_forall in F. cbn [foldM].
    assert (Hi : 0 <= isp i < Z.of_nat n) by (apply S; now left).
    assert (Hp : ~ In i (map fst (c_map c)) -> ipos i = cnt c (is_op_index ops i) (isp i)).
    { intros N. destruct (H i (or_introl eq_refl) N) as [L C]. cbn zeta in *. destruct (Z.eq_dec (ipos i) (cnt c (is_op_index ops i) (isp i))) as [|Ne]; [assumption|exfalso].
      destruct (C (cnt c (is_op_index ops i) (isp i))) as [[E|X] _]; [lia| |].
      - apply (f_equal ipos) in E. cbn [ipos] in E. lia.
      - apply F in X. assert (Y := index_ltb_pos (isp i) (cnt c (is_op_index ops i) (isp i)) (ipos i)). replace (mkI (isp i) (ipos i)) with i in Y by (now destruct i). rewrite Y in X; [discriminate|lia]. }
    destruct (step_ident n ops c i I D Hi Hp) as (c1 & -> & I1 & D1 & K1). cbn [bind].
    assert (X : forall k s p, 0 <= s < Z.of_nat n -> (exists j, In j (map fst (c_map c1)) /\ isp j = s /\ is_op_index ops j = k /\ ipos j = p) <-> lo ops k s <= p < cnt c1 k s).
    { intros k s p Hs. rewrite <- (proj2 (inv_class n ops c1 s k I1 Hs) p). split.
      - intros (j & Hj & Ej & Ek & Ep). apply in_map_iff in Hj. destruct Hj as (e & <- & He). exists e. rewrite (D1 e He). auto.
      - intros (e & He & Es & Ek & Ep). exists (fst e). rewrite (D1 e He) in Ep. split; [now apply in_map|auto]. }
    assert (X0 : forall k s p, 0 <= s < Z.of_nat n -> (exists j, In j (map fst (c_map c)) /\ isp j = s /\ is_op_index ops j = k /\ ipos j = p) <-> lo ops k s <= p < cnt c k s).
    { intros k s p Hs. rewrite <- (proj2 (inv_class n ops c s k I Hs) p). split.
      - intros (j & Hj & Ej & Ek & Ep). apply in_map_iff in Hj. destruct Hj as (e & <- & He). exists e. rewrite (D e He). auto.
      - intros (e & He & Es & Ek & Ep). exists (fst e). rewrite (D e He) in Ep. split; [now apply in_map|auto]. }
    destruct (IH c1 I1 D1 O) as (c2 & -> & I2 & D2 & K2); [intros; apply S; now right| |].
    { intros j Hj Nj k. assert (Hsj : 0 <= isp j < Z.of_nat n) by (apply S; now right).
      assert (Nj' : ~ In j (map fst (c_map c))) by (intros X1; apply Nj, K1; now right). destruct (H j (or_intror Hj) Nj') as [L C]. fold k in L, C. cbn zeta in *.
      pose proof (proj1 (inv_class n ops c1 (isp j) k I1 Hsj)) as L1. pose proof (proj1 (inv_class n ops c (isp j) k I Hsj)) as L0.
      assert (Mono : cnt c k (isp j) <= cnt c1 k (isp j)).
      { destruct (Z.le_gt_cases (cnt c k (isp j)) (cnt c1 k (isp j))) as [|G]; [assumption|exfalso].
        assert (Y : lo ops k (isp j) <= cnt c k (isp j) - 1 < cnt c k (isp j)) by lia. apply X0 in Y; [|exact Hsj]. destruct Y as (e & He & Es & Ek & Ep).
        assert (Y2 : lo ops k (isp j) <= cnt c k (isp j) - 1 < cnt c1 k (isp j)); [|lia]. apply (X k (isp j)); [exact Hsj|]. exists e. split; [apply K1; now right|auto]. }
      assert (Q : cnt c1 k (isp j) <= ipos j).
      { destruct (Z.le_gt_cases (cnt c1 k (isp j)) (ipos j)) as [|G]; [assumption|exfalso].
        assert (Y : lo ops k (isp j) <= ipos j < cnt c1 k (isp j)) by lia. apply X in Y; [|exact Hsj]. destruct Y as (e & He & Es & Ek & Ep).
        apply Nj. replace j with e; [exact He|]. rewrite (eq_mkI e (isp j) (ipos j)) by auto. now destruct j. }
      split; [exact Q|]. intros p Hp2. destruct (C p) as [[E|Hin] Ek]; [lia| |auto]. exfalso.
      assert (Ki : In i (map fst (c_map c1))) by (apply K1; now left).
      assert (Y : lo ops k (isp j) <= p < cnt c1 k (isp j)); [|lia]. apply (X k (isp j)); [exact Hsj|]. exists i. rewrite E in *. cbn [isp ipos]. auto. }
    exists c2. split; [reflexivity|]. split; [exact I2|]. split; [exact D2|]. intros k. rewrite K2, K1. simpl. intuition.
Qed.

Lemma fold_prefix ops l c c' : foldM (relabel_step ops) c l = Ok c' -> exists m, c_map c' = c_map c ++ m.
Proof.
  revert c. induction l as [|i l IH]; intros c; cbn [foldM].
  - intros [= <-]. exists []. now rewrite app_nil_r.
  - intros H. apply bind_Ok in H. destruct H as (c1 & E & H). destruct (IH _ H) as (m & ->).
    unfold relabel_step in E. destruct (imfind i (c_map c)); [injection E as <-; eauto|].
    destruct (is_op_index ops i); apply bind_Ok in E; destruct E as (? & _ & E); apply bind_Ok in E; destruct E as (? & _ & E); injection E as <-; cbn [c_map]; rewrite <- app_assoc; eauto.
Qed.

Lemma reindex_entry m e : NoDup (map fst m) -> In e m -> reindex m (fst e) = snd e.
Proof.
  intros ND He. pose proof (reindex_in m (fst e) (in_map fst _ _ He)) as H2.
  assert (X : (fst e, reindex m (fst e)) = e) by (apply (filter_nodup_inj fst m); auto). now rewrite <- X at 2.
Qed.

Section Second.
  Variables (n : nat) (ops ops' : list sqop) (M : index_map).
  Let f := reindex M.
  Hypothesis Mnd : NoDup (map fst M).
  Hypothesis Cls : forall i, In i (map fst M) -> is_op_index ops' (f i) = is_op_index ops i.
  Hypothesis Nops : forall s, nops ops' s = nops ops s.

  Definition Rel (c c' : cstate) : Prop := inv n ops c /\ inv n ops' c' /\ ident c' /\ (exists m, M = c_map c ++ m) /\
    forall k, In k (map fst (c_map c')) <-> In k (map snd (c_map c)).

  Lemma rel_cnt c c' s k : Rel c c' -> 0 <= s < Z.of_nat n -> cnt c' k s = cnt c k s.
  Proof.
    intros (I & I' & D & (m & Em) & K) Hs. destruct (inv_class n ops c s k I Hs) as [L X]. destruct (inv_class n ops' c' s k I' Hs) as [L' X'].
    assert (Y : forall p, lo ops k s <= p < cnt c k s <-> lo ops k s <= p < cnt c' k s).
    { assert (El : lo ops k s = lo ops' k s) by (unfold lo; destruct k; [reflexivity|symmetry; apply Nops]). intros p. rewrite <- X. rewrite El at 1. rewrite <- X'. split.
      - intros (e & He & Es & Ek & Ep). assert (Hk : In (snd e) (map fst (c_map c'))) by (apply K; now apply in_map).
        apply in_map_iff in Hk. destruct Hk as (e' & Ee & He'). exists e'. rewrite Ee, (D e' He'), Ee.
        assert (HM : In e M) by (rewrite Em; apply in_or_app; now left).
        split; [exact He'|]. destruct (inv_space n ops c I e He) as [S1 _]. split; [congruence|]. split; [|exact Ep].
        rewrite <- (reindex_entry M e Mnd HM). fold f. rewrite Cls; [exact Ek|now apply in_map].
      - intros (e' & He' & Es & Ek & Ep). assert (Hk : In (fst e') (map snd (c_map c))) by (apply K; now apply in_map).
        apply in_map_iff in Hk. destruct Hk as (e & Ee & He). exists e. assert (HM : In e M) by (rewrite Em; apply in_or_app; now left).
        split; [exact He|]. destruct (inv_space n ops c I e He) as [S1 _]. split; [congruence|]. split; [|rewrite Ee, <- Ep; now rewrite (D e' He')].
        rewrite <- Cls by (now apply in_map). unfold f. rewrite (reindex_entry M e Mnd HM), Ee. exact Ek. }
    assert (El : lo ops k s = lo ops' k s) by (unfold lo; destruct k; [reflexivity|symmetry; apply Nops]).
    destruct (Z.lt_trichotomy (cnt c' k s) (cnt c k s)) as [G|[E|G]]; [|exact E|]; exfalso.
    - assert (Z1 : lo ops k s <= cnt c k s - 1 < cnt c k s) by lia. apply Y in Z1. lia.
    - assert (Z1 : lo ops k s <= cnt c' k s - 1 < cnt c' k s) by lia. apply Y in Z1. lia.
  Qed.

  Lemma block_rel c c' B B' c1 : Rel c c' -> (forall i, In i B -> 0 <= isp i < Z.of_nat n) -> foldM (relabel_step ops) c B = Ok c1 -> (exists m, M = c_map c1 ++ m) ->
    Permutation (map f B) B' -> ordered index_ltb B' -> exists c1', foldM (relabel_step ops') c' B' = Ok c1' /\ Rel c1 c1'.
  Proof.
    intros R HB E (m1 & Em1) P O. pose proof R as (I & I' & D & (m & Em) & K).
    destruct (fold_inv n ops B c I HB) as (c1x & E1 & I1 & K1). rewrite E in E1. injection E1 as <-.
    assert (Sp : forall i, In i B -> isp (f i) = isp i).
    { intros i Hi. assert (Hk : In i (map fst (c_map c1))) by (apply K1; now left). apply reindex_in in Hk as He. destruct (inv_space n ops c1 I1 _ He) as [S1 _]. cbn [fst snd] in S1.
      assert (HM : In (i, reindex (c_map c1) i) M) by (rewrite Em1; apply in_or_app; now left).
      pose proof (reindex_entry M _ Mnd HM) as X. cbn [fst snd] in X. unfold f. congruence. }
    assert (EM : forall e, In e (c_map c1) -> f (fst e) = snd e).
    { intros e He. apply (reindex_entry M e Mnd). rewrite Em1. apply in_or_app. now left. }
    assert (EM0 : forall e, In e (c_map c) -> f (fst e) = snd e).
    { intros e He. apply (reindex_entry M e Mnd). rewrite Em. apply in_or_app. now left. }
    assert (KM : forall i, In i (map fst (c_map c1)) -> In i (map fst M)) by (intros i Hi; rewrite Em1, map_app; apply in_or_app; now left).
    assert (HB' : forall i', In i' B' -> 0 <= isp i' < Z.of_nat n).
    { intros i' Hi'. eapply Permutation_in in Hi'; [|symmetry; exact P]. apply in_map_iff in Hi'. destruct Hi' as (i & <- & Hi). rewrite Sp by exact Hi. now apply HB. }
    destruct (sorted_block n ops' B' c' I' D O HB') as (c1' & E1' & I1' & D1' & K1').
    - intros i' Hi' N k. pose proof (HB' i' Hi') as Hsp. eapply Permutation_in in Hi'; [|symmetry; exact P]. apply in_map_iff in Hi'. destruct Hi' as (i & <- & Hi).
      rewrite Sp in * by exact Hi. rewrite (rel_cnt c c' (isp i) k R Hsp).
      assert (Hki : In i (map fst (c_map c1))) by (apply K1; now left).
      assert (Ek : is_op_index ops i = k) by (unfold k; symmetry; apply Cls; now apply KM).
      assert (Hei : In (i, f i) (c_map c1)) by (pose proof (reindex_in _ _ Hki) as X; pose proof (EM _ X) as X2; cbn [fst snd] in X2; rewrite X2; exact X).
      assert (Lab : lo ops k (isp i) <= ipos (f i) < cnt c1 k (isp i)).
      { apply (proj2 (inv_class n ops c1 (isp i) k I1 Hsp)). exists (i, f i). cbn [fst snd]. auto. }
      assert (Low : cnt c k (isp i) <= ipos (f i)).
      { destruct (Z.le_gt_cases (cnt c k (isp i)) (ipos (f i))) as [|G]; [assumption|exfalso].
        assert (Y : lo ops k (isp i) <= ipos (f i) < cnt c k (isp i)) by lia. apply (proj2 (inv_class n ops c (isp i) k I Hsp)) in Y. destruct Y as (e & He & Es & _ & Ep).
        apply N, K. assert (Ef : snd e = f i).
        { destruct (inv_space n ops c I e He) as [S1 _]. rewrite (eq_mkI (snd e) (isp i) (ipos (f i))) by congruence. symmetry. apply eq_mkI; [now apply Sp|reflexivity]. }
        rewrite <- Ef. now apply in_map. }
      split; [exact Low|]. intros p Hp.
      assert (Y : lo ops k (isp i) <= p < cnt c1 k (isp i)).
      { pose proof (proj1 (inv_class n ops c (isp i) k I Hsp)). lia. }
      apply (proj2 (inv_class n ops c1 (isp i) k I1 Hsp)) in Y. destruct Y as (e & He & Es & Eke & Ep).
      assert (Ese : snd e = mkI (isp i) p) by (destruct (inv_space n ops c1 I1 e He) as [S1 _]; apply eq_mkI; congruence).
      assert (HeB : In (fst e) B).
      { assert (Hk : In (fst e) (map fst (c_map c1))) by now apply in_map. apply K1 in Hk. destruct Hk as [Hk|Hk]; [exact Hk|exfalso].
        apply in_map_iff in Hk. destruct Hk as (e0 & E0 & He0). assert (X : snd e0 = snd e) by (rewrite <- (EM0 e0 He0), <- (EM e He), E0; reflexivity).
        assert (Y : lo ops k (isp i) <= p < cnt c k (isp i)); [|lia]. apply (proj2 (inv_class n ops c (isp i) k I Hsp)). exists e0. rewrite E0, X, Ese. auto. }
      rewrite <- Ese, <- (EM e He). split.
      + eapply Permutation_in; [exact P|]. now apply in_map.
      + rewrite Cls; [exact Eke|]. apply KM. now apply in_map.
    - exists c1'. split; [exact E1'|]. split; [exact I1|]. split; [exact I1'|]. split; [exact D1'|]. split; [exists m1; exact Em1|].
      intros k. rewrite K1', K. split.
      + intros [H|H].
        * eapply Permutation_in in H; [|symmetry; exact P]. apply in_map_iff in H. destruct H as (i & <- & Hi).
          assert (Hk : In i (map fst (c_map c1))) by (apply K1; now left). apply in_map_iff in Hk. destruct Hk as (e & <- & He). rewrite (EM e He). now apply in_map.
        * apply in_map_iff in H. destruct H as (e & <- & He). assert (Hk : In (fst e) (map fst (c_map c1))) by (apply K1; right; now apply in_map).
          apply in_map_iff in Hk. destruct Hk as (e1 & E1 & He1). rewrite <- (EM0 e He), <- E1, (EM e1 He1). now apply in_map.
      + intros H. apply in_map_iff in H. destruct H as (e & <- & He). assert (Hk : In (fst e) (map fst (c_map c1))) by now apply in_map.
        rewrite <- (EM e He). apply K1 in Hk. destruct Hk as [Hk|Hk].
        * left. eapply Permutation_in; [exact P|]. now apply in_map.
        * right. apply in_map_iff in Hk. destruct Hk as (e0 & <- & He0). rewrite (EM0 e0 He0). now apply in_map.
  Qed.

  Lemma blocks_rel Bs Bs' c c' cf : Rel c c' -> (forall i, In i (concat Bs) -> 0 <= isp i < Z.of_nat n) -> foldM (relabel_step ops) c (concat Bs) = Ok cf -> M = c_map cf ->
    Forall2 (fun B B' => Permutation (map f B) B' /\ ordered index_ltb B') Bs Bs' -> exists cf', foldM (relabel_step ops') c' (concat Bs') = Ok cf' /\ Rel cf cf'.
  Proof.
    intros R H E EMf F. revert c c' R H E. induction F as [|B B' Bs Bs' [P O] F IH]; intros c c' R H E.
    - simpl in *. injection E as <-. exists c'. auto.
    - cbn [concat] in *. rewrite foldM_app in E. apply bind_Ok in E. destruct E as (c1 & E1 & E).
      destruct (fold_prefix _ _ _ _ E) as (m1 & Em1).
      destruct (block_rel c c' B B' c1 R) as (c1' & E1' & R1); [intros; apply H, in_or_app; now left|exact E1|exists m1; congruence|exact P|exact O|].
      rewrite foldM_app, E1'. cbn [bind]. apply (IH c1 c1' R1); [intros; apply H, in_or_app; now right|exact E].
  Qed.
End Second.

Lemma relabel_start st ops ts : (forall o, In o ops -> 0 <= s_space o < num_spaces st) ->
  exists c0, inv (length (space_info st)) ops c0 /\ c_map c0 = [] /\ relabel_map st ops ts = bind (foldM (relabel_step ops) c0 (concat (map tensor_indices ts))) (fun c => Ok (c_map c)).
Proof.
  intros Ho. unfold relabel_map, num_spaces. rewrite Nat2Z.id. set (n := length (space_info st)).
  destruct (count_ops n ops (repeat 0 n)) as (v & -> & Lv & Nv); [exact Ho|apply repeat_length|]. cbn [bind].
  exists (mkC (repeat 0 n) v []). split; [|split; reflexivity]. split; cbn [c_sq c_tens c_map map fst filter length].
  - apply repeat_length.
  - exact Lv.
  - constructor.
  - simpl; tauto.
  - intros s Hs. rewrite nth_zeros. auto.
  - intros s Hs. rewrite Nv by exact Hs. rewrite nth_zeros. split; [reflexivity|lia].
Qed.

Lemma concat_blocks ts : concat (map tensor_indices ts) = concat (concat (map (fun d => [t_lower d; t_upper d]) ts)).
Proof. induction ts as [|d ts IH]; simpl; [reflexivity|]. unfold tensor_indices at 1. now rewrite IH, <- app_assoc. Qed.

Lemma reindex_ident c : ident c -> forall i, reindex (c_map c) i = i.
Proof.
  intros D i. destruct (in_dec index_dec i (map fst (c_map c))) as [H|H]; [|now apply reindex_out].
  apply reindex_in in H. now apply D in H.
Qed.

Lemma mapM_fixed ts : (forall d, In d ts -> tensor_canonicalize d = Ok (d, 1)) -> canon_tensors ts = Ok (ts, 1).
Proof.
  unfold canon_tensors. intros H. assert (G : forall l r, (forall d, In d l -> tensor_canonicalize d = Ok (d, 1)) ->
    foldM (fun r t => bind (tensor_canonicalize t) (fun x => Ok (fst r ++ [fst x], snd r * snd x))) (r, 1) l = Ok (r ++ l, 1)).
  { induction l as [|d l IH]; intros r Hl; cbn [foldM]; [now rewrite app_nil_r|]. rewrite Hl by (now left). cbn [bind fst snd].
    rewrite Z.mul_1_r, IH by (intros; apply Hl; now right). now rewrite <- app_assoc. }
  now rewrite G.
Qed.

Lemma canon_order st t t' s : term_canonicalize st t (Ok (t', s)) ->
  ordered sqop_ltb (tm_ops t') /\ forall d, In d (tm_tens t') -> ordered index_ltb (t_lower d) /\ ordered index_ltb (t_upper d) /\ tensor_canonicalize d = Ok (d, 1).
Proof.
  intros (ts & S & E). symmetry in E. apply canonicalize_from_inv in E. destruct E as (m & l & so & Em & El & Et & En & Eo & _).
  split; [now apply canonicalize_sqops_spec in Eo|]. rewrite Et. apply mapM_Ok in El. clear - El.
  induction El as [|a [d sd] l l' E El IH]; simpl; [tauto|]. intros d' [<-|H]; [|auto]. apply tensor_canon_form in E. tauto.
Qed.

Lemma Permutation_filter {A} (p : A -> bool) l l' : Permutation l l' -> Permutation (filter p l) (filter p l').
Proof.
  induction 1 as [|x a b _ IH|x y a|a b c _ IH1 _ IH2]; simpl.
  - reflexivity.
  - destruct (p x); [now constructor|exact IH].
  - destruct (p x), (p y); try reflexivity. constructor.
  - etransitivity; eassumption.
Qed.

Theorem canon_stable st t t' s : term_spaces st t -> ops_covered t -> term_canonicalize st t (Ok (t', s)) -> canonicalize_from st t' (tm_tens t') = Ok (t', 1).
Proof.
  intros H Cov T. pose proof (canon_order _ _ _ _ T) as [Oops Otens]. destruct T as (ts & S & E). symmetry in E. pose proof (sorted_tensors_perm _ _ _ S) as P.
  destruct (from_renamed st t ts t' s P E) as (m & Em & R). pose proof E as E'. apply canonicalize_from_inv in E'. destruct E' as (m2 & l & so & Em2 & El & Et & En & Eo & _).
  rewrite Em in Em2. injection Em2 as <-. set (n := length (space_info st)).
  assert (Ho : forall o, In o (tm_ops t) -> 0 <= s_space o < num_spaces st) by (intros o Ho; apply H; left; exists o; auto).
  destruct (relabel_start st (tm_ops t) ts Ho) as (c0 & I0 & Z0 & Er). rewrite Er in Em. apply bind_Ok in Em. destruct Em as (cf & Ef & Em). injection Em as <-.
  assert (Hts : forall i, In i (concat (map tensor_indices ts)) -> 0 <= isp i < num_spaces st).
  { intros i Hi. apply H. right. apply slots_in. eapply Permutation_in; [|exact Hi]. symmetry. now apply perm_slots. }
  destruct (fold_inv n (tm_ops t) (concat (map tensor_indices ts)) c0 I0 Hts) as (cfx & Efx & If & Kf). rewrite Ef in Efx. injection Efx as <-.
  assert (Kt : forall k, In k (map fst (c_map cf)) <-> in_tensors t k).
  { intros k. rewrite Kf, Z0, <- slots_in. simpl. split; [intros [X|[]]|intros X; left]; revert X; apply Permutation_in; [symmetry|]; now apply perm_slots. }
  assert (Ko : forall o, In o (tm_ops t) -> In (s_idx o) (map fst (c_map cf))) by (intros o Hoo; apply Kt, Cov; exists o; auto).
  set (f := reindex (c_map cf)) in *.
  assert (Sp : forall i, isp (f i) = isp i) by (intros i; eapply reindex_space; exact If).
  pose proof R as (_ & Po & _).
  assert (Cls : forall i, In i (map fst (c_map cf)) -> is_op_index (tm_ops t') (f i) = is_op_index (tm_ops t) i).
  { intros i Hi. apply eq_true_iff_eq. rewrite !is_op_index_iff. split.
    - intros (o' & Ho' & Eo'). eapply Permutation_in in Ho'; [|symmetry; exact Po]. apply in_map_iff in Ho'. destruct Ho' as (o & <- & Hoo). exists o. split; [exact Hoo|].
      eapply reindex_inj; [exact If|now apply Ko|exact Hi|exact Eo'].
    - intros (o & Hoo & <-). exists (rename_op f o). split; [eapply Permutation_in; [exact Po|]; now apply in_map|reflexivity]. }
  assert (Nops : forall s, nops (tm_ops t') s = nops (tm_ops t) s).
  { intros sp. unfold nops. f_equal. rewrite <- (Permutation_length (Permutation_filter _ _ _ Po)). clear - Sp. induction (tm_ops t) as [|o os IH]; simpl; [reflexivity|].
    replace (s_space (rename_op f o)) with (s_space o) by (unfold s_space; cbn [rename_op s_idx]; symmetry; apply Sp). destruct (s_space o =? sp); simpl; auto. }
  assert (Ho' : forall o, In o (tm_ops t') -> 0 <= s_space o < num_spaces st).
  { intros o' Ho'. eapply Permutation_in in Ho'; [|symmetry; exact Po]. apply in_map_iff in Ho'. destruct Ho' as (o & <- & Hoo). unfold s_space. cbn [rename_op s_idx]. rewrite Sp. now apply Ho. }
  destruct (relabel_start st (tm_ops t') (tm_tens t') Ho') as (c0' & I0' & Z0' & Er').
  assert (R0 : Rel n (tm_ops t) (tm_ops t') (c_map cf) c0 c0').
  { split; [exact I0|]. split; [exact I0'|]. split; [intros e He; rewrite Z0' in He; destruct He|]. split; [exists (c_map cf); now rewrite Z0|]. intros k. rewrite Z0, Z0'. reflexivity. }
  rewrite concat_blocks in Ef, Hts.
  destruct (blocks_rel n (tm_ops t) (tm_ops t') (c_map cf) (inv_keys _ _ _ If) Cls Nops _ (concat (map (fun d => [t_lower d; t_upper d]) (tm_tens t'))) c0 c0' cf R0 Hts Ef eq_refl) as (cf' & Ef' & (_ & _ & D' & _)).
  { rewrite Et. apply mapM_Ok in El. clear - El. fold f. remember (map (rename_tensor f) ts) as ts' eqn:Ets. revert ts Ets. induction El as [|a [d sd] l1 l2 Ea El IH]; intros [|b ts] Ets; simpl in *; try discriminate; [constructor|].
    injection Ets as -> ->. apply tensor_canon_form in Ea. cbn [rename_tensor t_upper t_lower] in Ea. constructor; [tauto|]. constructor; [tauto|]. now apply IH. }
  rewrite <- concat_blocks in Ef'.
  unfold canonicalize_from. rewrite Er', Ef'. cbn [bind].
  assert (Et2 : term_reindex (c_map cf') (mkTerm (tm_no t') (tm_ops t') (tm_tens t')) = t').
  { unfold term_reindex. cbn [tm_no tm_ops tm_tens]. rewrite (map_ext_in _ (fun x => x)), map_id, (map_ext_in _ (fun x => x)), map_id; [now destruct t'| |].
    - intros d _. unfold tensor_reindex. rewrite (map_ext _ _ (reindex_ident cf' D')), map_id, (map_ext _ _ (reindex_ident cf' D')), map_id. now destruct d.
    - intros o _. unfold sqop_reindex. rewrite (reindex_ident cf' D'). now destruct o. }
  rewrite Et2. rewrite mapM_fixed by (intros d Hd; now apply Otens in Hd). cbn [bind fst snd].
  assert (Es : canonicalize_sqops (tm_ops t') false = (tm_ops t', 1)) by (apply (canonicalize_list_sorted sqop_ltb sqop_eqb swo_sqop sqop_eqb_eq); exact Oops).
  rewrite Es.
  assert (Ok1 : simplify_ok st (tm_tens t') = true).
  { unfold canonicalize_from in E. apply bind_Ok in E. destruct E as (? & _ & E). apply bind_Ok in E. destruct E as ([x1 x2] & _ & E).
    destruct (canonicalize_sqops _ _). cbn [fst] in E. destruct (simplify_ok st x1) eqn:X; [|discriminate]. injection E as <- _. exact X. }
  rewrite Ok1. destruct t'; reflexivity.
Qed.

(** ** Determinism *)
Lemma ordered_perm_unique {A} (lt : A -> A -> bool) l l' : (forall a b, In a l -> In b l -> lt a b = false -> lt b a = false -> a = b) ->
  ordered lt l -> ordered lt l' -> Permutation l l' -> l = l'.
Proof.
  revert l'. induction l as [|a l IH]; intros l' T O O' P; [now apply Permutation_nil in P|].
  destruct l' as [|b l']; [symmetry in P; now apply Permutation_nil in P|].
  apply StronglySorted_inv in O. apply StronglySorted_inv in O'. destruct O as [O F], O' as [O' F']. rewrite Forall_forall in F, F'.
  assert (E : a = b).
  { assert (Ha : In a (b :: l')) by (eapply Permutation_in; [exact P|now left]). assert (Hb : In b (a :: l)) by (eapply Permutation_in; [symmetry; exact P|now left]).
    destruct Ha as [->|Ha]; [reflexivity|]. destruct Hb as [->|Hb]; [reflexivity|]. apply T; [now left|now right|now apply F'|now apply F]. }
  subst b. f_equal. apply Permutation_cons_inv in P. apply IH; auto. intros x y Hx Hy. apply T; now right.
Qed.
Lemma score_ltb_tensor x y : score_ltb x y = false -> score_ltb y x = false -> tensor_eqb (sc_tensor x) (sc_tensor y) = true.
Proof.
  assert (G : forall A (lt : A -> A -> bool) a b r r', then_ltb lt a b r = false -> then_ltb lt b a r' = false -> r = false /\ r' = false).
  { intros A lt a b r r'. unfold then_ltb. destruct (lt a b), (lt b a); try discriminate; auto. }
  unfold score_ltb. intros H1 H2. do 6 (destruct (G _ _ _ _ _ _ H1 H2) as [H1' H2']; clear H1 H2; rename H1' into H1, H2' into H2).
  apply (swo_eq _ _ swo_tensor). auto.
Qed.
Theorem canon_deterministic st t r r' : (forall d d', In d (tm_tens t) -> In d' (tm_tens t) -> tensor_eqb d d' = true -> d = d') ->
  term_canonicalize st t r -> term_canonicalize st t r' -> r = r'.
Proof.
  intros T (ts & (sc & tl & M & P & O & ->) & ->) (ts' & (sc' & tl' & M' & P' & O' & ->) & ->). rewrite M in M'. injection M' as <-. do 2 f_equal.
  apply (ordered_perm_unique score_ltb); auto; [|now rewrite <- P].
  intros a b Ha Hb L1 L2. eapply Permutation_in in Ha; [|symmetry; exact P]. eapply Permutation_in in Hb; [|symmetry; exact P].
  apply mapM_Ok in M. assert (G : forall x, In x sc -> In (sc_tensor x) (tm_tens t) /\ tensor_score st (tm_tens t) (sc_tensor x) = Ok x).
  { assert (G0 : forall l l', Forall2 (fun a b => tensor_score st (tm_tens t) a = Ok b) l l' -> forall x, In x l' -> In (sc_tensor x) l /\ tensor_score st (tm_tens t) (sc_tensor x) = Ok x).
    { induction 1 as [|d x l l' E F IH]; simpl; [tauto|]. intros y [<-|Hy].
      - rewrite (score_tensor _ _ _ _ E). auto.
      - destruct (IH y Hy). auto. }
    now apply G0. }
  destruct (G a Ha) as [Ia Ea], (G b Hb) as [Ib Eb]. assert (X : sc_tensor a = sc_tensor b) by (apply T; auto; now apply score_ltb_tensor).
  rewrite X in Ea. congruence.
Qed.

Lemma Forall2_refl {A} (R : A -> A -> Prop) l : (forall a, R a a) -> Forall2 R l l.
Proof. intros H. induction l; constructor; auto. Qed.

Lemma F2_length {A B} (R : A -> B -> Prop) l l' : Forall2 R l l' -> length l = length l'.
Proof. induction 1; simpl; auto. Qed.
Lemma canon_idem_single st t t' s : term_spaces st t -> ops_covered t -> (length (tm_tens t) <= 1)%nat -> term_canonicalize st t (Ok (t', s)) ->
  forall r, term_canonicalize st t' r <-> r = Ok (t', 1).
Proof.
  intros H C L T. pose proof (canon_stable st t t' s H C T) as E. destruct (canon_renaming st t t' s H T) as (f & Sp & _ & _ & R).
  assert (Sp' : term_spaces st t').
  { intros j Hj. assert (X : exists i, in_term t i /\ f i = j).
    { destruct Hj as [Hj|Hj]; [apply (renamed_in_ops f t t' j R) in Hj|apply (renamed_in_tensors f t t' j R) in Hj]; destruct Hj as (i & Hi & Ei); exists i; (split; [|exact Ei]); [left|right]; exact Hi. }
    destruct X as (i & Hi & <-). rewrite Sp. now apply H. }
  destruct R as (_ & _ & ts & P & F). apply Permutation_length in P. apply F2_length in F. rewrite map_length in P.
  assert (L' : (length (tm_tens t') <= 1)%nat) by lia.
  assert (G : forall ts0, Permutation (tm_tens t') ts0 -> ts0 = tm_tens t').
  { intros ts0 P0. destruct (tm_tens t') as [|d [|]]; [now apply Permutation_nil in P0|now apply Permutation_length_1_inv in P0|simpl in L'; lia]. }
  intros r. split.
  - intros (ts0 & S0 & ->). rewrite (G ts0 (sorted_tensors_perm _ _ _ S0)). exact E.
  - intros ->. destruct (sorted_tensors_ex st t' Sp') as (ts0 & S0). exists ts0. split; [exact S0|]. now rewrite (G ts0 (sorted_tensors_perm _ _ _ S0)).
Qed.
