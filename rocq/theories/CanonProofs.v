(** Canonicalization of terms: the relabelling, totality, signs. *)
From Coq Require Import ZArith List Bool Permutation Lia.
From Verif Require Import Res PartitionsModel PartitionsProofs RegistryModel CoreModel CombinatoricsModel OrderProofs RationalModel AlgebraModel SortModel SortSpec SortProofs
  OperatorModel OperatorProofs OperatorProofs2 AdjointModel CanonModel CanonSpec.
Import ListNotations.
Local Open Scope Z_scope.

Definition zrange (a : Z) (k : nat) : list Z := map (fun i => a + Z.of_nat i) (seq 0 k).
Lemma zrange_S a k : zrange a (S k) = zrange a k ++ [a + Z.of_nat k].
Proof. unfold zrange. rewrite seq_S, map_app. reflexivity. Qed.
Lemma zrange_in a k x : In x (zrange a k) <-> a <= x < a + Z.of_nat k.
Proof.
  unfold zrange. rewrite in_map_iff. split.
  - intros (i & <- & H). apply in_seq in H. lia.
  - intros H. exists (Z.to_nat (x - a)). split; [lia|]. apply in_seq. lia.
Qed.
Lemma zrange_nodup a k : NoDup (zrange a k).
Proof. unfold zrange. apply FinFun.Injective_map_NoDup; [intros x y; lia|apply seq_NoDup]. Qed.

Lemma imfind_none i m : imfind i m = None <-> ~ In i (map fst m).
Proof.
  induction m as [|[k v] m IH]; simpl; [tauto|]. destruct (index_eqb i k) eqn:E.
  - apply index_eqb_eq in E. subst. split; [discriminate|tauto].
  - rewrite IH. assert (k <> i) by (intros ->; rewrite index_eqb_refl in E; discriminate). tauto.
Qed.
Lemma imfind_some i m j : imfind i m = Some j -> In (i, j) m.
Proof.
  induction m as [|[k v] m IH]; simpl; [discriminate|]. destruct (index_eqb i k) eqn:E.
  - apply index_eqb_eq in E. subst. intros [= ->]. auto.
  - auto.
Qed.
Lemma reindex_in m i : In i (map fst m) -> In (i, reindex m i) m.
Proof.
  intros H. unfold reindex. destruct (imfind i m) eqn:E; [now apply imfind_some|]. apply imfind_none in E. tauto.
Qed.
Lemma reindex_out m i : ~ In i (map fst m) -> reindex m i = i.
Proof. intros H. unfold reindex. apply imfind_none in H. now rewrite H. Qed.

Lemma is_op_index_iff ops i : is_op_index ops i = true <-> exists o, In o ops /\ s_idx o = i.
Proof. unfold is_op_index. rewrite existsb_exists. split; intros (o & H & E); exists o; [apply index_eqb_eq in E|split; [|apply index_eqb_eq]]; auto. Qed.

Lemma filter_snoc {A} (p : A -> bool) l a : filter p (l ++ [a]) = filter p l ++ (if p a then [a] else []).
Proof. rewrite filter_app. reflexivity. Qed.

Lemma aget_nth (v : list Z) s : 0 <= s < Z.of_nat (length v) -> aget v s = Ok (nth (Z.to_nat s) v 0).
Proof.
  intros H. unfold aget. destruct (Z.ltb_spec s 0); [lia|]. rewrite (nth_error_nth' v 0) by lia. reflexivity.
Qed.

Lemma NoDup_app_intro {A} (l1 l2 : list A) : NoDup l1 -> NoDup l2 -> (forall x, In x l1 -> In x l2 -> False) -> NoDup (l1 ++ l2).
Proof.
  induction l1 as [|a l1 IH]; simpl; [auto|]. intros N1 N2 D. apply NoDup_cons_iff in N1. constructor.
  - rewrite in_app_iff. intros [H|H]; [tauto|]. apply (D a); auto.
  - apply IH; [tauto|exact N2|]. intros x H1 H2. apply (D x); auto.
Qed.

Section Relabel.
  Variables (n : nat) (ops : list sqop).
  Definition nops (s : Z) : Z := Z.of_nat (length (filter (fun o => s_space o =? s) ops)).
  Definition opent (s : Z) (e : index * index) : bool := is_op_index ops (fst e) && (isp (fst e) =? s).
  Definition tent (s : Z) (e : index * index) : bool := negb (is_op_index ops (fst e)) && (isp (fst e) =? s).
  Record inv (c : cstate) : Prop := {
    inv_sq : length (c_sq c) = n;
    inv_tens : length (c_tens c) = n;
    inv_keys : NoDup (map fst (c_map c));
    inv_space : forall e, In e (c_map c) -> isp (snd e) = isp (fst e) /\ 0 <= isp (fst e) < Z.of_nat n;
    inv_ops : forall s, 0 <= s < Z.of_nat n -> let l := filter (opent s) (c_map c) in
      map (fun e => ipos (snd e)) l = zrange 0 (length l) /\ nth (Z.to_nat s) (c_sq c) 0 = Z.of_nat (length l);
    inv_tns : forall s, 0 <= s < Z.of_nat n -> let l := filter (tent s) (c_map c) in
      map (fun e => ipos (snd e)) l = zrange (nops s) (length l) /\ nth (Z.to_nat s) (c_tens c) 0 = nops s + Z.of_nat (length l) }.

  Lemma step_inv c i : inv c -> 0 <= isp i < Z.of_nat n -> exists c', relabel_step ops c i = Ok c' /\ inv c' /\
    (forall k, In k (map fst (c_map c')) <-> k = i \/ In k (map fst (c_map c))) /\ (exists l, c_map c' = c_map c ++ l).
  Proof.
    intros I Hi. unfold relabel_step. destruct (imfind i (c_map c)) eqn:F.
    { exists c. split; [reflexivity|]. split; [exact I|]. split; [|exists []; now rewrite app_nil_r].
      intros k. split; [auto|]. intros [->|H]; [|exact H]. apply imfind_some in F. apply (in_map fst) in F. exact F. }
    apply imfind_none in F. destruct I as [L1 L2 ND SP IO IT]. destruct (is_op_index ops i) eqn:Op.
    - rewrite aget_nth by lia. cbn [bind]. destruct (incr_spec (c_sq c) (isp i)) as (v & -> & Lv & Nv); [lia|]. cbn [bind].
      set (k0 := nth (Z.to_nat (isp i)) (c_sq c) 0) in *.
      eexists. split; [reflexivity|]. split.
      + split; cbn [c_sq c_tens c_map].
        * lia.
        * exact L2.
        * rewrite map_app. apply NoDup_app_intro; [exact ND|repeat constructor; simpl; tauto|]. intros x Hx [<-|[]]. tauto.
        * intros e He. apply in_app_or in He. destruct He as [He|[<-|[]]]; [auto|]. simpl. auto.
        * intros s Hs. cbn zeta. rewrite filter_snoc. match goal with |- context [if opent ?s ?e then _ else _] => replace (opent s e) with ((is_op_index ops i) && (isp i =? s)) by reflexivity end. rewrite Op. cbn [andb].
          specialize (IO s Hs). cbn zeta in IO. destruct IO as [IO1 IO2].
          destruct (Z.eqb_spec (isp i) s) as [<-|Ne].
          -- rewrite map_app, app_length, IO1. cbn [map snd ipos length]. rewrite Nat.add_1_r, zrange_S. split.
             ++ unfold k0. rewrite IO2. reflexivity.
             ++ rewrite Nv, IO2. rewrite Z2Nat.id by lia. rewrite Z.eqb_refl. lia.
          -- rewrite app_nil_r. split; [exact IO1|]. rewrite Nv, IO2. rewrite Z2Nat.id by lia.
             rewrite (proj2 (Z.eqb_neq s (isp i))) by lia. lia.
        * intros s Hs. cbn zeta. rewrite filter_snoc. match goal with |- context [if tent ?s ?e then _ else _] => replace (tent s e) with (negb (is_op_index ops i) && (isp i =? s)) by reflexivity end. rewrite Op. cbn [andb negb]. rewrite app_nil_r. apply IT. exact Hs.
      + cbn [c_map]. split; [|eexists; reflexivity]. intros k. rewrite map_app, in_app_iff. simpl. intuition.
    - rewrite aget_nth by lia. cbn [bind]. destruct (incr_spec (c_tens c) (isp i)) as (v & -> & Lv & Nv); [lia|]. cbn [bind].
      set (k0 := nth (Z.to_nat (isp i)) (c_tens c) 0) in *.
      eexists. split; [reflexivity|]. split.
      + split; cbn [c_sq c_tens c_map].
        * exact L1.
        * lia.
        * rewrite map_app. apply NoDup_app_intro; [exact ND|repeat constructor; simpl; tauto|]. intros x Hx [<-|[]]. tauto.
        * intros e He. apply in_app_or in He. destruct He as [He|[<-|[]]]; [auto|]. simpl. auto.
        * intros s Hs. cbn zeta. rewrite filter_snoc. match goal with |- context [if opent ?s ?e then _ else _] => replace (opent s e) with ((is_op_index ops i) && (isp i =? s)) by reflexivity end. rewrite Op. cbn [andb negb]. rewrite app_nil_r. apply IO. exact Hs.
        * intros s Hs. cbn zeta. rewrite filter_snoc. match goal with |- context [if tent ?s ?e then _ else _] => replace (tent s e) with (negb (is_op_index ops i) && (isp i =? s)) by reflexivity end. rewrite Op. cbn [andb negb].
          specialize (IT s Hs). cbn zeta in IT. destruct IT as [IO1 IO2].
          destruct (Z.eqb_spec (isp i) s) as [<-|Ne].
          -- rewrite map_app, app_length, IO1. cbn [map snd ipos length]. rewrite Nat.add_1_r, zrange_S. split.
             ++ unfold k0. rewrite IO2. reflexivity.
             ++ rewrite Nv, IO2. rewrite Z2Nat.id by lia. rewrite Z.eqb_refl. lia.
          -- rewrite app_nil_r. split; [exact IO1|]. rewrite Nv, IO2. rewrite Z2Nat.id by lia.
             rewrite (proj2 (Z.eqb_neq s (isp i))) by lia. lia.
      + cbn [c_map]. split; [|eexists; reflexivity]. intros k. rewrite map_app, in_app_iff. simpl. intuition.
  Qed.

  Lemma fold_inv l c : inv c -> (forall i, In i l -> 0 <= isp i < Z.of_nat n) -> exists c', foldM (relabel_step ops) c l = Ok c' /\ inv c' /\
    (forall k, In k (map fst (c_map c')) <-> In k l \/ In k (map fst (c_map c))).
  Proof.
    revert c. induction l as [|i l IH]; intros c I H; cbn [foldM].
    - exists c. split; [reflexivity|]. split; [exact I|]. simpl. tauto.
    - destruct (step_inv c i I) as (c1 & -> & I1 & K1 & _); [apply H; left; reflexivity|]. cbn [bind].
      destruct (IH c1 I1) as (c2 & -> & I2 & K2); [intros j Hj; apply H; right; exact Hj|]. exists c2. split; [reflexivity|]. split; [exact I2|].
      intros k. rewrite K2, K1. simpl. intuition.
  Qed.

  (** Number of operator entries of a space is at most the number of operators. *)
  Lemma ops_bound c s : inv c -> Z.of_nat (length (filter (opent s) (c_map c))) <= nops s.
  Proof.
    intros I. unfold nops. apply Nat2Z.inj_le.
    transitivity (length (map s_idx (filter (fun o => s_space o =? s) ops))); [|rewrite map_length; apply Nat.le_refl].
    rewrite <- (map_length fst (filter (opent s) (c_map c))). apply NoDup_incl_length.
    - pose proof (inv_keys c I) as ND. clear I. induction (c_map c) as [|e m IH]; simpl; [constructor|]. simpl in ND. apply NoDup_cons_iff in ND.
      destruct (opent s e); [|apply IH; tauto]. simpl. constructor; [|apply IH; tauto]. intros H. apply in_map_iff in H. destruct H as (e' & E & H).
      apply filter_In in H. apply (proj1 ND). rewrite <- E. apply in_map. tauto.
    - intros x Hx. apply in_map_iff in Hx. destruct Hx as (e & <- & He). apply filter_In in He. destruct He as [He Ho].
      unfold opent in Ho. apply andb_true_iff in Ho. destruct Ho as [Ho Hs]. apply is_op_index_iff in Ho. destruct Ho as (o & Io & Eo).
      rewrite <- Eo. apply in_map. apply filter_In. split; [exact Io|]. unfold s_space. now rewrite Eo.
  Qed.

  Lemma filter_nodup_inj {A B} (f : A -> B) l a b : NoDup (map f l) -> In a l -> In b l -> f a = f b -> a = b.
  Proof.
    induction l as [|x l IH]; simpl; [tauto|]. intros ND. apply NoDup_cons_iff in ND. destruct ND as [N ND].
    intros [->|Ha] [->|Hb] E; auto.
    - exfalso. apply N. rewrite E. now apply in_map.
    - exfalso. apply N. rewrite <- E. now apply in_map.
  Qed.

  Lemma inv_inj c e e' : inv c -> In e (c_map c) -> In e' (c_map c) -> snd e = snd e' -> e = e'.
  Proof.
    intros I He He' E. destruct (inv_space c I e He) as [S1 B1]. destruct (inv_space c I e' He') as [S2 B2].
    assert (Es : isp (fst e') = isp (fst e)) by congruence.
    set (s := isp (fst e)) in *. pose proof (inv_ops c I s B1) as [O1 O2]. pose proof (inv_tns c I s B1) as [T1 T2].
    pose proof (ops_bound c s I) as OB.
    destruct (is_op_index ops (fst e)) eqn:Oe, (is_op_index ops (fst e')) eqn:Oe'.
    - apply (filter_nodup_inj (fun e => ipos (snd e)) (filter (opent s) (c_map c))).
      + rewrite O1. apply zrange_nodup.
      + apply filter_In. split; [exact He|]. unfold opent. rewrite Oe. apply Z.eqb_refl.
      + apply filter_In. split; [exact He'|]. unfold opent. rewrite Oe'. apply Z.eqb_eq. exact Es.
      + now rewrite E.
    - exfalso. assert (X1 : In (ipos (snd e)) (zrange 0 (length (filter (opent s) (c_map c))))).
      { rewrite <- O1. apply (in_map (fun e => ipos (snd e))). apply filter_In. split; [exact He|]. unfold opent. rewrite Oe. apply Z.eqb_refl. }
      assert (X2 : In (ipos (snd e')) (zrange (nops s) (length (filter (tent s) (c_map c))))).
      { rewrite <- T1. apply (in_map (fun e => ipos (snd e))). apply filter_In. split; [exact He'|]. unfold tent. rewrite Oe'. apply Z.eqb_eq. exact Es. }
      apply zrange_in in X1. apply zrange_in in X2. rewrite E in X1. lia.
    - exfalso. assert (X1 : In (ipos (snd e')) (zrange 0 (length (filter (opent s) (c_map c))))).
      { rewrite <- O1. apply (in_map (fun e => ipos (snd e))). apply filter_In. split; [exact He'|]. unfold opent. rewrite Oe'. apply Z.eqb_eq. exact Es. }
      assert (X2 : In (ipos (snd e)) (zrange (nops s) (length (filter (tent s) (c_map c))))).
      { rewrite <- T1. apply (in_map (fun e => ipos (snd e))). apply filter_In. split; [exact He|]. unfold tent. rewrite Oe. apply Z.eqb_refl. }
      apply zrange_in in X1. apply zrange_in in X2. rewrite E in X2. lia.
    - apply (filter_nodup_inj (fun e => ipos (snd e)) (filter (tent s) (c_map c))).
      + rewrite T1. apply zrange_nodup.
      + apply filter_In. split; [exact He|]. unfold tent. rewrite Oe. apply Z.eqb_refl.
      + apply filter_In. split; [exact He'|]. unfold tent. rewrite Oe'. apply Z.eqb_eq. exact Es.
      + now rewrite E.
  Qed.
End Relabel.

(** ** The relabelling of a term *)
Lemma count_ops n ops v : (forall o, In o ops -> 0 <= s_space o < Z.of_nat n) -> length v = n ->
  exists v', foldM (fun v o => incr v (s_space o)) v ops = Ok v' /\ length v' = n /\
    forall s, 0 <= s < Z.of_nat n -> nth (Z.to_nat s) v' 0 = nth (Z.to_nat s) v 0 + nops ops s.
Proof.
  revert v. induction ops as [|o ops IH]; intros v H L; cbn [foldM].
  - exists v. split; [reflexivity|]. split; [exact L|]. intros s Hs. unfold nops. simpl. lia.
  - pose proof (H o (or_introl eq_refl)) as Ho. destruct (incr_spec v (s_space o)) as (v1 & -> & L1 & N1); [lia|]. cbn [bind].
    destruct (IH v1) as (v2 & -> & L2 & N2); [intros o' Ho'; apply H; right; exact Ho'|lia|].
    exists v2. split; [reflexivity|]. split; [exact L2|]. intros s Hs. rewrite N2 by exact Hs. rewrite N1, Z2Nat.id by lia.
    unfold nops. cbn [filter]. rewrite (Z.eqb_sym s). destruct (s_space o =? s); cbn [length]; lia.
Qed.

Lemma in_slots ts i : In i (concat (map tensor_indices ts)) <-> exists d, In d ts /\ (In i (t_lower d) \/ In i (t_upper d)).
Proof.
  rewrite in_concat. split.
  - intros (l & Hl & Hi). apply in_map_iff in Hl. destruct Hl as (d & <- & Hd). exists d. split; [exact Hd|]. apply in_app_or. exact Hi.
  - intros (d & Hd & Hi). exists (tensor_indices d). split; [now apply in_map|]. apply in_or_app. exact Hi.
Qed.

Lemma nth_zeros n s : nth s (repeat 0 n) 0 = 0.
Proof. revert s. induction n as [|n IH]; intros [|s]; simpl; auto. Qed.

Lemma relabel_spec st ops ts : (forall o, In o ops -> 0 <= s_space o < num_spaces st) ->
  (forall i, In i (concat (map tensor_indices ts)) -> 0 <= isp i < num_spaces st) ->
  exists c, relabel_map st ops ts = Ok (c_map c) /\ inv (length (space_info st)) ops c /\
    forall k, In k (map fst (c_map c)) <-> In k (concat (map tensor_indices ts)).
Proof.
  intros Ho Hi. unfold relabel_map, num_spaces. rewrite Nat2Z.id. set (n := length (space_info st)).
  destruct (count_ops n ops (repeat 0 n)) as (v & -> & Lv & Nv); [exact Ho|apply repeat_length|]. cbn [bind].
  assert (I0 : inv n ops (mkC (repeat 0 n) v [])).
  { split; cbn [c_sq c_tens c_map map fst filter length].
    - apply repeat_length.
    - exact Lv.
    - constructor.
    - simpl; tauto.
    - intros s Hs. rewrite nth_zeros. auto.
    - intros s Hs. rewrite Nv by exact Hs. rewrite nth_zeros. split; [reflexivity|lia]. }
  destruct (fold_inv n ops (concat (map tensor_indices ts)) _ I0 Hi) as (c & -> & I & K). cbn [bind].
  exists c. split; [reflexivity|]. split; [exact I|]. intros k. rewrite K. simpl. tauto.
Qed.

(** ** Sorting the tensors *)
Lemma mapM_Ok {A B} (f : A -> res B) l r : mapM f l = Ok r -> Forall2 (fun a b => f a = Ok b) l r.
Proof.
  revert r. induction l as [|a l IH]; intros r; cbn [mapM].
  - intros [= <-]. constructor.
  - intros H. apply bind_Ok in H. destruct H as (b & Eb & H). apply bind_Ok in H. destruct H as (bs & Ebs & H). injection H as <-. constructor; auto.
Qed.
Lemma mapM_total {A B} (f : A -> res B) l : (forall a, In a l -> exists b, f a = Ok b) -> exists r, mapM f l = Ok r.
Proof.
  induction l as [|a l IH]; intros H; cbn [mapM]; [eauto|]. destruct (H a (or_introl eq_refl)) as (b & ->). cbn [bind].
  destruct IH as (bs & ->); [intros; apply H; now right|]. cbn [bind]. eauto.
Qed.
Lemma score_tensor st ts d sc : tensor_score st ts d = Ok sc -> sc_tensor sc = d.
Proof.
  unfold tensor_score. intros H. repeat (apply bind_Ok in H; destruct H as (? & _ & H)). injection H as <-. reflexivity.
Qed.
Lemma sorted_tensors_perm st t ts : sorted_tensors st t ts -> Permutation (tm_tens t) ts.
Proof.
  intros (sc & tl & M & P & _ & ->). apply mapM_Ok in M. transitivity (map sc_tensor sc); [|now apply Permutation_map].
  replace (map sc_tensor sc) with (tm_tens t); [reflexivity|].
  assert (G : forall l l', Forall2 (fun a b => tensor_score st (tm_tens t) a = Ok b) l l' -> l = map sc_tensor l').
  { induction 1 as [|a b l l' E _ IH]; simpl; [reflexivity|]. f_equal; [symmetry; eapply score_tensor; exact E|exact IH]. }
  apply G. exact M.
Qed.

Lemma per_space_total st l : (forall i, In i l -> 0 <= isp i < num_spaces st) -> exists v, indices_per_space st l = Ok v.
Proof.
  intros H. unfold indices_per_space. assert (L : length (repeat 0 (Z.to_nat (num_spaces st))) = Z.to_nat (num_spaces st)) by apply repeat_length.
  revert L. generalize (repeat 0 (Z.to_nat (num_spaces st))) as v. induction l as [|i l IH]; intros v L; cbn [foldM]; [eauto|].
  pose proof (H i (or_introl eq_refl)). destruct (incr_spec v (isp i)) as (v1 & -> & L1 & _); [lia|]. cbn [bind]. apply IH; [intros; apply H; now right|lia].
Qed.
Lemma set_inter_incl f a b i : In i (set_inter f a b) -> In i a.
Proof.
  revert a b. induction f as [|f IH]; intros a b; simpl; [simpl; tauto|]. destruct a as [|x a]; [simpl; tauto|]. destruct b as [|y b]; [simpl; tauto|].
  destruct (index_ltb x y); [intros H; right; eapply IH; exact H|]. destruct (index_ltb y x); [intros H; eapply IH; exact H|].
  intros [->|H]; [left; reflexivity|right; eapply IH; exact H].
Qed.
Lemma connectivity_total st ts d u : (forall i, In i (t_lower d) \/ In i (t_upper d) -> 0 <= isp i < num_spaces st) ->
  exists c, tensor_connectivity st ts d u = Ok c.
Proof.
  intros H. unfold tensor_connectivity. set (idx := sort_by index_ltb _).
  assert (Hi : forall i, In i idx -> 0 <= isp i < num_spaces st).
  { intros i Hi. apply H. unfold idx in Hi. eapply Permutation_in in Hi; [|symmetry; apply sort_by_perm]. destruct u; auto. }
  set (F := fun r d0 => _). assert (G : forall l r, exists r', foldM F r l = Ok r').
  { induction l as [|e l IH]; intros r; cbn [foldM]; [eauto|]. unfold F at 1. destruct (tensor_eqb d e); cbn [bind]; [apply IH|].
    destruct (per_space_total st (set_inter (length idx + length (sort_by index_ltb (if u then t_lower e else t_upper e))) idx (sort_by index_ltb (if u then t_lower e else t_upper e)))) as (v & ->).
    { intros i X. apply Hi. eapply set_inter_incl. exact X. }
    cbn [bind]. apply IH. }
  destruct (G ts []) as (r & ->). cbn [bind]. eauto.
Qed.
Lemma score_total st ts d : (forall i, In i (t_lower d) \/ In i (t_upper d) -> 0 <= isp i < num_spaces st) -> exists sc, tensor_score st ts d = Ok sc.
Proof.
  intros H. unfold tensor_score. destruct (per_space_total st (t_lower d)) as (a & ->); [auto|]. cbn [bind].
  destruct (per_space_total st (t_upper d)) as (b & ->); [auto|]. cbn [bind].
  destruct (connectivity_total st ts d false H) as (c & ->). cbn [bind]. destruct (connectivity_total st ts d true H) as (e & ->). cbn [bind]. eauto.
Qed.

Definition conn_eqb := list_eqb (fun x y : text * list Z => text_eqb (fst x) (fst y) && list_eqb Z.eqb (snd x) (snd y)).
Lemma swo_conn : swo (lexb conn_elt_ltb) conn_eqb.
Proof. apply swo_list. apply swo_pair; [apply swo_text|apply swo_list, swo_Z]. Qed.
Lemma swo_then {A B C} (f : A -> B) (g : A -> C) lt1 eq1 lt2 eq2 : swo lt1 eq1 -> swo lt2 eq2 ->
  swo (fun x y => then_ltb lt1 (f x) (f y) (lt2 (g x) (g y))) (fun x y => eq1 (f x) (f y) && eq2 (g x) (g y)).
Proof. intros H1 H2. apply (swo_lex2 f g lt1 eq1 lt2 eq2); auto. Qed.
Lemma swo_score : exists eqb, swo score_ltb eqb.
Proof.
  eexists. unfold score_ltb.
  apply (swo_then sc_label (fun x => x) text_ltb text_eqb); [apply swo_text|].
  apply (swo_then sc_rank (fun x => x) Z.ltb Z.eqb); [apply swo_Z|].
  apply (swo_then sc_low (fun x => x) (lexb Z.ltb) (list_eqb Z.eqb)); [apply swo_list, swo_Z|].
  apply (swo_then sc_upp (fun x => x) (lexb Z.ltb) (list_eqb Z.eqb)); [apply swo_list, swo_Z|].
  apply (swo_then sc_lconn (fun x => x) (lexb conn_elt_ltb) conn_eqb); [apply swo_conn|].
  apply (swo_then sc_uconn sc_tensor (lexb conn_elt_ltb) conn_eqb); [apply swo_conn|]. apply swo_tensor.
Qed.
Lemma sorted_tensors_ex st t : term_spaces st t -> exists ts, sorted_tensors st t ts.
Proof.
  intros H. destruct (mapM_total (tensor_score st (tm_tens t)) (tm_tens t)) as (sc & Esc).
  { intros d Hd. apply score_total. intros i Hi. apply H. right. exists d. auto. }
  destruct swo_score as (eqb & W). exists (map sc_tensor (sort_by score_ltb sc)), sc, (sort_by score_ltb sc).
  split; [exact Esc|]. split; [apply sort_by_perm|]. split; [apply (sort_by_ordered score_ltb eqb W)|reflexivity].
Qed.
