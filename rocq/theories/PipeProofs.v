(** C73: keys, names of arrays, and the unique reading of statements. *)
From Coq Require Import String.
From Coq Require Import ZArith List Bool Ascii Lia Sorted Permutation.
From Verif Require Import Res PartitionsModel RegistryModel RegistryProofs CoreModel RationalModel OrderProofs SortSpec TextModel EquationModel EquationSpec EquationProofs2 EinsumSpec PipeSpec.
Import ListNotations.
Local Open Scope Z_scope.

(** ** Lists sorted by space *)
Lemma sorted_front (l : list index) a : StronglySorted (fun i j => isp i <= isp j) l -> Forall (fun i => a <= isp i) l ->
  exists l', map isp l = repeat a (in_space l a) ++ map isp l' /\ StronglySorted (fun i j => isp i <= isp j) l' /\ Forall (fun i => a + 1 <= isp i) l' /\
    (forall s, a < s -> in_space l' s = in_space l s) /\ incl l' l.
Proof.
  induction 1 as [|i l S IH F]; intros G.
  - exists []. repeat split; try constructor; try easy.
  - inversion G as [|? ? G1 G2]; subst. destruct (IH G2) as (l' & E & S' & F' & C & I). unfold in_space in *. cbn [filter map]. destruct (Z.eqb_spec (isp i) a) as [Ea|Ea].
    + exists l'. cbn [length repeat app]. rewrite E, Ea. split; [reflexivity|]. split; [exact S'|]. split; [exact F'|]. split; [|intros x Hx; right; now apply I].
      intros s Hs. rewrite C by exact Hs. destruct (Z.eqb_spec a s); [lia|reflexivity].
    + assert (Gt : Forall (fun j => a + 1 <= isp j) (i :: l)) by (constructor; [lia|]; revert F; apply Forall_impl; intros; lia).
      exists (i :: l). assert (Z0 : filter (fun j => isp j =? a) l = []). { inversion Gt as [|? ? _ Gt']; subst. clear -Gt'. induction Gt' as [|j l H _ IH]; [reflexivity|]. cbn. destruct (Z.eqb_spec (isp j) a); [lia|exact IH]. }
      rewrite Z0. cbn [length repeat app map]. split; [reflexivity|]. split; [now constructor|]. split; [exact Gt|]. split; [|apply incl_refl]. intros s Hs. reflexivity.
Qed.
Lemma sorted_labels infos : forall l k, StronglySorted (fun i j => isp i <= isp j) l -> Forall (fun i => Z.of_nat k <= isp i < Z.of_nat (k + length infos)) l ->
  flat_map (fun p => repeat (os_label (fst p)) (in_space l (Z.of_nat (snd p)))) (combine infos (seq k (length infos))) =
  map (fun s => match nth_error infos (Z.to_nat s - k) with Some o => os_label o | None => zero end) (map isp l).
Proof.
  induction infos as [|o infos IH]; intros l k So F.
  - cbn [length] in F. destruct l as [|i l]; [reflexivity|]. inversion F; subst. lia.
  - destruct (sorted_front l (Z.of_nat k) So) as (l' & E & S' & F' & C & I). { revert F. apply Forall_impl. intros; lia. }
    cbn [length seq combine flat_map fst snd]. rewrite E, map_app. f_equal.
    + generalize (in_space l (Z.of_nat k)) as n. induction n as [|n IHn]; [reflexivity|]. cbn [repeat map]. rewrite <- IHn. f_equal. now rewrite Nat2Z.id, Nat.sub_diag.
    + assert (F2 : Forall (fun i => Z.of_nat (S k) <= isp i < Z.of_nat (S k + length infos)) l').
      { rewrite Forall_forall in *. intros i Hi. specialize (F' i Hi). specialize (F i (I i Hi)). cbn [length] in F. lia. }
      specialize (IH l' (S k) S'). rewrite Forall_forall in F2, F, F'.
      transitivity (flat_map (fun p => repeat (os_label (fst p)) (in_space l' (Z.of_nat (snd p)))) (combine infos (seq (S k) (length infos)))).
      * rewrite !flat_map_concat_map. f_equal. apply map_ext_in. intros [o' k'] H. cbn [fst snd]. apply in_combine_r in H. apply in_seq in H. rewrite C by lia. reflexivity.
      * rewrite IH by (apply Forall_forall; exact F2). rewrite !map_map. apply map_ext_in. intros i Hi. specialize (F' i Hi). replace (Z.to_nat (isp i) - k)%nat with (S (Z.to_nat (isp i) - S k)) by lia. reflexivity.
Qed.
Lemma labels_sorted st l : regd st l -> StronglySorted (fun i j => isp i <= isp j) l -> labels_of st l = space_key st l.
Proof.
  intros R S. rewrite labels_of_eq, sorted_labels; [|exact S|apply Forall_forall; intros i Hi; apply R in Hi; unfold num_spaces in Hi; cbn; lia].
  unfold space_key. rewrite map_map. apply map_ext_in. intros i Hi. apply R in Hi. rewrite Nat.sub_0_r. unfold space_label, aget. destruct (Z.ltb_spec (isp i) 0); [lia|].
  destruct (nth_error (space_info st) (Z.to_nat (isp i))) as [o|]; reflexivity.
Qed.
Lemma labels_rev st l : labels_of st (rev l) = labels_of st l.
Proof. rewrite !labels_of_eq. apply flat_map_ext. intros [s k]. now rewrite in_space_rev. Qed.
Lemma spaces_key st l : reachable st -> regd st l -> spaces_named st (space_key st l) = map isp l.
Proof.
  intros R H. unfold spaces_named, space_key. change (@ssreflect.seq.map) with (fun A B (f : A -> B) => @ssreflect.seq.map A B f). induction l as [|i l IH]; [reflexivity|].
  cbn. f_equal; [|apply IH; intros j Hj; apply H; now right]. destruct (reg_label_defined st (isp i) (H i (or_introl eq_refl))) as (c & E). rewrite E. now rewrite (reg_label_roundtrip st (isp i) c (reachable_ok st R) E).
Qed.

(** ** Keys *)
Lemma split_bar_ok a b : ~ In "|"%char a -> split_bar (a ++ "|"%char :: b) = (a, b).
Proof.
  induction a as [|c a IH]; intros N; [reflexivity|]. cbn [app split_bar]. destruct (Ascii.eqb_spec c "|"%char) as [->|E]; [exfalso; apply N; now left|].
  rewrite IH by (intros H; apply N; now right). reflexivity.
Qed.
Lemma sorted_app {A} (P : A -> A -> Prop) a b : StronglySorted P (a ++ b) -> StronglySorted P a /\ StronglySorted P b.
Proof.
  induction a as [|x a IH]; intros H; [split; [constructor|exact H]|]. inversion H as [|? ? H1 H2]; subst. destruct (IH H1) as (Ha & Hb). split; [|exact Hb]. constructor; [exact Ha|]. apply Forall_app in H2. tauto.
Qed.
Lemma cre_first_split ops : cre_first ops -> ops = filter s_cre ops ++ filter (fun o => negb (s_cre o)) ops.
Proof.
  intros (n & C & A). rewrite <- (firstn_skipn n ops) at 1 2 3. rewrite !filter_app.
  assert (X : forall (f : sqop -> bool) l, forallb f l = true -> filter f l = l). { intros f l. induction l as [|x l IH]; [reflexivity|]. cbn. intros H. apply andb_prop in H. destruct H as (-> & H). now rewrite IH. }
  assert (Y : forall (f g : sqop -> bool) l, (forall x, g x = negb (f x)) -> forallb f l = true -> filter g l = []). { intros f g l G. induction l as [|x l IH]; [reflexivity|]. cbn. intros H. apply andb_prop in H. destruct H as (H1 & H). rewrite G, H1. now apply IH. }
  rewrite (X s_cre), (X (fun o => negb (s_cre o)) (skipn n ops)) by assumption. rewrite (Y s_cre (fun o => negb (s_cre o)) (firstn n ops)) by auto.
  rewrite (Y (fun o => negb (s_cre o)) s_cre (skipn n ops)); [|intros x; now rewrite negb_involutive|exact A]. now rewrite app_nil_r.
Qed.
Lemma sorted_map {A B} (P : A -> A -> Prop) (Q : B -> B -> Prop) (f : A -> B) l : (forall x y, In x l -> In y l -> P x y -> Q (f x) (f y)) -> StronglySorted P l -> StronglySorted Q (map f l).
Proof.
  intros H S. induction S as [|x l S IH F]; [constructor|]. cbn. constructor; [apply IH; intros; apply H; try (now right); assumption|].
  rewrite Forall_forall in *. intros y Hy. apply in_map_iff in Hy. destruct Hy as (z & <- & Hz). apply H; [now left|now right|now apply F].
Qed.
Lemma sorted_rev {A} (P : A -> A -> Prop) l : StronglySorted P l -> StronglySorted (fun x y => P y x) (rev l).
Proof.
  induction 1 as [|x l S IH F]; [constructor|]. cbn [rev]. assert (X : forall a, StronglySorted (fun x y => P y x) a -> Forall (P x) a -> StronglySorted (fun x y => P y x) (a ++ [x])).
  { intros a Sa. induction Sa as [|y a Sa IHa Fa]; intros Fx; [repeat constructor|]. inversion Fx; subst. cbn. constructor; [now apply IHa|]. apply Forall_app. split; [exact Fa|]. now repeat constructor. }
  apply X; [exact IH|]. rewrite Forall_forall in *. intros y Hy. apply F. now apply in_rev.
Qed.
Lemma index_ltb_space i j : index_ltb j i = false -> isp i <= isp j.
Proof. unfold index_ltb, pair_ltb. cbn. destruct (Z.ltb_spec (isp j) (isp i)); [discriminate|lia]. Qed.
Lemma creators_sorted ops : ordered sqop_ltb ops -> cre_first ops -> StronglySorted (fun i j => isp i <= isp j) (creators ops).
Proof.
  intros O C. rewrite (cre_first_split _ C) in O. apply sorted_app in O. destruct O as (O & _). unfold creators. revert O. apply sorted_map.
  intros x y Hx Hy H. apply filter_In in Hx, Hy. destruct Hx as (_ & Hx), Hy as (_ & Hy). unfold sqop_ltb in H. rewrite Hx, Hy in H. cbn in H. now apply index_ltb_space.
Qed.
Lemma annihilators_sorted ops : ordered sqop_ltb ops -> cre_first ops -> StronglySorted (fun i j => isp i <= isp j) (rev (annihilators ops)).
Proof.
  intros O C. rewrite (cre_first_split _ C) in O. apply sorted_app in O. destruct O as (_ & O). unfold annihilators. apply (sorted_rev (fun i j => isp j <= isp i)). revert O. apply sorted_map.
  intros x y Hx Hy H. apply filter_In in Hx, Hy. destruct Hx as (_ & Hx), Hy as (_ & Hy). apply negb_true_iff in Hx, Hy. unfold sqop_ltb in H. rewrite Hx, Hy in H. cbn in H. now apply index_ltb_space.
Qed.
Lemma ops_word ops : cre_first ops -> map (fun o => (s_cre o, s_idx o)) ops = map (pair true) (creators ops) ++ map (pair false) (annihilators ops).
Proof.
  intros C. rewrite (cre_first_split _ C) at 1. rewrite map_app. unfold creators, annihilators. rewrite !map_map. f_equal; apply map_ext_in; intros o H; apply filter_In in H; destruct H as (_ & H); [now rewrite H|apply negb_true_iff in H; now rewrite H].
Qed.
Section Key.
  Variables (st : osi) (label : text) (t : term) (c : rational).
  Hypothesis R : reachable st.
  Hypothesis alpha : forall sp l, space_label st sp = Ok l -> is_alpha l = true.
  Hypothesis Sp : forall o, In o (tm_ops t) -> 0 <= isp (s_idx o) < num_spaces st.
  Hypothesis O : ordered sqop_ltb (tm_ops t).
  Hypothesis C : cre_first (tm_ops t).
  Lemma regd_cre : regd st (creators (tm_ops t)).
  Proof. intros i Hi. apply in_map_iff in Hi. destruct Hi as (o & <- & Ho). apply filter_In in Ho. now apply Sp. Qed.
  Lemma regd_ann : regd st (rev (annihilators (tm_ops t))).
  Proof. intros i Hi. apply in_rev in Hi. apply in_map_iff in Hi. destruct Hi as (o & <- & Ho). apply filter_In in Ho. now apply Sp. Qed.
  Lemma key_chars l : regd st l -> ~ In "|"%char (space_key st l).
  Proof.
    intros Rg H. apply in_map_iff in H. destruct H as (i & E & Hi). destruct (reg_label_defined st (isp i) (Rg i Hi)) as (x & Ex). rewrite Ex in E. subst x. apply alpha in Ex. discriminate.
  Qed.
  Lemma key_split : split_bar (key_of st (t, c)) = (space_key st (rev (annihilators (tm_ops t))), rev (space_key st (creators (tm_ops t)))).
  Proof.
    unfold key_of. cbn [fst]. rewrite <- labels_rev. rewrite (labels_sorted st (rev _)) by (apply regd_ann || now apply annihilators_sorted).
    rewrite (labels_sorted st (creators _)) by (apply regd_cre || now apply creators_sorted). cbn [app]. apply split_bar_ok. apply key_chars, regd_ann.
  Qed.
  Lemma key_upper_ok : key_upper st (key_of st (t, c)) = map isp (rev (annihilators (tm_ops t))).
  Proof. unfold key_upper. rewrite key_split. cbn [fst]. apply spaces_key; [exact R|apply regd_ann]. Qed.
  Lemma rev_seq {A} (l : list A) : ssreflect.seq.rev l = rev l.
  Proof. unfold ssreflect.seq.rev. assert (X : forall a b : list A, ssreflect.seq.catrev a b = rev a ++ b). { intros a. induction a as [|x a IH]; intros b; [reflexivity|]. cbn. rewrite IH, <- app_assoc. reflexivity. } rewrite X. apply app_nil_r. Qed.
  Lemma key_lower_ok : key_lower st (key_of st (t, c)) = map isp (creators (tm_ops t)).
  Proof. unfold key_lower. rewrite key_split. cbn [snd]. rewrite rev_seq, rev_involutive. apply spaces_key; [exact R|apply regd_cre]. Qed.
  Lemma key_name_ok : key_name label (key_of st (t, c)) = label ++ space_key st (rev (annihilators (tm_ops t)) ++ creators (tm_ops t)).
  Proof. unfold key_name. rewrite key_split. cbn [fst snd]. rewrite rev_seq, rev_involutive. unfold space_key. now rewrite map_app. Qed.
End Key.
