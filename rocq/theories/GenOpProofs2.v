(** gen_op: each requested component exactly once (C58). *)
From Coq Require Import ZArith QArith List Bool Ascii Lia Sorted Permutation.
From Verif Require Import Res RegistryModel RegistryProofs CoreModel RationalModel OrderProofs AlgebraModel AlgebraSpec TextModel OperatorModel OperatorSpec OperatorProofs OperatorProofs2 WickSearchSpec WickCombProofs GenOpModel GenOpSpec GenOpProofs.
Import ListNotations.
Local Open Scope Z_scope.

Lemma NoDup_list_prod {A B} (l : list A) (m : list B) : NoDup l -> NoDup m -> NoDup (list_prod l m).
Proof.
  intros N M. induction N as [|a l H N IH]; [constructor|]. cbn. apply NoDup_app; auto.
  - apply FinFun.Injective_map_NoDup; [|exact M]. intros x y [= E]. exact E.
  - intros [x y] H1 H2. apply in_map_iff in H1. destruct H1 as (z & [= -> _] & _). apply in_prod_iff in H2. destruct H2; auto.
Qed.
Lemma count_unique {A} (q : A -> bool) l : NoDup l -> (forall x y, In x l -> In y l -> q x = true -> q y = true -> x = y) ->
  (exists x, In x l /\ q x = true) -> length (filter q l) = 1%nat.
Proof.
  intros N U (x & Hx & Qx). induction N as [|a l H N IH]; [destruct Hx|]. cbn [filter]. destruct (q a) eqn:Qa.
  - assert (E : filter q l = []); [|rewrite E; reflexivity]. destruct (filter q l) as [|b m] eqn:F; [reflexivity|]. exfalso.
    assert (Hb : In b (filter q l)) by (rewrite F; left; reflexivity). apply filter_In in Hb. destruct Hb as [Hb Qb]. apply H. rewrite (U a b); auto; [left; reflexivity|right; exact Hb].
  - destruct Hx as [->|Hx]; [congruence|]. apply IH; auto. intros y z Hy Hz. apply U; right; auto.
Qed.
Lemma count_none {A} (q : A -> bool) l : (forall x, In x l -> q x = false) -> length (filter q l) = 0%nat.
Proof. intros H. induction l as [|a l IH]; [reflexivity|]. cbn [filter]. rewrite H by (left; reflexivity). apply IH. intros x Hx. apply H. right. exact Hx. Qed.
Lemma filter_map_len {A B} (f : A -> B) q l : length (filter q (map f l)) = length (filter (fun x => q (f x)) l).
Proof. induction l as [|a l IH]; [reflexivity|]. cbn. destruct (q (f a)); cbn; rewrite IH; reflexivity. Qed.

(** ** Sums over the spaces *)
Lemma in_range n s : In s (range n) <-> 0 <= s < n.
Proof. unfold range. rewrite in_map_iff. split; [intros (i & <- & H); apply in_seq in H; lia|]. intros H. exists (Z.to_nat s). split; [lia|]. apply in_seq. lia. Qed.
Lemma NoDup_range n : NoDup (range n).
Proof. apply FinFun.Injective_map_NoDup; [intros a b; lia|apply seq_NoDup]. Qed.
Lemma zsum_add {A} (f g : A -> Z) l : zsum (map (fun s => f s + g s) l) = zsum (map f l) + zsum (map g l).
Proof. unfold zsum. induction l as [|a l IH]; cbn [map fold_right]; lia. Qed.
Lemma zsum_ext {A} (f g : A -> Z) l : (forall s, In s l -> f s = g s) -> zsum (map f l) = zsum (map g l).
Proof. intros H. induction l as [|a l IH]; [reflexivity|]. cbn. rewrite H by (left; reflexivity). fold (zsum (map f l)). fold (zsum (map g l)). rewrite IH; [reflexivity|]. intros s Hs. apply H. right. exact Hs. Qed.
Lemma zsum_0 {A} (l : list A) : zsum (map (fun _ => 0) l) = 0.
Proof. unfold zsum. induction l; cbn [map fold_right]; lia. Qed.
Lemma zsum_one (f : Z -> Z) l p : NoDup l -> In p l -> (forall s, In s l -> s <> p -> f s = 0) -> zsum (map f l) = f p.
Proof.
  intros N. induction N as [|a l H N IH]; intros Hp Z; [destruct Hp|]. cbn. fold (zsum (map f l)). destruct (Z.eq_dec a p) as [->|D].
  - enough (zsum (map f l) = 0) by lia. rewrite (zsum_ext _ (fun _ => 0)); [apply zsum_0|]. intros s Hs. apply Z; [right; exact Hs|]. intros ->. auto.
  - destruct Hp as [|Hp]; [congruence|]. rewrite Z by (auto; left; reflexivity). rewrite IH; auto. intros s Hs. apply Z. right. exact Hs.
Qed.
Definition lab (st : osi) (s : Z) : ascii := match space_label st s with Ok l => l | _ => zero end.
Lemma lab_ok st s : space st s -> space_label st s = Ok (lab st s).
Proof. intros H. destruct (reg_label_defined st s H) as (l & E). unfold lab. rewrite E. reflexivity. Qed.
Lemma lab_pos st s : reg_ok st -> space st s -> pos st (lab st s) = s /\ known st (lab st s).
Proof. intros R H. assert (E := reg_label_roundtrip st s _ R (lab_ok st s H)). unfold pos, known. rewrite E. split; [reflexivity|eauto]. Qed.
Lemma known_lab st c : reg_ok st -> known st c -> space st (pos st c) /\ lab st (pos st c) = c.
Proof. intros R (p & H). unfold pos. rewrite H. destruct (reg_label_known st c p R H) as (L & B). split; [exact B|]. unfold lab. rewrite L. reflexivity. Qed.
Lemma count_total st l : reg_ok st -> Forall (known st) l -> zsum (map (fun s => Z.of_nat (count_occ ascii_dec l (lab st s))) (range (num_spaces st))) = Z.of_nat (length l).
Proof.
  intros R K. induction K as [|c l Kc K IH]; [apply zsum_0|]. destruct (known_lab st c R Kc) as (B & Lc).
  transitivity (zsum (map (fun s => (if ascii_dec c (lab st s) then 1 else 0) + Z.of_nat (count_occ ascii_dec l (lab st s))) (range (num_spaces st)))).
  - apply zsum_ext. intros s _. cbn [count_occ]. destruct (ascii_dec c (lab st s)); lia.
  - rewrite zsum_add, IH. rewrite (zsum_one _ _ (pos st c)); [|apply NoDup_range|apply in_range; exact B|].
    + rewrite Lc. destruct (ascii_dec c c); [|congruence]. cbn [length]. lia.
    + intros s Hs D. destruct (ascii_dec c (lab st s)) as [E|]; [|reflexivity]. exfalso. apply D. rewrite E. symmetry. apply lab_pos; auto. apply in_range. exact Hs.
Qed.

(** ** The sorted list of labels with given counts *)
Definition legs (st : osi) (f : Z -> Z) : text := flat_map (fun s => repeat (lab st s) (Z.to_nat (f s))) (range (num_spaces st)).
Lemma legs_in st f c : In c (legs st f) <-> exists s, space st s /\ 0 < f s /\ lab st s = c.
Proof.
  unfold legs. rewrite in_flat_map. split.
  - intros (s & Hs & H). exists s. split; [apply in_range; exact Hs|]. assert (E := repeat_spec _ _ _ H). split; [|auto]. destruct (Z.to_nat (f s)) eqn:N; [destruct H|lia].
  - intros (s & Hs & H & <-). exists s. split; [apply in_range; exact Hs|]. destruct (Z.to_nat (f s)) eqn:N; [lia|left; reflexivity].
Qed.
Lemma legs_known st f : reg_ok st -> Forall (known st) (legs st f).
Proof. intros R. apply Forall_forall. intros c Hc. apply legs_in in Hc. destruct Hc as (s & Hs & _ & <-). apply lab_pos; auto. Qed.
Lemma count_repeat (c d : ascii) n : count_occ ascii_dec (repeat c n) d = if ascii_dec c d then n else O.
Proof. induction n as [|n IH]; cbn; [destruct (ascii_dec c d); reflexivity|]. rewrite IH. destruct (ascii_dec c d); reflexivity. Qed.
Lemma legs_count st f p : reg_ok st -> space st p -> (forall s, space st s -> 0 <= f s) -> Z.of_nat (count_occ ascii_dec (legs st f) (lab st p)) = f p.
Proof.
  intros R Hp Hf. unfold legs. transitivity (zsum (map (fun s => if ascii_dec (lab st s) (lab st p) then f s else 0) (range (num_spaces st)))).
  - assert (F : Forall (fun s => 0 <= f s) (range (num_spaces st))) by (apply Forall_forall; intros s Hs; apply Hf, in_range, Hs). clear Hf.
    unfold zsum. induction F as [|s l H F IH]; [reflexivity|]. cbn [flat_map map fold_right]. rewrite count_occ_app, Nat2Z.inj_add, IH, count_repeat. destruct (ascii_dec _ _); lia.
  - rewrite (zsum_one _ _ p); [destruct (ascii_dec _ _); congruence|apply NoDup_range|apply in_range; exact Hp|]. intros s Hs D. apply in_range in Hs. destruct (ascii_dec _ _) as [E|]; [|reflexivity]. exfalso. apply D.
    destruct (lab_pos st s R Hs) as [<- _]. rewrite E. apply lab_pos; auto.
Qed.
Lemma legs_length st f : (forall s, space st s -> 0 <= f s) -> Z.of_nat (length (legs st f)) = zsum (map f (range (num_spaces st))).
Proof.
  intros Hf. unfold legs. assert (F : Forall (fun s => 0 <= f s) (range (num_spaces st))) by (apply Forall_forall; intros s Hs; apply Hf, in_range, Hs).
  unfold zsum. induction F as [|s l H F IH]; [reflexivity|]. cbn [flat_map map fold_right]. rewrite app_length, repeat_length. lia.
Qed.
Lemma legs_sorted st f : reg_ok st -> StronglySorted (rel true) (map (pos st) (legs st f)).
Proof.
  intros R. unfold legs. assert (F : Forall (space st) (range (num_spaces st))) by (apply Forall_forall; intros s; apply in_range).
  assert (S : StronglySorted Z.lt (range (num_spaces st))).
  { unfold range. generalize 0%nat as k. induction (Z.to_nat (num_spaces st)) as [|n IH]; intros k; cbn [seq map]; constructor; auto. apply Forall_forall. intros x Hx. apply in_map_iff in Hx. destruct Hx as (i & <- & Hi). apply in_seq in Hi. lia. }
  induction S as [|s l S IH G]; [constructor|]. inversion F as [|? ? Hs F']; subst. cbn [flat_map]. rewrite map_app.
  assert (X : forall x, In x (map (pos st) (flat_map (fun s => repeat (lab st s) (Z.to_nat (f s))) l)) -> s <= x).
  { intros x Hx. apply in_map_iff in Hx. destruct Hx as (c & <- & Hc). apply in_flat_map in Hc. destruct Hc as (t & Ht & Hc). apply repeat_spec in Hc. subst c. rewrite Forall_forall in F', G. destruct (lab_pos st t R (F' t Ht)) as [-> _]. specialize (G t Ht). lia. }
  destruct (lab_pos st s R Hs) as [Ep _].
  induction (Z.to_nat (f s)) as [|n IHn]; cbn [repeat map app]; [apply IH; auto|]. constructor; [exact IHn|]. rewrite Ep. apply Forall_forall. intros x Hx. apply in_app_iff in Hx. destruct Hx as [Hx|Hx].
  - apply in_map_iff in Hx. destruct Hx as (c & <- & Hc). apply repeat_spec in Hc. subst c. rewrite Ep. unfold rel. lia.
  - unfold rel. apply X, Hx.
Qed.
Lemma sorted_snoc (R : Z -> Z -> Prop) l x : StronglySorted R l -> Forall (fun y => R y x) l -> StronglySorted R (l ++ [x]).
Proof. intros S F. induction S as [|a l S IH G]; [repeat constructor|]. inversion F; subst. cbn. constructor; auto. apply Forall_app. split; [exact G|repeat constructor; auto]. Qed.
Lemma sorted_rev l : StronglySorted (rel true) l -> StronglySorted (rel false) (rev l).
Proof. intros S. induction S as [|a l S IH F]; [constructor|]. cbn [rev]. apply sorted_snoc; auto. apply Forall_rev. exact F. Qed.
Lemma count_rev (l : text) c : count_occ ascii_dec (rev l) c = count_occ ascii_dec l c.
Proof. apply Permutation_count_occ. apply Permutation_sym, Permutation_rev. Qed.
Lemma both_sorted l x y : StronglySorted (rel true) l -> StronglySorted (rel false) l -> In x l -> In y l -> x = y.
Proof.
  intros S. induction S as [|a l S IH F]; intros S' Hx Hy; [destruct Hx|]. inversion S' as [|? ? S'' F']; subst. rewrite Forall_forall in F, F'. unfold rel in *.
  destruct Hx as [<-|Hx], Hy as [<-|Hy]; [reflexivity| | |auto]; [specialize (F y Hy); specialize (F' y Hy)|specialize (F x Hx); specialize (F' x Hx)]; lia.
Qed.

Section Main.
  Variables (st : osi) (label : text) (rank : Z) (cre ann : text) (diagonal : bool).
  Hypotheses (R : reg_ok st) (Hn : (nsp st <= max_spaces)%nat) (SC : space_list st cre) (SA : space_list st ann).
  Let n := Z.to_nat rank.
  Let pairs := filter (good st diagonal) (list_prod (products n cre) (products n ann)).
  Let q (o : oper) (x : text * text) : bool := match component_op st label (component_text (fst x) (snd x)) with Ok o' => oper_eqb o' o | _ => false end.

  Lemma list_known l w : space_list st l -> In w (products n l) -> Forall (known st) w /\ Forall (fun c => is_letter c = true) w.
  Proof.
    intros (_ & F) H. apply in_products in H. destruct H as [_ H]. rewrite Forall_forall in F, H. split; apply Forall_forall; intros c Hc; specialize (F c (H c Hc)); [apply F|apply is_letter_ok, F].
  Qed.
  Lemma pair_component x : In x pairs -> exists o, component_op st label (component_text (fst x) (snd x)) = Ok o /\ component st label (Z.max 0 rank) cre ann o /\
    (diagonal = true \/ ~ one_space st o) /\
    (forall p l, space_label st p = Ok l -> cre_of (op_gm o) p = Z.of_nat (count_occ ascii_dec (fst x) l) /\ ann_of (op_gm o) p = Z.of_nat (count_occ ascii_dec (snd x) l)).
  Proof.
    intros H. apply filter_In in H. destruct H as [H G]. destruct x as [le re]. apply in_prod_iff in H. destruct H as [H1 H2]. cbn [fst snd].
    destruct (list_known _ _ SC H1) as [K1 L1]. destruct (list_known _ _ SA H2) as [K2 L2]. apply in_products in H1. apply in_products in H2. destruct H1 as [N1 F1], H2 as [N2 F2].
    destruct (component_ok st label le re R Hn) as (o & Eo & Lo & Vo & Co); [apply Forall_app; auto|apply Forall_app; auto|]. exists o. split; [exact Eo|].
    assert (Cs : forall s, space st s -> cre_of (op_gm o) s = Z.of_nat (count_occ ascii_dec le (lab st s)) /\ ann_of (op_gm o) s = Z.of_nat (count_occ ascii_dec re (lab st s))) by (intros s Hs; apply Co, lab_ok, Hs).
    split; [|split; [|exact Co]].
    - constructor; auto.
      + intros s Hs. destruct (Cs s Hs) as [-> ->]. lia.
      + rewrite (zsum_ext _ (fun s => Z.of_nat (count_occ ascii_dec le (lab st s)))); [rewrite count_total by auto; lia|]. intros s Hs. apply Cs, in_range, Hs.
      + rewrite (zsum_ext _ (fun s => Z.of_nat (count_occ ascii_dec re (lab st s)))); [rewrite count_total by auto; lia|]. intros s Hs. apply Cs, in_range, Hs.
      + intros s l Hl P. destruct (Co s l Hl) as [E _]. rewrite E in P. rewrite Forall_forall in F1. apply F1. apply (count_occ_In ascii_dec). lia.
      + intros s l Hl P. destruct (Co s l Hl) as [_ E]. rewrite E in P. rewrite Forall_forall in F2. apply F2. apply (count_occ_In ascii_dec). lia.
    - unfold good in G. cbn [fst snd] in G. apply andb_prop in G. destruct G as [_ G]. destruct diagonal; [auto|right]. cbn [orb] in G. apply negb_true_iff in G. intros O.
      enough (le = re) by (subst re; rewrite text_eqb_refl in G; discriminate).
      assert (Q : forall c d, In c le -> In d re -> c = d).
      { intros c d Hc Hd. rewrite Forall_forall in K1, K2. destruct (known_lab st c R (K1 c Hc)) as [B1 E1]. destruct (known_lab st d R (K2 d Hd)) as [B2 E2].
        apply (pos_inj st); auto. apply O; auto; [destruct (Cs _ B1) as [-> _]; rewrite E1|destruct (Cs _ B2) as [_ ->]; rewrite E2]; apply (count_occ_In ascii_dec) in Hc, Hd; lia. }
      clear - Q N1 N2. assert (E : length le = length re) by congruence. clear N1 N2. revert re E Q. induction le as [|c le IH]; intros [|d re] E Q; try discriminate; [reflexivity|]. f_equal; [apply Q; left; reflexivity|].
      apply IH; [cbn in E; lia|]. intros a b Ha Hb. apply Q; right; auto.
  Qed.
  Lemma component_pair o : component st label (Z.max 0 rank) cre ann o -> (diagonal = true \/ ~ one_space st o) -> exists x, In x pairs /\ q o x = true.
  Proof.
    intros C D. destruct C as [Lo Vo No Cc Ca Ic Ia]. set (le := legs st (cre_of (op_gm o))). set (re := rev (legs st (ann_of (op_gm o)))).
    assert (N1 : forall s, space st s -> 0 <= cre_of (op_gm o) s) by (intros s Hs; apply No, Hs). assert (N2 : forall s, space st s -> 0 <= ann_of (op_gm o) s) by (intros s Hs; apply No, Hs).
    assert (H1 : In le (products n cre)).
    { apply in_products. split; [assert (E := legs_length st _ N1); rewrite Cc in E; unfold n, le; lia|]. apply Forall_forall. intros c Hc. apply legs_in in Hc. destruct Hc as (s & Hs & P & <-). apply (Ic s); auto. apply lab_ok, Hs. }
    assert (H2 : In re (products n ann)).
    { apply in_products. unfold re. rewrite rev_length. split; [assert (E := legs_length st _ N2); rewrite Ca in E; unfold n; lia|]. apply Forall_rev. apply Forall_forall. intros c Hc. apply legs_in in Hc. destruct Hc as (s & Hs & P & <-). apply (Ia s); auto. apply lab_ok, Hs. }
    assert (S1 : StronglySorted (rel true) (map (pos st) le)) by (apply legs_sorted; auto).
    assert (S2 : StronglySorted (rel false) (map (pos st) re)) by (unfold re; rewrite map_rev; apply sorted_rev, legs_sorted; auto).
    exists (le, re). split.
    - apply filter_In. split; [apply in_prod; auto|]. unfold good. cbn [fst snd]. apply mono_sorted in S1 as M1. apply mono_sorted in S2 as M2. rewrite M1, M2. cbn [andb].
      destruct diagonal; [reflexivity|]. cbn [orb]. apply negb_true_iff. destruct (text_eqb le re) eqn:E; [|reflexivity]. exfalso. apply text_eqb_ok in E. destruct D as [D|D]; [discriminate|]. apply D.
      intros s s' Hs Hs' P P'. destruct (lab_pos st s R Hs) as [<- _]. destruct (lab_pos st s' R Hs') as [<- _]. apply (both_sorted (map (pos st) le)); auto; [rewrite E; exact S2|apply in_map, legs_in; eauto|].
      rewrite E. apply in_map. unfold re. rewrite <- in_rev. apply legs_in. eauto.
    - unfold q. cbn [fst snd]. destruct (list_known _ _ SC H1) as [K1 L1]. destruct (list_known _ _ SA H2) as [K2 L2].
      destruct (component_ok st label le re R Hn) as (o' & Eo & Lo' & Vo' & Co); [apply Forall_app; auto|apply Forall_app; auto|]. rewrite Eo. apply oper_eqb_eq.
      destruct o as [lo go], o' as [lo' go']. cbn [op_label op_gm] in *. subst. f_equal. apply (gm_valid_ext st); auto. intros s Hs. destruct (Co s (lab st s) (lab_ok st s Hs)) as [-> ->].
      unfold le, re. rewrite count_rev. rewrite !legs_count; auto.
  Qed.
  Theorem gen_op_ok : exists e, gen_op st label rank cre ann diagonal = Ok e /\ wf oprod_ltb e /\
    forall k, ((exists o, k = [o] /\ component st label (Z.max 0 rank) cre ann o /\ (diagonal = true \/ ~ one_space st o)) -> (coef oprod_eqb e k == 1)%Q) /\
      (~ (exists o, k = [o] /\ component st label (Z.max 0 rank) cre ann o /\ (diagonal = true \/ ~ one_space st o)) -> (coef oprod_eqb e k == 0)%Q).
  Proof.
    unfold gen_op. assert (KC : Forall (known st) cre) by (destruct SC as [_ F]; eapply Forall_impl; [|exact F]; intros c [_ H]; exact H).
    assert (KA : Forall (known st) ann) by (destruct SA as [_ F]; eapply Forall_impl; [|exact F]; intros c [_ H]; exact H). rewrite gen_terms_eq by auto. cbn [bind]. fold n. fold pairs.
    destruct (op_spec st label (map (fun x => component_text (fst x) (snd x)) pairs) R Hn) as (e & Ee & We & C1 & C0).
    { apply Forall_forall. intros s Hs. apply in_map_iff in Hs. destruct Hs as ([le re] & <- & Hx). apply filter_In in Hx. destruct Hx as [Hx _]. apply in_prod_iff in Hx. destruct Hx as [H1 H2]. cbn [fst snd].
      destruct (list_known _ _ SC H1) as [K1 L1]. destruct (list_known _ _ SA H2) as [K2 L2]. intros c Hc Lc. apply is_letter_ok in Lc. destruct (in_tokens _ _ Lc Hc) as (d & Hd).
      rewrite component_tokens in Hd by (apply Forall_app; auto). rewrite Forall_forall in K1, K2. apply in_app_iff in Hd. destruct Hd as [Hd|Hd]; apply in_map_iff in Hd; destruct Hd as (x & [= -> _] & Hx); [apply K1|apply K2]; exact Hx. }
    exists e. split; [exact Ee|]. split; [exact We|]. intros k. split.
    - intros (o & -> & C & D). rewrite C1. unfold comp_count. rewrite filter_map_len. match goal with |- context [length (filter ?f pairs)] => change f with (q o) end. rewrite (count_unique (q o) pairs).
      + reflexivity.
      + unfold pairs. apply NoDup_filter, NoDup_list_prod; apply NoDup_products; [apply SC|apply SA].
      + intros x y Hx Hy Qx Qy. unfold q in *. destruct (pair_component x Hx) as (ox & Ex & _ & _ & Cx). destruct (pair_component y Hy) as (oy & Ey & _ & _ & Cy). rewrite Ex in Qx. rewrite Ey in Qy.
        apply oper_eqb_eq in Qx. apply oper_eqb_eq in Qy. subst ox oy. destruct x as [le re], y as [le' re']. apply filter_In in Hx. apply filter_In in Hy. destruct Hx as [Hx Gx], Hy as [Hy Gy].
        apply in_prod_iff in Hx. apply in_prod_iff in Hy. destruct Hx as [X1 X2], Hy as [Y1 Y2]. cbn [fst snd] in *. destruct (list_known _ _ SC X1) as [KX1 _]. destruct (list_known _ _ SA X2) as [KX2 _]. destruct (list_known _ _ SC Y1) as [KY1 _]. destruct (list_known _ _ SA Y2) as [KY2 _].
        unfold good in Gx, Gy. cbn [fst snd] in *. apply andb_prop in Gx. apply andb_prop in Gy. destruct Gx as [Gx _], Gy as [Gy _]. apply andb_prop in Gx. apply andb_prop in Gy. destruct Gx as [Gx1 Gx2], Gy as [Gy1 Gy2].
        assert (U : forall (l l' : text), Forall (known st) l -> Forall (known st) l' -> (forall s, space st s -> Z.of_nat (count_occ ascii_dec l (lab st s)) = Z.of_nat (count_occ ascii_dec l' (lab st s))) -> forall c, count_occ ascii_dec l c = count_occ ascii_dec l' c).
        { intros l l' F F' H c. rewrite Forall_forall in F, F'. destruct (in_dec ascii_dec c (l ++ l')) as [I|I].
          - assert (Kc : known st c) by (apply in_app_iff in I; destruct I; auto). destruct (known_lab st c R Kc) as [B E]. specialize (H _ B). rewrite E in H. lia.
          - rewrite in_app_iff in I. assert (~ In c l /\ ~ In c l') as [I1 I2] by tauto. apply (count_occ_not_In ascii_dec) in I1. apply (count_occ_not_In ascii_dec) in I2. congruence. }
        f_equal; [apply (sorted_labels_unique st true)|apply (sorted_labels_unique st false)]; auto; apply U; auto; intros s Hs; destruct (Cx _ _ (lab_ok st s Hs)); destruct (Cy _ _ (lab_ok st s Hs)); congruence.
      + apply component_pair; auto.
    - intros No. destruct (Nat.eq_dec (length k) 1) as [L|L]; [|apply C0, L]. destruct k as [|o [|? ?]]; try discriminate. rewrite C1. unfold comp_count. rewrite filter_map_len. match goal with |- context [length (filter ?f pairs)] => change f with (q o) end. rewrite (count_none (q o)); [reflexivity|].
      intros x Hx. destruct (q o x) eqn:Q; [|reflexivity]. exfalso. apply No. unfold q in Q. destruct (pair_component x Hx) as (ox & Ex & Cx & Dx & _). rewrite Ex in Q. apply oper_eqb_eq in Q. subst ox. exists o. auto.
  Qed.
End Main.
(** ** Unknown labels *)
Lemma foldM_throw {A B} (f : A -> B -> res A) l x : (forall a y, (exists a', f a y = Ok a') \/ f a y = Throw) -> In x l -> (forall a, f a x = Throw) -> forall a, foldM f a l = Throw.
Proof.
  intros H Hx Tx. induction l as [|y l IH]; [destruct Hx|]. intros a. cbn [foldM]. destruct Hx as [->|Hx]; [rewrite Tx; reflexivity|]. destruct (H a y) as [(a' & ->)| ->]; [cbn [bind]; apply IH, Hx|reflexivity].
Qed.
Lemma foldM_two {A B} (f : A -> B -> res A) l : (forall a y, (exists a', f a y = Ok a') \/ f a y = Throw) -> forall a, (exists a', foldM f a l = Ok a') \/ foldM f a l = Throw.
Proof. intros H. induction l as [|y l IH]; intros a; cbn [foldM]; [left; eauto|]. destruct (H a y) as [(a' & ->)| ->]; [apply IH|right; reflexivity]. Qed.
Lemma label_pos_two st c : (exists p, label_pos st c = Ok p) \/ label_pos st c = Throw.
Proof. unfold label_pos. destruct (dict_get c _) as [p|]; [left; exists p; reflexivity|right; reflexivity]. Qed.
Lemma monotone_two st up l : (exists b, monotone st up l = Ok b) \/ monotone st up l = Throw.
Proof.
  induction l as [|a l IH]; [left; eexists; reflexivity|]. destruct l as [|b l]; [left; eexists; reflexivity|].
  change (monotone st up (a :: b :: l)) with (bind (label_pos st a) (fun x => bind (label_pos st b) (fun y => if (if up then x <=? y else y <=? x) then monotone st up (b :: l) else Ok false))).
  destruct (label_pos_two st a) as [(x & ->)| ->]; [|right; reflexivity]. cbn [bind]. destruct (label_pos_two st b) as [(y & ->)| ->]; [|right; reflexivity]. cbn [bind].
  destruct (if up then x <=? y else y <=? x); [exact IH|left; eauto].
Qed.
Lemma monotone_repeat_unknown st up c n : reg_ok st -> label_to_space st c = Throw -> (2 <= n)%nat -> monotone st up (repeat c n) = Throw.
Proof.
  intros R H L. destruct n as [|[|n]]; [lia|lia|]. cbn [repeat].
  change (monotone st up (c :: c :: repeat c n)) with (bind (label_pos st c) (fun x => bind (label_pos st c) (fun y => if (if up then x <=? y else y <=? x) then monotone st up (c :: repeat c n) else Ok false))).
  rewrite label_pos_eq, H by auto. reflexivity.
Qed.
Lemma in_products_repeat n l (c : ascii) : In c l -> In (repeat c n) (products n l).
Proof. intros H. apply in_products. split; [apply repeat_length|]. apply Forall_forall. intros x Hx. apply repeat_spec in Hx. subst x. exact H. Qed.
Lemma monotone_repeat_known st up c n p : reg_ok st -> label_to_space st c = Ok p -> monotone st up (repeat c n) = Ok true.
Proof.
  intros R H. assert (F : Forall (known st) (repeat c n)) by (apply Forall_forall; intros x Hx; apply repeat_spec in Hx; subst x; exists p; exact H).
  rewrite monotone_known by auto. f_equal. apply mono_sorted. clear F. induction n as [|n IH]; [constructor|]. cbn [repeat map]. constructor; [exact IH|]. apply Forall_forall. intros x Hx. apply in_map_iff in Hx.
  destruct Hx as (y & <- & Hy). apply repeat_spec in Hy. subst y. unfold rel. destruct up; lia.
Qed.
Theorem gen_op_unknown st label rank cre ann diagonal c : reg_ok st -> 2 <= rank -> label_to_space st c = Throw -> (In c cre \/ (In c ann /\ cre <> [])) ->
  gen_op st label rank cre ann diagonal = Throw.
Proof.
  intros R Hr Hc H. unfold gen_op, gen_terms.
  enough (E : forall f : list text -> text -> res (list text), f = (fun terms le => bind (monotone st true le) (fun le_sorted : bool => if le_sorted then
      foldM (fun terms re => bind (monotone st false re) (fun re_sorted : bool => Ok (if re_sorted && (diagonal || negb (text_eqb le re)) then terms ++ [component_text le re] else terms))) terms (products (Z.to_nat rank) ann)
      else Ok terms)) -> foldM f [] (products (Z.to_nat rank) cre) = Throw).
  { rewrite (E _ eq_refl). reflexivity. }
  intros f ->. set (f := fun (terms : list text) (le : text) => bind (monotone st true le) _).
  assert (T2 : forall a y, (exists a', f a y = Ok a') \/ f a y = Throw).
  { intros a y. unfold f. destruct (monotone_two st true y) as [(b & ->)| ->]; [|right; reflexivity]. cbn [bind]. destruct b; [|left; eauto]. apply foldM_two. intros a' z.
    destruct (monotone_two st false z) as [(b & ->)| ->]; [left; eexists; reflexivity|right; reflexivity]. }
  destruct H as [H|[H Ne]].
  - apply (foldM_throw f _ (repeat c (Z.to_nat rank))); auto; [apply in_products_repeat, H|]. intros a. unfold f. rewrite monotone_repeat_unknown; auto. lia.
  - destruct cre as [|d cre']; [congruence|]. apply (foldM_throw f _ (repeat d (Z.to_nat rank))); auto; [apply in_products_repeat; left; reflexivity|]. intros a. unfold f.
    destruct (label_to_space_res st d) as [(p & Hp)|Hp]; [|rewrite monotone_repeat_unknown; auto; lia].
    rewrite (monotone_repeat_known st true d _ p) by auto. cbn [bind]. apply (foldM_throw _ _ (repeat c (Z.to_nat rank))); [|apply in_products_repeat, H|].
    + intros a' z. destruct (monotone_two st false z) as [(b & ->)| ->]; [left; eexists; reflexivity|right; reflexivity].
    + intros a'. rewrite monotone_repeat_unknown; auto. lia.
Qed.
