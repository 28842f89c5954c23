(** Splitting the range of ranks (C76): lists, sorted maps, the search. *)
From Coq Require Import ZArith QArith List Bool Arith Lia Permutation Sorted.
From Verif Require Import Res PartitionsModel RegistryModel CoreModel OrderProofs RationalModel RationalSpec RationalProofs AlgebraModel AlgebraSpec AlgebraProofs
  OperatorModel WickSearchModel WickSearchSpec WickElemProofs2 WickCompProofs WickSearchProofs WickEvalModel WickTotalProofs RankSplitSpec.
Import ListNotations.
Local Open Scope Z_scope.

(** ** Sublists *)
Inductive sub {A} : list A -> list A -> Prop :=
| sub_nil : sub [] []
| sub_keep x l l' : sub l l' -> sub (x :: l) (x :: l')
| sub_skip x l l' : sub l l' -> sub l (x :: l').
Lemma sub_in {A} (l l' : list A) x : sub l l' -> In x l -> In x l'.
Proof. intros S. induction S; cbn [In]; tauto. Qed.
Lemma sub_snoc {A} (l l' : list A) x : sub l l' -> sub (l ++ [x]) (l' ++ [x]).
Proof. intros S. induction S; cbn [app]; repeat constructor; auto. Qed.
Lemma sub_snoc_skip {A} (l l' : list A) x : sub l l' -> sub l (l' ++ [x]).
Proof. intros S. induction S; cbn [app]; repeat constructor; auto. Qed.
Lemma sub_filter {A} (p : A -> bool) (l l' : list A) : sub l l' -> NoDup l' -> (forall x, In x l' -> (In x l <-> p x = true)) -> l = filter p l'.
Proof.
  intros S. induction S as [|x l l' S IH|x l l' S IH]; intros N M; [reflexivity| |]; inversion N as [|? ? Nx N']; subst; cbn [filter].
  - assert (p x = true) as -> by (apply M; left; auto). f_equal. apply IH; auto. intros y Hy. rewrite <- M by (right; auto). cbn [In]. split; [tauto|]. intros [->|H]; [tauto|auto].
  - destruct (p x) eqn:P.
    + exfalso. apply Nx. apply (sub_in _ _ _ S). apply M; [left; auto|exact P].
    + apply IH; auto. intros y Hy. apply M. right. auto.
Qed.

(** ** A part of a sorted map *)
Section Part.
  Context {K : Type} (lt eqb : K -> K -> bool) (H : swo lt eqb) (p : K -> bool).
  Hypothesis Hp : forall k k', eqb k k' = true -> p k = p k'.
  Notation pf := (fun x : K * rational => p (fst x)).
  Lemma front_filter k (m : emap K) : Forall (fun x => lt k (fst x) = true) m -> Forall (fun x => lt k (fst x) = true) (filter pf m).
  Proof. intros F. rewrite Forall_forall in *. intros x Hx. apply filter_In in Hx. apply F, Hx. Qed.
  Lemma mset_front k c (m : emap K) : Forall (fun x => lt k (fst x) = true) m -> mset lt k c m = (k, c) :: m.
  Proof. intros F. destruct m as [|[k' c'] m]; [reflexivity|]. inversion F; subst. cbn [fst] in *. cbn [mset]. rewrite (swo_asym lt eqb H k k') by auto. match goal with X : lt k k' = true |- _ => rewrite X end. reflexivity. Qed.
  Lemma mfind_front k (m : emap K) : Forall (fun x => lt k (fst x) = true) m -> mfind lt k m = None.
  Proof. intros F. destruct m as [|[k' c'] m]; [reflexivity|]. inversion F; subst. cbn [fst] in *. cbn [mfind]. rewrite (swo_asym lt eqb H k k') by auto. match goal with X : lt k k' = true |- _ => rewrite X end. reflexivity. Qed.
  Lemma merase_front k (m : emap K) : Forall (fun x => lt k (fst x) = true) m -> merase lt k m = m.
  Proof. intros F. destruct m as [|[k' c'] m]; [reflexivity|]. inversion F; subst. cbn [fst] in *. cbn [merase]. rewrite (swo_asym lt eqb H k k') by auto. match goal with X : lt k k' = true |- _ => rewrite X end. reflexivity. Qed.
  Lemma after k k' (m : emap K) : lt k k' = true -> Forall (fun x => lt k' (fst x) = true) m -> Forall (fun x => lt k (fst x) = true) m.
  Proof. intros L F. eapply Forall_impl; [|exact F]. intros x Hx. eapply (swo_trans _ _ H); eauto. Qed.
  Lemma same k k' : lt k' k = false -> lt k k' = false -> p k' = p k.
  Proof. intros A B. apply Hp. apply (swo_eq _ _ H). auto. Qed.
  Lemma filter_mset k c m : msorted lt m -> filter pf (mset lt k c m) = if p k then mset lt k c (filter pf m) else filter pf m.
  Proof.
    unfold msorted. induction 1 as [|[k' c'] m S IH F]; cbn [mset filter fst].
    - destruct (p k); reflexivity.
    - destruct (lt k' k) eqn:E1; [|destruct (lt k k') eqn:E2]; cbn [filter fst] in *.
      + rewrite IH. destruct (p k'), (p k); cbn [mset]; rewrite ?E1; reflexivity.
      + destruct (p k) eqn:Pk; [|reflexivity]. assert (G : Forall (fun x => lt k (fst x) = true) (filter pf m)) by (apply front_filter; eapply after; eauto).
        destruct (p k'); [|symmetry; apply mset_front; auto]. symmetry. apply mset_front. constructor; auto.
      + rewrite (same k k') by auto. destruct (p k); [|reflexivity]. cbn [mset]. rewrite E1, E2. reflexivity.
  Qed.
  Lemma filter_merase k m : msorted lt m -> filter pf (merase lt k m) = if p k then merase lt k (filter pf m) else filter pf m.
  Proof.
    unfold msorted. induction 1 as [|[k' c'] m S IH F]; cbn [merase filter fst].
    - destruct (p k); reflexivity.
    - destruct (lt k' k) eqn:E1; [|destruct (lt k k') eqn:E2]; cbn [filter fst] in *.
      + rewrite IH. destruct (p k'), (p k); cbn [merase]; rewrite ?E1; reflexivity.
      + destruct (p k) eqn:Pk; [|reflexivity]. assert (G : Forall (fun x => lt k (fst x) = true) (filter pf m)) by (apply front_filter; eapply after; eauto).
        destruct (p k'); symmetry; apply merase_front; auto.
      + rewrite (same k k') by auto. destruct (p k); [|reflexivity]. cbn [merase]. rewrite E1, E2. reflexivity.
  Qed.
  Lemma filter_mfind k m : msorted lt m -> p k = true -> mfind lt k (filter pf m) = mfind lt k m.
  Proof.
    intros S Pk. revert S. unfold msorted. induction 1 as [|[k' c'] m S IH F]; cbn [mfind filter fst]; [reflexivity|].
    destruct (lt k' k) eqn:E1; [|destruct (lt k k') eqn:E2]; cbn [fst] in *.
    - destruct (p k'); cbn [mfind]; rewrite ?E1; exact IH.
    - assert (G : Forall (fun x => lt k (fst x) = true) (filter pf m)) by (apply front_filter; eapply after; eauto). destruct (p k'); apply mfind_front; auto.
    - rewrite (same k k'), Pk by auto. cbn [mfind]. rewrite E1, E2. reflexivity.
  Qed.
  Lemma filter_madd k c m : msorted lt m -> filter pf (madd lt k c m) = if p k then madd lt k c (filter pf m) else filter pf m.
  Proof.
    intros S. unfold madd. destruct (rat_is0 c); [destruct (p k); reflexivity|]. destruct (p k) eqn:Pk.
    - rewrite filter_mfind by auto. destruct (mfind lt k m) as [c0|]; [cbv zeta; destruct (rat_is0 (rat_add c0 c))|]; rewrite ?filter_mset, ?filter_merase, ?Pk by auto; reflexivity.
    - destruct (mfind lt k m) as [c0|]; [cbv zeta; destruct (rat_is0 (rat_add c0 c))|]; rewrite ?filter_mset, ?filter_merase, ?Pk by auto; reflexivity.
  Qed.
  Lemma filter_mplus (l : emap K) : forall m, msorted lt m -> filter pf (mplus lt m l) = mplus lt (filter pf m) (filter pf l) /\ msorted lt (mplus lt m l).
  Proof.
    unfold mplus. induction l as [|[k c] l IH]; intros m S; [split; auto|]. cbn [fold_left filter fst snd]. assert (S' : msorted lt (madd lt k c m)) by (apply (msorted_madd lt eqb H); auto).
    destruct (IH _ S') as (A & B). split; [|exact B]. rewrite A, filter_madd by auto. destruct (p k); reflexivity.
  Qed.
  Lemma filter_madd_out k c m : msorted lt m -> p k = false -> filter pf (madd lt k c m) = filter pf m.
  Proof. intros S P. rewrite filter_madd, P by auto. reflexivity. Qed.

  (** Inserting between. *)
  Lemma mset_mid k c (l1 l2 : emap K) : Forall (fun x => lt (fst x) k = true) l1 -> Forall (fun x => lt k (fst x) = true) l2 -> mset lt k c (l1 ++ l2) = l1 ++ (k, c) :: l2.
  Proof. intros F1 F2. induction F1 as [|[k' c'] l1 L F1 IH]; cbn [app]; [apply mset_front; auto|]. cbn [mset fst] in *. rewrite L, IH. reflexivity. Qed.
  Lemma mfind_mid k (l1 l2 : emap K) : Forall (fun x => lt (fst x) k = true) l1 -> Forall (fun x => lt k (fst x) = true) l2 -> mfind lt k (l1 ++ l2) = None.
  Proof. intros F1 F2. induction F1 as [|[k' c'] l1 L F1 IH]; cbn [app]; [apply mfind_front; auto|]. cbn [mfind fst] in *. rewrite L. exact IH. Qed.
  Lemma split_gen (q : K * rational -> bool) (l2 : emap K) : forall l1, msorted lt (l1 ++ l2) -> Forall (fun x => rat_is0 (snd x) = false) l2 ->
    fold_left (fun r x => madd lt (fst x) (snd x) r) (filter (fun x => negb (q x)) l2) (l1 ++ filter q l2) = l1 ++ l2.
  Proof.
    induction l2 as [|[k c] l2 IH]; intros l1 S N; [reflexivity|]. inversion N as [|? ? Nk N']; subst. assert (S' : msorted lt ((l1 ++ [(k, c)]) ++ l2)) by (rewrite <- app_assoc; exact S). specialize (IH _ S' N'). rewrite <- !app_assoc in IH. cbn [app] in IH.
    cbn [filter]. destruct (q (k, c)); cbn [negb]; [exact IH|]. cbn [fold_left fst snd]. rewrite <- IH. f_equal.
    apply ss_app_inv in S. destruct S as (S1 & S2 & S3). inversion S2 as [|? ? S4 S5]; subst.
    assert (F1 : Forall (fun x : K * rational => lt (fst x) k = true) l1) by (apply Forall_forall; intros x Hx; apply (S3 x (k, c)); [auto|left; auto]).
    assert (F2 : Forall (fun x : K * rational => lt k (fst x) = true) (filter q l2)) by (apply Forall_forall; intros x Hx; apply filter_In in Hx; rewrite Forall_forall in S5; apply S5, Hx).
    unfold madd. cbn [snd] in Nk. rewrite Nk, mfind_mid by auto. apply mset_mid; auto.
  Qed.
  Lemma mplus_parts (q : K * rational -> bool) (r : emap K) : wf lt r -> mplus lt (filter q r) (filter (fun x => negb (q x)) r) = r.
  Proof.
    intros (S & C & N). unfold mplus. apply (split_gen q r []); auto. unfold mcanon, mnz in *. rewrite Forall_forall in *. intros x Hx. destruct (rat_is0 (snd x)) eqn:E; auto. exfalso. apply (N x Hx). apply rat_is0_val; auto.
  Qed.
End Part.

Lemma rank_eqb t t' : term_eqb t t' = true -> rank_of t = rank_of t'.
Proof.
  unfold term_eqb. rewrite andb_true_iff. intros (_ & E). unfold rank_of. f_equal. revert E. generalize (tm_ops t), (tm_ops t'). induction l as [|x l IH]; intros [|y l'] E; try discriminate; [reflexivity|]. cbn [list_eqb] in E. apply andb_true_iff in E. cbn [length]. f_equal. apply IH, E.
Qed.

(** ** The search *)
Lemma foldM_lock {S S' A} (R : S -> S' -> Prop) (f : S -> A -> res S) (g : S' -> A -> res S') l :
  (forall s s' a t, In a l -> R s s' -> f s a = Ok t -> exists t', g s' a = Ok t' /\ R t t') ->
  forall s s' t, R s s' -> foldM f s l = Ok t -> exists t', foldM g s' l = Ok t' /\ R t t'.
Proof.
  induction l as [|a l IH]; intros Hl s s' t Hs E; cbn [foldM] in *; [injection E as <-; eauto|]. apply bind_Ok in E. destruct E as (u & E1 & E2). destruct (Hl s s' a u (or_introl eq_refl) Hs E1) as (u' & E3 & Hu). rewrite E3. cbn [bind].
  eapply IH; eauto. intros x x' b y Hb. apply Hl. right. exact Hb.
Qed.
Definition lock (x y : bt_state) : Prop := sub (fst y) (fst x) /\ snd y = snd x.
Lemma process_lock ar k a b a' b' x y t : a' <= a -> b <= b' -> lock x y -> process_contraction ar k a' b' x = Ok t -> exists t', process_contraction ar k a b y = Ok t' /\ lock t t'.
Proof.
  intros Ha Hb (L1 & L2) E. destruct x as [fx mx], y as [fy my]. cbn [fst snd] in *. subst my. unfold process_contraction in *. cbn zeta in *.
  destruct ((a <=? sum_num_ops mx) && (sum_num_ops mx <=? b)) eqn:B.
  - apply andb_true_iff in B. destruct B as (B1 & B2). apply Z.leb_le in B1, B2. assert (((a' <=? sum_num_ops mx) && (sum_num_ops mx <=? b')) = true) as B by (apply andb_true_iff; split; apply Z.leb_le; lia). rewrite B in E.
    destruct (Z.of_nat (length ar) <? k); [discriminate|]. injection E as <-. eexists. split; [reflexivity|]. split; [apply sub_snoc; auto|reflexivity].
  - destruct ((a' <=? sum_num_ops mx) && (sum_num_ops mx <=? b')).
    + destruct (Z.of_nat (length ar) <? k); [discriminate|]. injection E as <-. eexists. split; [reflexivity|]. split; [apply sub_snoc_skip; auto|reflexivity].
    + injection E as <-. eexists. split; [reflexivity|]. split; auto.
Qed.
Lemma backtrack_lock reg els a b a' b' : a' <= a -> b <= b' -> forall d ar k x y t, lock x y -> backtrack d reg els a' b' ar k x = Ok t -> exists t', backtrack d reg els a b ar k y = Ok t' /\ lock t t'.
Proof.
  intros Ha Hb. induction d as [|d IH]; intros ar k x y t L E; [discriminate|]. cbn [backtrack] in *. apply bind_Ok in E. destruct E as (x1 & E1 & E). destruct (process_lock ar k a b a' b' x y x1 Ha Hb L E1) as (y1 & -> & L1). cbn [bind] in *. cbn zeta in *.
  apply bind_Ok in E. destruct E as (cands & E2 & E). destruct L1 as (L1 & L2). rewrite L2, E2. cbn [bind]. apply bind_Ok in E. destruct E as ([ar2 x2] & E3 & E). injection E as <-.
  apply (foldM_lock (fun u v => fst v = fst u /\ lock (snd u) (snd v))) with (s' := (ar, y1)) (g := fun (x0 : list Z * bt_state) c => let '(a1, st) := x0 in
      bind (aset a1 (k + 1 - 1) c) (fun a2 => let el := nth (Z.to_nat c) els [] in let st0 := (fst st, move_sub reg (snd st) el) in
        bind (backtrack d reg els a b a2 (k + 1) st0) (fun st1 => bind (aset a2 (k + 1 - 1) (-1)) (fun a3 => Ok (a3, (fst st1, move_add reg (snd st1) el)))))) in E3.
  - destruct E3 as ([ar3 y2] & E3 & _ & L3). cbn zeta in E3.
    match goal with |- context [bind ?F _] => replace F with (Ok (ar3, y2) : res (list Z * bt_state)) by (symmetry; exact E3) end. cbn [bind]. eauto.
  - intros [u1 u2] [v1 v2] c w _ (Hu & L3) Ew. cbn [fst snd] in *. subst v1. apply bind_Ok in Ew. destruct Ew as (a2 & -> & Ew). cbn [bind]. cbn zeta in *. apply bind_Ok in Ew. destruct Ew as (x3 & E4 & Ew).
    destruct L3 as (L3 & L4). rewrite L4. destruct (IH a2 (k + 1) (fst u2, move_sub reg (snd u2) (nth (Z.to_nat c) els [])) (fst v2, move_sub reg (snd u2) (nth (Z.to_nat c) els [])) x3) as (y3 & -> & L5); [split; auto|exact E4|]. cbn [bind].
    apply bind_Ok in Ew. destruct Ew as (a3 & -> & Ew). cbn [bind]. injection Ew as <-. eexists. split; [reflexivity|]. cbn [fst snd]. split; auto. destruct L5 as (L5 & L6). split; cbn [fst snd]; [exact L5|congruence].
  - split; auto. split; auto.
Qed.

(** The number of operators left over by a composite contraction is in the range. *)
Definition rank_in (a b : Z) (els : list econ) (ops : oprod) (cv : list Z) : bool := (a <=? ops_rank ops - con_rank els cv) && (ops_rank ops - con_rank els cv <=? b).
Lemma con_used els cv : con_rank els cv = used ec_num_ops els cv.
Proof.
  unfold con_rank. assert (X : forall z, fold_left (fun a c => a + ec_num_ops (nth (Z.to_nat c) els [])) cv z = z + used ec_num_ops els cv) by (induction cv as [|c cv IH]; intros z; cbn [fold_left used]; [lia|rewrite IH; lia]). apply (X 0).
Qed.
Lemma left_rank els ops cv : left_over els ops cv = ops_rank ops - con_rank els cv.
Proof. rewrite con_used. reflexivity. Qed.
Lemma search_inv fuel o st ops a b els cvs : search fuel o st ops a b = Ok (els, cvs) -> (8 <? num_spaces st) = false /\ elementary_contractions fuel st (wt_maxcumulant o) ops = Ok els /\ exists x, composite_contractions 101 st els ops a b = Ok (cvs, x).
Proof.
  unfold search. destruct (8 <? num_spaces st); [discriminate|]. intros E. apply bind_Ok in E. destruct E as (els' & E1 & E). apply bind_Ok in E. destruct E as ([cvs' x] & E2 & E). injection E as -> ->. eauto.
Qed.
Lemma search_fwd fuel o st ops a b els cvs x : (8 <? num_spaces st) = false -> elementary_contractions fuel st (wt_maxcumulant o) ops = Ok els -> composite_contractions 101 st els ops a b = Ok (cvs, x) -> search fuel o st ops a b = Ok (els, cvs).
Proof. unfold search. intros -> -> E. cbn [bind]. rewrite E. reflexivity. Qed.
Lemma search_part fuel o st ops a b a' b' els cvs : ops_ok st ops -> a' <= a -> b <= b' -> search fuel o st ops a' b' = Ok (els, cvs) ->
  search fuel o st ops a b = Ok (els, filter (rank_in a b els ops) cvs).
Proof.
  intros Hok Ha Hb E. assert (N := search_nodup _ _ _ _ _ _ _ _ Hok E). destruct (search_inv _ _ _ _ _ _ _ _ E) as (E8 & E1 & x & E2).
  unfold composite_contractions in E2. destruct (backtrack_lock st els a b a' b' Ha Hb 101 (repeat (-1) 100) 0 ([], map op_gm ops) ([], map op_gm ops) (cvs, x)) as ([cvs1 x1] & E3 & L1 & L2); [split; constructor|exact E2|]. cbn [fst snd] in *. subst x1.
  assert (cvs1 = filter (rank_in a b els ops) cvs) as <-; [|eapply search_fwd; eauto].
  destruct (search_spec st ops els a b Hok (els_ok fuel st (wt_maxcumulant o) ops els Hok E1) 101 (le_n _)) as [(L & E4 & _ & I & _)|(E4 & _)]; unfold composite_contractions in E4; rewrite E3 in E4; [|discriminate]. injection E4 as <- _.
  destruct (search_spec st ops els a' b' Hok (els_ok fuel st (wt_maxcumulant o) ops els Hok E1) 101 (le_n _)) as [(L & E4 & _ & I' & _)|(E4 & _)]; unfold composite_contractions in E4; rewrite E2 in E4; [|discriminate]. injection E4 as <- _.
  apply sub_filter; auto. intros cv Hcv. apply I' in Hcv. rewrite I. unfold rank_ok, rank_in. rewrite andb_true_iff, !Z.leb_le, !left_rank. tauto.
Qed.
Lemma search_range fuel o st ops a b a' b' els cvs : ops_ok st ops -> search fuel o st ops a b = Ok (els, cvs) -> exists cvs', search fuel o st ops a' b' = Ok (els, cvs').
Proof.
  intros Hok E. destruct (search_inv _ _ _ _ _ _ _ _ E) as (E8 & E1 & x & E2).
  destruct (search_spec st ops els a b Hok (els_ok fuel st (wt_maxcumulant o) ops els Hok E1) 101 (le_n _)) as [(L & E4 & _ & _ & B)|(E4 & _)]; [|congruence].
  destruct (search_spec st ops els a' b' Hok (els_ok fuel st (wt_maxcumulant o) ops els Hok E1) 101 (le_n _)) as [(L' & E5 & _)|(E5 & cs & M & C & Lc)].
  - exists L'. eapply search_fwd; eauto.
  - specialize (B cs M C). lia.
Qed.
Lemma search_fuel fuel f o st ops a b els cvs : (fuel <= f)%nat -> search fuel o st ops a b = Ok (els, cvs) -> search f o st ops a b = Ok (els, cvs).
Proof.
  intros Hf E. destruct (search_inv _ _ _ _ _ _ _ _ E) as (E8 & E1 & x & E2). eapply search_fwd; eauto. destruct (fle_elementary fuel f st (wt_maxcumulant o) ops Hf) as [X|X]; congruence.
Qed.
Lemma search_ranks fuel o st ops a b els cvs cv : ops_ok st ops -> search fuel o st ops a b = Ok (els, cvs) -> In cv cvs -> rank_in a b els ops cv = true.
Proof.
  intros Hok E Hcv. destruct (search_inv _ _ _ _ _ _ _ _ E) as (E8 & E1 & x & E2).
  destruct (search_spec st ops els a b Hok (els_ok fuel st (wt_maxcumulant o) ops els Hok E1) 101 (le_n _)) as [(L & E4 & _ & I & _)|(E4 & _)]; [|congruence]. rewrite E2 in E4. injection E4 as <- _.
  apply I in Hcv. destruct Hcv as (_ & R). unfold rank_ok in R. unfold rank_in. rewrite andb_true_iff, !Z.leb_le, <- !left_rank. exact R.
Qed.
