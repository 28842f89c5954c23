(** The drawing of a contraction. *)
From Coq Require Import String.
From Coq Require Import ZArith List Bool Arith Ascii Permutation Lia.
From Verif Require Import Res PartitionsModel RegistryModel RegistryProofs CoreModel OrderProofs CombinatoricsModel RationalModel AlgebraModel SortModel SortSpec
  OperatorModel OperatorSpec OperatorProofs AdjointModel CanonModel NextPermModel WickSearchModel WickSearchSpec WickElemProofs WickEvalModel WickLegSpec
  DecModel TextModel ExprTextModel EquationModel OpTextModel TraceModel TraceSpec.
Import ListNotations.
Local Open Scope Z_scope.

(** ** Brackets *)
Definition marks (b : list bool) : nat := count_occ bool_dec b true.
Lemma some_true_false b : some_true b = false -> b = repeat false (length b).
Proof. induction b as [|[] b IH]; cbn; intros E; try discriminate; auto. f_equal. auto. Qed.
Lemma some_repeat n : some_true (repeat false n) = false.
Proof. induction n; auto. Qed.
Lemma some_app a b : some_true (a ++ b) = some_true a || some_true b.
Proof. apply existsb_app. Qed.
Lemma marks_some b : (1 <= marks b)%nat -> some_true b = true.
Proof. intros H. destruct (some_true b) eqn:E; auto. apply some_true_false in E. rewrite E in H. exfalso. revert H. unfold marks. generalize (length b). intros n. induction n as [|n IH]; cbn; lia. Qed.
Lemma first_split b : some_true b = true -> exists a b', b = repeat false a ++ true :: b'.
Proof.
  induction b as [|x b IH]; [discriminate|]. destruct x; [exists O, b; auto|]. cbn. intros E. destruct (IH E) as (a & b' & ->). exists (S a), b'. reflexivity.
Qed.
Lemma last_split b : some_true b = true -> exists b' z, b = b' ++ true :: repeat false z.
Proof.
  intros E. destruct (first_split (rev b)) as (a & b' & R).
  - unfold some_true in *. apply existsb_exists in E. destruct E as (x & Hx & Ex). apply existsb_exists. exists x. split; auto. apply -> in_rev. auto.
  - exists (rev b'), a. rewrite <- (rev_involutive b), R, rev_app_distr. cbn [rev]. rewrite <- app_assoc. cbn [app]. f_equal. f_equal. clear. induction a as [|a IH]; [reflexivity|]. cbn [repeat rev]. rewrite IH. symmetry. apply repeat_cons.
Qed.
Lemma two_marks b : (2 <= marks b)%nat -> exists a mid z, b = repeat false a ++ true :: mid ++ true :: repeat false z.
Proof.
  intros H. destruct (first_split b) as (a & b' & ->); [apply marks_some; lia|]. destruct (last_split b') as (mid & z & ->).
  - apply marks_some. unfold marks in *. rewrite count_occ_app in H. cbn [count_occ] in H. destruct (bool_dec true true); [|congruence]. assert (X : count_occ bool_dec (repeat false a) true = O) by (clear; induction a; cbn; auto). lia.
  - exists a, mid, z. reflexivity.
Qed.
Lemma first_true_eq a b : first_true (repeat false a ++ true :: b) = a.
Proof. induction a as [|a IH]; cbn; auto. Qed.
Lemma concat_const {A} (f : nat -> list A) c l : (forall k, In k l -> f k = c) -> concat (map f l) = concat (repeat c (length l)).
Proof. induction l as [|k l IH]; intros H; [reflexivity|]. cbn. rewrite H by (left; auto). f_equal. apply IH. intros; apply H; right; auto. Qed.
Lemma nth_skip {A} (l l' : list A) k d : nth (length l + k) (l ++ l') d = nth k l' d.
Proof. rewrite app_nth2 by lia. f_equal. lia. Qed.
Lemma legs_bracket b : (2 <= marks b)%nat -> legs_line b = bracket b.
Proof.
  intros H. destruct (two_marks b H) as (a & mid & z & E). unfold legs_line, bracket. set (F := first_true b). assert (EF : F = a) by (unfold F; rewrite E; apply first_true_eq).
  assert (EL : last_true b = (a + 1 + length mid + 1)%nat).
  { unfold last_true. rewrite E at 2. rewrite rev_app_distr. cbn [rev]. rewrite rev_app_distr. cbn [rev]. rewrite <- !app_assoc. cbn [app].
    assert (R : rev (repeat false z) = repeat false z) by (clear; induction z as [|z IH]; [reflexivity|]; cbn [repeat rev]; rewrite IH; symmetry; apply repeat_cons).
    rewrite R, first_true_eq, E, !app_length, repeat_length. cbn [length]. rewrite app_length. cbn [length]. rewrite repeat_length. lia. }
  rewrite EL, EF. replace (a + 1 + length mid + 1 - 1 - (a + 1))%nat with (length mid) by lia.
  assert (Lb : length b = (a + (1 + (length mid + (1 + z))))%nat). { rewrite E, !app_length, repeat_length. cbn [length]. rewrite app_length. cbn [length]. rewrite repeat_length. lia. }
  rewrite Lb, !seq_app, !map_app, !concat_app. cbn [plus]. unfold margin. rewrite <- !app_assoc. f_equal.
  assert (B1 : forall k, (k < a)%nat -> leg_cell b k = str "   ").
  { intros k Hk. unfold leg_cell. assert (X : firstn k b = repeat false k). { rewrite E, firstn_app, repeat_length. replace (k - a)%nat with O by lia. rewrite firstn_O, app_nil_r. clear - Hk. revert a Hk. induction k as [|k IH]; intros [|a] Hk; cbn; auto; try lia. f_equal. apply IH. lia. }
    rewrite X, some_repeat. rewrite E, app_nth1 by (rewrite repeat_length; auto). rewrite nth_repeat. reflexivity. }
  assert (B2 : leg_cell b a = str " ┌─").
  { unfold leg_cell. assert (X : firstn a b = repeat false a) by (rewrite E, firstn_app, repeat_length, Nat.sub_diag, firstn_O, app_nil_r; apply firstn_all2; rewrite repeat_length; auto). rewrite X, some_repeat.
    assert (Y : nth a b false = true) by (rewrite E; rewrite <- (repeat_length false a) at 1; rewrite <- (Nat.add_0_r (length _)), nth_skip; reflexivity). rewrite Y. reflexivity. }
  assert (NT : forall k, nth (a + 1 + k) b false = nth k (mid ++ true :: repeat false z) false).
  { intros k. rewrite E. replace (a + 1 + k)%nat with (length (repeat false a) + (S k))%nat by (rewrite repeat_length; lia). rewrite nth_skip. reflexivity. }
  assert (ST : forall k, some_true (firstn (a + 1 + k) b) = true).
  { intros k. rewrite E, firstn_app, some_app, repeat_length. replace (a + 1 + k - a)%nat with (S k) by lia. cbn [firstn some_true existsb]. apply orb_true_r. }
  assert (SK : forall k, skipn (S (a + 1 + k)) b = skipn (S k) (mid ++ true :: repeat false z)).
  { intros k. rewrite E, skipn_app, repeat_length, skipn_all2 by (rewrite repeat_length; lia). replace (S (a + 1 + k) - a)%nat with (S (S k)) by lia. reflexivity. }
  assert (B3 : forall k, (k < length mid)%nat -> leg_cell b (a + 1 + k) = if nth (a + 1 + k) b false then str "─┬─" else str "───").
  { intros k Hk. unfold leg_cell. rewrite ST, SK. assert (X : some_true (skipn (S k) (mid ++ true :: repeat false z)) = true).
    { rewrite skipn_app, some_app. replace (S k - length mid)%nat with O by lia. rewrite skipn_O. cbn [some_true existsb]. apply orb_true_r. }
    rewrite X. destruct (nth (a + 1 + k) b false); reflexivity. }
  assert (B4 : leg_cell b (a + 1 + length mid) = str "─┐ ").
  { unfold leg_cell. rewrite ST, SK, NT. rewrite <- (Nat.add_0_r (length mid)) at 1. rewrite nth_skip. cbn [nth]. rewrite skipn_app, skipn_all2 by lia. replace (S (length mid) - length mid)%nat with 1%nat by lia. cbn [skipn app]. rewrite some_repeat. reflexivity. }
  assert (B5 : forall k, (length mid < k)%nat -> leg_cell b (a + 1 + k) = []).
  { intros k Hk. unfold leg_cell. rewrite ST, SK, NT. rewrite app_nth2 by lia. assert (X : nth (k - length mid) (true :: repeat false z) false = false) by (destruct (k - length mid)%nat eqn:Q; [lia|]; cbn [nth]; apply nth_repeat). rewrite X.
    rewrite skipn_app, skipn_all2 by lia. cbn [app]. destruct (S k - length mid)%nat eqn:Q; [lia|]. cbn [skipn]. assert (Y : some_true (skipn n (repeat false z)) = false). { clear. revert n. induction z as [|z IH]; intros [|n]; cbn; auto. apply some_repeat. } rewrite Y. reflexivity. }
  f_equal; [rewrite (concat_const (leg_cell b) (str "   ")), seq_length; [reflexivity|]; intros k Hk; apply in_seq in Hk; apply B1; lia|].
  cbn [seq map concat app]. rewrite app_nil_r, B2. f_equal.
  f_equal; [f_equal; apply map_ext_in; intros k Hk; apply in_seq in Hk; replace k with (a + 1 + (k - a - 1))%nat by lia; symmetry; apply B3; lia|].
  rewrite B4. f_equal. assert (X : concat (map (leg_cell b) (seq (S (a + 1 + length mid)) z)) = []).
  { rewrite (concat_const (leg_cell b) []), seq_length; [clear; induction z; auto|]. intros k Hk. apply in_seq in Hk. replace k with (a + 1 + (k - a - 1))%nat by lia. apply B5. lia. }
  replace (a + 1 + length mid + 1)%nat with (S (a + 1 + length mid)) by lia. rewrite X. reflexivity.
Qed.

Lemma nth_firstn {A} (l : list A) k j d : (j < k)%nat -> nth j (firstn k l) d = nth j l d.
Proof. revert k j. induction l as [|a l IH]; intros [|k] [|j] H; cbn; auto; try lia. apply IH. lia. Qed.
Lemma combine_app {A B} (l1 l2 : list A) (r1 r2 : list B) : length l1 = length r1 -> combine (l1 ++ l2) (r1 ++ r2) = combine l1 r1 ++ combine l2 r2.
Proof. revert r1. induction l1 as [|a l1 IH]; intros [|b r1] E; try discriminate; auto. cbn. f_equal. apply IH. injection E; auto. Qed.
Lemma nth_map_in {A B} (f : A -> B) l j d d' : (j < length l)%nat -> nth j (map f l) d = f (nth j l d').
Proof. intros H. rewrite (nth_indep _ d (f d')) by (rewrite map_length; auto). apply map_nth. Qed.
(** ** Tensor rows *)
Section T.
  Context (st : osi) (sq : list sqop).
  Hypothesis N : NoDup (map s_idx sq).
  Lemma aput_new {K} (eqb : K -> K -> bool) k v (m : assoc K) : afind eqb k m = None -> aput eqb k v m = m ++ [(k, v)].
  Proof. induction m as [|[k' v'] m IH]; cbn; [auto|]. destruct (eqb k k'); [discriminate|]. intros E. rewrite IH; auto. Qed.
  Lemma afind_None i (l : list index) (vs : list Z) : ~ In i l -> afind index_eqb i (combine l vs) = None.
  Proof.
    revert vs. induction l as [|j l IH]; intros [|v vs] H; cbn; auto. destruct (index_eqb i j) eqn:E; [apply index_eqb_eq in E; subst; exfalso; apply H; left; auto|]. apply IH. intros X; apply H; right; auto.
  Qed.
  Lemma positions_eq : index_positions sq = combine (map s_idx sq) (iota (length sq)).
  Proof.
    unfold index_positions. assert (G : forall k, (k <= length sq)%nat -> fold_left (fun m k => aput index_eqb (s_idx (nth k sq (mkSQ true (mkI 0 0)))) (Z.of_nat k) m) (seq 0 k) [] = combine (firstn k (map s_idx sq)) (iota k)).
    { induction k as [|k IH]; intros Hk; [reflexivity|]. rewrite seq_S, fold_left_app, IH by lia. cbn [fold_left plus]. rewrite (aput_new index_eqb).
      - unfold iota. rewrite seq_S, map_app. cbn [map plus]. assert (X : firstn (S k) (map s_idx sq) = firstn k (map s_idx sq) ++ [s_idx (nth k sq (mkSQ true (mkI 0 0)))]).
        { clear - Hk. revert k Hk. induction sq as [|q l IH]; intros [|k] Hk; cbn [length] in Hk; try lia; [reflexivity|]. cbn [map firstn app nth]. f_equal. apply IH. lia. }
        rewrite X. assert (Lk : length (firstn k (map s_idx sq)) = k) by (rewrite firstn_length, map_length; lia). clear - Lk. set (l := firstn k (map s_idx sq)) in *. rewrite combine_app.
        + reflexivity.
        + rewrite map_length, seq_length. exact Lk.
      - apply afind_None. intros X. apply (In_nth _ _ (mkI 0 0)) in X. destruct X as (j & Hj & Ej). rewrite firstn_length, map_length in Hj. rewrite nth_firstn in Ej by lia.
        change (s_idx (nth k sq (mkSQ true (mkI 0 0)))) with (s_idx (nth k sq (mkSQ true (mkI 0 0)))) in Ej. rewrite <- (map_nth s_idx) in Ej. cbn [s_idx] in Ej. assert (j = k); [|lia].
        apply (proj1 (NoDup_nth (map s_idx sq) (mkI 0 0)) N); rewrite ?map_length; auto; lia. }
    rewrite G by lia. rewrite <- (map_length s_idx sq) at 1. rewrite firstn_all. reflexivity.
  Qed.
  Lemma afind_pos k : (k < length sq)%nat -> afind index_eqb (s_idx (nth k sq (mkSQ true (mkI 0 0)))) (index_positions sq) = Some (Z.of_nat k).
  Proof.
    intros Hk. rewrite positions_eq. unfold iota. assert (G : forall (l : list sqop) a k, (k < length l)%nat -> NoDup (map s_idx l) -> afind index_eqb (s_idx (nth k l (mkSQ true (mkI 0 0)))) (combine (map s_idx l) (map Z.of_nat (seq a (length l)))) = Some (Z.of_nat (a + k))).
    { clear. induction l as [|q l IH]; intros a [|k] Hk Nd; cbn [length] in Hk; try lia.
      - cbn. rewrite index_eqb_refl, Nat.add_0_r. reflexivity.
      - cbn [length seq map combine nth afind]. inversion Nd as [|? ? X Y]; subst. destruct (index_eqb _ _) eqn:E.
        + apply index_eqb_eq in E. exfalso. apply X. rewrite <- E. apply in_map, nth_In. lia.
        + rewrite IH by (auto; lia). do 2 f_equal. lia. }
    apply (G sq O k Hk N).
  Qed.
  Lemma positions_length : length (index_positions sq) = length sq.
  Proof. rewrite positions_eq, combine_length, map_length. unfold iota. rewrite map_length, seq_length. lia. Qed.
  (** Columns after writing the indices [is] with the value [v]. *)
  Lemma set_columns_ok v is : (forall i, In i is -> In i (map s_idx sq)) -> forall f : index -> Z,
    set_columns v (map (fun q => f (s_idx q)) sq, index_positions sq) is = Ok (map (fun q => if has_index is (s_idx q) then v else f (s_idx q)) sq, index_positions sq).
  Proof.
    unfold set_columns. induction is as [|i is IH]; intros Hi f; [reflexivity|]. cbn [foldM].
    assert (X := Hi i (or_introl eq_refl)). apply in_map_iff in X. destruct X as (q & <- & Hq). apply (In_nth _ _ (mkSQ true (mkI 0 0))) in Hq. destruct Hq as (k & Hk & Ek).
    rewrite <- Ek at 1. rewrite afind_pos by auto. cbn [bind]. unfold aset. rewrite map_length. destruct (Z.ltb_spec (Z.of_nat k) 0); [lia|]. destruct (Z.leb_spec (Z.of_nat (length sq)) (Z.of_nat k)); [lia|]. cbn [orb bind]. rewrite Nat2Z.id.
    assert (E : lset (map (fun q => f (s_idx q)) sq) k v = map (fun x => (if index_eqb (s_idx x) (s_idx q) then v else f (s_idx x))) sq).
    { apply (nth_ext _ _ 0 0); [rewrite lset_length, !map_length; reflexivity|]. intros j Hj. rewrite lset_length, map_length in Hj.
      assert (Y : nth j (map (fun x => if index_eqb (s_idx x) (s_idx q) then v else f (s_idx x)) sq) 0 = if index_eqb (s_idx (nth j sq (mkSQ true (mkI 0 0)))) (s_idx q) then v else f (s_idx (nth j sq (mkSQ true (mkI 0 0))))).
      { rewrite (nth_map_in _ sq j 0 (mkSQ true (mkI 0 0))) by auto. reflexivity. }
      rewrite Y. clear Y. assert (Z : nth j (lset (map (fun q => f (s_idx q)) sq) k v) 0 = if (j =? k)%nat then v else f (s_idx (nth j sq (mkSQ true (mkI 0 0))))).
      { rewrite nth_lset by (rewrite map_length; auto). destruct (j =? k)%nat; auto. rewrite (nth_map_in _ sq j 0 (mkSQ true (mkI 0 0))) by auto. reflexivity. }
      rewrite Z. clear Z. destruct (Nat.eqb_spec j k) as [->|Ne]; [rewrite Ek, index_eqb_refl; reflexivity|]. destruct (index_eqb _ _) eqn:E; auto. exfalso. apply Ne. apply index_eqb_eq in E. rewrite <- Ek in E.
      apply (proj1 (NoDup_nth (map s_idx sq) (mkI 0 0)) N); rewrite ?map_length; auto. rewrite !(map_nth s_idx sq (mkSQ true (mkI 0 0))). exact E. }
    rewrite E. etransitivity; [exact (IH (fun j Hj => Hi j (or_intror Hj)) (fun i => if index_eqb i (s_idx q) then v else f i))|]. do 2 f_equal. apply map_ext. intros x. cbn [has_index existsb]. unfold has_index. destruct (index_eqb (s_idx x) (s_idx q)), (existsb (index_eqb (s_idx x)) is); reflexivity.
  Qed.
  Lemma index_str_ok i : is_space st (isp i) -> exists t, index_str st i = Ok t.
  Proof. intros H. unfold index_str. destruct (reg_label_defined st (isp i) H) as (l & ->). cbn [bind]. eauto. Qed.
  Lemma mapM_all {A B} (f : A -> res B) l : (forall a, In a l -> exists b, f a = Ok b) -> exists r, mapM f l = Ok r.
  Proof. induction l as [|a l IH]; intros H; [exists []; reflexivity|]. cbn [mapM]. destruct (H a) as (b & ->); [left; auto|]. cbn [bind]. destruct IH as (r & ->); [intros; apply H; right; auto|]. cbn [bind]. eauto. Qed.
  Definition tensor_in (t : tensor) : Prop := forall i, In i (t_upper t) \/ In i (t_lower t) -> In i (map s_idx sq) /\ is_space st (isp i).
  Lemma tensor_str_ok t : (forall i, In i (t_upper t) \/ In i (t_lower t) -> is_space st (isp i)) -> exists s, tensor_str st t = Ok s.
  Proof.
    intros H. unfold tensor_str. destruct (mapM_all (index_str st) (t_upper t)) as (u & ->); [intros i Hi; apply index_str_ok, H; auto|]. destruct (mapM_all (index_str st) (t_lower t)) as (l & ->); [intros i Hi; apply index_str_ok, H; auto|]. cbn [bind]. eauto.
  Qed.
  Lemma tensor_line_ok t : tensor_in t -> tensor_line st (index_positions sq) t = Ok (tensor_row st sq t, index_positions sq).
  Proof.
    intros H. unfold tensor_line. rewrite positions_length. assert (R : repeat 0 (length sq) = map (fun q => (fun _ : index => 0) (s_idx q)) sq) by (clear; induction sq as [|q l IH]; [reflexivity|]; cbn; f_equal; exact IH).
    rewrite R. rewrite (set_columns_ok 1 (t_upper t) (fun i Hi => proj1 (H i (or_introl Hi))) (fun _ => 0)). cbn [bind]. rewrite (set_columns_ok (-1) (t_lower t) (fun i Hi => proj1 (H i (or_intror Hi))) (fun i => if has_index (t_upper t) i then 1 else 0)). cbn [bind].
    destruct (tensor_str_ok t) as (s & Es); [intros i Hi; apply H; auto|]. rewrite Es. cbn [bind]. unfold tensor_row, margin. rewrite Es. cbn [text_of]. do 3 f_equal. f_equal. f_equal. rewrite map_map. apply map_ext. intros q. unfold tensor_cell, column_text.
    destruct (has_index (t_lower t) (s_idx q)); [reflexivity|]. destruct (has_index (t_upper t) (s_idx q)); reflexivity.
  Qed.
  Lemma contraction_text_ok tens bits ord : Forall tensor_in tens -> (forall q, In q sq -> is_space st (s_space q)) -> Forall (fun b => (2 <= marks b)%nat) bits ->
    contraction_text st tens bits sq ord = Ok (drawing st bits sq ord tens).
  Proof.
    intros Ht Hq Hb. unfold contraction_text.
    assert (IX : mapM (fun q => bind (index_str st (s_idx q)) (fun t => Ok (pad_right 3 t))) sq = Ok (map (fun q => pad_right 3 (text_of (index_str st (s_idx q)))) sq)).
    { clear - Hq. induction sq as [|q l IH]; [reflexivity|]. cbn [mapM map]. destruct (index_str_ok (s_idx q)) as (t & ->); [apply Hq; left; auto|]. cbn [bind text_of]. rewrite IH by (intros; apply Hq; right; auto). reflexivity. }
    rewrite IX. cbn [bind].
    assert (TL : forall x, foldM (fun (x : text * assoc index) t => bind (tensor_line st (snd x) t) (fun y => let '(l, m) := y in Ok (fst x ++ l, m))) (x, index_positions sq) tens = Ok (x ++ concat (map (tensor_row st sq) tens), index_positions sq)).
    { clear Hb. induction tens as [|t ts IH]; intros x; [cbn; rewrite app_nil_r; reflexivity|]. inversion Ht as [|? ? H1 H2]; subst. cbn [foldM fst snd]. rewrite tensor_line_ok by auto. cbn [bind]. rewrite IH by auto. cbn [map concat]. rewrite app_assoc. reflexivity. }
    rewrite TL. cbn [bind app]. unfold drawing. assert (BR : map legs_line bits = map bracket bits) by (apply map_ext_in; intros b Ib; apply legs_bracket; rewrite Forall_forall in Hb; auto). rewrite BR. reflexivity.
  Qed.
End T.
