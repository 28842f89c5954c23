(** Lemmas about operators built from strings, adjoints of operator products and expressions. *)
From Coq Require Import ZArith QArith List Bool Ascii Lia Permutation.
From Verif Require Import Res PartitionsModel RegistryModel RegistryProofs CoreModel OrderProofs CombinatoricsModel CombinatoricsProofs
  RationalModel RationalSpec RationalProofs AlgebraModel AlgebraSpec AlgebraProofs AlgebraProofs2 AlgebraCases
  SortModel SortSpec SortProofs OperatorModel OperatorSpec OperatorProofs.
Import ListNotations.
Local Open Scope Z_scope.

(** ** Component strings *)
Lemma is_letter_ok c : is_letter c = true <-> letter c.
Proof.
  unfold is_letter, letter. rewrite orb_true_iff, !andb_true_iff, !Z.leb_le. split.
  - intros H. eexists; split; [reflexivity|]. lia.
  - intros (n & <- & H). lia.
Qed.

Definition tokn (toks : list (ascii * bool)) (c : ascii) (d : bool) : Z :=
  Z.of_nat (length (filter (fun t => Ascii.eqb (fst t) c && Bool.eqb (snd t) d) toks)).
Lemma tokn_nil c d : tokn [] c d = 0. Proof. reflexivity. Qed.
Lemma tokn_cons t toks c d : tokn (t :: toks) c d = (if Ascii.eqb (fst t) c && Bool.eqb (snd t) d then 1 else 0) + tokn toks c d.
Proof. unfold tokn. cbn [filter]. destruct (_ && _); [|reflexivity]. cbn [length]. lia. Qed.

Lemma filter_map_S (f : nat -> bool) n : length (filter f (map S (seq 0 n))) = length (filter (fun i => f (S i)) (seq 0 n)).
Proof. generalize (seq 0 n) as l. induction l as [|a l IH]; simpl; [reflexivity|]. destruct (f (S a)); simpl; rewrite IH; reflexivity. Qed.
Lemma occ_cons x s c d : occurrences (x :: s) c d =
  (if Ascii.eqb x c && Bool.eqb (match s with y :: _ => is_dagger y | [] => false end) d then 1 else 0) + occurrences s c d.
Proof.
  unfold occurrences. cbn [length seq]. rewrite <- seq_shift. cbn [filter].
  assert (E : char_at (x :: s) 0 c = Ascii.eqb x c).
  { unfold char_at. cbn [nth_error]. destruct (ascii_dec x c) as [->|N]; [rewrite Ascii.eqb_refl; reflexivity|].
    symmetry. apply Ascii.eqb_neq. exact N. }
  assert (P : plus_at (x :: s) 1 = match s with y :: _ => is_dagger y | [] => false end).
  { unfold plus_at. cbn [nth_error]. destruct s as [|y s]; cbn [nth_error]; [reflexivity|]. unfold is_dagger.
    destruct (ascii_dec y "+"%char) as [->|N]; [reflexivity|]. apply Ascii.eqb_neq in N. rewrite N. simpl.
    destruct (ascii_dec y "^"%char) as [->|N']; [reflexivity|]. apply Ascii.eqb_neq in N'. rewrite N'. reflexivity. }
  rewrite E, P. destruct (_ && _); cbn [length]; rewrite filter_map_S; [|reflexivity].
  rewrite Nat2Z.inj_succ. unfold char_at, plus_at. cbn [nth_error]. lia.
Qed.
Lemma tokens_occ s c d : tokn (op_tokens s) c d = if is_letter c then occurrences s c d else 0.
Proof.
  induction s as [|x s IH]; [destruct (is_letter c); reflexivity|]. cbn [op_tokens].
  destruct (is_letter x) eqn:Lx.
  - rewrite tokn_cons, IH. cbn [fst snd]. destruct (is_letter c) eqn:Lc; [rewrite occ_cons; reflexivity|].
    destruct (Ascii.eqb x c) eqn:X; [|reflexivity]. apply Ascii.eqb_eq in X. congruence.
  - rewrite IH. destruct (is_letter c) eqn:Lc; [|reflexivity]. rewrite occ_cons.
    destruct (Ascii.eqb x c) eqn:X; [|reflexivity]. apply Ascii.eqb_eq in X. congruence.
Qed.
Lemma tokens_in s c d : In (c, d) (op_tokens s) -> is_letter c = true /\ In c s.
Proof.
  induction s as [|x s IH]; simpl; [tauto|]. destruct (is_letter x) eqn:L.
  - intros [[= <- _]|H]; [auto|]. apply IH in H. tauto.
  - intros H. apply IH in H. tauto.
Qed.
Lemma in_tokens s c : is_letter c = true -> In c s -> exists d, In (c, d) (op_tokens s).
Proof.
  intros L. induction s as [|x s IH]; simpl; [tauto|]. intros [<-|H].
  - rewrite L. eexists. left. reflexivity.
  - destruct (IH H) as [d Hd]. destruct (is_letter x); exists d; [right|]; exact Hd.
Qed.

Lemma incr_spec v s : 0 <= s < Z.of_nat (length v) -> exists v', incr v s = Ok v' /\ length v' = length v /\
  forall i, nth i v' 0 = nth i v 0 + (if (Z.of_nat i =? s) then 1 else 0).
Proof.
  intros Hs. rewrite <- (Z2Nat.id s) by lia. set (n := Z.to_nat s). assert (Hn : (n < length v)%nat) by (unfold n; lia).
  unfold incr. rewrite aget_nat. destruct (nth_error v n) as [x|] eqn:E; [|apply nth_error_None in E; lia].
  cbn [bind]. rewrite aset_nat. rewrite (proj2 (Nat.ltb_lt _ _) Hn). eexists; split; [reflexivity|]. split; [apply lset_length|].
  intros i. pose proof (lset_nth v n (x + 1) i Hn) as H.
  destruct (Z.eqb_spec (Z.of_nat i) (Z.of_nat n)) as [e|e].
  - apply Nat2Z.inj in e. subst i. rewrite Nat.eqb_refl in H. rewrite (nth_error_nth _ _ 0 H), (nth_error_nth _ _ 0 E). reflexivity.
  - rewrite (proj2 (Nat.eqb_neq i n)) in H by (intros ->; apply e; reflexivity). rewrite Z.add_0_r.
    destruct (nth_error v i) eqn:Ei.
    + rewrite (nth_error_nth _ _ 0 H), (nth_error_nth _ _ 0 Ei). reflexivity.
    + apply nth_error_None in Ei. apply nth_error_None in H. rewrite !nth_overflow by assumption. reflexivity.
Qed.

(** Every letter has a space and the counts are those of the labels. *)
Lemma count_tokens_gen st toks c a : reg_ok st -> length c = nsp st -> length a = nsp st ->
  (forall t, In t toks -> exists s, label_to_space st (fst t) = Ok s) ->
  exists c' a', foldM (fun ca t => bind (label_to_space st (fst t)) (fun s =>
      if (snd t : bool) then bind (incr (fst ca) s) (fun c' => Ok (c', snd ca)) else bind (incr (snd ca) s) (fun a' => Ok (fst ca, a')))) (c, a) toks = Ok (c', a') /\
    length c' = nsp st /\ length a' = nsp st /\
    forall i l, space_label st (Z.of_nat i) = Ok l -> nth i c' 0 = nth i c 0 + tokn toks l true /\ nth i a' 0 = nth i a 0 + tokn toks l false.
Proof.
  intros R. revert c a. induction toks as [|t toks IH]; intros c a Lc La H.
  - exists c, a. split; [reflexivity|]. split; [exact Lc|]. split; [exact La|]. intros i l _. rewrite !tokn_nil. lia.
  - destruct (H t (or_introl eq_refl)) as [s Es]. cbn [foldM]. rewrite Es. cbn [bind fst snd].
    destruct (reg_label_known st _ _ R Es) as [Ls Bs]. unfold num_spaces in Bs.
    assert (K : forall i l, space_label st (Z.of_nat i) = Ok l -> Ascii.eqb (fst t) l = (Z.of_nat i =? s)).
    { intros i l Hl. destruct (Z.eqb_spec (Z.of_nat i) s) as [e|e].
      - rewrite e in Hl. rewrite Ls in Hl. injection Hl as <-. apply Ascii.eqb_refl.
      - apply Ascii.eqb_neq. intros X. apply (reg_label_roundtrip st _ _ R) in Hl. rewrite <- X, Es in Hl. injection Hl as Hl. congruence. }
    destruct (snd t) eqn:St.
    + destruct (incr_spec c s) as (c1 & E1 & L1 & N1); [lia|]. rewrite E1. cbn [bind].
      destruct (IH c1 a) as (c' & a' & E & Lc' & La' & N); [lia|exact La|intros t' Ht'; apply H; right; exact Ht'|].
      exists c', a'. split; [exact E|]. split; [exact Lc'|]. split; [exact La'|]. intros i l Hl. destruct (N i l Hl) as [A B].
      rewrite A, B, !tokn_cons, N1, St, (K i l Hl). cbn [Bool.eqb]. rewrite andb_true_r, andb_false_r.
      split; [destruct (_ =? _)|]; lia.
    + destruct (incr_spec a s) as (c1 & E1 & L1 & N1); [lia|]. rewrite E1. cbn [bind].
      destruct (IH c c1) as (c' & a' & E & Lc' & La' & N); [exact Lc|lia|intros t' Ht'; apply H; right; exact Ht'|].
      exists c', a'. split; [exact E|]. split; [exact Lc'|]. split; [exact La'|]. intros i l Hl. destruct (N i l Hl) as [A B].
      rewrite A, B, !tokn_cons, N1, St, (K i l Hl). cbn [Bool.eqb]. rewrite andb_true_r, andb_false_r.
      split; [|destruct (_ =? _)]; lia.
Qed.
Lemma count_tokens_throw st toks c a : reg_ok st -> length c = nsp st -> length a = nsp st ->
  (exists t, In t toks /\ label_to_space st (fst t) = Throw) ->
  foldM (fun ca t => bind (label_to_space st (fst t)) (fun s =>
      if (snd t : bool) then bind (incr (fst ca) s) (fun c' => Ok (c', snd ca)) else bind (incr (snd ca) s) (fun a' => Ok (fst ca, a')))) (c, a) toks = Throw.
Proof.
  intros R. revert c a. induction toks as [|t toks IH]; intros c a Lc La (t0 & Ht & E0); [destruct Ht|].
  cbn [foldM]. destruct (label_to_space_res st (fst t)) as [[s Es]|Es]; rewrite Es; [|reflexivity]. cbn [bind fst snd].
  destruct Ht as [->|Ht]; [congruence|]. destruct (reg_label_known st _ _ R Es) as [_ Bs]. unfold num_spaces in Bs.
  destruct (snd t).
  - destruct (incr_spec c s) as (c1 & E1 & L1 & _); [lia|]. rewrite E1. cbn [bind]. apply IH; [lia|exact La|eauto].
  - destruct (incr_spec a s) as (c1 & E1 & L1 & _); [lia|]. rewrite E1. cbn [bind]. apply IH; [exact Lc|lia|eauto].
Qed.

Lemma known_dec st s : known_letters st s \/ exists c, In c s /\ letter c /\ label_to_space st c = Throw.
Proof.
  unfold known_letters. induction s as [|x s IH]; [left; intros c []|].
  destruct IH as [IH|(c & H & Lc & E)]; [|right; exists c; simpl; tauto].
  destruct (is_letter x) eqn:L.
  - destruct (label_to_space_res st x) as [E|E].
    + left. intros c [<-|H] Hl; auto.
    + right. exists x. split; [left; reflexivity|]. split; [apply is_letter_ok; exact L|exact E].
  - left. intros c [<-|H] Hl; auto. apply is_letter_ok in Hl. congruence.
Qed.

Lemma component_op_spec st label s : reg_ok st -> (nsp st <= max_spaces)%nat -> known_letters st s ->
  exists o, component_op st label s = Ok o /\ op_label o = label /\ gm_valid st (op_gm o) /\
    forall p l, space_label st p = Ok l -> letter l ->
      cre_of (op_gm o) p = occurrences s l true /\ ann_of (op_gm o) p = occurrences s l false.
Proof.
  intros R Hn Hk. unfold component_op, count_tokens. rewrite num_spaces_nat.
  destruct (count_tokens_gen st (op_tokens s) (repeat 0 (nsp st)) (repeat 0 (nsp st))) as (c & a & E & Lc & La & N);
    [exact R|apply repeat_length|apply repeat_length| |].
  - intros [c d] Ht. apply tokens_in in Ht as [Hl Hi]. apply Hk; [exact Hi|apply is_letter_ok; exact Hl].
  - rewrite E. cbn [bind]. destruct (gm_make_spec st c a Lc La Hn) as (g & Eg & Vg & Ng). rewrite Eg. cbn [bind].
    eexists; split; [reflexivity|]. split; [reflexivity|]. split; [exact Vg|]. cbn [op_gm]. intros p l Hl Hll.
    pose proof (reg_label_known st l p R (reg_label_roundtrip st p l R Hl)) as [_ Bp]. unfold num_spaces in Bp.
    remember (Z.to_nat p) as i eqn:Ei. assert (Ep : p = Z.of_nat i) by lia. subst p. clear Ei.
    rewrite cre_of_nat, ann_of_nat, (nthp_of _ _ _ (Ng i ltac:(lia))). cbn [fst snd]. destruct (N i l Hl) as [-> ->].
    rewrite !tokens_occ. apply is_letter_ok in Hll. rewrite Hll. rewrite nth_repeat. lia.
Qed.
Lemma component_op_throw st label s : reg_ok st -> (exists c, In c s /\ letter c /\ label_to_space st c = Throw) ->
  component_op st label s = Throw.
Proof.
  intros R (c & Hi & Hl & E). unfold component_op, count_tokens. rewrite num_spaces_nat.
  rewrite count_tokens_throw; [reflexivity|exact R|apply repeat_length|apply repeat_length|].
  apply is_letter_ok in Hl. destruct (in_tokens s c Hl Hi) as [d Hd]. exists (c, d). auto.
Qed.
Lemma component_op_ub st label s : reg_ok st -> (max_spaces < nsp st)%nat -> known_letters st s -> component_op st label s = UB.
Proof.
  intros R Hn Hk. unfold component_op, count_tokens. rewrite num_spaces_nat.
  destruct (count_tokens_gen st (op_tokens s) (repeat 0 (nsp st)) (repeat 0 (nsp st))) as (c & a & E & Lc & La & N);
    [exact R|apply repeat_length|apply repeat_length| |].
  - intros [c d] Ht. apply tokens_in in Ht as [Hl Hi]. apply Hk; [exact Hi|apply is_letter_ok; exact Hl].
  - rewrite E. cbn [bind]. rewrite gm_make_ub by assumption. reflexivity.
Qed.

(** ** [op] *)
Lemma comp_count_cons st label s comps o : comp_count st label (s :: comps) o =
  ((if match component_op st label s with Ok o' => oper_eqb o' o | _ => false end then 1 else 0) + comp_count st label comps o)%nat.
Proof. unfold comp_count. cbn [filter]. destruct (component_op st label s) as [o'| | |]; try reflexivity. destruct (oper_eqb o' o); reflexivity. Qed.

Lemma canonical_1 : canonical (rat_make 1 1).
Proof. vm_compute. split; [reflexivity|reflexivity]. Qed.

Lemma respects_eq {K} (eqb : K -> K -> bool) P g : (forall a b, eqb a b = true -> a = b) -> respects eqb P g.
Proof. intros H k k' _ _ E. apply H in E. subst. reflexivity. Qed.
Lemma oprod_eq a b : oprod_eqb a b = true -> a = b.
Proof. apply oprod_eqb_eq. Qed.
Lemma singleton_eqb o k : oprod_eqb [o] k = match k with [o'] => oper_eqb o o' | _ => false end.
Proof. unfold oprod_eqb. destruct k as [|o' [|]]; cbn [list_eqb]; rewrite ?andb_true_r, ?andb_false_r; reflexivity. Qed.

Lemma coef_madd k c (m : opexpr) k' : wf oprod_ltb m -> den c <> 0 ->
  (coef oprod_eqb (madd oprod_ltb k c m) k' == coef oprod_eqb m k' + Qval c * ind oprod_eqb k' k)%Q.
Proof.
  intros (S & C & N) D. unfold coef. apply (lsum_madd oprod_ltb oprod_eqb swo_oprod (fun _ => True)).
  - apply respects_eq. exact oprod_eq.
  - exact I.
  - apply keysP_True.
  - apply mcanon_good. exact C.
  - exact D.
Qed.

Lemma make_op_expr_dup st label comps e0 : (forall s, In s comps -> exists o, component_op st label s = Ok o) -> wf oprod_ltb e0 ->
  exists e, foldM (fun r s => bind (component_op st label s) (fun o =>
    if false && mcontains oprod_ltb [o] r then Ok r else Ok (madd oprod_ltb [o] (rat_make 1 1) r))) e0 comps = Ok e /\ wf oprod_ltb e /\
    forall k, (coef oprod_eqb e k == coef oprod_eqb e0 k +
      match k with [o] => inject_Z (Z.of_nat (comp_count st label comps o)) | _ => 0 end)%Q.
Proof.
  revert e0. induction comps as [|s comps IH]; intros e0 H W.
  - exists e0. split; [reflexivity|]. split; [exact W|]. intros k. destruct k as [|o [|]]; unfold comp_count; simpl; ring.
  - destruct (H s (or_introl eq_refl)) as [o Eo]. cbn [foldM]. rewrite Eo. cbn [bind andb].
    destruct (IH (madd oprod_ltb [o] (rat_make 1 1) e0)) as (e & E & We & N).
    + intros s' Hs'. apply H. right. exact Hs'.
    + apply (wf_madd _ _ swo_oprod); [exact canonical_1|exact W].
    + exists e. split; [exact E|]. split; [exact We|]. intros k. rewrite N, coef_madd; [|exact W|vm_compute; discriminate].
      replace (Qval (rat_make 1 1)) with (1#1)%Q by reflexivity. unfold ind. rewrite singleton_eqb.
      destruct k as [|o' [|? ?]]; try ring. rewrite comp_count_cons, Eo, Nat2Z.inj_add, inject_Z_plus. destruct (oper_eqb o o'); simpl; ring.
Qed.

Lemma mcontains_coef (e : opexpr) k : wf oprod_ltb e -> mcontains oprod_ltb k e = true <-> ~ (coef oprod_eqb e k == 0)%Q.
Proof.
  intros (S & C & N). unfold mcontains. pose proof (coef_find oprod_ltb oprod_eqb swo_oprod k e S) as F.
  destruct (mfind oprod_ltb k e) as [c|] eqn:E.
  - split; [intros _|reflexivity]. rewrite F. apply (find_forall oprod_ltb oprod_eqb swo_oprod (fun c => ~ (Qval c == 0)%Q) k e c); [exact N|exact E].
  - split; [discriminate|]. intros H. exfalso. apply H. exact F.
Qed.

Lemma make_op_expr_uniq st label comps e0 : (forall s, In s comps -> exists o, component_op st label s = Ok o) -> wf oprod_ltb e0 ->
  (forall k, coef oprod_eqb e0 k == 0 \/ coef oprod_eqb e0 k == 1)%Q ->
  exists e, foldM (fun r s => bind (component_op st label s) (fun o =>
    if true && mcontains oprod_ltb [o] r then Ok r else Ok (madd oprod_ltb [o] (rat_make 1 1) r))) e0 comps = Ok e /\ wf oprod_ltb e /\
    forall k, (coef oprod_eqb e k == 0 \/ coef oprod_eqb e k == 1)%Q /\
      ((coef oprod_eqb e k == 1)%Q <-> (coef oprod_eqb e0 k == 1)%Q \/ exists o s, k = [o] /\ In s comps /\ component_op st label s = Ok o).
Proof.
  revert e0. induction comps as [|s comps IH]; intros e0 H W B.
  - exists e0. split; [reflexivity|]. split; [exact W|]. intros k. split; [apply B|]. split; [tauto|]. intros [|(o & s & _ & [] & _)]; auto.
  - destruct (H s (or_introl eq_refl)) as [o Eo]. cbn [foldM]. rewrite Eo. cbn [bind andb].
    destruct (mcontains oprod_ltb [o] e0) eqn:M.
    + destruct (IH e0) as (e & E & We & N); [intros s' Hs'; apply H; right; exact Hs'|exact W|exact B|].
      exists e. split; [exact E|]. split; [exact We|]. intros k. destruct (N k) as [N1 N2]. split; [exact N1|]. rewrite N2. split.
      * intros [X|(o' & s' & -> & Hs & X)]; [left; exact X|right; exists o', s'; simpl; auto].
      * intros [X|(o' & s' & -> & [<-|Hs] & X)]; [left; exact X| |right; exists o', s'; auto].
        rewrite Eo in X. injection X as <-. left. apply mcontains_coef in M; [|exact W]. destruct (B [o]); [contradiction|assumption].
    + destruct (IH (madd oprod_ltb [o] (rat_make 1 1) e0)) as (e & E & We & N).
      * intros s' Hs'. apply H. right. exact Hs'.
      * apply (wf_madd _ _ swo_oprod); [exact canonical_1|exact W].
      * intros k. rewrite coef_madd; [|exact W|vm_compute; discriminate]. replace (Qval (rat_make 1 1)) with (1#1)%Q by reflexivity. unfold ind.
        destruct (oprod_eqb [o] k) eqn:Ek.
        -- apply oprod_eq in Ek. subst k. right.
           assert (Z : (coef oprod_eqb e0 [o] == 0)%Q).
           { destruct (B [o]) as [X|X]; [exact X|]. exfalso. assert (Y : mcontains oprod_ltb [o] e0 = true); [|congruence].
             apply mcontains_coef; [exact W|]. rewrite X. discriminate. }
           rewrite Z. reflexivity.
        -- destruct (B k) as [X|X]; rewrite X; [left|right]; reflexivity.
      * exists e. split; [exact E|]. split; [exact We|]. intros k. destruct (N k) as [N1 N2]. split; [exact N1|]. rewrite N2.
        rewrite coef_madd; [|exact W|vm_compute; discriminate]. replace (Qval (rat_make 1 1)) with (1#1)%Q by reflexivity. unfold ind.
        assert (Z : (coef oprod_eqb e0 [o] == 0)%Q).
        { destruct (B [o]) as [X|X]; [exact X|]. exfalso. assert (Y : mcontains oprod_ltb [o] e0 = true); [|congruence].
          apply mcontains_coef; [exact W|]. rewrite X. discriminate. }
        destruct (oprod_eqb [o] k) eqn:Ek.
        -- apply oprod_eq in Ek. subst k. split; intros _.
           ++ right. exists o, s. simpl. auto.
           ++ left. rewrite Z. reflexivity.
        -- split.
           ++ intros [X|(o' & s' & -> & Hs & X)]; [left|right; exists o', s'; simpl; auto].
              rewrite <- X. ring.
           ++ intros [X|(o' & s' & -> & [<-|Hs] & X)]; [left; rewrite X; reflexivity| |right; exists o', s'; auto].
              rewrite Eo in X. injection X as <-. rewrite (swo_eqrefl _ _ swo_oprod) in Ek. discriminate.
Qed.

Lemma make_op_expr_throw st label comps u e0 : (forall s, In s comps -> (exists o, component_op st label s = Ok o) \/ component_op st label s = Throw) ->
  (exists s, In s comps /\ component_op st label s = Throw) ->
  foldM (fun r s => bind (component_op st label s) (fun o =>
    if u && mcontains oprod_ltb [o] r then Ok r else Ok (madd oprod_ltb [o] (rat_make 1 1) r))) e0 comps = Throw.
Proof.
  revert e0. induction comps as [|s comps IH]; intros e0 H (s0 & Hs & E0); [destruct Hs|]. cbn [foldM].
  destruct (H s (or_introl eq_refl)) as [[o Eo]|Eo]; rewrite Eo; [|reflexivity]. cbn [bind].
  destruct Hs as [->|Hs]; [congruence|]. destruct (u && _); cbn [bind]; apply IH; eauto; intros s' Hs'; apply H; right; exact Hs'.
Qed.

Lemma lsum_nil_0 k : (coef oprod_eqb ([] : opexpr) k == 0)%Q. Proof. reflexivity. Qed.

Lemma op_spec st label comps : reg_ok st -> (nsp st <= max_spaces)%nat -> Forall (known_letters st) comps ->
  exists e, make_op_expr st label comps false = Ok e /\ wf oprod_ltb e /\
    (forall o, (coef oprod_eqb e [o] == inject_Z (Z.of_nat (comp_count st label comps o)))%Q) /\
    (forall k, length k <> 1%nat -> (coef oprod_eqb e k == 0)%Q).
Proof.
  intros R Hn F. destruct (make_op_expr_dup st label comps []) as (e & E & W & N).
  - intros s Hs. rewrite Forall_forall in F. destruct (component_op_spec st label s R Hn (F s Hs)) as (o & Eo & _). eauto.
  - apply wf_nil.
  - exists e. split; [exact E|]. split; [exact W|]. split.
    + intros o. rewrite N. rewrite lsum_nil_0. ring.
    + intros k Hk. rewrite N, lsum_nil_0. destruct k as [|? [|]]; simpl in Hk; try lia; reflexivity.
Qed.
Lemma op_spec_unique st label comps : reg_ok st -> (nsp st <= max_spaces)%nat -> Forall (known_letters st) comps ->
  exists e, make_op_expr st label comps true = Ok e /\ wf oprod_ltb e /\
    forall k, ((exists o s, k = [o] /\ In s comps /\ component_op st label s = Ok o) -> (coef oprod_eqb e k == 1)%Q) /\
              (~ (exists o s, k = [o] /\ In s comps /\ component_op st label s = Ok o) -> (coef oprod_eqb e k == 0)%Q).
Proof.
  intros R Hn F. destruct (make_op_expr_uniq st label comps []) as (e & E & W & N).
  - intros s Hs. rewrite Forall_forall in F. destruct (component_op_spec st label s R Hn (F s Hs)) as (o & Eo & _). eauto.
  - apply wf_nil.
  - intros k. left. reflexivity.
  - exists e. split; [exact E|]. split; [exact W|]. intros k. destruct (N k) as [A B]. rewrite lsum_nil_0 in B. split.
    + intros H. apply B. right. exact H.
    + intros H. destruct A as [A|A]; [exact A|]. apply B in A. destruct A as [A|A]; [discriminate A|contradiction].
Qed.
Lemma op_throws st label comps u : reg_ok st -> (nsp st <= max_spaces)%nat ->
  make_op_expr st label comps u = Throw <-> exists s c, In s comps /\ In c s /\ letter c /\ label_to_space st c = Throw.
Proof.
  intros R Hn. split.
  - intros H. destruct (Forall_Exists_dec (known_letters st)) with (l := comps) as [F|X].
    + intros s.
      assert (D : {forall t, In t (op_tokens s) -> exists p, label_to_space st (fst t) = Ok p} + {~ forall t, In t (op_tokens s) -> exists p, label_to_space st (fst t) = Ok p}).
      { generalize (op_tokens s) as l. induction l as [|t l IH]; [left; intros ? []|].
        destruct (label_to_space st (fst t)) as [p| | |] eqn:E.
        - destruct IH as [IH|IH]; [left; intros t' [<-|H']; eauto|right; intros H'; apply IH; intros t' Ht'; apply H'; right; exact Ht'].
        - right. intros H'. destruct (H' t (or_introl eq_refl)) as [p Hp]. congruence.
        - right. intros H'. destruct (H' t (or_introl eq_refl)) as [p Hp]. congruence.
        - right. intros H'. destruct (H' t (or_introl eq_refl)) as [p Hp]. congruence. }
      destruct D as [D|D].
      * left. intros c Hc Hl. apply is_letter_ok in Hl. destruct (in_tokens s c Hl Hc) as [d Hd]. apply (D _ Hd).
      * right. intros K. apply D. intros [c d] Ht. apply tokens_in in Ht as [Hl Hi]. apply K; [exact Hi|apply is_letter_ok; exact Hl].
    + exfalso. destruct u.
      * destruct (op_spec_unique st label comps R Hn F) as (e & E & _). congruence.
      * destruct (op_spec st label comps R Hn F) as (e & E & _). congruence.
    + apply Exists_exists in X as (s & Hs & K). destruct (known_dec st s) as [K'|(c & A & B & C)]; [contradiction|].
      exists s, c. auto.
  - intros (s & c & Hs & Hc & Hl & E). unfold make_op_expr. apply make_op_expr_throw.
    + intros s' _. destruct (known_dec st s') as [K|X]; [left|right; apply component_op_throw; assumption].
      destruct (component_op_spec st label s' R Hn K) as (o & Eo & _). eauto.
    + exists s. split; [exact Hs|]. apply component_op_throw; eauto.
Qed.
