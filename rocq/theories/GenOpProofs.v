(** Lemmas for gen_op (C58). *)
From Coq Require Import ZArith QArith List Bool Ascii Lia Sorted Permutation.
From Verif Require Import Res RegistryModel RegistryProofs CoreModel RationalModel OrderProofs AlgebraModel AlgebraSpec TextModel OperatorModel OperatorSpec OperatorProofs OperatorProofs2 WickSearchSpec WickCombProofs GenOpModel GenOpSpec.
Import ListNotations.
Local Open Scope Z_scope.

(** ** The dictionary of labels *)
Lemma dict_some c ls : forall k x, dict_get c (combine ls (map Z.of_nat (seq k (length ls)))) = Some x -> exists i, nth_error ls i = Some c /\ x = Z.of_nat (k + i).
Proof.
  induction ls as [|a ls IH]; intros k x; cbn [length seq map combine dict_get]; [discriminate|].
  destruct (dict_get c _) eqn:E.
  - intros [= <-]. destruct (IH _ _ E) as (i & Hi & ->). exists (S i). split; [exact Hi|]. f_equal. lia.
  - destruct (Ascii.eqb_spec a c) as [->|]; [|discriminate]. intros [= <-]. exists O. split; [reflexivity|]. f_equal. lia.
Qed.
Lemma dict_none c ls : forall k, dict_get c (combine ls (map Z.of_nat (seq k (length ls)))) = None -> ~ In c ls.
Proof.
  induction ls as [|a ls IH]; intros k; cbn [length seq map combine dict_get]; [intros _ []|].
  destruct (dict_get c _) eqn:E; [discriminate|]. destruct (Ascii.eqb_spec a c) as [->|N]; [discriminate|]. intros _ [H|H]; [auto|]. exact (IH _ E H).
Qed.
Lemma space_label_nth st i l : space_label st (Z.of_nat i) = Ok l <-> nth_error (map os_label (space_info st)) i = Some l.
Proof.
  unfold space_label, PartitionsModel.aget. destruct (Z.ltb_spec (Z.of_nat i) 0); [lia|]. rewrite Nat2Z.id, nth_error_map.
  destruct (nth_error (space_info st) i); cbn; split; congruence.
Qed.
Lemma label_pos_eq st c : reg_ok st -> label_pos st c = label_to_space st c.
Proof.
  intros R. unfold label_pos. unfold label_dict. rewrite <- (map_length os_label (space_info st)).
  destruct (dict_get c _) as [x|] eqn:E.
  - apply dict_some in E. destruct E as (i & Hi & ->). cbn [Nat.add]. apply space_label_nth in Hi. symmetry. apply reg_label_roundtrip; auto.
  - apply dict_none in E. destruct (label_to_space_res st c) as [(i & Hi)|H]; [|rewrite H; reflexivity].
    exfalso. apply E. destruct (reg_label_known st c i R Hi) as (H & B). rewrite <- (Z2Nat.id i) in H by lia. apply space_label_nth in H. eapply nth_error_In. exact H.
Qed.
Definition pos (st : osi) (c : ascii) : Z := match label_to_space st c with Ok p => p | _ => 0 end.
Definition known (st : osi) (c : ascii) : Prop := exists p, label_to_space st c = Ok p.
Lemma pos_inj st a b : reg_ok st -> known st a -> known st b -> pos st a = pos st b -> a = b.
Proof.
  intros R (p & Ha) (q & Hb). unfold pos. rewrite Ha, Hb. intros ->. destruct (reg_label_known _ _ _ R Ha) as (X & _). destruct (reg_label_known _ _ _ R Hb) as (Y & _). congruence.
Qed.

(** ** Sortedness *)
Definition rel (up : bool) (x y : Z) : Prop := if up then x <= y else y <= x.
Fixpoint mono (up : bool) (l : list Z) : bool :=
  match l with a :: ((b :: _) as l') => (if up then a <=? b else b <=? a) && mono up l' | _ => true end.
Lemma monotone_known st up l : reg_ok st -> Forall (known st) l -> monotone st up l = Ok (mono up (map (pos st) l)).
Proof.
  intros R H. induction H as [|a l (p & Ha) H IH]; [reflexivity|]. destruct H as [|b l (q & Hb) H]; [reflexivity|].
  change (mono up (map (pos st) (a :: b :: l))) with ((if up then pos st a <=? pos st b else pos st b <=? pos st a) && mono up (map (pos st) (b :: l))).
  assert (E : monotone st up (a :: b :: l) = bind (label_pos st a) (fun x => bind (label_pos st b) (fun y => if (if up then x <=? y else y <=? x) then monotone st up (b :: l) else Ok false))) by reflexivity.
  rewrite E, IH, !label_pos_eq, Ha, Hb by auto. cbn [bind]. unfold pos at 2 3 4 5. rewrite Ha, Hb. destruct up; [destruct (p <=? q)|destruct (q <=? p)]; reflexivity.
Qed.
Lemma rel_trans up : Relations_1.Transitive (rel up).
Proof. intros x y z. destruct up; unfold rel; lia. Qed.
Lemma mono_sorted up l : mono up l = true <-> StronglySorted (rel up) l.
Proof.
  split.
  - intros H. apply Sorted_StronglySorted; [exact (rel_trans up)|]. induction l as [|a l IH]; [constructor|]. destruct l as [|b l]; [repeat constructor|].
    cbn [mono] in H. apply andb_prop in H. destruct H as [H1 H2]. constructor; [apply IH; exact H2|]. constructor. destruct up; unfold rel; lia.
  - intros H. induction H as [|a l S IH F]; [reflexivity|]. destruct l as [|b l]; [reflexivity|]. change (mono up (a :: b :: l)) with ((if up then a <=? b else b <=? a) && mono up (b :: l)). rewrite IH, andb_true_r. inversion F; subst. unfold rel in *. destruct up; lia.
Qed.
Lemma sorted_unique up l l' : StronglySorted (rel up) l -> StronglySorted (rel up) l' -> Permutation l l' -> l = l'.
Proof.
  intros S. revert l'. induction S as [|a l S IH F]; intros l' S' P; [apply Permutation_nil in P; auto|].
  destruct S' as [|b l' S' F']; [apply Permutation_sym, Permutation_nil in P; discriminate|].
  assert (a = b) as ->.
  { assert (Ha : In a (b :: l')) by (eapply Permutation_in; [exact P|left; reflexivity]). assert (Hb : In b (a :: l)) by (eapply Permutation_in; [apply Permutation_sym, P|left; reflexivity]).
    destruct Ha as [|Ha]; [auto|]. destruct Hb as [|Hb]; [auto|]. rewrite Forall_forall in F, F'. apply F in Hb. apply F' in Ha. destruct up; unfold rel in *; lia. }
  f_equal. apply IH; auto. eapply Permutation_cons_inv, P.
Qed.
Lemma map_inj_on {A B} (f : A -> B) (P : A -> Prop) : (forall a b, P a -> P b -> f a = f b -> a = b) -> forall l l', Forall P l -> Forall P l' -> map f l = map f l' -> l = l'.
Proof. intros H. induction l as [|a l IH]; intros [|b l'] F F' E; try discriminate; [reflexivity|]. inversion F; inversion F'; subst. injection E as E1 E2. f_equal; auto. Qed.
Lemma sorted_labels_unique st up l l' : reg_ok st -> Forall (known st) l -> Forall (known st) l' ->
  mono up (map (pos st) l) = true -> mono up (map (pos st) l') = true -> (forall c, count_occ ascii_dec l c = count_occ ascii_dec l' c) -> l = l'.
Proof.
  intros R K K' M M' C. apply (map_inj_on (pos st) (known st)); auto; [intros a b; apply pos_inj; auto|]. apply mono_sorted in M. apply mono_sorted in M'.
  apply (sorted_unique up); auto. apply Permutation_map. apply (Permutation_count_occ ascii_dec). exact C.
Qed.

(** ** Products *)
Lemma in_products n l w : In w (products n l) <-> length w = n /\ Forall (fun c => In c l) w.
Proof.
  revert w. induction n as [|n IH]; intros w; cbn [products].
  - split; [intros [<-|[]]; split; constructor|]. intros [H _]. destruct w; [left; reflexivity|discriminate].
  - rewrite in_flat_map. split.
    + intros (c & Hc & H). apply in_map_iff in H. destruct H as (v & <- & Hv). apply IH in Hv. destruct Hv as [L F]. split; [cbn; lia|constructor; auto].
    + intros [L F]. destruct w as [|c w]; [discriminate|]. inversion F; subst. exists c. split; auto. apply in_map. apply IH. split; [cbn in L; lia|auto].
Qed.
Lemma NoDup_app {A} (l m : list A) : NoDup l -> NoDup m -> (forall x, In x l -> ~ In x m) -> NoDup (l ++ m).
Proof.
  intros N M D. induction N as [|a l H N IH]; [exact M|]. cbn. constructor.
  - rewrite in_app_iff. intros [X|X]; [auto|]. exact (D a (or_introl eq_refl) X).
  - apply IH. intros x Hx. apply D. right. exact Hx.
Qed.
Lemma NoDup_flat_cons (l : text) (X : list text) : NoDup l -> NoDup X -> NoDup (flat_map (fun c => map (cons c) X) l).
Proof.
  intros N NX. induction N as [|c l Hc N IH]; [constructor|]. cbn [flat_map]. apply NoDup_app; auto.
  - apply FinFun.Injective_map_NoDup; [|exact NX]. intros a b [= H]. exact H.
  - intros w Hw H. apply in_map_iff in Hw. destruct Hw as (v & <- & _). apply in_flat_map in H. destruct H as (d & Hd & H). apply in_map_iff in H. destruct H as (u & [= -> _] & _). auto.
Qed.
Lemma NoDup_products n l : NoDup l -> NoDup (products n l).
Proof. intros N. induction n as [|n IH]; cbn [products]; [repeat constructor; intros []|]. apply NoDup_flat_cons; auto. Qed.

(** ** The component strings *)
Definition good (st : osi) (diagonal : bool) (x : text * text) : bool :=
  mono true (map (pos st) (fst x)) && mono false (map (pos st) (snd x)) && (diagonal || negb (text_eqb (fst x) (snd x))).
Lemma fold_inner st le diagonal L : reg_ok st -> Forall (Forall (known st)) L -> forall terms,
  foldM (fun terms re => bind (monotone st false re) (fun re_sorted =>
        Ok (if (re_sorted : bool) && (diagonal || negb (text_eqb le re)) then terms ++ [component_text le re] else terms))) terms L
  = Ok (terms ++ map (component_text le) (filter (fun re => mono false (map (pos st) re) && (diagonal || negb (text_eqb le re))) L)).
Proof.
  intros R H. induction H as [|re L Hr H IH]; intros terms; cbn [foldM filter map]; [rewrite app_nil_r; reflexivity|].
  rewrite monotone_known by auto. cbn [bind]. rewrite IH. destruct (_ && _); cbn [map]; [rewrite <- app_assoc|]; reflexivity.
Qed.
Lemma gen_terms_eq st rank cre ann diagonal : reg_ok st -> Forall (known st) cre -> Forall (known st) ann ->
  gen_terms st rank cre ann diagonal = Ok (map (fun x => component_text (fst x) (snd x)) (filter (good st diagonal) (list_prod (products (Z.to_nat rank) cre) (products (Z.to_nat rank) ann)))).
Proof.
  intros R Kc Ka. unfold gen_terms.
  assert (Fp : forall l, Forall (known st) l -> Forall (Forall (known st)) (products (Z.to_nat rank) l)).
  { intros l K. apply Forall_forall. intros w Hw. apply in_products in Hw. destruct Hw as [_ F]. rewrite Forall_forall in *. auto. }
  assert (F1 := Fp _ Kc). assert (F2 := Fp _ Ka). generalize dependent (products (Z.to_nat rank) ann). intros LA F2. generalize dependent (products (Z.to_nat rank) cre). intros LC F1.
  enough (G : forall terms, foldM (fun terms le => bind (monotone st true le) (fun le_sorted => if (le_sorted : bool) then
      foldM (fun terms re => bind (monotone st false re) (fun re_sorted => Ok (if (re_sorted : bool) && (diagonal || negb (text_eqb le re)) then terms ++ [component_text le re] else terms))) terms LA
    else Ok terms)) terms LC = Ok (terms ++ map (fun x => component_text (fst x) (snd x)) (filter (good st diagonal) (list_prod LC LA)))) by (apply (G [])).
  induction F1 as [|le LC Hl F1 IH]; intros terms; cbn [foldM list_prod]; [rewrite app_nil_r; reflexivity|].
  rewrite monotone_known by auto. cbn [bind]. rewrite filter_app, map_app.
  match goal with |- context [map ?f (filter ?g (map ?h LA)) ++ _] => set (X := map f (filter g (map h LA))) end. assert (E : X =
    if mono true (map (pos st) le) then map (component_text le) (filter (fun re => mono false (map (pos st) re) && (diagonal || negb (text_eqb le re))) LA) else []).
  { subst X. clear. induction LA as [|re LA IH]; [destruct (mono true _); reflexivity|]. cbn [map filter]. unfold good at 1. cbn [fst snd]. destruct (mono true (map (pos st) le)); cbn [andb]; [|exact IH].
    destruct (mono false _ && _); cbn [map]; rewrite IH; reflexivity. }
  rewrite E. destruct (mono true (map (pos st) le)).
  - rewrite fold_inner by auto. cbn [bind]. rewrite IH, <- app_assoc. reflexivity.
  - cbn [bind]. rewrite IH. reflexivity.
Qed.

(** ** Their operators *)
Lemma tokens_app_space s t : op_tokens (s ++ " "%char :: t) = op_tokens s ++ op_tokens t.
Proof.
  induction s as [|c s IH]; [reflexivity|]. cbn [app op_tokens]. rewrite IH. destruct (is_letter c); [|reflexivity]. cbn [app]. do 2 f_equal. destruct s; reflexivity.
Qed.
Lemma tokens_join (f : ascii -> text) d : (forall c, is_letter c = true -> op_tokens (f c) = [(c, d)]) -> forall l, Forall (fun c => is_letter c = true) l -> op_tokens (join (map f l) [" "%char]) = map (fun c => (c, d)) l.
Proof.
  intros Hf l H. induction H as [|c l Hc H IH]; [reflexivity|]. destruct l as [|b l]; [cbn [map join]; apply Hf, Hc|].
  change (join (map f (c :: b :: l)) [" "%char]) with (f c ++ " "%char :: join (map f (b :: l)) [" "%char]). rewrite tokens_app_space, IH, Hf by auto. reflexivity.
Qed.
Lemma component_tokens le re : Forall (fun c => is_letter c = true) (le ++ re) -> op_tokens (component_text le re) = map (fun c => (c, true)) le ++ map (fun c => (c, false)) re.
Proof.
  intros H. apply Forall_app in H. destruct H as [H1 H2]. unfold component_text. cbn [app]. rewrite tokens_app_space. rewrite (tokens_join _ true), (tokens_join _ false); auto; intros c Hc; cbn [op_tokens]; rewrite Hc; reflexivity.
Qed.
Lemma tokn_app a b c d : tokn (a ++ b) c d = tokn a c d + tokn b c d.
Proof. unfold tokn. rewrite filter_app, app_length. lia. Qed.
Lemma tokn_map l d c d' : tokn (map (fun c => (c, d)) l) c d' = if Bool.eqb d d' then Z.of_nat (count_occ ascii_dec l c) else 0.
Proof.
  induction l as [|a l IH]; [destruct (Bool.eqb d d'); reflexivity|]. cbn [map]. rewrite tokn_cons, IH. cbn [fst snd count_occ]. destruct (Bool.eqb d d'); [|rewrite andb_false_r; reflexivity].
  destruct (Ascii.eqb_spec a c), (ascii_dec a c); try congruence; cbn [andb]; lia.
Qed.
Lemma component_ok st label le re : reg_ok st -> (nsp st <= max_spaces)%nat -> Forall (known st) (le ++ re) -> Forall (fun c => is_letter c = true) (le ++ re) ->
  exists o, component_op st label (component_text le re) = Ok o /\ op_label o = label /\ gm_valid st (op_gm o) /\
    forall p l, space_label st p = Ok l -> cre_of (op_gm o) p = Z.of_nat (count_occ ascii_dec le l) /\ ann_of (op_gm o) p = Z.of_nat (count_occ ascii_dec re l).
Proof.
  intros R Hn K L. assert (T := component_tokens le re L). unfold component_op, count_tokens. rewrite num_spaces_nat, T.
  destruct (count_tokens_gen st (map (fun c => (c, true)) le ++ map (fun c => (c, false)) re) (repeat 0 (nsp st)) (repeat 0 (nsp st))) as (c & a & E & Lc & La & N); auto; try apply repeat_length.
  - intros [c d] Ht. cbn [fst]. rewrite Forall_forall in K. apply K. apply in_app_iff in Ht. apply in_app_iff. destruct Ht as [Ht|Ht]; apply in_map_iff in Ht; destruct Ht as (x & [= -> _] & Hx); auto.
  - rewrite E. cbn [bind]. destruct (gm_make_spec st c a Lc La Hn) as (g & Eg & Vg & Ng). rewrite Eg. cbn [bind].
    eexists. split; [reflexivity|]. split; [reflexivity|]. split; [exact Vg|]. cbn [op_gm]. intros p l Hl.
    pose proof (reg_label_known st l p R (reg_label_roundtrip st p l R Hl)) as [_ Bp]. unfold num_spaces in Bp.
    remember (Z.to_nat p) as i eqn:Ei. assert (Ep : p = Z.of_nat i) by lia. subst p. clear Ei.
    rewrite cre_of_nat, ann_of_nat, (nthp_of _ _ _ (Ng i ltac:(lia))). cbn [fst snd]. destruct (N i l Hl) as [-> ->].
    rewrite !tokn_app, !tokn_map, nth_repeat. cbn [Bool.eqb]. lia.
Qed.
