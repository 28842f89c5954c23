(** [operator_expr]: distinct indices in the requested spaces. *)
From Coq Require Import ZArith QArith List Bool Ascii Lia Permutation.
From Verif Require Import Res PartitionsModel RegistryModel RegistryProofs CoreModel OrderProofs
  RationalModel RationalSpec RationalProofs AlgebraModel AlgebraSpec AlgebraProofs AlgebraProofs2
  OperatorModel OperatorSpec OperatorProofs OperatorProofs2 AdjointModel OperatorExprSpec.
Import ListNotations.
Local Open Scope Z_scope.

Lemma is_sep_ok c : is_sep c = true <-> separator c.
Proof.
  unfold is_sep, separator. rewrite !orb_true_iff, !Ascii.eqb_eq, andb_true_iff, !Z.leb_le. split; intros H; [destruct H as [[H|H]|H]; auto; right; right; lia|].
  destruct H as [H|[H|H]]; auto. right. lia.
Qed.
Lemma split_aux_word w s cur : Forall (fun c => ~ separator c) w -> split_aux (w ++ s) cur = split_aux s (rev w ++ cur).
Proof.
  intros F. revert cur. induction F as [|c w Hc F IH]; intros cur; [reflexivity|]. cbn [app split_aux].
  destruct (is_sep c) eqn:E; [apply is_sep_ok in E; contradiction|]. rewrite IH. simpl. rewrite <- app_assoc. reflexivity.
Qed.
Lemma skip_gap g s : Forall separator g -> skip_seps (g ++ s) = skip_seps s.
Proof. intros F. induction F as [|c g Hc F IH]; [reflexivity|]. cbn [app skip_seps]. apply is_sep_ok in Hc. rewrite Hc. exact IH. Qed.
Lemma joined_head ps s : joined ps s -> exists c s', s = c :: s' /\ is_sep c = false.
Proof.
  intros J. assert (W : exists w s', word w /\ s = w ++ s').
  { destruct J as [w H|w g H _|w g ps s H _ _]; [exists w, []; rewrite app_nil_r|exists w, g|exists w, (g ++ s)]; auto. }
  destruct W as (w & s' & [N F] & ->). destruct w as [|c w]; [congruence|]. exists c, (w ++ s'). split; [reflexivity|].
  inversion F as [|? ? H]; subst. destruct (is_sep c) eqn:E; [|reflexivity]. apply is_sep_ok in E. contradiction.
Qed.
Lemma skip_head c s : is_sep c = false -> skip_seps (c :: s) = split_aux (c :: s) [].
Proof. intros H. cbn [skip_seps split_aux]. rewrite H. reflexivity. Qed.
Lemma split_joined ps s : joined ps s -> split s = ps.
Proof.
  unfold split. induction 1 as [w [N F]|w g [N F] [Ng Fg]|w g ps s [N F] [Ng Fg] J IH].
  - rewrite <- (app_nil_r w) at 1. rewrite split_aux_word by exact F. rewrite app_nil_r. simpl. rewrite rev_involutive. reflexivity.
  - rewrite split_aux_word by exact F. rewrite app_nil_r. destruct g as [|c g]; [congruence|]. cbn [split_aux].
    pose proof (Forall_inv Fg) as Hc; pose proof (Forall_inv_tail Fg) as Fg'. apply is_sep_ok in Hc. rewrite Hc, rev_involutive.
    rewrite <- (app_nil_r g), skip_gap by exact Fg'. reflexivity.
  - rewrite split_aux_word by exact F. rewrite app_nil_r. destruct g as [|c g]; [congruence|]. cbn [app split_aux].
    pose proof (Forall_inv Fg) as Hc; pose proof (Forall_inv_tail Fg) as Fg'. apply is_sep_ok in Hc. rewrite Hc, rev_involutive. rewrite skip_gap by exact Fg'.
    destruct (joined_head ps s J) as (c0 & s0 & -> & E). rewrite skip_head by exact E. rewrite IH. reflexivity.
Qed.
Lemma joined_words ps s : joined ps s -> Forall word ps.
Proof. induction 1; constructor; auto. Qed.

(** ** Counting pieces *)
Lemma pieces_in_cons st w ps p : pieces_in st (w :: ps) p =
  (match w with c :: _ => match label_to_space st c with Ok q => if q =? p then 1 else 0 | _ => 0 end | [] => 0 end) + pieces_in st ps p.
Proof.
  unfold pieces_in. cbn [filter]. destruct w as [|c w]; [reflexivity|]. destruct (label_to_space st c); try reflexivity.
  destruct (_ =? _); [|reflexivity]. cbn [length]. lia.
Qed.
Lemma pieces_in_nonneg st ps p : 0 <= pieces_in st ps p. Proof. unfold pieces_in. lia. Qed.

Lemma count_pieces_gen st ps v : reg_ok st -> length v = nsp st -> known_heads st ps ->
  exists v', foldM (fun v s => bind (label_to_space st (head_char s)) (fun sp => incr v sp)) v ps = Ok v' /\ length v' = nsp st /\
    forall i, nth i v' 0 = nth i v 0 + pieces_in st ps (Z.of_nat i).
Proof.
  intros R. revert v. induction ps as [|w ps IH]; intros v L K.
  - exists v. split; [reflexivity|]. split; [exact L|]. intros i. unfold pieces_in. simpl. lia.
  - inversion K as [|? ? (c & w' & p & -> & E) K']; subst. cbn [foldM head_char]. rewrite E. cbn [bind].
    destruct (reg_label_known st _ _ R E) as [_ B]. unfold num_spaces in B.
    destruct (incr_spec v p) as (v1 & E1 & L1 & N1); [lia|]. rewrite E1. cbn [bind].
    destruct (IH v1) as (v' & E' & L' & N'); [lia|exact K'|]. exists v'. split; [exact E'|]. split; [exact L'|].
    intros i. rewrite N', N1, pieces_in_cons, E. rewrite (Z.eqb_sym p). lia.
Qed.

(** ** The loop *)
Record inv (st : osi) (tot : Z -> Z) (x : opex) (done rest : list text) : Prop := {
  iv_lc : length (x_cre_count x) = nsp st;
  iv_la : length (x_ann_count x) = nsp st;
  iv_gap : forall i, (i < nsp st)%nat -> 0 <= nth i (x_cre_count x) 0 /\ nth i (x_cre_count x) 0 + pieces_in st rest (Z.of_nat i) <= nth i (x_ann_count x) 0;
  iv_cre : forall j, In j (x_cre x) -> 0 <= isp j < num_spaces st /\ 0 <= ipos j < nth (Z.to_nat (isp j)) (x_cre_count x) 0;
  iv_ann : forall j, In j (x_ann x) -> 0 <= isp j < num_spaces st /\ nth (Z.to_nat (isp j)) (x_ann_count x) 0 <= ipos j < tot (isp j);
  iv_top : forall i, (i < nsp st)%nat -> nth i (x_ann_count x) 0 <= tot (Z.of_nat i);
  iv_ndc : NoDup (x_cre x);
  iv_nda : NoDup (x_ann x);
  iv_sc : in_spaces_of st (x_cre x) (cre_pieces done);
  iv_sa : in_spaces_of st (x_ann x) (ann_pieces done) }.

Lemma nodup_snoc {A} (l : list A) a : NoDup l -> ~ In a l -> NoDup (l ++ [a]).
Proof.
  intros N H. apply (Permutation_NoDup (l := a :: l)); [apply Permutation_cons_append|]. constructor; assumption.
Qed.

Lemma opex_step_inv st tot x done c w' p rest : reg_ok st -> label_to_space st c = Ok p -> inv st tot x done ((c :: w') :: rest) ->
  exists x', opex_step st x (c :: w') = Ok x' /\ inv st tot x' (done ++ [c :: w']) rest.
Proof.
  intros R E [Lc La G IC IA IT NC NA SC SA]. destruct (reg_label_known st _ _ R E) as [Lp B]. assert (B' := B). unfold num_spaces in B'.
  set (i := Z.to_nat p). assert (Ei : Z.of_nat i = p) by (unfold i; lia). assert (Hi : (i < nsp st)%nat) by (unfold i; lia).
  unfold opex_step. cbn [head_char]. rewrite E. cbn [bind]. rewrite <- Ei.
  destruct (G i Hi) as [G0 G1]. rewrite pieces_in_cons, E, Ei, Z.eqb_refl in G1. pose proof (pieces_in_nonneg st rest p).
  assert (GR : forall k, pieces_in st rest (Z.of_nat k) <= pieces_in st ((c :: w') :: rest) (Z.of_nat k)).
  { intros k. rewrite pieces_in_cons, E. destruct (p =? _); lia. }
  destruct (Nat.eqb_spec (length (c :: w')) 2) as [L2|L2].
  - rewrite aget_nat. rewrite (nth_error_nth' _ 0) by lia. cbn [bind]. rewrite aset_nat.
    rewrite (proj2 (Nat.ltb_lt _ _)) by (rewrite ?Lc, ?La; exact Hi). cbn [bind]. eexists; split; [reflexivity|].
    assert (NU : forall k, (k < nsp st)%nat -> nth k (lset (x_cre_count x) i (nth i (x_cre_count x) 0 + 1)) 0 = nth k (x_cre_count x) 0 + (if (k =? i)%nat then 1 else 0)).
    { intros k Hk. pose proof (lset_nth (x_cre_count x) i (nth i (x_cre_count x) 0 + 1) k ltac:(lia)) as Q.
      destruct (Nat.eqb_spec k i) as [->|Nk]; [rewrite (nth_error_nth _ _ 0 Q); reflexivity|].
      rewrite (nth_error_nth' (x_cre_count x) 0) in Q by lia. rewrite (nth_error_nth _ _ 0 Q). lia. }
    constructor; cbn [x_cre_count x_ann_count x_cre x_ann]; try assumption.
    + rewrite lset_length. exact Lc.
    + intros k Hk. rewrite NU by exact Hk. destruct (G k Hk) as [K0 K1]. specialize (GR k). destruct (Nat.eqb_spec k i) as [->|Nk]; [rewrite Ei; lia|].
      lia.
    + intros j Hj. apply in_app_or in Hj as [Hj|[<-|[]]].
      * destruct (IC j Hj) as [J0 J1]. split; [exact J0|]. unfold num_spaces in J0. rewrite NU by lia. destruct (_ =? _)%nat; lia.
      * cbn [isp ipos]. rewrite Ei. split; [exact B|]. fold i. rewrite NU by exact Hi. rewrite Nat.eqb_refl. lia.
    + apply nodup_snoc; [exact NC|]. intros Hj. destruct (IC _ Hj) as [_ J1]. cbn [isp ipos] in J1. rewrite ?Nat2Z.id, ?Ei in J1. fold i in J1. lia.
    + unfold in_spaces_of, cre_pieces in *. rewrite filter_app. apply Forall2_app; [exact SC|]. cbn [filter]. rewrite L2. cbn [Nat.eqb].
      constructor; [|constructor]. exists c, w'. split; [reflexivity|]. cbn [isp]. rewrite Ei. exact Lp.
    + unfold in_spaces_of, ann_pieces in *. rewrite filter_app. cbn [filter]. rewrite L2. cbn [Nat.eqb negb]. rewrite app_nil_r. exact SA.
  - rewrite aget_nat. rewrite (nth_error_nth' _ 0) by lia. cbn [bind]. rewrite aset_nat.
    rewrite (proj2 (Nat.ltb_lt _ _)) by (rewrite ?Lc, ?La; exact Hi). cbn [bind]. eexists; split; [reflexivity|].
    assert (NU : forall k, (k < nsp st)%nat -> nth k (lset (x_ann_count x) i (nth i (x_ann_count x) 0 - 1)) 0 = nth k (x_ann_count x) 0 - (if (k =? i)%nat then 1 else 0)).
    { intros k Hk. pose proof (lset_nth (x_ann_count x) i (nth i (x_ann_count x) 0 - 1) k ltac:(lia)) as Q.
      destruct (Nat.eqb_spec k i) as [->|Nk]; [rewrite (nth_error_nth _ _ 0 Q); reflexivity|].
      rewrite (nth_error_nth' (x_ann_count x) 0) in Q by lia. rewrite (nth_error_nth _ _ 0 Q). lia. }
    constructor; cbn [x_cre_count x_ann_count x_cre x_ann]; try assumption.
    + rewrite lset_length. exact La.
    + intros k Hk. rewrite NU by exact Hk. destruct (G k Hk) as [K0 K1]. split; [exact K0|]. specialize (GR k). destruct (Nat.eqb_spec k i) as [->|Nk]; [rewrite Ei; lia|].
      lia.
    + intros j Hj. apply in_app_or in Hj as [Hj|[<-|[]]].
      * destruct (IA j Hj) as [J0 J1]. split; [exact J0|]. unfold num_spaces in J0. rewrite NU by lia. destruct (_ =? _)%nat; lia.
      * cbn [isp ipos]. rewrite Ei. split; [exact B|]. fold i. rewrite NU by exact Hi. rewrite Nat.eqb_refl. specialize (IT i Hi). rewrite Ei in IT. lia.
    + intros k Hk. rewrite NU by exact Hk. specialize (IT k Hk). destruct (_ =? _)%nat; lia.
    + apply nodup_snoc; [exact NA|]. intros Hj. destruct (IA _ Hj) as [_ J1]. cbn [isp ipos] in J1. rewrite ?Nat2Z.id, ?Ei in J1. fold i in J1. lia.
    + unfold in_spaces_of, cre_pieces in *. rewrite filter_app. cbn [filter]. rewrite (proj2 (Nat.eqb_neq _ _) L2). rewrite app_nil_r. exact SC.
    + unfold in_spaces_of, ann_pieces in *. rewrite filter_app. apply Forall2_app; [exact SA|]. cbn [filter]. rewrite (proj2 (Nat.eqb_neq _ _) L2). cbn [negb].
      constructor; [|constructor]. exists c, w'. split; [reflexivity|]. cbn [isp]. rewrite Ei. exact Lp.
Qed.
Lemma opex_loop st tot ps x done : reg_ok st -> known_heads st ps -> inv st tot x done ps ->
  exists x', foldM (opex_step st) x ps = Ok x' /\ inv st tot x' (done ++ ps) [].
Proof.
  intros R. revert x done. induction ps as [|w ps IH]; intros x done K I.
  - exists x. rewrite app_nil_r. split; [reflexivity|exact I].
  - inversion K as [|? ? (c & w' & p & -> & E) K']; subst. cbn [foldM].
    destruct (opex_step_inv st tot x done c w' p ps R E I) as (x1 & E1 & I1). rewrite E1. cbn [bind].
    destruct (IH x1 _ K' I1) as (x' & E' & I'). exists x'. split; [exact E'|]. rewrite <- app_assoc in I'. exact I'.
Qed.

Lemma nth_repeat0 i n : nth i (repeat 0 n) 0 = 0.
Proof. revert i. induction n as [|n IH]; intros [|i]; simpl; auto. Qed.

Lemma component_term_spec st label s ps no sym : reg_ok st -> joined ps s -> known_heads st ps ->
  exists cre ann, component_term st label s no sym =
      Ok (mkTerm no (map (mkSQ true) cre ++ map (mkSQ false) ann) [mkT label cre (rev ann) sym false]) /\
    NoDup (cre ++ ann) /\ in_spaces_of st cre (cre_pieces ps) /\ in_spaces_of st ann (ann_pieces ps) /\
    (forall i, In i (cre ++ ann) -> 0 <= ipos i < pieces_in st ps (isp i)).
Proof.
  intros R J K. unfold component_term. rewrite (split_joined ps s J). cbv zeta. unfold count_pieces. rewrite num_spaces_nat.
  destruct (count_pieces_gen st ps (repeat 0 (nsp st)) R (repeat_length _ _) K) as (v & -> & Lv & Nv). cbn [bind].
  destruct (opex_loop st (pieces_in st ps) ps (mkX (repeat 0 (nsp st)) v [] []) [] R K) as (x & Ex & I).
  { constructor; cbn [x_cre_count x_ann_count x_cre x_ann]; [apply repeat_length|exact Lv| |intros j []|intros j []| |constructor|constructor|constructor|constructor].
    - intros i _. rewrite Nv, nth_repeat0. lia.
    - intros i _. rewrite Nv, nth_repeat0. lia. }
  rewrite Ex. cbn [bind]. exists (x_cre x), (x_ann x). destruct I as [Lc La G IC IA IT NC NA SC SA]. cbn [app] in SC, SA. split; [reflexivity|]. split; [|split; [exact SC|split; [exact SA|]]].
  - assert (D : forall j, In j (x_cre x) -> ~ In j (x_ann x)).
    { intros j H1 H2. destruct (IC j H1) as [B1 C1]. destruct (IA j H2) as [_ C2]. unfold num_spaces in B1.
      destruct (G (Z.to_nat (isp j))) as [_ C3]; [lia|]. pose proof (pieces_in_nonneg st [] (Z.of_nat (Z.to_nat (isp j)))). lia. }
    clear - NC NA D. induction NC as [|j l Hj NC IH]; [exact NA|]. simpl. constructor.
    + rewrite in_app_iff. intros [H|H]; [contradiction|]. apply (D j); [left; reflexivity|exact H].
    + apply IH. intros k Hk. apply D. right. exact Hk.
  - intros j Hj. apply in_app_or in Hj as [Hj|Hj].
    + destruct (IC j Hj) as [B1 C1]. unfold num_spaces in B1. destruct (G (Z.to_nat (isp j))) as [_ C3]; [lia|].
      specialize (IT (Z.to_nat (isp j)) ltac:(lia)). rewrite Z2Nat.id in IT by lia.
      pose proof (pieces_in_nonneg st [] (Z.of_nat (Z.to_nat (isp j)))). lia.
    + destruct (IA j Hj) as [B1 C1]. unfold num_spaces in B1. destruct (G (Z.to_nat (isp j))) as [C2 C3]; [lia|].
      pose proof (pieces_in_nonneg st [] (Z.of_nat (Z.to_nat (isp j)))). lia.
Qed.

(** ** The expression *)
Lemma operator_expr_gen st label comps no sym c e0 : (forall s, In s comps -> exists t, component_term st label s no sym = Ok t) -> wf term_ltb e0 ->
  exists e, foldM (fun r s => bind (component_term st label s no sym) (fun t => Ok (madd term_ltb t (rat_of_Z c) r))) e0 comps = Ok e /\ wf term_ltb e /\
    forall t, (coef term_eqb e t == coef term_eqb e0 t + inject_Z c * inject_Z (Z.of_nat (term_count st label comps no sym t)))%Q.
Proof.
  revert e0. induction comps as [|s comps IH]; intros e0 H W.
  - exists e0. split; [reflexivity|]. split; [exact W|]. intros t. unfold term_count. simpl. change (inject_Z 0) with 0%Q. ring.
  - destruct (H s (or_introl eq_refl)) as [t0 E0]. cbn [foldM]. rewrite E0. cbn [bind].
    destruct (IH (madd term_ltb t0 (rat_of_Z c) e0)) as (e & E & We & N).
    + intros s' Hs'. apply H. right. exact Hs'.
    + apply (wf_madd _ _ swo_term); [apply rat_of_Z_canonical|exact W].
    + exists e. split; [exact E|]. split; [exact We|]. intros t. rewrite N. unfold coef.
      rewrite (lsum_madd term_ltb term_eqb swo_term (fun _ => True)); [| |exact I|apply keysP_True|apply mcanon_good; apply W|simpl; discriminate].
      2: apply (ind_respects term_ltb term_eqb swo_term).
      rewrite rat_of_Z_val. unfold term_count at 2. cbn [filter]. rewrite E0. unfold ind.
      destruct (term_eqb t0 t); cbn [length]; rewrite ?Nat2Z.inj_succ, ?inject_Z_plus; unfold Z.succ; rewrite ?inject_Z_plus; fold (term_count st label comps no sym t); change (inject_Z 1) with 1%Q; ring.
Qed.
Lemma operator_expr_spec st label comps no sym c : (forall s, In s comps -> exists t, component_term st label s no sym = Ok t) ->
  exists e, operator_expr st label comps no sym c = Ok e /\ wf term_ltb e /\
    forall t, (coef term_eqb e t == inject_Z (Z.of_nat (term_count st label comps no sym t)))%Q.
Proof.
  intros H. destruct (operator_expr_gen st label comps no sym 1 [] H (wf_nil term_ltb)) as (e & E & W & N).
  exists e. split; [exact E|]. split; [exact W|]. intros t. rewrite N. unfold coef at 1. simpl. change (inject_Z 1) with 1%Q. ring.
Qed.
