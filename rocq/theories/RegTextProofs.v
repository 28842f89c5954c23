(** Proofs for C67: the Python interface and the text of the registry. *)
From Coq Require Import String.
From Coq Require Import ZArith List Bool Ascii Lia.
From Verif Require Import Res PartitionsModel RegistryModel RegistryProofs DecModel TextModel TextSpec TextProofs TextProofs4 ExprTextModel EquationModel EqTextProofs OpTextProofs PyEinsumModel PyEinsumProofs CanonProofs RegTextModel RegTextSpec.
Import ListNotations.
Local Open Scope Z_scope.

Lemma str_inj a b : str a = str b -> a = b.
Proof. unfold str. intros H. rewrite <- (string_of_list_ascii_of_string a), <- (string_of_list_ascii_of_string b), H. reflexivity. Qed.
Lemma str_list t : t = str (string_of_list_ascii t).
Proof. unfold str. rewrite list_ascii_of_string_of_list_ascii. reflexivity. Qed.
Lemma field_lookup s f : string_to_field_type (str s) = Ok f <-> names_field s f.
Proof.
  unfold string_to_field_type, lookup, field_names. cbn [find snd]. split.
  - destruct (text_eqb (str s) (str "fermion")) eqn:E1; [apply text_eqb_ok, str_inj in E1; subst s; cbn; intros [= <-]; constructor|].
    destruct (text_eqb (str s) (str "boson")) eqn:E2; [apply text_eqb_ok, str_inj in E2; subst s; cbn; intros [= <-]; constructor|]. discriminate.
  - intros [|]; reflexivity.
Qed.
Lemma space_lookup s f : string_to_space_type (str s) = Ok f <-> names_space s f.
Proof.
  unfold string_to_space_type, lookup, space_names. cbn [find snd]. split.
  - destruct (text_eqb (str s) (str "occupied")) eqn:E1; [apply text_eqb_ok, str_inj in E1; subst s; cbn; intros [= <-]; constructor|].
    destruct (text_eqb (str s) (str "unoccupied")) eqn:E2; [apply text_eqb_ok, str_inj in E2; subst s; cbn; intros [= <-]; constructor|].
    destruct (text_eqb (str s) (str "general")) eqn:E3; [apply text_eqb_ok, str_inj in E3; subst s; cbn; intros [= <-]; constructor|]. discriminate.
  - intros [| |]; reflexivity.
Qed.
Lemma lookup_res {A} s (l : list (A * text)) : (exists x, lookup s l = Ok x) \/ lookup s l = Throw.
Proof. unfold lookup. destruct (find _ l); [left; eexists; reflexivity|right; reflexivity]. Qed.
Lemma add_named st l fs ss f s names el : names_field fs f -> names_space ss s -> add_space_str st l (str fs) (str ss) names el = add_space st l f s names el.
Proof. intros Hf Hs. apply field_lookup in Hf. apply space_lookup in Hs. unfold add_space_str. rewrite Hf, Hs. reflexivity. Qed.
Lemma add_unnamed st l fs ss names el : (forall f s, names_field fs f -> names_space ss s -> False) -> add_space_str st l (str fs) (str ss) names el = (st, Throw).
Proof.
  intros H. unfold add_space_str. destruct (lookup_res (str fs) field_names) as [[f Hf]|E]; [|unfold string_to_field_type; rewrite E; reflexivity].
  assert (Nf := proj1 (field_lookup fs f) Hf). unfold string_to_field_type. rewrite Hf. destruct (lookup_res (str ss) space_names) as [[s Hs]|E]; [exfalso; eapply H; eauto; apply space_lookup; exact Hs|]. unfold string_to_space_type. rewrite E. reflexivity.
Qed.

(** ** The text *)
Lemma space_cut s s' r r' : Forall clean_name (os_indices s) -> Forall clean_name (os_indices s') -> space_str s ++ r = space_str s' ++ r' -> shown_space s = shown_space s' /\ r = r'.
Proof.
  intros C C' E. unfold space_str in E. rewrite <- !app_assoc in E. apply app_inv_head in E. cbn [app] in E. injection E as El E. destruct s as [l sp f n e], s' as [l' sp' f' n' e']. cbn [os_label os_field os_space os_indices] in *. subst l'. unfold shown_space. cbn [os_label os_field os_space os_indices].
  assert (F : f = f') by (destruct f, f'; auto; discriminate). subst f'. apply app_inv_head in E. cbn [app] in E. injection E as E. assert (P : sp = sp') by (destruct sp, sp'; auto; discriminate). subst sp'. apply app_inv_head in E. cbn [app] in E. injection E as E.
  assert (J : forall n, Forall clean_name n -> all_of (not_c "]") (join n (str ","))).
  { clear. intros n H. induction H as [|x n (_ & _ & Hx) Hn IH]; [constructor|]. destruct n as [|y n]; [apply not_in, Hx|]. change (join (x :: y :: n) (str ",")) with (x ++ str "," ++ join (y :: n) (str ",")). unfold all_of. rewrite !Forall_app. repeat split; [apply not_in, Hx|repeat constructor|exact IH]. }
  apply (cutS (not_c "]")) in E; auto; try reflexivity. destruct E as (E & Er). injection Er as ->. split; [|reflexivity]. f_equal.
  assert (Q : forall n, Forall clean_name n -> n <> [] -> pieces (join n [","%char]) [] = n).
  { clear. intros n H _. apply pieces_join. eapply Forall_impl; [|exact H]. intros x (Hx & Hc & _). split; [exact Hx|]. apply Forall_forall. intros c Hin. destruct (Ascii.eqb_spec c ","); [subst; contradiction|reflexivity]. }
  assert (NE : forall n, Forall clean_name n -> n <> [] -> join n [","%char] <> []).
  { clear. intros [|x n] H Hn; [congruence|]. inversion H as [|? ? (Hx & _) _]; subst. destruct n; [exact Hx|]. destruct x; [congruence|discriminate]. }
  change (str ",") with [","%char] in E. destruct n as [|x n], n' as [|x' n']; auto.
  - exfalso. eapply NE; [exact C'|discriminate|]. symmetry. exact E.
  - exfalso. eapply NE; [exact C|discriminate|]. exact E.
  - rewrite <- (Q _ C), <- (Q _ C'), E by discriminate. reflexivity.
Qed.
Lemma spaces_inj l : (forall s, In s l -> Forall clean_name (os_indices s)) -> forall l', (forall s, In s l' -> Forall clean_name (os_indices s)) ->
  join (map space_str l) [newline; newline] = join (map space_str l') [newline; newline] -> map shown_space l = map shown_space l'.
Proof.
  assert (NE : forall s r, space_str s ++ r <> []) by (intros s r; discriminate).
  induction l as [|s l IH]; intros C [|s' l'] C' E; auto.
  - exfalso. cbn [map join] in E. destruct (map space_str l'); [rewrite <- (app_nil_r (space_str s')) in E|]; symmetry in E; eapply NE; exact E.
  - exfalso. cbn [map join] in E. destruct (map space_str l); [rewrite <- (app_nil_r (space_str s)) in E|]; eapply NE; exact E.
  - assert (J : forall x m, join (map space_str (x :: m)) [newline; newline] = space_str x ++ match m with [] => [] | _ => [newline; newline] ++ join (map space_str m) [newline; newline] end) by (intros x [|y m]; [cbn [map join]; rewrite app_nil_r|]; reflexivity).
    rewrite !J in E. apply space_cut in E; [|apply C; left; auto|apply C'; left; auto]. destruct E as (E1 & E2). cbn [map]. rewrite E1. f_equal.
    destruct l as [|y l], l' as [|y' l']; auto; try discriminate. apply IH; [intros; apply C; right; auto|intros; apply C'; right; auto|]. apply app_inv_head in E2. exact E2.
Qed.

(** ** to_dict *)
Lemma dict_back st c names : nget c (to_dict st) = Some names -> exists sp, space_label st sp = Ok c /\ space_indices st sp = Ok names.
Proof.
  unfold to_dict. assert (X : forall l d, nget c (fold_left (fun d s => nput (os_label s) (os_indices s) d) l d) = Some names -> (exists s, In s l /\ os_label s = c /\ os_indices s = names) \/ nget c d = Some names).
  { induction l as [|s l IH]; intros d H; [right; exact H|]. cbn [fold_left] in H. apply IH in H. destruct H as [(x & Hx & E)|H]; [left; exists x; split; [right; exact Hx|exact E]|]. rewrite nget_nput in H. destruct (Ascii.eqb_spec c (os_label s)); [|right; exact H]. left. exists s. split; [left; reflexivity|]. split; congruence. }
  intros H. apply X in H. destruct H as [(s & Hs & El & En)|H]; [|discriminate]. apply In_nth_error in Hs. destruct Hs as [n Hn]. exists (Z.of_nat n). unfold space_label, space_indices, aget. destruct (Z.ltb_spec (Z.of_nat n) 0); [lia|]. rewrite Nat2Z.id, Hn. cbn. split; congruence.
Qed.
Lemma dict_ok st c names : reachable st -> nget c (to_dict st) = Some names <-> exists sp, space_label st sp = Ok c /\ space_indices st sp = Ok names.
Proof. intros R. split; [apply dict_back|]. intros (sp & A & B). eapply to_dict_get; eauto. Qed.

(** ** Replaying *)
Lemma accepted_snoc st l st1 c st2 : accepted st l st1 -> reg_step st1 c = (st2, Ok tt) -> accepted st (l ++ [c]) st2.
Proof. induction 1 as [|st c' st1' l st2' E _ IH]; intros H; cbn [app]; (econstructor; [eassumption|]); [constructor|auto]. Qed.
Lemma label_grows st st' s z l : space_info st' = space_info st ++ [s] -> space_label st z = Ok l -> space_label st' z = Ok l.
Proof.
  intros E H. unfold space_label, aget in *. rewrite E. destruct (z <? 0); [discriminate|]. destruct (nth_error (space_info st) (Z.to_nat z)) eqn:N; [|discriminate]. rewrite nth_error_app1 by (apply nth_error_Some; congruence). rewrite N. exact H.
Qed.
Lemma Forall2_mono {A B} (P Q : A -> B -> Prop) l m : (forall a b, P a b -> Q a b) -> Forall2 P l m -> Forall2 Q l m.
Proof. intros H. induction 1; constructor; auto. Qed.
Lemma replay st : reachable st -> exists l, accepted reset_space l st /\ Forall2 (registers st) (space_info st) l.
Proof.
  induction 1 as [|st c st' R (l & A & F) E]; [exists []; split; constructor|]. destruct c as [|lb ft sp names el]; [cbn in E; injection E as <-; exists []; split; constructor|].
  exists (l ++ [CAdd lb ft sp names el]). split; [eapply accepted_snoc; eauto|]. assert (R' : reachable st') by (econstructor; eauto). cbn [reg_step] in E. unfold add_space in E.
  destruct (afind Ascii.eqb lb (label_to_pos st)); [discriminate|]. destruct (register_indices (num_spaces st) names (indices_to_pos st)) as [i2p dn]. destruct dn; cbn [negb] in E; [|discriminate].
  set (st1 := mkOSI (space_info st) (aput Ascii.eqb lb (num_spaces st) (label_to_pos st)) i2p) in E. destruct (mapM (label_to_space st1) el) as [es| | |] eqn:M; try discriminate. injection E as E. assert (Ei : space_info st' = space_info st ++ [mkOS lb sp ft names es]) by (rewrite <- E; reflexivity).
  rewrite Ei. apply Forall2_app.
  - apply (Forall2_mono (registers st)); [|exact F]. intros s c (e & Ec & Fe). exists e. split; [exact Ec|]. apply (Forall2_mono (fun l z => space_label st z = Ok l)); [|exact Fe]. intros x z. apply (label_grows _ _ _ _ _ Ei).
  - constructor; [|constructor]. exists el. split; [reflexivity|]. cbn [os_elementary]. apply mapM_Ok in M. clear - M E R'. apply (Forall2_mono (fun x z => label_to_space st1 x = Ok z)); [|exact M]. intros x z Hx. apply (reg_label_known st' x z (reachable_ok st' R')). rewrite <- E. exact Hx.
Qed.
Lemma registers_det st st' s a b : space_info st = space_info st' -> registers st s a -> registers st' s b -> a = b.
Proof.
  intros E (el & -> & F) (el' & -> & F'). f_equal. revert el' F'. induction F as [|x z el es Hx F IH]; intros el' F'; inversion F'; subst; [reflexivity|]. f_equal; [|apply IH; assumption]. unfold space_label in *. rewrite E in Hx. congruence.
Qed.
Lemma accepted_det st l a b : accepted st l a -> accepted st l b -> a = b.
Proof. induction 1 as [|st c st1 l st2 E _ IH]; intros H; inversion H; subst; [reflexivity|]. apply IH. congruence. Qed.
Lemma content_determines st st' : reachable st -> reachable st' -> space_info st = space_info st' -> st = st'.
Proof.
  intros R R' E. destruct (replay st R) as (l & A & F), (replay st' R') as (l' & A' & F'). assert (l = l'); [|subst l'; eapply accepted_det; eauto].
  rewrite E in F. assert (D := fun s a b => registers_det st st' s a b E). clear - F F' D. revert l' F'. induction F as [|s c ss l Hc F IH]; intros l' F'; inversion F'; subst; [reflexivity|]. f_equal; [eapply D; eauto|apply IH; assumption].
Qed.
Lemma one_call c : snd (reg_step reset_space c) = Ok tt -> reachable (fst (reg_step reset_space c)).
Proof. intros H. apply (RS reset_space c); [constructor|]. rewrite <- H. apply surjective_pairing. Qed.
