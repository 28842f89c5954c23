From Coq Require Import ZArith List Bool Ascii Lia Arith Sorting.Permutation Sorting.Sorted.
From Verif Require Import Res PartitionsModel RegistryModel RegistryProofs CoreModel OrderProofs RationalModel AlgebraModel OperatorProofs TextModel TextSpec TextProofs2 TextProofs4 EquationModel EquationSpec EquationProofs.
Import ListNotations.
Local Open Scope Z_scope.

(** ** Counting *)
Lemma iter_r {A} (f : A -> A) n x : Nat.iter n f (f x) = Nat.iter (S n) f x.
Proof. induction n as [|n IH]; [reflexivity|]. change (f (Nat.iter n f (f x)) = f (Nat.iter (S n) f x)). rewrite IH. reflexivity. Qed.
Lemma tally {A} (up : A -> A) (l : list index) : forall r, (forall i, In i l -> 0 <= isp i < Z.of_nat (length r)) ->
  exists r', foldM (fun r i => bind (aget r (isp i)) (fun v => aset r (isp i) (up v))) r l = Ok r' /\ length r' = length r /\
    forall k, nth_error r' k = option_map (Nat.iter (in_space l (Z.of_nat k)) up) (nth_error r k).
Proof.
  induction l as [|i l IH]; intros r H.
  - exists r. split; [reflexivity|]. split; [reflexivity|]. intros k. cbn. destruct (nth_error r k); reflexivity.
  - cbn [foldM]. assert (Hi : 0 <= isp i < Z.of_nat (length r)) by (apply H; left; auto). assert (Ei : isp i = Z.of_nat (Z.to_nat (isp i))) by lia. set (n := Z.to_nat (isp i)) in *. rewrite Ei, aget_nat.
    destruct (nth_error r n) as [v|] eqn:Ev; [|apply nth_error_None in Ev; lia]. cbn [bind]. rewrite aset_nat. destruct (Nat.ltb_spec n (length r)); [|lia]. cbn [bind].
    destruct (IH (lset r n (up v))) as (r' & E & L & N). { intros j Hj. rewrite lset_length. apply H. right. auto. }
    exists r'. split; [exact E|]. split; [rewrite L; apply lset_length|]. intros k. rewrite N, lset_nth by lia. unfold in_space. cbn [filter]. rewrite Ei. destruct (Nat.eqb_spec k n) as [->|Nk].
    + rewrite Z.eqb_refl. cbn [length]. rewrite Ev. cbn [option_map]. f_equal. apply iter_r.
    + destruct (Z.eqb_spec (Z.of_nat n) (Z.of_nat k)); [lia|]. reflexivity.
Qed.
Lemma iter_fst n u l : Nat.iter n (fun v : Z * Z => (fst v + 1, snd v)) (u, l) = (u + Z.of_nat n, l).
Proof. induction n as [|n IH]; [cbn; f_equal; lia|]. change (Nat.iter (S n) ?f ?x) with (f (Nat.iter n f x)). rewrite IH. cbn [fst snd]. f_equal. lia. Qed.
Lemma iter_snd n u l : Nat.iter n (fun v : Z * Z => (fst v, snd v + 1)) (u, l) = (u, l + Z.of_nat n).
Proof. induction n as [|n IH]; [cbn; f_equal; lia|]. change (Nat.iter (S n) ?f ?x) with (f (Nat.iter n f x)). rewrite IH. cbn [fst snd]. f_equal. lia. Qed.
Definition regd (st : osi) (l : list index) : Prop := forall i, In i l -> 0 <= isp i < num_spaces st.
Definition sig_of (st : osi) (u l : list index) : list (Z * Z) := map (fun k => (Z.of_nat (in_space u (Z.of_nat k)), Z.of_nat (in_space l (Z.of_nat k)))) (seq 0 (length (space_info st))).
Lemma signature_ok st t : regd st (t_upper t) -> regd st (t_lower t) -> signature st t = Ok (sig_of st (t_upper t) (t_lower t)).
Proof.
  intros U L. unfold signature. destruct (tally (fun v : Z * Z => (fst v + 1, snd v)) (t_upper t) (repeat (0, 0) (length (space_info st)))) as (r & E & Lr & N); [intros i Hi; rewrite repeat_length; apply U, Hi|].
  rewrite E. cbn [bind]. rewrite repeat_length in Lr. destruct (tally (fun v : Z * Z => (fst v, snd v + 1)) (t_lower t) r) as (r' & E' & Lr' & N'); [intros i Hi; rewrite Lr; apply L, Hi|].
  rewrite E'. f_equal. apply list_nth_ext. intros k. rewrite N', N. unfold sig_of. destruct (Nat.lt_ge_cases k (length (space_info st))) as [Hk|Hk].
  - rewrite (nth_error_nth' (repeat (0, 0) _) (0, 0)) by (rewrite repeat_length; exact Hk). rewrite nth_repeat. cbn [option_map]. rewrite iter_fst, iter_snd. rewrite nth_error_map. rewrite (nth_error_nth' (seq _ _) 0%nat) by (rewrite seq_length; exact Hk). rewrite seq_nth by exact Hk. cbn [option_map]. repeat f_equal; lia.
  - rewrite (proj2 (nth_error_None (repeat (0, 0) _) k)) by (rewrite repeat_length; exact Hk). cbn [option_map]. symmetry. apply nth_error_None. rewrite map_length, seq_length. exact Hk.
Qed.
Lemma texts_ok st : forall infos pos (f g : nat -> nat), (forall k, nth_error infos k = nth_error (space_info st) (pos + k)) ->
  signature_texts st (Z.of_nat pos) (map (fun k => (Z.of_nat (f k), Z.of_nat (g k))) (seq pos (length infos))) =
  Ok (flat_map (fun p => repeat (os_label (fst p)) (f (snd p))) (combine infos (seq pos (length infos))), flat_map (fun p => repeat (os_label (fst p)) (g (snd p))) (combine infos (seq pos (length infos)))).
Proof.
  induction infos as [|s infos IH]; intros pos f g H; [reflexivity|]. cbn [length seq map signature_texts combine flat_map fst snd]. unfold space_label. rewrite aget_nat. rewrite <- (Nat.add_0_r pos) at 1. rewrite <- H. cbn [nth_error bind].
  replace (Z.of_nat pos + 1) with (Z.of_nat (S pos)) by lia. rewrite IH; [|intros k; rewrite <- (Nat.add_succ_r pos k : (pos + S k)%nat = S pos + k)%nat; apply (H (S k))]. cbn [bind]. rewrite !Nat2Z.id. reflexivity.
Qed.
Lemma split_ops_ok ops : forall lo up, split_ops ops lo up = (lo ++ creators ops, rev (annihilators ops) ++ up).
Proof.
  unfold creators, annihilators. induction ops as [|o ops IH]; intros lo up; cbn [split_ops filter map rev app]; [rewrite app_nil_r; reflexivity|]. destruct (s_cre o); cbn [negb map rev]; rewrite IH; f_equal; rewrite <- app_assoc; reflexivity.
Qed.
Lemma in_space_rev l k : in_space (rev l) k = in_space l k.
Proof. unfold in_space. induction l as [|i l IH]; [reflexivity|]. cbn [rev]. rewrite filter_app, app_length, IH. cbn [filter]. destruct (isp i =? k); cbn [length]; lia. Qed.
Lemma labels_of_eq st l : labels_of st l = flat_map (fun p => repeat (os_label (fst p)) (in_space l (Z.of_nat (snd p)))) (combine (space_info st) (seq 0 (length (space_info st)))).
Proof.
  unfold labels_of. generalize (seq 0 (length (space_info st))). induction (space_info st) as [|s infos IH]; intros ks; [reflexivity|]. destruct ks as [|k ks]; [reflexivity|]. cbn [map combine flat_map fst snd]. rewrite IH. reflexivity.
Qed.
Lemma term_ok st label x : (forall o, In o (tm_ops (fst x)) -> 0 <= isp (s_idx o) < num_spaces st) -> manybody_term st label x = Ok (key_of st x, equation_of label x).
Proof.
  intros H. unfold manybody_term. rewrite split_ops_ok, app_nil_r. cbn [app].
  assert (C : regd st (creators (tm_ops (fst x)))) by (intros i Hi; apply in_map_iff in Hi; destruct Hi as (o & <- & Ho); apply filter_In in Ho; apply H; tauto).
  assert (A : regd st (rev (annihilators (tm_ops (fst x))))) by (intros i Hi; apply in_rev in Hi; apply in_map_iff in Hi; destruct Hi as (o & <- & Ho); apply filter_In in Ho; apply H; tauto).
  rewrite signature_ok by (cbn [t_upper t_lower]; auto). cbn [bind t_upper t_lower]. unfold sig_of. change 0 with (Z.of_nat 0) at 1.
  rewrite (texts_ok st (space_info st) 0 (fun k => in_space (rev (annihilators (tm_ops (fst x)))) (Z.of_nat k)) (fun k => in_space (creators (tm_ops (fst x))) (Z.of_nat k))) by reflexivity.
  cbn [bind]. unfold key_of. rewrite !labels_of_eq. f_equal. f_equal. f_equal. apply flat_map_ext. intros [s k]. cbn [fst snd]. rewrite in_space_rev. reflexivity.
Qed.

(** ** The map of equations *)
Fixpoint mget {V} (k : text) (m : list (text * list V)) : list V := match m with [] => [] | (k', l) :: m' => if text_eqb k k' then l else mget k m' end.
Definition kasc {V} (m : list (text * list V)) : Prop := StronglySorted (fun a b => text_ltb a b = true) (map fst m).
Lemma tltb_irrefl a : text_ltb a a = false.
Proof. apply (swo_irrefl _ _ swo_text). Qed.
Lemma tltb_total a b : text_ltb a b = false -> text_ltb b a = false -> a = b.
Proof. intros H H'. apply teqb. apply (swo_eq _ _ swo_text). auto. Qed.
Lemma tltb_trans a b c : text_ltb a b = true -> text_ltb b c = true -> text_ltb a c = true.
Proof. apply (swo_trans _ _ swo_text). Qed.
Lemma mpush_keys {V} k (v : V) m : forall x, In x (map fst (mpush k v m)) <-> x = k \/ In x (map fst m).
Proof.
  induction m as [|[k' l] m IH]; intros x; cbn [mpush map fst In]; [intuition|]. destruct (text_ltb k' k) eqn:E; [cbn [map fst In]; rewrite IH; intuition|]. destruct (text_ltb k k') eqn:E'; cbn [map fst In]; [intuition|]. assert (k = k') by (apply tltb_total; auto). subst. intuition.
Qed.
Lemma mpush_asc {V} k (v : V) m : kasc m -> kasc (mpush k v m).
Proof.
  unfold kasc. induction m as [|[k' l] m IH]; intros H; cbn [mpush]; [repeat constructor|]. cbn [map fst] in H. inversion H as [|? ? S F]; subst. destruct (text_ltb k' k) eqn:E.
  - cbn [map fst]. constructor; [auto|]. apply Forall_forall. intros x Hx. apply mpush_keys in Hx. rewrite Forall_forall in F. destruct Hx as [->|Hx]; auto.
  - destruct (text_ltb k k') eqn:E'; cbn [map fst]; constructor; auto. constructor; [auto|]. rewrite Forall_forall in *. intros x Hx. eapply tltb_trans; eauto.
Qed.
Lemma mget_notin {V} k (m : list (text * list V)) : ~ In k (map fst m) -> mget k m = [].
Proof. induction m as [|[k' l] m IH]; cbn [mget map fst In]; [auto|]. intros H. destruct (text_eqb k k') eqn:E; [apply teqb in E; subst; tauto|apply IH; tauto]. Qed.
Lemma mget_push {V} k (v : V) m k' : kasc m -> mget k' (mpush k v m) = if text_eqb k' k then mget k' m ++ [v] else mget k' m.
Proof.
  unfold kasc. induction m as [|[a l] m IH]; intros H; cbn [mpush mget]; [destruct (text_eqb k' k); reflexivity|]. cbn [map fst] in H. inversion H as [|? ? S F]; subst. destruct (text_ltb a k) eqn:E; cbn [mget].
  - destruct (text_eqb k' a) eqn:Ea; [|auto]. apply teqb in Ea. subst. destruct (text_eqb a k) eqn:Ek; [apply teqb in Ek; subst; rewrite tltb_irrefl in E; discriminate|reflexivity].
  - destruct (text_ltb k a) eqn:E'; cbn [mget].
    + destruct (text_eqb k' k) eqn:Ek; [|reflexivity]. apply teqb in Ek. subst. destruct (text_eqb k a) eqn:Ea; [apply teqb in Ea; subst; rewrite tltb_irrefl in E'; discriminate|]. rewrite mget_notin; [reflexivity|]. intros X. rewrite Forall_forall in F. apply F in X. assert (Y := tltb_trans _ _ _ E' X). rewrite tltb_irrefl in Y. discriminate.
    + assert (k = a) by (apply tltb_total; auto). subst. destruct (text_eqb k' a); reflexivity.
Qed.
Lemma mpush_perm {V} k (v : V) m : Permutation (concat (map snd (mpush k v m))) (v :: concat (map snd m)).
Proof.
  induction m as [|[k' l] m IH]; cbn [mpush map snd concat app]; [reflexivity|]. destruct (text_ltb k' k); [cbn [map snd concat]; rewrite IH; symmetry; apply Permutation_middle|]. destruct (text_ltb k k'); cbn [map snd concat]; [reflexivity|]. rewrite <- app_assoc. symmetry. apply (Permutation_middle l (concat (map snd m)) v).
Qed.
Theorem manybody_ok st label e : registered_ops st e -> exists m, to_manybody st label e = Ok m /\
  StronglySorted (fun a b => text_ltb a b = true) (map fst m) /\
  (forall k l, In (k, l) m -> l <> [] /\ l = map (equation_of label) (filter (fun x => text_eqb (key_of st x) k) e)) /\
  (forall x, In x e -> In (key_of st x) (map fst m)) /\
  Permutation (concat (map snd m)) (map (equation_of label) e).
Proof.
  intros R. unfold to_manybody.
  assert (G : forall e2 e1 m, registered_ops st e2 -> kasc m -> (forall k, mget k m = map (equation_of label) (filter (fun x => text_eqb (key_of st x) k) e1)) -> (forall k l, In (k, l) m -> l <> []) -> (forall x, In x e1 -> In (key_of st x) (map fst m)) -> Permutation (concat (map snd m)) (map (equation_of label) e1) ->
    exists m', foldM (fun m x => bind (manybody_term st label x) (fun x0 => let '(k, q) := x0 in Ok (mpush k q m))) m e2 = Ok m' /\ kasc m' /\ (forall k, mget k m' = map (equation_of label) (filter (fun x => text_eqb (key_of st x) k) (e1 ++ e2))) /\ (forall k l, In (k, l) m' -> l <> []) /\ (forall x, In x (e1 ++ e2) -> In (key_of st x) (map fst m')) /\ Permutation (concat (map snd m')) (map (equation_of label) (e1 ++ e2))).
  { induction e2 as [|x e2 IH]; intros e1 m Rg S G N K P; cbn [foldM]; [exists m; rewrite app_nil_r; auto 10|]. rewrite term_ok by (intros o Ho; apply (Rg x o); [left; auto|exact Ho]). cbn [bind].
    destruct (IH (e1 ++ [x]) (mpush (key_of st x) (equation_of label x) m)) as (m' & E & S' & G' & N' & K' & P').
    - intros y o Hy. apply Rg. right. auto.
    - apply mpush_asc, S.
    - intros k. rewrite mget_push by exact S. rewrite filter_app, map_app, <- G. cbn [filter]. destruct (text_eqb (key_of st x) k) eqn:E.
      + apply teqb in E. subst. rewrite teqb_refl. reflexivity.
      + destruct (text_eqb k (key_of st x)) eqn:E'; [apply teqb in E'; subst; rewrite teqb_refl in E; discriminate|]. cbn [map]. rewrite app_nil_r. reflexivity.
    - intros k l H. clear - N H. induction m as [|[k' l'] m IH]; cbn [mpush] in H; [destruct H as [H|[]]; injection H as <- <-; discriminate|]. destruct (text_ltb k' (key_of st x)); [destruct H as [H|H]; [apply (N k l); left; auto|apply IH; auto; intros a b Hab; apply (N a b); right; auto]|]. destruct (text_ltb (key_of st x) k').
      + destruct H as [H|H]; [injection H as <- <-; discriminate|apply (N k l); auto].
      + destruct H as [H|H]; [injection H as <- <-; destruct l'; discriminate|apply (N k l); right; auto].
    - intros y Hy. apply mpush_keys. apply in_app_or in Hy. destruct Hy as [Hy|[<-|[]]]; auto.
    - rewrite mpush_perm, map_app, P. cbn [map]. apply Permutation_cons_append.
    - exists m'. rewrite <- app_assoc in *. auto 10. }
  destruct (G e [] []) as (m & E & S & Gm & N & K & P); [exact R|constructor|reflexivity|intros k l []|intros x []|reflexivity|].
  exists m. split; [exact E|]. split; [exact S|]. split; [|split; [exact K|exact P]]. intros k l H. split; [eapply N; eauto|]. rewrite <- (Gm k : _ = map (equation_of label) (filter (fun x => text_eqb (key_of st x) k) e)).
  clear - S H. unfold kasc in S. induction m as [|[k' l'] m IH]; [destruct H|]. cbn [map fst] in S. inversion S as [|? ? S' F]; subst. cbn [mget]. destruct H as [H|H]; [injection H as -> ->; rewrite teqb_refl; reflexivity|].
  destruct (text_eqb k k') eqn:Ek; [|auto]. apply teqb in Ek. subst. apply (in_map fst) in H. rewrite Forall_forall in F. apply F in H. cbn [fst] in H. rewrite tltb_irrefl in H. discriminate.
Qed.

(** ** Keys *)
Lemma labels_nodup st : reachable st -> NoDup (map os_label (space_info st)).
Proof.
  intros R. apply NoDup_nth_error. intros i j Hi E. rewrite map_length in Hi. rewrite !nth_error_map in E.
  assert (Hj : (j < length (space_info st))%nat). { destruct (nth_error (space_info st) i) eqn:Ei; [|apply nth_error_None in Ei; lia]. destruct (nth_error (space_info st) j) eqn:Ej; [|discriminate]. apply nth_error_Some. congruence. }
  assert (L : forall k, (k < length (space_info st))%nat -> exists l, nth_error (space_info st) k = Some l /\ label_to_space st (os_label l) = Ok (Z.of_nat k)).
  { intros k Hk. destruct (nth_error (space_info st) k) as [s|] eqn:Ek; [|apply nth_error_None in Ek; lia]. exists s. split; [reflexivity|]. apply reg_label_roundtrip; [apply reachable_ok, R|]. unfold space_label. rewrite aget_nat, Ek. reflexivity. }
  destruct (L i Hi) as (a & Ea & La), (L j Hj) as (b & Eb & Lb). rewrite Ea, Eb in E. cbn [option_map] in E. injection E as E. rewrite E, Lb in La. injection La as La. lia.
Qed.
Lemma count_repeat c d n : count_occ ascii_dec (repeat c n) d = if ascii_dec c d then n else 0%nat.
Proof. induction n as [|n IH]; [destruct (ascii_dec c d); reflexivity|]. cbn [repeat count_occ]. rewrite IH. destruct (ascii_dec c d); reflexivity. Qed.
Lemma count_labels (infos : list orbital_space) (f : nat -> nat) : NoDup (map os_label infos) -> forall pos k s, nth_error infos k = Some s ->
  count_occ ascii_dec (flat_map (fun p => repeat (os_label (fst p)) (f (snd p))) (combine infos (seq pos (length infos)))) (os_label s) = f (pos + k)%nat.
Proof.
  assert (Z0 : forall infos pos c, ~ In c (map os_label infos) -> count_occ ascii_dec (flat_map (fun p => repeat (os_label (fst p)) (f (snd p))) (combine infos (seq pos (length infos)))) c = 0%nat).
  { clear. induction infos as [|s infos IH]; intros pos c H; [reflexivity|]. cbn [length seq combine flat_map fst snd map In] in *. rewrite count_occ_app, count_repeat, IH by tauto. destruct (ascii_dec (os_label s) c); [tauto|reflexivity]. }
  induction infos as [|s0 infos IH]; intros N pos k s H; [destruct k; discriminate|]. cbn [length seq combine flat_map fst snd map] in *. inversion N as [|? ? N1 N2]; subst. rewrite count_occ_app, count_repeat. destruct k as [|k]; cbn [nth_error] in H.
  - injection H as ->. rewrite Z0 by exact N1. destruct (ascii_dec (os_label s) (os_label s)); [|tauto]. rewrite !Nat.add_0_r. reflexivity.
  - rewrite (IH N2 (S pos) k s H). destruct (ascii_dec (os_label s0) (os_label s)) as [E|E]; [|cbn [Nat.add]; f_equal; lia]. exfalso. apply N1. rewrite E. apply in_map. eapply nth_error_In; eauto.
Qed.
Lemma labels_inj st l l' : reachable st -> regd st l -> regd st l' -> labels_of st l = labels_of st l' <-> forall sp, in_space l sp = in_space l' sp.
Proof.
  intros R H H'. rewrite !labels_of_eq. split; [|intros E; apply flat_map_ext; intros [s k]; cbn [fst snd]; rewrite E; reflexivity]. intros E sp.
  destruct (Z_lt_ge_dec sp 0) as [N|N]; [|destruct (Z_lt_ge_dec sp (num_spaces st)) as [N'|N']].
  - assert (X : forall m, regd st m -> in_space m sp = 0%nat); [|rewrite !X; auto]. intros m Hm. unfold in_space. destruct (filter _ m) as [|i f] eqn:Ef; [reflexivity|]. assert (Hi : In i (filter (fun i => isp i =? sp) m)) by (rewrite Ef; left; auto). apply filter_In in Hi. destruct Hi as (Hi & Ei). apply Hm in Hi. lia.
  - destruct (nth_error (space_info st) (Z.to_nat sp)) as [s|] eqn:Es; [|apply nth_error_None in Es; unfold num_spaces in *; lia].
    assert (X := count_labels (space_info st) (fun k => in_space l (Z.of_nat k)) (labels_nodup st R) 0%nat _ s Es). assert (X' := count_labels (space_info st) (fun k => in_space l' (Z.of_nat k)) (labels_nodup st R) 0%nat _ s Es). cbn beta in X, X'. cbn [Nat.add] in X, X'. rewrite E, X' in X. rewrite !Z2Nat.id in X by lia. auto.
  - assert (X : forall m, regd st m -> in_space m sp = 0%nat); [|rewrite !X; auto]. intros m Hm. unfold in_space. destruct (filter _ m) as [|i f] eqn:Ef; [reflexivity|]. assert (Hi : In i (filter (fun i => isp i =? sp) m)) by (rewrite Ef; left; auto). apply filter_In in Hi. destruct Hi as (Hi & Ei). apply Hm in Hi. lia.
Qed.
Lemma labels_chars st l c : In c (labels_of st l) -> In c (map os_label (space_info st)).
Proof.
  rewrite labels_of_eq. intros H. apply in_flat_map in H. destruct H as ([s k] & H & Hc). apply repeat_spec in Hc. cbn [fst] in Hc. subst. apply in_map. apply in_combine_l in H. exact H.
Qed.
Lemma bar_split (u u' r r' : text) b : ~ In b u -> ~ In b u' -> u ++ [b] ++ r = u' ++ [b] ++ r' -> u = u' /\ r = r'.
Proof.
  revert u'. induction u as [|c u IH]; intros [|c' u'] N N' E; cbn [app] in E.
  - injection E as E. auto.
  - injection E as E1 E2. exfalso. apply N'. left. auto.
  - injection E as E1 E2. exfalso. apply N. left. auto.
  - injection E as E1 E2. subst. destruct (IH u') as (A & B); [intros X; apply N; right; auto|intros X; apply N'; right; auto|exact E2|]. subst. auto.
Qed.
Theorem key_iff st x y : reachable st -> label_to_space st "|" = Throw ->
  (forall o, In o (tm_ops (fst x) ++ tm_ops (fst y)) -> 0 <= isp (s_idx o) < num_spaces st) ->
  key_of st x = key_of st y <-> forall sp, in_space (creators (tm_ops (fst x))) sp = in_space (creators (tm_ops (fst y))) sp /\
    in_space (annihilators (tm_ops (fst x))) sp = in_space (annihilators (tm_ops (fst y))) sp.
Proof.
  intros R B H. assert (Rg : forall z, z = x \/ z = y -> regd st (creators (tm_ops (fst z))) /\ regd st (annihilators (tm_ops (fst z)))).
  { intros z Hz. assert (Ho : forall o, In o (tm_ops (fst z)) -> 0 <= isp (s_idx o) < num_spaces st) by (intros o Ho; apply H, in_or_app; destruct Hz; subst; auto). split; intros i Hi; apply in_map_iff in Hi; destruct Hi as (o & <- & Hi); apply filter_In in Hi; apply Ho; tauto. }
  destruct (Rg x) as (Cx & Ax); [auto|]. destruct (Rg y) as (Cy & Ay); [auto|].
  assert (NB : forall l, ~ In "|"%char (labels_of st l)). { intros l X. apply labels_chars in X. apply in_map_iff in X. destruct X as (s & E & X). apply In_nth_error in X. destruct X as (k & X). assert (Y : label_to_space st "|" = Ok (Z.of_nat k)); [|congruence]. apply reg_label_roundtrip; [apply reachable_ok, R|]. unfold space_label. rewrite aget_nat, X. cbn [bind]. rewrite E. reflexivity. }
  unfold key_of. split.
  - intros E. apply bar_split in E; [|apply NB|apply NB]. destruct E as (E1 & E2). apply (f_equal (@rev _)) in E2. rewrite !rev_involutive in E2. intros sp. split; [apply (proj1 (labels_inj st _ _ R Cx Cy) E2)|apply (proj1 (labels_inj st _ _ R Ax Ay) E1)].
  - intros E. rewrite (proj2 (labels_inj st _ _ R Ax Ay) (fun sp => proj2 (E sp))), (proj2 (labels_inj st _ _ R Cx Cy) (fun sp => proj1 (E sp))). reflexivity.
Qed.
(** ** Nothing is lost of a term whose creation operators come first *)
Lemma ops_back ops : (exists n, forallb s_cre (firstn n ops) = true /\ forallb (fun o => negb (s_cre o)) (skipn n ops) = true) ->
  ops = map (mkSQ true) (creators ops) ++ map (mkSQ false) (annihilators ops).
Proof.
  intros (n & A & B). assert (F1 : forall l, forallb s_cre l = true -> map (mkSQ true) (creators l) = l /\ annihilators l = []).
  { clear. induction l as [|o l IH]; [auto|]. cbn [forallb]. rewrite andb_true_iff. intros (Ho & Hl). destruct (IH Hl) as (I1 & I2). unfold creators, annihilators in *. cbn [filter]. rewrite Ho. cbn [negb map]. rewrite I1. split; [f_equal; destruct o; cbn in *; subst; reflexivity|exact I2]. }
  assert (F2 : forall l, forallb (fun o => negb (s_cre o)) l = true -> map (mkSQ false) (annihilators l) = l /\ creators l = []).
  { clear. induction l as [|o l IH]; [auto|]. cbn [forallb]. rewrite andb_true_iff. intros (Ho & Hl). destruct (IH Hl) as (I1 & I2). unfold creators, annihilators in *. cbn [filter]. rewrite Ho. cbn [map]. rewrite I1. apply negb_true_iff in Ho. rewrite Ho. split; [f_equal; destruct o; cbn in *; subst; reflexivity|exact I2]. }
  assert (App : forall l l', creators (l ++ l') = creators l ++ creators l' /\ annihilators (l ++ l') = annihilators l ++ annihilators l') by (intros; unfold creators, annihilators; rewrite !filter_app, !map_app; auto).
  rewrite <- (firstn_skipn n ops) at 2 3. rewrite (proj1 (App _ _)), (proj2 (App _ _)), (proj2 (F1 _ A)), (proj2 (F2 _ B)), app_nil_r. cbn [app]. rewrite (proj1 (F1 _ A)), (proj1 (F2 _ B)), firstn_skipn. reflexivity.
Qed.
Theorem equation_inj label x y : cre_first (tm_ops (fst x)) -> cre_first (tm_ops (fst y)) -> tm_no (fst x) = tm_no (fst y) -> equation_of label x = equation_of label y -> x = y.
Proof.
  intros Cx Cy N E. unfold equation_of in E. injection E as E1 E2 E3 E4. destruct x as [[nx ox tx] cx], y as [[ny oy ty] cy]. cbn [fst snd tm_ops tm_tens tm_no] in *. apply (f_equal (@rev _)) in E2. rewrite !rev_involutive in E2. rewrite (ops_back ox Cx), (ops_back oy Cy), E1, E2. congruence.
Qed.
Lemma rhs_expression_ok e : rat_is0 (eq_factor e) = false -> rhs_expression e = [(eq_rhs e, eq_factor e)].
Proof. intros H. unfold rhs_expression, madd. rewrite H. reflexivity. Qed.

(** ** einsum: letters and indices *)
Lemma latex_all_ok st l : regd st l -> exists ns, latex_all st l ns.
Proof.
  induction l as [|i l IH]; intros H; [exists []; constructor|]. destruct (index_latex_ok st i) as (s & Hs); [apply H; left; auto|]. destruct IH as (ns & Hn); [intros j Hj; apply H; right; auto|]. exists (s :: ns). constructor; auto.
Qed.
Lemma latex_all_tensors st ts : (forall t, In t ts -> regd st (slots_of t)) -> exists nss, Forall2 (fun t ns => latex_all st (slots_of t) ns) ts nss.
Proof.
  induction ts as [|t ts IH]; intros H; [exists []; constructor|]. destruct (latex_all_ok st (slots_of t)) as (ns & Hn); [apply H; left; auto|]. destruct IH as (nss & Hs); [intros u Hu; apply H; right; auto|]. exists (ns :: nss). constructor; auto.
Qed.
Lemma latex_concat st ts nss : Forall2 (fun t ns => latex_all st (slots_of t) ns) ts nss -> latex_all st (flat_map slots_of ts) (concat nss).
Proof. induction 1 as [|t ns ts nss H F IH]; [constructor|]. cbn [flat_map concat]. apply Forall2_app; auto. Qed.
Lemma latex_nth st l ns : latex_all st l ns -> forall i d, (i < length l)%nat -> index_latex st (nth i l d) = Ok (nth i ns []).
Proof. induction 1 as [|a s l ns H F IH]; intros i d Hi; [cbn in Hi; lia|]. destruct i; [exact H|]. cbn [nth]. apply IH. cbn [length] in Hi. lia. Qed.
Theorem einsum_same st rhs lhs ins out d : reachable st -> names_ok st -> (forall t, In t (lhs :: rhs) -> forall i, In i (slots_of t) -> 0 <= isp i < num_spaces st) ->
  einsum_indices st rhs lhs = Ok (ins, out) ->
  map (@length _) (ins ++ [out]) = map (fun t => length (slots_of t)) (rhs ++ [lhs]) /\ Forall is_letter (concat (ins ++ [out])) /\
  forall i j, (i < length (flat_map slots_of (rhs ++ [lhs])))%nat -> (j < length (flat_map slots_of (rhs ++ [lhs])))%nat ->
    (nth i (concat (ins ++ [out])) zero = nth j (concat (ins ++ [out])) zero <-> nth i (flat_map slots_of (rhs ++ [lhs])) d = nth j (flat_map slots_of (rhs ++ [lhs])) d).
Proof.
  intros R G Rg E. destruct (latex_all_tensors st (rhs ++ [lhs])) as (nss & F). { intros t Ht i Hi. apply (Rg t); [|exact Hi]. apply in_app_or in Ht. destruct Ht as [Ht|[<-|[]]]; [right|left]; auto. }
  destruct (einsum_letters st rhs lhs nss ins out F E) as (A & B & C). split; [exact A|]. split; [exact B|]. intros i j Hi Hj. assert (L := latex_concat _ _ _ F). assert (Len := Forall2_len _ _ _ L). rewrite C by (rewrite <- Len; auto).
  assert (Ni := latex_nth _ _ _ L i d Hi). assert (Nj := latex_nth _ _ _ L j d Hj). split; intros X; [|rewrite X, Nj in Ni; congruence]. rewrite X in Ni. eapply index_latex_inj; eauto.
Qed.
Lemma nodup_map_len {A B} (da : forall x y : A, {x = y} + {x <> y}) (db : forall x y : B, {x = y} + {x <> y}) (f : A -> B) l : (forall x y, In x l -> In y l -> f x = f y -> x = y) ->
  length (nodup db (map f l)) = length (nodup da l).
Proof.
  induction l as [|a l IH]; intros H; [reflexivity|]. cbn [map nodup]. assert (IHl := IH (fun x y Hx Hy => H x y (or_intror Hx) (or_intror Hy))). destruct (in_dec da a l) as [I|I], (in_dec db (f a) (map f l)) as [J|J]; cbn [length]; auto.
  - exfalso. apply J, in_map, I.
  - exfalso. apply I. apply in_map_iff in J. destruct J as (b & E & J). assert (b = a) by (apply H; [right|left|]; auto). subst. exact J.
Qed.
Theorem einsum_52 st rhs lhs : reachable st -> names_ok st -> (forall t, In t (lhs :: rhs) -> forall i, In i (slots_of t) -> 0 <= isp i < num_spaces st) ->
  if (length (nodup index_dec (flat_map slots_of (rhs ++ [lhs]))) <=? 52)%nat then exists r, einsum_indices st rhs lhs = Ok r else einsum_indices st rhs lhs = UB.
Proof.
  intros R G Rg. destruct (latex_all_tensors st (rhs ++ [lhs])) as (nss & F). { intros t Ht i Hi. apply (Rg t); [|exact Hi]. apply in_app_or in Ht. destruct Ht as [Ht|[<-|[]]]; [right|left]; auto. }
  assert (D := einsum_defined st rhs lhs nss F). assert (L := latex_concat _ _ _ F). set (sl := flat_map slots_of (rhs ++ [lhs])) in *.
  set (f := fun i => match index_latex st i with Ok x => x | _ => [] end). assert (M : concat nss = map f sl). { clear - L. induction L as [|i s l ns H L IH]; [reflexivity|]. cbn [map]. rewrite <- IH. f_equal. unfold f. rewrite H. reflexivity. }
  rewrite M, (nodup_map_len index_dec tdec f) in D; [exact D|]. intros x y Hx Hy E.
  assert (K : forall z, In z sl -> exists s, index_latex st z = Ok s). { intros z Hz. clear - L Hz. induction L as [|i s l ns H L IH]; [destruct Hz|]. destruct Hz as [<-|Hz]; [eauto|auto]. }
  destruct (K x Hx) as (sx & Ex), (K y Hy) as (sy & Ey). unfold f in E. rewrite Ex, Ey in E. subst. eapply index_latex_inj; eauto.
Qed.
