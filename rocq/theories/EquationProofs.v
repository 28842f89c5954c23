From Coq Require Import ZArith List Bool Ascii Lia Arith Sorting.Permutation.
From Verif Require Import Res PartitionsModel RegistryModel RegistryProofs CoreModel RationalModel AlgebraModel TextModel TextProofs2 TextProofs4 EquationModel EquationSpec.
Import ListNotations.
Local Open Scope Z_scope.

(** ** Letters *)
Lemma teqb a b : text_eqb a b = true <-> a = b.
Proof. unfold text_eqb. destruct (list_eq_dec ascii_dec a b); split; congruence. Qed.
Lemma teqb_refl a : text_eqb a a = true. Proof. apply teqb. reflexivity. Qed.
Lemma lfind_in s m v : lfind s m = Some v -> In (s, v) m.
Proof. induction m as [|[k w] m IH]; cbn [lfind]; [discriminate|]. destruct (text_eqb s k) eqn:E; [intros H; injection H as ->; apply teqb in E; subst; left; auto|right; auto]. Qed.
Lemma lfind_none s m : lfind s m = None <-> ~ In s (map fst m).
Proof.
  induction m as [|[k w] m IH]; cbn [lfind map fst In]; [tauto|]. destruct (text_eqb s k) eqn:E; [apply teqb in E; subst; split; [discriminate|tauto]|]. rewrite IH. split; [|tauto]. intros H [->|X]; [rewrite teqb_refl in E; discriminate|tauto].
Qed.
Lemma lfind_some s m : In s (map fst m) -> exists v, lfind s m = Some v.
Proof. intros H. destruct (lfind s m) eqn:E; [eauto|]. apply lfind_none in E. tauto. Qed.
Definition lst := (letter_map * list text)%type.
Definition linv (x : lst) : Prop := NoDup (map fst (fst x)) /\ Permutation (map snd (fst x) ++ snd x) alphabet.
Lemma alphabet_nodup : NoDup alphabet.
Proof. unfold alphabet. cbn [map String.list_ascii_of_string]. repeat (constructor; [cbn [In]; intuition discriminate|]). constructor. Qed.
Lemma linv_nodup x : linv x -> NoDup (map snd (fst x) ++ snd x).
Proof. intros (_ & P). eapply Permutation_NoDup; [apply Permutation_sym, P|apply alphabet_nodup]. Qed.
Lemma remove_perm v u : NoDup u -> In v u -> Permutation u (v :: filter (fun x => negb (text_eqb x v)) u).
Proof.
  induction 1 as [|a u N H IH]; intros Hv; [destruct Hv|]. cbn [filter]. destruct (text_eqb a v) eqn:E; cbn [negb].
  - apply teqb in E. subst. apply perm_skip. assert (X : filter (fun x => negb (text_eqb x v)) u = u). { clear - N. induction u as [|b u IH]; [reflexivity|]. cbn [filter In] in *. destruct (text_eqb b v) eqn:E; [apply teqb in E; subst; tauto|]. cbn [negb]. rewrite IH by tauto. reflexivity. }
    rewrite X. reflexivity.
  - destruct Hv as [->|Hv]; [rewrite teqb_refl in E; discriminate|]. rewrite (IH Hv) at 1. apply perm_swap.
Qed.
Lemma unique_step s x : linv x -> (exists v, lfind s (fst x) = Some v /\ get_unique_index s x = Ok (v, x)) \/
  (~ In s (map fst (fst x)) /\ snd x = [] /\ get_unique_index s x = UB) \/
  (~ In s (map fst (fst x)) /\ snd x <> [] /\ exists v x', get_unique_index s x = Ok (v, x') /\ fst x' = (s, v) :: fst x /\ S (length (snd x')) = length (snd x) /\ linv x').
Proof.
  destruct x as [m u]. intros I. assert (ND := linv_nodup _ I). destruct I as (K & P). cbn [fst snd] in *. unfold get_unique_index. destruct (lfind s m) as [v|] eqn:E; [left; eauto|right].
  apply lfind_none in E. assert (Nu : NoDup u). { clear - ND. induction (map snd m) as [|a l IH]; [exact ND|]. inversion ND; auto. }
  assert (G : forall v, In v u -> S (length (filter (fun u => negb (text_eqb u v)) u)) = length u /\ linv ((s, v) :: m, filter (fun u => negb (text_eqb u v)) u)).
  { intros v Hv. assert (R := remove_perm v u Nu Hv). split; [rewrite (Permutation_length R); reflexivity|].
    split; cbn [map fst snd]; [constructor; auto|]. eapply Permutation_trans; [|exact P]. eapply Permutation_trans; [|apply Permutation_app_head, Permutation_sym, R]. cbn [app]. apply Permutation_middle. }
  destruct ((length s =? 1)%nat && existsb (text_eqb s) u) eqn:C.
  - right. apply andb_true_iff in C. destruct C as (_ & C). apply existsb_exists in C. destruct C as (y & Hy & Ey). apply teqb in Ey. subst y. split; [exact E|]. split; [intros ->; destruct Hy|]. cbn [bind]. destruct (G s Hy) as (X4 & X5). eexists _, _. split; [reflexivity|]. auto.
  - destruct u as [|a u]; [left; auto|]. right. split; [exact E|]. split; [discriminate|]. cbn [bind].
    assert (Hl : In (last (a :: u) []) (a :: u)). { rewrite (app_removelast_last [] (l := a :: u)) at 2 by discriminate. apply in_or_app. right. left. auto. }
    destruct (G _ Hl) as (X4 & X5). eexists _, _. split; [reflexivity|]. auto.
Qed.
(** The letters for a list of names. *)
Fixpoint run (ns : list text) (x : lst) : res (list text * lst) :=
  match ns with [] => Ok ([], x) | s :: ns' => bind (get_unique_index s x) (fun r => bind (run ns' (snd r)) (fun r' => Ok (fst r :: fst r', snd r'))) end.
Lemma run_app a : forall b x, run (a ++ b) x = bind (run a x) (fun r => bind (run b (snd r)) (fun r' => Ok (fst r ++ fst r', snd r'))).
Proof.
  induction a as [|s a IH]; intros b x; cbn [app run bind fst snd]; [destruct (run b x) as [[vs y]| | |]; reflexivity|]. destruct (get_unique_index s x) as [[v y]| | |]; cbn [bind fst snd]; [|reflexivity..]. rewrite IH. destruct (run a y) as [[vs z]| | |]; cbn [bind fst snd]; [|reflexivity..]. destruct (run b z) as [[ws w]| | |]; reflexivity.
Qed.
Definition ext (m m' : letter_map) : Prop := forall s v, lfind s m = Some v -> lfind s m' = Some v.
Lemma run_sound ns : forall x vs x', linv x -> run ns x = Ok (vs, x') -> linv x' /\ ext (fst x) (fst x') /\ Forall2 (fun s v => lfind s (fst x') = Some v) ns vs.
Proof.
  induction ns as [|s ns IH]; intros x vs x' I H; cbn [run] in H; [injection H as <- <-; split; [auto|split; [intros s v; auto|constructor]]|].
  apply bind_ok in H. destruct H as ([v y] & H1 & H). apply bind_ok in H. destruct H as ([ws z] & H2 & H). cbn [fst snd] in *. injection H as <- <-.
  assert (X : linv y /\ ext (fst x) (fst y) /\ lfind s (fst y) = Some v).
  { destruct (unique_step s x I) as [(v' & L & E)|[(N & U & E)|(N & U & v' & y' & E & F & L & I')]]; rewrite E in H1; try discriminate; injection H1 as <- <-.
    - split; [auto|]. split; [intros a b; auto|exact L].
    - split; [exact I'|]. rewrite F. split; [|cbn [lfind]; rewrite teqb_refl; reflexivity]. intros a b Hab. cbn [lfind]. destruct (text_eqb a s) eqn:Ea; [apply teqb in Ea; subst; apply lfind_none in N; congruence|exact Hab]. }
  destruct X as (Iy & Ey & Ly). destruct (IH y ws z Iy H2) as (Iz & Ez & Fz). split; [exact Iz|]. split; [intros a b Hab; apply Ez, Ey, Hab|]. constructor; auto.
Qed.
Lemma NoDup_snoc {A} (l : list A) x : NoDup (l ++ [x]) <-> NoDup l /\ ~ In x l.
Proof.
  split.
  - intros H. split; [apply NoDup_remove_1 in H; rewrite app_nil_r in H; exact H|]. apply NoDup_remove_2 in H. rewrite app_nil_r in H. exact H.
  - intros (H & N). apply (Permutation_NoDup (l := x :: l)); [apply Permutation_cons_append|constructor; auto].
Qed.
Definition tdec := list_eq_dec ascii_dec.
(** How many names are new. *)
Lemma run_outcome ns : forall x, linv x -> let new := length (nodup tdec (filter (fun s => match lfind s (fst x) with None => true | _ => false end) ns)) in
  if (new <=? length (snd x))%nat then exists r, run ns x = Ok r else run ns x = UB.
Proof.
  induction ns as [|s ns IH]; intros x I; cbn zeta in *; [cbn [filter nodup length run Nat.leb]; eauto|]. cbn [run filter].
  destruct (unique_step s x I) as [(v & L & E)|[(N & U & E)|(N & U & v & y & E & F & L & I')]]; rewrite E; cbn [bind snd fst].
  - rewrite L. specialize (IH x I). destruct (_ <=? _)%nat; [destruct IH as ([vs z] & ->); cbn [bind fst snd]; eauto|rewrite IH; reflexivity].
  - rewrite (proj2 (lfind_none s (fst x)) N), U. cbn [length]. assert (X : In s (nodup tdec (s :: filter (fun s => match lfind s (fst x) with None => true | _ => false end) ns))) by (apply nodup_In; left; auto). destruct (nodup _ _); [destruct X|]. cbn [length Nat.leb]. reflexivity.
  - rewrite (proj2 (lfind_none s (fst x)) N). specialize (IH y I').
    set (P := fun s0 : text => match lfind s0 (fst x) with Some _ => false | None => true end) in *.
    set (P' := fun s0 : text => match lfind s0 (fst y) with Some _ => false | None => true end) in *.
    assert (C : length (nodup tdec (s :: filter P ns)) = S (length (nodup tdec (filter P' ns)))).
    { assert (Pm : Permutation (nodup tdec (s :: filter P ns)) (s :: nodup tdec (filter P' ns))); [|apply Permutation_length in Pm; exact Pm].
      apply NoDup_Permutation; [apply NoDup_nodup| |].
      - constructor; [|apply NoDup_nodup]. rewrite nodup_In, filter_In. unfold P'. rewrite F. cbn [lfind]. rewrite teqb_refl. intros (_ & X). discriminate.
      - intros t. rewrite nodup_In. cbn [In]. rewrite nodup_In, !filter_In. unfold P, P'. rewrite F. cbn [lfind]. destruct (text_eqb t s) eqn:Et; [apply teqb in Et; subst; tauto|]. split; (intros [H|H]; [auto|right; exact H]). }
    rewrite C, <- L. cbn [Nat.leb]. destruct (_ <=? _)%nat; [destruct IH as ([vs z] & ->); cbn [bind fst snd]; eauto|rewrite IH; reflexivity].
Qed.

(** From names to indices. *)
Definition latex_all (st : osi) (l : list index) (ns : list text) : Prop := Forall2 (fun i s => index_latex st i = Ok s) l ns.
Lemma unique_run st l ns : latex_all st l ns -> forall x, unique_indices st l x = bind (run ns x) (fun r => Ok (concat (fst r), snd r)).
Proof.
  induction 1 as [|i s l ns H F IH]; intros x; [reflexivity|]. cbn [unique_indices run]. rewrite H. cbn [bind]. destruct (get_unique_index s x) as [[v y]| | |]; cbn [bind fst snd]; [|reflexivity..]. rewrite IH. destruct (run ns y) as [[vs z]| | |]; reflexivity.
Qed.
Lemma tensors_run st ts nss : Forall2 (fun t ns => latex_all st (slots_of t) ns) ts nss -> forall x,
  match run (concat nss) x with
  | Ok (vs, y) => exists vss, unique_tensors st ts x = Ok (map (@concat _) vss, y) /\ concat vss = vs /\ map (@length _) vss = map (@length _) nss
  | o => unique_tensors st ts x = bind o (fun _ => Throw)
  end.
Proof.
  induction 1 as [|t ns ts nss H F IH]; intros x; cbn [concat run unique_tensors]; [exists []; auto|]. rewrite run_app. unfold unique_tensor_indices. fold (slots_of t). rewrite (unique_run st _ ns H).
  assert (Len : forall ns x r, run ns x = Ok r -> length (fst r) = length ns). { clear. induction ns as [|s ns IH]; intros x r H; cbn [run] in H; [injection H as <-; reflexivity|]. apply bind_ok in H. destruct H as (a & _ & H). apply bind_ok in H. destruct H as (b & Hb & H). injection H as <-. cbn [fst length]. rewrite (IH _ _ Hb). reflexivity. }
  destruct (run ns x) as [[vs y]| | |] eqn:E; cbn [bind fst snd]; [|reflexivity..]. specialize (IH y). apply Len in E. cbn [fst] in E. destruct (run (concat nss) y) as [[ws z]| | |]; cbn [bind fst snd]; [|rewrite IH; reflexivity..]. destruct IH as (vss & -> & <- & L). cbn [bind]. exists (vs :: vss). cbn [map concat]. split; [reflexivity|]. split; [reflexivity|]. f_equal; [exact E|exact L].
Qed.

Lemma values_inj x s s' v : linv x -> lfind s (fst x) = Some v -> lfind s' (fst x) = Some v -> s = s'.
Proof.
  intros I H H'. assert (ND := linv_nodup _ I). assert (ND' : NoDup (map snd (fst x))) by (clear - ND; induction (map snd (fst x)) as [|a l IH]; [constructor|]; inversion ND; subst; constructor; [rewrite in_app_iff in *; tauto|auto]). clear ND. rename ND' into ND. apply lfind_in in H, H'. destruct x as [m u]. cbn [fst] in *. clear - ND H H'. induction m as [|[k w] m IH]; [destruct H|]. cbn [map snd] in ND. inversion ND as [|? ? N ND']; subst.
  destruct H as [H|H], H' as [H'|H'].
  - congruence.
  - injection H as -> ->. exfalso. apply N. apply (in_map snd) in H'. exact H'.
  - injection H' as -> ->. exfalso. apply N. apply (in_map snd) in H. exact H.
  - auto.
Qed.
Lemma linv0 : linv ([], alphabet). Proof. split; [constructor|reflexivity]. Qed.
Lemma value_letter x s v : linv x -> lfind s (fst x) = Some v -> exists c, v = [c] /\ is_letter c.
Proof.
  intros (_ & P) H. apply lfind_in in H. assert (A : In v alphabet). { apply (Permutation_in _ P). apply in_or_app. left. apply (in_map snd) in H. exact H. }
  assert (A' := A). unfold alphabet in A'. apply in_map_iff in A'. destruct A' as (c & <- & _). exists c. split; [reflexivity|exact A].
Qed.
Lemma Forall2_len {A B} (R : A -> B -> Prop) l r : Forall2 R l r -> length l = length r.
Proof. induction 1; cbn [length]; auto. Qed.
Lemma concat_letters x ns vs : linv x -> Forall2 (fun s v => lfind s (fst x) = Some v) ns vs ->
  length (concat vs) = length ns /\ Forall is_letter (concat vs) /\
  (forall i j, (i < length ns)%nat -> (j < length ns)%nat -> (nth i (concat vs) zero = nth j (concat vs) zero <-> nth i ns [] = nth j ns [])).
Proof.
  intros I F. assert (G : exists cs, vs = map (fun c => [c]) cs /\ Forall is_letter cs).
  { induction F as [|s v ns vs H F IH]; [exists []; split; [reflexivity|constructor]|]. destruct IH as (cs & -> & L). destruct (value_letter x s v I H) as (c & -> & Lc). exists (c :: cs). split; [reflexivity|constructor; auto]. }
  destruct G as (cs & -> & L). assert (C : concat (map (fun c => [c]) cs) = cs) by (clear; induction cs as [|c cs IH]; [reflexivity|cbn [map concat app]; rewrite IH; reflexivity]). rewrite C. clear C.
  assert (Len := Forall2_len _ _ _ F). rewrite map_length in Len. split; [auto|]. split; [exact L|].
  assert (N : forall i, (i < length ns)%nat -> lfind (nth i ns []) (fst x) = Some [nth i cs zero]).
  { clear - F. intros i. revert i. remember (map (fun c : ascii => [c]) cs) as vs. revert cs Heqvs. induction F as [|s v ns vs H F IH]; intros cs E i Hi; [cbn in Hi; lia|]. destruct cs as [|c cs]; [discriminate|]. injection E as -> ->. destruct i as [|i]; [exact H|]. cbn [nth]. apply IH; auto. cbn [length] in Hi. lia. }
  intros i j Hi Hj. apply N in Hi, Hj. split; intros E; [|rewrite E, Hj in Hi; congruence]. eapply values_inj; [exact I|exact Hi|]. rewrite E. exact Hj.
Qed.
Lemma lens {A B} (l : list (list A)) (l' : list (list B)) : map (@length _) l = map (@length _) l' -> length (concat l) = length (concat l').
Proof. revert l'. induction l as [|a l IH]; intros [|b l'] H; try discriminate; [reflexivity|]. cbn [map] in H. injection H as H1 H2. cbn [concat]. rewrite !app_length, H1, (IH _ H2). reflexivity. Qed.
Lemma tensors_letters (x : lst) nss vss : linv x -> Forall2 (fun s v => lfind s (fst x) = Some v) (concat nss) (concat vss) -> map (@length _) vss = map (@length _) nss ->
  map (@length ascii) (map (@concat _) vss) = map (@length text) nss /\ concat (map (@concat _) vss) = concat (concat vss).
Proof.
  intros I. revert vss. induction nss as [|ns nss IH]; intros [|vs vss] F L; try discriminate; [auto|]. cbn [map concat] in *. injection L as L1 L2.
  assert (X : Forall2 (fun s v => lfind s (fst x) = Some v) ns vs /\ Forall2 (fun s v => lfind s (fst x) = Some v) (concat nss) (concat vss)).
  { clear - F L1. revert vs L1 F. induction ns as [|s ns IH]; intros [|v vs] L F; try discriminate; [split; [constructor|exact F]|]. cbn [app] in F. inversion F; subst. destruct (IH vs) as (A & B); [injection L; auto|auto|]. split; [constructor; auto|exact B]. }
  destruct X as (X & Y). destruct (IH vss Y L2) as (A & B). rewrite A, B, concat_app. split; [|reflexivity]. f_equal. apply (concat_letters x ns vs I X).
Qed.
Theorem einsum_letters st rhs lhs nss ins out : Forall2 (fun t ns => latex_all st (slots_of t) ns) (rhs ++ [lhs]) nss -> einsum_indices st rhs lhs = Ok (ins, out) ->
  map (@length _) (ins ++ [out]) = map (fun t => length (slots_of t)) (rhs ++ [lhs]) /\ Forall is_letter (concat (ins ++ [out])) /\
  (forall i j, (i < length (concat nss))%nat -> (j < length (concat nss))%nat ->
    (nth i (concat (ins ++ [out])) zero = nth j (concat (ins ++ [out])) zero <-> nth i (concat nss) [] = nth j (concat nss) [])).
Proof.
  intros F H. assert (T : exists y, unique_tensors st (rhs ++ [lhs]) ([], alphabet) = Ok (ins ++ [out], y)).
  { unfold einsum_indices in H. apply bind_ok in H. destruct H as ([a y] & Ha & H). apply bind_ok in H. destruct H as ([b z] & Hb & H). injection H as -> ->. exists z. clear - Ha Hb. revert ins Ha. generalize (([], alphabet) : lst). induction rhs as [|t rhs IH]; intros x ins Ha; cbn [app unique_tensors] in *.
    - injection Ha as <- <-. rewrite Hb. reflexivity.
    - apply bind_ok in Ha. destruct Ha as ([v x1] & Hv & Ha). apply bind_ok in Ha. destruct Ha as ([vs x2] & Hvs & Ha). injection Ha as <- <-. rewrite Hv. cbn [bind]. rewrite (IH _ _ Hvs). reflexivity. }
  destruct T as (y & T). assert (R := tensors_run st _ _ F ([], alphabet)). destruct (run (concat nss) ([], alphabet)) as [[vs z]| | |] eqn:E; [|rewrite R in T; discriminate..].
  destruct R as (vss & R & C & L). rewrite R in T. injection T as T1 T2. subst z. rewrite <- T1. destruct (run_sound _ _ _ _ linv0 E) as (I & _ & F2). rewrite <- C in F2. destruct (tensors_letters y nss vss I F2 L) as (L1 & C1). rewrite L1, C1. destruct (concat_letters y _ _ I F2) as (_ & A & B).
  split; [|split; [exact A|exact B]]. clear - F. induction F as [|t ns ts nss H F IH]; [reflexivity|]. cbn [map]. rewrite IH. f_equal. apply Forall2_len in H. auto.
Qed.
Theorem einsum_defined st rhs lhs nss : Forall2 (fun t ns => latex_all st (slots_of t) ns) (rhs ++ [lhs]) nss ->
  if (length (nodup tdec (concat nss)) <=? 52)%nat then exists r, einsum_indices st rhs lhs = Ok r else einsum_indices st rhs lhs = UB.
Proof.
  intros F. assert (R := tensors_run st _ _ F ([], alphabet)). assert (O := run_outcome (concat nss) ([], alphabet) linv0). cbn zeta in O. cbn [fst snd lfind] in O.
  assert (Fl : filter (fun _ : text => true) (concat nss) = concat nss) by (clear; induction (concat nss) as [|a l IH]; [reflexivity|cbn [filter]; rewrite IH; reflexivity]). rewrite Fl in O. change (length alphabet) with 52%nat in O.
  assert (T : unique_tensors st (rhs ++ [lhs]) ([], alphabet) = bind (unique_tensors st rhs ([], alphabet)) (fun r => bind (unique_tensor_indices st lhs (snd r)) (fun r' => Ok (fst r ++ [fst r'], snd r')))).
  { clear. generalize (([], alphabet) : lst). induction rhs as [|t rhs IH]; intros x; cbn [app unique_tensors bind fst snd].
    - destruct (unique_tensor_indices st lhs x) as [[a y]| | |]; reflexivity.
    - destruct (unique_tensor_indices st t x) as [[a y]| | |]; cbn [bind]; [|reflexivity..]. rewrite IH. destruct (unique_tensors st rhs y) as [[b z]| | |]; cbn [bind fst snd]; [|reflexivity..]. destruct (unique_tensor_indices st lhs z) as [[c w]| | |]; reflexivity. }
  unfold einsum_indices. destruct (_ <=? 52)%nat.
  - destruct O as ([vs y] & O). rewrite O in R. destruct R as (vss & R & _). rewrite R in T. destruct (unique_tensors st rhs ([], alphabet)) as [[a x]| | |]; try discriminate. cbn [bind fst snd] in *. destruct (unique_tensor_indices st lhs x) as [[b z]| | |]; try discriminate. cbn [bind]. eauto.
  - rewrite O in R. cbn [bind] in R. rewrite R in T. destruct (unique_tensors st rhs ([], alphabet)) as [[a x]| | |]; try discriminate; [|reflexivity]. cbn [bind fst snd] in *. destruct (unique_tensor_indices st lhs x) as [[b z]| | |]; try discriminate. reflexivity.
Qed.
