(** Proofs about next_permutation loops. *)
From Coq Require Import ZArith List Bool Arith Lia Permutation Sorted.
From Verif Require Import NextPermModel PartitionsSpec.
Import ListNotations.
Local Open Scope Z_scope.

Lemma lex_irrefl l : ~ lexlt l l.
Proof. induction l; simpl; intuition. Qed.
Lemma lex_trans a b c : lexlt a b -> lexlt b c -> lexlt a c.
Proof. revert b c. induction a as [|x a IH]; intros [|y b] [|z c]; simpl; try tauto. intros [H|[-> H]] [H'|[-> H']]; try lia.
  right. split; auto. eapply IH; eauto. Qed.
Lemma lex_total a b : length a = length b -> lexlt a b \/ a = b \/ lexlt b a.
Proof. revert b. induction a as [|x a IH]; intros [|y b]; simpl; try discriminate; auto. intros E. injection E as E.
  destruct (Z.lt_trichotomy x y) as [H|[->|H]]; auto. destruct (IH _ E) as [H|[->|H]]; auto. Qed.

Lemma swap_perm x m y m' : np_swap x m = Some (y, m') -> Permutation (x :: m) (y :: m').
Proof.
  revert y m'. induction m as [|a m IH]; simpl; intros y m' E; [discriminate|].
  destruct (x <? a); [injection E as <- <-; apply perm_swap|].
  destruct (np_swap x m) as [[z m'']|]; [|discriminate]. injection E as <- <-.
  rewrite perm_swap. rewrite (IH _ _ eq_refl). apply perm_swap.
Qed.
Lemma swap_none x m : np_swap x m = None -> Forall (fun y => y <= x) m.
Proof. induction m as [|a m IH]; simpl; intros E; auto. destruct (Z.ltb_spec x a); [discriminate|].
  destruct (np_swap x m) as [[? ?]|]; [discriminate|]. constructor; auto. Qed.
Lemma swap_some x m y m' : StronglySorted Z.le m -> np_swap x m = Some (y, m') ->
  x < y /\ (forall z, In z m -> x < z -> y <= z) /\ StronglySorted Z.le m'.
Proof.
  revert y m'. induction m as [|a m IH]; simpl; intros y m' S E; [discriminate|].
  apply StronglySorted_inv in S. destruct S as [S F]. rewrite Forall_forall in F.
  destruct (Z.ltb_spec x a).
  - injection E as <- <-. split; [auto|]. split.
    + intros z [->|Hz] _; [lia|]. apply F; auto.
    + constructor; auto. apply Forall_forall. intros z Hz. specialize (F _ Hz). lia.
  - destruct (np_swap x m) as [[z m'']|] eqn:E'; [|discriminate]. injection E as <- <-.
    destruct (IH _ _ S eq_refl) as (H1 & H2 & H3). split; [auto|]. split.
    + intros w [->|Hw] ?; [lia|auto].
    + constructor; auto. apply Forall_forall. intros w Hw.
      pose proof (swap_perm _ _ _ _ E') as P. assert (In w (x :: m)) as [<-|I] by (apply (Permutation_in _ (Permutation_sym P)); simpl; auto); [lia|auto].
Qed.

Lemma np_perm l l' : next_perm l = Some l' -> Permutation l l'.
Proof.
  revert l'. induction l as [|x l IH]; simpl; intros l' E; [discriminate|].
  destruct (next_perm l) as [l''|]; [injection E as <-; auto|].
  destruct (np_swap x (rev l)) as [[y m]|] eqn:E'; [|discriminate]. injection E as <-.
  rewrite <- (swap_perm _ _ _ _ E'). constructor. apply Permutation_rev.
Qed.
Lemma np_lt l l' : next_perm l = Some l' -> lexlt l l'.
Proof.
  revert l'. induction l as [|x l IH]; simpl; intros l' E; [discriminate|].
  destruct (next_perm l) as [l''|]; [injection E as <-; right; auto|].
  destruct (np_swap x (rev l)) as [[y m]|] eqn:E'; [|discriminate]. injection E as <-.
  left. clear IH. revert y m E'. generalize (rev l). clear l. intros l. induction l as [|a l IH]; simpl; intros y m E; [discriminate|].
  destruct (Z.ltb_spec x a); [injection E as <- <-; auto|]. destruct (np_swap x l) as [[? ?]|]; [|discriminate]. injection E as <- <-. eauto.
Qed.

Lemma ss_app {A} (R : A -> A -> Prop) l1 l2 : StronglySorted R l1 -> StronglySorted R l2 -> (forall a b, In a l1 -> In b l2 -> R a b) ->
  StronglySorted R (l1 ++ l2).
Proof. induction l1 as [|x l1 IH]; simpl; auto. intros S1 S2 H. apply StronglySorted_inv in S1. destruct S1 as [S1 F].
  constructor; [apply IH; auto|]. rewrite Forall_forall in *. intros y Hy. apply in_app_or in Hy. destruct Hy; auto. Qed.
Lemma ss_rev l : StronglySorted Z.ge l -> StronglySorted Z.le (rev l).
Proof. induction l as [|x l IH]; simpl; intros S; [constructor|]. apply StronglySorted_inv in S. destruct S as [S F].
  apply ss_app; auto; [repeat constructor|]. intros a b Ha [<-|[]]. rewrite Forall_forall in F. apply in_rev in Ha. specialize (F _ Ha). lia. Qed.
Lemma np_none l : next_perm l = None -> StronglySorted Z.ge l.
Proof.
  induction l as [|x l IH]; simpl; intros E; [constructor|]. destruct (next_perm l); [discriminate|].
  destruct (np_swap x (rev l)) as [[? ?]|] eqn:E'; [discriminate|]. constructor; auto.
  apply swap_none in E'. rewrite Forall_forall in *. intros z Hz. assert (z <= x) by (apply E', in_rev; rewrite rev_involutive; auto). lia.
Qed.
Lemma sorted_min l p : StronglySorted Z.le l -> Permutation l p -> l = p \/ lexlt l p.
Proof.
  revert p. induction l as [|x l IH]; intros p S P.
  - apply Permutation_nil in P. auto.
  - destruct p as [|y p]; [apply Permutation_sym, Permutation_nil in P; discriminate|].
    apply StronglySorted_inv in S. destruct S as [S F]. rewrite Forall_forall in F.
    assert (In y (x :: l)) as [->|I] by (apply (Permutation_in _ (Permutation_sym P)); simpl; auto).
    + apply Permutation_cons_inv in P. destruct (IH _ S P) as [->|]; auto. right. simpl. auto.
    + specialize (F _ I). destruct (Z.eq_dec x y) as [->|]; [|right; simpl; left; lia].
      apply Permutation_cons_inv in P. destruct (IH _ S P) as [->|]; auto. right. simpl. auto.
Qed.
Lemma sorted_max l p : StronglySorted Z.ge l -> Permutation l p -> p = l \/ lexlt p l.
Proof.
  revert p. induction l as [|x l IH]; intros p S P.
  - apply Permutation_nil in P. auto.
  - destruct p as [|y p]; [apply Permutation_sym, Permutation_nil in P; discriminate|].
    apply StronglySorted_inv in S. destruct S as [S F]. rewrite Forall_forall in F.
    assert (x = y \/ x >= y) as H. { assert (In y (x :: l)) as [->|I] by (apply (Permutation_in _ (Permutation_sym P)); simpl; auto); auto. }
    destruct (Z.eq_dec x y) as [->|]; [|right; simpl; left; lia].
    apply Permutation_cons_inv in P. destruct (IH _ S P) as [->|]; auto. right. simpl. auto.
Qed.

(** Nothing lies between an arrangement and its successor. *)
Lemma np_next l l' p : next_perm l = Some l' -> Permutation l p -> lexlt l p -> p = l' \/ lexlt l' p.
Proof.
  revert l' p. induction l as [|x l IH]; simpl; intros l' p E P H; [discriminate|].
  destruct p as [|z p]; [simpl in H; tauto|].
  destruct (next_perm l) as [l''|] eqn:En.
  - injection E as <-. destruct H as [H|[-> H]]; [right; simpl; auto|].
    apply Permutation_cons_inv in P. destruct (IH _ _ eq_refl P H) as [->|]; auto. right. simpl; auto.
  - destruct (np_swap x (rev l)) as [[y m]|] eqn:E'; [|discriminate]. injection E as <-.
    pose proof (np_none _ En) as S. pose proof (swap_some _ _ _ _ (ss_rev _ S) E') as (H1 & H2 & H3).
    destruct H as [H|[-> H]].
    + assert (In z (x :: l)) as [->|I] by (apply (Permutation_in _ (Permutation_sym P)); simpl; auto); [lia|].
      assert (y <= z) by (apply H2; auto; apply in_rev; rewrite rev_involutive; auto).
      destruct (Z.eq_dec y z) as [->|]; [|right; simpl; left; lia].
      assert (P' : Permutation m p). { apply (Permutation_cons_inv (a := z)). rewrite <- (swap_perm _ _ _ _ E'), <- P.
        constructor. symmetry. apply Permutation_rev. }
      destruct (sorted_min _ _ H3 P') as [->|]; auto. right; simpl; auto.
    + apply Permutation_cons_inv in P. exfalso. destruct (sorted_max _ _ S P) as [->|Hl]; [eapply lex_irrefl; eauto|].
      eapply lex_irrefl, lex_trans; eauto.
Qed.

(** The chain of visited arrangements. *)
Lemma loop_spec fuel l r : np_loop fuel l = Some r ->
  StronglySorted lexlt r /\ Forall (fun p => p = l \/ lexlt l p) r /\ (exists r', r = l :: r') /\
  forall p, In p r <-> Permutation l p /\ (p = l \/ lexlt l p).
Proof.
  revert l r. induction fuel as [|f IH]; simpl; intros l r E; [discriminate|].
  destruct (next_perm l) as [l'|] eqn:En.
  - destruct (np_loop f l') as [r'|] eqn:El; [|discriminate]. injection E as <-.
    destruct (IH _ _ El) as (S & F & (r'' & Er) & M). pose proof (np_lt _ _ En) as Lt. pose proof (np_perm _ _ En) as Pm.
    assert (F' : Forall (lexlt l) r').
    { rewrite Forall_forall in *. intros p Hp. destruct (F _ Hp) as [->|]; auto. eapply lex_trans; eauto. }
    split; [constructor; auto|]. split; [constructor; auto; eapply Forall_impl; [|exact F']; simpl; auto|].
    split; [eauto|]. intros p. simpl. rewrite M. split.
    + intros [<-|[Pp Hp]]; [auto|]. split; [rewrite Pm; auto|]. right. destruct Hp as [->|]; auto. eapply lex_trans; eauto.
    + intros [Pp [->|Hp]]; [auto|]. right. split; [rewrite <- Pm; auto|]. eapply np_next; eauto.
  - injection E as <-. split; [repeat constructor|]. split; [repeat constructor|]. split; [eauto|].
    intros p. simpl. split.
    + intros [<-|[]]. auto.
    + intros [Pp [->|Hp]]; [auto|]. exfalso. destruct (sorted_max _ _ (np_none _ En) Pp) as [->|H]; [eapply lex_irrefl; eauto|].
      eapply lex_irrefl, lex_trans; eauto.
Qed.

(** Termination: at most n! arrangements. *)
Fixpoint inserts {A} (x : A) (l : list A) : list (list A) :=
  match l with [] => [[x]] | y :: l' => (x :: l) :: map (cons y) (inserts x l') end.
Fixpoint perms {A} (l : list A) : list (list A) := match l with [] => [[]] | x :: l' => flat_map (inserts x) (perms l') end.
Lemma inserts_len {A} (x : A) l : length (inserts x l) = S (length l).
Proof. induction l; simpl; auto. rewrite map_length, IHl. reflexivity. Qed.
Lemma inserts_elt {A} (x : A) l m : In m (inserts x l) -> length m = S (length l).
Proof. revert m; induction l; simpl; intros m; [intros [<-|[]]; auto|]. intros [<-|H]; auto. apply in_map_iff in H. destruct H as (k & <- & H). simpl. rewrite (IHl _ H). auto. Qed.
Lemma perms_len {A} (l : list A) : length (perms l) = fact (length l) /\ (forall m, In m (perms l) -> length m = length l).
Proof.
  induction l as [|x l [IH1 IH2]]; [simpl; split; auto; intros m [<-|[]]; auto|]. split.
  - cbn [perms length]. change (fact (S (length l))) with (S (length l) * fact (length l))%nat. rewrite <- IH1.
    generalize dependent (perms l). intros L _ H. induction L as [|p L IH]; simpl; [lia|]. rewrite app_length, inserts_len, IH by (intros; apply H; simpl; auto).
    rewrite (H p) by (simpl; auto). simpl. lia.
  - intros m H. simpl in H. apply in_flat_map in H. destruct H as (p & Hp & H). rewrite (inserts_elt _ _ _ H), (IH2 _ Hp). reflexivity.
Qed.
Lemma inserts_in {A} (x : A) l1 l2 : In (l1 ++ x :: l2) (inserts x (l1 ++ l2)).
Proof. induction l1 as [|a l1 IH]; simpl; [destruct l2; simpl; auto|]. right. apply in_map. exact IH. Qed.
Lemma perms_complete {A} (l p : list A) : Permutation l p -> In p (perms l).
Proof.
  revert p. induction l as [|x l IH]; intros p P; [apply Permutation_nil in P; subst; simpl; auto|].
  assert (I : In x p) by (apply (Permutation_in _ P); simpl; auto). apply in_split in I. destruct I as (l1 & l2 & ->).
  apply Permutation_cons_app_inv in P. simpl. apply in_flat_map. exists (l1 ++ l2). split; auto. apply inserts_in.
Qed.

Lemma ss_nodup {A} (R : A -> A -> Prop) l : (forall x, ~ R x x) -> StronglySorted R l -> NoDup l.
Proof. intros I. induction 1 as [|x l S IH F]; constructor; auto. intros H. rewrite Forall_forall in F. exact (I _ (F _ H)). Qed.

Lemma loop_fuel fuel l : np_loop fuel l = None -> exists c, length c = fuel /\ StronglySorted lexlt c /\ Forall (fun p => p = l \/ lexlt l p) c /\ Forall (Permutation l) c.
Proof.
  revert l. induction fuel as [|f IH]; simpl; intros l E; [exists []; repeat split; auto; constructor|].
  destruct (next_perm l) as [l'|] eqn:En; [|discriminate]. destruct (np_loop f l') eqn:El; [discriminate|].
  destruct (IH _ El) as (c & L & S & F & P). exists (l :: c). pose proof (np_lt _ _ En). pose proof (np_perm _ _ En) as Pm.
  assert (F' : Forall (lexlt l) c).
  { rewrite Forall_forall in *. intros p Hp. destruct (F _ Hp) as [->|]; auto. eapply lex_trans; eauto. }
  simpl. split; [auto|]. split; [constructor; auto|]. split; [constructor; auto; eapply Forall_impl; [|exact F']; simpl; auto|].
  constructor; auto. eapply Forall_impl; [|exact P]. simpl. intros p Hp. rewrite Pm. exact Hp.
Qed.
Lemma loop_enough fuel l : (fact (length l) < fuel)%nat -> np_loop fuel l <> None.
Proof.
  intros H E. destruct (loop_fuel _ _ E) as (c & L & S & _ & P).
  assert (length c <= length (perms l))%nat.
  { apply NoDup_incl_length; [eapply ss_nodup; [apply lex_irrefl|exact S]|]. intros p Hp. apply perms_complete. rewrite Forall_forall in P. auto. }
  rewrite (proj1 (perms_len l)) in *. lia.
Qed.
Lemma loop_more f f' l r : np_loop f l = Some r -> (f <= f')%nat -> np_loop f' l = Some r.
Proof. revert f' l r. induction f as [|f IH]; simpl; intros f' l r E L; [discriminate|]. destruct f' as [|f']; [lia|]. simpl.
  destruct (next_perm l) as [l'|]; auto. destruct (np_loop f l') as [r'|] eqn:El; [|discriminate]. rewrite (IH _ _ _ El) by lia. exact E. Qed.
Lemma loop_short f f' l r : np_loop f' l = Some r -> (length r <= f)%nat -> np_loop f l = Some r.
Proof. revert f l r. induction f' as [|f' IH]; simpl; intros f l r E L; [discriminate|].
  destruct f as [|f]; simpl.
  - destruct (next_perm l); [destruct (np_loop f' l0); [|discriminate]|]; injection E as <-; simpl in L; lia.
  - destruct (next_perm l) as [l'|]; auto. destruct (np_loop f' l') as [r'|] eqn:El; [|discriminate]. injection E as <-. simpl in L.
    rewrite (IH f _ _ El) by lia. reflexivity. Qed.
Lemma loop_fact l : exists r, np_loop (fact (length l)) l = Some r.
Proof.
  destruct (np_loop (S (fact (length l))) l) as [r|] eqn:E; [|exfalso; eapply loop_enough; [|exact E]; lia].
  exists r. eapply loop_short; [exact E|]. destruct (loop_spec _ _ _ E) as (S & F & _ & M). rewrite <- (proj1 (perms_len l)).
  apply NoDup_incl_length; [eapply ss_nodup; [apply lex_irrefl|exact S]|]. intros p Hp. apply perms_complete. apply M. exact Hp.
Qed.

Lemma np_visited_spec l : StronglySorted Z.le l ->
  (forall fuel, (fact (length l) <= fuel)%nat -> np_loop fuel l = Some (np_visited l)) /\
  (forall p, In p (np_visited l) <-> Permutation l p) /\ NoDup (np_visited l) /\ StronglySorted lexlt (np_visited l).
Proof.
  intros Sl. unfold np_visited. destruct (loop_fact l) as (r & E). rewrite E. destruct (loop_spec _ _ _ E) as (S & F & _ & M).
  split; [intros; eapply loop_more; eauto|]. split; [|split; [eapply ss_nodup; [apply lex_irrefl|exact S]|exact S]].
  intros p. rewrite M. split; [tauto|]. intros P. split; auto. destruct (sorted_min _ _ Sl P) as [->|]; auto.
Qed.
