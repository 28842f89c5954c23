(** C72: basic facts about the heap of Python objects. *)
From Coq Require Import ZArith List Bool Arith Lia Sorted.
From Verif Require Import Res RationalModel RegistryModel CoreModel OrderProofs AlgebraModel AlgebraSpec AlgebraProofs AdjointModel NormalOrderModel CanonModel PyModel PySpec.
Import ListNotations.

(** ** Maps with nodes *)
Lemma entries_nset n k c m : entries (nset n k c m) = mset term_ltb k c (entries m).
Proof. induction m as [|[n' [k' c']] m IH]; cbn; [reflexivity|]. destruct (term_ltb k' k); cbn; [f_equal; exact IH|]. destruct (term_ltb k k'); reflexivity. Qed.
Lemma entries_nerase k m : entries (nerase k m) = merase term_ltb k (entries m).
Proof. induction m as [|[n' [k' c']] m IH]; cbn; [reflexivity|]. destruct (term_ltb k' k); cbn; [f_equal; exact IH|]. destruct (term_ltb k k'); reflexivity. Qed.
Lemma entries_nadd n k c m : entries (nadd n k c m) = madd term_ltb k c (entries m).
Proof. unfold nadd, madd. destruct (rat_is0 c); [reflexivity|]. destruct (mfind term_ltb k (entries m)) as [c0|]; [|apply entries_nset].
  cbv zeta. destruct (rat_is0 (rat_add c0 c)); [apply entries_nerase|apply entries_nset]. Qed.
Lemma entries_fresh e : forall n, entries (fresh n e) = e.
Proof. induction e as [|x e IH]; intros n; cbn; [reflexivity|]. f_equal. apply IH. Qed.
Lemma fresh_ids e : forall n, map fst (fresh n e) = seq n (length e).
Proof. induction e as [|x e IH]; intros n; cbn; [reflexivity|]. now rewrite IH. Qed.

Lemma ids_nset n k c m : map fst (nset n k c m) = map fst m \/ exists a b, map fst m = a ++ b /\ map fst (nset n k c m) = a ++ n :: b.
Proof.
  induction m as [|[n' [k' c']] m IH]; cbn; [right; exists [], []; split; reflexivity|].
  destruct (term_ltb k' k); cbn.
  - destruct IH as [E|(a & b & E1 & E2)]; [left; now rewrite E|]. right. exists (n' :: a), b. rewrite E1, E2. split; reflexivity.
  - destruct (term_ltb k k'); [right; exists [], (n' :: map fst m); split; reflexivity|left; reflexivity].
Qed.
Lemma ids_nerase k m : map fst (nerase k m) = map fst m \/ exists a x b, map fst m = a ++ x :: b /\ map fst (nerase k m) = a ++ b.
Proof.
  induction m as [|[n' [k' c']] m IH]; cbn; [left; reflexivity|].
  destruct (term_ltb k' k); cbn.
  - destruct IH as [E|(a & x & b & E1 & E2)]; [left; now rewrite E|]. right. exists (n' :: a), x, b. rewrite E1, E2. split; reflexivity.
  - destruct (term_ltb k k'); [left; reflexivity|right; exists [], n', (map fst m); split; reflexivity].
Qed.
Lemma ids_nadd n k c m : map fst (nadd n k c m) = map fst m \/ (exists a b, map fst m = a ++ b /\ map fst (nadd n k c m) = a ++ n :: b) \/
  (exists a x b, map fst m = a ++ x :: b /\ map fst (nadd n k c m) = a ++ b).
Proof.
  unfold nadd. destruct (rat_is0 c); [left; reflexivity|]. destruct (mfind term_ltb k (entries m)) as [c0|]; cbv zeta.
  - destruct (rat_is0 (rat_add c0 c)); [destruct (ids_nerase k m) as [E|E]; [left|right; right]; exact E|].
    destruct (ids_nset n k (rat_add c0 c) m) as [E|E]; [left|right; left]; exact E.
  - destruct (ids_nset n k c m) as [E|E]; [left|right; left]; exact E.
Qed.
Definition ids_ok (n : nat) (m : nmap) : Prop := NoDup (map fst m) /\ Forall (fun x => x < n) (map fst m).
Lemma ids_ok_le n n' m : n <= n' -> ids_ok n m -> ids_ok n' m.
Proof. intros L [A B]. split; [exact A|]. revert B. apply Forall_impl. intros; lia. Qed.
Lemma ids_ok_nadd n k c m : ids_ok n m -> ids_ok (S n) (nadd n k c m).
Proof.
  intros [A B]. destruct (ids_nadd n k c m) as [E|[(a & b & E1 & E2)|(a & x & b & E1 & E2)]].
  - split; rewrite E; [exact A|]. revert B. apply Forall_impl. intros; lia.
  - rewrite E1 in A, B. split; rewrite E2.
    + assert (P : Permutation.Permutation (n :: a ++ b) (a ++ n :: b)) by apply Permutation.Permutation_middle.
      apply (Permutation.Permutation_NoDup P). constructor; [|exact A]. intros I. rewrite Forall_forall in B. specialize (B _ I). lia.
    + apply Forall_app in B. destruct B as [B1 B2]. apply Forall_app. split; [revert B1; apply Forall_impl; intros; lia|]. constructor; [lia|].
      revert B2. apply Forall_impl; intros; lia.
  - rewrite E1 in A, B. split; rewrite E2; [exact (NoDup_remove_1 _ _ _ A)|]. apply Forall_app in B. destruct B as [B1 B2]. inversion B2; subst.
    apply Forall_app. split; [revert B1|revert H2]; apply Forall_impl; intros; lia.
Qed.
Lemma ids_ok_fresh n e : ids_ok (n + length e) (fresh n e).
Proof. split; rewrite fresh_ids; [apply seq_NoDup|]. apply Forall_forall. intros x I. apply in_seq in I. lia. Qed.

Lemma from_split n m l : from n m = Some l -> exists a x b, m = a ++ (n, x) :: b /\ l = (n, x) :: b /\ ~ In n (map fst a).
Proof.
  revert l. induction m as [|[n' x] m IH]; intros l; cbn; [discriminate|]. destruct (n =? n') eqn:E.
  - apply Nat.eqb_eq in E. subst n'. intros H; injection H as <-. exists [], x, m. split; [reflexivity|]. split; [reflexivity|intros []].
  - apply Nat.eqb_neq in E. intros H. destruct (IH _ H) as (a & y & b & -> & -> & N). exists ((n', x) :: a), y, b. split; [reflexivity|]. split; [reflexivity|].
    intros [I|I]; [now apply E|exact (N I)].
Qed.
Lemma from_mid n x a b : ~ In n (map fst a) -> from n (a ++ (n, x) :: b) = Some ((n, x) :: b).
Proof. induction a as [|[n' y] a IH]; cbn; intros N; [now rewrite Nat.eqb_refl|]. destruct (n =? n') eqn:E; [apply Nat.eqb_eq in E; exfalso; apply N; left; now symmetry|]. apply IH. intros I. apply N. now right. Qed.
Lemma node_mid n x a b : ~ In n (map fst a) -> node n (a ++ (n, x) :: b) = Some x.
Proof. induction a as [|[n' y] a IH]; cbn; intros N; [now rewrite Nat.eqb_refl|]. destruct (n =? n') eqn:E; [apply Nat.eqb_eq in E; exfalso; apply N; left; now symmetry|]. apply IH. intros I. apply N. now right. Qed.
Lemma from_None n m : from n m = None <-> ~ In n (map fst m).
Proof.
  induction m as [|[n' x] m IH]; cbn; [split; [intros _ []|reflexivity]|]. destruct (n =? n') eqn:E.
  - apply Nat.eqb_eq in E. subst n'. split; [discriminate|]. intros N. exfalso. apply N. now left.
  - apply Nat.eqb_neq in E. rewrite IH. split; [intros N [I|I]; [now apply E|exact (N I)]|]. intros N I. apply N. now right.
Qed.
Lemma node_None n m : node n m = None <-> ~ In n (map fst m).
Proof.
  induction m as [|[n' x] m IH]; cbn; [split; [intros _ []|reflexivity]|]. destruct (n =? n') eqn:E.
  - apply Nat.eqb_eq in E. subst n'. split; [discriminate|]. intros N. exfalso. apply N. now left.
  - apply Nat.eqb_neq in E. rewrite IH. split; [intros N [I|I]; [now apply E|exact (N I)]|]. intros N I. apply N. now right.
Qed.
Lemma nodup_mid {A} (x : A) a b : NoDup (a ++ x :: b) -> ~ In x a /\ ~ In x b.
Proof. intros H. apply NoDup_remove_2 in H. split; intros I; apply H; apply in_or_app; tauto. Qed.

(** [rest] is a tail of the map; delivering its head gives the next tail. *)
Lemma rest_tail m it l : rest m it = Some l -> exists a, m = a ++ l.
Proof.
  unfold rest. destruct (io_pos it) as [n|]; [|intros H; injection H as <-; exists m; now rewrite app_nil_r].
  destruct (from n m) as [l'|] eqn:E; [|destruct (io_first it); discriminate]. destruct (from_split _ _ _ E) as (a & x & b & -> & -> & _).
  destruct (io_first it); intros H; injection H as <-; [exists a; reflexivity|]. exists (a ++ [(n, x)]). now rewrite <- app_assoc.
Qed.
Lemma rest_next m o a n x l : NoDup (map fst m) -> m = a ++ (n, x) :: l -> rest m (mkIO o (Some n) false) = Some l.
Proof. intros N ->. unfold rest. cbn [io_pos io_first]. rewrite map_app in N. cbn in N. apply nodup_mid in N. rewrite from_mid by apply N. reflexivity. Qed.
Lemma rest_first m o : rest m (mkIO o (front m) true) = Some m.
Proof. unfold rest. cbn [io_pos io_first]. destruct m as [|[n x] m]; cbn; [reflexivity|]. now rewrite Nat.eqb_refl. Qed.

(** ** Lists *)
Lemma set_nth_same {A} i (a : A) l : i < length l -> nth_error (set_nth i a l) i = Some a.
Proof. intros L. unfold set_nth. rewrite nth_error_app2 by (rewrite firstn_length; lia). rewrite firstn_length. replace (i - Nat.min i (length l)) with 0 by lia. reflexivity. Qed.
Lemma set_nth_other {A} i j (a : A) l : i < length l -> j <> i -> nth_error (set_nth i a l) j = nth_error l j.
Proof.
  intros L N. unfold set_nth. destruct (Nat.lt_ge_cases j i) as [C|C].
  - rewrite nth_error_app1 by (rewrite firstn_length; lia). revert i L N C. revert l. induction j as [|j IH]; intros [|b l] [|i] L N C; cbn in *; try lia; [reflexivity|]. apply IH; lia.
  - rewrite nth_error_app2 by (rewrite firstn_length; lia). rewrite firstn_length. replace (j - Nat.min i (length l)) with (S (j - S i)) by lia. cbn [nth_error].
    replace j with (S i + (j - S i)) at 2 by lia. generalize (j - S i). intros k. generalize (S i). intros i'. revert l i' k L N C. clear.
    intros l i' k _ _ _. revert l. induction i' as [|i' IH]; intros l; cbn; [reflexivity|]. destruct l as [|b l]; [destruct k; reflexivity|]. apply IH.
Qed.
Lemma set_nth_length {A} i (a : A) l : i < length l -> length (set_nth i a l) = length l.
Proof. intros L. unfold set_nth. rewrite app_length, firstn_length. cbn [length]. rewrite skipn_length. lia. Qed.
Lemma nth_app_old {A} (l l' : list A) i : i < length l -> nth_error (l ++ l') i = nth_error l i.
Proof. apply nth_error_app1. Qed.
Lemma nth_app_new {A} (l : list A) a : nth_error (l ++ [a]) (length l) = Some a.
Proof. rewrite nth_error_app2 by lia. now rewrite Nat.sub_diag. Qed.
Lemma nth_lt {A} (l : list A) i a : nth_error l i = Some a -> i < length l.
Proof. intros H. apply nth_error_Some. rewrite H. discriminate. Qed.
Lemma lt_nth {A} (l : list A) i : i < length l -> exists a, nth_error l i = Some a.
Proof. intros H. destruct (nth_error l i) as [a|] eqn:E; [now exists a|]. apply nth_error_None in E. lia. Qed.
Lemma upd_same {A} (f : var -> A) x a : upd f x a x = a.
Proof. unfold upd. now rewrite Nat.eqb_refl. Qed.
Lemma upd_other {A} (f : var -> A) x y a : x <> y -> upd f x a y = f y.
Proof. intros N. unfold upd. apply Nat.eqb_neq in N. now rewrite N. Qed.

(** ** The invariant *)
Definition bounded (s : state) (v : pv) : Prop :=
  match v with
  | VE o => o < length (s_exprs s)
  | VT o => o < length (s_terms s)
  | VN o n | VC o n => o < length (s_exprs s) /\ n < s_next s
  | VQ _ => True
  | VI i => i < length (s_iters s)
  end.
Record inv (s : state) : Prop := {
  i_env : forall x v, s_env s x = Some v -> bounded s v;
  i_it : forall j it, nth_error (s_iters s) j = Some it -> io_expr it < length (s_exprs s) /\ forall n, io_pos it = Some n -> n < s_next s;
  i_nd : forall o m, nth_error (s_exprs s) o = Some m -> ids_ok (s_next s) m;
  i_sorted : forall o m, nth_error (s_exprs s) o = Some m -> msorted term_ltb (entries m) }.

(** Looking at a reference uses the objects it touches and nothing else. *)
Lemma look_ext s s' v :
  (forall o, In (OE o) (touches s v) -> nth_error (s_exprs s') o = nth_error (s_exprs s) o) ->
  (forall o, In (OT o) (touches s v) -> nth_error (s_terms s') o = nth_error (s_terms s) o) ->
  (forall i, In (OI i) (touches s v) -> nth_error (s_iters s') i = nth_error (s_iters s) i) ->
  look s' v = look s v /\ touches s' v = touches s v.
Proof.
  intros A B C. destruct v as [o|o|o n|q|o n|i]; cbn [look touches] in *.
  - rewrite (A o) by (now left). split; reflexivity.
  - rewrite (B o) by (now left). split; reflexivity.
  - rewrite (A o) by (now left). split; reflexivity.
  - split; reflexivity.
  - rewrite (A o) by (now left). split; reflexivity.
  - rewrite (C i) by (now left). destruct (nth_error (s_iters s) i) as [it|]; [|split; reflexivity]. rewrite (A (io_expr it)) by (right; now left). split; reflexivity.
Qed.
Lemma touched_bound s v a : inv s -> bounded s v -> In a (touches s v) ->
  match a with OE o => o < length (s_exprs s) | OT o => o < length (s_terms s) | OI i => i < length (s_iters s) end.
Proof.
  intros I B T. destruct v as [o|o|o n|q|o n|i]; cbn in *; try (destruct T as [<-|[]]; tauto); [contradiction|].
  destruct T as [<-|T]; [exact B|]. destruct (nth_error (s_iters s) i) as [it|] eqn:E; [|contradiction]. destruct T as [<-|[]]. exact (proj1 (i_it s I _ _ E)).
Qed.
