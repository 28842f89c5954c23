From Coq Require Import ZArith List Bool Lia Arith Sorting.Permutation Sorting.Sorted.
From Verif Require Import Res PartitionsModel RegistryModel RegistryProofs CoreModel OrderProofs SortModel SortSpec SortProofs CombinatoricsModel CombinatoricsProofs AdjointModel CanonProofs TextModel TextProofs2 RemapModel.
Import ListNotations.
Local Open Scope Z_scope.

Lemma index_eta i : mkI (isp i) (ipos i) = i. Proof. destruct i. reflexivity. Qed.
Lemma cget_push k v m k' : cget k' (cpush k v m) = if k' =? k then cget k' m ++ [v] else cget k' m.
Proof.
  induction m as [|[a l] m IH]; cbn [cpush cget]; [destruct (Z.eqb_spec k' k); reflexivity|]. destruct (Z.eqb_spec k a); cbn [cget]; subst.
  - destruct (Z.eqb_spec k' a); reflexivity.
  - destruct (Z.eqb_spec k' a); [destruct (Z.eqb_spec k' k); [congruence|reflexivity]|exact IH].
Qed.
Lemma cget_map f m k : f [] = [] -> cget k (map (fun kv => (fst kv, f (snd kv))) m) = f (cget k m).
Proof. intros F. induction m as [|[a l] m IH]; cbn [map cget fst snd]; [auto|]. destruct (k =? a); auto. Qed.
Lemma cget_fold a : forall m k, cget k (fold_left (fun m i => cpush (isp i) (ipos i) m) a m) = cget k m ++ map ipos (filter (fun i => k =? isp i) a).
Proof.
  induction a as [|i a IH]; intros m k; cbn [fold_left filter map]; [rewrite app_nil_r; reflexivity|]. rewrite IH, cget_push. destruct (k =? isp i); [rewrite <- app_assoc; reflexivity|reflexivity].
Qed.
Lemma imfind_put i j m k : imfind k (imput i j m) = if index_eqb k i then Some j else imfind k m.
Proof.
  induction m as [|[a v] m IH]; cbn [imput imfind]; [reflexivity|]. destruct (index_eqb i a) eqn:E; cbn [imfind].
  - apply index_eqb_eq in E. subst. destruct (index_eqb k a); reflexivity.
  - destruct (index_eqb k a) eqn:E'; [|exact IH]. apply index_eqb_eq in E'. subst. destruct (index_eqb a i) eqn:E''; [|reflexivity]. apply index_eqb_eq in E''. subst. rewrite (proj2 (index_eqb_eq i i) eq_refl) in E. discriminate.
Qed.

(** Weakly increasing. *)
Definition inc (l : list Z) : Prop := StronglySorted (fun a b => a <= b) l.
Lemma inc_sort l : inc (sort_by Z.ltb l).
Proof.
  assert (H := sort_by_ordered _ _ swo_Z l). unfold ordered in H. induction H as [|a m S IH F]; [constructor|]. constructor; [exact IH|]. eapply Forall_impl; [|exact F]. cbn beta. intros b Hb. apply Z.ltb_ge in Hb. exact Hb.
Qed.
Lemma inc_last l p : inc l -> In p l -> p <= last l 0.
Proof.
  intros H. revert p. induction H as [|a l S IH F]; intros p Hp; [destruct Hp|]. destruct l as [|b l]; [destruct Hp as [->|[]]; cbn; lia|]. change (last (a :: b :: l) 0) with (last (b :: l) 0). destruct Hp as [<-|Hp]; [|auto].
  assert (a <= b) by (inversion F; auto). assert (b <= last (b :: l) 0) by (apply IH; left; auto). lia.
Qed.
Lemma inc_snoc l q : inc l -> (forall p, In p l -> p <= q) -> inc (l ++ [q]).
Proof.
  intros H. induction H as [|a l S IH F]; intros B; cbn [app]; [repeat constructor|]. constructor; [apply IH; intros p Hp; apply B; right; auto|]. apply Forall_app. split; [exact F|]. constructor; [apply B; left; auto|constructor].
Qed.
Lemma last_in (l : list Z) : l <> [] -> In (last l 0) l.
Proof. intros N. rewrite (app_removelast_last 0 N) at 2. apply in_or_app. right. left. auto. Qed.

Section Remap.
  Variable a : list index.
  Definition start : count_map := map (fun kv => (fst kv, sort_by Z.ltb (snd kv))) (fold_left (fun m i => cpush (isp i) (ipos i) m) a []).
  Lemma start_in s p : In p (cget s start) <-> In (mkI s p) a.
  Proof.
    unfold start. rewrite (cget_map (sort_by Z.ltb)) by reflexivity. rewrite cget_fold. cbn [cget app]. split.
    - intros H. apply (Permutation_in _ (Permutation_sym (sort_by_perm Z.ltb _))) in H. apply in_map_iff in H. destruct H as (i & <- & H). apply filter_In in H. destruct H as (H & E). apply Z.eqb_eq in E. subst. rewrite index_eta. exact H.
    - intros H. apply (Permutation_in _ (sort_by_perm Z.ltb _)). apply in_map_iff. exists (mkI s p). split; [reflexivity|]. apply filter_In. split; [exact H|]. apply Z.eqb_refl.
  Qed.
  Lemma start_inc s : inc (cget s start).
  Proof. unfold start. rewrite (cget_map (sort_by Z.ltb)) by reflexivity. apply inc_sort. Qed.

  Record good (b : list index) (res : index_map) (cnt : count_map) : Prop := mkGood {
    g_in : forall s p, In p (cget s cnt) <-> In (mkI s p) a \/ exists i, imfind i res = Some (mkI s p);
    g_inc : forall s, inc (cget s cnt);
    g_src : forall i j, imfind i res = Some j -> In i b /\ isp j = isp i /\ ipos i < ipos j /\ forall p, In (mkI (isp j) p) a -> p < ipos j;
    g_why : forall i j, imfind i res = Some j -> In i a \/ exists i', imfind i' res = Some i;
    g_inj : forall i i' j, imfind i res = Some j -> imfind i' res = Some j -> i = i';
    g_kept : forall i, In i b -> imfind i res = None -> ~ In i a;
    g_asc : StronglySorted (fun i i' => isp i = isp i' -> ipos i < ipos i') b -> forall i i' j, In i b -> imfind i res = None -> imfind i' res = Some j -> i <> j }.
  Lemma good_start : good [] [] start.
  Proof.
    constructor; try discriminate.
    - intros s p. rewrite start_in. split; [auto|]. intros [H|(i & H)]; [exact H|discriminate].
    - apply start_inc.
    - intros i [].
  Qed.
  Lemma snoc_sorted {A} (R : A -> A -> Prop) l x : StronglySorted R (l ++ [x]) -> StronglySorted R l /\ Forall (fun y => R y x) l.
  Proof.
    induction l as [|y l IH]; intros H; [split; constructor|]. cbn [app] in H. inversion H as [|? ? S F]; subst. destruct (IH S) as (S1 & F1). apply Forall_app in F. destruct F as (F & Fx). split; [constructor; auto|]. constructor; [inversion Fx; auto|auto].
  Qed.
  Lemma good_step b res cnt x r : good b res cnt -> ~ In x b -> remap_step (res, cnt) x = Ok r -> good (b ++ [x]) (fst r) (snd r).
  Proof.
    intros G N H. unfold remap_step in H. assert (Nx : imfind x res = None). { destruct (imfind x res) eqn:E; [|reflexivity]. apply (g_src _ _ _ G) in E. tauto. }
    destruct (existsb (Z.eqb (ipos x)) (cget (isp x) cnt)) eqn:E.
    - set (q := last (cget (isp x) cnt) 0 + 1) in *. assert (Hx : In (ipos x) (cget (isp x) cnt)) by (apply existsb_exists in E; destruct E as (y & Hy & Ey); apply Z.eqb_eq in Ey; congruence).
      assert (Q : forall p, In p (cget (isp x) cnt) -> p < q) by (intros p Hp; apply inc_last in Hp; [unfold q; lia|apply (g_inc _ _ _ G)]).
      destruct (_ =? max_int); [discriminate|]. injection H as <-. cbn [fst snd].
      assert (Fr : forall i, imfind i res <> Some (mkI (isp x) q)). { intros i Hi. assert (In q (cget (isp x) cnt)) by (apply (g_in _ _ _ G); right; eauto). apply Q in H. lia. }
      constructor.
      + intros s p. rewrite cget_push. destruct (Z.eqb_spec s (isp x)) as [->|Ns].
        * rewrite in_app_iff, (g_in _ _ _ G). cbn [In]. split.
          -- intros [[H|(i & H)]|[<-|[]]]; [auto| |].
             ++ right. exists i. rewrite imfind_put. destruct (index_eqb i x) eqn:Ei; [apply index_eqb_eq in Ei; congruence|exact H].
             ++ right. exists x. rewrite imfind_put, (proj2 (index_eqb_eq x x) eq_refl). reflexivity.
          -- intros [H|(i & H)]; [auto|]. rewrite imfind_put in H. destruct (index_eqb i x); [injection H as <-; auto|left; right; eauto].
        * rewrite (g_in _ _ _ G). split; (intros [H|(i & H)]; [auto|]).
          -- right. exists i. rewrite imfind_put. destruct (index_eqb i x) eqn:Ei; [apply index_eqb_eq in Ei; congruence|exact H].
          -- rewrite imfind_put in H. destruct (index_eqb i x); [injection H as <- _; congruence|right; eauto].
      + intros s. rewrite cget_push. destruct (Z.eqb_spec s (isp x)) as [->|Ns]; [|apply (g_inc _ _ _ G)]. apply inc_snoc; [apply (g_inc _ _ _ G)|]. intros p Hp. apply Q in Hp. lia.
      + intros i j. rewrite imfind_put. destruct (index_eqb i x) eqn:Ei.
        * apply index_eqb_eq in Ei. subst. intros H. injection H as <-. cbn [isp ipos]. split; [apply in_or_app; right; left; auto|]. split; [reflexivity|]. split; [apply Q, Hx|]. intros p Hp. apply Q. apply (g_in _ _ _ G). auto.
        * intros H. apply (g_src _ _ _ G) in H. rewrite in_app_iff. tauto.
      + intros i j. rewrite imfind_put. destruct (index_eqb i x) eqn:Ei.
        * apply index_eqb_eq in Ei. subst. intros _. apply (g_in _ _ _ G) in Hx. rewrite index_eta in Hx. destruct Hx as [Hx|(i & Hi)]; [auto|]. right. exists i. rewrite imfind_put. destruct (index_eqb i x) eqn:Ei; [apply index_eqb_eq in Ei; congruence|exact Hi].
        * intros H. destruct (g_why _ _ _ G i j H) as [H'|(i' & H')]; [auto|]. right. exists i'. rewrite imfind_put. destruct (index_eqb i' x) eqn:Ei'; [apply index_eqb_eq in Ei'; congruence|exact H'].
      + intros i i' j. rewrite !imfind_put. destruct (index_eqb i x) eqn:Ei, (index_eqb i' x) eqn:Ei'; intros H H'.
        * apply index_eqb_eq in Ei, Ei'. congruence.
        * injection H as <-. exfalso. eapply Fr; eauto.
        * injection H' as <-. exfalso. eapply Fr; eauto.
        * eapply (g_inj _ _ _ G); eauto.
      + intros i Hi. rewrite imfind_put. destruct (index_eqb i x) eqn:Ei; [discriminate|]. apply (g_kept _ _ _ G). apply in_app_or in Hi. destruct Hi as [Hi|[->|[]]]; [exact Hi|]. rewrite (proj2 (index_eqb_eq i i) eq_refl) in Ei. discriminate.
      + intros S i i' j Hi. apply snoc_sorted in S. destruct S as (S & F). rewrite !imfind_put. destruct (index_eqb i x) eqn:Ei; [discriminate|]. intros Hn. apply in_app_or in Hi. destruct Hi as [Hi|[->|[]]]; [|rewrite (proj2 (index_eqb_eq i i) eq_refl) in Ei; discriminate].
        destruct (index_eqb i' x) eqn:Ei'; [|apply (g_asc _ _ _ G S); auto]. intros H. injection H as <-. intros ->. rewrite Forall_forall in F. apply F in Hi; [|reflexivity]. cbn [isp ipos] in Hi. apply Q in Hx. lia.
    - injection H as <-. cbn [fst snd]. destruct G as [G1 G2 G3 G4 G5 G6 G7].
      assert (Kx : ~ In (ipos x) (cget (isp x) cnt)). { intros H. assert (existsb (Z.eqb (ipos x)) (cget (isp x) cnt) = true) by (apply existsb_exists; exists (ipos x); rewrite Z.eqb_refl; auto). congruence. }
      constructor; auto.
      + intros i j H. apply G3 in H. rewrite in_app_iff. tauto.
      + intros i Hi Hn. apply in_app_or in Hi. destruct Hi as [Hi|[<-|[]]]; [auto|]. intros Ha. apply Kx, G1. rewrite index_eta. auto.
      + intros S i i' j Hi Hn Hj. apply snoc_sorted in S. destruct S as (S & F). apply in_app_or in Hi. destruct Hi as [Hi|[<-|[]]]; [apply (G7 S i i' j); auto|]. intros <-. apply Kx, G1. rewrite index_eta. eauto.
  Qed.
  Lemma good_all : forall b2 b1 s r, good b1 (fst s) (snd s) -> NoDup (b1 ++ b2) -> foldM remap_step s b2 = Ok r -> good (b1 ++ b2) (fst r) (snd r).
  Proof.
    induction b2 as [|x b2 IH]; intros b1 s r G N H; cbn [foldM] in H; [injection H as <-; rewrite app_nil_r; exact G|]. apply bind_ok in H. destruct H as (s' & Hs & H). destruct s as [res cnt]. cbn [fst snd] in G.
    assert (Nx : ~ In x b1) by (apply NoDup_remove_2 in N; rewrite in_app_iff in N; tauto). change (x :: b2) with ([x] ++ b2). rewrite app_assoc. apply (IH _ s'); auto; [|rewrite <- app_assoc; exact N]. eapply good_step; eauto.
  Qed.
End Remap.
Lemma remap_good a b m : NoDup b -> remap a b = Ok m -> exists cnt, good a b m cnt.
Proof.
  intros N H. unfold remap in H. apply bind_ok in H. destruct H as ([res cnt] & H & E). injection E as <-. exists cnt. apply (good_all a b [] ([], start a) (res, cnt)); auto. apply good_start.
Qed.
Theorem remap_sound a b m : NoDup b -> remap a b = Ok m ->
  (forall i, In i b -> In i a -> exists j, imfind i m = Some j) /\
  (forall i j, imfind i m = Some j -> In i b /\ (In i a \/ exists i', imfind i' m = Some i) /\ isp j = isp i /\ ~ In j a) /\
  (forall i i' j, imfind i m = Some j -> imfind i' m = Some j -> i = i') /\
  (forall i, In i b -> ~ In (reindex m i) a).
Proof.
  intros N H. destruct (remap_good a b m N H) as (cnt & G). split; [|split; [|split]].
  - intros i Hb Ha. destruct (imfind i m) eqn:E; [eauto|]. exfalso. eapply (g_kept _ _ _ _ G); eauto.
  - intros i j Hj. assert (X := g_src _ _ _ _ G i j Hj). assert (Y := g_why _ _ _ _ G i j Hj). destruct X as (X1 & X2 & X3 & X4). split; [auto|]. split; [auto|]. split; [auto|]. intros Ha. destruct j as [s p]. cbn [isp ipos] in *. apply X4 in Ha. lia.
  - apply (g_inj _ _ _ _ G).
  - intros i Hb. unfold reindex. destruct (imfind i m) as [j|] eqn:E; [|apply (g_kept _ _ _ _ G); auto]. intros Ha. apply (g_src _ _ _ _ G) in E. destruct E as (_ & _ & _ & E). destruct j as [s p]. cbn [isp ipos] in *. apply E in Ha. lia.
Qed.
Theorem remap_inj a b m i i' : StronglySorted (fun i i' => isp i = isp i' -> ipos i < ipos i') b -> remap a b = Ok m -> In i b -> In i' b -> reindex m i = reindex m i' -> i = i'.
Proof.
  intros S H Hi Hi'. assert (N : NoDup b). { clear - S. induction S as [|x l S IH F]; [constructor|]. constructor; [|exact IH]. intros H. rewrite Forall_forall in F. specialize (F x H eq_refl). lia. }
  destruct (remap_good a b m N H) as (cnt & G). unfold reindex. destruct (imfind i m) as [j|] eqn:E, (imfind i' m) as [j'|] eqn:E'.
  - intros <-. eapply (g_inj _ _ _ _ G); eauto.
  - intros X. exfalso. apply (g_asc _ _ _ _ G S i' i j); auto.
  - intros X. exfalso. apply (g_asc _ _ _ _ G S i i' j'); auto.
  - auto.
Qed.
(** No overflow if there is room above the positions of the first list. *)
Theorem remap_defined a b : (forall i, In i a -> ipos i <= max_int - Z.of_nat (length b)) -> exists m, remap a b = Ok m.
Proof.
  intros B. change (exists m, bind (foldM remap_step ([], start a) b) (fun x => let '(r, _) := x in Ok r) = Ok m).
  assert (G : forall b s n, Z.of_nat (length b) <= n -> (forall k p, In p (cget k (snd s)) -> p <= max_int - n) -> exists r, foldM remap_step s b = Ok r).
  { clear. induction b as [|x b IH]; intros s n L H; cbn [foldM]; [eauto|]. cbn [length] in L. rewrite Nat2Z.inj_succ in L. destruct s as [res cnt]. cbn [snd] in H. unfold remap_step. destruct (existsb _ _) eqn:E.
    - assert (Hl : In (last (cget (isp x) cnt) 0) (cget (isp x) cnt)) by (apply last_in; intros X; rewrite X in E; discriminate). assert (Hl' := H _ _ Hl). destruct (Z.eqb_spec (last (cget (isp x) cnt) 0) max_int); [lia|]. cbn [bind]. apply (IH _ (n - 1)); [lia|]. cbn [snd]. intros k p. rewrite cget_push. destruct (Z.eqb_spec k (isp x)).
      + intros X. apply in_app_or in X. destruct X as [X|[<-|[]]]; [apply H in X|]; lia.
      + intros X. apply H in X. lia.
    - cbn [bind]. apply (IH _ (n - 1)); [lia|]. cbn [snd]. intros k p X. apply H in X. lia. }
  destruct (G b ([], start a) (Z.of_nat (length b))) as ([res cnt] & E); [lia| |]. { cbn [snd]. intros k p X. apply start_in, B in X. exact X. }
  rewrite E. cbn [bind]. eauto.
Qed.
