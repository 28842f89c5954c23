(** Steps 1 and 2 with output: the results are those without output, and what is printed. *)
From Coq Require Import String.
From Coq Require Import ZArith List Bool Arith Ascii Permutation Lia.
From Verif Require Import Res PartitionsModel RegistryModel RegistryProofs CoreModel CombinatoricsModel RationalModel AlgebraModel SortModel SortSpec
  OperatorModel OperatorSpec OperatorProofs AdjointModel CanonModel NextPermModel WickSearchModel WickSearchSpec WickElemProofs WickElemProofs2 WickCompProofs WickSearchProofs WickEvalModel WickCombProofs DecModel TextModel ExprTextModel EquationModel OpTextModel TraceModel.
Import ListNotations.
Local Open Scope Z_scope.

(** ** Projections of a run *)
Definition rmap {A B} (f : A -> B) (r : res A) : res B := match r with Ok a => Ok (f a) | Throw => Throw | UB => UB | NoFuel => NoFuel end.
Lemma foldM_rmap {S T A} (p : T -> S) (f : S -> A -> res S) (g : T -> A -> res T) l : (forall t a, In a l -> rmap p (g t a) = f (p t) a) ->
  forall t, rmap p (foldM g t l) = foldM f (p t) l.
Proof.
  induction l as [|a l IH]; intros H t; [reflexivity|]. cbn [foldM]. rewrite <- (H t a) by (left; auto). destruct (g t a) as [t'| | |]; cbn [rmap bind]; try reflexivity.
  apply IH. intros; apply H; right; auto.
Qed.
Lemma rmap_bind {A B C} (f : B -> C) (m : res A) (k : A -> res B) : rmap f (bind m k) = bind m (fun a => rmap f (k a)).
Proof. destruct m; reflexivity. Qed.
Lemma rmap_ok {A B} (f : A -> B) r b : rmap f r = Ok b -> exists a, r = Ok a /\ f a = b.
Proof. destruct r; simpl; intros E; try discriminate. injection E as <-. eauto. Qed.

(** ** Step 1 *)
Lemma general_erase fuel st maxc ops s v ev : rmap fst (general_traced fuel st maxc ops s (v, ev)) = bind (elementary_general fuel maxc ops s) (fun r => Ok (v ++ r)).
Proof.
  unfold general_traced, elementary_general. generalize (map (fun k => k + 1) (range (max_half_legs maxc ops s))). intros l.
  assert (G : forall acc (x : list econ * list event), fst x = v ++ acc -> rmap fst (foldM (fun (x : list econ * list event) k =>
      bind (general_legs fuel ops s k) (fun r => Ok (fst x ++ r, snd x ++ (Summary, Ok (nl ++ str "    " ++ dec_text (2 * k) ++ str "-legs contractions")) :: stored_events st (length (fst x)) r))) x l) =
    bind (foldM (fun v k => bind (general_legs fuel ops s k) (fun r => Ok (v ++ r))) acc l) (fun r => Ok (v ++ r))).
  { induction l as [|k l IH]; intros acc x E; [cbn; rewrite E; reflexivity|]. cbn [foldM]. destruct (general_legs fuel ops s k) as [r| | |]; cbn [bind]; try reflexivity.
    apply IH. cbn [fst]. rewrite E, app_assoc. reflexivity. }
  apply (G []). cbn. rewrite app_nil_r. reflexivity.
Qed.
Lemma step1_erase fuel st maxc ops : rmap fst (step1_traced fuel st maxc ops) = elementary_contractions fuel st maxc ops.
Proof.
  unfold step1_traced, elementary_contractions. rewrite (foldM_rmap fst (fun v s =>
    match stype st s with
    | Some Occupied => Ok (v ++ elementary_occupied ops s)
    | Some Unoccupied => Ok (v ++ elementary_unoccupied ops s)
    | Some General => bind (elementary_general fuel maxc ops s) (fun r => Ok (v ++ r))
    | None => UB
    end)); [reflexivity|]. intros [v ev] s _. cbn [fst]. destruct (stype st s) as [[]|]; try reflexivity. apply general_erase.
Qed.

(** Everything step 1 prints after its header: for each contraction its number (from 1) and its matrices. *)
Definition ev_in (Q : event -> Prop) (ev : list event) : Prop := Forall Q ev.
Lemma stored_all st (Q : event -> Prop) n cs : (forall n c, In c cs -> Q (stored_event st n c)) -> ev_in Q (stored_events st n cs).
Proof.
  intros H. unfold stored_events. apply Forall_map, Forall_forall. intros [i c] Hi. apply in_combine_r in Hi. apply H. auto.
Qed.
(** Events that only show the contractions [r]. *)
Definition shows (st : osi) (r : list econ) (ev : list event) : Prop :=
  forall Q : event -> Prop, (forall s, is_space st s -> Q (space_event st s)) -> (forall t, Q (Summary, Ok t)) -> (forall n c, In c r -> Q (stored_event st n c)) -> ev_in Q ev.
Lemma shows_app st r r' ev ev' : shows st r ev -> shows st r' ev' -> shows st (r ++ r') (ev ++ ev').
Proof.
  intros H H' Q A B C. apply Forall_app. split; [apply H|apply H']; auto; intros; apply C, in_or_app; auto.
Qed.
Lemma general_shows fuel st maxc ops s v ev v' ev' : general_traced fuel st maxc ops s (v, ev) = Ok (v', ev') -> exists r e, v' = v ++ r /\ ev' = ev ++ e /\ shows st r e.
Proof.
  unfold general_traced. generalize (map (fun k => k + 1) (range (max_half_legs maxc ops s))). intros ks. revert v ev.
  induction ks as [|k ks IH]; intros v ev E.
  - cbn in E. injection E as <- <-. exists [], []. rewrite !app_nil_r. split; auto. split; auto. intros Q _ _ _. constructor.
  - cbn [foldM] in E. destruct (general_legs fuel ops s k) as [r| | |]; cbn [bind fst snd] in E; try discriminate. apply IH in E. destruct E as (r' & e & -> & -> & S).
    exists (r ++ r'), (((Summary, Ok (nl ++ str "    " ++ dec_text (2 * k) ++ str "-legs contractions")) :: stored_events st (length v) r) ++ e). rewrite !app_assoc. split; auto. split; auto.
    apply shows_app; auto. intros Q _ B C. constructor; [apply B|]. apply stored_all. auto.
Qed.
Lemma step1_events fuel st maxc ops els ev : step1_traced fuel st maxc ops = Ok (els, ev) -> exists e, ev = step1_head st ops ++ e /\ shows st els e.
Proof.
  unfold step1_traced. assert (R : forall s, In s (range (num_spaces st)) -> is_space st s) by (intros s Hs; apply range_in in Hs; auto). revert R.
  generalize (range (num_spaces st)). intros l R. match goal with |- foldM ?f _ _ = _ -> _ => set (body := f) end.
  assert (G : forall v ev0 r, foldM body (v, ev0) l = Ok r -> exists q e, r = (v ++ q, ev0 ++ e) /\ shows st q e).
  { induction l as [|s l IH]; intros v ev0 r E.
    - cbn in E. injection E as <-. exists [], []. rewrite !app_nil_r. split; auto. intros Q _ _ _. constructor.
    - cbn [foldM] in E. apply bind_Ok in E. destruct E as ([v1 ev1] & E1 & E). assert (S : exists q e, v1 = v ++ q /\ ev1 = ev0 ++ e /\ shows st q e).
      { unfold body in E1. assert (Hs : is_space st s) by (apply R; left; auto).
        assert (S1 : forall r, shows st r ([space_event st s] ++ stored_events st (length v) r)) by (intros r0 Q A _ C; constructor; [apply A; auto|]; apply stored_all; auto).
        destruct (stype st s) as [[]|]; try discriminate.
        all: try (injection E1 as <- <-; rewrite <- app_assoc; do 2 eexists; split; [reflexivity|]; split; [reflexivity|]; apply S1; fail).
        apply general_shows in E1. destruct E1 as (r' & e & -> & -> & S). exists r', ([space_event st s] ++ e). rewrite app_assoc. split; auto. split; auto.
        intros Q A B C. constructor; [apply A; auto|]. apply S; auto. }
      destruct S as (q & e & -> & -> & S). apply IH in E; [|intros; apply R; right; auto]. destruct E as (q' & e' & -> & S'). exists (q ++ q'), (e ++ e'). rewrite !app_assoc. split; auto. apply shows_app; auto. }
  intros E. apply G in E. destruct E as (q & e & E & S). injection E as -> ->. cbn [app] in S. exists e. split; auto.
Qed.

(** ** Step 2 *)
Lemma process_erase st a k mn mx x : rmap fst (process_contraction_traced st a k mn mx x) = process_contraction a k mn mx (fst x).
Proof.
  destruct x as [b [n ev]]. unfold process_contraction_traced. cbn [fst]. destruct (process_contraction a k mn mx b) as [b'| | |]; cbn [bind rmap]; try reflexivity. destruct (_ && _); reflexivity.
Qed.
Lemma backtrack_erase d st els mn mx : forall a k x, rmap fst (backtrack_traced d st els mn mx a k x) = backtrack d st els mn mx a k (fst x).
Proof.
  induction d as [|d IH]; intros a k x; [reflexivity|]. cbn [backtrack_traced backtrack]. rewrite <- (process_erase st a k mn mx x).
  destruct (process_contraction_traced st a k mn mx x) as [x'| | |]; cbn [rmap bind]; try reflexivity.
  destruct (construct_candidates st a (k + 1) els (snd (fst x'))) as [cands| | |]; cbn [rmap bind]; try reflexivity.
  match goal with |- context [foldM ?g (a, x') cands] => set (G := g) end. match goal with |- context [foldM ?f (a, fst x') cands] => set (F := f) end.
  assert (E : rmap (fun y : list Z * tr_state => (fst y, fst (snd y))) (foldM G (a, x') cands) = foldM F (a, fst x') cands).
  { apply (foldM_rmap (fun y : list Z * tr_state => (fst y, fst (snd y)))). intros [a' [b t]] c _. unfold G, F. cbn [fst snd]. destruct (aset a' (k + 1 - 1) c) as [a1| | |]; cbn [bind rmap]; try reflexivity.
    assert (X := IH a1 (k + 1) ((fst b, move_sub st (snd b) (nth (Z.to_nat c) els [])), t)). cbn [fst] in X. rewrite <- X.
    destruct (backtrack_traced d st els mn mx a1 (k + 1) ((fst b, move_sub st (snd b) (nth (Z.to_nat c) els [])), t)) as [[b' t']| | |]; cbn [bind rmap fst]; try reflexivity.
    destruct (aset a1 (k + 1 - 1) (-1)); reflexivity. }
  rewrite <- E. destruct (foldM G (a, x') cands) as [[? ?]| | |]; reflexivity.
Qed.
Lemma step2_erase d st els ops mn mx : rmap fst (step2_traced d st els ops mn mx) = bind (composite_contractions d st els ops mn mx) (fun x => Ok (fst x)).
Proof.
  unfold step2_traced, composite_contractions. assert (X := backtrack_erase d st els mn mx (repeat (-1) 100) 0 (([], map op_gm ops), (0, step2_head))). cbn [fst] in X. rewrite <- X.
  destruct (backtrack_traced _ _ _ _ _ _ _ _) as [[[? ?] [? ?]]| | |]; reflexivity.
Qed.

Section C.
  Variables (st : osi) (ops : oprod) (els : list econ) (minrank maxrank : Z).
  Hypothesis OK : ops_ok st ops.
  Hypothesis ELS : Forall (fun c => con_shape st (length ops) c /\ forall A s, (A < length ops)%nat -> is_space st s -> 0 <= ec_cre c A s /\ 0 <= ec_ann c A s) els.
  (** The lines for the contractions [L], when [n] have been found before. *)
  Definition line2 (n : Z) (cv : list Z) : event := found_event st cv (Z.of_nat (length cv)) (free_of st ops els cv) n.
  Fixpoint lines2 (n : Z) (L : list (list Z)) : list event := match L with [] => [] | cv :: L' => line2 (n + 1) cv :: lines2 (n + 1) L' end.
  Lemma lines2_app n L L' : lines2 n (L ++ L') = lines2 n L ++ lines2 (n + Z.of_nat (length L)) L'.
  Proof. revert n. induction L as [|cv L IH]; intros n; [rewrite Z.add_0_r; reflexivity|]. cbn [app lines2 length]. rewrite IH, Nat2Z.inj_succ. do 3 f_equal. lia. Qed.

  Lemma trace2 d : forall pre a found n ev r, is_multiset els pre -> compatible st els ops pre -> firstn (length pre) a = pre -> length a = 100%nat ->
    backtrack_traced d st els minrank maxrank a (Z.of_nat (length pre)) ((found, free_of st ops els pre), (n, ev)) = Ok r ->
    exists L, r = ((found ++ L, free_of st ops els pre), (n + Z.of_nat (length L), ev ++ lines2 n L)).
  Proof.
    induction d as [|d IH]; intros pre a found n ev r Mp Cp Fa La E; [discriminate|]. cbn [backtrack_traced] in E. assert (Fp := proj2 Mp).
    assert (Lp : (length pre <= length a)%nat) by (assert (X := f_equal (@length Z) Fa); rewrite firstn_length in X; lia).
    set (Lself := if (minrank <=? left_over els ops pre) && (left_over els ops pre <=? maxrank) then [pre] else []).
    assert (Ep : process_contraction_traced st a (Z.of_nat (length pre)) minrank maxrank ((found, free_of st ops els pre), (n, ev)) =
      Ok ((found ++ Lself, free_of st ops els pre), (n + Z.of_nat (length Lself), ev ++ lines2 n Lself))).
    { unfold process_contraction_traced, process_contraction, Lself. cbn [snd]. rewrite (free_num st ops els OK ELS) by auto. destruct (_ && _); [|cbn [bind]; rewrite !app_nil_r, Z.add_0_r; reflexivity].
      destruct (Z.ltb_spec (Z.of_nat (length a)) (Z.of_nat (length pre))); [lia|]. cbn [bind]. rewrite Nat2Z.id, Fa. cbn [lines2 length]. unfold line2, found_event. rewrite Nat2Z.id, Fa, firstn_all. reflexivity. }
    rewrite Ep in E. cbn [bind fst snd] in E. destruct (candidates_spec st ops els OK ELS a pre Mp Fa Lp) as (cands & Ec & Nc & Ic). rewrite Ec in E. cbn [bind] in E.
    match type of E with context [foldM ?g _ _] => set (body := g) in E end.
    assert (B : forall l a' found' n' ev' r', incl l cands -> firstn (length pre) a' = pre -> length a' = 100%nat ->
      foldM body (a', ((found', free_of st ops els pre), (n', ev'))) l = Ok r' ->
      exists L, snd r' = ((found' ++ L, free_of st ops els pre), (n' + Z.of_nat (length L), ev' ++ lines2 n' L))).
    { clear E. induction l as [|c l IHl]; intros a' found' n' ev' r' Il Fa' La' E.
      - cbn in E. injection E as <-. exists []. cbn. rewrite !app_nil_r, Z.add_0_r. reflexivity.
      - assert (Hc : next_ok st ops els pre c) by (apply Ic, Il; simpl; auto).
        destruct (next_multiset st ops els pre c Mp Hc) as [Mc Cc]. cbn [foldM] in E. unfold body at 1 in E.
        replace (Z.of_nat (length pre) + 1 - 1) with (Z.of_nat (length pre)) in E by lia. rewrite aset_nat, La' in E.
        destruct (Nat.ltb_spec (length pre) 100) as [Lt|Ge]; cbn [bind fst snd] in E; try discriminate. rewrite <- free_snoc in E.
        replace (Z.of_nat (length pre) + 1) with (Z.of_nat (length (pre ++ [c]))) in E by (rewrite app_length; simpl; lia).
        assert (Fc : firstn (length (pre ++ [c])) (lset a' (length pre) c) = pre ++ [c]).
        { rewrite app_length, Nat.add_1_r. cbn [length]. rewrite (firstn_lset_S ops) by lia. rewrite Fa'. reflexivity. }
        destruct (backtrack_traced d st els minrank maxrank (lset a' (length pre) c) (Z.of_nat (length (pre ++ [c]))) ((found', free_of st ops els (pre ++ [c])), (n', ev'))) as [r1| | |] eqn:E1; cbn [bind] in E; try discriminate.
        destruct (IH (pre ++ [c]) _ _ _ _ _ Mc Cc Fc ltac:(rewrite lset_length; auto) E1) as (L1 & ->). cbn [fst snd] in E.
        rewrite aset_nat, lset_length, La' in E. destruct (Nat.ltb_spec (length pre) 100); [|lia]. cbn [bind] in E.
        rewrite free_snoc, (add_sub st ops els OK ELS) in E; [|apply (free_shape st ops els OK ELS); auto|apply Hc].
        apply IHl in E; [|intros x Hx; apply Il; right; auto|rewrite !(firstn_lset ops) by lia; exact Fa'|rewrite !lset_length; auto].
        destruct E as (L2 & ->). exists (L1 ++ L2). rewrite lines2_app, !app_assoc, app_length, Nat2Z.inj_add, Z.add_assoc. reflexivity. }
    match type of E with bind ?F _ = _ => destruct F as [[a' x']| | |] eqn:EF; cbn [bind] in E; try discriminate end. injection E as <-.
    destruct (B _ _ _ _ _ _ (fun x H => H) Fa La EF) as (L & EL). cbn [snd] in EL. subst x'. exists (Lself ++ L).
    rewrite lines2_app, !app_assoc, app_length, Nat2Z.inj_add, Z.add_assoc. reflexivity.
  Qed.
  (** What step 2 prints. *)
  Definition total_event (n : Z) : event := (Summary, Ok (nl ++ nl ++ str "    Total contractions: " ++ dec_text n ++ nl)).
  Lemma step2_events d cvs ev : step2_traced d st els ops minrank maxrank = Ok (cvs, ev) -> ev = step2_head ++ lines2 0 cvs ++ [total_event (Z.of_nat (length cvs))].
  Proof.
    unfold step2_traced. intros E. destruct (backtrack_traced _ _ _ _ _ _ _ _) as [r| | |] eqn:E1; cbn [bind] in E; try discriminate.
    apply (trace2 d []) in E1; [|split; constructor| |reflexivity|reflexivity].
    - destruct E1 as (L & ->). cbn [app] in E. injection E as <- <-. reflexivity.
    - intros A s HA Hs. simpl. destruct OK as [_ F]. rewrite Forall_forall in F. destruct (F (nth A ops (mkOp [] gm_zero))) as [_ N]; [apply nth_In; auto|]. apply N. exact Hs.
  Qed.
End C.
