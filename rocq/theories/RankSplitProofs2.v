(** Splitting the range of ranks (C76): the contractions and their sums. *)
From Coq Require Import ZArith QArith List Bool Arith Lia Permutation Sorted.
From Verif Require Import Res PartitionsModel RegistryModel CoreModel OrderProofs RationalModel RationalSpec RationalProofs AlgebraModel AlgebraSpec AlgebraProofs
  OperatorModel WickSearchModel WickSearchSpec WickElemProofs2 WickCompProofs WickSearchProofs WickEvalModel WickTotalProofs ContractShapeSpec ContractShapeProofs ContractShapeProofs2 ContractShapeProofs3 RankSplitSpec RankSplitProofs.
Import ListNotations.
Local Open Scope Z_scope.

(** ** Lists of outcomes *)
Fixpoint pick2 {A B} (q : A -> bool) (l : list A) (rs : list B) : list B :=
  match l, rs with x :: l', r :: rs' => if q x then r :: pick2 q l' rs' else pick2 q l' rs' | _, _ => [] end.
Lemma pick2_Forall2 {A B} (P P' : A -> B -> Prop) q l rs : (forall x r, In x l -> q x = true -> P x r -> P' x r) -> Forall2 P l rs -> Forall2 P' (filter q l) (pick2 q l rs).
Proof. intros I F. induction F as [|x r l rs Hx F IH]; cbn [filter pick2]; [constructor|]. destruct (q x) eqn:Q; [constructor; [apply I; auto; left; reflexivity|]|]; apply IH; intros y s Hy; apply I; right; exact Hy. Qed.
Lemma merge2 {A B} (P : A -> B -> Prop) q l : forall rs1 rs2, Forall2 P (filter q l) rs1 -> Forall2 P (filter (fun x => negb (q x)) l) rs2 ->
  exists rs, Forall2 P l rs /\ pick2 q l rs = rs1 /\ pick2 (fun x => negb (q x)) l rs = rs2.
Proof.
  induction l as [|x l IH]; intros rs1 rs2 F1 F2; cbn [filter] in *; [inversion F1; inversion F2; subst; exists []; repeat split; constructor|].
  destruct (q x) eqn:Q; cbn [negb] in *.
  - inversion F1 as [|? r ? rs1' Hx F1']; subst. destruct (IH _ _ F1' F2) as (rs & F & <- & <-). exists (r :: rs). cbn [pick2]. rewrite Q. cbn [negb]. repeat split. constructor; auto.
  - inversion F2 as [|? r ? rs2' Hx F2']; subst. destruct (IH _ _ F1 F2') as (rs & F & <- & <-). exists (r :: rs). cbn [pick2]. rewrite Q. cbn [negb]. repeat split. constructor; auto.
Qed.
Lemma pick2_Forall {A B} (P : A -> B -> Prop) (Q : B -> Prop) q l rs : Forall2 P l rs -> Forall Q (pick2 q l rs) -> Forall Q (pick2 (fun x => negb (q x)) l rs) -> Forall Q rs.
Proof.
  intros F. induction F as [|x r l rs Hx F IH]; cbn [pick2]; intros F1 F2; [constructor|]. destruct (q x); cbn [negb] in *; [inversion F1|inversion F2]; subst; constructor; auto.
Qed.

(** ** Sums of outcomes *)
Definition is_Ok {A} (r : res A) : Prop := exists x, r = Ok x.
Section Sums.
  Context {T : Type} (add : expression -> T -> expression) (get : T -> expression).
  Hypothesis Hadd : forall e x, add e x = mplus term_ltb e (get x).
  Notation step := (fun acc (r : res T) => bind r (fun l => Ok (add acc l))).
  Lemma fold_Ok rs acc : Forall is_Ok rs <-> is_Ok (foldM step acc rs).
  Proof.
    revert acc. induction rs as [|r rs IH]; intros acc; cbn [foldM]; [split; [eexists; reflexivity|constructor]|]. split.
    - intros F. inversion F as [|? ? (x & ->) F']; subst. cbn [bind]. apply IH. auto.
    - destruct r as [x| | |]; cbn [bind]; intros (y & E); try discriminate. constructor; [eexists; reflexivity|]. eapply IH. eexists. exact E.
  Qed.
  (** [q] selects the outcomes inside the range. *)
  Lemma fold_part {A} a b (q : A -> bool) l rs : length l = length rs -> (forall x r, In (x, Ok r) (combine l rs) -> rank_part a b (get r) = if q x then get r else []) ->
    forall acc e, msorted term_ltb acc -> foldM step acc rs = Ok e -> foldM step (rank_part a b acc) (pick2 q l rs) = Ok (rank_part a b e).
  Proof.
    revert rs. induction l as [|x l IH]; intros [|r rs] Hl Hr acc e S E; try discriminate Hl; cbn [pick2 foldM] in *; [injection E as <-; reflexivity|]. destruct r as [t| | |]; cbn [bind] in E; try discriminate.
    assert (Hp : forall k k', term_eqb k k' = true -> (fun t => (a <=? rank_of t) && (rank_of t <=? b)) k = (fun t => (a <=? rank_of t) && (rank_of t <=? b)) k') by (intros k k' X; cbn; rewrite (rank_eqb _ _ X); reflexivity).
    destruct (filter_mplus term_ltb term_eqb swo_term (fun t => (a <=? rank_of t) && (rank_of t <=? b)) Hp (get t) acc S) as (X1 & X2). rewrite <- Hadd in X1, X2.
    assert (E' := IH rs ltac:(injection Hl; auto) (fun y s Hy => Hr y s (or_intror Hy)) (add acc t) e X2 E). specialize (Hr x t (or_introl eq_refl)). change (filter _ (get t)) with (rank_part a b (get t)) in X1. rewrite Hr in X1.
    unfold rank_part at 1 in E'. rewrite X1 in E'. destruct (q x); cbn [foldM bind]; [rewrite Hadd|]; exact E'.
  Qed.
End Sums.
Lemma outcome_Ok rs acc : Forall is_Ok rs <-> is_Ok (foldM add_outcome acc rs).
Proof. apply (fold_Ok (fun e x => mplus term_ltb e x)). Qed.
Lemma result_Ok rs acc : Forall is_Ok rs <-> is_Ok (foldM add_result acc rs).
Proof. apply (fold_Ok (fun e x => mplus term_ltb e x)). Qed.
Lemma outcome_part {A} a b (q : A -> bool) l rs acc e : length l = length rs -> (forall x r, In (x, Ok r) (combine l rs) -> rank_part a b r = if q x then r else []) ->
  msorted term_ltb acc -> foldM add_outcome acc rs = Ok e -> foldM add_outcome (rank_part a b acc) (pick2 q l rs) = Ok (rank_part a b e).
Proof. intros Hl Hr. apply (fold_part (fun e x => mplus term_ltb e x) (fun x => x)); auto. Qed.
Lemma nil_sorted : msorted term_ltb [].
Proof. constructor. Qed.
Lemma part_all a b l : Forall (fun x : term * rational => a <= rank_of (fst x) <= b) l -> rank_part a b l = l.
Proof. intros F. unfold rank_part. induction F as [|x l Hx F IH]; [reflexivity|]. cbn [filter]. replace ((a <=? rank_of (fst x)) && (rank_of (fst x) <=? b)) with true by (symmetry; apply andb_true_iff; split; apply Z.leb_le; lia). congruence. Qed.
Lemma part_none a b l : Forall (fun x : term * rational => ~ (a <= rank_of (fst x) <= b)) l -> rank_part a b l = [].
Proof. intros F. unfold rank_part. induction F as [|x l Hx F IH]; [reflexivity|]. cbn [filter]. destruct (a <=? rank_of (fst x)) eqn:A, (rank_of (fst x) <=? b) eqn:B; cbn [andb]; auto. apply Z.leb_le in A, B. lia. Qed.
Lemma F2_combine {A B} (P : A -> B -> Prop) l rs x r : Forall2 P l rs -> In (x, r) (combine l rs) -> In x l /\ P x r.
Proof. intros F. induction F as [|y s l rs Hy F IH]; cbn [combine]; intros I; [destruct I|]; destruct I as [I|I]; [injection I as <- <-; split; [left|]; auto|]. destruct (IH I). split; [right|]; auto. Qed.
Lemma F2_length {A B} (P : A -> B -> Prop) l rs : Forall2 P l rs -> length l = length rs.
Proof. intros F. induction F; cbn [length]; auto. Qed.
Lemma filter_ext_in' {A} (f g : A -> bool) l : (forall x, In x l -> f x = g x) -> filter f l = filter g l.
Proof. apply filter_ext_in. Qed.

Section One.
  Context (o : wt_opts) (st : osi) (f : rational) (ops : oprod).
  Hypothesis Hok : ops_ok st ops.
  Lemma single_range els a b a' b' cv r : rank_in a b els ops cv = true -> rank_in a' b' els ops cv = true -> process_single o st els ops f a b cv r -> process_single o st els ops f a' b' cv r.
  Proof. unfold rank_in, process_single. cbn zeta. intros -> ->. auto. Qed.
  Lemma single_rank fuel els cvs a b cv l : search fuel o st ops a b = Ok (els, cvs) -> In cv cvs -> process_single o st els ops f a b cv (Ok l) -> Forall (fun x => rank_of (fst x) = ops_rank ops - con_rank els cv) l.
  Proof.
    intros E Hcv H. set (k := ops_rank ops - con_rank els cv). assert (R := search_ranks _ _ _ _ _ _ _ _ _ Hok E Hcv). assert (K : rank_in k k els ops cv = true) by (unfold rank_in; fold k; rewrite Z.leb_refl; reflexivity).
    assert (B : a <= k /\ k <= b) by (unfold rank_in in R; fold k in R; rewrite andb_true_iff, !Z.leb_le in R; exact R).
    assert (E' := search_part fuel o st ops k k a b els cvs Hok (proj1 B) (proj2 B) E).
    assert (Hcv' : In cv (filter (rank_in k k els ops) cvs)) by (apply filter_In; auto).
    assert (S := single_shape o st f ops k k Hok _ _ _ _ _ E' Hcv' (single_range _ _ _ _ _ _ _ R K H)). unfold keysP in S. eapply Forall_impl; [|exact S]. cbn. intros x Hx. destruct (co_rank _ _ _ _ _ _ Hx). unfold rank_of. lia.
  Qed.
  Lemma single_part fuel els cvs a b a' b' cv l : search fuel o st ops a' b' = Ok (els, cvs) -> In cv cvs -> process_single o st els ops f a' b' cv (Ok l) -> rank_part a b l = if rank_in a b els ops cv then l else [].
  Proof.
    intros E Hcv H. assert (R := single_rank _ _ _ _ _ _ _ E Hcv H). destruct (rank_in a b els ops cv) eqn:B; unfold rank_in in B.
    - apply andb_true_iff in B. rewrite !Z.leb_le in B. apply part_all. eapply Forall_impl; [|exact R]. cbn. intros x Hx. lia.
    - apply part_none. eapply Forall_impl; [|exact R]. cbn. intros x -> X. rewrite <- !Z.leb_le, <- andb_true_iff in X. congruence.
  Qed.
  (** Outcomes over a wide range, from those over a narrower one. *)
  Lemma wide_part fuel els cvs a b a' b' rs e : a' <= a -> b <= b' -> search fuel o st ops a' b' = Ok (els, cvs) -> Forall2 (process_single o st els ops f a' b') cvs rs -> foldM add_outcome [] rs = Ok e ->
    search fuel o st ops a b = Ok (els, filter (rank_in a b els ops) cvs) /\ Forall2 (process_single o st els ops f a b) (filter (rank_in a b els ops) cvs) (pick2 (rank_in a b els ops) cvs rs) /\
    foldM add_outcome [] (pick2 (rank_in a b els ops) cvs rs) = Ok (rank_part a b e).
  Proof.
    intros Ha Hb E F Er. split; [eapply search_part; eauto|]. split.
    - eapply pick2_Forall2; [|exact F]. intros x r Hx Q P. eapply single_range; [|exact Q|exact P]. eapply search_ranks; eauto.
    - change (@nil (term * rational)) with (rank_part a b []) at 1. apply outcome_part; auto using nil_sorted; [eapply F2_length; eauto|]. intros x r Hx. destruct (F2_combine _ _ _ _ _ F Hx) as (Hi & P). eapply single_part; eauto.
  Qed.
  Lemma contract_part a b a' b' r : a' <= a -> b <= b' -> contract o st f ops a' b' (Ok r) -> contract o st f ops a b (Ok (rank_part a b r)).
  Proof.
    intros Ha Hb (fuel & R & _). unfold contract_run in R. destruct (search fuel o st ops a' b') as [[els cvs]| | |] eqn:E; try discriminate. destruct R as (rs & F & Er).
    destruct (wide_part fuel els cvs a b a' b' rs r Ha Hb E F (eq_sym Er)) as (E' & F' & Er'). exists fuel. unfold contract_run. rewrite E'. split; [|discriminate]. eexists. split; [exact F'|auto].
  Qed.
  Lemma contract_extends a b a' b' r1 r' : a' <= a -> b <= b' -> contract o st f ops a b (Ok r1) -> contract o st f ops a' b' (Ok r') -> exists r, contract o st f ops a' b' (Ok r) /\ rank_part a b r = r1.
  Proof.
    intros Ha Hb (fuel1 & R1 & _) (fuel2 & R2 & _). unfold contract_run in R1, R2. destruct (search fuel1 o st ops a b) as [[els1 cvs1]| | |] eqn:E1; try discriminate. destruct (search fuel2 o st ops a' b') as [[els cvs]| | |] eqn:E2; try discriminate.
    destruct R1 as (rs1 & F1 & Er1), R2 as (rs2 & F2 & Er2). set (g := Nat.max fuel1 fuel2). apply (search_fuel _ g) in E1; [|unfold g; lia]. apply (search_fuel _ g) in E2; [|unfold g; lia].
    assert (E3 := search_part g o st ops a b a' b' els cvs Hok Ha Hb E2). rewrite E3 in E1. injection E1 as <- <-. set (q := rank_in a b els ops) in *.
    assert (F1' : Forall2 (process_single o st els ops f a' b') (filter q cvs) rs1).
    { assert (X : forall x, In x (filter q cvs) -> q x = true /\ rank_in a' b' els ops x = true) by (intros x Hx; apply filter_In in Hx; destruct Hx as (Hx & Q); split; auto; eapply search_ranks; eauto).
      clear - F1 X. induction F1 as [|x s l rs Hx F IH]; constructor; [|apply IH; intros y Hy; apply X; right; auto]. destruct (X x (or_introl eq_refl)) as (X1 & X2). exact (single_range els a b a' b' x s X1 X2 Hx). }
    assert (F2' : Forall2 (process_single o st els ops f a' b') (filter (fun x => negb (q x)) cvs) (pick2 (fun x => negb (q x)) cvs rs2)) by (eapply pick2_Forall2; [|exact F2]; auto).
    destruct (merge2 _ q cvs _ _ F1' F2') as (rs & F & P1 & P2). assert (O : Forall is_Ok rs).
    { eapply (pick2_Forall _ _ q); [exact F| |]; rewrite ?P1, ?P2; [apply (outcome_Ok rs1 []); rewrite <- Er1; eexists; reflexivity|].
      assert (O2 : Forall is_Ok rs2) by (apply (outcome_Ok rs2 []); rewrite <- Er2; eexists; reflexivity). clear - O2 F2. induction F2 as [|x s l rs Hx F IH]; cbn [pick2]; [constructor|]. inversion O2; subst. destruct (q x); cbn [negb]; auto. }
    apply (outcome_Ok rs []) in O. destruct O as (r & Er). exists r. split; [exists g; unfold contract_run; rewrite E2; split; [exists rs; auto|discriminate]|].
    destruct (wide_part g els cvs a b a' b' rs r Ha Hb E2 F Er) as (_ & _ & Er'). fold q in Er'. rewrite P1, <- Er1 in Er'. injection Er' as <-. reflexivity.
  Qed.
  (** Two adjacent ranges. *)
  Lemma contract_join a b c r1 r2 : a <= b + 1 -> b <= c -> contract o st f ops a b (Ok r1) -> contract o st f ops (b + 1) c (Ok r2) -> exists r, contract o st f ops a c (Ok r) /\ rank_part a b r = r1 /\ rank_part (b + 1) c r = r2.
  Proof.
    intros Ha Hb (fuel1 & R1 & _) (fuel2 & R2 & _). unfold contract_run in R1, R2. destruct (search fuel1 o st ops a b) as [[els cvs1]| | |] eqn:E1; try discriminate. destruct (search fuel2 o st ops (b + 1) c) as [[els2 cvs2]| | |] eqn:E2; try discriminate.
    destruct R1 as (rs1 & F1 & Er1), R2 as (rs2 & F2 & Er2). set (g := Nat.max fuel1 fuel2). apply (search_fuel _ g) in E1; [|unfold g; lia]. apply (search_fuel _ g) in E2; [|unfold g; lia].
    destruct (search_range g o st ops a b a c els cvs1 Hok E1) as (cvs & E). assert (E3 := search_part g o st ops a b a c els cvs Hok (Z.le_refl a) Hb E). assert (E4 := search_part g o st ops (b + 1) c a c els cvs Hok Ha (Z.le_refl c) E).
    rewrite E3 in E1. injection E1 as <-. rewrite E4 in E2. injection E2 as <- <-. set (q := rank_in a b els ops) in *.
    assert (Q : filter (rank_in (b + 1) c els ops) cvs = filter (fun x => negb (q x)) cvs).
    { apply filter_ext_in'. intros x Hx. assert (X := search_ranks _ _ _ _ _ _ _ _ _ Hok E Hx). unfold q, rank_in in *. apply andb_true_iff in X. rewrite !Z.leb_le in X.
      set (k := ops_rank ops - con_rank els x) in *. replace (a <=? k) with true by (symmetry; apply Z.leb_le; lia). replace (k <=? c) with true by (symmetry; apply Z.leb_le; lia). rewrite andb_true_r. cbn [andb]. destruct (Z.leb_spec (b + 1) k), (Z.leb_spec k b); cbn [negb]; auto; lia. }
    assert (G : forall b1 b2 rs l, (forall x, In x l -> In x cvs /\ rank_in b1 b2 els ops x = true) -> Forall2 (process_single o st els ops f b1 b2) l rs -> Forall2 (process_single o st els ops f a c) l rs).
    { intros b1 b2 rs l X F. clear - F X E Hok. induction F as [|x s l rs Hx F IH]; constructor; [|apply IH; intros y Hy; apply X; right; auto]. destruct (X x (or_introl eq_refl)). eapply single_range; [eauto|eapply search_ranks; eauto|exact Hx]. }
    apply G in F1; [|intros x Hx; apply filter_In in Hx; exact Hx]. apply G in F2; [|intros x Hx; apply filter_In in Hx; exact Hx]. rewrite Q in F2.
    destruct (merge2 _ q cvs _ _ F1 F2) as (rs & F & P1 & P2). assert (O : Forall is_Ok rs).
    { eapply (pick2_Forall _ _ q); [exact F| |]; rewrite ?P1, ?P2; [apply (outcome_Ok rs1 []); rewrite <- Er1|apply (outcome_Ok rs2 []); rewrite <- Er2]; eexists; reflexivity. }
    apply (outcome_Ok rs []) in O. destruct O as (r & Er). exists r. split; [exists g; unfold contract_run; rewrite E; split; [exists rs; auto|discriminate]|].
    destruct (wide_part g els cvs a b a c rs r (Z.le_refl a) Hb E F Er) as (_ & _ & Er'). fold q in Er'. rewrite P1, <- Er1 in Er'. injection Er' as <-. split; [reflexivity|].
    destruct (wide_part g els cvs (b + 1) c a c rs r Ha (Z.le_refl c) E F Er) as (_ & _ & Er''). assert (P3 : pick2 (rank_in (b + 1) c els ops) cvs rs = rs2).
    { rewrite <- P2. clear - Q F. revert Q F. generalize (rank_in (b + 1) c els ops). intros q'. revert rs. induction cvs as [|x l IH]; intros rs Q F; inversion F as [|? s ? rs' Hx F']; subst; cbn [filter pick2] in *; [reflexivity|].
      destruct (q' x) eqn:A, (q x) eqn:B; cbn [negb] in *.
      - exfalso. assert (X : In x (filter (fun x0 => negb (q x0)) l)) by (rewrite <- Q; left; reflexivity). apply filter_In in X. destruct X as (_ & X). rewrite B in X. discriminate.
      - injection Q as Q. f_equal. apply IH; auto.
      - apply IH; auto.
      - exfalso. assert (X : In x (filter q' l)) by (rewrite Q; left; reflexivity). apply filter_In in X. destruct X as (_ & X). congruence. }
    rewrite P3, <- Er2 in Er''. injection Er'' as <-. reflexivity.
  Qed.
  (** Ranges that exclude nothing. *)
  Lemma con_bounds fuel els cvs a b cv : search fuel o st ops a b = Ok (els, cvs) -> In cv cvs -> 0 <= ops_rank ops - con_rank els cv <= ops_rank ops.
  Proof.
    intros E Hcv. destruct (search_inv _ _ _ _ _ _ _ _ E) as (E8 & E1 & x & E2).
    destruct (search_spec st ops els a b Hok (els_ok fuel st (wt_maxcumulant o) ops els Hok E1) 101 (le_n _)) as [(L & E4 & _ & I & _)|(E4 & _)]; [|congruence]. rewrite E2 in E4. injection E4 as <- _.
    apply I in Hcv. destruct Hcv as ((M & C) & _). split; [rewrite <- left_rank; eapply left_over_nonneg; eauto|]. rewrite con_used. assert (X := short_enough fuel st (wt_maxcumulant o) ops els Hok E1 cv M C). assert (Y := left_over_nonneg fuel st (wt_maxcumulant o) ops els Hok E1 cv M C).
    destruct M as (_ & Fa). clear - Fa E1 Hok. enough (0 <= used ec_num_ops els cv) by lia. induction Fa as [|c cs Hc F IH]; [cbn; lia|]. cbn [used]. assert (2 <= ec_num_ops (nth (Z.to_nat c) els [])); [|lia].
    apply (allowed_legs st (wt_maxcumulant o) ops); auto. eapply els_allowed; eauto. apply nth_In. lia.
  Qed.
  Lemma search_all fuel a b a' b' : a <= 0 -> ops_rank ops <= b -> a' <= 0 -> ops_rank ops <= b' -> search fuel o st ops a b = search fuel o st ops a' b'.
  Proof.
    intros Ha Hb Ha' Hb'. destruct (search fuel o st ops a b) as [[els cvs]| | |] eqn:E.
    - set (lo := Z.min a a'). set (hi := Z.max b b'). destruct (search_range fuel o st ops a b lo hi els cvs Hok E) as (cvw & Ew).
      assert (X : forall c d, c <= 0 -> ops_rank ops <= d -> filter (rank_in c d els ops) cvw = cvw).
      { intros c d Hc Hd. assert (Y : forall x, In x cvw -> rank_in c d els ops x = true) by (intros x Hx; destruct (con_bounds _ _ _ _ _ _ Ew Hx); unfold rank_in; apply andb_true_iff; split; apply Z.leb_le; lia).
        clear - Y. induction cvw as [|x l IH]; [reflexivity|]. cbn [filter]. rewrite (Y x (or_introl eq_refl)). f_equal. apply IH. intros y Hy. apply Y. right. auto. }
      assert (E1 := search_part fuel o st ops a b lo hi els cvw Hok ltac:(lia) ltac:(lia) Ew). assert (E2 := search_part fuel o st ops a' b' lo hi els cvw Hok ltac:(lia) ltac:(lia) Ew). rewrite X in E1, E2 by auto. congruence.
    - exfalso. unfold search in E. rewrite (spaces_8 st ops Hok) in E. destruct (elementary_Ok fuel st (wt_maxcumulant o) ops Hok) as [X|(els & X)]; rewrite X in E; cbn [bind] in E; [discriminate|].
      destruct (search_spec st ops els a b Hok (els_ok fuel st (wt_maxcumulant o) ops els Hok X) 101 (le_n _)) as [(L & -> & _)|(-> & _)] in E; cbn [bind] in E; discriminate.
    - unfold search in *. rewrite (spaces_8 st ops Hok) in *. destruct (elementary_Ok fuel st (wt_maxcumulant o) ops Hok) as [X|(els & X)]; rewrite X in *; cbn [bind] in *; [discriminate|].
      destruct (search_spec st ops els a b Hok (els_ok fuel st (wt_maxcumulant o) ops els Hok X) 101 (le_n _)) as [(L & Y & _)|(Y & cs & M & C & Lc)]; rewrite Y in E; cbn [bind] in E; [discriminate|].
      destruct (search_spec st ops els a' b' Hok (els_ok fuel st (wt_maxcumulant o) ops els Hok X) 101 (le_n _)) as [(L & _ & _ & _ & B)|(-> & _)]; [|reflexivity]. specialize (B cs M C). lia.
    - unfold search in *. rewrite (spaces_8 st ops Hok) in *. destruct (elementary_Ok fuel st (wt_maxcumulant o) ops Hok) as [X|(els & X)]; rewrite X in *; cbn [bind] in *; [reflexivity|].
      destruct (search_spec st ops els a b Hok (els_ok fuel st (wt_maxcumulant o) ops els Hok X) 101 (le_n _)) as [(L & Y & _)|(Y & _)]; rewrite Y in E; cbn [bind] in E; discriminate.
  Qed.
  Lemma contract_all a b a' b' r : a <= 0 -> ops_rank ops <= b -> a' <= 0 -> ops_rank ops <= b' -> contract o st f ops a b r -> contract o st f ops a' b' r.
  Proof.
    intros Ha Hb Ha' Hb' (fuel & R & N). exists fuel. unfold contract_run in *. rewrite (search_all fuel a' b' a b) by auto. split; [|exact N]. destruct (search fuel o st ops a b) as [[els cvs]| | |] eqn:E; auto.
    destruct R as (rs & F & Er). exists rs. split; [|exact Er]. assert (X : forall x, In x cvs -> rank_in a b els ops x = true /\ rank_in a' b' els ops x = true) by (intros x Hx; destruct (con_bounds _ _ _ _ _ _ E Hx); unfold rank_in; rewrite !andb_true_iff, !Z.leb_le; lia).
    clear - F X. induction F as [|x s l rs Hx F IH]; constructor; [|apply IH; intros y Hy; apply X; right; auto]. destruct (X x (or_introl eq_refl)) as (X1 & X2). exact (single_range els a b a' b' x s X1 X2 Hx).
  Qed.
End One.
