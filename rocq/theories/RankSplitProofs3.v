(** Splitting the range of ranks (C76): sums of products. *)
From Coq Require Import ZArith QArith List Bool Arith Lia Permutation Sorted.
From Verif Require Import Res PartitionsModel RegistryModel CoreModel OrderProofs RationalModel RationalSpec RationalProofs AlgebraModel AlgebraSpec AlgebraProofs
  OperatorModel WickSearchModel WickSearchSpec WickEvalModel ContractShapeSpec ContractShapeProofs ContractShapeProofs2 ContractShapeProofs3 RankSplitSpec RankSplitProofs RankSplitProofs2.
Import ListNotations.
Local Open Scope Z_scope.

Lemma rank_resp a b k k' : term_eqb k k' = true -> (fun t => (a <=? rank_of t) && (rank_of t <=? b)) k = (fun t => (a <=? rank_of t) && (rank_of t <=? b)) k'.
Proof. intros X. cbn. rewrite (rank_eqb _ _ X). reflexivity. Qed.
Lemma part_mplus a b acc e : msorted term_ltb acc -> rank_part a b (mplus term_ltb acc e) = mplus term_ltb (rank_part a b acc) (rank_part a b e) /\ msorted term_ltb (mplus term_ltb acc e).
Proof. intros S. exact (filter_mplus term_ltb term_eqb swo_term _ (rank_resp a b) e acc S). Qed.
(** A sum is the sum of two adjacent parts. *)
Lemma join_parts a b c r : a <= b + 1 -> b <= c -> wf term_ltb r -> keysP (fun t => a <= rank_of t <= c) r -> r = mplus term_ltb (rank_part a b r) (rank_part (b + 1) c r).
Proof.
  intros Ha Hb W K. replace (rank_part (b + 1) c r) with (filter (fun x => negb ((fun x : term * rational => (a <=? rank_of (fst x)) && (rank_of (fst x) <=? b)) x)) r).
  - symmetry. exact (mplus_parts term_ltb term_eqb swo_term _ r W).
  - unfold rank_part. apply filter_ext_in'. intros x Hx. unfold keysP in K. rewrite Forall_forall in K. specialize (K x Hx). set (k := rank_of (fst x)) in *.
    replace (a <=? k) with true by (symmetry; apply Z.leb_le; lia). replace (k <=? c) with true by (symmetry; apply Z.leb_le; lia). rewrite andb_true_r. cbn [andb]. destruct (Z.leb_spec (b + 1) k), (Z.leb_spec k b); cbn [negb]; auto; lia.
Qed.
Lemma contract_ranks o st f ops a b r : ops_ok st ops -> contract o st f ops a b (Ok r) -> keysP (fun t => a <= rank_of t <= b) r.
Proof. intros Hok H. assert (S := contract_shape o st f ops a b Hok r H). unfold keysP in *. eapply Forall_impl; [|exact S]. cbn. intros x Hx. exact (co_rank _ _ _ _ _ _ Hx). Qed.
Lemma contract_split o st f ops a b c r : ops_ok st ops -> canonical f -> a <= b + 1 -> b <= c ->
  contract o st f ops a c (Ok r) <-> exists r1 r2, contract o st f ops a b (Ok r1) /\ contract o st f ops (b + 1) c (Ok r2) /\ r = mplus term_ltb r1 r2.
Proof.
  intros Hok Cf Ha Hb. split.
  - intros H. exists (rank_part a b r), (rank_part (b + 1) c r). split; [eapply contract_part; eauto; lia|]. split; [eapply contract_part; eauto; lia|]. apply join_parts; auto; [eapply contract_wf; eauto|eapply contract_ranks; eauto].
  - intros (r1 & r2 & H1 & H2 & ->). destruct (contract_join o st f ops Hok a b c r1 r2 Ha Hb H1 H2) as (r & H & <- & <-). rewrite <- join_parts; auto; [eapply contract_wf; eauto|eapply contract_ranks; eauto].
Qed.

(** ** Sums *)
Definition res_part (a b : Z) (r : res expression) : res expression := bind r (fun e => Ok (rank_part a b e)).
Lemma results_part a b rs : forall acc e, msorted term_ltb acc -> foldM add_result acc rs = Ok e -> foldM add_result (rank_part a b acc) (map (res_part a b) rs) = Ok (rank_part a b e).
Proof.
  induction rs as [|r rs IH]; intros acc e S E; cbn [foldM map] in *; [injection E as <-; reflexivity|]. destruct r as [x| | |]; cbn [bind add_result res_part] in *; try discriminate. destruct (part_mplus a b acc x S) as (X & S'). rewrite <- X. apply IH; auto.
Qed.
Lemma results_Ok (l : list (res expression)) e : foldM add_result [] l = Ok e -> exists es, l = map Ok es.
Proof.
  intros E. assert (F : Forall is_Ok l) by (apply (result_Ok l []); eexists; exact E). clear E. induction F as [|r l (x & ->) F (es & ->)]; [exists []; reflexivity|]. exists (x :: es). reflexivity.
Qed.
Section Expr.
  Context (o : wt_opts) (st : osi) (f : rational).
  Lemma expr_part e a b a' b' r : Forall (fun x => ops_ok st (fst x)) e -> a' <= a -> b <= b' -> contract_expr o st f e a' b' (Ok r) -> contract_expr o st f e a b (Ok (rank_part a b r)).
  Proof.
    intros Hok Ha Hb (rs & F & E). exists (map (res_part a b) rs). split; [|symmetry; apply (results_part a b rs [] r); auto using nil_sorted].
    destruct (results_Ok rs r (eq_sym E)) as (es & ->). clear E. revert es F. induction Hok as [|x l Hx Hok IH]; intros [|y es] F; inversion F; subst; cbn [map]; constructor; [|apply IH; auto]. cbn [res_part bind]. eapply contract_part; eauto.
  Qed.
  Lemma expr_extends e a b a' b' r1 r' : Forall (fun x => ops_ok st (fst x)) e -> a' <= a -> b <= b' -> contract_expr o st f e a b (Ok r1) -> contract_expr o st f e a' b' (Ok r') ->
    exists r, contract_expr o st f e a' b' (Ok r) /\ rank_part a b r = r1.
  Proof.
    intros Hok Ha Hb (rs1 & F1 & E1) (rs2 & F2 & E2). destruct (results_Ok rs1 r1 (eq_sym E1)) as (es1 & ->). destruct (results_Ok rs2 r' (eq_sym E2)) as (es2 & ->). clear E2.
    assert (X : exists es, Forall2 (fun x r => contract o st (rat_mul f (snd x)) (fst x) a' b' r) e (map Ok es) /\ map (rank_part a b) es = es1).
    { clear E1. revert es1 es2 F1 F2. induction Hok as [|x l Hx Hok IH]; intros [|y es1] [|z es2] F1 F2; inversion F1; inversion F2; subst; [exists []; split; [constructor|reflexivity]|].
      destruct (IH es1 es2) as (es & G1 & <-); auto. destruct (contract_extends o st (rat_mul f (snd x)) (fst x) Hx a b a' b' y z) as (w & W1 & <-); auto. exists (w :: es). split; [constructor; auto|reflexivity]. }
    destruct X as (es & F & <-). assert (O : is_Ok (foldM add_result [] (map Ok es))) by (apply result_Ok; clear; induction es; cbn [map]; constructor; auto; eexists; reflexivity).
    destruct O as (r & Er). exists r. split; [exists (map Ok es); auto|]. assert (P := results_part a b _ [] r nil_sorted Er). rewrite map_map in P. cbn [res_part bind] in P. rewrite <- (map_map (rank_part a b) Ok) in P. change (rank_part a b []) with (@nil (term * rational)) in P. rewrite P in E1. injection E1 as <-. reflexivity.
  Qed.
  Lemma expr_ranks e a b r : Forall (fun x => ops_ok st (fst x)) e -> contract_expr o st f e a b (Ok r) -> keysP (fun t => a <= rank_of t <= b) r.
  Proof. intros Hok H. assert (S := contract_expr_shape o st f e a b r Hok H). unfold keysP in *. eapply Forall_impl; [|exact S]. cbn. intros x (y & _ & Hx). exact (co_rank _ _ _ _ _ _ Hx). Qed.
  Lemma expr_split e a b c r : Forall (fun x => ops_ok st (fst x) /\ canonical (snd x)) e -> canonical f -> a <= b + 1 -> b <= c ->
    contract_expr o st f e a c (Ok r) <-> exists r1 r2, contract_expr o st f e a b (Ok r1) /\ contract_expr o st f e (b + 1) c (Ok r2) /\ r = mplus term_ltb r1 r2.
  Proof.
    intros Hok2 Cf Ha Hb. assert (Hok : Forall (fun x => ops_ok st (fst x)) e) by (eapply Forall_impl; [|exact Hok2]; cbn; tauto). split.
    - intros H. exists (rank_part a b r), (rank_part (b + 1) c r). split; [eapply expr_part; eauto; lia|]. split; [eapply expr_part; eauto; lia|]. apply join_parts; auto; [eapply contract_expr_wf; eauto|eapply expr_ranks; eauto].
    - intros (r1 & r2 & (rs1 & F1 & E1) & (rs2 & F2 & E2) & ->). destruct (results_Ok rs1 r1 (eq_sym E1)) as (es1 & ->). destruct (results_Ok rs2 r2 (eq_sym E2)) as (es2 & ->).
      assert (X : exists es, Forall2 (fun x r => contract o st (rat_mul f (snd x)) (fst x) a c r) e (map Ok es) /\ map (rank_part a b) es = es1 /\ map (rank_part (b + 1) c) es = es2).
      { clear E1 E2 Hok2. revert es1 es2 F1 F2. induction Hok as [|x l Hx Hok IH]; intros [|y es1] [|z es2] F1 F2; inversion F1; inversion F2; subst; [exists []; split; [constructor|auto]|].
        destruct (IH es1 es2) as (es & G1 & <- & <-); auto. destruct (contract_join o st (rat_mul f (snd x)) (fst x) Hx a b c y z) as (w & W1 & <- & <-); auto. exists (w :: es). split; [constructor; auto|auto]. }
      destruct X as (es & F & <- & <-). assert (O : is_Ok (foldM add_result [] (map Ok es))) by (apply result_Ok; clear; induction es; cbn [map]; constructor; auto; eexists; reflexivity).
      destruct O as (r & Er). assert (H : contract_expr o st f e a c (Ok r)) by (exists (map Ok es); auto).
      assert (P := results_part a b _ [] r nil_sorted Er). rewrite map_map in P. cbn [res_part bind] in P. rewrite <- (map_map (rank_part a b) Ok) in P. change (rank_part a b []) with (@nil (term * rational)) in P. rewrite P in E1. injection E1 as ->.
      assert (P' := results_part (b + 1) c _ [] r nil_sorted Er). rewrite map_map in P'. cbn [res_part bind] in P'. rewrite <- (map_map (rank_part (b + 1) c) Ok) in P'. change (rank_part (b + 1) c []) with (@nil (term * rational)) in P'. rewrite P' in E2. injection E2 as ->.
      rewrite <- join_parts; auto; [eapply contract_expr_wf; eauto|eapply expr_ranks; eauto].
  Qed.
  Lemma expr_all e a b a' b' r : Forall (fun x => ops_ok st (fst x)) e -> a <= 0 -> a' <= 0 -> Forall (fun x => ops_rank (fst x) <= b /\ ops_rank (fst x) <= b') e -> contract_expr o st f e a b r -> contract_expr o st f e a' b' r.
  Proof.
    intros Hok Ha Ha' Hb (rs & F & E). exists rs. split; [|exact E]. clear E. induction F as [|x y l rs Hx F IH]; constructor; inversion Hok; inversion Hb; subst; auto. eapply contract_all; [| | | | |exact Hx]; tauto.
  Qed.
End Expr.
