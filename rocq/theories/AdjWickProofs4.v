(** C77: adjoint products: rank, labels, numbers of legs. *)
From Coq Require Import ZArith List Bool Lia Permutation.
From Verif Require Import Res RationalModel RegistryModel CoreModel OrderProofs AlgebraModel AlgebraSpec AlgebraProofs OperatorModel OperatorSpec AdjointProofs WickSearchModel WickSearchSpec CountProofs WickCombSpec WickCombProofs WickPairSpec WickEvalModel WickGeneralExample.
Import ListNotations.
Local Open Scope Z_scope.

Lemma opadj_spec st o : (nsp st <= max_spaces)%nat -> op_valid st o ->
  op_valid st (opadj st o) /\ op_label (opadj st o) = op_label o /\ op_num (opadj st o) = op_num o /\
  forall s, is_space st s -> cre_of (op_gm (opadj st o)) s = ann_of (op_gm o) s /\ ann_of (op_gm (opadj st o)) s = cre_of (op_gm o) s.
Proof.
  intros Hn V. destruct (op_adjoint_spec st o Hn V) as (o' & E & V' & _ & L & N & C). unfold opadj. rewrite E. auto.
Qed.
Lemma prodadj_ops_ok st ops : ops_ok st ops -> ops_ok st (prodadj st ops).
Proof.
  intros [Hn F]. split; [exact Hn|]. apply Forall_forall. intros o Ho. unfold prodadj in Ho. apply in_rev in Ho. apply in_map_iff in Ho as (q & <- & Hq).
  rewrite Forall_forall in F. destruct (F q Hq) as [V N]. destruct (opadj_spec st q Hn V) as (V' & _ & _ & C). split; [exact V'|].
  intros s Hs. destruct (C s Hs) as [-> ->]. destruct (N s Hs). split; assumption.
Qed.
Lemma prodadj_in st ops o : ops_ok st ops -> In o (prodadj st ops) -> exists q, In q ops /\ op_label o = op_label q.
Proof.
  intros [Hn F] Ho. unfold prodadj in Ho. apply in_rev in Ho. apply in_map_iff in Ho as (q & <- & Hq). rewrite Forall_forall in F.
  exists q. split; [exact Hq|]. apply opadj_spec; [exact Hn|apply F, Hq].
Qed.
Lemma ops_rank_acc ops a : fold_left (fun z op => z + op_num op) ops a = a + fold_left (fun z op => z + op_num op) ops 0.
Proof. revert a. induction ops as [|o ops IH]; intros a; simpl; [lia|]. rewrite IH, (IH (op_num o)). lia. Qed.
Lemma ops_rank_app a b : ops_rank (a ++ b) = ops_rank a + ops_rank b.
Proof. unfold ops_rank. rewrite fold_left_app, ops_rank_acc. reflexivity. Qed.
Lemma ops_rank_cons o a : ops_rank (o :: a) = op_num o + ops_rank a.
Proof. unfold ops_rank. simpl. rewrite ops_rank_acc. lia. Qed.
Lemma prodadj_rank st ops : ops_ok st ops -> ops_rank (prodadj st ops) = ops_rank ops.
Proof.
  intros [Hn F]. unfold prodadj. induction F as [|o ops [V _] F IH]; [reflexivity|]. simpl. rewrite ops_rank_app, !ops_rank_cons, IH.
  destruct (opadj_spec st o Hn V) as (_ & _ & -> & _). change (ops_rank []) with 0. lia.
Qed.
Lemma prodadj_length st ops : length (prodadj st ops) = length ops.
Proof. unfold prodadj. rewrite rev_length, map_length. reflexivity. Qed.
Lemma prodadj_count st ops A s : ops_ok st ops -> (A < length ops)%nat -> is_space st s ->
  ops_cre (prodadj st ops) A s = ops_ann ops (length ops - 1 - A) s /\ ops_ann (prodadj st ops) A s = ops_cre ops (length ops - 1 - A) s.
Proof.
  intros [Hn F] HA Hs. unfold ops_cre, ops_ann, prodadj. set (d := mkOp [] gm_zero).
  rewrite rev_nth by (rewrite map_length; exact HA). rewrite map_length.
  rewrite (nth_indep _ d (opadj st d)) by (rewrite map_length; lia). rewrite map_nth. replace (length ops - 1 - A)%nat with (length ops - S A)%nat by lia.
  assert (V : op_valid st (nth (length ops - S A) ops d)) by (rewrite Forall_forall in F; apply F, nth_In; lia).
  destruct (opadj_spec st _ Hn V) as (_ & _ & _ & C). apply C, Hs.
Qed.
Lemma prodadj_double st ops : ops_ok st ops -> at_most_double st ops -> at_most_double st (prodadj st ops).
Proof.
  intros O D A B s H Hs. rewrite prodadj_length in H. destruct (prodadj_count st ops A s O ltac:(lia) Hs) as [-> ->]. destruct (prodadj_count st ops B s O ltac:(lia) Hs) as [-> ->].
  destruct (D (length ops - 1 - B)%nat (length ops - 1 - A)%nat s ltac:(lia) Hs) as [D1 D2]. split; intros E; [specialize (D1 E)|specialize (D2 E)]; tauto.
Qed.
Lemma prodadj_few st ops : ops_ok st ops -> few_legs st ops -> few_legs st (prodadj st ops).
Proof.
  intros O D A B s HA HB N Hs. rewrite prodadj_length in HA, HB. destruct (prodadj_count st ops A s O ltac:(lia) Hs) as [-> _]. destruct (prodadj_count st ops B s O ltac:(lia) Hs) as [_ ->].
  destruct (D (length ops - 1 - B)%nat (length ops - 1 - A)%nat s ltac:(lia) ltac:(lia) ltac:(lia) Hs); tauto.
Qed.
Lemma ops_ok_valid st ops : ops_ok st ops -> oprod_valid st ops.
Proof. intros [_ F]. eapply Forall_impl; [|exact F]. intros o [V _]. exact V. Qed.
Lemma prodadj_eq st ops ops' : ops_ok st ops -> oprod_adjoint st ops = Ok ops' -> ops' = prodadj st ops.
Proof. intros O E. destruct (oprod_adjoint_ok st ops (proj1 O) (ops_ok_valid st ops O)) as [E' _]. congruence. Qed.
(** The keys of the adjoint expression are the adjoints of keys. *)
Lemma opexpr_adjoint_keys st e e' : (nsp st <= max_spaces)%nat -> opexpr_valid st e -> mcanon e -> opexpr_adjoint st e = Ok e' ->
  mcanon e' /\ forall x', In x' e' -> exists x, In x e /\ fst x' = prodadj st (fst x).
Proof.
  intros Hn V C E. rewrite opexpr_adjoint_ok in E by assumption. injection E as <-. split; [apply (rekey_wf oprod_ltb oprod_eqb swo_oprod); exact C|].
  assert (KP : keysP (fun p => exists x, In x e /\ p = prodadj st (fst x)) (rekey oprod_ltb (prodadj st) e)).
  { unfold rekey. apply (keysP_addall oprod_ltb _ (fun x => prodadj st (fst x)) snd); [|constructor]. apply Forall_forall. intros x Hx. exists x. auto. }
  unfold keysP in KP. rewrite Forall_forall in KP. exact KP.
Qed.
