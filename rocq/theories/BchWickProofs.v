(** C74: the products of commutators and of the BCH series. *)
Set Warnings "-notation-overridden,-ambiguous-paths".
From Coq Require Import ZArith QArith_base List Lia.
From mathcomp Require Import all_ssreflect ssralg.
From Verif Require Import Res RationalModel RationalSpec RationalProofs RegistryModel CoreModel OrderProofs AlgebraModel AlgebraSpec AlgebraProofs AlgebraProofs2
  OperatorModel OperatorSpec OperatorProofs OperatorProofs2 OperatorProofs3 SortSpec ScalarSem LadderSpec WickSearchModel WickSearchSpec WickEvalModel WickPairSpec WickTheoremSpec BchWickSpec.
Set Implicit Arguments.
Unset Strict Implicit.
Unset Printing Implicit Defensive.

Lemma rank_fold ops z : fold_left (fun a op => (a + op_num op)%Z) ops z = (z + ops_rank ops)%Z.
Proof.
  rewrite /ops_rank. suff G : forall y, fold_left (fun a op => (a + op_num op)%Z) ops y = (y + fold_right (fun o z => (op_num o + z)%Z) Z0 ops)%Z by rewrite !G; lia.
  elim: ops => [|o ops IH] y; cbn [fold_left fold_right]; first by lia. rewrite IH. lia.
Qed.
Lemma rank_app p q : ops_rank (p ++ q)%list = (ops_rank p + ops_rank q)%Z.
Proof. by rewrite {1}/ops_rank fold_left_app rank_fold. Qed.

(** Keys of products and commutators. *)
Lemma prod_keys (P Q R : oprod -> Prop) a b r : (forall p q, P p -> Q q -> R (p ++ q)%list) -> keysP P a -> keysP Q b -> mprod oprod_ltb oprod_mul a b = Ok r -> keysP R r.
Proof.
  move=> H Ka Kb. rewrite /mprod.
  have In1 : forall x (r0 r1 : opexpr), P x.1 -> keysP R r0 -> foldM (fun r y => bind (oprod_mul x.1 y.1) (fun k => Ok (madd oprod_ltb k (rat_mul x.2 y.2) r))) r0 b = Ok r1 -> keysP R r1.
  { move=> x. elim: b Kb => [|y b IH] Kb r0 r1 Px K0 /=; first by move=> [<-]. inversion Kb; subst. move=> E. apply: (IH _ _ _ Px _ E) => //. apply: keysP_madd => //. exact: H. }
  suff G : forall r0 : opexpr, keysP R r0 -> foldM (fun r x => foldM (fun r y => bind (oprod_mul x.1 y.1) (fun k => Ok (madd oprod_ltb k (rat_mul x.2 y.2) r))) r b) r0 a = Ok r -> keysP R r by apply: G; constructor.
  elim: a Ka => [|x a IH] Ka r0 K0 /=; first by move=> [<-]. inversion Ka; subst. case E: (foldM _ r0 b) => [r1| | |] //= X. by apply: (IH _ r1) => //; apply: In1 E.
Qed.
Lemma commutator_keys (P Q R : oprod -> Prop) a b r : (forall p q, P p -> Q q -> R (p ++ q)%list /\ R (q ++ p)%list) -> keysP P a -> keysP Q b -> op_commutator a b = Ok r -> keysP R r.
Proof.
  move=> H Ka Kb. rewrite /op_commutator. case E1: (mprod _ _ a b) => [ab| | |] //=. case E2: (mprod _ _ b a) => [ba| | |] //= [<-].
  apply: keysP_mminus; [apply: (prod_keys _ Ka Kb E1)|apply: (prod_keys _ Kb Ka E2)]; move=> p q Pp Qq; by case: (H _ _ Pp Qq) || case: (H _ _ Qq Pp).
Qed.
Lemma commutator_args_keys (R : oprod -> Prop) l a r : (forall p q, R p -> R q -> R (p ++ q)%list) -> keysP R a -> List.Forall (keysP R) l -> commutator_args (a :: l) = Ok r -> keysP R r.
Proof.
  move=> H. rewrite /commutator_args. elim: l a => [|b l IH] a Ka Kl /=; first by move=> [<-]. inversion Kl; subst. case E: (op_commutator a b) => [c| | |] //= X.
  apply: (IH c) => //. apply: (commutator_keys (P := R) (Q := R) _ Ka _ E) => // p q Pp Pq. by split; apply: H.
Qed.
Lemma bch_keys (P : nat -> oprod -> Prop) (Q R : oprod -> Prop) a b n r : (forall k p q, P k p -> Q q -> P k.+1 (p ++ q)%list /\ P k.+1 (q ++ p)%list) ->
  (forall k p, (k <= Z.to_nat n)%N -> P k p -> R p) -> keysP (P 0%N) a -> keysP Q b -> bch_series a b n = Ok r -> keysP R r.
Proof.
  move=> H HR Ka Kb. rewrite /bch_series.
  suff G : forall todo k z temp res, (k + todo <= Z.to_nat n)%N -> keysP (P k) temp -> keysP R res -> bch_loop todo z temp b res = Ok r -> keysP R r.
  { apply: (G _ 0%N) => //. apply: keysP_mplus; first by constructor. apply: List.Forall_impl Ka => x. exact: HR. }
  elim=> [|todo IH] k z temp res L Kt Kr /=; first by move=> [<-]. case E: (op_commutator temp b) => [c| | |] //=. apply: IH (k.+1) _ _ _ _ _ _; first by rewrite addSnnS.
  - apply: keysP_mscale. by apply: (commutator_keys (P := P k) (Q := Q) _ Kt Kb E) => p q; apply: H.
  - apply: keysP_mplus => //. apply: keysP_mscale. apply: List.Forall_impl (commutator_keys (P := P k) (Q := Q) (R := P k.+1) _ Kt Kb E) => [x|p q]; last exact: H.
    apply: HR. apply: leq_trans L. by rewrite addnS ltnS leq_addr.
Qed.

(** ** Products of operators of two expressions *)
Section Products.
  Variables (K : fieldType) (orb : eqType) (st : osi) (T : text -> seq (Z * orb) -> seq (Z * orb) -> bool -> K).
  Lemma good_product (S : oper -> Prop) p : (nsp st <= max_spaces)%coq_nat -> (forall o, S o -> op_valid st o /\ nonneg_counts st o /\ antisymmetric_tensor T (op_label o)) ->
    (forall o o', S o -> S o' -> twice_at_most st o o') -> (forall o, In o p -> S o) -> product_ok st T p.
  Proof.
    move=> N V D H. split; last split.
    - split=> //. apply/List.Forall_forall => o /H /V [? [? _]]. by split.
    - move=> i j s [Lij Lj] Hs. have In' k : (k < length p)%coq_nat -> In (List.nth k p (mkOp [::] gm_zero)) p by exact: List.nth_In.
      have := D _ _ (H _ (In' i ltac:(lia))) (H _ (In' j Lj)) s Hs. by [].
    - by move=> o /H /V [_ []].
  Qed.
End Products.
Lemma two_body_links st a b : (forall o, operators_of a o -> two_body st o) -> (forall o, operators_of b o -> two_body st o \/ only_excites st o) ->
  forall o o', operators_of a o \/ operators_of b o -> operators_of a o' \/ operators_of b o' -> twice_at_most st o o'.
Proof.
  move=> Ha Hb o o' Ho Ho' s Hs.
  have C q : operators_of a q \/ operators_of b q -> two_body st q \/ only_excites st q by case=> [/Ha|/Hb]; [left|].
  split=> E; case: (C o Ho) => D; case: (C o' Ho') => D'; have := D s Hs; have := D' s Hs; rewrite ?E; intuition lia.
Qed.
