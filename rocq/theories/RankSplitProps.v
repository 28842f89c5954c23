(** C76: splitting the range of ranks of [contract]. *)
From Coq Require Import String Ascii ZArith QArith List Bool Arith Lia Permutation.
From Verif Require Import Res RegistryModel RegistryProps CoreModel SortSpec RationalModel RationalSpec RationalProofs AlgebraModel AlgebraSpec OperatorModel CanonModel WickSearchModel WickSearchSpec WickEvalModel WickTotalProofs
  LatexModel WickSearchProps LatexProps ContractShapeSpec ContractShapeProps RankSplitSpec RankSplitProofs RankSplitProofs2 RankSplitProofs3 RankSplitExample.
Import ListNotations.
Local Open Scope Z_scope.

(** Asking for fewer ranks gives the part of the result with these numbers of operators: same terms, same coefficients. *)
Theorem C76_part : forall o st f ops a b a' b' r, ops_ok st ops -> a' <= a -> b <= b' -> contract o st f ops a' b' (Ok r) -> contract o st f ops a b (Ok (rank_part a b r)).
Proof. exact (fun o st f ops a b a' b' r Hok => contract_part o st f ops Hok a b a' b' r). Qed.
Print Assumptions C76_part.
Theorem C76_part_expression : forall o st f e a b a' b' r, Forall (fun x => ops_ok st (fst x)) e -> a' <= a -> b <= b' ->
  contract_expr o st f e a' b' (Ok r) -> contract_expr o st f e a b (Ok (rank_part a b r)).
Proof. exact expr_part. Qed.
Print Assumptions C76_part_expression.
(** Asking for more ranks keeps what was there: every outcome over the smaller range is that part of an outcome over the larger one, if the
    larger call can return. *)
Theorem C76_extends : forall o st f ops a b a' b' r1 r', ops_ok st ops -> a' <= a -> b <= b' -> contract o st f ops a b (Ok r1) -> contract o st f ops a' b' (Ok r') ->
  exists r, contract o st f ops a' b' (Ok r) /\ rank_part a b r = r1.
Proof. exact (fun o st f ops a b a' b' r1 r' Hok => contract_extends o st f ops Hok a b a' b' r1 r'). Qed.
Print Assumptions C76_extends.
Theorem C76_extends_expression : forall o st f e a b a' b' r1 r', Forall (fun x => ops_ok st (fst x)) e -> a' <= a -> b <= b' -> contract_expr o st f e a b (Ok r1) -> contract_expr o st f e a' b' (Ok r') ->
  exists r, contract_expr o st f e a' b' (Ok r) /\ rank_part a b r = r1.
Proof. exact expr_extends. Qed.
Print Assumptions C76_extends_expression.
(** The outcomes over [a..c] are the sums of an outcome over [a..b] and one over [b+1..c]. *)
Theorem C76_split : forall o st f ops a b c r, ops_ok st ops -> canonical f -> a <= b + 1 -> b <= c ->
  contract o st f ops a c (Ok r) <-> exists r1 r2, contract o st f ops a b (Ok r1) /\ contract o st f ops (b + 1) c (Ok r2) /\ r = mplus term_ltb r1 r2.
Proof. exact contract_split. Qed.
Print Assumptions C76_split.
Theorem C76_split_expression : forall o st f e a b c r, Forall (fun x => ops_ok st (fst x) /\ canonical (snd x)) e -> canonical f -> a <= b + 1 -> b <= c ->
  contract_expr o st f e a c (Ok r) <-> exists r1 r2, contract_expr o st f e a b (Ok r1) /\ contract_expr o st f e (b + 1) c (Ok r2) /\ r = mplus term_ltb r1 r2.
Proof. exact expr_split. Qed.
Print Assumptions C76_split_expression.
(** Ranges from at most 0 to at least the number of operators exclude nothing: they all give the same outcomes, exceptions and undefined
    behaviour included. *)
Theorem C76_all : forall o st f ops a b a' b' r, ops_ok st ops -> a <= 0 -> ops_rank ops <= b -> a' <= 0 -> ops_rank ops <= b' ->
  contract o st f ops a b r -> contract o st f ops a' b' r.
Proof. exact (fun o st f ops a b a' b' r Hok => contract_all o st f ops Hok a b a' b' r). Qed.
Print Assumptions C76_all.
Theorem C76_all_expression : forall o st f e a b a' b' r, Forall (fun x => ops_ok st (fst x)) e -> a <= 0 -> a' <= 0 -> Forall (fun x => ops_rank (fst x) <= b /\ ops_rank (fst x) <= b') e ->
  contract_expr o st f e a b r -> contract_expr o st f e a' b' r.
Proof. exact expr_all. Qed.
Print Assumptions C76_all_expression.

(** F (an occupied and an unoccupied leg) times T (the opposite) over 0..4: the part without operators is the fully contracted term, the part
    with four operators the uncontracted one. *)
Example C76_nonvacuous : ops_ok ex_st2 cs_ops /\ canonical (rat_of_Z 1) /\
  exists r, contract rs_o ex_st2 (rat_of_Z 1) cs_ops 0 4 (Ok r) /\ rank_part 0 0 r = [(cs_t, mkR 1 1)] /\ rank_part 4 4 r = [(rs_t4, mkR (-1) 1)].
Proof. exact (conj cs_ok (conj (rat_of_Z_canonical 1) rs_case)). Qed.
