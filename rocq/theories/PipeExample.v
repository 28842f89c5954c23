(** A case for C73: the scalar part of F T with two occupied and two unoccupied orbitals. *)
Set Warnings "-notation-overridden,-ambiguous-paths".
From Coq Require Import String ZArith QArith List Bool Ascii Lia.
From mathcomp Require Import all_ssreflect ssralg ssrint rat ssrnum.
From Verif Require Import Res RegistryModel RegistryProofs RegistryProps CoreModel RationalModel RationalSpec SortSpec OperatorModel AlgebraModel AlgebraSpec WickSearchModel WickSearchSpec WickEvalModel WickLinearProofs TextModel TextProps EquationModel EquationSpec EinsumSpec ContractShapeProps WickSearchProps
  DecimalModel DecimalSpec LadderSpec WickProductSpec WickPairSpec WickTheoremSpec WickProductProps PipeSpec PipeProofs PipeProofs2 PipeProofs3 PipeProofs8 PipeExample0.
Set Implicit Arguments.
Unset Strict Implicit.
Unset Printing Implicit Defensive.
Import GRing.Theory Num.Theory.
Local Open Scope ring_scope.
Delimit Scope Z_scope with Z.
Delimit Scope Q_scope with Q.

Definition pe_label : text := str "R".
Definition pe_r : expression := [:: (cs_t, mkR 1 1)].
Definition pe_line : text := str "R += 1.000000000 * np.einsum(""ai,ia->"",F[""vo""],T[""ov""],optimize=""optimal"")".
Definition pe_prog : seq (text * seq text) := [:: (str "|", [:: pe_line])].
Definition pe_orbital (s : Z) (p : nat) : bool := p == 1%N.
Definition pe_T (label : text) (lo up : seq (Z * bool)) (cc : bool) : rat := if lo is [:: x] then if up is [:: y] then ((x.2 : nat) + 2 * (y.2 : nat) + 1)%N%:R else 0 else 0.
Definition pe_tens (label key : text) : array [comRingType of rat] := mkA (K := [comRingType of rat]) [:: 2; 2]%N (fun ps => if ps is [:: u; l] then ((l == 1%N : nat) + 2 * (u == 1%N : nat) + 1)%N%:R else 0).
Definition pe_dim (s : Z) : nat := 2.

Lemma pe_registry : program_registry ex_st2.
Proof. case: C63_nonvacuous => R [_] [al] _. split=> //. split=> //. exact: (proj1 C54_nonvacuous). Qed.
Lemma pe_product : program_product ex_st2 cs_ops.
Proof. case: C63_nonvacuous => _ [_] [_] [Ok1] [_] [_] [L] _. split=> //. split=> //. split=> // o [<-|[<-|[]]] c [<-|[]]; by repeat split. Qed.
Lemma pe_contract : contract (mkWT 100 false) ex_st2 (rat_of_Z 1) cs_ops 0%Z 0%Z (Ok pe_r).
Proof. exact: cs_contract. Qed.
Lemma pe_expr : contract_expr (mkWT 100 false) ex_st2 (rat_of_Z 1) [:: (cs_ops, rat_of_Z 1)] 0%Z 0%Z (Ok pe_r).
Proof. by case: C63_nonvacuous => _ [_] [_] [_] [_] [_] [_] [C _]. Qed.
Lemma pe_data : program_data pe_dim ex_st2 pe_tens (elements_at pe_orbital pe_T) pe_r.
Proof.
  move=> x d [<-|[]] [<-|[<-|[]]].
  - exists (str "v"), (str "o"). split=> //. split=> //. split=> // pu pl /=. rewrite !inE => /orP [/eqP -> | /eqP ->] /orP [/eqP -> | /eqP ->]; by [].
  - exists (str "o"), (str "v"). split=> //. split=> //. split=> // pu pl /=. rewrite !inE => /orP [/eqP -> | /eqP ->] /orP [/eqP -> | /eqP ->]; by [].
Qed.
Lemma pe_generates : generates einsum_factor ex_st2 pe_label pe_r pe_prog.
Proof. exists [:: (str "|", [:: equation_of pe_label (cs_t, mkR 1 1)])]. split; first by vm_compute. constructor=> //. split=> //. by constructor. Qed.
Lemma pe_short x : In x pe_r -> short x.2.
Proof. move=> [<-|[]]. exists 1000000000%Z. split; [by vm_compute|by []]. Qed.
Lemma pe_single : single_reference ex_st2.
Proof. move=> s Hs. have [->| ->] : s = 0%Z \/ s = 1%Z by move: Hs; rewrite /registered /num_spaces /=; lia. by split=> //; left. by split=> //; right. Qed.
Lemma pe_product_ok : product_ok ex_st2 pe_T cs_ops.
Proof.
  split; first by case: pe_product. split.
  - move=> a b s H Hs. have Ha : a = 0%N by move: H; rewrite /=; lia. have Hb : b = 1%N by move: H; rewrite /=; lia. subst a b.
    have [->| ->] : s = 0%Z \/ s = 1%Z by move: Hs; rewrite /is_space /num_spaces /=; lia. by split=> E; left; vm_compute. by split=> E; left; vm_compute.
  - move=> o _. have N (l1 l2 : seq (Z * bool)) x y : exists a b c, (l1 ++ x :: y :: l2)%list = [:: a, b & c] by case: l1 => [|a [|b l1]]; eexists; eexists; eexists; reflexivity.
    split=> l l1 x y l2; have [a [b [c E]]] := N l1 l2 x y; have [a' [b' [c' E']]] := N l1 l2 y x; rewrite /pe_T E E' /=; last by rewrite oppr0. by case: l => [|? [|? ?]]; rewrite oppr0.
Qed.

Lemma names_clash : exists r prog k p k' p' t t' s s', generates einsum_factor ex_st2 (str "R") r prog /\ In (k, p) prog /\ In (k', p') prog /\ k <> k' /\
  In t p /\ In t' p' /\ reads_as t s /\ reads_as t' s' /\ sm_name s = sm_name s'.
Proof.
  pose d (l : text) := mkT l [:: mkI 1 0] [:: mkI 0 0] Antisymmetric false. pose c (l : text) (b : bool) := (mkTerm false [:: mkSQ b (mkI 1 0); mkSQ false (mkI 0 0)] [:: d l], mkR 1 1).
  pose t (l : ascii) : text := (str "Rov += 1.000000000 * np.einsum(""ia->ia""," ++ l :: str "[""ov""],optimize=""optimal"")")%list.
  pose s (l : ascii) := mkStm (str "Rov") (str "1.000000000") (str "ia->ia") [:: ([:: l], str "ov")].
  have Pc l : List.Forall (fun c => plain_c c = true) l -> plain l by exact: (@plain_of plain_c).
  have Rd l : plain_c l = true -> reads_as (t l) (s l).
  { move=> Pl. split; [|split; [|split; [|split]]]; cbn [s sm_name sm_factor sm_sub sm_args]; try (by apply: Pc; repeat constructor).
    - by move=> a [<-|[]]; split; apply: Pc; repeat constructor.
    - by []. }
  set f := "F"%char. set g := "G"%char.
  exists [:: c [:: f] true; c [:: g] false], [:: (str "ov|", [:: t g]); (str "o|v", [:: t f])], (str "o|v"), [:: t f], (str "ov|"), [:: t g], (t f), (t g), (s f), (s g).
  split; [|split; [by right; left|split; [by left|split; [by []|split; [by left|split; [by left|split; [exact: Rd|split; [exact: Rd|by []]]]]]]]].
  exists [:: (str "ov|", [:: equation_of (str "R") (c [:: g] false)]); (str "o|v", [:: equation_of (str "R") (c [:: f] true)])]. split; first by vm_compute.
  constructor; [|constructor; [|by constructor]]; (split; first by []); (constructor; [by vm_compute|by constructor]).
Qed.
