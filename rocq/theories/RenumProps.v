(** C78: the numbering and the naming of the orbital spaces do not matter. *)
Set Warnings "-notation-overridden,-ambiguous-paths".
From Coq Require Import Ascii String ZArith QArith List Lia.
From mathcomp Require Import all_ssreflect ssralg ssrint rat ssrnum matrix.
From Verif Require Import Res RationalModel RationalSpec RegistryModel RegistryProofs CoreModel AlgebraModel AlgebraSpec OperatorModel OperatorSpec OperatorProps WickSearchModel WickSearchSpec WickCombSpec WickLegSpec SortSpec ScalarSem LadderSpec CanonSemSpec
  WickProductSpec WickEvalModel WickPairSpec WickTheoremSpec WickGeneralSpec WickStateSpec WickFockProofs WickFockProofs2 WickProductExample WickProductProps WickGeneralExample WickGeneralExample2 WickGeneralProps WickGenProofs13
  AdjWickProps RenumSpec RenumProofs2 RenumProofs3 RenumProofs4 RenumProofs5 RenumExample.
Set Implicit Arguments.
Unset Strict Implicit.
Unset Printing Implicit Defensive.
Import GRing.Theory.
Local Open Scope ring_scope.
Local Notation one := (Zpos xH).
Local Notation two := (Zpos (xO xH)).
Local Notation four := (Zpos (xO (xO xH))).
Local Notation eight := (Zpos (xO (xO (xO xH)))).

(** [op] with the same text, in two registries with the same names in another order: the same operator. *)
Theorem C78_operators : forall (st st' : osi) (pi : Z -> Z) (label s : text), reachable st -> reachable st' -> le (length (space_info st)) max_spaces ->
  renumbering st st' pi -> (forall t, registered st' t -> space_label st' t = space_label st (pi t)) ->
  (forall t l, space_label st t = Ok l -> letter l) -> known_letters st s -> known_letters st' s ->
  exists o o', component_op st label s = Ok o /\ component_op st' label s = Ok o' /\ same_oper st' pi o o' /\ ops_ok st [:: o] /\ ops_ok st' [:: o'].
Proof. exact component_renum. Qed.
Print Assumptions C78_operators.
(** The sums of operators that [op] makes of the same texts, with or without [unique]. *)
Theorem C78_operator_sums : forall (st st' : osi) (pi : Z -> Z) (label : text) (comps : list text) (unique : bool), reachable st -> reachable st' -> le (length (space_info st)) max_spaces ->
  renumbering st st' pi -> (forall t, registered st' t -> space_label st' t = space_label st (pi t)) ->
  (forall t l, space_label st t = Ok l -> letter l) -> List.Forall (known_letters st) comps -> List.Forall (known_letters st') comps ->
  exists e e', make_op_expr st label comps unique = Ok e /\ make_op_expr st' label comps unique = Ok e' /\ same_opexpr st st' pi e e'.
Proof. exact op_renum_sum. Qed.
Print Assumptions C78_operator_sums.
(** Sums, products, commutators and BCH series of such sums are again the same sums. *)
Theorem C78_algebra : forall (st st' : osi) (pi : Z -> Z) (a a' b b' : opexpr), renumbering st st' pi -> le (length (space_info st)) max_spaces ->
  same_opexpr st st' pi a a' -> same_opexpr st st' pi b b' ->
  same_opexpr st st' pi (mplus oprod_ltb a b) (mplus oprod_ltb a' b') /\ same_opexpr st st' pi (mminus oprod_ltb a b) (mminus oprod_ltb a' b') /\
  (forall c, canonical c -> ~ (Qeq (Qval c) (inject_Z Z0)) -> same_opexpr st st' pi (mscale a c) (mscale a' c)) /\
  (exists r r', mprod oprod_ltb oprod_mul a b = Ok r /\ mprod oprod_ltb oprod_mul a' b' = Ok r' /\ same_opexpr st st' pi r r') /\
  (exists r r', op_commutator a b = Ok r /\ op_commutator a' b' = Ok r' /\ same_opexpr st st' pi r r') /\
  (forall n, exists r r', bch_series a b n = Ok r /\ bch_series a' b' n = Ok r' /\ same_opexpr st st' pi r r').
Proof. exact renum_algebra. Qed.
Print Assumptions C78_algebra.
(** The relations of the operators, the reference state, the densities and the correlated state read the same in both numberings, ... *)
Theorem C78_representation : forall (K : fieldType) (A : algType K) (orb : eqType) (st st' : osi) (pi : Z -> Z) (cre ann : Z -> orb -> A)
    (T : text -> seq (Z * orb) -> seq (Z * orb) -> bool -> K) (maxc : nat), renumbering st st' pi ->
  (ladder_relations st cre ann -> ladder_relations st' (renum_ladder pi cre) (renum_ladder pi ann)) /\
  (single_reference st -> single_reference st') /\ (multi_reference st -> multi_reference st') /\
  (forall f : A -> K, reference_state st cre ann f -> reference_state st' (renum_ladder pi cre) (renum_ladder pi ann) f) /\
  (densities st T -> densities st' (renum_tensor pi T)) /\
  (forall f : A -> K, correlated_state st cre ann T maxc f -> correlated_state st' (renum_ladder pi cre) (renum_ladder pi ann) (renum_tensor pi T) maxc f).
Proof.
  exact (fun K A orb st st' pi cre ann T maxc R => conj (ladder_renum R) (conj (single_renum R) (conj (multi_renum R)
    (conj (reference_renum R) (conj (@densities_renum K orb st st' pi R T) (fun f => @correlated_renum K A orb st st' pi cre ann R T maxc f)))))).
Qed.
Print Assumptions C78_representation.
(** ... and so do the normal-ordered products. *)
Theorem C78_normal_product : forall (K : fieldType) (A : algType K) (orb : eqType) (st st' : osi) (pi : Z -> Z) (cre ann : Z -> orb -> A) (w : seq (bool * (Z * orb))),
  renumbering st st' pi -> (forall x, In x w -> registered st' x.2.1) ->
  normal_product st' (renum_ladder pi cre) (renum_ladder pi ann) w = normal_product st cre ann (renum_word pi w).
Proof. exact (fun K A orb st st' pi cre ann w R => @normal_renum K A orb st st' pi cre ann R w). Qed.
Print Assumptions C78_normal_product.
Theorem C78_general_normal_product : forall (K : fieldType) (A : algType K) (orb : eqType) (st st' : osi) (pi : Z -> Z) (cre ann : Z -> orb -> A)
    (T : text -> seq (Z * orb) -> seq (Z * orb) -> bool -> K) (maxc : nat) (N N' : seq (bool * (Z * orb)) -> A) (w : seq (bool * (Z * orb))),
  renumbering st st' pi -> generalized_normal_product st cre ann T maxc N ->
  generalized_normal_product st' (renum_ladder pi cre) (renum_ladder pi ann) (renum_tensor pi T) maxc N' ->
  (forall x, In x w -> registered st' x.2.1) -> N' w = N (renum_word pi w).
Proof. exact (fun K A orb st st' pi cre ann T maxc N N' w R HN HN' => @gren_normal K A orb st st' pi cre ann R T maxc N N' HN HN' w). Qed.
Print Assumptions C78_general_normal_product.
(** The product of the operators has the same value. *)
Theorem C78_operator_product : forall (K : fieldType) (A : algType K) (orb : eqType) (st st' : osi) (pi : Z -> Z) (cre ann : Z -> orb -> A)
    (T : text -> seq (Z * orb) -> seq (Z * orb) -> bool -> K) (orbs : Z -> seq orb) (phi0 phi0' : index -> orb)
    (ops ops' : oprod),
  ladder_relations st cre ann -> single_reference st -> renumbering st st' pi ->
  (forall o, In o ops -> antisymmetric_tensor T (op_label o)) -> same_product st' pi ops ops' ->
  product_value st' (renum_ladder pi cre) (renum_ladder pi ann) (renum_tensor pi T) (renum_orbitals pi orbs) phi0' ops' =
  product_value st cre ann T orbs phi0 ops.
Proof. exact (fun K A orb st st' pi cre ann T orbs phi0 phi0' ops ops' HL HS R => @sren_prod K A orb st st' pi cre ann HL HS R T orbs phi0 phi0' ops ops'). Qed.
Print Assumptions C78_operator_product.
(** Contracting the product gives the same: as operators, ... *)
Theorem C78_product : forall (K : fieldType) (A : algType K) (orb : eqType) (st st' : osi) (pi : Z -> Z) (cre ann : Z -> orb -> A)
    (T : text -> seq (Z * orb) -> seq (Z * orb) -> bool -> K) (orbs : Z -> seq orb) (phi0 phi0' : index -> orb)
    (o o' : wt_opts) (factor : rational) (ops ops' : oprod) (minr maxr : Z) (r r' : expression),
  [char K] =i pred0 -> ladder_relations st cre ann -> single_reference st -> renumbering st st' pi -> (forall s, uniq (orbs s)) ->
  product_ok st T ops -> ops_ok st' ops' -> same_product st' pi ops ops' -> canonical factor -> Z.le minr Z0 -> Z.le (ops_rank ops) maxr ->
  contract o st factor ops minr maxr (Ok r) -> contract o' st' factor ops' minr maxr (Ok r') ->
  expr_value (normal_product st' (renum_ladder pi cre) (renum_ladder pi ann)) (renum_tensor pi T) (renum_orbitals pi orbs) phi0' r' =
  expr_value (normal_product st cre ann) T orbs phi0 r.
Proof. exact (fun K A orb st st' pi cre ann T orbs phi0 phi0' o o' factor ops ops' minr maxr r r' ch HL HS R U => @sren_product K A orb st st' pi cre ann ch HL HS R T orbs phi0 phi0' U ops ops' minr maxr o o' factor r r'). Qed.
Print Assumptions C78_product.
(** ... in every range of ranks, ... *)
Theorem C78_ranks : forall (K : fieldType) (A : algType K) (orb : eqType) (st st' : osi) (pi : Z -> Z) (cre ann : Z -> orb -> A)
    (T : text -> seq (Z * orb) -> seq (Z * orb) -> bool -> K) (orbs : Z -> seq orb) (phi0 phi0' : index -> orb)
    (o o' : wt_opts) (factor : rational) (ops ops' : oprod) (minr maxr : Z) (r r' : expression) (V : lmodType K) (f : {linear A -> V}),
  [char K] =i pred0 -> ladder_relations st cre ann -> single_reference st -> renumbering st st' pi -> (forall s, uniq (orbs s)) ->
  product_ok st T ops -> ops_ok st' ops' -> same_product st' pi ops ops' -> canonical factor -> only_ranks st cre ann f (ops_rank ops) minr maxr ->
  contract o st factor ops minr maxr (Ok r) -> contract o' st' factor ops' minr maxr (Ok r') ->
  f (expr_value (normal_product st' (renum_ladder pi cre) (renum_ladder pi ann)) (renum_tensor pi T) (renum_orbitals pi orbs) phi0' r') =
  f (expr_value (normal_product st cre ann) T orbs phi0 r).
Proof. exact (fun K A orb st st' pi cre ann T orbs phi0 phi0' o o' factor ops ops' minr maxr r r' V f ch HL HS R U => @sren_ranks K A orb st st' pi cre ann ch HL HS R T orbs phi0 phi0' U V f ops ops' minr maxr o o' factor r r'). Qed.
Print Assumptions C78_ranks.
(** ... for sums of products, ... *)
Theorem C78_expression : forall (K : fieldType) (A : algType K) (orb : eqType) (st st' : osi) (pi : Z -> Z) (cre ann : Z -> orb -> A)
    (T : text -> seq (Z * orb) -> seq (Z * orb) -> bool -> K) (orbs : Z -> seq orb) (phi0 phi0' : index -> orb)
    (o o' : wt_opts) (factor : rational) (e e' : opexpr) (minr maxr : Z) (r r' : expression) (V : lmodType K) (f : {linear A -> V}),
  [char K] =i pred0 -> ladder_relations st cre ann -> single_reference st -> renumbering st st' pi -> (forall s, uniq (orbs s)) ->
  mcanon e -> mcanon e' -> canonical factor ->
  (forall x, In x e -> product_ok st T x.1 /\ only_ranks st cre ann f (ops_rank x.1) minr maxr) -> (forall x, In x e' -> ops_ok st' x.1) ->
  same_sum st' pi e e' ->
  contract_expr o st factor e minr maxr (Ok r) -> contract_expr o' st' factor e' minr maxr (Ok r') ->
  f (expr_value (normal_product st' (renum_ladder pi cre) (renum_ladder pi ann)) (renum_tensor pi T) (renum_orbitals pi orbs) phi0' r') =
  f (expr_value (normal_product st cre ann) T orbs phi0 r).
Proof. exact (fun K A orb st st' pi cre ann T orbs phi0 phi0' o o' factor e e' minr maxr r r' V f ch HL HS R U => @sren_expr K A orb st st' pi cre ann ch HL HS R T orbs phi0 phi0' U V f e e' minr maxr o o' factor r r'). Qed.
Print Assumptions C78_expression.
(** ... and as an expectation value in the reference state. *)
Theorem C78_expectation_value : forall (K : fieldType) (A : algType K) (orb : eqType) (st st' : osi) (pi : Z -> Z) (cre ann : Z -> orb -> A)
    (T : text -> seq (Z * orb) -> seq (Z * orb) -> bool -> K) (orbs : Z -> seq orb) (phi0 phi0' : index -> orb)
    (o o' : wt_opts) (factor : rational) (ops ops' : oprod) (r r' : expression) (f : {linear A -> K^o}),
  [char K] =i pred0 -> ladder_relations st cre ann -> single_reference st -> renumbering st st' pi -> (forall s, uniq (orbs s)) ->
  reference_state st cre ann f -> product_ok st T ops -> ops_ok st' ops' -> same_product st' pi ops ops' -> canonical factor ->
  contract o st factor ops Z0 Z0 (Ok r) -> contract o' st' factor ops' Z0 Z0 (Ok r') ->
  expr_value (@no_operators K orb) (renum_tensor pi T) (renum_orbitals pi orbs) phi0' r' =
  expr_value (@no_operators K orb) T orbs phi0 r.
Proof. exact (fun K A orb st st' pi cre ann T orbs phi0 phi0' o o' factor ops ops' r r' f ch HL HS R U => @sren_expectation K A orb st st' pi cre ann ch HL HS R T orbs phi0 phi0' U f ops ops' o o' factor r r'). Qed.
Print Assumptions C78_expectation_value.
(** General spaces: the product of the operators has the same value. *)
Theorem C78_general_operator_product : forall (K : fieldType) (A : algType K) (orb : eqType) (st st' : osi) (pi : Z -> Z) (cre ann : Z -> orb -> A)
    (T : text -> seq (Z * orb) -> seq (Z * orb) -> bool -> K) (maxc : nat) (N N' : seq (bool * (Z * orb)) -> A) (orbs : Z -> seq orb) (phi0 phi0' : index -> orb)
    (ops ops' : oprod),
  ladder_relations st cre ann -> multi_reference st -> renumbering st st' pi ->
  densities st T -> generalized_normal_product st cre ann T maxc N ->
  generalized_normal_product st' (renum_ladder pi cre) (renum_ladder pi ann) (renum_tensor pi T) maxc N' ->
  (forall o, In o ops -> antisymmetric_tensor T (op_label o)) -> same_product st' pi ops ops' ->
  gproduct_value st' (renum_tensor pi T) N' (renum_orbitals pi orbs) phi0' ops' =
  gproduct_value st T N orbs phi0 ops.
Proof. exact (fun K A orb st st' pi cre ann T maxc N N' orbs phi0 phi0' ops ops' HL HS R HD HN HN' => @gren_prod K A orb st st' pi cre ann HL HS R T maxc orbs phi0 phi0' HD N N' HN HN' ops ops'). Qed.
Print Assumptions C78_general_operator_product.
(** Contracting the product gives the same: as operators, ... *)
Theorem C78_general_product : forall (K : fieldType) (A : algType K) (orb : eqType) (st st' : osi) (pi : Z -> Z) (cre ann : Z -> orb -> A)
    (T : text -> seq (Z * orb) -> seq (Z * orb) -> bool -> K) (maxc : nat) (N N' : seq (bool * (Z * orb)) -> A) (orbs : Z -> seq orb) (phi0 phi0' : index -> orb)
    (o o' : wt_opts) (factor : rational) (ops ops' : oprod) (minr maxr : Z) (r r' : expression),
  [char K] =i pred0 -> ladder_relations st cre ann -> multi_reference st -> renumbering st st' pi -> (forall s, uniq (orbs s)) ->
  (1 <= maxc)%N -> densities st T -> generalized_normal_product st cre ann T maxc N ->
  generalized_normal_product st' (renum_ladder pi cre) (renum_ladder pi ann) (renum_tensor pi T) maxc N' ->
  gproduct_ok st T maxc ops -> ops_ok st' ops' -> no_triple st' maxc ops' -> same_product st' pi ops ops' -> wt_maxcumulant o = Z.of_nat maxc -> wt_maxcumulant o' = Z.of_nat maxc -> canonical factor -> Z.le minr Z0 -> Z.le (ops_rank ops) maxr ->
  contract o st factor ops minr maxr (Ok r) -> contract o' st' factor ops' minr maxr (Ok r') ->
  expr_value N' (renum_tensor pi T) (renum_orbitals pi orbs) phi0' r' =
  expr_value N T orbs phi0 r.
Proof. exact (fun K A orb st st' pi cre ann T maxc N N' orbs phi0 phi0' o o' factor ops ops' minr maxr r r' ch HL HS R U M1 HD HN HN' => @gren_product K A orb st st' pi cre ann ch HL HS R T maxc orbs phi0 phi0' U M1 HD N N' HN HN' ops ops' minr maxr o o' factor r r'). Qed.
Print Assumptions C78_general_product.
(** ... in every range of ranks, ... *)
Theorem C78_general_ranks : forall (K : fieldType) (A : algType K) (orb : eqType) (st st' : osi) (pi : Z -> Z) (cre ann : Z -> orb -> A)
    (T : text -> seq (Z * orb) -> seq (Z * orb) -> bool -> K) (maxc : nat) (N N' : seq (bool * (Z * orb)) -> A) (orbs : Z -> seq orb) (phi0 phi0' : index -> orb)
    (o o' : wt_opts) (factor : rational) (ops ops' : oprod) (minr maxr : Z) (r r' : expression) (V : lmodType K) (f : {linear A -> V}),
  [char K] =i pred0 -> ladder_relations st cre ann -> multi_reference st -> renumbering st st' pi -> (forall s, uniq (orbs s)) ->
  (1 <= maxc)%N -> densities st T -> generalized_normal_product st cre ann T maxc N ->
  generalized_normal_product st' (renum_ladder pi cre) (renum_ladder pi ann) (renum_tensor pi T) maxc N' ->
  gproduct_ok st T maxc ops -> ops_ok st' ops' -> no_triple st' maxc ops' -> same_product st' pi ops ops' -> wt_maxcumulant o = Z.of_nat maxc -> wt_maxcumulant o' = Z.of_nat maxc -> canonical factor -> gonly_ranks st N f (ops_rank ops) minr maxr ->
  contract o st factor ops minr maxr (Ok r) -> contract o' st' factor ops' minr maxr (Ok r') ->
  f (expr_value N' (renum_tensor pi T) (renum_orbitals pi orbs) phi0' r') =
  f (expr_value N T orbs phi0 r).
Proof. exact (fun K A orb st st' pi cre ann T maxc N N' orbs phi0 phi0' o o' factor ops ops' minr maxr r r' V f ch HL HS R U M1 HD HN HN' => @gren_ranks K A orb st st' pi cre ann ch HL HS R T maxc orbs phi0 phi0' U M1 HD N N' HN HN' V f ops ops' minr maxr o o' factor r r'). Qed.
Print Assumptions C78_general_ranks.
(** ... for sums of products, ... *)
Theorem C78_general_expression : forall (K : fieldType) (A : algType K) (orb : eqType) (st st' : osi) (pi : Z -> Z) (cre ann : Z -> orb -> A)
    (T : text -> seq (Z * orb) -> seq (Z * orb) -> bool -> K) (maxc : nat) (N N' : seq (bool * (Z * orb)) -> A) (orbs : Z -> seq orb) (phi0 phi0' : index -> orb)
    (o o' : wt_opts) (factor : rational) (e e' : opexpr) (minr maxr : Z) (r r' : expression) (V : lmodType K) (f : {linear A -> V}),
  [char K] =i pred0 -> ladder_relations st cre ann -> multi_reference st -> renumbering st st' pi -> (forall s, uniq (orbs s)) ->
  (1 <= maxc)%N -> densities st T -> generalized_normal_product st cre ann T maxc N ->
  generalized_normal_product st' (renum_ladder pi cre) (renum_ladder pi ann) (renum_tensor pi T) maxc N' ->
  mcanon e -> mcanon e' -> canonical factor -> wt_maxcumulant o = Z.of_nat maxc -> wt_maxcumulant o' = Z.of_nat maxc ->
  (forall x, In x e -> gproduct_ok st T maxc x.1 /\ gonly_ranks st N f (ops_rank x.1) minr maxr) -> (forall x, In x e' -> ops_ok st' x.1 /\ no_triple st' maxc x.1) ->
  same_sum st' pi e e' ->
  contract_expr o st factor e minr maxr (Ok r) -> contract_expr o' st' factor e' minr maxr (Ok r') ->
  f (expr_value N' (renum_tensor pi T) (renum_orbitals pi orbs) phi0' r') =
  f (expr_value N T orbs phi0 r).
Proof. exact (fun K A orb st st' pi cre ann T maxc N N' orbs phi0 phi0' o o' factor e e' minr maxr r r' V f ch HL HS R U M1 HD HN HN' => @gren_expr K A orb st st' pi cre ann ch HL HS R T maxc orbs phi0 phi0' U M1 HD N N' HN HN' V f e e' minr maxr o o' factor r r'). Qed.
Print Assumptions C78_general_expression.
(** ... and as an expectation value in the correlated state. *)
Theorem C78_general_expectation_value : forall (K : fieldType) (A : algType K) (orb : eqType) (st st' : osi) (pi : Z -> Z) (cre ann : Z -> orb -> A)
    (T : text -> seq (Z * orb) -> seq (Z * orb) -> bool -> K) (maxc : nat) (N N' : seq (bool * (Z * orb)) -> A) (orbs : Z -> seq orb) (phi0 phi0' : index -> orb)
    (o o' : wt_opts) (factor : rational) (ops ops' : oprod) (r r' : expression) (f : {linear A -> K^o}),
  [char K] =i pred0 -> ladder_relations st cre ann -> multi_reference st -> renumbering st st' pi -> (forall s, uniq (orbs s)) ->
  (1 <= maxc)%N -> densities st T -> generalized_normal_product st cre ann T maxc N ->
  generalized_normal_product st' (renum_ladder pi cre) (renum_ladder pi ann) (renum_tensor pi T) maxc N' ->
  correlated_state st cre ann T maxc f -> gproduct_ok st T maxc ops -> ops_ok st' ops' -> no_triple st' maxc ops' -> same_product st' pi ops ops' -> wt_maxcumulant o = Z.of_nat maxc -> wt_maxcumulant o' = Z.of_nat maxc -> canonical factor ->
  contract o st factor ops Z0 Z0 (Ok r) -> contract o' st' factor ops' Z0 Z0 (Ok r') ->
  expr_value (@no_operators K orb) (renum_tensor pi T) (renum_orbitals pi orbs) phi0' r' =
  expr_value (@no_operators K orb) T orbs phi0 r.
Proof. exact (fun K A orb st st' pi cre ann T maxc N N' orbs phi0 phi0' o o' factor ops ops' r r' f ch HL HS R U M1 HD HN HN' => @gren_expectation K A orb st st' pi cre ann ch HL HS R T maxc orbs phi0 phi0' U M1 HD N N' HN HN' f ops ops' o o' factor r r'). Qed.
Print Assumptions C78_general_expectation_value.


(** Non-vacuity: o, v and v, o with V T; ... *)
Example C78_nonvacuous : [char rat] =i pred0 /\ single_reference wp_st /\ renumbering wp_st rp_st rp_pi /\ rp_pi Z0 <> Z0 /\ product_ok wp_st wp_T wp_ops /\
  ops_ok rp_st rp_ops /\ same_product rp_st rp_pi wp_ops rp_ops /\ rp_ops <> wp_ops /\
  (exists r, contract (mkWT two true) wp_st (rat_of_Z one) wp_ops Z0 eight (Ok r)) /\
  (exists r, contract (mkWT two true) rp_st (rat_of_Z one) rp_ops Z0 eight (Ok r)) /\
  same_sum rp_st rp_pi [:: (wp_ops, rat_of_Z two)] [:: (rp_ops, rat_of_Z two)] /\
  exists (A : algType [fieldType of rat]) (cre ann : Z -> bool -> A) (f : {linear A -> rat^o}), ladder_relations wp_st cre ann /\ reference_state wp_st cre ann f.
Proof.
  have [ch [HS [P [_ [_ [_ [_ [_ [_ [_ [_ [_ [_ [A [cre [ann [star [HL [_ Hf]]]]]]]]]]]]]]]]]]] := C77_nonvacuous.
  split=> //. split=> //. split; first exact: rp_ren. split=> //. split=> //. split; first exact: rp_ok. split; first exact: rp_same. split=> //.
  split; first exact: wp_contract. split; first exact: rp_contract.
  split; first by exists [:: (rp_ops, rat_of_Z two)]; split=> //; constructor=> //; split=> //; exact: rp_same.
  have [f Rf] := Hf HS. by exists A, cre, ann, f.
Qed.
(** ... o, a, v and v, o, a with F G; ... *)
Example C78_general_nonvacuous : multi_reference wg_st /\ (exists s, registered wg_st s /\ stype wg_st s = Some General) /\ renumbering wg_st rg_st rg_pi /\ rg_pi Z0 <> Z0 /\
  (1 <= 2)%N /\ densities wg_st wgT /\ gproduct_ok wg_st wgT 2 wg_ops /\ ops_ok rg_st rg_ops /\ no_triple rg_st 2 rg_ops /\ same_product rg_st rg_pi wg_ops rg_ops /\ rg_ops <> wg_ops /\
  (exists r, contract (mkWT two true) wg_st (rat_of_Z one) wg_ops Z0 four (Ok r)) /\
  (exists r, contract (mkWT two true) rg_st (rat_of_Z one) rg_ops Z0 four (Ok r)) /\
  exists (A : algType [fieldType of rat]) (cre ann : Z -> bool -> A) (N N' : seq (bool * (Z * bool)) -> A),
    ladder_relations wg_st cre ann /\ generalized_normal_product wg_st cre ann wgT 2 N /\
    generalized_normal_product rg_st (renum_ladder rg_pi cre) (renum_ladder rg_pi ann) (renum_tensor rg_pi wgT) 2 N'.
Proof.
  have [_ [HM [_ [HD [_ [Hg [_ [_ [P [_ [_ [_ [_ [_ [A [cre [ann [star [N [HL [_ HN]]]]]]]]]]]]]]]]]]]]] := C77_general_nonvacuous.
  split=> //. split=> //. split; first exact: rg_ren. split=> //. split=> //. split=> //. split=> //. split; first exact: rg_ok.
  split; first exact: (few_legs_no_triple _ _ _ rg_few). split; first exact: rg_same. split=> //. split; first exact: wg_contract. split; first exact: rg_contract.
  have [N' [HN' _]] := @C61_normal_product _ A _ rg_st (renum_ladder rg_pi cre) (renum_ladder rg_pi ann) (renum_tensor rg_pi wgT) 2.
  by exists A, cre, ann, N, N'.
Qed.
(** ... and [op("T", {"v+ o", "v+ v+ o o"})] with the spaces added in both orders. *)
Definition op_texts : list text := [:: list_ascii_of_string "v+ o"; list_ascii_of_string "v+ v+ o o"].
Example C78_operators_nonvacuous : reachable two_spaces /\ reachable spaces_two /\ renumbering two_spaces spaces_two rp_pi /\
  (forall t, registered spaces_two t -> space_label spaces_two t = space_label two_spaces (rp_pi t)) /\
  (forall t l, space_label two_spaces t = Ok l -> letter l) /\ List.Forall (known_letters two_spaces) op_texts /\ List.Forall (known_letters spaces_two) op_texts /\
  make_op_expr two_spaces (list_ascii_of_string "T") op_texts false <> make_op_expr spaces_two (list_ascii_of_string "T") op_texts false.
Proof.
  split; first exact: two_spaces_reachable. split; first exact: spaces_two_reachable. split; first exact: two_ren. split; first exact: two_labels. split; first exact: two_letters.
  split; first exact: two_known (or_introl erefl). split; first exact: two_known (or_intror erefl). by vm_compute.
Qed.
