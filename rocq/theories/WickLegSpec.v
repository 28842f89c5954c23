(** Specification of the evaluation of a contraction: which legs are contracted, and the resulting term (C44). *)
From Coq Require Import Ascii ZArith List Bool Arith Permutation.
From Verif Require Import Res RegistryModel CoreModel SortSpec AdjointModel OperatorModel DecModel WickSearchModel WickSearchSpec CountSpec WickCombSpec.
Import ListNotations.
Local Open Scope Z_scope.

Definition leg_op (l : leg) : nat := fst (fst (fst l)).
Definition leg_space (l : leg) : Z := snd (fst (fst l)).
Definition leg_cre (l : leg) : bool := snd (fst l).

(** The legs of the product of second-quantized operators, from left to right: for each operator its creation operators (spaces
    and numbers ascending), then its annihilation operators (descending). *)
Definition op_cre_legs (st : osi) (ops : oprod) (A : nat) : list leg :=
  flat_map (fun s => map (fun i => ((A, s, true), i)) (range (ops_cre ops A s))) (range (num_spaces st)).
Definition op_ann_legs (st : osi) (ops : oprod) (A : nat) : list leg :=
  flat_map (fun s => map (fun i => ((A, s, false), i)) (range (ops_ann ops A s))) (range (num_spaces st)).
Definition product_legs (st : osi) (ops : oprod) : list leg :=
  flat_map (fun A => op_cre_legs st ops A ++ rev (op_ann_legs st ops A)) (seq 0 (length ops)).

(** Different legs have different indices, each in the space of the leg. *)
Definition labels_legs (L : list leg) (ix : leg -> index) : Prop :=
  (forall l, In l L -> isp (ix l) = leg_space l /\ 0 <= ipos (ix l)) /\
  (forall l l', In l L -> In l' L -> ix l = ix l' -> l = l').
Definition leg_sqop (ix : leg -> index) (l : leg) : sqop := mkSQ (leg_cre l) (ix l).
(** The tensor of operator [A]: creation legs below, annihilation legs above. *)
Definition op_tensor (st : osi) (ops : oprod) (ix : leg -> index) (A : nat) : tensor :=
  mkT (op_label (nth A ops (mkOp [] gm_zero))) (map ix (op_cre_legs st ops A)) (map ix (op_ann_legs st ops A)) Antisymmetric false.

(** [p] comes before [q] in [L]. *)
Fixpoint precedes (L : list leg) (p q : leg) : Prop :=
  match L with [] => False | x :: L' => (x = p /\ In q L') \/ precedes L' p q end.

(** "gamma1", "eta1", "lambda". *)
Definition gamma1_label : text := ["g"; "a"; "m"; "m"; "a"; "1"]%char.
Definition eta1_label : text := ["e"; "t"; "a"; "1"]%char.
Definition lambda_label : text := ["l"; "a"; "m"; "b"; "d"; "a"]%char.
(** What the contraction of the creation legs [pc] with the annihilation legs [pa] contributes: index substitutions (Kronecker
    delta), a density tensor, and a sign because the contracted operators are written creation first. *)
Inductive contribution (st : osi) (L : list leg) (ix : leg -> index) : list leg -> list leg -> index_map * list tensor * Z -> Prop :=
| con_occ p q : stype st (leg_space p) = Some Occupied -> contribution st L ix [p] [q] ([(ix q, ix p)], [], 1)
| con_unocc p q : stype st (leg_space p) = Some Unoccupied -> contribution st L ix [p] [q] ([(ix p, ix q)], [], -1)
| con_gamma p q : stype st (leg_space p) = Some General -> precedes L p q ->
    contribution st L ix [p] [q] ([], [mkT gamma1_label [ix q] [ix p] Antisymmetric false], 1)
| con_eta p q : stype st (leg_space p) = Some General -> precedes L q p ->
    contribution st L ix [p] [q] ([], [mkT eta1_label [ix q] [ix p] Antisymmetric false], -1)
| con_cum p pc pa k : stype st (leg_space p) = Some General -> length (p :: pc) = k -> length pa = k -> (2 <= k)%nat ->
    contribution st L ix (p :: pc) pa ([], [mkT (lambda_label ++ dec_text (Z.of_nat k)) (rev (map ix pa)) (map ix (p :: pc)) Antisymmetric false], 1).

(** Uncontracted operators: creation before annihilation, spaces ascending, otherwise in the original order. *)
Definition rest_before (l l' : leg) : bool :=
  if leg_cre l then if leg_cre l' then leg_space l <? leg_space l' else true
  else if leg_cre l' then false else leg_space l <? leg_space l'.

(** [t], [s]: the term and the sign obtained from the contractions [cs] of the product of the operators [ops].
    [picks] are the contracted legs (creation, annihilation), [rest] the others. *)
Record evaluation (st : osi) (ops : oprod) (cs : list econ) (t : term) (s : Z)
  (ix : leg -> index) (picks : list (list leg * list leg)) (effects : list (index_map * list tensor * Z)) (rest : list leg) : Prop := {
  ev_labels : labels_legs (product_legs st ops) ix;
  ev_picks : Forall2 (fun p c => carries_out st (length ops) (fst p ++ snd p) c /\
                        Forall (fun l => leg_cre l = true) (fst p) /\ Forall (fun l => leg_cre l = false) (snd p)) picks cs;
  ev_effects : Forall2 (fun p e => contribution st (product_legs st ops) ix (fst p) (snd p) e) picks effects;
  ev_rest : exists perm_sign, sperm (product_legs st ops) perm_sign (flat_map (fun p => fst p ++ snd p) picks ++ rest) /\
              s = fold_right Z.mul 1 (map snd effects) * perm_sign;
  ev_order : ordered rest_before rest;
  ev_term : t = term_reindex (flat_map (fun e => fst (fst e)) effects)
                  (mkTerm false (map (leg_sqop ix) rest)
                     (map (op_tensor st ops ix) (seq 0 (length ops)) ++ flat_map (fun e => snd (fst e)) effects)) }.
