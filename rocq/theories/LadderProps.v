(** Properties C22 and C23: vacuum normal ordering does not change the operator. *)
Set Warnings "-notation-overridden,-ambiguous-paths".
From Coq Require Import ZArith List Ascii Lia.
From mathcomp Require Import all_ssreflect ssralg matrix ssrint rat ssrnum.
From Verif Require Import Res RationalModel RationalSpec RationalProofs RegistryModel CoreModel AlgebraModel AlgebraSpec SortSpec NormalOrderModel ScalarSem LadderSpec LadderProofs.
Set Implicit Arguments.
Unset Strict Implicit.
Unset Printing Implicit Defensive.
Import GRing.Theory.
Local Open Scope ring_scope.

(** C22: for every field of characteristic 0, every algebra with operators obeying the canonical
    (anti)commutation relations, every assignment of orbitals to indices and every tensor values
    in which delta is the Kronecker delta, an expression over registered spaces and without conjugated
    tensors denotes the same element as its vacuum normal ordered form. *)
Theorem C22_operator_preserved : forall (K : fieldType) (A : algType K) (orb : eqType) (st : osi) (cre ann : Z -> orb -> A),
  [char K] =i pred0 -> ladder_relations st cre ann ->
  forall (phi : index -> orb) (T : tensor_values K), delta_values phi T ->
  forall e r : expression, expr_vno st false e = Ok r -> mcanon e ->
  (forall x, In x e -> term_registered st x.1 /\ no_conj x.1) ->
  expr_den cre ann phi T r = expr_den cre ann phi T e.
Proof.
  exact (fun K A orb st cre ann ch REL phi T D e r H => @expr_vno_den K A orb st cre ann ch REL phi T D false e r H (fun F => match notF F with end)).
Qed.
Print Assumptions C22_operator_preserved.
(** One term, before equal terms are merged: conjugated tensors allowed. *)
Theorem C22_term_preserved : forall (K : fieldType) (A : algType K) (orb : eqType) (st : osi) (cre ann : Z -> orb -> A),
  [char K] =i pred0 -> ladder_relations st cre ann ->
  forall (phi : index -> orb) (T : tensor_values K), delta_values phi T ->
  forall t l, term_vno st false t = Ok l -> term_registered st t ->
  expr_den cre ann phi T l = term_den cre ann phi T t.
Proof.
  exact (fun K A orb st cre ann ch REL phi T D t l H => @term_vno_den K A orb st cre ann ch REL phi T D false t l H (fun F => match notF F with end)).
Qed.
Print Assumptions C22_term_preserved.

(** C23: with only_same_index_contractions the same holds for assignments giving different
    indices of a space different orbitals. *)
Theorem C23_same_index_only : forall (K : fieldType) (A : algType K) (orb : eqType) (st : osi) (cre ann : Z -> orb -> A),
  [char K] =i pred0 -> ladder_relations st cre ann ->
  forall (phi : index -> orb) (T : tensor_values K), delta_values phi T -> distinct_values phi ->
  forall e r : expression, expr_vno st true e = Ok r -> mcanon e ->
  (forall x, In x e -> term_registered st x.1 /\ no_conj x.1) ->
  expr_den cre ann phi T r = expr_den cre ann phi T e.
Proof.
  exact (fun K A orb st cre ann ch REL phi T D I e r H => @expr_vno_den K A orb st cre ann ch REL phi T D true e r H (fun _ => I)).
Qed.
Print Assumptions C23_same_index_only.

(** ** Non-vacuity: one fermionic orbital represented by 2x2 matrices over the rationals. *)
Definition one_fermion : osi := mkOSI [:: mkOS "o"%char Occupied Fermion [::] [::]] [::] [::].
Definition cre2 (_ : Z) (_ : unit) : 'M[rat]_2 := delta_mx ord_max ord0.
Definition ann2 (_ : Z) (_ : unit) : 'M[rat]_2 := delta_mx ord0 ord_max.
Lemma one_fermion_relations : ladder_relations one_fermion cre2 ann2.
Proof.
  have R : forall s, registered one_fermion s -> s = Z0.
  { move=> s. rewrite /registered /num_spaces /=. lia. }
  split=> s p t q /R -> /R -> ; rewrite /cre2 /ann2 -!mulmxE /exch /=.
  - by rewrite mul_delta_mx_0 // scaler0.
  - by rewrite mul_delta_mx_0 // scaler0.
  - rewrite !mul_delta_mx scaleN1r.
    apply: (addIr (delta_mx ord_max ord_max)). rewrite addrNK /= [RHS]mx1_sum_delta !big_ord_recl big_ord0 addr0. by congr (delta_mx _ _ + delta_mx _ _); apply/val_inj.
Qed.
Definition T1 : tensor_values rat := fun _ _ _ _ => 1.
Example C22_nonvacuous : [char rat] =i pred0 /\ ladder_relations one_fermion cre2 ann2 /\ delta_values (fun=> tt) T1 /\ cre2 Z0 tt != 0 /\
  exists r, expr_vno one_fermion false [:: (mkTerm false [:: mkSQ false (mkI Z0 Z0); mkSQ true (mkI Z0 (Zpos xH))] [::], rat_of_Z (Zpos xH))] = Ok r /\ size r = 2%N.
Proof.
  split; first exact: Num.Theory.char_num. split; first exact: one_fermion_relations. split; first by [].
  split. { apply/eqP=> /matrixP /(_ ord_max ord0). by rewrite !mxE. }
  eexists. split; [vm_compute; reflexivity|by []].
Qed.
(** [distinct_values] is met by indices as their own orbitals. *)
Example C23_nonvacuous_phi : exists (orb : eqType) (phi : index -> orb), distinct_values phi.
Proof.
  have D : forall i j : index, decidable (i = j).
  { move=> i j. case: (Z.eq_dec (isp i) (isp j)) => [E|N]; last by right=> H; apply: N; rewrite H.
    case: (Z.eq_dec (ipos i) (ipos j)) => [E'|N]; last by right=> H; apply: N; rewrite H.
    left. by case: i E E' => a b /= -> ->; case: j. }
  by exists (EqType index (comparableMixin D)), id.
Qed.
