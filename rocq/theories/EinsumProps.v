(** C59: the value of the compiled einsum statement. *)
Set Warnings "-notation-overridden,-ambiguous-paths".
From Coq Require Import ZArith List Bool Ascii String Lia.
From mathcomp Require Import all_ssreflect ssralg ssrint.
From Verif Require Import Res RegistryModel RegistryProofs RegistryProps CoreModel RationalModel TextModel TextProps EquationModel EquationSpec EquationProps EinsumSpec EinsumProofs2.
Import GRing.Theory.
Delimit Scope Z_scope with Z.
Local Open Scope ring_scope.

(** The text of compile("einsum"), and what numpy makes of it: the call is accepted iff the right-hand side has a tensor, the
    left-hand tensor has no repeated index and only indices of the right-hand side; its elements are then the sums over all
    other indices of the products of the elements of the tensors. *)
Theorem C59_einsum_value : forall fmt st e lhs s, reachable st -> names_ok st -> hd_error (tm_tens (eq_lhs e)) = Some lhs ->
  (forall t, In t (lhs :: tm_tens (eq_rhs e)) -> forall i, In i (slots_of t) -> (0 <= isp i < num_spaces st)%Z) ->
  compile_einsum fmt st e = Ok s ->
  exists sub, s = statement_text st (fmt (eq_factor e)) sub lhs (tm_tens (eq_rhs e)) /\
    forall (K : comRingType) (dim : Z -> nat) (tens : text -> text -> array K), (forall t, In t (tm_tens (eq_rhs e)) -> well_shaped st dim tens t) ->
      (accepts sub (List.map (array_of st tens) (tm_tens (eq_rhs e))) <->
         tm_tens (eq_rhs e) <> [::] /\ NoDup (slots_of lhs) /\ incl (slots_of lhs) (flat_map slots_of (tm_tens (eq_rhs e)))) /\
      (accepts sub (List.map (array_of st tens) (tm_tens (eq_rhs e))) -> forall phi : index -> nat,
         einsum sub (List.map (array_of st tens) (tm_tens (eq_rhs e))) (List.map phi (slots_of lhs)) = rhs_value st dim tens lhs (tm_tens (eq_rhs e)) phi).
Proof. exact compiled. Qed.
Print Assumptions C59_einsum_value.
(** A statement comes out whenever at most 52 different indices occur. *)
Theorem C59_compiles : forall fmt st e lhs, reachable st -> names_ok st -> hd_error (tm_tens (eq_lhs e)) = Some lhs ->
  (forall t, In t (lhs :: tm_tens (eq_rhs e)) -> forall i, In i (slots_of t) -> (0 <= isp i < num_spaces st)%Z) ->
  if (List.length (nodup index_dec (flat_map slots_of (tm_tens (eq_rhs e) ++ [:: lhs])%list)) <=? 52)%nat then exists s, compile_einsum fmt st e = Ok s else compile_einsum fmt st e = UB.
Proof. exact compiles. Qed.
Print Assumptions C59_compiles.
(** The equation of a term without tensors compiles to a call that numpy rejects, whatever arrays it is given. *)
Theorem C59_accepted_refuted : exists fmt st label x s sub, reachable st /\ names_ok st /\ compile_einsum fmt st (equation_of label x) = Ok s /\
  s = statement_text st (fmt (eq_factor (equation_of label x))) sub (mkT label [:: mkI 1 0] [:: mkI 0 0] Antisymmetric false) [::] /\
  forall (K : comRingType) (tens : text -> text -> array K), ~ accepts sub (List.map (array_of st tens) (tm_tens (eq_rhs (equation_of label x)))).
Proof.
  exists (fun _ => [:: "2"%char]), ex_st2, [:: "R"%char], (mkTerm false [:: mkSQ true (mkI 1 0); mkSQ false (mkI 0 0)] [::], mkR 1 1). eexists. eexists.
  split; [apply C10_nonvacuous|]. split; [exact (proj1 C54_nonvacuous)|]. split; [vm_compute; reflexivity|]. split; [instantiate (1 := str "->ia"%string); vm_compute; reflexivity|].
  intros K tens (l & out & _ & N & _). apply N. reflexivity.
Qed.
Print Assumptions C59_accepted_refuted.
Example C59_nonvacuous : hd_error (tm_tens (eq_lhs (mkEq (mkTerm false [::] [:: ex_R]) (mkTerm false [::] [:: ex_T; ex_V]) (mkR 2 1)))) = Some ex_R /\
  NoDup (slots_of ex_R) /\ incl (slots_of ex_R) (flat_map slots_of [:: ex_T; ex_V]) /\
  exists s, compile_einsum (fun _ => [:: "2"%char]) ex_st2 (mkEq (mkTerm false [::] [:: ex_R]) (mkTerm false [::] [:: ex_T; ex_V]) (mkR 2 1)) = Ok s.
Proof.
  split; [reflexivity|]. split; [constructor; [intros [|[]]; discriminate|constructor; [intros []|constructor]]|]. split; [intros i [<-|[<-|[]]]; vm_compute; tauto|]. eexists. vm_compute. reflexivity.
Qed.
(** Numbers: "ab,bc->ac" of two integer matrices is the matrix product. *)
Example C59_matrix_product : let A := mkA [:: 2; 2]%N (fun r => match r with [:: p; q] => (2 * p + q)%:Z | _ => 0 end) in
  einsum (str "ab,bc->ac"%string) [:: A; A] [:: 1; 1]%N = 11%:Z.
Proof. cbv zeta. rewrite /einsum. cbn. rewrite /index_iota /= !big_cons !big_nil /=. reflexivity. Qed.
