(** C60: compile_einsum of utils.py. *)
Set Warnings "-notation-overridden,-ambiguous-paths".
From Coq Require Import ZArith List Bool Ascii String Lia.
From mathcomp Require Import all_ssreflect ssralg.
From Verif Require Import Res RegistryModel RegistryProofs RegistryProps CoreModel RationalModel TextModel EquationModel EquationSpec EquationProps EinsumSpec PyEinsumModel PyEinsumSpec PyEinsumProofs PyEinsumProofs2.
Import GRing.Theory.
Local Open Scope ring_scope.

(** Every equation whose left-hand tensor has indices is rejected with an exception. *)
Theorem C60_nonscalar_refuted : forall fmt st e lhs, reachable st -> nonempty_names st -> hd_error (tm_tens (eq_lhs e)) = Some lhs -> slots_of lhs <> [::] ->
  (forall t, In t (lhs :: tm_tens (eq_rhs e)) -> forall i, In i (slots_of t) -> (0 <= isp i < num_spaces st)%Z) -> py_compile fmt st e = Throw.
Proof. exact py_nonscalar. Qed.
Print Assumptions C60_nonscalar_refuted.
(** For a left-hand tensor without indices: a statement with one registered name per index, different indices having different
    names, if every space has enough names, and an exception otherwise. *)
Theorem C60_scalar : forall fmt st e lhs, reachable st -> nonempty_names st -> hd_error (tm_tens (eq_lhs e)) = Some lhs -> slots_of lhs = [::] ->
  (forall t, In t (tm_tens (eq_rhs e)) -> forall i, In i (slots_of t) -> (0 <= isp i < num_spaces st)%Z) ->
  (enough_names st (flat_map slots_of (tm_tens (eq_rhs e))) ->
   exists f : index -> text, py_compile fmt st e = Ok (py_statement st (fmt (eq_factor e)) (py_subscripts f (tm_tens (eq_rhs e))) (t_label lhs) (tm_tens (eq_rhs e))) /\
     (forall i, In i (flat_map slots_of (tm_tens (eq_rhs e))) -> exists names, space_indices st (isp i) = Ok names /\ In (f i) names) /\
     (forall i j, In i (flat_map slots_of (tm_tens (eq_rhs e))) -> In j (flat_map slots_of (tm_tens (eq_rhs e))) -> f i = f j -> i = j)) /\
  (~ enough_names st (flat_map slots_of (tm_tens (eq_rhs e))) -> py_compile fmt st e = Throw).
Proof. exact py_scalar. Qed.
Print Assumptions C60_scalar.
(** If all registered names are single letters, numpy accepts the call as soon as there is a tensor, and its result is the sum
    over all indices of the product of the tensors. *)
Theorem C60_value : forall fmt st e lhs s, reachable st -> letter_names st -> hd_error (tm_tens (eq_lhs e)) = Some lhs -> slots_of lhs = [::] ->
  (forall t, In t (tm_tens (eq_rhs e)) -> forall i, In i (slots_of t) -> (0 <= isp i < num_spaces st)%Z) ->
  py_compile fmt st e = Ok s ->
  exists sub, s = py_statement st (fmt (eq_factor e)) sub (t_label lhs) (tm_tens (eq_rhs e)) /\
    forall (K : comRingType) (dim : Z -> nat) (tens : text -> text -> array K), (forall t, In t (tm_tens (eq_rhs e)) -> well_shaped st dim tens t) ->
      (accepts sub (List.map (array_of st tens) (tm_tens (eq_rhs e))) <-> tm_tens (eq_rhs e) <> [::]) /\
      (accepts sub (List.map (array_of st tens) (tm_tens (eq_rhs e))) -> forall phi : index -> nat,
         einsum sub (List.map (array_of st tens) (tm_tens (eq_rhs e))) [::] = rhs_value st dim tens lhs (tm_tens (eq_rhs e)) phi).
Proof. exact py_value. Qed.
Print Assumptions C60_value.
(** Longer names run together: the index named "ab" becomes two letters, and numpy rejects the call. *)
Definition ex_long := fst (reg_step reset_space (CAdd "o"%char Fermion Occupied [:: str "ab"%string] [::])).
Definition ex_scalar (t : seq tensor) := mkEq (mkTerm false [::] [:: mkT [:: "E"%char] [::] [::] Antisymmetric false]) (mkTerm false [::] t) (mkR 1 1).
Theorem C60_long_names_refuted : exists fmt st e s sub, reachable st /\ nonempty_names st /\ py_compile fmt st e = Ok s /\
  s = py_statement st (fmt (eq_factor e)) sub [:: "E"%char] (tm_tens (eq_rhs e)) /\
  forall (K : comRingType) dim (tens : text -> text -> array K), (forall t, In t (tm_tens (eq_rhs e)) -> well_shaped st dim tens t) ->
    ~ accepts sub (List.map (array_of st tens) (tm_tens (eq_rhs e))).
Proof.
  exists (fun _ => [:: "1"%char]), ex_long, (ex_scalar [:: mkT [:: "T"%char] [:: mkI 0 0] [::] Antisymmetric false]). eexists. exists (str "ab->"%string).
  split; [apply (RS reset_space (CAdd "o"%char Fermion Occupied [:: str "ab"%string] [::])); [constructor|reflexivity]|]. split.
  - intros sp names x E H. unfold space_indices, PartitionsModel.aget in E. destruct (Z.ltb sp 0); [discriminate|]. destruct (Z.to_nat sp) as [|[|k]]; try discriminate. injection E as <-. destruct H as [<-|[]]. discriminate.
  - split; [vm_compute; reflexivity|]. split; [vm_compute; reflexivity|]. intros K dim tens WS (l & out & E & _ & L & _). injection E as <- <-.
    specialize (WS _ (or_introl (erefl _))). unfold well_shaped in WS. cbn [List.map eq_rhs ex_scalar tm_tens] in L. rewrite WS in L. discriminate.
Qed.
Print Assumptions C60_long_names_refuted.
Example C60_nonvacuous : letter_names ex_st2 /\ enough_names ex_st2 (flat_map slots_of [:: ex_T; mkT [:: "V"%char] [:: mkI 1 0; mkI 1 7] [:: mkI 0 0; mkI 0 2] Antisymmetric false]) /\
  py_compile (fun _ => [:: "2"%char]) ex_st2 (ex_scalar [:: ex_T; mkT [:: "V"%char] [:: mkI 1 0; mkI 1 7] [:: mkI 0 0; mkI 0 2] Antisymmetric false]) =
    Ok (str "E += 2 * np.einsum('abij,ijab->', T[""vvoo""],V[""oovv""],optimize='optimal')"%string).
Proof.
  split; [|split; [|vm_compute; reflexivity]].
  - intros sp names x E H. unfold space_indices, PartitionsModel.aget in E. destruct (Z.ltb sp 0); [discriminate|]. destruct (Z.to_nat sp) as [|[|[|k]]]; try discriminate; injection E as <-; repeat destruct H as [H|H]; try (subst x; eexists; split; [reflexivity|vm_compute; tauto]); destruct H.
  - intros sp names E. unfold space_indices, PartitionsModel.aget in E. destruct (Z.ltb_spec sp 0); [discriminate|]. destruct (Z.to_nat sp) as [|[|[|k]]] eqn:Es; try discriminate; injection E as <-; [assert (sp = 0%Z) by lia|assert (sp = 1%Z) by lia]; subst sp; vm_compute; lia.
Qed.
