(** Properties C21 and C24: vacuum normal ordering terminates, gives normal-ordered results, is idempotent. *)
From Coq Require Import ZArith QArith List Bool Ascii.
From Verif Require Import Res RegistryModel CoreModel OrderProofs RationalModel RationalSpec AlgebraModel AlgebraSpec AlgebraProofs2 SortSpec NormalOrderModel NormalOrderProofs NormalOrderProofs2.
Import ListNotations.

(** C21: for every expression without terms labelled normal ordered (and any number and kind of
    operators), the call returns (the recursion never runs out of fuel), and the result is
    normal ordered according to [is_vacuum_normal_ordered]. *)
Theorem C21_terminates_normal_ordered : forall st only (e : expression), (forall x, In x e -> tm_no (fst x) = false) ->
  exists r, expr_vno st only e = Ok r /\ expr_is_vno r = true.
Proof.
  exact (fun st only e H => let (r, Hr) := expr_vno_total st only e H in
    ex_intro _ r (conj Hr (proj2 (forallb_forall _ _)
      (fun x Hx => proj1 (proj1 (proj1 (Forall_forall _ _) (expr_vno_form st only e r Hr) x Hx)))))).
Qed.
Print Assumptions C21_terminates_normal_ordered.
(** It throws exactly when some term is labelled normal ordered. *)
Theorem C21_throws_iff : forall st only (e : expression),
  expr_vno st only e = Throw <-> exists x, In x e /\ tm_no (fst x) = true.
Proof. exact expr_vno_throws. Qed.
Print Assumptions C21_throws_iff.
(** What [is_vacuum_normal_ordered] means for a term: no operator is smaller than an earlier one, so creation
    operators precede annihilation operators and indices are ordered. *)
Theorem C21_normal_ordered_meaning : forall t, term_is_vno t = true <-> ordered sqop_ltb (tm_ops t).
Proof. exact term_is_vno_ordered. Qed.
Print Assumptions C21_normal_ordered_meaning.
(** Each term of the result carries the tensors of a term of the input followed by deltas between
    two different indices of one space, and no adjacent identical fermionic operators. *)
Theorem C21_result_terms : forall st only (e r : expression), expr_vno st only e = Ok r ->
  Forall (fun x => no_adjacent_identical st (tm_ops (fst x)) = true /\
    exists y ds, In y e /\ tm_tens (fst x) = tm_tens (fst y) ++ ds /\ Forall is_delta ds) r.
Proof.
  exact (fun st only e r H => Forall_impl _ (fun x (Hx : vno_of st e (fst x)) => conj (proj2 (proj1 Hx)) (proj2 (proj2 Hx)))
    (expr_vno_form st only e r H)).
Qed.
Print Assumptions C21_result_terms.

(** C24: normal ordering twice is normal ordering once (whatever the two flags), as identical objects. *)
Theorem C24_idempotent : forall st only only' (e r : expression), mcanon e ->
  expr_vno st only e = Ok r -> expr_vno st only' r = Ok r.
Proof. exact expr_vno_idem. Qed.
Print Assumptions C24_idempotent.
(** A well-formed expression whose terms are unlabelled, ordered and without adjacent identical fermionic operators
    is returned unchanged. *)
Theorem C24_fixed_points : forall st only (e : expression), wf term_ltb e ->
  (forall x, In x e -> (term_is_vno (fst x) = true /\ no_adjacent_identical st (tm_ops (fst x)) = true) /\ tm_no (fst x) = false) ->
  expr_vno st only e = Ok e.
Proof. exact expr_vno_fixed. Qed.
Print Assumptions C24_fixed_points.

(** ** Non-vacuity *)
Definition ex_st : osi := mkOSI [mkOS "o"%char Occupied Fermion [] []; mkOS "b"%char General Boson [] []] [] [].
Definition ex_w : term := mkTerm false [mkSQ false (mkI 0 0); mkSQ true (mkI 0 1); mkSQ false (mkI 1 0); mkSQ true (mkI 1 0)] [].
Example C21_nonvacuous : exists r, expr_vno ex_st false (build term_ltb [(ex_w, rat_make 1 2)]) = Ok r /\ length r = 4%nat /\ expr_is_vno r = true.
Proof. eexists. split; [vm_compute; reflexivity|split; reflexivity]. Qed.
(** a_0 a_0^+ = 1 - a_0^+ a_0. *)
Example C21_example : expr_vno ex_st false [(mkTerm false [mkSQ false (mkI 0 0); mkSQ true (mkI 0 0)] [], rat_of_Z 1)]
  = Ok [(mkTerm false [] [], rat_of_Z 1); (mkTerm false [mkSQ true (mkI 0 0); mkSQ false (mkI 0 0)] [], rat_of_Z (-1))].
Proof. vm_compute. reflexivity. Qed.
