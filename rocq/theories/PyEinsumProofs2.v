(** C60: the value of the statement of compile_einsum. *)
Set Warnings "-notation-overridden,-ambiguous-paths".
From Coq Require Import ZArith List Bool Ascii String Lia.
From mathcomp Require Import all_ssreflect ssralg.
From Verif Require Import Res RegistryModel RegistryProofs CoreModel OrderProofs RationalModel TextModel EquationModel EquationSpec EquationProofs2 EinsumSpec EinsumProofs EinsumProofs2 PyEinsumModel PyEinsumSpec PyEinsumProofs.
Set Implicit Arguments.
Unset Strict Implicit.
Unset Printing Implicit Defensive.
Import GRing.Theory.
Local Open Scope ring_scope.

Definition letter_names (st : osi) : Prop := forall sp names x, space_indices st sp = Ok names -> In x names -> exists c, x = [:: c] /\ is_letter c.
Theorem py_value fmt st e lhs s : reachable st -> letter_names st -> hd_error (tm_tens (eq_lhs e)) = Some lhs -> slots_of lhs = [::] ->
  (forall t, In t (tm_tens (eq_rhs e)) -> forall i, In i (slots_of t) -> (0 <= isp i < num_spaces st)%Z) ->
  py_compile fmt st e = Ok s ->
  exists sub, s = py_statement st (fmt (eq_factor e)) sub (t_label lhs) (tm_tens (eq_rhs e)) /\
    forall (K : comRingType) (dim : Z -> nat) (tens : text -> text -> array K), (forall t, In t (tm_tens (eq_rhs e)) -> well_shaped st dim tens t) ->
      (accepts sub (List.map (array_of st tens) (tm_tens (eq_rhs e))) <-> tm_tens (eq_rhs e) <> [::]) /\
      (accepts sub (List.map (array_of st tens) (tm_tens (eq_rhs e))) -> forall phi : index -> nat,
         einsum sub (List.map (array_of st tens) (tm_tens (eq_rhs e))) [::] = rhs_value st dim tens lhs (tm_tens (eq_rhs e)) phi).
Proof.
  move=> R LN H Sl Rg E. have NE : nonempty_names st by move=> sp names x En Hx; have [c [-> _]] := LN _ _ _ En Hx.
  have [P Q] := py_scalar fmt st e lhs R NE H Sl Rg. move: P Q. set rhs := tm_tens (eq_rhs e) in E *. move=> P Q.
  have En : enough_names st (flat_map slots_of rhs).
    move=> sp names Es. case: (le_lt_dec (distinct_in (flat_map slots_of rhs) sp) (List.length names)) => // L. exfalso. have T : py_compile fmt st e = Throw by apply: Q => X; have := X sp names Es; lia.
    by rewrite T in E.
  have [f [Ef [Nf If]]] := P En. rewrite Ef in E. case: E => <-. eexists. split; first reflexivity. move=> K dim tens WS.
  pose g i := List.hd zero (f i).
  have fg : forall i, In i (flat_map slots_of rhs) -> f i = [:: g i] /\ is_letter (g i) by move=> i Hi; have [names [En' Hx]] := Nf i Hi; have [c [Ec Lc]] := LN _ _ _ En' Hx; rewrite /g Ec.
  have Esub : py_subscripts f rhs = (join (List.map (fun t => List.map g (slots_of t)) rhs) (str ",") ++ str "->" ++ List.map g (slots_of lhs))%list.
    rewrite /py_subscripts Sl. cbn [List.map]. rewrite app_nil_r. congr (join _ _ ++ _)%list. apply: map_ext_in => t Ht.
    have: forall i, In i (slots_of t) -> f i = [:: g i] by move=> i Hi; apply: (proj1 (fg i _)); apply/in_flat_map; exists t.
    elim: (slots_of t) => [|i l IH] X //. cbn [List.map List.concat]. rewrite (X i); last by left. rewrite IH //. move=> j Hj. apply: X. by right.
  have L1 : forall i, In i (flat_map slots_of (rhs ++ [:: lhs])) -> In i (flat_map slots_of rhs) by move=> i; rewrite flat_map_app in_app_iff /= Sl => -[].
  rewrite Esub. have A := @accept_iff K st dim tens lhs rhs WS g (fun i Hi => proj2 (fg i (L1 i Hi))) (fun i j Hi Hj Eg => If i j (L1 i Hi) (L1 j Hj) ltac:(rewrite (proj1 (fg i (L1 i Hi))) (proj1 (fg j (L1 j Hj))) Eg; reflexivity)).
  split; first by rewrite A Sl; split => [[]|] // Hr; split => //; split => //; constructor.
  move=> Acc phi. have := @einsum_value K st dim tens lhs rhs WS g (fun i Hi => proj2 (fg i (L1 i Hi))) (fun i j Hi Hj Eg => If i j (L1 i Hi) (L1 j Hj) ltac:(rewrite (proj1 (fg i (L1 i Hi))) (proj1 (fg j (L1 j Hj))) Eg; reflexivity)) phi Acc.
  have -> // : List.map phi (slots_of lhs) = [::] by rewrite Sl.
Qed.
