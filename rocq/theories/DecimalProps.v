(** C65: the decimal coefficients of compiled statements. *)
From Coq Require Import String.
From Coq Require Import ZArith QArith Qabs Qpower List Bool Ascii Lia.
From Verif Require Import Res RegistryModel CoreModel RationalModel RationalSpec AlgebraModel AlgebraSpec OperatorModel WickSearchModel WickSearchSpec WickEvalModel WickLinearProofs DecModel TextModel TextSpec EquationModel EquationSpec EquationProps TextProps RegistryProps
  EqTextModel EqTextSpec EqTextProofs AmbitSpec DecimalModel DecimalSpec DecimalProofs DecimalProofs2 DecimalProofs3 EqTextProps ContractShapeProps.
Import ListNotations.
Local Open Scope Q_scope.

(** [to_double] is the closest double as long as numerator and denominator are at most 2^53, ... *)
Theorem C65_to_double : forall r, (0 < den r)%Z -> (Z.abs (num r) <= 2 ^ 53 /\ den r <= 2 ^ 53)%Z -> nearest_double (to_double r) (Qval r).
Proof. exact to_double_small. Qed.
Print Assumptions C65_to_double.
(** ... and within a relative error of 2^-51 otherwise. *)
Theorem C65_to_double_error : forall r, (0 < den r)%Z -> Qabs (to_double r - Qval r) <= Qabs (Qval r) * (1 # 2 ^ 51).
Proof. exact to_double_error. Qed.
Print Assumptions C65_to_double_error.
(** The coefficient of an einsum statement is a decimal number with 9 places, that of an ambit statement has 6; each is half a unit in the
    last place (and the error of [to_double]) away from the coefficient. *)
Theorem C65_einsum_error : forall r, (0 < den r)%Z -> exists y, reads_decimal 9 (einsum_factor r) y /\ Qabs (y - Qval r) <= (1 # 2000000000) + Qabs (Qval r) * (1 # 2 ^ 51).
Proof. exact (decimal_error 9). Qed.
Print Assumptions C65_einsum_error.
Theorem C65_ambit_error : forall r, (0 < den r)%Z -> exists y, reads_decimal 6 (ambit_factor r) y /\ Qabs (y - Qval r) <= (1 # 2000000) + Qabs (Qval r) * (1 # 2 ^ 51).
Proof. exact (decimal_error 6). Qed.
Print Assumptions C65_ambit_error.
(** A coefficient that has a finite decimal expansion of that length is written exactly, ... *)
Theorem C65_einsum_exact : forall r z, (0 < den r)%Z -> Qval r * 1000000000 == inject_Z z -> (Z.abs z < 2 ^ 50)%Z -> exists y, reads_decimal 9 (einsum_factor r) y /\ y == Qval r.
Proof. exact (decimal_exact 9). Qed.
Print Assumptions C65_einsum_exact.
Theorem C65_ambit_exact : forall r z, (0 < den r)%Z -> Qval r * 1000000 == inject_Z z -> (Z.abs z < 2 ^ 50)%Z -> exists y, reads_decimal 6 (ambit_factor r) y /\ y == Qval r.
Proof. exact (decimal_exact 6). Qed.
Print Assumptions C65_ambit_exact.
(** ... and a small one is written as 0. *)
Theorem C65_einsum_vanishes : forall r, (0 < den r)%Z -> Qabs (Qval r) * 1000000000 < 49 # 100 -> exists y, reads_decimal 9 (einsum_factor r) y /\ y == 0.
Proof. exact (decimal_vanishes 9). Qed.
Print Assumptions C65_einsum_vanishes.
Theorem C65_ambit_vanishes : forall r, (0 < den r)%Z -> Qabs (Qval r) * 1000000 < 49 # 100 -> exists y, reads_decimal 6 (ambit_factor r) y /\ y == 0.
Proof. exact (decimal_vanishes 6). Qed.
Print Assumptions C65_ambit_vanishes.
(** A decimal text stands for one number. *)
Theorem C65_unambiguous : forall k s x y, reads_decimal k s x -> reads_decimal k s y -> x == y.
Proof. exact decimal_unique. Qed.
Print Assumptions C65_unambiguous.
(** The written coefficients are in the order of the coefficients (numerators and denominators at most 2^53), ... *)
Theorem C65_einsum_order : forall r q a b, (0 < den r)%Z -> (0 < den q)%Z -> (Z.abs (num r) <= 2 ^ 53 /\ den r <= 2 ^ 53)%Z -> (Z.abs (num q) <= 2 ^ 53 /\ den q <= 2 ^ 53)%Z -> Qval r <= Qval q ->
  reads_decimal 9 (einsum_factor r) a -> reads_decimal 9 (einsum_factor q) b -> a <= b.
Proof. exact (decimal_order 9). Qed.
Print Assumptions C65_einsum_order.
Theorem C65_ambit_order : forall r q a b, (0 < den r)%Z -> (0 < den q)%Z -> (Z.abs (num r) <= 2 ^ 53 /\ den r <= 2 ^ 53)%Z -> (Z.abs (num q) <= 2 ^ 53 /\ den q <= 2 ^ 53)%Z -> Qval r <= Qval q ->
  reads_decimal 6 (ambit_factor r) a -> reads_decimal 6 (ambit_factor q) b -> a <= b.
Proof. exact (decimal_order 6). Qed.
Print Assumptions C65_ambit_order.
(** ... and the coefficient with the other sign is written with the other sign. *)
Theorem C65_einsum_negation : forall r a b, canonical r -> reads_decimal 9 (einsum_factor r) a -> reads_decimal 9 (einsum_factor (rat_neg r)) b -> b == - a.
Proof. exact (decimal_neg 9). Qed.
Print Assumptions C65_einsum_negation.
Theorem C65_ambit_negation : forall r a b, canonical r -> reads_decimal 6 (ambit_factor r) a -> reads_decimal 6 (ambit_factor (rat_neg r)) b -> b == - a.
Proof. exact (decimal_neg 6). Qed.
Print Assumptions C65_ambit_negation.
(** The ambit statements of a result of [contract], with the coefficient written as it is. *)
Theorem C65_contract_ambit : forall o st factor e minrank maxrank r label x, plain_labels_of st -> plain_name label ->
  List.Forall (fun y => ops_ok st (fst y) /\ fst y <> [] /\ List.Forall (fun q => plain_name (op_label q)) (fst y) /\ canonical (snd y)) e -> canonical factor -> contract_expr o st factor e minrank maxrank (Ok r) -> In x r ->
  exists lhs f y s, tm_tens (eq_lhs (equation_of label x)) = [lhs] /\ compile_ambit ambit_factor st (equation_of label x) = Ok s /\ reads_ambit s (ref_of st lhs) f (List.map (ref_of st) (tm_tens (fst x))) /\
    reads_decimal 6 f y /\ Qabs (y - Qval (snd x)) <= (1 # 2000000) + Qabs (Qval (snd x)) * (1 # 2 ^ 51).
Proof.
  intros o st factor e n m r label x P L H Hf C I. destruct (C64_contract ambit_factor o st factor e n m r label x P L (fun f => fixed_plain 6 (to_double f))) as (lhs & s & A & _ & B & D); auto.
  - eapply Forall_impl; [|exact H]. intros y (Y1 & Y2 & Y3 & Y4). exact (conj Y1 (conj Y2 Y3)).
  - assert (W : wf term_ltb r) by (eapply C63_well_formed; [|exact Hf|exact C]; eapply Forall_impl; [|exact H]; intros y (Y1 & Y2 & Y3 & Y4); exact (conj Y1 Y4)).
    assert (Hd : (0 < den (snd x))%Z) by (destruct W as (_ & W & _); destruct x as [t c]; apply (proj1 (Forall_forall _ _) W) in I; destruct I as (J & _); exact J).
    destruct (C65_ambit_error (snd x) Hd) as (y & Y1 & Y2). exists lhs, (ambit_factor (snd x)), y, s. auto.
Qed.
Print Assumptions C65_contract_ambit.

(** The text is not always the coefficient: a non-zero coefficient can be written as 0 (1/13! by einsum, -1/10! by ambit), ... *)
Theorem C65_zero_refuted : exists r q, canonical r /\ canonical q /\ num r <> 0%Z /\ num q <> 0%Z /\ einsum_factor r = str "0.000000000" /\ ambit_factor q = str "-0.000000".
Proof. exists (mkR 1 6227020800), (mkR (-1) 3628800). repeat split; try discriminate; vm_compute; reflexivity. Qed.
Print Assumptions C65_zero_refuted.
(** ... different coefficients can have the same text, ... *)
Theorem C65_distinct_refuted : exists r q, canonical r /\ canonical q /\ r <> q /\ ambit_factor r = ambit_factor q /\ reads_decimal 6 (ambit_factor r) (3 # 1000000).
Proof.
  exists (mkR 1 331776), (mkR 1 331777). repeat split; try discriminate; try (vm_compute; reflexivity).
  replace (ambit_factor (mkR 1 331776)) with ([] ++ str "0" ++ ["."%char] ++ str "000003") by (vm_compute; reflexivity).
  change (3 # 1000000) with (inject_Z 1 * (inject_Z (dec_value (str "0" ++ str "000003")) / inject_Z (10 ^ Z.of_nat 6))). apply rd_intro; try discriminate; try (repeat constructor).
Qed.
Print Assumptions C65_distinct_refuted.
(** ... and [to_double] need not be the closest double when the numerator has more than 53 bits. *)
Theorem C65_to_double_refuted : exists r, canonical r /\ ~ nearest_double (to_double r) (Qval r).
Proof.
  exists (mkR 9007199254740995 3). split; [split; reflexivity|]. intros (_ & N). specialize (N (6004799503160663 # 2)).
  assert (D : is_double (6004799503160663 # 2)) by (exists 6004799503160663%Z, (-1)%Z; split; [cbn; lia|reflexivity]). specialize (N D). vm_compute in N. apply N. reflexivity.
Qed.
Print Assumptions C65_to_double_refuted.
(** ... and does not keep the order then. *)
Theorem C65_order_refuted : exists r q, canonical r /\ canonical q /\ Qval r < Qval q /\ to_double q < to_double r /\ einsum_factor r = str "3002399751580332.000000000" /\ einsum_factor q = str "3002399751580331.500000000".
Proof. exists (mkR 9007199254740995 3), (mkR 30023997515803317 10). repeat split; vm_compute; reflexivity. Qed.
Print Assumptions C65_order_refuted.

(** ** A case *)
Example C65_nonvacuous : einsum_factor (mkR 1 3) = str "0.333333333" /\ einsum_factor (mkR (-1) 4) = str "-0.250000000" /\ einsum_factor (mkR 7 1) = str "7.000000000" /\ ambit_factor (mkR (-1) 12) = str "-0.083333" /\
  ambit_factor (mkR 1 128) = str "0.007812" /\ canonical (mkR (-1) 4) /\ Qval (mkR (-1) 4) * 1000000000 == inject_Z (-250000000).
Proof. repeat split; vm_compute; reflexivity. Qed.
Example C65_contract_nonvacuous : plain_labels_of ex_st2 /\ plain_name (str "R") /\
  List.Forall (fun y => ops_ok ex_st2 (fst y) /\ fst y <> [] /\ List.Forall (fun q => plain_name (op_label q)) (fst y) /\ canonical (snd y)) [(cs_ops, rat_of_Z 1)] /\ canonical (rat_of_Z 1) /\
  contract_expr (mkWT 100 false) ex_st2 (rat_of_Z 1) [(cs_ops, rat_of_Z 1)] 0%Z 0%Z (Ok [(cs_t, mkR 1 1)]) /\
  compile_ambit ambit_factor ex_st2 (equation_of (str "R") (cs_t, mkR 1 1)) = Ok (str "R += 1.000000 * F[v0,o0] * T[o0,v0];").
Proof.
  destruct C64_contract_nonvacuous as (P & F & C & _). split; [exact P|]. split; [split; [discriminate|repeat constructor]|]. inversion F as [|y l (A & B & D) _]; subst.
  split; [constructor; [|constructor]; refine (conj A (conj B (conj D _))); split; reflexivity|]. split; [split; reflexivity|]. split; [exact C|]. vm_compute. reflexivity.
Qed.
Example C65_order_nonvacuous : canonical (mkR 1 128) /\ Qval (mkR (-1) 12) <= Qval (mkR 1 128) /\ (exists a, reads_decimal 6 (ambit_factor (mkR (-1) 12)) a) /\ (exists b, reads_decimal 6 (ambit_factor (mkR 1 128)) b) /\
  ambit_factor (rat_neg (mkR 1 128)) = str "-0.007812" /\ exists c, reads_decimal 6 (ambit_factor (rat_neg (mkR 1 128))) c.
Proof.
  split; [split; reflexivity|]. split; [vm_compute; discriminate|]. split; [|split; [|split; [vm_compute; reflexivity|]]]; eexists; apply fixed_reads.
Qed.
