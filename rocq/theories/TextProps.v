(** C06, C51, C52, C54: printing and parsing. *)
From Coq Require Import ZArith List Bool Ascii Lia.
From Verif Require Import Res RegistryModel RegistryProofs RegistryProps CoreModel RationalModel RationalSpec DecModel TextModel TextSpec TextProofs TextProofs2 TextProofs3 TextProofs4.
Import ListNotations.
Local Open Scope Z_scope.

(** C06: a canonical rational whose parts fit an [int], printed with or without a plus sign, parses back to itself. *)
Theorem C06_roundtrip : forall r sign, canonical r -> in_int r -> make_rational (rat_str r sign) = Ok r.
Proof. exact rat_roundtrip. Qed.
Print Assumptions C06_roundtrip.
(** C06: exactly the strings of the grammar are accepted, with the value they denote; every other string throws. *)
Theorem C06_accepts : forall s r, make_rational s = Ok r <-> exists n d, reads_rational s n d /\ r = rat_make n d.
Proof. exact make_rational_iff. Qed.
Print Assumptions C06_accepts.
Theorem C06_rejects : forall s, make_rational s = Throw <-> ~ exists n d, reads_rational s n d.
Proof. exact make_rational_throws. Qed.
Print Assumptions C06_rejects.
(** C06: distinct canonical rationals print differently. *)
Theorem C06_injective : forall a b s, canonical a -> canonical b -> in_int a -> in_int b -> rat_str a s = rat_str b s -> a = b.
Proof. exact rat_str_inj. Qed.
Print Assumptions C06_injective.

(** C51: a printable index parses back to itself. *)
Theorem C51_roundtrip : forall st i, reachable st -> printable_index st i -> exists s, index_str st i = Ok s /\ make_index st s = Ok i.
Proof. exact index_roundtrip. Qed.
Print Assumptions C51_roundtrip.
(** C51: the accepted strings are: a registered letter, an optional underscore, digits that fit an [int]. *)
Theorem C51_accepts : forall st s i, make_index st s = Ok i <-> exists c, reads_index s c (ipos i) /\ label_to_space st c = Ok (isp i).
Proof. exact make_index_iff. Qed.
Print Assumptions C51_accepts.
Theorem C51_rejects : forall st s, make_index st s = Throw <-> ~ exists c p sp, reads_index s c p /\ label_to_space st c = Ok sp.
Proof. exact make_index_throws. Qed.
Print Assumptions C51_rejects.

(** C52: parsing a printed tensor gives its label and its index lists, with the requested symmetry and no conjugation. *)
Theorem C52_roundtrip : forall st t, reachable st -> t_label t <> [] -> all_of is_alnum (t_label t) ->
  Forall (printable_index st) (t_upper t) -> Forall (printable_index st) (t_lower t) ->
  exists s, tensor_str st t = Ok s /\ forall sym, make_tensor st s sym = Ok (mkT (t_label t) (t_lower t) (t_upper t) sym false).
Proof. exact tensor_roundtrip. Qed.
Print Assumptions C52_roundtrip.

(** C54: distinct indices have distinct LaTeX names, if no registered name looks like label_{number}. *)
Theorem C54_injective : forall st i j x, reachable st -> (forall sp names y, space_indices st sp = Ok names -> In y names -> ~ generic_name st y) ->
  index_latex st i = Ok x -> index_latex st j = Ok x -> i = j.
Proof. exact index_latex_inj. Qed.
Print Assumptions C54_injective.
Theorem C54_defined : forall st i, 0 <= isp i < num_spaces st -> exists x, index_latex st i = Ok x.
Proof. exact index_latex_ok. Qed.
Print Assumptions C54_defined.

(** Without that proviso two indices can share a name. *)
Definition ex_clash := CAdd "o"%char Fermion Occupied [["o"; "_"; "{"; "5"; "}"]%char] [].
Theorem C54_clash_refuted : exists st i j x, reachable st /\ i <> j /\ index_latex st i = Ok x /\ index_latex st j = Ok x.
Proof.
  exists (fst (reg_step reset_space ex_clash)), (mkI 0 0), (mkI 0 5), ["o"; "_"; "{"; "5"; "}"]%char. split; [|split; [discriminate|split; reflexivity]].
  apply (RS reset_space ex_clash); [constructor|reflexivity].
Qed.
Print Assumptions C54_clash_refuted.

Example C06_nonvacuous : canonical (mkR (-12) 35) /\ in_int (mkR (-12) 35) /\ rat_str (mkR (-12) 35) true = ["-"; "1"; "2"; "/"; "3"; "5"]%char.
Proof. repeat split; try reflexivity; unfold max_int; cbn; lia. Qed.
Example C06_reads : reads_rational [" "; "+"; "6"; "/"; "4"; " "]%char 6 4 /\ make_rational [" "; "+"; "6"; "/"; "4"; " "]%char = Ok (mkR 3 2) /\ make_rational ["/"; "4"]%char = Throw.
Proof.
  split; [|split; reflexivity]. apply (rr_frac [" "%char] ["+"%char] 1 ["6"%char] 6 ["4"%char] 4 [" "%char]); try discriminate.
  - repeat constructor.
  - right. left. auto.
  - split; [repeat constructor|]. right. split; [discriminate|]. split; [reflexivity|]. unfold max_int. lia.
  - split; [repeat constructor|]. right. split; [discriminate|]. split; [reflexivity|]. unfold max_int. lia.
  - repeat constructor.
Qed.
Example C51_nonvacuous : printable_index ex_st2 (mkI 1 12) /\ index_str ex_st2 (mkI 1 12) = Ok ["v"; "1"; "2"]%char /\ make_index ex_st2 ["v"; "_"; "1"; "2"]%char = Ok (mkI 1 12) /\ make_index ex_st2 ["x"; "1"]%char = Throw.
Proof. split; [|split; [reflexivity|split; reflexivity]]. split; [unfold max_int; cbn; lia|]. exists "v"%char. split; reflexivity. Qed.
Example C52_nonvacuous : tensor_str ex_st2 (mkT ["T"; "2"]%char [mkI 0 0; mkI 0 1] [mkI 1 0; mkI 1 1] Antisymmetric false)
  = Ok ["T"; "2"; "^"; "{"; "v"; "0"; ","; "v"; "1"; "}"; "_"; "{"; "o"; "0"; ","; "o"; "1"; "}"]%char.
Proof. reflexivity. Qed.
Example C54_nonvacuous : (forall sp names y, space_indices ex_st2 sp = Ok names -> In y names -> ~ generic_name ex_st2 y) /\
  index_latex ex_st2 (mkI 1 1) = Ok ["b"%char] /\ index_latex ex_st2 (mkI 1 2) = Ok ["v"; "_"; "{"; "2"; "}"]%char.
Proof.
  split; [|split; reflexivity]. intros sp names y H Hy (s & l & p & _ & ->). unfold space_indices, PartitionsModel.aget in H. destruct (Z.ltb sp 0); [discriminate|].
  destruct (Z.to_nat sp) as [|[|[|n]]]; cbn in H; try discriminate; injection H as <-; cbn [In] in Hy; destruct Hy as [Hy|[Hy|[]]]; discriminate.
Qed.
