(** Specification for C75: executing the generated ambit statements. *)
Set Warnings "-notation-overridden,-ambiguous-paths".
From Coq Require Import ZArith QArith List Bool Ascii String.
From mathcomp Require Import all_ssreflect ssralg.
From Verif Require Import Res RegistryModel RegistryProofs CoreModel RationalModel RationalSpec ScalarSem OperatorModel WickSearchModel WickSearchSpec WickEvalModel DecimalModel DecimalSpec TextModel TextSpec AlgebraModel EquationModel EquationSpec EinsumSpec EqTextModel EqTextSpec AmbitSpec PipeSpec.
Set Implicit Arguments.
Unset Strict Implicit.
Unset Printing Implicit Defensive.
Import GRing.Theory.
Local Open Scope ring_scope.
Delimit Scope Z_scope with Z.
Delimit Scope Q_scope with Q.

(** The block of a tensor reference: the first characters of its index names. *)
Definition block_of (r : aref) : text := [seq hd zero n | n <- r.2].
(** The indices of the left-hand side have the values [ps]. *)
Fixpoint index_values (names : seq text) (ps : seq nat) (n : text) : nat :=
  match names, ps with x :: names', p :: ps' => if text_eqb n x then p else index_values names' ps' n | _, _ => 0%N end.
Section Execution.
  Variables (K : comRingType) (dimc : ascii -> nat).
  (** The blocks of the tensors, by label and block, and the numbers in the statements. *)
  Variable tens : text -> text -> array K.
  Variable number : text -> K.
  (** A statement adds to one block of the tensor on its left ([memory], PipeSpec.v; here blocks are named label ++ block).  Every block must have the
      dimensions its indices ask for, the indices on the left must be distinct and occur on the right. *)
  Definition ambit_adds (l : aref) (f : text) (rs : seq aref) (v v' : memory K) : Prop :=
    NoDup l.2 /\ incl l.2 (flat_map snd rs) /\ (forall r, In r rs -> shape (tens r.1 (block_of r)) = [seq dimc c | c <- block_of r]) /\
    shape (v (l.1 ++ block_of l)%list) = [seq dimc c | c <- block_of l] /\
    forall n, shape (v' n) = shape (v n) /\
      forall ps, elem (v' n) ps = if text_eqb n (l.1 ++ block_of l)%list then elem (v n) ps + number f * ambit_value dimc tens l rs (index_values l.2 ps) else elem (v n) ps.
  Inductive ambit_executes : seq text -> memory K -> memory K -> Prop :=
  | ax_done v : ambit_executes [::] v v
  | ax_next t l f rs p v v1 v2 : reads_ambit t l f rs -> ambit_adds l f rs v v1 -> ambit_executes p v1 v2 -> ambit_executes (t :: p) v v2.
End Execution.

(** For each key of [to_manybody_equation(label)] the statements [compile("ambit")] of its equations, in order. *)
Definition generates_ambit (fmt : rational -> text) (st : osi) (label : text) (r : expression) (prog : seq (text * seq text)) : Prop :=
  exists m, to_manybody st label r = Ok m /\
    List.Forall2 (fun kl kp => kp.1 = kl.1 /\ List.Forall2 (fun q s => compile_ambit fmt st q = Ok s) kl.2 kp.2) m prog.

(** Alphabetic labels of spaces. *)
Definition ambit_registry (st : osi) : Prop := reachable st /\ forall sp l, space_label st sp = Ok l -> is_alpha l = true.
(** A product of operators that can be compiled: not empty (any number of legs). *)
Definition ambit_product (st : osi) (ops : oprod) : Prop := ops_ok st ops /\ ops <> [::] /\ forall o, In o ops -> plain_name (op_label o).
(** Coefficients with at most 6 decimals (and not too many digits) are written exactly (C65). *)
Definition short6 (c : rational) : Prop := exists z, Qeq (Qval c * 1000000)%Q (inject_Z z) /\ (Z.abs z < 2 ^ 50)%Z.
Section Data.
  Variables (K : fieldType) (dim : Z -> nat) (dimc : ascii -> nat) (st : osi) (tens : text -> text -> array K).
  (** The number of orbitals of a space, by its label. *)
  Definition dimensions : Prop := forall s c, space_label st s = Ok c -> dimc c = dim s.
  Definition reads_numbers6 (number : text -> K) : Prop := forall s y, reads_decimal 6 s y -> number s = qK K y.
  (** [v k] is the memory after the statements of the key [k], if its block was zero before. *)
  Definition ambit_run (number : text -> K) (label : text) (prog : seq (text * seq text)) (v : text -> memory K) : Prop :=
    forall k p, In (k, p) prog -> exists v0, zero_array dim (key_upper st k) (key_lower st k) (v0 (key_name label k)) /\ ambit_executes dimc tens number p v0 (v k).
  Definition ambit_computes (number : text -> K) (label : text) (prog : seq (text * seq text)) (x : K) : Prop :=
    (prog = [::] /\ x = 0) \/
    exists p, prog = [:: (str "|", p)] /\ forall v0 v, shape (v0 label) = [::] -> elem (v0 label) [::] = 0 -> ambit_executes dimc tens number p v0 v -> elem (v label) [::] = x.
End Data.
