(** Specification for C73: executing the generated numpy program, and the operator that the computed arrays stand for. *)
Set Warnings "-notation-overridden,-ambiguous-paths".
From Coq Require Import ZArith QArith List Bool Ascii String.
From mathcomp Require Import all_ssreflect ssralg.
From Verif Require Import Res RegistryModel RegistryProofs CoreModel RationalModel RationalSpec ScalarSem OperatorModel WickSearchModel WickSearchSpec WickEvalModel DecimalModel DecimalSpec TextModel TextSpec AlgebraModel EquationModel EquationSpec EinsumSpec CanonSemSpec.
Set Implicit Arguments.
Unset Strict Implicit.
Unset Printing Implicit Defensive.
Import GRing.Theory.
Local Open Scope ring_scope.
Delimit Scope Z_scope with Z.
Delimit Scope Q_scope with Q.

(** ** Statements *)
(** [name += factor * np.einsum("sub",l1["k1"],l2["k2"],...,optimize="optimal")] *)
Record statement := mkStm { sm_name : text; sm_factor : text; sm_sub : text; sm_args : seq (text * text) }.
(** Names, numbers and strings: no blanks, quotes or brackets inside. *)
Definition plain (t : text) : Prop := forall c, In c t -> c <> " "%char /\ c <> """"%char /\ c <> "["%char /\ c <> "="%char.
Definition reads_as (t : text) (s : statement) : Prop :=
  plain (sm_name s) /\ plain (sm_factor s) /\ plain (sm_sub s) /\ (forall a, In a (sm_args s) -> plain a.1 /\ plain a.2) /\
  t = (sm_name s ++ str " += " ++ sm_factor s ++ str " * np.einsum(" ++ str """" ++ sm_sub s ++ str """" ++
       flat_map (fun a => str "," ++ a.1 ++ str "[""" ++ a.2 ++ str """]") (sm_args s) ++ str ",optimize=""optimal"")")%list.

Section Execution.
  Variable K : comRingType.
  (** The arrays [label["key"]], and the numbers written in the program. *)
  Variable tens : text -> text -> array K.
  Variable number : text -> K.
  (** The shape of the result of einsum. *)
  Definition einsum_shape (sub : text) (args : seq (array K)) : seq nat :=
    match split_arrow sub with Some (l, out) => [seq axis_length c (axes (split_commas l) args) | c <- out] | None => [::] end.
  (** The arrays the program assigns to, by name.  A statement adds to the one it names: numpy has to accept the call of einsum, and its result
      must have the shape of the array. *)
  Definition memory := text -> array K.
  Definition adds (s : statement) (v v' : memory) : Prop :=
    let args := [seq tens a.1 a.2 | a <- sm_args s] in
    accepts (sm_sub s) args /\ einsum_shape (sm_sub s) args = shape (v (sm_name s)) /\
    forall n, shape (v' n) = shape (v n) /\
      forall ps, elem (v' n) ps = if text_eqb n (sm_name s) then elem (v n) ps + number (sm_factor s) * einsum (sm_sub s) args ps else elem (v n) ps.
  Inductive executes : seq text -> memory -> memory -> Prop :=
  | ex_done v : executes [::] v v
  | ex_next t s p v v1 v2 : reads_as t s -> adds s v v1 -> executes p v1 v2 -> executes (t :: p) v v2.
End Execution.

(** ** The program generated for the many-body equations of an expression *)
(** For each key of [to_manybody_equation(label)] the statements [compile("einsum")] of its equations, in order. *)
Definition generates (fmt : rational -> text) (st : osi) (label : text) (r : expression) (prog : seq (text * seq text)) : Prop :=
  exists m, to_manybody st label r = Ok m /\
    List.Forall2 (fun kl kp => kp.1 = kl.1 /\ List.Forall2 (fun q s => compile_einsum fmt st q = Ok s) kl.2 kp.2) m prog.

(** ** What the keys "oo|vv" stand for *)
Fixpoint split_bar (k : text) : text * text :=
  match k with [::] => ([::], [::]) | c :: k' => if Ascii.eqb c "|" then ([::], k') else (c :: (split_bar k').1, (split_bar k').2) end.
Definition spaces_named (st : osi) (t : text) : seq Z := [seq match label_to_space st c with Ok s => s | _ => (-1)%Z end | c <- t].
(** Left of the bar the spaces of the first axes, right of it those of the remaining ones, backwards. *)
Definition key_upper (st : osi) (k : text) : seq Z := spaces_named st (split_bar k).1.
Definition key_lower (st : osi) (k : text) : seq Z := spaces_named st (rev (split_bar k).2).
(** The name of the array. *)
Definition key_name (label k : text) : text := (label ++ (split_bar k).1 ++ rev (split_bar k).2)%list.
(** The lists with elements below the given numbers. *)
Fixpoint positions (dims : seq nat) : seq (seq nat) :=
  match dims with [::] => [:: [::]] | n :: ds => [seq p :: ps | p <- seq.iota 0 n, ps <- positions ds] end.
(** The creation operators of the orbitals on the lower axes, in order, then the annihilation operators of those on the upper axes, in reverse
    order. *)
Definition axes_word (us ls : seq Z) (ps : seq nat) : seq (bool * (Z * nat)) :=
  [seq (true, x) | x <- zip ls (drop (size us) ps)] ++ rev [seq (false, x) | x <- zip us (take (size us) ps)].
Section Operator.
  Variables (K : fieldType) (V : lmodType K) (W : seq (bool * (Z * nat)) -> V) (dim : Z -> nat).
  (** The sum over all elements of the array times the operators of their position. *)
  Definition array_operator (us ls : seq Z) (R : array K) : V :=
    \sum_(ps <- positions [seq dim s | s <- us ++ ls]) elem R ps *: W (axes_word us ls ps).
  (** A new array: all elements zero, one axis per operator. *)
  Definition zero_array (us ls : seq Z) (R : array K) : Prop := shape R = [seq dim s | s <- us ++ ls] /\ forall ps, ps \in positions (shape R) -> elem R ps = 0.
  (** The array [label["key"]] holds the elements of a tensor with the upper spaces [us] and the lower spaces [ls]: first the upper axes. *)
  Definition holds (st : osi) (tens : text -> text -> array K) (T : text -> seq (Z * nat) -> seq (Z * nat) -> bool -> K) (label : text) (us ls : seq Z) : Prop :=
    exists ku kl, List.map (space_label st) us = List.map Ok ku /\ List.map (space_label st) ls = List.map Ok kl /\
      shape (tens label (ku ++ kl)%list) = [seq dim s | s <- us ++ ls] /\
      forall pu pl, pu \in positions [seq dim s | s <- us] -> pl \in positions [seq dim s | s <- ls] -> elem (tens label (ku ++ kl)%list) (pu ++ pl) = T label (zip ls pl) (zip us pu) false.
End Operator.

(** ** Assumptions about the input *)
(** Alphabetic labels of spaces, and no index that is called like a generated one. *)
Definition program_registry (st : osi) : Prop := reachable st /\ names_ok st /\ forall sp l, space_label st sp = Ok l -> is_alpha l = true.
(** A product of operators that can be compiled: not empty, at most 52 legs (the letters of einsum). *)
Definition program_product (st : osi) (ops : oprod) : Prop := ops_ok st ops /\ ops <> [::] /\ (ops_rank ops <= 52)%Z /\ forall o, In o ops -> plain (op_label o).
(** Coefficients with at most 9 decimals (and not too many digits) are written exactly (C65). *)
Definition short (c : rational) : Prop := exists z, Qeq (Qval c * 1000000000)%Q (inject_Z z) /\ (Z.abs z < 2 ^ 50)%Z.
Section Data.
  Variables (K : fieldType) (dim : Z -> nat) (st : osi) (tens : text -> text -> array K) (T : text -> seq (Z * nat) -> seq (Z * nat) -> bool -> K).
  (** The program reads the elements of the tensors of the result from its arrays, ... *)
  Definition program_data (r : expression) : Prop :=
    forall x d, In x r -> In d (tm_tens x.1) -> holds dim st tens T (t_label d) (List.map isp (t_upper d)) (List.map isp (t_lower d)).
  (** ... and decimal numbers as what they are. *)
  Definition reads_numbers (number : text -> K) : Prop := forall s y, reads_decimal 9 s y -> number s = qK K y.
  (** [v k] is the memory after the program of the key [k], if its array was zero before. *)
  Definition run_of (number : text -> K) (label : text) (prog : seq (text * seq text)) (v : text -> memory K) : Prop :=
    forall k p, In (k, p) prog -> exists v0, zero_array dim (key_upper st k) (key_lower st k) (v0 (key_name label k)) /\ executes tens number p v0 (v k).
  (** The program of a scalar: a single key, "|", the result being the only element of the array [label] (without equations it is 0). *)
  Definition computes (number : text -> K) (label : text) (prog : seq (text * seq text)) (x : K) : Prop :=
    (prog = [::] /\ x = 0) \/
    exists p, prog = [:: (str "|", p)] /\ forall v0 v, shape (v0 label) = [::] -> elem (v0 label) [::] = 0 -> executes tens number p v0 v -> elem (v label) [::] = x.
End Data.

(** ** Numbered orbitals *)
(** [orbital s p] is the orbital of the space [s] at position [p] of its axes. *)
Section Numbered.
  Variables (K : Type) (orb : eqType) (orbital : Z -> nat -> orb).
  Definition orbitals_at (l : seq (Z * nat)) : seq (Z * orb) := [seq (x.1, orbital x.1 x.2) | x <- l].
  Definition operators_at (w : seq (bool * (Z * nat))) : seq (bool * (Z * orb)) := [seq (x.1, (x.2.1, orbital x.2.1 x.2.2)) | x <- w].
  Definition elements_at (T : text -> seq (Z * orb) -> seq (Z * orb) -> bool -> K) : text -> seq (Z * nat) -> seq (Z * nat) -> bool -> K :=
    fun label lo up cc => T label (orbitals_at lo) (orbitals_at up) cc.
  Definition all_orbitals (dim : Z -> nat) (s : Z) : seq orb := [seq orbital s p | p <- seq.iota 0 (dim s)].
End Numbered.
