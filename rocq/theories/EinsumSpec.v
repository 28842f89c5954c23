(** Specification of numpy.einsum and of the value of an equation (C59). *)
Set Warnings "-notation-overridden,-ambiguous-paths".
From Coq Require Import ZArith List Bool Ascii String.
From mathcomp Require Import all_ssreflect ssralg.
From Verif Require Import Res RegistryModel CoreModel RationalModel TextModel EquationModel EquationSpec.
Set Implicit Arguments.
Unset Strict Implicit.
Unset Printing Implicit Defensive.
Import GRing.Theory.
Local Open Scope ring_scope.

Section Numpy.
  Variable K : comRingType.
  (** A numerical array: its shape, and its element at a list of positions. *)
  Record array := mkA { shape : seq nat; elem : seq nat -> K }.

  (** Sum over the values [0 .. dom x - 1] of each of the variables [l]; the others keep the value given by [env]. *)
  Fixpoint sum_over (X : Type) (eqb : X -> X -> bool) (dom : X -> nat) (l : seq X) (env : X -> nat) (F : (X -> nat) -> K) : K :=
    match l with
    | [::] => F env
    | x :: l' => \sum_(0 <= p < dom x) sum_over eqb dom l' (fun y => if eqb y x then p else env y) F
    end.

  (** The subscripts "ab,bc->ac": at the arrow, then at the commas. *)
  Fixpoint split_arrow (s : text) : option (text * text) :=
    match s with
    | [::] => None
    | c :: s' => match s' with
        | d :: r => if (Ascii.eqb c "-" && Ascii.eqb d ">")%bool then Some ([::], r) else omap (fun x => (c :: x.1, x.2)) (split_arrow s')
        | [::] => None
        end
    end.
  Fixpoint split_commas (s : text) : seq text :=
    match s with
    | [::] => [:: [::]]
    | c :: s' => if Ascii.eqb c "," then [::] :: split_commas s' else match split_commas s' with w :: ws => (c :: w) :: ws | [::] => [:: [:: c]] end
    end.
  (** The letters of the operands, each with the length of its axis; the length of the axis of a letter. *)
  Definition axes (ins : seq text) (args : seq array) : seq (ascii * nat) := flatten [seq List.combine x.1 (shape x.2) | x <- List.combine ins args].
  Fixpoint axis_length (c : ascii) (ax : seq (ascii * nat)) : nat := match ax with [::] => 0%N | (d, n) :: ax' => if Ascii.eqb d c then n else axis_length c ax' end.
  (** numpy accepts the call: at least one operand, one group of letters per operand and one letter per axis, axes with the same
      letter equally long, and in the output no letter twice and only letters of the operands. *)
  Definition accepts (sub : text) (args : seq array) : Prop :=
    exists l out, split_arrow sub = Some (l, out) /\ args <> [::] /\
      List.map (@List.length _) (split_commas l) = List.map (fun a => List.length (shape a)) args /\
      (forall c n m, In (c, n) (axes (split_commas l) args) -> In (c, m) (axes (split_commas l) args) -> n = m) /\
      NoDup out /\ incl out (List.concat (split_commas l)).
  (** The element at [r] of the result: the letters of the output have the values [r], the others are summed over their axes. *)
  Fixpoint letter_value (out : text) (r : seq nat) (c : ascii) : nat :=
    match out, r with d :: out', p :: r' => if Ascii.eqb c d then p else letter_value out' r' c | _, _ => 0%N end.
  Definition einsum (sub : text) (args : seq array) (r : seq nat) : K :=
    match split_arrow sub with
    | None => 0
    | Some (l, out) => let ins := split_commas l in
        sum_over Ascii.eqb (fun c => axis_length c (axes ins args))
          (nodup ascii_dec (List.filter (fun c => negb (existsb (Ascii.eqb c) out)) (List.concat ins))) (letter_value out r)
          (fun env => \prod_(x <- List.combine ins args) elem x.2 (List.map env x.1))
    end.
End Numpy.

Section Equation.
  Variables (K : comRingType) (st : osi).
  (** The number of orbitals of each space; the arrays [label["ooov"]]. *)
  Variable dim : Z -> nat.
  Variable tens : text -> text -> array K.
  Definition space_key (l : list index) : text := List.map (fun i => match space_label st (isp i) with Ok c => c | _ => zero end) l.
  Definition array_of (t : tensor) : array K := tens (t_label t) (space_key (slots_of t)).
  (** The array of a tensor has one axis per index, as long as the space of the index. *)
  Definition well_shaped (t : tensor) : Prop := shape (array_of t) = List.map (fun i => dim (isp i)) (slots_of t).
  (** The product of the tensors of the right-hand side, for the values [phi] of the indices of the left-hand tensor, summed over
      the orbitals of all other indices. *)
  Definition rhs_value (lhs : tensor) (rhs : list tensor) (phi : index -> nat) : K :=
    sum_over index_eqb (fun i => dim (isp i))
      (nodup index_dec (List.filter (fun i => negb (existsb (index_eqb i) (slots_of lhs))) (flat_map slots_of rhs))) phi
      (fun phi => \prod_(t <- rhs) elem (array_of t) (List.map phi (slots_of t))).
  (** The text of the call. *)
  Definition arg_text (t : tensor) : text := (str "," ++ t_label t ++ str "[""" ++ space_key (slots_of t) ++ str """]")%list.
  Definition statement_text (factor : text) (sub : text) (lhs : tensor) (rhs : list tensor) : text :=
    (t_label lhs ++ space_key (slots_of lhs) ++ str " += " ++ factor ++ str " * np.einsum(" ++ str """" ++ sub ++ str """" ++ flat_map arg_text rhs ++
    str ",optimize=""optimal"")")%list.
End Equation.
