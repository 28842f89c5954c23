(** Specification of the LaTeX output (C62): a grammar of what a reader takes it to mean, and what it does not show. *)
From Coq Require Import String ZArith List Bool Ascii.
From Verif Require Import Res RegistryModel CoreModel RationalModel AlgebraModel DecModel TextModel TextSpec ExprTextModel LatexModel.
Import ListNotations.
Local Open Scope Z_scope.

(** ** The grammar *)
(** A row of index names: separated by one space. *)
Inductive reads_row (st : osi) : text -> list index -> Prop :=
| rrow_nil : reads_row st [] []
| rrow_one x i : index_latex st i = Ok x -> reads_row st x [i]
| rrow_cons x i s j l : index_latex st i = Ok x -> reads_row st s (j :: l) -> reads_row st (x ++ lit " " ++ s) (i :: j :: l).

(** A symbol: a Greek letter ({\lambda}), a name ({T}) or a name with a numerical subscript ({T_{2}}), read as lambda, T, T2. *)
Inductive reads_symbol : text -> text -> Prop :=
| rs_greek s : is_greek s = true -> reads_symbol (lit "{\" ++ s ++ lit "}") s
| rs_name s : s <> [] -> all_of is_alpha s -> is_greek s = false -> reads_symbol (lit "{" ++ s ++ lit "}") s
| rs_sub s d : s <> [] -> all_of is_alpha s -> is_greek s = false -> d <> [] -> all_of is_digit d ->
    reads_symbol (lit "{" ++ s ++ lit "_{" ++ d ++ lit "}" ++ lit "}") (s ++ d).

(** A tensor: symbol, upper indices, lower indices.  Symmetry and conjugation are not shown. *)
Inductive reads_tensor (st : osi) : text -> tensor -> Prop :=
| rt_intro s label u us l ls : reads_symbol s label -> reads_row st u us -> reads_row st l ls ->
    reads_tensor st (s ++ lit "^{" ++ u ++ lit "}_{" ++ l ++ lit "}") (mkT label ls us Nonsymmetric false).

(** One operator: a for fermions, b for bosons; creators carry the index upstairs. *)
Inductive reads_op (st : osi) : text -> sqop -> Prop :=
| ro_cre x y i : op_symbol st (isp i) = Ok x -> index_latex st i = Ok y -> reads_op st (lit "\hat{" ++ x ++ lit "}^{" ++ y ++ lit "}") (mkSQ true i)
| ro_ann x y i : op_symbol st (isp i) = Ok x -> index_latex st i = Ok y -> reads_op st (lit "\hat{" ++ x ++ lit "}_{" ++ y ++ lit "}") (mkSQ false i).
(** A product of operators: written one after the other, or in the compact notation a^{pq..}_{rs..} = p+ q+ .. s r. *)
Inductive reads_ops (st : osi) : text -> list sqop -> Prop :=
| ros_compact u us l ls : reads_row st u us -> reads_row st l ls ->
    reads_ops st (lit "\hat{a}^{" ++ u ++ lit "}_{" ++ l ++ lit "}") (map (mkSQ true) us ++ map (mkSQ false) (rev ls))
| ros_word xs qs : xs <> [] -> Forall2 (reads_op st) xs qs -> reads_ops st (join xs (lit " ")) qs.

(** A term: the tensors, then the operators, in braces if the term is normal ordered. *)
Inductive reads_term (st : osi) : text -> term -> Prop :=
| rtm_tensors xs ts : Forall2 (reads_tensor st) xs ts -> reads_term st (join xs (lit " ")) (mkTerm false [] ts)
| rtm_product xs ts o os : Forall2 (reads_tensor st) xs ts -> reads_ops st o os -> reads_term st (join (xs ++ [o]) (lit " ")) (mkTerm false os ts)
| rtm_normal xs ts o os : Forall2 (reads_tensor st) xs ts -> reads_ops st o os ->
    reads_term st (join (xs ++ [lit "\{"; o; lit "\}"]) (lit " ")) (mkTerm true os ts).

(** A coefficient: a sign alone stands for plus or minus 1. *)
Inductive reads_coefficient : text -> Z -> Z -> Prop :=
| rc_plus : reads_coefficient (lit "+") 1 1
| rc_minus : reads_coefficient (lit "-") (-1) 1
| rc_int sg v n : sign_text sg v -> all_of is_digit n -> n <> [] -> reads_coefficient (sg ++ n) (v * dec_value n) 1
| rc_frac sg v n d : sign_text sg v -> all_of is_digit n -> n <> [] -> all_of is_digit d -> d <> [] ->
    reads_coefficient (sg ++ lit "\frac{" ++ n ++ lit "}{" ++ d ++ lit "}") (v * dec_value n) (dec_value d).
Inductive reads_entry (st : osi) : text -> term * rational -> Prop :=
| re_intro c n d s t : reads_coefficient c n d -> reads_term st s t -> reads_entry st (c ++ lit " " ++ s) (t, rat_make n d).
(** An expression: the entries, separated by [sep]. *)
Definition reads_expr (st : osi) (sep s : text) (e : expression) : Prop := exists xs, Forall2 (reads_entry st) xs e /\ s = join xs sep.

(** ** What is shown *)
(** Letters, possibly an underscore, possibly digits. *)
Definition good_label (label : text) : Prop := exists s u d, label = s ++ u ++ d /\ s <> [] /\ all_of is_alpha s /\ (u = [] \/ u = lit "_") /\ all_of is_digit d.
(** A label without the underscore, and without the number if it is a Greek letter. *)
Inductive shown_label : text -> text -> Prop :=
| sl_intro s u d : s <> [] -> all_of is_alpha s -> (u = [] \/ u = lit "_") -> all_of is_digit d ->
    shown_label (s ++ u ++ d) (s ++ (if is_greek s then [] else d)).
Inductive shown_tensor : tensor -> tensor -> Prop :=
| sh_tensor t label : shown_label (t_label t) label -> shown_tensor t (mkT label (t_lower t) (t_upper t) Nonsymmetric false).
Inductive shown_term : term -> term -> Prop :=
| sh_term t ts : Forall2 shown_tensor (tm_tens t) ts ->
    shown_term t (mkTerm (tm_no t && negb (length (tm_ops t) =? 0)%nat) (tm_ops t) ts).
Inductive shown_entry : term * rational -> term * rational -> Prop :=
| sh_entry t t' c : shown_term t t' -> shown_entry (t, c) (t', c).

(** ** When the output can be read without ambiguity *)
(** Braces match: [depth d s] is the depth after [s], if no brace closes too early. *)
Fixpoint depth (d : nat) (s : text) : option nat :=
  match s with
  | [] => Some d
  | c :: s' =>
      if Ascii.eqb c "{" then depth (S d) s'
      else if Ascii.eqb c "}" then match d with O => None | S d' => depth d' s' end
      else depth d s'
  end.
Definition balanced (s : text) : Prop := depth 0 s = Some O.
(** Index names: not empty, without blanks, with matching braces, and none that looks like the generic name label_{number}; space
    labels that are neither blanks nor braces. *)
Definition readable_names (st : osi) : Prop :=
  (forall sp names y, space_indices st sp = Ok names -> In y names -> ~ generic_name st y /\ y <> [] /\ balanced y /\ Forall (fun c => is_ws c = false) y) /\
  (forall sp l, space_label st sp = Ok l -> is_ws l = false /\ l <> "{"%char /\ l <> "}"%char).
(** The line separator: ends in its only newline. *)
Definition line_sep (sep : text) : Prop := exists w, sep = w ++ [newline] /\ ~ In newline w.

(** Indices of registered spaces. *)
Definition registered_index (st : osi) (i : index) : Prop := 0 <= isp i < num_spaces st.
Definition registered_tensor (st : osi) (t : tensor) : Prop := Forall (registered_index st) (t_upper t) /\ Forall (registered_index st) (t_lower t).
Definition registered_term (st : osi) (t : term) : Prop := Forall (registered_tensor st) (tm_tens t) /\ Forall (fun q => registered_index st (s_idx q)) (tm_ops t).
(** A label that its LaTeX form determines: letters and digits, the digits of a Greek letter giving the number of upper indices, as in
    the density cumulants of [contract] (gamma1, eta1, lambda2, ...). *)
Definition telling_label (t : tensor) : Prop :=
  exists s d, t_label t = s ++ d /\ s <> [] /\ all_of is_alpha s /\ all_of is_digit d /\ (is_greek s = true -> d = dec_text (Z.of_nat (length (t_upper t)))).
