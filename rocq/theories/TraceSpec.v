(** Specification of the printed output of [contract] (C71). *)
From Coq Require Import String.
From Coq Require Import ZArith List Bool Ascii.
From Verif Require Import Res PartitionsModel RegistryModel CoreModel RationalModel AlgebraModel OperatorModel DecModel TextModel ExprTextModel EquationModel OpTextModel CombinatoricsModel AdjointModel CanonModel WickSearchModel WickSearchSpec WickEvalModel CountSpec WickCombSpec WickLegSpec WickLegProofs TraceModel.
Import ListNotations.
Local Open Scope Z_scope.

(** The outcome of a call without what it printed. *)
Definition result_of {A B} (r : res (A * B)) : res A := match r with Ok (a, _) => Ok a | Throw => Throw | UB => UB | NoFuel => NoFuel end.

(** ** The drawing of a contraction: a table with one column, three cells wide, for each second-quantized operator of the product *)
Definition margin : text := str "          ".
(** One bracket for each elementary contraction; [b]: which columns it joins.  It starts at the first of them, ends at the last and has a
    tick at the others. *)
Definition some_true (b : list bool) : bool := existsb (fun x => x) b.
Definition leg_cell (b : list bool) (k : nat) : text :=
  match some_true (firstn k b), nth k b false, some_true (skipn (S k) b) with
  | false, false, _ => str "   "
  | false, true, _ => str " ┌─"
  | true, true, true => str "─┬─"
  | true, true, false => str "─┐ "
  | true, false, true => str "───"
  | true, false, false => []
  end.
Definition bracket (b : list bool) : text := margin ++ concat (map (leg_cell b) (seq 0 (length b))) ++ nl.
(** One row for each tensor: which columns have an upper or a lower index of it, and its name. *)
Definition has_index (l : list index) (i : index) : bool := existsb (index_eqb i) l.
Definition tensor_cell (t : tensor) (i : index) : text := if has_index (t_lower t) i then str "─┰─" else if has_index (t_upper t) i then str "─┸─" else str "───".
Definition text_of (r : res text) : text := match r with Ok t => t | _ => [] end.
Definition tensor_row (st : osi) (sq : list sqop) (t : tensor) : text := margin ++ concat (map (fun q => tensor_cell t (s_idx q)) sq) ++ str "── " ++ text_of (tensor_str st t) ++ nl.
(** Above them the kind, the index and the final position of each operator. *)
Definition drawing (st : osi) (rows : list (list bool)) (sq : list sqop) (ord : list Z) (tens : list tensor) : text :=
  concat (map bracket rows) ++
  str "  type    " ++ concat (map (fun q => if s_cre q then str " + " else str " - ") sq) ++ nl ++
  str "  indices " ++ concat (map (fun q => pad_right 3 (text_of (index_str st (s_idx q)))) sq) ++ nl ++
  str "  order  " ++ concat (map (fun i => pad_left 3 (dec_text i)) ord) ++ nl ++ nl ++ concat (map (tensor_row st sq) tens) ++ nl.
(** Position in a list. *)
Fixpoint place {A} (dec : forall a b : A, {a = b} + {a <> b}) (a : A) (l : list A) : Z :=
  match l with [] => 0 | b :: l' => if dec b a then 0 else 1 + place dec a l' end.

(** ** The transcript at the level Summary *)
Definition space_char (st : osi) (s : Z) : ascii := match space_label st s with Ok c => c | _ => zero end.
(** Creation and annihilation operators, given by their numbers in each space: "o+ v+ o v". *)
Definition op_words (st : osi) (cre ann : Z -> Z) : text :=
  join (flat_map (fun s => repeat [space_char st s; "+"%char] (Z.to_nat (cre s))) (range (num_spaces st)) ++
        flat_map (fun s => repeat [space_char st s] (Z.to_nat (ann s))) (range (num_spaces st))) (str " ").
(** Step 1: the operators, ... *)
Definition opening (st : osi) (ops : oprod) : text :=
  nl ++ str "Contracting the operators: " ++ concat (map (fun o => str " " ++ text_of (op_str st o)) ops) ++ nl ++
  nl ++ str "- Step 1. Generating elementary contractions" ++ nl ++
  nl ++ str "  Operator   Space   Cre.   Ann." ++ nl ++ str "  ------------------------------" ++
  concat (map (fun A => concat (map (fun s =>
    nl ++ str "      " ++ dec_text (Z.of_nat A) ++ str "        " ++ [space_char st s] ++ str "      " ++ dec_text (ops_cre ops A s) ++ str "      " ++ dec_text (ops_ann ops A s))
    (range (num_spaces st)))) (seq 0 (length ops))) ++ nl.
(** ... and the elementary contractions, numbered from 1, with headings in between. *)
Definition elementary_line (st : osi) (n : nat) (c : econ) : text :=
  nl ++ str "    " ++ pad_left 5 (dec_text (Z.of_nat n)) ++ str ": [" ++ join (map (fun g => op_words st (cre_of g) (ann_of g)) c) (str ",") ++ str "]".
Inductive listing (st : osi) : nat -> list econ -> text -> Prop :=
| li_end n : listing st n [] []
| li_space n s cs t : is_space st s -> listing st n cs t -> listing st n cs (nl ++ str "  Elementary contractions for space " ++ [space_char st s] ++ str ": " ++ t)
| li_legs n k cs t : 0 < k -> listing st n cs t -> listing st n cs (nl ++ str "    " ++ dec_text (2 * k) ++ str "-legs contractions" ++ t)
| li_line n c cs t : listing st (S n) cs t -> listing st n (c :: cs) (elementary_line st (S n) c ++ t).
(** Step 2: for each composite contraction the number of operators left over, the numbers of its elementary contractions and the operators
    left over. *)
Definition left_cre (els : list econ) (ops : oprod) (cv : list Z) (s : Z) : Z := total (length ops) (fun A => ops_cre ops A s - used (fun c => ec_cre c A s) els cv).
Definition left_ann (els : list econ) (ops : oprod) (cv : list Z) (s : Z) : Z := total (length ops) (fun A => ops_ann ops A s - used (fun c => ec_ann c A s) els cv).
Definition composite_line (st : osi) (els : list econ) (ops : oprod) (n : nat) (cv : list Z) : text :=
  nl ++ str "  " ++ pad_left 5 (dec_text (Z.of_nat n)) ++ str "    " ++ pad_left 3 (dec_text (left_over els ops cv)) ++ str "    " ++
  concat (map (fun c => str " " ++ pad_left 3 (dec_text c)) cv) ++ spaces (Nat.max (24 - 4 * length cv) 2) ++ op_words st (left_cre els ops cv) (left_ann els ops cv).
Definition numbered {A B} (f : nat -> A -> B) (a : nat) (l : list A) : list B := map (fun x => f (fst x) (snd x)) (combine (seq a (length l)) l).
Definition composites (st : osi) (els : list econ) (ops : oprod) (cvs : list (list Z)) : text :=
  nl ++ str "- Step 2. Generating composite contractions" ++ nl ++
  nl ++ str "    Contractions found by backtracking:" ++ nl ++ nl ++ str "      N   Op. Rank  Elementary      Uncontracted operators" ++
  nl ++ str "                    Contractions " ++ nl ++ str "    ----------------------------------------------------------" ++
  concat (numbered (composite_line st els ops) 2 cvs) ++ nl ++ nl ++ str "    Total contractions: " ++ dec_text (Z.of_nat (length cvs)) ++ nl.
(** Step 3: one composite contraction: the number, the drawing, the factors and the term. *)
Definition header (n : nat) (rank : Z) : text := nl ++ nl ++ str "  Contraction: " ++ dec_text (Z.of_nat n) ++ str "  Operator rank: " ++ dec_text rank ++ nl.
Definition factors_text (s : Z) (f comb : rational) : text :=
  str "  sign =                 " ++ dec_text s ++ nl ++ str "  factor =               " ++ rat_repr f ++ nl ++ str "  combinatorial factor = " ++ rat_repr comb ++ nl.
Definition term_text (st : osi) (c : rational) (t : term) : text := nl ++ str "    term: " ++ text_of (Term_str st c t) ++ nl.

(** One composite contraction as it is shown: the operators and contractions in the order and with the sign chosen by the graph
    canonicalization, the evaluation (WickLegSpec) and the canonical term. *)
Record piece := mkPiece {
  pc_ops : oprod; pc_cs : list econ; pc_sign : Z;
  pc_ix : leg -> index; pc_picks : list (list leg * list leg); pc_effects : list (index_map * list tensor * Z); pc_rest : list leg; pc_s : Z;
  pc_term : term; pc_tsign : Z }.
(** The numerical prefactor, the coefficient before and after the canonicalization of the term. *)
Definition pc_factor (st : osi) (factor : rational) (p : piece) : rational := fold_left (fun f o => rat_mul f (op_factor st o)) (pc_ops p) (rat_mul factor (rat_of_Z (pc_sign p))).
Definition pc_comb (st : osi) (p : piece) : rational := combinatorial_factor st (pc_ops p) (pc_cs p).
Definition pc_value (st : osi) (factor : rational) (p : piece) : rational := rat_mul (rat_mul (rat_of_Z (pc_s p)) (pc_factor st factor p)) (pc_comb st p).
Definition pc_coeff (st : osi) (factor : rational) (p : piece) : rational := rat_mul (rat_of_Z (pc_tsign p)) (pc_value st factor p).
Definition comes_from (o : wt_opts) (st : osi) (els : list econ) (ops : oprod) (cv : list Z) (p : piece) : Prop :=
  graph_choice o st ops (map (fun c => nth (Z.to_nat c) els []) cv) (pc_ops p, pc_cs p, pc_sign p) /\
  exists t, evaluation st (pc_ops p) (pc_cs p) t (pc_s p) (pc_ix p) (pc_picks p) (pc_effects p) (pc_rest p) /\ term_canonicalize st t (Ok (pc_term p, pc_tsign p)).
(** Which of the legs are joined. *)
Definition in_legs (P : list leg) (l : leg) : bool := if in_dec leg_dec l P then true else false.
Definition pc_drawing (st : osi) (p : piece) : text :=
  let legs := product_legs st (pc_ops p) in
  let final := flat_map (fun p => fst p ++ snd p) (pc_picks p) ++ pc_rest p in
  drawing st (map (fun c => map (in_legs (fst c ++ snd c)) legs) (pc_picks p)) (map (leg_sqop (pc_ix p)) legs) (map (fun l => place leg_dec l final) legs)
    (map (op_tensor st (pc_ops p) (pc_ix p)) (seq 0 (length (pc_ops p))) ++ flat_map (fun e => snd (fst e)) (pc_effects p)).
(** The texts of a contraction at the levels Basic and Summary; the coefficient of the term shown is the product of the two. *)
Definition basic_piece (st : osi) (els : list econ) (ops : oprod) (n : nat) (x : list Z * piece) : text :=
  header n (left_over els ops (fst x)) ++ pc_drawing st (snd x).
Definition summary_piece (st : osi) (factor : rational) (els : list econ) (ops : oprod) (n : nat) (x : list Z * piece) : text :=
  basic_piece st els ops n x ++ factors_text (pc_s (snd x)) (pc_factor st factor (snd x)) (pc_comb st (snd x)) ++
  term_text st (rat_mul (pc_value st factor (snd x)) (pc_coeff st factor (snd x))) (pc_term (snd x)).
(** Step 3. *)
Definition step3_title : text := nl ++ str "- Step 3. Processing contractions" ++ nl.
Definition no_contractions (cvs : list (list Z)) : text := match cvs with [] => nl ++ str "  No contractions generated" ++ nl ++ nl | _ => [] end.
(** The elementary contractions [els], the composite ones [cvs] and what they give [ps]; the value [e] is the sum. *)
Record worked_out (o : wt_opts) (st : osi) (factor : rational) (ops : oprod) (minrank maxrank : Z) (els : list econ) (cvs : list (list Z)) (ps : list piece) (e : expression) : Prop := {
  wo_els : NoDup els /\ forall c, In c els <-> allowed st (wt_maxcumulant o) ops c;
  wo_cvs : NoDup cvs /\ forall cv, In cv cvs <-> is_multiset els cv /\ compatible st els ops cv /\ minrank <= left_over els ops cv <= maxrank;
  wo_pieces : Forall2 (comes_from o st els ops) cvs ps;
  wo_sum : e = fold_left (fun acc p => mplus term_ltb acc [(pc_term p, pc_coeff st factor p)]) ps [] }.
(** One text is another one with parts left out. *)
Inductive sublist {A} : list A -> list A -> Prop :=
| sl_nil l : sublist [] l
| sl_skip a l l' : sublist l l' -> sublist l (a :: l')
| sl_keep a l l' : sublist l l' -> sublist (a :: l) (a :: l').
