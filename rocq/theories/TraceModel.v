(** Model of what [contract] prints on the standard output (single-threaded): the [PRINT] macros of wicked/diagrams/wick_theorem.cc,
    wick_theorem_elementary_contractions.cc, wick_theorem_composite_contractions.cc, wick_theorem_canonicalize_graph.cc and
    wick_theorem_process_contractions.cc, the functions of wick_theorem_helpers.cc, and GraphMatrix::str, to_string (graph_matrix.cc).
    Not modelled: the interleaving of the output of the tasks in multi-threaded mode, the flushes of [std::endl]. *)
From Coq Require Import String.
From Coq Require Import ZArith List Bool Arith Ascii Permutation.
From Verif Require Import Res PartitionsModel RegistryModel CoreModel CombinatoricsModel RationalModel AlgebraModel SortModel SortSpec
  OperatorModel AdjointModel CanonModel NextPermModel WickSearchModel WickEvalModel DecModel TextModel ExprTextModel EquationModel OpTextModel.
Import ListNotations.
Local Open Scope Z_scope.
Local Open Scope res_scope.

(** wick_theorem.h:19: [enum class PrintLevel { None, Basic, Summary, Detailed, All }], compared as numbers. *)
Definition Basic : Z := 1.
Definition Summary : Z := 2.
Definition Detailed : Z := 3.
Definition All : Z := 4.
(** The macro [PRINT(detail, code)] (wick_theorem.cc:10-13): [code] runs only if [print_ >= detail].  A text that cannot be computed is a
    failure of [code]. *)
Definition event := (Z * res text)%type.
Definition shown (print : Z) (ev : list event) : res text :=
  l <- mapM (fun e : event => snd e) (filter (fun e => fst e <=? print) ev) ;; Ok (concat l).

Definition nl : text := [newline].
Definition spaces (n : nat) : text := repeat " "%char n.
(** [std::format("{:5d}")], [std::setw]: padded on the left; ["{:3s}"]: on the right (one column per byte). *)
Definition pad_left (w : nat) (t : text) : text := spaces (w - length t) ++ t.
Definition pad_right (w : nat) (t : text) : text := t ++ spaces (w - length t).
(** stl_utils.hpp:44-60, without [optcstr]. *)
Definition elements (l : list text) : text := str "[" ++ join l (str ",") ++ str "]".
Definition bool_text (b : bool) : text := if b then str "1" else str "0".

(** graph_matrix.cc:97-111; operator<< (:113-116). *)
Definition gm_words (st : osi) (g : gmat) (cre : bool) (s : Z) : res (list text) :=
  n <- (if cre then gm_cre g s else gm_ann g s) ;;
  mapM (fun _ => l <- space_label st s ;; Ok (if cre then [l; "+"%char] else [l])) (range n).
Definition gm_str (st : osi) (g : gmat) : res text :=
  c <- mapM (gm_words st g true) (range (num_spaces st)) ;; a <- mapM (gm_words st g false) (range (num_spaces st)) ;;
  Ok (join (concat c ++ concat a) (str " ")).
(** graph_matrix.cc:123-134. *)
Definition gms_line (gs : list gmat) (s : Z) : res text :=
  l <- mapM (fun g => c <- gm_cre g s ;; a <- gm_ann g s ;; Ok (dec_text c ++ str " " ++ dec_text a ++ str "   ")) gs ;; Ok (concat l).
Definition gms_str (st : osi) (gs : list gmat) : res text := l <- mapM (gms_line gs) (range (num_spaces st)) ;; Ok (join l nl).

(** ** wick_theorem.cc:39-43 *)
Definition head_event (st : osi) (ops : oprod) : event :=
  (Summary, l <- mapM (op_str st) ops ;; Ok (nl ++ str "Contracting the operators: " ++ concat (map (fun t => str " " ++ t) l) ++ nl)).

(** ** Step 1 *)
(** wick_theorem_elementary_contractions.cc:22-24, 31-40. *)
Definition step1_head (st : osi) (ops : oprod) : list event :=
  [(Summary, Ok (nl ++ str "- Step 1. Generating elementary contractions" ++ nl));
   (Summary,
    rows <- mapM (fun x : nat * Z => l <- space_label st (snd x) ;; c <- gm_cre (op_gm (nth (fst x) ops (mkOp [] gm_zero))) (snd x) ;;
        a <- gm_ann (op_gm (nth (fst x) ops (mkOp [] gm_zero))) (snd x) ;;
        Ok (nl ++ str "      " ++ dec_text (Z.of_nat (fst x)) ++ str "        " ++ [l] ++ str "      " ++ dec_text c ++ str "      " ++ dec_text a))
      (flat_map (fun A => map (fun s => (A, s)) (range (num_spaces st))) (seq 0 (length ops))) ;;
    Ok (nl ++ str "  Operator   Space   Cre.   Ann." ++ nl ++ str "  ------------------------------" ++ concat rows ++ nl))].
(** :86-88, 105-107, 190-192: the contraction just stored at position [n]; the number printed is [contr_vec.size()]. *)
Definition stored_event (st : osi) (n : nat) (c : econ) : event :=
  (Summary, l <- mapM (gm_str st) c ;; Ok (nl ++ str "    " ++ pad_left 5 (dec_text (Z.of_nat (S n))) ++ str ":" ++ str " " ++ elements l)).
Definition stored_events (st : osi) (n : nat) (cs : list econ) : list event :=
  map (fun x => stored_event st (fst x) (snd x)) (combine (seq n (length cs)) cs).
(** :131-195, [n] contractions stored so far; one header for each number of legs. *)
Definition general_traced (fuel : nat) (st : osi) (maxcumulant : Z) (ops : oprod) (s : Z) (x : list econ * list event) : res (list econ * list event) :=
  foldM (fun (x : list econ * list event) k =>
      r <- general_legs fuel ops s k ;;
      Ok (fst x ++ r, snd x ++ (Summary, Ok (nl ++ str "    " ++ dec_text (2 * k) ++ str "-legs contractions")) :: stored_events st (length (fst x)) r))
    x (map (fun k => k + 1) (range (max_half_legs maxcumulant ops s))).
(** :43-71. *)
Definition space_event (st : osi) (s : Z) : event :=
  (Summary, l <- space_label st s ;; Ok (nl ++ str "  Elementary contractions for space " ++ [l] ++ str ": ")).
Definition step1_traced (fuel : nat) (st : osi) (maxcumulant : Z) (ops : oprod) : res (list econ * list event) :=
  foldM (fun (x : list econ * list event) s =>
    let '(v, ev) := x in
    let ev := ev ++ [space_event st s] in
    match stype st s with
    | Some Occupied => let r := elementary_occupied ops s in Ok (v ++ r, ev ++ stored_events st (length v) r)
    | Some Unoccupied => let r := elementary_unoccupied ops s in Ok (v ++ r, ev ++ stored_events st (length v) r)
    | Some General => general_traced fuel st maxcumulant ops s (v, ev)
    | None => UB
    end) ([], step1_head st ops) (range (num_spaces st)).

(** ** Step 2 *)
(** wick_theorem_composite_contractions.cc:22-24, 34-41. *)
Definition step2_head : list event :=
  [(Summary, Ok (nl ++ str "- Step 2. Generating composite contractions" ++ nl));
   (Summary, Ok (nl ++ str "    Contractions found by backtracking:" ++ nl ++ nl ++ str "      N   Op. Rank  Elementary      Uncontracted operators" ++
                 nl ++ str "                    Contractions " ++ nl ++ str "    ----------------------------------------------------------"))].
(** :81-88; [n]: the value of [ncontractions_], already incremented (:80). *)
Definition found_event (st : osi) (a : list Z) (k : Z) (free : list gmat) (n : Z) : event :=
  (Summary,
   g <- foldM (gm_add st) gm_zero free ;; t <- gm_str st g ;;
   Ok (nl ++ str "  " ++ pad_left 5 (dec_text (n + 1)) ++ str "    " ++ pad_left 3 (dec_text (gm_num_ops g)) ++ str "    " ++
       concat (map (fun c => str " " ++ pad_left 3 (dec_text c)) (firstn (Z.to_nat k) a)) ++ spaces (Z.to_nat (Z.max (24 - 4 * k) 2)) ++ t)).
(** [contractions_], [free_graph_matrix_vec], [ncontractions_] and the output. *)
Definition tr_state := (bt_state * (Z * list event))%type.
(** :73-90. *)
Definition process_contraction_traced (st : osi) (a : list Z) (k minrank maxrank : Z) (x : tr_state) : res tr_state :=
  let '(b, (n, ev)) := x in
  b' <- process_contraction a k minrank maxrank b ;;
  let free := snd b in
  if (minrank <=? sum_num_ops free) && (sum_num_ops free <=? maxrank) then Ok (b', (n + 1, ev ++ [found_event st a k free (n + 1)])) else Ok (b', (n, ev)).
(** :50-71; as [backtrack] (WickSearchModel). *)
Fixpoint backtrack_traced (depth : nat) (reg : osi) (els : list econ) (minrank maxrank : Z) (a : list Z) (k : Z) (x : tr_state) : res tr_state :=
  match depth with
  | O => NoFuel
  | S d =>
    x <- process_contraction_traced reg a k minrank maxrank x ;;
    let k := k + 1 in
    cands <- construct_candidates reg a k els (snd (fst x)) ;;
    '(_, x) <- foldM (fun (y : list Z * tr_state) c =>
        let '(a, (b, t)) := y in
        a <- aset a (k - 1) c ;;
        let el := nth (Z.to_nat c) els [] in
        '(b, t) <- backtrack_traced d reg els minrank maxrank a k ((fst b, move_sub reg (snd b) el), t) ;;
        a <- aset a (k - 1) (-1) ;;
        Ok (a, ((fst b, move_add reg (snd b) el), t))) (a, x) cands ;;
    Ok x
  end.
(** :19-48. *)
Definition step2_traced (depth : nat) (reg : osi) (els : list econ) (ops : oprod) (minrank maxrank : Z) : res (list (list Z) * list event) :=
  '((cvs, _), (n, ev)) <- backtrack_traced depth reg els minrank maxrank (repeat (-1) 100) 0 (([], map op_gm ops), (0, step2_head)) ;;
  Ok (cvs, ev ++ [(Summary, Ok (nl ++ nl ++ str "    Total contractions: " ++ dec_text n ++ nl))]).

(** ** Step 3: graph canonicalization *)
(** wick_theorem_helpers.cc:16-39. *)
Definition graph_text (st : osi) (ops : oprod) (cs : list econ) (g : graph) : res text :=
  l <- mapM (fun c => t <- gms_str st c ;; Ok (nl ++ t ++ nl)) (gcon cs g) ;;
  t <- gms_str st (map op_gm (gops ops g)) ;;
  Ok (concat l ++ nl ++ t ++ nl ++ concat (map (fun o => pad_left 2 (op_label o) ++ str "    ") (gops ops g)) ++ nl).
Definition zs_text (l : list Z) : text := elements (map dec_text l).
(** wick_theorem_canonicalize_graph.cc:156-160, 175-183, 190-212, 214-226, 228-230, 236-237, 264-277; [g], [s]: the chosen graph and its sign. *)
Definition graph_events (st : osi) (ops : oprod) (cs : list econ) (g : graph) (s : Z) : list event :=
  let ps := np_visited (iota (length ops)) in
  (Detailed, t <- graph_text st ops cs (iota (length ops), iota (length cs)) ;; Ok (str "  Graph of the contraction to canonicalize:" ++ nl ++ t)) ::
  (Detailed, Ok (nl ++ str "  Commutable operator matrix:" ++ nl ++
     concat (map (fun i => str "    " ++ elements (map (fun j => bool_text (commutable st cs i j)) (iota (length ops))) ++ nl) (iota (length ops))) ++ nl)) ::
  map (fun p => (Detailed, Ok (str "  Operator permutation: " ++ zs_text p ++
     match is_ops_permutation_valid ops (commutable st cs) p with
     | Some sg => str ", sign = " ++ rat_repr (rat_of_Z sg) ++ str " (allowed)" ++ nl
     | None => str " (not allowed)" ++ nl
     end))) ps ++
  [(Detailed, Ok (nl ++ str "  Found " ++ dec_text (Z.of_nat (length (ops_perms st ops cs))) ++ str " valid operator permutations" ++ nl ++ nl))] ++
  map (fun p => (Detailed, Ok (str "  Contraction permutation: " ++ zs_text p ++ nl))) (con_perms cs) ++
  [(Detailed, Ok (nl ++ str "  Found " ++ dec_text (Z.of_nat (length (con_perms cs))) ++ str " valid contraction permutations" ++ nl ++ nl));
   (Detailed, Ok (str "  Found " ++ dec_text (Z.of_nat (length (graphs st ops cs))) ++ str " valid graphs" ++ nl));
   (Detailed, t <- graph_text st ops cs g ;;
     Ok (nl ++ str "  Canonical form of the contraction:" ++ nl ++ str "    Sign = " ++ rat_repr (rat_of_Z s) ++ nl ++
         str "    Operator permutation: " ++ zs_text (fst g) ++ nl ++ str "    Contraction permutation: " ++ zs_text (snd g) ++ nl ++
         str "    Graph of the canonical contraction:" ++ nl ++ t ++ nl))].
(** :153-280 (as [canonicalize_graph]); wick_theorem_process_contractions.cc:81-84: nothing is printed without canonicalization. *)
Definition graph_choice_traced (o : wt_opts) (st : osi) (ops : oprod) (cs : list econ) (r : oprod * list econ * Z) (ev : list event) : Prop :=
  if wt_canonicalize o then
    exists g gs s, Permutation (graphs st ops cs) (g :: gs) /\ ordered (graph_less ops cs) (g :: gs) /\
      is_ops_permutation_valid ops (commutable st cs) (fst g) = Some s /\ r = (gops ops g, gcon cs g, s) /\ ev = graph_events st ops cs g s
  else r = (ops, cs, 1) /\ ev = [].

(** ** Step 3: evaluation *)
(** wick_theorem_helpers.cc:41-46. *)
Definition key_event (k : key) (n : Z) : event :=
  let '(o, s, c, i) := k in
  (All, Ok (str "key[graph_matrix = " ++ dec_text (Z.of_nat o) ++ str ", space = " ++ dec_text s ++ str ", creation = " ++ bool_text c ++
            str ", num = " ++ dec_text i ++ str "] -> " ++ dec_text n ++ nl)).
(** wick_theorem_process_contractions.cc:444, 460: one line for each second-quantized operator of the product. *)
Definition product_keys (st : osi) (ops : oprod) : list key :=
  flat_map (fun o => map (fun sc => (o, fst sc, true, snd sc)) (cre_legs st (op_gm (nth o ops (mkOp [] gm_zero)))) ++
                     map (fun sc => (o, fst sc, false, snd sc)) (ann_legs st (op_gm (nth o ops (mkOp [] gm_zero))))) (seq 0 (length ops)).
Definition product_events (st : osi) (ops : oprod) : list event :=
  map (fun x => key_event (fst x) (snd x)) (combine (product_keys st ops) (iota (length (product_keys st ops)))).
(** :482, 504: the keys looked up by [elements_vec_to_pos], with the positions found. *)
Definition found_keys (s : Z) (c : econ) (off : list gmat) (creation : bool) : list key :=
  flat_map (fun v => let g := nth v c gm_zero in
    map (fun i => (v, s, creation, (if creation then cre_of (nth v off gm_zero) s else ann_of (nth v off gm_zero) s) + i))
      (range (if creation then cre_of g s else ann_of g s))) (seq 0 (length c)).
Definition pos_events (s : Z) (c : econ) (off : list gmat) (creation : bool) (ps : list Z) : list event :=
  (All, Ok (nl ++ str "  GraphMatrix to position:" ++ nl)) ::
  map (fun x => key_event (fst x) (snd x)) (combine (found_keys s c off creation) ps).
(** :261, 276-286: the bit map of one elementary contraction. *)
Definition mark_bits (b : list bool) (ps : list Z) : res (list bool) := foldM (fun b p => aset b p true) b ps.
Definition contr_trace (st : osi) (n : nat) (m : assoc key) (off : list gmat) (c : econ) : res (list bool * list event) :=
  s <- ec_space st c ;;
  '(pc, off1) <- elements_vec_to_pos st c off m true ;;
  '(pa, _) <- elements_vec_to_pos st c off1 m false ;;
  b <- mark_bits (repeat false n) pc ;; b <- mark_bits b pa ;;
  Ok (b, pos_events s c off true pc ++ pos_events s c off1 false pa).

(** wick_theorem_helpers.cc:56-59: the position of the first leg; one past the last leg ([rend()], i.e. 0, if there is none). *)
Fixpoint first_true (b : list bool) : nat := match b with [] => 0 | true :: _ => 0 | false :: b' => S (first_true b') end%nat.
Definition last_true (b : list bool) : nat := (length b - first_true (rev b))%nat.
(** wick_theorem_helpers.cc:55-69. *)
Definition legs_line (b : list bool) : text :=
  let first := first_true b in let last := last_true b in
  str "          " ++ concat (repeat (str "   ") first) ++ str " ┌─" ++
  concat (map (fun k => if nth k b false then str "─┬─" else str "───") (seq (first + 1) (last - 1 - (first + 1)))) ++ str "─┐ " ++ nl.
(** wick_theorem_helpers.cc:92-97: [index_map[sqops[k].index()] = k]. *)
Definition index_positions (sq : list sqop) : assoc index :=
  fold_left (fun m k => aput index_eqb (s_idx (nth k sq (mkSQ true (mkI 0 0)))) (Z.of_nat k) m) (seq 0 (length sq)) [].
(** :99-105: [operator[]] inserts 0 for an index that is not in the map; writing outside [indices] is UB. *)
Definition set_columns (v : Z) (x : list Z * assoc index) (is : list index) : res (list Z * assoc index) :=
  foldM (fun (x : list Z * assoc index) i =>
    let '(cols, m) := x in
    let '(p, m) := match afind index_eqb i m with Some p => (p, m) | None => (0, aput index_eqb i 0 m) end in
    cols <- aset cols p v ;; Ok (cols, m)) x is.
(** :106-116. *)
Definition column_text (i : Z) : text := if i =? 1 then str "─┸─" else if i =? -1 then str "─┰─" else str "───".
Definition tensor_line (st : osi) (m : assoc index) (t : tensor) : res (text * assoc index) :=
  x <- set_columns 1 (repeat 0 (length m), m) (t_upper t) ;;
  '(cols, m) <- set_columns (-1) x (t_lower t) ;;
  s <- tensor_str st t ;;
  Ok (str "          " ++ concat (map column_text cols) ++ str "── " ++ s ++ nl, m).
(** wick_theorem_helpers.cc:48-119. *)
Definition contraction_text (st : osi) (tens : list tensor) (bits : list (list bool)) (sq : list sqop) (ord : list Z) : res text :=
  ix <- mapM (fun q => t <- index_str st (s_idx q) ;; Ok (pad_right 3 t)) sq ;;
  '(tl, _) <- foldM (fun (x : text * assoc index) t => '(l, m) <- tensor_line st (snd x) t ;; Ok (fst x ++ l, m)) ([], index_positions sq) tens ;;
  Ok (concat (map legs_line bits) ++
      str "  type    " ++ concat (map (fun q => if s_cre q then str " + " else str " - ") sq) ++ nl ++
      str "  indices " ++ concat ix ++ nl ++
      str "  order  " ++ concat (map (fun i => pad_left 3 (dec_text i)) ord) ++ nl ++ nl ++ tl ++ nl).

(** wick_theorem_process_contractions.cc:216-419: the value returned ([evaluate_contraction]) and the output. *)
Definition eval_traced (st : osi) (ops : oprod) (cs : list econ) (factor : rational) : res ((term * rational) * list event) :=
  l <- contraction_tensors_sqops st ops ;;
  let sq := ls_sq l in
  '(e, bits, ev) <- foldM (fun (x : eval_state * list (list bool) * list event) c =>
      let '(e, bits, ev) := x in
      '(b, ev') <- contr_trace st (length sq) (ls_map l) (es_off e) c ;;
      e <- eval_contr st sq (ls_map l) e c ;;
      Ok (e, bits ++ [b], ev ++ ev'))
    (mkES (ls_tens l) (repeat gm_zero (length ops)) 0 0 1 [] (repeat (-1) (length sq)), [], product_events st ops) cs ;;
  '(ord, _) <- order_rest st sq (es_ord e) (es_pos e) ;;
  let sign := es_usign e * permutation_sign ord in
  let sorted := sort_by (pair_ltb Z.ltb sqop_ltb) (combine ord sq) in
  let rest := map snd (skipn (Z.to_nat (es_ncon e)) sorted) in
  let factor := fold_left (fun f o => rat_mul f (op_factor st o)) ops factor in
  let comb := combinatorial_factor st ops cs in
  Ok ((term_reindex (es_map e) (mkTerm false rest (es_tens e)), rat_mul (rat_mul (rat_of_Z sign) factor) comb),
      ev ++ [(Basic, contraction_text st (es_tens e) bits sq ord);
             (All, Ok (nl ++ str "  positions: " ++ zs_text ord));
             (Summary, Ok (str "  sign =                 " ++ dec_text sign ++ nl ++ str "  factor =               " ++ rat_repr factor ++ nl ++
                           str "  combinatorial factor = " ++ rat_repr comb ++ nl))]).

(** ** Step 3 *)
(** wick_theorem_process_contractions.cc:62-103, one composite contraction; [n]: [nprocessed] before.  As [process_single]; the term is
    printed with the coefficient [term_factor.second * canonicalize_factor], where [canonicalize_factor] has already been multiplied
    with [term_factor.second] (:94, :100). *)
Definition single_traced (o : wt_opts) (st : osi) (els : list econ) (ops : oprod) (factor : rational) (minrank maxrank : Z) (n : Z)
  (cv : list Z) (r : res (list (term * rational) * list event)) : Prop :=
  let rank := ops_rank ops - con_rank els cv in
  if (minrank <=? rank) && (rank <=? maxrank) then
    exists bops bcs sign canon gev,
      graph_choice_traced o st ops (map (fun c => nth (Z.to_nat c) els []) cv) (bops, bcs, sign) gev /\
      (forall t f ev, eval_traced st bops bcs (rat_mul factor (rat_of_Z sign)) = Ok (t, f, ev) -> term_canonicalize st t canon) /\
      r = ('((_, f), ev) <- eval_traced st bops bcs (rat_mul factor (rat_of_Z sign)) ;;
           '(t', s) <- canon ;;
           let c := rat_mul (rat_of_Z s) f in
           Ok ([(t', c)],
               (Basic, Ok (nl ++ nl ++ str "  Contraction: " ++ dec_text (n + 1) ++ str "  Operator rank: " ++ dec_text rank ++ nl)) :: gev ++ ev ++
               [(Summary, x <- Term_str st (rat_mul f c) t' ;; Ok (nl ++ str "    term: " ++ x ++ nl))]))
  else r = Ok ([], []).
(** :60-103: the loop over [contractions_]; [nprocessed] counts the contractions with a rank in range. *)
Inductive run_traced (o : wt_opts) (st : osi) (els : list econ) (ops : oprod) (factor : rational) (minrank maxrank : Z) :
  Z -> expression * list event -> list (list Z) -> Z -> res (expression * list event) -> Prop :=
| rt_nil n acc ev : run_traced o st els ops factor minrank maxrank n (acc, ev) [] n (Ok (acc, ev))
| rt_cons n acc ev cv cvs l ev' n' r :
    single_traced o st els ops factor minrank maxrank n cv (Ok (l, ev')) ->
    run_traced o st els ops factor minrank maxrank (n + Z.of_nat (length l)) (mplus term_ltb acc l, ev ++ ev') cvs n' r ->
    run_traced o st els ops factor minrank maxrank n (acc, ev) (cv :: cvs) n' r
| rt_fail n acc ev cv cvs (f : res (list (term * rational) * list event)) (f' : res (expression * list event)) :
    single_traced o st els ops factor minrank maxrank n cv f ->
    (f = Throw /\ f' = Throw) \/ (f = UB /\ f' = UB) \/ (f = NoFuel /\ f' = NoFuel) ->
    run_traced o st els ops factor minrank maxrank n (acc, ev) (cv :: cvs) n f'.
(** :48-109. *)
Definition step3_head : event := (Summary, Ok (nl ++ str "- Step 3. Processing contractions" ++ nl)).
Definition step3_tail (n : Z) : list event := if n =? 0 then [(Summary, Ok (nl ++ str "  No contractions generated" ++ nl ++ nl))] else [].
Definition step3_traced (o : wt_opts) (st : osi) (els : list econ) (cvs : list (list Z)) (ops : oprod) (factor : rational)
  (minrank maxrank : Z) (r : res (expression * list event)) : Prop :=
  exists n x, run_traced o st els ops factor minrank maxrank 0 ([], [step3_head]) cvs n x /\
    r = ('(e, ev) <- x ;; Ok (e, ev ++ step3_tail n)).

(** ** [contract] (wick_theorem.cc:33-63, single-threaded) *)
Definition search_traced (fuel : nat) (o : wt_opts) (st : osi) (ops : oprod) (minrank maxrank : Z) : res (list econ * list (list Z) * list event) :=
  if 8 <? num_spaces st then UB
  else
    '(els, ev1) <- step1_traced fuel st (wt_maxcumulant o) ops ;;
    '(cvs, ev2) <- step2_traced 101 st els ops minrank maxrank ;;
    Ok (els, cvs, head_event st ops :: ev1 ++ ev2).
Definition traced_run (fuel : nat) (o : wt_opts) (st : osi) (factor : rational) (ops : oprod) (minrank maxrank : Z) (r : res (expression * list event)) : Prop :=
  match search_traced fuel o st ops minrank maxrank with
  | Ok (els, cvs, ev) => exists x, step3_traced o st els cvs ops factor minrank maxrank x /\ r = ('(e, ev') <- x ;; Ok (e, ev ++ ev'))
  | Throw => r = Throw | UB => r = UB | NoFuel => r = NoFuel
  end.
(** [contract_printed print .. r]: [r] is a possible outcome of the call with the print level [print]: the result and the text printed.
    What is printed by a call that fails is not modelled. *)
Definition contract_printed (print : Z) (o : wt_opts) (st : osi) (factor : rational) (ops : oprod) (minrank maxrank : Z) (r : res (expression * text)) : Prop :=
  exists fuel x, traced_run fuel o st factor ops minrank maxrank x /\ search_traced fuel o st ops minrank maxrank <> NoFuel /\
    r = ('(e, ev) <- x ;; t <- shown print ev ;; Ok (e, t)).
