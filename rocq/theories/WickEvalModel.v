(** Model of step 3 of [WickTheorem]: wicked/diagrams/wick_theorem_canonicalize_graph.cc,
    wick_theorem_process_contractions.cc, and of [contract] (wick_theorem.cc).  Printing and timers are not modelled here
    (timers: WickThreadModel). *)
From Coq Require Import ZArith List Bool Arith Ascii Permutation.
From Verif Require Import Res PartitionsModel RegistryModel CoreModel CombinatoricsModel RationalModel AlgebraModel SortModel SortSpec
  OperatorModel AdjointModel CanonModel NextPermModel WickSearchModel DecModel.
Import ListNotations.
Local Open Scope Z_scope.
Local Open Scope res_scope.

(** ** The combinatorial factor *)

(** wick_theorem_process_contractions.cc:535-540: one contraction, one operator: the two [binomial] factors of each space. *)
Definition comb_op (st : osi) (free g : gmat) (f : rational) : rational :=
  fold_left (fun f s => rat_mul (rat_mul f (rat_of_Z (binomial (cre_of free s) (cre_of g s))))
                                (rat_of_Z (binomial (ann_of free s) (ann_of g s)))) (range (num_spaces st)) f.
(** :532-544: one contraction; the free matrices are reduced. *)
Definition comb_contr (st : osi) (x : rational * list gmat) (c : econ) : rational * list gmat :=
  fold_left (fun (x : rational * list gmat) v =>
      let '(f, free) := x in
      let g := nth v c gm_zero in
      (comb_op st (nth v free gm_zero) g f, lset free v (gsub st (nth v free gm_zero) g))) (seq 0 (length c)) x.
(** :548-551: [std::map<ElementaryContraction, int>], ordered by the contraction. *)
Definition econ_ltb : econ -> econ -> bool := lexb gmat_ltb.
Fixpoint cc_incr (c : econ) (m : list (econ * Z)) : list (econ * Z) :=
  match m with
  | [] => [(c, 1)]
  | (c', n) :: m' => if econ_ltb c c' then (c, 1) :: m else if econ_ltb c' c then (c', n) :: cc_incr c m' else (c', n + 1) :: m'
  end.
Definition contraction_count (cs : list econ) : list (econ * Z) := fold_left (fun m c => cc_incr c m) cs [].
(** wick_theorem_process_contractions.cc:517-554.  [scalar_t] is modelled with unbounded integers. *)
Definition combinatorial_factor (st : osi) (ops : oprod) (cs : list econ) : rational :=
  let '(f, _) := fold_left (comb_contr st) cs (rat_of_Z 1, map op_gm ops) in
  fold_left (fun f kv => rat_div f (rat_of_Z (binomial (snd kv) 1))) (contraction_count cs) f.

(** ** Graph canonicalization *)

(** wick_theorem_canonicalize_graph.cc:80-102. *)
Definition do_contractions_commute (st : osi) (i j : nat) (cs : list econ) : bool :=
  forallb (fun c => forallb (fun s =>
    negb ((ec_num_ops c =? 2) &&
          ((0 <? cre_of (nth i c gm_zero) s * ann_of (nth j c gm_zero) s) ||
           (0 <? ann_of (nth i c gm_zero) s * cre_of (nth j c gm_zero) s)))) (range (num_spaces st))) cs.
(** :168-179. *)
Definition commutable (st : osi) (cs : list econ) (i j : Z) : bool := do_contractions_commute st (Z.to_nat i) (Z.to_nat j) cs.

(** :61-75, the inner loop over [k] neighbour pairs; [None]: not valid. *)
Definition oper_at (ops : oprod) (i : Z) : oper := nth (Z.to_nat i) ops (mkOp [] gm_zero).
Fixpoint perm_pass (ops : oprod) (com : Z -> Z -> bool) (k : nat) (l : list Z) (sign : Z) : option (list Z * Z) :=
  match k, l with
  | S k', x :: y :: l' =>
      if y <? x then
        if com y x then
          match perm_pass ops com k' (x :: l') (sign * (1 - 2 * Z.rem (op_num (oper_at ops y) * op_num (oper_at ops x)) 2)) with
          | Some (r, s) => Some (y :: r, s) | None => None end
        else None
      else match perm_pass ops com k' (y :: l') sign with Some (r, s) => Some (x :: r, s) | None => None end
  | _, _ => Some (l, sign)
  end.
(** :60, the outer loop: passes of [k], [k - 1], ... pairs. *)
Fixpoint perm_passes (ops : oprod) (com : Z -> Z -> bool) (k : nat) (l : list Z) (sign : Z) : option (list Z * Z) :=
  match k with
  | O => Some (l, sign)
  | S k' => match perm_pass ops com k l sign with Some (l', s) => perm_passes ops com k' l' s | None => None end
  end.
(** wick_theorem_canonicalize_graph.cc:47-78: [Some sign] if valid. *)
Definition is_ops_permutation_valid (ops : oprod) (com : Z -> Z -> bool) (perm : list Z) : option Z :=
  match perm_passes ops com (length perm - 1) perm 1 with Some (_, s) => Some s | None => None end.

(** A candidate graph: an operator permutation and a contraction permutation (the code stores their positions in two lists). *)
Definition graph := (list Z * list Z)%type.
Definition gops (ops : oprod) (g : graph) : oprod := map (oper_at ops) (fst g).
(** [contractions[con_perm[j]][ops_perm[i]]]. *)
Definition gcon (cs : list econ) (g : graph) : list econ :=
  map (fun c => map (fun o => nth (Z.to_nat o) (nth (Z.to_nat c) cs []) gm_zero) (fst g)) (snd g).

(** :124-132, 136-147: compare entry by entry, [Some] at the first difference. *)
Fixpoint ops_cmp (l r : oprod) : option bool :=
  match l, r with
  | x :: l', y :: r' => if oper_ltb x y then Some true else if oper_ltb y x then Some false else ops_cmp l' r'
  | _, _ => None
  end.
Fixpoint gm_cmp (l r : list gmat) : option bool :=
  match l, r with
  | x :: l', y :: r' => if gmat_ltb x y then Some false else if gmat_ltb y x then Some true else gm_cmp l' r'
  | _, _ => None
  end.
(** wick_theorem_canonicalize_graph.cc:104-151.  The double loop over contractions and operators is one loop over the
    concatenated matrices. *)
Definition graph_less (ops : oprod) (cs : list econ) (l r : graph) : bool :=
  match ops_cmp (gops ops l) (gops ops r) with
  | Some b => b
  | None => match gm_cmp (concat (gcon cs l)) (concat (gcon cs r)) with Some b => b | None => false end
  end.

(** :190-211, 219-229, 235-240: all valid graphs in the order they are generated. *)
Definition iota (n : nat) : list Z := map Z.of_nat (seq 0 n).
Definition ops_perms (st : osi) (ops : oprod) (cs : list econ) : list (list Z) :=
  filter (fun p => match is_ops_permutation_valid ops (commutable st cs) p with Some _ => true | None => false end) (np_visited (iota (length ops))).
Definition con_perms (cs : list econ) : list (list Z) := np_visited (iota (length cs)).
Definition graphs (st : osi) (ops : oprod) (cs : list econ) : list graph :=
  flat_map (fun o => map (fun c => (o, c)) (con_perms cs)) (ops_perms st ops cs).

(** wick_theorem_canonicalize_graph.cc:153-280.  [std::sort] may put equivalent graphs in any order: the first of any sorted
    rearrangement is used. *)
Definition canonicalize_graph (st : osi) (ops : oprod) (cs : list econ) (r : oprod * list econ * Z) : Prop :=
  exists g gs s, Permutation (graphs st ops cs) (g :: gs) /\ ordered (graph_less ops cs) (g :: gs) /\
    is_ops_permutation_valid ops (commutable st cs) (fst g) = Some s /\ r = (gops ops g, gcon cs g, s).

(** ** Evaluation of a contraction *)

(** [std::tuple<int, int, bool, int>]: operator, space, creation?, leg number. *)
Definition key := (nat * Z * bool * Z)%type.
Definition key_eqb (a b : key) : bool :=
  let '(o, s, c, i) := a in let '(o', s', c', i') := b in (o =? o')%nat && (s =? s') && Bool.eqb c c' && (i =? i').

(** Local variables of [contraction_tensors_sqops]: tensors, sqops, op_map, ic (n is the length of sqops). *)
Record legs_state := mkLS { ls_tens : list tensor; ls_sq : list sqop; ls_map : assoc key; ls_ic : list Z }.

(** wick_theorem_process_contractions.cc:441-447, 458-464; helpers.h:87-91. *)
Definition add_leg (o : nat) (cre : bool) (x : list index * legs_state) (sc : Z * Z) : res (list index * legs_state) :=
  let '(idxs, e) := x in let '(s, c) := sc in
  p <- aget (ls_ic e) s ;; ic <- aset (ls_ic e) s (p + 1) ;;
  Ok (idxs ++ [mkI s p],
      mkLS (ls_tens e) (ls_sq e ++ [mkSQ cre (mkI s p)]) (aput key_eqb (o, s, cre, c) (Z.of_nat (length (ls_sq e))) (ls_map e)) ic).
(** The loops over (space, leg): ascending for creation operators (:439-440), descending for annihilation operators (:456-457). *)
Definition cre_legs (st : osi) (g : gmat) : list (Z * Z) := flat_map (fun s => map (fun c => (s, c)) (range (cre_of g s))) (range (num_spaces st)).
Definition ann_legs (st : osi) (g : gmat) : list (Z * Z) :=
  flat_map (fun s => map (fun a => (s, a)) (rev (range (ann_of g s)))) (rev (range (num_spaces st))).
(** :433-472, one operator. *)
Definition op_tensor_legs (st : osi) (o : nat) (op : oper) (e : legs_state) : res legs_state :=
  '(lower, e) <- foldM (add_leg o true) ([], e) (cre_legs st (op_gm op)) ;;
  '(upper, e) <- foldM (add_leg o false) ([], e) (ann_legs st (op_gm op)) ;;
  Ok (mkLS (ls_tens e ++ [mkT (op_label op) lower (rev upper) Antisymmetric false]) (ls_sq e) (ls_map e) (ls_ic e)).
(** wick_theorem_process_contractions.cc:420-474. *)
Definition contraction_tensors_sqops (st : osi) (ops : oprod) : res legs_state :=
  foldM (fun e o => op_tensor_legs st o (nth o ops (mkOp [] gm_zero)) e)
    (mkLS [] [] [] (repeat 0 (Z.to_nat (num_spaces st)))) (seq 0 (length ops)).

(** contraction.cc:12-23; [[0]] of an empty vector is UB. *)
Definition ec_spaces (st : osi) (c : econ) : list Z :=
  flat_map (fun g => filter (fun s => 0 <? ann_of g s + cre_of g s) (range (num_spaces st))) c.
Definition ec_space (st : osi) (c : econ) : res Z := aget (ec_spaces st c) 0.

(** wick_theorem_process_contractions.cc:476-515: positions and new offsets; "NOT FOUND" ([exit(1)]) is [Throw]. *)
Definition elements_vec_to_pos (st : osi) (c : econ) (off : list gmat) (m : assoc key) (creation : bool) : res (list Z * list gmat) :=
  s <- ec_space st c ;;
  foldM (fun (x : list Z * list gmat) v =>
    let '(r, off) := x in
    let g := nth v c gm_zero in
    let nops := if creation then cre_of g s else ann_of g s in
    ov <- aget off (Z.of_nat v) ;;
    let o := if creation then cre_of ov s else ann_of ov s in
    r <- foldM (fun r i => match afind key_eqb (v, s, creation, o + i) m with Some p => Ok (r ++ [p]) | None => Throw end) r (range nops) ;;
    Ok (r, lset off v (if creation then set_cre ov s (o + nops) else set_ann ov s (o + nops)))) ([], off) (seq 0 (length c)).

(** Local variables of [evaluate_contraction]'s loop. *)
Record eval_state := mkES { es_tens : list tensor; es_off : list gmat; es_pos : Z; es_ncon : Z; es_usign : Z;
  es_map : index_map; es_ord : list Z }.

(** wick_theorem_process_contractions.cc:273-280: give the next positions to the operators [ps]. *)
Definition mark (x : list Z * Z) (ps : list Z) : res (list Z * Z) :=
  foldM (fun (x : list Z * Z) p => let '(ord, pos) := x in ord <- aset ord p pos ;; Ok (ord, pos + 1)) x ps.
Definition sq_index (sq : list sqop) (p : Z) : res index := o <- aget sq p ;; Ok (s_idx o).
(** "gamma1", "eta1", "lambda". *)
Definition gamma1 : text := ["g"; "a"; "m"; "m"; "a"; "1"]%char.
Definition eta1 : text := ["e"; "t"; "a"; "1"]%char.
Definition lambda_ : text := ["l"; "a"; "m"; "b"; "d"; "a"]%char.

(** :253-364, one elementary contraction.  [bit_map] is only printed.  [m[k] = v] on the index map is [imput]. *)
Definition imput (k v : index) (m : index_map) : index_map := filter (fun x => negb (index_eqb (fst x) k)) m ++ [(k, v)].
Definition eval_contr (st : osi) (sq : list sqop) (m : assoc key) (e : eval_state) (c : econ) : res eval_state :=
  let rank := ec_num_ops c in
  s <- ec_space st c ;;
  '(pc, off) <- elements_vec_to_pos st c (es_off e) m true ;;
  '(pa, off) <- elements_vec_to_pos st c off m false ;;
  x <- mark (es_ord e, es_pos e) pc ;;
  '(ord, pos) <- mark x pa ;;
  match stype st s with
  | Some Occupied =>
      p <- aget pc 0 ;; q <- aget pa 0 ;; ci <- sq_index sq p ;; ai <- sq_index sq q ;;
      Ok (mkES (es_tens e) off pos (es_ncon e + rank) (es_usign e) (imput ai ci (es_map e)) ord)
  | Some Unoccupied =>
      p <- aget pc 0 ;; q <- aget pa 0 ;; ci <- sq_index sq p ;; ai <- sq_index sq q ;;
      Ok (mkES (es_tens e) off pos (es_ncon e + rank) (- es_usign e) (imput ci ai (es_map e)) ord)
  | Some General =>
      upper <- mapM (sq_index sq) pc ;; lower <- mapM (sq_index sq) pa ;;
      '(label, us) <- (if rank =? 2 then
                         p <- aget pc 0 ;; q <- aget pa 0 ;;
                         Ok (if p <? q then (gamma1, es_usign e) else (eta1, - es_usign e))
                       else Ok (lambda_ ++ dec_text (Z.quot rank 2), es_usign e)) ;;
      Ok (mkES (es_tens e ++ [mkT label (rev lower) upper Antisymmetric false]) off pos (es_ncon e + rank) us (es_map e) ord)
  | None => UB
  end.

(** :366-379: positions of the uncontracted operators. *)
Definition order_rest (st : osi) (sq : list sqop) (ord : list Z) (pos : Z) : res (list Z * Z) :=
  foldM (fun x (cs : bool * Z) =>
    foldM (fun (x : list Z * Z) i =>
      let '(ord, pos) := x in
      v <- aget ord i ;; o <- aget sq i ;;
      if (v =? -1) && (s_space o =? snd cs) && Bool.eqb (s_cre o) (fst cs) then ord <- aset ord i pos ;; Ok (ord, pos + 1) else Ok (ord, pos))
      x (range (Z.of_nat (length sq)))) (ord, pos)
    (map (fun s => (true, s)) (range (num_spaces st)) ++ map (fun s => (false, s)) (range (num_spaces st))).

(** wick_theorem_process_contractions.cc:216-418.  [factor] is the input factor. *)
Definition evaluate_contraction (st : osi) (ops : oprod) (cs : list econ) (factor : rational) : res (term * rational) :=
  l <- contraction_tensors_sqops st ops ;;
  let sq := ls_sq l in
  e <- foldM (eval_contr st sq (ls_map l)) (mkES (ls_tens l) (repeat gm_zero (length ops)) 0 0 1 [] (repeat (-1) (length sq))) cs ;;
  '(ord, _) <- order_rest st sq (es_ord e) (es_pos e) ;;
  let sign := es_usign e * permutation_sign ord in
  let sorted := sort_by (pair_ltb Z.ltb sqop_ltb) (combine ord sq) in
  let rest := map snd (skipn (Z.to_nat (es_ncon e)) sorted) in
  let factor := fold_left (fun f o => rat_mul f (op_factor st o)) ops factor in
  Ok (term_reindex (es_map e) (mkTerm false rest (es_tens e)),
      rat_mul (rat_mul (rat_of_Z sign) factor) (combinatorial_factor st ops cs)).

(** ** Step 3 and [contract] *)

(** The flags of a [WickTheorem] object that matter (wick_theorem.h:63-71). *)
Record wt_opts := mkWT { wt_maxcumulant : Z; wt_canonicalize : bool }.

(** wick_theorem_process_contractions.cc:157-197 (and :64-105 in single-threaded mode): one composite contraction [cv] given
    by the numbers of its elementary contractions.  [process_single .. r]: [r] is a possible outcome, the pairs (term, factor)
    to be added to the result: none or one.  ([graph_choice], [term_canonicalize]: [std::sort] may leave a choice.) *)
Definition con_rank (els : list econ) (cv : list Z) : Z := fold_left (fun a c => a + ec_num_ops (nth (Z.to_nat c) els [])) cv 0.
Definition ops_rank (ops : oprod) : Z := fold_left (fun a op => a + op_num op) ops 0.
Definition graph_choice (o : wt_opts) (st : osi) (ops : oprod) (cs : list econ) (r : oprod * list econ * Z) : Prop :=
  if wt_canonicalize o then canonicalize_graph st ops cs r else r = (ops, cs, 1).
Definition process_single (o : wt_opts) (st : osi) (els : list econ) (ops : oprod) (factor : rational) (minrank maxrank : Z)
  (cv : list Z) (r : res (list (term * rational))) : Prop :=
  let rank := ops_rank ops - con_rank els cv in
  if (minrank <=? rank) && (rank <=? maxrank) then
    exists bops bcs sign canon,
      graph_choice o st ops (map (fun c => nth (Z.to_nat c) els []) cv) (bops, bcs, sign) /\
      (forall t f, evaluate_contraction st bops bcs (rat_mul factor (rat_of_Z sign)) = Ok (t, f) -> term_canonicalize st t canon) /\
      r = ('(_, f) <- evaluate_contraction st bops bcs (rat_mul factor (rat_of_Z sign)) ;;
           '(t', s) <- canon ;; Ok [(t', rat_mul (rat_of_Z s) f)])
  else r = Ok [].

(** wick_theorem_process_contractions.cc:49-116: the outcomes are added one after the other. *)
Definition add_outcome (acc : expression) (r : res (list (term * rational))) : res expression := l <- r ;; Ok (mplus term_ltb acc l).
Definition process_contractions (o : wt_opts) (st : osi) (els : list econ) (cvs : list (list Z)) (ops : oprod) (factor : rational)
  (minrank maxrank : Z) (r : res expression) : Prop :=
  exists rs, Forall2 (process_single o st els ops factor minrank maxrank) cvs rs /\ r = foldM add_outcome [] rs.

(** The bound on the number of loop iterations given to steps 1 and 2 (the C++ loops have none). *)
Definition search (fuel : nat) (o : wt_opts) (st : osi) (ops : oprod) (minrank maxrank : Z) : res (list econ * list (list Z)) :=
  if 8 <? num_spaces st then UB
  else
    els <- elementary_contractions fuel st (wt_maxcumulant o) ops ;;
    '(cvs, _) <- composite_contractions 101 st els ops minrank maxrank ;;
    Ok (els, cvs).
(** wick_theorem.cc:33-63 (single-threaded).  More than 8 registered spaces: the 8-entry matrices are read out of range. *)
Definition contract_run (fuel : nat) (o : wt_opts) (st : osi) (factor : rational) (ops : oprod) (minrank maxrank : Z) (r : res expression) : Prop :=
  match search fuel o st ops minrank maxrank with
  | Ok (els, cvs) => process_contractions o st els cvs ops factor minrank maxrank r
  | Throw => r = Throw | UB => r = UB | NoFuel => r = NoFuel
  end.
(** [contract .. r]: [r] is a possible outcome of the call, for some number of iterations of the loops of step 1. *)
Definition contract (o : wt_opts) (st : osi) (factor : rational) (ops : oprod) (minrank maxrank : Z) (r : res expression) : Prop :=
  exists fuel, contract_run fuel o st factor ops minrank maxrank r /\ search fuel o st ops minrank maxrank <> NoFuel.
(** wick_theorem.cc:65-73. *)
Definition add_result (acc : expression) (r : res expression) : res expression := e <- r ;; Ok (mplus term_ltb acc e).
Definition contract_expr (o : wt_opts) (st : osi) (factor : rational) (e : opexpr) (minrank maxrank : Z) (r : res expression) : Prop :=
  exists rs, Forall2 (fun x r => contract o st (rat_mul factor (snd x)) (fst x) minrank maxrank r) e rs /\ r = foldM add_result [] rs.
