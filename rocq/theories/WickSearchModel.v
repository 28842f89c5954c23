(** Model of the contraction search of [WickTheorem] (steps 1 and 2):
    wicked/diagrams/wick_theorem_elementary_contractions.cc, wick_theorem_composite_contractions.cc,
    contraction.{h,cc}.  Printing is not modelled. *)
From Coq Require Import ZArith List Bool Arith.
From Verif Require Import Res PartitionsModel RegistryModel CoreModel OperatorModel NextPermModel SortModel.
Import ListNotations.
Local Open Scope Z_scope.
Local Open Scope res_scope.

(** contraction.h:11: a [Product<GraphMatrix>], one matrix per operator. *)
Definition econ := list gmat.

(** contraction.cc:7-10. *)
Definition ec_num_ops (c : econ) : Z := fold_left (fun a g => a + gm_num_ops g) c 0.

(** graph_matrix.cc:30-36 ([set_cre], [set_ann]), total: an index past the 8 entries (C++: UB) leaves the matrix
    unchanged here; [contract] below is UB if more than 8 spaces are registered, otherwise no such index occurs. *)
Definition set_cre (g : gmat) (s v : Z) : gmat :=
  match aget g s with Ok p => match aset g s (v, snd p) with Ok g' => g' | _ => g end | _ => g end.
Definition set_ann (g : gmat) (s v : Z) : gmat :=
  match aget g s with Ok p => match aset g s (fst p, v) with Ok g' => g' | _ => g end | _ => g end.
(** graph_matrix.cc:61-75 as total functions (same remark). *)
Definition gadd (st : osi) (g h : gmat) : gmat := match gm_add st g h with Ok r => r | _ => g end.
Definition gsub (st : osi) (g h : gmat) : gmat := match gm_sub st g h with Ok r => r | _ => g end.

(** orbital_space.h:65-66 on a registered position. *)
Definition stype (st : osi) (s : Z) : option space_type :=
  match aget (space_info st) s with Ok i => Some (os_space i) | _ => None end.

(** [ops[A].cre(s)] and [ops[A].ann(s)] for [A] in range. *)
Definition ops_cre (ops : oprod) (A : nat) (s : Z) : Z := cre_of (op_gm (nth A ops (mkOp [] gm_zero))) s.
Definition ops_ann (ops : oprod) (A : nat) (s : Z) : Z := ann_of (op_gm (nth A ops (mkOp [] gm_zero))) s.

(** [for (int l = 0; l < nops; l++) for (int r = l + 1; r < nops; r++)]. *)
Definition pairs_lt (n : nat) : list (nat * nat) :=
  flat_map (fun l => map (fun r => (l, r)) (seq (S l) (n - S l))) (seq 0 n).

(** wick_theorem_elementary_contractions.cc:75-92. *)
Definition elementary_occupied (ops : oprod) (s : Z) : list econ :=
  let nops := length ops in
  flat_map (fun lr : nat * nat => let (l, r) := lr in
    if 0 <? ops_cre ops l s * ops_ann ops r s then
      let c := repeat gm_zero nops in
      let c := lset c l (set_cre (nth l c gm_zero) s 1) in
      let c := lset c r (set_ann (nth r c gm_zero) s 1) in [c]
    else []) (pairs_lt nops).

(** wick_theorem_elementary_contractions.cc:94-111. *)
Definition elementary_unoccupied (ops : oprod) (s : Z) : list econ :=
  let nops := length ops in
  flat_map (fun lr : nat * nat => let (l, r) := lr in
    if 0 <? ops_ann ops l s * ops_cre ops r s then
      let c := repeat gm_zero nops in
      let c := lset c l (set_ann (nth l c gm_zero) s 1) in
      let c := lset c r (set_cre (nth r c gm_zero) s 1) in [c]
    else []) (pairs_lt nops).

(** wick_theorem_elementary_contractions.cc:118-126. *)
Definition sum_cre (ops : oprod) (s : Z) : Z := fold_left (fun a A => a + ops_cre ops A s) (seq 0 (length ops)) 0.
Definition sum_ann (ops : oprod) (s : Z) : Z := fold_left (fun a A => a + ops_ann ops A s) (seq 0 (length ops)) 0.
Definition max_half_legs (maxcumulant : Z) (ops : oprod) (s : Z) : Z :=
  Z.min (Z.min (sum_cre ops s) (sum_ann ops s)) maxcumulant.

(** wick_theorem_elementary_contractions.cc:144-148: zeros appended to the partition, then [std::sort].
    A partition longer than [nops] would make [std::copy] write past [perm] (UB). *)
Definition padded (nops : nat) (part : list Z) : res (list Z) :=
  if (length part <=? nops)%nat then Ok (sort_by Z.ltb (part ++ repeat 0 (nops - length part))) else UB.

(** wick_theorem_elementary_contractions.cc:150-166: does the distribution [perm] fit the counts? *)
Definition fits_legs (count : nat -> Z) (perm : list Z) : bool :=
  forallb (fun A => negb (count A <? nth A perm 0)) (seq 0 (length perm)).

(** wick_theorem_elementary_contractions.cc:136-168. *)
Definition legs_vec (fuel : nat) (nops : nat) (half_legs : Z) (count : nat -> Z) : res (list (list Z)) :=
  parts <- integer_partitions fuel half_legs (Z.of_nat nops) ;;
  foldM (fun v part => perm <- padded nops part ;; Ok (v ++ filter (fits_legs count) (np_visited perm))) [] parts.

(** wick_theorem_elementary_contractions.cc:173-188. *)
Definition combine_legs (nops : nat) (s : Z) (cl al : list Z) : list econ :=
  let contracted := fold_left (fun n A => n + (if 0 <? nth A cl 0 + nth A al 0 then 1 else 0)) (seq 0 nops) 0 in
  if contracted <? 2 then []
  else [map (fun A => set_ann (set_cre gm_zero s (nth A cl 0)) s (nth A al 0)) (seq 0 nops)].

(** wick_theorem_elementary_contractions.cc:131-195, one value of [half_legs]. *)
Definition general_legs (fuel : nat) (ops : oprod) (s half_legs : Z) : res (list econ) :=
  let nops := length ops in
  cv <- legs_vec fuel nops half_legs (fun A => ops_cre ops A s) ;;
  av <- legs_vec fuel nops half_legs (fun A => ops_ann ops A s) ;;
  Ok (flat_map (fun cl => flat_map (combine_legs nops s cl) av) cv).

(** wick_theorem_elementary_contractions.cc:113-196. *)
Definition elementary_general (fuel : nat) (maxcumulant : Z) (ops : oprod) (s : Z) : res (list econ) :=
  foldM (fun v k => r <- general_legs fuel ops s k ;; Ok (v ++ r)) []
    (map (fun k => k + 1) (range (max_half_legs maxcumulant ops s))).

(** wick_theorem_elementary_contractions.cc:20-73; [fuel] bounds the loops of [integer_partitions]. *)
Definition elementary_contractions (fuel : nat) (st : osi) (maxcumulant : Z) (ops : oprod) : res (list econ) :=
  foldM (fun v s =>
    match stype st s with
    | Some Occupied => Ok (v ++ elementary_occupied ops s)
    | Some Unoccupied => Ok (v ++ elementary_unoccupied ops s)
    | Some General => r <- elementary_general fuel maxcumulant ops s ;; Ok (v ++ r)
    | None => UB
    end) [] (range (num_spaces st)).

(** ** Step 2 *)

(** graph_matrix.cc:118-121 ([sum_num_ops]). *)
Definition sum_num_ops (free : list gmat) : Z := fold_left (fun a g => a + gm_num_ops g) free 0.

(** wick_theorem_composite_contractions.cc:112-118. *)
Definition is_candidate (st : osi) (free : list gmat) (el : econ) : bool :=
  forallb (fun A => forallb (fun s =>
    negb (cre_of (nth A free gm_zero) s <? cre_of (nth A el gm_zero) s) &&
    negb (ann_of (nth A free gm_zero) s <? ann_of (nth A el gm_zero) s)) (range (num_spaces st))) (seq 0 (length free)).

(** wick_theorem_composite_contractions.cc:92-128: [k] is already incremented; reading [a[k - 2]] outside [a] is UB. *)
Definition construct_candidates (st : osi) (a : list Z) (k : Z) (els : list econ) (free : list gmat) : res (list Z) :=
  minc <- (if 1 <? k then aget a (k - 2) else Ok 0) ;;
  Ok (filter (fun c => is_candidate st free (nth (Z.to_nat c) els []))
        (map (fun i => minc + i) (range (Z.of_nat (length els) - minc)))).

(** wick_theorem_composite_contractions.cc:130-143, 145-159 on the free matrices. *)
Definition move_sub (st : osi) (free : list gmat) (el : econ) : list gmat :=
  map (fun A => gsub st (nth A free gm_zero) (nth A el gm_zero)) (seq 0 (length free)).
Definition move_add (st : osi) (free : list gmat) (el : econ) : list gmat :=
  map (fun A => gadd st (nth A free gm_zero) (nth A el gm_zero)) (seq 0 (length free)).

(** The part of the object's state changed by the search: [contractions_] and [free_graph_matrix_vec]
    (passed by reference). *)
Definition bt_state := (list (list Z) * list gmat)%type.

(** wick_theorem_composite_contractions.cc:73-90: [vector(a.begin(), a.begin() + k)] is UB for k > a.size(). *)
Definition process_contraction (a : list Z) (k minrank maxrank : Z) (st : bt_state) : res bt_state :=
  let '(found, free) := st in
  let n := sum_num_ops free in
  if (minrank <=? n) && (n <=? maxrank) then
    if Z.of_nat (length a) <? k then UB else Ok (found ++ [firstn (Z.to_nat k) a], free)
  else Ok (found, free).

(** wick_theorem_composite_contractions.cc:50-71.  [a] is passed by value (the callee's writes are not seen
    by the caller); [make_move] writes [a[k - 1] = c] (UB outside [a]), [unmake_move] writes -1.
    The loop over candidates is inlined: [go]. *)
Fixpoint backtrack (depth : nat) (reg : osi) (els : list econ) (minrank maxrank : Z)
  (a : list Z) (k : Z) (st : bt_state) : res bt_state :=
  match depth with
  | O => NoFuel
  | S d =>
    st <- process_contraction a k minrank maxrank st ;;
    let k := k + 1 in
    cands <- construct_candidates reg a k els (snd st) ;;
    '(_, st) <- foldM (fun (x : list Z * bt_state) c =>
        let '(a, st) := x in
        a <- aset a (k - 1) c ;;
        let el := nth (Z.to_nat c) els [] in
        let st := (fst st, move_sub reg (snd st) el) in
        st <- backtrack d reg els minrank maxrank a k st ;;
        a <- aset a (k - 1) (-1) ;;
        Ok (a, (fst st, move_add reg (snd st) el))) (a, st) cands ;;
    Ok st
  end.

(** wick_theorem_composite_contractions.cc:19-48: returns [contractions_] and the free matrices on exit. *)
Definition composite_contractions (depth : nat) (reg : osi) (els : list econ) (ops : oprod) (minrank maxrank : Z) : res bt_state :=
  backtrack depth reg els minrank maxrank (repeat (-1) 100) 0 ([], map op_gm ops).
