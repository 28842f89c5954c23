(** Model of [remap], [num_indices_per_space] and [symmetry_factor] (wicked/algebra/index.cc:78-121, tensor.cc:15-29). *)
From Coq Require Import ZArith List Bool.
From Verif Require Import Res PartitionsModel RegistryModel CoreModel SortModel CombinatoricsModel AdjointModel TextModel.
Import ListNotations.
Local Open Scope Z_scope.
Local Open Scope res_scope.

(** index.cc:81, [std::map<int, std::vector<int>>] used through [m[k]]: an association list, a missing key reads as the empty vector. *)
Definition count_map := list (Z * list Z).
Fixpoint cget (k : Z) (m : count_map) : list Z := match m with [] => [] | (k', v) :: m' => if k =? k' then v else cget k m' end.
(** [m[k].push_back(v)]. *)
Fixpoint cpush (k v : Z) (m : count_map) : count_map :=
  match m with [] => [(k, [v])] | (k', l) :: m' => if k =? k' then (k', l ++ [v]) :: m' else (k', l) :: cpush k v m' end.
(** [result[i] = j] on [index_map_t]. *)
Fixpoint imput (i j : index) (m : index_map) : index_map :=
  match m with [] => [(i, j)] | (k, v) :: m' => if index_eqb i k then (k, j) :: m' else (k, v) :: imput i j m' end.
(** index.cc:92-102, one index of the second list.  [last_index + 1] overflows at [INT_MAX]. *)
Definition remap_step (s : index_map * count_map) (idx : index) : res (index_map * count_map) :=
  let '(result, count) := s in
  let l := cget (isp idx) count in
  if existsb (Z.eqb (ipos idx)) l then
    let last_index := last l 0 in
    if last_index =? max_int then UB
    else Ok (imput idx (mkI (isp idx) (last_index + 1)) result, cpush (isp idx) (last_index + 1) count)
  else Ok (result, count).
(** index.cc:78-104. *)
Definition remap (a b : list index) : res index_map :=
  let count := fold_left (fun m i => cpush (isp i) (ipos i) m) a [] in
  let count := map (fun kv => (fst kv, sort_by Z.ltb (snd kv))) count in
  '(result, _) <- foldM remap_step ([], count) b ;; Ok result.

(** index.cc:106-112. *)
Definition num_indices_per_space (st : osi) (l : list index) : res (list Z) :=
  foldM (fun c i => v <- aget c (isp i) ;; aset c (isp i) (v + 1)) (repeat 0 (length (space_info st))) l.
(** index.cc:114-121 (without [int] overflow). *)
Definition symmetry_factor (st : osi) (l : list index) : res Z :=
  c <- num_indices_per_space st l ;; Ok (fold_left (fun r n => r * factorial n) c 1).
(** tensor.cc:27-29. *)
Definition tensor_symmetry_factor (st : osi) (t : tensor) : res Z :=
  u <- symmetry_factor st (t_upper t) ;; l <- symmetry_factor st (t_lower t) ;; Ok (u * l).
