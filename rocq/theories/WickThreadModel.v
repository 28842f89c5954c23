(** Model of the multi-threaded step 3 of [WickTheorem] (wicked/diagrams/wick_theorem_process_contractions.cc:111-197) as an
    interleaving of atomic steps of the launching thread and of one worker thread per contraction, and of the state of a
    [WickTheorem] object (wick_theorem.{h,cc}). *)
From Coq Require Import ZArith List Bool Arith Ascii.
From Verif Require Import Res RegistryModel CoreModel RationalModel AlgebraModel OperatorModel WickSearchModel WickEvalModel.
Import ListNotations.
Local Open Scope Z_scope.

(** [timers_] (wick_theorem.h:58): [std::map<std::string, double>].  Times are integers (ticks); only the two entries updated
    by the workers are modelled. *)
Inductive timer_key := Tcanon | Teval.   (* "canonicalize_contraction_graph", "evaluate_contraction" *)
Definition timer_eqb (a b : timer_key) : bool := match a, b with Tcanon, Tcanon => true | Teval, Teval => true | _, _ => false end.
Definition timers := assoc timer_key.
(** [operator[]] inserts 0 if there is no entry. *)
Definition timer_get (k : timer_key) (m : timers) : Z := match afind timer_eqb k m with Some v => v | None => 0 end.

(** What a worker does next (wick_theorem_process_contractions.cc:157-197).  [timers_[k] += x] (:172, :177) is a read of the
    shared entry followed by a write; nothing protects it. *)
Inductive wpc :=
| W_start                  (* :161-167 rank test, :169-171 canonicalize_contraction_graph *)
| W_canon_read             (* :172 read *)
| W_canon_write (v : Z)    (* :172 write [v + time] *)
| W_eval                   (* :174-176 evaluate_contraction *)
| W_eval_read              (* :177 read *)
| W_eval_write (v : Z)     (* :177 write *)
| W_finish                 (* :179-182 canonicalize the term, add it to the local result *)
| W_done (r : res expression).

Record mstate := mkMS {
  ms_workers : list wpc;       (* the launched tasks *)
  ms_collected : nat;          (* how many futures the launching thread has read *)
  ms_acc : res expression;     (* its result; an exception of a task is rethrown by [get] *)
  ms_timers : timers }.

Section Machine.
  (** [tasks]: [contractions_]; [in_range]: the rank test; [outcome cv]: the terms task [cv] adds to its result (a function
      because the task reads only [ops], [factor], the ranks, [elementary_contractions_] and the registry, none of which changes
      while the tasks run); [time i k]: what the clock shows. *)
  Context (tasks : list (list Z)) (in_range : list Z -> bool) (outcome : list Z -> res (list (term * rational))) (time : nat -> timer_key -> Z).

  (** :159 [Expression result], :182 [result += {term, factor}]: the task's own expression. *)
  Definition task_result (cv : list Z) : res expression := bind (outcome cv) (fun l => Ok (mplus term_ltb [] l)).

  (** One atomic step of worker [i] with contraction [cv].  A failing [evaluate_contraction] would skip the second timer; this is
      simplified ([evaluate_contraction] does not fail here, C44). *)
  Definition worker_step (i : nat) (cv : list Z) (p : wpc) (tm : timers) : option (wpc * timers) :=
    match p with
    | W_start => Some (if in_range cv then W_canon_read else W_done (task_result cv), tm)
    | W_canon_read => Some (W_canon_write (timer_get Tcanon tm), aput timer_eqb Tcanon (timer_get Tcanon tm) tm)
    | W_canon_write v => Some (W_eval, aput timer_eqb Tcanon (v + time i Tcanon) tm)
    | W_eval => Some (W_eval_read, tm)
    | W_eval_read => Some (W_eval_write (timer_get Teval tm), aput timer_eqb Teval (timer_get Teval tm) tm)
    | W_eval_write v => Some (W_finish, aput timer_eqb Teval (v + time i Teval) tm)
    | W_finish => Some (W_done (task_result cv), tm)
    | W_done _ => None
    end.

  Definition ms_init (tm : timers) : mstate := mkMS [] 0 (Ok []) tm.

  Inductive mstep : mstate -> mstate -> Prop :=
  (** :122-130: [std::async] starts a task at once. *)
  | st_launch ws acc tm : (length ws < length tasks)%nat -> mstep (mkMS ws 0 acc tm) (mkMS (ws ++ [W_start]) 0 acc tm)
  | st_worker ws1 p ws2 c acc tm cv p' tm' :
      nth_error tasks (length ws1) = Some cv -> worker_step (length ws1) cv p tm = Some (p', tm') ->
      mstep (mkMS (ws1 ++ p :: ws2) c acc tm) (mkMS (ws1 ++ p' :: ws2) c acc tm')
  (** :136-138: [result += fut.get()], in the order of the launches; [get] waits for the task. *)
  | st_get ws c acc tm r : length ws = length tasks -> nth_error ws c = Some (W_done r) ->
      mstep (mkMS ws c (Ok acc) tm) (mkMS ws (S c) (bind r (fun e => Ok (mplus term_ltb acc e))) tm).
  Inductive msteps : mstate -> mstate -> Prop :=
  | ms_refl s : msteps s s
  | ms_next s s1 s2 : mstep s s1 -> msteps s1 s2 -> msteps s s2.
  (** The launching thread has read every future, or [get] has thrown. *)
  Definition ms_final (s : mstate) : Prop := length (ms_workers s) = length tasks /\ (ms_collected s = length tasks \/ forall e, ms_acc s <> Ok e).

  (** The timers after the single-threaded loop (:62-105). *)
  Definition add_time (k : timer_key) (x : Z) (tm : timers) : timers := aput timer_eqb k (timer_get k tm + x) tm.
  Definition single_timers (tm : timers) : timers :=
    fold_left (fun tm (x : nat * list Z) => if in_range (snd x) then add_time Teval (time (fst x) Teval) (add_time Tcanon (time (fst x) Tcanon) tm) else tm)
      (combine (seq 0 (length tasks)) tasks) tm.
End Machine.

(** wick_theorem_process_contractions.cc:111-150: [r] is a possible outcome of the multi-threaded step 3: there are clock readings
    and a schedule that give it. *)
Definition rank_test (els : list econ) (ops : oprod) (minrank maxrank : Z) (cv : list Z) : bool :=
  (minrank <=? ops_rank ops - con_rank els cv) && (ops_rank ops - con_rank els cv <=? maxrank).
Definition process_contractions_threads (o : wt_opts) (st : osi) (els : list econ) (cvs : list (list Z)) (ops : oprod) (factor : rational)
  (minrank maxrank : Z) (r : res expression) : Prop :=
  exists outcome time tm s, (forall cv, In cv cvs -> process_single o st els ops factor minrank maxrank cv (outcome cv)) /\
    msteps cvs (rank_test els ops minrank maxrank) outcome time (ms_init tm) s /\ ms_final cvs s /\ ms_acc s = r.

(** ** The object *)
(** Data members of [WickTheorem] (wick_theorem.h:50-73); print level and timers do not influence the results. *)
Record wt_obj := mkObj { ob_els : list econ; ob_cvs : list (list Z); ob_ncontr : Z; ob_opts : wt_opts; ob_single : bool }.
(** Default member initializers (wick_theorem.h:60-73). *)
Definition wt_new : wt_obj := mkObj [] [] 0 (mkWT 100 true) false.
(** wick_theorem.cc:21-27. *)
Definition set_max_cumulant (n : Z) (b : wt_obj) : wt_obj := mkObj (ob_els b) (ob_cvs b) (ob_ncontr b) (mkWT n (wt_canonicalize (ob_opts b))) (ob_single b).
Definition do_canonicalize_graph (v : bool) (b : wt_obj) : wt_obj := mkObj (ob_els b) (ob_cvs b) (ob_ncontr b) (mkWT (wt_maxcumulant (ob_opts b)) v) (ob_single b).
Definition set_single_threaded (v : bool) (b : wt_obj) : wt_obj := mkObj (ob_els b) (ob_cvs b) (ob_ncontr b) (ob_opts b) v.
(** wick_theorem.cc:33-63.  The members are cleared (:35-37), [elementary_contractions_] is assigned (:47), step 2 appends to
    [contractions_] and counts (wick_theorem_composite_contractions.cc:79-80), step 3 goes over [contractions_].
    [contract_call .. r b']: the call on [b] can return [r] and leave [b'].  If the search fails the members left behind are not specified. *)
Definition wt_clear (b : wt_obj) : wt_obj := mkObj [] [] 0 (ob_opts b) (ob_single b).
Definition contract_call (st : osi) (b : wt_obj) (factor : rational) (ops : oprod) (minrank maxrank : Z) (r : res expression) (b' : wt_obj) : Prop :=
  let b0 := wt_clear b in
  exists fuel, search fuel (ob_opts b0) st ops minrank maxrank <> NoFuel /\
  match search fuel (ob_opts b0) st ops minrank maxrank with
  | Ok (els, cvs) =>
      b' = mkObj els (ob_cvs b0 ++ cvs) (ob_ncontr b0 + Z.of_nat (length cvs)) (ob_opts b0) (ob_single b0) /\
      (if ob_single b' then process_contractions (ob_opts b') st (ob_els b') (ob_cvs b') ops factor minrank maxrank r
       else process_contractions_threads (ob_opts b') st (ob_els b') (ob_cvs b') ops factor minrank maxrank r)
  | Throw => r = Throw | UB => r = UB | NoFuel => False
  end.
(** A history of calls on one object. *)
Inductive wt_call (st : osi) : wt_obj -> wt_obj -> Prop :=
| call_cum n b : wt_call st b (set_max_cumulant n b)
| call_canon v b : wt_call st b (do_canonicalize_graph v b)
| call_single v b : wt_call st b (set_single_threaded v b)
| call_contract b factor ops minrank maxrank r b' : contract_call st b factor ops minrank maxrank r b' -> wt_call st b b'.
Inductive wt_history (st : osi) : wt_obj -> wt_obj -> Prop :=
| hist_nil b : wt_history st b b
| hist_cons b b1 b2 : wt_call st b b1 -> wt_history st b1 b2 -> wt_history st b b2.
