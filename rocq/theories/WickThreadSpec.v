(** Vocabulary for the timers (C46). *)
From Coq Require Import ZArith List Bool Arith.
From Verif Require Import Res RegistryModel CoreModel RationalModel WickThreadModel.
Import ListNotations.
Local Open Scope Z_scope.

(** The time all the tasks spent: those with a contraction in the rank range. *)
Fixpoint spent (in_range : list Z -> bool) (time : nat -> timer_key -> Z) (k : timer_key) (i : nat) (tasks : list (list Z)) : Z :=
  match tasks with [] => 0 | cv :: l => (if in_range cv then time i k else 0) + spent in_range time k (S i) l end.
Definition is_pending (p : wpc) : bool := match p with W_canon_write _ | W_eval_write _ => true | _ => false end.
(** No task is between the read and the write of a timer. *)
Definition no_pending (s : mstate) : Prop := Forall (fun p => is_pending p = false) (ms_workers s).
(** Schedules in which no other step comes between the read and the write of a timer. *)
Inductive atomic_steps tasks in_range outcome time : mstate -> mstate -> Prop :=
| at_refl s : atomic_steps tasks in_range outcome time s s
| at_step s s1 s2 : mstep tasks in_range outcome time s s1 -> no_pending s1 -> atomic_steps tasks in_range outcome time s1 s2 ->
    atomic_steps tasks in_range outcome time s s2
| at_update s s1 s2 s3 : mstep tasks in_range outcome time s s1 -> mstep tasks in_range outcome time s1 s2 -> no_pending s2 ->
    atomic_steps tasks in_range outcome time s2 s3 -> atomic_steps tasks in_range outcome time s s3.
