(** Outcomes of C++ calls: normal return, C++ exception, undefined behaviour, loop fuel used up. *)
From Coq Require Import List.
Import ListNotations.

(** Not a model of code: the result type used by all models.
    [UB] stands for out-of-range access, signed overflow, [back()] of an empty vector, etc.;
    [NoFuel] only arises from [while] loops run with too little fuel and theorems exclude it. *)
Inductive res (A : Type) :=
| Ok (a : A) | Throw | UB | NoFuel.
Arguments Ok {A} a. Arguments Throw {A}. Arguments UB {A}. Arguments NoFuel {A}.

Definition bind {A B} (m : res A) (f : A -> res B) : res B :=
  match m with Ok a => f a | Throw => Throw | UB => UB | NoFuel => NoFuel end.

Declare Scope res_scope.
Delimit Scope res_scope with res.
Notation "x <- m ;; k" := (bind m (fun x => k))
  (at level 61, m at next level, right associativity) : res_scope.
Notation "' p <- m ;; k" := (bind m (fun x => match x with p => k end))
  (at level 61, p pattern, m at next level, right associativity) : res_scope.

(** Loop over a list threading a state, stopping at the first abnormal outcome. *)
Fixpoint foldM {S A} (f : S -> A -> res S) (s : S) (l : list A) : res S :=
  match l with
  | [] => Ok s
  | a :: l' => bind (f s a) (fun s' => foldM f s' l')
  end.

Fixpoint mapM {A B} (f : A -> res B) (l : list A) : res (list B) :=
  match l with
  | [] => Ok []
  | a :: l' => bind (f a) (fun b => bind (mapM f l') (fun bs => Ok (b :: bs)))
  end.

Definition of_opt_ub {A} (o : option A) : res A := match o with Some a => Ok a | None => UB end.
Definition of_opt_throw {A} (o : option A) : res A := match o with Some a => Ok a | None => Throw end.

Lemma bind_Ok {A B} (m : res A) (f : A -> res B) b :
  bind m f = Ok b -> exists a, m = Ok a /\ f a = Ok b.
Proof. destruct m; simpl; intros H; try discriminate. eauto. Qed.

Lemma foldM_app {S A} (f : S -> A -> res S) s l1 l2 :
  foldM f s (l1 ++ l2) = bind (foldM f s l1) (fun s' => foldM f s' l2).
Proof. revert s; induction l1 as [|a l1 IH]; intros s; simpl; [reflexivity|].
  destruct (f s a); simpl; auto. Qed.
