(** C67: the Python interface of the registry and its printed form. *)
From Coq Require Import String.
From Coq Require Import ZArith List Bool Ascii Lia.
From Verif Require Import Res RegistryModel RegistryProofs RegistryProps TextModel EquationModel PyEinsumModel RegTextModel RegTextSpec RegTextProofs.
Import ListNotations.
Local Open Scope Z_scope.

(** [add_space] with documented names is the call with the types they name; with any other text it throws and nothing has changed. *)
Theorem C67_add_space : forall st l fs ss f s names el, names_field fs f -> names_space ss s -> add_space_str st l (str fs) (str ss) names el = add_space st l f s names el.
Proof. exact add_named. Qed.
Print Assumptions C67_add_space.
Theorem C67_add_space_other : forall st l fs ss names el, (forall f s, names_field fs f -> names_space ss s -> False) -> add_space_str st l (str fs) (str ss) names el = (st, Throw).
Proof. exact add_unnamed. Qed.
Print Assumptions C67_add_space_other.
(** Registries with the same [str] have the same labels, types and index names, in the same order. *)
Theorem C67_str : forall st st', clean_names st -> clean_names st' -> osi_str st = osi_str st' -> map shown_space (space_info st) = map shown_space (space_info st').
Proof. exact (fun st st' C C' => spaces_inj _ C _ C'). Qed.
Print Assumptions C67_str.
(** [to_dict] maps exactly the registered labels, each to its index names. *)
Theorem C67_dict : forall st c names, reachable st -> nget c (to_dict st) = Some names <-> exists sp, space_label st sp = Ok c /\ space_indices st sp = Ok names.
Proof. exact dict_ok. Qed.
Print Assumptions C67_dict.
(** The registry is the result of registering its spaces one after the other, whatever calls (with resets) made it; so two registries
    with the same spaces behave alike. *)
Theorem C67_replay : forall st, reachable st -> exists l, accepted reset_space l st /\ Forall2 (registers st) (space_info st) l.
Proof. exact replay. Qed.
Print Assumptions C67_replay.
Theorem C67_content : forall st st', reachable st -> reachable st' -> space_info st = space_info st' -> st = st'.
Proof. exact content_determines. Qed.
Print Assumptions C67_content.

(** The text does not show the elementary spaces, ... *)
Theorem C67_elementary_refuted : exists st st', reachable st /\ reachable st' /\ clean_names st /\ clean_names st' /\ osi_str st = osi_str st' /\ st <> st'.
Proof.
  exists (fst (reg_step reset_space (CAdd "o" Fermion Occupied [str "i"] []))), (fst (reg_step reset_space (CAdd "o" Fermion Occupied [str "i"] ["o"%char]))).
  split; [apply one_call; reflexivity|]. split; [apply one_call; reflexivity|].
  assert (C : clean_name (str "i")) by (split; [discriminate|]; split; intros H; cbn in H; decompose [or False] H; discriminate).
  split; [intros s [<-|[]]; constructor; [exact C|constructor]|]. split; [intros s [<-|[]]; constructor; [exact C|constructor]|]. split; [reflexivity|]. intros H. apply (f_equal (fun x => map os_elementary (space_info x))) in H. discriminate.
Qed.
Print Assumptions C67_elementary_refuted.
(** ... and a name with a comma looks like two names. *)
Theorem C67_names_refuted : exists st st', reachable st /\ reachable st' /\ osi_str st = osi_str st' /\ map os_indices (space_info st) <> map os_indices (space_info st').
Proof.
  exists (fst (reg_step reset_space (CAdd "o" Fermion Occupied [str "i"; str "j"] []))), (fst (reg_step reset_space (CAdd "o" Fermion Occupied [str "i,j"] []))).
  split; [apply one_call; reflexivity|]. split; [apply one_call; reflexivity|]. split; [reflexivity|discriminate].
Qed.
Print Assumptions C67_names_refuted.

(** ** A case *)
Example C67_nonvacuous : reachable ex_st2 /\ clean_names ex_st2 /\
  add_space_str ex_st1 "v" (str "fermion") (str "unoccupied") [["a"%char]; ["b"%char]] ["o"%char; "v"%char] = (ex_st2, Ok tt) /\
  add_space_str ex_st1 "v" (str "fermion") (str "virtual") [["a"%char]; ["b"%char]] [] = (ex_st1, Throw) /\
  osi_str ex_st2 = str "space label: o
field type: fermion
space type: occupied
indices: [i,j]

space label: v
field type: fermion
space type: unoccupied
indices: [a,b]".
Proof.
  split; [apply C10_nonvacuous|]. split.
  - assert (C : forall c, c <> ","%char -> c <> "]"%char -> clean_name [c]) by (intros c H1 H2; split; [discriminate|]; split; intros [H|[]]; congruence).
    intros s [<-|[<-|[]]]; repeat (constructor; [apply C; discriminate|]); constructor.
  - repeat split; reflexivity.
Qed.
