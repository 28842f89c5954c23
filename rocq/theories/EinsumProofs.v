(** Lemmas for C59: the letters are an injective function of the indices; the text of the call. *)
From Coq Require Import ZArith List Bool Ascii String Lia Arith.
From Verif Require Import Res PartitionsModel RegistryModel RegistryProofs CoreModel OrderProofs RationalModel AlgebraModel TextModel TextSpec EquationModel EquationSpec EquationProofs EquationProofs2.
Import ListNotations.
Local Open Scope Z_scope.

Fixpoint find_pos (i : index) (l : list index) : nat := match l with [] => O | j :: l' => if index_dec i j then O else S (find_pos i l') end.
Lemma find_pos_ok i l d : In i l -> (find_pos i l < List.length l)%nat /\ nth (find_pos i l) l d = i.
Proof.
  induction l as [|j l IH]; [intros []|]. intros H. cbn [find_pos]. destruct (index_dec i j) as [->|N]; [split; [cbn [List.length]; lia|reflexivity]|]. destruct H as [->|H]; [congruence|]. destruct (IH H) as [A B]. cbn [List.length nth]. split; [lia|exact B].
Qed.
Lemma concat_lengths {A} (l l' : list (list A)) : map (@List.length _) l = map (@List.length _) l' -> List.concat l = List.concat l' -> l = l'.
Proof.
  revert l'. induction l as [|a l IH]; intros [|b l']; try discriminate; [reflexivity|]. cbn [map List.concat]. intros [= E1 E2] E3.
  assert (a = b /\ List.concat l = List.concat l') as [-> E4]. { clear - E1 E3. revert b E1 E3. induction a as [|x a IH]; intros [|y b]; try discriminate; [auto|]. cbn [app List.length]. intros [= E] [= -> E']. destruct (IH b E E') as [-> H]. auto. }
  f_equal. apply IH; auto.
Qed.
Lemma einsum_sigma st rhs lhs ins out : reachable st -> names_ok st -> (forall t, In t (lhs :: rhs) -> forall i, In i (slots_of t) -> 0 <= isp i < num_spaces st) ->
  einsum_indices st rhs lhs = Ok (ins, out) ->
  exists f : index -> ascii, ins = map (fun t => map f (slots_of t)) rhs /\ out = map f (slots_of lhs) /\
    (forall i, In i (flat_map slots_of (rhs ++ [lhs])) -> is_letter (f i)) /\
    (forall i j, In i (flat_map slots_of (rhs ++ [lhs])) -> In j (flat_map slots_of (rhs ++ [lhs])) -> f i = f j -> i = j).
Proof.
  intros R G Rg E. assert (X := fun d => einsum_same st rhs lhs ins out d R G Rg E). set (L := flat_map slots_of (rhs ++ [lhs])) in *. set (C := List.concat (ins ++ [out])) in *.
  set (d := mkI 0 0). destruct (X d) as (A & B & D). clear X.
  assert (Len : List.length L = List.length C). { unfold L, C. rewrite flat_map_concat_map. clear - A. revert A. generalize (ins ++ [out]). generalize (rhs ++ [lhs]). induction l as [|t l IH]; intros [|w ws]; try discriminate; [reflexivity|]. cbn [map List.concat]. intros [= A1 A2]. rewrite !app_length, (IH _ A2). congruence. }
  set (f := fun i => nth (find_pos i L) C zero). exists f.
  assert (M : map f L = C).
  { apply (nth_ext _ _ zero zero); rewrite map_length; [exact Len|]. intros k Hk. rewrite (nth_indep _ zero (f d)) by (rewrite map_length; exact Hk). rewrite map_nth. unfold f.
    destruct (find_pos_ok (nth k L d) L d) as [P Q]; [apply nth_In, Hk|]. apply (proj2 (D (find_pos (nth k L d) L) k P Hk)). exact Q. }
  assert (S : ins ++ [out] = map (fun t => map f (slots_of t)) (rhs ++ [lhs])).
  { apply concat_lengths; [rewrite A, !map_map; apply map_ext; intros t; rewrite map_length; reflexivity|]. fold C. rewrite <- M. unfold L. rewrite flat_map_concat_map, concat_map, map_map. reflexivity. }
  rewrite map_app in S. apply app_inj_tail in S. destruct S as [S1 S2]. split; [exact S1|]. split; [exact S2|]. split.
  - intros i Hi. rewrite Forall_forall in B. apply B. rewrite <- M. apply in_map, Hi.
  - intros i j Hi Hj Ef. destruct (find_pos_ok i L d Hi) as [P Q], (find_pos_ok j L d Hj) as [P' Q']. rewrite <- Q, <- Q'. apply (proj1 (D _ _ P P')). exact Ef.
Qed.
Lemma letter_plain c : is_letter c -> c <> "-"%char /\ c <> ","%char.
Proof. intros H. split; intros ->; unfold is_letter, alphabet in H; apply in_map_iff in H; destruct H as (x & [= E] & H); subst x; vm_compute in H; repeat destruct H as [H|H]; try discriminate; exact H. Qed.
Lemma mapM_labels st l : regd st l -> mapM (fun i => space_label st (isp i)) l = Ok (map (fun i => match space_label st (isp i) with Ok c => c | _ => zero end) l).
Proof.
  induction l as [|i l IH]; intros H; [reflexivity|]. cbn [mapM map]. destruct (reg_label_defined st (isp i)) as (c & E); [apply H; left; auto|]. rewrite E. cbn [bind]. rewrite IH; [reflexivity|]. intros j Hj. apply H. right. exact Hj.
Qed.
Lemma join_comma_args (l : list text) a : join (a :: l) (str ",") = a ++ flat_map (fun x => str "," ++ x) l.
Proof. revert a. induction l as [|b l IH]; intros a; [cbn; rewrite app_nil_r; reflexivity|]. change (join (a :: b :: l) (str ",")) with (a ++ str "," ++ join (b :: l) (str ",")). rewrite IH. cbn [flat_map]. rewrite <- !app_assoc. reflexivity. Qed.
