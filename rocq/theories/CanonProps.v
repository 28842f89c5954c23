(** C27, C28, C29: renaming of indices by canonicalization. *)
From Coq Require Import ZArith List Bool Ascii Lia Permutation.
From Verif Require Import Res RegistryModel CoreModel CombinatoricsModel RationalModel AlgebraModel SortModel SortSpec SortProofs OperatorModel AdjointModel CanonModel CanonSpec CanonProofs CanonProofs2 CanonIdem.
Import ListNotations.
Local Open Scope Z_scope.

(** ** C27: every term over registered spaces is renamed: spaces are kept, different tensor indices stay different, operator
    indices that occur in no tensor keep their label. *)
Theorem C27_canonicalize_renames : forall st t t' s, term_spaces st t -> term_canonicalize st t (Ok (t', s)) ->
  exists f, (forall i, isp (f i) = isp i) /\ injective_on (in_tensors t) f /\ (forall i, in_term t i -> ~ in_tensors t i -> f i = i) /\ renamed f t t'.
Proof. exact canon_renaming. Qed.
Print Assumptions C27_canonicalize_renames.
(** It has an outcome for every such term with at most 64 slots in each space, and it throws only for nonsymmetric tensors. *)
Theorem C27_canonicalize_total : forall st t, term_spaces st t -> (forall sp, 0 <= sp < num_spaces st -> (slots_in_space t sp <= 64)%nat) ->
  (exists r, term_canonicalize st t r) /\
  forall r, term_canonicalize st t r -> if existsb (fun d => match t_sym d with Nonsymmetric => true | _ => false end) (tm_tens t) then r = Throw else exists t' s, r = Ok (t', s).
Proof. exact canon_total. Qed.
Print Assumptions C27_canonicalize_total.
(** An operator index that occurs in no tensor can collide with a renamed one: T^{o1} a+(o0) a-(o1) becomes T^{o0} a+(o0) a-(o0). *)
Definition one_space : osi := mkOSI [mkOS "o"%char Occupied Fermion [] []] [] [].
Definition clash : term := mkTerm false [mkSQ true (mkI 0 0); mkSQ false (mkI 0 1)] [mkT ["T"%char] [] [mkI 0 1] Antisymmetric false].
Theorem C27_no_collision_refuted : term_spaces one_space clash /\ (forall r, term_canonicalize one_space clash r -> exists t' s, r = Ok (t', s) /\
    forall i, in_term t' i -> i = mkI 0 0) /\ (exists r, term_canonicalize one_space clash r) /\
  exists i j, in_term clash i /\ in_term clash j /\ i <> j.
Proof.
  assert (Sp : term_spaces one_space clash).
  { intros i [(o & [<-|[<-|[]]] & <-)|(d & [<-|[]] & [[]|[<-|[]]])]; unfold num_spaces; simpl; lia. }
  split; [exact Sp|]. split; [|split].
  - intros r (ts & (sc & tl & Esc & P & _ & ->) & ->). vm_compute in Esc. injection Esc as <-. apply Permutation_length_1_inv in P. subst tl.
    eexists _, _. split; [vm_compute; reflexivity|].
    intros i [(o & [<-|[<-|[]]] & <-)|(d & [<-|[]] & [[]|[<-|[]]])]; reflexivity.
  - destruct (sorted_tensors_ex one_space clash Sp) as (ts & S). eexists _, ts. split; [exact S|reflexivity].
  - exists (mkI 0 0), (mkI 0 1). split; [left; eexists; split; [left; reflexivity|reflexivity]|]. split; [left; eexists; split; [right; left; reflexivity|reflexivity]|discriminate].
Qed.
Print Assumptions C27_no_collision_refuted.

(** ** C28: when all operator indices occur in tensors nothing collides, and the new labels are 0, 1, ... in each space,
    operators first. *)
Theorem C28_injective : forall st t t' s, term_spaces st t -> ops_covered t -> term_canonicalize st t (Ok (t', s)) ->
  exists f, (forall i, isp (f i) = isp i) /\ injective_on (in_term t) f /\ renamed f t t'.
Proof.
  exact (fun st t t' s H C E => match canon_renaming st t t' s H E with ex_intro _ f (conj a (conj b (conj _ d))) =>
    ex_intro _ f (conj a (conj (fun i j Hi Hj => b i j (match Hi with or_introl x => C i x | or_intror x => x end) (match Hj with or_introl x => C j x | or_intror x => x end)) d)) end).
Qed.
Print Assumptions C28_injective.
Theorem C28_labels : forall st t t' s, term_spaces st t -> ops_covered t -> NoDup (map s_idx (tm_ops t)) -> term_canonicalize st t (Ok (t', s)) ->
  forall sp, 0 <= sp < num_spaces st -> exists k,
    (forall p, in_ops t' (mkI sp p) <-> 0 <= p < Z.of_nat (ops_in_space t sp)) /\
    (forall p, in_term t' (mkI sp p) <-> 0 <= p < Z.of_nat (ops_in_space t sp + k)).
Proof. exact canon_labels. Qed.
Print Assumptions C28_labels.
(** Non-vacuity: T^{o7 o3} V_{o7} a+(o3). *)
Definition ex28 : term := mkTerm true [mkSQ true (mkI 0 3)] [mkT ["T"%char] [] [mkI 0 7; mkI 0 3] Antisymmetric false; mkT ["V"%char] [mkI 0 7] [] Antisymmetric false].
Example C28_nonvacuous : term_spaces one_space ex28 /\ ops_covered ex28 /\ NoDup (map s_idx (tm_ops ex28)) /\
  term_canonicalize one_space ex28 (Ok (mkTerm true [mkSQ true (mkI 0 0)] [mkT ["T"%char] [] [mkI 0 0; mkI 0 1] Antisymmetric false; mkT ["V"%char] [mkI 0 1] [] Antisymmetric false], -1)).
Proof.
  assert (Sp : term_spaces one_space ex28).
  { assert (U : forall p, 0 <= isp (mkI 0 p) < num_spaces one_space) by (intros p; unfold num_spaces; simpl; lia).
    intros i [(o & [<-|[]] & <-)|(d & [<-|[<-|[]]] & [Hi|Hi])]; [apply U|..]; simpl in Hi; intuition (subst; apply U). }
  split; [exact Sp|]. split.
  { intros i (o & [<-|[]] & <-). eexists. split; [left; reflexivity|right; right; left; reflexivity]. }
  split; [repeat constructor; simpl; tauto|].
  destruct (mapM (tensor_score one_space (tm_tens ex28)) (tm_tens ex28)) as [sc| | |] eqn:E; try discriminate E.
  exists (tm_tens ex28). split; [|vm_compute; reflexivity].
  exists sc, sc. split; [exact E|]. split; [reflexivity|]. vm_compute in E. injection E as <-. split; [|reflexivity].
  unfold ordered. repeat constructor.
Qed.

(** ** C29: the canonical form has ordered operators and ordered indices in every tensor ... *)
Theorem C29_canonical_order : forall st t t' s, term_canonicalize st t (Ok (t', s)) ->
  ordered sqop_ltb (tm_ops t') /\ forall d, In d (tm_tens t') -> ordered index_ltb (t_lower d) /\ ordered index_ltb (t_upper d) /\ tensor_canonicalize d = Ok (d, 1).
Proof. exact canon_order. Qed.
Print Assumptions C29_canonical_order.
(** ... but canonicalizing again can change it, ... *)
Definition ex29 : term := mkTerm true [mkSQ true (mkI 0 2)] [mkT ["t"%char] [mkI 0 1] [] Antisymmetric false; mkT ["t"%char] [mkI 0 2] [] Antisymmetric false].
Definition ex29' : term := mkTerm true [mkSQ true (mkI 0 0)] [mkT ["t"%char] [mkI 0 1] [] Antisymmetric false; mkT ["t"%char] [mkI 0 0] [] Antisymmetric false].
Definition ex29'' : term := mkTerm true [mkSQ true (mkI 0 0)] [mkT ["t"%char] [mkI 0 0] [] Antisymmetric false; mkT ["t"%char] [mkI 0 1] [] Antisymmetric false].
Theorem C29_idempotent_refuted : (forall r, term_canonicalize one_space ex29 r <-> r = Ok (ex29', 1)) /\
  (forall r, term_canonicalize one_space ex29' r <-> r = Ok (ex29'', 1)) /\ ex29' <> ex29''.
Proof.
  assert (D : forall t r0, term_canonicalize one_space t r0 -> (forall d d', In d (tm_tens t) -> In d' (tm_tens t) -> tensor_eqb d d' = true -> d = d') ->
    forall r, term_canonicalize one_space t r <-> r = r0).
  { intros t r0 H0 T r. split; [intros H; eapply canon_deterministic; eassumption|intros ->; exact H0]. }
  split; [|split; [|discriminate]].
  - apply D.
    + exists (tm_tens ex29). split; [|vm_compute; reflexivity].
      destruct (mapM (tensor_score one_space (tm_tens ex29)) (tm_tens ex29)) as [sc| | |] eqn:E; try discriminate E.
      exists sc, sc. split; [exact E|]. split; [reflexivity|]. vm_compute in E. injection E as <-. split; [unfold ordered; repeat constructor|reflexivity].
    + intros d d' [<-|[<-|[]]] [<-|[<-|[]]]; (reflexivity || (intros X; vm_compute in X; discriminate)).
  - apply D.
    + exists (rev (tm_tens ex29')). split; [|vm_compute; reflexivity].
      destruct (mapM (tensor_score one_space (tm_tens ex29')) (tm_tens ex29')) as [sc| | |] eqn:E; try discriminate E.
      exists sc, (rev sc). split; [exact E|]. split; [apply Permutation_rev|]. vm_compute in E. injection E as <-. split; [unfold ordered; repeat constructor|reflexivity].
    + intros d d' [<-|[<-|[]]] [<-|[<-|[]]]; (reflexivity || (intros X; vm_compute in X; discriminate)).
Qed.
Print Assumptions C29_idempotent_refuted.
(** ... exactly because the relabelled tensors may be out of order: if the tensors of the result are in score order,
    canonicalizing again returns the same term with factor 1. *)
Theorem C29_idempotent_if_sorted : forall st t t' s, term_spaces st t -> ops_covered t -> term_canonicalize st t (Ok (t', s)) ->
  sorted_tensors st t' (tm_tens t') -> term_canonicalize st t' (Ok (t', 1)).
Proof. exact (fun st t t' s H C E S => ex_intro _ (tm_tens t') (conj S (eq_sym (canon_stable st t t' s H C E)))). Qed.
Print Assumptions C29_idempotent_if_sorted.
(** In particular canonicalizing is idempotent for terms with at most one tensor. *)
Theorem C29_idempotent_single : forall st t t' s, term_spaces st t -> ops_covered t -> (length (tm_tens t) <= 1)%nat -> term_canonicalize st t (Ok (t', s)) ->
  forall r, term_canonicalize st t' r <-> r = Ok (t', 1).
Proof. exact canon_idem_single. Qed.
Print Assumptions C29_idempotent_single.
(** Terms of equal value may get different canonical forms: t_{o1} t_{o2} a+(o1) differs from [ex29] in the name of its indices only. *)
Definition ex29b : term := mkTerm true [mkSQ true (mkI 0 1)] [mkT ["t"%char] [mkI 0 1] [] Antisymmetric false; mkT ["t"%char] [mkI 0 2] [] Antisymmetric false].
Theorem C29_unique_form_refuted : (exists f, (forall i, isp (f i) = isp i) /\ injective_on (in_term ex29b) f /\ renamed f ex29b ex29) /\
  (forall r, term_canonicalize one_space ex29b r <-> r = Ok (ex29'', 1)) /\ (forall r, term_canonicalize one_space ex29 r <-> r = Ok (ex29', 1)) /\ ex29' <> ex29''.
Proof.
  split; [|split; [|split; [exact (proj1 C29_idempotent_refuted)|discriminate]]].
  - exists (fun i => mkI (isp i) (3 - ipos i)). split; [reflexivity|]. split.
    + intros [a b] [c d] _ _ E. pose proof (f_equal isp E) as E1. pose proof (f_equal ipos E) as E2. cbn [isp ipos] in E1, E2. f_equal; lia.
    + split; [reflexivity|]. split; [reflexivity|]. exists (tm_tens ex29). split; [|apply Forall2_refl; intros d; split; [reflexivity|auto]]. simpl. apply perm_swap.
  - intros r. split.
    + intros H. eapply canon_deterministic; [|exact H|].
      * intros d d' [<-|[<-|[]]] [<-|[<-|[]]]; (reflexivity || (intros X; vm_compute in X; discriminate)).
      * exists (tm_tens ex29b). split; [|vm_compute; reflexivity].
        destruct (mapM (tensor_score one_space (tm_tens ex29b)) (tm_tens ex29b)) as [sc| | |] eqn:E; try discriminate E.
        exists sc, sc. split; [exact E|]. split; [reflexivity|]. vm_compute in E. injection E as <-. split; [unfold ordered; repeat constructor|reflexivity].
    + intros ->. exists (tm_tens ex29b). split; [|vm_compute; reflexivity].
        destruct (mapM (tensor_score one_space (tm_tens ex29b)) (tm_tens ex29b)) as [sc| | |] eqn:E; try discriminate E.
        exists sc, sc. split; [exact E|]. split; [reflexivity|]. vm_compute in E. injection E as <-. split; [unfold ordered; repeat constructor|reflexivity].
Qed.
Print Assumptions C29_unique_form_refuted.
(** The outcome is determined whenever tensors with equal label and indices are the same. *)
Theorem C29_deterministic : forall st t r r', (forall d d', In d (tm_tens t) -> In d' (tm_tens t) -> tensor_eqb d d' = true -> d = d') ->
  term_canonicalize st t r -> term_canonicalize st t r' -> r = r'.
Proof. exact canon_deterministic. Qed.
Print Assumptions C29_deterministic.
Example C29_nonvacuous : term_spaces one_space ex28 /\ ops_covered ex28 /\ exists t', term_canonicalize one_space ex28 (Ok (t', -1)) /\ term_canonicalize one_space t' (Ok (t', 1)).
Proof.
  destruct C28_nonvacuous as (Sp & Co & _ & T). split; [exact Sp|]. split; [exact Co|]. eexists. split; [exact T|]. eapply C29_idempotent_if_sorted; [exact Sp|exact Co|exact T|].
  match goal with |- sorted_tensors _ ?t _ => destruct (mapM (tensor_score one_space (tm_tens t)) (tm_tens t)) as [sc| | |] eqn:E; try discriminate E end.
  exists sc, sc. split; [exact E|]. split; [reflexivity|]. vm_compute in E. injection E as <-. split; [unfold ordered; repeat constructor|reflexivity].
Qed.
