(** C73: the value of a term as a sum over the elements of an array. *)
Set Warnings "-notation-overridden,-ambiguous-paths".
From Coq Require Import ZArith List Bool Ascii Lia.
From mathcomp Require Import all_ssreflect ssralg.
From Verif Require Import Res RegistryModel CoreModel RationalModel OrderProofs SortProofs TextModel ScalarSem EquationModel EquationSpec EquationProofs2 EinsumSpec EinsumProofs2 CanonSpec CanonProofs CanonSemSpec CanonSemProofs WickProductProofs4 PipeSpec PipeProofs.
Set Implicit Arguments.
Unset Strict Implicit.
Unset Printing Implicit Defensive.
Import GRing.Theory.
Local Open Scope ring_scope.

Section Sums.
  Variables (K : fieldType) (V : lmodType K) (dim : Z -> nat).
  Let orbs (s : Z) : seq nat := iota 0 (dim s).
  Notation esum := (EinsumSpec.sum_over index_eqb (fun i => dim (isp i))).
  Notation csum := (CanonSemSpec.sum_over orbs).
  (** The two sums. *)
  Lemma esum_csum l phi (G : (index -> nat) -> K) (H : (index -> nat) -> V) w : (forall psi, (forall j, ~ In j l -> psi j = phi j) -> H psi = w) ->
    esum l phi G *: w = csum l phi (fun psi => G psi *: H psi).
  Proof.
    elim: l phi => [|i l IH] phi Hw; first by rewrite /= Hw.
    cbn [EinsumSpec.sum_over CanonSemSpec.sum_over]. rewrite scaler_suml /orbs /index_iota subn0. apply: eq_bigr => p _. rewrite -/(orbs _). rewrite -[X in X *: w]/(esum l (upd phi i p) G).
    apply: IH => psi E. apply: Hw => j Hj. rewrite E; last by move=> X; apply: Hj; right. rewrite /upd. case Q: (index_eqb j i) => //. move/index_eqb_eq: Q => Q. by case: Hj; left.
  Qed.
  Lemma esum_range (S l : seq index) phi (F G : (index -> nat) -> K) : (forall psi, (forall i, In i S -> (psi i < dim (isp i))%N) -> F psi = G psi) ->
    (forall i, In i S -> In i l \/ (phi i < dim (isp i))%N) -> esum l phi F = esum l phi G.
  Proof.
    move=> E. elim: l phi => [|x l IH] phi R; first by apply: E => i Hi; case: (R i Hi).
    cbn [EinsumSpec.sum_over]. rewrite /index_iota subn0. apply: eq_big_seq => p. rewrite mem_iota add0n => /= Hp. apply: IH => i Hi. case Q: (index_eqb i x).
    - move/index_eqb_eq: Q => Q. subst i. by right.
    - case: (R i Hi) => [[X|X]|X]; [|by left|by right]. subst i. by rewrite (proj2 (index_eqb_eq x x) (erefl x)) in Q.
  Qed.
  Lemma csum_cat l l' phi (F : (index -> nat) -> V) : csum (l ++ l')%list phi F = csum l phi (fun psi => csum l' psi F).
  Proof. elim: l phi => [|i l IH] phi //=. apply: eq_bigr => p _. exact: IH. Qed.
  (** Assigning values to a list of indices. *)
  Fixpoint assign (l : seq index) (ps : seq nat) (phi : index -> nat) : index -> nat :=
    match l, ps with i :: l', p :: ps' => assign l' ps' (upd phi i p) | _, _ => phi end.
  Lemma csum_positions l phi (F : (index -> nat) -> V) : csum l phi F = \sum_(ps <- positions [seq dim (isp i) | i <- l]) F (assign l ps phi).
  Proof.
    elim: l phi => [|i l IH] phi; first by rewrite /= big_seq1.
    cbn [CanonSemSpec.sum_over map positions]. rewrite big_allpairs_dep /orbs. apply: eq_bigr => p _. by rewrite IH.
  Qed.
  Lemma positions_size dims ps : ps \in positions dims -> size ps = size dims.
  Proof. elim: dims ps => [|n ds IH] ps /=; first by rewrite mem_seq1 => /eqP ->. by move/allpairsPdep => [p [qs [_ H ->]]] /=; rewrite (IH qs). Qed.
  Lemma positions_cat d d' ps : ps \in positions (d ++ d') -> take (size d) ps \in positions d /\ drop (size d) ps \in positions d'.
  Proof.
    elim: d ps => [|n d IH] ps; first by rewrite /= take0 drop0 mem_seq1.
    cbn [cat positions] => /allpairsPdep [p [qs [Hp Hq ->]]]. have [A B] := IH qs Hq. split=> //=. apply/allpairsPdep. by exists p, (take (size d) qs).
  Qed.
  Lemma positions_map l (phi : index -> nat) : (forall i, In i l -> (phi i < dim (isp i))%N) -> [seq phi i | i <- l] \in positions [seq dim (isp i) | i <- l].
  Proof.
    elim: l => [|i l IH] H //=. apply/allpairsPdep. exists (phi i), [seq phi i | i <- l]. split=> //; first by rewrite mem_iota add0n /=; apply: H; left.
    apply: IH => j Hj. apply: H. by right.
  Qed.
  Lemma assign_out l ps phi j : ~ In j l -> assign l ps phi j = phi j.
  Proof.
    elim: l ps phi => [|i l IH] [|p ps] phi N //=. rewrite IH; last by move=> H; apply: N; right. rewrite /upd. case Q: (index_eqb j i) => //. move/index_eqb_eq: Q => Q. by case: N; left.
  Qed.
  Lemma assign_map l ps phi : NoDup l -> size ps = size l -> [seq assign l ps phi i | i <- l] = ps.
  Proof.
    elim: l ps phi => [|i l IH] [|p ps] phi // N [E]. inversion N as [|? ? N1 N2]; subst. cbn [map assign]. rewrite IH //. congr (_ :: _). rewrite assign_out //. by rewrite /upd (proj2 (index_eqb_eq i i) (erefl i)).
  Qed.
  Lemma assign_range l ps phi i : NoDup l -> ps \in positions [seq dim (isp i) | i <- l] -> In i l -> (assign l ps phi i < dim (isp i))%N.
  Proof.
    elim: l ps phi => [|j l IH] ps phi N //. cbn [map positions] => /allpairsPdep [p [qs [Hp Hq ->]]]. inversion N as [|? ? N1 N2]; subst. cbn [assign]. case: (index_dec i j) => [->|Ne] Hi.
    - rewrite assign_out // /upd (proj2 (index_eqb_eq j j) (erefl j)). by move: Hp; rewrite mem_iota add0n.
    - apply: IH => //. case: Hi => // Q. by case: Ne.
  Qed.
End Sums.

Section Term.
  Variables (K : fieldType) (V : lmodType K) (W : seq (bool * (Z * nat)) -> V) (T : text -> seq (Z * nat) -> seq (Z * nat) -> bool -> K).
  Variables (dim : Z -> nat) (st : osi) (tens : text -> text -> array K) (phi0 : index -> nat) (label : text) (t : term).
  Let orbs (s : Z) : seq nat := iota 0 (dim s).
  Let us := rev (annihilators (tm_ops t)).
  Let ls := creators (tm_ops t).
  Let lhs := mkT label (creators (tm_ops t)) (List.rev (annihilators (tm_ops t))) Antisymmetric false.
  Hypothesis Nd : NoDup (slots_of lhs).
  Hypothesis Inc : incl (slots_of lhs) (flat_map slots_of (tm_tens t)).
  Hypothesis Cf : cre_first (tm_ops t).
  Hypothesis Hold : forall d, In d (tm_tens t) -> holds dim st tens T (t_label d) (List.map isp (t_upper d)) (List.map isp (t_lower d)) /\ t_cc d = false.

  Lemma labels_key l k : List.map (space_label st) (List.map isp l) = List.map Ok k -> space_key st l = k.
  Proof. elim: l k => [|i l IH] [|c k] //=. case=> E1 E2. by rewrite /space_key /= E1 -/(space_key st l) (IH k E2). Qed.
  Lemma key_cat (a b : list index) : space_key st (a ++ b)%list = (space_key st a ++ space_key st b)%list.
  Proof. by rewrite /space_key map_app. Qed.
  Lemma shaped d : In d (tm_tens t) -> well_shaped st dim tens d.
  Proof.
    move=> Hd. have [[ku [kl [Eu [El [Sh _]]]]] _] := Hold Hd. rewrite /well_shaped /array_of /slots_of key_cat (labels_key Eu) (labels_key El) Sh map_cat !map_app. congr cat; by rewrite -List.map_map.
  Qed.
  Lemma zip_orb (phi : index -> nat) l : zip [seq isp i | i <- l] [seq phi i | i <- l] = List.map (orb_of phi) l.
  Proof. by elim: l => [|i l IH] //=; rewrite IH. Qed.
  Lemma array_elem d (phi : index -> nat) : In d (tm_tens t) -> (forall i, In i (slots_of d) -> (phi i < dim (isp i))%N) ->
    elem (array_of st tens d) (List.map phi (slots_of d)) = elem_at T phi d.
  Proof.
    move=> Hd R. have [[ku [kl [Eu [El [_ Ee]]]]] cc] := Hold Hd. rewrite /array_of /elem_at /slots_of key_cat (labels_key Eu) (labels_key El) map_app cc.
    have := Ee (List.map phi (t_upper d)) (List.map phi (t_lower d)). move=> ->.
    - by rewrite -!zip_orb.
    - rewrite -map_comp. apply: positions_map => i Hi. apply: R. apply/in_app_iff. by left.
    - rewrite -map_comp. apply: positions_map => i Hi. apply: R. apply/in_app_iff. by right.
  Qed.
  Let others := nodup EquationSpec.index_dec (List.filter (fun i => negb (existsb (index_eqb i) (slots_of lhs))) (flat_map slots_of (tm_tens t))).
  Lemma in_others i : In i others <-> In i (flat_map slots_of (tm_tens t)) /\ ~ In i (slots_of lhs).
  Proof.
    rewrite /others nodup_In filter_In. split=> -[H N]; split=> //.
    - move=> X. move: N. have -> // : existsb (index_eqb i) (slots_of lhs) = true. apply/existsb_exists. exists i. split=> //. by apply/index_eqb_eq.
    - apply/negP => X. move/existsb_exists: X => [j [Hj /index_eqb_eq Q]]. by subst j.
  Qed.
  Lemma in_lhs i : In i (slots_of lhs) <-> in_ops t i.
  Proof.
    rewrite /lhs /slots_of /= in_app_iff -in_rev /creators /annihilators !in_map_iff /in_ops. split.
    - by case=> [[o [<- /filter_In [H _]]]|[o [<- /filter_In [H _]]]]; exists o.
    - move=> [o [H <-]]. case E: (s_cre o); [right|left]; exists o; split=> //; apply/filter_In; by rewrite E.
  Qed.
  Lemma in_tens i : In i (flat_map slots_of (tm_tens t)) <-> in_tensors t i.
  Proof. rewrite in_flat_map /in_tensors /slots_of. split=> -[d [Hd Hi]]; exists d; split=> //; move: Hi; rewrite !in_app_iff; tauto. Qed.
  Lemma listed : lists_indices (slots_of lhs ++ others)%list t.
  Proof.
    split.
    - apply: NoDup_app_intro => //; first exact: NoDup_nodup. by move=> i H1 /in_others [_].
    - move=> i. rewrite in_app_iff in_others /in_term -in_tens -in_lhs. split; first by case=> [|[]]; tauto.
      case: (in_dec SortProofs.index_dec i (slots_of lhs)); tauto.
  Qed.
  Lemma word_axes ps : size ps = size (slots_of lhs) -> word (assign (slots_of lhs) ps phi0) (tm_ops t) = axes_word (List.map isp (t_upper lhs)) (List.map isp (t_lower lhs)) ps.
  Proof.
    move=> Sz. set phi := assign _ _ _. have E : [seq phi i | i <- slots_of lhs] = ps by apply: assign_map.
    have Et : take (size (List.map isp (t_upper lhs))) ps = [seq phi i | i <- t_upper lhs].
      by rewrite -E /slots_of map_cat size_map take_size_cat // size_map.
    have Ed : drop (size (List.map isp (t_upper lhs))) ps = [seq phi i | i <- t_lower lhs].
      by rewrite -E /slots_of map_cat size_map drop_size_cat // size_map.
    rewrite /axes_word Et Ed !zip_orb /lhs /= /word.
    have -> : List.map (fun o => (s_cre o, orb_of phi (s_idx o))) (tm_ops t) = List.map (fun x : bool * index => (x.1, orb_of phi x.2)) (List.map (fun o => (s_cre o, s_idx o)) (tm_ops t)) by rewrite List.map_map.
    rewrite (ops_word _ Cf) map_app !List.map_map. congr cat; first by rewrite -map_comp.
    rewrite -map_comp -map_rev rev_seq List.rev_involutive. rewrite /annihilators -map_comp. by [].
  Qed.
  Lemma term_sum : term_value W T orbs phi0 t =
    \sum_(ps <- positions [seq dim s | s <- List.map isp (t_upper lhs) ++ List.map isp (t_lower lhs)])
      rhs_value st dim tens lhs (tm_tens t) (assign (slots_of lhs) ps phi0) *: W (axes_word (List.map isp (t_upper lhs)) (List.map isp (t_lower lhs)) ps).
  Proof.
    rewrite (term_value_list W T orbs phi0 listed) csum_cat csum_positions.
    have -> : [seq dim s | s <- List.map isp (t_upper lhs) ++ List.map isp (t_lower lhs)] = [seq dim (isp i) | i <- slots_of lhs] by rewrite /slots_of !map_cat -!map_comp.
    apply: eq_big_seq => ps Hps. have Sz : size ps = size (slots_of lhs) by rewrite (positions_size Hps) size_map.
    symmetry. rewrite /rhs_value -/others. rewrite (esum_range (S := flat_map slots_of (tm_tens t)) (G := fun psi => \prod_(d <- tm_tens t) elem_at T psi d)).
    - apply: (@esum_csum K V dim others _ _ (fun psi => W (word psi (tm_ops t)))).
      move=> psi E. congr W. rewrite -word_axes // /word. apply: map_ext_in => o Ho. congr (_, _). rewrite /orb_of E //. move=> /in_others [_]. apply. apply/in_lhs. by exists o.
    - move=> psi R. have: forall d, In d (tm_tens t) -> elem (array_of st tens d) (List.map psi (slots_of d)) = elem_at T psi d.
        move=> d Hd. apply: array_elem => // i Hi. apply: R. apply/in_flat_map. by exists d.
      elim: (tm_tens t) => [|d l IH] H; first by rewrite !big_nil. rewrite !big_cons H; last by left. rewrite IH // => d' Hd'. apply: H. by right.
    - move=> i Hi. case: (in_dec SortProofs.index_dec i (slots_of lhs)) => X; first by right; apply: assign_range.
      left. by apply/in_others.
  Qed.
End Term.
