(** C75: the ambit statement of a term, and the statements of a key. *)
Set Warnings "-notation-overridden,-ambiguous-paths".
From Coq Require Import ZArith List Bool Ascii String Lia Permutation.
From mathcomp Require Import all_ssreflect ssralg.
From Verif Require Import Res RegistryModel RegistryProofs CoreModel RationalModel OrderProofs SortProofs OperatorModel DecModel TextModel TextSpec TextProofs ScalarSem AlgebraModel AlgebraSpec EquationModel EquationSpec EquationProofs EquationProofs2 EinsumSpec EinsumProofs EinsumProofs2
  EqTextModel EqTextSpec EqTextProofs AmbitSpec AmbitProofs
  CanonSpec CanonSemSpec WickSearchModel WickSearchSpec WickEvalModel ContractShapeSpec ContractShapeProofs3 PipeSpec PipeProofs PipeProofs2 PipeProofs3 AmbitPipeSpec.
Set Implicit Arguments.
Unset Strict Implicit.
Unset Printing Implicit Defensive.
Import GRing.Theory.
Local Open Scope ring_scope.
Delimit Scope Z_scope with Z.

Lemma alpha_plain_char c : is_alpha c = true -> plain_char c = true.
Proof. case: c => b0 b1 b2 b3 b4 b5 b6 b7. by case: b0; case: b1; case: b2; case: b3; case: b4; case: b5; case: b6; case: b7. Qed.
Lemma digit_plain_char c : is_digit c = true -> plain_char c = true.
Proof. case: c => b0 b1 b2 b3 b4 b5 b6 b7. by case: b0; case: b1; case: b2; case: b3; case: b4; case: b5; case: b6; case: b7. Qed.

(** ** Values of the indices of the left-hand side *)
Section Values.
  Variables (K : comRingType) (dim : Z -> nat).
  Lemma esum_agree (S l : seq index) phi psi (F : (index -> nat) -> K) : (forall a b, (forall i, In i S -> a i = b i) -> F a = F b) ->
    (forall i, In i S -> In i l \/ phi i = psi i) -> EinsumSpec.sum_over index_eqb (fun i => dim (isp i)) l phi F = EinsumSpec.sum_over index_eqb (fun i => dim (isp i)) l psi F.
  Proof.
    move=> E. elim: l phi psi => [|x l IH] phi psi H; first by cbn [EinsumSpec.sum_over]; apply: E => i Hi; case: (H i Hi).
    cbn [EinsumSpec.sum_over]. apply: eq_bigr => p _. apply: IH => i Hi. case Q: (index_eqb i x).
    - by right.
    - case: (H i Hi) => [[X|X]|X]; [|by left|by right]. subst i. by rewrite (proj2 (index_eqb_eq x x) (erefl x)) in Q.
  Qed.
  Lemma rhs_agree st (tens : text -> text -> array K) lhs rhs phi psi : (forall i, In i (slots_of lhs) -> phi i = psi i) -> rhs_value st dim tens lhs rhs phi = rhs_value st dim tens lhs rhs psi.
  Proof.
    move=> H. rewrite /rhs_value. apply: (esum_agree (S := flat_map slots_of rhs)) => [a b E|i Hi].
    - have: forall d, In d rhs -> elem (array_of st tens d) (List.map a (slots_of d)) = elem (array_of st tens d) (List.map b (slots_of d)).
        move=> d Hd. congr elem. apply: map_ext_in => i Hi. apply: E. apply/in_flat_map. by exists d.
      elim: (rhs) => [|d l IH] X; first by rewrite !big_nil. rewrite !big_cons X; last by left. rewrite IH // => d' Hd'. apply: X. by right.
    - case X: (existsb (index_eqb i) (slots_of lhs)).
      + right. move/existsb_exists: X => [j [Hj /index_eqb_eq Q]]. subst j. exact: H.
      + left. apply: (proj2 (nodup_In _ _ _)). apply/filter_In. by rewrite X.
  Qed.
End Values.
Lemma values_assign (st : osi) (l : seq index) ps phi i : reachable st -> regd st l -> NoDup l -> size ps = size l -> In i l ->
  index_values (List.map (index_name st) l) ps (index_name st i) = assign l ps phi i.
Proof.
  move=> R. elim: l ps phi => [|j l IH] [|p ps] phi Rg N // [Sz] Hi. inversion N as [|? ? N1 N2]; subst. cbn [List.map index_values assign]. case: (SortProofs.index_dec i j) => [->|Ne].
  - rewrite text_eqb_refl assign_out // /upd. by rewrite (proj2 (index_eqb_eq j j) (erefl j)).
  - case E: (text_eqb _ _).
    + move/text_eqb_iff: E => E. case: Ne. apply: (@EqTextProofs.name_inj st i j R _ _ E); apply: Rg => //; by left.
    + apply: IH => //; last by case: Hi => // Q; case: Ne. move=> k Hk. apply: Rg. by right.
Qed.

Section One.
  Variables (K : fieldType) (T : text -> seq (Z * nat) -> seq (Z * nat) -> bool -> K).
  Variables (dim : Z -> nat) (dimc : ascii -> nat) (st : osi) (tens : text -> text -> array K) (phi0 : index -> nat) (label : text) (fmt : rational -> text).
  Hypothesis R : reachable st.
  Hypothesis alpha : forall sp l, space_label st sp = Ok l -> is_alpha l = true.
  Hypothesis Dm : dimensions dim dimc st.
  Hypothesis Pl : plain_name label.
  Definition ambit_ready (x : term * rational) : Prop :=
    exists ops maxc minr maxr, contraction_of st maxc ops minr maxr x.1 /\ ops <> [::] /\ (forall o, In o ops -> plain_name (op_label o)) /\ plain_name (fmt x.2) /\
      (forall d, In d (tm_tens x.1) -> holds dim st tens T (t_label d) (List.map isp (t_upper d)) (List.map isp (t_lower d))).
  Lemma labels_plain : plain_labels_of st.
  Proof. move=> sp c E. apply: alpha_plain_char. exact: alpha E. Qed.
  Lemma density_name maxc ops minr maxr t d : contraction_of st maxc ops minr maxr t -> (forall o, In o ops -> plain_name (op_label o)) -> In d (tm_tens t) -> plain_name (t_label d).
  Proof.
    move=> H P Hd. have [ds [D Pm]] := co_tensors _ _ _ _ _ _ H. have Q : In (tensor_profile st d) (List.map (oper_profile st) ops ++ ds)%list by apply: Permutation_in Pm _; apply: in_map.
    case: (in_app_or _ _ _ Q) => {}Q.
    - move/in_map_iff: Q => [q [[<- _ _] Hq]]. exact: P.
    - move: (proj1 (List.Forall_forall _ _) D _ Q). move E: (tensor_profile st d) => pr X. rewrite /tensor_profile in E. case: X E => [s _ _|s _ _|s k _ _ K1 _] [-> _ _].
      + by split=> //; repeat constructor.
      + by split=> //; repeat constructor.
      + split; first by []. do 6 (constructor; first by []).
        have Kz : (0 <= Z.of_nat k)%Z by lia. have [_ [Dg _]] := dec_pos (Z.of_nat k) Kz. apply: List.Forall_impl Dg => c. exact: digit_plain_char.
  Qed.
  Lemma block_key d : registered st d -> block_of (ref_of st d) = space_key st (slots_of d).
  Proof.
    move=> Rg. rewrite /block_of /ref_of. cbn [snd]. rewrite -[@map _ _ (hd zero)]/(List.map (hd zero)) /space_key List.map_map. apply: map_ext_in => i Hi.
    have [c E] := reg_label_defined st (isp i) (Rg i Hi). by rewrite /index_name E.
  Qed.
  Lemma key_dims l : regd st l -> [seq dimc c | c <- space_key st l] = [seq dim s | s <- List.map isp l].
  Proof.
    move=> Rg. rewrite /space_key -[@map _ _ dimc]/(List.map dimc) -[@map _ _ dim]/(List.map dim) !List.map_map. apply: map_ext_in => i Hi. have [c E] := reg_label_defined st (isp i) (Rg i Hi). rewrite E. exact: Dm E.
  Qed.
  Lemma ambit_statement_ok t c : ambit_ready (t, c) -> exists txt rs, let l := ref_of st (lhs_of label t) in
    compile_ambit fmt st (equation_of label (t, c)) = Ok txt /\ reads_ambit txt l (fmt c) rs /\ (l.1 ++ block_of l)%list = (label ++ space_key st (slots_of (lhs_of label t)))%list /\
    NoDup l.2 /\ incl l.2 (flat_map snd rs) /\ (forall r, In r rs -> shape (tens r.1 (block_of r)) = [seq dimc c | c <- block_of r]) /\
    [seq dimc c | c <- block_of l] = [seq dim s | s <- List.map isp (t_upper (lhs_of label t)) ++ List.map isp (t_lower (lhs_of label t))] /\
    forall ps, size ps = size (slots_of (lhs_of label t)) -> ambit_value dimc tens l rs (index_values l.2 ps) = rhs_value st dim tens (lhs_of label t) (tm_tens t) (assign (slots_of (lhs_of label t)) ps phi0).
  Proof.
    move=> [ops [maxc [minr [maxr [H [Ne [Po [Pf Ho]]]]]]]]. cbn [fst snd] in *.
    have /= := contraction_lhs st maxc ops minr maxr t label c H. rewrite -/(lhs_of label t). move=> [lhs [[E] [Nd [Ic [Sp [Le Nt]]]]]]. subst lhs.
    have Rg : forall d, In d (lhs_of label t :: tm_tens t) -> registered st d by move=> d Hd i Hi; apply: (Sp d Hd i Hi).
    have [|txt [Ct Rd]] := @ambit_reads fmt st (equation_of label (t, c)) (lhs_of label t) labels_plain (erefl _) (erefl _) (erefl _) _ Pf (Nt Ne).
      move=> d Hd. split; first exact: Rg. case: Hd => [<-|Hd] //. exact: density_name H Po Hd.
    exists txt, (List.map (ref_of st) (tm_tens t)). cbv zeta. set l := ref_of st (lhs_of label t). have Rl : registered st (lhs_of label t) by apply: Rg; left.
    have Inj : forall a b, In a (slots_of (lhs_of label t)) -> In b (slots_of (lhs_of label t)) -> index_name st a = index_name st b -> a = b.
      move=> a b Ha Hb E. apply: (@EqTextProofs.name_inj st a b R _ _ E); exact: Rl.
    split=> //. split=> //. split; first by rewrite /l block_key. split; last split; last split; last split.
    - rewrite /l /ref_of. cbn [snd]. elim: (slots_of _) Nd Inj => [|i s IH] Nd Inj; first by constructor. inversion Nd as [|? ? N1 N2]; subst. cbn [List.map]. constructor.
      + move=> /in_map_iff [j [E Hj]]. apply: N1. have -> // : i = j. symmetry. apply: Inj => //; [by right|by left].
      + apply: IH => // a b Ha Hb. by apply: Inj; right.
    - rewrite /l /ref_of. cbn [snd]. rewrite names_concat => n /in_map_iff [i [<- Hi]]. apply: in_map. exact: Ic.
    - move=> r /in_map_iff [d [<- Hd]]. have Rd' : registered st d by apply: Rg; right. rewrite block_key // key_dims //. cbn [fst ref_of].
      have [ku [kl [Eu [El [Sh _]]]]] := Ho d Hd. rewrite /slots_of key_cat (labels_key Eu) (labels_key El) Sh. by rewrite map_app.
    - rewrite /l block_key // key_dims //. by rewrite /slots_of map_app.
    - move=> ps Sz. rewrite /l (ambit_ok tens R Dm Rg). apply: rhs_agree => i Hi. exact: values_assign.
  Qed.
End One.

(** ** Running the statements of a key *)
Section Run.
  Variables (K : fieldType) (T : text -> seq (Z * nat) -> seq (Z * nat) -> bool -> K).
  Variables (dim : Z -> nat) (dimc : ascii -> nat) (st : osi) (tens : text -> text -> array K) (number : text -> K) (phi0 : index -> nat) (label : text) (fmt : rational -> text).
  Hypothesis R : reachable st.
  Hypothesis alpha : forall sp l, space_label st sp = Ok l -> is_alpha l = true.
  Hypothesis Dm : dimensions dim dimc st.
  Hypothesis Pl : plain_name label.
  Notation ready := (ambit_ready T dim st tens fmt).
  Notation lhs t := (lhs_of label t).
  Notation spaces t := (List.map isp (t_upper (lhs t)) ++ List.map isp (t_lower (lhs t))).
  Notation value t ps := (rhs_value st dim tens (lhs t) (tm_tens t) (assign (slots_of (lhs t)) ps phi0)).
  Variables (N : text) (D : seq nat).
  Definition ambit_fits (x : term * rational) : Prop := ready x /\ (label ++ space_key st (slots_of (lhs x.1)))%list = N /\ [seq dim s | s <- spaces x.1] = D.
  Lemma ambit_fits_size x ps : ambit_fits x -> ps \in positions D -> size ps = size (slots_of (lhs x.1)).
  Proof. move=> [_ [_ <-]] /positions_size ->. by rewrite /slots_of size_map !size_cat !size_map. Qed.
  Lemma ambit_run_value (xs : expression) p v v' : (forall x, In x xs -> ambit_fits x) -> List.Forall2 (fun q s => compile_ambit fmt st q = Ok s) (List.map (equation_of label) xs) p ->
    ambit_executes dimc tens number p v v' -> shape (v' N) = shape (v N) /\ forall ps, ps \in positions D -> elem (v' N) ps = elem (v N) ps + \sum_(x <- xs) number (fmt x.2) * value x.1 ps.
  Proof.
    move=> Hx. elim: xs p v Hx => [|[t c] xs IH] p v Hx F.
    - inversion F; subst => X. inversion X; subst. split=> // ps _. by rewrite big_nil addr0.
    - cbn [List.map] in F. inversion F as [|? txt ? p' Ct F']; subst. move=> X. inversion X as [|? l f rs ? ? v1 ? Rd Ad X']; subst.
      have Fx := Hx (t, c) (or_introl (erefl _)). have [Rx [En Ed]] := Fx. cbn [fst] in En, Ed.
      have [txt' [rs' [Ct' [Rd' [Nm [_ [_ [_ [_ Ev]]]]]]]]] := ambit_statement_ok phi0 R alpha Dm Pl Rx. rewrite Ct in Ct'. case: Ct' => Q. subst txt'. have [Q1 [Q2 Q3]] := ambit_unique _ _ _ _ _ _ _ Rd Rd'. subst l f rs'.
      have [S2 E2] := IH p' v1 (fun x Hx' => Hx x (or_intror Hx')) F' X'. have [_ [_ [_ [_ Av]]]] := Ad. have [S1 E1] := Av N. split; first by rewrite S2.
      move=> ps Hps. rewrite E2 // E1 Nm En text_eqb_refl big_cons addrA. congr (_ + _ * _ + _). apply: Ev. exact: (ambit_fits_size Fx).
  Qed.
  Lemma ambit_run_exists (xs : expression) p v : (forall x, In x xs -> ambit_fits x) -> List.Forall2 (fun q s => compile_ambit fmt st q = Ok s) (List.map (equation_of label) xs) p ->
    shape (v N) = D -> exists v', ambit_executes dimc tens number p v v'.
  Proof.
    move=> Hx. elim: xs p v Hx => [|[t c] xs IH] p v Hx F Sv.
    - inversion F; subst. exists v. exact: ax_done.
    - cbn [List.map] in F. inversion F as [|? txt ? p' Ct F']; subst.
      have Fx := Hx (t, c) (or_introl (erefl _)). have [Rx [En Ed]] := Fx. cbn [fst] in En, Ed.
      have [txt' [rs [Ct' [Rd [Nm [Nd [Ic [Sr [Sl Ev]]]]]]]]] := ambit_statement_ok phi0 R alpha Dm Pl Rx. rewrite Ct in Ct'. case: Ct' => Q. subst txt'.
      set l := ref_of st (lhs_of label t) in Rd Nm Nd Ic Sr Sl Ev.
      pose v1 : memory K := fun n => mkA (shape (v n)) (fun ps => if text_eqb n (l.1 ++ block_of l)%list then elem (v n) ps + number (fmt c) * ambit_value dimc tens l rs (index_values l.2 ps) else elem (v n) ps).
      have [|v' X] := IH p' v1 (fun x Hx' => Hx x (or_intror Hx')) F'; first by rewrite /v1 /= Sv.
      exists v'. apply: (ax_next (v1 := v1) Rd) X. split=> //. split=> //. split=> //. split; last by move=> n; split.
      by rewrite Nm En Sl Ed Sv.
  Qed.
  Lemma ambit_compile_all (xs : expression) : (forall x, In x xs -> ready x) -> exists p, List.Forall2 (fun q s => compile_ambit fmt st q = Ok s) (List.map (equation_of label) xs) p.
  Proof.
    elim: xs => [|[t c] xs IH] Hx; first by exists [::]; constructor. have [p F] := IH (fun x Hx' => Hx x (or_intror Hx')).
    have [txt [s [Ct _]]] := ambit_statement_ok phi0 R alpha Dm Pl (Hx (t, c) (or_introl (erefl _))). exists (txt :: p). by constructor.
  Qed.
End Run.
