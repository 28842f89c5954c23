(** C75: the ambit statements of an expression (as PipeProofs5.v). *)
Set Warnings "-notation-overridden,-ambiguous-paths".
From Coq Require Import ZArith List Bool Ascii String Lia Permutation.
From mathcomp Require Import all_ssreflect ssralg.
From Verif Require Import Res RegistryModel RegistryProofs CoreModel RationalModel OrderProofs SortProofs OperatorModel DecModel TextModel TextSpec TextProofs ScalarSem AlgebraModel AlgebraSpec EquationModel EquationSpec EquationProofs EquationProofs2 EinsumSpec EinsumProofs EinsumProofs2
  CanonSpec CanonSemSpec WickSearchModel WickSearchSpec WickEvalModel WickLinearProofs ContractShapeSpec ContractShapeProofs2 ContractShapeProofs3 PipeSpec PipeProofs PipeProofs2 PipeProofs3 PipeProofs4 PipeProofs5 EqTextModel EqTextSpec EqTextProofs AmbitSpec AmbitPipeSpec AmbitPipeProofs.
Set Implicit Arguments.
Unset Strict Implicit.
Unset Printing Implicit Defensive.
Import GRing.Theory.
Local Open Scope ring_scope.
Delimit Scope Z_scope with Z.

Section Program.
  Variables (K : fieldType) (V : lmodType K) (W : seq (bool * (Z * nat)) -> V) (T : text -> seq (Z * nat) -> seq (Z * nat) -> bool -> K).
  Variables (dim : Z -> nat) (dimc : ascii -> nat) (st : osi) (tens : text -> text -> array K) (number : text -> K) (phi0 : index -> nat) (label : text) (fmt : rational -> text).
  Hypothesis R : reachable st.
  Hypothesis alpha : forall sp l, space_label st sp = Ok l -> is_alpha l = true.
  Hypothesis Dm : dimensions dim dimc st.
  Hypothesis Pl : plain_name label.
  Variable r : expression.
  Hypothesis Rr : forall x, In x r -> ambit_ready T dim st tens fmt x.
  Notation lhs t := (lhs_of label t).
  Notation us k := (key_upper st k).
  Notation ls k := (key_lower st k).

  Lemma ambit_key_facts x : In x r -> us (key_of st x) = List.map isp (t_upper (lhs x.1)) /\ ls (key_of st x) = List.map isp (t_lower (lhs x.1)) /\
    key_name label (key_of st x) = (label ++ space_key st (slots_of (lhs x.1)))%list.
  Proof.
    case: x => t c /Rr [ops [maxc [minr [maxr [H _]]]]]. have [O [C _]] := co_order _ _ _ _ _ _ H. cbn [fst] in *.
    have Sp : forall o, In o (tm_ops t) -> (0 <= isp (s_idx o) < num_spaces st)%Z by move=> o Ho; apply: (co_spaces _ _ _ _ _ _ H); left; exists o.
    split; [|split]; [exact: key_upper_ok|exact: key_lower_ok|exact: key_name_ok].
  Qed.
  Lemma ambit_keys_fit k xs : (forall x, In x xs -> In x r /\ key_of st x = k) -> forall x, In x xs -> ambit_fits T dim st tens label fmt (key_name label k) [seq dim s | s <- us k ++ ls k] x.
  Proof. move=> H x Hx. have [Hr <-] := H x Hx. have [-> [-> ->]] := ambit_key_facts Hr. split=> //. exact: Rr. Qed.

  Lemma ambit_reg_ops : registered_ops st r.
  Proof. move=> [t c] o /Rr [ops [maxc [minr [maxr [H _]]]]] Ho. apply: (co_spaces _ _ _ _ _ _ H). by left; exists o. Qed.
  Lemma ambit_in_key k l : l = List.map (equation_of label) (List.filter (fun x => text_eqb (key_of st x) k) r) -> exists xs, l = List.map (equation_of label) xs /\ (forall x, In x xs -> In x r /\ key_of st x = k).
  Proof. move=> ->. eexists; split; first by []. by move=> x /filter_In [Hx /text_eqb_ok]. Qed.
  Lemma ambit_generates_exists : exists prog, generates_ambit fmt st label r prog.
  Proof.
    have [m [Em [_ [Mk _]]]] := manybody_ok st label r ambit_reg_ops. rewrite /generates_ambit Em. have: forall k l, In (k, l) m -> exists p, List.Forall2 (fun q s => compile_ambit fmt st q = Ok s) l p.
      move=> k l /Mk [_ /ambit_in_key [xs [-> Hx]]]. apply: (@ambit_compile_all K T dim dimc st tens phi0 label fmt) => // x /Hx [Hr _]. exact: Rr.
    move=> H. suff [prog F] : exists prog, List.Forall2 (fun kl kp => kp.1 = kl.1 /\ List.Forall2 (fun q s => compile_ambit fmt st q = Ok s) kl.2 kp.2) m prog by exists prog, m.
    elim: m H {Em Mk} => [|[k l] m IH] H; first by exists [::]; constructor. have [p F] := H k l (or_introl (erefl _)). have [prog F'] := IH (fun k l Hk => H k l (or_intror Hk)).
    exists ((k, p) :: prog). by constructor.
  Qed.
  Lemma ambit_generated prog : generates_ambit fmt st label r prog -> exists m, to_manybody st label r = Ok m /\ List.Forall2 (fun kl kp => kp.1 = kl.1 /\ exists xs, kl.2 = List.map (equation_of label) xs /\ (forall x, In x xs -> In x r /\ key_of st x = kl.1) /\
    List.Forall2 (fun q s => compile_ambit fmt st q = Ok s) (List.map (equation_of label) xs) kp.2) m prog /\ Permutation (List.concat (List.map snd m)) (List.map (equation_of label) r).
  Proof.
    move=> [m [Em F]]. exists m. have [m' [Em' [_ [Mk [_ Pm]]]]] := manybody_ok st label r ambit_reg_ops. rewrite Em in Em'. case: Em' => Q. subst m'. split=> //. split=> //.
    have: forall k l, In (k, l) m -> exists xs, l = List.map (equation_of label) xs /\ (forall x, In x xs -> In x r /\ key_of st x = k) by move=> k l /Mk [_ /ambit_in_key].
    elim: F => [|[k l] kp m0 p0 [E F] _ IH] H; constructor.
    - split=> //. have [xs [El Hx]] := H k l (or_introl (erefl _)). exists xs. cbn [fst snd] in *. split=> //. split=> //. by rewrite -El.
    - apply: IH => k' l' Hk. apply: H. by right.
  Qed.
  Lemma ambit_program_runs prog k p v : generates_ambit fmt st label r prog -> In (k, p) prog -> shape (v (key_name label k)) = [seq dim s | s <- us k ++ ls k] -> exists v', ambit_executes dimc tens number p v v'.
  Proof.
    move=> /ambit_generated [m [_ [F _]]] Hp Sv. elim: F Hp => [|kl kp m0 p0 [E [xs [_ [Hx F]]]] _ IH] // [Q|]; last exact: IH. subst kp. cbn [fst snd] in *. subst k.
    apply: (@ambit_run_exists K T dim dimc st tens number phi0 label fmt R alpha Dm Pl _ _ xs p v (ambit_keys_fit Hx) F Sv).
  Qed.
  Lemma ambit_program_total prog : generates_ambit fmt st label r prog -> exists v, ambit_run dim dimc st tens number label prog v.
  Proof.
    move=> Gp. have Hr := @ambit_program_runs prog _ _ _ Gp. have Nd : NoDup (List.map fst prog).
      have [m' [Em' [Sk _]]] := manybody_ok st label r ambit_reg_ops. move: Gp => [m [Em F]]. rewrite Em in Em'. case: Em' => Q. subst m'. have -> : List.map fst prog = List.map fst m by elim: F => [|a b m0 p0 [E _] _ IH] //=; rewrite E IH.
      elim: Sk => [|k ks _ IH Lk]; constructor=> // Hk. have := proj1 (List.Forall_forall _ _) Lk k Hk. by rewrite tltb_irrefl.
    elim: prog Nd Hr {Gp} => [|[k p] prog IH] Nd Hr; first by exists (fun _ _ => mkA [::] (fun _ => 0)).
    cbn [List.map fst] in Nd. inversion Nd as [|? ? N1 N2]; subst. have [v Hv] := IH N2 (fun k p v Hk => Hr k p v (or_intror Hk)).
    pose v0 : memory K := fun _ => mkA [seq dim s | s <- us k ++ ls k] (fun _ => 0). have [v1 X] := Hr k p v0 (or_introl (erefl _)) (erefl _).
    exists (fun k' => if text_eqb k' k then v1 else v k') => k' p' [[<- <-]|Hk].
    - exists v0. by rewrite text_eqb_refl.
    - case E: (text_eqb k' k); last exact: Hv. move/text_eqb_ok: E => E. subst k'. case: N1. exact: (in_map fst) Hk.
  Qed.
  Lemma ambit_program_value prog (v : text -> memory K) : generates_ambit fmt st label r prog -> ambit_run dim dimc st tens number label prog v ->
    \sum_(x <- r) number (fmt x.2) *: term_value W T (fun s => seq.iota 0 (dim s)) phi0 x.1 = \sum_(kp <- prog) array_operator W dim (us kp.1) (ls kp.1) (v kp.1 (key_name label kp.1)).
  Proof.
    move=> /ambit_generated [m [_ [F Pm]]] Hv.
    pose val (q : equation) : V := match tm_tens (eq_lhs q) with
      | d :: _ => number (fmt (eq_factor q)) *: \sum_(ps <- positions [seq dim s | s <- List.map isp (t_upper d) ++ List.map isp (t_lower d)])
          rhs_value st dim tens d (tm_tens (eq_rhs q)) (assign (slots_of d) ps phi0) *: W (axes_word (List.map isp (t_upper d)) (List.map isp (t_lower d)) ps)
      | [::] => 0 end.
    have Tv : forall x, In x r -> number (fmt x.2) *: term_value W T (fun s => seq.iota 0 (dim s)) phi0 x.1 = val (equation_of label x).
      move=> [t c] Hx. rewrite /val. cbn [equation_of eq_lhs tm_tens eq_factor eq_rhs fst snd]. congr (_ *: _).
      have [ops [maxc [minr [maxr [H [Ne [Po [Pf Ho]]]]]]]] := Rr Hx. cbn [fst snd] in *.
      have /= := contraction_lhs st maxc ops minr maxr t label c H. rewrite -/(lhs t). move=> [d [[E] [Nd [Ic _]]]]. subst d.
      have [_ [C _]] := co_order _ _ _ _ _ _ H. apply: term_sum => // d Hd. split; first exact: Ho. by have := proj1 (List.Forall_forall _ _) (co_plain _ _ _ _ _ _ H) d Hd; case.
    rewrite (big_in Tv) -(big_lmap (equation_of label) val) -(big_perm _ Pm) big_concat big_lmap.
    elim: F Hv => [|kl kp m0 p0 [E [xs [El [Hx Fc]]]] _ IH] Hv; first by rewrite !big_nil.
    rewrite !big_cons. congr (_ + _); last by apply: IH => k p Hk; apply: Hv; right.
    move: kl kp E El Hx Fc Hv => [k l] [k' p] /= E El Hx Fc Hv. subst k' l. have [v0 [[Sz Ez] X]] := Hv k p (or_introl (erefl _)).
    have [_ Ev] := @ambit_run_value K T dim dimc st tens number phi0 label fmt R alpha Dm Pl _ _ xs p v0 (v k) (ambit_keys_fit Hx) Fc X.
    rewrite big_lmap /array_operator. transitivity (\sum_(ps <- positions [seq dim s | s <- us k ++ ls k]) (\sum_(x <- xs) number (fmt x.2) * rhs_value st dim tens (lhs x.1) (tm_tens x.1) (assign (slots_of (lhs x.1)) ps phi0)) *: W (axes_word (us k) (ls k) ps)); last first.
      apply: eq_big_seq => ps Hps. by rewrite Ev // Ez ?Sz // add0r.
    under [RHS]eq_bigr do rewrite scaler_suml. rewrite exchange_big /=. apply: big_in => [[t c]] Hxx. have [Hr Ek] := Hx _ Hxx. have [Eu [Ec _]] := ambit_key_facts Hr. rewrite -Ek Eu Ec.
    rewrite /val. cbn [equation_of eq_lhs tm_tens eq_factor eq_rhs fst snd]. rewrite scaler_sumr. apply: eq_bigr => ps _. by rewrite scalerA.
  Qed.
End Program.
