(** C73: reading and running the program of a key. *)
Set Warnings "-notation-overridden,-ambiguous-paths".
From Coq Require Import ZArith List Bool Ascii String Lia Permutation.
From mathcomp Require Import all_ssreflect ssralg.
From Verif Require Import Res RegistryModel RegistryProofs CoreModel RationalModel OrderProofs SortProofs OperatorModel DecModel TextModel TextSpec TextProofs ScalarSem AlgebraModel AlgebraSpec EquationModel EquationSpec EquationProofs EquationProofs2 EinsumSpec EinsumProofs EinsumProofs2
  CanonSpec CanonSemSpec WickSearchModel WickSearchSpec WickEvalModel WickLinearProofs ContractShapeSpec ContractShapeProofs2 ContractShapeProofs3 PipeSpec PipeProofs PipeProofs2 PipeProofs3.
Set Implicit Arguments.
Unset Strict Implicit.
Unset Printing Implicit Defensive.
Import GRing.Theory.
Local Open Scope ring_scope.
Delimit Scope Z_scope with Z.

(** ** Reading a statement *)
Lemma plain_split a b c d x y : plain a -> plain b -> plain_c c = false -> plain_c d = false -> (a ++ c :: x)%list = (b ++ d :: y)%list -> a = b /\ c = d /\ x = y.
Proof.
  move=> Pa Pb Hc Hd. have Q : forall t e, plain t -> In e t -> plain_c e = true by move=> t e Pt /Pt /plain_cP.
  elim: a b Pa Pb => [|e a IH] [|f b] Pa Pb.
  - by case=> -> ->.
  - case=> E _. move: (Q _ f Pb (or_introl (erefl f))). by rewrite -E Hc.
  - case=> E _. move: (Q _ e Pa (or_introl (erefl e))). by rewrite E Hd.
  - case=> -> E. by have [-> [-> ->]] := IH b (fun z Hz => Pa z (or_intror Hz)) (fun z Hz => Pb z (or_intror Hz)) E.
Qed.
Lemma args_inj (l l' : seq (text * text)) : (forall a, In a l -> plain a.1 /\ plain a.2) -> (forall a, In a l' -> plain a.1 /\ plain a.2) ->
  (flat_map (fun a => str "," ++ a.1 ++ str "[""" ++ a.2 ++ str """]") l ++ str ",optimize=""optimal"")")%list = (flat_map (fun a => str "," ++ a.1 ++ str "[""" ++ a.2 ++ str """]") l' ++ str ",optimize=""optimal"")")%list -> l = l'.
Proof.
  have Po : plain (str "optimize") by apply: (@plain_of plain_c); [|repeat constructor].
  elim: l l' => [|a l IH] [|b l'] Pl Pl' //; cbn [flat_map]; rewrite -?app_assoc.
  - move=> [] E. have [Pb _] := Pl' b (or_introl (erefl b)). have [_ [//]] := @plain_split (str "optimize") b.1 "="%char "["%char _ _ Po Pb (erefl _) (erefl _) E.
  - move=> [] E. have [Pb _] := Pl a (or_introl (erefl a)). have [_ [//]] := @plain_split a.1 (str "optimize") "["%char "="%char _ _ Pb Po (erefl _) (erefl _) E.
  - move=> [] E. have [A1 A2] := Pl a (or_introl (erefl a)). have [B1 B2] := Pl' b (or_introl (erefl b)).
    have [E1 [_ {}E]] := @plain_split a.1 b.1 "["%char "["%char _ _ A1 B1 (erefl _) (erefl _) E. case: E => E.
    have [E2 [_ {}E]] := @plain_split a.2 b.2 """"%char """"%char _ _ A2 B2 (erefl _) (erefl _) E. case: E => E.
    rewrite (IH l') //; [|by move=> x Hx; apply: Pl; right|by move=> x Hx; apply: Pl'; right]. by case: a b E1 E2 {Pl Pl' A1 A2 B1 B2} => a1 a2 [b1 b2] /= -> ->.
Qed.
Lemma reads_inj t s s' : reads_as t s -> reads_as t s' -> s = s'.
Proof.
  case: s s' => n f u l [n' f' u' l'] [/= N [F [U [L ->]]]] [/= N' [F' [U' [L' E]]]].
  have [-> [_ {}E]] := @plain_split n n' " "%char " "%char _ _ N N' (erefl _) (erefl _) E. case: E => E.
  have [-> [_ {}E]] := @plain_split f f' " "%char " "%char _ _ F F' (erefl _) (erefl _) E. case: E => E.
  have [-> [_ {}E]] := @plain_split u u' """"%char """"%char _ _ U U' (erefl _) (erefl _) E.
  by rewrite (args_inj L L' E).
Qed.

(** ** Running it *)
Section Run.
  Variables (K : fieldType) (T : text -> seq (Z * nat) -> seq (Z * nat) -> bool -> K).
  Variables (dim : Z -> nat) (st : osi) (tens : text -> text -> array K) (number : text -> K) (phi0 : index -> nat) (label : text) (fmt : rational -> text).
  Hypothesis R : reachable st.
  Hypothesis G : names_ok st.
  Hypothesis alpha : forall sp l, space_label st sp = Ok l -> is_alpha l = true.
  Hypothesis Pl : plain label.
  Notation ready := (term_ready T dim st tens fmt).
  Notation lhs t := (lhs_of label t).
  Notation spaces t := (List.map isp (t_upper (lhs t)) ++ List.map isp (t_lower (lhs t))).
  Notation value t ps := (rhs_value st dim tens (lhs t) (tm_tens t) (assign (slots_of (lhs t)) ps phi0)).
  Variables (N : text) (D : seq nat).
  Definition fits (x : term * rational) : Prop := ready x /\ (label ++ space_key st (slots_of (lhs x.1)))%list = N /\ [seq dim s | s <- spaces x.1] = D.
  Lemma fits_size x ps : fits x -> ps \in positions D -> size ps = size (slots_of (lhs x.1)).
  Proof. move=> [_ [_ <-]] /positions_size ->. by rewrite /slots_of size_map !size_cat !size_map. Qed.
  Lemma run_value (xs : expression) p v v' : (forall x, In x xs -> fits x) -> List.Forall2 (fun q s => compile_einsum fmt st q = Ok s) (List.map (equation_of label) xs) p ->
    executes tens number p v v' -> shape (v' N) = shape (v N) /\ forall ps, ps \in positions D -> elem (v' N) ps = elem (v N) ps + \sum_(x <- xs) number (fmt x.2) * value x.1 ps.
  Proof.
    move=> Hx. elim: xs p v Hx => [|[t c] xs IH] p v Hx F.
    - inversion F; subst => X. inversion X; subst. split=> // ps _. by rewrite big_nil addr0.
    - cbn [List.map] in F. inversion F as [|? txt ? p' Ct F']; subst. move=> X. inversion X as [|? s ? ? v1 ? Rd Ad X']; subst.
      have Fx := Hx (t, c) (or_introl (erefl _)). have [Rx [En Ed]] := Fx. cbn [fst] in En, Ed.
      have [txt' [s' [Ct' [Rd' [Nm [Fc [Ac [Sh Ev]]]]]]]] := statement_ok phi0 R G alpha Pl Rx. rewrite Ct in Ct'. case: Ct' => Q. subst txt'. have Q := reads_inj Rd Rd'. subst s'.
      have [S2 E2] := IH p' v1 (fun x Hx' => Hx x (or_intror Hx')) F' X'. have [_ [_ Av]] := Ad. have [S1 E1] := Av N. split; first by rewrite S2.
      move=> ps Hps. rewrite E2 // E1 Nm En text_eqb_refl big_cons addrA Fc. congr (_ + _ * _ + _). apply: Ev. exact: (fits_size Fx).
  Qed.
  Lemma run_exists (xs : expression) p v : (forall x, In x xs -> fits x) -> List.Forall2 (fun q s => compile_einsum fmt st q = Ok s) (List.map (equation_of label) xs) p ->
    shape (v N) = D -> exists v', executes tens number p v v'.
  Proof.
    move=> Hx. elim: xs p v Hx => [|[t c] xs IH] p v Hx F Sv.
    - inversion F; subst. exists v. exact: ex_done.
    - cbn [List.map] in F. inversion F as [|? txt ? p' Ct F']; subst.
      have Fx := Hx (t, c) (or_introl (erefl _)). have [Rx [En Ed]] := Fx. cbn [fst] in En, Ed.
      have [txt' [s [Ct' [Rd [Nm [Fc [Ac [Sh Ev]]]]]]]] := statement_ok phi0 R G alpha Pl Rx. rewrite Ct in Ct'. case: Ct' => Q. subst txt'.
      set args := [seq tens a.1 a.2 | a <- sm_args s].
      pose v1 : memory K := fun n => mkA (shape (v n)) (fun ps => if text_eqb n (sm_name s) then elem (v n) ps + number (sm_factor s) * einsum (sm_sub s) args ps else elem (v n) ps).
      have [|v' X] := IH p' v1 (fun x Hx' => Hx x (or_intror Hx')) F'; first by rewrite /v1 /= Sv.
      exists v'. apply: (ex_next (v1 := v1) Rd) X. split=> //. split; last by move=> n; split.
      rewrite Sh Nm. rewrite -[(_ ++ _)%list in RHS]/(label ++ space_key st (slots_of (lhs (t, c).1)))%list En. by rewrite Ed Sv.
  Qed.
  Lemma compile_all (xs : expression) : (forall x, In x xs -> ready x) -> exists p, List.Forall2 (fun q s => compile_einsum fmt st q = Ok s) (List.map (equation_of label) xs) p.
  Proof.
    elim: xs => [|[t c] xs IH] Hx; first by exists [::]; constructor. have [p F] := IH (fun x Hx' => Hx x (or_intror Hx')).
    have [txt [s [Ct _]]] := statement_ok phi0 R G alpha Pl (Hx (t, c) (or_introl (erefl _))). exists (txt :: p). by constructor.
  Qed.
End Run.
