(** C75: determinism, agreement with the numpy program, reading numbers. *)
Set Warnings "-notation-overridden,-ambiguous-paths".
From Coq Require Import ZArith QArith Qabs List Bool Ascii String Lia.
From mathcomp Require Import all_ssreflect ssralg.
From Verif Require Import Res RegistryModel RegistryProofs CoreModel RationalModel RationalSpec OperatorModel DecModel TextModel TextSpec TextProofs ScalarSem AlgebraModel AlgebraSpec EquationModel EquationSpec EquationProofs EquationProofs2 EinsumSpec
  CanonSpec CanonSemSpec WickProductProofs14 WickSearchModel WickSearchSpec WickEvalModel WickLinearProofs DecimalModel DecimalSpec DecimalProofs2 PipeSpec PipeProofs PipeProofs2 PipeProofs3 PipeProofs4 PipeProofs5 PipeProofs6 PipeProofs7 PipeProofs8
  EqTextModel EqTextSpec EqTextProofs AmbitSpec AmbitPipeSpec AmbitPipeProofs AmbitPipeProofs2 AmbitPipeProofs3.
Set Implicit Arguments.
Unset Strict Implicit.
Unset Printing Implicit Defensive.
Import GRing.Theory.
Local Open Scope ring_scope.
Delimit Scope Z_scope with Z.
Delimit Scope Q_scope with Q.

Section Det.
  Variables (K : comRingType) (dimc : ascii -> nat) (tens : text -> text -> array K) (number : text -> K).
  Lemma ambit_executes_det p v w v' w' : same v w -> ambit_executes dimc tens number p v v' -> ambit_executes dimc tens number p w w' -> same v' w'.
  Proof.
    elim: p v w => [|t p IH] v w E X Y; inversion X as [|? l f rs ? ? v1 ? Rd Ad X']; inversion Y as [|? l' f' rs' ? ? w1 ? Rd' Ad' Y']; subst => //.
    apply: (IH v1 w1) => // n. have [Q1 [Q2 Q3]] := ambit_unique _ _ _ _ _ _ _ Rd Rd'. subst l' f' rs'. have [_ [_ [_ [_ /(_ n) [S1 E1]]]]] := Ad. have [_ [_ [_ [_ /(_ n) [S2 E2]]]]] := Ad'. have [S0 E0] := E n. split; first by rewrite S1 S2.
    move=> ps. rewrite E1 E2. by case: ifP; rewrite E0.
  Qed.
End Det.

(** ** The two programs *)
Section Agreement.
  Variables (K : fieldType) (T : text -> seq (Z * nat) -> seq (Z * nat) -> bool -> K).
  Variables (dim : Z -> nat) (dimc : ascii -> nat) (st : osi) (tens : text -> text -> array K) (number number6 : text -> K) (label : text).
  Hypothesis ch : [char K] =i pred0.
  Hypothesis PR : program_registry st.
  Hypothesis Dm : dimensions dim dimc st.
  Hypothesis Pl : plain label.
  Hypothesis Pn : plain_name label.
  Hypothesis Hn : reads_numbers number.
  Hypothesis Hm : reads_numbers6 number6.
  Variable r : expression.
  Hypothesis Rr : forall x, In x r -> term_ready T dim st tens einsum_factor x.
  Hypothesis Ra : forall x, In x r -> ambit_ready T dim st tens ambit_factor x.
  Hypothesis Cr : mcanon r.
  Hypothesis Sr : forall x, In x r -> short6 x.2.
  Lemma numbers_agree x : In x r -> short x.2 -> number (einsum_factor x.2) = number6 (ambit_factor x.2).
  Proof.
    move=> Hx Sx. have Cx := proj1 (List.Forall_forall _ _) Cr x Hx. rewrite (exact_factor ch Hn Cx Sx). symmetry. apply: ambit_exact_factor => //. exact: Sr.
  Qed.
  Hypothesis S9 : forall x, In x r -> short x.2.
  Lemma programs_agree prog prog' : generates einsum_factor st label r prog -> generates_ambit ambit_factor st label r prog' ->
    List.Forall2 (fun kp kp' => kp.1 = kp'.1 /\ forall v v' w w', executes tens number kp.2 v v' -> ambit_executes dimc tens number6 kp'.2 w w' ->
      (forall ps, ps \in positions [seq dim s | s <- key_upper st kp.1 ++ key_lower st kp.1] -> elem (v (key_name label kp.1)) ps = elem (w (key_name label kp.1)) ps) ->
      forall ps, ps \in positions [seq dim s | s <- key_upper st kp.1 ++ key_lower st kp.1] -> elem (v' (key_name label kp.1)) ps = elem (w' (key_name label kp.1)) ps) prog prog'.
  Proof.
    case: (PR) => R [G al] [m [Em F]] [m' [Em' F']]. rewrite Em in Em'. case: Em' => Q. subst m'.
    have [m' [Em' [_ [Mk _]]]] := manybody_ok st label r (@reg_ops K T dim st tens einsum_factor r Rr). rewrite Em in Em'. case: Em' => Q. subst m'.
    have: forall k l, In (k, l) m -> exists xs, l = List.map (equation_of label) xs /\ (forall x, In x xs -> In x r /\ key_of st x = k).
      by move=> k l /Mk [_]; exact: in_key.
    elim: F prog' F' {Em Mk} => [|kl kp m0 p0 [E F] _ IH] prog' F' Mk; inversion F' as [|? kp' ? p0' [E' Fa] F'']; subst; first by constructor.
    constructor; last by apply: IH => // k l Hk; apply: Mk; right.
    case: kl kp kp' E E' F Fa Mk {F' IH} => [k l] [k1 p] [k2 p'] /= -> -> F Fa Mk. split=> // v v' w w' X Y Hv ps Hps.
    have [xs [El Hx]] := Mk k l (or_introl (erefl _)). subst l.
    have [_ Ev] := @run_value K T dim st tens number (fun _ => 0%N) label einsum_factor R G al Pl _ _ xs p v v' (keys_fit label R al Rr Hx) F X.
    have [_ Ew] := @ambit_run_value K T dim dimc st tens number6 (fun _ => 0%N) label ambit_factor R al Dm Pn _ _ xs p' w w' (ambit_keys_fit label R al Ra Hx) Fa Y.
    rewrite Ev // Ew // Hv //. congr (_ + _). apply: big_in => x Hxx. have [Hr _] := Hx x Hxx. rewrite numbers_agree //. exact: S9.
  Qed.
End Agreement.

(** ** Reading numbers *)
Definition value_of6 (t : text) : Q := (inject_Z (dec_value (List.filter is_digit t)) / inject_Z (10 ^ 6))%Q.
Definition number_of6 (K : fieldType) (t : text) : K :=
  match t with c :: t' => if Ascii.eqb c "-" then qK K (- value_of6 t')%Q else qK K (value_of6 t) | [::] => 0 end.
Lemma number_reads6 (K : fieldType) : [char K] =i pred0 -> reads_numbers6 (@number_of6 K).
Proof.
  move=> ch s y []. move=> sg a b v Sg Na Da Db Lb.
  have F : List.filter is_digit (a ++ [:: "."%char] ++ b)%list = (a ++ b)%list by rewrite !List.filter_app /= (digits_only Da) (digits_only Db).
  case: Sg => [[-> ->]|[[-> ->]|[-> ->]]].
  - have -> : number_of6 K ([::] ++ a ++ [:: "."%char] ++ b)%list = qK K (value_of6 (a ++ [:: "."%char] ++ b)%list).
      case: a Na Da {F} => [|c a] // _ Da. inversion Da as [|? ? Dc _]; subst. rewrite /number_of6. cbn [List.app]. case: Ascii.eqb_spec => [E|//]. by rewrite E in Dc.
    rewrite /value_of6 F. apply: qK_eq => //. by rewrite Qmult_1_l.
  - rewrite -[number_of6 _ _]/(qK K (inject_Z (dec_value (List.filter is_digit (a ++ [:: "."%char] ++ b)%list)) / inject_Z (10 ^ 6))%Q) F. apply: qK_eq => //. by rewrite Qmult_1_l.
  - rewrite /number_of6. cbn [List.app]. rewrite /value_of6 F. apply: qK_eq => //.
Qed.
