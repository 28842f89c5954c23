(** C73: rounding, determinism, names of the arrays, reading numbers. *)
Set Warnings "-notation-overridden,-ambiguous-paths".
From Coq Require Import ZArith QArith Qabs List Bool Ascii String Lia.
From mathcomp Require Import all_ssreflect ssralg order ssrnum.
From Verif Require Import Res RegistryModel RegistryProofs CoreModel RationalModel RationalSpec OperatorModel DecModel TextModel TextSpec TextProofs ScalarSem AlgebraModel AlgebraSpec EquationModel EquationSpec EinsumSpec
  CanonSpec CanonSemSpec WickProductProofs14 WickSearchModel WickSearchSpec WickEvalModel DecimalModel DecimalSpec PipeSpec PipeProofs PipeProofs2 PipeProofs3 PipeProofs4 PipeProofs5 PipeProofs6 PipeProofs7
  LadderSpec WickProductSpec WickPairSpec WickTheoremSpec WickProductProofs15.
Set Implicit Arguments.
Unset Strict Implicit.
Unset Printing Implicit Defensive.
Import GRing.Theory Order.Theory Num.Theory.
Local Open Scope ring_scope.
Delimit Scope Z_scope with Z.
Delimit Scope Q_scope with Q.

Section Rounding.
  Variables (K : realFieldType) (A : algType K) (orb : eqType) (orbital : Z -> nat -> orb) (st : osi) (cre ann : Z -> orb -> A) (T : text -> seq (Z * orb) -> seq (Z * orb) -> bool -> K) (dim : Z -> nat) (phi0 : index -> orb).
  Variables (tens : text -> text -> array K) (number : text -> K) (label : text) (o : wt_opts) (factor : rational) (ops : oprod) (r : expression) (f : {linear A -> K^o}).
  Let orbs (s : Z) : seq orb := all_orbitals orbital dim s.
  Lemma pipe_error p v0 v : ladder_relations st cre ann -> single_reference st -> reference_state st cre ann f -> product_ok st T ops -> (forall s, uniq (orbs s)) ->
    program_registry st -> plain label -> canonical factor -> program_product st ops -> contract o st factor ops 0 0 (Ok r) -> program_data dim st tens (elements_at orbital T) r -> reads_numbers number ->
    generates einsum_factor st label r [:: (str "|", p)] -> shape (v0 label) = [::] -> elem (v0 label) [::] = 0 -> executes tens number p v0 v ->
    `|elem (v label) [::] - ratK K factor * f (product_value st cre ann T orbs phi0 ops)| <=
      \sum_(x <- r) (qK K (1 # 2000000000) + `|ratK K x.2| * qK K (1 # 2 ^ 51)) * `|term_value (@no_operators K orb) T orbs phi0 x.1|.
  Proof.
    move=> HL HS Rf P U PR Pl Cf Pp C Hd Hn Gp S Z X. rewrite -(@expectation K A orb st cre ann (char_num K) HL HS T orbs U phi0 f Rf o factor ops r P Cf C) -(value_none orbital T dim phi0 r (fun _ => 0%N)).
    apply: le_trans (energy_error (fun _ => 0%N) PR Pl Cf Pp C Hd Hn Gp S Z X) _. match goal with |- is_true (?a <= ?b) => have -> : a = b; last exact: lexx end. apply: big_in => x _. congr (_ * `|_|).
    exact: term_none.
  Qed.
End Rounding.

(** ** Determinism *)
Section Det.
  Variables (K : comRingType) (tens : text -> text -> array K) (number : text -> K).
  Definition same (v w : memory K) : Prop := forall n, shape (v n) = shape (w n) /\ forall ps, elem (v n) ps = elem (w n) ps.
  Lemma executes_det p v w v' w' : same v w -> executes tens number p v v' -> executes tens number p w w' -> same v' w'.
  Proof.
    elim: p v w => [|t p IH] v w E X Y; inversion X as [|? s ? ? v1 ? Rd Ad X']; inversion Y as [|? s' ? ? w1 ? Rd' Ad' Y']; subst => //.
    apply: (IH v1 w1) => // n. have Q := reads_inj Rd Rd'. subst s'. have [_ [_ /(_ n) [S1 E1]]] := Ad. have [_ [_ /(_ n) [S2 E2]]] := Ad'. have [S0 E0] := E n. split; first by rewrite S1 S2.
    move=> ps. rewrite E1 E2. by case: ifP; rewrite E0.
  Qed.
End Det.

(** ** Names *)
Lemma split_back k : In "|"%char k -> k = ((split_bar k).1 ++ "|"%char :: (split_bar k).2)%list.
Proof.
  elim: k => [|c k IH] // H. cbn [split_bar]. case: Ascii.eqb_spec => [->|N] //. cbn [fst snd List.app]. congr (_ :: _). apply: IH. by case: H.
Qed.
Lemma names_inj label k k' : In "|"%char k -> In "|"%char k' -> size (split_bar k).1 = size (split_bar k).2 -> size (split_bar k').1 = size (split_bar k').2 -> key_name label k = key_name label k' -> k = k'.
Proof.
  move=> H H' S S' /app_inv_head E. rewrite (split_back H) (split_back H'). move: E S S'. move: (split_bar k) (split_bar k') => [a b] [a' b'] /= E S S'.
  have L : size a = size a'. { have := f_equal size E. rewrite !size_cat !size_rev -S -S' !addnn. exact: double_inj. }
  have Ea : a = a' by have := f_equal (take (size a)) E; rewrite take_size_cat // L take_size_cat.
  move: E. rewrite Ea => /app_inv_head /(f_equal rev). by rewrite !revK => ->.
Qed.

(** ** Reading numbers *)
Definition value_of (t : text) : Q := (inject_Z (dec_value (List.filter is_digit t)) / inject_Z (10 ^ 9))%Q.
Definition number_of (K : fieldType) (t : text) : K :=
  match t with c :: t' => if Ascii.eqb c "-" then qK K (- value_of t')%Q else qK K (value_of t) | [::] => 0 end.
Lemma digits_only t : all_of is_digit t -> List.filter is_digit t = t.
Proof. elim=> [|c l E _ IH] //=. by rewrite E IH. Qed.
Lemma number_reads (K : fieldType) : [char K] =i pred0 -> reads_numbers (@number_of K).
Proof.
  move=> ch s y []. move=> sg a b v Sg Na Da Db Lb.
  have F : List.filter is_digit (a ++ [:: "."%char] ++ b)%list = (a ++ b)%list by rewrite !List.filter_app /= (digits_only Da) (digits_only Db).
  case: Sg => [[-> ->]|[[-> ->]|[-> ->]]].
  - have -> : number_of K ([::] ++ a ++ [:: "."%char] ++ b)%list = qK K (value_of (a ++ [:: "."%char] ++ b)%list).
      case: a Na Da {F} => [|c a] // _ Da. inversion Da as [|? ? Dc _]; subst. rewrite /number_of. cbn [List.app]. case: Ascii.eqb_spec => [E|//]. by rewrite E in Dc.
    rewrite /value_of F. apply: qK_eq => //. by rewrite Qmult_1_l.
  - rewrite -[number_of _ _]/(qK K (inject_Z (dec_value (List.filter is_digit (a ++ [:: "."%char] ++ b)%list)) / inject_Z (10 ^ 9))%Q) F. apply: qK_eq => //. by rewrite Qmult_1_l.
  - rewrite /number_of. cbn [List.app]. rewrite /value_of F. apply: qK_eq => //.
Qed.
