(** C73: the compiled statement of a term of a result of [contract], and the program of a key. *)
Set Warnings "-notation-overridden,-ambiguous-paths".
From Coq Require Import ZArith List Bool Ascii String Lia Permutation.
From mathcomp Require Import all_ssreflect ssralg.
From Verif Require Import Res RegistryModel RegistryProofs CoreModel RationalModel OrderProofs SortProofs OperatorModel DecModel TextModel TextSpec TextProofs ScalarSem EquationModel EquationSpec EquationProofs2 EinsumSpec EinsumProofs EinsumProofs2
  CanonSpec CanonSemSpec WickSearchModel WickSearchSpec WickEvalModel ContractShapeSpec ContractShapeProofs3 PipeSpec PipeProofs PipeProofs2.
Set Implicit Arguments.
Unset Strict Implicit.
Unset Printing Implicit Defensive.
Import GRing.Theory.
Local Open Scope ring_scope.
Delimit Scope Z_scope with Z.

(** ** Characters *)
Definition plain_c (c : ascii) : bool := ~~ existsb (Ascii.eqb c) [:: " "%char; """"%char; "["%char; "="%char].
Lemma plain_cP c : plain_c c = true <-> c <> " "%char /\ c <> """"%char /\ c <> "["%char /\ c <> "="%char.
Proof.
  rewrite /plain_c /= orbF. do 4 (case: Ascii.eqb_spec => [->|?]; first by split=> // -[? [? [? ?]]]). by split.
Qed.
Lemma plain_app a b : plain (a ++ b)%list <-> plain a /\ plain b.
Proof.
  split=> [H|[A B] c /in_app_iff [Hc|Hc]]; [|exact: A|exact: B]. by split=> c Hc; apply: H; apply/in_app_iff; [left|right].
Qed.
Lemma plain_letters t : (forall c, In c t -> is_letter c) -> plain t.
Proof.
  move=> H c /H L. apply/plain_cP. move: L. rewrite /is_letter /alphabet => /in_map_iff [x [[<-] L]]. move: x L. apply: (proj1 (List.Forall_forall _ _)). vm_compute. repeat constructor.
Qed.
Lemma plain_of f t : (forall c, f c = true -> plain_c c = true) -> List.Forall (fun c => f c = true) t -> plain t.
Proof. move=> H F c Hc. apply/plain_cP. apply: H. exact: (proj1 (List.Forall_forall _ _) F). Qed.
Lemma alpha_plain c : is_alpha c = true -> plain_c c = true.
Proof. case: c => b0 b1 b2 b3 b4 b5 b6 b7. by case: b0; case: b1; case: b2; case: b3; case: b4; case: b5; case: b6; case: b7. Qed.
Lemma digit_plain c : is_digit c = true -> plain_c c = true.
Proof. case: c => b0 b1 b2 b3 b4 b5 b6 b7. by case: b0; case: b1; case: b2; case: b3; case: b4; case: b5; case: b6; case: b7. Qed.

Section One.
  Variables (K : fieldType) (T : text -> seq (Z * nat) -> seq (Z * nat) -> bool -> K).
  Variables (dim : Z -> nat) (st : osi) (tens : text -> text -> array K) (phi0 : index -> nat) (label : text) (fmt : rational -> text).
  Hypothesis R : reachable st.
  Hypothesis G : names_ok st.
  Hypothesis alpha : forall sp l, space_label st sp = Ok l -> is_alpha l = true.
  Hypothesis Pl : plain label.
  Definition lhs_of (t : term) : tensor := mkT label (creators (tm_ops t)) (List.rev (annihilators (tm_ops t))) Antisymmetric false.
  Definition term_ready (x : term * rational) : Prop :=
    exists ops maxc minr maxr, contraction_of st maxc ops minr maxr x.1 /\ ops <> [::] /\ (ops_rank ops <= 52)%Z /\ (forall o, In o ops -> plain (op_label o)) /\ plain (fmt x.2) /\
      (forall d, In d (tm_tens x.1) -> holds dim st tens T (t_label d) (List.map isp (t_upper d)) (List.map isp (t_lower d))).

  Lemma key_plain l : regd st l -> plain (space_key st l).
  Proof.
    move=> H c /in_map_iff [i [E Hi]]. have [l' El] := reg_label_defined st (isp i) (H i Hi). apply/plain_cP. rewrite El in E. subst l'. apply: alpha_plain. exact: alpha El.
  Qed.
  Lemma density_plain maxc ops minr maxr t d : contraction_of st maxc ops minr maxr t -> (forall o, In o ops -> plain (op_label o)) -> In d (tm_tens t) -> plain (t_label d).
  Proof.
    move=> H P Hd. have [ds [D Pm]] := co_tensors _ _ _ _ _ _ H. have Q : In (tensor_profile st d) (List.map (oper_profile st) ops ++ ds)%list by apply: Permutation_in Pm _; apply: in_map.
    case: (in_app_or _ _ _ Q) => {}Q.
    - move/in_map_iff: Q => [q [[<- _ _] Hq]]. exact: P.
    - move: (proj1 (List.Forall_forall _ _) D _ Q). move E: (tensor_profile st d) => pr X. rewrite /tensor_profile in E. case: X E => [s _ _|s _ _|s k _ _ K1 _] [-> _ _].
      + by apply: (@plain_of plain_c); [|repeat constructor].
      + by apply: (@plain_of plain_c); [|repeat constructor].
      + apply: (proj2 (plain_app (str "lambda") _)). split; first by apply: (@plain_of plain_c); [|repeat constructor].
        have Kz : (0 <= Z.of_nat k)%Z by lia. have [_ [Dg _]] := dec_pos (Z.of_nat k) Kz. apply: (plain_of digit_plain). exact: Dg.
  Qed.
  Lemma statement_ok t c : term_ready (t, c) -> exists txt s, compile_einsum fmt st (equation_of label (t, c)) = Ok txt /\ reads_as txt s /\
    sm_name s = (label ++ space_key st (slots_of (lhs_of t)))%list /\ sm_factor s = fmt c /\
    let args := [seq tens a.1 a.2 | a <- sm_args s] in
    accepts (sm_sub s) args /\ einsum_shape (sm_sub s) args = [seq dim s | s <- List.map isp (t_upper (lhs_of t)) ++ List.map isp (t_lower (lhs_of t))] /\
    forall ps, size ps = size (slots_of (lhs_of t)) -> einsum (sm_sub s) args ps = rhs_value st dim tens (lhs_of t) (tm_tens t) (assign (slots_of (lhs_of t)) ps phi0).
  Proof.
    move=> [ops [maxc [minr [maxr [H [Ne [Rk [Po [Pf Ho]]]]]]]]]. cbn [fst snd] in *.
    have /= := contraction_lhs st maxc ops minr maxr t label c H. rewrite -/(lhs_of t). move=> [lhs [[E] [Nd [Ic [Sp [Le Nt]]]]]]. subst lhs.
    have Hd : hd_error (tm_tens (eq_lhs (equation_of label (t, c)))) = Some (lhs_of t) by [].
    have Cp := @compiles fmt st (equation_of label (t, c)) (lhs_of t) R G Hd Sp.
    have L52 : Nat.leb (List.length (nodup EquationSpec.index_dec (flat_map slots_of (tm_tens (eq_rhs (equation_of label (t, c))) ++ [:: lhs_of t])%list))) 52 = true.
      apply/Nat.leb_le. move: Le => /=. lia.
    rewrite L52 in Cp. case: Cp => txt Ct. exists txt. move: (Ct). rewrite (@compile_text fmt st (equation_of label (t, c)) (lhs_of t) Hd Sp).
    case E: (einsum_indices st (tm_tens (eq_rhs (equation_of label (t, c)))) (lhs_of t)) => [[ins out]| | |] //. cbn [bind fst snd] => -[Et].
    have [f [Ei [Eo [Lf If]]]] := einsum_sigma st _ _ _ _ R G Sp E. cbn [eq_rhs equation_of tm_tens fst snd] in *.
    have WS : forall d, In d (tm_tens t) -> well_shaped st dim tens d by move=> d Hdd; apply: (@shaped K T dim st tens t) => // d' Hd'; split; [exact: Ho|]; have := proj1 (List.Forall_forall _ _) (co_plain _ _ _ _ _ _ H) d' Hd'; case.
    set sub := (join ins (str ",") ++ str "->" ++ out)%list in Et.
    exists (mkStm (label ++ space_key st (slots_of (lhs_of t)))%list (fmt c) sub (List.map (fun d => (t_label d, space_key st (slots_of d))) (tm_tens t))).
    cbn [sm_name sm_factor sm_sub sm_args].
    have Ea : [seq tens a.1 a.2 | a <- List.map (fun d => (t_label d, space_key st (slots_of d))) (tm_tens t)] = List.map (array_of st tens) (tm_tens t) by rewrite -map_comp.
    rewrite Ea. split; first by rewrite -Et. split.
      split; [|split; [|split; [|split]]]; cbn [sm_name sm_factor sm_sub sm_args] => //.
      - apply/plain_app. split=> //. apply: key_plain. by apply: (Sp (lhs_of t)); left.
      - have Pin : forall w, In w ins -> plain w. { move=> w. rewrite Ei => /in_map_iff [d [<- Hdd]]. apply: plain_letters => x /in_map_iff [i [<- Hi]]. apply: Lf. apply/in_flat_map. exists d. split=> //. apply/in_app_iff. by left. }
        rewrite /sub. apply/plain_app. split; last apply/plain_app; last split.
        + case: (ins) Pin => [|w ws] Pw; first by move=> x []. rewrite join_comma_args. apply/plain_app. split; first by apply: Pw; left. move=> x /in_flat_map [v [Hv /in_app_iff [[<-|[]]|Hx]]]; first exact/plain_cP. by apply: (Pw v) => //; right.
        + exact: (@plain_of plain_c (str "->") (fun _ => id) ltac:(repeat constructor)).
        + apply: plain_letters => x. rewrite Eo => /in_map_iff [i [<- Hi]]. apply: Lf. apply/in_flat_map. exists (lhs_of t). split=> //. apply/in_app_iff. by right; left.
      - move=> a /in_map_iff [d [<- Hdd]] /=. split; [exact: density_plain H Po Hdd|]. apply: key_plain. by apply: (Sp d); right.
      - rewrite -Et /statement_text. cbn [t_label lhs_of]. rewrite -!app_assoc. do 8 apply: f_equal. congr (_ ++ _)%list. by rewrite !flat_map_concat_map List.map_map.
    split=> //. split=> //. have Ac : accepts sub (List.map (array_of st tens) (tm_tens t)).
      rewrite /sub Ei Eo. apply/(accept_iff WS Lf If). split; [exact: Nt|]. by split.
    split=> //. split.
    - rewrite /einsum_shape /sub Ei Eo (sub_arrow Lf) (sub_commas Lf) //; last exact: (Nt Ne).
      rewrite -map_cat -[_ ++ _]/(slots_of (lhs_of t)).
      rewrite -!map_comp. apply: map_ext_in => i Hi. cbn [comp]. rewrite (axis_ok WS If) //. exact: Ic.
    - move=> ps Sz. rewrite -[in LHS](@assign_map (slots_of (lhs_of t)) ps phi0) // /sub Ei Eo. apply: (einsum_value WS Lf If). by rewrite -Ei -Eo.
  Qed.
End One.
