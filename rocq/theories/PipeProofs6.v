(** C73: results of [contract]. *)
Set Warnings "-notation-overridden,-ambiguous-paths".
From Coq Require Import ZArith QArith List Bool Ascii String Lia Permutation.
From mathcomp Require Import all_ssreflect ssralg.
From Verif Require Import Res RegistryModel RegistryProofs CoreModel RationalModel RationalSpec RationalProofs OrderProofs SortProofs OperatorModel DecModel TextModel TextSpec TextProofs ScalarSem AlgebraModel AlgebraSpec EquationModel EquationSpec EquationProofs EquationProofs2 EinsumSpec EinsumProofs EinsumProofs2
  CanonSpec CanonProofs CanonSemSpec CanonSemProofs WickSearchModel WickSearchSpec WickEvalModel WickLinearProofs WickProductProofs4 WickProductProofs14 ContractShapeSpec ContractShapeProofs2 ContractShapeProofs3 DecimalModel DecimalSpec DecimalProofs2 PipeSpec PipeProofs PipeProofs2 PipeProofs3 PipeProofs4 PipeProofs5.
Set Implicit Arguments.
Unset Strict Implicit.
Unset Printing Implicit Defensive.
Import GRing.Theory.
Local Open Scope ring_scope.
Delimit Scope Z_scope with Z.
Delimit Scope Q_scope with Q.

Lemma factor_plain c : plain (einsum_factor c).
Proof.
  rewrite /einsum_factor. have := fixed_reads 9 (to_double c). set s := fixed _ _. case=> sg a b v S _ Da Db _. apply/plain_app. split.
    by case: S => [[-> _]|[[-> _]|[-> _]]]; first (by move=> x []); apply: (@plain_of plain_c) => //; repeat constructor.
  apply/plain_app. split; first exact: (plain_of digit_plain Da). apply/plain_app. split; last exact: (plain_of digit_plain Db). by apply: (@plain_of plain_c); [|repeat constructor].
Qed.
Section Results.
  Variables (K : fieldType) (T : text -> seq (Z * nat) -> seq (Z * nat) -> bool -> K).
  Variables (dim : Z -> nat) (st : osi) (tens : text -> text -> array K).
  Lemma ready_expr o factor e minr maxr r : (forall y, In y e -> program_product st y.1) -> contract_expr o st factor e minr maxr (Ok r) -> program_data dim st tens T r ->
    forall x, In x r -> term_ready T dim st tens einsum_factor x.
  Proof.
    move=> He C Hd x Hx. have Hok : List.Forall (fun y => ops_ok st y.1) e by apply/List.Forall_forall => y /He [].
    have [y [Hy Sh]] := proj1 (Forall_forall _ _) (contract_expr_shape o st factor e minr maxr r Hok C) x Hx. have [_ [Ne [Rk Po]]] := He y Hy.
    exists y.1, (wt_maxcumulant o), minr, maxr. do 4 (split=> //). split; first exact: factor_plain. by move=> d; apply: Hd.
  Qed.
  Lemma ready_product o factor ops minr maxr r : program_product st ops -> contract o st factor ops minr maxr (Ok r) -> program_data dim st tens T r ->
    forall x, In x r -> term_ready T dim st tens einsum_factor x /\ contraction_of st (wt_maxcumulant o) ops minr maxr x.1.
  Proof.
    move=> [Hok [Ne [Rk Po]]] C Hd x Hx. have Sh := proj1 (Forall_forall _ _) (contract_shape o st factor ops minr maxr Hok r C) x Hx. split=> //.
    exists ops, (wt_maxcumulant o), minr, maxr. do 4 (split=> //). split; first exact: factor_plain. by move=> d; apply: Hd.
  Qed.
  Lemma exact_factor (number : text -> K) c : [char K] =i pred0 -> reads_numbers number -> canonical c -> short c -> number (einsum_factor c) = ratK K c.
  Proof.
    move=> ch Hn [Hd _] [z [E B]]. have [y [Ry Ey]] := decimal_exact 9 c z Hd E B. rewrite (Hn _ _ Ry) ratK_q //; last lia. exact: qK_eq.
  Qed.
End Results.

(** ** Numbered orbitals *)
Section Numbered.
  Variables (K : fieldType) (V : lmodType K) (orb : eqType) (orbital : Z -> nat -> orb) (dim : Z -> nat).
  Let lift (a : index -> nat) : index -> orb := fun i => orbital (isp i) (a i).
  Lemma sum_numbered (S l : seq index) phi psi (F : (index -> orb) -> V) : (forall a b, (forall i, In i S -> a i = b i) -> F a = F b) ->
    (forall i, In i S -> In i l \/ lift phi i = psi i) -> CanonSemSpec.sum_over (fun s => seq.iota 0 (dim s)) l phi (fun a => F (lift a)) = CanonSemSpec.sum_over (all_orbitals orbital dim) l psi F.
  Proof.
    move=> HF. elim: l phi psi => [|x l IH] phi psi Hs; first by cbn [CanonSemSpec.sum_over]; apply: HF => i Hi; case: (Hs i Hi).
    cbn [CanonSemSpec.sum_over]. rewrite /all_orbitals big_map. apply: eq_bigr => p _. apply: IH => i Hi. rewrite /lift /upd. case Q: (index_eqb i x).
    - move/index_eqb_eq: Q => ->. by right.
    - case: (Hs i Hi) => [[E|Hl]|E]; [|by left|by right]. subst i. by rewrite (proj2 (index_eqb_eq x x) (erefl x)) in Q.
  Qed.
  Lemma orb_numbered a (l : seq index) : orbitals_at orbital (List.map (orb_of a) l) = List.map (orb_of (lift a)) l.
  Proof. rewrite /orbitals_at. elim: l => [|i l IH] //. cbn [List.map map]. by rewrite IH. Qed.
  Variables (W : seq (bool * (Z * orb)) -> V) (T : text -> seq (Z * orb) -> seq (Z * orb) -> bool -> K).
  Lemma value_numbered a t : value_at (fun w => W (operators_at orbital w)) (elements_at orbital T) a t = value_at W T (lift a) t.
  Proof.
    rewrite /value_at. congr (_ *: W _); last by rewrite /operators_at /word; elim: (tm_ops t) => [|s l IH] //; cbn [List.map map]; rewrite IH.
    apply: eq_bigr => d _. by rewrite /elem_at /elements_at !orb_numbered.
  Qed.
  Lemma term_numbered phi psi t : term_value (fun w => W (operators_at orbital w)) (elements_at orbital T) (fun s => seq.iota 0 (dim s)) phi t = term_value W T (all_orbitals orbital dim) psi t.
  Proof.
    rewrite /term_value. have [_ H2] := slots_list t. transitivity (CanonSemSpec.sum_over (fun s => seq.iota 0 (dim s)) (nodup SortProofs.index_dec (CanonSemSpec.slots t)) phi (fun a => value_at W T (lift a) t)).
      apply: sum_over_ext => a. exact: value_numbered.
    apply: (sum_numbered (S := nodup SortProofs.index_dec (CanonSemSpec.slots t)) (F := fun a => value_at W T a t)) => [a b E|i Hi]; last by left. apply: value_ext => i Hi. apply: E. exact/H2.
  Qed.
  Lemma expr_numbered phi psi e : expr_value (fun w => W (operators_at orbital w)) (elements_at orbital T) (fun s => seq.iota 0 (dim s)) phi e = expr_value W T (all_orbitals orbital dim) psi e.
  Proof. rewrite /expr_value !rsum_big. apply: big_in => x _. by rewrite (term_numbered phi psi). Qed.
End Numbered.

(** ** Wick's theorem, run on a computer *)
Section Product.
  Variables (K : fieldType) (st : osi) (T : text -> seq (Z * nat) -> seq (Z * nat) -> bool -> K) (dim : Z -> nat) (phi0 : index -> nat).
  Variables (tens : text -> text -> array K) (number : text -> K) (label : text).
  Hypothesis ch : [char K] =i pred0.
  Hypothesis PR : program_registry st.
  Hypothesis Pl : plain label.
  Hypothesis Hn : reads_numbers number.
  Let orbs (s : Z) : seq nat := seq.iota 0 (dim s).
  Lemma exact_value (V : lmodType K) (W : seq (bool * (Z * nat)) -> V) r prog v : (forall x, In x r -> term_ready T dim st tens einsum_factor x) -> mcanon r -> (forall x, In x r -> short x.2) ->
    generates einsum_factor st label r prog -> run_of dim st tens number label prog v ->
    \sum_(kp <- prog) array_operator W dim (key_upper st kp.1) (key_lower st kp.1) (v kp.1 (key_name label kp.1)) = expr_value W T orbs phi0 r.
  Proof.
    move=> Rr Cr Sr Gp Rv. case: PR => R [G al]. rewrite -(program_value W phi0 R G al Pl Rr Gp Rv) /expr_value rsum_big. apply: big_in => x Hx. congr (_ *: _). apply: exact_factor => //; last exact: Sr.
    exact: (proj1 (List.Forall_forall _ _) Cr).
  Qed.
End Product.
