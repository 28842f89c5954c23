(** The ambit statements of the terms returned by [contract] (C64). *)
From Coq Require Import String Ascii ZArith List Bool Lia Permutation.
From Verif Require Import Res RegistryModel RegistryProofs CoreModel RationalModel AlgebraModel AlgebraSpec OperatorModel DecModel TextModel TextSpec TextProofs WickSearchModel WickSearchSpec WickEvalModel WickLinearProofs EquationModel EquationSpec EqTextModel EqTextSpec EqTextProofs
  ContractShapeSpec ContractShapeProofs2 ContractShapeProofs3.
Import ListNotations.
Local Open Scope Z_scope.

Lemma contract_ambit fmt o st factor e minrank maxrank r label x : plain_labels_of st -> plain_name label -> (forall f, plain_name (fmt f)) ->
  Forall (fun y => ops_ok st (fst y) /\ fst y <> [] /\ Forall (fun q => plain_name (op_label q)) (fst y)) e -> contract_expr o st factor e minrank maxrank (Ok r) -> In x r ->
  exists lhs s, tm_tens (eq_lhs (equation_of label x)) = [lhs] /\ (forall d, In d (lhs :: tm_tens (fst x)) -> registered st d) /\
    compile_ambit fmt st (equation_of label x) = Ok s /\ reads_ambit s (ref_of st lhs) (fmt (snd x)) (map (ref_of st) (tm_tens (fst x))).
Proof.
  intros P Pl Pf H K Hx. assert (Hok : Forall (fun y => ops_ok st (fst y)) e) by (eapply Forall_impl; [|exact H]; cbn; tauto).
  assert (S := contract_expr_shape o st factor e minrank maxrank r Hok K). unfold keysP in S. rewrite Forall_forall in S. destruct (S x Hx) as (y & Hy & Sh). rewrite Forall_forall in H. destruct (H y Hy) as (_ & Ne & Lb).
  destruct x as [t c]. cbn [fst snd] in *. destruct (contraction_lhs _ _ _ _ _ t label c Sh) as (lhs & E & _ & _ & Sp & _ & Nt). exists lhs.
  assert (Rg : forall d, In d (lhs :: tm_tens t) -> registered st d) by (intros d Hd i Hi; apply (Sp d Hd i Hi)).
  destruct (ambit_reads fmt st (equation_of label (t, c)) lhs) as (s & Cs & Rs); auto; [|exists s; auto].
  intros d Hd. split; [apply Rg, Hd|]. destruct Hd as [<-|Hd]; [cbn in E; injection E as <-; exact Pl|]. change (tm_tens (eq_rhs (equation_of label (t, c)))) with (tm_tens t) in Hd.
  destruct (co_tensors _ _ _ _ _ _ Sh) as (ds & D & Pm). assert (Q : In (tensor_profile st d) (map (oper_profile st) (fst y) ++ ds)) by (eapply Permutation_in; [exact Pm|apply in_map, Hd]). apply in_app_or in Q. destruct Q as [Q|Q].
  - apply in_map_iff in Q. destruct Q as (q & Eq & Hq). rewrite Forall_forall in Lb. injection Eq as El _ _. rewrite <- El. apply Lb, Hq.
  - rewrite Forall_forall in D. specialize (D _ Q). remember (tensor_profile st d) as pr eqn:Ep. unfold tensor_profile in Ep. destruct D as [s Hs Ty|s Hs Ty|s k Hs Ty K1 K2]; injection Ep as E1 E2 E3; rewrite <- E1.
    + split; [discriminate|repeat constructor].
    + split; [discriminate|repeat constructor].
    + split; [discriminate|]. do 6 (constructor; [reflexivity|]). destruct (dec_pos (Z.of_nat k)) as (_ & Dg & _); [lia|]. eapply Forall_impl; [|exact Dg]. cbn beta. intros a Ha. destruct (plain_char a) eqn:F; auto. unfold plain_char in F. apply negb_false_iff in F. apply existsb_exists in F. destruct F as (x & Hx' & Ex).
      apply Ascii.eqb_eq in Ex. subst x. cbn in Hx'. decompose [or False] Hx'; subst a; discriminate.
Qed.
