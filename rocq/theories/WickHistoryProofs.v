From Coq Require Import ZArith List Bool Arith Lia.
From Verif Require Import Res RegistryModel CoreModel RationalModel AlgebraModel OperatorModel WickSearchModel WickSearchSpec WickEvalModel WickThreadModel WickThreadProofs2 WickTotalProofs.
Import ListNotations.
Local Open Scope Z_scope.
Lemma call_iff st b factor ops minrank maxrank r : ops_ok st ops ->
  (exists b', contract_call st b factor ops minrank maxrank r b') <-> contract (ob_opts b) st factor ops minrank maxrank r.
Proof.
  intros Hok. split; [intros (b' & H); eapply call_result; eauto|]. intros (fuel & R & N). unfold contract_run in R. destruct (search fuel (ob_opts b) st ops minrank maxrank) as [[els cvs]| | |] eqn:E.
  - eexists. exists fuel. unfold wt_clear. cbn [ob_opts ob_cvs ob_ncontr ob_single]. rewrite E. split; [discriminate|]. split; [reflexivity|]. cbn [ob_single ob_opts ob_els ob_cvs app].
    destruct (ob_single b); [exact R|]. apply single_threads; [eapply search_nodup; eauto|exact R].
  - exists b, fuel. unfold wt_clear. cbn [ob_opts]. rewrite E. split; [discriminate|exact R].
  - exists b, fuel. unfold wt_clear. cbn [ob_opts]. rewrite E. split; [discriminate|exact R].
  - congruence.
Qed.
Lemma call_options st b factor ops minrank maxrank r b' : contract_call st b factor ops minrank maxrank r b' -> (forall e, r = Ok e -> ob_opts b' = ob_opts b /\ ob_single b' = ob_single b).
Proof.
  intros (fuel & N & H) e ->. unfold wt_clear in H. cbn [ob_opts ob_cvs ob_ncontr ob_single] in H. destruct (search fuel (ob_opts b) st ops minrank maxrank) as [[els cvs]| | |]; [|discriminate|discriminate|contradiction]. destruct H as (-> & _). split; reflexivity.
Qed.
