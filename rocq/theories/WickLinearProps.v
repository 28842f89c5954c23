(** C47 (linearity, independence of earlier calls) and C56 ([contract] returns). *)
From Coq Require Import Ascii ZArith QArith List Bool Arith Lia.
From Verif Require Import Res RegistryModel CoreModel OrderProofs RationalModel RationalSpec RationalProofs AlgebraModel AlgebraSpec AlgebraProofs OperatorModel WickSearchModel WickSearchSpec WickEvalModel WickThreadModel WickThreadProofs2
  WickTotalProofs WickHistoryProofs WickLinearSpec WickLinearProofs WickSearchProps WickCombProps WickThreadProps.
Import ListNotations.
Local Open Scope Z_scope.

(** ** C56 *)
(** Every call has an outcome (the steps terminate), ... *)
Theorem C56_outcome : forall o st factor ops minrank maxrank, ops_ok st ops -> exists r, contract o st factor ops minrank maxrank r.
Proof. exact contract_defined. Qed.
Print Assumptions C56_outcome.
(** ... and it is an expression, not an exception, an abort or undefined behaviour, for operators with at most 32 legs in each space
    and 201 legs in all. *)
Theorem C56_returns : forall o st factor ops minrank maxrank, ops_ok st ops -> forall r,
  (forall s, is_space st s -> legs_in_space ops s <= 32) -> fold_left (fun a op => a + op_num op) ops 0 <= 201 ->
  contract o st factor ops minrank maxrank r -> exists e, r = Ok e.
Proof. exact contract_succeeds. Qed.
Print Assumptions C56_returns.
Example C56_nonvacuous : ops_ok wo_st cw_ops /\ (forall s, is_space wo_st s -> legs_in_space cw_ops s <= 32) /\ fold_left (fun a op => a + op_num op) cw_ops 0 <= 201.
Proof. split; [apply cw_ok|]. split; [apply ct_legs|vm_compute; discriminate]. Qed.

(** ** C47 *)
(** The possible results with factor c*f are c times those with factor f. *)
Theorem C47_factor : forall o st f c ops minrank maxrank r, canonical f -> canonical c -> ~ (Qval c == 0)%Q ->
  contract o st (rat_mul c f) ops minrank maxrank r <-> exists r0, contract o st f ops minrank maxrank r0 /\ r = scaled r0 c.
Proof. exact contract_scale_iff. Qed.
Print Assumptions C47_factor.
(** The call on an operator expression gives factor times the sum, with the coefficients, of the results for its products, ... *)
Theorem C47_sum : forall o st minrank maxrank P R factor e, resolves o st minrank maxrank P R -> keysP P e ->
  canonical factor -> ~ (Qval factor == 0)%Q -> mcanon e -> mnz e -> contract_expr o st factor e minrank maxrank (sum_of R factor e).
Proof. exact sum_outcome. Qed.
Print Assumptions C47_sum.
(** ... in which each term has factor times the sum of the products of coefficients, ... *)
Theorem C47_coefficients : forall R factor e r k, keysP (fun ops => forall e, R ops = Ok e -> mcanon e) e -> canonical factor -> mcanon e -> sum_of R factor e = Ok r ->
  (coef term_eqb r k == Qval factor * lsum (fun ops => match R ops with Ok x => coef term_eqb x k | _ => 0%Q end) e)%Q.
Proof. exact sum_value. Qed.
Print Assumptions C47_coefficients.
(** ... and the result for a sum of two operator expressions is the sum of their results. *)
Theorem C47_additive : forall o st minrank maxrank P R factor e1 e2 r1 r2, resolves o st minrank maxrank P R -> keysP P e1 -> keysP P e2 ->
  canonical factor -> mcanon e1 -> mcanon e2 -> sum_of R factor e1 = Ok r1 -> sum_of R factor e2 = Ok r2 ->
  exists r, sum_of R factor (mplus oprod_ltb e1 e2) = Ok r /\ forall t, (coef term_eqb r t == coef term_eqb r1 t + coef term_eqb r2 t)%Q.
Proof. exact additive. Qed.
Print Assumptions C47_additive.
(** Whatever was called before on the object: the possible results are those of its current options, as for a new object. *)
Theorem C47_history : forall st b b0 factor ops minrank maxrank r, ops_ok st ops -> wt_history st b0 b ->
  (exists b', contract_call st b factor ops minrank maxrank r b') <-> contract (ob_opts b) st factor ops minrank maxrank r.
Proof. exact (fun st b b0 factor ops minrank maxrank r Hok _ => call_iff st b factor ops minrank maxrank r Hok). Qed.
Print Assumptions C47_history.
Theorem C47_same_options : forall st b1 b2 factor ops minrank maxrank r b1', ops_ok st ops -> wt_history st wt_new b1 -> wt_history st wt_new b2 ->
  ob_opts b1 = ob_opts b2 -> contract_call st b1 factor ops minrank maxrank r b1' -> exists b2', contract_call st b2 factor ops minrank maxrank r b2'.
Proof. exact (fun st b1 b2 factor ops minrank maxrank r b1' Hok _ _ E H => proj2 (call_iff st b2 factor ops minrank maxrank r Hok)
  (eq_ind (ob_opts b1) (fun o => contract o st factor ops minrank maxrank r) (call_result st b1 factor ops minrank maxrank r b1' H) (ob_opts b2) E)). Qed.
Print Assumptions C47_same_options.
(** A call on the object changes no option. *)
Theorem C47_options_kept : forall st b factor ops minrank maxrank r b', contract_call st b factor ops minrank maxrank r b' -> (forall e, r = Ok e -> ob_opts b' = ob_opts b /\ ob_single b' = ob_single b).
Proof. exact call_options. Qed.
Print Assumptions C47_options_kept.

(** An operator expression with two products, with outcomes; a history with two contractions in between. *)
Example C47_nonvacuous : exists R, resolves (mkWT 100 true) wo_st 0 6 (fun ops => In ops [cw_ops; [nth 0 cw_ops (mkOp [] gm_zero)]]) R /\
  let e : opexpr := [([nth 0 cw_ops (mkOp [] gm_zero)], mkR 1 2); (cw_ops, mkR (-3) 1)] in
  mcanon e /\ mnz e /\ keysP (fun ops => In ops [cw_ops; [nth 0 cw_ops (mkOp [] gm_zero)]]) e /\ exists r, sum_of R (mkR 2 3) e = Ok r.
Proof.
  assert (O1 : ops_ok wo_st [nth 0 cw_ops (mkOp [] gm_zero)]).
  { destruct cw_ok as (A & B). split; [exact A|]. inversion B as [|? ? B1 B2]; subst. apply Forall_cons; [exact B1|apply Forall_nil]. }
  destruct (contract_defined (mkWT 100 true) wo_st (rat_of_Z 1) cw_ops 0 6 cw_ok) as (r1 & R1). destruct (contract_defined (mkWT 100 true) wo_st (rat_of_Z 1) _ 0 6 O1) as (r2 & R2).
  assert (S1 : exists e, r1 = Ok e) by (eapply contract_succeeds; [apply cw_ok|apply ct_legs|vm_compute; discriminate|exact R1]). destruct S1 as (e1 & ->).
  assert (S2 : exists e, r2 = Ok e).
  { eapply contract_succeeds; [apply O1| |vm_compute; discriminate|exact R2]. intros s Hs. unfold is_space, num_spaces in Hs. simpl in Hs. assert (s = 0) as -> by lia. vm_compute. discriminate. }
  destruct S2 as (e2 & ->). exists (fun ops => match ops with [_] => Ok e2 | _ => Ok e1 end). split; [intros ops [<-|[<-|[]]]; assumption|]. cbn zeta.
  split; [constructor; [|constructor; [|constructor]]; split; vm_compute; reflexivity|].
  split; [constructor; [|constructor; [|constructor]]; cbn [snd]; unfold Qval, Qeq; simpl; lia|].
  split; [constructor; [right; left; reflexivity|constructor; [left; reflexivity|constructor]]|]. unfold sum_of, scaled. cbn [map fst snd foldM bind add_result]. unfold add_result. unfold cw_ops. cbn [bind]. eexists. reflexivity.
Qed.
Example C47_history_nonvacuous : exists b, wt_history wo_st wt_new b /\ ob_cvs b = ct_cvs /\ ob_single b = true.
Proof.
  destruct ct_outcome as (oc & H). destruct C45_nonvacuous as (e & P & _).
  exists (mkObj [cw_c] ct_cvs 2 (mkWT 100 true) true). split; [|split; reflexivity]. eapply hist_cons; [apply (call_single _ true)|]. eapply hist_cons; [|apply hist_nil].
  apply (call_contract wo_st _ (rat_of_Z 1) cw_ops 4 6 (Ok e)). exists 5%nat. unfold wt_clear, set_single_threaded, wt_new. cbn [ob_opts ob_single ob_els ob_cvs ob_ncontr]. rewrite ct_search. split; [discriminate|].
  split; [reflexivity|]. cbn [app]. exact P.
Qed.
