(** C72: a loop that adds larger terms to the expression it walks never ends. *)
From Coq Require Import ZArith List Bool Arith Lia Sorted.
From Verif Require Import Res RationalModel RegistryModel CoreModel OrderProofs AlgebraModel AlgebraSpec AlgebraProofs AdjointModel NormalOrderModel CanonModel PyModel PySpec PyProofs PyProofs2 PyProofs3 PyProofs4 PyProofs5.
Import ListNotations.

Section Endless.
  Variables (st : osi) (op : sqop) (u x i t c : var).
  Hypothesis V : NoDup [u; x; i; t; c].
  Definition tk (n : nat) : term := mkTerm false (repeat op n) [].
  Definition mk (n : nat) : nmap := map (fun k => (k, (tk k, one))) (seq 0 (S n)).
  Definition round : list cmd := [CNext t c i; CMut u (MOps [op]); CIadd x u].

  Lemma lex_repeat n : forall m, n < m -> lexb sqop_ltb (repeat op n) (repeat op m) = true.
  Proof. induction n as [|n IH]; intros [|m] L; try lia; [reflexivity|]. cbn. rewrite (swo_irrefl _ _ swo_sqop). apply IH. lia. Qed.
  Lemma tk_lt n m : n < m -> term_ltb (tk n) (tk m) = true.
  Proof. intros L. unfold term_ltb, tk. cbn. now apply lex_repeat. Qed.
  Lemma last_key (m : nmap) n k b : (forall y, In y m -> term_ltb (fst (snd y)) k = true) -> mfind term_ltb k (entries m) = None /\ nset n k b m = m ++ [(n, (k, b))].
  Proof.
    induction m as [|[n1 [k1 c1]] m IH]; cbn; intros H; [split; reflexivity|]. pose proof (H _ (or_introl eq_refl)) as L. cbn in L. rewrite L.
    destruct IH as [A B]; [intros y Hy; apply H; now right|]. split; [exact A|now rewrite B].
  Qed.
  Lemma mk_S n : mk (S n) = mk n ++ [(S n, (tk (S n), one))].
  Proof. unfold mk. rewrite (seq_S (S n)). now rewrite map_app. Qed.
  Lemma mk_keys n y : In y (mk n) -> term_ltb (fst (snd y)) (tk (S n)) = true.
  Proof. unfold mk. intros H. apply in_map_iff in H. destruct H as (k & <- & H). apply in_seq in H. cbn [fst snd]. apply tk_lt. lia. Qed.
  Lemma nadd_mk n : nadd (S n) (tk (S n)) one (mk n) = mk (S n).
  Proof. destruct (last_key (mk n) (S n) (tk (S n)) one (mk_keys n)) as [A B]. unfold nadd. change (rat_is0 one) with false. cbv iota. now rewrite A, B, mk_S. Qed.
  Lemma mk_ids n : map fst (mk n) = seq 0 (S n).
  Proof. unfold mk. rewrite map_map. cbn. f_equal. apply map_id. Qed.

  (** The state before round [n]. *)
  Record at_round (n : nat) (s : state) : Prop := {
    a_exprs : s_exprs s = [mk n];
    a_terms : s_terms s = [mkTO false (tk n) one];
    a_iters : s_iters s = [match n with O => mkIO 0 (Some 0) true | S p => mkIO 0 (Some p) false end];
    a_next : s_next s = S n;
    a_u : s_env s u = Some (VT 0); a_x : s_env s x = Some (VE 0); a_i : s_env s i = Some (VI 0) }.
  Lemma rest_at n : rest (mk n) (match n with O => mkIO 0 (Some 0) true | S p => mkIO 0 (Some p) false end) = Some [(n, (tk n, one))].
  Proof.
    destruct n as [|p]; [reflexivity|]. rewrite mk_S.
    assert (X : exists a, mk p = a ++ [(p, (tk p, one))] /\ ~ In p (map fst a)).
    { destruct p as [|p]; [exists []; split; [reflexivity|intros []]|]. exists (mk p). split; [apply mk_S|]. rewrite mk_ids. intros J. apply in_seq in J. lia. }
    destruct X as (a & -> & N). rewrite <- app_assoc. cbn [app]. unfold rest. cbn [io_pos io_first]. rewrite from_mid by exact N. reflexivity.
  Qed.
  Lemma distinct : u <> x /\ u <> i /\ u <> t /\ u <> c /\ x <> i /\ x <> t /\ x <> c /\ i <> t /\ i <> c /\ t <> c.
  Proof. revert V. intros V'. repeat match goal with H : NoDup (_ :: _) |- _ => inversion H; clear H; subst end. cbn in *. intuition congruence. Qed.
  Lemma one_round n s : at_round n s -> exists s', run st s [(s, CNext t c i, Yield (tk n) one)] s' /\ exists h s2, run st s' h s2 /\ at_round (S n) s2 /\
    map (fun y => snd (fst y)) h = [CMut u (MOps [op]); CIadd x u] /\ delivered 0 ((s, CNext t c i, Yield (tk n) one) :: h) = [Some (tk n, one)].
  Proof.
    intros A. destruct distinct as (D1 & D2 & D3 & D4 & D5 & D6 & D7 & D8 & D9 & D10).
    set (s1 := assign c (VC 0 n) (assign t (VN 0 n) (set_iter 0 (mkIO 0 (Some n) false) s))).
    assert (S1 : step st s (CNext t c i) s1 (Yield (tk n) one)).
    { exists Throw. split; [exact Logic.I|]. cbn [exec]. rewrite (a_i _ _ A), (a_iters _ _ A). cbn [nth_error]. rewrite (a_exprs _ _ A).
      assert (Z : io_expr (match n with O => mkIO 0 (Some 0) true | S p => mkIO 0 (Some p) false end) = 0) by (destruct n; reflexivity). rewrite Z. cbn [nth_error]. rewrite rest_at. reflexivity. }
    exists s1. split; [econstructor; [exact S1|discriminate|constructor]|].
    set (s2 := set_term 0 (mkTO false (tk (S n)) one) s1).
    assert (Eu : s_env s1 u = Some (VT 0)) by (cbn; rewrite !upd_other by congruence; exact (a_u _ _ A)).
    assert (Ex : s_env s1 x = Some (VE 0)) by (cbn; rewrite !upd_other by congruence; exact (a_x _ _ A)).
    assert (Ei : s_env s1 i = Some (VI 0)) by (cbn; rewrite !upd_other by congruence; exact (a_i _ _ A)).
    assert (S2 : step st s1 (CMut u (MOps [op])) s2 Done).
    { exists Throw. split; [exact Logic.I|]. cbn [exec]. rewrite Eu. cbn [s_terms s1 assign set_iter]. rewrite (a_terms _ _ A). cbn. unfold s2, tk. repeat f_equal. change [op] with (repeat op 1). rewrite <- repeat_app. f_equal. lia. }
    set (s3 := add_in_place 0 (tk (S n)) one (mk n) s2).
    assert (S3 : step st s2 (CIadd x u) s3 Done).
    { exists Throw. split; [exact Logic.I|]. cbn [exec]. change (s_env s2 x) with (s_env s1 x). rewrite Ex. unfold view. change (s_env s2 u) with (s_env s1 u). rewrite Eu. cbn [option_map look]. cbn [s_terms s2 set_term s1 assign set_iter s_exprs].
      rewrite (a_terms _ _ A), (a_exprs _ _ A). reflexivity. }
    exists [(s1, CMut u (MOps [op]), Done); (s2, CIadd x u, Done)], s3. split; [econstructor; [exact S2|discriminate|]; econstructor; [exact S3|discriminate|constructor]|].
    split; [|split; [reflexivity|unfold delivered; cbn; rewrite (a_i _ _ A); reflexivity]].
    constructor; cbn [s3 s2 s1 s_exprs s_terms s_iters s_next s_env add_in_place set_term set_iter assign]; try assumption.
    - rewrite (a_exprs _ _ A), (a_next _ _ A). cbn. f_equal. apply nadd_mk.
    - rewrite (a_terms _ _ A). reflexivity.
    - rewrite (a_iters _ _ A). reflexivity.
    - now rewrite (a_next _ _ A).
  Qed.
  Lemma run_app s h1 s1 h2 s2 : run st s h1 s1 -> run st s1 h2 s2 -> run st s (h1 ++ h2) s2.
  Proof. induction 1; intros R; [exact R|]. cbn. econstructor; [eassumption|assumption|]. now apply IHrun. Qed.
  Lemma rounds n : forall p s, at_round p s -> exists h s', run st s h s' /\ map (fun y => snd (fst y)) h = concat (repeat round n) /\ length (delivered 0 h) = n /\ ~ In None (delivered 0 h).
  Proof.
    induction n as [|n IH]; intros p s A; [exists [], s; split; [constructor|]; split; [reflexivity|]; split; [reflexivity|intros []]|].
    destruct (one_round _ _ A) as (s1 & R1 & h1 & s2 & R2 & A2 & M & D). destruct (IH _ _ A2) as (h & s' & R & M' & L & N).
    exists ((s, CNext t c i, Yield (tk p) one) :: h1 ++ h), s'. split; [exact (run_app _ _ _ _ _ R1 (run_app _ _ _ _ _ R2 R))|]. split.
    - cbn [map fst snd]. rewrite map_app, M, M'. reflexivity.
    - change ((s, CNext t c i, Yield (tk p) one) :: h1 ++ h) with (((s, CNext t c i, Yield (tk p) one) :: h1) ++ h).
      assert (X : forall a b, delivered 0 (a ++ b) = delivered 0 a ++ delivered 0 b) by (intros; unfold delivered; now rewrite map_app, concat_app). rewrite X, D. cbn [app length]. split; [now rewrite L|]. intros [J|J]; [discriminate|exact (N J)].
  Qed.
  Lemma prologue : exists h s, run st start h s /\ map (fun y => snd (fst y)) h = [CTerm u false; CLet x RNew; CIadd x u; CIter i x] /\ s_env s i = Some (VI 0) /\ at_round 0 s.
  Proof.
    destruct distinct as (D1 & D2 & D3 & D4 & D5 & D6 & D7 & D8 & D9 & D10).
    set (s1 := new_term u (mkTO false (mkTerm false [] []) one) start). set (s2 := new_expr x [] s1). set (s3 := add_in_place 0 (tk 0) one [] s2). set (s4 := new_iter i (mkIO 0 (Some 0) true) s3).
    assert (E2u : s_env s2 u = Some (VT 0)) by (cbn; rewrite upd_other by congruence; apply upd_same). assert (E2x : s_env s2 x = Some (VE 0)) by (cbn; apply upd_same).
    exists [(start, CTerm u false, Done); (s1, CLet x RNew, Done); (s2, CIadd x u, Done); (s3, CIter i x, Done)], s4. split.
    - econstructor; [exists Throw; split; [exact Logic.I|reflexivity]|discriminate|]. econstructor; [exists Throw; split; [exact Logic.I|reflexivity]|discriminate|].
      econstructor; [exists Throw; split; [exact Logic.I|]|discriminate|]. { cbn [exec]. rewrite E2x. unfold view. rewrite E2u. reflexivity. }
      econstructor; [exists Throw; split; [exact Logic.I|]|discriminate|constructor]. { cbn [exec]. change (s_env s3 x) with (s_env s2 x). rewrite E2x. reflexivity. }
    - split; [reflexivity|]. split; [cbn; apply upd_same|]. constructor; try reflexivity; cbn [s4 s_env new_iter]; [rewrite upd_other by congruence; exact E2u|rewrite upd_other by congruence; exact E2x|apply upd_same].
  Qed.
  Lemma endless : exists h0 s0, run st start h0 s0 /\ map (fun y => snd (fst y)) h0 = [CTerm u false; CLet x RNew; CIadd x u; CIter i x] /\ s_env s0 i = Some (VI 0) /\
    forall n, exists h s, run st s0 h s /\ map (fun y => snd (fst y)) h = concat (repeat [CNext t c i; CMut u (MOps [op]); CIadd x u] n) /\ length (delivered 0 h) = n /\ ~ In None (delivered 0 h).
  Proof. destruct prologue as (h & s & R & M & E & A). exists h, s. split; [exact R|]. split; [exact M|]. split; [exact E|]. intros n. exact (rounds n 0 s A). Qed.
End Endless.
