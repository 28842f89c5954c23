From Coq Require Import ZArith QArith List Bool Arith Lia.
From Verif Require Import Res PartitionsModel RegistryModel CoreModel OrderProofs CombinatoricsModel CombinatoricsProofs RationalModel RationalSpec RationalProofs AlgebraModel AlgebraSpec AlgebraProofs
  SortModel SortSpec OperatorModel OperatorSpec OperatorProofs OperatorProofs3 AdjointModel CanonModel WickSearchModel DecModel WickEvalModel WickLinearSpec.
Import ListNotations.
Local Open Scope Z_scope.

(** ** Canonical factors *)
Lemma comb_op_canonical st free g f : canonical f -> canonical (comb_op st free g f).
Proof. unfold comb_op. generalize (range (num_spaces st)). intros l. revert f. induction l as [|s l IH]; intros f Hf; [exact Hf|]. cbn [fold_left]. apply IH. repeat (apply rat_mul_canonical; [|apply rat_of_Z_canonical]). exact Hf. Qed.
Lemma comb_contr_canonical st x c : canonical (fst x) -> canonical (fst (comb_contr st x c)).
Proof.
  unfold comb_contr. generalize (seq 0 (length c)). intros l. revert x. induction l as [|v l IH]; intros [f free] Hf; [exact Hf|]. cbn [fold_left]. apply IH. cbn [fst]. apply comb_op_canonical, Hf.
Qed.
Lemma cc_incr_pos c m : Forall (fun x => 1 <= snd x) m -> Forall (fun x => 1 <= snd x) (cc_incr c m).
Proof.
  induction m as [|[c' n] m IH]; intros H; cbn [cc_incr]; [repeat constructor; simpl; lia|]. inversion H as [|? ? H1 H2]; subst. simpl in H1.
  destruct (econ_ltb c c'); [constructor; [simpl; lia|auto]|]. destruct (econ_ltb c' c); constructor; auto. simpl. lia.
Qed.
Lemma count_pos cs : Forall (fun x => 1 <= snd x) (contraction_count cs).
Proof. unfold contraction_count. assert (G : forall m, Forall (fun x => 1 <= snd x) m -> Forall (fun x => 1 <= snd x) (fold_left (fun m c => cc_incr c m) cs m)); [|apply G; constructor]. induction cs as [|c cs IH]; intros m H; [exact H|]. cbn [fold_left]. apply IH, cc_incr_pos, H. Qed.
Lemma binomial_1 n : 1 <= n -> 0 < binomial n 1.
Proof.
  intros H. destruct (Z_of_nat_complete n ltac:(lia)) as (k & ->). change 1 with (Z.of_nat 1). rewrite binomial_choose by lia.
  destruct k as [|k]; [lia|]. cbn [choose]. assert (choose k 0 = 1%nat) as -> by (destruct k; reflexivity). lia.
Qed.
Lemma combinatorial_canonical st ops cs : canonical (combinatorial_factor st ops cs).
Proof.
  unfold combinatorial_factor. assert (H : forall x, canonical (fst x) -> canonical (fst (fold_left (comb_contr st) cs x))).
  { induction cs as [|c cs IH]; intros x Hx; [exact Hx|]. cbn [fold_left]. apply IH, comb_contr_canonical, Hx. }
  specialize (H (rat_of_Z 1, map op_gm ops) (rat_of_Z_canonical 1)). destruct (fold_left (comb_contr st) cs (rat_of_Z 1, map op_gm ops)) as [f free]. cbn [fst] in H. revert f H. assert (P := count_pos cs). induction P as [|[c n] m Hn P IH]; intros f Hf; [exact Hf|].
  cbn [fold_left]. apply IH. apply rat_div_canonical; auto using rat_of_Z_canonical. cbn [snd] in *. unfold rat_of_Z. cbn [num]. apply binomial_1, Hn.
Qed.
Lemma factors_canonical st ops : forall f, canonical f -> canonical (fold_left (fun f o => rat_mul f (op_factor st o)) ops f).
Proof. induction ops as [|o ops IH]; intros f Hf; [exact Hf|]. cbn [fold_left]. apply IH. apply rat_mul_canonical; auto. apply op_factor_val. Qed.

Lemma rat_mul_ac a b c : canonical a -> canonical b -> canonical c -> rat_mul (rat_mul a b) c = rat_mul (rat_mul a c) b.
Proof.
  intros A B C. apply canonical_val_inj; auto using rat_mul_canonical. assert (canonical (rat_mul a b)) by auto using rat_mul_canonical. assert (canonical (rat_mul a c)) by auto using rat_mul_canonical.
  rewrite !rat_mul_val by auto using canonical_den. ring.
Qed.
Lemma rat_mul_assoc a b c : canonical a -> canonical b -> canonical c -> rat_mul (rat_mul a b) c = rat_mul a (rat_mul b c).
Proof.
  intros A B C. apply canonical_val_inj; auto using rat_mul_canonical. assert (canonical (rat_mul a b)) by auto using rat_mul_canonical. assert (canonical (rat_mul b c)) by auto using rat_mul_canonical.
  rewrite !rat_mul_val by auto using canonical_den. ring.
Qed.
Lemma rat_mul_comm a b : canonical a -> canonical b -> rat_mul a b = rat_mul b a.
Proof. intros A B. apply canonical_val_inj; auto using rat_mul_canonical. rewrite !rat_mul_val by auto using canonical_den. ring. Qed.
Lemma factors_scale st ops : forall f c, canonical f -> canonical c -> fold_left (fun f o => rat_mul f (op_factor st o)) ops (rat_mul f c) = rat_mul (fold_left (fun f o => rat_mul f (op_factor st o)) ops f) c.
Proof.
  induction ops as [|o ops IH]; intros f c Hf Hc; [reflexivity|]. cbn [fold_left]. rewrite (rat_mul_ac f c) by (auto; apply op_factor_val). apply IH; auto. apply rat_mul_canonical; auto. apply op_factor_val.
Qed.

(** ** One contraction *)
Lemma eval_canonical st ops cs f t g : canonical f -> evaluate_contraction st ops cs f = Ok (t, g) -> canonical g.
Proof.
  intros Hf. unfold evaluate_contraction. destruct (contraction_tensors_sqops st ops) as [l| | |]; cbn [bind]; try discriminate. destruct (foldM _ _ cs) as [e| | |]; cbn [bind]; try discriminate.
  destruct (order_rest _ _ _ _) as [[ord pos]| | |]; cbn [bind]; try discriminate. intros E. injection E as <- <-. repeat apply rat_mul_canonical; auto using rat_of_Z_canonical, factors_canonical, combinatorial_canonical.
Qed.
Lemma eval_scale st ops cs f c : canonical f -> canonical c -> evaluate_contraction st ops cs (rat_mul f c) = bind (evaluate_contraction st ops cs f) (fun x => Ok (fst x, rat_mul (snd x) c)).
Proof.
  intros Hf Hc. unfold evaluate_contraction. destruct (contraction_tensors_sqops st ops) as [l| | |]; cbn [bind]; try reflexivity. destruct (foldM _ _ cs) as [e| | |]; cbn [bind]; try reflexivity.
  destruct (order_rest _ _ _ _) as [[ord pos]| | |]; cbn [bind]; try reflexivity. cbn [fst snd]. rewrite factors_scale by auto. do 2 f_equal.
  set (F := fold_left _ ops f). assert (CF : canonical F) by apply factors_canonical, Hf. set (S := rat_of_Z _). assert (CS : canonical S) by apply rat_of_Z_canonical. set (K := combinatorial_factor st ops cs). assert (CK : canonical K) by apply combinatorial_canonical.
  rewrite <- (rat_mul_assoc S F c) by auto. apply rat_mul_ac; auto using rat_mul_canonical.
Qed.
Definition scale_list (c : rational) (r : res (list (term * rational))) : res (list (term * rational)) := bind r (fun l => Ok (map (fun x => (fst x, rat_mul (snd x) c)) l)).
Definition out_canonical (r : res (list (term * rational))) : Prop := forall l, r = Ok l -> Forall (fun x => canonical (snd x)) l.
Lemma single_scale o st els ops f c minrank maxrank cv r : canonical f -> canonical c -> process_single o st els ops f minrank maxrank cv r ->
  process_single o st els ops (rat_mul c f) minrank maxrank cv (scale_list c r) /\ out_canonical r.
Proof.
  intros Hf Hc H. unfold process_single in *. cbn zeta in *. destruct ((minrank <=? ops_rank ops - con_rank els cv) && (ops_rank ops - con_rank els cv <=? maxrank)).
  - destruct H as (bops & bcs & s & canon & G & K & ->). assert (Cs : canonical (rat_of_Z s)) by apply rat_of_Z_canonical.
    assert (E : rat_mul (rat_mul c f) (rat_of_Z s) = rat_mul (rat_mul f (rat_of_Z s)) c) by (rewrite (rat_mul_comm c f) by auto; apply rat_mul_ac; auto).
    split.
    + exists bops, bcs, s, canon. split; [exact G|]. rewrite E, eval_scale by auto using rat_mul_canonical. split.
      * intros t g Eg. destruct (evaluate_contraction st bops bcs (rat_mul f (rat_of_Z s))) as [[t' g']| | |]; cbn [bind] in Eg; try discriminate. injection Eg as <- <-. eapply K. reflexivity.
      * destruct (evaluate_contraction st bops bcs (rat_mul f (rat_of_Z s))) as [[t' g']| | |] eqn:Ev; cbn [bind scale_list fst snd]; try reflexivity. destruct canon as [[t2 s2]| | |]; cbn [bind scale_list map fst snd]; try reflexivity.
        unfold scale_list. cbn [bind map fst snd]. rewrite rat_mul_assoc; auto using rat_of_Z_canonical. eapply eval_canonical; [|exact Ev]. auto using rat_mul_canonical.
    + intros l El. destruct (evaluate_contraction st bops bcs (rat_mul f (rat_of_Z s))) as [[t' g']| | |] eqn:Ev; cbn [bind] in El; try discriminate. destruct canon as [[t2 s2]| | |]; cbn [bind] in El; try discriminate. injection El as <-.
      constructor; [|constructor]. cbn [snd]. apply rat_mul_canonical; [apply rat_of_Z_canonical|]. eapply eval_canonical; [|exact Ev]. auto using rat_mul_canonical.
  - subst r. split; [reflexivity|]. intros l E. injection E as <-. constructor.
Qed.

(** ** Sums *)
Section Scale.
  Context (c : rational).
  Hypothesis Hc : canonical c.
  Hypothesis Hn : ~ (Qval c == 0)%Q.
  Lemma is0_scale x : canonical x -> rat_is0 (rat_mul x c) = rat_is0 x.
  Proof.
    intros Hx. destruct (rat_is0 x) eqn:E.
    - apply rat_is0_val; [apply canonical_den; auto using rat_mul_canonical|]. apply rat_is0_val in E; [|apply canonical_den; auto]. rewrite rat_mul_val by (apply canonical_den; auto). rewrite E. ring.
    - apply rat_is0_val_f; [apply canonical_den; auto using rat_mul_canonical|]. apply rat_is0_val_f in E; [|apply canonical_den; auto]. rewrite rat_mul_val by (apply canonical_den; auto). intros X. apply Qmult_integral in X. tauto.
  Qed.
  Lemma add_scale x y : canonical x -> canonical y -> rat_add (rat_mul x c) (rat_mul y c) = rat_mul (rat_add x y) c.
  Proof.
    intros Hx Hy. apply canonical_val_inj; auto using rat_mul_canonical, rat_add_canonical.
    rewrite rat_add_val, !rat_mul_val, rat_add_val by (apply canonical_den; auto using rat_mul_canonical, rat_add_canonical). ring.
  Qed.
  Context {K : Type} (lt eqb : K -> K -> bool) (H : swo lt eqb).
  Lemma mfind_scale k (m : emap K) : mfind lt k (mscale m c) = option_map (fun x => rat_mul x c) (mfind lt k m).
  Proof. induction m as [|[k' x] m IH]; [reflexivity|]. cbn [mscale map mfind fst snd]. destruct (lt k' k); [exact IH|]. destruct (lt k k'); reflexivity. Qed.
  Lemma mset_scale k x (m : emap K) : mset lt k (rat_mul x c) (mscale m c) = mscale (mset lt k x m) c.
  Proof. induction m as [|[k' y] m IH]; [reflexivity|]. cbn [mscale map mset fst snd]. destruct (lt k' k); [cbn [mscale map fst snd]; f_equal; exact IH|]. destruct (lt k k'); reflexivity. Qed.
  Lemma merase_scale k (m : emap K) : merase lt k (mscale m c) = mscale (merase lt k m) c.
  Proof. induction m as [|[k' y] m IH]; [reflexivity|]. cbn [mscale map merase fst snd]. destruct (lt k' k); [cbn [mscale map fst snd]; f_equal; exact IH|]. destruct (lt k k'); reflexivity. Qed.
  Lemma madd_scale k x (m : emap K) : canonical x -> mcanon m -> madd lt k (rat_mul x c) (mscale m c) = mscale (madd lt k x m) c.
  Proof.
    intros Hx Hm. unfold madd. rewrite is0_scale by auto. destruct (rat_is0 x); [reflexivity|]. rewrite mfind_scale. destruct (mfind lt k m) as [y|] eqn:E; cbn [option_map]; [|apply mset_scale].
    assert (Hy : canonical y) by (eapply (find_forall lt eqb H canonical); eauto). cbv zeta. rewrite add_scale, is0_scale by auto using rat_add_canonical. destruct (rat_is0 (rat_add y x)); [apply merase_scale|apply mset_scale].
  Qed.
  Lemma mplus_scale (l : list (K * rational)) : forall m, Forall (fun x => canonical (snd x)) l -> mcanon m ->
    mplus lt (mscale m c) (map (fun x => (fst x, rat_mul (snd x) c)) l) = mscale (mplus lt m l) c /\ mcanon (mplus lt m l).
  Proof.
    unfold mplus. induction l as [|[k x] l IH]; intros m Hl Hm; [split; auto|]. inversion Hl as [|? ? Hx Hl']; subst. cbn [snd] in Hx. cbn [map fold_left fst snd]. rewrite madd_scale by auto. apply IH; auto. eapply mcanon_madd; eauto.
  Qed.
End Scale.

Lemma outcomes_scale c rs : canonical c -> ~ (Qval c == 0)%Q -> Forall out_canonical rs -> forall acc, mcanon acc ->
  foldM add_outcome (mscale acc c) (map (scale_list c) rs) = scaled (foldM add_outcome acc rs) c /\ forall e, foldM add_outcome acc rs = Ok e -> mcanon e.
Proof.
  intros Hc Hn. induction rs as [|r rs IH]; intros F acc Ha; [split; [reflexivity|]; intros e E; injection E as <-; auto|]. inversion F as [|? ? Hr F']; subst. cbn [foldM map].
  destruct r as [l| | |]; try (split; [reflexivity|intros e E; discriminate]).
  change (add_outcome (mscale acc c) (scale_list c (Ok l))) with (Ok (mplus term_ltb (mscale acc c) (map (fun x => (fst x, rat_mul (snd x) c)) l)) : res expression).
  change (add_outcome acc (Ok l)) with (Ok (mplus term_ltb acc l) : res expression). cbn [bind].
  destruct (mplus_scale c Hc Hn term_ltb term_eqb swo_term l acc (Hr l eq_refl) Ha) as (E & Cm). rewrite E. apply IH; auto.
Qed.
Lemma process_scale o st els cvs ops f c minrank maxrank r : canonical f -> canonical c -> ~ (Qval c == 0)%Q ->
  process_contractions o st els cvs ops f minrank maxrank r ->
  process_contractions o st els cvs ops (rat_mul c f) minrank maxrank (scaled r c) /\ forall e, r = Ok e -> mcanon e.
Proof.
  intros Hf Hc Hn (rs & F & ->). assert (X : Forall out_canonical rs) by (clear - F Hf Hc; induction F as [|? ? ? ? Hx]; [apply Forall_nil|apply Forall_cons; [exact (proj2 (single_scale _ _ _ _ _ _ _ _ _ _ Hf Hc Hx))|assumption]]).
  destruct (outcomes_scale c rs Hc Hn X [] ltac:(constructor)) as (E & C). split; [|exact C]. exists (map (scale_list c) rs). split; [|rewrite <- E; reflexivity].
  clear - F Hf Hc. induction F as [|? ? ? ? Hx]; cbn [map]; [apply Forall2_nil|apply Forall2_cons; [exact (proj1 (single_scale _ _ _ _ _ _ _ _ _ _ Hf Hc Hx))|assumption]].
Qed.
Lemma contract_scale o st f c ops minrank maxrank r : canonical f -> canonical c -> ~ (Qval c == 0)%Q ->
  contract o st f ops minrank maxrank r -> contract o st (rat_mul c f) ops minrank maxrank (scaled r c) /\ forall e, r = Ok e -> mcanon e.
Proof.
  intros Hf Hc Hn (fuel & H & N). unfold contract_run in H. unfold contract, contract_run. destruct (search fuel o st ops minrank maxrank) as [[els cvs]| | |] eqn:E.
  - destruct (process_scale o st els cvs ops f c minrank maxrank r Hf Hc Hn H) as (A & B). split; [exists fuel; rewrite E; split; [exact A|discriminate]|exact B].
  - subst r. split; [exists fuel; rewrite E; split; [reflexivity|discriminate]|discriminate].
  - subst r. split; [exists fuel; rewrite E; split; [reflexivity|discriminate]|discriminate].
  - congruence.
Qed.
Lemma scaled_inv r c d : canonical c -> canonical d -> (Qval c * Qval d == 1)%Q -> (forall e, r = Ok e -> mcanon e) -> scaled (scaled r c) d = r.
Proof.
  intros Hc Hd E Cr. destruct r as [e| | |]; cbn [scaled bind]; try reflexivity. specialize (Cr e eq_refl). unfold scaled. cbn [bind]. f_equal. unfold mscale. rewrite map_map. cbn [fst snd]. unfold mcanon in Cr.
  induction Cr as [|[k x] e Hx Cr IH]; [reflexivity|]. cbn [map fst snd]. f_equal; [|exact IH]. f_equal. cbn [snd] in Hx. apply canonical_val_inj; auto using rat_mul_canonical.
  assert (canonical (rat_mul x c)) by auto using rat_mul_canonical. rewrite !rat_mul_val by auto using canonical_den. rewrite <- Qmult_assoc, E. ring.
Qed.
Lemma contract_scale_iff o st f c ops minrank maxrank r : canonical f -> canonical c -> ~ (Qval c == 0)%Q ->
  contract o st (rat_mul c f) ops minrank maxrank r <-> exists r0, contract o st f ops minrank maxrank r0 /\ r = scaled r0 c.
Proof.
  intros Hf Hc Hn. split; [|intros (r0 & H & ->); apply contract_scale; auto]. intros H.
  set (d := rat_make (den c) (num c)). assert (Nc : num c <> 0) by (intros X; apply Hn; apply Qval0_num; auto using canonical_den).
  assert (Hd : canonical d) by (apply rat_make_canonical; auto). assert (Vd : (Qval c * Qval d == 1)%Q).
  { unfold d. rewrite rat_make_val by auto. unfold Qval. assert (den c <> 0) by auto using canonical_den. field. split; intros X; unfold Qeq in X; simpl in X; lia. }
  assert (Nd : ~ (Qval d == 0)%Q) by (intros X; rewrite X in Vd; revert Vd; unfold Qeq; simpl; lia).
  destruct (contract_scale o st (rat_mul c f) d ops minrank maxrank r ltac:(auto using rat_mul_canonical) Hd Nd H) as (A & B).
  replace (rat_mul d (rat_mul c f)) with f in A.
  - exists (scaled r d). split; auto. symmetry. apply scaled_inv; auto. rewrite Qmult_comm. exact Vd.
  - assert (canonical (rat_mul c f)) by auto using rat_mul_canonical. apply canonical_val_inj; auto using rat_mul_canonical. rewrite !rat_mul_val by auto using canonical_den. rewrite Qmult_assoc, (Qmult_comm (Qval d)), Vd. ring.
Qed.

(** ** Operator expressions *)
Definition res_canonical (r : res expression) : Prop := forall e, r = Ok e -> mcanon e.
Lemma rat_one_mul c : canonical c -> rat_mul c (rat_of_Z 1) = c.
Proof. intros Hc. apply canonical_val_inj; auto using rat_mul_canonical, rat_of_Z_canonical. rewrite rat_mul_val, rat_of_Z_val by auto using canonical_den, rat_of_Z_canonical. ring. Qed.
Lemma resolved_canonical o st minrank maxrank P R : resolves o st minrank maxrank P R -> forall ops, P ops -> res_canonical (R ops).
Proof.
  intros H ops Hp. assert (N : ~ (Qval (rat_of_Z 1) == 0)%Q) by (rewrite rat_of_Z_val; unfold Qeq; simpl; lia).
  exact (proj2 (contract_scale o st (rat_of_Z 1) (rat_of_Z 1) ops minrank maxrank (R ops) (rat_of_Z_canonical 1) (rat_of_Z_canonical 1) N (H ops Hp))).
Qed.
Lemma sum_outcome o st minrank maxrank P R factor e : resolves o st minrank maxrank P R -> keysP P e -> canonical factor -> ~ (Qval factor == 0)%Q -> mcanon e -> mnz e ->
  contract_expr o st factor e minrank maxrank (sum_of R factor e).
Proof.
  intros HR HP Hf Hn Hc Hz. exists (map (fun x => scaled (R (fst x)) (rat_mul factor (snd x))) e). split; [|reflexivity].
  unfold mcanon, mnz, keysP in *. induction e as [|[ops x] e IH]; cbn [map]; [constructor|]. inversion HP as [|? ? P1 P2]; subst. inversion Hc as [|? ? C1 C2]; subst. inversion Hz as [|? ? Z1 Z2]; subst. cbn [fst snd] in *. constructor; auto. cbn [fst snd].
  assert (Cx : canonical (rat_mul factor x)) by auto using rat_mul_canonical. assert (Nx : ~ (Qval (rat_mul factor x) == 0)%Q).
  { rewrite rat_mul_val by auto using canonical_den. intros X. apply Qmult_integral in X. tauto. }
  replace (rat_mul factor x) with (rat_mul (rat_mul factor x) (rat_of_Z 1)) at 1 by (apply rat_one_mul; auto). apply contract_scale; auto using rat_of_Z_canonical.
Qed.
Lemma coef_respects k : respects term_eqb (fun _ => True) (ind term_eqb k).
Proof.
  intros a b _ _ E. unfold ind. assert (S := swo_term). destruct (term_eqb a k) eqn:Ea, (term_eqb b k) eqn:Eb; try reflexivity; exfalso.
  - assert (X : term_eqb b k = true) by (eapply (swo_eqtrans _ _ S); [eapply (swo_eqsym _ _ S); eauto|exact Ea]). congruence.
  - assert (X : term_eqb a k = true) by (eapply (swo_eqtrans _ _ S); eauto). congruence.
Qed.
Lemma keys_true {K} (m : emap K) : keysP (fun _ => True) m.
Proof. apply Forall_forall. auto. Qed.
Definition good_res (r : res expression) : Prop := forall e, r = Ok e -> mcanon e.
Lemma sum_coef rs k : Forall good_res rs -> forall acc e, mcanon acc -> foldM add_result acc rs = Ok e ->
  (coef term_eqb e k == coef term_eqb acc k + fold_right (fun r s => match r with Ok x => coef term_eqb x k + s | _ => s end) 0 rs)%Q /\ mcanon e.
Proof.
  induction rs as [|r rs IH]; intros G acc e Ha E; [injection E as <-; split; [cbn; ring|exact Ha]|]. inversion G as [|? ? G1 G2]; subst. cbn [foldM] in E. unfold add_result at 1 in E. destruct r as [x| | |]; cbn [bind] in E; try discriminate.
  assert (Cx : mcanon x) by (apply G1; reflexivity). assert (Cm : mcanon (mplus term_ltb acc x)).
  { assert (W : forall l (m : expression), Forall (fun x => canonical (snd x)) l -> mcanon m -> mcanon (mplus term_ltb m l)); [|apply W; auto]. clear. induction l as [|[t c] l IH]; intros m Hl Hm; [exact Hm|]. inversion Hl; subst. unfold mplus. cbn [fold_left fst snd]. apply IH; auto. eapply mcanon_madd; eauto using swo_term. }
  destruct (IH G2 (mplus term_ltb acc x) e Cm E) as (E1 & E2). split; [|exact E2]. rewrite E1. unfold coef at 1. rewrite (lsum_mplus term_ltb term_eqb swo_term (fun _ => True)); auto using keys_true, coef_respects, mcanon_good.
  cbn [fold_right]. unfold coef. ring.
Qed.
Lemma foldM_add_ok rs : forall acc, (exists e, foldM add_result acc rs = Ok e) <-> Forall (fun r => exists e, r = Ok e) rs.
Proof.
  induction rs as [|r rs IH]; intros acc; cbn [foldM]; [split; [constructor|eauto]|]. unfold add_result at 1. destruct r as [x| | |]; cbn [bind]; try (split; [intros (e & X); discriminate|intros X; inversion X as [|? ? (e & Y) ?]; discriminate]).
  rewrite IH. split; [intros X; constructor; eauto|intros X; inversion X; auto].
Qed.
Lemma scaled_good r c : good_res r -> canonical c -> good_res (scaled r c).
Proof. intros G Hc e E. destruct r as [x| | |]; cbn [scaled bind] in E; try discriminate. injection E as <-. apply mcanon_mscale; auto. Qed.
(** The coefficient of a term, as a linear functional of the operator expression. *)
Definition unit_coef (R : oprod -> res expression) (k : term) (ops : oprod) : Q := match R ops with Ok x => coef term_eqb x k | _ => 0%Q end.
Lemma sum_value R factor e r k : keysP (fun ops => good_res (R ops)) e -> canonical factor -> mcanon e -> sum_of R factor e = Ok r ->
  (coef term_eqb r k == Qval factor * lsum (unit_coef R k) e)%Q.
Proof.
  intros G Hf Hc E. unfold sum_of in E. assert (Gs : Forall good_res (map (fun x => scaled (R (fst x)) (rat_mul factor (snd x))) e)).
  { clear E. induction Hc; cbn [map]; constructor; inversion G; subst; auto. apply scaled_good; auto using rat_mul_canonical. }
  destruct (sum_coef _ k Gs [] r ltac:(constructor) E) as (E1 & _). rewrite E1. clear E1. assert (Ok' : Forall (fun r => exists e, r = Ok e) (map (fun x => scaled (R (fst x)) (rat_mul factor (snd x))) e)) by (apply (foldM_add_ok _ []); eauto). clear E.
  change (coef term_eqb [] k) with 0%Q. rewrite Qplus_0_l. induction Hc as [|[ops x] e Hx Hc IH]; cbn [map fold_right lsum fst snd]; [ring|]. cbn [map] in *. inversion G as [|? ? G1 G2]; subst. cbn [fst] in G1. inversion Gs; subst. inversion Ok' as [|? ? (y & Y) Ok'']; subst.
  fold (lsum (unit_coef R k) e). match goal with IH : ?a -> ?b -> ?c -> Qeq ?x ?y |- _ => assert (IH' : Qeq x y) by (apply IH; auto) end. clear IH. cbn [fst snd] in *. unfold unit_coef at 1. destruct (R ops) as [z| | |] eqn:Ez; cbn [scaled bind] in *; try discriminate. unfold scaled at 1. cbn [bind]. rewrite IH'. unfold coef at 1.
  rewrite lsum_mscale by (auto using mcanon_good, canonical_den, rat_mul_canonical; apply mcanon_good, G1; auto). rewrite rat_mul_val by auto using canonical_den. unfold coef. ring.
Qed.
Lemma sum_ok R factor e : (exists r, sum_of R factor e = Ok r) <-> Forall (fun x => exists y, R (fst x) = Ok y) e.
Proof.
  unfold sum_of. rewrite foldM_add_ok, !Forall_forall. split; intros H x Hx.
  - destruct (H (scaled (R (fst x)) (rat_mul factor (snd x)))) as (e' & E'); [apply in_map_iff; eauto|]. destruct (R (fst x)) as [y| | |]; cbn in E'; try discriminate. eauto.
  - apply in_map_iff in Hx. destruct Hx as (y & <- & Hy). destruct (H y Hy) as (z & ->). cbn. eauto.
Qed.
Lemma additive o st minrank maxrank P0 R factor e1 e2 r1 r2 : resolves o st minrank maxrank P0 R -> keysP P0 e1 -> keysP P0 e2 -> canonical factor -> mcanon e1 -> mcanon e2 ->
  sum_of R factor e1 = Ok r1 -> sum_of R factor e2 = Ok r2 ->
  exists r, sum_of R factor (mplus oprod_ltb e1 e2) = Ok r /\ forall t, (coef term_eqb r t == coef term_eqb r1 t + coef term_eqb r2 t)%Q.
Proof.
  intros HR HP1 HP2 Hf C1 C2 E1 E2. assert (G := resolved_canonical o st minrank maxrank P0 R HR). assert (G' : forall e, keysP P0 e -> keysP (fun ops => good_res (R ops)) e) by (intros e He; unfold keysP in *; eapply Forall_impl; [|exact He]; intros a Ha; apply G, Ha).
  assert (HP : keysP P0 (mplus oprod_ltb e1 e2)) by (apply keysP_mplus; auto). set (P := fun ops : oprod => exists y, R ops = Ok y).
  assert (K1 : keysP P e1) by (apply (sum_ok R factor); eauto). assert (K2 : keysP P e2) by (apply (sum_ok R factor); eauto).
  assert (K : keysP P (mplus oprod_ltb e1 e2)) by (apply keysP_mplus; auto). destruct (proj2 (sum_ok R factor (mplus oprod_ltb e1 e2)) K) as (r & E).
  assert (Cm : mcanon (mplus oprod_ltb e1 e2)).
  { assert (W : forall l (m : opexpr), Forall (fun x => canonical (snd x)) l -> mcanon m -> mcanon (mplus oprod_ltb m l)); [|apply W; auto]. clear. induction l as [|[t c] l IH]; intros m Hl Hm; [exact Hm|]. inversion Hl; subst. unfold mplus. cbn [fold_left fst snd]. apply IH; auto. eapply mcanon_madd; eauto using swo_oprod. }
  exists r. split; auto. intros t. rewrite (sum_value R factor _ r t (G' _ HP) Hf Cm E), (sum_value R factor _ r1 t (G' _ HP1) Hf C1 E1), (sum_value R factor _ r2 t (G' _ HP2) Hf C2 E2).
  rewrite (lsum_mplus oprod_ltb oprod_eqb swo_oprod P); auto using mcanon_good; [ring|]. intros a b _ _ Eab. apply oprod_eqb_eq in Eab. subst. reflexivity.
Qed.
