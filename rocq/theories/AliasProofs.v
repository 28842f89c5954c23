(** Proofs for C69. *)
From Coq Require Import ZArith QArith List Bool Lia Sorting.
From Verif Require Import Res RationalModel RationalSpec RationalProofs CoreModel AlgebraModel AlgebraSpec AlgebraProofs AlgebraProofs2 OrderProofs AliasModel.
Import ListNotations.
Local Open Scope Q_scope.

Section P.
  Context {K : Type} (lt eqb : K -> K -> bool) (H : swo lt eqb).
  Lemma sorted_mid (p : emap K) k c r : msorted lt (p ++ (k, c) :: r) -> Forall (fun x => lt (fst x) k = true) p /\ Forall (fun x => lt k (fst x) = true) r.
  Proof.
    induction p as [|x p IH]; cbn [app]; intros S; inversion S as [|? ? S' F]; subst.
    - split; [constructor|]. exact F.
    - destruct (IH S') as (A & B). split; auto. constructor; auto. rewrite Forall_forall in F. apply (F (k, c)). apply in_app_iff. right. now left.
  Qed.
  Lemma mid_find p k c r : Forall (fun x => lt (fst x) k = true) p -> mfind lt k (p ++ (k, c) :: r) = Some c.
  Proof. induction 1 as [|[k' c'] p L F IH]; cbn [app mfind fst] in *; [now rewrite (swo_irrefl _ _ H)|]. now rewrite L. Qed.
  Lemma mid_set p k c c' r : Forall (fun x => lt (fst x) k = true) p -> mset lt k c' (p ++ (k, c) :: r) = p ++ (k, c') :: r.
  Proof. induction 1 as [|[k' d] p L F IH]; cbn [app mset fst] in *; [now rewrite (swo_irrefl _ _ H)|]. now rewrite L, IH. Qed.
  Lemma mid_erase p k c r : Forall (fun x => lt (fst x) k = true) p -> merase lt k (p ++ (k, c) :: r) = p ++ r.
  Proof. induction 1 as [|[k' d] p L F IH]; cbn [app merase fst] in *; [now rewrite (swo_irrefl _ _ H)|]. now rewrite L, IH. Qed.
  Lemma mid_gone p k r : Forall (fun x => lt (fst x) k = true) p -> Forall (fun x => lt k (fst x) = true) r -> mfind lt k (p ++ r) = None.
  Proof.
    induction 1 as [|[k' d] p L F IH]; cbn [app mfind fst] in *.
    - intros F. destruct r as [|[k' c'] r]; auto. inversion F as [|? ? L _]; subst. cbn in *. now rewrite (swo_asym lt eqb H _ _ L), L.
    - rewrite L. auto.
  Qed.
  Lemma mid_next p k c r : Forall (fun x => lt (fst x) k = true) p -> Forall (fun x => lt k (fst x) = true) r -> next_key lt k (p ++ (k, c) :: r) = first_key r.
  Proof.
    induction 1 as [|[k' d] p L F IH]; cbn [app next_key fst] in *.
    - rewrite (swo_irrefl _ _ H). intros F. destruct r as [|[k' c'] r]; auto. inversion F as [|? ? L _]; subst. cbn in *. now rewrite L.
    - rewrite (swo_asym lt eqb H _ _ L). auto.
  Qed.
  (** What becomes of one coefficient. *)
  Variable g : rational -> rational.
  Definition newc (c : rational) : rational := if rat_is0 (g c) then c else rat_add c (g c).
  Definition erased (c : rational) : Prop := rat_is0 (g c) = false /\ rat_is0 (rat_add c (g c)) = true.
  Let body := fun k c (m : emap K) => madd lt k (g c) m.
  Lemma body_keep p k c r : Forall (fun x => lt (fst x) k = true) p -> ~ erased c -> body k c (p ++ (k, c) :: r) = p ++ (k, newc c) :: r.
  Proof.
    intros F N. unfold body, madd, newc. destruct (rat_is0 (g c)) eqn:G; auto. rewrite mid_find by auto. destruct (rat_is0 (rat_add c (g c))) eqn:E; [exfalso; now apply N|]. now apply mid_set.
  Qed.
  Lemma body_erase p k c r : Forall (fun x => lt (fst x) k = true) p -> erased c -> body k c (p ++ (k, c) :: r) = p ++ r.
  Proof. intros F (A & B). unfold body, madd. rewrite A, mid_find, B by auto. now apply mid_erase. Qed.
  Lemma resort p k c c' r : msorted lt (p ++ (k, c) :: r) -> msorted lt (p ++ (k, c') :: r).
  Proof.
    induction p as [|x p IH]; cbn [app]; intros S; inversion S as [|? ? S' F]; subst.
    - constructor; auto.
    - constructor; [exact (IH S')|]. apply Forall_app in F. destruct F as (F1 & F2). inversion F2; subst. apply Forall_app. split; auto.
  Qed.
  Lemma walk_keep r : forall p n, msorted lt (p ++ r) -> Forall (fun x => ~ erased (snd x)) r -> (length r <= n)%nat ->
    walk lt body n (first_key r) (p ++ r) = Ok (p ++ map (fun x => (fst x, newc (snd x))) r).
  Proof.
    induction r as [|[k c] r IH]; intros p n S F L; cbn [first_key hd_error option_map fst snd map]; [destruct n; reflexivity|].
    destruct n as [|n]; [cbn in L; lia|]. cbn [length] in L. inversion F as [|? ? N F']; subst. cbn [snd] in N. destruct (sorted_mid _ _ _ _ S) as (A & B). cbn [walk].
    rewrite mid_find by auto. rewrite body_keep by auto. unfold mcontains. rewrite mid_find, mid_next by auto.
    replace (p ++ (k, newc c) :: r) with ((p ++ [(k, newc c)]) ++ r) by (rewrite <- app_assoc; reflexivity). rewrite IH; auto; [rewrite <- app_assoc; reflexivity| |lia].
    rewrite <- app_assoc. exact (resort _ _ _ _ _ S).
  Qed.
  Lemma walk_erase r : forall p n, msorted lt (p ++ r) -> Exists (fun x => erased (snd x)) r -> (length r <= n)%nat -> walk lt body n (first_key r) (p ++ r) = UB.
  Proof.
    induction r as [|[k c] r IH]; intros p n S E L; [inversion E|]. cbn [first_key hd_error option_map fst].
    destruct n as [|n]; [cbn in L; lia|]. cbn [length] in L. destruct (sorted_mid _ _ _ _ S) as (A & B). cbn [walk]. rewrite mid_find by auto. unfold mcontains.
    assert (D : erased c \/ ~ erased c) by (unfold erased; destruct (rat_is0 (g c)), (rat_is0 (rat_add c (g c))); (left; now split) || (right; intros (? & ?); discriminate)). destruct D as [D|D].
    - rewrite body_erase by auto. now rewrite mid_gone.
    - rewrite body_keep by auto. rewrite mid_find, mid_next by auto. replace (p ++ (k, newc c) :: r) with ((p ++ [(k, newc c)]) ++ r) by (rewrite <- app_assoc; reflexivity).
      apply IH; [rewrite <- app_assoc; exact (resort _ _ _ _ _ S)| |lia]. inversion E; subst; auto. exfalso. now apply D.
  Qed.
End P.

Section Ops.
  Context {K : Type} (lt eqb : K -> K -> bool) (H : swo lt eqb).
  Lemma cden c : canonical c -> den c <> 0%Z.
  Proof. intros (A & _). lia. Qed.
  Lemma wf_mcn (m : emap K) : wf lt m -> Forall (fun x => canonical (snd x) /\ ~ Qval (snd x) == 0) m.
  Proof. intros (_ & C & N). unfold mcanon, mnz in *. rewrite Forall_forall in *. intros x Hx. split; [now apply C|now apply N]. Qed.
  Lemma one_plus f c : canonical f -> canonical c -> ~ Qval f == -1 -> ~ Qval c == 0 -> ~ erased (fun c => rat_mul f c) c /\ newc (fun c => rat_mul f c) c = rat_mul c (rat_add (rat_of_Z 1) f).
  Proof.
    intros Cf Cc Nf Nc. assert (Cm := rat_mul_canonical _ _ Cf Cc). assert (C1 : canonical (rat_of_Z 1)) by (split; reflexivity). assert (V1 : Qval (rat_of_Z 1) == 1) by reflexivity.
    assert (Va : Qval (rat_add c (rat_mul f c)) == Qval c * (1 + Qval f)) by (rewrite rat_add_val, rat_mul_val by auto using cden; ring). split.
    - intros (_ & E). apply rat_is0_val in E; [|apply cden, rat_add_canonical; auto]. rewrite Va in E. apply Qmult_integral in E. destruct E as [E|E]; [auto|]. apply Nf. rewrite <- (Qplus_0_l (Qval f)). setoid_replace 0 with (- (1) + 1) by reflexivity. rewrite <- Qplus_assoc, E. reflexivity.
    - assert (C2 := rat_add_canonical _ _ C1 Cf). apply canonical_val_inj; [unfold newc; destruct (rat_is0 _); auto using rat_add_canonical|apply rat_mul_canonical; auto|].
      rewrite rat_mul_val by auto using cden. rewrite rat_add_val, V1 by auto using cden. unfold newc. destruct (rat_is0 (rat_mul f c)) eqn:E; [|exact Va].
      apply rat_is0_val in E; [|auto using cden]. rewrite rat_mul_val in E by auto using cden. setoid_replace (Qval c * (1 + Qval f)) with (Qval c + Qval f * Qval c) by ring. rewrite E. ring.
  Qed.
  Lemma self_scale f (m : emap K) n : wf lt m -> canonical f -> ~ Qval f == -1 -> (length m <= n)%nat -> self_add2 lt f n m = Ok (mscale m (rat_add (rat_of_Z 1) f)).
  Proof.
    intros W Cf Nf L. assert (X := walk_keep lt eqb H (fun c => rat_mul f c) m [] n (proj1 W)). cbn [app] in X. unfold self_add2, walk_self. rewrite X; auto.
    - f_equal. unfold mscale. apply map_ext_in. intros x Hx. assert (Y := wf_mcn m W). rewrite Forall_forall in Y. destruct (Y x Hx) as (C & N). f_equal. now apply one_plus.
    - assert (Y := wf_mcn m W). rewrite Forall_forall in *. intros x Hx. destruct (Y x Hx) as (C & N). now apply one_plus.
  Qed.
  Lemma self_kill g (m : emap K) n : wf lt m -> (forall c, canonical c -> canonical (g c) /\ Qval (g c) == - Qval c) -> m <> [] -> (length m <= n)%nat -> walk_self lt (fun k c m => madd lt k (g c) m) n m = UB.
  Proof.
    intros W G E L. assert (X := walk_erase lt eqb H g m [] n (proj1 W)). cbn [app] in X. unfold walk_self. apply X; auto. assert (Y := wf_mcn m W). destruct m as [|x m]; [congruence|]. inversion Y as [|? ? (C & N) _]; subst.
    destruct (G _ C) as (G1 & G2). constructor. split.
    - apply rat_is0_val_f; [auto using cden|]. rewrite G2. intros Z0. apply N. rewrite <- (Qopp_involutive (Qval (snd x))), Z0. reflexivity.
    - apply rat_is0_val; [apply cden, rat_add_canonical; auto|]. rewrite rat_add_val, G2 by auto using cden. ring.
  Qed.
  Lemma self_add2_kill f (m : emap K) n : wf lt m -> canonical f -> Qval f == -1 -> m <> [] -> (length m <= n)%nat -> self_add2 lt f n m = UB.
  Proof.
    intros W Cf E N L. apply (self_kill (fun c => rat_mul f c)); auto. intros c C. split; [now apply rat_mul_canonical|]. rewrite rat_mul_val, E by auto using cden. ring.
  Qed.
  Lemma self_minus_kill (m : emap K) n : wf lt m -> m <> [] -> (length m <= n)%nat -> self_minus lt n m = UB.
  Proof. intros W N L. apply (self_kill rat_neg); auto. intros c C. split; [now apply rat_neg_canonical|]. apply rat_neg_val. auto using cden. Qed.
  Lemma self_plus_double (m : emap K) n : wf lt m -> (length m <= n)%nat -> self_plus lt n m = Ok (mscale m (rat_of_Z 2)).
  Proof.
    intros W L. assert (Y := wf_mcn m W). assert (X := walk_keep lt eqb H (fun c => c) m [] n (proj1 W)). cbn [app] in X. unfold self_plus, walk_self. 
    assert (Z0 : forall c, canonical c -> ~ Qval c == 0 -> ~ erased (fun c => c) c /\ newc (fun c => c) c = rat_mul c (rat_of_Z 2)).
    { intros c C N. assert (C2 : canonical (rat_of_Z 2)) by (split; reflexivity). assert (Va : Qval (rat_add c c) == Qval c * 2) by (rewrite rat_add_val by auto using cden; ring).
      assert (Nz : rat_is0 c = false) by (apply rat_is0_val_f; auto using cden). split.
      - intros (_ & E). apply rat_is0_val in E; [|apply cden, rat_add_canonical; auto]. rewrite Va in E. apply Qmult_integral in E. destruct E as [E|E]; [auto|discriminate].
      - unfold newc. rewrite Nz. apply canonical_val_inj; [auto using rat_add_canonical|apply rat_mul_canonical; auto|]. rewrite Va, rat_mul_val by auto using cden. reflexivity. }
    rewrite X; auto.
    - f_equal. unfold mscale. apply map_ext_in. intros x Hx. rewrite Forall_forall in Y. destruct (Y x Hx) as (C & N). f_equal. now apply Z0.
    - rewrite Forall_forall in *. intros x Hx. destruct (Y x Hx) as (C & N). now apply Z0.
  Qed.
End Ops.
Section Ops2.
  Context {K : Type} (lt eqb : K -> K -> bool) (H : swo lt eqb).
  Lemma scale_coef (m : emap K) c k : wf lt m -> canonical c -> coef eqb (mscale m c) k == Qval c * coef eqb m k.
  Proof. intros (_ & C & _) Cc. unfold coef. rewrite lsum_mscale by auto using mcanon_good, cden. ring. Qed.
  Lemma add2_scales f (o : emap K) n : wf lt o -> canonical f -> ~ Qval f == -1 -> (length o <= n)%nat ->
    exists r, self_add2 lt f n o = Ok r /\ wf lt r /\ forall k, coef eqb r k == (1 + Qval f) * coef eqb o k.
  Proof.
    intros W Cf Nf L. assert (C1 : canonical (rat_of_Z 1)) by (split; reflexivity). assert (Ca := rat_add_canonical _ _ C1 Cf). assert (V : Qval (rat_add (rat_of_Z 1) f) == 1 + Qval f) by (rewrite rat_add_val by auto using cden; reflexivity).
    eexists. split; [now apply (self_scale lt eqb H)|]. split.
    - apply wf_mscale; auto. rewrite V. intros E. apply Nf. setoid_replace (Qval f) with (1 + Qval f - 1) by ring. rewrite E. reflexivity.
    - intros k. rewrite scale_coef by auto. now rewrite V.
  Qed.
  Lemma plus_doubles (e : emap K) n : wf lt e -> (length e <= n)%nat -> exists r, self_plus lt n e = Ok r /\ wf lt r /\ forall k, coef eqb r k == 2 * coef eqb e k.
  Proof.
    intros W L. assert (C2 : canonical (rat_of_Z 2)) by (split; reflexivity). eexists. split; [now apply (self_plus_double lt eqb H)|]. split; [apply wf_mscale; auto; discriminate|]. intros k. rewrite scale_coef by auto. reflexivity.
  Qed.
  Lemma mplus_nil_wf l : Forall (fun x => canonical (snd x)) l -> wf lt (mplus lt [] l).
  Proof.
    intros F. unfold mplus. assert (G : forall m, wf lt m -> wf lt (fold_left (fun r x => madd lt (fst x) (snd x) r) l m)); [|apply G; repeat split; constructor].
    induction F as [|x l X F IH]; intros m W; cbn [fold_left]; auto. apply IH. apply (wf_madd lt eqb H); auto.
  Qed.
End Ops2.
Lemma rat_self_exact r : canonical r -> canonical (rat_self_add r) /\ Qval (rat_self_add r) == 2 * Qval r /\ canonical (rat_self_sub r) /\ Qval (rat_self_sub r) == 0 /\
  canonical (rat_self_mul r) /\ Qval (rat_self_mul r) == Qval r * Qval r.
Proof.
  intros C. assert (D := cden r C). change (rat_self_add r) with (rat_add r r). change (rat_self_sub r) with (rat_sub r r). change (rat_self_mul r) with (rat_mul r r).
  split; [now apply rat_add_canonical|]. split; [rewrite rat_add_val by auto; ring|]. split; [now apply rat_sub_canonical|]. split; [rewrite rat_sub_val by auto; ring|]. split; [now apply rat_mul_canonical|]. now apply rat_mul_val.
Qed.
