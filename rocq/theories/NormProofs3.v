(** Proofs for C68: negation. *)
From Coq Require Import ZArith QArith List Bool Lia Sorting.
From Verif Require Import Res RationalModel RationalSpec RationalProofs CoreModel AlgebraModel AlgebraSpec AlgebraProofs AlgebraProofs2 OrderProofs DecimalModel NormModel.
Import ListNotations.

Section Neg.
  Context {K : Type} (lt : K -> K -> bool).
  Lemma append_last k c (m : emap K) : Forall (fun x => lt (fst x) k = true) m -> rat_is0 c = false -> madd lt k c m = m ++ [(k, c)].
  Proof.
    intros F Z0. unfold madd. rewrite Z0. assert (X : mfind lt k m = None /\ mset lt k c m = m ++ [(k, c)]).
    { induction F as [|[k' c'] m H F IH]; [now split|]. cbn [fst mfind mset app] in *. rewrite H. destruct IH as (-> & ->). now split. }
    destruct X as (-> & X). exact X.
  Qed.
  Lemma neg_map (m : emap K) : msorted lt m -> Forall (fun x => rat_is0 (rat_neg (snd x)) = false) m -> mneg lt m = map (fun x => (fst x, rat_neg (snd x))) m.
  Proof.
    unfold mneg. assert (G : forall m acc, msorted lt m -> Forall (fun x => rat_is0 (rat_neg (snd x)) = false) m -> (forall a b, In a acc -> In b m -> lt (fst a) (fst b) = true) ->
      fold_left (fun r x => madd lt (fst x) (rat_neg (snd x)) r) m acc = acc ++ map (fun x => (fst x, rat_neg (snd x))) m).
    { clear m. induction m as [|x m IH]; intros acc S F A; cbn [fold_left map]; [now rewrite app_nil_r|]. inversion S as [|? ? S' L]; subst. inversion F; subst.
      assert (L1 : Forall (fun y => lt (fst y) (fst x) = true) acc) by (apply Forall_forall; intros a Ha; apply (A a x Ha); now left).
      rewrite (append_last _ _ _ L1 H1), (IH _ S' H2); [rewrite <- app_assoc; reflexivity|]. intros a b Ha Hb. apply in_app_iff in Ha. destruct Ha as [Ha|[<-|[]]]; [apply (A a b Ha); now right|]. cbn. rewrite Forall_forall in L. now apply L. }
    intros S F. rewrite (G m []); auto.
  Qed.
End Neg.
Lemma square_neg c : canonical c -> rat_mul (rat_neg c) (rat_neg c) = rat_mul c c.
Proof.
  intros C. assert (D : (den c <> 0)%Z) by (destruct C; lia). assert (D' : (den (rat_neg c) <> 0)%Z) by (destruct (rat_neg_canonical c C); lia).
  apply canonical_val_inj; [apply rat_mul_canonical; apply rat_neg_canonical, C|apply rat_mul_canonical; exact C|]. rewrite !rat_mul_val, rat_neg_val by auto. ring.
Qed.
Lemma norm_neg (e : expression) : wf term_ltb e -> norm (mneg term_ltb e) = norm e.
Proof.
  intros (S & C & N). rewrite neg_map; [|auto|].
  - unfold norm, norm_sum. f_equal. generalize 0%Q. clear S N. induction C as [|x m H C IH]; intros r; cbn [fold_left map fst snd]; [reflexivity|]. rewrite square_neg by auto. apply IH.
  - clear S. apply Forall_forall. intros x Hx. unfold mnz in N; rewrite Forall_forall in N. specialize (N x Hx). cbn in N. unfold mcanon in C; rewrite Forall_forall in C. specialize (C x Hx). cbn in C. destruct (rat_is0 (rat_neg (snd x))) eqn:E; auto. exfalso. assert (C' := rat_neg_canonical _ C). apply rat_is0_val in E; [|destruct C'; lia].
    rewrite rat_neg_val in E by (destruct C; lia). apply N. rewrite <- (Qopp_involutive (Qval (snd x))), E. reflexivity.
Qed.
