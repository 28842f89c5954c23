(** What one [add] does to an expression, structurally. *)
From Coq Require Import ZArith QArith List Bool Lia Sorted.
From Verif Require Import Res RationalModel RationalSpec RationalProofs CoreModel OrderProofs AlgebraModel AlgebraSpec AlgebraProofs.
Import ListNotations.

Section Cases.
  Context {K : Type} (lt eqb : K -> K -> bool) (W : swo lt eqb).

  Lemma mset_none_split k c m : mfind lt k m = None -> exists m1 m2, m = m1 ++ m2 /\ mset lt k c m = m1 ++ (k, c) :: m2.
  Proof.
    induction m as [|[k' c'] m IH]; simpl; intros H; [exists [], []; auto|].
    destruct (lt k' k) eqn:E1.
    - destruct (IH H) as (m1 & m2 & -> & ->). exists ((k', c') :: m1), m2. auto.
    - destruct (lt k k') eqn:E2; [exists [], ((k', c') :: m); auto|discriminate].
  Qed.
  Lemma mfind_some_split k c0 m : mfind lt k m = Some c0 -> exists m1 k' m2, m = m1 ++ (k', c0) :: m2 /\ eqb k' k = true /\
    (forall c, mset lt k c m = m1 ++ (k', c) :: m2) /\ merase lt k m = m1 ++ m2.
  Proof.
    induction m as [|[k' c'] m IH]; simpl; intros H; [discriminate|].
    destruct (lt k' k) eqn:E1.
    - destruct (IH H) as (m1 & k1 & m2 & -> & H1 & H2 & H3). exists ((k', c') :: m1), k1, m2. simpl.
      split; [reflexivity|split; [exact H1|split; [intros c; rewrite H2; reflexivity|rewrite H3; reflexivity]]].
    - destruct (lt k k') eqn:E2; [discriminate|]. injection H as ->.
      exists [], k', m. simpl. split; [reflexivity|split; [apply (swo_eq _ _ W); auto|auto]].
  Qed.

  (** [add k c]: nothing if [c] is 0, else a new entry, or an update of the entry whose key [== k]. *)
  Lemma madd_cases k c m :
    (rat_is0 c = true /\ madd lt k c m = m) \/
    (rat_is0 c = false /\ exists m1 m2, m = m1 ++ m2 /\ madd lt k c m = m1 ++ (k, c) :: m2) \/
    (rat_is0 c = false /\ exists m1 k' c' m2, m = m1 ++ (k', c') :: m2 /\ eqb k' k = true /\
       madd lt k c m = m1 ++ (if rat_is0 (rat_add c' c) then [] else [(k', rat_add c' c)]) ++ m2).
  Proof.
    unfold madd. destruct (rat_is0 c) eqn:E0; [auto|]. right.
    destruct (mfind lt k m) as [c0|] eqn:E.
    - right. split; [reflexivity|]. destruct (mfind_some_split _ _ _ E) as (m1 & k' & m2 & -> & H1 & H2 & H3).
      exists m1, k', c0, m2. split; [reflexivity|split; [exact H1|]].
      destruct (rat_is0 (rat_add c0 c)); [exact H3|apply H2].
    - left. split; [reflexivity|]. apply mset_none_split; assumption.
  Qed.

  (** Adding a larger key appends it. *)
  Lemma madd_last k c m : msorted lt (m ++ [(k, c)]) -> rat_is0 c = false -> madd lt k c m = m ++ [(k, c)].
  Proof.
    intros Hs Hc. unfold madd. rewrite Hc.
    assert (Hall : forall x, In x m -> lt (fst x) k = true).
    { unfold msorted in Hs. clear Hc. induction m as [|y m IH]; simpl; [tauto|]. simpl in Hs. inversion Hs as [|? ? H1 H2]; subst.
      intros x [->|Hx]; [|apply IH; assumption].
      rewrite Forall_forall in H2. apply (H2 (k, c)). apply in_or_app. right. left. reflexivity. }
    clear Hs. assert (mfind lt k m = None /\ mset lt k c m = m ++ [(k, c)]) as [-> ->]; [|reflexivity].
    induction m as [|[k' c'] m IH]; simpl; [auto|].
    pose proof (Hall (k', c') (or_introl eq_refl)) as H1. simpl in H1. rewrite H1.
    destruct IH as [-> ->]; [intros x Hx; apply Hall; right; exact Hx|auto].
  Qed.

  (** Any property of entries that an update of an [==] key keeps is kept by [add]. *)
  Lemma keys_madd_in k c m k' : In k' (map fst (madd lt k c m)) -> In k' (map fst m) \/ k' = k.
  Proof.
    destruct (madd_cases k c m) as [[_ ->]|[[_ (m1 & m2 & -> & ->)]|[_ (m1 & k1 & c1 & m2 & -> & _ & ->)]]]; [auto| |].
    - rewrite !map_app. simpl. rewrite !in_app_iff. simpl. intuition.
    - rewrite !map_app. simpl. rewrite !in_app_iff. destruct (rat_is0 _); simpl; intuition.
  Qed.
End Cases.
