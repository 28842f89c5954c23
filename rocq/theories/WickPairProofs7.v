(** C48: how often a contraction can be repeated. *)
From Coq Require Import ZArith List Lia Permutation.
From Verif Require Import Res RegistryModel CoreModel OperatorModel WickSearchModel WickSearchSpec CountSpec WickCombSpec WickCombProofs WickPairSpec.
Import ListNotations.
Local Open Scope Z_scope.

Lemma mult_total (f : econ -> Z) cs c : (forall d, In d cs -> 0 <= f d) -> f c = 1 -> Z.of_nat (mult cs c) <= total_of f cs.
Proof.
  intros H E. unfold mult. induction cs as [|d cs IH]; cbn [count_occ total_of fold_right]; [simpl; lia|]. fold (total_of f cs).
  specialize (IH (fun x Hx => H x (or_intror Hx))). assert (H0 := H d (or_introl eq_refl)). destruct (econ_dec d c) as [->|]; lia.
Qed.
Lemma links_mult st maxc ops cs : ops_ok st ops -> (forall s, is_space st s -> stype st s <> Some General) -> Forall (allowed st maxc ops) cs -> enough_legs st ops cs ->
  at_most_double st ops -> forall c, (mult cs c <= 2)%nat.
Proof.
  intros Hok Hg Al En D c. destruct (in_dec econ_dec c cs) as [Hc|Hc]; [|unfold mult; rewrite (proj1 (count_occ_not_In econ_dec cs c) Hc); lia].
  assert (NN : forall k, In k (kinds st (length ops)) -> forall d, In d cs -> 0 <= ec_count d k).
  { intros k Hk d Hd. rewrite Forall_forall in Al. exact (proj1 (proj2 (allowed_con_ok _ _ _ _ Hok (Al d Hd))) k Hk). }
  assert (B : forall A s b, (A < length ops)%nat -> is_space st s -> ec_count c (A, s, b) = 1 -> Z.of_nat (mult cs c) <= leg_count ops (A, s, b)).
  { intros A s b HA Hs E. assert (Hk : In (A, s, b) (kinds st (length ops))) by (apply kinds_in; auto). specialize (En _ Hk).
    assert (M := mult_total (fun c => ec_count c (A, s, b)) cs c (NN _ Hk) E). lia. }
  rewrite Forall_forall in Al. destruct (Al c Hc) as [s l r Sh Hs O T Hlr U1 U2 _ _|s l r Sh Hs O T Hlr U1 U2 _ _|s k Sh Hs O T _ _ _ _ _].
  - assert (B1 := B l s true ltac:(lia) Hs). assert (B2 := B r s false ltac:(lia) Hs). unfold ec_count in B1, B2. rewrite U1, U2 in * by lia. destruct (Nat.eq_dec l l), (Nat.eq_dec r r); try congruence.
    specialize (B1 eq_refl). specialize (B2 eq_refl). cbn [leg_count] in *. destruct (D l r s Hlr Hs) as (D1 & _). destruct (D1 T); lia.
  - assert (B1 := B l s false ltac:(lia) Hs). assert (B2 := B r s true ltac:(lia) Hs). unfold ec_count in B1, B2. rewrite U1, U2 in * by lia. destruct (Nat.eq_dec l l), (Nat.eq_dec r r); try congruence.
    specialize (B1 eq_refl). specialize (B2 eq_refl). cbn [leg_count] in *. destruct (D l r s Hlr Hs) as (_ & D1). destruct (D1 T); lia.
  - destruct (Hg s Hs T).
Qed.
