(** Products that meet the hypotheses of C61. *)
From Coq Require Import Ascii ZArith List Bool Arith Lia.
From Verif Require Import Res RegistryModel CoreModel RationalModel OperatorModel WickSearchModel WickSearchSpec WickCombSpec WickEvalModel WickTotalProofs WickSearchProps WickLinearProps.
Import ListNotations.
Local Open Scope Z_scope.

Lemma kinds_In st n A s b : (A < n)%nat -> is_space st s -> In (A, s, b) (kinds st n).
Proof.
  intros HA Hs. unfold kinds. apply in_flat_map. exists A. split; [apply in_seq; lia|]. apply in_flat_map. exists s. split.
  - unfold range. apply in_map_iff. exists (Z.to_nat s). unfold is_space in Hs. split; [lia|]. apply in_seq. lia.
  - destruct b; simpl; auto.
Qed.
Lemma triple_cre st ops c A s : enough_legs st ops [c; c; c] -> (A < length ops)%nat -> is_space st s -> 1 <= ec_cre c A s -> 3 <= ops_cre ops A s.
Proof. intros E HA Hs H. specialize (E _ (kinds_In st (length ops) A s true HA Hs)). simpl in E. lia. Qed.
Lemma triple_ann st ops c A s : enough_legs st ops [c; c; c] -> (A < length ops)%nat -> is_space st s -> 1 <= ec_ann c A s -> 3 <= ops_ann ops A s.
Proof. intros E HA Hs H. specialize (E _ (kinds_In st (length ops) A s false HA Hs)). simpl in E. lia. Qed.
Lemma total_pos n f : 1 <= total n f -> exists A, (A < n)%nat /\ 1 <= f A.
Proof. induction n as [|n IH]; cbn [total]; [lia|]. intros H. destruct (Z_lt_dec (f n) 1); [|exists n; split; lia]. destruct IH as (A & HA & HfA); [lia|]. exists A. split; lia. Qed.

(** For two different operators and each space: not three creation operators in one and three annihilation operators in the other. *)
Definition few_legs (st : osi) (ops : oprod) : Prop :=
  forall A B s, (A < length ops)%nat -> (B < length ops)%nat -> A <> B -> is_space st s -> ops_cre ops A s <= 2 \/ ops_ann ops B s <= 2.
Lemma few_legs_no_triple st ops maxc : few_legs st ops -> forall c, allowed st maxc ops c -> ~ enough_legs st ops [c; c; c].
Proof.
  intros F c H E. destruct H as [s l r _ Hs _ _ Hlr U1 U2 _ _|s l r _ Hs _ _ Hlr U1 U2 _ _|s k _ Hs _ _ Hk T1 T2 B X].
  - assert (C1 : 1 <= ec_cre c l s) by (rewrite (U1 l) by lia; destruct (Nat.eq_dec l l); lia).
    assert (C2 : 1 <= ec_ann c r s) by (rewrite (U2 r) by lia; destruct (Nat.eq_dec r r); lia).
    pose proof (triple_cre st ops c l s E ltac:(lia) Hs C1). pose proof (triple_ann st ops c r s E ltac:(lia) Hs C2).
    destruct (F l r s); try lia. exact Hs.
  - assert (C1 : 1 <= ec_ann c l s) by (rewrite (U1 l) by lia; destruct (Nat.eq_dec l l); lia).
    assert (C2 : 1 <= ec_cre c r s) by (rewrite (U2 r) by lia; destruct (Nat.eq_dec r r); lia).
    pose proof (triple_ann st ops c l s E ltac:(lia) Hs C1). pose proof (triple_cre st ops c r s E ltac:(lia) Hs C2).
    destruct (F r l s); try lia. exact Hs.
  - destruct (total_pos (length ops) (fun A => ec_cre c A s)) as (a & Ha & Ca); [lia|].
    destruct (total_pos (length ops) (fun A => ec_ann c A s)) as (b & Hb & Cb); [lia|].
    assert (Y : exists a b, (a < length ops)%nat /\ (b < length ops)%nat /\ a <> b /\ 1 <= ec_cre c a s /\ 1 <= ec_ann c b s).
    { destruct (Nat.eq_dec a b) as [<-|N]; [|exists a, b; tauto]. destruct X as (A & B' & HAB & PA & PB).
      pose proof (B A ltac:(lia)). pose proof (B B' ltac:(lia)).
      assert (exists x, (x < length ops)%nat /\ x <> a /\ 0 < ec_cre c x s + ec_ann c x s) as (x & Hx & Nx & Px).
      { destruct (Nat.eq_dec A a); [exists B'|exists A]; repeat split; lia. }
      pose proof (B x Hx). destruct (Z_lt_dec 0 (ec_cre c x s)); [exists x, a|exists a, x]; repeat split; lia. }
    destruct Y as (a' & b' & Ha' & Hb' & N & C1 & C2).
    pose proof (triple_cre st ops c a' s E Ha' Hs C1). pose proof (triple_ann st ops c b' s E Hb' Hs C2).
    destruct (F a' b' s Ha' Hb' N Hs); lia.
Qed.

(** Occupied, general and unoccupied orbitals; F and G, each with one creation and one annihilation operator in the general space. *)
Definition wg_st : osi := mkOSI [mkOS "o"%char Occupied Fermion [] []; mkOS "a"%char General Fermion [] []; mkOS "v"%char Unoccupied Fermion [] []] [] [].
Definition wg_ops : oprod := [mkOp ["F"%char] (ws_gm [(0, 0); (1, 1)]); mkOp ["G"%char] (ws_gm [(0, 0); (1, 1)])].
Lemma wg_space s : is_space wg_st s -> s = 0 \/ s = 1 \/ s = 2.
Proof. unfold is_space, num_spaces. simpl. lia. Qed.
Lemma wg_ok : ops_ok wg_st wg_ops.
Proof.
  split; [vm_compute; lia|]. repeat constructor; try (intros i Hi; simpl in Hi; unfold max_spaces in Hi; do 8 (destruct i as [|i]; [try lia; reflexivity|]); lia);
    match goal with H : _ <= ?s < _ |- _ => destruct (wg_space s H) as [-> | [-> | ->]] end; vm_compute; discriminate.
Qed.
Lemma wg_few : few_legs wg_st wg_ops.
Proof.
  intros A B s HA HB N Hs. simpl in HA, HB. left. destruct A as [|[|A]]; [| |lia]; destruct (wg_space s Hs) as [-> | [-> | ->]]; vm_compute; discriminate.
Qed.
Lemma wg_search : exists els cvs, search 50 (mkWT 2 true) wg_st wg_ops 0 4 = Ok (els, cvs) /\ length cvs = 5%nat.
Proof. eexists. eexists. split; vm_compute; reflexivity. Qed.
Lemma wg_contract o minr maxr : exists r, contract o wg_st (rat_of_Z 1) wg_ops minr maxr (Ok r).
Proof.
  destruct (C56_outcome o wg_st (rat_of_Z 1) wg_ops minr maxr wg_ok) as (r & H).
  destruct (C56_returns o wg_st (rat_of_Z 1) wg_ops minr maxr wg_ok r) as (e & ->); [|vm_compute; discriminate|exact H|exists e; exact H].
  intros s Hs. destruct (wg_space s Hs) as [-> | [-> | ->]]; vm_compute; discriminate.
Qed.
