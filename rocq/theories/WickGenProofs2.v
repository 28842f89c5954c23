(** C61: the contribution of a set of blocks depends only on the kinds of the legs. *)
Set Warnings "-notation-overridden,-ambiguous-paths".
From Coq Require Import ZArith List Lia Permutation.
From mathcomp Require Import all_ssreflect ssralg.
From Verif Require Import CountProofs Res RationalModel RegistryModel CoreModel OperatorModel OrderProofs WickSearchModel CountSpec WickCombSpec WickCombProofs WickLegSpec SortSpec SortProofs ScalarSem LadderSpec CanonSemSpec CanonSemProofs
  WickMatchProofs WickMatchProofs2 WickProductProofs WickProductProofs2 WickConvProofs WickBlockProofs.
Set Implicit Arguments.
Unset Strict Implicit.
Unset Printing Implicit Defensive.
Import GRing.Theory.
Local Open Scope ring_scope.

Lemma sperm_exchange (X : Type) (p q : seq X) : sperm (p ++ q) (sgz (size p * size q)) (q ++ p).
Proof.
  elim: p => [|x p IH]; first by rewrite cats0; exact: sp_refl.
  have A := sperm_cons x _ _ _ IH. have B := sperm_sym (sperm_front x q p). have C := sperm_trans _ _ _ _ _ A B. move: C.
  rewrite /= mulSn addnC /sgz oddD. by case: (odd (_ * _)); case: (odd (size q)).
Qed.
Lemma flatten_sperm (X : Type) (bs bs' : seq (seq X)) : Permutation bs bs' -> (forall b, In b bs -> ~~ odd (size b)) -> sperm (flatten bs) 1 (flatten bs').
Proof.
  elim=> [|p a b _ IH|p q a|a b c P1 IH1 P2 IH2] H /=.
  - exact: sp_refl.
  - apply: sperm_skip. apply: IH => r Hr. apply: H. by right.
  - rewrite !catA. apply: sperm_app_r. have := sperm_exchange q p. have Hq := H q (or_introl erefl). by rewrite /sgz oddM (negbTE Hq).
  - apply: (sperm_trans _ _ _ _ _ (IH1 H) (IH2 _)) => r Hr. apply: H. exact: Permutation_in (Permutation_sym P1) Hr.
Qed.
Lemma map_flatten_l (X Y : Type) (f : X -> Y) bs : List.map f (flatten bs) = flatten (List.map (List.map f) bs).
Proof. elim: bs => [|b bs IH] //=. by rewrite -IH; exact: List.map_app. Qed.
Lemma forall2_flatten (X : Type) (bs bs' : seq (seq X)) : Forall2 (@Permutation X) bs bs' -> Permutation (flatten bs) (flatten bs').
Proof. elim=> [|b b' l l' P _ IH] //=. exact: Permutation_app. Qed.

Section Blocks.
  Variables (K : fieldType) (V : lmodType K) (orb : eqType) (orbs : Z -> seq orb) (W : seq (bool * (Z * orb)) -> V) (Ph M : seq (letter orb) -> K).
  Hypothesis Walt : alternating -%R W.
  Hypothesis Palt : alternating -%R Ph.
  Hypothesis Malt : alternating -%R M.
  Implicit Types (bs : seq (seq leg)) (cs : seq (seq (letter orb))).
  Definition BE cs (wr : seq (letter orb)) : V := (Ph (flatten cs ++ wr) * \prod_(b <- cs) M b) *: W (wordl wr).
  Definition BFv bs (rest : seq leg) (v0 : leg -> orb) : V :=
    \sum_(v <- assigns orbs (flatten bs ++ rest) v0) BE (List.map (List.map (kv v)) bs) (List.map (kv v) rest).
  Lemma BE_rest cs wr wr' : Permutation wr wr' -> BE cs wr = BE cs wr'.
  Proof.
    move=> P. have [s S] := perm_sperm _ _ P. rewrite /BE (alt_spermK Palt (sperm_skip (flatten cs) S)).
    rewrite (alt_sperm Walt (sperm_map (fun y => (lcr y, lsp y)) _ _ _ S)) scalerA -!/(wordl _). congr (_ *: _).
    by rewrite mulrC !mulrA (zr_sq K S) mul1r.
  Qed.
  Lemma BE_blocks cs cs' wr : Permutation cs cs' -> (forall b, In b cs -> ~~ odd (size b)) -> BE cs wr = BE cs' wr.
  Proof.
    move=> P H. rewrite /BE (alt_spermK Palt (sperm_app_r wr (flatten_sperm P H))) zr1 mul1r. by rewrite (prod_perm _ P).
  Qed.
  Lemma inside cs cs' : Forall2 (@Permutation (letter orb)) cs cs' -> exists s, sperm (flatten cs) s (flatten cs') /\ \prod_(b <- cs) M b = zr K s * \prod_(b <- cs') M b.
  Proof.
    elim=> [|b b' l l' P _ [s [S E]]]; first by exists 1%Z; rewrite zr1 mul1r; split=> //; exact: sp_refl.
    have [t Tb] := perm_sperm _ _ P. exists (t * s)%Z. split.
    - exact: (sperm_trans _ _ _ _ _ (sperm_app_r _ Tb) (sperm_skip _ S)).
    - by rewrite !big_cons E (alt_spermK Malt Tb) zrM mulrACA.
  Qed.
  Lemma BE_inside cs cs' wr : Forall2 (@Permutation (letter orb)) cs cs' -> BE cs wr = BE cs' wr.
  Proof.
    move=> F. have [s [S E]] := inside F. rewrite /BE E (alt_spermK Palt (sperm_app_r wr S)). congr (_ *: _). by rewrite mulrACA (zr_sq K S) mul1r.
  Qed.
  Lemma kvb_list (v v' : leg -> orb) bs bs' : List.map (List.map fst) bs = List.map (List.map fst) bs' -> List.map v (flatten bs) = List.map v' (flatten bs') ->
    List.map (List.map (kv v)) bs = List.map (List.map (kv v')) bs'.
  Proof.
    elim: bs bs' => [|b bs IH] [|b' bs'] //= E. case: E => E1 E2 F.
    have Sz : size (List.map v b) = size (List.map v' b') by rewrite !size_map; have := congr1 size E1; rewrite !size_map.
    have F' : List.map v b ++ List.map v (flatten bs) = List.map v' b' ++ List.map v' (flatten bs') by rewrite -!map_cat.
    have [F1 F2] := app_split Sz F'. by rewrite (kv_list E1 F1) (IH bs').
  Qed.
  Lemma BFv_pos bs bs' rest rest' v0 v0' : NoDup (flatten bs ++ rest) -> NoDup (flatten bs' ++ rest') -> List.map (List.map fst) bs = List.map (List.map fst) bs' ->
    List.map fst rest = List.map fst rest' -> BFv bs rest v0 = BFv bs' rest' v0'.
  Proof.
    move=> ND ND' Ep Er. rewrite /BFv. have Ef : List.map fst (flatten bs) = List.map fst (flatten bs') by rewrite !map_flatten_l Ep. apply: asum_pos => //.
    - rewrite !List.map_app. by rewrite (fst_space Ef) (fst_space Er).
    - move=> v v'. rewrite !List.map_app => E. have Sz : size (List.map v (flatten bs)) = size (List.map v' (flatten bs')).
      { rewrite !size_map. by have := congr1 size Ef; rewrite !size_map. }
      have [E1 E2] := app_split Sz E. by rewrite (kvb_list Ep E1) (kv_list Er E2).
  Qed.
  Lemma kvb_ext (v v' : leg -> orb) bs : v =1 v' -> List.map (List.map (kv v)) bs = List.map (List.map (kv v')) bs.
  Proof. move=> E. apply: List.map_ext => b. apply: List.map_ext. exact: kv_ext. Qed.
  Lemma BE_ext v v' bs rest : v =1 v' -> BE (List.map (List.map (kv v)) bs) (List.map (kv v) rest) = BE (List.map (List.map (kv v')) bs) (List.map (kv v') rest).
  Proof. move=> E. rewrite (kvb_ext _ E). congr (BE _ _). apply: List.map_ext. exact: kv_ext. Qed.
  Lemma BFv_blocks bs bs' rest rest' v0 : NoDup (flatten bs ++ rest) -> Permutation bs bs' -> (forall b, In b bs -> ~~ odd (size b)) -> Permutation rest rest' -> BFv bs rest v0 = BFv bs' rest' v0.
  Proof.
    move=> ND P H Q. rewrite /BFv (@asum_perm _ _ _ _ _ (flatten bs' ++ rest')) //.
    - apply: eq_bigr => v _. rewrite (@BE_blocks _ (List.map (List.map (kv v)) bs')).
      + apply: BE_rest. exact: Permutation_map.
      + exact: Permutation_map.
      + move=> b /in_map_iff [c [<- Hc]]. rewrite size_map. exact: H.
    - move=> v v' E. exact: BE_ext.
    - apply: Permutation_app => //. exact: flatten_perm.
  Qed.
  Lemma BFv_inside bs bs' rest v0 : NoDup (flatten bs ++ rest) -> Forall2 (@Permutation leg) bs bs' -> BFv bs rest v0 = BFv bs' rest v0.
  Proof.
    move=> ND F. rewrite /BFv (@asum_perm _ _ _ _ _ (flatten bs' ++ rest)) //.
    - apply: eq_bigr => v _. apply: BE_inside. elim: F => [|b b' l l' P _ IH] /=; constructor=> //. exact: Permutation_map.
    - move=> v v' E. exact: BE_ext.
    - apply: Permutation_app => //. exact: forall2_flatten.
  Qed.
  (** The value depends only on the kinds of the legs. *)
  Definition samekinds (b b' : seq leg) : Prop := Permutation (List.map fst b) (List.map fst b').
  Theorem BFv_kinds bs bs1 bs' rest rest' v0 v0' : NoDup (flatten bs ++ rest) -> NoDup (flatten bs' ++ rest') -> (forall b, In b bs -> ~~ odd (size b)) ->
    Permutation bs bs1 -> Forall2 samekinds bs1 bs' -> Permutation (List.map fst rest) (List.map fst rest') -> BFv bs rest v0 = BFv bs' rest' v0'.
  Proof.
    move=> ND ND' H P F Q. have [r2 [Er2 Q2]] := Permutation_map_inv _ _ Q.
    have [bs2 [E2 F2]] : exists bs2, List.map (List.map fst) bs1 = List.map (List.map fst) bs2 /\ Forall2 (@Permutation leg) bs2 bs'.
    { elim: F {P ND'} => [|b b' l l' P _ [l2 [E F]]]; first by exists [::]. have [b2 [Eb Pb]] := Permutation_map_inv _ _ P.
      exists (b2 :: l2). split; first by rewrite /= -Eb E. constructor=> //. exact: Permutation_sym. }
    have ND2 : NoDup (flatten bs2 ++ r2).
    { apply: Permutation_NoDup ND'. apply: Permutation_app => //. apply: Permutation_sym. exact: forall2_flatten. }
    rewrite (@BFv_blocks bs bs1 rest rest v0) // (@BFv_pos bs1 bs2 rest r2 v0 v0') //.
    - rewrite (@BFv_inside bs2 bs' r2 v0') //. apply: BFv_blocks => //.
      + apply: Permutation_NoDup ND'. apply: Permutation_app => //.
      + move=> b Hb. have : exists b1, In b1 bs1 /\ size b1 = size b.
        { elim: F b Hb {E2 F2 P ND'} => [|b1 b' l l' Pb _ IH] b //= [<-|/IH [c [Hc Ec]]]; [exists b1|exists c]; split=> //; [by left| |by right].
          by have := Permutation_length Pb; rewrite !List.map_length. }
        case=> b1 [Hb1 <-]. apply: H. exact: Permutation_in (Permutation_sym P) Hb1.
      + exact: Permutation_sym.
    - apply: Permutation_NoDup ND. apply: Permutation_app => //. exact: flatten_perm.
  Qed.
End Blocks.
