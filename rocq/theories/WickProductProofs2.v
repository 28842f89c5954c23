(** C48: the contribution of a set of contracted pairs depends only on the kinds of the contracted legs. *)
Set Warnings "-notation-overridden,-ambiguous-paths".
From Coq Require Import ZArith List Lia Permutation.
From mathcomp Require Import all_ssreflect ssralg.
From Verif Require Import CountProofs Res RationalModel RegistryModel CoreModel OperatorModel OrderProofs WickSearchModel CountSpec WickCombSpec WickCombProofs WickLegSpec SortSpec SortProofs ScalarSem LadderSpec CanonSemSpec CanonSemProofs
  WickMatchProofs WickMatchProofs2 WickProductProofs.
Set Implicit Arguments.
Unset Strict Implicit.
Unset Printing Implicit Defensive.
Import GRing.Theory.
Local Open Scope ring_scope.

(** The sign of sorting by [r]. *)
Fixpoint isg (X : Type) (r : X -> nat) (w : seq X) : Z :=
  match w with [::] => 1%Z | x :: w' => (sgz (count (fun y => (r y < r x)%N) w') * isg r w')%Z end.
Lemma isg_same (X : Type) (r : X -> nat) l1 x y l2 : r x = r y -> isg r (l1 ++ x :: y :: l2) = isg r (l1 ++ y :: x :: l2).
Proof.
  move=> E. elim: l1 => [|z l1 IH]; last by rewrite /= IH !count_cat /= E.
  by rewrite /= E ltnn.
Qed.
Lemma isg_diff (X : Type) (r : X -> nat) l1 x y l2 : r x <> r y -> isg r (l1 ++ x :: y :: l2) = (- isg r (l1 ++ y :: x :: l2))%Z.
Proof.
  move=> E. elim: l1 => [|z l1 IH].
  - rewrite /= !sgz_add. case: (ltngtP (r x) (r y)) => H; last by case: E.
    + rewrite -[sgz true]/((-1)%Z) -[sgz false]/(1%Z). lia.
    + rewrite -[sgz true]/((-1)%Z) -[sgz false]/(1%Z). lia.
  - rewrite /= IH !count_cat /= [((r x < r z) + ((r y < r z) + _))%N]addnCA. lia.
Qed.
Lemma isg_sorted (X : Type) (r : X -> nat) w : ForallOrdPairs (fun x y => (r x <= r y)%N) w -> isg r w = 1%Z.
Proof.
  elim=> [|x l F _ IH] //=. rewrite IH.
  have -> // : count (fun y => (r y < r x)%N) l = 0%N.
  elim: F => [|y l' H _ IH2] //=. by rewrite IH2 ltnNge H.
Qed.

Section Contribution.
  Variables (K : fieldType) (orb : eqType) (n : nat) (lab : nat -> text) (T : text -> seq (Z * orb) -> seq (Z * orb) -> bool -> K).
  Definition letter := (leg_kind * orb)%type.
  Definition lop (y : letter) : nat := y.1.1.1.
  Definition lsp (y : letter) : Z * orb := (y.1.1.2, y.2).
  Definition lcr (y : letter) : bool := y.1.2.
  Definition lrank (y : letter) : nat := (2 * lop y + ~~ lcr y)%N.
  Definition lpart (A : nat) (b : bool) (w : seq letter) : seq (Z * orb) := [seq lsp y | y <- w & (lop y == A) && (lcr y == b)].
  (** The tensor elements, with the sign of sorting the letters by operator, creation operators first. *)
  Definition telem (w : seq letter) (A : nat) : K := T (lab A) (lpart A true w) (rev (lpart A false w)) false.
  Definition Phi (w : seq letter) : K :=
    if all (fun y => (lop y < n)%N) w then zr K (isg lrank w) * \prod_(A <- iota 0 n) telem w A else 0.

  Hypothesis Talt : forall A, (A < n)%N -> (forall lo, alternating -%R (fun up => T (lab A) lo up false)) /\ (forall up, alternating -%R (fun lo => T (lab A) lo up false)).

  Lemma lrank_eq x y : lrank x = lrank y -> lop x = lop y /\ lcr x = lcr y.
  Proof.
    rewrite /lrank. case: (lcr x); case: (lcr y); rewrite /= ?addn0 ?addn1 !mul2n => E; split=> //; first [exact: double_inj|move: (congr1 odd E); by rewrite /= ?odd_double|idtac].
    all: by case: E => /double_inj.
  Qed.
  Lemma lpart_swap A b l1 x y l2 : (lop x == A) && (lcr x == b) && ((lop y == A) && (lcr y == b)) = false -> lpart A b (l1 ++ x :: y :: l2) = lpart A b (l1 ++ y :: x :: l2).
  Proof.
    move=> E. rewrite /lpart !filter_cat !map_cat /=. congr (_ ++ _). move: E. by case: ((lop x == A) && (lcr x == b)); case: ((lop y == A) && (lcr y == b)).
  Qed.
  Lemma telem_other A l1 x y l2 : lrank x <> lrank y \/ lop x <> A -> telem (l1 ++ x :: y :: l2) A = telem (l1 ++ y :: x :: l2) A.
  Proof.
    move=> H. have X b : (lop x == A) && (lcr x == b) && ((lop y == A) && (lcr y == b)) = false.
    { apply/negP => /andP [/andP [/eqP E1 /eqP E2] /andP [/eqP E3 /eqP E4]]. case: H => H //. apply: H. by rewrite /lrank E1 E2 E3 E4. }
    by rewrite /telem (lpart_swap l1 l2 (X true)) (lpart_swap l1 l2 (X false)).
  Qed.
  Lemma telem_same l1 x y l2 : lrank x = lrank y -> (lop x < n)%N -> telem (l1 ++ x :: y :: l2) (lop x) = - telem (l1 ++ y :: x :: l2) (lop x).
  Proof.
    move=> /lrank_eq [Eo Ec] Hx. have [Tu Tl] := Talt Hx. rewrite /telem.
    have Sp b : b <> lcr x -> lpart (lop x) b (l1 ++ x :: y :: l2) = lpart (lop x) b (l1 ++ y :: x :: l2).
    { move=> Nb. apply: lpart_swap. apply/negP => /andP [/andP [_ /eqP E] _]. by case: Nb. }
    have E1 z z' : lop z = lop x -> lcr z = lcr x -> lop z' = lop x -> lcr z' = lcr x ->
      lpart (lop x) (lcr x) (l1 ++ z :: z' :: l2) = lpart (lop x) (lcr x) l1 ++ lsp z :: lsp z' :: lpart (lop x) (lcr x) l2.
    { move=> A1 A2 A3 A4. by rewrite /lpart filter_cat map_cat /= A1 A2 A3 A4 !eqxx. }
    case Cx: (lcr x) in Sp E1 Ec *.
    - rewrite (Sp false) // !E1 //. exact: Tl.
    - rewrite (Sp true) // !E1 // !rev_cat !rev_cons -!cats1 -!catA /=. exact: Tu.
  Qed.
  Lemma Phi_alternating : alternating -%R Phi.
  Proof.
    move=> l1 x y l2. rewrite /Phi. have -> : all (fun y => (lop y < n)%N) (l1 ++ x :: y :: l2) = all (fun y => (lop y < n)%N) (l1 ++ y :: x :: l2).
    { rewrite !all_cat /=. congr (_ && _). exact: andbCA. }
    case Al: (all _ _); last by rewrite oppr0.
    have Hx : (lop x < n)%N. { move: Al. by rewrite all_cat /= => /and3P [_ _ /andP []]. }
    case: (lrank x =P lrank y) => E.
    - rewrite isg_same // -mulrN. congr (_ * _).
      have U : uniq (iota 0 n) by apply: iota_uniq. have I : lop x \in iota 0 n by rewrite mem_iota.
      rewrite (bigD1_seq _ I U) [in RHS](bigD1_seq _ I U) /= telem_same // mulNr. congr (- (_ * _)). apply: eq_bigr => A NA. apply: telem_other. right. by apply/eqP; rewrite eq_sym.
    - rewrite isg_diff // zrN mulNr. congr (- (_ * _)). apply: eq_bigr => A _. by apply: telem_other; left.
  Qed.
End Contribution.

Lemma alt_sperm (K : fieldType) (V : lmodType K) (X : Type) (f : seq X -> V) : alternating -%R f -> forall l s l', sperm l s l' -> f l = zr K s *: f l'.
Proof. move=> AC l s l'. elim=> [l0|l1 x y l2 s0 l0 H IH]; first by rewrite zr1 scale1r. by rewrite zrN scaleNr -IH AC. Qed.
Lemma alt_spermK (K : fieldType) (X : Type) (f : seq X -> K) : alternating -%R f -> forall l s l', sperm l s l' -> f l = zr K s * f l'.
Proof. move=> AC l s l'. elim=> [l0|l1 x y l2 s0 l0 H IH]; first by rewrite zr1 mul1r. by rewrite zrN mulNr -IH AC. Qed.
Lemma zr_sq (K : fieldType) (X : Type) (l : seq X) s l' : sperm l s l' -> zr K s * zr K s = 1.
Proof. move/sperm_pm => [->|->]; by rewrite ?zr1 ?mulr1 // -[Zneg xH]/(Z.opp (Zpos xH)) zrN zr1 mulrNN mulr1. Qed.
Lemma unz_sperm (X : Type) (ps qs : seq (X * X)) : Permutation ps qs -> sperm (unz ps) 1 (unz qs).
Proof.
  elim=> [|p a b _ IH|p q a|a b c _ IH1 _ IH2].
  - exact: sp_refl.
  - exact: (sperm_skip [:: p.1; p.2] IH).
  - rewrite /unz /= -/(unz a).
    have A := sperm_swap1 [:: q.1] q.2 p.1 (p.2 :: unz a). have B := sperm_swap1 [::] q.1 p.1 (q.2 :: p.2 :: unz a).
    have C := sperm_swap1 [:: p.1; q.1] q.2 p.2 (unz a). have D := sperm_swap1 [:: p.1] q.1 p.2 (q.2 :: unz a).
    exact: (sperm_trans _ _ _ _ _ A (sperm_trans _ _ _ _ _ B (sperm_trans _ _ _ _ _ C D))).
  - exact: (sperm_trans _ _ _ _ _ IH1 IH2).
Qed.
Lemma map_unz (X Y : Type) (f : X -> Y) ps : List.map f (unz ps) = unz [seq (f p.1, f p.2) | p <- ps].
Proof. by elim: ps => [|p ps IH] //=; rewrite /unz /= -!/(unz _) -IH. Qed.

Section Pairs.
  Variables (K : fieldType) (V : lmodType K) (orb : eqType) (orbs : Z -> seq orb) (W : seq (bool * (Z * orb)) -> V) (Ph : seq (letter orb) -> K).
  Hypothesis Walt : alternating -%R W.
  Hypothesis Palt : alternating -%R Ph.
  Definition kv (v : leg -> orb) (l : leg) : letter orb := (fst l, v l).
  Definition wordl (w : seq (letter orb)) : seq (bool * (Z * orb)) := List.map (fun y => (lcr y, lsp y)) w.
  Definition dl (ps : seq (letter orb * letter orb)) : K := \prod_(p <- ps) (p.1.2 == p.2.2)%:R.
  Definition Ev (ps : seq (letter orb * letter orb)) (wr : seq (letter orb)) : V := (Ph (unz ps ++ wr) * dl ps) *: W (wordl wr).
  Definition kvp (v : leg -> orb) (p : leg * leg) := (kv v p.1, kv v p.2).
  Definition Fv (ps : seq (leg * leg)) (rest : seq leg) (v0 : leg -> orb) : V :=
    \sum_(v <- assigns orbs (unz ps ++ rest) v0) Ev (List.map (kvp v) ps) (List.map (kv v) rest).

  Lemma Ev_rest ps wr wr' : Permutation wr wr' -> Ev ps wr = Ev ps wr'.
  Proof.
    move=> P. have [s S] := perm_sperm _ _ P. rewrite /Ev (alt_spermK Palt (sperm_skip (unz ps) S)).
    rewrite (alt_sperm Walt (sperm_map (fun y => (lcr y, lsp y)) _ _ _ S)) scalerA -!/(wordl _). congr (_ *: _).
    by rewrite mulrC !mulrA (zr_sq K S) mul1r.
  Qed.
  Lemma sperm_app_r (X : Type) (l l' r : seq X) s : sperm l s l' -> sperm (l ++ r) s (l' ++ r).
  Proof.
    elim=> [l0|l1 x y l2 s0 l0 H IH]; first exact: sp_refl. rewrite -catA /=. apply: sp_swap. by rewrite -catA in IH.
  Qed.
  Lemma Ev_pairs ps ps' wr : Permutation ps ps' -> Ev ps wr = Ev ps' wr.
  Proof.
    move=> P. rewrite /Ev (alt_spermK Palt (sperm_app_r wr (unz_sperm P))) zr1 mul1r. by rewrite /dl (prod_perm _ P).
  Qed.
  Definition pk (p : leg * leg) := (fst p.1, fst p.2).
  Lemma kv_list v v' u u' : List.map fst u = List.map fst u' -> List.map v u = List.map v' u' -> List.map (kv v) u = List.map (kv v') u'.
  Proof. elim: u u' => [|l u IH] [|l' u'] //= [E1 E2] [F1 F2]. by rewrite /kv E1 F1 (IH u'). Qed.
  Lemma app_split (Y : Type) (a b c d : seq Y) : size a = size c -> a ++ b = c ++ d -> a = c /\ b = d.
  Proof. elim: a c => [|x a IH] [|y c] //=. move=> E H. case: H => Ex H. have [Ea Eb] := IH _ (eq_add_S _ _ E) H. by rewrite Ex Ea Eb. Qed.
  Lemma kvp_list v v' ps ps' : List.map pk ps = List.map pk ps' -> List.map v (unz ps) = List.map v' (unz ps') -> List.map (kvp v) ps = List.map (kvp v') ps'.
  Proof. elim: ps ps' => [|p ps IH] [|p' ps'] //= [E1 E2 E3] [F1 F2 F3]. by rewrite /kvp /kv E1 E2 F1 F2 (IH ps'). Qed.
  Lemma pk_unz ps ps' : List.map pk ps = List.map pk ps' -> List.map fst (unz ps) = List.map fst (unz ps').
  Proof. elim: ps ps' => [|p ps IH] [|p' ps'] //= [E1 E2 E3]. by rewrite E1 E2; congr [:: _, _ & _]; apply: IH. Qed.
  Lemma fst_space u u' : List.map fst u = List.map fst u' -> List.map leg_space u = List.map leg_space u'.
  Proof. elim: u u' => [|l u IH] [|l' u'] //= [E1 E2]. by rewrite /leg_space E1 (IH u'). Qed.
  Lemma Fv_pos ps ps' rest rest' v0 v0' : NoDup (unz ps ++ rest) -> NoDup (unz ps' ++ rest') -> List.map pk ps = List.map pk ps' ->
    List.map fst rest = List.map fst rest' -> Fv ps rest v0 = Fv ps' rest' v0'.
  Proof.
    move=> ND ND' Ep Er. rewrite /Fv. apply: asum_pos => //.
    - rewrite !List.map_app. by rewrite (fst_space (pk_unz Ep)) (fst_space Er).
    - move=> v v'. rewrite !List.map_app => E. have Sz : size (List.map v (unz ps)) = size (List.map v' (unz ps')).
      { rewrite !size_map. by have := congr1 size (pk_unz Ep); rewrite !size_map. }
      have [E1 E2] := app_split Sz E. by rewrite (kvp_list Ep E1) (kv_list Er E2).
  Qed.
  Lemma kv_ext v v' : v =1 v' -> kv v =1 kv v'.
  Proof. move=> E l. by rewrite /kv E. Qed.
  Lemma Fv_perm ps ps' rest rest' v0 : NoDup (unz ps ++ rest) -> Permutation ps ps' -> Permutation rest rest' -> Fv ps rest v0 = Fv ps' rest' v0.
  Proof.
    move=> ND P Q. rewrite /Fv (@asum_perm _ _ _ _ _ (unz ps' ++ rest')) //.
    - apply: eq_bigr => v _. rewrite (Ev_pairs _ (Permutation_map _ P)). apply: Ev_rest. exact: Permutation_map.
    - move=> v v' E. have Ek := kv_ext E. congr (Ev _ _); apply: List.map_ext => x; by rewrite /kvp ?Ek.
    - apply: Permutation_app => //. exact: unz_perm.
  Qed.
  (** The value depends only on the kinds of the legs. *)
  Theorem Fv_kinds ps ps' rest rest' v0 v0' : NoDup (unz ps ++ rest) -> NoDup (unz ps' ++ rest') ->
    Permutation (List.map pk ps) (List.map pk ps') -> Permutation (List.map fst rest) (List.map fst rest') -> Fv ps rest v0 = Fv ps' rest' v0'.
  Proof.
    move=> ND ND' P Q. have [ps2 [E2 P2]] := Permutation_map_inv _ _ P. have [r2 [Er2 Q2]] := Permutation_map_inv _ _ Q.
    rewrite (@Fv_pos ps ps2 rest r2 v0 v0') //; last first.
    { apply: Permutation_NoDup ND'. apply: Permutation_app => //. exact: unz_perm. }
    apply: Fv_perm.
    - apply: Permutation_NoDup ND'. apply: Permutation_app => //. exact: unz_perm.
    - exact: Permutation_sym.
    - exact: Permutation_sym.
  Qed.
End Pairs.
