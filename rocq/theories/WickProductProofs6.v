(** C48: the product of the operators as a sum over sets of contracted pairs. *)
Set Warnings "-notation-overridden,-ambiguous-paths".
From Coq Require Import ZArith List Lia Permutation.
From mathcomp Require Import all_ssreflect ssralg.
From Verif Require Import CountProofs Res RationalModel RegistryModel CoreModel OperatorModel OrderProofs WickSearchModel WickSearchSpec CountSpec WickCombSpec WickCombProofs WickLegSpec WickLegProofs SortSpec SortProofs ScalarSem LadderSpec CanonSpec CanonSemSpec CanonSemProofs
  WickMatchProofs WickMatchProofs2 WickProductSpec WickProductProofs WickProductProofs2 WickProductProofs3 WickProductProofs4 WickProductProofs5.
Set Implicit Arguments.
Unset Strict Implicit.
Unset Printing Implicit Defensive.
Import GRing.Theory.
Local Open Scope ring_scope.

Lemma seq_nth_map (X : Type) (d : X) l : List.map (fun i => List.nth i l d) (List.seq 0 (length l)) = l.
Proof. elim: l => [|x l IH] //=. by rewrite -List.seq_shift List.map_map IH. Qed.

(** The letters that may be contracted, [x] to the left of [y]. *)
Definition lex (st : osi) (l : leg) : bool := match stype st (leg_space l) with Some Occupied => ~~ leg_cre l | _ => leg_cre l end.
Definition lcp (st : osi) (x y : leg) : bool := [&& regb st (leg_space x), (leg_space x =? leg_space y)%Z, ~~ lex st x & lex st y].

Section Prod.
  Variables (K : fieldType) (A : algType K) (orb : eqType) (st : osi) (cre ann : Z -> orb -> A).
  Hypothesis HL : ladder_relations st cre ann.
  Hypothesis HS : single_reference st.
  Variables (ops : oprod) (T : text -> seq (Z * orb) -> seq (Z * orb) -> bool -> K) (orbs : Z -> seq orb).
  Notation n := (length ops).
  Notation L := (product_legs st ops).
  Hypothesis Talt : forall B, (B < n)%N -> (forall lo, alternating -%R (fun up => T (labA ops B) lo up false)) /\ (forall up, alternating -%R (fun lo => T (labA ops B) lo up false)).
  Notation N := (normal_product st cre ann).
  Notation NPw := (NP st cre ann).

  Lemma prod_sum (G : nat -> (leg -> orb) -> A) As v0 : NoDup (flatten [seq blk st ops B | B <- As]) ->
    (forall B v v', (forall l, In l (blk st ops B) -> v l = v' l) -> G B v = G B v') ->
    \prod_(B <- As) (\sum_(v <- assigns orbs (blk st ops B) v0) G B v) = \sum_(v <- assigns orbs (flatten [seq blk st ops B | B <- As]) v0) \prod_(B <- As) G B v.
  Proof.
    move=> ND X. elim: As ND => [|B As IH] ND.
    - rewrite big_nil /= big_cons !big_nil addr0 //.
    - rewrite big_cons IH; last by case: (nodup_app_inv _ _ ND) => _ [].
      rewrite asum_mul //; first by apply: eq_bigr => v _; rewrite big_cons.
      + exact: X.
      + move=> v v' E. have : forall C, In C As -> G C v = G C v'.
        { move=> C HC. apply: X => l Hl. apply: E. apply/In_flatten. exists (blk st ops C). split=> //. exact: (in_map (blk st ops) As C HC). }
        elim: (As) => [|C Cs IH2] H; first by rewrite !big_nil. rewrite !big_cons H; last by left. by rewrite IH2 // => D HD; apply: H; right.
  Qed.
  Lemma tel_ext v v' B : (forall l, In l (blk st ops B) -> v l = v' l) -> tel T st ops v B = tel T st ops v' B.
  Proof.
    move=> E. rewrite /tel; congr (T _ _ _ _); apply: List.map_ext_in => l Hl; rewrite /xs E //; apply: List.in_or_app; [by left|right]. by apply/List.in_rev; rewrite List.rev_involutive.
  Qed.
  Lemma product_terms phi0 v0 : \prod_(o <- ops) term_value N T orbs phi0 (op_as_term st o) =
    \sum_(v <- assigns orbs L v0) PhiL ops T (List.map (kv v) L) *: \prod_(B <- iota 0 n) NPw (List.map (xl v) (blk st ops B)).
  Proof.
    have -> : \prod_(o <- ops) term_value N T orbs phi0 (op_as_term st o) = \prod_(B <- iota 0 n) term_value N T orbs phi0 (op_as_term st (List.nth B ops (mkOp [::] gm_zero))).
    { rewrite -{1}(seq_nth_map (mkOp [::] gm_zero) ops) -[List.map _ _]/(map _ _) big_map. by []. }
    under eq_bigr do rewrite (op_term_value _ _ _ _ _ _ v0). rewrite prod_sum.
    - rewrite legs_blks -/(blks st ops). apply: eq_bigr => v _. rewrite scaler_prod. rewrite -legs_blks Phi_legs. congr (_ *: _).
      apply: eq_bigr => B _. apply/esym. apply: NP_normal => x Hx. have [l [<- Hl]] := proj1 (in_map_iff _ _ _) Hx. exact: (proj2 (in_blk Hl)).
    - rewrite -/(blks st ops) -legs_blks. exact: product_nodup.
    - move=> B v v' E. rewrite (tel_ext E). congr (_ *: N _). apply: List.map_ext_in => l Hl. by rewrite /xl /xs E.
  Qed.

  Lemma bprod_legs v : \prod_(B <- iota 0 n) NPw (List.map (xl v) (blk st ops B)) = bprod (wlad st cre ann \o xl v) (lex st) (blks st ops).
  Proof. rewrite /bprod /blks big_map. apply: eq_bigr => B _. by rewrite /NP -npr_map. Qed.
  Lemma PhiL_alternating : alternating -%R (PhiL ops T).
  Proof. exact: Phi_alternating Talt. Qed.
  Theorem product_matchings phi0 v0 fuel : (msize (blks st ops) < fuel)%N ->
    \prod_(o <- ops) term_value N T orbs phi0 (op_as_term st o) = \sum_(m <- mats (lcp st) fuel (blks st ops)) Fv orbs NPw (PhiL ops T) m.1.1 m.1.2 v0.
  Proof.
    move=> Hf. rewrite (product_terms phi0 v0).
    have E v : \prod_(B <- iota 0 n) NPw (List.map (xl v) (blk st ops B)) = \sum_(m <- mats (lcp st) fuel (blks st ops)) mval (wlad st cre ann \o xl v) (lex st) (fun x y => wd K st (xl v x) (xl v y)) m.
    { rewrite bprod_legs. apply: wick_blocks => //.
      - move=> x y H. exact: (wH1 HL HS).
      - move=> x y H. exact: (wH2 HL HS).
      - move=> x y H. exact: wH3.
      - move=> x y H. exact: (@wH4 _ st (xl v x) (xl v y)).
      - move=> x y H. exact: wH5. }
    under eq_bigr do rewrite E scaler_sumr. rewrite exchange_big /=. apply: eq_big_In => m Hm.
    have Sp : sperm L m.2 (unz m.1.1 ++ m.1.2) by rewrite legs_blks; exact: mats_sperm Hm.
    rewrite /Fv [LHS](@asum_perm _ _ _ _ L (unz m.1.1 ++ m.1.2)).
    - apply: eq_bigr => v _. rewrite (alt_spermK PhiL_alternating (sperm_map (kv v) _ _ _ Sp)) /mval scalerA /Ev.
      have -> : npr (wlad st cre ann \o xl v) (lex st) m.1.2 = NPw (List.map (xl v) m.1.2) by rewrite /NP -npr_map.
      rewrite /wordl List.map_map. congr (_ *: _).
      rewrite List.map_app map_unz. have -> : [seq (kv v p.1, kv v p.2) | p <- m.1.1] = List.map (kvp v) m.1.1 by [].
      rewrite mulrACA (zr_sq K Sp) mul1r. congr (_ * _). rewrite /dl -[List.map _ _]/(map _ _) big_map.
      have Cp := mats_cp Hm. elim: (m.1.1) Cp => [|p ps IH] Cp; first by rewrite !big_nil. rewrite !big_cons IH; last by move=> q Hq; apply: Cp; right.
      congr (_ * _). rewrite /wd. have := Cp p (or_introl erefl). rewrite /lcp /wcp /= => ->. by [].
    - move=> v v' Ev'. have Ek : kv v =1 kv v' by apply: kv_ext. rewrite (List.map_ext _ _ Ek). congr (_ *: _). rewrite /mval. congr (_ * _ *: _).
      + apply: eq_bigr => p _. by rewrite /wd /xl /xs !Ev'.
      + apply: npr_ext => x _. by rewrite /= /xl /xs Ev'.
    - exact: product_nodup.
    - exact: sperm_perm Sp.
  Qed.
End Prod.
