(** C61: the product of the operators as a sum over sets of contracted blocks. *)
Set Warnings "-notation-overridden,-ambiguous-paths".
From Coq Require Import ZArith List Lia Permutation.
From mathcomp Require Import all_ssreflect ssralg.
From Verif Require Import CountProofs Res RationalModel RegistryModel CoreModel OperatorModel OrderProofs WickSearchModel WickSearchSpec CountSpec WickCombSpec WickCombProofs WickLegSpec WickLegProofs SortSpec SortProofs ScalarSem LadderSpec CanonSpec CanonSemSpec CanonSemProofs
  WickMatchProofs WickMatchProofs2 WickProductSpec WickTheoremSpec WickProductProofs WickProductProofs2 WickProductProofs3 WickProductProofs4 WickProductProofs5 WickProductProofs6
  WickGeneralSpec WickConvProofs WickConvProofs2 WickBlockProofs WickGenProofs WickGenProofs2.
Set Implicit Arguments.
Unset Strict Implicit.
Unset Printing Implicit Defensive.
Import GRing.Theory.
Local Open Scope ring_scope.
Local Notation lsub := CountSpec.subseq.

Section Links.
  Variables (K : fieldType) (orb : eqType) (st : osi).
  Variables (T : text -> seq (Z * orb) -> seq (Z * orb) -> bool -> K) (maxc : nat).
  Notation letter := (letter orb).
  Notation cum := (cumulant st T maxc).
  Definition wl (y : letter) : bool * (Z * orb) := (lcr y, lsp y).
  Definition cumL (b : seq letter) : K := cum (wordl b).
  Definition gdL (x y : letter) : K := gd K st (wl x) (wl y).
  (** What a contracted block contributes. *)
  Definition lnk : seq letter -> K := links gdL cumL (@lop orb).
  Lemma cumL_even : even cumL.
  Proof. move=> b O. apply: cum_even. by rewrite /wordl size_map. Qed.
  Lemma lnk_even : even lnk.
  Proof. apply: links_even. exact: cumL_even. Qed.
  Hypothesis HD : densities st T.
  Lemma cumL_alternating : alternating -%R cumL.
  Proof. move=> l1 x y l2. rewrite /cumL /wordl !List.map_app /=. exact: (cum_alternating maxc HD). Qed.
  Lemma lnk_alternating : alternating -%R lnk.
  Proof.
    move=> l1 x y l2. rewrite /lnk /links opprD. congr (_ + _).
    - have -> : onetag (@lop orb) (List.app l1 (x :: y :: l2)) = onetag (@lop orb) (List.app l1 (y :: x :: l2)).
      { case: l1 => [|z l1] /=; last by rewrite !all_cat /=; congr (_ && (_ && _)); rewrite andbCA.
        rewrite !eqxx /= [lop x == lop y]eq_sym. by case: (lop y =P lop x) => [->|]. }
      rewrite cumL_alternating. by case: (onetag _ _); rewrite ?oppr0.
    - case: l1 => [|z [|z' [|z'' l1]]] /=; [|by rewrite oppr0..]. case: l2 => [|z l2] /=; last by rewrite oppr0.
      case: (ltngtP (lop x) (lop y)) => _; by rewrite ?opprK ?oppr0.
  Qed.
End Links.

Section Prod.
  Variables (K : fieldType) (A : algType K) (orb : eqType) (st : osi) (cre ann : Z -> orb -> A).
  Hypothesis HL : ladder_relations st cre ann.
  Hypothesis HS : multi_reference st.
  Variables (ops : oprod) (T : text -> seq (Z * orb) -> seq (Z * orb) -> bool -> K) (orbs : Z -> seq orb) (maxc : nat).
  Notation n := (length ops).
  Notation L := (product_legs st ops).
  Hypothesis Talt : forall B, (B < n)%N -> (forall lo, alternating -%R (fun up => T (labA ops B) lo up false)) /\ (forall up, alternating -%R (fun lo => T (labA ops B) lo up false)).
  Hypothesis HD : densities st T.
  Variable N : seq (bool * (Z * orb)) -> A.
  Hypothesis HN : generalized_normal_product st cre ann T maxc N.
  Notation NGw := (NG st cre ann (cumulant st T maxc)).
  Notation M := (lnk st T maxc).

  Lemma NGw_N w : (forall x, In x w -> registered st x.2.1) -> NGw w = N w.
  Proof. apply: NG_unique; first exact: cum_even. move=> u Hu. by rewrite (HN Hu) conv_splits. Qed.
  Lemma NGw_alternating : alternating -%R NGw.
  Proof. apply: (NG_alternating HL HS); [exact: cum_even|exact: cum_alternating]. Qed.
  Lemma gproduct_terms phi0 v0 : \prod_(o <- ops) term_value N T orbs phi0 (op_as_term st o) =
    \sum_(v <- assigns orbs L v0) PhiL ops T (List.map (kv v) L) *: \prod_(B <- iota 0 n) NGw (List.map (xl v) (blk st ops B)).
  Proof.
    have -> : \prod_(o <- ops) term_value N T orbs phi0 (op_as_term st o) = \prod_(B <- iota 0 n) term_value N T orbs phi0 (op_as_term st (List.nth B ops (mkOp [::] gm_zero))).
    { rewrite -{1}(seq_nth_map (mkOp [::] gm_zero) ops) -[List.map _ _]/(map _ _) big_map. by []. }
    under eq_bigr do rewrite (op_term_value _ _ _ _ _ _ v0). rewrite (prod_sum (A := A)).
    - rewrite legs_blks -/(blks st ops). apply: eq_bigr => v _. rewrite scaler_prod. rewrite -legs_blks Phi_legs. congr (_ *: _).
      apply: eq_bigr => B _. apply/esym. apply: NGw_N => x Hx. have [l [<- Hl]] := proj1 (in_map_iff _ _ _) Hx. exact: (proj2 (in_blk Hl)).
    - rewrite -/(blks st ops) -legs_blks. exact: product_nodup.
    - move=> B v v' E. rewrite (tel_ext _ E). congr (_ *: N _). apply: List.map_ext_in => l Hl. by rewrite /xl /xs E.
  Qed.

  Lemma xl_kv (v : leg -> orb) l : xl v l = wl (kv v l).
  Proof. by []. Qed.
  Lemma gprod_conv (v : leg -> orb) : \prod_(B <- iota 0 n) NGw (List.map (xl v) (blk st ops B)) = conv (moment M) (fun b => NGw (wordl b)) (List.map (kv v) L).
  Proof.
    have -> : \prod_(B <- iota 0 n) NGw (List.map (xl v) (blk st ops B)) = \prod_(w <- [seq List.map (kv v) (blk st ops B) | B <- iota 0 n]) NGw (wordl w).
    { rewrite big_map. apply: eq_bigr => B _. by rewrite /wordl List.map_map. }
    rewrite map_blks.
    apply: (@normal_many _ _ _ (fun y => wlad st cre ann (wl y)) (@lcr orb) (@gdL K orb st) _ _ _ _ (cumL st T maxc) (fun b => NGw (wordl b)) (@lop orb) _ _ 0).
    - move=> x y E. exact: (gH1 HL HS).
    - move=> x y E. exact: (gH2 HL HS).
    - move=> x y E. exact: gH4.
    - move=> x y E. exact: gH5.
    - exact: cumL_even.
    - move=> w. have -> : npr (fun y => wlad st cre ann (wl y)) (@lcr orb) w = npr (wlad st cre ann) fst (wordl w).
      { exact: (npr_map (wlad st cre ann) fst (@wl orb)). }
      rewrite (NG_vac st cre ann (@cum_even _ _ st T maxc)) /wordl exp_map. by [].
    - have H : forall k m, tagged (@lop orb) k [seq List.map (kv v) (blk st ops B) | B <- iota k m].
      { move=> k m. elim: m k => [|m IH] k //=. rewrite IH andbT. apply: in_all => y Hy. have [l [<- Hl]] := proj1 (in_map_iff _ _ _) Hy.
        rewrite /lop /= -[l.1.1.1]/(leg_op l). by have [-> _] := in_blk Hl. }
      exact: H.
  Qed.
  Variable cp : seq leg -> bool.
  Hypothesis cpE : forall b, cp b -> ~~ odd (size b).
  Hypothesis cpM : forall (v : leg -> orb) b, lsub b L -> cp b = false -> b <> [::] -> M (List.map (kv v) b) = 0.
  Theorem product_blocks phi0 v0 : 
    \prod_(o <- ops) term_value N T orbs phi0 (op_as_term st o) = \sum_(m <- bmats cp (size L) L) BFv orbs NGw (PhiL ops T) M m.1.1 m.1.2 v0.
  Proof.
    rewrite (gproduct_terms phi0 v0).
    have E (v : leg -> orb) : \prod_(B <- iota 0 n) NGw (List.map (xl v) (blk st ops B)) =
      \sum_(m <- bmats cp (size L) L) (zr K m.2 * \prod_(b <- m.1.1) M (List.map (kv v) b)) *: NGw (wordl (List.map (kv v) m.1.2)).
    { rewrite gprod_conv exp_map. apply: (@conv_bmats _ cp _ (fun b => M (List.map (kv v) b))) => //; last by move=> b; exact: cpM.
      move=> b O. apply: lnk_even. by rewrite size_map. }
    under eq_bigr do rewrite E scaler_sumr. rewrite exchange_big /=. apply: eq_big_In => m Hm.
    have Sp : sperm L m.2 (flatten m.1.1 ++ m.1.2) by exact: bmats_sperm Hm.
    rewrite /BFv [LHS](@asum_perm _ _ _ _ L (flatten m.1.1 ++ m.1.2)).
    - apply: eq_bigr => v _. rewrite (alt_spermK (PhiL_alternating Talt) (sperm_map (kv v) _ _ _ Sp)) scalerA /BE. congr (_ *: _).
      rewrite List.map_app map_flatten_l mulrACA (zr_sq K Sp) mul1r. congr (_ * _). by rewrite -[List.map _ m.1.1]/(map _ _) big_map.
    - move=> v v' Ev'. have Ek : kv v =1 kv v' by apply: kv_ext. rewrite (List.map_ext _ _ Ek). congr (_ *: _). congr (_ * _ *: _).
      + apply: eq_bigr => b _. by rewrite (List.map_ext _ _ Ek).
      + by rewrite (List.map_ext _ _ Ek).
    - exact: product_nodup.
    - exact: sperm_perm Sp.
  Qed.
End Prod.
