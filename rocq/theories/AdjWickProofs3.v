(** C77: the values of adjoint operators and products. *)
Set Warnings "-notation-overridden,-ambiguous-paths".
From Coq Require Import ZArith List Lia Permutation.
From mathcomp Require Import all_ssreflect ssralg.
From Verif Require Import Res RationalModel RationalSpec RationalProofs RegistryModel CoreModel OrderProofs AlgebraModel AlgebraSpec AlgebraProofs OperatorModel OperatorSpec AdjointProofs SortSpec SortProofs ScalarSem LadderSpec CanonSpec CanonSemSpec CanonSemProofs WickSearchModel WickSearchSpec WickCombSpec WickCombProofs CountProofs WickLegSpec WickLegProofs
  WickMatchProofs WickProductSpec WickTheoremSpec WickProductProofs WickProductProofs2 WickProductProofs3 WickProductProofs4 WickGeneralSpec WickGenProofs WickGenProofs13 AdjWickSpec AdjWickProofs AdjWickProofs2.
Set Implicit Arguments.
Unset Strict Implicit.
Unset Printing Implicit Defensive.
Import GRing.Theory.
Local Open Scope ring_scope.

(** ** Legs of the adjoint operator *)
Definition flleg (l : leg) : leg := ((leg_op l, leg_space l, ~~ leg_cre l), snd l).
Section Legs.
  Variables (st : osi) (o o' : oper).
  Hypothesis Ho : forall s : Z, is_space st s -> cre_of (op_gm o') s = ann_of (op_gm o) s /\ ann_of (op_gm o') s = cre_of (op_gm o) s.
  Lemma Ho1 s : is_space st s -> cre_of (op_gm o') s = ann_of (op_gm o) s. Proof. by case/Ho. Qed.
  Lemma Ho2 s : is_space st s -> ann_of (op_gm o') s = cre_of (op_gm o) s. Proof. by case/Ho. Qed.
  Lemma cre_fl_legs : op_cre_legs st [:: o'] 0 = List.map flleg (op_ann_legs st [:: o] 0).
  Proof.
    rewrite /op_cre_legs /op_ann_legs. have H s : In s (range (num_spaces st)) -> is_space st s by move/range_in.
    elim: (range (num_spaces st)) H => [|s l IH] H //=. rewrite IH; last by move=> x Hx; apply: H; right.
    have Hs : is_space st s by apply: H; left. have E1 : ops_cre [:: o'] 0 s = ops_ann [:: o] 0 s := Ho1 Hs.
    rewrite E1 List.map_app. congr (_ ++ _)%list. rewrite [RHS]List.map_map. by apply: List.map_ext => y.
  Qed.
  Lemma ann_fl_legs : op_ann_legs st [:: o'] 0 = List.map flleg (op_cre_legs st [:: o] 0).
  Proof.
    rewrite /op_cre_legs /op_ann_legs. have H s : In s (range (num_spaces st)) -> is_space st s by move/range_in.
    elim: (range (num_spaces st)) H => [|s l IH] H //=. rewrite IH; last by move=> x Hx; apply: H; right.
    have Hs : is_space st s by apply: H; left. have E1 : ops_ann [:: o'] 0 s = ops_cre [:: o] 0 s := Ho2 Hs.
    rewrite E1 List.map_app. congr (_ ++ _)%list. rewrite [RHS]List.map_map. by apply: List.map_ext => y.
  Qed.
  Lemma blk_fl : blk st [:: o'] 0 = List.map flleg (rev (blk st [:: o] 0)).
  Proof. by rewrite /blk cre_fl_legs ann_fl_legs !rev_eq rev_cat revK List.map_app /= -!rev_eq List.map_rev. Qed.
  Lemma norm_fl : op_norm st o' = op_norm st o.
  Proof.
    rewrite /op_norm. have H s : In s (range (num_spaces st)) -> is_space st s by move/range_in.
    elim: (range (num_spaces st)) H => [|s l IH] H; first by rewrite !big_nil.
    rewrite !big_cons IH; last by move=> x Hx; apply: H; right.
    have Hs : is_space st s by apply: H; left. by rewrite (Ho1 Hs) (Ho2 Hs) [(_`! * _`!)%N]mulnC.
  Qed.
End Legs.

Section Values.
  Variables (K : fieldType) (A : algType K) (orb : eqType) (st : osi) (cre ann : Z -> orb -> A) (conj : {rmorphism K -> K}) (star : A -> A).
  Hypothesis S : operator_adjoint cre ann conj star.
  Variables (T : text -> seq (Z * orb) -> seq (Z * orb) -> bool -> K) (N : seq (bool * (Z * orb)) -> A) (orbs : Z -> seq orb) (phi0 : index -> orb).
  Hypothesis SN : forall w, (forall x, In x w -> registered st x.2.1) -> star (N w) = N (adjoint_word w).
  Notation opv := (gop_value st T N orbs phi0).
  Notation pv := (gproduct_value st T N orbs phi0).
  Notation ev := (gopexpr_value st T N orbs phi0).

  Lemma word_fl (v v' : leg -> orb) (b : seq leg) : (forall l, In l b -> v l = v' (flleg l)) -> adjoint_word (List.map (xl v) b) = List.map (xl v') (List.map flleg (rev b)).
  Proof.
    move=> H. rewrite adjointE -[List.map _ (List.map _ _)]/(map _ (map _ _)) !map_rev. congr rev. rewrite -!map_comp.
    elim: b H => [|l b IH] H //=. rewrite IH; last by move=> k Hk; apply: H; right. congr (_ :: _). by rewrite /xl /fl /xs /= (H l (or_introl erefl)).
  Qed.
  Lemma op_star o o' : (nsp st <= max_spaces)%coq_nat -> op_valid st o -> hermitian_tensor conj T (op_label o) -> op_adjoint st o = Ok o' -> opv o' = star (opv o).
  Proof.
    move=> Hn V HT E. have [q [Eq [_ [_ [El [_ Ho]]]]]] := op_adjoint_spec st o Hn V. move: Eq. rewrite E => -[Eq]. rewrite -Eq in El Ho. clear q Eq.
    rewrite /gop_value (adj_scale S) (norm_fl Ho) fmorphV rmorph_nat. congr (_ *: _).
    pose v0 (l : leg) := phi0 (mkI Z0 Z0).
    have E1 := op_term_value N T orbs st [:: o] phi0 v0 0. have E2 := op_term_value N T orbs st [:: o'] phi0 v0 0. rewrite [List.nth 0 [:: o] _]/= in E1. rewrite [List.nth 0 [:: o'] _]/= in E2.
    rewrite E1 E2 (star_sum S).
    have ND : NoDup (blk st [:: o] 0) by have := product_nodup st [:: o]; rewrite /product_legs /= List.app_nil_r.
    have ND' : NoDup (blk st [:: o'] 0) by have := product_nodup st [:: o']; rewrite /product_legs /= List.app_nil_r.
    have Pr : Permutation (blk st [:: o] 0) (rev (blk st [:: o] 0)) by rewrite -rev_eq; exact: Permutation_rev.
    have G v v' : List.map v (rev (blk st [:: o] 0)) = List.map v' (blk st [:: o'] 0) ->
      star (tel T st [:: o] v 0 *: N (List.map (xl v) (blk st [:: o] 0))) = tel T st [:: o'] v' 0 *: N (List.map (xl v') (blk st [:: o'] 0)).
    { rewrite (blk_fl Ho) List.map_map => Ev. have Hv l : In l (blk st [:: o] 0) -> v l = v' (flleg l).
      { move=> Hl. apply: (@List.ext_in_map _ _ _ _ _ Ev). exact: Permutation_in Pr Hl. }
      rewrite (adj_scale S) SN; last by move=> x /in_map_iff [l [<- /in_blk [_ Hl]]]; exact: Hl.
      rewrite (word_fl Hv). congr (_ *: _). rewrite /tel (cre_fl_legs Ho) (ann_fl_legs Ho) /= El -HT !List.map_map.
      congr (T _ _ _ _).
      - apply: List.map_ext_in => l Hl; rewrite /xs /= Hv //; apply: List.in_or_app; right. exact: (proj1 (List.in_rev _ _) Hl).
      - apply: List.map_ext_in => l Hl; rewrite /xs /= Hv //; apply: List.in_or_app; left. exact: Hl. }
    rewrite (asum_perm orbs _ _ ND Pr); last first.
    { move=> v w Evw. congr star. congr (T _ _ _ _ *: N _); apply: List.map_ext => l; by rewrite /xl /xs Evw. }
    symmetry. have NDr : NoDup (rev (blk st [:: o] 0)) by rewrite -rev_eq; exact: List.NoDup_rev.
    apply: (asum_pos orbs v0 v0 _ NDr ND' G). by rewrite (blk_fl Ho) List.map_map.
  Qed.
  Lemma prod_star ops ops' : ops_ok st ops -> (forall o, In o ops -> hermitian_tensor conj T (op_label o)) -> oprod_adjoint st ops = Ok ops' -> pv ops' = star (pv ops).
  Proof.
    move=> [Hn F] HT. have V : oprod_valid st ops by apply: Forall_impl F => o [].
    have [-> _] := oprod_adjoint_ok st ops Hn V. move=> [<-]. rewrite /gproduct_value /prodadj.
    elim: ops F HT V => [|o ops IH] F HT V; first by rewrite !big_nil (adj_one S).
    rewrite /= big_cons big_cat /= big_seq1 (adj_mul S) -IH; [|exact: Forall_inv_tail F|by move=> q Hq; apply: HT; right|exact: Forall_inv_tail V].
    congr (_ * _). apply: op_star => //; [exact: Forall_inv V|by apply: HT; left|]. by have [] := opadj_ok st o Hn (Forall_inv V).
  Qed.
  Hypothesis ch : [char K] =i pred0.
  Lemma expr_star e e' : (nsp st <= max_spaces)%coq_nat -> mcanon e -> (forall x, In x e -> ops_ok st x.1 /\ forall o, In o x.1 -> hermitian_tensor conj T (op_label o)) ->
    opexpr_adjoint st e = Ok e' -> ev e' = star (ev e).
  Proof.
    move=> Hn C H. have V : opexpr_valid st e. { apply/List.Forall_forall => x /H [[_ F] _]. by apply: Forall_impl F => o []. }
    rewrite opexpr_adjoint_ok // => -[<-]. rewrite /gopexpr_value /rekey.
    have Rs : respectsV (V := A) oprod_eqb (fun _ => True) pv by move=> k k' _ _ /oprod_eqb_eq ->.
    rewrite (rsum_addall ch swo_oprod Rs (fk := fun x => prodadj st x.1) (fc := snd)); first last.
    - by constructor.
    - exact: mcanon_good.
    - by constructor.
    - by apply/List.Forall_forall.
    rewrite /= add0r. elim: (e) V H => [|x e0 IH] V H; first by rewrite /= (star0 S).
    rewrite /= IH; [|exact: List.Forall_inv_tail V|by move=> y Hy; apply: H; right].
    rewrite (adj_add S) (adj_scale S) /ratK rmorphM fmorphV. have Z z : conj (zr K z) = zr K z by case: z => [|p|p]; rewrite /zr ?rmorph0 ?rmorphN ?rmorph_nat.
    rewrite !Z. congr (_ *: _ + _). have [Ok1 HT] := H x (or_introl erefl). apply: prod_star => //. by have [] := oprod_adjoint_ok st x.1 Hn (List.Forall_inv V).
  Qed.
End Values.
