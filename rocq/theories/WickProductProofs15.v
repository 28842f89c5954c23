(** C48: operator expressions; expectation values. *)
Set Warnings "-notation-overridden,-ambiguous-paths".
From Coq Require Import ZArith QArith List Lia Permutation.
From mathcomp Require Import all_ssreflect ssralg.
From Verif Require Import CountProofs Res RationalModel RationalSpec RationalProofs RegistryModel CoreModel AlgebraModel AlgebraSpec AlgebraProofs OperatorModel OrderProofs WickSearchModel WickSearchSpec WickCombSpec SortSpec SortProofs ScalarSem LadderSpec CanonModel CanonSpec CanonSemSpec CanonSemProofs
  WickProductSpec WickProductProofs2 WickProductProofs3 WickProductProofs5 WickProductProofs9 WickEvalModel WickLegProofs6 WickLinearProofs WickPairProofs WickProductProofs13 WickPairSpec WickPairProofs7 WickProductProofs14 WickTheoremSpec.
Set Implicit Arguments.
Unset Strict Implicit.
Unset Printing Implicit Defensive.
Import GRing.Theory.
Local Open Scope ring_scope.

Section Expr.
  Variables (K : fieldType) (A : algType K) (orb : eqType) (st : osi) (cre ann : Z -> orb -> A).
  Hypothesis charK : [char K] =i pred0.
  Hypothesis HL : ladder_relations st cre ann.
  Hypothesis HS : single_reference st.
  Variables (T : text -> seq (Z * orb) -> seq (Z * orb) -> bool -> K) (orbs : Z -> seq orb).
  Hypothesis Uorbs : forall s, uniq (orbs s).
  Variables (phi0 : index -> orb).
  Notation NPw := (NP st cre ann).
  Notation Nw := (normal_product st cre ann).
  Notation tv := (term_value NPw T orbs phi0).
  Notation product_ok := (product_ok st T).

  Lemma labels ops : product_ok ops -> forall B, (B < length ops)%N -> antisymmetric_tensor T (labA ops B).
  Proof. move=> [_ [_ H]] B HB. apply: H. apply: nth_In. exact/ltP. Qed.
  Lemma contract_product ops (V : lmodType K) (f : {linear A -> V}) minr maxr o factor r : product_ok ops -> only_ranks st cre ann f (ops_rank ops) minr maxr ->
    canonical factor -> contract o st factor ops minr maxr (Ok r) ->
    f (expr_value Nw T orbs phi0 r) = ratK K factor *: f (product_value st cre ann T orbs phi0 ops).
  Proof.
    move=> P Hf Cf C. have [Hok [D _]] := P.
    exact: (contract_value charK HL HS Uorbs phi0 (fun l : leg => phi0 (mkI 0 0)) Hok (labels P) Hf D Cf C).
  Qed.
  Lemma contract_keys o factor ops minr maxr r : product_ok ops -> canonical factor -> contract o st factor ops minr maxr (Ok r) -> keysP (key_ok st) r.
  Proof.
    move=> P Cf [fuel [C _]]. have [Hok [D _]] := P. move: C. rewrite /contract_run. case E: (search fuel o st ops minr maxr) => [[els cvs]| | |] // C.
    apply: (proj1 (process_value charK HL HS Uorbs phi0 (fun l : leg => phi0 (mkI 0 0)) Hok (labels P) [linear of idfun] Cf E _ C)).
    move=> cv Hcv. have [Al En] := generated_ok _ _ _ _ _ _ _ _ _ Hok E Hcv. apply: links_mult Al En D => // s Hs. by case: (single_no_general HS Hs) => ->.
  Qed.
  Lemma value_keys r : keysP (key_ok st) r -> expr_value Nw T orbs phi0 r = rsum tv r.
  Proof. move=> Kr. apply: rsum_ext_in => x Hx. symmetry. apply: key_value. move/List.Forall_forall: Kr; exact. Qed.
  Lemma tv_ok : respectsV (V := A) term_eqb (key_ok st) tv.
  Proof. move=> k k' [Hk _] [Hk' _] Ek. exact: tv_respects. Qed.

  Lemma expr_contract (V : lmodType K) (f : {linear A -> V}) minr maxr o factor e r : canonical factor -> mcanon e ->
    (forall x, In x e -> product_ok x.1 /\ only_ranks st cre ann f (ops_rank x.1) minr maxr) ->
    contract_expr o st factor e minr maxr (Ok r) ->
    f (expr_value Nw T orbs phi0 r) = ratK K factor *: f (opexpr_value st cre ann T orbs phi0 e).
  Proof.
    move=> Cf Ce He [rs [Fr Er]].
    have G : forall e0 rs0, Forall2 (fun x r => contract o st (rat_mul factor x.2) x.1 minr maxr r) e0 rs0 -> mcanon e0 -> (forall x, In x e0 -> In x e) ->
      forall acc r0, keysP (key_ok st) acc -> mgood acc -> foldM add_result acc rs0 = Ok r0 ->
      keysP (key_ok st) r0 /\ f (rsum tv r0) = f (rsum tv acc) + ratK K factor *: f (opexpr_value st cre ann T orbs phi0 e0).
    { move=> e0 rs0. elim=> [|x r1 e1 rs1 P1 F1 IH] C0 Hin acc r0 Ka Ga.
      - move=> [<-]. by rewrite /opexpr_value /= linear0 scaler0 addr0.
      - rewrite /=. case E1: r1 P1 => [l| | |] //= P1 Ef. have [Px Rx] := He x (Hin x (or_introl erefl)).
        have Cx : canonical x.2 by case/Forall_cons_iff: C0. have Cm : canonical (rat_mul factor x.2) by exact: rat_mul_canonical.
        have Kl := contract_keys Px Cm P1. have Vl := contract_product Px Rx Cm P1.
        have N1 : ~ (Qval (rat_of_Z 1) == 0)%Q by [].
        have Gl : mgood l by apply: mcanon_good; exact: (proj2 (contract_scale _ _ _ _ _ _ _ _ Cm (rat_of_Z_canonical 1) N1 P1) l erefl).
        have C1 : mcanon e1 by case/Forall_cons_iff: C0.
        have [Kr Vr] := IH C1 (fun y Hy => Hin y (or_intror Hy)) _ _ (keysP_mplus term_ltb _ _ _ Ka Kl) (mgood_addall term_ltb term_eqb swo_term fst snd l acc Gl Ga) Ef.
        split=> //. rewrite Vr {2}/opexpr_value /= linearD scalerDr addrA. congr (_ + _).
        rewrite linearZ scalerA /= -ratK_mul //; try exact: canonical_den. rewrite -Vl (value_keys Kl) /mplus (rsum_addall charK swo_term tv_ok) // linearD /=. congr (_ + f (rsum _ _)).
        elim: (l) => [|[k c] l' IHl] //=. by rewrite IHl. }
    have [Kr Vr] := G e rs Fr Ce (fun _ H => H) [::] r (List.Forall_nil _) (List.Forall_nil _) (esym Er).
    by rewrite (value_keys Kr) Vr /= linear0 add0r.
  Qed.

  Lemma only_full bound lo hi : (lo <= 0)%Z -> (bound <= hi)%Z -> only_ranks st cre ann [linear of idfun : A -> A] bound lo hi.
  Proof. move=> H1 H2 w _ Hw []. lia. Qed.

  (** ** The expectation value *)
  Variable f : {linear A -> K^o}.
  Hypothesis Rf : reference_state st cre ann f.
  Lemma ref_normal w : (forall x, In x w -> registered st x.2.1) -> f (Nw w) = no_operators K w.
  Proof.
    case: w => [|x w] H; first by rewrite /=; exact: ref_one Rf. rewrite /=. have Rx := H x (or_introl erefl). case E: (makes_excitation st x).
    - exact: ref_left Rf _ _ Rx E.
    - rewrite linearZ /= (ref_right Rf) ?scaler0 //. by rewrite E.
  Qed.
  Lemma only_zero bound : only_ranks st cre ann f bound 0 0.
  Proof. move=> w H _ Hs. rewrite ref_normal //. case: w H Hs => [|x w] H Hs //. by case: Hs; split; rewrite /=; lia. Qed.
  Lemma sum_over_linear l (phi : index -> orb) (F : (index -> orb) -> A) : f (sum_over orbs l phi F) = sum_over orbs l phi (fun p => f (F p) : K^o).
  Proof. elim: l phi => [|i l IH] phi //=. rewrite linear_sum. by apply: eq_bigr => p _; exact: IH. Qed.
  Lemma ref_value r : keysP (key_ok st) r -> f (expr_value Nw T orbs phi0 r) = expr_value (no_operators K (orb := orb)) T orbs phi0 r.
  Proof.
    move=> Kr. rewrite /expr_value -rsum_linear. apply: rsum_ext_in => x Hx. have [_ Sp] : key_ok st x.1 by move/List.Forall_forall: Kr; exact.
    rewrite /term_value sum_over_linear. apply: sum_over_ext => phi. rewrite /value_at linearZ. congr (_ *: _). apply: ref_normal => y Hy.
    have [c [<- Hc]] := proj1 (in_map_iff _ _ _) Hy. apply: Sp. left. by exists c.
  Qed.
  Lemma expectation o factor ops r : product_ok ops -> canonical factor -> contract o st factor ops 0 0 (Ok r) ->
    expr_value (no_operators K (orb := orb)) T orbs phi0 r = ratK K factor * f (product_value st cre ann T orbs phi0 ops).
  Proof. move=> P Cf C. rewrite -(ref_value (contract_keys P Cf C)). exact: contract_product P (only_zero (bound := _)) Cf C. Qed.
End Expr.
