(** C48: the value of one evaluated contraction. *)
Set Warnings "-notation-overridden,-ambiguous-paths".
From Coq Require Import ZArith QArith List Lia Permutation.
From mathcomp Require Import all_ssreflect ssralg.
From Verif Require Import CountProofs Res RationalModel RationalSpec RationalProofs RegistryModel CoreModel AlgebraModel AlgebraSpec AlgebraProofs OperatorModel OperatorSpec OperatorProofs3 CombinatoricsModel CombinatoricsProofs AdjointModel OrderProofs WickSearchModel WickSearchSpec CountSpec WickCombSpec WickCombProofs WickLegSpec WickLegProofs SortSpec SortProofs ScalarSem LadderSpec CanonModel CanonSpec CanonProofs2 CanonSemSpec CanonSemProofs
  WickMatchProofs WickMatchProofs2 WickProductSpec WickProductProofs WickProductProofs2 WickProductProofs3 WickProductProofs4 WickProductProofs5 WickProductProofs6 WickProductProofs7 WickProductProofs8 WickEvalModel WickPairProofs WickPairProofs2 WickPairProofs3 WickPairProofs4 WickProductProofs9 WickProductProofs10
  WickGraphSpec WickGraphProofs WickGraphProofs2 WickLegProofs5 WickLegProofs6 WickPairProofs5 WickPairProofs6 WickProductProofs11 WickTotalProofs WickLinearProofs.
Set Implicit Arguments.
Unset Strict Implicit.
Unset Printing Implicit Defensive.
Import GRing.Theory.
Local Open Scope ring_scope.
Local Notation iota := seq.iota.

Lemma fact_eq n : fact n = n`!.
Proof. elim: n => [|n IH] //. by rewrite factS -IH. Qed.
Lemma factorial_nat z : factorial z = Z.of_nat (Z.to_nat z)`!.
Proof.
  case: (Z_le_gt_dec 0 z) => H.
  - rewrite -{1}(Z2Nat.id z H) factorial_fact. by rewrite fact_eq.
  - rewrite factorial_neg; last lia. have -> : Z.to_nat z = 0%N by lia. by [].
Qed.

Section Factors.
  Variables (K : fieldType) (st : osi).
  Hypothesis charK : [char K] =i pred0.
  Lemma zr_zprod (l : seq Z) (g : Z -> Z) (h : Z -> nat) : (forall s, g s = Z.of_nat (h s)) -> zr K (zprod (List.map g l)) = (\prod_(s <- l) h s)%N%:R.
  Proof.
    move=> H. elim: l => [|s l IH]; first by rewrite big_nil. rewrite /= big_cons natrM -IH /zprod /= -/(zprod _) zrM H zr_nat. by [].
  Qed.
  Lemma op_factor_norm o : ratK K (op_factor st o) = (op_norm st o)%:R^-1.
  Proof.
    have [Ca E] := op_factor_val st o. have Dn := canonical_den _ Ca.
    have X := qK_eq charK E. rewrite qK_mul -ratK_q // in X.
    have Y : qK K (inject_Z (zprod (List.map (fun s => factorial (cre_of (op_gm o) s)) (range (num_spaces st))) * zprod (List.map (fun s => factorial (ann_of (op_gm o) s)) (range (num_spaces st))))) = (op_norm st o)%:R.
    { rewrite /qK /inject_Z /= divr1 zrM. rewrite (zr_zprod _ (fun s => factorial_nat (cre_of (op_gm o) s))) (zr_zprod _ (fun s => factorial_nat (ann_of (op_gm o) s))).
      by rewrite -natrM -big_split. }
    rewrite Y in X. have X1 : qK K (1#1)%Q = 1 by rewrite /qK /= divr1. rewrite X1 in X.
    have N0 : (op_norm st o)%:R != 0 :> K by apply/eqP => Z0; rewrite Z0 mulr0 in X; move/eqP: X; rewrite eq_sym oner_eq0.
    by apply: (mulIf N0); rewrite X mulVf.
  Qed.
  Lemma fold_factors (ops : oprod) f : canonical f ->
    ratK K (fold_left (fun f o => rat_mul f (op_factor st o)) ops f) = ratK K f * \prod_(o <- ops) (op_norm st o)%:R^-1.
  Proof.
    elim: ops f => [|o ops IH] f Cf; first by rewrite big_nil mulr1. rewrite /= big_cons IH; last by apply: rat_mul_canonical => //; exact: (proj1 (op_factor_val st o)).
    rewrite ratK_mul //; [|exact: canonical_den|exact: canonical_den (proj1 (op_factor_val st o))]. by rewrite op_factor_norm mulrA.
  Qed.
End Factors.

Section Eval.
  Variables (K : fieldType) (V : lmodType K) (orb : eqType) (st : osi).
  Hypothesis charK : [char K] =i pred0.
  Hypothesis HS : single_reference st.
  Variables (T : text -> seq (Z * orb) -> seq (Z * orb) -> bool -> K) (orbs : Z -> seq orb) (W : seq (bool * (Z * orb)) -> V).
  Hypothesis Uorbs : forall s, uniq (orbs s).
  Variables (ops : oprod) (cs : seq econ) (maxc : Z).
  Notation n := (length ops).
  Hypothesis Hok : ops_ok st ops.
  Hypothesis Talt : forall B, (B < n)%N -> (forall lo, alternating -%R (fun up => T (labA ops B) lo up false)) /\ (forall up, alternating -%R (fun lo => T (labA ops B) lo up false)).
  Hypothesis Al : Forall (allowed st maxc ops) cs.
  Hypothesis En : enough_legs st ops cs.
  Definition good_term (t : term) : Prop := term_spaces st t /\ ops_covered t /\ no_conj t /\ (forall d, In d (tm_tens t) -> symmetric_as_declared T d).

  Lemma eval_value f t fc phi0 v0 : canonical f -> evaluate_contraction st ops cs f = Ok (t, fc) ->
    good_term t /\ canonical fc /\ exists ps rest, rep st ops cs ps rest /\
      ratK K fc *: term_value W T orbs phi0 t = (ratK K f * \prod_(o <- ops) (op_norm st o)%:R^-1 * ratK K (combinatorial_factor st ops cs)) *: Fv orbs W (PhiL ops T) ps rest v0.
  Proof.
    move=> Cf E. have [t0 [s [ix [picks [effects [rest [E' Ev]]]]]]] := evaluate_ok st maxc ops cs f Hok Al En. move: E. rewrite E' => -[Et <-] {fc}. rewrite {t0}Et in E' Ev.
    have [ps [F [Sp Et]]] := evaluation_pairs st ops maxc Hok (single_no_general HS) cs t s ix picks effects rest Al Ev. rewrite unpair_unz in Sp.
    have Hix := ev_labels _ _ _ _ _ _ _ _ _ Ev.
    have Hp : forall p, In p ps -> pair_ok st ops p.1 p.2. { move=> p Hp. have [c [_ [H _]]] := Forall2_in_l _ _ _ _ F Hp. exact: H. }
    have Hm : List.map (econ_pair ops) ps = cs. { elim: F => [|p c l l' [_ ->] _ IH] //=. by rewrite IH. }
    have CK := combinatorial_canonical st ops cs. have CF := factors_canonical st ops f Cf.
    have Cc : canonical (rat_mul (rat_of_Z s) (fold_left (fun f o => rat_mul f (op_factor st o)) ops f)) by apply: rat_mul_canonical => //; exact: rat_of_Z_canonical.
    have PT := @pair_term_value K V orb st ops W T orbs Talt Uorbs ix ps rest s Hix (fun p H => proj1 (proj2 (proj2 (Hp p H)))) Sp phi0 v0.
    have PI := pt_indices Hix Sp.
    have Etp : pair_term st ops ix ps rest = t by rewrite Et.
    rewrite Etp in PT PI. split; [split; [|split; [|split]]|split; [exact: rat_mul_canonical|]].
    - exact: eval_spaces Al Ev.
    - move=> i [x [Hx <-]]. rewrite -Etp in Hx. have [y [<- Hy]] := proj1 (in_map_iff _ _ _) Hx. have [l [<- Hl]] := proj1 (in_map_iff _ _ _) Hy.
      have Hl' : In l (product_legs st ops) by exact: pt_rest Sp _ Hl. have [A [HA HlA]] := leg_in_op Hl'.
      rewrite -Etp /in_tensors /pair_term /=. eexists. split; first by apply: List.in_map; apply: List.in_map; apply/in_seq; split; [exact: le_0_n|exact: HA].
      rewrite /tensor_reindex /op_tensor /= !List.map_map. case: HlA => H; [left|right]; apply/in_map_iff; by exists l.
    - rewrite /no_conj -Etp. apply/List.Forall_forall => d Hd. have [e [<- He]] := proj1 (in_map_iff _ _ _) Hd. by have [A [<- _]] := proj1 (in_map_iff _ _ _) He.
    - move=> d. rewrite -Etp => Hd. have [e [<- He]] := proj1 (in_map_iff _ _ _) Hd. have [A [<- /in_seq HA]] := proj1 (in_map_iff _ _ _) He.
      rewrite /symmetric_as_declared /=. apply: (Talt (B := A)). apply/ltP. lia.
    - exists ps, rest. split; first by split=> //; split; [rewrite Hm|exact: sperm_perm Sp].
      rewrite -PT scalerA ratK_mul //; [|exact: canonical_den|exact: canonical_den]. rewrite ratK_mul //; [|exact: canonical_den]. rewrite ratK_Z fold_factors //. congr (_ *: _).
      by rewrite -[zr K s * _ * _]mulrA mulrC.
  Qed.
End Eval.
