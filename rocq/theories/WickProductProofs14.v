(** C48: contraction of a product of operators gives its value. *)
Set Warnings "-notation-overridden,-ambiguous-paths".
From Coq Require Import ZArith QArith List Lia Permutation.
From mathcomp Require Import all_ssreflect ssralg.
From Verif Require Import CountProofs Res RationalModel RationalSpec RationalProofs RegistryModel CoreModel AlgebraModel AlgebraSpec AlgebraProofs OperatorModel OperatorSpec OperatorProofs3 CombinatoricsModel CombinatoricsProofs AdjointModel OrderProofs WickSearchModel WickSearchSpec CountSpec WickCombSpec WickCombProofs WickLegSpec WickLegProofs SortSpec SortProofs ScalarSem LadderSpec CanonModel CanonSpec CanonProofs2 CanonSemSpec CanonSemProofs
  WickMatchProofs WickMatchProofs2 WickProductSpec WickProductProofs WickProductProofs2 WickProductProofs3 WickProductProofs4 WickProductProofs5 WickProductProofs6 WickProductProofs7 WickProductProofs8 WickEvalModel WickPairProofs WickPairProofs2 WickPairProofs3 WickPairProofs4 WickProductProofs9 WickProductProofs10
  WickGraphSpec WickGraphProofs WickGraphProofs2 WickLegProofs5 WickLegProofs6 WickPairProofs5 WickPairProofs6 WickProductProofs11 WickTotalProofs WickLinearProofs WickProductProofs12 WickElemProofs WickCompProofs WickSearchProofs WickProductProofs13 WickPairSpec WickPairProofs7.
Set Implicit Arguments.
Unset Strict Implicit.
Unset Printing Implicit Defensive.
Import GRing.Theory.
Local Open Scope ring_scope.
Local Notation iota := seq.iota.

Lemma sum_over_ext (K : fieldType) (V : lmodType K) (orb : eqType) (orbs : Z -> seq orb) l (phi : index -> orb) (F G : (index -> orb) -> V) :
  (forall p, F p = G p) -> sum_over orbs l phi F = sum_over orbs l phi G.
Proof. move=> H. elim: l phi => [|i l IH] phi //=. apply: eq_bigr => p _. exact: IH. Qed.
Lemma rsum_linear (K : fieldType) (V V' : lmodType K) (f : {linear V -> V'}) (X : Type) (g : X -> V) (m : seq (X * rational)) :
  rsum (fun t => f (g t)) m = f (rsum g m).
Proof. elim: m => [|x m IH] /=; first by rewrite linear0. by rewrite IH linearD linearZ. Qed.

Section Final.
  Variables (K : fieldType) (A : algType K) (orb : eqType) (st : osi) (cre ann : Z -> orb -> A).
  Hypothesis charK : [char K] =i pred0.
  Hypothesis HL : ladder_relations st cre ann.
  Hypothesis HS : single_reference st.
  Variables (T : text -> seq (Z * orb) -> seq (Z * orb) -> bool -> K) (orbs : Z -> seq orb).
  Hypothesis Uorbs : forall s, uniq (orbs s).
  Variables (ops : oprod) (phi0 : index -> orb) (v0 : leg -> orb).
  Notation n := (length ops).
  Hypothesis Hok : ops_ok st ops.
  Hypothesis Talt : forall B, (B < n)%N -> (forall lo, alternating -%R (fun up => T (labA ops B) lo up false)) /\ (forall up, alternating -%R (fun lo => T (labA ops B) lo up false)).
  Notation NPw := (NP st cre ann).
  Notation Nw := (normal_product st cre ann).
  Notation norms l := (\prod_(o <- l) (op_norm st o)%:R^-1 : K).
  Notation F := (fun ps rest => Fv orbs NPw (PhiL ops T) ps rest v0).
  Notation mts := (mats (lcp st) (msize (blks st ops)).+1 (blks st ops)).

  Lemma key_value t : key_ok st t -> term_value NPw T orbs phi0 t = term_value Nw T orbs phi0 t.
  Proof.
    move=> [_ Sp]. apply: sum_over_ext => phi. rewrite /value_at. congr (_ *: _). apply: NP_normal => x Hx.
    have [o [<- Ho]] := proj1 (in_map_iff _ _ _) Hx. apply: Sp. left. by exists o.
  Qed.
  Lemma product_norms : product_value st cre ann T orbs phi0 ops = norms ops *: \prod_(o <- ops) term_value Nw T orbs phi0 (op_as_term st o).
  Proof. by rewrite /product_value -scaler_prod. Qed.

  Variables (V : lmodType K) (f : {linear A -> V}) (minr maxr : Z).
  Hypothesis Hf : forall w : seq (bool * (Z * orb)), (forall x, In x w -> registered st x.2.1) -> (Z.of_nat (size w) <= ops_rank ops)%Z ->
    ~ (minr <= Z.of_nat (size w) <= maxr)%Z -> f (Nw w) = 0.

  Lemma outside ps rest : Permutation (product_legs st ops) (unz ps ++ rest) -> ~ (minr <= ops_rank ops - 2 * Z.of_nat (length ps) <= maxr)%Z -> f (F ps rest) = 0.
  Proof.
    move=> P Hr. rewrite /Fv linear_sum /=. apply: big1 => v _. rewrite /Ev linearZ /=.
    have Hl := Permutation_length P. have Su : length (unz ps) = (2 * length ps)%coq_nat := size_unz ps. rewrite List.app_length Su in Hl.
    have El := legs_rank st ops Hok. rewrite Hl in El.
    set w := wordl _. have Ew : size w = length rest by rewrite /w /wordl; change (length (List.map (fun y => (lcr y, lsp y)) (List.map (kv v) rest)) = length rest); rewrite !List.map_length.
    have Rw x : In x w -> registered st x.2.1.
    { move=> Hx. have [y [<- Hy]] := proj1 (in_map_iff _ _ _) Hx. have [l [<- Hl']] := proj1 (in_map_iff _ _ _) Hy.
      have I : In l (product_legs st ops) by apply: (Permutation_in l (Permutation_sym P)); apply: List.in_or_app; right.
      by have [_ [? _]] := proj1 (in_product st ops l) I. }
    rewrite (NP_normal cre ann Rw) Hf ?scaler0 //; rewrite Ew; move: El Hr; lia.
  Qed.

  Theorem contract_value o factor r : at_most_double st ops -> canonical factor -> contract o st factor ops minr maxr (Ok r) ->
    f (expr_value Nw T orbs phi0 r) = ratK K factor *: f (product_value st cre ann T orbs phi0 ops).
  Proof.
    move=> D Cf [fuel [C _]]. move: C. rewrite /contract_run. case E: (search fuel o st ops minr maxr) => [[els cvs]| | |] // C.
    have Hg := single_no_general HS.
    have M cv : In cv cvs -> forall c, (mult (List.map (fun c => List.nth (Z.to_nat c) els [::]) cv) c <= 2)%coq_nat.
    { move=> Hcv. have [Al En] := generated_ok _ _ _ _ _ _ _ _ _ Hok E Hcv. apply: links_mult Al En D => // s Hs. by case: (Hg s Hs) => ->. }
    have [Kr Vr] := process_value charK HL HS Uorbs phi0 v0 Hok Talt f Cf E M C.
    have -> : f (expr_value Nw T orbs phi0 r) = rsum (fun t => f (term_value NPw T orbs phi0 t)) r.
    { rewrite rsum_linear /expr_value. congr (f _). apply: rsum_ext_in => x Hx. symmetry. apply: key_value. move/List.Forall_forall: Kr; exact. }
    rewrite Vr product_norms linearZ scalerA /=. congr (_ *: _).
    rewrite (product_matchings HL HS orbs Talt phi0 v0 (ltnSn _)) linear_sum /=. symmetry. have [E1 _] := search_inv E.
    apply: (sum_classes (P := fun cv m => matches ops (List.map (fun c => List.nth (Z.to_nat c) els [::]) cv) m.1.1)); first exact: search_nodup Hok E.
    move=> m Hm. have Po : pairs_ok st ops m.1.1 by apply: (ms_ok HS (fuel := (msize (blks st ops)).+1)); apply/in_map_iff; exists m.
    have [cv [Mc [Cc Pc]]] := class_exists _ _ _ _ _ Hok E1 _ Po.
    have Lo := class_left_over st 0%Z ops els Hok Hg _ _ Po Pc.
    case Rk: ((minr <=? left_over els ops cv) && (left_over els ops cv <=? maxr))%Z.
    - left. exists cv. move/andP: Rk => [/Z.leb_le R1 /Z.leb_le R2]. have Hcv : In cv cvs by apply/(search_in Hok E); split.
      split=> // cv' Hcv'. split=> [/permb_spec P'|->]; last by apply/permb_spec. have [[Mc' _] _] := proj1 (search_in Hok E cv') Hcv'.
      apply: (class_unique _ _ _ _ _ Hok E1) => //. exact: Permutation_trans (Permutation_sym P') Pc.
    - right. split.
      + apply: outside; [by have := sperm_perm _ _ _ (mats_sperm (fuel := (msize (blks st ops)).+1) Hm); rewrite -legs_blks|].
        rewrite -Lo => -[R1 R2]. move/Z.leb_le: R1 Rk => ->. by move/Z.leb_le: R2 => ->.
      + move=> cv' Hcv'. apply/negP => /permb_spec P'. have [_ R'] := proj1 (search_in Hok E cv') Hcv'.
        move: R'. rewrite (class_left_over st 0%Z ops els Hok Hg _ _ Po P') -Lo => -[R1 R2]. move/Z.leb_le: R1 Rk => ->. by move/Z.leb_le: R2 => ->.
  Qed.
End Final.
