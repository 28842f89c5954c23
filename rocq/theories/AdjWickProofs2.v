(** C77: the adjoint of the generalized normal-ordered product. *)
Set Warnings "-notation-overridden,-ambiguous-paths".
From Coq Require Import ZArith List Lia Permutation.
From mathcomp Require Import all_ssreflect ssralg.
From Verif Require Import Res RationalModel RegistryModel CoreModel OperatorModel SortSpec SortProofs ScalarSem LadderSpec CanonSpec CanonSemSpec CanonSemProofs WickSearchModel WickSearchSpec WickLegSpec
  WickMatchProofs WickProductSpec WickTheoremSpec WickProductProofs2 WickProductProofs3 WickGeneralSpec WickConvProofs WickConvProofs2 WickGenProofs WickGenProofs3 WickGenProofs13 AdjWickSpec AdjWickProofs.
Set Implicit Arguments.
Unset Strict Implicit.
Unset Printing Implicit Defensive.
Import GRing.Theory.
Local Open Scope ring_scope.

Section Flip.
  Variable orb : eqType.
  Notation wletter := (bool * (Z * orb))%type.
  Definition fl (x : wletter) : wletter := (~~ x.1, x.2).
  Lemma fl_invol x : fl (fl x) = x. Proof. case: x => [b p]. by rewrite /fl /= negbK. Qed.
  Lemma map_fl w : map fl (map fl w) = w.
  Proof. by elim: w => [|x w IH] //=; rewrite fl_invol IH. Qed.
  Lemma adjointE w : adjoint_word w = rev (map fl w). Proof. by []. Qed.
  Lemma cre_fl w : [seq x.2 | x <- map fl w & x.1] = [seq x.2 | x <- w & ~~ x.1].
  Proof. by elim: w => [|x w IH] //=; case: (x.1) => //=; rewrite IH. Qed.
  Lemma ann_fl w : [seq x.2 | x <- map fl w & ~~ x.1] = [seq x.2 | x <- w & x.1].
  Proof. by elim: w => [|x w IH] //=; case: (x.1) => //=; rewrite IH. Qed.
  Lemma exch_fl (w : seq wletter) : (exchanges w + exchanges (map fl w) = size [seq x.2 | x <- w & x.1] * size [seq x.2 | x <- w & ~~ x.1])%N.
  Proof.
    rewrite !size_map !size_filter. elim: w => [|x w IH] //=. have -> : count fst (map fl w) = count (fun y : wletter => ~~ y.1) w by rewrite count_map; apply: eq_count.
    have -> : count fst w = count (fun y : wletter => y.1) w by [].
    case: (x.1) => /=; rewrite !add0n ?add1n.
    - by rewrite mulSn addnCA IH.
    - by rewrite mulnS -IH addnA.
  Qed.
  Lemma size_parts (w : seq wletter) : size w = (size [seq x.2 | x <- w & x.1] + size [seq x.2 | x <- w & ~~ x.1])%N.
  Proof. rewrite !size_map !size_filter. by rewrite -(count_predC (fun y : wletter => y.1) w). Qed.
  Lemma samesp_fl (w : seq wletter) : samesp (map fl w) = samesp w.
  Proof. case: w => [|x w] //=. rewrite all_map. by []. Qed.
  Lemma spc_fl (w : seq wletter) : spc (map fl w) = spc w. Proof. by case: w. Qed.
End Flip.

Section Densities.
  Variables (K : fieldType) (orb : eqType) (st : osi) (T : text -> seq (Z * orb) -> seq (Z * orb) -> bool -> K) (maxc : nat) (conj : {rmorphism K -> K}).
  Hypothesis HD : densities st T.
  Hypothesis HH : hermitian_densities conj T st.
  Notation wletter := (bool * (Z * orb))%type.
  Notation cum := (cumulant st T maxc).
  Lemma density_conj s (c a : seq (Z * orb)) : registered st s -> size c = size a -> conj (density T maxc (stype st s) a c) = density T maxc (stype st s) c a.
  Proof.
    move=> Rs Es. have HG := HH. rewrite /hermitian_densities in HG. case Et: (stype st s) => [[| |]|] /=; rewrite ?rmorph0 //.
    - case: c a Es => [|p [|? ?]] [|q [|? ?]] //= _; rewrite ?rmorph0 //. by rewrite eq_sym; case: (_ == _); rewrite ?rmorph0 ?rmorph1.
    - have [Hg Hl] := HG (ex_intro _ s (Logic.conj Rs Et)). rewrite -Es. case: ifP => _; first by rewrite -Hg.
      case: ifP => [/andP [K2 _]|_]; last by rewrite rmorph0. rewrite -(Hl _ K2). have [A1 A2] := den_lambda HD K2.
      have R1 := @alt_reverse K [lmodType K of K^o] _ (fun up => T (lambda_text (size c)) a up false) c (A1 a).
      have R2 := @alt_reverse K [lmodType K of K^o] _ (fun lo => T (lambda_text (size c)) lo c false) a (A2 c).
      by rewrite R1 R2 Es.
  Qed.
  Lemma cum_conj b : all (fun x : wletter => regb st x.2.1) b -> (-1) ^+ rv (size b) * conj (cum (map (@fl orb) b)) = cum b.
  Proof.
    move=> Rb. case: b Rb => [|x b] Rb; first by rewrite /= rmorph0 mulr0.
    rewrite !cumE // samesp_fl spc_fl cre_fl ann_fl [size _ == size _]eq_sym. case: ifP => [/andP [Hs /eqP Es]|_]; last by rewrite rmorph0 mulr0.
    set w := x :: b in Hs Es *. have Ex := exch_fl w. rewrite size_parts -Es. rewrite -Es in Ex. set k := size [seq x0.2 | x0 <- w & x0.1] in Ex *.
    rewrite rv_double rmorphM rmorphX rmorphN rmorph1 density_conj //; last by apply: regP; move: Rb => /andP [].
    rewrite mulrA -exprD. congr (_ * _). rewrite -signr_odd -[RHS]signr_odd. congr (_ ^+ _). congr nat_of_bool. rewrite oddD.
    have := congr1 odd Ex. rewrite oddD oddM andbb => <-. by rewrite -addbA addbb addbF.
  Qed.
End Densities.

Section Normal.
  Variables (K : fieldType) (A : algType K) (orb : eqType) (st : osi) (cre ann : Z -> orb -> A) (conj : {rmorphism K -> K}) (star : A -> A).
  Hypothesis HL : ladder_relations st cre ann.
  Hypothesis HS : multi_reference st.
  Hypothesis S : operator_adjoint cre ann conj star.
  Variables (T : text -> seq (Z * orb) -> seq (Z * orb) -> bool -> K) (maxc : nat).
  Hypothesis CJ : forall b : seq (bool * (Z * orb)), all (fun x => regb st x.2.1) b -> (-1) ^+ rv (size b) * conj (cumulant st T maxc (map (@fl orb) b)) = cumulant st T maxc b.
  Notation wletter := (bool * (Z * orb))%type.
  Notation wlad := (wlad st cre ann).
  Notation vac := (npr wlad fst).
  Notation cum := (cumulant st T maxc).
  Notation flips := (map (@fl orb)).
  Lemma star0 : star 0 = 0.
  Proof. have := adj_scale S 0 0. by rewrite !scale0r rmorph0 scale0r. Qed.
  Lemma star_sum (I : Type) (r : seq I) (F : I -> A) : star (\sum_(i <- r) F i) = \sum_(i <- r) star (F i).
  Proof. elim: r => [|i r IH]; first by rewrite !big_nil star0. by rewrite !big_cons (adj_add S) IH. Qed.
  Lemma star_wlad x : star (wlad x) = wlad (fl x).
  Proof. rewrite /WickProductProofs3.wlad /ladder /=. case: ifP => _; last exact: star0. by case: (x.1) => /=; rewrite ?(adj_cre S) ?(adj_ann S). Qed.
  Lemma star_vac w : star (vac w) = vac (rev (flips w)).
  Proof.
    exact: (@npr_star _ _ _ wlad fst (gH1 HL HS) conj star (@fl orb) (adj_one S) (adj_mul S) (adj_scale S) star_wlad (fun x => erefl)).
  Qed.
  Lemma vac_star w : vac w = (-1) ^+ rv (size w) *: star (vac (flips w)).
  Proof. by rewrite star_vac map_fl (alt_reverse _ (vac_alternating HL HS)) scalerA sg2 scale1r. Qed.
  Lemma all_flips w : all (fun x : wletter => regb st x.2.1) (flips w) = all (fun x : wletter => regb st x.2.1) w.
  Proof. by rewrite all_map. Qed.

  Variable N : seq wletter -> A.
  Hypothesis HN : generalized_normal_product st cre ann T maxc N.
  Hypothesis Nalt : forall w, (forall x, In x w -> registered st x.2.1) -> N (rev w) = (-1) ^+ rv (size w) *: N w.
  Lemma star_normal_flips : generalized_normal_product st cre ann T maxc (fun u => (-1) ^+ rv (size u) *: star (N (flips u))).
  Proof.
    move=> w Hw. have Aw := all_reg Hw. rewrite -(vac_product cre ann Hw) vac_star.
    have Hf : forall x, In x (flips w) -> registered st x.2.1 by apply: reg_all; rewrite all_flips.
    rewrite (vac_product cre ann Hf) (HN Hf) -!conv_splits conv_map.
    have -> : conv (moment cum) (fun u => (-1) ^+ rv (size u) *: star (N (flips u))) w = conv (fun b => (-1) ^+ rv (size b) * conj (moment cum (flips b))) (fun u => (-1) ^+ rv (size u) *: star (N (flips u))) w.
    { apply: (conv_extQ Aw) => // b Ab. rewrite (moment_map (@fl orb)) -(moment_conj conj); last by move=> c O; rewrite cum_even // size_map.
      apply: (moment_extQ Ab) => c Ac _. symmetry. exact: CJ. }
    rewrite !conv_splits /split_sum star_sum scaler_sumr. apply: eq_big_In => p /splits_size Sp.
    rewrite (adj_scale S) rmorphM rmorphX rmorphN rmorph1 !scalerA. case O: (odd (size p.1.2)).
    - by rewrite (moment_even (@cum_even _ _ st T maxc)) ?size_map // rmorph0 !mulr0 !mul0r.
    - have Q (e s1 s2 m : K) : s1 * s2 * (e * m) = e * (s1 * m) * s2 by rewrite -!mulrA [s2 * (e * _)]mulrCA [s1 * (e * _)]mulrCA [s2 * m]mulrC.
      by rewrite -Sp rv_even ?O // Q.
  Qed.
  Theorem star_normal w : (forall x, In x w -> registered st x.2.1) -> star (N w) = N (adjoint_word w).
  Proof.
    move=> Hw. have Hf : forall x, In x (flips w) -> registered st x.2.1 by apply: reg_all; rewrite all_flips; exact: all_reg.
    rewrite adjointE Nalt // (normal_unique HN star_normal_flips Hf) map_fl scalerA sg2 scale1r. by [].
  Qed.
End Normal.
