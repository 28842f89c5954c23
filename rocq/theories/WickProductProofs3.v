(** C48: the product of the operators as a sum over sets of contracted pairs. *)
Set Warnings "-notation-overridden,-ambiguous-paths".
From Coq Require Import ZArith List Lia Permutation.
From mathcomp Require Import all_ssreflect ssralg.
From Verif Require Import CountProofs Res RationalModel RegistryModel CoreModel OperatorModel OrderProofs WickSearchModel WickSearchSpec CountSpec WickCombSpec WickCombProofs WickLegSpec WickLegProofs SortSpec SortProofs ScalarSem LadderSpec CanonSemSpec CanonSemProofs
  WickMatchProofs WickMatchProofs2 WickProductSpec WickProductProofs WickProductProofs2.
Set Implicit Arguments.
Unset Strict Implicit.
Unset Printing Implicit Defensive.
Import GRing.Theory.
Local Open Scope ring_scope.

Lemma npr_map (K : fieldType) (A : algType K) (X Y : Type) (a : Y -> A) (cr : Y -> bool) (f : X -> Y) w :
  npr (a \o f) (cr \o f) w = npr a cr (List.map f w).
Proof. elim: w => [|x w IH] //=. by rewrite IH size_map. Qed.
Lemma npr_ext (K : fieldType) (A : algType K) (X : Type) (a b : X -> A) cr w : (forall x, In x w -> a x = b x) -> npr a cr w = npr b cr w.
Proof. elim: w => [|x w IH] //= H. rewrite H; last by left. rewrite IH // => y Hy. by apply: H; right. Qed.
(** Only pairs from different blocks matter. *)
Section MatsExt.
  Variables (X : Type) (cp cp' : X -> X -> bool).
  Fixpoint cross (ws : seq (seq X)) : Prop :=
    match ws with [::] => True | w :: ws' => (forall x y, In x w -> In y (flatten ws') -> cp x y = cp' x y) /\ cross ws' end.
  Lemma bpicks_in2 (ws : seq (seq X)) p y : In p (bpicks ws) -> In y (flatten p.2) -> In y (flatten ws).
  Proof. move=> /bpicks_spec [l1 [l2 [-> [-> _]]]] H. apply List.in_app_or in H. apply: List.in_or_app. rewrite /=. tauto. Qed.
  Lemma bpicks_elem (ws : seq (seq X)) p : In p (bpicks ws) -> In p.1.2 (flatten ws).
  Proof. move=> /bpicks_spec [l1 [l2 [-> _]]]. apply: List.in_or_app; right; by left. Qed.
  Lemma bpicks_cross (ws : seq (seq X)) p : In p (bpicks ws) -> cross ws -> cross p.2.
  Proof.
    elim: ws p => [|w ws IH] p //= H [A B]. apply List.in_app_or in H. case: H => /in_map_iff [q [<- Hq]] /=.
    - split=> // x y Hx. apply: A. move/picks_spec: Hq => [l1 [l2 [-> [E _]]]]. rewrite E in Hx. apply List.in_app_or in Hx. apply: List.in_or_app; rewrite /=; tauto.
    - split; last exact: IH. move=> x y Hx Hy. apply: A => //. exact: bpicks_in2 Hq Hy.
  Qed.
  Lemma mats_ext fuel ws : cross ws -> mats cp fuel ws = mats cp' fuel ws.
  Proof.
    elim: fuel ws => [|n IH] ws //. case: ws => [|[|x w] ws] //=.
    - by case=> _; apply: IH.
    - move=> [A B]. rewrite IH; last by split=> // y z Hy; apply: A; right. congr (_ ++ _). congr (flatten _).
      have G : forall l : seq (nat * X * seq (seq X)), (forall p, In p l -> In p (bpicks ws)) ->
        [seq [seq ((x, p.1.2) :: m.1.1, m.1.2, (sgz (size w + p.1.1) * m.2)%Z) | m <- mats cp n (w :: p.2)] | p <- l & cp x p.1.2] =
        [seq [seq ((x, p.1.2) :: m.1.1, m.1.2, (sgz (size w + p.1.1) * m.2)%Z) | m <- mats cp' n (w :: p.2)] | p <- l & cp' x p.1.2].
      { elim=> [|p l IHl] //= Hl. rewrite (A x p.1.2); [|by left|by apply: bpicks_elem; apply: Hl; left].
        case: (cp' x p.1.2); rewrite /= IHl //; try (by move=> q Hq; apply: Hl; right). congr (_ :: _). rewrite IH //.
        have Hp : In p (bpicks ws) by apply: Hl; left. split; last exact: bpicks_cross Hp B. move=> y z Hy Hz. apply: A; [by right|exact: bpicks_in2 Hp Hz]. }
      exact: G.
  Qed.
End MatsExt.

Section Words.
  Variables (K : fieldType) (A : algType K) (orb : eqType) (st : osi) (cre ann : Z -> orb -> A).
  Hypothesis HL : ladder_relations st cre ann.
  Hypothesis HS : single_reference st.
  Notation wletter := (bool * (Z * orb))%type.
  Definition regb (s : Z) : bool := (0 <=? s)%Z && (s <? num_spaces st)%Z.
  Lemma regP s : regb s -> registered st s.
  Proof. rewrite /regb /registered => /andP [/Z.leb_le ? /Z.ltb_lt ?]. lia. Qed.
  Lemma regI s : registered st s -> regb s.
  Proof. rewrite /regb /registered => H. apply/andP; split; [apply/Z.leb_le|apply/Z.ltb_lt]; lia. Qed.
  (** Operators of positions without a space are replaced by 0. *)
  Definition wlad (x : wletter) : A := if regb x.2.1 then ladder cre ann x else 0.
  Notation ex := (makes_excitation st).
  Definition wcp (x y : wletter) : bool := [&& regb x.2.1, (x.2.1 =? y.2.1)%Z, ~~ ex x & ex y].
  Definition wd (x y : wletter) : K := (wcp x y && (x.2.2 == y.2.2))%:R.
  Definition NP (w : seq wletter) : A := npr wlad ex w.

  Lemma exch1 s t : registered st s -> registered st t -> exch K st s t = -1.
  Proof. move=> Hs Ht. rewrite /exch. have [-> _] := HS Hs. by have [-> _] := HS Ht. Qed.
  Lemma b2r (b : bool) : b%:R%:A = b%:R :> A.
  Proof. by case: b; rewrite ?scale1r ?scale0r. Qed.
  Lemma wlad_rel x y : regb x.2.1 -> regb y.2.1 ->
    wlad x * wlad y = (if x.1 (+) y.1 then (x.2.1 =? y.2.1)%Z && (x.2.2 == y.2.2) else false)%:R%:A - wlad y * wlad x.
  Proof.
    case: x => [bx [sx px]]; case: y => [by_ [sy py]]. rewrite /wlad /ladder /= => Rx Ry. rewrite Rx Ry.
    have Hx := regP Rx. have Hy := regP Ry. rewrite b2r. case: bx; case: by_ => /=.
    - by rewrite sub0r (rel_cc HL) // exch1 // scaleN1r.
    - rewrite (rel_ac HL) // exch1 // scaleN1r opprD opprK addrA Z.eqb_sym eq_sym. by rewrite subrr add0r.
    - by rewrite (rel_ac HL) // exch1 // scaleN1r.
    - by rewrite sub0r (rel_aa HL) // exch1 // scaleN1r.
  Qed.
  Lemma ex_space (x y : wletter) : regb x.2.1 -> x.2.1 = y.2.1 -> (ex x == ex y) = (x.1 == y.1).
  Proof.
    move=> R E. rewrite /makes_excitation -E. have [_ [->|->]] := HS (regP R); by case: x.1; case: y.1.
  Qed.
  Lemma wH1 x y : ex x = ex y -> wlad x * wlad y = - (wlad y * wlad x).
  Proof.
    move=> E. case Rx: (regb x.2.1); last by rewrite /wlad Rx mul0r mulr0 oppr0.
    case Ry: (regb y.2.1); last by rewrite /wlad Ry mul0r mulr0 oppr0.
    rewrite wlad_rel //. have -> : (if x.1 (+) y.1 then (x.2.1 =? y.2.1)%Z && (x.2.2 == y.2.2) else false) = false.
    { case B: (x.1 (+) y.1) => //. case: (Z.eqb_spec x.2.1 y.2.1) => //= Es. have := ex_space Rx Es. rewrite E eqxx. move: B. by case: x.1; case: y.1. }
    by rewrite scale0r sub0r.
  Qed.
  Lemma wH2 x y : ex x = false -> wlad x * wlad y = (wd x y)%:A - wlad y * wlad x.
  Proof.
    move=> E. case Rx: (regb x.2.1); last by rewrite /wlad /wd /wcp Rx /= scale0r mul0r mulr0 subr0.
    case Ry: (regb y.2.1).
    - rewrite wlad_rel //. congr (_ - _). congr (_%:R%:A). rewrite /wd /wcp Rx E /=.
      case: (Z.eqb_spec x.2.1 y.2.1) => //= Es; last by case: (_ (+) _). have := ex_space Rx Es. rewrite E. by case: (ex y); case: x.1; case: y.1.
    - have -> : wd x y = 0. { rewrite /wd /wcp. case: (Z.eqb_spec x.2.1 y.2.1) => Es; last by rewrite andbF. by rewrite Es Ry in Rx. }
      by rewrite /wlad Ry scale0r mul0r mulr0 subr0.
  Qed.
  Lemma wH3 x y : wcp x y = false -> wd x y = 0.
  Proof. by rewrite /wd => ->. Qed.
  Lemma wH4 x y : ex x = true -> wcp x y = false.
  Proof. by rewrite /wcp => ->; rewrite /= !andbF. Qed.
  Lemma wH5 x y : ex y = false -> wd x y = 0.
  Proof. by rewrite /wd /wcp => ->; rewrite !andbF. Qed.
  Lemma NP_alternating : alternating -%R NP.
  Proof. apply: npr_alternating. exact: wH1. Qed.
  Lemma NP_normal w : (forall x, In x w -> registered st x.2.1) -> NP w = normal_product st cre ann w.
  Proof.
    elim: w => [|x w IH] H //. rewrite /NP /= -!/(NP _) IH; last by move=> y Hy; apply: H; right.
    by rewrite /wlad regI //; apply: H; left.
  Qed.
End Words.
