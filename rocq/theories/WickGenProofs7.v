(** C61: what the contracted legs of an evaluated contraction contribute. *)
Set Warnings "-notation-overridden,-ambiguous-paths".
From Coq Require Import ZArith List Lia Permutation.
From mathcomp Require Import all_ssreflect ssralg.
From Verif Require Import CountProofs Res RationalModel RegistryModel CoreModel OperatorModel DecModel OrderProofs WickSearchModel WickSearchSpec CountSpec WickCombSpec WickCombProofs WickLegSpec WickLegProofs SortSpec SortProofs ScalarSem LadderSpec CanonSpec CanonSemSpec CanonSemProofs
  WickMatchProofs WickMatchProofs2 WickProductSpec WickTheoremSpec WickProductProofs WickProductProofs2 WickProductProofs3 WickProductProofs4 WickProductProofs5 WickProductProofs6 WickProductProofs9 WickPairProofs
  WickGeneralSpec WickConvProofs WickConvProofs2 WickBlockProofs WickGenProofs WickGenProofs2 WickGenProofs3 WickGenProofs4 WickGenProofs6.
Set Implicit Arguments.
Unset Strict Implicit.
Unset Printing Implicit Defensive.
Import GRing.Theory.
Local Open Scope ring_scope.
Local Notation lsub := CountSpec.subseq.
Local Notation iota := seq.iota.
Local Notation imap := (list (index * index)).

Lemma zrm1 (R : ringType) : zr R (Zneg xH) = -1.
Proof. by []. Qed.
Lemma size_lmap (X Y : Type) (f : X -> Y) l : size (List.map f l) = size l.
Proof. by elim: l => [|x l IH] //=; rewrite IH. Qed.
Lemma precedes_app (L L' : seq leg) p q : precedes (L ++ L') p q -> precedes L p q \/ precedes L' p q \/ (In p L /\ In q L').
Proof.
  elim: L => [|x L IH] /= H; first by right; left. case: H => [[-> H]|/IH [H|[H|[H1 H2]]]].
  - apply List.in_app_or in H. case: H => H; [by left; left|by right; right; split; [left|]].
  - left. by right.
  - by right; left.
  - right; right. by split; [right|].
Qed.
Lemma precedes_in (L : seq leg) p q : precedes L p q -> In p L /\ In q L.
Proof. elim: L => [|x L IH] //= [[-> H]|/IH [H1 H2]]; [by split; [left|right]|by split; right]. Qed.
Lemma precedes_op st ops p q : precedes (product_legs st ops) p q -> (leg_op p <= leg_op q)%N.
Proof.
  rewrite legs_blks /blks. elim: (length ops) 0%N => [|m IH] k //= /precedes_app [/precedes_in [Hp Hq]|[/IH|[Hp Hq]]] //.
  - by have [-> _] := in_blk Hp; have [-> _] := in_blk Hq.
  - have [-> _] := in_blk Hp. apply: ltnW. exact: (in_blks_from Hq).
Qed.
Lemma good_pair st ops maxc p q : good_block st ops maxc [:: p; q] -> leg_cre p -> leg_cre q = false ->
  [/\ leg_space q = leg_space p, leg_op p <> leg_op q, stype st (leg_space p) = Some Occupied -> (leg_op p < leg_op q)%N & stype st (leg_space p) = Some Unoccupied -> (leg_op q < leg_op p)%N].
Proof.
  move=> G Cp Cq. case: G => [[x [y [P [_ [_ [Es [/ltP Ho C]]]]]]]|[s [_ [Ty [Sp [_ [_ [l [l' [Hl [Hl' Lt]]]]]]]]]]].
  - case: (Permutation_length_2 P) => -[Ep Eq]; rewrite -{}Ep -{}Eq in Es Ho C; (case: C => -[Ty [Cx Cy]]); rewrite ?Cp ?Cq // in Cx Cy; split=> //.
    + by move=> E; rewrite E ltnn in Ho.
    + by rewrite Ty.
    + by move=> E; rewrite E ltnn in Ho.
    + by rewrite -Es Ty.
  - have Ep := Sp p (or_introl erefl). have Eq := Sp q (or_intror (or_introl erefl)). split; rewrite ?Ep ?Eq ?Ty //.
    move=> E. case: Hl => [El|[El|[]]]; case: Hl' => [El'|[El'|[]]]; rewrite -El -El' ?E in Lt; lia.
Qed.

Section Picks.
  Variables (K : fieldType) (orb : eqType) (st : osi) (ops : oprod).
  Variables (T : text -> seq (Z * orb) -> seq (Z * orb) -> bool -> K) (maxc : nat).
  Hypothesis HS : multi_reference st.
  Hypothesis HD : densities st T.
  Hypothesis Hok : ops_ok st ops.
  Notation n := (length ops).
  Notation L := (product_legs st ops).
  Notation M := (lnk st T maxc).
  (** A density tensor: label, lower and upper legs. *)
  Definition dten := (text * seq leg * seq leg)%type.
  Definition dtens (ix : leg -> index) (g : dten) : tensor := mkT g.1.1 (List.map ix g.1.2) (List.map ix g.2) Antisymmetric false.
  Definition dlegs (gl : seq dten) : seq leg := flat_map (fun g => g.2 ++ g.1.2) gl.
  Definition dval (v : leg -> orb) (g : dten) : K := T g.1.1 (List.map (xs v) g.1.2) (List.map (xs v) g.2) false.
  Definition density_label (lab : text) : Prop := lab = gamma1_label \/ lab = eta1_label \/ exists k, (2 <= k)%N /\ lab = lambda_text k.
  (** What one pick contributes. *)
  Definition splits_into (ix : leg -> index) (b : seq leg) (e : imap * list tensor * Z) (ps : seq (leg * leg)) (gl : seq dten) : Prop :=
    [/\ e.1.1 = List.map (fun p => (ix (snd p), ix (fst p))) ps, e.1.2 = List.map (dtens ix) gl,
        (forall p, In p ps -> leg_space p.1 = leg_space p.2), (forall g, In g gl -> density_label g.1.1) &
        Permutation b (unz ps ++ dlegs gl) /\
        forall v, M (List.map (kv v) b) = zr K e.2 * \prod_(p <- ps) (v p.1 == v p.2)%:R * \prod_(g <- gl) dval v g].
  Lemma spaces_all (b : seq leg) s (v : leg -> orb) : (forall l, In l b -> leg_space l = s) -> samesp (wordl (List.map (kv v) b)).
  Proof.
    move=> H. case: b H => [|x b] H //. rewrite /samesp /= Z.eqb_refl /=. apply: in_all => y Hy. have [z [<- Hz]] := proj1 (in_map_iff _ _ _) Hy. have [l [<- Hl]] := proj1 (in_map_iff _ _ _) Hz.
    apply/Z.eqb_eq. rewrite /= -[l.1.1.2]/(leg_space l) -[x.1.1.2]/(leg_space x) !H //; [by left|by right].
  Qed.
  Lemma cum_sorted v pc pa s : Forall (fun l => leg_cre l = true) pc -> Forall (fun l => leg_cre l = false) pa -> (forall l, In l (pc ++ pa) -> leg_space l = s) -> pc <> [::] -> size pc = size pa ->
    cumL st T maxc (List.map (kv v) (pc ++ pa)) = density T maxc (stype st s) (List.map (xs v) pc) (List.map (xs v) pa).
  Proof.
    move=> Fc Fa Sp Nc Sz. rewrite /cumL cumE; last by case: pc Nc {Fc Sp Sz}. rewrite (spaces_all v Sp) /=.
    have Ew : wordl (List.map (kv v) (pc ++ pa)) = List.map (fun l => (true, xs v l)) pc ++ List.map (fun l => (false, xs v l)) pa.
    { rewrite /wordl !List.map_map List.map_app. congr (_ ++ _); apply: List.map_ext_in => l Hl; rewrite /lcr /kv /= -[l.1.2]/(leg_cre l).
      - move/List.Forall_forall: Fc => /(_ l Hl) ->. by [].
      - move/List.Forall_forall: Fa => /(_ l Hl) ->. by []. }
    have F1 : [seq x.2 | x <- wordl (List.map (kv v) (pc ++ pa)) & x.1] = List.map (xs v) pc.
    { rewrite Ew filter_cat map_cat. have -> : seq.filter (fun x : bool * (Z * orb) => x.1) (List.map (fun l => (false, xs v l)) pa) = [::] by elim: (pa). rewrite cats0. elim: (pc) => [|l c IH] //=. by rewrite IH. }
    have F2 : [seq x.2 | x <- wordl (List.map (kv v) (pc ++ pa)) & ~~ x.1] = List.map (xs v) pa.
    { rewrite Ew filter_cat map_cat. have -> : seq.filter (fun x : bool * (Z * orb) => ~~ x.1) (List.map (fun l => (true, xs v l)) pc) = [::] by elim: (pc). rewrite /=. elim: (pa) => [|l c IH] //=. by rewrite IH. }
    have Ex : exchanges (wordl (List.map (kv v) (pc ++ pa))) = 0%N.
    { rewrite Ew. elim: (pc) => [|l c IH] /=; last by rewrite IH. elim: (pa) => [|l c IH] //=. rewrite IH addn0. by elim: (c). }
    rewrite F1 F2 Ex expr0 mul1r !size_map Sz eqxx. congr (density _ _ (stype st _) _ _). case: pc Nc Sp {F1 F2 Ex Ew Fc Sz} => [|x pc] // _ Sp. apply: (Sp x). by left.
  Qed.
  Lemma pick_split ix pc pa e c : allowed st (Z.of_nat maxc) ops c -> (forall l, In l (pc ++ pa) -> is_leg st ops l) -> carries_out st n (pc ++ pa) c ->
    Forall (fun l => leg_cre l = true) pc -> Forall (fun l => leg_cre l = false) pa -> contribution st L ix pc pa e -> exists ps gl, splits_into ix (pc ++ pa) e ps gl.
  Proof.
    move=> Al Hl Ca Fc Fa Co. have G := allowed_good st ops (Z.of_nat maxc) Hok _ _ Al Hl Ca.
    have Pr p q : Forall (fun l => leg_cre l = true) [:: p] -> Forall (fun l => leg_cre l = false) [:: q] -> leg_cre p /\ leg_cre q = false by move=> /Forall_cons_iff [-> _] /Forall_cons_iff [-> _].
    have Reg p : In p (pc ++ pa) -> registered st (leg_space p) by move=> /Hl [_ []].
    case: Co Al Hl Ca Fc Fa G Reg => [p q Ty|p q Ty|p q Ty Pre|p q Ty Pre|p pc' pa' k Ty Lc La Hk] Al Hl Ca Fc Fa G Reg.
    - have [Cp Cq] := Pr _ _ Fc Fa. have [Es No Oc _] := good_pair G Cp Cq. exists [:: (p, q)], [::]. split=> //; first by move=> x [<-|[]]. split=> // v.
      rewrite big_seq1 big_nil mulr1 zr1 mul1r /= lnk_pair //; last by apply: Reg; left. by rewrite Es Z.eqb_refl Ty /= ltnNge (ltnW (Oc Ty)) subr0.
    - have [Cp Cq] := Pr _ _ Fc Fa. have [Es No _ Un] := good_pair G Cp Cq. exists [:: (q, p)], [::]. split=> //; first by move=> x [<-|[]]. split; first exact: perm_swap. move=> v.
      rewrite big_seq1 big_nil mulr1 /= lnk_pair //; last by apply: Reg; left. rewrite Es Z.eqb_refl Ty /= (Un Ty) sub0r. exact: esym (mulN1r _).
    - have [Cp Cq] := Pr _ _ Fc Fa. have [Es No _ _] := good_pair G Cp Cq. exists [::], [:: (gamma1_label, [:: q], [:: p])]. split=> //; first by move=> g [<-|[]]; left. split=> // v.
      rewrite big_nil mulr1 zr1 mul1r big_seq1 /= lnk_pair //; last by apply: Reg; left. have Le := precedes_op Pre. by rewrite Es Z.eqb_refl Ty /= ltnNge Le subr0 /dval /= /xs Es.
    - have [Cp Cq] := Pr _ _ Fc Fa. have [Es No _ _] := good_pair G Cp Cq. exists [::], [:: (eta1_label, [:: q], [:: p])]. split=> //; first by move=> g [<-|[]]; right; left. split=> // v.
      rewrite big_nil mulr1 big_seq1 /= lnk_pair //; last by apply: Reg; left. have Le := precedes_op Pre. have Lt : (leg_op q < leg_op p)%N by rewrite ltn_neqAle Le andbT; apply/eqP => E; apply: No.
      rewrite Es Z.eqb_refl Ty /= Lt /dval /= /xs Es. rewrite (den_eta HD) //; last by apply: Reg; left. rewrite [v q == v p]eq_sym -opprB. exact: esym (mulN1r _).
    - exists [::], [:: (lambda_text k, List.rev pa', p :: pc')]. split=> //.
      + by rewrite /dtens /= List.map_rev.
      + move=> g [<-|[]] //. right; right. exists k. split=> //. exact/leP.
      + split; first by rewrite /= app_nil_r; constructor; apply: Permutation_app_head; exact: Permutation_rev.
        move=> v. rewrite big_nil mulr1 zr1 mul1r big_seq1.
        have Sz2 : size ((p :: pc') ++ pa') = (k + k)%N by rewrite size_cat -[size (p :: pc')]/(length (p :: pc')) -[size pa']/(length _) Lc La.
        case: G => [[x [y [P _]]]|[s [_ [_ [Sp [Nc [Bd [l [l' [Il [Il' Lt]]]]]]]]]]].
        { exfalso. have E2 : size ((p :: pc') ++ pa') = 2%N := Permutation_length P. rewrite Sz2 in E2. have E3 : (k + k)%coq_nat = 2%N := E2. move: Hk E3 {E2}. lia. }
        have Esp : s = leg_space p by rewrite (Sp p) //; left.
        have Nn : ncre true ((p :: pc') ++ pa') = Z.of_nat k.
        { rewrite ncre_count count_cat. have -> : count (fun l => leg_cre l == true) pa' = 0%N by elim: Fa => [|z w Ez _ IH] //=; rewrite Ez IH.
          rewrite addn0. have -> : count (fun l => leg_cre l == true) (p :: pc') = length (p :: pc') by elim: Fc => [|z w Ez _ IH] //=; rewrite Ez IH. by rewrite Lc. }
        rewrite Nn in Bd. rewrite lnk_long.
        * rewrite (@cum_sorted v (p :: pc') pa' s) //; last by rewrite -[size (p :: pc')]/(length (p :: pc')) -[size pa']/(length _) Lc La.
          rewrite Esp Ty /density. have -> : size (List.map (xs v) (p :: pc')) = k by rewrite -Lc; elim: (p :: pc') => [|z w IH] //=; rewrite IH. have -> : (k == 1%N) = false by apply/eqP => E; move: Hk; rewrite E; lia.
          have -> : (2 <= k <= maxc)%N by apply/andP; split; apply/leP; lia. by rewrite /dval /= List.map_rev rev_eq.
        * apply/negP => O. have X z z' : In z ((p :: pc') ++ pa') -> In z' ((p :: pc') ++ pa') -> leg_op z = leg_op z'.
          { have Y z0 : In z0 ((p :: pc') ++ pa') -> leg_op z0 = leg_op p.
            { move=> Hz. move: O. rewrite /onetag /= eqxx /=. case: Hz => [->|Hz] // O. apply/eqP. move: O Hz. rewrite -/(cat _ _). elim: (pc' ++ pa') => [|u w IH] //= /andP [Hu Hw] [<-|Hz] //. exact: IH. }
            move=> Hz Hz'. by rewrite (Y z Hz) (Y z' Hz'). }
          have E := X l l' Il Il'. lia.
        * rewrite size_lmap Sz2. apply/eqP => E. have E3 : (k + k)%coq_nat = 2%N := E. move: Hk E3 {E}. lia.
  Qed.
  Lemma dlegs_cat g h : dlegs (g ++ h) = dlegs g ++ dlegs h.
  Proof. exact: flat_map_app. Qed.
  Lemma unz_cat (p q : seq (leg * leg)) : unz (p ++ q) = unz p ++ unz q.
  Proof. by rewrite /unz map_cat flatten_cat. Qed.
  Lemma picks_split ix cs : forall picks effects, Forall (allowed st (Z.of_nat maxc) ops) cs ->
    Forall2 (fun p c => carries_out st n (p.1 ++ p.2) c /\ Forall (fun l => leg_cre l = true) p.1 /\ Forall (fun l => leg_cre l = false) p.2) picks cs ->
    Forall2 (fun p e => contribution st L ix p.1 p.2 e) picks effects -> (forall l, In l (flat_map (fun p => p.1 ++ p.2) picks) -> is_leg st ops l) ->
    exists ps gl, [/\ flat_map (fun e : imap * list tensor * Z => e.1.1) effects = List.map (fun p => (ix (snd p), ix (fst p))) ps,
      flat_map (fun e : imap * list tensor * Z => e.1.2) effects = List.map (dtens ix) gl,
      (forall p, In p ps -> leg_space p.1 = leg_space p.2), (forall g, In g gl -> density_label g.1.1) &
      Permutation (flat_map (fun p => p.1 ++ p.2) picks) (unz ps ++ dlegs gl) /\
      forall v, \prod_(p <- picks) M (List.map (kv v) (p.1 ++ p.2)) = zr K (fold_right Z.mul 1%Z (List.map snd effects)) * \prod_(p <- ps) (v p.1 == v p.2)%:R * \prod_(g <- gl) dval v g].
  Proof.
    move=> picks. elim: picks cs => [|[pc pa] picks IH] cs effects Al F1 F2 Hl.
    - inversion F1; subst. inversion F2; subst. exists [::], [::]. split=> //. split=> // v. rewrite !big_nil !mulr1. exact: esym (zr1 _).
    - case: cs Al F1 => [|c cs] Al F1; first by inversion F1. case: effects F2 => [|e effects] F2; first by inversion F2.
      have [C [Fc Fa]] : carries_out st n (pc ++ pa) c /\ Forall (fun l => leg_cre l = true) pc /\ Forall (fun l => leg_cre l = false) pa by inversion F1.
      have F1' : Forall2 (fun p c => carries_out st n (p.1 ++ p.2) c /\ Forall (fun l => leg_cre l = true) p.1 /\ Forall (fun l => leg_cre l = false) p.2) picks cs by inversion F1.
      have Co : contribution st L ix pc pa e by inversion F2.
      have F2' : Forall2 (fun p e => contribution st L ix p.1 p.2 e) picks effects by inversion F2.
      case/Forall_cons_iff: Al => Ac Al.
      have Hl1 l : In l (pc ++ pa) -> is_leg st ops l by move=> H; apply: Hl; apply: List.in_or_app; left.
      have Hl2 l : In l (flat_map (fun p => p.1 ++ p.2) picks) -> is_leg st ops l by move=> H; apply: Hl; apply: List.in_or_app; right.
      have [ps1 [gl1 [A1 A2 A3 A4 [A5 A6]]]] := pick_split Ac Hl1 C Fc Fa Co. have [ps2 [gl2 [B1 B2 B3 B4 [B5 B6]]]] := IH cs effects Al F1' F2' Hl2.
      exists (ps1 ++ ps2), (gl1 ++ gl2). split.
      + by rewrite /= A1 B1 -List.map_app.
      + by rewrite /= A2 B2 -List.map_app.
      + move=> p Hp. apply List.in_app_or in Hp. case: Hp; [exact: A3|exact: B3].
      + move=> p Hp. apply List.in_app_or in Hp. case: Hp; [exact: A4|exact: B4].
      + split.
        * rewrite dlegs_cat unz_cat. have X := Permutation_app A5 B5. apply: (Permutation_trans X). have Y (a b c1 d : seq leg) : Permutation ((a ++ b) ++ (c1 ++ d)) ((a ++ c1) ++ (b ++ d)).
          { rewrite -!catA. apply: Permutation_app_head. rewrite !catA. apply: Permutation_app_tail. exact: Permutation_app_comm. }
          exact: Y.
        * move=> v. rewrite big_cons !big_cat /= zrM B6 A6. rewrite -!mulrA. congr (_ * _).
          set a := \prod_(p <- ps1) _. set b := \prod_(p <- gl1) _. set c1 := zr _ _. set d := \prod_(p <- ps2) _. set f := \prod_(p <- gl2) _.
by rewrite (mulrCA b) (mulrCA a) (mulrCA b).
  Qed.
End Picks.
