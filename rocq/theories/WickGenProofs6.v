(** C61: the blocks that contribute are those of the contractions of the search; the values of the contributing blocks. *)
Set Warnings "-notation-overridden,-ambiguous-paths".
From Coq Require Import ZArith List Lia Permutation.
From mathcomp Require Import all_ssreflect ssralg.
From Verif Require Import CountProofs Res RationalModel RegistryModel CoreModel OperatorModel OrderProofs WickSearchModel WickSearchSpec CountSpec WickCombSpec WickCombProofs WickLegSpec WickLegProofs SortSpec SortProofs ScalarSem LadderSpec CanonSpec CanonSemSpec CanonSemProofs
  WickMatchProofs WickMatchProofs2 WickProductSpec WickTheoremSpec WickProductProofs WickProductProofs2 WickProductProofs3 WickPairProofs
  WickGeneralSpec WickConvProofs WickConvProofs2 WickBlockProofs WickGenProofs WickGenProofs2 WickGenProofs3 WickGenProofs4.
Set Implicit Arguments.
Unset Strict Implicit.
Unset Printing Implicit Defensive.
Import GRing.Theory.
Local Open Scope ring_scope.
Local Notation lsub := CountSpec.subseq.

Section Values.
  Variables (K : fieldType) (orb : eqType) (st : osi) (ops : oprod).
  Variables (T : text -> seq (Z * orb) -> seq (Z * orb) -> bool -> K) (maxc : nat).
  Hypothesis HS : multi_reference st.
  Hypothesis HD : densities st T.
  Notation M := (lnk st T maxc).
  Implicit Types (v : leg -> orb) (p q x y : leg).

  Lemma lnk_onetag (b : seq (letter orb)) : onetag (@lop orb) b -> M b = 0.
  Proof.
    rewrite /lnk /links => O. rewrite O add0r. case: b O => [|x [|y [|z b]]] //=. rewrite eqxx /= andbT => /eqP ->. by rewrite ltnn.
  Qed.
  Lemma lnk_long (b : seq (letter orb)) : ~~ onetag (@lop orb) b -> size b != 2%N -> M b = cumL st T maxc b.
  Proof. rewrite /lnk /links => /negbTE -> S. case: b S => [|x [|y [|z b]]] //= _; by rewrite addr0. Qed.
  (** A creation leg [p] and an annihilation leg [q]. *)
  Lemma lnk_pair v p q : leg_cre p -> leg_cre q = false -> leg_op p <> leg_op q -> registered st (leg_space p) ->
    M [:: kv v p; kv v q] = if (leg_space q =? leg_space p)%Z then density T maxc (stype st (leg_space p)) [:: (leg_space p, v p)] [:: (leg_space q, v q)] - (if (leg_op q < leg_op p)%N then (v q == v p)%:R else 0) else 0.
  Proof.
    move=> Cp Cq No Rp. rewrite /lnk /links /onetag /= eqxx /= andbT.
    have -> : (lop (kv v q) == lop (kv v p)) = false by apply/eqP => E; apply: No; exact: esym.
    rewrite /cumL /wordl /cumulant /= Z.eqb_refl /=. rewrite -[lcr (kv v p)]/(leg_cre p) -[lcr (kv v q)]/(leg_cre q) Cp Cq /=. rewrite -[p.1.1.2]/(leg_space p) -[q.1.1.2]/(leg_space q) andbT.
    rewrite -[lop (kv v p)]/(leg_op p) -[lop (kv v q)]/(leg_op q).
    case: ifP => [/andP [Es _]|Es].
    - rewrite expr0 mul1r Es. congr (_ + _). case: (ltngtP (leg_op p) (leg_op q)) => [H|H|H]; last by case: No.
      + by rewrite oppr0 /gdL gH4.
      + rewrite /gdL /gd /wl /= -[lcr (kv v p)]/(leg_cre p) -[lcr (kv v q)]/(leg_cre q) Cp Cq /=. rewrite -[p.1.1.2]/(leg_space p) -[q.1.1.2]/(leg_space q) Es.
        move/Z.eqb_eq: Es => ->. by rewrite (regI Rp).
    - rewrite andbT in Es. rewrite Es add0r. case: (ltngtP (leg_op p) (leg_op q)) => [H|H|H] //.
      + by rewrite /gdL gH4.
      + rewrite /gdL /gd /wl /= -[p.1.1.2]/(leg_space p) -[q.1.1.2]/(leg_space q) Es. by rewrite /= andbF oppr0.
  Qed.
  Lemma lnk_swap v x y : M [:: kv v x; kv v y] = - M [:: kv v y; kv v x].
  Proof. exact: (lnk_alternating maxc HD [::]). Qed.
  Lemma lnk_samecre v x y : leg_cre x = leg_cre y -> M [:: kv v x; kv v y] = 0.
  Proof.
    move=> E. rewrite /lnk /links. have -> : cumL st T maxc [:: kv v x; kv v y] = 0.
    { rewrite /cumL /wordl /cumulant /=. rewrite -[lcr (kv v x)]/(leg_cre x) -[lcr (kv v y)]/(leg_cre y) E. by case: (leg_cre y); rewrite /= andbF. }
    rewrite /pairs /gdL. have X z z' : leg_cre z = leg_cre z' -> gd K st (wl (kv v z)) (wl (kv v z')) = 0.
    { move=> Ez. rewrite /gd /wl /= -[lcr (kv v z)]/(leg_cre z) -[lcr (kv v z')]/(leg_cre z') Ez. by case: (leg_cre z'); rewrite /= !andbF. }
    rewrite !X // oppr0. by case: ifP => _; case: ifP => _; rewrite ?add0r //; case: ifP.
  Qed.
  Lemma ncre_count c b : ncre c b = Z.of_nat (count (fun l => leg_cre l == c) b).
  Proof. rewrite /ncre. congr (Z.of_nat _). elim: b => [|l b IH] //=. rewrite -IH. by case: (leg_cre l); case: c {IH}. Qed.

  (** What contributes is an allowed block. *)
  Lemma lnk_good v b : (1 <= maxc)%N -> (forall l, In l b -> is_leg st ops l) -> b <> [::] -> M (List.map (kv v) b) <> 0 -> good_block st ops (Z.of_nat maxc) b.
  Proof.
    move=> M1 Hb Nb NZ. have Ot : onetag (@lop orb) (List.map (kv v) b) = false by apply/negP => /lnk_onetag.
    have Two : exists l l', In l b /\ In l' b /\ (leg_op l < leg_op l')%coq_nat.
    { case: b Nb Ot {Hb NZ} => [|x b] // _. rewrite /onetag /= eqxx /= => /negbT. rewrite -has_predC => H.
      have [y [Hy Ny]] : exists y, In y b /\ leg_op y != leg_op x.
      { elim: b H => [|y b IH] //= /orP [H|/IH [z [Hz Nz]]]; [by exists y; split; [left|]|by exists z; split; [right|]]. }
      case: (ltngtP (leg_op y) (leg_op x)) Ny => // Lt _; [exists y, x|exists x, y]; (split; [by [left|right]|split; [by [left|right]|exact/ltP]]). }
    case S2: (size b == 2%N).
    - have [x [y Eb]] : exists x y, b = [:: x; y] by case: b S2 {Hb Nb NZ Ot Two} => [|x [|y [|z b]]] // _; exists x, y.
      rewrite {b S2 Nb}Eb in Hb NZ Ot Two *. have Lx := Hb x (or_introl erefl). have Ly := Hb y (or_intror (or_introl erefl)).
      have G p q : leg_cre p -> leg_cre q = false -> is_leg st ops p -> is_leg st ops q -> leg_op p <> leg_op q -> M [:: kv v p; kv v q] <> 0 -> good_block st ops (Z.of_nat maxc) [:: p; q].
      { move=> Cp Cq Lp Lq No. have Rp : registered st (leg_space p) by case: Lp => _ [].
        rewrite lnk_pair //. case: (Z.eqb_spec (leg_space q) (leg_space p)) => // Es. case: (proj2 (HS Rp)) => [Ty|[Ty|Ty]]; rewrite Ty.
        - rewrite /=. case: ltngtP => Lt; [by rewrite [v q == v p]eq_sym subrr| |by case: No]. move=> _. left. exists p, q. split=> //. split=> //; split=> //; split=> //; split; first exact/ltP. by left.
        - rewrite /=. case: ltngtP => Lt; [|by rewrite subr0|by case: No]. move=> _. left. exists q, p. split; first exact: perm_swap. split=> //; split=> //; split=> //; split; first exact/ltP. right. by rewrite Es.
        - move=> _. right. exists (leg_space p). do 2! split=> //. split; first by move=> l [<-|[<-|]].
          rewrite !ncre_count /= Cp Cq /=. split=> //. split; first by move/leP: M1; lia.
          case: (ltngtP (leg_op p) (leg_op q)) => [/ltP Lt|/ltP Lt|E]; [exists p, q|exists q, p|by case: No]; (split; [by [left|right; left]|split; [by [left|right; left]|exact: Lt]]). }
      have No : leg_op x <> leg_op y.
      { move=> E. move: Ot. rewrite /onetag /= eqxx /= andbT. by rewrite -[lop (kv v x)]/(leg_op x) -[lop (kv v y)]/(leg_op y) E eqxx. }
      case Cx: (leg_cre x); case Cy: (leg_cre y).
      + case: NZ. by apply: lnk_samecre; rewrite Cx Cy.
      + exact: G.
      + have [] // : good_block st ops (Z.of_nat maxc) [:: y; x].
        { apply: G => //; first by move=> E; apply: No. move=> Z0. apply: NZ. by rewrite /= lnk_swap Z0 oppr0. }
        * move=> [a [c [P O]]]. left. exists a, c. split=> //. exact: Permutation_trans (perm_swap _ _ _) P.
        * move=> [s [A1 [A2 [A3 [A4 [A5 [l [l' [A6 [A7 A8]]]]]]]]]]. right. exists s. split=> //. split=> //. split; first by move=> z Hz; apply: A3; case: Hz => [<-|[<-|]] //; [right; left|left].
          have En c : ncre c [:: x; y] = ncre c [:: y; x] by exact: ncre_perm (perm_swap _ _ _). rewrite !En. split; first exact: A4. split; first exact: A5. exists l, l'. split; last split=> //.
          -- by case: A6 => [<-|[<-|]] //; [right; left|left].
          -- by case: A7 => [<-|[<-|]] //; [right; left|left].
      + case: NZ. by apply: lnk_samecre; rewrite Cx Cy.
    - right. move: NZ. rewrite lnk_long ?Ot //; last by rewrite size_map S2.
      rewrite /cumL cumE; last by case: b Nb {Hb Ot Two S2}. case: ifP => [/andP [Ss /eqP Sz]|] // NZ.
      case: b Nb Hb Ot Two S2 Ss Sz NZ => [|x b] // _ Hb Ot Two S2 Ss Sz NZ. have Lx := Hb x (or_introl erefl). have Rx : registered st (leg_space x) by case: Lx => _ [].
      have Cc c : size [seq z.2 | z <- wordl (List.map (kv v) (x :: b)) & z.1 == c] = count (fun l => leg_cre l == c) (x :: b).
      { rewrite size_map size_filter. rewrite /wordl List.map_map -[List.map _ (x :: b)]/(map (fun l => (lcr (kv v l), lsp (kv v l))) (x :: b)) count_map. by apply: eq_count => l. }
      have C1 : size [seq z.2 | z <- wordl (List.map (kv v) (x :: b)) & z.1] = count (fun l => leg_cre l == true) (x :: b).
      { rewrite -Cc. congr (size (map _ _)). apply: eq_filter => z. by case: (z.1). }
      have C2 : size [seq z.2 | z <- wordl (List.map (kv v) (x :: b)) & ~~ z.1] = count (fun l => leg_cre l == false) (x :: b).
      { rewrite -Cc. congr (size (map _ _)). apply: eq_filter => z. by case: (z.1). }
      have Sum : (count (fun l => leg_cre l == true) (x :: b) + count (fun l => leg_cre l == false) (x :: b))%N = size (x :: b).
      { rewrite -(count_predC (fun l => leg_cre l == true)). congr (_ + _)%N. apply: eq_count => l /=. by case: (leg_cre l). }
      have Sp l : In l (x :: b) -> leg_space l = leg_space x.
      { move=> Hl. move: Ss. rewrite /samesp /= => /andP [_ H]. case: Hl => [->|Hl] //. elim: (b) H Hl => [|y c IH] //= /andP [/Z.eqb_eq Hy Hc]. case=> [<-|]; last exact: IH. exact: Hy. }
      rewrite C1 C2 in Sz. move: (NZ). rewrite -[spc _]/(leg_space x).
      case: (proj2 (HS Rx)) => [Ty|[Ty|Ty]]; rewrite Ty /density.
      + set ca := [seq _ | _ <- _ & _]. set aa := [seq _ | _ <- _ & ~~ _]. case Eca: ca => [|c1 [|c2 ca']] //; rewrite ?mulr0 //.
        case Eaa: aa => [|a1 [|a2 aa']] //; rewrite ?mulr0 //. exfalso. move: S2. rewrite -Sum -C1 -C2 -/ca -/aa Eca Eaa. by [].
      + by rewrite mulr0.
      + rewrite C1. case: ifP => [/eqP E1|N1].
        { exfalso. move: S2. by rewrite -Sum -Sz E1. }
        case: ifP => [/andP [K1 K2] _|]; last by rewrite mulr0.
        exists (leg_space x). split=> //. split=> //. split=> //. rewrite !ncre_count. split; first by rewrite Sz. split=> //.
        move/leP: K1. move/leP: K2. lia.
  Qed.
End Values.
