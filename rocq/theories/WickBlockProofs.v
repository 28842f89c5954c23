(** C61: the list of all ways to group some letters of a word into admissible blocks. *)
Set Warnings "-notation-overridden,-ambiguous-paths".
From Coq Require Import ZArith List Permutation Lia.
From mathcomp Require Import all_ssreflect ssralg.
From Verif Require Import SortSpec SortProofs ScalarSem CountSpec CountProofs WickMatchProofs WickMatchProofs2 WickGeneralSpec WickConvProofs.
Set Implicit Arguments.
Unset Strict Implicit.
Unset Printing Implicit Defensive.
Import GRing.Theory.
Local Open Scope ring_scope.
Local Notation lsub := CountSpec.subseq.

Section Splits.
  Variable X : Type.
  Implicit Types (w b : seq X).
  Lemma splits_cons x w p : In p (splits (x :: w)) <-> exists q, In q (splits w) /\ (p = (q.1.1, x :: q.1.2, q.2) \/ p = ((q.1.1 + size q.1.2)%N, q.1.2, x :: q.2)).
  Proof.
    rewrite /= in_app_iff. split.
    - case=> /in_map_iff [q [<- Hq]]; exists q; split=> //; by [left|right].
    - case=> q [Hq [->| ->]]; [left|right]; apply/in_map_iff; by exists q.
  Qed.
  Lemma splits_sperm w p : In p (splits w) -> sperm w (sgz p.1.1) (p.1.2 ++ p.2).
  Proof.
    elim: w p => [|x w IH] p; first by case=> // <-; exact: sp_refl.
    move/splits_cons => [q [Hq [->| ->]]] /=; first by apply: sperm_cons; exact: IH.
    have A := sperm_cons x _ _ _ (IH _ Hq). have B := sperm_sym (sperm_front x q.1.2 q.2).
    have C := sperm_trans _ _ _ _ _ A B. move: C. rewrite /sgz oddD. by case: (odd q.1.1); case: (odd (size _)).
  Qed.
  Lemma splits_perm w p : In p (splits w) -> Permutation w (p.1.2 ++ p.2).
  Proof. move/splits_sperm. exact: sperm_perm. Qed.
  Lemma splits_sub w p : In p (splits w) -> lsub p.1.2 w /\ lsub p.2 w.
  Proof.
    elim: w p => [|x w IH] p; first by case=> // <-; split; constructor.
    move/splits_cons => [q [/IH [H1 H2] [->| ->]]] /=; split; by constructor.
  Qed.
  Lemma splits_all w b : lsub b w -> exists p, In p (splits w) /\ p.1.2 = b.
  Proof.
    elim=> [|x c l _ [p [Hp <-]]|x c l _ [p [Hp <-]]]; first by exists (0%N, [::], [::]); split=> //; left.
    - exists ((p.1.1 + size p.1.2)%N, p.1.2, x :: p.2). split=> //. apply/splits_cons. exists p. split=> //. by right.
    - exists (p.1.1, x :: p.1.2, p.2). split=> //. apply/splits_cons. exists p. split=> //. by left.
  Qed.
  Lemma splits_rest w p b : In p (splits w) -> lsub b w -> NoDup w -> (forall x, In x b -> ~ In x p.1.2) -> lsub b p.2.
  Proof.
    elim: w p b => [|x w IH] p b; first by case=> // <- /=.
    move/splits_cons => [q [Hq Ep]] Sb /NoDup_cons_iff [Nx ND] D. inversion Sb as [|y c l S E1 E2|y c l S E1 E2]; subst.
    - case: Ep D => -> /= D; last (apply: sub_skip; apply: IH => //).
      apply: IH => // z Hz. have := D z Hz. tauto.
    - case: Ep D => -> /= D; first by case: (D x (or_introl erefl)); left.
      apply: sub_take. apply: IH => // z Hz. apply: D. by right.
  Qed.
  Lemma splits_once w : NoDup w -> ForallOrdPairs (fun p q : nat * seq X * seq X => p.1.2 <> q.1.2) (splits w).
  Proof.
    elim: w => [|x w IH] ND /=; first by repeat constructor. case/NoDup_cons_iff: ND => Nx ND. apply: fop_app.
    - apply: fop_map. apply: fop_impl (IH ND) => p q _ _ N [E]. exact: N.
    - apply: fop_map. exact: IH.
    - move=> p q /in_map_iff [p0 [<- _]] /in_map_iff [q0 [<- Hq]] /= E. apply: Nx. have [H _] := splits_sub Hq. apply: CountProofs.subseq_in H _. rewrite -E. by left.
  Qed.
End Splits.

Section Blocks.
  Variables (X : Type) (cp : seq X -> bool).
  Implicit Types (w b : seq X) (bs : seq (seq X)).
  Definition blocking := (seq (seq X) * seq X * Z)%type.
  Fixpoint bmats (n : nat) w : seq blocking :=
    match w, n with
    | [::], _ => [:: ([::], [::], Zpos xH)]
    | _, 0 => [::]
    | x :: w', n'.+1 =>
      [seq (m.1.1, x :: m.1.2, m.2) | m <- bmats n' w'] ++
      flatten [seq [seq ((x :: p.1.2) :: m.1.1, m.1.2, (sgz p.1.1 * m.2)%Z) | m <- bmats n' p.2] | p <- splits w' & cp (x :: p.1.2)]
    end.
  Lemma bmats_cons n x w (m : blocking) : In m (bmats n.+1 (x :: w)) <->
    (exists m0, In m0 (bmats n w) /\ m = (m0.1.1, x :: m0.1.2, m0.2)) \/
    (exists p m0, In p (splits w) /\ cp (x :: p.1.2) /\ In m0 (bmats n p.2) /\ m = ((x :: p.1.2) :: m0.1.1, m0.1.2, (sgz p.1.1 * m0.2)%Z)).
  Proof.
    rewrite /= in_app_iff In_flatten. split.
    - case=> [/in_map_iff [m0 [<- H]]|[l [/in_map_iff [p [<- /filter_In [Hp Hc]]] /in_map_iff [m0 [<- H]]]]].
      + left. by exists m0.
      + right. by exists p, m0.
    - case=> [[m0 [H ->]]|[p [m0 [Hp [Hc [H ->]]]]]].
      + left. apply/in_map_iff. by exists m0.
      + right. eexists. split; first by apply/in_map_iff; exists p; split=> //; apply/filter_In. apply/in_map_iff. by exists m0.
  Qed.
  Lemma bmats_nil n m : In m (bmats n [::]) -> m = ([::], [::], Zpos xH).
  Proof. by case: n => [|n] [<-|[]]. Qed.
  Lemma bmats_cp n w m b : In m (bmats n w) -> In b m.1.1 -> cp b /\ b <> [::].
  Proof.
    elim: n w m => [|n IH] [|x w] m //; try by move/bmats_nil => ->.
    move/bmats_cons => [[m0 [H ->]]|[p [m0 [Hp [Hc [H ->]]]]]] /=; first exact: IH H.
    case=> [<- //|]. exact: IH H.
  Qed.
  Hypothesis cpE : forall b, cp b -> ~~ odd (size b).
  Lemma even_flatten bs : (forall b, In b bs -> ~~ odd (size b)) -> ~~ odd (size (flatten bs)).
  Proof.
    elim: bs => [|b bs IH] H //=. rewrite size_cat oddD (negbTE (H b (or_introl erefl))) /=. apply: IH => c Hc. apply: H. by right.
  Qed.
  Lemma bmats_sperm n w m : In m (bmats n w) -> sperm w m.2 (flatten m.1.1 ++ m.1.2).
  Proof.
    elim: n w m => [|n IH] [|x w] m //; try by move/bmats_nil => ->; exact: sp_refl.
    move/bmats_cons => [[m0 [H ->]]|[p [m0 [Hp [Hc [H ->]]]]]] /=.
    - have A := sperm_cons x _ _ _ (IH _ _ H). have B := sperm_sym (sperm_front x (flatten m0.1.1) m0.1.2).
      have C := sperm_trans _ _ _ _ _ A B. move: C. rewrite /sgz.
      have /negbTE -> : ~~ odd (size (flatten m0.1.1)); last by rewrite Z.mul_1_r.
      apply: even_flatten => b Hb. apply: cpE. by case: (bmats_cp H Hb).
    - apply: sperm_cons. rewrite -catA. apply: sperm_trans (splits_sperm Hp) _. apply: sperm_skip. exact: IH.
  Qed.
  Lemma bmats_perm n w m : In m (bmats n w) -> Permutation w (flatten m.1.1 ++ m.1.2).
  Proof. move/bmats_sperm. exact: sperm_perm. Qed.
  Lemma bmats_sub n w m : In m (bmats n w) -> (forall b, In b m.1.1 -> lsub b w) /\ lsub m.1.2 w.
  Proof.
    elim: n w m => [|n IH] [|x w] m //; try by move/bmats_nil => ->; split=> //; constructor.
    move/bmats_cons => [[m0 [/IH [H1 H2] ->]]|[p [m0 [Hp [Hc [/IH [H1 H2] ->]]]]]] /=.
    - split; last by apply: sub_take. move=> b Hb. apply: sub_skip. exact: H1.
    - have [S1 S2] := splits_sub Hp. split.
      + move=> b [<-|Hb]; first by apply: sub_take. apply: sub_skip. apply: CountProofs.subseq_trans S2 _. exact: H1.
      + apply: sub_skip. apply: CountProofs.subseq_trans S2 H2.
  Qed.
  Lemma flatten_perm bs bs' : Permutation bs bs' -> Permutation (flatten bs) (flatten bs').
  Proof.
    elim=> [|p a b _ IH|p q a|a b c _ IH1 _ IH2] //=.
    - exact: Permutation_app_head.
    - rewrite !catA. apply: Permutation_app_tail. exact: Permutation_app_comm.
    - exact: Permutation_trans IH1 IH2.
  Qed.
  Lemma in_flat bs b x : In b bs -> In x b -> In x (flatten bs).
  Proof. move=> H1 H2. apply/In_flatten. by exists b. Qed.
  Lemma bmats_complete n w bs : (size w <= n)%N -> NoDup w -> (forall b, In b bs -> cp b /\ b <> [::] /\ lsub b w) -> NoDup (flatten bs) ->
    (forall x y : X, {x = y} + {x <> y}) -> exists m, In m (bmats n w) /\ Permutation m.1.1 bs.
  Proof.
    move=> Hn ND Hb NDb xdec. elim: n w bs Hn ND Hb NDb => [|n IH] [|x w] bs //.
    1,2: move=> _ _ H _; exists ([::], [::], Zpos xH); split; first (by left).
    1,2: case: bs H => [|b bs] H //; have [_ [N S]] := H b (or_introl erefl); by inversion S; subst.
    move=> Hn ND Hb NDb. case/NoDup_cons_iff: (ND) => Nx NDw. case: (in_dec xdec x (flatten bs)) => Hx.
    - move/In_flatten: (Hx) => [b [Ib Ixb]]. have [Hc [Nb Sb]] := Hb _ Ib.
      have [c [Eb Sc]] : exists c, b = x :: c /\ lsub c w.
      { inversion Sb as [|y c l S E1 E2|y c l S E1 E2]; subst; last by exists c. case: Nx. exact: CountProofs.subseq_in S Ixb. }
      have [p [Hp Ep]] := splits_all Sc. apply List.in_split in Ib. case: Ib => bs1 [bs2 Ebs].
      have Pp : Permutation bs (b :: (bs1 ++ bs2)%list) by rewrite Ebs; apply: Permutation_sym; apply: Permutation_middle.
      have ND' := Permutation_NoDup (flatten_perm Pp) NDb. rewrite /= in ND'. have [N1 [N2 N3]] := CountProofs.nodup_app_inv _ _ ND'.
      have Dz d : In d (bs1 ++ bs2)%list -> forall z, In z d -> ~ In z b by move=> Hd z Hz Hzb; apply: (N3 z Hzb); exact: in_flat Hd Hz.
      case: (IH p.2 (bs1 ++ bs2)%list) => //.
      + apply: (@leq_trans (size w)); last exact: Hn. by rewrite -(splits_size Hp) leq_addl.
      + have := Permutation_NoDup (splits_perm Hp) NDw. move/CountProofs.nodup_app_inv. tauto.
      + move=> d Hd. have [Cd [Ned Sd]] := Hb d (Permutation_in _ (Permutation_sym Pp) (or_intror Hd)). split=> //. split=> //.
        apply: (splits_rest Hp) => //.
        * inversion Sd as [|y e l S E1 E2|y e l S E1 E2]; subst=> //. case: (Dz _ Hd x) => //; by left.
        * move=> z Hz Hz'. apply: (Dz _ Hd z Hz). rewrite Eb -Ep. by right.
      + move=> m [Hm Pm]. exists ((x :: p.1.2) :: m.1.1, m.1.2, (sgz p.1.1 * m.2)%Z). split.
        * apply/bmats_cons. right. exists p, m. split=> //. by rewrite Ep -Eb.
        * rewrite /= Ep -Eb. apply: Permutation_trans (Permutation_sym Pp). exact: perm_skip.
    - case: (IH w bs) => //.
      + move=> b Hbb. have [Cb [Neb Sb]] := Hb _ Hbb. split=> //. split=> //. inversion Sb as [|y c l S E1 E2|y c l S E1 E2]; subst=> //. case: Hx. apply: in_flat Hbb _. by left.
      + move=> m [Hm Pm]. exists (m.1.1, x :: m.1.2, m.2). split=> //. apply/bmats_cons. left. by exists m.
  Qed.
  Lemma bmats_in n w m : In m (bmats n w) -> incl (flatten m.1.1) w.
  Proof. move=> /bmats_perm H z Hz. apply: Permutation_in (Permutation_sym H) _. apply: in_or_app. by left. Qed.
  Lemma bmats_once n w : NoDup w -> ForallOrdPairs (fun m m' : blocking => ~ Permutation m.1.1 m'.1.1) (bmats n w).
  Proof.
    elim: n w => [|n IH] [|x w]; try (by repeat constructor). case/NoDup_cons_iff => Nx ND /=.
    have Hx m b : In m (bmats n w) -> In b m.1.1 -> ~ In x b by move=> Hm Hb Hx; apply: Nx; apply: bmats_in Hm _ _; exact: in_flat Hb Hx.
    have Hx' p m b : In p (splits w) -> In m (bmats n p.2) -> In b m.1.1 -> ~ In x b.
    { move=> Hp Hm Hb Hx'. apply: Nx. have [_ S] := splits_sub Hp. apply: CountProofs.subseq_in S _. apply: bmats_in Hm _ _. exact: in_flat Hb Hx'. }
    apply: fop_app.
    - apply: fop_map. exact: IH.
    - apply: fop_flatten.
      + move=> p /filter_In [Hp _]. apply: fop_map. apply: fop_impl (IH p.2 _).
        * move=> m m' _ _ N P. apply: N. exact: Permutation_cons_inv P.
        * have := Permutation_NoDup (splits_perm Hp) ND. move/CountProofs.nodup_app_inv. tauto.
      + apply: fop_filter. apply: fop_impl (splits_once ND).
        move=> p q Hp Hq N m m' /in_map_iff [m0 [<- Hm]] /in_map_iff [m1 [<- Hm']] /= P.
        have := Permutation_in _ P (or_introl erefl). case=> [[E]|H]; first by apply: N. apply: (Hx' _ _ _ Hq Hm' H). by left.
    - move=> m m' /in_map_iff [m0 [<- Hm]] /In_flatten [l [/in_map_iff [p [<- _]] /in_map_iff [m1 [<- _]]]] /= P.
      have := Permutation_in _ (Permutation_sym P) (or_introl erefl) => H. apply: (Hx _ _ Hm H). by left.
  Qed.

  Variables (K : fieldType) (M : seq X -> K).
  Hypothesis ME : even M.
  Lemma conv_bmats (V : lmodType K) (G : seq X -> V) n w : (size w <= n)%N -> (forall b, lsub b w -> cp b = false -> b <> [::] -> M b = 0) ->
    conv (moment M) G w = \sum_(m <- bmats n w) (zr K m.2 * \prod_(b <- m.1.1) M b) *: G m.1.2.
  Proof.
    elim: n w G => [|n IH] [|x w] G // Hn Hc.
    1,2: by rewrite /= big_cons !big_nil mulr1 addr0.
    rewrite exp_cons // conv_splits /split_sum /= big_cat big_map big_flatten big_map big_filter /= addrC. congr (_ + _).
    - rewrite IH // => [b Sb]. apply: Hc. exact: sub_skip.
    - rewrite [RHS]big_mkcond. apply: eq_big_In => p Hp. have [S1 S2] := splits_sub Hp. case Ec: (cp (x :: p.1.2)).
      + rewrite IH.
        * rewrite big_map scaler_sumr. apply: eq_bigr => m _. rewrite /= big_cons scalerA zrM zr_sgz /dx. congr (_ *: _).
          by rewrite -!mulrA; congr (_ * _); rewrite mulrCA.
        * apply: (@leq_trans (size w)); last exact: Hn. by rewrite -(splits_size Hp) leq_addl.
        * move=> b Sb. apply: Hc. apply: sub_skip. exact: CountProofs.subseq_trans S2 Sb.
      + rewrite /dx Hc ?mulr0 ?scale0r //. exact: sub_take.
  Qed.
End Blocks.
