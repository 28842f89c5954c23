(** The list of matchings contains every matching once. *)
Set Warnings "-notation-overridden,-ambiguous-paths".
From Coq Require Import ZArith List Permutation Lia.
From mathcomp Require Import all_ssreflect ssralg.
From Verif Require Import SortSpec SortProofs CountSpec CountProofs WickMatchProofs.
Set Implicit Arguments.
Unset Strict Implicit.
Unset Printing Implicit Defensive.

Definition unz (X : Type) (ps : seq (X * X)) : seq X := flatten [seq [:: p.1; p.2] | p <- ps].

Lemma fop_app (Y : Type) (R : Y -> Y -> Prop) l1 l2 : ForallOrdPairs R l1 -> ForallOrdPairs R l2 ->
  (forall x y, In x l1 -> In y l2 -> R x y) -> ForallOrdPairs R (l1 ++ l2).
Proof.
  elim=> [|x l F _ IH] H2 H; first by [].
  rewrite cat_cons. constructor.
  - apply/List.Forall_app. split=> //. apply/List.Forall_forall => y Hy. apply: H => //. by left.
  - apply: IH => // y z Hy Hz. apply: H => //. by right.
Qed.
Lemma fop_map (Y Z : Type) (R : Z -> Z -> Prop) (f : Y -> Z) l : ForallOrdPairs (fun x y => R (f x) (f y)) l -> ForallOrdPairs R [seq f x | x <- l].
Proof.
  elim=> [|x l0 F _ IH] /=; constructor=> //. apply/List.Forall_forall => z /in_map_iff [y [<- Hy]]. by move/List.Forall_forall: F => /(_ _ Hy).
Qed.
Lemma fop_impl (Y : Type) (R S : Y -> Y -> Prop) l : (forall x y, In x l -> In y l -> R x y -> S x y) -> ForallOrdPairs R l -> ForallOrdPairs S l.
Proof.
  move=> H F. elim: F H => [|x l0 F _ IH] H; constructor.
  - apply/List.Forall_forall => y Hy. apply: H; [by left|by right|]. by move/List.Forall_forall: F => /(_ _ Hy).
  - apply: IH => y z Hy Hz. apply: H; by right.
Qed.
Lemma fop_flatten (Y Z : Type) (R : Z -> Z -> Prop) (f : Y -> seq Z) l : (forall y, In y l -> ForallOrdPairs R (f y)) ->
  ForallOrdPairs (fun y y' => forall z z', In z (f y) -> In z' (f y') -> R z z') l -> ForallOrdPairs R (flatten [seq f y | y <- l]).
Proof.
  move=> H1 H2. elim: H2 H1 => [|y l0 F _ IH] H1 /=; first by constructor.
  apply: fop_app.
  - by apply: H1; left.
  - apply: IH => z Hz. by apply: H1; right.
  - move=> z z' Hz /In_flatten [l1 [/in_map_iff [y' [<- Hy']] Hz']]. move/List.Forall_forall: F => /(_ _ Hy'). exact.
Qed.
Lemma fop_filter (Y : Type) (R : Y -> Y -> Prop) (p : pred Y) l : ForallOrdPairs R l -> ForallOrdPairs R [seq x <- l | p x].
Proof.
  elim=> [|x l0 F _ IH] /=; first by constructor. case: (p x) => //. constructor=> //.
  apply/List.Forall_forall => y /filter_In [Hy _]. by move/List.Forall_forall: F => /(_ _ Hy).
Qed.

Lemma sperm_skip (Y : Type) (l0 l l' : seq Y) s : sperm l s l' -> sperm (l0 ++ l) s (l0 ++ l').
Proof. elim: l0 => [|x l0 IH] H //=. apply: sperm_cons. exact: IH. Qed.
(** Moving a letter to the front. *)
Lemma sperm_front (Y : Type) (x : Y) l1 l2 : sperm (l1 ++ x :: l2) (sgz (size l1)) (x :: l1 ++ l2).
Proof.
  elim: l1 => [|y l1 IH]; first exact: sp_refl.
  have := sperm_trans _ _ _ _ _ (sperm_cons y _ _ _ IH) (sperm_swap1 [::] y x (l1 ++ l2)).
  rewrite /= /sgz /=. by case: (odd (size l1)).
Qed.
Lemma sperm_sym (Y : Type) (l l' : seq Y) s : sperm l s l' -> sperm l' s l.
Proof.
  elim=> [l0|l1 x y l2 s0 l0 H IH]; first exact: sp_refl.
  have := sperm_trans _ _ _ _ _ IH (sperm_swap1 l1 y x l2). have -> // : (s0 * -1 = - s0)%Z by lia.
Qed.
Lemma size_unz (X : Type) (ps : seq (X * X)) : size (unz ps) = (2 * size ps)%N.
Proof. elim: ps => [|p ps IH] //=. by rewrite -/(unz ps) IH mulnS. Qed.

Section Mats.
  Variables (X : Type) (cp : X -> X -> bool).
  Hypothesis xdec : forall x y : X, {x = y} + {x <> y}.

  Lemma picks_spec (l : seq X) p : In p (picks l) <-> exists l1 l2, l = l1 ++ p.1.2 :: l2 /\ p.2 = l1 ++ l2 /\ size l1 = p.1.1.
  Proof.
    elim: l p => [|x l IH] [[k y] r] /=; split=> //.
    - by case=> -[|? ?] [? []].
    - case=> [[<- <- <-]|/in_map_iff [[[k' y'] r'] [[<- <- <-] /IH [l1 [l2 /= [-> [-> <-]]]]]]].
      + by exists [::], l.
      + by exists (x :: l1), l2.
    - case=> -[|z l1] [l2 /= [[-> El] [-> <-]]]; first by left; rewrite El.
      right. apply/in_map_iff. exists (size l1, y, l1 ++ l2). split=> //. apply/IH. by exists l1, l2.
  Qed.
  Lemma bpicks_spec (ws : seq (seq X)) p : In p (bpicks ws) ->
    exists l1 l2, flatten ws = l1 ++ p.1.2 :: l2 /\ flatten p.2 = l1 ++ l2 /\ size l1 = p.1.1.
  Proof.
    elim: ws p => [|w ws IH] p //= H. apply List.in_app_or in H. case: H => /in_map_iff [q [<- Hq]] /=.
    - move/picks_spec: Hq => [l1 [l2 [-> [-> <-]]]]. exists l1, (l2 ++ flatten ws). by rewrite -!catA.
    - have [l1 [l2 [-> [-> <-]]]] := IH _ Hq. exists (w ++ l1), l2. by rewrite -!catA size_cat.
  Qed.
  Lemma bpicks_all (ws : seq (seq X)) y : In y (flatten ws) -> exists p, In p (bpicks ws) /\ p.1.2 = y.
  Proof.
    elim: ws => [|w ws IH] //= H. apply List.in_app_or in H. case: H => [H|/IH [p [Hp Ep]]].
    - apply List.in_split in H. case: H => l1 [l2 E]. exists (size l1, y, (l1 ++ l2) :: ws). split=> //. apply: List.in_or_app; left.
      apply/in_map_iff. exists (size l1, y, l1 ++ l2). split=> //. apply/picks_spec. by exists l1, l2.
    - exists ((size w + p.1.1)%N, p.1.2, w :: p.2). split=> //. apply: List.in_or_app; right. apply/in_map_iff. by exists p.
  Qed.

  Lemma mats_cons n x w ws (m : matching X) : In m (mats cp n.+1 ((x :: w) :: ws)) <->
    (exists m0, In m0 (mats cp n (w :: ws)) /\ m = (m0.1.1, x :: m0.1.2, m0.2)) \/
    (exists p m0, In p (bpicks ws) /\ cp x p.1.2 /\ In m0 (mats cp n (w :: p.2)) /\ m = ((x, p.1.2) :: m0.1.1, m0.1.2, (sgz (size w + p.1.1) * m0.2)%Z)).
  Proof.
    rewrite /= in_app_iff In_flatten. split.
    - case=> [/in_map_iff [m0 [<- H]]|[l [/in_map_iff [p [<- /filter_In [Hp Hc]]] /in_map_iff [m0 [<- H]]]]].
      + left. by exists m0.
      + right. by exists p, m0.
    - case=> [[m0 [H ->]]|[p [m0 [Hp [Hc [H ->]]]]]].
      + left. apply/in_map_iff. by exists m0.
      + right. eexists. split; first by apply/in_map_iff; exists p; split=> //; apply/filter_In. apply/in_map_iff. by exists m0.
  Qed.

  Lemma mats_cp fuel ws m : In m (mats cp fuel ws) -> forall p, In p m.1.1 -> cp p.1 p.2.
  Proof.
    elim: fuel ws m => [|n IH] ws m //. case: ws => [|[|x w] ws]; first by case=> // <-.
    - exact: IH.
    - move/mats_cons => [[m0 [H ->]]|[p [m0 [Hp [Hc [H ->]]]]]] q /=; first exact: IH H q.
      case=> [<- //|]. exact: IH H q.
  Qed.
  Lemma mats_sperm fuel ws m : In m (mats cp fuel ws) -> sperm (flatten ws) m.2 (unz m.1.1 ++ m.1.2).
  Proof.
    elim: fuel ws m => [|n IH] ws m //. case: ws => [|[|x w] ws]; first by case=> // <-; exact: sp_refl.
    - exact: IH.
    - move/mats_cons => [[m0 [H ->]]|[p [m0 [Hp [Hc [H ->]]]]]] /=.
      + have A := sperm_cons x _ _ _ (IH _ _ H). have B := sperm_sym (sperm_front x (unz m0.1.1) m0.1.2).
        have C := sperm_trans _ _ _ _ _ A B. move: C. by rewrite size_unz mul2n /sgz odd_double Z.mul_1_r.
      + have [l1 [l2 [E1 [E2 E3]]]] := bpicks_spec Hp. rewrite E1 -E3 -size_cat catA. apply: sperm_cons.
        apply: sperm_trans (sperm_front _ _ _) _. apply: sperm_cons. have := IH _ _ H. by rewrite /= E2 catA.
  Qed.

  (** No admissible pair inside a word, or with the left partner in a later word. *)
  Fixpoint blocks_ok (ws : seq (seq X)) : Prop :=
    match ws with
    | [::] => True
    | w :: ws' => (forall x y, In x w -> In y w -> cp x y = false) /\ (forall x y, In x w -> In y (flatten ws') -> cp y x = false) /\ blocks_ok ws'
    end.
  Lemma bpicks_in (ws : seq (seq X)) p y : In p (bpicks ws) -> In y (flatten p.2) -> In y (flatten ws).
  Proof. move/bpicks_spec => [l1 [l2 [-> [-> _]]]]. rewrite !in_app_iff /=. tauto. Qed.
  Lemma bpicks_ok (ws : seq (seq X)) p : In p (bpicks ws) -> blocks_ok ws -> blocks_ok p.2.
  Proof.
    elim: ws p => [|w ws IH] p //= H [A [B C]]. apply List.in_app_or in H. case: H => /in_map_iff [q [<- Hq]] /=.
    - move/picks_spec: Hq => [l1 [l2 [E [-> _]]]]. have I z : In z (l1 ++ l2) -> In z w by rewrite E !in_app_iff /=; tauto.
      split; [|split=> //]; move=> x y Hx Hy; [apply: A; exact: I|apply: B => //; exact: I].
    - split=> //. split; last exact: IH. move=> x y Hx Hy. apply: B => //. exact: bpicks_in Hq Hy.
  Qed.
  Lemma blocks_ok_tail x w ws : blocks_ok ((x :: w) :: ws) -> blocks_ok (w :: ws).
  Proof. move=> [A [B C]]. split; [|split=> //]; move=> y z Hy Hz; [apply: A|apply: B => //]; by right. Qed.
  Lemma in_unz (ps : seq (X * X)) (x : X) : In x (unz ps) <-> exists p, In p ps /\ (x = p.1 \/ x = p.2).
  Proof.
    rewrite /unz In_flatten. split.
    - case=> l [/in_map_iff [p [<- Hp]] /= [<-|[<-|//]]]; exists p; tauto.
    - case=> p [Hp Hx]. exists [:: p.1; p.2]. split; first by apply/in_map_iff; exists p. rewrite /=. intuition.
  Qed.
  Lemma unz_perm (ps qs : seq (X * X)) : Permutation ps qs -> Permutation (unz ps) (unz qs).
  Proof.
    elim=> [|p a b _ IH|p q a|a b c _ IH1 _ IH2] //=.
    - by do 2! apply: perm_skip.
    - rewrite -!/(unz _). exact: (Permutation_app_tail (unz a) (Permutation_app_comm [:: q.1; q.2] [:: p.1; p.2])).
    - exact: Permutation_trans IH1 IH2.
  Qed.

  Lemma mats_complete fuel (ws : seq (seq X)) (ps : seq (X * X)) : (msize ws < fuel)%N -> blocks_ok ws -> NoDup (flatten ws) ->
    (forall p, In p ps -> cp p.1 p.2) -> NoDup (unz ps) -> incl (unz ps) (flatten ws) -> exists m, In m (mats cp fuel ws) /\ Permutation m.1.1 ps.
  Proof.
    elim: fuel ws ps => [|n IH] ws ps //. case: ws => [|[|x w] ws] Hf Ok ND Hc NDp I.
    - case: ps Hc NDp I => [|p ps] _ _ I; first by exists ([::], [::], 1%Z); split=> //; left. by case: (I p.1 (or_introl erefl)).
    - case: (IH ws ps) => [||||||m [Hm Pm]] //; [|by case: Ok => _ []|by exists m].
      move: Hf. by rewrite /msize /= addnS.
    - have Hw : (msize (w :: ws) < n)%N by move: Hf; rewrite /msize /= size_cat.
      rewrite /= in ND. case/NoDup_cons_iff: ND => Nx ND.
      case: (in_dec xdec x (unz ps)) => Hx.
      + move/in_unz: (Hx) => [p [Hp Ex]].
        have Ip1 : In p.1 (flatten ((x :: w) :: ws)) by apply: I; apply/in_unz; exists p; split=> //; left.
        have Ip2 : In p.2 (flatten ((x :: w) :: ws)) by apply: I; apply/in_unz; exists p; split=> //; right.
        case: Ok => A [B C]. have E1 : p.1 = x.
        { case: Ex => // Ex. have := Hc _ Hp. rewrite -Ex. rewrite /= in_app_iff in Ip1. case: Ip1 => [<-|[H|H]].
          - by rewrite A //; left.
          - by rewrite A //; [right|left].
          - by rewrite B //; left. }
        have Iy : In p.2 (flatten ws).
        { rewrite /= in_app_iff in Ip2. have Hp0 := Hc _ Hp. rewrite E1 in Hp0. case: Ip2 => [E|[H|//]].
          - by rewrite -E A in Hp0; try (by left).
          - by rewrite A in Hp0; [|left|right]. }
        have [q [Hq Eq]] := bpicks_all Iy. apply List.in_split in Hp. case: Hp => ps1 [ps2 Eps].
        have Pp : Permutation ps (p :: (ps1 ++ ps2)%list) by rewrite Eps; apply: Permutation_sym; apply: Permutation_middle.
        have NDp' : NoDup (x :: p.2 :: unz (ps1 ++ ps2)) by rewrite -E1; exact: Permutation_NoDup (unz_perm Pp) NDp.
        case/NoDup_cons_iff: NDp' => Nx' NDp'. case/NoDup_cons_iff: NDp' => Ny' NDp'.
        have [l1 [l2 [F1 [F2 F3]]]] := bpicks_spec Hq.
        case: (IH (w :: q.2) (ps1 ++ ps2)%list) => [|||||| m [Hm Pm]].
        * move: Hw. have [G1 G2] := bpicks_size Hq. rewrite /msize /= !size_cat G1 G2. apply: leq_trans. by rewrite ltnS leq_add2r leq_add2l.
        * have [A' [B' C']] := blocks_ok_tail (conj A (conj B C)). split=> //. split; last exact: bpicks_ok Hq C'. move=> y z Hy Hz. apply: B' => //. exact: bpicks_in Hq Hz.
        * move: ND. rewrite /= F1 F2 !catA. exact: NoDup_remove_1.
        * move=> r Hr. apply: Hc. apply: Permutation_in (Permutation_sym Pp) _. by right.
        * exact: NDp'.
        * move=> z Hz. have Hz' : In z (flatten ((x :: w) :: ws)).
          { apply: I. apply: Permutation_in (unz_perm (Permutation_sym Pp)) _. right. by right. }
          have Nzx : z <> x. { move=> E. apply: Nx'. rewrite -E. by right. }
          have Nzy : z <> q.1.2. { move=> E. apply: Ny'. by rewrite -Eq -E. }
          move: Hz'. rewrite /= F1 F2 !in_app_iff /=. case=> [E|[?|[?|[E|?]]]]; by [case: Nzx|left|right; left|case: Nzy|right; right].
        * exists ((x, q.1.2) :: m.1.1, m.1.2, (sgz (size w + q.1.1) * m.2)%Z). split.
          { apply/mats_cons. right. exists q, m. split=> //. split=> //. rewrite Eq -E1. apply: Hc. rewrite Eps. apply: in_or_app. right. by left. }
          apply: Permutation_trans (Permutation_sym Pp). rewrite /= Eq -E1. case: (p) => a b /=. by apply: perm_skip.
      + case: (IH (w :: ws) ps) => [||||||m [Hm Pm]] //; first exact: blocks_ok_tail Ok.
        * move=> z Hz. have := I _ Hz. rewrite /=. case=> // E. by case: Hx; rewrite E.
        * exists (m.1.1, x :: m.1.2, m.2). split=> //. apply/mats_cons. left. by exists m.
  Qed.

  Lemma mats_in fuel ws m : In m (mats cp fuel ws) -> incl (unz m.1.1) (flatten ws).
  Proof.
    move=> /mats_sperm H z Hz. apply: Permutation_in (Permutation_sym (sperm_perm _ _ _ H)) _. apply: in_or_app. by left.
  Qed.
  Lemma bpicks_once ws : NoDup (flatten ws) -> ForallOrdPairs (fun p q : nat * X * seq (seq X) => p.1.2 <> q.1.2) (bpicks ws).
  Proof.
    have Pk : forall w : seq X, NoDup w -> ForallOrdPairs (fun p q : nat * X * seq X => p.1.2 <> q.1.2) (picks w).
    { elim=> [|x w IH] ND /=; first by constructor. case/NoDup_cons_iff: ND => Nx ND. constructor.
      - apply/List.Forall_forall => q /in_map_iff [q0 [<- /picks_spec [l1 [l2 [E _]]]]] /= Ex. apply: Nx. rewrite E Ex. apply: in_or_app. right. by left.
      - apply: fop_map. exact: IH. }
    elim: ws => [|w ws IH] ND /=; first by constructor. have [N1 [N2 _]] := CountProofs.nodup_app_inv _ _ ND.
    apply: fop_app.
    - apply: fop_map. exact: Pk.
    - apply: fop_map. exact: IH.
    - move=> p q /in_map_iff [p0 [<- Hp0]] /in_map_iff [q0 [<- Hq0]] /= Ex.
      have [l1 [l2 [E _]]] := proj1 (picks_spec _ _) Hp0. have [l3 [l4 [E' _]]] := bpicks_spec Hq0.
      move: ND. rewrite /= E E' -Ex -catA /= => ND. apply: (NoDup_remove_2 _ _ _ ND). rewrite !in_app_iff /=. tauto.
  Qed.
  Lemma mats_once fuel ws : NoDup (flatten ws) -> ForallOrdPairs (fun m m' : matching X => ~ Permutation m.1.1 m'.1.1) (mats cp fuel ws).
  Proof.
    elim: fuel ws => [|n IH] ws; first by constructor. case: ws => [|[|x w] ws] ND /=.
    - by repeat constructor.
    - exact: IH.
    - rewrite /= in ND. case/NoDup_cons_iff: ND => Nx ND.
      have Hx m : In m (mats cp n (w :: ws)) -> ~ In x (unz m.1.1) by move=> Hm Hx; apply: Nx; exact: mats_in Hm _ Hx.
      have Hx' p m : In p (bpicks ws) -> In m (mats cp n (w :: p.2)) -> ~ In x (unz m.1.1).
      { move=> Hp Hm Hx'. apply: Nx. have := mats_in Hm Hx'. rewrite /= !in_app_iff. case; [by left|right; exact: bpicks_in Hp _]. }
      apply: fop_app.
      + apply: fop_map. exact: IH.
      + apply: fop_flatten.
        * move=> p /filter_In [Hp _]. apply: fop_map. apply: fop_impl (IH (w :: p.2) _).
          { move=> m m' _ _ N P. apply: N. exact: Permutation_cons_inv P. }
          have [l1 [l2 [F1 [F2 _]]]] := bpicks_spec Hp. move: ND. rewrite /= F1 F2 !catA. exact: NoDup_remove_1.
        * apply: fop_filter. apply: fop_impl (bpicks_once _); last by have [_ [N2 _]] := CountProofs.nodup_app_inv _ _ ND.
          move=> p q Hp Hq N m m' /in_map_iff [m0 [<- Hm]] /in_map_iff [m1 [<- Hm']] /= P.
          have := Permutation_in _ P (or_introl erefl). case=> [[E]|H]; first by apply: N.
          apply: (Hx' _ _ Hq Hm'). apply/in_unz. exists (x, p.1.2). split=> //. by left.
      + move=> m m' /in_map_iff [m0 [<- Hm]] /In_flatten [l [/in_map_iff [p [<- _]] /in_map_iff [m1 [<- _]]]] /= P.
        have := Permutation_in _ (Permutation_sym P) (or_introl erefl) => H. apply: (Hx _ Hm). apply/in_unz. exists (x, p.1.2). split=> //. by left.
  Qed.
End Mats.
