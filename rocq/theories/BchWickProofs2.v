(** C74: commutators with excitations (algebra). *)
Set Warnings "-notation-overridden,-ambiguous-paths".
From Coq Require Import ZArith List Lia.
From mathcomp Require Import all_ssreflect ssralg.
From Verif Require Import RationalModel RegistryModel CoreModel SortSpec ScalarSem LadderSpec CanonSemSpec WickSearchModel WickProductSpec OperatorSemSpec BchProofs BchWickSpec.
Set Implicit Arguments.
Unset Strict Implicit.
Unset Printing Implicit Defensive.
Import GRing.Theory.
Local Open Scope ring_scope.

(** ** Derivations *)
Section Nil.
  Variables (K : fieldType) (A : algType K) (b : A).
  Let D (z : A) : A := z * b - b * z.
  Definition vanishes (n : nat) (z : A) : Prop := iter n D z = 0.
  Lemma DD x y : D (x + y) = D x + D y.
  Proof. by rewrite /D mulrDl mulrDr opprD addrACA. Qed.
  Lemma DZ c x : D (c *: x) = c *: D x.
  Proof. by rewrite /D -scalerAl -scalerAr scalerBr. Qed.
  Lemma D0 : D 0 = 0.
  Proof. by rewrite /D mul0r mulr0 subr0. Qed.
  Lemma D_mul x y : D (x * y) = D x * y + x * D y.
  Proof. by rewrite /D mulrBl mulrBr !mulrA [in RHS]addrC addrA subrK. Qed.
  Lemma iter_sum n x y : iter n D (x + y) = iter n D x + iter n D y.
  Proof. by elim: n => [|n IH] //=; rewrite IH DD. Qed.
  Lemma iterZ n c x : iter n D (c *: x) = c *: iter n D x.
  Proof. by elim: n => [|n IH] //=; rewrite IH DZ. Qed.
  Lemma iter0 n : iter n D 0 = 0.
  Proof. by elim: n => [|n IH] //=; rewrite IH D0. Qed.
  Lemma vanishes_sum (I : Type) (l : seq I) (F : I -> A) n : (forall i, In i l -> vanishes n (F i)) -> vanishes n (\sum_(i <- l) F i).
  Proof.
    rewrite /vanishes. elim: l => [|i l IH] H; first by rewrite big_nil iter0. rewrite big_cons iter_sum H ?IH ?addr0 //; last by left.
    move=> j Hj. by apply: H; right.
  Qed.
  Lemma vanishes_scale n c x : vanishes n x -> vanishes n (c *: x).
  Proof. by rewrite /vanishes iterZ => ->; rewrite scaler0. Qed.
  Lemma vanishes_le n m x : (n <= m)%N -> vanishes n x -> vanishes m x.
  Proof. move=> L. by rewrite /vanishes -(subnK L) iterD => ->; rewrite iter0. Qed.
  Lemma vanishes_mul n : forall p q x y, (p + q <= n.+1)%N -> vanishes p x -> vanishes q y -> vanishes n (x * y).
  Proof.
    elim: n => [|n IH] p q x y L Vx Vy.
    - case: p q L Vx Vy => [|p] [|q] L Vx Vy; first [have X : x = 0 by exact: Vx|have X : y = 0 by exact: Vy|by move: L; rewrite addSn addnS]; by rewrite X ?mul0r ?mulr0 /vanishes.
    - case: p Vx L => [|p] Vx L; first by (have X : x = 0 by exact: Vx); rewrite X mul0r /vanishes iter0.
      case: q Vy L => [|q] Vy L; first by (have X : y = 0 by exact: Vy); rewrite X mulr0 /vanishes iter0.
      rewrite /vanishes iterSr D_mul iter_sum. have V1 : vanishes n (D x * y) by apply: (IH p q.+1) => //; rewrite /vanishes -?iterSr //; move: L; rewrite addSn.
      have V2 : vanishes n (x * D y) by apply: (IH p.+1 q) => //; rewrite /vanishes -?iterSr //; move: L; rewrite addnS.
      by rewrite V1 V2 addr0.
  Qed.
  (** Where the commutators vanish the series terminates. *)
  Lemma bch_stop x d n : vanishes d.+1 x -> (d <= n)%N -> bch_sum x b n = bch_sum x b d.
  Proof.
    move=> V L. rewrite -(subnK L) addnC. elim: (n - d)%N => [|k IH]; first by rewrite addn0.
    rewrite addnS /bch_sum big_ord_recr -/(bch_sum x b (d + k)) IH -[RHS]addr0. congr (_ + _). rewrite -(scaler0 _ ((d + k).+1`!%:R)^-1). congr (_ *: _).
    have V' : vanishes (d + k).+1 x by apply: (@vanishes_le d.+1) => //; rewrite ltnS leq_addr. exact: V'.
  Qed.
End Nil.
Section Exact.
  Variables (K : fieldType) (A : algType K).
  Lemma bch_exact (x b : A) d n m : [char K] =i pred0 -> vanishes b d.+1 x -> (d <= n)%N -> b ^+ m = 0 -> bch_sum x b n = exponential m (- b) * x * exponential m b.
  Proof.
    move=> ch V L N. rewrite (bch_stop V L) -(bch_stop V (leq_trans L (leq_addr (m + m) n))). apply: (bch_nilpotent ch) => //. rewrite addnC. by apply: leqW; apply: leqW; rewrite leq_addr.
  Qed.
  (** Commuting elements with square zero have a nilpotent sum. *)
  Lemma nilpotent_sum (I : Type) (l : seq I) (F : I -> A) : (forall i, In i l -> F i * F i = 0) -> (forall i j, In i l -> In j l -> F i * F j = F j * F i) ->
    (\sum_(i <- l) F i) ^+ (size l).+1 = 0.
  Proof.
    elim: l => [|i l IH] Sq Cm; first by rewrite big_nil expr1. rewrite big_cons. set t := \sum_(j <- l) F j. set u := F i.
    have Ct : u * t = t * u.
    { rewrite /t. have : forall j, In j l -> u * F j = F j * u by move=> j Hj; apply: Cm; [left|right]. elim: (l) => [|j l' IH'] H; first by rewrite big_nil mulr0 mul0r.
      rewrite big_cons mulrDr mulrDl H; last by left. by rewrite IH' // => k Hk; apply: H; right. }
    have Su : u * u = 0 by apply: Sq; left.
    have Cn k : u * t ^+ k = t ^+ k * u by elim: k => [|k E]; rewrite ?expr0 ?mul1r ?mulr1 // exprS mulrA Ct -mulrA E mulrA.
    have P k : (u + t) ^+ k.+1 = t ^+ k.+1 + (u * t ^+ k) *+ k.+1.
    { elim: k => [|k E]; first by rewrite !expr1 expr0 mulr1 mulr1n addrC. have E1 : u * t ^+ k * u = 0 by rewrite -mulrA -Cn mulrA Su mul0r.
      rewrite exprSr E mulrDl !mulrDr !mulrnAl E1 mul0rn add0r -Cn -(mulrA u (t ^+ k) t) -!exprSr [in RHS]mulrS.
      by rewrite [u * _ + t ^+ _]addrC -addrA. }
    have Z : t ^+ (size l).+1 = 0 by apply: IH => [j Hj|j k Hj Hk]; [apply: Sq; right|apply: Cm; right].
    by rewrite /= P exprS Z !mulr0 mul0rn addr0.
  Qed.
End Exact.

(** ** Words of ladder operators *)
Section Words.
  Variables (K : fieldType) (A : algType K) (orb : eqType) (st : osi) (cre ann : Z -> orb -> A).
  Hypothesis ch : [char K] =i pred0.
  Hypothesis HL : ladder_relations st cre ann.
  Hypothesis HS : single_reference st.
  Notation letter := (bool * (Z * orb))%type.
  Notation ld := (ladder cre ann).
  Definition wp (w : seq letter) : A := \prod_(x <- w) ld x.
  Definition reg (w : seq letter) : Prop := forall x, In x w -> registered st x.2.1.
  Definition exc (w : seq letter) : Prop := forall x, In x w -> registered st x.2.1 /\ makes_excitation st x.
  Definition span (P : seq letter -> Prop) (z : A) : Prop := exists l : seq (K * seq letter), (forall y, In y l -> P y.2) /\ z = \sum_(y <- l) y.1 *: wp y.2.
  Lemma span0 P : span P 0.
  Proof. exists [::]. by rewrite big_nil. Qed.
  Lemma spanD P x y : span P x -> span P y -> span P (x + y).
  Proof. move=> [l [Hl ->]] [m [Hm ->]]. exists (l ++ m)%list. split=> [z /in_app_iff [/Hl|/Hm] //|]. by rewrite big_cat. Qed.
  Lemma spanZ P c x : span P x -> span P (c *: x).
  Proof.
    move=> [l [Hl ->]]. exists (List.map (fun y => (c * y.1, y.2)) l). split=> [z /in_map_iff [y [<- /Hl]] //|]. rewrite scaler_sumr -[List.map _ _]/(map _ _) big_map. apply: eq_bigr => y _. by rewrite scalerA.
  Qed.
  Lemma span_word (P : seq letter -> Prop) w : P w -> span P (wp w).
  Proof. move=> H. exists [:: (1, w)]. split=> [y [<-|[]] //|]. by rewrite big_seq1 scale1r. Qed.
  Lemma span_sum P (I : Type) (l : seq I) (F : I -> A) : (forall i, In i l -> span P (F i)) -> span P (\sum_(i <- l) F i).
  Proof. elim: l => [|i l IH] H; first by rewrite big_nil; exact: span0. rewrite big_cons. apply: spanD; first by apply: H; left. by apply: IH => j Hj; apply: H; right. Qed.
  Lemma span_mul (P Q R : seq letter -> Prop) x y : (forall v w, P v -> Q w -> R (v ++ w)%list) -> span P x -> span Q y -> span R (x * y).
  Proof.
    move=> H [l [Hl ->]] [m [Hm ->]]. rewrite big_distrl /=. apply: span_sum => v Hv. rewrite big_distrr /=. apply: span_sum => w Hw.
    rewrite -scalerAl -scalerAr. apply: spanZ. apply: spanZ. rewrite /wp -big_cat. apply: span_word. apply: H; [exact: Hl|exact: Hm].
  Qed.
  Lemma span_imp (P Q : seq letter -> Prop) x : (forall w, P w -> Q w) -> span P x -> span Q x.
  Proof. move=> H [l [Hl ->]]. exists l. by split=> // y /Hl /H. Qed.

  (** Two letters anticommute up to a number; excitations anticommute. *)
  Lemma fer s t : registered st s -> registered st t -> exch K st s t = -1.
  Proof. move=> /HS [E _] /HS [E' _]. by rewrite /exch E E'. Qed.
  Lemma letters x y : registered st x.2.1 -> registered st y.2.1 -> exists c : K, ld x * ld y = c%:A - ld y * ld x.
  Proof.
    move: x y => [[] [s p]] [[] [t q]] /= Rs Rt; rewrite /ladder /=.
    - exists 0. by rewrite (rel_cc HL) // fer // scaleN1r scale0r add0r.
    - exists ((t =? s)%Z && (q == p))%:R. have := rel_ac HL q p Rt Rs. rewrite fer // scaleN1r => ->. rewrite scaler_nat opprD opprK addrA subrr add0r //.
    - exists ((s =? t)%Z && (p == q))%:R. by rewrite (rel_ac HL) // fer // scaleN1r scaler_nat.
    - exists 0. by rewrite (rel_aa HL) // fer // scaleN1r scale0r add0r.
  Qed.
  Lemma exc_anti x y : registered st x.2.1 -> registered st y.2.1 -> makes_excitation st x -> makes_excitation st y -> ld x * ld y = - (ld y * ld x).
  Proof.
    move: x y => [[] [s p]] [[] [t q]] /= Rs Rt Ex Ey; rewrite /ladder /=.
    - by rewrite (rel_cc HL) // fer // scaleN1r.
    - have N : (t =? s)%Z = false. { apply/Z.eqb_spec => E. move: Ex Ey. rewrite /makes_excitation /= E. by case: (stype st s) => [[]|]. }
      have := rel_ac HL q p Rt Rs. rewrite N fer // scaleN1r /= mulr0n add0r => ->. by rewrite opprK.
    - have N : (s =? t)%Z = false. { apply/Z.eqb_spec => E. move: Ex Ey. rewrite /makes_excitation /= E. by case: (stype st t) => [[]|]. }
      have := rel_ac HL p q Rs Rt. by rewrite N fer // scaleN1r /= mulr0n add0r => ->.
    - by rewrite (rel_aa HL) // fer // scaleN1r.
  Qed.
  Lemma exc_sq x : registered st x.2.1 -> makes_excitation st x -> ld x * ld x = 0.
  Proof.
    move=> R E. have := exc_anti R R E E => /eqP. rewrite -subr_eq0 opprK -mulr2n -scaler_nat scaler_eq0. have -> : (2%:R : K) == 0 = false by move/charf0P: ch => ->. by move=> /eqP.
  Qed.
  Lemma exc_past x w : registered st x.2.1 -> makes_excitation st x -> exc w -> ld x * wp w = (-1) ^+ size w *: (wp w * ld x).
  Proof.
    move=> R E. elim: w => [|y w IH] H; first by rewrite /wp big_nil mulr1 mul1r scale1r. have [Ry Ey] := H y (or_introl erefl).
    rewrite /wp !big_cons -/(wp w) mulrA (exc_anti R Ry E Ey) mulNr -mulrA IH; last by move=> z Hz; apply: H; right.
    by rewrite -scalerAr exprS mulN1r scaleNr mulrA.
  Qed.
  Lemma exc_comm v w : exc v -> exc w -> ~~ odd (size w) -> wp v * wp w = wp w * wp v.
  Proof.
    move=> Hv Hw O. elim: v Hv => [|x v IH] Hv; first by rewrite /wp big_nil mulr1 mul1r. have [Rx Ex] := Hv x (or_introl erefl).
    rewrite /wp !big_cons -/(wp v) -/(wp w) -mulrA IH; last by move=> z Hz; apply: Hv; right. rewrite mulrA exc_past // -signr_odd (negbTE O) expr0 scale1r -mulrA //.
  Qed.
  (** The commutator of a letter and a word of excitations: words with one letter less. *)
  Lemma letter_past x w : registered st x.2.1 -> exc w -> span (fun v => exc v) (ld x * wp w - (-1) ^+ size w *: (wp w * ld x)).
  Proof.
    move=> R. elim: w => [|y w IH] H; first by rewrite /wp big_nil mulr1 mul1r scale1r subrr; exact: span0.
    have [Ry Ey] := H y (or_introl erefl). have Hw : exc w by move=> z Hz; apply: H; right. have [c Ec] := letters R Ry.
    have -> : ld x * wp (y :: w) - (-1) ^+ size (y :: w) *: (wp (y :: w) * ld x) = c *: wp w - ld y * (ld x * wp w - (-1) ^+ size w *: (wp w * ld x)).
    { rewrite /wp !big_cons -/(wp w) mulrA Ec mulrBl -scalerAl mul1r /= exprS mulN1r scaleNr opprK mulrBr opprB -scalerAr !mulrA addrA addrAC. by []. }
    apply: spanD; first by apply: spanZ; apply: span_word. rewrite -[X in span _ X]scaleN1r. apply: spanZ. apply: (@span_mul (fun v => v = [:: y]) exc) => [v u -> Hu z [<-|/Hu]||] //.
    - have := @span_word (fun v => v = [:: y]) [:: y] erefl. by rewrite /wp big_seq1.
    - exact: IH.
  Qed.

  Definition even_exc (w : seq letter) : Prop := exc w /\ ~~ odd (size w).
  Lemma comm_even b z : span even_exc b -> span exc z -> z * b = b * z.
  Proof.
    move=> [l [Hl ->]] [m [Hm ->]]. rewrite big_distrl big_distrr /=. have E : forall y, In y m -> (y.1 *: wp y.2) * (\sum_(j <- l) j.1 *: wp j.2) = (\sum_(j <- l) j.1 *: wp j.2) * (y.1 *: wp y.2).
    { move=> y Hy. rewrite big_distrl big_distrr /=. elim: l Hl => [|j l IH] Hl; first by rewrite !big_nil. rewrite !big_cons IH; last by move=> i Hi; apply: Hl; right.
      congr (_ + _). have [Ej Oj] := Hl j (or_introl erefl). rewrite -!scalerAl -!scalerAr (exc_comm (Hm _ Hy) Ej Oj). by rewrite !scalerA mulrC. }
    elim: m E {Hm} => [|y m IH] E; first by rewrite !big_nil. rewrite !big_cons E; last by left. congr (_ + _). by apply: IH => j Hj; apply: E; right.
  Qed.
  Lemma letter_vanishes b x : span even_exc b -> registered st x.2.1 -> vanishes b 2 (ld x).
  Proof.
    move=> B R. have S : span exc (ld x * b - b * ld x).
    { move: B => [l [Hl ->]]. rewrite big_distrl big_distrr /= -sumrB. apply: span_sum => y Hy. have [Ey Oy] := Hl y Hy. rewrite -scalerAr -scalerAl -scalerBr. apply: spanZ.
      have := letter_past R Ey. by rewrite -signr_odd (negbTE Oy) expr0 scale1r. }
    rewrite /vanishes /= (comm_even B S). by rewrite subrr.
  Qed.
  Lemma word_vanishes b w : span even_exc b -> reg w -> vanishes b (size w).+1 (wp w).
  Proof.
    move=> B. elim: w => [|x w IH] H; first by rewrite /vanishes /wp big_nil /= mul1r mulr1 subrr.
    rewrite /wp big_cons. apply: (@vanishes_mul _ _ b _ 2 (size w).+1) => //; first by apply: letter_vanishes => //; apply: H; left. by apply: IH => y Hy; apply: H; right.
  Qed.
  Lemma span_vanishes b n z : span even_exc b -> span (fun w => reg w /\ (size w <= n)%N) z -> vanishes b n.+1 z.
  Proof.
    move=> B [l [Hl ->]]. apply: vanishes_sum => y /Hl [R S]. apply: vanishes_scale. apply: (@vanishes_le _ _ _ (size y.2).+1) => //. exact: word_vanishes.
  Qed.
  (** Sums of non-empty words of an even number of excitations are nilpotent. *)
  Lemma span_nilpotent b : span (fun w => even_exc w /\ w <> [::]) b -> exists m, b ^+ m = 0.
  Proof.
    move=> [l [Hl ->]]. exists (size l).+1. apply: nilpotent_sum => [y Hy|x y Hx Hy].
    - have [[Ey _] Ny] := Hl y Hy. rewrite -scalerAl -scalerAr. suff -> : wp y.2 * wp y.2 = 0 by rewrite !scaler0. case: (y.2) Ey Ny => [|x w] // H _. have [Rx Ex] := H x (or_introl erefl).
      have Hw : exc w by move=> z Hz; apply: H; right. rewrite /wp !big_cons -/(wp w) mulrA -[ld x * wp w * ld x]mulrA. have := exc_past Rx Ex Hw => /(f_equal (fun z => (-1) ^+ size w *: z)). rewrite scalerA -expr2 sqrr_sign scale1r => <-.
      by rewrite -scalerAr mulrA exc_sq // mul0r scaler0 mul0r.
    - have [[Ex _] _] := Hl x Hx. have [[Ey Oy] _] := Hl y Hy. rewrite -!scalerAl -!scalerAr (exc_comm Ex Ey Oy). by rewrite !scalerA mulrC.
  Qed.
End Words.
