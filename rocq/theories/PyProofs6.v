(** C72: iterating over an expression that grows. *)
From Coq Require Import ZArith List Bool Arith Lia Sorted.
From Verif Require Import Res RationalModel RegistryModel CoreModel OrderProofs AlgebraModel AlgebraSpec AlgebraProofs AdjointModel NormalOrderModel CanonModel PyModel PySpec PyProofs PyProofs2 PyProofs3 PyProofs4 PyProofs5.
Import ListNotations.

Lemma in_nset n k c m n' k' c' : In (n', (k', c')) (nset n k c m) -> n' = n \/ exists c2, In (n', (k', c2)) m.
Proof.
  induction m as [|[n1 [k1 c1]] m IH]; cbn; [intros [H|[]]; injection H as <- _ _; now left|]. destruct (term_ltb k1 k); cbn.
  - intros [H|H]; [injection H as <- <- <-; right; exists c1; now left|]. destruct (IH H) as [->|(c2 & J)]; [now left|]. right. exists c2. now right.
  - destruct (term_ltb k k1); cbn; (intros [H|H]; [injection H as <- <- <-|]); [now left|right; exists c'; exact H|right; exists c1; now left|right; exists c'; now right].
Qed.
Lemma in_nerase k m x : In x (nerase k m) -> In x m.
Proof. induction m as [|[n1 [k1 c1]] m IH]; cbn; [tauto|]. destruct (term_ltb k1 k); cbn; [tauto|]. destruct (term_ltb k k1); cbn; tauto. Qed.
Lemma in_nadd n k c m n' k' c' : In (n', (k', c')) (nadd n k c m) -> n' = n \/ exists c2, In (n', (k', c2)) m.
Proof.
  unfold nadd. destruct (rat_is0 c); [intros H; right; now exists c'|]. destruct (mfind term_ltb k (entries m)) as [c0|]; cbv zeta; [destruct (rat_is0 (rat_add c0 c))|].
  - intros H. right. exists c'. exact (in_nerase _ _ _ H).
  - apply in_nset.
  - apply in_nset.
Qed.
Lemma ids_inj (m : nmap) n x y : NoDup (map fst m) -> In (n, x) m -> In (n, y) m -> x = y.
Proof.
  induction m as [|[n1 z] m IH]; cbn; [tauto|]. intros N. inversion N as [|? ? N1 N2]; subst. intros [H1|H1] [H2|H2].
  - congruence.
  - injection H1 as -> ->. exfalso. apply N1. now apply (in_map fst) in H2.
  - injection H2 as -> ->. exfalso. apply N1. now apply (in_map fst) in H1.
  - now apply IH.
Qed.
(** What follows node [n] is what has a larger key. *)
Lemma srt_app_inv (a : nmap) n k c l : srt (entries (a ++ (n, (k, c)) :: l)) ->
  (forall n' k' c', In (n', (k', c')) a -> term_ltb k' k = true) /\ (forall n' k' c', In (n', (k', c')) l -> term_ltb k k' = true).
Proof.
  unfold entries. induction a as [|[n1 [k1 c1]] a IH]; cbn; intros S; inversion S as [|? ? S1 S2]; subst.
  - split; [tauto|]. intros n' k' c' H. rewrite Forall_forall in S2. apply (S2 (k', c')). now apply (in_map snd) in H.
  - destruct (IH S1) as [A B]. split; [|exact B]. intros n' k' c' [H|H]; [|exact (A _ _ _ H)]. injection H as <- <- <-. rewrite Forall_forall in S2. apply (S2 (k, c)). rewrite map_app. apply in_or_app. right. now left.
Qed.
Lemma after_char m n k c l a : srt (entries m) -> m = a ++ (n, (k, c)) :: l -> forall x, In x l <-> In x m /\ term_ltb k (fst (snd x)) = true.
Proof.
  intros S -> [n' [k' c']]. destruct (srt_app_inv _ _ _ _ _ S) as [A B]. cbn [snd fst]. split.
  - intros H. split; [apply in_or_app; right; now right|exact (B _ _ _ H)].
  - intros [H L]. apply in_app_or in H. destruct H as [H|[H|H]]; [|injection H as <- <- <-; rewrite (swo_irrefl _ _ swo_term) in L; discriminate|exact H].
    pose proof (A _ _ _ H) as L'. rewrite (swo_asym _ _ swo_term _ _ L) in L'. discriminate.
Qed.

(** The state of an iteration: [l] is still to come, [D] has been delivered, [N0] are the nodes that must not be missed. *)
Record going (s : state) (j o : nat) (m l : nmap) (N0 : list (nat * term)) (D : list term) : Prop := {
  g_expr : nth_error (s_exprs s) o = Some m;
  g_it : exists it, nth_error (s_iters s) j = Some it /\ io_expr it = o /\ rest m it = Some l /\
    (D <> [] -> io_pos it = None \/ (io_first it = false /\ exists n k c, io_pos it = Some n /\ In (n, (k, c)) m /\ forall x, In x D -> x = k \/ term_ltb x k = true));
  g_N0 : forall n k, In (n, k) N0 -> (exists c, In (n, (k, c)) l) \/ In k D;
  g_D : StronglySorted (fun a b => term_ltb a b = true) D;
  g_lt : forall a n k c, In a D -> In (n, (k, c)) l -> term_ltb a k = true }.

Lemma fresh_ge n e x : In x (map fst (fresh n e)) -> n <= x.
Proof. rewrite fresh_ids. intros H. apply in_seq in H. lia. Qed.
(** How the map of one expression can change in a step. *)
Lemma expr_change st r s c s' q o m : inv s -> exec st r s c = (s', q) -> nth_error (s_exprs s) o = Some m ->
  exists m', nth_error (s_exprs s') o = Some m' /\ (m' = m \/ (exists k a, m' = nadd (s_next s) k a m) \/ (exists e, m' = fresh (s_next s) e)).
Proof.
  intros I E H. destruct (exec_keeps _ _ _ _ _ _ I E) as (K & _). pose proof (nth_lt _ _ _ H) as L.
  assert (X : (exists x, writes s c = Some (x, OE o)) \/ (forall x, writes s c <> Some (x, OE o))).
  { destruct (writes s c) as [[x [o'|o'|o']]|]; try (right; intros; discriminate). destruct (Nat.eq_dec o' o) as [->|N]; [left; now exists x|right; congruence]. }
  destruct X as [[x W]|W]; [|exists m; rewrite K by assumption; split; [exact H|now left]].
  destruct c as [z e|y x'|x'|x' y|x' t q'|y x'|i x'|t q' i|t b|t u|t m'|t q'|q' a|q' f a b|x']; cbn [writes] in W; try discriminate.
  - cbn [exec] in E. destruct (s_env s x') as [w|]; [|discriminate]. destruct w as [o'| | | | |]; try discriminate. destruct (view s y) as [wy|]; [|discriminate].
    destruct wy; try discriminate; injection W as <- <-; rewrite H in E; cbn [addend] in E; injection E as <- <-; cbn [s_exprs add_in_place replace assign]; (eexists; split; [apply set_nth_same; exact L|]); right; left; do 2 eexists; reflexivity.
  - cbn [exec] in E. destruct (s_env s x') as [w|]; [|discriminate]. destruct w as [o'| | | | |]; try discriminate. injection W as <- <-.
    destruct (view s t) as [w|]; [|injection E as <- <-; exists m; split; [exact H|now left]]. destruct (view s q') as [u|]; [|injection E as <- <-; exists m; split; [exact H|now left]].
    rewrite H in E. revert E. destruct w; destruct u; cbn [symterm_of]; bust; intros E; injection E as <- <-; try (exists m; split; [exact H|now left]);
      cbn [s_exprs add_in_place replace assign]; (eexists; split; [apply set_nth_same; exact L|]); right; left; do 2 eexists; reflexivity.
  - cbn [exec] in E. destruct (s_env s x') as [w|]; [|discriminate]. destruct w as [o'| | | | |]; try discriminate. injection W as <- <-.
    destruct r as [a| | |]; try (injection E as <- <-; exists m; split; [exact H|now left]). destruct y; injection E as <- <-; cbn [s_exprs add_in_place replace assign]; (eexists; split; [apply set_nth_same; exact L|]); right; right; eexists; reflexivity.
  - destruct (s_env s i) as [[]|]; discriminate.
  - destruct (s_env s t) as [[]|]; discriminate.
  - destruct (s_env s t) as [[]|]; discriminate.
Qed.
Lemma kept_in st r s c s' q o m n k a : inv s -> exec st r s c = (s', q) -> nth_error (s_exprs s) o = Some m -> incl (nodes s o) (nodes s' o) -> In (n, (k, a)) m ->
  exists m' a', nth_error (s_exprs s') o = Some m' /\ In (n, (k, a')) m'.
Proof.
  intros I E H K J. destruct (expr_change _ _ _ _ _ _ _ _ I E H) as (m' & H' & C). exists m'. unfold nodes in K. rewrite H, H' in K.
  destruct (i_nd s I _ _ H) as [ND LT]. rewrite Forall_forall in LT. pose proof (in_map fst _ _ J) as Jn. cbn in Jn. pose proof (LT _ Jn) as Ln.
  specialize (K _ Jn). apply in_map_iff in K. destruct K as ([n2 [k2 a2]] & <- & K). cbn in *. destruct C as [->|[(k' & a' & ->)|(e & ->)]].
  - assert (X := ids_inj _ _ _ _ ND J K). injection X as <- <-. exists a. now split.
  - destruct (in_nadd _ _ _ _ _ _ _ K) as [->|(c2 & K2)]; [lia|]. assert (X := ids_inj _ _ _ _ ND J K2). injection X as <- <-. exists a2. now split.
  - apply (in_map fst) in K. apply fresh_ge in K. cbn in K. lia.
Qed.

Lemma in_from n m : In n (map fst m) -> exists l, from n m = Some l.
Proof. intros H. destruct (from n m) as [l|] eqn:E; [now exists l|]. apply from_None in E. contradiction. Qed.

(** A step that keeps the nodes and is not a [next] of this iterator. *)
Lemma going_other st s c s' q j o m l N0 D : inv s -> step st s c s' q -> incl (nodes s o) (nodes s' o) -> next_on j (s, c, q) = [] -> going s j o m l N0 D ->
  exists m' l', going s' j o m' l' N0 D.
Proof.
  intros I St K Nx G. pose proof (inv_step _ _ _ _ _ I St) as I'. destruct (g_it _ _ _ _ _ _ _ G) as (it & Ej & Eo & Er & Ed). pose proof (g_expr _ _ _ _ _ _ _ G) as Em.
  pose proof (iter_kept _ _ _ _ _ _ _ I St Nx Ej) as Ej'. destruct St as (r & O & E). destruct (expr_change _ _ _ _ _ _ _ _ I E Em) as (m' & Em' & _).
  assert (KI : forall n k a, In (n, (k, a)) m -> exists a', In (n, (k, a')) m').
  { intros n k a J. destruct (kept_in _ _ _ _ _ _ _ _ _ _ _ I E Em K J) as (m2 & a' & E2 & J2). rewrite Em' in E2. injection E2 as <-. now exists a'. }
  pose proof (i_sorted s I _ _ Em) as Sm. pose proof (i_sorted s' I' _ _ Em') as Sm'. exists m'.
  unfold rest in Er. destruct (io_pos it) as [n|] eqn:Ep.
  2:{ injection Er as <-. exists []. constructor; [exact Em'| |exact (g_N0 _ _ _ _ _ _ _ G)|exact (g_D _ _ _ _ _ _ _ G)|intros ? ? ? ? _ []].
      exists it. split; [exact Ej'|]. split; [exact Eo|]. split; [unfold rest; now rewrite Ep|]. intros _. now left. }
  destruct (from n m) as [l0|] eqn:Ef; [|destruct (io_first it); discriminate]. destruct (from_split _ _ _ Ef) as (pre & [kn cn] & post & Epm & -> & _).
  assert (Jn : In (n, (kn, cn)) m) by (rewrite Epm; apply in_or_app; right; now left). destruct (KI _ _ _ Jn) as (cn' & Jn').
  destruct (in_from n m') as (l0' & Ef'); [now apply (in_map fst) in Jn'|]. destruct (from_split _ _ _ Ef') as (pre' & xn & post' & Epm' & -> & _).
  assert (X : xn = (kn, cn')). { apply (ids_inj m' n); [exact (proj1 (i_nd s' I' _ _ Em'))| |exact Jn']. rewrite Epm'. apply in_or_app. right. now left. } subst xn.
  pose proof (after_char _ _ _ _ _ _ Sm Epm) as C. pose proof (after_char _ _ _ _ _ _ Sm' Epm') as C'.
  destruct (io_first it) eqn:Efi.
  - injection Er as <-. exists ((n, (kn, cn')) :: post').
    assert (D0 : D = []). { destruct D as [|x D]; [reflexivity|]. destruct (Ed ltac:(discriminate)) as [Y|[Y _]]; discriminate. } subst D.
    constructor; [exact Em'| | |constructor|intros ? ? ? ? []].
    + exists it. split; [exact Ej'|]. split; [exact Eo|]. split; [unfold rest; rewrite Ep, Efi; exact Ef'|]. intros Y. now contradiction Y.
    + intros n2 k2 J. destruct (g_N0 _ _ _ _ _ _ _ G _ _ J) as [(c2 & [J2|J2])|[]].
      * injection J2 as <- <- <-. left. exists cn'. now left.
      * left. apply C in J2. destruct J2 as [J2 L2]. destruct (KI _ _ _ J2) as (c3 & J3). exists c3. right. apply C'. split; [exact J3|exact L2].
  - injection Er as <-. exists post'. constructor; [exact Em'| | |exact (g_D _ _ _ _ _ _ _ G)|].
    + exists it. split; [exact Ej'|]. split; [exact Eo|]. split; [unfold rest; rewrite Ep, Efi, Ef'; reflexivity|]. intros Y. right. split; [exact Efi|]. exists n, kn, cn'. split; [exact Ep|]. split; [exact Jn'|].
      destruct (Ed Y) as [Z|(_ & n2 & k2 & c2 & Z1 & Z2 & Z3)]; [discriminate|]. injection Z1 as <-. assert (X := ids_inj _ _ _ _ (proj1 (i_nd s I _ _ Em)) Jn Z2). injection X as <- <-. exact Z3.
    + intros n2 k2 J. destruct (g_N0 _ _ _ _ _ _ _ G _ _ J) as [(c2 & J2)|J2]; [|now right]. left. apply C in J2. destruct J2 as [J2 L2]. destruct (KI _ _ _ J2) as (c3 & J3). exists c3. apply C'. split; [exact J3|exact L2].
    + intros a n2 k2 c2 Ja J2. apply C' in J2. destruct J2 as [_ L2]. cbn [snd fst] in L2.
      assert (Y : D <> []) by (intros ->; contradiction). destruct (Ed Y) as [Z|(_ & n3 & k3 & c3 & Z1 & Z2 & Z3)]; [discriminate|]. injection Z1 as <-. assert (X := ids_inj _ _ _ _ (proj1 (i_nd s I _ _ Em)) Jn Z2). injection X as <- <-.
      destruct (Z3 _ Ja) as [->|L]; [exact L2|]. exact (swo_trans _ _ swo_term _ _ _ L L2).
Qed.
Lemma ssorted_snoc (D : list term) k : StronglySorted (fun a b => term_ltb a b = true) D -> (forall a, In a D -> term_ltb a k = true) -> StronglySorted (fun a b => term_ltb a b = true) (D ++ [k]).
Proof.
  induction 1 as [|x D S IH F]; cbn; intros H; [repeat constructor|]. constructor; [apply IH; intros a Ha; apply H; now right|]. apply Forall_app. split; [exact F|]. repeat constructor. apply H. now left.
Qed.
Lemma going_next st s t a i s' q j o m l N0 D : inv s -> step st s (CNext t a i) s' q -> s_env s i = Some (VI j) -> going s j o m l N0 D ->
  (q = Stop /\ going s' j o m [] N0 D /\ forall n k, In (n, k) N0 -> In k D) \/ (exists k c l', q = Yield k c /\ going s' j o m l' N0 (D ++ [k])).
Proof.
  intros I (r & _ & E) Ei G. destruct (g_it _ _ _ _ _ _ _ G) as (it & Ej & Eo & Er & Ed). pose proof (g_expr _ _ _ _ _ _ _ G) as Em. subst o. cbn [exec] in E. rewrite Ei, Ej, Em, Er in E.
  pose proof (nth_lt _ _ _ Ej) as L. destruct l as [|[n [k c]] l]; injection E as <- <-.
  - left. split; [reflexivity|]. assert (Z : forall n k, In (n, k) N0 -> In k D) by (intros n k J; destruct (g_N0 _ _ _ _ _ _ _ G _ _ J) as [(? & [])|X]; exact X). split; [|exact Z].
    constructor; [exact Em| |intros n k J; right; exact (Z _ _ J)|exact (g_D _ _ _ _ _ _ _ G)|intros ? ? ? ? _ []]. eexists. split; [cbn; apply set_nth_same; exact L|]. split; [reflexivity|]. split; [reflexivity|]. intros _. now left.
  - right. exists k, c, l. split; [reflexivity|]. destruct (rest_tail _ _ _ Er) as (pre & Epre). pose proof (i_sorted s I _ _ Em) as Sm. pose proof (after_char _ _ _ _ _ _ Sm Epre) as C.
    assert (Jn : In (n, (k, c)) m) by (rewrite Epre; apply in_or_app; right; now left).
    assert (Lk : forall x, In x D -> term_ltb x k = true) by (intros x Hx; apply (g_lt _ _ _ _ _ _ _ G _ n k c Hx); now left).
    constructor; [exact Em| | |apply ssorted_snoc; [exact (g_D _ _ _ _ _ _ _ G)|exact Lk]|].
    + eexists. split; [cbn; apply set_nth_same; exact L|]. split; [reflexivity|]. split; [exact (rest_next _ _ pre n (k, c) l (proj1 (i_nd s I _ _ Em)) Epre)|].
      intros _. right. split; [reflexivity|]. exists n, k, c. split; [reflexivity|]. split; [exact Jn|]. intros x Hx. apply in_app_or in Hx. destruct Hx as [Hx|[<-|[]]]; [right; now apply Lk|now left].
    + intros n2 k2 J. destruct (g_N0 _ _ _ _ _ _ _ G _ _ J) as [(c2 & [J2|J2])|J2].
      * injection J2 as <- <- <-. right. apply in_or_app. right. now left.
      * left. now exists c2.
      * right. apply in_or_app. now left.
    + intros x n2 k2 c2 Hx J2. apply C in J2. destruct J2 as [_ L2]. cbn [snd fst] in L2. apply in_app_or in Hx. destruct Hx as [Hx|[<-|[]]]; [exact (swo_trans _ _ swo_term _ _ _ (Lk _ Hx) L2)|exact L2].
Qed.
Lemma after_run st s h s' : run st s h s' -> after h s' = s.
Proof. destruct 1; reflexivity. Qed.
Lemma going_run st s h s' : run st s h s' -> forall j o m l N0 D, inv s -> kept o h s' -> going s j o m l N0 D ->
  (exists m' l', going s' j o m' l' N0 (D ++ keys_delivered j h)) /\ (In None (delivered j h) -> forall n k, In (n, k) N0 -> In k (D ++ keys_delivered j h)).
Proof.
  induction 1 as [s|s c s1 q h s2 H N H' IH]; intros j o m l N0 D I K G; [unfold keys_delivered; cbn; rewrite app_nil_r; split; [now exists m, l|intros []]|].
  destruct K as [K1 K2]. rewrite (after_run _ _ _ _ H') in K1. pose proof (inv_step _ _ _ _ _ I H) as I1. unfold keys_delivered, delivered in *. cbn [map concat] in *. destruct (next_on j (s, c, q)) as [|x r] eqn:Ex.
  - destruct (going_other _ _ _ _ _ _ _ _ _ _ _ I H K1 Ex G) as (m' & l' & G'). cbn [app]. exact (IH j o m' l' N0 D I1 K2 G').
  - destruct (next_on_inv _ _ _ _ _ _ Ex) as (t & a & i & -> & Ei & -> & ->). destruct (going_next _ _ _ _ _ _ _ _ _ _ _ _ _ I H Ei G) as [(-> & G' & Z)|(k & c & l' & -> & G')].
    + destruct (IH j o m [] N0 D I1 K2 G') as [A B]. cbn [app map concat]. split; [exact A|]. intros _ n k J. apply in_or_app. left. exact (Z _ _ J).
    + destruct (IH j o m l' N0 (D ++ [k]) I1 K2 G') as [A B]. rewrite <- !app_assoc in *. cbn [app map concat] in *. split; [exact A|]. intros [X|X]; [discriminate|exact (B X)].
Qed.
Lemma iterate_growing st s i x s1 o : pyreach st s -> s_env s x = Some (VE o) -> step st s (CIter i x) s1 Done ->
  exists j, s_env s1 i = Some (VI j) /\ forall h s2, run st s1 h s2 -> kept o h s2 ->
    StronglySorted (fun a b => term_ltb a b = true) (keys_delivered j h) /\
    (In None (delivered j h) -> forall k c, In (k, c) (contents s o) -> In k (keys_delivered j h)) /\
    forall t c i' s3 q, s_env s2 i' = Some (VI j) -> step st s2 (CNext t c i') s3 q -> q <> Undef.
Proof.
  intros P Ex St. pose proof (inv_reach _ _ P) as I. pose proof (inv_step _ _ _ _ _ I St) as I1. destruct St as (r & O & E). cbn [exec] in E. rewrite Ex in E. destruct (bound_VE _ _ _ I Ex) as (m & Em & _). rewrite Em in E. injection E as <-.
  exists (length (s_iters s)). split; [cbn; apply upd_same|]. intros h s2 R U.
  assert (G : going (new_iter i (mkIO o (front m) true) s) (length (s_iters s)) o m m (map (fun x => (fst x, fst (snd x))) m) []).
  { constructor; [exact Em| | |constructor|intros ? ? ? ? []].
    - eexists. split; [cbn; apply nth_app_new|]. split; [reflexivity|]. split; [apply rest_first|]. intros Y. now contradiction Y.
    - intros n k J. left. apply in_map_iff in J. destruct J as ([n' [k' c']] & Eq & J). cbn in Eq. injection Eq as <- <-. now exists c'. }
  destruct (going_run _ _ _ _ R _ _ _ _ _ _ I1 U G) as [(m' & l' & G') B]. cbn [app] in *. split; [exact (g_D _ _ _ _ _ _ _ G')|]. split.
  - intros X k c J. unfold contents in J. rewrite Em in J. unfold entries in J. apply in_map_iff in J. destruct J as ([n [k' c']] & Eq & J). cbn in Eq. injection Eq as -> ->. apply (B X n k). apply in_map_iff. exists (n, (k, c)). now split.
  - intros t c i' s3 q Ei S3. destruct (going_next _ _ _ _ _ _ _ _ _ _ _ _ _ (inv_run _ _ _ _ R I1) S3 Ei G') as [(-> & _)|(? & ? & ? & -> & _)]; discriminate.
Qed.
