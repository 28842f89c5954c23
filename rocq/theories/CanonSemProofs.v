(** Canonicalization does not change the value of a term or expression. *)
Set Warnings "-notation-overridden,-ambiguous-paths".
From Coq Require Import ZArith List Lia Permutation.
From mathcomp Require Import all_ssreflect ssralg.
From Verif Require Import Res RationalModel RationalSpec RationalProofs RegistryModel CoreModel OrderProofs AlgebraModel AlgebraSpec AlgebraProofs AlgebraProofs2 SortModel SortSpec SortProofs
  OperatorModel OperatorSpec AdjointModel ScalarSem LadderSpec LadderProofs CanonModel CanonSpec CanonProofs CanonProofs2 CanonSemSpec.
Set Implicit Arguments.
Unset Strict Implicit.
Unset Printing Implicit Defensive.
Import GRing.Theory.
Local Open Scope ring_scope.

Lemma prod_perm (K : fieldType) (X : Type) (F : X -> K) l l' : Permutation l l' -> \prod_(x <- l) F x = \prod_(x <- l') F x.
Proof.
  elim=> [|x a b _ IH|x y a|a b c _ IH1 _ IH2].
  - by [].
  - by rewrite !big_cons IH.
  - by rewrite !big_cons mulrCA.
  - by rewrite IH1.
Qed.
Lemma prod_ext (K : fieldType) (X Y : Type) (F : X -> K) (G : Y -> K) (h : X -> Y) l : (forall x, In x l -> F x = G (h x)) -> \prod_(x <- l) F x = \prod_(y <- List.map h l) G y.
Proof.
  elim: l => [|x l IH] H; first by rewrite !big_nil. rewrite /= !big_cons H; last by left. rewrite IH // => y Hy. by apply: H; right.
Qed.
Lemma sgn_zr (K : fieldType) s (v : K) : s = Zpos xH \/ s = Zneg xH -> sgn -%R s v = zr K s * v.
Proof. by case=> ->; rewrite /sgn /= ?mul1r ?mulN1r. Qed.

Lemma word_product_alternating (K : fieldType) (A : algType K) (orb : eqType) (cre ann : Z -> orb -> A) :
  anticommuting cre ann -> alternating -%R (word_product cre ann).
Proof.
  move=> AC l1 x y l2. rewrite /word_product !big_cat !big_cons /= -mulrN. congr (_ * _). rewrite !mulrA -mulNr. congr (_ * _).
  case: x => [cx [sx px]]; case: y => [cy [sy py]] /=. case: cx; case: cy.
  - by case: (AC sx px sy py).
  - by case: (AC sx px sy py) => _ [].
  - case: (AC sy py sx px) => _ [_ ->]. by rewrite opprK.
  - by case: (AC sx px sy py) => _ [].
Qed.

Section Value.
  Variables (K : fieldType) (V : lmodType K) (orb : eqType) (W : seq (bool * (Z * orb)) -> V).
  Hypothesis charK : [char K] =i pred0.
  Hypothesis AC : alternating -%R W.
  Variable T : text -> seq (Z * orb) -> seq (Z * orb) -> bool -> K.
  Variable orbs : Z -> seq orb.

  Lemma W_sperm l s l' : sperm l s l' -> W l = zr K s *: W l'.
  Proof.
    elim=> [l0|l1 x y l2 s0 l0 H IH]; first by rewrite zr1 scale1r. by rewrite zrN scaleNr -IH AC.
  Qed.
  Lemma ops_sperm phi l s l' : sperm l s l' -> W (word phi l) = zr K s *: W (word phi l').
  Proof. move=> H. apply: W_sperm. exact: sperm_map. Qed.

  (** One tensor. *)
  Lemma elem_canon phi d d' s : symmetric_as_declared T d -> tensor_canonicalize d = Ok (d', s) -> elem_at T phi d = zr K s * elem_at T phi d'.
  Proof.
    rewrite /symmetric_as_declared /tensor_canonicalize.
    case Eu: (canonicalize_indices (t_upper d) false) => [u su]. case El: (canonicalize_indices (t_lower d) false) => [l sl].
    have [Su _] := canonicalize_indices_spec _ _ _ _ Eu. have [Sl _] := canonicalize_indices_spec _ _ _ _ El.
    have Mu := sperm_map (orb_of phi) _ _ _ Su. have Ml := sperm_map (orb_of phi) _ _ _ Sl.
    rewrite /elem_at. case Es: (t_sym d) => // -[S1 S2] [<- <-] /=.
    - have P1 := sperm_perm _ _ _ Mu. have P2 := sperm_perm _ _ _ Ml.
      rewrite mul1r (symmetric_perm _ (S1 _) _ _ P1). exact: (symmetric_perm _ (S2 _) _ _ P2).
    - rewrite (alternating_sperm -%R _ (@opprK K) (S1 _) _ _ _ Mu) sgn_zr; last exact: sperm_pm Mu.
      rewrite (alternating_sperm -%R _ (@opprK K) (S2 _) _ _ _ Ml) sgn_zr; last exact: sperm_pm Ml. by rewrite zrM mulrA.
  Qed.
  Lemma tens_canon phi ts l : Forall (symmetric_as_declared T) ts -> Forall2 (fun d x => tensor_canonicalize d = Ok x) ts l ->
    \prod_(d <- ts) elem_at T phi d = zr K (zprod (List.map snd l)) * \prod_(d <- List.map fst l) elem_at T phi d.
  Proof.
    move=> S F. elim: F S => [|d [d' s] ts' l' E _ IH] S; first by rewrite !big_nil zr1 mul1r.
    rewrite /= !big_cons (IH (List.Forall_inv_tail S)) (elem_canon phi (List.Forall_inv S) E) zrM.
    by rewrite -!mulrA; congr (_ * _); rewrite mulrCA.
  Qed.

  (** Values agree for corresponding assignments. *)
  Lemma value_canon st t ts t' s m phi psi : Permutation (tm_tens t) ts -> relabel_map st (tm_ops t) ts = Ok m -> canonicalize_from st t ts = Ok (t', s) ->
    (forall d, In d (tm_tens t) -> symmetric_as_declared T d) -> (forall i, isp (reindex m i) = isp i) ->
    (forall i, in_term t i -> psi (reindex m i) = phi i) -> value_at W T phi t = zr K s *: value_at W T psi t'.
  Proof.
    move=> P Em E Sd Sp H. have [m' [l [so [Em' [El [Et [_ [Eo ->]]]]]]]] := canonicalize_from_inv _ _ _ _ _ E.
    move: Em' El Eo. rewrite Em => -[<-] El Eo {m'}.
    have So : sperm (List.map (rename_op (reindex m)) (tm_ops t)) so (tm_ops t').
    { exact: (proj1 (canonicalize_sqops_spec _ _ _ Eo)). }
    have O : W (word phi (tm_ops t)) = W (word psi (List.map (rename_op (reindex m)) (tm_ops t))).
    { congr (W _). rewrite /word List.map_map. apply: List.map_ext_in => o Ho. rewrite /= /orb_of Sp H //. by left; exists o. }
    rewrite /value_at O (ops_sperm psi So) scalerA zrM.
    have X : \prod_(d <- tm_tens t) elem_at T phi d = \prod_(d <- List.map (rename_tensor (reindex m)) ts) elem_at T psi d.
    { rewrite (prod_perm _ P). apply: prod_ext => d Hd. have Hd' : In d (tm_tens t) by apply: Permutation_in Hd; apply: Permutation_sym.
      rewrite /elem_at /= !List.map_map. congr (T _ _ _ _); apply: List.map_ext_in => i Hi; rewrite /orb_of Sp H //; right; exists d; split=> //; [by left|by right]. }
    rewrite X (@tens_canon psi _ l); last exact: mapM_Ok.
    - rewrite Et scalerA. congr (_ *: _). by rewrite mulrAC.
    - apply/List.Forall_forall => d /in_map_iff [d0 [<- Hd0]]. have Hd' : In d0 (tm_tens t) by apply: Permutation_in Hd0; apply: Permutation_sym. exact (Sd d0 Hd').
  Qed.

  (** ** Sums over assignments *)
  Notation sum_over := (sum_over orbs).
  Lemma upd_same phi i p : upd phi i p i = p :> orb.
  Proof. by rewrite /upd index_eqb_refl. Qed.
  Lemma upd_other phi i p j : j <> i -> upd phi i p j = phi j :> orb.
  Proof. rewrite /upd. case E: (index_eqb j i) => //. by move/index_eqb_eq: E. Qed.

  (** Renaming. *)
  Lemma sum_rename f (F G : (index -> orb) -> V) l D phi psi : (forall i, isp (f i) = isp i) -> NoDup (D ++ l)%list ->
    (forall i j, In i (D ++ l)%list -> In j (D ++ l)%list -> f i = f j -> i = j) -> (forall i, In i D -> psi (f i) = phi i) ->
    (forall phi' psi', (forall i, In i (D ++ l)%list -> psi' (f i) = phi' i) -> F phi' = G psi') ->
    sum_over l phi F = sum_over (List.map f l) psi G.
  Proof.
    move=> Sp. elim: l D phi psi => [|i l IH] D phi psi ND Inj Ag H.
    - apply: H => j. rewrite List.app_nil_r. exact: Ag.
    - rewrite /= Sp. apply: eq_bigr => p _.
      have E : (D ++ i :: l = (D ++ [:: i]) ++ l)%list by rewrite -List.app_assoc.
      apply: (IH (D ++ [:: i])%list); [by rewrite -E|by rewrite -E| |by rewrite -E].
      move=> j Hj. apply List.in_app_or in Hj. have Ii : In i (D ++ i :: l)%list by apply: List.in_or_app; right; left.
      case: Hj => [Hj|[<-|//]]; last by rewrite !upd_same.
      have Nij : j <> i. { move=> Eji. apply: (NoDup_remove_2 _ _ _ ND). rewrite -Eji. by apply: List.in_or_app; left. }
      rewrite !upd_other //; first exact: Ag. move=> Ef. apply: Nij. apply: Inj => //. by apply: List.in_or_app; left.
  Qed.
  (** Only the values on the listed indices (and the starting values elsewhere) matter. *)
  Lemma sum_ext (F G : (index -> orb) -> V) l phi psi (D : index -> Prop) : (forall i, D i -> phi i = psi i) ->
    (forall phi' psi', (forall i, D i \/ In i l -> phi' i = psi' i) -> F phi' = G psi') -> sum_over l phi F = sum_over l psi G.
  Proof.
    elim: l phi psi D => [|i l IH] phi psi D Ag H.
    - apply: H => j [|//]. exact: Ag.
    - rewrite /=. apply: eq_bigr => p _. apply: (IH _ _ (fun j => D j \/ j = i)).
      + move=> j Hj. case: (index_dec j i) => [->|N]; first by rewrite !upd_same. rewrite !upd_other //. apply: Ag. by case: Hj.
      + move=> phi' psi' X. apply: H => j Hj. apply: X. case: Hj => [|[->|]]; by [left; left|left; right|right].
  Qed.
  Lemma sum_perm (F : (index -> orb) -> V) l l' phi : (forall phi' psi', (forall i, phi' i = psi' i) -> F phi' = F psi') -> NoDup l -> Permutation l l' ->
    sum_over l phi F = sum_over l' phi F.
  Proof.
    move=> X ND P. elim: P ND phi => [|i a b _ IH|i j a|a b c P1 IH1 _ IH2] ND phi.
    - by [].
    - rewrite /=. apply: eq_bigr => p _. apply: IH. by case/NoDup_cons_iff: ND.
    - rewrite /= exchange_big /=. apply: eq_bigr => p _. apply: eq_bigr => q _.
      have N : i <> j. { move=> E. move: ND. by rewrite E => /NoDup_cons_iff [[]]; left. }
      apply: (@sum_ext _ _ _ _ _ (fun _ => True)); last by move=> phi' psi' Y; apply: X => k; apply: Y; left.
      move=> k _. case: (index_dec k i) => [Ei|Ni]; case: (index_dec k j) => [Ej|Nj].
      + case: N. by rewrite -Ei.
      + rewrite Ei. by rewrite ?(upd_same, upd_other).
      + rewrite Ej. rewrite ?(upd_same, upd_other) // => E. by case: N.
      + by rewrite !upd_other.
    - rewrite IH1 // IH2 //. exact: Permutation_NoDup P1 ND.
  Qed.
  Lemma value_ext t phi psi : (forall i, in_term t i -> phi i = psi i) -> value_at W T phi t = value_at W T psi t.
  Proof.
    move=> H. rewrite /value_at. congr (_ *: _).
    - have -> : \prod_(d <- tm_tens t) elem_at T psi d = \prod_(d <- List.map id (tm_tens t)) elem_at T psi d by rewrite List.map_id.
      apply: prod_ext => d Hd. rewrite /elem_at; congr (T _ _ _ _); apply: List.map_ext_in => i Hi; rewrite /orb_of H //; right; exists d; split=> //; [by left|by right].
    - congr (W _). apply: List.map_ext_in => o Ho. rewrite /orb_of H //. by left; exists o.
  Qed.
  Lemma sum_scale c (F : (index -> orb) -> V) l phi : sum_over l phi (fun x => c *: F x) = c *: sum_over l phi F.
  Proof.
    elim: l phi => [|i l IH] phi //=. rewrite scaler_sumr. apply: eq_bigr => p _. exact: IH.
  Qed.

  Theorem term_value_canon st t t' s phi0 psi0 l l' : term_spaces st t -> ops_covered t ->
    (forall d, In d (tm_tens t) -> symmetric_as_declared T d) -> term_canonicalize st t (Ok (t', s)) ->
    lists_indices l t -> lists_indices l' t' ->
    sum_over l phi0 (fun phi => value_at W T phi t) = zr K s *: sum_over l' psi0 (fun phi => value_at W T phi t').
  Proof.
    move=> H Cov Sd [ts [St E]] [ND Hl] [ND' Hl']. move/esym: E => E. have P := sorted_tensors_perm _ _ _ St.
    have [c [Em [I Kc]]] := term_relabel _ _ _ H P. have [m [Em' R]] := from_renamed _ _ _ _ _ P E.
    move: Em' R. rewrite Em => -[<-] R {m}. set f := reindex (c_map c) in R.
    have Sp i : isp (f i) = isp i by apply: reindex_space I.
    have Inj i j : in_term t i -> in_term t j -> f i = f j -> i = j.
    { move=> Hi Hj. have Ki : In i (List.map fst (c_map c)) by apply/Kc; case: Hi => // /Cov.
      have Kj : In j (List.map fst (c_map c)) by apply/Kc; case: Hj => // /Cov. exact: reindex_inj I Ki Kj. }
    have Hf j : in_term t' j <-> exists i, in_term t i /\ f i = j.
    { rewrite /in_term (renamed_in_ops _ _ _ j R) (renamed_in_tensors _ _ _ j R). split.
      - by case=> -[i [Hi Ei]]; exists i; split=> //; [left|right].
      - by case=> i [[Hi|Hi] Ei]; [left|right]; exists i. }
    have Pl : Permutation (List.map f l) l'.
    { apply: NoDup_Permutation => //.
      - move: Hl ND Inj. elim: (l) (in_term t) => [|i l0 IH] Q Hl ND Inj; first by constructor.
        case/NoDup_cons_iff: ND => Ni ND. constructor.
        + move/in_map_iff => [j [Ej Hj]]. apply: Ni. have -> // : i = j. apply: Inj; [by apply/Hl; left|by apply/Hl; right|by []].
        + apply: (IH (fun k => In k l0)) => // j k Hj Hk. apply: Inj; apply/Hl; by right.
      - move=> j. rewrite Hl' Hf in_map_iff. split.
        + by move=> [i [Ei Hi]]; exists i; split=> //; apply/Hl.
        + by move=> [i [Hi Ei]]; exists i; split=> //; apply/Hl. }
    rewrite -sum_scale. rewrite (@sum_rename f _ (fun psi => zr K s *: value_at W T psi t') l [::] phi0 psi0) //.
    - apply: sum_perm => //.
      + move=> phi' psi' X. by rewrite (@value_ext t' phi' psi').
      + exact: Permutation_NoDup (Permutation_sym Pl) ND'.
    - move=> i j Hi Hj. by apply: Inj; apply/Hl.
    - move=> phi psi Ag. apply: (value_canon P Em E Sd Sp) => i Hi. apply: Ag. by apply/Hl.
  Qed.

  Lemma slots_in_term t i : In i (slots t) <-> in_term t i.
  Proof.
    rewrite /slots in_app_iff /in_term in_map_iff. split.
    - case=> [[o [Eo Ho]]|H]; first by left; exists o. right. move: H. rewrite /in_tensors.
      elim: (tm_tens t) => [|d ds IH] //= H. apply List.in_app_or in H. case: H => [H|/IH [d0 [Hd Hi]]].
      + exists d. split; first by left. by apply List.in_app_or in H.
      + exists d0. split=> //. by right.
    - case=> [[o [Ho Eo]]|[d [Hd Hi]]]; [left; by exists o|right].
      elim: (tm_tens t) Hd => [|d0 ds IH] //= [->|Hd]; apply: List.in_or_app; [left; exact: List.in_or_app|right; exact: IH].
  Qed.
  Lemma slots_list t : lists_indices (nodup index_dec (slots t)) t.
  Proof. split; first exact: NoDup_nodup. move=> i. by rewrite nodup_In slots_in_term. Qed.

  Variable phi0 : index -> orb.
  Notation tv := (term_value W T orbs phi0).
  Lemma term_value_eq st t t' s : term_spaces st t -> ops_covered t ->
    (forall d, In d (tm_tens t) -> symmetric_as_declared T d) -> term_canonicalize st t (Ok (t', s)) -> tv t = zr K s *: tv t'.
  Proof. move=> H C Sd E. apply: (term_value_canon (st := st)) => //; exact: slots_list. Qed.

  (** ** Expressions *)
  Lemma value_key k k' phi : no_conj k -> no_conj k' -> term_eqb k k' = true -> value_at W T phi k = value_at W T phi k'.
  Proof.
    move=> Hk Hk' /term_eqb_key [E1 E2]. rewrite /value_at E1. congr (_ *: _).
    move: Hk Hk' E2. rewrite /no_conj. elim: (tm_tens k) (tm_tens k') => [|d ds IH] [|d' ds'] //= H H' E; try discriminate E.
    case: E => F1 F2 F3 E. rewrite !big_cons.
    rewrite (IH ds' (List.Forall_inv_tail H) (List.Forall_inv_tail H') E).
    congr (_ * _). rewrite /elem_at. have -> := List.Forall_inv H. have -> := List.Forall_inv H'.
    by rewrite F1 F2 F3.
  Qed.
  Lemma slots_key k k' : term_eqb k k' = true -> slots k = slots k'.
  Proof.
    move=> /term_eqb_key [E1 E2]. rewrite /slots E1. congr (_ ++ _)%list.
    elim: (tm_tens k) (tm_tens k') E2 => [|d ds IH] [|d' ds'] //= E; try discriminate E.
    case: E => F1 F2 F3 E. by rewrite F2 F3 (IH ds' E).
  Qed.
  Lemma tv_respects : respectsV (V := V) term_eqb no_conj tv.
  Proof.
    move=> k k' Hk Hk' E. rewrite /term_value (slots_key E). apply: (@sum_ext _ _ _ _ _ (fun _ => True)) => // phi psi X.
    rewrite (@value_ext k phi psi); first exact: value_key. by move=> i _; apply: X; left.
  Qed.
  Lemma renamed_no_conj f t t' : renamed f t t' -> no_conj t -> no_conj t'.
  Proof.
    move=> [_ [_ [ts [P F]]]]. rewrite /no_conj => /List.Forall_forall H. apply/List.Forall_forall.
    have H2 : forall d, In d ts -> t_cc d = false.
    { move=> d Hd. have := Permutation_in _ (Permutation_sym P) Hd. by move/in_map_iff => [d0 [<- /H]]. }
    move: F H2. elim=> [|d d' l l' [_ [_ [Ec _]]] _ IH] H2 x //= [<-|Hx].
    - rewrite -Ec. by apply: H2; left.
    - apply: IH => // y Hy. by apply: H2; right.
  Qed.
  Lemma canon_sign st t t' s : term_canonicalize st t (Ok (t', s)) -> s <> 0%Z.
  Proof.
    move=> [ts [_ E]]. move/esym: E => E. have [m [l [so [_ [El [_ [_ [Eo ->]]]]]]]] := canonicalize_from_inv _ _ _ _ _ E.
    have Pso : so = Zpos xH \/ so = Zneg xH.
    { exact: sperm_pm (proj1 (canonicalize_sqops_spec _ _ _ Eo)). }
    have Pl : zprod (List.map snd l) <> 0%Z.
    { have := mapM_Ok _ _ _ El. elim=> [|d [d' sd] ds l0 Ed _ IH] //.
      have [_ [_ [_ [_ [_ [_ [_ [Psd _]]]]]]]] := tensor_canon_form _ _ _ Ed. rewrite /zprod /= -/(zprod _). case: Psd => ->; lia. }
    case: Pso => ->; lia.
  Qed.

  Theorem expr_value_canon st e r : mcanon e -> (forall x, In x e -> term_spaces st x.1 /\ ops_covered x.1 /\ no_conj x.1 /\
      (forall d, In d (tm_tens x.1) -> symmetric_as_declared T d)) ->
    expr_canonicalize st e r -> expr_value W T orbs phi0 r = expr_value W T orbs phi0 e.
  Proof.
    rewrite /expr_canonicalize /expr_value => Ce He R.
    suff G : forall e0 r0 r1, expr_canon_run st e0 r0 r1 -> mcanon e0 -> (forall x, In x e0 -> term_spaces st x.1 /\ ops_covered x.1 /\ no_conj x.1 /\
      (forall d, In d (tm_tens x.1) -> symmetric_as_declared T d)) -> keysP no_conj r0 -> mgood r0 -> rsum tv r1 = rsum tv r0 + rsum tv e0.
    { rewrite (G e [::] r) //; by [rewrite /= add0r|constructor|constructor]. }
    move=> e0 r0 r1. elim=> [r2|t c e1 r2 t' s r3 Tc Run IH] Ce0 He0 Kr Gr; first by rewrite /= addr0.
    have [Sp [Cov [Nc Sd]]] := He0 _ (or_introl erefl). have Dc := canonical_den _ (List.Forall_inv Ce0). rewrite /= in Sp Cov Nc Sd Dc.
    have Nc' : no_conj t'.
    { have [f [_ [_ [_ Rn]]]] := canon_renaming _ _ _ _ Sp Tc. exact: renamed_no_conj Rn Nc. }
    have Ds : RationalModel.den (rat_mul (rat_of_Z s) c) <> 0%Z by apply: rat_mul_den.
    rewrite IH; [|exact: List.Forall_inv_tail Ce0|by move=> x Hx; apply: He0; right|exact: keysP_madd|exact: (mgood_madd term_ltb term_eqb swo_term)].
    rewrite (rsum_madd charK swo_term tv_respects) // -addrA; congr (_ + _). rewrite /=; congr (_ + _).
    by rewrite ratK_mul // ratK_Z (term_value_eq Sp Cov Sd Tc) scalerA mulrC.
  Qed.
End Value.
