(** C48: the outcome of one composite contraction. *)
Set Warnings "-notation-overridden,-ambiguous-paths".
From Coq Require Import ZArith QArith List Lia Permutation.
From mathcomp Require Import all_ssreflect ssralg.
From Verif Require Import CountProofs Res RationalModel RationalSpec RationalProofs RegistryModel CoreModel AlgebraModel AlgebraSpec AlgebraProofs OperatorModel OperatorSpec OperatorProofs3 CombinatoricsModel CombinatoricsProofs AdjointModel OrderProofs WickSearchModel WickSearchSpec CountSpec WickCombSpec WickCombProofs WickLegSpec WickLegProofs SortSpec SortProofs ScalarSem LadderSpec CanonModel CanonSpec CanonProofs2 CanonSemSpec CanonSemProofs
  WickMatchProofs WickMatchProofs2 WickProductSpec WickProductProofs WickProductProofs2 WickProductProofs3 WickProductProofs4 WickProductProofs5 WickProductProofs6 WickProductProofs7 WickProductProofs8 WickEvalModel WickPairProofs WickPairProofs2 WickPairProofs3 WickPairProofs4 WickProductProofs9 WickProductProofs10
  WickGraphSpec WickGraphProofs WickGraphProofs2 WickLegProofs5 WickLegProofs6 WickPairProofs5 WickPairProofs6 WickProductProofs11 WickTotalProofs WickLinearProofs WickProductProofs12 WickElemProofs WickCompProofs WickSearchProofs.
Set Implicit Arguments.
Unset Strict Implicit.
Unset Printing Implicit Defensive.
Import GRing.Theory.
Local Open Scope ring_scope.
Local Notation iota := seq.iota.

Lemma con_rank_used els cv : con_rank els cv = used ec_num_ops els cv.
Proof.
  rewrite /con_rank used_total. have X : forall a, fold_left (fun a c => (a + ec_num_ops (List.nth (Z.to_nat c) els [::]))%Z) cv a = (a + total_of ec_num_ops (List.map (fun c => List.nth (Z.to_nat c) els [::]) cv))%Z.
  { elim: cv => [|c cv IH] a /=; first lia. rewrite IH /total_of. lia. }
  by rewrite X.
Qed.
Lemma search_inv fuel o st ops minr maxr els cvs : search fuel o st ops minr maxr = Ok (els, cvs) ->
  elementary_contractions fuel st (wt_maxcumulant o) ops = Ok els /\ exists x, composite_contractions 101 st els ops minr maxr = Ok (cvs, x).
Proof.
  rewrite /search. case: ifP => // _. case E1: (elementary_contractions _ _ _ _) => [els'| | |] //=. case E2: (composite_contractions _ _ _ _ _ _) => [[L x]| | |] //= [<- <-]. by split=> //; exists x.
Qed.
Lemma search_in fuel o st ops minr maxr els cvs : ops_ok st ops -> search fuel o st ops minr maxr = Ok (els, cvs) ->
  forall cv, In cv cvs <-> (is_multiset els cv /\ compatible st els ops cv) /\ (minr <= left_over els ops cv <= maxr)%Z.
Proof.
  move=> Hok E. have [E1 [x E2]] := search_inv E.
  case: (search_spec st ops els minr maxr Hok (els_ok fuel st (wt_maxcumulant o) ops els Hok E1) 101 (le_n _)) => [[L' [E3 [_ [I _]]]]|[E3 _]]; last by rewrite E2 in E3.
  move: E3. rewrite E2 => -[-> _]. exact: I.
Qed.

Section Outcome.
  Variables (K : fieldType) (A : algType K) (orb : eqType) (st : osi) (cre ann : Z -> orb -> A).
  Hypothesis charK : [char K] =i pred0.
  Hypothesis HL : ladder_relations st cre ann.
  Hypothesis HS : single_reference st.
  Variables (T : text -> seq (Z * orb) -> seq (Z * orb) -> bool -> K) (orbs : Z -> seq orb).
  Hypothesis Uorbs : forall s, uniq (orbs s).
  Variables (ops : oprod) (phi0 : index -> orb) (v0 : leg -> orb).
  Notation n := (length ops).
  Hypothesis Hok : ops_ok st ops.
  Hypothesis Talt : forall B, (B < n)%N -> (forall lo, alternating -%R (fun up => T (labA ops B) lo up false)) /\ (forall up, alternating -%R (fun lo => T (labA ops B) lo up false)).
  Notation NPw := (NP st cre ann).
  Notation tv := (term_value NPw T orbs phi0).
  Notation F := (fun ps rest => Fv orbs NPw (PhiL ops T) ps rest v0).
  Notation norms l := (\prod_(o <- l) (op_norm st o)%:R^-1 : K).
  Notation mts := (mats (lcp st) (msize (blks st ops)).+1 (blks st ops)).

  Lemma pick_ops_perm p : rearrangement n p -> Permutation (pick_ops ops p) ops.
  Proof. move=> P. rewrite -{2}(seq_nth_map (mkOp [::] gm_zero) ops). apply: Permutation_map. exact: Permutation_sym. Qed.
  Lemma graph_value o cs bops bcs sign factor t fc maxc : canonical factor -> Forall (allowed st maxc ops) cs -> enough_legs st ops cs -> (forall c, (mult cs c <= 2)%coq_nat) ->
    graph_choice o st ops cs (bops, bcs, sign) -> evaluate_contraction st bops bcs (rat_mul factor (rat_of_Z sign)) = Ok (t, fc) ->
    good_term st T t /\ canonical fc /\ exists ps rest, rep st ops cs ps rest /\
      ratK K fc *: tv t = (ratK K factor * norms ops * ratK K (combinatorial_factor st ops cs)) *: F ps rest.
  Proof.
    move=> Cf Al En M G E. have Cs : canonical (rat_mul factor (rat_of_Z sign)) by apply: rat_mul_canonical => //; exact: rat_of_Z_canonical.
    have Es : ratK K (rat_mul factor (rat_of_Z sign)) = ratK K factor * zr K sign by rewrite ratK_mul // ?ratK_Z //; exact: canonical_den.
    have [Hok' [Al' En']] := graph_allowed _ _ _ _ _ _ _ _ Hok Al En G.
    move: G. rewrite /graph_choice. case: (wt_canonicalize o) => G.
    - have [p [q [P [Q [J [Eo [Ec [Esg _]]]]]]]] := canon_spec _ _ _ _ _ _ Hok G. rewrite {bops}Eo {bcs}Ec in E Hok' Al' En' G *.
      have H2 c : In c cs -> ec_num_ops c = 2%Z by move=> Hc; apply: (allowed_two st maxc ops Hok (single_no_general HS)); move/List.Forall_forall: Al; apply.
      have Hn c : In c cs -> length c = n. { move=> Hc. have : allowed st maxc ops c by move/List.Forall_forall: Al; apply. by case=> [? ? ? []|? ? ? []|? ? []]. }
      have [Gt [Cc [ps [rest [R V]]]]] := eval_value charK HS NPw Uorbs Hok' (@Talt' _ _ ops T Talt p P) Al' En' phi0 v0 Cs E.
      split=> //; split=> //. exists (List.map (ren2 p) ps), (List.map (ren p) rest). split; first exact: (rep_pick Hok P Q J H2 Hn R).
      rewrite V -(@Fv_pick _ _ _ _ _ T orbs NPw Hok Talt p P ps rest v0 v0 (proj2 (proj2 R))) -Esg scalerA. congr (_ *: _).
      rewrite Es (count_pick Hok P Q J H2 Hn HS Al En M) (prod_perm _ (pick_ops_perm P)). move: (ratK K factor) (\prod_(o <- ops) _) (ratK K (combinatorial_factor _ _ _)) => a b c. by rewrite -!mulrA; congr (_ * _); rewrite mulrC -!mulrA.
    - case: G => Eo Ec Esg. rewrite {bops}Eo {bcs}Ec {sign}Esg in E Es Cs Hok' Al' En' *.
      have [Gt [Cc [ps [rest [R V]]]]] := eval_value charK HS NPw Uorbs Hok Talt Al En phi0 v0 Cs E.
      split=> //; split=> //. exists ps, rest. split=> //. by rewrite V Es zr1 mulr1.
  Qed.

  Variables (V : lmodType K) (f : {linear A -> V}).
  Notation g := (fun t => f (tv t)).
  Definition key_ok (t : term) : Prop := no_conj t /\ term_spaces st t.
  Lemma canon_key t t' s : good_term st T t -> term_canonicalize st t (Ok (t', s)) -> key_ok t' /\ tv t = zr K s *: tv t'.
  Proof.
    move=> [Sp [Cov [Nc Sd]]] Tc. have [h [Hs [_ [_ Rn]]]] := canon_renaming _ _ _ _ Sp Tc. split; first split.
    - exact: renamed_no_conj Rn Nc.
    - move=> i. case=> [/(renamed_in_ops _ _ _ i Rn)|/(renamed_in_tensors _ _ _ i Rn)] [j [Hj <-]]; rewrite Hs; apply: Sp; [by left|by right].
    - apply: term_value_eq Tc => //. exact: NP_alternating.
  Qed.
  Lemma outcome_value fuel o els cvs cv factor minr maxr l : canonical factor -> search fuel o st ops minr maxr = Ok (els, cvs) -> In cv cvs ->
    let cs := List.map (fun c => List.nth (Z.to_nat c) els [::]) cv in (forall c, (mult cs c <= 2)%coq_nat) ->
    process_single o st els ops factor minr maxr cv (Ok l) ->
    keysP key_ok l /\ mcanon l /\ rsum g l = (ratK K factor * norms ops) *: \sum_(m <- mts | matches ops cs m.1.1) f (F m.1.1 m.1.2).
  Proof.
    move=> Cf E Hcv cs M. rewrite /process_single con_rank_used. have [_ R] := proj1 (search_in Hok E cv) Hcv. rewrite /left_over -/(ops_rank ops) in R.
    have -> : ((minr <=? ops_rank ops - used ec_num_ops els cv) && (ops_rank ops - used ec_num_ops els cv <=? maxr))%Z by apply/andP; split; apply/Z.leb_le; lia.
    move=> [bops [bcs [sign [canon [G [C El]]]]]]. have [Al En] := generated_ok _ _ _ _ _ _ _ _ _ Hok E Hcv. rewrite -/cs in G Al En.
    move: El C. case Ee: (evaluate_contraction _ _ _ _) => [[t fc]| | |] //= El C. have Tc := C t fc erefl. case Ec: canon El Tc => [[t' s]| | |] //= -[->] Tc {C canon Ec}.
    have [Gt [Cc [ps [rest [Rp V1]]]]] := graph_value Cf Al En M G Ee. have [Kt Vt] := canon_key Gt Tc.
    have Cc' : canonical (rat_mul (rat_of_Z s) fc) by apply: rat_mul_canonical => //; exact: rat_of_Z_canonical.
    split; first by constructor. split; first by constructor.
    rewrite /= addr0 (class_value HL HS orbs Hok Talt f v0 Rp) scalerA. rewrite (class_count HS Hok Al En M) ratK_Z zr_nat in V1.
    rewrite -!linearZ -V1 Vt scalerA ratK_mul //; [|exact: canonical_den]. by rewrite ratK_Z mulrC.
  Qed.

  Lemma process_value fuel o els cvs factor minr maxr r : canonical factor -> search fuel o st ops minr maxr = Ok (els, cvs) ->
    (forall cv, In cv cvs -> forall c, (mult (List.map (fun c => List.nth (Z.to_nat c) els [::]) cv) c <= 2)%coq_nat) ->
    process_contractions o st els cvs ops factor minr maxr (Ok r) ->
    keysP key_ok r /\ rsum g r = (ratK K factor * norms ops) *: \sum_(cv <- cvs) \sum_(m <- mts | matches ops (List.map (fun c => List.nth (Z.to_nat c) els [::]) cv) m.1.1) f (F m.1.1 m.1.2).
  Proof.
    move=> Cf E M [rs [Fr Er]].
    have Rg : respectsV (V := V) term_eqb key_ok g by move=> k k' [Hk _] [Hk' _] Ek; rewrite (tv_respects NPw T orbs phi0 Hk Hk' Ek).
    have G : forall cvs0 rs0, Forall2 (process_single o st els ops factor minr maxr) cvs0 rs0 -> (forall cv, In cv cvs0 -> In cv cvs) ->
      forall acc r0, keysP key_ok acc -> mgood acc -> foldM add_outcome acc rs0 = Ok r0 ->
      keysP key_ok r0 /\ rsum g r0 = rsum g acc + (ratK K factor * norms ops) *: \sum_(cv <- cvs0) \sum_(m <- mts | matches ops (List.map (fun c => List.nth (Z.to_nat c) els [::]) cv) m.1.1) f (F m.1.1 m.1.2).
    { move=> cvs0 rs0. elim=> [|cv r1 cvs1 rs1 P1 F1 IH] Hin acc r0 Ka Ga.
      - move=> [<-]. by rewrite big_nil scaler0 addr0.
      - rewrite /=. case E1: r1 P1 => [l| | |] //= P1 Ef. have Hcv := Hin cv (or_introl erefl).
        have [Kl [Cl Vl]] := outcome_value Cf E Hcv (M cv Hcv) P1.
        have Gl : mgood l by exact: mcanon_good Cl.
        have [Kr Vr] := IH (fun x Hx => Hin x (or_intror Hx)) _ _ (keysP_mplus term_ltb _ _ _ Ka Kl) (mgood_addall term_ltb term_eqb swo_term fst snd l acc Gl Ga) Ef.
        split=> //. rewrite Vr big_cons scalerDr addrA. congr (_ + _). rewrite -Vl /mplus (rsum_addall charK swo_term Rg) //. congr (_ + rsum _ _). elim: (l) => [|[k c] l' IHl] //=. by rewrite IHl. }
    have [Kr Vr] := G cvs rs Fr (fun _ H => H) [::] r (List.Forall_nil _) (List.Forall_nil _) (esym Er). split=> //. by rewrite Vr /= add0r.
  Qed.
End Outcome.
