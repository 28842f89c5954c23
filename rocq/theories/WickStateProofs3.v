(** C61: every such state has density cumulants (continued). *)
Set Warnings "-notation-overridden,-ambiguous-paths".
From Coq Require Import ZArith List Lia Permutation Ascii.
From mathcomp Require Import all_ssreflect ssralg.
From Verif Require Import SignPerm RegistryModel CoreModel OperatorModel DecModel WickSearchModel WickSearchSpec WickCombSpec WickLegSpec WickEvalModel SortSpec SortProofs ScalarSem LadderSpec CanonSemSpec WickMatchProofs WickProductSpec WickTheoremSpec WickProductProofs2 WickProductProofs3
  WickGeneralSpec WickConvProofs WickConvProofs2 WickGenProofs WickGenProofs3 WickGenProofs13 WickStateSpec WickStateProofs WickStateProofs2.
Set Implicit Arguments.
Unset Strict Implicit.
Unset Printing Implicit Defensive.
Import GRing.Theory.
Local Open Scope ring_scope.

Lemma all_In (X : Type) (p : pred X) l x : all p l -> In x l -> p x.
Proof. elim: l => [|y l IH] //= /andP [Py Pl] [<-|] //. exact: IH. Qed.
Lemma In_all (X : Type) (p : pred X) l : (forall x, In x l -> p x) -> all p l.
Proof. elim: l => [|y l IH] //= H. by rewrite H ?IH //; [move=> x Hx; apply: H; right|left]. Qed.
Lemma has_In (X : Type) (p : pred X) l : has p l -> exists2 x, In x l & p x.
Proof. elim: l => [|y l IH] //= /orP [Py|/IH [x Hx Px]]; [by exists y; [left|]|by exists x; [right|]]. Qed.
Lemma filter_sub (X : Type) (p q : pred X) l : all q l -> all q (filter p l).
Proof. elim: l => [|y l IH] //= /andP [Qy /IH Ql]. by case: (p y) => //=; rewrite Qy. Qed.

Section State.
  Variables (K : fieldType) (A : algType K) (orb : finType) (st : osi) (cre ann : Z -> orb -> A).
  Hypothesis char2 : (2%:R : K) != 0.
  Hypothesis HL : ladder_relations st cre ann.
  Hypothesis HS : multi_reference st.
  Variable f : {linear A -> K^o}.
  Hypothesis Hf : active_state st cre ann f.
  Hypothesis Hi : independent_spaces st cre ann f.
  Notation wletter := (bool * (Z * orb))%type.
  Notation wlad := (wlad st cre ann).
  Notation vac := (npr wlad fst).
  Notation reg := (fun x : wletter => regb st x.2.1).
  Notation WP := (word_product cre ann).

  Lemma vac_plain w : all reg w -> exists s w', Permutation w w' /\ vac w = s *: WP w'.
  Proof.
    elim: w => [|x w IH]; first by move=> _; exists 1, [::]; split=> //; rewrite /word_product big_nil scale1r.
    rewrite /= => /andP [Rx Rw]. have [s [w' [P ->]]] := IH Rw. rewrite /WickProductProofs3.wlad Rx. case: (x.1).
    - exists s, (x :: w'). split; first by constructor. by rewrite /word_product big_cons -scalerAr.
    - exists ((-1) ^+ size w * s), (w' ++ [:: x]). split; first exact: (Permutation_trans (perm_skip x P) (Permutation_cons_append w' x)).
      by rewrite /word_product big_cat big_seq1 /= -scalerAl scalerA.
  Qed.
  Definition gen (s : Z) : bool := regb st s && (if stype st s is Some General then true else false).
  Definition Es (b : seq wletter) : K := if b is [::] then 1 else if samesp b && gen (spc b) then f (vac b) else 0.
  Lemma Es_one s b : gen s -> all (fun x : wletter => (x.2.1 =? s)%Z) b -> Es b = f (vac b).
  Proof.
    case: b => [|x b] G; first by rewrite /= (act_one Hf). rewrite [all _ _]/= => /andP [/Z.eqb_eq Ex Sb]. rewrite /Es /samesp /spc Ex G andbT.
    by rewrite [all _ _]/= Ex Z.eqb_refl Sb.
  Qed.
  Lemma samesp_all b : samesp b -> all (fun x : wletter => (x.2.1 =? spc b)%Z) b.
  Proof. by case: b. Qed.
  Lemma perm_count (p : pred wletter) (w w' : seq wletter) : Permutation w w' -> count p w = count p w'.
  Proof. by elim=> [|x l l' _ IH|x y l|l l' l'' _ -> _ ->] //=; [rewrite IH|rewrite addnCA]. Qed.
  Lemma Es_number b : count (fun x : wletter => x.1) b <> count (fun x : wletter => ~~ x.1) b -> Es b = 0.
  Proof.
    case: b => [|x b] // N. rewrite /Es. case: ifP => // /andP [/samesp_all S /andP [R G]].
    have Rb : all reg (x :: b). { move: S. move: (x :: b) R {N G} => l. rewrite /spc. set s := match l with | [::] => _ | _ => _ end. move=> R. elim: (l) => [|y l' IH] //= /andP [/Z.eqb_eq -> /IH ->]. by rewrite R. }
    have [s [w' [P ->]]] := vac_plain Rb. rewrite linearZ /=. rewrite (act_number Hf (s := x.2.1)) ?scaler0 //.
    - exact: regP.
    - by move: G => /=; case: (stype st x.2.1) => // -[].
    - move=> y Hy. have Hy' : In y (x :: b) by exact: (Permutation_in y (Permutation_sym P) Hy).
      move: S Hy'. rewrite /spc. move: (x :: b) => l. elim: l => [|z l IH] //= /andP [/Z.eqb_eq Ez /IH Sl] [<-|] //.
    - by rewrite -!(perm_count _ P).
  Qed.
  Lemma Es_even : even Es.
  Proof.
    move=> b O. apply: Es_number => E. move: O. rewrite -(count_predC (fun x : wletter => x.1) b) E. by rewrite oddD addbb.
  Qed.
  Lemma Es_alternating : alternating -%R Es.
  Proof.
    move=> l1 x y l2. have Ee u v : Es (l1 ++ u :: v :: l2)%list = if samesp (l1 ++ u :: v :: l2)%list && gen (spc (l1 ++ u :: v :: l2)%list) then f (vac (l1 ++ u :: v :: l2)%list) else 0 by case: (l1).
    rewrite !Ee. case Sx: (samesp (l1 ++ x :: y :: l2)%list); last first.
    { have -> : samesp (l1 ++ y :: x :: l2)%list = false by apply/negP => /samesp_swap [H _]; rewrite H in Sx. by rewrite oppr0. }
    have [-> <-] := samesp_swap Sx. case: (gen _); last by rewrite oppr0. by rewrite /= (vac_alternating HL HS) linearN.
  Qed.
  Variables (maxc : nat) (T0 : text -> seq (Z * orb) -> seq (Z * orb) -> bool -> K).
  Hypothesis Hmax : (#|orb| <= maxc)%N.
  Notation L := (log Es).
  Definition ST := state_tensors L T0.
  Notation cum := (cumulant st ST maxc).
  Lemma L_alternating : alternating -%R L.
  Proof. exact: (log_alternating Es_even Es_alternating). Qed.
  Lemma ST_densities : densities st ST.
  Proof. exact: state_densities L_alternating. Qed.
  Definition ch (x : wletter) : Z := if x.1 then 1%Z else (-1)%Z.
  Lemma grade_count b : grade ch b = (Z.of_nat (count (fun x : wletter => x.1) b) - Z.of_nat (count (fun x : wletter => ~~ x.1) b))%Z.
  Proof.
    elim: b => [|x b IH] //. rewrite [grade _ _]/= IH /ch ![count _ (_ :: _)]/=. move: (count _ b) (count _ b) => m m'.
    case: (x.1); rewrite ?add0n ?add1n ?Nat2Z.inj_succ; lia.
  Qed.
  Lemma L_number b : count (fun x : wletter => x.1) b <> count (fun x : wletter => ~~ x.1) b -> L b = 0.
  Proof.
    move=> N. apply: (log_grade (gr := ch)); last by rewrite grade_count; lia. move=> c. rewrite grade_count => Gc. apply: Es_number. lia.
  Qed.
  Lemma L_large s b : all (fun x : wletter => (x.2.1 =? s)%Z) b -> (maxc < count (fun x : wletter => x.1) b)%N -> L b = 0.
  Proof.
    move=> Sb Hm. rewrite (alt_sort b L_alternating). have [-> _] := filter_pair b. set c := [seq x.2 | x <- b & x.1].
    have Sc : size c = count (fun x : wletter => x.1) b by rewrite size_map size_filter.
    have Ec : c = [seq (s, p) | p <- [seq x.2 | x <- c]].
    { rewrite /c. elim: (b) Sb => [|y b' IH] //= /andP [/Z.eqb_eq Ey Sb']. case: (y.1) => /=; last exact: IH. rewrite -IH //. by rewrite -Ey; case: (y) => ? []. }
    have Nu : ~~ uniq [seq x.2 | x <- c].
    { apply/negP => U. have := max_card (mem [seq x.2 | x <- c]). rewrite (card_uniqP U) size_map Sc => H. move: (leq_trans Hm H). by rewrite ltnNge Hmax. }
    have [l1 [p [l2 [l3 E]]]] := dup_split Nu. rewrite Ec E !map_cat /= !map_cat /= -catA /= -catA /=. rewrite alt_dup ?mulr0 //. exact: L_alternating.
  Qed.
  Lemma claim_general s w : gen s -> all (fun x : wletter => (x.2.1 =? s)%Z) w -> moment cum w = f (vac w).
  Proof.
    move=> G Sw. rewrite -(Es_one G Sw) -(@log_moment _ _ Es erefl w). apply: (moment_extQ Sw) => b Sb Nb.
    apply: (@state_cumulant _ _ st L T0 L_alternating maxc s b) => //.
    - move: G => /andP [_]. by case: (stype st s) => // -[].
    - exact: L_number.
    - exact: L_large Sb.
  Qed.

  (** Occupied and unoccupied spaces. *)
  Section One.
    Variable s : Z.
    Hypothesis Rs : regb st s.
    Hypothesis Ns : stype st s <> Some General.
    Notation inS := (fun x : wletter => (x.2.1 =? s)%Z).
    Definition exs (x : wletter) : bool := if inS x then makes_excitation st x else x.1.
    Definition scum (b : seq wletter) : K := if all inS b then cum b else 0.
    Lemma normal_zero b : all inS b -> f (npr wlad exs b) = unit_word K b.
    Proof.
      case: b => [|x b] /=; first by rewrite (act_one Hf). move=> /andP [/Z.eqb_eq Sx _]. rewrite /exs Sx Z.eqb_refl /WickProductProofs3.wlad Sx Rs.
      have Rx : registered st x.2.1 by rewrite Sx; exact: regP. have Nx : stype st x.2.1 <> Some General by rewrite Sx.
      case E: (makes_excitation st x); first exact: (act_left Hf). by rewrite linearZ /= (act_right Hf) ?scaler0 // E.
    Qed.
    Lemma claim_single w : all inS w -> moment cum w = f (vac w).
    Proof.
      move=> Sw. have Es' : even scum by move=> b O; rewrite /scum; case: (all _ _) => //; exact: cum_even.
      rewrite (@reorder _ _ _ _ _ (anticomm HL HS) fst exs scum Es').
      - rewrite (linear_conv f). have Q : conv (moment scum) (fun u => f (npr wlad exs u)) w = convK (moment cum) (unit_word K (X := _)) w :> K^o.
        { apply: (conv_extQ Sw) => b Sb; last exact: normal_zero. apply: (moment_extQ Sb) => c Sc _. by rewrite /scum Sc. }
        rewrite Q convK_even; last exact: (moment_even (@cum_even _ _ st ST maxc)). rewrite /convK conv_unit //. by case.
      - move=> x b E. rewrite /scum [all _ _]/=. case: ifP => // /andP [/Z.eqb_eq Sx _]. have [_ St] := HS (regP Rs). move: E. rewrite /exs Sx Z.eqb_refl /makes_excitation Sx.
        case: St => [St|[St|St]]; rewrite St; [by case: (x.1)|by rewrite unocc_cumulant ?Sx|by case: (Ns St)].
      - move=> x b Px. rewrite /exs. case: Z.eqb_spec => Sx; last by rewrite Px. move=> Ex. rewrite /scum [all _ _]/= Sx Z.eqb_refl andTb.
        case Sb: (all _ b); last by rewrite (@sgl_other _ _ st inS) ?Sx ?Z.eqb_refl ?Sb // => y z ->.
        move: Ex. rewrite /makes_excitation Sx. have [_ St] := HS (regP Rs). case: St => [St|[St|St]]; [| |by case: (Ns St)]; rewrite St ?Px // => _. by rewrite occ_cumulant ?Sx // Px.
      - move=> x b Px. rewrite /exs. case: Z.eqb_spec => Sx; last by rewrite (negbTE Px). move=> Ex. rewrite /scum [all _ _]/= Sx Z.eqb_refl andTb.
        case Sb: (all _ b); last by rewrite (@sgl_other _ _ st inS) ?Sx ?Z.eqb_refl ?Sb ?oppr0 // => y z ->.
        move: Ex. rewrite /makes_excitation Sx. have [_ St] := HS (regP Rs). case: St => [St|[St|St]]; [| |by case: (Ns St)]; rewrite St ?(negbTE Px) // => _. by rewrite occ_cumulant ?Sx // (negbTE Px).
    Qed.
  End One.

  Lemma claim_one s w : regb st s -> all (fun x : wletter => (x.2.1 =? s)%Z) w -> moment cum w = f (vac w).
  Proof.
    move=> Rs Sw. have [_ St] := HS (regP Rs). case: St => [St|[St|St]]; try (apply: (claim_single (s := s)) => //; by rewrite St).
    apply: (claim_general (s := s)) => //. by rewrite /gen Rs St.
  Qed.
  Lemma filter_perm (P : pred wletter) w : Permutation w (filter P w ++ filter (predC P) w).
  Proof.
    elim: w => [|x w IH] //=. case: (P x) => /=; first by constructor. apply: (Permutation_trans (perm_skip x IH)). exact: Permutation_middle.
  Qed.
  (** Words of disjoint spaces. *)
  Lemma vac_product2 (P : pred wletter) u v : (forall y z : wletter, y.2.1 = z.2.1 -> P y = P z) -> all P u -> all (predC P) v -> vac u * vac v = vac (u ++ v).
  Proof.
    move=> HP Pu Pv. rewrite (vac_two (gH1 HL HS) (gH2 HL HS) (@gH4 _ _ st) (@gH5 _ _ st) Pu Pv).
    apply: exp_zero => b _. rewrite /pair2. case: b => [|x [|y [|z b]]] //. rewrite /gd.
    case: (Z.eqb_spec x.2.1 y.2.1) => E; first by rewrite (HP _ _ E); case: (P y). rewrite !andbF Z.eqb_sym.
    case: (Z.eqb_spec x.2.1 y.2.1) => E' //. rewrite !andbF. by case: ifP => //; rewrite oppr0 => _; case: ifP.
  Qed.
  Lemma state_moments w : all reg w -> f (vac w) = moment cum w.
  Proof.
    have [n] := ubnP (size w). elim: n w => // n IH [|x w]; first by rewrite /= (act_one Hf). move=> Hn Rw.
    pose P (y : wletter) := (y.2.1 =? x.2.1)%Z. have Q := filter_perm P (x :: w). have [sg Hs] := perm_sperm _ _ Q.
    have HP (y z : wletter) : y.2.1 = z.2.1 -> P y = P z by rewrite /P => ->.
    rewrite (alt_spermK (moment_alternating (@cum_even _ _ st ST maxc) (cum_alternating maxc ST_densities)) Hs).
    have Af : alternating -%R (fun u => f (vac u) : K) by move=> l1 y z l2; rewrite (vac_alternating HL HS) linearN.
    rewrite (alt_spermK Af Hs). congr (_ * _). set u := filter P _. set v := filter _ _.
    have Pu : all P u by exact: filter_all. have Pv : all (predC P) v by exact: filter_all.
    rewrite (moment_product (P := P)) //; [|exact: cum_even|]; last first.
    { move=> b /has_In [y Hy Py] /has_In [z Hz Pz]. rewrite cumE; last by move=> E; rewrite E in Hy. have -> // : samesp b = false.
      apply/negP => /samesp_all S. move: (all_In S Hy) (all_In S Hz) => /Z.eqb_eq Ey /Z.eqb_eq Ez. have E : y.2.1 = z.2.1 by rewrite Ey Ez.
      move: Pz. by rewrite /predC /= -(HP _ _ E) Py. }
    have Ru : all reg u by exact: filter_sub. have Rv : all reg v by exact: filter_sub.
    have Rx : reg x by move: Rw => /andP [].
    rewrite (claim_one Rx Pu) -IH //; last first.
    { move: Hn. rewrite /= ltnS /v /= /P Z.eqb_refl /= size_filter. exact: leq_ltn_trans (count_size _ _). }
    rewrite -(vac_product2 HP Pu Pv). have [a [u' [Qu ->]]] := vac_plain Ru. have [c [v' [Qv ->]]] := vac_plain Rv.
    rewrite -scalerAl -scalerAr !linearZ /= Hi.
    - rewrite -[LHS]/(a * (c * (_ * _))) -[RHS]/((a * _) * (c * _)). by rewrite -!mulrA [c * (_ * _)]mulrCA.
    - move=> y Hy. apply: regP. apply: (all_In Ru). exact: (Permutation_in y (Permutation_sym Qu)).
    - move=> y Hy. apply: regP. apply: (all_In Rv). exact: (Permutation_in y (Permutation_sym Qv)).
    - move=> y z Hy Hz E. have Hy' : In y u by exact: (Permutation_in y (Permutation_sym Qu)). have Hz' : In z v by exact: (Permutation_in z (Permutation_sym Qv)).
      move: (all_In Pu Hy') (all_In Pv Hz'). by rewrite /predC /= (HP _ _ E) => ->.
  Qed.
  Lemma state_exists : correlated_state st cre ann ST maxc f.
  Proof. split; first exact: act_one Hf. move=> w Hw. rewrite -(vac_product cre ann Hw). apply: state_moments. exact: all_reg. Qed.
End State.
