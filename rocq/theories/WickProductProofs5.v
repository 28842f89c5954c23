(** C48: the product of the operators as a sum over sets of contracted pairs. *)
Set Warnings "-notation-overridden,-ambiguous-paths".
From Coq Require Import ZArith List Lia Permutation.
From mathcomp Require Import all_ssreflect ssralg.
From Verif Require Import CountProofs Res RationalModel RegistryModel CoreModel OperatorModel OrderProofs WickSearchModel WickSearchSpec CountSpec WickCombSpec WickCombProofs WickLegSpec WickLegProofs SortSpec SortProofs ScalarSem LadderSpec CanonSpec CanonSemSpec CanonSemProofs
  WickMatchProofs WickMatchProofs2 WickProductSpec WickProductProofs WickProductProofs2 WickProductProofs3 WickProductProofs4.
Set Implicit Arguments.
Unset Strict Implicit.
Unset Printing Implicit Defensive.
Import GRing.Theory.
Local Open Scope ring_scope.

Lemma filter_all_In (X : Type) (p : pred X) l : (forall x, In x l -> p x) -> filter p l = l.
Proof. elim: l => [|x l IH] //= H. rewrite (H x); last by left. rewrite IH // => y Hy. by apply: H; right. Qed.
Lemma filter_none_In (X : Type) (p : pred X) l : (forall x, In x l -> p x = false) -> filter p l = [::].
Proof. elim: l => [|x l IH] //= H. rewrite (H x); last by left. apply: IH => y Hy. by apply: H; right. Qed.
Lemma flatten_one (X : Type) (A : nat) (l : seq X) s : uniq s -> A \in s -> flatten [seq (if B == A then l else [::]) | B <- s] = l.
Proof.
  elim: s => [|B s IH] //= /andP [NB U]. rewrite in_cons => /orP [/eqP E|H].
  - rewrite -E eqxx. have -> : flatten [seq (if B0 == A then l else [::]) | B0 <- s] = [::]; last by rewrite cats0.
    move: NB. rewrite -E. elim: (s) => [|C s' IH2] //=. rewrite in_cons negb_or => /andP [NC NA]. by rewrite eq_sym (negbTE NC) IH2.
  - have -> : (B == A) = false; last exact: IH. apply/eqP => E. by rewrite E H in NB.
Qed.
Lemma in_all (X : Type) (p : pred X) l : (forall x, In x l -> p x) -> all p l.
Proof. elim: l => [|x l IH] //= H. rewrite (H x); last by left. apply: IH => y Hy. by apply: H; right. Qed.

Section Legs.
  Variables (K : fieldType) (orb : eqType) (st : osi) (ops : oprod).
  Variable T : text -> seq (Z * orb) -> seq (Z * orb) -> bool -> K.
  Notation n := (length ops).
  Notation opA A := (List.nth A ops (mkOp [::] gm_zero)).
  Notation L := (product_legs st ops).
  Definition labA (A : nat) : text := op_label (opA A).
  Definition PhiL := Phi n labA T.

  Lemma map_blks (Y : Type) (f : leg -> Y) : List.map f L = flatten [seq List.map f (blk st ops A) | A <- iota 0 n].
  Proof. rewrite legs_blks /blks. elim: (iota 0 n) => [|A s IH] //=. by rewrite List.map_app IH. Qed.
  Lemma lpart_legs v A b : (A < n)%N -> lpart A b (List.map (kv (orb := orb) v) L) = if b then List.map (xs v) (op_cre_legs st ops A) else List.map (xs v) (List.rev (op_ann_legs st ops A)).
  Proof.
    move=> HA. rewrite map_blks. set R := RHS.
    have E : forall s : seq nat, lpart A b (flatten [seq List.map (kv v) (blk st ops B) | B <- s]) = flatten [seq (if B == A then R else [::]) | B <- s].
    { elim=> [|B s IH] //=. rewrite -IH /lpart filter_cat map_cat. congr (_ ++ _). case: eqP => [->|N].
      - rewrite /R /blk List.map_app filter_cat map_cat.
        have Hc c : In c (List.map (kv v) (op_cre_legs st ops A)) -> lop c = A /\ lcr c = true.
        { move=> H. have [l [<- Hl]] := proj1 (in_map_iff _ _ _) H. have [E1 [E2 _]] := in_cre Hl. by split. }
        have Ha c : In c (List.map (kv v) (List.rev (op_ann_legs st ops A))) -> lop c = A /\ lcr c = false.
        { move=> H. have [l [<- Hl]] := proj1 (in_map_iff _ _ _) H. apply List.in_rev in Hl. have [E1 [E2 _]] := in_ann Hl. by split. }
        case: (b).
        + rewrite filter_all_In; last by move=> c /Hc [-> ->]; rewrite !eqxx.
          rewrite filter_none_In; last by move=> c /Ha [-> ->]; rewrite eqxx. by rewrite cats0 -[LHS]/(List.map _ _) List.map_map.
        + rewrite filter_none_In; last by move=> c /Hc [-> ->]; rewrite eqxx.
          rewrite filter_all_In; last by move=> c /Ha [-> ->]; rewrite !eqxx. by rewrite cat0s -[LHS]/(List.map _ _) List.map_map.
      - rewrite filter_none_In // => c H. have [l [<- Hl]] := proj1 (in_map_iff _ _ _) H. have [E1 _] := in_blk Hl.
        apply/negP => /andP [/eqP E2 _]. apply: N. by rewrite -E1. }
    rewrite E. apply: flatten_one; first exact: iota_uniq. by rewrite mem_iota.
  Qed.
  Lemma Phi_legs v : PhiL (List.map (kv v) L) = \prod_(A <- iota 0 n) tel T st ops v A.
  Proof.
    rewrite /PhiL /Phi in_all; last first.
    { move=> c H. have [l [<- Hl]] := proj1 (in_map_iff _ _ _) H. have [Hn _] := proj1 (in_product st ops l) Hl. by apply/ltP. }
    rewrite isg_sorted ?zr1 ?mul1r.
    - apply: eq_big_seq => A. rewrite mem_iota /= add0n => HA. by rewrite /telem !lpart_legs // /tel List.map_rev rev_eq revK.
    - rewrite map_blks. apply: fop_flatten.
      + move=> A HA. apply: fop_map. rewrite /blk. apply: fop_app.
        * have : forall l, In l (op_cre_legs st ops A) -> lrank (kv v l) = (2 * A)%N by move=> l /in_cre [E1 [E2 _]]; rewrite /lrank /lop /lcr /= -[l.1.1.1]/(leg_op l) -[l.1.2]/(leg_cre l) E1 E2 addn0.
          elim: (op_cre_legs st ops A) => [|x l IH] H; first by constructor. constructor; last by apply: IH => y Hy; apply: H; right.
          apply/List.Forall_forall => y Hy. rewrite !H //; by [left|right].
        * have : forall l, In l (List.rev (op_ann_legs st ops A)) -> lrank (kv v l) = (2 * A + 1)%N by move=> l Hl; apply List.in_rev in Hl; have [E1 [E2 _]] := in_ann Hl; rewrite /lrank /lop /lcr /= -[l.1.1.1]/(leg_op l) -[l.1.2]/(leg_cre l) E1 E2.
          elim: (List.rev (op_ann_legs st ops A)) => [|x l IH] H; first by constructor. constructor; last by apply: IH => y Hy; apply: H; right.
          apply/List.Forall_forall => y Hy. rewrite !H //; by [left|right].
        * move=> x y Hx Hy. apply List.in_rev in Hy. have [E1 [E2 _]] := in_cre Hx. have [F1 [F2 _]] := in_ann Hy.
          by rewrite /lrank /lop /lcr /= -[x.1.1.1]/(leg_op x) -[x.1.2]/(leg_cre x) -[y.1.1.1]/(leg_op y) -[y.1.2]/(leg_cre y) E1 E2 F1 F2 leq_add2l.
      + have G : forall m s, (forall B, In B (iota s m) -> (s <= B)%N). { move=> m s B. change (In B (List.seq s m) -> (s <= B)%N). rewrite in_seq => H. apply/leP. lia. }
        elim: (n) {1}0%N => [|m IH] s /=; first by constructor. constructor; last exact: IH.
        apply/List.Forall_forall => B HB z z' Hz Hz'. have [l [<- Hl]] := proj1 (in_map_iff _ _ _) Hz. have [l' [<- Hl']] := proj1 (in_map_iff _ _ _) Hz'.
        have [E1 _] := in_blk Hl. have [E2 _] := in_blk Hl'. have LB := G _ _ _ HB.
        rewrite /lrank /lop /lcr /= -[l.1.1.1]/(leg_op l) -[l'.1.1.1]/(leg_op l') E1 E2.
        apply: leq_trans (_ : 2 * s.+1 <= _)%N; first by rewrite mulnS addnC leq_add2r; case: (~~ _). apply: leq_trans (leq_addr _ _). by rewrite leq_mul2l.
  Qed.
End Legs.
