(** [permutation_sign] is the parity of mathcomp permutations. *)
From Coq Require Import ZArith List.
Set Warnings "-notation-overridden,-ambiguous-paths".
From mathcomp Require Import all_ssreflect fingroup perm.
From Verif Require Import CombinatoricsModel SignProofs.
Set Implicit Arguments. Unset Strict Implicit. Unset Printing Implicit Defensive.

(** One-line notation of a permutation as a list of integers. *)
Definition oneline n (s : 'S_n) : list Z := map (fun i : 'I_n => Z.of_nat (s i)) (enum 'I_n).

Lemma In_mem (T : eqType) (x : T) (l : seq T) : List.In x l <-> x \in l.
Proof.
elim: l => [|a l IH] //=; rewrite inE; split.
- by case=> [->|/IH ->]; rewrite ?eqxx ?orbT.
- by case/orP=> [/eqP->|/IH]; [left|right].
Qed.

Lemma map_List (A B : Type) (f : A -> B) l : map f l = List.map f l.
Proof. by elim: l => //= a l ->. Qed.

Section Exch.
Variable n : nat.
Implicit Types s : 'S_n.

Let val s (i : 'I_n) := Z.of_nat (s i).

Lemma val_inj s i j : val s i = val s j -> i = j.
Proof. by move/Nat2Z.inj => /ord_inj /perm_inj. Qed.

Lemma map_tperm s x y l : x \notin l -> y \notin l ->
  map (val (tperm x y * s)%g) l = map (val s) l.
Proof.
move=> hx hy; apply/eq_in_map => i hi; rewrite /val permM tpermD //.
- by apply: contraNneq hx => ->.
- by apply: contraNneq hy => ->.
Qed.

Lemma notin_val s i l : i \notin l -> ~ List.In (val s i) (map (val s) l).
Proof.
rewrite map_List => h /List.in_map_iff [j [/val_inj e /In_mem hj]]; by rewrite -e hj in h.
Qed.

Lemma exch_lists s x y l1 m l2 : uniq (l1 ++ x :: m ++ y :: l2) -> x != y ->
  permutation_sign (map (val (tperm x y * s)%g) (l1 ++ x :: m ++ y :: l2))
  = Z.opp (permutation_sign (map (val s) (l1 ++ x :: m ++ y :: l2))).
Proof.
move=> U xy.
have [hx1 hy1] : x \notin l1 /\ y \notin l1.
  move: U; rewrite cat_uniq => /and3P [_ /hasPn H _]; split.
  - by apply: (H x); rewrite inE eqxx.
  - by apply: (H y); rewrite !(inE, mem_cat) eqxx !orbT.
have: uniq (x :: m ++ y :: l2) by move: U; rewrite cat_uniq => /and3P [].
rewrite /= mem_cat inE !negb_or => /andP [/and3P [hxm _ hxl2]].
rewrite cat_uniq /= => /and3P [_ ].
rewrite negb_or => /andP [hym _] /andP [hyl2 _].
have Ex : val (tperm x y * s)%g x = val s y by rewrite /val permM tpermL.
have Ey : val (tperm x y * s)%g y = val s x by rewrite /val permM tpermR.
rewrite !map_cat /= !map_cat /= !map_tperm // Ex Ey.
rewrite -[LHS]Z.opp_involutive; congr Z.opp; symmetry.
apply: psign_exchange; last 2 first.
- exact: notin_val.
- exact: notin_val.
by move/val_inj => e; rewrite e eqxx in xy.
Qed.

Lemma oneline_tperm s x y : x != y ->
  permutation_sign (oneline (tperm x y * s)%g) = Z.opp (permutation_sign (oneline s)).
Proof.
move=> xy; rewrite /oneline.
have: x \in enum 'I_n by rewrite mem_enum.
have: y \in enum 'I_n by rewrite mem_enum.
have := enum_uniq 'I_n; move: (enum _) => l U hy hx.
case/splitPr: hx U hy => l1 r U; rewrite mem_cat inE eq_sym (negPf xy) /=.
case/orP=> hy.
- case/splitPr: hy U => m l2; rewrite -catA /= => U.
  by rewrite tpermC; apply: exch_lists => //; rewrite eq_sym.
- by case/splitPr: hy U => m l2 U; apply: exch_lists.
Qed.

Lemma oneline_sorted : Sorted.StronglySorted Z.le (oneline (1%g : 'S_n)).
Proof.
have E : oneline (1%g : 'S_n) = map Z.of_nat (iota 0 n).
  rewrite /oneline -val_enum_ord; elim: (enum 'I_n) => //= i l ->; by rewrite perm1.
rewrite E; move: 0 n => a k; elim: k a => [|k IH] a /=; first by constructor.
constructor; first exact: IH.
apply/List.Forall_forall => z; rewrite map_List => /List.in_map_iff [i [<- /In_mem]].
rewrite mem_iota => /andP [h _].
by apply/inj_le/leP/ltnW.
Qed.

Lemma oneline_sign s : permutation_sign (oneline s) = if odd_perm s then Z.opp 1 else 1%Z.
Proof.
case: (prod_tpermP s) => ts -> ; elim: ts => [_|t ts IH] /=.
- rewrite big_nil odd_perm1; apply: psign_sorted; exact: oneline_sorted.
- move=> /andP [ht hts]; rewrite big_cons oneline_tperm // IH // odd_mul_tperm ht.
  by case: (odd_perm _).
Qed.

Lemma oneline_mul s t : permutation_sign (oneline (s * t)%g)
  = Z.mul (permutation_sign (oneline s)) (permutation_sign (oneline t)).
Proof. rewrite !oneline_sign odd_permM; by case: (odd_perm s); case: (odd_perm t). Qed.
End Exch.
