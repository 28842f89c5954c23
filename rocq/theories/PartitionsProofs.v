From Coq Require Import ZArith List Bool Lia Sorted Arith Permutation.
From Verif Require Import Res PartitionsModel PartitionsSpec.
Import ListNotations.
Local Open Scope Z_scope.

Ltac lnorm := repeat first [rewrite <- app_assoc | progress (cbn [app])].

(** ** Array lemmas *)
Lemma aget_mid {A} (l1 : list A) a l2 i : i = Z.of_nat (length l1) -> aget (l1 ++ a :: l2) i = Ok a.
Proof.
  intros ->. unfold aget. destruct (Z.ltb_spec (Z.of_nat (length l1)) 0); [lia|].
  rewrite Nat2Z.id, nth_error_app2, Nat.sub_diag by lia. reflexivity.
Qed.

Lemma lset_mid {A} (l1 : list A) a l2 v : lset (l1 ++ a :: l2) (length l1) v = l1 ++ v :: l2.
Proof. induction l1 as [|b l1 IH]; simpl; [reflexivity|]. now rewrite IH. Qed.

Lemma aset_mid {A} (l1 : list A) a l2 v i : i = Z.of_nat (length l1) ->
  aset (l1 ++ a :: l2) i v = Ok (l1 ++ v :: l2).
Proof.
  intros ->. unfold aset. rewrite app_length; simpl.
  destruct (Z.ltb_spec (Z.of_nat (length l1)) 0); [lia|].
  destruct (Z.leb_spec (Z.of_nat (length l1 + S (length l2))) (Z.of_nat (length l1))); [lia|].
  simpl. now rewrite Nat2Z.id, lset_mid.
Qed.

Lemma aslice1_spec a p rest m : m = Z.of_nat (length p) -> aslice1 (a :: p ++ rest) m = Ok p.
Proof.
  intros ->. unfold aslice1. destruct (Z.ltb_spec (Z.of_nat (length p)) 0); [lia|].
  cbn [length]. rewrite app_length.
  destruct (Z.ltb_spec (Z.of_nat (S (length p + length rest))) (Z.of_nat (length p) + 1)); [lia|].
  simpl. rewrite Nat2Z.id, firstn_app, Nat.sub_diag, firstn_all. simpl. now rewrite app_nil_r.
Qed.

Lemma repeat_snoc {A} (a : A) c : repeat a (S c) = repeat a c ++ [a].
Proof. induction c; simpl in *; [reflexivity|]. now rewrite IHc. Qed.

Lemma repeat_cons_app {A} (a : A) c l : repeat a c ++ a :: l = a :: repeat a c ++ l.
Proof. induction c; simpl; [reflexivity|]. now rewrite IHc. Qed.

Lemma zs2_inner_spec fuel X y c v mid rest m :
  (c < fuel)%nat -> y <> v -> m - 1 = Z.of_nat (length X + 1 + c + length mid) ->
  zs2_inner fuel ((X ++ [y]) ++ repeat v c ++ mid ++ v :: rest) m (Z.of_nat (length X + c))
  = Ok ((X ++ [y]) ++ repeat 1 c ++ mid ++ v :: rest, Z.of_nat (length X)).
Proof.
  revert fuel mid; induction c as [|c IH]; intros fuel mid Hf Hy Hm;
    (destruct fuel as [|fuel]; [lia|]); cbn [zs2_inner].
  - cbn [repeat app]. rewrite Nat.add_0_r.
    rewrite <- app_assoc. cbn [app]. rewrite aget_mid by reflexivity. cbn [bind].
    replace (X ++ y :: mid ++ v :: rest) with ((X ++ y :: mid) ++ v :: rest) by (lnorm; reflexivity).
    rewrite aget_mid by (rewrite app_length; simpl; lia). cbn [bind].
    apply Z.eqb_neq in Hy. rewrite Hy. rewrite <- app_assoc. reflexivity.
  - rewrite repeat_snoc.
    replace ((X ++ [y]) ++ (repeat v c ++ [v]) ++ mid ++ v :: rest)
      with (((X ++ [y]) ++ repeat v c) ++ v :: mid ++ v :: rest) by (lnorm; reflexivity).
    rewrite aget_mid by (rewrite !app_length, repeat_length; simpl; lia). cbn [bind].
    replace (((X ++ [y]) ++ repeat v c) ++ v :: mid ++ v :: rest)
      with (((X ++ [y]) ++ repeat v c ++ v :: mid) ++ v :: rest) by (lnorm; reflexivity).
    rewrite aget_mid by (rewrite !app_length, repeat_length; simpl; rewrite ?app_length, ?repeat_length; simpl; lia).
    cbn [bind]. rewrite Z.eqb_refl.
    replace (((X ++ [y]) ++ repeat v c ++ v :: mid) ++ v :: rest)
      with (((X ++ [y]) ++ repeat v c) ++ v :: mid ++ v :: rest) by (lnorm; reflexivity).
    rewrite aset_mid by (rewrite !app_length, repeat_length; simpl; lia). cbn [bind].
    specialize (IH fuel (1 :: mid) ltac:(lia) Hy ltac:(simpl; lia)).
    replace (Z.of_nat (length X + S c) - 1) with (Z.of_nat (length X + c)) by lia.
    rewrite <- (app_assoc (X ++ [y])). cbn [app] in IH. rewrite IH.
    rewrite (repeat_cons_app 1 c). reflexivity.
Qed.

(** ** The uniform successor *)
(** [p = A ++ v :: repeat v c ++ [w]] is followed by [A ++ (v+1) :: repeat 1 (v*c+w-1)]. *)
Definition psucc (A : list Z) (v : Z) (c : nat) (w : Z) : list Z :=
  A ++ (v + 1) :: repeat 1 (Z.to_nat (v * Z.of_nat c + w - 1)).

Definition decomp (p A : list Z) (v : Z) (c : nat) (w : Z) : Prop :=
  p = A ++ v :: repeat v c ++ [w] /\ 1 <= w <= v /\ Forall (fun a => v < a) A.

Lemma zsum_cons a l : zsum (a :: l) = a + zsum l.
Proof. reflexivity. Qed.
Lemma zsum_nil : zsum [] = 0.
Proof. reflexivity. Qed.
Lemma zsum_app a b : zsum (a ++ b) = zsum a + zsum b.
Proof. unfold zsum. induction a; simpl; lia. Qed.
Lemma zsum_repeat v c : zsum (repeat v c) = v * Z.of_nat c.
Proof. unfold zsum in *. induction c; simpl; [lia|]. rewrite IHc. lia. Qed.

Lemma sorted_app_ge A B : StronglySorted Z.ge (A ++ B) <->
  StronglySorted Z.ge A /\ StronglySorted Z.ge B /\ (forall a b, In a A -> In b B -> a >= b).
Proof.
  induction A as [|x A IH]; simpl.
  - split; [intros H; repeat split; [constructor|assumption|tauto] | tauto].
  - split.
    + intros H. inversion H as [|? ? H1 H2]; subst. apply IH in H1. destruct H1 as (H1 & H3 & H4).
      rewrite Forall_app in H2. destruct H2 as [H2 H5]. rewrite Forall_forall in H5.
      repeat split; [constructor; assumption|assumption|].
      intros a b [->|Ha] Hb; auto.
    + intros (H1 & H2 & H3). inversion H1; subst. constructor.
      * apply IH. repeat split; auto.
      * apply Forall_app; split; [assumption|]. apply Forall_forall. auto.
Qed.

Lemma sorted_repeat v c : StronglySorted Z.ge (repeat v c).
Proof.
  induction c; simpl; constructor; auto. apply Forall_forall. intros x Hx. apply repeat_spec in Hx. lia.
Qed.

Lemma psucc_partition n p A v c w : is_partition n p -> decomp p A v c w ->
  is_partition n (psucc A v c w).
Proof.
  intros (Hp & Hs & Hn) (-> & Hw & HA). unfold psucc.
  apply Forall_app in Hp. destruct Hp as [HpA _].
  apply sorted_app_ge in Hs. destruct Hs as (HsA & _ & _).
  assert (0 <= v * Z.of_nat c) by nia. repeat split.
  - apply Forall_app; split; [assumption|]. constructor; [lia|]. apply Forall_forall. intros x Hx.
    apply repeat_spec in Hx. lia.
  - apply sorted_app_ge. repeat split; auto.
    + constructor; [apply sorted_repeat|]. apply Forall_forall. intros x Hx. apply repeat_spec in Hx. lia.
    + rewrite Forall_forall in HA. intros a b Ha [<-|Hb]; [specialize (HA _ Ha); lia|].
      apply repeat_spec in Hb. specialize (HA _ Ha). lia.
  - rewrite !zsum_app, !zsum_cons, !zsum_app, !zsum_repeat, !zsum_cons, !zsum_nil in Hn.
    rewrite !zsum_app, !zsum_cons, !zsum_repeat. lia.
Qed.

Lemma psucc_lt p A v c w : decomp p A v c w -> lexlt p (psucc A v c w).
Proof.
  intros (-> & _ & _). unfold psucc. induction A; simpl; [left; lia|]. right; auto.
Qed.

Lemma pos_sum q : Forall (fun a => 1 <= a) q -> 0 <= zsum q.
Proof. induction 1; unfold zsum in *; simpl; lia. Qed.

Lemma ones_min k q : Forall (fun a => 1 <= a) q -> zsum q = Z.of_nat k ->
  q = repeat 1 k \/ lexlt (repeat 1 k) q.
Proof.
  revert q; induction k as [|k IH]; intros q Hq Hs.
  - destruct q as [|b q]; [auto|]. inversion Hq; subst. rewrite zsum_cons in Hs.
    assert (0 <= zsum q) by now apply pos_sum. lia.
  - destruct q as [|b q]; [rewrite zsum_nil in Hs; lia|]. inversion Hq; subst. rewrite zsum_cons in Hs.
    cbn [repeat]. cbn [lexlt]. destruct (Z.eq_dec b 1) as [->|Hb].
    + destruct (IH q) as [->|H]; auto. lia.
    + right. left. lia.
Qed.

Lemma run_no_gap v c w q : 1 <= w <= v -> Forall (fun a => 1 <= a) q ->
  StronglySorted Z.ge (v :: q) -> zsum q = v * Z.of_nat c + w -> ~ lexlt (repeat v c ++ [w]) q.
Proof.
  intros Hw. revert q; induction c as [|c IH]; intros q Hq Hs Hn L.
  - cbn [repeat app] in L. destruct q as [|b q]; [exact L|]. cbn [lexlt] in L.
    inversion Hq as [|? ? Hb Hq']; subst. assert (P := pos_sum q Hq').
    rewrite zsum_cons in Hn. destruct L as [L|[-> L]]; [lia|].
    destruct q as [|d q]; [exact L|]. inversion Hq' as [|? ? Hd Hq'']; subst.
    assert (P' := pos_sum q Hq''). rewrite zsum_cons in *. lia.
  - cbn [repeat app] in L. destruct q as [|b q]; [exact L|]. cbn [lexlt] in L.
    inversion Hq as [|? ? Hb Hq']; subst. inversion Hs as [|? ? Hs' Hf]; subst.
    inversion Hf; subst. destruct L as [L|[-> L]]; [lia|].
    apply (IH q); auto. rewrite zsum_cons in *. lia.
Qed.

Lemma psucc_no_gap n p A v c w q : is_partition n p -> is_partition n q -> decomp p A v c w ->
  lexlt p q -> q = psucc A v c w \/ lexlt (psucc A v c w) q.
Proof.
  intros (_ & _ & Hn) (Hq & Hs & Hqn) (-> & Hw & _). unfold psucc.
  revert n q Hn Hq Hs Hqn; induction A as [|a A IH]; intros n q Hn Hq Hs Hqn L.
  - cbn [app] in *. destruct q as [|b q]; [contradiction|]. cbn [lexlt] in *.
    inversion Hq as [|? ? Hb Hq']; subst.
    rewrite !zsum_cons, !zsum_app, !zsum_repeat, !zsum_cons, !zsum_nil in Hqn.
    destruct L as [L|[<- L]].
    + destruct (Z.eq_dec b (v + 1)) as [->|Hne]; [|right; left; lia].
      destruct (ones_min (Z.to_nat (v * Z.of_nat c + w - 1)) q Hq') as [->|H]; auto.
      assert (0 <= v * Z.of_nat c) by nia. lia.
    + exfalso. apply (run_no_gap v c w q); auto; lia.
  - destruct q as [|b q]; [contradiction|]. cbn [app lexlt] in *.
    destruct L as [L|[<- L]]; [right; left; assumption|].
    inversion Hq; inversion Hs; subst.
    destruct (IH (zsum (A ++ v :: repeat v c ++ [w])) q) as [->|H]; auto.
    rewrite !zsum_cons in *; lia.
Qed.

(** ** Rank *)
Fixpoint rank (n : Z) (k : nat) (p : list Z) : Z :=
  match k, p with
  | S k', a :: p' => a * (n + 1) ^ Z.of_nat k' + rank n k' p'
  | _, _ => 0
  end.

Lemma rank_bound n k p : 0 <= n -> Forall (fun a => 1 <= a <= n) p ->
  0 <= rank n k p < (n + 1) ^ Z.of_nat k.
Proof.
  intros Hn. revert p; induction k as [|k IH]; intros p Hp; [simpl; lia|].
  assert (0 < (n + 1) ^ Z.of_nat k) by (apply Z.pow_pos_nonneg; lia).
  replace (Z.of_nat (S k)) with (Z.succ (Z.of_nat k)) by lia. rewrite Z.pow_succ_r by lia.
  destruct p as [|a p]; cbn [rank]; [nia|]. inversion Hp; subst. specialize (IH p ltac:(assumption)). nia.
Qed.

Lemma rank_lt n k p q : 0 <= n -> Forall (fun a => 1 <= a <= n) p -> Forall (fun a => 1 <= a <= n) q ->
  (length p <= k)%nat -> (length q <= k)%nat -> lexlt p q -> rank n k p < rank n k q.
Proof.
  intros Hn. revert p q; induction k as [|k IH]; intros p q Hp Hq Lp Lq L.
  - destruct p, q; simpl in *; try lia; contradiction.
  - assert (0 < (n + 1) ^ Z.of_nat k) by (apply Z.pow_pos_nonneg; lia).
    destruct p as [|a p], q as [|b q]; cbn [lexlt] in L; try contradiction; cbn [rank].
    + inversion Hq; subst. assert (R := rank_bound n k q Hn ltac:(assumption)). nia.
    + inversion Hp; inversion Hq; subst. simpl in Lp, Lq.
      assert (Ra := rank_bound n k p Hn ltac:(assumption)).
      assert (Rb := rank_bound n k q Hn ltac:(assumption)).
      destruct L as [L|[-> L]]; [nia|].
      assert (rank n k p < rank n k q) by (apply IH; auto; lia). lia.
Qed.

Lemma partition_bounds n p : is_partition n p ->
  Forall (fun a => 1 <= a <= n) p /\ Z.of_nat (length p) <= n.
Proof.
  intros (Hp & _ & Hn). subst n. split.
  - induction Hp as [|a p Ha Hp IH]; constructor.
    + rewrite zsum_cons. assert (P := pos_sum p Hp). lia.
    + eapply Forall_impl; [|exact IH]. intros b; cbv beta. rewrite zsum_cons. lia.
  - induction Hp as [|a p Ha Hp IH]; rewrite ?zsum_cons, ?zsum_nil; cbn [length]; lia.
Qed.

(** ** Simulation *)
(** State of the loop for the current partition [p]. *)
Definition st_inv (n : Z) (x : list Z) (h m : Z) (p : list Z) : Prop :=
  is_partition n p /\ m = Z.of_nat (length p) /\
  x = 1 :: p ++ repeat 1 (Z.to_nat n - length p) /\
  exists G t, p = G ++ repeat 1 t /\ Forall (fun a => 2 <= a) G /\ h = Z.of_nat (length G) /\ (1 <= length G)%nat.

Lemma last_run (G : list Z) v : StronglySorted Z.ge (G ++ [v]) ->
  exists A c, G ++ [v] = A ++ v :: repeat v c /\ Forall (fun a => v < a) A.
Proof.
  induction G as [|g G IH] using rev_ind; intros Hs.
  - exists [], 0%nat. split; [reflexivity|constructor].
  - destruct (Z.eq_dec g v) as [->|Hg].
    + assert (Hs' : StronglySorted Z.ge (G ++ [v])).
      { apply sorted_app_ge in Hs. tauto. }
      destruct (IH Hs') as (A & c & E & F). exists A, (S c). split; [|assumption].
      rewrite E. rewrite <- app_assoc. cbn [app]. f_equal. f_equal. now rewrite repeat_snoc.
    + exists (G ++ [g]), 0%nat. split; [reflexivity|].
      apply sorted_app_ge in Hs. destruct Hs as (Hs & _ & H).
      apply Forall_forall. intros a Ha.
      assert (g >= v) by (apply H; [apply in_or_app; right; now left|now left]).
      apply in_app_or in Ha. destruct Ha as [Ha|[<-|[]]]; [|lia].
      apply sorted_app_ge in Hs. destruct Hs as (_ & _ & H'). specialize (H' a g Ha (or_introl eq_refl)). lia.
Qed.

Lemma sorted_nonempty_snoc {A} (l : list A) : l <> [] -> exists l' a, l = l' ++ [a].
Proof. intros H. destruct (exists_last H) as (l' & a & E). eauto. Qed.

Lemma step_sim n x h m p fuel : st_inv n x h m p -> hd 0 p <> n -> (length p < fuel)%nat ->
  exists A v c w x' h' m', decomp p A v c w /\
    zs2_step fuel x h m = Ok (x', h', m') /\ st_inv n x' h' m' (psucc A v c w).
Proof.
  intros (Hp & -> & -> & G & t & E & HG & -> & HG1) Hhd Hfuel.
  assert (Hlen : Z.of_nat (length p) <= n) by (apply partition_bounds; assumption).
  unfold zs2_step. assert (Lp : length p = (length G + t)%nat) by (rewrite E, app_length, repeat_length; reflexivity).
  destruct (Z.ltb_spec 1 (Z.of_nat (length p) - Z.of_nat (length G))) as [Ht|Ht].
  - (* at least two trailing ones *)
    destruct t as [|[|t]]; [lia|lia|].
    assert (D : decomp p G 1 t 1).
    { split; [|split; [lia|eapply Forall_impl; [|exact HG]; simpl; lia]].
      rewrite E. f_equal. cbn [repeat]. f_equal. rewrite <- repeat_snoc. reflexivity. }
    exists G, 1, t, 1.
    assert (Es : psucc G 1 t 1 = (G ++ [2]) ++ repeat 1 t).
    { unfold psucc. rewrite <- app_assoc. cbn [app]. f_equal. f_equal. f_equal. lia. }
    assert (P' := psucc_partition n p G 1 t 1 Hp D).
    rewrite E, <- app_assoc. cbn [repeat app].
    change (1 :: G ++ 1 :: 1 :: repeat 1 t ++ repeat 1 (Z.to_nat n - length (G ++ 1 :: 1 :: repeat 1 t)))
      with ((1 :: G) ++ 1 :: 1 :: repeat 1 t ++ repeat 1 (Z.to_nat n - length (G ++ 1 :: 1 :: repeat 1 t))).
    rewrite aset_mid by (simpl; lia). cbn [bind].
    do 3 eexists. split; [rewrite <- E at 1; exact D|]. split; [reflexivity|]. 
    rewrite Es in *. split; [exact P'|]. split; [rewrite !app_length, ?repeat_length; simpl; rewrite ?repeat_length; lia|]. split.
    + rewrite <- !app_assoc. cbn [app]. f_equal. f_equal. f_equal.
      rewrite !app_length; cbn [length]; rewrite !repeat_length.
      rewrite <- (repeat_cons_app 1 t).
      replace (Z.to_nat n - (length G + S t))%nat with (S (Z.to_nat n - (length G + S (S t)))) by lia.
      cbn [repeat]. rewrite repeat_cons_app. reflexivity.
    + exists (G ++ [2]), t. split; [reflexivity|]. split; [apply Forall_app; split; [assumption|repeat constructor; lia]|].
      rewrite app_length; simpl. lia.
  - (* at most one trailing one *)
    (* split off the last part *)
    assert (Hw : exists G' v w, p = (G' ++ [v]) ++ [w] /\ 2 <= v /\ 1 <= w <= v).
    { destruct Hp as (Hpos & Hsort & Hsum).
      assert (L2 : (2 <= length p)%nat).
      { destruct p as [|a [|b p]]; simpl in *; lia. }
      destruct (sorted_nonempty_snoc p) as (p1 & w & Ep); [destruct p; simpl in *; [lia|discriminate]|].
      destruct (sorted_nonempty_snoc p1) as (G' & v & Ep1); [rewrite Ep, app_length in L2; destruct p1; simpl in *; [lia|discriminate]|].
      exists G', v, w. subst p1. split; [exact Ep|].
      assert (Hwv : 1 <= w <= v).
      { rewrite Ep in Hpos, Hsort. apply Forall_app in Hpos. destruct Hpos as [_ Hpos]. inversion Hpos; subst.
        apply sorted_app_ge in Hsort. destruct Hsort as (_ & _ & H).
        assert (v >= w) by (apply H; [apply in_or_app; right; now left|now left]). lia. }
      split; [|assumption].
      destruct t as [|[|t]]; [| |lia].
      - rewrite app_nil_r in E. rewrite Ep in E. subst G. apply Forall_app in HG. destruct HG as [HG _].
        apply Forall_app in HG. destruct HG as [_ HG]. now inversion HG.
      - rewrite Ep in E. cbn [repeat] in E. apply app_inj_tail in E. destruct E as [E1 E2]. rewrite <- E1 in HG.
        apply Forall_app in HG. destruct HG as [_ HG]. now inversion HG. }
    destruct Hw as (G' & v & w & Ep & Hv & Hw).
    assert (Hs1 : StronglySorted Z.ge (G' ++ [v])).
    { destruct Hp as (_ & Hsort & _). rewrite Ep in Hsort. apply sorted_app_ge in Hsort. tauto. }
    destruct (last_run G' v Hs1) as (A & c & Er & FA).
    rewrite Er in Ep.
    assert (D : decomp p A v c w).
    { split; [|split; assumption]. rewrite Ep, <- app_assoc. reflexivity. }
    exists A, v, c, w.
    assert (P' := psucc_partition n p A v c w Hp D).
    assert (Hp' : length p = (length A + c + 2)%nat).
    { rewrite Ep, !app_length; simpl. rewrite repeat_length. lia. }
    (* the sentinel or last element of A *)
    set (tl := repeat 1 (Z.to_nat n - length p)).
    assert (Hx : exists X y, 1 :: A = X ++ [y] /\ y <> v).
    { destruct A as [|a A] using rev_ind.
      - exists [], 1. split; [reflexivity|lia].
      - exists (1 :: A), a. split; [reflexivity|]. apply Forall_app in FA. destruct FA as [_ FA]. inversion FA; lia. }
    destruct Hx as (X & y & EX & Hy).
    assert (LX : length X = length A).
    { apply (f_equal (@length Z)) in EX. rewrite app_length in EX. simpl in EX. lia. }
    replace (1 :: p ++ tl) with ((X ++ [y]) ++ repeat v c ++ [] ++ v :: (w :: tl)).
    2:{ rewrite <- EX, Ep. lnorm. rewrite repeat_cons_app. reflexivity. }
    replace (Z.of_nat (length p) - 2) with (Z.of_nat (length X + c)) by lia.
    rewrite zs2_inner_spec; [|lia|exact Hy|simpl; lia]. cbn [bind app].
    rewrite <- EX. cbn [app].
    assert (Eh : Z.of_nat (length X) + 1 = Z.of_nat (length (1 :: A))) by (simpl; lia).
    rewrite Eh.
    replace (1 :: A ++ repeat 1 c ++ v :: w :: tl) with ((1 :: A ++ repeat 1 c) ++ v :: w :: tl)
      by (lnorm; reflexivity).
    rewrite aget_mid by (simpl; rewrite app_length, repeat_length; lia). cbn [bind].
    destruct c as [|c].
    + (* h' = m - 1 *)
      cbn [repeat]. rewrite app_nil_r. rewrite aset_mid by reflexivity. cbn [bind].
      replace ((1 :: A) ++ v + 1 :: w :: tl) with (((1 :: A) ++ [v + 1]) ++ w :: tl) by (lnorm; reflexivity).
      rewrite aget_mid by (rewrite app_length; simpl; lia). cbn [bind].
      replace (((1 :: A) ++ [v + 1]) ++ w :: tl) with ((1 :: A) ++ v + 1 :: w :: tl) by (lnorm; reflexivity).
      rewrite aget_mid by (simpl; lia). cbn [bind].
      replace ((1 :: A) ++ v + 1 :: w :: tl) with (((1 :: A) ++ [v + 1]) ++ w :: tl) by (lnorm; reflexivity).
      rewrite aset_mid by (rewrite app_length; simpl; lia). cbn [bind].
      destruct (Z.ltb_spec 1 (Z.of_nat (length p) - Z.of_nat (length (1 :: A)))); [simpl in *; lia|].
      cbn [bind]. do 3 eexists. split; [exact D|]. split; [reflexivity|].
      split; [exact P'|].
      assert (Lq : length (psucc A v 0 w) = (length A + 1 + Z.to_nat (w - 1))%nat).
      { unfold psucc. rewrite app_length; cbn [length]. rewrite repeat_length. lia. }
      assert (Hq : Z.of_nat (length (psucc A v 0 w)) <= n) by (apply partition_bounds; assumption).
      assert (Em : Z.of_nat (length p) - Z.of_nat (length (1 :: A)) - 1 = 0) by (cbn [length]; lia).
      rewrite Em, Z.mul_0_r.
      split; [rewrite Lq; cbn [length]; lia|]. split.
      * unfold psucc at 1. rewrite <- !app_assoc. cbn [app]. f_equal. f_equal. f_equal.
        unfold tl. change (1 :: repeat 1 (Z.to_nat n - length p)) with (repeat 1 (S (Z.to_nat n - length p))).
        rewrite <- repeat_app. f_equal. lia.
      * exists (A ++ [v + 1]), (Z.to_nat (v * Z.of_nat 0 + w - 1)). split; [unfold psucc; rewrite <- app_assoc; reflexivity|].
        split; [apply Forall_app; split; [eapply Forall_impl; [|exact FA]; simpl; lia|repeat constructor; lia]|].
        rewrite app_length; simpl. lia.
    + (* general run *)
      cbn [repeat].
      replace ((1 :: A ++ 1 :: repeat 1 c) ++ v :: w :: tl) with ((1 :: A) ++ 1 :: (repeat 1 c ++ v :: w :: tl))
        by (lnorm; reflexivity).
      rewrite aset_mid by reflexivity. cbn [bind].
      replace ((1 :: A) ++ v + 1 :: repeat 1 c ++ v :: w :: tl)
        with (((1 :: A) ++ v + 1 :: repeat 1 c ++ [v]) ++ w :: tl)
        by (lnorm; reflexivity).
      rewrite aget_mid by (rewrite app_length; simpl; rewrite app_length, repeat_length; simpl; lia). cbn [bind].
      replace (((1 :: A) ++ v + 1 :: repeat 1 c ++ [v]) ++ w :: tl)
        with (((1 :: A) ++ v + 1 :: repeat 1 c) ++ v :: w :: tl)
        by (lnorm; reflexivity).
      rewrite aget_mid by (rewrite app_length; simpl; rewrite repeat_length; simpl; lia). cbn [bind].
      replace (((1 :: A) ++ v + 1 :: repeat 1 c) ++ v :: w :: tl)
        with (((1 :: A) ++ v + 1 :: repeat 1 c ++ [v]) ++ w :: tl)
        by (lnorm; reflexivity).
      rewrite aset_mid by (rewrite app_length; simpl; rewrite app_length, repeat_length; simpl; lia). cbn [bind].
      destruct (Z.ltb_spec 1 (Z.of_nat (length p) - Z.of_nat (length (1 :: A)))); [|simpl in *; lia].
      replace (((1 :: A) ++ v + 1 :: repeat 1 c ++ [v]) ++ 1 :: tl)
        with (((1 :: A) ++ v + 1 :: repeat 1 c) ++ v :: 1 :: tl)
        by (lnorm; reflexivity).
      rewrite aset_mid by (rewrite app_length; simpl; rewrite repeat_length; simpl; lia). cbn [bind].
      do 3 eexists. split; [exact D|]. split; [reflexivity|].
      split; [exact P'|].
      assert (Lq : length (psucc A v (S c) w) = (length A + 1 + Z.to_nat (v * Z.of_nat (S c) + w - 1))%nat).
      { unfold psucc. rewrite app_length; cbn [length]. rewrite repeat_length. lia. }
      assert (Hq : Z.of_nat (length (psucc A v (S c) w)) <= n) by (apply partition_bounds; assumption).
      assert (Evc : 0 <= v * Z.of_nat c) by nia.
      assert (Em : Z.of_nat (length p) - Z.of_nat (length (1 :: A)) - 1 = Z.of_nat (S c)) by (cbn [length]; lia).
      rewrite Em.
      split; [rewrite Lq; cbn [length]; lia|]. split.
      * unfold psucc at 1. rewrite <- !app_assoc. cbn [app]. f_equal. f_equal. f_equal.
        unfold tl. change (1 :: 1 :: repeat 1 (Z.to_nat n - length p)) with (repeat 1 (S (S (Z.to_nat n - length p)))).
        rewrite <- !repeat_app. f_equal. lia.
      * exists (A ++ [v + 1]), (Z.to_nat (v * Z.of_nat (S c) + w - 1)). split; [unfold psucc; rewrite <- app_assoc; reflexivity|].
        split; [apply Forall_app; split; [eapply Forall_impl; [|exact FA]; simpl; lia|repeat constructor; lia]|].
        rewrite app_length; simpl. lia.
Qed.

(** ** The loop *)
Lemma lexlt_trans p q r : lexlt p q -> lexlt q r -> lexlt p r.
Proof.
  revert q r; induction p as [|a p IH]; intros [|b q] [|c r]; simpl; try tauto.
  intros [H|[-> H]] [H'|[-> H']]; [left; lia|left; lia|left; lia|right; eauto].
Qed.
Lemma lexlt_irrefl p : ~ lexlt p p.
Proof. induction p as [|a p IH]; simpl; [tauto|]. intros [H|[_ H]]; [lia|tauto]. Qed.

Lemma st_hd n x h m p : st_inv n x h m p -> aget x 1 = Ok (hd 0 p) /\ p <> [].
Proof.
  intros (_ & _ & -> & G & t & -> & _ & _ & HG). destruct G as [|g G]; [simpl in HG; lia|].
  split; [reflexivity|discriminate].
Qed.

Lemma hd_n_single n p : is_partition n p -> hd 0 p = n -> p <> [] -> p = [n].
Proof.
  intros (Hp & _ & Hs) Hh Hne. destruct p as [|a p]; [congruence|]. simpl in Hh. subst a.
  inversion Hp as [|? ? _ Hp']; subst. rewrite zsum_cons in Hs. destruct p as [|b p]; [reflexivity|].
  inversion Hp'; subst. rewrite zsum_cons in Hs. assert (P := pos_sum p ltac:(assumption)). lia.
Qed.

Lemma single_max n p : is_partition n p -> ~ lexlt [n] p.
Proof.
  intros Hp. destruct (partition_bounds n p Hp) as [B _]. destruct Hp as (Hpos & _ & Hs).
  destruct p as [|a p]; simpl; [tauto|].
  assert (Ba : 1 <= a <= n) by (now inversion B).
  intros [L|[E L]]; [lia|].
  destruct p as [|b p]; [assumption|]. rewrite !zsum_cons in Hs.
  inversion Hpos as [|? ? _ Hpos']. inversion Hpos' as [|? ? Hb Hpos''].
  assert (P := pos_sum p Hpos''). lia.
Qed.

Definition in_rest (n maxlen : Z) (p q : list Z) : Prop :=
  is_partition n q /\ lexlt p q /\ Z.of_nat (length q) <= maxlen.

Lemma push_part_spec n x h m p maxlen acc : st_inv n x h m p ->
  push_part x m maxlen acc = Ok (if m <=? maxlen then acc ++ [p] else acc).
Proof.
  intros (_ & Hm & -> & _). unfold push_part. destruct (m <=? maxlen); [|reflexivity].
  rewrite aslice1_spec by assumption. reflexivity.
Qed.

Lemma zs2_loop_spec n maxlen : 0 <= n -> forall k x h m p acc,
  st_inv n x h m p -> (Z.to_nat ((n + 1) ^ n - rank n (Z.to_nat n) p) <= k)%nat ->
  exists L, (forall fuel, (k + Z.to_nat n + 2 <= fuel)%nat -> zs2_loop fuel n maxlen x h m acc = Ok (acc ++ L)) /\
    (forall q, In q L <-> in_rest n maxlen p q) /\ StronglySorted lexlt L.
Proof.
  intros Hn. induction k as [|k IH]; intros x h m p acc Hst Hk.
  - exfalso. destruct Hst as (Hp & _). destruct (partition_bounds n p Hp) as [B _].
    assert (R := rank_bound n (Z.to_nat n) p Hn B). rewrite Z2Nat.id in R by lia. lia.
  - destruct (st_hd _ _ _ _ _ Hst) as [Hg Hne].
    assert (Hp : is_partition n p) by apply Hst.
    destruct (Z.eq_dec (hd 0 p) n) as [Eh|Eh].
    + exists []. split; [|split; [|constructor]].
      * intros [|fuel] Hf; [lia|]. cbn [zs2_loop]. rewrite Hg. cbn [bind]. rewrite Eh, Z.eqb_refl.
        now rewrite app_nil_r.
      * intros q. split; [intros []|]. intros (Hq & L & _).
        rewrite (hd_n_single n p Hp Eh Hne) in L. now apply single_max in L.
    + assert (Hlp : Z.of_nat (length p) <= n) by (apply partition_bounds; assumption).
      assert (Step : forall fuel, (length p < fuel)%nat -> exists A v c w x' h' m', decomp p A v c w /\
        zs2_step fuel x h m = Ok (x', h', m') /\ st_inv n x' h' m' (psucc A v c w)) by (intros; now apply step_sim).
      destruct (Step (S (length p)) ltac:(lia)) as (A & v & c & w & x' & h' & m' & D & _ & Hst').
      set (p' := psucc A v c w) in *.
      assert (Hp' : is_partition n p') by apply Hst'.
      assert (Hlt : lexlt p p') by now apply psucc_lt.
      assert (Uniq : forall A2 v2 c2 w2, decomp p A2 v2 c2 w2 -> psucc A2 v2 c2 w2 = p').
      { intros A2 v2 c2 w2 D2.
        assert (Q2 := psucc_partition n p _ _ _ _ Hp D2). assert (L2 := psucc_lt _ _ _ _ _ D2).
        destruct (psucc_no_gap n p A v c w _ Hp Q2 D L2) as [|L3]; [assumption|].
        destruct (psucc_no_gap n p _ _ _ _ _ Hp Hp' D2 Hlt) as [E|L4]; [symmetry; exact E|].
        exfalso. apply (lexlt_irrefl p'). eapply lexlt_trans; eassumption. }
      assert (Det : forall x1 h1 m1, st_inv n x1 h1 m1 p' -> x1 = x' /\ h1 = h' /\ m1 = m').
      { destruct Hst' as (_ & Em' & Ex' & G' & t' & Eg' & FG' & Eh' & LG').
        intros x1 h1 m1 (_ & -> & -> & G1 & t1 & Eg1 & FG1 & -> & LG1). repeat split; try congruence.
        rewrite Eh'. f_equal. clear - Eg' FG' Eg1 FG1. rewrite Eg' in Eg1. clear Eg' p'.
        revert G1 FG1 Eg1. induction FG' as [|g G' Hg FG' IHg]; intros G1 FG1 E.
        - destruct G1 as [|g1 G1]; [reflexivity|]. exfalso. inversion FG1; subst. destruct t'; simpl in E; inversion E; lia.
        - destruct G1 as [|g1 G1].
          + exfalso. destruct t1; simpl in E; inversion E; lia.
          + simpl in E. inversion E; subst. inversion FG1; subst. simpl. f_equal. now apply IHg. }
      destruct (IH x' h' m' p' (if m' <=? maxlen then acc ++ [p'] else acc) Hst') as (L & HL & HinL & HsL).
      { destruct (partition_bounds n p Hp) as [B _]. destruct (partition_bounds n p' Hp') as [B' Hl'].
        assert (R := rank_lt n (Z.to_nat n) p p' Hn B B' ltac:(lia) ltac:(lia) Hlt).
        assert (R1 := rank_bound n (Z.to_nat n) p Hn B). rewrite Z2Nat.id in R1 by lia.
        assert (R2 := rank_bound n (Z.to_nat n) p' Hn B'). rewrite Z2Nat.id in R2 by lia. lia. }
      assert (Hm' : m' = Z.of_nat (length p')) by apply Hst'.
      exists (if m' <=? maxlen then p' :: L else L). split; [|split].
      * intros [|fuel] Hf; [lia|]. cbn [zs2_loop]. rewrite Hg. cbn [bind].
        apply Z.eqb_neq in Eh. rewrite Eh.
        destruct (Step (S fuel) ltac:(lia)) as (A2 & v2 & c2 & w2 & x2 & h2 & m2 & D2 & E2 & Hst2).
        rewrite E2. cbn [bind]. rewrite (Uniq _ _ _ _ D2) in Hst2.
        destruct (Det _ _ _ Hst2) as (-> & -> & ->).
        rewrite (push_part_spec n x' h' m' p' maxlen acc Hst'). cbn [bind].
        rewrite HL by lia. destruct (m' <=? maxlen); [rewrite <- app_assoc; reflexivity|reflexivity].
      * intros q. assert (Key : in_rest n maxlen p q <-> (q = p' /\ m' <= maxlen) \/ in_rest n maxlen p' q).
        { unfold in_rest. split.
          - intros (Hq & Lq & Mq). destruct (psucc_no_gap n p A v c w q Hp Hq D Lq) as [->|Lq'].
            + left. split; [reflexivity|]. fold p' in Mq. lia.
            + right. auto.
          - intros [[-> Mq]|(Hq & Lq & Mq)]; [repeat split; try apply Hp'; auto; lia|].
            repeat split; try apply Hq; auto. eapply lexlt_trans; eassumption. }
        rewrite Key, <- HinL. destruct (Z.leb_spec m' maxlen); simpl; split.
        -- intros [<-|Hi]; auto.
        -- intros [[-> _]|Hi]; auto.
        -- auto.
        -- intros [[_ Hc]|Hi]; [lia|auto].
      * destruct (m' <=? maxlen); [|assumption]. constructor; [assumption|].
        apply Forall_forall. intros q Hq. apply HinL in Hq. apply Hq.
Qed.

Lemma ones_partition n : 0 <= n -> is_partition n (repeat 1 (Z.to_nat n)).
Proof.
  intros H. repeat split.
  - apply Forall_forall. intros x Hx. apply repeat_spec in Hx. lia.
  - apply sorted_repeat.
  - rewrite zsum_repeat. lia.
Qed.

Lemma integer_partitions_spec n maxlen : 1 < n ->
  exists L f0, (forall fuel, (f0 <= fuel)%nat -> integer_partitions fuel n maxlen = Ok L) /\
    (forall q, In q L <-> is_partition n q /\ Z.of_nat (length q) <= maxlen) /\ StronglySorted lexlt L.
Proof.
  intros Hn. unfold integer_partitions. destruct (Z.ltb_spec 1 n); [|lia].
  set (k := Z.to_nat n).
  assert (Ek : exists k', k = S (S k')) by (exists (k - 2)%nat; lia). destruct Ek as (k' & Ek).
  replace (Z.to_nat (n + 1)) with (S k) by lia.
  set (ones := repeat 1 k).
  assert (Hones : is_partition n ones) by (apply ones_partition; lia).
  assert (Hl : length ones = k) by apply repeat_length.
  assert (P0 : push_part (repeat 1 (S k)) n maxlen [] = Ok (if n <=? maxlen then [ones] else [])).
  { unfold push_part. destruct (n <=? maxlen); [|reflexivity].
    replace (repeat 1 (S k)) with (1 :: ones ++ []) by (rewrite app_nil_r; reflexivity).
    rewrite aslice1_spec by lia. reflexivity. }
  rewrite P0. cbn [bind].
  set (x := 1 :: 2 :: repeat 1 (S k')).
  assert (E1 : aset (repeat 1 (S k)) 0 1 = Ok (repeat 1 (S k))).
  { change (repeat 1 (S k)) with ([] ++ 1 :: repeat 1 k). rewrite aset_mid by reflexivity. reflexivity. }
  rewrite E1. cbn [bind].
  assert (E2 : aset (repeat 1 (S k)) 1 2 = Ok x).
  { rewrite Ek. change (repeat 1 (S (S (S k')))) with ([1] ++ 1 :: repeat 1 (S k')).
    rewrite aset_mid by reflexivity. reflexivity. }
  rewrite E2. cbn [bind].
  assert (D : decomp ones [] 1 k' 1).
  { split; [|split; [lia|constructor]]. unfold ones. rewrite Ek. cbn [app]. rewrite <- repeat_snoc. reflexivity. }
  set (p := psucc [] 1 k' 1).
  assert (Ep : p = 2 :: repeat 1 k').
  { unfold p, psucc. cbn [app]. f_equal. f_equal. lia. }
  assert (Hp : is_partition n p) by (eapply psucc_partition; eassumption).
  assert (Hlen : length p = S k') by (rewrite Ep; simpl; now rewrite repeat_length).
  assert (Hst : st_inv n x 1 (n - 1) p).
  { split; [assumption|]. split; [lia|]. split.
    - rewrite Ep, Hlen in *. unfold x. cbn [app]. f_equal. f_equal. 
      replace (Z.to_nat n - S k')%nat with 1%nat by lia. rewrite repeat_snoc. simpl. reflexivity.
    - exists [2], k'. rewrite Ep. repeat split; simpl; auto; repeat constructor; lia. }
  rewrite (push_part_spec n x 1 (n - 1) p maxlen _ Hst). cbn [bind].
  set (acc := if n - 1 <=? maxlen then (if n <=? maxlen then [ones] else []) ++ [p] else if n <=? maxlen then [ones] else []).
  destruct (zs2_loop_spec n maxlen ltac:(lia) _ x 1 (n - 1) p acc Hst (le_n _)) as (L & HL & Hin & Hs).
  exists (acc ++ L). eexists. split; [exact HL|].
  assert (Hlt : lexlt ones p) by now apply psucc_lt.
  split.
  - intros q. rewrite in_app_iff, Hin. unfold in_rest. split.
    + intros [Hq|(Hq & _ & Mq)]; [|auto].
      unfold acc in Hq. destruct (Z.leb_spec (n - 1) maxlen), (Z.leb_spec n maxlen); simpl in Hq; try lia;
        repeat (destruct Hq as [<-|Hq]); try contradiction; split; auto; try lia.
    + intros [Hq Mq]. assert (Lq : q = ones \/ lexlt ones q).
      { apply ones_min; [apply Hq|]. destruct Hq as (_ & _ & ->). lia. }
      destruct Lq as [->|Lq].
      * left. unfold acc. destruct (Z.leb_spec n maxlen); [|lia]. destruct (n - 1 <=? maxlen); simpl; auto.
      * destruct (psucc_no_gap n ones [] 1 k' 1 q Hones Hq D Lq) as [->|Lq'].
        -- left. fold p in Mq |- *. unfold acc. destruct (Z.leb_spec (n - 1) maxlen); [|lia].
           apply in_or_app. right. now left.
        -- right. auto.
  - assert (FL : Forall (lexlt p) L) by (apply Forall_forall; intros q Hq; apply Hin in Hq; apply Hq).
    assert (FO : Forall (lexlt ones) L) by (eapply Forall_impl; [|exact FL]; intros q; now apply lexlt_trans).
    unfold acc. destruct (n - 1 <=? maxlen), (n <=? maxlen); simpl; repeat constructor; auto.
Qed.

Lemma sorted_lex_nodup L : StronglySorted lexlt L -> NoDup L.
Proof.
  induction 1 as [|p L S IH F]; constructor; auto. intros Hi. rewrite Forall_forall in F.
  apply (lexlt_irrefl p). auto.
Qed.

Lemma integer_partitions_exact n maxlen : 0 <= n -> 1 <= maxlen \/ 1 < n ->
  exists L f0, (forall fuel, (f0 <= fuel)%nat -> integer_partitions fuel n maxlen = Ok L) /\
    (forall q, In q L <-> is_partition n q /\ Z.of_nat (length q) <= maxlen) /\ NoDup L.
Proof.
  intros Hn Hm. destruct (Z_lt_le_dec 1 n) as [H1|H1].
  - destruct (integer_partitions_spec n maxlen H1) as (L & f0 & HL & Hin & Hs).
    exists L, f0. auto using sorted_lex_nodup.
  - assert (Hm' : 1 <= maxlen) by lia. clear Hm.
    unfold integer_partitions. destruct (Z.ltb_spec 1 n); [lia|].
    destruct (Z.eqb_spec n 0) as [->|Hne].
    + exists [[]], 0%nat. split; [auto|]. split; [|repeat constructor; auto].
      intros q. simpl. split.
      * intros [<-|[]]. simpl. repeat split; try constructor. lia.
      * intros [Hq _]. left. destruct (partition_bounds 0 q Hq) as [_ B]. destruct q; [reflexivity|simpl in B; lia].
    + assert (n = 1) by lia. subst n. destruct (Z.eqb_spec 1 1); [|lia].
      exists [[1]], 0%nat. split; [auto|]. split; [|repeat constructor; auto].
      intros q. simpl. split.
      * intros [<-|[]]. simpl. repeat split; try (repeat constructor; lia).
      * intros [Hq _]. left. destruct (partition_bounds 1 q Hq) as [F B]. destruct Hq as (_ & _ & Hs).
        destruct q as [|a [|b q]]; simpl in B; try lia; [discriminate Hs|]. inversion F; subst. f_equal. lia.
Qed.

Lemma integer_partitions_negative fuel n maxlen : n < 0 -> integer_partitions fuel n maxlen = Ok [].
Proof.
  intros H. unfold integer_partitions. destruct (Z.ltb_spec 1 n); [lia|].
  destruct (Z.eqb_spec n 0); [lia|]. destruct (Z.eqb_spec n 1); [lia|]. reflexivity.
Qed.
