(** C72: names that share an object; changing an expression while iterating over it. *)
From Coq Require Import ZArith List Bool Arith Lia Sorted.
From Verif Require Import Res RationalModel RegistryModel CoreModel OrderProofs AlgebraModel AlgebraSpec AlgebraProofs AdjointModel NormalOrderModel CanonModel PyModel PySpec PyProofs PyProofs2 PyProofs3 PyProofs4 PyProofs5.
Import ListNotations.

Lemma view_WE_env s x e : inv s -> view s x = Some (WE e) -> exists o m, s_env s x = Some (VE o) /\ nth_error (s_exprs s) o = Some m /\ entries m = e.
Proof.
  intros I V. unfold view in V. destruct (s_env s x) as [w|] eqn:Ex; [|discriminate]. cbn in V.
  assert (X : exists o, w = VE o). { destruct w as [o|o|o n|q'|o n|j]; [now exists o|cbn in V..]; revert V; bust; discriminate. }
  destruct X as (o & ->). cbn in V. destruct (nth_error (s_exprs s) o) as [m|] eqn:Em; [|discriminate]. exists o, m. injection V as <-. now repeat split.
Qed.
Lemma alias_shared st s x y t q e w k a s1 s2 o1 o2 : pyreach st s -> x <> y -> y <> t -> y <> q ->
  view s x = Some (WE e) -> view s t = Some w -> vkey w = Some k -> view s q = Some (WQ a) ->
  step st s (CAlias y x) s1 o1 -> step st s1 (CIaddP y t q) s2 o2 ->
  o1 = Done /\ o2 = Done /\ view s2 x = Some (WE (madd term_ltb k a e)) /\ view s2 y = Some (WE (madd term_ltb k a e)).
Proof.
  intros P Nxy Nyt Nyq Vx Vt Sk Vq (r1 & _ & E1) (r2 & _ & E2). pose proof (inv_reach _ _ P) as I. rewrite vkey_eq in Sk. destruct (view_WE_env _ _ _ I Vx) as (o & m & Ex & Em & <-).
  cbn [exec] in E1. rewrite Ex in E1. injection E1 as <- <-. cbn [exec] in E2. cbn [s_env assign] in E2. rewrite upd_same in E2.
  assert (V' : forall z, y <> z -> view (assign y (VE o) s) z = view s z). { intros z N. unfold view. cbn [s_env assign]. rewrite upd_other by exact N. destruct (s_env s z); [cbn; now rewrite look_assign|reflexivity]. }
  rewrite !V' in E2 by assumption. rewrite Vt, Vq in E2. cbn [s_exprs assign] in E2. rewrite Em in E2. rewrite Sk in E2.
  assert (X : (add_in_place o k a m (assign y (VE o) s), Done) = (s2, o2)) by (destruct w; [discriminate|exact E2|exact E2|discriminate..]). injection X as <- <-.
  split; [reflexivity|]. split; [reflexivity|]. unfold view. cbn [s_env add_in_place assign]. rewrite (upd_other _ y x) by congruence. rewrite Ex, upd_same. cbn [option_map look s_exprs add_in_place assign].
  rewrite set_nth_same by exact (nth_lt _ _ _ Em). rewrite entries_nadd. now split.
Qed.
Lemma canon_alias st s x y e s' : pyreach st s -> view s x = Some (WE e) -> step st s (CCanon (Some y) x) s' Done ->
  exists r, canon_out st e [] (Ok r) /\ s_env s' y = s_env s' x /\ s_env s' x = s_env s x /\ view s' x = Some (WE r) /\ view s' y = Some (WE r).
Proof.
  intros P Vx (r & O & E). pose proof (inv_reach _ _ P) as I. cbn in O. specialize (O e Vx). destruct (view_WE_env _ _ _ I Vx) as (o & m & Ex & Em & <-).
  cbn [exec] in E. rewrite Ex in E. destruct r as [r| | |]; try discriminate. injection E as <-. exists r. split; [exact O|].
  assert (Ey : s_env (assign y (VE o) (replace o r s)) y = Some (VE o)) by (cbn; apply upd_same).
  assert (Ex' : s_env (assign y (VE o) (replace o r s)) x = Some (VE o)). { cbn. unfold upd. destruct (y =? x); [reflexivity|exact Ex]. }
  split; [congruence|]. split; [congruence|]. unfold view. rewrite Ey, Ex'. cbn [option_map look s_exprs replace assign]. rewrite set_nth_same by exact (nth_lt _ _ _ Em). rewrite entries_fresh. now split.
Qed.

(** The first round of a loop. *)
Lemma first_round st s x i t c o n k a m s1 s2 o1 o2 : inv s -> s_env s x = Some (VE o) -> nth_error (s_exprs s) o = Some ((n, (k, a)) :: m) -> NoDup [x; i; t; c] ->
  step st s (CIter i x) s1 o1 -> step st s1 (CNext t c i) s2 o2 ->
  o1 = Done /\ o2 = Yield k a /\ s_exprs s2 = s_exprs s /\ s_next s2 = s_next s /\ s_env s2 x = Some (VE o) /\ s_env s2 t = Some (VN o n) /\ s_env s2 c = Some (VC o n) /\
  exists j, s_env s2 i = Some (VI j) /\ nth_error (s_iters s2) j = Some (mkIO o (Some n) false).
Proof.
  intros I Ex Em ND (r1 & _ & E1) (r2 & _ & E2).
  assert (N : x <> i /\ x <> t /\ x <> c /\ i <> t /\ i <> c /\ t <> c).
  { repeat match goal with H : NoDup (_ :: _) |- _ => inversion H; clear H; subst end. cbn in *. intuition congruence. }
  destruct N as (N1 & N2 & N3 & N4 & N5 & N6). cbn [exec] in E1. rewrite Ex, Em in E1. injection E1 as <- <-. split; [reflexivity|].
  cbn [exec] in E2. cbn [s_env new_iter] in E2. rewrite upd_same in E2. cbn [s_iters s_exprs new_iter] in E2. rewrite nth_app_new in E2. cbn [io_expr] in E2. rewrite Em in E2.
  unfold rest in E2. cbn in E2. rewrite Nat.eqb_refl in E2. injection E2 as <- <-. split; [reflexivity|]. split; [reflexivity|]. split; [reflexivity|]. cbn.
  rewrite !(upd_other _ c) by congruence. rewrite !(upd_other _ t) by congruence. rewrite !upd_same. rewrite (upd_other _ i) by congruence. split; [exact Ex|]. split; [reflexivity|]. split; [reflexivity|].
  exists (length (s_iters s)). split; [rewrite !(upd_other _ c) by congruence; rewrite (upd_other _ t) by congruence; apply upd_same|]. apply set_nth_same. rewrite app_length. cbn. lia.
Qed.
Lemma contents_cons s o k a e : inv s -> contents s o = (k, a) :: e -> exists n m, nth_error (s_exprs s) o = Some ((n, (k, a)) :: m) /\ entries m = e.
Proof.
  intros I. unfold contents. destruct (nth_error (s_exprs s) o) as [m|] eqn:E; [|discriminate]. destruct m as [|[n x] m]; cbn; [discriminate|]. intros H. injection H as -> <-. now exists n, m.
Qed.
Lemma dead_next st s i j it m n t c s' q : s_env s i = Some (VI j) -> nth_error (s_iters s) j = Some it -> nth_error (s_exprs s) (io_expr it) = Some m -> io_pos it = Some n -> ~ In n (map fst m) ->
  step st s (CNext t c i) s' q -> q = Undef.
Proof. intros Ei Ej Em Ep N (r & _ & E). cbn [exec] in E. rewrite Ei, Ej, Em in E. unfold rest in E. rewrite Ep in E. apply from_None in N. rewrite N in E. destruct (io_first it); injection E as <- <-; reflexivity. Qed.
(** Canonicalizing in the loop. *)
Lemma canon_in_loop st s x i t c o k a e s1 s2 s3 s4 o1 o2 q t' c' : pyreach st s -> s_env s x = Some (VE o) -> contents s o = (k, a) :: e -> NoDup [x; i; t; c] ->
  step st s (CIter i x) s1 o1 -> step st s1 (CNext t c i) s2 o2 -> step st s2 (CCanon None x) s3 Done -> step st s3 (CNext t' c' i) s4 q -> q = Undef.
Proof.
  intros P Ex C ND S1 S2 (r & O & E) S4. pose proof (inv_reach _ _ P) as I. destruct (contents_cons _ _ _ _ _ I C) as (n & m & Em & _).
  destruct (first_round _ _ _ _ _ _ _ _ _ _ _ _ _ _ _ I Ex Em ND S1 S2) as (-> & -> & Ee & En & Ex2 & _ & _ & j & Ei & Ej).
  cbn [exec] in E. rewrite Ex2 in E. destruct r as [r| | |]; try discriminate. injection E as <-.
  eapply (dead_next st (replace o r s2) i j _ (fresh (s_next s2) r) n); [exact Ei|exact Ej| |reflexivity| |exact S4].
  - cbn. apply set_nth_same. rewrite Ee. exact (nth_lt _ _ _ Em).
  - intros J. rewrite fresh_ids in J. apply in_seq in J. destruct (i_nd s I _ _ Em) as [_ F]. rewrite Forall_forall in F. specialize (F n (or_introl eq_refl)). lia.
Qed.
(** Adding to the entry just delivered. *)
Lemma mfind_head k a (e : expression) : mfind term_ltb k ((k, a) :: e) = Some a.
Proof. cbn. now rewrite (swo_irrefl _ _ swo_term). Qed.
Lemma nset_head n' n k a b m : nset n' k b ((n, (k, a)) :: m) = (n, (k, b)) :: m.
Proof. cbn. now rewrite (swo_irrefl _ _ swo_term). Qed.
Lemma nerase_head n k a m : nerase k ((n, (k, a)) :: m) = m.
Proof. cbn. now rewrite (swo_irrefl _ _ swo_term). Qed.
Lemma add_in_loop st s x i t c d o k a e q s1 s2 s3 s4 o1 o2 o3 o4 : pyreach st s -> s_env s x = Some (VE o) -> contents s o = (k, a) :: e -> NoDup [x; i; t; c; d] -> rat_is0 q = false ->
  step st s (CIter i x) s1 o1 -> step st s1 (CNext t c i) s2 o2 -> step st s2 (CQ d q) s3 o3 -> step st s3 (CIaddP x t d) s4 o4 ->
  view s2 c = Some (WQ a) /\
  (rat_is0 (rat_add a q) = false -> view s4 c = Some (WQ (rat_add a q))) /\
  (rat_is0 (rat_add a q) = true -> (forall s5 w, step st s4 (CShow c) s5 w -> w = Undef) /\ (forall t' c' s5 w, step st s4 (CNext t' c' i) s5 w -> w = Undef)).
Proof.
  intros P Ex C ND Q0 S1 S2 (r3 & _ & E3) (r4 & _ & E4). pose proof (inv_reach _ _ P) as I. destruct (contents_cons _ _ _ _ _ I C) as (n & m & Em & _).
  assert (ND4 : NoDup [x; i; t; c]) by (apply (NoDup_remove_1 [x; i; t; c] [] d) in ND; exact ND).
  assert (N : x <> d /\ i <> d /\ t <> d /\ c <> d). { repeat match goal with H : NoDup (_ :: _) |- _ => inversion H; clear H; subst end. cbn in *. intuition congruence. }
  destruct N as (Nx & Ni & Nt & Nc).
  destruct (first_round _ _ _ _ _ _ _ _ _ _ _ _ _ _ _ I Ex Em ND4 S1 S2) as (-> & -> & Ee & En & Ex2 & Et & Ec & j & Ei & Ej).
  assert (L : o < length (s_exprs s2)) by (rewrite Ee; exact (nth_lt _ _ _ Em)). assert (Em2 : nth_error (s_exprs s2) o = Some ((n, (k, a)) :: m)) by (rewrite Ee; exact Em).
  split. { unfold view. rewrite Ec. cbn. rewrite Em2. cbn. now rewrite Nat.eqb_refl. }
  cbn [exec] in E3. injection E3 as <- <-. cbn [exec] in E4. cbn [s_env assign] in E4. rewrite (upd_other _ d x) in E4 by congruence. rewrite Ex2 in E4.
  unfold view in E4. cbn [s_env assign] in E4. rewrite (upd_other _ d t) in E4 by congruence. rewrite Et, upd_same in E4. cbn [option_map look s_exprs assign] in E4. rewrite Em2 in E4. cbn [node] in E4. rewrite Nat.eqb_refl in E4.
  cbn [fst symterm_of] in E4. injection E4 as <- <-.
  assert (NDm := proj1 (i_nd s I _ _ Em)). cbn in NDm. inversion NDm as [|? ? Nn _]; subst.
  assert (Ec4 : s_env (add_in_place o k q ((n, (k, a)) :: m) (assign d (VQ q) s2)) c = Some (VC o n)) by (cbn; rewrite upd_other by congruence; exact Ec).
  assert (Ei4 : s_env (add_in_place o k q ((n, (k, a)) :: m) (assign d (VQ q) s2)) i = Some (VI j)) by (cbn; rewrite upd_other by congruence; exact Ei).
  split.
  - intros Z. unfold view. rewrite Ec4. cbn [option_map look s_exprs add_in_place assign]. rewrite set_nth_same by exact L. unfold nadd. rewrite Q0. change (entries ((n, (k, a)) :: m)) with ((k, a) :: entries m). rewrite mfind_head. cbv zeta. rewrite Z, nset_head. cbn. now rewrite Nat.eqb_refl.
  - intros Z. assert (X : nadd (s_next s2) k q ((n, (k, a)) :: m) = m). { unfold nadd. rewrite Q0. change (entries ((n, (k, a)) :: m)) with ((k, a) :: entries m). rewrite mfind_head. cbv zeta. rewrite Z. apply nerase_head. }
    assert (Em4 : nth_error (s_exprs (add_in_place o k q ((n, (k, a)) :: m) (assign d (VQ q) s2))) o = Some m). { cbn [s_exprs add_in_place assign s_next]. rewrite X. now apply set_nth_same. }
    split.
    + intros s5 w (r5 & _ & E5). cbn [exec] in E5. unfold view in E5. rewrite Ec4 in E5. cbn [option_map look] in E5. rewrite Em4 in E5. apply node_None in Nn. rewrite Nn in E5. injection E5 as _ <-. reflexivity.
    + intros t' c' s5 w S5. exact (dead_next _ _ _ _ _ _ _ _ _ _ _ Ei4 Ej Em4 eq_refl Nn S5).
Qed.
