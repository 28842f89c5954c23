(** [contract] always has an outcome, and succeeds if there are at most 32 legs in each space. *)
From Coq Require Import Ascii ZArith List Bool Arith Lia Permutation.
From Verif Require Import Res PartitionsModel RegistryModel RegistryProofs CoreModel CombinatoricsModel SortSpec SortModel SortProofs AdjointModel AdjointProofs RationalModel AlgebraModel OperatorModel OperatorSpec OperatorProofs CanonModel CanonSpec CanonProofs CanonProofs2
  WickSearchModel WickSearchSpec WickElemProofs WickElemProofs2 WickCompProofs WickSearchProofs DecModel WickEvalModel CountSpec CountProofs WickCombSpec WickCombProofs WickGraphSpec WickGraphProofs WickGraphProofs2
  WickLegSpec WickLegProofs WickLegProofs2 WickLegProofs3 WickLegProofs4 WickLegProofs5 WickLegProofs6.
Import ListNotations.
Local Open Scope Z_scope.

Definition cnt (s : Z) (l : list leg) : nat := length (filter (fun x => leg_space x =? s) l).
Lemma cnt_app s l l' : cnt s (l ++ l') = (cnt s l + cnt s l')%nat.
Proof. unfold cnt. rewrite filter_app, app_length. reflexivity. Qed.
Lemma cnt_perm s l l' : Permutation l l' -> cnt s l = cnt s l'.
Proof. unfold cnt. intros H. induction H; cbn [filter]; [reflexivity| | |congruence]; repeat match goal with |- context [if ?b then _ else _] => destruct b end; cbn [length]; lia. Qed.
Lemma cnt_rev s l : cnt s (rev l) = cnt s l.
Proof. apply cnt_perm, Permutation_sym, Permutation_rev. Qed.
Definition icnt (s : Z) (l : list index) : nat := length (filter (fun i => isp i =? s) l).
Lemma icnt_app s l l' : icnt s (l ++ l') = (icnt s l + icnt s l')%nat.
Proof. unfold icnt. rewrite filter_app, app_length. reflexivity. Qed.
Lemma icnt_map s f l : (forall i, In i l -> isp (f i) = isp i) -> icnt s (map f l) = icnt s l.
Proof. unfold icnt. induction l as [|a l IH]; intros H; [reflexivity|]. cbn [map filter]. rewrite H by (left; auto). destruct (isp a =? s); cbn [length]; rewrite IH; auto; intros; apply H; right; auto. Qed.
Lemma icnt_legs s (ix : leg -> index) l : (forall x, In x l -> isp (ix x) = leg_space x) -> icnt s (map ix l) = cnt s l.
Proof. unfold icnt, cnt. induction l as [|a l IH]; intros H; [reflexivity|]. cbn [map filter]. rewrite H by (left; auto). destruct (leg_space a =? s); cbn [length]; rewrite IH; auto; intros; apply H; right; auto. Qed.
Lemma icnt_perm s l l' : Permutation l l' -> icnt s l = icnt s l'.
Proof. unfold icnt. intros H. induction H; cbn [filter]; [reflexivity| | |congruence]; repeat match goal with |- context [if ?b then _ else _] => destruct b end; cbn [length]; lia. Qed.

Section Eval.
  Context (st : osi) (maxc : Z) (ops : oprod) (cs : list econ) (t : term) (s : Z) (ix : leg -> index) (picks : list (list leg * list leg))
    (effects : list (index_map * list tensor * Z)) (rest : list leg).
  Hypothesis Hok : ops_ok st ops.
  Hypothesis HA : Forall (allowed st maxc ops) cs.
  Hypothesis EV : evaluation st ops cs t s ix picks effects rest.
  Let L := product_legs st ops.

  Lemma all_perm : Permutation L (flat_map (fun p => fst p ++ snd p) picks ++ rest).
  Proof. destruct (ev_rest _ _ _ _ _ _ _ _ _ EV) as (ps & Sp & _). eapply sperm_perm; eauto. Qed.
  Lemma pick_in p l : In p picks -> In l (fst p ++ snd p) -> In l L.
  Proof. intros Hp Hl. eapply Permutation_in; [apply Permutation_sym, all_perm|]. apply in_or_app. left. apply in_flat_map. eauto. Qed.
  Lemma rest_in_L l : In l rest -> In l L.
  Proof. intros Hl. eapply Permutation_in; [apply Permutation_sym, all_perm|]. apply in_or_app. auto. Qed.
  Lemma ix_space l : In l L -> isp (ix l) = leg_space l /\ is_space st (leg_space l).
  Proof.
    intros Hl. destruct (ev_labels _ _ _ _ _ _ _ _ _ EV) as (Hix & _). split; [apply Hix, Hl|].
    apply in_product in Hl. tauto.
  Qed.
  (** All legs of one contraction are in one space. *)
  Lemma allowed_space c : allowed st maxc ops c -> exists s, is_space st s /\ length c = length ops /\ only_space st c s.
  Proof. intros [s0 l r (S1 & _) S2 S3 _ _ _ _ _ _|s0 l r (S1 & _) S2 S3 _ _ _ _ _ _|s0 k (S1 & _) S2 S3 _ _ _ _ _ _]; eauto. Qed.
  Lemma one_space c p : In p picks -> allowed st maxc ops c -> carries_out st (length ops) (fst p ++ snd p) c -> forall l l', In l (fst p ++ snd p) -> In l' (fst p ++ snd p) -> leg_space l = leg_space l'.
  Proof.
    intros Hp Ha C. destruct (allowed_space c Ha) as (s0 & Hs & Hl & Ho). assert (G : forall l, In l (fst p ++ snd p) -> leg_space l = s0).
    { intros l Hin. destruct (Z.eq_dec (leg_space l) s0) as [|N]; auto. exfalso. assert (HL := pick_in p l Hp Hin). apply in_product in HL. destruct HL as (L1 & L2 & L3).
      destruct l as [[[A sp] b] i]. cbn [leg_space leg_op fst snd] in *. unfold leg_space, leg_op in *. cbn [fst snd] in *.
      assert (K : In (A, sp, b) (kinds st (length ops))) by (apply kinds_in; split; auto). specialize (C _ K). assert (X : (0 < count_occ kind_dec (map fst (fst p ++ snd p)) (A, sp, b))%nat).
      { apply count_occ_In. apply in_map_iff. exists ((A, sp, b), i). auto. }
      destruct (Ho A sp ltac:(lia) L2 N) as (O1 & O2). unfold ec_count in C. destruct b; lia. }
    intros l l' H1 H2. rewrite (G l H1), (G l' H2). reflexivity.
  Qed.
  Lemma effects_facts : forall e, In e effects -> exists p, In p picks /\ contribution st L ix (fst p) (snd p) e /\
    forall l l', In l (fst p ++ snd p) -> In l' (fst p ++ snd p) -> leg_space l = leg_space l'.
  Proof.
    assert (P := ev_picks _ _ _ _ _ _ _ _ _ EV). assert (E := ev_effects _ _ _ _ _ _ _ _ _ EV).
    assert (Sp : forall p, In p picks -> forall l l', In l (fst p ++ snd p) -> In l' (fst p ++ snd p) -> leg_space l = leg_space l').
    { intros p Hp. assert (X : exists c, In c cs /\ carries_out st (length ops) (fst p ++ snd p) c).
      { clear - P Hp. induction P as [|p0 c picks cs (C & _) P IH]; [destruct Hp|]. destruct Hp as [<-|Hp]; [exists c; split; [left; auto|auto]|]. destruct (IH Hp) as (c' & X & Y). exists c'. split; [right|]; auto. }
      destruct X as (c & Hc & C). rewrite Forall_forall in HA. apply (one_space c p Hp (HA c Hc) C). }
    intros e He. assert (X : exists p, In p picks /\ contribution st L ix (fst p) (snd p) e).
    { clear - E He. induction E as [|p e0 picks effects C E IH]; [destruct He|]. destruct He as [<-|He]; [exists p; split; [left; auto|auto]|]. destruct (IH He) as (p' & X & Y). exists p'. split; [right|]; auto. }
    destruct X as (p & Hp & C). exists p. split; [exact Hp|]. split; [exact C|exact (Sp p Hp)].
  Qed.
  Let m : index_map := flat_map (fun e => fst (fst e)) effects.
  Lemma map_spaces a b : In (a, b) m -> isp b = isp a.
  Proof.
    intros H. apply in_flat_map in H. destruct H as (e & He & H). destruct (effects_facts e He) as (p & Hp & C & Sp).
    destruct p as [pc pa]. cbn [fst snd] in *. assert (P1 := fun l => pick_in (pc, pa) l Hp). cbn [fst snd] in P1.
    inversion C; subst; cbn [fst snd] in H; try contradiction; destruct H as [H|[]]; try (injection H as <- <-).
    all: rewrite (proj1 (ix_space p (P1 p ltac:(simpl; auto)))), (proj1 (ix_space q (P1 q ltac:(simpl; auto)))); apply Sp; simpl; auto.
  Qed.
  Lemma reindex_same i : isp (reindex m i) = isp i.
  Proof. unfold reindex. destruct (imfind i m) as [j|] eqn:E; [|reflexivity]. apply map_spaces, imfind_some, E. Qed.

  Lemma t_shape : t = term_reindex m (mkTerm false (map (leg_sqop ix) rest) (map (op_tensor st ops ix) (seq 0 (length ops)) ++ flat_map (fun e => snd (fst e)) effects)).
  Proof. exact (ev_term _ _ _ _ _ _ _ _ _ EV). Qed.
  (** The index slots of the tensors, before the substitution. *)
  Definition slots (ts : list tensor) : list index := concat (map (fun d => t_lower d ++ t_upper d) ts).
  Lemma slots_app a b : slots (a ++ b) = slots a ++ slots b.
  Proof. unfold slots. rewrite map_app, concat_app. reflexivity. Qed.
  Lemma op_slots n : (n <= length ops)%nat -> Permutation (slots (map (op_tensor st ops ix) (seq 0 n))) (map ix (legs_upto st ops n)).
  Proof.
    induction n as [|n IH]; intros Hn; [reflexivity|]. rewrite upto_S, seq_S, map_app, slots_app, map_app. cbn [map plus]. apply Permutation_app; [apply IH; lia|].
    unfold slots. cbn [map concat op_tensor t_lower t_upper]. rewrite app_nil_r, map_app. apply Permutation_app_head. apply Permutation_map, Permutation_rev.
  Qed.
  Lemma contribution_slots sp pc pa e : contribution st L ix pc pa e -> (forall l, In l (pc ++ pa) -> In l L) -> (icnt sp (slots (snd (fst e))) <= cnt sp (pc ++ pa))%nat.
  Proof.
    intros C H. assert (G : icnt sp (map ix (pc ++ pa)) = cnt sp (pc ++ pa)) by (apply icnt_legs; intros x Hx; apply ix_space, H, Hx).
    inversion C; subst; cbn [fst snd]; unfold slots; cbn [map concat t_lower t_upper]; try (unfold icnt; cbn [filter length]; lia).
    - rewrite <- G. apply Nat.eq_le_incl, icnt_perm. rewrite app_nil_r. apply perm_swap.
    - rewrite <- G. apply Nat.eq_le_incl, icnt_perm. rewrite app_nil_r. apply perm_swap.
    - rewrite <- G. apply Nat.eq_le_incl, icnt_perm. rewrite app_nil_r, map_app. etransitivity; [apply Permutation_app_comm|]. apply Permutation_app_head, Permutation_sym, Permutation_rev.
  Qed.
  Lemma effect_slots sp : (icnt sp (slots (flat_map (fun e => snd (fst e)) effects)) <= cnt sp (flat_map (fun p => fst p ++ snd p) picks))%nat.
  Proof.
    assert (E := ev_effects _ _ _ _ _ _ _ _ _ EV). assert (H : forall p l, In p picks -> In l (fst p ++ snd p) -> In l L) by exact pick_in.
    clear - E H EV. assert (C := fun pc pa e => contribution_slots sp pc pa e). clear EV. induction E as [|p e picks' effects' Cp E IH]; [cbn; lia|]. cbn [flat_map]. rewrite slots_app, icnt_app, cnt_app.
    specialize (C (fst p) (snd p) e Cp (fun l Hl => H p l (or_introl eq_refl) Hl)) as C1. specialize (IH (fun p l Hp Hl => H p l (or_intror Hp) Hl)). unfold L in *. lia.
  Qed.
  Lemma icnt_reindex sp ts : icnt sp (slots (map (tensor_reindex m) ts)) = icnt sp (slots ts).
  Proof.
    induction ts as [|d ts IH]; [reflexivity|]. unfold slots in *. cbn [map concat tensor_reindex t_lower t_upper]. rewrite !icnt_app, IH, !icnt_map by (intros; apply reindex_same). reflexivity.
  Qed.
  Lemma slots_bound sp : (slots_in_space t sp <= 2 * cnt sp L)%nat.
  Proof.
    unfold slots_in_space, ops_in_space. rewrite t_shape. unfold term_reindex. cbn [tm_ops tm_tens].
    assert (E : length (filter (fun o => s_space o =? sp) (map (sqop_reindex m) (map (leg_sqop ix) rest))) = cnt sp rest).
    { assert (H := rest_in_L). revert H. unfold cnt. generalize rest as r0. intros r0. induction r0 as [|l r IH]; intros H; [reflexivity|]. cbn [map filter]. replace (s_space (sqop_reindex m (leg_sqop ix l))) with (leg_space l) by (unfold s_space, sqop_reindex, leg_sqop; cbn [s_idx s_cre]; rewrite reindex_same; symmetry; apply ix_space, H; left; auto). destruct (leg_space l =? sp); cbn [length]; rewrite IH; auto; intros; apply H; right; auto. }
    rewrite E. fold (slots (map (tensor_reindex m) (map (op_tensor st ops ix) (seq 0 (length ops)) ++ flat_map (fun e => snd (fst e)) effects))). fold (icnt sp (slots (map (tensor_reindex m) (map (op_tensor st ops ix) (seq 0 (length ops)) ++ flat_map (fun e => snd (fst e)) effects)))).
    rewrite icnt_reindex, slots_app, icnt_app. rewrite (icnt_perm _ _ _ (op_slots (length ops) (le_n _))). change (legs_upto st ops (length ops)) with L.
    rewrite icnt_legs by (intros x Hx; apply ix_space, Hx). assert (Es := effect_slots sp). assert (P := cnt_perm sp _ _ all_perm). rewrite cnt_app in P. lia.
  Qed.
  Lemma reindex_space_ok i : is_space st (isp i) -> is_space st (isp (reindex m i)).
  Proof. rewrite reindex_same. auto. Qed.
  Lemma contribution_in pc pa e d i : contribution st L ix pc pa e -> In d (snd (fst e)) -> In i (t_lower d ++ t_upper d) -> In i (map ix (pc ++ pa)) /\ t_sym d = Antisymmetric.
  Proof.
    intros C Hd Hi. inversion C; subst; cbn [fst snd] in Hd; try contradiction; destruct Hd as [<-|[]]; cbn [t_lower t_upper t_sym] in *; split; auto; rewrite map_app; apply in_app_or in Hi; apply in_or_app; cbn [map] in *.
    - simpl in *; tauto.
    - simpl in *; tauto.
    - rewrite <- in_rev in Hi. tauto.
  Qed.
  Lemma eval_spaces : term_spaces st t.
  Proof.
    rewrite t_shape. intros i [(o & Ho & <-)|(d & Hd & Hi)].
    - cbn [term_reindex tm_ops] in Ho. rewrite map_map in Ho. apply in_map_iff in Ho. destruct Ho as (l & <- & Hl). apply reindex_space_ok. destruct (ix_space l (rest_in_L l Hl)) as (E & Hs). cbn [leg_sqop s_idx]. rewrite E. exact Hs.
    - cbn [term_reindex tm_tens] in Hd. apply in_map_iff in Hd. destruct Hd as (d0 & <- & Hd). assert (X : exists j, In j (t_lower d0 ++ t_upper d0) /\ i = reindex m j).
      { cbn [tensor_reindex t_lower t_upper] in Hi. destruct Hi as [Hi|Hi]; apply in_map_iff in Hi; destruct Hi as (j & <- & Hj); exists j; split; auto; apply in_or_app; auto. }
      destruct X as (j & Hj & ->). apply reindex_space_ok. assert (G : forall l, In l L -> is_space st (isp (ix l))) by (intros l Hl; destruct (ix_space l Hl) as (-> & ?); auto).
      cbn [tm_tens] in Hd. apply in_app_or in Hd. destruct Hd as [Hd|Hd].
      + apply in_map_iff in Hd. destruct Hd as (A & <- & HA0). apply in_seq in HA0. cbn [op_tensor t_lower t_upper] in Hj. rewrite <- map_app in Hj. apply in_map_iff in Hj. destruct Hj as (l & <- & Hl). apply G. unfold L, product_legs.
        apply in_flat_map. exists A. split; [apply in_seq; lia|]. apply in_app_or in Hl. apply in_or_app. rewrite <- in_rev. tauto.
      + apply in_flat_map in Hd. destruct Hd as (e & He & Hd). destruct (effects_facts e He) as (p & Hp & C & _). destruct (contribution_in _ _ _ _ j C Hd Hj) as (Hm & _). apply in_map_iff in Hm. destruct Hm as (l & <- & Hl). apply G. eapply pick_in; eauto.
  Qed.
  Lemma eval_antisym : existsb (fun d => match t_sym d with Nonsymmetric => true | _ => false end) (tm_tens t) = false.
  Proof.
    destruct (existsb _ _) eqn:E; [|reflexivity]. apply existsb_exists in E. destruct E as (d & Hd & E). exfalso. revert E. assert (X : t_sym d = Antisymmetric); [|rewrite X; discriminate].
    rewrite t_shape in Hd. cbn [term_reindex tm_tens] in Hd. apply in_map_iff in Hd. destruct Hd as (d0 & <- & Hd). cbn [tensor_reindex t_sym]. apply in_app_or in Hd. destruct Hd as [Hd|Hd].
    - apply in_map_iff in Hd. destruct Hd as (A & <- & _). reflexivity.
    - apply in_flat_map in Hd. destruct Hd as (e & He & Hd). destruct (effects_facts e He) as (p & Hp & C & _). inversion C; subst; cbn [fst snd] in *; try match goal with Q : _ = e |- _ => subst e end; cbn [fst snd] in *; try contradiction; destruct Hd as [<-|[]]; reflexivity.
  Qed.
End Eval.

(** ** The number of legs of a space *)
Definition legs_in_space (ops : oprod) (s : Z) : Z := total (length ops) (fun A => ops_cre ops A s + ops_ann ops A s).
Lemma cnt_space_list (f : Z -> list leg) (n : Z -> Z) (s : Z) (l : list Z) : (forall x y, In y (f x) -> leg_space y = x) -> (forall x, length (f x) = Z.to_nat (n x)) -> NoDup l ->
  cnt s (flat_map f l) = if in_dec Z.eq_dec s l then Z.to_nat (n s) else O.
Proof.
  intros Hf Hn. induction l as [|x l IH]; intros N; [reflexivity|]. inversion N as [|? ? Nx N']; subst. cbn [flat_map]. rewrite cnt_app, IH by auto.
  assert (E : cnt s (f x) = if Z.eq_dec s x then Z.to_nat (n x) else O).
  { unfold cnt. rewrite <- Hn. specialize (Hf x). induction (f x) as [|y ys IHy]; [destruct (Z.eq_dec s x); reflexivity|]. cbn [filter]. rewrite Hf by (left; auto). rewrite Z.eqb_sym. destruct (Z.eq_dec s x) as [->|Ne].
    - rewrite Z.eqb_refl. cbn [length]. f_equal. apply IHy. intros; apply Hf; right; auto.
    - apply Z.eqb_neq in Ne. rewrite Ne. apply IHy. intros; apply Hf; right; auto. }
  rewrite E. destruct (Z.eq_dec s x) as [->|Ne].
  - destruct (in_dec Z.eq_dec x l); [tauto|]. destruct (in_dec Z.eq_dec x (x :: l)) as [|X]; [lia|exfalso; apply X; left; auto].
  - destruct (in_dec Z.eq_dec s l) as [i|i], (in_dec Z.eq_dec s (x :: l)) as [j|j]; try lia; exfalso; [apply j; right; auto|destruct j; [congruence|tauto]].
Qed.
Lemma range_len n : length (range n) = Z.to_nat n.
Proof. unfold range. rewrite map_length, seq_length. reflexivity. Qed.
Lemma cnt_legs st ops s : is_space st s -> (forall A, (A < length ops)%nat -> 0 <= ops_cre ops A s /\ 0 <= ops_ann ops A s) -> Z.of_nat (cnt s (product_legs st ops)) = legs_in_space ops s.
Proof.
  intros Hs. unfold legs_in_space. change (product_legs st ops) with (legs_upto st ops (length ops)). generalize (length ops) as n. induction n as [|n IH]; intros Hp; [reflexivity|].
  rewrite upto_S, !cnt_app, cnt_rev. cbn [total]. rewrite !Nat2Z.inj_add, IH by auto. destruct (Hp n ltac:(lia)) as (P1 & P2). f_equal. unfold op_cre_legs, op_ann_legs.
  rewrite (cnt_space_list _ (fun x => ops_cre ops n x)), (cnt_space_list _ (fun x => ops_ann ops n x)).
  - destruct (in_dec Z.eq_dec s (range (num_spaces st))) as [i|i]; [lia|exfalso; apply i, range_in; exact Hs].
  - intros x y Hy. apply in_map_iff in Hy. destruct Hy as (i & <- & _). reflexivity.
  - intros x. rewrite map_length, range_len. reflexivity.
  - apply range_nodup.
  - intros x y Hy. apply in_map_iff in Hy. destruct Hy as (i & <- & _). reflexivity.
  - intros x. rewrite map_length, range_len. reflexivity.
  - apply range_nodup.
Qed.
Lemma ops_nonneg st ops s A : ops_ok st ops -> is_space st s -> (A < length ops)%nat -> 0 <= ops_cre ops A s /\ 0 <= ops_ann ops A s.
Proof.
  intros (_ & F) Hs HA. rewrite Forall_forall in F. destruct (F _ (nth_In ops (mkOp [] gm_zero) HA)) as (_ & N). exact (N s Hs).
Qed.
Lemma graph_legs o st ops cs ops' cs' sg s : ops_ok st ops -> graph_choice o st ops cs (ops', cs', sg) -> legs_in_space ops' s = legs_in_space ops s.
Proof.
  intros Hok H. unfold graph_choice in H. destruct (wt_canonicalize o); [|injection H as -> -> ->; auto].
  destruct (canon_spec _ _ _ _ _ _ Hok H) as (p & q & P & Q & J & -> & -> & _ & _). unfold legs_in_space. assert (Ln : length (pick_ops ops p) = length ops) by (apply pick_ops_length; auto). rewrite Ln.
  rewrite <- (total_perm (length ops) p (fun A => ops_cre ops A s + ops_ann ops A s)) by auto. apply total_ext. intros i Hi. unfold ops_cre, ops_ann. rewrite (pick_op ops p P) by auto. reflexivity.
Qed.
Lemma graph_exists o st ops cs : exists r, graph_choice o st ops cs r.
Proof. unfold graph_choice. destruct (wt_canonicalize o); [apply canon_exists|eauto]. Qed.

(** ** More iterations do not change a result *)
Definition fle {A} (r r' : res A) : Prop := r = NoFuel \/ r' = r.
Lemma fle_refl {A} (r : res A) : fle r r. Proof. right; auto. Qed.
Lemma fle_bind {A B} (r r' : res A) (f g : A -> res B) : fle r r' -> (forall a, fle (f a) (g a)) -> fle (bind r f) (bind r' g).
Proof. intros [->| ->] H; [left; reflexivity|]. destruct r; cbn [bind]; auto using fle_refl. Qed.
Lemma fle_foldM {S A} (f g : S -> A -> res S) l : (forall s a, fle (f s a) (g s a)) -> forall s, fle (foldM f s l) (foldM g s l).
Proof. intros H. induction l as [|a l IH]; intros s; cbn [foldM]; [apply fle_refl|]. apply fle_bind; auto. Qed.
Lemma fle_inner f : forall f', (f <= f')%nat -> forall x m j, fle (zs2_inner f x m j) (zs2_inner f' x m j).
Proof.
  induction f as [|f IH]; intros f' H x m j; [left; reflexivity|]. destruct f' as [|f']; [lia|]. cbn [zs2_inner]. apply fle_bind; [apply fle_refl|]. intros a. apply fle_bind; [apply fle_refl|]. intros b. destruct (a =? b); [|apply fle_refl].
  apply fle_bind; [apply fle_refl|]. intros c. apply IH. lia.
Qed.
Lemma fle_step f f' : (f <= f')%nat -> forall x h m, fle (zs2_step f x h m) (zs2_step f' x h m).
Proof. intros H x h m. unfold zs2_step. destruct (1 <? m - h); [apply fle_refl|]. apply fle_bind; [apply fle_inner, H|]. intros [x1 j]. apply fle_refl. Qed.
Lemma fle_loop f : forall f', (f <= f')%nat -> forall n ml x h m acc, fle (zs2_loop f n ml x h m acc) (zs2_loop f' n ml x h m acc).
Proof.
  induction f as [|f IH]; intros f' H n ml x h m acc; [left; reflexivity|]. destruct f' as [|f']; [lia|]. cbn [zs2_loop]. apply fle_bind; [apply fle_refl|]. intros a. destruct (a =? n); [apply fle_refl|].
  apply fle_bind; [apply fle_step, H|]. intros [[x' h'] m']. apply fle_bind; [apply fle_refl|]. intros acc'. apply IH. lia.
Qed.
Lemma fle_elementary f f' st maxc ops : (f <= f')%nat -> fle (elementary_contractions f st maxc ops) (elementary_contractions f' st maxc ops).
Proof.
  intros H. unfold elementary_contractions. apply fle_foldM. intros v s. destruct (stype st s) as [[| |]|]; try apply fle_refl. apply fle_bind; [|intros; apply fle_refl]. unfold elementary_general. apply fle_foldM. intros v' k.
  assert (LV : forall n k c, fle (legs_vec f n k c) (legs_vec f' n k c)).
  { intros n k' c. unfold legs_vec. apply fle_bind; [|intros; apply fle_refl]. unfold integer_partitions. destruct (1 <? k'); [|apply fle_refl]. cbv zeta. do 4 (apply fle_bind; [apply fle_refl|]; intros ?). apply fle_loop, H. }
  apply fle_bind; [|intros; apply fle_refl]. unfold general_legs. apply fle_bind; [apply LV|]. intros cv. apply fle_bind; [apply LV|]. intros; apply fle_refl.
Qed.
Lemma elementary_Ok fuel st maxc ops : ops_ok st ops -> elementary_contractions fuel st maxc ops = NoFuel \/ exists els, elementary_contractions fuel st maxc ops = Ok els.
Proof.
  intros Hok. destruct (elementary_exact st maxc ops Hok) as (els & f0 & E & _). destruct (fle_elementary fuel (Nat.max fuel f0) st maxc ops (Nat.le_max_l _ _)) as [X|X]; auto. right. exists els. rewrite <- X. apply E. lia.
Qed.

Section Run.
  Context (o : wt_opts) (st : osi) (factor : rational) (ops : oprod) (minrank maxrank : Z).
  Hypothesis Hok : ops_ok st ops.
  Lemma single_defined fuel els cvs cv : search fuel o st ops minrank maxrank = Ok (els, cvs) -> In cv cvs -> exists r, process_single o st els ops factor minrank maxrank cv r.
  Proof.
    intros E Hcv. unfold process_single. cbn zeta. destruct ((minrank <=? ops_rank ops - con_rank els cv) && (ops_rank ops - con_rank els cv <=? maxrank)); [|eauto].
    destruct (graph_exists o st ops (map (fun c => nth (Z.to_nat c) els []) cv)) as ([[bops bcs] sg] & G).
    destruct (generated_ok _ _ _ _ _ _ _ _ _ Hok E Hcv) as (HA & En). destruct (graph_allowed _ _ _ _ _ _ _ _ Hok HA En G) as (Hok' & HA' & En').
    destruct (evaluate_ok st (wt_maxcumulant o) bops bcs (rat_mul factor (rat_of_Z sg)) Hok' HA' En') as (t & s & ix & picks & effects & rest & Ev & EV).
    assert (Sp := eval_spaces st (wt_maxcumulant o) bops bcs t s ix picks effects rest HA' EV).
    assert (X : exists canon, term_canonicalize st t canon) by (destruct (sorted_tensors_ex st t Sp) as (ts & S); exists (canonicalize_from st t ts), ts; auto).
    destruct X as (canon & C). eexists. exists bops, bcs, sg, canon. split; [exact G|]. split; [|reflexivity]. intros t' f Et. rewrite Ev in Et. injection Et as <- <-. exact C.
  Qed.
  Lemma single_succeeds fuel els cvs cv r : (forall s, is_space st s -> legs_in_space ops s <= 32) -> search fuel o st ops minrank maxrank = Ok (els, cvs) -> In cv cvs ->
    process_single o st els ops factor minrank maxrank cv r -> exists l, r = Ok l.
  Proof.
    intros B E Hcv H. unfold process_single in H. cbn zeta in H. destruct ((minrank <=? ops_rank ops - con_rank els cv) && (ops_rank ops - con_rank els cv <=? maxrank)); [|eauto].
    destruct H as (bops & bcs & sg & canon & G & C & ->).
    destruct (generated_ok _ _ _ _ _ _ _ _ _ Hok E Hcv) as (HA & En). destruct (graph_allowed _ _ _ _ _ _ _ _ Hok HA En G) as (Hok' & HA' & En').
    destruct (evaluate_ok st (wt_maxcumulant o) bops bcs (rat_mul factor (rat_of_Z sg)) Hok' HA' En') as (t & s & ix & picks & effects & rest & Ev & EV).
    assert (Sp := eval_spaces st (wt_maxcumulant o) bops bcs t s ix picks effects rest HA' EV). rewrite Ev. cbn [bind]. specialize (C _ _ Ev).
    assert (Bd : forall sp, 0 <= sp < num_spaces st -> (slots_in_space t sp <= 64)%nat).
    { intros sp Hsp. assert (X := slots_bound st (wt_maxcumulant o) bops bcs t s ix picks effects rest HA' EV sp). assert (Y := cnt_legs st bops sp Hsp (fun A => ops_nonneg st bops sp A Hok' Hsp)). rewrite (graph_legs _ _ _ _ _ _ _ sp Hok G) in Y. specialize (B sp Hsp). lia. }
    assert (Z := proj2 (canon_total st t Sp Bd) canon C). rewrite (eval_antisym st (wt_maxcumulant o) bops bcs t s ix picks effects rest HA' EV) in Z. destruct Z as (t' & s' & ->). cbn [bind]. eauto.
  Qed.
  Lemma spaces_8 : (8 <? num_spaces st) = false.
  Proof. destruct Hok as (H & _). apply Z.ltb_ge. unfold num_spaces. change (length (space_info st)) with (nsp st). unfold max_spaces in H. lia. Qed.
  Lemma search_defined : exists fuel, search fuel o st ops minrank maxrank = UB \/ exists els cvs, search fuel o st ops minrank maxrank = Ok (els, cvs).
  Proof.
    destruct (elementary_exact st (wt_maxcumulant o) ops Hok) as (els & f0 & E & _). exists f0. unfold search. rewrite spaces_8, E by auto. cbn [bind].
    destruct (search_spec st ops els minrank maxrank Hok (els_ok f0 st (wt_maxcumulant o) ops els Hok (E f0 (le_n _))) 101 (le_n _)) as [(cvs & -> & _)|(-> & _)]; cbn [bind]; eauto.
  Qed.
  Lemma process_defined fuel els cvs : search fuel o st ops minrank maxrank = Ok (els, cvs) -> exists r, process_contractions o st els cvs ops factor minrank maxrank r.
  Proof.
    intros E. assert (X : exists rs, Forall2 (process_single o st els ops factor minrank maxrank) cvs rs); [|destruct X as (rs & F); exists (foldM add_outcome [] rs), rs; auto].
    assert (G : forall l, incl l cvs -> exists rs, Forall2 (process_single o st els ops factor minrank maxrank) l rs); [|apply G, incl_refl].
    induction l as [|cv l IH]; intros Hi; [exists []; constructor|]. destruct IH as (rs & F); [intros x Hx; apply Hi; right; auto|]. destruct (single_defined fuel els cvs cv E) as (r & R); [apply Hi; left; auto|]. exists (r :: rs). constructor; auto.
  Qed.
  Lemma contract_defined : exists r, contract o st factor ops minrank maxrank r.
  Proof.
    destruct search_defined as (fuel & [E|(els & cvs & E)]).
    - exists UB, fuel. unfold contract_run. rewrite E. split; [reflexivity|discriminate].
    - destruct (process_defined fuel els cvs E) as (r & R). exists r, fuel. unfold contract_run. rewrite E. split; [exact R|discriminate].
  Qed.
  Lemma contract_succeeds r : (forall s, is_space st s -> legs_in_space ops s <= 32) -> fold_left (fun a op => a + op_num op) ops 0 <= 201 ->
    contract o st factor ops minrank maxrank r -> exists e, r = Ok e.
  Proof.
    intros B B2 (fuel & R & N). unfold contract_run in R. unfold search in *. rewrite spaces_8 in *.
    destruct (elementary_Ok fuel st (wt_maxcumulant o) ops Hok) as [E|(els & E)]; rewrite E in R, N; cbn [bind] in R, N; [congruence|].
    destruct (search_201 fuel st (wt_maxcumulant o) ops els minrank maxrank Hok E 101 (le_n _) B2) as (cvs & Ec). assert (Es : search fuel o st ops minrank maxrank = Ok (els, cvs)) by (unfold search; rewrite spaces_8, E; cbn [bind]; rewrite Ec; reflexivity).
      rewrite Ec in R. cbn [bind] in R. destruct R as (rs & F & ->). assert (G : Forall (fun r => exists l, r = Ok l) rs).
      { assert (X : forall cv r, In cv cvs -> process_single o st els ops factor minrank maxrank cv r -> exists l, r = Ok l) by (intros; eapply single_succeeds; eauto). clear - F X. induction F; constructor; [eapply X; [left; reflexivity|eauto]|apply IHF; intros; eapply X; [right|]; eauto]. }
      clear - G. generalize (@nil (term * rational)). induction G as [|r rs (l & ->) G IH]; intros acc; cbn [foldM]; [eauto|]. unfold add_outcome at 1. cbn [bind]. apply IH.
  Qed.
End Run.
Lemma search_nodup fuel o st ops minrank maxrank els cvs : ops_ok st ops -> search fuel o st ops minrank maxrank = Ok (els, cvs) -> NoDup cvs.
Proof.
  intros Hok E. unfold search in E. destruct (8 <? num_spaces st); [discriminate|]. destruct (elementary_contractions fuel st (wt_maxcumulant o) ops) as [els'| | |] eqn:E1; try discriminate. cbn [bind] in E.
  destruct (composite_contractions 101 st els' ops minrank maxrank) as [[L x]| | |] eqn:E2; try discriminate. cbn [bind] in E. injection E as -> ->.
  destruct (search_spec st ops els minrank maxrank Hok (els_ok fuel st (wt_maxcumulant o) ops els Hok E1) 101 (le_n _)) as [(L' & E3 & N & _)|(E3 & _)]; [|congruence].
  rewrite E2 in E3. injection E3 as <- _. exact N.
Qed.
