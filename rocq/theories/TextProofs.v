From Coq Require Import ZArith List Bool Ascii Lia Arith.
From Verif Require Import Res PartitionsModel RegistryModel RegistryProofs CoreModel RationalModel RationalSpec RationalProofs DecModel TextModel TextSpec.
Import ListNotations.
Local Open Scope Z_scope.

(** ** Decimal strings *)
Lemma digit_ok d : 0 <= d <= 9 -> is_digit (digit d) = true /\ digit_val (digit d) = d.
Proof. intros H. assert (d = 0 \/ d = 1 \/ d = 2 \/ d = 3 \/ d = 4 \/ d = 5 \/ d = 6 \/ d = 7 \/ d = 8 \/ d = 9) as X by lia. repeat (destruct X as [->|X]; [split; reflexivity|]). subst. split; reflexivity. Qed.
Lemma dec_value_app a b : dec_value (a ++ b) = fold_left (fun a c => 10 * a + digit_val c) b (dec_value a).
Proof. unfold dec_value. rewrite fold_left_app. reflexivity. Qed.
Lemma digits_ok f : forall n, 0 <= n -> (Z.to_nat n < f)%nat \/ (Z.to_nat n = f /\ (0 < f)%nat) -> digits f n <> [] /\ all_of is_digit (digits f n) /\ dec_value (digits f n) = n.
Proof.
  induction f as [|f IH]; intros n Hn Hf; [lia|]. cbn [digits]. destruct (Z.ltb_spec n 10) as [L|L].
  - destruct (digit_ok n) as (A & B); [lia|]. split; [discriminate|]. split; [constructor; [exact A|constructor]|]. unfold dec_value. cbn [fold_left]. lia.
  - assert (D : 0 <= n mod 10 < 10) by (apply Z.mod_pos_bound; lia). assert (Q : n = 10 * (n / 10) + n mod 10) by (apply Z.div_mod; lia).
    destruct (IH (n / 10)) as (A & B & C); [apply Z.div_pos; lia|left; lia|]. destruct (digit_ok (n mod 10)) as (E & F); [lia|]. split; [destruct (digits f (n / 10)); discriminate|].
    split; [apply Forall_app; split; [exact B|constructor; [exact E|constructor]]|]. rewrite dec_value_app. cbn [fold_left]. rewrite C, F. lia.
Qed.
Lemma dec_pos n : 0 <= n -> dec_text n <> [] /\ all_of is_digit (dec_text n) /\ dec_value (dec_text n) = n.
Proof. intros H. unfold dec_text. destruct (Z.ltb_spec n 0); [lia|]. apply digits_ok; [lia|left; lia]. Qed.
Lemma dec_neg n : n < 0 -> dec_text n = "-"%char :: dec_text (- n).
Proof.
  intros H. unfold dec_text at 1. destruct (Z.ltb_spec n 0); [|lia]. f_equal. unfold dec_text. destruct (Z.ltb_spec (- n) 0); [lia|].
  assert (G : forall f f' m, 0 <= m -> (Z.to_nat m < f \/ (Z.to_nat m = f /\ (0 < f)))%nat -> (Z.to_nat m < f' \/ (Z.to_nat m = f' /\ (0 < f')))%nat -> digits f m = digits f' m); [|apply G; lia].
  clear. induction f as [|f IH]; intros f' m Hm H1 H2; [lia|]. destruct f' as [|f']; [lia|]. cbn [digits]. destruct (Z.ltb_spec m 10); [reflexivity|]. f_equal.
  assert (Q : m = 10 * (m / 10) + m mod 10) by (apply Z.div_mod; lia). assert (D : 0 <= m mod 10 < 10) by (apply Z.mod_pos_bound; lia). apply IH; lia.
Qed.
Lemma dec_inj n m : dec_text n = dec_text m -> n = m.
Proof.
  assert (H : forall n, 0 <= n -> hd zero (dec_text n) <> "-"%char).
  { intros k Hk. destruct (dec_pos k Hk) as (A & B & _). destruct (dec_text k) as [|c l]; [tauto|]. inversion B; subst. cbn [hd]. intros ->. discriminate. }
  intros E. destruct (Z.neg_nonneg_cases n) as [Hn|Hn], (Z.neg_nonneg_cases m) as [Hm|Hm].
  - rewrite (dec_neg n), (dec_neg m) in E by lia. injection E as E. assert (X := f_equal dec_value E). rewrite (proj2 (proj2 (dec_pos (- n) ltac:(lia)))), (proj2 (proj2 (dec_pos (- m) ltac:(lia)))) in X. lia.
  - rewrite (dec_neg n) in E by lia. exfalso. apply (H m Hm). rewrite <- E. reflexivity.
  - rewrite (dec_neg m) in E by lia. exfalso. apply (H n Hn). rewrite E. reflexivity.
  - assert (X := f_equal dec_value E). rewrite (proj2 (proj2 (dec_pos n Hn))), (proj2 (proj2 (dec_pos m Hm))) in X. exact X.
Qed.

(** ** The first match *)
Definition first (r : re) (s : text) (caps : list text) (rest : text) : Prop := hd_error (matches r s) = Some (caps, rest).
Definition stops (p : ascii -> bool) (s : text) : Prop := match s with c :: _ => p c = false | [] => True end.
Lemma runs_first p pre rest : all_of p pre -> stops p rest -> hd_error (runs p (pre ++ rest)) = Some (pre, rest).
Proof.
  induction 1 as [|c pre Hc H IH]; intros S; cbn [app runs].
  - destruct rest as [|c rest]; [reflexivity|]. cbn [stops] in S. cbn [runs]. rewrite S. reflexivity.
  - rewrite Hc. specialize (IH S). destruct (runs p (pre ++ rest)) as [|x l]; [discriminate|]. injection IH as ->. reflexivity.
Qed.
Lemma first_star p pre rest : all_of p pre -> stops p rest -> first (RStar p) (pre ++ rest) [] rest.
Proof. intros H S. assert (X := runs_first p pre rest H S). unfold first. cbn [matches]. destruct (runs p (pre ++ rest)); [discriminate|]. injection X as ->. reflexivity. Qed.
Lemma first_plus p pre rest : all_of p pre -> pre <> [] -> stops p rest -> first (RPlus p) (pre ++ rest) [] rest.
Proof. intros H N S. assert (X := runs_first p pre rest H S). unfold first. cbn [matches]. destruct (runs p (pre ++ rest)); [discriminate|]. injection X as ->. cbn [filter fst]. destruct pre; [tauto|]. reflexivity. Qed.
Lemma first_cls (p : ascii -> bool) c rest : p c = true -> first (RCls p) (c :: rest) [] rest.
Proof. intros H. unfold first. cbn [matches]. rewrite H. reflexivity. Qed.
Lemma first_opt r s caps rest : first r s caps rest -> first (ROpt r) s caps rest.
Proof. unfold first. cbn [matches]. destruct (matches r s); [discriminate|]. cbn [app hd_error]. auto. Qed.
Lemma first_skip r s : matches r s = [] -> first (ROpt r) s (repeat [] (groups r)) s.
Proof. intros H. unfold first. cbn [matches]. rewrite H. reflexivity. Qed.
Lemma first_seq a b s c1 s1 c2 s2 : first a s c1 s1 -> first b s1 c2 s2 -> first (RSeq a b) s (c1 ++ c2) s2.
Proof.
  unfold first. cbn [matches]. destruct (matches a s) as [|x l]; [discriminate|]. intros X Y. injection X as ->. cbn [flat_map fst snd]. destruct (matches b s1) as [|y l']; [discriminate|]. injection Y as ->. reflexivity.
Qed.
Lemma first_grp r pre rest caps : first r (pre ++ rest) caps rest -> first (RGrp r) (pre ++ rest) (pre :: caps) rest.
Proof.
  unfold first. cbn [matches]. destruct (matches r (pre ++ rest)) as [|x l]; [discriminate|]. intros X. injection X as ->. cbn [map hd_error fst snd]. rewrite app_length, Nat.add_sub, firstn_app, firstn_all, Nat.sub_diag. cbn [firstn]. rewrite app_nil_r. reflexivity.
Qed.
Lemma first_match r s caps : first r s caps [] -> regex_match r s = Some caps.
Proof. unfold first, regex_match. destruct (matches r s) as [|x l]; [discriminate|]. intros X. injection X as ->. reflexivity. Qed.

(** ** All matches *)
Definition some_match (r : re) (s : text) (caps : list text) (rest : text) : Prop := In (caps, rest) (matches r s).
Lemma runs_some p s pre rest : In (pre, rest) (runs p s) -> s = pre ++ rest /\ all_of p pre.
Proof.
  revert pre rest. induction s as [|c s IH]; intros pre rest H; cbn [runs] in H.
  - destruct H as [H|[]]. injection H as <- <-. split; [reflexivity|constructor].
  - destruct (p c) eqn:E.
    + apply in_app_or in H. destruct H as [H|[H|[]]].
      * apply in_map_iff in H. destruct H as ([a b] & X & H). injection X as <- <-. destruct (IH a b H) as (-> & A). split; [reflexivity|]. cbn [fst]. constructor; auto.
      * injection H as <- <-. split; [reflexivity|constructor].
    + destruct H as [H|[]]. injection H as <- <-. split; [reflexivity|constructor].
Qed.
Lemma some_star p s caps rest : some_match (RStar p) s caps rest -> caps = [] /\ exists pre, s = pre ++ rest /\ all_of p pre.
Proof. intros H. apply in_map_iff in H. destruct H as ([a b] & X & H). injection X as <- <-. split; [reflexivity|]. cbn [snd]. apply runs_some in H. eauto. Qed.
Lemma some_plus p s caps rest : some_match (RPlus p) s caps rest -> caps = [] /\ exists pre, s = pre ++ rest /\ all_of p pre /\ pre <> [].
Proof. intros H. apply in_map_iff in H. destruct H as ([a b] & X & H). injection X as <- <-. apply filter_In in H. destruct H as (H & N). cbn [snd fst] in *. apply runs_some in H. split; [reflexivity|]. exists a. destruct a; [discriminate|]. split; [tauto|]. split; [tauto|discriminate]. Qed.
Lemma some_cls p s caps rest : some_match (RCls p) s caps rest -> caps = [] /\ exists c, s = c :: rest /\ p c = true.
Proof. unfold some_match. cbn [matches]. destruct s as [|c s]; [intros []|]. destruct (p c) eqn:E; [intros [H|[]]|intros []]. injection H as <- <-. split; eauto. Qed.
Lemma some_opt r s caps rest : some_match (ROpt r) s caps rest -> some_match r s caps rest \/ (caps = repeat [] (groups r) /\ rest = s).
Proof. intros H. apply in_app_or in H. destruct H as [H|[H|[]]]; [left; exact H|]. injection H as <- <-. auto. Qed.
Lemma some_seq a b s caps rest : some_match (RSeq a b) s caps rest -> exists c1 s1 c2, some_match a s c1 s1 /\ some_match b s1 c2 rest /\ caps = c1 ++ c2.
Proof. intros H. apply in_flat_map in H. destruct H as ([c1 s1] & H1 & H2). apply in_map_iff in H2. destruct H2 as ([c2 s2] & X & H2). cbn [fst snd] in *. injection X as <- <-. exists c1, s1, c2. auto. Qed.
Lemma some_grp r s caps rest : some_match (RGrp r) s caps rest -> exists caps', some_match r s caps' rest /\ caps = firstn (length s - length rest) s :: caps'.
Proof. intros H. apply in_map_iff in H. destruct H as ([c1 s1] & X & H). cbn [fst snd] in *. injection X as <- <-. exists c1. auto. Qed.
Lemma cut_pre (pre rest : text) : firstn (length (pre ++ rest) - length rest) (pre ++ rest) = pre.
Proof. rewrite app_length, Nat.add_sub, firstn_app, firstn_all, Nat.sub_diag. cbn [firstn]. apply app_nil_r. Qed.
Lemma match_some r s caps : regex_match r s = Some caps -> some_match r s caps [].
Proof.
  unfold regex_match, some_match. induction (matches r s) as [|[c rest] l IH]; cbn [find option_map snd]; [discriminate|]. destruct rest; [|intros H; right; auto].
  cbn [option_map fst]. intros X. injection X as ->. left. reflexivity.
Qed.
