From Coq Require Import ZArith List Bool Ascii Lia Arith.
From Verif Require Import Res PartitionsModel RegistryModel RegistryProofs CoreModel RationalModel RationalSpec RationalProofs DecModel TextModel TextSpec TextProofs.
Import ListNotations.
Local Open Scope Z_scope.

(** Character classes are disjoint where the patterns need it. *)
Lemma ws_not_digit c : is_ws c = true -> is_digit c = false.
Proof. unfold is_ws, is_digit. rewrite orb_true_iff, andb_true_iff, !Z.leb_le, Z.eqb_eq, andb_false_iff, !N.leb_gt. lia. Qed.
Lemma ws_not_sign c : is_ws c = true -> (is_chr "+" c || is_chr "-" c) = false /\ is_chr "/" c = false.
Proof. intros H. unfold is_chr. destruct (Ascii.eqb_spec c "+"); [subst; discriminate|]. destruct (Ascii.eqb_spec c "-"); [subst; discriminate|]. destruct (Ascii.eqb_spec c "/"); [subst; discriminate|]. auto. Qed.
Lemma digit_not_ws c : is_digit c = true -> is_ws c = false.
Proof. intros H. destruct (is_ws c) eqn:E; [|reflexivity]. apply ws_not_digit in E. congruence. Qed.
Lemma digit_not_sign c : is_digit c = true -> (is_chr "+" c || is_chr "-" c) = false /\ is_chr "/" c = false.
Proof. intros H. unfold is_chr. destruct (Ascii.eqb_spec c "+"); [subst; discriminate|]. destruct (Ascii.eqb_spec c "-"); [subst; discriminate|]. destruct (Ascii.eqb_spec c "/"); [subst; discriminate|]. auto. Qed.
Lemma stops_app p a b : (forall c, In c a -> p c = false) -> stops p b -> stops p (a ++ b).
Proof. destruct a as [|c a]; [auto|]. intros H _. apply H. left. auto. Qed.
Lemma stops_all p q a b : (forall c, p c = true -> q c = false) -> all_of p a -> stops q b -> stops q (a ++ b).
Proof. intros H A B. apply stops_app; auto. intros c Hc. apply H. unfold all_of in A. rewrite Forall_forall in A. auto. Qed.
Lemma stops_nil p : stops p []. Proof. exact I. Qed.
Lemma sign_cases sg v : sign_text sg v -> sg = [] \/ exists c, sg = [c] /\ (is_chr "+" c || is_chr "-" c) = true.
Proof. intros [(-> & _)|[(-> & _)|(-> & _)]]; eauto. Qed.
Lemma grp_skip p s : stops p s -> matches (RGrp (RCls p)) s = [].
Proof. intros H. cbn [matches]. destruct s as [|c s]; [reflexivity|]. cbn [stops] in H. rewrite H. reflexivity. Qed.
Lemma first_sign sg v rest : sign_text sg v -> stops (fun c => is_chr "+" c || is_chr "-" c) rest ->
  first (ROpt (RGrp (RCls (fun c => is_chr "+" c || is_chr "-" c)))) (sg ++ rest) [sg] rest.
Proof.
  intros H S. destruct (sign_cases sg v H) as [->|(c & -> & Hc)].
  - cbn [app]. apply (first_skip (RGrp (RCls (fun c => is_chr "+" c || is_chr "-" c)))). apply grp_skip, S.
  - apply first_opt. apply (first_grp _ [c] rest []). cbn [app]. apply first_cls, Hc.
Qed.
Lemma first_digits d rest : all_of is_digit d -> stops is_digit rest -> first (ROpt (RGrp (RStar is_digit))) (d ++ rest) [d] rest.
Proof. intros H S. apply first_opt. apply (first_grp _ d rest []). apply first_star; auto. Qed.

(** What the pattern captures. *)
Lemma re_frac w sg v n d w' : all_of is_ws w -> sign_text sg v -> all_of is_digit n -> all_of is_digit d -> all_of is_ws w' ->
  regex_match rational_re (w ++ sg ++ n ++ ["/"%char] ++ d ++ w') = Some [sg; n; ["/"%char]; d].
Proof.
  intros Hw Hs Hn Hd Hw'. apply first_match. unfold rational_re. cbn [rseq].
  assert (Sg : forall p, p "/"%char = false -> forall q, (forall c, is_digit c = true -> p c = false) -> q = n ++ ["/"%char] ++ d ++ w' -> stops p q).
  { intros p P q Q ->. eapply stops_all; [exact Q|exact Hn|exact P]. }
  change [sg; n; ["/"%char]; d] with ([] ++ [sg] ++ [n] ++ [["/"%char]] ++ [d] ++ []). 
  eapply first_seq; [apply first_star; [exact Hw|]|eapply first_seq; [eapply first_sign; [exact Hs|]|eapply first_seq; [apply first_digits; [exact Hn|reflexivity]|
    eapply first_seq; [apply first_opt, (first_grp _ ["/"%char] (d ++ w') []), first_cls; reflexivity|eapply first_seq; [apply first_digits; [exact Hd|]|rewrite <- (app_nil_r w') at 1; apply first_star; [exact Hw'|exact I]]]]]].
  - destruct (sign_cases _ _ Hs) as [->|(c & -> & Hc)]; [apply (Sg is_ws); auto; apply digit_not_ws|]. cbn [app stops]. destruct (is_ws c) eqn:E; [|reflexivity]. apply ws_not_sign in E. destruct E. congruence.
  - apply (Sg _ eq_refl); auto. intros c Hc. apply digit_not_sign, Hc.
  - rewrite <- (app_nil_r w'). eapply stops_all; [apply ws_not_digit|exact Hw'|exact I].
Qed.
Lemma re_int w sg v n w' : all_of is_ws w -> sign_text sg v -> all_of is_digit n -> all_of is_ws w' ->
  regex_match rational_re (w ++ sg ++ n ++ w') = Some [sg; n; []; []].
Proof.
  intros Hw Hs Hn Hw'. apply first_match. unfold rational_re. cbn [rseq].
  assert (Wd : stops is_digit w') by (rewrite <- (app_nil_r w'); eapply stops_all; [apply ws_not_digit|exact Hw'|exact I]).
  assert (Wp : forall p, (forall c, is_ws c = true -> p c = false) -> stops p w') by (intros p P; rewrite <- (app_nil_r w'); eapply stops_all; [exact P|exact Hw'|exact I]).
  change [sg; n; []; []] with ([] ++ [sg] ++ [n] ++ [([] : text)] ++ [[]] ++ []).
  assert (T : first (RSeq (ROpt (RGrp (RCls (fun c => is_chr "+" c || is_chr "-" c)))) (RSeq (ROpt (RGrp (RStar is_digit))) (RSeq (ROpt (RGrp (RCls (is_chr "/")))) (RSeq (ROpt (RGrp (RStar is_digit))) (RStar is_ws)))))
      (sg ++ n ++ w') ([sg] ++ [n] ++ [([] : text)] ++ [[]] ++ []) []).
  { eapply first_seq; [eapply first_sign; [exact Hs|]|eapply first_seq; [apply first_digits; [exact Hn|exact Wd]|
      eapply first_seq; [apply (first_skip (RGrp (RCls (is_chr "/")))), grp_skip, Wp|eapply first_seq; [apply (first_digits [] w'); [constructor|exact Wd]|rewrite <- (app_nil_r w') at 1; apply first_star; [exact Hw'|exact I]]]]].
    - eapply stops_all; [|exact Hn|]; [intros c Hc; apply digit_not_sign, Hc|]. apply Wp. intros c Hc. apply ws_not_sign, Hc.
    - intros c Hc. apply ws_not_sign, Hc. }
  assert (C : (sg = [] /\ n = []) \/ stops is_ws (sg ++ n ++ w')).
  { destruct (sign_cases _ _ Hs) as [->|(c & -> & Hc)].
    - destruct n as [|c n]; [left; auto|right]. inversion Hn; subst. apply digit_not_ws; auto.
    - right. cbn [app stops]. destruct (is_ws c) eqn:E; [|reflexivity]. apply ws_not_sign in E. destruct E. congruence. }
  destruct C as [(-> & ->)|C]; [|eapply first_seq; [apply first_star; [exact Hw|exact C]|exact T]].
  cbn [app]. change ([[]; []; []; []] : list text) with ([] ++ [([] : text)] ++ [([] : text)] ++ [([] : text)] ++ [[]] ++ []). rewrite <- (app_nil_r (w ++ w')).
  eapply first_seq; [apply first_star; [apply Forall_app; auto|exact I]|]. reflexivity.
Qed.
(** What a match looks like. *)
Lemma re_shape s caps : regex_match rational_re s = Some caps -> exists w sg n sl d w', caps = [sg; n; sl; d] /\ s = w ++ sg ++ n ++ sl ++ d ++ w' /\
  all_of is_ws w /\ all_of is_ws w' /\ all_of is_digit n /\ all_of is_digit d /\ (exists v, sign_text sg v) /\ (sl = [] \/ sl = ["/"%char]).
Proof.
  intros H. apply match_some in H. unfold rational_re in H. cbn [rseq] in H.
  apply some_seq in H. destruct H as (c1 & s1 & k1 & H1 & H & ->). apply some_star in H1. destruct H1 as (-> & w & -> & Hw).
  apply some_seq in H. destruct H as (c2 & s2 & k2 & H2 & H & ->).
  apply some_seq in H. destruct H as (c3 & s3 & k3 & H3 & H & ->).
  apply some_seq in H. destruct H as (c4 & s4 & k4 & H4 & H & ->).
  apply some_seq in H. destruct H as (c5 & s5 & k5 & H5 & H & ->). apply some_star in H. destruct H as (-> & w' & -> & Hw').
  assert (E2 : exists sg, c2 = [sg] /\ s1 = sg ++ s2 /\ exists v, sign_text sg v).
  { apply some_opt in H2. destruct H2 as [H2|(-> & ->)].
    - apply some_grp in H2. destruct H2 as (k & H2 & ->). apply some_cls in H2. destruct H2 as (-> & c & -> & Hc). exists [c]. rewrite (cut_pre [c] s2 : firstn (length (c :: s2) - length s2) (c :: s2) = [c]). split; [reflexivity|]. split; [reflexivity|].
      apply orb_true_iff in Hc. unfold is_chr in Hc. destruct Hc as [Hc|Hc]; apply Ascii.eqb_eq in Hc; subst; [exists 1; right; left; auto|exists (-1); right; right; auto].
    - exists []. split; [reflexivity|]. split; [reflexivity|]. exists 1. left. auto. }
  assert (DG : forall c s s', some_match (ROpt (RGrp (RStar is_digit))) s c s' -> exists n, c = [n] /\ s = n ++ s' /\ all_of is_digit n).
  { intros c s s' X. apply some_opt in X. destruct X as [X|(-> & ->)]; [|exists []; split; [reflexivity|split; [reflexivity|constructor]]].
    apply some_grp in X. destruct X as (k & X & ->). apply some_star in X. destruct X as (-> & n & -> & Hn). exists n. rewrite cut_pre. auto. }
  destruct E2 as (sg & -> & -> & Hsg). destruct (DG _ _ _ H3) as (n & -> & -> & Hn). destruct (DG _ _ _ H5) as (d & -> & -> & Hd).
  assert (E4 : exists sl, c4 = [sl] /\ s3 = sl ++ d ++ w' ++ [] /\ (sl = [] \/ sl = ["/"%char])).
  { apply some_opt in H4. destruct H4 as [H4|(-> & ->)].
    - apply some_grp in H4. destruct H4 as (k & H4 & ->). apply some_cls in H4. destruct H4 as (-> & c & -> & Hc). exists [c]. rewrite (cut_pre [c] (d ++ w' ++ []) : firstn (length (c :: d ++ w' ++ []) - length (d ++ w' ++ [])) (c :: d ++ w' ++ []) = [c]). split; [reflexivity|]. split; [reflexivity|].
      apply Ascii.eqb_eq in Hc; subst; auto.
    - exists []. auto. }
  destruct E4 as (sl & -> & -> & Hsl). exists w, sg, n, sl, d, w'. split; [reflexivity|]. split; [rewrite app_nil_r; reflexivity|]. auto 10.
Qed.

Lemma dec_value_nonneg s : all_of is_digit s -> 0 <= dec_value s.
Proof.
  unfold dec_value. intros H. assert (G : forall a, 0 <= a -> 0 <= fold_left (fun a c => 10 * a + digit_val c) s a); [|apply G; lia].
  induction H as [|c s Hc H IH]; intros a Ha; cbn [fold_left]; [exact Ha|]. apply IH. unfold digit_val, is_digit in *. apply andb_true_iff in Hc. destruct Hc as (A & B). apply N.leb_le in A. lia.
Qed.
Lemma stoi_number n v : number_text n v -> n <> [] -> stoi n = Ok v.
Proof. intros (_ & [(-> & _)|(_ & -> & L)]) H; [tauto|]. destruct n; [tauto|]. cbn [stoi]. apply Z.leb_le in L. rewrite L. reflexivity. Qed.
Lemma number_stoi n v : all_of is_digit n -> stoi n = Ok v -> number_text n v /\ n <> [].
Proof.
  intros A H. split; [split; [exact A|]|]; destruct n as [|c n]; try discriminate. right. split; [discriminate|]. cbn [stoi] in H. destruct (Z.leb_spec (dec_value (c :: n)) max_int); [|discriminate]. injection H as <-. auto.
Qed.
Lemma sign_value sg v : sign_text sg v -> (if text_eqb sg ["-"%char] then -1 else 1) = v.
Proof. intros [(-> & ->)|[(-> & ->)|(-> & ->)]]; reflexivity. Qed.
Lemma len0 {A} (l : list A) : l <> [] -> (length l =? 0)%nat = false /\ (0 <? length l)%nat = true.
Proof. destruct l; [tauto|]. auto. Qed.
Lemma bind_ok {A B} (m : res A) (f : A -> res B) v : bind m f = Ok v -> exists a, m = Ok a /\ f a = Ok v.
Proof. destruct m; try discriminate. eauto. Qed.

Lemma make_rational_complete s n d : reads_rational s n d -> make_rational s = Ok (rat_make n d).
Proof.
  intros [w sg v a va w' Hw Hs Ha Hw'|w sg v a va b vb w' Hw Hs Ha Na Hb Nb Hw']; unfold make_rational.
  - rewrite (re_int w sg v a w'); auto; [|apply Ha]. rewrite (sign_value sg v Hs). cbn [length Nat.eqb negb andb text_eqb]. destruct Ha as (A & [(-> & ->)|(N & -> & L)]).
    + cbn [length Nat.ltb Nat.leb bind text_eqb andb]. rewrite Z.mul_1_r. reflexivity.
    + rewrite (proj2 (len0 _ N)), (stoi_number a (dec_value a)); [|split; [auto|right; auto]|auto]. reflexivity.
  - rewrite (re_frac w sg v a b w'); auto; [|apply Ha|apply Hb]. rewrite (sign_value sg v Hs), (proj1 (len0 _ Na)), (proj1 (len0 _ Nb)), (proj2 (len0 _ Na)), (proj2 (len0 _ Nb)), (stoi_number a va), (stoi_number b vb) by auto. reflexivity.
Qed.
Lemma make_rational_sound s r : make_rational s = Ok r -> exists n d, reads_rational s n d /\ r = rat_make n d.
Proof.
  unfold make_rational. destruct (regex_match rational_re s) as [caps|] eqn:E; [|discriminate]. destruct (re_shape _ _ E) as (w & sg & n & sl & d & w' & -> & Es & Hw & Hw' & Hn & Hd & (v & Hs) & Hsl).
  destruct Hsl as [-> | ->].
  - (* no slash: two runs of digits are one *)
    assert (N : n ++ d = n /\ d = []).
    { assert (X := re_int w sg v (n ++ d) w' Hw Hs (proj2 (Forall_app _ _ _) (conj Hn Hd)) Hw'). rewrite <- app_assoc in X. cbn [app] in Es. rewrite <- Es, E in X. injection X as X1 X2. rewrite <- X1, <- X2. auto. }
    destruct N as (_ & ->). cbn [app] in Es. rewrite (sign_value sg v Hs). cbn [length Nat.eqb negb andb text_eqb]. intros H. destruct n as [|c n].
    + cbn [length Nat.ltb Nat.leb bind] in H. injection H as <-. exists v, 1. split; [|reflexivity]. rewrite Es, <- (Z.mul_1_r v) at 1. apply rr_int; auto. split; [constructor|left; auto].
    + cbn [length Nat.ltb Nat.leb] in H. apply bind_ok in H. destruct H as (k & H & X). injection X as <-. apply bind_ok in H. destruct H as (vn & H & X). injection X as <-. exists (v * vn), 1. split; [|reflexivity]. rewrite Es. apply rr_int; auto. apply number_stoi; auto.
  - rewrite (sign_value sg v Hs). destruct n as [|c n]; [discriminate|]. destruct d as [|c' d]; [discriminate|]. cbn [length Nat.eqb negb andb orb Nat.ltb Nat.leb]. intros H.
    apply bind_ok in H. destruct H as (k & H & X). apply bind_ok in H. destruct H as (vn & H & Y). injection Y as <-. rewrite (eq_refl : text_eqb ["/"%char] ["/"%char] = true) in X. cbn [andb] in X. apply bind_ok in X. destruct X as (vd & X & Y). injection Y as <-.
    exists (v * vn), vd. split; [|reflexivity]. rewrite Es. destruct (number_stoi _ _ Hn H). destruct (number_stoi _ _ Hd X). apply rr_frac; auto.
Qed.
Theorem make_rational_iff s r : make_rational s = Ok r <-> exists n d, reads_rational s n d /\ r = rat_make n d.
Proof. split; [apply make_rational_sound|]. intros (n & d & H & ->). apply make_rational_complete, H. Qed.
Lemma make_rational_total s : make_rational s = Throw \/ exists r, make_rational s = Ok r.
Proof.
  unfold make_rational. destruct (regex_match rational_re s) as [caps|]; [|auto]. destruct caps as [|sg [|n [|sl [|d [|]]]]]; auto.
  assert (St : forall x, stoi x = Throw \/ exists v, stoi x = Ok v) by (intros [|c x]; cbn [stoi]; [auto|]; destruct (_ <=? _); eauto).
  destruct (_ && _); [auto|]. destruct (0 <? length n)%nat.
  - destruct (St n) as [->|(v & ->)]; [auto|]. cbn [bind]. destruct (_ && _); [destruct (St d) as [->|(v' & ->)]; [auto|]|]; cbn [bind]; eauto.
  - cbn [bind]. destruct (_ && _); [destruct (St d) as [->|(v' & ->)]; [auto|]|]; cbn [bind]; eauto.
Qed.
Theorem make_rational_throws s : make_rational s = Throw <-> ~ exists n d, reads_rational s n d.
Proof.
  split.
  - intros H (n & d & R). apply make_rational_complete in R. congruence.
  - intros H. destruct (make_rational_total s) as [X|(r & X)]; [exact X|]. apply make_rational_sound in X. destruct X as (n & d & R & _). exfalso. eauto.
Qed.
