From Coq Require Import ZArith List Bool Ascii Lia Arith.
From Verif Require Import Res PartitionsModel RegistryModel RegistryProofs CoreModel RationalModel RationalSpec RationalProofs DecModel TextModel TextSpec TextProofs TextProofs2 TextProofs3.
Import ListNotations.
Local Open Scope Z_scope.

(** ** Indices *)
Lemma digit_not_under c : is_digit c = true -> is_chr "_" c = false.
Proof. intros H. unfold is_chr. destruct (Ascii.eqb_spec c "_"); [subst; discriminate|reflexivity]. Qed.
Lemma index_re_complete c (u p : text) : is_alpha c = true -> (u = [] \/ u = ["_"%char]) -> all_of is_digit p -> p <> [] -> regex_match index_re (c :: u ++ p) = Some [[c]; p].
Proof.
  intros Hc Hu Hp N. apply first_match. unfold index_re. cbn [rseq]. change [[c]; p] with ([[c]] ++ [] ++ [p]).
  eapply first_seq; [apply (first_grp _ [c] (u ++ p) []), first_cls, Hc|].
  assert (S : stops (is_chr "_") p) by (destruct p as [|x p]; [tauto|]; inversion Hp; subst; apply digit_not_under; auto).
  eapply (first_seq _ _ _ [] p).
  - destruct Hu as [->| ->]; [|apply first_opt, (first_cls _ "_"%char p); reflexivity]. cbn [app]. apply (first_skip (RCls (is_chr "_"))). cbn [matches]. destruct p as [|x p]; [reflexivity|]. cbn [stops] in S. rewrite S. reflexivity.
  - rewrite <- (app_nil_r p) at 1. apply (first_grp _ p [] []). apply first_plus; auto. exact I.
Qed.
Lemma index_re_sound s caps : regex_match index_re s = Some caps -> exists c u p, s = c :: u ++ p /\ caps = [[c]; p] /\ is_alpha c = true /\ (u = [] \/ u = ["_"%char]) /\ all_of is_digit p /\ p <> [].
Proof.
  intros H. apply match_some in H. unfold index_re in H. cbn [rseq] in H. apply some_seq in H. destruct H as (c1 & s1 & k1 & H1 & H & ->). apply some_seq in H. destruct H as (c2 & s2 & k2 & H2 & H & ->).
  apply some_grp in H1. destruct H1 as (k & H1 & ->). apply some_cls in H1. destruct H1 as (-> & c & -> & Hc). rewrite (cut_pre [c] s1 : firstn (length (c :: s1) - length s1) (c :: s1) = [c]).
  apply some_grp in H. destruct H as (k & H & ->). apply some_plus in H. destruct H as (-> & p & -> & Hp & N). rewrite cut_pre.
  apply some_opt in H2. destruct H2 as [H2|(-> & <-)].
  - apply some_cls in H2. destruct H2 as (-> & x & -> & Hx). apply Ascii.eqb_eq in Hx. subst. exists c, ["_"%char], p. rewrite app_nil_r. auto 10.
  - exists c, [], p. rewrite app_nil_r. auto 10.
Qed.
Lemma stoi_digits p : p <> [] -> dec_value p <= max_int -> stoi p = Ok (dec_value p).
Proof. intros N L. destruct p; [tauto|]. cbn [stoi]. apply Z.leb_le in L. rewrite L. reflexivity. Qed.
Theorem make_index_iff st s i : make_index st s = Ok i <-> exists c, reads_index s c (ipos i) /\ label_to_space st c = Ok (isp i).
Proof.
  split.
  - unfold make_index. destruct (regex_match index_re s) as [caps|] eqn:E; [|discriminate]. destruct (index_re_sound _ _ E) as (c & u & p & -> & -> & Hc & Hu & Hp & N). cbn [hd]. intros H. apply bind_ok in H. destruct H as (sp & L & H). apply bind_ok in H. destruct H as (v & S & H). injection H as <-. cbn [isp ipos].
    exists c. split; [|exact L]. destruct p as [|x p]; [tauto|]. cbn [stoi] in S. destruct (Z.leb_spec (dec_value (x :: p)) max_int); [|discriminate]. injection S as <-. destruct Hu as [-> | ->]; [apply ri_plain|apply ri_under]; auto.
  - intros (c & R & L). destruct i as [sp p]. cbn [isp ipos] in *. unfold make_index. inversion R; subst.
    + rewrite (index_re_complete c [] p0 : _ -> _ -> _ -> _ -> regex_match index_re (c :: p0) = _) by auto. cbn [hd]. rewrite L. cbn [bind]. rewrite stoi_digits by auto. reflexivity.
    + rewrite (index_re_complete c ["_"%char] p0 : _ -> _ -> _ -> _ -> regex_match index_re (c :: "_"%char :: p0) = _) by auto. cbn [hd]. rewrite L. cbn [bind]. rewrite stoi_digits by auto. reflexivity.
Qed.
Lemma make_index_total st s : make_index st s = Throw \/ exists i, make_index st s = Ok i.
Proof.
  unfold make_index. destruct (regex_match index_re s) as [[|l [|p [|]]]|]; auto. unfold label_to_space. destruct (afind _ _ _); cbn [of_opt_throw bind]; [|auto]. destruct p as [|x p]; cbn [stoi]; [auto|]. destruct (_ <=? _); cbn [bind]; eauto.
Qed.
Theorem make_index_throws st s : make_index st s = Throw <-> ~ exists c p sp, reads_index s c p /\ label_to_space st c = Ok sp.
Proof.
  split.
  - intros H (c & p & sp & R & L). assert (X : make_index st s = Ok (mkI sp p)) by (apply make_index_iff; exists c; auto). congruence.
  - intros H. destruct (make_index_total st s) as [X|(i & X)]; [exact X|]. exfalso. apply make_index_iff in X. destruct X as (c & R & L). apply H. eauto 6.
Qed.
Lemma index_str_reads st i s : printable_index st i -> index_str st i = Ok s -> exists l, space_label st (isp i) = Ok l /\ s = l :: dec_text (ipos i) /\ reads_index s l (ipos i).
Proof.
  intros (B & l & L & A). unfold index_str. rewrite L. cbn [bind]. intros H. injection H as <-. exists l. split; [reflexivity|]. split; [reflexivity|]. destruct (dec_pos (ipos i)) as (N & D & V); [lia|]. rewrite <- V at 2. apply ri_plain; auto. lia.
Qed.
Lemma index_str_ok st i : printable_index st i -> exists s, index_str st i = Ok s.
Proof. intros (B & l & L & A). unfold index_str. rewrite L. cbn [bind]. eauto. Qed.
Theorem index_roundtrip st i : reachable st -> printable_index st i -> exists s, index_str st i = Ok s /\ make_index st s = Ok i.
Proof.
  intros R P. destruct (index_str_ok st i P) as (s & E). exists s. split; [exact E|]. destruct (index_str_reads st i s P E) as (l & L & -> & X). apply make_index_iff. exists l. split; [exact X|]. apply reg_label_roundtrip; auto. apply reachable_ok, R.
Qed.

(** ** Lists of indices *)
Lemma pieces_cur a : forall cur rest, Forall (fun c => Ascii.eqb c "," = false) a -> pieces (a ++ rest) cur = pieces rest (rev a ++ cur).
Proof. induction a as [|c a IH]; intros cur rest H; [reflexivity|]. inversion H; subst. cbn [app pieces rev]. rewrite H2, IH by auto. rewrite <- app_assoc. reflexivity. Qed.
Lemma pieces_join l : Forall (fun a => a <> [] /\ Forall (fun c => Ascii.eqb c "," = false) a) l -> pieces (join l [","%char]) [] = l.
Proof.
  induction l as [|a l IH]; intros H; [reflexivity|]. inversion H as [|? ? (N & C) H']; subst. destruct l as [|b l].
  - cbn [join]. rewrite <- (app_nil_r a) at 1. rewrite pieces_cur by auto. rewrite app_nil_r. cbn [pieces]. destruct (rev a) eqn:E; [|rewrite <- E, rev_involutive; reflexivity]. apply (f_equal (@rev _)) in E. rewrite rev_involutive in E. tauto.
  - change (join (a :: b :: l) [","%char]) with (a ++ [","%char] ++ join (b :: l) [","%char]). rewrite pieces_cur by auto. cbn [app pieces]. rewrite (eq_refl : Ascii.eqb "," "," = true), app_nil_r, rev_involutive, IH by auto. reflexivity.
Qed.
Lemma ltrim_id s : stops is_ws s -> ltrim s = s.
Proof. destruct s as [|c s]; [reflexivity|]. cbn [stops ltrim]. intros ->. reflexivity. Qed.
Lemma trim_id s : Forall (fun c => is_ws c = false) s -> trim s = s.
Proof.
  intros H. assert (X : forall l, Forall (fun c => is_ws c = false) l -> stops is_ws l) by (intros [|c l] Hl; [exact I|]; inversion Hl; auto). unfold trim. rewrite (ltrim_id (rev s)), rev_involutive by (apply X, Forall_rev, H). apply ltrim_id, X, H.
Qed.
Lemma mapM_Forall2 {A B} (f : A -> res B) l r : mapM f l = Ok r -> Forall2 (fun a b => f a = Ok b) l r.
Proof. revert r. induction l as [|a l IH]; intros r H; cbn [mapM] in H; [injection H as <-; constructor|]. apply bind_ok in H. destruct H as (b & Hb & H). apply bind_ok in H. destruct H as (r' & Hr & H). injection H as <-. constructor; auto. Qed.
Lemma Forall2_mapM {A B} (f : A -> res B) l r : Forall2 (fun a b => f a = Ok b) l r -> mapM f l = Ok r.
Proof. induction 1 as [|a b l r H F IH]; [reflexivity|]. cbn [mapM]. rewrite H. cbn [bind]. rewrite IH. reflexivity. Qed.
Lemma index_chars st i s : printable_index st i -> index_str st i = Ok s -> s <> [] /\ Forall (fun c => is_alnum c = true) s.
Proof.
  intros P E. destruct (index_str_reads _ _ _ P E) as (l & L & -> & X). split; [discriminate|]. inversion X; subst.
  - constructor; [unfold is_alnum; rewrite H2; auto|]. eapply Forall_impl; [|exact H3]. cbn beta. intros c Hc. unfold is_alnum. rewrite Hc. apply orb_true_r.
  - destruct (dec_pos (ipos i)) as (_ & D & _); [destruct P; lia|]. rewrite <- H0 in D. inversion D as [|? ? D1]. discriminate D1.
Qed.
Lemma alnum_not c : is_alnum c = true -> is_ws c = false /\ Ascii.eqb c "," = false /\ list_char c = true.
Proof.
  intros H. split; [|split].
  - unfold is_alnum, is_alpha, is_digit, is_ws in *. destruct c as [[] [] [] [] [] [] [] []]; try reflexivity; discriminate H.
  - destruct (Ascii.eqb_spec c ","); [subst; discriminate|reflexivity].
  - unfold list_char, is_word. rewrite H. reflexivity.
Qed.
Lemma indices_roundtrip st l : reachable st -> Forall (printable_index st) l -> exists s, mapM (index_str st) l = Ok s /\ make_indices st (join s [","%char]) = Ok l /\ Forall (fun c => list_char c = true) (join s [","%char]).
Proof.
  intros R P. assert (E : exists s, mapM (index_str st) l = Ok s).
  { induction P as [|i l Hi P IH]; [exists []; reflexivity|]. destruct (index_str_ok st i Hi) as (a & Ha). destruct IH as (s & Hs). exists (a :: s). cbn [mapM]. rewrite Ha. cbn [bind]. rewrite Hs. reflexivity. }
  destruct E as (s & E). exists s. split; [exact E|]. apply mapM_Forall2 in E.
  assert (C : Forall (fun a => a <> [] /\ Forall (fun c => is_alnum c = true) a) s). { clear - P E. induction E as [|i a l s Hi E IH]; [constructor|]. inversion P; subst. constructor; [eapply index_chars; eauto|auto]. }
  split.
  - unfold make_indices, split_indices. rewrite pieces_join.
    + assert (T : map trim s = s). { clear - C. induction C as [|a s (N & Ca) C IH]; [reflexivity|]. cbn [map]. rewrite trim_id, IH; [reflexivity|]. eapply Forall_impl; [|exact Ca]. intros c Hc. apply alnum_not, Hc. }
      rewrite T. apply Forall2_mapM. clear - R P E. induction E as [|i a l s Hi E IH]; [constructor|]. inversion P; subst. constructor; auto. destruct (index_roundtrip st i R H1) as (a' & A1 & A2). congruence.
    + eapply Forall_impl; [|exact C]. intros a (N & Ca). split; [exact N|]. eapply Forall_impl; [|exact Ca]. intros c Hc. apply alnum_not, Hc.
  - clear - C. induction C as [|a s (N & Ca) C IH]; [constructor|]. assert (A : Forall (fun c => list_char c = true) a) by (eapply Forall_impl; [|exact Ca]; intros c Hc; apply alnum_not, Hc). destruct s as [|b s]; [exact A|].
    change (join (a :: b :: s) [","%char]) with (a ++ [","%char] ++ join (b :: s) [","%char]). apply Forall_app. split; [exact A|]. constructor; [reflexivity|exact IH].
Qed.

(** ** Tensors *)
Lemma tensor_re_match (a u l : text) : all_of is_alnum a -> a <> [] -> all_of list_char u -> all_of list_char l ->
  regex_match tensor_re (a ++ ["^"; "{"]%char ++ u ++ ["}"; "_"; "{"]%char ++ l ++ ["}"%char]) = Some [a; u; l].
Proof.
  intros Ha N Hu Hl. apply first_match. unfold tensor_re. cbn [rseq]. change [a; u; l] with ([a] ++ [] ++ [] ++ [u] ++ [] ++ [] ++ [] ++ [l] ++ []).
  eapply first_seq; [apply (first_grp _ a _ []), first_plus; [exact Ha|exact N|reflexivity]|].
  eapply first_seq; [apply (first_cls _ "^"%char); reflexivity|]. eapply first_seq; [apply (first_cls _ "{"%char); reflexivity|].
  eapply first_seq; [apply (first_grp _ u _ []), first_star; [exact Hu|reflexivity]|].
  eapply first_seq; [apply (first_cls _ "}"%char); reflexivity|]. eapply first_seq; [apply (first_cls _ "_"%char); reflexivity|]. eapply first_seq; [apply (first_cls _ "{"%char); reflexivity|].
  eapply first_seq; [apply (first_grp _ l _ []), first_star; [exact Hl|reflexivity]|]. apply (first_cls _ "}"%char); reflexivity.
Qed.
Theorem tensor_roundtrip st t : reachable st -> t_label t <> [] -> all_of is_alnum (t_label t) -> Forall (printable_index st) (t_upper t) -> Forall (printable_index st) (t_lower t) ->
  exists s, tensor_str st t = Ok s /\ forall sym, make_tensor st s sym = Ok (mkT (t_label t) (t_lower t) (t_upper t) sym false).
Proof.
  intros R N A PU PL. destruct (indices_roundtrip st _ R PU) as (u & Eu & Mu & Cu). destruct (indices_roundtrip st _ R PL) as (l & El & Ml & Cl). unfold tensor_str. rewrite Eu. cbn [bind]. rewrite El. cbn [bind]. eexists. split; [reflexivity|]. intros sym. unfold make_tensor.
  rewrite (tensor_re_match (t_label t) (join u [","%char]) (join l [","%char])) by auto. rewrite Mu. cbn [bind]. rewrite Ml. reflexivity.
Qed.

(** ** LaTeX names *)
Theorem index_latex_inj st i j x : reachable st -> (forall sp names y, space_indices st sp = Ok names -> In y names -> ~ generic_name st y) ->
  index_latex st i = Ok x -> index_latex st j = Ok x -> i = j.
Proof.
  intros R G Hi Hj. destruct (registry_consistent st R) as (RC1 & RC2 & RC3 & RC4 & RC5 & RC6).
  assert (Cs : forall k, index_latex st k = Ok x -> (exists names, space_indices st (isp k) = Ok names /\ 0 <= ipos k /\ (Z.to_nat (ipos k) < length names)%nat /\ x = nth (Z.to_nat (ipos k)) names []) \/ (exists l, space_label st (isp k) = Ok l /\ x = l :: ["_"; "{"]%char ++ dec_text (ipos k) ++ ["}"%char])).
  { intros k Hk. unfold index_latex in Hk. apply bind_ok in Hk. destruct Hk as (names & En & Hk). destruct (Z.leb_spec 0 (ipos k)) as [L|L]; cbn [andb] in Hk.
    - destruct (Z.ltb_spec (ipos k) (Z.of_nat (length names))) as [L'|L']; [left|right].
      + injection Hk as <-. exists names. split; [exact En|]. split; [lia|]. split; [lia|reflexivity].
      + apply bind_ok in Hk. destruct Hk as (l & El & Hk). injection Hk as <-. eauto.
    - right. apply bind_ok in Hk. destruct Hk as (l & El & Hk). injection Hk as <-. eauto. }
  assert (Gn : forall k l, space_label st (isp k) = Ok l -> x = l :: ["_"; "{"]%char ++ dec_text (ipos k) ++ ["}"%char] -> generic_name st x) by (intros k l Hl Hx; exists (isp k), l, (ipos k); auto).
  destruct i as [si pi], j as [sj pj]. cbn [isp ipos] in *.
  destruct (Cs _ Hi) as [(ni & Ei & Pi & Li & Xi)|(li & Ei & Xi)], (Cs _ Hj) as [(nj & Ej & Pj & Lj & Xj)|(lj & Ej & Xj)]; cbn [isp ipos] in *.
  - assert (Ii : In x ni) by (rewrite Xi; apply nth_In; auto). assert (Ij : In x nj) by (rewrite Xj; apply nth_In; auto). assert (si = sj) by (eapply RC4; eauto). subst sj. rewrite Ei in Ej. injection Ej as <-.
    f_equal. assert (Z.to_nat pi = Z.to_nat pj); [|lia]. apply (proj1 (NoDup_nth ni []) (RC5 _ _ Ei)); auto. congruence.
  - exfalso. eapply (G si ni x); eauto. rewrite Xi. apply nth_In; auto. apply (Gn (mkI sj pj) lj); auto.
  - exfalso. eapply (G sj nj x); eauto. rewrite Xj. apply nth_In; auto. apply (Gn (mkI si pi) li); auto.
  - rewrite Xi in Xj. injection Xj as -> E. apply app_inv_tail in E. apply dec_inj in E. subst. f_equal. assert (X1 := reg_label_roundtrip st si lj (reachable_ok st R) Ei). assert (X2 := reg_label_roundtrip st sj lj (reachable_ok st R) Ej). congruence.
Qed.
Lemma index_latex_ok st i : 0 <= isp i < num_spaces st -> exists x, index_latex st i = Ok x.
Proof.
  intros H. destruct (reg_label_defined st (isp i) H) as (l & L). unfold index_latex. rewrite L. unfold space_label in L. apply bind_ok in L. destruct L as (s & L & _). unfold space_indices. rewrite L. cbn [bind]. destruct (_ && _); eauto.
Qed.
