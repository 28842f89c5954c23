(** Proofs for C66: the printed form of operators. *)
From Coq Require Import String.
From Coq Require Import ZArith List Bool Ascii Lia.
From Verif Require Import Res RegistryModel RegistryProofs CoreModel RationalModel RationalSpec RationalProofs AlgebraModel CombinatoricsModel OperatorModel OperatorSpec OperatorProofs OperatorProofs2 DecModel TextModel TextSpec TextProofs TextProofs2 TextProofs3 CanonProofs GenOpProofs
  ExprTextModel ExprTextProofs ExprTextProofs2 ExprTextProofs4 ExprTextProofs5 EquationModel EqTextProofs OpTextModel OpTextSpec.
Import ListNotations.
Local Open Scope Z_scope.

Definition wtext (t : ascii * bool) : text := if snd t then [fst t; "+"%char] else [fst t].
Definition inner (T : list (ascii * bool)) : text := flat_map (fun t => wtext t ++ str " ") T.
Lemma join_inner T z : join (map wtext T ++ [z]) (str " ") = inner T ++ z.
Proof.
  induction T as [|t T IH]; [reflexivity|]. unfold inner in *. cbn [flat_map]. rewrite <- !app_assoc, <- IH. cbn [map app]. destruct (map wtext T ++ [z]) eqn:E; [destruct (map wtext T); discriminate|]. reflexivity.
Qed.
Lemma inner_tokens T : Forall (fun t => is_letter (fst t) = true) T -> op_tokens (inner T) = T.
Proof.
  induction 1 as [|[c d] T Hc H IH]; [reflexivity|]. unfold inner in *. cbn [flat_map]. rewrite <- app_assoc. change (str " " ++ ?x) with (" "%char :: x). rewrite tokens_app_space, IH. unfold wtext. cbn [fst snd] in *.
  destruct d; cbn [op_tokens]; rewrite Hc; reflexivity.
Qed.
Lemma map_repeat {A B} (f : A -> B) x n : map f (repeat x n) = repeat (f x) n.
Proof. induction n as [|n IH]; [reflexivity|]. cbn. rewrite IH. reflexivity. Qed.
Section WithReg.
  Variable st : osi.
  Hypothesis R : reachable st.
  Hypothesis LT : lettered st.
  Definition lab (i : nat) : ascii := match space_label st (Z.of_nat i) with Ok l => l | _ => zero end.
  Lemma lab_ok i : (i < nsp st)%nat -> space_label st (Z.of_nat i) = Ok (lab i).
  Proof. intros H. unfold lab, space_label. rewrite aget_nat. destruct (nth_error (space_info st) i) eqn:E; [reflexivity|]. apply nth_error_None in E. lia. Qed.
  Lemma lab_letter i : (i < nsp st)%nat -> is_letter (lab i) = true.
  Proof. intros H. apply is_letter_ok. exact (proj2 LT _ _ (lab_ok i H)). Qed.
  Lemma lab_inj i j : (i < nsp st)%nat -> (j < nsp st)%nat -> lab i = lab j -> i = j.
  Proof.
    intros Hi Hj E. assert (A := reg_label_roundtrip st _ _ (reachable_ok st R) (lab_ok i Hi)). assert (B := reg_label_roundtrip st _ _ (reachable_ok st R) (lab_ok j Hj)). rewrite E in A. rewrite A in B. injection B. lia.
  Qed.
  Definition block (d : bool) (k : nat -> Z) (i : nat) : list (ascii * bool) := repeat (lab i, d) (Z.to_nat (k i)).
  Lemma tokn_repeat c d n l d' : tokn (repeat (c, d) n) l d' = if Ascii.eqb c l && Bool.eqb d d' then Z.of_nat n else 0.
  Proof. induction n as [|n IH]; [cbn [repeat]; rewrite tokn_nil; destruct (_ && _); reflexivity|]. cbn [repeat]. rewrite tokn_cons, IH. cbn [fst snd]. destruct (_ && _); lia. Qed.
  Lemma tokn_blocks d k is : NoDup is -> (forall i, In i is -> (i < nsp st)%nat /\ 0 <= k i) -> forall p d', (p < nsp st)%nat ->
    tokn (concat (map (block d k) is)) (lab p) d' = if Bool.eqb d d' && existsb (Nat.eqb p) is then k p else 0.
  Proof.
    induction 1 as [|i is Hi N IH]; intros H p d' Hp; [cbn; rewrite andb_false_r; reflexivity|]. cbn [map concat]. rewrite tokn_app. unfold block at 1. rewrite tokn_repeat, IH by (auto; intros; apply H; right; auto). cbn [existsb].
    destruct (H i (or_introl eq_refl)) as [Hi2 Hk]. destruct (Nat.eqb_spec p i) as [->|Np].
    - rewrite Ascii.eqb_refl. cbn [andb orb]. rewrite andb_true_r. replace (existsb (Nat.eqb i) is) with false; [destruct (Bool.eqb d d'); cbn; lia|]. symmetry. destruct (existsb (Nat.eqb i) is) eqn:E; auto. apply existsb_exists in E. destruct E as (j & Hj & Ej). apply Nat.eqb_eq in Ej. subst j. contradiction.
    - cbn [orb]. destruct (Ascii.eqb_spec (lab i) (lab p)) as [E|_]; [apply lab_inj in E; auto; congruence|]. cbn [andb]. lia.
  Qed.
  Definition cr (o : oper) (i : nat) : Z := cre_of (op_gm o) (Z.of_nat i).
  Definition an (o : oper) (i : nat) : Z := ann_of (op_gm o) (Z.of_nat i).
  Definition toks (o : oper) : list (ascii * bool) := concat (map (block true (cr o)) (seq 0 (nsp st))) ++ concat (map (block false (an o)) (rev (seq 0 (nsp st)))).
  Lemma toks_letters o : Forall (fun t => is_letter (fst t) = true /\ exists p, label_to_space st (fst t) = Ok p) (toks o).
  Proof.
    assert (X : forall d k is, (forall i, In i is -> (i < nsp st)%nat) -> Forall (fun t => is_letter (fst t) = true /\ exists p, label_to_space st (fst t) = Ok p) (concat (map (block d k) is))).
    { intros d k is H. apply Forall_forall. intros t Ht. apply in_concat in Ht. destruct Ht as (b & Hb & Ht). apply in_map_iff in Hb. destruct Hb as (i & <- & Hi). apply repeat_spec in Ht. subst t. cbn [fst].
      split; [apply lab_letter, H, Hi|]. exists (Z.of_nat i). apply (reg_label_roundtrip st _ _ (reachable_ok st R)), lab_ok, H, Hi. }
    apply Forall_app. split; apply X; intros i Hi; [|apply in_rev in Hi]; apply in_seq in Hi; lia.
  Qed.
  Lemma toks_count o p d : nonneg_counts st o -> (p < nsp st)%nat -> tokn (toks o) (lab p) d = if d then cr o p else an o p.
  Proof.
    intros N Hp. unfold toks. assert (N' : forall i, (i < nsp st)%nat -> 0 <= cr o i /\ 0 <= an o i) by (intros i Hi; apply N; unfold num_spaces; lia).
    assert (B : forall b k is, NoDup is -> (forall i, In i is <-> (i < nsp st)%nat) -> (forall i, (i < nsp st)%nat -> 0 <= k i) -> tokn (concat (map (block b k) is)) (lab p) d = if Bool.eqb b d then k p else 0).
    { intros b k is Nd Hin Hk. rewrite tokn_blocks; auto. - replace (existsb (Nat.eqb p) is) with true; [rewrite andb_true_r; reflexivity|]. symmetry. apply existsb_exists. exists p. split; [apply Hin, Hp|apply Nat.eqb_refl]. - intros i Hi. apply Hin in Hi. auto. }
    rewrite tokn_app, !B; [destruct d; cbn; lia| | | | | |]; try (intros i Hi; apply N'; exact Hi); try apply NoDup_rev; try apply seq_NoDup; intros i; rewrite <- ?in_rev, in_seq; lia.
  Qed.
  Lemma gm_same g h : gm_valid st g -> gm_valid st h -> (forall i, (i < nsp st)%nat -> nthp g i = nthp h i) -> g = h.
  Proof.
    intros (Lg & Zg) (Lh & Zh) E. apply (nth_ext _ _ (0, 0) (0, 0)); [congruence|]. intros i Hi. change (nthp g i = nthp h i). destruct (Nat.lt_ge_cases i (nsp st)) as [H|H]; [auto|].
    rewrite (nthp_of g i (0, 0)), (nthp_of h i (0, 0)); auto; [apply Zh|apply Zg]; lia.
  Qed.
  Lemma inner_reads o label : op_valid st o -> nonneg_counts st o -> component_op st label (inner (toks o)) = Ok (mkOp label (op_gm o)).
  Proof.
    intros V N. assert (TL := toks_letters o). assert (TT : op_tokens (inner (toks o)) = toks o) by (apply inner_tokens; eapply Forall_impl; [|exact TL]; intros t (H & _); exact H).
    destruct (component_op_spec st label (inner (toks o)) (reachable_ok st R) (proj1 LT)) as (q & E & El & Vq & C).
    - intros c Hc Hl. apply is_letter_ok in Hl. destruct (in_tokens _ c Hl Hc) as (d & Hd). rewrite TT in Hd. apply (proj1 (Forall_forall _ _) TL) in Hd. apply Hd.
    - rewrite E. destruct q as [ql qg]. cbn [op_label op_gm] in *. subst ql. do 2 f_equal. apply gm_same; auto. intros i Hi. destruct (C _ _ (lab_ok i Hi)) as [A B]; [apply is_letter_ok, lab_letter, Hi|].
      assert (X : forall d, occurrences (inner (toks o)) (lab i) d = if d then cr o i else an o i) by (intros d; assert (Y := tokens_occ (inner (toks o)) (lab i) d); rewrite (lab_letter i Hi), TT, toks_count in Y; auto).
      rewrite X in A, B. unfold cr, an in A, B. rewrite !cre_of_nat in A. rewrite !ann_of_nat in B. destruct (nthp qg i), (nthp (op_gm o) i). cbn [fst snd] in *. congruence.
  Qed.
  Lemma mapM_map {A B} (f : A -> res B) (g : A -> B) l : (forall a, In a l -> f a = Ok (g a)) -> mapM f l = Ok (map g l).
  Proof. induction l as [|a l IH]; intros H; [reflexivity|]. cbn [mapM map]. rewrite (H a) by (left; reflexivity). cbn [bind]. rewrite IH by (intros; apply H; right; auto). reflexivity. Qed.
  Definition ftext (o : oper) : text := if rat_eqb (op_factor st o) (rat_of_Z 1) then [] else rat_str (op_factor st o) false ++ str " ".
  Lemma op_str_ok o : op_valid st o -> op_str st o = Ok (ftext o ++ op_label o ++ str " { " ++ inner (toks o) ++ str "}").
  Proof.
    intros (Lg & _). assert (G : forall i, (i < nsp st)%nat -> nth_error (op_gm o) i = Some (nthp (op_gm o) i)) by (intros i Hi; apply nthp_ok; rewrite Lg; assert (X := proj1 LT); unfold max_spaces; lia).
    unfold op_str. rewrite range_spaces, <- map_rev.
    assert (E1 : mapM (cre_words st o) (map Z.of_nat (seq 0 (nsp st))) = Ok (map (fun i => map wtext (block true (cr o) i)) (seq 0 (nsp st)))).
    { assert (X : forall l, (forall i, In i l -> (i < nsp st)%nat) -> mapM (cre_words st o) (map Z.of_nat l) = Ok (map (fun i => map wtext (block true (cr o) i)) l)); [|apply X; intros i Hi; apply in_seq in Hi; lia].
      induction l as [|i l IH]; intros H; [reflexivity|]. cbn [map mapM]. rewrite IH by (intros; apply H; right; auto). unfold cre_words. rewrite lab_ok by (apply H; left; auto). cbn [bind]. unfold gm_cre. rewrite aget_nat, G by (apply H; left; auto). cbn [bind].
      unfold block, cr. rewrite cre_of_nat, map_repeat. reflexivity. }
    assert (E2 : mapM (ann_words st o) (map Z.of_nat (rev (seq 0 (nsp st)))) = Ok (map (fun i => map wtext (block false (an o) i)) (rev (seq 0 (nsp st))))).
    { assert (X : forall l, (forall i, In i l -> (i < nsp st)%nat) -> mapM (ann_words st o) (map Z.of_nat l) = Ok (map (fun i => map wtext (block false (an o) i)) l)); [|apply X; intros i Hi; apply in_rev in Hi; apply in_seq in Hi; lia].
      induction l as [|i l IH]; intros H; [reflexivity|]. cbn [map mapM]. rewrite IH by (intros; apply H; right; auto). unfold ann_words. rewrite lab_ok by (apply H; left; auto). cbn [bind]. unfold gm_ann. rewrite aget_nat, G by (apply H; left; auto). cbn [bind].
      unfold block, an. rewrite ann_of_nat, map_repeat. reflexivity. }
    rewrite E1. cbn [bind]. rewrite E2. cbn [bind]. f_equal. rewrite <- (map_map (block true (cr o)) (map wtext)), <- (map_map (block false (an o)) (map wtext)).
    replace (concat (map (map wtext) (map (block true (cr o)) (seq 0 (nsp st)))) ++ concat (map (map wtext) (map (block false (an o)) (rev (seq 0 (nsp st))))) ++ [str "}"]) with (map wtext (toks o) ++ [str "}"]) by (unfold toks; rewrite map_app, !concat_map, <- app_assoc; reflexivity).
    assert (J := join_inner (toks o) (str "}")). assert (K : forall x y l, l <> [] -> join (x :: y :: l) (str " ") = x ++ str " " ++ y ++ str " " ++ join l (str " ")) by (intros x y [|z l] Hl; [congruence|]; reflexivity).
    assert (NE : map wtext (toks o) ++ [str "}"] <> []) by (destruct (map wtext (toks o)); discriminate). unfold ftext. destruct (rat_eqb _ _).
    - change ([] ++ ?x) with x. change ([op_label o; str "{"] ++ ?x) with (op_label o :: str "{" :: x). rewrite K, J by exact NE. reflexivity.
    - change ([rat_str (op_factor st o) false] ++ [op_label o; str "{"] ++ ?x) with (rat_str (op_factor st o) false :: op_label o :: str "{" :: x). set (f := rat_str _ _).
      transitivity (f ++ str " " ++ join (op_label o :: str "{" :: map wtext (toks o) ++ [str "}"]) (str " ")); [reflexivity|]. rewrite K, J by exact NE. rewrite <- app_assoc. reflexivity.
  Qed.
  Definition not_c (z c : ascii) : bool := negb (Ascii.eqb c z).
  Lemma not_in z s : ~ In z s -> all_of (not_c z) s.
  Proof. intros H. apply Forall_forall. intros c Hc. unfold not_c. destruct (Ascii.eqb_spec c z); [subst; contradiction|reflexivity]. Qed.
  Lemma dec_chars n z : is_digit z = false -> z <> "-"%char -> all_of (not_c z) (dec_text n).
  Proof.
    intros Hz Hm. assert (P : forall m, 0 <= m -> all_of (not_c z) (dec_text m)).
    { intros m Hmm. destruct (dec_pos m Hmm) as (_ & D & _). eapply Forall_impl; [|exact D]. cbn beta. intros c Hc. unfold not_c. destruct (Ascii.eqb_spec c z); [subst; congruence|reflexivity]. }
    destruct (Z.neg_nonneg_cases n) as [Hn|Hn]; [|apply P, Hn]. rewrite dec_neg by exact Hn. constructor; [unfold not_c; destruct (Ascii.eqb_spec "-" z); [congruence|reflexivity]|apply P; lia].
  Qed.
  Lemma rat_chars r b z : is_digit z = false -> z <> "-"%char -> z <> "+"%char -> z <> "/"%char -> all_of (not_c z) (rat_str r b).
  Proof.
    intros Hz H1 H2 H3. assert (C : forall c, c <> z -> not_c z c = true) by (intros c Hc; unfold not_c; destruct (Ascii.eqb_spec c z); [congruence|reflexivity]).
    unfold rat_str. destruct (num r =? 0); [constructor; [apply C; intros <-; discriminate|constructor]|]. apply Forall_app. split; [destruct (b && (0 <? num r)); repeat constructor; apply C; congruence|].
    destruct (den r =? 1); [|rewrite !Forall_app; repeat split; try (apply dec_chars; auto); repeat constructor; apply C; congruence]. destruct (num r =? -1); [repeat constructor; apply C; congruence|]. destruct (negb (num r =? 1)); [apply dec_chars; auto|constructor].
  Qed.
  Lemma inner_chars o z : is_letter z = false -> z <> " "%char -> z <> "+"%char -> all_of (not_c z) (inner (toks o)).
  Proof.
    intros Hz H1 H2. assert (C : forall c, c <> z -> not_c z c = true) by (intros c Hc; unfold not_c; destruct (Ascii.eqb_spec c z); [congruence|reflexivity]).
    assert (X := toks_letters o). induction X as [|[c d] T (Hc & _) _ IH]; [constructor|]. unfold inner in *. cbn [flat_map]. unfold all_of. rewrite !Forall_app. repeat split; auto; [|repeat constructor; apply C; congruence].
    unfold wtext. cbn [fst snd] in *. assert (c <> z) by (intros ->; congruence). destruct d; repeat constructor; apply C; congruence.
  Qed.
  Lemma ftext_chars o z : is_digit z = false -> z <> "-"%char -> z <> "+"%char -> z <> "/"%char -> z <> " "%char -> all_of (not_c z) (ftext o).
  Proof.
    intros. unfold ftext. destruct (rat_eqb _ _); [constructor|]. apply Forall_app. split; [apply rat_chars; auto|]. repeat constructor. unfold not_c. destruct (Ascii.eqb_spec " " z); [congruence|reflexivity].
  Qed.
  Lemma ftext_eq o q : op_gm o = op_gm q -> ftext o = ftext q.
  Proof. intros E. unfold ftext, op_factor. rewrite E. reflexivity. Qed.
  Definition otext (o : oper) : text := ftext o ++ op_label o ++ str " { " ++ inner (toks o) ++ str "}".
  Lemma otext_cut o q r s : printable_op st o -> printable_op st q -> otext o ++ r = otext q ++ s -> o = q /\ r = s.
  Proof.
    intros (Vo & No & Bo & _) (Vq & Nq & Bq & _) E. unfold otext in E.
    assert (E' : (ftext o ++ op_label o ++ str " ") ++ "{"%char :: " "%char :: inner (toks o) ++ "}"%char :: r = (ftext q ++ op_label q ++ str " ") ++ "{"%char :: " "%char :: inner (toks q) ++ "}"%char :: s) by (rewrite <- !app_assoc in *; exact E).
    apply (cutS (not_c "{")) in E'; [|unfold all_of; rewrite !Forall_app; repeat split; [apply ftext_chars; discriminate || reflexivity|apply not_in, Bo|repeat constructor]|unfold all_of; rewrite !Forall_app; repeat split; [apply ftext_chars; discriminate || reflexivity|apply not_in, Bq|repeat constructor]|reflexivity|reflexivity].
    destruct E' as (E1 & E2). injection E2 as E2. apply (cutS (not_c "}")) in E2; [|apply inner_chars; discriminate || reflexivity|apply inner_chars; discriminate || reflexivity|reflexivity|reflexivity]. destruct E2 as (E2 & E3). injection E3 as ->. split; [|reflexivity].
    assert (A := inner_reads o [] Vo No). rewrite E2, (inner_reads q [] Vq Nq) in A. injection A as A. symmetry in A. rewrite (ftext_eq o q A) in E1. apply app_inv_head in E1. apply app_inv_tail in E1. destruct o, q. cbn in *. congruence.
  Qed.
  Definition ltext (x : oprod * rational) : text := rat_str (snd x) true ++ concat (map (fun o => str " " ++ otext o) (fst x)).
  Lemma line_ok x : Forall (printable_op st) (fst x) -> line_str st x = Ok (ltext x).
  Proof. intros H. unfold line_str. rewrite (mapM_map _ otext); [cbn [bind]; unfold ltext; rewrite map_map; reflexivity|]. intros o Ho. apply op_str_ok. apply (proj1 (Forall_forall _ _) H) in Ho. apply Ho. Qed.
  Lemma sum_ok e : printable_sum st e -> opexpr_str st e = Ok (join (map ltext e) [newline]).
  Proof. intros H. unfold opexpr_str. rewrite (mapM_map _ ltext); [reflexivity|]. intros x Hx. apply line_ok. apply (proj1 (Forall_forall _ _) H) in Hx. apply Hx. Qed.
  Lemma prod_inj p : Forall (printable_op st) p -> forall q, Forall (printable_op st) q -> concat (map (fun o => str " " ++ otext o) p) = concat (map (fun o => str " " ++ otext o) q) -> p = q.
  Proof.
    induction 1 as [|o p Ho Hp IH]; intros [|o' q] Hq E; cbn [map concat app] in E; try discriminate; auto. inversion Hq; subst. change (str " ") with [" "%char] in E. cbn [app] in E. injection E as E. apply otext_cut in E; auto. destruct E as (-> & E). f_equal. apply IH; auto.
  Qed.
  Lemma dec_nonempty n : dec_text n <> [].
  Proof. destruct (Z.neg_nonneg_cases n) as [Hn|Hn]; [rewrite dec_neg by exact Hn; discriminate|apply dec_pos, Hn]. Qed.
  Lemma rat_true_inj a b : canonical a -> canonical b -> rat_str a true = rat_str b true -> a = b.
  Proof.
    intros (Pa & Ga) (Pb & Gb) E.
    (* both texts, as sign and body *)
    assert (S : forall r, canonical r -> num r <> 0 -> exists sg v m, sign_text sg v /\ sg <> [] /\ 0 < m /\ num r = v * m /\ rat_str r true = sg ++ (if den r =? 1 then if m =? 1 then [] else dec_text m else dec_text m ++ ["/"%char] ++ dec_text (den r))).
    { intros r (P & _) N. unfold rat_str. destruct (Z.eqb_spec (num r) 0); [contradiction|]. destruct (Z_lt_le_dec 0 (num r)) as [H|H].
      - exists ["+"%char], 1, (num r). split; [right; left; auto|]. split; [discriminate|]. split; [exact H|]. split; [lia|]. destruct (Z.ltb_spec 0 (num r)); [|lia]. cbn [andb]. f_equal. destruct (den r =? 1); [|reflexivity]. destruct (Z.eqb_spec (num r) (-1)); [lia|]. destruct (num r =? 1); reflexivity.
      - exists ["-"%char], (-1), (- num r). split; [right; right; auto|]. split; [discriminate|]. split; [lia|]. split; [lia|]. destruct (Z.ltb_spec 0 (num r)); [lia|]. cbn [andb app]. rewrite (dec_neg (num r)) by lia. destruct (den r =? 1); [|reflexivity].
        destruct (Z.eqb_spec (num r) (-1)) as [->|]; [reflexivity|]. destruct (Z.eqb_spec (num r) 1); [lia|]. destruct (Z.eqb_spec (- num r) 1); [lia|]. reflexivity. }
    assert (Z1 : forall r, canonical r -> num r = 0 -> den r = 1) by (intros r (P & G) N; rewrite N in G; cbn in G; rewrite Z.abs_eq in G by lia; exact G).
    destruct (Z.eq_dec (num a) 0) as [Na|Na], (Z.eq_dec (num b) 0) as [Nb|Nb].
    - assert (X := Z1 a (conj Pa Ga) Na). assert (Y := Z1 b (conj Pb Gb) Nb). destruct a, b. cbn in *. congruence.
    - exfalso. destruct (S b (conj Pb Gb) Nb) as (sg & v & m & Sg & Nsg & _ & _ & Eb). rewrite Eb in E. unfold rat_str in E. rewrite Na in E. cbn in E. destruct Sg as [[-> _]|[[-> _]|[-> _]]]; [contradiction| |]; discriminate E.
    - exfalso. destruct (S a (conj Pa Ga) Na) as (sg & v & m & Sg & Nsg & _ & _ & Ea). rewrite Ea in E. unfold rat_str in E. rewrite Nb in E. cbn in E. destruct Sg as [[-> _]|[[-> _]|[-> _]]]; [contradiction| |]; discriminate E.
    - destruct (S a (conj Pa Ga) Na) as (sg & v & m & Sg & Nsg & Pm & Ev & Ea), (S b (conj Pb Gb) Nb) as (sg' & v' & m' & Sg' & Nsg' & Pm' & Ev' & Eb). rewrite Ea, Eb in E.
      assert (X : v = v' /\ (if den a =? 1 then if m =? 1 then [] else dec_text m else dec_text m ++ ["/"%char] ++ dec_text (den a)) = (if den b =? 1 then if m' =? 1 then [] else dec_text m' else dec_text m' ++ ["/"%char] ++ dec_text (den b))).
      { destruct Sg as [[-> _]|[[-> ->]|[-> ->]]]; [contradiction| |]; (destruct Sg' as [[-> _]|[[-> ->]|[-> ->]]]; [contradiction| |]); cbn [app] in E; injection E as E; try discriminate; auto. }
      destruct X as (-> & E'). assert (M : m = m' /\ den a = den b).
      { assert (NS : forall n, all_of (not_c "/") (dec_text n)) by (intros n; apply dec_chars; [reflexivity|discriminate]).
        assert (C2 : forall n n' d d', dec_text n ++ "/"%char :: d = dec_text n' ++ "/"%char :: d' -> n = n' /\ d = d') by (intros n n' d d' H; apply (cutS (not_c "/")) in H; auto; try reflexivity; destruct H as [H1 H2]; apply dec_inj in H1; injection H2 as ->; auto).
        assert (C3 : forall n x d, all_of (not_c "/") x -> x = dec_text n ++ "/"%char :: d -> False) by (intros n x d Hx ->; apply Forall_app in Hx; destruct Hx as [_ Hx]; inversion Hx; discriminate).
        destruct (Z.eqb_spec (den a) 1), (Z.eqb_spec (den b) 1).
        - split; [|congruence]. destruct (Z.eqb_spec m 1), (Z.eqb_spec m' 1); try congruence; try (exfalso; eapply dec_nonempty; eauto; fail). apply dec_inj, E'.
        - exfalso. eapply C3; [|exact E']. destruct (m =? 1); [constructor|apply NS].
        - exfalso. eapply C3; [|symmetry; exact E']. destruct (m' =? 1); [constructor|apply NS].
        - apply C2 in E'. destruct E' as (-> & E'). apply dec_inj in E'. auto. }
      destruct M as (-> & Ed). destruct a, b. cbn in *. congruence.
  Qed.
  Lemma line_inj x y : Forall (printable_op st) (fst x) -> Forall (printable_op st) (fst y) -> canonical (snd x) -> canonical (snd y) -> ltext x = ltext y -> x = y.
  Proof.
    intros Px Py Cx Cy E. unfold ltext in E. assert (St : forall p, stops no_blank (concat (map (fun o => str " " ++ otext o) p))) by (intros [|o p]; [exact I|reflexivity]).
    apply (cutS no_blank) in E; auto using rat_str_no_blank. destruct E as (E1 & E2). apply rat_true_inj in E1; auto. apply prod_inj in E2; auto. destruct x, y. cbn in *. congruence.
  Qed.
  Lemma otext_line o : printable_op st o -> no_newline (otext o).
  Proof.
    intros (_ & _ & _ & H). assert (X : all_of (not_c newline) (otext o)).
    { unfold otext, all_of. rewrite !Forall_app. repeat split; [apply ftext_chars; discriminate || reflexivity|apply not_in, H|repeat constructor|apply inner_chars; discriminate || reflexivity|repeat constructor]. }
    eapply Forall_impl; [|exact X]. cbn beta. intros c Hc. unfold not_c in Hc. apply negb_true_iff in Hc. exact Hc.
  Qed.
  Lemma ltext_line x : Forall (printable_op st) (fst x) -> no_newline (ltext x).
  Proof.
    intros H. unfold ltext. apply Forall_app. split.
    - assert (X : all_of (not_c newline) (rat_str (snd x) true)) by (apply rat_chars; discriminate || reflexivity). eapply Forall_impl; [|exact X]. cbn beta. intros c Hc. unfold not_c in Hc. apply negb_true_iff in Hc. exact Hc.
    - destruct x as [p c]. cbn [fst] in *. clear c. induction H as [|o p Ho Hp IH]; [constructor|]. cbn [map concat]. rewrite !Forall_app. repeat split; auto; [repeat constructor|apply otext_line, Ho].
  Qed.
  Lemma ltext_nonempty x : ltext x <> [].
  Proof.
    unfold ltext, rat_str. destruct (Z.eqb_spec (num (snd x)) 0); [discriminate|]. destruct (Z.ltb_spec 0 (num (snd x))); [discriminate|]. cbn [andb app]. destruct (den (snd x) =? 1).
    - destruct (num (snd x) =? -1); [discriminate|]. destruct (Z.eqb_spec (num (snd x)) 1); [lia|]. cbn [negb]. rewrite (dec_neg (num (snd x))) by lia. discriminate.
    - rewrite (dec_neg (num (snd x))) by lia. discriminate.
  Qed.
  Lemma lines_inj e : printable_sum st e -> forall e', printable_sum st e' -> map ltext e = map ltext e' -> e = e'.
  Proof.
    induction 1 as [|x e (P & C) He IH]; intros [|y e'] He' E; cbn [map] in E; try discriminate; auto. inversion He' as [|? ? (P' & C') He2]; subst. injection E as E1 E2. f_equal; [apply line_inj; auto|apply IH; auto].
  Qed.
  Lemma sum_inj e e' s : printable_sum st e -> printable_sum st e' -> opexpr_str st e = Ok s -> opexpr_str st e' = Ok s -> e = e'.
  Proof.
    intros P P' E E'. rewrite sum_ok in E, E' by assumption. injection E as E. injection E' as E'. rewrite <- E in E'. clear E. apply lines_inj; auto.
    assert (L : forall e, printable_sum st e -> Forall no_newline (map ltext e)) by (intros z Hz; apply Forall_map; eapply Forall_impl; [|exact Hz]; intros x (H & _); apply ltext_line, H).
    assert (L1 := L e P). assert (L2 := L e' P'). destruct e as [|x e], e' as [|y e']; auto; cbn [map] in *.
    - exfalso. assert (N := ltext_nonempty y). destruct (map ltext e'); cbn in E'; [congruence|]. destruct (ltext y); [congruence|discriminate].
    - exfalso. assert (N := ltext_nonempty x). destruct (map ltext e); cbn in E'; [congruence|]. destruct (ltext x); [congruence|discriminate].
    - inversion L1; inversion L2; subst. rewrite <- (lines_join (ltext x) (map ltext e)), <- (lines_join (ltext y) (map ltext e')) by auto. rewrite E'. reflexivity.
  Qed.
  Lemma op_inj o q s : printable_op st o -> printable_op st q -> op_str st o = Ok s -> op_str st q = Ok s -> o = q.
  Proof.
    intros P Q E E'. rewrite op_str_ok in E, E' by (apply P || apply Q). injection E as E. injection E' as E'. rewrite <- E in E'. fold (otext o) (otext q) in E'. apply (f_equal (fun x => x ++ [])) in E'. apply otext_cut in E'; auto. destruct E'; auto.
  Qed.
  Lemma op_reads o : printable_op st o -> exists f w, op_str st o = Ok (f ++ op_label o ++ str " { " ++ w ++ str "}") /\ (f = if rat_eqb (op_factor st o) (rat_of_Z 1) then [] else rat_str (op_factor st o) false ++ str " ") /\
    component_op st (op_label o) w = Ok o /\ make_op_expr st (op_label o) [w] false = Ok [([o], mkR 1 1)].
  Proof.
    intros (V & N & _). exists (ftext o), (inner (toks o)). split; [apply op_str_ok, V|]. split; [reflexivity|]. assert (C := inner_reads o (op_label o) V N). destruct o as [l g]. cbn [op_label op_gm] in *. split; [exact C|]. unfold make_op_expr. cbn [foldM]. rewrite C. reflexivity.
  Qed.
End WithReg.
Lemma repr_inj a b : rat_repr a = rat_repr b -> a = b.
Proof.
  intros E. unfold rat_repr in E. apply app_inv_head in E. apply (cutS (not_c ",")) in E; [|apply dec_chars; [reflexivity|discriminate]|apply dec_chars; [reflexivity|discriminate]|reflexivity|reflexivity]. destruct E as (E1 & E2). injection E2 as E2. apply app_inv_tail in E2. apply dec_inj in E1, E2. destruct a, b. cbn in *. congruence.
Qed.
(** [repr] is a call of the constructor that gives the rational back. *)
Lemma dec_signed n : exists sg v m, sign_text sg v /\ m <> [] /\ all_of is_digit m /\ n = v * dec_value m /\ dec_text n = sg ++ m.
Proof.
  unfold dec_text, sign_text. destruct (n <? 0) eqn:E.
  - apply Z.ltb_lt in E. destruct (digits_ok (Z.to_nat (- n)) (- n)) as (A & B & C); [lia|right; split; [reflexivity|lia]|]. exists ["-"%char], (-1), (digits (Z.to_nat (- n)) (- n)). rewrite C. repeat split; auto. lia.
  - apply Z.ltb_ge in E. destruct (digits_ok (S (Z.to_nat n)) n) as (A & B & C); [lia|left; lia|]. exists [], 1, (digits (S (Z.to_nat n)) n). rewrite C. repeat split; auto. lia.
Qed.
Lemma repr_reads r : canonical r -> exists sg v n d, rat_repr r = str "rational(" ++ sg ++ n ++ str "," ++ d ++ str ")" /\ sign_text sg v /\ n <> [] /\ all_of is_digit n /\ d <> [] /\ all_of is_digit d /\
  v * dec_value n = num r /\ dec_value d = den r /\ rat_make (v * dec_value n) (dec_value d) = r.
Proof.
  intros C. destruct (dec_signed (num r)) as (sg & v & n & Sg & N1 & N2 & V & E). assert (P : 0 < den r) by apply C.
  destruct (digits_ok (S (Z.to_nat (den r))) (den r)) as (A & B & D); [lia|left; lia|].
  exists sg, v, n, (digits (S (Z.to_nat (den r))) (den r)). split; [|rewrite D, <- V; repeat split; auto].
  - unfold rat_repr. rewrite E, <- !app_assoc. unfold dec_text at 1. destruct (Z.ltb_spec (den r) 0); [lia|]. reflexivity.
  - apply canonical_val_inj; auto; [apply rat_make_canonical; lia|]. rewrite rat_make_val by lia. reflexivity.
Qed.
