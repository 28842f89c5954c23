(** Lemmas for C59: the sums. *)
Set Warnings "-notation-overridden,-ambiguous-paths".
From Coq Require Import ZArith List Bool Ascii String Lia.
From mathcomp Require Import all_ssreflect ssralg.
From Verif Require Import Res RegistryModel RegistryProofs CoreModel OrderProofs RationalModel TextModel EquationModel EquationSpec EquationProofs2 EinsumSpec EinsumProofs.
Set Implicit Arguments.
Unset Strict Implicit.
Unset Printing Implicit Defensive.
Import GRing.Theory.
Local Open Scope ring_scope.

(** ** The subscripts *)
Lemma arrow_ok l out : (forall c, In c l -> c <> "-"%char) -> split_arrow (l ++ str "->" ++ out)%list = Some (l, out).
Proof.
  elim: l => [|c l IH] H //.
  have H1 : split_arrow (l ++ str "->" ++ out)%list = Some (l, out) by apply: IH => d Hd; apply: H; right.
  change ((c :: l) ++ str "->" ++ out)%list with (c :: (l ++ str "->" ++ out))%list. cbn [split_arrow].
  have -> : (c =? "-")%char = false by apply/Ascii.eqb_neq; apply: H; left.
  cbn [andb]. rewrite H1. by case: (l ++ str "->" ++ out)%list H1.
Qed.
Lemma commas_word w s : (forall c, In c w -> c <> ","%char) -> split_commas (w ++ s)%list = match split_commas s with a :: l => ((w ++ a)%list :: l) | [::] => [:: w] end.
Proof.
  elim: w => [|c w IH] H; first by cbn [app]; case: s => [|d s] //=; case: (d =? ",")%char => //; case: (split_commas s).
  cbn [app split_commas]. have -> : (c =? ",")%char = false by apply/Ascii.eqb_neq; apply: H; left.
  rewrite IH; last by move=> d Hd; apply: H; right. by case: (split_commas s).
Qed.
Lemma commas_nil s : split_commas s <> [::].
Proof. by case: s => [|c s] //=; case: (c =? ",")%char => //; case: (split_commas s). Qed.
Lemma commas_ok ws : ws <> [::] -> (forall w c, In w ws -> In c w -> c <> ","%char) -> split_commas (join ws (str ",")) = ws.
Proof.
  elim: ws => [//|w ws IH] _ H. case: ws IH H => [|v ws] IH H.
  - cbn [join]. have := @commas_word w [::] (fun c => H w c (or_introl (erefl w))). rewrite app_nil_r => ->. by rewrite /= app_nil_r.
  - change (join (w :: v :: ws) (str ",")) with (w ++ str "," ++ join (v :: ws) (str ","))%list. rewrite commas_word; last by move=> c; apply: (H w c); left.
    cbn [str list_ascii_of_string app split_commas Ascii.eqb Bool.eqb andb]. rewrite IH //; last by move=> x c Hx; apply: (H x c); right. by rewrite app_nil_r.
Qed.

(** ** Sums over variables *)
Section Sums.
  Variable K : comRingType.
  Variables (X Y : Type) (eX : X -> X -> bool) (eY : Y -> Y -> bool) (HX : forall a b, eX a b = true <-> a = b) (HY : forall a b, eY a b = true <-> a = b).
  Variables (f : X -> Y) (D : X -> Prop) (inj : forall a b, D a -> D b -> f a = f b -> a = b).
  Lemma sum_over_map dX dY l : (forall x, In x l -> D x /\ dX x = dY (f x)) ->
    forall (F : (X -> nat) -> K) (G : (Y -> nat) -> K), (forall e e', (forall x, D x -> e x = e' (f x)) -> F e = G e') ->
    forall e e', (forall x, D x -> List.In x l \/ e x = e' (f x)) -> sum_over eX dX l e F = sum_over eY dY (List.map f l) e' G.
  Proof.
    elim: l => [|x l IH] Hl F G FG e e' He.
    - cbn [sum_over List.map]. apply: FG => x Dx. by case: (He x Dx).
    - cbn [sum_over List.map]. have [Dx <-] := Hl x (or_introl (erefl x)). apply: eq_bigr => p _. apply: IH => // [y Hy|y Dy]; first by apply: Hl; right.
      case E: (eX y x).
      + right. move/HX: E => ->. by rewrite (proj2 (HY _ _) (erefl (f x))).
      + case E': (eY (f y) (f x)); first by move/HY: E' => /(inj Dy Dx) /HX; rewrite E.
        case: (He y Dy) => [[Q|Q]|Q]; [|by left|by right]. by move/HX: (esym Q); rewrite E.
  Qed.
End Sums.
Lemma nodup_map_inj (X Y : Type) (dx : forall a b : X, {a = b} + {a <> b}) (dy : forall a b : Y, {a = b} + {a <> b}) (f : X -> Y) l :
  (forall a b, In a l -> In b l -> f a = f b -> a = b) -> nodup dy (List.map f l) = List.map f (nodup dx l).
Proof.
  elim: l => [|a l IH] H //. cbn [nodup List.map]. rewrite IH; last by move=> x y Hx Hy; apply: H; right.
  case: (in_dec dx a l) => I; case: (in_dec dy (f a) (List.map f l)) => J //.
  - by case: J; apply: in_map.
  - case: I. move/in_map_iff: J => [b [E J]]. have -> // : a = b by apply: H; [left|right|].
Qed.
Lemma filter_map_inj (X Y : Type) (f : X -> Y) (p : X -> bool) (q : Y -> bool) l : (forall a, In a l -> p a = q (f a)) -> List.filter q (List.map f l) = List.map f (List.filter p l).
Proof. elim: l => [|a l IH] H //. cbn [List.filter List.map]. rewrite (H a); last by left. rewrite IH; last by move=> b Hb; apply: H; right. by case: (q (f a)). Qed.
Lemma existsb_map_inj (f : index -> ascii) i l : (forall j, In j l -> f i = f j -> i = j) -> existsb (Ascii.eqb (f i)) (List.map f l) = existsb (index_eqb i) l.
Proof.
  elim: l => [|j l IH] H //. cbn [existsb List.map]. rewrite IH; last by move=> k Hk; apply: H; right. congr orb.
  case E: (index_eqb i j); first by move/index_eqb_eq: E => ->; rewrite Ascii.eqb_refl.
  apply/Ascii.eqb_neq => Q. move/(H j (or_introl (erefl j))): Q => Q. move: E. by rewrite Q (proj2 (index_eqb_eq j j) (erefl j)).
Qed.

Section Main.
  Variables (K : comRingType) (st : osi) (dim : Z -> nat) (tens : text -> text -> array K) (lhs : tensor) (rhs : list tensor).
  Hypothesis WS : forall t, In t rhs -> well_shaped st dim tens t.
  Variable f : index -> ascii.
  Let L := flat_map slots_of (rhs ++ [:: lhs]).
  Hypothesis letters : forall i, In i L -> is_letter (f i).
  Hypothesis inj : forall i j, In i L -> In j L -> f i = f j -> i = j.
  Let ins := List.map (fun t => List.map f (slots_of t)) rhs.
  Let out := List.map f (slots_of lhs).
  Let sub := (join ins (str ",") ++ str "->" ++ out)%list.
  Let args := List.map (array_of st tens) rhs.

  Lemma inL t i : In t rhs -> In i (slots_of t) -> In i L.
  Proof. move=> H Hi. rewrite /L. apply/in_flat_map. exists t. split => //. apply/in_app_iff. by left. Qed.
  Lemma inL' i : In i (slots_of lhs) -> In i L.
  Proof. move=> Hi. apply/in_flat_map. exists lhs. split => //. apply/in_app_iff. by right; left. Qed.
  Lemma inLr i : In i (flat_map slots_of rhs) -> In i L.
  Proof. move/in_flat_map => [t [H Hi]]. exact: inL H Hi. Qed.
  Lemma ins_plain w c : In w ins -> In c w -> c <> "-"%char /\ c <> ","%char.
  Proof. move/in_map_iff => [t [<- Ht]] /in_map_iff [i [<- Hi]]. apply: letter_plain. apply: letters. exact: inL Ht Hi. Qed.
  Lemma sub_arrow : split_arrow sub = Some (join ins (str ","), out).
  Proof.
    apply: arrow_ok => c. have := ins_plain. elim: ins => [|w ws IH] H //. rewrite join_comma_args => /in_app_iff [Hc|/in_flat_map [v [Hv /in_app_iff [[<-|[]]|Hc]]]] //.
    - by apply: (proj1 (H w c _ _)) => //; left.
    - by apply: (proj1 (H v c _ _)) => //; right.
  Qed.
  Lemma sub_commas : rhs <> [::] -> split_commas (join ins (str ",")) = ins.
  Proof. move=> H. apply: commas_ok; first by rewrite /ins; case: rhs H. move=> w c Hw Hc. exact: (proj2 (ins_plain Hw Hc)). Qed.
  Lemma concat_ins : List.concat ins = List.map f (flat_map slots_of rhs).
  Proof. rewrite /ins. elim: rhs => [|t l IH] //. cbn [List.map List.concat flat_map]. by rewrite IH map_app. Qed.
  Lemma axes_ins : axes ins args = List.map (fun i => (f i, dim (isp i))) (flat_map slots_of rhs).
  Proof.
    rewrite /axes /ins /args. elim: rhs WS => [|t l IH] H //. cbn [List.map List.combine flat_map map flatten foldr]. rewrite map_app -IH; last by move=> u Hu; apply: H; right.
    rewrite [shape _](H t (or_introl (erefl t))). rewrite /flatten /=. congr cat. elim: (slots_of t) => [|i s IHs] //=. by rewrite IHs.
  Qed.
  Lemma axes_same c n m : In (c, n) (axes ins args) -> In (c, m) (axes ins args) -> n = m.
  Proof. rewrite axes_ins => /in_map_iff [i [[<- <-] Hi]] /in_map_iff [j [[E <-] Hj]]. by rewrite (inj (inLr Hj) (inLr Hi) E). Qed.
  Lemma axis_ok i : In i (flat_map slots_of rhs) -> axis_length (f i) (axes ins args) = dim (isp i).
  Proof.
    move=> Hi. have A := axes_same. have P : In (f i, dim (isp i)) (axes ins args) by rewrite axes_ins; apply: (in_map (fun i => (f i, dim (isp i)))).
    move: P (fun n => A (f i) n (dim (isp i))) => P {}A. elim: (axes ins args) P A => [|[c n] ax IH] P A //. cbn [axis_length]. case E: (c =? f i)%char.
    - move/Ascii.eqb_eq: E => E. subst c. apply: A => //. by left.
    - case: P => [[Q _]|P]; first by rewrite Q Ascii.eqb_refl in E. apply: IH => // k Hk Hk'. apply: A; by right.
  Qed.
  Lemma out_nodup : NoDup out <-> NoDup (slots_of lhs).
  Proof.
    rewrite /out. have: forall i j, In i (slots_of lhs) -> In j (slots_of lhs) -> f i = f j -> i = j by move=> i j Hi Hj; apply: inj; apply: inL'.
    elim: (slots_of lhs) => [|i l IH] H; first by split => _; constructor. have {}IH := IH (fun a b Ha Hb => H a b (or_intror Ha) (or_intror Hb)).
    split => N; inversion N as [|? ? N1 N2]; subst; constructor; try (by apply/IH).
    - move=> Hi. apply: N1. exact: in_map.
    - move/in_map_iff => [j [E Hj]]. apply: N1. have <- // : j = i by apply: H => //; [right|left].
  Qed.
  Lemma accept_iff : accepts sub args <-> rhs <> [::] /\ NoDup (slots_of lhs) /\ incl (slots_of lhs) (flat_map slots_of rhs).
  Proof.
    split.
    - move=> [l [o [E [Ne [_ [_ [N I]]]]]]]. move: E. rewrite sub_arrow => -[El Eo]. subst l o. have Hr : rhs <> [::] by move: Ne; rewrite /args; case: (rhs). split => //. split; first by apply/out_nodup.
      move=> i Hi. have : In (f i) out by apply: in_map. move/I. rewrite sub_commas // concat_ins => /in_map_iff [j [E Hj]]. have <- // : j = i by apply: inj => //; [exact: inLr|exact: inL'].
    - move=> [Hr [N I]]. exists (join ins (str ",")), out. rewrite sub_commas //. split; first exact: sub_arrow. split; first by rewrite /args; case: (rhs) Hr. split.
      + rewrite /ins /args !map_map. apply: map_ext_in => t Ht. by rewrite map_length [shape _](WS Ht) map_length.
      + split; first exact: axes_same. split; first by apply/out_nodup. move=> c /in_map_iff [i [<- Hi]]. rewrite concat_ins. apply: in_map. exact: I.
  Qed.
  Lemma letter_value_ok phi i : NoDup (slots_of lhs) -> In i (slots_of lhs) -> letter_value out (List.map phi (slots_of lhs)) (f i) = phi i.
  Proof.
    have Q : forall j, In j (slots_of lhs) -> In i (slots_of lhs) -> f i = f j -> i = j by move=> j Hj Hi; apply: inj; apply: inL'.
    rewrite /out => N Hi0. move: Q N (Hi0). move=> Q. have {}Q : forall j, In j (slots_of lhs) -> f i = f j -> i = j by move=> j Hj; exact: Q. clear Hi0. elim: (slots_of lhs) Q => [|j l IH] Q N Hi //.
    cbn [List.map letter_value]. case E: (f i =? f j)%char; first by move/Ascii.eqb_eq: E => /(Q j (or_introl (erefl j))) ->.
    inversion N as [|? ? N1 N2]; subst. case: Hi => [Hi|Hi]; first by subst j; rewrite Ascii.eqb_refl in E. apply: IH => // k Hk. by apply: Q; right.
  Qed.
  Theorem einsum_value phi : accepts sub args -> einsum sub args (List.map phi (slots_of lhs)) = rhs_value st dim tens lhs rhs phi.
  Proof.
    move/accept_iff => [Hr [N I]]. rewrite /einsum sub_arrow sub_commas // /rhs_value. symmetry.
    rewrite concat_ins (filter_map_inj (p := fun i => negb (existsb (index_eqb i) (slots_of lhs)))); last first.
      move=> i Hi. rewrite /out existsb_map_inj // => j Hj. apply: inj; [exact: inLr|exact: inL'].
    rewrite (nodup_map_inj index_dec); last by move=> a b /filter_In [Ha _] /filter_In [Hb _]; apply: inj; apply: inLr.
    apply: (@sum_over_map K index ascii index_eqb Ascii.eqb index_eqb_eq Ascii.eqb_eq f (fun i => In i L) inj).
    - move=> i /nodup_In /filter_In [Hi _]. split; [exact: inLr|]. by rewrite axis_ok.
    - move=> e e' He. rewrite /ins /args.
      have: forall t i, In t rhs -> In i (slots_of t) -> e i = e' (f i) by move=> t i Ht Hi; apply: He; exact: inL Ht Hi.
      elim: (rhs) => [|t l IH] H; first by rewrite !big_nil. cbn [List.map List.combine]. rewrite !big_cons IH; last by move=> u i Hu; apply: H; right. congr (_ * _). cbn [fst snd]. congr elem.
      rewrite map_map. apply: map_ext_in => i Hi. apply: (H t) => //. by left.
    - move=> i Hi. case E: (existsb (index_eqb i) (slots_of lhs)).
      + right. move/existsb_exists: E => [j [Hj /index_eqb_eq Q]]. subst j. by rewrite letter_value_ok.
      + left. apply/nodup_In. apply/filter_In. split; last by rewrite E. move: Hi => /in_flat_map [t [/in_app_iff [Ht|[<-|[]]] Hi]]; first by apply/in_flat_map; exists t. exact: I.
  Qed.
End Main.

(** ** The compiled statement *)
Lemma compile_text fmt st e lhs : hd_error (tm_tens (eq_lhs e)) = Some lhs -> (forall t, In t (lhs :: tm_tens (eq_rhs e)) -> regd st (slots_of t)) ->
  compile_einsum fmt st e = bind (einsum_indices st (tm_tens (eq_rhs e)) lhs) (fun x => Ok (statement_text st (fmt (eq_factor e)) (join x.1 (str ",") ++ str "->" ++ x.2)%list lhs (tm_tens (eq_rhs e)))).
Proof.
  move=> H Rg. rewrite /compile_einsum H /of_opt_ub. cbn [bind]. rewrite (mapM_labels st (t_upper lhs ++ t_lower lhs)%list); last by apply: (Rg lhs); left.
  cbn [bind]. case: (einsum_indices st (tm_tens (eq_rhs e)) lhs) => [[ins out]| | |] //. cbn [bind fst snd].
  have -> : mapM (fun t => bind (mapM (fun i => space_label st (isp i)) (t_upper t ++ t_lower t)%list) (fun l => Ok (t_label t ++ str "[""" ++ l ++ str """]")%list)) (tm_tens (eq_rhs e)) =
    Ok (List.map (fun t => t_label t ++ str "[""" ++ space_key st (slots_of t) ++ str """]")%list (tm_tens (eq_rhs e))).
    move: (fun t Ht => Rg t (or_intror Ht)). elim: (tm_tens (eq_rhs e)) => [|t l IH] {}Rg //. cbn [mapM List.map]. rewrite (mapM_labels st (t_upper t ++ t_lower t)%list); last by apply: (Rg t); left.
    cbn [bind]. rewrite IH; last by move=> u Hu; apply: Rg; right. reflexivity.
  cbn [bind]. rewrite join_comma_args /statement_text. congr Ok. rewrite -!app_assoc. repeat congr (_ ++ _)%list. rewrite !flat_map_concat_map map_map. by [].
Qed.
Theorem compiled fmt st e lhs s : reachable st -> names_ok st -> hd_error (tm_tens (eq_lhs e)) = Some lhs ->
  (forall t, In t (lhs :: tm_tens (eq_rhs e)) -> forall i, In i (slots_of t) -> (0 <= isp i < num_spaces st)%Z) ->
  compile_einsum fmt st e = Ok s ->
  exists sub, s = statement_text st (fmt (eq_factor e)) sub lhs (tm_tens (eq_rhs e)) /\
    forall (K : comRingType) (dim : Z -> nat) (tens : text -> text -> array K), (forall t, In t (tm_tens (eq_rhs e)) -> well_shaped st dim tens t) ->
      (accepts sub (List.map (array_of st tens) (tm_tens (eq_rhs e))) <->
         tm_tens (eq_rhs e) <> [::] /\ NoDup (slots_of lhs) /\ incl (slots_of lhs) (flat_map slots_of (tm_tens (eq_rhs e)))) /\
      (accepts sub (List.map (array_of st tens) (tm_tens (eq_rhs e))) -> forall phi : index -> nat,
         einsum sub (List.map (array_of st tens) (tm_tens (eq_rhs e))) (List.map phi (slots_of lhs)) = rhs_value st dim tens lhs (tm_tens (eq_rhs e)) phi).
Proof.
  move=> R G H Rg. rewrite (@compile_text fmt st e lhs H Rg). case E: (einsum_indices st (tm_tens (eq_rhs e)) lhs) => [[ins out]| | |] //. cbn [bind fst snd] => -[<-].
  have [f [Ei [Eo [Lf If]]]] := einsum_sigma st _ _ _ _ R G Rg E. subst ins out. eexists. split; first reflexivity. move=> K dim tens WS. split; [exact: (accept_iff WS Lf If)|].
  move=> A phi. exact: (einsum_value WS Lf If phi A).
Qed.
Theorem compiles fmt st e lhs : reachable st -> names_ok st -> hd_error (tm_tens (eq_lhs e)) = Some lhs ->
  (forall t, In t (lhs :: tm_tens (eq_rhs e)) -> forall i, In i (slots_of t) -> (0 <= isp i < num_spaces st)%Z) ->
  if (List.length (nodup index_dec (flat_map slots_of (tm_tens (eq_rhs e) ++ [:: lhs])%list)) <=? 52)%nat then exists s, compile_einsum fmt st e = Ok s else compile_einsum fmt st e = UB.
Proof.
  move=> R G H Rg. rewrite (@compile_text fmt st e lhs H Rg). have := einsum_52 st _ _ R G Rg. case: (_ <=? 52)%nat => [[[ins out] ->]|->] //. eexists. reflexivity.
Qed.
