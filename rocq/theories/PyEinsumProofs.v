(** Lemmas for compile_einsum (C60). *)
From Coq Require Import ZArith List Bool Ascii String Lia Arith Permutation.
From Verif Require Import Res PartitionsModel RegistryModel RegistryProofs RegistryProps CoreModel OrderProofs RationalModel AlgebraModel OperatorProofs TextModel TextProofs EquationModel EquationSpec EquationProofs EquationProofs2 EinsumProofs PyEinsumModel PyEinsumSpec.
Import ListNotations.
Local Open Scope Z_scope.

(** ** The dictionary of names *)
Lemma nget_nput c d v m : nget c (nput d v m) = if Ascii.eqb c d then Some v else nget c m.
Proof.
  induction m as [|[k w] m IH]; cbn [nput nget]; [reflexivity|]. destruct (Ascii.eqb_spec d k) as [->|N]; cbn [nget]; [destruct (Ascii.eqb c k); reflexivity|].
  destruct (Ascii.eqb_spec c k) as [->|N']; [|exact IH]. destruct (Ascii.eqb_spec k d); [congruence|reflexivity].
Qed.
Lemma to_dict_get st sp c names : reachable st -> space_label st sp = Ok c -> space_indices st sp = Ok names -> nget c (to_dict st) = Some names.
Proof.
  intros R. assert (N := labels_nodup st R). unfold to_dict, space_label, space_indices, aget. destruct (sp <? 0); [discriminate|]. destruct (nth_error (space_info st) (Z.to_nat sp)) as [s|] eqn:E; [|discriminate]. cbn [bind]. intros [= <-] [= <-].
  enough (G : forall (l : list orbital_space) k d, NoDup (map os_label l) -> nth_error l k = Some s -> nget (os_label s) (fold_left (fun d s => nput (os_label s) (os_indices s) d) l d) = Some (os_indices s)) by (eapply G; eauto).
  assert (K : forall (l : list orbital_space) c d, ~ In c (map os_label l) -> nget c (fold_left (fun d s => nput (os_label s) (os_indices s) d) l d) = nget c d).
  { clear. induction l as [|s l IH]; intros c d H; [reflexivity|]. cbn [fold_left map In] in *. rewrite IH by tauto. rewrite nget_nput. destruct (Ascii.eqb_spec c (os_label s)) as [->|]; [tauto|reflexivity]. }
  clear N E R. induction l as [|t l IH]; intros k d N E; [destruct k; discriminate|]. cbn [map] in N. inversion N as [|? ? N1 N2]; subst. cbn [fold_left]. destruct k as [|k]; cbn [nth_error] in E.
  - injection E as ->. rewrite K by exact N1. rewrite nget_nput, Ascii.eqb_refl. reflexivity.
  - apply (IH k); auto.
Qed.

Section Names.
  Variable st : osi.
  Hypotheses (R : reachable st) (NE : nonempty_names st).
  Definition key (i : index) : text := match index_str st i with Ok s => s | _ => [] end.
  Definition reg (i : index) : Prop := 0 <= isp i < num_spaces st.
  Lemma key_ok i : reg i -> exists c, space_label st (isp i) = Ok c /\ index_str st i = Ok (key i) /\ hd_error (key i) = Some c.
  Proof. intros H. destruct (reg_label_defined st (isp i) H) as (c & E). exists c. split; [exact E|]. unfold key, index_str. rewrite E. split; reflexivity. Qed.
  Lemma key_inj i j : reg i -> reg j -> key i = key j -> i = j.
  Proof.
    intros Hi Hj E. destruct (reg_label_defined st (isp i) Hi) as (c & Ec), (reg_label_defined st (isp j) Hj) as (d & Ed). unfold key, index_str in E. rewrite Ec, Ed in E. cbn [bind] in E. injection E as -> E. apply dec_inj in E.
    apply reg_label_roundtrip in Ec, Ed; try apply reachable_ok, R. rewrite Ec in Ed. injection Ed as Ed. destruct i, j; cbn in *; congruence.
  Qed.
  Definition nm (sp : Z) : list text := match space_indices st sp with Ok l => l | _ => [] end.
  Lemma nm_ok sp : 0 <= sp < num_spaces st -> space_indices st sp = Ok (nm sp).
  Proof. intros H. unfold nm. destruct (reg_label_defined st sp H) as (c & E). unfold space_label, space_indices in *. destruct (aget (space_info st) sp); try discriminate. reflexivity. Qed.
  Lemma nm_nodup sp : 0 <= sp < num_spaces st -> NoDup (nm sp).
  Proof. intros H. destruct (C10_registry_consistent st R) as (_ & _ & _ & _ & N & _). apply (N sp). apply nm_ok, H. Qed.
  Lemma nm_disj sp sp' x : 0 <= sp < num_spaces st -> 0 <= sp' < num_spaces st -> In x (nm sp) -> In x (nm sp') -> sp = sp'.
  Proof. intros H H'. destruct (C10_registry_consistent st R) as (_ & _ & _ & N & _ & _). apply N; apply nm_ok; auto. Qed.
  Definition cnt (q : list index) (sp : Z) : nat := List.length (filter (fun i => isp i =? sp) q).

  Record inv (q : list index) (f : index -> text) (x : name_dict * letter_map) : Prop := {
    iv_nodup : NoDup q;
    iv_reg : forall i, In i q -> reg i;
    iv_some : forall i, In i q -> lfind (key i) (snd x) = Some (f i);
    iv_none : forall i, reg i -> ~ In i q -> lfind (key i) (snd x) = None;
    iv_used : forall i, In i q -> In (f i) (firstn (cnt q (isp i)) (nm (isp i)));
    iv_le : forall sp, 0 <= sp < num_spaces st -> (cnt q sp <= List.length (nm sp))%nat;
    iv_rest : forall sp c, space_label st sp = Ok c -> nget c (fst x) = Some (skipn (cnt q sp) (nm sp));
    iv_inj : forall i j, In i q -> In j q -> f i = f j -> i = j }.

  Lemma inv0 f : inv [] f (to_dict st, []).
  Proof.
    constructor; cbn [fst snd].
    - constructor.
    - intros i [].
    - intros i [].
    - reflexivity.
    - intros i [].
    - intros sp _. cbn. lia.
    - intros sp c E. cbn [cnt filter List.length skipn]. apply (to_dict_get st sp); auto. apply nm_ok. destruct (C10_registry_consistent st R) as (_ & A & _). eapply A. apply reg_label_roundtrip; [apply reachable_ok, R|exact E].
    - intros i j [].
  Qed.
  Lemma skipn_S_eq {A} k (l : list A) a r : skipn k l = a :: r -> skipn (S k) l = r.
  Proof. revert k. induction l as [|b l IH]; intros [|k] H; cbn [skipn] in *; try discriminate; [congruence|]. apply (IH k H). Qed.
  Lemma firstn_In {A} (x : A) n l : In x (firstn n l) -> In x l.
  Proof. intros H. rewrite <- (firstn_skipn n l). apply in_app_iff. auto. Qed.
  Lemma step q f x i : inv q f x -> reg i ->
    (In i q -> py_index st i x = Ok (f i, x)) /\
    (~ In i q -> (cnt q (isp i) < List.length (nm (isp i)))%nat -> exists n x', py_index st i x = Ok (n, x') /\ inv (q ++ [i]) (fun j => if index_dec j i then n else f j) x') /\
    (~ In i q -> cnt q (isp i) = List.length (nm (isp i)) -> py_index st i x = Throw).
  Proof.
    intros I Hi. destruct (key_ok i Hi) as (c & Ec & Ek & Hd). unfold py_index. rewrite Ek. cbn [bind]. rewrite Hd. cbn [of_opt_throw bind]. rewrite (iv_rest _ _ _ I (isp i) c Ec). cbn [of_opt_throw bind]. split; [|split].
    - intros Hq. rewrite (iv_some _ _ _ I i Hq). assert (N : f i <> []). { eapply NE; [apply nm_ok; exact Hi|]. eapply firstn_In. apply (iv_used _ _ _ I i Hq). } destruct (f i); [congruence|reflexivity].
    - intros Hq Lt. rewrite (iv_none _ _ _ I i Hi Hq). destruct (skipn (cnt q (isp i)) (nm (isp i))) as [|n rest] eqn:Es; [assert (X := skipn_length (cnt q (isp i)) (nm (isp i))); rewrite Es in X; cbn in X; lia|].
      exists n. eexists. split; [reflexivity|]. assert (C : forall sp, cnt (q ++ [i]) sp = (cnt q sp + if (isp i =? sp)%Z then 1 else 0)%nat).
      { intros sp. unfold cnt. rewrite filter_app, app_length. cbn [filter]. destruct (isp i =? sp); reflexivity. }
      assert (Nn : nth_error (nm (isp i)) (cnt q (isp i)) = Some n) by (rewrite <- (firstn_skipn (cnt q (isp i)) (nm (isp i))), nth_error_app2; rewrite firstn_length_le by lia; [rewrite Nat.sub_diag, Es; reflexivity|lia]).
      assert (Fn : firstn (S (cnt q (isp i))) (nm (isp i)) = firstn (cnt q (isp i)) (nm (isp i)) ++ [n]).
      { clear - Nn. revert Nn. generalize (cnt q (isp i)). induction (nm (isp i)) as [|a l IH]; intros [|k]; try discriminate; cbn [nth_error firstn]; [intros [= ->]; reflexivity|]. intros E. cbn [app]. f_equal. rewrite <- (IH k E). reflexivity. }
      assert (Un : ~ In n (firstn (cnt q (isp i)) (nm (isp i)))). { intros X. assert (N := nm_nodup (isp i) Hi). rewrite <- (firstn_skipn (S (cnt q (isp i))) (nm (isp i))), Fn, <- app_assoc in N. apply NoDup_remove_2 in N. apply N, in_app_iff. left. exact X. }
      assert (Fr : forall j, In j q -> f j <> n). { intros j Hj E. assert (U := iv_used _ _ _ I j Hj). assert (S : isp j = isp i). { apply (nm_disj _ _ n); auto; [apply (iv_reg _ _ _ I j Hj)|rewrite <- E; eapply firstn_In; eauto|eapply nth_error_In; eauto]. } rewrite S, E in U. auto. }
      constructor; cbn [fst snd].
      + apply NoDup_snoc. split; [apply (iv_nodup _ _ _ I)|exact Hq].
      + intros j Hj. apply in_app_iff in Hj. destruct Hj as [Hj|[<-|[]]]; [apply (iv_reg _ _ _ I j Hj)|exact Hi].
      + intros j Hj. cbn [lfind]. destruct (text_eqb (key j) (key i)) eqn:E.
        * apply teqb in E. destruct (index_dec j i) as [_|Ne]; [reflexivity|]. exfalso. apply Ne. apply key_inj; auto. apply in_app_iff in Hj. destruct Hj as [Hj|[<-|[]]]; [apply (iv_reg _ _ _ I j Hj)|exact Hi].
        * destruct (index_dec j i) as [->|Ne]; [rewrite teqb_refl in E; discriminate|]. apply in_app_iff in Hj. destruct Hj as [Hj|[->|[]]]; [apply (iv_some _ _ _ I j Hj)|congruence].
      + intros j Hj Nj. cbn [lfind]. destruct (text_eqb (key j) (key i)) eqn:E.
        * apply teqb in E. exfalso. apply Nj. apply in_app_iff. right. left. symmetry. apply key_inj; auto.
        * apply (iv_none _ _ _ I j Hj). intros X. apply Nj, in_app_iff. auto.
      + intros j Hj. rewrite C. destruct (index_dec j i) as [->|Ne].
        * rewrite Z.eqb_refl, Nat.add_1_r, Fn. apply in_app_iff. right. left. reflexivity.
        * apply in_app_iff in Hj. destruct Hj as [Hj|[->|[]]]; [|congruence]. assert (U := iv_used _ _ _ I j Hj). destruct (Z.eqb_spec (isp i) (isp j)) as [E|_]; [|rewrite Nat.add_0_r; exact U]. rewrite <- E in *. rewrite Nat.add_1_r, Fn. apply in_app_iff. left. exact U.
      + intros sp Hs. rewrite C. assert (L := iv_le _ _ _ I sp Hs). destruct (Z.eqb_spec (isp i) sp) as [<-|_]; lia.
      + intros sp d Ed. rewrite nget_nput, C. destruct (Ascii.eqb_spec d c) as [->|Nd].
        * apply reg_label_roundtrip in Ec, Ed; try apply reachable_ok, R. rewrite Ec in Ed. injection Ed as Ed. subst sp. rewrite Z.eqb_refl, Nat.add_1_r. f_equal.
          symmetry. apply (skipn_S_eq _ _ n), Es.
        * destruct (Z.eqb_spec (isp i) sp) as [E|_]; [subst sp; congruence|]. rewrite Nat.add_0_r. apply (iv_rest _ _ _ I sp d Ed).
      + intros a b Ha Hb. apply in_app_iff in Ha, Hb. destruct (index_dec a i) as [->|Na], (index_dec b i) as [->|Nb]; auto.
        * intros E. destruct Hb as [Hb|[Hb|[]]]; [|congruence]. exfalso. apply (Fr b Hb). auto.
        * intros E. destruct Ha as [Ha|[Ha|[]]]; [|congruence]. exfalso. apply (Fr a Ha). auto.
        * destruct Ha as [Ha|[Ha|[]]], Hb as [Hb|[Hb|[]]]; try congruence. apply (iv_inj _ _ _ I); auto.
    - intros Hq E. rewrite (iv_none _ _ _ I i Hi Hq), E, skipn_all. reflexivity.
  Qed.

  Definition overflow (l : list index) : Prop := exists sp q, 0 <= sp < num_spaces st /\ NoDup q /\ incl q l /\ (List.length (nm sp) < cnt q sp)%nat.
  Lemma overflow_incl l l' : incl l l' -> overflow l -> overflow l'.
  Proof. intros H (sp & q & Hs & N & I & L). exists sp, q. repeat split; auto; try tauto. intros i Hi. apply H, I, Hi. Qed.
  Lemma run l : forall q f x, inv q f x -> (forall i, In i l -> reg i) ->
    (exists q' f' x', py_indices st l x = Ok (List.concat (map f' l), x') /\ inv q' f' x' /\ (forall i, In i q' <-> In i q \/ In i l) /\ (forall i, In i q -> f' i = f i)) \/
    (py_indices st l x = Throw /\ overflow (q ++ l)).
  Proof.
    induction l as [|i l IH]; intros q f x I H.
    - left. exists q, f, x. split; [reflexivity|]. split; [exact I|]. split; [|auto]. intros j. cbn. tauto.
    - cbn [py_indices]. assert (Hi : reg i) by (apply H; left; auto). destruct (step q f x i I Hi) as (S1 & S2 & S3). destruct (in_dec index_dec i q) as [Hq|Hq].
      + rewrite (S1 Hq). cbn [bind]. destruct (IH q f x I) as [(q' & f' & x' & E & I' & Q & F)|[E O]]; [intros j Hj; apply H; right; auto| |].
        * left. exists q', f', x'. rewrite E. cbn [bind map List.concat]. rewrite (F i Hq). split; [reflexivity|]. split; [exact I'|]. split; [|exact F]. intros j. rewrite Q. cbn [In]. split; [tauto|]. intros [A|[<-|A]]; auto.
        * right. rewrite E. split; [reflexivity|]. eapply overflow_incl; [|exact O]. intros j Hj. apply in_app_iff in Hj. apply in_app_iff. cbn [In]. tauto.
      + assert (L := iv_le _ _ _ I (isp i) Hi). destruct (Nat.eq_dec (cnt q (isp i)) (List.length (nm (isp i)))) as [E|Ne].
        * right. rewrite (S3 Hq E). split; [reflexivity|]. exists (isp i), (q ++ [i]). split; [exact Hi|]. split; [apply NoDup_snoc; split; [apply (iv_nodup _ _ _ I)|exact Hq]|]. split; [intros j Hj; apply in_app_iff in Hj; apply in_app_iff; cbn [In] in *; tauto|].
          unfold cnt in *. rewrite filter_app, app_length. cbn [filter]. rewrite Z.eqb_refl. cbn [List.length]. lia.
        * destruct (S2 Hq) as (n & x1 & E1 & I1); [lia|]. rewrite E1. cbn [bind]. destruct (IH (q ++ [i]) _ x1 I1) as [(q' & f' & x' & E & I' & Q & F)|[E O]]; [intros j Hj; apply H; right; auto| |].
          -- left. exists q', f', x'. rewrite E. cbn [bind map List.concat]. assert (Fi : f' i = n) by (rewrite (F i) by (apply in_app_iff; right; left; reflexivity); destruct (index_dec i i); congruence). rewrite Fi. split; [reflexivity|]. split; [exact I'|].
             split; [intros j; rewrite Q, in_app_iff; cbn [In]; tauto|]. intros j Hj. rewrite F by (apply in_app_iff; auto). destruct (index_dec j i) as [->|]; [contradiction|reflexivity].
          -- right. rewrite E. split; [reflexivity|]. eapply overflow_incl; [|exact O]. intros j Hj. rewrite <- app_assoc in Hj. exact Hj.
  Qed.
  Lemma labels_ok l : (forall i, In i l -> reg i) -> mapM (py_label st) l = Ok (py_key st l).
  Proof.
    induction l as [|i l IH]; intros H; [reflexivity|]. cbn [mapM py_key map]. destruct (key_ok i (H i (or_introl eq_refl))) as (c & Ec & Ek & Hd). unfold py_label at 1. rewrite Ek. cbn [bind]. rewrite Hd, Ec. cbn [of_opt_throw bind]. rewrite IH; [reflexivity|]. intros j Hj. apply H. right. exact Hj.
  Qed.
  Lemma run_rhs ts : forall q f x labels idx, inv q f x -> (forall t i, In t ts -> In i (slots_of t) -> reg i) ->
    (exists q' f' x', py_rhs st ts x labels idx = Ok (labels ++ flat_map (fun t => t_label t ++ str "[""" ++ py_key st (slots_of t) ++ str """],") ts, idx ++ flat_map (fun t => List.concat (map f' (slots_of t)) ++ str ",") ts, x') /\
       inv q' f' x' /\ (forall i, In i q' <-> In i q \/ In i (flat_map slots_of ts)) /\ (forall i, In i q -> f' i = f i)) \/
    (py_rhs st ts x labels idx = Throw /\ overflow (q ++ flat_map slots_of ts)).
  Proof.
    induction ts as [|t ts IH]; intros q f x labels idx I H.
    - left. exists q, f, x. cbn [py_rhs flat_map]. rewrite !app_nil_r. split; [reflexivity|]. split; [exact I|]. split; [|auto]. intros j. cbn. tauto.
    - cbn [py_rhs]. change (t_upper t ++ t_lower t) with (slots_of t). rewrite labels_ok by (intros i Hi; apply (H t); [left; auto|exact Hi]). cbn [bind]. unfold py_tensor_indices. change (t_upper t ++ t_lower t) with (slots_of t).
      destruct (run (slots_of t) q f x I) as [(q1 & f1 & x1 & E1 & I1 & Q1 & F1)|[E1 O1]]; [intros i Hi; apply (H t); [left; auto|exact Hi]| |].
      + rewrite E1. cbn [bind]. destruct (IH q1 f1 x1 (labels ++ t_label t ++ str "[""" ++ py_key st (slots_of t) ++ str """],") (idx ++ List.concat (map f1 (slots_of t)) ++ str ",") I1) as [(q' & f' & x' & E & I' & Q & F)|[E O]]; [intros u i Hu; apply H; right; auto| |].
        * left. exists q', f', x'. split; [|split; [exact I'|split]].
          -- rewrite E. cbn [flat_map]. rewrite <- !app_assoc. assert (Em : map f1 (slots_of t) = map f' (slots_of t)) by (apply map_ext_in; intros i Hi; symmetry; apply F; apply Q1; right; exact Hi). rewrite Em. reflexivity.
          -- intros i. rewrite Q, Q1. cbn [flat_map]. rewrite in_app_iff. tauto.
          -- intros i Hi. rewrite F by (apply Q1; left; exact Hi). apply F1, Hi.
        * right. split; [exact E|]. eapply overflow_incl; [|exact O]. intros j Hj. apply in_app_iff in Hj. cbn [flat_map]. rewrite !in_app_iff. rewrite Q1 in Hj. tauto.
      + right. rewrite E1. split; [reflexivity|]. eapply overflow_incl; [|exact O1]. intros j Hj. apply in_app_iff in Hj. cbn [flat_map]. rewrite !in_app_iff. tauto.
  Qed.
  Lemma overflow_iff l : (forall i, In i l -> reg i) -> overflow l <-> ~ enough_names st l.
  Proof.
    intros H. assert (P : forall q sp, NoDup q -> incl q l -> (cnt q sp <= distinct_in l sp)%nat).
    { intros q sp N I. unfold cnt, distinct_in. apply NoDup_incl_length; [apply NoDup_filter, N|]. intros i Hi. apply filter_In in Hi. apply filter_In. split; [apply nodup_In, I, Hi|apply Hi]. }
    split.
    - intros (sp & q & Hs & N & I & L) E. specialize (E sp _ (nm_ok sp Hs)). specialize (P q sp N I). lia.
    - intros E. assert (D : forall sp, 0 <= sp < num_spaces st -> {(distinct_in l sp <= List.length (nm sp))%nat} + {(List.length (nm sp) < distinct_in l sp)%nat}) by (intros sp _; apply le_lt_dec).
      assert (G : (exists sp, 0 <= sp < num_spaces st /\ (List.length (nm sp) < distinct_in l sp)%nat) \/ forall k, (k < List.length (space_info st))%nat -> (distinct_in l (Z.of_nat k) <= List.length (nm (Z.of_nat k)))%nat).
      { unfold num_spaces. clear. induction (List.length (space_info st)) as [|n IH]; [right; lia|]. destruct IH as [(sp & Hs & L)|IH]; [left; exists sp; split; [lia|exact L]|]. destruct (le_lt_dec (distinct_in l (Z.of_nat n)) (List.length (nm (Z.of_nat n)))) as [A|A]; [|left; exists (Z.of_nat n); split; [lia|exact A]].
        right. intros k Hk. destruct (Nat.eq_dec k n) as [->|]; [exact A|apply IH; lia]. }
      destruct G as [(sp & Hs & L)|G]; [exists sp, (nodup index_dec l); split; [exact Hs|]; split; [apply NoDup_nodup|]; split; [intros i Hi; apply nodup_In in Hi; exact Hi|exact L]|].
      exfalso. apply E. intros sp names En. assert (Hs : 0 <= sp < num_spaces st). { unfold space_indices, aget in En. destruct (Z.ltb_spec sp 0); [discriminate|]. destruct (nth_error (space_info st) (Z.to_nat sp)) eqn:X; [|discriminate]. assert (Y : (Z.to_nat sp < List.length (space_info st))%nat) by (apply nth_error_Some; congruence). unfold num_spaces. lia. }
      rewrite (nm_ok sp Hs) in En. injection En as <-. rewrite <- (Z2Nat.id sp) by lia. apply G. unfold num_spaces in Hs. lia.
  Qed.
End Names.

Lemma removelast_join (l : list text) : removelast (flat_map (fun x => x ++ str ",") l) = join l (str ",").
Proof.
  induction l as [|x l IH]; [reflexivity|]. cbn [flat_map]. destruct l as [|y l]; [cbn [flat_map join]; rewrite app_nil_r; apply removelast_last|].
  change (join (x :: y :: l) (str ",")) with (x ++ str "," ++ join (y :: l) (str ",")). rewrite <- IH, removelast_app; [rewrite <- app_assoc; reflexivity|]. cbn [flat_map]. destruct y; discriminate.
Qed.
Theorem py_scalar fmt st e lhs : reachable st -> nonempty_names st -> hd_error (tm_tens (eq_lhs e)) = Some lhs -> slots_of lhs = [] ->
  (forall t, In t (tm_tens (eq_rhs e)) -> forall i, In i (slots_of t) -> 0 <= isp i < num_spaces st) ->
  (enough_names st (flat_map slots_of (tm_tens (eq_rhs e))) ->
   exists f : index -> text, py_compile fmt st e = Ok (py_statement st (fmt (eq_factor e)) (py_subscripts f (tm_tens (eq_rhs e))) (t_label lhs) (tm_tens (eq_rhs e))) /\
     (forall i, In i (flat_map slots_of (tm_tens (eq_rhs e))) -> exists names, space_indices st (isp i) = Ok names /\ In (f i) names) /\
     (forall i j, In i (flat_map slots_of (tm_tens (eq_rhs e))) -> In j (flat_map slots_of (tm_tens (eq_rhs e))) -> f i = f j -> i = j)) /\
  (~ enough_names st (flat_map slots_of (tm_tens (eq_rhs e))) -> py_compile fmt st e = Throw).
Proof.
  intros R NE Hl Sl Rg. set (ts := tm_tens (eq_rhs e)) in *. assert (Rl : forall i, In i (flat_map slots_of ts) -> reg st i) by (intros i Hi; apply in_flat_map in Hi; destruct Hi as (t & Ht & Hi); apply (Rg t Ht i Hi)).
  destruct (run_rhs st R NE ts [] (fun _ => []) (to_dict st, []) [] [] (inv0 st R _)) as [(q & f & x & E & I & Q & _)|[E O]]; [intros t i Ht Hi; apply (Rg t Ht i Hi)| |].
  - split.
    + intros _. exists f. split; [|split].
      * unfold py_compile. fold ts. rewrite E. cbn [bind]. rewrite Hl. cbn [of_opt_throw bind]. change (t_upper lhs ++ t_lower lhs) with (slots_of lhs). rewrite Sl. cbn [bind app]. unfold py_statement, py_subscripts.
        rewrite <- removelast_join. rewrite !flat_map_concat_map, map_map. reflexivity.
      * intros i Hi. exists (nm st (isp i)). split; [apply nm_ok, Rl, Hi|]. eapply firstn_In. apply (iv_used _ _ _ _ I). apply Q. right. exact Hi.
      * intros i j Hi Hj. apply (iv_inj _ _ _ _ I); apply Q; right; auto.
    + intros N. exfalso. apply N. intros sp names En. assert (Hs : 0 <= sp < num_spaces st). { unfold space_indices, aget in En. destruct (Z.ltb_spec sp 0); [discriminate|]. destruct (nth_error (space_info st) (Z.to_nat sp)) eqn:X; [|discriminate]. assert (Y : (Z.to_nat sp < List.length (space_info st))%nat) by (apply nth_error_Some; congruence). unfold num_spaces. lia. }
      rewrite (nm_ok st sp Hs) in En. injection En as <-. assert (L := iv_le _ _ _ _ I sp Hs). etransitivity; [|exact L]. unfold distinct_in, cnt. apply NoDup_incl_length; [apply NoDup_filter, NoDup_nodup|]. intros i Hi. apply filter_In in Hi. apply filter_In. split; [|apply Hi]. apply Q. right. apply (nodup_In index_dec), Hi.
  - cbn [app] in O. apply (overflow_iff st _ Rl) in O. split; [contradiction|]. intros _. unfold py_compile. fold ts. rewrite E. reflexivity.
Qed.
Theorem py_nonscalar fmt st e lhs : reachable st -> nonempty_names st -> hd_error (tm_tens (eq_lhs e)) = Some lhs -> slots_of lhs <> [] ->
  (forall t, In t (lhs :: tm_tens (eq_rhs e)) -> forall i, In i (slots_of t) -> 0 <= isp i < num_spaces st) -> py_compile fmt st e = Throw.
Proof.
  intros R NE Hl Sl Rg. set (ts := tm_tens (eq_rhs e)) in *.
  destruct (run_rhs st R NE ts [] (fun _ => []) (to_dict st, []) [] [] (inv0 st R _)) as [(q & f & x & E & I & Q & _)|[E O]]; [intros t i Ht Hi; apply (Rg t (or_intror Ht) i Hi)| |]; unfold py_compile; fold ts; rewrite E; [|reflexivity].
  cbn [bind]. rewrite Hl. cbn [of_opt_throw bind]. change (t_upper lhs ++ t_lower lhs) with (slots_of lhs). assert (M := mapM_labels st (slots_of lhs) (Rg lhs (or_introl eq_refl))). destruct (slots_of lhs) as [|i l]; [congruence|]. destruct ts as [|t ts]; [reflexivity|]. cbn [hd_error of_opt_throw bind]. rewrite M. reflexivity.
Qed.
