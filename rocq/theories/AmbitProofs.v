(** Proofs for C64: the value of an ambit statement. *)
Set Warnings "-notation-overridden,-ambiguous-paths".
From Coq Require Import ZArith List Bool Ascii String Lia.
From mathcomp Require Import all_ssreflect ssralg.
From Verif Require Import Res RegistryModel RegistryProofs CoreModel OrderProofs RationalModel TextModel EquationModel EquationSpec EquationProofs2 EinsumSpec EinsumProofs EinsumProofs2 EqTextModel EqTextSpec EqTextProofs AmbitSpec.
Set Implicit Arguments.
Unset Strict Implicit.
Unset Printing Implicit Defensive.
Import GRing.Theory.
Local Open Scope ring_scope.

Lemma text_eqb_iff a b : text_eqb a b = true <-> a = b.
Proof. rewrite /text_eqb. by case: (list_eq_dec ascii_dec a b). Qed.
Section Value.
  Variables (K : comRingType) (st : osi) (dim : Z -> nat) (dimc : ascii -> nat) (tens : text -> text -> array K) (lhs : tensor) (rhs : list tensor).
  Hypothesis R : reachable st.
  Hypothesis Hd : forall s c, space_label st s = Ok c -> dimc c = dim s.
  Hypothesis Rg : forall t, In t (lhs :: rhs) -> registered st t.
  Let D i := In i (flat_map slots_of (lhs :: rhs)).
  Let f := index_name st.
  Lemma D_reg i : D i -> (0 <= isp i < num_spaces st)%Z.
  Proof. move=> /in_flat_map [t [Ht Hi]]. exact: (Rg Ht Hi). Qed.
  Lemma f_inj a b : D a -> D b -> f a = f b -> a = b.
  Proof. move=> Ha Hb. apply: name_inj => //; exact: D_reg. Qed.
  Lemma D_rhs i : In i (flat_map slots_of rhs) -> D i.
  Proof. move=> H. rewrite /D /=. apply/in_app_iff. by right. Qed.
  Lemma D_lhs i : In i (slots_of lhs) -> D i.
  Proof. move=> H. rewrite /D /=. apply/in_app_iff. by left. Qed.
  Lemma hd_name i : D i -> exists c, space_label st (isp i) = Ok c /\ hd zero (f i) = c.
  Proof. move=> /D_reg H. have [c E] := reg_label_defined st (isp i) H. exists c. by rewrite /f /index_name E. Qed.
  Lemma key_names l : (forall i, In i l -> D i) -> List.map (hd zero) (List.map f l) = space_key st l.
  Proof. move=> H. rewrite map_map /space_key. apply: map_ext_in => i Hi. have [c [-> ->]] := hd_name (H i Hi). by []. Qed.
  Lemma exists_names i l : D i -> (forall j, In j l -> D j) -> existsb (text_eqb (f i)) (List.map f l) = existsb (index_eqb i) l.
  Proof.
    move=> Hi. elim: l => [|j l IH] H //=. rewrite IH; last by move=> k Hk; apply: H; right. congr orb. apply/idP/idP.
    - move/text_eqb_iff/(f_inj Hi (H j (or_introl (erefl j)))) => ->. by apply/index_eqb_eq.
    - move/index_eqb_eq => ->. by apply/text_eqb_iff.
  Qed.
  Lemma names_concat l : flat_map snd (List.map (ref_of st) l) = List.map f (flat_map slots_of l).
  Proof. elim: l => [|t l IH] //=. by rewrite IH map_app. Qed.
  Theorem ambit_ok phi : ambit_value dimc tens (ref_of st lhs) (List.map (ref_of st) rhs) phi = rhs_value st dim tens lhs rhs (fun i => phi (f i)).
  Proof.
    symmetry. rewrite /ambit_value /rhs_value names_concat (filter_map_inj (p := fun i => negb (existsb (index_eqb i) (slots_of lhs)))); last first.
      move=> i Hi. cbn [snd ref_of]. rewrite -/f exists_names //; [exact: D_rhs|exact: D_lhs].
    rewrite (nodup_map_inj index_dec); last by move=> a b /filter_In [Ha _] /filter_In [Hb _]; apply: f_inj; apply: D_rhs.
    apply: (@sum_over_map K index text index_eqb text_eqb index_eqb_eq text_eqb_iff f D f_inj) => //.
    - move=> i /nodup_In /filter_In [Hi _]. split; first exact: D_rhs. have [c [E ->]] := hd_name (D_rhs Hi). by rewrite (Hd E).
    - move=> e e' He. have: forall t, In t rhs -> forall i, In i (slots_of t) -> D i by move=> t Ht i Hi; apply: D_rhs; apply/in_flat_map; exists t.
      elim: (rhs) => [|t l IH] H; first by rewrite !big_nil. cbn [List.map]. rewrite !big_cons IH; last by move=> u Hu; apply: H; right. congr (_ * _). cbn [fst snd ref_of].
      have Ht := H t (or_introl (erefl t)). rewrite -/f key_names // /array_of map_map. congr elem. apply: map_ext_in => i Hi. exact: (He i (Ht i Hi)).
    - move=> i Di. by right.
  Qed.
End Value.
