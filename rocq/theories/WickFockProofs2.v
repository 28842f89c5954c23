(** C61: states of the Fock space with a determinant in the occupied and unoccupied spaces and any state in the general ones. *)
Set Warnings "-notation-overridden,-ambiguous-paths".
From Coq Require Import ZArith List Lia.
From mathcomp Require Import all_ssreflect ssralg matrix zmodp.
From Verif Require Import RegistryModel CoreModel OperatorModel WickSearchModel ScalarSem LadderSpec CanonSemSpec WickProductSpec WickTheoremSpec WickGeneralSpec WickStateSpec WickFockProofs.
Set Implicit Arguments.
Unset Strict Implicit.
Unset Printing Implicit Defensive.
Import GRing.Theory.
Local Open Scope ring_scope.

Section Spaces.
  Variables (K : fieldType) (st : osi) (orb : finType).
  Hypothesis HS : multi_reference st.
  Notation M := [finType of 'I_(Z.to_nat (num_spaces st)).+1 * orb].
  Notation B := {ffun M -> bool}.
  Variable d : nat.
  Hypothesis dE : d.+1 = #|{: B}|.
  Notation fcre := (fock_cre K dE).
  Notation fann := (fock_ann K dE).
  Lemma fock_relations_multi : ladder_relations st fcre fann.
  Proof.
    have X s t : registered st s -> registered st t -> exch K st s t = -1 by move=> Hs Ht; rewrite /exch; have [-> _] := HS Hs; have [-> _] := HS Ht.
    split=> s p t q Hs Ht; rewrite X // scaleN1r /fock_cre /fock_ann.
    - case E: (mode st s p == mode st t q); last by apply: fock_swap; rewrite E. by rewrite (eqP E) fock_same oppr0.
    - case E: (mode st s p == mode st t q); last by apply: fock_swap; rewrite E. by rewrite (eqP E) fock_same oppr0.
    - rewrite -(mode_eq dE) //. case E: (mode st s p == mode st t q); last by rewrite add0r; apply: fock_swap; rewrite E. by rewrite (eqP E) -(fock_one K dE (mode st t q)) addrK.
  Qed.
  (** The occupied spaces are full and the unoccupied spaces empty. *)
  Definition active_occupation (t : B) : Prop :=
    forall s p, registered st s -> match stype st s with Some Occupied => t (mode st s p) = true | Some General => True | _ => t (mode st s p) = false end.
  Definition particles (s : Z) (t : B) : nat := \sum_(p : orb) t (mode st s p).
  (** The state with density matrix [D]. *)
  Record density_matrix (D : B -> B -> K) : Prop := {
    dm_one : \sum_t D t t = 1;
    dm_row : forall t t', D t t' != 0 -> active_occupation t;
    dm_col : forall t t', D t t' != 0 -> active_occupation t';
    dm_number : forall t t' s, registered st s -> D t t' != 0 -> particles s t = particles s t' }.
  Variable D : B -> B -> K.
  Hypothesis HD : density_matrix D.
  Definition expect (X : 'M[K]_(d.+1)) : K^o := \sum_t \sum_t' D t t' * X (number dE t) (number dE t').
  Lemma expect_lin : linear expect.
  Proof.
    move=> a X Y. rewrite /expect scaler_sumr -big_split /=. apply: eq_bigr => t _. rewrite scaler_sumr -big_split /=. apply: eq_bigr => t' _.
    rewrite !mxE mulrDr. congr (_ + _). exact: mulrCA.
  Qed.
  Canonical expect_linear := Linear expect_lin.
  Lemma expect0 (X : 'M[K]_(d.+1)) : (forall t t', D t t' != 0 -> X (number dE t) (number dE t') = 0) -> expect X = 0.
  Proof.
    move=> H. rewrite /expect big1 // => t _. rewrite big1 // => t' _. case: (altP (D t t' =P 0)) => [->|/H ->]; by rewrite ?mul0r ?mulr0.
  Qed.
  Lemma row_zero (b : bool) p X (t t' : B) : t p != b -> (fock K dE b p * X) (number dE t) (number dE t') = 0.
  Proof.
    move=> N. rewrite -mulmxE mxE big1 // => k _. rewrite mxE numberK. case E: (t == _); last by rewrite andbF !mul0r.
    move: N. rewrite (eqP E) ffunE eqxx. by case: (state dE k p); case: b; rewrite //= !mul0r.
  Qed.
  Lemma col_zero (b : bool) p X (t t' : B) : t' p != ~~ b -> (X * fock K dE b p) (number dE t) (number dE t') = 0.
  Proof. move=> /negbTE N. rewrite -mulmxE mxE big1 // => k _. by rewrite [X in _ * X]mxE numberK N !mul0r mulr0. Qed.
  Lemma fock_count b s p i j : registered st s -> fock K dE b (mode st s p) i j != 0 -> (particles s (state dE i) + ~~ b = particles s (state dE j) + b)%N.
  Proof.
    move=> Hs. rewrite mxE. case E: (_ && _); last by rewrite mul0r eqxx. move: E => /andP [/eqP E1 /eqP ->] _.
    rewrite /particles (bigD1 p) // [in RHS](bigD1 p) //= ffunE eqxx E1.
    have -> : (\sum_(i0 | i0 != p) flip (mode st s p) (state dE j) (mode st s i0) = \sum_(i0 | i0 != p) state dE j (mode st s i0))%N.
    { apply: eq_bigr => q Nq. by rewrite ffunE (mode_eq dE) // Z.eqb_refl (negbTE Nq). }
    rewrite negbK addnAC [RHS]addnAC. by case: b {E1}.
  Qed.
  Lemma word_count s w i j : registered st s -> (forall x, In x w -> x.2.1 = s) -> word_product fcre fann w i j != 0 ->
    (particles s (state dE i) + count (fun x => ~~ x.1) w = particles s (state dE j) + count (fun x => x.1) w)%N.
  Proof.
    move=> Hs. elim: w i => [|x w IH] i H.
    - rewrite /word_product big_nil mxE. case: (altP (i =P j)) => [->|_] //=. by rewrite eqxx.
    - rewrite /word_product big_cons -mulmxE mxE => N.
      have [k Nk] : exists k, ladder fcre fann x i k * word_product fcre fann w k j != 0.
      { case: (pickP (fun k => ladder fcre fann x i k * word_product fcre fann w k j != 0)) => [k Hk|Z0]; first by exists k. move: N. rewrite big1 ?eqxx // => k _. apply/eqP. move: (Z0 k) => /negbFE. by []. }
      move: Nk. rewrite mulf_eq0 negb_or => /andP [N1 N2]. have E2 := IH k (fun y Hy => H y (or_intror Hy)) N2.
      have Sx : x.2.1 = s by apply: H; left. have E1 : (particles s (state dE i) + ~~ x.1 = particles s (state dE k) + x.1)%N.
      { apply: (@fock_count _ _ x.2.2) => //. move: N1. rewrite /ladder /fock_cre /fock_ann Sx. by case: (x.1). }
      rewrite [count _ (x :: w)]/= [X in _ = (_ + X)%N]/= addnA E1 -addnA [(x.1 + _)%N]addnC addnA E2 -addnA. by rewrite [(_ + x.1)%N]addnC.
  Qed.
  Lemma expect_active : active_state st fcre fann expect.
  Proof.
    split.
    - rewrite /expect -(dm_one HD). apply: eq_bigr => t _. rewrite (bigD1 t) //= mxE eqxx mulr1 big1 ?addr0 // => t' N. rewrite mxE.
      have -> : (number dE t == number dE t') = false by apply/eqP => E; move: N; rewrite -(numberK dE t) E numberK eqxx. by rewrite mulr0.
    - move=> [b [s p]] a /= Hs Ns. rewrite /makes_excitation /ladder /= => H. have -> : (if b then fcre s p else fann s p) = fock K dE b (mode st s p) by case: b H.
      apply: expect0 => t t' /(dm_row HD) Ht. apply: row_zero. move: (Ht s p Hs). have [_ St] := HS Hs. case: St Ns H => [St|[St|St]] Ns; rewrite St ?Ns // => H ->; by case: b H.
    - move=> [b [s p]] a /= Hs Ns. rewrite /makes_excitation /ladder /= => H. have -> : (if b then fcre s p else fann s p) = fock K dE b (mode st s p) by case: b H.
      apply: expect0 => t t' /(dm_col HD) Ht. apply: col_zero. move: (Ht s p Hs). have [_ St] := HS Hs. case: St Ns H => [St|[St|St]] Ns; rewrite St ?Ns // => H ->; by case: b H.
    - move=> s w Hs Gs Hw N. apply: expect0 => t t' Nz. apply/eqP/negP => /negP W. apply: N. move: (word_count Hs Hw W). rewrite !numberK (dm_number HD Hs Nz). by move/addnI.
  Qed.
End Spaces.
