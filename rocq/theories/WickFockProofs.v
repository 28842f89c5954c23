(** Operators that satisfy the hypotheses of C48: the Fock space of finitely many orbitals. *)
Set Warnings "-notation-overridden,-ambiguous-paths".
From Coq Require Import ZArith List Lia.
From mathcomp Require Import all_ssreflect ssralg matrix zmodp.
From Verif Require Import RegistryModel CoreModel OperatorModel WickSearchModel ScalarSem LadderSpec CanonSemSpec WickProductSpec WickTheoremSpec.
Set Implicit Arguments.
Unset Strict Implicit.
Unset Printing Implicit Defensive.
Import GRing.Theory.
Local Open Scope ring_scope.

Lemma fock_dim (M : finType) : exists n, n.+1 = #|{: {ffun M -> bool}}|.
Proof. exists #|{: {ffun M -> bool}}|.-1. rewrite prednK //. apply/card_gt0P. by exists [ffun=> false]. Qed.
Section Fock.
  Variables (K : fieldType) (M : finType).
  Notation B := {ffun M -> bool}.
  Variable fdim : nat.
  Hypothesis fdimE : fdim.+1 = #|{: B}|.
  Definition state (i : 'I_fdim.+1) : B := enum_val (cast_ord fdimE i).
  Definition number (t : B) : 'I_fdim.+1 := cast_ord (esym fdimE) (enum_rank t).
  Lemma numberK t : state (number t) = t.
  Proof. by rewrite /state /number cast_ordKV enum_rankK. Qed.
  Lemma stateK i : number (state i) = i.
  Proof. by rewrite /state /number enum_valK cast_ordK. Qed.
  (** Occupation of orbital [p] reversed. *)
  Definition flip (p : M) (t : B) : B := [ffun x => if x == p then ~~ t x else t x].
  Definition before (q p : M) : bool := (enum_rank q < enum_rank p)%N.
  (** The sign of the occupied orbitals before [p]. *)
  Definition fsign (p : M) (t : B) : K := \prod_(q | before q p) (if t q then -1 else 1).
  Definition fock (b : bool) (p : M) : 'M[K]_(fdim.+1) :=
    \matrix_(i, j) (((state j p == ~~ b) && (state i == flip p (state j)))%:R * fsign p (state j)).

  Lemma flipC p q t : flip p (flip q t) = flip q (flip p t).
  Proof. apply/ffunP => x. rewrite !ffunE. by case: eqP; case: eqP. Qed.
  Lemma flipK p t : flip p (flip p t) = t.
  Proof. apply/ffunP => x. rewrite !ffunE. by case: eqP; rewrite ?negbK. Qed.
  Lemma fsign_sq p t : fsign p t * fsign p t = 1.
  Proof. rewrite /fsign -big_split /=. apply: big1 => q _. by case: (t q); rewrite ?mulrNN mulr1. Qed.
  Lemma fsign_flip p q t : fsign p (flip q t) = (if before q p then -1 else 1) * fsign p t.
  Proof.
    rewrite /fsign. case E: (before q p).
    - rewrite (bigD1 q) // [in RHS](bigD1 q) //= mulrA. congr (_ * _); first by rewrite ffunE eqxx; case: (t q); rewrite ?mulrNN mulr1.
      apply: eq_bigr => x /andP [_ N]. by rewrite ffunE (negbTE N).
    - rewrite mul1r. apply: eq_bigr => x Hx. rewrite ffunE. by case: eqP Hx => // ->; rewrite E.
  Qed.
  Lemma fock_mul b p c q : fock b p * fock c q = \matrix_(i, j) ([&& state j q == ~~ c, flip q (state j) p == ~~ b & state i == flip p (flip q (state j))]%:R * (fsign q (state j) * fsign p (flip q (state j)))).
  Proof.
    apply/matrixP => i j. rewrite -mulmxE !mxE (bigD1 (number (flip q (state j)))) //= !mxE numberK eqxx andbT big1 ?addr0.
    - case: (state j q == ~~ c); last by rewrite !mul0r mulr0. by rewrite mul1r andTb -mulrA [fsign p _ * _]mulrC.
    - move=> k Nk. rewrite !mxE. case E: (state k == flip q (state j)); last by rewrite andbF mul0r mulr0. by move: Nk; rewrite -(eqP E) stateK eqxx.
  Qed.
  Lemma fock_swap b p c q : p != q -> fock b p * fock c q = - (fock c q * fock b p).
  Proof.
    move=> N. have N' : (q == p) = false by rewrite eq_sym (negbTE N). rewrite !fock_mul. apply/matrixP => i j. rewrite !mxE !ffunE (negbTE N) N' !fsign_flip (flipC q p) -mulrN. congr (_%:R * _); first by case: (state j q == _); case: (state j p == _).
    have X : before p q = ~~ before q p.
    { rewrite /before -leqNgt [RHS]leq_eqVlt. case E: (_ == _ :> nat) => //. have E' : enum_rank p = enum_rank q by apply: val_inj; apply/eqP; exact: E. by rewrite (enum_rank_inj E') eqxx in N. }
    rewrite X. by case: (before q p); rewrite /= ?mulN1r ?mul1r ?mulrN ?mulNr ?opprK; rewrite mulrC.
  Qed.
  Lemma fock_same b p : fock b p * fock b p = 0.
  Proof. rewrite fock_mul. apply/matrixP => i j. rewrite !mxE ffunE eqxx. by case: (state j p); case: b; rewrite /= mul0r. Qed.
  Lemma fock_one p : fock false p * fock true p + fock true p * fock false p = 1.
  Proof.
    rewrite !fock_mul. apply/matrixP => i j. rewrite !mxE ffunE eqxx flipK fsign_flip /before ltnn mul1r fsign_sq !mulr1.
    have -> : (state i == state j) = (i == j) by apply/eqP/eqP => [E|->] //; rewrite -(stateK i) E stateK.
    by case: (state j p); rewrite /= ?addr0 ?add0r.
  Qed.
  (** The state [t0] as reference. *)
  Variable t0 : B.
  Definition ref (X : 'M[K]_(fdim.+1)) : K^o := X (number t0) (number t0).
  Lemma ref_lin : linear ref.
  Proof. move=> a X Y. by rewrite /ref !mxE. Qed.
  Canonical ref_linear := Linear ref_lin.
  Lemma ref_id : ref 1 = 1.
  Proof. by rewrite /ref mxE eqxx. Qed.
  Lemma ref_l b p X : t0 p != b -> ref (fock b p * X) = 0.
  Proof.
    move=> N. rewrite /ref -mulmxE mxE big1 // => k _. rewrite mxE numberK. case E: (t0 == _); last by rewrite andbF !mul0r.
    move: N. rewrite (eqP E) ffunE eqxx. by case: (state k p); case: b; rewrite //= !mul0r.
  Qed.
  Lemma ref_r b p X : t0 p != ~~ b -> ref (X * fock b p) = 0.
  Proof. move=> /negbTE N. rewrite /ref -mulmxE mxE big1 // => k _. by rewrite [X in _ * X]mxE numberK N !mul0r mulr0. Qed.
End Fock.

Section Spaces.
  Variables (K : fieldType) (st : osi) (orb : finType).
  Hypothesis HS : single_reference st.
  Notation M := [finType of 'I_(Z.to_nat (num_spaces st)).+1 * orb].
  Variable d : nat.
  Hypothesis dE : d.+1 = #|{: {ffun M -> bool}}|.
  Definition mode (s : Z) (p : orb) : M := (inord (Z.to_nat s), p).
  Definition fock_cre (s : Z) (p : orb) := fock K dE true (mode s p).
  Definition fock_ann (s : Z) (p : orb) := fock K dE false (mode s p).
  Definition reference : {ffun M -> bool} := [ffun m : M => if stype st (Z.of_nat (nat_of_ord m.1)) is Some Occupied then true else false].
  Lemma mode_eq s p t q : registered st s -> registered st t -> (mode s p == mode t q) = (s =? t)%Z && (p == q).
  Proof.
    rewrite /registered => Hs Ht. rewrite /mode xpair_eqE. congr (_ && _). apply/eqP/Z.eqb_spec => [E|->] //. move/(congr1 (@nat_of_ord _)): E.
    rewrite !inordK; try (apply/ltP; lia). lia.
  Qed.
  Lemma fock_relations : ladder_relations st fock_cre fock_ann.
  Proof.
    have X s t : registered st s -> registered st t -> exch K st s t = -1 by move=> Hs Ht; rewrite /exch; have [-> _] := HS Hs; have [-> _] := HS Ht.
    split=> s p t q Hs Ht; rewrite X // scaleN1r /fock_cre /fock_ann.
    - case E: (mode s p == mode t q); last by apply: fock_swap; rewrite E. by rewrite (eqP E) fock_same oppr0.
    - case E: (mode s p == mode t q); last by apply: fock_swap; rewrite E. by rewrite (eqP E) fock_same oppr0.
    - rewrite -mode_eq //. case E: (mode s p == mode t q); last by rewrite add0r; apply: fock_swap; rewrite E. by rewrite (eqP E) -(fock_one K dE (mode t q)) addrK.
  Qed.
  Lemma reference_mode s p : registered st s -> reference (mode s p) = if stype st s is Some Occupied then true else false.
  Proof. rewrite /registered => Hs. rewrite ffunE /= inordK; last by apply/ltP; lia. by rewrite Z2Nat.id; last lia. Qed.
  Lemma fock_reference : reference_state st fock_cre fock_ann (ref_linear K dE reference).
  Proof.
    split; first exact: ref_id.
    - move=> [b [s p]] a /= Hs. rewrite /makes_excitation /ladder /= => H. have -> : (if b then fock_cre s p else fock_ann s p) = fock K dE b (mode s p) by case: b H.
      apply: ref_l. rewrite reference_mode //. case: (proj2 (HS Hs)) H => ->; by case: b.
    - move=> [b [s p]] a /= Hs. rewrite /makes_excitation /ladder /= => H. have -> : (if b then fock_cre s p else fock_ann s p) = fock K dE b (mode s p) by case: b H.
      apply: ref_r. rewrite reference_mode //. case: (proj2 (HS Hs)) H => ->; by case: b.
  Qed.
End Spaces.
