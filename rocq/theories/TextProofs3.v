From Coq Require Import ZArith List Bool Ascii Lia Arith QArith.
From Verif Require Import Res PartitionsModel RegistryModel RegistryProofs CoreModel RationalModel RationalSpec RationalProofs DecModel TextModel TextSpec TextProofs TextProofs2.
Import ListNotations.
Local Open Scope Z_scope.

Lemma rat_make_self r : canonical r -> rat_make (num r) (den r) = r.
Proof.
  intros C. assert (C' : canonical (rat_make (num r) (den r))) by (apply rat_make_canonical; destruct C; lia). apply canonical_val_inj; auto. rewrite rat_make_val by (destruct C; lia). reflexivity.
Qed.
Lemma all_nil p : all_of p []. Proof. constructor. Qed.
Lemma dec_number n : 0 <= n <= max_int -> number_text (dec_text n) n /\ dec_text n <> [].
Proof. intros H. destruct (dec_pos n) as (A & B & C); [lia|]. split; [|exact A]. split; [exact B|]. right. split; [exact A|]. split; [auto|lia]. Qed.
(** Splits an integer into sign and digits. *)
Lemma dec_signed n (sign : bool) : n <> 0 -> - max_int <= n <= max_int -> exists sg v m, sign_text sg v /\ 0 <= m <= max_int /\ n = v * m /\ (if sign && (0 <? n) then ["+"%char] else []) ++ dec_text n = sg ++ dec_text m.
Proof.
  intros H B. destruct (Z.ltb_spec 0 n) as [L|L].
  - destruct sign.
    + exists ["+"%char], 1, n. split; [right; left; auto|]. split; [lia|]. split; [lia|reflexivity].
    + exists [], 1, n. split; [left; auto|]. split; [lia|]. split; [lia|reflexivity].
  - exists ["-"%char], (-1), (- n). split; [right; right; auto|]. split; [lia|]. split; [lia|]. rewrite andb_false_r. cbn [app]. apply dec_neg. lia.
Qed.
Lemma rat_str_reads r sign : canonical r -> in_int r -> reads_rational (rat_str r sign) (num r) (den r).
Proof.
  intros (P & G) (B & D). unfold rat_str. destruct (Z.eqb_spec (num r) 0) as [Z0|NZ].
  - rewrite Z0 in *. rewrite Z.gcd_0_l, Z.abs_eq in G by lia. rewrite G. apply (rr_int [] [] 1 ["0"%char] 0 []); try apply all_nil; [left; auto|]. split; [constructor; [reflexivity|constructor]|]. right. split; [discriminate|]. split; [reflexivity|]. unfold max_int. lia.
  - destruct (dec_signed (num r) sign NZ B) as (sg & v & m & Hs & Hm & En & Et). destruct (dec_number m Hm) as (Nm & Em). destruct (Z.eqb_spec (den r) 1) as [D1|D1].
    + rewrite D1. destruct (Z.eqb_spec (num r) (-1)) as [N1|N1].
      * rewrite N1. rewrite andb_false_r. apply (rr_int [] ["-"%char] (-1) [] 1 []); try apply all_nil; [right; right; auto|]. split; [constructor|left; auto].
      * destruct (Z.eqb_spec (num r) 1) as [P1|P1]; cbn [negb].
        -- rewrite P1. cbn [Z.ltb Z.compare]. destruct sign; cbn [andb app].
           ++ apply (rr_int [] ["+"%char] 1 [] 1 []); try apply all_nil; [right; left; auto|]. split; [constructor|left; auto].
           ++ apply (rr_int [] [] 1 [] 1 []); try apply all_nil; [left; auto|]. split; [constructor|left; auto].
        -- rewrite Et, En. rewrite <- (app_nil_r (sg ++ dec_text m)), <- app_assoc. apply (rr_int [] sg v (dec_text m) m []); auto; apply all_nil.
    + rewrite app_assoc, Et, <- app_assoc. rewrite <- (app_nil_r (dec_text (den r))). rewrite En. destruct (dec_number (den r)) as (Nd & Ed); [lia|]. apply (rr_frac [] sg v (dec_text m) m (dec_text (den r)) (den r) []); auto; apply all_nil.
Qed.
Theorem rat_roundtrip r sign : canonical r -> in_int r -> make_rational (rat_str r sign) = Ok r.
Proof. intros C B. rewrite (make_rational_complete _ _ _ (rat_str_reads r sign C B)), rat_make_self by exact C. reflexivity. Qed.
Lemma rat_str_inj a b s : canonical a -> canonical b -> in_int a -> in_int b -> rat_str a s = rat_str b s -> a = b.
Proof. intros Ca Cb Ia Ib E. assert (X := rat_roundtrip a s Ca Ia). rewrite E, rat_roundtrip in X by auto. congruence. Qed.
