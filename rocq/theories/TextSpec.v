(** Specification of the accepted strings (C06, C51, C52, C54). *)
From Coq Require Import ZArith List Bool Ascii.
From Verif Require Import Res RegistryModel CoreModel RationalModel DecModel TextModel.
Import ListNotations.
Local Open Scope Z_scope.

(** Numerator and denominator fit an [int]. *)
Definition in_int (r : rational) : Prop := - max_int <= num r <= max_int /\ den r <= max_int.
Definition all_of (p : ascii -> bool) (s : text) : Prop := Forall (fun c => p c = true) s.
Definition sign_text (s : text) (v : Z) : Prop := (s = [] /\ v = 1) \/ (s = ["+"%char] /\ v = 1) \/ (s = ["-"%char] /\ v = -1).
(** A run of digits that fits an [int]; no digits stand for 1. *)
Definition number_text (s : text) (v : Z) : Prop :=
  all_of is_digit s /\ ((s = [] /\ v = 1) \/ (s <> [] /\ v = dec_value s /\ v <= max_int)).
(** [s] reads: blanks, optional sign, number, optional slash and denominator (both with digits), blanks. *)
Inductive reads_rational : text -> Z -> Z -> Prop :=
| rr_int w sg v n vn w' : all_of is_ws w -> sign_text sg v -> number_text n vn -> all_of is_ws w' ->
    reads_rational (w ++ sg ++ n ++ w') (v * vn) 1
| rr_frac w sg v n vn d vd w' : all_of is_ws w -> sign_text sg v -> number_text n vn -> n <> [] -> number_text d vd -> d <> [] -> all_of is_ws w' ->
    reads_rational (w ++ sg ++ n ++ ["/"%char] ++ d ++ w') (v * vn) vd.

(** A letter, possibly an underscore, digits. *)
Inductive reads_index : text -> ascii -> Z -> Prop :=
| ri_plain c p : is_alpha c = true -> all_of is_digit p -> p <> [] -> dec_value p <= max_int -> reads_index (c :: p) c (dec_value p)
| ri_under c p : is_alpha c = true -> all_of is_digit p -> p <> [] -> dec_value p <= max_int -> reads_index (c :: "_"%char :: p) c (dec_value p).

(** Positions that [str] and [stoi] both handle, in a registered space whose label is a letter. *)
Definition printable_index (st : osi) (i : index) : Prop :=
  0 <= ipos i <= max_int /\ exists l, space_label st (isp i) = Ok l /\ is_alpha l = true.
(** A registered index name that looks like the generic name of an index: label_{number}. *)
Definition generic_name (st : osi) (x : text) : Prop :=
  exists sp l p, space_label st sp = Ok l /\ x = l :: ["_"; "{"]%char ++ dec_text p ++ ["}"%char].
