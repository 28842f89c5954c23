(** Model of the 64-bit build of wicked/helpers/rational.{h,cc}
    (rational.h:15, [using rational_t = long long int]): every arithmetic operation whose
    mathematical result does not fit is undefined behaviour. *)
From Coq Require Import ZArith Bool.
From Verif Require Import Res RationalModel.
Local Open Scope Z_scope.
Local Open Scope res_scope.

(** The range of [long long int] (64-bit two's complement). *)
Definition min64 : Z := - 2 ^ 63.
Definition max64 : Z := 2 ^ 63 - 1.
Definition fits64 (z : Z) : bool := (min64 <=? z) && (z <=? max64).

(** A signed operation with mathematical result [z]. *)
Definition chk (z : Z) : res Z := if fits64 z then Ok z else UB.

Definition add64 a b := chk (a + b).
Definition sub64 a b := chk (a - b).
Definition mul64 a b := chk (a * b).
Definition neg64 a := chk (- a).
(** [/]: UB on division by zero or when the quotient does not fit. *)
Definition div64 a b := if b =? 0 then UB else chk (Z.quot a b).
(** [std::gcd]: UB if |a| or |b| is not representable. *)
Definition gcd64 a b :=
  _ <- chk (Z.abs a) ;; _ <- chk (Z.abs b) ;; chk (Z.gcd a b).

(** rational.cc:191-203. *)
Definition reduce64 (n d : Z) : res rational :=
  g <- gcd64 n d ;;
  if 1 <? g then (n' <- div64 n g ;; d' <- div64 d g ;; Ok (mkR n' d')) else Ok (mkR n d).

(** rational.cc:22-28. *)
Definition make64 (n d : Z) : res rational :=
  n' <- (if d <? 0 then neg64 n else Ok n) ;;
  d' <- (if d <? 0 then neg64 d else Ok d) ;;
  reduce64 n' d'.

(** rational.cc:40-42. *)
Definition rneg64 (r : rational) : res rational :=
  n <- neg64 (num r) ;; make64 n (den r).

(** rational.cc:44-49. *)
Definition radd64 (l r : rational) : res rational :=
  p <- mul64 (den r) (num l) ;; q <- mul64 (num r) (den l) ;;
  n <- add64 p q ;; d <- mul64 (den r) (den l) ;; reduce64 n d.

(** rational.cc:51-56. *)
Definition rsub64 (l r : rational) : res rational :=
  p <- mul64 (den r) (num l) ;; q <- mul64 (num r) (den l) ;;
  n <- sub64 p q ;; d <- mul64 (den r) (den l) ;; reduce64 n d.

(** rational.cc:58-63. *)
Definition rmul64 (l r : rational) : res rational :=
  n <- mul64 (num l) (num r) ;; d <- mul64 (den l) (den r) ;; reduce64 n d.

(** rational.cc:65-70. *)
Definition rdiv64 (l r : rational) : res rational :=
  n <- mul64 (num l) (den r) ;; d <- mul64 (den l) (num r) ;; reduce64 n d.
