(** * allantools/mask.py.

    A decimal literal m*10^-k is [lit m k] = m / 10^k: with m and 10^k exactly
    representable, one correctly rounded division is the correctly rounded
    literal, so the binary64 instance uses the constants Python uses. *)
From Coq Require Import ZArith List.
From Verif Require Import Num.
Local Open Scope num_scope.

Section Mask.
Context {A : Type} {NA : Num A}.

Definition lit (m : Z) (k : Z) : A := ofZ m / ofZ (10 ^ k).

(** mask.py:19-30 *)
Definition prc_tdev (tau : A) : A :=
  if nltb tau (ofZ 100) then lit 3 9
  else if nltb tau (ofZ 1000) then lit 3 2 * lit 1 9 * tau
  else lit 30 9.
(** mask.py:33-42 *)
Definition prc_mtie (tau : A) : A :=
  if nltb tau (ofZ 1000) then lit 1 6 * (tau * lit 275 6 + lit 25 3)
  else lit 1 6 * (tau * lit 1 5 + lit 29 2).
(** mask.py:45-58 *)
Definition eprtc_tdev (tau : A) : A :=
  if nltb tau (ofZ 30000) then lit 1 9
  else if nltb tau (ofZ 300000) then lit 333333 10 * lit 1 9 * tau
  else lit 10 9.
(** mask.py:61-77 *)
Definition eprtc_mtie (tau : A) : A :=
  if nleb tau (ofZ 1) then lit 4 9
  else if nleb tau (ofZ 100) then lit 1 9 * (lit 11114 5 * tau + lit 389 2)
  else if nleb tau (ofZ 400000) then lit 1 9 * (lit 375 7 * tau + ofZ 15)
  else lit 1 9 * ofZ 30.
(** mask.py:80-94 *)
Definition prtcA_tdev (tau : A) : A :=
  if nltb tau (ofZ 100) then lit 3 9
  else if nltb tau (ofZ 1000) then lit 3 11 * tau
  else lit 30 9.
(** mask.py:97-111 *)
Definition prtcB_tdev (tau : A) : A :=
  if nltb tau (ofZ 100) then lit 1 9
  else if nltb tau (ofZ 500) then lit 1 11 * tau
  else lit 5 9.
(** mask.py:114-124 *)
Definition prtcA_mtie (tau : A) : A :=
  if nltb tau (ofZ 273) then lit 1 6 * (lit 275 6 * tau + lit 25 3)
  else lit 1 6 * lit 1 1.
(** mask.py:127-137 *)
Definition prtcB_mtie (tau : A) : A :=
  if nltb tau (lit 545 1) then lit 1 6 * (lit 275 6 * tau + lit 25 3)
  else lit 1 6 * lit 4 2.
End Mask.
