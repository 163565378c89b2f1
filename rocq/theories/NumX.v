(** * Extended reals with infinities and NaN: exact arithmetic with IEEE-style
    special values (a single unsigned zero, so x/0 is +inf or -inf by the sign
    of x).  Used for records with gaps (NaN). *)
From Coq Require Import Reals ZArith List Lra Bool.
From Verif Require Import Num NumR.
Import ListNotations.
Local Open Scope R_scope.

Inductive ext := Fin (r : R) | Inf (neg : bool) | NaN.

Definition x_add (a b : ext) : ext :=
  match a, b with
  | Fin x, Fin y => Fin (x + y)
  | NaN, _ | _, NaN => NaN
  | Inf s, Inf t => if Bool.eqb s t then Inf s else NaN
  | Inf s, Fin _ | Fin _, Inf s => Inf s
  end.
Definition x_opp (a : ext) : ext :=
  match a with Fin x => Fin (- x) | Inf s => Inf (negb s) | NaN => NaN end.
Definition x_sub (a b : ext) : ext :=
  match a, b with
  | Fin x, Fin y => Fin (x - y)
  | _, _ => x_add a (x_opp b)
  end.
(** sign: Some true for negative, None for zero *)
Definition x_sign (x : R) : option bool :=
  if Rlt_dec x 0 then Some true else if Rlt_dec 0 x then Some false else None.
Definition x_mul (a b : ext) : ext :=
  match a, b with
  | Fin x, Fin y => Fin (x * y)
  | NaN, _ | _, NaN => NaN
  | Inf s, Inf t => Inf (xorb s t)
  | Inf s, Fin x | Fin x, Inf s => match x_sign x with Some t => Inf (xorb s t) | None => NaN end
  end.
Definition x_div (a b : ext) : ext :=
  match a, b with
  | NaN, _ | _, NaN => NaN
  | Fin x, Fin y => if Req_EM_T y 0 then match x_sign x with Some s => Inf s | None => NaN end else Fin (x / y)
  | Inf _, Inf _ => NaN
  | Inf s, Fin y => Inf (match x_sign y with Some t => xorb s t | None => s end)
  | Fin _, Inf _ => Fin 0
  end.
Definition x_abs (a : ext) : ext := match a with Fin x => Fin (Rabs x) | Inf _ => Inf false | NaN => NaN end.
Definition x_sqrt (a : ext) : ext :=
  match a with
  | Fin x => if Rlt_dec x 0 then NaN else Fin (sqrt x)
  | Inf false => Inf false
  | _ => NaN
  end.
Definition x_ltb (a b : ext) : bool :=
  match a, b with
  | Fin x, Fin y => Rltb x y
  | NaN, _ | _, NaN => false
  | Inf s, Inf t => s && negb t
  | Inf s, Fin _ => s
  | Fin _, Inf t => negb t
  end.
Definition x_eqb (a b : ext) : bool :=
  match a, b with
  | Fin x, Fin y => Reqb x y
  | Inf s, Inf t => Bool.eqb s t
  | _, _ => false
  end.
Definition x_leb (a b : ext) : bool :=
  match a, b with
  | Fin x, Fin y => Rleb x y
  | _, _ => x_ltb a b || x_eqb a b
  end.

Global Instance XNum : Num ext := {
  ofZ := fun z => Fin (IZR z);
  nadd := x_add;
  nsub := x_sub;
  nmul := x_mul;
  ndiv := x_div;
  nabs := x_abs;
  nsqrt := x_sqrt;
  nltb := x_ltb;
  nleb := x_leb;
  neqb := x_eqb;
  nisnan := fun a => match a with NaN => true | _ => false end;
  nrint := fun a => match a with Fin x => Some (rintR x) | _ => None end;
  ntrunc := fun a => match a with Fin x => Some (truncR x) | _ => None end;
  nlogspace10 := fun n => map Fin (logspace10R n)
}.
