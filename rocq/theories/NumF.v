(** * IEEE binary64 instance of the number interface (Coq primitive floats).
    Used only to run the model on concrete data (validation) and for
    floating-point witnesses.  np.round is round-half-even. *)
From Coq Require Import ZArith List Floats Uint63 SpecFloat.
From Verif Require Import Num.
Import ListNotations.

(** An integer as a binary64 number, rounded to nearest even.  Beyond 2^62 the primitive conversion
    would wrap; there the rounding of SpecFloat is used (Python converts integers of any size). *)
Definition f_ofZ (z : Z) : float :=
  if (Z.abs z <? 2 ^ 62)%Z then
    let f := PrimFloat.of_uint63 (Uint63.of_Z (Z.abs z)) in
    if (z <? 0)%Z then PrimFloat.opp f else f
  else SF2Prim (SpecFloat.binary_normalize FloatOps.prec FloatOps.emax z 0 false).

(** m * 2^e rounded half-even to an integer (e possibly negative). *)
Definition z_rint (m e : Z) : Z :=
  if (0 <=? e)%Z then (m * 2 ^ e)%Z
  else let d := (2 ^ (- e))%Z in
       let q := (m / d)%Z in
       let r := (m mod d)%Z in
       if (2 * r <? d)%Z then q
       else if (d <? 2 * r)%Z then (q + 1)%Z
       else if Z.even q then q else (q + 1)%Z.

Definition f_rint (x : float) : option Z :=
  match Prim2SF x with
  | S754_zero _ => Some 0%Z
  | S754_infinity _ => None
  | S754_nan => None
  | S754_finite s m e =>
      let r := z_rint (Zpos m) e in Some (if s then (- r)%Z else r)
  end.

Definition f_trunc (x : float) : option Z :=
  match Prim2SF x with
  | S754_zero _ => Some 0%Z
  | S754_infinity _ => None
  | S754_nan => None
  | S754_finite s m e =>
      let r := if (0 <=? e)%Z then (Zpos m * 2 ^ e)%Z else (Zpos m / 2 ^ (- e))%Z in
      Some (if s then (- r)%Z else r)
  end.

(** The "log10" keyword needs a logarithm, which primitive floats lack: it is
    not available in this instance (empty list). *)
Global Instance FNum : Num float := {
  ofZ := f_ofZ;
  nadd := PrimFloat.add;
  nsub := PrimFloat.sub;
  nmul := PrimFloat.mul;
  ndiv := PrimFloat.div;
  nabs := PrimFloat.abs;
  nsqrt := PrimFloat.sqrt;
  nltb := PrimFloat.ltb;
  nleb := PrimFloat.leb;
  neqb := PrimFloat.eqb;
  nisnan := PrimFloat.is_nan;
  nrint := f_rint;
  ntrunc := f_trunc;
  nlogspace10 := fun _ => []
}.
