(** * Phase records held in an int32 array.

    A record read from a counter with 32-bit words is an int32 array.  adev,
    oadev, hdev and ohdev form the differences and their squares in int32
    (a Python int times an int32 array is an int32 array), modulo 2^32 and
    without an error; np.sum of an int32 array accumulates in int64; the
    division converts the sum to float.

    Simplified: np.sum accumulates in int64 as on platforms where the default
    integer is 64 bits wide; the other deviation functions are not modelled for
    int32. *)
From Coq Require Import String List ZArith Bool Arith.
From Verif Require Import Base Num NpList ModelCore ModelDev ModelInt.
Import ListNotations.
Local Open Scope res_scope.
Local Notation len := List.length.

(** numpy int32 arithmetic: two's complement, modulo 2^32. *)
Definition wrap32 (z : Z) : Z := ((z + 2 ^ 31) mod 2 ^ 32 - 2 ^ 31)%Z.

(** As [I64]: only [ofZ] and + - * are used. *)
Definition I32 : Num Z := {|
  ofZ := wrap32;
  nadd := fun a b => wrap32 (a + b);
  nsub := fun a b => wrap32 (a - b);
  nmul := fun a b => wrap32 (a * b);
  ndiv := fun _ _ => 0%Z;
  nabs := fun a => wrap32 (Z.abs a);
  nsqrt := fun _ => 0%Z;
  nltb := Z.ltb;
  nleb := Z.leb;
  neqb := Z.eqb;
  nisnan := fun _ => false;
  nrint := Some;
  ntrunc := Some;
  nlogspace10 := fun _ => []
|}.

(** allantools.py:382 and 829, np.sum(v_arr * v_arr) of an int32 array. *)
Definition sumsq32 (v : list Z) : Z := @asum Z I64 (map (@nsq Z I32) v).

Section Int32.
Context {A : Type} {NA : Num A}.
Local Open Scope num_scope.

(** allantools.py:339-387 calc_adev_phase with an int32 phase array. *)
Definition calc_adev_int32 (phase : list Z) (rate : A) (mj stride : nat) : res (A * A * Z) :=
  d2 <- pystride (2 * mj)%nat stride phase ;;
  d1 <- pystride (1 * mj)%nat stride phase ;;
  d0 <- pystride 0 stride phase ;;
  let n := min3 (len d0) (len d1) (len d2) in
  let n := if Nat.eqb n 0 then 1%nat else n in
  v_arr <- @second_diff Z I32 n d2 d1 d0 ;;
  let s := sumsq32 v_arr in
  let dev := nsqrt (ofZ s / (ofZ 2 * ofN n)) / ofN mj * rate in
  let deverr := dev / nsqrt (ofN n) in
  Ok (dev, deverr, Z.of_nat n).

(** allantools.py:785-837 calc_hdev_phase with an int32 phase array. *)
Definition calc_hdev_int32 (phase : list Z) (rate : A) (mj stride : nat) : res (A * A * Z) :=
  let tau0 := ofZ 1 / rate in
  d3 <- pystride (3 * mj)%nat stride phase ;;
  d2 <- pystride (2 * mj)%nat stride phase ;;
  d1 <- pystride (1 * mj)%nat stride phase ;;
  d0 <- pystride 0 stride phase ;;
  let n := min4 (len d0) (len d1) (len d2) (len d3) in
  v_arr <- @third_diff Z I32 n d3 d2 d1 d0 ;;
  let s := sumsq32 v_arr in
  let n := if Nat.eqb n 0 then 1%nat else n in
  let h := nsqrt (ofZ s / ofZ 6 / ofN n) / (tau0 * ofN mj) in
  let e := h / nsqrt (ofN n) in
  Ok (h, e, Z.of_nat n).

(** allantools.py:269-336, 627-681, 741-782, 684-738; frequency data go on as
    float phase, as for int64. *)
Definition adev_int32 := int_dev (fun x rate mj => calc_adev_int32 x rate mj mj) adev.
Definition oadev_int32 := int_dev (fun x rate mj => calc_adev_int32 x rate mj 1) oadev.
Definition hdev_int32 := int_dev (fun x rate mj => calc_hdev_int32 x rate mj mj) hdev.
Definition ohdev_int32 := int_dev (fun x rate mj => calc_hdev_int32 x rate mj 1) ohdev.
End Int32.
