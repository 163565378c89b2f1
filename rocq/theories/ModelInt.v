(** * Phase records held in an integer array.

    [np.array(data)] of a list of Python ints, or a record read from a counter,
    is an int64 array.  adev, oadev, hdev, ohdev, mdev, tdev and tierms never
    convert it: the differences, their squares and the sum of the squares
    (tierms: the squares only) are computed in int64, where numpy keeps the
    result modulo 2^64 without an error; the first true division makes the sum a
    float.  Frequency data are converted to float
    by the subtraction of the mean in frequency2phase.

    Simplified: int64 only (int32 arrays wrap at 2^31 in the differences and
    squares already); the other deviation functions with an integer record are
    not modelled here. *)
From Coq Require Import String List ZArith Bool Arith.
From Verif Require Import Base Num NpList ModelCore ModelDev.
Import ListNotations.
Local Open Scope res_scope.
Local Notation len := List.length.

(** numpy int64 arithmetic: two's complement, modulo 2^64. *)
Definition wrap (z : Z) : Z := ((z + 2 ^ 63) mod 2 ^ 64 - 2 ^ 63)%Z.

(** The int64 operations used below are [ofZ] (Python int constants) and + - *;
    the other fields are never evaluated. *)
Definition I64 : Num Z := {|
  ofZ := wrap;
  nadd := fun a b => wrap (a + b);
  nsub := fun a b => wrap (a - b);
  nmul := fun a b => wrap (a * b);
  ndiv := fun _ _ => 0%Z;
  nabs := fun a => wrap (Z.abs a);
  nsqrt := fun _ => 0%Z;
  nltb := Z.ltb;
  nleb := Z.leb;
  neqb := Z.eqb;
  nisnan := fun _ => false;
  nrint := Some;
  ntrunc := Some;
  nlogspace10 := fun _ => []
|}.

Section Int.
Context {A : Type} {NA : Num A}.
Local Open Scope num_scope.

(** allantools.py:339-387 calc_adev_phase with an int64 phase array; the
    division [s / (2.0*n)] converts s. *)
Definition calc_adev_int (phase : list Z) (rate : A) (mj stride : nat) : res (A * A * Z) :=
  d2 <- pystride (2 * mj)%nat stride phase ;;
  d1 <- pystride (1 * mj)%nat stride phase ;;
  d0 <- pystride 0 stride phase ;;
  let n := min3 (len d0) (len d1) (len d2) in
  let n := if Nat.eqb n 0 then 1%nat else n in
  v_arr <- @second_diff Z I64 n d2 d1 d0 ;;
  let s := @sumsq Z I64 v_arr in
  let dev := nsqrt (ofZ s / (ofZ 2 * ofN n)) / ofN mj * rate in
  let deverr := dev / nsqrt (ofN n) in
  Ok (dev, deverr, Z.of_nat n).

(** allantools.py:785-837 calc_hdev_phase with an int64 phase array. *)
Definition calc_hdev_int (phase : list Z) (rate : A) (mj stride : nat) : res (A * A * Z) :=
  let tau0 := ofZ 1 / rate in
  d3 <- pystride (3 * mj)%nat stride phase ;;
  d2 <- pystride (2 * mj)%nat stride phase ;;
  d1 <- pystride (1 * mj)%nat stride phase ;;
  d0 <- pystride 0 stride phase ;;
  let n := min4 (len d0) (len d1) (len d2) (len d3) in
  v_arr <- @third_diff Z I64 n d3 d2 d1 d0 ;;
  let s := @sumsq Z I64 v_arr in
  let n := if Nat.eqb n 0 then 1%nat else n in
  let h := nsqrt (ofZ s / ofZ 6 / ofN n) / (tau0 * ofN mj) in
  let e := h / nsqrt (ofN n) in
  Ok (h, e, Z.of_nat n).

(** allantools.py:233-264, the loop body of mdev, with an int64 phase array:
    v, s, the cumulative sum and [v_arr] are int64 up to [s /= 2.0 * ...]. *)
Definition calc_mdev_int (phase : list Z) (rate : A) (m : nat) : res (A * A * Z) :=
  let tau := ofN m / rate in
  let d0 := pyslice 0 m phase in
  let d1 := pyslice m (2 * m) phase in
  let d2 := pyslice (2 * m) (3 * m) phase in
  let e := min3 (len d0) (len d1) (len d2) in
  sd <- @second_diff Z I64 e d2 d1 d0 ;;
  let v := @asum Z I64 sd in
  let s := @nmul Z I64 v v in
  let d3 := skipn (3 * m)%nat phase in
  let d2 := skipn (2 * m)%nat phase in
  let d1 := skipn (1 * m)%nat phase in
  let d0 := phase in
  let e := min4 (len d0) (len d1) (len d2) (len d3) in
  let n := S e in
  td <- @third_diff Z I64 e d3 d2 d1 d0 ;;
  let v_arr := map (fun c => @nadd Z I64 v c) (@cumsum Z I64 td) in
  let s := @nadd Z I64 s (@sumsq Z I64 v_arr) in
  let s := ofZ s / (ofZ 2 * ofN m * ofN m * tau * tau * ofN n) in
  let s := nsqrt s in
  Ok (s, s / nsqrt (ofN n), Z.of_nat n).

(** allantools.py:1361-1375, the loop body of tierms, with an int64 phase array:
    p_max - p_min and the squares are int64; np.mean of an int64 array adds in float. *)
Definition calc_tierms_int (phase : list Z) (mj : nat) : res (A * A * Z) :=
  let count := len phase in
  let a := firstn (count - mj) phase in
  let b := skipn mj phase in
  if negb (Nat.eqb (len a) (len b)) then Err ValueError else
  let p_max := map2 (@nmax2 Z I64) a b in
  let p_min := map2 (@nmin2 Z I64) a b in
  phases <- @vsub Z I64 p_max p_min ;;
  let tie := nsqrt (mean (map ofZ (map (@nsq Z I64) phases))) in
  let ncount := (Z.of_nat count - Z.of_nat mj)%Z in
  Ok (tie, ofZ 0 / nsqrt (ofZ ncount), ncount).

(** allantools.py:2313-2341 frequency2phase with an integer array: np.isnan is
    False throughout, so trim_data (2216-2229) removes nothing and fails on an
    empty array only; np.nanmean of integers is a float (its sum is accumulated
    in float), and with it the differences from the mean. *)
Definition frequency2phase_int (freqdata : list Z) (rate : A) : res (list A) :=
  if neqb rate (ofZ 0) then Err ZeroDivisionError else
  let dt := ofZ 1 / rate in
  match freqdata with
  | [] => Err IndexError
  | _ => let mu := asum (map ofZ freqdata) / ofN (len freqdata) in
         Ok (ofZ 0 :: map (fun c => c * dt) (cumsum (map (fun f => ofZ f - mu) freqdata)))
  end.

(** allantools.py:1985-1993 input_to_phase and 1996-2125 tau_generator for an
    integer record: phase data stay integer (tau_generator looks at their number
    only), frequency data go on as float phase. *)
Definition int_dev (calc : list Z -> A -> nat -> res (A * A * Z))
    (float_dev : list A -> A -> string -> taus_arg A -> res result)
    (data : list Z) (rate : A) (data_type : string) (taus : taus_arg A) : res result :=
  if String.eqb data_type "phase" then
    '(_, m, taus_used) <- tau_generator (map ofZ data) rate taus false (ofZ (-1)) ;;
    run_rows (calc data rate) m taus_used
  else if String.eqb data_type "freq" then
    phase <- frequency2phase_int data rate ;; float_dev phase rate "phase"%string taus
  else Err GenericException.

(** allantools.py:269-336, 627-681, 741-782, 684-738, 181-266, 1334-1377, 130-178. *)
Definition adev_int := int_dev (fun x rate mj => calc_adev_int x rate mj mj) adev.
Definition oadev_int := int_dev (fun x rate mj => calc_adev_int x rate mj 1) oadev.
Definition hdev_int := int_dev (fun x rate mj => calc_hdev_int x rate mj mj) hdev.
Definition ohdev_int := int_dev (fun x rate mj => calc_hdev_int x rate mj 1) ohdev.
Definition mdev_int := int_dev calc_mdev_int mdev.
Definition tierms_int := int_dev (fun x _ mj => calc_tierms_int x mj) tierms.
Definition tdev_int (data : list Z) (rate : A) (data_type : string) (taus : taus_arg A) : res result :=
  r <- mdev_int data rate data_type taus ;; scale_tdev r.
End Int.
