(** * Deviation functions of allantools/allantools.py (lines 130-1481). *)
From Coq Require Import String List ZArith Bool Arith.
From Verif Require Import Base Num NpList ModelCore.
Import ListNotations.
Local Open Scope res_scope.

Section Dev.
Context {A : Type} {NA : Num A}.
Local Open Scope num_scope.
Local Notation len := List.length.

Definition min3 a b c := Nat.min a (Nat.min b c).
Definition min4 a b c d := Nat.min (min3 a b c) d.

(** [d2[:n] - 2 * d1[:n] + d0[:n]], broadcasting included. *)
Definition second_diff (n : nat) (d2 d1 d0 : list A) : res (list A) :=
  t <- vsub (firstn n d2) (scal (ofZ 2) (firstn n d1)) ;;
  vadd t (firstn n d0).

(** [d3[:n] - 3 * d2[:n] + 3 * d1[:n] - d0[:n]]. *)
Definition third_diff (n : nat) (d3 d2 d1 d0 : list A) : res (list A) :=
  t <- vsub (firstn n d3) (scal (ofZ 3) (firstn n d2)) ;;
  u <- vadd t (scal (ofZ 3) (firstn n d1)) ;;
  vsub u (firstn n d0).

(** [np.sum(v * v)]. *)
Definition sumsq (v : list A) : A := asum (map nsq v).

(** allantools.py:339-387 calc_adev_phase. *)
Definition calc_adev_phase (phase : list A) (rate : A) (mj stride : nat)
    : res (A * A * Z) :=
  d2 <- pystride (2 * mj)%nat stride phase ;;
  d1 <- pystride (1 * mj)%nat stride phase ;;
  d0 <- pystride 0 stride phase ;;
  let n := min3 (len d0) (len d1) (len d2) in
  let n := if Nat.eqb n 0 then 1%nat else n in
  v_arr <- second_diff n d2 d1 d0 ;;
  let s := sumsq v_arr in
  let dev := nsqrt (s / (ofZ 2 * ofN n)) / ofN mj * rate in
  let deverr := dev / nsqrt (ofN n) in
  Ok (dev, deverr, Z.of_nat n).

(** allantools.py:269-336 adev. *)
Definition adev (data : list A) (rate : A) (data_type : string) (taus : taus_arg A)
    : res result :=
  phase <- input_to_phase data rate data_type ;;
  '(phase, m, taus_used) <- tau_generator phase rate taus false (ofZ (-1)) ;;
  run_rows (fun mj => calc_adev_phase phase rate mj mj) m taus_used.

(** allantools.py:627-681 oadev. *)
Definition oadev (data : list A) (rate : A) (data_type : string) (taus : taus_arg A)
    : res result :=
  phase <- input_to_phase data rate data_type ;;
  '(phase, m, taus_used) <- tau_generator phase rate taus false (ofZ (-1)) ;;
  run_rows (fun mj => calc_adev_phase phase rate mj 1) m taus_used.

(** allantools.py:785-836 calc_hdev_phase. *)
Definition calc_hdev_phase (phase : list A) (rate : A) (mj stride : nat)
    : res (A * A * Z) :=
  let tau0 := ofZ 1 / rate in
  d3 <- pystride (3 * mj)%nat stride phase ;;
  d2 <- pystride (2 * mj)%nat stride phase ;;
  d1 <- pystride (1 * mj)%nat stride phase ;;
  d0 <- pystride 0 stride phase ;;
  let n := min4 (len d0) (len d1) (len d2) (len d3) in
  v_arr <- third_diff n d3 d2 d1 d0 ;;
  let s := sumsq v_arr in
  let n := if Nat.eqb n 0 then 1%nat else n in
  let h := nsqrt (s / ofZ 6 / ofN n) / (tau0 * ofN mj) in
  let e := h / nsqrt (ofN n) in
  Ok (h, e, Z.of_nat n).

(** allantools.py:741-782 hdev. *)
Definition hdev (data : list A) (rate : A) (data_type : string) (taus : taus_arg A)
    : res result :=
  phase <- input_to_phase data rate data_type ;;
  '(phase, m, taus_used) <- tau_generator phase rate taus false (ofZ (-1)) ;;
  run_rows (fun mj => calc_hdev_phase phase rate mj mj) m taus_used.

(** allantools.py:684-738 ohdev. *)
Definition ohdev (data : list A) (rate : A) (data_type : string) (taus : taus_arg A)
    : res result :=
  phase <- input_to_phase data rate data_type ;;
  '(phase, m, taus_used) <- tau_generator phase rate taus false (ofZ (-1)) ;;
  run_rows (fun mj => calc_hdev_phase phase rate mj 1) m taus_used.

(** allantools.py:233-264, the loop body of mdev for one averaging factor. *)
Definition calc_mdev_phase (phase : list A) (rate : A) (m : nat) : res (A * A * Z) :=
  let tau := ofN m / rate in
  (* First loop sum *)
  let d0 := pyslice 0 m phase in
  let d1 := pyslice m (2 * m) phase in
  let d2 := pyslice (2 * m) (3 * m) phase in
  let e := min3 (len d0) (len d1) (len d2) in
  sd <- second_diff e d2 d1 d0 ;;
  let v := asum sd in
  let s := v * v in
  (* Second part of sum *)
  let d3 := skipn (3 * m)%nat phase in
  let d2 := skipn (2 * m)%nat phase in
  let d1 := skipn (1 * m)%nat phase in
  let d0 := phase in
  let e := min4 (len d0) (len d1) (len d2) (len d3) in
  let n := S e in
  td <- third_diff e d3 d2 d1 d0 ;;
  let v_arr := map (fun c => v + c) (cumsum td) in
  let s := s + sumsq v_arr in
  let s := s / (ofZ 2 * ofN m * ofN m * tau * tau * ofN n) in
  let s := nsqrt s in
  Ok (s, s / nsqrt (ofN n), Z.of_nat n).

(** allantools.py:181-266 mdev. *)
Definition mdev (data : list A) (rate : A) (data_type : string) (taus : taus_arg A)
    : res result :=
  phase <- input_to_phase data rate data_type ;;
  '(phase, ms, taus_used) <- tau_generator phase rate taus false (ofZ (-1)) ;;
  run_rows (calc_mdev_phase phase rate) ms taus_used.

(** [td = taus * md / np.sqrt(3.0); tde = td / np.sqrt(ns)], used by tdev
    (lines 175-178) and ttotdev (lines 944-948). *)
Definition scale_tdev (r : result) : res result :=
  let '(taus, md, _, ns) := r in
  t <- vmul taus md ;;
  let td := map (fun x => x / nsqrt (ofZ 3)) t in
  tde <- bmap2 (fun d n => d / nsqrt (ofZ n)) td ns ;;
  Ok (taus, td, EArr tde, ns).

(** allantools.py:130-178 tdev. *)
Definition tdev (data : list A) (rate : A) (data_type : string) (taus : taus_arg A)
    : res result :=
  phase <- input_to_phase data rate data_type ;;
  r <- mdev phase rate "phase" taus ;;
  scale_tdev r.

(** allantools.py:448-508 calc_pdev_phase. *)
Definition calc_pdev_phase (phase : list A) (rate : A) (mj : nat) : res (A * A * Z) :=
  let tau0 := ofZ 1 / rate in
  if Nat.eqb mj 1 then
    d2 <- pystride (2 * mj)%nat 1 phase ;;
    d1 <- pystride (1 * mj)%nat 1 phase ;;
    d0 <- pystride 0 1 phase ;;
    let n := min3 (len d0) (len d1) (len d2) in
    let n := if Nat.eqb n 0 then 1%nat else n in
    v_arr <- second_diff n d2 d1 d0 ;;
    let s := sumsq v_arr in
    let dev := nsqrt (s / (ofZ 2 * ofN n)) / ofN mj * rate in
    let deverr := dev / nsqrt (ofN n) in
    Ok (dev, deverr, Z.of_nat n)
  else
    let N := len phase in
    let M := (Z.of_nat N - 2 * Z.of_nat mj)%Z in
    if (M <? 1)%Z then Ok (ofZ 0, ofZ 0, 0%Z) else
    (* weights (mj-1.0)/2.0 - krange, krange = linspace(0, mj-1, mj) *)
    let w := map (fun k => (ofN mj - ofZ 1) / ofZ 2 - ofN k) (seq 0 mj) in
    Msum <- foldM (fun Msum i =>
              dx <- vsub (pyslice i (i + mj) phase) (pyslice (i + mj) (i + 2 * mj) phase) ;;
              p <- vmul w dx ;;
              Ok (Msum + nsq (asum p)))
            (seq 0 (Z.to_nat M)) (ofZ 0) ;;
    let dev := nsqrt (ofZ 72 * Msum /
                 (ofZ (M * Z.of_nat mj ^ 4) * nsq (ofN mj * tau0))) in
    let deverr := dev / nsqrt (ofZ M) in
    Ok (dev, deverr, M).

(** allantools.py:390-445 pdev. *)
Definition pdev (data : list A) (rate : A) (data_type : string) (taus : taus_arg A)
    : res result :=
  phase <- input_to_phase data rate data_type ;;
  '(phase, m, taus_used) <- tau_generator phase rate taus false (ofZ (-1)) ;;
  run_rows (calc_pdev_phase phase rate) m taus_used.

(** allantools.py:511-566 calc_gcodev_phase. *)
Definition calc_gcodev_phase (phase_1 phase_2 : list A) (rate : A) (mj stride : nat)
    : res (A * A * Z) :=
  d2_1 <- pystride (2 * mj)%nat stride phase_1 ;;
  d1_1 <- pystride (1 * mj)%nat stride phase_1 ;;
  d0_1 <- pystride 0 stride phase_1 ;;
  d2_2 <- pystride (2 * mj)%nat stride phase_2 ;;
  d1_2 <- pystride (1 * mj)%nat stride phase_2 ;;
  d0_2 <- pystride 0 stride phase_2 ;;
  let n_1 := min3 (len d0_1) (len d1_1) (len d2_1) in
  let n_2 := min3 (len d0_2) (len d1_2) (len d2_2) in
  let n_2 := if Nat.eqb n_1 0 then 1%nat else n_2 in
  let n_1 := if Nat.eqb n_1 0 then 1%nat else n_1 in
  v_arr_1 <- second_diff n_1 d2_1 d1_1 d0_1 ;;
  v_arr_2 <- second_diff n_2 d2_2 d1_2 d0_2 ;;
  p <- vmul v_arr_1 v_arr_2 ;;
  let s := asum p in
  let dev := if nleb (ofZ 0) s
             then nsqrt (s / (ofZ 2 * ofN n_1)) / ofN mj * rate
             else nsqrt (nabs s / (ofZ 2 * ofN n_1)) / ofN mj * rate in
  let deverr := dev / nsqrt (ofN n_1) in
  Ok (dev, deverr, Z.of_nat n_1).

(** allantools.py:569-624 gcodev. *)
Definition gcodev (data_1 data_2 : list A) (rate : A) (data_type : string)
    (taus : taus_arg A) : res result :=
  phase_1 <- input_to_phase data_1 rate data_type ;;
  phase_2 <- input_to_phase data_2 rate data_type ;;
  '(phase_1, _, _) <- tau_generator phase_1 rate taus false (ofZ (-1)) ;;
  '(phase_2, m, taus_used) <- tau_generator phase_2 rate taus false (ofZ (-1)) ;;
  run_rows (fun mj => calc_gcodev_phase phase_1 phase_2 rate mj 1) m taus_used.

(** allantools.py:884-900: the 3N-4 point extension of totdev.  phase[0] of an
    empty array is an IndexError, np.ones((N-2,)) for N=1 a ValueError. *)
Definition totdev_extend (phase : list A) : res (list A) :=
  let N := len phase in
  first <- pyget phase 0 ;;
  if (N <? 2)%nat then Err ValueError else
  x1 <- vsub (repeat (ofZ 2 * first) (N - 2)) (pyinner phase) ;;
  let x1 := rev x1 in
  last <- pyget phase (-1) ;;
  x2 <- vsub (repeat (ofZ 2 * last) (N - 2)) (rev (pyinner phase)) ;;
  _ <- assert_ (Nat.eqb (len x1 + N + len x2) (3 * N - 4)) ;;
  Ok (x1 ++ phase ++ x2)%list.

(** allantools.py:908-922: one averaging factor of totdev; [x] is the
    extended array, [N] the original length, [mid = len(x1) = N-2]. *)
Definition calc_totdev (x : list A) (N : nat) (rate : A) (mj : nat) : res (A * A * Z) :=
  let mid := (N - 2)%nat in
  let d0 := pyfrom (Z.of_nat mid + 1) x in
  let d1 := pyfrom (Z.of_nat mid + Z.of_nat mj + 1) x in
  let d1n := pyfrom (Z.of_nat mid - Z.of_nat mj + 1) x in
  let e := min3 (len d0) (len d1) (len d1n) in
  t <- vsub (firstn e d1n) (scal (ofZ 2) (firstn e d0)) ;;
  v_arr <- vadd t (firstn e d1) ;;
  let dev := sumsq (firstn mid v_arr) in
  let dev := dev / (ofZ 2 * nsq (ofN mj / rate) * ofZ (Z.of_nat N - 2)) in
  let dev := nsqrt dev in
  Ok (dev, dev / nsqrt (ofN mid), Z.of_nat mid).

(** allantools.py:839-924 totdev. *)
Definition totdev (data : list A) (rate : A) (data_type : string) (taus : taus_arg A)
    : res result :=
  phase <- input_to_phase data rate data_type ;;
  '(phase, m, taus_used) <- tau_generator phase rate taus false (ofZ (-1)) ;;
  x <- totdev_extend phase ;;
  run_rows (calc_totdev x (len phase) rate) m taus_used.

(** Lines 1075-1088 (mtotdev) and 1227-1245 (htotdev): the sliding m-point
    sums over the 9m-point sequence; returns the sum of the 6m squares. *)
Definition sliding_squaresum (xstar : list A) (m : nat) : res A :=
  st <- foldM (fun st j =>
    let '(xmean1, xmean2, xmean3, squaresum) := st in
    '(xmean1, xmean2, xmean3) <-
      (if Nat.eqb j 0 then
         Ok (asum (pyslice 0 m xstar), asum (pyslice m (2 * m) xstar),
             asum (pyslice (2 * m) (3 * m) xstar))
       else
         a0 <- pyget xstar (Z.of_nat (j - 1)) ;;
         a1 <- pyget xstar (Z.of_nat (j + m - 1)) ;;
         b0 <- pyget xstar (Z.of_nat (m + j - 1)) ;;
         b1 <- pyget xstar (Z.of_nat (j + 2 * m - 1)) ;;
         c0 <- pyget xstar (Z.of_nat (2 * m + j - 1)) ;;
         c1 <- pyget xstar (Z.of_nat (j + 3 * m - 1)) ;;
         Ok (xmean1 - a0 + a1, xmean2 - b0 + b1, xmean3 - c0 + c1)) ;;
    Ok (xmean1, xmean2, xmean3,
        squaresum + nsq ((xmean1 - ofZ 2 * xmean2 + xmean3) / ofN m)))
    (seq 0 (6 * m)) (ofZ 0, ofZ 0, ofZ 0, ofZ 0) ;;
  Ok (snd st).

(** 0.5*k for an integer k: 0.5 is exact in binary. *)
Definition half_of (k : Z) : A := ofZ 1 / ofZ 2 * ofZ k.

(** Lines 1037-1053: subsequence with the half-average slope removed. *)
Definition mtot_detrend (xs : list A) (m : nat) (tau0 : A) : list A :=
  let half1 := Nat.div2 (3 * m) in
  let half2 := (3 * m - half1)%nat in
  let mean1 := mean (firstn half1 xs) in
  let mean2 := mean (skipn half2 xs) in
  let slope :=
    if Nat.odd (3 * m)
    then (mean2 - mean1) / ((half_of (3 * Z.of_nat m - 1) + ofZ 1) * tau0)
    else (mean2 - mean1) / (half_of 3 * ofN m * tau0) in
  map2 (fun idx x => x - slope * ofN idx * tau0) (seq 0 (len xs)) xs.

(** allantools.py:1006-1099 calc_mtotdev_phase. *)
Definition calc_mtotdev_phase (phase : list A) (rate : A) (m : nat) : res (A * A * Z) :=
  let tau0 := ofZ 1 / rate in
  let N := len phase in
  let cnt := (Z.of_nat N - 3 * Z.of_nat m + 1)%Z in
  '(n, dev) <- foldM (fun '(n, dev) i =>
      let xs := pyslice i (i + 3 * m) phase in
      _ <- assert_ (Nat.eqb (len xs) (3 * m)) ;;
      let x0 := mtot_detrend xs m tau0 in
      let xstar := (rev x0 ++ x0 ++ rev x0)%list in
      _ <- assert_ (Nat.eqb (len xstar) (9 * m)) ;;
      squaresum <- sliding_squaresum xstar m ;;
      let squaresum := (ofZ 1 / (ofZ 6 * ofN m)) * squaresum in
      Ok ((n + 1)%Z, dev + squaresum))
    (seq 0 (Z.to_nat cnt)) (0%Z, ofZ 0) ;;
  _ <- assert_ (Z.eqb n cnt) ;;
  let dev := dev * ofZ 1 / (ofZ 2 * nsq (ofN m * tau0) * ofZ cnt) in
  let dev := nsqrt dev in
  Ok (dev, dev / nsqrt (ofZ n), n).

(** float(len)/3.0, the maximum_m of mtotdev and htotdev. *)
Definition third_len (n : nat) : A := ofN n / ofZ 3.

(** allantools.py:951-1003 mtotdev. *)
Definition mtotdev (data : list A) (rate : A) (data_type : string) (taus : taus_arg A)
    : res result :=
  phase <- input_to_phase data rate data_type ;;
  '(phase, ms, taus_used) <- tau_generator phase rate taus false (third_len (len phase)) ;;
  run_rows (calc_mtotdev_phase phase rate) ms taus_used.

(** allantools.py:927-948 ttotdev. *)
Definition ttotdev (data : list A) (rate : A) (data_type : string) (taus : taus_arg A)
    : res result :=
  r <- mtotdev data rate data_type taus ;;
  scale_tdev r.

(** Lines 1199-1215 of calc_htotdev_freq. *)
Definition htot_detrend (xs : list A) (m : nat) : list A :=
  let half1 := Nat.div2 (3 * m) in
  let half2 := (3 * m - half1)%nat in
  let mean1 := mean (firstn half1 xs) in
  let mean2 := mean (skipn half2 xs) in
  let slope :=
    if Nat.odd (3 * m)
    then (mean2 - mean1) / (half_of (3 * Z.of_nat m - 1) + ofZ 1)
    else (mean2 - mean1) / (half_of 3 * ofN m) in
  map2 (fun idx x => x - slope * (ofN idx - ofN half1)) (seq 0 (len xs)) xs.

(** allantools.py:1175-1258 calc_htotdev_freq.  [k] counts the 6m inner terms,
    so [assert k == 6*m] holds by construction and is omitted. *)
Definition calc_htotdev_freq (freq : list A) (m : nat) : res (A * A * Z) :=
  let N := len freq in
  let cnt := (Z.of_nat N - 3 * Z.of_nat m + 1)%Z in
  '(n, dev) <- foldM (fun '(n, dev) i =>
      let xs := pyslice i (i + 3 * m) freq in
      _ <- assert_ (Nat.eqb (len xs) (3 * m)) ;;
      let x0 := htot_detrend xs m in
      let xstar := (rev x0 ++ x0 ++ rev x0)%list in
      _ <- assert_ (Nat.eqb (len xstar) (9 * m)) ;;
      squaresum <- sliding_squaresum xstar m ;;
      let squaresum := (ofZ 1 / (ofZ 6 * ofN (6 * m))) * squaresum in
      Ok ((n + 1)%Z, dev + squaresum))
    (seq 0 (Z.to_nat cnt)) (0%Z, ofZ 0) ;;
  _ <- assert_ (Z.eqb n cnt) ;;
  let dev := dev * ofZ 1 / ofZ cnt in
  let dev := nsqrt dev in
  Ok (dev, dev / nsqrt (ofZ n), n).

(** allantools.py:1102-1172 htotdev. *)
Definition htotdev (data : list A) (rate : A) (data_type : string) (taus : taus_arg A)
    : res result :=
  '(phase, freq) <-
    (if String.eqb data_type "phase" then Ok (data, phase2frequency data rate)
     else if String.eqb data_type "freq" then
       phase <- frequency2phase data rate ;; Ok (phase, data)
     else Err GenericException) ;;
  '(freq, ms, taus_used) <- tau_generator freq rate taus false (third_len (len freq)) ;;
  run_rows (fun mj => if Nat.eqb mj 1 then calc_hdev_phase phase rate mj 1
                      else calc_htotdev_freq freq mj) ms taus_used.

(** allantools.py:1307-1329: one averaging factor of theo1.  The inner index
    i-d+int(m/2) is a Python index and could in principle wrap. *)
Definition calc_theo1 (phase : list A) (rate : A) (m : nat) : res (A * A * Z) :=
  let tau0 := ofZ 1 / rate in
  let N := len phase in
  let h := Z.of_nat (Nat.div2 m) in
  _ <- assert_ (Nat.even m) ;;
  '(dev, n) <- foldM (fun '(dev, n) i =>
      '(s, n) <- foldM (fun '(s, n) d =>
          let pre := ofZ 1 / (ofN m / ofZ 2 - ofN d) in
          a <- pyget phase (Z.of_nat i) ;;
          b <- pyget phase (Z.of_nat i - Z.of_nat d + h) ;;
          c <- pyget phase (Z.of_nat i + Z.of_nat m) ;;
          e <- pyget phase (Z.of_nat i + Z.of_nat d + h) ;;
          Ok (s + pre * nsq (a - b + c - e), (n + 1)%Z))
        (seq 0 (Nat.div2 m)) (ofZ 0, n) ;;
      Ok (dev + s, n))
    (seq 0 (N - m)) (ofZ 0, 0%Z) ;;
  _ <- assert_ (Z.eqb (2 * n) ((Z.of_nat N - Z.of_nat m) * Z.of_nat m)) ;;
  let dev := dev / (ofZ 3 / ofZ 4 * ofZ (Z.of_nat N - Z.of_nat m) * nsq (ofN m * tau0)) in
  let dev := nsqrt dev in
  Ok (dev, dev / nsqrt (ofZ (Z.of_nat N - Z.of_nat m)), n).

(** allantools.py:1261-1331 theo1.  [1.0/rate] precedes tau_generator. *)
Definition theo1 (data : list A) (rate : A) (data_type : string) (taus : taus_arg A)
    : res result :=
  phase <- input_to_phase data rate data_type ;;
  if neqb rate (ofZ 0) then Err ZeroDivisionError else
  '(phase, ms, taus_used) <- tau_generator phase rate taus true (ofZ (-1)) ;;
  run_rows (calc_theo1 phase rate) ms taus_used.

(** allantools.py:1361-1375: one averaging factor of tierms.  column_stack
    pairs phase[:-mj] with phase[mj:]; max/min along axis 1. *)
Definition calc_tierms (phase : list A) (mj : nat) : res (A * A * Z) :=
  let count := len phase in
  let a := firstn (count - mj) phase in      (* phase[:-mj], mj >= 1 *)
  let b := skipn mj phase in                 (* phase[mj:] *)
  if negb (Nat.eqb (len a) (len b)) then Err ValueError else
  let p_max := map2 nmax2 a b in
  let p_min := map2 nmin2 a b in
  phases <- vsub p_max p_min ;;
  let tie := nsqrt (mean (map nsq phases)) in
  let ncount := (Z.of_nat count - Z.of_nat mj)%Z in
  Ok (tie, ofZ 0 / nsqrt (ofZ ncount), ncount).

(** allantools.py:1334-1377 tierms. *)
Definition tierms (data : list A) (rate : A) (data_type : string) (taus : taus_arg A)
    : res result :=
  phase <- input_to_phase data rate data_type ;;
  '(data, m, taus_used) <- tau_generator phase rate taus false (ofZ (-1)) ;;
  run_rows (calc_tierms phase) m taus_used.

(** allantools.py:1380-1410 mtie_rolling_window, 1-d. *)
Definition mtie_rolling_window (a : list A) (window : nat) : res (list (list A)) :=
  if (window <? 1)%nat then Err ValueError
  else if (len a <? window)%nat then Err ValueError
  else Ok (map (fun i => pyslice i (i + window) a) (seq 0 (len a - window + 1))).

(** Lines 1446-1450: the try block. *)
Definition mtie_try (phase : list A) (mj : nat) : res A :=
  rw <- mtie_rolling_window phase (mj + 1) ;;
  win_max <- mapM npmax rw ;;
  win_min <- mapM npmin rw ;;
  tie <- vsub win_max win_min ;;
  npmax tie.

(** Lines 1452-1474: the except-ValueError fallback. *)
Definition mtie_fallback (phase : list A) (mj : nat) : res A :=
  if (mj + 1 <? 1)%nat then Err ValueError
  else if (len phase <? mj + 1)%nat then Err ValueError
  else
  currMax <- npmax (pyslice 0 mj phase) ;;
  currMin <- npmin (pyslice 0 mj phase) ;;
  '(_, _, dev) <- foldM (fun '(currMax, currMin, dev) winStartIdx =>
      let winEndIdx := (mj + winStartIdx)%nat in
      old <- pyget phase (Z.of_nat winStartIdx - 1) ;;
      currMax <- (if neqb currMax old then npmax (pyslice winStartIdx winEndIdx phase)
                  else new <- pyget phase (Z.of_nat winEndIdx) ;;
                       Ok (if nltb currMax new then new else currMax)) ;;
      currMin <- (if neqb currMin old then npmin (pyslice winStartIdx winEndIdx phase)
                  else new <- pyget phase (Z.of_nat winEndIdx) ;;
                       Ok (if nltb new currMin then new else currMin)) ;;
      Ok (currMax, currMin,
          if nltb dev (currMax - currMin) then currMax - currMin else dev))
    (seq 1 (len phase - mj - 1)) (currMax, currMin, currMax - currMin) ;;
  Ok dev.

(** Lines 1442-1479: one averaging factor of mtie. *)
Definition calc_mtie (phase : list A) (mj : nat) : res (A * A * Z) :=
  dev <- match mtie_try phase mj with
         | Err ValueError => mtie_fallback phase mj
         | r => r
         end ;;
  let ncount := (Z.of_nat (len phase) - Z.of_nat mj)%Z in
  Ok (dev, dev / nsqrt (ofZ ncount), ncount).

(** allantools.py:1413-1481 mtie. *)
Definition mtie (data : list A) (rate : A) (data_type : string) (taus : taus_arg A)
    : res result :=
  phase <- input_to_phase data rate data_type ;;
  '(phase, m, taus_used) <- tau_generator phase rate taus false (ofZ (-1)) ;;
  run_rows (calc_mtie phase) m taus_used.
End Dev.
