(** * allantools/ci.py, arithmetic-generic part, and gradev. *)
From Coq Require Import String List ZArith Bool Arith.
From Verif Require Import Base Num NpList ModelCore ModelDev ModelMisc.
Import ListNotations.
Local Open Scope res_scope.

Section Ci.
Context {A : Type} {NA : Num A}.
Local Open Scope num_scope.
Local Notation len := List.length.

(** Division of two Python floats. *)
Definition pydiv (a b : A) : res A :=
  if neqb b (ofZ 0) then Err ZeroDivisionError else Ok (a / b).

(** ci.py:39-70 confidence_interval.  [ppf p df] is scipy.stats.chi2.ppf; the
    divisions are numpy float divisions (no exception). *)
Definition confidence_interval (ppf : A -> A -> A) (dev edf ci : A) : A * A :=
  let ci_l := pymin2 (nabs ci) (nabs (ci - ofZ 1)) / ofZ 2 in
  let ci_h := ofZ 1 - ci_l in
  let chi2_l := ppf ci_l edf in
  let chi2_h := ppf ci_h edf in
  let variance := dev * dev in
  let var_l := edf * variance / chi2_h in
  let var_h := edf * variance / chi2_l in
  (nsqrt var_l, nsqrt var_h).

(** ci.py:770-835 edf_simple.  [nlog], [nexp] are np.log, np.exp; alpha None
    stands for Python's None.  N and m are converted to Python floats, whose
    division by zero raises.  For alpha = -1 and m < 2, m <> 1 the variable
    edf is never assigned. *)
Definition edf_simple (nlog nexp : A -> A) (N m : Z) (alpha : option Z) : res A :=
  let N := ofZ N in
  let mz := m in
  let m := ofZ m in
  match alpha with
  | Some 2%Z => pydiv ((N + ofZ 1) * (N - ofZ 2 * m)) (ofZ 2 * (N - m))
  | Some 0%Z =>
      a <- pydiv (ofZ 3 * (N - ofZ 1)) (ofZ 2 * m) ;;
      b <- pydiv (ofZ 2 * (N - ofZ 2)) N ;;
      c <- pydiv (ofZ 4 * (m * m)) (ofZ 4 * (m * m) + ofZ 5) ;;
      Ok ((a - b) * c)
  | Some 1%Z =>
      a <- pydiv (N - ofZ 1) (ofZ 2 * m) ;;
      let b := (ofZ 2 * m + ofZ 1) * (N - ofZ 1) / ofZ 4 in
      Ok (nexp (nsqrt (nlog a * nlog b)))
  | Some (-1)%Z =>
      if (mz =? 1)%Z then
        pydiv (ofZ 2 * (N - ofZ 2)) (ofZ 23 / ofZ 10 * N - ofZ 49 / ofZ 10)
      else if (2 <=? mz)%Z then
        pydiv (ofZ 5 * (N * N)) (ofZ 4 * m * (N + ofZ 3 * m))
      else Err UnboundLocalError
  | Some (-2)%Z =>
      a <- pydiv (N - ofZ 2) (m * ((N - ofZ 3) * (N - ofZ 3))) ;;
      let b := (N - ofZ 1) * (N - ofZ 1) in
      let c := ofZ 3 * m * (N - ofZ 1) in
      let d := ofZ 4 * (m * m) in
      Ok (a * (b - c + d))
  | _ => Ok (N - ofZ 1)
  end.

(** ci.py:734-749 edf_totdev.  Table entries 1.50, 1.17, ... as exact quotients. *)
Definition edf_totdev (nlog nexp : A -> A) (N m alpha : Z) : res A :=
  let row b c := q <- pydiv (ofZ N) (ofZ m) ;; Ok (ofZ b / ofZ 100 * q - ofZ c / ofZ 100) in
  match alpha with
  | 0%Z => row 150%Z 0%Z
  | (-1)%Z => row 117%Z 22%Z
  | (-2)%Z => row 93%Z 36%Z
  | _ => edf_simple nlog nexp N m (Some alpha)
  end.

(** ci.py:752-767 edf_mtotdev (print not modelled). *)
Definition edf_mtotdev (N m alpha : Z) : res A :=
  let row b c := q <- pydiv (ofZ N) (ofZ m) ;; Ok (ofZ b / ofZ 100 * q - ofZ c / ofZ 100) in
  match alpha with
  | 2%Z => row 190%Z 210%Z
  | 1%Z => row 120%Z 140%Z
  | 0%Z => row 110%Z 120%Z
  | (-1)%Z => row 85%Z 50%Z
  | (-2)%Z => row 75%Z 31%Z
  | _ => Err AssertionError
  end.

(** ci.py:297-326 lag1_acf ([detrend_deg] is unused).  For an empty series both
    accumulators are the Python integer 0, and 0/0 raises. *)
Definition lag1_acf (x : list A) : res A :=
  match x with
  | [] => Err ZeroDivisionError
  | _ =>
      let mu := mean x in
      let a := asum (map2 (fun p q => (p - mu) * (q - mu)) x (tl x)) in
      let b := asum (map (fun xn => nsq (xn - mu)) x) in
      Ok (a / b)
  end.

(** Averages of consecutive blocks of [af] points, the rest cut off
    (ci.py:378-381 and 207-210: cut, reshape, np.average(axis=1)).  [len % 0]
    raises. *)
Definition block_averages (x : list A) (af : nat) : res (list A) :=
  if Nat.eqb af 0 then Err ZeroDivisionError
  else Ok (map (fun j => mean (pyslice (j * af) ((j + 1) * af) x)) (seq 0 (len x / af))).

(** int(v) of a numpy float already rounded by np.round *)
Definition int_round (v : A) : res Z :=
  match nrint v with
  | Some z => Ok z
  | None => Err (if nisnan v then ValueError else OverflowError)
  end.

(** ci.py:390-407: the while loop of autocorr_noise_id.  [fuel] bounds the
    number of iterations; running out of it is reported as [None]. *)
Fixpoint acf_loop (phase : bool) (dmin dmax : Z) (fuel : nat) (x : list A) (d : Z)
    : option (res (Z * A * Z * A)) :=
  match fuel with
  | O => None
  | S f =>
      match lag1_acf x with
      | Err e => Some (Err e)
      | Ok r1 =>
          let rho := r1 / (ofZ 1 + r1) in
          if ((dmin <=? d)%Z && (nltb rho (ofZ 1 / ofZ 4) || (dmax <=? d)%Z))%bool then
            let p := ofZ (-2) * (rho + ofZ d) in
            let phase_add2 := if phase then 2%Z else 0%Z in
            let alpha := p + ofZ phase_add2 in
            Some (z <- int_round (ofZ 2 * rho) ;;
                  Ok ((- z - 2 * d + phase_add2)%Z, alpha, d, rho))
          else acf_loop phase dmin dmax f (diff x) (d + 1)%Z
      end
  end.

(** ci.py:329-408 autocorr_noise_id; returns (alpha_int, alpha, d, rho).
    [detrend] is the least-squares polynomial removal of ci.py:411-431, an
    arbitrary function here (np.polyfit may raise).  A data_type other than
    "phase" and "freq" is accepted and the series used as it is.  The fuel is
    the bound proved sufficient in CiProofs.v. *)
Definition autocorr_noise_id (detrend : list A -> nat -> res (list A)) (x : list A) (af : nat)
    (data_type : string) (dmin dmax : Z) : option (res (Z * A * Z * A)) :=
  let phase := String.eqb data_type "phase" in
  match
    (if phase then
       x <- (if (1 <? af)%nat then pystride 0 af x else Ok x) ;; detrend x 2%nat
     else if String.eqb data_type "freq" then
       x <- block_averages x af ;; detrend x 1%nat
     else Ok x)
  with
  | Err e => Some (Err e)
  | Ok x => if (len x <? 30)%nat then Some (Err NotImplementedError)
            else acf_loop phase dmin dmax (S (Z.to_nat (Z.max dmin dmax))) x 0%Z
  end.

(** ci.py:140-151 rn.  [devs[0]] of a non-empty result. *)
Definition first_dev (r : result) : res A :=
  let '(_, devs, _, _) := r in pyget devs 0%Z.
Definition rn (x : list A) (af rate : A) : res A :=
  r1 <- adev x rate "phase"%string (TList [af * rate]) ;;
  oadev_x <- first_dev r1 ;;
  r2 <- mdev x rate "phase"%string (TList [af * rate]) ;;
  mdev_x <- first_dev r2 ;;
  Ok (nsq (mdev_x / oadev_x)).

(** np.var(y, ddof=1); numpy divides by max(len - 1, 0) *)
Definition var1 (y : list A) : A :=
  let mu := mean y in asum (map (fun v => nsq (v - mu)) y) / ofN (len y - 1).

(** ci.py:193-213 b1, integer af. *)
Definition b1 (x : list A) (af : nat) (rate : A) : res A :=
  r1 <- adev x rate "phase"%string (TList [ofN af * rate]) ;;
  oadev_x <- first_dev r1 ;;
  let avar := nsq oadev_x in
  y_averaged <- block_averages (diff x) af ;;
  Ok (var1 y_averaged / avar).

(** allantools.py:1617-1665 calc_gradev_phase.  np.nansum ignores NaN terms.
    The last two arguments of confidence_interval are passed in the order
    (confidence, edf), as in the code. *)
Definition calc_gradev_phase (nlog nexp : A -> A) (ppf : A -> A -> A) (data : list A) (rate : A)
    (mj stride : nat) (confidence : A) (noisetype : string) : res (A * (A * A) * Z) :=
  d2 <- pystride (2 * mj)%nat stride data ;;
  d1 <- pystride (1 * mj)%nat stride data ;;
  d0 <- pystride 0 stride data ;;
  let n := min3 (len d0) (len d1) (len d2) in
  v_arr <- second_diff n d2 d1 d0 ;;
  let present := filter (fun v => negb (nisnan v)) in
  let n := len (present v_arr) in
  let n := if Nat.eqb n 0 then 1%nat else n in
  let N := len (present data) in
  let s := asum (present (map nsq v_arr)) in
  let dev := nsqrt (s / (ofZ 2 * ofN n)) / ofN mj * rate in
  let alpha := if String.eqb noisetype "wp" then Some 2%Z
               else if String.eqb noisetype "wf" then Some 0%Z
               else if String.eqb noisetype "fp" then Some (-2)%Z
               else None in
  deverr <- (if (1 <? n)%nat then
               edf <- edf_simple nlog nexp (Z.of_nat N) (Z.of_nat mj) alpha ;;
               Ok (confidence_interval ppf dev confidence edf)
             else Ok (ofZ 0, ofZ 0)) ;;
  Ok (dev, deverr, Z.of_nat n).

(** allantools.py:1546-1614 gradev (print not modelled). *)
Definition gradev (nlog nexp : A -> A) (ppf : A -> A -> A) (data : list A) (rate : A)
    (data_type : string) (taus : taus_arg A) (ci : A) (noisetype : string) : res result :=
  phase <- input_to_phase data rate data_type ;;
  '(data, m, taus_used) <- tau_generator phase rate taus false (ofZ (-1)) ;;
  rows <- mapM (fun mj => calc_gradev_phase nlog nexp ppf data rate (Z.to_nat mj) 1 ci noisetype) m ;;
  remove_small_ns taus_used (map (fun r => fst (fst r)) rows)
    (EList [map (fun r => fst (snd (fst r))) rows; map (fun r => snd (snd (fst r))) rows])
    (map snd rows).
End Ci.
