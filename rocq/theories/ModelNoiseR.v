(** * noise.py: spectral functions, and noise_kasdin.py, over the reals.

    Complex numbers are pairs (re, im).  numpy's FFT routines are modelled by
    the sums that define them.  Powers of positive numbers are [Rpower].
    Normal deviates come from an oracle stream [rnd]; np.random.normal(0, s)
    is [s * rnd i].  np.sqrt of a negative number is NaN in numpy and 0 in
    this model: theorems about values exclude negative PSDs. *)
From Coq Require Import String Reals List ZArith Bool Arith.
From Verif Require Import Base Num NpList NumR ModelCore ModelDev ModelMisc ModelCi ModelNoise.
Import ListNotations.
Local Open Scope res_scope.
Local Open Scope R_scope.
Local Notation len := List.length.

Definition cplx := (R * R)%type.
Definition cmul (a b : cplx) : cplx :=
  (fst a * fst b - snd a * snd b, fst a * snd b + snd a * fst b).
Definition conj (a : cplx) : cplx := (fst a, - snd a).

Definition sumR (l : list R) : R := asum l.

(** np.fft.rfft of a real array of N points: for k = 0..N//2,
    sum_n x_n exp(-2 pi i k n / N).  ValueError for an empty array. *)
Definition rfft (x : list R) : res (list cplx) :=
  let N := len x in
  if Nat.eqb N 0 then Err ValueError else
  Ok (map (fun k =>
        (sumR (map (fun n => nth n x 0 * cos (2 * PI * INR k * INR n / INR N)) (seq 0 N)),
         - sumR (map (fun n => nth n x 0 * sin (2 * PI * INR k * INR n / INR N)) (seq 0 N))))
      (seq 0 (N / 2 + 1))).

(** np.fft.irfft of K coefficients: n = 2(K-1) points,
    (1/n) (Re Y_0 + sum_{0<k<n/2} 2 Re(Y_k exp(2 pi i k j/n)) + Re Y_{n/2} cos(pi j));
    ValueError for n < 1. *)
Definition irfft (y : list cplx) : res (list R) :=
  let h := (len y - 1)%nat in
  let n := (2 * h)%nat in
  if Nat.eqb n 0 then Err ValueError else
  Ok (map (fun j =>
        (fst (nth 0 y (0, 0)) +
         sumR (map (fun k =>
            let a := 2 * PI * INR k * INR j / INR n in
            2 * (fst (nth k y (0, 0)) * cos a - snd (nth k y (0, 0)) * sin a)) (seq 1 (h - 1))) +
         fst (nth h y (0, 0)) * cos (PI * INR j)) / INR n)
      (seq 0 n)).

(** Real part of np.fft.ifft: (1/n) sum_k Re(X_k exp(2 pi i j k / n)). *)
Definition ifft_re (X : list cplx) : list R :=
  let n := len X in
  map (fun j =>
     sumR (map (fun k =>
        let a := 2 * PI * INR j * INR k / INR n in
        fst (nth k X (0, 0)) * cos a - snd (nth k X (0, 0)) * sin a) (seq 0 n)) / INR n)
   (seq 0 n).

(** np.linspace(a, b, num). *)
Definition linspace (a b : R) (num : nat) : list R :=
  map (fun i => a + INR i * ((b - a) / INR (num - 1))) (seq 0 num).

(** noise.py:39-50 numpy_psd. *)
Definition numpy_psd (x : list R) (f_sample : R) : res (list R * list R) :=
  c <- pydiv 2 (INR (len x) * f_sample) ;;
  X <- rfft x ;;
  let psd_of_x := map (fun z => c * (fst z * fst z + snd z * snd z)) X in
  let f_axis := linspace 0 (f_sample / 2) (len psd_of_x) in
  Ok (f_axis, psd_of_x).

(** ** timmer_koenig_from_psd *)

(** noise.py:295-307: the sampled PSD at one frequency.  [sy_loop] is the
    for loop over j with its break. *)
Fixpoint sy_loop (f_nodes h_ext alpha_ext : list R) (f : R) (js : list nat) : res R :=
  match js with
  | [] => Ok 0
  | j :: t =>
      a <- pyget f_nodes (Z.of_nat j - 1) ;;
      b <- pyget f_nodes (Z.of_nat j) ;;
      if (Rleb a f && Rltb f b)%bool then
        h <- pyget h_ext (Z.of_nat j) ;;
        al <- pyget alpha_ext (Z.of_nat j) ;;
        Ok (h * Rpower f al)
      else sy_loop f_nodes h_ext alpha_ext f t
  end.
Definition sy_at (f_nodes h_ext alpha_ext : list R) (f : R) : res R :=
  match f_nodes with
  | [] => h <- pyget h_ext 0 ;; al <- pyget alpha_ext 0 ;; Ok (h * Rpower f al)
  | f0 :: _ =>
      if Rltb f f0 then h <- pyget h_ext 0 ;; al <- pyget alpha_ext 0 ;; Ok (h * Rpower f al)
      else
        fl <- pyget f_nodes (-1) ;;
        if Rltb fl f then
          h <- pyget h_ext (-1) ;; al <- pyget alpha_ext (-1) ;; Ok (h * Rpower f al)
        else sy_loop f_nodes h_ext alpha_ext f (seq 1 (len f_nodes - 1))
  end.

(** a[k:] = v with numpy's broadcasting of the right-hand side. *)
Definition assign_from {B} (k : nat) (v a : list B) : res (list B) :=
  let l := (len a - k)%nat in
  if Nat.eqb (len v) l then Ok (firstn k a ++ v)
  else match v with
       | [z] => Ok (firstn k a ++ repeat z l)
       | _ => Err ValueError
       end.

(** noise.py:285-291: n, and the frequency grid. *)
Definition tk_n (duration timestep : R) : Z := truncR (duration / timestep).
Definition tk_grid (n : nat) (timestep : R) : list R :=
  let f1 := 1 / ((INR n - 1) * timestep) in
  let fn := 1 / (2 * timestep) in
  linspace f1 fn (n / 2 + 1).

(** noise.py:310-318: spectrum from the sampled PSD. *)
Definition tk_spectrum (rnd : nat -> R) (n : nat) (frequencies Sy : list R) : res (list cplx) :=
  let Sx := map2 (fun s f => s / (2 * PI * f) ^ 2) Sy frequencies in
  let X := map (fun j =>
      if (Nat.leb 1 j && Nat.leb j (n / 2))%bool then
        let a := sqrt (nth j Sx 0) / 2 in
        (a * rnd (2 * (j - 1))%nat, a * rnd (2 * (j - 1) + 1)%nat)
      else (0, 0)) (seq 0 n) in
  assign_from (n / 2 + 1) (map conj (rev (pyslice 1 (n / 2) X))) X.

(** noise.py:211-328 timmer_koenig_from_psd.  Sx[0] = 0 is never read. *)
Definition timmer_koenig (rnd : nat -> R) (f_nodes h alpha : list R) (duration timestep : R)
    (output : string) : res (list R) :=
  if (Rleb duration 0 || Rleb timestep 0)%bool then Err ValueError else
  if negb (Nat.eqb (len h) (len alpha)) then Err ValueError else
  if negb (Nat.eqb (len f_nodes) 0 || Z.eqb (Z.of_nat (len f_nodes)) (Z.of_nat (len h) - 1))%bool
  then Err ValueError else
  hl <- pyget h (-1) ;;
  al <- pyget alpha (-1) ;;
  let h_ext := h ++ [hl] in
  let alpha_ext := alpha ++ [al] in
  let nz := tk_n duration timestep in
  if (nz <? 4)%Z then Err ValueError else
  let n := Z.to_nat nz in
  let frequencies := tk_grid n timestep in
  Sy <- mapM (sy_at f_nodes h_ext alpha_ext) frequencies ;;
  X <- tk_spectrum rnd n frequencies Sy ;;
  let x := map (fun v => v * sqrt ((INR n - 1) / timestep)) (ifft_re X) in
  if String.eqb output "phase" then Ok x
  else if String.eqb output "freq" then Ok (0 :: map (fun d => d / timestep) (diff x))
  else Err ValueError.

(** ** noise_kasdin.py *)

(** noise_kasdin.py:82-120: the attributes set by __init__ and set_input. *)
Record noise := mkNoise { nz_nr : nat; nz_qd : R; nz_b : R }.

(** np.multiply.accumulate. *)
Fixpoint accumulate_from (acc : R) (l : list R) : list R :=
  match l with
  | [] => []
  | x :: t => let p := acc * x in p :: accumulate_from p t
  end.
Definition accumulate (l : list R) : list R :=
  match l with [] => [] | x :: t => x :: accumulate_from x t end.

(** noise_kasdin.py:122-148 generateNoise, returning the time_series
    attribute.  hfb[0] = 1.0 raises IndexError for nr = 0. *)
Definition generateNoise (rnd : nat -> R) (nz : noise) : res (list R) :=
  let nr := nz_nr nz in
  let wfb := map (fun i => sqrt (nz_qd nz) * rnd i) (seq 0 nr) ++ repeat 0 nr in
  let mhb := - nz_b nz / 2 in
  if Nat.eqb nr 0 then Err IndexError else
  let hfb := 1 :: map (fun i => (mhb + INR i) / (INR i + 1)) (seq 0 (nr - 1)) in
  let hfb := accumulate hfb ++ repeat 0 nr in
  wfb_fft <- rfft wfb ;;
  hfb_fft <- rfft hfb ;;
  t <- irfft (map2 cmul wfb_fft hfb_fft) ;;
  Ok (firstn nr t).

(** noise_kasdin.py:150-161 phase_psd_from_qd. *)
Definition phase_psd_from_qd (nz : noise) (tau0 : R) : R :=
  nz_qd nz * 2 * Rpower (2 * PI) (nz_b nz) * Rpower tau0 (nz_b nz + 1).

(** noise_kasdin.py:163-180 frequency_psd_from_qd. *)
Definition frequency_psd_from_qd (nz : noise) (tau0 : R) : R :=
  let a := nz_b nz + 2 in
  nz_qd nz * 2 * Rpower (2 * PI) a * Rpower tau0 (a - 1).

(** noise_kasdin.py:200-213 c_avar; [None] when no branch applies. *)
Definition c_avar (nz : noise) : option R :=
  let b := nz_b nz in
  if Reqb b (-4) then Some 1
  else if Reqb b (-3) then Some 0
  else if Reqb b (-2) then Some (-1)
  else if Reqb b (-1) then Some (-2)
  else if Reqb b 0 then Some (-2)
  else None.

(** noise_kasdin.py:215-228 c_mvar. *)
Definition c_mvar (nz : noise) : option R :=
  let b := nz_b nz in
  if Reqb b (-4) then Some 1
  else if Reqb b (-3) then Some 0
  else if Reqb b (-2) then Some (-1)
  else if Reqb b (-1) then Some (-2)
  else if Reqb b 0 then Some (-3)
  else None.

(** noise_kasdin.py:271 the decimal literal for Euler's constant. *)
Definition gamma_lit : R := 57721566490153286060651209 / 10 ^ 26.

(** noise_kasdin.py:230-281 adev_from_qd; coeff stays unbound for other b. *)
Definition adev_from_qd (nz : noise) (tau0 tau : R) : res R :=
  let h_b := frequency_psd_from_qd nz tau0 in
  let f_h := (1 / 2) / tau0 in
  let b := nz_b nz in
  coeff <- (if Reqb b 0 then Ok (3 * f_h / (4 * PI ^ 2))
            else if Reqb b (-1) then
              Ok ((3 * gamma_lit - ln 2 + 3 * ln (2 * PI * f_h * tau)) / (4 * PI ^ 2))
            else if Reqb b (-2) then Ok (1 / 2)
            else if Reqb b (-3) then Ok (2 * ln 2)
            else if Reqb b (-4) then Ok (2 * PI ^ 2 / 3)
            else Err UnboundLocalError) ;;
  Ok (sqrt (coeff * h_b)).

(** noise_kasdin.py:283-319 mdev_from_qd (for b=-3 the second assignment wins). *)
Definition mdev_from_qd (nz : noise) (tau0 tau : R) : res R :=
  let h_b := frequency_psd_from_qd nz tau0 in
  let b := nz_b nz in
  coeff <- (if Reqb b 0 then Ok (3 / (8 * PI ^ 2))
            else if Reqb b (-1) then Ok ((24 * ln 2 - 9 * ln 3) / 8 / PI ^ 2)
            else if Reqb b (-2) then Ok (1 / 4)
            else if Reqb b (-3) then Ok (27 / 20 * ln 2)
            else if Reqb b (-4) then Ok (11 / 20 * PI ^ 2)
            else Err UnboundLocalError) ;;
  Ok (sqrt (coeff * h_b)).

(** noise_kasdin.py:321-353 pdev_from_qd. *)
Definition pdev_from_qd (nz : noise) (tau0 tau : R) : res R :=
  let g_b := phase_psd_from_qd nz tau0 in
  let b := nz_b nz in
  coeff <- (if Reqb b 0 then Ok (3 / (2 * PI ^ 2))
            else if Reqb b (-1) then Ok ((3 * ln 16 - 1) / 2 / PI ^ 2)
            else if Reqb b (-2) then Ok (3 / 5)
            else if Reqb b (-3) then Ok (2 * (7 - ln 16) / 5)
            else if Reqb b (-4) then Ok (26 / 35 * PI ^ 2)
            else Err UnboundLocalError) ;;
  Ok (sqrt (coeff * g_b * (2 * PI) ^ 2)).

(** noise_kasdin.py:182-189 adev; pow(tau, None) raises TypeError. *)
Definition noise_adev (nz : noise) (tau0 tau : R) : res R :=
  prefactor <- adev_from_qd nz tau0 tau ;;
  match c_avar nz with
  | None => Err TypeError
  | Some c => Ok (sqrt (prefactor ^ 2 * Rpower tau c))
  end.

(** noise_kasdin.py:191-198 mdev. *)
Definition noise_mdev (nz : noise) (tau0 tau : R) : res R :=
  prefactor <- mdev_from_qd nz tau0 tau ;;
  match c_mvar nz with
  | None => Err TypeError
  | Some c => Ok (sqrt (prefactor ^ 2 * Rpower tau c))
  end.
