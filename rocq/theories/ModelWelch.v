(** * noise.py: scipy_psd, the averaged periodogram of scipy.signal.welch.

    scipy.signal.welch is not part of the repository.  It is modelled with the
    options noise.scipy_psd leaves at their defaults: periodic Hann window,
    segments that overlap by half, removal of the mean of every segment,
    one-sided density, mean over the segments. *)
From Coq Require Import Reals List ZArith Bool Arith.
From Verif Require Import Base Num NpList NumR ModelCore ModelMisc ModelCi ModelNoise ModelNoiseR.
Import ListNotations.
Local Open Scope res_scope.
Local Open Scope R_scope.
Local Notation len := List.length.

(** scipy.signal.get_window('hann', L): the periodic Hann window, all ones for L <= 1. *)
Definition hann (L : nat) : list R :=
  if Nat.leb L 1 then repeat 1 L
  else map (fun j => 1 / 2 - 1 / 2 * cos (2 * PI * INR j / INR L)) (seq 0 L).

(** detrend='constant': subtract the mean of the segment. *)
Definition detrend_constant (seg : list R) : list R :=
  let mean := sumR seg / INR (len seg) in map (fun v => v - mean) seg.

(** the segments of L points whose starts are [step] apart *)
Definition segments (x : list R) (L step count : nat) : list (list R) :=
  map (fun s => firstn L (skipn (s * step) x)) (seq 0 count).

(** |rfft|^2 of one detrended and windowed segment *)
Definition periodogram (win seg : list R) : res (list R) :=
  X <- rfft (map2 Rmult win (detrend_constant seg)) ;;
  Ok (map (fun z => fst z * fst z + snd z * snd z) X).

(** bins that are doubled in a one-sided density: all but the first, and the last when L is even *)
Definition sided (L k : nat) : R :=
  if Nat.eqb k 0 || (Nat.even L && Nat.eqb k (L / 2)) then 1 else 2.

(** scipy.signal.welch(x, fs, nperseg=nperseg): empty data gives empty results;
    nperseg < 1 raises ValueError; a longer segment than the data is shortened to the data. *)
Definition welch (x : list R) (fs : R) (nperseg : Z) : res (list R * list R) :=
  if Nat.eqb (len x) 0 then Ok ([], []) else
  if (nperseg <? 1)%Z then Err ValueError else
  let L := Nat.min (Z.to_nat nperseg) (len x) in
  let noverlap := (L / 2)%nat in
  let step := (L - noverlap)%nat in
  let count := ((len x - noverlap) / step)%nat in
  let win := hann L in
  dt <- pydiv 1 fs ;;
  let scale := 1 / (fs * sumR (map (fun v => v * v) win)) in
  P <- mapM (periodogram win) (segments x L step count) ;;
  let f_axis := map (fun k => INR k / (INR L * dt)) (seq 0 (L / 2 + 1)) in
  let psd := map (fun k => sumR (map (fun p => sided L k * (scale * nth k p 0)) P) / INR count) (seq 0 (L / 2 + 1)) in
  Ok (f_axis, psd).

(** noise.py:53-60 scipy_psd, for an integer number of segments: nperseg is
    int(len(x)/nr_segments), truncated towards zero.  (The quotient is a float;
    below 2^52 points its truncation is the exact one.) *)
Definition scipy_psd (x : list R) (f_sample : R) (nr_segments : Z) : res (list R * list R) :=
  if (nr_segments =? 0)%Z then Err ZeroDivisionError else
  welch x f_sample (Z.quot (Z.of_nat (len x)) nr_segments).
