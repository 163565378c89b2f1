(** * Specifications of the deviation functions.

    Independent of the model: only the result/argument types are shared.
    Every quantity is written as in NIST SP1065 or the docstrings, with
    0-based indices over the record [x : list R]. *)
From Coq Require Import String Reals List ZArith Sorted.
From Verif Require Import Base ModelCore NumR.
Import ListNotations.
Local Open Scope R_scope.

(** Sum of f(0), ..., f(n-1). *)
Fixpoint bigsum (n : nat) (f : nat -> R) : R :=
  match n with O => 0 | S k => bigsum k f + f k end.

Notation "x .[ i ]" := (nth i x 0) (at level 2, left associativity, format "x .[ i ]").

(** ** Requested averaging factors *)

Definition keyword (s : string) : Prop :=
  s = "all"%string \/ s = "octave"%string \/ s = "decade"%string \/ s = "log10"%string.

(** A taus argument tau_generator can process for a record of N points:
    explicit values, or a known keyword (keywords other than "all" take a
    logarithm of N and need N >= 1). *)
Definition valid_request (N : nat) (taus : taus_arg R) : Prop :=
  match taus with
  | TNone => (1 <= N)%nat
  | TList [] => (1 <= N)%nat
  | TList _ => True
  | TArr _ => True
  | TStr s => keyword s /\ (s = "all"%string \/ (1 <= N)%nat)
  end.

(** The averaging factor m is asked for by [taus]. *)
Definition requested (N : nat) (rate : R) (taus : taus_arg R) (m : nat) : Prop :=
  match taus with
  | TNone => exists k, m = (2 ^ k)%nat
  | TList [] => exists k, m = (2 ^ k)%nat
  | TList l => exists t, In t l /\ half_even (t * rate) (Z.of_nat m)
  | TArr l => exists t, In t l /\ half_even (t * rate) (Z.of_nat m)
  | TStr s =>
      if String.eqb s "all" then True
      else if String.eqb s "octave" then exists k, m = (2 ^ k)%nat
      else if String.eqb s "decade" then
        exists k, m = (10 ^ k)%nat \/ m = (2 * 10 ^ k)%nat \/ m = (4 * 10 ^ k)%nat
      else (* log10: round(10^(i*L/(P-1))), i < P = floor(10 L), L = log10 N *)
        let L := ln (INR N) / ln 10 in
        exists P i, INR P <= 10 * L < INR P + 1 /\ (i < P)%nat /\
          half_even (Rpower 10 (INR i * (L / (INR P - 1)))) (Z.of_nat m)
  end.

(** [ms] is the strictly increasing list of the requested averaging factors
    that are usable (1 <= m < N) and satisfy the extra condition [ok]. *)
Definition admissible_if (ok : nat -> Prop) (N : nat) (rate : R) (taus : taus_arg R)
    (ms : list nat) : Prop :=
  valid_request N taus /\
  StronglySorted lt ms /\
  forall m, In m ms <-> ((1 <= m < N)%nat /\ ok m /\ requested N rate taus m).

Definition admissible := admissible_if (fun _ => True).

(** What a deviation function must return: the rows with n > 1 of
    (m/rate, dev m, err m, n m), or UserWarning if there is none. *)
Definition report (rate : R) (ms : list nat) (dev err : nat -> R) (cnt : nat -> Z)
    : res (@result R) :=
  match filter (fun m => (1 <? cnt m)%Z) ms with
  | [] => Err UserWarning
  | good => Ok (map (fun m => INR m / rate) good, map dev good,
                EArr (map err good), map cnt good)
  end.

(** dev/sqrt(n), the documented error column *)
Definition plain_err (dev : nat -> R) (cnt : nat -> Z) (m : nat) : R :=
  dev m / sqrt (IZR (cnt m)).

(** ** Allan deviation *)
Definition d2 (x : list R) (m i : nat) : R := x.[i + 2 * m] - 2 * x.[i + m] + x.[i].
Definition d3 (x : list R) (m i : nat) : R :=
  x.[i + 3 * m] - 3 * x.[i + 2 * m] + 3 * x.[i + m] - x.[i].

(** non-overlapping: triples start at 0, m, 2m, ... *)
Definition adev_n (x : list R) (m : nat) : nat := ((length x - 1) / m - 1)%nat.
Definition avar (x : list R) (tau0 : R) (m : nat) : R :=
  / (2 * INR (adev_n x m) * (INR m * tau0) ^ 2) *
  bigsum (adev_n x m) (fun k => (d2 x m (k * m)) ^ 2).

(** overlapping, SP1065 eq. (11) *)
Definition oadev_n (x : list R) (m : nat) : nat := (length x - 2 * m)%nat.
Definition oavar (x : list R) (tau0 : R) (m : nat) : R :=
  / (2 * (INR m * tau0) ^ 2 * INR (oadev_n x m)) *
  bigsum (oadev_n x m) (fun i => (d2 x m i) ^ 2).

(** Hadamard, non-overlapping and overlapping (SP1065 eq. (18), (20)) *)
Definition hdev_n (x : list R) (m : nat) : nat := ((length x - 1) / m - 2)%nat.
Definition hvar (x : list R) (tau0 : R) (m : nat) : R :=
  / (6 * (INR m * tau0) ^ 2 * INR (hdev_n x m)) *
  bigsum (hdev_n x m) (fun k => (d3 x m (k * m)) ^ 2).
Definition ohdev_n (x : list R) (m : nat) : nat := (length x - 3 * m)%nat.
Definition ohvar (x : list R) (tau0 : R) (m : nat) : R :=
  / (6 * (INR m * tau0) ^ 2 * INR (ohdev_n x m)) *
  bigsum (ohdev_n x m) (fun i => (d3 x m i) ^ 2).

(** modified Allan, SP1065 eq. (14) *)
Definition mdev_n (x : list R) (m : nat) : Z := (Z.of_nat (length x) - 3 * Z.of_nat m + 1)%Z.
Definition mvar (x : list R) (tau0 : R) (m : nat) : R :=
  / (2 * INR m ^ 2 * (INR m * tau0) ^ 2 * IZR (mdev_n x m)) *
  bigsum (Z.to_nat (mdev_n x m)) (fun j => (bigsum m (fun i => d2 x m (j + i))) ^ 2).

(** time deviation, SP1065 eq. (15) *)
Definition tvar (x : list R) (tau0 : R) (m : nat) : R :=
  (INR m * tau0) ^ 2 / 3 * mvar x tau0 m.

(** parabolic deviation *)
Definition pvar (x : list R) (tau0 : R) (m : nat) : R :=
  if Nat.eqb m 1 then oavar x tau0 1
  else 72 / (INR (oadev_n x m) * INR m ^ 4 * (INR m * tau0) ^ 2) *
       bigsum (oadev_n x m) (fun i =>
         (bigsum m (fun k => ((INR m - 1) / 2 - INR k) * (x.[i + k] - x.[i + k + m]))) ^ 2).

(** total deviation: record extended by inverted reflection about both end points *)
Definition xtot (x : list R) (i : Z) : R :=
  let N := Z.of_nat (length x) in
  if (i <? 0)%Z then 2 * x.[0] - x.[Z.to_nat (- i)]
  else if (i <? N)%Z then x.[Z.to_nat i]
  else 2 * x.[length x - 1] - x.[Z.to_nat (2 * (N - 1) - i)].
Definition totdev_n (x : list R) : nat := (length x - 2)%nat.
Definition totvar (x : list R) (tau0 : R) (m : nat) : R :=
  / (2 * (INR m * tau0) ^ 2 * INR (totdev_n x)) *
  bigsum (totdev_n x) (fun k =>
    let i := Z.of_nat (k + 1) in
    (xtot x (i - Z.of_nat m) - 2 * xtot x i + xtot x (i + Z.of_nat m)) ^ 2).

(** modified total / Hadamard total *)
(** slope per sample of a 3m-point subsequence: difference of the averages of
    its last and first floor(3m/2) points, over their distance ceil(3m/2) *)
Definition half_slope (y : nat -> R) (m : nat) : R :=
  let h := Nat.div2 (3 * m) in
  (bigsum h (fun k => y (3 * m - h + k)%nat) / INR h - bigsum h y / INR h)
  / INR (3 * m - h).
(** even reflection of a 3m-point sequence to 9m points *)
Definition reflect9 (y : nat -> R) (m j : nat) : R :=
  if (j <? 3 * m)%nat then y (3 * m - 1 - j)%nat
  else if (j <? 6 * m)%nat then y (j - 3 * m)%nat
  else y (9 * m - 1 - j)%nat.
Definition wsum (z : nat -> R) (m j : nat) : R := bigsum m (fun k => z (j + k)%nat).
(** mean square of the 6m second differences of the m-point averages *)
Definition tot_term (y : nat -> R) (m : nat) : R :=
  let c := half_slope y m in
  let z := reflect9 (fun k => y k - c * INR k) m in
  / (6 * INR m) * bigsum (6 * m) (fun j =>
      ((wsum z m j - 2 * wsum z m (j + m) + wsum z m (j + 2 * m)) / INR m) ^ 2).
Definition mtotvar (x : list R) (tau0 : R) (m : nat) : R :=
  / (2 * (INR m * tau0) ^ 2 * IZR (mdev_n x m)) *
  bigsum (Z.to_nat (mdev_n x m)) (fun i => tot_term (fun k => x.[i + k]) m).
Definition htotvar_freq (f : list R) (m : nat) : R :=
  / (6 * IZR (mdev_n f m)) *
  bigsum (Z.to_nat (mdev_n f m)) (fun i => tot_term (fun k => f.[i + k]) m).

(** frequencies of a phase record *)
Definition freq_of (x : list R) (rate : R) : list R :=
  map (fun i => rate * (x.[i + 1] - x.[i])) (seq 0 (length x - 1)).
(** Hadamard total of phase record [x] with frequencies [f]: at m = 1 the
    overlapping Hadamard deviation of x *)
Definition htot_dev (x f : list R) (rate : R) (m : nat) : R :=
  if Nat.eqb m 1 then sqrt (ohvar x (1 / rate) 1) else sqrt (htotvar_freq f m).
Definition htot_cnt (x f : list R) (m : nat) : Z :=
  if Nat.eqb m 1 then Z.of_nat (ohdev_n x 1) else mdev_n f m.

(** Theo1 (with the 0.75 normalisation of the code), m even *)
Definition theo1_n (x : list R) (m : nat) : Z :=
  ((Z.of_nat (length x) - Z.of_nat m) * Z.of_nat (Nat.div2 m))%Z.
Definition theo1var (x : list R) (tau0 : R) (m : nat) : R :=
  let h := Nat.div2 m in
  / (3 / 4 * INR (length x - m) * (INR m * tau0) ^ 2) *
  bigsum (length x - m) (fun i => bigsum h (fun d =>
    / (INR h - INR d) *
    ((x.[i] - x.[i + h - d]) + (x.[i + m] - x.[i + h + d])) ^ 2)).

(** TIErms and MTIE *)
Definition tie_n (x : list R) (m : nat) : Z := (Z.of_nat (length x) - Z.of_nat m)%Z.
Definition tierms_var (x : list R) (m : nat) : R :=
  / INR (length x - m) * bigsum (length x - m) (fun i => (x.[i + m] - x.[i]) ^ 2).
(** d is the largest excursion x_j - x_k over points at most m apart *)
Definition is_mtie (x : list R) (m : nat) (d : R) : Prop :=
  (forall j k, (j < length x)%nat -> (k < length x)%nat ->
     (j <= k + m)%nat -> (k <= j + m)%nat -> x.[j] - x.[k] <= d) /\
  (exists j k, (j < length x)%nat /\ (k < length x)%nat /\
     (j <= k + m)%nat /\ (k <= j + m)%nat /\ x.[j] - x.[k] = d).

(** overlapping Allan covariance of two records *)
Definition ocov (x y : list R) (tau0 : R) (m : nat) : R :=
  / (2 * (INR m * tau0) ^ 2 * INR (oadev_n x m)) *
  bigsum (oadev_n x m) (fun i => d2 x m i * d2 y m i).

(** ** Transformations of records used in the laws *)
(** x_i + g(i) *)
Definition shifted (g : nat -> R) (x : list R) : list R :=
  map (fun i => x.[i] + g i) (seq 0 (length x)).
Definition line (a b : R) (i : nat) : R := a + b * INR i.
Definition parabola (a b c : R) (i : nat) : R := a + b * INR i + c * INR i ^ 2.
Definition scaled (c : R) (x : list R) : list R := map (Rmult c) x.
(** ** Conversions *)
Definition average (f : list R) : R := bigsum (length f) (fun k => f.[k]) / INR (length f).
(** plain integration of frequencies: 0, f0/rate, (f0+f1)/rate, ... *)
Definition integrated (f : list R) (rate : R) : list R :=
  map (fun i => bigsum i (fun k => f.[k]) / rate) (seq 0 (S (length f))).

(** ** Transformations of requests and results used in the laws *)
(** devs and errs multiplied by k *)
Definition scale_devs (k : R) (r : res (@result R)) : res (@result R) :=
  match r with
  | Ok (t, d, EArr e, n) => Ok (t, map (Rmult k) d, EArr (map (Rmult k) e), n)
  | Ok (t, d, EList es, n) => Ok (t, map (Rmult k) d, EList (map (map (Rmult k)) es), n)
  | Err e => Err e
  end.
(** taus divided by k *)
Definition scale_taus (k : R) (taus : taus_arg R) : taus_arg R :=
  match taus with
  | TNone => TNone
  | TList l => TList (map (fun t => t / k) l)
  | TArr l => TArr (map (fun t => t / k) l)
  | TStr s => TStr s
  end.
(** taus divided by k, devs and errs multiplied by kd *)
Definition rescale (k kd : R) (r : res (@result R)) : res (@result R) :=
  match r with
  | Ok (t, d, EArr e, n) => Ok (map (fun t => t / k) t, map (Rmult kd) d, EArr (map (Rmult kd) e), n)
  | Ok (t, d, EList es, n) => Ok (map (fun t => t / k) t, map (Rmult kd) d, EList (map (map (Rmult kd)) es), n)
  | Err e => Err e
  end.
