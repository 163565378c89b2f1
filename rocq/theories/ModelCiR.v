(** * allantools/ci.py: noise-identification theory and the Greenhall
    equivalent degrees of freedom, over the reals.

    Exponents alpha, b, mu and the averaging factor m are integers; d is a
    non-negative integer.  Divisions of Python floats raise on a zero divisor;
    divisions of numpy floats do not, and where the divisor could be zero the
    real quotient below differs from numpy's inf/NaN (the theorems exclude
    those cases).  Printing is not modelled. *)
From Coq Require Import String Reals List ZArith Bool Arith.
From Verif Require Import Base Num NpList NumR ModelCore ModelDev ModelMisc ModelCi.
Import ListNotations.
Local Open Scope res_scope.
Local Open Scope R_scope.

(** ** Noise identification theory *)

(** ci.py:154-179 rn_theory, [af] a Python int or float. *)
Definition rn_theory (af : R) (b : Z) : res R :=
  match b with
  | 0%Z => pydiv 1 af
  | (-1)%Z =>
      let avar := (1038 / 1000 + 3 * ln (2 * PI * (1 / 2) * af)) / (4 * PI ^ 2) in
      let mvar := 3 * ln (256 / 27) / (8 * PI ^ 2) in
      Ok (mvar / avar)
  | _ => Ok 1
  end.

(** ci.py:182-187 rn_boundary. *)
Definition rn_boundary (af : R) (b_hi : Z) : res R :=
  p <- rn_theory af b_hi ;; q <- rn_theory af (b_hi - 1)%Z ;; Ok (sqrt (p * q)).

(** ci.py:216-254 b1_theory, integer N and mu.  pow(0, mu) raises for mu < 0. *)
Definition b1_theory (N mu : Z) : res R :=
  let n := IZR N in
  match mu with
  | 2%Z => Ok (n * (n + 1) / 6)
  | 1%Z => Ok (n / 2)
  | 0%Z => Ok (n * ln n / (2 * (n - 1) * ln 2))
  | (-1)%Z => Ok 1
  | (-2)%Z => pydiv (n ^ 2 - 1) (15 / 10 * n * (n - 1))
  | _ =>
      if ((N =? 0) && (mu <? 0))%Z%bool then Err ZeroDivisionError else
      let up := n * (1 - powerRZ n mu) in
      let down := 2 * (n - 1) * (1 - powerRZ 2 mu) in
      pydiv up down
  end.

(** ci.py:271-291 b_to_mu. *)
Definition b_to_mu (b : Z) : res Z :=
  match (b + 2)%Z with
  | 2%Z => Ok (-2)%Z
  | 1%Z => Ok (-2)%Z
  | 0%Z => Ok (-1)%Z
  | (-1)%Z => Ok 0%Z
  | (-2)%Z => Ok 1%Z
  | (-3)%Z => Ok 2%Z
  | (-4)%Z => Ok 3%Z
  | _ => Err AssertionError
  end.

(** ci.py:257-268 b1_boundary. *)
Definition b1_boundary (b_hi N : Z) : res R :=
  mu_lo <- b_to_mu (b_hi - 1)%Z ;; b1_lo <- b1_theory N mu_lo ;;
  mu_hi <- b_to_mu b_hi ;; b1_hi <- b1_theory N mu_hi ;;
  if Rleb (-4) b1_lo then Ok (sqrt (b1_lo * b1_hi)) else Ok (1 / 2 * (b1_lo + b1_hi)).

(** ** Greenhall's kernels *)

(** ci.py:648-676 greenhall_sw. *)
Definition greenhall_sw (t : R) (alpha : Z) : res R :=
  match alpha with
  | 2%Z => Ok (- Rabs t)
  | 1%Z => Ok (if Reqb t 0 then 0 else t ^ 2 * ln (Rabs t))
  | 0%Z => Ok (Rabs (t ^ 3))
  | (-1)%Z => Ok (if Reqb t 0 then 0 else t ^ 4 * ln (Rabs t))
  | (-2)%Z => Ok (Rabs (t ^ 5))
  | (-3)%Z => Ok (if Reqb t 0 then 0 else t ^ 6 * ln (Rabs t))
  | (-4)%Z => Ok (Rabs (t ^ 7))
  | _ => Err AssertionError
  end.

(** ci.py:636-645 greenhall_sx; F = None is float('inf'). *)
Definition greenhall_sx (t : R) (F : option R) (alpha : Z) : res R :=
  match F with
  | None => greenhall_sw t (alpha + 2)
  | Some F =>
      a <- greenhall_sw t alpha ;;
      h <- pydiv 1 F ;;
      b <- greenhall_sw (t - h) alpha ;;
      c <- greenhall_sw (t + h) alpha ;;
      Ok (F ^ 2 * (2 * a - b - c))
  end.

(** ci.py:609-633 greenhall_sz. *)
Definition greenhall_sz (t : R) (F : option R) (alpha : Z) (d : nat) : res R :=
  match d with
  | 1%nat =>
      a <- greenhall_sx t F alpha ;;
      b <- greenhall_sx (t - 1) F alpha ;;
      c <- greenhall_sx (t + 1) F alpha ;;
      Ok (2 * a - b - c)
  | 2%nat =>
      a <- greenhall_sx t F alpha ;;
      b <- greenhall_sx (t - 1) F alpha ;;
      c <- greenhall_sx (t + 1) F alpha ;;
      dd <- greenhall_sx (t - 2) F alpha ;;
      e <- greenhall_sx (t + 2) F alpha ;;
      Ok (6 * a - 4 * b - 4 * c + dd + e)
  | 3%nat =>
      a <- greenhall_sx t F alpha ;;
      b <- greenhall_sx (t - 1) F alpha ;;
      c <- greenhall_sx (t + 1) F alpha ;;
      dd <- greenhall_sx (t - 2) F alpha ;;
      e <- greenhall_sx (t + 2) F alpha ;;
      f <- greenhall_sx (t - 3) F alpha ;;
      g <- greenhall_sx (t + 3) F alpha ;;
      Ok (20 * a - 15 * b - 15 * c + 6 * dd + 6 * e - f - g)
  | _ => Err AssertionError
  end.

(** ci.py:597-606 greenhall_BasicSum. *)
Definition greenhall_BasicSum (J M : Z) (S : R) (F : option R) (alpha : Z) (d : nat) : res R :=
  s0 <- greenhall_sz 0 F alpha d ;;
  q <- pydiv (IZR J) (IZR M) ;;
  u <- pydiv (IZR J) S ;;
  sJ <- greenhall_sz u F alpha d ;;
  third <- foldM (fun acc j =>
      q <- pydiv (INR j) (IZR M) ;;
      u <- pydiv (INR j) S ;;
      s <- greenhall_sz u F alpha d ;;
      Ok (acc + 2 * (1 - q) * s ^ 2)) (seq 1 (Z.to_nat J - 1)) 0 ;;
  Ok (s0 ^ 2 + (1 - q) * sJ ^ 2 + third).

(** ci.py:679-684 greenhall_table3. *)
Definition greenhall_table3 (alpha : Z) (d : nat) : res (R * R) :=
  _ <- assert_ (alpha =? 1)%Z ;;
  pyget [(6, 4); (1523 / 100, 12); (478 / 10, 40)] (Z.of_nat d - 1)%Z.

(** ci.py:687-708 greenhall_table2. *)
Definition greenhall_table2 (alpha : Z) (d : nat) : res (R * R) :=
  let row_idx := (- alpha + 2)%Z in
  _ <- assert_ ((0 <=? row_idx) && (row_idx <=? 5))%Z ;;
  row <- pyget
    [ [(3 / 2, 1 / 2); (35 / 18, 1); (231 / 100, 3 / 2)];
      [(786 / 10, 252 / 10); (790, 410); (9950, 6520)];
      [(2 / 3, 1 / 6); (2 / 3, 1 / 3); (7 / 9, 1 / 2)];
      [(-1, -1); (852 / 1000, 375 / 1000); (997 / 1000, 617 / 1000)];
      [(-1, -1); (1079 / 1000, 368 / 1000); (1033 / 1000, 607 / 1000)];
      [(-1, -1); (-1, -1); (1053 / 1000, 553 / 1000)];
      [(-1, -1); (-1, -1); (1302 / 1000, 535 / 1000)] ] row_idx ;;
  pyget row (Z.of_nat d - 1)%Z.

(** ci.py:711-731 greenhall_table1. *)
Definition greenhall_table1 (alpha : Z) (d : nat) : res (R * R) :=
  let row_idx := (- alpha + 2)%Z in
  row <- pyget
    [ [(2 / 3, 1 / 3); (7 / 9, 1 / 2); (22 / 25, 2 / 3)];
      [(840 / 1000, 345 / 1000); (997 / 1000, 616 / 1000); (1141 / 1000, 843 / 1000)];
      [(1079 / 1000, 368 / 1000); (1033 / 1000, 607 / 1000); (1184 / 1000, 848 / 1000)];
      [(-1, -1); (1048 / 1000, 534 / 1000); (1180 / 1000, 816 / 1000)];
      [(-1, -1); (1302 / 1000, 535 / 1000); (1175 / 1000, 777 / 1000)];
      [(-1, -1); (-1, -1); (1194 / 1000, 703 / 1000)];
      [(-1, -1); (-1, -1); (1489 / 1000, 702 / 1000)] ] row_idx ;;
  pyget row (Z.of_nat d - 1)%Z.

(** ** Equivalent degrees of freedom *)

(** ci.py:497-503 (edf_greenhall): L and M.  m/F is 1 for the unmodified and m
    for the modified variances; floor of a quotient of integers is [Z.div]
    (double rounding of the quotient of integers below 2^53 does not reach the
    next integer). *)
Definition greenhall_M (S m N : Z) (d : nat) (modified : bool) : Z :=
  let L := ((if modified then m else 1) + m * Z.of_nat d)%Z in
  (1 + (S * (N - L)) / m)%Z.

(** np.ceil *)
Definition ceilR (r : R) : Z := (- Int_part (- r))%Z.

(** scipy.special.binom *)
Definition binom (n k : nat) : R := C n k.

(** ci.py:447-594 edf_greenhall. *)
Definition edf_greenhall (alpha : Z) (d : nat) (m N : Z) (overlapping modified : bool) : res R :=
  let S := if overlapping then m else 1%Z in
  _ <- assert_ (1 <? alpha + 2 * Z.of_nat d)%Z ;;
  if (m =? 0)%Z then Err ZeroDivisionError else
  let M := greenhall_M S m N d modified in
  let J := Z.min M ((Z.of_nat d + 1) * S) in
  let J_max := 100%Z in
  let r := IZR M / IZR S in
  let basic J M S F0 F :=
    s0 <- greenhall_sz 0 F0 alpha d ;;
    b <- greenhall_BasicSum J M S F alpha d ;;
    Ok (1 / (1 / (s0 ^ 2 * IZR M) * b)) in
  if modified then
    if (J <=? J_max)%Z then basic J M (IZR S) (Some 1) (Some 1)
    else if Rltb (INR d + 1) r then
      '(a0, a1) <- greenhall_table1 alpha d ;;
      Ok (1 / (1 / r * (a0 - a1 / r)))
    else basic J_max J_max (IZR J_max / r) (Some 1) (Some 1)
  else if (alpha <=? 0)%Z then
    if (J <=? J_max)%Z then
      let m_prime := if (m * (Z.of_nat d + 1) <=? J_max)%Z then Some (IZR m) else None in
      basic J M (IZR S) m_prime m_prime
    else if Rltb (INR d + 1) r then
      '(a0, a1) <- greenhall_table2 alpha d ;;
      Ok (1 / (1 / r * (a0 - a1 / r)))
    else basic J_max J_max (IZR J_max / r) None None
  else if (alpha =? 1)%Z then
    if (J <=? J_max)%Z then basic J M (IZR S) (Some (IZR m)) (Some (IZR m))
    else if Rltb (INR d + 1) r then
      '(a0, a1) <- greenhall_table2 alpha d ;;
      '(b0, b1) <- greenhall_table3 alpha d ;;
      Ok (1 / (1 / ((b0 + b1 * ln (IZR m)) ^ 2 * r) * (a0 - a1 / r)))
    else
      let m_prime := IZR J_max / r in
      '(b0, b1) <- greenhall_table3 alpha d ;;
      b <- greenhall_BasicSum J_max J_max m_prime (Some m_prime) 1 d ;;
      Ok (1 / (1 / ((b0 + b1 * ln (IZR m)) ^ 2 * IZR J_max) * b))
  else if (alpha =? 2)%Z then
    if (ceilR r <=? Z.of_nat d)%Z then Err NotImplementedError
    else
      let a0 := binom (4 * d) (2 * d) / binom (2 * d) d ^ 2 in
      let a1 := INR d / 2 in
      Ok (1 / (1 / IZR M * (a0 - a1 / r)))
  else Err NotImplementedError.

(** ci.py:437-444 edf_greenhall_simple, integer m, F, S with F dividing m. *)
Definition edf_greenhall_simple (alpha : Z) (d : nat) (m S F N : Z) : res R :=
  if (F =? 0)%Z then Err ZeroDivisionError
  else if (m =? 0)%Z then Err ZeroDivisionError
  else
  let L := (m / F + m * Z.of_nat d)%Z in
  let M := (1 + (S * (N - L)) / m)%Z in
  let J := Z.min M ((Z.of_nat d + 1) * S) in
  s0 <- greenhall_sz 0 (Some (IZR F)) alpha d ;;
  b <- greenhall_BasicSum J M (IZR S) (Some (IZR F)) alpha d ;;
  Ok (1 / (1 / (s0 ^ 2 * IZR M) * b)).

(** ci.py:73-133 confidence_interval_noiseID, integer af.  [ident x af
    data_type dmin dmax] stands for autocorr_noise_id(...)[0] and may raise. *)
Definition confidence_interval_noiseID (ident : list R -> Z -> string -> Z -> Z -> res Z)
    (ppf : R -> R -> R) (x : list R) (dev : R) (af : Z) (dev_type data_type : string) (ci : R)
    : res (R * R) :=
  let dmax := if (String.eqb dev_type "hdev" || String.eqb dev_type "ohdev")%bool then 3%Z else 2%Z in
  alpha_int <- ident x af data_type 0%Z dmax ;;
  let N := Z.of_nat (List.length x) in
  edf <-
    (if String.eqb dev_type "adev" then edf_greenhall alpha_int 2 af N false false
     else if String.eqb dev_type "oadev" then edf_greenhall alpha_int 2 af N true false
     else if (String.eqb dev_type "mdev" || String.eqb dev_type "tdev")%bool then
       edf_greenhall alpha_int 2 af N true true
     else if String.eqb dev_type "hdev" then edf_greenhall alpha_int 3 af N false false
     else if String.eqb dev_type "ohdev" then edf_greenhall alpha_int 3 af N true false
     else Err NotImplementedError) ;;
  Ok (confidence_interval ppf dev edf ci).

(** autocorr_noise_id(x, int(af), ...)[0] (ci.py:109-110), from the model of
    autocorr_noise_id in ModelCi.v; [detrend] as there. *)
Definition noise_ident (detrend : list R -> nat -> res (list R)) (x : list R) (af : Z) (data_type : string)
    (dmin dmax : Z) : res Z :=
  match autocorr_noise_id detrend x (Z.to_nat af) data_type dmin dmax with
  | Some (Ok (alpha_int, _, _, _)) => Ok alpha_int
  | Some (Err e) => Err e
  | None => Err IndexError (* unreachable: CiProofs.acf_loop_spec *)
  end.
