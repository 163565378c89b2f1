(** * Helper functions of allantools/allantools.py (lines 1985-2403). *)
From Coq Require Import String List ZArith Bool Arith.
From Verif Require Import Base Num NpList.
Import ListNotations.
Local Open Scope res_scope.

(** The [taus] argument: None, a Python list, a numpy array, or a keyword
    string.  (Scalars and other objects are not modelled.) *)
Inductive taus_arg (A : Type) :=
| TNone
| TList (l : list A)
| TArr (l : list A)
| TStr (s : string).
Arguments TNone {A}.
Arguments TList {A} l.
Arguments TArr {A} l.
Arguments TStr {A} s.

(** The [deverrs] argument/result of remove_small_ns: one array, or a Python
    list of arrays (gradev). *)
Inductive errs (A : Type) :=
| EArr (l : list A)
| EList (ls : list (list A)).
Arguments EArr {A} l.
Arguments EList {A} ls.

(** floor(log10 n) for n >= 1, by repeated division; fuel [n] suffices. *)
Fixpoint ilog10_fuel (fuel : nat) (n : Z) : nat :=
  match fuel with
  | O => O
  | S f => if (n <? 10)%Z then O else S (ilog10_fuel f (n / 10)%Z)
  end.
Definition ilog10 (n : nat) : nat := ilog10_fuel n (Z.of_nat n).

Section Core.
Context {A : Type} {NA : Num A}.
Local Open Scope num_scope.

(** Result tuple (taus, devs, deverrs, ns) of every deviation function.  The
    [ns] column is a float array in Python holding integers; here integers. *)
Definition result : Type := (list A * list A * errs A * list Z)%type.

(** allantools.py:2216-2229 trim_data, first loop: index of first non-NaN
    element (x[first] raises IndexError past the end). *)
Fixpoint first_valid (l : list A) : res nat :=
  match l with
  | [] => Err IndexError
  | x :: t => if nisnan x then k <- first_valid t ;; Ok (S k) else Ok O
  end.

(** trim_data, second loop: [last] starts at len(x) and decreases while
    x[last-1] is NaN.  Scanning the reversed list is the same walk.  (Python's
    x[-1] wrap-around at last=0 is unreachable once the first loop succeeded.) *)
Definition last_valid (l : list A) : res nat :=
  k <- first_valid (rev l) ;; Ok (length l - k)%nat.

(** allantools.py:2216-2229 trim_data. *)
Definition trim_data (x : list A) : res (list A) :=
  first <- first_valid x ;;
  last <- last_valid x ;;
  Ok (pyslice first last x).

(** allantools.py:2313-2341 frequency2phase.  [1.0/float(rate)] raises
    ZeroDivisionError for rate 0. *)
Definition frequency2phase (freqdata : list A) (rate : A) : res (list A) :=
  if neqb rate (ofZ 0) then Err ZeroDivisionError else
  let dt := ofZ 1 / rate in
  freqdata <- trim_data freqdata ;;
  let mu := nanmean freqdata in
  let freqdata := map (fun f => f - mu) freqdata in
  let phasedata := map (fun c => c * dt) (cumsum freqdata) in
  Ok (ofZ 0 :: phasedata).

(** allantools.py:2363-2379 phase2frequency. *)
Definition phase2frequency (phase : list A) (rate : A) : list A :=
  scal rate (diff phase).

(** allantools.py:2382-2403 frequency2fractional.  The sentinel test is
    [mean_frequency == -1].  With mean_frequency omitted or -1, mu=np.mean. *)
Definition frequency2fractional (frequency : list A) (mean_frequency : A) : list A :=
  let mu := if neqb mean_frequency (ofZ (-1)) then mean frequency else mean_frequency in
  map (fun x => (x - mu) / mu) frequency.

(** allantools.py:2344-2360 phase2radians; [pi] is np.pi. *)
Definition phase2radians (pi : A) (phasedata : list A) (v0 : A) : list A :=
  map (fun xx => ofZ 2 * pi * v0 * xx) phasedata.

(** allantools.py:1985-1993 input_to_phase. *)
Definition input_to_phase (data : list A) (rate : A) (data_type : string) : res (list A) :=
  if String.eqb data_type "phase" then Ok data
  else if String.eqb data_type "freq" then frequency2phase data rate
  else Err GenericException.

(** allantools.py:2049-2076: expansion of the taus argument into an array.
    [n] is len(data).  log2/log10 of 0 is -inf and int(-inf) raises
    OverflowError; an unknown keyword reaches [np.array("...") * rate], a
    TypeError.  pow(10.0,k), 2.0**k and linspace are taken as exact. *)
Definition expand_taus (n : nat) (rate : A) (taus : taus_arg A) : res (list A) :=
  let octave :=
    match n with
    | O => Err OverflowError
    | _ => Ok (map (fun k => (ofZ 1 / rate) * ofZ (2 ^ Z.of_nat k))
                   (seq 0 (S (Nat.log2 n))))
    end in
  match taus with
  | TNone => octave
  | TList [] => octave
  | TList l => Ok l
  | TArr l => Ok l
  | TStr s =>
      if String.eqb s "all" then
        Ok (map (fun k => (ofZ 1 / rate) * ofN (S k)) (seq 0 n))
      else if String.eqb s "octave" then octave
      else if String.eqb s "log10" then
        match n with
        | O => Err OverflowError
        | _ => Ok (map (fun t => (ofZ 1 / rate) * t) (nlogspace10 n))
        end
      else if String.eqb s "decade" then
        match n with
        | O => Err OverflowError
        | _ => Ok (flat_map (fun k =>
                     [ ofZ 1 * (ofZ 1 / rate) * ofZ (10 ^ Z.of_nat k);
                       ofZ 2 * (ofZ 1 / rate) * ofZ (10 ^ Z.of_nat k);
                       ofZ 4 * (ofZ 1 / rate) * ofZ (10 ^ Z.of_nat k) ])
                     (seq 0 (S (ilog10 n))))
        end
      else Err TypeError
  end.

(** allantools.py:2102-2109: rounding, validity mask and np.unique.  inf/NaN
    entries fail one of the comparisons and are dropped ([nrint] = None). *)
Definition select_m (n : nat) (rate maximum_m : A) (taus : list A) : list Z :=
  unique
    (flat_map (fun t =>
       match nrint (t * rate) with
       | Some m => if (m <? Z.of_nat n)%Z && (0 <? m)%Z && nleb (ofZ m) maximum_m
                   then [m] else []
       | None => []
       end) taus).

(** allantools.py:1996-2125 tau_generator; returns (data, m, taus2).
    The default maximum_m=-1 is the caller's [ofZ (-1)]. *)
Definition tau_generator (data : list A) (rate : A) (taus : taus_arg A)
    (even : bool) (maximum_m : A) : res (list A * list Z * list A) :=
  if neqb rate (ofZ 0) then Err RuntimeError else
  let n := List.length data in
  ts <- expand_taus n rate taus ;;
  let maximum_m := if neqb maximum_m (ofZ (-1)) then ofN n else maximum_m in
  let m := select_m n rate maximum_m ts in
  let m := if even then filter Z.even m else m in
  Ok (data, m, map (fun mj => ofZ mj / rate) m).

(** allantools.py:2176-2213 remove_small_ns. *)
Definition remove_small_ns (taus devs : list A) (deverrs : errs A) (ns : list Z)
    : res result :=
  let big := map (fun n => (1 <? n)%Z) ns in
  o_taus <- mask_select big taus ;;
  o_devs <- mask_select big devs ;;
  o_ns <- mask_select big ns ;;
  o_errs <- match deverrs with
            | EArr l => o <- mask_select big l ;; Ok (EArr o)
            | EList ls =>
                match ls with
                | [] => Err IndexError
                | [_] => Err IndexError
                | [a; b] => oa <- mask_select big a ;; ob <- mask_select big b ;;
                            Ok (EList [oa; ob])
                | _ => Err AssertionError
                end
            end ;;
  match o_devs with
  | [] => Err UserWarning
  | _ => Ok (o_taus, o_devs, o_errs, o_ns)
  end.

(** The loop [for idx, mj in enumerate(m): (dev[idx], err[idx], n[idx]) = calc(mj)]
    followed by remove_small_ns, shared by all deviation functions.
    [int(mj)] is [Z.to_nat] (mj >= 1 for every m from tau_generator). *)
Definition run_rows (calc : nat -> res (A * A * Z)) (m : list Z) (taus_used : list A)
    : res result :=
  rows <- mapM (fun mj => calc (Z.to_nat mj)) m ;;
  remove_small_ns taus_used
    (map (fun r => fst (fst r)) rows)
    (EArr (map (fun r => snd (fst r)) rows))
    (map snd rows).
End Core.
