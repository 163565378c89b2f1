(** * mtie_phase_fast, tau_reduction and three_cornered_hat_phase. *)
From Coq Require Import String List ZArith Bool Arith.
From Verif Require Import Base Num NpList ModelCore.
Import ListNotations.
Local Open Scope res_scope.

Section Misc.
Context {A : Type} {NA : Num A}.
Local Open Scope num_scope.
Local Notation len := List.length.

(** Python's builtin max(a, b) / min(a, b): the first argument unless the
    second is strictly larger / smaller. *)
Definition pymax2 (a b : A) : A := if nltb a b then b else a.
Definition pymin2 (a b : A) : A := if nltb b a then b else a.

(** allantools.py:1517-1529: one entry [i] of columns kidx of mtie_max and
    mtie_min; [pmax], [pmin] are the columns kidx-1. *)
Definition fast_entry (phase pmax pmin : list A) (k i : nat) : res (A * A) :=
  if Nat.eqb k 1 then
    a <- pyget phase (Z.of_nat i) ;;
    b <- pyget phase (Z.of_nat i + 1) ;;
    Ok (pymax2 a b, pymin2 a b)
  else
    let p := (2 ^ (k - 1))%nat in
    a <- pyget pmax (Z.of_nat i) ;; b <- pyget pmax (Z.of_nat (i + p)) ;;
    c <- pyget pmin (Z.of_nat i) ;; d <- pyget pmin (Z.of_nat (i + p)) ;;
    Ok (pymax2 a b, pymin2 c d).

(** allantools.py:1510-1532: body of the loop over kidx.  A column of the
    matrices has len(phase)-1 rows, initialised with zeros; only the first
    imax are written. *)
Definition fast_step (phase : list A) (st : list A * list A * list (A * Z)) (kidx : nat)
    : res (list A * list A * list (A * Z)) :=
  let '(pmax, pmin, rows) := st in
  let k := (kidx + 1)%nat in
  let imax := (len phase + 1 - 2 ^ k)%nat in
  col <- mapM (fast_entry phase pmax pmin k) (seq 0 imax) ;;
  let tie := map (fun c => fst c - snd c) col in
  dev <- npmax tie ;;
  let pad := repeat (ofZ 0) (len phase - 1 - imax) in
  Ok (map fst col ++ pad, map snd col ++ pad, rows ++ [(dev, Z.of_nat imax)]).

(** allantools.py:1484-1537 mtie_phase_fast.  [rate], [data_type] and [taus]
    are ignored by the code.  k_max = int(floor(log2(len))) is modelled by the
    exact integer logarithm; log2(0) = -inf makes int() raise OverflowError.
    The print calls are not modelled. *)
Definition mtie_phase_fast (phase : list A) (rate : A) (data_type : string) (taus : taus_arg A)
    : res result :=
  if Nat.eqb (len phase) 0 then Err OverflowError
  else
  let k_max := Nat.log2 (len phase) in
  let phase := pyslice 0 (2 ^ k_max) phase in
  _ <- assert_ (Nat.eqb (len phase) (2 ^ k_max)) ;;
  let taus_used := map (fun k => ofZ (Z.of_nat (2 ^ k))) (seq 0 k_max) in
  '(_, _, rows) <- foldM (fast_step phase) (seq 0 k_max) ([], [], []) ;;
  remove_small_ns taus_used (map fst rows) (EArr (repeat (ofZ 0) k_max)) (map snd rows).

(** allantools.py:2232-2305 three_cornered_hat_phase.  [function] is an
    arbitrary deviation function.  zip() stops at the shorter list. *)
Definition three_cornered_hat_phase (ab bc ca : list A) (rate : A) (taus : taus_arg A)
    (function : list A -> A -> string -> taus_arg A -> res result) : res result :=
  '(tau_ab, dev_ab, _, ns_ab) <- function ab rate "phase"%string taus ;;
  '(_, dev_bc, _, _) <- function bc rate "phase"%string taus ;;
  '(_, dev_ca, _, _) <- function ca rate "phase"%string taus ;;
  let var_ab := map nsq dev_ab in
  let var_bc := map nsq dev_bc in
  let var_ca := map nsq dev_ca in
  _ <- assert_ (Nat.eqb (len var_ab) (len var_bc) && Nat.eqb (len var_bc) (len var_ca)) ;;
  s <- vadd var_ab var_ca ;;
  d <- vsub s var_bc ;;
  let var_a := map (fun v => ofZ 1 / ofZ 2 * v) d in
  let var_a := map (fun v => if nltb v (ofZ 0) then ofZ 0 else v) var_a in
  let dev_a := map nsqrt var_a in
  let err_a := map2 (fun d n => d / nsqrt (ofZ n)) dev_a ns_ab in
  Ok (tau_ab, dev_a, EArr err_a, ns_ab).

(** allantools.py:2128-2173 tau_reduction, with np.log10 a parameter.  [ms]
    are integers; np.rint of the real argument; a non-finite logarithm (m <= 0)
    is outside the model (None is compared like a value). *)
Definition tau_reduction (log10 : A -> A) (ms : list Z) (rate : A) (n_per_decade : Z)
    : res (list Z * list A) :=
  let r m := nrint (ofZ n_per_decade * log10 (ofZ m)) in
  let keep := map2 (fun b a => negb (match r b, r a with
                                     | Some u, Some v => (u - v =? 0)%Z
                                     | None, None => true
                                     | _, _ => false end)) (tl ms) (removelast ms) in
  let ms := removelast ms in
  _ <- assert_ (Nat.eqb (len ms) (len keep)) ;;
  ms <- mask_select keep ms ;;
  Ok (ms, map (fun m => ofZ m / rate) ms).
End Misc.
