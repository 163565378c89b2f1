(** * allantools/realtime.py.

    An object is the record of its mutable attributes; a method returns the new
    record, or the exception that aborted it.  Averaging factors are natural
    numbers (the documented positive ints).  [So] is only used by
    tdev_realtime.  The divisions by af*tau0 are plain divisions: with af = 0
    or tau0 = 0 Python raises ZeroDivisionError there, which is not modelled.
    A caller who later mutates the afs list they passed in changes the object;
    that aliasing is not modelled either. *)
From Coq Require Import List ZArith Arith Bool.
From Verif Require Import Base Num NpList ModelCore ModelMisc ModelCi.
Import ListNotations.
Local Open Scope num_scope.
Local Notation len := List.length.

Section Realtime.
Context {A : Type} {NA : Num A}.

Record cfg := mkcfg {
  tau0 : A;
  auto_afs : bool;
  af_taus : list A          (* numpy.logspace(0, 1, pts_per_decade+1)[:-1] *)
}.
Record rt := mkrt {
  rx : list A; rafs : list nat; rS : list A; rSo : list A; rdev : list A;
  af_idx : nat; af_decade : nat
}.

(** l[i] = v *)
Fixpoint set_nth (i : nat) (v : A) (l : list A) : res (list A) :=
  match l, i with
  | [], _ => Err IndexError
  | _ :: t, O => Ok (v :: t)
  | a :: t, S i => t' <- set_nth i v t ;; Ok (a :: t')
  end.
Definition get_nth (l : list A) (i : nat) : res A :=
  match nth_error l i with Some v => Ok v | None => Err IndexError end.

(** realtime.py:38-50, 103-107, 138-142, 176-181: the constructors. *)
Definition rt_init (c : cfg) (afs : list nat) : rt :=
  let z := repeat (ofZ 0) (len afs) in
  mkrt [] (if auto_afs c then [1%nat] else afs) z z z 0 0.

(** realtime.py:52-76 update_af.  All three add_af methods append a zero to the
    accumulators. *)
Definition next_slot (c : cfg) (s : rt) : nat * nat :=
  let next_idx := (af_idx s + 1)%nat in
  if (next_idx =? len (af_taus c))%nat then (0%nat, (af_decade s + 1)%nat) else (next_idx, af_decade s).
Definition sched_af (c : cfg) (idx dec : nat) : res Z :=
  t <- get_nth (af_taus c) idx ;; int_round (ofZ (10 ^ Z.of_nat dec) * t).
Definition update_af (c : cfg) (s : rt) : res rt :=
  let '(next_idx, next_decade) := next_slot c s in
  next_af <- sched_af c next_idx next_decade ;;
  if (2 * next_af + 1 <=? Z.of_nat (len (rx s)))%Z then
    Ok (mkrt (rx s) (rafs s ++ [Z.to_nat next_af]) (rS s ++ [ofZ 0]) (rSo s ++ [ofZ 0]) (rdev s ++ [ofZ 0]) next_idx next_decade)
  else Ok s.

(** the three add_phase methods share this shape (realtime.py:109-116, 147-154,
    183-193); [upd] is the guarded body of the loop *)
Definition add_phase (upd : cfg -> rt -> nat -> nat -> res rt) (c : cfg) (s : rt) (xnew : A) : res rt :=
  let s := mkrt (rx s ++ [xnew]) (rafs s) (rS s) (rSo s) (rdev s) (af_idx s) (af_decade s) in
  s <- foldM (fun s idx => upd c s idx (nth idx (rafs s) 0%nat)) (seq 0 (len (rafs s))) s ;;
  if auto_afs c then update_af c s else Ok s.

(** x[i] for the last point i = len(x)-1 shifted back by k (k <= i by the guards) *)
Definition back (s : rt) (k : nat) : A := nth (len (rx s) - 1 - k) (rx s) (ofZ 0).

(** realtime.py:112-113, 118-126 (oadev_realtime.update_S). *)
Definition oadev_upd (c : cfg) (s : rt) (idx af : nat) : res rt :=
  if (2 * af + 1 <=? len (rx s))%nat then
    let i := (len (rx s) - 1)%nat in
    let S_new := nsq (back s 0 - ofZ 2 * back s af + back s (2 * af)) in
    old <- get_nth (rS s) idx ;;
    S' <- set_nth idx (old + S_new) (rS s) ;;
    dev' <- set_nth idx (nsqrt ((ofZ 1 / (ofZ 2 * nsq (ofN af * tau0 c) * ofN (i + 1 - 2 * af))) * (old + S_new))) (rdev s) ;;
    Ok (mkrt (rx s) (rafs s) S' (rSo s) dev' (af_idx s) (af_decade s))
  else Ok s.
Definition oadev_add_phase := add_phase oadev_upd.

(** realtime.py:150-151, 156-167 (ohdev_realtime.update_S). *)
Definition ohdev_upd (c : cfg) (s : rt) (idx af : nat) : res rt :=
  if (3 * af <? len (rx s))%nat then
    let i := (len (rx s) - 1)%nat in
    let S_new := nsq (back s 0 - ofZ 3 * back s af + ofZ 3 * back s (2 * af) - back s (3 * af)) in
    old <- get_nth (rS s) idx ;;
    S' <- set_nth idx (old + S_new) (rS s) ;;
    dev' <- set_nth idx (nsqrt ((ofZ 1 / (ofZ 6 * nsq (ofN af * tau0 c) * ofN (i + 1 - 3 * af))) * (old + S_new))) (rdev s) ;;
    Ok (mkrt (rx s) (rafs s) S' (rSo s) dev' (af_idx s) (af_decade s))
  else Ok s.
Definition ohdev_add_phase := add_phase ohdev_upd.

(** realtime.py:211-216 tdev_realtime.update_dev: the value stored. *)
Definition tdev_value (num_pts af : nat) (So : A) : A :=
  nsqrt (ofZ 1 / ofZ 6 * (ofZ 1 / (ofZ (Z.of_nat num_pts - 3 * Z.of_nat af + 1))) * (ofZ 1 / nsq (ofN af)) * So).

(** realtime.py:187-190, 199-209 (update_S3n), 218-233 (update_S). *)
Definition tdev_upd (c : cfg) (s : rt) (idx af : nat) : res rt :=
  let n := len (rx s) in
  if (3 * af + 1 <=? n)%nat then
    let S_new := ofZ (-1) * back s (3 * af) + ofZ 3 * back s (2 * af) - ofZ 3 * back s af + back s 0 in
    old <- get_nth (rS s) idx ;;
    let Sv := old + S_new in
    S' <- set_nth idx Sv (rS s) ;;
    oldo <- get_nth (rSo s) idx ;;
    let Sov := oldo + nsq Sv in
    So' <- set_nth idx Sov (rSo s) ;;
    dev' <- set_nth idx (tdev_value n af Sov) (rdev s) ;;
    Ok (mkrt (rx s) (rafs s) S' So' dev' (af_idx s) (af_decade s))
  else if (2 * af + 1 <=? n)%nat then
    old <- get_nth (rS s) idx ;;
    let Sv := old + back s 0 - ofZ 2 * back s af + back s (2 * af) in
    S' <- set_nth idx Sv (rS s) ;;
    if (n =? 3 * af)%nat then
      let Sov := nsq Sv in
      So' <- set_nth idx Sov (rSo s) ;;
      dev' <- set_nth idx (tdev_value n af Sov) (rdev s) ;;
      Ok (mkrt (rx s) (rafs s) S' So' dev' (af_idx s) (af_decade s))
    else Ok (mkrt (rx s) (rafs s) S' (rSo s) (rdev s) (af_idx s) (af_decade s))
  else Ok s.
Definition tdev_add_phase := add_phase tdev_upd.

(** realtime.py:78-82 add_frequency. *)
Definition add_frequency (ap : cfg -> rt -> A -> res rt) (c : cfg) (s : rt) (f : A) : res rt :=
  s <- match rx s with [] => ap c s (ofZ 0) | _ => Ok s end ;;
  ap c s (back s 0 + f).

(** realtime.py:84-86 taus, 91-93 devs, 235-240 tdev_realtime.mdev. *)
Definition rt_taus (c : cfg) (s : rt) : list A := map (fun af => tau0 c * ofN af) (rafs s).
Definition rt_devs (s : rt) : list A := rdev s.
Definition rt_mdev (c : cfg) (s : rt) : res (list A) :=
  foldM (fun l idx =>
      v <- get_nth l idx ;;
      set_nth idx (v * nsqrt (ofZ 3) / (ofN (nth idx (rafs s) 0%nat) * tau0 c)) l)
    (seq 0 (len (rafs s))) (rdev s).

(** a whole stream *)
Definition run {B} (ap : cfg -> rt -> B -> res rt) (c : cfg) (s : rt) (xs : list B) : res rt :=
  foldM (ap c) xs s.
End Realtime.
