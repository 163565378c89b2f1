(** * allantools/noise.py: noise generators, over any number structure.

    np.random.randn is an oracle: [rnd : nat -> A] is the stream of normal
    deviates in the order in which they are drawn; nothing is assumed about
    it.  Sizes are non-negative integers (numpy raises for negative ones). *)
From Coq Require Import List ZArith Bool Arith.
From Verif Require Import Base Num NpList.
Import ListNotations.
Local Open Scope res_scope.

Section Noise.
Context {A : Type} {NA : Num A}.
Local Open Scope num_scope.

(** np.random.randn(n): the next [n] deviates after [pos] have been drawn. *)
Definition randn (rnd : nat -> A) (pos n : nat) : list A :=
  map (fun i => rnd (pos + i)%nat) (seq 0 n).

(** math.sqrt: ValueError on negative arguments. *)
Definition msqrt (x : A) : res A :=
  if nltb x (ofZ 0) then Err ValueError else Ok (nsqrt x).

(** noise.py:63-86 white. *)
Definition white (rnd : nat -> A) (num_points : nat) (b0 fs : A) : res (list A) :=
  s <- msqrt (b0 * fs / ofZ 2) ;;
  Ok (scal s (randn rnd 0 num_points)).

(** noise.py:89-112 brown; [pi] is math.pi; 1.0/float(fs) raises for fs=0. *)
Definition brown (pi : A) (rnd : nat -> A) (num_points : nat) (b_minus2 fs : A) : res (list A) :=
  if neqb fs (ofZ 0) then Err ZeroDivisionError else
  w <- white rnd num_points (b_minus2 * (ofZ 4 * pi * pi)) fs ;;
  Ok (scal (ofZ 1 / fs) (cumsum w)).

(** noise.py:115-136 violet; (2*pi)**2 is never zero. *)
Definition violet (pi : A) (rnd : nat -> A) (num_points : nat) (b2 fs : A) : res (list A) :=
  w <- white rnd (num_points + 1) (b2 / nsq (ofZ 2 * pi)) fs ;;
  Ok (scal fs (diff w)).

(** noise.py:168-208 iterpink: the local variables of the generator, and how
    many deviates it has drawn so far. *)
Record pstate := mkP {
  p_values : list A; p_smooth : list A; p_source : list A;
  p_sum : A; p_i : nat; p_pos : nat }.

(** noise.py:184-188: executed by the first next(). *)
Definition pink_init (rnd : nat -> A) (depth : nat) : pstate :=
  let values := randn rnd 0 depth in
  mkP values (randn rnd depth depth) (randn rnd (2 * depth) depth) (asum values) 0 (3 * depth).

(** noise.py:190: yield sumvals + smooth[i]. *)
Definition pink_yield (st : pstate) : res A :=
  s <- pyget (p_smooth st) (Z.of_nat (p_i st)) ;; Ok (p_sum st + s).

(** noise.py:202-203: while not (i >> c) & 1: c += 1.  [fuel] bounds the
    loop; for i >= 1 it ends before [fuel = i] runs out. *)
Fixpoint ctz_loop (fuel i c : nat) : nat :=
  match fuel with
  | O => c
  | S k => if Nat.testbit i c then c else ctz_loop k i (S c)
  end.
Definition ctz (i : nat) : nat := ctz_loop i i 0.

(** a[k] = v on an array: IndexError outside. *)
Fixpoint set_nth (k : nat) (v : A) (l : list A) : res (list A) :=
  match l, k with
  | [], _ => Err IndexError
  | _ :: t, O => Ok (v :: t)
  | x :: t, S k' => t' <- set_nth k' v t ;; Ok (x :: t')
  end.

(** noise.py:192-208: from one yield to the next. *)
Definition pink_resume (rnd : nat -> A) (depth : nat) (st : pstate) : res pstate :=
  let i := S (p_i st) in
  if Nat.eqb i depth then
    Ok (mkP (p_values st) (randn rnd (p_pos st) depth) (randn rnd (p_pos st + depth) depth)
            (p_sum st) 0 (p_pos st + 2 * depth)%nat)
  else
    let c := ctz i in
    s <- pyget (p_source st) (Z.of_nat i) ;;
    v <- pyget (p_values st) (Z.of_nat c) ;;
    values <- set_nth c s (p_values st) ;;
    Ok (mkP values (p_smooth st) (p_source st) (p_sum st + (s - v)) i (p_pos st)).

(** The state at the [n]-th yield (counting from 0). *)
Fixpoint pink_state (rnd : nat -> A) (depth n : nat) : res pstate :=
  match n with
  | O => Ok (pink_init rnd depth)
  | S k => st <- pink_state rnd depth k ;; pink_resume rnd depth st
  end.

(** The [n]-th value obtained from iterpink(depth) by next(). *)
Definition iterpink (rnd : nat -> A) (depth n : nat) : res A :=
  st <- pink_state rnd depth n ;; pink_yield st.

(** noise.py:139-165 pink: num_points calls of next() on one generator. *)
Definition pink (rnd : nat -> A) (num_points depth : nat) : res (list A) :=
  mapM (iterpink rnd depth) (seq 0 num_points).

End Noise.
