(** * Result monad and Python exceptions.

    Python exceptions are values of [exn]; a function that may raise returns
    [res].  Warnings printed to stdout are not modelled. *)
From Coq Require Import List ZArith.
Import ListNotations.

(** Exception classes that the modelled code can raise (directly or through
    the numpy / Python primitives it calls). *)
Inductive exn :=
| RuntimeError | UserWarning | ValueError | IndexError | AssertionError
| TypeError | AttributeError | NotImplementedError | GenericException
| ZeroDivisionError | OverflowError | UnboundLocalError | KeyError.

Inductive res (A : Type) :=
| Ok (a : A)
| Err (e : exn).
Arguments Ok {A} a.
Arguments Err {A} e.

Definition bind {A B} (r : res A) (f : A -> res B) : res B :=
  match r with Ok a => f a | Err e => Err e end.

Declare Scope res_scope.
Delimit Scope res_scope with res.
Notation "x <- e ;; k" := (bind e (fun x => k))
  (at level 61, e at next level, right associativity) : res_scope.
Notation "' p <- e ;; k" := (bind e (fun p => k))
  (at level 61, p pattern, e at next level, right associativity) : res_scope.
Open Scope res_scope.

(** A Python [for] loop whose body may raise, collecting its results. *)
Fixpoint mapM {A B} (f : A -> res B) (l : list A) : res (list B) :=
  match l with
  | [] => Ok []
  | x :: t => y <- f x ;; ys <- mapM f t ;; Ok (y :: ys)
  end.

(** A Python [assert]. *)
Definition assert_ (b : bool) : res unit := if b then Ok tt else Err AssertionError.

(** A Python [for] loop with mutable state whose body may raise. *)
Fixpoint foldM {S A} (f : S -> A -> res S) (l : list A) (s : S) : res S :=
  match l with
  | [] => Ok s
  | x :: t => s' <- f s x ;; foldM f t s'
  end.
