(** * numpy / Python sequence primitives as list functions.

    Arrays are lists.  These definitions model library primitives that the
    code in /repo calls (slicing, broadcasting, np.cumsum, np.unique, ...);
    each comment names the primitive. *)
From Coq Require Import List ZArith Bool Arith.
From Verif Require Import Base Num.
Import ListNotations.

Section Lists.
Context {A : Type}.

(** [everyk k c l]: drop [c] elements, keep one, drop [k], keep one, ... *)
Fixpoint everyk (k c : nat) (l : list A) : list A :=
  match l with
  | [] => []
  | x :: t => match c with
              | O => x :: everyk k k t
              | S c' => everyk k c' t
              end
  end.

(** [l[a::s]] for non-negative [a]; step 0 is Python's
    "ValueError: slice step cannot be zero". *)
Definition pystride (a s : nat) (l : list A) : res (list A) :=
  match s with
  | O => Err ValueError
  | S k => Ok (everyk k 0 (skipn a l))
  end.

(** [l[a:b]] for non-negative [a], [b] (clipped as in Python). *)
Definition pyslice (a b : nat) (l : list A) : list A := firstn (b - a) (skipn a l).

(** [l[a:]] for an integer [a]; negative counts from the end. *)
Definition pyfrom (a : Z) (l : list A) : list A :=
  if (a <? 0)%Z then skipn (Z.to_nat (Z.max 0 (Z.of_nat (length l) + a))) l
  else skipn (Z.to_nat a) l.

(** [l[i]] for an integer [i]; negative counts from the end, IndexError outside. *)
Definition pyget (l : list A) (i : Z) : res A :=
  let j := if (i <? 0)%Z then (Z.of_nat (length l) + i)%Z else i in
  if (j <? 0)%Z then Err IndexError
  else match nth_error l (Z.to_nat j) with Some x => Ok x | None => Err IndexError end.

(** [l[1:-1]]. *)
Definition pyinner (l : list A) : list A := removelast (tl l).

(** Boolean-mask indexing [l[mask]]; numpy raises IndexError when the lengths differ. *)
Fixpoint mask_zip (mask : list bool) (l : list A) : list A :=
  match mask, l with
  | b :: m, x :: t => if b then x :: mask_zip m t else mask_zip m t
  | _, _ => []
  end.
Definition mask_select (mask : list bool) (l : list A) : res (list A) :=
  if Nat.eqb (length mask) (length l) then Ok (mask_zip mask l) else Err IndexError.

End Lists.

(** Elementwise combination of equally long arrays. *)
Fixpoint map2 {A B C} (f : A -> B -> C) (a : list A) (b : list B) : list C :=
  match a, b with
  | x :: s, y :: t => f x y :: map2 f s t
  | _, _ => []
  end.

(** numpy's 1-d broadcasting rule for a binary ufunc: equal lengths, or one
    operand of length 1, otherwise "ValueError: operands could not be broadcast". *)
Definition bmap2 {A B C} (f : A -> B -> C) (a : list A) (b : list B) : res (list C) :=
  if Nat.eqb (length a) (length b) then Ok (map2 f a b)
  else match a, b with
       | [x], _ => Ok (map (fun y => f x y) b)
       | _, [y] => Ok (map (fun x => f x y) a)
       | _, _ => Err ValueError
       end.

(** np.unique on integers: sorted, duplicates removed. *)
Fixpoint uinsert (z : Z) (l : list Z) : list Z :=
  match l with
  | [] => [z]
  | y :: t => if (z <? y)%Z then z :: l
              else if (z =? y)%Z then l
              else y :: uinsert z t
  end.
Definition unique (l : list Z) : list Z := fold_right uinsert [] l.

Section Num.
Context {A : Type} {NA : Num A}.
Local Open Scope num_scope.

Definition ofN (n : nat) : A := ofZ (Z.of_nat n).
Definition nsq (x : A) : A := x * x.

(** np.sum / sum(): left-to-right (numpy sums pairwise; in exact arithmetic equal). *)
Definition asum (l : list A) : A := fold_left nadd l (ofZ 0).

(** np.cumsum. *)
Fixpoint cumsum_from (acc : A) (l : list A) : list A :=
  match l with
  | [] => []
  | x :: t => let s := acc + x in s :: cumsum_from s t
  end.
Definition cumsum (l : list A) : list A :=
  match l with [] => [] | x :: t => x :: cumsum_from x t end.

(** np.diff. *)
Definition diff (l : list A) : list A := map2 (fun b a => b - a) (tl l) l.

(** Binary ufuncs with broadcasting, and array-scalar products. *)
Definition vadd (a b : list A) : res (list A) := bmap2 nadd a b.
Definition vsub (a b : list A) : res (list A) := bmap2 nsub a b.
Definition vmul (a b : list A) : res (list A) := bmap2 nmul a b.
Definition scal (c : A) (a : list A) : list A := map (fun x => c * x) a.

(** np.mean (NaN for the empty array: 0/0). *)
Definition mean (l : list A) : A := asum l / ofN (length l).
(** np.nanmean. *)
Definition nanmean (l : list A) : A := mean (filter (fun x => negb (nisnan x)) l).

(** np.max / np.min of a non-empty array (NaN propagates); ValueError if empty. *)
Definition nmax2 (a b : A) : A :=
  if nisnan a then a else if nisnan b then b else if nltb a b then b else a.
Definition nmin2 (a b : A) : A :=
  if nisnan a then a else if nisnan b then b else if nltb b a then b else a.
Definition npmax (l : list A) : res A :=
  match l with [] => Err ValueError | x :: t => Ok (fold_left nmax2 t x) end.
Definition npmin (l : list A) : res A :=
  match l with [] => Err ValueError | x :: t => Ok (fold_left nmin2 t x) end.
End Num.
