(** * Abstract number interface used by the numerical model.

    Only operations, no laws: a theorem proved for every [Num A] therefore
    holds bit for bit of any arithmetic with these operations, IEEE binary64
    included.  Instances: exact reals ([RNum], file NumR.v), extended reals
    with inf/NaN ([XNum], file NumX.v), binary64 ([FNum], file NumF.v). *)
From Coq Require Import ZArith List.

Class Num (A : Type) := {
  ofZ : Z -> A;              (* exact integer constant / int-to-float promotion *)
  nadd : A -> A -> A;
  nsub : A -> A -> A;
  nmul : A -> A -> A;
  ndiv : A -> A -> A;
  nabs : A -> A;
  nsqrt : A -> A;
  nltb : A -> A -> bool;     (* x < y, false if a NaN is involved *)
  nleb : A -> A -> bool;     (* x <= y *)
  neqb : A -> A -> bool;     (* x == y *)
  nisnan : A -> bool;        (* np.isnan *)
  nrint : A -> option Z;     (* np.round then int; None for inf and NaN *)
  ntrunc : A -> option Z;    (* int(x): truncation toward zero; None for inf, NaN *)
  nlogspace10 : nat -> list A
    (* np.logspace(0, np.log10(N), int(10*np.log10(N)), base=10.0) *)
}.

Declare Scope num_scope.
Delimit Scope num_scope with num.
Infix "+" := nadd : num_scope.
Infix "-" := nsub : num_scope.
Infix "*" := nmul : num_scope.
Infix "/" := ndiv : num_scope.
