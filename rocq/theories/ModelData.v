(** * allantools/dataset.py.

    The dicts [inp] and [out] are records.  [out] is created with six keys bound
    to None and replaced by compute with five keys ("stat_unc" disappears): the
    four result columns are set together ([o_res]), [o_unc] says whether the key
    "stat_unc" is present.  Input data is a list (None not modelled). *)
From Coq Require Import String List ZArith Bool.
From Verif Require Import Base Num NpList ModelCore ModelDev ModelMisc ModelCi.
Import ListNotations.
Local Open Scope num_scope.
Local Notation len := List.length.

Section Data.
Context {A : Type} {NA : Num A}.

Definition devfun : Type := list A -> A -> string -> taus_arg A -> res (@result A).
(** a module attribute: callable as f(data, rate=, data_type=, taus=), or not *)
Inductive attr := DevFun (f : devfun) | Other.

Record inputs := mkinp { i_data : list A; i_rate : A; i_type : string; i_taus : taus_arg A }.
Record outputs := mkout { o_res : option (@result A); o_unc : bool; o_id : option string }.
Record dataset := mkds { inp : inputs; out : outputs }.

(** dataset.py:52-91 *)
Definition ds_init (i : inputs) : dataset := mkds i (mkout None true None).
(** dataset.py:93-113 *)
Definition set_input (d : dataset) (i : inputs) : dataset := mkds i (out d).

(** function[-3:] *)
Definition last3 (s : string) : string := substring (String.length s - 3) 3 s.
Definition mem_str (s : string) (l : list string) : bool := existsb (String.eqb s) l.
Definition whitelisted : list string := ["theo1"; "mtie"; "tierms"]%string.

(** dataset.py:115-148; [lookup] is getattr(allantools, function) *)
Definition compute (lookup : string -> option attr) (d : dataset) (function : string) : dataset * res (@result A) :=
  match lookup function with
  | None => (d, Err AttributeError)
  | Some a =>
      if negb (String.eqb (last3 function) "dev") && negb (mem_str function whitelisted) then (d, Err RuntimeError)
      else match a with
           | Other => (d, Err TypeError)
           | DevFun f =>
               match f (i_data (inp d)) (i_rate (inp d)) (i_type (inp d)) (i_taus (inp d)) with
               | Err e => (d, Err e)
               | Ok r => (mkds (inp d) (mkout (Some r) false (Some function)), Ok r)
               end
           end
  end.

(** The attributes of allantools/allantools.py.  [other] says which further
    names exist: imports (np, ci, quad, ...), pkginfo, dunder names and the
    functions not listed. *)
Definition module_attr (nlog nexp : A -> A) (ppf : A -> A -> A) (other : string -> bool) (s : string) : option attr :=
  let dev_table : list (string * attr) :=
    [("tdev", DevFun tdev); ("mdev", DevFun mdev); ("adev", DevFun adev); ("pdev", DevFun pdev);
     ("gcodev", Other); ("oadev", DevFun oadev); ("ohdev", DevFun ohdev); ("hdev", DevFun hdev);
     ("totdev", DevFun totdev); ("ttotdev", DevFun ttotdev); ("mtotdev", DevFun mtotdev);
     ("htotdev", DevFun htotdev); ("theo1", DevFun theo1); ("tierms", DevFun tierms); ("mtie", DevFun mtie);
     ("gradev", DevFun (fun x r dt t => gradev nlog nexp ppf x r dt t (ofZ 9 / ofZ 10) "wp"));
     ("psd_piecewise_to_adev", Other)]%string in
  match find (fun p => String.eqb s (fst p)) dev_table with
  | Some p => Some (snd p)
  | None => if other s then Some Other else None
  end.

(** A history of method calls *)
Inductive call := SetInput (i : inputs) | Compute (f : string).
Definition step (lookup : string -> option attr) (d : dataset) (c : call) : dataset :=
  match c with SetInput i => set_input d i | Compute f => fst (compute lookup d f) end.
Definition history (lookup : string -> option attr) (d : dataset) (cs : list call) : dataset :=
  fold_left (step lookup) cs d.

(** ** write_results, dataset.py:150-208.  A line is kept as its fields (the
    text formatting of numbers is not modelled). *)
Inductive line :=
| LVersion
| LType (s : string)
| LRate (r : A)
| LParam (key val : string)
| LFields (id : string)
| LRow (af : Z) (tau : A) (n : Z) (minsigma sigma maxsigma : A).

Definition py_int (x : A) : res Z :=
  match ntrunc x with
  | Some z => Ok z
  | None => Err (if nisnan x then ValueError else OverflowError)
  end.
Definition col {B} (l : list B) (i : nat) : res B := match nth_error l i with Some v => Ok v | None => Err IndexError end.

(** dataset.py:195-208: one row.  With digits < 1 the format specification
    {:.{digits-1}e} is invalid.  A list of two error arrays (gradev) makes
    minsigma an array, which does not support the format. *)
Definition out_row (r : @result A) (digits : Z) (i : nat) : res line :=
  let '(taus, stat, err, ns) := r in
  t <- col taus i ;; t0 <- col taus 0 ;; af <- py_int (t / t0) ;; n <- col ns i ;; s <- col stat i ;;
  match err with
  | EList ls => _ <- col ls i ;; Err (if (digits <? 1)%Z then ValueError else TypeError)
  | EArr es => e <- col es i ;;
      if (digits <? 1)%Z then Err ValueError
      else Ok (LRow af t n (s - e / ofZ 2) s (s + e / ofZ 2))
  end.
(** rows are written one by one; an exception leaves the earlier ones in the file *)
Fixpoint out_rows (r : @result A) (digits : Z) (is : list nat) : list line * option exn :=
  match is with
  | [] => ([], None)
  | i :: t => match out_row r digits i with
              | Err e => ([], Some e)
              | Ok l => let '(ls, e) := out_rows r digits t in (l :: ls, e)
              end
  end.
(** the file left behind, and the exception if any.  With digits < -5 the width
    digits+5 of the field line is negative, an invalid format. *)
Definition write_results (d : dataset) (digits : Z) (header_params : list (string * string)) : list line * option exn :=
  let head := [LVersion; LType (i_type (inp d)); LRate (i_rate (inp d))] ++ map (fun p => LParam (fst p) (snd p)) header_params in
  match o_id (out d) with
  | None => (head, Some TypeError)          (* "min_" + None *)
  | Some id =>
      if (digits + 5 <? 0)%Z then (head, Some ValueError)
      else match o_res (out d) with
           | None => (head ++ [LFields id], Some TypeError)   (* len(None) *)
           | Some r => let '(ls, e) := out_rows r digits (seq 0 (len (fst (fst (fst r))))) in (head ++ [LFields id] ++ ls, e)
           end
  end.
End Data.
