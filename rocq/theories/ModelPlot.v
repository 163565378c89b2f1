(** * allantools/plot.py.

    matplotlib is not modelled: its axes are the list of the calls they have
    accepted, and whether it rejects a call is an oracle.  pyplot's own state is
    modelled as far as plot.py depends on it: the figures made so far, which of
    them is current, the files written and the figures put on screen. *)
From Coq Require Import String List ZArith Bool Arith.
From Verif Require Import Base Num NpList ModelCore ModelDev ModelMisc ModelCi ModelData.
Import ListNotations.
Local Notation len := List.length.

Section Plot.
Context {A : Type} {NA : Num A}.

(** keyword arguments; their values are passed on unread *)
Definition kwargs : Type := list (string * string).
(** the methods of self.ax that are called, plot.py:62-63 and 85-104 *)
Inductive axcall :=
| SetXscale (s : string) | SetYscale (s : string)
| AxPlot (x y : option (list A)) (kw : kwargs)
| AxErrorbar (x y : option (list A)) (yerr : option (@errs A)) (kw : kwargs)
| SetXlabel (s : string) | SetYlabel (s : option string)
| AxGrid (on : bool) (kw : kwargs).
Definition axes : Type := list axcall.

Record pyplot := mkplt { figs : list axes; current : nat; files : list (string * axes); screens : list (list axes) }.

(** [rejects ax c]: the exception the method call [c] raises on axes [ax] *)
Variable rejects : axes -> axcall -> option exn.

(** a sequence of method calls; an exception leaves the earlier ones done *)
Fixpoint run (ax : axes) (cs : list axcall) : axes * option exn :=
  match cs with
  | [] => (ax, None)
  | c :: t => match rejects ax c with Some e => (ax, Some e) | None => run (ax ++ [c]) t end
  end.
Fixpoint update (l : list axes) (k : nat) (a : axes) : list axes :=
  match l, k with
  | [], _ => []
  | _ :: t, O => a :: t
  | b :: t, S k => b :: update t k a
  end.
(** [cs] on the axes of figure [k] *)
Definition on_axes (w : pyplot) (k : nat) (cs : list axcall) : pyplot * option exn :=
  let '(ax, e) := run (nth k (figs w) []) cs in
  (mkplt (update (figs w) k ax) (current w) (files w) (screens w), e).

(** plot.py:49-63; [installed] says whether matplotlib can be imported.
    plt.subplots() makes a new figure and makes it the current one.  The object
    is the number of its figure. *)
Definition plot_new (installed : bool) (w : pyplot) : pyplot * res nat :=
  if negb installed then (w, Err RuntimeError)
  else let k := len (figs w) in
       let w1 := mkplt (figs w ++ [[]]) k (files w) (screens w) in
       match on_axes w1 k [SetXscale "log"; SetYscale "log"] with
       | (w2, None) => (w2, Ok k)
       | (w2, Some e) => (w2, Err e)
       end.

(** the columns of atDataset.out (None before a successful compute) *)
Definition out_taus (d : @dataset A) : option (list A) := option_map (fun r => fst (fst (fst r))) (o_res (out d)).
Definition out_stat (d : @dataset A) : option (list A) := option_map (fun r => snd (fst (fst r))) (o_res (out d)).
Definition out_err (d : @dataset A) : option (@errs A) := option_map (fun r => snd (fst r)) (o_res (out d)).

(** plot.py:65-104.  errorbar has parameters x, y and yerr: giving one of them
    again in **kwargs is a TypeError. *)
Definition plot_plot (w : pyplot) (k : nat) (d : @dataset A) (errorbars grid : bool) (kw : kwargs) : pyplot * option exn :=
  if errorbars && existsb (fun p => mem_str (fst p) ["x"; "y"; "yerr"]%string) kw then (w, Some TypeError)
  else on_axes w k
    ([if errorbars then AxErrorbar (out_taus d) (out_stat d) (out_err d) kw else AxPlot (out_taus d) (out_stat d) kw;
      SetXlabel "Tau"; SetYlabel (o_id (out d))] ++
     (if grid then [AxGrid true [("which", "minor"); ("ls", "-"); ("color", "0.65")]%string;
                    AxGrid true [("which", "major"); ("ls", "-"); ("color", "0.25")]%string]
      else [AxGrid false []])).

(** plot.py:106-112: plt.show() shows every figure *)
Definition plot_show (w : pyplot) : pyplot := mkplt (figs w) (current w) (files w) (screens w ++ [figs w]).
(** plot.py:114-117: plt.savefig(f) writes the current figure (self is not used) *)
Definition plot_save (w : pyplot) (f : string) : pyplot :=
  mkplt (figs w) (current w) (files w ++ [(f, nth (current w) (figs w) [])]) (screens w).

(** A session: method calls on Plot objects (given by the number of the figure
    they hold), and uses of pyplot from elsewhere that make figure [k] current *)
Inductive pcall :=
| PNew
| PPlot (k : nat) (d : @dataset A) (errorbars grid : bool) (kw : kwargs)
| PShow (k : nat)
| PSave (k : nat) (f : string)
| PSelect (k : nat).
Definition pstep (w : pyplot) (c : pcall) : pyplot :=
  match c with
  | PNew => fst (plot_new true w)
  | PPlot k d eb g kw => fst (plot_plot w k d eb g kw)
  | PShow _ => plot_show w
  | PSave _ f => plot_save w f
  | PSelect k => mkplt (figs w) k (files w) (screens w)
  end.
Definition session (cs : list pcall) : pyplot := fold_left pstep cs (mkplt [] 0 [] []).
End Plot.
