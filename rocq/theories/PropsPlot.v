(** * The Plot class: what ends up on the axes, in the file, and what the error bars mean (C91). *)
From Coq Require Import String Reals List ZArith Lra Lia Arith Bool.
From Verif Require Import Base Num NpList NumR ModelCore ModelDev ModelMisc ModelCi ModelData ModelPlot ListFacts Spec NumX RSum TauProofs DevProofs TotProofs GenericProofs Closed Laws Laws2 Laws3 Laws4 GradProofs PropsGrad.
Import ListNotations.
Local Notation len := List.length.

(** ** Independent description: reading a picture off the axes *)
Section Views.
Context {A : Type}.
(** the curves: abscissae, ordinates, error bars if any, style *)
Definition curve : Type := option (list A) * option (list A) * option (option (@errs A)) * kwargs.
Definition curve_of (c : @axcall A) : list curve :=
  match c with AxPlot x y kw => [(x, y, None, kw)] | AxErrorbar x y e kw => [(x, y, Some e, kw)] | _ => [] end.
Definition curves (ax : @axes A) : list curve := flat_map curve_of ax.
Definition last_of {B} (f : @axcall A -> option B) (ax : @axes A) : option B := fold_left (fun o c => match f c with Some b => Some b | None => o end) ax None.
Definition xlabel := last_of (fun c => match c with SetXlabel s => Some s | _ => None end).
Definition ylabel := last_of (fun c => match c with SetYlabel s => Some s | _ => None end).
Definition gridded := last_of (fun c => match c with AxGrid b _ => Some b | _ => None end).
Definition xscale := last_of (fun c => match c with SetXscale s => Some s | _ => None end).
Definition yscale := last_of (fun c => match c with SetYscale s => Some s | _ => None end).

(** ... and off the session: the plot() calls made on object [k] that python lets through *)
Record draw := mkdraw { w_data : @dataset A; w_bars : bool; w_grid : bool; w_kw : kwargs }.
Definition clash (eb : bool) (kw : kwargs) : bool := eb && existsb (fun p => mem_str (fst p) ["x"; "y"; "yerr"]%string) kw.
Definition draw_of (k : nat) (c : @pcall A) : list draw :=
  match c with PPlot j d eb g kw => if (j =? k)%nat && negb (clash eb kw) then [mkdraw d eb g kw] else [] | _ => [] end.
Definition draws (k : nat) (cs : list (@pcall A)) : list draw := flat_map (draw_of k) cs.
(** the curve a draw stands for: the stored columns, untouched *)
Definition expected (w : draw) : curve :=
  let o := o_res (out (w_data w)) in
  (option_map (fun '(t, s, e, n) => t) o, option_map (fun '(t, s, e, n) => s) o,
   (if w_bars w then Some (option_map (fun '(t, s, e, n) => e) o) else None), w_kw w).
(** what matplotlib makes of curves: [bad] gives the exception for those it rejects (columns of different lengths, an unknown
    keyword, None); scales, labels and grids are never rejected *)
Definition curve_call (w : draw) : @axcall A :=
  let c := fst (fst (fst (expected w))) in let s := snd (fst (fst (expected w))) in
  match snd (fst (expected w)) with Some e => AxErrorbar c s e (w_kw w) | None => AxPlot c s (w_kw w) end.
Definition obeys (rejects : @axes A -> @axcall A -> option exn) (bad : @axcall A -> option exn) : Prop :=
  (forall ax c, rejects ax c = bad c) /\ (forall c, curve_of c = [] -> bad c = None).
Definition fine (bad : @axcall A -> option exn) (w : draw) : bool := match bad (curve_call w) with None => true | Some _ => false end.
(** the plot() calls on object [k] that raise nothing *)
Definition shown (bad : @axcall A -> option exn) (k : nat) (cs : list (@pcall A)) : list draw := filter (fine bad) (draws k cs).
Definition is_new (c : @pcall A) : bool := match c with PNew => true | _ => false end.
Definition created (cs : list (@pcall A)) : nat := len (filter is_new cs).
(** the figure made or selected last *)
Fixpoint cur_from (n cur : nat) (cs : list (@pcall A)) : nat :=
  match cs with [] => cur | PNew :: t => cur_from (S n) n t | PSelect k :: t => cur_from n k t | _ :: t => cur_from n cur t end.
Definition latest (cs : list (@pcall A)) : nat := cur_from 0 0 cs.
(** methods are called on objects that exist *)
Fixpoint legal_from (n : nat) (cs : list (@pcall A)) : Prop :=
  match cs with
  | [] => True
  | PNew :: t => legal_from (S n) t
  | PPlot k _ _ _ _ :: t | PShow k :: t | PSave k _ :: t | PSelect k :: t => (k < n)%nat /\ legal_from n t
  end.
Definition legal (cs : list (@pcall A)) : Prop := legal_from 0 cs.
End Views.

Section Proofs.
Context {A : Type} {NA : Num A} (rejects : @axes A -> @axcall A -> option exn) (bad : @axcall A -> option exn).
Definition calls_of (w : @draw A) : list axcall :=
  [if w_bars w then AxErrorbar (out_taus (w_data w)) (out_stat (w_data w)) (out_err (w_data w)) (w_kw w)
   else AxPlot (out_taus (w_data w)) (out_stat (w_data w)) (w_kw w);
   SetXlabel "Tau"; SetYlabel (o_id (out (w_data w)))] ++
  (if w_grid w then [AxGrid true [("which", "minor"); ("ls", "-"); ("color", "0.65")]%string;
                     AxGrid true [("which", "major"); ("ls", "-"); ("color", "0.25")]%string]
   else [AxGrid false []]).

Lemma update_len l k (a : @axes A) : len (update l k a) = len l.
Proof. revert k. induction l as [|b l IH]; intros [|k]; cbn; auto. Qed.
Lemma update_nth l k j (a : @axes A) : (j < len l)%nat -> nth j (update l k a) [] = if (j =? k)%nat then a else nth j l [].
Proof.
  revert k j. induction l as [|b l IH]; intros [|k] [|j] H; cbn in *; try lia; auto. apply IH. lia.
Qed.
Lemma run_all ax cs : (forall ax c, In c cs -> rejects ax c = None) -> run rejects ax cs = (ax ++ cs, None).
Proof using Type.
  revert ax. induction cs as [|c cs IH]; intros ax H; cbn; [now rewrite app_nil_r|].
  rewrite H by (now left). rewrite IH by (intros; apply H; now right). rewrite <- app_assoc. reflexivity.
Qed.
Lemma calls_head (w : @draw A) : exists t, calls_of w = curve_call w :: t /\ Forall (fun c => curve_of c = []) t.
Proof using Type.
  destruct w as [d eb g kw]. unfold calls_of, curve_call, expected, out_taus, out_stat, out_err. cbn [w_data w_bars w_grid w_kw].
  destruct (o_res (out d)) as [[[[t s] e] n]|], eb, g; eexists; (split; [reflexivity|repeat constructor]).
Qed.
(** a plot() call that passes python: all of it, or nothing *)
Lemma on_axes_draw w k (x : @draw A) : obeys rejects bad -> figs (fst (on_axes rejects w k (calls_of x))) =
  update (figs w) k (nth k (figs w) [] ++ (if fine bad x then calls_of x else [])).
Proof using Type.
  intros [H1 H2]. destruct (calls_head x) as (t & E & Ht). unfold on_axes, fine. rewrite E. cbn [run]. rewrite H1.
  destruct (bad (curve_call x)) as [e|]; [cbn; now rewrite app_nil_r|].
  rewrite run_all; [cbn; now rewrite <- app_assoc|]. intros ax c Hc. rewrite H1. apply H2. rewrite Forall_forall in Ht. now apply Ht.
Qed.
Lemma on_axes_scales w k : obeys rejects bad ->
  on_axes rejects w k [SetXscale "log"; SetYscale "log"] = (mkplt (update (figs w) k (nth k (figs w) [] ++ [SetXscale "log"; SetYscale "log"])) (current w) (files w) (screens w), None).
Proof using Type.
  intros [H1 H2]. unfold on_axes. rewrite run_all; [reflexivity|]. intros ax c Hc. rewrite H1. apply H2. destruct Hc as [<-|[<-|[]]]; reflexivity.
Qed.
Lemma on_axes_rest w k cs : current (fst (on_axes rejects w k cs)) = current w /\ files (fst (on_axes rejects w k cs)) = files w.
Proof using Type. unfold on_axes. destruct (run _ _ _). split; reflexivity. Qed.
Lemma created_app (cs : list (@pcall A)) (c : @pcall A) : created (cs ++ [c]) = (created cs + if is_new c then 1 else 0)%nat.
Proof. unfold created. rewrite filter_app, app_length. cbn. now destruct (is_new c). Qed.
Lemma latest_app (cs : list (@pcall A)) (c : @pcall A) : latest (cs ++ [c]) = match c with PNew => created cs | PSelect k => k | _ => @latest A cs end.
Proof.
  unfold latest, created.
  enough (forall n cur, cur_from n cur (cs ++ [c]) = match c with PNew => (n + len (filter is_new cs))%nat | PSelect k => k | _ => cur_from n cur cs end) as E
    by (rewrite E; destruct c; reflexivity).
  induction cs as [|b cs IH]; intros n cur; [destruct c; cbn; auto; lia|]. destruct b; cbn; rewrite IH; destruct c; cbn; auto; lia.
Qed.
Lemma legal_app (cs : list (@pcall A)) (c : @pcall A) : legal (cs ++ [c]) -> legal cs /\ match c with PNew => True | PPlot k _ _ _ _ | PShow k | PSave k _ | PSelect k => (k < @created A cs)%nat end.
Proof.
  unfold legal, created.
  enough (forall n, legal_from n (cs ++ [c]) -> legal_from n cs /\ match c with PNew => True | PPlot k _ _ _ _ | PShow k | PSave k _ | PSelect k => (k < n + len (filter is_new cs))%nat end) as E by (apply E).
  induction cs as [|b cs IH]; intros n H.
  - cbn in *. rewrite Nat.add_0_r. destruct c; tauto.
  - destruct b; cbn in *; try (destruct H as [H1 H]; apply IH in H; tauto).
    apply IH in H. destruct H as [H1 H2]. split; [exact H1|]. destruct c; auto; lia.
Qed.
Lemma draws_app k (cs : list (@pcall A)) (c : @pcall A) : draws k (cs ++ [c]) = draws k cs ++ @draw_of A k c.
Proof. unfold draws. rewrite flat_map_app. cbn. now rewrite app_nil_r. Qed.
Lemma draws_new k (cs : list (@pcall A)) : (@created A cs <= k)%nat -> legal cs -> draws k cs = [].
Proof.
  induction cs as [|c cs IH] using rev_ind; intros H L; [reflexivity|]. apply legal_app in L. destruct L as [L Lc].
  rewrite created_app in H. rewrite draws_app, IH by (auto; lia). destruct c; cbn; auto.
  destruct (Nat.eqb_spec k0 k); [subst; cbn in H; lia|reflexivity].
Qed.

Lemma shown_app k (cs : list (@pcall A)) (c : @pcall A) : shown bad k (cs ++ [c]) = shown bad k cs ++ filter (fine bad) (draw_of k c).
Proof using Type. unfold shown. now rewrite draws_app, filter_app. Qed.
Lemma session_inv (cs : list (@pcall A)) : obeys rejects bad -> legal cs ->
  let w := session rejects cs in len (figs w) = created cs /\ current w = latest cs /\
  forall k, (k < created cs)%nat -> nth k (figs w) [] = [SetXscale "log"; SetYscale "log"] ++ flat_map calls_of (shown bad k cs).
Proof using Type.
  intros Hn. cbv zeta. induction cs as [|c cs IH] using rev_ind; intros L.
  - cbn. repeat split; auto. intros; lia.
  - pose proof (legal_app _ _ L) as [Lc Hc]. specialize (IH Lc). destruct IH as (I1 & I2 & I3).
    unfold session in *. rewrite fold_left_app. cbn [fold_left]. set (w := fold_left (pstep rejects) cs (mkplt [] 0 [] [])) in *.
    rewrite created_app, latest_app. destruct c as [|k d eb g kw|k|k f|k]; cbn [is_new pstep] in *.
    + unfold plot_new. cbn [negb]. rewrite on_axes_scales by exact Hn. cbn [fst figs current files screens].
      rewrite update_len, app_length. cbn [len]. repeat split; [lia|exact I1|]. intros j Hj.
      rewrite update_nth by (rewrite app_length; cbn; lia). destruct (Nat.eqb_spec j (len (figs w))) as [->|N].
      * rewrite I1, shown_app. unfold shown. rewrite draws_new by auto. cbn. rewrite app_nth2 by lia. rewrite I1, Nat.sub_diag. reflexivity.
      * rewrite app_nth1 by lia. rewrite I3 by lia. rewrite shown_app. cbn. now rewrite app_nil_r.
    + unfold plot_plot. fold (clash eb kw). destruct (clash eb kw) eqn:E.
      * cbn [fst]. rewrite Nat.add_0_r. repeat split; auto. intros j Hj. rewrite I3 by exact Hj. rewrite shown_app. cbn. rewrite E.
        rewrite andb_false_r. now rewrite app_nil_r.
      * match goal with |- context [on_axes rejects w k ?l] => change l with (calls_of (mkdraw d eb g kw)) end.
        rewrite on_axes_draw by exact Hn. rewrite (proj1 (on_axes_rest _ _ _)). rewrite update_len, Nat.add_0_r. repeat split; auto.
        intros j Hj. rewrite update_nth by lia. rewrite shown_app. cbn [draw_of]. rewrite E, andb_true_r, (Nat.eqb_sym j k).
        destruct (Nat.eqb_spec k j) as [->|N]; [|rewrite I3, app_nil_r by exact Hj; reflexivity].
        rewrite I3 by exact Hj. rewrite flat_map_app. rewrite <- app_assoc. f_equal. f_equal. cbn [filter].
        destruct (fine bad _); cbn [flat_map]; [now rewrite app_nil_r|reflexivity].
    + rewrite Nat.add_0_r. cbn. repeat split; auto. intros j Hj. rewrite I3 by exact Hj. rewrite shown_app. cbn. now rewrite app_nil_r.
    + rewrite Nat.add_0_r. cbn. repeat split; auto. intros j Hj. rewrite I3 by exact Hj. rewrite shown_app. cbn. now rewrite app_nil_r.
    + rewrite Nat.add_0_r. cbn. repeat split; auto. intros j Hj. rewrite I3 by exact Hj. rewrite shown_app. cbn. now rewrite app_nil_r.
Qed.

Lemma last_of_app {B} (f : @axcall A -> option B) ax ax' : last_of f (ax ++ ax') = match last_of f ax' with Some b => Some b | None => last_of f ax end.
Proof.
  unfold last_of. rewrite fold_left_app. generalize (fold_left (fun o c => match f c with Some b => Some b | None => o end) ax None). intros o.
  revert o. induction ax' as [|c l IH] using rev_ind; intros o; [reflexivity|]. rewrite !fold_left_app. cbn.
  destruct (f c); [reflexivity|]. apply IH.
Qed.
Lemma last_of_calls {B} (f : @axcall A -> option B) (g : draw -> B) ws : (forall w, last_of f (calls_of w) = Some (g w)) ->
  last_of f (flat_map calls_of ws) = option_map g (nth_error (rev ws) 0).
Proof.
  intros H. induction ws as [|w ws IH] using rev_ind; [reflexivity|]. rewrite flat_map_app, last_of_app. cbn [flat_map].
  rewrite app_nil_r, H, rev_app_distr. reflexivity.
Qed.
Lemma last_of_none {B} (f : @axcall A -> option B) ws : (forall w, last_of f (calls_of w) = None) -> last_of f (flat_map calls_of ws) = None.
Proof.
  intros H. induction ws as [|w ws IH] using rev_ind; [reflexivity|]. rewrite flat_map_app, last_of_app. cbn [flat_map]. now rewrite app_nil_r, H.
Qed.

(** ** C91: the picture held by an object.  Whatever else happens in the session, its axes show one curve per plot()
    call made on it that did not raise, in order, each with the columns stored in the dataset at the time; log-log scales; the abscissa
    is labelled Tau, the ordinate with the function of the last dataset drawn; the grid is that of the last call. *)
Theorem C91_figure (cs : list (@pcall A)) k : obeys rejects bad -> legal cs -> (k < created cs)%nat ->
  let ax := nth k (figs (session rejects cs)) [] in let ws := shown bad k cs in
  curves ax = map expected ws /\
  xscale ax = Some "log"%string /\ yscale ax = Some "log"%string /\
  (ws <> [] -> xlabel ax = Some "Tau"%string) /\
  (forall w ws', ws = ws' ++ [w] -> ylabel ax = Some (o_id (out (w_data w))) /\ gridded ax = Some (w_grid w)).
Proof.
  intros Hn L Hk ax ws. destruct (session_inv cs Hn L) as (_ & _ & E). specialize (E k Hk). fold ax ws in E. rewrite E.
  split; [|split; [|split; [|split]]].
  - unfold curves. rewrite flat_map_app. cbn [flat_map curve_of app]. generalize ws. intros l. clear.
    induction l as [|w l IH]; [reflexivity|]. cbn [flat_map map]. rewrite flat_map_app, IH.
    unfold calls_of, expected, out_taus, out_stat, out_err. destruct w as [d eb g kw]. cbn [w_data w_bars w_grid w_kw].
    destruct (o_res (out d)) as [[[[t s] e] n]|], eb, g; reflexivity.
  - unfold xscale. rewrite last_of_app, last_of_none; [reflexivity|]. intros [d eb g kw]. unfold calls_of. cbn. now destruct eb, g.
  - unfold yscale. rewrite last_of_app, last_of_none; [reflexivity|]. intros [d eb g kw]. unfold calls_of. cbn. now destruct eb, g.
  - intros Hw. unfold xlabel. rewrite last_of_app, (last_of_calls _ (fun _ => "Tau"%string)).
    + destruct (rev ws) eqn:R; [|reflexivity]. apply (f_equal (@rev _)) in R. rewrite rev_involutive in R. contradiction.
    + intros [d eb g kw]. unfold calls_of. cbn. now destruct eb, g.
  - intros w ws' ->. split.
    + unfold ylabel. rewrite last_of_app, (last_of_calls _ (fun w => o_id (out (w_data w)))); [now rewrite rev_app_distr|].
      intros [d eb g kw]. unfold calls_of. cbn. now destruct eb, g.
    + unfold gridded. rewrite last_of_app, (last_of_calls _ w_grid); [now rewrite rev_app_distr|].
      intros [d eb g kw]. unfold calls_of. cbn. now destruct eb, g.
Qed.

(** a plot() call that raises: python's own complaint (TypeError) leaves every figure alone, and so does a curve matplotlib
    rejects, whose exception is passed on *)
Theorem C91_raise w k d eb g kw :
  (clash eb kw = true -> plot_plot rejects w k d eb g kw = (w, Some TypeError)) /\
  (clash eb kw = false -> forall e,
     rejects (nth k (figs w) []) (if eb then AxErrorbar (out_taus d) (out_stat d) (out_err d) kw else AxPlot (out_taus d) (out_stat d) kw) = Some e ->
     figs (fst (plot_plot rejects w k d eb g kw)) = figs w /\ snd (plot_plot rejects w k d eb g kw) = Some e).
Proof.
  unfold plot_plot. fold (clash eb kw). split; intros ->; [reflexivity|]. intros e H.
  unfold on_axes. cbn [run app]. rewrite H. cbn. split; [|reflexivity].
  generalize (figs w) k. intros l. induction l as [|b l IH]; intros [|j]; cbn; auto. now rewrite IH.
Qed.
(** without matplotlib no object is made and pyplot is untouched *)
Theorem C91_missing w : plot_new rejects false w = (w, Err RuntimeError).
Proof. reflexivity. Qed.

(** save(): the file gets the figure made (or selected) last, whichever object is asked *)
Theorem C91_save (cs : list (@pcall A)) k f : obeys rejects bad -> legal (cs ++ [PSave k f]) -> (latest cs < created cs)%nat ->
  let w := session rejects (cs ++ [PSave k f]) in
  exists ax, files w = files (session rejects cs) ++ [(f, ax)] /\ ax = nth (latest cs) (figs (session rejects cs)) [] /\
    curves ax = map expected (shown bad (latest cs) cs) /\ figs w = figs (session rejects cs).
Proof.
  intros Hn L Hl. cbv zeta. apply legal_app in L. destruct L as [L _]. eexists. unfold session at 1. rewrite fold_left_app. cbn.
  fold (session rejects cs). destruct (session_inv cs Hn L) as (_ & -> & _). split; [reflexivity|]. split; [reflexivity|].
  split; [apply (C91_figure cs _ Hn L Hl)|]. unfold session. rewrite fold_left_app. reflexivity.
Qed.
(** so the object made last (no other figure selected since) does save its own picture *)
Theorem C91_save_own (cs cs' : list (@pcall A)) k f : obeys rejects bad -> legal (cs ++ PNew :: cs' ++ [PSave k f]) ->
  (forall c, In c cs' -> match c with PNew | PSelect _ => False | _ => True end) -> k = created cs ->
  exists ax, files (session rejects (cs ++ PNew :: cs' ++ [PSave k f])) = files (session rejects (cs ++ PNew :: cs')) ++ [(f, ax)] /\
    curves ax = map expected (shown bad k cs').
Proof.
  intros Hn L Hc ->. change (PNew :: cs' ++ ?t) with ((PNew :: cs') ++ t) in *. rewrite app_assoc in *.
  assert (El : latest (cs ++ PNew :: cs') = created cs).
  { clear L. induction cs' as [|c l IH] using rev_ind; [apply latest_app|].
    change (PNew :: l ++ [c]) with ((PNew :: l) ++ [c]). rewrite app_assoc, latest_app, IH by (intros; apply Hc, in_or_app; auto).
    specialize (Hc c ltac:(apply in_or_app; cbn; auto)). destruct c; tauto. }
  assert (Ec : (created cs < created (cs ++ PNew :: cs'))%nat).
  { unfold created. rewrite filter_app, app_length. cbn. lia. }
  destruct (C91_save (cs ++ PNew :: cs') (created cs) f Hn L ltac:(now rewrite El)) as (ax & E1 & _ & E2 & _).
  exists ax. split; [exact E1|]. rewrite E2, El. f_equal. unfold shown. f_equal. unfold draws. rewrite flat_map_app. cbn.
  change (flat_map (draw_of (created cs)) cs) with (draws (created cs) cs). rewrite draws_new; auto.
  apply legal_app in L. destruct L as [L _]. clear -L. unfold legal in *. revert L. generalize 0%nat. 
  induction cs as [|c cs IH]; intros n L; [exact I|]. destruct c; cbn in *; intuition eauto.
Qed.
(** show() puts up every figure made so far, as it is at that moment, whichever object is asked; nothing else puts
    anything on the screen or in a file *)
Theorem C91_show (cs : list (@pcall A)) k : obeys rejects bad -> legal (cs ++ [PShow k]) ->
  let w := session rejects (cs ++ [PShow k]) in
  exists scr, screens w = screens (session rejects cs) ++ [scr] /\ len scr = created cs /\
    (forall j, (j < created cs)%nat -> curves (nth j scr []) = map expected (shown bad j cs)) /\
    figs w = figs (session rejects cs) /\ files w = files (session rejects cs).
Proof.
  intros Hn L w. apply legal_app in L. destruct L as [L _]. exists (figs (session rejects cs)). assert (Ew : w = plot_show (session rejects cs)) by (unfold w, session; rewrite fold_left_app; reflexivity).
  rewrite Ew. unfold plot_show. cbn [screens figs files]. destruct (session_inv cs Hn L) as (E & _ & _). split; [reflexivity|]. split; [exact E|]. split; [|split; reflexivity].
  intros j Hj. apply (C91_figure cs j Hn L Hj).
Qed.
Theorem C91_quiet (cs : list (@pcall A)) c : let w := session rejects cs in let w' := session rejects (cs ++ [c]) in
  ((forall k, c <> PShow k) -> screens w' = screens w) /\ ((forall k f, c <> PSave k f) -> files w' = files w).
Proof.
  intros w w'. unfold w', session. rewrite fold_left_app. cbn [fold_left]. fold (session rejects cs). fold w.
  assert (O : forall v k l, screens (fst (on_axes rejects v k l)) = screens v /\ files (fst (on_axes rejects v k l)) = files v)
    by (intros v k l; unfold on_axes; destruct (run _ _ _); split; reflexivity).
  destruct c as [|k d eb g kw|k|k f|k]; cbn [pstep].
  - unfold plot_new. cbn [negb]. set (v := mkplt _ _ _ _). destruct (O v (len (figs w)) [SetXscale "log"%string; SetYscale "log"%string]) as [O1 O2].
    destruct (on_axes rejects v _ _) as [w2 [e|]]; cbn [fst] in *; rewrite O1, O2; split; reflexivity.
  - unfold plot_plot. destruct (_ && _); [split; reflexivity|]. match goal with |- context [on_axes rejects w k ?l] => destruct (O w k l) as [O1 O2] end. rewrite O1, O2. split; reflexivity.
  - split; intro H; [now destruct (H k)|reflexivity].
  - split; intro H; [reflexivity|now destruct (H k f)].
  - split; reflexivity.
Qed.
End Proofs.
Print Assumptions C91_show.
Print Assumptions C91_quiet.
Example C91_show_ex : let cs := [PNew; PPlot 0 (mkds (mkinp [] 1%R "phase" TNone) (mkout (Some ([1%R], [3%R], EArr [], [])) false None)) false false []; PNew] in
  legal (cs ++ [PShow 1]) /\ screens (session (fun _ _ => None) cs) = [] /\
  map (fun ax => len (curves ax)) (last (screens (session (fun _ _ => None) (cs ++ [PShow 1; PPlot 0 (mkds (mkinp [] 1%R "phase" TNone) (mkout None false None)) false true []]))) []) = [1; 0]%nat.
Proof. cbn. repeat split; lia. Qed.
Print Assumptions C91_figure.
Print Assumptions C91_raise.
Print Assumptions C91_save.
Print Assumptions C91_save_own.

(** Two objects, one dataset on each; the first is asked to save: the file shows the second's data. *)
Definition done (t s : list R) : @dataset R := mkds (mkinp [] 1%R "phase" TNone) (mkout (Some (t, s, EArr s, [])) false (Some "adev"%string)).
Theorem C91_save_refuted : exists (a b : @dataset R) f,
  let cs := [PNew; PPlot 0 a false false []; PNew; PPlot 1 b false false []] in
  legal (cs ++ [PSave 0 f]) /\ draws 0 cs <> [] /\
  forall ax, In (f, ax) (files (session (fun _ _ => None) (cs ++ [PSave 0 f]))) -> curves ax <> map expected (draws 0 cs).
Proof.
  exists (done [1%R] [1%R]), (done [2%R] [2%R]), "f.png"%string. cbn. repeat split; try lia; try discriminate.
  intros ax [H|[]]. injection H as <-. cbn. intros H. injection H as H. intros. lra.
Qed.
Print Assumptions C91_save_refuted.
(** matplotlib rejecting columns of different lengths: the picture lacks that curve only *)
Definition ragged (c : @axcall R) : option exn :=
  match c with AxPlot (Some x) (Some y) _ | AxErrorbar (Some x) (Some y) _ _ => if (len x =? len y)%nat then None else Some ValueError | _ => None end.
Example C91_rejected_ex : let bad := ragged in let cs := [PNew; PPlot 0 (done [1%R] [3%R]) false false []; PPlot 0 (done [1%R] [3; 5]%R) false true []; PPlot 0 (done [2%R] [4%R]) false false []] in
  obeys (fun _ => bad) bad /\ legal cs /\ len (draws 0 cs) = 3%nat /\
  curves (nth 0 (figs (session (fun _ => bad) cs)) []) = [(Some [1%R], Some [3%R], None, []); (Some [2%R], Some [4%R], None, [])] /\
  gridded (nth 0 (figs (session (fun _ => bad) cs)) []) = Some false.
Proof.
  cbn. split; [split; [reflexivity|]|repeat split; lia]. intros c. unfold ragged. destruct c as [| |x y kw|x y e kw| | |]; try reflexivity; discriminate.
Qed.
(** one object, two datasets, the second with error bars and grid: non-vacuous instance of C91_figure and C91_save_own *)
Example C91_figure_ex : let cs := [PNew; PPlot 0 (done [1%R] [3%R]) false false []; PShow 0; PPlot 0 (done [2%R] [4%R]) true true [("lw", "2")]%string] in
  legal (cs ++ [PSave 0 "f"%string]) /\ created cs = 1%nat /\
  curves (nth 0 (figs (session (fun _ _ => None) cs)) []) =
    [(Some [1%R], Some [3%R], None, []); (Some [2%R], Some [4%R], Some (Some (EArr [4%R])), [("lw", "2")]%string)] /\
  map fst (files (session (fun _ _ => None) (cs ++ [PSave 0 "f"%string]))) = ["f"%string].
Proof. cbn. repeat split; lia. Qed.

(** ** What the error bars say.  matplotlib draws bar i from s_i - lo_i to s_i + hi_i, where lo = hi = yerr for one
    array and yerr = [lo, hi] for a list of two. *)
Definition bar (s : list R) (e : @errs R) (i : nat) : option (R * R) :=
  match e with
  | EArr l => Some (nth i s 0 - nth i l 0, nth i s 0 + nth i l 0)%R
  | EList [lo; hi] => Some (nth i s 0 - nth i lo 0, nth i s 0 + nth i hi 0)%R
  | EList _ => None
  end.
Local Open Scope R_scope.
(** the bars of plot(errorbars=True) are s -+ stat_err: twice as long as the [min, max] interval that write_results puts
    in the same dataset's file *)
Theorem C91_bars (d : @dataset R) t s e n id : out d = mkout (Some (t, s, EArr e, n)) false (Some id) ->
  forall i digits l, (i < len t)%nat -> out_row (t, s, EArr e, n) digits i = Ok l ->
  exists af tau k mn mx, l = LRow af tau k mn (nth i s 0) mx /\
  bar s (EArr e) i = Some (nth i s 0 - nth i e 0, nth i s 0 + nth i e 0) /\
  (nth i s 0 + nth i e 0) - (nth i s 0 - nth i e 0) = 2 * (mx - mn) /\ (mx + mn) / 2 = nth i s 0.
Proof.
  intros _ i digits l Hi H. unfold out_row in H.
  assert (C : forall B (d : B) (c : list B) j v, col c j = Ok v -> nth j c d = v).
  { intros B d0 c j v E. unfold col in E. destruct (nth_error c j) eqn:En; [|discriminate]. injection E as ->. now apply nth_error_nth. }
  destruct (col t i) as [a|] eqn:E1; [|discriminate]. cbn [bind] in H. destruct (col t 0) as [a0|] eqn:E2; [|discriminate]. cbn [bind] in H.
  destruct (py_int _) as [af|]; [|discriminate]. cbn [bind] in H. destruct (col n i) as [ni|]; [|discriminate]. cbn [bind] in H.
  destruct (col s i) as [si|] eqn:E3; [|discriminate]. cbn [bind] in H. destruct (col e i) as [ei|] eqn:E4; [|discriminate]. cbn [bind] in H.
  destruct (_ <? _)%Z; [discriminate|]. injection H as <-.
  pose proof (C R 0 _ _ _ E3) as F3. pose proof (C R 0 _ _ _ E4) as F4. rewrite F3, F4. do 5 eexists. split; [reflexivity|].
  cbn [bar]. rewrite F3, F4. split; [reflexivity|]. cbn. split; lra.
Qed.
Print Assumptions C91_bars.
(** gradev returns the bounds of its confidence interval, not distances from the estimate; as yerr they put the bar
    elsewhere: its top is above the upper bound by the whole deviation *)
Theorem C91_gradev_bars_refuted : exists ppf (g : list (option R)) c lo hi t d n,
  (forall p q dof, 0 <= p < q -> exists a b, ppf (Fin p) (Fin dof) = Fin a /\ ppf (Fin q) (Fin dof) = Fin b /\ 0 < a < b) /\
  gradev (fun x => x) (fun x => x) ppf (with_gaps g) (Fin 1) "phase" (req (TList [INR 1 / 1])) (Fin c) "" =
    Ok ([t], [Fin d], EList [[Fin lo]; [Fin hi]], n) /\ 0 < d /\
  bar [d] (EList [[lo]; [hi]]) 0 <> Some (lo, hi) /\ exists b, bar [d] (EList [[lo]; [hi]]) 0 = Some (b, hi + d).
Proof.
  set (ppf := fun p (d : ext) => match p with Fin x => Fin (1 + Rabs x) | _ => NaN end).
  exists ppf, gappy, (1/2). destruct gappy_triples as (E1 & _ & E2).
  assert (Ev : gr_var gappy (1 / 1) 1 = 10) by (unfold gr_var; rewrite E1; unfold point, gappy; cbn; field).
  exists (sqrt (1 / 2 * 10 / 2)), (sqrt (1 / 2 * 10 / 3)). eexists. exists (sqrt 10). eexists. split; [|split; [|split; [|split]]].
  - intros p q dof H. exists (1 + Rabs p), (1 + Rabs q). split; [reflexivity|]. split; [reflexivity|].
    rewrite !Rabs_pos_eq; lra.
  - rewrite (C44_error_columns _ _ _ _ _ _ [1%nat]).
    + cbv zeta. unfold report2. cbn [filter]. rewrite E1. change ((1 <? Z.of_nat (len [3; 4]%nat))%Z) with true. cbv iota.
      cbn [map]. rewrite E2, Ev. change (gr_edf "" 6 1) with (INR 6 - 1). replace (INR 6 - 1) with 5 by (cbn; ring).
      assert (Et : Rmin (Rabs 5) (Rabs (5 - 1)) / 2 = 2) by (rewrite !Rabs_pos_eq by lra; rewrite Rmin_right by lra; lra).
      rewrite Et. unfold chi2_bounds. cbn [x_sub x_mul fst snd]. unfold ppf.
      rewrite (Rabs_left (1 - 2)) by lra. rewrite (Rabs_pos_eq 2) by lra.
      rewrite !x_div_fin by lra. rewrite sqrt_sqrt by lra.
      replace (1 + - (1 - 2)) with 2 by lra. replace (1 + 2) with 3 by lra.
      rewrite !x_sqrt_fin by lra. reflexivity.
    + lra.
    + apply adm_single; [lra|cbn; lia].
    + intros m Hm (C & _). discriminate.
  - apply sqrt_lt_R0. lra.
  - cbn. intros H. injection H as H1 H2. assert (0 < sqrt 10) by (apply sqrt_lt_R0; lra). lra.
  - cbn. eexists. f_equal. f_equal. lra.
Qed.
Print Assumptions C91_gradev_bars_refuted.
