(** * Properties C29, C44, C73: gradev on records with missing points.

    Records are lists of [option R] (None = missing), passed to the model as
    extended reals with NaN; [ppf] is the chi-squared quantile function and
    [nlog], [nexp] the logarithm and exponential, all arbitrary. *)
From Coq Require Import String Reals List ZArith Lra Lia Arith Bool Sorted.
From Verif Require Import Base Num NpList ModelCore ModelDev ModelMisc ModelCi NumR NumX ListFacts Spec RSum TauProofs DevProofs
  TotProofs GenericProofs Closed Laws Laws2 Laws3 Laws4 GradProofs.
Import ListNotations.
Local Open Scope R_scope.
Local Notation len := List.length.

(** ** C29 *)
(** Taus, deviations and counts: dev = sqrt(gr_var), n = number of complete
    triples, rows with n < 2 dropped.  [gr_fails] is the one exception (C73). *)
Theorem C29_gradev nlog nexp ppf g rate taus ms ci nt : 0 < rate -> admissible (len g) rate taus ms ->
  (forall m, In m ms -> ~ gr_fails nt g m) ->
  let dev := fun m => sqrt (gr_var g (1 / rate) m) in
  let cnt := fun m => Z.of_nat (len (triples g m)) in
  exists lo hi, gradev nlog nexp ppf (with_gaps g) (Fin rate) "phase" (req taus) ci nt = report2 rate ms dev lo hi cnt.
Proof. intros Hr Ha Hf dev cnt. do 2 eexists. now apply gradev_ok. Qed.
Print Assumptions C29_gradev.

(** the triples counted are exactly those with three present points *)
Theorem C29_triples g m i : In i (triples g m) <->
  nth i g None <> None /\ nth (i + m) g None <> None /\ nth (i + 2 * m) g None <> None.
Proof.
  rewrite triples_in. unfold present.
  destruct (nth i g None), (nth (i + m) g None), (nth (i + 2 * m) g None); intuition congruence.
Qed.
Print Assumptions C29_triples.
Theorem C29_triples_nodup g m : NoDup (triples g m).
Proof. apply NoDup_filter, seq_NoDup. Qed.
Print Assumptions C29_triples_nodup.

(** without gaps gradev returns oadev's taus, deviations and counts, and
    raises exactly when oadev does *)
Theorem C29_no_gaps nlog nexp ppf x rate taus ci nt : 0 < rate ->
  match oadev x rate "phase" taus with
  | Ok (t, d, _, n) => exists lo hi, gradev nlog nexp ppf (map Fin x) (Fin rate) "phase" (req taus) ci nt =
       Ok (map Fin t, map Fin d, EList [lo; hi], n)
  | Err e => gradev nlog nexp ppf (map Fin x) (Fin rate) "phase" (req taus) ci nt = Err e
  end.
Proof. exact (gradev_no_gaps nlog nexp ppf x rate taus ci nt). Qed.
Print Assumptions C29_no_gaps.

Definition gappy : list (option R) := [Some 0; Some 1; None; Some 9; Some 16; Some 25; Some 40].

Lemma gappy_triples : triples gappy 1 = [3; 4]%nat /\ triples gappy 2 = [1]%nat /\ points gappy = 6%nat.
Proof. repeat split. Qed.

Example C29_ex nlog nexp ppf ci : exists lo hi,
  gradev nlog nexp ppf (with_gaps gappy) (Fin 1) "phase" (req (TList [INR 1 / 1])) ci "wf" =
  Ok ([Fin (INR 1 / 1)], [Fin (sqrt 10)], EList [[lo]; [hi]], [2%Z]).
Proof.
  destruct (C29_gradev nlog nexp ppf gappy 1 (TList [INR 1 / 1]) [1%nat] ci "wf") as (lo & hi & E).
  - lra.
  - apply adm_single; [lra|cbn; lia].
  - intros m Hm (C & _). discriminate.
  - exists (lo 1%nat), (hi 1%nat). rewrite E. unfold report2. destruct gappy_triples as (E1 & _).
    cbn [filter]. rewrite E1. change ((1 <? Z.of_nat (len [3; 4]%nat))%Z) with true. cbv iota.
    cbn [map]. rewrite E1.
    replace (gr_var gappy (1 / 1) 1) with 10; [reflexivity|].
    unfold gr_var. rewrite E1. unfold point, gappy. cbn. field.
Qed.

(** ** C44 *)
(** two-sided chi-squared bounds of [dev] with [dof] degrees of freedom and
    lower tail probability [p], SP1065 eq. (45) *)
Definition chi2_bounds (ppf : ext -> ext -> ext) (dev dof p : ext) : ext * ext :=
  (x_sqrt (x_div (x_mul dof (x_mul dev dev)) (ppf (x_sub (Fin 1) p) dof)),
   x_sqrt (x_div (x_mul dof (x_mul dev dev)) (ppf p dof))).

(** The error columns: the degrees of freedom passed are the requested
    confidence [c], and the tail probability is derived from the computed
    degrees of freedom e as min(|e|, |e-1|)/2. *)
Theorem C44_error_columns nlog nexp ppf g rate taus ms c nt : 0 < rate -> admissible (len g) rate taus ms ->
  (forall m, In m ms -> ~ gr_fails nt g m) ->
  let dev := fun m => sqrt (gr_var g (1 / rate) m) in
  let cnt := fun m => Z.of_nat (len (triples g m)) in
  let tail := fun e => Rmin (Rabs e) (Rabs (e - 1)) / 2 in
  let lim := fun m => chi2_bounds ppf (Fin (dev m)) (Fin c) (Fin (tail (gr_edf nt (points g) m))) in
  gradev nlog nexp ppf (with_gaps g) (Fin rate) "phase" (req taus) (Fin c) nt =
  report2 rate ms dev (fun m => fst (lim m)) (fun m => snd (lim m)) cnt.
Proof.
  intros Hr Ha Hf dev cnt tail lim. rewrite (gradev_ok nlog nexp ppf g rate taus ms) by assumption. cbv zeta.
  assert (E : forall d e, confidence_interval ppf (Fin d) (Fin c) (Fin e) = chi2_bounds ppf (Fin d) (Fin c) (Fin (tail e))).
  { intros d e. unfold confidence_interval, chi2_bounds.
    assert (Ep : (pymin2 (nabs (Fin e)) (nabs (Fin e - ofZ 1)) / ofZ 2)%num = Fin (tail e)).
    { unfold pymin2, tail. cbn [nabs nltb nsub ofZ XNum x_abs x_sub x_ltb ndiv].
      unfold Rltb, Rmin. destruct (Rlt_dec _ _) as [L|L], (Rle_dec _ _) as [L'|L']; try lra; now apply x_div_fin. }
    rewrite Ep. reflexivity. }
  unfold report2. fold dev cnt.
  destruct (filter _ ms) as [|m0 good]; [reflexivity|].
  rewrite (map_ext (fun m => fst (confidence_interval ppf (Fin (dev m)) (Fin c) (Fin (gr_edf nt (points g) m)))) (fun m => fst (lim m)))
    by (intros m; now rewrite E).
  rewrite (map_ext (fun m => snd (confidence_interval ppf (Fin (dev m)) (Fin c) (Fin (gr_edf nt (points g) m)))) (fun m => snd (lim m)))
    by (intros m; now rewrite E).
  reflexivity.
Qed.
Print Assumptions C44_error_columns.

(** With more than 3 computed degrees of freedom both tail probabilities are
    outside [0, 1] ... *)
Theorem C44_tails e : 3 < e -> let p := Rmin (Rabs e) (Rabs (e - 1)) / 2 in 1 < p /\ 1 - p < 0.
Proof.
  intros He p. unfold p. rewrite !Rabs_pos_eq by lra. rewrite Rmin_right by lra. lra.
Qed.
Print Assumptions C44_tails.

(** ... so with a quantile function that is NaN there (as scipy's is) both
    error columns are NaN, whatever the data. *)
Theorem C44_nan ppf dev c e : (forall p d, (p < 0 \/ 1 < p) -> ppf (Fin p) (Fin d) = NaN) -> 3 < e ->
  chi2_bounds ppf (Fin dev) (Fin c) (Fin (Rmin (Rabs e) (Rabs (e - 1)) / 2)) = (NaN, NaN).
Proof.
  intros Hp He. destruct (C44_tails e He) as [H1 H2]. cbv zeta in H1, H2.
  unfold chi2_bounds. cbn [x_sub x_mul]. rewrite !Hp by auto. reflexivity.
Qed.
Print Assumptions C44_nan.

(** degrees of freedom by noisetype: 'fp' (documented: flicker phase) uses the
    random-walk-frequency formula, 'ff' and 'rf' fall through to N - 1 *)
Theorem C44_noisetypes (N m : nat) : (4 <= N)%nat -> (1 <= m)%nat ->
  edf_simple ln exp (Z.of_nat N) (Z.of_nat m) (Some (-2)%Z) = Ok (gr_edf "fp" N m) /\
  gr_edf "ff" N m = INR N - 1 /\ gr_edf "rf" N m = INR N - 1.
Proof.
  intros HN Hm. split; [|split; reflexivity].
  assert (HN' : 4 <= INR N) by (apply le_INR in HN; cbn in HN; lra).
  assert (Hm' : 1 <= INR m) by (apply le_INR in Hm; cbn in Hm; lra).
  unfold edf_simple, pydiv. cbn [ofZ nadd nsub nmul ndiv neqb RNum]. rewrite <- !INR_IZR_INZ.
  rewrite (proj2 (Reqb_false _ 0)).
  - cbn [bind]. f_equal. change (gr_edf "fp" N m) with (fp_edf N m). unfold fp_edf. field. split; lra.
  - apply Rmult_integral_contrapositive_currified; [lra|]. apply Rmult_integral_contrapositive_currified; lra.
Qed.
Print Assumptions C44_noisetypes.

(** The documented contract (edf degrees of freedom, confidence c) fails. *)
Theorem C44_contract_refuted : exists ppf (g : list (option R)) c lo hi t d n,
  (forall p q dof, 0 <= p < q -> exists a b, ppf (Fin p) (Fin dof) = Fin a /\ ppf (Fin q) (Fin dof) = Fin b /\ 0 < a < b) /\
  gradev (fun x => x) (fun x => x) ppf (with_gaps g) (Fin 1) "phase" (req (TList [INR 1 / 1])) (Fin c) "" =
    Ok ([t], [Fin d], EList [[lo]; [hi]], n) /\
  (lo, hi) <> chi2_bounds ppf (Fin d) (Fin (gr_edf "" (points g) 1)) (Fin ((1 - c) / 2)).
Proof.
  set (ppf := fun p (d : ext) => match p with Fin x => Fin (1 + Rabs x) | _ => NaN end).
  exists ppf, gappy, (1/2).
  destruct gappy_triples as (E1 & _ & E2).
  do 5 eexists. split; [|split].
  - intros p q dof H. exists (1 + Rabs p), (1 + Rabs q). split; [reflexivity|]. split; [reflexivity|].
    rewrite !Rabs_pos_eq; lra.
  - rewrite (C44_error_columns _ _ _ _ _ _ [1%nat]).
    + cbv zeta. unfold report2. cbn [filter]. rewrite E1. change ((1 <? Z.of_nat (len [3; 4]%nat))%Z) with true. cbv iota.
      cbn [map]. reflexivity.
    + lra.
    + apply adm_single; [lra|cbn; lia].
    + intros m Hm (C & _). discriminate.
  - rewrite E2.
    assert (Ev : gr_var gappy (1 / 1) 1 = 10) by (unfold gr_var; rewrite E1; unfold point, gappy; cbn; field).
    rewrite Ev. change (gr_edf "" 6 1) with (INR 6 - 1). replace (INR 6 - 1) with 5 by (cbn; ring).
    assert (Et : Rmin (Rabs 5) (Rabs (5 - 1)) / 2 = 2) by (rewrite !Rabs_pos_eq by lra; rewrite Rmin_right by lra; lra).
    rewrite Et. unfold chi2_bounds. cbn [x_sub x_mul fst snd]. unfold ppf.
    rewrite (Rabs_left (1 - 2)) by lra. rewrite (Rabs_pos_eq 2), (Rabs_pos_eq (1 - (1 - 1/2) / 2)), (Rabs_pos_eq ((1 - 1/2)/2)) by lra.
    rewrite !x_div_fin by lra. rewrite sqrt_sqrt by lra.
    replace (1 + - (1 - 2)) with 2 by lra. replace (1 + 2) with 3 by lra.
    replace (1 + (1 - (1 - 1 / 2) / 2)) with (7 / 4) by field. replace (1 + (1 - 1 / 2) / 2) with (5 / 4) by field.
    replace (5 * 10 / (7 / 4)) with (200 / 7) by field. replace (5 * 10 / (5 / 4)) with 40 by field.
    rewrite !x_sqrt_fin by lra.
    intros H. injection H as H _. apply sqrt_inj in H; lra.
Qed.
Print Assumptions C44_contract_refuted.

Example C44_ex : gr_edf "fp" 6 1 > 3 /\ ~ gr_fails "fp" gappy 1.
Proof. split; [|intros (C & _); discriminate]. change (gr_edf "fp" 6 1) with (fp_edf 6 1). unfold fp_edf. cbn. lra. Qed.

(** ** C73 *)
(** With the default noisetype, gradev raises ZeroDivisionError exactly when a
    reported factor m equals the number of points present. *)
Theorem C73_zero_division nlog nexp ppf g rate taus ms ci nt : 0 < rate -> admissible (len g) rate taus ms ->
  gradev nlog nexp ppf (with_gaps g) (Fin rate) "phase" (req taus) ci nt = Err ZeroDivisionError <->
  nt = "wp"%string /\ exists m, In m ms /\ m = points g /\ (1 < len (triples g m))%nat.
Proof.
  intros Hr Ha. split.
  - intros E. destruct (String.string_dec nt "wp") as [->|Hn].
    + split; [reflexivity|].
      destruct (existsb (fun m => Nat.eqb (points g) m && (1 <? len (triples g m))%nat) ms)%bool eqn:Ex.
      * apply existsb_exists in Ex as (m & Hm & Hb). apply andb_true_iff in Hb as [H1 H2].
        exists m. split; [exact Hm|]. split; [symmetry; now apply Nat.eqb_eq|now apply Nat.ltb_lt].
      * exfalso. rewrite (gradev_ok nlog nexp ppf g rate taus ms) in E; auto.
        { unfold report2 in E. destruct (filter _ ms); discriminate. }
        intros m Hm (_ & Hp & Hl). rewrite <- Bool.not_true_iff_false in Ex. apply Ex. apply existsb_exists.
        exists m. split; [exact Hm|]. rewrite Hp, Nat.eqb_refl. apply Nat.ltb_lt in Hl. now rewrite Hl.
    + exfalso. rewrite (gradev_ok nlog nexp ppf g rate taus ms) in E; auto.
      { unfold report2 in E. destruct (filter _ ms); discriminate. }
      intros m Hm (C & _). contradiction.
  - intros (-> & m & Hm & -> & Hl). eapply gradev_zerodiv; eauto. exists (points g). split; [exact Hm|]. repeat split. exact Hl.
Qed.
Print Assumptions C73_zero_division.

(** such a record: points 0, 4, 8, 12 of 13, m = 4 *)
Example C73_ex nlog nexp ppf ci :
  let g := [Some 0; None; None; None; Some 1; None; None; None; Some 0; None; None; None; Some 1] in
  gradev nlog nexp ppf (with_gaps g) (Fin 1) "phase" (req (TList [INR 4 / 1])) ci "wp" = Err ZeroDivisionError.
Proof.
  intros g. apply (C73_zero_division nlog nexp ppf g 1 _ [4%nat]); [lra|apply adm_single; [lra|cbn; lia]|].
  split; [reflexivity|]. exists 4%nat. split; [cbn; auto|]. split; [reflexivity|cbn; lia].
Qed.
