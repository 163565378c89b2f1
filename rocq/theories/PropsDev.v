(** * Properties C14-C28: what each deviation function computes.

    Every theorem gives the complete returned tuple (or exception), for all
    records, all positive rates and all processable taus arguments; [ms] is
    the strictly increasing list of usable requested averaging factors. *)
From Coq Require Import String Reals List ZArith Lra Lia Arith Bool Sorted.
From Verif Require Import Base Num NpList ModelCore ModelDev NumR ListFacts Spec RSum TauProofs DevProofs TotProofs
  GenericProofs Closed Laws Laws2 Laws3 Laws4 ConvProofs.
Import ListNotations.
Local Open Scope R_scope.
Local Notation len := List.length.

(** The hypothesis [admissible_if ok N rate taus ms] is met by exactly one list. *)
Theorem C14_admissible_exists ok N rate taus : rate <> 0 -> valid_request N taus ->
  exists ms, admissible_if (fun m => ok m = true) N rate taus ms.
Proof. exact (admissible_exists ok N rate taus). Qed.
Print Assumptions C14_admissible_exists.

(** Records used in the examples. *)
Definition squares : list R := [0; 1; 4; 9; 16; 25; 36; 49].
Definition bump : list R := [0; 0; 0; 1; 0; 0; 0; 0; 0; 0].

Lemma sqrt_val a b : 0 <= b -> a = b * b -> sqrt a = b.
Proof. intros H ->. now apply sqrt_square. Qed.

Lemma adm_12 N : (3 <= N)%nat -> admissible N 1 (TArr [2; 1; 2]) [1%nat; 2%nat].
Proof.
  intros HN. split; [exact I|]. split; [repeat constructor|].
  assert (Hi : forall k, half_even (IZR k * 1) k).
  { intros k. rewrite Rmult_1_r. apply half_even_IZR. }
  intros m. cbn [requested In]. split.
  - intros [<-|[<-|[]]]; (split; [lia|]); (split; [exact I|]).
    + exists 1. split; [tauto|apply (Hi 1%Z)].
    + exists 2. split; [tauto|apply (Hi 2%Z)].
  - intros (_ & _ & t & Ht & H).
    assert (Hu : forall k, half_even (IZR k * 1) (Z.of_nat m) -> m = Z.to_nat k).
    { intros k Hk. rewrite <- (Nat2Z.id m). f_equal.
      transitivity (rintR (IZR k * 1)); [symmetry; now apply rintR_iff|apply rintR_iff, Hi]. }
    destruct Ht as [<-|[<-|[<-|[]]]]; apply Hu in H; rewrite H; cbn; tauto.
Qed.

Lemma adm_2 N (ok : nat -> Prop) : (3 <= N)%nat -> ok 2%nat -> admissible_if ok N 1 (TArr [2]) [2%nat].
Proof.
  intros HN Hok. split; [exact I|]. split; [repeat constructor|].
  intros m. cbn [requested In]. split.
  - intros [<-|[]]. split; [lia|]. split; [exact Hok|]. exists 2. split; [tauto|].
    rewrite Rmult_1_r. apply (half_even_IZR 2).
  - intros (_ & _ & t & [<-|[]] & H). left.
    rewrite Rmult_1_r in H. pose proof (half_even_IZR 2). apply rintR_iff in H. apply rintR_iff in H0. lia.
Qed.

(** ** C14 *)
Theorem C14_adev x rate taus ms : 0 < rate -> admissible (len x) rate taus ms ->
  let dev := fun m => sqrt (avar x (1 / rate) m) in
  let cnt := fun m => Z.of_nat (adev_n x m) in
  adev x rate "phase" taus = report rate ms dev (plain_err dev cnt) cnt.
Proof. exact (adev_spec x rate taus ms). Qed.
Print Assumptions C14_adev.

(** adev_n really counts the triples (km, (k+1)m, (k+2)m) inside the record. *)
Theorem C14_count (x : list R) m : (1 <= m)%nat -> x <> [] ->
  forall k, (k < adev_n x m)%nat <-> ((k + 2) * m < len x)%nat.
Proof.
  intros Hm Hx k. unfold adev_n. assert (1 <= len x)%nat by (destruct x; [contradiction|cbn; lia]).
  rewrite Nat.mul_comm. split; intros H'.
  - assert (k + 2 <= (len x - 1) / m)%nat by lia.
    pose proof (Nat.mul_div_le (len x - 1) m ltac:(lia)). nia.
  - assert (k + 2 <= (len x - 1) / m)%nat by (apply Nat.div_le_lower_bound; lia). lia.
Qed.
Print Assumptions C14_count.

Example C14_ex : exists e, adev squares 1 "phase" (TArr [2; 1; 2]) = Ok ([INR 1 / 1; INR 2 / 1], [sqrt 2; 2 * sqrt 2], EArr e, [6%Z; 2%Z]).
Proof.
  rewrite (C14_adev squares 1 _ [1%nat; 2%nat]); [|lra|apply adm_12; cbn; lia].
  cbv zeta. unfold report, adev_n. cbn [len squares filter Nat.div Nat.divmod Nat.sub fst Z.of_nat Z.ltb Z.compare Pos.of_succ_nat Pos.succ Pos.compare Pos.compare_cont map].
  eexists. do 3 f_equal. f_equal.
  - f_equal; [|f_equal].
    + f_equal. unfold avar, adev_n, d2. cbn. lra.
    + replace (avar squares (1 / 1) 2) with (2 * 2 * 2) by (unfold avar, adev_n, d2; cbn; lra).
      rewrite sqrt_mult, sqrt_square by lra. reflexivity.
Qed.

(** ** C15 *)
Theorem C15_oadev x rate taus ms : 0 < rate -> admissible (len x) rate taus ms ->
  let dev := fun m => sqrt (oavar x (1 / rate) m) in
  let cnt := fun m => Z.of_nat (oadev_n x m) in
  oadev x rate "phase" taus = report rate ms dev (plain_err dev cnt) cnt.
Proof. exact (oadev_spec x rate taus ms). Qed.
Print Assumptions C15_oadev.

Example C15_ex : oadev [0; 1; 4; 9; 16; 25] (1/2) "phase" (TList [INR 2 / (1/2)]) =
  Ok ([INR 2 / (1/2)], [sqrt 2], EArr [sqrt 2 / sqrt 2], [2%Z]).
Proof.
  rewrite (C15_oadev _ _ _ [2%nat]); [|lra|apply adm_single; [lra|cbn; lia]].
  cbv zeta. rewrite report_single by (cbn; lia).
  assert (H : oavar [0; 1; 4; 9; 16; 25] (1 / (1/2)) 2 = 2) by (unfold oavar, oadev_n, d2; cbn; field).
  unfold plain_err. rewrite H. unfold oadev_n. cbn. repeat f_equal. 
Qed.

(** ** C16 *)
Theorem C16_hdev x rate taus ms : 0 < rate -> admissible (len x) rate taus ms ->
  let dev := fun m => sqrt (hvar x (1 / rate) m) in
  let cnt := fun m => Z.of_nat (hdev_n x m) in
  hdev x rate "phase" taus = report rate ms dev (plain_err dev cnt) cnt.
Proof. exact (hdev_spec x rate taus ms). Qed.
Print Assumptions C16_hdev.

Theorem C16_count (x : list R) m : (1 <= m)%nat -> x <> [] ->
  forall k, (k < hdev_n x m)%nat <-> ((k + 3) * m < len x)%nat.
Proof.
  intros Hm Hx k. unfold hdev_n. assert (1 <= len x)%nat by (destruct x; [contradiction|cbn; lia]).
  rewrite Nat.mul_comm. split; intros H'.
  - assert (k + 3 <= (len x - 1) / m)%nat by lia.
    pose proof (Nat.mul_div_le (len x - 1) m ltac:(lia)). nia.
  - assert (k + 3 <= (len x - 1) / m)%nat by (apply Nat.div_le_lower_bound; lia). lia.
Qed.
Print Assumptions C16_count.

Example C16_ex : exists e, hdev [0; 0; 0; 6; 0; 0; 0] 1 "phase" (TList [INR 1 / 1]) =
  Ok ([INR 1 / 1], [sqrt 30], EArr e, [4%Z]).
Proof.
  eexists. rewrite (C16_hdev _ _ _ [1%nat]); [|lra|apply adm_single; [lra|cbn; lia]].
  cbv zeta. rewrite report_single by (cbn; lia). do 3 f_equal. f_equal. f_equal. f_equal.
  unfold hvar, hdev_n, d3. cbn. field.
Qed.

(** ** C17 *)
Theorem C17_ohdev x rate taus ms : 0 < rate -> admissible (len x) rate taus ms ->
  let dev := fun m => sqrt (ohvar x (1 / rate) m) in
  let cnt := fun m => Z.of_nat (ohdev_n x m) in
  ohdev x rate "phase" taus = report rate ms dev (plain_err dev cnt) cnt.
Proof. exact (ohdev_spec x rate taus ms). Qed.
Print Assumptions C17_ohdev.

Example C17_ex : exists e, ohdev bump 1 "phase" (TList [INR 2 / 1]) = Ok ([INR 2 / 1], [sqrt (10 / 96)], EArr e, [4%Z]).
Proof.
  eexists. rewrite (C17_ohdev _ _ _ [2%nat]); [|lra|apply adm_single; [lra|cbn; lia]].
  cbv zeta. rewrite report_single by (cbn; lia). do 3 f_equal. f_equal. f_equal. f_equal.
  unfold ohvar, ohdev_n, d3. cbn. field.
Qed.

(** ** C18: rows with N < 3m+1 have count <= 1 and are dropped by [report] *)
Theorem C18_mdev x rate taus ms : 0 < rate -> admissible (len x) rate taus ms ->
  let dev := fun m => sqrt (mvar x (1 / rate) m) in
  mdev x rate "phase" taus = report rate ms dev (plain_err dev (mdev_n x)) (mdev_n x).
Proof. exact (mdev_spec x rate taus ms). Qed.
Print Assumptions C18_mdev.

Theorem C18_kept (x : list R) m : (1 < mdev_n x m)%Z <-> (3 * m + 1 <= len x)%nat.
Proof. unfold mdev_n. lia. Qed.
Print Assumptions C18_kept.

Example C18_ex : exists e, mdev bump 1 "phase" (TList [INR 2 / 1]) = Ok ([INR 2 / 1], [sqrt (10 / 160)], EArr e, [5%Z]).
Proof.
  eexists. rewrite (C18_mdev _ _ _ [2%nat]); [|lra|apply adm_single; [lra|cbn; lia]].
  cbv zeta. rewrite report_single by (cbn; lia). do 3 f_equal. f_equal. f_equal. f_equal.
  unfold mvar, mdev_n, d2. change (Z.to_nat _) with 5%nat. cbn. field.
Qed.

(** ** C19 *)
(** row by row, in any arithmetic, for any data type, errors included *)
Theorem C19_rows {A} {NA : Num A} (data : list A) rate dt taus :
  tdev data rate dt taus =
  match mdev data rate dt taus with
  | Err e => Err e
  | Ok (t, d, _, n) =>
      let td := map2 (fun tau md => ndiv (nmul tau md) (nsqrt (ofZ 3))) t d in
      Ok (t, td, EArr (map2 (fun v k => ndiv v (nsqrt (ofZ k))) td n), n)
  end.
Proof. exact (tdev_rows data rate dt taus). Qed.
Print Assumptions C19_rows.

Theorem C19_tdev x rate taus ms : 0 < rate -> admissible (len x) rate taus ms ->
  let dev := fun m => sqrt ((INR m * (1 / rate)) ^ 2 / 3 * mvar x (1 / rate) m) in
  tdev x rate "phase" taus = report rate ms dev (plain_err dev (mdev_n x)) (mdev_n x).
Proof. exact (tdev_spec x rate taus ms). Qed.
Print Assumptions C19_tdev.

Example C19_ex : exists e, tdev bump 1 "phase" (TList [INR 2 / 1]) = Ok ([INR 2 / 1], [sqrt (1 / 12)], EArr e, [5%Z]).
Proof.
  eexists. rewrite (C19_tdev _ _ _ [2%nat]); [|lra|apply adm_single; [lra|cbn; lia]].
  cbv zeta. rewrite report_single by (cbn; lia). do 3 f_equal. f_equal. f_equal. f_equal.
  unfold mvar, mdev_n, d2. change (Z.to_nat _) with 5%nat. cbn. field.
Qed.

(** ** C20 *)
Theorem C20_pdev x rate taus ms : 0 < rate -> admissible (len x) rate taus ms ->
  let dev := fun m => sqrt (pvar x (1 / rate) m) in
  let cnt := fun m => Z.of_nat (oadev_n x m) in
  pdev x rate "phase" taus = report rate ms dev (plain_err dev cnt) cnt.
Proof. exact (pdev_spec x rate taus ms). Qed.
Print Assumptions C20_pdev.

Example C20_ex : exists e, pdev [0; 1; 4; 9; 16; 25] 1 "phase" (TList [INR 2 / 1]) =
  Ok ([INR 2 / 1], [sqrt (9 / 2)], EArr e, [2%Z]).
Proof.
  eexists. rewrite (C20_pdev _ _ _ [2%nat]); [|lra|apply adm_single; [lra|cbn; lia]].
  cbv zeta. rewrite report_single by (cbn; lia). do 3 f_equal. f_equal. f_equal. f_equal.
  unfold pvar, oadev_n. cbn. field.
Qed.

(** ** C21 *)
Theorem C21_totdev x rate taus ms : 0 < rate -> (2 <= len x)%nat -> admissible (len x) rate taus ms ->
  let dev := fun m => sqrt (totvar x (1 / rate) m) in
  let cnt := fun m : nat => Z.of_nat (totdev_n x) in
  totdev x rate "phase" taus = report rate ms dev (plain_err dev cnt) cnt.
Proof. exact (totdev_spec x rate taus ms). Qed.
Print Assumptions C21_totdev.
(** fewer than two samples *)
Theorem C21_short {A} {NA : Num A} (x : list A) rate taus :
  (len x < 2)%nat -> (exists r, tau_generator x rate taus false (ofZ (-1)) = Ok r) ->
  totdev x rate "phase" taus = Err (if Nat.eqb (len x) 0 then IndexError else ValueError).
Proof.
  intros Hl [[[p m] t] Ht]. unfold totdev. cbn [input_to_phase String.eqb Ascii.eqb Bool.eqb bind]. rewrite Ht. cbn [bind].
  assert (p = x) as ->.
  { unfold tau_generator in Ht. destruct (neqb rate (ofZ 0)); [discriminate|]. destruct (expand_taus _ _ _); cbn [bind] in Ht; [|discriminate]. congruence. }
  unfold totdev_extend. destruct x as [|a [|b x]]; [reflexivity|reflexivity|cbn in Hl; lia].
Qed.
Print Assumptions C21_short.
Example C21_ex_short : totdev [5] 1 "phase" TNone = Err ValueError /\ totdev [] 1 "phase" (TStr "all") = Err IndexError.
Proof.
  split.
  - refine (C21_short [5] 1 TNone _ _); [cbn; lia|].
    destruct (C14_admissible_exists (fun _ => true) 1 1 TNone ltac:(lra) ltac:(cbn; lia)) as [ms Hms]. apply (adm_any 1) in Hms.
    eexists. apply (tau_generator_default [5] 1 TNone ms); [lra|exact Hms].
  - refine (C21_short [] 1 (TStr "all") _ _); [cbn; lia|].
    destruct (C14_admissible_exists (fun _ => true) 0 1 (TStr "all") ltac:(lra) ltac:(cbn; unfold keyword; tauto)) as [ms Hms]. apply (adm_any 0) in Hms.
    eexists. apply (tau_generator_default [] 1 (TStr "all") ms); [lra|exact Hms].
Qed.

Example C21_ex : exists e, totdev [0; 1; 4; 9] 1 "phase" (TList [INR 3 / 1]) =
  Ok ([INR 3 / 1], [sqrt (32 / 9)], EArr e, [2%Z]).
Proof.
  eexists. rewrite (C21_totdev _ _ _ [3%nat]); [|lra|cbn; lia|apply adm_single; [lra|cbn; lia]].
  cbv zeta. rewrite report_single by (cbn; lia). do 3 f_equal. f_equal. f_equal. f_equal.
  unfold totvar, totdev_n, xtot. cbn. unfold Pos.to_nat. cbn. field.
Qed.

(** ** C22 *)
Theorem C22_mtotdev x rate taus ms : 0 < rate -> admissible_if (fun m => 3 * m <= len x)%nat (len x) rate taus ms ->
  let dev := fun m => sqrt (mtotvar x (1 / rate) m) in
  mtotdev x rate "phase" taus = report rate ms dev (plain_err dev (mdev_n x)) (mdev_n x).
Proof. exact (mtotdev_spec x rate taus ms). Qed.
Print Assumptions C22_mtotdev.

Example C22_ex : exists e, mtotdev bump 1 "phase" (TArr [2]) =
  Ok ([INR 2 / 1], [sqrt (mtotvar bump (1 / 1) 2)], EArr e, [5%Z]) /\ 0 < mtotvar bump (1 / 1) 2.
Proof.
  eexists. split.
  - rewrite (C22_mtotdev _ _ _ [2%nat]); [|lra|apply adm_2; cbn; lia].
    cbv zeta. rewrite report_single by (cbn; lia). reflexivity.
  - unfold mtotvar, mdev_n, tot_term, wsum, reflect9, half_slope. change (Z.to_nat _) with 5%nat. cbn. lra.
Qed.

(** ** C23 *)
Theorem C23_rows {A} {NA : Num A} (data : list A) rate dt taus :
  ttotdev data rate dt taus =
  match mtotdev data rate dt taus with
  | Err e => Err e
  | Ok (t, d, _, n) =>
      let td := map2 (fun tau md => ndiv (nmul tau md) (nsqrt (ofZ 3))) t d in
      Ok (t, td, EArr (map2 (fun v k => ndiv v (nsqrt (ofZ k))) td n), n)
  end.
Proof. exact (ttotdev_rows data rate dt taus). Qed.
Print Assumptions C23_rows.

Theorem C23_ttotdev x rate taus ms : 0 < rate -> admissible_if (fun m => 3 * m <= len x)%nat (len x) rate taus ms ->
  let dev := fun m => sqrt ((INR m * (1 / rate)) ^ 2 / 3 * mtotvar x (1 / rate) m) in
  ttotdev x rate "phase" taus = report rate ms dev (plain_err dev (mdev_n x)) (mdev_n x).
Proof. exact (ttotdev_spec x rate taus ms). Qed.
Print Assumptions C23_ttotdev.

Example C23_ex : exists e, ttotdev bump 1 "phase" (TArr [2]) =
  Ok ([INR 2 / 1], [sqrt ((INR 2 * (1 / 1)) ^ 2 / 3 * mtotvar bump (1 / 1) 2)], EArr e, [5%Z]).
Proof.
  eexists. rewrite (C23_ttotdev _ _ _ [2%nat]); [|lra|apply adm_2; cbn; lia].
  cbv zeta. rewrite report_single by (cbn; lia). reflexivity.
Qed.

(** ** C24 *)
Theorem C24_htotdev x rate taus ms : 0 < rate ->
  let f := freq_of x rate in
  admissible_if (fun m => 3 * m <= len x - 1)%nat (len x - 1) rate taus ms ->
  htotdev x rate "phase" taus =
  report rate ms (htot_dev x f rate) (plain_err (htot_dev x f rate) (htot_cnt x f)) (htot_cnt x f).
Proof. exact (htotdev_spec x rate taus ms). Qed.
Print Assumptions C24_htotdev.

(** frequency input: the phase record is the plain integral, the frequencies are the data *)
Theorem C24_htotdev_freq y rate taus ms : 0 < rate -> y <> [] ->
  let x := integrated y rate in
  admissible_if (fun m => 3 * m <= len y)%nat (len y) rate taus ms ->
  htotdev y rate "freq" taus =
  report rate ms (htot_dev x y rate) (plain_err (htot_dev x y rate) (htot_cnt x y)) (htot_cnt x y).
Proof.
  intros Hr Hy x Ha. rewrite htotdev_freq_input by assumption.
  assert (Hl : (len x - 1)%nat = len y) by (unfold x; rewrite integrated_len; lia).
  pose proof (htotdev_spec x rate taus ms Hr) as H. cbv zeta in H. rewrite Hl in H. specialize (H Ha).
  assert (Hf : freq_of x rate = y) by (unfold x; apply freq_of_integrated; lra).
  rewrite Hf in H. exact H.
Qed.
Print Assumptions C24_htotdev_freq.

Example C24_ex : exists e, htotdev bump 1 "phase" (TArr [2]) =
  Ok ([INR 2 / 1], [sqrt (htotvar_freq [0; 0; 1; -1; 0; 0; 0; 0; 0] 2)], EArr e, [4%Z]).
Proof.
  eexists. rewrite (C24_htotdev _ _ _ [2%nat]); [|lra|apply adm_2; cbn; lia].
  rewrite report_single by (cbn; lia).
  replace (freq_of bump 1) with [0; 0; 1; -1; 0; 0; 0; 0; 0]; [reflexivity|].
  unfold freq_of. cbn. repeat (apply f_equal2; [lra|]). reflexivity.
Qed.

(** ** C25 *)
Theorem C25_theo1 x rate taus ms : 0 < rate ->
  admissible_if (fun m => Nat.even m = true) (len x) rate taus ms ->
  let dev := fun m => sqrt (theo1var x (1 / rate) m) in
  theo1 x rate "phase" taus =
  report rate ms dev (fun m => dev m / sqrt (IZR (tie_n x m))) (theo1_n x).
Proof. exact (theo1_spec x rate taus ms). Qed.
Print Assumptions C25_theo1.

Example C25_ex : exists e, theo1 [0; 1; 4; 9; 16] 1 "phase" (TArr [2]) =
  Ok ([INR 2 / 1], [sqrt (4 / 3)], EArr e, [3%Z]).
Proof.
  eexists. rewrite (C25_theo1 _ _ _ [2%nat]); [|lra|apply adm_2; [cbn; lia|reflexivity]].
  cbv zeta. rewrite report_single by (cbn; lia). do 3 f_equal. f_equal. f_equal. f_equal.
  unfold theo1var. cbn. field.
Qed.

(** ** C26 *)
Theorem C26_tierms x rate taus ms : 0 < rate -> admissible (len x) rate taus ms ->
  tierms x rate "phase" taus =
  report rate ms (fun m => sqrt (tierms_var x m)) (fun _ => 0) (tie_n x).
Proof. exact (tierms_spec x rate taus ms). Qed.
Print Assumptions C26_tierms.

Example C26_ex : tierms [0; 1; 4; 9; 16] 1 "phase" (TArr [2]) =
  Ok ([INR 2 / 1], [sqrt ((16 + 64 + 144) / 3)], EArr [0], [3%Z]).
Proof.
  rewrite (C26_tierms _ _ _ [2%nat]); [|lra|apply adm_2; [cbn; lia|exact I]].
  rewrite report_single by (cbn; lia). do 3 f_equal. f_equal. f_equal. f_equal.
  unfold tierms_var. cbn. field.
Qed.

(** ** C27 *)
Theorem C27_mtie x rate taus ms : 0 < rate -> admissible (len x) rate taus ms ->
  exists dev, (forall m, In m ms -> is_mtie x m (dev m)) /\
  mtie x rate "phase" taus = report rate ms dev (plain_err dev (tie_n x)) (tie_n x).
Proof.
  intros Hr Ha. exists (mtie_val x).
  assert (H : forall m, In m ms -> is_mtie x m (mtie_val x m)).
  { intros m Hm. destruct Ha as (_ & _ & Hi). apply Hi in Hm as (Hb & _). now apply mtie_val_is. }
  split; [exact H|]. now apply mtie_spec.
Qed.
Print Assumptions C27_mtie.

(** the largest excursion is unique, so [dev] is determined *)
Theorem C27_unique x m d d' : is_mtie x m d -> is_mtie x m d' -> d = d'.
Proof. exact (is_mtie_unique x m d d'). Qed.
Print Assumptions C27_unique.

(** the try block never raises for an admissible factor *)
Theorem C27_no_fallback (x : list R) m : (1 <= m < len x)%nat -> exists v, mtie_try x m = Ok v.
Proof. intros H. eexists. now apply mtie_try_spec. Qed.
Print Assumptions C27_no_fallback.

Example C27_ex : exists e, mtie [0; 1; 4; 9; 7] 1 "phase" (TArr [2]) = Ok ([INR 2 / 1], [8], EArr e, [3%Z]).
Proof.
  eexists. rewrite (mtie_spec _ 1 _ [2%nat]) with (dev := fun _ => 8); [|lra|apply adm_2; [cbn; lia|exact I]|].
  - rewrite report_single by (cbn; lia). reflexivity.
  - intros m [<-|[]]. split.
    + intros j k Hj Hk H1 H2. cbn [len] in *.
      destruct j as [|[|[|[|[|]]]]]; try lia; destruct k as [|[|[|[|[|]]]]]; try lia; cbn; lra.
    + exists 3%nat, 1%nat. cbn. repeat split; try lia. lra.
Qed.

(** ** C28 *)
Theorem C28_gcodev x y rate taus ms : 0 < rate -> len y = len x ->
  admissible (len x) rate taus ms ->
  let dev := fun m => sqrt (Rabs (ocov x y (1 / rate) m)) in
  let cnt := fun m => Z.of_nat (oadev_n x m) in
  gcodev x y rate "phase" taus = report rate ms dev (plain_err dev cnt) cnt.
Proof. exact (gcodev_spec x y rate taus ms). Qed.
Print Assumptions C28_gcodev.

(** Records of different lengths: as soon as some requested factor leaves two
    terms in both, the products of the differences cannot be formed. *)
Lemma bmap2_cases {B C D} (g : B -> C -> D) a b : (exists l, bmap2 g a b = Ok l) \/ bmap2 g a b = Err ValueError.
Proof.
  unfold bmap2. destruct (Nat.eqb _ _); [eauto|].
  destruct a as [|x [|x' a]], b as [|y [|y' b]]; eauto.
Qed.
Lemma second_diff_cases (n : nat) (d2 d1 d0 : list R) : (exists l, second_diff n d2 d1 d0 = Ok l) \/ second_diff n d2 d1 d0 = Err ValueError.
Proof.
  unfold second_diff, vsub, vadd. destruct (bmap2_cases nsub (firstn n d2) (scal (ofZ 2) (firstn n d1))) as [[l ->]| ->]; cbn [bind]; [|auto].
  apply bmap2_cases.
Qed.
Lemma calc_gcodev_cases (x y : list R) rate m : (exists r, calc_gcodev_phase x y rate m 1 = Ok r) \/ calc_gcodev_phase x y rate m 1 = Err ValueError.
Proof.
  unfold calc_gcodev_phase. cbn [pystride bind]. cbv zeta.
  match goal with |- context [second_diff ?n ?a ?b ?c] => destruct (second_diff_cases n a b c) as [[l ->]| ->] end; cbn [bind]; [|auto].
  match goal with |- context [second_diff ?n ?a ?b ?c] => destruct (second_diff_cases n a b c) as [[l' ->]| ->] end; cbn [bind]; [|auto].
  unfold vmul. destruct (bmap2_cases nmul l l') as [[p ->]| ->]; cbn [bind]; eauto.
Qed.
Lemma second_diff_full (x : list R) m n : n = (len x - 2 * m)%nat -> exists l, len l = n /\
  second_diff n (everyk 0 0 (skipn (2 * m) x)) (everyk 0 0 (skipn (1 * m) x)) (everyk 0 0 (skipn 0 x)) = Ok l.
Proof.
  intros ->. assert (E : forall a, Ok (everyk 0 0 (skipn a x)) = pystride a 1 x) by reflexivity.
  assert (F : forall a, everyk 0 0 (skipn a x) = tab (len x - a) (fun i => x.[a + i])).
  { intros a. specialize (E a). rewrite (list_tab x 0) in E at 2. rewrite pystride_tab, stride_count_1 in E by lia. injection E as ->.
    apply tab_ext. intros i _. f_equal. lia. }
  rewrite !F. unfold second_diff, scal. rewrite !firstn_tab, map_tab. unfold vsub. rewrite !Nat.min_l by lia. rewrite bmap2_tab. cbn [bind].
  unfold vadd. rewrite bmap2_tab. eexists. split; [|reflexivity]. apply tab_length.
Qed.
Lemma calc_gcodev_mismatch (x y : list R) rate m : len x <> len y -> (2 * m + 2 <= len x)%nat -> (2 * m + 2 <= len y)%nat ->
  calc_gcodev_phase x y rate m 1 = Err ValueError.
Proof.
  intros Hl Hx Hy. unfold calc_gcodev_phase. cbn [pystride bind]. cbv zeta.
  assert (C : forall (z : list R) a, len (everyk 0 0 (skipn a z)) = (len z - a)%nat).
  { intros z a. assert (E : Ok (everyk 0 0 (skipn a z)) = pystride a 1 z) by reflexivity.
    rewrite (list_tab z 0) in E at 2. rewrite pystride_tab, stride_count_1 in E by lia. injection E as ->. apply tab_length. }
  rewrite !C. rewrite !(min3_eq _) by lia.
  destruct (second_diff_full x m (len x - 2 * m) eq_refl) as (l & Hl1 & El).
  destruct (second_diff_full y m (len y - 2 * m) eq_refl) as (l' & Hl2 & El').
  destruct (Nat.eqb_spec (len x - 2 * m) 0); [lia|].
  rewrite El. cbn [bind]. rewrite El'. cbn [bind]. unfold vmul, bmap2. rewrite Hl1, Hl2.
  destruct (Nat.eqb_spec (len x - 2 * m) (len y - 2 * m)); [lia|].
  destruct l as [|a [|b l]]; cbn in Hl1; try lia. destruct l' as [|a' [|b' l']]; cbn in Hl2; try lia. reflexivity.
Qed.
Theorem C28_unequal (x y : list R) rate taus ms m : 0 < rate -> len x <> len y -> valid_request (len x) taus ->
  admissible (len y) rate taus ms -> In m ms -> (2 * m + 2 <= len x)%nat -> (2 * m + 2 <= len y)%nat ->
  gcodev x y rate "phase" taus = Err ValueError.
Proof.
  intros Hr Hl Hv Ha Hm Hx Hy. destruct (C14_admissible_exists (fun _ => true) (len x) rate taus ltac:(lra) Hv) as [ms' Hms'].
  apply (adm_any (len x)) in Hms'. unfold gcodev. rewrite !input_phase. cbn [bind]. change (ofZ (-1)) with (IZR (-1)).
  rewrite (tau_generator_default x rate taus ms') by (auto; lra). cbn [bind].
  rewrite (tau_generator_default y rate taus ms) by (auto; lra). cbn [bind]. unfold run_rows.
  assert (E : mapM (fun mj => calc_gcodev_phase x y rate (Z.to_nat mj) 1) (map Z.of_nat ms) = Err ValueError); [|now rewrite E].
  clear Ha Hms'. revert Hm. induction ms as [|k ms IH]; cbn [In map mapM]; [tauto|]. rewrite Nat2Z.id.
  intros [ -> |Hm]; [now rewrite calc_gcodev_mismatch|].
  destruct (calc_gcodev_cases x y rate k) as [[r ->]| ->]; cbn [bind]; [|reflexivity]. now rewrite IH.
Qed.
Print Assumptions C28_unequal.
Example C28_ex_unequal : gcodev [0; 1; 4; 9; 16; 25] [0; 1; 4; 9; 16] 1 "phase" (TArr [INR 1 / 1]) = Err ValueError.
Proof.
  eapply (C28_unequal _ _ _ _ [1%nat] 1); [lra|discriminate|exact I|apply adm_single; [lra|cbn; lia]|now left|cbn; lia|cbn; lia].
Qed.

Example C28_ex : exists e, gcodev [0; 1; 4; 9; 16; 25] [0; 0; 0; 0; 1; 0] 1 "phase" (TArr [2]) =
  Ok ([INR 2 / 1], [sqrt (1 / 2)], EArr e, [2%Z]).
Proof.
  eexists. rewrite (C28_gcodev _ _ _ _ [2%nat]); [|lra|reflexivity|apply adm_2; [cbn; lia|exact I]].
  cbv zeta. rewrite report_single by (cbn; lia). do 3 f_equal. f_equal. f_equal. f_equal.
  replace (ocov [0; 1; 4; 9; 16; 25] [0; 0; 0; 0; 1; 0] (1 / 1) 2) with (1/2) by (unfold ocov, oadev_n, d2; cbn; field).
  apply Rabs_pos_eq. lra.
Qed.
