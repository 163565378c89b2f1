(** * Properties C09, C30, C40, C41: tau_reduction, mtie_phase_fast and the
    three-cornered hat. *)
From Coq Require Import String Reals List ZArith Lra Lia Arith Bool Sorted.
From Verif Require Import Base Num NpList ModelCore ModelDev ModelMisc NumR ListFacts Spec RSum TauProofs DevProofs TotProofs
  GenericProofs Closed Laws Laws2 Laws3 Laws4 MiscProofs.
Import ListNotations.
Local Open Scope R_scope.
Local Notation len := List.length.

(** ** C09 *)
(** [z] is n*log10(m) rounded half to even *)
Definition log_bin (n m z : Z) : Prop := half_even (IZR n * (ln (IZR m) / ln 10)) z.

(** the number of elements of [l] in [10^k, 10^(k+1)) *)
Definition decade_count (k : nat) (l : list Z) : nat :=
  len (filter (fun m => ((10 ^ Z.of_nat k <=? m) && (m <? 10 ^ Z.of_nat (S k)))%Z%bool) l).

(** On the full list 1..K, m is kept iff m < K and the bins of m and m+1
    differ; at most n elements are kept in any decade. *)
Theorem C09_full_list K rate n : (0 <= n)%Z -> exists out,
  tau_reduction log10R (map Z.of_nat (seq 1 K)) rate n = Ok (out, map (fun m => IZR m / rate) out) /\
  StronglySorted Z.lt out /\
  (forall m, In m out <-> (1 <= m < Z.of_nat K)%Z /\ exists u v, log_bin n m u /\ log_bin n (m + 1) v /\ u <> v) /\
  (forall k, (decade_count k out <= Z.to_nat n)%nat).
Proof.
  intros Hn. eexists. split; [apply tau_reduction_kept|]. split; [|split].
  - apply kept_general; [exact Hn|apply ofnat_seq_sorted|].
    intros m Hm. apply in_map_iff in Hm as (j & <- & Hj). apply in_seq in Hj. lia.
  - intros m. rewrite kept_full_in. split.
    + intros [H1 H2]. split; [exact H1|]. exists (rbin n m), (rbin n (m + 1)).
      split; [apply rintR_spec|]. split; [apply rintR_spec|exact H2].
    + intros [H1 (u & v & Hu & Hv & Hne)]. split; [exact H1|].
      unfold rbin, log10R. rewrite (proj2 (rintR_iff _ u) Hu), (proj2 (rintR_iff _ v) Hv). exact Hne.
  - intros k. now apply kept_full_decade.
Qed.
Print Assumptions C09_full_list.

(** Any strictly increasing list of positive factors: a strictly increasing
    sub-list without the last element, at most n+1 per decade. *)
Theorem C09_any_list ms rate n : (0 <= n)%Z -> StronglySorted Z.lt ms -> (forall m, In m ms -> (1 <= m)%Z) ->
  exists out,
  tau_reduction log10R ms rate n = Ok (out, map (fun m => IZR m / rate) out) /\
  StronglySorted Z.lt out /\ (forall m, In m out -> In m (removelast ms)) /\
  (forall k, (decade_count k out <= Z.to_nat (n + 1))%nat).
Proof.
  intros Hn Hs Hp. eexists. split; [apply tau_reduction_kept|]. now apply kept_general.
Qed.
Print Assumptions C09_any_list.

Lemma rbin_19 : rbin 1 1 = 0%Z /\ rbin 1 9 = 1%Z /\ rbin 1 100 = 2%Z /\ rbin 1 2 = 0%Z /\ rbin 1 3 = 0%Z /\ rbin 1 4 = 1%Z.
Proof.
  pose proof ln10_pos as H10.
  assert (Hb : forall m z, IZR z - 1/2 < ln (IZR m) / ln 10 < IZR z + 1/2 -> rbin 1 m = z).
  { intros m z H. unfold rbin, log10R. apply rintR_iff. left. rewrite Rmult_1_l. apply Rabs_def1; lra. }
  assert (Hdiv : forall x lo hi, lo * ln 10 < x < hi * ln 10 -> lo < x / ln 10 < hi).
  { intros x lo hi [H1 H2]. split.
    - apply (Rmult_lt_reg_r (ln 10)); [exact H10|]. unfold Rdiv. rewrite Rmult_assoc, Rinv_l by lra. lra.
    - apply (Rmult_lt_reg_r (ln 10)); [exact H10|]. unfold Rdiv. rewrite Rmult_assoc, Rinv_l by lra. lra. }
  assert (L9 : ln 10 < 2 * ln 9 /\ ln 9 < ln 10).
  { split; [|apply ln_increasing; lra]. replace (2 * ln 9) with (ln 9 + ln 9) by ring. rewrite <- ln_mult by lra. apply ln_increasing; lra. }
  assert (L100 : ln 100 = 2 * ln 10).
  { replace 100 with (10 * 10) by ring. rewrite ln_mult by lra. ring. }
  assert (L3 : 0 < ln 2 /\ ln 2 < ln 3 /\ 2 * ln 3 < ln 10).
  { split; [rewrite <- ln_1; apply ln_increasing; lra|]. split; [apply ln_increasing; lra|].
    replace (2 * ln 3) with (ln 3 + ln 3) by ring. rewrite <- ln_mult by lra. apply ln_increasing; lra. }
  assert (L4 : ln 10 < 2 * ln 4 /\ ln 4 < ln 10).
  { split; [|apply ln_increasing; lra]. replace (2 * ln 4) with (ln 4 + ln 4) by ring. rewrite <- ln_mult by lra. apply ln_increasing; lra. }
  repeat split; apply Hb, Hdiv; rewrite ?ln_1; lra.
Qed.

(** n+1 elements in one decade do occur: [1; 9] of [1; 9; 100] with n = 1. *)
Theorem C09_sparse_list_refuted : exists ms rate n out, StronglySorted Z.lt ms /\ (forall m, In m ms -> (1 <= m)%Z) /\ (1 <= n)%Z /\
  tau_reduction log10R ms rate n = Ok (out, map (fun m => IZR m / rate) out) /\
  (decade_count 0 out > Z.to_nat n)%nat.
Proof.
  exists [1; 9; 100]%Z, 1, 1%Z, [1; 9]%Z. split; [|split; [|split; [lia|split]]].
  - repeat constructor; lia.
  - cbn. intros m [<-|[<-|[<-|[]]]]; lia.
  - rewrite tau_reduction_kept. destruct rbin_19 as (E1 & E9 & E100 & _). cbn [kept]. rewrite E1, E9, E100. reflexivity.
  - cbv. lia.
Qed.
Print Assumptions C09_sparse_list_refuted.

Example C09_ex : tau_reduction log10R (map Z.of_nat (seq 1 4)) 2 1 = Ok ([3%Z], [3 / 2]).
Proof.
  rewrite tau_reduction_kept. destruct rbin_19 as (E1 & _ & _ & E2 & E3 & E4).
  cbn [seq map kept Z.of_nat Pos.of_succ_nat Pos.succ]. rewrite E1, E2, E3, E4. reflexivity.
Qed.

(** ** C30 *)
(** K = floor(log2 N), N >= 4.  Row k (1 <= k < K) has tau 2^(k-1), n = 2^K-2^k+1
    and is mtie of the first 2^K points at factor 2^k-1, whatever the rate of
    that mtie call. *)
Theorem C30_mtie_phase_fast (x : list R) rate dt taus K : (2 <= K)%nat -> (2 ^ K <= len x < 2 ^ S K)%nat ->
  let y := firstn (2 ^ K) x in let ks := seq 1 (K - 1) in
  exists dev,
  mtie_phase_fast x rate dt taus =
   Ok (map (fun k => INR (2 ^ (k - 1))) ks, map dev ks, EArr (map (fun _ => 0) ks),
       map (fun k => Z.of_nat (2 ^ K - 2 ^ k + 1)) ks) /\
  forall k, (1 <= k < K)%nat -> is_mtie y (2 ^ k - 1) (dev k) /\
    forall r, 0 < r -> exists e,
    mtie y r "phase" (TList [INR (2 ^ k - 1) / r]) =
      Ok ([INR (2 ^ k - 1) / r], [dev k], e, [Z.of_nat (2 ^ K - 2 ^ k + 1)]).
Proof.
  intros HK Hl y ks. destruct (mtie_fast_spec x rate dt taus K Hl HK) as (dev & Hd & He).
  exists dev. split; [exact He|]. intros k Hk.
  assert (Hi : is_mtie y (2 ^ k - 1) (dev k)) by (apply Hd, in_seq; lia).
  split; [exact Hi|]. intros r Hr. eexists.
  assert (Hy : len y = (2 ^ K)%nat) by (unfold y; rewrite firstn_length; lia).
  assert (H2 : (2 * 2 ^ k <= 2 ^ K)%nat) by (change (2 ^ S k <= 2 ^ K)%nat; apply Nat.pow_le_mono_r; lia).
  assert (H1 : (2 <= 2 ^ k)%nat) by (change 2%nat with (2 ^ 1)%nat at 1; apply Nat.pow_le_mono_r; lia).
  assert (Ht : tie_n y (2 ^ k - 1) = Z.of_nat (2 ^ K - 2 ^ k + 1)) by (unfold tie_n; rewrite Hy; lia).
  rewrite (mtie_spec y r _ [(2 ^ k - 1)%nat] Hr (adm_single (len y) r (2 ^ k - 1) Hr ltac:(rewrite Hy; lia)) (fun _ => dev k)).
  - rewrite report_single by (rewrite Ht; lia). rewrite Ht. reflexivity.
  - intros m [<-|[]]. exact Hi.
Qed.
Print Assumptions C30_mtie_phase_fast.

(** the first row is right: mtie at tau = 1 (rate 1) of the truncated record *)
Theorem C30_first_row (x : list R) rate dt taus K : (2 <= K)%nat -> (2 ^ K <= len x < 2 ^ S K)%nat ->
  exists d ts ds es ns e n, mtie_phase_fast x rate dt taus = Ok (1 :: ts, d :: ds, es, n :: ns) /\
    mtie (firstn (2 ^ K) x) 1 "phase" (TList [1]) = Ok ([1], [d], e, [n]).
Proof.
  intros HK Hl. destruct (C30_mtie_phase_fast x rate dt taus K HK Hl) as (dev & He & Hk). cbv zeta in He, Hk.
  destruct (Hk 1%nat ltac:(lia)) as (_ & H1). destruct (H1 1 ltac:(lra)) as (e & H).
  replace (K - 1)%nat with (S (K - 2)) in He by lia. cbn [seq map] in He. rewrite He.
  replace (INR (2 ^ 1 - 1) / 1) with 1 in H by (cbn; field). 
  do 7 eexists. split; [reflexivity|exact H].
Qed.
Print Assumptions C30_first_row.

(** the second row is not mtie at its tau *)
Theorem C30_tau_label_refuted : exists (x : list R) t1 d1 d2 e1 n1 n2 e m2 d2',
  mtie_phase_fast x 1 "phase" TNone = Ok ([t1; 2], [d1; d2], EArr e1, [n1; n2]) /\
  mtie x 1 "phase" (TList [2]) = Ok ([2], [d2'], EArr e, m2) /\ d2 <> d2'.
Proof.
  set (x := [0; 1; 2; 3; 4; 5; 6; 7]).
  destruct (C30_mtie_phase_fast x 1 "phase" TNone 3 ltac:(lia) ltac:(cbn; lia)) as (dev & He & Hk). cbv zeta in He, Hk.
  destruct (Hk 2%nat ltac:(lia)) as (H2 & _).
  assert (E3 : dev 2%nat = 3).
  { apply (is_mtie_unique x (2 ^ 2 - 1)); [exact H2|]. split.
    - intros j k Hj Hk' H1 H3. cbn [len x] in *.
      destruct j as [|[|[|[|[|[|[|[|]]]]]]]]; try lia; destruct k as [|[|[|[|[|[|[|[|]]]]]]]]; cbn in *; try lia; lra.
    - exists 3%nat, 0%nat. cbn. repeat split; try lia. lra. }
  replace 2 with (INR 2 / 1) by (cbn; field).
  do 10 eexists. split; [|split].
  - rewrite He. cbn [seq map Nat.sub]. rewrite E3. replace (INR 2 / 1) with (INR (2 ^ (2 - 1))) by (cbn; field). reflexivity.
  - rewrite (mtie_spec x 1 _ [2%nat] ltac:(lra) (adm_single (len x) 1 2 ltac:(lra) ltac:(cbn; lia)) (fun _ => 2)).
    + rewrite report_single by (cbn; lia). reflexivity.
    + intros m [<-|[]]. split.
      * intros j k Hj Hk' H1 H3. cbn [len x] in *.
        destruct j as [|[|[|[|[|[|[|[|]]]]]]]]; try lia; destruct k as [|[|[|[|[|[|[|[|]]]]]]]]; cbn in *; try lia; lra.
      * exists 2%nat, 0%nat. cbn. repeat split; try lia. lra.
  - lra.
Qed.
Print Assumptions C30_tau_label_refuted.

(** records that are too short *)
Theorem C30_short (x : list R) rate dt taus : (len x < 4)%nat ->
  mtie_phase_fast x rate dt taus = Err (if Nat.eqb (len x) 0 then OverflowError else UserWarning).
Proof. exact (mtie_fast_short x rate dt taus). Qed.
Print Assumptions C30_short.

Example C30_ex : mtie_phase_fast [0; 3; 1; 7; 100] 5 "freq" (TStr "all") = Ok ([1], [6], EArr [0], [3%Z]).
Proof.
  destruct (C30_mtie_phase_fast [0; 3; 1; 7; 100] 5 "freq" (TStr "all") 2 ltac:(lia) ltac:(cbn; lia)) as (dev & He & Hk).
  cbv zeta in He, Hk. rewrite He. cbn [seq map Nat.sub]. destruct (Hk 1%nat ltac:(lia)) as (H & _).
  replace (dev 1%nat) with 6; [reflexivity|]. eapply is_mtie_unique; [|exact H]. split.
  - intros j k Hj Hk' H1 H3. cbn [len firstn Nat.pow Nat.add Nat.mul] in *.
    destruct j as [|[|[|[|]]]]; try lia; destruct k as [|[|[|[|]]]]; cbn in *; try lia; lra.
  - exists 3%nat, 2%nat. cbn. repeat split; try lia. lra.
Qed.

(** ** C40 *)
(** [function] is any deviation function; the three runs return the same
    number of rows. *)
Theorem C40_general (ab bc ca : list R) rate taus function t dab eab nab tbc dbc ebc nbc tca dca eca nca :
  function ab rate "phase"%string taus = Ok (t, dab, eab, nab) ->
  function bc rate "phase"%string taus = Ok (tbc, dbc, ebc, nbc) ->
  function ca rate "phase"%string taus = Ok (tca, dca, eca, nca) ->
  len dbc = len dab -> len dca = len dab -> len nab = len dab ->
  exists dev err, three_cornered_hat_phase ab bc ca rate taus function = Ok (t, dev, EArr err, nab) /\
    len dev = len dab /\ len err = len dab /\
    forall i, (i < len dab)%nat ->
      dev.[i] = sqrt (Rmax 0 ((dab.[i] ^ 2 + dca.[i] ^ 2 - dbc.[i] ^ 2) / 2)) /\ 0 <= dev.[i] /\
      err.[i] = dev.[i] / sqrt (IZR (nth i nab 0%Z)).
Proof.
  intros H1 H2 H3 L2 L3 Ln. do 2 eexists. split; [apply (tch_spec _ _ _ _ _ _ _ _ _ _ _ _ _ _ _ _ _ _ H1 H2 H3 L2 L3)|].
  set (dev := tab _ _).
  assert (Ld : len dev = len dab) by apply tab_length.
  split; [exact Ld|]. split; [rewrite map2_length, Ld, Ln; apply Nat.min_id|].
  intros i Hi. assert (E : dev.[i] = hat dab.[i] dbc.[i] dca.[i]) by (unfold dev; now rewrite nth_tab).
  split; [exact E|]. split; [rewrite E; apply sqrt_pos|].
  rewrite (list_tab dev 0), (list_tab nab 0%Z), Ld, Ln, map2_tab. now rewrite !nth_tab by exact Hi.
Qed.
Print Assumptions C40_general.

(** if the three variances really are a+b, b+c, c+a then sqrt(a) comes back *)
Theorem C40_inverts (ab bc ca : list R) rate taus function t dab eab nab tbc dbc ebc nbc tca dca eca nca a b c :
  function ab rate "phase"%string taus = Ok (t, dab, eab, nab) ->
  function bc rate "phase"%string taus = Ok (tbc, dbc, ebc, nbc) ->
  function ca rate "phase"%string taus = Ok (tca, dca, eca, nca) ->
  len dbc = len dab -> len dca = len dab -> len nab = len dab ->
  (forall i, (i < len dab)%nat -> 0 <= a i /\ dab.[i] ^ 2 = a i + b i /\ dbc.[i] ^ 2 = b i + c i /\ dca.[i] ^ 2 = c i + a i) ->
  exists err, three_cornered_hat_phase ab bc ca rate taus function =
    Ok (t, map (fun i => sqrt (a i)) (seq 0 (len dab)), EArr err, nab).
Proof.
  intros H1 H2 H3 L2 L3 Ln Ha. eexists. rewrite (tch_spec _ _ _ _ _ _ _ _ _ _ _ _ _ _ _ _ _ _ H1 H2 H3 L2 L3).
  do 3 f_equal. f_equal. apply tab_ext. intros i Hi. destruct (Ha i Hi) as (Hp & E1 & E2 & E3).
  unfold hat. rewrite E1, E2, E3. replace ((a i + b i + (c i + a i) - (b i + c i)) / 2) with (a i) by field.
  rewrite Rmax_right; auto.
Qed.
Print Assumptions C40_inverts.

Theorem C40_unequal_lengths (ab bc ca : list R) rate taus function t dab eab nab tbc dbc ebc nbc tca dca eca nca :
  function ab rate "phase"%string taus = Ok (t, dab, eab, nab) ->
  function bc rate "phase"%string taus = Ok (tbc, dbc, ebc, nbc) ->
  function ca rate "phase"%string taus = Ok (tca, dca, eca, nca) ->
  ~ (len dbc = len dab /\ len dca = len dab) ->
  three_cornered_hat_phase ab bc ca rate taus function = Err AssertionError.
Proof. exact (tch_unequal ab bc ca rate taus function t dab eab nab tbc dbc ebc nbc tca dca eca nca). Qed.
Print Assumptions C40_unequal_lengths.

Example C40_ex :
  let f (x : list R) (_ : R) (_ : string) (_ : taus_arg R) := Ok ([1; 2], x, EArr x, [9; 4]%Z) in
  three_cornered_hat_phase [5; 1] [5; 3] [4; 1] 1 TNone f = Ok ([1; 2], [sqrt 8; 0], EArr [sqrt 8 / 3; 0], [9; 4]%Z).
Proof.
  intros f. rewrite (tch_spec _ _ _ 1 TNone f _ _ _ _ _ _ _ _ _ _ _ _ eq_refl eq_refl eq_refl) by reflexivity.
  cbn [len tab seq map nth map2]. unfold hat.
  rewrite !Rmax_right, !Rmax_left by lra.
  replace ((5 ^ 2 + 4 ^ 2 - 5 ^ 2) / 2) with 8 by field. rewrite sqrt_0.
  replace (sqrt 9) with 3 by (symmetry; replace 9 with (3 * 3) by ring; apply sqrt_square; lra).
  replace (0 / sqrt 4) with 0 by (unfold Rdiv; ring). reflexivity.
Qed.

(** ** C41 *)
Theorem C41_closed_loop (ab bc ca : list R) rate taus ms : 0 < rate ->
  len bc = len ab -> len ca = len ab -> (forall i, (i < len ab)%nat -> ab.[i] + bc.[i] + ca.[i] = 0) ->
  admissible (len ab) rate taus ms ->
  let dev := fun m => sqrt (Rmax 0 (- ocov ab ca (1 / rate) m)) in
  let cnt := fun m => Z.of_nat (oadev_n ab m) in
  three_cornered_hat_phase ab bc ca rate taus oadev = report rate ms dev (plain_err dev cnt) cnt.
Proof.
  intros Hr L1 L2 HL Hms dev cnt.
  destruct (tch_oadev ab bc ca rate taus Hr ltac:(repeat split; assumption)) as [(e & H & Ht)|(ms' & Hms' & Ht)].
  - rewrite Ht. rewrite (oadev_spec ab rate taus ms Hr Hms) in H. cbv zeta in H. unfold report in *. fold cnt in H.
    destruct (filter _ ms); [congruence|discriminate].
  - rewrite Ht. cbv zeta. fold dev cnt. now rewrite (admissible_unique _ _ _ _ ms ms' Hms Hms').
Qed.
Print Assumptions C41_closed_loop.

(** hence gcodev(AB, CA) when all covariances asked for are <= 0 *)
Theorem C41_equals_gcodev (ab bc ca : list R) rate taus ms : 0 < rate ->
  len bc = len ab -> len ca = len ab -> (forall i, (i < len ab)%nat -> ab.[i] + bc.[i] + ca.[i] = 0) ->
  admissible (len ab) rate taus ms -> (forall m, In m ms -> ocov ab ca (1 / rate) m <= 0) ->
  three_cornered_hat_phase ab bc ca rate taus oadev = gcodev ab ca rate "phase" taus.
Proof.
  intros Hr L1 L2 HL Hms Hc. rewrite (C41_closed_loop ab bc ca rate taus ms) by assumption.
  rewrite (gcodev_spec ab ca rate taus ms) by assumption. cbv zeta. apply report_ext; [reflexivity|].
  intros m Hm _. unfold plain_err. rewrite Rmax_right by (specialize (Hc m Hm); lra).
  rewrite Rabs_left1 by (apply Hc, Hm). auto.
Qed.
Print Assumptions C41_equals_gcodev.

Example C41_ex : exists e, three_cornered_hat_phase [0; 0; 0; 1; 0; 0] [0; 0; 0; 0; 0; 0] [0; 0; 0; -1; 0; 0] 1 (TList [INR 2 / 1]) oadev =
  Ok ([INR 2 / 1], [1 / 2], EArr e, [2%Z]).
Proof.
  eexists. rewrite (C41_closed_loop _ _ _ 1 _ [2%nat]).
  - cbv zeta. rewrite report_single by (cbn; lia). do 3 f_equal. f_equal. f_equal.
    replace (ocov [0; 0; 0; 1; 0; 0] [0; 0; 0; -1; 0; 0] (1 / 1) 2) with (- (1/4)) by (unfold ocov, oadev_n, d2; cbn; field).
    rewrite Rmax_right by lra. replace (- - (1/4)) with ((1/2) * (1/2)) by field. apply sqrt_square. lra.
  - lra.
  - reflexivity.
  - reflexivity.
  - intros i Hi. cbn [len] in Hi. destruct i as [|[|[|[|[|[|]]]]]]; cbn; try lra; lia.
  - apply adm_single; [lra|cbn; lia].
Qed.
