(** * Conversions between phase and frequency records. *)
From Coq Require Import String Reals List ZArith Lra Lia Arith Bool Sorted.
From Verif Require Import Base Num NpList ModelCore ModelDev NumR ListFacts Spec RSum TauProofs DevProofs TotProofs GenericProofs Closed Laws Laws2 Laws3.
Import ListNotations.
Local Open Scope R_scope.
Local Notation len := List.length.

Lemma trim_R (x : list R) : x <> [] -> trim_data x = Ok x.
Proof.
  intros Hx. apply (trim_data_ok [] x [] 0); auto; try constructor. now rewrite app_nil_r.
Qed.

Lemma nanmean_R (x : list R) : nanmean x = average x.
Proof.
  unfold nanmean, mean, average. cbn [nisnan RNum negb].
  replace (filter (fun _ : R => true) x) with x by (induction x; cbn; congruence).
  rewrite asum_list, ofN_INR. reflexivity.
Qed.

Lemma cons_tab (a : R) n g : a = g 0%nat -> a :: tab n (fun i => g (S i)) = tab (S n) g.
Proof. intros ->. now rewrite tab_S. Qed.

Lemma frequency2phase_R f rate : f <> [] -> rate <> 0 ->
  frequency2phase f rate = Ok (tab (S (len f)) (fun i => bigsum i (fun k => f.[k] - average f) / rate)).
Proof.
  intros Hf Hr. unfold frequency2phase. rn. rewrite (proj2 (Reqb_false rate 0) Hr).
  rewrite trim_R by assumption. cbn [bind]. rewrite nanmean_R.
  set (mu := average f). clearbody mu.
  pose proof (list_tab f 0) as Hl. rewrite Hl at 1. rewrite map_tab, cumsum_tab, map_tab. f_equal.
  rewrite tab_S. f_equal.
  - cbn. field. exact Hr.
  - apply tab_ext. intros i Hi. field. exact Hr.
Qed.

Lemma integrated_len f rate : len (integrated f rate) = S (len f).
Proof. unfold integrated. now rewrite map_length, seq_length. Qed.
Lemma nth_integrated f rate i : (i <= len f)%nat -> (integrated f rate).[i] = bigsum i (fun k => f.[k]) / rate.
Proof. intros H. apply (nth_tab (S (len f)) (fun i => bigsum i (fun k => f.[k]) / rate)). lia. Qed.

Lemma frequency2phase_integrated f rate : f <> [] -> rate <> 0 ->
  frequency2phase f rate = Ok (shifted (line 0 (- average f / rate)) (integrated f rate)).
Proof.
  intros Hf Hr. rewrite frequency2phase_R by assumption. f_equal. unfold shifted.
  rewrite integrated_len. apply tab_ext. intros i Hi. rewrite nth_integrated by lia.
  rewrite bigsum_minus, bigsum_const. unfold line. field. exact Hr.
Qed.

Lemma bigsum_list_avg (f : list R) : f <> [] -> bigsum (len f) (fun k => f.[k]) = INR (len f) * average f.
Proof.
  intros Hf. unfold average. field. apply not_0_INR. destruct f; [contradiction|discriminate].
Qed.

Lemma roundtrip_freq f rate : f <> [] -> rate <> 0 -> exists x,
  frequency2phase f rate = Ok x /\ len x = S (len f) /\ x.[0] = 0 /\ x.[len f] = 0 /\
  phase2frequency x rate = map (fun v => v - average f) f.
Proof.
  intros Hf Hr. eexists. split; [apply frequency2phase_R; assumption|].
  rewrite tab_length, !nth_tab by lia. repeat split.
  - cbn. field. exact Hr.
  - rewrite bigsum_minus, bigsum_const, bigsum_list_avg by assumption. field. exact Hr.
  - rewrite phase2frequency_R. unfold freq_of. rewrite tab_length.
    transitivity (map (fun v => v - average f) (tab (len f) (fun i => f.[i]))).
    2:{ now rewrite <- (list_tab f 0). }
    rewrite map_tab.
    replace (S (len f) - 1)%nat with (len f) by lia. apply tab_ext. intros i Hi.
    rewrite !nth_tab by lia. rewrite Nat.add_1_r. cbn [bigsum]. field. exact Hr.
Qed.

Lemma bigsum_tele (x : list R) rate n : bigsum n (fun i => rate * (x.[i + 1] - x.[i])) = rate * (x.[n] - x.[0]).
Proof. induction n as [|n IH]; cbn; [ring|]. rewrite IH, Nat.add_1_r. ring. Qed.

Lemma bigsum_freq_of x rate n : (n <= len x - 1)%nat ->
  bigsum n (fun i => (freq_of x rate).[i]) = rate * (x.[n] - x.[0]).
Proof.
  intros H. rewrite <- bigsum_tele. apply bigsum_ext. intros i Hi.
  apply (nth_tab (len x - 1) (fun i => rate * (x.[i + 1] - x.[i]))). lia.
Qed.

Lemma roundtrip_phase x rate : (2 <= len x)%nat -> rate <> 0 ->
  frequency2phase (phase2frequency x rate) rate =
  Ok (map (fun i => x.[i] - (x.[0] + (x.[len x - 1] - x.[0]) * (INR i / INR (len x - 1)))) (seq 0 (len x))).
Proof.
  intros Hl Hr. rewrite phase2frequency_R. rewrite frequency2phase_R; [|intros E|exact Hr].
  2:{ apply (f_equal (@len R)) in E. rewrite freq_of_length in E. cbn in E. lia. }
  rewrite freq_of_length. replace (S (len x - 1)) with (len x) by lia. f_equal. apply tab_ext. intros i Hi.
  rewrite bigsum_minus, bigsum_const, bigsum_freq_of by lia.
  unfold average. rewrite freq_of_length, bigsum_freq_of by lia. field.
  split; [apply not_0_INR; lia|exact Hr].
Qed.

(** ** frequency input of the estimators *)
Lemma freq_input s y rate taus : In s line_blind -> s <> st_htotdev -> y <> [] -> 0 < rate ->
  s_fun s y rate "freq" taus = s_fun s (integrated y rate) rate "phase" taus.
Proof.
  intros Hs Hh Hy Hr. rewrite <- (line_invariant s 0 (- average y / rate)) by assumption.
  apply freq_is_phase.
  - revert Hs Hh. unfold line_blind, phase_devs. cbn. intuition (subst; cbn; tauto).
  - apply frequency2phase_integrated; [assumption|lra].
Qed.

Lemma freq_of_integrated y rate : rate <> 0 -> freq_of (integrated y rate) rate = y.
Proof.
  intros Hr. unfold freq_of. rewrite integrated_len. replace (S (len y) - 1)%nat with (len y) by lia.
  refine (eq_trans _ (eq_sym (list_tab y 0))). apply tab_ext. intros i Hi. rewrite !nth_integrated by lia.
  rewrite Nat.add_1_r. cbn [bigsum]. field. exact Hr.
Qed.

Lemma htotdev_freq_input y rate taus : y <> [] -> 0 < rate ->
  htotdev y rate "freq" taus = htotdev (integrated y rate) rate "phase" taus.
Proof.
  intros Hy Hr. unfold htotdev.
  change ("freq" =? "phase")%string with false. change ("freq" =? "freq")%string with true.
  change ("phase" =? "phase")%string with true.
  rewrite frequency2phase_integrated by (auto; lra). cbn [bind].
  rewrite phase2frequency_R, freq_of_integrated by lra.
  destruct (bad_exn (len y) taus) as [e|] eqn:E.
  - now rewrite (tau_default_bad _ _ _ e) by assumption.
  - apply bad_exn_valid in E.
    destruct (admissible_exists (third (len y)) (len y) rate taus ltac:(lra) E) as [ms Hms].
    apply adm_third in Hms. rewrite !(htot_rows _ _ _ _ ms) by assumption.
    apply report_ext; intros m Hm; unfold htot_cnt, htot_dev, plain_err; rewrite ?shifted_line_parabola.
    + unfold ohdev_n. now rewrite shifted_len.
    + intros _. rewrite ohvar_parabola. unfold htot_cnt, ohdev_n. now rewrite shifted_len.
Qed.

(** mtie and tierms see the removed mean *)
Lemma freq_phase y rate taus f : In f phase_devs -> y <> [] -> 0 < rate ->
  f y rate "freq"%string taus = f (shifted (line 0 (- average y / rate)) (integrated y rate)) rate "phase"%string taus.
Proof.
  intros Hf Hy Hr. apply freq_is_phase; [exact Hf|]. apply frequency2phase_integrated; [exact Hy|lra].
Qed.

Lemma tierms_single x rate m : 0 < rate -> (1 <= m)%nat -> (m + 2 <= len x)%nat ->
  tierms x rate "phase" (TList [INR m / rate]) =
  Ok ([INR m / rate], [sqrt (tierms_var x m)], EArr [0], [Z.of_nat (len x - m)]).
Proof.
  intros Hr Hm Hl. rewrite (tierms_spec x rate _ [m] Hr) by (apply adm_single; auto; lia).
  cbv zeta. rewrite report_single by (unfold tie_n; lia). unfold tie_n.
  rewrite <- Nat2Z.inj_sub by lia. reflexivity.
Qed.

Lemma mtie_freq_refuted : exists y rate taus, y <> [] /\ 0 < rate /\
  mtie y rate "freq" taus <> mtie (integrated y rate) rate "phase" taus.
Proof.
  exists [1; 1; 1], 1, (TList [INR 1 / 1]). split; [discriminate|]. split; [lra|].
  rewrite freq_phase; [|unfold phase_devs; cbn; tauto|discriminate|lra].
  rewrite (mtie_single _ 1 1 0), (mtie_single _ 1 1 1); rewrite ?shifted_len, ?integrated_len; cbn [len]; try lra; try lia.
  - intros E. injection E. intros. lra.
  - split.
    + rewrite integrated_len. cbn [len]. intros j k Hj Hk H1 H2. rewrite !nth_integrated by (cbn; lia).
      destruct j as [|[|[|[|j]]]]; try lia; destruct k as [|[|[|[|k]]]]; try lia; cbn; lra.
    + exists 1%nat, 0%nat. rewrite integrated_len. cbn [len]. repeat split; try lia.
      rewrite !nth_integrated by (cbn; lia). cbn. lra.
  - assert (Ha : average [1; 1; 1] = 1) by (unfold average; cbn; lra). rewrite Ha.
    split.
    + rewrite shifted_len, integrated_len. cbn [len]. intros j k Hj Hk H1 H2.
      rewrite !nth_shifted by (rewrite integrated_len; cbn; lia). rewrite !nth_integrated by (cbn; lia).
      destruct j as [|[|[|[|j]]]]; try lia; destruct k as [|[|[|[|k]]]]; try lia; unfold line; cbn; lra.
    + exists 0%nat, 0%nat. rewrite shifted_len, integrated_len. cbn [len]. repeat split; try lia. lra.
Qed.

Lemma tierms_freq_refuted : exists y rate taus, y <> [] /\ 0 < rate /\
  tierms y rate "freq" taus <> tierms (integrated y rate) rate "phase" taus.
Proof.
  exists [1; 1; 1], 1, (TList [INR 1 / 1]). split; [discriminate|]. split; [lra|].
  rewrite freq_phase; [|unfold phase_devs; cbn; tauto|discriminate|lra].
  assert (Ha : average [1; 1; 1] = 1) by (unfold average; cbn; lra). rewrite Ha.
  rewrite !tierms_single; rewrite ?shifted_len, ?integrated_len; cbn [len]; try lra; try lia.
  intros E. injection E as E. apply (f_equal Rsqr) in E. rewrite !Rsqr_sqrt in E.
  - unfold tierms_var in E. cbn in E. unfold line in E. cbn in E. lra.
  - unfold tierms_var. cbn. lra.
  - unfold tierms_var. cbn. unfold line. cbn. lra.
Qed.

(** ** frequency2fractional, phase2radians *)
Lemma frequency2fractional_given f mu : mu <> -1 ->
  frequency2fractional f mu = map (fun v => (v - mu) / mu) f.
Proof.
  intros H. unfold frequency2fractional. rn. now rewrite (proj2 (Reqb_false mu (-1)) H).
Qed.
Lemma frequency2fractional_default f :
  frequency2fractional f (-1) = map (fun v => (v - average f) / average f) f.
Proof.
  unfold frequency2fractional. rn. rewrite (proj2 (Reqb_true (-1) (-1)) eq_refl).
  assert (H : mean f = average f) by (unfold mean, average; rewrite asum_list, ofN_INR; reflexivity).
  now rewrite H.
Qed.
Lemma nth_map0 (g : R -> R) (f : list R) i : (i < len f)%nat -> (map g f).[i] = g f.[i].
Proof.
  intros H. rewrite (nth_indep _ 0 (g 0)) by now rewrite map_length. apply map_nth.
Qed.
Lemma frequency2fractional_mean f : f <> [] -> average f <> 0 ->
  average (frequency2fractional f (-1)) = 0.
Proof.
  intros Hf Ha. rewrite frequency2fractional_default. set (mu := average f) in *.
  unfold average. rewrite map_length.
  rewrite (bigsum_ext _ _ (fun k => / mu * (f.[k] - mu))).
  - rewrite bigsum_scal, bigsum_minus, bigsum_const, bigsum_list_avg by assumption. fold mu.
    assert (INR (len f) <> 0) by (apply not_0_INR; destruct f; [contradiction|discriminate]).
    field. split; assumption.
  - intros k Hk. rewrite nth_map0 by assumption. field. exact Ha.
Qed.
Lemma phase2radians_spec x v0 : phase2radians PI x v0 = map (fun v => 2 * PI * v0 * v) x.
Proof. reflexivity. Qed.
