(** * Response of the deviations to a frequency offset, a frequency drift and a spectral line (C107). *)
From Coq Require Import String Reals List ZArith Lra Lia Arith Bool Psatz.
From Verif Require Import Base Num NpList ModelCore ModelDev NumR ListFacts Spec RSum TauProofs DevProofs TotProofs Closed Laws Laws2 Laws3 SemiProofs SemiBound ConvProofs PropsSemi.
Import ListNotations.
Local Open Scope R_scope.
Local Notation len := List.length.

(** N samples, at [rate] per second, of the phase x(t) *)
Definition sampled (g : R -> R) (rate : R) (N : nat) : list R := map (fun k => g (INR k / rate)) (seq 0 N).
Definition fn := list R -> R -> string -> taus_arg R -> res (@result R).

Lemma sampled_len g rate N : len (sampled g rate N) = N.
Proof. unfold sampled. now rewrite map_length, seq_length. Qed.
Lemma sampled_nth g rate N k : (k < N)%nat -> (sampled g rate N).[k] = g (INR k / rate).
Proof. intros H. exact (nth_tab N (fun k => g (INR k / rate)) k 0 H). Qed.

(** ** frequency drift *)
Definition h2 (u : R) : R := sqrt ((11 * u - 5) * (u + 1)) / 6.
(** deviation reported for the drift 1 (relative frequency per second) *)
Definition drift_resp : list (fn * (R -> R -> R)) :=
  [(adev, fun _ tau => tau / sqrt 2); (oadev, fun _ tau => tau / sqrt 2); (mdev, fun _ tau => tau / sqrt 2);
   (tdev, fun _ tau => tau ^ 2 / sqrt 6); (hdev, fun _ _ => 0); (ohdev, fun _ _ => 0);
   (pdev, fun rate tau => if Req_EM_T (tau * rate) 1 then tau / sqrt 2 else tau / sqrt 2 * (1 - 1 / (tau * rate) ^ 2));
   (theo1, fun rate tau => h2 (tau * rate / 2) / rate)].

Definition drifting (a b D : R) (t : R) : R := a + b * t + D / 2 * t ^ 2.


Lemma bigsum_S n f : bigsum (S n) f = bigsum n f + f n.
Proof. reflexivity. Qed.
Lemma sqrt_is v r : 0 <= r -> v = r ^ 2 -> sqrt v = r.
Proof. intros H ->. now apply sqrt_pow2. Qed.
Lemma s2 : sqrt 2 * sqrt 2 = 2. Proof. apply sqrt_sqrt. lra. Qed.
Lemma s6 : sqrt 6 * sqrt 6 = 6. Proof. apply sqrt_sqrt. lra. Qed.
Lemma s3 : sqrt 3 * sqrt 3 = 3. Proof. apply sqrt_sqrt. lra. Qed.
Lemma p2 : 0 < sqrt 2. Proof. apply sqrt_lt_R0. lra. Qed.
Lemma p6 : 0 < sqrt 6. Proof. apply sqrt_lt_R0. lra. Qed.
Lemma p3 : 0 < sqrt 3. Proof. apply sqrt_lt_R0. lra. Qed.

Lemma sum_k n : bigsum n INR = INR n * (INR n - 1) / 2.
Proof. induction n; [cbn; field|]. rewrite bigsum_S, IHn, S_INR. field. Qed.
Lemma sum_k2 n : bigsum n (fun k => INR k ^ 2) = INR n * (INR n - 1) * (2 * INR n - 1) / 6.
Proof. induction n; [cbn; field|]. rewrite bigsum_S, IHn, S_INR. field. Qed.
Lemma sum_pdev m : bigsum m (fun k => ((INR m - 1) / 2 - INR k) * INR k) = - (INR m * (INR m ^ 2 - 1) / 12).
Proof.
  rewrite (bigsum_ext m _ (fun k => (INR m - 1) / 2 * INR k + (-1) * INR k ^ 2)) by (intros; ring).
  rewrite bigsum_plus, !bigsum_scal, sum_k, sum_k2. field.
Qed.
Lemma sum_pdev0 m : bigsum m (fun k => (INR m - 1) / 2 - INR k) = 0.
Proof.
  rewrite (bigsum_ext m _ (fun k => (INR m - 1) / 2 + (-1) * INR k)) by (intros; ring).
  rewrite bigsum_plus, bigsum_scal, sum_k, bigsum_const. field.
Qed.
Lemma sum_theo_gen h n : bigsum n (fun d => (h - INR d) * (h + INR d) ^ 2) =
  INR n * h ^ 3 + h ^ 2 * (INR n * (INR n - 1) / 2) - h * (INR n * (INR n - 1) * (2 * INR n - 1) / 6) - (INR n * (INR n - 1) / 2) ^ 2.
Proof. induction n; [cbn; field|]. rewrite bigsum_S, IHn, S_INR. field. Qed.
Lemma sum_theo h : bigsum h (fun d => (INR h - INR d) * (INR h + INR d) ^ 2) = INR h ^ 2 * ((11 * INR h - 5) * (INR h + 1)) / 12.
Proof. rewrite sum_theo_gen. field. Qed.

Section Drift.
Variables (a b D rate : R) (N m : nat).
Hypothesis Hr : 0 < rate.
Hypothesis Hm : (1 <= m)%nat.
Let x := sampled (drifting a b D) rate N.
Let c := D / 2 / rate ^ 2.

Lemma x_k k : (k < N)%nat -> x.[k] = a + b / rate * INR k + c * INR k ^ 2.
Proof using Hr. intros H. unfold x. rewrite sampled_nth by exact H. unfold drifting, c. field. lra. Qed.
Lemma d2_drift i : (i + 2 * m < N)%nat -> d2 x m i = 2 * c * INR m ^ 2.
Proof using Hr Hm. intros H. unfold d2. rewrite !x_k by lia. rewrite !plus_INR, mult_INR. cbn [INR]. ring. Qed.
Lemma d3_drift i : (i + 3 * m < N)%nat -> d3 x m i = 0.
Proof using Hr Hm. intros H. unfold d3. rewrite !x_k by lia. rewrite !plus_INR, !mult_INR. cbn [INR]. ring. Qed.

Lemma m0 : INR m <> 0. Proof using Hm. apply not_0_INR. lia. Qed.

Lemma oavar_drift : (0 < oadev_n x m)%nat -> oavar x (1 / rate) m = (Rabs D * (INR m / rate) / sqrt 2) ^ 2.
Proof using Hr Hm.
  intros Hn. unfold oavar. rewrite (bigsum_ext _ _ (fun _ => (2 * c * INR m ^ 2) ^ 2)).
  2:{ intros i Hi. rewrite d2_drift; [reflexivity|]. unfold oadev_n, x in Hi. rewrite sampled_len in Hi. lia. }
  rewrite bigsum_const. assert (INR (oadev_n x m) <> 0) by (apply not_0_INR; lia). pose proof m0. pose proof p2. pose proof s2.
  replace ((Rabs D * (INR m / rate) / sqrt 2) ^ 2) with (Rabs D ^ 2 * (INR m / rate) ^ 2 / (sqrt 2 * sqrt 2)) by (field; lra).
  rewrite pow2_abs, s2. unfold c. field. repeat split; auto; lra.
Qed.
Lemma avar_drift : (0 < adev_n x m)%nat -> avar x (1 / rate) m = (Rabs D * (INR m / rate) / sqrt 2) ^ 2.
Proof using Hr Hm.
  intros Hn. unfold avar. rewrite (bigsum_ext _ _ (fun _ => (2 * c * INR m ^ 2) ^ 2)).
  2:{ intros i Hi. rewrite d2_drift; [reflexivity|]. unfold adev_n, x in Hi. rewrite sampled_len in Hi.
      pose proof (Nat.div_mod (N - 1) m ltac:(lia)). pose proof (Nat.mod_upper_bound (N - 1) m ltac:(lia)).
      set (q := ((N - 1) / m)%nat) in *. nia. }
  rewrite bigsum_const. assert (INR (adev_n x m) <> 0) by (apply not_0_INR; lia). pose proof m0. pose proof p2. pose proof s2.
  replace ((Rabs D * (INR m / rate) / sqrt 2) ^ 2) with (Rabs D ^ 2 * (INR m / rate) ^ 2 / (sqrt 2 * sqrt 2)) by (field; lra).
  rewrite pow2_abs, s2. unfold c. field. repeat split; auto; lra.
Qed.
Lemma mvar_drift : (0 < mdev_n x m)%Z -> mvar x (1 / rate) m = (Rabs D * (INR m / rate) / sqrt 2) ^ 2.
Proof using Hr Hm.
  intros Hn. unfold mvar. rewrite (bigsum_ext _ _ (fun _ => (INR m * (2 * c * INR m ^ 2)) ^ 2)).
  2:{ intros j Hj. f_equal. rewrite <- bigsum_const. apply bigsum_ext. intros i Hi. apply d2_drift.
      unfold mdev_n, x in Hj. rewrite sampled_len in Hj. lia. }
  rewrite bigsum_const, (INR_IZR_INZ (Z.to_nat _)), Z2Nat.id by lia.
  assert (IZR (mdev_n x m) <> 0) by (apply not_0_IZR; lia). pose proof m0. pose proof p2. pose proof s2.
  replace ((Rabs D * (INR m / rate) / sqrt 2) ^ 2) with (Rabs D ^ 2 * (INR m / rate) ^ 2 / (sqrt 2 * sqrt 2)) by (field; lra).
  rewrite pow2_abs, s2. unfold c. field. repeat split; auto; lra.
Qed.
Lemma ohvar_drift : ohvar x (1 / rate) m = 0.
Proof using Hr Hm.
  unfold ohvar. rewrite (bigsum_ext _ _ (fun _ => 0)).
  2:{ intros i Hi. rewrite d3_drift; [ring|]. unfold ohdev_n, x in Hi. rewrite sampled_len in Hi. lia. }
  rewrite bigsum_const. ring.
Qed.
Lemma hvar_drift : hvar x (1 / rate) m = 0.
Proof using Hr Hm.
  unfold hvar. rewrite (bigsum_ext _ _ (fun _ => 0)).
  2:{ intros i Hi. rewrite d3_drift; [ring|]. unfold hdev_n, x in Hi. rewrite sampled_len in Hi.
      pose proof (Nat.div_mod (N - 1) m ltac:(lia)). pose proof (Nat.mod_upper_bound (N - 1) m ltac:(lia)).
      set (q := ((N - 1) / m)%nat) in *. nia. }
  rewrite bigsum_const. ring.
Qed.
Lemma pvar_drift : (0 < oadev_n x m)%nat -> m <> 1%nat ->
  pvar x (1 / rate) m = (Rabs D * (INR m / rate / sqrt 2 * (1 - 1 / INR m ^ 2))) ^ 2.
Proof using Hr Hm.
  intros Hn H1. unfold pvar. destruct (Nat.eqb_spec m 1); [contradiction|].
  rewrite (bigsum_ext _ _ (fun _ => (2 * c * INR m * (INR m * (INR m ^ 2 - 1) / 12)) ^ 2)).
  2:{ intros i Hi. f_equal. unfold oadev_n, x in Hi. rewrite sampled_len in Hi.
      rewrite (bigsum_ext m _ (fun k => - (b / rate * INR m + 2 * c * INR m * INR i + c * INR m ^ 2) * ((INR m - 1) / 2 - INR k)
        + - (2 * c * INR m) * (((INR m - 1) / 2 - INR k) * INR k))).
      2:{ intros k Hk. rewrite !x_k by lia. rewrite !plus_INR. ring. }
      rewrite bigsum_plus, !bigsum_scal, sum_pdev, sum_pdev0. ring. }
  rewrite bigsum_const. assert (INR (oadev_n x m) <> 0) by (apply not_0_INR; lia). pose proof m0. pose proof p2.
  replace ((Rabs D * (INR m / rate / sqrt 2 * (1 - 1 / INR m ^ 2))) ^ 2)
    with (Rabs D ^ 2 * (INR m / rate) ^ 2 / (sqrt 2 * sqrt 2) * (1 - 1 / INR m ^ 2) ^ 2) by (field; repeat split; auto; lra).
  rewrite pow2_abs, s2. unfold c. field. repeat split; auto; lra.
Qed.
End Drift.

Lemma theo1_drift a b D rate N h : 0 < rate -> (1 <= h)%nat -> (2 * h < N)%nat ->
  theo1var (sampled (drifting a b D) rate N) (1 / rate) (2 * h) = (D / rate) ^ 2 * ((11 * INR h - 5) * (INR h + 1)) / 36.
Proof.
  intros Hr Hh HN. unfold theo1var. rewrite Nat.div2_double, sampled_len.
  set (c := D / 2 / rate ^ 2).
  rewrite (bigsum_ext _ _ (fun _ => 4 * c ^ 2 * (INR h ^ 2 * ((11 * INR h - 5) * (INR h + 1)) / 12))).
  2:{ intros i Hi. rewrite <- sum_theo, <- bigsum_scal. apply bigsum_ext. intros d Hd.
      rewrite !(x_k a b D rate N) by (auto; lia). fold c.
      rewrite (minus_INR (i + h) d) by lia. rewrite !plus_INR, !mult_INR. change (INR 2) with 2.
      assert (INR h - INR d <> 0) by (rewrite <- minus_INR by lia; apply not_0_INR; lia). field. repeat split; auto; lra. }
  rewrite bigsum_const, mult_INR. change (INR 2) with 2.
  assert (INR (N - 2 * h) <> 0) by (apply not_0_INR; lia). assert (INR h <> 0) by (apply not_0_INR; lia).
  unfold c. field. repeat split; auto; lra.
Qed.

Lemma pos_m m rate : 0 < rate -> (1 <= m)%nat -> 0 < INR m / rate.
Proof. intros Hr Hm. apply Rdiv_lt_0_compat; [apply lt_0_INR; lia|exact Hr]. Qed.
Lemma drift_val D tau : 0 < tau -> 0 <= Rabs D * tau / sqrt 2.
Proof. intros H. pose proof (Rabs_pos D). pose proof p2. apply Rmult_le_pos; [nra|left; now apply Rinv_0_lt_compat]. Qed.

Lemma stat_drift f g a b D : In (f, g) drift_resp -> exists s, In s stats /\ s_fun s = f /\
  forall rate N m, 0 < rate -> (1 <= m < N)%nat -> s_ok s N m = true -> (1 < s_cnt s N m)%Z ->
    s_dev s (sampled (drifting a b D) rate N) rate m = Rabs D * g rate (INR m / rate).
Proof.
  intros Hin. unfold drift_resp in Hin.
  repeat (destruct Hin as [Hin|Hin]); try (now destruct Hin); injection Hin as <- <-.
  - exists st_adev. split; [cbn; tauto|]. split; [reflexivity|]. intros rate N m Hr Hm _ Hc. cbn in Hc. unfold c_adev in Hc.
    pose proof (pos_m m rate Hr ltac:(lia)). unfold s_dev. cbn [s_var st_adev]. rewrite avar_drift by (auto; try (unfold adev_n; rewrite sampled_len); lia).
    rewrite sqrt_pow2 by (now apply drift_val). unfold Rdiv. ring.
  - exists st_oadev. split; [cbn; tauto|]. split; [reflexivity|]. intros rate N m Hr Hm _ Hc. cbn in Hc. unfold c_oadev in Hc.
    pose proof (pos_m m rate Hr ltac:(lia)). unfold s_dev. cbn [s_var st_oadev]. rewrite oavar_drift by (auto; try (unfold oadev_n; rewrite sampled_len); lia).
    rewrite sqrt_pow2 by (now apply drift_val). unfold Rdiv. ring.
  - exists st_mdev. split; [cbn; tauto|]. split; [reflexivity|]. intros rate N m Hr Hm _ Hc. cbn in Hc. unfold c_mdev in Hc.
    pose proof (pos_m m rate Hr ltac:(lia)). unfold s_dev. cbn [s_var st_mdev]. rewrite mvar_drift by (auto; try (unfold mdev_n; rewrite sampled_len); lia).
    rewrite sqrt_pow2 by (now apply drift_val). unfold Rdiv. ring.
  - exists st_tdev. split; [cbn; tauto|]. split; [reflexivity|]. intros rate N m Hr Hm _ Hc. cbn in Hc. unfold c_mdev in Hc.
    pose proof (pos_m m rate Hr ltac:(lia)) as P. unfold s_dev. cbn [s_var st_tdev]. unfold tvar.
    rewrite mvar_drift by (auto; try (unfold mdev_n; rewrite sampled_len); lia). pose proof p2. pose proof p6.
    cbv beta. apply sqrt_is; [apply Rmult_le_pos; [apply Rabs_pos|apply Rmult_le_pos; [apply pow2_ge_0|left; now apply Rinv_0_lt_compat]]|].
    replace ((Rabs D * (INR m / rate) / sqrt 2) ^ 2) with (Rabs D ^ 2 * (INR m / rate) ^ 2 / (sqrt 2 * sqrt 2)) by (field; lra).
    rewrite s2. transitivity (Rabs D ^ 2 * (INR m / rate) ^ 4 / (sqrt 6 * sqrt 6)); [rewrite s6|]; field; lra.
  - exists st_hdev. split; [cbn; tauto|]. split; [reflexivity|]. intros rate N m Hr Hm _ Hc.
    unfold s_dev. cbn [s_var st_hdev]. rewrite hvar_drift, sqrt_0 by (auto; lia). ring.
  - exists st_ohdev. split; [cbn; tauto|]. split; [reflexivity|]. intros rate N m Hr Hm _ Hc.
    unfold s_dev. cbn [s_var st_ohdev]. rewrite ohvar_drift, sqrt_0 by (auto; lia). ring.
  - exists st_pdev. split; [cbn; tauto|]. split; [reflexivity|]. intros rate N m Hr Hm _ Hc. cbn in Hc. unfold c_oadev in Hc.
    pose proof (pos_m m rate Hr ltac:(lia)) as P. unfold s_dev. cbn [s_var st_pdev].
    replace (INR m / rate * rate) with (INR m) by (field; lra).
    destruct (Nat.eq_dec m 1) as [->|H1].
    + destruct (Req_EM_T (INR 1) 1) as [_|E]; [|cbn in E; lra]. unfold pvar. rewrite Nat.eqb_refl.
      rewrite oavar_drift by (auto; try (unfold oadev_n; rewrite sampled_len); lia).
      rewrite sqrt_pow2 by (now apply drift_val). unfold Rdiv. ring.
    + destruct (Req_EM_T (INR m) 1) as [E|_]; [apply (INR_eq m 1) in E; lia|].
      rewrite pvar_drift by (auto; try (unfold oadev_n; rewrite sampled_len); lia).
      apply sqrt_pow2. apply Rmult_le_pos; [apply Rabs_pos|]. pose proof p2.
      apply Rmult_le_pos; [apply Rmult_le_pos; [lra|left; now apply Rinv_0_lt_compat]|].
      assert (H1m : 1 <= INR m) by (apply (le_INR 1); lia). enough (Q : 1 / INR m ^ 2 <= 1) by (cbn [pow] in Q |- *; lra).
      unfold Rdiv. rewrite Rmult_1_l. replace 1 with (/ 1) by apply Rinv_1. apply Rinv_le_contravar; [lra|]. nra.
  - exists st_theo1. split; [cbn; tauto|]. split; [reflexivity|]. intros rate N m Hr Hm Hev Hc. cbn in Hev, Hc. unfold evenm in Hev. unfold c_theo in Hc.
    apply Nat.even_spec in Hev. destruct Hev as [h ->]. unfold s_dev. cbn [s_var st_theo1].
    rewrite theo1_drift by (auto; lia). unfold h2.
    replace (INR (2 * h) / rate * rate / 2) with (INR h) by (rewrite mult_INR; change (INR 2) with 2; field; lra).
    assert (1 <= INR h) by (apply (le_INR 1); lia).
    assert (Hp : 0 <= (11 * INR h - 5) * (INR h + 1)) by nra.
    apply sqrt_is.
    { apply Rmult_le_pos; [apply Rabs_pos|]. apply Rmult_le_pos; [|left; now apply Rinv_0_lt_compat].
      apply Rmult_le_pos; [apply sqrt_pos|lra]. }
    replace ((Rabs D * (sqrt ((11 * INR h - 5) * (INR h + 1)) / 6 / rate)) ^ 2)
      with (Rabs D ^ 2 / rate ^ 2 * (sqrt ((11 * INR h - 5) * (INR h + 1)) * sqrt ((11 * INR h - 5) * (INR h + 1))) / 36) by (field; lra).
    rewrite sqrt_sqrt, pow2_abs by exact Hp. field. lra.
Qed.

(** from one averaging factor to every row of every answer *)
Lemma rows (P : R -> R -> R -> Z -> Prop) (f : fn) (s : stat) x rate taus t d e n :
  In s stats -> s_fun s = f -> 0 < rate -> f x rate "phase"%string taus = Ok (t, d, e, n) ->
  (forall m, (1 <= m < len x)%nat -> s_ok s (len x) m = true -> (1 < s_cnt s (len x) m)%Z ->
     P rate (INR m / rate) (s_dev s x rate m) (s_cnt s (len x) m)) ->
  len d = len t /\ len n = len t /\ forall i, (i < len t)%nat -> P rate t.[i] d.[i] (nth i n 0%Z).
Proof.
  intros Hs <- Hr E HP. destruct (same_rows s (len x) rate taus Hs Hr) as [[ex Ee]|(good & _ & Hg & Eg)].
  - rewrite Ee in E by reflexivity. discriminate.
  - rewrite Eg in E by reflexivity. injection E as <- <- <- <-. rewrite !map_length. repeat split; auto. intros i Hi.
    rewrite !nth_map0. destruct (Nat.ltb_spec i (len good)); [|lia].
    rewrite (nth_indep _ 0%Z (s_cnt s (len x) 0)) by (now rewrite map_length). rewrite map_nth.
    destruct (Hg (nth i good 0%nat) (nth_In _ _ Hi)) as (Hm & Hok & Hc). now apply HP.
Qed.

Theorem C107_drift f g a b D N rate taus t d e n : In (f, g) drift_resp -> 0 < rate ->
  f (sampled (drifting a b D) rate N) rate "phase"%string taus = Ok (t, d, e, n) ->
  len d = len t /\ forall i, (i < len t)%nat -> d.[i] = Rabs D * g rate t.[i].
Proof.
  intros Hin Hr E. destruct (stat_drift f g a b D Hin) as (s & Hs & Es & H).
  destruct (rows (fun rate tau dv _ => dv = Rabs D * g rate tau) f s _ rate taus t d e n Hs Es Hr E) as (L & _ & R); [|split; auto].
  rewrite sampled_len. intros m Hm Hok Hc. now apply H.
Qed.
Print Assumptions C107_drift.

(** ** frequency offset *)
Lemma offset_tierms a b rate N m : 0 < rate -> (m < N)%nat ->
  tierms_var (sampled (fun t => a + b * t) rate N) m = (Rabs b * (INR m / rate)) ^ 2.
Proof.
  intros Hr HN. unfold tierms_var. rewrite sampled_len. rewrite (bigsum_ext _ _ (fun _ => (b * (INR m / rate)) ^ 2)).
  2:{ intros i Hi. rewrite !sampled_nth by lia. rewrite plus_INR. field. lra. }
  rewrite bigsum_const. rewrite !Rpow_mult_distr, pow2_abs. field. split; [lra|]. apply not_0_INR. lia.
Qed.
Lemma offset_mtie a b rate N m : 0 < rate -> (m < N)%nat ->
  is_mtie (sampled (fun t => a + b * t) rate N) m (Rabs b * (INR m / rate)).
Proof.
  intros Hr HN. assert (Hi : 0 < / rate) by (now apply Rinv_0_lt_compat). split; rewrite ?sampled_len.
  - intros j k Hj Hk H1 H2. rewrite !sampled_nth by auto.
    replace (a + b * (INR j / rate) - (a + b * (INR k / rate))) with (b * ((INR j - INR k) / rate)) by (unfold Rdiv; ring).
    eapply Rle_trans; [apply Rle_abs|]. rewrite Rabs_mult. apply Rmult_le_compat_l; [apply Rabs_pos|].
    unfold Rdiv. rewrite Rabs_mult, (Rabs_pos_eq (/ rate)) by lra. apply Rmult_le_compat_r; [lra|].
    apply le_INR in H1, H2. rewrite plus_INR in H1, H2. unfold Rabs. destruct Rcase_abs; lra.
  - destruct (Rle_dec 0 b) as [Hb|Hb].
    + exists m, 0%nat. rewrite !sampled_nth by lia. repeat split; try lia. cbn [INR]. rewrite Rabs_pos_eq by lra. field. lra.
    + exists 0%nat, m. rewrite !sampled_nth by lia. repeat split; try lia. cbn [INR]. rewrite Rabs_left by lra. field. lra.
Qed.

Theorem C107_offset f a b N rate taus t d e n : In f [tierms; mtie] -> 0 < rate ->
  f (sampled (fun t => a + b * t) rate N) rate "phase"%string taus = Ok (t, d, e, n) ->
  len d = len t /\ forall i, (i < len t)%nat -> d.[i] = Rabs b * t.[i].
Proof.
  intros Hin Hr E. assert (P : forall m, 0 <= Rabs b * (INR m / rate)).
  { intros m. apply Rmult_le_pos; [apply Rabs_pos|]. apply Rmult_le_pos; [apply pos_INR|left; now apply Rinv_0_lt_compat]. }
  assert (exists s, In s stats /\ s_fun s = f /\ forall m, (1 <= m < N)%nat ->
    s_dev s (sampled (fun t => a + b * t) rate N) rate m = Rabs b * (INR m / rate)) as (s & Hs & Es & H).
  { destruct Hin as [<-|[<-|[]]].
    - exists st_tierms. split; [cbn; tauto|]. split; [reflexivity|]. intros m Hm. unfold s_dev. cbn [s_var st_tierms].
      rewrite offset_tierms by (auto; lia). apply sqrt_pow2, P.
    - exists st_mtie. split; [cbn; tauto|]. split; [reflexivity|]. intros m Hm.
      rewrite mtie_dev by (now rewrite sampled_len). apply (is_mtie_unique (sampled (fun t => a + b * t) rate N) m).
      + apply mtie_val_is. now rewrite sampled_len.
      + apply offset_mtie; auto; lia. }
  destruct (rows (fun rate tau dv _ => dv = Rabs b * tau) f s _ rate taus t d e n Hs Es Hr E) as (L & _ & R); [|split; auto].
  rewrite sampled_len. intros m Hm _ _. now apply H.
Qed.
Print Assumptions C107_offset.

(** ** a spectral line: a phase modulation of amplitude A and frequency nu *)
Definition tone (A nu phi t : R) : R := A * cos (2 * PI * nu * t + phi).

Definition g2 (nu rate tau : R) : R := 2 * sin (PI * nu * tau) ^ 2 / tau.
Definition g3 (nu rate tau : R) : R := 4 / sqrt 3 * Rabs (sin (PI * nu * tau)) ^ 3 / tau.
Definition gm (nu rate tau : R) : R := 2 * Rabs (sin (PI * nu * tau)) ^ 3 / (tau * (tau * rate * Rabs (sin (PI * nu / rate)))).
Definition every_sample (nu rate tau : R) : R := 2 * PI * nu / rate.
Definition every_tau (nu rate tau : R) : R := 2 * PI * nu * tau.
(** the deviation per unit amplitude in a long record, and the phase the line advances between successive terms *)
Definition line_resp : list (fn * ((R -> R -> R -> R) * (R -> R -> R -> R))) :=
  [(adev, (g2, every_tau)); (oadev, (g2, every_sample)); (hdev, (g3, every_tau)); (ohdev, (g3, every_sample));
   (mdev, (gm, every_sample)); (tdev, (fun nu rate tau => tau / sqrt 3 * gm nu rate tau, every_sample));
   (tierms, (fun nu _ tau => sqrt 2 * Rabs (sin (PI * nu * tau)), every_sample))].

Lemma dirichlet_gen a be n : 2 * sin (be / 2) * bigsum n (fun i => cos (a + INR i * be)) = sin (a + (INR n - 1 / 2) * be) - sin (a - be / 2).
Proof.
  induction n.
  - cbn [bigsum INR]. replace (a + (0 - 1 / 2) * be) with (a - be / 2) by field. ring.
  - rewrite bigsum_S, Rmult_plus_distr_l, IHn, S_INR.
    replace (a + (INR n + 1 - 1 / 2) * be) with (a + INR n * be + be / 2) by field.
    replace (a + (INR n - 1 / 2) * be) with (a + INR n * be - be / 2) by field.
    rewrite !(sin_plus (a + INR n * be)), !(sin_minus (a + INR n * be)). ring.
Qed.
Lemma cos2 z : cos z ^ 2 = / 2 + / 2 * cos (2 * z).
Proof. rewrite cos_2a_cos. field. Qed.

(** mean square of n equidistant samples of a cosine *)
Lemma mean_cos2 K C n a be : (0 < n)%nat ->
  exists q, K * bigsum n (fun i => (C * cos (a + INR i * be)) ^ 2) = K * C ^ 2 * INR n * q /\ 0 <= q <= 1 /\
    Rabs (2 * q - 1) * (INR n * Rabs (sin be)) <= 1.
Proof.
  intros Hn. assert (P : 0 < INR n) by (apply lt_0_INR; lia).
  exists (bigsum n (fun i => cos (a + INR i * be) ^ 2) / INR n). split; [|split].
  - rewrite (bigsum_ext _ _ (fun i => C ^ 2 * cos (a + INR i * be) ^ 2)) by (intros; ring). rewrite bigsum_scal. field. lra.
  - split.
    + apply Rmult_le_pos; [apply bigsum_nonneg; intros; apply pow2_ge_0|left; now apply Rinv_0_lt_compat].
    + apply Rmult_le_reg_r with (INR n); [exact P|]. unfold Rdiv. rewrite Rmult_assoc, Rinv_l, Rmult_1_r, Rmult_1_l by lra.
      rewrite <- (Rmult_1_r (INR n)), <- bigsum_const. apply bigsum_le. intros i _.
      pose proof (COS_bound (a + INR i * be)). nra.
  - rewrite (bigsum_ext _ _ (fun i => / 2 + / 2 * cos (2 * a + INR i * (2 * be)))).
    2:{ intros i _. rewrite cos2. do 3 f_equal. ring. }
    rewrite bigsum_plus, bigsum_scal, bigsum_const. pose proof (dirichlet_gen (2 * a) (2 * be) n) as Dg.
    replace (2 * be / 2) with be in Dg by field. set (S := bigsum n (fun i => cos (2 * a + INR i * (2 * be)))) in *.
    replace (2 * ((INR n * / 2 + / 2 * S) / INR n) - 1) with (S / INR n) by (field; lra).
    rewrite <- (Rabs_pos_eq (INR n)) at 2 by lra. rewrite <- !Rabs_mult.
    replace (S / INR n * (INR n * sin be)) with (/ 2 * (2 * sin be * S)) by (field; lra). rewrite Dg.
    pose proof (SIN_bound (2 * a + (INR n - 1 / 2) * (2 * be))). pose proof (SIN_bound (2 * a - be)).
    unfold Rabs. destruct Rcase_abs; lra.
Qed.

Section Line.
Variables (A nu phi rate : R) (N m : nat).
Hypothesis Hr : 0 < rate.
Hypothesis Hm : (1 <= m)%nat.
Let x := sampled (tone A nu phi) rate N.
Let be := 2 * PI * nu / rate.
Let p := PI * nu * (INR m / rate).

Lemma tone_k k : (k < N)%nat -> x.[k] = A * cos (phi + INR k * be).
Proof using Hr. intros H. unfold x. rewrite sampled_nth by exact H. unfold tone, be. do 2 f_equal. field. lra. Qed.
Lemma p_be : INR m * be = 2 * p. Proof using Hr. unfold be, p. field. lra. Qed.
Lemma d1_tone i : (i + m < N)%nat -> x.[i + m] - x.[i] = (- 2 * A * sin p) * cos (phi + p - PI / 2 + INR i * be).
Proof using Hr Hm.
  intros H. rewrite !tone_k by lia. rewrite plus_INR. set (u := phi + p + INR i * be).
  replace (phi + (INR i + INR m) * be) with (u + p) by (unfold u; rewrite Rmult_plus_distr_r, p_be; ring).
  replace (phi + INR i * be) with (u - p) by (unfold u; ring).
  replace (phi + p - PI / 2 + INR i * be) with (- (PI / 2 - u)) by (unfold u; ring). rewrite cos_neg, cos_shift, cos_plus, cos_minus. ring.
Qed.
Lemma d2_tone i : (i + 2 * m < N)%nat -> d2 x m i = (- 4 * A * sin p ^ 2) * cos (phi + 2 * p + INR i * be).
Proof using Hr Hm.
  intros H. unfold d2. rewrite !tone_k by lia. rewrite !plus_INR, mult_INR. change (INR 2) with 2. set (u := phi + 2 * p + INR i * be).
  replace (phi + (INR i + 2 * INR m) * be) with (u + 2 * p) by (unfold u; rewrite Rmult_plus_distr_r, Rmult_assoc, p_be; ring).
  replace (phi + (INR i + INR m) * be) with u by (unfold u; rewrite Rmult_plus_distr_r, p_be; ring).
  replace (phi + INR i * be) with (u - 2 * p) by (unfold u; ring).
  rewrite (cos_plus u), (cos_minus u), (cos_2a_sin p). ring.
Qed.
Lemma d3_tone i : (i + 3 * m < N)%nat -> d3 x m i = (8 * A * sin p ^ 3) * cos (phi + 3 * p - PI / 2 + INR i * be).
Proof using Hr Hm.
  intros H. unfold d3. rewrite !tone_k by lia. rewrite !plus_INR, !mult_INR. change (INR 2) with 2. replace (INR 3) with 3 by (cbn; lra).
  set (u := phi + 3 * p + INR i * be).
  replace (phi + (INR i + 3 * INR m) * be) with (u + 3 * p) by (unfold u; rewrite Rmult_plus_distr_r, Rmult_assoc, p_be; ring).
  replace (phi + (INR i + 2 * INR m) * be) with (u + p) by (unfold u; rewrite Rmult_plus_distr_r, Rmult_assoc, p_be; ring).
  replace (phi + (INR i + INR m) * be) with (u - p) by (unfold u; rewrite Rmult_plus_distr_r, p_be; ring).
  replace (phi + INR i * be) with (u - 3 * p) by (unfold u; ring).
  replace (phi + 3 * p - PI / 2 + INR i * be) with (- (PI / 2 - u)) by (unfold u; ring). rewrite cos_neg, cos_shift.
  replace (3 * p) with (2 * p + p) by ring. rewrite !(cos_plus u), !(cos_minus u), sin_plus, (cos_plus (2 * p)), sin_2a, cos_2a_sin.
  pose proof (sin2_cos2 p) as T. unfold Rsqr in T. replace (sin p ^ 3) with (sin p * (sin p * sin p)) by ring.
  assert (E : cos p * cos p = 1 - sin p * sin p) by lra.
  transitivity (2 * sin u * (3 * sin p - (2 * sin p * (cos p * cos p) + (1 - 2 * sin p * sin p) * sin p)) * A); [ring|]. rewrite E. ring.
Qed.
Lemma msum_tone j : (j + 3 * m <= N)%nat -> sin (be / 2) <> 0 ->
  bigsum m (fun i => d2 x m (j + i)) = (- 4 * A * sin p ^ 3 / sin (be / 2)) * cos (phi + 3 * p - be / 2 + INR j * be).
Proof using Hr Hm.
  intros H Hs. rewrite (bigsum_ext m _ (fun i => (- 4 * A * sin p ^ 2) * cos (phi + 2 * p + INR j * be + INR i * be))).
  2:{ intros i Hi. rewrite d2_tone by lia. do 2 f_equal. rewrite plus_INR. ring. }
  rewrite bigsum_scal. pose proof (dirichlet_gen (phi + 2 * p + INR j * be) be m) as Dg.
  set (S := bigsum m (fun i => cos (phi + 2 * p + INR j * be + INR i * be))) in *.
  set (u := phi + 3 * p - be / 2 + INR j * be).
  replace (phi + 2 * p + INR j * be + (INR m - 1 / 2) * be) with (u + p) in Dg by (unfold u; rewrite Rmult_minus_distr_r, p_be; field).
  replace (phi + 2 * p + INR j * be - be / 2) with (u - p) in Dg by (unfold u; field).
  rewrite sin_plus, sin_minus in Dg. assert (E : S = sin p * cos u / sin (be / 2)).
  { apply Rmult_eq_reg_l with (2 * sin (be / 2)); [|lra]. rewrite Dg. field. exact Hs. }
  rewrite E. field. exact Hs.
Qed.
Lemma no_sine : sin (be / 2) = 0 -> sin p = 0.
Proof using Hr.
  intros H. replace p with (INR m * (be / 2)) by (unfold be, p; field; lra). clear -H. generalize (be / 2) H. clear H. intros z H.
  induction m as [|k IH]; [cbn [INR]; rewrite Rmult_0_l; apply sin_0|]. rewrite S_INR, Rmult_plus_distr_r, Rmult_1_l, sin_plus, IH, H. ring.
Qed.
End Line.

Lemma abs_even z : Rabs z ^ 2 = z ^ 2. Proof. apply pow2_abs. Qed.
Lemma abs_cube z : (Rabs z ^ 3) ^ 2 = (z ^ 3) ^ 2.
Proof. rewrite <- !pow_mult, Nat.mul_comm, !(pow_mult _ 2 3), pow2_abs. reflexivity. Qed.

Lemma g3_sq A nu rate tau : 0 < tau -> (A * g3 nu rate tau) ^ 2 = 16 / 3 * (A * sin (PI * nu * tau) ^ 3) ^ 2 / tau ^ 2.
Proof.
  intros Ht. unfold g3. pose proof p3. set (z := sin (PI * nu * tau)).
  transitivity (A ^ 2 * (16 / (sqrt 3 * sqrt 3)) * (Rabs z ^ 3) ^ 2 / tau ^ 2); [field; lra|]. rewrite s3, abs_cube. field. lra.
Qed.
Lemma gm_sq A nu rate tau : 0 < tau -> 0 < rate -> sin (PI * nu / rate) <> 0 ->
  (A * gm nu rate tau) ^ 2 = 4 * (A * sin (PI * nu * tau) ^ 3 / sin (PI * nu / rate)) ^ 2 / (tau * (tau * rate)) ^ 2.
Proof.
  intros Ht Hr Hs. unfold gm. set (z := sin (PI * nu * tau)). set (w := sin (PI * nu / rate)) in *.
  assert (Rabs w <> 0) by (now apply Rabs_no_R0).
  transitivity (A ^ 2 * 4 * (Rabs z ^ 3) ^ 2 / (tau * (tau * rate)) ^ 2 / Rabs w ^ 2); [field; repeat split; auto; lra|].
  rewrite abs_cube, pow2_abs. field. repeat split; auto; lra.
Qed.

Definition line_law (A : R) (G st : R -> R -> R -> R) (nu rate tau V : R) (n : Z) : Prop :=
  exists q, V = (A * G nu rate tau) ^ 2 * (2 * q) /\ 0 <= q <= 1 /\ Rabs (2 * q - 1) * (IZR n * Rabs (sin (st nu rate tau))) <= 1.

Lemma line_law_i A G st nu rate tau (n : nat) K C a be V : (0 < n)%nat ->
  V = K * bigsum n (fun i => (C * cos (a + INR i * be)) ^ 2) -> be = st nu rate tau ->
  K * C ^ 2 * INR n = 2 * (A * G nu rate tau) ^ 2 -> line_law A G st nu rate tau V (Z.of_nat n).
Proof.
  intros Hn -> -> E. destruct (mean_cos2 K C n a (st nu rate tau) Hn) as (q & Eq & Hq & Hb). exists q.
  split; [rewrite Eq, E; ring|]. split; [exact Hq|]. now rewrite <- INR_IZR_INZ.
Qed.

Lemma mdev_line A nu phi rate N m : 0 < rate -> (1 <= m < N)%nat -> (1 < c_mdev N m)%Z ->
  line_law A gm every_sample nu rate (INR m / rate) (mvar (sampled (tone A nu phi) rate N) (1 / rate) m) (c_mdev N m).
Proof.
  intros Hr Hm Hc. pose proof (pos_m m rate Hr ltac:(lia)) as P. unfold mvar. unfold mdev_n. rewrite sampled_len. fold (c_mdev N m).
  set (n := Z.to_nat (c_mdev N m)). assert (En : c_mdev N m = Z.of_nat n) by (unfold n; lia). rewrite En, <- INR_IZR_INZ.
  assert (Hn : (0 < n)%nat) by lia. assert (INR n <> 0) by (apply not_0_INR; lia). assert (INR m <> 0) by (apply not_0_INR; lia).
  set (be := 2 * PI * nu / rate). set (p := PI * nu * (INR m / rate)).
  assert (Eb : PI * nu / rate = be / 2) by (unfold be; field; lra).
  destruct (Req_dec (sin (be / 2)) 0) as [Hz|Hz].
  - pose proof (no_sine nu rate m Hr Hz) as Hp. fold p in Hp.
    apply (line_law_i A gm every_sample nu rate _ n 0 0 phi be); auto.
    + rewrite (bigsum_0 n). { ring. } intros j Hj. rewrite bigsum_0; [ring|]. intros i Hi.
      rewrite (d2_tone A nu phi rate N m) by (try assumption; unfold c_mdev in En; lia). fold p. rewrite Hp. ring.
    + unfold gm. fold p. rewrite Hp, Rabs_R0. unfold Rdiv. ring.
  - apply (line_law_i A gm every_sample nu rate _ n (/ (2 * INR m ^ 2 * (INR m * (1 / rate)) ^ 2 * INR n)) (- 4 * A * sin p ^ 3 / sin (be / 2)) (phi + 3 * p - be / 2) be); auto.
    + f_equal. apply bigsum_ext. intros j Hj. f_equal. apply msum_tone; try assumption; unfold c_mdev in En; lia.
    + rewrite gm_sq by (try assumption; rewrite ?Eb; assumption). rewrite Eb. fold p.
      replace (INR m / rate * rate) with (INR m) by (field; lra). field. repeat split; auto; lra.
Qed.

Lemma stat_line f G st A nu phi : In (f, (G, st)) line_resp -> exists s, In s stats /\ s_fun s = f /\
  forall rate N m, 0 < rate -> (1 <= m < N)%nat -> (1 < s_cnt s N m)%Z ->
    0 <= G nu rate (INR m / rate) /\
    line_law A G st nu rate (INR m / rate) (s_var s (sampled (tone A nu phi) rate N) rate m) (s_cnt s N m).
Proof.
  intros Hin.
  assert (Gp : forall nu rate tau, 0 < rate -> 0 < tau -> 0 <= gm nu rate tau).
  { clear. intros nu rate tau Hr Ht. unfold gm. pose proof (pow_le _ 3 (Rabs_pos (sin (PI * nu * tau)))).
    pose proof (Rabs_pos (sin (PI * nu / rate))) as H0. assert (0 <= tau * (tau * rate * Rabs (sin (PI * nu / rate)))) by (apply Rmult_le_pos; [lra|apply Rmult_le_pos; nra]).
    apply Rmult_le_pos; [nra|]. apply inv_ge0. assumption. }
  unfold line_resp in Hin.
  repeat (destruct Hin as [Hin|Hin]); try (now destruct Hin); injection Hin as <- <- <-.
  - exists st_adev. split; [cbn; tauto|]. split; [reflexivity|]. intros rate N m Hr Hm Hc. cbn in Hc. unfold c_adev in Hc.
    pose proof (pos_m m rate Hr ltac:(lia)) as P. split.
    { unfold g2. apply Rmult_le_pos; [pose proof (pow2_ge_0 (sin (PI * nu * (INR m / rate)))); lra|left; now apply Rinv_0_lt_compat]. }
    cbn [s_var st_adev s_cnt]. unfold avar, adev_n. rewrite sampled_len. unfold c_adev. set (n := ((N - 1) / m - 1)%nat) in *.
    assert (INR n <> 0) by (apply not_0_INR; lia). assert (INR m <> 0) by (apply not_0_INR; lia). set (p := PI * nu * (INR m / rate)).
    apply (line_law_i A g2 every_tau nu rate _ n (/ (2 * INR n * (INR m * (1 / rate)) ^ 2)) (- 4 * A * sin p ^ 2) (phi + 2 * p) (2 * PI * nu * (INR m / rate))); auto; [lia| |].
    + f_equal. apply bigsum_ext. intros k Hk. f_equal. rewrite (d2_tone A nu phi rate N m); [|assumption|lia|].
      * fold p. do 3 f_equal. rewrite mult_INR. field. lra.
      * pose proof (Nat.div_mod (N - 1) m ltac:(lia)). pose proof (Nat.mod_upper_bound (N - 1) m ltac:(lia)).
        unfold n in Hk. set (q := ((N - 1) / m)%nat) in *. nia.
    + unfold g2. fold p. field. repeat split; auto; lra.
  - exists st_oadev. split; [cbn; tauto|]. split; [reflexivity|]. intros rate N m Hr Hm Hc. cbn in Hc. unfold c_oadev in Hc.
    pose proof (pos_m m rate Hr ltac:(lia)) as P. split.
    { unfold g2. apply Rmult_le_pos; [pose proof (pow2_ge_0 (sin (PI * nu * (INR m / rate)))); lra|left; now apply Rinv_0_lt_compat]. }
    cbn [s_var st_oadev s_cnt]. unfold oavar, oadev_n. rewrite sampled_len. unfold c_oadev. set (n := (N - 2 * m)%nat) in *.
    assert (INR n <> 0) by (apply not_0_INR; lia). assert (INR m <> 0) by (apply not_0_INR; lia). set (p := PI * nu * (INR m / rate)).
    apply (line_law_i A g2 every_sample nu rate _ n (/ (2 * (INR m * (1 / rate)) ^ 2 * INR n)) (- 4 * A * sin p ^ 2) (phi + 2 * p) (2 * PI * nu / rate)); auto; [lia| |].
    + f_equal. apply bigsum_ext. intros k Hk. f_equal. apply d2_tone; [assumption|lia|unfold n in Hk; lia].
    + unfold g2. fold p. field. repeat split; auto; lra.
  - exists st_hdev. split; [cbn; tauto|]. split; [reflexivity|]. intros rate N m Hr Hm Hc. cbn in Hc. unfold c_hdev in Hc.
    pose proof (pos_m m rate Hr ltac:(lia)) as P. pose proof p3 as Q. split.
    { unfold g3. pose proof (pow_le _ 3 (Rabs_pos (sin (PI * nu * (INR m / rate))))). unfold Rdiv. apply Rmult_le_pos; [apply Rmult_le_pos; [apply Rmult_le_pos; [lra|left; now apply Rinv_0_lt_compat]|assumption]|left; now apply Rinv_0_lt_compat]. }
    cbn [s_var st_hdev s_cnt]. unfold hvar, hdev_n. rewrite sampled_len. unfold c_hdev. set (n := ((N - 1) / m - 2)%nat) in *.
    assert (INR n <> 0) by (apply not_0_INR; lia). assert (INR m <> 0) by (apply not_0_INR; lia). set (p := PI * nu * (INR m / rate)).
    apply (line_law_i A g3 every_tau nu rate _ n (/ (6 * (INR m * (1 / rate)) ^ 2 * INR n)) (8 * A * sin p ^ 3) (phi + 3 * p - PI / 2) (2 * PI * nu * (INR m / rate))); auto; [lia| |].
    + f_equal. apply bigsum_ext. intros k Hk. f_equal. rewrite (d3_tone A nu phi rate N m); [|assumption|lia|].
      * fold p. do 3 f_equal. rewrite mult_INR. field. lra.
      * pose proof (Nat.div_mod (N - 1) m ltac:(lia)). pose proof (Nat.mod_upper_bound (N - 1) m ltac:(lia)).
        unfold n in Hk. set (q := ((N - 1) / m)%nat) in *. nia.
    + rewrite g3_sq by exact P. fold p. field. repeat split; auto; lra.
  - exists st_ohdev. split; [cbn; tauto|]. split; [reflexivity|]. intros rate N m Hr Hm Hc. cbn in Hc. unfold c_ohdev in Hc.
    pose proof (pos_m m rate Hr ltac:(lia)) as P. pose proof p3 as Q. split.
    { unfold g3. pose proof (pow_le _ 3 (Rabs_pos (sin (PI * nu * (INR m / rate))))). unfold Rdiv. apply Rmult_le_pos; [apply Rmult_le_pos; [apply Rmult_le_pos; [lra|left; now apply Rinv_0_lt_compat]|assumption]|left; now apply Rinv_0_lt_compat]. }
    cbn [s_var st_ohdev s_cnt]. unfold ohvar, ohdev_n. rewrite sampled_len. unfold c_ohdev. set (n := (N - 3 * m)%nat) in *.
    assert (INR n <> 0) by (apply not_0_INR; lia). assert (INR m <> 0) by (apply not_0_INR; lia). set (p := PI * nu * (INR m / rate)).
    apply (line_law_i A g3 every_sample nu rate _ n (/ (6 * (INR m * (1 / rate)) ^ 2 * INR n)) (8 * A * sin p ^ 3) (phi + 3 * p - PI / 2) (2 * PI * nu / rate)); auto; [lia| |].
    + f_equal. apply bigsum_ext. intros k Hk. f_equal. apply d3_tone; [assumption|lia|unfold n in Hk; lia].
    + rewrite g3_sq by exact P. fold p. field. repeat split; auto; lra.
  - exists st_mdev. split; [cbn; tauto|]. split; [reflexivity|]. intros rate N m Hr Hm Hc. cbn in Hc.
    pose proof (pos_m m rate Hr ltac:(lia)) as P. split; [now apply Gp|]. cbn [s_var st_mdev s_cnt]. now apply mdev_line.
  - exists st_tdev. split; [cbn; tauto|]. split; [reflexivity|]. intros rate N m Hr Hm Hc. cbn in Hc.
    pose proof (pos_m m rate Hr ltac:(lia)) as P. pose proof p3 as Q. split.
    { apply Rmult_le_pos; [apply Rmult_le_pos; [lra|left; now apply Rinv_0_lt_compat]|now apply Gp]. }
    cbn [s_var st_tdev s_cnt]. destruct (mdev_line A nu phi rate N m Hr Hm Hc) as (q & E & H1 & H2). exists q. split; [|split; auto].
    unfold tvar. rewrite E. set (g := gm nu rate (INR m / rate)).
    transitivity ((INR m / rate) ^ 2 / (sqrt 3 * sqrt 3) * (A * g) ^ 2 * (2 * q)); [rewrite s3|]; field; lra.
  - exists st_tierms. split; [cbn; tauto|]. split; [reflexivity|]. intros rate N m Hr Hm Hc. cbn in Hc. unfold c_tie in Hc.
    split. { apply Rmult_le_pos; [left; exact p2|apply Rabs_pos]. }
    cbn [s_var st_tierms s_cnt]. unfold tierms_var. rewrite sampled_len. unfold c_tie. set (n := (N - m)%nat) in *.
    replace (Z.of_nat N - Z.of_nat m)%Z with (Z.of_nat n) by lia.
    assert (INR n <> 0) by (apply not_0_INR; lia). set (p := PI * nu * (INR m / rate)).
    apply (line_law_i A _ every_sample nu rate _ n (/ INR n) (- 2 * A * sin p) (phi + p - PI / 2) (2 * PI * nu / rate)); auto; [lia| |].
    + f_equal. apply bigsum_ext. intros k Hk. f_equal. apply d1_tone; [assumption|lia|unfold n in Hk; lia].
    + fold p. transitivity (4 * A ^ 2 * sin p ^ 2); [field; auto|]. rewrite !Rpow_mult_distr, pow2_abs.
      transitivity (2 * (A ^ 2 * ((sqrt 2 * sqrt 2) * sin p ^ 2))); [rewrite s2|]; ring.
Qed.

Theorem C107_line f G st A nu phi N rate taus t d e n : In (f, (G, st)) line_resp -> 0 < rate ->
  f (sampled (tone A nu phi) rate N) rate "phase"%string taus = Ok (t, d, e, n) ->
  len d = len t /\ len n = len t /\
  forall i, (i < len t)%nat ->
    let dev := Rabs A * G nu rate t.[i] in
    0 <= dev /\ d.[i] <= sqrt 2 * dev /\
    Rabs (d.[i] ^ 2 - dev ^ 2) * (IZR (nth i n 0%Z) * Rabs (sin (st nu rate t.[i]))) <= dev ^ 2.
Proof.
  intros Hin Hr E. destruct (stat_line f G st A nu phi Hin) as (s & Hs & Es & H).
  refine (rows (fun rate tau dv n => let dev := Rabs A * G nu rate tau in 0 <= dev /\ dv <= sqrt 2 * dev /\
    Rabs (dv ^ 2 - dev ^ 2) * (IZR n * Rabs (sin (st nu rate tau))) <= dev ^ 2) f s _ rate taus t d e n Hs Es Hr E _).
  rewrite sampled_len. intros m Hm _ Hc. destruct (H rate N m Hr Hm Hc) as (HG & q & EV & Hq & Hb). cbv zeta.
  set (dev := Rabs A * G nu rate (INR m / rate)).
  assert (Hd : 0 <= dev) by (apply Rmult_le_pos; [apply Rabs_pos|exact HG]).
  assert (E2 : (A * G nu rate (INR m / rate)) ^ 2 = dev ^ 2) by (unfold dev; rewrite !Rpow_mult_distr, pow2_abs; reflexivity).
  rewrite E2 in EV. pose proof (pow2_ge_0 dev) as Hd2. split; [exact Hd|]. unfold s_dev. rewrite EV. split.
  - rewrite <- (sqrt_pow2 dev) at 2 by exact Hd. rewrite <- sqrt_mult_alt by lra. apply sqrt_le_1_alt. nra.
  - rewrite pow2_sqrt by nra. replace (dev ^ 2 * (2 * q) - dev ^ 2) with (dev ^ 2 * (2 * q - 1)) by ring.
    rewrite Rabs_mult, Rabs_pos_eq, Rmult_assoc by exact Hd2. rewrite <- (Rmult_1_r (dev ^ 2)) at 2. now apply Rmult_le_compat_l.
Qed.
Print Assumptions C107_line.

(** A line added to any record. *)
Theorem C107_added_line f G st A nu phi x rate taus t d e n t' d' e' n' : In (f, (G, st)) line_resp -> 0 < rate ->
  f x rate "phase"%string taus = Ok (t, d, e, n) ->
  f (plus x (sampled (tone A nu phi) rate (len x))) rate "phase"%string taus = Ok (t', d', e', n') ->
  t' = t /\ n' = n /\ len d = len t /\ len d' = len t /\
  forall i, (i < len t)%nat -> Rabs (d'.[i] - d.[i]) <= sqrt 2 * (Rabs A * G nu rate t.[i]).
Proof.
  intros Hin Hr Ex Ey.
  assert (Hf : In f [adev; oadev; hdev; ohdev; mdev; tdev; pdev; totdev; mtotdev; ttotdev; htotdev; theo1; tierms; mtie]).
  { apply (in_map fst) in Hin. cbn [map fst line_resp] in Hin. cbn [In] in *. intuition. }
  set (y := sampled (tone A nu phi) rate (len x)) in *. assert (Ly : len y = len x) by apply sampled_len.
  assert (Lp : len (plus x y) = len x) by (apply plus_len; auto).
  destruct (C90_distance f (plus x y) x rate taus t' d' e' n' t d e n Hf Hr ltac:(now rewrite Lp) Ey Ex) as (-> & -> & dd & ee & Em & L1 & L2 & L3 & D).
  repeat split; auto. intros i Hi. eapply Rle_trans; [apply D|].
  replace (minus (plus x y) x) with y in Em.
  2:{ apply (nth_ext _ _ 0 0); [now rewrite minus_len, Lp|]. intros k _. rewrite nth_minus, nth_plus by (rewrite ?Lp; auto). ring. }
  destruct (C107_line f G st A nu phi (len x) rate taus t' dd ee n' Hin Hr Em) as (_ & _ & H). now apply H.
Qed.
Print Assumptions C107_added_line.

(** The period of the line divides tau: that row of adev, oadev, hdev, ohdev, mdev, tdev and tierms does not see it. *)
Theorem C107_averaged_out f G st A nu phi x rate taus t d e n t' d' e' n' i (z : Z) : In (f, (G, st)) line_resp -> 0 < rate ->
  f x rate "phase"%string taus = Ok (t, d, e, n) ->
  f (plus x (sampled (tone A nu phi) rate (len x))) rate "phase"%string taus = Ok (t', d', e', n') ->
  (i < len t)%nat -> nu * t.[i] = IZR z -> d'.[i] = d.[i].
Proof.
  intros Hin Hr Ex Ey Hi Hz. destruct (C107_added_line f G st A nu phi x rate taus t d e n t' d' e' n' Hin Hr Ex Ey) as (_ & _ & _ & _ & H).
  specialize (H i Hi). assert (S0 : sin (PI * nu * t.[i]) = 0).
  { rewrite Rmult_assoc, Hz, Rmult_comm. apply sin_eq_0_1. now exists z. }
  assert (E : G nu rate t.[i] = 0).
  { unfold line_resp in Hin. repeat (destruct Hin as [Hin|Hin]); try (now destruct Hin); injection Hin as <- <- <-;
      unfold g2, g3, gm; rewrite S0, ?Rabs_R0; unfold Rdiv; ring. }
  rewrite E, !Rmult_0_r in H. pose proof (Rabs_pos (d'.[i] - d.[i])). assert (Rabs (d'.[i] - d.[i]) = 0) as Z by lra.
  destruct (Req_dec (d'.[i] - d.[i]) 0) as [E0|E0]; [lra|]. now apply Rabs_no_R0 in E0.
Qed.
Print Assumptions C107_averaged_out.

(** ** Examples *)
Example C107_ex_drift : exists e, oadev (sampled (drifting 1 3 2) 1 8) 1 "phase" (TList [INR 2 / 1]) =
  Ok ([INR 2 / 1], [2 * (2 / sqrt 2)], e, [4%Z]).
Proof.
  pose proof (oadev_single (sampled (drifting 1 3 2) 1 8) 1 2 Rlt_0_1 ltac:(lia) ltac:(rewrite sampled_len; lia)) as E.
  destruct (C107_drift oadev _ 1 3 2 8 1 _ _ _ _ _ ltac:(right; left; reflexivity) Rlt_0_1 E) as [_ H].
  specialize (H 0%nat ltac:(cbn; lia)). cbn [nth] in H. eexists. rewrite E, H. rewrite (Rabs_pos_eq 2) by lra.
  unfold oadev_n. rewrite sampled_len. replace (INR 2 / 1) with 2 by (cbn; field). reflexivity.
Qed.
Example C107_ex_offset : exists e, mtie (sampled (fun t => 5 + -3 * t) 1 8) 1 "phase" (TList [INR 2 / 1]) =
  Ok ([INR 2 / 1], [6], e, [6%Z]).
Proof.
  pose proof (offset_mtie 5 (-3) 1 8 2 Rlt_0_1 ltac:(lia)) as M.
  pose proof (mtie_single (sampled (fun t => 5 + -3 * t) 1 8) 1 2 _ Rlt_0_1 ltac:(lia) ltac:(rewrite sampled_len; lia) M) as E. eexists. rewrite E, sampled_len.
  replace (Rabs (-3) * (INR 2 / 1)) with 6 by (rewrite Rabs_left by lra; cbn; field). reflexivity.
Qed.
(** a line of frequency 1/4: full response at tau = 2, none at tau = 4 *)
Example C107_ex_line : exists d e, oadev (sampled (tone 1 (1 / 4) 0) 1 12) 1 "phase" (TList [INR 2 / 1]) = Ok ([INR 2 / 1], [d], e, [8%Z]) /\
  Rabs (d ^ 2 - 1) <= 1 / 8.
Proof.
  pose proof (oadev_single (sampled (tone 1 (1 / 4) 0) 1 12) 1 2 Rlt_0_1 ltac:(lia) ltac:(rewrite sampled_len; lia)) as E.
  unfold oadev_n in E. rewrite sampled_len in E.
  destruct (C107_line oadev _ _ 1 (1 / 4) 0 12 1 _ _ _ _ _ ltac:(right; left; reflexivity) Rlt_0_1 E) as (_ & _ & H).
  specialize (H 0%nat ltac:(cbn; lia)). cbn [nth] in H. cbv zeta in H. destruct H as (_ & _ & H).
  assert (S1 : sin (PI * (1 / 4) * (INR 2 / 1)) = 1) by (replace (PI * (1 / 4) * (INR 2 / 1)) with (PI / 2) by (cbn; field); apply sin_PI2).
  assert (S2 : sin (every_sample (1 / 4) 1 (INR 2 / 1)) = 1) by (unfold every_sample; replace (2 * PI * (1 / 4) / 1) with (PI / 2) by field; apply sin_PI2).
  unfold g2 in H. rewrite S1, S2, !Rabs_R1 in H. replace (1 * (2 * 1 ^ 2 / (INR 2 / 1))) with 1 in H by (cbn; field).
  eexists _, _. split; [exact E|]. change (IZR (Z.of_nat (12 - 2 * 2))) with 8 in H. rewrite pow1 in H. lra.
Qed.
Example C107_ex_averaged : exists e, oadev (sampled (tone 1 (1 / 4) 0) 1 12) 1 "phase" (TList [INR 4 / 1]) = Ok ([INR 4 / 1], [0], e, [4%Z]).
Proof.
  pose proof (oadev_single (sampled (tone 1 (1 / 4) 0) 1 12) 1 4 Rlt_0_1 ltac:(lia) ltac:(rewrite sampled_len; lia)) as E.
  unfold oadev_n in E. rewrite sampled_len in E.
  destruct (C107_line oadev _ _ 1 (1 / 4) 0 12 1 _ _ _ _ _ ltac:(right; left; reflexivity) Rlt_0_1 E) as (_ & _ & H).
  specialize (H 0%nat ltac:(cbn; lia)). cbn [nth] in H. cbv zeta in H. destruct H as (_ & H & _).
  assert (S1 : sin (PI * (1 / 4) * (INR 4 / 1)) = 0) by (replace (PI * (1 / 4) * (INR 4 / 1)) with PI by (cbn; field); apply sin_PI).
  unfold g2 in H. rewrite S1, Rabs_R1 in H.
  eexists. rewrite E. do 3 f_equal. f_equal. f_equal. f_equal. apply Rle_antisym; [|apply sqrt_pos].
  eapply Rle_trans; [exact H|]. right. unfold Rdiv. ring.
Qed.
