(** * Level of the noises generated by noise.white, noise.brown and noise.violet (C94).

    The generators (allantools/noise.py 63-136) take the desired level b of a
    one-sided power spectral density b f^alpha.  The standard relations between
    such a level and the Allan variances (IEEE 1139, quoted in the package's
    documentation) are statements about expectations. *)
From Coq Require Import String Reals List ZArith Bool Arith Lia Lra.
From Verif Require Import Base Num NpList NumR Spec ListFacts RSum Dft ModelCore ModelDev ModelNoise ModelNoiseR
  DevProofs TotProofs Laws2 Laws3 ConvProofs NoiseProofs PropsKasdin PropsPredict PropsExpect PropsDev PropsNoise PropsConv PropsLaws PropsBias PropsPsd CiProofs ColorProofs.
Import ListNotations.
Local Open Scope R_scope.
Local Notation len := List.length.

(** ** Specification *)

(** expectation of a quantity of the generated series (0 stands for an exception) *)
Definition mean_of (E : ((nat -> R) -> R) -> R) (gen : (nat -> R) -> res (list R)) (g : list R -> R) : R :=
  E (fun w => match gen w with Ok y => g y | Err _ => 0 end).
(** square of the deviation reported at tau = m/rate for frequency data *)
Definition reported (f : list R -> R -> string -> taus_arg R -> res (@result R)) (rate : R) (m : nat) (y : list R) : R :=
  dev2 (f y rate "freq"%string (TList [INR m / rate])).
(** value numpy_psd gives at bin k *)
Definition psd_at (fs : R) (k : nat) (y : list R) : R := match numpy_psd y fs with Ok (_, p) => p.[k] | Err _ => 0 end.

(** ** Allan variances *)
Definition blind : list (list R -> R -> string -> taus_arg R -> res (@result R)) := [adev; oadev; hdev; ohdev; mdev; tdev; pdev; totdev; mtotdev; ttotdev; htotdev; theo1].
Lemma reported_record f n y rec rate m a b : In f blind -> (1 <= n)%nat -> 0 < rate -> len y = n -> rec = shifted (line a b) (integrated y rate) ->
  reported f rate m y = dev2 (f rec rate "phase"%string (TList [INR m / rate])).
Proof.
  intros Hf Hn Hr Hl ->. unfold reported. rewrite C31_line by assumption. f_equal. apply C12_trend_blind; try assumption. intros ->. cbn in Hl. lia.
Qed.
Lemma white_edev E n b0 fs f m : white (n + 1) E -> In f blind -> (1 <= n)%nat -> 0 <= b0 -> 0 < fs ->
  mean_of E (fun w => ModelNoise.white w n b0 fs) (reported f fs m) = edev (Erot n E) (n + 1) (b0 / (2 * fs)) (-2) f fs m.
Proof.
  intros HE Hf Hn Hb Hs. unfold mean_of, edev, Erot. apply (wh_ext _ E HE). intros w. rewrite white_series by assumption.
  eapply reported_record; try eassumption; [apply tab_length|]. now apply white_record.
Qed.
Lemma brown_edev E n b fs f m : white (n + 1) E -> In f blind -> (1 <= n)%nat -> 0 <= b -> 0 < fs ->
  mean_of E (fun w => brown PI w n b fs) (reported f fs m) = edev (Erot n E) (n + 1) (2 * PI ^ 2 * b / fs ^ 3) (-4) f fs m.
Proof.
  intros HE Hf Hn Hb Hs. unfold mean_of, edev, Erot. apply (wh_ext _ E HE). intros w. rewrite brown_series by assumption.
  eapply reported_record; try eassumption; [apply tab_length|]. now apply brown_record.
Qed.
Lemma violet_edev E n b fs f m : white (n + 1) E -> In f blind -> (1 <= n)%nat -> 0 <= b -> 0 < fs ->
  mean_of E (fun w => violet PI w n b fs) (reported f fs m) = edev E (n + 1) (b * fs / (8 * PI ^ 2)) 0 f fs m.
Proof.
  intros HE Hf Hn Hb Hs. unfold mean_of, edev. apply (wh_ext _ E HE). intros w. rewrite violet_series by assumption.
  eapply reported_record; try eassumption; [apply tab_length|]. now apply violet_record.
Qed.
Lemma edev_adev nr E qd rate m b : white nr E -> 0 <= qd -> 0 < rate -> slope3 b -> (1 <= m)%nat -> (3 * m + 1 <= nr)%nat ->
  edev E nr qd b adev rate m = allan b qd (INR m / rate) m.
Proof.
  intros HE Hq Hr Hb Hm Hn. rewrite <- (C85_oadev nr E) by (try assumption; lia).
  rewrite (edev_var E nr qd b oadev rate m (fun x => oavar x (1 / rate) m) HE); [|intros; apply oavar_nonneg|
    intro w; rewrite oadev_single by (try assumption; rewrite record_len by lia; lia); do 3 eexists; reflexivity].
  rewrite <- (C78_overlap_unbiased nr E) by (try assumption; try lia; apply tau_pos, Hr).
  apply (edev_var E nr qd b adev rate m (fun x => avar x (1 / rate) m) HE).
  - intro w. apply avar_nonneg.
  - intro w. assert (3 <= (nr - 1) / m)%nat by (apply Nat.div_le_lower_bound; lia).
    rewrite adev_single; [do 3 eexists; reflexivity|exact Hr|rewrite record_len by lia; lia|]. unfold adev_n. rewrite record_len by lia. lia.
Qed.
Lemma edev_mdev nr E qd rate m b v : white nr E -> 0 <= qd -> 0 < rate -> (1 <= m)%nat -> (3 * m + 1 <= nr)%nat ->
  (forall i, (i + 3 * m <= nr)%nat -> bigsum nr (fun j => (bigsum m (fun t => c2 b m (i + t) j)) ^ 2) = v) ->
  edev E nr qd b mdev rate m = qd * v / (2 * INR m ^ 2 * (INR m / rate) ^ 2).
Proof.
  intros HE Hq Hr Hm Hn Hv. assert (0 < INR m) by (apply lt_0_INR; lia).
  rewrite (edev_var E nr qd b mdev rate m (fun x => mvar x (1 / rate) m) HE).
  - rewrite (E_mvar nr E HE qd b m (1 / rate) v Hq) by (try assumption; try lia; apply tau_pos, Hr). field. lra.
  - intro w. apply mvar_nonneg. unfold mdev_n. rewrite record_len by lia. lia.
  - intro w. rewrite mdev_single by (try assumption; rewrite record_len by lia; lia). do 3 eexists. reflexivity.
Qed.
Ltac req := repeat match goal with |- context [Req_EM_T ?p ?q] => destruct (Req_EM_T p q); try (exfalso; lra) end.

(** white frequency noise of level h0 = b0: h0 / (2 tau) *)
Theorem C94_white E n b0 fs m : white (n + 1) E -> 0 <= b0 -> 0 < fs -> (1 <= m)%nat -> (4 * m <= n)%nat ->
  let tau := INR m / fs in let M f := mean_of E (fun w => ModelNoise.white w n b0 fs) (reported f fs m) in
  M adev = b0 / (2 * tau) /\ M oadev = b0 / (2 * tau) /\ M hdev = b0 / (2 * tau) /\ M ohdev = b0 / (2 * tau) /\
  M mdev = (1 + / INR m ^ 2) / 2 * (b0 / (2 * tau)).
Proof.
  intros HE Hb Hf Hm Hn tau M. unfold M, tau. assert (Hmp : 0 < INR m) by (apply lt_0_INR; lia).
  assert (Q : 0 <= b0 / (2 * fs)) by (apply Rmult_le_pos; [exact Hb|left; apply Rinv_0_lt_compat; lra]). pose proof (white_rot n E HE) as HR.
  repeat split; intros; rewrite white_edev by (try assumption; try lia; cbn; tauto).
  - rewrite edev_adev by (try assumption; try lia; unfold slope3; tauto). unfold allan. req. field. lra.
  - rewrite C85_oadev by (try assumption; try lia; unfold slope3; tauto). unfold allan. req. field. lra.
  - rewrite C85_hdev by (try assumption; try lia; unfold slope3; tauto). unfold allan, hratio. req. field. lra.
  - rewrite C85_ohdev by (try assumption; try lia; unfold slope3; tauto). unfold allan, hratio. req. field. lra.
  - rewrite (edev_mdev _ _ _ _ _ _ (INR m ^ 3 + INR m)) by (try assumption; try lia; intros; apply mvar_wfm; lia). field. lra.
Qed.
Print Assumptions C94_white.

(** random walk frequency noise of level h_{-2} = b: (2 pi^2 / 3) b tau in the limit of large m *)
Theorem C94_brown E n b fs m : white (n + 1) E -> 0 <= b -> 0 < fs -> (1 <= m)%nat -> (4 * m <= n)%nat ->
  let tau := INR m / fs in let M f := mean_of E (fun w => brown PI w n b fs) (reported f fs m) in
  M adev = 2 * PI ^ 2 / 3 * b * tau * (1 + / (2 * INR m ^ 2)) /\ M oadev = M adev /\
  M hdev = PI ^ 2 / 3 * b * tau * (1 + / INR m ^ 2) /\ M ohdev = M hdev.
Proof.
  intros HE Hb Hf Hm Hn tau M. unfold M, tau. assert (Hmp : 0 < INR m) by (apply lt_0_INR; lia). pose proof PI_RGT_0 as HP.
  assert (Q : 0 <= 2 * PI ^ 2 * b / fs ^ 3).
  { apply Rmult_le_pos; [apply Rmult_le_pos; [|exact Hb]; pose proof (pow_lt PI 2 HP); lra|left; apply Rinv_0_lt_compat, pow_lt; lra]. }
  pose proof (white_rot n E HE) as HR. rewrite !brown_edev by (try assumption; try lia; cbn; tauto).
  rewrite edev_adev, C85_oadev, C85_hdev, C85_ohdev by (try assumption; try lia; unfold slope3; tauto).
  unfold allan, hratio. req. repeat split; field; nra.
Qed.
Print Assumptions C94_brown.

(** white phase noise of level h_2 = b with the bandwidth fh = fs/2 of the sampled series: 3 b fh / (4 pi^2 tau^2) *)
Theorem C94_violet E n b fs m : white (n + 1) E -> 0 <= b -> 0 < fs -> (1 <= m)%nat -> (4 * m <= n)%nat ->
  let tau := INR m / fs in let fh := fs / 2 in let M f := mean_of E (fun w => violet PI w n b fs) (reported f fs m) in
  M adev = 3 * b * fh / (4 * PI ^ 2 * tau ^ 2) /\ M oadev = M adev /\ M hdev = 10 / 9 * M adev /\ M ohdev = M hdev /\ M mdev = M adev / INR m.
Proof.
  intros HE Hb Hf Hm Hn tau fh M. unfold M, tau, fh. assert (Hmp : 0 < INR m) by (apply lt_0_INR; lia). pose proof PI_RGT_0 as HP.
  assert (Q : 0 <= b * fs / (8 * PI ^ 2)).
  { apply Rmult_le_pos; [nra|left; apply Rinv_0_lt_compat; pose proof (pow_lt PI 2 HP); lra]. }
  rewrite !violet_edev by (try assumption; try lia; cbn; tauto).
  rewrite edev_adev, C85_oadev, C85_hdev, C85_ohdev by (try assumption; try lia; unfold slope3; tauto).
  rewrite (edev_mdev _ _ _ _ _ _ (6 * INR m)) by (try assumption; try lia; intros; apply mvar_wpm; lia).
  unfold allan, hratio. req. repeat split; field; repeat split; lra.
Qed.
Print Assumptions C94_violet.

(** ** Spectra *)
Definition phi (n k : nat) : R := 2 * PI * INR k / INR n.
Lemma phi_eq n k i : INR i * phi n k = 2 * PI * INR k * INR i / INR n.
Proof. unfold phi, Rdiv. ring. Qed.
(** expectation of the periodogram of a series which is linear in the samples *)
Lemma psd_lin K E n fs k (gen : (nat -> R) -> res (list R)) y (C S : nat -> R) : white K E -> (1 <= n)%nat -> 0 < fs -> (k <= n / 2)%nat ->
  (forall w, gen w = Ok (tab n (y w))) ->
  (forall w, bigsum n (fun i => y w i * cos (INR i * phi n k)) = bigsum K (fun j => C j * w j)) ->
  (forall w, bigsum n (fun i => y w i * sin (INR i * phi n k)) = bigsum K (fun j => S j * w j)) ->
  mean_of E gen (psd_at fs k) = 2 / (INR n * fs) * bigsum K (fun j => C j ^ 2 + S j ^ 2).
Proof.
  intros HE Hn Hf Hk Hg HC HS. unfold mean_of.
  rewrite (wh_ext _ E HE _ (fun w => 2 / (INR n * fs) * ((bigsum K (fun j => C j * w j)) ^ 2 + (bigsum K (fun j => S j * w j)) ^ 2))).
  - rewrite (wh_scal _ E HE), (wh_add _ E HE (fun w => (bigsum K (fun j => C j * w j)) ^ 2)), !(E_lin _ E HE) by lia. now rewrite bigsum_plus.
  - intros w. rewrite Hg. unfold psd_at. rewrite numpy_psd_eq; [|intros Q; apply (f_equal (@List.length R)) in Q; rewrite tab_length in Q; cbn in Q; lia|lra].
    rewrite tab_length. rewrite nth_tab by lia. f_equal. unfold pw, dc, ds. rewrite <- HC, <- HS.
    f_equal; f_equal; apply bigsum_ext; intros i Hi; rewrite nth_tab by exact Hi; now rewrite phi_eq.
Qed.
Lemma wscale_sq b fs : 0 <= b -> 0 < fs -> wscale b fs ^ 2 = b * fs / 2.
Proof. intros Hb Hf. unfold wscale. apply pow2_sqrt. apply Rmult_le_pos; [nra|lra]. Qed.
Lemma trig1 x : cos x ^ 2 + sin x ^ 2 = 1.
Proof. pose proof (sin2_cos2 x). unfold Rsqr in *. lra. Qed.

Theorem C94_psd_white E n b0 fs k : white n E -> 0 <= b0 -> 0 < fs -> (1 <= n)%nat -> (k <= n / 2)%nat ->
  mean_of E (fun w => ModelNoise.white w n b0 fs) (psd_at fs k) = b0.
Proof.
  intros HE Hb Hf Hn Hk. assert (Hn' : 0 < INR n) by (apply lt_0_INR; lia).
  rewrite (psd_lin n E n fs k _ (fun w i => wscale b0 fs * w i) (fun j => wscale b0 fs * cos (INR j * phi n k)) (fun j => wscale b0 fs * sin (INR j * phi n k)) HE) by
    (first [assumption | intros w; now apply white_series | intros; apply bigsum_ext; intros; ring]).
  rewrite (bigsum_ext n _ (fun _ => b0 * fs / 2)), bigsum_const.
  - field. lra.
  - intros j Hj. rewrite <- (wscale_sq b0 fs Hb Hf). rewrite !Rpow_mult_distr, <- Rmult_plus_distr_l, trig1. ring.
Qed.
Print Assumptions C94_psd_white.

Lemma abel n (w g : nat -> R) : bigsum n (fun i => bigsum (S i) w * g i) = bigsum n (fun j => (bigsum n g - bigsum j g) * w j).
Proof.
  induction n as [|n IH]; [reflexivity|].
  change (bigsum (S n) (fun i => bigsum (S i) w * g i)) with (bigsum n (fun i => bigsum (S i) w * g i) + bigsum (S n) w * g n). rewrite IH.
  change (bigsum (S n) (fun j => (bigsum (S n) g - bigsum j g) * w j)) with (bigsum n (fun j => (bigsum (S n) g - bigsum j g) * w j) + (bigsum (S n) g - bigsum n g) * w n).
  cbn [bigsum]. rewrite (bigsum_ext n (fun j => (bigsum n g + g n - bigsum j g) * w j) (fun j => (bigsum n g - bigsum j g) * w j + g n * w j)) by (intros; ring).
  rewrite bigsum_plus, bigsum_scal. ring.
Qed.
Lemma phi_half n k : phi n k / 2 = PI * INR k / INR n.
Proof. unfold phi, Rdiv. lra. Qed.
Lemma phi_pos n k : (1 <= k)%nat -> (2 * k <= n)%nat -> 0 < phi n k / 2 <= PI / 2.
Proof.
  intros Hk Hn. rewrite phi_half. pose proof PI_RGT_0. assert (0 < INR k) by (apply lt_0_INR; lia). assert (0 < INR n) by (apply lt_0_INR; lia).
  assert (2 * INR k <= INR n) by (change 2 with (INR 2); rewrite <- mult_INR; apply le_INR; lia).
  split; [apply Rmult_lt_0_compat; [nra|apply Rinv_0_lt_compat; lra]|]. apply (Rmult_le_reg_r (INR n)); [lra|]. replace (PI * INR k / INR n * INR n) with (PI * INR k) by (field; lra). nra.
Qed.
Lemma tails n k j : (1 <= n)%nat ->
  let d g := bigsum n (fun i => g (INR i * phi n k)) - bigsum j (fun i => g (INR i * phi n k)) in
  4 * sin (phi n k / 2) ^ 2 * (d cos ^ 2 + d sin ^ 2) = 2 - 2 * cos (INR j * phi n k).
Proof.
  intros Hn d. assert (Hn' : INR n <> 0) by (apply not_0_INR; lia). set (p := phi n k) in *.
  assert (C : 2 * sin (p / 2) * d cos = - sin (p / 2) - sin (INR j * p - p / 2)).
  { unfold d. rewrite Rmult_minus_distr_l, !dirichlet_cos. replace ((INR n - 1 / 2) * p) with (- (p / 2) + 2 * INR k * PI) by (unfold p, phi; field; lra).
    rewrite sin_period, sin_neg. replace ((INR j - 1 / 2) * p) with (INR j * p - p / 2) by lra. lra. }
  assert (S : 2 * sin (p / 2) * d sin = cos (INR j * p - p / 2) - cos (p / 2)).
  { unfold d. rewrite Rmult_minus_distr_l, !dirichlet_sin. replace ((INR n - 1 / 2) * p) with (- (p / 2) + 2 * INR k * PI) by (unfold p, phi; field; lra).
    rewrite cos_period, cos_neg. replace ((INR j - 1 / 2) * p) with (INR j * p - p / 2) by lra. lra. }
  replace (4 * sin (p / 2) ^ 2 * (d cos ^ 2 + d sin ^ 2)) with ((2 * sin (p / 2) * d cos) ^ 2 + (2 * sin (p / 2) * d sin) ^ 2) by ring. rewrite C, S.
  replace (cos (INR j * p)) with (cos ((INR j * p - p / 2) + p / 2)) by (f_equal; lra). rewrite cos_plus.
  pose proof (trig1 (p / 2)). pose proof (trig1 (INR j * p - p / 2)). nra.
Qed.

(** the expectation of the periodogram of brown noise: with f = k fs/n and x = pi k/n it is 2 b/f^2 (x / sin x)^2 *)
Theorem C94_psd_brown E n b fs k : white n E -> 0 <= b -> 0 < fs -> (1 <= k)%nat -> (k <= n / 2)%nat ->
  let f := INR k * fs / INR n in let x := PI * INR k / INR n in
  mean_of E (fun w => brown PI w n b fs) (psd_at fs k) = 2 * (b / f ^ 2) * (x / sin x) ^ 2.
Proof.
  intros HE Hb Hf Hk Hkn f x. assert (H2 : (2 * k <= n)%nat) by (pose proof (Nat.mul_div_le n 2); lia).
  assert (Hn' : 0 < INR n) by (apply lt_0_INR; lia). assert (Hk' : 0 < INR k) by (apply lt_0_INR; lia). pose proof PI_RGT_0 as HP.
  destruct (phi_pos n k Hk H2) as (P0 & P1). assert (Hsin : 0 < sin x) by (unfold x; rewrite <- phi_half; apply sin_gt_0; lra).
  set (s := wscale (b * (4 * PI * PI)) fs / fs).
  assert (Hs : s ^ 2 = 2 * PI ^ 2 * b / fs).
  { unfold s. replace ((wscale (b * (4 * PI * PI)) fs / fs) ^ 2) with (wscale (b * (4 * PI * PI)) fs ^ 2 / fs ^ 2) by (field; lra). rewrite wscale_sq by (try lra; apply Rmult_le_pos; nra). field. lra. }
  set (d g j := bigsum n (fun i => g (INR i * phi n k)) - bigsum j (fun i => g (INR i * phi n k))).
  assert (A : forall g w, bigsum n (fun i => s * bigsum (S i) w * g (INR i * phi n k)) = bigsum n (fun j => s * d g j * w j)).
  { intros g w. rewrite (bigsum_ext n _ (fun i => s * (bigsum (S i) w * g (INR i * phi n k)))) by (intros; ring). rewrite bigsum_scal, abel, <- bigsum_scal.
    apply bigsum_ext. intros j Hj. unfold d. ring. }
  rewrite (psd_lin n E n fs k _ (fun w i => s * bigsum (S i) w) (fun j => s * d cos j) (fun j => s * d sin j) HE) by
    (first [assumption | lia | intros w; now apply brown_series | intros; apply A]).
  rewrite (bigsum_ext n _ (fun j => s ^ 2 / (2 * sin x ^ 2) * (1 - cos (INR j * phi n k)))).
  - rewrite bigsum_scal, bigsum_minus, bigsum_const.
    rewrite (bigsum_ext n (fun j => cos (INR j * phi n k)) (fun j => cos (INR j * (2 * PI * IZR (Z.of_nat k) / INR n)))) by (intros; unfold phi; now rewrite <- INR_IZR_INZ).
    rewrite char_cos by (first [lia | intros q Q; destruct (Z_le_gt_dec q 0); nia]). rewrite Hs. revert Hsin. generalize (sin x). intros sx Hsx. unfold f, x. field. repeat split; lra.
  - intros j Hj. pose proof (tails n k j ltac:(lia)) as T. cbn zeta in T. change (4 * sin (phi n k / 2) ^ 2 * (d cos j ^ 2 + d sin j ^ 2) = 2 - 2 * cos (INR j * phi n k)) in T. rewrite phi_half in T. fold x in T.
    replace ((s * d cos j) ^ 2 + (s * d sin j) ^ 2) with (s ^ 2 / (2 * sin x ^ 2) * (4 * sin x ^ 2 * (d cos j ^ 2 + d sin j ^ 2) / 2)) by (field; lra).
    rewrite T. field. lra.
Qed.
Print Assumptions C94_psd_brown.

Lemma diffs n (w g : nat -> R) : (1 <= n)%nat ->
  bigsum n (fun i => (w (S i) - w i) * g i) = bigsum (n + 1) (fun j => ((match j with O => 0 | S i => g i end) - (if Nat.ltb j n then g j else 0)) * w j).
Proof.
  intros Hn. rewrite (bigsum_ext n _ (fun i => g i * w (S i) - g i * w i)) by (intros; ring). rewrite bigsum_minus.
  rewrite (bigsum_ext (n + 1) _ (fun j => (match j with O => 0 | S i => g i end) * w j - (if Nat.ltb j n then g j else 0) * w j)) by (intros; ring). rewrite bigsum_minus. f_equal.
  - rewrite Nat.add_1_r, bigsum_S_l. rewrite Rmult_0_l, Rplus_0_l. reflexivity.
  - rewrite Nat.add_1_r. cbn [bigsum]. rewrite Nat.ltb_irrefl, Rmult_0_l, Rplus_0_r. apply bigsum_ext. intros j Hj. apply Nat.ltb_lt in Hj. now rewrite Hj.
Qed.

Theorem C94_psd_violet E n b fs k : white (n + 1) E -> 0 <= b -> 0 < fs -> (1 <= n)%nat -> (k <= n / 2)%nat ->
  mean_of E (fun w => violet PI w n b fs) (psd_at fs k) =
  b * (fs / (2 * PI)) ^ 2 * (4 * (INR n - 1) / INR n * sin (PI * INR k / INR n) ^ 2 + 2 / INR n).
Proof.
  intros HE Hb Hf Hn Hk. assert (Hn' : 0 < INR n) by (apply lt_0_INR; lia). pose proof PI_RGT_0 as HP.
  set (s := fs * wscale (b / (2 * PI) ^ 2) fs).
  assert (Hs : s ^ 2 = b * fs ^ 3 / (8 * PI ^ 2)).
  { unfold s. rewrite Rpow_mult_distr, wscale_sq; [field; lra| |exact Hf]. apply Rmult_le_pos; [exact Hb|left; apply Rinv_0_lt_compat, pow_lt; lra]. }
  set (d (g : R -> R) j := (match j with O => 0 | S i => g (INR i * phi n k) end) - (if Nat.ltb j n then g (INR j * phi n k) else 0)).
  assert (A : forall g w, bigsum n (fun i => s * (w (S i) - w i) * g (INR i * phi n k)) = bigsum (n + 1) (fun j => s * d g j * w j)).
  { intros g w. rewrite (bigsum_ext n _ (fun i => s * ((w (S i) - w i) * g (INR i * phi n k)))) by (intros; ring). rewrite bigsum_scal.
    rewrite (diffs n w (fun i => g (INR i * phi n k)) Hn), <- bigsum_scal. apply bigsum_ext. intros j Hj. unfold d. ring. }
  rewrite (psd_lin (n + 1) E n fs k _ (fun w i => s * (w (S i) - w i)) (fun j => s * d cos j) (fun j => s * d sin j) HE) by
    (first [assumption | lia | intros w; now apply violet_series | intros; apply A]).
  rewrite (bigsum_ext (n + 1) _ (fun j => s ^ 2 * (d cos j ^ 2 + d sin j ^ 2))) by (intros; ring). rewrite bigsum_scal.
  destruct n as [|q]; [lia|]. clear Hn. replace (S q + 1)%nat with (S (S q)) by lia. rewrite bigsum_S_l. cbn [bigsum].
  rewrite (bigsum_ext q _ (fun _ => 4 * sin (phi (S q) k / 2) ^ 2)).
  - rewrite bigsum_const. unfold d at 1 2 3 4. rewrite Nat.ltb_irrefl. cbn [Nat.ltb Nat.leb]. rewrite Hs.
    replace ((0 - cos (INR 0 * phi (S q) k)) ^ 2 + (0 - sin (INR 0 * phi (S q) k)) ^ 2) with (cos (INR 0 * phi (S q) k) ^ 2 + sin (INR 0 * phi (S q) k) ^ 2) by ring.
    rewrite !Rminus_0_r, !trig1, phi_half. replace (INR (S q) - 1) with (INR q) by (rewrite S_INR; ring). field. lra.
  - intros i Hi. unfold d. replace (Nat.ltb (S i) (S q)) with true by (symmetry; apply Nat.ltb_lt; lia). set (p := phi (S q) k). set (t := INR i * p).
    replace (INR (S i) * p) with (t + 2 * (p / 2)) by (unfold t; rewrite S_INR; field). rewrite cos_plus, sin_plus, cos_2a_sin, sin_2a.
    pose proof (trig1 t). pose proof (trig1 (p / 2)) as T2. set (c := cos t) in *. set (u := sin t) in *. set (v := sin (p / 2)) in *. set (z := cos (p / 2)) in *.
    replace ((c - (c * (1 - 2 * v * v) - u * (2 * v * z))) ^ 2 + (u - (u * (1 - 2 * v * v) + c * (2 * v * z))) ^ 2) with (4 * v ^ 2 * (c ^ 2 + u ^ 2) * (v ^ 2 + z ^ 2)) by ring.
    rewrite H. replace (v ^ 2 + z ^ 2) with 1 by lra. ring.
Qed.
Print Assumptions C94_psd_violet.

(** "desired power-spectral density is b2*f^-2" (noise.py:98): the periodogram is more than twice as high in every bin *)
Theorem C94_psd_brown_refuted E n b fs k : white n E -> 0 < b -> 0 < fs -> (1 <= k)%nat -> (k <= n / 2)%nat ->
  2 * (b / (INR k * fs / INR n) ^ 2) < mean_of E (fun w => brown PI w n b fs) (psd_at fs k).
Proof.
  intros HE Hb Hf Hk Hkn. rewrite C94_psd_brown by (try assumption; lra). cbn zeta.
  assert (H2 : (2 * k <= n)%nat) by (pose proof (Nat.mul_div_le n 2); lia). destruct (phi_pos n k Hk H2) as (P0 & P1). rewrite phi_half in P0, P1.
  assert (Hn' : 0 < INR n) by (apply lt_0_INR; lia). assert (Hk' : 0 < INR k) by (apply lt_0_INR; lia). pose proof PI_RGT_0 as HP.
  set (x := PI * INR k / INR n) in *. assert (S0 : 0 < sin x) by (apply sin_gt_0; lra). pose proof (sin_lt_x x P0) as S1.
  assert (A : 0 < b / (INR k * fs / INR n) ^ 2).
  { apply Rmult_lt_0_compat; [exact Hb|]. apply Rinv_0_lt_compat, pow_lt. apply Rmult_lt_0_compat; [nra|apply Rinv_0_lt_compat; lra]. }
  assert (B : 1 < (x / sin x) ^ 2).
  { assert (1 < x / sin x) by (apply (Rmult_lt_reg_r (sin x)); [lra|]; replace (x / sin x * sin x) with x by (field; lra); lra). nra. }
  nra.
Qed.
Print Assumptions C94_psd_brown_refuted.
(** "desired power-spectral density is b2*f^2" (noise.py:122): the two end points leak; no bin falls below b fs^2/(2 pi^2 n), so that
    in the lowest bin the periodogram exceeds every multiple of b f^2 as the series grows *)
Theorem C94_psd_violet_floor E n b fs k : white (n + 1) E -> 0 <= b -> 0 < fs -> (1 <= n)%nat -> (k <= n / 2)%nat ->
  b * fs ^ 2 / (2 * PI ^ 2 * INR n) <= mean_of E (fun w => violet PI w n b fs) (psd_at fs k).
Proof.
  intros HE Hb Hf Hn Hk. rewrite C94_psd_violet by assumption. pose proof PI_RGT_0 as HP. assert (Hn' : 1 <= INR n) by (apply (le_INR 1); lia).
  replace (b * fs ^ 2 / (2 * PI ^ 2 * INR n)) with (b * (fs / (2 * PI)) ^ 2 * (2 / INR n)) by (field; lra).
  apply Rmult_le_compat_l; [apply Rmult_le_pos; [exact Hb|apply pow2_ge_0]|].
  assert (0 <= 4 * (INR n - 1) / INR n * sin (PI * INR k / INR n) ^ 2); [|lra].
  apply Rmult_le_pos; [apply Rmult_le_pos; [lra|left; apply Rinv_0_lt_compat; lra]|apply pow2_ge_0].
Qed.
Print Assumptions C94_psd_violet_floor.
Theorem C94_psd_violet_refuted b fs K : 0 < b -> 0 < fs -> exists n E, (2 <= n)%nat /\ white (n + 1) E /\
  K * (b * (fs / INR n) ^ 2) < mean_of E (fun w => violet PI w n b fs) (psd_at fs 1).
Proof.
  intros Hb Hf. pose proof PI_RGT_0 as HP. assert (Q : exists q, 2 * PI ^ 2 * Rabs K < INR q).
  { exists (Z.to_nat (up (2 * PI ^ 2 * Rabs K))). destruct (archimed (2 * PI ^ 2 * Rabs K)) as (H & _). rewrite INR_IZR_INZ, Z2Nat.id; [exact H|].
    apply le_IZR. pose proof (Rabs_pos K). assert (0 <= 2 * PI ^ 2 * Rabs K) by (apply Rmult_le_pos; nra). lra. }
  destruct Q as (q & Hq).
  set (n := (q + 2)%nat). exists n, (signs (n + 1)). split; [unfold n; lia|]. split; [apply signs_white|].
  assert (Hn' : 0 < INR n) by (apply lt_0_INR; unfold n; lia).
  eapply Rlt_le_trans; [|apply C94_psd_violet_floor; try lra; [apply signs_white|unfold n; lia|]].
  - replace (b * fs ^ 2 / (2 * PI ^ 2 * INR n)) with (INR n / (2 * PI ^ 2) * (b * (fs / INR n) ^ 2)) by (field; lra).
    apply Rmult_lt_compat_r; [apply Rmult_lt_0_compat; [exact Hb|apply pow_lt, Rmult_lt_0_compat; [exact Hf|apply Rinv_0_lt_compat, Hn']]|].
    apply (Rmult_lt_reg_r (2 * PI ^ 2)); [nra|]. replace (INR n / (2 * PI ^ 2) * (2 * PI ^ 2)) with (INR n) by (field; lra).
    unfold n. rewrite plus_INR. change (INR 2) with 2. pose proof (Rle_abs K). nra.
  - apply Nat.div_le_lower_bound; unfold n; lia.
Qed.
Print Assumptions C94_psd_violet_refuted.

(** Example: 12 points, fair signs as samples, averaging factor 2, sampling rate 10, level 3. *)
Example C94_ex : let E := signs 13 in
  mean_of E (fun w => ModelNoise.white w 12 3 10) (reported oadev 10 2) = 15 / 2 /\
  mean_of E (fun w => brown PI w 12 3 10) (reported adev 10 2) = 9 / 20 * PI ^ 2 /\
  mean_of E (fun w => violet PI w 12 3 10) (reported mdev 10 2) = 1125 / (8 * PI ^ 2) /\
  mean_of (signs 12) (fun w => ModelNoise.white w 12 3 10) (psd_at 10 6) = 3 /\
  mean_of (signs 12) (fun w => brown PI w 12 3 10) (psd_at 10 6) = 3 * PI ^ 2 / 50.
Proof.
  pose proof (signs_white 13) as W. pose proof PI_RGT_0 as HP. cbn zeta.
  destruct (C94_white (signs 13) 12 3 10 2 W) as (_ & A & _); try lra; try lia.
  destruct (C94_brown (signs 13) 12 3 10 2 W) as (B & _); try lra; try lia.
  destruct (C94_violet (signs 13) 12 3 10 2 W) as (C0 & _ & _ & _ & C); try lra; try lia.
  rewrite C0 in C. rewrite A, B, C. rewrite C94_psd_white, C94_psd_brown by (try apply signs_white; try lra; try lia; cbn; lia).
  replace (PI * INR 6 / INR 12) with (PI / 2) by (cbn; field). rewrite sin_PI2. change (INR 2) with 2. replace (INR 6) with 6 by (cbn; ring). replace (INR 12) with 12 by (cbn; ring).
  repeat split; field; lra.
Qed.
