(** * The predictions of the Noise class (C68). *)
From Coq Require Import String Reals List ZArith Bool Arith Lia Lra.
From Verif Require Import Base Num NpList NumR Spec ListFacts RSum ModelCore ModelNoise ModelNoiseR.
Import ListNotations.
Local Open Scope R_scope.

(** ** Specification: the predicted variances, written out per noise type *)

(** Predicted Allan variance for discrete variance qd, interval t0, time t. *)
Inductive pred_avar (qd t0 t : R) : R -> R -> Prop :=
| av_wpm : pred_avar qd t0 t 0 (3 * qd / t ^ 2)
| av_fpm : pred_avar qd t0 t (-1)
    ((3 * (57721566490153286060651209 / 10 ^ 26) - ln 2 + 3 * ln (PI * (t / t0))) * qd / (PI * t ^ 2))
| av_wfm : pred_avar qd t0 t (-2) (qd / (t0 * t))
| av_ffm : pred_avar qd t0 t (-3) (2 * ln 2 * qd / (PI * t0 ^ 2))
| av_rwfm : pred_avar qd t0 t (-4) (qd * t / (3 * t0 ^ 3)).

(** Predicted modified Allan variance. *)
Inductive pred_mvar (qd t0 t : R) : R -> R -> Prop :=
| mv_wpm : pred_mvar qd t0 t 0 (3 * qd * t0 / t ^ 3)
| mv_fpm : pred_mvar qd t0 t (-1) ((24 * ln 2 - 9 * ln 3) * qd / (2 * PI * t ^ 2))
| mv_wfm : pred_mvar qd t0 t (-2) (qd / (2 * t0 * t))
| mv_ffm : pred_mvar qd t0 t (-3) (27 / 20 * ln 2 * qd / (PI * t0 ^ 2))
| mv_rwfm : pred_mvar qd t0 t (-4) (11 / 40 * qd * t / t0 ^ 3).

(** ** Powers *)
Lemma Rpower_IZR x (k : Z) : 0 < x -> Rpower x (IZR k) = powerRZ x k.
Proof. intro H. now rewrite powerRZ_Rpower. Qed.

Lemma Reqb_t a b : a = b -> Reqb a b = true.
Proof. intros ->. unfold Reqb. destruct (Req_EM_T b b); [reflexivity|contradiction]. Qed.
Lemma Reqb_f a b : a <> b -> Reqb a b = false.
Proof. intros H. unfold Reqb. destruct (Req_EM_T a b); [contradiction|reflexivity]. Qed.

Ltac eqbs := repeat first [ rewrite Reqb_t by reflexivity | rewrite Reqb_f by lra ].

Lemma psd_relation nz tau0 :
  frequency_psd_from_qd nz tau0 = (2 * PI) ^ 2 * phase_psd_from_qd nz tau0.
Proof.
  unfold frequency_psd_from_qd, phase_psd_from_qd. rewrite Rpower_plus.
  replace (Rpower (2 * PI) 2) with ((2 * PI) ^ 2).
  - replace (nz_b nz + 2 - 1) with (nz_b nz + 1) by ring. ring.
  - rewrite <- Rpower_pow by (pose proof PI_RGT_0; lra). f_equal.
Qed.

Lemma pz0 x : powerRZ x 0 = 1. Proof. reflexivity. Qed.
Lemma pz1 x : powerRZ x 1 = x. Proof. exact (Rmult_1_r x). Qed.
Lemma pz2 x : powerRZ x 2 = x ^ 2. Proof. reflexivity. Qed.
Lemma pzm1 x : powerRZ x (-1) = / x. Proof. exact (f_equal Rinv (Rmult_1_r x)). Qed.
Lemma pzm2 x : powerRZ x (-2) = / x ^ 2. Proof. reflexivity. Qed.
Lemma pzm3 x : powerRZ x (-3) = / x ^ 3. Proof. reflexivity. Qed.
Ltac pz := rewrite ?pz0, ?pz1, ?pz2, ?pzm1, ?pzm2, ?pzm3.

(** frequency PSD for the five types *)
Lemma fpsd nr qd b tau0 (k : Z) : 0 < tau0 -> b = IZR k ->
  frequency_psd_from_qd (mkNoise nr qd b) tau0 =
  qd * 2 * powerRZ (2 * PI) (k + 2) * powerRZ tau0 (k + 1).
Proof.
  intros H ->. unfold frequency_psd_from_qd. cbn [nz_qd nz_b].
  replace (IZR k + 2) with (IZR (k + 2)) by (rewrite plus_IZR; ring).
  replace (IZR (k + 2) - 1) with (IZR (k + 1)) by (rewrite !plus_IZR; ring).
  rewrite !Rpower_IZR; [reflexivity|exact H|pose proof PI_RGT_0; lra].
Qed.

Lemma fpsd_nonneg nr qd b tau0 : 0 <= qd -> 0 <= frequency_psd_from_qd (mkNoise nr qd b) tau0.
Proof.
  intro H. unfold frequency_psd_from_qd. cbn [nz_qd nz_b].
  apply Rmult_le_pos; [apply Rmult_le_pos; [lra|]|]; left; apply exp_pos.
Qed.

(** ** Numerical bounds on logarithms *)
Lemma exp_ge_3 x : 0 <= x -> 1 + x + x ^ 2 / 2 + x ^ 3 / 6 <= exp x.
Proof.
  (* the function exp x - (1+x+x^2/2+x^3/6) is increasing on x >= 0, three times *)
  assert (mono : forall (f f' : R -> R) x, 0 <= x -> (forall y, derivable_pt_lim f y (f' y)) ->
            (forall y, 0 <= y -> 0 <= f' y) -> f 0 <= f x).
  { intros f f' y Hy Hd Hp. destruct (Rle_lt_or_eq_dec 0 y Hy) as [H|<-]; [|lra].
    destruct (MVT_cor2 f f' 0 y H) as (c & E & Hc); [intros; apply Hd|].
    assert (0 <= f' c) by (apply Hp; lra). nra. }
  assert (S1 : forall y, 0 <= y -> 1 + y <= exp y) by (intros; apply exp_ineq1_le).
  assert (S2 : forall y, 0 <= y -> 1 + y + y ^ 2 / 2 <= exp y).
  { intros y Hy. pose proof (mono (fun z => exp z - (1 + z + z ^ 2 / 2)) (fun z => exp z - (1 + z)) y Hy) as M.
    cbv beta in M. rewrite exp_0 in M.
    enough (1 - (1 + 0 + 0 ^ 2 / 2) <= exp y - (1 + y + y ^ 2 / 2)) by lra. apply M.
    - intro z. apply derivable_pt_lim_minus; [apply derivable_pt_lim_exp|].
      replace (1 + z) with (0 + 1 + (2 * z ^ 1 * 1 * / 2 + z ^ 2 * 0)) by field.
      apply derivable_pt_lim_plus.
      + apply derivable_pt_lim_plus; [apply derivable_pt_lim_const|apply derivable_pt_lim_id].
      + unfold Rdiv. 
        replace (2 * z ^ 1 * 1 * / 2 + z ^ 2 * 0) with ((INR 2 * z ^ 1) * / 2 + z ^ 2 * 0) by (cbn; ring).
        apply (derivable_pt_lim_mult (fun z => z ^ 2) (fun _ => / 2)); [apply derivable_pt_lim_pow|apply derivable_pt_lim_const].
    - intros z Hz. specialize (S1 z Hz). lra. }
  intro Hx. pose proof (mono (fun z => exp z - (1 + z + z ^ 2 / 2 + z ^ 3 / 6)) (fun z => exp z - (1 + z + z ^ 2 / 2)) x Hx) as M.
  cbv beta in M. rewrite exp_0 in M.
  enough (1 - (1 + 0 + 0 ^ 2 / 2 + 0 ^ 3 / 6) <= exp x - (1 + x + x ^ 2 / 2 + x ^ 3 / 6)) by lra. apply M.
  - intro z. apply derivable_pt_lim_minus; [apply derivable_pt_lim_exp|].
    replace (1 + z + z ^ 2 / 2) with (0 + 1 + (INR 2 * z ^ 1 * / 2 + z ^ 2 * 0) + (INR 3 * z ^ 2 * / 6 + z ^ 3 * 0))
      by (cbn [INR]; field).
    apply derivable_pt_lim_plus; [apply derivable_pt_lim_plus|].
    + apply derivable_pt_lim_plus; [apply derivable_pt_lim_const|apply derivable_pt_lim_id].
    + apply (derivable_pt_lim_mult (fun z => z ^ 2) (fun _ => / 2)); [apply derivable_pt_lim_pow|apply derivable_pt_lim_const].
    + apply (derivable_pt_lim_mult (fun z => z ^ 3) (fun _ => / 6)); [apply derivable_pt_lim_pow|apply derivable_pt_lim_const].
  - intros z Hz. specialize (S2 z Hz). lra.
Qed.

Lemma ln2_le : ln 2 <= 7 / 10.
Proof.
  rewrite <- (ln_exp (7 / 10)).
  assert (2 <= exp (7 / 10)) by (pose proof (exp_ge_3 (7 / 10) ltac:(lra)); lra).
  destruct (Rle_lt_or_eq_dec _ _ H) as [Hl|<-]; [left; apply ln_increasing; lra|lra].
Qed.

Lemma ln2_pos : 0 < ln 2.
Proof. rewrite <- ln_1. apply ln_increasing; lra. Qed.

Lemma ln3_ge : 1 <= ln 3.
Proof.
  rewrite <- (ln_exp 1) at 1. pose proof exp_le_3 as H.
  destruct (Rle_lt_or_eq_dec _ _ H) as [Hl|E]; [left; apply ln_increasing; [apply exp_pos|exact Hl]|].
  rewrite E. lra.
Qed.

(** ln 3 <= 1.1, from exp (1.1) >= 3 *)
Lemma ln3_le : ln 3 <= 11 / 10.
Proof.
  rewrite <- (ln_exp (11 / 10)).
  assert (H : 3 <= exp (11 / 10)).
  { replace (11 / 10) with (11 / 40 + 11 / 40 + (11 / 40 + 11 / 40)) by lra. rewrite !exp_plus.
    pose proof (exp_ge_3 (11 / 40) ltac:(lra)) as E.
    assert (E2 : 1732 / 1000 + 1 / 2000 <= exp (11 / 40) * exp (11 / 40)) by nra. nra. }
  destruct (Rle_lt_or_eq_dec _ _ H) as [Hl|<-]; [left; apply ln_increasing; lra|lra].
Qed.

(** 0.6 <= ln 2, from exp (0.6) <= 2: exp(-0.6) >= 0.544 *)
Lemma ln2_ge : 6 / 10 <= ln 2.
Proof.
  rewrite <- (ln_exp (6 / 10)).
  assert (H : exp (6 / 10) <= 2).
  { pose proof exp_le_3 as E3. destruct (Rle_lt_dec (exp (6 / 10)) 2) as [|C]; [assumption|].
    exfalso.
    (* exp(0.6)^5 = exp(3) <= 27 < 32 *)
    assert (E : exp (6/10) ^ 5 = exp 1 ^ 3).
    { cbn [pow]. rewrite !Rmult_1_r, <- !exp_plus. f_equal. lra. }
    assert (0 < exp 1) by apply exp_pos.
    assert (exp 1 ^ 3 <= 27) by (replace 27 with (3 ^ 3) by lra; apply pow_incr; lra).
    assert (2 ^ 5 <= exp (6 / 10) ^ 5) by (apply pow_incr; lra). lra. }
  destruct (Rle_lt_or_eq_dec _ _ H) as [Hl|E]; [left; apply ln_increasing; [apply exp_pos|exact Hl]|].
  rewrite E. lra.
Qed.

Lemma lnPI_ge : 1 <= ln PI.
Proof.
  apply Rle_trans with (ln 3); [apply ln3_ge|].
  left. apply ln_increasing; [lra|]. pose proof PI2_3_2. lra.
Qed.

Definition gam : R := 57721566490153286060651209 / 10 ^ 26.
Lemma gam_bounds : 577 / 1000 <= gam <= 578 / 1000.
Proof. unfold gam. split; lra. Qed.

(** the flicker-PM Allan coefficient is positive from tau0 on *)
Lemma fpm_pos t0 t : 0 < t0 -> t0 <= t -> 0 < 3 * gam - ln 2 + 3 * ln (PI * (t / t0)).
Proof.
  intros H0 H. assert (1 <= t / t0).
  { apply (Rmult_le_reg_r t0); [lra|]. unfold Rdiv. rewrite Rmult_assoc, Rinv_l, Rmult_1_r by lra. lra. }
  rewrite ln_mult by (pose proof PI_RGT_0; lra).
  assert (0 <= ln (t / t0)).
  { rewrite <- ln_1. destruct (Rle_lt_or_eq_dec _ _ H1) as [Hl|<-]; [left; apply ln_increasing; lra|lra]. }
  pose proof gam_bounds. pose proof ln2_le. pose proof lnPI_ge. lra.
Qed.

(** ** Theorems *)

Lemma sqrt_pref X c t : 0 <= X -> sqrt (sqrt X ^ 2 * Rpower t c) = sqrt (X * Rpower t c).
Proof. intro H. rewrite <- Rsqr_pow2, Rsqr_sqrt by exact H. reflexivity. Qed.

(** C68: value of the predicted ADEV for each tabulated noise type (for
    flicker PM with tau >= tau0). *)
Theorem C68_adev nr qd b t0 t v : 0 <= qd -> 0 < t0 -> 0 < t ->
  (b = -1 -> t0 <= t) -> pred_avar qd t0 t b v ->
  noise_adev (mkNoise nr qd b) t0 t = Ok (sqrt v).
Proof.
  intros Hq H0 Ht Hb Hv. pose proof PI_RGT_0 as HP.
  unfold noise_adev, adev_from_qd, c_avar. cbn [nz_b].
  destruct Hv; eqbs; cbn [bind].
  - rewrite sqrt_pref.
    2:{ apply Rmult_le_pos; [|now apply fpsd_nonneg]. apply Rmult_le_pos; [|left; apply Rinv_0_lt_compat; nra].
        apply Rmult_le_pos; [lra|]. left. apply Rdiv_lt_0_compat; lra. }
    rewrite (fpsd nr qd 0 t0 0 H0 eq_refl), (Rpower_IZR t (-2) Ht). cbn [Z.add].
    do 2 f_equal. pz. field. lra.
  - rewrite sqrt_pref.
    2:{ apply Rmult_le_pos; [|now apply fpsd_nonneg]. apply Rmult_le_pos; [|left; apply Rinv_0_lt_compat; nra].
        replace (2 * PI * (1 / 2 / t0) * t) with (PI * (t / t0)) by (field; lra).
        left. apply fpm_pos; [lra|]. now apply Hb. }
    rewrite (fpsd nr qd (-1) t0 (-1) H0 eq_refl), (Rpower_IZR t (-2) Ht). cbn [Z.add].
    replace (2 * PI * (1 / 2 / t0) * t) with (PI * (t / t0)) by (field; lra). fold gam. fold gamma_lit.
    change gamma_lit with gam. generalize (3 * gam - ln 2 + 3 * ln (PI * (t / t0))). intro c.
    do 2 f_equal. change (-1 + 2)%Z with 1%Z. change (-1 + 1)%Z with 0%Z.
    pz. field. lra.
  - rewrite sqrt_pref by (apply Rmult_le_pos; [lra|now apply fpsd_nonneg]).
    rewrite (fpsd nr qd (-2) t0 (-2) H0 eq_refl), (Rpower_IZR t (-1) Ht).
    change (-2 + 2)%Z with 0%Z. change (-2 + 1)%Z with (-1)%Z.
    do 2 f_equal. pz. field. lra.
  - pose proof ln2_pos.
    rewrite sqrt_pref by (apply Rmult_le_pos; [lra|now apply fpsd_nonneg]).
    rewrite (fpsd nr qd (-3) t0 (-3) H0 eq_refl), (Rpower_IZR t 0 Ht).
    change (-3 + 2)%Z with (-1)%Z. change (-3 + 1)%Z with (-2)%Z.
    do 2 f_equal. pz. field. lra.
  - rewrite sqrt_pref by (apply Rmult_le_pos; [nra|now apply fpsd_nonneg]).
    rewrite (fpsd nr qd (-4) t0 (-4) H0 eq_refl), (Rpower_IZR t 1 Ht).
    change (-4 + 2)%Z with (-2)%Z. change (-4 + 1)%Z with (-3)%Z.
    do 2 f_equal. pz. field. lra.
Qed.

Theorem C68_mdev nr qd b t0 t v : 0 <= qd -> 0 < t0 -> 0 < t -> pred_mvar qd t0 t b v ->
  noise_mdev (mkNoise nr qd b) t0 t = Ok (sqrt v).
Proof.
  intros Hq H0 Ht Hv. pose proof PI_RGT_0 as HP. pose proof ln2_ge. pose proof ln3_le.
  unfold noise_mdev, mdev_from_qd, c_mvar. cbn [nz_b].
  destruct Hv; eqbs; cbn [bind].
  - rewrite sqrt_pref.
    2:{ apply Rmult_le_pos; [|now apply fpsd_nonneg]. left. apply Rdiv_lt_0_compat; nra. }
    rewrite (fpsd nr qd 0 t0 0 H0 eq_refl), (Rpower_IZR t (-3) Ht). cbn [Z.add].
    do 2 f_equal. pz. field. lra.
  - rewrite sqrt_pref.
    2:{ apply Rmult_le_pos; [|now apply fpsd_nonneg]. left. apply Rdiv_lt_0_compat; [lra|nra]. }
    rewrite (fpsd nr qd (-1) t0 (-1) H0 eq_refl), (Rpower_IZR t (-2) Ht).
    change (-1 + 2)%Z with 1%Z. change (-1 + 1)%Z with 0%Z.
    do 2 f_equal. pz. field. lra.
  - rewrite sqrt_pref by (apply Rmult_le_pos; [lra|now apply fpsd_nonneg]).
    rewrite (fpsd nr qd (-2) t0 (-2) H0 eq_refl), (Rpower_IZR t (-1) Ht).
    change (-2 + 2)%Z with 0%Z. change (-2 + 1)%Z with (-1)%Z.
    do 2 f_equal. pz. field. lra.
  - rewrite sqrt_pref by (apply Rmult_le_pos; [lra|now apply fpsd_nonneg]).
    rewrite (fpsd nr qd (-3) t0 (-3) H0 eq_refl), (Rpower_IZR t 0 Ht).
    change (-3 + 2)%Z with (-1)%Z. change (-3 + 1)%Z with (-2)%Z.
    do 2 f_equal. pz. field. lra.
  - rewrite sqrt_pref by (apply Rmult_le_pos; [nra|now apply fpsd_nonneg]).
    rewrite (fpsd nr qd (-4) t0 (-4) H0 eq_refl), (Rpower_IZR t 1 Ht).
    change (-4 + 2)%Z with (-2)%Z. change (-4 + 1)%Z with (-3)%Z.
    do 2 f_equal. pz. field. lra.
Qed.

(** The two PSD coefficients differ by (2 pi)^2, for every b. *)
Theorem C68_psd nr qd b t0 :
  frequency_psd_from_qd (mkNoise nr qd b) t0 = (2 * PI) ^ 2 * phase_psd_from_qd (mkNoise nr qd b) t0.
Proof. apply psd_relation. Qed.

(** deviation = prefactor * tau^(c/2) *)
Theorem C68_exponent nr qd b t0 t p c : 0 < t ->
  (adev_from_qd (mkNoise nr qd b) t0 t = Ok p -> c_avar (mkNoise nr qd b) = Some c ->
   noise_adev (mkNoise nr qd b) t0 t = Ok (p * Rpower t (c / 2))) /\
  (mdev_from_qd (mkNoise nr qd b) t0 t = Ok p -> c_mvar (mkNoise nr qd b) = Some c ->
   noise_mdev (mkNoise nr qd b) t0 t = Ok (p * Rpower t (c / 2))).
Proof.
  intro Ht.
  assert (Q : 0 <= p -> sqrt (p ^ 2 * Rpower t c) = p * Rpower t (c / 2)).
  { intro Hp. rewrite sqrt_mult; [|apply pow2_ge_0|left; apply exp_pos].
    rewrite sqrt_pow2 by exact Hp. f_equal.
    replace c with (c / 2 + c / 2) at 1 by field. rewrite Rpower_plus. apply sqrt_square. left. apply exp_pos. }
  split; intros E Ec.
  - unfold noise_adev. rewrite E. cbn [bind]. rewrite Ec, Q; [reflexivity|].
    unfold adev_from_qd in E. destruct (if Reqb (nz_b _) 0 then _ else _); [|discriminate].
    cbn [bind] in E. injection E as <-. apply sqrt_pos.
  - unfold noise_mdev. rewrite E. cbn [bind]. rewrite Ec, Q; [reflexivity|].
    unfold mdev_from_qd in E. destruct (if Reqb (nz_b _) 0 then _ else _); [|discriminate].
    cbn [bind] in E. injection E as <-. apply sqrt_pos.
Qed.

(** Any other b raises. *)
Theorem C68_other nr qd b t0 t :
  b <> 0 -> b <> -1 -> b <> -2 -> b <> -3 -> b <> -4 ->
  noise_adev (mkNoise nr qd b) t0 t = Err UnboundLocalError /\
  noise_mdev (mkNoise nr qd b) t0 t = Err UnboundLocalError /\
  pdev_from_qd (mkNoise nr qd b) t0 t = Err UnboundLocalError /\
  c_avar (mkNoise nr qd b) = None /\ c_mvar (mkNoise nr qd b) = None.
Proof.
  intros. unfold noise_adev, noise_mdev, pdev_from_qd, adev_from_qd, mdev_from_qd, c_avar, c_mvar.
  cbn [nz_b]. eqbs. cbn [bind]. repeat split; reflexivity.
Qed.

(** Predicted MDEV never exceeds predicted ADEV for tau >= tau0. *)
Theorem C68_mdev_le_adev qd b t0 t v w : 0 <= qd -> 0 < t0 -> t0 <= t ->
  pred_avar qd t0 t b v -> pred_mvar qd t0 t b w -> w <= v.
Proof.
  intros Hq H0 Ht Hv Hw. pose proof PI_RGT_0 as HP. pose proof ln2_ge. pose proof ln2_le.
  pose proof ln3_ge. pose proof ln3_le.
  destruct Hv; inversion Hw; subst; try lra; clear Hw.
  - apply (Rmult_le_reg_r (t ^ 3)); [apply pow_lt; lra|].
    replace (3 * qd * t0 / t ^ 3 * t ^ 3) with (3 * qd * t0) by (field; lra).
    replace (3 * qd / t ^ 2 * t ^ 3) with (3 * qd * t) by (field; lra). nra.
  - assert (L : 24 * ln 2 - 9 * ln 3 <= 2 * (3 * gam - ln 2 + 3 * ln (PI * (t / t0)))).
    { assert (H1' : 1 <= t / t0).
      { apply (Rmult_le_reg_r t0); [lra|]. unfold Rdiv. rewrite Rmult_assoc, Rinv_l, Rmult_1_r by lra. lra. }
      rewrite ln_mult by lra.
      assert (0 <= ln (t / t0)).
      { rewrite <- ln_1. destruct (Rle_lt_or_eq_dec _ _ H1') as [Hl|<-]; [left; apply ln_increasing; lra|lra]. }
      pose proof gam_bounds.
      assert (ln 3 <= ln PI) by (left; apply ln_increasing; [lra|]; pose proof PI2_3_2; lra). lra. }
    fold gam. revert L. generalize (3 * gam - ln 2 + 3 * ln (PI * (t / t0))). intros c L.
    apply (Rmult_le_reg_r (2 * PI * t ^ 2)); [apply Rmult_lt_0_compat; [lra|apply pow_lt; lra]|].
    replace ((24 * ln 2 - 9 * ln 3) * qd / (2 * PI * t ^ 2) * (2 * PI * t ^ 2))
      with ((24 * ln 2 - 9 * ln 3) * qd) by (field; lra).
    replace (c * qd / (PI * t ^ 2) * (2 * PI * t ^ 2)) with (2 * c * qd) by (field; lra). nra.
  - apply (Rmult_le_reg_r (2 * t0 * t)); [nra|].
    replace (qd / (2 * t0 * t) * (2 * t0 * t)) with qd by (field; lra).
    replace (qd / (t0 * t) * (2 * t0 * t)) with (2 * qd) by (field; lra). lra.
  - unfold Rdiv at 1 3. apply Rmult_le_compat_r; [left; apply Rinv_0_lt_compat, Rmult_lt_0_compat; [lra|apply pow_lt; lra]|].
    apply Rmult_le_compat_r; [exact Hq|]. lra.
  - apply (Rmult_le_reg_r (120 * t0 ^ 3)); [apply Rmult_lt_0_compat; [lra|apply pow_lt; lra]|].
    replace (11 / 40 * qd * t / t0 ^ 3 * (120 * t0 ^ 3)) with (33 * (qd * t)) by (field; lra).
    replace (qd * t / (3 * t0 ^ 3) * (120 * t0 ^ 3)) with (40 * (qd * t)) by (field; lra). nra.
Qed.

(** pdev_from_qd also amounts to a coefficient times the frequency PSD. *)
Theorem C68_pdev nr qd b t0 t p : pdev_from_qd (mkNoise nr qd b) t0 t = Ok p ->
  exists coeff, p = sqrt (coeff * frequency_psd_from_qd (mkNoise nr qd b) t0) /\
   ((b = 0 /\ coeff = 3 / (2 * PI ^ 2)) \/ (b = -1 /\ coeff = (3 * ln 16 - 1) / 2 / PI ^ 2) \/
    (b = -2 /\ coeff = 3 / 5) \/ (b = -3 /\ coeff = 2 * (7 - ln 16) / 5) \/
    (b = -4 /\ coeff = 26 / 35 * PI ^ 2)).
Proof.
  unfold pdev_from_qd. rewrite psd_relation. cbn [nz_b]. intro E.
  destruct (Req_dec b 0) as [->|N0]; [eqbs | destruct (Req_dec b (-1)) as [->|N1]; [|
    destruct (Req_dec b (-2)) as [->|N2]; [| destruct (Req_dec b (-3)) as [->|N3]; [|
      destruct (Req_dec b (-4)) as [->|N4]]]]];
  revert E; eqbs; cbn [bind]; intro E; try discriminate; injection E as <-;
  (eexists; split; [f_equal; rewrite Rmult_assoc, (Rmult_comm (phase_psd_from_qd _ _)); reflexivity|]);
  tauto.
Qed.

(** Scaling qd by c^2 scales the predictions by c. *)
Theorem C68_scale nr qd b t0 t v c : 0 <= qd -> 0 <= c -> 0 < t0 -> 0 < t ->
  (b = -1 -> t0 <= t) -> pred_avar qd t0 t b v ->
  noise_adev (mkNoise nr (c ^ 2 * qd) b) t0 t = Ok (c * sqrt v).
Proof.
  intros Hq Hc H0 Ht Hb Hv.
  assert (Q : 0 <= c ^ 2 * qd) by (apply Rmult_le_pos; [apply pow2_ge_0|exact Hq]).
  assert (S : forall v, sqrt (c ^ 2 * v) = c * sqrt v).
  { intro u. destruct (Rle_dec 0 u) as [Hu|Hu].
    - rewrite sqrt_mult; [|apply pow2_ge_0|exact Hu]. now rewrite sqrt_pow2.
    - rewrite (sqrt_neg_0 u) by lra. rewrite sqrt_neg_0; [ring|].
      pose proof (pow2_ge_0 c). nra. }
  rewrite <- S. apply C68_adev; try assumption.
  destruct Hv.
  - replace (c ^ 2 * (3 * qd / t ^ 2)) with (3 * (c ^ 2 * qd) / t ^ 2) by (unfold Rdiv; ring). constructor.
  - match goal with |- pred_avar _ _ _ _ (_ * (?X * qd / ?Y)) =>
      replace (c ^ 2 * (X * qd / Y)) with (X * (c ^ 2 * qd) / Y) by (unfold Rdiv; ring) end. constructor.
  - replace (c ^ 2 * (qd / (t0 * t))) with ((c ^ 2 * qd) / (t0 * t)) by (unfold Rdiv; ring). constructor.
  - replace (c ^ 2 * (2 * ln 2 * qd / (PI * t0 ^ 2))) with (2 * ln 2 * (c ^ 2 * qd) / (PI * t0 ^ 2)) by (unfold Rdiv; ring). constructor.
  - replace (c ^ 2 * (qd * t / (3 * t0 ^ 3))) with ((c ^ 2 * qd) * t / (3 * t0 ^ 3)) by (unfold Rdiv; ring). constructor.
Qed.

Example C68_example : noise_adev (mkNoise 8 12 0) 1 2 = Ok 3.
Proof.
  rewrite (C68_adev 8 12 0 1 2 (3 * 12 / 2 ^ 2)); try lra; [|constructor].
  f_equal. replace (3 * 12 / 2 ^ 2) with (3 * 3) by lra. apply sqrt_square. lra.
Qed.

Print Assumptions C68_adev.
Print Assumptions C68_mdev.
Print Assumptions C68_psd.
Print Assumptions C68_exponent.
Print Assumptions C68_other.
Print Assumptions C68_mdev_le_adev.
Print Assumptions C68_pdev.
Print Assumptions C68_scale.
