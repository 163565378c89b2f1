(** * What timmer_koenig_from_psd generates (C92): the periodogram of every realisation, its expectation, and the
    covariance of the series. *)
From Coq Require Import String Reals List ZArith Bool Arith Lia Lra Sorted.
From Verif Require Import Base Num NpList NumR Spec ListFacts RSum TauProofs Dft ModelCore ModelMisc ModelCi ModelNoise ModelNoiseR NoiseProofs
  PropsSpectral PropsPsd PropsExpect TkProofs.
Import ListNotations.
Local Open Scope R_scope.
Local Notation len := List.length.

(** ** Independent description *)
(** the frequency of FFT bin k of n samples dt apart *)
Definition bin (n : nat) (dt : R) (k : nat) : R := INR k / (INR n * dt).
(** the frequency at which the target is read for that bin: shifted upwards by almost one bin at the low end *)
Definition read_at (n : nat) (dt : R) (k : nat) : R := bin n dt k + 1 / ((INR n - 1) * dt) * (1 - 2 * INR k / INR n).
(** phase PSD of a fractional frequency PSD s at frequency f *)
Definition phase_psd (s f : R) : R := s / (2 * PI * f) ^ 2.

Lemma grid_read q dt k : (2 <= q)%nat -> 0 < dt -> (k <= q)%nat -> (tk_grid (2 * q) dt).[k] = read_at (2 * q) dt k.
Proof.
  intros Hq Hd Hk. apply C69_grid; try lia; [|lra|]. - apply Nat.even_spec. exists q. lia. - now rewrite half_2q.
Qed.
Lemma sampled_nonneg f_nodes h alpha f v : described f_nodes h alpha -> Forall (Rle 0) h -> 0 < f -> sampled f_nodes h alpha f v -> 0 <= v.
Proof.
  intros (_ & L & _) Hh Hf [(j & (Hj & _) & _ & ->)|(_ & _ & ->)]; [|lra].
  apply Rmult_le_pos; [|left; apply exp_pos]. rewrite Forall_forall in Hh. apply Hh, nth_In. lia.
Qed.
Lemma read_pos n dt k : (4 <= n)%nat -> 0 < dt -> (2 * k <= n)%nat -> 0 < read_at n dt k.
Proof.
  intros Hn Hd Hk. assert (4 <= INR n) as N4 by (apply le_INR in Hn; cbn in Hn; lra).
  assert (0 <= INR k) as K0 by apply pos_INR. assert (2 * INR k <= INR n) as K1 by (apply le_INR in Hk; rewrite mult_INR in Hk; exact Hk).
  unfold read_at, bin. replace (INR k / (INR n * dt) + 1 / ((INR n - 1) * dt) * (1 - 2 * INR k / INR n))
    with ((INR k * (INR n - 1) + (INR n - 2 * INR k)) / (INR n * (INR n - 1) * dt)) by (field; lra).
  apply Rdiv_lt_0_compat; [nra|]. apply Rmult_lt_0_compat; [|lra]. apply Rmult_lt_0_compat; lra.
Qed.
Lemma phase_psd_nonneg s f : 0 <= s -> 0 < f -> 0 <= phase_psd s f.
Proof.
  intros Hs Hf. unfold phase_psd. apply Rmult_le_pos; [exact Hs|]. left. apply Rinv_0_lt_compat, pow_lt. pose proof PI_RGT_0. nra.
Qed.

(** ** every realisation: numpy_psd gives back the target, read at the shifted frequencies and multiplied by
    (n-1)/n and by half the sum of squares of the two normal deviates of the bin (one at the Nyquist bin; nothing at 0) *)
Theorem C92_periodogram f_nodes h alpha duration dt q : described f_nodes h alpha -> Forall (Rle 0) h -> 0 < duration -> 0 < dt -> (2 <= q)%nat ->
  tk_n duration dt = Z.of_nat (2 * q) ->
  let n := (2 * q)%nat in
  exists Sy : nat -> R, (forall k, (k <= q)%nat -> sampled f_nodes h alpha (read_at n dt k) (Sy k)) /\
  forall rnd, exists x f P, timmer_koenig rnd f_nodes h alpha duration dt "phase" = Ok x /\ numpy_psd x (1 / dt) = Ok (f, P) /\
    len x = n /\ len f = (q + 1)%nat /\ len P = (q + 1)%nat /\ P.[0] = 0 /\
    (forall k, (k <= q)%nat -> f.[k] = bin n dt k) /\
    (forall k, (1 <= k < q)%nat -> P.[k] = (INR n - 1) / INR n * phase_psd (Sy k) (read_at n dt k) *
        ((rnd (2 * (k - 1))%nat ^ 2 + rnd (2 * (k - 1) + 1)%nat ^ 2) / 2)) /\
    P.[q] = (INR n - 1) / INR n * phase_psd (Sy q) (read_at n dt q) * (rnd (2 * (q - 1))%nat ^ 2 / 2).
Proof.
  intros D Hh H1 H2 Hq Hn n. destruct (tk_series f_nodes h alpha duration dt q D H1 H2 Hq Hn) as (Sy & HS & Hx).
  assert (Sp : forall k, (k <= q)%nat -> sampled f_nodes h alpha (read_at n dt k) (Sy k)).
  { intros k Hk. unfold n. rewrite <- grid_read by assumption. now apply HS. }
  exists Sy. split; [exact Sp|]. intros rnd.
  set (Sx := fun k => Sy k / (2 * PI * (tk_grid (2 * q) dt).[k]) ^ 2) in Hx.
  assert (Es : forall k, (k <= q)%nat -> Sx k = phase_psd (Sy k) (read_at n dt k)).
  { intros k Hk. unfold Sx, phase_psd. rewrite grid_read by assumption. reflexivity. }
  assert (Ps : forall k, (k <= q)%nat -> 0 <= Sx k).
  { intros k Hk. rewrite Es by exact Hk. assert (0 < read_at n dt k) by (apply read_pos; unfold n; lia || lra).
    apply phase_psd_nonneg; [|assumption]. eapply sampled_nonneg; eauto. }
  assert (N4 : 4 <= INR n) by (replace 4 with (INR 4) by (cbn; lra); apply le_INR; unfold n; lia).
  set (c := sqrt ((INR n - 1) / dt)).
  assert (Ec : c ^ 2 = (INR n - 1) / dt) by (unfold c; apply pow2_sqrt; apply Rlt_le, Rdiv_lt_0_compat; lra).
  set (A := fun k => if (k =? q)%nat then c / INR n * mode_re rnd Sx k else 2 * c / INR n * mode_re rnd Sx k).
  set (B := fun k => 2 * c / INR n * mode_im rnd Sx k).
  set (x := tab (2 * q) (fun j => (bigsum (q - 1) (fun r => 2 * (mode_re rnd Sx (S r) * cos (INR j * ang q (S r)) - mode_im rnd Sx (S r) * sin (INR j * ang q (S r))))
      + mode_re rnd Sx q * cos (INR j * ang q q)) / INR (2 * q) * sqrt ((INR (2 * q) - 1) / dt))).
  assert (Lx : len x = n) by apply tab_length.
  assert (Xj : forall j, (j < 2 * q)%nat -> x.[j] = bigsum (q - 1) (fun r => A (S r) * cos (INR j * ang q (S r)) - B (S r) * sin (INR j * ang q (S r))) + A q * cos (INR j * ang q q)).
  { intros j Hj. unfold x. rewrite nth_tab by exact Hj. fold n. fold c.
    rewrite (bigsum_ext _ (fun r => A (S r) * _ - _) (fun r => c / INR n * (2 * (mode_re rnd Sx (S r) * cos (INR j * ang q (S r)) - mode_im rnd Sx (S r) * sin (INR j * ang q (S r)))))).
    - rewrite !bigsum_scal. unfold A. rewrite Nat.eqb_refl. field. lra.
    - intros r Hr. unfold A, B. destruct (Nat.eqb_spec (S r) q); [lia|]. field. lra. }
  assert (Eq : INR n = 2 * INR q) by (unfold n; rewrite mult_INR; reflexivity).
  exists x. specialize (Hx rnd). cbv zeta in Hx. do 2 eexists. split; [exact Hx|].
  assert (Hne : x <> []) by (intros C; rewrite C in Lx; cbn in Lx; unfold n in Lx; lia).
  assert (Hdt : 1 / dt <> 0) by (apply Rgt_not_eq, Rdiv_lt_0_compat; lra).
  rewrite (numpy_psd_eq x (1 / dt) Hne Hdt). split; [reflexivity|]. rewrite !tab_length, Lx.
  assert (E2 : (n / 2 = q)%nat) by apply half_2q. rewrite E2.
  split; [reflexivity|]. split; [reflexivity|]. split; [reflexivity|]. split; [|split; [|split]].
  - rewrite nth_tab by lia. replace (pw n (fun i => x.[i]) 0) with 0; [ring|]. symmetry.
    unfold pw. replace (dc n (fun i => x.[i]) 0) with 0.
    + replace (ds n (fun i => x.[i]) 0) with 0; [ring|]. symmetry. unfold ds. apply bigsum_0. intros i _.
      replace (2 * PI * INR 0 * INR i / INR n) with 0 by (cbn [INR]; field; lra). rewrite sin_0. ring.
    + symmetry. transitivity (bigsum (len x) (fun j => x.[j])); [|apply (C69_zero_mean rnd f_nodes h alpha duration dt x); auto; lia].
      rewrite Lx. unfold dc. apply bigsum_ext. intros i _.
      replace (2 * PI * INR 0 * INR i / INR n) with 0 by (cbn [INR]; field; lra). rewrite cos_0. cbv beta. ring.
  - intros k Hk. rewrite nth_tab by lia. unfold bin. rewrite Eq. field. split; lra.
  - intros k Hk. rewrite nth_tab by lia. unfold pw. unfold n. 
    rewrite (dc_mid q ltac:(lia) A B (fun i => x.[i]) Xj k Hk), (ds_mid q ltac:(lia) A B (fun i => x.[i]) Xj k Hk). fold n.
    unfold A, B. destruct (Nat.eqb_spec k q); [lia|]. rewrite <- Es by lia. unfold mode_re, mode_im.
    pose proof (pow2_sqrt (Sx k) (Ps k ltac:(lia))) as Eb. set (b := sqrt (Sx k)) in *. set (u := rnd _). set (v := rnd (_ + 1)%nat).
    rewrite <- Eb.
    transitivity (2 / (INR n * (1 / dt)) * (c ^ 2 * b ^ 2 * (u ^ 2 + v ^ 2) / 4)).
    + f_equal. rewrite Eq. field. lra.
    + rewrite Ec. field. lra.
  - rewrite nth_tab by lia. unfold pw. unfold n.
    rewrite (dc_nyq q ltac:(lia) A B (fun i => x.[i]) Xj), (ds_nyq q ltac:(lia) A B (fun i => x.[i]) Xj). fold n.
    unfold A. rewrite Nat.eqb_refl. rewrite <- Es by lia. unfold mode_re.
    pose proof (pow2_sqrt (Sx q) (Ps q ltac:(lia))) as Eb. set (b := sqrt (Sx q)) in *. set (u := rnd _). rewrite <- Eb.
    transitivity (2 / (INR n * (1 / dt)) * (c ^ 2 * b ^ 2 * u ^ 2 / 4)).
    + f_equal. field. lra.
    + rewrite Ec. field. lra.
Qed.
Print Assumptions C92_periodogram.

(** ** expectations.  [E] is any expectation under which the deviates are uncorrelated with unit variance *)
Definition psd_bin (f_nodes h alpha : list R) (duration dt : R) (k : nat) (w : nat -> R) : R :=
  match timmer_koenig w f_nodes h alpha duration dt "phase" with
  | Ok x => match numpy_psd x (1 / dt) with Ok (_, P) => P.[k] | Err _ => 0 end
  | Err _ => 0
  end.
Definition sample (f_nodes h alpha : list R) (duration dt : R) (j : nat) (w : nat -> R) : R :=
  match timmer_koenig w f_nodes h alpha duration dt "phase" with Ok x => x.[j] | Err _ => 0 end.

Theorem C92_expected f_nodes h alpha duration dt q E : described f_nodes h alpha -> Forall (Rle 0) h -> 0 < duration -> 0 < dt -> (2 <= q)%nat ->
  tk_n duration dt = Z.of_nat (2 * q) -> white (2 * q) E ->
  let n := (2 * q)%nat in
  exists Sy : nat -> R, (forall k, (k <= q)%nat -> sampled f_nodes h alpha (read_at n dt k) (Sy k)) /\
    E (psd_bin f_nodes h alpha duration dt 0) = 0 /\
    (forall k, (1 <= k < q)%nat -> E (psd_bin f_nodes h alpha duration dt k) = (INR n - 1) / INR n * phase_psd (Sy k) (read_at n dt k)) /\
    E (psd_bin f_nodes h alpha duration dt q) = (INR n - 1) / INR n * phase_psd (Sy q) (read_at n dt q) / 2.
Proof.
  intros D Hh H1 H2 Hq Hn HE n. destruct (C92_periodogram f_nodes h alpha duration dt q D Hh H1 H2 Hq Hn) as (Sy & HS & HP). fold n in HS, HP.
  exists Sy. split; [exact HS|].
  assert (E2 : forall i, (i < 2 * q)%nat -> E (fun w => w i ^ 2) = 1).
  { intros i Hi. rewrite (wh_ext _ E HE _ (fun w => w i * w i)) by (intros; ring). rewrite (wh_cov _ E HE) by exact Hi. now rewrite Nat.eqb_refl. }
  split; [|split].
  - rewrite (wh_ext _ E HE _ (fun _ => 0)); [apply (E_zero _ E HE)|]. intros w. unfold psd_bin.
    destruct (HP w) as (x & f & P & -> & -> & _ & _ & _ & E0 & _). exact E0.
  - intros k Hk.
    rewrite (wh_ext _ E HE _ (fun w => ((INR n - 1) / INR n * phase_psd (Sy k) (read_at n dt k) / 2) * (w (2 * (k - 1))%nat ^ 2 + w (2 * (k - 1) + 1)%nat ^ 2))).
    + rewrite (wh_scal _ E HE), (wh_add _ E HE (fun w => w (2 * (k - 1))%nat ^ 2)), !E2 by lia. field. apply not_0_INR. unfold n. lia.
    + intros w. unfold psd_bin. destruct (HP w) as (x & f & P & -> & -> & _ & _ & _ & _ & _ & Ek & _). rewrite Ek by exact Hk. field. apply not_0_INR. unfold n. lia.
  - rewrite (wh_ext _ E HE _ (fun w => ((INR n - 1) / INR n * phase_psd (Sy q) (read_at n dt q) / 2) * w (2 * (q - 1))%nat ^ 2)).
    + rewrite (wh_scal _ E HE), E2 by lia. field. apply not_0_INR. unfold n. lia.
    + intros w. unfold psd_bin. destruct (HP w) as (x & f & P & -> & -> & _ & _ & _ & _ & _ & _ & Eq). rewrite Eq. field. apply not_0_INR. unfold n. lia.
Qed.
Print Assumptions C92_expected.

(** the target is read above the bin's own frequency, except at the Nyquist bin; at the lowest bin almost one octave above *)
Theorem C92_shift q dt k : (2 <= q)%nat -> 0 < dt -> (k <= q)%nat -> let n := (2 * q)%nat in
  bin n dt k <= read_at n dt k /\ (read_at n dt k = bin n dt k <-> k = q) /\ read_at n dt 1 = (2 * INR n - 3) / (INR n - 1) * bin n dt 1.
Proof.
  intros Hq Hd Hk n. assert (N4 : 4 <= INR n) by (replace 4 with (INR 4) by (cbn; lra); apply le_INR; unfold n; lia).
  assert (Eq : INR n = 2 * INR q) by (unfold n; rewrite mult_INR; reflexivity).
  assert (P : 0 < 1 / ((INR n - 1) * dt)) by (apply Rdiv_lt_0_compat; nra).
  assert (F : read_at n dt k - bin n dt k = 1 / ((INR n - 1) * dt) * ((INR q - INR k) / INR q)) by (unfold read_at; rewrite Eq; field; lra).
  assert (Q0 : 0 < INR q) by lra.
  split; [|split].
  - assert (0 <= (INR q - INR k) / INR q); [|nra]. apply Rmult_le_pos; [apply le_INR in Hk; lra|left; now apply Rinv_0_lt_compat].
  - split.
    + intros E. destruct (Nat.eq_dec k q) as [|Ne]; [assumption|]. exfalso. assert (L : (k < q)%nat) by lia. apply lt_INR in L.
      assert (0 < (INR q - INR k) / INR q) by (apply Rdiv_lt_0_compat; lra). nra.
    + intros ->. replace ((INR q - INR q) / INR q) with 0 in F by (field; lra). lra.
  - unfold read_at, bin. cbn [INR]. field. lra.
Qed.
Print Assumptions C92_shift.

(** White FM of unit level: the expected PSD in the lowest bin is little more than a quarter of the target's. *)
Theorem C92_lowest_bin duration dt q E : 0 < duration -> 0 < dt -> (2 <= q)%nat -> tk_n duration dt = Z.of_nat (2 * q) -> white (2 * q) E ->
  let n := (2 * q)%nat in
  E (psd_bin [] [1] [0] duration dt 1) = (INR n - 1) / INR n * ((INR n - 1) / (2 * INR n - 3)) ^ 2 * phase_psd 1 (bin n dt 1) /\
  1 / 4 * (INR n - 1) / INR n * phase_psd 1 (bin n dt 1) < E (psd_bin [] [1] [0] duration dt 1) <= 27 / 100 * phase_psd 1 (bin n dt 1).
Proof.
  intros H1 H2 Hq Hn HE n.
  assert (D : described [] [1] [0]) by (repeat split; constructor).
  destruct (C92_expected [] [1] [0] duration dt q E D ltac:(repeat constructor; lra) H1 H2 Hq Hn HE) as (Sy & HS & _ & HP & _). fold n in HS, HP.
  assert (N4 : 4 <= INR n) by (replace 4 with (INR 4) by (cbn; lra); apply le_INR; unfold n; lia).
  assert (S1 : Sy 1%nat = 1).
  { destruct (HS 1%nat ltac:(lia)) as [(j & (Hj & _) & _ & ->)|(C & _)]; [|congruence]. cbn in Hj. assert (j = 0)%nat as -> by lia. cbn.
    rewrite Rpower_O; [ring|]. apply read_pos; unfold n; lia || lra. }
  destruct (C92_shift q dt 1 Hq H2 ltac:(lia)) as (_ & _ & Er). fold n in Er.
  assert (Pb : 0 < bin n dt 1) by (unfold bin; cbn [INR]; apply Rdiv_lt_0_compat; nra).
  assert (Pp : 0 < phase_psd 1 (bin n dt 1)).
  { unfold phase_psd. apply Rdiv_lt_0_compat; [lra|]. apply pow_lt. pose proof PI_RGT_0. nra. }
  assert (EE : E (psd_bin [] [1] [0] duration dt 1) = (INR n - 1) / INR n * ((INR n - 1) / (2 * INR n - 3)) ^ 2 * phase_psd 1 (bin n dt 1)).
  { rewrite HP by lia. rewrite S1, Er. unfold phase_psd. pose proof PI_RGT_0. field. repeat split; lra. }
  split; [exact EE|]. rewrite EE. set (T := phase_psd 1 (bin n dt 1)) in *. set (z := INR n) in *.
  assert (R1 : 1 / 4 < ((z - 1) / (2 * z - 3)) ^ 2).
  { replace (1 / 4) with ((1 / 2) ^ 2) by field. assert (1 / 2 < (z - 1) / (2 * z - 3)); [|nra].
    apply Rmult_lt_reg_r with (2 * z - 3); [lra|]. replace ((z - 1) / (2 * z - 3) * (2 * z - 3)) with (z - 1) by (field; lra). lra. }
  assert (Z0 : 0 < (z - 1) / z) by (apply Rdiv_lt_0_compat; lra).
  split.
  - apply Rmult_lt_compat_r; [exact Pp|]. replace (1 / 4 * (z - 1) / z) with ((z - 1) / z * (1 / 4)) by (field; lra). now apply Rmult_lt_compat_l.
  - apply Rmult_le_compat_r; [lra|].
    apply Rmult_le_reg_r with (z * (2 * z - 3) ^ 2); [apply Rmult_lt_0_compat; [lra|apply pow_lt; lra]|].
    replace ((z - 1) / z * ((z - 1) / (2 * z - 3)) ^ 2 * (z * (2 * z - 3) ^ 2)) with ((z - 1) ^ 3) by (field; lra).
    assert (0 <= (z - 4) ^ 3 /\ 0 <= (z - 4) ^ 2) as [A B] by (split; [apply pow_le; lra|apply pow2_ge_0]). nra.
Qed.
Print Assumptions C92_lowest_bin.
Theorem C92_target_refuted : exists E q dt duration, white (2 * q) E /\ (2 <= q)%nat /\ tk_n duration dt = Z.of_nat (2 * q) /\ 0 < dt /\ 0 < duration /\
  E (psd_bin [] [1] [0] duration dt 1) <> phase_psd 1 (bin (2 * q) dt 1).
Proof.
  exists (signs 8), 4%nat, 1, 8. split; [apply signs_white|]. split; [lia|].
  assert (Hn : tk_n 8 1 = Z.of_nat (2 * 4)) by (apply (tk_n_int 8); lia). split; [exact Hn|]. split; [lra|]. split; [lra|].
  destruct (C92_lowest_bin 8 1 4 (signs 8) ltac:(lra) ltac:(lra) ltac:(lia) Hn (signs_white 8)) as (_ & _ & L). intros E. rewrite E in L.
  assert (0 < phase_psd 1 (bin (2 * 4) 1 1)); [|lra]. unfold phase_psd. apply Rdiv_lt_0_compat; [lra|]. apply pow_lt. pose proof PI_RGT_0.
  assert (0 < bin (2 * 4) 1 1) by (unfold bin; apply Rdiv_lt_0_compat; cbn; lra). nra.
Qed.
Print Assumptions C92_target_refuted.

(** ** covariance: the series is stationary, with the covariance that belongs to the spectrum it was made from *)
Lemma bigsum_pairs m f : bigsum (2 * m) f = bigsum m (fun r => f (2 * r)%nat + f (2 * r + 1)%nat).
Proof.
  induction m as [|m IH]; [reflexivity|]. replace (2 * S m)%nat with (S (S (2 * m))) by lia. cbn [bigsum]. rewrite IH.
  replace (S (2 * m)) with (2 * m + 1)%nat by lia. ring.
Qed.
Lemma bigsum_last m f : (1 <= m)%nat -> bigsum m f = bigsum (m - 1) f + f (m - 1)%nat.
Proof. intros H. replace m with (S (m - 1)) at 1 by lia. reflexivity. Qed.
Lemma E_bilin K E : white K E -> forall n a b, (n <= K)%nat ->
  E (fun w => bigsum n (fun j => a j * w j) * bigsum n (fun j => b j * w j)) = bigsum n (fun j => a j * b j).
Proof.
  intros HE n a b Hn.
  rewrite (wh_ext K E HE _ (fun w => 1 / 4 * (bigsum n (fun j => (a j + b j) * w j)) ^ 2 + (-1 / 4) * (bigsum n (fun j => (a j - b j) * w j)) ^ 2)).
  2:{ intros w. rewrite (bigsum_ext n (fun j => (a j + b j) * w j) (fun j => a j * w j + b j * w j)) by (intros; ring).
      rewrite (bigsum_ext n (fun j => (a j - b j) * w j) (fun j => a j * w j - b j * w j)) by (intros; ring).
      rewrite bigsum_plus, bigsum_minus. field. }
  rewrite (wh_add K E HE (fun w => 1 / 4 * (bigsum n (fun j => (a j + b j) * w j)) ^ 2)), !(wh_scal K E HE), !(E_lin K E HE) by exact Hn.
  rewrite <- !bigsum_scal, <- bigsum_plus. apply bigsum_ext. intros. field.
Qed.

Theorem C92_covariance f_nodes h alpha duration dt q E : described f_nodes h alpha -> Forall (Rle 0) h -> 0 < duration -> 0 < dt -> (2 <= q)%nat ->
  tk_n duration dt = Z.of_nat (2 * q) -> white (2 * q) E ->
  let n := (2 * q)%nat in
  exists Sy : nat -> R, (forall k, (k <= q)%nat -> sampled f_nodes h alpha (read_at n dt k) (Sy k)) /\
  let Sx := fun k => phase_psd (Sy k) (read_at n dt k) in
  forall i j, (i < n)%nat -> (j < n)%nat ->
  E (fun w => sample f_nodes h alpha duration dt i w * sample f_nodes h alpha duration dt j w) =
  (INR n - 1) / (dt * INR n ^ 2) *
  (bigsum (q - 1) (fun r => Sx (S r) * cos (2 * PI * INR (S r) * (INR i - INR j) / INR n)) + Sx q * cos (PI * (INR i - INR j)) / 4).
Proof.
  intros D Hh H1 H2 Hq Hn HE n. destruct (tk_series f_nodes h alpha duration dt q D H1 H2 Hq Hn) as (Sy & HS & Hx).
  assert (Sp : forall k, (k <= q)%nat -> sampled f_nodes h alpha (read_at n dt k) (Sy k)).
  { intros k Hk. unfold n. rewrite <- grid_read by assumption. now apply HS. }
  exists Sy. split; [exact Sp|]. intros Sx i j Hi Hj.
  assert (Es : forall k, (k <= q)%nat -> Sy k / (2 * PI * (tk_grid (2 * q) dt).[k]) ^ 2 = Sx k).
  { intros k Hk. unfold Sx, phase_psd. rewrite grid_read by assumption. reflexivity. }
  assert (Ps : forall k, (k <= q)%nat -> 0 <= Sx k).
  { intros k Hk. assert (0 < read_at n dt k) by (apply read_pos; unfold n; lia || lra).
    apply phase_psd_nonneg; [|assumption]. eapply sampled_nonneg; eauto. }
  assert (N4 : 4 <= INR n) by (replace 4 with (INR 4) by (cbn; lra); apply le_INR; unfold n; lia).
  set (c := sqrt ((INR n - 1) / dt)).
  assert (Ec : c ^ 2 = (INR n - 1) / dt) by (unfold c; apply pow2_sqrt; apply Rlt_le, Rdiv_lt_0_compat; lra).
  set (co := fun (j i : nat) => let r := (i / 2)%nat in
     if (r =? q - 1)%nat then (if Nat.even i then sqrt (Sx q) / 2 * cos (INR j * ang q q) else 0)
     else if Nat.even i then sqrt (Sx (S r)) * cos (INR j * ang q (S r)) else - sqrt (Sx (S r)) * sin (INR j * ang q (S r))).
  assert (Co0 : forall j r, co j (2 * r)%nat = if (r =? q - 1)%nat then sqrt (Sx q) / 2 * cos (INR j * ang q q) else sqrt (Sx (S r)) * cos (INR j * ang q (S r))).
  { intros j0 r. unfold co. rewrite half_2q, Nat.even_mul. reflexivity. }
  assert (Co1 : forall j r, co j (2 * r + 1)%nat = if (r =? q - 1)%nat then 0 else - sqrt (Sx (S r)) * sin (INR j * ang q (S r))).
  { intros j0 r. unfold co. replace ((2 * r + 1) / 2)%nat with r by (apply (Nat.div_unique _ 2 r 1); lia).
    rewrite Nat.even_add, Nat.even_mul. reflexivity. }
  assert (Xj : forall w j, (j < n)%nat -> sample f_nodes h alpha duration dt j w = c / INR n * bigsum (2 * q) (fun i => co j i * w i)).
  { intros w j0 Hj0. unfold sample. rewrite Hx. cbv zeta. rewrite nth_tab by exact Hj0. fold n. fold c.
    unfold n. rewrite bigsum_pairs, (bigsum_last q) by lia. rewrite Co0, Co1, Nat.eqb_refl.
    rewrite (bigsum_ext (q - 1) (fun r => co j0 (2 * r)%nat * w (2 * r)%nat + co j0 (2 * r + 1)%nat * w (2 * r + 1)%nat)
      (fun r => 2 * (mode_re w Sx (S r) * cos (INR j0 * ang q (S r)) - mode_im w Sx (S r) * sin (INR j0 * ang q (S r))))).
    2:{ intros r Hr. rewrite Co0, Co1. destruct (Nat.eqb_spec r (q - 1)); [lia|]. unfold mode_re, mode_im.
      replace (S r - 1)%nat with r by lia. field. }
    rewrite (bigsum_ext (q - 1) _ (fun r => 2 * (mode_re w Sx (S r) * cos (INR j0 * ang q (S r)) - mode_im w Sx (S r) * sin (INR j0 * ang q (S r))))).
    2:{ intros r Hr. unfold mode_re, mode_im. rewrite Es by lia. reflexivity. }
    set (T := bigsum _ _). unfold mode_re. rewrite Es by lia. fold n. field. lra. }
  rewrite (wh_ext _ E HE _ (fun w => (c / INR n) ^ 2 * (bigsum (2 * q) (fun k => co i k * w k) * bigsum (2 * q) (fun k => co j k * w k)))).
  2:{ intros w. rewrite !Xj by assumption. ring. }
  rewrite (wh_scal _ E HE), (E_bilin _ E HE) by lia. change (bigsum n (fun k => co i k * co j k)) with (bigsum (2 * q) (fun k => co i k * co j k)). rewrite bigsum_pairs.
  replace ((c / INR n) ^ 2) with ((INR n - 1) / (dt * INR n ^ 2)) by (unfold Rdiv at 2; rewrite Rpow_mult_distr, Ec; field; lra).
  rewrite (bigsum_last q) by lia. apply f_equal. rewrite !Co0, !Co1, !Nat.eqb_refl. f_equal.
  - apply bigsum_ext. intros r Hr. rewrite !Co0, !Co1. destruct (Nat.eqb_spec r (q - 1)); [lia|].
    pose proof (pow2_sqrt (Sx (S r)) (Ps (S r) ltac:(lia))) as Eb. 
    replace (2 * PI * INR (S r) * (INR i - INR j) / INR n) with (INR i * ang q (S r) - INR j * ang q (S r)) by (unfold ang; fold n; field; lra).
    rewrite cos_minus. rewrite <- Eb at 5. ring.
  - pose proof (pow2_sqrt (Sx q) (Ps q ltac:(lia))) as Eb.
    replace (PI * (INR i - INR j)) with (INR i * ang q q - INR j * ang q q).
    + rewrite cos_minus, !(sin_ang_q q) by lia. rewrite <- Eb at 3. field.
    + unfold ang. rewrite mult_INR. cbn [INR]. field. apply not_0_INR. lia.
Qed.
Print Assumptions C92_covariance.

(** a concrete target meeting the hypotheses of all of the above: flicker FM below 0.3 Hz, white FM above, 8 samples *)
Example C92_ex : described [3 / 10] [1; 2] [-1; 0] /\ Forall (Rle 0) [1; 2] /\ tk_n 8 1 = Z.of_nat (2 * 4) /\ white (2 * 4) (signs 8) /\
  sampled [3 / 10] [1; 2] [-1; 0] (read_at (2 * 4) 1 4) 2.
Proof.
  split; [repeat split; repeat constructor|]. split; [repeat constructor; lra|]. split; [apply (tk_n_int 8); lia|]. split; [apply signs_white|].
  assert (Er : read_at (2 * 4) 1 4 = 1 / 2) by (unfold read_at, bin; cbn; field). rewrite Er.
  left. exists 1%nat. split; [|split].
  - repeat split; cbn; try lia; try (intros; assert (i = 0)%nat as -> by lia; cbn; lra).
  - intros _. cbn. lra.
  - cbn. rewrite Rpower_O by lra. ring.
Qed.
