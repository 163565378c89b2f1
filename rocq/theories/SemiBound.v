(** * How large a deviation a disturbance of bounded size can have. *)
From Coq Require Import String Reals List ZArith Lra Lia Arith Bool Psatz.
From Verif Require Import Base Num NpList ModelCore ModelDev NumR ListFacts Spec RSum TauProofs DevProofs TotProofs Closed Laws Laws2 Laws3 SemiProofs.
Import ListNotations.
Local Open Scope R_scope.
Local Notation len := List.length.

Definition within (B : R) (x : list R) : Prop := forall i, Rabs x.[i] <= B.

Lemma bigsum_abs n f c : (forall i, (i < n)%nat -> Rabs (f i) <= c) -> Rabs (bigsum n f) <= INR n * c.
Proof.
  intros H. rewrite <- bigsum_const. induction n as [|n IH]; cbn [bigsum]; [rewrite Rabs_R0; lra|].
  eapply Rle_trans; [apply Rabs_triang|]. apply Rplus_le_compat; [apply IH; intros; apply H; lia|apply H; lia].
Qed.
Lemma bigsum_abs_le n f g : (forall i, (i < n)%nat -> Rabs (f i) <= g i) -> Rabs (bigsum n f) <= bigsum n g.
Proof.
  intros H. induction n as [|n IH]; cbn [bigsum]; [rewrite Rabs_R0; lra|].
  eapply Rle_trans; [apply Rabs_triang|]. apply Rplus_le_compat; [apply IH; intros; apply H; lia|apply H; lia].
Qed.
Lemma sq_le a c : Rabs a <= c -> a ^ 2 <= c ^ 2.
Proof. intros H. rewrite <- (pow2_abs a). apply pow_incr. split; [apply Rabs_pos|exact H]. Qed.
(** mean of n terms below c *)
Lemma mean_le k n f c : 0 < k -> (0 < n)%nat -> (forall i, (i < n)%nat -> f i <= c) -> / (k * INR n) * bigsum n f <= c / k.
Proof.
  intros Hk Hn H. apply lt_INR in Hn. cbn [INR] in Hn.
  assert (Hs : bigsum n f <= INR n * c) by (rewrite <- bigsum_const; now apply bigsum_le).
  replace (c / k) with (/ (k * INR n) * (INR n * c)) by (field; lra).
  apply Rmult_le_compat_l; [|exact Hs]. left. apply Rinv_0_lt_compat. nra.
Qed.
Lemma d2_abs x B m i : within B x -> Rabs (d2 x m i) <= 4 * B.
Proof.
  intros H. unfold d2. pose proof (H (i + 2 * m)%nat). pose proof (H (i + m)%nat). pose proof (H i).
  unfold Rabs in *. repeat destruct Rcase_abs; lra.
Qed.
Lemma d3_abs x B m i : within B x -> Rabs (d3 x m i) <= 8 * B.
Proof.
  intros H. unfold d3. pose proof (H (i + 3 * m)%nat). pose proof (H (i + 2 * m)%nat). pose proof (H (i + m)%nat). pose proof (H i).
  unfold Rabs in *. repeat destruct Rcase_abs; lra.
Qed.

Lemma IZR_cnt z : (0 < z)%Z -> IZR z = INR (Z.to_nat z).
Proof. intros Hz. rewrite INR_IZR_INZ, Z2Nat.id by lia. reflexivity. Qed.

Section Bounds.
Context (x : list R) (B t : R) (m : nat) (Hx : within B x) (Ht : 0 < t) (Hm : (1 <= m)%nat).
Lemma mpos : 1 <= INR m. Proof. apply le_INR in Hm. exact Hm. Qed.
Lemma tpos : 0 < (INR m * t) ^ 2. Proof. pose proof mpos. apply pow_lt. nra. Qed.
Lemma B0 : 0 <= B. Proof. eapply Rle_trans; [apply Rabs_pos|exact (Hx 0%nat)]. Qed.

Lemma avar_le : (0 < adev_n x m)%nat -> avar x t m <= 8 * B ^ 2 / (INR m * t) ^ 2.
Proof.
  intros Hn. unfold avar. pose proof tpos.
  replace (2 * INR (adev_n x m) * (INR m * t) ^ 2) with (2 * (INR m * t) ^ 2 * INR (adev_n x m)) by ring.
  eapply Rle_trans; [apply (mean_le _ _ _ ((4 * B) ^ 2)); [lra|exact Hn|intros; apply sq_le, d2_abs, Hx]|]. right. set (T := (INR m * t) ^ 2) in *. field. lra.
Qed.
Lemma oavar_le : (0 < oadev_n x m)%nat -> oavar x t m <= 8 * B ^ 2 / (INR m * t) ^ 2.
Proof.
  intros Hn. unfold oavar. pose proof tpos.
  eapply Rle_trans; [apply (mean_le _ _ _ ((4 * B) ^ 2)); [lra|exact Hn|intros; apply sq_le, d2_abs, Hx]|]. right. set (T := (INR m * t) ^ 2) in *. field. lra.
Qed.
Lemma hvar_le : (0 < hdev_n x m)%nat -> hvar x t m <= 32 / 3 * B ^ 2 / (INR m * t) ^ 2.
Proof.
  intros Hn. unfold hvar. pose proof tpos.
  eapply Rle_trans; [apply (mean_le _ _ _ ((8 * B) ^ 2)); [lra|exact Hn|intros; apply sq_le, d3_abs, Hx]|]. right. set (T := (INR m * t) ^ 2) in *. field. lra.
Qed.
Lemma ohvar_le : (0 < ohdev_n x m)%nat -> ohvar x t m <= 32 / 3 * B ^ 2 / (INR m * t) ^ 2.
Proof.
  intros Hn. unfold ohvar. pose proof tpos.
  eapply Rle_trans; [apply (mean_le _ _ _ ((8 * B) ^ 2)); [lra|exact Hn|intros; apply sq_le, d3_abs, Hx]|]. right. set (T := (INR m * t) ^ 2) in *. field. lra.
Qed.
Lemma mvar_le : (0 < mdev_n x m)%Z -> mvar x t m <= 8 * B ^ 2 / (INR m * t) ^ 2.
Proof.
  intros Hn. unfold mvar. pose proof tpos. pose proof mpos. rewrite (IZR_cnt _ Hn).
  assert (0 < INR m ^ 2) by (apply pow_lt; lra).
  eapply Rle_trans; [apply (mean_le _ _ _ ((INR m * (4 * B)) ^ 2)); [|lia|]|].
  - apply Rmult_lt_0_compat; lra.
  - intros j _. apply sq_le, bigsum_abs. intros; apply d2_abs, Hx.
  - right. set (T := (INR m * t) ^ 2) in *. field. repeat split; lra.
Qed.
Lemma ramp_abs n : bigsum n (fun k => Rabs ((INR n - 1) / 2 - INR k)) <= INR n ^ 2 / 4.
Proof.
  induction n as [n IH] using (well_founded_induction lt_wf). destruct n as [|[|n]].
  - cbn. lra.
  - cbn. replace ((1 - 1) / 2 - 0) with 0 by field. rewrite Rabs_R0. lra.
  - rewrite bigsum_S_l. cbn [bigsum].
    assert (E : bigsum n (fun i => Rabs ((INR (S (S n)) - 1) / 2 - INR (S i))) = bigsum n (fun k => Rabs ((INR n - 1) / 2 - INR k))).
    { apply bigsum_ext. intros i _. rewrite !S_INR. f_equal. field. }
    rewrite E. specialize (IH n ltac:(lia)). rewrite !S_INR. cbn [INR]. pose proof (pos_INR n).
    rewrite (Rabs_pos_eq ((INR n + 1 + 1 - 1) / 2 - 0)) by lra. rewrite (Rabs_left1 ((INR n + 1 + 1 - 1) / 2 - (INR n + 1))) by lra. lra.
Qed.
Lemma pvar_le : (0 < oadev_n x m)%nat -> pvar x t m <= 18 * B ^ 2 / (INR m * t) ^ 2.
Proof.
  intros Hn. unfold pvar. pose proof tpos. pose proof mpos. pose proof B0.
  destruct (Nat.eqb_spec m 1) as [E|E].
  - replace (oavar x t 1) with (oavar x t m) by (now rewrite E). eapply Rle_trans; [apply oavar_le, Hn|]. unfold Rdiv. apply Rmult_le_compat_r; [left; now apply Rinv_0_lt_compat|].
    pose proof (pow2_ge_0 B). lra.
  - assert (0 < INR m ^ 4) by (apply pow_lt; lra).
    replace (72 / (INR (oadev_n x m) * INR m ^ 4 * (INR m * t) ^ 2)) with (/ (INR m ^ 4 * (INR m * t) ^ 2 / 72 * INR (oadev_n x m)))
      by (apply lt_INR in Hn; cbn [INR] in Hn; field; repeat split; lra).
    eapply Rle_trans; [apply (mean_le _ _ _ ((INR m ^ 2 / 4 * (2 * B)) ^ 2)); [nra|exact Hn|]|].
    + intros i _. apply sq_le.
      eapply Rle_trans with (bigsum m (fun k => Rabs ((INR m - 1) / 2 - INR k) * (2 * B))).
      * apply bigsum_abs_le. intros k _. rewrite Rabs_mult. apply Rmult_le_compat_l; [apply Rabs_pos|].
        pose proof (Hx (i + k)%nat). pose proof (Hx (i + k + m)%nat). unfold Rabs in *. repeat destruct Rcase_abs; lra.
      * rewrite bigsum_scal_r. apply Rmult_le_compat_r; [lra|apply ramp_abs].
    + right. set (U := (INR m * t) ^ 2) in *. field. repeat split; lra.
Qed.
Lemma xtot_abs i : Rabs (xtot x i) <= 3 * B.
Proof.
  pose proof B0. unfold xtot. destruct (i <? 0)%Z; [|destruct (i <? _)%Z].
  - pose proof (Hx 0%nat). pose proof (Hx (Z.to_nat (- i))). unfold Rabs in *. repeat destruct Rcase_abs; lra.
  - pose proof (Hx (Z.to_nat i)). lra.
  - pose proof (Hx (len x - 1)%nat). pose proof (Hx (Z.to_nat (2 * (Z.of_nat (len x) - 1) - i))). unfold Rabs in *. repeat destruct Rcase_abs; lra.
Qed.
Lemma xtot_in i : (0 <= i < Z.of_nat (len x))%Z -> Rabs (xtot x i) <= B.
Proof.
  intros Hi. unfold xtot. destruct (Z.ltb_spec i 0); [lia|]. destruct (Z.ltb_spec i (Z.of_nat (len x))); [apply Hx|lia].
Qed.
Lemma totvar_le : (0 < totdev_n x)%nat -> totvar x t m <= 32 * B ^ 2 / (INR m * t) ^ 2.
Proof.
  intros Hn. unfold totvar. pose proof tpos. cbv zeta.
  eapply Rle_trans; [apply (mean_le _ _ _ ((8 * B) ^ 2)); [lra|exact Hn|]|].
  - intros k Hk. apply sq_le. unfold totdev_n in Hk.
    pose proof (xtot_abs (Z.of_nat (k + 1) - Z.of_nat m)). pose proof (xtot_abs (Z.of_nat (k + 1) + Z.of_nat m)).
    pose proof (xtot_in (Z.of_nat (k + 1)) ltac:(lia)). unfold Rabs in *. repeat destruct Rcase_abs; lra.
  - right. set (T := (INR m * t) ^ 2) in *. field. lra.
Qed.
Lemma theo1var_le : (m < len x)%nat -> theo1var x t m <=
  64 / 3 * bigsum (Nat.div2 m) (fun k => / INR (S k)) * B ^ 2 / (INR m * t) ^ 2.
Proof.
  intros Hn. unfold theo1var. cbv zeta. pose proof tpos.
  replace (3 / 4 * INR (len x - m) * (INR m * t) ^ 2) with (3 / 4 * (INR m * t) ^ 2 * INR (len x - m)) by ring.
  eapply Rle_trans; [apply (mean_le _ _ _ (bigsum (Nat.div2 m) (fun k => / INR (S k)) * (4 * B) ^ 2)); [lra|lia|]|].
  - intros i _. rewrite <- bigsum_scal_r.
    rewrite <- (bigsum_rev (Nat.div2 m) (fun k => / INR (S k) * (4 * B) ^ 2)). apply bigsum_le. intros d Hd.
    replace (INR (Nat.div2 m) - INR d) with (INR (S (Nat.div2 m - 1 - d))) by (rewrite <- minus_INR by lia; f_equal; lia).
    apply Rmult_le_compat_l; [left; apply Rinv_0_lt_compat, lt_0_INR; lia|]. apply sq_le.
    pose proof (Hx i). pose proof (Hx (i + Nat.div2 m - d)%nat). pose proof (Hx (i + m)%nat). pose proof (Hx (i + Nat.div2 m + d)%nat).
    unfold Rabs in *. repeat destruct Rcase_abs; lra.
  - right. set (T := (INR m * t) ^ 2) in *. field. lra.
Qed.
Lemma tierms_le : (m < len x)%nat -> tierms_var x m <= 4 * B ^ 2.
Proof.
  intros Hn. unfold tierms_var. replace (INR (len x - m)) with (1 * INR (len x - m)) by ring.
  eapply Rle_trans; [apply (mean_le 1 _ _ ((2 * B) ^ 2)); [lra|lia|]|right; field].
  intros i _. apply sq_le. pose proof (Hx (i + m)%nat). pose proof (Hx i). unfold Rabs in *. repeat destruct Rcase_abs; lra.
Qed.
Lemma mtie_le : (m < len x)%nat -> mtie_val x m ^ 2 <= 4 * B ^ 2.
Proof.
  intros Hn. replace (4 * B ^ 2) with ((2 * B) ^ 2) by ring. apply pow_incr. split; [apply mtie_val_nonneg; lia|].
  destruct (mtie_val_is x m ltac:(lia)) as (_ & j & k & _ & _ & _ & _ & <-).
  pose proof (Hx j). pose proof (Hx k). unfold Rabs in *. repeat destruct Rcase_abs; lra.
Qed.
End Bounds.

(** one detrended, reflected subsequence *)
Lemma slope_abs y B m : (1 <= m)%nat -> (forall k, Rabs (y k) <= B) -> Rabs (half_slope y m) * ((3 * INR m - 1) / 2) <= 2 * B.
Proof.
  intros Hm Hy. unfold half_slope. cbv zeta. set (h := Nat.div2 (3 * m)).
  assert (Hh : (1 <= h)%nat /\ (2 * h <= 3 * m)%nat).
  { pose proof (Nat.div2_odd (3 * m)) as E. fold h in E. destruct (Nat.odd (3 * m)); cbn [Nat.b2n] in E; lia. }
  assert (HB : 0 <= B) by (eapply Rle_trans; [apply Rabs_pos|exact (Hy 0%nat)]).
  assert (Hp : 0 < INR h) by (apply lt_0_INR; lia).
  assert (Hav : forall f, (forall k, Rabs (f k) <= B) -> Rabs (bigsum h f / INR h) <= B).
  { intros f Hf. unfold Rdiv. rewrite Rabs_mult, Rabs_inv, (Rabs_pos_eq (INR h)) by lra.
    apply (Rmult_le_reg_r (INR h)); [exact Hp|]. rewrite Rmult_assoc, Rinv_l, Rmult_1_r by lra. rewrite Rmult_comm. apply bigsum_abs. auto. }
  pose proof (Hav (fun k => y (3 * m - h + k)%nat) (fun k => Hy _)) as A1. pose proof (Hav y Hy) as A2.
  set (u := bigsum h (fun k => y (3 * m - h + k)%nat) / INR h) in *. set (v := bigsum h y / INR h) in *.
  assert (Hd : (3 * INR m - 1) / 2 <= INR (3 * m - h)).
  { rewrite minus_INR, mult_INR by lia. cbn [INR]. assert (E : 2 * INR h <= 3 * INR m) by (replace 2 with (INR 2) by (cbn; lra); replace 3 with (INR 3) by (cbn; lra); rewrite <- !mult_INR; apply le_INR; lia). lra. }
  assert (Hq : 0 < INR (3 * m - h)) by (apply lt_0_INR; lia).
  assert (Hm' : 1 <= INR m) by (apply le_INR in Hm; exact Hm).
  unfold Rdiv at 1. rewrite Rabs_mult, Rabs_inv, (Rabs_pos_eq (INR (3 * m - h))) by lra.
  assert (Huv : Rabs (u - v) <= 2 * B) by (unfold Rabs in *; repeat destruct Rcase_abs; lra).
  apply Rle_trans with (Rabs (u - v) * / INR (3 * m - h) * INR (3 * m - h)).
  - apply Rmult_le_compat_l; [|exact Hd]. apply Rmult_le_pos; [apply Rabs_pos|left; apply Rinv_0_lt_compat; assumption].
  - rewrite Rmult_assoc, Rinv_l by lra. lra.
Qed.
Lemma tot_term_le y B m : (1 <= m)%nat -> (forall k, Rabs (y k) <= B) -> tot_term y m <= (12 * B) ^ 2.
Proof.
  intros Hm Hy. unfold tot_term. cbv zeta. set (c := half_slope y m).
  assert (Hm' : 1 <= INR m) by (apply le_INR in Hm; exact Hm).
  assert (HB : 0 <= B) by (eapply Rle_trans; [apply Rabs_pos|exact (Hy 0%nat)]).
  set (z := reflect9 (fun k => y k - c * INR k) m). set (s := c * ((3 * INR m - 1) / 2)).
  assert (Hz : forall j, (j < 9 * m)%nat -> Rabs (z j + s) <= 3 * B).
  { assert (Hk : forall k, (k < 3 * m)%nat -> Rabs (y k - c * INR k + s) <= 3 * B).
    { intros k Hk. replace (y k - c * INR k + s) with (y k + c * ((3 * INR m - 1) / 2 - INR k)) by (unfold s; ring).
      eapply Rle_trans; [apply Rabs_triang|]. replace (3 * B) with (B + 2 * B) by ring. apply Rplus_le_compat; [apply Hy|].
      rewrite Rabs_mult. eapply Rle_trans; [|apply (slope_abs y B m Hm Hy)]. apply Rmult_le_compat_l; [apply Rabs_pos|].
      assert (E : INR k <= 3 * INR m - 1).
      { assert (INR (S k) <= INR (3 * m)) as E by (apply le_INR; lia). rewrite S_INR, mult_INR in E. cbn [INR] in E. lra. }
      pose proof (pos_INR k). unfold Rabs. destruct Rcase_abs; lra. }
    intros j Hj. unfold z, reflect9. destruct (Nat.ltb_spec j (3 * m)); [apply Hk; lia|]. destruct (Nat.ltb_spec j (6 * m)); apply Hk; lia. }
  assert (Hw : forall j, (j + m <= 9 * m)%nat -> Rabs (wsum z m j + INR m * s) <= INR m * (3 * B)).
  { intros j Hj. unfold wsum. rewrite <- (bigsum_const m s), <- bigsum_plus. apply bigsum_abs. intros i Hi. apply Hz. lia. }
  replace (6 * INR m) with (1 * INR (6 * m)) by (rewrite mult_INR; cbn [INR]; ring).
  eapply Rle_trans; [apply (mean_le 1 _ _ ((12 * B) ^ 2)); [lra|lia|]|right; field].
  intros j Hj. apply sq_le. unfold Rdiv. rewrite Rabs_mult, Rabs_inv, (Rabs_pos_eq (INR m)) by lra.
  apply (Rmult_le_reg_r (INR m)); [lra|]. rewrite Rmult_assoc, Rinv_l, Rmult_1_r by lra.
  pose proof (Hw j ltac:(lia)). pose proof (Hw (j + m)%nat ltac:(lia)). pose proof (Hw (j + 2 * m)%nat ltac:(lia)).
  set (P := INR m * s) in *. set (Q := INR m * (3 * B)) in *. replace (12 * B * INR m) with (4 * Q) by (unfold Q; ring).
  unfold Rabs in *. repeat destruct Rcase_abs; lra.
Qed.
Lemma mtotvar_le x B t m : within B x -> 0 < t -> (1 <= m)%nat -> (0 < mdev_n x m)%Z -> mtotvar x t m <= 72 * B ^ 2 / (INR m * t) ^ 2.
Proof.
  intros Hx Ht Hm Hn. unfold mtotvar. pose proof (tpos t m Ht Hm). rewrite (IZR_cnt _ Hn).
  eapply Rle_trans; [apply (mean_le _ _ _ ((12 * B) ^ 2)); [lra|lia|]|].
  - intros i _. apply tot_term_le; [exact Hm|]. intros k. apply Hx.
  - right. set (T := (INR m * t) ^ 2) in *. field. lra.
Qed.
Lemma freq_within x B rate : 0 < rate -> within B x -> within (2 * B * rate) (freq_of x rate).
Proof.
  intros Hr Hx i. rewrite nth_freq. pose proof (Hx 0%nat) as H0.
  assert (HB : 0 <= B) by (eapply Rle_trans; [apply Rabs_pos|exact H0]).
  destruct (_ <? _)%nat; [|rewrite Rabs_R0; nra]. rewrite Rabs_mult, (Rabs_pos_eq rate) by lra. rewrite Rmult_comm.
  apply Rmult_le_compat_r; [lra|]. pose proof (Hx (i + 1)%nat). pose proof (Hx i). unfold Rabs in *. repeat destruct Rcase_abs; lra.
Qed.
Lemma htotvar_le x B rate m : within B x -> 0 < rate -> (1 <= m)%nat -> (0 < c_htot (len x) m)%Z -> htotvar x rate m <= 96 * B ^ 2 * rate ^ 2.
Proof.
  intros Hx Hr Hm. unfold c_htot, htotvar. destruct (Nat.eqb_spec m 1) as [E|E]; intros Hc.
  - assert (0 < 1 / rate) by (apply Rdiv_lt_0_compat; lra).
    eapply Rle_trans; [apply (ohvar_le x B (1 / rate) 1 Hx); [assumption|lia|]|].
    + unfold ohdev_n. lia.
    + cbn [INR]. replace (32 / 3 * B ^ 2 / (1 * (1 / rate)) ^ 2) with (32 / 3 * B ^ 2 * rate ^ 2) by (field; lra).
      pose proof (pow2_ge_0 B). pose proof (pow2_ge_0 rate). nra.
  - unfold htotvar_freq. assert (Hn : (0 < mdev_n (freq_of x rate) m)%Z) by (unfold mdev_n; rewrite freq_len; exact Hc).
    rewrite (IZR_cnt _ Hn).
    eapply Rle_trans; [apply (mean_le _ _ _ ((12 * (2 * B * rate)) ^ 2)); [lra|lia|]|].
    + intros i _. apply tot_term_le; [exact Hm|]. intros k. now apply freq_within.
    + right. field.
Qed.

(** harmonic numbers *)
Lemma harmonic_le n : (1 <= n)%nat -> bigsum n (fun k => / INR (S k)) <= 1 + ln (INR n).
Proof.
  intros Hn. induction n as [|n IH]; [lia|]. destruct n as [|n].
  - cbn. rewrite ln_1. lra.
  - change (bigsum (S (S n)) (fun k => / INR (S k))) with (bigsum (S n) (fun k => / INR (S k)) + / INR (S (S n))).
    specialize (IH ltac:(lia)). enough (E : / INR (S (S n)) <= ln (INR (S (S n))) - ln (INR (S n))) by lra.
    assert (P1 : 0 < INR (S n)) by (apply lt_0_INR; lia). assert (P2 : 0 < INR (S (S n))) by (apply lt_0_INR; lia).
    assert (H : ln (INR (S n) / INR (S (S n))) <= - / INR (S (S n))).
    { rewrite <- (ln_exp (- / INR (S (S n)))). assert (Q : 0 < INR (S n) / INR (S (S n))) by (apply Rdiv_lt_0_compat; assumption).
      assert (L : INR (S n) / INR (S (S n)) <= exp (- / INR (S (S n)))).
      { eapply Rle_trans; [|apply exp_ineq1_le]. rewrite (S_INR (S n)). right. field. rewrite <- (S_INR (S n)). lra. }
      destruct L as [L|L]; [left; now apply ln_increasing|rewrite <- L; lra]. }
    unfold Rdiv in H. rewrite ln_mult, ln_Rinv in H; try assumption; [lra|]. now apply Rinv_0_lt_compat.
Qed.
