(** * The estimators converge as the record grows (C86).

    A longer record is measured because the reported deviation is expected to
    settle at the deviation of the noise.  PropsExpect.v and PropsBias.v give the
    mean of the squared deviations over all realisations of the records of
    noise_kasdin.Noise; here their variance is bounded from both sides for every
    record length, so that the estimates converge in mean square, and the number n
    which the functions report bounds the degrees of freedom from above. *)
From Coq Require Import String Reals List ZArith Bool Arith Lia Lra.
From Verif Require Import Base Num NpList NumR Spec ListFacts RSum Dft ModelCore ModelDev ModelNoise ModelNoiseR
  DevProofs TotProofs Laws Laws2 Laws3 NoiseProofs PropsDev PropsKasdin PropsPredict PropsExpect CiProofs GreenProofs PropsEdf.
From Verif Require PropsBias.
Import ListNotations.
Local Open Scope R_scope.
Local Notation len := List.length.

(** ** Specification *)

(** The functions considered, with the number of terms they average at averaging
    factor m of N phase points, and the number of terms after which two terms no
    longer share input samples. *)
Definition estimators (m : nat) : list ((list R -> R -> string -> taus_arg R -> res (@result R)) * (nat -> nat) * nat) :=
  [(adev,  fun N => (N - 1) / m - 1, 3);
   (oadev, fun N => N - 2 * m,       2 * m + 1);
   (hdev,  fun N => (N - 1) / m - 2, 4);
   (ohdev, fun N => N - 3 * m,       3 * m + 1);
   (mdev,  fun N => N - 3 * m + 1,   3 * m);
   (tdev,  fun N => N - 3 * m + 1,   3 * m);
   (pdev,  fun N => N - 2 * m,       2 * m + 1)]%nat.

(** ** Sums of squares of shifted finite filters *)
Record shifty (a : nat -> nat -> R) (s L : nat) : Prop := {
  sh_s : (1 <= s)%nat;
  sh_L : (1 <= L)%nat;
  sh_shift : forall k j, a (S k) (s + j)%nat = a k j;
  sh_lo : forall k j, (j < k * s)%nat -> a k j = 0;
  sh_hi : forall k j, (k * s + L <= j)%nat -> a k j = 0;
  sh_top : a 0%nat (L - 1)%nat <> 0 }.

Definition power (a : nat -> nat -> R) (L : nat) : R := bigsum L (fun t => a 0%nat t ^ 2).

Lemma bigsum_term n (f : nat -> R) i : (forall j, (j < n)%nat -> 0 <= f j) -> (i < n)%nat -> f i <= bigsum n f.
Proof.
  intros Hf Hi. induction n as [|n IH]; [lia|]. cbn [bigsum].
  destruct (Nat.eq_dec i n) as [->|Hn].
  - pose proof (bigsum_nonneg n f ltac:(intros; apply Hf; lia)). lra.
  - specialize (IH ltac:(intros; apply Hf; lia) ltac:(lia)). specialize (Hf n ltac:(lia)). lra.
Qed.
Lemma bigsum_below n p : bigsum n (fun i => if (i <? p)%nat then 1 else 0) = INR (Nat.min n p).
Proof.
  induction n as [|n IH]; [reflexivity|]. cbn [bigsum]. rewrite IH. destruct (Nat.ltb_spec n p).
  - replace (Nat.min (S n) p) with (S (Nat.min n p)) by lia. now rewrite S_INR.
  - replace (Nat.min (S n) p) with (Nat.min n p) by lia. ring.
Qed.
Lemma band_count n q : (1 <= q)%nat -> dsum n (fun j => if (j <? q)%nat then 1 else 0) <= INR n * (2 * INR q - 1).
Proof.
  intros Hq. rewrite dsum_lags. destruct (Nat.ltb_spec 0 q) as [_|]; [|lia].
  assert (Hs : bigsum (n - 1) (fun i => 2 * (INR n - INR (i + 1)) * (if (i + 1 <? q)%nat then 1 else 0)) <=
    bigsum (n - 1) (fun i => 2 * INR n * (if (i <? q - 1)%nat then 1 else 0))).
  { apply bigsum_le. intros i Hi. pose proof (pos_INR (i + 1)).
    destruct (Nat.ltb_spec (i + 1) q), (Nat.ltb_spec i (q - 1)); try lia; lra. }
  rewrite bigsum_scal, bigsum_below in Hs.
  assert (INR (Nat.min (n - 1) (q - 1)) <= INR q - 1).
  { replace (INR q - 1) with (INR (q - 1)) by (rewrite minus_INR by lia; cbn; ring). apply le_INR. lia. }
  pose proof (pos_INR n). nra.
Qed.

Section Shift.
Variables (a : nat -> nat -> R) (s L : nat).
Hypothesis Ha : shifty a s L.

Lemma sh_iter k j : a k (k * s + j)%nat = a 0%nat j.
Proof.
  induction k as [|k IH]; [reflexivity|]. rewrite <- IH. rewrite <- (sh_shift _ _ _ Ha k (k * s + j)).
  f_equal. lia.
Qed.
Lemma power_pos : 0 < power a L.
Proof.
  unfold power. pose proof (sh_L _ _ _ Ha).
  pose proof (bigsum_term L (fun t => a 0%nat t ^ 2) (L - 1) ltac:(intros; apply pow2_ge_0) ltac:(lia)) as H1.
  pose proof (sh_top _ _ _ Ha) as H2. cbv beta in H1. 
  assert (0 < a 0%nat (L - 1)%nat ^ 2) by (rewrite <- Rsqr_pow2; now apply Rlt_0_sqr). lra.
Qed.
Lemma sh_self K k : (k * s + L <= K)%nat -> dot K (a k) (a k) = power a L.
Proof.
  intros HK. unfold dot, power. replace K with (k * s + (L + (K - k * s - L)))%nat by lia. rewrite !bigsum_add.
  rewrite (bigsum_0 (k * s)) by (intros j Hj; rewrite (sh_lo _ _ _ Ha k j Hj); ring).
  rewrite (bigsum_0 (K - k * s - L)) by (intros j Hj; rewrite (sh_hi _ _ _ Ha k) by lia; ring).
  rewrite Rplus_0_l, Rplus_0_r. apply bigsum_ext. intros j _. rewrite sh_iter. ring.
Qed.
Lemma sh_far_le K k l q : (L <= q * s)%nat -> (k + q <= l)%nat -> dot K (a k) (a l) = 0.
Proof.
  intros Hq Hkl. unfold dot. apply bigsum_0. intros j _.
  destruct (Nat.ltb_spec j (l * s)) as [H|H].
  - rewrite (sh_lo _ _ _ Ha l j H). ring.
  - rewrite (sh_hi _ _ _ Ha k j) by nia. ring.
Qed.
Lemma sh_far K k l q : (L <= q * s)%nat -> (q <= dist k l)%nat -> dot K (a k) (a l) = 0.
Proof.
  intros Hq Hd. unfold dist in Hd. destruct (Nat.le_gt_cases k l).
  - apply (sh_far_le K k l q); lia.
  - transitivity (dot K (a l) (a k)); [unfold dot; apply bigsum_ext; intros; ring|]. apply (sh_far_le K l k q); lia.
Qed.

(** mean and variance of the average of the squared filter outputs *)
Lemma shift_moments K E c n q : gaussian K E -> 0 < c -> (1 <= n)%nat -> ((n - 1) * s + L <= K)%nat -> (1 <= q)%nat -> (L <= q * s)%nat ->
  let V := fun w => c / INR n * bigsum n (fun k => lin K (a k) w ^ 2) in
  E V = c * power a L /\
  2 / INR n * E V ^ 2 <= E (fun w => (V w - E V) ^ 2) <= 2 * (2 * INR q - 1) / INR n * E V ^ 2.
Proof.
  intros HG Hc Hn HK Hq1 Hq V. apply lt_0_INR in Hn as Hn'. pose proof power_pos as Hp.
  assert (Hself : forall k, (k < n)%nat -> dot K (a k) (a k) = power a L) by (intros k Hk; apply sh_self; nia).
  assert (HM : E V = c * power a L).
  { unfold V. rewrite (quad_mean K E HG). rewrite (bigsum_ext n _ (fun _ => power a L)) by exact Hself.
    rewrite bigsum_const. field. lra. }
  split; [exact HM|].
  pose proof (quad_var K E HG (c / INR n) n a) as HV. cbv zeta in HV. fold V in HV. rewrite HV, HM. clear HV.
  set (Q := bigsum n (fun k => bigsum n (fun l => dot K (a k) (a l) ^ 2))).
  assert (HQ1 : INR n * power a L ^ 2 <= Q).
  { rewrite <- bigsum_const. apply bigsum_le. intros k Hk. rewrite <- (Hself k Hk).
    apply (bigsum_term n (fun l => dot K (a k) (a l) ^ 2)); [intros; apply pow2_ge_0|exact Hk]. }
  assert (HQ2 : Q <= power a L ^ 2 * (INR n * (2 * INR q - 1))).
  { apply Rle_trans with (power a L ^ 2 * dsum n (fun j => if (j <? q)%nat then 1 else 0)).
    - rewrite <- dsum_scal. unfold Q, dsum. apply bigsum_le. intros k Hk. apply bigsum_le. intros l Hl.
      destruct (Nat.ltb_spec (dist k l) q) as [H|H].
      + rewrite Rmult_1_r. pose proof (cauchy_schwarz K (a k) (a l)) as CS. unfold dot.
        assert (E1 : forall i, (i < n)%nat -> bigsum K (fun j => a i j ^ 2) = power a L).
        { intros i Hi. rewrite <- (Hself i Hi). unfold dot. apply bigsum_ext. intros; ring. }
        rewrite !E1 in CS by assumption. lra.
      + rewrite (sh_far K k l q Hq H). rewrite Rmult_0_r. cbn. lra.
    - apply Rmult_le_compat_l; [apply pow2_ge_0|]. now apply band_count. }
  assert (Hk2 : 2 * (c / INR n) ^ 2 * (INR n * power a L ^ 2) = 2 / INR n * (c * power a L) ^ 2) by (field; lra).
  assert (Hk3 : 2 * (c / INR n) ^ 2 * (power a L ^ 2 * (INR n * (2 * INR q - 1))) = 2 * (2 * INR q - 1) / INR n * (c * power a L) ^ 2) by (field; lra).
  rewrite <- Hk2, <- Hk3.
  assert (0 <= 2 * (c / INR n) ^ 2) by (pose proof (pow2_ge_0 (c / INR n)); lra).
  split; apply Rmult_le_compat_l; assumption.
Qed.
End Shift.

(** ** The coefficient vectors of the generated record *)
Lemma coef_shift b t k j : coef b (t + k) (t + j) = coef b k j.
Proof.
  unfold coef. replace (t + k - (t + j))%nat with (k - j)%nat by lia.
  destruct (Nat.leb_spec (t + j) (t + k)), (Nat.leb_spec j k); try lia; reflexivity.
Qed.
Lemma coef_after b k j : (k < j)%nat -> coef b k j = 0.
Proof. intros H. unfold coef. destruct (Nat.leb_spec j k); [lia|reflexivity]. Qed.
Lemma coef_diag b k : coef b k k = 1.
Proof. unfold coef. rewrite Nat.leb_refl, Nat.sub_diag. reflexivity. Qed.
Lemma coef_lin b i j t : b = -2 \/ b = -4 -> (j <= i)%nat ->
  coef b (i + t) j = coef b i j + INR t * (coef b (S i) j - coef b i j).
Proof.
  intros [-> | ->] H.
  - rewrite !coef_m2. destruct (Nat.leb_spec j (i + t)), (Nat.leb_spec j i), (Nat.leb_spec j (S i)); try lia. ring.
  - rewrite !coef_m4. rewrite !minus_INR by lia. rewrite !S_INR, plus_INR. ring.
Qed.

Lemma coef0_before k j : (j < k)%nat -> coef 0 k j = 0.
Proof. intros H. rewrite coef_0. destruct (Nat.eqb_spec k j); [lia|reflexivity]. Qed.

Definition c3 (b : R) (m i j : nat) : R :=
  coef b (i + 3 * m) j - 3 * coef b (i + 2 * m) j + 3 * coef b (i + m) j - coef b i j.
Definition wsum (m : nat) (f : nat -> nat -> R) (k j : nat) : R := bigsum m (fun t => f (k + t)%nat j).
Definition cp (b : R) (m k j : nat) : R :=
  bigsum m (fun t => ((INR m - 1) / 2 - INR t) * (coef b (k + t) j - coef b (k + t + m) j)).

Definition slope (b : R) : Prop := b = 0 \/ b = -2 \/ b = -4.
Lemma c2_before b m i j : slope b -> (j < i)%nat -> c2 b m i j = 0.
Proof.
  intros [->|Hb] H; unfold c2.
  - rewrite !coef0_before by lia. ring.
  - rewrite !(coef_lin b i j _ Hb) by lia. rewrite mult_INR. cbn [INR]. ring.
Qed.
Lemma c3_before b m i j : slope b -> (j < i)%nat -> c3 b m i j = 0.
Proof.
  intros [->|Hb] H; unfold c3.
  - rewrite !coef0_before by lia. ring.
  - rewrite !(coef_lin b i j _ Hb) by lia. rewrite !mult_INR. cbn [INR]. ring.
Qed.
Lemma cp_before b m k j : slope b -> (j < k)%nat -> cp b m k j = 0.
Proof.
  intros [->|Hb] H; unfold cp.
  - apply bigsum_0. intros t Ht. rewrite !coef0_before by lia. ring.
  - rewrite (bigsum_ext m _ (fun t => ((INR m - 1) / 2 - INR t) * (- INR m * (coef b (S k) j - coef b k j)))).
    + rewrite bigsum_scal_r, pvar_weights. ring.
    + intros t Ht. f_equal. replace (k + t + m)%nat with (k + (t + m))%nat by lia.
      rewrite !(coef_lin b k j _ Hb) by lia. rewrite plus_INR. ring.
Qed.

Lemma shifty_c2 b m s : slope b -> (1 <= m)%nat -> (1 <= s)%nat -> shifty (fun k => c2 b m (k * s)) s (2 * m + 1).
Proof.
  intros Hb Hm Hs. split; try lia.
  - intros k j. unfold c2. replace (S k * s + 2 * m)%nat with (s + (k * s + 2 * m))%nat by lia.
    replace (S k * s + m)%nat with (s + (k * s + m))%nat by lia. cbn [Nat.mul]. now rewrite !coef_shift.
  - intros k j H. now apply c2_before.
  - intros k j H. unfold c2. rewrite !coef_after by lia. ring.
  - unfold c2. cbn [Nat.mul]. rewrite (coef_after b (0 + m)) by lia. rewrite (coef_after b 0) by lia.
    replace (m + (m + 0) + 1 - 1)%nat with (0 + (m + (m + 0)))%nat by lia. rewrite coef_diag. lra.
Qed.
Lemma shifty_c3 b m s : slope b -> (1 <= m)%nat -> (1 <= s)%nat -> shifty (fun k => c3 b m (k * s)) s (3 * m + 1).
Proof.
  intros Hb Hm Hs. split; try lia.
  - intros k j. unfold c3. replace (S k * s + 3 * m)%nat with (s + (k * s + 3 * m))%nat by lia.
    replace (S k * s + 2 * m)%nat with (s + (k * s + 2 * m))%nat by lia.
    replace (S k * s + m)%nat with (s + (k * s + m))%nat by lia. cbn [Nat.mul]. now rewrite !coef_shift.
  - intros k j H. now apply c3_before.
  - intros k j H. unfold c3. rewrite !coef_after by lia. ring.
  - unfold c3. rewrite (coef_after b (0 * s + 2 * m)) by lia. rewrite (coef_after b (0 * s + m)) by lia. rewrite (coef_after b (0 * s)) by lia.
    replace (3 * m + 1 - 1)%nat with (0 * s + 3 * m)%nat by lia. rewrite coef_diag. lra.
Qed.
Lemma shifty_wsum b m : slope b -> (1 <= m)%nat -> shifty (wsum m (c2 b m)) 1 (3 * m).
Proof.
  intros Hb Hm. destruct (shifty_c2 b m 1 Hb Hm ltac:(lia)) as [_ _ H1 H2 H3 _]. split; try lia.
  - intros k j. unfold wsum. apply bigsum_ext. intros t Ht. specialize (H1 (k + t)%nat j). rewrite !Nat.mul_1_r in H1. exact H1.
  - intros k j H. unfold wsum. apply bigsum_0. intros t Ht. specialize (H2 (k + t)%nat j). rewrite Nat.mul_1_r in H2. apply H2. lia.
  - intros k j H. unfold wsum. apply bigsum_0. intros t Ht. specialize (H3 (k + t)%nat j). rewrite Nat.mul_1_r in H3. apply H3. lia.
  - unfold wsum. replace m with (S (m - 1)) at 1 by lia. cbn [bigsum]. rewrite bigsum_0.
    + unfold c2. rewrite (coef_after b (0 + (m - 1) + m)) by lia. rewrite (coef_after b (0 + (m - 1))) by lia.
      replace (0 + (m - 1) + 2 * m)%nat with (3 * m - 1)%nat by lia. rewrite coef_diag. lra.
    + intros t Ht. specialize (H3 t (3 * m - 1)%nat). rewrite Nat.mul_1_r in H3. apply H3. lia.
Qed.
Lemma shifty_cp b m : slope b -> (2 <= m)%nat -> shifty (cp b m) 1 (2 * m).
Proof.
  intros Hb Hm. split; try lia.
  - intros k j. unfold cp. apply bigsum_ext. intros t Ht. cbn [Nat.add].
    pose proof (coef_shift b 1 (k + t) j) as E1. pose proof (coef_shift b 1 (k + t + m) j) as E2. cbn [Nat.add] in E1, E2. now rewrite E1, E2.
  - intros k j H. apply cp_before; [exact Hb|lia].
  - intros k j H. unfold cp. apply bigsum_0. intros t Ht. rewrite !coef_after by lia. ring.
  - unfold cp. replace m with (S (m - 1)) at 1 by lia. cbn [bigsum]. rewrite bigsum_0.
    + rewrite (coef_after b (0 + (m - 1))) by lia. replace (0 + (m - 1) + m)%nat with (2 * m - 1)%nat by lia. rewrite coef_diag.
      rewrite minus_INR by lia. apply le_INR in Hm. cbn [INR] in *. lra.
    + intros t Ht. rewrite !coef_after by lia. ring.
Qed.

(** ** The reported deviations as such averages *)
Lemma record_d3 nr qd b w m i : (i + 3 * m < nr)%nat -> d3 (record nr qd b w) m i = sqrt qd * lin nr (c3 b m i) w.
Proof.
  intros H. unfold d3, lin. rewrite !record_nth by lia.
  rewrite (bigsum_ext nr (fun j => c3 b m i j * w j)
    (fun j => (coef b (i + 3 * m) j * w j - 3 * (coef b (i + 2 * m) j * w j)) + (3 * (coef b (i + m) j * w j) - coef b i j * w j)))
    by (intros j Hj; unfold c3; ring).
  rewrite bigsum_plus, !bigsum_minus, !bigsum_scal. ring.
Qed.
Lemma record_wsum nr qd b w m k : (k + 3 * m <= nr)%nat ->
  bigsum m (fun i => d2 (record nr qd b w) m (k + i)) = sqrt qd * lin nr (wsum m (c2 b m) k) w.
Proof.
  intros H. rewrite (bigsum_ext m _ (fun t => sqrt qd * bigsum nr (fun j => c2 b m (k + t) j * w j)))
    by (intros t Ht; apply record_d2; lia).
  rewrite bigsum_scal. f_equal. rewrite bigsum_swap. unfold lin, wsum. apply bigsum_ext. intros j Hj. now rewrite bigsum_scal_r.
Qed.
Lemma record_cp nr qd b w m k : (k + 2 * m <= nr)%nat ->
  bigsum m (fun t => ((INR m - 1) / 2 - INR t) * ((record nr qd b w).[k + t] - (record nr qd b w).[k + t + m])) =
  sqrt qd * lin nr (cp b m k) w.
Proof.
  intros H. rewrite (bigsum_ext m _ (fun t => sqrt qd * bigsum nr (fun j =>
    ((INR m - 1) / 2 - INR t) * (coef b (k + t) j - coef b (k + t + m) j) * w j))).
  - rewrite bigsum_scal. f_equal. rewrite bigsum_swap. unfold lin, cp. apply bigsum_ext. intros j Hj. now rewrite bigsum_scal_r.
  - intros t Ht. rewrite !record_nth by lia.
    rewrite (bigsum_ext nr (fun j => ((INR m - 1) / 2 - INR t) * (coef b (k + t) j - coef b (k + t + m) j) * w j)
      (fun j => ((INR m - 1) / 2 - INR t) * (coef b (k + t) j * w j - coef b (k + t + m) j * w j))) by (intros; ring).
    rewrite bigsum_scal, bigsum_minus. ring.
Qed.

Definition is_average (fn : list R -> R -> string -> taus_arg R -> res (@result R)) (cnt : nat -> nat) (q m : nat) (rate qd b : R) : Prop :=
  exists c a s L, 0 < c /\ shifty a s L /\ (1 <= q)%nat /\ (L <= q * s)%nat /\
  forall N, (2 <= cnt N)%nat -> ((cnt N - 1) * s + L <= N)%nat /\
  forall w, exists d e, fn (record N qd b w) rate "phase"%string (TList [INR m / rate]) = Ok ([INR m / rate], [d], e, [Z.of_nat (cnt N)]) /\
    d ^ 2 = c / INR (cnt N) * bigsum (cnt N) (fun k => lin N (a k) w ^ 2).

Lemma INR_above r : exists n, r < INR n.
Proof.
  exists (Z.to_nat (up r)). destruct (archimed r) as [H _]. rewrite INR_IZR_INZ.
  apply Rlt_le_trans with (IZR (up r)); [exact H|]. apply IZR_le. lia.
Qed.

Section Avg.
Variables (m : nat) (rate qd b : R).
Hypothesis Hr : 0 < rate.
Hypothesis Hq : 0 < qd.
Hypothesis Hm : (1 <= m)%nat.
Hypothesis Hb : slope b.

Let tp := tau_pos m rate Hr Hm.
Let sq := sq_lin qd Hq.

Lemma avg_adev : is_average adev (fun N => (N - 1) / m - 1)%nat 3 m rate qd b.
Proof.
  exists (/ (2 * (INR m * (1 / rate)) ^ 2) * qd), (fun k => c2 b m (k * m)), m, (2 * m + 1)%nat.
  split. { apply Rmult_lt_0_compat; [|exact Hq]. apply Rinv_0_lt_compat. pose proof (pow_lt _ 2 tp). lra. }
  split; [now apply shifty_c2|]. split; [lia|]. split; [lia|]. intros N Hn.
  pose proof (Nat.mul_div_le (N - 1) m ltac:(lia)) as Hd. split; [nia|]. intros w.
  assert (HL : len (record N qd b w) = N) by (apply record_len; nia).
  assert (HNn : adev_n (record N qd b w) m = ((N - 1) / m - 1)%nat) by (unfold adev_n; now rewrite HL).
  eexists. eexists. split.
  - rewrite (C14_adev _ _ _ [m]); [|exact Hr|rewrite HL; apply adm_single; [exact Hr|nia]].
    cbv zeta. rewrite report_single by (rewrite HNn; lia). rewrite HNn. reflexivity.
  - rewrite pow2_sqrt by apply avar_nonneg. unfold avar. rewrite HNn.
    rewrite (bigsum_ext _ _ (fun k => qd * lin N (c2 b m (k * m)) w ^ 2)).
    + rewrite bigsum_scal. assert (0 < INR ((N - 1) / m - 1)) by (apply lt_0_INR; lia). field. split; [lra|split; [|lra]].
      apply not_0_INR; lia.
    + intros k Hk. apply sq. apply record_d2. nia.
Qed.
Lemma avg_oadev : is_average oadev (fun N => N - 2 * m)%nat (2 * m + 1) m rate qd b.
Proof.
  exists (/ (2 * (INR m * (1 / rate)) ^ 2) * qd), (fun k => c2 b m (k * 1)), 1%nat, (2 * m + 1)%nat.
  split. { apply Rmult_lt_0_compat; [|exact Hq]. apply Rinv_0_lt_compat. pose proof (pow_lt _ 2 tp). lra. }
  split; [apply shifty_c2; auto|]. split; [lia|]. split; [lia|]. intros N Hn. split; [lia|]. intros w.
  assert (HL : len (record N qd b w) = N) by (apply record_len; lia).
  assert (HNn : oadev_n (record N qd b w) m = (N - 2 * m)%nat) by (unfold oadev_n; now rewrite HL).
  eexists. eexists. split.
  - rewrite (C15_oadev _ _ _ [m]); [|exact Hr|rewrite HL; apply adm_single; [exact Hr|lia]].
    cbv zeta. rewrite report_single by (rewrite HNn; lia). rewrite HNn. reflexivity.
  - rewrite pow2_sqrt by apply oavar_nonneg. unfold oavar. rewrite HNn.
    rewrite (bigsum_ext _ _ (fun k => qd * lin N (c2 b m (k * 1)) w ^ 2)).
    + rewrite bigsum_scal. assert (0 < INR (N - 2 * m)) by (apply lt_0_INR; lia). field. split; [lra|split; [|lra]].
      apply not_0_INR; lia.
    + intros k Hk. apply sq. rewrite Nat.mul_1_r. apply record_d2. lia.
Qed.
Lemma avg_hdev : is_average hdev (fun N => (N - 1) / m - 2)%nat 4 m rate qd b.
Proof.
  exists (/ (6 * (INR m * (1 / rate)) ^ 2) * qd), (fun k => c3 b m (k * m)), m, (3 * m + 1)%nat.
  split. { apply Rmult_lt_0_compat; [|exact Hq]. apply Rinv_0_lt_compat. pose proof (pow_lt _ 2 tp). lra. }
  split; [now apply shifty_c3|]. split; [lia|]. split; [lia|]. intros N Hn.
  pose proof (Nat.mul_div_le (N - 1) m ltac:(lia)) as Hd. split; [nia|]. intros w.
  assert (HL : len (record N qd b w) = N) by (apply record_len; nia).
  assert (HNn : hdev_n (record N qd b w) m = ((N - 1) / m - 2)%nat) by (unfold hdev_n; now rewrite HL).
  eexists. eexists. split.
  - rewrite (C16_hdev _ _ _ [m]); [|exact Hr|rewrite HL; apply adm_single; [exact Hr|nia]].
    cbv zeta. rewrite report_single by (rewrite HNn; lia). rewrite HNn. reflexivity.
  - rewrite pow2_sqrt by apply hvar_nonneg. unfold hvar. rewrite HNn.
    rewrite (bigsum_ext _ _ (fun k => qd * lin N (c3 b m (k * m)) w ^ 2)).
    + rewrite bigsum_scal. assert (0 < INR ((N - 1) / m - 2)) by (apply lt_0_INR; lia). field. split; [lra|split; [|lra]].
      apply not_0_INR; lia.
    + intros k Hk. apply sq. apply record_d3. nia.
Qed.
Lemma avg_ohdev : is_average ohdev (fun N => N - 3 * m)%nat (3 * m + 1) m rate qd b.
Proof.
  exists (/ (6 * (INR m * (1 / rate)) ^ 2) * qd), (fun k => c3 b m (k * 1)), 1%nat, (3 * m + 1)%nat.
  split. { apply Rmult_lt_0_compat; [|exact Hq]. apply Rinv_0_lt_compat. pose proof (pow_lt _ 2 tp). lra. }
  split; [apply shifty_c3; auto|]. split; [lia|]. split; [lia|]. intros N Hn. split; [lia|]. intros w.
  assert (HL : len (record N qd b w) = N) by (apply record_len; lia).
  assert (HNn : ohdev_n (record N qd b w) m = (N - 3 * m)%nat) by (unfold ohdev_n; now rewrite HL).
  eexists. eexists. split.
  - rewrite (C17_ohdev _ _ _ [m]); [|exact Hr|rewrite HL; apply adm_single; [exact Hr|lia]].
    cbv zeta. rewrite report_single by (rewrite HNn; lia). rewrite HNn. reflexivity.
  - rewrite pow2_sqrt by apply ohvar_nonneg. unfold ohvar. rewrite HNn.
    rewrite (bigsum_ext _ _ (fun k => qd * lin N (c3 b m (k * 1)) w ^ 2)).
    + rewrite bigsum_scal. assert (0 < INR (N - 3 * m)) by (apply lt_0_INR; lia). field. split; [lra|split; [|lra]].
      apply not_0_INR; lia.
    + intros k Hk. apply sq. rewrite Nat.mul_1_r. apply record_d3. lia.
Qed.
Lemma avg_mvar N w : (2 <= N - 3 * m + 1)%nat ->
  mvar (record N qd b w) (1 / rate) m = / (2 * INR m ^ 2 * (INR m * (1 / rate)) ^ 2) * qd / INR (N - 3 * m + 1) *
  bigsum (N - 3 * m + 1) (fun k => lin N (wsum m (c2 b m) k) w ^ 2).
Proof.
  intros Hn. assert (HL : len (record N qd b w) = N) by (apply record_len; lia).
  assert (HNn : mdev_n (record N qd b w) m = Z.of_nat (N - 3 * m + 1)) by (unfold mdev_n; rewrite HL; lia).
  unfold mvar. rewrite HNn, <- INR_IZR_INZ, Nat2Z.id.
  rewrite (bigsum_ext _ _ (fun k => qd * lin N (wsum m (c2 b m) k) w ^ 2)).
  - rewrite bigsum_scal. assert (0 < INR (N - 3 * m + 1)) by (apply lt_0_INR; lia). field. split; [lra|split; [|lra]].
    apply not_0_INR; lia.
  - intros k Hk. apply sq. apply record_wsum. lia.
Qed.
Lemma avg_mdev : is_average mdev (fun N => N - 3 * m + 1)%nat (3 * m) m rate qd b.
Proof.
  assert (Hmp : 0 < INR m) by (apply lt_0_INR; lia).
  exists (/ (2 * INR m ^ 2 * (INR m * (1 / rate)) ^ 2) * qd), (wsum m (c2 b m)), 1%nat, (3 * m)%nat.
  split. { apply Rmult_lt_0_compat; [|exact Hq]. apply Rinv_0_lt_compat. apply Rmult_lt_0_compat; [|now apply pow_lt].
    pose proof (pow_lt _ 2 Hmp). lra. }
  split; [now apply shifty_wsum|]. split; [lia|]. split; [lia|]. intros N Hn. split; [lia|]. intros w.
  assert (HL : len (record N qd b w) = N) by (apply record_len; lia).
  assert (HNn : mdev_n (record N qd b w) m = Z.of_nat (N - 3 * m + 1)) by (unfold mdev_n; rewrite HL; lia).
  eexists. eexists. split.
  - rewrite (C18_mdev _ _ _ [m]); [|exact Hr|rewrite HL; apply adm_single; [exact Hr|lia]].
    cbv zeta. rewrite report_single by (rewrite HNn; lia). rewrite HNn. reflexivity.
  - rewrite pow2_sqrt by (apply mvar_nonneg; rewrite HNn; lia). now apply avg_mvar.
Qed.
Lemma avg_tdev : is_average tdev (fun N => N - 3 * m + 1)%nat (3 * m) m rate qd b.
Proof.
  assert (Hmp : 0 < INR m) by (apply lt_0_INR; lia).
  exists (/ (6 * INR m ^ 2) * qd), (wsum m (c2 b m)), 1%nat, (3 * m)%nat.
  split. { apply Rmult_lt_0_compat; [|exact Hq]. apply Rinv_0_lt_compat. pose proof (pow_lt _ 2 Hmp). lra. }
  split; [now apply shifty_wsum|]. split; [lia|]. split; [lia|]. intros N Hn. split; [lia|]. intros w.
  assert (HL : len (record N qd b w) = N) by (apply record_len; lia).
  assert (HNn : mdev_n (record N qd b w) m = Z.of_nat (N - 3 * m + 1)) by (unfold mdev_n; rewrite HL; lia).
  eexists. eexists. split.
  - rewrite (C19_tdev _ _ _ [m]); [|exact Hr|rewrite HL; apply adm_single; [exact Hr|lia]].
    cbv zeta. rewrite report_single by (rewrite HNn; lia). rewrite HNn. reflexivity.
  - rewrite pow2_sqrt.
    + rewrite avg_mvar by exact Hn. assert (0 < INR (N - 3 * m + 1)) by (apply lt_0_INR; lia). field. repeat split; lra.
    + apply Rmult_le_pos; [|apply mvar_nonneg; rewrite HNn; lia]. pose proof (pow2_ge_0 (INR m * (1 / rate))). lra.
Qed.
Lemma avg_pdev : is_average pdev (fun N => N - 2 * m)%nat (2 * m + 1) m rate qd b.
Proof.
  assert (Hmp : 0 < INR m) by (apply lt_0_INR; lia).
  destruct (Nat.eq_dec m 1) as [E1|N1].
  - destruct avg_oadev as (c & a & s & L & H1 & H2 & H3 & H4 & H5). exists c, a, s, L.
    split; [exact H1|]. split; [exact H2|]. split; [exact H3|]. split; [exact H4|]. intros N Hn.
    destruct (H5 N Hn) as [H6 H7]. split; [exact H6|]. intros w. destruct (H7 w) as (d & e & H8 & H9).
    assert (HL : len (record N qd b w) = N) by (apply record_len; lia).
    assert (HNn : oadev_n (record N qd b w) m = (N - 2 * m)%nat) by (unfold oadev_n; now rewrite HL).
    eexists. eexists. split.
    + rewrite (C20_pdev _ _ _ [m]); [|exact Hr|rewrite HL; apply adm_single; [exact Hr|lia]].
      cbv zeta. rewrite report_single by (rewrite HNn; lia). rewrite HNn. reflexivity.
    + rewrite <- H9. f_equal. rewrite (C15_oadev _ _ _ [m]) in H8; [|exact Hr|rewrite HL; apply adm_single; [exact Hr|lia]].
      cbv zeta in H8. rewrite report_single in H8 by (rewrite HNn; lia). injection H8 as H8 _. rewrite <- H8. f_equal.
      unfold pvar. rewrite E1. reflexivity.
  - exists (72 / (INR m ^ 4 * (INR m * (1 / rate)) ^ 2) * qd), (cp b m), 1%nat, (2 * m)%nat.
    split. { apply Rmult_lt_0_compat; [|exact Hq]. apply Rdiv_lt_0_compat; [lra|]. apply Rmult_lt_0_compat; now apply pow_lt. }
    split; [apply shifty_cp; [exact Hb|lia]|]. split; [lia|]. split; [lia|]. intros N Hn. split; [lia|]. intros w.
    assert (HL : len (record N qd b w) = N) by (apply record_len; lia).
    assert (HNn : oadev_n (record N qd b w) m = (N - 2 * m)%nat) by (unfold oadev_n; now rewrite HL).
    eexists. eexists. split.
    + rewrite (C20_pdev _ _ _ [m]); [|exact Hr|rewrite HL; apply adm_single; [exact Hr|lia]].
      cbv zeta. rewrite report_single by (rewrite HNn; lia). rewrite HNn. reflexivity.
    + rewrite pow2_sqrt by apply PropsBias.pvar_nonneg. unfold pvar. destruct (Nat.eqb_spec m 1); [contradiction|]. rewrite HNn.
      rewrite (bigsum_ext (N - 2 * m) _ (fun k => qd * lin N (cp b m k) w ^ 2)).
      * rewrite bigsum_scal. assert (0 < INR (N - 2 * m)) by (apply lt_0_INR; lia). field. repeat split; lra.
      * intros k Hk. apply sq. apply record_cp. lia.
Qed.
Lemma avg_all fn cnt q : In (fn, cnt, q) (estimators m) -> is_average fn cnt q m rate qd b.
Proof.
  unfold estimators. cbn [In].
  intros [E|[E|[E|[E|[E|[E|[E|[]]]]]]]]; injection E as <- <- <-;
  [apply avg_adev|apply avg_oadev|apply avg_hdev|apply avg_ohdev|apply avg_mdev|apply avg_tdev|apply avg_pdev].
Qed.
Lemma cnt_grows fn cnt q n : In (fn, cnt, q) (estimators m) -> exists N0, forall N, (N0 <= N)%nat -> (n <= cnt N)%nat.
Proof.
  intros H. exists ((n + 3) * m + n + 1)%nat. intros N HN.
  assert (Hd : (n + 3 <= (N - 1) / m)%nat) by (apply Nat.div_le_lower_bound; nia).
  assert (3 * m + n <= N)%nat by nia.
  unfold estimators in H. cbn [In] in H. destruct H as [E|[E|[E|[E|[E|[E|[E|[]]]]]]]]; injection E as <- <- <-; lia.
Qed.
End Avg.

(** ** C86 *)
(** the reported n bounds the precision: the relative variance of the squared
    deviation is at least 2/n and at most (2q-1) times that *)
Theorem C86_rate fn cnt q m N b rate qd E : In (fn, cnt, q) (estimators m) -> b = 0 \/ b = -2 \/ b = -4 ->
  0 < qd -> 0 < rate -> (1 <= m)%nat -> (2 <= cnt N)%nat -> gaussian N E ->
  let V := fun w => dev2 fn rate m (record N qd b w) in
  (forall w, exists d e, fn (record N qd b w) rate "phase"%string (TList [INR m / rate]) =
     Ok ([INR m / rate], [d], e, [Z.of_nat (cnt N)])) /\
  0 < E V /\
  2 / INR (cnt N) * E V ^ 2 <= E (fun w => (V w - E V) ^ 2) <= 2 * (2 * INR q - 1) / INR (cnt N) * E V ^ 2.
Proof.
  intros Hin Hb Hq Hr Hm Hn HG V.
  destruct (avg_all m rate qd b Hr Hq Hm Hb fn cnt q Hin) as (c & a & s & L & Hc & Ha & Hq1 & HL & HA).
  destruct (HA N Hn) as [HK HW].
  split. { intros w. destruct (HW w) as (d & e & H & _). eauto. }
  destruct (shift_moments a s L Ha N E c (cnt N) q HG Hc ltac:(lia) HK Hq1 HL) as [HM HV].
  set (V' := fun w => c / INR (cnt N) * bigsum (cnt N) (fun k => lin N (a k) w ^ 2)) in *.
  assert (EV : forall w, V w = V' w).
  { intros w. unfold V, dev2. destruct (HW w) as (d & e & -> & ->). reflexivity. }
  assert (EE : E V = E V') by (apply (wh_ext _ E (ga_white _ _ HG)); exact EV).
  assert (EVar : E (fun w => (V w - E V) ^ 2) = E (fun w => (V' w - E V') ^ 2)).
  { apply (wh_ext _ E (ga_white _ _ HG)). intros w. now rewrite EV, EE. }
  rewrite EVar, EE. split; [|exact HV]. rewrite HM. apply Rmult_lt_0_compat; [exact Hc|]. now apply (power_pos a s L).
Qed.
Print Assumptions C86_rate.

(** so the equivalent degrees of freedom never exceed the reported n, nor fall below n/(2q-1) *)
Theorem C86_edf fn cnt q m N b rate qd E e : In (fn, cnt, q) (estimators m) -> b = 0 \/ b = -2 \/ b = -4 ->
  0 < qd -> 0 < rate -> (1 <= m)%nat -> (2 <= cnt N)%nat -> gaussian N E ->
  edf_of E (fun w => dev2 fn rate m (record N qd b w)) e ->
  INR (cnt N) / (2 * INR q - 1) <= e <= INR (cnt N).
Proof.
  intros Hin Hb Hq Hr Hm Hn HG (He & HE0 & HE).
  destruct (C86_rate fn cnt q m N b rate qd E Hin Hb Hq Hr Hm Hn HG) as (_ & _ & H1 & H2).
  destruct (avg_all m rate qd b Hr Hq Hm Hb fn cnt q Hin) as (_ & _ & _ & _ & _ & _ & Hq1 & _).
  set (V := fun w => dev2 fn rate m (record N qd b w)) in *. set (W := E (fun w => (V w - E V) ^ 2)) in *. change (e * W = 2 * E V ^ 2) in HE.
  assert (Hcp : 0 < INR (cnt N)) by (apply lt_0_INR; lia).
  assert (Hqp : 0 < 2 * INR q - 1) by (apply le_INR in Hq1; cbn [INR] in Hq1; lra).
  assert (HM : 0 < E V ^ 2) by (now apply pow_lt). set (M := E V ^ 2) in *. set (n := INR (cnt N)) in *. set (Q := 2 * INR q - 1) in *.
  assert (H1' : 2 * M <= n * W).
  { apply (Rmult_le_compat_l n) in H1; [|lra]. replace (n * (2 / n * M)) with (2 * M) in H1 by (field; lra). exact H1. }
  assert (H2' : n * W <= 2 * Q * M).
  { apply (Rmult_le_compat_l n) in H2; [|lra]. replace (n * (2 * Q / n * M)) with (2 * Q * M) in H2 by (field; lra). exact H2. }
  assert (HW : 0 < W) by nra.
  split.
  - apply (Rmult_le_reg_r Q); [exact Hqp|]. replace (n / Q * Q) with n by (field; lra).
    apply (Rmult_le_reg_r W); [exact HW|]. replace (e * Q * W) with (Q * (e * W)) by ring. rewrite HE. lra.
  - apply (Rmult_le_reg_r W); [exact HW|]. rewrite HE. exact H1'.
Qed.
Print Assumptions C86_edf.

(** mean-square consistency: a value independent of the record length is approached *)
Theorem C86_consistent fn cnt q m b rate qd : In (fn, cnt, q) (estimators m) -> b = 0 \/ b = -2 \/ b = -4 ->
  0 < qd -> 0 < rate -> (1 <= m)%nat ->
  exists v, 0 < v /\ forall eps, 0 < eps -> exists N0, forall N E, (N0 <= N)%nat -> gaussian N E ->
    let V := fun w => dev2 fn rate m (record N qd b w) in
    E V = v /\ E (fun w => (V w - v) ^ 2) <= eps * v ^ 2.
Proof.
  intros Hin Hb Hq Hr Hm.
  destruct (avg_all m rate qd b Hr Hq Hm Hb fn cnt q Hin) as (c & a & s & L & Hc & Ha & Hq1 & HL & HA).
  exists (c * power a L). assert (Hv : 0 < c * power a L) by (apply Rmult_lt_0_compat; [exact Hc|now apply (power_pos a s L)]).
  split; [exact Hv|]. intros eps He.
  destruct (INR_above (2 * (2 * INR q - 1) / eps)) as [n0 Hn0].
  destruct (cnt_grows m Hm fn cnt q (n0 + 2) Hin) as [N0 HN0]. exists N0. intros N E HN HG V.
  specialize (HN0 N HN). destruct (HA N ltac:(lia)) as [HK HW].
  destruct (shift_moments a s L Ha N E c (cnt N) q HG Hc ltac:(lia) HK Hq1 HL) as [HM HV].
  set (V' := fun w => c / INR (cnt N) * bigsum (cnt N) (fun k => lin N (a k) w ^ 2)) in *.
  assert (EV : forall w, V w = V' w).
  { intros w. unfold V, dev2. destruct (HW w) as (d & e & -> & ->). reflexivity. }
  assert (EE : E V = E V') by (apply (wh_ext _ E (ga_white _ _ HG)); exact EV).
  split; [now rewrite EE|]. rewrite <- HM.
  rewrite (wh_ext _ E (ga_white _ _ HG) _ (fun w => (V' w - E V') ^ 2)) by (intros w; now rewrite EV).
  eapply Rle_trans; [exact (proj2 HV)|]. apply Rmult_le_compat_r; [apply pow2_ge_0|].
  assert (Hcn : INR n0 <= INR (cnt N)) by (apply le_INR; lia).
  assert (Hcp : 0 < INR (cnt N)) by (apply lt_0_INR; lia).
  apply (Rmult_le_reg_r (INR (cnt N))); [exact Hcp|].
  unfold Rdiv at 1. rewrite Rmult_assoc, Rinv_l, Rmult_1_r by lra.
  apply (Rmult_lt_compat_r eps) in Hn0; [|exact He]. unfold Rdiv in Hn0. rewrite Rmult_assoc, Rinv_l, Rmult_1_r in Hn0 by lra.
  nra.
Qed.
Print Assumptions C86_consistent.

(** such an expectation exists for every length, and the rows are there *)
Example C86_ex : gaussian 30 (trip 30) /\ In (oadev, (fun N => N - 2 * 4)%nat, 9%nat) (estimators 4) /\ (2 <= 30 - 2 * 4)%nat.
Proof. split; [apply trip_gaussian|]. split; [|lia]. unfold estimators. cbn [In]. right; left. reflexivity. Qed.
