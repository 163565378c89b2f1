(** * Degrees of freedom of the unmodified variances for white frequency noise at every averaging factor (C95) *)
From Coq Require Import String Reals List ZArith Bool Arith Lia Lra Psatz.
From Verif Require Import Base Num NpList NumR Spec ListFacts RSum Dft ModelCore ModelDev ModelNoise ModelNoiseR ModelCiR
  DevProofs TotProofs Laws2 Laws3 ConvProofs NoiseProofs GreenProofs GreenTab GreenPoly CiProofs PropsKasdin PropsPredict PropsExpect PropsDev PropsEdf PropsConsist PropsGreen PropsGreenTab.
Import ListNotations.
Local Open Scope R_scope.
Local Notation len := List.length.

(** ** The overlap of two differences of a random walk *)
(** covariance of second (third) differences over m samples at distance u: the 2d-th difference of -|u|/2 *)
Definition g2 (m : nat) (u : R) : R := - / 2 * (6 * Rabs u - 4 * Rabs (u - INR m) - 4 * Rabs (u + INR m) + Rabs (u - 2 * INR m) + Rabs (u + 2 * INR m)).
Definition g3 (m : nat) (u : R) : R := - / 2 * (20 * Rabs u - 15 * Rabs (u - INR m) - 15 * Rabs (u + INR m) + 6 * Rabs (u - 2 * INR m) + 6 * Rabs (u + 2 * INR m) - Rabs (u - 3 * INR m) - Rabs (u + 3 * INR m)).
Definition gd (d m : nat) (u : R) : R := match d with 2%nat => g2 m u | 3%nat => g3 m u | _ => 0 end.

Lemma dot_step nr a b : (a < nr)%nat -> (b < nr)%nat -> dot nr (coef (-2) a) (coef (-2) b) = (INR a + INR b - Rabs (INR a - INR b)) / 2 + 1.
Proof.
  intros Ha Hb. assert (E : dot nr (coef (-2) a) (coef (-2) b) = INR (Nat.min a b + 1)).
  { unfold dot. rewrite (bigsum_ext nr _ (fun j => if (j <? Nat.min a b + 1)%nat then 1 else 0)).
    - replace nr with ((Nat.min a b + 1) + (nr - (Nat.min a b + 1)))%nat by lia. rewrite bigsum_add.
      rewrite (bigsum_ext (Nat.min a b + 1) _ (fun _ => 1)) by (intros j Hj; apply Nat.ltb_lt in Hj; now rewrite Hj).
      rewrite bigsum_const, bigsum_0; [ring|]. intros j Hj. replace (_ <? _)%nat with false by (symmetry; apply Nat.ltb_ge; lia). reflexivity.
    - intros j Hj. rewrite !coef_m2. destruct (Nat.leb_spec j a), (Nat.leb_spec j b), (Nat.ltb_spec j (Nat.min a b + 1)); try lia; ring. }
  rewrite E, plus_INR. change (INR 1) with 1. f_equal. destruct (Nat.le_ge_cases a b) as [H|H]; apply le_INR in H as H'.
  - rewrite Nat.min_l by exact H. rewrite Rabs_left1 by lra. field.
  - rewrite Nat.min_r by exact H. rewrite Rabs_right by lra. field.
Qed.
Lemma dot_plus_l K a b c : dot K (fun j => a j + b j) c = dot K a c + dot K b c.
Proof. unfold dot. rewrite <- bigsum_plus. apply bigsum_ext. intros. ring. Qed.
Lemma dot_scal_l K s a c : dot K (fun j => s * a j) c = s * dot K a c.
Proof. unfold dot. rewrite <- bigsum_scal. apply bigsum_ext. intros. ring. Qed.
Lemma dot_comm K a b : dot K a b = dot K b a.
Proof. unfold dot. apply bigsum_ext. intros. ring. Qed.
Lemma dot_ext_l K a b c : (forall j, a j = b j) -> dot K a c = dot K b c.
Proof. intros H. unfold dot. apply bigsum_ext. intros. now rewrite H. Qed.

Lemma dot_c2_l nr m i v : dot nr (c2 (-2) m i) v = dot nr (coef (-2) (i + 2 * m)) v + -2 * dot nr (coef (-2) (i + m)) v + dot nr (coef (-2) i) v.
Proof.
  rewrite (dot_ext_l nr _ (fun j => (coef (-2) (i + 2 * m) j + -2 * coef (-2) (i + m) j) + coef (-2) i j)) by (intros; unfold c2; ring).
  rewrite dot_plus_l, (dot_plus_l nr _ (fun j => -2 * coef (-2) (i + m) j)), dot_scal_l. ring.
Qed.
Lemma dot_c3_l nr m i v : dot nr (c3 (-2) m i) v =
  dot nr (coef (-2) (i + 3 * m)) v + -3 * dot nr (coef (-2) (i + 2 * m)) v + 3 * dot nr (coef (-2) (i + m)) v + -1 * dot nr (coef (-2) i) v.
Proof.
  rewrite (dot_ext_l nr _ (fun j => ((coef (-2) (i + 3 * m) j + -3 * coef (-2) (i + 2 * m) j) + 3 * coef (-2) (i + m) j) + -1 * coef (-2) i j)) by (intros; unfold c3; ring).
  rewrite !dot_plus_l, !dot_scal_l. ring.
Qed.
Lemma dot_fm2 nr m k l : (k + 2 * m < nr)%nat -> (l + 2 * m < nr)%nat -> dot nr (c2 (-2) m k) (c2 (-2) m l) = g2 m (INR k - INR l).
Proof.
  intros Hk Hl. rewrite dot_c2_l. rewrite !(dot_comm nr _ (c2 (-2) m l)), !dot_c2_l, !dot_step by lia. unfold g2.
  rewrite !plus_INR, !mult_INR. change (INR 2) with 2. set (a := INR k). set (b := INR l). set (c := INR m).
  replace (b + 2 * c - (a + 2 * c)) with (- (a - b)) by ring. replace (b + c - (a + 2 * c)) with (- (a - b + c)) by ring. replace (b - (a + 2 * c)) with (- (a - b + 2 * c)) by ring.
  replace (b + 2 * c - (a + c)) with (- (a - b - c)) by ring. replace (b + c - (a + c)) with (- (a - b)) by ring. replace (b - (a + c)) with (- (a - b + c)) by ring.
  replace (b + 2 * c - a) with (- (a - b - 2 * c)) by ring. replace (b + c - a) with (- (a - b - c)) by ring. replace (b - a) with (- (a - b)) by ring. rewrite !Rabs_Ropp. field.
Qed.
Lemma dot_fm3 nr m k l : (k + 3 * m < nr)%nat -> (l + 3 * m < nr)%nat -> dot nr (c3 (-2) m k) (c3 (-2) m l) = g3 m (INR k - INR l).
Proof.
  intros Hk Hl. rewrite dot_c3_l. rewrite !(dot_comm nr _ (c3 (-2) m l)), !dot_c3_l, !dot_step by lia. unfold g3.
  rewrite !plus_INR, !mult_INR. change (INR 2) with 2. replace (INR 3) with 3 by (cbn; ring). set (a := INR k). set (b := INR l). set (c := INR m).
  replace (b + 3 * c - (a + 3 * c)) with (- (a - b)) by ring. replace (b + 2 * c - (a + 3 * c)) with (- (a - b + c)) by ring. replace (b + c - (a + 3 * c)) with (- (a - b + 2 * c)) by ring. replace (b - (a + 3 * c)) with (- (a - b + 3 * c)) by ring.
  replace (b + 3 * c - (a + 2 * c)) with (- (a - b - c)) by ring. replace (b + 2 * c - (a + 2 * c)) with (- (a - b)) by ring. replace (b + c - (a + 2 * c)) with (- (a - b + c)) by ring. replace (b - (a + 2 * c)) with (- (a - b + 2 * c)) by ring.
  replace (b + 3 * c - (a + c)) with (- (a - b - 2 * c)) by ring. replace (b + 2 * c - (a + c)) with (- (a - b - c)) by ring. replace (b + c - (a + c)) with (- (a - b)) by ring. replace (b - (a + c)) with (- (a - b + c)) by ring.
  replace (b + 3 * c - a) with (- (a - b - 3 * c)) by ring. replace (b + 2 * c - a) with (- (a - b - 2 * c)) by ring. replace (b + c - a) with (- (a - b - c)) by ring. replace (b - a) with (- (a - b)) by ring. rewrite !Rabs_Ropp. field.
Qed.
Lemma gd_even d m u : gd d m (- u) = gd d m u.
Proof.
  assert (A : forall v, Rabs (- u - v) = Rabs (u + v)) by (intros v; rewrite <- Rabs_Ropp; f_equal; ring).
  assert (B : forall v, Rabs (- u + v) = Rabs (u - v)) by (intros v; rewrite <- Rabs_Ropp; f_equal; ring).
  destruct d as [|[|[|[|d]]]]; cbn [gd]; try reflexivity; unfold g2, g3; rewrite !A, !B, Rabs_Ropp; ring.
Qed.
Lemma gd_dist d m s k l : gd d m (INR (k * s) - INR (l * s)) = gd d m (INR (dist k l * s)).
Proof.
  unfold dist. destruct (Nat.le_ge_cases k l) as [H|H].
  - replace (k - l + (l - k))%nat with (l - k)%nat by lia. rewrite <- gd_even. f_equal. rewrite !mult_INR, minus_INR by exact H. ring.
  - replace (k - l + (l - k))%nat with (k - l)%nat by lia. f_equal. rewrite !mult_INR, minus_INR by exact H. ring.
Qed.
(** it is Greenhall's kernel for alpha = 0 in the limit of infinitely many samples per averaging time *)
Lemma szf_gd d m (u : R) : (d = 2 \/ d = 3)%nat -> (1 <= m)%nat -> szf d None 0 (u / INR m) = 2 / INR m * gd d m u.
Proof.
  intros Hd Hm. assert (Hp : 0 < INR m) by (apply lt_0_INR; lia).
  assert (A : forall v, swf (0 + 2) (u / INR m + v) = - / INR m * Rabs (u + v * INR m)).
  { intros v. unfold swf. cbn [Z.add greenhall_sw]. replace (u / INR m + v) with (/ INR m * (u + v * INR m)) by (field; lra). rewrite Rabs_mult, (Rabs_right (/ INR m)) by (left; now apply Rinv_0_lt_compat). ring. }
  assert (A0 : swf (0 + 2) (u / INR m) = - / INR m * Rabs u) by (replace (u / INR m) with (u / INR m + 0) by ring; rewrite A; do 2 f_equal; ring).
  assert (B : forall v, swf (0 + 2) (u / INR m - v) = - / INR m * Rabs (u - v * INR m)) by (intros v; unfold Rminus; rewrite A; do 2 f_equal; ring).
  destruct Hd as [-> | ->]; unfold szf, sxf; cbv zeta; rewrite A0, !A, !B; cbn [gd]; unfold g2, g3; rewrite !Rmult_1_l; field; lra.
Qed.
Lemma gd_0 d m : (d = 2 \/ d = 3)%nat -> gd d m 0 = (if Nat.eqb d 2 then 2 else 6) * INR m.
Proof.
  pose proof (pos_INR m). intros [-> | ->]; cbn [gd Nat.eqb]; unfold g2, g3; rewrite !Rminus_0_l, !Rplus_0_l, !Rabs_Ropp, Rabs_R0, !Rabs_right by lra; field.
Qed.
Lemma gd_far d m u : (d = 2 \/ d = 3)%nat -> INR d * INR m <= u -> gd d m u = 0.
Proof.
  pose proof (pos_INR m). intros [-> | ->]; [change (INR 2) with 2|replace (INR 3) with 3 by (cbn; ring)]; intros H1; cbn [gd]; unfold g2, g3; rewrite !Rabs_right by lra; ring.
Qed.

(** ** The sum in edf_greenhall *)
Lemma bigsum_split_zero n k (f : nat -> R) : (k <= n)%nat -> (forall i, (k <= i < n)%nat -> f i = 0) -> bigsum n f = bigsum k f.
Proof. intros. now apply bigsum_trunc. Qed.
Lemma full_gen F c (h : nat -> R) d M S : (1 <= d <= 3)%nat -> (1 <= M)%nat -> (1 <= S)%nat -> sx_dom F 0 ->
  (forall j, szf d F 0 (INR j / INR S) = c * h j) -> 0 < c -> 0 < h 0%nat -> (forall j, ((d + 1) * S <= j)%nat -> h j = 0) ->
  exists e, full_edf 0 d (Z.of_nat M) (Z.of_nat S) F = Ok e /\ 0 < e /\ e * dsum M (fun j => h j ^ 2) = (INR M * h 0%nat) ^ 2.
Proof.
  intros Hd HM HS HF SZ c0 h0 far.
  set (J := Z.min (Z.of_nat M) ((Z.of_nat d + 1) * Z.of_nat S)). assert (M0 : 0 < INR M) by (apply lt_0_INR; lia). assert (S0 : 0 < INR S) by (apply lt_0_INR; lia).
  assert (Z0 : szf d F 0 0 = c * h 0%nat) by (rewrite <- SZ; f_equal; change (INR 0) with 0; field; lra).
  assert (HSZ : IZR (Z.of_nat S) = INR S) by (now rewrite <- INR_IZR_INZ).
  assert (B : INR M * bsum J (Z.of_nat M) (IZR (Z.of_nat S)) F 0 d = c ^ 2 * dsum M (fun j => h j ^ 2)).
  { unfold bsum. rewrite dsum_lags. rewrite Z0. rewrite <- !(INR_IZR_INZ M), HSZ.
    set (Jn := Nat.min M ((d + 1) * S)). assert (EJ : J = Z.of_nat Jn) by (unfold J, Jn; lia). rewrite EJ, Nat2Z.id, <- (INR_IZR_INZ Jn).
    assert (J1 : (1 <= Jn)%nat) by (unfold Jn; nia).
    assert (T : (1 - INR Jn / INR M) * szf d F 0 (INR Jn / INR S) ^ 2 = 0).
    { unfold Jn. destruct (Nat.min_spec M ((d + 1) * S)) as [[_ ->]|[_ ->]]; [replace (1 - INR M / INR M) with 0 by (field; lra); ring|].
      rewrite SZ, far by lia. ring. }
    rewrite T. rewrite (bigsum_split_zero (M - 1) (Jn - 1)); [|unfold Jn; lia|].
    - rewrite !Rmult_plus_distr_l, <- !bigsum_scal. rewrite Rmult_0_r, Rplus_0_r. f_equal; [ring|]. apply bigsum_ext. intros i Hi. rewrite SZ. field. lra.
    - intros i Hi. rewrite far; [ring|]. unfold Jn in Hi. lia. }
  assert (HM' : (Z.of_nat M <> 0)%Z) by lia. assert (HS' : IZR (Z.of_nat S) <> 0) by (rewrite HSZ; lra).
  set (D := dsum M (fun j => h j ^ 2)) in *.
  assert (D0 : 0 < D).
  { unfold D. rewrite dsum_lags. apply Rplus_lt_le_0_compat; [apply Rmult_lt_0_compat; [lra|now apply pow_lt]|].
    apply bigsum_nonneg. intros i Hi. apply Rmult_le_pos; [|apply pow2_ge_0]. assert (INR (i + 1) <= INR M) by (apply le_INR; lia). lra. }
  exists ((INR M * h 0%nat) ^ 2 / D). split; [|split].
  - unfold full_edf, basic. fold J. rewrite sz_ok, basicsum_ok by assumption. cbn [bind]. f_equal. rewrite Z0, <- INR_IZR_INZ.
    assert (Eb : bsum J (Z.of_nat M) (IZR (Z.of_nat S)) F 0 d = c ^ 2 * D / INR M) by (rewrite <- B; field; lra). rewrite Eb. field. repeat split; lra.
  - apply Rdiv_lt_0_compat; [apply pow_lt, Rmult_lt_0_compat; assumption|exact D0].
  - field. lra.
Qed.
Lemma grid (S s j : nat) : (1 <= S)%nat -> (1 <= s)%nat -> INR j / INR S = INR (j * s) / INR (S * s).
Proof. intros H1 H2. rewrite !mult_INR. assert (INR S <> 0) by (apply not_0_INR; lia). assert (INR s <> 0) by (apply not_0_INR; lia). field. split; assumption. Qed.
Lemma full_fm d M S (m s : nat) : (d = 2 \/ d = 3)%nat -> (1 <= M)%nat -> (1 <= S)%nat -> (1 <= s)%nat -> m = (S * s)%nat ->
  exists e, full_edf 0 d (Z.of_nat M) (Z.of_nat S) None = Ok e /\ 0 < e /\ e * dsum M (fun j => gd d m (INR (j * s)) ^ 2) = (INR M * gd d m 0) ^ 2.
Proof.
  intros Hd HM HS Hs E. assert (Hm : (1 <= m)%nat) by nia. assert (m0 : 0 < INR m) by (apply lt_0_INR; lia).
  apply (full_gen None (2 / INR m) (fun j => gd d m (INR (j * s)))); try assumption.
  - lia.
  - unfold sx_dom, sw_dom. lia.
  - intros j. rewrite <- szf_gd by assumption. f_equal. rewrite E. now apply grid.
  - apply Rdiv_lt_0_compat; lra.
  - cbn [Nat.mul]. change (INR 0) with 0. rewrite gd_0 by exact Hd. destruct (Nat.eqb d 2); lra.
  - intros j Hj. apply gd_far; [exact Hd|]. rewrite <- mult_INR. apply le_INR. nia.
Qed.

(** ** The four estimators *)
Inductive unmodified : (list R -> R -> string -> taus_arg R -> res (@result R)) -> nat -> bool -> Prop :=
| um_adev : unmodified adev 2 false
| um_oadev : unmodified oadev 2 true
| um_hdev : unmodified hdev 3 false
| um_ohdev : unmodified ohdev 3 true.
Definition cd (d : nat) (b : R) (m : nat) : nat -> nat -> R := match d with 2%nat => c2 b m | _ => c3 b m end.
Definition count (d m N : nat) (o : bool) : nat := if o then (N - d * m)%nat else ((N - 1) / m - d + 1)%nat.
Definition step (m : nat) (o : bool) : nat := if o then 1%nat else m.

Lemma quad_form fn d o b N m rate qd : unmodified fn d o -> 0 < rate -> 0 < qd -> (1 <= m)%nat -> (2 <= count d m N o)%nat -> (d * m < N)%nat ->
  (forall k, (k < count d m N o)%nat -> (k * step m o + d * m < N)%nat) /\
  exists c, 0 < c /\ forall w, dev2 fn rate m (record N qd b w) = c * bigsum (count d m N o) (fun k => lin N (cd d b m (k * step m o)) w ^ 2).
Proof.
  intros Hu Hr Hq Hm Hn Hd. assert (Ht : 0 < INR m * (1 / rate)) by (apply tau_pos; assumption).
  assert (Hcp : forall n, (1 <= n)%nat -> forall c, 0 < c -> 0 < / (c * (INR m * (1 / rate)) ^ 2 * INR n) * qd).
  { intros n Hn' c Hc. apply lt_0_INR in Hn'. apply Rmult_lt_0_compat; [|exact Hq]. apply Rinv_0_lt_compat.
    apply Rmult_lt_0_compat; [|exact Hn']. apply Rmult_lt_0_compat; [exact Hc|now apply pow_lt]. }
  pose proof (Nat.mul_div_le (N - 1) m ltac:(lia)) as HD.
  assert (HL : forall w, len (record N qd b w) = N) by (intros w; apply record_len; lia).
  destruct Hu; unfold count, step, cd in *.
  - assert (Q : ((N - 1) / m - 2 + 1 = (N - 1) / m - 1)%nat) by (assert (2 <= (N - 1) / m)%nat by (apply Nat.div_le_lower_bound; lia); lia). rewrite Q in *.
    split; [intros k Hk; nia|]. exists (/ (2 * INR ((N - 1) / m - 1) * (INR m * (1 / rate)) ^ 2) * qd). split.
    { replace (2 * INR _ * _) with (2 * (INR m * (1 / rate)) ^ 2 * INR ((N - 1) / m - 1)) by ring. apply Hcp; [lia|lra]. }
    intros w. assert (HNn : adev_n (record N qd b w) m = ((N - 1) / m - 1)%nat) by (unfold adev_n; now rewrite HL).
    unfold dev2. rewrite (C14_adev _ _ _ [m]); [|exact Hr|rewrite HL; apply adm_single; [exact Hr|nia]].
    cbv zeta. rewrite report_single by (rewrite HNn; lia). cbv beta. rewrite pow2_sqrt by apply avar_nonneg.
    unfold avar. rewrite HNn. rewrite (Rmult_assoc _ qd). f_equal. rewrite <- bigsum_scal. apply bigsum_ext. intros k Hk.
    apply sq_lin; [exact Hq|]. apply record_d2. nia.
  - split; [intros k Hk; nia|]. exists (/ (2 * (INR m * (1 / rate)) ^ 2 * INR (N - 2 * m)) * qd). split; [apply Hcp; [lia|lra]|].
    intros w. assert (HNn : oadev_n (record N qd b w) m = (N - 2 * m)%nat) by (unfold oadev_n; now rewrite HL).
    unfold dev2. rewrite (C15_oadev _ _ _ [m]); [|exact Hr|rewrite HL; apply adm_single; [exact Hr|nia]].
    cbv zeta. rewrite report_single by (rewrite HNn; lia). cbv beta. rewrite pow2_sqrt by apply oavar_nonneg.
    unfold oavar. rewrite HNn. rewrite (Rmult_assoc _ qd). f_equal. rewrite <- bigsum_scal. apply bigsum_ext. intros k Hk.
    apply sq_lin; [exact Hq|]. rewrite Nat.mul_1_r. apply record_d2. lia.
  - assert (Q : ((N - 1) / m - 3 + 1 = (N - 1) / m - 2)%nat) by (assert (3 <= (N - 1) / m)%nat by (apply Nat.div_le_lower_bound; lia); lia). rewrite Q in *.
    split; [intros k Hk; nia|]. exists (/ (6 * (INR m * (1 / rate)) ^ 2 * INR ((N - 1) / m - 2)) * qd). split; [apply Hcp; [lia|lra]|].
    intros w. assert (HNn : hdev_n (record N qd b w) m = ((N - 1) / m - 2)%nat) by (unfold hdev_n; now rewrite HL).
    unfold dev2. rewrite (C16_hdev _ _ _ [m]); [|exact Hr|rewrite HL; apply adm_single; [exact Hr|nia]].
    cbv zeta. rewrite report_single by (rewrite HNn; lia). cbv beta. rewrite pow2_sqrt by apply hvar_nonneg.
    unfold hvar. rewrite HNn. rewrite (Rmult_assoc _ qd). f_equal. rewrite <- bigsum_scal. apply bigsum_ext. intros k Hk.
    apply sq_lin; [exact Hq|]. apply record_d3. nia.
  - split; [intros k Hk; nia|]. exists (/ (6 * (INR m * (1 / rate)) ^ 2 * INR (N - 3 * m)) * qd). split; [apply Hcp; [lia|lra]|].
    intros w. assert (HNn : ohdev_n (record N qd b w) m = (N - 3 * m)%nat) by (unfold ohdev_n; now rewrite HL).
    unfold dev2. rewrite (C17_ohdev _ _ _ [m]); [|exact Hr|rewrite HL; apply adm_single; [exact Hr|nia]].
    cbv zeta. rewrite report_single by (rewrite HNn; lia). cbv beta. rewrite pow2_sqrt by apply ohvar_nonneg.
    unfold ohvar. rewrite HNn. rewrite (Rmult_assoc _ qd). f_equal. rewrite <- bigsum_scal. apply bigsum_ext. intros k Hk.
    apply sq_lin; [exact Hq|]. rewrite Nat.mul_1_r. apply record_d3. lia.
Qed.
Lemma terms_count d m N o : (1 <= m)%nat -> (d * m < N)%nat -> terms d (Z.of_nat m) (Z.of_nat N) o false = Z.of_nat (count d m N o).
Proof.
  intros Hm H. unfold terms, count. destruct o; [lia|].
  assert (d <= (N - 1) / m)%nat by (apply Nat.div_le_lower_bound; lia).
  replace (Z.of_nat N - 1)%Z with (Z.of_nat (N - 1)) by lia. rewrite <- Nat2Z.inj_div. lia.
Qed.

(** The degrees of freedom of all four estimators, for every averaging factor: Greenhall's complete sum in the limit F = infinity *)
Theorem C95_true fn d o N m rate qd E : unmodified fn d o -> gaussian N E -> 0 < qd -> 0 < rate -> (1 <= m)%nat -> (d * m < N)%nat ->
  let M := terms d (Z.of_nat m) (Z.of_nat N) o false in (2 <= M)%Z ->
  exists e, full_edf 0 d M (stride (Z.of_nat m) o) None = Ok e /\ edf_of E (fun w => dev2 fn rate m (record N qd (-2) w)) e.
Proof.
  intros Hu HG Hq Hr Hm Hd M HM. unfold M in *. rewrite terms_count in * by assumption.
  destruct (quad_form fn d o (-2) N m rate qd Hu Hr Hq Hm ltac:(lia) Hd) as (Hk & c & Hc & HV).
  assert (Hd23 : (d = 2 \/ d = 3)%nat) by (destruct Hu; lia).
  set (S := if o then m else 1%nat). assert (ES : stride (Z.of_nat m) o = Z.of_nat S) by (unfold stride, S; now destruct o). rewrite ES.
  destruct (full_fm d (count d m N o) S m (step m o) Hd23) as (e & He & E0 & HE); [unfold S, step; destruct o; lia ..|].
  exists e. split; [exact He|]. eapply edf_of_ext; [exact HG|exact HV|].
  assert (DOT : forall k l, (k < count d m N o)%nat -> (l < count d m N o)%nat ->
    dot N (cd d (-2) m (k * step m o)) (cd d (-2) m (l * step m o)) = gd d m (INR (dist k l * step m o))).
  { intros k l H1 H2. rewrite <- gd_dist. apply Hk in H1, H2. destruct Hd23 as [-> | ->]; cbn [cd gd]; [apply dot_fm2|apply dot_fm3]; lia. }
  apply (edf_stationary N E c (count d m N o) (fun k => cd d (-2) m (k * step m o)) (fun j => gd d m (INR (j * step m o)))); try assumption; try lia.
  - cbn [Nat.mul]. change (INR 0) with 0. rewrite gd_0 by exact Hd23. apply lt_0_INR in Hm. destruct (Nat.eqb d 2); lra.
  - intros k l H1 H2. now rewrite DOT.
  - intros k H1. rewrite DOT by assumption. replace (dist k k) with 0%nat by (unfold dist; lia). reflexivity.
Qed.
Print Assumptions C95_true.

(** ** Where edf_greenhall computes this sum itself: averaging factors above 100/(d+1), up to 100 terms if the estimator overlaps *)
Theorem C95_exact fn d o N m rate qd E : unmodified fn d o -> gaussian N E -> 0 < qd -> 0 < rate -> (d * m < N)%nat ->
  let M := terms d (Z.of_nat m) (Z.of_nat N) o false in (2 <= M)%Z -> (100 < (d + 1) * m)%nat -> (o = true -> (M <= 100)%Z) ->
  exact_edf E fn d o false 0 (-2) rate qd N m.
Proof.
  intros Hu HG Hq Hr Hd M HM H100 Ho. assert (Hm : (1 <= m)%nat) by lia.
  destruct (C95_true fn d o N m rate qd E Hu HG Hq Hr Hm Hd HM) as (e & He & HE). exists e. split; [|exact HE]. rewrite <- He.
  assert (Hd23 : (2 <= d <= 3)%nat) by (destruct Hu; lia).
  rewrite edf_unfold by lia. cbv zeta. fold (stride (Z.of_nat m) o). rewrite M_terms by lia. fold M.
  change (0 <=? 0)%Z with true. cbv iota. rewrite (proj2 (Z.leb_le _ 100)); [|unfold stride; destruct o; [specialize (Ho eq_refl); lia|lia]].
  rewrite (proj2 (Z.leb_gt _ 100)) by lia. reflexivity.
Qed.
Print Assumptions C95_exact.

(** ** Where it consults the table *)
Theorem C95_table fn d N m rate qd E : unmodified fn d true -> gaussian N E -> 0 < qd -> 0 < rate -> (100 < (d + 1) * m)%nat -> ((2 * d + 1) * m < N)%nat ->
  exists e e', edf_greenhall 0 d (Z.of_nat m) (Z.of_nat N) true false = Ok e /\
    edf_of E (fun w => dev2 fn rate m (record N qd (-2) w)) e' /\ 0 < e' /\ Rabs (e / e' - 1) <= 3 / 1000.
Proof.
  intros Hu HG Hq Hr H100 Hd. assert (Hd23 : (2 <= d <= 3)%nat) by (inversion Hu; lia).
  assert (ET : terms d (Z.of_nat m) (Z.of_nat N) true false = Z.of_nat (N - d * m)) by (unfold terms; lia).
  destruct (C95_true fn d true N m rate qd E Hu HG Hq Hr) as (e' & He' & HE); try lia.
  destruct (C93_even None 0 d (Z.of_nat m) (Z.of_nat N)) as (a0 & a1 & e & e2 & _ & He & _ & He2 & E0 & H); cbn [modified]; try lia.
  - split; [|split; [reflexivity|lia]]. unfold kernel_case. split; [lia|]. split; [lia|]. right. split; [reflexivity|lia].
  - cbn [modified] in *. unfold stride in He'. rewrite He' in He2. injection He2 as <-. eauto 10.
Qed.
Print Assumptions C95_table.

(** ** Small averaging factors, where it takes F = m instead *)
Definition third (u : Z) : Z := 2 * Z.abs (u ^ 3) - Z.abs ((u - 1) ^ 3) - Z.abs ((u + 1) ^ 3).
Definition hz (d : nat) (m u : Z) : Z :=
  match d with
  | 2%nat => 6 * third u - 4 * third (u - m) - 4 * third (u + m) + third (u - 2 * m) + third (u + 2 * m)
  | _ => 20 * third u - 15 * third (u - m) - 15 * third (u + m) + 6 * third (u - 2 * m) + 6 * third (u + 2 * m) - third (u - 3 * m) - third (u + 3 * m)
  end.
Definition gz (d : nat) (m u : Z) : Z :=
  match d with
  | 2%nat => - (6 * Z.abs u - 4 * Z.abs (u - m) - 4 * Z.abs (u + m) + Z.abs (u - 2 * m) + Z.abs (u + 2 * m))
  | _ => - (20 * Z.abs u - 15 * Z.abs (u - m) - 15 * Z.abs (u + m) + 6 * Z.abs (u - 2 * m) + 6 * Z.abs (u + 2 * m) - Z.abs (u - 3 * m) - Z.abs (u + 3 * m))
  end.
Lemma IZR_pow3 z : IZR (z ^ 3) = IZR z ^ 3.
Proof. change 3%Z with (Z.of_nat 3). now rewrite pow_IZR. Qed.
Lemma gz_gd d m u : (d = 2 \/ d = 3)%nat -> IZR (gz d (Z.of_nat m) u) = 2 * gd d m (IZR u).
Proof.
  intros [-> | ->]; cbn [gz gd]; unfold g2, g3; repeat rewrite ?opp_IZR, ?minus_IZR, ?plus_IZR, ?mult_IZR, ?abs_IZR; rewrite <- !INR_IZR_INZ; field.
Qed.
Lemma szf_hz d m u : (d = 2 \/ d = 3)%nat -> (1 <= m)%nat -> szf d (Some (INR m)) 0 (IZR u / INR m) = / INR m * IZR (hz d (Z.of_nat m) u).
Proof.
  intros Hd Hm. assert (Hp : 0 < INR m) by (apply lt_0_INR; lia).
  assert (A0 : forall v, swf 0 (IZR v / INR m) = / INR m ^ 3 * Rabs (IZR (v ^ 3))).
  { intros v. unfold swf. cbn [greenhall_sw]. rewrite IZR_pow3. replace ((IZR v / INR m) ^ 3) with (/ INR m ^ 3 * IZR v ^ 3) by (field; lra).
    rewrite Rabs_mult, (Rabs_right (/ INR m ^ 3)); [reflexivity|]. left. apply Rinv_0_lt_compat, pow_lt, Hp. }
  assert (A : forall v, sxf (Some (INR m)) 0 (IZR v / INR m) = / INR m * IZR (third v)).
  { intros v. unfold sxf. replace (IZR v / INR m - 1 / INR m) with (IZR (v - 1) / INR m) by (rewrite minus_IZR; field; lra).
    replace (IZR v / INR m + 1 / INR m) with (IZR (v + 1) / INR m) by (rewrite plus_IZR; field; lra). rewrite !A0. unfold third.
    rewrite !minus_IZR, mult_IZR, !abs_IZR. field. lra. }
  assert (P : forall k, IZR u / INR m + IZR k = IZR (u + k * Z.of_nat m) / INR m) by (intros k; rewrite plus_IZR, mult_IZR, <- INR_IZR_INZ; field; lra).
  assert (Q : forall k, IZR u / INR m - IZR k = IZR (u - k * Z.of_nat m) / INR m) by (intros k; rewrite minus_IZR, mult_IZR, <- INR_IZR_INZ; field; lra).
  destruct Hd as [-> | ->]; unfold szf, hz; cbv zeta; rewrite !P, !Q, !A, ?Z.mul_1_l; repeat rewrite ?minus_IZR, ?plus_IZR, ?mult_IZR; ring.
Qed.
Lemma third_far u : (1 <= u)%Z -> third u = (- 6 * u)%Z.
Proof. intros H. unfold third. rewrite !Z.abs_eq; [ring|..]; apply Z.pow_nonneg; lia. Qed.
Lemma hz_far d m u : (d = 2 \/ d = 3)%nat -> (1 <= m)%Z -> ((Z.of_nat d + 1) * m <= u)%Z -> hz d m u = 0%Z.
Proof. intros [-> | ->] H1 H2; [change (Z.of_nat 2 + 1)%Z with 3%Z in H2|change (Z.of_nat 3 + 1)%Z with 4%Z in H2]; unfold hz; rewrite !third_far by lia; ring. Qed.
(** a sum over all pairs of lags is nonnegative for every number of terms if it is so up to the support of the summand and grows from there on *)
Fixpoint loop (q : Z -> Z) (fuel : nat) (j D C : Z) : bool :=
  match fuel with O => ((0 <=? D) && (0 <=? C))%Z | S f => (0 <=? D)%Z && loop q f (j + 1)%Z (D + C)%Z (C + 2 * q (j + 1))%Z end.
Definition slope (q : Z -> Z) (n : nat) : R := IZR (q 0%Z) + 2 * bigsum n (fun i => IZR (q (Z.of_nat (S i)))).
Lemma dsum_slope q n : dsum (S n) (fun j => IZR (q (Z.of_nat j))) = dsum n (fun j => IZR (q (Z.of_nat j))) + slope q n.
Proof. rewrite dsum_S. unfold slope. cbn [Z.of_nat]. ring. Qed.
Lemma loop_ok q fuel : forall (j : nat) D C, IZR D = dsum j (fun j => IZR (q (Z.of_nat j))) -> IZR C = slope q j ->
  (forall i, (j + fuel < i)%nat -> q (Z.of_nat i) = 0%Z) -> loop q fuel (Z.of_nat j) D C = true -> forall M, (j <= M)%nat -> 0 <= dsum M (fun j => IZR (q (Z.of_nat j))).
Proof.
  induction fuel as [|f IH]; intros j D C HD HC Hz HL M HM; cbn [loop] in HL; apply andb_prop in HL as [H1 H2]; apply Z.leb_le in H1; apply IZR_le in H1.
  - apply Z.leb_le in H2. apply IZR_le in H2. rewrite HC in H2. rewrite HD in H1.
    assert (SL : forall k, slope q (j + k) = slope q j).
    { intros k. unfold slope. do 2 f_equal. apply bigsum_split_zero; [lia|]. intros i Hi. rewrite Hz by lia. reflexivity. }
    replace M with (j + (M - j))%nat by lia. induction (M - j)%nat as [|k IHk]; [rewrite Nat.add_0_r; exact H1|].
    rewrite Nat.add_succ_r, dsum_slope, SL. lra.
  - destruct (Nat.eq_dec M j) as [-> | Hne]; [rewrite <- HD; exact H1|].
    replace (Z.of_nat j + 1)%Z with (Z.of_nat (S j)) in H2 by lia. apply (IH (S j) _ _) with (M := M) in H2; [exact H2|..].
    + rewrite plus_IZR, HD, HC, dsum_slope. reflexivity.
    + rewrite plus_IZR, mult_IZR, HC. unfold slope. cbn [bigsum]. ring.
    + intros i Hi. apply Hz. lia.
    + lia.
Qed.
(** 88/100 and 119/100 bound the quotient for every averaging factor up to 100/(d+1) and every number of terms *)
Definition qlo (d : nat) (m s j : Z) : Z := (100 * (hz d m 0 * gz d m (j * s)) ^ 2 - 88 * (gz d m 0 * hz d m (j * s)) ^ 2)%Z.
Definition qhi (d : nat) (m s j : Z) : Z := (119 * (gz d m 0 * hz d m (j * s)) ^ 2 - 100 * (hz d m 0 * gz d m (j * s)) ^ 2)%Z.
Definition check1 (q : Z -> Z) (n : nat) : bool := loop q n 0 0 (q 0%Z).
Definition check (d m : nat) : bool :=
  let mz := Z.of_nat m in
  (0 <? hz d mz 0)%Z && check1 (qlo d mz 1) ((d + 1) * m) && check1 (qhi d mz 1) ((d + 1) * m) && check1 (qlo d mz mz) (d + 1) && check1 (qhi d mz mz) (d + 1).
Lemma check_all : forallb (check 2) (seq 1 33) && forallb (check 3) (seq 1 25) = true.
Proof. vm_compute. reflexivity. Qed.

Lemma check1_ok (q : Z -> Z) n : (forall i, (n < i)%nat -> q (Z.of_nat i) = 0%Z) -> check1 q n = true -> forall M, 0 <= dsum M (fun j => IZR (q (Z.of_nat j))).
Proof.
  intros Hz H M. apply (loop_ok q n 0 0 (q 0%Z)); [reflexivity| |exact Hz|exact H|lia]. unfold slope. cbn [bigsum]. ring.
Qed.
Lemma q_zero d m s n i : (d = 2 \/ d = 3)%nat -> (1 <= m)%nat -> (1 <= s)%nat -> ((d + 1) * m <= n * s)%nat -> (n < i)%nat ->
  hz d (Z.of_nat m) (Z.of_nat i * Z.of_nat s) = 0%Z /\ gz d (Z.of_nat m) (Z.of_nat i * Z.of_nat s) = 0%Z.
Proof.
  intros Hd Hm Hs Hn Hi. split.
  - apply hz_far; [exact Hd|lia|nia].
  - apply eq_IZR. rewrite gz_gd by exact Hd. rewrite gd_far; [ring|exact Hd|]. rewrite <- Nat2Z.inj_mul, <- INR_IZR_INZ, <- mult_INR. apply le_INR. nia.
Qed.
Lemma small_facts d m s : (d = 2 \/ d = 3)%nat -> (1 <= m)%nat -> ((d + 1) * m <= 100)%nat -> (s = 1 \/ s = m)%nat ->
  (0 < hz d (Z.of_nat m) 0)%Z /\ forall M, 0 <= dsum M (fun j => IZR (qlo d (Z.of_nat m) (Z.of_nat s) (Z.of_nat j))) /\ 0 <= dsum M (fun j => IZR (qhi d (Z.of_nat m) (Z.of_nat s) (Z.of_nat j))).
Proof.
  intros Hd Hm H100 Hs. assert (C : check d m = true).
  { pose proof check_all as A. apply andb_prop in A as [A2 A3]. rewrite forallb_forall in A2, A3. destruct Hd as [-> | ->]; [apply A2|apply A3]; apply in_seq; lia. }
  unfold check in C. cbv zeta in C. apply andb_prop in C as [C C5]. apply andb_prop in C as [C C4]. apply andb_prop in C as [C C3]. apply andb_prop in C as [C1 C2].
  apply Z.ltb_lt in C1. split; [exact C1|]. intros M.
  assert (Z1 : forall i, ((d + 1) * m < i)%nat -> qlo d (Z.of_nat m) 1 (Z.of_nat i) = 0%Z /\ qhi d (Z.of_nat m) 1 (Z.of_nat i) = 0%Z).
  { intros i Hi. unfold qlo, qhi. destruct (q_zero d m 1 ((d + 1) * m) i) as [E1 E2]; try assumption; try lia.
    change (Z.of_nat 1) with 1%Z in *. rewrite E1, E2. split; ring. }
  assert (Z2 : forall i, (d + 1 < i)%nat -> qlo d (Z.of_nat m) (Z.of_nat m) (Z.of_nat i) = 0%Z /\ qhi d (Z.of_nat m) (Z.of_nat m) (Z.of_nat i) = 0%Z).
  { intros i Hi. unfold qlo, qhi. destruct (q_zero d m m (d + 1) i) as [E1 E2]; [assumption|lia ..|]. rewrite E1, E2. split; ring. }
  destruct Hs as [-> | ->]; split.
  - apply (check1_ok _ _ (fun i H => proj1 (Z1 i H)) C2).
  - apply (check1_ok _ _ (fun i H => proj2 (Z1 i H)) C3).
  - apply (check1_ok _ _ (fun i H => proj1 (Z2 i H)) C4).
  - apply (check1_ok _ _ (fun i H => proj2 (Z2 i H)) C5).
Qed.
Lemma full_small d M S (m s : nat) : (d = 2 \/ d = 3)%nat -> (1 <= M)%nat -> (1 <= S)%nat -> (1 <= s)%nat -> m = (S * s)%nat -> (0 < hz d (Z.of_nat m) 0)%Z ->
  exists e, full_edf 0 d (Z.of_nat M) (Z.of_nat S) (Some (INR m)) = Ok e /\ 0 < e /\
    e * dsum M (fun j => IZR (hz d (Z.of_nat m) (Z.of_nat j * Z.of_nat s)) ^ 2) = (INR M * IZR (hz d (Z.of_nat m) 0)) ^ 2.
Proof.
  intros Hd HM HS Hs E H0. assert (Hm : (1 <= m)%nat) by nia. assert (m0 : 0 < INR m) by (apply lt_0_INR; lia).
  apply (full_gen (Some (INR m)) (/ INR m) (fun j => IZR (hz d (Z.of_nat m) (Z.of_nat j * Z.of_nat s)))); try assumption.
  - lia.
  - unfold sx_dom, sw_dom. split; [lra|lia].
  - intros j. rewrite <- szf_hz by assumption. f_equal. rewrite (grid S s) by assumption. rewrite <- Nat2Z.inj_mul, <- INR_IZR_INZ, E. reflexivity.
  - now apply Rinv_0_lt_compat.
  - cbn [Z.of_nat Z.mul]. apply IZR_lt in H0. exact H0.
  - intros j Hj. rewrite hz_far; [reflexivity|exact Hd|lia|nia].
Qed.
Theorem C95_small fn d o N m rate qd E : unmodified fn d o -> gaussian N E -> 0 < qd -> 0 < rate -> (1 <= m)%nat -> (d * m < N)%nat ->
  let M := terms d (Z.of_nat m) (Z.of_nat N) o false in (2 <= M)%Z -> ((d + 1) * m <= 100)%nat ->
  exists e e', edf_greenhall 0 d (Z.of_nat m) (Z.of_nat N) o false = Ok e /\
    edf_of E (fun w => dev2 fn rate m (record N qd (-2) w)) e' /\ 0 < e' /\ 88 / 100 <= e / e' <= 119 / 100.
Proof.
  intros Hu HG Hq Hr Hm Hd M HM H100. destruct (C95_true fn d o N m rate qd E Hu HG Hq Hr Hm Hd HM) as (e' & He' & HE).
  assert (Hd23 : (d = 2 \/ d = 3)%nat) by (destruct Hu; lia). pose proof (terms_count d m N o Hm Hd) as TC.
  set (S := if o then m else 1%nat). set (s := step m o). assert (ES : stride (Z.of_nat m) o = Z.of_nat S) by (unfold stride, S; now destruct o).
  assert (Hs : (s = 1 \/ s = m)%nat) by (unfold s, step; destruct o; lia). assert (Ms : m = (S * s)%nat) by (unfold S, s, step; destruct o; lia).
  destruct (small_facts d m s Hd23 Hm H100 Hs) as [h0 Hq2]. set (Mn := count d m N o) in *. assert (Mn2 : (2 <= Mn)%nat) by lia.
  destruct (full_small d Mn S m s Hd23) as (e & He & E0 & HeD); [unfold S, s, step in *; destruct o; lia ..|exact h0|].
  destruct (full_fm d Mn S m s Hd23) as (e2 & He2 & E2 & He2D); [unfold S, s, step in *; destruct o; lia ..|].
  rewrite ES, TC, He2 in He'. injection He' as <-. exists e, e2. split; [|split; [exact HE|split; [exact E2|]]].
  - rewrite <- He. rewrite edf_unfold by lia. cbv zeta. fold (stride (Z.of_nat m) o). rewrite M_terms by lia. rewrite TC, ES.
    change (0 <=? 0)%Z with true. cbv iota. rewrite (proj2 (Z.leb_le _ 100)); [|unfold S; destruct o; nia].
    rewrite (proj2 (Z.leb_le _ 100)) by lia. unfold full_edf. now rewrite (INR_IZR_INZ m).
  - set (H := IZR (hz d (Z.of_nat m) 0)) in *. assert (H0 : 0 < H) by (unfold H; now apply IZR_lt in h0).
    set (DF := dsum Mn (fun j => IZR (hz d (Z.of_nat m) (Z.of_nat j * Z.of_nat s)) ^ 2)) in *.
    set (DN := dsum Mn (fun j => gd d m (INR (j * s)) ^ 2)) in *. set (G := gd d m 0) in *.
    assert (G0 : 0 < G) by (unfold G; rewrite gd_0 by exact Hd23; apply lt_0_INR in Hm; destruct (Nat.eqb d 2); lra).
    assert (EG : IZR (gz d (Z.of_nat m) 0) = 2 * G) by (now rewrite gz_gd).
    assert (Eg : forall j, IZR (gz d (Z.of_nat m) (Z.of_nat j * Z.of_nat s)) = 2 * gd d m (INR (j * s))).
    { intros j. rewrite gz_gd by exact Hd23. now rewrite <- Nat2Z.inj_mul, <- INR_IZR_INZ. }
    assert (SQ : forall z, IZR (z ^ 2) = IZR z ^ 2) by (intros z; change 2%Z with (Z.of_nat 2); now rewrite pow_IZR).
    destruct (Hq2 Mn) as [L U].
    assert (L' : 0 <= 400 * H ^ 2 * DN - 352 * G ^ 2 * DF).
    { eapply Rle_trans; [exact L|]. right. unfold DN, DF. rewrite <- !dsum_scal. unfold Rminus. rewrite <- (Rmult_1_l (dsum Mn (fun j => 352 * _ * _))), <- Ropp_mult_distr_l_reverse, <- dsum_scal, <- dsum_plus.
      apply dsum_ext. intros j _. unfold qlo. rewrite minus_IZR, !mult_IZR, !SQ, !mult_IZR, EG, Eg. fold H. ring. }
    assert (U' : 0 <= 476 * G ^ 2 * DF - 400 * H ^ 2 * DN).
    { eapply Rle_trans; [exact U|]. right. unfold DN, DF. rewrite <- !dsum_scal. unfold Rminus. rewrite <- (Rmult_1_l (dsum Mn (fun j => 400 * _ * _))), <- Ropp_mult_distr_l_reverse, <- dsum_scal, <- dsum_plus.
      apply dsum_ext. intros j _. unfold qhi. rewrite minus_IZR, !mult_IZR, !SQ, !mult_IZR, EG, Eg. fold H. ring. }
    assert (P : 0 < INR Mn) by (apply lt_0_INR; lia).
    assert (DF0 : 0 < DF) by (apply (Rmult_lt_reg_l e); [exact E0|]; rewrite Rmult_0_r, HeD; apply pow_lt, Rmult_lt_0_compat; assumption).
    assert (Q : e / e2 = H ^ 2 * DN / (G ^ 2 * DF)).
    { apply (Rmult_eq_reg_r (e2 * (G ^ 2 * DF))); [|apply Rmult_integral_contrapositive_currified; [lra|apply Rgt_not_eq, Rmult_lt_0_compat; [apply pow_lt, G0|exact DF0]]].
      transitivity ((e * DF) * G ^ 2); [field; lra|]. transitivity (H ^ 2 * (e2 * DN)); [|field; split; lra]. rewrite HeD, He2D. ring. }
    rewrite Q. assert (W : 0 < G ^ 2 * DF) by (apply Rmult_lt_0_compat; [apply pow_lt, G0|exact DF0]).
    split; apply (Rmult_le_reg_r (G ^ 2 * DF)); try exact W; unfold Rdiv; rewrite (Rmult_assoc (H ^ 2 * DN)), Rinv_l, Rmult_1_r by lra; lra.
Qed.
Print Assumptions C95_small.

(** ** Examples *)
Example C95_ex : exact_edf (trip 300) adev 2 false false 0 (-2) 1 1 300 40 /\ exact_edf (trip 150) oadev 2 true false 0 (-2) 1 1 150 40 /\
  exact_edf (trip 200) ohdev 3 true false 0 (-2) 1 1 200 40.
Proof.
  split; [|split]; apply C95_exact; try apply trip_gaussian; try constructor; try lra; try lia; try (intros; discriminate); try (unfold terms; intros; lia).
Qed.
Example C95_ex_table : exists e e', edf_greenhall 0 2 40 300 true false = Ok e /\ edf_of (trip 300) (fun w => dev2 oadev 1 40 (record 300 1 (-2) w)) e' /\ Rabs (e / e' - 1) <= 3 / 1000.
Proof.
  destruct (C95_table oadev 2 300 40 1 1 (trip 300)) as (e & e' & H1 & H2 & _ & H3); try apply trip_gaussian; try constructor; try lra; try lia. eauto.
Qed.
Example C95_ex_small : exists e e', edf_greenhall 0 3 5 50 true false = Ok e /\ edf_of (trip 50) (fun w => dev2 ohdev 2 5 (record 50 1 (-2) w)) e' /\ 88 / 100 <= e / e' <= 119 / 100.
Proof.
  destruct (C95_small ohdev 3 true 50 5 2 1 (trip 50)) as (e & e' & H1 & H2 & _ & H3); try apply trip_gaussian; try constructor; try lra; try lia; [unfold terms; lia|]. eauto.
Qed.
