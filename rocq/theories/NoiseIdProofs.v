(** Deterministic part of the consistency of autocorr_noise_id: sums of squares,
    lag-1 products, differences and quadratics on a grid. *)
From Coq Require Import String Reals List ZArith Lra Lia Arith Bool Psatz.
From Verif Require Import Base Num NpList NumR ModelCore ModelDev ModelMisc ModelCi ModelCiR ListFacts Spec RSum TauProofs
  DevProofs TotProofs Closed Laws Laws2 Laws3 CiProofs.
Import ListNotations.
Local Open Scope R_scope.

Definition nrm (n : nat) (f : nat -> R) : R := bigsum n (fun i => f i ^ 2).
Definition lagp (n : nat) (f : nat -> R) : R := bigsum (n - 1) (fun i => f i * f (S i)).
Definition dif (f : nat -> R) (i : nat) : R := f (S i) - f i.
Definition avg (n : nat) (f : nat -> R) : R := bigsum n f / INR n.
Definition centred (n : nat) (f : nat -> R) (i : nat) : R := f i - avg n f.

Lemma abs_inv x y : Rabs x <= y -> - y <= x <= y.
Proof. intros H. pose proof (Rle_abs x). pose proof (Rle_abs (- x)). rewrite Rabs_Ropp in *. lra. Qed.
Lemma nrm_nonneg n f : 0 <= nrm n f.
Proof. apply bigsum_nonneg. intros. apply pow2_ge_0. Qed.
Lemma nrm_ext n f g : (forall i, (i < n)%nat -> f i = g i) -> nrm n f = nrm n g.
Proof. intros H. apply bigsum_ext. intros i Hi. now rewrite H. Qed.
(** a window of the sum of squares *)
Lemma nrm_window n m t f : (t + m <= n)%nat -> nrm m (fun i => f (t + i)%nat) <= nrm n f.
Proof.
  intros H. unfold nrm. replace n with ((t + m) + (n - (t + m)))%nat by lia. rewrite !bigsum_add.
  pose proof (bigsum_nonneg t (fun i => f i ^ 2) (fun i _ => pow2_ge_0 _)).
  pose proof (bigsum_nonneg (n - (t + m)) (fun i => f (t + m + i)%nat ^ 2) (fun i _ => pow2_ge_0 _)). lra.
Qed.
Lemma nrm_shift1 n f : (1 <= n)%nat -> nrm (n - 1) (fun i => f (S i)) = nrm n f - f 0%nat ^ 2.
Proof.
  intros H. unfold nrm. replace n with (S (n - 1)) at 2 by lia. rewrite bigsum_S_l. ring.
Qed.
Lemma nrm_last n f : (1 <= n)%nat -> nrm (n - 1) f = nrm n f - f (n - 1)%nat ^ 2.
Proof. intros H. unfold nrm. replace n with (S (n - 1)) at 2 by lia. cbn [bigsum]. ring. Qed.

Lemma acf_centred n f : (1 <= n)%nat -> lag1_acf (tab n f) = Ok (lagp n (centred n f) / nrm n (centred n f)).
Proof.
  intros Hn. rewrite lag1_spec by (destruct n; [lia|]; discriminate). f_equal.
  unfold acf_num, acf_den, mu. rewrite tab_length.
  assert (E : bigsum n (fun i => (tab n f).[i]) = bigsum n f) by (apply bigsum_ext; intros i Hi; now rewrite nth_tab).
  rewrite E. f_equal.
  - apply bigsum_ext. intros i Hi. rewrite !nth_tab by lia. reflexivity.
  - apply bigsum_ext. intros i Hi. rewrite !nth_tab by lia. reflexivity.
Qed.
Lemma diff_dif n f : diff (tab n f) = tab (n - 1) (dif f).
Proof.
  rewrite diff_tab, tab_length. apply tab_ext. intros i Hi. rewrite !nth_tab by lia. reflexivity.
Qed.

(** a slowly varying series has a large lag-1 autocorrelation *)
Lemma stage_low m f : (6 <= m)%nat -> 0 < nrm m f -> nrm (m - 1) (dif f) <= 3 / 10 * nrm m f -> nrm m f / 3 < lagp m f.
Proof.
  intros Hm Hp Hd.
  assert (E : 2 * lagp m f = 2 * nrm m f - f 0%nat ^ 2 - f (m - 1)%nat ^ 2 - nrm (m - 1) (dif f)).
  { pose proof (nrm_shift1 m f ltac:(lia)) as E1. pose proof (nrm_last m f ltac:(lia)) as E2.
    assert (E3 : nrm (m - 1) (dif f) = nrm (m - 1) (fun i => f (S i)) + nrm (m - 1) f - 2 * lagp m f).
    { unfold nrm, lagp, dif. rewrite <- bigsum_scal, <- bigsum_plus, <- bigsum_minus. apply bigsum_ext. intros; ring. }
    lra. }
  assert (L : forall a b c : R, a ^ 2 <= 2 / 3 * (a ^ 2 + b ^ 2 + c ^ 2) + 10 / 9 * ((b - a) ^ 2 + (c - b) ^ 2)).
  { intros a b c. assert (2 / 3 * (a ^ 2 + b ^ 2 + c ^ 2) + 10 / 9 * ((b - a) ^ 2 + (c - b) ^ 2) - a ^ 2
      = 2 / 3 * (a ^ 2 + b ^ 2 + c ^ 2) + 10 / 9 * ((b - a) ^ 2 + (c - b) ^ 2) - a ^ 2) by ring.
    assert (a = (a + b + c) / 3 - (2 * (b - a) + (c - b)) / 3) by field.
    assert (a ^ 2 <= 2 * ((a + b + c) / 3) ^ 2 + 2 * ((2 * (b - a) + (c - b)) / 3) ^ 2).
    { pose proof (pow2_ge_0 ((a + b + c) / 3 + (2 * (b - a) + (c - b)) / 3)). nra. }
    assert ((a + b + c) ^ 2 <= 3 * (a ^ 2 + b ^ 2 + c ^ 2)).
    { pose proof (pow2_ge_0 (a - b)). pose proof (pow2_ge_0 (a - c)). pose proof (pow2_ge_0 (b - c)). nra. }
    assert ((2 * (b - a) + (c - b)) ^ 2 <= 5 * ((b - a) ^ 2 + (c - b) ^ 2)).
    { pose proof (pow2_ge_0 ((b - a) - 2 * (c - b))). nra. }
    nra. }
  pose proof (L (f 0%nat) (f 1%nat) (f 2%nat)) as L0.
  pose proof (L (f (m - 1)%nat) (f (m - 2)%nat) (f (m - 3)%nat)) as L1.
  assert (W : f 0%nat ^ 2 + f 1%nat ^ 2 + f 2%nat ^ 2 + (f (m - 1)%nat ^ 2 + f (m - 2)%nat ^ 2 + f (m - 3)%nat ^ 2) <= nrm m f).
  { unfold nrm. replace (bigsum m) with (@bigsum (3 + (m - 6) + 3)) by (f_equal; lia). rewrite !bigsum_add. cbn [bigsum].
    replace (3 + (m - 6) + 0)%nat with (m - 3)%nat by lia. replace (3 + (m - 6) + 1)%nat with (m - 2)%nat by lia.
    replace (3 + (m - 6) + 2)%nat with (m - 1)%nat by lia.
    pose proof (bigsum_nonneg (m - 6) (fun i => f (3 + i)%nat ^ 2) (fun i _ => pow2_ge_0 _)). lra. }
  assert (W' : (f 1%nat - f 0%nat) ^ 2 + (f 2%nat - f 1%nat) ^ 2 +
    ((f (m - 2)%nat - f (m - 1)%nat) ^ 2 + (f (m - 3)%nat - f (m - 2)%nat) ^ 2) <= nrm (m - 1) (dif f)).
  { unfold nrm. replace (bigsum (m - 1)) with (@bigsum (2 + (m - 5) + 2)) by (f_equal; lia). rewrite !bigsum_add. cbn [bigsum].
    replace (2 + (m - 5) + 0)%nat with (m - 3)%nat by lia. replace (2 + (m - 5) + 1)%nat with (m - 2)%nat by lia.
    unfold dif at 1 2 4 5. replace (S (m - 3)) with (m - 2)%nat by lia. replace (S (m - 2)) with (m - 1)%nat by lia.
    pose proof (bigsum_nonneg (m - 5) (fun i => dif f (2 + i)%nat ^ 2) (fun i _ => pow2_ge_0 _)).
    pose proof (pow2_ge_0 (f (m - 1)%nat - f (m - 2)%nat)).
    assert (forall p q : R, (p - q) ^ 2 = (q - p) ^ 2) as Sw by (intros; ring).
    rewrite (Sw (f (m - 2)%nat) (f (m - 1)%nat)), (Sw (f (m - 3)%nat) (f (m - 2)%nat)). lra. }
  lra.
Qed.

(** a small perturbation of a series moves its lag-1 autocorrelation little *)
Lemma stage_fin m v u rho : (2 <= m)%nat -> Rabs rho <= 1 / 2 -> 0 < nrm m v ->
  Rabs (lagp m v - rho * nrm m v) <= 3 / 100 * nrm m v -> nrm m u <= nrm m v / 16384 ->
  let z := fun i => v i - u i in
  0 < nrm m z /\ Rabs (lagp m z - rho * nrm m z) < nrm m z / 18 /\ nrm m z <= 102 / 100 * nrm m v.
Proof.
  intros Hm Hr Hp HA HU z. set (S0 := nrm m v) in *. set (U := nrm m u) in *.
  assert (P2 : forall f, nrm (m - 1) f + nrm (m - 1) (fun i => f (S i)) <= 2 * nrm m f).
  { intros f. rewrite nrm_shift1, nrm_last by lia. pose proof (pow2_ge_0 (f 0%nat)). pose proof (pow2_ge_0 (f (m - 1)%nat)). lra. }
  assert (B : forall s : R, s = 1 \/ s = -1 -> s * (lagp m z - lagp m v) <= S0 / 128 + 129 * U).
  { intros s Hs. unfold lagp. rewrite <- bigsum_minus, <- bigsum_scal.
    apply Rle_trans with (bigsum (m - 1) (fun i => 1 / 256 * (v i ^ 2 + v (S i) ^ 2) + 129 / 2 * (u i ^ 2 + u (S i) ^ 2))).
    - apply bigsum_le. intros i _. unfold z.
      replace (s * ((v i - u i) * (v (S i) - u (S i)) - v i * v (S i)))
        with (s * (- (u i * v (S i)) - v i * u (S i) + u i * u (S i))) by ring.
      assert (Y : forall p q : R, s * - (p * q) <= 1 / 256 * q ^ 2 + 64 * p ^ 2).
      { intros p q. pose proof (pow2_ge_0 (q / 16 + 8 * p)). pose proof (pow2_ge_0 (q / 16 - 8 * p)). destruct Hs as [-> | ->]; nra. }
      assert (Y2 : s * (u i * u (S i)) <= 1 / 2 * (u i ^ 2 + u (S i) ^ 2)).
      { pose proof (pow2_ge_0 (u i + u (S i))). pose proof (pow2_ge_0 (u i - u (S i))). destruct Hs as [-> | ->]; nra. }
      pose proof (Y (u i) (v (S i))). pose proof (Y (u (S i)) (v i)).
      replace (s * (- (u i * v (S i)) - v i * u (S i) + u i * u (S i)))
        with (s * - (u i * v (S i)) + s * - (u (S i) * v i) + s * (u i * u (S i))) by ring. lra.
    - rewrite bigsum_plus, !bigsum_scal, !bigsum_plus. pose proof (P2 v) as Pv. pose proof (P2 u) as Pu.
      fold S0 in Pv. fold U in Pu. unfold nrm in Pv, Pu. lra. }
  assert (N : forall s : R, s = 1 \/ s = -1 -> s * (nrm m z - S0) <= S0 / 128 + 129 * U).
  { intros s Hs. unfold S0, U, nrm. rewrite <- bigsum_minus. unfold Rdiv. rewrite (Rmult_comm (bigsum m (fun i => v i ^ 2))).
    rewrite <- !bigsum_scal, <- bigsum_plus. apply bigsum_le. intros i _. unfold z.
    pose proof (pow2_ge_0 (v i / 16 + 16 * u i)). pose proof (pow2_ge_0 (v i / 16 - 16 * u i)). pose proof (pow2_ge_0 (u i)).
    pose proof (pow2_ge_0 (v i / 128 - u i * 128)). pose proof (pow2_ge_0 (v i + 128 * u i)). pose proof (pow2_ge_0 (v i - 128 * u i)).
    destruct Hs as [-> | ->]; nra. }
  pose proof (B 1 ltac:(auto)) as B1. pose proof (B (-1) ltac:(auto)) as B2.
  pose proof (N 1 ltac:(auto)) as N1. pose proof (N (-1) ltac:(auto)) as N2.
  set (Z := nrm m z) in *. set (A := lagp m z) in *. set (A0 := lagp m v) in *.
  assert (Hx : S0 / 128 + 129 * U <= 157 / 10000 * S0) by lra.
  apply abs_inv in Hr. apply abs_inv in HA.
  assert (R1 : Rabs (rho * (Z - S0)) <= 1 / 2 * (157 / 10000 * S0)).
  { rewrite Rabs_mult. apply Rmult_le_compat; try apply Rabs_pos; apply Rabs_le; lra. }
  apply abs_inv in R1. split; [lra|]. split; [|lra].
  apply Rabs_def1; nra.
Qed.

(** third difference at lag h *)
Definition third (h : nat) (f : nat -> R) (k : nat) : R := f (k + 3 * h)%nat - 3 * f (k + 2 * h)%nat + 3 * f (k + h)%nat - f k.
Lemma third_le n h f : nrm (n - 3 * h) (third h f) <= 80 * nrm n f.
Proof.
  assert (H : nrm (n - 3 * h) (third h f) <= 20 * (nrm (n - 3 * h) (fun k => f (3 * h + k)%nat) + nrm (n - 3 * h) (fun k => f (2 * h + k)%nat)
    + nrm (n - 3 * h) (fun k => f (h + k)%nat) + nrm (n - 3 * h) (fun k => f (0 + k)%nat))).
  { unfold nrm. rewrite <- !bigsum_plus, <- bigsum_scal. apply bigsum_le. intros k _. unfold third.
    rewrite (Nat.add_comm k (3 * h)), (Nat.add_comm k (2 * h)), (Nat.add_comm k h). cbn [Nat.add].
    set (a := f (3 * h + k)%nat). set (b := f (2 * h + k)%nat). set (c := f (h + k)%nat). set (d := f k).
    pose proof (pow2_ge_0 (3 * a + b)). pose proof (pow2_ge_0 (3 * a - c)). pose proof (pow2_ge_0 (a + d)). pose proof (pow2_ge_0 (b + c)).
    pose proof (pow2_ge_0 (b - 3 * d)). pose proof (pow2_ge_0 (c + 3 * d)). nra. }
  destruct (le_gt_dec (3 * h) n) as [L|L].
  - pose proof (nrm_window n (n - 3 * h) (3 * h) f ltac:(lia)). pose proof (nrm_window n (n - 3 * h) (2 * h) f ltac:(lia)).
    pose proof (nrm_window n (n - 3 * h) h f ltac:(lia)). pose proof (nrm_window n (n - 3 * h) 0 f ltac:(lia)). lra.
  - replace (n - 3 * h)%nat with 0%nat by lia. pose proof (nrm_nonneg n f). unfold nrm at 1. cbn [bigsum]. lra.
Qed.

(** first differences are controlled by the series and its second differences *)
Lemma forward_dif n f : (8 <= n)%nat -> nrm (n - 8) (dif f) <= 1 / 8 * nrm n f + 31 * nrm (n - 2) (dif (dif f)).
Proof.
  intros Hn.
  apply Rle_trans with (bigsum (n - 8) (fun i => 1 / 16 * (f (i + 8)%nat ^ 2 + f i ^ 2) +
     35 / 8 * bigsum 7 (fun t => dif (dif f) (t + i)%nat ^ 2))).
  - apply bigsum_le. intros i _.
    assert (E : dif f i = (f (i + 8)%nat - f i) / 8 - bigsum 7 (fun t => (7 - INR t) / 8 * dif (dif f) (t + i)%nat)).
    { cbn [bigsum]. change (INR 0) with 0. change (INR 1) with 1. change (INR 2) with 2. replace (INR 3) with 3 by (cbn; lra).
      replace (INR 4) with 4 by (cbn; lra). replace (INR 5) with 5 by (cbn; lra). replace (INR 6) with 6 by (cbn; lra).
      unfold dif. cbn [Nat.add]. replace (i + 8)%nat with (S (S (S (S (S (S (S (S i)))))))) by lia. field. }
    rewrite E. pose proof (cauchy_schwarz 7 (fun t => (7 - INR t) / 8) (fun t => dif (dif f) (t + i)%nat)) as CS.
    assert (W : bigsum 7 (fun t => ((7 - INR t) / 8) ^ 2) = 35 / 16).
    { cbn [bigsum]. change (INR 0) with 0. change (INR 1) with 1. change (INR 2) with 2. replace (INR 3) with 3 by (cbn; lra).
      replace (INR 4) with 4 by (cbn; lra). replace (INR 5) with 5 by (cbn; lra). replace (INR 6) with 6 by (cbn; lra). field. }
    cbv beta in CS. rewrite W in CS. set (D := bigsum 7 (fun t => (7 - INR t) / 8 * dif (dif f) (t + i)%nat)) in *.
    set (Q := bigsum 7 (fun t => dif (dif f) (t + i)%nat ^ 2)) in *. set (p := f (i + 8)%nat). set (q := f i).
    clearbody D Q p q. pose proof (pow2_ge_0 ((p - q) / 8 + D)). pose proof (pow2_ge_0 (p + q)). nra.
  - rewrite bigsum_plus, !bigsum_scal, bigsum_plus.
    assert (E1 : bigsum (n - 8) (fun i => f (i + 8)%nat ^ 2) <= nrm n f).
    { rewrite (bigsum_ext _ _ (fun i => f (8 + i)%nat ^ 2)) by (intros; f_equal; f_equal; lia). apply (nrm_window n (n - 8) 8 f). lia. }
    assert (E2 : bigsum (n - 8) (fun i => f i ^ 2) <= nrm n f) by (apply (nrm_window n (n - 8) 0 f); lia).
    assert (E3 : bigsum (n - 8) (fun i => bigsum 7 (fun t => dif (dif f) (t + i)%nat ^ 2)) <= 7 * nrm (n - 2) (dif (dif f))).
    { cbn [bigsum]. rewrite !bigsum_plus.
      assert (Z : bigsum (n - 8) (fun _ => 0) = 0) by (apply bigsum_0; reflexivity). rewrite Z.
      assert (W : forall t, (t <= 6)%nat -> bigsum (n - 8) (fun i => dif (dif f) (t + i)%nat ^ 2) <= nrm (n - 2) (dif (dif f)))
        by (intros t Ht; apply (nrm_window (n - 2) (n - 8) t (dif (dif f))); lia).
      pose proof (W 0%nat ltac:(lia)). pose proof (W 1%nat ltac:(lia)). pose proof (W 2%nat ltac:(lia)). pose proof (W 3%nat ltac:(lia)).
      pose proof (W 4%nat ltac:(lia)). pose proof (W 5%nat ltac:(lia)). pose proof (W 6%nat ltac:(lia)). lra. }
    pose proof (nrm_nonneg (n - 2) (dif (dif f))). lra.
Qed.
Lemma interpolation n f : (16 <= n)%nat -> nrm (n - 1) (dif f) <= 1 / 4 * nrm n f + 62 * nrm (n - 2) (dif (dif f)).
Proof.
  intros Hn. pose proof (forward_dif n f ltac:(lia)) as F.
  pose proof (forward_dif n (fun i => f (n - 1 - i)%nat) ltac:(lia)) as G.
  assert (R1 : nrm n (fun i => f (n - 1 - i)%nat) = nrm n f) by (unfold nrm; apply (bigsum_rev n (fun i => f i ^ 2))).
  assert (R2 : nrm (n - 2) (dif (dif (fun i => f (n - 1 - i)%nat))) = nrm (n - 2) (dif (dif f))).
  { unfold nrm. rewrite <- (bigsum_rev (n - 2) (fun i => dif (dif f) i ^ 2)). apply bigsum_ext. intros i Hi. unfold dif.
    replace (n - 1 - S (S i))%nat with (n - 2 - 1 - i)%nat by lia. replace (n - 1 - S i)%nat with (S (n - 2 - 1 - i)) by lia.
    replace (n - 1 - i)%nat with (S (S (n - 2 - 1 - i))) by lia. ring. }
  rewrite R1, R2 in G.
  assert (R3 : nrm (n - 8) (dif (fun i => f (n - 1 - i)%nat)) = nrm (n - 8) (fun i => dif f (7 + i)%nat)).
  { unfold nrm. rewrite <- (bigsum_rev (n - 8) (fun i => dif f (7 + i)%nat ^ 2)). apply bigsum_ext. intros i Hi. unfold dif.
    replace (n - 1 - S i)%nat with (7 + (n - 8 - 1 - i))%nat by lia. replace (n - 1 - i)%nat with (S (7 + (n - 8 - 1 - i))) by lia. ring. }
  rewrite R3 in G.
  assert (S1 : nrm (n - 1) (dif f) = nrm 7 (dif f) + nrm (n - 8) (fun i => dif f (7 + i)%nat)).
  { unfold nrm. replace (n - 1)%nat with (7 + (n - 8))%nat by lia. apply bigsum_add. }
  pose proof (nrm_window (n - 8) 7 0 (dif f) ltac:(lia)) as S2. cbn [Nat.add] in S2.
  change (nrm 7 (fun i => dif f i)) with (nrm 7 (dif f)) in S2. lra.
Qed.

(** ** Quadratics on the grid 0..n-1 *)
Definition pol (c0 c1 c2 : R) (t : nat) : R := c0 + c1 * INR t + c2 * INR t ^ 2.
Lemma sum_poly4 n A B C D E :
  bigsum n (fun t => A + B * INR t + C * INR t ^ 2 + D * INR t ^ 3 + E * INR t ^ 4) =
  A * INR n + B * (INR n * (INR n - 1) / 2) + C * (INR n * (INR n - 1) * (2 * INR n - 1) / 6) +
  D * (INR n * (INR n - 1) / 2) ^ 2 + E * (INR n * (INR n - 1) * (2 * INR n - 1) * (3 * INR n ^ 2 - 3 * INR n - 1) / 30).
Proof.
  induction n as [|n IH]; [cbn [bigsum]; change (INR 0) with 0; field|]. cbn [bigsum]. rewrite IH, S_INR. field.
Qed.

Section Gram.
Variable n : nat.
Definition tau : R := (INR n - 1) / 2.
Definition kap : R := (INR n ^ 2 - 1) / 12.
Definition N1 : R := INR n * (INR n ^ 2 - 1) / 12.
Definition N2 : R := INR n * (INR n ^ 2 - 1) * (INR n ^ 2 - 4) / 180.
Definition P1 (t : nat) : R := INR t - tau.
Definition P2 (t : nat) : R := (INR t - tau) ^ 2 - kap.
Definition gram (a0 a1 a2 : R) (t : nat) : R := a0 + a1 * P1 t + a2 * P2 t.
Lemma pol_gram c0 c1 c2 t : pol c0 c1 c2 t = gram (c0 + c1 * tau + c2 * (tau ^ 2 + kap)) (c1 + 2 * c2 * tau) c2 t.
Proof. unfold pol, gram, P1, P2. ring. Qed.
Lemma gram_dot a0 a1 a2 b0 b1 b2 :
  bigsum n (fun t => gram a0 a1 a2 t * gram b0 b1 b2 t) = INR n * (a0 * b0) + N1 * (a1 * b1) + N2 * (a2 * b2).
Proof.
  rewrite (bigsum_ext n _ (fun t =>
    (a0 - a1 * tau + a2 * (tau ^ 2 - kap)) * (b0 - b1 * tau + b2 * (tau ^ 2 - kap)) +
    ((a0 - a1 * tau + a2 * (tau ^ 2 - kap)) * (b1 - 2 * b2 * tau) + (b0 - b1 * tau + b2 * (tau ^ 2 - kap)) * (a1 - 2 * a2 * tau)) * INR t +
    ((a0 - a1 * tau + a2 * (tau ^ 2 - kap)) * b2 + (b0 - b1 * tau + b2 * (tau ^ 2 - kap)) * a2 + (a1 - 2 * a2 * tau) * (b1 - 2 * b2 * tau)) * INR t ^ 2 +
    ((a1 - 2 * a2 * tau) * b2 + (b1 - 2 * b2 * tau) * a2) * INR t ^ 3 + a2 * b2 * INR t ^ 4)).
  - rewrite sum_poly4. unfold tau, kap, N1, N2. field.
  - intros t _. unfold gram, P1, P2. ring.
Qed.
Lemma gram_nrm a0 a1 a2 : nrm n (gram a0 a1 a2) = INR n * a0 ^ 2 + N1 * a1 ^ 2 + N2 * a2 ^ 2.
Proof. unfold nrm. rewrite (bigsum_ext n _ (fun t => gram a0 a1 a2 t * gram a0 a1 a2 t)) by (intros; ring). rewrite gram_dot. ring. Qed.
Hypothesis Hn : (3 <= n)%nat.
Lemma n_ge3 : 3 <= INR n.
Proof using Hn. apply le_INR in Hn. cbn in Hn. lra. Qed.
Lemma N1_pos : 0 < N1.
Proof using Hn. pose proof n_ge3. unfold N1. assert (0 < INR n ^ 2 - 1) by nra. pose proof (Rmult_lt_0_compat (INR n) (INR n ^ 2 - 1)). lra. Qed.
Lemma N2_pos : 0 < N2.
Proof using Hn.
  pose proof n_ge3. unfold N2. assert (0 < INR n ^ 2 - 1) by nra. assert (0 < INR n ^ 2 - 4) by nra.
  pose proof (Rmult_lt_0_compat (INR n) (INR n ^ 2 - 1)). pose proof (Rmult_lt_0_compat (INR n * (INR n ^ 2 - 1)) (INR n ^ 2 - 4)). lra.
Qed.

(** inverse inequalities for the differences of a quadratic *)
Lemma dif_pol_le c0 c1 c2 : INR n ^ 2 * nrm (n - 1) (dif (pol c0 c1 c2)) <= 60 * nrm n (pol c0 c1 c2).
Proof using Hn.
  pose proof n_ge3 as H3.
  set (a0 := c0 + c1 * tau + c2 * (tau ^ 2 + kap)). set (a1 := c1 + 2 * c2 * tau).
  assert (E1 : nrm n (pol c0 c1 c2) = INR n * a0 ^ 2 + N1 * a1 ^ 2 + N2 * c2 ^ 2).
  { rewrite <- gram_nrm. apply nrm_ext. intros i _. apply pol_gram. }
  assert (E2 : nrm (n - 1) (dif (pol c0 c1 c2)) = (INR n - 1) * a1 ^ 2 + (INR n - 1) * INR n * (INR n - 2) / 3 * c2 ^ 2).
  { unfold nrm. rewrite (bigsum_ext (n - 1) _ (fun t => (c1 + c2) ^ 2 + 4 * c2 * (c1 + c2) * INR t + 4 * c2 ^ 2 * INR t ^ 2 + 0 * INR t ^ 3 + 0 * INR t ^ 4)).
    - rewrite sum_poly4, minus_INR by lia. change (INR 1) with 1. unfold a1, tau. field.
    - intros t _. unfold dif, pol. rewrite S_INR. ring. }
  rewrite E1, E2. clear E1 E2. set (x := INR n) in *.
  assert (Q0 := pow2_ge_0 a0). assert (Q1 := pow2_ge_0 a1). assert (Q2 := pow2_ge_0 c2).
  assert (K1 : x ^ 2 * (x - 1) <= 60 * N1) by (unfold N1; fold x; nra).
  assert (K2 : x ^ 2 * ((x - 1) * x * (x - 2) / 3) <= 60 * N2).
  { unfold N2. fold x.
    replace (60 * (x * (x ^ 2 - 1) * (x ^ 2 - 4) / 180)) with (((x - 1) * x * (x - 2) / 3) * ((x + 1) * (x + 2))) by field.
    assert (0 <= (x - 1) * x * (x - 2) / 3) by (apply Rmult_le_pos; [repeat apply Rmult_le_pos|]; lra).
    rewrite Rmult_comm. apply Rmult_le_compat_l; [assumption|nra]. }
  apply Rmult_le_compat_r with (r := a1 ^ 2) in K1; [|assumption].
  apply Rmult_le_compat_r with (r := c2 ^ 2) in K2; [|assumption].
  assert (0 <= 60 * (x * a0 ^ 2)) by (assert (0 <= x * a0 ^ 2) by (apply Rmult_le_pos; lra); lra).
  set (F := (x - 1) * x * (x - 2) / 3) in *.
  replace (x ^ 2 * ((x - 1) * a1 ^ 2 + F * c2 ^ 2)) with (x ^ 2 * (x - 1) * a1 ^ 2 + x ^ 2 * F * c2 ^ 2) by ring. lra.
Qed.
Lemma dif2_pol_le c0 c1 c2 : INR n ^ 4 * nrm (n - 2) (dif (dif (pol c0 c1 c2))) <= 720 * nrm n (pol c0 c1 c2).
Proof using Hn.
  pose proof n_ge3 as H3.
  set (a0 := c0 + c1 * tau + c2 * (tau ^ 2 + kap)). set (a1 := c1 + 2 * c2 * tau).
  assert (E1 : nrm n (pol c0 c1 c2) = INR n * a0 ^ 2 + N1 * a1 ^ 2 + N2 * c2 ^ 2).
  { rewrite <- gram_nrm. apply nrm_ext. intros i _. apply pol_gram. }
  assert (E2 : nrm (n - 2) (dif (dif (pol c0 c1 c2))) = (INR n - 2) * 4 * c2 ^ 2).
  { unfold nrm. rewrite (bigsum_ext (n - 2) _ (fun t => 4 * c2 ^ 2)).
    - rewrite bigsum_const, minus_INR by lia. change (INR 2) with 2. ring.
    - intros t _. unfold dif, pol. rewrite !S_INR. ring. }
  rewrite E1, E2. clear E1 E2. pose proof N1_pos as HN1. set (x := INR n) in *.
  assert (Q0 := pow2_ge_0 a0). assert (Q1 := pow2_ge_0 a1). assert (Q2 := pow2_ge_0 c2).
  assert (K2 : x ^ 4 * ((x - 2) * 4) <= 720 * N2).
  { unfold N2. fold x.
    replace (720 * (x * (x ^ 2 - 1) * (x ^ 2 - 4) / 180)) with ((4 * x * (x - 2)) * ((x ^ 2 - 1) * (x + 2))) by field.
    replace (x ^ 4 * ((x - 2) * 4)) with ((4 * x * (x - 2)) * x ^ 3) by ring.
    assert (0 <= 4 * x * (x - 2)) by (repeat apply Rmult_le_pos; lra).
    apply Rmult_le_compat_l; [assumption|nra]. }
  apply Rmult_le_compat_r with (r := c2 ^ 2) in K2; [|assumption].
  assert (0 <= x * a0 ^ 2) by (apply Rmult_le_pos; lra). assert (0 <= N1 * a1 ^ 2) by (apply Rmult_le_pos; lra). lra.
Qed.

(** least-squares fit of degree 1 or 2 *)
Definition in_span (deg : nat) (q2 : R) : Prop := deg = 2%nat \/ deg = 1%nat /\ q2 = 0.
Definition fit (deg : nat) (X : nat -> R) (c0 c1 c2 : R) : Prop :=
  in_span deg c2 /\
  forall q0 q1 q2, in_span deg q2 -> bigsum n (fun t => (X t - pol c0 c1 c2 t) * pol q0 q1 q2 t) = 0.

Lemma fit_nrm_le deg X c0 c1 c2 q0 q1 q2 : fit deg X c0 c1 c2 -> in_span deg q2 ->
  nrm n (pol (c0 - q0) (c1 - q1) (c2 - q2)) <= nrm n (fun t => X t - pol q0 q1 q2 t).
Proof.
  intros (Hc & Ho) Hq.
  assert (Hs : in_span deg (c2 - q2)).
  { destruct Hc as [->|[-> ->]]; [now left|]. right. split; [reflexivity|]. destruct Hq as [Hq|[_ ->]]; [discriminate|]. ring. }
  specialize (Ho (c0 - q0) (c1 - q1) (c2 - q2) Hs).
  assert (E : nrm n (fun t => X t - pol q0 q1 q2 t) =
    nrm n (fun t => X t - pol c0 c1 c2 t) + 2 * bigsum n (fun t => (X t - pol c0 c1 c2 t) * pol (c0 - q0) (c1 - q1) (c2 - q2) t) +
    nrm n (pol (c0 - q0) (c1 - q1) (c2 - q2))).
  { unfold nrm. rewrite <- bigsum_scal, <- !bigsum_plus. apply bigsum_ext. intros t _. unfold pol. ring. }
  rewrite E, Ho. pose proof (nrm_nonneg n (fun t => X t - pol c0 c1 c2 t)). lra.
Qed.
Lemma fit_rank deg X c0 c1 c2 : fit deg X c0 c1 c2 ->
  nrm n (pol c0 c1 c2) <= bigsum n X ^ 2 / INR n + bigsum n (fun t => P1 t * X t) ^ 2 / N1 + bigsum n (fun t => P2 t * X t) ^ 2 / N2.
Proof using Hn.
  intros (Hc & Ho). pose proof n_ge3 as H3. pose proof N1_pos as HN1. pose proof N2_pos as HN2.
  set (a0 := c0 + c1 * tau + c2 * (tau ^ 2 + kap)). set (a1 := c1 + 2 * c2 * tau).
  assert (E1 : nrm n (pol c0 c1 c2) = INR n * a0 ^ 2 + N1 * a1 ^ 2 + N2 * c2 ^ 2).
  { rewrite <- gram_nrm. apply nrm_ext. intros i _. apply pol_gram. }
  assert (Hp : forall b0 b1 b2, in_span deg b2 ->
    bigsum n (fun t => X t * gram b0 b1 b2 t) = INR n * (a0 * b0) + N1 * (a1 * b1) + N2 * (c2 * b2)).
  { intros b0 b1 b2 Hb. rewrite <- gram_dot.
    pose proof (Ho (b0 - b1 * tau + b2 * (tau ^ 2 - kap)) (b1 - 2 * b2 * tau) b2 Hb) as H.
    assert (E : bigsum n (fun t => X t * gram b0 b1 b2 t) - bigsum n (fun t => gram a0 a1 c2 t * gram b0 b1 b2 t) = 0).
    { etransitivity; [|exact H]. rewrite <- bigsum_minus. apply bigsum_ext. intros t _. rewrite (pol_gram c0 c1 c2). fold a0 a1.
      unfold pol, gram, P1, P2. ring. }
    lra. }
  assert (S0 : in_span deg 0) by (destruct Hc as [->|[-> _]]; [now left|now right]).
  assert (F0 : bigsum n X = INR n * a0).
  { rewrite (bigsum_ext n X (fun t => X t * gram 1 0 0 t)) by (intros; unfold gram; ring). rewrite (Hp 1 0 0 S0). ring. }
  assert (F1 : bigsum n (fun t => P1 t * X t) = N1 * a1).
  { rewrite (bigsum_ext n _ (fun t => X t * gram 0 1 0 t)) by (intros; unfold gram; ring). rewrite (Hp 0 1 0 S0). ring. }
  rewrite E1, F0, F1.
  replace ((INR n * a0) ^ 2 / INR n) with (INR n * a0 ^ 2) by (field; lra).
  replace ((N1 * a1) ^ 2 / N1) with (N1 * a1 ^ 2) by (field; lra).
  assert (N2 * c2 ^ 2 <= bigsum n (fun t => P2 t * X t) ^ 2 / N2); [|lra].
  destruct Hc as [Hd|[_ ->]].
  - assert (F2 : bigsum n (fun t => P2 t * X t) = N2 * c2).
    { rewrite (bigsum_ext n _ (fun t => X t * gram 0 0 1 t)) by (intros; unfold gram; ring). rewrite (Hp 0 0 1) by now left. ring. }
    rewrite F2. right. field. lra.
  - rewrite pow_i, Rmult_0_r by lia. apply Rmult_le_pos; [apply pow2_ge_0|]. left. now apply Rinv_0_lt_compat.
Qed.
End Gram.

(** the squared norms of the orthogonal polynomials *)
Lemma P1_nrm n : nrm n (P1 n) = N1 n.
Proof.
  rewrite (nrm_ext n _ (gram n 0 1 0)) by (intros; unfold gram; ring). rewrite gram_nrm. ring.
Qed.
Lemma P2_nrm n : nrm n (P2 n) = N2 n.
Proof.
  rewrite (nrm_ext n _ (gram n 0 0 1)) by (intros; unfold gram; ring). rewrite gram_nrm. ring.
Qed.
Lemma third_pol h c0 c1 c2 k : third h (pol c0 c1 c2) k = 0.
Proof. unfold third, pol. rewrite !plus_INR, !mult_INR. change (INR 2) with 2. replace (INR 3) with 3 by (cbn; lra). ring. Qed.
Lemma third_minus h f g k : third h (fun i => f i - g i) k = third h f k - third h g k.
Proof. unfold third. ring. Qed.
Lemma dif_minus f g i : dif (fun t => f t - g t) i = dif f i - dif g i.
Proof. unfold dif. ring. Qed.
Lemma dif_pol c0 c1 c2 t : dif (pol c0 c1 c2) t = pol (c1 + c2) (2 * c2) 0 t.
Proof. unfold dif, pol. rewrite S_INR. ring. Qed.

(** ** The two kinds of stage of the loop *)
Lemma centred_perturbed m v p i : (1 <= m)%nat ->
  centred m (fun i => v i - p i) i = v i - (centred m p i + avg m v).
Proof.
  intros Hm. apply lt_0_INR in Hm. unfold centred, avg. rewrite bigsum_minus. field. lra.
Qed.
Lemma centred_nrm m p : (1 <= m)%nat -> nrm m (centred m p) = nrm m p - INR m * avg m p ^ 2 /\ bigsum m (centred m p) = 0.
Proof.
  intros Hm. apply lt_0_INR in Hm. unfold centred. split.
  - unfold nrm. rewrite (bigsum_ext m _ (fun i => p i ^ 2 - (2 * avg m p * p i - avg m p ^ 2))) by (intros; ring).
    rewrite !bigsum_minus, bigsum_scal, bigsum_const. unfold avg. field. lra.
  - rewrite bigsum_minus, bigsum_const. unfold avg. field. lra.
Qed.
Lemma perturbed_nrm m v p : (1 <= m)%nat ->
  nrm m (fun i => centred m p i + avg m v) <= nrm m p + bigsum m v ^ 2 / INR m.
Proof.
  intros Hm. pose proof (lt_0_INR m Hm) as Hm'. destruct (centred_nrm m p Hm) as (E1 & E2).
  assert (E : nrm m (fun i => centred m p i + avg m v) = nrm m (centred m p) + bigsum m v ^ 2 / INR m).
  { unfold nrm at 1. rewrite (bigsum_ext m _ (fun i => centred m p i ^ 2 + 2 * avg m v * centred m p i + avg m v ^ 2)) by (intros; ring).
    rewrite !bigsum_plus, bigsum_scal, bigsum_const, E2. unfold nrm, avg. field. lra. }
  rewrite E, E1. pose proof (pow2_ge_0 (avg m p)). assert (0 <= INR m * avg m p ^ 2) by (apply Rmult_le_pos; lra). lra.
Qed.

(** what has to hold of the (d-times differenced) noise [v] and fit [p] *)
Record typical (m : nat) (g rho : R) (v p : nat -> R) : Prop := {
  ty_sq : Rabs (nrm m v - INR m * g) <= 2 / 100 * (INR m * g);
  ty_plus : Rabs (nrm (m - 1) (fun i => v i + v (S i)) - INR (m - 1) * (g * (2 + 2 * rho))) <= 36 / 1000 * (INR m * g);
  ty_minus : Rabs (nrm (m - 1) (fun i => v i - v (S i)) - INR (m - 1) * (g * (2 - 2 * rho))) <= 36 / 1000 * (INR m * g);
  ty_fit : nrm m p + bigsum m v ^ 2 / INR m <= INR m * g / 17000 }.

Section Typical.
Variables (m : nat) (g rho : R) (v p : nat -> R).
Hypothesis Hm : (1000 <= m)%nat.
Hypothesis Hg : 0 < g.
Hypothesis Hr : Rabs rho <= 1 / 2.
Hypothesis HT : typical m g rho v p.

Lemma m_big : 1000 <= INR m.
Proof using Hm. apply le_INR in Hm. replace (INR 1000) with 1000 in Hm by (rewrite INR_IZR_INZ; reflexivity). exact Hm. Qed.
Lemma typ_lag : Rabs (lagp m v - rho * nrm m v) <= 3 / 100 * nrm m v /\ 0 < nrm m v /\ 98 / 100 * (INR m * g) <= nrm m v <= 102 / 100 * (INR m * g).
Proof using All.
  pose proof m_big as Hb. pose proof (ty_sq _ _ _ _ _ HT) as T1. pose proof (ty_plus _ _ _ _ _ HT) as T2. pose proof (ty_minus _ _ _ _ _ HT) as T3.
  apply abs_inv in T1, T2, T3. assert (Hp : 0 < INR m * g) by (apply Rmult_lt_0_compat; lra).
  assert (E : 4 * lagp m v = nrm (m - 1) (fun i => v i + v (S i)) - nrm (m - 1) (fun i => v i - v (S i))).
  { unfold lagp, nrm. rewrite <- bigsum_scal, <- bigsum_minus. apply bigsum_ext. intros; ring. }
  rewrite minus_INR in T2, T3 by lia. change (INR 1) with 1 in T2, T3.
  set (S0 := nrm m v) in *. set (Sp := nrm (m - 1) (fun i => v i + v (S i))) in *. set (Sm := nrm (m - 1) (fun i => v i - v (S i))) in *.
  assert (E2 : lagp m v - rho * S0 = (Sp - (INR m - 1) * (g * (2 + 2 * rho))) / 4 - (Sm - (INR m - 1) * (g * (2 - 2 * rho))) / 4
    - rho * (S0 - INR m * g) - rho * g) by (apply (Rmult_eq_reg_l 4); [|lra]; rewrite Rmult_minus_distr_l, E; field).
  assert (R1 : Rabs (rho * (S0 - INR m * g)) <= 1 / 2 * (2 / 100 * (INR m * g))).
  { rewrite Rabs_mult. apply Rmult_le_compat; try apply Rabs_pos; [exact Hr|]. apply Rabs_le. lra. }
  assert (R2 : Rabs (rho * g) <= 1 / 2 * g).
  { rewrite Rabs_mult. apply Rmult_le_compat; try apply Rabs_pos; [exact Hr|]. rewrite Rabs_right; lra. }
  apply abs_inv in R1, R2. assert (Hg3 : 1000 * g <= INR m * g) by (apply Rmult_le_compat_r; lra).
  split; [|split; lra]. rewrite E2. apply Rabs_le. lra.
Qed.
(** the last stage: the lag-1 autocorrelation is within 1/18 of rho *)
Lemma typ_final : let z := centred m (fun i => v i - p i) in
  0 < nrm m z /\ Rabs (lagp m z - rho * nrm m z) < nrm m z / 18.
Proof using All.
  intros z. destruct typ_lag as (L1 & L2 & L3 & L4). pose proof m_big as Hb.
  destruct (stage_fin m v (fun i => centred m p i + avg m v) rho ltac:(lia) Hr L2 L1) as (F1 & F2 & _).
  { pose proof (perturbed_nrm m v p ltac:(lia)). pose proof (ty_fit _ _ _ _ _ HT). lra. }
  assert (En : nrm m z = nrm m (fun i => v i - (centred m p i + avg m v))).
  { apply nrm_ext. intros i _. apply centred_perturbed. lia. }
  assert (El : lagp m z = lagp m (fun i => v i - (centred m p i + avg m v))).
  { apply bigsum_ext. intros i _. unfold z. rewrite !centred_perturbed by lia. reflexivity. }
  rewrite En, El. split; assumption.
Qed.
Lemma typ_rest : nrm m (fun i => v i - p i) <= 105 / 100 * (INR m * g).
Proof using All.
  destruct typ_lag as (L1 & L2 & L3 & L4). pose proof m_big as Hb.
  destruct (stage_fin m v p rho ltac:(lia) Hr L2 L1) as (_ & _ & F3).
  { pose proof (ty_fit _ _ _ _ _ HT). pose proof (pow2_ge_0 (bigsum m v)).
    assert (0 <= bigsum m v ^ 2 / INR m) by (apply Rmult_le_pos; [assumption|]; left; apply Rinv_0_lt_compat; lra). lra. }
  assert (0 < INR m * g) by (apply Rmult_lt_0_compat; lra). lra.
Qed.
(** the stage before: [y] has differences v - p *)
Lemma typ_walk h y : (forall i, (i < m)%nat -> dif y i = v i - p i) ->
  280 * (INR m * g) <= nrm (S m - 3 * h) (third h y) ->
  let z := centred (S m) y in 0 < nrm (S m) z /\ nrm (S m) z / 3 < lagp (S m) z.
Proof using All.
  intros Hy HD z. pose proof m_big as Hb. assert (Hp : 0 < INR m * g) by (apply Rmult_lt_0_compat; lra).
  pose proof (third_le (S m) h z) as T3. pose proof typ_rest as Hrest.
  assert (E : nrm (S m - 3 * h) (third h z) = nrm (S m - 3 * h) (third h y)).
  { apply nrm_ext. intros i _. unfold z, centred, third. ring. }
  rewrite E in T3. assert (0 < nrm (S m) z) by lra. split; [assumption|]. apply stage_low; [lia|assumption|].
  replace (S m - 1)%nat with m by lia.
  rewrite (nrm_ext m (dif z) (fun i => v i - p i)); [lra|]. intros i Hi. rewrite <- Hy by assumption. unfold z, centred, dif. ring.
Qed.
(** two stages before: [y] has second differences v - p *)
Lemma typ_run h y : (forall i, (i < m)%nat -> dif (dif y) i = v i - p i) ->
  120000 * (INR m * g) <= nrm (S (S m) - 3 * h) (third h y) ->
  let z := centred (S (S m)) y in 0 < nrm (S (S m)) z /\ nrm (S (S m)) z / 3 < lagp (S (S m)) z.
Proof using All.
  intros Hy HD z. pose proof m_big as Hb. assert (Hp : 0 < INR m * g) by (apply Rmult_lt_0_compat; lra).
  pose proof (third_le (S (S m)) h z) as T3. pose proof typ_rest as Hrest.
  assert (E : nrm (S (S m) - 3 * h) (third h z) = nrm (S (S m) - 3 * h) (third h y)).
  { apply nrm_ext. intros i _. unfold z, centred, third. ring. }
  rewrite E in T3. assert (0 < nrm (S (S m)) z) by lra. split; [assumption|]. apply stage_low; [lia|assumption|].
  pose proof (interpolation (S (S m)) z ltac:(lia)) as HI. replace (S (S m) - 2)%nat with m in HI by lia.
  rewrite (nrm_ext m (dif (dif z)) (fun i => v i - p i)) in HI; [lra|]. intros i Hi. rewrite <- Hy by assumption. unfold z, centred, dif. ring.
Qed.
End Typical.

(** ** The loop *)
Lemma rint_near x k : Rabs (x - IZR k) < 1 / 2 -> rintR x = k.
Proof.
  intros H. assert (H1 : Rabs (x - IZR (rintR x)) <= 1 / 2) by (destruct (rintR_spec x) as [H1|[H1 _]]; lra).
  apply Rabs_def2 in H. apply abs_inv in H1.
  assert (A : IZR (rintR x - k) < 1) by (rewrite minus_IZR; lra). assert (B : -1 < IZR (rintR x - k)) by (rewrite minus_IZR; lra).
  apply lt_IZR in A. apply lt_IZR in B. lia.
Qed.
Lemma loop_go ph dmin dmax f n y d : (1 <= n)%nat -> (d < dmax)%Z ->
  let z := centred n y in 0 < nrm n z -> nrm n z / 3 < lagp n z ->
  acf_loop ph dmin dmax (S f) (tab n y) d = acf_loop ph dmin dmax f (tab (n - 1) (dif y)) (d + 1).
Proof.
  intros Hn Hd z Hp Hl. cbn [acf_loop]. rewrite acf_centred by assumption. fold z. cbv zeta.
  set (r := lagp n z / nrm n z).
  assert (Hr : 1 / 3 < r).
  { unfold r. apply (Rmult_lt_reg_r (nrm n z)); [assumption|]. unfold Rdiv at 2. rewrite Rmult_assoc, Rinv_l by lra. lra. }
  change (ndiv r (nadd (ofZ 1) r)) with (r / (1 + r)).
  assert (Hq : nltb (r / (1 + r)) (ndiv (ofZ 1) (ofZ 4)) = false).
  { cbn [nltb RNum ndiv ofZ]. apply Rltb_false. apply (Rmult_le_reg_r (1 + r)); [lra|]. unfold Rdiv at 2. rewrite Rmult_assoc, Rinv_l by lra. lra. }
  rewrite Hq. destruct (Z.leb_spec dmax d); [lia|]. cbn [orb]. rewrite andb_false_r, diff_dif. reflexivity.
Qed.
Lemma loop_end ph dmin dmax f n y d rho k : (1 <= n)%nat -> (dmin <= d)%Z ->
  let z := centred n y in 0 < nrm n z -> Rabs (lagp n z - rho * nrm n z) < nrm n z / 18 ->
  (0 <= rho <= 1 / 4 /\ k = 0%Z \/ rho = - (1 / 2) /\ k = (-2)%Z) ->
  exists al r, acf_loop ph dmin dmax (S f) (tab n y) d = Some (Ok ((- k - 2 * d + (if ph then 2 else 0))%Z, al, d, r)).
Proof.
  intros Hn Hd z Hp Hl Hk. cbn [acf_loop]. rewrite acf_centred by assumption. fold z. cbv zeta.
  set (r := lagp n z / nrm n z).
  assert (Hr : Rabs (r - rho) < 1 / 18).
  { unfold r. replace (lagp n z / nrm n z - rho) with ((lagp n z - rho * nrm n z) / nrm n z) by (field; lra).
    unfold Rdiv at 1. rewrite Rabs_mult, (Rabs_right (/ nrm n z)) by (left; now apply Rinv_0_lt_compat).
    apply (Rmult_lt_reg_r (nrm n z)); [assumption|]. rewrite Rmult_assoc, Rinv_l by lra. lra. }
  apply Rabs_def2 in Hr. change (ndiv r (nadd (ofZ 1) r)) with (r / (1 + r)).
  assert (H1 : 0 < 1 + r) by (destruct Hk as [(? & _)|(? & _)]; lra).
  set (q := r / (1 + r)). assert (Eq : q * (1 + r) = r) by (unfold q; field; lra).
  assert (Hq : nltb q (ndiv (ofZ 1) (ofZ 4)) = true).
  { cbn [nltb RNum ndiv ofZ]. apply Rltb_true. apply (Rmult_lt_reg_r (1 + r)); [lra|]. rewrite Eq. destruct Hk as [(? & _)|(? & _)]; lra. }
  rewrite Hq. destruct (Z.leb_spec dmin d); [|lia]. cbn [orb andb]. unfold int_round. cbn [nrint RNum bind].
  change (nmul (ofZ 2) q) with (2 * q).
  assert (Er : rintR (2 * q) = k).
  { apply rint_near. destruct Hk as [(? & ->)|(? & ->)]; apply Rabs_def1; apply (Rmult_lt_reg_r (1 + r)); try assumption; nra. }
  rewrite Er. eexists. eexists. reflexivity.
Qed.
