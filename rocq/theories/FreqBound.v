(** * How large a deviation a disturbance of bounded frequency can have. *)
From Coq Require Import String Reals List ZArith Lra Lia Arith Bool Psatz.
From Verif Require Import Base Num NpList ModelCore ModelDev NumR ListFacts Spec RSum TauProofs DevProofs TotProofs Closed Laws Laws2 Laws3 SemiProofs SemiBound.
Import ListNotations.
Local Open Scope R_scope.
Local Notation len := List.length.

(** consecutive samples differ by at most p *)
Definition lip (p : R) (x : list R) : Prop := forall i, (S i < len x)%nat -> Rabs (x.[S i] - x.[i]) <= p.

Lemma steps (z : nat -> R) p n : 0 <= p -> (forall i, (S i < n)%nat -> Rabs (z (S i) - z i) <= p) ->
  forall k i, (i + k < n)%nat -> Rabs (z (i + k)%nat - z i) <= INR k * p.
Proof.
  intros Hp H k. induction k as [|k IH]; intros i Hi.
  - rewrite Nat.add_0_r, Rminus_diag_eq, Rabs_R0 by reflexivity. cbn. lra.
  - replace (z (i + S k)%nat - z i) with ((z (S (i + k)) - z (i + k)%nat) + (z (i + k)%nat - z i)) by (replace (i + S k)%nat with (S (i + k)) by lia; ring).
    rewrite S_INR. eapply Rle_trans; [apply Rabs_triang|]. pose proof (H (i + k)%nat ltac:(lia)). pose proof (IH i ltac:(lia)). lra.
Qed.
Lemma zsteps (z : Z -> R) p a b : 0 <= p -> (forall i, (a <= i < b)%Z -> Rabs (z (i + 1)%Z - z i) <= p) ->
  forall k i, (a <= i)%Z -> (i + Z.of_nat k <= b)%Z -> Rabs (z (i + Z.of_nat k)%Z - z i) <= INR k * p.
Proof.
  intros Hp H k. induction k as [|k IH]; intros i Hi Hb.
  - rewrite Z.add_0_r, Rminus_diag_eq, Rabs_R0 by reflexivity. cbn. lra.
  - replace (z (i + Z.of_nat (S k))%Z - z i) with ((z (i + Z.of_nat k + 1)%Z - z (i + Z.of_nat k)%Z) + (z (i + Z.of_nat k)%Z - z i))
      by (replace (i + Z.of_nat (S k))%Z with (i + Z.of_nat k + 1)%Z by lia; ring).
    rewrite S_INR. eapply Rle_trans; [apply Rabs_triang|]. pose proof (H (i + Z.of_nat k)%Z ltac:(lia)). pose proof (IH i ltac:(lia) ltac:(lia)). lra.
Qed.

(** second differences of a function with bounded steps *)
Lemma d2_steps (z : nat -> R) p n m i : 0 <= p -> (forall i, (S i < n)%nat -> Rabs (z (S i) - z i) <= p) -> (i + 2 * m < n)%nat ->
  Rabs (z i - 2 * z (i + m)%nat + z (i + 2 * m)%nat) <= 2 * INR m * p.
Proof.
  intros Hp H Hi. pose proof (steps z p n Hp H m i ltac:(lia)) as A. pose proof (steps z p n Hp H m (i + m)%nat ltac:(lia)) as B.
  replace (i + 2 * m)%nat with (i + m + m)%nat by lia. unfold Rabs in *. repeat destruct Rcase_abs; lra.
Qed.

Section Bounds.
Context (x : list R) (p t : R) (m : nat) (Hp : 0 <= p) (Hx : lip p x) (Ht : 0 < t) (Hm : (1 <= m)%nat).
Let Hs k i := steps (fun i => x.[i]) p (len x) Hp Hx k i.
Let mp : 1 <= INR m. Proof. apply le_INR in Hm. exact Hm. Qed.
Let T0 : 0 < (INR m * t) ^ 2. Proof using Ht Hm. apply pow_lt. nra. Qed.

Lemma d2_lip i : (i + 2 * m < len x)%nat -> Rabs (d2 x m i) <= 2 * INR m * p.
Proof using All.
  intros Hi. unfold d2. pose proof (Hs m i ltac:(lia)) as A. pose proof (Hs m (i + m)%nat ltac:(lia)) as B. cbn beta in A, B.
  replace (i + 2 * m)%nat with (i + m + m)%nat by lia. unfold Rabs in *. repeat destruct Rcase_abs; lra.
Qed.
Lemma d3_lip i : (i + 3 * m < len x)%nat -> Rabs (d3 x m i) <= 4 * INR m * p.
Proof using All.
  intros Hi. unfold d3. pose proof (Hs m i ltac:(lia)) as A. pose proof (Hs m (i + m)%nat ltac:(lia)) as B.
  pose proof (Hs m (i + m + m)%nat ltac:(lia)) as C. cbn beta in A, B, C.
  replace (i + 3 * m)%nat with (i + m + m + m)%nat by lia. replace (i + 2 * m)%nat with (i + m + m)%nat by lia.
  unfold Rabs in *. repeat destruct Rcase_abs; lra.
Qed.
Lemma div_range k j : (k < (len x - 1) / m - j)%nat -> (k * m + (j + 1) * m < len x)%nat.
Proof using All.
  intros Hk. pose proof (Nat.mul_div_le (len x - 1) m ltac:(lia)) as D.
  assert (E : ((k + j + 1) * m <= (len x - 1) / m * m)%nat) by (apply Nat.mul_le_mono_r; lia). 
  assert (0 < (len x - 1) / m)%nat by lia. assert (0 < len x - 1)%nat by (destruct (len x - 1)%nat; [rewrite Nat.div_0_l in H by lia; lia|lia]). nia.
Qed.
Lemma avar_lip : (0 < adev_n x m)%nat -> avar x t m <= 2 * (p / t) ^ 2.
Proof using All.
  intros Hn. unfold avar.
  replace (2 * INR (adev_n x m) * (INR m * t) ^ 2) with (2 * (INR m * t) ^ 2 * INR (adev_n x m)) by ring.
  eapply Rle_trans; [apply (mean_le _ _ _ ((2 * INR m * p) ^ 2)); [lra|exact Hn|]|].
  - intros k Hk. apply sq_le, d2_lip. unfold adev_n in Hk. pose proof (div_range k 1 Hk). lia.
  - right. field. lra.
Qed.
Lemma oavar_lip : (0 < oadev_n x m)%nat -> oavar x t m <= 2 * (p / t) ^ 2.
Proof using All.
  intros Hn. unfold oavar.
  eapply Rle_trans; [apply (mean_le _ _ _ ((2 * INR m * p) ^ 2)); [lra|exact Hn|]|].
  - intros k Hk. apply sq_le, d2_lip. unfold oadev_n in Hk. lia.
  - right. field. lra.
Qed.
Lemma hvar_lip : (0 < hdev_n x m)%nat -> hvar x t m <= 8 / 3 * (p / t) ^ 2.
Proof using All.
  intros Hn. unfold hvar.
  eapply Rle_trans; [apply (mean_le _ _ _ ((4 * INR m * p) ^ 2)); [lra|exact Hn|]|].
  - intros k Hk. apply sq_le, d3_lip. unfold hdev_n in Hk. pose proof (div_range k 2 Hk). lia.
  - right. field. lra.
Qed.
Lemma ohvar_lip : (0 < ohdev_n x m)%nat -> ohvar x t m <= 8 / 3 * (p / t) ^ 2.
Proof using All.
  intros Hn. unfold ohvar.
  eapply Rle_trans; [apply (mean_le _ _ _ ((4 * INR m * p) ^ 2)); [lra|exact Hn|]|].
  - intros k Hk. apply sq_le, d3_lip. unfold ohdev_n in Hk. lia.
  - right. field. lra.
Qed.
Lemma mvar_lip : (0 < mdev_n x m)%Z -> mvar x t m <= 2 * (p / t) ^ 2.
Proof using All.
  intros Hn. unfold mvar. rewrite (IZR_cnt _ Hn).
  assert (0 < INR m ^ 2) by (apply pow_lt; lra).
  eapply Rle_trans; [apply (mean_le _ _ _ ((INR m * (2 * INR m * p)) ^ 2)); [|lia|]|].
  - apply Rmult_lt_0_compat; lra.
  - intros j Hj. apply sq_le, bigsum_abs. intros i Hi. apply d2_lip. unfold mdev_n in Hj. lia.
  - right. field. repeat split; lra.
Qed.
(** The weights of the parabolic deviation add up to zero: pairing k with m-1-k, the window sum is at most
    p times the sum of the squared weights. *)
Lemma ramp_sum i : (i + m <= len x)%nat ->
  Rabs (bigsum m (fun k => ((INR m - 1) / 2 - INR k) * x.[i + k])) <= INR m ^ 3 / 12 * p.
Proof using All.
  intros Hi. set (w := fun k => (INR m - 1) / 2 - INR k).
  assert (E : bigsum m (fun k => w k * x.[i + k]) = / 2 * bigsum m (fun k => w k * (x.[i + k] - x.[i + (m - 1 - k)]))).
  { enough (Q : bigsum m (fun k => w k * x.[i + (m - 1 - k)]) = - bigsum m (fun k => w k * x.[i + k])).
    { rewrite (bigsum_ext m (fun k => w k * (x.[i + k] - x.[i + (m - 1 - k)])) (fun k => w k * x.[i + k] - w k * x.[i + (m - 1 - k)])) by (intros; ring).
      rewrite bigsum_minus, Q. field. }
    rewrite <- (bigsum_rev m (fun k => w k * x.[i + k])). rewrite <- (Rmult_1_l (bigsum m (fun k => w (m - 1 - k)%nat * _))), Ropp_mult_distr_l, <- bigsum_scal.
    apply bigsum_ext. intros k Hk. unfold w. replace (INR (m - 1 - k)) with (INR m - 1 - INR k); [field|].
    rewrite !minus_INR by lia. cbn. lra. }
  change (Rabs (bigsum m (fun k => w k * x.[i + k])) <= INR m ^ 3 / 12 * p). rewrite E.
  rewrite Rabs_mult, (Rabs_pos_eq (/ 2)) by lra.
  assert (S2 : bigsum m (fun k => w k ^ 2) = INR m * (INR m ^ 2 - 1) / 12).
  { assert (G : forall a n, bigsum n (fun k => (a - INR k) ^ 2) = INR n * a ^ 2 - a * INR n * (INR n - 1) + INR n * (INR n - 1) * (2 * INR n - 1) / 6).
    { intros a n. induction n as [|n IH]; cbn [bigsum]; [cbn; field|]. rewrite IH, S_INR. field. }
    unfold w. rewrite G. field. }
  apply Rle_trans with (/ 2 * bigsum m (fun k => 2 * p * w k ^ 2)).
  - apply Rmult_le_compat_l; [lra|]. apply bigsum_abs_le. intros k Hk. rewrite Rabs_mult.
    replace (2 * p * w k ^ 2) with (Rabs (w k) * (2 * Rabs (w k) * p)) by (rewrite <- (pow2_abs (w k)); ring).
    apply Rmult_le_compat_l; [apply Rabs_pos|].
    assert (Ew : forall a b, (a + b = m - 1)%nat -> w a = (INR b - INR a) / 2).
    { intros a b H. unfold w. replace (INR m) with (INR a + INR b + 1); [field|]. rewrite <- plus_INR, H, minus_INR by lia. cbn; lra. }
    rewrite (Ew k (m - 1 - k)%nat) by lia.
    destruct (Nat.le_ge_cases k (m - 1 - k)) as [L|L].
    + pose proof (Hs (m - 1 - k - k)%nat (i + k)%nat ltac:(lia)) as A. cbn beta in A. replace (i + k + (m - 1 - k - k))%nat with (i + (m - 1 - k))%nat in A by lia.
      rewrite (minus_INR (m - 1 - k) k) in A by lia. apply le_INR in L. rewrite Rabs_minus_sym.
      rewrite (Rabs_pos_eq ((INR (m - 1 - k) - INR k) / 2)) by lra. lra.
    + pose proof (Hs (k - (m - 1 - k))%nat (i + (m - 1 - k))%nat ltac:(lia)) as A. cbn beta in A. replace (i + (m - 1 - k) + (k - (m - 1 - k)))%nat with (i + k)%nat in A by lia.
      rewrite (minus_INR k (m - 1 - k)) in A by lia. apply le_INR in L.
      rewrite (Rabs_left1 ((INR (m - 1 - k) - INR k) / 2)) by lra. lra.
  - rewrite bigsum_scal, S2. nra.
Qed.
Lemma pvar_lip : (0 < oadev_n x m)%nat -> pvar x t m <= 2 * (p / t) ^ 2.
Proof using All.
  intros Hn. unfold pvar.
  destruct (Nat.eqb_spec m 1) as [E|E].
  - replace (oavar x t 1) with (oavar x t m) by (now rewrite E). apply oavar_lip, Hn.
  - assert (0 < INR m ^ 4) by (apply pow_lt; lra).
    replace (72 / (INR (oadev_n x m) * INR m ^ 4 * (INR m * t) ^ 2)) with (/ (INR m ^ 4 * (INR m * t) ^ 2 / 72 * INR (oadev_n x m)))
      by (apply lt_INR in Hn; cbn [INR] in Hn; field; repeat split; lra).
    eapply Rle_trans; [apply (mean_le _ _ _ ((INR m ^ 3 / 12 * p + INR m ^ 3 / 12 * p) ^ 2)); [nra|exact Hn|]|].
    + intros i Hi. unfold oadev_n in Hi. apply sq_le.
      rewrite (bigsum_ext m _ (fun k => ((INR m - 1) / 2 - INR k) * x.[i + k] - ((INR m - 1) / 2 - INR k) * x.[i + m + k]))
        by (intros k _; replace (i + k + m)%nat with (i + m + k)%nat by lia; ring).
      rewrite bigsum_minus. pose proof (ramp_sum i ltac:(lia)) as A. pose proof (ramp_sum (i + m)%nat ltac:(lia)) as B.
      unfold Rabs in *. repeat destruct Rcase_abs; lra.
    + right. field. repeat split; lra.
Qed.
Lemma xtot_step i : (2 <= len x)%nat -> (- Z.of_nat (len x) + 1 <= i < 2 * Z.of_nat (len x) - 2)%Z -> Rabs (xtot x (i + 1) - xtot x i) <= p.
Proof using All.
  intros H2 Hi. unfold xtot. cbv zeta. set (N := len x) in *.
  assert (K : forall a b, (b = a + 1)%nat -> (b < N)%nat -> Rabs (x.[b] - x.[a]) <= p).
  { intros a b -> Hb. replace (a + 1)%nat with (S a) by lia. apply Hx. fold N. lia. }
  destruct (Z.ltb_spec (i + 1) 0); destruct (Z.ltb_spec i 0); try lia.
  - replace (2 * x.[0] - x.[Z.to_nat (- (i + 1))] - (2 * x.[0] - x.[Z.to_nat (- i)])) with (x.[Z.to_nat (- i)] - x.[Z.to_nat (- (i + 1))]) by ring. apply K; lia.
  - destruct (Z.ltb_spec (i + 1) (Z.of_nat N)); [|lia]. replace (Z.to_nat (i + 1)) with 0%nat by lia.
    replace (x.[0] - (2 * x.[0] - x.[Z.to_nat (- i)])) with (x.[Z.to_nat (- i)] - x.[0]) by ring. apply K; lia.
  - destruct (Z.ltb_spec (i + 1) (Z.of_nat N)); destruct (Z.ltb_spec i (Z.of_nat N)); try lia.
    + apply K; lia.
    + replace (Z.to_nat i) with (N - 1)%nat by lia. replace (2 * x.[N - 1] - x.[Z.to_nat (2 * (Z.of_nat N - 1) - (i + 1))] - x.[N - 1])
        with (x.[N - 1] - x.[Z.to_nat (2 * (Z.of_nat N - 1) - (i + 1))]) by ring. apply K; lia.
    + replace (2 * x.[N - 1] - x.[Z.to_nat (2 * (Z.of_nat N - 1) - (i + 1))] - (2 * x.[N - 1] - x.[Z.to_nat (2 * (Z.of_nat N - 1) - i)]))
        with (x.[Z.to_nat (2 * (Z.of_nat N - 1) - i)] - x.[Z.to_nat (2 * (Z.of_nat N - 1) - (i + 1))]) by ring. apply K; lia.
Qed.
Lemma totvar_lip : (0 < totdev_n x)%nat -> (m < len x)%nat -> totvar x t m <= 2 * (p / t) ^ 2.
Proof using All.
  intros Hn Hl. unfold totvar. cbv zeta.
  eapply Rle_trans; [apply (mean_le _ _ _ ((2 * INR m * p) ^ 2)); [lra|exact Hn|]|].
  - intros k Hk. apply sq_le. unfold totdev_n in Hk.
    pose proof (zsteps (xtot x) p (- Z.of_nat (len x) + 1) (2 * Z.of_nat (len x) - 2) Hp (fun i => xtot_step i ltac:(lia)) m) as Z.
    pose proof (Z (Z.of_nat (k + 1) - Z.of_nat m)%Z ltac:(lia) ltac:(lia)) as A. pose proof (Z (Z.of_nat (k + 1)) ltac:(lia) ltac:(lia)) as B.
    replace (Z.of_nat (k + 1) - Z.of_nat m + Z.of_nat m)%Z with (Z.of_nat (k + 1)) in A by lia.
    unfold Rabs in *. repeat destruct Rcase_abs; lra.
  - right. field. lra.
Qed.
Lemma theo1var_lip h : m = (2 * h)%nat -> (m < len x)%nat -> theo1var x t m <= 4 / 3 * (p / t) ^ 2.
Proof using All.
  intros Eh Hl. unfold theo1var. cbv zeta. assert (Dh : Nat.div2 m = h) by (rewrite Eh; apply Nat.div2_double). rewrite Dh.
  assert (H1 : 1 <= INR h) by (change 1 with (INR 1); apply le_INR; lia).
  assert (Em : INR m = 2 * INR h) by (rewrite Eh, mult_INR; cbn [INR]; ring).
  replace (3 / 4 * INR (len x - m) * (INR m * t) ^ 2) with (3 / 4 * (INR m * t) ^ 2 * INR (len x - m)) by ring.
  eapply Rle_trans; [apply (mean_le _ _ _ (2 * INR h * (INR h + 1) * p ^ 2)); [lra|lia|]|].
  - intros i Hi.
    apply Rle_trans with (bigsum h (fun d => 4 * (INR h - INR d) * p ^ 2)).
    + apply bigsum_le. intros d Hd.
      assert (Q : 0 < INR h - INR d) by (apply lt_INR in Hd; lra).
      pose proof (Hs (h - d)%nat i ltac:(lia)) as A. pose proof (Hs (h - d)%nat (i + h + d)%nat ltac:(lia)) as B. cbn beta in A, B.
      replace (i + h + d + (h - d))%nat with (i + m)%nat in B by lia. replace (i + (h - d))%nat with (i + h - d)%nat in A by lia.
      rewrite minus_INR in A, B by lia.
      assert (L : Rabs (x.[i] - x.[i + h - d] + (x.[i + m] - x.[i + h + d])) <= 2 * (INR h - INR d) * p).
      { unfold Rabs in *. repeat destruct Rcase_abs; lra. }
      apply sq_le in L. apply Rle_trans with (/ (INR h - INR d) * (2 * (INR h - INR d) * p) ^ 2).
      * apply Rmult_le_compat_l; [left; now apply Rinv_0_lt_compat|exact L].
      * right. field. lra.
    + right. clear. assert (G : forall a n, bigsum n (fun d => 4 * (a - INR d) * p ^ 2) = (4 * a * INR n - 2 * INR n * (INR n - 1)) * p ^ 2).
      { intros a n. induction n as [|n IH]; cbn [bigsum]; [cbn; ring|]. rewrite IH, S_INR. ring. }
      rewrite G. ring.
  - rewrite Em. apply Rle_trans with (2 / 3 * ((INR h + 1) / INR h) * (p / t) ^ 2); [right; field; lra|].
    apply Rmult_le_compat_r; [apply pow2_ge_0|]. assert (I1 : / INR h <= 1) by (rewrite <- Rinv_1; apply Rinv_le_contravar; lra).
    replace ((INR h + 1) / INR h) with (1 + / INR h) by (field; lra). lra.
Qed.
Lemma tierms_lip : (m < len x)%nat -> tierms_var x m <= (INR m * p) ^ 2.
Proof using All.
  intros Hn. unfold tierms_var. replace (INR (len x - m)) with (1 * INR (len x - m)) by ring.
  eapply Rle_trans; [apply (mean_le 1 _ _ ((INR m * p) ^ 2)); [lra|lia|]|right; field].
  intros i Hi. apply sq_le. apply (Hs m i). lia.
Qed.
Lemma mtie_lip : (m < len x)%nat -> mtie_val x m ^ 2 <= (INR m * p) ^ 2.
Proof using All.
  intros Hn. apply pow_incr. split; [apply mtie_val_nonneg; lia|].
  destruct (mtie_val_is x m ltac:(lia)) as (_ & j & k & Hj & Hk & L1 & L2 & <-).
  assert (K : forall a b, (a <= b < len x)%nat -> (b <= a + m)%nat -> Rabs (x.[b] - x.[a]) <= INR m * p).
  { intros a b Hab Hb. pose proof (Hs (b - a)%nat a ltac:(lia)) as A. cbn beta in A. replace (a + (b - a))%nat with b in A by lia.
    eapply Rle_trans; [exact A|]. apply Rmult_le_compat_r; [exact Hp|]. apply le_INR. lia. }
  destruct (Nat.le_ge_cases k j) as [L|L].
  - pose proof (K k j ltac:(lia) ltac:(lia)). eapply Rle_trans; [apply Rle_abs|]. assumption.
  - pose proof (K j k ltac:(lia) ltac:(lia)). eapply Rle_trans; [apply Rle_abs|]. now rewrite Rabs_minus_sym.
Qed.
End Bounds.

(** one detrended, reflected subsequence *)
Lemma tot_term_lip y p m : 0 <= p -> (1 <= m)%nat -> (forall k, (S k < 3 * m)%nat -> Rabs (y (S k) - y k) <= p) ->
  tot_term y m <= (4 * INR m * p) ^ 2.
Proof.
  intros Hp Hm Hy. unfold tot_term. cbv zeta. set (c := half_slope y m).
  assert (Hm' : 1 <= INR m) by (apply le_INR in Hm; exact Hm).
  assert (Hc : Rabs c <= p).
  { unfold c, half_slope. cbv zeta. set (h := Nat.div2 (3 * m)).
    assert (Hh : (1 <= h)%nat /\ (2 * h <= 3 * m)%nat).
    { pose proof (Nat.div2_odd (3 * m)) as E. fold h in E. destruct (Nat.odd (3 * m)); cbn [Nat.b2n] in E; lia. }
    assert (Hp' : 0 < INR h) by (apply lt_0_INR; lia). assert (Hq : 0 < INR (3 * m - h)) by (apply lt_0_INR; lia).
    replace (bigsum h (fun k => y (3 * m - h + k)%nat) / INR h - bigsum h y / INR h)
      with (bigsum h (fun k => y (3 * m - h + k)%nat - y k) / INR h) by (rewrite bigsum_minus; field; lra).
    assert (B : Rabs (bigsum h (fun k => y (3 * m - h + k)%nat - y k)) <= INR h * (INR (3 * m - h) * p)).
    { apply bigsum_abs. intros k Hk. replace (3 * m - h + k)%nat with (k + (3 * m - h))%nat by lia. apply (steps y p (3 * m) Hp Hy). lia. }
    unfold Rdiv. rewrite !Rabs_mult, !Rabs_inv, (Rabs_pos_eq (INR h)), (Rabs_pos_eq (INR (3 * m - h))) by lra.
    apply Rle_trans with (INR h * (INR (3 * m - h) * p) * / INR h * / INR (3 * m - h)); [|right; field; lra].
    repeat apply Rmult_le_compat_r; try (left; apply Rinv_0_lt_compat; assumption). exact B. }
  set (z := reflect9 (fun k => y k - c * INR k) m).
  assert (Hz : forall j, (S j < 9 * m)%nat -> Rabs (z (S j) - z j) <= 2 * p).
  { assert (K : forall a b, (b = a + 1)%nat -> (b < 3 * m)%nat -> Rabs (y b - c * INR b - (y a - c * INR a)) <= 2 * p).
    { intros a b -> Hb. replace (a + 1)%nat with (S a) by lia. rewrite S_INR. pose proof (Hy a ltac:(lia)). unfold Rabs in *. repeat destruct Rcase_abs; lra. }
    intros j Hj. unfold z, reflect9.
    destruct (Nat.ltb_spec (S j) (3 * m)); destruct (Nat.ltb_spec j (3 * m)); try lia.
    - rewrite Rabs_minus_sym. apply K; lia.
    - destruct (Nat.ltb_spec (S j) (6 * m)); [|lia]. replace (3 * m - 1 - j)%nat with 0%nat by lia. replace (S j - 3 * m)%nat with 0%nat by lia.
      rewrite Rminus_diag_eq, Rabs_R0 by reflexivity. lra.
    - destruct (Nat.ltb_spec (S j) (6 * m)); destruct (Nat.ltb_spec j (6 * m)); try lia.
      + apply K; lia.
      + replace (9 * m - 1 - S j)%nat with (j - 3 * m)%nat by lia. rewrite Rminus_diag_eq, Rabs_R0 by reflexivity. lra.
      + rewrite Rabs_minus_sym. apply K; lia. }
  replace (6 * INR m) with (1 * INR (6 * m)) by (rewrite mult_INR; cbn [INR]; ring).
  eapply Rle_trans; [apply (mean_le 1 _ _ ((4 * INR m * p) ^ 2)); [lra|lia|]|right; field].
  intros j Hj. apply sq_le. unfold wsum.
  replace (bigsum m (fun k => z (j + k)%nat) - 2 * bigsum m (fun k => z (j + m + k)%nat) + bigsum m (fun k => z (j + 2 * m + k)%nat))
    with (bigsum m (fun k => z (j + k)%nat - 2 * z (j + k + m)%nat + z (j + k + 2 * m)%nat)).
  2:{ rewrite bigsum_plus, bigsum_minus, bigsum_scal. f_equal; [f_equal; f_equal|]; apply bigsum_ext; intros; f_equal; lia. }
  unfold Rdiv. rewrite Rabs_mult, Rabs_inv, (Rabs_pos_eq (INR m)) by lra.
  apply Rle_trans with (INR m * (2 * INR m * (2 * p)) * / INR m); [|right; field; lra].
  apply Rmult_le_compat_r; [left; apply Rinv_0_lt_compat; lra|]. apply bigsum_abs. intros k Hk.
  apply (d2_steps z (2 * p) (9 * m)); [lra|exact Hz|lia].
Qed.
Lemma mtotvar_lip x p t m : 0 <= p -> lip p x -> 0 < t -> (1 <= m)%nat -> (0 < mdev_n x m)%Z -> mtotvar x t m <= 8 * (p / t) ^ 2.
Proof.
  intros Hp Hx Ht Hm Hn. unfold mtotvar. pose proof (tpos t m Ht Hm). rewrite (IZR_cnt _ Hn).
  assert (Hm' : 1 <= INR m) by (apply le_INR in Hm; exact Hm).
  eapply Rle_trans; [apply (mean_le _ _ _ ((4 * INR m * p) ^ 2)); [lra|lia|]|].
  - intros i Hi. unfold mdev_n in Hi. apply tot_term_lip; [exact Hp|exact Hm|]. intros k Hk. replace (i + S k)%nat with (S (i + k)) by lia. apply Hx. lia.
  - right. field. lra.
Qed.
Lemma freq_lip x p rate : 0 < rate -> 0 <= p -> lip p x -> within (p * rate) (freq_of x rate).
Proof.
  intros Hr Hp Hx i. rewrite nth_freq.
  destruct (Nat.ltb_spec i (len x - 1)); [|rewrite Rabs_R0; nra]. rewrite Rabs_mult, (Rabs_pos_eq rate) by lra. rewrite Rmult_comm.
  apply Rmult_le_compat_r; [lra|]. replace (i + 1)%nat with (S i) by lia. apply Hx. lia.
Qed.
Lemma htotvar_lip x p rate m : 0 <= p -> lip p x -> 0 < rate -> (1 <= m)%nat -> (0 < c_htot (len x) m)%Z -> htotvar x rate m <= 24 * (p * rate) ^ 2.
Proof.
  intros Hp Hx Hr Hm. unfold c_htot, htotvar. destruct (Nat.eqb_spec m 1) as [E|E]; intros Hc.
  - assert (0 < 1 / rate) by (apply Rdiv_lt_0_compat; lra).
    eapply Rle_trans; [apply (ohvar_lip x p (1 / rate) 1 Hp Hx); [assumption|lia|]|].
    + unfold ohdev_n. lia.
    + replace (p / (1 / rate)) with (p * rate) by (field; lra). pose proof (pow2_ge_0 (p * rate)). lra.
  - unfold htotvar_freq. assert (Hn : (0 < mdev_n (freq_of x rate) m)%Z) by (unfold mdev_n; rewrite freq_len; exact Hc).
    rewrite (IZR_cnt _ Hn).
    eapply Rle_trans; [apply (mean_le _ _ _ ((12 * (p * rate)) ^ 2)); [lra|lia|]|].
    + intros i _. apply tot_term_le; [exact Hm|]. intros k. now apply freq_lip.
    + right. field.
Qed.
