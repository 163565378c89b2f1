(** * The coefficients of flicker noise, and Wallis' product.

    Lemmas for C109: the Kasdin-Walter coefficients of slope -1
    (allantools/noise_kasdin.py:138-146) are the central binomial coefficients
    over powers of four; sums of their products telescope, and the constant they
    tend to comes from the integrals of the powers of the sine. *)
From Coq Require Import Reals List ZArith Bool Arith Lia Lra Psatz.
From Coquelicot Require Import Coquelicot.
From Verif Require Import Base Num NpList NumR Spec ListFacts RSum Dft ModelCore ModelNoise ModelNoiseR
  NoiseProofs PropsKasdin PropsExpect.
Local Open Scope R_scope.

(** ** The coefficients *)
Definition hf (j : nat) : R := kw (-1) j.
Lemma hf_S j : hf (S j) = hf j * ((2 * INR j + 1) / (2 * (INR j + 1))).
Proof. unfold hf. cbn [kw]. pose proof (pos_INR j). f_equal. field. lra. Qed.
Lemma hf_0 : hf 0 = 1.
Proof. reflexivity. Qed.
Lemma hf_pos j : 0 < hf j.
Proof.
  induction j as [|j IH]; [rewrite hf_0; lra|]. rewrite hf_S. pose proof (pos_INR j).
  apply Rmult_lt_0_compat; [exact IH|]. apply Rdiv_lt_0_compat; lra.
Qed.
Lemma hf_dec j : hf (S j) <= hf j.
Proof.
  rewrite hf_S. pose proof (pos_INR j). pose proof (hf_pos j).
  rewrite <- (Rmult_1_r (hf j)) at 2. apply Rmult_le_compat_l; [lra|].
  apply (Rmult_le_reg_r (2 * (INR j + 1))); [lra|]. unfold Rdiv. rewrite Rmult_assoc, Rinv_l by lra. lra.
Qed.

(** ** Integrals of the powers of the sine *)
Definition sinI (n : nat) : R := RInt (fun x => sin x ^ n) 0 (PI / 2).
Lemma sin_cont n x : continuous (fun x => sin x ^ n) x.
Proof.
  apply (ex_derive_continuous (fun x => sin x ^ n)).
  auto_derive. exact I.
Qed.
Lemma sin_int n a b : ex_RInt (fun x => sin x ^ n) a b.
Proof. apply (ex_RInt_continuous (V := R_CompleteNormedModule)). intros z _. apply sin_cont. Qed.
Lemma sinI_0 : sinI 0 = PI / 2.
Proof.
  unfold sinI. rewrite (RInt_ext _ (fun _ => 1)) by (intros; reflexivity).
  rewrite RInt_const. unfold scal; cbn. unfold mult; cbn. lra.
Qed.
Lemma sinI_1 : sinI 1 = 1.
Proof.
  unfold sinI. apply is_RInt_unique.
  replace 1 with (minus (- cos (PI / 2)) (- cos 0)).
  - apply (is_RInt_derive (fun x => - cos x) (fun x => sin x ^ 1)).
    + intros x _. auto_derive; [exact I|ring].
    + intros x _. apply sin_cont.
  - unfold minus, plus, opp; cbn. rewrite cos_PI2, cos_0. lra.
Qed.
Lemma sinI_rec n : (INR n + 2) * sinI (S (S n)) = (INR n + 1) * sinI n.
Proof.
  assert (D : is_RInt (fun x => (INR n + 1) * sin x ^ n - (INR n + 2) * sin x ^ S (S n)) 0 (PI / 2)
     (minus (cos (PI / 2) * sin (PI / 2) ^ S n) (cos 0 * sin 0 ^ S n))).
  { apply (is_RInt_derive (fun x => cos x * sin x ^ S n)).
    - intros x _. auto_derive; [exact I|].
      change (pred (S n)) with n. cbn [pow].
      assert (Z : match n with 0%nat => 1 | S _ => INR n + 1 end = INR n + 1) by (destruct n; [cbn; ring|reflexivity]).
      rewrite Z; clear Z.
      assert (C : cos x * cos x = 1 - sin x * sin x) by (pose proof (sin2_cos2 x) as Q; unfold Rsqr in Q; lra).
      transitivity ((INR n + 1) * sin x ^ n * (cos x * cos x) - sin x * (sin x * sin x ^ n)); [ring|].
      rewrite C. ring.
    - intros x _. apply (continuous_minus (V := R_NormedModule)).
      + apply (continuous_scal_r (K := R_AbsRing) (V := R_NormedModule)). apply sin_cont.
      + apply (continuous_scal_r (K := R_AbsRing) (V := R_NormedModule)). apply sin_cont. }
  apply (is_RInt_unique (V := R_CompleteNormedModule)) in D.
  rewrite cos_PI2, sin_0 in D. replace (minus (0 * sin (PI / 2) ^ S n) (cos 0 * 0 ^ S n)) with 0 in D
    by (unfold minus, plus, opp; cbn; ring).
  rewrite (RInt_minus (V := R_CompleteNormedModule) (fun x => (INR n + 1) * sin x ^ n) (fun x => (INR n + 2) * sin x ^ S (S n))) in D.
  2,3: apply (ex_RInt_scal (V := R_NormedModule)), sin_int.
  rewrite !(RInt_scal (V := R_CompleteNormedModule)) in D by apply sin_int.
  change ((INR n + 1) * sinI n + - ((INR n + 2) * sinI (S (S n))) = 0) in D. lra.
Qed.
Lemma sinI_pos n : 0 < sinI n.
Proof.
  pose proof PI_RGT_0 as P. apply (RInt_gt_0 (fun x => sin x ^ n)); [lra| |intros; apply sin_cont].
  intros x Hx. apply pow_lt. apply sin_gt_0; lra.
Qed.
Lemma sinI_dec n : sinI (S n) <= sinI n.
Proof.
  pose proof PI_RGT_0 as P. apply RInt_le; [lra|apply sin_int|apply sin_int|].
  intros x Hx. cbn [pow]. assert (0 <= sin x) by (apply sin_ge_0; lra).
  assert (0 <= sin x ^ n) by (apply pow_le; assumption). pose proof (SIN_bound x).
  rewrite <- (Rmult_1_l (sin x ^ n)) at 2. apply Rmult_le_compat_r; lra.
Qed.

Lemma sinI_even k : sinI (2 * k) = PI / 2 * hf k.
Proof.
  induction k as [|k IH]; [rewrite hf_0, Rmult_1_r; apply sinI_0|].
  replace (2 * S k)%nat with (S (S (2 * k))) by lia. pose proof (sinI_rec (2 * k)) as R0.
  rewrite IH, mult_INR in R0. change (INR 2) with 2 in R0. rewrite hf_S. pose proof (pos_INR k).
  apply (Rmult_eq_reg_l (2 * INR k + 2)); [|lra]. rewrite R0. field. lra.
Qed.
Lemma sinI_odd k : sinI (S (2 * k)) * ((2 * INR k + 1) * hf k) = 1.
Proof.
  induction k as [|k IH].
  - change (S (2 * 0)) with 1%nat. rewrite sinI_1, hf_0. cbn. ring.
  - replace (S (2 * S k)) with (S (S (S (2 * k)))) by lia. pose proof (sinI_rec (S (2 * k))) as R0.
    rewrite S_INR, mult_INR in R0. change (INR 2) with 2 in R0. rewrite hf_S, S_INR. pose proof (pos_INR k).
    transitivity (((2 * INR k + 1 + 2) * sinI (S (S (S (2 * k))))) * hf k * ((2 * INR k + 1) / (2 * (INR k + 1)))); [field; lra|].
    rewrite R0. transitivity (sinI (S (2 * k)) * ((2 * INR k + 1) * hf k)); [field; lra|exact IH].
Qed.

(** Wallis: (2k+1) h_k^2 tends to 2/pi from above, with rate *)
Lemma wallis_lo k : 2 / PI <= (2 * INR k + 1) * hf k ^ 2.
Proof.
  pose proof PI_RGT_0 as P. pose proof (sinI_odd k) as O. pose proof (sinI_dec (2 * k)) as D.
  rewrite sinI_even in D. pose proof (hf_pos k). pose proof (pos_INR k).
  assert (T : 0 <= (2 * INR k + 1) * hf k) by (apply Rmult_le_pos; lra).
  apply (Rmult_le_compat_r _ _ _ T) in D. rewrite O in D.
  apply (Rmult_le_reg_l (PI / 2)); [lra|]. replace (PI / 2 * (2 / PI)) with 1 by (field; lra).
  replace (PI / 2 * ((2 * INR k + 1) * hf k ^ 2)) with (PI / 2 * hf k * ((2 * INR k + 1) * hf k)) by ring. exact D.
Qed.
Lemma wallis_hi k : (2 * INR k + 1) * (hf k * hf (S k)) <= 2 / PI.
Proof.
  pose proof PI_RGT_0 as P. pose proof (sinI_odd k) as O. pose proof (sinI_dec (S (2 * k))) as D.
  replace (S (S (2 * k))) with (2 * S k)%nat in D by lia. rewrite sinI_even in D.
  pose proof (hf_pos k). pose proof (pos_INR k).
  assert (T : 0 <= (2 * INR k + 1) * hf k) by (apply Rmult_le_pos; lra).
  apply (Rmult_le_compat_r _ _ _ T) in D. rewrite O in D.
  apply (Rmult_le_reg_l (PI / 2)); [lra|]. replace (PI / 2 * (2 / PI)) with 1 by (field; lra).
  replace (PI / 2 * ((2 * INR k + 1) * (hf k * hf (S k)))) with (PI / 2 * hf (S k) * ((2 * INR k + 1) * hf k)) by ring. exact D.
Qed.

(** ** Telescoping covariances *)
Definition oddh (n : nat) : R := bigsum n (fun i => / (2 * INR i + 1)).
Definition cv (n k : nat) : R := bigsum (S k) (fun j => hf j * hf (j + n)).
Definition ak (n k : nat) : R := (2 * INR k + 1) * (hf k * hf (k + n + 1)).

Lemma cv_step n k : cv n k - cv (S n) k = ak n k / (2 * INR n + 1).
Proof.
  unfold cv. rewrite <- bigsum_minus. pose proof (pos_INR n) as Pn. induction k as [|k IH].
  - cbn [bigsum]. unfold ak. rewrite hf_0. replace (0 + S n)%nat with (S n) by lia.
    replace (0 + n + 1)%nat with (S n) by lia. change (0 + n)%nat with n. change (INR 0) with 0. rewrite hf_S. field. lra.
  - change (bigsum (S (S k)) (fun i => hf i * hf (i + n) - hf i * hf (i + S n)))
      with (bigsum (S k) (fun i => hf i * hf (i + n) - hf i * hf (i + S n))
            + (hf (S k) * hf (S k + n) - hf (S k) * hf (S k + S n))).
    rewrite IH. unfold ak. replace (S k + n)%nat with (k + n + 1)%nat by lia.
    replace (S k + S n)%nat with (S (k + n + 1)) by lia. replace (k + n + 1 + 1)%nat with (S (k + n + 1)) by lia.
    rewrite !hf_S, S_INR, !plus_INR. change (INR 1) with 1. pose proof (pos_INR k). field. lra.
Qed.
Lemma cv_0 n k : cv n k = cv 0 k - bigsum n (fun i => ak i k / (2 * INR i + 1)).
Proof.
  induction n as [|n IH]; cbn [bigsum]; [ring|]. rewrite <- cv_step. lra.
Qed.

Lemma hf_le k n : hf (k + n) <= hf k.
Proof.
  induction n as [|n IH]; [rewrite Nat.add_0_r; lra|]. replace (k + S n)%nat with (S (k + n)) by lia.
  pose proof (hf_dec (k + n)). lra.
Qed.
Lemma hf_ge k n : hf k * (1 - INR n / (2 * (INR k + 1))) <= hf (k + n).
Proof.
  pose proof (pos_INR k) as Pk. induction n as [|n IH].
  - rewrite Nat.add_0_r. change (INR 0) with 0. unfold Rdiv. rewrite Rmult_0_l, Rminus_0_r, Rmult_1_r. lra.
  - replace (k + S n)%nat with (S (k + n)) by lia. rewrite hf_S. pose proof (pos_INR n) as Pn. pose proof (hf_pos k) as Hk.
    rewrite plus_INR. replace ((2 * (INR k + INR n) + 1) / (2 * (INR k + INR n + 1)))
      with (1 - / (2 * (INR k + INR n + 1))) by (field; lra).
    set (e := / (2 * (INR k + INR n + 1))). assert (E0 : 0 < e) by (apply Rinv_0_lt_compat; lra).
    assert (E1 : e <= / (2 * (INR k + 1))) by (apply Rinv_le_contravar; lra).
    pose proof (hf_le k n) as L.
    assert (hf (k + n) * e <= hf k * / (2 * (INR k + 1))).
    { apply Rmult_le_compat; try lra. pose proof (hf_pos (k + n)); lra. }
    rewrite S_INR. replace (hf k * (1 - (INR n + 1) / (2 * (INR k + 1))))
      with (hf k * (1 - INR n / (2 * (INR k + 1))) - hf k * / (2 * (INR k + 1))) by (field; lra). lra.
Qed.

Lemma ak_hi n k : ak n k <= 2 / PI.
Proof.
  apply Rle_trans with (2 := wallis_hi k). unfold ak. pose proof (pos_INR k).
  apply Rmult_le_compat_l; [lra|]. apply Rmult_le_compat_l; [left; apply hf_pos|].
  replace (k + n + 1)%nat with (S k + n)%nat by lia. apply hf_le.
Qed.
Lemma ak_lo n k : 2 / PI * (1 - (INR n + 1) / (2 * (INR k + 1))) <= ak n k.
Proof.
  pose proof (pos_INR k) as Pk. pose proof (hf_pos k) as Hk. pose proof (wallis_lo k) as W.
  pose proof (hf_ge k (n + 1)) as G. rewrite plus_INR in G. change (INR 1) with 1 in G.
  pose proof (Rinv_0_lt_compat _ PI_RGT_0) as PIp. unfold ak. rewrite <- Nat.add_assoc.
  destruct (Rle_or_lt 0 (1 - (INR n + 1) / (2 * (INR k + 1)))) as [P|N].
  - apply Rle_trans with ((2 * INR k + 1) * hf k ^ 2 * (1 - (INR n + 1) / (2 * (INR k + 1)))).
    + apply Rmult_le_compat_r; assumption.
    + replace ((2 * INR k + 1) * hf k ^ 2 * (1 - (INR n + 1) / (2 * (INR k + 1))))
        with ((2 * INR k + 1) * (hf k * (hf k * (1 - (INR n + 1) / (2 * (INR k + 1)))))) by ring.
      apply Rmult_le_compat_l; [lra|]. apply Rmult_le_compat_l; [lra|exact G].
  - apply Rle_trans with 0.
    + assert (0 <= 2 / PI) by (unfold Rdiv; lra). 
      replace 0 with (2 / PI * 0) by ring. apply Rmult_le_compat_l; lra.
    + apply Rmult_le_pos; [lra|]. apply Rmult_le_pos; [lra|left; apply hf_pos].
Qed.

Lemma lim_inv : is_lim_seq (fun k => / (INR k + 1)) 0.
Proof.
  replace (Finite 0) with (Rbar_inv p_infty) by reflexivity. apply is_lim_seq_inv; [|discriminate].
  apply (is_lim_seq_ext (fun k => INR (S k))); [intro; apply S_INR|].
  apply -> is_lim_seq_incr_1. apply is_lim_seq_INR.
Qed.
Lemma ak_lim n : is_lim_seq (ak n) (2 / PI).
Proof.
  apply (is_lim_seq_le_le (fun k => 2 / PI * (1 - (INR n + 1) / (2 * (INR k + 1)))) _ (fun _ => 2 / PI)).
  - intro k. split; [apply ak_lo|apply ak_hi].
  - apply (is_lim_seq_ext (fun k => 2 / PI - (2 / PI * ((INR n + 1) / 2)) * / (INR k + 1))).
    + intro k. pose proof (pos_INR k). pose proof PI_RGT_0. field. lra.
    + replace (2 / PI) with (2 / PI - (2 / PI * ((INR n + 1) / 2)) * 0) at 1 by ring.
      apply (is_lim_seq_minus' (fun _ => 2 / PI)); [apply is_lim_seq_const|].
      apply (is_lim_seq_scal_l (fun k => / (INR k + 1)) _ 0). apply lim_inv.
  - apply is_lim_seq_const.
Qed.

Lemma hf2_lim : is_lim_seq (fun k => hf k * hf k) 0.
Proof.
  assert (B : forall k, 0 <= hf (S k) * hf (S k) <= 2 / PI * / (INR k + 1)).
  { intro k. pose proof (hf_pos k). pose proof (hf_pos (S k)) as H1. pose proof (pos_INR k). split; [apply Rmult_le_pos; lra|].
    pose proof (wallis_hi k) as W. apply (Rmult_le_reg_r (INR k + 1)); [lra|].
    replace (2 / PI * / (INR k + 1) * (INR k + 1)) with (2 / PI) by (pose proof PI_RGT_0; field; lra).
    apply Rle_trans with (2 := W). rewrite (hf_S k) at 1. replace (hf k * ((2 * INR k + 1) / (2 * (INR k + 1))) * hf (S k) * (INR k + 1))
      with (/ 2 * ((2 * INR k + 1) * (hf k * hf (S k)))) by (field; lra).
    assert (0 <= (2 * INR k + 1) * (hf k * hf (S k))) by (apply Rmult_le_pos; [lra|apply Rmult_le_pos; lra]). lra. }
  apply is_lim_seq_incr_1. apply (is_lim_seq_le_le (fun _ => 0) _ (fun k => 2 / PI * / (INR k + 1)) 0 B).
  - apply is_lim_seq_const.
  - replace 0 with (2 / PI * 0) by ring. apply (is_lim_seq_scal_l (fun k => / (INR k + 1)) _ 0). apply lim_inv.
Qed.

Lemma lim_bigsum n (f : nat -> nat -> R) (l : nat -> R) :
  (forall i, (i < n)%nat -> is_lim_seq (f i) (l i)) -> is_lim_seq (fun k => bigsum n (fun i => f i k)) (bigsum n l).
Proof.
  induction n as [|n IH]; intro H; cbn [bigsum]; [apply is_lim_seq_const|].
  apply is_lim_seq_plus'; [apply IH; intros; apply H; lia|apply H; lia].
Qed.
Lemma lim_shift (f : nat -> R) (l : Rbar) s : is_lim_seq f l -> is_lim_seq (fun k => f (k + s)%nat) l.
Proof. intro H. now apply (is_lim_seq_incr_n f s l). Qed.

Lemma cv0_lim s : is_lim_seq (fun k => cv 0 (k + s) - cv 0 k) 0.
Proof.
  apply (is_lim_seq_ext (fun k => bigsum s (fun u => (fun k => hf (k + (1 + u)) * hf (k + (1 + u))) k))).
  - intro k. unfold cv. replace (S (k + s)) with (S k + s)%nat by lia. rewrite bigsum_add.
    match goal with |- _ = ?A + ?B - ?C => replace (A + B - C) with B by ring end.
    apply bigsum_ext. intros u Hu. replace (S k + u)%nat with (k + (1 + u))%nat by lia. now rewrite Nat.add_0_r.
  - rewrite <- (bigsum_0 s (fun _ => 0)) by reflexivity. apply lim_bigsum. intros i Hi.
    apply (lim_shift (fun k => hf k * hf k) 0 (1 + i)). apply hf2_lim.
Qed.

(** covariances of the generated series *)
Lemma cov_m1 nr k l : (k <= l)%nat -> (l < nr)%nat ->
  bigsum nr (fun j => coef (-1) k j * coef (-1) l j) = cv (l - k) k.
Proof.
  intros Hk Hl. replace nr with (S k + (nr - S k))%nat by lia. rewrite bigsum_add, (bigsum_0 (nr - S k)).
  - rewrite Rplus_0_r. unfold cv. rewrite <- (bigsum_rev (S k) (fun j => coef (-1) k j * coef (-1) l j)).
    apply bigsum_ext. intros j Hj. unfold coef.
    destruct (Nat.leb_spec (S k - 1 - j) k); [|lia]. destruct (Nat.leb_spec (S k - 1 - j) l); [|lia].
    replace (k - (S k - 1 - j))%nat with j by lia. replace (l - (S k - 1 - j))%nat with (j + (l - k))%nat by lia. reflexivity.
  - intros j Hj. unfold coef. destruct (Nat.leb_spec (S k + j) k); [lia|]. ring.
Qed.

Definition nd (s t : nat) : nat := (s - t + (t - s))%nat.
Lemma nd_sym s t : nd s t = nd t s.
Proof. unfold nd. lia. Qed.

Lemma cov_lim P s t : (s < P)%nat -> (t < P)%nat ->
  is_lim_seq (fun k => bigsum (k + P) (fun j => coef (-1) (k + s) j * coef (-1) (k + t) j) - cv 0 k)
    (- (2 / PI) * oddh (nd s t)).
Proof.
  assert (L : forall s t, (s <= t)%nat -> (t < P)%nat ->
    is_lim_seq (fun k => bigsum (k + P) (fun j => coef (-1) (k + s) j * coef (-1) (k + t) j) - cv 0 k)
    (- (2 / PI) * oddh (nd s t))).
  { clear s t. intros s t Hs Ht.
    apply (is_lim_seq_ext (fun k => (cv 0 (k + s) - cv 0 k)
       - bigsum (t - s) (fun i => (fun k => / (2 * INR i + 1) * ak i (k + s)) k))).
    - intro k. rewrite cov_m1 by lia. replace (k + t - (k + s))%nat with (t - s)%nat by lia.
      rewrite (cv_0 (t - s) (k + s)). rewrite (bigsum_ext (t - s) _ (fun i => ak i (k + s) / (2 * INR i + 1))); [ring|].
      intros i Hi. unfold Rdiv. ring.
    - replace (- (2 / PI) * oddh (nd s t)) with (0 - bigsum (t - s) (fun i => / (2 * INR i + 1) * (2 / PI))).
      + apply is_lim_seq_minus'; [apply cv0_lim|]. apply lim_bigsum. intros i Hi.
        apply (is_lim_seq_scal_l (fun k => ak i (k + s)) _ (2 / PI)). apply lim_shift. apply ak_lim.
      + rewrite bigsum_scal_r. unfold oddh, nd. replace (s - t + (t - s))%nat with (t - s)%nat by lia. ring. }
  intros Hs Ht. destruct (Nat.le_ge_cases s t) as [H|H]; [now apply L|].
  rewrite nd_sym. apply (is_lim_seq_ext (fun k => bigsum (k + P) (fun j => coef (-1) (k + t) j * coef (-1) (k + s) j) - cv 0 k)).
  - intro k. f_equal. apply bigsum_ext. intros; ring.
  - now apply L.
Qed.

(** ** Variance of a linear form of consecutive points of the record *)
Definition qf (b : R) (a : nat -> R) (P k : nat) : R :=
  bigsum (k + P) (fun j => (bigsum P (fun s => a s * coef b (k + s) j)) ^ 2).

Lemma coef_SS b k j : coef b (S k) (S j) = coef b k j.
Proof. reflexivity. Qed.
Lemma qf_S b a P k : qf b a P (S k) = qf b a P k + (bigsum P (fun s => a s * coef b (S k + s) 0)) ^ 2.
Proof.
  unfold qf. change (S k + P)%nat with (S (k + P)). rewrite bigsum_S_l, Rplus_comm. f_equal.
Qed.
Lemma qf_mono b a P k n : qf b a P k <= qf b a P (k + n).
Proof.
  induction n as [|n IH]; [rewrite Nat.add_0_r; lra|]. replace (k + S n)%nat with (S (k + n)) by lia.
  rewrite qf_S. pose proof (pow2_ge_0 (bigsum P (fun s => a s * coef b (S (k + n) + s) 0))). lra.
Qed.
Lemma qf_le_lim b a P k (l : R) : is_lim_seq (qf b a P) l -> qf b a P k <= l.
Proof.
  intro H. apply (is_lim_seq_le (fun _ => qf b a P k) (fun n => qf b a P (n + k)) (qf b a P k) l).
  - intro n. rewrite Nat.add_comm. apply qf_mono.
  - apply is_lim_seq_const.
  - now apply lim_shift.
Qed.

Definition dbl (P : nat) (a : nat -> R) (f : nat -> R) : R :=
  bigsum P (fun s => bigsum P (fun t => a s * a t * f (nd s t))).

Lemma qf_exp b a P k : qf b a P k =
  bigsum P (fun s => bigsum P (fun t => a s * a t * bigsum (k + P) (fun j => coef b (k + s) j * coef b (k + t) j))).
Proof.
  unfold qf. transitivity (bigsum (k + P) (fun j => bigsum P (fun s => bigsum P (fun t => a s * a t * (coef b (k + s) j * coef b (k + t) j))))).
  - apply bigsum_ext. intros j Hj. cbn [pow]. rewrite Rmult_1_r. rewrite <- bigsum_scal_r. apply bigsum_ext. intros s Hs.
    rewrite <- bigsum_scal. apply bigsum_ext. intros t Ht. ring.
  - rewrite bigsum_swap. apply bigsum_ext. intros s Hs. rewrite bigsum_swap. apply bigsum_ext. intros t Ht.
    now rewrite bigsum_scal.
Qed.

Lemma qf_lim0 a P : bigsum P a = 0 -> is_lim_seq (qf (-1) a P) (- (2 / PI) * dbl P a oddh).
Proof.
  intro H0.
  apply (is_lim_seq_ext (fun k => bigsum P (fun s => (fun k => bigsum P (fun t => (fun k => a s * a t *
    (bigsum (k + P) (fun j => coef (-1) (k + s) j * coef (-1) (k + t) j) - cv 0 k)) k)) k))).
  - intro k. rewrite qf_exp.
    transitivity (bigsum P (fun s => bigsum P (fun t => a s * a t * bigsum (k + P) (fun j => coef (-1) (k + s) j * coef (-1) (k + t) j)))
      - bigsum P (fun s => a s * (cv 0 k * bigsum P a))).
    + rewrite <- bigsum_minus. apply bigsum_ext. intros s Hs. rewrite <- bigsum_scal, <- bigsum_scal, <- bigsum_minus.
      apply bigsum_ext. intros t Ht. ring.
    + rewrite H0. rewrite (bigsum_0 P (fun s => a s * (cv 0 k * 0))) by (intros; ring). ring.
  - unfold dbl. rewrite <- bigsum_scal. apply lim_bigsum. intros s Hs. rewrite <- bigsum_scal. apply lim_bigsum. intros t Ht.
    replace (- (2 / PI) * (a s * a t * oddh (nd s t))) with (a s * a t * (- (2 / PI) * oddh (nd s t))) by ring.
    apply (is_lim_seq_scal_l _ (a s * a t) (Finite (- (2 / PI) * oddh (nd s t)))). now apply cov_lim.
Qed.

(** ** Running sums *)
Lemma kw_sum b k : bigsum (S k) (kw b) = kw (b - 2) k.
Proof.
  replace (b - 2) with (-2 + b) by ring. rewrite <- kw_semigroup.
  rewrite <- (bigsum_rev (S k) (kw b)). apply bigsum_ext. intros j Hj. rewrite kw_m2. replace (S k - 1 - j)%nat with (k - j)%nat by lia. ring.
Qed.
Lemma coef_int b k j : coef (b - 2) k j = bigsum (S k) (fun u => coef b u j).
Proof.
  unfold coef at 1. destruct (Nat.leb_spec j k).
  - replace (S k) with (j + S (k - j))%nat by lia. rewrite bigsum_add, (bigsum_0 j).
    + rewrite Rplus_0_l, <- kw_sum. apply bigsum_ext. intros i Hi. unfold coef.
      destruct (Nat.leb_spec j (j + i)); [|lia]. now replace (j + i - j)%nat with i by lia.
    + intros i Hi. unfold coef. destruct (Nat.leb_spec j i); [lia|reflexivity].
  - symmetry. apply bigsum_0. intros i Hi. unfold coef. destruct (Nat.leb_spec j i); [lia|reflexivity].
Qed.
Lemma coef_step b k s j : coef (b - 2) (k + s) j = coef (b - 2) k j + bigsum s (fun u => coef b (S k + u) j).
Proof. rewrite !coef_int. replace (S (k + s)) with (S k + s)%nat by lia. now rewrite bigsum_add. Qed.

(** tail sums *)
Definition tl (P : nat) (a : nat -> R) (u : nat) : R := bigsum P (fun s => if (u <? s)%nat then a s else 0).
Lemma upto P s (f : nat -> R) : (s <= P)%nat -> bigsum P (fun u => if (u <? s)%nat then f u else 0) = bigsum s f.
Proof.
  intro H. replace P with (s + (P - s))%nat by lia. rewrite bigsum_add, (bigsum_0 (P - s)).
  - rewrite Rplus_0_r. apply bigsum_ext. intros i Hi. destruct (Nat.ltb_spec i s); [reflexivity|lia].
  - intros i Hi. destruct (Nat.ltb_spec (s + i) s); [lia|reflexivity].
Qed.
Lemma tl_sum P a (f : nat -> R) :
  bigsum (S P) (fun s => a s * bigsum s f) = bigsum P (fun u => tl (S P) a u * f u).
Proof.
  rewrite (bigsum_ext (S P) _ (fun s => bigsum P (fun u => (if (u <? s)%nat then a s else 0) * f u))).
  - rewrite bigsum_swap. apply bigsum_ext. intros u Hu. now rewrite bigsum_scal_r.
  - intros s Hs. rewrite <- (upto P s f) by lia. rewrite <- bigsum_scal. apply bigsum_ext. intros u Hu.
    destruct (u <? s)%nat; ring.
Qed.
Lemma tl_total P a : bigsum P (tl (S P) a) = bigsum (S P) (fun s => INR s * a s).
Proof.
  rewrite (bigsum_ext P _ (fun u => tl (S P) a u * 1)) by (intros; ring).
  rewrite <- (tl_sum P a (fun _ => 1)). apply bigsum_ext. intros s Hs. rewrite bigsum_const. ring.
Qed.
Lemma qf_int b a P k : bigsum (S P) a = 0 -> qf (b - 2) a (S P) k = qf b (tl (S P) a) P (S k).
Proof.
  intro H0. unfold qf. replace (k + S P)%nat with (S k + P)%nat by lia. apply bigsum_ext. intros j Hj. f_equal.
  rewrite <- (tl_sum P a (fun u => coef b (S k + u) j)).
  rewrite (bigsum_ext (S P) _ (fun s => a s * coef (b - 2) k j + a s * bigsum s (fun u => coef b (S k + u) j)))
    by (intros s Hs; rewrite coef_step; ring).
  rewrite bigsum_plus, bigsum_scal_r, H0. ring.
Qed.

(** second difference of an even function *)
Definition diff2 (F f : nat -> R) : Prop :=
  f 0%nat = 2 * F 1%nat - 2 * F 0%nat /\ forall n, f (S n) = F (S (S n)) - 2 * F (S n) + F n.
Lemma diff2_tele F f : diff2 F f -> forall s t,
  bigsum s (fun u => bigsum t (fun v => f (nd u v))) = - (F (nd s t) - F t - F s + F 0%nat).
Proof.
  intros [D0 D] s t.
  assert (C : forall u v, f (nd u v) = - (F (nd (S u) (S v)) - F (nd u (S v)) - F (nd (S u) v) + F (nd u v))).
  { intros u v. unfold nd. destruct (Nat.lt_trichotomy u v) as [H|[H|H]].
    - replace (u - v + (v - u))%nat with (S (v - u - 1)) by lia. rewrite D.
      replace (S u - S v + (S v - S u))%nat with (S (v - u - 1)) by lia.
      replace (u - S v + (S v - u))%nat with (S (S (v - u - 1))) by lia.
      replace (S u - v + (v - S u))%nat with (v - u - 1)%nat by lia. ring.
    - subst v. replace (u - u + (u - u))%nat with 0%nat by lia. rewrite D0.
      replace (S u - S u + (S u - S u))%nat with 0%nat by lia. replace (u - S u + (S u - u))%nat with 1%nat by lia.
      replace (S u - u + (u - S u))%nat with 1%nat by lia. ring.
    - replace (u - v + (v - u))%nat with (S (u - v - 1)) by lia. rewrite D.
      replace (S u - S v + (S v - S u))%nat with (S (u - v - 1)) by lia.
      replace (u - S v + (S v - u))%nat with (u - v - 1)%nat by lia.
      replace (S u - v + (v - S u))%nat with (S (S (u - v - 1))) by lia. ring. }
  assert (R1 : forall u, bigsum t (fun v => f (nd u v)) = - (F (nd (S u) t) - F (nd u t) - F (S u) + F u)).
  { intro u. induction t as [|t IH]; cbn [bigsum].
    - replace (nd (S u) 0) with (S u) by (unfold nd; lia). replace (nd u 0) with u by (unfold nd; lia). ring.
    - rewrite IH, C. ring. }
  induction s as [|s IH]; cbn [bigsum].
  - replace (nd 0 t) with t by (unfold nd; lia). ring.
  - rewrite IH, R1. ring.
Qed.
Lemma dbl_int F f a P : diff2 F f -> bigsum (S P) a = 0 -> dbl P (tl (S P) a) f = - dbl (S P) a F.
Proof.
  intros D H0. unfold dbl.
  transitivity (bigsum (S P) (fun s => bigsum (S P) (fun t => a s * a t * bigsum s (fun u => bigsum t (fun v => f (nd u v)))))).
  - transitivity (bigsum P (fun u => tl (S P) a u * bigsum (S P) (fun t => a t * bigsum t (fun v => f (nd u v))))).
    + apply bigsum_ext. intros u Hu. rewrite tl_sum, <- bigsum_scal. apply bigsum_ext. intros v Hv. ring.
    + rewrite <- (tl_sum P a (fun u => bigsum (S P) (fun t => a t * bigsum t (fun v => f (nd u v))))).
      apply bigsum_ext. intros s Hs. rewrite bigsum_swap. rewrite <- bigsum_scal. apply bigsum_ext. intros t Ht.
      rewrite bigsum_scal. ring.
  - transitivity (bigsum (S P) (fun s => - bigsum (S P) (fun t => a s * a t * F (nd s t))
      + (a s * bigsum (S P) (fun t => a t * F t) + a s * (F s - F 0%nat) * bigsum (S P) a))).
    + apply bigsum_ext. intros s Hs. rewrite <- bigsum_scal, <- bigsum_scal.
      match goal with |- _ = - ?A + _ => replace (- A) with (-1 * A) by ring end.
      rewrite <- bigsum_scal, <- !bigsum_plus. apply bigsum_ext. intros t Ht. rewrite (diff2_tele F f D). ring.
    + rewrite bigsum_plus. rewrite (bigsum_ext (S P) (fun s => - _) (fun s => -1 * bigsum (S P) (fun t => a s * a t * F (nd s t))))
        by (intros; ring). rewrite bigsum_scal.
      rewrite bigsum_plus, bigsum_scal_r, H0. rewrite (bigsum_0 (S P) (fun i => a i * (F i - F 0%nat) * 0)) by (intros; ring). ring.
Qed.

(** ** Primitives of the odd harmonic numbers *)
Definition oG (n : nat) : R := (INR n ^ 2 - 1 / 4) / 2 * oddh n - 3 / 8 * INR n ^ 2.
Definition oH (n : nat) : R :=
  (INR n ^ 4 / 24 - 5 / 48 * INR n ^ 2 + 3 / 128) * oddh n - 25 / 576 * INR n ^ 4 + 95 / 1152 * INR n ^ 2.
Lemma oddh_S n : oddh (S n) = oddh n + / (2 * INR n + 1).
Proof. reflexivity. Qed.
Lemma oG_diff : diff2 oG oddh.
Proof.
  split.
  - unfold oG. rewrite oddh_S. change (oddh 0) with 0. cbn [INR]. field.
  - intro n. unfold oG. rewrite !oddh_S, !S_INR. pose proof (pos_INR n). field. lra.
Qed.
Lemma oH_diff : diff2 oH oG.
Proof.
  split.
  - unfold oH, oG. rewrite oddh_S. change (oddh 0) with 0. cbn [INR]. field.
  - intro n. unfold oH, oG. rewrite !oddh_S, !S_INR. pose proof (pos_INR n). field. lra.
Qed.

Lemma qf_lim1 a P : bigsum (S P) a = 0 -> bigsum (S P) (fun s => INR s * a s) = 0 ->
  is_lim_seq (qf (-3) a (S P)) (2 / PI * dbl (S P) a oG).
Proof.
  intros H0 H1. replace (-3) with (-1 - 2) by ring.
  apply (is_lim_seq_ext (fun k => qf (-1) (tl (S P) a) P (S k))); [intro k; now rewrite qf_int|].
  apply (is_lim_seq_incr_1 (qf (-1) (tl (S P) a) P)).
  replace (2 / PI * dbl (S P) a oG) with (- (2 / PI) * dbl P (tl (S P) a) oddh).
  - apply qf_lim0. now rewrite tl_total.
  - rewrite (dbl_int oG oddh a P oG_diff H0). ring.
Qed.

(** ** Sparse weights *)
Fixpoint sp (l : list (nat * R)) (s : nat) : R :=
  match l with nil => 0 | cons (k, c) r => c * (if Nat.eqb k s then 1 else 0) + sp r s end.
Fixpoint spsum (l : list (nat * R)) (g : nat -> R) : R :=
  match l with nil => 0 | cons (k, c) r => c * g k + spsum r g end.
Lemma sp_sum P l g : List.Forall (fun p => (fst p < P)%nat) l -> bigsum P (fun s => sp l s * g s) = spsum l g.
Proof.
  intro H. induction H as [|[k c] r Hk _ IH]; cbn [sp spsum].
  - apply bigsum_0. intros; ring.
  - rewrite <- IH. rewrite <- (bigsum_pick P k (fun s => c * g s) Hk), <- bigsum_plus. apply bigsum_ext. intros s Hs. ring.
Qed.
Lemma sp_tot P l : List.Forall (fun p => (fst p < P)%nat) l -> bigsum P (sp l) = spsum l (fun _ => 1).
Proof. intro H. rewrite <- (sp_sum P l _ H). apply bigsum_ext. intros; ring. Qed.
Lemma sp_dbl P l F : List.Forall (fun p => (fst p < P)%nat) l ->
  dbl P (sp l) F = spsum l (fun s => spsum l (fun t => F (nd s t))).
Proof.
  intro H. unfold dbl. rewrite <- (sp_sum P l _ H). apply bigsum_ext. intros s Hs.
  rewrite <- (sp_sum P l _ H), <- bigsum_scal. apply bigsum_ext. intros t Ht. ring.
Qed.

(** second difference, third difference *)
Definition w2 (m : nat) : nat -> R := sp (cons ((2 * m)%nat, 1) (cons (m, -2) (cons (0%nat, 1) nil))).
Definition w3 (m : nat) : nat -> R := sp (cons ((3 * m)%nat, 1) (cons ((2 * m)%nat, -3) (cons (m, 3) (cons (0%nat, -1) nil)))).
Ltac fall := repeat first [apply List.Forall_nil | apply List.Forall_cons; [cbn [fst]; lia|]].

Lemma w2_sum P m g : (2 * m < P)%nat -> bigsum P (fun s => w2 m s * g s) = g (2 * m)%nat - 2 * g m + g 0%nat.
Proof. intro H. unfold w2. rewrite sp_sum by fall. cbn [spsum]. ring. Qed.
Lemma w3_sum P m g : (3 * m < P)%nat ->
  bigsum P (fun s => w3 m s * g s) = g (3 * m)%nat - 3 * g (2 * m)%nat + 3 * g m - g 0%nat.
Proof. intro H. unfold w3. rewrite sp_sum by fall. cbn [spsum]. ring. Qed.
Lemma w2_0 m : bigsum (S (2 * m)) (w2 m) = 0.
Proof. unfold w2. rewrite sp_tot by fall. cbn [spsum]. ring. Qed.
Lemma w3_0 m : bigsum (S (3 * m)) (w3 m) = 0.
Proof. unfold w3. rewrite sp_tot by fall. cbn [spsum]. ring. Qed.
Lemma w2_1 m : bigsum (S (2 * m)) (fun s => INR s * w2 m s) = 0.
Proof.
  rewrite (bigsum_ext _ _ (fun s => w2 m s * INR s)) by (intros; ring). rewrite w2_sum by lia.
  rewrite mult_INR. change (INR 2) with 2. cbn [INR]. ring.
Qed.
Lemma w3_1 m : bigsum (S (3 * m)) (fun s => INR s * w3 m s) = 0.
Proof.
  rewrite (bigsum_ext _ _ (fun s => w3 m s * INR s)) by (intros; ring). rewrite w3_sum by lia.
  rewrite !mult_INR. change (INR 2) with 2. replace (INR 3) with 3 by (cbn; lra). change (INR 0) with 0. ring.
Qed.
Lemma w3_2 m : bigsum (S (3 * m)) (fun s => w3 m s * (INR s * (INR s - 1) / 2)) = 0.
Proof.
  rewrite (w3_sum _ m (fun s => INR s * (INR s - 1) / 2)) by lia. rewrite !mult_INR. change (INR 2) with 2.
  replace (INR 3) with 3 by (cbn; lra). change (INR 0) with 0. field.
Qed.
Lemma w2_dbl m F : F 0%nat = 0 -> dbl (S (2 * m)) (w2 m) F = 2 * F (2 * m)%nat - 8 * F m.
Proof.
  intro F0. unfold w2. rewrite sp_dbl by fall. cbn [spsum].
  assert (N : forall k, nd k k = 0%nat) by (intro; unfold nd; lia). rewrite !N.
  replace (nd (2 * m) m) with m by (unfold nd; lia). replace (nd m (2 * m)) with m by (unfold nd; lia).
  replace (nd (2 * m) 0) with (2 * m)%nat by (unfold nd; lia). replace (nd 0 (2 * m)) with (2 * m)%nat by (unfold nd; lia).
  replace (nd m 0) with m by (unfold nd; lia). replace (nd 0 m) with m by (unfold nd; lia). rewrite F0. ring.
Qed.
Lemma w3_dbl m F : F 0%nat = 0 -> dbl (S (3 * m)) (w3 m) F = 12 * F (2 * m)%nat - 30 * F m - 2 * F (3 * m)%nat.
Proof.
  intro F0. unfold w3. rewrite sp_dbl by fall. cbn [spsum].
  assert (N : forall k, nd k k = 0%nat) by (intro; unfold nd; lia). rewrite !N.
  replace (nd (2 * m) m) with m by (unfold nd; lia). replace (nd m (2 * m)) with m by (unfold nd; lia).
  replace (nd (2 * m) 0) with (2 * m)%nat by (unfold nd; lia). replace (nd 0 (2 * m)) with (2 * m)%nat by (unfold nd; lia).
  replace (nd m 0) with m by (unfold nd; lia). replace (nd 0 m) with m by (unfold nd; lia).
  replace (nd (3 * m) (2 * m)) with m by (unfold nd; lia). replace (nd (2 * m) (3 * m)) with m by (unfold nd; lia).
  replace (nd (3 * m) m) with (2 * m)%nat by (unfold nd; lia). replace (nd m (3 * m)) with (2 * m)%nat by (unfold nd; lia).
  replace (nd (3 * m) 0) with (3 * m)%nat by (unfold nd; lia). replace (nd 0 (3 * m)) with (3 * m)%nat by (unfold nd; lia).
  rewrite F0. ring.
Qed.

(** weights of the modified Allan deviation *)
Definition wm (m : nat) : nat -> R := tl (S (3 * m)) (w3 m).
Lemma wm_0 m : bigsum (3 * m) (wm m) = 0.
Proof. unfold wm. rewrite tl_total. apply w3_1. Qed.
Lemma sum_below s : bigsum s INR = INR s * (INR s - 1) / 2.
Proof. apply sum_id. Qed.
Lemma wm_1 m : bigsum (3 * m) (fun u => INR u * wm m u) = 0.
Proof.
  rewrite (bigsum_ext _ _ (fun u => wm m u * INR u)) by (intros; ring).
  unfold wm. rewrite <- (tl_sum (3 * m) (w3 m) INR). rewrite <- (w3_2 m). apply bigsum_ext. intros s Hs. now rewrite sum_below.
Qed.
Lemma wm_sum m g : bigsum (3 * m) (fun u => wm m u * g u) =
  bigsum m (fun t => g (2 * m + t)%nat - 2 * g (m + t)%nat + g t).
Proof.
  unfold wm. rewrite <- (tl_sum (3 * m) (w3 m) g). rewrite (w3_sum _ m (fun s => bigsum s g)) by lia.
  replace (3 * m)%nat with (2 * m + m)%nat by lia. rewrite bigsum_add. replace (2 * m)%nat with (m + m)%nat by lia. rewrite (bigsum_add m m g).
  rewrite bigsum_plus, bigsum_minus, bigsum_scal. cbn [bigsum]. ring.
Qed.
Lemma wm_dbl m F f : diff2 F f -> F 0%nat = 0 ->
  dbl (3 * m) (wm m) f = 30 * F m - 12 * F (2 * m)%nat + 2 * F (3 * m)%nat.
Proof. intros D F0. unfold wm. rewrite (dbl_int F f (w3 m) (3 * m) D (w3_0 m)), w3_dbl by exact F0. ring. Qed.

Lemma oddh_0 : oddh 0 = 0.
Proof. reflexivity. Qed.
Lemma oG_0 : oG 0 = 0.
Proof. unfold oG. rewrite oddh_0. cbn [INR]. ring. Qed.
Lemma oH_0 : oH 0 = 0.
Proof. unfold oH. rewrite oddh_0. cbn [INR]. ring. Qed.

(** the six limits *)
Lemma lim_a1 m : is_lim_seq (qf (-1) (w2 m) (S (2 * m))) (4 / PI * (4 * oddh m - oddh (2 * m))).
Proof.
  replace (4 / PI * (4 * oddh m - oddh (2 * m))) with (- (2 / PI) * dbl (S (2 * m)) (w2 m) oddh).
  - apply qf_lim0, w2_0.
  - rewrite w2_dbl by exact oddh_0. pose proof PI_RGT_0. field. lra.
Qed.
Lemma lim_a3 m : is_lim_seq (qf (-3) (w2 m) (S (2 * m))) (4 / PI * (oG (2 * m) - 4 * oG m)).
Proof.
  replace (4 / PI * (oG (2 * m) - 4 * oG m)) with (2 / PI * dbl (S (2 * m)) (w2 m) oG).
  - apply qf_lim1; [apply w2_0|apply w2_1].
  - rewrite w2_dbl by exact oG_0. pose proof PI_RGT_0. field. lra.
Qed.
Lemma lim_h1 m : is_lim_seq (qf (-1) (w3 m) (S (3 * m))) (4 / PI * (15 * oddh m - 6 * oddh (2 * m) + oddh (3 * m))).
Proof.
  replace (4 / PI * (15 * oddh m - 6 * oddh (2 * m) + oddh (3 * m))) with (- (2 / PI) * dbl (S (3 * m)) (w3 m) oddh).
  - apply qf_lim0, w3_0.
  - rewrite w3_dbl by exact oddh_0. pose proof PI_RGT_0. field. lra.
Qed.
Lemma lim_h3 m : is_lim_seq (qf (-3) (w3 m) (S (3 * m))) (4 / PI * (6 * oG (2 * m) - 15 * oG m - oG (3 * m))).
Proof.
  replace (4 / PI * (6 * oG (2 * m) - 15 * oG m - oG (3 * m))) with (2 / PI * dbl (S (3 * m)) (w3 m) oG).
  - apply qf_lim1; [apply w3_0|apply w3_1].
  - rewrite w3_dbl by exact oG_0. pose proof PI_RGT_0. field. lra.
Qed.
Lemma lim_m1 m : is_lim_seq (qf (-1) (wm m) (3 * m)) (4 / PI * (6 * oG (2 * m) - 15 * oG m - oG (3 * m))).
Proof.
  replace (4 / PI * (6 * oG (2 * m) - 15 * oG m - oG (3 * m))) with (- (2 / PI) * dbl (3 * m) (wm m) oddh).
  - apply qf_lim0, wm_0.
  - rewrite (wm_dbl m oG oddh oG_diff oG_0). pose proof PI_RGT_0. field. lra.
Qed.
Lemma lim_m3 m : (1 <= m)%nat -> is_lim_seq (qf (-3) (wm m) (3 * m)) (4 / PI * (15 * oH m - 6 * oH (2 * m) + oH (3 * m))).
Proof.
  intro Hm.
  replace (4 / PI * (15 * oH m - 6 * oH (2 * m) + oH (3 * m))) with (2 / PI * dbl (3 * m) (wm m) oG).
  - replace (3 * m)%nat with (S (3 * m - 1)) by lia. apply qf_lim1; replace (S (3 * m - 1)) with (3 * m)%nat by lia; [apply wm_0|apply wm_1].
  - rewrite (wm_dbl m oH oG oH_diff oH_0). pose proof PI_RGT_0. field. lra.
Qed.
