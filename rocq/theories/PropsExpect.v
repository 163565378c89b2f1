(** * Expected Allan variance of the Kasdin generator (C78).

    The class Noise draws its white input from numpy.random.normal
    (allantools/noise_kasdin.py 100-131) and predicts the Allan and modified
    Allan deviation of the series it generates (lines 199-290).  The prediction
    is a statement about an expectation, so a test can only compare it with one
    random realisation.  Here the expectation is an abstract functional: any
    linear functional under which the input samples are uncorrelated with unit
    variance. *)
From Coq Require Import String Reals List ZArith Bool Arith Lia Lra.
From Verif Require Import Base Num NpList NumR Spec ListFacts RSum Dft ModelCore ModelNoise ModelNoiseR
  NoiseProofs PropsKasdin PropsPredict.
Import ListNotations.
Local Open Scope R_scope.
Local Notation len := List.length.

(** ** Specification *)

(** A random input: a linear functional on observables of the sample stream
    (the expectation), for which the first [K] samples are uncorrelated with unit
    variance.  Nothing about the distribution (Gaussian or not) is used. *)
Record white (K : nat) (E : ((nat -> R) -> R) -> R) : Prop := {
  wh_ext : forall f g, (forall w, f w = g w) -> E f = E g;
  wh_add : forall f g, E (fun w => f w + g w) = E f + E g;
  wh_scal : forall c f, E (fun w => c * f w) = c * E f;
  wh_cov : forall i j, (i < K)%nat -> (j < K)%nat ->
    E (fun w => w i * w j) = if Nat.eqb i j then 1 else 0 }.

(** The record produced for the sample stream [w] (the empty record stands for
    an exception; it does not occur for nr >= 1). *)
Definition record (nr : nat) (qd b : R) (w : nat -> R) : list R :=
  match generateNoise w (mkNoise nr qd b) with Ok x => x | Err _ => [] end.

(** ** Such inputs exist: independent fair signs *)
Definition upd (w : nat -> R) (k : nat) (v : R) : nat -> R := fun i => if Nat.eqb i k then v else w i.
Fixpoint signs (K : nat) (f : (nat -> R) -> R) : R :=
  match K with
  | O => f (fun _ => 0)
  | S k => (signs k (fun w => f (upd w k 1)) + signs k (fun w => f (upd w k (-1)))) / 2
  end.

Lemma signs_ext K : forall f g, (forall w, f w = g w) -> signs K f = signs K g.
Proof.
  induction K as [|K IH]; intros f g H; cbn [signs]; [apply H|].
  rewrite (IH (fun w => f (upd w K 1)) (fun w => g (upd w K 1))) by (intro; apply H).
  now rewrite (IH (fun w => f (upd w K (-1))) (fun w => g (upd w K (-1)))) by (intro; apply H).
Qed.
Lemma signs_add K : forall f g, signs K (fun w => f w + g w) = signs K f + signs K g.
Proof. induction K as [|K IH]; intros f g; cbn [signs]; [reflexivity|]. rewrite !IH. field. Qed.
Lemma signs_scal K : forall c f, signs K (fun w => c * f w) = c * signs K f.
Proof. induction K as [|K IH]; intros c f; cbn [signs]; [reflexivity|]. rewrite !IH. field. Qed.
Lemma signs_const K c : signs K (fun _ => c) = c.
Proof. induction K as [|K IH]; cbn [signs]; [reflexivity|]. rewrite IH. field. Qed.
Lemma upd_same w k v : upd w k v k = v.
Proof. unfold upd. now rewrite Nat.eqb_refl. Qed.
Lemma upd_other w k v i : i <> k -> upd w k v i = w i.
Proof. intro H. unfold upd. apply Nat.eqb_neq in H. now rewrite H. Qed.

Lemma signs_white K : white K (signs K).
Proof.
  split; [apply signs_ext|apply signs_add|apply signs_scal|].
  induction K as [|K IH]; intros i j Hi Hj; [lia|]. cbn [signs].
  destruct (Nat.eq_dec i K) as [->|Ni]; destruct (Nat.eq_dec j K) as [->|Nj].
  - rewrite Nat.eqb_refl.
    rewrite (signs_ext K _ (fun _ => 1)) by (intro; rewrite upd_same; ring).
    rewrite (signs_ext K (fun w => upd w K (-1) K * upd w K (-1) K) (fun _ => 1)) by (intro; rewrite upd_same; ring).
    rewrite signs_const. field.
  - assert (Q : Nat.eqb K j = false) by (apply Nat.eqb_neq; lia). rewrite Q.
    rewrite (signs_ext K _ (fun w => w j)) by (intro; rewrite upd_same, upd_other by lia; ring).
    rewrite (signs_ext K (fun w => upd w K (-1) K * upd w K (-1) j) (fun w => -1 * w j))
      by (intro; rewrite upd_same, upd_other by lia; ring).
    rewrite (signs_scal K (-1)). field.
  - assert (Q : Nat.eqb i K = false) by (apply Nat.eqb_neq; lia). rewrite Q.
    rewrite (signs_ext K _ (fun w => w i)) by (intro; rewrite upd_same, upd_other by lia; ring).
    rewrite (signs_ext K (fun w => upd w K (-1) i * upd w K (-1) K) (fun w => -1 * w i))
      by (intro; rewrite upd_same, upd_other by lia; ring).
    rewrite (signs_scal K (-1)). field.
  - rewrite (signs_ext K _ (fun w => w i * w j)) by (intro; rewrite !upd_other by lia; ring).
    rewrite (signs_ext K (fun w => upd w K (-1) i * upd w K (-1) j) (fun w => w i * w j))
      by (intro; rewrite !upd_other by lia; ring).
    rewrite IH by lia. destruct (Nat.eqb i j); field.
Qed.

(** ** Moments of linear forms *)
Section Lin.
Variable K : nat.
Variable E : ((nat -> R) -> R) -> R.
Hypothesis HE : white K E.

Lemma E_zero : E (fun _ => 0) = 0.
Proof.
  rewrite (wh_ext K E HE _ (fun w => 0 * (fun _ : nat -> R => 0) w)) by (intro; ring).
  rewrite (wh_scal K E HE). ring.
Qed.
Lemma E_sum n (g : nat -> (nat -> R) -> R) :
  E (fun w => bigsum n (fun i => g i w)) = bigsum n (fun i => E (g i)).
Proof.
  induction n as [|n IH]; cbn [bigsum]; [apply E_zero|].
  rewrite (wh_add K E HE (fun w => bigsum n (fun i => g i w)) (g n)). now rewrite IH.
Qed.

Lemma bigsum_pick n i (a : nat -> R) : (i < n)%nat ->
  bigsum n (fun j => a j * (if Nat.eqb i j then 1 else 0)) = a i.
Proof.
  intro H. replace n with (i + (1 + (n - i - 1)))%nat by lia.
  rewrite !bigsum_add. rewrite (bigsum_0 i), (bigsum_0 (n - i - 1)).
  - cbn [bigsum]. rewrite Nat.add_0_r, Nat.eqb_refl. ring.
  - intros j Hj. replace (Nat.eqb i (i + (1 + j))) with false by (symmetry; apply Nat.eqb_neq; lia). ring.
  - intros j Hj. replace (Nat.eqb i j) with false by (symmetry; apply Nat.eqb_neq; lia). ring.
Qed.

(** variance of a linear form of uncorrelated unit samples *)
Lemma E_lin n (a : nat -> R) : (n <= K)%nat ->
  E (fun w => (bigsum n (fun j => a j * w j)) ^ 2) = bigsum n (fun j => a j ^ 2).
Proof.
  intro Hn.
  rewrite (wh_ext K E HE _
    (fun w => bigsum n (fun i => bigsum n (fun j => (a i * a j) * (w i * w j))))).
  2:{ intro w. cbn [pow]. rewrite Rmult_1_r. rewrite <- bigsum_scal_r. apply bigsum_ext. intros i Hi.
      rewrite <- bigsum_scal. apply bigsum_ext. intros j Hj. ring. }
  rewrite (E_sum n (fun i w => bigsum n (fun j => (a i * a j) * (w i * w j)))).
  apply bigsum_ext. intros i Hi.
  rewrite (E_sum n (fun j w => (a i * a j) * (w i * w j))).
  rewrite (bigsum_ext n _ (fun j => (a i * a j) * (if Nat.eqb i j then 1 else 0))).
  - rewrite (bigsum_pick n i (fun j => a i * a j) Hi). ring.
  - intros j Hj. rewrite (wh_scal K E HE (a i * a j) (fun w => w i * w j)).
    now rewrite (wh_cov K E HE) by lia.
Qed.
End Lin.

(** ** The generated record as a matrix applied to the input *)
Definition coef (b : R) (k j : nat) : R := if (j <=? k)%nat then kw b (k - j) else 0.

Lemma record_len nr qd b w : (1 <= nr)%nat -> len (record nr qd b w) = nr.
Proof. intro H. unfold record. rewrite generateNoise_eq by exact H. apply tab_length. Qed.

Lemma record_nth nr qd b w k : (1 <= nr)%nat -> (k < nr)%nat ->
  (record nr qd b w).[k] = sqrt qd * bigsum nr (fun j => coef b k j * w j).
Proof.
  intros H Hk. unfold record. rewrite generateNoise_eq by exact H. rewrite nth_tab by exact Hk.
  replace (bigsum nr (fun j => coef b k j * w j)) with (bigsum (S k) (fun j => kw b (k - j) * w j)).
  - rewrite <- bigsum_scal.
    rewrite <- (bigsum_rev (S k) (fun j => sqrt qd * (kw b (k - j) * w j))).
    apply bigsum_ext. intros i Hi. replace (S k - 1 - i)%nat with (k - i)%nat by lia.
    replace (k - (k - i))%nat with i by lia. ring.
  - replace nr with (S k + (nr - S k))%nat by lia. rewrite bigsum_add.
    rewrite (bigsum_0 (nr - S k)).
    + rewrite Rplus_0_r. apply bigsum_ext. intros j Hj. unfold coef.
      replace (j <=? k)%nat with true by (symmetry; apply Nat.leb_le; lia). reflexivity.
    + intros j Hj. unfold coef. replace (S k + j <=? k)%nat with false by (symmetry; apply Nat.leb_gt; lia). ring.
Qed.

Definition c2 (b : R) (m i j : nat) : R := coef b (i + 2 * m) j - 2 * coef b (i + m) j + coef b i j.

Lemma record_d2 nr qd b w m i : (i + 2 * m < nr)%nat ->
  d2 (record nr qd b w) m i = sqrt qd * bigsum nr (fun j => c2 b m i j * w j).
Proof.
  intro H. unfold d2. rewrite !record_nth by lia.
  rewrite (bigsum_ext nr (fun j => c2 b m i j * w j)
    (fun j => coef b (i + 2 * m) j * w j - 2 * (coef b (i + m) j * w j) + coef b i j * w j))
    by (intros j Hj; unfold c2; ring).
  rewrite bigsum_plus, bigsum_minus, bigsum_scal. ring.
Qed.

Section Exp.
Variable nr : nat.
Variable E : ((nat -> R) -> R) -> R.
Hypothesis HE : white nr E.

Lemma E_sq qd (f : (nat -> R) -> R) (a : nat -> R) : 0 <= qd ->
  (forall w, f w = sqrt qd * bigsum nr (fun j => a j * w j)) ->
  E (fun w => (f w) ^ 2) = qd * bigsum nr (fun j => a j ^ 2).
Proof.
  intros Hq Hf.
  rewrite (wh_ext _ E HE _ (fun w => qd * (fun w => (bigsum nr (fun j => a j * w j)) ^ 2) w)).
  - rewrite (wh_scal _ E HE). now rewrite (E_lin nr E HE) by lia.
  - intro w. rewrite Hf, Rpow_mult_distr, pow2_sqrt by exact Hq. reflexivity.
Qed.

(** expectation of the overlapping Allan variance when every second difference
    has the same variance *)
Lemma E_oavar qd b m tau0 v : 0 <= qd -> (2 * m < nr)%nat -> (1 <= m)%nat -> 0 < tau0 ->
  (forall i, (i + 2 * m < nr)%nat -> bigsum nr (fun j => c2 b m i j ^ 2) = v) ->
  E (fun w => oavar (record nr qd b w) tau0 m) = qd * v / (2 * (INR m * tau0) ^ 2).
Proof.
  intros Hq Hm H1 H0 Hv.
  assert (Hmp : 0 < INR m) by (apply lt_0_INR; lia).
  assert (Hnp : 0 < INR (nr - 2 * m)) by (apply lt_0_INR; lia).
  rewrite (wh_ext _ E HE _ (fun w => / (2 * (INR m * tau0) ^ 2 * INR (nr - 2 * m)) *
     (fun w => bigsum (nr - 2 * m) (fun i => (d2 (record nr qd b w) m i) ^ 2)) w)).
  2:{ intro w. unfold oavar, oadev_n. rewrite record_len by lia. reflexivity. }
  rewrite (wh_scal _ E HE).
  rewrite (E_sum _ E HE (nr - 2 * m) (fun i w => (d2 (record nr qd b w) m i) ^ 2)).
  rewrite (bigsum_ext _ _ (fun _ => qd * v)).
  - rewrite bigsum_const. field. lra.
  - intros i Hi. rewrite (E_sq qd _ (c2 b m i) Hq) by (intro w; apply record_d2; lia).
    rewrite Hv by lia. reflexivity.
Qed.

(** the same for the non-overlapping Allan variance *)
Lemma E_avar qd b m tau0 v : 0 <= qd -> (2 * m < nr)%nat -> (1 <= m)%nat -> 0 < tau0 ->
  (forall i, (i + 2 * m < nr)%nat -> bigsum nr (fun j => c2 b m i j ^ 2) = v) ->
  E (fun w => avar (record nr qd b w) tau0 m) = qd * v / (2 * (INR m * tau0) ^ 2).
Proof.
  intros Hq Hm H1 H0 Hv.
  assert (Hmp : 0 < INR m) by (apply lt_0_INR; lia).
  assert (Hd : (2 <= (nr - 1) / m)%nat) by (apply Nat.div_le_lower_bound; lia).
  set (n := ((nr - 1) / m - 1)%nat).
  assert (Hnp : 0 < INR n) by (apply lt_0_INR; lia).
  rewrite (wh_ext _ E HE _ (fun w => / (2 * INR n * (INR m * tau0) ^ 2) *
     (fun w => bigsum n (fun i => (d2 (record nr qd b w) m (i * m)) ^ 2)) w)).
  2:{ intro w. unfold avar, adev_n. rewrite record_len by lia. reflexivity. }
  rewrite (wh_scal _ E HE).
  rewrite (E_sum _ E HE n (fun i w => (d2 (record nr qd b w) m (i * m)) ^ 2)).
  rewrite (bigsum_ext _ _ (fun _ => qd * v)).
  - rewrite bigsum_const. field. lra.
  - intros i Hi.
    assert ((i * m + 2 * m < nr)%nat).
    { assert (((nr - 1) / m * m <= nr - 1)%nat) by (rewrite Nat.mul_comm; apply Nat.mul_div_le; lia). unfold n in Hi. nia. }
    rewrite (E_sq qd _ (c2 b m (i * m)) Hq) by (intro w; apply record_d2; lia).
    rewrite Hv by lia. reflexivity.
Qed.

(** the same for the modified Allan variance *)
Lemma E_mvar qd b m tau0 v : 0 <= qd -> (3 * m <= nr)%nat -> (1 <= m)%nat -> 0 < tau0 ->
  (forall i, (i + 3 * m <= nr)%nat ->
     bigsum nr (fun j => (bigsum m (fun t => c2 b m (i + t) j)) ^ 2) = v) ->
  E (fun w => mvar (record nr qd b w) tau0 m) = qd * v / (2 * INR m ^ 2 * (INR m * tau0) ^ 2).
Proof.
  intros Hq Hm H1 H0 Hv.
  assert (Hmp : 0 < INR m) by (apply lt_0_INR; lia).
  set (n := (nr - 3 * m + 1)%nat).
  assert (Hnp : 0 < INR n) by (apply lt_0_INR; lia).
  rewrite (wh_ext _ E HE _ (fun w => / (2 * INR m ^ 2 * (INR m * tau0) ^ 2 * INR n) *
     (fun w => bigsum n (fun j => (bigsum m (fun i => d2 (record nr qd b w) m (j + i))) ^ 2)) w)).
  2:{ intro w. unfold mvar, mdev_n. rewrite record_len by lia.
      replace (Z.of_nat nr - 3 * Z.of_nat m + 1)%Z with (Z.of_nat n) by lia.
      now rewrite <- INR_IZR_INZ, Nat2Z.id. }
  rewrite (wh_scal _ E HE).
  rewrite (E_sum _ E HE n (fun j w => (bigsum m (fun i => d2 (record nr qd b w) m (j + i))) ^ 2)).
  rewrite (bigsum_ext _ _ (fun _ => qd * v)).
  - rewrite bigsum_const. field. repeat split; lra.
  - intros i Hi. rewrite (E_sq qd _ (fun j => bigsum m (fun t => c2 b m (i + t) j)) Hq).
    + rewrite Hv by lia. reflexivity.
    + intro w.
      rewrite (bigsum_ext m _ (fun t => sqrt qd * bigsum nr (fun j => c2 b m (i + t) j * w j)))
        by (intros t Ht; apply record_d2; lia).
      rewrite bigsum_scal. f_equal. rewrite bigsum_swap. apply bigsum_ext. intros j Hj.
      now rewrite bigsum_scal_r.
Qed.
End Exp.

(** ** Coefficients for the three exactly solvable slopes *)
Lemma sum_id m : bigsum m INR = INR m * (INR m - 1) / 2.
Proof. induction m as [|m IH]; cbn [bigsum]; [cbn; field|]. rewrite IH, S_INR. field. Qed.
Lemma sum_sq m : bigsum m (fun t => INR t ^ 2) = INR m * (INR m - 1) * (2 * INR m - 1) / 6.
Proof. induction m as [|m IH]; cbn [bigsum]; [cbn; field|]. rewrite IH, S_INR. field. Qed.

Lemma seg2 nr a m (f : nat -> R) : (a + 2 * m <= nr)%nat ->
  (forall j, (j < a)%nat -> f j = 0) -> (forall j, (a + 2 * m <= j)%nat -> f j = 0) ->
  bigsum nr f = bigsum m (fun t => f (a + t)%nat) + bigsum m (fun t => f (a + m + t)%nat).
Proof.
  intros H Hl Hr. replace nr with (a + (m + (m + (nr - a - 2 * m))))%nat by lia. rewrite !bigsum_add.
  rewrite (bigsum_0 a) by exact Hl.
  rewrite (bigsum_0 (nr - a - 2 * m)) by (intros j Hj; apply Hr; lia).
  rewrite Rplus_0_l, Rplus_0_r. f_equal. apply bigsum_ext. intros t Ht. f_equal. lia.
Qed.
Lemma seg3 nr a m (f : nat -> R) : (a + 3 * m <= nr)%nat ->
  (forall j, (j < a)%nat -> f j = 0) -> (forall j, (a + 3 * m <= j)%nat -> f j = 0) ->
  bigsum nr f = bigsum m (fun t => f (a + t)%nat) + bigsum m (fun t => f (a + m + t)%nat)
    + bigsum m (fun t => f (a + 2 * m + t)%nat).
Proof.
  intros H Hl Hr. replace nr with (a + (m + (m + (m + (nr - a - 3 * m)))))%nat by lia. rewrite !bigsum_add.
  rewrite (bigsum_0 a) by exact Hl.
  rewrite (bigsum_0 (nr - a - 3 * m)) by (intros j Hj; apply Hr; lia).
  rewrite Rplus_0_l, Rplus_0_r, Rplus_assoc. f_equal. f_equal; apply bigsum_ext; intros t Ht; f_equal; lia.
Qed.

Lemma coef_0 k j : coef 0 k j = if Nat.eqb k j then 1 else 0.
Proof.
  unfold coef. destruct (Nat.eqb_spec k j) as [->|N].
  - rewrite Nat.leb_refl, Nat.sub_diag. reflexivity.
  - destruct (Nat.leb_spec j k); [|reflexivity].
    destruct (k - j)%nat as [|q] eqn:Q; [lia|]. apply kw_0.
Qed.
Lemma coef_m2 k j : coef (-2) k j = if (j <=? k)%nat then 1 else 0.
Proof. unfold coef. destruct (j <=? k)%nat; [apply kw_m2|reflexivity]. Qed.
Lemma coef_m4 k j : coef (-4) k j = INR (S k - j).
Proof.
  unfold coef. destruct (Nat.leb_spec j k).
  - rewrite kw_m4. replace (S k - j)%nat with (S (k - j)) by lia. now rewrite S_INR.
  - replace (S k - j)%nat with 0%nat by lia. reflexivity.
Qed.

Lemma var_wpm nr m i : (1 <= m)%nat -> (i + 2 * m < nr)%nat -> bigsum nr (fun j => c2 0 m i j ^ 2) = 6.
Proof.
  intros Hm H.
  rewrite (bigsum_ext nr _ (fun j => (fun _ => 1) j * (if Nat.eqb (i + 2 * m) j then 1 else 0)
    + (fun _ => 4) j * (if Nat.eqb (i + m) j then 1 else 0) + (fun _ => 1) j * (if Nat.eqb i j then 1 else 0))).
  - rewrite !bigsum_plus. rewrite (bigsum_pick nr (i + 2 * m) (fun _ => 1)) by lia.
    rewrite (bigsum_pick nr (i + m) (fun _ => 4)), (bigsum_pick nr i (fun _ => 1)) by lia. lra.
  - intros j Hj. unfold c2. rewrite !coef_0.
    destruct (Nat.eqb_spec (i + 2 * m) j), (Nat.eqb_spec (i + m) j), (Nat.eqb_spec i j); try lia; ring.
Qed.

Lemma var_wfm nr m i : (i + 2 * m < nr)%nat -> bigsum nr (fun j => c2 (-2) m i j ^ 2) = 2 * INR m.
Proof.
  intros H. rewrite (seg2 nr (S i) m) by
   (try lia; intros j Hj; unfold c2; rewrite !coef_m2;
    destruct (Nat.leb_spec j (i + 2 * m)), (Nat.leb_spec j (i + m)), (Nat.leb_spec j i); try lia; ring).
  rewrite (bigsum_ext m _ (fun _ => 1)), (bigsum_ext m (fun t => c2 _ _ _ _ ^ 2) (fun _ => 1)).
  - rewrite bigsum_const. ring.
  - intros t Ht. unfold c2. rewrite !coef_m2.
    destruct (Nat.leb_spec (S i + m + t) (i + 2 * m)), (Nat.leb_spec (S i + m + t) (i + m)),
      (Nat.leb_spec (S i + m + t) i); try lia; ring.
  - intros t Ht. unfold c2. rewrite !coef_m2.
    destruct (Nat.leb_spec (S i + t) (i + 2 * m)), (Nat.leb_spec (S i + t) (i + m)),
      (Nat.leb_spec (S i + t) i); try lia; ring.
Qed.

Lemma var_rwfm nr m i : (i + 2 * m < nr)%nat ->
  bigsum nr (fun j => c2 (-4) m i j ^ 2) = INR m * (2 * INR m ^ 2 + 1) / 3.
Proof.
  intros H. rewrite (seg2 nr (S i) m).
  - rewrite (bigsum_ext m _ (fun t => INR t ^ 2)).
    + rewrite (bigsum_ext m (fun t => c2 _ _ _ _ ^ 2) (fun t => INR m ^ 2 - 2 * INR m * INR t + INR t ^ 2)).
      * rewrite bigsum_plus, bigsum_minus, bigsum_const, bigsum_scal, sum_id, sum_sq. field.
      * intros t Ht. unfold c2. rewrite !coef_m4.
        replace (S (i + 2 * m) - (S i + m + t))%nat with (m - t)%nat by lia.
        replace (S (i + m) - (S i + m + t))%nat with 0%nat by lia.
        replace (S i - (S i + m + t))%nat with 0%nat by lia.
        rewrite minus_INR by lia. change (INR 0) with 0. ring.
    + intros t Ht. unfold c2. rewrite !coef_m4.
      replace (S (i + 2 * m) - (S i + t))%nat with (m + m - t)%nat by lia.
      replace (S (i + m) - (S i + t))%nat with (m - t)%nat by lia.
      replace (S i - (S i + t))%nat with 0%nat by lia.
      rewrite !minus_INR, plus_INR by lia. change (INR 0) with 0. ring.
  - lia.
  - intros j Hj. unfold c2. rewrite !coef_m4. rewrite !minus_INR by lia.
    rewrite !S_INR, !plus_INR, mult_INR. change (INR 2) with 2. ring.
  - intros j Hj. unfold c2. rewrite !coef_m4.
    replace (S (i + 2 * m) - j)%nat with 0%nat by lia. replace (S (i + m) - j)%nat with 0%nat by lia.
    replace (S i - j)%nat with 0%nat by lia. change (INR 0) with 0. ring.
Qed.

(** averaged coefficients *)
Lemma avg_0 i m j : bigsum m (fun t => coef 0 (i + t) j) =
  if ((i <=? j) && (j <? i + m))%nat then 1 else 0.
Proof.
  induction m as [|m IH]; cbn [bigsum].
  - destruct (Nat.leb_spec i j), (Nat.ltb_spec j (i + 0)); try lia; reflexivity.
  - rewrite IH, coef_0.
    destruct (Nat.leb_spec i j), (Nat.ltb_spec j (i + m)), (Nat.ltb_spec j (i + S m)), (Nat.eqb_spec (i + m) j);
      cbn; try lia; ring.
Qed.
Lemma avg_m2 i m j : bigsum m (fun t => coef (-2) (i + t) j) = INR (m - (j - i)).
Proof.
  induction m as [|m IH]; cbn [bigsum]; [reflexivity|].
  rewrite IH, coef_m2. destruct (Nat.leb_spec j (i + m)).
  - replace (S m - (j - i))%nat with (S (m - (j - i))) by lia. now rewrite S_INR.
  - replace (S m - (j - i))%nat with 0%nat by lia. replace (m - (j - i))%nat with 0%nat by lia. cbn. ring.
Qed.
Lemma avg_c2 b m i j : bigsum m (fun t => c2 b m (i + t) j) =
  bigsum m (fun t => coef b (i + 2 * m + t) j) - 2 * bigsum m (fun t => coef b (i + m + t) j)
  + bigsum m (fun t => coef b (i + t) j).
Proof.
  rewrite <- bigsum_scal, <- bigsum_minus, <- bigsum_plus. apply bigsum_ext. intros t Ht. unfold c2.
  replace (i + t + 2 * m)%nat with (i + 2 * m + t)%nat by lia.
  replace (i + t + m)%nat with (i + m + t)%nat by lia. reflexivity.
Qed.

Lemma mvar_wpm nr m i : (i + 3 * m <= nr)%nat ->
  bigsum nr (fun j => (bigsum m (fun t => c2 0 m (i + t) j)) ^ 2) = 6 * INR m.
Proof.
  intro H.
  rewrite (bigsum_ext nr _ (fun j => ((if ((i + 2 * m <=? j) && (j <? i + 2 * m + m))%nat then 1 else 0)
    - 2 * (if ((i + m <=? j) && (j <? i + m + m))%nat then 1 else 0)
    + (if ((i <=? j) && (j <? i + m))%nat then 1 else 0)) ^ 2))
    by (intros j Hj; rewrite avg_c2, !avg_0; reflexivity).
  rewrite (seg3 nr i m) by
   (try lia; intros j Hj;
    destruct (Nat.leb_spec (i + 2 * m) j), (Nat.ltb_spec j (i + 2 * m + m)), (Nat.leb_spec (i + m) j),
     (Nat.ltb_spec j (i + m + m)), (Nat.leb_spec i j), (Nat.ltb_spec j (i + m)); try lia; cbn; ring).
  rewrite (bigsum_ext m _ (fun _ => 1)).
  2:{ intros t Ht. set (j := (i + t)%nat).
      destruct (Nat.leb_spec (i + 2 * m) j), (Nat.ltb_spec j (i + 2 * m + m)), (Nat.leb_spec (i + m) j),
     (Nat.ltb_spec j (i + m + m)), (Nat.leb_spec i j), (Nat.ltb_spec j (i + m)); try lia; cbn; ring. }
  rewrite bigsum_const.
  erewrite (bigsum_ext m _ (fun _ => 4)).
  2:{ intros t Ht. set (j := (i + m + t)%nat).
      destruct (Nat.leb_spec (i + 2 * m) j), (Nat.ltb_spec j (i + 2 * m + m)), (Nat.leb_spec (i + m) j),
     (Nat.ltb_spec j (i + m + m)), (Nat.leb_spec i j), (Nat.ltb_spec j (i + m)); try lia; cbn; ring. }
  rewrite bigsum_const.
  erewrite (bigsum_ext m _ (fun _ => 1)).
  2:{ intros t Ht. set (j := (i + 2 * m + t)%nat).
      destruct (Nat.leb_spec (i + 2 * m) j), (Nat.ltb_spec j (i + 2 * m + m)), (Nat.leb_spec (i + m) j),
     (Nat.ltb_spec j (i + m + m)), (Nat.leb_spec i j), (Nat.ltb_spec j (i + m)); try lia; cbn; ring. }
  rewrite bigsum_const. ring.
Qed.

Lemma mvar_wfm nr m i : (i + 3 * m <= nr)%nat ->
  bigsum nr (fun j => (bigsum m (fun t => c2 (-2) m (i + t) j)) ^ 2) = INR m ^ 3 + INR m.
Proof.
  intro H.
  rewrite (bigsum_ext nr _ (fun j => (INR (m - (j - (i + 2 * m))) - 2 * INR (m - (j - (i + m))) + INR (m - (j - i))) ^ 2))
    by (intros j Hj; rewrite avg_c2, !avg_m2; reflexivity).
  rewrite (seg3 nr i m).
  - transitivity (bigsum m (fun t => INR t ^ 2)
      + bigsum m (fun t => INR m ^ 2 - 4 * INR m * INR t + 4 * INR t ^ 2)
      + bigsum m (fun t => INR m ^ 2 - 2 * INR m * INR t + INR t ^ 2)).
    { f_equal; [f_equal|]; apply bigsum_ext; intros t Ht.
      - replace (m - (i + t - (i + 2 * m)))%nat with m by lia.
        replace (m - (i + t - (i + m)))%nat with m by lia. replace (m - (i + t - i))%nat with (m - t)%nat by lia.
        rewrite minus_INR by lia. ring.
      - replace (m - (i + m + t - (i + 2 * m)))%nat with m by lia.
        replace (m - (i + m + t - (i + m)))%nat with (m - t)%nat by lia.
        replace (m - (i + m + t - i))%nat with 0%nat by lia.
        rewrite minus_INR by lia. change (INR 0) with 0. ring.
      - replace (m - (i + 2 * m + t - (i + 2 * m)))%nat with (m - t)%nat by lia.
        replace (m - (i + 2 * m + t - (i + m)))%nat with 0%nat by lia.
        replace (m - (i + 2 * m + t - i))%nat with 0%nat by lia.
        rewrite minus_INR by lia. change (INR 0) with 0. ring. }
    rewrite !bigsum_plus, !bigsum_minus, !bigsum_const, !bigsum_scal, sum_id, sum_sq. field.
  - lia.
  - intros j Hj. replace (j - (i + 2 * m))%nat with 0%nat by lia. replace (j - (i + m))%nat with 0%nat by lia.
    replace (j - i)%nat with 0%nat by lia. rewrite Nat.sub_0_r. ring.
  - intros j Hj. replace (m - (j - (i + 2 * m)))%nat with 0%nat by lia.
    replace (m - (j - (i + m)))%nat with 0%nat by lia. replace (m - (j - i))%nat with 0%nat by lia.
    change (INR 0) with 0. ring.
Qed.

(** ** C78 *)

(** White phase noise (b = 0): expectation = square of the prediction, exactly,
    for the Allan and the modified Allan deviation. *)
Theorem C78_white_pm nr E qd tau0 m : white nr E -> 0 <= qd -> 0 < tau0 -> (1 <= m)%nat ->
  ((2 * m < nr)%nat -> exists v, noise_adev (mkNoise nr qd 0) tau0 (INR m * tau0) = Ok (sqrt v) /\
     v = 3 * qd / (INR m * tau0) ^ 2 /\ E (fun w => oavar (record nr qd 0 w) tau0 m) = v) /\
  ((3 * m <= nr)%nat -> exists v, noise_mdev (mkNoise nr qd 0) tau0 (INR m * tau0) = Ok (sqrt v) /\
     v = 3 * qd * tau0 / (INR m * tau0) ^ 3 /\ E (fun w => mvar (record nr qd 0 w) tau0 m) = v).
Proof.
  intros HE Hq H0 Hm. assert (Hmp : 0 < INR m) by (apply lt_0_INR; lia).
  assert (Ht : 0 < INR m * tau0) by (apply Rmult_lt_0_compat; lra).
  split; intro Hn; eexists; (split; [|split; [reflexivity|]]).
  - apply C68_adev; try assumption; [lra|constructor].
  - rewrite (E_oavar nr E HE qd 0 m tau0 6 Hq) by (try assumption; intros; apply var_wpm; lia). field. lra.
  - apply C68_mdev; try assumption; constructor.
  - rewrite (E_mvar nr E HE qd 0 m tau0 (6 * INR m) Hq) by (try assumption; intros; apply mvar_wpm; lia).
    field. lra.
Qed.

(** White frequency noise (b = -2): the Allan prediction is exact; the modified
    Allan prediction is the large-m limit, the expectation is (1 + 1/m^2) times it. *)
Theorem C78_white_fm nr E qd tau0 m : white nr E -> 0 <= qd -> 0 < tau0 -> (1 <= m)%nat ->
  ((2 * m < nr)%nat -> exists v, noise_adev (mkNoise nr qd (-2)) tau0 (INR m * tau0) = Ok (sqrt v) /\
     v = qd / (tau0 * (INR m * tau0)) /\ E (fun w => oavar (record nr qd (-2) w) tau0 m) = v) /\
  ((3 * m <= nr)%nat -> exists v, noise_mdev (mkNoise nr qd (-2)) tau0 (INR m * tau0) = Ok (sqrt v) /\
     v = qd / (2 * tau0 * (INR m * tau0)) /\
     E (fun w => mvar (record nr qd (-2) w) tau0 m) = (1 + / INR m ^ 2) * v).
Proof.
  intros HE Hq H0 Hm. assert (Hmp : 0 < INR m) by (apply lt_0_INR; lia).
  assert (Ht : 0 < INR m * tau0) by (apply Rmult_lt_0_compat; lra).
  split; intro Hn; eexists; (split; [|split; [reflexivity|]]).
  - apply C68_adev; try assumption; [lra|constructor].
  - rewrite (E_oavar nr E HE qd (-2) m tau0 (2 * INR m) Hq) by (try assumption; intros; apply var_wfm; lia).
    field. lra.
  - apply C68_mdev; try assumption; constructor.
  - rewrite (E_mvar nr E HE qd (-2) m tau0 (INR m ^ 3 + INR m) Hq)
      by (try assumption; intros; apply mvar_wfm; lia). field. lra.
Qed.

(** Random walk frequency noise (b = -4): the Allan prediction is the large-m
    limit, the expectation is (1 + 1/(2 m^2)) times it. *)
Theorem C78_random_walk_fm nr E qd tau0 m : white nr E -> 0 <= qd -> 0 < tau0 -> (1 <= m)%nat ->
  (2 * m < nr)%nat -> exists v, noise_adev (mkNoise nr qd (-4)) tau0 (INR m * tau0) = Ok (sqrt v) /\
     v = qd * (INR m * tau0) / (3 * tau0 ^ 3) /\
     E (fun w => oavar (record nr qd (-4) w) tau0 m) = (1 + / (2 * INR m ^ 2)) * v.
Proof.
  intros HE Hq H0 Hm Hn. assert (Hmp : 0 < INR m) by (apply lt_0_INR; lia).
  assert (Ht : 0 < INR m * tau0) by (apply Rmult_lt_0_compat; lra).
  eexists; (split; [|split; [reflexivity|]]).
  - apply C68_adev; try assumption; [lra|constructor].
  - rewrite (E_oavar nr E HE qd (-4) m tau0 (INR m * (2 * INR m ^ 2 + 1) / 3) Hq)
      by (try assumption; intros; apply var_rwfm; lia). field. lra.
Qed.

(** The overlapping and the non-overlapping estimator have the same expectation. *)
Theorem C78_overlap_unbiased nr E qd tau0 m b : white nr E -> 0 <= qd -> 0 < tau0 -> (1 <= m)%nat ->
  (2 * m < nr)%nat -> b = 0 \/ b = -2 \/ b = -4 ->
  E (fun w => avar (record nr qd b w) tau0 m) = E (fun w => oavar (record nr qd b w) tau0 m).
Proof.
  intros HE Hq H0 Hm Hn [ -> | [ -> | -> ] ].
  - rewrite (E_oavar nr E HE qd 0 m tau0 6 Hq) by (try assumption; intros; apply var_wpm; lia).
    now rewrite (E_avar nr E HE qd 0 m tau0 6 Hq) by (try assumption; intros; apply var_wpm; lia).
  - rewrite (E_oavar nr E HE qd (-2) m tau0 (2 * INR m) Hq) by (try assumption; intros; apply var_wfm; lia).
    now rewrite (E_avar nr E HE qd (-2) m tau0 (2 * INR m) Hq) by (try assumption; intros; apply var_wfm; lia).
  - rewrite (E_oavar nr E HE qd (-4) m tau0 (INR m * (2 * INR m ^ 2 + 1) / 3) Hq)
      by (try assumption; intros; apply var_rwfm; lia).
    now rewrite (E_avar nr E HE qd (-4) m tau0 (INR m * (2 * INR m ^ 2 + 1) / 3) Hq)
      by (try assumption; intros; apply var_rwfm; lia).
Qed.

(** The claim "the predicted deviation is the expected one" fails at m = 1 for
    random walk FM (low by a factor 3/2 in variance) and for the modified
    deviation of white FM (factor 2). *)
Theorem C78_exact_refuted :
  (exists E, white 3 E /\ exists v, noise_adev (mkNoise 3 1 (-4)) 1 1 = Ok (sqrt v) /\
     E (fun w => oavar (record 3 1 (-4) w) 1 1) = 3 / 2 * v /\ 0 < v) /\
  (exists E, white 3 E /\ exists v, noise_mdev (mkNoise 3 1 (-2)) 1 1 = Ok (sqrt v) /\
     E (fun w => mvar (record 3 1 (-2) w) 1 1) = 2 * v /\ 0 < v).
Proof.
  pose proof (signs_white 3) as W.
  split; exists (signs 3); (split; [exact W|]).
  - destruct (C78_random_walk_fm 3 (signs 3) 1 1 1 W) as (v & A & B & C); try lra; try lia.
    exists v. cbn [INR] in A, B, C. rewrite Rmult_1_l in A. split; [exact A|]. split; [rewrite C; field|].
    rewrite B. lra.
  - destruct (C78_white_fm 3 (signs 3) 1 1 1 W) as (_ & Q); try lra; try lia.
    destruct Q as (v & A & B & C); [lia|].
    exists v. cbn [INR] in A, B, C. rewrite Rmult_1_l in A. split; [exact A|]. split; [rewrite C; field|].
    rewrite B. lra.
Qed.

(** For every record length there is an input meeting the hypothesis. *)
Theorem C78_inputs_exist nr : exists E, white nr E.
Proof. exists (signs nr). apply signs_white. Qed.

(** Example: 9 samples, averaging factor 2, independent fair signs as input. *)
Example C78_ex : exists v, noise_adev (mkNoise 9 2 (-2)) 1 2 = Ok (sqrt v) /\ v = 1 /\
  signs 9 (fun w => oavar (record 9 2 (-2) w) 1 2) = 1.
Proof.
  destruct (C78_white_fm 9 (signs 9) 2 1 2 (signs_white 9)) as (Q & _); try lra; try lia.
  destruct Q as (v & A & B & C); [lia|]. exists v. change (INR 2) with 2 in *.
  rewrite Rmult_1_r in A. split; [exact A|]. split; [lra|]. rewrite C. lra.
Qed.

Print Assumptions C78_white_pm.
Print Assumptions C78_white_fm.
Print Assumptions C78_random_walk_fm.
Print Assumptions C78_exact_refuted.
Print Assumptions C78_inputs_exist.
Print Assumptions C78_overlap_unbiased.
