(** * The power-law noise identification finds the right noise (C97).

    autocorr_noise_id (allantools/ci.py 329-408) decides which noise type a record
    has, and with it which degrees of freedom the confidence intervals get.  For
    Gaussian noise of a known type the probability of another answer is bounded
    here by a constant over the number of points the function works on. *)
From Coq Require Import String Reals List ZArith Bool Arith Lia Lra Psatz.
From Verif Require Import Base Num NpList NumR Spec ListFacts RSum Dft ModelCore ModelDev ModelCi ModelNoise ModelNoiseR
  DevProofs TotProofs Laws Laws2 Laws3 NoiseProofs PropsDev PropsKasdin PropsPredict PropsExpect CiProofs PropsCi PropsNoise ColorProofs GreenProofs PropsEdf PropsConsist
  NoiseIdProofs NoiseIdProb NoiseIdMain.
Import ListNotations.
Local Open Scope R_scope.
Local Notation len := List.length.

(** ** Specification *)

(** [least_squares], [prob] and [identified] are defined in NoiseIdMain.v and
    NoiseIdProb.v: least-squares polynomial removal by its normal equations; a
    monotone expectation over K uncorrelated unit samples with the fourth moments of
    independent normal variables; and the test whether the returned integer
    exponent is the given one.

    Probability that autocorr_noise_id does not return the exponent [al] for the
    data produced by [gen] (an exception of either counts as a wrong answer). *)
Definition error_rate (E : ((nat -> R) -> R) -> R) (gen : (nat -> R) -> res (list R))
    (detrend : list R -> nat -> res (list R)) (af : nat) (dt : string) (dmin dmax al : Z) : R :=
  E (fun w => match gen w with
              | Ok y => if identified (autocorr_noise_id detrend y af dt dmin dmax) al then 0 else 1
              | Err _ => 1
              end).

(** ** Covariances of the differenced series *)
Lemma dot_scal K s (p q : nat -> R) : dot K (fun x => s * p x) (fun x => s * q x) = s ^ 2 * dot K p q.
Proof. unfold dot. rewrite <- bigsum_scal. apply bigsum_ext. intros; ring. Qed.
Lemma lin_scal K s p w : lin K (fun x => s * p x) w = s * lin K p w.
Proof. unfold lin. rewrite <- bigsum_scal. apply bigsum_ext. intros; ring. Qed.
Lemma dot_windows K m A B : (A + m <= K)%nat -> dot K (win m A) (win m B) = INR (m - dist A B).
Proof. intros H. change (dot K (win m A) (win m B)) with (lin K (win m A) (win m B)). rewrite lin_win by exact H. apply dot_win. Qed.

Definition point (af : nat) (s : R) (i x : nat) : R := s * win 1 (i * af) x.
Definition block (af : nat) (s : R) (i x : nat) : R := s * win af (i * af + 0) x.
Definition block1 (af : nat) (s : R) (i x : nat) : R := s * win af (i * af + 1) x.
Definition hat (af o : nat) (i x : nat) : R := bigsum af (fun t => win af (i * af + o + t) x).
Definition tri (af o : nat) (s : R) (i x : nat) : R := s * hat af o i x.
Definition step (af : nat) (s : R) (i x : nat) : R := s * (win 1 (S i * af) x - win 1 (i * af) x).

Lemma cov_point K af s m : (1 <= af)%nat -> (forall i, (i < m)%nat -> (i * af < K)%nat) ->
  forall i j, (i < m)%nat -> (j < m)%nat -> dot K (point af s i) (point af s j) = s ^ 2 * kern 0 (dist i j).
Proof.
  intros Ha HK i j Hi Hj. unfold point. rewrite dot_scal, dot_windows by (pose proof (HK i Hi); lia). f_equal.
  destruct (Nat.eq_dec i j) as [->|N].
  - unfold dist. replace (1 - _)%nat with 1%nat by lia. replace (j - j + (j - j))%nat with 0%nat by lia. reflexivity.
  - replace (1 - _)%nat with 0%nat by (unfold dist; nia). destruct (dist i j) as [|[|q]] eqn:Ed; [unfold dist in Ed; lia|reflexivity|reflexivity].
Qed.
Lemma cov_block K af s m : (1 <= af)%nat -> (m * af <= K)%nat ->
  forall i j, (i < m)%nat -> (j < m)%nat -> dot K (block af s i) (block af s j) = s ^ 2 * INR af * kern 0 (dist i j).
Proof.
  intros Ha HK i j Hi Hj. unfold block. rewrite dot_scal, dot_windows by nia. rewrite Rmult_assoc. f_equal.
  destruct (Nat.eq_dec i j) as [->|N].
  - unfold dist. replace (af - _)%nat with af by lia. replace (j - j + (j - j))%nat with 0%nat by lia. cbn [kern]. ring.
  - replace (af - _)%nat with 0%nat by (unfold dist; nia). destruct (dist i j) as [|[|q]] eqn:Ed; [unfold dist in Ed; lia|cbn; ring|cbn; ring].
Qed.
Lemma cov_block1 K af s m : (1 <= af)%nat -> (m * af + 1 <= K)%nat ->
  forall i j, (i < m)%nat -> (j < m)%nat -> dot K (block1 af s i) (block1 af s j) = s ^ 2 * INR af * kern 0 (dist i j).
Proof.
  intros Ha HK i j Hi Hj. unfold block1. rewrite dot_scal, dot_windows by nia. rewrite Rmult_assoc. f_equal.
  destruct (Nat.eq_dec i j) as [->|N].
  - unfold dist. replace (af - _)%nat with af by lia. replace (j - j + (j - j))%nat with 0%nat by lia. cbn [kern]. ring.
  - replace (af - _)%nat with 0%nat by (unfold dist; nia). destruct (dist i j) as [|[|q]] eqn:Ed; [unfold dist in Ed; lia|cbn; ring|cbn; ring].
Qed.
Lemma cov_step K af s m : (1 <= af)%nat -> (m * af < K)%nat ->
  forall i j, (i < m)%nat -> (j < m)%nat -> dot K (step af s i) (step af s j) = 2 * s ^ 2 * kern (- (1 / 2)) (dist i j).
Proof.
  intros Ha HK i j Hi Hj. unfold step. rewrite dot_scal.
  assert (P : forall p q, (p <= m)%nat -> dot K (win 1 (p * af)) (win 1 (q * af)) = if Nat.eqb p q then 1 else 0).
  { intros p q Hp. rewrite dot_windows by nia. destruct (Nat.eqb_spec p q) as [->|N].
    - unfold dist. replace (1 - _)%nat with 1%nat by lia. reflexivity.
    - replace (1 - _)%nat with 0%nat by (unfold dist; nia). reflexivity. }
  assert (E : dot K (fun x => win 1 (S i * af) x - win 1 (i * af) x) (fun x => win 1 (S j * af) x - win 1 (j * af) x) =
    dot K (win 1 (S i * af)) (win 1 (S j * af)) - dot K (win 1 (S i * af)) (win 1 (j * af)) -
    dot K (win 1 (i * af)) (win 1 (S j * af)) + dot K (win 1 (i * af)) (win 1 (j * af))).
  { unfold dot. rewrite <- !bigsum_minus, <- bigsum_plus. apply bigsum_ext. intros; ring. }
  rewrite E, !P by lia.
  destruct (Nat.eqb_spec (S i) (S j)), (Nat.eqb_spec (S i) j), (Nat.eqb_spec i (S j)), (Nat.eqb_spec i j); try lia;
    destruct (dist i j) as [|[|q]] eqn:Ed; try (unfold dist in Ed; lia); cbn [kern]; field.
Qed.

(** power and lag-1 product of the triangular filter *)
Definition hat0 (af : nat) : R := INR af * (2 * INR af ^ 2 + 1) / 3.
Definition hat1 (af : nat) : R := INR af * (INR af ^ 2 - 1) / 6.
Lemma hat_self af : (1 <= af)%nat -> dsum af (fun d => INR (af - d)) = hat0 af.
Proof.
  intros Ha. rewrite dsum_lags. rewrite (bigsum_ext (af - 1) _ (fun i => 2 * (INR af - 1) ^ 2 + - 4 * (INR af - 1) * INR i + 2 * INR i ^ 2 + 0 * INR i ^ 3 + 0 * INR i ^ 4)).
  - rewrite sum_poly4. replace (af - 0)%nat with af by lia. rewrite minus_INR by lia. change (INR 1) with 1. unfold hat0. field.
  - intros i Hi. rewrite minus_INR, plus_INR by lia. change (INR 1) with 1. ring.
Qed.
Lemma hat_next af : bigsum af (fun t => bigsum af (fun t' => INR (t - t'))) = hat1 af.
Proof.
  rewrite (bigsum_ext af _ (fun t => 0 + 1 / 2 * INR t + 1 / 2 * INR t ^ 2 + 0 * INR t ^ 3 + 0 * INR t ^ 4)).
  - rewrite sum_poly4. unfold hat1. field.
  - intros t Ht. replace af with (t + (af - t))%nat by lia. rewrite bigsum_add.
    rewrite (bigsum_0 (af - t)) by (intros i _; replace (t - (t + i))%nat with 0%nat by lia; reflexivity).
    rewrite (bigsum_ext t _ (fun i => INR t + - 1 * INR i + 0 * INR i ^ 2 + 0 * INR i ^ 3 + 0 * INR i ^ 4)).
    + rewrite sum_poly4. field.
    + intros i Hi. rewrite minus_INR by lia. ring.
Qed.
Lemma dot_hat K af o i j : (i * af + o + 2 * af <= K + 1)%nat -> (1 <= af)%nat ->
  dot K (hat af o i) (hat af o j) = bigsum af (fun t => bigsum af (fun t' => INR (af - dist (i * af + o + t) (j * af + o + t')))).
Proof.
  intros HK Ha. unfold dot, hat.
  rewrite (bigsum_ext K _ (fun x => bigsum af (fun t => bigsum af (fun t' => win af (i * af + o + t) x * win af (j * af + o + t') x))))
    by (intros; apply bigsum_prod).
  rewrite bigsum_swap. apply bigsum_ext. intros t Ht. rewrite bigsum_swap. apply bigsum_ext. intros t' Ht'.
  apply (dot_windows K af (i * af + o + t) (j * af + o + t')). lia.
Qed.
Lemma hat0_pos af : (1 <= af)%nat -> 0 < hat0 af.
Proof. intros Ha. apply le_INR in Ha. cbn in Ha. unfold hat0. assert (0 < INR af * (2 * INR af ^ 2 + 1)) by (apply Rmult_lt_0_compat; nra). lra. Qed.
Lemma hat_ratio af : (1 <= af)%nat -> 0 <= hat1 af / hat0 af <= 1 / 4.
Proof.
  intros Ha. pose proof (hat0_pos af Ha) as H0. apply le_INR in Ha. cbn in Ha.
  assert (H1 : 0 <= hat1 af) by (unfold hat1; assert (0 <= INR af * (INR af ^ 2 - 1)) by (apply Rmult_le_pos; nra); lra).
  assert (H2 : 4 * hat1 af <= hat0 af).
  { unfold hat0, hat1. replace (4 * (INR af * (INR af ^ 2 - 1) / 6)) with (INR af * (2 * INR af ^ 2 - 2) / 3) by field.
    assert (INR af * (2 * INR af ^ 2 - 2) <= INR af * (2 * INR af ^ 2 + 1)) by (apply Rmult_le_compat_l; lra). lra. }
  split; [apply Rmult_le_pos; [assumption|left; now apply Rinv_0_lt_compat]|].
  apply (Rmult_le_reg_r (hat0 af)); [assumption|]. unfold Rdiv at 1. rewrite Rmult_assoc, Rinv_l by lra. lra.
Qed.
Lemma cov_tri K af o s m : (1 <= af)%nat -> ((m + 1) * af + o <= K + 1)%nat ->
  forall i j, (i < m)%nat -> (j < m)%nat -> dot K (tri af o s i) (tri af o s j) = s ^ 2 * hat0 af * kern (hat1 af / hat0 af) (dist i j).
Proof.
  intros Ha HK i j Hi Hj. pose proof (hat0_pos af Ha) as H0. unfold tri. rewrite dot_scal, dot_hat by nia. rewrite Rmult_assoc. f_equal.
  destruct (dist i j) as [|[|q]] eqn:Ed; cbn [kern].
  - assert (i = j) as -> by (unfold dist in Ed; lia). rewrite Rmult_1_r, <- (hat_self af Ha). unfold dsum.
    apply bigsum_ext. intros t _. apply bigsum_ext. intros t' _. f_equal. f_equal. unfold dist. lia.
  - replace (hat0 af * (hat1 af / hat0 af)) with (hat1 af) by (field; lra). rewrite <- hat_next.
    assert (C : j = S i \/ i = S j) by (unfold dist in Ed; lia). destruct C as [->| ->].
    + apply bigsum_ext. intros t Ht. apply bigsum_ext. intros t' Ht'. f_equal. unfold dist. nia.
    + rewrite bigsum_swap. apply bigsum_ext. intros t Ht. apply bigsum_ext. intros t' Ht'. f_equal. unfold dist. nia.
  - rewrite Rmult_0_r. apply bigsum_0. intros t Ht. apply bigsum_0. intros t' Ht'. replace (af - _)%nat with 0%nat; [reflexivity|]. unfold dist in *. nia.
Qed.

(** ** The series *)
Lemma autocorr_phase detrend x af dmin dmax : (1 <= af)%nat ->
  autocorr_noise_id detrend x af "phase" dmin dmax = run detrend true 2 dmin dmax (tab ((len x + af - 1) / af) (fun j => x.[j * af])).
Proof. intros Ha. rewrite autocorr_prepared. destruct (C50_series detrend x af Ha) as (-> & _). reflexivity. Qed.
Lemma autocorr_freq detrend x af dmin dmax : (1 <= af)%nat ->
  autocorr_noise_id detrend x af "freq" dmin dmax =
  run detrend false 1 dmin dmax (tab (len x / af) (fun j => bigsum af (fun i => x.[j * af + i]) / INR af)).
Proof. intros Ha. rewrite autocorr_prepared. destruct (C50_series detrend x af Ha) as (_ & -> & _). reflexivity. Qed.

Lemma lin_point K af s i w : (i * af < K)%nat -> lin K (point af s i) w = s * w (i * af)%nat.
Proof. intros H. unfold point. rewrite lin_scal, lin_win by lia. cbn [bigsum]. rewrite Nat.add_0_r. ring. Qed.
Lemma lin_tri K af o s i w : (1 <= af)%nat -> (i * af + o + 2 * af <= K + 1)%nat ->
  lin K (tri af o s i) w = s * bigsum af (fun t => bigsum af (fun u => w (i * af + o + t + u)%nat)).
Proof.
  intros Ha H. unfold tri. rewrite lin_scal. f_equal. unfold lin, hat.
  rewrite (bigsum_ext K _ (fun x => bigsum af (fun t => win af (i * af + o + t) x * w x))) by (intros; now rewrite <- bigsum_scal_r).
  rewrite bigsum_swap. apply bigsum_ext. intros t Ht. apply (lin_win K af (i * af + o + t) w). lia.
Qed.
(** sums over a block of consecutive cumulative sums *)
Lemma cum_gap w p q : bigsum (S (p + q)) w - bigsum (S p) w = bigsum q (fun t => w (p + 1 + t)%nat).
Proof.
  replace (S (p + q)) with (S p + q)%nat by lia. rewrite bigsum_add. ring_simplify. apply bigsum_ext. intros t _. f_equal. lia.
Qed.
Lemma m4_cum N k w : (k < N)%nat -> bigsum N (fun j => coef (-4) k j * w j) = bigsum (S k) (fun r => bigsum (S r) w).
Proof.
  intros Hk. rewrite (bigsum_ext N _ (fun j => bigsum (S k) (fun r => coef (-2) r j * w j))).
  - rewrite bigsum_swap. apply bigsum_ext. intros r Hr. rewrite (bigsum_ext N _ (fun j => (if (j <=? r)%nat then 1 else 0) * w j)) by (intros; now rewrite coef_m2).
    replace N with (S r + (N - S r))%nat by lia. rewrite bigsum_add, (bigsum_0 (N - S r)).
    + rewrite Rplus_0_r. apply bigsum_ext. intros j Hj. destruct (Nat.leb_spec j r); [ring|lia].
    + intros j _. destruct (Nat.leb_spec (S r + j) r); [lia|ring].
  - intros j _. rewrite bigsum_scal_r. f_equal. rewrite coef_m4.
    rewrite (bigsum_ext (S k) _ (fun r => if (j <=? r)%nat then 1 else 0)) by (intros; apply coef_m2).
    destruct (le_gt_dec j (S k)) as [H|H].
    + replace (S k) with (j + (S k - j))%nat at 2 by lia. rewrite bigsum_add, (bigsum_0 j).
      * rewrite (bigsum_ext (S k - j) _ (fun _ => 1)); [rewrite bigsum_const; ring|]. intros i _. destruct (Nat.leb_spec j (j + i)); [reflexivity|lia].
      * intros i Hi. destruct (Nat.leb_spec j i); [lia|reflexivity].
    + replace (S k - j)%nat with 0%nat by lia. rewrite bigsum_0; [reflexivity|]. intros i Hi. destruct (Nat.leb_spec j i); [lia|reflexivity].
Qed.
Lemma m2_cum N k w : (k < N)%nat -> bigsum N (fun j => coef (-2) k j * w j) = bigsum (S k) w.
Proof.
  intros Hk. rewrite (bigsum_ext N _ (fun j => (if (j <=? k)%nat then 1 else 0) * w j)) by (intros; now rewrite coef_m2).
  replace N with (S k + (N - S k))%nat by lia. rewrite bigsum_add, (bigsum_0 (N - S k)).
  - rewrite Rplus_0_r. apply bigsum_ext. intros j Hj. destruct (Nat.leb_spec j k); [ring|lia].
  - intros j _. destruct (Nat.leb_spec (S k + j) k); [lia|ring].
Qed.
Lemma block_gap w p q :
  bigsum q (fun t => bigsum (S (p + q + t)) w) - bigsum q (fun t => bigsum (S (p + t)) w) = bigsum q (fun t => bigsum q (fun u => w (p + 1 + t + u)%nat)).
Proof.
  rewrite <- bigsum_minus. apply bigsum_ext. intros t _. replace (p + q + t)%nat with (p + t + q)%nat by lia. rewrite cum_gap.
  apply bigsum_ext. intros u _. f_equal. lia.
Qed.

(** the record of N points sampled every af points *)
Lemma sampled N af : (1 <= N)%nat -> (1 <= af)%nat -> let n := ((N + af - 1) / af)%nat in (1 <= n)%nat /\ ((n - 1) * af < N)%nat.
Proof.
  intros HN Ha n. assert (1 <= n)%nat by (apply Nat.div_le_lower_bound; lia). split; [assumption|].
  pose proof (Nat.mul_div_le (N + af - 1) af ltac:(lia)) as H1. fold n in H1. rewrite Nat.mul_sub_distr_r. nia.
Qed.

(** ** C97 *)
(** Phase data: noise_kasdin.Noise with b = 0 (white phase noise), -2 (white
    frequency noise), -4 (random-walk frequency noise). *)
Theorem C97_phase detrend E N qd b d af dmin dmax : least_squares detrend -> prob N E -> 0 < qd -> (1 <= N)%nat -> (1 <= af)%nat ->
  In (b, d) [(0, 0%Z); (-2, 1%Z); (-4, 2%Z)] -> (dmin <= d <= dmax)%Z ->
  let n := ((N + af - 1) / af)%nat in
  error_rate E (fun w => generateNoise w (mkNoise N qd b)) detrend af "phase" dmin dmax (2 - 2 * d) <= 2500000 / INR n.
Proof.
  intros HL HP Hq HN Ha Hb Hd n. pose proof (ga_white N E (pr_gauss N E HP)) as HW. set (s := sqrt qd).
  assert (Hs : 0 < s ^ 2) by (unfold s; rewrite pow2_sqrt; lra).
  destruct (sampled N af HN Ha) as (Hn1 & Hn2). fold n in Hn1, Hn2.
  set (X := fun (w : nat -> R) j => s * bigsum N (fun i => coef b (j * af) i * w i)).
  assert (HE : error_rate E (fun w => generateNoise w (mkNoise N qd b)) detrend af "phase" dmin dmax (2 - 2 * d) =
    E (missed detrend true 2 dmin dmax X n (2 - 2 * d))).
  { unfold error_rate. apply (wh_ext N E HW). intros w. pose proof (record_nth N qd b w) as HR. pose proof (record_len N qd b w HN) as HLn.
    unfold record in HR, HLn. destruct (generateNoise w (mkNoise N qd b)) as [x|e]; [|cbn in HLn; lia].
    rewrite autocorr_phase, HLn by assumption. fold n. unfold missed.
    rewrite (tab_ext n (fun j => x.[j * af]) (X w)); [reflexivity|]. intros j Hj. apply HR; nia. }
  rewrite HE.
  destruct Hb as [Hb|[Hb|[Hb|[]]]]; injection Hb as <- <-.
  - replace (2 - 2 * 0)%Z with (- 0 + 2)%Z by lia.
    apply (ident0 detrend true 2 dmin dmax N E (point af s) n (s ^ 2) 0 0 X); auto; try lia.
    + left. split; [lra|reflexivity].
    + apply cov_point; [exact Ha|]. intros i Hi. nia.
    + intros w i Hi. unfold V. rewrite lin_point by nia. unfold X. f_equal.
      rewrite (bigsum_ext N _ (fun j => w j * (if Nat.eqb (i * af) j then 1 else 0))) by (intros; rewrite coef_0; ring).
      apply bigsum_pick. nia.
  - replace (2 - 2 * 1)%Z with (- 0 - 2 + 2)%Z by lia. replace n with (S (n - 1)) by lia.
    apply (ident1 detrend true 2 dmin dmax N E (block1 af s) (n - 1) (s ^ 2 * INR af) 0 0 X); auto; try lia; try lra.
    + apply Rmult_lt_0_compat; [exact Hs|apply lt_0_INR; lia].
    + left. split; [lra|reflexivity].
    + apply cov_block1; [exact Ha|]. nia.
    + intros w i Hi. unfold V, block1. rewrite lin_scal, lin_win by nia. unfold dif, X. rewrite !m2_cum by nia.
      rewrite <- Rmult_minus_distr_l. f_equal. replace (S i * af)%nat with (i * af + af)%nat by lia. apply cum_gap.
  - replace (2 - 2 * 2)%Z with (- 0 - 4 + 2)%Z by lia.
    destruct (Nat.eq_dec n 1) as [E1|N1].
    { rewrite E1. change (INR 1) with 1. eapply Rle_trans; [apply (missed_le1 detrend true 2 dmin dmax N E X HP)|lra]. }
    replace n with (S (S (n - 2))) by lia.
    assert (Hh : ((n - 1) * af = (n - 2) * af + af /\ (n - 2 + 1) * af = (n - 2) * af + af)%nat) by nia.
    apply (ident2 detrend true 2 dmin dmax N E (tri af 2 s) (n - 2) (s ^ 2 * hat0 af) (hat1 af / hat0 af) 0 X); auto; try lia.
    + apply Rmult_lt_0_compat; [exact Hs|now apply hat0_pos].
    + left. split; [now apply hat_ratio|reflexivity].
    + apply cov_tri; [exact Ha|]. lia.
    + now apply hat_ratio.
    + intros w i Hi. unfold V. rewrite lin_tri by nia. unfold dif, X. rewrite !m4_cum by nia.
      set (c := fun r => bigsum (S r) w).
      pose proof (cum_gap c (i * af) af) as G1. pose proof (cum_gap c (S i * af) af) as G2.
      replace (S (S i) * af)%nat with (S i * af + af)%nat by lia. replace (S i * af)%nat with (i * af + af)%nat in * by lia.
      rewrite <- (bigsum_ext af (fun t => bigsum af (fun u => w (i * af + 1 + 1 + t + u)%nat))) by (intros; apply bigsum_ext; intros; f_equal; lia).
      rewrite <- (block_gap w (i * af + 1) af).
      replace (s * bigsum (S (i * af + af + af)) c - s * bigsum (S (i * af + af)) c - (s * bigsum (S (i * af + af)) c - s * bigsum (S (i * af)) c))
        with (s * ((bigsum (S (i * af + af + af)) c - bigsum (S (i * af + af)) c) - (bigsum (S (i * af + af)) c - bigsum (S (i * af)) c))) by ring.
      rewrite G1, G2. f_equal. f_equal. apply bigsum_ext. intros t _. unfold c. f_equal. lia.
Qed.
Print Assumptions C97_phase.

(** Frequency data: noise.white, noise.brown (random-walk frequency noise) and
    noise.violet (white phase noise), with a positive level. *)
Lemma freq_rate detrend E K gen N s0 (f : (nat -> R) -> nat -> R) af dmin dmax al : white K E ->
  (1 <= af)%nat -> (forall w, gen w = Ok (tab N (f w))) ->
  (forall w i, (i < N / af)%nat -> bigsum af (fun t => f w (i * af + t)%nat) / INR af = s0 w i) ->
  error_rate E gen detrend af "freq" dmin dmax al = E (missed detrend false 1 dmin dmax s0 (N / af) al).
Proof.
  intros HW Ha Hg Hs. unfold error_rate. apply (wh_ext K E HW). intros w. rewrite Hg, autocorr_freq, tab_length by exact Ha. unfold missed.
  rewrite (tab_ext (N / af) _ (s0 w)); [reflexivity|]. intros i Hi. cbv beta. rewrite <- (Hs w i Hi). f_equal. apply bigsum_ext. intros t Ht.
  rewrite nth_tab; [reflexivity|]. pose proof (Nat.mul_div_le N af ltac:(lia)). nia.
Qed.
Lemma wscale_pos b fs : 0 < b -> 0 < fs -> 0 < wscale b fs.
Proof. intros Hb Hf. unfold wscale. apply sqrt_lt_R0. nra. Qed.

Theorem C97_freq_white detrend E N b fs af dmin dmax : least_squares detrend -> prob N E -> 0 < b -> 0 < fs -> (1 <= af <= N)%nat ->
  (dmin <= 0)%Z ->
  error_rate E (fun w => ModelNoise.white w N b fs) detrend af "freq" dmin dmax 0 <= 2500000 / INR (N / af).
Proof.
  intros HL HP Hb Hf Ha Hd. pose proof (ga_white N E (pr_gauss N E HP)) as HW.
  assert (HA : 0 < INR af) by (apply lt_0_INR; lia). pose proof (wscale_pos b fs Hb Hf) as HS. set (s := wscale b fs / INR af).
  assert (Hs : 0 < s) by now apply Rdiv_lt_0_compat.
  pose proof (Nat.mul_div_le N af ltac:(lia)) as HM.
  set (X := fun (w : nat -> R) i => s * bigsum af (fun t => w (i * af + t)%nat)).
  rewrite (freq_rate detrend E N _ N X (fun w i => wscale b fs * w i)); [|exact HW|lia|intros; apply white_series; lra|].
  2:{ intros w i _. rewrite bigsum_scal. unfold X, s. field. lra. }
  change 0%Z with (- 0 + 0)%Z at 1.
  apply (ident0 detrend false 1 dmin dmax N E (block af s) (N / af) (s ^ 2 * INR af) 0 0 X); auto; try lia.
  - apply Rmult_lt_0_compat; [now apply pow_lt|exact HA].
  - left. split; [lra|reflexivity].
  - apply cov_block; lia.
  - apply Nat.div_le_lower_bound; lia.
  - intros w i Hi. unfold V, block. rewrite lin_scal, lin_win by nia. unfold X. f_equal. apply bigsum_ext. intros; f_equal; lia.
Qed.
Print Assumptions C97_freq_white.

Theorem C97_freq_brown detrend E N b fs af dmin dmax : least_squares detrend -> prob N E -> 0 < b -> 0 < fs -> (1 <= af <= N)%nat ->
  (dmin <= 1 <= dmax)%Z ->
  error_rate E (fun w => brown PI w N b fs) detrend af "freq" dmin dmax (-2) <= 2500000 / INR (N / af).
Proof.
  intros HL HP Hb Hf Ha Hd. pose proof (ga_white N E (pr_gauss N E HP)) as HW.
  assert (HA : 0 < INR af) by (apply lt_0_INR; lia).
  assert (HB : 0 < b * (4 * PI * PI)) by (pose proof PI_RGT_0; assert (0 < 4 * PI * PI) by nra; nra).
  pose proof (wscale_pos _ fs HB Hf) as HS. set (c := wscale (b * (4 * PI * PI)) fs / fs).
  assert (Hc : 0 < c) by now apply Rdiv_lt_0_compat.
  set (s := c / INR af). assert (Hs : 0 < s) by now apply Rdiv_lt_0_compat.
  pose proof (Nat.mul_div_le N af ltac:(lia)) as HM.
  assert (H1 : (1 <= N / af)%nat) by (apply Nat.div_le_lower_bound; lia). set (n := (N / af)%nat) in *.
  set (X := fun (w : nat -> R) i => s * bigsum af (fun t => bigsum (S (i * af + t)) w)).
  rewrite (freq_rate detrend E N _ N X (fun w i => c * bigsum (S i) w)); [|exact HW|lia|intros; apply brown_series; lra|].
  2:{ intros w i _. rewrite bigsum_scal. unfold X, s. field. lra. }
  fold n. change (-2)%Z with (- 0 - 2 + 0)%Z. replace n with (S (n - 1)) by lia.
  assert (Hh : ((n - 1 + 1) * af = af * n)%nat) by nia.
  apply (ident1 detrend false 1 dmin dmax N E (tri af 1 s) (n - 1) (s ^ 2 * hat0 af) (hat1 af / hat0 af) 0 X); auto; try lia.
  - apply Rmult_lt_0_compat; [now apply pow_lt|apply hat0_pos; lia].
  - left. split; [apply hat_ratio; lia|reflexivity].
  - apply cov_tri; lia.
  - apply hat_ratio; lia.
  - intros w i Hi. unfold V. rewrite lin_tri by nia. unfold dif, X. rewrite <- Rmult_minus_distr_l. f_equal.
    rewrite <- (block_gap w (i * af) af). f_equal. apply bigsum_ext. intros t _. f_equal. lia.
Qed.
Print Assumptions C97_freq_brown.

Theorem C97_freq_violet detrend E N b fs af dmin dmax : least_squares detrend -> prob (N + 1) E -> 0 < b -> 0 < fs -> (1 <= af <= N)%nat ->
  (dmin <= 0)%Z ->
  error_rate E (fun w => violet PI w N b fs) detrend af "freq" dmin dmax 2 <= 2500000 / INR (N / af).
Proof.
  intros HL HP Hb Hf Ha Hd. pose proof (ga_white (N + 1) E (pr_gauss (N + 1) E HP)) as HW.
  assert (HA : 0 < INR af) by (apply lt_0_INR; lia).
  assert (HB : 0 < b / (2 * PI) ^ 2) by (apply Rdiv_lt_0_compat; [exact Hb|apply pow_lt; pose proof PI_RGT_0; lra]).
  pose proof (wscale_pos _ fs HB Hf) as HS. set (c := fs * wscale (b / (2 * PI) ^ 2) fs).
  assert (Hc : 0 < c) by now apply Rmult_lt_0_compat.
  set (s := c / INR af). assert (Hs : 0 < s) by now apply Rdiv_lt_0_compat.
  pose proof (Nat.mul_div_le N af ltac:(lia)) as HM.
  set (X := fun (w : nat -> R) i => s * (w (S i * af)%nat - w (i * af)%nat)).
  rewrite (freq_rate detrend E (N + 1) _ N X (fun w i => c * (w (S i) - w i))); [|exact HW|lia|intros; apply violet_series; lra|].
  2:{ intros w i _. rewrite bigsum_scal. unfold X, s.
      rewrite (bigsum_ext af _ (fun t => (fun u => w (i * af + u)%nat) (S t) - (fun u => w (i * af + u)%nat) t)) by (intros; cbv beta; f_equal; f_equal; lia).
      rewrite (bigsum_telescope af (fun u => w (i * af + u)%nat)). replace (S i * af)%nat with (i * af + af)%nat by lia. rewrite Nat.add_0_r. field. lra. }
  change 2%Z with (- (-2) + 0)%Z.
  apply (ident0 detrend false 1 dmin dmax (N + 1) E (step af s) (N / af) (2 * s ^ 2) (- (1 / 2)) (-2) X); auto; try lia.
  - assert (0 < s ^ 2) by now apply pow_lt. lra.
  - right. split; [lra|reflexivity].
  - apply cov_step; lia.
  - apply Nat.div_le_lower_bound; lia.
  - intros w i Hi. unfold V, step. rewrite lin_scal. unfold X. f_equal.
    assert (L : forall p, (p * af < N + 1)%nat -> w (p * af)%nat = lin (N + 1) (win 1 (p * af)) w).
    { intros p Hp. rewrite lin_win by lia. cbn [bigsum]. rewrite Nat.add_0_r. ring. }
    rewrite (L (S i)), (L i) by nia. unfold lin. rewrite <- bigsum_minus. apply bigsum_ext. intros; ring.
Qed.
Print Assumptions C97_freq_violet.

(** As the record grows at a fixed averaging factor the answer is right with
    probability tending to one. *)
Theorem C97_consistent detrend af qd b d dmin dmax eps : least_squares detrend -> 0 < qd -> (1 <= af)%nat ->
  In (b, d) [(0, 0%Z); (-2, 1%Z); (-4, 2%Z)] -> (dmin <= d <= dmax)%Z -> 0 < eps ->
  exists N0, forall N E, (N0 <= N)%nat -> prob N E ->
    error_rate E (fun w => generateNoise w (mkNoise N qd b)) detrend af "phase" dmin dmax (2 - 2 * d) <= eps.
Proof.
  intros HL Hq Ha Hb Hd He. destruct (INR_above (2500000 / eps)) as (k & Hk). exists (S k * af)%nat. intros N E HN HP.
  eapply Rle_trans; [apply C97_phase; auto; nia|].
  assert (Hn : (S k <= (N + af - 1) / af)%nat) by (apply Nat.div_le_lower_bound; nia).
  apply le_INR in Hn. rewrite S_INR in Hn.
  assert (H0 : 0 < 2500000 / eps) by (apply Rdiv_lt_0_compat; lra).
  set (n := INR ((N + af - 1) / af)) in *. assert (P : 0 < n) by lra.
  apply (Rmult_le_reg_r n); [exact P|]. unfold Rdiv. rewrite Rmult_assoc, Rinv_l, Rmult_1_r by lra.
  replace 2500000 with (eps * (2500000 / eps)) by (field; lra). apply Rmult_le_compat_l; lra.
Qed.
Print Assumptions C97_consistent.

(** ** The hypotheses can be met *)
(** least-squares removal with the discrete orthogonal polynomials *)
Definition ls_detrend (x : list R) (deg : nat) : res (list R) :=
  let n := len x in
  let a0 := bigsum n (fun t => x.[t]) / INR n in
  let a1 := bigsum n (fun t => x.[t] * P1 n t) / N1 n in
  let a2 := if Nat.eqb deg 2 then bigsum n (fun t => x.[t] * P2 n t) / N2 n else 0 in
  Ok (tab n (fun t => x.[t] - gram n a0 a1 a2 t)).
Example C97_ex_detrend : least_squares ls_detrend.
Proof.
  intros x deg Hdeg Hn. set (n := len x) in *.
  set (a0 := bigsum n (fun t => x.[t]) / INR n). set (a1 := bigsum n (fun t => x.[t] * P1 n t) / N1 n).
  set (a2 := if Nat.eqb deg 2 then bigsum n (fun t => x.[t] * P2 n t) / N2 n else 0).
  pose proof (N1_pos n Hn) as H1. pose proof (N2_pos n Hn) as H2. assert (H0 : 0 < INR n) by (apply lt_0_INR; lia).
  exists (fun k => match k with O => a0 - a1 * tau n + a2 * (tau n ^ 2 - kap n) | 1%nat => a1 - 2 * a2 * tau n | _ => a2 end).
  assert (EP : forall t, bigsum (S deg) (fun k => match k with O => a0 - a1 * tau n + a2 * (tau n ^ 2 - kap n) | 1%nat => a1 - 2 * a2 * tau n | _ => a2 end * INR t ^ k) = gram n a0 a1 a2 t).
  { intros t. assert (A2 : deg = 2%nat \/ a2 = 0) by (unfold a2; destruct Hdeg as [-> | ->]; [now right|now left]).
    clearbody a0 a1 a2. unfold gram, P1, P2. destruct Hdeg as [D|D]; rewrite D; cbn [bigsum]; [destruct A2 as [A2| ->]; [lia|]|]; ring. }
  split.
  - unfold ls_detrend. fold n a0 a1 a2. f_equal. apply tab_ext. intros i Hi. now rewrite EP.
  - assert (O : forall b0 b1 b2, (deg = 2%nat \/ b2 = 0) -> bigsum n (fun t => (x.[t] - gram n a0 a1 a2 t) * gram n b0 b1 b2 t) = 0).
    { intros b0 b1 b2 Hb.
      rewrite (bigsum_ext n _ (fun t => (b0 * x.[t] + b1 * (x.[t] * P1 n t) + b2 * (x.[t] * P2 n t)) - gram n a0 a1 a2 t * gram n b0 b1 b2 t))
        by (intros; unfold gram; ring).
      rewrite bigsum_minus, !bigsum_plus, !bigsum_scal, gram_dot.
      replace (bigsum n (fun t => x.[t])) with (INR n * a0) by (unfold a0; field; lra).
      replace (bigsum n (fun t => x.[t] * P1 n t)) with (N1 n * a1) by (unfold a1; field; lra).
      destruct Hb as [-> | ->]; [|ring].
      replace (bigsum n (fun t => x.[t] * P2 n t)) with (N2 n * a2) by (unfold a2; cbn [Nat.eqb]; field; lra). ring. }
    intros k Hk.
    destruct k as [|[|[|k]]]; [| | |lia].
    + etransitivity; [|apply (O 1 0 0); now right]. apply bigsum_ext. intros t _. rewrite EP. unfold gram. ring.
    + etransitivity; [|apply (O (tau n) 1 0); now right]. apply bigsum_ext. intros t _. rewrite EP. unfold gram, P1. ring.
    + etransitivity; [|apply (O (tau n ^ 2 + kap n) (2 * tau n) 1); left; lia]. apply bigsum_ext. intros t _. rewrite EP. unfold gram, P1, P2. ring.
Qed.
(** three-valued samples (-sqrt 3, 0, sqrt 3 with probabilities 1/6, 2/3, 1/6) have the moments required *)
Example C97_ex_prob N : prob N (trip N).
Proof. apply trip_prob. Qed.
(** 10^10 points at averaging factor 5: wrong in at most 0.125 % of the cases *)
Example C97_ex : error_rate (trip (Z.to_nat 10000000000)) (fun w => generateNoise w (mkNoise (Z.to_nat 10000000000) 1 (-4))) ls_detrend 5 "phase" 0 2 (-2)
  <= 125 / 100000.
Proof.
  set (N := Z.to_nat 10000000000). assert (HN : N = Z.to_nat 10000000000) by reflexivity. clearbody N.
  eapply Rle_trans; [apply (C97_phase ls_detrend (trip N) N 1 (-4) 2 5 0 2 C97_ex_detrend (C97_ex_prob N)); try lra; try lia; cbn; auto|].
  assert (Hn : ((N + 5 - 1) / 5 = Z.to_nat 2000000000)%nat).
  { symmetry. apply (Nat.div_unique _ 5 _ 4); lia. }
  rewrite Hn, INR_IZR_INZ, Z2Nat.id by lia. lra.
Qed.
