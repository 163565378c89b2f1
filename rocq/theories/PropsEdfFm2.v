(** * Degrees of freedom of the unmodified variances for white frequency noise: the resampled branch and all branches together (C95) *)
From Coq Require Import String Reals List ZArith Bool Arith Lia Lra Psatz.
From Verif Require Import Base Num NpList NumR Spec ListFacts RSum Dft ModelCore ModelDev ModelNoise ModelNoiseR ModelCiR
  DevProofs TotProofs NoiseProofs GreenProofs GreenTab CiProofs PropsKasdin PropsExpect PropsDev PropsEdf PropsGreen PropsGreenTab PropsEdfFm EdfResample.
Import ListNotations.
Local Open Scope R_scope.
Local Notation len := List.length.

(** More than 100 terms, but fewer than d+1 averaging times: edf_greenhall replaces the M terms by 100 spread over the same range. *)
Theorem C95_resampled fn d N m rate qd E : unmodified fn d true -> gaussian N E -> 0 < qd -> 0 < rate -> (d * m + 100 < N)%nat -> (N <= (2 * d + 1) * m)%nat ->
  exists e e', edf_greenhall 0 d (Z.of_nat m) (Z.of_nat N) true false = Ok e /\
    edf_of E (fun w => dev2 fn rate m (record N qd (-2) w)) e' /\ 0 < e' /\ 95 / 100 <= e / e' <= 105 / 100.
Proof.
  intros Hu HG Hq Hr H100 Hd. assert (Hd23 : (d = 2 \/ d = 3)%nat) by (inversion Hu; lia). assert (Hm : (1 <= m)%nat) by lia. assert (Hm1 : (1 <= Z.of_nat m)%Z) by lia.
  assert (ET : terms d (Z.of_nat m) (Z.of_nat N) true false = Z.of_nat (N - d * m)) by (unfold terms; lia).
  destruct (C95_true fn d true N m rate qd E Hu HG Hq Hr) as (e' & He' & HE); try lia.
  rewrite ET in He'. set (M := (N - d * m)%nat) in *. assert (HM : (100 < M)%nat) by lia. assert (HMd : (M <= (d + 1) * m)%nat) by lia.
  set (r := INR M / INR m). assert (Pm : 0 < INR m) by (apply lt_0_INR; lia). assert (PM : 0 < INR M) by (apply lt_0_INR; lia).
  assert (Hr0 : 0 < r) by (unfold r; apply Rmult_lt_0_compat; [exact PM|now apply Rinv_0_lt_compat]).
  assert (Hrd : r <= INR d + 1).
  { unfold r. apply Rmult_le_reg_r with (INR m); [exact Pm|]. unfold Rdiv. rewrite Rmult_assoc, Rinv_l, Rmult_1_r by lra.
    apply le_INR in HMd. rewrite mult_INR, plus_INR in HMd. exact HMd. }
  assert (Hr4 : r <= 4) by (destruct Hd23 as [-> | ->]; cbn [INR] in Hrd; lra).
  destruct (resample_close d r M Hd23 ltac:(lra) ltac:(lia)) as [T0 T1]. apply abs_le_inv in T1. set (t := trapz (gf d r) M) in *. set (s := trapz (gf d r) 100) in *.
  assert (S0 : 0 < s) by lra.
  assert (Ee' : e' = / (2 * t)).
  { pose proof (basic_trapz d M r Hd23 Hr0 ltac:(lia) T0) as B. unfold full_edf, stride in He'. rewrite Z.min_l in He' by lia.
    replace (INR M / r) with (IZR (Z.of_nat m)) in B by (rewrite <- INR_IZR_INZ; unfold r; field; lra). rewrite B in He'. now injection He' as <-. }
  exists (/ (2 * s)), e'. split; [|split; [exact HE|split; [destruct HE; assumption|]]].
  - pose proof (basic_trapz d 100 r Hd23 Hr0 ltac:(lia) S0) as B. fold s in B. rewrite <- B. rewrite edf_unfold by lia. cbv zeta.
    pose proof (M_terms d (Z.of_nat m) (Z.of_nat N) true false Hm1) as HMt. cbn [stride] in HMt. rewrite HMt, ET.
    change (0 <=? 0)%Z with true. cbv iota. rewrite (proj2 (Z.leb_gt _ 100)) by (unfold M in *; lia). rewrite <- !INR_IZR_INZ. fold M. fold r.
    rewrite (proj2 (Rltb_false _ _)) by lra. replace (INR 100) with 100 by (rewrite INR_IZR_INZ; reflexivity). reflexivity.
  - rewrite Ee'. replace (/ (2 * s) / / (2 * t)) with (t / s) by (field; lra).
    split; apply Rmult_le_reg_r with s; try exact S0; unfold Rdiv; rewrite (Rmult_assoc t), Rinv_l, Rmult_1_r by lra; lra.
Qed.
Print Assumptions C95_resampled.

(** Every averaging factor and record length with at least two terms: the degrees of freedom are never wrong by more than a fifth. *)
Theorem C95_all fn d o N m rate qd E : unmodified fn d o -> gaussian N E -> 0 < qd -> 0 < rate -> (1 <= m)%nat -> (d * m < N)%nat ->
  (2 <= terms d (Z.of_nat m) (Z.of_nat N) o false)%Z ->
  exists e e', edf_greenhall 0 d (Z.of_nat m) (Z.of_nat N) o false = Ok e /\
    edf_of E (fun w => dev2 fn rate m (record N qd (-2) w)) e' /\ 0 < e' /\ 88 / 100 <= e / e' <= 119 / 100.
Proof.
  intros Hu HG Hq Hr Hm Hd HM. destruct (Nat.le_gt_cases ((d + 1) * m) 100) as [Hs|Hs].
  - now apply (C95_small fn d o N m rate qd E).
  - destruct o; [destruct (Nat.le_gt_cases (N - d * m) 100) as [H1|H1]; [|destruct (Nat.le_gt_cases N ((2 * d + 1) * m)) as [H2|H2]]|].
    + destruct (C95_exact fn d true N m rate qd E Hu HG Hq Hr Hd HM Hs) as (e & He & HE); [intros _; unfold terms; lia|].
      exists e, e. destruct HE as [P HE]. split; [exact He|]. split; [split; assumption|]. split; [exact P|]. replace (e / e) with 1 by (field; lra). lra.
    + destruct (C95_resampled fn d N m rate qd E Hu HG Hq Hr) as (e & e' & H3 & H4 & H5 & H6); [lia|lia|]. exists e, e'. repeat split; try assumption; try apply H4; lra.
    + destruct (C95_table fn d N m rate qd E Hu HG Hq Hr Hs) as (e & e' & H3 & H4 & H5 & H6); [lia|]. apply abs_le_inv in H6. exists e, e'. repeat split; try assumption; try apply H4; lra.
    + destruct (C95_exact fn d false N m rate qd E Hu HG Hq Hr Hd HM Hs) as (e & He & HE); [discriminate|].
      exists e, e. destruct HE as [P HE]. split; [exact He|]. split; [split; assumption|]. split; [exact P|]. replace (e / e) with 1 by (field; lra). lra.
Qed.
Print Assumptions C95_all.

(** ** The modified Allan variance and the time deviation of white phase noise *)
Lemma ok_inj (a b : R) : Ok a = Ok b -> a = b.
Proof. congruence. Qed.
Lemma mod_trapz (m n : nat) r : (1 <= m)%nat -> (100 <= n)%nat -> r = INR n / INR m -> (n <= 3 * m)%nat ->
  0 < trapz (gf 3 r) n /\ (INR n * rm m 0) ^ 2 / dsum n (fun j => rm m j ^ 2) = / (2 * trapz (gf 3 r) n).
Proof.
  intros Hm Hn Er Hnm. assert (Pm : 0 < INR m) by (apply lt_0_INR; lia). assert (Pn : 0 < INR n) by (apply lt_0_INR; lia).
  assert (Hr0 : 0 < r) by (rewrite Er; apply Rmult_lt_0_compat; [exact Pn|now apply Rinv_0_lt_compat]).
  assert (Hr3 : r <= 3).
  { rewrite Er. apply Rmult_le_reg_r with (INR m); [exact Pm|]. unfold Rdiv. rewrite Rmult_assoc, Rinv_l, Rmult_1_r by lra.
    apply le_INR in Hnm. rewrite mult_INR in Hnm. replace (INR 3) with 3 in Hnm by (cbn; lra). lra. }
  destruct (resample_close 3 r n ltac:(auto) ltac:(lra) ltac:(lia)) as [T0 _]. split; [exact T0|].
  pose proof (basic_trapz_mod n r Hr0 ltac:(lia) T0) as B. pose proof (basic_pm_mod m n Hm ltac:(lia)) as B'.
  replace (INR n / r) with (IZR (Z.of_nat m)) in B by (rewrite <- INR_IZR_INZ, Er; field; lra). rewrite Z.min_l in B' by lia. rewrite B in B'. symmetry. now apply ok_inj.
Qed.
Theorem C82_white_pm_mod (fn : list R -> R -> string -> taus_arg R -> res result) N m rate qd E : fn = mdev \/ fn = tdev -> gaussian N E -> 0 < qd -> 0 < rate -> (1 <= m)%nat -> (3 * m < N)%nat ->
  exists e e', edf_greenhall 2 2 (Z.of_nat m) (Z.of_nat N) true true = Ok e /\
    edf_of E (fun w => dev2 fn rate m (record N qd 0 w)) e' /\ 95 / 100 <= e / e' <= 105 / 100.
Proof.
  intros Hf HG Hq Hr Hm HN. set (n := (N - 3 * m + 1)%nat).
  set (e' := (INR n * rm m 0) ^ 2 / dsum n (fun j => rm m j ^ 2)).
  assert (HE : edf_of E (fun w => dev2 fn rate m (record N qd 0 w)) e').
  { destruct Hf as [-> | ->]; [now apply mdev_edf_of|]. apply tdev_edf_of; auto. now apply mdev_edf_of. }
  assert (P : 0 < e') by apply HE. assert (Pm : 0 < INR m) by (apply lt_0_INR; lia).
  destruct (Nat.le_gt_cases (Nat.min n (3 * m)) 100) as [HJ|HJ].
  - exists e', e'. split; [apply edf_pm_mod; auto; unfold n; lia|]. split; [exact HE|]. replace (e' / e') with 1 by (field; lra). lra.
  - assert (Hm1 : (1 <= Z.of_nat m)%Z) by lia.
    assert (ET : terms 2 (Z.of_nat m) (Z.of_nat N) true true = Z.of_nat n) by (unfold terms, n; lia).
    destruct (Nat.le_gt_cases n (3 * m)) as [H3|H3].
    + set (r := INR n / INR m). destruct (mod_trapz m n r Hm ltac:(lia) eq_refl H3) as [T0 Et]. fold e' in Et.
      assert (Pn : 0 < INR n) by (apply lt_0_INR; lia).
      assert (Hr0 : 0 < r) by (unfold r; apply Rmult_lt_0_compat; [exact Pn|now apply Rinv_0_lt_compat]).
      assert (Hr3 : r <= 3).
      { unfold r. apply Rmult_le_reg_r with (INR m); [exact Pm|]. unfold Rdiv. rewrite Rmult_assoc, Rinv_l, Rmult_1_r by lra.
        apply le_INR in H3. rewrite mult_INR in H3. replace (INR 3) with 3 in H3 by (cbn; lra). lra. }
      destruct (resample_close 3 r n ltac:(auto) ltac:(lra) ltac:(lia)) as [_ T1]. apply abs_le_inv in T1. set (t := trapz (gf 3 r) n) in *. set (s := trapz (gf 3 r) 100) in *.
      assert (S0 : 0 < s) by lra. exists (/ (2 * s)), e'. split; [|split; [exact HE|]].
      * pose proof (basic_trapz_mod 100 r Hr0 ltac:(lia) S0) as B. fold s in B. rewrite <- B. rewrite edf_unfold by lia. cbv zeta.
        pose proof (M_terms 2 (Z.of_nat m) (Z.of_nat N) true true Hm1) as HMt. cbn [stride] in HMt. rewrite HMt, ET.
        rewrite (proj2 (Z.leb_gt _ 100)) by lia. rewrite <- !INR_IZR_INZ. fold r.
        rewrite (proj2 (Rltb_false _ _)) by (cbn [INR]; lra). replace (INR 100) with 100 by (rewrite INR_IZR_INZ; reflexivity). reflexivity.
      * rewrite Et. replace (/ (2 * s) / / (2 * t)) with (t / s) by (field; lra).
        split; apply Rmult_le_reg_r with s; try exact S0; unfold Rdiv; rewrite (Rmult_assoc t), Rinv_l, Rmult_1_r by lra; lra.
    + destruct (C93_even (Some 1) 2 2 (Z.of_nat m) (Z.of_nat N)) as (a0 & a1 & e & e2 & _ & He & _ & He2 & E0 & H); cbn [modified]; try lia.
      * split; [|split; [reflexivity|lia]]. unfold kernel_case. split; [lia|]. split; [lia|]. left. split; [reflexivity|lia].
      * cbn [modified] in *. rewrite ET in He2. unfold full_edf in He2. change (Z.of_nat 2 + 1)%Z with 3%Z in He2. rewrite (basic_pm_mod m n Hm) in He2 by lia. apply ok_inj in He2. fold e' in He2. subst e2.
        apply abs_le_inv in H. exists e, e'. split; [exact He|]. split; [exact HE|]. lra.
Qed.
Print Assumptions C82_white_pm_mod.

Example C95_ex_resampled : exists e e', edf_greenhall 0 3 80 450 true false = Ok e /\ edf_of (trip 450) (fun w => dev2 ohdev 1 80 (record 450 1 (-2) w)) e' /\ 95 / 100 <= e / e' <= 105 / 100.
Proof.
  destruct (C95_resampled ohdev 3 450 80 1 1 (trip 450)) as (e & e' & H1 & H2 & _ & H3); try apply trip_gaussian; try lra; try lia; try constructor. exists e, e'. auto.
Qed.
Example C82_ex_mod : exists e e', edf_greenhall 2 2 60 300 true true = Ok e /\ edf_of (trip 300) (fun w => dev2 tdev 1 60 (record 300 1 0 w)) e' /\ 95 / 100 <= e / e' <= 105 / 100.
Proof. apply (C82_white_pm_mod tdev 300 60 1 1 (trip 300)); try apply trip_gaussian; auto; try lra; lia. Qed.
