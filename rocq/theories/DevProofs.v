(** * Closed forms of adev, oadev, hdev, ohdev, mdev, tdev, pdev, gcodev. *)
From Coq Require Import String Reals List ZArith Lra Lia Arith Bool Sorted.
From Verif Require Import Base Num NpList ModelCore ModelDev NumR ListFacts Spec RSum TauProofs.
Import ListNotations.
Local Open Scope R_scope.
Local Notation len := List.length.

Ltac rn := cbn [nadd nsub nmul ndiv nsqrt nabs ofZ nltb nleb neqb RNum].

Lemma min3_eq a b c : (c <= b)%nat -> (b <= a)%nat -> min3 a b c = c.
Proof. unfold min3. lia. Qed.
Lemma min4_eq a b c d : (d <= c)%nat -> (c <= b)%nat -> (b <= a)%nat -> min4 a b c d = d.
Proof. unfold min4, min3. lia. Qed.

Lemma stride_count_mono n a b s : (a <= b)%nat -> (1 <= s)%nat ->
  (stride_count n b s <= stride_count n a s)%nat.
Proof.
  intros H Hs. unfold stride_count. apply Nat.div_le_mono; lia.
Qed.

Lemma second_diff_tab n n2 n1 n0 (f2 f1 f0 : nat -> R) :
  (n <= n2)%nat -> (n <= n1)%nat -> (n <= n0)%nat ->
  second_diff n (tab n2 f2) (tab n1 f1) (tab n0 f0) =
  Ok (tab n (fun i => f2 i - 2 * f1 i + f0 i)).
Proof.
  intros H2 H1 H0. unfold second_diff, scal, vsub, vadd.
  rewrite !firstn_tab, !Nat.min_l by assumption.
  rewrite map_tab, bmap2_tab. cbn [bind]. rewrite bmap2_tab. reflexivity.
Qed.

Lemma third_diff_tab n n3 n2 n1 n0 (f3 f2 f1 f0 : nat -> R) :
  (n <= n3)%nat -> (n <= n2)%nat -> (n <= n1)%nat -> (n <= n0)%nat ->
  third_diff n (tab n3 f3) (tab n2 f2) (tab n1 f1) (tab n0 f0) =
  Ok (tab n (fun i => f3 i - 3 * f2 i + 3 * f1 i - f0 i)).
Proof.
  intros H3 H2 H1 H0. unfold third_diff, scal, vsub, vadd.
  rewrite !firstn_tab, !Nat.min_l by assumption.
  rewrite !map_tab, bmap2_tab. cbn [bind]. rewrite bmap2_tab. cbn [bind].
  rewrite bmap2_tab. reflexivity.
Qed.

Lemma sumsq_tab n (f : nat -> R) : sumsq (tab n f) = bigsum n (fun i => f i ^ 2).
Proof.
  unfold sumsq. rewrite map_tab, asum_tab. apply bigsum_ext. intros. apply nsq_R.
Qed.

(** broadcasting with one empty operand (the n==0 branch of calc_adev_phase) *)
Lemma bmap2_nil_l {A B C} (g : A -> B -> C) b : (len b <= 1)%nat -> bmap2 g [] b = Ok [].
Proof. destruct b as [|y [|z t]]; cbn; intros; try reflexivity; lia. Qed.

Lemma second_diff_short (d2 d1 d0 : list R) :
  d2 = [] -> second_diff 1 d2 d1 d0 = Ok [].
Proof.
  intros ->. unfold second_diff, vsub, vadd, scal.
  rewrite firstn_nil, bmap2_nil_l by (rewrite map_length, firstn_length; lia).
  cbn [bind]. apply bmap2_nil_l. rewrite firstn_length. lia.
Qed.

Lemma calc_adev_tab N f rate m s :
  (1 <= s)%nat -> (1 <= stride_count N (2 * m) s)%nat ->
  let n := stride_count N (2 * m) s in
  let dev := sqrt (bigsum n (fun k => (f (2 * m + k * s)%nat - 2 * f (m + k * s)%nat + f (k * s)%nat) ^ 2)
                   / (2 * INR n)) / INR m * rate in
  calc_adev_phase (tab N f) rate m s = Ok (dev, dev / sqrt (INR n), Z.of_nat n).
Proof.
  intros Hs Hn n dev. unfold calc_adev_phase.
  rewrite !pystride_tab by exact Hs. cbn [bind]. rewrite !tab_length.
  rewrite min3_eq; [|apply stride_count_mono; lia|apply stride_count_mono; lia].
  fold n. destruct (Nat.eqb_spec n 0) as [C|_]; [unfold n in C; lia|].
  rewrite second_diff_tab; [|apply Nat.le_refl|apply stride_count_mono; lia|apply stride_count_mono; lia].
  cbn [bind]. rewrite sumsq_tab, !ofN_INR. rn.
  unfold dev. rewrite (bigsum_ext n _ (fun k => (f (2 * m + k * s)%nat - 2 * f (m + k * s)%nat + f (k * s)%nat) ^ 2));
    [reflexivity|].
  intros; repeat (f_equal; try lia).
Qed.

Lemma calc_adev_short N f rate m s :
  (1 <= s)%nat -> stride_count N (2 * m) s = 0%nat ->
  exists d e, calc_adev_phase (tab N f) rate m s = Ok (d, e, 1%Z).
Proof.
  intros Hs Hn. unfold calc_adev_phase.
  rewrite !pystride_tab by exact Hs. cbn [bind]. rewrite !tab_length.
  rewrite min3_eq; [|apply stride_count_mono; lia|apply stride_count_mono; lia].
  rewrite Hn. cbn [Nat.eqb]. rewrite second_diff_short by reflexivity. cbn [bind].
  eexists _, _. reflexivity.
Qed.

Lemma calc_hdev_tab N f rate m s :
  (1 <= s)%nat -> (1 <= stride_count N (3 * m) s)%nat ->
  let n := stride_count N (3 * m) s in
  let dev := sqrt (bigsum n (fun k => (f (3 * m + k * s)%nat - 3 * f (2 * m + k * s)%nat
                                       + 3 * f (m + k * s)%nat - f (k * s)%nat) ^ 2)
                   / 6 / INR n) / (1 / rate * INR m) in
  calc_hdev_phase (tab N f) rate m s = Ok (dev, dev / sqrt (INR n), Z.of_nat n).
Proof.
  intros Hs Hn n dev. unfold calc_hdev_phase.
  rewrite !pystride_tab by exact Hs. cbn [bind]. rewrite !tab_length.
  rewrite min4_eq; [|apply stride_count_mono; lia|apply stride_count_mono; lia|apply stride_count_mono; lia].
  fold n.
  rewrite third_diff_tab; [|apply Nat.le_refl|apply stride_count_mono; lia|apply stride_count_mono; lia|apply stride_count_mono; lia].
  cbn [bind]. destruct (Nat.eqb_spec n 0) as [C|_]; [unfold n in C; lia|].
  rewrite sumsq_tab, !ofN_INR. rn.
  unfold dev. rewrite (bigsum_ext n _ (fun k => (f (3 * m + k * s)%nat - 3 * f (2 * m + k * s)%nat
                                       + 3 * f (m + k * s)%nat - f (k * s)%nat) ^ 2));
    [reflexivity|].
  intros; repeat (f_equal; try lia).
Qed.

Lemma calc_hdev_short N f rate m s :
  (1 <= s)%nat -> stride_count N (3 * m) s = 0%nat ->
  exists d e, calc_hdev_phase (tab N f) rate m s = Ok (d, e, 1%Z).
Proof.
  intros Hs Hn. unfold calc_hdev_phase.
  rewrite !pystride_tab by exact Hs. cbn [bind]. rewrite !tab_length.
  rewrite min4_eq; [|apply stride_count_mono; lia|apply stride_count_mono; lia|apply stride_count_mono; lia].
  rewrite Hn. rewrite third_diff_tab by lia. cbn [bind].
  eexists _, _. reflexivity.
Qed.

Lemma stride_count_adev N m : (1 <= m)%nat -> stride_count N (2 * m) m = ((N - 1) / m - 1)%nat.
Proof.
  intros Hm. unfold stride_count. destruct (le_lt_dec N (2 * m)) as [H|H].
  - replace (N - 2 * m + (m - 1))%nat with (m - 1)%nat by lia.
    rewrite Nat.div_small by lia.
    assert ((N - 1) / m < 2)%nat; [|lia]. apply Nat.div_lt_upper_bound; lia.
  - replace (N - 1)%nat with (N - 2 * m + (m - 1) + 1 * m)%nat by lia.
    rewrite Nat.div_add by lia. lia.
Qed.

Lemma stride_count_hdev N m : (1 <= m)%nat -> stride_count N (3 * m) m = ((N - 1) / m - 2)%nat.
Proof.
  intros Hm. unfold stride_count. destruct (le_lt_dec N (3 * m)) as [H|H].
  - replace (N - 3 * m + (m - 1))%nat with (m - 1)%nat by lia.
    rewrite Nat.div_small by lia.
    assert ((N - 1) / m < 3)%nat; [|lia]. apply Nat.div_lt_upper_bound; lia.
  - replace (N - 1)%nat with (N - 3 * m + (m - 1) + 2 * m)%nat by lia.
    rewrite Nat.div_add by lia. lia.
Qed.

(** sqrt(S)/c = sqrt(S/c^2) *)
Lemma sqrt_div_sq S c : 0 < c -> sqrt S / c = sqrt (S / c ^ 2).
Proof.
  intros Hc.
  rewrite sqrt_div_alt by (apply pow_lt; exact Hc).
  rewrite sqrt_pow2 by lra. reflexivity.
Qed.

Lemma INR_pos m : (1 <= m)%nat -> 0 < INR m.
Proof. intros H. apply lt_0_INR. lia. Qed.

Lemma adev_dev_eq S n m rate : 0 < rate -> (1 <= m)%nat -> (1 <= n)%nat ->
  sqrt (S / (2 * INR n)) / INR m * rate = sqrt (/ (2 * INR n * (INR m * (1 / rate)) ^ 2) * S).
Proof.
  intros Hr Hm Hn. pose proof (INR_pos m Hm). pose proof (INR_pos n Hn).
  replace (sqrt (S / (2 * INR n)) / INR m * rate) with (sqrt (S / (2 * INR n)) / (INR m * (1 / rate)))
    by (field; lra).
  rewrite sqrt_div_sq by (apply Rmult_lt_0_compat; [lra|]; unfold Rdiv; rewrite Rmult_1_l; apply Rinv_0_lt_compat; lra).
  f_equal. field. lra.
Qed.

Lemma hdev_dev_eq S n m rate : 0 < rate -> (1 <= m)%nat -> (1 <= n)%nat ->
  sqrt (S / 6 / INR n) / (1 / rate * INR m) = sqrt (/ (6 * (INR m * (1 / rate)) ^ 2 * INR n) * S).
Proof.
  intros Hr Hm Hn. pose proof (INR_pos m Hm). pose proof (INR_pos n Hn).
  rewrite sqrt_div_sq by (apply Rmult_lt_0_compat; [|lra]; unfold Rdiv; rewrite Rmult_1_l; apply Rinv_0_lt_compat; lra).
  f_equal. field. lra.
Qed.

(** frequency input is phase input of the integrated record, in any arithmetic *)
Section FreqPhase.
Context {A : Type} {NA : Num A}.
Lemma input_phase (x : list A) rate : input_to_phase x rate "phase" = Ok x.
Proof. reflexivity. Qed.
End FreqPhase.

(** ** adev *)
Lemma adev_spec x rate taus ms : 0 < rate -> admissible (len x) rate taus ms ->
  let dev := fun m => sqrt (avar x (1 / rate) m) in
  let cnt := fun m => Z.of_nat (adev_n x m) in
  adev x rate "phase" taus = report rate ms dev (plain_err dev cnt) cnt.
Proof.
  intros Hr Ha dev cnt. unfold adev. rewrite input_phase. cbn [bind].
  change (ofZ (-1)) with (IZR (-1)).
  rewrite (tau_generator_default x rate taus ms) by (auto; lra). cbn [bind].
  apply run_rows_report. intros m Hm.
  destruct Ha as (_ & _ & Hin). apply Hin in Hm as (Hb & _ & _).
  pose proof (list_tab x 0) as Hx.
  pose proof (stride_count_adev (len x) m ltac:(lia)) as Hsc. fold (adev_n x m) in Hsc.
  destruct (Nat.eq_dec (adev_n x m) 0) as [H0|H0].
  - rewrite H0 in Hsc. destruct (calc_adev_short (len x) (fun i => x.[i]) rate m m ltac:(lia) Hsc) as (d & e & He).
    rewrite <- Hx in He. exists d, e, 1%Z. split; [exact He|].
    unfold cnt. rewrite H0. cbn. lia.
  - pose proof (calc_adev_tab (len x) (fun i => x.[i]) rate m m ltac:(lia) ltac:(lia)) as He.
    rewrite <- Hx in He. cbv zeta in He. rewrite Hsc in He.
    eexists _, _, _. split; [exact He|]. intros _.
    assert (Hd : sqrt (bigsum (adev_n x m) (fun k => (x.[2 * m + k * m] - 2 * x.[m + k * m] + x.[k * m]) ^ 2)
      / (2 * INR (adev_n x m))) / INR m * rate = dev m).
    { rewrite adev_dev_eq by (auto; lia). unfold dev, avar, d2. f_equal. f_equal.
      apply bigsum_ext. intros. repeat (f_equal; try lia). }
    rewrite Hd. split; [reflexivity|]. split; [|reflexivity].
    unfold plain_err, cnt. now rewrite ofN_R.
Qed.

(** ** oadev *)
Lemma calc_oadev_spec x rate m : 0 < rate -> (1 <= m)%nat -> (1 <= oadev_n x m)%nat ->
  let dev := sqrt (oavar x (1 / rate) m) in
  calc_adev_phase x rate m 1 =
   Ok (dev, dev / sqrt (INR (oadev_n x m)), Z.of_nat (oadev_n x m)).
Proof.
  intros Hr Hm Hn dev. pose proof (list_tab x 0) as Hx.
  pose proof (calc_adev_tab (len x) (fun i => x.[i]) rate m 1 ltac:(lia)) as He.
  rewrite <- Hx in He. rewrite stride_count_1 in He. fold (oadev_n x m) in He.
  cbv zeta in He. rewrite He by lia.
  assert (Hd : sqrt (bigsum (oadev_n x m) (fun k => (x.[2 * m + k * 1] - 2 * x.[m + k * 1] + x.[k * 1]) ^ 2)
      / (2 * INR (oadev_n x m))) / INR m * rate = dev).
  { rewrite adev_dev_eq by (auto; lia). unfold dev, oavar, d2. f_equal. f_equal.
    - f_equal. ring.
    - apply bigsum_ext. intros. repeat (f_equal; try lia). }
  now rewrite Hd.
Qed.

Lemma calc_oadev_short x rate m : oadev_n x m = 0%nat ->
  exists d e, calc_adev_phase x rate m 1 = Ok (d, e, 1%Z).
Proof.
  intros Hn. pose proof (list_tab x 0) as Hx. rewrite Hx.
  apply calc_adev_short; [lia|]. rewrite stride_count_1. exact Hn.
Qed.

Lemma oadev_spec x rate taus ms : 0 < rate -> admissible (len x) rate taus ms ->
  let dev := fun m => sqrt (oavar x (1 / rate) m) in
  let cnt := fun m => Z.of_nat (oadev_n x m) in
  oadev x rate "phase" taus = report rate ms dev (plain_err dev cnt) cnt.
Proof.
  intros Hr Ha dev cnt. unfold oadev. rewrite input_phase. cbn [bind].
  change (ofZ (-1)) with (IZR (-1)).
  rewrite (tau_generator_default x rate taus ms) by (auto; lra). cbn [bind].
  apply run_rows_report. intros m Hm.
  destruct Ha as (_ & _ & Hin). apply Hin in Hm as (Hb & _ & _).
  destruct (Nat.eq_dec (oadev_n x m) 0) as [H0|H0].
  - destruct (calc_oadev_short x rate m H0) as (d & e & He).
    exists d, e, 1%Z. split; [exact He|]. unfold cnt. rewrite H0. cbn. lia.
  - rewrite calc_oadev_spec by (auto; lia).
    eexists _, _, _. split; [reflexivity|]. intros _. split; [reflexivity|].
    split; [|reflexivity]. unfold plain_err, cnt. now rewrite ofN_R.
Qed.

(** ** hdev, ohdev *)
Lemma hdev_spec x rate taus ms : 0 < rate -> admissible (len x) rate taus ms ->
  let dev := fun m => sqrt (hvar x (1 / rate) m) in
  let cnt := fun m => Z.of_nat (hdev_n x m) in
  hdev x rate "phase" taus = report rate ms dev (plain_err dev cnt) cnt.
Proof.
  intros Hr Ha dev cnt. unfold hdev. rewrite input_phase. cbn [bind].
  change (ofZ (-1)) with (IZR (-1)).
  rewrite (tau_generator_default x rate taus ms) by (auto; lra). cbn [bind].
  apply run_rows_report. intros m Hm.
  destruct Ha as (_ & _ & Hin). apply Hin in Hm as (Hb & _ & _).
  pose proof (list_tab x 0) as Hx.
  pose proof (stride_count_hdev (len x) m ltac:(lia)) as Hsc. fold (hdev_n x m) in Hsc.
  destruct (Nat.eq_dec (hdev_n x m) 0) as [H0|H0].
  - rewrite H0 in Hsc. destruct (calc_hdev_short (len x) (fun i => x.[i]) rate m m ltac:(lia) Hsc) as (d & e & He).
    rewrite <- Hx in He. exists d, e, 1%Z. split; [exact He|].
    unfold cnt. rewrite H0. cbn. lia.
  - pose proof (calc_hdev_tab (len x) (fun i => x.[i]) rate m m ltac:(lia) ltac:(lia)) as He.
    rewrite <- Hx in He. cbv zeta in He. rewrite Hsc in He.
    eexists _, _, _. split; [exact He|]. intros _.
    match goal with |- ?d = _ /\ _ => assert (Hd : d = dev m) end.
    { rewrite hdev_dev_eq by (auto; lia). unfold dev, hvar, d3. f_equal. f_equal.
      apply bigsum_ext. intros. repeat (f_equal; try lia). }
    rewrite Hd. split; [reflexivity|]. split; [|reflexivity].
    unfold plain_err, cnt. now rewrite ofN_R.
Qed.

Lemma calc_ohdev_spec x rate m : 0 < rate -> (1 <= m)%nat -> (1 <= ohdev_n x m)%nat ->
  let dev := sqrt (ohvar x (1 / rate) m) in
  calc_hdev_phase x rate m 1 =
   Ok (dev, dev / sqrt (INR (ohdev_n x m)), Z.of_nat (ohdev_n x m)).
Proof.
  intros Hr Hm Hn dev. pose proof (list_tab x 0) as Hx.
  pose proof (calc_hdev_tab (len x) (fun i => x.[i]) rate m 1 ltac:(lia)) as He.
  rewrite <- Hx in He. rewrite stride_count_1 in He. fold (ohdev_n x m) in He.
  cbv zeta in He. rewrite He by lia.
  match goal with |- Ok (?d, _, _) = _ => assert (Hd : d = dev) end.
  { rewrite hdev_dev_eq by (auto; lia). unfold dev, ohvar, d3. f_equal. f_equal.
    apply bigsum_ext. intros. repeat (f_equal; try lia). }
  now rewrite Hd.
Qed.

Lemma calc_ohdev_short x rate m : ohdev_n x m = 0%nat ->
  exists d e, calc_hdev_phase x rate m 1 = Ok (d, e, 1%Z).
Proof.
  intros Hn. pose proof (list_tab x 0) as Hx. rewrite Hx.
  apply calc_hdev_short; [lia|]. rewrite stride_count_1. exact Hn.
Qed.

Lemma ohdev_spec x rate taus ms : 0 < rate -> admissible (len x) rate taus ms ->
  let dev := fun m => sqrt (ohvar x (1 / rate) m) in
  let cnt := fun m => Z.of_nat (ohdev_n x m) in
  ohdev x rate "phase" taus = report rate ms dev (plain_err dev cnt) cnt.
Proof.
  intros Hr Ha dev cnt. unfold ohdev. rewrite input_phase. cbn [bind].
  change (ofZ (-1)) with (IZR (-1)).
  rewrite (tau_generator_default x rate taus ms) by (auto; lra). cbn [bind].
  apply run_rows_report. intros m Hm.
  destruct Ha as (_ & _ & Hin). apply Hin in Hm as (Hb & _ & _).
  destruct (Nat.eq_dec (ohdev_n x m) 0) as [H0|H0].
  - destruct (calc_ohdev_short x rate m H0) as (d & e & He).
    exists d, e, 1%Z. split; [exact He|]. unfold cnt. rewrite H0. cbn. lia.
  - rewrite calc_ohdev_spec by (auto; lia).
    eexists _, _, _. split; [reflexivity|]. intros _. split; [reflexivity|].
    split; [|reflexivity]. unfold plain_err, cnt. now rewrite ofN_R.
Qed.

(** ** mdev *)
(** running window sums: sum_{i<m} g(j+i) = sum_{i<m} g i + sum_{k<j} (g(k+m) - g k) *)
Lemma window_slide (g : nat -> R) m j :
  bigsum m (fun i => g (j + i)%nat) = bigsum m g + bigsum j (fun k => g (k + m)%nat - g k).
Proof.
  induction j as [|j IH]; [cbn; rewrite Rplus_0_r; apply bigsum_ext; intros; reflexivity|].
  cbn [bigsum]. rewrite <- Rplus_assoc, <- IH.
  assert (H : bigsum (S m) (fun i => g (j + i)%nat) = g j + bigsum m (fun i => g (S j + i)%nat)).
  { rewrite bigsum_S_l. f_equal; [f_equal; lia|]. apply bigsum_ext. intros; f_equal; lia. }
  cbn [bigsum] in H. lra.
Qed.

Lemma mdev_dev_eq S n m rate : 0 < rate -> (1 <= m)%nat -> (0 < n)%Z ->
  S / (2 * INR m * INR m * (INR m / rate) * (INR m / rate) * IZR n) =
  / (2 * INR m ^ 2 * (INR m * (1 / rate)) ^ 2 * IZR n) * S.
Proof.
  intros Hr Hm Hn. pose proof (INR_pos m Hm). assert (0 < IZR n) by (apply IZR_lt; exact Hn).
  field. lra.
Qed.

Lemma calc_mdev_spec x rate m : 0 < rate -> (1 <= m)%nat -> (3 * m <= len x)%nat ->
  let dev := sqrt (mvar x (1 / rate) m) in
  calc_mdev_phase x rate m = Ok (dev, dev / sqrt (IZR (mdev_n x m)), mdev_n x m).
Proof.
  intros Hr Hm HN dev.
  pose proof (list_tab x 0) as Hx. set (N := len x) in *. set (f := fun i => x.[i]) in *.
  transitivity (calc_mdev_phase (tab N f) rate m); [now rewrite <- Hx|].
  unfold calc_mdev_phase. cbv zeta.
  rewrite !pyslice_tab, !skipn_tab, !tab_length.
  rewrite (min3_eq (Nat.min (m - 0) (N - 0))) by lia.
  rewrite second_diff_tab by lia. cbn [bind]. rewrite asum_tab.
  rewrite min4_eq by lia.
  rewrite third_diff_tab by lia. cbn [bind].
  rewrite cumsum_tab, map_tab, sumsq_tab. rewrite !ofN_INR. rn.
  set (e := (N - 3 * m)%nat).
  assert (Hn : mdev_n x m = Z.of_nat (S e)) by (unfold mdev_n, e; lia).
  replace (Nat.min (3 * m - 2 * m) (N - 2 * m)) with m by lia.
  set (g := fun i => d2 x m i).
  assert (Hv : bigsum m (fun i => f (2 * m + i)%nat - 2 * f (m + i)%nat + f (0 + i)%nat) = bigsum m g).
  { apply bigsum_ext. intros i Hi. unfold g, d2, f. repeat (f_equal; try lia). }
  rewrite Hv.
  assert (HS : bigsum m g * bigsum m g +
     bigsum e (fun i => (bigsum m g + bigsum (S i) (fun i0 => f (3 * m + i0)%nat - 3 * f (2 * m + i0)%nat
        + 3 * f (1 * m + i0)%nat - f i0)) ^ 2)
     = bigsum (S e) (fun j => bigsum m (fun i => d2 x m (j + i)) ^ 2)).
  { rewrite bigsum_S_l. f_equal.
    - unfold g. cbn [Nat.add]. ring.
    - apply bigsum_ext. intros i Hi. f_equal.
      change (bigsum m (fun i0 => d2 x m (S i + i0))) with (bigsum m (fun i0 => g (S i + i0)%nat)).
      rewrite (window_slide g m (S i)). f_equal.
      apply bigsum_ext. intros k Hk. unfold g, d2, f.
      replace (k + m + 2 * m)%nat with (3 * m + k)%nat by lia.
      replace (k + 2 * m)%nat with (2 * m + k)%nat by lia.
      replace (k + m + m)%nat with (2 * m + k)%nat by lia.
      replace (1 * m + k)%nat with (k + m)%nat by lia. ring. }
  rewrite HS.
  assert (Hd : sqrt (bigsum (S e) (fun j => bigsum m (fun i => d2 x m (j + i)) ^ 2) /
       (2 * INR m * INR m * (INR m / rate) * (INR m / rate) * INR (S e))) = dev).
  { unfold dev, mvar. f_equal. rewrite Hn, Nat2Z.id.
    rewrite <- (mdev_dev_eq _ (Z.of_nat (S e)) m rate) by (auto; lia).
    rewrite ofN_R. reflexivity. }
  rewrite Hd, Hn. now rewrite ofN_R.
Qed.

Lemma calc_mdev_short x rate m : (1 <= m)%nat -> (len x < 3 * m)%nat ->
  exists d e, calc_mdev_phase x rate m = Ok (d, e, 1%Z).
Proof.
  intros Hm HN. unfold calc_mdev_phase.
  pose proof (list_tab x 0) as Hx. set (N := len x) in *. set (f := fun i => x.[i]) in *.
  clearbody N f. rewrite Hx. clear Hx.
  rewrite !pyslice_tab, !skipn_tab, !tab_length.
  rewrite min3_eq by lia. rewrite second_diff_tab by lia. cbn [bind].
  rewrite min4_eq by lia. replace (N - 3 * m)%nat with 0%nat by lia.
  rewrite third_diff_tab by lia. cbn [bind].
  eexists _, _. reflexivity.
Qed.

Lemma mdev_spec x rate taus ms : 0 < rate -> admissible (len x) rate taus ms ->
  let dev := fun m => sqrt (mvar x (1 / rate) m) in
  mdev x rate "phase" taus = report rate ms dev (plain_err dev (mdev_n x)) (mdev_n x).
Proof.
  intros Hr Ha dev. unfold mdev. rewrite input_phase. cbn [bind].
  change (ofZ (-1)) with (IZR (-1)).
  rewrite (tau_generator_default x rate taus ms) by (auto; lra). cbn [bind].
  apply run_rows_report. intros m Hm.
  destruct Ha as (_ & _ & Hin). apply Hin in Hm as (Hb & _ & _).
  destruct (le_lt_dec (3 * m) (len x)) as [H0|H0].
  - rewrite calc_mdev_spec by (auto; lia).
    eexists _, _, _. split; [reflexivity|]. intros _. repeat split.
  - destruct (calc_mdev_short x rate m ltac:(lia) H0) as (d & e & He).
    exists d, e, 1%Z. split; [exact He|]. unfold mdev_n. lia.
Qed.

(** ** tdev *)
Lemma scale_report rate ms var cnt tvar :
  0 < rate ->
  (forall m, In m ms -> (1 < cnt m)%Z -> 0 <= var m /\ tvar m = (INR m * (1 / rate)) ^ 2 / 3 * var m) ->
  let dev := fun m => sqrt (var m) in
  let tdv := fun m => sqrt (tvar m) in
  (r <- report rate ms dev (plain_err dev cnt) cnt ;; scale_tdev r) =
  report rate ms tdv (plain_err tdv cnt) cnt.
Proof.
  intros Hr Hv dev tdv. unfold report.
  destruct (filter (fun m => (1 <? cnt m)%Z) ms) as [|m0 good0] eqn:Ef; [reflexivity|].
  rewrite <- Ef. set (good := filter _ ms). cbn [bind]. unfold scale_tdev, vmul.
  assert (Hm2 : forall (B C D : Type) (g : B -> C -> D) (a : nat -> B) (b : nat -> C) l,
     bmap2 g (map a l) (map b l) = Ok (map (fun m => g (a m) (b m)) l)).
  { intros B C D g a b l. rewrite bmap2_eqlen by now rewrite !map_length. f_equal.
    induction l as [|y l IH]; cbn; congruence. }
  rewrite Hm2. cbn [bind]. rewrite map_map, Hm2. cbn [bind].
  assert (Hdev : forall m, In m good -> (INR m / rate * dev m / sqrt 3) = tdv m).
  { intros m Hm. unfold good in Hm. apply filter_In in Hm as [Hm Hc]. apply Z.ltb_lt in Hc.
    destruct (Hv m Hm Hc) as [Hp Ht]. unfold tdv. rewrite Ht. unfold dev.
    replace ((INR m * (1 / rate)) ^ 2 / 3 * var m) with ((INR m / rate) ^ 2 * var m / 3)
      by (field; lra).
    rewrite sqrt_div_alt by lra.
    rewrite sqrt_mult by (auto; apply pow2_ge_0).
    rewrite sqrt_pow2; [reflexivity|].
    apply Rmult_le_pos; [apply pos_INR|left; apply Rinv_0_lt_compat; exact Hr]. }
  assert (E1 : map (fun m => INR m / rate * dev m / sqrt 3) good = map tdv good)
    by (apply map_ext_in; exact Hdev).
  assert (E2 : map (fun m => INR m / rate * dev m / sqrt 3 / sqrt (IZR (cnt m))) good
               = map (plain_err tdv cnt) good).
  { apply map_ext_in. intros m Hm. rewrite Hdev by exact Hm. reflexivity. }
  rn. rewrite E1, E2. reflexivity.
Qed.

Lemma mvar_nonneg x tau0 m : (0 < mdev_n x m)%Z -> 0 <= mvar x tau0 m.
Proof.
  intros H. unfold mvar. apply Rmult_le_pos.
  - destruct (Req_dec (2 * INR m ^ 2 * (INR m * tau0) ^ 2 * IZR (mdev_n x m)) 0) as [->|Hn].
    + rewrite Rinv_0. lra.
    + left. apply Rinv_0_lt_compat.
      assert (0 <= 2 * INR m ^ 2 * (INR m * tau0) ^ 2 * IZR (mdev_n x m)); [|lra].
      apply Rmult_le_pos; [|apply IZR_le; lia].
      apply Rmult_le_pos; [|apply pow2_ge_0].
      apply Rmult_le_pos; [lra|apply pow2_ge_0].
  - apply bigsum_nonneg. intros. apply pow2_ge_0.
Qed.

Lemma tdev_spec x rate taus ms : 0 < rate -> admissible (len x) rate taus ms ->
  let dev := fun m => sqrt (tvar x (1 / rate) m) in
  tdev x rate "phase" taus = report rate ms dev (plain_err dev (mdev_n x)) (mdev_n x).
Proof.
  intros Hr Ha dev. unfold tdev. rewrite input_phase. cbn [bind].
  rewrite (mdev_spec x rate taus ms Hr Ha).
  apply (scale_report rate ms (mvar x (1 / rate)) (mdev_n x)); [exact Hr|].
  intros m Hm Hc. split; [apply mvar_nonneg; lia|reflexivity].
Qed.

(** ** loops *)
Lemma foldM_app {S B} (F : S -> B -> res S) l1 l2 a :
  foldM F (l1 ++ l2) a = (b <- foldM F l1 a ;; foldM F l2 b).
Proof.
  revert a. induction l1 as [|y l1 IH]; intros a; [reflexivity|]. cbn [foldM app].
  destruct (F a y); cbn [bind]; [apply IH|reflexivity].
Qed.

Lemma foldM_inv {S} (F : S -> nat -> res S) (st : nat -> S) n a :
  a = st 0%nat ->
  (forall i, (i < n)%nat -> F (st i) i = Ok (st (Datatypes.S i))) ->
  foldM F (seq 0 n) a = Ok (st n).
Proof.
  intros ->. induction n as [|n IH]; intros H; [reflexivity|].
  rewrite seq_S, foldM_app, IH by (intros; apply H; lia). cbn [bind foldM Nat.add].
  now rewrite H by lia.
Qed.

(** ** pdev *)
Lemma calc_pdev_spec x rate m : 0 < rate -> (1 <= m)%nat -> (1 <= oadev_n x m)%nat ->
  let dev := sqrt (pvar x (1 / rate) m) in
  calc_pdev_phase x rate m =
   Ok (dev, dev / sqrt (INR (oadev_n x m)), Z.of_nat (oadev_n x m)).
Proof.
  intros Hr Hm Hn dev. unfold dev, pvar. destruct (Nat.eqb_spec m 1) as [->|H1].
  - exact (calc_oadev_spec x rate 1 Hr Hm Hn).
  - pose proof (list_tab x 0) as Hx. set (N := len x) in *. set (f := fun i => x.[i]) in *.
    transitivity (calc_pdev_phase (tab N f) rate m); [now rewrite <- Hx|].
    unfold calc_pdev_phase. cbv zeta. destruct (Nat.eqb_spec m 1) as [C|_]; [contradiction|].
    rewrite tab_length. set (n := oadev_n x m) in *.
    replace (Z.of_nat N - 2 * Z.of_nat m)%Z with (Z.of_nat n) by (unfold n, oadev_n, N in *; lia).
    destruct (Z.ltb_spec (Z.of_nat n) 1) as [C|_]; [lia|]. rewrite Nat2Z.id.
    rewrite (foldM_inv _ (fun j => bigsum j (fun i =>
         (bigsum m (fun k => ((INR m - 1) / 2 - INR k) * (x.[i + k] - x.[i + k + m]))) ^ 2))).
    + cbn [bind]. rn. rewrite nsq_R, ofN_INR, mult_IZR, !ofN_R.
      assert (E : IZR (Z.of_nat m ^ 4) = INR m ^ 4).
      { change 4%Z with (Z.of_nat 4). rewrite <- Nat2Z.inj_pow, ofN_R. apply pow_INR. }
      rewrite E.
      match goal with |- Ok (sqrt ?a, _, _) = Ok (sqrt ?b, _, _) => assert (Hd : a = b) end.
      { field. repeat split; try lra; apply not_0_INR; lia. }
      now rewrite Hd.
    + reflexivity.
    + intros i Hi. unfold n, oadev_n in Hi. fold N in Hi.
      rewrite !pyslice_tab. unfold vsub, vmul.
      replace (Nat.min (i + m - i) (N - i)) with m by lia.
      replace (Nat.min (i + 2 * m - (i + m)) (N - (i + m))) with m by lia.
      rewrite bmap2_tab. cbn [bind].
      change (map (fun k => (ofN m - ofZ 1) / ofZ 2 - ofN k)%num (seq 0 m))
        with (tab m (fun k => (ofN m - ofZ 1) / ofZ 2 - ofN k)%num).
      rewrite bmap2_tab. cbn [bind]. rewrite asum_tab, nsq_R. rn. cbn [bigsum].
      f_equal. f_equal. f_equal. apply bigsum_ext. intros k Hk.
      rewrite !ofN_INR. unfold f. repeat (f_equal; try lia).
Qed.

Lemma calc_pdev_short x rate m : oadev_n x m = 0%nat ->
  exists d e n, calc_pdev_phase x rate m = Ok (d, e, n) /\ (n <= 1)%Z.
Proof.
  intros Hn. destruct (Nat.eqb_spec m 1) as [->|H1].
  - destruct (calc_oadev_short x rate 1 Hn) as (d & e & He).
    exists d, e, 1%Z. split; [exact He|lia].
  - unfold calc_pdev_phase. destruct (Nat.eqb_spec m 1) as [C|_]; [contradiction|].
    unfold oadev_n in Hn. destruct (Z.ltb_spec (Z.of_nat (len x) - 2 * Z.of_nat m) 1) as [_|C]; [|lia].
    eexists _, _, _. split; [reflexivity|lia].
Qed.

Lemma pdev_spec x rate taus ms : 0 < rate -> admissible (len x) rate taus ms ->
  let dev := fun m => sqrt (pvar x (1 / rate) m) in
  let cnt := fun m => Z.of_nat (oadev_n x m) in
  pdev x rate "phase" taus = report rate ms dev (plain_err dev cnt) cnt.
Proof.
  intros Hr Ha dev cnt. unfold pdev. rewrite input_phase. cbn [bind].
  change (ofZ (-1)) with (IZR (-1)).
  rewrite (tau_generator_default x rate taus ms) by (auto; lra). cbn [bind].
  apply run_rows_report. intros m Hm.
  destruct Ha as (_ & _ & Hin). apply Hin in Hm as (Hb & _ & _).
  destruct (Nat.eq_dec (oadev_n x m) 0) as [H0|H0].
  - destruct (calc_pdev_short x rate m H0) as (d & e & n & He & Hle).
    exists d, e, n. split; [exact He|]. unfold cnt. rewrite H0. cbn. lia.
  - rewrite calc_pdev_spec by (auto; lia).
    eexists _, _, _. split; [reflexivity|]. intros _. split; [reflexivity|].
    split; [|reflexivity]. unfold plain_err, cnt. now rewrite ofN_R.
Qed.

(** ** gcodev *)
Lemma calc_gcodev_spec x y rate m : 0 < rate -> (1 <= m)%nat -> len y = len x ->
  (1 <= oadev_n x m)%nat ->
  let dev := sqrt (Rabs (ocov x y (1 / rate) m)) in
  calc_gcodev_phase x y rate m 1 =
   Ok (dev, dev / sqrt (INR (oadev_n x m)), Z.of_nat (oadev_n x m)).
Proof.
  intros Hr Hm Hl Hn dev.
  pose proof (list_tab x 0) as Hx. pose proof (list_tab y 0) as Hy. rewrite Hl in Hy.
  set (N := len x) in *. set (f := fun i => x.[i]) in *. set (g := fun i => y.[i]) in *.
  transitivity (calc_gcodev_phase (tab N f) (tab N g) rate m 1); [now rewrite <- Hx, <- Hy|].
  unfold calc_gcodev_phase. rewrite !pystride_tab by lia. cbn [bind].
  rewrite !tab_length, !stride_count_1.
  unfold oadev_n in *. fold N in Hn |- *. set (n := (N - 2 * m)%nat) in *.
  rewrite (min3_eq (N - 0)) by lia.
  destruct (Nat.eqb_spec n 0) as [C|_]; [lia|].
  rewrite !second_diff_tab by lia. cbn [bind]. unfold vmul. rewrite bmap2_tab. cbn [bind].
  rewrite asum_tab, !ofN_INR. rn.
  match goal with |- context [bigsum n ?F] =>
    assert (HS : bigsum n F = bigsum n (fun i => d2 x m i * d2 y m i)) end.
  { apply bigsum_ext. intros i Hi. unfold d2, f, g. repeat (f_equal; try lia). }
  rewrite HS. unfold dev, ocov, oadev_n. fold N n.
  set (S := bigsum n _). pose proof (INR_pos m Hm). pose proof (INR_pos n Hn).
  assert (Hab : Rabs (/ (2 * (INR m * (1 / rate)) ^ 2 * INR n) * S) =
                / (2 * (INR m * (1 / rate)) ^ 2 * INR n) * Rabs S).
  { rewrite Rabs_mult. f_equal. apply Rabs_pos_eq. left. apply Rinv_0_lt_compat.
    apply Rmult_lt_0_compat; [|lra]. apply Rmult_lt_0_compat; [lra|]. apply pow_lt.
    apply Rmult_lt_0_compat; [lra|]. unfold Rdiv; rewrite Rmult_1_l; apply Rinv_0_lt_compat; lra. }
  rewrite Hab.
  assert (He : (if Rleb 0 S then sqrt (S / (2 * INR n)) / INR m * rate
                else sqrt (Rabs S / (2 * INR n)) / INR m * rate)
               = sqrt (Rabs S / (2 * INR n)) / INR m * rate).
  { destruct (Rleb 0 S) eqn:E; [|reflexivity]. apply Rleb_true in E.
    now rewrite (Rabs_pos_eq S E). }
  rewrite He. rewrite adev_dev_eq by (auto; lia).
  replace (2 * INR n * (INR m * (1 / rate)) ^ 2) with (2 * (INR m * (1 / rate)) ^ 2 * INR n) by ring.
  reflexivity.
Qed.

Lemma calc_gcodev_short x y rate m : len y = len x -> oadev_n x m = 0%nat ->
  exists d e, calc_gcodev_phase x y rate m 1 = Ok (d, e, 1%Z).
Proof.
  intros Hl Hn.
  pose proof (list_tab x 0) as Hx. pose proof (list_tab y 0) as Hy. rewrite Hl in Hy.
  unfold oadev_n in Hn.
  set (N := len x) in *. rewrite Hx, Hy.
  unfold calc_gcodev_phase. rewrite !pystride_tab by lia. cbn [bind].
  rewrite !tab_length, !stride_count_1, Hn.
  rewrite (min3_eq (N - 0)) by lia. cbn [Nat.eqb].
  rewrite !second_diff_short by reflexivity. cbn [bind]. unfold vmul.
  rewrite bmap2_nil_l by (cbn; lia). cbn [bind]. eexists _, _. reflexivity.
Qed.

Lemma gcodev_spec x y rate taus ms : 0 < rate -> len y = len x ->
  admissible (len x) rate taus ms ->
  let dev := fun m => sqrt (Rabs (ocov x y (1 / rate) m)) in
  let cnt := fun m => Z.of_nat (oadev_n x m) in
  gcodev x y rate "phase" taus = report rate ms dev (plain_err dev cnt) cnt.
Proof.
  intros Hr Hl Ha dev cnt. unfold gcodev. rewrite !input_phase. cbn [bind].
  change (ofZ (-1)) with (IZR (-1)).
  rewrite (tau_generator_default x rate taus ms) by (auto; lra). cbn [bind].
  rewrite (tau_generator_default y rate taus ms) by (rewrite ?Hl; auto; lra). cbn [bind].
  apply run_rows_report. intros m Hm.
  destruct Ha as (_ & _ & Hin). apply Hin in Hm as (Hb & _ & _).
  destruct (Nat.eq_dec (oadev_n x m) 0) as [H0|H0].
  - destruct (calc_gcodev_short x y rate m Hl H0) as (d & e & He).
    exists d, e, 1%Z. split; [exact He|]. unfold cnt. rewrite H0. cbn. lia.
  - rewrite calc_gcodev_spec by (auto; lia).
    eexists _, _, _. split; [reflexivity|]. intros _. split; [reflexivity|].
    split; [|reflexivity]. unfold plain_err, cnt. now rewrite ofN_R.
Qed.
