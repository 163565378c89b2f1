(** * Changing the unit of the data by a power of two is exact in binary64 (C115). *)
From Coq Require Import ZArith Floats Reals Lra Lia Psatz Ascii String List Bool.
From Flocq Require Import Core.Core IEEE754.BinarySingleNaN.
From Verif Require Import Base Num NpList NumF ListFacts Spec RSum GenericProofs ModelCore ModelDev FloatFacts FloatErr SimProofs ScaleProofs NanProofs PropsFloatErr PropsFloatMdev PropsFloatMore PropsFloatFreq PropsFloatMtie TotProofs TauProofs PropsFloatTau UnitProofs.
Import ListNotations.
Local Open Scope R_scope.
Local Notation len := List.length.
Local Notation float := Coq.Floats.PrimFloat.float.
Local Notation fsqrt := Coq.Floats.PrimFloat.sqrt.

(** the sampling rate lies between 2^-40 and 2^40 *)
Definition usual_rate (rate : float) : Prop := ffin rate /\ bpow radix2 (-40) <= fR rate <= bpow radix2 40.
Lemma usual_between rate : usual_rate rate -> between rate (-40) 40. Proof. intros H. exact H. Qed.

Lemma minmax_gh k g h a a' b b' : G k g h 1 a a' -> G k g h 1 b b' -> G k g h 1 (nmax2 a b) (nmax2 a' b') /\ G k g h 1 (nmin2 a b) (nmin2 a' b').
Proof.
  intros Ha Hb. pose proof fin_not_nan as NN.
  pose proof Ha as ((Fa & Fa' & Ea) & _). pose proof Hb as ((Fb & Fb' & Eb) & _). unfold nmax2, nmin2. rewrite !NN by assumption.
  cbn [nltb FNum]. rewrite !fltb_ok by assumption. rewrite Ea, Eb. pose proof (bpow_gt_0 radix2 k) as Pc.
  assert (T : forall x y, Rlt_bool (bpow radix2 k * x) (bpow radix2 k * y) = Rlt_bool x y).
  { intros x y. destruct (Rlt_bool_spec x y) as [Hxy|Hxy]; [apply Rlt_bool_true; nra|apply Rlt_bool_false; nra]. }
  rewrite !T. split; destruct (Rlt_bool _ _); assumption.
Qed.

Section Rows.
Context (k : Z).
Local Notation c := (bpow radix2 k).
Local Notation D := (Q c (-700) 700).
Definition big_row (B : Z) (calc calc' : nat -> res (float * float * Z)) (m : nat) : Prop :=
  exists d e d' e' n, calc m = Ok (d, e, n) /\ calc' m = Ok (d', e', n) /\ (n <= B)%Z /\ ((1 < n)%Z -> D d d' /\ D e e').
Lemma errs_pair d d' l h j : Q c l h d d' -> (-680 <= l)%Z -> (l <= h)%Z -> (h <= 700)%Z -> (1 <= j <= 2 ^ 40)%Z ->
  D d d' /\ D (d / fsqrt (f_ofZ j))%float (d' / fsqrt (f_ofZ j))%float.
Proof using k.
  intros H Hl Hlh Hh Hj. split; [apply (Q_weaken c l h); auto; lia|].
  apply (Q_weaken c (l - 20) (h - 0)); [|lia|lia]. apply Q_div; [exact H|now apply between_sqrt_n|apply rnd_c|lia|lia].
Qed.

Context (N : nat) (f f' : nat -> float) (rate : float) (HN : (Z.of_nat N <= 2 ^ 40)%Z).
Hypothesis Hf : forall i, (i < N)%nat -> G k (-310) 200 1 (f i) (f' i).
Hypothesis Hr : usual_rate rate.
Let HR : between rate (-40) 40 := Hr.
Let r0 : rng (-310) 200. Proof. split; lia. Qed.

Lemma second_pair i j l : (i < N)%nat -> (j < N)%nat -> (l < N)%nat ->
  G k (-310) 200 4 (f i - f_ofZ 2 * f j + f l)%float (f' i - f_ofZ 2 * f' j + f' l)%float.
Proof using All.
  intros Hi Hj Hl. apply (G_add k (-310) 200 3 1); try lia; try exact r0; [|now apply Hf].
  apply (G_sub k (-310) 200 1 2); try lia; try exact r0; [now apply Hf|]. apply (G_mulZ k 2 (-310) 200 1); try lia; [now apply Hf|exact r0].
Qed.
Lemma third_pair a b i j : (a < N)%nat -> (b < N)%nat -> (i < N)%nat -> (j < N)%nat ->
  G k (-310) 200 8 (f a - f_ofZ 3 * f b + f_ofZ 3 * f i - f j)%float (f' a - f_ofZ 3 * f' b + f_ofZ 3 * f' i - f' j)%float.
Proof using All.
  intros Ha Hb Hi Hj. apply (G_sub k (-310) 200 7 1); try lia; try exact r0; [|now apply Hf].
  apply (G_add k (-310) 200 4 3); try lia; try exact r0; [|apply (G_mulZ k 3 (-310) 200 1); try lia; [now apply Hf|exact r0]].
  apply (G_sub k (-310) 200 1 3); try lia; try exact r0; [now apply Hf|]. apply (G_mulZ k 3 (-310) 200 1); try lia; [now apply Hf|exact r0].
Qed.
Lemma adev_pair m s : (1 <= m < N)%nat -> (1 <= s)%nat -> big_row (2 ^ 80) (fun m => calc_adev_phase (tab N f) rate m s) (fun m => calc_adev_phase (tab N f') rate m s) m.
Proof using All.
  intros Hm Hs. unfold big_row. destruct (Nat.eq_dec (stride_count N (2 * m) s) 0) as [Z0|NZ].
  - destruct (calc_adev_short_gen N f rate m s Hs Z0) as (d & e & E). destruct (calc_adev_short_gen N f' rate m s Hs Z0) as (d' & e' & E').
    exists d, e, d', e', 1%Z. repeat split; auto; lia.
  - assert (Hn : (1 <= stride_count N (2 * m) s)%nat) by lia.
    pose proof (calc_adev_gen N f rate m s Hs Hn) as E. pose proof (calc_adev_gen N f' rate m s Hs Hn) as E'. cbv zeta in E, E'.
    eexists _, _, _, _, _. split; [exact E|]. split; [exact E'|]. set (n := stride_count N (2 * m) s) in *.
    assert (Hb : forall i, (i < n)%nat -> (2 * m + i * s < N)%nat) by (intros i Hi; exact (proj1 (stride_count_lt N (2 * m) s i Hs) Hi)).
    assert (Bn : (Z.of_nat n <= 2 ^ 40)%Z) by (pose proof (Hb (n - 1)%nat ltac:(lia)); nia).
    split; [lia|]. intros _. unfold ofN. cbn [nmul ndiv nadd nsub nsqrt ofZ FNum]. apply (errs_pair _ _ (-361 - 40 + -40) (222 - 0 + 40)); try lia.
    apply Q_mul; [|exact HR|apply rnd_c|lia|lia]. apply Q_div; [|apply between_ofZ; lia|apply rnd_c|lia|lia].
    apply Q_sqrt; [|lia|lia]. apply (Q_weaken _ (2 * -310 - (1 + 40)) (2 * (200 + 2) + 40 - (0 + 0))); [|lia|lia].
    apply Q_div; [|apply between_mul; try lia; apply between_ofZ; lia|apply rnd_cc|lia|lia].
    apply Q_sumsq; try lia. intros i Hi. pose proof (Hb i Hi). apply (G_lift k (-310) 200 4 2); [|lia|lia]. apply second_pair; lia.
Qed.
Lemma hdev_pair m s : (1 <= m < N)%nat -> (1 <= s)%nat -> big_row (2 ^ 80) (fun m => calc_hdev_phase (tab N f) rate m s) (fun m => calc_hdev_phase (tab N f') rate m s) m.
Proof using All.
  intros Hm Hs. unfold big_row. destruct (Nat.eq_dec (stride_count N (3 * m) s) 0) as [Z0|NZ].
  - destruct (calc_hdev_short_gen N f rate m s Hs Z0) as (d & e & E). destruct (calc_hdev_short_gen N f' rate m s Hs Z0) as (d' & e' & E').
    exists d, e, d', e', 1%Z. repeat split; auto; lia.
  - assert (Hn : (1 <= stride_count N (3 * m) s)%nat) by lia.
    pose proof (calc_hdev_gen N f rate m s Hs Hn) as E. pose proof (calc_hdev_gen N f' rate m s Hs Hn) as E'. cbv zeta in E, E'.
    eexists _, _, _, _, _. split; [exact E|]. split; [exact E'|]. set (n := stride_count N (3 * m) s) in *.
    assert (Hb : forall i, (i < n)%nat -> (3 * m + i * s < N)%nat) by (intros i Hi; exact (proj1 (stride_count_lt N (3 * m) s i Hs) Hi)).
    assert (Bn : (Z.of_nat n <= 2 ^ 40)%Z) by (pose proof (Hb (n - 1)%nat ltac:(lia)); nia).
    split; [lia|]. intros _. unfold ofN. cbn [nmul ndiv nadd nsub nsqrt ofZ FNum]. apply (errs_pair _ _ (-362 - (0 - -40 + 40)) (223 - (0 - 40 + 0))); try lia.
    apply Q_div; [|apply between_mul; try lia; [apply between_div; try lia; [apply between_ofZ; lia|exact HR]|apply between_ofZ; lia]|apply rnd_c|lia|lia].
    apply Q_sqrt; [|lia|lia]. apply (Q_weaken _ (2 * -310 - 3 - 40) (2 * (200 + 3) + 40 - 0 - 0)); [|lia|lia].
    apply Q_div; [|apply between_ofZ; lia|apply rnd_cc|lia|lia]. apply Q_div; [|apply between_ofZ; lia|apply rnd_cc|lia|lia].
    apply Q_sumsq; try lia. intros i Hi. pose proof (Hb i Hi). apply (G_lift k (-310) 200 8 3); [|lia|lia]. apply third_pair; lia.
Qed.
Lemma csum_pair n : (forall i, (i < n)%nat -> (3 * 0 + i < N)%nat) -> forall m, (forall i, (i < n)%nat -> (3 * m + i < N)%nat) ->
  forall j, (j < n)%nat -> G k (-310) 200 (8 * (Z.of_nat j + 1)) (csum (td f m) j) (csum (td f' m) j).
Proof using All.
  intros _ m Hb. induction j as [|j IH]; intros Hj; cbn [csum].
  - pose proof (Hb 0%nat Hj). unfold td. apply third_pair; lia.
  - replace (8 * (Z.of_nat (S j) + 1))%Z with (8 * (Z.of_nat j + 1) + 8)%Z by lia. pose proof (Hb (S j) Hj). apply (G_add k (-310) 200); try lia; try exact r0; [apply IH; lia|]. unfold td. apply third_pair; lia.
Qed.
Lemma mdev_pair m : (1 <= m < N)%nat -> big_row (2 ^ 40) (calc_mdev_phase (tab N f) rate) (calc_mdev_phase (tab N f') rate) m.
Proof using All.
  intros Hm. unfold big_row. destruct (Nat.lt_ge_cases N (3 * m)) as [Z0|Z1].
  - destruct (calc_mdev_short_gen N f rate m ltac:(lia) Z0) as (d & e & E). destruct (calc_mdev_short_gen N f' rate m ltac:(lia) Z0) as (d' & e' & E').
    exists d, e, d', e', 1%Z. repeat split; auto; lia.
  - pose proof (calc_mdev_gen N f rate m Z1) as E. pose proof (calc_mdev_gen N f' rate m Z1) as E'. cbv zeta in E, E'.
    eexists _, _, _, _, _. split; [exact E|]. split; [exact E'|]. split; [lia|]. intros _.
    assert (Hv : G k (-310) 200 (Z.of_nat m * 4) (asum (tab m (sd f m))) (asum (tab m (sd f' m)))).
    { apply G_asum; try lia; [|exact r0]. intros i Hi. unfold sd. apply second_pair; lia. }
    set (v := asum (tab m (sd f m))) in *. set (v' := asum (tab m (sd f' m))) in *.
    unfold ofN. cbn [nmul ndiv nadd nsub nsqrt ofZ FNum]. apply (errs_pair _ _ (-481) 305); try lia.
    apply Q_sqrt; [|lia|lia]. apply (Q_weaken _ (2 * -310 - (1 + 40 + 40 + (40 - -40) + (40 - -40) + 40)) (2 * (200 + 44) + 40 + 1 - (0 + 0 + 0 + (0 - 40) + (0 - 40) + 0))); [|lia|lia].
    assert (Bt : between (f_ofZ (Z.of_nat m) / rate)%float (0 - 40) (40 - -40)) by (apply between_div; try lia; [apply between_ofZ; lia|exact HR]).
    apply Q_div; [|repeat first [exact Bt|apply between_ofZ; lia|apply between_mul; [| |lia|lia]]|apply rnd_cc|lia|lia].
    apply Q_add; [| |apply rnd_cc|lia|lia].
    + change (v * v)%float with (nsq v). change (v' * v')%float with (nsq v'). apply (Q_weaken _ (2 * -310) (2 * (200 + 42))); [|lia|lia]. apply Q_sq; [|lia|lia]. apply (G_lift k (-310) 200 (Z.of_nat m * 4) 42); [exact Hv|lia|lia].
    + apply Q_sumsq; try lia. intros i Hi. apply (G_lift k (-310) 200 (Z.of_nat m * 4 + 8 * (Z.of_nat i + 1)) 44); [|lia|lia].
      apply G_add; try lia; try exact r0; [exact Hv|]. apply (csum_pair (N - 3 * m)); [lia|lia|exact Hi].
Qed.
Lemma tot_pair m : (2 <= N)%nat -> (1 <= m < N)%nat -> big_row (2 ^ 80) (calc_totdev (tab (3 * N - 4) (ext N f)) N rate) (calc_totdev (tab (3 * N - 4) (ext N f')) N rate) m.
Proof using All.
  intros H2 Hm. unfold big_row. pose proof (calc_totdev_gen N (ext N f) rate m H2 Hm) as E. pose proof (calc_totdev_gen N (ext N f') rate m H2 Hm) as E'. cbv zeta in E, E'.
  eexists _, _, _, _, _. split; [exact E|]. split; [exact E'|]. split; [lia|]. intros Hn.
  assert (He : forall i, (i < 3 * N - 4)%nat -> G k (-310) 200 3 (ext N f i) (ext N f' i)).
  { intros i Hi. unfold ext. cbn [nmul nsub ofZ FNum]. destruct (Nat.ltb_spec i (N - 2)); [|destruct (Nat.ltb_spec i (2 * N - 2))].
    - apply (G_sub k (-310) 200 2 1); try lia; try exact r0; [|apply Hf; lia]. apply (G_mulZ k 2 (-310) 200 1); try lia; [apply Hf; lia|exact r0].
    - apply (G_weaken k (-310) 200 1); try lia. apply Hf. lia.
    - apply (G_sub k (-310) 200 2 1); try lia; try exact r0; [|apply Hf; lia]. apply (G_mulZ k 2 (-310) 200 1); try lia; [apply Hf; lia|exact r0]. }
  unfold ofN. cbn [nmul ndiv nadd nsub nsqrt ofZ FNum]. apply (errs_pair _ _ (-441) 264); try lia.
  apply Q_sqrt; [|lia|lia]. apply (Q_weaken _ (2 * -310 - (1 + ((40 - -40) + (40 - -40)) + 40)) (2 * (200 + 4) + 40 - (0 + ((0 - 40) + (0 - 40)) + 0))); [|lia|lia].
  assert (Bt : between (f_ofZ (Z.of_nat m) / rate)%float (0 - 40) (40 - -40)) by (apply between_div; try lia; [apply between_ofZ; lia|exact HR]).
  unfold nsq. cbn [nmul FNum].
  apply Q_div; [|repeat first [exact Bt|apply between_ofZ; lia|apply between_mul; [| |lia|lia]]|apply rnd_cc|lia|lia].
  apply Q_sumsq; try lia. intros i Hi. apply (G_lift k (-310) 200 12 4); [|lia|lia]. unfold tot_diff. cbn [nadd nsub nmul ofZ FNum].
  apply (G_add k (-310) 200 9 3); try lia; try exact r0; [|apply He; lia]. apply (G_sub k (-310) 200 3 6); try lia; try exact r0; [apply He; lia|].
  apply (G_mulZ k 2 (-310) 200 3); try lia; [apply He; lia|exact r0].
Qed.
Lemma half_ex z : (Z.abs z <= 2 ^ 53)%Z -> rnd (IZR z / 2) = IZR z / 2.
Proof.
  intros H. replace (IZR z / 2) with (IZR z * bpow radix2 (-1)) by (cbn; lra). rewrite (gran_ok (-1)); [now apply rnd53_id|lia|now exists z].
Qed.
Lemma half_weight m j : (1 <= m)%nat -> (Z.of_nat m <= 2 ^ 40)%Z -> (j < m)%nat ->
  let w := ((f_ofZ (Z.of_nat m) - f_ofZ 1) / f_ofZ 2 - f_ofZ (Z.of_nat j))%float in ffin w /\ gran (-1) (fR w) /\ Rabs (fR w) <= IZR (2 ^ 40).
Proof.
  intros H1 H2 Hj w. unfold w. destruct (fofZ_ok (Z.of_nat m) ltac:(lia)) as [F1 V1]. destruct (fofZ_ok 1 ltac:(lia)) as [F2 V2].
  destruct (fofZ_ok 2 ltac:(lia)) as [F3 V3]. destruct (fofZ_ok (Z.of_nat j) ltac:(lia)) as [F4 V4].
  assert (SM : forall z, (Z.abs z <= 2 ^ 53)%Z -> Rabs (IZR z) < bpow radix2 1024).
  { intros z Hz. rewrite <- abs_IZR. apply Rle_lt_trans with (IZR (2 ^ 53)); [now apply IZR_le|]. change (IZR (2 ^ 53)) with (bpow radix2 53). apply bpow_lt. lia. }
  assert (SH : forall z, (Z.abs z <= 2 ^ 53)%Z -> Rabs (IZR z / 2) < bpow radix2 1024).
  { intros z Hz. pose proof (SM z Hz). unfold Rdiv. rewrite Rabs_mult, (Rabs_pos_eq (/ 2)) by lra. pose proof (Rabs_pos (IZR z)). lra. }
  assert (E1 : fR (f_ofZ (Z.of_nat m)) - fR (f_ofZ 1) = IZR (Z.of_nat m - 1)) by (rewrite V1, V2, minus_IZR; reflexivity).
  destruct (fsub_ok _ _ F1 F2) as [F5 V5]; [rewrite E1, rnd_int by lia; apply SM; lia|]. rewrite E1, rnd_int in V5 by lia.
  destruct (fdiv_ok _ (f_ofZ 2) F5) as [F6 V6]; [rewrite V3; lra|rewrite V5, V3, half_ex by lia; apply SH; lia|].
  rewrite V5, V3, half_ex in V6 by lia.
  assert (E7 : fR ((f_ofZ (Z.of_nat m) - f_ofZ 1) / f_ofZ 2)%float - fR (f_ofZ (Z.of_nat j)) = IZR (Z.of_nat m - 1 - 2 * Z.of_nat j) / 2).
  { rewrite V6, V4, !minus_IZR, mult_IZR. lra. }
  destruct (fsub_ok _ _ F6 F4) as [F7 V7]; [rewrite E7, half_ex by lia; apply SH; lia|]. rewrite E7, half_ex in V7 by lia.
  split; [exact F7|]. rewrite V7. split; [exists (Z.of_nat m - 1 - 2 * Z.of_nat j)%Z; cbn; lra|].
  unfold Rdiv. rewrite Rabs_mult, (Rabs_pos_eq (/ 2)) by lra. rewrite <- abs_IZR. assert (IZR (Z.abs (Z.of_nat m - 1 - 2 * Z.of_nat j)) <= IZR (2 ^ 40)) by (apply IZR_le; lia). pose proof (IZR_le 0 (2 ^ 40) ltac:(lia)). lra.
Qed.
Lemma between_bigZ z r : (1 <= z)%Z -> (z <= 2 ^ r)%Z -> (0 <= r <= 1000)%Z -> between (f_ofZ z) 0 r.
Proof.
  intros H1 H2 Hr'. apply IZR_le in H1 as H1'. assert (H2' : IZR z <= bpow radix2 r) by (rewrite <- IZR_Zpower by lia; now apply IZR_le).
  destruct (fofZ_round z) as [F V]; [apply (rnd_lt _ r); [lra|lia]|]. apply (between_rnd _ _ _ _ F V); [cbn [bpow]; lra|lia|lia].
Qed.
Let val_tab (g : nat -> float) i : (i < N)%nat -> nth i (tab N g) (f_ofZ 0) = g i. Proof. intros H. exact (nth_tab N g i _ H). Qed.
Lemma pdev_pair m : (1 <= m < N)%nat -> big_row (2 ^ 80) (calc_pdev_phase (tab N f) rate) (calc_pdev_phase (tab N f') rate) m.
Proof using All.
  intros Hm. destruct (Nat.eq_dec m 1) as [->|M1]; [exact (adev_pair 1 1 Hm ltac:(lia))|].
  unfold big_row. rewrite !calc_pdev_form, !tab_length. eexists _, _, _, _, _. split; [reflexivity|]. split; [reflexivity|].
  unfold pdev_cnt, pdev_err, pdev_val. rewrite !tab_length, (proj2 (Nat.eqb_neq m 1) M1). destruct (Z.ltb_spec (pdev_M N m) 1) as [H|H]; [split; [lia|intros; lia]|].
  split; [unfold pdev_M in *; lia|]. intros _.
  assert (EM : pdev_M N m = Z.of_nat (N - 2 * m)) by (unfold pdev_M in *; lia). rewrite EM in *.
  assert (S : forall g : nat -> float, fold_left (fun s i => nadd s (nsq (pdev_term (tab N g) m i))) (seq 0 (N - 2 * m)) (ofZ 0) = asum (tab (N - 2 * m) (fun i => nsq (pdev_term (tab N g) m i)))).
  { intros g. unfold asum, tab. generalize (ofZ 0 : float). induction (seq 0 (N - 2 * m)) as [|i q IH]; intros z; cbn [map fold_left]; [reflexivity|apply IH]. }
  rewrite !S. clear S. unfold ofN. cbn [nmul ndiv nadd nsub nsqrt ofZ FNum]. apply (errs_pair _ _ (-601) 345); try lia.
  apply Q_sqrt; [|lia|lia].
  apply (Q_weaken _ (2 * -311 + 0 - (200 + (40 + (0 - -40) + (40 + (0 - -40))))) (2 * (200 + 41 + 40) + 40 + 7 - (0 + (0 + (0 - 40) + (0 + (0 - 40)))))); [|lia|lia].
  assert (Bt : between (f_ofZ (Z.of_nat m) * (f_ofZ 1 / rate))%float (0 + (0 - 40)) (40 + (0 - -40))) by (apply between_mul; try lia; [apply between_ofZ; lia|apply between_div; try lia; [apply between_ofZ; lia|exact HR]]).
  change (nsq (f_ofZ (Z.of_nat m) * (f_ofZ 1 / rate))%float) with ((f_ofZ (Z.of_nat m) * (f_ofZ 1 / rate)) * (f_ofZ (Z.of_nat m) * (f_ofZ 1 / rate)))%float.
  apply Q_div; [|apply between_mul; [apply between_bigZ|apply between_mul; [exact Bt|exact Bt|lia|lia]| |]; try lia|apply rnd_cc|lia|lia].
  2:{ replace (2 ^ 200)%Z with (2 ^ 40 * (2 ^ 40) ^ 4)%Z by reflexivity. apply Z.mul_le_mono_nonneg; try lia. apply Z.pow_le_mono_l. lia. }
  apply Q_mul_l; [|apply between_ofZ; lia|apply rnd_cc|lia|lia].
  apply (Q_asum _ (2 * -311) (2 * (200 + 41 + 40))); [apply rnd_cc| |lia|lia|lia]. intros i Hi. apply Q_sq; [|lia|lia].
  apply (G_lift k (-311) (200 + 41) (Z.of_nat m * 1) 40); [|lia|lia]. unfold pdev_term. apply G_asum; [|split; lia|lia|lia]. intros j Hj.
  destruct (half_weight m j ltac:(lia) ltac:(lia) Hj) as (Fw & Gw & Bw). unfold ofN. cbn [nmul ndiv nadd nsub ofZ FNum]. rewrite !val_tab by lia.
  apply (G_lift k (-311) 200 (2 ^ 40 * 2) 41); [|lia|lia].
  apply (G_mul_l k (-310) 200 2 _ _ _ (-1) (2 ^ 40)); [|exact Fw|exact Gw|exact Bw|split; lia|lia|lia|lia].
  apply (G_sub k (-310) 200 1 1); try lia; try exact r0; apply Hf; lia.
Qed.
Lemma theo_pair m : (1 <= m < N)%nat -> Nat.even m = true -> big_row (2 ^ 80) (calc_theo1 (tab N f) rate) (calc_theo1 (tab N f') rate) m.
Proof using All.
  intros Hm He. unfold big_row. pose proof (calc_theo1_gen N f rate m Hm He) as E. pose proof (calc_theo1_gen N f' rate m Hm He) as E'. cbv zeta in E, E'.
  assert (Hm2 : m = (2 * Nat.div2 m)%nat) by (pose proof (Nat.div2_odd m) as O; rewrite <- Nat.negb_even, He in O; cbn [negb Nat.b2n] in O; lia).
  eexists _, _, _, _, _. split; [exact E|]. split; [exact E'|]. set (h := Nat.div2 m) in *. split; [nia|]. intros _.
  unfold ofN. cbn [nmul ndiv nadd nsub nsqrt ofZ FNum]. apply (errs_pair _ _ (-461) 284); try lia.
  apply Q_sqrt; [|lia|lia].
  apply (Q_weaken _ (2 * -310 + (0 - 40) - (1 - 0 + 40 + (40 + (0 - -40) + (40 + (0 - -40))))) (2 * (200 + 2) + (0 - 0) + 40 + 40 - (0 - 2 + 0 + (0 + (0 - 40) + (0 + (0 - 40)))))); [|lia|lia].
  assert (Bt : between (f_ofZ (Z.of_nat m) * (f_ofZ 1 / rate))%float (0 + (0 - 40)) (40 + (0 - -40))) by (apply between_mul; try lia; [apply between_ofZ; lia|apply between_div; try lia; [apply between_ofZ; lia|exact HR]]).
  change (nsq (f_ofZ (Z.of_nat m) * (f_ofZ 1 / rate))%float) with ((f_ofZ (Z.of_nat m) * (f_ofZ 1 / rate)) * (f_ofZ (Z.of_nat m) * (f_ofZ 1 / rate)))%float.
  assert (B34 : between (f_ofZ 3 / f_ofZ 4)%float (0 - 2) (1 - 0)).
  { split; [reflexivity|]. replace (f_ofZ 3 / f_ofZ 4)%float with 0x1.8p-1%float by reflexivity. replace (fR 0x1.8p-1) with (3 / 4); [cbn; lra|]. unfold fR. cbn. unfold F2R. cbn. lra. }
  apply Q_div; [|apply between_mul; [apply between_mul; [exact B34|apply between_ofZ; lia|lia|lia]|apply between_mul; [exact Bt|exact Bt|lia|lia]|lia|lia]|apply rnd_cc|lia|lia].
  apply Q_asum; [apply rnd_cc| |lia|lia|lia]. intros i Hi. apply Q_asum; [apply rnd_cc| |lia|lia|lia]. intros d Hd. fold h in Hd.
  unfold theo_term. cbn [nmul FNum].
  assert (Bw : between (theo_w m d) (0 - 40) (0 - 0)).
  { unfold theo_w, ofN. cbn [ndiv nsub ofZ FNum]. apply between_div; try lia; [apply between_ofZ; lia|].
    destruct (fofZ_ok (Z.of_nat m) ltac:(lia)) as [F1 V1]. destruct (fofZ_ok 2 ltac:(lia)) as [F3 V3]. destruct (fofZ_ok (Z.of_nat d) ltac:(lia)) as [F4 V4].
    assert (SM : forall z, (Z.abs z <= 2 ^ 53)%Z -> Rabs (IZR z) < bpow radix2 1024).
    { intros z Hz. rewrite <- abs_IZR. apply Rle_lt_trans with (IZR (2 ^ 53)); [now apply IZR_le|]. change (IZR (2 ^ 53)) with (bpow radix2 53). apply bpow_lt. lia. }
    assert (E2 : fR (f_ofZ (Z.of_nat m)) / fR (f_ofZ 2) = IZR (Z.of_nat h)) by (rewrite V1, V3, Hm2, Nat2Z.inj_mul, mult_IZR; change (Z.of_nat 2) with 2%Z; lra).
    destruct (fdiv_ok _ (f_ofZ 2) F1) as [F6 V6]; [rewrite V3; lra|rewrite E2, rnd_int by lia; apply SM; lia|]. rewrite E2, rnd_int in V6 by lia.
    assert (E7 : fR (f_ofZ (Z.of_nat m) / f_ofZ 2)%float - fR (f_ofZ (Z.of_nat d)) = IZR (Z.of_nat (h - d))) by (rewrite V6, V4, <- minus_IZR; f_equal; lia).
    destruct (fsub_ok _ _ F6 F4) as [F7 V7]; [rewrite E7, rnd_int by lia; apply SM; lia|]. rewrite E7, rnd_int in V7 by lia.
    split; [exact F7|]. rewrite V7. cbn [bpow]. split; [apply (IZR_le 1); lia|]. change (IZR (Z.of_nat (h - d)) <= IZR (2 ^ 40)). apply IZR_le. lia. }
  apply Q_mul_l; [|exact Bw|apply rnd_cc|lia|lia]. apply Q_sq; [|lia|lia]. apply (G_lift k (-310) 200 4 2); [|lia|lia].
  unfold theo_diff. fold h. cbn [nadd nsub FNum].
  apply (G_sub k (-310) 200 3 1); try lia; try exact r0; [|apply Hf; lia]. apply (G_add k (-310) 200 2 1); try lia; try exact r0; [|apply Hf; lia].
  apply (G_sub k (-310) 200 1 1); try lia; try exact r0; apply Hf; lia.
Qed.
Lemma tie_pair m : (1 <= m < N)%nat -> big_row (2 ^ 80) (calc_tierms (tab N f)) (calc_tierms (tab N f')) m.
Proof using All.
  intros Hm. unfold big_row. rewrite !calc_tierms_form, !tab_length. eexists _, _, _, _, _. split; [reflexivity|]. split; [reflexivity|]. split; [lia|]. intros Hn. cbn [nmul ndiv nadd nsub nsqrt ofZ FNum]. split.
  - apply (Q_weaken _ (-360) 222); [|lia|lia]. unfold tierms_val, mean. cbn [nmul ndiv nadd nsub nsqrt ofZ FNum]. rewrite !map_length, !tab_length. apply Q_sqrt; [|lia|lia].
    apply (Q_weaken _ (2 * -310 - 40) (2 * (200 + 1) + 40 - 0)); [|lia|lia]. apply Q_div; [|apply between_ofN; lia|apply rnd_cc|lia|lia].
    change (asum (map nsq ?l)) with (sumsq l). apply Q_sumsq; try lia. intros i Hi. unfold tie_term. cbn [nsub FNum]. rewrite !val_tab by lia.
    apply (G_lift k (-310) 200 2 1); [|lia|lia]. destruct (minmax_gh k (-310) 200 (f i) (f' i) (f (m + i)%nat) (f' (m + i)%nat)) as [X Y]; [apply Hf; lia|apply Hf; lia|].
    apply (G_sub k (-310) 200 1 1); try lia; try exact r0; assumption.
  - destruct (errs_pair (f_ofZ 0) (f_ofZ 0) 0 0 (Z.of_nat N - Z.of_nat m)) as [_ X]; [apply Q_zero|lia|lia|lia|lia|exact X].
Qed.
End Rows.

(** mtie *)
Lemma G_pos k g h a b : G k g h 1 a b -> 0 <= fR a -> Q (bpow radix2 k) g h a b.
Proof.
  intros ((F1 & F2 & E) & G1 & G2 & B1 & B2) H. pose proof (bpow_gt_0 radix2 k). assert (H' : 0 <= fR b) by (rewrite E; nra).
  rewrite Rabs_pos_eq in B1, B2 by assumption. rewrite Rmult_1_l in B1, B2. apply gran_low in G1, G2. rewrite Rabs_pos_eq in G1, G2 by assumption. unfold Q. tauto.
Qed.
Lemma fold_pair k (op : float -> float -> float) g h : (forall a a' b b', G k g h 1 a a' -> G k g h 1 b b' -> G k g h 1 (op a b) (op a' b')) ->
  forall l l', Forall2 (G k g h 1) l l' -> forall a a', G k g h 1 a a' -> G k g h 1 (fold_left op l a) (fold_left op l' a').
Proof. intros Hop l l' H. induction H as [|b b' l l' Hb Hl IH]; intros a a' Ha; cbn [fold_left]; [exact Ha|]. apply IH. now apply Hop. Qed.
Lemma gmm_pair k g h l l' : Forall2 (G k g h 1) l l' -> l <> [] -> G k g h 1 (gmax l) (gmax l') /\ G k g h 1 (gmin l) (gmin l').
Proof.
  intros H Hl. destruct H as [|a a' l l' Ha H]; [contradiction|]. cbn [gmax gmin]. split; apply fold_pair; auto; intros; apply minmax_gh; assumption.
Qed.
Lemma Forall2_tab {X Y} (P : X -> Y -> Prop) n f g : (forall i, (i < n)%nat -> P (f i) (g i)) -> Forall2 P (tab n f) (tab n g).
Proof.
  intros H. unfold tab. assert (K : forall i, In i (seq 0 n) -> P (f i) (g i)) by (intros i Hi; apply in_seq in Hi; apply H; lia).
  induction (seq 0 n) as [|i l IH]; cbn [map]; constructor; [apply K; now left|apply IH; intros; apply K; now right].
Qed.
Lemma mtie_pair k N (f f' : nat -> float) m : (Z.of_nat N <= 2 ^ 40)%Z -> (forall i, (i < N)%nat -> G k (-310) 200 1 (f i) (f' i)) -> (1 <= m < N)%nat ->
  big_row k (2 ^ 80) (calc_mtie (tab N f)) (calc_mtie (tab N f')) m.
Proof.
  intros HN Hf Hm. unfold big_row, calc_mtie. rewrite !try_gen by exact Hm. cbn [bind]. rewrite !tab_length.
  eexists _, _, _, _, _. split; [reflexivity|]. split; [reflexivity|]. split; [lia|]. intros Hn.
  set (w := fun (g : nat -> float) i => tab (m + 1) (fun j => g (i + j)%nat)).
  set (dd := fun (g : nat -> float) i => (gmax (w g i) - gmin (w g i))%float).
  assert (W : forall i, (i < N - m)%nat -> Forall2 (G k (-310) 200 1) (w f i) (w f' i)) by (intros i Hi; apply Forall2_tab; intros j Hj; apply Hf; lia).
  assert (Wn : forall g i, w g i <> []) by (intros g i; unfold w; apply tab_nonnil; lia).
  assert (DG : forall i, (i < N - m)%nat -> G k (-310) (200 + 1) 1 (dd f i) (dd f' i)).
  { intros i Hi. destruct (gmm_pair k _ _ _ _ (W i Hi) (Wn f i)) as [X Y]. apply (G_lift k (-310) 200 2 1); [|lia|lia]. apply (G_sub k (-310) 200 1 1); try lia; auto. split; lia. }
  assert (DP : forall i, (i < N - m)%nat -> 0 <= fR (dd f i)).
  { intros i Hi. assert (FW : Forall ffin (w f i)) by (apply Forall_forall; intros a Ha; unfold w in Ha; apply in_tab in Ha as (j & Hj & ->); destruct (Hf (i + j)%nat ltac:(lia)) as ((F & _) & _); exact F).
    destruct (gmax_spec _ (Wn f i) FW) as (F1 & I1 & U1). destruct (gmin_spec _ (Wn f i) FW) as (F2 & _ & U2). specialize (U2 _ I1).
    destruct (gmm_pair k _ _ _ _ (W i Hi) (Wn f i)) as [X Y]. destruct X as (_ & _ & _ & BX & _), Y as (_ & _ & _ & BY & _). rewrite Rmult_1_l in BX, BY.
    unfold dd. destruct (fsub_ok _ _ F1 F2) as [_ V]; [apply rnd_bound; apply Rle_trans with (2 * bpow radix2 200); [eapply Rle_trans; [apply Rabs_triang|]; rewrite Rabs_Ropp; lra|change 2 with (bpow radix2 1); rewrite <- bpow_plus; apply bpow_le; lia]|].
    rewrite V. replace 0 with (rnd 0) by (rewrite rnd_FLT; apply round_0; typeclasses eauto). apply rnd_mono. lra. }
  assert (LD : forall g, tab (N - m) (dd g) <> []) by (intros g; apply tab_nonnil; lia).
  cbn [ndiv nsqrt ofZ FNum]. change (tab (N - m) (fun i => (gmax (tab (m + 1) (fun j => f (i + j)%nat)) - gmin (tab (m + 1) (fun j => f (i + j)%nat)))%float)) with (tab (N - m) (dd f)).
  change (tab (N - m) (fun i => (gmax (tab (m + 1) (fun j => f' (i + j)%nat)) - gmin (tab (m + 1) (fun j => f' (i + j)%nat)))%float)) with (tab (N - m) (dd f')).
  apply (errs_pair k) with (l := (-310)%Z) (h := (200 + 1)%Z); try lia. apply G_pos.
  - apply gmm_pair; [|apply LD]. now apply Forall2_tab.
  - assert (FD : Forall ffin (tab (N - m) (dd f))) by (apply Forall_forall; intros a Ha; apply in_tab in Ha as (j & Hj & ->); destruct (DG j Hj) as ((F & _) & _); exact F).
    destruct (gmax_spec _ (LD f) FD) as (_ & I & _). apply in_tab in I as (j & Hj & ->). now apply DP.
Qed.

(** ** Whole functions *)
(** samples 0 or between 2^-e and 2^e, finite, and the second list 2^k times the first *)
Definition in_range (e : Z) (a : float) : Prop := fR a = 0 \/ bpow radix2 (- e) <= Rabs (fR a) <= bpow radix2 e.
Definition rescaled (e k : Z) (x y : list float) : Prop :=
  Forall2 (fun a b => ffin a /\ ffin b /\ fR b = bpow radix2 k * fR a /\ in_range e a /\ in_range e b) x y.
Lemma in_range_G e k a b : (0 <= e <= 900)%Z -> ffin a -> ffin b -> fR b = bpow radix2 k * fR a -> in_range e a -> in_range e b -> G k (- e - 52) e 1 a b.
Proof.
  intros He Fa Fb E Ra Rb. assert (K : forall x, in_range e x -> gran (- e - 52) (fR x) /\ Rabs (fR x) <= 1 * bpow radix2 e).
  { intros x H. split; [apply gran_format; [lia|]; destruct H as [H|[H _]]; [now left|now right]|]. rewrite Rmult_1_l. destruct H as [->|[_ H]]; [rewrite Rabs_R0; apply bpow_ge_0|exact H]. }
  destruct (K a Ra), (K b Rb). split; [split; [exact Fa|]; split; assumption|]. tauto.
Qed.

(** pairs of phase records *)
Definition phase_pair (k : Z) (x y : list float) : Prop := (Z.of_nat (len x) <= 2 ^ 40)%Z /\ Forall2 (G k (-310) 200 1) x y.
Lemma phase_tab k x y : phase_pair k x y -> exists N f f', x = tab N f /\ y = tab N f' /\ (Z.of_nat N <= 2 ^ 40)%Z /\ forall i, (i < N)%nat -> G k (-310) 200 1 (f i) (f' i).
Proof.
  intros [HN H]. exists (len x), (fun i => nth i x 0%float), (fun i => nth i y 0%float). split; [apply list_tab|]. pose proof (Forall2_length _ _ _ H) as E. split; [rewrite E; apply list_tab|].
  split; [exact HN|]. clear HN E. induction H as [|a b x y Ha H IH]; intros i Hi; cbn [length] in Hi; [lia|]. destruct i as [|i]; cbn [nth]; [exact Ha|apply IH; lia].
Qed.
Section Fun.
Context (k : Z) (rate : float) (Hr : usual_rate rate) (taus : taus_arg float).
Local Notation D := (Q (bpow radix2 k) (-700) 700).
Local Notation T := (fun t => between t (0 - 40) (40 - -40)).
Lemma rows_pair even B x y calc calc' : phase_pair k x y ->
  (forall m, (1 <= m < Z.of_nat (len x))%Z -> (even = true -> Z.even m = true) -> big_row k B (calc x) (calc' y) (Z.to_nat m)) ->
  rres (big_rel D T B) ('(z, ms, t) <- tau_generator x rate taus even (ofZ (-1)) ;; run_rows (calc z) ms t)
                       ('(z, ms, t) <- tau_generator y rate taus even (ofZ (-1)) ;; run_rows (calc' z) ms t).
Proof using Hr.
  intros [HN H] Hc. unfold tau_generator. rewrite <- (Forall2_length _ _ _ H). destruct (neqb rate (ofZ 0)); [reflexivity|].
  destruct (expand_taus (len x) rate taus) as [ts|e]; [|reflexivity]. cbn [bind].
  set (ms := if even then filter Z.even _ else _).
  assert (Hms : forall m, In m ms -> (1 <= m < Z.of_nat (len x))%Z /\ (even = true -> Z.even m = true)).
  { intros m Hm. unfold ms in Hm. destruct even; [apply filter_In in Hm as [Hm He]|]; apply select_m_In_gen in Hm; split; auto; try lia; discriminate. }
  apply run_rows_big.
  - apply Forall_map, Forall_forall. intros m Hm. destruct (Hms m Hm) as [Hb _]. cbn [ndiv ofZ FNum]. apply between_div; try lia; [apply between_ofZ; lia|exact Hr].
  - intros m Hm. destruct (Hms m Hm) as [Hb He]. exact (Hc m Hb He).
Qed.
Lemma big_scaled B r r' : rres (big_rel D T B) r r' -> rres (result_rel (scaled k)) r r'.
Proof using.
  intros H. destruct r as [[[[t d] e] n]|], r' as [[[[t' d'] e'] n']|]; cbn [rres] in *; try contradiction; [|exact H].
  destruct H as [(E1 & E2 & Hd & He) _]. cbn [result_rel]. split; [exact E1|]. split; [exact E2|].
  assert (W : forall l l', Forall2 D l l' -> Forall2 (scaled k) l l') by (intros l l' F; induction F; constructor; eauto using Q_scaled).
  split; [now apply W|]. destruct e as [l|l], e' as [l'|l']; cbn [errs_rel] in *; try contradiction; [now apply W|].
  clear -He W. induction He; constructor; auto.
Qed.
Lemma tdev_big r r' : rres (big_rel D T (2 ^ 40)) r r' -> rres (result_rel (scaled k)) (r <- r ;; scale_tdev r) (r <- r' ;; scale_tdev r).
Proof using.
  intros H. eapply rres_bind; [exact H|]. intros [[[t d] e] n] [[[t' d'] e'] n'] [(<- & <- & Hd & _) [HT HB]]. cbn [fst snd] in HT, HB.
  unfold scale_tdev. eapply rres_bind with (P := Forall2 (Q (bpow radix2 k) (-700 + (0 - 40)) (700 + (40 - -40)))).
  { apply (bmap2_rel (fun a b => a = b /\ between a (0 - 40) (40 - -40)) D); [| |exact Hd].
    - intros a a' b b' [<- Ba] Hb. cbn [nmul FNum]. apply Q_mul_l; [exact Hb|exact Ba|apply rnd_c|lia|lia].
    - clear -HT. induction HT; constructor; auto. }
  intros v v' Hv.
  assert (Hq : Forall2 (Q (bpow radix2 k) (-700 + (0 - 40) - 20) (700 + (40 - -40) - 0)) (map (fun x => x / nsqrt (ofZ 3))%num v) (map (fun x => x / nsqrt (ofZ 3))%num v')).
  { eapply map_rel; [exact Hv|]. intros a b Hab. cbn [ndiv nsqrt ofZ FNum]. apply Q_div; [exact Hab|apply between_sqrt_n; lia|apply rnd_c|lia|lia]. }
  eapply rres_bind with (P := Forall2 (scaled k)).
  { apply (bmap2_rel (Q (bpow radix2 k) (-700 + (0 - 40) - 20) (700 + (40 - -40) - 0)) (fun a b => a = b /\ (1 < a <= 2 ^ 40)%Z)); [|exact Hq|].
    - intros a a' b b' Ha [<- Bb]. cbn [ndiv nsqrt ofZ FNum]. eapply Q_scaled, Q_div; [exact Ha|apply between_sqrt_n; lia|apply rnd_c|lia|lia].
    - clear -HB. induction HB; constructor; auto. }
  intros w w' Hw. cbn [rres result_rel errs_rel]. split; [reflexivity|]. split; [reflexivity|]. split; [|exact Hw].
  assert (W : forall l l', Forall2 (Q (bpow radix2 k) (-700 + (0 - 40) - 20) (700 + (40 - -40) - 0)) l l' -> Forall2 (scaled k) l l') by (intros l l' F; induction F; constructor; eauto using Q_scaled).
  exact (W _ _ Hq).
Qed.
End Fun.

(** the functions covered *)
Definition unit_table : list (list float -> float -> string -> taus_arg float -> res (@result float)) :=
  [adev; oadev; hdev; ohdev; mdev; tdev; pdev; totdev; theo1; tierms; mtie].
Lemma unit_phase k x y rate taus g : phase_pair k x y -> usual_rate rate -> In g unit_table -> rres (result_rel (scaled k)) (g x rate "phase"%string taus) (g y rate "phase"%string taus).
Proof.
  intros H Hr Hg. destruct (phase_tab k x y H) as (N & f & f' & Ex & Ey & HN & Hf). assert (LN : len x = N) by (rewrite Ex; apply tab_length).
  assert (RP := rows_pair k rate Hr taus).
  cbn [In unit_table] in Hg. repeat (destruct Hg as [<-|Hg]); try contradiction;
    unfold adev, oadev, hdev, ohdev, mdev, tdev, pdev, totdev, theo1, tierms, mtie, input_to_phase; cbn [String.eqb Ascii.eqb Bool.eqb bind].
  - eapply (big_scaled k (2 ^ 80)), (RP false (2 ^ 80)%Z x y (fun z mj => calc_adev_phase z rate mj mj) (fun z mj => calc_adev_phase z rate mj mj) H). intros m Hm _. subst x y. apply (adev_pair k N f f' rate HN Hf Hr (Z.to_nat m) (Z.to_nat m)); lia.
  - eapply (big_scaled k (2 ^ 80)), (RP false (2 ^ 80)%Z x y (fun z mj => calc_adev_phase z rate mj 1) (fun z mj => calc_adev_phase z rate mj 1) H). intros m Hm _. subst x y. apply (adev_pair k N f f' rate HN Hf Hr (Z.to_nat m) 1); lia.
  - eapply (big_scaled k (2 ^ 80)), (RP false (2 ^ 80)%Z x y (fun z mj => calc_hdev_phase z rate mj mj) (fun z mj => calc_hdev_phase z rate mj mj) H). intros m Hm _. subst x y. apply (hdev_pair k N f f' rate HN Hf Hr (Z.to_nat m) (Z.to_nat m)); lia.
  - eapply (big_scaled k (2 ^ 80)), (RP false (2 ^ 80)%Z x y (fun z mj => calc_hdev_phase z rate mj 1) (fun z mj => calc_hdev_phase z rate mj 1) H). intros m Hm _. subst x y. apply (hdev_pair k N f f' rate HN Hf Hr (Z.to_nat m) 1); lia.
  - eapply (big_scaled k (2 ^ 40)), (RP false (2 ^ 40)%Z x y (fun z => calc_mdev_phase z rate) (fun z => calc_mdev_phase z rate) H). intros m Hm _. subst x y. apply (mdev_pair k N f f' rate HN Hf Hr (Z.to_nat m)); lia.
  - eapply (tdev_big k), (RP false (2 ^ 40)%Z x y (fun z => calc_mdev_phase z rate) (fun z => calc_mdev_phase z rate) H). intros m Hm _. subst x y. apply (mdev_pair k N f f' rate HN Hf Hr (Z.to_nat m)); lia.
  - eapply (big_scaled k (2 ^ 80)), (RP false (2 ^ 80)%Z x y (fun z => calc_pdev_phase z rate) (fun z => calc_pdev_phase z rate) H). intros m Hm _. subst x y. apply (pdev_pair k N f f' rate HN Hf Hr (Z.to_nat m)); lia.
  - destruct (Nat.lt_ge_cases N 2) as [L|L].
    + assert (LY : len y = N) by (rewrite Ey; apply tab_length). unfold tau_generator. rewrite LN, LY. destruct (neqb rate (ofZ 0)); [reflexivity|]. destruct (expand_taus N rate taus) as [ts|]; [|reflexivity]. cbn [bind]. clear - LN LY L.
      destruct x as [|a [|b x]], y as [|a' [|b' y]]; cbn in LN, LY; try lia; reflexivity.
    + assert (EE : forall g : nat -> float, ('(ph, m, tu) <- tau_generator (tab N g) rate taus false (ofZ (-1)) ;; u <- totdev_extend ph ;; run_rows (calc_totdev u (len ph) rate) m tu) =
        ('(ph, m, tu) <- tau_generator (tab N g) rate taus false (ofZ (-1)) ;; run_rows (calc_totdev (tab (3 * N - 4) (ext N g)) N rate) m tu)).
      { intros g. unfold tau_generator. destruct (neqb rate (ofZ 0)); [reflexivity|]. destruct (expand_taus _ rate taus); [|reflexivity]. cbn [bind]. rewrite (totdev_extend_gen N g L), tab_length. reflexivity. }
      rewrite Ex, Ey, !EE, <- Ex, <- Ey.
      eapply (big_scaled k (2 ^ 80)), (RP false (2 ^ 80)%Z x y (fun _ => calc_totdev (tab (3 * N - 4) (ext N f)) N rate) (fun _ => calc_totdev (tab (3 * N - 4) (ext N f')) N rate) H). intros m Hm _. apply (tot_pair k N f f' rate HN Hf Hr (Z.to_nat m)); lia.
  - destruct (neqb rate (ofZ 0)); [reflexivity|].
    eapply (big_scaled k (2 ^ 80)), (RP true (2 ^ 80)%Z x y (fun z => calc_theo1 z rate) (fun z => calc_theo1 z rate) H). intros m Hm He. subst x y. apply (theo_pair k N f f' rate HN Hf Hr (Z.to_nat m)); [lia|].
    specialize (He eq_refl). apply Z.even_spec in He. apply Nat.even_spec. destruct He as [q ->]. exists (Z.to_nat q). lia.
  - eapply (big_scaled k (2 ^ 80)), (RP false (2 ^ 80)%Z x y (fun _ => calc_tierms x) (fun _ => calc_tierms y) H). intros m Hm _. subst x y. apply (tie_pair k N f f' rate HN Hf Hr (Z.to_nat m)); lia.
  - eapply (big_scaled k (2 ^ 80)), (RP false (2 ^ 80)%Z x y (fun z => calc_mtie z) (fun z => calc_mtie z) H). intros m Hm _. subst x y. apply (mtie_pair k N f f' (Z.to_nat m) HN Hf); lia.
Qed.

(** phase data *)
Theorem C115_phase k x y rate taus g : rescaled 200 k x y -> (Z.of_nat (len x) <= 2 ^ 40)%Z -> usual_rate rate -> In g unit_table ->
  rres (result_rel (scaled k)) (g x rate "phase"%string taus) (g y rate "phase"%string taus).
Proof.
  intros H HN Hr Hg. apply unit_phase; auto. split; [exact HN|]. clear HN. induction H as [|a b x y (Fa & Fb & E & Ra & Rb) H IH]; constructor; [|exact IH].
  apply (G_weaken k (- (200) - 52) 200 1); [apply (in_range_G 200); auto; lia|lia|lia].
Qed.
Print Assumptions C115_phase.

(** frequency data: the conversion to phase *)
Lemma G_t k g h z a a' b b' t p e : G k g h z a a' ->
  (Rabs (rnd (fR a * t)) < bpow radix2 1024 -> ffin b /\ fR b = rnd (fR a * t)) -> (Rabs (rnd (fR a' * t)) < bpow radix2 1024 -> ffin b' /\ fR b' = rnd (fR a' * t)) ->
  bpow radix2 p <= t <= bpow radix2 e -> (-1022 <= g + p)%Z -> (h + e <= 900)%Z -> (0 <= z <= 2 ^ 53)%Z -> G k (g + p - 52) (h + e) z b b'.
Proof.
  intros ((Fa & Fa' & E) & G1 & G2 & B1 & B2) Hb Hb' [T1 T2] Hg Hh Hz. assert (Pt : 0 < t) by (pose proof (bpow_gt_0 radix2 p); lra).
  destruct (big_ok (h + e) z Hh Hz) as [K0 K1]. assert (EK : rnd53 (IZR z * bpow radix2 (h + e)) = IZR z * bpow radix2 (h + e)) by (apply rnd53_id; lia).
  assert (U : forall x, Rabs x <= IZR z * bpow radix2 h -> Rabs (x * t) <= IZR z * bpow radix2 (h + e)).
  { intros x Hx. rewrite Rabs_mult, (Rabs_pos_eq t) by lra. rewrite bpow_plus, <- Rmult_assoc. apply Rmult_le_compat; try lra. apply Rabs_pos. }
  assert (L : forall x, gran g x -> x * t = 0 \/ bpow radix2 (g + p) <= Rabs (x * t)).
  { intros x Hx. destruct (gran_low g x Hx) as [->|Lx]; [left; ring|right]. rewrite Rabs_mult, (Rabs_pos_eq t) by lra. rewrite bpow_plus. apply Rmult_le_compat; try apply bpow_ge_0; assumption. }
  assert (N : forall x, gran g x -> rnd (x * t) = rnd53 (x * t)).
  { intros x Hx. apply rnd_53. destruct (L x Hx) as [->|Lx]; [now left|right]. eapply Rle_trans; [|exact Lx]. now apply bpow_le. }
  assert (LR : forall x, gran g x -> rnd53 (x * t) = 0 \/ bpow radix2 (g + p) <= Rabs (rnd53 (x * t))).
  { intros x Hx. destruct (L x Hx) as [->|Lx]; [left; apply rnd53_0|right]. destruct (Rle_dec 0 (x * t)) as [P|P].
    - rewrite Rabs_pos_eq in Lx by exact P. rewrite Rabs_pos_eq; [rewrite <- (rnd53_bp (g + p)); now apply rnd53_le|rewrite <- rnd53_0; now apply rnd53_le].
    - rewrite Rabs_left in Lx by lra. rewrite <- Rabs_Ropp, <- rnd53_opp. rewrite Rabs_pos_eq; [rewrite <- (rnd53_bp (g + p)); now apply rnd53_le|rewrite <- rnd53_0; apply rnd53_le; lra]. }
  pose proof (rnd53_abs _ _ K0 EK (U _ B1)) as V1. pose proof (rnd53_abs _ _ K0 EK (U _ B2)) as V2.
  rewrite (N _ G1) in Hb. rewrite (N _ G2) in Hb'. destruct (Hb ltac:(lra)) as [Fb Vb]. destruct (Hb' ltac:(lra)) as [Fb' Vb'].
  split; [split; [exact Fb|split; [exact Fb'|]]; rewrite Vb, Vb', E, <- rnd_c; f_equal; ring|].
  split; [|split; [|rewrite Vb, Vb'; split; assumption]].
  - apply gran_format; [lia|]. rewrite Vb. now apply LR.
  - apply gran_format; [lia|]. rewrite Vb'. now apply LR.
Qed.
Lemma csum_G k g h (u u' : nat -> float) n : (forall i, (i < n)%nat -> G k g h 1 (u i) (u' i)) -> rng g h -> (Z.of_nat n <= 2 ^ 40)%Z ->
  forall j, (j < n)%nat -> G k g h (Z.of_nat j + 1) (csum u j) (csum u' j).
Proof.
  intros H Hr Hn. induction j as [|j IH]; intros Hj; cbn [csum]; [now apply H|]. replace (Z.of_nat (S j) + 1)%Z with (Z.of_nat j + 1 + 1)%Z by lia.
  apply G_add; try lia; [apply IH; lia|now apply H|exact Hr].
Qed.
Lemma f2p_finite (y : list float) rate : y <> [] -> Forall ffin y -> usual_rate rate -> frequency2phase y rate = Ok (phase_of y (asum y / f_ofZ (Z.of_nat (len y)))%float rate).
Proof.
  intros Hy0 Hf Hr. unfold frequency2phase. replace (neqb rate (ofZ 0)) with false.
  2:{ symmetry. cbn [neqb ofZ FNum]. destruct (fofZ_ok 0 ltac:(lia)) as [F0 V0]. destruct Hr as [Fr [Lr _]]. rewrite feqb_ok by assumption. rewrite V0. apply Req_bool_false. pose proof (bpow_gt_0 radix2 (-40)). lra. }
  assert (Hn : forall a, In a y -> @nisnan float FNum a = false) by (intros a Ha; rewrite Forall_forall in Hf; apply fin_not_nan, Hf, Ha).
  rewrite (trim_data_ok [] y [] 0%float y); auto; try (now rewrite app_nil_r).
  - cbn [bind]. assert (Ef : filter (fun x => negb (@nisnan float FNum x)) y = y).
    { clear - Hn. induction y as [|b l IH]; [reflexivity|]. cbn. rewrite Hn by (now left). cbn. f_equal. apply IH. intros a Ha. apply Hn. now right. }
    unfold nanmean. rewrite Ef. reflexivity.
  - apply Hn. destruct y; [contradiction|now left].
  - apply Hn. destruct (exists_last Hy0) as (l & a & ->). rewrite last_last. apply in_or_app. right. now left.
Qed.
Lemma f2p_pair k x y rate : rescaled 60 k x y -> (Z.of_nat (len x) < 2 ^ 40)%Z -> x <> [] -> usual_rate rate ->
  exists p q, frequency2phase x rate = Ok p /\ frequency2phase y rate = Ok q /\ phase_pair k p q.
Proof.
  intros H HN Hx0 Hr.
  assert (Hy0 : y <> []) by (destruct H; [contradiction|discriminate]).
  assert (Fx : Forall ffin x) by (clear -H; induction H as [|a b x y (Fa & _) H IH]; constructor; auto).
  assert (Fy : Forall ffin y) by (clear -H; induction H as [|a b x y (_ & Fb & _) H IH]; constructor; auto).
  rewrite (f2p_finite x rate Hx0 Fx Hr), (f2p_finite y rate Hy0 Fy Hr). eexists _, _. split; [reflexivity|]. split; [reflexivity|].
  pose proof (Forall2_length _ _ _ H) as EL. rewrite <- EL. set (N := len x) in *.
  assert (P0 : forall i, (i < N)%nat -> G k (-112) 60 1 (nth i x 0%float) (nth i y 0%float)).
  { unfold N. clear -H. induction H as [|a b x y (Fa & Fb & E & Ra & Rb) H IH]; intros i Hi; cbn [length] in Hi; [lia|]. destruct i as [|i]; cbn [nth]; [|apply IH; lia].
    exact (in_range_G 60 k a b ltac:(lia) Fa Fb E Ra Rb). }
  assert (PN : (1 <= N)%nat) by (unfold N; destruct x; [contradiction|cbn; lia]).
  set (f := fun i => nth i x 0%float) in *. set (f' := fun i => nth i y 0%float) in *.
  assert (Ex : x = tab N f) by apply list_tab. assert (Ey : y = tab N f') by (rewrite EL; apply list_tab).
  assert (S1 : G k (-112) 60 (Z.of_nat N * 1) (asum x) (asum y)) by (rewrite Ex, Ey; apply G_asum; [exact P0|split; lia|lia|lia]).
  destruct (fofZ_ok (Z.of_nat N) ltac:(lia)) as [Fn Vn]. assert (Pn : 1 <= IZR (Z.of_nat N)) by (apply (IZR_le 1); lia).
  assert (S2 : G k (-112 + -40 - 52) (60 + 0) (Z.of_nat N * 1) (asum x / f_ofZ (Z.of_nat N))%float (asum y / f_ofZ (Z.of_nat N))%float).
  { pose proof S1 as ((Fs & Fs' & _) & _). apply (G_t k (-112) 60 (Z.of_nat N * 1) (asum x) (asum y) _ _ (/ fR (f_ofZ (Z.of_nat N)))); try lia.
    - exact S1.
    - intros O. apply fdiv_ok; [exact Fs|rewrite Vn; lra|exact O].
    - intros O. apply fdiv_ok; [exact Fs'|rewrite Vn; lra|exact O].
    - rewrite Vn. split; [|change (bpow radix2 0) with 1; rewrite <- Rinv_1; apply Rinv_le; lra].
      change (-40)%Z with (- (40))%Z. rewrite bpow_opp. apply Rinv_le; [lra|]. change (bpow radix2 40) with (IZR (2 ^ 40)). apply IZR_le. lia. }
  set (mu := (asum x / f_ofZ (Z.of_nat N))%float) in *. set (mu' := (asum y / f_ofZ (Z.of_nat N))%float) in *.
  set (u := fun i => (f i - mu)%float). set (u' := fun i => (f' i - mu')%float).
  assert (S3 : forall i, (i < N)%nat -> G k (-204) (60 + 41) 1 (u i) (u' i)).
  { intros i Hi. apply (G_lift k (-204) 60 (1 + Z.of_nat N) 41); [|lia|lia]. apply G_sub; try lia; [|replace (Z.of_nat N) with (Z.of_nat N * 1)%Z by lia; exact S2|split; lia].
    apply (G_weaken k (-112) 60 1); [now apply P0|lia|lia]. }
  pose proof (csum_G k (-204) (60 + 41) u u' N S3 ltac:(split; lia) ltac:(lia)) as S4.
  assert (Bd : between (f_ofZ 1 / rate)%float (0 - 40) (0 - -40)) by (apply between_div; try lia; [apply between_ofZ; lia|exact Hr]).
  split.
  - unfold phase_of. cbn [length]. rewrite map_length. rewrite Ex at 1. rewrite map_tab. fold u. rewrite cumsum_gen, tab_length. lia.
  - unfold phase_of. constructor; [apply G_zero; lia|]. rewrite Ex at 1. rewrite Ey at 1. rewrite !map_tab. fold u u'. rewrite !cumsum_gen, !map_tab. apply Forall2_tab. intros i Hi.
    specialize (S4 i Hi). destruct Bd as (Fd & Bd). 
    assert (S5 : G k (-204 + (0 - 40) - 52) (60 + 41 + (0 - -40)) (Z.of_nat i + 1) (csum u i * (f_ofZ 1 / rate))%float (csum u' i * (f_ofZ 1 / rate))%float).
    { pose proof S4 as ((Fs & Fs' & _) & _). apply (G_t k (-204) (60 + 41) (Z.of_nat i + 1) (csum u i) (csum u' i) _ _ (fR (f_ofZ 1 / rate)%float)); try lia.
      - exact S4.
      - intros O. apply fmul_ok; [exact Fs|exact Fd|exact O].
      - intros O. apply fmul_ok; [exact Fs'|exact Fd|exact O].
      - exact Bd. }
    apply (G_lift k _ _ _ 59) in S5; [|lia|lia]. apply (G_weaken k _ _ 1 (-310) 1) in S5; [exact S5|lia|lia].
Qed.
Theorem C115_freq k x y rate taus g : rescaled 60 k x y -> (Z.of_nat (len x) < 2 ^ 40)%Z -> usual_rate rate -> In g unit_table ->
  rres (result_rel (scaled k)) (g x rate "freq"%string taus) (g y rate "freq"%string taus).
Proof.
  intros H HN Hr Hg. destruct (list_eq_dec Nat.eq_dec (repeat 0%nat (len x)) []) as [E|E].
  - assert (x = []) as -> by (destruct x; [reflexivity|discriminate]). inversion H; subst.
    cbn [In unit_table] in Hg. repeat (destruct Hg as [<-|Hg]); try contradiction;
      unfold adev, oadev, hdev, ohdev, mdev, tdev, pdev, totdev, theo1, tierms, mtie, input_to_phase, frequency2phase; cbn [String.eqb Ascii.eqb Bool.eqb bind]; destruct (neqb rate (ofZ 0)); reflexivity.
  - assert (Hx0 : x <> []) by (intros ->; now apply E). destruct (f2p_pair k x y rate H HN Hx0 Hr) as (p & q & Ep & Eq & Hpq).
    pose proof (unit_phase k p q rate taus g Hpq Hr Hg) as K.
    assert (T : forall z w, frequency2phase z rate = Ok w -> g z rate "freq"%string taus = g w rate "phase"%string taus).
    { intros z w Ew. clear -Ew Hg. cbn [In unit_table] in Hg. repeat (destruct Hg as [<-|Hg]); try contradiction;
        unfold adev, oadev, hdev, ohdev, mdev, tdev, pdev, totdev, theo1, tierms, mtie, input_to_phase; cbn [String.eqb Ascii.eqb Bool.eqb bind]; rewrite Ew; reflexivity. }
    now rewrite (T x p Ep), (T y q Eq).
Qed.
Print Assumptions C115_freq.

(** the data multiplied in binary64 by 2^k *)
Theorem C115_times k x q rate taus g ty : (-100 <= k <= 100)%Z -> ffin q -> fR q = bpow radix2 k -> (Z.of_nat (len x) < 2 ^ 40)%Z -> usual_rate rate -> In g unit_table ->
  (ty = "phase"%string /\ Forall (fun a => ffin a /\ in_range 100 a) x) \/ (ty = "freq"%string /\ Forall (fun a => ffin a /\ in_range 30 a) x /\ (-30 <= k <= 30)%Z) ->
  rres (result_rel (scaled k)) (g x rate ty taus) (g (map (fun a => q * a)%float x) rate ty taus).
Proof.
  intros Hk Fq Vq HN Hr Hg H.
  assert (R : forall e, (0 <= e <= 100)%Z -> (- e <= k <= e)%Z -> Forall (fun a => ffin a /\ in_range e a) x -> rescaled (2 * e) k x (map (fun a => q * a)%float x)).
  { intros e He Hke Hx. clear -Hx He Hke Fq Vq. induction Hx as [|a x [Fa Ra] Hx IH]; cbn [map]; constructor; [|exact IH].
    assert (M : ffin (q * a)%float /\ fR (q * a)%float = bpow radix2 k * fR a).
    { assert (GA : gran (- e - 52) (fR a)) by (apply gran_format; [lia|]; destruct Ra as [Ra|[Ra _]]; [now left|now right]).
      assert (EN : rnd (bpow radix2 k * fR a) = bpow radix2 k * fR a).
      { rewrite (gran_ok (k + (- e - 52))); [|lia|apply gran_mul; [exists 1%Z; ring|exact GA]]. rewrite rnd53_bpow. f_equal.
        rewrite <- (gran_ok (- e - 52)) by (auto; lia). rewrite rnd_FLT. apply round_generic; [typeclasses eauto|apply format_fR]. }
      destruct (fmul_ok q a Fq Fa) as [F V].
      - rewrite Vq, EN. destruct Ra as [->|[_ Ra]]; [rewrite Rmult_0_r, Rabs_R0; apply bpow_gt_0|]. rewrite Rabs_mult, (Rabs_pos_eq (bpow radix2 k)) by apply bpow_ge_0.
        apply Rle_lt_trans with (bpow radix2 k * bpow radix2 e); [apply Rmult_le_compat_l; [apply bpow_ge_0|exact Ra]|]. rewrite <- bpow_plus. apply bpow_lt. lia.
      - rewrite Vq, EN in V. auto. }
    destruct M as [Fm Vm]. split; [exact Fa|]. split; [exact Fm|]. split; [exact Vm|]. unfold in_range. rewrite Vm. split.
    - destruct Ra as [Ra|[R1 R2]]; [now left|right]. split; [eapply Rle_trans; [|exact R1]; apply bpow_le; lia|eapply Rle_trans; [exact R2|]; apply bpow_le; lia].
    - destruct Ra as [->|[R1 R2]]; [left; ring|right]. rewrite Rabs_mult, (Rabs_pos_eq (bpow radix2 k)) by apply bpow_ge_0. split.
      + apply Rle_trans with (bpow radix2 k * bpow radix2 (- e)); [rewrite <- bpow_plus; apply bpow_le; lia|]. apply Rmult_le_compat_l; [apply bpow_ge_0|exact R1].
      + apply Rle_trans with (bpow radix2 k * bpow radix2 e); [apply Rmult_le_compat_l; [apply bpow_ge_0|exact R2]|]. rewrite <- bpow_plus. apply bpow_le. lia. }
  destruct H as [(-> & Hx)|(-> & Hx & Hk')].
  - apply C115_phase; auto; [|lia]. apply (R 100%Z); auto; lia.
  - apply C115_freq; auto. apply (R 30%Z); auto; lia.
Qed.
Print Assumptions C115_times.

(** *** Examples: nanoseconds-like integers, unit changed by 2^-10; a record with different deviations, and the same bits up to the exponent *)
Definition C115_x : list float := map f_ofZ [1; 5; -3; 8; 2; 7; -4; 0]%Z.
Lemma C115_x_range e : (5 <= e)%Z -> Forall (fun a => ffin a /\ in_range e a) C115_x.
Proof.
  intros He. assert (K : forall z, (-16 <= z <= 16)%Z -> ffin (f_ofZ z) /\ in_range e (f_ofZ z)).
  { intros z Hz. destruct (fofZ_ok z ltac:(lia)) as [F V]. split; [exact F|]. unfold in_range. rewrite V. destruct (Z.eq_dec z 0) as [->|Nz]; [now left|right].
    rewrite <- abs_IZR. split.
    - apply Rle_trans with (bpow radix2 0); [apply bpow_le; lia|]. change (bpow radix2 0) with (IZR 1). apply IZR_le. lia.
    - apply Rle_trans with (bpow radix2 5); [|apply bpow_le; lia]. change (bpow radix2 5) with (IZR 32). apply IZR_le. lia. }
  unfold C115_x. repeat (apply Forall_cons; [apply K; lia|]). constructor.
Qed.
Lemma C115_rate : usual_rate (f_ofZ 10).
Proof.
  destruct (fofZ_ok 10 ltac:(lia)) as [F V]. split; [exact F|]. rewrite V. split.
  - apply Rle_trans with (bpow radix2 0); [apply bpow_le; lia|]. change (bpow radix2 0) with (IZR 1). apply IZR_le. lia.
  - apply Rle_trans with (bpow radix2 4); [|apply bpow_le; lia]. change (bpow radix2 4) with (IZR 16). apply IZR_le. lia.
Qed.
Lemma C115_q : ffin 0x1p-10%float /\ fR 0x1p-10%float = bpow radix2 (-10).
Proof.
  destruct (fofZ_ok 1 ltac:(lia)) as [F1 V1]. destruct (fofZ_ok 1024 ltac:(lia)) as [F2 V2].
  assert (E : (f_ofZ 1 / f_ofZ 1024)%float = 0x1p-10%float) by reflexivity. rewrite <- E.
  assert (R : rnd (fR (f_ofZ 1) / fR (f_ofZ 1024)) = bpow radix2 (-10)).
  { rewrite V1, V2. replace (1 / 1024) with (bpow radix2 (-10)) by (change (bpow radix2 (-10)) with (/ IZR 1024); field). rewrite rnd_53, rnd53_bp; [reflexivity|]. right. rewrite Rabs_pos_eq by apply bpow_ge_0. apply bpow_le. lia. }
  destruct (fdiv_ok (f_ofZ 1) (f_ofZ 1024) F1) as [F V]; [rewrite V2; lra|rewrite R, Rabs_pos_eq by apply bpow_ge_0; apply bpow_lt; lia|]. rewrite R in V. auto.
Qed.
Example C115_example ty g : In ty ["phase"; "freq"]%string -> In g unit_table ->
  rres (result_rel (scaled (-10))) (g C115_x (f_ofZ 10) ty (TStr "all")) (g (map (fun a => 0x1p-10 * a)%float C115_x) (f_ofZ 10) ty (TStr "all")).
Proof.
  intros Ht Hg. destruct C115_q. apply (C115_times (-10)); auto; try lia; [cbn; lia|apply C115_rate|].
  destruct Ht as [<-|[<-|[]]]; [left|right]; repeat split; auto; try (apply C115_x_range; lia); lia.
Qed.
(** the deviations of that record do not vanish, and the two results differ *)
Example C115_values :
  match oadev C115_x (f_ofZ 10) "phase" (TStr "all"), oadev (map (fun a => 0x1p-10 * a)%float C115_x) (f_ofZ 10) "phase" (TStr "all") with
  | Ok (_, d, _, _), Ok (_, d', _, _) => negb (PrimFloat.eqb (nth 0 d 0%float) 0) && PrimFloat.eqb (nth 0 d 0%float) (1024 * nth 0 d' 0)%float && (2 <=? len d)%nat
  | _, _ => false
  end = true.
Proof. vm_compute. reflexivity. Qed.
