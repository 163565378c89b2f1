(** * Accuracy of the deviations of frequency data in binary64 (C100).

    frequency2phase (allantools.py 2313-2341) removes the mean, integrates
    with np.cumsum and multiplies by 1/rate.  The rounding errors of the
    integration accumulate in the phase, but the deviations see only the
    error made per step. *)
From Coq Require Import ZArith Floats Reals Lra Lia Psatz String List Bool Permutation.
From Flocq Require Import Core.Core IEEE754.BinarySingleNaN.
From Verif Require Import Base Num NpList NumF NumR ListFacts Spec RSum ModelCore ModelDev FloatFacts FloatErr
  GenericProofs TauProofs DevProofs Closed Laws Laws2 Laws3 SemiProofs SemiBound ConvProofs PropsConv PropsLaws PropsSemi FreqBound PropsFreq
  PropsFloatTau PropsFloatErr PropsFloatMdev.
Import ListNotations.
Local Open Scope R_scope.
Local Notation len := List.length.
Local Notation float := Coq.Floats.PrimFloat.float.
Local Notation avgR y := (average (map fR y)).

(** A frequency record: at most 2^26 finite numbers of size at most Y, the
    partial sums of their distances to the mean at most S (always true of S = 2 N Y). *)
Definition bounded_freq (y : list float) (Y S : R) : Prop :=
  y <> [] /\ (Z.of_nat (len y) <= 2 ^ 26)%Z /\ bpow radix2 (-90) <= Y <= bpow radix2 90 /\ S <= bpow radix2 90 /\
  Forall (fun a => ffin a /\ Rabs (fR a) <= Y) y /\
  forall k, (k <= len y)%nat -> Rabs (bigsum k (fun j => fR (nth j y 0%float) - avgR y)) <= S.

(** The phase record made with the computed mean mu. *)
Definition phase_of (y : list float) (mu rate : float) : list float :=
  f_ofZ 0 :: map (fun c => c * (f_ofZ 1 / rate))%float (@cumsum float FNum (map (fun f => f - mu)%float y)).

Lemma sqrt_le_of a b : 0 <= b -> a <= b * b -> R_sqrt.sqrt a <= b.
Proof. intros Hb H. rewrite <- (sqrt_square b) by exact Hb. now apply sqrt_le_1_alt. Qed.

(** Tables with the same taus and counts whose deviations agree to 1.001 (n + c) u times the deviation plus B(m). *)
Definition within_of (c : Z) (B : Z -> R) (r : row) : Prop :=
  ffin (r_dF r) /\ 0 <= fR (r_dF r) /\ Rabs (fR (r_dF r) - r_dR r) <= (1 + / 1000) * (IZR (r_n r + c) * u64) * r_dR r + B (r_m r).
Definition agree_of (rate : float) (c : Z) (B : Z -> R) (resF : res (@result float)) (resR : res (@result R)) : Prop :=
  (resF = Err UserWarning /\ resR = Err UserWarning) \/
  exists rows, resF = Ok (tableF rate rows) /\ resR = Ok (tableR (fR rate) rows) /\ rows <> [] /\ Forall (within_of c B) rows.

Section Phase.
Variables (y : list float) (mu rate : float) (Y S : R).
Hypothesis Hy : bounded_freq y Y S.
Hypothesis Hr : moderate_rate rate.
Hypothesis Hmu : ffin mu.
Hypothesis Emu : INR (len y) * Rabs (fR mu - avgR y) <= 3 / 5 * Y.
Let N := len y.
Let f (i : nat) : float := nth i y 0%float.
Let a (i : nat) : float := (f i - mu)%float.
Let Q : R := S + Y.
Let D : R := fR mu - avgR y.
Let T (k : nat) : R := bigsum k (fun j => fR (f j) - avgR y).
Let w : R := 1 / fR rate.

Lemma fq_consts : 0 < Y /\ 0 <= S /\ Y <= Q /\ S <= Q /\ 0 < u64 <= / 4096 * / 4096 * / 4096 * / 4096 /\ 1 <= INR N /\ INR N * u64 <= / 4096 * / 4096 /\ INR N * Rabs D <= 3 / 5 * Y /\ Rabs D <= 3 / 5 * Y /\
  Rabs (avgR y) <= Y /\ Rabs (fR mu) <= 8 / 5 * Y.
Proof using All.
  destruct Hy as (Hy0 & HN & HY & HS & Hf & HT). pose proof (bpow_gt_0 radix2 (-90)).
  assert (PS : 0 <= S) by (eapply Rle_trans; [apply Rabs_pos|apply (HT 0%nat); lia]).
  assert (P1 : 1 <= INR N) by (change 1 with (INR 1); apply le_INR; unfold N; destruct y; [contradiction|cbn; lia]).
  assert (Uq : 0 < u64 <= / 4096 * / 4096 * / 4096 * / 4096) by (split; [apply u64_pos|unfold u64; lra]).
  assert (NU : INR N * u64 <= / 4096 * / 4096).
  { apply Rle_trans with (IZR (2 ^ 26) * u64); [|unfold u64; cbn; lra]. apply Rmult_le_compat_r; [lra|].
    rewrite INR_IZR_INZ. now apply IZR_le. }
  assert (PD : 0 <= Rabs D) by apply Rabs_pos.
  assert (ED : Rabs D <= 3 / 5 * Y) by (unfold D in *; fold N in Emu; nra).
  assert (AV : Rabs (avgR y) <= Y).
  { unfold average. rewrite map_length. fold N. unfold Rdiv. rewrite Rabs_mult, Rabs_inv, (Rabs_pos_eq (INR N)) by lra.
    apply Rle_trans with (INR N * Y * / INR N); [|right; field; lra]. apply Rmult_le_compat_r; [left; apply Rinv_0_lt_compat; lra|].
    apply SemiBound.bigsum_abs. intros k Hk. rewrite (nth_indep _ 0 (fR 0%float)), map_nth by (rewrite map_length; exact Hk).
    rewrite Forall_forall in Hf. apply Hf. apply nth_In. exact Hk. }
  assert (BM : Rabs (fR mu) <= 8 / 5 * Y) by (unfold D in ED; unfold Rabs in *; repeat destruct Rcase_abs; lra).
  unfold Q. repeat split; try lra; try apply Uq; exact Emu.
Qed.

Lemma fq_f i : (i < N)%nat -> ffin (f i) /\ Rabs (fR (f i)) <= Y.
Proof using All.
  destruct Hy as (Hy0 & HN & HY & HS & Hf & HT). intro Hi. rewrite Forall_forall in Hf. apply Hf. now apply nth_In.
Qed.
Lemma fq_T k : (k <= N)%nat -> Rabs (T k) <= S.
Proof using All. destruct Hy as (Hy0 & HN & HY & HS & Hf & HT). apply HT. Qed.
Lemma fq_big c : c <= 100 * Q -> c <= bpow radix2 1000.
Proof using All.
  destruct Hy as (Hy0 & HN & HY & HS & Hf & HT). intro H. eapply Rle_trans; [exact H|].
  pose proof (bpow_gt_0 radix2 90). apply Rle_trans with (256 * bpow radix2 90); [unfold Q; lra|]. change 256 with (bpow radix2 8). rewrite <- bpow_plus. apply bpow_le. lia.
Qed.

Lemma fq_a i : (i < N)%nat -> ffin (a i) /\ Rabs (fR (a i) - (fR (f i) - fR mu)) <= 13 / 5 * (u64 * Y).
Proof using All.
  intro Hi. destruct fq_consts as (PY & PS & YQ & SQ & Uq & P1 & NU & ND & ED & AV & EM). destruct (fq_f i Hi) as [Fi Ei].
  assert (B : Rabs (fR (f i) - fR mu) <= 13 / 5 * Y).
  { unfold Rabs in *. repeat destruct Rcase_abs; lra. }
  destruct (fsub_err (f i) mu Fi Hmu) as [F E]; [apply fq_big; unfold Q in *; lra|]. split; [exact F|].
  eapply Rle_trans; [exact E|]. replace (13 / 5 * (u64 * Y)) with (u64 * (13 / 5 * Y)) by ring. apply Rmult_le_compat_l; lra.
Qed.

Lemma fq_c k : (k < N)%nat -> ffin (csum a k) /\
  Rabs (fR (csum a k) - (T (k + 1) - INR (k + 1) * D)) <= INR (k + 1) * (33 / 10 * (u64 * Q)) /\
  ((k = 0)%nat -> Rabs (fR (csum a k) - (fR (f k) - fR mu)) <= 33 / 10 * (u64 * Q)).
Proof using All.
  destruct fq_consts as (PY & PS & YQ & SQ & Uq & P1 & NU & ND & ED & AV & EM).
  assert (YU : u64 * Y <= u64 * Q) by (apply Rmult_le_compat_l; lra).
  assert (YU0 : 0 <= u64 * Y) by (apply Rmult_le_pos; lra).
  induction k as [|k IH]; intro Hk.
  - destruct (fq_a 0 Hk) as [F E]. cbn [csum]. split; [exact F|].
    split; [|intros _; lra]. unfold T. cbn [bigsum Nat.add INR]. unfold D.
    replace (fR (a 0) - (0 + (fR (f 0) - avgR y) - 1 * (fR mu - avgR y))) with (fR (a 0) - (fR (f 0%nat) - fR mu)) by ring. lra.
  - destruct (IH ltac:(lia)) as (Fc & Ec & _). destruct (fq_a _ Hk) as [Fa Ea]. cbn [csum].
    change (@nadd float FNum (csum a k) (a (Datatypes.S k))) with (csum a k + a (Datatypes.S k))%float. set (c := csum a k) in *. set (b := a (Datatypes.S k)) in *.
    replace (Datatypes.S k + 1)%nat with (Datatypes.S (k + 1)) by lia. rewrite S_INR.
    assert (ET : T (Datatypes.S (k + 1)) = T (k + 1)%nat + (fR (f (Datatypes.S k)) - avgR y)) by (unfold T; cbn [bigsum]; repeat f_equal; lia).
    pose proof (fq_T (Datatypes.S (k + 1)) ltac:(lia)) as BT. rewrite ET in BT |- *.
    assert (KN : INR (k + 1) + 1 <= INR N) by (rewrite <- S_INR; apply le_INR; lia).
    pose proof (pos_INR (k + 1)) as PK. set (K := INR (k + 1)) in *. set (t := T (k + 1)) in *. set (v := fR (f (Datatypes.S k))) in *.
    assert (BD : Rabs ((K + 1) * D) <= 3 / 5 * Y).
    { rewrite Rabs_mult, (Rabs_pos_eq (K + 1)) by lra. pose proof (Rabs_pos D). nra. }
    assert (BK : (K + 1) * (33 / 10 * (u64 * Q)) <= / 1000 * Q).
    { replace ((K + 1) * (33 / 10 * (u64 * Q))) with ((K + 1) * u64 * (33 / 10 * Q)) by ring.
      apply Rle_trans with (/ 4096 * / 4096 * (33 / 10 * Q)); [|lra]. apply Rmult_le_compat_r; [lra|]. nra. }
    rewrite Rmult_plus_distr_r, Rmult_1_l in BK.
    assert (Bs : Rabs (fR c + fR b) <= 501 / 500 * S + 61 / 100 * Y).
    { replace (fR c + fR b) with ((t + (v - avgR y)) - (K + 1) * D + (fR c - (t - K * D)) + (fR b - (v - fR mu))) by (unfold D; ring).
      eapply Rle_trans; [apply Rabs_triang|]. eapply Rle_trans; [apply Rplus_le_compat_r, Rabs_triang|].
      eapply Rle_trans; [apply Rplus_le_compat_r, Rplus_le_compat_r; apply Rabs_triang|]. rewrite Rabs_Ropp. unfold Q in *. lra. }
    destruct (fadd_err c b Fc Fa) as [F E]; [apply fq_big; unfold Q in *; lra|]. split; [exact F|].
    assert (E' : Rabs (fR (c + b)%float - (fR c + fR b)) <= 501 / 500 * (u64 * S) + 61 / 100 * (u64 * Y)).
    { eapply Rle_trans; [exact E|]. replace (501 / 500 * (u64 * S) + 61 / 100 * (u64 * Y)) with (u64 * (501 / 500 * S + 61 / 100 * Y)) by ring.
      apply Rmult_le_compat_l; lra. }
    split; [|lia].
    replace (fR (c + b)%float - (t + (v - avgR y) - (K + 1) * D)) with
      ((fR (c + b)%float - (fR c + fR b)) + (fR c - (t - K * D)) + (fR b - (v - fR mu))) by (unfold D; ring).
    eapply Rle_trans; [apply Rabs_triang|]. eapply Rle_trans; [apply Rplus_le_compat_r, Rabs_triang|].
    rewrite Rmult_plus_distr_r, Rmult_1_l. assert (0 <= u64 * S) by (apply Rmult_le_pos; lra). unfold Q in *. rewrite Rmult_plus_distr_l in *. lra.
Qed.

(** size, and the error made per step *)
Lemma fq_size k : (k < N)%nat -> Rabs (fR (csum a k)) <= 1001 / 1000 * Q.
Proof using All.
  intro Hk. destruct fq_consts as (PY & PS & YQ & SQ & Uq & P1 & NU & ND & ED & AV & EM). destruct (fq_c k Hk) as (F & E & _).
  pose proof (fq_T (k + 1) ltac:(lia)) as BT.
  assert (KN : INR (k + 1) <= INR N) by (apply le_INR; lia).
  pose proof (pos_INR (k + 1)) as PK. set (K := INR (k + 1)) in *. set (t := T (k + 1)) in *.
  assert (BD : Rabs (K * D) <= 3 / 5 * Y).
  { rewrite Rabs_mult, (Rabs_pos_eq K) by lra. pose proof (Rabs_pos D). nra. }
  assert (BK : K * (33 / 10 * (u64 * Q)) <= / 1000 * Q).
  { replace (K * (33 / 10 * (u64 * Q))) with (K * u64 * (33 / 10 * Q)) by ring.
    apply Rle_trans with (/ 4096 * / 4096 * (33 / 10 * Q)); [|lra]. apply Rmult_le_compat_r; [lra|]. nra. }
  replace (fR (csum a k)) with (t - K * D + (fR (csum a k) - (t - K * D))) by ring.
  eapply Rle_trans; [apply Rabs_triang|]. eapply Rle_trans; [apply Rplus_le_compat_r; apply Rabs_triang|]. rewrite Rabs_Ropp. unfold Q in *. lra.
Qed.
Lemma fq_step k : (Datatypes.S k < N)%nat ->
  Rabs (fR (csum a (Datatypes.S k)) - fR (csum a k) - (fR (f (Datatypes.S k)) - fR mu)) <= 33 / 10 * (u64 * Q).
Proof using All.
  intro Hk. destruct fq_consts as (PY & PS & YQ & SQ & Uq & P1 & NU & ND & ED & AV & EM).
  destruct (fq_c k ltac:(lia)) as (Fc & Ec & _). destruct (fq_a _ Hk) as [Fa Ea]. cbn [csum].
  change (@nadd float FNum (csum a k) (a (Datatypes.S k))) with (csum a k + a (Datatypes.S k))%float. set (c := csum a k) in *. set (b := a (Datatypes.S k)) in *.
  assert (ET : T (k + 2) = T (k + 1)%nat + (fR (f (Datatypes.S k)) - avgR y)).
  { unfold T. replace (k + 2)%nat with (Datatypes.S (k + 1)) by lia. cbn [bigsum]. repeat f_equal; lia. }
  pose proof (fq_T (k + 2) ltac:(lia)) as BT. rewrite ET in BT.
  assert (KN : INR (k + 1) + 1 <= INR N) by (rewrite <- S_INR; apply le_INR; lia).
  pose proof (pos_INR (k + 1)) as PK. set (K := INR (k + 1)) in *. set (t := T (k + 1)) in *. set (v := fR (f (Datatypes.S k))) in *.
  assert (BD : Rabs ((K + 1) * D) <= 3 / 5 * Y).
  { rewrite Rabs_mult, (Rabs_pos_eq (K + 1)) by lra. pose proof (Rabs_pos D). nra. }
  assert (BK : K * (33 / 10 * (u64 * Q)) + 13 / 5 * (u64 * Y) <= / 1000 * Q).
  { apply Rle_trans with ((K + 1) * u64 * (33 / 10 * Q)); [assert (u64 * Y <= u64 * Q) by (apply Rmult_le_compat_l; lra); assert (0 <= u64 * Y) by (apply Rmult_le_pos; lra); lra|].
    apply Rle_trans with (/ 4096 * / 4096 * (33 / 10 * Q)); [|lra]. apply Rmult_le_compat_r; [lra|]. nra. }
  assert (Bs : Rabs (fR c + fR b) <= 501 / 500 * S + 61 / 100 * Y).
  { replace (fR c + fR b) with ((t + (v - avgR y)) - (K + 1) * D + (fR c - (t - K * D)) + (fR b - (v - fR mu))) by (unfold D; ring).
    eapply Rle_trans; [apply Rabs_triang|]. eapply Rle_trans; [apply Rplus_le_compat_r, Rabs_triang|].
    eapply Rle_trans; [apply Rplus_le_compat_r, Rplus_le_compat_r; apply Rabs_triang|]. rewrite Rabs_Ropp. unfold Q in *. lra. }
  destruct (fadd_err c b Fc Fa) as [F E]; [apply fq_big; unfold Q in *; lra|].
  assert (E' : Rabs (fR (c + b)%float - (fR c + fR b)) <= 501 / 500 * (u64 * S) + 61 / 100 * (u64 * Y)).
  { eapply Rle_trans; [exact E|]. replace (501 / 500 * (u64 * S) + 61 / 100 * (u64 * Y)) with (u64 * (501 / 500 * S + 61 / 100 * Y)) by ring.
    apply Rmult_le_compat_l; lra. }
  replace (fR (c + b)%float - fR c - (v - fR mu)) with ((fR (c + b)%float - (fR c + fR b)) + (fR b - (v - fR mu))) by ring.
  eapply Rle_trans; [apply Rabs_triang|].
  assert (0 <= u64 * S) by (apply Rmult_le_pos; lra). unfold Q. rewrite Rmult_plus_distr_l. assert (0 <= u64 * Y) by (apply Rmult_le_pos; lra). lra.
Qed.

(** ** the phase record *)
Let xh (i : nat) : float := match i with O => f_ofZ 0 | Datatypes.S k => (csum a k * (f_ofZ 1 / rate))%float end.
Lemma phase_tab : phase_of y mu rate = tab (Datatypes.S N) xh.
Proof using All.
  unfold phase_of. rewrite (list_tab y 0%float) at 1. fold N f. rewrite map_tab.
  change (tab N (fun i => (f i - mu)%float)) with (tab N a). rewrite cumsum_gen, map_tab. rewrite tab_S. reflexivity.
Qed.

Lemma fq_w : bpow radix2 (-100) <= w <= bpow radix2 100 /\ 0 < w /\ 0 < fR rate.
Proof using All.
  destruct Hr as [F [L U]]. pose proof (bpow_gt_0 radix2 (-100)). pose proof (bpow_gt_0 radix2 100).
  assert (Pr : 0 < fR rate) by lra.
  unfold w, Rdiv. rewrite Rmult_1_l. change (-100)%Z with (- (100))%Z in *. rewrite bpow_opp in *.
  split; [split|]; [| |split; [now apply Rinv_0_lt_compat|exact Pr]].
  - apply Rinv_le; lra.
  - rewrite <- (Rinv_inv (bpow radix2 100)). apply Rinv_le; lra.
Qed.

Lemma fq_x k : (k < N)%nat -> ffin (xh (Datatypes.S k)) /\ Rabs (fR (xh (Datatypes.S k)) - fR (csum a k) * w) <= 201 / 100 * (u64 * Q * w).
Proof using All.
  intro Hk. destruct fq_consts as (PY & PS & YQ & SQ & Uq & P1 & NU & ND & ED & AV & EM). destruct (fq_c k Hk) as (Fc & _ & _).
  pose proof (fq_size k Hk) as Sc. destruct fq_w as ([L U] & Pw & Pr). cbn [xh]. set (c := csum a k) in *.
  destruct (fofZ_ok 1 ltac:(lia)) as [F1 V1]. pose proof eta_pos as Pe.
  assert (Ew : eta <= / 1000 * (u64 * w)).
  { apply Rle_trans with (bpow radix2 (-10) * (bpow radix2 (-53) * bpow radix2 (-100))).
    - rewrite <- !bpow_plus. apply bpow_le. lia.
    - assert (H : u64 = bpow radix2 (-53)) by (unfold u64; cbn; lra). rewrite H. pose proof (bpow_gt_0 radix2 (-53)).
      assert (bpow radix2 (-10) <= / 1000) by (cbn; lra). apply Rmult_le_compat; try lra; [apply bpow_ge_0|apply Rmult_le_pos; apply bpow_ge_0|].
      apply Rmult_le_compat_l; lra. }
  assert (Eq : eta <= / 1000 * (u64 * Q * w)).
  { destruct Hy as (Hy0 & HN & HY & HS & Hf & HT).
    apply Rle_trans with (bpow radix2 (-10) * (bpow radix2 (-53) * bpow radix2 (-90) * bpow radix2 (-100))).
    - rewrite <- !bpow_plus. apply bpow_le. lia.
    - assert (H : u64 = bpow radix2 (-53)) by (unfold u64; cbn; lra). rewrite H.
      assert (bpow radix2 (-10) <= / 1000) by (cbn; lra).
      pose proof (bpow_ge_0 radix2 (-53)). pose proof (bpow_ge_0 radix2 (-90)). pose proof (bpow_ge_0 radix2 (-100)). pose proof (bpow_ge_0 radix2 (-10)).
      apply Rmult_le_compat; try lra; [repeat apply Rmult_le_pos; lra|].
      apply Rmult_le_compat; try lra; [repeat apply Rmult_le_pos; lra|]. apply Rmult_le_compat_l; lra. }
  destruct (fdiv_err (f_ofZ 1) rate F1 ltac:(lra)) as [Fd Ed].
  { rewrite V1. fold w. rewrite Rabs_pos_eq by lra. eapply Rle_trans; [exact U|]. apply bpow_le. lia. }
  rewrite V1 in Ed. fold w in Ed. rewrite (Rabs_pos_eq w) in Ed by lra.
  set (dt := (f_ofZ 1 / rate)%float) in *.
  assert (Uw : 0 <= u64 * w <= / 1000 * w) by (split; [apply Rmult_le_pos; lra|apply Rmult_le_compat_r; lra]).
  assert (Bd : Rabs (fR dt) <= 1002 / 1000 * w).
  { replace (fR dt) with (w + (fR dt - w)) by ring. eapply Rle_trans; [apply Rabs_triang|]. rewrite (Rabs_pos_eq w) by lra. lra. }
  pose proof (Rabs_pos (fR c)) as Pc. pose proof (Rabs_pos (fR dt)) as Pd.
  assert (Bp : Rabs (fR c * fR dt) <= 1004 / 1000 * (Q * w)).
  { rewrite Rabs_mult. apply Rle_trans with (1001 / 1000 * Q * (1002 / 1000 * w)); [apply Rmult_le_compat; lra|].
    assert (0 <= Q * w) by (apply Rmult_le_pos; lra). lra. }
  assert (Bb : Rabs (fR c * fR dt) <= bpow radix2 1000).
  { destruct Hy as (Hy0 & HN & HY & HS & Hf & HT).
    assert (QW : Q * w <= (2 * bpow radix2 90) * bpow radix2 100) by (apply Rmult_le_compat; unfold Q in *; lra).
    pose proof (Rmult_lt_0_compat _ _ (bpow_gt_0 radix2 90) (bpow_gt_0 radix2 100)).
    apply Rle_trans with (4 * (bpow radix2 90 * bpow radix2 100)); [lra|].
    change 4 with (bpow radix2 2). rewrite <- !bpow_plus. apply bpow_le. lia. }
  destruct (fmul_err c dt Fc Fd Bb) as [Fm Em]. split; [exact Fm|].
  replace (fR (c * dt)%float - fR c * w) with ((fR (c * dt)%float - fR c * fR dt) + fR c * (fR dt - w)) by ring.
  eapply Rle_trans; [apply Rabs_triang|]. rewrite (Rabs_mult (fR c) (fR dt - w)).
  assert (A1 : u64 * Rabs (fR c * fR dt) <= 1004 / 1000 * (u64 * Q * w)).
  { apply Rle_trans with (u64 * (1004 / 1000 * (Q * w))); [apply Rmult_le_compat_l; lra|]. right. ring. }
  assert (A2 : Rabs (fR c) * Rabs (fR dt - w) <= 1004 / 1000 * (u64 * Q * w)).
  { apply Rle_trans with (1001 / 1000 * Q * (1001 / 1000 * (u64 * w))).
    - apply Rmult_le_compat; try lra. apply Rabs_pos.
    - replace (1001 / 1000 * Q * (1001 / 1000 * (u64 * w))) with (1002001 / 1000000 * (u64 * Q * w)) by field.
      assert (0 <= u64 * Q * w) by (apply Rmult_le_pos; [apply Rmult_le_pos|]; lra). lra. }
  lra.
Qed.

Lemma phase_record : bounded_record (phase_of y mu rate) (251 / 250 * (Q * w)) /\
  bpow radix2 (-200) <= 251 / 250 * (Q * w) <= bpow radix2 200.
Proof using All.
  destruct fq_consts as (PY & PS & YQ & SQ & Uq & P1 & NU & ND & ED & AV & EM). destruct fq_w as ([L U] & Pw & Pr).
  assert (PQ : 0 < Q * w) by (apply Rmult_lt_0_compat; lra).
  assert (BM : bpow radix2 (-200) <= 251 / 250 * (Q * w) <= bpow radix2 200).
  { destruct Hy as (Hy0 & HN & HY & HS & Hf & HT). split.
    - apply Rle_trans with (bpow radix2 (-90) * bpow radix2 (-100)).
      + rewrite <- !bpow_plus. apply bpow_le. lia.
      + apply Rle_trans with (Q * w); [|lra]. apply Rmult_le_compat; try lra; apply bpow_ge_0.
    - assert (QW : Q * w <= (2 * bpow radix2 90) * bpow radix2 100) by (apply Rmult_le_compat; unfold Q in *; lra).
      pose proof (Rmult_lt_0_compat _ _ (bpow_gt_0 radix2 90) (bpow_gt_0 radix2 100)).
      apply Rle_trans with (4 * (bpow radix2 90 * bpow radix2 100)); [lra|].
      change 4 with (bpow radix2 2). rewrite <- !bpow_plus. apply bpow_le. lia. }
  split; [|exact BM]. rewrite phase_tab. split.
  - rewrite tab_length. destruct Hy as (Hy0 & HN & _). fold N in HN. lia.
  - split.
    + split; [apply Rle_trans with (bpow radix2 (-200))|apply Rle_trans with (bpow radix2 200)]; try lra; apply bpow_le; lia.
    + apply Forall_forall. intros v Hv. unfold tab in Hv. apply in_map_iff in Hv as (i & <- & Hi). apply in_seq in Hi.
      destruct i as [|k].
      * cbn [xh]. destruct (fofZ_ok 0 ltac:(lia)) as [F V]. split; [exact F|]. rewrite V, Rabs_R0. lra.
      * destruct (fq_x k ltac:(lia)) as [F E]. split; [exact F|]. pose proof (fq_size k ltac:(lia)) as Sz.
        replace (fR (xh (Datatypes.S k))) with (fR (csum a k) * w + (fR (xh (Datatypes.S k)) - fR (csum a k) * w)) by ring.
        eapply Rle_trans; [apply Rabs_triang|]. rewrite Rabs_mult, (Rabs_pos_eq w) by lra.
        assert (Rabs (fR (csum a k)) * w <= 1001 / 1000 * Q * w) by (apply Rmult_le_compat_r; lra).
        assert (u64 * Q * w <= / 4096 * (Q * w)) by (rewrite Rmult_assoc; apply Rmult_le_compat_r; lra).
        lra.
Qed.

(** the record in exact arithmetic, and the two steps from the computed one to it *)
Let X1 : list R := map fR (phase_of y mu rate).
Let X2 : list R := tab (Datatypes.S N) (fun i => match i with O => 0 | Datatypes.S k => fR (csum a k) * w end).
Let X4 : list R := tab (Datatypes.S N) (fun i => bigsum i (fun k => (map fR y).[k] - avgR y) / fR rate).

Lemma X1_len : len X1 = Datatypes.S N.
Proof using All. unfold X1. now rewrite map_length, phase_tab, tab_length. Qed.
Lemma X1_X2 i : Rabs (X1.[i] - X2.[i]) <= 201 / 100 * (u64 * Q * w).
Proof using All.
  destruct fq_consts as (PY & PS & YQ & SQ & Uq & P1 & NU & ND & ED & AV & EM). destruct fq_w as ([L U] & Pw & Pr).
  assert (P : 0 <= u64 * Q * w) by (apply Rmult_le_pos; [apply Rmult_le_pos|]; lra).
  destruct (Nat.lt_ge_cases i (Datatypes.S N)) as [Hi|Hi].
  - unfold X1, X2. rewrite phase_tab, map_tab, !nth_tab by exact Hi. destruct i as [|k].
    + cbn [xh]. destruct (fofZ_ok 0 ltac:(lia)) as [_ V]. rewrite V, Rminus_0_r, Rabs_R0. lra.
    + apply (fq_x k). lia.
  - rewrite !nth_overflow by (unfold X2; rewrite ?tab_length, ?X1_len; exact Hi). rewrite Rminus_0_r, Rabs_R0. lra.
Qed.
Lemma X2_X4 i : (Datatypes.S i < Datatypes.S N)%nat ->
  let X3 := shifted (line 0 (- D * w)) X4 in
  Rabs (fR rate * (X2.[Datatypes.S i] - X2.[i]) - fR rate * (X3.[Datatypes.S i] - X3.[i])) <= 33 / 10 * (u64 * Q).
Proof using All.
  intros Hi X3. destruct fq_w as (_ & Pw & Pr). assert (W : fR rate * w = 1) by (unfold w; field; lra).
  assert (E3 : forall j, (j < Datatypes.S N)%nat -> X3.[j] = T j * w + (0 + (- D * w) * INR j)).
  { intros j Hj. unfold X3, shifted, X4. fold (tab (len (tab (Datatypes.S N) (fun i => bigsum i (fun k => (map fR y).[k] - avgR y) / fR rate)))
       (fun i0 => (tab (Datatypes.S N) (fun i => bigsum i (fun k => (map fR y).[k] - avgR y) / fR rate)).[i0] + line 0 (- D * w) i0)).
    rewrite tab_length, !nth_tab by exact Hj. unfold line. f_equal. unfold T, w, Rdiv. rewrite Rmult_1_l. f_equal.
    apply bigsum_ext. intros k Hk. f_equal. rewrite (nth_indep _ 0 (fR 0%float)) by (rewrite map_length; fold N; lia). apply map_nth. }
  rewrite !E3 by lia. rewrite S_INR. unfold X2. rewrite !nth_tab by lia.
  assert (ET : T (Datatypes.S i) = T i + (fR (f i) - avgR y)) by reflexivity. rewrite ET.
  destruct i as [|k].
  - destruct (fq_c 0 ltac:(lia)) as (_ & _ & E). specialize (E eq_refl).
    eapply Rle_trans; [|exact E]. right. f_equal. unfold T. cbn [bigsum INR].
    replace (fR rate * (fR (csum a 0) * w - 0) - fR rate * ((0 + (fR (f 0) - avgR y)) * w + (0 + - D * w * (0 + 1)) - (0 * w + (0 + - D * w * 0))))
      with (fR rate * w * (fR (csum a 0) - (fR (f 0%nat) - avgR y - D))) by ring.
    rewrite W. unfold D. ring.
  - eapply Rle_trans; [|apply (fq_step k); lia]. right. f_equal.
    replace (fR rate * (fR (csum a (Datatypes.S k)) * w - fR (csum a k) * w) -
      fR rate * ((T (Datatypes.S k) + (fR (f (Datatypes.S k)) - avgR y)) * w + (0 + - D * w * (INR (Datatypes.S k) + 1)) - (T (Datatypes.S k) * w + (0 + - D * w * INR (Datatypes.S k)))))
      with (fR rate * w * (fR (csum a (Datatypes.S k)) - fR (csum a k) - (fR (f (Datatypes.S k)) - avgR y - D))) by ring.
    rewrite W. unfold D. ring.
Qed.

(** The deviations of the computed record, in exact arithmetic, against those of the data. *)
Lemma moved s g h tR : In s [st_adev; st_oadev; st_hdev; st_ohdev; st_mdev; st_tdev] -> In (s_fun s, g) gains -> In (s_fun s, h) blind_gains ->
  (forall e, s_fun s X1 (fR rate) "phase"%string tR = Err e -> s_fun s (map fR y) (fR rate) "freq"%string tR = Err e) /\
  forall rows, s_fun s X1 (fR rate) "phase"%string tR = Ok (tableR (fR rate) rows) ->
   exists rows', s_fun s (map fR y) (fR rate) "freq"%string tR = Ok (tableR (fR rate) rows') /\
     Forall2 (fun r r' => r_m r' = r_m r /\ r_n r' = r_n r /\ r_dF r' = r_dF r /\ r_eF r' = r_eF r /\ (1 <= r_m r)%Z /\ (0 <= r_n r <= Z.of_nat N + 1)%Z /\
        Rabs (r_dR r - r_dR r') <= g (fR rate) (IZR (r_m r) / fR rate) * (201 / 100 * (u64 * Q * w)) + h (IZR (r_m r) / fR rate) * (33 / 10 * (u64 * Q))) rows rows'.
Proof using All.
  intros Hs Hg Hh. destruct fq_w as (_ & Pw & Pr).
  destruct fq_consts as (PY & PS & YQ & SQ & Uq & _).
  assert (Hst : In s stats) by (revert Hs; unfold stats; cbn; tauto).
  assert (E4 : s_fun s (map fR y) (fR rate) "freq"%string tR = s_fun s X4 (fR rate) "phase"%string tR).
  { assert (Hn : map fR y <> []) by (destruct Hy as (Hy0 & _); destruct y; [contradiction|discriminate]).
    pose proof (frequency2phase_R (map fR y) (fR rate) Hn ltac:(lra)) as E. rewrite map_length in E. fold N X4 in E.
    cbn [In] in Hs. repeat (destruct Hs as [<- | Hs]); try contradiction; cbn [s_fun st_adev st_oadev st_hdev st_ohdev st_mdev st_tdev];
      unfold tdev, adev, oadev, hdev, ohdev, mdev, input_to_phase; cbn [String.eqb Ascii.eqb Bool.eqb bind]; rewrite E; reflexivity. }
  rewrite E4.
  destruct (same_rows s (Datatypes.S N) (fR rate) tR Hst Pr) as [[e E]|(good & Hg0 & Hgood & E)].
  - split.
    + intros e' H. rewrite E in H by apply X1_len. rewrite E by apply tab_length. exact H.
    + intros rows H. rewrite E in H by apply X1_len. discriminate.
  - split; [intros e' H; rewrite E in H by apply X1_len; discriminate|].
    intros rows H. pose proof H as H0. rewrite E in H by apply X1_len. injection H as Ht Hd He Hn.
    assert (Em : good = map (fun r => Z.to_nat (r_m r)) rows /\ forall r, In r rows -> (1 <= r_m r)%Z).
    { clear - Ht Hgood Pr. revert good Ht Hgood. induction rows as [|r rows IH]; intros [|m good] Ht Hgood; try discriminate.
      - split; [reflexivity|]. intros r [].
      - cbn in Ht. injection Ht as Ht1 Ht2. destruct (IH good Ht2 (fun m' H => Hgood m' (or_intror H))) as [-> IH2].
        assert (Q1 : IZR (r_m r) = IZR (Z.of_nat m)).
        { apply (f_equal (fun z => z * fR rate)) in Ht1. unfold Rdiv in Ht1. rewrite !Rmult_assoc, !Rinv_l, !Rmult_1_r in Ht1 by lra. rewrite <- INR_IZR_INZ. now symmetry. }
        apply eq_IZR in Q1. destruct (Hgood m (or_introl eq_refl)) as (Hm & _). split; [cbn; f_equal; lia|].
        intros r' [<-|Hr']; [lia|now apply IH2]. }
    destruct Em as [-> Hm1].
    set (new := fun r => Row (r_m r) (r_n r) (r_dF r) (r_eF r) (s_dev s X4 (fR rate) (Z.to_nat (r_m r)))
       (s_dev s X4 (fR rate) (Z.to_nat (r_m r)) * s_w s (Datatypes.S N) (Z.to_nat (r_m r)))).
    exists (map new rows). split.
    + rewrite E by apply tab_length. unfold tableR. rewrite !map_map in *. cbn [r_m r_n r_dR r_eR new].
      assert (ET : map (fun r => INR (Z.to_nat (r_m r)) / fR rate) rows = map (fun r => IZR (r_m r) / fR rate) rows).
      { apply map_ext_in. intros r Hin. f_equal. rewrite INR_IZR_INZ, Z2Nat.id; [reflexivity|]. specialize (Hm1 r Hin). lia. }
      rewrite ET, Hn. reflexivity.
    + assert (Key : forall r, In r rows -> (0 <= r_n r <= Z.of_nat N + 1)%Z /\
        Rabs (r_dR r - s_dev s X4 (fR rate) (Z.to_nat (r_m r))) <= g (fR rate) (IZR (r_m r) / fR rate) * (201 / 100 * (u64 * Q * w)) + h (IZR (r_m r) / fR rate) * (33 / 10 * (u64 * Q))).
      { intros r Hin. rewrite !map_map in Hd, Hn. split.
        - pose proof (ext_in_map Hn r Hin) as Cn. cbv beta in Cn. rewrite <- Cn.
          destruct (Hgood (Z.to_nat (r_m r)) (in_map (fun r => Z.to_nat (r_m r)) _ _ Hin)) as (Hm & _ & Hc).
          revert Hc. clear - Hs Hm. cbn [In] in Hs. set (m := Z.to_nat (r_m r)) in *.
          repeat (destruct Hs as [<- | Hs]); try contradiction; cbn [s_cnt st_adev st_oadev st_hdev st_ohdev st_mdev st_tdev];
            unfold c_adev, c_oadev, c_hdev, c_ohdev, c_mdev.
          all: intro Hc; assert (Dv : ((Datatypes.S N - 1) / m <= Datatypes.S N - 1)%nat) by (apply Nat.div_le_upper_bound; nia); lia.
        - pose proof (ext_in_map Hd r Hin) as Cd. cbv beta in Cd. rewrite <- Cd.
          apply (In_nth _ _ (new r)) in Hin as (i & Hi & Er).
          assert (EX3 : s_fun s (shifted (line 0 (- D * w)) X4) (fR rate) "phase"%string tR = s_fun s X4 (fR rate) "phase"%string tR).
          { apply C31_line; [|exact Pr]. revert Hs. cbn [In]. intros Hs. repeat (destruct Hs as [<- | Hs]); try contradiction; cbn; tauto. }
          pose proof (E X1 X1_len) as F1. pose proof (E X2 ltac:(apply tab_length)) as F2. pose proof (E X4 ltac:(apply tab_length)) as F4.
          rewrite <- EX3 in F4.
          assert (L3 : len (shifted (line 0 (- D * w)) X4) = Datatypes.S N) by (unfold shifted; rewrite map_length, seq_length; apply tab_length).
          destruct (C90_resolution (s_fun s) g X1 X2 (201 / 100 * (u64 * Q * w)) (fR rate) tR _ _ _ _ _ _ _ _ Hg Pr ltac:(rewrite X1_len; apply tab_length) X1_X2 F1 F2)
            as (_ & _ & _ & _ & B1).
          destruct (C99_phase (s_fun s) h X2 (shifted (line 0 (- D * w)) X4) (33 / 10 * (u64 * Q)) (fR rate) tR _ _ _ _ _ _ _ _ ltac:(unfold fgains; apply in_or_app; left; exact Hh) Pr
             ltac:(apply Rmult_le_pos; [lra|apply Rmult_le_pos; lra]) ltac:(rewrite L3; symmetry; apply tab_length)
             ltac:(unfold X2 at 1; rewrite tab_length; exact X2_X4) F2 F4) as (_ & _ & _ & _ & B2).
          assert (Hi' : (i < len (map (fun m => (INR m / fR rate)%R) (map (fun r => Z.to_nat (r_m r)) rows)))%nat) by (rewrite !map_length; exact Hi).
          specialize (B1 i Hi'). specialize (B2 i Hi').
          assert (NT : forall F, nth i (map F (map (fun r => Z.to_nat (r_m r)) rows)) 0 = F (Z.to_nat (r_m r))).
          { intros F. rewrite map_map. rewrite (nth_indep _ 0 (F (Z.to_nat (r_m (new r))))) by (rewrite map_length; exact Hi).
            rewrite (map_nth (fun r => F (Z.to_nat (r_m r)))). now rewrite Er. }
          rewrite !NT in B1, B2.
          assert (Tm : INR (Z.to_nat (r_m r)) = IZR (r_m r)).
          { rewrite INR_IZR_INZ, Z2Nat.id; [reflexivity|]. rewrite <- Er. specialize (Hm1 _ (nth_In rows (new r) Hi)). lia. }
          rewrite Tm in B1, B2.
          match goal with |- Rabs (?p1 - ?p4) <= _ => replace (p1 - p4) with ((p1 - s_dev s X2 (fR rate) (Z.to_nat (r_m r))) + (s_dev s X2 (fR rate) (Z.to_nat (r_m r)) - p4)) by ring end.
          eapply Rle_trans; [apply Rabs_triang|]. lra. }
      clear - Key Hm1. induction rows as [|r rows IH]; cbn [map]; constructor.
      * destruct (Key r (or_introl eq_refl)). cbn [new r_m r_n r_dF r_eF r_dR]. repeat split; auto; try tauto. apply Hm1. now left.
      * apply IH; intros; [apply Hm1|apply Key]; now right.
Qed.

(** A result correct to B(m) for the computed record is correct to C(m) for the data. *)
Lemma transfer s g h tR c (B C : Z -> R) resF : (0 <= c <= 100)%Z ->
  In s [st_adev; st_oadev; st_hdev; st_ohdev; st_mdev; st_tdev] -> In (s_fun s, g) gains -> In (s_fun s, h) blind_gains ->
  (forall m, (1 <= m)%Z -> 1001 / 1000 * (g (fR rate) (IZR m / fR rate) * (201 / 100 * (u64 * Q * w)) + h (IZR m / fR rate) * (33 / 10 * (u64 * Q))) + B m <= C m) ->
  agree_of rate c B resF (s_fun s X1 (fR rate) "phase"%string tR) -> agree_of rate c C resF (s_fun s (map fR y) (fR rate) "freq"%string tR).
Proof using All.
  intros Hc Hs Hg Hh HB HA. destruct (moved s g h tR Hs Hg Hh) as [M1 M2].
  destruct HA as [[E1 E2]|(rows & E1 & E2 & E3 & E4)].
  - left. split; [exact E1|]. now apply M1.
  - right. destruct (M2 rows E2) as (rows' & E' & F2). exists rows'.
    assert (ET : tableF rate rows' = tableF rate rows).
    { clear - F2. assert (K : map r_m rows' = map r_m rows /\ map r_n rows' = map r_n rows /\ map r_dF rows' = map r_dF rows /\ map r_eF rows' = map r_eF rows).
      { induction F2 as [|r r' l l' H F IH]; [auto|]. cbn. destruct IH as (-> & -> & -> & ->). destruct H as (-> & -> & -> & -> & _). auto. }
      destruct K as (K1 & K2 & K3 & K4). unfold tableF. rewrite K2, K3, K4.
      rewrite <- (map_map r_m (fun z => (f_ofZ z / rate)%float) rows'), K1, map_map. reflexivity. }
    split; [now rewrite ET|]. split; [exact E'|]. split.
    + intros ->. inversion F2; subst; contradiction.
    + clear - F2 E4 HB Hc Hy. induction F2 as [|r r' l l' H F IH]; constructor.
      * apply Forall_inv in E4. destruct E4 as (A1 & A2 & A3). destruct H as (Em & En & Ed & _ & Hm & Hn & HD).
        unfold within_of. rewrite Em, En, Ed. split; [exact A1|]. split; [exact A2|].
        specialize (HB (r_m r) Hm). set (Del := g (fR rate) (IZR (r_m r) / fR rate) * (201 / 100 * (u64 * Q * w)) + h (IZR (r_m r) / fR rate) * (33 / 10 * (u64 * Q))) in *.
        set (rho := (1 + / 1000) * (IZR (r_n r + c) * u64)) in *.
        assert (R0 : 0 <= rho <= / 1000).
        { pose proof u64_pos. assert (0 <= IZR (r_n r + c)) by (apply IZR_le; lia).
          assert (IZR (r_n r + c) <= IZR (2 ^ 27)) by (apply IZR_le; destruct Hy as (_ & HN & _); fold N in HN; lia).
          unfold rho. split; [apply Rmult_le_pos; [lra|now apply Rmult_le_pos; [|lra]]|].
          apply Rle_trans with ((1 + / 1000) * (IZR (2 ^ 27) * u64)); [|unfold u64; cbn; lra].
          apply Rmult_le_compat_l; [lra|]. apply Rmult_le_compat_r; lra. }
        replace (fR (r_dF r) - r_dR r') with ((fR (r_dF r) - r_dR r) + (r_dR r - r_dR r')) by ring.
        eapply Rle_trans; [apply Rabs_triang|].
        assert (r_dR r <= r_dR r' + Del) by (unfold Rabs in HD; destruct Rcase_abs; lra).
        assert (0 <= Del) by (eapply Rle_trans; [apply Rabs_pos|exact HD]).
        assert (rho * r_dR r <= rho * (r_dR r' + Del)) by (apply Rmult_le_compat_l; lra).
        assert (rho * Del <= / 1000 * Del) by (apply Rmult_le_compat_r; lra). lra.
      * apply IH. now apply Forall_inv_tail in E4.
Qed.

(** All six deviations of the phase record. *)
Lemma freq_rows tF tR : same_request rate tF tR ->
  let x := phase_of y mu rate in let z := map fR y in
  agree_of rate 5 (fun m => (5 + 15 / IZR m) * (u64 * Q)) (adev x rate "phase" tF) (adev z (fR rate) "freq" tR) /\
  agree_of rate 5 (fun m => (5 + 15 / IZR m) * (u64 * Q)) (oadev x rate "phase" tF) (oadev z (fR rate) "freq" tR) /\
  agree_of rate 8 (fun m => (6 + 36 / IZR m) * (u64 * Q)) (hdev x rate "phase" tF) (hdev z (fR rate) "freq" tR) /\
  agree_of rate 8 (fun m => (6 + 36 / IZR m) * (u64 * Q)) (ohdev x rate "phase" tF) (ohdev z (fR rate) "freq" tR) /\
  agree_of rate 11 (fun m => (5 + 44 * INR (N + 1) / IZR m) * (u64 * Q)) (mdev x rate "phase" tF) (mdev z (fR rate) "freq" tR) /\
  agree_of rate 17 (fun m => (3 + 44 * INR (N + 1) / IZR m) * (u64 * Q) * (IZR m / fR rate)) (tdev x rate "phase" tF) (tdev z (fR rate) "freq" tR).
Proof using All.
  intros Hs x z. destruct phase_record as [Hx HM]. fold x in Hx.
  destruct fq_consts as (PY & PS & YQ & SQ & Uq & P1 & _). destruct fq_w as (_ & Pw & Pr).
  assert (Hx0 : x <> []) by discriminate.
  destruct (C81_accuracy x rate _ tF tR Hx Hx0 Hr Hs) as (A1 & A2 & A3 & A4).
  destruct (C84_accuracy x rate _ tF tR Hx HM Hx0 Hr Hs) as (A5 & A6).
  assert (Lx : len x = (N + 1)%nat) by (unfold x; rewrite phase_tab, tab_length; lia).
  rewrite Lx in A5, A6.
  assert (W : w * fR rate = 1) by (unfold w; field; lra).
  assert (conv : forall c k rF rR, agree c k (251 / 250 * (Q * w)) rate rF rR -> agree_of rate c (fun m => 251 / 250 * (k / IZR m) * (u64 * Q)) rF rR).
  { intros c k rF rR [H|(rows & H1 & H2 & H3 & H4)]; [now left|right]. exists rows. repeat split; auto. eapply Forall_impl; [|exact H4].
    intros r (B1 & B2 & B3). split; [exact B1|]. split; [exact B2|]. eapply Rle_trans; [exact B3|]. right. f_equal.
    unfold Rdiv. replace (251 * / 250 * (k * / IZR (r_m r)) * (u64 * Q)) with (251 * / 250 * (k * / IZR (r_m r)) * (u64 * Q) * (w * fR rate)) by (rewrite W; ring). ring. }
  assert (convt : forall c k rF rR, agree_t c k (251 / 250 * (Q * w)) rate rF rR -> agree_of rate c (fun m => 251 / 250 * k * (u64 * Q) * w) rF rR).
  { intros c k rF rR [H|(rows & H1 & H2 & H3 & H4)]; [now left|right]. exists rows. repeat split; auto. eapply Forall_impl; [|exact H4].
    intros r (B1 & B2 & B3). split; [exact B1|]. split; [exact B2|]. eapply Rle_trans; [exact B3|]. right. f_equal. ring. }
  apply conv in A1, A2, A3, A4, A5. apply convt in A6.
  assert (UQ : 0 < u64 * Q) by (apply Rmult_lt_0_compat; lra).
  assert (S2 : R_sqrt.sqrt 2 <= 1415 / 1000) by (apply sqrt_le_of; lra).
  assert (S8 : R_sqrt.sqrt 8 <= 283 / 100) by (apply sqrt_le_of; lra).
  assert (S83 : R_sqrt.sqrt (8 / 3) <= 1634 / 1000) by (apply sqrt_le_of; lra).
  assert (S323 : R_sqrt.sqrt (32 / 3) <= 327 / 100) by (apply sqrt_le_of; lra).
  assert (S23 : R_sqrt.sqrt (2 / 3) <= 817 / 1000) by (apply sqrt_le_of; lra).
  assert (Gn : forall r1 r2 k k1 k2 : R, 1001 / 1000 * (r1 * (201 / 100)) + 251 / 250 * k <= k2 -> 1001 / 1000 * (r2 * (33 / 10)) <= k1 ->
    forall m, (1 <= m)%Z -> 1001 / 1000 * (r1 / (IZR m / fR rate) * (201 / 100 * (u64 * Q * w)) + r2 * (33 / 10 * (u64 * Q))) + 251 / 250 * (k / IZR m) * (u64 * Q) <= (k1 + k2 / IZR m) * (u64 * Q)).
  { intros r1 r2 k k1 k2 H2 H1 m Hm. assert (Pm : 1 <= IZR m) by (now apply IZR_le).
    replace (1001 / 1000 * (r1 / (IZR m / fR rate) * (201 / 100 * (u64 * Q * w)) + r2 * (33 / 10 * (u64 * Q))) + 251 / 250 * (k / IZR m) * (u64 * Q))
      with ((1001 / 1000 * (r2 * (33 / 10)) + (1001 / 1000 * (r1 * (201 / 100)) * (w * fR rate) + 251 / 250 * k) / IZR m) * (u64 * Q)) by (field; lra).
    rewrite W, Rmult_1_r. apply Rmult_le_compat_r; [lra|]. apply Rplus_le_compat; [exact H1|]. unfold Rdiv. apply Rmult_le_compat_r; [left; apply Rinv_0_lt_compat; lra|exact H2]. }
  assert (N2 : 2 <= INR (N + 1)) by (rewrite plus_INR; cbn [INR]; lra).
  split; [|split; [|split; [|split; [|split]]]].
  - apply (transfer st_adev (fun _ tau => R_sqrt.sqrt 8 / tau) (fun _ => R_sqrt.sqrt 2) tR 5 (fun m => 251 / 250 * (9 / IZR m) * (u64 * Q))); try lia; try (cbn; tauto); try exact A1.
    apply Gn; lra.
  - apply (transfer st_oadev (fun _ tau => R_sqrt.sqrt 8 / tau) (fun _ => R_sqrt.sqrt 2) tR 5 (fun m => 251 / 250 * (9 / IZR m) * (u64 * Q))); try lia; try (cbn; tauto); try exact A2.
    apply Gn; lra.
  - apply (transfer st_hdev (fun _ tau => R_sqrt.sqrt (32 / 3) / tau) (fun _ => R_sqrt.sqrt (8 / 3)) tR 8 (fun m => 251 / 250 * (29 / IZR m) * (u64 * Q))); try lia; try (cbn; tauto); try exact A3.
    apply Gn; lra.
  - apply (transfer st_ohdev (fun _ tau => R_sqrt.sqrt (32 / 3) / tau) (fun _ => R_sqrt.sqrt (8 / 3)) tR 8 (fun m => 251 / 250 * (29 / IZR m) * (u64 * Q))); try lia; try (cbn; tauto); try exact A4.
    apply Gn; lra.
  - apply (transfer st_mdev (fun _ tau => R_sqrt.sqrt 8 / tau) (fun _ => R_sqrt.sqrt 2) tR 11 (fun m => 251 / 250 * (40 * INR (N + 1) / IZR m) * (u64 * Q))); try lia; try (cbn; tauto); try exact A5.
    apply Gn; lra.
  - apply (transfer st_tdev (fun _ _ => R_sqrt.sqrt (8 / 3)) (fun tau => R_sqrt.sqrt (2 / 3) * tau) tR 17 (fun m => 251 / 250 * (40 * INR (N + 1)) * (u64 * Q) * w)); try lia; try (cbn; tauto); try exact A6.
    intros m Hm. assert (Pm : 1 <= IZR m) by (now apply IZR_le).
    replace ((3 + 44 * INR (N + 1) / IZR m) * (u64 * Q) * (IZR m / fR rate)) with ((3 * IZR m + 44 * INR (N + 1)) * (u64 * Q * w)) by (unfold w; field; lra).
    replace (1001 / 1000 * (R_sqrt.sqrt (8 / 3) * (201 / 100 * (u64 * Q * w)) + R_sqrt.sqrt (2 / 3) * (IZR m / fR rate) * (33 / 10 * (u64 * Q))) + 251 / 250 * (40 * INR (N + 1)) * (u64 * Q) * w)
      with ((1001 / 1000 * (R_sqrt.sqrt (8 / 3) * (201 / 100)) + 1001 / 1000 * (33 / 10) * R_sqrt.sqrt (2 / 3) * IZR m + 251 / 250 * (40 * INR (N + 1))) * (u64 * Q * w)) by (unfold w; field; lra).
    apply Rmult_le_compat_r; [left; apply Rmult_lt_0_compat; lra|].
    assert (R_sqrt.sqrt (2 / 3) * IZR m <= 817 / 1000 * IZR m) by (apply Rmult_le_compat_r; lra). lra.
Qed.
End Phase.

(** ** The mean *)
Lemma mean_ok y Y S s : bounded_freq y Y S -> sum_of y s ->
  ffin (s / f_ofZ (Z.of_nat (len y)))%float /\ INR (len y) * Rabs (fR (s / f_ofZ (Z.of_nat (len y)))%float - avgR y) <= 3 / 5 * Y.
Proof.
  intros (Hy0 & HN & HY & HS & Hf & HT) Hs. pose proof (bpow_gt_0 radix2 (-90)) as P90.
  set (N := len y) in *. set (f := fun i => nth i y 0%float).
  assert (Hfi : forall k, (k < N)%nat -> ffin (f k) /\ Rabs (fR (f k)) <= Y).
  { intros k Hk. rewrite Forall_forall in Hf. apply Hf, nth_In. exact Hk. }
  assert (N1 : (1 <= N)%nat) by (unfold N; destruct y; [contradiction|cbn; lia]).
  rewrite (list_tab y 0%float) in Hs. fold N f in Hs.
  destruct (sum_err N f Y s N1 ltac:(lia)) as [Fs Es]; [split; [lra|eapply Rle_trans; [apply HY|apply bpow_le; lia]]|exact Hfi|exact Hs|].
  set (Sg := bigsum N (fun k => fR (f k))) in *.
  assert (Av : avgR y = Sg / INR N).
  { unfold average. rewrite map_length. fold N. f_equal. apply bigsum_ext. intros k Hk.
    rewrite (nth_indep _ 0 (fR 0%float)) by (rewrite map_length; exact Hk). apply map_nth. }
  assert (BS : Rabs Sg <= INR N * Y) by (apply SemiBound.bigsum_abs; intros k Hk; now apply Hfi).
  assert (P1 : 1 <= INR N) by (change 1 with (INR 1); now apply le_INR).
  assert (Uq : 0 < u64 <= / 4096 * / 4096 * / 4096 * / 4096) by (split; [apply u64_pos|unfold u64; lra]).
  assert (NB : INR N <= IZR (2 ^ 26)) by (rewrite INR_IZR_INZ; now apply IZR_le).
  assert (NNU : INR N * (INR N * u64) <= 1 / 2).
  { apply Rle_trans with (IZR (2 ^ 26) * (IZR (2 ^ 26) * u64)); [|unfold u64; cbn; lra].
    apply Rmult_le_compat; try lra; [apply Rmult_le_pos; lra|apply Rmult_le_compat_r; lra]. }
  assert (NU : INR N * u64 <= / 4096 * / 4096).
  { apply Rle_trans with (IZR (2 ^ 26) * u64); [apply Rmult_le_compat_r; lra|unfold u64; cbn; lra]. }
  destruct (fofZ_ok (Z.of_nat N) ltac:(lia)) as [FN VN]. rewrite <- INR_IZR_INZ in VN.
  assert (Esn : Rabs (fR s / INR N - Sg / INR N) <= (1 + / 1000) * (INR N * u64) * Y).
  { replace (fR s / INR N - Sg / INR N) with ((fR s - Sg) * / INR N) by (field; lra). rewrite Rabs_mult, Rabs_inv, (Rabs_pos_eq (INR N)) by lra.
    apply Rle_trans with ((1 + / 1000) * (INR N * u64) * (INR N * Y) * / INR N); [|right; field; lra].
    apply Rmult_le_compat_r; [left; apply Rinv_0_lt_compat; lra|exact Es]. }
  assert (Bsn : Rabs (Sg / INR N) <= Y).
  { unfold Rdiv. rewrite Rabs_mult, Rabs_inv, (Rabs_pos_eq (INR N)) by lra.
    apply Rle_trans with (INR N * Y * / INR N); [|right; field; lra]. apply Rmult_le_compat_r; [left; apply Rinv_0_lt_compat; lra|exact BS]. }
  assert (K1 : (1 + / 1000) * (INR N * u64) * Y <= / 1000 * Y) by (apply Rmult_le_compat_r; lra).
  assert (Bq : Rabs (fR s / INR N) <= 1001 / 1000 * Y).
  { replace (fR s / INR N) with (Sg / INR N + (fR s / INR N - Sg / INR N)) by ring. eapply Rle_trans; [apply Rabs_triang|]. lra. }
  destruct (fdiv_err s (f_ofZ (Z.of_nat N)) Fs ltac:(lra)) as [Fm Em].
  { rewrite VN. eapply Rle_trans; [exact Bq|]. apply Rle_trans with (2 * bpow radix2 90); [lra|]. change 2 with (bpow radix2 1). rewrite <- bpow_plus. apply bpow_le. lia. }
  split; [exact Fm|]. rewrite VN in Em. rewrite Av. set (mu := fR (s / f_ofZ (Z.of_nat N))%float) in *.
  assert (Et : eta <= / 1000 * (u64 * Y)).
  { apply Rle_trans with (bpow radix2 (-10) * (bpow radix2 (-53) * bpow radix2 (-90))).
    - rewrite <- !bpow_plus. apply bpow_le. lia.
    - assert (H : u64 = bpow radix2 (-53)) by (unfold u64; cbn; lra). rewrite H. pose proof (bpow_gt_0 radix2 (-53)).
      assert (bpow radix2 (-10) <= / 1000) by (cbn; lra). apply Rmult_le_compat; try lra; [apply bpow_ge_0|apply Rmult_le_pos; lra|].
      apply Rmult_le_compat_l; lra. }
  assert (Ed : Rabs (mu - Sg / INR N) <= (1 + / 1000) * (INR N * u64) * Y + 101 / 100 * (u64 * Y)).
  { replace (mu - Sg / INR N) with ((mu - fR s / INR N) + (fR s / INR N - Sg / INR N)) by ring. eapply Rle_trans; [apply Rabs_triang|].
    assert (u64 * Rabs (fR s / INR N) <= u64 * (1001 / 1000 * Y)) by (apply Rmult_le_compat_l; lra).
    assert (0 <= u64 * Y) by (apply Rmult_le_pos; lra). lra. }
  apply Rle_trans with (INR N * ((1 + / 1000) * (INR N * u64) * Y + 101 / 100 * (u64 * Y))); [apply Rmult_le_compat_l; lra|].
  replace (INR N * ((1 + / 1000) * (INR N * u64) * Y + 101 / 100 * (u64 * Y))) with
    (((1 + / 1000) * (INR N * (INR N * u64)) + 101 / 100 * (INR N * u64)) * Y) by ring.
  apply Rmult_le_compat_r; lra.
Qed.

Lemma fin_not_nan a : ffin a -> @nisnan float FNum a = false.
Proof.
  intro F. cbn [nisnan FNum]. unfold Coq.Floats.PrimFloat.is_nan. rewrite (feqb_ok a a F F).
  unfold Req_bool. rewrite Rcompare_Eq; reflexivity.
Qed.
Lemma frequency2phase_F y Y S rate : bounded_freq y Y S -> moderate_rate rate ->
  frequency2phase y rate = Ok (phase_of y (asum y / f_ofZ (Z.of_nat (len y)))%float rate).
Proof.
  intros (Hy0 & HN & HY & HS & Hf & HT) Hr. apply moderate_safe, safe_neq0 in Hr. unfold frequency2phase. rewrite Hr.
  assert (Hn : forall a, In a y -> @nisnan float FNum a = false).
  { intros a Ha. rewrite Forall_forall in Hf. apply fin_not_nan, Hf, Ha. }
  rewrite (trim_data_ok [] y [] 0%float y); auto; try (now rewrite app_nil_r).
  - cbn [bind]. assert (Ef : filter (fun x => negb (@nisnan float FNum x)) y = y).
    { clear - Hn. induction y as [|b l IH]; [reflexivity|]. cbn. rewrite Hn by (now left). cbn. f_equal. apply IH. intros a Ha. apply Hn. now right. }
    unfold nanmean. rewrite Ef. reflexivity.
  - apply Hn. destruct y; [contradiction|now left].
  - apply Hn. destruct (exists_last Hy0) as (l & a & ->). rewrite last_last. apply in_or_app. right. now left.
Qed.

(** ** C100: frequency data in binary64 against exact arithmetic on the same data.

    The mean may be summed in any order. *)
Theorem C100_any_mean y rate Y S s tF tR : bounded_freq y Y S -> moderate_rate rate -> same_request rate tF tR -> sum_of y s ->
  let x := phase_of y (s / f_ofZ (Z.of_nat (len y)))%float rate in let z := map fR y in let E := u64 * (S + Y) in
  let N := len y in
  agree_of rate 5 (fun m => (5 + 15 / IZR m) * E) (adev x rate "phase" tF) (adev z (fR rate) "freq" tR) /\
  agree_of rate 5 (fun m => (5 + 15 / IZR m) * E) (oadev x rate "phase" tF) (oadev z (fR rate) "freq" tR) /\
  agree_of rate 8 (fun m => (6 + 36 / IZR m) * E) (hdev x rate "phase" tF) (hdev z (fR rate) "freq" tR) /\
  agree_of rate 8 (fun m => (6 + 36 / IZR m) * E) (ohdev x rate "phase" tF) (ohdev z (fR rate) "freq" tR) /\
  agree_of rate 11 (fun m => (5 + 44 * INR (N + 1) / IZR m) * E) (mdev x rate "phase" tF) (mdev z (fR rate) "freq" tR) /\
  agree_of rate 17 (fun m => (3 + 44 * INR (N + 1) / IZR m) * E * (IZR m / fR rate)) (tdev x rate "phase" tF) (tdev z (fR rate) "freq" tR).
Proof.
  intros Hy Hr Hs Hm. destruct (mean_ok y Y S s Hy Hm) as [F E]. apply freq_rows; assumption.
Qed.
Print Assumptions C100_any_mean.

Theorem C100_accuracy y rate Y S tF tR : bounded_freq y Y S -> moderate_rate rate -> same_request rate tF tR ->
  let z := map fR y in let E := u64 * (S + Y) in let N := len y in
  agree_of rate 5 (fun m => (5 + 15 / IZR m) * E) (adev y rate "freq" tF) (adev z (fR rate) "freq" tR) /\
  agree_of rate 5 (fun m => (5 + 15 / IZR m) * E) (oadev y rate "freq" tF) (oadev z (fR rate) "freq" tR) /\
  agree_of rate 8 (fun m => (6 + 36 / IZR m) * E) (hdev y rate "freq" tF) (hdev z (fR rate) "freq" tR) /\
  agree_of rate 8 (fun m => (6 + 36 / IZR m) * E) (ohdev y rate "freq" tF) (ohdev z (fR rate) "freq" tR) /\
  agree_of rate 11 (fun m => (5 + 44 * INR (N + 1) / IZR m) * E) (mdev y rate "freq" tF) (mdev z (fR rate) "freq" tR) /\
  agree_of rate 17 (fun m => (3 + 44 * INR (N + 1) / IZR m) * E * (IZR m / fR rate)) (tdev y rate "freq" tF) (tdev z (fR rate) "freq" tR).
Proof.
  intros Hy Hr Hs z E N. pose proof (C100_any_mean y rate Y S (asum y) tF tR Hy Hr Hs (sum_left y)) as H. cbv zeta in H.
  set (x := phase_of y _ rate) in H. pose proof (frequency2phase_F y Y S rate Hy Hr) as Ex. fold x in Ex.
  assert (K : forall g : list float -> float -> string -> taus_arg float -> res (@result float),
     In g [adev; oadev; hdev; ohdev; mdev; tdev] -> g y rate "freq"%string tF = g x rate "phase"%string tF).
  { intros g Hg. cbn [In] in Hg. repeat (destruct Hg as [<- | Hg]); try contradiction;
      unfold tdev, adev, oadev, hdev, ohdev, mdev, input_to_phase; cbn [String.eqb Ascii.eqb Bool.eqb bind]; rewrite Ex; reflexivity. }
  rewrite !K by (cbn; tauto). exact H.
Qed.
Print Assumptions C100_accuracy.

(** S = 2 N Y always serves. *)
Lemma bounded_freq_worst y Y : y <> [] -> (Z.of_nat (len y) <= 2 ^ 26)%Z -> bpow radix2 (-90) <= Y <= bpow radix2 60 ->
  Forall (fun a => ffin a /\ Rabs (fR a) <= Y) y -> bounded_freq y Y (2 * INR (len y) * Y).
Proof.
  intros Hy0 HN HY Hf. pose proof (bpow_gt_0 radix2 (-90)) as P90.
  assert (NB : INR (len y) <= bpow radix2 26) by (rewrite INR_IZR_INZ; change (bpow radix2 26) with (IZR (2 ^ 26)); now apply IZR_le).
  assert (P1 : 1 <= INR (len y)) by (change 1 with (INR 1); apply le_INR; destruct y; [contradiction|cbn; lia]).
  split; [exact Hy0|]. split; [exact HN|]. split.
  { split; [lra|]. eapply Rle_trans; [apply HY|]. apply bpow_le. lia. }
  split.
  { apply Rle_trans with (bpow radix2 1 * bpow radix2 26 * bpow radix2 60); [|rewrite <- !bpow_plus; apply bpow_le; lia].
    change (bpow radix2 1) with 2. apply Rmult_le_compat; lra. }
  split; [exact Hf|]. intros k Hk.
  assert (Hfi : forall k, (k < len y)%nat -> Rabs (fR (nth k y 0%float)) <= Y).
  { intros j Hj. rewrite Forall_forall in Hf. apply Hf, nth_In. exact Hj. }
  assert (AV : Rabs (avgR y) <= Y).
  { unfold average. rewrite map_length. unfold Rdiv. rewrite Rabs_mult, Rabs_inv, (Rabs_pos_eq (INR (len y))) by lra.
    apply Rle_trans with (INR (len y) * Y * / INR (len y)); [|right; field; lra]. apply Rmult_le_compat_r; [left; apply Rinv_0_lt_compat; lra|].
    apply SemiBound.bigsum_abs. intros j Hj. rewrite (nth_indep _ 0 (fR 0%float)), map_nth by (rewrite map_length; exact Hj). now apply Hfi. }
  apply Rle_trans with (INR k * (2 * Y)).
  - apply SemiBound.bigsum_abs. intros j Hj. specialize (Hfi j ltac:(lia)). unfold Rabs in *. repeat destruct Rcase_abs; lra.
  - apply le_INR in Hk. nra.
Qed.

(** The hypotheses hold for an ordinary record, and the result is then a table. *)
Example C100_ex : let y := [1; 2; 4; 8; 8]%float in bounded_freq y 8 80 /\ moderate_rate 10%float /\
  same_request 10%float (TStr "all") (TStr "all") /\
  exists rows, oadev y 10%float "freq" (TStr "all") = Ok (tableF 10%float rows) /\
    oadev (map fR y) (fR 10%float) "freq" (TStr "all") = Ok (tableR (fR 10%float) rows) /\
    map r_n rows = [4; 2]%Z /\ Forall (within_of 5 (fun m => (5 + 15 / IZR m) * (u64 * (80 + 8)))) rows.
Proof.
  intro y. destruct C81_ex as (Hx & Hr & Hs & _). fold y in Hx. destruct Hx as (_ & _ & Hf).
  assert (Hy : bounded_freq y 8 80).
  { replace 80 with (2 * INR (len y) * 8) by (cbn; lra). apply bounded_freq_worst; [discriminate|cbn; lia| |exact Hf].
    change 8 with (bpow radix2 3). split; apply bpow_le; lia. }
  split; [exact Hy|]. split; [exact Hr|]. split; [exact Hs|].
  destruct (C100_accuracy y 10%float 8 80 _ _ Hy Hr Hs) as (_ & [[E _]|(rows & E1 & E2 & _ & A)] & _).
  - exfalso. revert E. vm_compute. discriminate.
  - exists rows. split; [exact E1|]. split; [exact E2|]. split; [|exact A].
    assert (G : forall r : @result float, oadev y 10%float "freq" (TStr "all") = Ok r -> snd r = [4; 2]%Z).
    { intros r. vm_compute. intro Q. injection Q as <-. reflexivity. }
    exact (G _ E1).
Qed.
