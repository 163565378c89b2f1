(** * Accuracy of tierms, totdev, pdev and theo1 in binary64 (C103). *)
From Coq Require Import ZArith Floats Reals Lra Lia Psatz String List Bool Sorted Permutation.
From Flocq Require Import Core.Core IEEE754.BinarySingleNaN.
From Verif Require Import Base Num NpList NumF NumR ListFacts Spec RSum ModelCore ModelDev FloatFacts FloatErr
  GenericProofs TauProofs TauLaws DevProofs TotProofs Laws3 NanProofs PropsFloatTau PropsFloatErr PropsFloatMtie PropsFloatMdev.
Import ListNotations.
Local Open Scope R_scope.
Local Notation len := List.length.
Local Notation float := Coq.Floats.PrimFloat.float.
Local Notation fsqrt := Coq.Floats.PrimFloat.sqrt.

(** ** Weighted root mean squares *)
Lemma wrms_le n (c a b : nat -> R) Y D : 0 < Y -> 0 <= D -> (forall k, (k < n)%nat -> 0 <= c k) ->
  bigsum n (fun k => c k * (a k - b k) ^ 2) <= D ^ 2 * Y ->
  R_sqrt.sqrt (bigsum n (fun k => c k * a k ^ 2) / Y) <= R_sqrt.sqrt (bigsum n (fun k => c k * b k ^ 2) / Y) + D.
Proof.
  intros PY PD Pc H. set (s := fun k => R_sqrt.sqrt (c k)).
  pose proof (norm_triang n (fun k => s k * b k) (fun k => s k * (a k - b k))) as T. cbv beta in T.
  assert (E : forall g : nat -> R, bigsum n (fun k => (s k * g k) ^ 2) = bigsum n (fun k => c k * g k ^ 2)).
  { intro g. apply bigsum_ext. intros k Hk. rewrite Rpow_mult_distr. f_equal. cbn [pow]. rewrite Rmult_1_r. apply sqrt_sqrt. now apply Pc. }
  rewrite (bigsum_ext n (fun k => (s k * b k + s k * (a k - b k)) ^ 2) (fun k => (s k * a k) ^ 2)) in T
    by (intros; f_equal; ring).
  rewrite !E in T.
  assert (B : R_sqrt.sqrt (bigsum n (fun k => c k * (a k - b k) ^ 2)) <= D * R_sqrt.sqrt Y).
  { rewrite <- (sqrt_pow2 D PD) at 1. rewrite <- sqrt_mult_alt by (apply pow2_ge_0). now apply sqrt_le_1_alt. }
  assert (PS : 0 < R_sqrt.sqrt Y) by (now apply sqrt_lt_R0).
  rewrite !sqrt_div_alt by lra. apply (Rmult_le_reg_r (R_sqrt.sqrt Y)); [exact PS|].
  rewrite Rmult_plus_distr_r. unfold Rdiv. rewrite !Rmult_assoc, Rinv_l, !Rmult_1_r by lra. lra.
Qed.
Lemma wrms_close n (c a b : nat -> R) Y D : 0 < Y -> 0 <= D -> (forall k, (k < n)%nat -> 0 <= c k) ->
  bigsum n (fun k => c k * (a k - b k) ^ 2) <= D ^ 2 * Y ->
  Rabs (R_sqrt.sqrt (bigsum n (fun k => c k * a k ^ 2) / Y) - R_sqrt.sqrt (bigsum n (fun k => c k * b k ^ 2) / Y)) <= D.
Proof.
  intros PY PD Pc H. pose proof (wrms_le n c a b Y D PY PD Pc H) as H1.
  assert (H' : bigsum n (fun k => c k * (b k - a k) ^ 2) <= D ^ 2 * Y).
  { rewrite (bigsum_ext n (fun k => c k * (b k - a k) ^ 2) (fun k => c k * (a k - b k) ^ 2)) by (intros; ring). exact H. }
  pose proof (wrms_le n c b a Y D PY PD Pc H') as H2. apply Rabs_le. lra.
Qed.

(** ** Sums of quantities known up to a relative and an absolute error, added up in any order *)
Lemma near_sum n (q : nat -> float) (X : nat -> R) i z B s : (1 <= n)%nat -> (Z.of_nat n <= 2 ^ 40)%Z -> (Z.of_nat i <= 2 ^ 41)%Z ->
  0 <= z -> (forall k, (k < n)%nat -> near (q k) (X k) i z /\ 0 <= X k <= B) -> INR n * (2 * B + z) <= bpow radix2 999 ->
  sum_of (tab n q) s -> near s (bigsum n X) (n + i) ((1 + / 1000) * (INR n * z)).
Proof.
  intros Hn1 Hn Hi Pz Hq HB (t & zz & -> & Hz & Lt).
  destruct (fofZ_ok 0 ltac:(lia)) as [F0 V0]. pose proof u64_pos as Pu.
  assert (LL : len (leaves t) = (zz + n)%nat) by (rewrite (Permutation_length Lt), app_length, repeat_length; now rewrite tab_length).
  set (Q := bigsum n (fun k => fR (q k))).
  assert (RS : rsum (leaves t) = Q).
  { rewrite (rsum_perm _ _ Lt), rsum_app, rsum_tab. fold Q. destruct zz as [|[|zz]]; [cbn; ring|cbn [repeat rsum]; rewrite V0; ring|lia]. }
  pose proof (pow_u_ge1 i) as Gi. pose proof (pow_u_small i ltac:(lia)) as Si.
  pose proof (pow_u_ge1 n) as Gn. pose proof (pow_u_small n ltac:(lia)) as Sn.
  set (a := (1 + u64) ^ i) in *. set (b := (1 + u64) ^ n) in *. set (T := bigsum n X).
  assert (PT : 0 <= T <= INR n * B).
  { split; [apply bigsum_nonneg; intros k Hk; apply Hq, Hk|]. unfold T. rewrite <- bigsum_const. apply bigsum_le. intros k Hk. apply Hq, Hk. }
  assert (EQ : Rabs (Q - T) <= (a - 1) * T + INR n * z).
  { unfold Q, T. rewrite <- bigsum_minus, <- bigsum_const, <- bigsum_scal, <- bigsum_plus.
    clear -Hq. induction n as [|n IH]; cbn [bigsum]; [rewrite Rabs_R0; lra|].
    eapply Rle_trans; [apply Rabs_triang|]. apply Rplus_le_compat; [apply IH; intros; apply Hq; lia|]. destruct (Hq n ltac:(lia)) as [(_ & _ & E) _]. exact E. }
  assert (PQ : 0 <= Q) by (apply bigsum_nonneg; intros k Hk; destruct (Hq k Hk) as [(_ & P & _) _]; exact P).
  assert (Nz : 0 <= INR n * z) by (apply Rmult_le_pos; [apply pos_INR|exact Pz]).
  pose proof (Rabs_le_inv _ _ EQ) as EQ'.
  assert (UQ : Q <= bpow radix2 999).
  { eapply Rle_trans; [|exact HB]. assert ((a - 1) * T <= / 1000 * (INR n * B)) by (apply Rmult_le_compat; lra). nra. }
  destruct (fsum_err t) as [Fs Es].
  - apply (Permutation_Forall (Permutation_sym Lt)), Forall_app. split.
    + apply Forall_forall. intros y Hy. apply repeat_spec in Hy as ->. split; [exact F0|]. rewrite V0. lra.
    + apply Forall_tab. intros k Hk. destruct (Hq k Hk) as [(F & P & _) _]. auto.
  - now rewrite RS.
  - rewrite LL. lia.
  - rewrite RS, LL in Es.
    assert (Mn : (1 + u64) ^ (zz + n - 1) <= b) by (apply Rle_pow; [lra|lia]).
    assert (Es' : Rabs (fR (fsum t) - Q) <= (b - 1) * Q) by (eapply Rle_trans; [exact Es|]; apply Rmult_le_compat_r; lra).
    split; [exact Fs|]. split; [apply Rabs_le_inv in Es'; nra|]. rewrite pow_add. fold a b T.
    replace (fR (fsum t) - T) with ((fR (fsum t) - Q) + (Q - T)) by ring.
    eapply Rle_trans; [apply Rabs_triang|].
    assert ((b - 1) * Q <= (b - 1) * (a * T + INR n * z)) by (apply Rmult_le_compat_l; lra).
    assert ((b - 1) * (INR n * z) <= / 1000 * (INR n * z)) by (apply Rmult_le_compat_r; lra). nra.
Qed.

(** the square of a computed number *)
Lemma near_sq (v : float) : ffin v -> Rabs (fR v) <= bpow radix2 450 -> near (nsq v) (fR v ^ 2) 1 eta /\ 0 <= fR v ^ 2 <= bpow radix2 900.
Proof.
  intros F B.
  assert (P : 0 <= fR v ^ 2 <= bpow radix2 900).
  { split; [apply pow2_ge_0|]. rewrite <- Rsqr_pow2, Rsqr_abs. unfold Rsqr. change 900%Z with (2 * 450)%Z. rewrite <- bpow_sq.
    pose proof (Rabs_pos (fR v)). apply Rmult_le_compat; lra. }
  split; [|exact P].
  assert (O : Rabs (fR v * fR v) <= bpow radix2 1000).
  { replace (fR v * fR v) with (fR v ^ 2) by ring. rewrite Rabs_pos_eq by apply P. eapply Rle_trans; [apply P|]. apply bpow_le. lia. }
  destruct (fmul_ok _ _ F F (rnd_bound _ O)) as [F' V]. replace (fR v * fR v) with (fR v ^ 2) in V by ring.
  unfold nsq. cbn [nmul FNum]. replace eta with ((1 + u64) * 0 + eta) by ring.
  apply (near_round _ (fR v ^ 2)); auto; try lra.
  rewrite Rminus_diag_eq, Rabs_R0 by reflexivity. cbn [pow]. lra.
Qed.

(** ** The root of a weighted sum of squares over a computed denominator *)
Lemma root_near n (c : nat -> R) (vh : nat -> float) (v : nat -> R) s den Y j z y D :
  near s (bigsum n (fun k => c k * fR (vh k) ^ 2)) j z -> approx den Y 7 -> 0 < Y -> 0 <= z -> (Z.of_nat j <= 2 ^ 41)%Z ->
  (forall k, (k < n)%nat -> 0 <= c k) ->
  bigsum n (fun k => c k * fR (vh k) ^ 2) / Y <= / 4 * bpow radix2 990 -> 0 <= D -> 0 <= y -> y * y <= / 4 * bpow radix2 990 ->
  (1 + u64) * ((1 + / 1000) * (z / Y)) + eta <= y * y ->
  bigsum n (fun k => c k * (fR (vh k) - v k) ^ 2) <= D ^ 2 * Y ->
  near (fsqrt (s / den)) (R_sqrt.sqrt (bigsum n (fun k => c k * v k ^ 2) / Y)) (j + 10) ((1 + / 1000) * D + 2 * y).
Proof.
  intros Hs Hd PY Pz Hj Pc HX PD Py Uy Hy HD.
  set (X := bigsum n (fun k => c k * fR (vh k) ^ 2)) in *.
  assert (PX : 0 <= X) by (apply bigsum_nonneg; intros k Hk; apply Rmult_le_pos; [now apply Pc|apply pow2_ge_0]).
  assert (IY : 0 < / Y) by (now apply Rinv_0_lt_compat). pose proof eta_pos as Pe. pose proof u64_pos as Pu.
  assert (PzY : 0 <= z / Y) by (apply Rmult_le_pos; lra).
  assert (H1 := near_div_approx7 s X j z den Y Hs Hd PY PX Pz Hj HX ltac:(nra)).
  apply (near_sqrt_gen _ _ _ _ y) in H1; [|apply Rmult_le_pos; lra|exact Py|exact Hy|lia].
  replace (j + 10)%nat with (S (S (8 + j))) by lia.
  apply (near_shift _ _ _ _ _ D H1); [|apply sqrt_pos|exact PD|lia].
  now apply wrms_close.
Qed.

(** what underflow can contribute is far below the rounding of the samples *)
Lemma tiny M K a : bpow radix2 (-200) <= M -> rg K (-100) 140 -> 0 <= a <= bpow radix2 60 ->
  a * eta / (K * K) + eta <= (u64 * M / (16 * K)) * (u64 * M / (16 * K)).
Proof.
  intros HM HK Ha. pose proof (rg_pos _ _ _ HK) as PK. destruct bpow_nums as (_ & _ & Bu).
  assert (IK : 0 < / K) by (now apply Rinv_0_lt_compat).
  replace (u64 * M / (16 * K) * (u64 * M / (16 * K))) with ((u64 * M) * (u64 * M) * / 256 * (/ K * / K)) by (field; lra).
  replace (a * eta / (K * K)) with (a * eta * (/ K * / K)) by (field; lra).
  assert (UM : bpow radix2 (-253) <= u64 * M).
  { rewrite <- Bu. change (-253)%Z with (-53 + -200)%Z. rewrite bpow_plus. apply Rmult_le_compat_l; [apply bpow_ge_0|exact HM]. }
  assert (P3 : 0 < bpow radix2 (-253)) by apply bpow_gt_0.
  assert (UU : bpow radix2 (-506) <= u64 * M * (u64 * M)).
  { change (-506)%Z with (-253 + -253)%Z. rewrite bpow_plus. apply Rmult_le_compat; lra. }
  assert (K2 : bpow radix2 (-280) <= / K * / K).
  { pose proof (rg_inv _ _ _ HK) as [L _]. change (-280)%Z with (- (140) + - (140))%Z. rewrite bpow_plus. pose proof (bpow_gt_0 radix2 (- (140))). apply Rmult_le_compat; lra. }
  assert (P4 : 0 < bpow radix2 (-280)) by apply bpow_gt_0. assert (P5 : 0 < bpow radix2 (-506)) by apply bpow_gt_0. pose proof eta_pos as Pe.
  assert (A1 : a * eta <= / 512 * bpow radix2 (-506)).
  { apply Rle_trans with (bpow radix2 60 * bpow radix2 (-1075)); [apply Rmult_le_compat_r; [left; exact Pe|apply Ha]|].
    replace (/ 512) with (bpow radix2 (-9)) by (cbn; lra). rewrite <- !bpow_plus. apply bpow_le. lia. }
  assert (A2 : eta <= / 512 * bpow radix2 (-506) * bpow radix2 (-280)).
  { unfold eta. replace (/ 512) with (bpow radix2 (-9)) by (cbn; lra). rewrite <- !bpow_plus. apply bpow_le. lia. }
  set (k2 := / K * / K) in *. set (U2 := u64 * M * (u64 * M)) in *.
  assert (Q1 : a * eta * k2 <= / 512 * U2 * k2) by (apply Rmult_le_compat_r; lra).
  assert (Q2 : eta <= / 512 * U2 * k2).
  { eapply Rle_trans; [exact A2|]. apply Rmult_le_compat; lra. }
  lra.
Qed.

(** Rows agreeing to 1.001 J u times the deviation plus B. *)
Definition close_by (J B : row -> R) (r : row) : Prop :=
  ffin (r_dF r) /\ 0 <= fR (r_dF r) /\ Rabs (fR (r_dF r) - r_dR r) <= (1 + / 1000) * (J r * u64) * r_dR r + B r.
Definition agree_by (rate : float) (J B : row -> R) (resF : res (@result float)) (resR : res (@result R)) : Prop :=
  (resF = Err UserWarning /\ resR = Err UserWarning) \/
  exists rows, resF = Ok (tableF rate rows) /\ resR = Ok (tableR (fR rate) rows) /\ rows <> [] /\ Forall (close_by J B) rows.

Lemma near_close J B r j : near (r_dF r) (r_dR r) j (B r) -> (Z.of_nat j <= 2 ^ 42)%Z -> INR j <= J r -> 0 <= r_dR r -> close_by J B r.
Proof.
  intros (F & P & E) Hj HJ Hd. split; [exact F|]. split; [exact P|]. eapply Rle_trans; [exact E|].
  apply Rplus_le_compat_r, Rmult_le_compat_r; [exact Hd|].
  eapply Rle_trans; [apply pow_u_le, Hj|]. apply Rmult_le_compat_l; [lra|]. apply Rmult_le_compat_r; [left; apply u64_pos|exact HJ].
Qed.

(** ** tierms *)
Lemma fmax_min a b : ffin a -> ffin b ->
  ffin (nmax2 a b) /\ ffin (nmin2 a b) /\ fR (nmax2 a b) - fR (nmin2 a b) = Rabs (fR b - fR a).
Proof.
  intros Fa Fb. unfold nmax2, nmin2. rewrite !fin_not_nan by assumption. cbn [nltb FNum]. rewrite !fltb_ok by assumption.
  destruct (Rlt_bool_spec (fR a) (fR b)), (Rlt_bool_spec (fR b) (fR a)); try lra; (split; [assumption|split; [assumption|]]).
  - rewrite Rabs_pos_eq; lra.
  - rewrite Rabs_left; lra.
  - rewrite Rabs_pos_eq; lra.
Qed.

Section Tie.
Variables (N m : nat) (f : nat -> float) (M : R) (s : float).
Hypothesis HN : (Z.of_nat N <= 2 ^ 40)%Z.
Hypothesis Hm : (1 <= m < N)%nat.
Hypothesis HM : 0 <= M <= bpow radix2 400.
Hypothesis Hf : forall i, (i < N)%nat -> ffin (f i) /\ Rabs (fR (f i)) <= M.
Let n := (N - m)%nat.
Let d (i : nat) : float := (nmax2 (f i) (f (m + i)%nat) - nmin2 (f i) (f (m + i)%nat))%float.
Hypothesis Hs : sum_of (tab n (fun i => nsq (d i))) s.

Lemma tie_term_ok i : (i < n)%nat -> near (nsq (d i)) ((fR (f (i + m)%nat) - fR (f i)) ^ 2) 3 eta /\
  0 <= (fR (f (i + m)%nat) - fR (f i)) ^ 2 <= bpow radix2 900.
Proof using HN Hm HM Hf.
  intro Hi. unfold n in Hi. destruct (Hf i ltac:(lia)) as [Fa Ha]. destruct (Hf (m + i)%nat ltac:(lia)) as [Fb Hb].
  destruct (fmax_min _ _ Fa Fb) as (F1 & F2 & E). replace (i + m)%nat with (m + i)%nat by lia.
  set (w := fR (f (m + i)%nat) - fR (f i)) in *.
  assert (W2 : Rabs w <= 2 * M) by (unfold w; apply Rabs_le_inv in Ha, Hb; apply Rabs_le; lra).
  assert (B2 : 2 * M <= bpow radix2 401).
  { change 401%Z with (400 + 1)%Z. rewrite bpow_plus. change (bpow radix2 1) with 2. lra. }
  assert (B1 : bpow radix2 401 <= bpow radix2 1000) by (apply bpow_le; lia).
  destruct (fsub_err _ _ F1 F2) as [Fd Ed]; [rewrite E, Rabs_Rabsolu; lra|]. fold (d i) in Fd, Ed. rewrite E, Rabs_Rabsolu in Ed.
  pose proof u64_pos as Pu. assert (Uq : u64 <= / 4096) by (unfold u64; lra). pose proof (Rabs_pos w) as P0.
  apply Rabs_le_inv in Ed as Ed'.
  assert (B4 : bpow radix2 401 + bpow radix2 401 <= bpow radix2 450).
  { assert (2 * bpow radix2 401 <= bpow radix2 450); [|lra]. change 2 with (bpow radix2 1). rewrite <- bpow_plus. apply bpow_le. lia. }
  assert (Bd : Rabs (fR (d i)) <= bpow radix2 450).
  { apply Rabs_le. nra. }
  destruct (near_sq (d i) Fd Bd) as [(F' & P' & E') [_ _]].
  assert (Pw : 0 <= w ^ 2 <= bpow radix2 900).
  { split; [apply pow2_ge_0|]. rewrite <- Rsqr_pow2, Rsqr_abs. unfold Rsqr. apply Rle_trans with (bpow radix2 401 * bpow radix2 401).
    - apply Rmult_le_compat; lra.
    - rewrite <- bpow_plus. apply bpow_le. lia. }
  split; [|exact Pw]. split; [exact F'|]. split; [exact P'|].
  assert (Q : Rabs (fR (d i) ^ 2 - w ^ 2) <= ((1 + u64) ^ 2 - 1) * w ^ 2).
  { assert (Ew : w ^ 2 = Rabs w * Rabs w) by (rewrite <- Rsqr_pow2, Rsqr_abs; reflexivity).
    rewrite Ew. set (t := Rabs w) in *. replace (fR (d i) ^ 2 - t * t) with ((fR (d i) - t) * (fR (d i) + t)) by ring.
    rewrite Rabs_mult. apply Rle_trans with (u64 * t * ((2 + u64) * t)).
    - apply Rmult_le_compat; try apply Rabs_pos; [exact Ed|]. apply Rabs_le. lra.
    - apply Req_le. cbn [pow]. ring. }
  replace (fR (nsq (d i)) - w ^ 2) with ((fR (nsq (d i)) - fR (d i) ^ 2) + (fR (d i) ^ 2 - w ^ 2)) by ring.
  eapply Rle_trans; [apply Rabs_triang|]. apply Rabs_le_inv in Q as Q'.
  set (e := fR (d i) ^ 2) in *. set (g := (1 + u64) ^ 2) in *. change ((1 + u64) ^ 3) with ((1 + u64) * g).
  rewrite pow_1 in E'. nra.
Qed.

Lemma tierms_row : near (fsqrt (s / f_ofZ (Z.of_nat n))) (R_sqrt.sqrt (bigsum n (fun i => (fR (f (i + m)%nat) - fR (f i)) ^ 2) / INR n))
  (n + 5) (bpow radix2 (-535)).
Proof using HN Hm HM Hf Hs.
  pose proof eta_pos as Pe. pose proof u64_pos as Pu. assert (Uq : u64 <= / 4096) by (unfold u64; lra).
  assert (Pn : 1 <= INR n) by (change 1 with (INR 1); apply le_INR; unfold n; lia).
  assert (Nn : (Z.of_nat n <= 2 ^ 40)%Z) by (unfold n; lia).
  assert (Un : INR n <= bpow radix2 40) by (rewrite INR_IZR_INZ; change (bpow radix2 40) with (IZR (2 ^ 40)); now apply IZR_le).
  set (X := fun i => (fR (f (i + m)%nat) - fR (f i)) ^ 2).
  assert (E0 : eta <= bpow radix2 900) by (apply bpow_le; lia).
  assert (P9 : 0 < bpow radix2 900) by apply bpow_gt_0.
  assert (H1 := near_sum n (fun i => nsq (d i)) X 3 eta (bpow radix2 900) s ltac:(unfold n; lia) Nn ltac:(lia) ltac:(lra) tie_term_ok).
  specialize (H1 ltac:(apply Rle_trans with (bpow radix2 40 * (4 * bpow radix2 900));
     [apply Rmult_le_compat; lra|change 4 with (bpow radix2 2); rewrite <- !bpow_plus; apply bpow_le; lia]) Hs).
  assert (PX : 0 <= bigsum n X) by (apply bigsum_nonneg; intros; apply pow2_ge_0).
  assert (UX : bigsum n X / INR n <= bpow radix2 900).
  { apply (Rmult_le_reg_r (INR n)); [lra|]. unfold Rdiv. rewrite Rmult_assoc, Rinv_l by lra. rewrite Rmult_1_r, Rmult_comm, <- bigsum_const.
    apply bigsum_le. intros i Hi. apply tie_term_ok, Hi. }
  assert (B9 : bpow radix2 900 <= bpow radix2 990) by (apply bpow_le; lia).
  destruct (fofZ_ok (Z.of_nat n) ltac:(lia)) as [Fn Vn]. rewrite <- INR_IZR_INZ in Vn.
  assert (En : (1 + / 1000) * (INR n * eta) / INR n = (1 + / 1000) * eta) by (field; lra).
  assert (H2 : near (s / f_ofZ (Z.of_nat n))%float (bigsum n X / INR n) (S (n + 3)) (4 * eta)).
  { rewrite <- Vn. apply near_weaken with ((1 + u64) * ((1 + / 1000) * (INR n * eta) / fR (f_ofZ (Z.of_nat n))) + eta).
    - apply near_div; rewrite ?Vn; auto; try lra; try lia; [nra|].
      rewrite En. assert (eta <= / 4 * bpow radix2 990); [|lra].
      unfold eta. replace (/ 4) with (bpow radix2 (-2)) by (cbn; lra). rewrite <- bpow_plus. apply bpow_le. lia.
    - rewrite Vn, En. nra. }
  apply near_sqrt in H2; [|apply Rmult_le_pos; [exact PX|left; apply Rinv_0_lt_compat; lra]|lia].
  replace (n + 5)%nat with (S (S (n + 3))) by lia. eapply near_weaken; [exact H2|].
  unfold zeta. change 2 with (bpow radix2 1). rewrite <- bpow_plus. apply bpow_le. lia.
Qed.
End Tie.

(** ** totdev *)
Section TotGen.
Context {A : Type} {NA : Num A}.
(** the extended record: the samples in the middle, their odd reflections on both sides *)
Definition ext (N : nat) (f : nat -> A) (i : nat) : A :=
  if (i <? N - 2)%nat then nsub (nmul (ofZ 2) (f 0%nat)) (f (N - 2 - i)%nat)
  else if (i <? 2 * N - 2)%nat then f (i - (N - 2))%nat else nsub (nmul (ofZ 2) (f (N - 1)%nat)) (f (3 * N - 4 - i)%nat).
Lemma totdev_extend_gen N (f : nat -> A) : (2 <= N)%nat -> totdev_extend (tab N f) = Ok (tab (3 * N - 4) (ext N f)).
Proof.
  intro HN. unfold totdev_extend. cbv zeta. rewrite tab_length. rewrite pyget_tab by lia. cbn [bind Z.to_nat].
  destruct (Nat.ltb_spec N 2); [lia|].
  unfold vsub. rewrite pyinner_tab, !repeat_tab, rev_tab, !bmap2_tab. cbn [bind].
  rewrite pyget_tab_last by lia. cbn [bind]. rewrite ?repeat_tab, ?rev_tab, !bmap2_tab. cbn [bind].
  rewrite !tab_length. replace (N - 2 + N + (N - 2))%nat with (3 * N - 4)%nat by lia. rewrite Nat.eqb_refl.
  cbn [assert_ bind]. rewrite !app_tab. replace (N - 2 + (N + (N - 2)))%nat with (3 * N - 4)%nat by lia.
  f_equal. apply tab_ext. intros i Hi. unfold ext. destruct (Nat.ltb_spec i (N - 2)).
  - f_equal. f_equal. lia.
  - destruct (Nat.ltb_spec (i - (N - 2)) N); destruct (Nat.ltb_spec i (2 * N - 2)); try lia; [reflexivity|].
    f_equal. f_equal. lia.
Qed.

Definition tot_diff (N m : nat) (g : nat -> A) (k : nat) : A :=
  nadd (nsub (g (N - 1 - m + k)%nat) (nmul (ofZ 2) (g (N - 1 + k)%nat))) (g (N - 1 + m + k)%nat).
Lemma calc_totdev_gen N (g : nat -> A) rate m : (2 <= N)%nat -> (1 <= m < N)%nat ->
  let dev := nsqrt (ndiv (sumsq (tab (N - 2) (tot_diff N m g)))
                (nmul (nmul (ofZ 2) (nsq (ndiv (ofN m) rate))) (ofN (N - 2)))) in
  calc_totdev (tab (3 * N - 4) g) N rate m = Ok (dev, ndiv dev (nsqrt (ofN (N - 2))), Z.of_nat (N - 2)).
Proof.
  intros HN Hm dev. unfold calc_totdev. cbv zeta. rewrite !pyfrom_tab by lia. rewrite !tab_length.
  set (e := min3 _ _ _). assert (He : (N - 2 <= e)%nat) by (unfold e, min3; lia).
  unfold vsub, vadd, scal. rewrite !firstn_tab. rewrite !(Nat.min_l e) by (unfold e, min3; lia).
  rewrite map_tab, bmap2_tab. cbn [bind]. rewrite bmap2_tab. cbn [bind].
  rewrite firstn_tab, (Nat.min_l (N - 2)) by exact He. unfold dev, ofN.
  replace (Z.of_nat N - 2)%Z with (Z.of_nat (N - 2)) by lia.
  erewrite tab_ext; [reflexivity|]. intros i Hi. cbn beta. unfold tot_diff. repeat (f_equal; try lia).
Qed.
End TotGen.

Section Tot.
Variables (N m : nat) (f : nat -> float) (M : R) (rate s : float).
Hypothesis HN : (Z.of_nat N <= 2 ^ 40)%Z.
Hypothesis Hm : (1 <= m < N)%nat.
Hypothesis HN3 : (3 <= N)%nat.
Hypothesis HM : bpow radix2 (-200) <= M <= bpow radix2 200.
Hypothesis Hf : forall i, (i < N)%nat -> ffin (f i) /\ Rabs (fR (f i)) <= M.
Hypothesis Hr : moderate_rate rate.
Let n := (N - 2)%nat.
Let vh := tot_diff N m (ext N f).
Let v := tot_diff N m (ext N (fun i => fR (f i))).
Hypothesis Hs : sum_of (tab n (fun i => nsq (vh i))) s.
Let K : R := INR m / fR rate.

Lemma tot_consts : 0 < M /\ 0 < u64 <= / 4096 /\ 0 < u64 * M <= / 4096 * M /\ 16 * M <= bpow radix2 450.
Proof using All.
  clear -HM.
  pose proof (bpow_gt_0 radix2 (-200)). pose proof u64_pos. assert (u64 <= / 4096) by (unfold u64; lra).
  split; [lra|]. split; [lra|]. split; [split; nra|].
  apply Rle_trans with (bpow radix2 4 * bpow radix2 200); [change (bpow radix2 4) with 16; lra|]. rewrite <- bpow_plus. apply bpow_le. lia.
Qed.

Lemma ext_ok i : (i < 3 * N - 4)%nat -> ffin (ext N f i) /\ Rabs (fR (ext N f i) - ext N (fun i => fR (f i)) i) <= 3 * (u64 * M) /\
  Rabs (ext N (fun i => fR (f i)) i) <= 3 * M.
Proof using All.
  destruct tot_consts as (PM & Uq & UM & BM). intro Hi.
  assert (B4 : bpow radix2 450 <= bpow radix2 999) by (apply bpow_le; lia).
  assert (B5 : bpow radix2 999 <= bpow radix2 1000) by (apply bpow_le; lia).
  assert (G : forall a b, ffin a -> ffin b -> Rabs (fR a) <= M -> Rabs (fR b) <= M ->
     ffin (f_ofZ 2 * a - b)%float /\ Rabs (fR (f_ofZ 2 * a - b)%float - (2 * fR a - fR b)) <= 3 * (u64 * M) /\ Rabs (2 * fR a - fR b) <= 3 * M).
  { intros a b Fa Fb Ha Hb. destruct (fdouble a Fa ltac:(lra)) as [F2 V2].
    assert (A3 : Rabs (2 * fR a - fR b) <= 3 * M) by (apply Rabs_le_inv in Ha, Hb; apply Rabs_le; lra).
    destruct (fsub_err _ b F2 Fb) as [F E]; [rewrite V2; lra|]. rewrite V2 in E. split; [exact F|]. split; [nra|exact A3]. }
  unfold ext. destruct (Nat.ltb_spec i (N - 2)); [|destruct (Nat.ltb_spec i (2 * N - 2))].
  - destruct (Hf 0%nat ltac:(lia)), (Hf (N - 2 - i)%nat ltac:(lia)). now apply G.
  - destruct (Hf (i - (N - 2))%nat ltac:(lia)) as [F B]. split; [exact F|]. rewrite Rminus_diag_eq, Rabs_R0 by reflexivity. split; [nra|].
    eapply Rle_trans; [exact B|]. lra.
  - destruct (Hf (N - 1)%nat ltac:(lia)), (Hf (3 * N - 4 - i)%nat ltac:(lia)). now apply G.
Qed.

Lemma tot_diff_ok k : (k < n)%nat -> ffin (vh k) /\ Rabs (fR (vh k) - v k) <= 20 * (u64 * M) /\ Rabs (v k) <= 8 * M.
Proof using All.
  destruct tot_consts as (PM & Uq & UM & BM). intro Hk. unfold n in Hk.
  assert (B4 : bpow radix2 450 <= bpow radix2 999) by (apply bpow_le; lia).
  assert (B5 : bpow radix2 999 <= bpow radix2 1000) by (apply bpow_le; lia).
  destruct (ext_ok (N - 1 - m + k)%nat ltac:(lia)) as (Fa & Ea & Ba). destruct (ext_ok (N - 1 + m + k)%nat ltac:(lia)) as (Fc & Ec & Bc).
  assert (Eb : forall A (g : nat -> A) {NA : Num A}, ext N g (N - 1 + k)%nat = g (k + 1)%nat).
  { intros A g NA. unfold ext. rewrite (proj2 (Nat.ltb_ge (N - 1 + k) (N - 2))) by lia. rewrite (proj2 (Nat.ltb_lt (N - 1 + k) (2 * N - 2))) by lia. f_equal. lia. }
  unfold vh, v, tot_diff. rewrite !Eb. cbn [nadd nsub nmul ofZ FNum RNum].
  set (a := ext N f (N - 1 - m + k)%nat) in *. set (c := ext N f (N - 1 + m + k)%nat) in *.
  set (aR := ext N (fun i => fR (f i)) (N - 1 - m + k)%nat) in *. set (cR := ext N (fun i => fR (f i)) (N - 1 + m + k)%nat) in *.
  destruct (Hf (k + 1)%nat ltac:(lia)) as [Fb Bb]. set (b := f (k + 1)%nat) in *.
  destruct (fdouble b Fb ltac:(lra)) as [F2 V2].
  apply Rabs_le_inv in Ea, Ba, Ec, Bc, Bb.
  assert (A1 : Rabs (fR a - fR (f_ofZ 2 * b)%float) <= (5 + / 100) * M) by (rewrite V2; apply Rabs_le; lra).
  destruct (fsub_err a _ Fa F2 ltac:(lra)) as [F1 E1]. rewrite V2 in *.
  assert (E1' : Rabs (fR (a - f_ofZ 2 * b)%float - (fR a - 2 * fR b)) <= (5 + / 100) * (u64 * M)) by nra.
  set (t := (a - f_ofZ 2 * b)%float) in *. apply Rabs_le_inv in E1'.
  assert (A2 : Rabs (fR t + fR c) <= (8 + / 50) * M) by (apply Rabs_le; lra).
  destruct (fadd_err t c F1 Fc ltac:(lra)) as [F3 E3].
  assert (E3' : Rabs (fR (t + c)%float - (fR t + fR c)) <= (8 + / 50) * (u64 * M)) by nra. apply Rabs_le_inv in E3'.
  split; [exact F3|]. split; apply Rabs_le; lra.
Qed.

Lemma K_rg : rg K (-100) 140 /\ (Z.of_nat m <= 2 ^ 40)%Z.
Proof using All.
  assert (Nm : (Z.of_nat m <= 2 ^ 40)%Z) by lia. split; [|exact Nm].
  unfold K, Rdiv. apply (rg_mul _ _ 0 40 (-100) 100); [apply rg_nat; [lia|exact Nm]|].
  apply (rg_inv _ (-100) 100). destruct Hr as [_ H]. exact H.
Qed.

Let den : float := (f_ofZ 2 * nsq (f_ofZ (Z.of_nat m) / rate) * f_ofZ (Z.of_nat n))%float.
Let Y : R := 2 * (K * K) * INR n.
Lemma tot_den : approx den Y 7 /\ rg Y (-199) 321.
Proof using All.
  destruct K_rg as [RK Nm]. destruct Hr as [Fr [Lr Ur]]. pose proof (bpow_gt_0 radix2 (-100)).
  assert (Rn : rg (INR n) 0 40) by (apply rg_nat; unfold n; lia). assert (R2 : rg 2 1 1) by (split; cbn; lra).
  assert (Am : approx (f_ofZ (Z.of_nat m)) (INR m) 0) by (rewrite INR_IZR_INZ; apply approx_Z; lia).
  assert (An : approx (f_ofZ (Z.of_nat n)) (INR n) 0) by (rewrite INR_IZR_INZ; apply approx_Z; unfold n; lia).
  assert (At : approx (f_ofZ (Z.of_nat m) / rate)%float K 1).
  { apply approx_div; [exact Am|exact Fr|lra|now apply (rg_mid _ _ _ RK)|lia]. }
  assert (S1 := rg_mul _ _ _ _ _ _ RK RK). assert (S2 := rg_mul _ _ _ _ _ _ R2 S1). assert (S3 := rg_mul _ _ _ _ _ _ S2 Rn).
  split; [|exact S3].
  assert (A4 : approx den Y 5).
  { unfold den, Y, nsq. cbn [nmul FNum].
    apply (approx_mul _ _ _ _ 4 0); [|exact An|now apply (rg_mid _ _ _ S3)|lia].
    apply (approx_mul _ _ _ _ 0 3); [apply (approx_Z 2); lia| |now apply (rg_mid _ _ _ S2)|lia].
    apply (approx_mul _ _ _ _ 1 1); [exact At|exact At|now apply (rg_mid _ _ _ S1)|lia]. }
  destruct A4 as [F E]. split; [exact F|]. eapply Rle_trans; [exact E|]. apply Rmult_le_compat_r; [apply Rabs_pos|].
  apply Rplus_le_compat_r, Rle_pow; [pose proof u64_pos; lra|lia].
Qed.

Lemma totdev_row : near (fsqrt (s / den)) (R_sqrt.sqrt (bigsum n (fun k => v k ^ 2) / Y)) (n + 11) (16 * u64 * M * (fR rate / INR m)).
Proof using All.
  destruct tot_consts as (PM & Uq & UM & BM). destruct K_rg as [RK Nm]. destruct tot_den as [HD RY].
  pose proof (rg_pos _ _ _ RK) as PK. pose proof (rg_pos _ _ _ RY) as PY. pose proof eta_pos as Pe.
  assert (Pn : 1 <= INR n) by (change 1 with (INR 1); apply le_INR; unfold n; lia).
  assert (Nn : (Z.of_nat n <= 2 ^ 40)%Z) by (unfold n; lia).
  assert (Un : INR n <= bpow radix2 40) by (rewrite INR_IZR_INZ; change (bpow radix2 40) with (IZR (2 ^ 40)); now apply IZR_le).
  assert (Hq : forall k, (k < n)%nat -> near (nsq (vh k)) (fR (vh k) ^ 2) 1 eta /\ 0 <= fR (vh k) ^ 2 <= bpow radix2 900).
  { intros k Hk. destruct (tot_diff_ok k Hk) as (F & E & B). apply near_sq; [exact F|].
    apply Rabs_le_inv in E, B. eapply Rle_trans; [|exact BM]. apply Rabs_le. lra. }
  assert (E0 : eta <= bpow radix2 900) by (apply bpow_le; lia).
  assert (P9 : 0 < bpow radix2 900) by apply bpow_gt_0.
  assert (H1 := near_sum n (fun i => nsq (vh i)) (fun k => fR (vh k) ^ 2) 1 eta (bpow radix2 900) s ltac:(unfold n; lia) Nn ltac:(lia) ltac:(lra) Hq).
  specialize (H1 ltac:(apply Rle_trans with (bpow radix2 40 * (4 * bpow radix2 900));
     [apply Rmult_le_compat; lra|change 4 with (bpow radix2 2); rewrite <- !bpow_plus; apply bpow_le; lia]) Hs).
  assert (One : forall g : nat -> R, bigsum n (fun k => g k ^ 2) = bigsum n (fun k => 1 * g k ^ 2)) by (intro g; apply bigsum_ext; intros; ring).
  rewrite (One (fun k => fR (vh k))) in H1. rewrite (One v).
  replace (n + 11)%nat with (n + 1 + 10)%nat by lia.
  set (y := u64 * M / (16 * K)).
  assert (IK : 0 < / K) by (now apply Rinv_0_lt_compat).
  assert (IKb : / K <= bpow radix2 100) by (pose proof (rg_inv _ _ _ RK) as [_ L]; exact L).
  assert (Py : 0 <= y) by (unfold y, Rdiv; rewrite Rinv_mult; apply Rmult_le_pos; [lra|]; apply Rmult_le_pos; lra).
  assert (Ey : y = / 16 * (u64 * M) * / K) by (unfold y; field; lra).
  assert (Er : fR rate / INR m = / K).
  { unfold K. destruct Hr as [_ [L _]]. pose proof (bpow_gt_0 radix2 (-100)). field. split; [lra|]. apply not_0_INR. lia. }
  eapply near_weaken; [apply (root_near n (fun _ => 1) vh v s den Y (n + 1) _ y (15 * (u64 * M) * / K) H1 HD PY)|].
  - nra.
  - lia.
  - intros; lra.
  - rewrite <- (One (fun k => fR (vh k))).
    assert (B2 : forall k, (k < n)%nat -> fR (vh k) ^ 2 <= bpow radix2 408).
    { intros k Hk. destruct (tot_diff_ok k Hk) as (F & E & B). apply Rabs_le_inv in E, B.
      change 408%Z with (204 + 204)%Z. rewrite bpow_plus. rewrite <- Rsqr_pow2. apply Rsqr_le_abs_1.
      rewrite (Rabs_pos_eq (bpow _ _)) by (left; apply bpow_gt_0). change 204%Z with (4 + 200)%Z. rewrite bpow_plus. change (bpow radix2 4) with 16.
      apply Rabs_le. lra. }
    apply Rle_trans with (bpow radix2 448 * bpow radix2 199).
    + unfold Rdiv. apply Rmult_le_compat.
      * apply bigsum_nonneg; intros; apply pow2_ge_0.
      * left. now apply Rinv_0_lt_compat.
      * change 448%Z with (40 + 408)%Z. rewrite bpow_plus. pose proof (bpow_gt_0 radix2 408). apply Rle_trans with (INR n * bpow radix2 408).
        -- rewrite <- bigsum_const. apply bigsum_le. exact B2.
        -- apply Rmult_le_compat_r; lra.
      * pose proof (rg_inv _ _ _ RY) as [_ L]. exact L.
    + rewrite <- bpow_plus. apply Rle_trans with (bpow radix2 (-2) * bpow radix2 990); [rewrite <- bpow_plus; apply bpow_le; lia|].
      apply Rmult_le_compat_r; [left; apply bpow_gt_0|cbn; lra].
  - apply Rmult_le_pos; lra.
  - exact Py.
  - assert (Yb : y <= bpow radix2 300).
    { rewrite Ey. change 300%Z with (200 + 100)%Z. rewrite bpow_plus. apply Rmult_le_compat; lra. }
    apply Rle_trans with (bpow radix2 300 * bpow radix2 300); [apply Rmult_le_compat; lra|].
    rewrite <- bpow_plus. apply Rle_trans with (bpow radix2 (-2) * bpow radix2 990); [rewrite <- bpow_plus; apply bpow_le; lia|].
    apply Rmult_le_compat_r; [left; apply bpow_gt_0|cbn; lra].
  - pose proof (tiny M K 1 (proj1 HM) RK ltac:(split; [lra|change 1 with (bpow radix2 0); apply bpow_le; lia])) as T. fold y in T.
    eapply Rle_trans; [|exact T].
    replace ((1 + / 1000) * (INR n * eta) / Y) with ((1 + / 1000) * / 2 * (eta * / (K * K))) by (unfold Y; field; lra).
    replace (1 * eta / (K * K)) with (eta * / (K * K)) by (unfold Rdiv; ring).
    assert (0 < eta * / (K * K)) by (apply Rmult_lt_0_compat; [exact Pe|apply Rinv_0_lt_compat; nra]). nra.
  - apply Rle_trans with (bigsum n (fun _ => (20 * (u64 * M)) ^ 2)).
    + apply bigsum_le. intros k Hk. rewrite Rmult_1_l, <- !Rsqr_pow2. apply Rsqr_le_abs_1. rewrite (Rabs_pos_eq (20 * (u64 * M))) by lra. apply tot_diff_ok, Hk.
    + rewrite bigsum_const. replace ((15 * (u64 * M) * / K) ^ 2 * Y) with (INR n * (450 * (u64 * M) ^ 2)) by (unfold Y; field; lra).
      apply Rmult_le_compat_l; [lra|]. pose proof (pow2_ge_0 (u64 * M)). nra.
  - rewrite Ey, Er. replace (16 * u64 * M * / K) with (16 * (u64 * M * / K)) by ring.
    replace (/ 16 * (u64 * M) * / K) with (/ 16 * (u64 * M * / K)) by ring. replace (15 * (u64 * M) * / K) with (15 * (u64 * M * / K)) by ring.
    assert (0 <= u64 * M * / K) by (apply Rmult_le_pos; lra). lra.
Qed.
End Tot.

(** ** pdev *)
Section Par.
Variables (N m : nat) (f vh : nat -> float) (M : R) (rate s : float).
Hypothesis HN : (Z.of_nat N <= 2 ^ 40)%Z.
Hypothesis Hm : (2 <= m)%nat.
Hypothesis HNm : (2 * m < N)%nat.
Hypothesis HM : bpow radix2 (-200) <= M <= bpow radix2 200.
Hypothesis Hf : forall i, (i < N)%nat -> ffin (f i) /\ Rabs (fR (f i)) <= M.
Hypothesis Hr : moderate_rate rate.
Let n := (N - 2 * m)%nat.
Let wh (k : nat) : float := ((f_ofZ (Z.of_nat m) - f_ofZ 1) / f_ofZ 2 - f_ofZ (Z.of_nat k))%float.
Let w (k : nat) : R := (INR m - 1) / 2 - INR k.
Let ph (i k : nat) : float := (wh k * (f (i + k)%nat - f (i + m + k)%nat))%float.
Let p (i k : nat) : R := w k * (fR (f (i + k)%nat) - fR (f (i + k + m)%nat)).
Hypothesis Hv : forall i, (i < n)%nat -> sum_of (tab m (ph i)) (vh i).
Hypothesis Hs : sum_of (tab n (fun i => nsq (vh i))) s.
Let v (i : nat) : R := bigsum m (p i).
Let K : R := INR m / fR rate.

Lemma par_consts : 0 < M /\ 0 < u64 <= / 4096 * / 4096 /\ 0 < u64 * M <= / 4096 * M /\ 2 <= INR m <= bpow radix2 40 /\ eta <= / 4096 * (u64 * M) /\
  bpow radix2 (-200) > 0.
Proof using All.
  pose proof (bpow_gt_0 radix2 (-200)). pose proof u64_pos. assert (u64 <= / 4096 * / 4096) by (unfold u64; lra).
  split; [lra|]. split; [lra|]. split; [split; nra|]. split; [|split; [|lra]].
  - split; [change 2 with (INR 2); now apply le_INR|]. rewrite INR_IZR_INZ. change (bpow radix2 40) with (IZR (2 ^ 40)). apply IZR_le. lia.
  - destruct bpow_nums as (_ & _ & Bu). rewrite <- Bu. apply Rle_trans with (/ 4096 * (bpow radix2 (-53) * bpow radix2 (-200))).
    + replace (/ 4096) with (bpow radix2 (-12)) by (cbn; lra). unfold eta. rewrite <- !bpow_plus. apply bpow_le. lia.
    + apply Rmult_le_compat_l; [lra|]. apply Rmult_le_compat_l; [apply bpow_ge_0|apply HM].
Qed.

(** the weights are half integers, hence exact *)
Lemma half_exact z : (Z.abs z <= 2 ^ 53)%Z -> rnd (IZR z / 2) = IZR z / 2.
Proof.
  intro H. replace (IZR z / 2) with (IZR z * bpow radix2 (-1)) by (cbn; lra).
  rewrite rnd_FLT. apply round_generic; [apply valid_rnd_N|].
  destruct (Z.eq_dec (Z.abs z) (2 ^ 53)) as [E|E].
  - assert (G : forall q, (q = 2 ^ 53 \/ q = - 2 ^ 53)%Z -> generic_format radix2 (FLT_exp (-1074) 53) (IZR q * bpow radix2 (-1))).
    { intros q Hq. replace (IZR q * bpow radix2 (-1)) with (IZR (q / 2)) by (destruct Hq as [-> | ->]; cbn; lra).
      apply generic_format_FLT. exists (Float radix2 (q / 2) 0); cbn [Fnum Fexp]; [unfold F2R; cbn [Fnum Fexp bpow]; ring| |lia].
      destruct Hq as [-> | ->]; vm_compute; reflexivity. }
    apply G. lia.
  - apply generic_format_FLT. exists (Float radix2 z (-1)); cbn [Fnum Fexp]; [reflexivity| |lia].
    change (radix2 ^ 53)%Z with (2 ^ 53)%Z. lia.
Qed.
Lemma wh_ok k : (k < m)%nat -> ffin (wh k) /\ fR (wh k) = w k /\ Rabs (w k) <= INR m / 2.
Proof using All.
  intro Hk. unfold wh. destruct (fofZ_ok (Z.of_nat m) ltac:(lia)) as [F1 V1]. destruct (fofZ_ok 1 ltac:(lia)) as [F2 V2].
  destruct (fofZ_ok 2 ltac:(lia)) as [F3 V3]. destruct (fofZ_ok (Z.of_nat k) ltac:(lia)) as [F4 V4].
  assert (SM : forall z, (Z.abs z <= 2 ^ 53)%Z -> Rabs (IZR z) < bpow radix2 1024).
  { intros z Hz. rewrite <- abs_IZR. apply Rle_lt_trans with (IZR (2 ^ 53)); [now apply IZR_le|]. change (IZR (2 ^ 53)) with (bpow radix2 53). apply bpow_lt. lia. }
  assert (SH : forall z, (Z.abs z <= 2 ^ 53)%Z -> Rabs (IZR z / 2) < bpow radix2 1024).
  { intros z Hz. pose proof (SM z Hz). unfold Rdiv. rewrite Rabs_mult, (Rabs_pos_eq (/ 2)) by lra. pose proof (Rabs_pos (IZR z)). lra. }
  assert (E1 : fR (f_ofZ (Z.of_nat m)) - fR (f_ofZ 1) = IZR (Z.of_nat m - 1)) by (rewrite V1, V2, minus_IZR; reflexivity).
  destruct (fsub_ok _ _ F1 F2) as [F5 V5]; [rewrite E1, rnd_int by lia; apply SM; lia|]. rewrite E1, rnd_int in V5 by lia.
  destruct (fdiv_ok _ (f_ofZ 2) F5) as [F6 V6]; [rewrite V3; lra|rewrite V5, V3, half_exact by lia; apply SH; lia|].
  rewrite V5, V3, half_exact in V6 by lia.
  assert (E7 : fR ((f_ofZ (Z.of_nat m) - f_ofZ 1) / f_ofZ 2)%float - fR (f_ofZ (Z.of_nat k)) = IZR (Z.of_nat m - 1 - 2 * Z.of_nat k) / 2).
  { rewrite V6, V4, !minus_IZR, mult_IZR. lra. }
  destruct (fsub_ok _ _ F6 F4) as [F7 V7]; [rewrite E7, half_exact by lia; apply SH; lia|]. rewrite E7, half_exact in V7 by lia.
  split; [exact F7|]. split.
  - rewrite V7. unfold w. rewrite !minus_IZR, mult_IZR, !INR_IZR_INZ. lra.
  - unfold w. assert (INR k + 1 <= INR m) by (rewrite <- S_INR; apply le_INR; lia). pose proof (pos_INR k). apply Rabs_le. lra.
Qed.

Lemma ph_ok i k : (i < n)%nat -> (k < m)%nat -> ffin (ph i k) /\ Rabs (fR (ph i k) - p i k) <= (2 + / 100) * (u64 * (INR m * M)) /\
  Rabs (p i k) <= INR m * M.
Proof using All.
  destruct par_consts as (PM & Uq & UM & Im & Eu & P2). intros Hi Hk. unfold n in Hi.
  destruct (wh_ok k Hk) as (F1 & V1 & B1). destruct (Hf (i + k)%nat ltac:(lia)) as [Fa Ba]. destruct (Hf (i + m + k)%nat ltac:(lia)) as [Fb Bb].
  unfold ph, p. replace (i + k + m)%nat with (i + m + k)%nat by lia.
  set (a := f (i + k)%nat) in *. set (b := f (i + m + k)%nat) in *. set (d := fR a - fR b).
  assert (Bd : Rabs d <= 2 * M) by (unfold d; apply Rabs_le_inv in Ba, Bb; apply Rabs_le; lra).
  assert (BM : 2 * M <= bpow radix2 201).
  { change 201%Z with (200 + 1)%Z. rewrite bpow_plus. change (bpow radix2 1) with 2. lra. }
  assert (B2 : bpow radix2 201 <= bpow radix2 1000) by (apply bpow_le; lia).
  destruct (fsub_err a b Fa Fb ltac:(fold d; lra)) as [Fd Ed]. fold d in Ed.
  assert (Ed' : Rabs (fR (a - b)%float - d) <= 2 * (u64 * M)) by nra.
  set (dh := (a - b)%float) in *.
  assert (Bh : Rabs (fR dh) <= (2 + / 1000) * M).
  { apply Rabs_le_inv in Ed', Bd. apply Rabs_le. lra. }
  assert (Bw : Rabs (fR (wh k) * fR dh) <= (1 + / 1000) * (INR m * M)).
  { rewrite Rabs_mult, V1. apply Rle_trans with (INR m / 2 * ((2 + / 1000) * M)); [apply Rmult_le_compat; try apply Rabs_pos; assumption|]. nra. }
  assert (Bo : Rabs (fR (wh k) * fR dh) <= bpow radix2 1000).
  { eapply Rle_trans; [exact Bw|]. apply Rle_trans with (2 * (bpow radix2 40 * bpow radix2 200)).
    - apply Rmult_le_compat; try lra; [nra|]. apply Rmult_le_compat; lra.
    - change 2 with (bpow radix2 1). rewrite <- !bpow_plus. apply bpow_le. lia. }
  destruct (fmul_err (wh k) dh F1 Fd Bo) as [Fp Ep].
  split; [exact Fp|].
  assert (Ew : Rabs (fR (wh k) * fR dh - w k * d) <= u64 * (INR m * M)).
  { rewrite V1. replace (w k * fR dh - w k * d) with (w k * (fR dh - d)) by ring. rewrite Rabs_mult.
    apply Rle_trans with (INR m / 2 * (2 * (u64 * M))); [apply Rmult_le_compat; try apply Rabs_pos; assumption|]. lra. }
  split.
  - replace (fR (wh k * dh)%float - w k * d) with ((fR (wh k * dh)%float - fR (wh k) * fR dh) + (fR (wh k) * fR dh - w k * d)) by ring.
    eapply Rle_trans; [apply Rabs_triang|].
    assert (u64 * Rabs (fR (wh k) * fR dh) <= u64 * ((1 + / 1000) * (INR m * M))) by (apply Rmult_le_compat_l; lra).
    assert (eta <= / 4096 * (u64 * (INR m * M))) by nra.
    assert (0 < u64 * (INR m * M)) by (apply Rmult_lt_0_compat; [lra|nra]). lra.
  - rewrite Rabs_mult. apply Rle_trans with (INR m / 2 * (2 * M)); [apply Rmult_le_compat; try apply Rabs_pos; assumption|]. lra.
Qed.

Let d : R := u64 * M * (INR m * INR m) * ((1 + / 100) * INR m + (2 + / 10)).
Lemma vh_ok i : (i < n)%nat -> ffin (vh i) /\ Rabs (fR (vh i) - v i) <= d /\ Rabs (v i) <= INR m * INR m * M.
Proof using All.
  destruct par_consts as (PM & Uq & UM & Im & Eu & P2). intro Hi.
  assert (P1 : 0 < u64 * (INR m * M)) by (apply Rmult_lt_0_compat; [lra|nra]).
  assert (UU : u64 * (INR m * M) <= / 4096 * / 4096 * (INR m * M)) by (apply Rmult_le_compat_r; [nra|lra]).
  assert (P3 : 0 < INR m * M) by nra.
  set (B := (1 + / 1000) * (INR m * M)).
  assert (HB : 0 <= B <= bpow radix2 900).
  { split; [unfold B; lra|]. unfold B. apply Rle_trans with (2 * (bpow radix2 40 * bpow radix2 200)).
    - apply Rmult_le_compat; try lra. apply Rmult_le_compat; lra.
    - change 2 with (bpow radix2 1). rewrite <- !bpow_plus. apply bpow_le. lia. }
  assert (Hq : forall k, (k < m)%nat -> ffin (ph i k) /\ Rabs (fR (ph i k)) <= B).
  { intros k Hk. destruct (ph_ok i k Hi Hk) as (F & E & Bp). split; [exact F|]. apply Rabs_le_inv in E, Bp. unfold B. apply Rabs_le. lra. }
  destruct (sum_err m (ph i) B (vh i) ltac:(lia) ltac:(lia) HB Hq (Hv i Hi)) as [F E].
  split; [exact F|].
  assert (E2 : Rabs (bigsum m (fun k => fR (ph i k)) - v i) <= INR m * ((2 + / 100) * (u64 * (INR m * M)))).
  { unfold v. rewrite <- bigsum_minus. eapply Rle_trans; [apply bigsum_abs|]. rewrite <- bigsum_const. apply bigsum_le. intros k Hk. apply ph_ok; assumption. }
  split.
  - replace (fR (vh i) - v i) with ((fR (vh i) - bigsum m (fun k => fR (ph i k))) + (bigsum m (fun k => fR (ph i k)) - v i)) by ring.
    eapply Rle_trans; [apply Rabs_triang|]. eapply Rle_trans; [apply Rplus_le_compat; [exact E|exact E2]|].
    unfold d, B. set (I := INR m) in *.
    replace ((1 + / 1000) * (I * u64) * (I * ((1 + / 1000) * (I * M)))) with ((1 + / 1000) * (1 + / 1000) * I * (u64 * M * (I * I))) by ring.
    replace (I * ((2 + / 100) * (u64 * (I * M)))) with ((2 + / 100) * (u64 * M * (I * I))) by ring.
    assert (0 < u64 * M * (I * I)) by (apply Rmult_lt_0_compat; nra). set (q := u64 * M * (I * I)) in *. nra.
  - unfold v. eapply Rle_trans; [apply bigsum_abs|]. rewrite Rmult_assoc, <- bigsum_const. apply bigsum_le. intros k Hk. apply ph_ok; assumption.
Qed.

Lemma par_rg : rg K (-100) 140 /\ rg (INR n) 0 40 /\ rg (INR m) 0 40.
Proof using All.
  assert (Rm : rg (INR m) 0 40) by (apply rg_nat; lia).
  split; [|split; [apply rg_nat; unfold n; lia|exact Rm]].
  unfold K, Rdiv. apply (rg_mul _ _ 0 40 (-100) 100); [exact Rm|]. apply (rg_inv _ (-100) 100). destruct Hr as [_ H]. exact H.
Qed.

Let den : float := (f_ofZ (Z.of_nat n * Z.of_nat m ^ 4) * nsq (f_ofZ (Z.of_nat m) * (f_ofZ 1 / rate)))%float.
Let Y : R := INR n * INR m ^ 4 * (K * K).
Lemma approx_bigZ z V : IZR z = V -> rg V 0 1000 -> approx (f_ofZ z) V 1.
Proof.
  intros E HV. pose proof (rg_mid _ _ _ HV ltac:(lia) ltac:(lia)) as HM'. pose proof (rg_pos _ _ _ HV) as PV.
  destruct (rnd_approx V V 0 HM' ltac:(lia)) as [B Er].
  - rewrite Rminus_diag_eq, Rabs_R0 by reflexivity. cbn [pow]. lra.
  - rewrite <- E in B. destruct (fofZ_round z B) as [F Vr]. split; [exact F|]. rewrite Vr, E. exact Er.
Qed.
Lemma par_den : approx den Y 7 /\ rg Y (-200) 480.
Proof using All.
  destruct par_rg as (RK & Rn & Rm). destruct Hr as [Fr [Lr Ur]]. pose proof (bpow_gt_0 radix2 (-100)).
  assert (Rr : rg (/ fR rate) (-100) 100) by (apply (rg_inv _ (-100) 100); split; assumption).
  assert (R4 : rg (INR m ^ 4) 0 160).
  { replace (INR m ^ 4) with (INR m * (INR m * (INR m * INR m))) by ring.
    apply (rg_mul _ _ 0 40 0 120); [exact Rm|]. apply (rg_mul _ _ 0 40 0 80); [exact Rm|]. apply (rg_mul _ _ 0 40 0 40); exact Rm. }
  assert (S1 := rg_mul _ _ _ _ _ _ Rn R4). assert (S2 := rg_mul _ _ _ _ _ _ RK RK). assert (S3 := rg_mul _ _ _ _ _ _ S1 S2).
  split; [|exact S3].
  unfold den, Y, nsq. cbn [nmul FNum].
  apply (approx_mul _ _ _ _ 1 5); [| |now apply (rg_mid _ _ _ S3)|lia].
  - apply approx_bigZ.
    + rewrite mult_IZR, !INR_IZR_INZ, pow_IZR. reflexivity.
    + destruct S1 as [L U]. split; [exact L|]. eapply Rle_trans; [exact U|]. apply bpow_le. lia.
  - assert (A1 : approx (f_ofZ 1 / rate)%float (1 / fR rate) 1).
    { apply approx_div; [apply (approx_Z 1); lia|exact Fr|lra| |lia]. unfold Rdiv. rewrite Rmult_1_l. now apply (rg_mid _ _ _ Rr). }
    assert (A2 : approx (f_ofZ (Z.of_nat m) * (f_ofZ 1 / rate))%float K 2).
    { replace K with (INR m * (1 / fR rate)) by (unfold K; field; lra).
      apply (approx_mul _ _ _ _ 0 1); [rewrite INR_IZR_INZ; apply approx_Z; lia|exact A1| |lia].
      replace (INR m * (1 / fR rate)) with K by (unfold K; field; lra). now apply (rg_mid _ _ _ RK). }
    apply (approx_mul _ _ _ _ 2 2); [exact A2|exact A2|now apply (rg_mid _ _ _ S2)|lia].
Qed.

Lemma pdev_row : near (fsqrt (f_ofZ 72 * s / den)) (R_sqrt.sqrt (72 * bigsum n (fun k => v k ^ 2) / Y)) (n + 12)
  ((9 * INR m + 19) * u64 * M * (fR rate / INR m)).
Proof using All.
  destruct par_consts as (PM & Uq & UM & Im & Eu & P2). destruct par_rg as (RK & Rn & Rm). destruct par_den as [HD RY].
  pose proof (rg_pos _ _ _ RK) as PK. pose proof (rg_pos _ _ _ RY) as PY. pose proof eta_pos as Pe.
  assert (Pn : 1 <= INR n) by (change 1 with (INR 1); apply le_INR; unfold n; lia).
  assert (Nn : (Z.of_nat n <= 2 ^ 40)%Z) by (unfold n; lia).
  assert (Un : INR n <= bpow radix2 40) by (destruct Rn; assumption).
  assert (UU : u64 * INR m <= / 4096).
  { destruct bpow_nums as (_ & _ & Bu). rewrite <- Bu. apply Rle_trans with (bpow radix2 (-53) * bpow radix2 40).
    - apply Rmult_le_compat_l; [apply bpow_ge_0|lra].
    - rewrite <- bpow_plus. cbn. lra. }
  assert (Hd : 0 < d <= INR m * INR m * M).
  { unfold d. set (I := INR m) in *. split; [apply Rmult_lt_0_compat; [apply Rmult_lt_0_compat; nra|lra]|].
    replace (u64 * M * (I * I) * ((1 + / 100) * I + (2 + / 10))) with ((u64 * ((1 + / 100) * I + (2 + / 10))) * (I * I * M)) by ring.
    rewrite <- (Rmult_1_l (I * I * M)) at 2. apply Rmult_le_compat_r; [nra|]. nra. }
  assert (Bv : forall k, (k < n)%nat -> Rabs (fR (vh k)) <= bpow radix2 282).
  { intros k Hk. destruct (vh_ok k Hk) as (F & E & B). apply Rabs_le_inv in E, B.
    apply Rle_trans with (2 * (INR m * INR m * M)); [apply Rabs_le; lra|].
    apply Rle_trans with (bpow radix2 1 * (bpow radix2 40 * bpow radix2 40 * bpow radix2 200)).
    - change (bpow radix2 1) with 2. apply Rmult_le_compat_l; [lra|].
      apply Rmult_le_compat; [nra|lra|apply Rmult_le_compat; lra|lra].
    - rewrite <- !bpow_plus. apply bpow_le. lia. }
  assert (B2 : forall k, (k < n)%nat -> fR (vh k) ^ 2 <= bpow radix2 564).
  { intros k Hk. change 564%Z with (282 + 282)%Z. rewrite bpow_plus. rewrite <- Rsqr_pow2. apply Rsqr_le_abs_1.
    rewrite (Rabs_pos_eq (bpow _ _)) by (left; apply bpow_gt_0). now apply Bv. }
  assert (Hq : forall k, (k < n)%nat -> near (nsq (vh k)) (fR (vh k) ^ 2) 1 eta /\ 0 <= fR (vh k) ^ 2 <= bpow radix2 900).
  { intros k Hk. destruct (vh_ok k Hk) as (F & E & B). apply near_sq; [exact F|]. eapply Rle_trans; [now apply Bv|]. apply bpow_le. lia. }
  assert (E0 : eta <= bpow radix2 900) by (apply bpow_le; lia).
  assert (P9 : 0 < bpow radix2 900) by apply bpow_gt_0.
  assert (H0 := near_sum n (fun i => nsq (vh i)) (fun k => fR (vh k) ^ 2) 1 eta (bpow radix2 900) s ltac:(unfold n; lia) Nn ltac:(lia) ltac:(lra) Hq).
  specialize (H0 ltac:(apply Rle_trans with (bpow radix2 40 * (4 * bpow radix2 900));
     [apply Rmult_le_compat; lra|change 4 with (bpow radix2 2); rewrite <- !bpow_plus; apply bpow_le; lia]) Hs).
  set (S2 := bigsum n (fun k => fR (vh k) ^ 2)) in *.
  assert (PS : 0 <= S2 <= bpow radix2 604).
  { split; [apply bigsum_nonneg; intros; apply pow2_ge_0|].
    change 604%Z with (40 + 564)%Z. rewrite bpow_plus. pose proof (bpow_gt_0 radix2 564). apply Rle_trans with (INR n * bpow radix2 564).
    - unfold S2. rewrite <- bigsum_const. apply bigsum_le. exact B2.
    - apply Rmult_le_compat_r; lra. }
  assert (C72 : 72 * S2 <= bpow radix2 611).
  { change 611%Z with (7 + 604)%Z. rewrite bpow_plus. change (bpow radix2 7) with 128. lra. }
  assert (Q990 : bpow radix2 988 = / 4 * bpow radix2 990).
  { change 988%Z with (-2 + 990)%Z. rewrite bpow_plus. replace (bpow radix2 (-2)) with (/ 4) by (cbn; lra). reflexivity. }
  assert (Nz : 0 <= (1 + / 1000) * (INR n * eta)) by nra.
  assert (Nb : INR n * eta <= bpow radix2 41 * eta) by (apply Rmult_le_compat_r; [lra|]; eapply Rle_trans; [exact Un|apply bpow_le; lia]).
  assert (Nb' : bpow radix2 41 * eta <= bpow radix2 900) by (unfold eta; rewrite <- bpow_plus; apply bpow_le; lia).
  assert (P988 : 128 * bpow radix2 900 <= bpow radix2 988) by (change 128 with (bpow radix2 7); rewrite <- bpow_plus; apply bpow_le; lia).
  assert (H1 := near_mul_approx (f_ofZ 72) 72 0 s S2 (n + 1) _ (approx_Z 72 ltac:(lia)) H0 ltac:(lra) (proj1 PS) Nz ltac:(lia) ltac:(lia)).
  rewrite <- Q990 in H1.
  specialize (H1 ltac:(eapply Rle_trans; [exact C72|apply bpow_le; lia]) ltac:(lra)).
  set (z := (1 + u64) * ((1 + / 1000) * (72 * ((1 + / 1000) * (INR n * eta)))) + eta) in *.
  assert (Hz : 0 <= z <= 75 * (INR n * eta)).
  { assert (0 < INR n * eta) by nra. assert (eta <= INR n * eta) by nra. unfold z. set (q := INR n * eta) in *. split; nra. }
  assert (One : forall g : nat -> R, 72 * bigsum n (fun k => g k ^ 2) = bigsum n (fun k => 72 * g k ^ 2)) by (intro g; now rewrite bigsum_scal).
  unfold S2 in H1. rewrite (One (fun k => fR (vh k))) in H1. rewrite (One v).
  replace (n + 12)%nat with (S (0 + (n + 1)) + 10)%nat by lia.
  set (y := u64 * M / (16 * K)).
  assert (IK : 0 < / K) by (now apply Rinv_0_lt_compat).
  assert (IKb : / K <= bpow radix2 100) by (pose proof (rg_inv _ _ _ RK) as [_ L]; exact L).
  assert (Ey : y = / 16 * (u64 * M) * / K) by (unfold y; field; lra).
  assert (Py : 0 <= y) by (rewrite Ey; apply Rmult_le_pos; lra).
  assert (Er : fR rate / INR m = / K).
  { unfold K. destruct Hr as [_ [L _]]. pose proof (bpow_gt_0 radix2 (-100)). field. split; lra. }
  set (g := (1 + / 100) * INR m + (2 + / 10)). assert (Pg : 0 < g) by (unfold g; lra).
  assert (Uk : 0 <= u64 * M * / K) by (apply Rmult_le_pos; lra).
  eapply near_weaken; [apply (root_near n (fun _ => 72) vh v _ den Y (S (0 + (n + 1))) z y (17 / 2 * g * (u64 * M * / K)) H1 HD PY)|].
  - lra.
  - lia.
  - intros; lra.
  - rewrite <- (One (fun k => fR (vh k))). fold S2. rewrite <- Q990.
    apply Rle_trans with (bpow radix2 611 * bpow radix2 200); [|rewrite <- bpow_plus; apply bpow_le; lia].
    unfold Rdiv. apply Rmult_le_compat; [lra|left; now apply Rinv_0_lt_compat|exact C72|].
    pose proof (rg_inv _ _ _ RY) as [_ L]. exact L.
  - apply Rmult_le_pos; [lra|exact Uk].
  - exact Py.
  - assert (Yb : y <= bpow radix2 300).
    { rewrite Ey. change 300%Z with (200 + 100)%Z. rewrite bpow_plus. apply Rmult_le_compat; lra. }
    rewrite <- Q990. apply Rle_trans with (bpow radix2 300 * bpow radix2 300); [apply Rmult_le_compat; lra|].
    rewrite <- bpow_plus. apply bpow_le; lia.
  - pose proof (tiny M K 76 (proj1 HM) RK ltac:(split; [lra|apply Rle_trans with (bpow radix2 7); [cbn; lra|apply bpow_le; lia]])) as T. fold y in T.
    eapply Rle_trans; [|exact T]. apply Rplus_le_compat_r.
    assert (KK : 0 < / (K * K)) by (apply Rinv_0_lt_compat; nra).
    assert (IY : 0 < / Y) by (now apply Rinv_0_lt_compat).
    assert (Z1 : z / Y <= 75 * (INR n * eta) / Y) by (apply Rmult_le_compat_r; lra).
    assert (I4 : 1 <= INR m ^ 4) by (apply pow_R1_Rle; lra).
    assert (Z2 : 75 * (INR n * eta) / Y <= 75 * eta * / (K * K)).
    { replace (75 * (INR n * eta) / Y) with (75 * eta * / (K * K) * / INR m ^ 4) by (unfold Y; field; repeat split; lra).
      rewrite <- (Rmult_1_r (75 * eta * / (K * K))) at 2. apply Rmult_le_compat_l; [apply Rmult_le_pos; lra|].
      rewrite <- Rinv_1. apply Rinv_le_contravar; lra. }
    replace (76 * eta / (K * K)) with (76 * (eta * / (K * K))) by (unfold Rdiv; ring).
    assert (0 < eta * / (K * K)) by (apply Rmult_lt_0_compat; lra).
    replace (75 * eta * / (K * K)) with (75 * (eta * / (K * K))) in Z2 by ring.
    assert (0 <= z / Y) by (apply Rmult_le_pos; lra). nra.
  - apply Rle_trans with (bigsum n (fun _ => 72 * d ^ 2)).
    + apply bigsum_le. intros k Hk. apply Rmult_le_compat_l; [lra|]. rewrite <- !Rsqr_pow2. apply Rsqr_le_abs_1. rewrite (Rabs_pos_eq d) by lra. now apply vh_ok.
    + rewrite bigsum_const. unfold d. fold g.
      replace ((17 / 2 * g * (u64 * M * / K)) ^ 2 * Y) with (INR n * (289 / 4 * (u64 * M * (INR m * INR m) * g) ^ 2)) by (unfold Y; field; lra).
      apply Rmult_le_compat_l; [lra|]. pose proof (pow2_ge_0 (u64 * M * (INR m * INR m) * g)). nra.
  - rewrite Ey, Er. unfold g. replace ((9 * INR m + 19) * u64 * M * / K) with ((9 * INR m + 19) * (u64 * M * / K)) by ring.
    replace (/ 16 * (u64 * M) * / K) with (/ 16 * (u64 * M * / K)) by ring. set (q := u64 * M * / K) in *. nra.
Qed.
End Par.

(** ** theo1 *)
Section TheoGen.
Context {A : Type} {NA : Num A}.
Definition theo_diff (f : nat -> A) (m i d : nat) : A :=
  nsub (nadd (nsub (f i) (f (i + Nat.div2 m - d)%nat)) (f (i + m)%nat)) (f (i + Nat.div2 m + d)%nat).
Definition theo_w (m d : nat) : A := ndiv (ofZ 1) (nsub (ndiv (ofN m) (ofZ 2)) (ofN d)).
Definition theo_term (f : nat -> A) (m i d : nat) : A := nmul (theo_w m d) (nsq (theo_diff f m i d)).
Lemma asum_S n (g : nat -> A) : asum (tab (S n) g) = nadd (asum (tab n g)) (g n).
Proof. unfold asum. rewrite tab_snoc, fold_left_app. reflexivity. Qed.
Lemma calc_theo1_gen N (f : nat -> A) rate m : (1 <= m < N)%nat -> Nat.even m = true ->
  let dev := nsqrt (ndiv (asum (tab (N - m) (fun i => asum (tab (Nat.div2 m) (theo_term f m i)))))
     (nmul (nmul (ndiv (ofZ 3) (ofZ 4)) (ofN (N - m))) (nsq (nmul (ofN m) (ndiv (ofZ 1) rate))))) in
  calc_theo1 (tab N f) rate m = Ok (dev, ndiv dev (nsqrt (ofN (N - m))), (Z.of_nat (N - m) * Z.of_nat (Nat.div2 m))%Z).
Proof.
  intros Hm He dev. unfold calc_theo1. cbv zeta. rewrite He, tab_length. cbn [assert_ bind].
  assert (Hm2 : m = (2 * Nat.div2 m)%nat).
  { pose proof (Nat.div2_odd m) as H. rewrite <- Nat.negb_even, He in H. cbn [negb Nat.b2n] in H. lia. }
  set (h := Nat.div2 m) in *.
  rewrite (foldM_inv _ (fun j => (asum (tab j (fun i => asum (tab h (theo_term f m i)))), (Z.of_nat j * Z.of_nat h)%Z))).
  - cbn [bind].
    replace (2 * (Z.of_nat (N - m) * Z.of_nat h) =? (Z.of_nat N - Z.of_nat m) * Z.of_nat m)%Z with true.
    2:{ symmetry. apply Z.eqb_eq. rewrite Hm2 at 3. lia. }
    cbn [assert_ bind]. unfold dev, ofN. replace (Z.of_nat N - Z.of_nat m)%Z with (Z.of_nat (N - m)) by lia. reflexivity.
  - reflexivity.
  - intros i Hi. cbn [bind].
    rewrite (foldM_inv _ (fun d => (asum (tab d (theo_term f m i)), (Z.of_nat i * Z.of_nat h + Z.of_nat d)%Z))).
    + cbn [bind]. rewrite asum_S. f_equal. f_equal. lia.
    + f_equal. lia.
    + intros d Hd. rewrite !pyget_tab by lia. cbn [bind]. rewrite asum_S. unfold theo_term at 2, theo_w, theo_diff. fold h.
      replace (Z.to_nat (Z.of_nat i)) with i by lia.
      replace (Z.to_nat (Z.of_nat i - Z.of_nat d + Z.of_nat h)) with (i + h - d)%nat by lia.
      replace (Z.to_nat (Z.of_nat i + Z.of_nat m)) with (i + m)%nat by lia.
      replace (Z.to_nat (Z.of_nat i + Z.of_nat d + Z.of_nat h)) with (i + h + d)%nat by lia.
      f_equal. f_equal. lia.
Qed.
End TheoGen.

(** a double sum as a single one *)
Lemma bigsum_flat n h (F : nat -> nat -> R) : (1 <= h)%nat ->
  bigsum n (fun i => bigsum h (F i)) = bigsum (n * h) (fun k => F (k / h)%nat (k mod h)%nat).
Proof.
  intro Hh. induction n as [|n IH]; [reflexivity|]. cbn [bigsum]. rewrite IH.
  replace (S n * h)%nat with (n * h + h)%nat by lia. rewrite bigsum_add. f_equal.
  apply bigsum_ext. intros d Hd. replace ((n * h + d) / h)%nat with n; [replace ((n * h + d) mod h)%nat with d; [reflexivity|]|].
  - apply (Nat.mod_unique _ _ n); lia.
  - apply (Nat.div_unique _ _ _ d); lia.
Qed.
(** 1 + 1/2 + ... + 1/h *)
Definition harmonic (h : nat) : R := bigsum h (fun j => / INR (S j)).
Lemma harmonic_rev h : bigsum h (fun d => / (INR h - INR d)) = harmonic h.
Proof.
  unfold harmonic. rewrite <- (bigsum_rev h (fun j => / INR (S j))). apply bigsum_ext. intros d Hd. f_equal. rewrite <- minus_INR by lia. f_equal. lia.
Qed.
Lemma harmonic_rg h : (1 <= h)%nat -> 1 <= harmonic h <= INR h.
Proof.
  intro Hh. unfold harmonic. split.
  - destruct h as [|h]; [lia|]. replace (S h) with (1 + h)%nat by lia. rewrite bigsum_add. cbn [bigsum]. change (INR 1) with 1.
    assert (0 <= bigsum h (fun k => / INR (S (1 + k)))); [|lra]. apply bigsum_nonneg. intros k _. left. apply Rinv_0_lt_compat, lt_0_INR. lia.
  - rewrite <- (Rmult_1_r (INR h)), <- bigsum_const. apply bigsum_le. intros k _. rewrite <- Rinv_1. apply Rinv_le_contravar; [lra|].
    change 1 with (INR 1). apply le_INR. lia.
Qed.

Section Theo.
Variables (N m : nat) (f q : nat -> float) (M : R) (rate s : float).
Hypothesis HN : (Z.of_nat N <= 2 ^ 40)%Z.
Hypothesis Hm : (2 <= m < N)%nat.
Hypothesis He : Nat.even m = true.
Hypothesis HM : bpow radix2 (-200) <= M <= bpow radix2 200.
Hypothesis Hf : forall i, (i < N)%nat -> ffin (f i) /\ Rabs (fR (f i)) <= M.
Hypothesis Hr : moderate_rate rate.
Let n := (N - m)%nat.
Let h := Nat.div2 m.
Hypothesis Hq : forall i, (i < n)%nat -> sum_of (tab h (theo_term f m i)) (q i).
Hypothesis Hs : sum_of (tab n q) s.
Let K : R := INR m / fR rate.
Let v (i d : nat) : R := (fR (f i) - fR (f (i + h - d)%nat)) + (fR (f (i + m)%nat) - fR (f (i + h + d)%nat)).
Let c (d : nat) : R := / (INR h - INR d).

Lemma theo_h : m = (2 * h)%nat /\ (1 <= h)%nat /\ (Z.of_nat h <= 2 ^ 39)%Z.
Proof using All.
  assert (Hm2 : m = (2 * Nat.div2 m)%nat).
  { pose proof (Nat.div2_odd m) as H. rewrite <- Nat.negb_even, He in H. cbn [negb Nat.b2n] in H. lia. }
  fold h in Hm2. lia.
Qed.
Lemma theo_consts : 0 < M /\ 0 < u64 <= / 4096 /\ 0 < u64 * M <= / 4096 * M /\ 5 * M <= bpow radix2 203.
Proof using All.
  clear -HM.
  pose proof (bpow_gt_0 radix2 (-200)). pose proof u64_pos. assert (u64 <= / 4096) by (unfold u64; lra).
  split; [lra|]. split; [lra|]. split; [split; nra|].
  apply Rle_trans with (bpow radix2 3 * bpow radix2 200); [change (bpow radix2 3) with 8; lra|]. rewrite <- bpow_plus. apply bpow_le. lia.
Qed.
Lemma theo_diff_ok i d : (i < n)%nat -> (d < h)%nat -> ffin (theo_diff f m i d) /\
  Rabs (fR (theo_diff f m i d) - v i d) <= (9 + / 100) * (u64 * M) /\ Rabs (v i d) <= 4 * M.
Proof using All.
  destruct theo_consts as (PM & Uq & UM & BM). destruct theo_h as (Eh & Ph & _). intros Hi Hd. unfold n in Hi.
  assert (B5 : bpow radix2 203 <= bpow radix2 1000) by (apply bpow_le; lia).
  unfold theo_diff, v. fold h. cbn [nadd nsub FNum].
  destruct (Hf i ltac:(lia)) as [Fa Ba]. destruct (Hf (i + h - d)%nat ltac:(lia)) as [Fb Bb].
  destruct (Hf (i + m)%nat ltac:(lia)) as [Fc Bc]. destruct (Hf (i + h + d)%nat ltac:(lia)) as [Fe Be].
  set (a := f i) in *. set (b := f (i + h - d)%nat) in *. set (cc := f (i + m)%nat) in *. set (e := f (i + h + d)%nat) in *.
  apply Rabs_le_inv in Ba, Bb, Bc, Be.
  assert (A1 : Rabs (fR a - fR b) <= 2 * M) by (apply Rabs_le; lra).
  destruct (fsub_err a b Fa Fb ltac:(lra)) as [F1 E1]. assert (E1' : Rabs (fR (a - b)%float - (fR a - fR b)) <= 2 * (u64 * M)) by nra.
  set (t := (a - b)%float) in *. apply Rabs_le_inv in E1'. apply Rabs_le_inv in A1.
  assert (A2 : Rabs (fR t + fR cc) <= (3 + / 1000) * M) by (apply Rabs_le; lra).
  destruct (fadd_err t cc F1 Fc ltac:(lra)) as [F2 E2]. assert (E2' : Rabs (fR (t + cc)%float - (fR t + fR cc)) <= (3 + / 1000) * (u64 * M)) by nra.
  set (r := (t + cc)%float) in *. apply Rabs_le_inv in E2'. apply Rabs_le_inv in A2.
  assert (A3 : Rabs (fR r - fR e) <= (4 + / 200) * M) by (apply Rabs_le; lra).
  destruct (fsub_err r e F2 Fe ltac:(lra)) as [F3 E3]. assert (E3' : Rabs (fR (r - e)%float - (fR r - fR e)) <= (4 + / 200) * (u64 * M)) by nra.
  apply Rabs_le_inv in E3'. split; [exact F3|]. split; apply Rabs_le; lra.
Qed.

Lemma theo_w_ok d : (d < h)%nat -> approx (theo_w m d : float) (c d) 1 /\ 0 < c d <= 1.
Proof using All.
  destruct theo_h as (Eh & Ph & Nh). intro Hd. unfold theo_w. cbn [ndiv nsub ofZ FNum].
  assert (EI : INR h - INR d = INR (h - d)) by (rewrite minus_INR by lia; reflexivity). unfold c. rewrite EI.
  assert (P1 : 1 <= INR (h - d)) by (change 1 with (INR 1); apply le_INR; lia).
  destruct (fofZ_ok (Z.of_nat m) ltac:(lia)) as [F1 V1]. destruct (fofZ_ok 2 ltac:(lia)) as [F3 V3]. destruct (fofZ_ok (Z.of_nat d) ltac:(lia)) as [F4 V4].
  assert (SM : forall z, (Z.abs z <= 2 ^ 53)%Z -> Rabs (IZR z) < bpow radix2 1024).
  { intros z Hz. rewrite <- abs_IZR. apply Rle_lt_trans with (IZR (2 ^ 53)); [now apply IZR_le|]. change (IZR (2 ^ 53)) with (bpow radix2 53). apply bpow_lt. lia. }
  assert (E2 : fR (f_ofZ (Z.of_nat m)) / fR (f_ofZ 2) = IZR (Z.of_nat h)) by (rewrite V1, V3, Eh, Nat2Z.inj_mul, mult_IZR; change (Z.of_nat 2) with 2%Z; lra).
  destruct (fdiv_ok _ (f_ofZ 2) F1) as [F6 V6]; [rewrite V3; lra|rewrite E2, rnd_int by lia; apply SM; lia|]. rewrite E2, rnd_int in V6 by lia.
  unfold ofN. cbn [ofZ FNum].
  assert (E7 : fR (f_ofZ (Z.of_nat m) / f_ofZ 2)%float - fR (f_ofZ (Z.of_nat d)) = IZR (Z.of_nat (h - d))) by (rewrite V6, V4, <- minus_IZR; f_equal; lia).
  destruct (fsub_ok _ _ F6 F4) as [F7 V7]; [rewrite E7, rnd_int by lia; apply SM; lia|]. rewrite E7, rnd_int, <- INR_IZR_INZ in V7 by lia.
  assert (PI : 0 < / INR (h - d)) by (apply Rinv_0_lt_compat; lra).
  split.
  - replace (/ INR (h - d)) with (1 / INR (h - d)) by (unfold Rdiv; ring). rewrite <- V7. apply approx_div; [apply (approx_Z 1); lia|exact F7|rewrite V7; lra| |lia].
    rewrite V7. unfold Rdiv. rewrite Rmult_1_l. apply (rg_mid _ (-40) 0); [|lia|lia].
    change 0%Z with (- (0))%Z. change (-40)%Z with (- (40))%Z. apply rg_inv, rg_nat; lia.
  - split; [exact PI|]. rewrite <- Rinv_1. apply Rinv_le_contravar; lra.
Qed.

Let vh (i d : nat) : R := fR (theo_diff f m i d).
Lemma theo_vh i d : (i < n)%nat -> (d < h)%nat -> 0 <= vh i d ^ 2 <= bpow radix2 406.
Proof using All.
  destruct theo_consts as (PM & Uq & UM & BM). intros Hi Hd. split; [apply pow2_ge_0|].
  destruct (theo_diff_ok i d Hi Hd) as (F & E & B). apply Rabs_le_inv in E, B.
  change 406%Z with (203 + 203)%Z. rewrite bpow_plus. rewrite <- Rsqr_pow2. apply Rsqr_le_abs_1.
  rewrite (Rabs_pos_eq (bpow _ _)) by (left; apply bpow_gt_0). unfold vh. apply Rabs_le. lra.
Qed.
Lemma theo_term_ok i d : (i < n)%nat -> (d < h)%nat ->
  near (theo_term f m i d) (c d * vh i d ^ 2) 3 ((2 + / 10) * eta) /\ 0 <= c d * vh i d ^ 2 <= bpow radix2 406.
Proof using All.
  intros Hi Hd. destruct (theo_vh i d Hi Hd) as [V0 V1]. destruct (theo_w_ok d Hd) as [AW [PC UC]].
  destruct (theo_diff_ok i d Hi Hd) as (F & _ & _). pose proof eta_pos as Pe. pose proof u64_pos as Pu. assert (Uq : u64 <= / 4096) by (unfold u64; lra).
  assert (B4 : Rabs (fR (theo_diff f m i d)) <= bpow radix2 450).
  { apply Rle_trans with (bpow radix2 203); [|apply bpow_le; lia]. apply Rsqr_incr_0_var; [|apply bpow_ge_0].
    rewrite <- Rsqr_abs. unfold Rsqr. rewrite <- bpow_plus. unfold vh in V1. cbn [pow] in V1. rewrite Rmult_1_r in V1. exact V1. }
  destruct (near_sq _ F B4) as [Ns _].
  assert (Q990 : bpow radix2 988 = / 4 * bpow radix2 990).
  { change 988%Z with (-2 + 990)%Z. rewrite bpow_plus. replace (bpow radix2 (-2)) with (/ 4) by (cbn; lra). reflexivity. }
  assert (P6 : bpow radix2 406 <= bpow radix2 988) by (apply bpow_le; lia).
  assert (P7 : eta <= bpow radix2 988) by (apply bpow_le; lia).
  split.
  - assert (H := near_mul_approx _ _ 1 _ _ 1 eta AW Ns PC V0 ltac:(lra) ltac:(lia) ltac:(lia)). rewrite <- Q990 in H.
    specialize (H ltac:(unfold vh in V1; nra) ltac:(nra)). eapply near_weaken; [exact H|].
    assert (0 < c d * eta <= eta) by (split; nra). set (ce := c d * eta) in *. nra.
  - unfold vh in *. split; nra.
Qed.
Lemma theo_rg : rg K (-100) 140 /\ rg (INR n) 0 40 /\ rg (INR m) 0 40 /\ 1 <= INR h <= bpow radix2 40.
Proof using All.
  destruct theo_h as (Eh & Ph & Nh).
  assert (Rm : rg (INR m) 0 40) by (apply rg_nat; lia).
  split; [|split; [apply rg_nat; unfold n; lia|split; [exact Rm|]]].
  - unfold K, Rdiv. apply (rg_mul _ _ 0 40 (-100) 100); [exact Rm|]. apply (rg_inv _ (-100) 100). destruct Hr as [_ H]. exact H.
  - destruct (rg_nat h Ph ltac:(lia)) as [A B]. exact (conj A B).
Qed.
Lemma theo_sum : near s (bigsum n (fun i => bigsum h (fun d => c d * vh i d ^ 2))) (n + (h + 3)) (3 * (INR n * (INR h * eta))) /\
  0 <= bigsum n (fun i => bigsum h (fun d => c d * vh i d ^ 2)) <= bpow radix2 486.
Proof using All.
  destruct theo_h as (Eh & Ph & Nh). destruct theo_rg as (_ & [N1 N2] & _ & [H1 H2]). change (bpow radix2 0) with 1 in N1.
  pose proof eta_pos as Pe. pose proof u64_pos as Pu. assert (Uq : u64 <= / 4096) by (unfold u64; lra).
  set (X := fun i => bigsum h (fun d => c d * vh i d ^ 2)).
  assert (P6 : 0 < bpow radix2 406) by apply bpow_gt_0. assert (E6 : (2 + / 10) * eta <= bpow radix2 406).
  { apply Rle_trans with (4 * eta); [lra|]. change 4 with (bpow radix2 2). unfold eta. rewrite <- bpow_plus. apply bpow_le. lia. }
  assert (HX : forall i, (i < n)%nat -> near (q i) (X i) (h + 3) ((2 + / 5) * (INR h * eta)) /\ 0 <= X i <= bpow radix2 446).
  { intros i Hi. split; [|split].
    - eapply near_weaken; [apply (near_sum h (theo_term f m i) (fun d => c d * vh i d ^ 2) 3 ((2 + / 10) * eta) (bpow radix2 406) (q i) Ph ltac:(lia) ltac:(lia)
         ltac:(apply Rmult_le_pos; lra) (fun d Hd => theo_term_ok i d Hi Hd)); [|now apply Hq]|].
      + apply Rle_trans with (bpow radix2 40 * (4 * bpow radix2 406)); [apply Rmult_le_compat; lra|].
        change 4 with (bpow radix2 2). rewrite <- !bpow_plus. apply bpow_le; lia.
      + assert (0 < INR h * eta) by nra. lra.
    - apply bigsum_nonneg. intros d Hd. now apply theo_term_ok.
    - change 446%Z with (40 + 406)%Z. rewrite bpow_plus. apply Rle_trans with (INR h * bpow radix2 406); [|apply Rmult_le_compat_r; lra].
      unfold X. rewrite <- bigsum_const. apply bigsum_le. intros d Hd. now apply theo_term_ok. }
  assert (P4 : 0 < bpow radix2 446) by apply bpow_gt_0.
  assert (Ph0 : 0 < INR h * eta) by nra.
  assert (Eh6 : (2 + / 5) * (INR h * eta) <= bpow radix2 446).
  { apply Rle_trans with (4 * (bpow radix2 40 * eta)); [nra|]. change 4 with (bpow radix2 2). unfold eta. rewrite <- !bpow_plus. apply bpow_le. lia. }
  split; [|split].
  - eapply near_weaken; [apply (near_sum n q X (h + 3) ((2 + / 5) * (INR h * eta)) (bpow radix2 446) s ltac:(unfold n; lia) ltac:(unfold n; lia) ltac:(lia) ltac:(lra) HX)|].
    + apply Rle_trans with (bpow radix2 40 * (4 * bpow radix2 446)); [apply Rmult_le_compat; lra|].
      change 4 with (bpow radix2 2). rewrite <- !bpow_plus. apply bpow_le; lia.
    + exact Hs.
    + assert (0 < INR n * (INR h * eta)) by nra. lra.
  - apply bigsum_nonneg. intros i Hi. now apply HX.
  - change 486%Z with (40 + 446)%Z. rewrite bpow_plus. apply Rle_trans with (INR n * bpow radix2 446); [|apply Rmult_le_compat_r; lra].
    rewrite <- bigsum_const. apply bigsum_le. intros i Hi. now apply HX.
Qed.

Let den : float := (f_ofZ 3 / f_ofZ 4 * f_ofZ (Z.of_nat n) * nsq (f_ofZ (Z.of_nat m) * (f_ofZ 1 / rate)))%float.
Let Y : R := 3 / 4 * INR n * (K * K).
Lemma theo_den : approx den Y 7 /\ rg Y (-201) 321.
Proof using All.
  destruct theo_rg as (RK & Rn & Rm & _). destruct Hr as [Fr [Lr Ur]]. pose proof (bpow_gt_0 radix2 (-100)).
  assert (Rr : rg (/ fR rate) (-100) 100) by (apply (rg_inv _ (-100) 100); split; assumption).
  assert (R34 : rg (3 / 4) (-1) 1) by (split; cbn; lra).
  assert (S1 := rg_mul _ _ _ _ _ _ R34 Rn). assert (S2 := rg_mul _ _ _ _ _ _ RK RK). assert (S3 := rg_mul _ _ _ _ _ _ S1 S2).
  split; [|exact S3].
  unfold den, Y, nsq. cbn [nmul FNum].
  apply (approx_mul _ _ _ _ 1 5); [| |now apply (rg_mid _ _ _ S3)|lia].
  - apply (approx_mul _ _ _ _ 0 0); [|rewrite INR_IZR_INZ; apply approx_Z; unfold n; lia|now apply (rg_mid _ _ _ S1)|lia].
    replace (f_ofZ 3 / f_ofZ 4)%float with 0x1.8p-1%float by reflexivity.
    replace (3 / 4) with (fR 0x1.8p-1%float).
    + apply approx_self, ffin_SF. reflexivity.
    + rewrite fR_SF. replace (FloatOps.Prim2SF 0x1.8p-1%float) with (S754_finite false 6755399441055744 (-53)) by reflexivity.
      unfold SF2R, F2R. cbn [cond_Zopp Fnum Fexp]. change (bpow radix2 (-53)) with (/ 9007199254740992). lra.
  - assert (A1 : approx (f_ofZ 1 / rate)%float (1 / fR rate) 1).
    { apply approx_div; [apply (approx_Z 1); lia|exact Fr|lra| |lia]. unfold Rdiv. rewrite Rmult_1_l. now apply (rg_mid _ _ _ Rr). }
    assert (A2 : approx (f_ofZ (Z.of_nat m) * (f_ofZ 1 / rate))%float K 2).
    { replace K with (INR m * (1 / fR rate)) by (unfold K; field; lra).
      apply (approx_mul _ _ _ _ 0 1); [rewrite INR_IZR_INZ; apply approx_Z; lia|exact A1| |lia].
      replace (INR m * (1 / fR rate)) with K by (unfold K; field; lra). now apply (rg_mid _ _ _ RK). }
    apply (approx_mul _ _ _ _ 2 2); [exact A2|exact A2|now apply (rg_mid _ _ _ S2)|lia].
Qed.

Lemma theo1_row : near (fsqrt (s / den)) (R_sqrt.sqrt (bigsum n (fun i => bigsum h (fun d => c d * v i d ^ 2)) / Y)) (n + h + 13)
  (11 * R_sqrt.sqrt (harmonic h) * u64 * M * (fR rate / INR m)).
Proof using All.
  destruct theo_consts as (PM & Uq & UM & BM). destruct theo_rg as (RK & [N1 N2] & Rm & [I1 I2]). destruct theo_den as [HD RY].
  destruct theo_h as (Eh & Ph & Nh). change (bpow radix2 0) with 1 in N1.
  pose proof (rg_pos _ _ _ RK) as PK. pose proof (rg_pos _ _ _ RY) as PY. pose proof eta_pos as Pe.
  destruct theo_sum as [H1 HX]. destruct (harmonic_rg h Ph) as [Ha Hb]. set (H := R_sqrt.sqrt (harmonic h)).
  assert (HH : 1 <= H) by (rewrite <- sqrt_1; apply sqrt_le_1_alt; exact Ha).
  assert (H2 : H ^ 2 = harmonic h) by (unfold H; cbn [pow]; rewrite Rmult_1_r; apply sqrt_sqrt; lra).
  assert (Fl : forall g : nat -> nat -> R, bigsum n (fun i => bigsum h (fun d => c d * g i d ^ 2)) =
     bigsum (n * h) (fun k => c (k mod h)%nat * g (k / h)%nat (k mod h)%nat ^ 2)) by (intro g; apply (bigsum_flat n h (fun i d => c d * g i d ^ 2) Ph)).
  assert (Kd : forall k, (k < n * h)%nat -> (k / h < n)%nat /\ (k mod h < h)%nat).
  { intros k Hk. split; [apply Nat.div_lt_upper_bound; lia|apply Nat.mod_upper_bound; lia]. }
  rewrite (Fl vh) in H1, HX. rewrite (Fl v).
  replace (n + h + 13)%nat with (n + (h + 3) + 10)%nat by lia.
  assert (Q990 : bpow radix2 988 = / 4 * bpow radix2 990).
  { change 988%Z with (-2 + 990)%Z. rewrite bpow_plus. replace (bpow radix2 (-2)) with (/ 4) by (cbn; lra). reflexivity. }
  set (y := u64 * M / (16 * K)).
  assert (IK : 0 < / K) by (now apply Rinv_0_lt_compat).
  assert (IKb : / K <= bpow radix2 100) by (pose proof (rg_inv _ _ _ RK) as [_ L]; exact L).
  assert (Ey : y = / 16 * (u64 * M) * / K) by (unfold y; field; lra).
  assert (Py : 0 <= y) by (rewrite Ey; apply Rmult_le_pos; lra).
  assert (Er : fR rate / INR m = / K).
  { unfold K. destruct Hr as [_ [L _]]. pose proof (bpow_gt_0 radix2 (-100)). field. split; [lra|]. apply not_0_INR. lia. }
  assert (Uk : 0 <= u64 * M * / K) by (apply Rmult_le_pos; lra).
  eapply near_weaken; [apply (root_near (n * h) (fun k => c (k mod h)%nat) (fun k => theo_diff f m (k / h) (k mod h)) (fun k => v (k / h)%nat (k mod h)%nat)
     s den Y (n + (h + 3)) _ y (21 / 2 * H * (u64 * M * / K)) H1 HD PY)|].
  - assert (0 < INR n * (INR h * eta)) by (apply Rmult_lt_0_compat; nra). lra.
  - unfold n. lia.
  - intros k Hk. left. apply theo_w_ok, Kd, Hk.
  - rewrite <- Q990. apply Rle_trans with (bpow radix2 486 * bpow radix2 201); [|rewrite <- bpow_plus; apply bpow_le; lia].
    unfold Rdiv. apply Rmult_le_compat; [apply HX|left; now apply Rinv_0_lt_compat|apply HX|].
    pose proof (rg_inv _ _ _ RY) as [_ L]. exact L.
  - apply Rmult_le_pos; [lra|exact Uk].
  - exact Py.
  - assert (Yb : y <= bpow radix2 300).
    { rewrite Ey. change 300%Z with (200 + 100)%Z. rewrite bpow_plus. apply Rmult_le_compat; lra. }
    rewrite <- Q990. apply Rle_trans with (bpow radix2 300 * bpow radix2 300); [apply Rmult_le_compat; lra|].
    rewrite <- bpow_plus. apply bpow_le; lia.
  - pose proof (tiny M K (5 * INR h) (proj1 HM) RK) as T. fold y in T.
    eapply Rle_trans; [|apply T]. 
    + apply Rplus_le_compat_r.
      replace (3 * (INR n * (INR h * eta)) / Y) with (4 * (INR h * eta * / (K * K))) by (unfold Y; field; lra).
      replace (5 * INR h * eta / (K * K)) with (5 * (INR h * eta * / (K * K))) by (unfold Rdiv; ring).
      assert (0 < INR h * eta * / (K * K)) by (apply Rmult_lt_0_compat; [nra|apply Rinv_0_lt_compat; nra]). nra.
    + split; [lra|]. apply Rle_trans with (8 * bpow radix2 40); [lra|]. change 8 with (bpow radix2 3). rewrite <- bpow_plus. apply bpow_le. lia.
  - apply Rle_trans with (bigsum (n * h) (fun k => c (k mod h)%nat * ((9 + / 100) * (u64 * M)) ^ 2)).
    + apply bigsum_le. intros k Hk. destruct (Kd k Hk) as [K1 K2]. apply Rmult_le_compat_l; [left; now apply theo_w_ok|].
      rewrite <- !Rsqr_pow2. apply Rsqr_le_abs_1. rewrite (Rabs_pos_eq ((9 + / 100) * (u64 * M))) by lra. now apply theo_diff_ok.
    + rewrite <- (bigsum_flat n h (fun i d => c d * ((9 + / 100) * (u64 * M)) ^ 2) Ph).
      rewrite bigsum_const. rewrite bigsum_scal_r. unfold c. rewrite harmonic_rev.
      replace ((21 / 2 * H * (u64 * M * / K)) ^ 2 * Y) with (INR n * (H ^ 2 * (1323 / 16 * (u64 * M) ^ 2))) by (unfold Y; field; lra).
      rewrite H2. apply Rmult_le_compat_l; [lra|]. apply Rmult_le_compat_l; [lra|]. pose proof (pow2_ge_0 (u64 * M)). nra.
  - rewrite Ey, Er. replace (11 * H * u64 * M * / K) with (11 * H * (u64 * M * / K)) by ring.
    replace (/ 16 * (u64 * M) * / K) with (/ 16 * (u64 * M * / K)) by ring. set (qq := u64 * M * / K) in *.
    assert (qq <= H * qq) by nra. lra.
Qed.
End Theo.

(** ** The exact deviations in the form the row lemmas use *)
Section Exact.
Variables (x : list float) (M : R) (rate : float).
Hypothesis Hx : bounded_record x M.
Hypothesis Hr : moderate_rate rate.
Let N := len x.
Let f i := nth i x 0%float.
Lemma rate_pos : 0 < fR rate.
Proof using Hr. destruct Hr as [_ [L _]]. pose proof (bpow_gt_0 radix2 (-100)). lra. Qed.
Lemma val_map i : nth i (map fR x) 0 = fR (f i).
Proof using All. unfold f. assert (V0 : fR 0%float = 0) by (rewrite fR_SF; reflexivity). rewrite <- V0 at 1. apply map_nth. Qed.

Lemma tierms_exact m : R_sqrt.sqrt (bigsum (N - m) (fun i => (fR (f (i + m)%nat) - fR (f i)) ^ 2) / INR (N - m)) = R_sqrt.sqrt (tierms_var (map fR x) m).
Proof using All.
  f_equal. unfold tierms_var. rewrite map_length. fold N. unfold Rdiv. rewrite Rmult_comm. f_equal. apply bigsum_ext. intros i Hi. now rewrite !val_map.
Qed.
Lemma totdev_exact m : (3 <= N)%nat -> (1 <= m < N)%nat ->
  R_sqrt.sqrt (bigsum (N - 2) (fun k => tot_diff N m (ext N (fun i => fR (f i))) k ^ 2) / (2 * (INR m / fR rate * (INR m / fR rate)) * INR (N - 2)))
  = R_sqrt.sqrt (totvar (map fR x) (1 / fR rate) m).
Proof using All.
  intros HN Hm. destruct (rec_tab x M Hx) as (_ & _ & _ & EtR & _). fold N f in EtR.
  pose proof (totdev_extend_gen N (fun i => fR (f i)) ltac:(lia)) as E1.
  pose proof (totdev_extend_spec (map fR x)) as E2. rewrite map_length in E2. specialize (E2 ltac:(fold N; lia)). fold N in E2.
  assert (E0 : totdev_extend (map fR x) = Ok (tab (3 * N - 4) (ext N (fun i => fR (f i))))) by (rewrite EtR; exact E1).
  rewrite E0 in E2. assert (OkI : forall (T : Type) (a b : T), Ok a = Ok b -> a = b) by (intros T a b Q; now injection Q). apply OkI in E2.
  pose proof (calc_totdev_spec (map fR x) (fR rate) m rate_pos) as E3. rewrite map_length in E3. specialize (E3 HN Hm). cbv zeta in E3. fold N in E3.
  rewrite <- E2 in E3. rewrite (calc_totdev_gen N _ (fR rate) m ltac:(lia) Hm) in E3. apply OkI, (f_equal (fun t => fst (fst t))) in E3. cbn [fst] in E3. rewrite <- E3.
  cbn [nsqrt ndiv nmul ofZ RNum]. unfold sumsq. rewrite map_tab, asum_tab, !ofN_INR. f_equal. f_equal.
  apply bigsum_ext. intros k _. unfold nsq. cbn [nmul RNum]. ring.
Qed.
Lemma pdev_exact m : (2 <= m)%nat -> (2 * m < N)%nat ->
  R_sqrt.sqrt (72 * bigsum (N - 2 * m) (fun i => bigsum m (fun k => ((INR m - 1) / 2 - INR k) * (fR (f (i + k)%nat) - fR (f (i + k + m)%nat))) ^ 2) /
     (INR (N - 2 * m) * INR m ^ 4 * (INR m / fR rate * (INR m / fR rate)))) = R_sqrt.sqrt (pvar (map fR x) (1 / fR rate) m).
Proof using All.
  intros Hm HN. f_equal. unfold pvar. rewrite (proj2 (Nat.eqb_neq m 1)) by lia. unfold oadev_n. rewrite map_length. fold N. pose proof rate_pos as P.
  rewrite (bigsum_ext (N - 2 * m) (fun i => bigsum m (fun k => ((INR m - 1) / 2 - INR k) * ((map fR x).[i + k] - (map fR x).[i + k + m])) ^ 2)
     (fun i => bigsum m (fun k => ((INR m - 1) / 2 - INR k) * (fR (f (i + k)%nat) - fR (f (i + k + m)%nat))) ^ 2)).
  - field. repeat split; try lra; apply not_0_INR; lia.
  - intros i _. f_equal. apply bigsum_ext. intros k _. now rewrite !val_map.
Qed.
Lemma theo1_exact m : (2 <= m < N)%nat ->
  R_sqrt.sqrt (bigsum (N - m) (fun i => bigsum (Nat.div2 m) (fun d => / (INR (Nat.div2 m) - INR d) *
      ((fR (f i) - fR (f (i + Nat.div2 m - d)%nat)) + (fR (f (i + m)%nat) - fR (f (i + Nat.div2 m + d)%nat))) ^ 2)) /
     (3 / 4 * INR (N - m) * (INR m / fR rate * (INR m / fR rate)))) = R_sqrt.sqrt (theo1var (map fR x) (1 / fR rate) m).
Proof using All.
  intro Hm. f_equal. unfold theo1var. rewrite map_length. fold N. pose proof rate_pos as P. cbv zeta.
  set (S1 := bigsum (N - m) _). set (S2 := bigsum (N - m) _).
  assert (E : S1 = S2). { apply bigsum_ext. intros i _. apply bigsum_ext. intros d _. now rewrite !val_map. }
  rewrite E. field. repeat split; try lra; apply not_0_INR; lia.
Qed.
End Exact.

(** The averaging factors of theo1 *)
Lemma same_factors_even x rate M tF tR : bounded_record x M -> x <> [] -> moderate_rate rate -> same_request rate tF tR ->
  exists ms, tau_generator x rate tF true (ofZ (-1)) = Ok (x, ms, map (fun m => f_ofZ m / rate)%float ms) /\
    tau_generator (map fR x) (fR rate) tR true (-1) = Ok (map fR x, ms, map (fun m => IZR m / fR rate) ms) /\
    forall m, In m ms -> (1 <= m < Z.of_nat (len x))%Z /\ Z.even m = true.
Proof.
  intros (Hn & HM & Hx) Hx0 Hr Hs. apply moderate_safe in Hr.
  assert (Hl : (1 <= len x)%nat) by (destruct x; [contradiction|cbn; lia]).
  assert (G : exists ms, tau_generator x rate tF true (ofZ (-1)) = Ok (x, ms, map (fun m => f_ofZ m / rate)%float ms) /\
    tau_generator (map fR x) (fR rate) tR true (-1) = Ok (map fR x, ms, map (fun m => IZR m / fR rate) ms)).
  { destruct Hs as [(s & Hs & HF & HR)|(l & -> & -> & Hl')].
    - destruct (C80_keywords x (map fR x) rate tF tR s true (-1)) as (ms & G1 & G2 & _); auto; [lia|apply map_length|lia|].
      exists ms. auto.
    - destruct (C80_explicit x (map fR x) rate l true (-1)) as (ms & G1 & G2 & _); auto; [lia|apply map_length|lia|].
      exists ms. auto. }
  destruct G as (ms & G1 & G2). exists ms. split; [exact G1|]. split; [exact G2|].
  intros m Hm. unfold tau_generator in G1. destruct (neqb rate (ofZ 0)); [discriminate|].
  destruct (expand_taus (len x) rate tF) as [ts|]; cbn [bind] in G1; [|discriminate].
  injection G1 as E _. rewrite <- E in Hm. apply filter_In in Hm as [Hm Hv]. apply select_m_In_gen in Hm. split; [lia|exact Hv].
Qed.

(** ** One row, sums added up in any order *)
Definition err_at (rate : float) (M : R) (r : row) : R := u64 * M * (fR rate / IZR (r_m r)).

Section Rows.
Variables (x : list float) (M : R) (rate : float).
Hypothesis Hx : bounded_record x M.
Hypothesis HM : bpow radix2 (-200) <= M <= bpow radix2 200.
Hypothesis Hr : moderate_rate rate.
Hypothesis H2 : (2 <= len x)%nat.
Definition twin (calcF : nat -> res (float * float * Z)) (calcR : nat -> res (R * R * Z)) (m : Z) (P : row -> Prop) : Prop :=
  exists r, r_m r = m /\ calcF (Z.to_nat m) = Ok (r_dF r, r_eF r, r_n r) /\ calcR (Z.to_nat m) = Ok (r_dR r, r_eR r, r_n r) /\ ((1 < r_n r)%Z -> P r).

Lemma tierms_rows m : (1 <= m < Z.of_nat (len x))%Z ->
  twin (calc_tierms x) (calc_tierms (map fR x)) m (close_by (fun r => IZR (r_n r + 5)) (fun _ => bpow radix2 (-535))).
Proof using All.
  intro Hm. destruct (rec_tab x M Hx) as (HN & HMM & Et & EtR & Hf). set (k := Z.to_nat m). set (N := len x) in *. set (f := fun i => nth i x 0%float) in *.
  pose proof (calc_tierms_form x k) as E. pose proof (calc_tierms_spec (map fR x) k) as E'. rewrite map_length in E'. specialize (E' ltac:(fold N; lia)).
  unfold tie_n in E'. rewrite map_length in E'. fold N in E, E'.
  eexists (Row m _ _ _ _ _). cbn [r_m r_n r_dF r_eF r_dR r_eR]. split; [reflexivity|]. split; [exact E|]. split; [exact E'|]. intros _.
  assert (PM : 0 < M) by (pose proof (bpow_gt_0 radix2 (-200)); lra).
  apply near_close with (N - k + 5)%nat; cbn [r_m r_n r_dF r_eF r_dR r_eR]; [|lia|rewrite INR_IZR_INZ; apply IZR_le; lia|apply sqrt_pos].
  rewrite <- (tierms_exact x M rate Hx Hr). fold N f. unfold tierms_val, mean. fold N. rewrite map_length, tab_length.
  apply (tierms_row N k f M _ HN ltac:(lia) ltac:(lra) Hf). rewrite map_tab. apply sum_left.
Qed.

Lemma totdev_rows m : (1 <= m < Z.of_nat (len x))%Z -> exists exF exR, totdev_extend x = Ok exF /\ totdev_extend (map fR x) = Ok exR /\
  twin (calc_totdev exF (len x) rate) (calc_totdev exR (len x) (fR rate)) m (close_by (fun r => IZR (r_n r + 11)) (fun r => 16 * err_at rate M r)).
Proof using All.
  intro Hm. destruct (rec_tab x M Hx) as (HN & HMM & Et & EtR & Hf). set (k := Z.to_nat m). set (N := len x) in *. set (f := fun i => nth i x 0%float) in *.
  exists (tab (3 * N - 4) (ext N f)), (tab (3 * N - 4) (ext N (fun i => fR (f i)))).
  split; [rewrite Et; now apply totdev_extend_gen|]. split; [rewrite EtR; now apply totdev_extend_gen|].
  pose proof (calc_totdev_gen N (ext N f) rate k H2 ltac:(lia)) as E. pose proof (calc_totdev_gen N (ext N (fun i => fR (f i))) (fR rate) k H2 ltac:(lia)) as E'.
  cbv zeta in E, E'.
  eexists (Row m _ _ _ _ _). cbn [r_m r_n r_dF r_eF r_dR r_eR]. split; [reflexivity|]. split; [exact E|]. split; [exact E'|]. intro Hn.
  assert (Kk : IZR m = INR k) by (rewrite INR_IZR_INZ; f_equal; lia).
  apply near_close with (N - 2 + 11)%nat; cbn [r_m r_n r_dF r_eF r_dR r_eR]; [|lia|rewrite INR_IZR_INZ; apply IZR_le; lia|apply sqrt_pos].
  unfold err_at. cbn [r_m]. rewrite Kk.
  eapply near_weaken; [|apply Req_le; instantiate (1 := 16 * u64 * M * (fR rate / INR k)); ring].
  pose proof (totdev_row N k f M rate (sumsq (tab (N - 2) (tot_diff N k (ext N f)))) HN ltac:(lia) ltac:(lia) HM Hf Hr) as R1.
  unfold sumsq at 1 in R1. rewrite map_tab in R1. specialize (R1 (sum_left _)).
  cbn [nsqrt ndiv nmul ofZ RNum]. 
  match type of R1 with near _ ?a _ _ => match goal with |- near _ ?b _ _ => assert (EE : a = b) end end.
  { unfold sumsq. rewrite map_tab, asum_tab, !ofN_INR. f_equal. f_equal.
    apply bigsum_ext. intros j _. unfold nsq. cbn [nmul RNum]. ring. }
  rewrite <- EE. exact R1.
Qed.

Lemma pdev_rows m : (1 <= m < Z.of_nat (len x))%Z ->
  twin (calc_pdev_phase x rate) (calc_pdev_phase (map fR x) (fR rate)) m
    (close_by (fun r => IZR (r_n r + 12)) (fun r => (9 * IZR (r_m r) + 19) * err_at rate M r)).
Proof using All.
  intro Hm. destruct (rec_tab x M Hx) as (HN & HMM & Et & EtR & Hf). pose proof (rate_pos rate Hr) as Pr. pose proof u64_pos as Pu.
  assert (PM : 0 < M) by (pose proof (bpow_gt_0 radix2 (-200)); lra).
  assert (Ke : forall r, r_m r = m -> 0 <= err_at rate M r).
  { intros r Em. unfold err_at, Rdiv. rewrite Em. assert (1 <= IZR m) by (apply IZR_le; lia). assert (0 < / IZR m) by (apply Rinv_0_lt_compat; lra). repeat apply Rmult_le_pos; lra. }
  destruct (Z.eq_dec m 1) as [E1|E1].
  - assert (Q : forall A (NA : Num A) (z : list A) (rt : A), calc_pdev_phase z rt 1 = calc_adev_phase z rt 1 1) by reflexivity.
    destruct (adev_rows x rate M (fun _ => 1%nat) Hx Hr ltac:(auto) m Hm) as (r & Em & EF & ER & HA). exists r.
    rewrite E1 in EF, ER |- *. change (Z.to_nat 1) with 1%nat in *. rewrite !Q. split; [congruence|]. split; [exact EF|]. split; [exact ER|].
    intro Hn. destruct (HA Hn) as (F & P & B).
    assert (D0 : 0 <= r_dR r).
    { destruct (Nat.le_gt_cases (len x) 2) as [L|L].
      - exfalso. clear - ER Hn L. rewrite (calc_adev_form (map fR x)) in ER by lia. injection ER as _ _ Q3.
        unfold adev_cnt in Q3. rewrite map_length in Q3. rewrite <- Q3 in Hn.
        destruct (len x) as [|[|[|?]]]; [..|lia]; vm_compute in Hn; discriminate.
      - pose proof (calc_oadev_spec (map fR x) (fR rate) 1 Pr ltac:(lia)) as S. unfold oadev_n in S. rewrite map_length in S. specialize (S ltac:(lia)). cbv zeta in S.
        rewrite S in ER. injection ER as <- _ _. apply sqrt_pos. }
    split; [exact F|]. split; [exact P|]. eapply Rle_trans; [exact B|]. apply Rplus_le_compat.
    + apply Rmult_le_compat_r; [exact D0|]. apply Rmult_le_compat_l; [lra|]. apply Rmult_le_compat_r; [lra|]. apply IZR_le. lia.
    + pose proof (Ke r Em). rewrite Em, E1. unfold err_at in *. rewrite Em, E1 in *. lra.
  - set (k := Z.to_nat m). set (N := len x) in *. set (f := fun i => nth i x 0%float) in *.
    pose proof (calc_pdev_form x rate k) as E. fold N in E.
    destruct (Nat.le_gt_cases N (2 * k)) as [L|L].
    + pose proof (calc_pdev_form (map fR x) (fR rate) k) as E'. rewrite map_length in E'. fold N in E'.
      eexists (Row m _ _ _ _ _). cbn [r_m r_n r_dF r_eF r_dR r_eR]. split; [reflexivity|]. split; [exact E|]. split; [exact E'|]. intro Hn. exfalso.
      unfold pdev_cnt in Hn. rewrite (proj2 (Nat.eqb_neq k 1)) in Hn by lia. rewrite (proj2 (Z.ltb_lt _ 1)) in Hn by (unfold pdev_M; lia). lia.
    + pose proof (calc_pdev_spec (map fR x) (fR rate) k Pr ltac:(lia)) as E'. unfold oadev_n in E'. rewrite map_length in E'. fold N in E'. specialize (E' ltac:(lia)).
      cbv zeta in E'.
      assert (Ec : pdev_cnt N k = Z.of_nat (N - 2 * k)).
      { unfold pdev_cnt. rewrite (proj2 (Nat.eqb_neq k 1)) by lia. rewrite (proj2 (Z.ltb_ge _ 1)) by (unfold pdev_M; lia). unfold pdev_M. lia. }
      rewrite Ec in E.
      eexists (Row m _ _ _ _ _). cbn [r_m r_n r_dF r_eF r_dR r_eR]. split; [reflexivity|]. split; [exact E|]. split; [exact E'|]. intros _.
      assert (Kk : IZR m = INR k) by (rewrite INR_IZR_INZ; f_equal; lia).
      apply near_close with (N - 2 * k + 12)%nat; cbn [r_m r_n r_dF r_eF r_dR r_eR]; [|lia|rewrite INR_IZR_INZ; apply IZR_le; lia|apply sqrt_pos].
      unfold err_at. cbn [r_m]. rewrite Kk.
      eapply near_weaken; [|apply Req_le; instantiate (1 := (9 * INR k + 19) * u64 * M * (fR rate / INR k)); ring].
      rewrite <- (pdev_exact x M rate Hx Hr) by (fold N; lia). fold N f.
      unfold pdev_val. fold N. rewrite (proj2 (Nat.eqb_neq k 1)) by lia. rewrite (proj2 (Z.ltb_ge _ 1)) by (unfold pdev_M; lia).
      replace (pdev_M N k) with (Z.of_nat (N - 2 * k)) by (unfold pdev_M; lia).
      apply (pdev_row N k f (pdev_term x k) M rate _ HN ltac:(lia) L HM Hf Hr).
      * intros i Hi. apply sum_left.
      * assert (Q : fold_left (fun s i => nadd s (nsq (pdev_term x k i))) (seq 0 (N - 2 * k)) (ofZ 0) = asum (tab (N - 2 * k) (fun i => nsq (pdev_term x k i)))).
        { unfold asum, tab. generalize (ofZ 0 : float). induction (seq 0 (N - 2 * k)) as [|a l IH]; intro z; cbn; [reflexivity|apply IH]. }
        rewrite Q. apply sum_left.
Qed.

Lemma theo1_rows m : (1 <= m < Z.of_nat (len x))%Z -> Z.even m = true ->
  twin (calc_theo1 x rate) (calc_theo1 (map fR x) (fR rate)) m
    (close_by (fun r => IZR (Z.of_nat (len x) - r_m r / 2 + 13)) (fun r => 11 * R_sqrt.sqrt (harmonic (Z.to_nat (r_m r / 2))) * err_at rate M r)).
Proof using All.
  intros Hm He. destruct (rec_tab x M Hx) as (HN & HMM & Et & EtR & Hf). pose proof (rate_pos rate Hr) as Pr.
  set (k := Z.to_nat m). set (N := len x) in *. set (f := fun i => nth i x 0%float) in *.
  assert (Hm2 : (2 <= m)%Z) by (destruct (Z.eq_dec m 1) as [->|]; [discriminate He|lia]).
  assert (Ek : Nat.even k = true).
  { apply Z.even_spec in He as [p Hp]. apply Nat.even_spec. exists (Z.to_nat p). unfold k. lia. }
  assert (Eh : Z.to_nat (m / 2) = Nat.div2 k).
  { rewrite Nat.div2_div. unfold k. rewrite Z2Nat.inj_div by lia. reflexivity. }
  assert (Eh2 : (m / 2)%Z = Z.of_nat (Nat.div2 k)) by (rewrite <- Eh; rewrite Z2Nat.id; [reflexivity|apply Z.div_pos; lia]).
  assert (Eh3 : k = (2 * Nat.div2 k)%nat).
  { pose proof (Nat.div2_odd k) as H. rewrite <- Nat.negb_even, Ek in H. cbn [negb Nat.b2n] in H. lia. }
  pose proof (calc_theo1_gen N f rate k ltac:(lia) Ek) as E. cbv zeta in E.
  pose proof (calc_theo1_spec (map fR x) (fR rate) k Pr) as E'. rewrite map_length in E'. specialize (E' ltac:(fold N; lia) Ek). cbv zeta in E'.
  assert (En : theo1_n (map fR x) k = (Z.of_nat (N - k) * Z.of_nat (Nat.div2 k))%Z) by (unfold theo1_n; rewrite map_length; fold N; f_equal; lia).
  rewrite En in E'.
  rewrite <- Et in E.
  eexists (Row m _ _ _ _ _). cbn [r_m r_n r_dF r_eF r_dR r_eR]. split; [reflexivity|]. split; [exact E|]. split; [exact E'|]. intros _.
  assert (Kk : IZR m = INR k) by (rewrite INR_IZR_INZ; f_equal; lia).
  apply near_close with (N - k + Nat.div2 k + 13)%nat; cbn [r_m r_n r_dF r_eF r_dR r_eR]; [|lia|rewrite INR_IZR_INZ; apply IZR_le; lia|apply sqrt_pos].
  unfold err_at. cbn [r_m]. rewrite Kk, Eh.
  eapply near_weaken; [|apply Req_le; instantiate (1 := 11 * R_sqrt.sqrt (harmonic (Nat.div2 k)) * u64 * M * (fR rate / INR k)); ring].
  rewrite <- (theo1_exact x M rate Hx Hr) by (fold N; lia). fold N f.
  apply (theo1_row N k f (fun i => asum (tab (Nat.div2 k) (theo_term f k i))) M rate _ HN ltac:(lia) Ek HM Hf Hr); [intros i Hi|]; apply sum_left.
Qed.
End Rows.

Theorem C103_accuracy x rate M tF tR : bounded_record x M -> bpow radix2 (-200) <= M <= bpow radix2 200 -> (2 <= len x)%nat ->
  moderate_rate rate -> same_request rate tF tR ->
  agree_by rate (fun r => IZR (r_n r + 5)) (fun _ => bpow radix2 (-535))
    (tierms x rate "phase" tF) (tierms (map fR x) (fR rate) "phase" tR) /\
  agree_by rate (fun r => IZR (r_n r + 11)) (fun r => 16 * (u64 * M * (fR rate / IZR (r_m r))))
    (totdev x rate "phase" tF) (totdev (map fR x) (fR rate) "phase" tR) /\
  agree_by rate (fun r => IZR (r_n r + 12)) (fun r => (9 * IZR (r_m r) + 19) * (u64 * M * (fR rate / IZR (r_m r))))
    (pdev x rate "phase" tF) (pdev (map fR x) (fR rate) "phase" tR) /\
  agree_by rate (fun r => IZR (Z.of_nat (len x) - r_m r / 2 + 13))
    (fun r => 11 * R_sqrt.sqrt (harmonic (Z.to_nat (r_m r / 2))) * (u64 * M * (fR rate / IZR (r_m r))))
    (theo1 x rate "phase" tF) (theo1 (map fR x) (fR rate) "phase" tR).
Proof.
  intros Hx HM H2 Hr Hs. assert (Hx0 : x <> []) by (intros ->; cbn in H2; lia).
  destruct (same_factors x rate M tF tR Hx Hx0 Hr Hs) as (ms & G1 & G2 & Hb).
  destruct (same_factors_even x rate M tF tR Hx Hx0 Hr Hs) as (ms' & G1' & G2' & Hb').
  assert (K : forall calcF calcR J B l, (forall m, In m l -> twin calcF calcR m (close_by J B)) ->
     agree_by rate J B (run_rows calcF l (map (fun m => f_ofZ m / rate)%float l)) (run_rows calcR l (map (fun m => IZR m / fR rate) l))).
  { intros calcF calcR J B l H. destruct (run_rows_par calcF calcR rate (close_by J B) l) as [[E1 E2]|(rows & E1 & E2 & E3 & E4 & _)].
    - exact H.
    - left. auto.
    - right. exists rows. auto. }
  destruct (rec_tab x M Hx) as (_ & _ & Et & EtR & _).
  unfold tierms, totdev, pdev, theo1, input_to_phase. cbn [String.eqb Ascii.eqb Bool.eqb bind].
  rewrite G1, G1'. cbn [ofZ RNum]. rewrite G2, G2'. cbn [bind].
  assert (Pr : 0 < fR rate) by (apply rate_pos, Hr).
  replace (neqb rate (f_ofZ 0)) with false.
  2:{ symmetry. unfold neqb. cbn [FNum]. destruct (fofZ_ok 0 ltac:(lia)) as [F0 V0]. destruct Hr as [Fr _].
      rewrite feqb_ok by assumption. apply Req_bool_false. rewrite V0. lra. }
  replace (neqb (fR rate) 0) with false by (symmetry; apply Reqb_false; lra).
  cbn [bind].
  split; [|split; [|split]].
  - apply K. intros m Hm. apply (tierms_rows x M rate Hx HM Hr H2 m (Hb m Hm)).
  - destruct ms as [|m0 ms0].
    + left. assert (X1 := totdev_extend_gen (len x) (fun i => nth i x 0%float) H2). rewrite <- Et in X1.
      assert (X2 := totdev_extend_gen (len x) (fun i => fR (nth i x 0%float)) H2). rewrite <- EtR in X2.
      rewrite X1, X2. cbn [bind]. split; reflexivity.
    + destruct (totdev_rows x M rate Hx HM Hr H2 m0 (Hb m0 ltac:(now left))) as (exF & exR & E1 & E2 & _). rewrite E1, E2. cbn [bind]. rewrite map_length.
      apply K. intros m Hm. destruct (totdev_rows x M rate Hx HM Hr H2 m (Hb m Hm)) as (exF' & exR' & E1' & E2' & T).
      rewrite E1 in E1'. rewrite E2 in E2'. injection E1' as <-. injection E2' as <-. exact T.
  - apply K. intros m Hm. apply (pdev_rows x M rate Hx HM Hr H2 m (Hb m Hm)).
  - apply K. intros m Hm. destruct (Hb' m Hm) as [B1 B2]. apply (theo1_rows x M rate Hx HM Hr H2 m B1 B2).
Qed.
Print Assumptions C103_accuracy.

(** The harmonic number grows like the logarithm. *)
Lemma harmonic_ln h : (1 <= h)%nat -> harmonic h <= 1 + ln (INR h).
Proof.
  induction h as [|h IH]; [lia|]. intros _. destruct h as [|h]; [unfold harmonic; cbn [bigsum]; change (INR 1) with 1; rewrite ln_1; lra|].
  specialize (IH ltac:(lia)). unfold harmonic in *. cbn [bigsum] in *. set (k := S h) in *. set (a := INR k) in *.
  assert (Pa : 1 <= a) by (unfold a, k; rewrite S_INR; pose proof (pos_INR h); lra). rewrite (S_INR k). fold a.
  assert (P1 : 0 < / (a + 1)) by (apply Rinv_0_lt_compat; lra).
  assert (E : ln a - ln (a + 1) = ln (1 + - / (a + 1))).
  { replace (1 + - / (a + 1)) with (a * / (a + 1)) by (field; lra). rewrite ln_mult, ln_Rinv by lra. ring. }
  assert (L : ln (1 + - / (a + 1)) <= - / (a + 1)).
  { replace (1 + - / (a + 1)) with (a / (a + 1)) by (field; lra). assert (Pq : 0 < a / (a + 1)) by (apply Rdiv_lt_0_compat; lra).
    rewrite <- (ln_exp (- / (a + 1))). pose proof (exp_ineq1_le (- / (a + 1))) as Q.
    replace (1 + - / (a + 1)) with (a / (a + 1)) in Q by (field; lra).
    destruct Q as [Q|Q]; [left; now apply ln_increasing|right; now rewrite Q]. }
  lra.
Qed.

(** One row with every sum added up in any order (numpy.sum works pairwise): tierms, totdev, pdev (m >= 2) and theo1. *)
Theorem C103_any_order x rate M m s : bounded_record x M -> bpow radix2 (-200) <= M <= bpow radix2 200 -> moderate_rate rate ->
  (1 <= m < len x)%nat ->
  let f i := nth i x 0%float in let N := len x in let mf := f_ofZ (Z.of_nat m) in let X := map fR x in
  let within j b dev exact := ffin dev /\ 0 <= fR dev /\ Rabs (fR dev - exact) <= (1 + / 1000) * (INR j * u64) * exact + b in
  let e := u64 * M * (fR rate / INR m) in
  (sum_of (tab (N - m) (fun i => nsq (nmax2 (f i) (f (m + i)%nat) - nmin2 (f i) (f (m + i)%nat))%float)) s ->
   within (N - m + 5)%nat (bpow radix2 (-535)) (fsqrt (s / f_ofZ (Z.of_nat (N - m))))%float (R_sqrt.sqrt (tierms_var X m))) /\
  ((3 <= N)%nat -> sum_of (tab (N - 2) (fun k => nsq (tot_diff N m (ext N f) k))) s ->
   within (N - 2 + 11)%nat (16 * e) (fsqrt (s / (f_ofZ 2 * nsq (mf / rate) * f_ofZ (Z.of_nat (N - 2)))))%float (R_sqrt.sqrt (totvar X (1 / fR rate) m))) /\
  ((2 <= m)%nat -> (2 * m < N)%nat -> forall v : nat -> float,
   (forall i, (i < N - 2 * m)%nat -> sum_of (tab m (fun k => ((mf - f_ofZ 1) / f_ofZ 2 - f_ofZ (Z.of_nat k)) * (f (i + k)%nat - f (i + m + k)%nat))%float) (v i)) ->
   sum_of (tab (N - 2 * m) (fun i => nsq (v i))) s ->
   within (N - 2 * m + 12)%nat ((9 * INR m + 19) * e)
     (fsqrt (f_ofZ 72 * s / (f_ofZ (Z.of_nat (N - 2 * m) * Z.of_nat m ^ 4) * nsq (mf * (f_ofZ 1 / rate)))))%float (R_sqrt.sqrt (pvar X (1 / fR rate) m))) /\
  (Nat.even m = true -> forall q : nat -> float, let h := Nat.div2 m in
   (forall i, (i < N - m)%nat -> sum_of (tab h (fun d => (f_ofZ 1 / (mf / f_ofZ 2 - f_ofZ (Z.of_nat d))) *
        nsq (f i - f (i + h - d)%nat + f (i + m)%nat - f (i + h + d)%nat))%float) (q i)) ->
   sum_of (tab (N - m) q) s ->
   within (N - m + h + 13)%nat (11 * R_sqrt.sqrt (harmonic h) * e)
     (fsqrt (s / (f_ofZ 3 / f_ofZ 4 * f_ofZ (Z.of_nat (N - m)) * nsq (mf * (f_ofZ 1 / rate)))))%float (R_sqrt.sqrt (theo1var X (1 / fR rate) m))).
Proof.
  intros Hx HM Hr Hm f N mf X within e. destruct (rec_tab x M Hx) as (HN & _ & _ & _ & Hf). fold N in HN, Hf, Hm.
  assert (PM : 0 < M) by (pose proof (bpow_gt_0 radix2 (-200)); lra).
  assert (W : forall dev exact j b b', near dev exact j b' -> (Z.of_nat j <= 2 ^ 42)%Z -> 0 <= exact -> b' = b -> within j b dev exact).
  { intros dev exact j b b' (F & P & E) Hj He <-. split; [exact F|]. split; [exact P|]. eapply Rle_trans; [exact E|].
    apply Rplus_le_compat_r, Rmult_le_compat_r; [exact He|]. apply pow_u_le, Hj. }
  split; [|split; [|split]].
  - intro Hs. unfold X. rewrite <- (tierms_exact x M rate Hx Hr).
    refine (W _ _ _ _ _ (tierms_row N m f M s HN Hm _ Hf Hs) _ (sqrt_pos _) eq_refl); [|lia].
    assert (bpow radix2 200 <= bpow radix2 400) by (apply bpow_le; lia). lra.
  - intros H3 Hs. unfold X. rewrite <- (totdev_exact x M rate Hx Hr) by assumption.
    refine (W _ _ _ _ _ (totdev_row N m f M rate s HN Hm H3 HM Hf Hr Hs) _ (sqrt_pos _) _); [lia|unfold e; ring].
  - intros H3 HL v Hv Hs. unfold X. rewrite <- (pdev_exact x M rate Hx Hr) by assumption.
    refine (W _ _ _ _ _ (pdev_row N m f v M rate s HN H3 HL HM Hf Hr Hv Hs) _ (sqrt_pos _) _); [lia|unfold e; ring].
  - intros He q h Hq Hs. assert (Hm2 : (2 <= m < N)%nat) by (destruct m as [|[|?]]; [lia|discriminate He|lia]).
    unfold X. rewrite <- (theo1_exact x M rate Hx Hr) by exact Hm2.
    refine (W _ _ _ _ _ (theo1_row N m f q M rate s HN Hm2 He HM Hf Hr Hq Hs) _ (sqrt_pos _) _); [|unfold e, h; ring].
    pose proof (Nat.div2_decr m m ltac:(lia)). lia.
Qed.
Print Assumptions C103_any_order.

(** The hypotheses hold for an ordinary record, and the results are then tables with several rows. *)
Example C103_ex : let x := [1; 2; 4; 8; 8; 1; 2]%float in
  bounded_record x 8 /\ bpow radix2 (-200) <= 8 <= bpow radix2 200 /\ (2 <= len x)%nat /\
  moderate_rate 10%float /\ same_request 10%float (TStr "all") (TStr "all") /\
  (exists rows, pdev x 10%float "phase" (TStr "all") = Ok (tableF 10%float rows) /\
     pdev (map fR x) (fR 10%float) "phase" (TStr "all") = Ok (tableR (fR 10%float) rows) /\ map r_n rows = [5; 3]%Z /\
     Forall (close_by (fun r => IZR (r_n r + 12)) (fun r => (9 * IZR (r_m r) + 19) * (u64 * 8 * (fR 10%float / IZR (r_m r))))) rows) /\
  (exists rows, theo1 x 10%float "phase" (TStr "all") = Ok (tableF 10%float rows) /\ map r_n rows = [5; 6; 3]%Z).
Proof.
  intro x. destruct C81_ex as (_ & Hr & Hs & _). destruct fR_1_2_4_8 as (V1 & V2 & V4 & V8).
  assert (Hx : bounded_record x 8).
  { split; [cbn; lia|]. split.
    - change 8 with (bpow radix2 3). split; apply bpow_le; lia.
    - repeat constructor; try (now apply ffin_SF); rewrite ?V1, ?V2, ?V4, ?V8, Rabs_pos_eq; lra. }
  assert (H8 : bpow radix2 (-200) <= 8 <= bpow radix2 200) by (change 8 with (bpow radix2 3); split; apply bpow_le; lia).
  assert (H2 : (2 <= len x)%nat) by (cbn; lia).
  split; [exact Hx|]. split; [exact H8|]. split; [exact H2|]. split; [exact Hr|]. split; [exact Hs|].
  destruct (C103_accuracy x 10%float 8 _ _ Hx H8 H2 Hr Hs) as (_ & _ & P & T). split.
  - destruct P as [[E _]|(rows & E1 & E2 & _ & A)]; [exfalso; revert E; vm_compute; discriminate|].
    exists rows. split; [exact E1|]. split; [exact E2|]. split; [|exact A].
    assert (G : forall r : @result float, pdev x 10%float "phase" (TStr "all") = Ok r -> snd r = [5; 3]%Z).
    { intros r. vm_compute. intro Q. injection Q as <-. reflexivity. }
    exact (G _ E1).
  - destruct T as [[E _]|(rows & E1 & E2 & _ & A)]; [exfalso; revert E; vm_compute; discriminate|].
    exists rows. split; [exact E1|].
    assert (G : forall r : @result float, theo1 x 10%float "phase" (TStr "all") = Ok r -> snd r = [5; 6; 3]%Z).
    { intros r. vm_compute. intro Q. injection Q as <-. reflexivity. }
    exact (G _ E1).
Qed.
