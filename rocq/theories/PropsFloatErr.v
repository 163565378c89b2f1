(** * Accuracy of adev, oadev, hdev and ohdev in binary64 (C81). *)
From Coq Require Import ZArith Floats Reals Lra Lia Psatz String List Bool Sorted Permutation.
From Flocq Require Import Core.Core IEEE754.BinarySingleNaN.
From Verif Require Import Base Num NpList NumF NumR ListFacts Spec RSum ModelCore ModelDev FloatFacts FloatErr
  GenericProofs TauProofs TauLaws DevProofs Laws3 PropsFloatTau.
Import ListNotations.
Local Open Scope R_scope.
Local Notation len := List.length.
Local Notation float := Coq.Floats.PrimFloat.float.

Lemma rsum_tab n (q : nat -> float) : rsum (tab n q) = bigsum n (fun k => fR (q k)).
Proof.
  revert q. induction n as [|n IH]; intro q; [reflexivity|].
  rewrite tab_S, bigsum_S_l. cbn [rsum]. now rewrite IH.
Qed.

Lemma Forall_tab {A} (P : A -> Prop) n f : (forall i, (i < n)%nat -> P (f i)) -> Forall P (tab n f).
Proof.
  intro H. apply Forall_forall. intros x Hx. apply in_map_iff in Hx as (i & <- & Hi). apply H. apply in_seq in Hi. lia.
Qed.

Lemma rnd_nonneg r : 0 <= r -> 0 <= rnd r.
Proof.
  intro H. rewrite rnd_FLT. apply Rle_trans with (round radix2 (FLT_exp (-1074) 53) ZnearestE 0).
  - apply Req_le, eq_sym, round_0. typeclasses eauto.
  - apply round_le; [apply FLT_exp_valid; reflexivity|typeclasses eauto|exact H].
Qed.

Lemma bpow_sq e : bpow radix2 e * bpow radix2 e = bpow radix2 (2 * e).
Proof. rewrite <- bpow_plus. f_equal. lia. Qed.

Lemma rsum_perm l l' : Permutation l l' -> rsum l = rsum l'.
Proof. induction 1; cbn; lra. Qed.

(** [s] is the sum of the squares of [v] added up in some order and grouping, possibly starting from a zero.
    numpy.sum adds pairwise in blocks (several partial sums); the model adds from left to right. *)
Definition sum_of_squares (v : list float) (s : float) : Prop :=
  exists t z, s = fsum t /\ (z <= 1)%nat /\ Permutation (leaves t) (repeat (f_ofZ 0) z ++ map nsq v).

Lemma sumsq_left v : sum_of_squares v (sumsq v).
Proof. destruct (asum_tree (map nsq v)) as (t & E & L). exists t, 1%nat. split; [exact E|]. split; [lia|]. now rewrite L. Qed.

(** The computed sum of squares. *)
Lemma sumsq_err n (vh : nat -> float) Sq : (1 <= n)%nat -> (Z.of_nat n <= 2 ^ 40)%Z ->
  (forall k, (k < n)%nat -> ffin (vh k) /\ Rabs (fR (vh k)) <= bpow radix2 450) ->
  sum_of_squares (tab n vh) Sq -> let Ex := bigsum n (fun k => fR (vh k) ^ 2) in
  ffin Sq /\ 0 <= fR Sq /\ 0 <= Ex <= bpow radix2 950 /\
  Rabs (fR Sq - Ex) <= ((1 + u64) ^ (n + 1) - 1) * Ex + 2 * INR n * eta.
Proof.
  intros Hn1 Hn Hv (t & z & ES & Hz & Lt) Ex. set (q := fun k => nsq (vh k)). rewrite map_tab in Lt. fold q in Lt.
  pose proof u64_pos as Pu. pose proof eta_pos as Pe.
  assert (Sqb : forall k, (k < n)%nat -> fR (vh k) ^ 2 <= bpow radix2 900).
  { intros k Hk. destruct (Hv k Hk) as [_ B]. rewrite <- Rsqr_pow2, Rsqr_abs. unfold Rsqr.
    change 900%Z with (2 * 450)%Z. rewrite <- bpow_sq. pose proof (Rabs_pos (fR (vh k))). apply Rmult_le_compat; lra. }
  assert (Q : forall k, (k < n)%nat -> (ffin (q k) /\ 0 <= fR (q k)) /\ Rabs (fR (q k) - fR (vh k) ^ 2) <= u64 * fR (vh k) ^ 2 + eta).
  { intros k Hk. destruct (Hv k Hk) as [F B]. specialize (Sqb k Hk).
    assert (Pk : 0 <= fR (vh k) ^ 2) by (apply pow2_ge_0).
    assert (O : Rabs (fR (vh k) * fR (vh k)) <= bpow radix2 1000).
    { replace (fR (vh k) * fR (vh k)) with (fR (vh k) ^ 2) by ring. rewrite Rabs_pos_eq by exact Pk.
      eapply Rle_trans; [exact Sqb|]. apply bpow_le. lia. }
    destruct (fmul_ok _ _ F F (rnd_bound _ O)) as [F' V].
    replace (fR (vh k) * fR (vh k)) with (fR (vh k) ^ 2) in V by ring.
    unfold q, nsq. cbn [nmul FNum]. split; [split; [exact F'|]|].
    - rewrite V. now apply rnd_nonneg.
    - rewrite V. pose proof (rnd_err (fR (vh k) ^ 2)) as E. rewrite (Rabs_pos_eq (fR (vh k) ^ 2)) in E by exact Pk. exact E. }
  assert (PEx : 0 <= Ex) by (apply bigsum_nonneg; intros; apply pow2_ge_0).
  assert (NB : INR n <= bpow radix2 40).
  { rewrite INR_IZR_INZ. change (bpow radix2 40) with (IZR (2 ^ 40)). now apply IZR_le. }
  assert (Pn : 1 <= INR n) by (change 1 with (INR 1); apply le_INR; exact Hn1).
  assert (UEx : Ex <= bpow radix2 940).
  { apply Rle_trans with (bigsum n (fun _ => bpow radix2 900)); [apply bigsum_le; exact Sqb|]. rewrite bigsum_const.
    change 940%Z with (40 + 900)%Z. rewrite bpow_plus. apply Rmult_le_compat_r; [apply bpow_ge_0|exact NB]. }
  set (Qs := bigsum n (fun k => fR (q k))).
  assert (EQ : Rabs (Qs - Ex) <= u64 * Ex + INR n * eta).
  { unfold Qs, Ex. rewrite <- bigsum_minus. rewrite <- bigsum_const, <- bigsum_scal, <- bigsum_plus.
    clear -Q. induction n as [|n IH]; cbn [bigsum]; [rewrite Rabs_R0; lra|].
    eapply Rle_trans; [apply Rabs_triang|]. apply Rplus_le_compat; [apply IH; intros; apply Q; lia|]. apply Q. lia. }
  assert (EtaB : INR n * eta <= bpow radix2 900).
  { apply Rle_trans with (bpow radix2 40 * bpow radix2 (-1075)); [apply Rmult_le_compat_r; [left; exact Pe|exact NB]|].
    rewrite <- bpow_plus. apply bpow_le. lia. }
  assert (B9 : bpow radix2 900 <= bpow radix2 940) by (apply bpow_le; lia).
  assert (B10 : 4 * bpow radix2 940 <= bpow radix2 950).
  { change 4 with (bpow radix2 2). rewrite <- bpow_plus. apply bpow_le. lia. }
  assert (B11 : bpow radix2 950 <= bpow radix2 999) by (apply bpow_le; lia).
  assert (Uq : u64 <= / 8) by (unfold u64; lra).
  pose proof (Rabs_le_inv _ _ EQ) as EQ'.
  assert (LL : len (leaves t) = (z + n)%nat) by (rewrite (Permutation_length Lt), app_length, repeat_length; now rewrite tab_length).
  destruct (fofZ_ok 0 ltac:(lia)) as [F0 V0].
  assert (RS : rsum (leaves t) = Qs).
  { rewrite (rsum_perm _ _ Lt), rsum_app, rsum_tab. fold Qs. destruct z as [|[|z]]; [cbn; ring|cbn [repeat rsum]; rewrite V0; ring|lia]. }
  destruct (fsum_err t) as [Fs Es].
  - apply (Permutation_Forall (Permutation_sym Lt)), Forall_app. split.
    + apply Forall_forall. intros y Hy. apply repeat_spec in Hy as ->. split; [exact F0|]. rewrite V0. lra.
    + apply Forall_tab. intros i Hi. apply Q, Hi.
  - rewrite RS. nra.
  - rewrite LL. lia.
  - rewrite RS, LL in Es.
    assert (PQ : 0 <= Qs) by (apply bigsum_nonneg; intros k Hk; apply Q, Hk).
    pose proof (pow_u_ge1 n) as G1. pose proof (pow_u_small n ltac:(lia)) as G2.
    assert (Mn : (1 + u64) ^ (z + n - 1) <= (1 + u64) ^ n) by (apply Rle_pow; [lra|lia]).
    assert (Es' : Rabs (fR (fsum t) - Qs) <= ((1 + u64) ^ n - 1) * Qs).
    { eapply Rle_trans; [exact Es|]. apply Rmult_le_compat_r; lra. }
    clear Es. rename Es' into Es.
    rewrite ES. split; [exact Fs|]. split; [|split; [lra|]].
    + apply Rabs_le_inv in Es. nra.
    + rewrite Nat.add_1_r. cbn [pow]. set (a := (1 + u64) ^ n) in *.
      replace (fR (fsum t) - Ex) with ((fR (fsum t) - Qs) + (Qs - Ex)) by ring.
      eapply Rle_trans; [apply Rabs_triang|].
      assert ((a - 1) * Qs <= (a - 1) * ((1 + u64) * Ex + INR n * eta)) by (apply Rmult_le_compat_l; lra).
      assert (0 <= INR n * eta) by nra. nra.
Qed.

Lemma norm_triang n (a b : nat -> R) :
  R_sqrt.sqrt (bigsum n (fun k => (a k + b k) ^ 2)) <= R_sqrt.sqrt (bigsum n (fun k => a k ^ 2)) + R_sqrt.sqrt (bigsum n (fun k => b k ^ 2)).
Proof.
  set (X := bigsum n (fun k => a k ^ 2)). set (Y := bigsum n (fun k => b k ^ 2)).
  assert (PX : 0 <= X) by (apply bigsum_nonneg; intros; apply pow2_ge_0).
  assert (PY : 0 <= Y) by (apply bigsum_nonneg; intros; apply pow2_ge_0).
  assert (E : bigsum n (fun k => (a k + b k) ^ 2) = X + 2 * bigsum n (fun k => a k * b k) + Y).
  { unfold X, Y. rewrite <- bigsum_scal, <- !bigsum_plus. apply bigsum_ext. intros. ring. }
  pose proof (cauchy_schwarz n a b) as CS.
  apply Rsqr_incr_0_var; [|pose proof (sqrt_pos X); pose proof (sqrt_pos Y); lra].
  rewrite Rsqr_sqrt by (apply bigsum_nonneg; intros; apply pow2_ge_0).
  rewrite E. unfold Rsqr. set (C := bigsum n (fun k => a k * b k)) in *. fold X Y in CS.
  assert (H : C <= R_sqrt.sqrt X * R_sqrt.sqrt Y).
  { rewrite <- sqrt_mult by assumption. apply Rle_trans with (Rabs C); [apply Rle_abs|].
    rewrite <- sqrt_Rsqr_abs. apply sqrt_le_1_alt. unfold Rsqr. lra. }
  pose proof (sqrt_sqrt X PX). pose proof (sqrt_sqrt Y PY). nra.
Qed.

(** Root mean squares of two arrays that differ by at most [d] everywhere. *)
Lemma rms_close n (a b : nat -> R) (D d : R) : (1 <= n)%nat -> INR n <= D -> 0 <= d ->
  (forall k, (k < n)%nat -> Rabs (a k - b k) <= d) ->
  Rabs (R_sqrt.sqrt (bigsum n (fun k => a k ^ 2) / D) - R_sqrt.sqrt (bigsum n (fun k => b k ^ 2) / D)) <= d.
Proof.
  intros Hn HD Hd H.
  assert (Pn : 1 <= INR n) by (change 1 with (INR 1); now apply le_INR).
  assert (G : forall a b, (forall k, (k < n)%nat -> Rabs (a k - b k) <= d) ->
    R_sqrt.sqrt (bigsum n (fun k => a k ^ 2) / D) <= R_sqrt.sqrt (bigsum n (fun k => b k ^ 2) / D) + d).
  { clear a b H. intros a b H.
    pose proof (norm_triang n b (fun k => a k - b k)) as T. cbv beta in T.
    rewrite (bigsum_ext n (fun k => (b k + (a k - b k)) ^ 2) (fun k => a k ^ 2)) in T by (intros; f_equal; ring).
    assert (B : R_sqrt.sqrt (bigsum n (fun k => (a k - b k) ^ 2)) <= R_sqrt.sqrt D * d).
    { rewrite <- (sqrt_Rsqr d Hd) at 1. rewrite <- sqrt_mult_alt by lra. apply sqrt_le_1_alt.
      apply Rle_trans with (bigsum n (fun _ => Rsqr d)).
      - apply bigsum_le. intros k Hk. rewrite <- Rsqr_pow2. apply Rsqr_le_abs_1. rewrite (Rabs_pos_eq d Hd). now apply H.
      - rewrite bigsum_const. apply Rmult_le_compat_r; [apply Rle_0_sqr|exact HD]. }
    assert (PD : 0 < R_sqrt.sqrt D) by (apply sqrt_lt_R0; lra).
    rewrite !sqrt_div_alt by lra. apply (Rmult_le_reg_r (R_sqrt.sqrt D)); [exact PD|].
    rewrite Rmult_plus_distr_r. unfold Rdiv. rewrite !Rmult_assoc, Rinv_l, !Rmult_1_r by lra. lra. }
  pose proof (G a b H) as G1.
  assert (H' : forall k, (k < n)%nat -> Rabs (b k - a k) <= d) by (intros k Hk; rewrite Rabs_minus_sym; now apply H).
  pose proof (G b a H') as G2. apply Rabs_le. lra.
Qed.

(** ** One more operation on a non-negative quantity known up to a relative and an absolute error *)
Definition near (s : float) (X : R) (j : nat) (z : R) : Prop :=
  ffin s /\ 0 <= fR s /\ Rabs (fR s - X) <= ((1 + u64) ^ j - 1) * X + z.

Lemma near_weaken s X j z z' : near s X j z -> z <= z' -> near s X j z'.
Proof. intros (F & P & E) H. split; [exact F|]. split; [exact P|]. lra. Qed.

Lemma bpow1000_2 : 2 * bpow radix2 990 <= bpow radix2 1000.
Proof. change 2 with (bpow radix2 1). rewrite <- bpow_plus. apply bpow_le. lia. Qed.

(** rounding of [v], itself near [X] *)
Lemma near_round (s : float) v X j z : ffin s -> fR s = rnd v -> 0 <= v -> 0 <= X -> 0 <= z ->
  Rabs (v - X) <= ((1 + u64) ^ j - 1) * X + z -> near s X (S j) ((1 + u64) * z + eta).
Proof.
  intros F V Pv PX Pz E. split; [exact F|]. rewrite V. split; [now apply rnd_nonneg|].
  pose proof (rnd_err v) as R. rewrite (Rabs_pos_eq v Pv) in R. pose proof u64_pos as Pu. pose proof (pow_u_ge1 j) as G.
  replace (rnd v - X) with ((rnd v - v) + (v - X)) by ring. eapply Rle_trans; [apply Rabs_triang|].
  apply Rabs_le_inv in E as E'. cbn [pow]. set (a := (1 + u64) ^ j) in *. nra.
Qed.

Lemma near_div s X j z (c : float) : near s X j z -> 0 < fR c -> 0 <= X -> 0 <= z ->
  (Z.of_nat j <= 2 ^ 42)%Z -> X / fR c <= bpow radix2 990 -> z / fR c <= / 2 * bpow radix2 990 ->
  near (s / c)%float (X / fR c) (S j) ((1 + u64) * (z / fR c) + eta).
Proof.
  intros (F & P & E) Pc PX Pz Hj B Bz. set (C := fR c) in *.
  assert (IC : 0 < / C) by (now apply Rinv_0_lt_compat).
  assert (Pv : 0 <= fR s / C) by (apply Rmult_le_pos; lra).
  assert (PXC : 0 <= X / C) by (apply Rmult_le_pos; lra).
  assert (PzC : 0 <= z / C) by (apply Rmult_le_pos; lra).
  assert (E' : Rabs (fR s / C - X / C) <= ((1 + u64) ^ j - 1) * (X / C) + z / C).
  { replace (fR s / C - X / C) with ((fR s - X) * / C) by (unfold Rdiv; ring). rewrite Rabs_mult, (Rabs_pos_eq (/ C)) by lra.
    replace (((1 + u64) ^ j - 1) * (X / C) + z / C) with ((((1 + u64) ^ j - 1) * X + z) * / C) by (unfold Rdiv; ring).
    apply Rmult_le_compat_r; lra. }
  pose proof (pow_u_small j Hj) as Sm. pose proof (pow_u_ge1 j) as G. pose proof bpow1000_2 as B2.
  assert (O : Rabs (fR s / C) <= bpow radix2 1000).
  { rewrite Rabs_pos_eq by exact Pv. apply Rabs_le_inv in E'. nra. }
  destruct (fdiv_ok s c F ltac:(fold C; lra) (rnd_bound _ O)) as [F' V].
  apply (near_round _ (fR s / C)); auto.
Qed.

Lemma near_mul s X j z (c : float) : near s X j z -> ffin c -> 0 < fR c -> 0 <= X -> 0 <= z ->
  (Z.of_nat j <= 2 ^ 42)%Z -> X * fR c <= bpow radix2 990 -> z * fR c <= / 2 * bpow radix2 990 ->
  near (s * c)%float (X * fR c) (S j) ((1 + u64) * (z * fR c) + eta).
Proof.
  intros (F & P & E) Fc Pc PX Pz Hj B Bz. set (C := fR c) in *.
  assert (Pv : 0 <= fR s * C) by (apply Rmult_le_pos; lra).
  assert (PXC : 0 <= X * C) by (apply Rmult_le_pos; lra).
  assert (PzC : 0 <= z * C) by (apply Rmult_le_pos; lra).
  assert (E' : Rabs (fR s * C - X * C) <= ((1 + u64) ^ j - 1) * (X * C) + z * C).
  { replace (fR s * C - X * C) with ((fR s - X) * C) by ring. rewrite Rabs_mult, (Rabs_pos_eq C) by lra.
    replace (((1 + u64) ^ j - 1) * (X * C) + z * C) with ((((1 + u64) ^ j - 1) * X + z) * C) by ring.
    apply Rmult_le_compat_r; lra. }
  pose proof (pow_u_small j Hj) as Sm. pose proof (pow_u_ge1 j) as G. pose proof bpow1000_2 as B2.
  assert (O : Rabs (fR s * C) <= bpow radix2 1000).
  { rewrite Rabs_pos_eq by exact Pv. apply Rabs_le_inv in E'. nra. }
  destruct (fmul_ok s c F Fc (rnd_bound _ O)) as [F' V].
  apply (near_round _ (fR s * C)); auto.
Qed.

Definition zeta : R := bpow radix2 (-536).
Lemma zeta_pos : 0 < zeta.
Proof. apply bpow_gt_0. Qed.
Lemma eta_zeta : 4 * eta <= zeta * zeta.
Proof.
  unfold eta, zeta. change 4 with (bpow radix2 2). rewrite <- !bpow_plus. apply bpow_le. lia.
Qed.

Lemma near_sqrt s X j : near s X j (4 * eta) -> 0 <= X -> (Z.of_nat j <= 2 ^ 42)%Z ->
  near (Coq.Floats.PrimFloat.sqrt s) (R_sqrt.sqrt X) (S j) (2 * zeta).
Proof.
  intros (F & P & E) PX Hj. destruct (fsqrt_err s F P) as (F' & P' & E'). split; [exact F'|]. split; [exact P'|].
  pose proof (pow_u_small j Hj) as Sm. pose proof (pow_u_ge1 j) as G. pose proof u64_pos as Pu.
  pose proof zeta_pos as Pz. pose proof eta_zeta as Ez. set (T := R_sqrt.sqrt X) in *.
  assert (TT : T * T = X) by (now apply sqrt_sqrt). assert (PT : 0 <= T) by apply sqrt_pos.
  assert (Q : Rabs (R_sqrt.sqrt (fR s) - T) <= ((1 + u64) ^ j - 1) * T + zeta).
  { apply sqrt_pert; try lra. rewrite TT. lra. }
  set (r := fR (Coq.Floats.PrimFloat.sqrt s)) in *. set (w := R_sqrt.sqrt (fR s)) in *.
  replace (r - T) with ((r - w) + (w - T)) by ring. eapply Rle_trans; [apply Rabs_triang|].
  apply Rabs_le_inv in Q as Q'. cbn [pow]. set (a := (1 + u64) ^ j) in *.
  assert (u64 <= / 8) by (unfold u64; lra). nra.
Qed.

(** change of target *)
Lemma near_shift s X X' j z d : near s X j z -> Rabs (X - X') <= d -> 0 <= X' -> 0 <= d -> (Z.of_nat j <= 2 ^ 42)%Z ->
  near s X' j ((1 + / 1000) * d + z).
Proof.
  intros (F & P & E) H PX Pd Hj. split; [exact F|]. split; [exact P|].
  pose proof (pow_u_small j Hj) as Sm. pose proof (pow_u_ge1 j) as G.
  replace (fR s - X') with ((fR s - X) + (X - X')) by ring. eapply Rle_trans; [apply Rabs_triang|].
  apply Rabs_le_inv in H as H'. set (a := (1 + u64) ^ j) in *. nra.
Qed.

(** ** The second and third differences *)
Lemma abs3 a b c M : Rabs a <= M -> Rabs b <= M -> Rabs c <= M -> 
  Rabs (a - 2 * b) <= 3 * M /\ Rabs (a - 2 * b + c) <= 4 * M.
Proof. intros H1 H2 H3. apply Rabs_le_inv in H1, H2, H3. split; apply Rabs_le; lra. Qed.

Lemma d2_err a b c M : ffin a -> ffin b -> ffin c -> Rabs (fR a) <= M -> Rabs (fR b) <= M -> Rabs (fR c) <= M ->
  M <= bpow radix2 400 ->
  let v := (a - f_ofZ 2 * b + c)%float in
  ffin v /\ Rabs (fR v - (fR a - 2 * fR b + fR c)) <= 8 * u64 * M.
Proof.
  intros Fa Fb Fc Ha Hb Hc HM v.
  assert (PM : 0 <= M) by (eapply Rle_trans; [apply Rabs_pos|exact Ha]).
  assert (B4 : 8 * M <= bpow radix2 1000).
  { apply Rle_trans with (bpow radix2 3 * bpow radix2 400); [change 8 with (bpow radix2 3); apply Rmult_le_compat_l; [apply bpow_ge_0|exact HM]|].
    rewrite <- bpow_plus. apply bpow_le. lia. }
  assert (B9 : bpow radix2 400 <= bpow radix2 999) by (apply bpow_le; lia).
  destruct (fdouble b Fb ltac:(lra)) as [F2 V2].
  destruct (abs3 _ _ _ _ Ha Hb Hc) as [A1 A2].
  destruct (fsub_err a (f_ofZ 2 * b)%float Fa F2) as [Ft Et].
  { rewrite V2. lra. }
  rewrite V2 in Et. set (t := (a - f_ofZ 2 * b)%float) in *.
  assert (Uq : 0 < u64 <= / 8) by (split; [apply u64_pos|unfold u64; lra]).
  assert (Et' : Rabs (fR t - (fR a - 2 * fR b)) <= 3 * u64 * M) by nra.
  apply Rabs_le_inv in Et', A2, A1.
  assert (S1 : Rabs (fR t + fR c) <= 4 * M + 3 * u64 * M) by (apply Rabs_le; lra).
  destruct (fadd_err t c Ft Fc) as [Fv Ev].
  { nra. }
  split; [exact Fv|]. fold v in Ev.
  assert (Ev' : Rabs (fR v - (fR t + fR c)) <= 5 * u64 * M) by nra.
  apply Rabs_le_inv in Ev'. apply Rabs_le. lra.
Qed.

Lemma d3_err a b c d M : ffin a -> ffin b -> ffin c -> ffin d ->
  Rabs (fR a) <= M -> Rabs (fR b) <= M -> Rabs (fR c) <= M -> Rabs (fR d) <= M ->
  bpow radix2 (-400) <= M <= bpow radix2 400 ->
  let v := (a - f_ofZ 3 * b + f_ofZ 3 * c - d)%float in
  ffin v /\ Rabs (fR v - (fR a - 3 * fR b + 3 * fR c - fR d)) <= 28 * u64 * M.
Proof.
  intros Fa Fb Fc Fd Ha Hb Hc Hd [LM HM] v.
  assert (PM : 0 <= M) by (eapply Rle_trans; [apply Rabs_pos|exact Ha]).
  assert (B4 : 16 * M <= bpow radix2 1000).
  { apply Rle_trans with (bpow radix2 4 * bpow radix2 400); [change 16 with (bpow radix2 4); apply Rmult_le_compat_l; [apply bpow_ge_0|exact HM]|].
    rewrite <- bpow_plus. apply bpow_le. lia. }
  assert (Et : eta <= / 16 * u64 * M).
  { apply Rle_trans with (/ 16 * u64 * bpow radix2 (-400)).
    - unfold eta. replace (/ 16 * u64) with (bpow radix2 (-57)).
      + rewrite <- bpow_plus. apply bpow_le. lia.
      + unfold u64. replace (bpow radix2 (-57)) with (/ IZR (2 ^ 57)) by reflexivity. cbn. lra.
    - apply Rmult_le_compat_l; [|exact LM]. pose proof u64_pos. lra. }
  assert (Uq : 0 < u64 <= / 4096) by (split; [apply u64_pos|unfold u64; lra]).
  destruct (fofZ_ok 3 ltac:(lia)) as [F3 V3].
  assert (M3 : forall y, ffin y -> Rabs (fR y) <= M -> ffin (f_ofZ 3 * y)%float /\ - (4 * u64 * M) <= fR (f_ofZ 3 * y)%float - 3 * fR y <= 4 * u64 * M).
  { intros y Fy Hy. assert (A : Rabs (3 * fR y) <= 3 * M) by (rewrite Rabs_mult, (Rabs_pos_eq 3) by lra; lra).
    destruct (fmul_err (f_ofZ 3) y F3 Fy) as [F E]; [rewrite V3; lra|]. rewrite V3 in E. split; [exact F|].
    apply Rabs_le_inv. eapply Rle_trans; [exact E|]. nra. }
  destruct (M3 b Fb Hb) as [Fb3 Eb]. destruct (M3 c Fc Hc) as [Fc3 Ec].
  apply Rabs_le_inv in Ha, Hb, Hc, Hd.
  assert (UM : 0 <= u64 * M <= / 4096 * M) by (split; nra).
  assert (A1 : Rabs (fR a - fR (f_ofZ 3 * b)%float) <= 5 * M) by (apply Rabs_le; lra).
  destruct (fsub_err a (f_ofZ 3 * b)%float Fa Fb3 ltac:(lra)) as [F1 E1].
  assert (E1' : Rabs (fR (a - f_ofZ 3 * b)%float - (fR a - fR (f_ofZ 3 * b)%float)) <= u64 * ((4 + / 512) * M)).
  { eapply Rle_trans; [exact E1|]. apply Rmult_le_compat_l; [lra|]. apply Rabs_le; lra. }
  apply Rabs_le_inv in E1'. set (t1 := (a - f_ofZ 3 * b)%float) in *.
  assert (A2 : Rabs (fR t1 + fR (f_ofZ 3 * c)%float) <= 8 * M) by (apply Rabs_le; lra).
  destruct (fadd_err t1 (f_ofZ 3 * c)%float F1 Fc3 ltac:(lra)) as [F2 E2].
  assert (E2' : Rabs (fR (t1 + f_ofZ 3 * c)%float - (fR t1 + fR (f_ofZ 3 * c)%float)) <= u64 * ((7 + / 128) * M)).
  { eapply Rle_trans; [exact E2|]. apply Rmult_le_compat_l; [lra|]. apply Rabs_le; lra. }
  apply Rabs_le_inv in E2'. set (t2 := (t1 + f_ofZ 3 * c)%float) in *.
  assert (A3 : Rabs (fR t2 - fR d) <= 9 * M) by (apply Rabs_le; lra).
  destruct (fsub_err t2 d F2 Fd ltac:(lra)) as [F4 E4].
  assert (E4' : Rabs (fR (t2 - d)%float - (fR t2 - fR d)) <= u64 * ((8 + / 64) * M)).
  { eapply Rle_trans; [exact E4|]. apply Rmult_le_compat_l; [lra|]. apply Rabs_le; lra. }
  apply Rabs_le_inv in E4'. split; [exact F4|]. unfold v. fold t1 t2. apply Rabs_le. lra.
Qed.

(** ** calc_adev_phase and calc_hdev_phase over any number type *)
Section Gen.
Context {A : Type} {NA : Num A}.
Lemma calc_adev_gen N (f : nat -> A) rate m s :
  (1 <= s)%nat -> (1 <= stride_count N (2 * m) s)%nat ->
  let n := stride_count N (2 * m) s in
  let v := tab n (fun k => nadd (nsub (f (2 * m + k * s)%nat) (nmul (ofZ 2) (f (m + k * s)%nat))) (f (k * s)%nat)) in
  let dev := nmul (ndiv (nsqrt (ndiv (sumsq v) (nmul (ofZ 2) (ofN n)))) (ofN m)) rate in
  calc_adev_phase (tab N f) rate m s = Ok (dev, ndiv dev (nsqrt (ofN n)), Z.of_nat n).
Proof.
  intros Hs Hn n v dev. unfold calc_adev_phase.
  rewrite !pystride_tab by exact Hs. cbn [bind]. rewrite !tab_length.
  rewrite min3_eq; [|apply stride_count_mono; lia|apply stride_count_mono; lia].
  fold n. destruct (Nat.eqb_spec n 0) as [C|_]; [unfold n in C; lia|].
  unfold second_diff, scal, vsub, vadd.
  rewrite !firstn_tab, !Nat.min_l; [|apply stride_count_mono; lia|apply stride_count_mono; lia|apply Nat.le_refl].
  rewrite map_tab, bmap2_tab. cbn [bind]. rewrite bmap2_tab. cbn [bind]. unfold dev, v.
  erewrite tab_ext; [reflexivity|]. intros i Hi. cbn beta. repeat (f_equal; try lia).
Qed.

Lemma calc_hdev_gen N (f : nat -> A) rate m s :
  (1 <= s)%nat -> (1 <= stride_count N (3 * m) s)%nat ->
  let n := stride_count N (3 * m) s in
  let v := tab n (fun k => nsub (nadd (nsub (f (3 * m + k * s)%nat) (nmul (ofZ 3) (f (2 * m + k * s)%nat)))
                                 (nmul (ofZ 3) (f (m + k * s)%nat))) (f (k * s)%nat)) in
  let dev := ndiv (nsqrt (ndiv (ndiv (sumsq v) (ofZ 6)) (ofN n))) (nmul (ndiv (ofZ 1) rate) (ofN m)) in
  calc_hdev_phase (tab N f) rate m s = Ok (dev, ndiv dev (nsqrt (ofN n)), Z.of_nat n).
Proof.
  intros Hs Hn n v dev. unfold calc_hdev_phase.
  rewrite !pystride_tab by exact Hs. cbn [bind]. rewrite !tab_length.
  rewrite min4_eq; [|apply stride_count_mono; lia|apply stride_count_mono; lia|apply stride_count_mono; lia].
  fold n. unfold third_diff, scal, vsub, vadd.
  rewrite !firstn_tab, !Nat.min_l; [|apply stride_count_mono; lia|apply stride_count_mono; lia|apply stride_count_mono; lia|apply Nat.le_refl].
  rewrite !map_tab, bmap2_tab. cbn [bind]. rewrite bmap2_tab. cbn [bind]. rewrite bmap2_tab. cbn [bind].
  destruct (Nat.eqb_spec n 0) as [C|_]; [unfold n in C; lia|]. unfold dev, v.
  erewrite tab_ext; [reflexivity|]. intros i Hi. cbn beta. repeat (f_equal; try lia).
Qed.
End Gen.

(** ** One row *)
(** The records considered: finite samples bounded by [M]; sizes, rate and averaging factor far from overflow. *)
Definition bounded_record (x : list float) (M : R) : Prop :=
  (Z.of_nat (len x) <= 2 ^ 40)%Z /\ bpow radix2 (-400) <= M <= bpow radix2 400 /\
  Forall (fun a => ffin a /\ Rabs (fR a) <= M) x.
Definition moderate_rate (rate : float) : Prop :=
  ffin rate /\ bpow radix2 (-100) <= fR rate <= bpow radix2 100.

Lemma rms_bound n (v : nat -> R) D B : (1 <= n)%nat -> INR n <= D -> 0 <= B ->
  (forall k, (k < n)%nat -> Rabs (v k) <= B) -> 0 <= R_sqrt.sqrt (bigsum n (fun k => v k ^ 2) / D) <= B.
Proof.
  intros Hn HD HB H. split; [apply sqrt_pos|].
  pose proof (rms_close n v (fun _ => 0) D B Hn HD HB) as Q.
  assert (Z0 : bigsum n (fun _ => 0 ^ 2) / D = 0).
  { rewrite bigsum_0 by (intros; ring). unfold Rdiv. ring. }
  cbv beta in Q. rewrite Z0, sqrt_0, Rminus_0_r in Q. specialize (Q ltac:(intros k Hk; rewrite Rminus_0_r; auto)).
  apply Rabs_le_inv in Q. lra.
Qed.

Lemma bpow_nums : bpow radix2 3 = 8 /\ bpow radix2 5 = 32 /\ bpow radix2 (-53) = u64.
Proof. repeat split; try (cbn; lra). unfold u64. replace (bpow radix2 (-53)) with (/ IZR (2 ^ 53)) by reflexivity. cbn. lra. Qed.

(** the root mean square of differences known up to [d] *)
Lemma rms_near n (vh : nat -> float) (v : nat -> R) M d j (q : float) D : (1 <= n)%nat -> (Z.of_nat n <= 2 ^ 40)%Z ->
  bpow radix2 (-400) <= M <= bpow radix2 400 -> 0 <= d <= M ->
  (forall k, (k < n)%nat -> ffin (vh k) /\ Rabs (fR (vh k) - v k) <= d /\ Rabs (v k) <= 8 * M) ->
  near q (bigsum n (fun k => fR (vh k) ^ 2) / D) j (4 * eta) -> INR n <= D -> (Z.of_nat j <= 2 ^ 41)%Z ->
  near (Coq.Floats.PrimFloat.sqrt q) (R_sqrt.sqrt (bigsum n (fun k => v k ^ 2) / D)) (S j) ((1 + / 1000) * d + u64 * M / 8).
Proof.
  intros Hn Hn' [LM UM] Hd Hv Hq HD Hj. destruct bpow_nums as (B3 & B5 & Bu).
  assert (Pn : 1 <= INR n) by (change 1 with (INR 1); now apply le_INR).
  assert (PX : 0 <= bigsum n (fun k => fR (vh k) ^ 2) / D).
  { apply Rmult_le_pos; [apply bigsum_nonneg; intros; apply pow2_ge_0|left; apply Rinv_0_lt_compat; lra]. }
  apply near_sqrt in Hq; [|exact PX|lia].
  apply near_weaken with ((1 + / 1000) * d + 2 * zeta).
  - apply near_shift with (R_sqrt.sqrt (bigsum n (fun k => fR (vh k) ^ 2) / D)).
    + exact Hq.
    + apply rms_close; auto; [lra|]. intros k Hk. apply Hv, Hk.
    + apply sqrt_pos.
    + lra.
    + lia.
  - assert (2 * zeta <= u64 * M / 8); [|lra].
    apply Rle_trans with (u64 * bpow radix2 (-400) / 8).
    + rewrite <- Bu, <- bpow_plus, <- B3. unfold zeta, Rdiv. change 2 with (bpow radix2 1). rewrite <- bpow_opp, <- !bpow_plus. apply bpow_le. lia.
    + pose proof u64_pos. nra.
Qed.

Lemma adev_row N (f : nat -> float) rate m s M sq :
  (Z.of_nat N <= 2 ^ 40)%Z -> bpow radix2 (-400) <= M <= bpow radix2 400 ->
  (forall i, (i < N)%nat -> ffin (f i) /\ Rabs (fR (f i)) <= M) -> moderate_rate rate ->
  (1 <= s)%nat -> (1 <= m)%nat -> (1 <= stride_count N (2 * m) s)%nat ->
  let n := stride_count N (2 * m) s in
  let v := tab n (fun k => f (2 * m + k * s)%nat - f_ofZ 2 * f (m + k * s)%nat + f (k * s)%nat)%float in
  sum_of_squares v sq ->
  near (Coq.Floats.PrimFloat.sqrt (sq / (f_ofZ 2 * ofN n)) / ofN m * rate)%float
    (R_sqrt.sqrt (bigsum n (fun k => (fR (f (2 * m + k * s)%nat) - 2 * fR (f (m + k * s)%nat) + fR (f (k * s)%nat)) ^ 2)
                   / (2 * INR n)) / INR m * fR rate)
    (n + 5) (9 * u64 * M * (fR rate / INR m)).
Proof.
  intros HN HM Hf [Fr Hr] Hs Hm Hn n v Hsq. destruct bpow_nums as (B3 & B5 & Bu). pose proof u64_pos as Pu.
  assert (Uq : u64 <= / 4096) by (unfold u64; lra).
  assert (PM : 0 < M) by (pose proof (bpow_gt_0 radix2 (-400)); lra).
  assert (Hi : forall k, (k < n)%nat -> (2 * m + k * s < N)%nat).
  { intros k Hk. apply stride_count_lt in Hk; [exact Hk|exact Hs]. }
  assert (Hnm : (n <= N /\ m < N)%nat).
  { pose proof (Hi (n - 1)%nat ltac:(lia)). split; [|nia].
    assert (n - 1 <= (n - 1) * s)%nat by nia. lia. }
  set (vh := fun k => (f (2 * m + k * s)%nat - f_ofZ 2 * f (m + k * s)%nat + f (k * s)%nat)%float) in *.
  set (w := fun k => fR (f (2 * m + k * s)%nat) - 2 * fR (f (m + k * s)%nat) + fR (f (k * s)%nat)).
  assert (Hv : forall k, (k < n)%nat -> ffin (vh k) /\ Rabs (fR (vh k) - w k) <= 8 * u64 * M /\ Rabs (w k) <= 4 * M).
  { intros k Hk. pose proof (Hi k Hk) as Hb.
    destruct (Hf (2 * m + k * s)%nat Hb) as [F2 H2]. destruct (Hf (m + k * s)%nat ltac:(lia)) as [F1 H1].
    destruct (Hf (k * s)%nat ltac:(lia)) as [F0 H0].
    destruct (d2_err _ _ _ M F2 F1 F0 H2 H1 H0 (proj2 HM)) as [F E]. split; [exact F|]. split; [exact E|].
    apply (abs3 _ _ _ M H2 H1 H0). }
  assert (NN : (Z.of_nat n <= 2 ^ 40)%Z) by lia.
  assert (Big : 8 * M <= bpow radix2 450).
  { apply Rle_trans with (bpow radix2 3 * bpow radix2 400); [rewrite B3; lra|]. rewrite <- bpow_plus. apply bpow_le. lia. }
  destruct (sumsq_err n vh sq Hn NN) as (FS & PS & [PE UE] & ES).
  { intros k Hk. destruct (Hv k Hk) as (F & E & B). split; [exact F|]. apply Rabs_le_inv in E, B.
    apply Rle_trans with (8 * M); [|exact Big]. apply Rabs_le. nra. }
  { exact Hsq. }
  set (Ex := bigsum n (fun k => fR (vh k) ^ 2)) in *.
  assert (Pn : 1 <= INR n) by (change 1 with (INR 1); now apply le_INR).
  assert (Pm : 1 <= INR m) by (change 1 with (INR 1); now apply le_INR).
  pose proof eta_pos as Pe.
  destruct (fofZ_ok (Z.of_nat n) ltac:(lia)) as [Fn Vn]. destruct (fofZ_ok (Z.of_nat m) ltac:(lia)) as [Fm Vm].
  rewrite <- INR_IZR_INZ in Vn, Vm.
  assert (Un : INR n <= bpow radix2 40) by (rewrite INR_IZR_INZ; change (bpow radix2 40) with (IZR (2 ^ 40)); now apply IZR_le).
  assert (Um : INR m <= bpow radix2 40) by (rewrite INR_IZR_INZ; change (bpow radix2 40) with (IZR (2 ^ 40)); apply IZR_le; lia).
  destruct (fdouble (f_ofZ (Z.of_nat n)) Fn) as [FC VC].
  { rewrite Vn, Rabs_pos_eq by lra. eapply Rle_trans; [exact Un|]. apply bpow_le. lia. }
  rewrite Vn in VC. unfold ofN. cbn [ofZ FNum].
  assert (H1 : near (sq / (f_ofZ 2 * f_ofZ (Z.of_nat n)))%float (Ex / (2 * INR n)) (S (n + 1)) (4 * eta)).
  { rewrite <- VC. apply near_weaken with ((1 + u64) * (2 * INR n * eta / fR (f_ofZ 2 * f_ofZ (Z.of_nat n))%float) + eta).
    - apply near_div; rewrite ?VC; try lra; try lia.
      + split; [exact FS|]. split; [exact PS|exact ES].
      + nra.
      + apply Rle_trans with Ex.
        * apply (Rmult_le_reg_r (2 * INR n)); [lra|]. unfold Rdiv. rewrite Rmult_assoc, Rinv_l by lra. nra.
        * eapply Rle_trans; [exact UE|]. apply bpow_le. lia.
      + replace (2 * INR n * eta / (2 * INR n)) with eta by (field; lra). unfold eta.
        replace (/ 2) with (bpow radix2 (-1)) by (cbn; lra). rewrite <- bpow_plus. apply bpow_le. lia.
    - rewrite VC. replace (2 * INR n * eta / (2 * INR n)) with eta by (field; lra). nra. }
  pose proof (rms_near n vh w M (8 * u64 * M) (S (n + 1)) (sq / (f_ofZ 2 * f_ofZ (Z.of_nat n)))%float (2 * INR n) Hn NN HM) as H2.
  specialize (H2 ltac:(split; nra)).
  specialize (H2 ltac:(intros k Hk; destruct (Hv k Hk) as (? & ? & ?); repeat split; auto; lra) H1 ltac:(lra) ltac:(lia)).
  set (T0 := R_sqrt.sqrt (bigsum n (fun k => w k ^ 2) / (2 * INR n))) in *.
  change (R_sqrt.sqrt (bigsum n (fun k => (fR (f (2 * m + k * s)%nat) - 2 * fR (f (m + k * s)%nat) + fR (f (k * s)%nat)) ^ 2) / (2 * INR n))) with T0.
  assert (BT : 0 <= T0 <= 4 * M) by (apply rms_bound; auto; [lra|lra|intros k Hk; apply Hv, Hk]).
  assert (B450 : bpow radix2 450 <= / 2 * bpow radix2 990).
  { replace (/ 2) with (bpow radix2 (-1)) by (cbn; lra). rewrite <- bpow_plus. apply bpow_le. lia. }
  assert (Pr : 0 < fR rate) by (pose proof (bpow_gt_0 radix2 (-100)); lra).
  assert (IM : 0 < / INR m <= 1).
  { split; [apply Rinv_0_lt_compat; lra|]. rewrite <- Rinv_1. apply Rinv_le; lra. }
  set (z1 := (1 + / 1000) * (8 * u64 * M) + u64 * M / 8) in *.
  assert (Z1 : 0 <= z1 <= (8 + / 6) * (u64 * M)) by (unfold z1; split; nra).
  assert (UMs : 0 <= u64 * M <= / 4096 * M) by (split; nra).
  assert (H3 : near (Coq.Floats.PrimFloat.sqrt (sq / (f_ofZ 2 * f_ofZ (Z.of_nat n))) / f_ofZ (Z.of_nat m))%float
     (T0 / INR m) (S (S (S (n + 1)))) ((1 + u64) * (z1 / INR m) + eta)).
  { rewrite <- Vm. apply near_div; rewrite ?Vm; try lra; try lia; [exact H2| |]; unfold Rdiv; nra. }
  set (z2 := (1 + u64) * (z1 / INR m) + eta) in *.
  assert (Z1m : 0 <= z1 * / INR m) by (apply Rmult_le_pos; lra).
  assert (Z2 : 0 <= z2) by (unfold z2, Rdiv; nra).
  assert (B550 : 16 * bpow radix2 450 * bpow radix2 100 <= / 2 * bpow radix2 990).
  { replace (/ 2) with (bpow radix2 (-1)) by (cbn; lra). change 16 with (bpow radix2 4). rewrite <- !bpow_plus. apply bpow_le. lia. }
  assert (E1 : eta <= / 1000 * (u64 * M * / INR m) /\ eta <= / 1000 * (u64 * M * / INR m) * fR rate).
  { assert (G : eta <= / 1000 * (u64 * bpow radix2 (-400) * bpow radix2 (-40)) * bpow radix2 (-100)).
    { rewrite <- Bu. apply Rle_trans with (bpow radix2 (-10) * (bpow radix2 (-53) * bpow radix2 (-400) * bpow radix2 (-40)) * bpow radix2 (-100)).
      - rewrite <- !bpow_plus. apply bpow_le. lia.
      - repeat apply Rmult_le_compat_r; try apply bpow_ge_0. rewrite <- !bpow_plus. apply bpow_ge_0. cbn. lra. }
    assert (Q : bpow radix2 (-40) <= / INR m) by (change (-40)%Z with (- (40))%Z; rewrite bpow_opp; apply Rinv_le; lra).
    assert (Pb4 : 0 < bpow radix2 (-400)) by apply bpow_gt_0. assert (Pb1 : 0 < bpow radix2 (-100)) by apply bpow_gt_0.
    assert (Pb0 : 0 < bpow radix2 (-40)) by apply bpow_gt_0.
    assert (Q2 : u64 * bpow radix2 (-400) * bpow radix2 (-40) <= u64 * M * / INR m).
    { apply Rmult_le_compat; nra. }
    assert (b1 : bpow radix2 (-100) <= 1) by (change 1 with (bpow radix2 0); apply bpow_le; lia).
    assert (0 < u64 * bpow radix2 (-400) * bpow radix2 (-40)) by (repeat apply Rmult_lt_0_compat; lra).
    split.
    - eapply Rle_trans; [exact G|]. nra.
    - eapply Rle_trans; [exact G|]. apply Rmult_le_compat; nra. }
  destruct E1 as [E1 E2].
  assert (Z2u : z2 <= (8 + / 5) * (u64 * M * / INR m)).
  { unfold z2, Rdiv. assert (z1 * / INR m <= (8 + / 6) * (u64 * M) * / INR m) by (apply Rmult_le_compat_r; lra).
    assert (0 <= u64 * M * / INR m) by nra. nra. }
  assert (UM1 : 0 <= u64 * M * / INR m <= M) by (split; [nra|]; assert (u64 * M * / INR m <= u64 * M * 1) by (apply Rmult_le_compat_l; lra); lra).
  assert (H4 : near (Coq.Floats.PrimFloat.sqrt (sq / (f_ofZ 2 * f_ofZ (Z.of_nat n))) / f_ofZ (Z.of_nat m) * rate)%float
     (T0 / INR m * fR rate) (S (S (S (S (n + 1))))) ((1 + u64) * (z2 * fR rate) + eta)).
  { apply near_mul; auto; try lia.
    - unfold Rdiv. nra.
    - apply Rle_trans with (bpow radix2 450 * bpow radix2 100).
      + apply Rmult_le_compat; try lra; unfold Rdiv; nra.
      + pose proof (bpow_ge_0 radix2 450). pose proof (bpow_ge_0 radix2 100). nra.
    - apply Rle_trans with (16 * bpow radix2 450 * bpow radix2 100); [|exact B550].
      apply Rmult_le_compat; try lra; nra. }
  replace (n + 5)%nat with (S (S (S (S (n + 1))))) by lia.
  apply near_weaken with ((1 + u64) * (z2 * fR rate) + eta); [exact H4|].
  replace (9 * u64 * M * (fR rate / INR m)) with (9 * (u64 * M * / INR m) * fR rate) by (unfold Rdiv; ring).
  assert (z2 * fR rate <= (8 + / 5) * (u64 * M * / INR m) * fR rate) by (apply Rmult_le_compat_r; lra).
  assert (0 <= u64 * M * / INR m * fR rate) by nra. nra.
Qed.

(** division by a quantity itself carrying two roundings *)
Lemma near_div_approx s X j z (t : float) Y : near s X j z -> approx t Y 2 -> 0 < Y -> 0 <= X -> 0 <= z ->
  (Z.of_nat j <= 2 ^ 41)%Z -> X / Y <= / 4 * bpow radix2 990 -> z / Y <= / 4 * bpow radix2 990 ->
  near (s / t)%float (X / Y) (S (3 + j)) ((1 + u64) * ((1 + / 1000) * (z / Y)) + eta).
Proof.
  intros (F & P & E) [Ft Et] PY PX Pz Hj B Bz. rewrite (Rabs_pos_eq Y) in Et by lra.
  assert (Uq : 0 < u64 <= / 4096) by (split; [apply u64_pos|unfold u64; lra]).
  pose proof (pow_u_small j ltac:(lia)) as Sm. pose proof (pow_u_ge1 j) as G.
  assert (H3 : (1 + u64) ^ 3 <= 1 + / 1000) by (cbn [pow]; assert (0 <= u64 * u64 <= / 4096 * u64) by nra; assert (u64 * (u64 * u64) <= / 4096 * u64) by nra; nra).
  set (a := (1 + u64) ^ j) in *. set (h := (1 + u64) ^ 3) in *.
  assert (IY : 0 < / Y) by (now apply Rinv_0_lt_compat).
  assert (C1 : (1 + u64) ^ 2 - 1 = 2 * u64 + u64 * u64) by (cbn [pow]; ring).
  rewrite C1 in Et. apply Rabs_le_inv in Et.
  assert (Uc : 0 <= 2 * u64 + u64 * u64 <= / 2) by nra.
  assert (Uc' : (2 * u64 + u64 * u64) * Y <= / 2 * Y) by (apply Rmult_le_compat_r; lra).
  assert (Pt : / 2 * Y <= fR t) by lra. assert (Pt0 : 0 < fR t) by lra.
  assert (It : 0 < / fR t) by (now apply Rinv_0_lt_compat).
  set (g := Y / fR t).
  assert (Gt : g * fR t = Y) by (unfold g; field; lra).
  assert (Gg : Rabs (g - 1) <= h - 1).
  { assert (Hh : h - 1 = 3 * u64 + 3 * (u64 * u64) + u64 * u64 * u64) by (unfold h; cbn [pow]; ring).
    assert (K : (2 * u64 + u64 * u64) * Y <= (h - 1) * fR t).
    { apply Rle_trans with ((h - 1) * ((1 - (2 * u64 + u64 * u64)) * Y)).
      - rewrite <- Rmult_assoc. apply Rmult_le_compat_r; [lra|]. rewrite Hh. nra.
      - apply Rmult_le_compat_l; [rewrite Hh; nra|]. lra. }
    replace (g - 1) with ((Y - fR t) * / fR t) by (unfold g; field; lra).
    rewrite Rabs_mult, (Rabs_pos_eq (/ fR t)) by lra.
    apply (Rmult_le_reg_r (fR t)); [exact Pt0|]. rewrite Rmult_assoc, Rinv_l, Rmult_1_r by lra.
    eapply Rle_trans; [|exact K]. apply Rabs_le. lra. }
  assert (Pv : 0 <= fR s / fR t) by (apply Rmult_le_pos; lra).
  assert (PXY : 0 <= X / Y) by (apply Rmult_le_pos; lra).
  assert (PzY : 0 <= z / Y) by (apply Rmult_le_pos; lra).
  assert (E1 : Rabs (fR s / Y - X / Y) <= (a - 1) * (X / Y) + z / Y).
  { replace (fR s / Y - X / Y) with ((fR s - X) * / Y) by (unfold Rdiv; ring). rewrite Rabs_mult, (Rabs_pos_eq (/ Y)) by lra.
    replace ((a - 1) * (X / Y) + z / Y) with (((a - 1) * X + z) * / Y) by (unfold Rdiv; ring).
    apply Rmult_le_compat_r; lra. }
  assert (PsY : 0 <= fR s / Y) by (apply Rmult_le_pos; lra).
  assert (UsY : fR s / Y <= a * (X / Y) + z / Y) by (apply Rabs_le_inv in E1; lra).
  assert (Ph : 1 <= h) by (apply pow_u_ge1).
  assert (E2 : Rabs (fR s / fR t - X / Y) <= ((1 + u64) ^ (3 + j) - 1) * (X / Y) + (1 + / 1000) * (z / Y)).
  { rewrite pow_add. fold h a. replace (fR s / fR t) with (fR s / Y * g) by (unfold g; field; lra).
    replace (fR s / Y * g - X / Y) with (fR s / Y * (g - 1) + (fR s / Y - X / Y)) by ring.
    eapply Rle_trans; [apply Rabs_triang|]. rewrite Rabs_mult, (Rabs_pos_eq (fR s / Y)) by exact PsY.
    assert (fR s / Y * Rabs (g - 1) <= (a * (X / Y) + z / Y) * (h - 1)) by (apply Rmult_le_compat; auto using Rabs_pos).
    assert ((h - 1) * (z / Y) <= / 1000 * (z / Y)) by (apply Rmult_le_compat_r; lra). nra. }
  pose proof bpow1000_2 as B2. pose proof (bpow_ge_0 radix2 990) as B0.
  pose proof (pow_u_small (3 + j) ltac:(lia)) as Sm3. pose proof (pow_u_ge1 (3 + j)) as G3.
  assert (O : Rabs (fR s / fR t) <= bpow radix2 1000).
  { rewrite Rabs_pos_eq by exact Pv. apply Rabs_le_inv in E2. set (b := (1 + u64) ^ (3 + j)) in *. nra. }
  destruct (fdiv_ok s t F ltac:(lra) (rnd_bound _ O)) as [F' V].
  apply (near_round _ (fR s / fR t)); auto. nra.
Qed.

Lemma abs4 a b c d M : Rabs a <= M -> Rabs b <= M -> Rabs c <= M -> Rabs d <= M ->
  Rabs (a - 3 * b + 3 * c - d) <= 8 * M.
Proof. intros H1 H2 H3 H4. apply Rabs_le_inv in H1, H2, H3, H4. apply Rabs_le; lra. Qed.

Lemma hdev_row N (f : nat -> float) rate m s M sq :
  (Z.of_nat N <= 2 ^ 40)%Z -> bpow radix2 (-400) <= M <= bpow radix2 400 ->
  (forall i, (i < N)%nat -> ffin (f i) /\ Rabs (fR (f i)) <= M) -> moderate_rate rate ->
  (1 <= s)%nat -> (1 <= m)%nat -> (1 <= stride_count N (3 * m) s)%nat ->
  let n := stride_count N (3 * m) s in
  let v := tab n (fun k => f (3 * m + k * s)%nat - f_ofZ 3 * f (2 * m + k * s)%nat + f_ofZ 3 * f (m + k * s)%nat - f (k * s)%nat)%float in
  sum_of_squares v sq ->
  near (Coq.Floats.PrimFloat.sqrt (sq / f_ofZ 6 / ofN n) / (f_ofZ 1 / rate * ofN m))%float
    (R_sqrt.sqrt (bigsum n (fun k => (fR (f (3 * m + k * s)%nat) - 3 * fR (f (2 * m + k * s)%nat)
                       + 3 * fR (f (m + k * s)%nat) - fR (f (k * s)%nat)) ^ 2) / 6 / INR n) / (1 / fR rate * INR m))
    (n + 8) (29 * u64 * M * (fR rate / INR m)).
Proof.
  intros HN HM Hf [Fr Hr] Hs Hm Hn n v Hsq. destruct bpow_nums as (B3 & B5 & Bu). pose proof u64_pos as Pu.
  assert (Uq : u64 <= / 4096) by (unfold u64; lra).
  assert (PM : 0 < M) by (pose proof (bpow_gt_0 radix2 (-400)); lra).
  assert (Hi : forall k, (k < n)%nat -> (3 * m + k * s < N)%nat).
  { intros k Hk. apply stride_count_lt in Hk; [exact Hk|exact Hs]. }
  assert (Hnm : (n <= N /\ m < N)%nat).
  { pose proof (Hi (n - 1)%nat ltac:(lia)). split; [|nia].
    assert (n - 1 <= (n - 1) * s)%nat by nia. lia. }
  set (vh := fun k => (f (3 * m + k * s)%nat - f_ofZ 3 * f (2 * m + k * s)%nat + f_ofZ 3 * f (m + k * s)%nat - f (k * s)%nat)%float) in *.
  set (w := fun k => fR (f (3 * m + k * s)%nat) - 3 * fR (f (2 * m + k * s)%nat)
                       + 3 * fR (f (m + k * s)%nat) - fR (f (k * s)%nat)).
  assert (Hv : forall k, (k < n)%nat -> ffin (vh k) /\ Rabs (fR (vh k) - w k) <= 28 * u64 * M /\ Rabs (w k) <= 8 * M).
  { intros k Hk. pose proof (Hi k Hk) as Hb.
    destruct (Hf (3 * m + k * s)%nat Hb) as [F3 H3]. destruct (Hf (2 * m + k * s)%nat ltac:(lia)) as [F2 H2].
    destruct (Hf (m + k * s)%nat ltac:(lia)) as [F1 H1]. destruct (Hf (k * s)%nat ltac:(lia)) as [F0 H0].
    destruct (d3_err _ _ _ _ M F3 F2 F1 F0 H3 H2 H1 H0 HM) as [F E]. split; [exact F|]. split; [exact E|].
    now apply abs4. }
  assert (NN : (Z.of_nat n <= 2 ^ 40)%Z) by lia.
  assert (Big : 16 * M <= bpow radix2 450).
  { apply Rle_trans with (bpow radix2 4 * bpow radix2 400); [change (bpow radix2 4) with 16; lra|]. rewrite <- bpow_plus. apply bpow_le. lia. }
  destruct (sumsq_err n vh sq Hn NN) as (FS & PS & [PE UE] & ES).
  { intros k Hk. destruct (Hv k Hk) as (F & E & B). split; [exact F|]. apply Rabs_le_inv in E, B.
    apply Rle_trans with (16 * M); [|exact Big]. apply Rabs_le. nra. }
  { exact Hsq. }
  set (Ex := bigsum n (fun k => fR (vh k) ^ 2)) in *.
  assert (Pn : 1 <= INR n) by (change 1 with (INR 1); now apply le_INR).
  assert (Pm : 1 <= INR m) by (change 1 with (INR 1); now apply le_INR).
  pose proof eta_pos as Pe.
  destruct (fofZ_ok (Z.of_nat n) ltac:(lia)) as [Fn Vn]. destruct (fofZ_ok (Z.of_nat m) ltac:(lia)) as [Fm Vm].
  destruct (fofZ_ok 6 ltac:(lia)) as [F6 V6].
  rewrite <- INR_IZR_INZ in Vn, Vm.
  assert (Un : INR n <= bpow radix2 40) by (rewrite INR_IZR_INZ; change (bpow radix2 40) with (IZR (2 ^ 40)); now apply IZR_le).
  assert (Um : INR m <= bpow radix2 40) by (rewrite INR_IZR_INZ; change (bpow radix2 40) with (IZR (2 ^ 40)); apply IZR_le; lia).
  unfold ofN. cbn [ofZ FNum].
  assert (EtaB : 4 * INR n * eta <= / 2 * bpow radix2 990).
  { apply Rle_trans with (4 * bpow radix2 40 * eta); [apply Rmult_le_compat_r; lra|].
    unfold eta. change 4 with (bpow radix2 2). replace (/ 2) with (bpow radix2 (-1)) by (cbn; lra). rewrite <- !bpow_plus. apply bpow_le. lia. }
  assert (B990 : bpow radix2 950 <= bpow radix2 990) by (apply bpow_le; lia).
  assert (PnE : 0 <= INR n * eta) by nra.
  assert (IN : 0 < / INR n) by (apply Rinv_0_lt_compat; lra).
  assert (H0 : near (sq / f_ofZ 6)%float (Ex / 6) (S (n + 1)) (INR n * eta + eta)).
  { rewrite <- V6. apply near_weaken with ((1 + u64) * (2 * INR n * eta / fR (f_ofZ 6)) + eta).
    - apply near_div; rewrite ?V6; try lra; try lia. split; [exact FS|]. split; [exact PS|exact ES].
    - rewrite V6. unfold Rdiv. nra. }
  assert (En : (INR n * eta + eta) / INR n = eta + eta * / INR n) by (field; lra).
  assert (Ii : / INR n <= 1) by (rewrite <- Rinv_1; apply Rinv_le; lra).
  assert (H1 : near (sq / f_ofZ 6 / f_ofZ (Z.of_nat n))%float (Ex / 6 / INR n) (S (S (n + 1))) (4 * eta)).
  { rewrite <- Vn at 1. apply near_weaken with ((1 + u64) * ((INR n * eta + eta) / fR (f_ofZ (Z.of_nat n))) + eta).
    - apply near_div; rewrite ?Vn; try lra; try lia; [exact H0| |].
      + apply Rle_trans with (bpow radix2 950); [|exact B990]. unfold Rdiv. nra.
      + rewrite En. nra.
    - rewrite Vn, En. nra. }
  replace (Ex / 6 / INR n) with (Ex / (6 * INR n)) in H1 by (field; lra).
  pose proof (rms_near n vh w M (28 * u64 * M) (S (S (n + 1))) (sq / f_ofZ 6 / f_ofZ (Z.of_nat n))%float (6 * INR n) Hn NN HM) as H2.
  specialize (H2 ltac:(split; nra)).
  specialize (H2 ltac:(intros k Hk; destruct (Hv k Hk) as (? & ? & ?); repeat split; auto; lra) H1 ltac:(lra) ltac:(lia)).
  set (T0 := R_sqrt.sqrt (bigsum n (fun k => w k ^ 2) / (6 * INR n))) in *.
  assert (ET : R_sqrt.sqrt (bigsum n (fun k => (fR (f (3 * m + k * s)%nat) - 3 * fR (f (2 * m + k * s)%nat)
                       + 3 * fR (f (m + k * s)%nat) - fR (f (k * s)%nat)) ^ 2) / 6 / INR n) = T0).
  { unfold T0. set (Bw := bigsum n (fun k => w k ^ 2)). change (R_sqrt.sqrt (Bw / 6 / INR n) = R_sqrt.sqrt (Bw / (6 * INR n))). f_equal. field. lra. }
  rewrite ET.
  assert (BT : 0 <= T0 <= 8 * M) by (apply rms_bound; auto; [lra|lra|intros k Hk; apply Hv, Hk]).
  assert (Pr : 0 < fR rate) by (pose proof (bpow_gt_0 radix2 (-100)); lra).
  assert (IM : 0 < / INR m <= 1).
  { split; [apply Rinv_0_lt_compat; lra|]. rewrite <- Rinv_1. apply Rinv_le; lra. }
  set (z1 := (1 + / 1000) * (28 * u64 * M) + u64 * M / 8) in *.
  assert (Z1 : 0 <= z1 <= (28 + / 6) * (u64 * M)) by (unfold z1; split; nra).
  assert (UMs : 0 <= u64 * M <= / 4096 * M) by (split; nra).
  assert (Hsafe : safe_rate rate).
  { split; [exact Fr|]. rewrite Rabs_pos_eq by lra. split; [apply Rle_trans with (bpow radix2 (-100))|apply Rle_trans with (bpow radix2 100)]; try apply bpow_le; lra || lia. }
  set (Y := 1 / fR rate * INR m).
  assert (IR : 0 < / fR rate) by (now apply Rinv_0_lt_compat).
  assert (PY : 0 < Y) by (unfold Y, Rdiv; nra).
  assert (IY : / Y = fR rate / INR m) by (unfold Y; field; lra).
  assert (AY : approx (f_ofZ 1 / rate * f_ofZ (Z.of_nat m))%float Y 2).
  { apply (approx_mul _ _ _ _ 1 0).
    - apply approx_div; [apply (approx_Z 1); lia|exact Fr|lra|apply (mid_Z_div rate 1); [exact Hsafe|lia]|lia].
    - rewrite INR_IZR_INZ. apply approx_Z. lia.
    - replace (1 / fR rate * INR m) with (IZR (Z.of_nat m) / fR rate) by (rewrite <- INR_IZR_INZ; field; lra).
      apply mid_Z_div; [exact Hsafe|lia].
    - lia. }
  assert (RM : 0 < fR rate / INR m <= bpow radix2 100).
  { unfold Rdiv. split; [nra|]. apply Rle_trans with (fR rate * 1); [apply Rmult_le_compat_l; lra|lra]. }
  assert (B550 : bpow radix2 450 * bpow radix2 100 <= / 4 * bpow radix2 990).
  { replace (/ 4) with (bpow radix2 (-2)) by (cbn; lra). rewrite <- !bpow_plus. apply bpow_le. lia. }
  assert (H3 := near_div_approx _ T0 (S (S (S (n + 1)))) z1 _ Y H2 AY PY (proj1 BT) (proj1 Z1) ltac:(lia)).
  specialize (H3 ltac:(unfold Rdiv; rewrite IY; eapply Rle_trans; [|exact B550]; apply Rmult_le_compat; lra)
                 ltac:(unfold Rdiv; rewrite IY; eapply Rle_trans; [|exact B550]; apply Rmult_le_compat; lra)).
  replace (n + 8)%nat with (S (3 + S (S (S (n + 1))))) by lia.
  eapply near_weaken; [exact H3|].
  unfold Rdiv at 1. rewrite IY.
  assert (E1 : eta <= / 1000 * (u64 * M * (fR rate / INR m))).
  { assert (G : eta <= / 1000 * (u64 * bpow radix2 (-400) * (bpow radix2 (-100) * bpow radix2 (-40)))).
    { rewrite <- Bu. apply Rle_trans with (bpow radix2 (-10) * (bpow radix2 (-53) * bpow radix2 (-400) * (bpow radix2 (-100) * bpow radix2 (-40)))).
      - rewrite <- !bpow_plus. apply bpow_le. lia.
      - apply Rmult_le_compat_r; [rewrite <- !bpow_plus; apply bpow_ge_0|cbn; lra]. }
    assert (Q : bpow radix2 (-40) <= / INR m) by (change (-40)%Z with (- (40))%Z; rewrite bpow_opp; apply Rinv_le; lra).
    assert (Pb4 : 0 < bpow radix2 (-400)) by apply bpow_gt_0. assert (Pb1 : 0 < bpow radix2 (-100)) by apply bpow_gt_0.
    assert (Pb0 : 0 < bpow radix2 (-40)) by apply bpow_gt_0.
    eapply Rle_trans; [exact G|]. apply Rmult_le_compat_l; [lra|]. apply Rmult_le_compat; try nra.
    }
  set (K := fR rate / INR m) in *.
  assert (z1 * K <= (28 + / 6) * (u64 * M) * K) by (apply Rmult_le_compat_r; lra).
  assert (0 <= u64 * M * K) by (apply Rmult_le_pos; lra). 
  assert (0 <= z1 * K) by (apply Rmult_le_pos; lra). nra.
Qed.

(** ** Whole tables: the binary64 run beside the exact run *)
Section Short.
Context {A : Type} {NA : Num A}.
Lemma calc_adev_short_gen N (f : nat -> A) rate m s :
  (1 <= s)%nat -> stride_count N (2 * m) s = 0%nat -> exists d e, calc_adev_phase (tab N f) rate m s = Ok (d, e, 1%Z).
Proof.
  intros Hs Hn. unfold calc_adev_phase.
  rewrite !pystride_tab by exact Hs. cbn [bind]. rewrite !tab_length.
  rewrite min3_eq; [|apply stride_count_mono; lia|apply stride_count_mono; lia].
  rewrite Hn. cbn [Nat.eqb]. unfold second_diff, vsub, vadd, scal.
  rewrite tab_0, firstn_nil, bmap2_nil_l by (rewrite map_length, firstn_length; lia).
  cbn [bind]. rewrite bmap2_nil_l by (rewrite firstn_length; lia). cbn [bind]. eexists _, _. reflexivity.
Qed.
Lemma calc_hdev_short_gen N (f : nat -> A) rate m s :
  (1 <= s)%nat -> stride_count N (3 * m) s = 0%nat -> exists d e, calc_hdev_phase (tab N f) rate m s = Ok (d, e, 1%Z).
Proof.
  intros Hs Hn. unfold calc_hdev_phase.
  rewrite !pystride_tab by exact Hs. cbn [bind]. rewrite !tab_length.
  rewrite min4_eq; [|apply stride_count_mono; lia|apply stride_count_mono; lia|apply stride_count_mono; lia].
  rewrite Hn. unfold third_diff, vsub, vadd, scal. cbn [firstn map]. rewrite bmap2_nil_l by (cbn; lia). cbn [bind].
  rewrite bmap2_nil_l by (cbn; lia). cbn [bind]. rewrite bmap2_nil_l by (cbn; lia). cbn [bind].
  eexists _, _. reflexivity.
Qed.
End Short.

(** One row of both tables: averaging factor, count, binary64 deviation and error, exact deviation and error. *)
Record row := Row { r_m : Z; r_n : Z; r_dF : float; r_eF : float; r_dR : R; r_eR : R }.
Definition tableF (rate : float) (rows : list row) : @result float :=
  (map (fun r => f_ofZ (r_m r) / rate)%float rows, map r_dF rows, EArr (map r_eF rows), map r_n rows).
Definition tableR (rate : R) (rows : list row) : @result R :=
  (map (fun r => IZR (r_m r) / rate) rows, map r_dR rows, EArr (map r_eR rows), map r_n rows).

Lemma run_rows_par calcF calcR rate (P : row -> Prop) ms :
  (forall m, In m ms -> exists r, r_m r = m /\ calcF (Z.to_nat m) = Ok (r_dF r, r_eF r, r_n r) /\
     calcR (Z.to_nat m) = Ok (r_dR r, r_eR r, r_n r) /\ ((1 < r_n r)%Z -> P r)) ->
  (run_rows calcF ms (map (fun m => f_ofZ m / rate)%float ms) = Err UserWarning /\
   run_rows calcR ms (map (fun m => IZR m / fR rate) ms) = Err UserWarning) \/
  exists rows, run_rows calcF ms (map (fun m => f_ofZ m / rate)%float ms) = Ok (tableF rate rows) /\
    run_rows calcR ms (map (fun m => IZR m / fR rate) ms) = Ok (tableR (fR rate) rows) /\
    rows <> [] /\ Forall P rows /\ Forall (fun r => In (r_m r) ms /\ (1 < r_n r)%Z) rows.
Proof.
  intro H.
  assert (G : exists rs, map r_m rs = ms /\ mapM (fun mj => calcF (Z.to_nat mj)) ms = Ok (map (fun r => (r_dF r, r_eF r, r_n r)) rs) /\
     mapM (fun mj => calcR (Z.to_nat mj)) ms = Ok (map (fun r => (r_dR r, r_eR r, r_n r)) rs) /\
     Forall (fun r => (1 < r_n r)%Z -> P r) rs).
  { induction ms as [|m ms IH]; [exists []; cbn; auto|].
    destruct IH as (rs & E1 & E2 & E3 & E4); [intros; apply H; now right|].
    destruct (H m (or_introl eq_refl)) as (r & Em & EF & ER & Hp). exists (r :: rs). cbn [map mapM].
    rewrite EF, ER. cbn [bind]. rewrite E2, E3. cbn [bind]. rewrite E1, Em. repeat split; auto. }
  destruct G as (rs & E1 & E2 & E3 & E4). unfold run_rows. rewrite E2, E3. cbn [bind]. rewrite <- E1.
  rewrite !map_map. cbn [fst snd]. unfold remove_small_ns. rewrite !map_map, !mask_select_map. cbn [bind].
  set (g := filter _ rs).
  assert (Hg : Forall (fun r => (1 < r_n r)%Z /\ P r /\ In r rs) g).
  { apply Forall_forall. intros r Hr. apply filter_In in Hr as [Hr Hl]. apply Z.ltb_lt in Hl. split; [exact Hl|].
    rewrite Forall_forall in E4. auto. }
  destruct g as [|r0 g'] eqn:E.
  - left. split; reflexivity.
  - right. exists g. rewrite <- E in *. split; [|split; [|split; [|split]]].
    + rewrite E. reflexivity.
    + rewrite E. reflexivity.
    + rewrite E. discriminate.
    + eapply Forall_impl; [|exact Hg]. cbn. tauto.
    + eapply Forall_impl; [|exact Hg]. cbn. intros r (H1 & _ & H2). split; [now apply in_map|exact H1].
Qed.

(** Requests for which C80 gives the same averaging factors in binary64 and over the reals. *)
Definition same_request (rate : float) (tF : taus_arg float) (tR : taus_arg R) : Prop :=
  (exists s, In s ["all"; "octave"; "decade"]%string /\ kw_request tF s /\ kw_request tR s) \/
  (exists l, tF = TArr l /\ tR = TArr (map fR l) /\ Forall (fun t => ffin t /\ clear_of_ties (fR t * fR rate)) l).

Lemma moderate_safe rate : moderate_rate rate -> safe_rate rate.
Proof.
  intros [F [L U]]. split; [exact F|]. pose proof (bpow_gt_0 radix2 (-100)). rewrite Rabs_pos_eq by lra.
  split; [apply Rle_trans with (bpow radix2 (-100))|apply Rle_trans with (bpow radix2 100)]; try apply bpow_le; lra || lia.
Qed.

Lemma same_factors x rate M tF tR : bounded_record x M -> x <> [] -> moderate_rate rate -> same_request rate tF tR ->
  exists ms, tau_generator x rate tF false (ofZ (-1)) = Ok (x, ms, map (fun m => f_ofZ m / rate)%float ms) /\
    tau_generator (map fR x) (fR rate) tR false (-1) = Ok (map fR x, ms, map (fun m => IZR m / fR rate) ms) /\
    forall m, In m ms -> (1 <= m < Z.of_nat (len x))%Z.
Proof.
  intros (Hn & HM & Hx) Hx0 Hr Hs. apply moderate_safe in Hr.
  assert (Hl : (1 <= len x)%nat) by (destruct x; [contradiction|cbn; lia]).
  assert (G : exists ms, tau_generator x rate tF false (ofZ (-1)) = Ok (x, ms, map (fun m => f_ofZ m / rate)%float ms) /\
    tau_generator (map fR x) (fR rate) tR false (-1) = Ok (map fR x, ms, map (fun m => IZR m / fR rate) ms)).
  { destruct Hs as [(s & Hs & HF & HR)|(l & -> & -> & Hl')].
    - destruct (C80_keywords x (map fR x) rate tF tR s false (-1)) as (ms & G1 & G2 & _); auto; [lia|apply map_length|lia|].
      exists ms. auto.
    - destruct (C80_explicit x (map fR x) rate l false (-1)) as (ms & G1 & G2 & _); auto; [lia|apply map_length|lia|].
      exists ms. auto. }
  destruct G as (ms & G1 & G2). exists ms. split; [exact G1|]. split; [exact G2|].
  intros m Hm. unfold tau_generator in G1. destruct (neqb rate (ofZ 0)); [discriminate|].
  destruct (expand_taus (len x) rate tF) as [ts|]; cbn [bind] in G1; [|discriminate].
  injection G1 as E _. rewrite <- E in Hm. apply select_m_In_gen in Hm. lia.
Qed.

(** Deviation within [c+n] roundings of its own size and [k] roundings of the largest sample over tau. *)
Definition accurate (c : Z) (k M : R) (rate : float) (r : row) : Prop :=
  ffin (r_dF r) /\ 0 <= fR (r_dF r) /\
  Rabs (fR (r_dF r) - r_dR r) <=
    (1 + / 1000) * (IZR (r_n r + c) * u64) * r_dR r + k * u64 * M * (fR rate / IZR (r_m r)).

Lemma near_accurate r n c k M rate : near (r_dF r) (r_dR r) (n + Z.to_nat c) (k * u64 * M * (fR rate / IZR (r_m r))) ->
  (0 <= c <= 100)%Z -> r_n r = Z.of_nat n -> (Z.of_nat n <= 2 ^ 40)%Z -> 0 <= r_dR r -> accurate c k M rate r.
Proof.
  intros (F & P & E) Hc Hn Hb Hd. split; [exact F|]. split; [exact P|]. eapply Rle_trans; [exact E|].
  apply Rplus_le_compat_r, Rmult_le_compat_r; [exact Hd|].
  eapply Rle_trans; [apply pow_u_le; lia|]. apply Req_le. f_equal. f_equal. rewrite Hn, INR_IZR_INZ. f_equal. lia.
Qed.

Lemma rec_tab x M : bounded_record x M -> (Z.of_nat (len x) <= 2 ^ 40)%Z /\ bpow radix2 (-400) <= M <= bpow radix2 400 /\
  x = tab (len x) (fun i => nth i x 0%float) /\ map fR x = tab (len x) (fun i => fR (nth i x 0%float)) /\
  forall i, (i < len x)%nat -> ffin (nth i x 0%float) /\ Rabs (fR (nth i x 0%float)) <= M.
Proof.
  intros (Hn & HM & Hx). split; [exact Hn|]. split; [exact HM|]. pose proof (list_tab x 0%float) as Ht.
  split; [exact Ht|]. split; [rewrite Ht at 1; apply map_tab|].
  intros i Hi. rewrite Forall_forall in Hx. apply Hx. now apply nth_In.
Qed.

Lemma adev_rows x rate M (st : nat -> nat) : bounded_record x M -> moderate_rate rate -> (forall m, (1 <= m)%nat -> (1 <= st m)%nat) ->
  forall m, (1 <= m < Z.of_nat (len x))%Z -> exists r, r_m r = m /\
    calc_adev_phase x rate (Z.to_nat m) (st (Z.to_nat m)) = Ok (r_dF r, r_eF r, r_n r) /\
    calc_adev_phase (map fR x) (fR rate) (Z.to_nat m) (st (Z.to_nat m)) = Ok (r_dR r, r_eR r, r_n r) /\
    ((1 < r_n r)%Z -> accurate 5 9 M rate r).
Proof.
  intros Hx Hr Hst m Hm. destruct (rec_tab x M Hx) as (HN & HM & Et & EtR & Hf).
  set (N := len x) in *. set (f := fun i => nth i x 0%float) in *. set (k := Z.to_nat m).
  assert (Hs : (1 <= st k)%nat) by (apply Hst; lia). assert (Hk : (1 <= k)%nat) by lia.
  rewrite EtR. replace (@calc_adev_phase float FNum x) with (@calc_adev_phase float FNum (tab N f)) by (now rewrite <- Et).
  destruct (Nat.eq_dec (stride_count N (2 * k) (st k)) 0) as [Z0|NZ].
  - destruct (calc_adev_short_gen N f rate k (st k) Hs Z0) as (d & e & E).
    destruct (calc_adev_short_gen N (fun i => fR (f i)) (fR rate) k (st k) Hs Z0) as (d' & e' & E').
    exists (Row m 1 d e d' e'). cbn. repeat split; auto; intros; lia.
  - assert (Hn : (1 <= stride_count N (2 * k) (st k))%nat) by lia.
    pose proof (calc_adev_gen N f rate k (st k) Hs Hn) as E. cbv zeta in E.
    pose proof (calc_adev_tab N (fun i => fR (f i)) (fR rate) k (st k) Hs Hn) as E'. cbv zeta in E'.
    eexists (Row m _ _ _ _ _). cbn [r_m r_n r_dF r_eF r_dR r_eR]. split; [reflexivity|]. split; [exact E|]. split; [exact E'|].
    intros _. apply near_accurate with (stride_count N (2 * k) (st k)); cbn [r_m r_n r_dF r_eF r_dR r_eR].
    + replace (IZR m) with (INR k) by (rewrite INR_IZR_INZ; f_equal; lia).
      exact (adev_row N f rate k (st k) M _ HN HM Hf Hr Hs Hk Hn (sumsq_left _)).
    + lia.
    + reflexivity.
    + pose proof (proj1 (stride_count_lt N (2 * k) (st k) (stride_count N (2 * k) (st k) - 1) Hs) ltac:(lia)) as Q. nia.
    + destruct Hr as [_ [L _]]. pose proof (bpow_gt_0 radix2 (-100)). unfold Rdiv.
      assert (0 < INR k) by (apply lt_0_INR; lia).
      repeat apply Rmult_le_pos; try apply sqrt_pos; try lra. left. now apply Rinv_0_lt_compat.
Qed.

Lemma hdev_rows x rate M (st : nat -> nat) : bounded_record x M -> moderate_rate rate -> (forall m, (1 <= m)%nat -> (1 <= st m)%nat) ->
  forall m, (1 <= m < Z.of_nat (len x))%Z -> exists r, r_m r = m /\
    calc_hdev_phase x rate (Z.to_nat m) (st (Z.to_nat m)) = Ok (r_dF r, r_eF r, r_n r) /\
    calc_hdev_phase (map fR x) (fR rate) (Z.to_nat m) (st (Z.to_nat m)) = Ok (r_dR r, r_eR r, r_n r) /\
    ((1 < r_n r)%Z -> accurate 8 29 M rate r).
Proof.
  intros Hx Hr Hst m Hm. destruct (rec_tab x M Hx) as (HN & HM & Et & EtR & Hf).
  set (N := len x) in *. set (f := fun i => nth i x 0%float) in *. set (k := Z.to_nat m).
  assert (Hs : (1 <= st k)%nat) by (apply Hst; lia). assert (Hk : (1 <= k)%nat) by lia.
  rewrite EtR. replace (@calc_hdev_phase float FNum x) with (@calc_hdev_phase float FNum (tab N f)) by (now rewrite <- Et).
  destruct (Nat.eq_dec (stride_count N (3 * k) (st k)) 0) as [Z0|NZ].
  - destruct (calc_hdev_short_gen N f rate k (st k) Hs Z0) as (d & e & E).
    destruct (calc_hdev_short_gen N (fun i => fR (f i)) (fR rate) k (st k) Hs Z0) as (d' & e' & E').
    exists (Row m 1 d e d' e'). cbn. repeat split; auto; intros; lia.
  - assert (Hn : (1 <= stride_count N (3 * k) (st k))%nat) by lia.
    pose proof (calc_hdev_gen N f rate k (st k) Hs Hn) as E. cbv zeta in E.
    pose proof (calc_hdev_tab N (fun i => fR (f i)) (fR rate) k (st k) Hs Hn) as E'. cbv zeta in E'.
    eexists (Row m _ _ _ _ _). cbn [r_m r_n r_dF r_eF r_dR r_eR]. split; [reflexivity|]. split; [exact E|]. split; [exact E'|].
    intros _. apply near_accurate with (stride_count N (3 * k) (st k)); cbn [r_m r_n r_dF r_eF r_dR r_eR].
    + replace (IZR m) with (INR k) by (rewrite INR_IZR_INZ; f_equal; lia).
      exact (hdev_row N f rate k (st k) M _ HN HM Hf Hr Hs Hk Hn (sumsq_left _)).
    + lia.
    + reflexivity.
    + pose proof (proj1 (stride_count_lt N (3 * k) (st k) (stride_count N (3 * k) (st k) - 1) Hs) ltac:(lia)) as Q. nia.
    + destruct Hr as [_ [L _]]. pose proof (bpow_gt_0 radix2 (-100)).
      assert (0 < INR k) by (apply lt_0_INR; lia). assert (0 < / fR rate) by (apply Rinv_0_lt_compat; lra).
      apply Rmult_le_pos; [apply sqrt_pos|]. left. apply Rinv_0_lt_compat. unfold Rdiv. nra.
Qed.

(** Both runs of a deviation function: both raise the warning about too few data, or both return tables with the
    same averaging factors and counts and accurate deviations. *)
Definition agree (c : Z) (k M : R) (rate : float) (resF : res (@result float)) (resR : res (@result R)) : Prop :=
  (resF = Err UserWarning /\ resR = Err UserWarning) \/
  exists rows, resF = Ok (tableF rate rows) /\ resR = Ok (tableR (fR rate) rows) /\ rows <> [] /\ Forall (accurate c k M rate) rows.

Theorem C81_accuracy x rate M tF tR : bounded_record x M -> x <> [] -> moderate_rate rate -> same_request rate tF tR ->
  agree 5 9 M rate (adev x rate "phase" tF) (adev (map fR x) (fR rate) "phase" tR) /\
  agree 5 9 M rate (oadev x rate "phase" tF) (oadev (map fR x) (fR rate) "phase" tR) /\
  agree 8 29 M rate (hdev x rate "phase" tF) (hdev (map fR x) (fR rate) "phase" tR) /\
  agree 8 29 M rate (ohdev x rate "phase" tF) (ohdev (map fR x) (fR rate) "phase" tR).
Proof.
  intros Hx Hx0 Hr Hs. destruct (same_factors x rate M tF tR Hx Hx0 Hr Hs) as (ms & G1 & G2 & Hb).
  assert (K : forall calcF calcR c k, 
     (forall m, (1 <= m < Z.of_nat (len x))%Z -> exists r, r_m r = m /\ calcF (Z.to_nat m) = Ok (r_dF r, r_eF r, r_n r) /\
        calcR (Z.to_nat m) = Ok (r_dR r, r_eR r, r_n r) /\ ((1 < r_n r)%Z -> accurate c k M rate r)) ->
     agree c k M rate (run_rows calcF ms (map (fun m => f_ofZ m / rate)%float ms)) (run_rows calcR ms (map (fun m => IZR m / fR rate) ms))).
  { intros calcF calcR c k H. destruct (run_rows_par calcF calcR rate (accurate c k M rate) ms) as [[E1 E2]|(rows & E1 & E2 & E3 & E4 & _)].
    - intros m Hm. apply H, Hb, Hm.
    - left. auto.
    - right. exists rows. auto. }
  unfold adev, oadev, hdev, ohdev, input_to_phase. cbn [String.eqb Ascii.eqb Bool.eqb bind].
  rewrite G1. cbn [ofZ RNum]. rewrite G2. cbn [bind].
  split; [|split; [|split]]; apply K.
  - apply (adev_rows x rate M (fun m => m) Hx Hr). auto.
  - apply (adev_rows x rate M (fun _ => 1%nat) Hx Hr). auto.
  - apply (hdev_rows x rate M (fun m => m) Hx Hr). auto.
  - apply (hdev_rows x rate M (fun _ => 1%nat) Hx Hr). auto.
Qed.
Print Assumptions C81_accuracy.

(** One row with the sum of squares added up in any order and grouping (numpy.sum works pairwise),
    for second differences (adev, oadev) and third differences (hdev, ohdev). *)
Theorem C81_any_order x rate M m s sq : bounded_record x M -> moderate_rate rate -> (1 <= m)%nat -> (1 <= s)%nat ->
  let f i := nth i x 0%float in let n2 := stride_count (len x) (2 * m) s in let n3 := stride_count (len x) (3 * m) s in
  let d2 := tab n2 (fun k => f (2 * m + k * s)%nat - f_ofZ 2 * f (m + k * s)%nat + f (k * s)%nat)%float in
  let d3 := tab n3 (fun k => f (3 * m + k * s)%nat - f_ofZ 3 * f (2 * m + k * s)%nat + f_ofZ 3 * f (m + k * s)%nat - f (k * s)%nat)%float in
  let e2 := bigsum n2 (fun k => (fR (f (2 * m + k * s)%nat) - 2 * fR (f (m + k * s)%nat) + fR (f (k * s)%nat)) ^ 2) in
  let e3 := bigsum n3 (fun k => (fR (f (3 * m + k * s)%nat) - 3 * fR (f (2 * m + k * s)%nat)
                                  + 3 * fR (f (m + k * s)%nat) - fR (f (k * s)%nat)) ^ 2) in
  ((1 <= n2)%nat -> sum_of_squares d2 sq ->
   let dev := (Coq.Floats.PrimFloat.sqrt (sq / (f_ofZ 2 * f_ofZ (Z.of_nat n2))) / f_ofZ (Z.of_nat m) * rate)%float in
   let exact := R_sqrt.sqrt (e2 / (2 * INR n2)) / INR m * fR rate in
   ffin dev /\ Rabs (fR dev - exact) <= (1 + / 1000) * (INR (n2 + 5) * u64) * exact + 9 * u64 * M * (fR rate / INR m)) /\
  ((1 <= n3)%nat -> sum_of_squares d3 sq ->
   let dev := (Coq.Floats.PrimFloat.sqrt (sq / f_ofZ 6 / f_ofZ (Z.of_nat n3)) / (f_ofZ 1 / rate * f_ofZ (Z.of_nat m)))%float in
   let exact := R_sqrt.sqrt (e3 / 6 / INR n3) / (1 / fR rate * INR m) in
   ffin dev /\ Rabs (fR dev - exact) <= (1 + / 1000) * (INR (n3 + 8) * u64) * exact + 29 * u64 * M * (fR rate / INR m)).
Proof.
  intros Hx Hr Hm Hs f n2 n3 d2 d3 e2 e3. destruct (rec_tab x M Hx) as (HN & HM & _ & _ & Hf).
  assert (Pr : 0 < fR rate) by (destruct Hr as [_ [L _]]; pose proof (bpow_gt_0 radix2 (-100)); lra).
  assert (Pm : 0 < INR m) by (apply lt_0_INR; lia).
  split; intros Hn Hsq dev exact.
  - destruct (adev_row (len x) f rate m s M sq HN HM Hf Hr Hs Hm Hn Hsq) as (F & P & E).
    split; [exact F|]. eapply Rle_trans; [exact E|]. apply Rplus_le_compat_r, Rmult_le_compat_r.
    + unfold exact, Rdiv. repeat apply Rmult_le_pos; try apply sqrt_pos; try lra. left. now apply Rinv_0_lt_compat.
    + apply pow_u_le. unfold n2. unfold n2 in Hn.
      pose proof (proj1 (stride_count_lt (len x) (2 * m) s (stride_count (len x) (2 * m) s - 1) Hs) ltac:(lia)) as Q. nia.
  - destruct (hdev_row (len x) f rate m s M sq HN HM Hf Hr Hs Hm Hn Hsq) as (F & P & E).
    split; [exact F|]. eapply Rle_trans; [exact E|]. apply Rplus_le_compat_r, Rmult_le_compat_r.
    + apply Rmult_le_pos; [apply sqrt_pos|]. assert (0 < / fR rate) by (now apply Rinv_0_lt_compat).
      left. apply Rinv_0_lt_compat. unfold Rdiv. nra.
    + apply pow_u_le. unfold n3. unfold n3 in Hn.
      pose proof (proj1 (stride_count_lt (len x) (3 * m) s (stride_count (len x) (3 * m) s - 1) Hs) ltac:(lia)) as Q. nia.
Qed.
Print Assumptions C81_any_order.

(** The model's own order is one of them, and so is a pairwise one. *)
Example C81_ex_orders v (a b c d : float) : sum_of_squares v (sumsq v) /\
  sum_of_squares [a; b; c; d] ((nsq a + nsq b) + (nsq c + nsq d))%float.
Proof.
  split; [apply sumsq_left|].
  exists (Node (Node (Leaf (nsq a)) (Leaf (nsq b))) (Node (Leaf (nsq c)) (Leaf (nsq d)))), 0%nat.
  split; [reflexivity|]. split; [lia|]. apply Permutation_refl.
Qed.

(** Over the reals a constant added to the phase changes nothing (C31); in binary64 it can wipe the deviation out,
    so an error bound must contain the size of the samples. *)
Definition zigzag : list float := [0; 1; 0; 1; 0; 1]%float.
Definition offset : float := 0x1p+54%float.
Theorem C81_offset_refuted :
  oadev zigzag 1%float "phase" (TStr "all") =
    Ok ([1; 2], [0x1.6a09e667f3bcdp+0; 0], EArr [0x1.6a09e667f3bcdp-1; 0], [4; 2]%Z)%float /\
  oadev (map (fun a => a + offset)%float zigzag) 1%float "phase" (TStr "all") =
    Ok ([1; 2], [0; 0], EArr [0; 0], [4; 2]%Z)%float.
Proof. split; vm_compute; reflexivity. Qed.
Print Assumptions C81_offset_refuted.

Lemma fR_1_2_4_8 : fR 1%float = 1 /\ fR 2%float = 2 /\ fR 4%float = 4 /\ fR 8%float = 8.
Proof.
  repeat split; rewrite fR_SF.
  - replace (FloatOps.Prim2SF 1%float) with (S754_finite false 4503599627370496 (-52)) by reflexivity. cbn. unfold F2R. cbn. lra.
  - replace (FloatOps.Prim2SF 2%float) with (S754_finite false 4503599627370496 (-51)) by reflexivity. cbn. unfold F2R. cbn. lra.
  - replace (FloatOps.Prim2SF 4%float) with (S754_finite false 4503599627370496 (-50)) by reflexivity. cbn. unfold F2R. cbn. lra.
  - replace (FloatOps.Prim2SF 8%float) with (S754_finite false 4503599627370496 (-49)) by reflexivity. cbn. unfold F2R. cbn. lra.
Qed.

(** The hypotheses hold for an ordinary record, and the result is then a table. *)
Example C81_ex : let x := [1; 2; 4; 8; 8]%float in bounded_record x 8 /\ moderate_rate 10%float /\
  same_request 10%float (TStr "all") (TStr "all") /\
  exists rows, oadev x 10%float "phase" (TStr "all") = Ok (tableF 10%float rows) /\
    oadev (map fR x) (fR 10%float) "phase" (TStr "all") = Ok (tableR (fR 10%float) rows) /\
    map r_n rows = [3]%Z /\ Forall (accurate 5 9 8 10%float) rows.
Proof.
  intro x. destruct fR_1_2_4_8 as (V1 & V2 & V4 & V8).
  assert (Hx : bounded_record x 8).
  { split; [cbn; lia|]. split.
    - change 8 with (bpow radix2 3). split; apply bpow_le; lia.
    - repeat constructor; try (now apply ffin_SF); rewrite ?V1, ?V2, ?V4, ?V8, Rabs_pos_eq; lra. }
  assert (Hr : moderate_rate 10%float).
  { split; [now apply ffin_SF|]. rewrite fR_10. split.
    - apply Rle_trans with (bpow radix2 0); [apply bpow_le; lia|cbn; lra].
    - apply Rle_trans with (bpow radix2 4); [cbn; lra|apply bpow_le; lia]. }
  assert (Hs : same_request 10%float (TStr "all") (TStr "all")).
  { left. exists "all"%string. split; [cbn; tauto|]. split; (left; reflexivity) || reflexivity. }
  split; [exact Hx|]. split; [exact Hr|]. split; [exact Hs|].
  destruct (C81_accuracy x 10%float 8 _ _ Hx ltac:(discriminate) Hr Hs) as (_ & [[E _]|(rows & E1 & E2 & _ & A)] & _).
  - exfalso. revert E. vm_compute. discriminate.
  - exists rows. split; [exact E1|]. split; [exact E2|]. split; [|exact A].
    assert (G : forall r : @result float, oadev x 10%float "phase" (TStr "all") = Ok r -> snd r = [3]%Z).
    { intros r. vm_compute. intro Q. injection Q as <-. reflexivity. }
    exact (G _ E1).
Qed.
