(** * Accuracy of mdev and tdev in binary64 (C84).

    mdev (allantools.py 233-264) adds the first m second differences up and
    then lets np.cumsum slide the window along the record, so that rounding
    errors accumulate from one end of the record to the other. *)
From Coq Require Import ZArith Floats Reals Lra Lia Psatz String List Bool Sorted Permutation.
From Flocq Require Import Core.Core IEEE754.BinarySingleNaN.
From Verif Require Import Base Num NpList NumF NumR ListFacts Spec RSum ModelCore ModelDev FloatFacts FloatErr
  GenericProofs TauProofs TauLaws DevProofs Laws3 PropsFloatTau PropsFloatErr.
Import ListNotations.
Local Open Scope R_scope.
Local Notation len := List.length.
Local Notation float := Coq.Floats.PrimFloat.float.

(** ** Sums of signed numbers in any order of association *)
Fixpoint absum (l : list float) : R := match l with [] => 0 | x :: l => Rabs (fR x) + absum l end.
Lemma absum_app a b : absum (a ++ b) = absum a + absum b.
Proof. induction a as [|x a IH]; cbn; [ring|rewrite IH; ring]. Qed.
Lemma absum_nonneg l : 0 <= absum l.
Proof. induction l as [|x l IH]; cbn; [lra|]. pose proof (Rabs_pos (fR x)). lra. Qed.
Lemma absum_perm l l' : Permutation l l' -> absum l = absum l'.
Proof. induction 1; cbn; lra. Qed.
Lemma rsum_absum l : Rabs (rsum l) <= absum l.
Proof. induction l as [|x l IH]; cbn; [rewrite Rabs_R0; lra|]. eapply Rle_trans; [apply Rabs_triang|]. lra. Qed.

Lemma fsum_signed t : Forall ffin (leaves t) -> absum (leaves t) <= bpow radix2 999 ->
  (Z.of_nat (len (leaves t)) <= 2 ^ 42)%Z ->
  ffin (fsum t) /\ Rabs (fR (fsum t) - rsum (leaves t)) <= ((1 + u64) ^ (len (leaves t) - 1) - 1) * absum (leaves t).
Proof.
  induction t as [x|l IHl r IHr]; cbn [leaves fsum].
  - intros H _ _. inversion H as [|? ? Fx _]; subst. cbn. split; [exact Fx|].
    rewrite Rplus_0_r, Rminus_diag_eq, Rabs_R0 by reflexivity. lra.
  - intros H B N. apply Forall_app in H as [Hl Hr]. rewrite rsum_app. rewrite absum_app in B |- *. rewrite app_length in N |- *.
    pose proof (absum_nonneg (leaves l)) as Pl. pose proof (absum_nonneg (leaves r)) as Pr.
    pose proof (leaves_pos l) as Ll. pose proof (leaves_pos r) as Lr.
    destruct (IHl Hl ltac:(lra) ltac:(lia)) as [Fl El]. destruct (IHr Hr ltac:(lra) ltac:(lia)) as [Fr Er].
    pose proof (rsum_absum (leaves l)) as Ql. pose proof (rsum_absum (leaves r)) as Qr.
    set (nl := len (leaves l)) in *. set (nr := len (leaves r)) in *.
    set (sl := rsum (leaves l)) in *. set (sr := rsum (leaves r)) in *.
    set (al := absum (leaves l)) in *. set (ar := absum (leaves r)) in *.
    set (a := fR (fsum l)) in *. set (b := fR (fsum r)) in *.
    pose proof (pow_u_ge1 (nl - 1)) as Gl. pose proof (pow_u_ge1 (nr - 1)) as Gr. pose proof u64_pos as Pu.
    set (p := (1 + u64) ^ (nl + nr - 2)).
    assert (Pl' : (1 + u64) ^ (nl - 1) <= p) by (apply Rle_pow; [lra|lia]).
    assert (Pr' : (1 + u64) ^ (nr - 1) <= p) by (apply Rle_pow; [lra|lia]).
    assert (E : Rabs (a + b - (sl + sr)) <= (p - 1) * (al + ar)).
    { replace (a + b - (sl + sr)) with ((a - sl) + (b - sr)) by ring. eapply Rle_trans; [apply Rabs_triang|].
      rewrite Rmult_plus_distr_l. apply Rplus_le_compat.
      - eapply Rle_trans; [exact El|]. apply Rmult_le_compat_r; lra.
      - eapply Rle_trans; [exact Er|]. apply Rmult_le_compat_r; lra. }
    assert (Sm : p - 1 <= / 1000) by (apply pow_u_small; lia).
    assert (Q : Rabs (sl + sr) <= al + ar) by (eapply Rle_trans; [apply Rabs_triang|lra]).
    assert (A : Rabs (a + b) <= p * (al + ar)).
    { replace (a + b) with ((a + b - (sl + sr)) + (sl + sr)) by ring. eapply Rle_trans; [apply Rabs_triang|]. lra. }
    assert (O : Rabs (a + b) <= bpow radix2 1000).
    { eapply Rle_trans; [exact A|]. change 1000%Z with (999 + 1)%Z. rewrite bpow_plus. change (bpow radix2 1) with 2. nra. }
    destruct (fadd_err _ _ Fl Fr O) as [F V]. split; [exact F|].
    fold a b in V. replace (nl + nr - 1)%nat with (S (nl + nr - 2)) by lia. cbn [pow]. fold p.
    replace (fR (fsum l + fsum r)%float - (sl + sr)) with ((fR (fsum l + fsum r)%float - (a + b)) + (a + b - (sl + sr))) by ring.
    eapply Rle_trans; [apply Rabs_triang|]. nra.
Qed.

(** [s] is the sum of [v] in some order and grouping, possibly starting from a zero *)
Definition sum_of (v : list float) (s : float) : Prop :=
  exists t z, s = fsum t /\ (z <= 1)%nat /\ Permutation (leaves t) (repeat (f_ofZ 0) z ++ v).
Lemma sum_left v : sum_of v (asum v).
Proof. destruct (asum_tree v) as (t & E & L). exists t, 1%nat. split; [exact E|]. split; [lia|]. now rewrite L. Qed.

Lemma absum_tab n (q : nat -> float) B : 0 <= B -> (forall k, (k < n)%nat -> Rabs (fR (q k)) <= B) -> absum (tab n q) <= INR n * B.
Proof.
  intro PB. revert q. induction n as [|n IH]; intros q H; [cbn; lra|].
  rewrite tab_S, S_INR. cbn [absum]. pose proof (H 0%nat ltac:(lia)). pose proof (IH (fun i => q (S i)) ltac:(intros; apply H; lia)). lra.
Qed.

Lemma sum_err n (q : nat -> float) B s : (1 <= n)%nat -> (Z.of_nat n <= 2 ^ 40)%Z -> 0 <= B <= bpow radix2 900 ->
  (forall k, (k < n)%nat -> ffin (q k) /\ Rabs (fR (q k)) <= B) -> sum_of (tab n q) s ->
  ffin s /\ Rabs (fR s - bigsum n (fun k => fR (q k))) <= (1 + / 1000) * (INR n * u64) * (INR n * B).
Proof.
  intros Hn1 Hn HB Hq (t & z & -> & Hz & Lt).
  destruct (fofZ_ok 0 ltac:(lia)) as [F0 V0].
  assert (LL : len (leaves t) = (z + n)%nat) by (rewrite (Permutation_length Lt), app_length, repeat_length; now rewrite tab_length).
  assert (RS : rsum (leaves t) = bigsum n (fun k => fR (q k))).
  { rewrite (rsum_perm _ _ Lt), rsum_app, rsum_tab. destruct z as [|[|z]]; [cbn; ring|cbn [repeat rsum]; rewrite V0; ring|lia]. }
  assert (AS : absum (leaves t) <= INR n * B).
  { rewrite (absum_perm _ _ Lt), absum_app. pose proof (absum_tab n q B (proj1 HB) (fun k Hk => proj2 (Hq k Hk))).
    destruct z as [|[|z]]; [cbn; lra|cbn [repeat absum]; rewrite V0, Rabs_R0; lra|lia]. }
  assert (NB : INR n <= bpow radix2 40).
  { rewrite INR_IZR_INZ. change (bpow radix2 40) with (IZR (2 ^ 40)). now apply IZR_le. }
  assert (O : INR n * B <= bpow radix2 999).
  { apply Rle_trans with (bpow radix2 40 * bpow radix2 900); [|rewrite <- bpow_plus; apply bpow_le; lia].
    apply Rmult_le_compat; try lra. apply pos_INR. }
  destruct (fsum_signed t) as [F E].
  - apply (Permutation_Forall (Permutation_sym Lt)), Forall_app. split.
    + apply Forall_forall. intros y Hy. apply repeat_spec in Hy as ->. exact F0.
    + apply Forall_tab. intros i Hi. apply Hq, Hi.
  - lra.
  - lia.
  - split; [exact F|]. rewrite RS, LL in E. eapply Rle_trans; [exact E|].
    pose proof u64_pos as Pu. pose proof (pow_u_ge1 (z + n - 1)) as G.
    apply Rmult_le_compat; [lra|apply absum_nonneg| |exact AS].
    apply Rle_trans with ((1 + u64) ^ n - 1); [|apply pow_u_le; lia].
    apply Rplus_le_compat_r, Rle_pow; [lra|lia].
Qed.

(** ** calc_mdev_phase over any number type *)
Section Gen.
Context {A : Type} {NA : Num A}.
Fixpoint csum (g : nat -> A) (j : nat) : A := match j with O => g O | S k => nadd (csum g k) (g (S k)) end.
Lemma cumsum_from_gen (g : nat -> A) : forall n k, cumsum_from (csum g k) (tab n (fun i => g (S (k + i)))) = tab n (fun i => csum g (S (k + i))).
Proof.
  induction n as [|n IH]; intro k; [reflexivity|]. rewrite !tab_S. cbn [cumsum_from]. rewrite Nat.add_0_r. f_equal.
  etransitivity; [|etransitivity; [apply (IH (S k))|]].
  - cbn [csum]. f_equal. apply tab_ext. intros i _. f_equal. lia.
  - apply tab_ext. intros i _. f_equal. lia.
Qed.
Lemma cumsum_gen n (g : nat -> A) : cumsum (tab n g) = tab n (csum g).
Proof.
  destruct n as [|n]; [reflexivity|]. rewrite !tab_S. unfold cumsum. f_equal.
  etransitivity; [|etransitivity; [apply (cumsum_from_gen g n 0)|]]; [reflexivity|]. apply tab_ext. intros i _. reflexivity.
Qed.

Definition sd (f : nat -> A) (m i : nat) : A := nadd (nsub (f (2 * m + i)%nat) (nmul (ofZ 2) (f (m + i)%nat))) (f i).
Definition td (f : nat -> A) (m k : nat) : A :=
  nsub (nadd (nsub (f (3 * m + k)%nat) (nmul (ofZ 3) (f (2 * m + k)%nat))) (nmul (ofZ 3) (f (m + k)%nat))) (f k).
(** the window sums: the first one given, the others by sliding *)
Definition window (f : nat -> A) (m : nat) (v : A) (j : nat) : A := match j with O => v | S k => nadd v (csum (td f m) k) end.

Lemma calc_mdev_gen N (f : nat -> A) rate m : (3 * m <= N)%nat ->
  let n := S (N - 3 * m) in let v := asum (tab m (sd f m)) in let tau := ndiv (ofN m) rate in
  let s := nadd (nmul v v) (sumsq (tab (N - 3 * m) (fun k => nadd v (csum (td f m) k)))) in
  let dev := nsqrt (ndiv s (nmul (nmul (nmul (nmul (nmul (ofZ 2) (ofN m)) (ofN m)) tau) tau) (ofN n))) in
  calc_mdev_phase (tab N f) rate m = Ok (dev, ndiv dev (nsqrt (ofN n)), Z.of_nat n).
Proof.
  intros HN n v tau s dev. unfold calc_mdev_phase. cbv zeta.
  rewrite !pyslice_tab, !skipn_tab, !tab_length.
  rewrite (min3_eq (Nat.min (m - 0) (N - 0))) by lia. rewrite (min4_eq N) by lia.
  unfold second_diff, third_diff, scal, vsub, vadd.
  rewrite !firstn_tab.
  replace (Nat.min (Nat.min (3 * m - 2 * m) (N - 2 * m)) (Nat.min (3 * m - 2 * m) (N - 2 * m))) with m by lia.
  replace (Nat.min (Nat.min (3 * m - 2 * m) (N - 2 * m)) (Nat.min (2 * m - m) (N - m))) with m by lia.
  replace (Nat.min (Nat.min (3 * m - 2 * m) (N - 2 * m)) (Nat.min (m - 0) (N - 0))) with m by lia.
  replace (Nat.min (N - 3 * m) (N - 3 * m)) with (N - 3 * m)%nat by lia.
  replace (Nat.min (N - 3 * m) (N - 2 * m)) with (N - 3 * m)%nat by lia.
  replace (Nat.min (N - 3 * m) (N - 1 * m)) with (N - 3 * m)%nat by lia.
  replace (Nat.min (N - 3 * m) N) with (N - 3 * m)%nat by lia.
  rewrite !map_tab. repeat (rewrite !bmap2_tab; cbn [bind]).
  rewrite (tab_ext m _ (sd f m)) by (intros i Hi; reflexivity).
  rewrite (tab_ext (N - 3 * m) _ (td f m)) by (intros i Hi; unfold td; replace (1 * m + i)%nat with (m + i)%nat by lia; reflexivity).
  rewrite cumsum_gen, map_tab. reflexivity.
Qed.

Lemma calc_mdev_short_gen N (f : nat -> A) rate m : (1 <= m)%nat -> (N < 3 * m)%nat ->
  exists d e, calc_mdev_phase (tab N f) rate m = Ok (d, e, 1%Z).
Proof.
  intros Hm HN. unfold calc_mdev_phase. cbv zeta.
  rewrite !pyslice_tab, !skipn_tab, !tab_length.
  rewrite min3_eq by lia. rewrite min4_eq by lia.
  replace (N - 3 * m)%nat with 0%nat by lia.
  unfold second_diff, third_diff, scal, vsub, vadd.
  rewrite !firstn_tab. cbn [firstn map].
  set (a := Nat.min (3 * m - 2 * m) (N - 2 * m)).
  replace (Nat.min a a) with a by lia.
  replace (Nat.min a (Nat.min (2 * m - m) (N - m))) with a by lia.
  replace (Nat.min a (Nat.min (m - 0) (N - 0))) with a by lia. cbn [Nat.min].
  rewrite ?map_tab. repeat (rewrite !bmap2_tab; cbn [bind]).
  eexists _, _. reflexivity.
Qed.
End Gen.

(** ** Division by a quantity carrying up to seven roundings, and roots *)
Lemma near_div_approx7 s X j z (t : float) Y : near s X j z -> approx t Y 7 -> 0 < Y -> 0 <= X -> 0 <= z ->
  (Z.of_nat j <= 2 ^ 41)%Z -> X / Y <= / 4 * bpow radix2 990 -> z / Y <= / 4 * bpow radix2 990 ->
  near (s / t)%float (X / Y) (S (8 + j)) ((1 + u64) * ((1 + / 1000) * (z / Y)) + eta).
Proof.
  intros (F & P & E) [Ft Et] PY PX Pz Hj B Bz. rewrite (Rabs_pos_eq Y) in Et by lra.
  assert (Uq : 0 < u64 <= / 4096 * / 4096) by (split; [apply u64_pos|unfold u64; lra]).
  pose proof (pow_u_small j ltac:(lia)) as Sm. pose proof (pow_u_ge1 j) as G.
  destruct (pow_u_bound 7 ltac:(lia)) as [C0 C1]. cbn [INR] in C1.
  pose proof (pow_u_small 8 ltac:(lia)) as H8.
  assert (Eh : (1 + u64) ^ 8 = (1 + u64) * (1 + u64) ^ 7) by reflexivity.
  set (c := (1 + u64) ^ 7) in *. set (a := (1 + u64) ^ j) in *. set (h := (1 + u64) ^ 8) in *.
  assert (IY : 0 < / Y) by (now apply Rinv_0_lt_compat).
  apply Rabs_le_inv in Et.
  assert (Uc : c - 1 <= / 2) by lra.
  assert (Uc' : (c - 1) * Y <= / 2 * Y) by (apply Rmult_le_compat_r; lra).
  assert (Pt : / 2 * Y <= fR t) by lra. assert (Pt0 : 0 < fR t) by lra.
  assert (It : 0 < / fR t) by (now apply Rinv_0_lt_compat).
  set (g := Y / fR t).
  assert (Gt : g * fR t = Y) by (unfold g; field; lra).
  assert (Ph : 1 <= h) by (apply pow_u_ge1).
  assert (Gg : Rabs (g - 1) <= h - 1).
  { assert (K : (c - 1) * Y <= (h - 1) * fR t).
    { apply Rle_trans with ((h - 1) * ((1 - (c - 1)) * Y)).
      - rewrite <- Rmult_assoc. apply Rmult_le_compat_r; [lra|]. rewrite Eh. set (w := c - 1) in *.
        replace c with (1 + w) by (unfold w; ring).
        assert (Ww : w * w <= 8 * u64 * w) by (apply Rmult_le_compat_r; lra).
        assert (Wu : 8 * u64 * w <= 64 * u64 * u64) by nra. nra.
      - apply Rmult_le_compat_l; lra. }
    replace (g - 1) with ((Y - fR t) * / fR t) by (unfold g; field; lra).
    rewrite Rabs_mult, (Rabs_pos_eq (/ fR t)) by lra.
    apply (Rmult_le_reg_r (fR t)); [exact Pt0|]. rewrite Rmult_assoc, Rinv_l, Rmult_1_r by lra.
    eapply Rle_trans; [|exact K]. apply Rabs_le. lra. }
  assert (Pv : 0 <= fR s / fR t) by (apply Rmult_le_pos; lra).
  assert (PXY : 0 <= X / Y) by (apply Rmult_le_pos; lra).
  assert (PzY : 0 <= z / Y) by (apply Rmult_le_pos; lra).
  assert (E1 : Rabs (fR s / Y - X / Y) <= (a - 1) * (X / Y) + z / Y).
  { replace (fR s / Y - X / Y) with ((fR s - X) * / Y) by (unfold Rdiv; ring). rewrite Rabs_mult, (Rabs_pos_eq (/ Y)) by lra.
    replace ((a - 1) * (X / Y) + z / Y) with (((a - 1) * X + z) * / Y) by (unfold Rdiv; ring).
    apply Rmult_le_compat_r; lra. }
  assert (PsY : 0 <= fR s / Y) by (apply Rmult_le_pos; lra).
  assert (UsY : fR s / Y <= a * (X / Y) + z / Y) by (apply Rabs_le_inv in E1; lra).
  assert (E2 : Rabs (fR s / fR t - X / Y) <= ((1 + u64) ^ (8 + j) - 1) * (X / Y) + (1 + / 1000) * (z / Y)).
  { rewrite pow_add. fold h a. replace (fR s / fR t) with (fR s / Y * g) by (unfold g; field; lra).
    replace (fR s / Y * g - X / Y) with (fR s / Y * (g - 1) + (fR s / Y - X / Y)) by ring.
    eapply Rle_trans; [apply Rabs_triang|]. rewrite Rabs_mult, (Rabs_pos_eq (fR s / Y)) by exact PsY.
    assert (fR s / Y * Rabs (g - 1) <= (a * (X / Y) + z / Y) * (h - 1)) by (apply Rmult_le_compat; auto using Rabs_pos).
    assert ((h - 1) * (z / Y) <= / 1000 * (z / Y)) by (apply Rmult_le_compat_r; lra). nra. }
  pose proof bpow1000_2 as B2. pose proof (bpow_ge_0 radix2 990) as B0.
  pose proof (pow_u_small (8 + j) ltac:(lia)) as Sm3. pose proof (pow_u_ge1 (8 + j)) as G3.
  assert (O : Rabs (fR s / fR t) <= bpow radix2 1000).
  { rewrite Rabs_pos_eq by exact Pv. apply Rabs_le_inv in E2. set (b := (1 + u64) ^ (8 + j)) in *. nra. }
  destruct (fdiv_ok s t F ltac:(lra) (rnd_bound _ O)) as [F' V].
  apply (near_round _ (fR s / fR t)); auto. nra.
Qed.

Lemma near_sqrt_gen s X j z y : near s X j z -> 0 <= X -> 0 <= y -> z <= y * y -> (Z.of_nat j <= 2 ^ 42)%Z ->
  near (Coq.Floats.PrimFloat.sqrt s) (R_sqrt.sqrt X) (S j) (2 * y).
Proof.
  intros (F & P & E) PX Py Hz Hj. destruct (fsqrt_err s F P) as (F' & P' & E'). split; [exact F'|]. split; [exact P'|].
  pose proof (pow_u_small j Hj) as Sm. pose proof (pow_u_ge1 j) as G. pose proof u64_pos as Pu.
  set (T := R_sqrt.sqrt X) in *.
  assert (TT : T * T = X) by (now apply sqrt_sqrt). assert (PT : 0 <= T) by apply sqrt_pos.
  assert (Q : Rabs (R_sqrt.sqrt (fR s) - T) <= ((1 + u64) ^ j - 1) * T + y).
  { apply sqrt_pert; try lra. rewrite TT. lra. }
  set (r := fR (Coq.Floats.PrimFloat.sqrt s)) in *. set (w := R_sqrt.sqrt (fR s)) in *.
  replace (r - T) with ((r - w) + (w - T)) by ring. eapply Rle_trans; [apply Rabs_triang|].
  apply Rabs_le_inv in Q as Q'. cbn [pow]. set (a := (1 + u64) ^ j) in *.
  assert (u64 <= / 8) by (unfold u64; lra). nra.
Qed.

Lemma bigsum_abs n g : Rabs (bigsum n g) <= bigsum n (fun i => Rabs (g i)).
Proof.
  induction n as [|k IH]; cbn [bigsum]; [rewrite Rabs_R0; lra|]. eapply Rle_trans; [apply Rabs_triang|]. lra.
Qed.

Lemma near_mul_approx (t : float) Y i s X j z : approx t Y i -> near s X j z -> 0 < Y -> 0 <= X -> 0 <= z -> (i <= 7)%nat ->
  (Z.of_nat j <= 2 ^ 41)%Z -> Y * X <= / 4 * bpow radix2 990 -> Y * z <= / 4 * bpow radix2 990 ->
  near (t * s)%float (Y * X) (S (i + j)) ((1 + u64) * ((1 + / 1000) * (Y * z)) + eta).
Proof.
  intros [Ft Et] (F & P & E) PY PX Pz Hi Hj B Bz. rewrite (Rabs_pos_eq Y) in Et by lra.
  pose proof (pow_u_small j ltac:(lia)) as Sm. pose proof (pow_u_ge1 j) as G.
  pose proof (pow_u_small i ltac:(lia)) as Si. pose proof (pow_u_ge1 i) as Gi.
  pose proof (pow_u_small (i + j) ltac:(lia)) as Sij.
  assert (Pt : 0 <= fR t) by (apply Rabs_le_inv in Et; nra).
  assert (E2 : Rabs (fR t * fR s - Y * X) <= ((1 + u64) ^ (i + j) - 1) * (Y * X) + (1 + / 1000) * (Y * z)).
  { replace (fR t * fR s - Y * X) with (fR t * (fR s - X) + (fR t - Y) * X) by ring.
    eapply Rle_trans; [apply Rabs_triang|]. rewrite !Rabs_mult, (Rabs_pos_eq (fR t)), (Rabs_pos_eq X) by lra. rewrite pow_add.
    set (a := (1 + u64) ^ j) in *. set (b := (1 + u64) ^ i) in *.
    assert (Ut : fR t <= b * Y) by (apply Rabs_le_inv in Et; lra).
    assert (T1 : fR t * Rabs (fR s - X) <= (b * Y) * ((a - 1) * X + z)) by (apply Rmult_le_compat; auto using Rabs_pos).
    assert (T2 : Rabs (fR t - Y) * X <= (b - 1) * Y * X) by (apply Rmult_le_compat_r; lra).
    assert (0 <= Y * z) by nra. assert (b * (Y * z) <= (1 + / 1000) * (Y * z)) by (apply Rmult_le_compat_r; lra). nra. }
  assert (PYX : 0 <= Y * X) by nra. assert (PYz : 0 <= Y * z) by nra. assert (Pv : 0 <= fR t * fR s) by nra.
  pose proof bpow1000_2 as B2. pose proof (bpow_ge_0 radix2 990) as B0. pose proof (pow_u_ge1 (i + j)) as Gij.
  assert (O : Rabs (fR t * fR s) <= bpow radix2 1000).
  { rewrite Rabs_pos_eq by exact Pv. apply Rabs_le_inv in E2. set (b := (1 + u64) ^ (i + j)) in *. nra. }
  destruct (fmul_ok t s Ft F (rnd_bound _ O)) as [F' V].
  apply (near_round _ (fR t * fR s)); auto. nra.
Qed.

(** positive numbers between two powers of two *)
Definition rg (v : R) (a b : Z) : Prop := bpow radix2 a <= v <= bpow radix2 b.
Lemma rg_mul v w a b c d : rg v a b -> rg w c d -> rg (v * w) (a + c) (b + d).
Proof.
  intros [H1 H2] [H3 H4]. pose proof (bpow_gt_0 radix2 a). pose proof (bpow_gt_0 radix2 c). unfold rg. rewrite !bpow_plus.
  split; apply Rmult_le_compat; lra.
Qed.
Lemma rg_inv v a b : rg v a b -> rg (/ v) (- b) (- a).
Proof.
  intros [H1 H2]. pose proof (bpow_gt_0 radix2 a). unfold rg. rewrite !bpow_opp. split; apply Rinv_le; try lra.
Qed.
Lemma rg_nat k : (1 <= k)%nat -> (Z.of_nat k <= 2 ^ 40)%Z -> rg (INR k) 0 40.
Proof.
  intros H1 H2. split; [change (bpow radix2 0) with 1; change 1 with (INR 1); now apply le_INR|].
  rewrite INR_IZR_INZ. change (bpow radix2 40) with (IZR (2 ^ 40)). now apply IZR_le.
Qed.
Lemma rg_pos v a b : rg v a b -> 0 < v.
Proof. intros [H _]. pose proof (bpow_gt_0 radix2 a). lra. Qed.
Lemma rg_mid v a b : rg v a b -> (-1000 <= a)%Z -> (b <= 1000)%Z -> mid v.
Proof.
  intros H Ha Hb. pose proof (rg_pos _ _ _ H). destruct H as [H1 H2]. unfold mid. rewrite Rabs_pos_eq by lra.
  split; [eapply Rle_trans; [|exact H1]|eapply Rle_trans; [exact H2|]]; now apply bpow_le.
Qed.
Lemma rg_le v a b e : rg v a b -> (b <= e)%Z -> v <= bpow radix2 e.
Proof. intros [_ H] L. eapply Rle_trans; [exact H|now apply bpow_le]. Qed.
Lemma rg_ge v a b e : rg v a b -> (e <= a)%Z -> bpow radix2 e <= v.
Proof. intros [H _] L. apply Rle_trans with (bpow radix2 a); [now apply bpow_le|exact H]. Qed.

(** ** The window sums *)
Section Row.
Variables (N m : nat) (f : nat -> float) (M : R) (v0 : float).
Hypothesis HN : (Z.of_nat N <= 2 ^ 40)%Z.
Hypothesis Hm : (1 <= m)%nat.
Hypothesis H3m : (3 * m <= N)%nat.
Hypothesis HM : bpow radix2 (-200) <= M <= bpow radix2 200.
Hypothesis Hf : forall i, (i < N)%nat -> ffin (f i) /\ Rabs (fR (f i)) <= M.
Hypothesis Hv0 : sum_of (tab m (sd f m)) v0.

Let n := S (N - 3 * m).
Let dd (i : nat) : R := fR (f (2 * m + i)%nat) - 2 * fR (f (m + i)%nat) + fR (f i).
Let W (j : nat) : R := bigsum m (fun i => dd (j + i)).
Let Vh := window f m v0.
Let U : R := u64 * M.

Lemma row_consts : 0 < M /\ 0 < u64 <= / 4096 * / 4096 /\ 0 < U <= / 4096 * M /\ 1 <= INR m /\ 1 <= INR n /\
  INR n + 2 * INR m <= INR N /\ INR N * u64 <= / 8192 /\ INR m * INR m * U <= / 8192 * (INR m * M) /\ INR N <= bpow radix2 40.
Proof.
  assert (PM : 0 < M) by (pose proof (bpow_gt_0 radix2 (-200)); lra).
  assert (Uq : 0 < u64 <= / 4096 * / 4096) by (split; [apply u64_pos|unfold u64; lra]).
  assert (Pm : 1 <= INR m) by (change 1 with (INR 1); now apply le_INR).
  assert (Pn : 1 <= INR n) by (change 1 with (INR 1); apply le_INR; unfold n; lia).
  assert (NN : INR n + 2 * INR m <= INR N).
  { change 2 with (INR 2). rewrite <- mult_INR, <- plus_INR. apply le_INR. unfold n. lia. }
  assert (NB : INR N <= bpow radix2 40).
  { rewrite INR_IZR_INZ. change (bpow radix2 40) with (IZR (2 ^ 40)). now apply IZR_le. }
  assert (NU : INR N * u64 <= / 8192).
  { apply Rle_trans with (bpow radix2 40 * u64); [apply Rmult_le_compat_r; lra|].
    change (bpow radix2 40) with (IZR (2 ^ 40)). unfold u64. cbn. lra. }
  split; [exact PM|]. split; [exact Uq|]. split; [unfold U; split; nra|]. repeat (split; [assumption|]). split; [|exact NB].
  unfold U. assert (INR m * u64 <= / 8192) by nra.
  replace (INR m * INR m * (u64 * M)) with (INR m * u64 * (INR m * M)) by ring. apply Rmult_le_compat_r; nra.
Qed.

Lemma sd_ok i : (2 * m + i < N)%nat -> ffin (sd f m i) /\ Rabs (fR (sd f m i) - dd i) <= 8 * U /\ Rabs (dd i) <= 4 * M.
Proof.
  intros Hi. destruct (Hf (2 * m + i)%nat Hi) as [F2 H2]. destruct (Hf (m + i)%nat ltac:(lia)) as [F1 H1].
  destruct (Hf i ltac:(lia)) as [F0 H0].
  assert (HM4 : M <= bpow radix2 400) by (eapply Rle_trans; [apply HM|apply bpow_le; lia]).
  destruct (d2_err _ _ _ M F2 F1 F0 H2 H1 H0 HM4) as [F E]. split; [exact F|]. split.
  - unfold U. rewrite <- Rmult_assoc. exact E.
  - apply (abs3 _ _ _ M H2 H1 H0).
Qed.

Lemma td_ok k : (3 * m + k < N)%nat -> ffin (td f m k) /\ Rabs (fR (td f m k) - (W (S k) - W k)) <= 28 * U.
Proof.
  intros Hk. destruct (Hf (3 * m + k)%nat Hk) as [F3 H3]. destruct (Hf (2 * m + k)%nat ltac:(lia)) as [F2 H2].
  destruct (Hf (m + k)%nat ltac:(lia)) as [F1 H1]. destruct (Hf k ltac:(lia)) as [F0 H0].
  assert (HM4 : bpow radix2 (-400) <= M <= bpow radix2 400).
  { split; [eapply Rle_trans; [|apply HM]|eapply Rle_trans; [apply HM|]]; apply bpow_le; lia. }
  destruct (d3_err _ _ _ _ M F3 F2 F1 F0 H3 H2 H1 H0 HM4) as [F E]. split; [exact F|].
  replace (W (S k) - W k) with (fR (f (3 * m + k)%nat) - 3 * fR (f (2 * m + k)%nat) + 3 * fR (f (m + k)%nat) - fR (f k)).
  - unfold U. rewrite <- Rmult_assoc. exact E.
  - unfold W. rewrite (window_slide dd m (S k)), (window_slide dd m k). cbn [bigsum]. unfold dd.
    replace (2 * m + (k + m))%nat with (3 * m + k)%nat by lia. replace (m + (k + m))%nat with (2 * m + k)%nat by lia.
    replace (k + m)%nat with (m + k)%nat by lia. ring.
Qed.

Lemma W_bound j : (j + 3 * m <= N)%nat -> Rabs (W j) <= 4 * (INR m * M).
Proof.
  intros Hj. unfold W. apply Rle_trans with (bigsum m (fun i => Rabs (dd (j + i)))).
  - apply (bigsum_abs m (fun i => dd (j + i))).
  - apply Rle_trans with (bigsum m (fun _ => 4 * M)).
    + apply bigsum_le. intros i Hi. apply sd_ok. lia.
    + rewrite bigsum_const. lra.
Qed.

Lemma v0_ok : ffin v0 /\ Rabs (fR v0 - W 0) <= U * (5 * (INR m * INR m) + 8 * INR m).
Proof.
  destruct row_consts as (PM & Uq & UM & Pm & Pn & NN & NU & MU & NB).
  assert (B900 : 5 * M <= bpow radix2 900).
  { apply Rle_trans with (bpow radix2 3 * bpow radix2 200); [change (bpow radix2 3) with 8; lra|].
    rewrite <- bpow_plus. apply bpow_le. lia. }
  destruct (sum_err m (sd f m) ((4 + / 100) * M) v0) as [F E]; auto; [lia|split; nra| |].
  { intros k Hk. destruct (sd_ok k ltac:(lia)) as (F & E & B). split; [exact F|]. apply Rabs_le_inv in E, B. apply Rabs_le. lra. }
  split; [exact F|].
  assert (E2 : Rabs (bigsum m (fun k => fR (sd f m k)) - W 0) <= INR m * (8 * U)).
  { unfold W. rewrite <- bigsum_minus, <- bigsum_const.
    assert (Q : forall k, (k <= m)%nat -> Rabs (bigsum k (fun i => fR (sd f m i) - dd (0 + i))) <= bigsum k (fun _ => 8 * U)).
    { induction k as [|k IH]; intro Hk; cbn [bigsum]; [rewrite Rabs_R0; lra|].
      eapply Rle_trans; [apply Rabs_triang|]. apply Rplus_le_compat; [apply IH; lia|]. apply sd_ok. lia. }
    apply Q. lia. }
  replace (fR v0 - W 0) with ((fR v0 - bigsum m (fun k => fR (sd f m k))) + (bigsum m (fun k => fR (sd f m k)) - W 0)) by ring.
  eapply Rle_trans; [apply Rabs_triang|].
  replace ((1 + / 1000) * (INR m * u64) * (INR m * ((4 + / 100) * M))) with ((1 + / 1000) * (4 + / 100) * (INR m * INR m * U)) in E by (unfold U; ring).
  assert (0 <= INR m * INR m * U) by (apply Rmult_le_pos; nra). nra.
Qed.

Lemma csum_ok k : (3 * m + k < N)%nat -> ffin (csum (td f m) k) /\
  Rabs (fR (csum (td f m) k) - (W (S k) - W 0)) <= INR (S k) * (U * (9 * INR m + 29)).
Proof.
  destruct row_consts as (PM & Uq & UM & Pm & Pn & NN & NU & MU & NB).
  induction k as [|k IH]; intro Hk.
  - destruct (td_ok 0 Hk) as [F E]. cbn [csum]. split; [exact F|]. eapply Rle_trans; [exact E|]. cbn [INR]. nra.
  - destruct (IH ltac:(lia)) as [F E]. destruct (td_ok (S k) Hk) as [Ft Et]. cbn [csum].
    set (c := csum (td f m) k) in *. set (t := td f m (S k)) in *.
    pose proof (W_bound (S (S k)) ltac:(lia)) as B1. pose proof (W_bound 0 ltac:(lia)) as B0.
    rewrite (S_INR (S k)).
    assert (KN : INR (S k) + 1 <= INR N) by (rewrite <- S_INR; apply le_INR; lia).
    assert (K0 : 0 <= INR (S k)) by apply pos_INR.
    set (K := INR (S k)) in *. set (mM := INR m * M) in *.
    assert (Small : K * (U * (9 * INR m + 29)) <= / 200 * mM).
    { replace (K * (U * (9 * INR m + 29))) with (K * u64 * (M * (9 * INR m + 29))) by (unfold U; ring).
      assert (K * u64 <= / 8192) by nra.
      apply Rle_trans with (/ 8192 * (M * (9 * INR m + 29))); [apply Rmult_le_compat_r; nra|]. unfold mM. nra. }
    assert (mM1 : M <= mM) by (unfold mM; nra).
    apply Rabs_le_inv in E, Et, B1, B0.
    assert (A : Rabs (fR c + fR t) <= 8 * mM + / 50 * mM) by (apply Rabs_le; lra).
    destruct (fadd_err c t F Ft) as [F' E'].
    { eapply Rle_trans; [exact A|]. apply Rle_trans with (bpow radix2 4 * (bpow radix2 40 * bpow radix2 200)).
      - change (bpow radix2 4) with 16. assert (mM <= bpow radix2 40 * bpow radix2 200) by (unfold mM; apply Rmult_le_compat; lra). nra.
      - rewrite <- !bpow_plus. apply bpow_le. lia. }
    change (@nadd float FNum c t) with (c + t)%float. split; [exact F'|].
    assert (E2 : Rabs (fR (c + t)%float - (fR c + fR t)) <= U * (9 * INR m)).
    { eapply Rle_trans; [exact E'|]. apply Rle_trans with (u64 * (9 * mM)); [apply Rmult_le_compat_l; lra|]. unfold U, mM. nra. }
    apply Rabs_le_inv in E2. apply Rabs_le. lra.
Qed.

Lemma Vh_ok j : (j < n)%nat -> ffin (Vh j) /\ Rabs (fR (Vh j) - W j) <= U * ((9 * INR m + 29) * INR N) /\
  Rabs (W j) <= 4 * (INR m * M).
Proof.
  destruct row_consts as (PM & Uq & UM & Pm & Pn & NN & NU & MU & NB).
  destruct v0_ok as [F0 E0]. intro Hj. unfold n in Hj.
  assert (P1 : 0 <= U * (INR m * INR m)) by (apply Rmult_le_pos; nra).
  assert (P2 : 0 <= U * INR m) by nra.
  assert (K5 : U * (5 * (INR m * INR m) + 8 * INR m) <= U * ((9 * INR m + 29) * (2 * INR m))) by (apply Rmult_le_compat_l; nra).
  assert (K6 : U * ((9 * INR m + 29) * (2 * INR m)) <= U * ((9 * INR m + 29) * INR N)).
  { apply Rmult_le_compat_l; [lra|]. apply Rmult_le_compat_l; lra. }
  destruct j as [|k].
  - split; [exact F0|]. split; [|apply W_bound; lia]. cbn [Vh window]. lra.
  - destruct (csum_ok k ltac:(lia)) as [Fc Ec]. pose proof (W_bound (S k) ltac:(lia)) as B1. pose proof (W_bound 0 ltac:(lia)) as B0.
    unfold Vh. cbn [window]. change (@nadd float FNum v0 (csum (td f m) k)) with (v0 + csum (td f m) k)%float.
    set (c := csum (td f m) k) in *. set (mM := INR m * M) in *.
    assert (mM1 : M <= mM) by (unfold mM; nra).
    assert (KN : INR (S k) <= INR N - 3 * INR m).
    { replace 3 with (INR 3) by (cbn; lra). rewrite <- mult_INR, <- minus_INR by lia. apply le_INR. lia. }
    assert (K0 : 0 <= INR (S k)) by apply pos_INR. set (K := INR (S k)) in *.
    assert (Small : K * (U * (9 * INR m + 29)) <= / 200 * mM).
    { replace (K * (U * (9 * INR m + 29))) with (K * u64 * (M * (9 * INR m + 29))) by (unfold U; ring).
      assert (K * u64 <= / 8192) by nra.
      apply Rle_trans with (/ 8192 * (M * (9 * INR m + 29))); [apply Rmult_le_compat_r; nra|]. unfold mM. nra. }
    assert (Small0 : U * (5 * (INR m * INR m) + 8 * INR m) <= / 100 * mM).
    { replace (U * (5 * (INR m * INR m) + 8 * INR m)) with (5 * (INR m * INR m * U) + 8 * (INR m * U)) by ring.
      assert (INR m * U <= INR m * INR m * U) by nra. fold mM in MU. lra. }
    assert (B1' := B1). apply Rabs_le_inv in E0, Ec, B1, B0.
    assert (A : Rabs (fR v0 + fR c) <= 5 * mM) by (apply Rabs_le; lra).
    destruct (fadd_err v0 c F0 Fc) as [F' E'].
    { eapply Rle_trans; [exact A|]. apply Rle_trans with (bpow radix2 4 * (bpow radix2 40 * bpow radix2 200)).
      - change (bpow radix2 4) with 16. assert (mM <= bpow radix2 40 * bpow radix2 200) by (unfold mM; apply Rmult_le_compat; lra). nra.
      - rewrite <- !bpow_plus. apply bpow_le. lia. }
    split; [exact F'|]. split; [|exact B1'].
    assert (E2 : Rabs (fR (v0 + c)%float - (fR v0 + fR c)) <= U * (5 * INR m)).
    { eapply Rle_trans; [exact E'|]. apply Rle_trans with (u64 * (5 * mM)); [apply Rmult_le_compat_l; lra|]. unfold U, mM. nra. }
    apply Rabs_le_inv in E2.
    assert (Tot : U * (5 * (INR m * INR m) + 8 * INR m) + K * (U * (9 * INR m + 29)) + U * (5 * INR m) <= U * ((9 * INR m + 29) * INR N)).
    { replace (U * (5 * (INR m * INR m) + 8 * INR m) + K * (U * (9 * INR m + 29)) + U * (5 * INR m))
        with (U * (5 * (INR m * INR m) + 13 * INR m + K * (9 * INR m + 29))) by ring.
      apply Rmult_le_compat_l; [lra|].
      apply Rle_trans with (5 * (INR m * INR m) + 13 * INR m + (INR N - 3 * INR m) * (9 * INR m + 29)); [|nra].
      apply Rplus_le_compat_l, Rmult_le_compat_r; lra. }
    apply Rabs_le. lra.
Qed.

(** ** One row *)
Variables (rate : float) (sq : float).
Hypothesis Hr : moderate_rate rate.
Hypothesis Hsq : sum_of_squares (tab n Vh) sq.

Let tauR : R := INR m / fR rate.
Let Y : R := 2 * INR m * INR m * tauR * tauR * INR n.
Let den : float := (f_ofZ 2 * f_ofZ (Z.of_nat m) * f_ofZ (Z.of_nat m) * (f_ofZ (Z.of_nat m) / rate) * (f_ofZ (Z.of_nat m) / rate)
                    * f_ofZ (Z.of_nat n))%float.
Let K : R := INR m * tauR.

Lemma row_rg : rg (INR m) 0 40 /\ rg (INR n) 0 40 /\ rg tauR (-100) 140 /\ rg K (-100) 180 /\ (Z.of_nat n <= 2 ^ 40)%Z /\ (Z.of_nat m <= 2 ^ 40)%Z.
Proof.
  assert (Nn : (Z.of_nat n <= 2 ^ 40)%Z) by (unfold n; lia). assert (Nm : (Z.of_nat m <= 2 ^ 40)%Z) by lia.
  assert (Rm : rg (INR m) 0 40) by (now apply rg_nat).
  assert (Rn : rg (INR n) 0 40) by (apply rg_nat; [unfold n; lia|exact Nn]).
  assert (Rt : rg tauR (-100) 140).
  { unfold tauR, Rdiv. apply (rg_mul _ _ 0 40 (-100) 100); [exact Rm|]. apply (rg_inv _ (-100) 100). destruct Hr as [_ H]. exact H. }
  repeat (split; [assumption|]). split; [|auto]. apply (rg_mul _ _ 0 40 (-100) 140); assumption.
Qed.

Lemma den_ok : approx den Y 7.
Proof.
  destruct row_rg as (Rm & Rn & Rt & RK & Nn & Nm). destruct Hr as [Fr _].
  assert (R2 : rg 2 1 1) by (split; cbn; lra).
  assert (Am : approx (f_ofZ (Z.of_nat m)) (INR m) 0) by (rewrite INR_IZR_INZ; apply approx_Z; lia).
  assert (An : approx (f_ofZ (Z.of_nat n)) (INR n) 0) by (rewrite INR_IZR_INZ; apply approx_Z; lia).
  assert (At : approx (f_ofZ (Z.of_nat m) / rate)%float tauR 1).
  { apply approx_div; [exact Am|exact Fr| |now apply (rg_mid _ _ _ Rt)|lia]. 
    destruct Hr as [_ [L _]]. pose proof (bpow_gt_0 radix2 (-100)). lra. }
  assert (S1 := rg_mul _ _ _ _ _ _ R2 Rm). assert (S2 := rg_mul _ _ _ _ _ _ S1 Rm).
  assert (S3 := rg_mul _ _ _ _ _ _ S2 Rt). assert (S4 := rg_mul _ _ _ _ _ _ S3 Rt). assert (S5 := rg_mul _ _ _ _ _ _ S4 Rn).
  unfold den, Y.
  apply (approx_mul _ _ _ _ 6 0); [|exact An|now apply (rg_mid _ _ _ S5)|lia].
  apply (approx_mul _ _ _ _ 4 1); [|exact At|now apply (rg_mid _ _ _ S4)|lia].
  apply (approx_mul _ _ _ _ 2 1); [|exact At|now apply (rg_mid _ _ _ S3)|lia].
  apply (approx_mul _ _ _ _ 1 0); [|exact Am|now apply (rg_mid _ _ _ S2)|lia].
  apply (approx_mul _ _ _ _ 0 0); [apply (approx_Z 2); lia|exact Am|now apply (rg_mid _ _ _ S1)|lia].
Qed.

Lemma mdev_row : near (Coq.Floats.PrimFloat.sqrt (sq / den)) (R_sqrt.sqrt (bigsum n (fun j => W j ^ 2) / Y)) (n + 11)
  ((10 * INR m + 30) * INR N * u64 * M * (fR rate / INR m ^ 2)).
Proof.
  destruct row_consts as (PM & Uq & UM & Pm & Pn & NN & NU & MU & NB).
  destruct row_rg as (Rm & Rn & Rt & RK & Nn & Nm). pose proof (rg_pos _ _ _ Rt) as Pt. pose proof (rg_pos _ _ _ RK) as PK.
  assert (R2 : rg 2 1 1) by (split; cbn; lra).
  assert (S1 := rg_mul _ _ _ _ _ _ R2 Rm). assert (S2 := rg_mul _ _ _ _ _ _ S1 Rm).
  assert (S3 := rg_mul _ _ _ _ _ _ S2 Rt). assert (S4 := rg_mul _ _ _ _ _ _ S3 Rt). assert (RY := rg_mul _ _ _ _ _ _ S4 Rn).
  fold Y in RY. clear S1 S2 S3 S4. cbn in RY. pose proof (rg_pos _ _ _ RY) as PY. pose proof (rg_inv _ _ _ RY) as RI. cbn in RI.
  assert (HnN : (1 <= n)%nat) by (unfold n; lia).
  destruct (sumsq_err n Vh sq HnN Nn) as (FS & PS & [PE UE] & ES); [|exact Hsq|].
  { intros k Hk. destruct (Vh_ok k Hk) as (F & E & B). split; [exact F|].
    assert (Q : U * ((9 * INR m + 29) * INR N) <= INR m * M).
    { replace (U * ((9 * INR m + 29) * INR N)) with (INR N * u64 * (M * (9 * INR m + 29))) by (unfold U; ring).
      apply Rle_trans with (/ 8192 * (M * (9 * INR m + 29))); [apply Rmult_le_compat_r; nra|nra]. }
    apply Rabs_le_inv in E, B. apply Rle_trans with (5 * (INR m * M)); [apply Rabs_le; lra|].
    apply Rle_trans with (bpow radix2 3 * (bpow radix2 40 * bpow radix2 200)).
    - change (bpow radix2 3) with 8. assert (INR m * M <= bpow radix2 40 * bpow radix2 200) by (apply Rmult_le_compat; try lra; apply Rm). nra.
    - rewrite <- !bpow_plus. apply bpow_le. lia. }
  set (Ex := bigsum n (fun k => fR (Vh k) ^ 2)) in *.
  pose proof eta_pos as Pe. pose proof zeta_pos as Pz.
  assert (PnE : 0 <= INR n * eta) by nra.
  assert (YK : Y = 2 * INR n * (K * K)) by (unfold Y, K; ring).
  assert (IK : 0 < / K) by (now apply Rinv_0_lt_compat).
  assert (NE : 2 * INR n * eta / Y = eta * (/ K * / K)) by (rewrite YK; field; lra).
  assert (RKi := rg_inv _ _ _ RK). cbn in RKi.
  assert (RK2 := rg_mul _ _ _ _ _ _ RKi RKi). cbn in RK2.
  assert (UK2 : eta * (/ K * / K) <= / 4 * bpow radix2 990).
  { apply Rle_trans with (bpow radix2 (-1075) * bpow radix2 200); [apply Rmult_le_compat_l; [apply bpow_ge_0|apply RK2]|].
    replace (/ 4) with (bpow radix2 (-2)) by (cbn; lra). rewrite <- !bpow_plus. apply bpow_le. lia. }
  assert (H1 : near (sq / den)%float (Ex / Y) (S (8 + (n + 1))) ((1 + u64) * ((1 + / 1000) * (eta * (/ K * / K))) + eta)).
  { rewrite <- NE. apply near_div_approx7.
    - split; [exact FS|]. split; [exact PS|exact ES].
    - exact den_ok.
    - exact PY.
    - exact PE.
    - lra.
    - lia.
    - unfold Ex. unfold Rdiv. rewrite YK, Rinv_mult, <- Rmult_assoc.
      set (E0 := bigsum n (fun k => fR (Vh k) ^ 2)).
      assert (E0 * / (2 * INR n) <= bpow radix2 486).
      { apply (Rmult_le_reg_r (2 * INR n)); [lra|]. rewrite Rmult_assoc, Rinv_l, Rmult_1_r by lra.
        apply Rle_trans with (bigsum n (fun _ => bpow radix2 486)).
        - apply bigsum_le. intros k Hk. destruct (Vh_ok k Hk) as (F & E & B).
          assert (Q : U * ((9 * INR m + 29) * INR N) <= INR m * M).
          { replace (U * ((9 * INR m + 29) * INR N)) with (INR N * u64 * (M * (9 * INR m + 29))) by (unfold U; ring).
            apply Rle_trans with (/ 8192 * (M * (9 * INR m + 29))); [apply Rmult_le_compat_r; nra|nra]. }
          assert (A : Rabs (fR (Vh k)) <= bpow radix2 243).
          { apply Rabs_le_inv in E, B. apply Rle_trans with (5 * (INR m * M)); [apply Rabs_le; lra|].
            apply Rle_trans with (bpow radix2 3 * (bpow radix2 40 * bpow radix2 200)).
            - change (bpow radix2 3) with 8. assert (INR m * M <= bpow radix2 40 * bpow radix2 200) by (apply Rmult_le_compat; try lra; apply Rm). nra.
            - rewrite <- !bpow_plus. apply bpow_le. lia. }
          rewrite <- Rsqr_pow2, Rsqr_abs. unfold Rsqr. change 486%Z with (2 * 243)%Z. rewrite <- bpow_sq.
          pose proof (Rabs_pos (fR (Vh k))). apply Rmult_le_compat; lra.
        - rewrite bigsum_const. pose proof (bpow_ge_0 radix2 486). nra. }
      apply Rle_trans with (bpow radix2 486 * bpow radix2 200).
      + apply Rmult_le_compat; [|rewrite Rinv_mult; nra|exact H|rewrite Rinv_mult; apply RK2].
        apply Rmult_le_pos; [exact PE|left; apply Rinv_0_lt_compat; lra].
      + replace (/ 4) with (bpow radix2 (-2)) by (cbn; lra). rewrite <- !bpow_plus. apply bpow_le. lia.
    - rewrite NE. exact UK2. }
  apply (near_sqrt_gen _ _ _ _ (zeta * (/ K + 1))) in H1; [| | | |lia].
  2: { apply Rmult_le_pos; [exact PE|left; now apply Rinv_0_lt_compat]. }
  2: { nra. }
  2: { pose proof eta_zeta as Ez. assert (0 <= / K * / K) by nra.
       set (k2 := / K * / K) in *. assert (0 <= eta * k2) by nra.
       apply Rle_trans with (4 * eta * (k2 + 1)).
       { assert (u64 * (eta * k2) <= eta * k2) by nra. nra. }
       apply Rle_trans with (zeta * zeta * (k2 + 1)); [apply Rmult_le_compat_r; lra|].
       replace (zeta * (/ K + 1) * (zeta * (/ K + 1))) with (zeta * zeta * (k2 + 1) + 2 * (zeta * zeta * / K)) by (unfold k2; ring).
       assert (0 <= zeta * zeta * / K) by (apply Rmult_le_pos; nra). lra. }
  set (d := U * ((9 * INR m + 29) * INR N)) in *.
  assert (P9 : 0 <= (9 * INR m + 29) * INR N) by (apply Rmult_le_pos; lra).
  assert (Pd : 0 <= d) by (unfold d; apply Rmult_le_pos; lra).
  assert (SqE : forall E, 0 <= E -> R_sqrt.sqrt (E / Y) = R_sqrt.sqrt (E / (2 * INR n)) * / K).
  { intros E PE'. rewrite YK. replace (E / (2 * INR n * (K * K))) with (E / (2 * INR n) * (/ K * / K)) by (field; lra).
    rewrite sqrt_mult_alt by (apply Rmult_le_pos; [exact PE'|left; apply Rinv_0_lt_compat; lra]). rewrite sqrt_square by lra. reflexivity. }
  assert (PW : 0 <= bigsum n (fun j => W j ^ 2)) by (apply bigsum_nonneg; intros; apply pow2_ge_0).
  assert (Dif : Rabs (R_sqrt.sqrt (Ex / Y) - R_sqrt.sqrt (bigsum n (fun j => W j ^ 2) / Y)) <= d * / K).
  { rewrite !SqE by assumption. rewrite <- Rmult_minus_distr_r, Rabs_mult, (Rabs_pos_eq (/ K)) by lra.
    apply Rmult_le_compat_r; [lra|]. unfold Ex. apply rms_close; auto; [lra|]. intros k Hk. apply (Vh_ok k Hk). }
  replace (n + 11)%nat with (S (S (8 + (n + 1)))) by lia.
  eapply near_weaken; [apply (near_shift _ _ _ _ _ _ H1 Dif); [apply sqrt_pos|nra|lia]|].
  assert (KI : fR rate / INR m ^ 2 = / K).
  { unfold K, tauR. destruct Hr as [_ [L _]]. pose proof (bpow_gt_0 radix2 (-100)). field. lra. }
  rewrite KI.
  assert (Z1 : zeta * (/ K + 1) <= / 8 * (U * / K)).
  { assert (BU : bpow radix2 (-253) <= U).
    { unfold U. destruct bpow_nums as (_ & _ & Bu). rewrite <- Bu. change (-253)%Z with (-53 + -200)%Z. rewrite bpow_plus.
      apply Rmult_le_compat_l; [apply bpow_ge_0|apply HM]. }
    replace (zeta * (/ K + 1)) with (zeta * (1 + K) * / K) by (field; lra). rewrite <- Rmult_assoc. apply Rmult_le_compat_r; [lra|].
    apply Rle_trans with (/ 8 * bpow radix2 (-253)); [|lra].
    assert (K1 : 1 + K <= bpow radix2 181).
    { destruct RK as [_ KU]. change 181%Z with (180 + 1)%Z. rewrite bpow_plus. change (bpow radix2 1) with 2.
      assert (bpow radix2 0 <= bpow radix2 180) by (apply bpow_le; lia). change (bpow radix2 0) with 1 in H. lra. }
    apply Rle_trans with (zeta * bpow radix2 181); [apply Rmult_le_compat_l; lra|].
    replace (/ 8) with (bpow radix2 (-3)) by (cbn; lra). unfold zeta. rewrite <- !bpow_plus. apply bpow_le. lia. }
  replace ((10 * INR m + 30) * INR N * u64 * M * / K) with (U * ((10 * INR m + 30) * INR N) * / K) by (unfold U; ring).
  apply Rle_trans with (((1 + / 1000) * d + / 4 * U) * / K).
  { replace (((1 + / 1000) * d + / 4 * U) * / K) with ((1 + / 1000) * (d * / K) + / 4 * (U * / K)) by ring. lra. }
   apply Rmult_le_compat_r; [lra|].
  unfold d. replace ((1 + / 1000) * (U * ((9 * INR m + 29) * INR N)) + / 4 * U) with (U * ((1 + / 1000) * ((9 * INR m + 29) * INR N) + / 4)) by ring.
  apply Rmult_le_compat_l; [lra|]. nra.
Qed.

Lemma mdev_row_bound : 0 <= R_sqrt.sqrt (bigsum n (fun j => W j ^ 2) / Y) <= 4 * M / tauR.
Proof.
  destruct row_consts as (PM & Uq & UM & Pm & Pn & NN & NU & MU & NB).
  destruct row_rg as (Rm & Rn & Rt & RK & Nn & Nm). pose proof (rg_pos _ _ _ Rt) as Pt. pose proof (rg_pos _ _ _ RK) as PK.
  split; [apply sqrt_pos|].
  assert (PW : 0 <= bigsum n (fun j => W j ^ 2)) by (apply bigsum_nonneg; intros; apply pow2_ge_0).
  assert (E : bigsum n (fun j => W j ^ 2) / Y = bigsum n (fun j => W j ^ 2) / (2 * INR n) * (/ K * / K)) by (unfold Y, K; field; lra).
  assert (IK : 0 < / K) by (now apply Rinv_0_lt_compat).
  rewrite E, sqrt_mult_alt, sqrt_square; [|lra|apply Rmult_le_pos; [exact PW|left; apply Rinv_0_lt_compat; lra]].
  replace (4 * M / tauR) with (4 * (INR m * M) * / K) by (unfold K; field; lra).
  apply Rmult_le_compat_r; [lra|]. apply rms_bound; [unfold n; lia|lra|nra|]. intros k Hk. apply (Vh_ok k Hk).
Qed.

Lemma tdev_row :
  near (f_ofZ (Z.of_nat m) / rate * Coq.Floats.PrimFloat.sqrt (sq / den) / Coq.Floats.PrimFloat.sqrt (f_ofZ 3))%float
    (tauR * R_sqrt.sqrt (bigsum n (fun j => W j ^ 2) / Y) / R_sqrt.sqrt 3) (n + 17)
  ((10 * INR m + 30) * INR N * u64 * M / INR m).
Proof.
  destruct row_consts as (PM & Uq & UM & Pm & Pn & NN & NU & MU & NB).
  destruct row_rg as (Rm & Rn & Rt & RK & Nn & Nm). pose proof (rg_pos _ _ _ Rt) as Pt.
  destruct mdev_row_bound as [D0 D1]. pose proof mdev_row as H0. destruct Hr as [Fr [Lr Ur]].
  assert (Pr : 0 < fR rate) by (pose proof (bpow_gt_0 radix2 (-100)); lra).
  set (dR := R_sqrt.sqrt (bigsum n (fun j => W j ^ 2) / Y)) in *.
  set (z := (10 * INR m + 30) * INR N * u64 * M * (fR rate / INR m ^ 2)) in *.
  assert (At : approx (f_ofZ (Z.of_nat m) / rate)%float tauR 1).
  { apply approx_div; [rewrite INR_IZR_INZ; apply approx_Z; lia|exact Fr|lra|now apply (rg_mid _ _ _ Rt)|lia]. }
  set (g := (10 * INR m + 30) * INR N * u64 * M / INR m).
  assert (Pr10 : 0 <= (10 * INR m + 30) * INR N) by (apply Rmult_le_pos; lra).
  assert (PU : 0 < u64 * M) by nra.
  assert (Im : 0 < / INR m <= 1) by (split; [apply Rinv_0_lt_compat; lra|rewrite <- Rinv_1; apply Rinv_le; lra]).
  assert (G1 : 0 <= g) by (unfold g, Rdiv; repeat apply Rmult_le_pos; lra).
  assert (G2 : u64 * M <= g).
  { unfold g. replace ((10 * INR m + 30) * INR N * u64 * M / INR m) with ((10 * INR m + 30) * / INR m * INR N * (u64 * M)) by (unfold Rdiv; ring).
    rewrite <- (Rmult_1_l (u64 * M)) at 1. apply Rmult_le_compat_r; [lra|].
    replace ((10 * INR m + 30) * / INR m) with (10 + 30 * / INR m) by (field; lra). nra. }
  assert (G3 : g <= M).
  { unfold g. replace ((10 * INR m + 30) * INR N * u64 * M / INR m) with ((10 + 30 * / INR m) * (INR N * u64) * M) by (field; lra).
    rewrite <- (Rmult_1_l M) at 2. apply Rmult_le_compat_r; [lra|].
    apply Rle_trans with (40 * / 8192); [apply Rmult_le_compat; nra|lra]. }
  assert (Tz : tauR * z = g) by (unfold tauR, z, g; field; lra).
  assert (Pz : 0 <= z).
  { unfold z. apply Rmult_le_pos; [repeat apply Rmult_le_pos; lra|]. apply Rmult_le_pos; [lra|]. left. apply Rinv_0_lt_compat. nra. }
  assert (BM : 8 * M <= / 4 * bpow radix2 990).
  { apply Rle_trans with (8 * bpow radix2 200); [lra|]. replace (/ 4) with (bpow radix2 (-2)) by (cbn; lra). change 8 with (bpow radix2 3).
    rewrite <- !bpow_plus. apply bpow_le. lia. }
  assert (TD : tauR * dR <= 4 * M).
  { apply Rle_trans with (tauR * (4 * M / tauR)); [apply Rmult_le_compat_l; lra|]. apply Req_le. field. lra. }
  assert (H1 := near_mul_approx _ _ 1 _ dR (n + 11) z At H0 Pt D0 Pz ltac:(lia) ltac:(lia) ltac:(lra) ltac:(rewrite Tz; lra)).
  rewrite Tz in H1.
  destruct (fofZ_ok 3 ltac:(lia)) as [F3 V3].
  assert (S3 : 1.7 <= R_sqrt.sqrt 3 <= 2).
  { split; [rewrite <- (sqrt_square 1.7) by lra|rewrite <- (sqrt_square 2) by lra]; apply sqrt_le_1_alt; lra. }
  assert (A3 : approx (Coq.Floats.PrimFloat.sqrt (f_ofZ 3)) (R_sqrt.sqrt 3) 2).
  { destruct (fsqrt_err (f_ofZ 3) F3 ltac:(rewrite V3; lra)) as (F & _ & E). rewrite V3 in E. split; [exact F|].
    rewrite (Rabs_pos_eq (R_sqrt.sqrt 3)) by lra. eapply Rle_trans; [exact E|]. apply Rmult_le_compat_r; [lra|]. cbn [pow]. nra. }
  assert (E1 : eta <= / 1000 * (u64 * M)).
  { destruct bpow_nums as (_ & _ & Bu). apply Rle_trans with (bpow radix2 (-10) * (bpow radix2 (-53) * bpow radix2 (-200))).
    - unfold eta. rewrite <- !bpow_plus. apply bpow_le. lia.
    - rewrite Bu. apply Rmult_le_compat; [apply bpow_ge_0|apply Rmult_le_pos; [lra|apply bpow_ge_0]|cbn; lra|].
      apply Rmult_le_compat_l; lra. }
  pose proof eta_pos as Pe.
  set (z2 := (1 + u64) * ((1 + / 1000) * g) + eta) in *.
  assert (Z2 : 0 <= z2 <= (1 + / 100) * g) by (unfold z2; split; nra).
  assert (I3 : 0 < / R_sqrt.sqrt 3 <= / 1.7) by (split; [apply Rinv_0_lt_compat; lra|apply Rinv_le; lra]).
  assert (PTD : 0 <= tauR * dR) by nra.
  assert (Q1 : tauR * dR / R_sqrt.sqrt 3 <= tauR * dR) by (unfold Rdiv; nra).
  assert (Q2 : 0 <= z2 / R_sqrt.sqrt 3 <= / 1.7 * z2) by (unfold Rdiv; split; nra).
  assert (H2 := near_div_approx _ _ _ z2 _ _ H1 A3 ltac:(lra) PTD (proj1 Z2) ltac:(lia) ltac:(lra) ltac:(lra)).
  replace (n + 17)%nat with (S (3 + S (1 + (n + 11)))) by lia.
  eapply near_weaken; [exact H2|]. nra.
Qed.
End Row.

(** ** Whole tables *)
(** np: v0*v0 + sum(v_arr**2) adds the squares of all windows *)
Lemma window_sumsq N m (f : nat -> float) v :
  sum_of_squares (tab (S (N - 3 * m)) (window f m v)) (v * v + sumsq (tab (N - 3 * m) (fun k => nadd v (csum (td f m) k))))%float.
Proof.
  destruct (asum_tree (map nsq (tab (N - 3 * m) (fun k => nadd v (csum (td f m) k))))) as (t & E & L).
  exists (Node (Leaf (nsq v)) t), 1%nat. cbn [fsum leaves]. split.
  - change (@nsq float FNum v) with (v * v)%float. unfold sumsq. now rewrite E.
  - split; [lia|]. rewrite L, tab_S. cbn [app repeat map]. unfold window. apply perm_swap.
Qed.

Lemma mvar_window x M N m rate : bounded_record x M -> N = len x -> (1 <= m)%nat -> (3 * m <= N)%nat -> 0 < fR rate ->
  let f i := nth i x 0%float in let n := S (N - 3 * m) in
  bigsum n (fun j => bigsum m (fun i => fR (f (2 * m + (j + i))%nat) - 2 * fR (f (m + (j + i))%nat) + fR (f (j + i)%nat)) ^ 2)
    / (2 * INR m * INR m * (INR m / fR rate) * (INR m / fR rate) * INR n) = mvar (map fR x) (1 / fR rate) m.
Proof.
  intros Hx HN Hm H3 Hr f n. destruct (rec_tab x M Hx) as (_ & _ & _ & EtR & _). rewrite <- HN in EtR.
  unfold mvar. assert (En : mdev_n (map fR x) m = Z.of_nat n) by (unfold mdev_n, n; rewrite map_length, <- HN; lia).
  rewrite En, Nat2Z.id, <- INR_IZR_INZ, Rmult_comm.
  rewrite (bigsum_ext n (fun j => bigsum m (fun i => d2 (map fR x) m (j + i)) ^ 2)
    (fun j => bigsum m (fun i => fR (f (2 * m + (j + i))%nat) - 2 * fR (f (m + (j + i))%nat) + fR (f (j + i)%nat)) ^ 2)).
  - unfold Rdiv. rewrite Rmult_comm. f_equal. assert (0 < INR m) by (apply lt_0_INR; lia). assert (0 < INR n) by (apply lt_0_INR; unfold n; lia).
    field. lra.
  - intros j Hj. f_equal. apply bigsum_ext. intros i Hi. unfold n in Hj. unfold d2. rewrite EtR. rewrite !nth_tab by lia.
    fold f. replace (j + i + 2 * m)%nat with (2 * m + (j + i))%nat by lia. replace (j + i + m)%nat with (m + (j + i))%nat by lia. reflexivity.
Qed.

(** Time deviation: the error no longer scales with 1/tau. *)
Definition accurate_t (c : Z) (k M : R) (r : row) : Prop :=
  ffin (r_dF r) /\ 0 <= fR (r_dF r) /\
  Rabs (fR (r_dF r) - r_dR r) <= (1 + / 1000) * (IZR (r_n r + c) * u64) * r_dR r + k * u64 * M.
Definition agree_t (c : Z) (k M : R) (rate : float) (resF : res (@result float)) (resR : res (@result R)) : Prop :=
  (resF = Err UserWarning /\ resR = Err UserWarning) \/
  exists rows, resF = Ok (tableF rate rows) /\ resR = Ok (tableR (fR rate) rows) /\ rows <> [] /\ Forall (accurate_t c k M) rows.

Definition trow (rate : float) (r : row) : row :=
  let dF := (f_ofZ (r_m r) / rate * r_dF r / Coq.Floats.PrimFloat.sqrt (f_ofZ 3))%float in
  let dR := IZR (r_m r) / fR rate * r_dR r / R_sqrt.sqrt 3 in
  Row (r_m r) (r_n r) dF (dF / Coq.Floats.PrimFloat.sqrt (f_ofZ (r_n r)))%float dR (dR / R_sqrt.sqrt (IZR (r_n r))).

Lemma bmap2_map {A B C D} (g : A -> B -> C) (h1 : D -> A) (h2 : D -> B) l :
  bmap2 g (map h1 l) (map h2 l) = Ok (map (fun r => g (h1 r) (h2 r)) l).
Proof.
  rewrite bmap2_eqlen by (now rewrite !map_length). f_equal. induction l as [|x l IH]; [reflexivity|]. cbn. now rewrite IH.
Qed.
Lemma scale_tables rate rows : scale_tdev (tableF rate rows) = Ok (tableF rate (map (trow rate) rows)) /\
  scale_tdev (tableR (fR rate) rows) = Ok (tableR (fR rate) (map (trow rate) rows)).
Proof.
  unfold scale_tdev, tableF, tableR, vmul. rewrite !bmap2_map. cbn [bind]. rewrite !map_map.
  rewrite !bmap2_map. cbn [bind]. rewrite ?map_map. split; reflexivity.
Qed.

Lemma mdev_rows x rate M : bounded_record x M -> bpow radix2 (-200) <= M <= bpow radix2 200 -> moderate_rate rate ->
  forall m, (1 <= m < Z.of_nat (len x))%Z -> exists r, r_m r = m /\
    calc_mdev_phase x rate (Z.to_nat m) = Ok (r_dF r, r_eF r, r_n r) /\
    calc_mdev_phase (map fR x) (fR rate) (Z.to_nat m) = Ok (r_dR r, r_eR r, r_n r) /\
    ((1 < r_n r)%Z -> accurate 11 (40 * INR (len x)) M rate r /\ accurate_t 17 (40 * INR (len x)) M (trow rate r)).
Proof.
  intros Hx HM Hr m Hm. destruct (rec_tab x M Hx) as (HN & _ & Et & EtR & Hf).
  set (N := len x) in *. set (f := fun i => nth i x 0%float) in *. set (k := Z.to_nat m).
  assert (Hk : (1 <= k)%nat) by lia.
  assert (Pr : 0 < fR rate) by (destruct Hr as [_ [L _]]; pose proof (bpow_gt_0 radix2 (-100)); lra).
  replace (@calc_mdev_phase float FNum x) with (@calc_mdev_phase float FNum (tab N f)) by (now rewrite <- Et).
  destruct (Nat.lt_ge_cases N (3 * k)) as [Z0|Z1].
  - destruct (calc_mdev_short_gen N f rate k Hk Z0) as (d & e & E).
    destruct (calc_mdev_short_gen N (fun i => fR (f i)) (fR rate) k Hk Z0) as (d' & e' & E').
    exists (Row m 1 d e d' e'). cbn. rewrite EtR. repeat split; auto; intros; lia.
  - pose proof (calc_mdev_gen N f rate k Z1) as E. cbv zeta in E.
    pose proof (calc_mdev_spec (map fR x) (fR rate) k Pr Hk) as E'. rewrite map_length in E'. specialize (E' Z1). cbv zeta in E'.
    assert (En : mdev_n (map fR x) k = Z.of_nat (S (N - 3 * k))) by (unfold mdev_n; rewrite map_length; fold N; lia).
    rewrite En in E'.
    eexists (Row m _ _ _ _ _). cbn [r_m r_n r_dF r_eF r_dR r_eR]. split; [reflexivity|]. split; [exact E|]. split; [exact E'|].
    intros _. set (v := asum (tab k (sd f k))) in *.
    pose proof (mdev_row N k f M v HN Hk Z1 HM Hf (sum_left _) rate _ Hr (window_sumsq N k f v)) as R1.
    pose proof (tdev_row N k f M v HN Hk Z1 HM Hf (sum_left _) rate _ Hr (window_sumsq N k f v)) as R2.
    pose proof (mvar_window x M N k rate Hx eq_refl Hk Z1 Pr) as EV. cbv zeta in EV. fold f in EV. cbv beta in EV.
    unfold f in R1, R2, EV. rewrite EV in R1, R2. fold f in R1, R2.
    assert (Kk : IZR m = INR k) by (rewrite INR_IZR_INZ; f_equal; lia).
    assert (Pk : 1 <= INR k) by (change 1 with (INR 1); now apply le_INR).
    assert (PN : 0 <= INR N) by apply pos_INR. pose proof u64_pos as Pu.
    assert (PM : 0 < M) by (pose proof (bpow_gt_0 radix2 (-200)); lra).
    assert (Q0 : (10 * INR k + 30) * / INR k <= 40).
    { replace ((10 * INR k + 30) * / INR k) with (10 + 30 * / INR k) by (field; lra).
      assert (/ INR k <= 1) by (rewrite <- Rinv_1; apply Rinv_le; lra). lra. }
    assert (PN1 : 0 <= INR N * u64 * M) by (repeat apply Rmult_le_pos; lra).
    split.
    + apply near_accurate with (S (N - 3 * k)); cbn [r_m r_n r_dF r_eF r_dR r_eR]; [|lia|reflexivity|lia|apply sqrt_pos].
      eapply near_weaken; [exact R1|]. rewrite Kk.
      replace ((10 * INR k + 30) * INR N * u64 * M * (fR rate / INR k ^ 2)) with ((10 * INR k + 30) * / INR k * ((INR N * u64 * M) * (fR rate / INR k))) by (field; lra).
      replace (40 * INR N * u64 * M * (fR rate / INR k)) with (40 * ((INR N * u64 * M) * (fR rate / INR k))) by ring.
      apply Rmult_le_compat_r; [|exact Q0]. apply Rmult_le_pos; [exact PN1|]. apply Rmult_le_pos; [lra|]. left. apply Rinv_0_lt_compat. lra.
    + destruct R2 as (F2 & P2 & E2). unfold trow, accurate_t. cbn [r_m r_n r_dF r_eF r_dR r_eR].
      replace (f_ofZ m) with (f_ofZ (Z.of_nat k)) by (f_equal; lia). rewrite Kk.
      split; [exact F2|]. split; [exact P2|]. eapply Rle_trans; [exact E2|]. apply Rplus_le_compat.
      * apply Rmult_le_compat_r.
        { assert (0 < / R_sqrt.sqrt 3) by (apply Rinv_0_lt_compat, sqrt_lt_R0; lra). assert (0 < / fR rate) by (now apply Rinv_0_lt_compat).
          unfold Rdiv. repeat apply Rmult_le_pos; try lra. apply sqrt_pos. }
        eapply Rle_trans; [apply pow_u_le; lia|]. apply Req_le. f_equal. f_equal. rewrite INR_IZR_INZ. f_equal. lia.
      * replace ((10 * INR k + 30) * INR N * u64 * M / INR k) with ((10 * INR k + 30) * / INR k * (INR N * u64 * M)) by (field; lra).
        replace (40 * INR N * u64 * M) with (40 * (INR N * u64 * M)) by ring. apply Rmult_le_compat_r; assumption.
Qed.

Theorem C84_accuracy x rate M tF tR : bounded_record x M -> bpow radix2 (-200) <= M <= bpow radix2 200 -> x <> [] ->
  moderate_rate rate -> same_request rate tF tR ->
  agree 11 (40 * INR (len x)) M rate (mdev x rate "phase" tF) (mdev (map fR x) (fR rate) "phase" tR) /\
  agree_t 17 (40 * INR (len x)) M rate (tdev x rate "phase" tF) (tdev (map fR x) (fR rate) "phase" tR).
Proof.
  intros Hx HM Hx0 Hr Hs. destruct (same_factors x rate M tF tR Hx Hx0 Hr Hs) as (ms & G1 & G2 & Hb).
  unfold tdev, mdev, input_to_phase. cbn [String.eqb Ascii.eqb Bool.eqb bind].
  rewrite G1. cbn [ofZ RNum]. rewrite G2. cbn [bind].
  destruct (run_rows_par (calc_mdev_phase x rate) (calc_mdev_phase (map fR x) (fR rate)) rate
    (fun r => accurate 11 (40 * INR (len x)) M rate r /\ accurate_t 17 (40 * INR (len x)) M (trow rate r)) ms)
    as [[E1 E2]|(rows & E1 & E2 & E3 & E4 & _)].
  - intros m Hm. apply mdev_rows; auto.
  - rewrite E1, E2. cbn [bind]. split; left; auto.
  - rewrite E1, E2. cbn [bind]. destruct (scale_tables rate rows) as [T1 T2]. rewrite T1, T2. split; right.
    + exists rows. repeat split; auto. eapply Forall_impl; [|exact E4]. cbn. tauto.
    + exists (map (trow rate) rows). repeat split; auto.
      * now destruct rows.
      * apply Forall_map. eapply Forall_impl; [|exact E4]. cbn. tauto.
Qed.
Print Assumptions C84_accuracy.

(** One row with the first window and the sum of squares added up in any order (np.cumsum itself is sequential). *)
Theorem C84_any_order x rate M m v sq : bounded_record x M -> bpow radix2 (-200) <= M <= bpow radix2 200 -> moderate_rate rate ->
  (1 <= m)%nat -> (3 * m <= len x)%nat ->
  let f i := nth i x 0%float in let N := len x in let n := S (N - 3 * m) in
  sum_of (tab m (fun i => f (2 * m + i)%nat - f_ofZ 2 * f (m + i)%nat + f i)%float) v ->
  sum_of_squares (tab n (window f m v)) sq ->
  let mf := f_ofZ (Z.of_nat m) in
  let dev := Coq.Floats.PrimFloat.sqrt (sq / (f_ofZ 2 * mf * mf * (mf / rate) * (mf / rate) * f_ofZ (Z.of_nat n)))%float in
  let exact := R_sqrt.sqrt (mvar (map fR x) (1 / fR rate) m) in
  ffin dev /\ 0 <= fR dev /\
  Rabs (fR dev - exact) <= (1 + / 1000) * (INR (n + 11) * u64) * exact + (10 * INR m + 30) * INR N * u64 * M * (fR rate / INR m ^ 2).
Proof.
  intros Hx HM Hr Hm H3 f N n Hv Hsq mf dev exact. destruct (rec_tab x M Hx) as (HN & _ & _ & _ & Hf).
  assert (Pr : 0 < fR rate) by (destruct Hr as [_ [L _]]; pose proof (bpow_gt_0 radix2 (-100)); lra).
  pose proof (mdev_row N m f M v HN Hm H3 HM Hf Hv rate sq Hr Hsq) as R1.
  pose proof (mvar_window x M N m rate Hx eq_refl Hm H3 Pr) as EV. cbv zeta in EV.
  unfold f in R1. cbv zeta in R1. rewrite EV in R1. destruct R1 as (F & P & E). split; [exact F|]. split; [exact P|].
  eapply Rle_trans; [exact E|]. apply Rplus_le_compat_r, Rmult_le_compat_r; [apply sqrt_pos|].
  apply pow_u_le. unfold N. lia.
Qed.
Print Assumptions C84_any_order.

(** The growth with the length of the record is real: a record of equal samples. *)
Definition cst : float := 0x1.fffffffffffffp+52%float.
Lemma fR_cst : fR cst = 9007199254740991.
Proof.
  rewrite fR_SF. replace (FloatOps.Prim2SF cst) with (S754_finite false 9007199254740991 0) by reflexivity. cbn. unfold F2R. cbn. lra.
Qed.

Lemma cst_window N k : (Z.of_nat N <= 2 ^ 40)%Z -> (k < N)%nat ->
  let v := asum (tab 1 (sd (fun _ => cst) 1)) in ffin (window (fun _ => cst) 1 v k) /\ fR (window (fun _ => cst) 1 v k) = INR k.
Proof.
  intros HN Hk v. assert (Ev : v = 0%float) by (vm_compute; reflexivity).
  assert (F0 : ffin 0%float) by (now apply ffin_SF). assert (V0 : fR 0%float = 0) by (rewrite fR_SF; reflexivity).
  destruct fR_1_2_4_8 as (V1 & _). assert (F1 : ffin 1%float) by (now apply ffin_SF).
  assert (B : forall j, (j <= N)%nat -> Rabs (rnd (INR j)) < bpow radix2 1024 /\ rnd (INR j) = INR j).
  { intros j Hj. assert (E : rnd (INR j) = INR j) by (rewrite INR_IZR_INZ; apply rnd_int; lia). split; [|exact E].
    rewrite E, Rabs_pos_eq by apply pos_INR. rewrite INR_IZR_INZ. apply Rle_lt_trans with (IZR (2 ^ 40)); [apply IZR_le; lia|].
    change (IZR (2 ^ 40)) with (bpow radix2 40). apply bpow_lt. reflexivity. }
  assert (C : forall j, (j < N)%nat -> ffin (csum (td (fun _ => cst) 1) j) /\ fR (csum (td (fun _ => cst) 1) j) = INR (S j)).
  { assert (T : forall j, td (fun _ => cst) 1 j = 1%float) by (intro j; vm_compute; reflexivity).
    induction j as [|j IH]; intro Hj; cbn [csum]; rewrite T; [split; [exact F1|rewrite V1; reflexivity]|].
    destruct (IH ltac:(lia)) as [F V].
    assert (S1 : fR (csum (td (fun _ => cst) 1) j) + fR 1%float = INR (S (S j))) by (rewrite V, V1, (S_INR (S j)); reflexivity).
    destruct (B (S (S j)) ltac:(lia)) as [B1 B2]. rewrite <- S1 in B1, B2.
    destruct (fadd_ok _ _ F F1 B1) as [F' V']. split; [exact F'|]. cbn [nadd FNum]. rewrite V', B2, S1. reflexivity. }
  rewrite Ev. destruct k as [|k]; cbn [window]; [split; [exact F0|rewrite V0; reflexivity]|].
  destruct (C k ltac:(lia)) as [F V]. assert (S1 : fR 0%float + fR (csum (td (fun _ => cst) 1) k) = INR (S k)) by (rewrite V, V0; ring).
  destruct (B (S k) ltac:(lia)) as [B1 B2]. rewrite <- S1 in B1, B2.
  destruct (fadd_ok _ _ F0 F B1) as [F' V']. split; [exact F'|]. cbn [nadd FNum]. rewrite V', B2, S1. reflexivity.
Qed.

Lemma sum_squares n : bigsum n (fun k => INR k ^ 2) = INR n * (INR n - 1) * (2 * INR n - 1) / 6.
Proof. induction n as [|n IH]; cbn [bigsum]; [cbn; lra|]. rewrite IH, S_INR. field. Qed.

Lemma repeat_tab {A} (c : A) N : repeat c N = tab N (fun _ => c).
Proof. induction N as [|N IH]; [reflexivity|]. rewrite tab_S. cbn. now rewrite IH. Qed.

Lemma mod1 : moderate_rate 1%float.
Proof.
  destruct fR_1_2_4_8 as (V1 & _). split; [now apply ffin_SF|]. rewrite V1. change 1 with (bpow radix2 0). split; apply bpow_le; lia.
Qed.
Lemma cst_record N : (Z.of_nat N <= 2 ^ 40)%Z -> bounded_record (repeat cst N) (fR cst) /\ bpow radix2 (-200) <= fR cst <= bpow radix2 200.
Proof.
  intro HN. assert (B : 1 <= fR cst <= bpow radix2 53).
  { rewrite fR_cst. split; [lra|]. change (bpow radix2 53) with (IZR (2 ^ 53)). apply IZR_le. lia. }
  assert (B2 : forall e, (53 <= e)%Z -> bpow radix2 (- e) <= fR cst <= bpow radix2 e).
  { intros e He. split; [apply Rle_trans with (bpow radix2 0); [apply bpow_le; lia|apply B]|].
    apply Rle_trans with (bpow radix2 53); [apply B|apply bpow_le; lia]. }
  split; [|apply (B2 200%Z); lia]. split; [now rewrite repeat_length|]. split; [apply (B2 400%Z); lia|].
  apply Forall_forall. intros a Ha. apply repeat_spec in Ha as ->. split; [now apply ffin_SF|]. rewrite Rabs_pos_eq; lra.
Qed.

Lemma run_rows_one {A} {NA : Num A} (calc : nat -> res (A * A * Z)) m t d e k : calc (Z.to_nat m) = Ok (d, e, k) -> (1 < k)%Z ->
  run_rows calc [m] [t] = Ok ([t], [d], EArr [e], [k]).
Proof.
  intros E Hk. apply Z.ltb_lt in Hk. unfold run_rows. cbn [mapM]. rewrite E. cbn [bind map fst snd]. unfold remove_small_ns.
  cbn [map]. rewrite Hk. reflexivity.
Qed.

Theorem C84_drift N : (8 <= N)%nat -> (Z.of_nat N <= 2 ^ 40)%Z ->
  exists d e e', mdev (repeat cst N) 1%float "phase" (TArr [1%float]) = Ok ([1%float], [d], EArr [e], [Z.of_nat N - 2]%Z) /\
    mdev (repeat (fR cst) N) 1 "phase" (TArr [1]) = Ok ([1], [0], EArr [e'], [Z.of_nat N - 2]%Z) /\
    INR N / 8 * u64 * fR cst <= fR d.
Proof.
  intros H8 HN. destruct (cst_record N HN) as [Hx HM]. destruct fR_1_2_4_8 as (V1 & _).
  assert (Z1 : (1 <? Z.of_nat N)%Z = true) by (apply Z.ltb_lt; lia).
  assert (En : Z.of_nat (S (N - 3 * 1)) = (Z.of_nat N - 2)%Z) by lia.
  pose proof (calc_mdev_gen N (fun _ => cst) 1%float 1 ltac:(lia)) as E. cbv zeta in E. rewrite <- repeat_tab in E.
  set (v := asum (tab 1 (sd (fun _ => cst) 1))) in *.
  set (n := S (N - 3 * 1)) in *. assert (Hn6 : (6 <= n)%nat) by (unfold n; lia).
  set (sq := nadd (nmul v v) (sumsq (tab (N - 3 * 1) (fun k => nadd v (csum (td (fun _ => cst) 1) k))))) in *.
  pose proof (calc_mdev_spec (repeat (fR cst) N) 1 1 ltac:(lra) ltac:(lia) ltac:(rewrite repeat_length; lia)) as ER. cbv zeta in ER.
  assert (EnR : mdev_n (repeat (fR cst) N) 1 = Z.of_nat n) by (unfold mdev_n, n; rewrite repeat_length; lia).
  assert (MV : mvar (repeat (fR cst) N) (1 / 1) 1 = 0).
  { unfold mvar. rewrite bigsum_0; [ring|]. intros j Hj. rewrite EnR, Nat2Z.id in Hj. unfold n in Hj. cbn [bigsum]. unfold d2.
    rewrite repeat_tab, !nth_tab by lia. ring. }
  rewrite MV, sqrt_0, EnR in ER.
  eexists _, _, _. split; [|split].
  - unfold mdev, input_to_phase. cbn [String.eqb Ascii.eqb Bool.eqb bind]. unfold tau_generator.
    replace (@neqb float FNum 1%float (ofZ 0)) with false by (vm_compute; reflexivity).
    cbn [expand_taus bind]. replace (@neqb float FNum (ofZ (-1)) (ofZ (-1))) with true by (vm_compute; reflexivity).
    unfold select_m. cbn [flat_map]. replace (@nrint float FNum (nmul 1%float 1%float)) with (Some 1%Z) by (vm_compute; reflexivity).
    rewrite repeat_length, Z1. cbn [andb Z.ltb Z.compare].
    destruct (fofZ_ok 1 ltac:(lia)) as [Fo Vo]. destruct (fofZ_ok (Z.of_nat N) ltac:(lia)) as [FN VN].
    replace (@nleb float FNum (ofZ 1) (ofN N)) with true.
    2: { symmetry. unfold ofN. cbn [nleb ofZ FNum]. rewrite fleb_ok by assumption. apply Rle_bool_true. rewrite Vo, VN. apply IZR_le. lia. }
    cbn [app]. replace (unique [1%Z]) with [1%Z] by reflexivity. cbn [map bind].
    replace (@ndiv float FNum (ofZ 1) 1%float) with 1%float by (vm_compute; reflexivity).
    rewrite <- En. apply run_rows_one; [exact E|lia].
  - unfold mdev, input_to_phase. cbn [String.eqb Ascii.eqb Bool.eqb bind]. unfold tau_generator.
    replace (@neqb R RNum 1 (ofZ 0)) with false by (symmetry; apply Reqb_false; cbn; lra).
    cbn [expand_taus bind]. replace (@neqb R RNum (ofZ (-1)) (ofZ (-1))) with true by (symmetry; apply Reqb_true; reflexivity).
    unfold select_m. cbn [flat_map nrint nmul RNum]. replace (rintR (1 * 1)) with 1%Z by (rewrite Rmult_1_l; symmetry; apply (rintR_IZR 1)).
    rewrite repeat_length, Z1. cbn [andb Z.ltb Z.compare].
    replace (@nleb R RNum (ofZ 1) (ofN N)) with true.
    2: { symmetry. unfold ofN. apply Rleb_true. cbn [ofZ RNum]. apply IZR_le. lia. }
    cbn [app]. replace (unique [1%Z]) with [1%Z] by reflexivity. cbn [map bind].
    replace (@ndiv R RNum (ofZ 1) 1) with 1 by (cbn; field).
    rewrite <- En. apply run_rows_one; [exact ER|lia].
  - pose proof (cst_window N) as CW. fold v in CW.
    assert (Nn : (Z.of_nat n <= 2 ^ 40)%Z) by (unfold n; lia).
    destruct (sumsq_err n (window (fun _ => cst) 1 v) sq ltac:(lia) Nn) as (FS & PS & [PE _] & ES); [|exact (window_sumsq N 1 (fun _ => cst) v)|].
    { intros k Hk. destruct (CW k HN ltac:(unfold n in Hk; lia)) as [F V]. split; [exact F|]. rewrite V, Rabs_pos_eq by apply pos_INR.
      rewrite INR_IZR_INZ. apply Rle_trans with (bpow radix2 40); [change (bpow radix2 40) with (IZR (2 ^ 40)); apply IZR_le; lia|apply bpow_le; lia]. }
    rewrite (bigsum_ext n (fun k => fR (window (fun _ => cst) 1 v k) ^ 2) (fun k => INR k ^ 2)) in PE, ES
      by (intros k Hk; destruct (CW k HN ltac:(unfold n in Hk; lia)) as [_ V]; now rewrite V).
    rewrite sum_squares in PE, ES.
    pose proof (den_ok N 1 (fR cst) HN ltac:(lia) ltac:(lia) HM 1%float mod1) as DO. fold n in DO.
    replace (2 * INR 1 * INR 1 * (INR 1 / fR 1%float) * (INR 1 / fR 1%float) * INR n) with (2 * INR n) in DO by (rewrite V1; cbn [INR]; field).
    assert (Pn : 6 <= INR n) by (replace 6 with (INR 6) by (cbn; lra); now apply le_INR).
    assert (Un : INR n <= bpow radix2 40).
    { rewrite INR_IZR_INZ. change (bpow radix2 40) with (IZR (2 ^ 40)). now apply IZR_le. }
    set (Ex := INR n * (INR n - 1) * (2 * INR n - 1) / 6) in *.
    pose proof eta_pos as Pe. pose proof zeta_pos as Pz.
    assert (EY : Ex / (2 * INR n) = (INR n - 1) * (2 * INR n - 1) / 12) by (unfold Ex; field; lra).
    assert (NE : 2 * INR n * eta / (2 * INR n) = eta) by (field; lra).
    assert (B40 : bpow radix2 40 * bpow radix2 40 <= / 4 * bpow radix2 990).
    { replace (/ 4) with (bpow radix2 (-2)) by (cbn; lra). rewrite <- !bpow_plus. apply bpow_le. lia. }
    assert (Eb : eta <= / 4 * bpow radix2 990).
    { replace (/ 4) with (bpow radix2 (-2)) by (cbn; lra). unfold eta. rewrite <- !bpow_plus. apply bpow_le. lia. }
    assert (H1 := near_div_approx7 sq Ex (n + 1) (2 * INR n * eta) _ (2 * INR n) (conj FS (conj PS ES)) DO ltac:(lra) PE ltac:(nra) ltac:(lia)
      ltac:(rewrite EY; nra) ltac:(rewrite NE; exact Eb)).
    rewrite NE in H1.
    assert (Uq : 0 < u64 <= / 4096 * / 4096) by (split; [apply u64_pos|unfold u64; lra]).
    apply (near_sqrt_gen _ _ _ _ zeta) in H1; [| |lra|pose proof eta_zeta; nra|lia].
    2: { rewrite EY. nra. }
    destruct H1 as (F & P & H1). set (d := Coq.Floats.PrimFloat.sqrt _) in H1.
    change (INR N / 8 * u64 * fR cst <= fR d).
    set (T := R_sqrt.sqrt (Ex / (2 * INR n))) in *.
    assert (LT : INR n / 5 <= T).
    { unfold T. rewrite <- (sqrt_square (INR n / 5)) by lra. apply sqrt_le_1_alt. rewrite EY. nra. }
    pose proof (pow_u_small (S (S (8 + (n + 1)))) ltac:(lia)) as Sm.
    assert (Zs : zeta <= / 1000).
    { apply Rle_trans with (bpow radix2 (-10)); [unfold zeta; apply bpow_le; lia|cbn; lra]. }
    assert (Uc : u64 * fR cst <= 1) by (rewrite fR_cst; unfold u64; lra).
    assert (NN : INR N = INR n + 2) by (replace 2 with (INR 2) by (cbn; lra); rewrite <- plus_INR; f_equal; unfold n; lia).
    apply Rabs_le_inv in H1. set (a := (1 + u64) ^ S (S (8 + (n + 1)))) in *.
    assert ((a - 1) * T <= / 1000 * T) by (apply Rmult_le_compat_r; lra).
    apply Rle_trans with (INR N / 8); [|lra].
    rewrite Rmult_assoc. rewrite <- (Rmult_1_r (INR N / 8)) at 2. apply Rmult_le_compat_l; lra.
Qed.
Print Assumptions C84_drift.

(** The same record for oadev, which computes the second differences afresh: exactly zero. *)
Example C84_ex_drift : mdev (repeat cst 12) 1%float "phase" (TArr [1%float]) =
    Ok ([1%float], [0x1.e3307cc56cf5cp+1%float], EArr [0x1.3198871a0e80ep+0%float], [10]%Z) /\
  oadev (repeat cst 12) 1%float "phase" (TArr [1%float]) = Ok ([1%float], [0%float], EArr [0%float], [10]%Z).
Proof. split; vm_compute; reflexivity. Qed.

(** The hypotheses hold for an ordinary record, and the results are then tables. *)
Example C84_ex : let x := [1; 2; 4; 8; 8]%float in bounded_record x 8 /\ bpow radix2 (-200) <= 8 <= bpow radix2 200 /\
  moderate_rate 10%float /\ same_request 10%float (TStr "all") (TStr "all") /\
  exists rows, mdev x 10%float "phase" (TStr "all") = Ok (tableF 10%float rows) /\
    mdev (map fR x) (fR 10%float) "phase" (TStr "all") = Ok (tableR (fR 10%float) rows) /\
    map r_n rows = [3]%Z /\ Forall (accurate 11 (40 * INR 5) 8 10%float) rows.
Proof.
  intro x. destruct C81_ex as (Hx & Hr & Hs & _). fold x in Hx.
  assert (H8 : bpow radix2 (-200) <= 8 <= bpow radix2 200) by (change 8 with (bpow radix2 3); split; apply bpow_le; lia).
  split; [exact Hx|]. split; [exact H8|]. split; [exact Hr|]. split; [exact Hs|].
  destruct (C84_accuracy x 10%float 8 _ _ Hx H8 ltac:(discriminate) Hr Hs) as ([[E _]|(rows & E1 & E2 & _ & A)] & _).
  - exfalso. revert E. vm_compute. discriminate.
  - exists rows. split; [exact E1|]. split; [exact E2|]. split; [|exact A].
    assert (G : forall r : @result float, mdev x 10%float "phase" (TStr "all") = Ok r -> snd r = [3]%Z).
    { intros r. vm_compute. intro Q. injection Q as <-. reflexivity. }
    exact (G _ E1).
Qed.
