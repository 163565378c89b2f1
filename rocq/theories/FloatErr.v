(** * Rounding errors of the binary64 operations, of sums of squares and of square roots. *)
From Coq Require Import ZArith Floats Reals Lra Lia Psatz List Bool.
From Flocq Require Import Core.Core IEEE754.BinarySingleNaN IEEE754.PrimFloat Relative Plus_error Div_sqrt_error.
From Verif Require Import Num NumF NpList FloatFacts.
Import ListNotations.
Local Open Scope R_scope.
Local Notation float := Coq.Floats.PrimFloat.float.
Local Notation len := List.length.

Local Instance p53 : Prec_gt_0 53 := eq_refl.

(** half the smallest positive subnormal number *)
Definition eta : R := bpow radix2 (-1075).

Lemma eta_pos : 0 < eta.
Proof. apply bpow_gt_0. Qed.

Lemma format_fR x : generic_format radix2 (FLT_exp (-1074) 53) (fR x).
Proof. apply (generic_format_B2R prec emax). Qed.

Lemma rnd_bound r : Rabs r <= bpow radix2 1000 -> Rabs (rnd r) < bpow radix2 1024.
Proof.
  intro H. apply Rle_lt_trans with (bpow radix2 1000); [|apply bpow_lt; reflexivity].
  rewrite rnd_FLT. apply abs_round_le_generic; try typeclasses eauto; try exact H.
  apply generic_format_bpow. cbn. lia.
Qed.

Lemma u_ro_u64 : u_ro radix2 53 = u64.
Proof. unfold u_ro. apply half_ulp. Qed.

Lemma fadd_err x y : ffin x -> ffin y -> Rabs (fR x + fR y) <= bpow radix2 1000 ->
  ffin (x + y)%float /\ Rabs (fR (x + y)%float - (fR x + fR y)) <= u64 * Rabs (fR x + fR y).
Proof.
  intros Fx Fy B. destruct (fadd_ok x y Fx Fy (rnd_bound _ B)) as [F V]. split; [exact F|]. rewrite V, rnd_FLT.
  destruct (FLT_plus_error_N_ex radix2 (-1074) 53 (fun z => negb (Z.even z)) (fR x) (fR y) (format_fR x) (format_fR y)) as (e & He & E).
  rewrite E. replace ((fR x + fR y) * (1 + e) - (fR x + fR y)) with (e * (fR x + fR y)) by ring.
  rewrite Rabs_mult. apply Rmult_le_compat_r; [apply Rabs_pos|].
  eapply Rle_trans; [exact He|]. rewrite u_ro_u64. pose proof u64_pos.
  apply (Rmult_le_reg_r (1 + u64)); [lra|]. unfold Rdiv. rewrite Rmult_assoc, Rinv_l by lra. nra.
Qed.

Lemma fsub_err x y : ffin x -> ffin y -> Rabs (fR x - fR y) <= bpow radix2 1000 ->
  ffin (x - y)%float /\ Rabs (fR (x - y)%float - (fR x - fR y)) <= u64 * Rabs (fR x - fR y).
Proof.
  intros Fx Fy B. destruct (fsub_ok x y Fx Fy (rnd_bound _ B)) as [F V]. split; [exact F|]. rewrite V, rnd_FLT.
  destruct (FLT_plus_error_N_ex radix2 (-1074) 53 (fun z => negb (Z.even z)) (fR x) (- fR y) (format_fR x)
     (generic_format_opp _ _ _ (format_fR y))) as (e & He & E).
  change (fR x + - fR y) with (fR x - fR y) in E.
  rewrite E. replace ((fR x - fR y) * (1 + e) - (fR x - fR y)) with (e * (fR x - fR y)) by ring.
  rewrite Rabs_mult. apply Rmult_le_compat_r; [apply Rabs_pos|].
  eapply Rle_trans; [exact He|]. rewrite u_ro_u64. pose proof u64_pos.
  apply (Rmult_le_reg_r (1 + u64)); [lra|]. unfold Rdiv. rewrite Rmult_assoc, Rinv_l by lra. nra.
Qed.

Lemma rnd_err r : Rabs (rnd r - r) <= u64 * Rabs r + eta.
Proof.
  rewrite rnd_FLT. destruct (error_N_FLT radix2 (-1074) 53 ltac:(lia) (fun z => negb (Z.even z)) r) as (e & h & He & Hh & _ & E).
  rewrite E. replace (r * (1 + e) + h - r) with (e * r + h) by ring.
  eapply Rle_trans; [apply Rabs_triang|]. rewrite Rabs_mult. apply Rplus_le_compat.
  - apply Rmult_le_compat_r; [apply Rabs_pos|]. rewrite <- half_ulp. exact He.
  - eapply Rle_trans; [exact Hh|]. unfold eta. change (-1074)%Z with (-1075 + 1)%Z. rewrite bpow_plus.
    change (bpow radix2 1) with 2. lra.
Qed.

Lemma fmul_err x y : ffin x -> ffin y -> Rabs (fR x * fR y) <= bpow radix2 1000 ->
  ffin (x * y)%float /\ Rabs (fR (x * y)%float - fR x * fR y) <= u64 * Rabs (fR x * fR y) + eta.
Proof.
  intros Fx Fy B. destruct (fmul_ok x y Fx Fy (rnd_bound _ B)) as [F V]. split; [exact F|]. rewrite V. apply rnd_err.
Qed.
Lemma fdiv_err x y : ffin x -> fR y <> 0 -> Rabs (fR x / fR y) <= bpow radix2 1000 ->
  ffin (x / y)%float /\ Rabs (fR (x / y)%float - fR x / fR y) <= u64 * Rabs (fR x / fR y) + eta.
Proof.
  intros Fx Ny B. destruct (fdiv_ok x y Fx Ny (rnd_bound _ B)) as [F V]. split; [exact F|]. rewrite V. apply rnd_err.
Qed.

Lemma fsqrt_err x : ffin x -> 0 <= fR x ->
  ffin (Coq.Floats.PrimFloat.sqrt x) /\ 0 <= fR (Coq.Floats.PrimFloat.sqrt x) /\
  Rabs (fR (Coq.Floats.PrimFloat.sqrt x) - R_sqrt.sqrt (fR x)) <= u64 * R_sqrt.sqrt (fR x).
Proof.
  intros Fx Px. destruct (fsqrt_ok x Fx Px) as [F V]. split; [exact F|]. rewrite V. split.
  - rewrite rnd_FLT. assert (Z0 : round radix2 (FLT_exp (-1074) 53) ZnearestE 0 = 0) by (apply round_0; typeclasses eauto).
    apply Rle_trans with (round radix2 (FLT_exp (-1074) 53) ZnearestE 0); [apply Req_le, eq_sym, Z0|].
    apply round_le; try typeclasses eauto. apply sqrt_pos.
  - rewrite rnd_FLT.
    destruct (sqrt_error_N_FLT_ex radix2 53 (fun z => negb (Z.even z)) ltac:(lia) (-1074)%Z ltac:(lia) (fR x) (format_fR x)) as (e & He & E).
    rewrite E. replace (R_sqrt.sqrt (fR x) * (1 + e) - R_sqrt.sqrt (fR x)) with (e * R_sqrt.sqrt (fR x)) by ring.
    rewrite Rabs_mult, (Rabs_pos_eq (R_sqrt.sqrt (fR x))) by apply sqrt_pos.
    apply Rmult_le_compat_r; [apply sqrt_pos|]. eapply Rle_trans; [exact He|]. rewrite u_ro_u64.
    pose proof u64_pos as Pu. set (s := R_sqrt.sqrt (1 + 2 * u64)).
    assert (S1 : 1 <= s) by (rewrite <- sqrt_1; apply sqrt_le_1_alt; lra).
    assert (S2 : s * s = 1 + 2 * u64) by (apply sqrt_sqrt; lra).
    apply (Rmult_le_reg_r s); [lra|]. unfold Rdiv. rewrite Rmult_minus_distr_r, Rmult_1_l, Rmult_1_l, Rinv_l by lra.
    nra.
Qed.

(** doubling is exact *)
Lemma fdouble x : ffin x -> Rabs (fR x) <= bpow radix2 999 ->
  ffin (f_ofZ 2 * x)%float /\ fR (f_ofZ 2 * x)%float = 2 * fR x.
Proof.
  intros Fx B. destruct (fofZ_ok 2 ltac:(lia)) as [F2 V2].
  assert (G : rnd (2 * fR x) = 2 * fR x).
  { rewrite rnd_FLT. apply round_generic; [typeclasses eauto|].
    pose proof (FLT_format_generic radix2 (-1074) 53 (fR x) (format_fR x)) as [f E1 E2 E3].
    apply generic_format_FLT. exists (Float radix2 (Fnum f) (Fexp f + 1)); cbn [Fnum Fexp]; [|exact E2|lia].
    rewrite E1. unfold F2R. cbn [Fnum Fexp]. rewrite bpow_plus. change (bpow radix2 1) with 2. ring. }
  assert (O : Rabs (rnd (fR (f_ofZ 2) * fR x)) < bpow radix2 1024).
  { apply rnd_bound. rewrite V2, Rabs_mult, (Rabs_pos_eq 2) by lra.
    change 1000%Z with (999 + 1)%Z. rewrite bpow_plus. change (bpow radix2 1) with 2. lra. }
  destruct (fmul_ok _ _ F2 Fx O) as [F V]. split; [exact F|]. now rewrite V, V2.
Qed.

(** ** (1+u)^n *)
Lemma pow_u_ge1 n : 1 <= (1 + u64) ^ n.
Proof. apply pow_R1_Rle. pose proof u64_pos. lra. Qed.

Lemma bern n : INR n * u64 < 1 -> (1 + u64) ^ n * (1 - INR n * u64) <= 1.
Proof.
  pose proof u64_pos as Pu. induction n as [|n IH]; intro H; [cbn; lra|].
  rewrite S_INR in H |- *. pose proof (pos_INR n). cbn [pow].
  assert (IH' : (1 + u64) ^ n * (1 - INR n * u64) <= 1) by (apply IH; nra).
  pose proof (pow_u_ge1 n) as P. set (p := (1 + u64) ^ n) in *.
  assert ((1 + u64) * (1 - (INR n + 1) * u64) <= 1 - INR n * u64) by nra.
  apply Rle_trans with (p * (1 - INR n * u64)); [|exact IH'].
  replace ((1 + u64) * p * (1 - (INR n + 1) * u64)) with (p * ((1 + u64) * (1 - (INR n + 1) * u64))) by ring.
  apply Rmult_le_compat_l; lra.
Qed.

(** up to 2^42 roundings accumulate to little more than their number times u *)
Lemma pow_u_le n : (Z.of_nat n <= 2 ^ 42)%Z -> (1 + u64) ^ n - 1 <= (1 + / 1000) * (INR n * u64).
Proof.
  intro H. pose proof u64_pos as Pu.
  assert (B : INR n * u64 <= / 2000).
  { rewrite INR_IZR_INZ. apply IZR_le in H. apply Rle_trans with (IZR (2 ^ 42) * u64).
    - apply Rmult_le_compat_r; lra.
    - unfold u64. cbn. lra. }
  pose proof (pos_INR n) as Pn. pose proof (bern n ltac:(lra)) as Q. pose proof (pow_u_ge1 n) as P.
  set (p := (1 + u64) ^ n) in *. set (w := INR n * u64) in *.
  assert (0 <= w) by (unfold w; nra). nra.
Qed.
Lemma pow_u_small n : (Z.of_nat n <= 2 ^ 42)%Z -> (1 + u64) ^ n - 1 <= / 1000.
Proof.
  intro H. pose proof (pow_u_le n H). 
  assert (B : INR n * u64 <= / 2000).
  { rewrite INR_IZR_INZ. apply IZR_le in H. pose proof u64_pos. apply Rle_trans with (IZR (2 ^ 42) * u64).
    - apply Rmult_le_compat_r; lra.
    - unfold u64. cbn. lra. }
  lra.
Qed.

(** ** Sums of non-negative numbers, in any order of association *)
Inductive stree := Leaf (x : float) | Node (l r : stree).
Fixpoint leaves (t : stree) : list float := match t with Leaf x => [x] | Node l r => leaves l ++ leaves r end.
Fixpoint fsum (t : stree) : float := match t with Leaf x => x | Node l r => (fsum l + fsum r)%float end.
Fixpoint rsum (l : list float) : R := match l with [] => 0 | x :: l => fR x + rsum l end.

Lemma rsum_app a b : rsum (a ++ b) = rsum a + rsum b.
Proof. induction a as [|x a IH]; cbn; [ring|rewrite IH; ring]. Qed.

Lemma rsum_nonneg l : Forall (fun x => ffin x /\ 0 <= fR x) l -> 0 <= rsum l.
Proof. induction 1 as [|x l [_ H] _ IH]; cbn; lra. Qed.

Lemma leaves_pos t : (1 <= len (leaves t))%nat.
Proof. induction t; cbn; [lia|]. rewrite app_length. lia. Qed.

Lemma fsum_err t : Forall (fun x => ffin x /\ 0 <= fR x) (leaves t) -> rsum (leaves t) <= bpow radix2 999 ->
  (Z.of_nat (len (leaves t)) <= 2 ^ 42)%Z ->
  ffin (fsum t) /\ Rabs (fR (fsum t) - rsum (leaves t)) <= ((1 + u64) ^ (len (leaves t) - 1) - 1) * rsum (leaves t).
Proof.
  induction t as [x|l IHl r IHr]; cbn [leaves fsum].
  - intros H _ _. inversion H as [|? ? [Fx _] _]; subst. cbn. split; [exact Fx|].
    rewrite Rplus_0_r, Rminus_diag_eq, Rabs_R0 by reflexivity. lra.
  - intros H B N. apply Forall_app in H as [Hl Hr]. rewrite rsum_app in B |- *. rewrite app_length in N |- *.
    pose proof (rsum_nonneg _ Hl) as Pl. pose proof (rsum_nonneg _ Hr) as Pr.
    pose proof (leaves_pos l) as Ll. pose proof (leaves_pos r) as Lr.
    destruct (IHl Hl ltac:(lra) ltac:(lia)) as [Fl El]. destruct (IHr Hr ltac:(lra) ltac:(lia)) as [Fr Er].
    set (nl := len (leaves l)) in *. set (nr := len (leaves r)) in *.
    set (sl := rsum (leaves l)) in *. set (sr := rsum (leaves r)) in *.
    set (a := fR (fsum l)) in *. set (b := fR (fsum r)) in *.
    pose proof (pow_u_ge1 (nl - 1)) as Gl. pose proof (pow_u_ge1 (nr - 1)) as Gr. pose proof u64_pos as Pu.
    set (p := (1 + u64) ^ (nl + nr - 2)).
    assert (Pl' : (1 + u64) ^ (nl - 1) <= p) by (apply Rle_pow; [lra|lia]).
    assert (Pr' : (1 + u64) ^ (nr - 1) <= p) by (apply Rle_pow; [lra|lia]).
    assert (E : Rabs (a + b - (sl + sr)) <= (p - 1) * (sl + sr)).
    { replace (a + b - (sl + sr)) with ((a - sl) + (b - sr)) by ring. eapply Rle_trans; [apply Rabs_triang|].
      rewrite Rmult_plus_distr_l. apply Rplus_le_compat.
      - eapply Rle_trans; [exact El|]. apply Rmult_le_compat_r; lra.
      - eapply Rle_trans; [exact Er|]. apply Rmult_le_compat_r; lra. }
    assert (Sm : p - 1 <= / 1000) by (apply pow_u_small; lia).
    assert (A : Rabs (a + b) <= p * (sl + sr)).
    { replace (a + b) with ((a + b - (sl + sr)) + (sl + sr)) by ring. eapply Rle_trans; [apply Rabs_triang|].
      rewrite (Rabs_pos_eq (sl + sr)) by lra. lra. }
    assert (O : Rabs (a + b) <= bpow radix2 1000).
    { eapply Rle_trans; [exact A|]. change 1000%Z with (999 + 1)%Z. rewrite bpow_plus. change (bpow radix2 1) with 2. nra. }
    destruct (fadd_err _ _ Fl Fr O) as [F V]. split; [exact F|].
    fold a b in V. replace (nl + nr - 1)%nat with (S (nl + nr - 2)) by lia. cbn [pow]. fold p.
    replace (fR (fsum l + fsum r)%float - (sl + sr)) with ((fR (fsum l + fsum r)%float - (a + b)) + (a + b - (sl + sr))) by ring.
    eapply Rle_trans; [apply Rabs_triang|]. nra.
Qed.

(** the sequential sum is one such order *)
Lemma asum_tree_aux l : forall t, exists t', fold_left (@nadd float FNum) l (fsum t) = fsum t' /\ leaves t' = leaves t ++ l.
Proof.
  induction l as [|x l IH]; intro t; cbn [fold_left].
  - exists t. rewrite app_nil_r. auto.
  - destruct (IH (Node t (Leaf x))) as (t' & E & L). exists t'. split; [exact E|]. rewrite L. cbn. now rewrite <- app_assoc.
Qed.
Lemma asum_tree l : exists t, @asum float FNum l = fsum t /\ leaves t = f_ofZ 0 :: l.
Proof. destruct (asum_tree_aux l (Leaf (f_ofZ 0))) as (t & E & L). exists t. auto. Qed.

(** ** Square root of a perturbed square *)
Lemma sqrt_pert W T c z : 0 <= W -> 0 <= T -> 0 <= c < 1 -> 0 <= z ->
  Rabs (W - T * T) <= c * (T * T) + z * z -> Rabs (R_sqrt.sqrt W - T) <= c * T + z.
Proof.
  intros PW PT Pc Pz H. apply Rabs_le_inv in H. apply Rabs_le. split.
  - destruct (Rle_lt_dec (T * (1 - c)) z) as [L|L].
    + pose proof (sqrt_pos W). lra.
    + assert (Q : T * (1 - c) - z <= R_sqrt.sqrt W); [|lra].
      rewrite <- (sqrt_Rsqr (T * (1 - c) - z)) by lra. apply sqrt_le_1_alt. unfold Rsqr.
      assert (T * (1 - c) * (T * (1 - c)) <= T * T * (1 - c)).
      { replace (T * (1 - c) * (T * (1 - c))) with (T * T * (1 - c) * (1 - c)) by ring.
        assert (0 <= T * T * (1 - c)) by (apply Rmult_le_pos; nra). nra. }
      assert (z * (T * (1 - c)) >= z * z) by nra. nra.
  - assert (Q : R_sqrt.sqrt W <= T + c * T + z); [|lra].
    rewrite <- (sqrt_Rsqr (T + c * T + z)) by nra. apply sqrt_le_1_alt. unfold Rsqr.
    assert (0 <= c * T) by nra. assert (0 <= z * (T + c * T)) by nra. nra.
Qed.
