(** * The Allan integral: convergence and change of variable (C79). *)
From Coq Require Import String Reals List ZArith Bool Arith Lia Lra Psatz.
From Coquelicot Require Import Coquelicot.
From Verif Require Import Base Num NpList NumR Spec ListFacts RSum ModelCore ModelNoise ModelNoiseR ModelPsd MiscProofs PropsPsdInv.
Import ListNotations.
Local Open Scope R_scope.
Local Notation len := List.length.

(** ** Specification *)

(** Integrand of the docstring of adev2psd_piecewise_approx: q(z) sin^4(z) / z^(3+mu)
    with q = 1 (ADEV) and q = 4/3 sin^2 (HDEV). *)
Definition weight (hdev : bool) (z : R) : R := if hdev then 4 / 3 * sin z ^ 2 else 1.
Definition kernel (hdev : bool) (mu z : R) : R := weight hdev z * sin z ^ 4 / Rpower z (3 + mu).

(** [v] is the improper integral of [g] over the positive half line. *)
Definition half_line (g : R -> R) (v : R) : Prop :=
  is_RInt_gen g (at_right 0) (Rbar_locally p_infty) v.

(** Same over the interval from [lo] to [up] ([None] is infinity), open at both ends. *)
Definition up_filter (up : option R) : (R -> Prop) -> Prop :=
  match up with Some b => at_left b | None => Rbar_locally p_infty end.
Definition seg_int (g : R -> R) (lo : R) (up : option R) (v : R) : Prop :=
  is_RInt_gen g (at_right lo) (up_filter up) v.

(** Break points of the piecewise PSD with [n] segments. *)
Definition lo_edge (f_nodes : list R) (i : nat) : R := match i with O => 0 | S k => f_nodes.[k] end.
Definition up_edge (f_nodes : list R) (n i : nat) : option R :=
  if Nat.eqb (S i) n then None else Some f_nodes.[i].

(** One-sided PSD h f^a times the transfer function of the Allan variance. *)
Definition allan_density (h a tau f : R) : R := h * Rpower f a * sin (PI * f * tau) ^ 4 / (PI * f * tau) ^ 2.
(** Integrand handed to quad by psd_piecewise_to_adev. *)
Definition z_kernel (a z : R) : R := sin z ^ 4 / Rpower z (2 - a).

Definition upper (hdev : bool) : R := if hdev then 4 else 2.

(** ** Elementary facts *)
Lemma Rpow_pos x y : 0 < Rpower x y.
Proof. apply exp_pos. Qed.

Lemma kernel_nonneg hdev mu z : 0 <= kernel hdev mu z.
Proof.
  unfold kernel. apply Rmult_le_pos; [|left; apply Rinv_0_lt_compat, Rpow_pos].
  apply Rmult_le_pos.
  - unfold weight. destruct hdev; [pose proof (pow2_ge_0 (sin z))|]; lra.
  - replace (sin z ^ 4) with ((sin z ^ 2) ^ 2) by ring. apply pow2_ge_0.
Qed.

Lemma kernel_cont hdev mu z : 0 < z -> continuous (kernel hdev mu) z.
Proof.
  intro H. apply (ex_derive_continuous (kernel hdev mu)). unfold kernel, weight, Rpower.
  pose proof (exp_pos ((3 + mu) * ln z)).
  destruct hdev; auto_derive; repeat split; try lra; try (apply Rgt_not_eq; exact H0).
Qed.

Lemma kernel_ex hdev mu a b : 0 < a -> 0 < b -> ex_RInt (kernel hdev mu) a b.
Proof.
  intros Ha Hb. apply (ex_RInt_continuous (kernel hdev mu)). intros z Hz. apply kernel_cont.
  apply Rlt_le_trans with (2 := proj1 Hz). now apply Rmin_pos.
Qed.

(** monotone in the interval *)
Section Mono.
Variable g : R -> R.
Hypothesis g_nonneg : forall z, 0 < z -> 0 <= g z.
Hypothesis g_ex : forall a b, 0 < a -> 0 < b -> ex_RInt g a b.

Lemma int_nonneg a b : 0 < a -> a <= b -> 0 <= RInt g a b.
Proof.
  intros Ha Hab. apply RInt_ge_0; [exact Hab|apply g_ex; lra|]. intros x Hx. apply g_nonneg. lra.
Qed.
Lemma int_chasles a b c : 0 < a -> 0 < b -> 0 < c -> RInt g a c = RInt g a b + RInt g b c.
Proof. intros. symmetry. apply (RInt_Chasles g); apply g_ex; assumption. Qed.
Lemma int_mono a b c d : 0 < a -> a <= b -> b <= c -> c <= d -> RInt g b c <= RInt g a d.
Proof.
  intros. rewrite (int_chasles a b d), (int_chasles b c d) by lra.
  pose proof (int_nonneg a b). pose proof (int_nonneg c d). lra.
Qed.

(** convergence of the improper integral = boundedness of the partial integrals *)
Lemma half_line_bounded v : half_line g v -> exists B, forall a b, 0 < a -> a <= b -> RInt g a b <= B.
Proof.
  intro H. unfold half_line, is_RInt_gen, filterlimi, filter_le, filtermapi in H.
  specialize (H (ball v (mkposreal 1 Rlt_0_1)) (locally_ball v (mkposreal 1 Rlt_0_1))).
  destruct H as [Qa Qb Ha Hb H].
  destruct Ha as [ea Ha]. destruct Hb as [M Hb]. cbn [fst snd] in H.
  set (a0 := ea / 2). set (b0 := Rmax 1 M + 1).
  exists (v + 1). intros a b Ha' Hab.
  set (al := Rmin a a0). set (bl := Rmax b b0).
  assert (Hea := cond_pos ea).
  assert (0 < al) by (apply Rmin_pos; unfold a0; lra).
  assert (al <= a) by apply Rmin_l. assert (b <= bl) by apply Rmax_l.
  assert (Q1 : Qa al).
  { apply Ha; [|assumption]. change (Rabs (al - 0) < ea). rewrite Rminus_0_r, Rabs_pos_eq by lra.
    apply Rle_lt_trans with a0; [apply Rmin_r|unfold a0; lra]. }
  assert (Q2 : Qb bl).
  { apply Hb. apply Rlt_le_trans with b0; [|apply Rmax_r]. unfold b0. pose proof (Rmax_r 1 M). lra. }
  destruct (H al bl Q1 Q2) as [y [Hy By]].
  assert (Hy2 : RInt g al bl = y) by (apply is_RInt_unique; exact Hy). change (Rabs (y - v) < 1) in By. apply Rabs_def2 in By.
  apply Rle_trans with (RInt g al bl); [apply int_mono; assumption|]. rewrite Hy2. lra.
Qed.

Lemma bounded_half_line B : (forall a b, 0 < a -> a <= b -> RInt g a b <= B) -> exists v, half_line g v /\
  (forall a b, 0 < a -> a <= b -> RInt g a b <= v).
Proof.
  intro HB.
  destruct (completeness (fun s => exists a b, 0 < a /\ a <= b /\ s = RInt g a b)) as [v [U L]].
  - exists B. intros s (a & b & Ha & Hab & ->). now apply HB.
  - exists (RInt g 1 1), 1, 1. repeat split; lra.
  - exists v. split; [|intros a b Ha Hab; apply U; exists a, b; auto].
    unfold half_line, is_RInt_gen. intros P [eps HP]. unfold filtermapi.
    assert (X : exists a b, 0 < a /\ a <= b /\ v - eps < RInt g a b).
    { destruct (Classical_Prop.classic (exists a b, 0 < a /\ a <= b /\ v - eps < RInt g a b)) as [X|X]; [exact X|].
      exfalso. pose proof (cond_pos eps). assert (v <= v - eps); [|lra].
      apply L. intros s (a & b & Ha & Hab & ->). apply Rnot_lt_le. intro. apply X. exists a, b. auto. }
    destruct X as (a & b & Ha & Hab & Hv).
    apply (Filter_prod _ _ _ (fun x => 0 < x < a) (fun x => b < x)).
    + exists (mkposreal a Ha). intros x Hx Hp. change (Rabs (x - 0) < a) in Hx.
      rewrite Rminus_0_r, Rabs_pos_eq in Hx by lra. lra.
    + exists b. auto.
    + intros x y [Hx1 Hx2] Hy. exists (RInt g x y). cbn [fst snd]. split.
      * apply (RInt_correct g). apply g_ex; lra.
      * apply HP. change (Rabs (RInt g x y - v) < eps).
        assert (RInt g x y <= v) by (apply U; exists x, y; repeat split; lra).
        assert (RInt g a b <= RInt g x y) by (apply int_mono; lra).
        apply Rabs_def1; lra.
Qed.

Lemma bounded_seg B x : 0 < x -> (forall a b, 0 < a -> a <= b -> RInt g a b <= B) ->
  exists v, seg_int g 0 (Some x) v.
Proof.
  intros Hx HB.
  destruct (completeness (fun s => exists a b, 0 < a /\ a <= b /\ b < x /\ s = RInt g a b)) as [v [U L]].
  - exists B. intros s (a & b & Ha & Hab & _ & ->). now apply HB.
  - exists (RInt g (x / 2) (x / 2)), (x / 2), (x / 2). repeat split; lra.
  - exists v. unfold seg_int, is_RInt_gen. intros P [eps HP]. unfold filtermapi.
    assert (X : exists a b, 0 < a /\ a <= b /\ b < x /\ v - eps < RInt g a b).
    { destruct (Classical_Prop.classic (exists a b, 0 < a /\ a <= b /\ b < x /\ v - eps < RInt g a b)) as [X|X]; [exact X|].
      exfalso. pose proof (cond_pos eps). assert (v <= v - eps); [|lra].
      apply L. intros s (a & b & Ha & Hab & Hb & ->). apply Rnot_lt_le. intro. apply X. exists a, b. auto. }
    destruct X as (a & b & Ha & Hab & Hb & Hv). assert (Hxb : 0 < x - b) by lra.
    apply (Filter_prod _ _ _ (fun z => 0 < z < a) (fun z => b < z < x)).
    + exists (mkposreal a Ha). intros z Hz Hp. change (Rabs (z - 0) < a) in Hz.
      rewrite Rminus_0_r, Rabs_pos_eq in Hz by lra. lra.
    + exists (mkposreal _ Hxb). intros z Hz Hp. change (Rabs (z - x) < x - b) in Hz. apply Rabs_def2 in Hz. lra.
    + intros z y [Hx1 Hx2] Hy. exists (RInt g z y). cbn [fst snd]. split.
      * apply (RInt_correct g). apply g_ex; lra.
      * apply HP. change (Rabs (RInt g z y - v) < eps).
        assert (RInt g z y <= v) by (apply U; exists z, y; repeat split; lra).
        assert (RInt g a b <= RInt g z y) by (apply int_mono; lra).
        apply Rabs_def1; lra.
Qed.
End Mono.

(** ** Integrals of powers *)
Lemma Rpower_1_l s : Rpower 1 s = 1.
Proof. unfold Rpower. rewrite ln_1, Rmult_0_r. apply exp_0. Qed.

Lemma pow_int a b s : 0 < a -> a <= b -> s <> 0 ->
  is_RInt (fun z => Rpower z (s - 1)) a b (Rpower b s / s - Rpower a s / s).
Proof.
  intros Ha Hab Hs.
  apply (is_RInt_derive (fun z => Rpower z s / s) (fun z => Rpower z (s - 1))).
  - intros z Hz. rewrite Rmin_left, Rmax_right in Hz by lra.
    replace (Rpower z (s - 1)) with (/ s * (s * / z * Rpower z s)).
    + unfold Rpower. auto_derive; [lra|]. field. split; lra.
    + replace (s - 1) with (s + - (1)) by ring. rewrite Rpower_plus, Rpower_Ropp, Rpower_1 by lra. field. split; lra.
  - intros z Hz. rewrite Rmin_left, Rmax_right in Hz by lra.
    apply (ex_derive_continuous (fun z => Rpower z (s - 1))). unfold Rpower. auto_derive. lra.
Qed.

Lemma Rpower_le_1 z s : 1 <= z -> s <= 0 -> Rpower z s <= 1.
Proof.
  intros Hz Hs. rewrite <- (Rpower_O z) by lra. apply Rle_Rpower; lra.
Qed.
Lemma Rpower_le_1' z s : 0 < z -> z <= 1 -> 0 <= s -> Rpower z s <= 1.
Proof.
  intros Hz H1 Hs. unfold Rpower. rewrite <- exp_0.
  assert (ln z <= 0). { rewrite <- ln_1. destruct (Req_dec z 1) as [->|N]; [lra|]. left. apply ln_increasing; lra. }
  destruct (Rle_lt_or_eq_dec (s * ln z) 0 ltac:(nra)) as [Q|Q]; [left; now apply exp_increasing|rewrite Q; lra].
Qed.

Lemma sin_abs_le z : 0 < z -> sin z ^ 2 <= z ^ 2.
Proof.
  intro H. destruct (Rle_dec z 1) as [L|L].
  - assert (0 <= sin z). { apply sin_ge_0; [lra|]. pose proof PI2_3_2. pose proof PI_RGT_0. lra. }
    pose proof (sin_lt_x z H). apply pow_incr. lra.
  - pose proof (SIN_bound z). nra.
Qed.
Lemma sin2_le1 z : sin z ^ 2 <= 1.
Proof. pose proof (SIN_bound z). nra. Qed.

Definition cst (hdev : bool) : R := if hdev then 4 / 3 else 1.
Definition ex (hdev : bool) : nat := if hdev then 3 else 2.
Lemma kernel_eq hdev mu z : kernel hdev mu z = cst hdev * (sin z ^ 2) ^ ex hdev * Rpower z (- (3 + mu)).
Proof. rewrite Rpower_Ropp. unfold kernel, weight, cst, ex, Rdiv. destruct hdev; ring. Qed.
Lemma cst_pos hdev : 0 < cst hdev.
Proof. unfold cst; destruct hdev; lra. Qed.

Lemma kernel_le_0 hdev mu z : 0 < z -> kernel hdev mu z <= cst hdev * Rpower z (upper hdev - mu - 1).
Proof.
  intro H. rewrite kernel_eq, Rmult_assoc. apply Rmult_le_compat_l; [left; apply cst_pos|].
  replace (Rpower z (upper hdev - mu - 1)) with ((z ^ 2) ^ ex hdev * Rpower z (- (3 + mu))).
  - apply Rmult_le_compat_r; [left; apply Rpow_pos|]. apply pow_incr. split; [apply pow2_ge_0|now apply sin_abs_le].
  - rewrite <- pow_mult, <- Rpower_pow by exact H. rewrite <- Rpower_plus. f_equal.
    unfold ex, upper. destruct hdev; cbn [Nat.mul Nat.add INR]; ring.
Qed.
Lemma kernel_le_inf hdev mu z : kernel hdev mu z <= cst hdev * Rpower z (- (2 + mu) - 1).
Proof.
  rewrite kernel_eq, Rmult_assoc. apply Rmult_le_compat_l; [left; apply cst_pos|].
  replace (- (2 + mu) - 1) with (- (3 + mu)) by ring.
  rewrite <- (Rmult_1_l (Rpower z (- (3 + mu)))) at 2. apply Rmult_le_compat_r; [left; apply Rpow_pos|].
  rewrite <- (pow1 (ex hdev)). apply pow_incr. split; [apply pow2_ge_0|apply sin2_le1].
Qed.

Lemma kernel_bounded hdev mu a b : -2 < mu < upper hdev -> 0 < a -> a <= b ->
  RInt (kernel hdev mu) a b <= cst hdev / (upper hdev - mu) + cst hdev / (2 + mu).
Proof.
  intros [M1 M2] Ha Hab. pose proof (cst_pos hdev) as C.
  set (al := Rmin a 1). set (bl := Rmax b 1).
  assert (0 < al) by (apply Rmin_pos; lra). assert (al <= a) by apply Rmin_l. assert (b <= bl) by apply Rmax_l.
  assert (al <= 1) by apply Rmin_r. assert (1 <= bl) by apply Rmax_r.
  apply Rle_trans with (RInt (kernel hdev mu) al bl).
  { apply (int_mono _ (fun z _ => kernel_nonneg hdev mu z) (kernel_ex hdev mu)); assumption. }
  rewrite (int_chasles _ (kernel_ex hdev mu) al 1 bl) by lra. apply Rplus_le_compat.
  - pose proof (pow_int al 1 (upper hdev - mu) H H2 ltac:(lra)) as I.
    apply (is_RInt_scal _ _ _ (cst hdev)) in I.
    apply Rle_trans with (cst hdev * (Rpower 1 (upper hdev - mu) / (upper hdev - mu) - Rpower al (upper hdev - mu) / (upper hdev - mu))).
    + apply (is_RInt_le (kernel hdev mu) (fun z => cst hdev * Rpower z (upper hdev - mu - 1)) al 1); [lra| |exact I|].
      * apply (RInt_correct (kernel hdev mu)). apply kernel_ex; lra.
      * intros z Hz. apply kernel_le_0. lra.
    + rewrite Rpower_1_l. pose proof (Rpow_pos al (upper hdev - mu)).
      assert (0 < Rpower al (upper hdev - mu) / (upper hdev - mu)) by (apply Rdiv_lt_0_compat; lra).
      unfold Rdiv at 3. apply Rmult_le_compat_l; [lra|]. lra.
  - pose proof (pow_int 1 bl (- (2 + mu)) Rlt_0_1 H3 ltac:(lra)) as I.
    apply (is_RInt_scal _ _ _ (cst hdev)) in I.
    apply Rle_trans with (cst hdev * (Rpower bl (- (2 + mu)) / (- (2 + mu)) - Rpower 1 (- (2 + mu)) / (- (2 + mu)))).
    + apply (is_RInt_le (kernel hdev mu) (fun z => cst hdev * Rpower z (- (2 + mu) - 1)) 1 bl); [lra| |exact I|].
      * apply (RInt_correct (kernel hdev mu)). apply kernel_ex; lra.
      * intros z Hz. apply kernel_le_inf.
    + rewrite Rpower_1_l. pose proof (Rpow_pos bl (- (2 + mu))).
      assert (0 < Rpower bl (- (2 + mu)) / (2 + mu)) by (apply Rdiv_lt_0_compat; lra).
      unfold Rdiv at 3. apply Rmult_le_compat_l; [lra|].
      replace (Rpower bl (- (2 + mu)) / - (2 + mu)) with (- (Rpower bl (- (2 + mu)) / (2 + mu))) by (field; lra).
      replace (1 / - (2 + mu)) with (- / (2 + mu)) by (field; lra). lra.
Qed.

(** ** Divergence at and beyond the end points *)
Lemma sin_ge_half z : 0 < z -> z <= 1 -> z / 2 <= sin z.
Proof.
  intros H0 H1. pose proof PI2_3_2 as P. pose proof PI_RGT_0.
  destruct (MVT_gen sin 0 z cos) as [c [Hc E]].
  - intros x Hx. auto_derive; [exact I|ring].
  - intros x Hx. apply continuity_pt_filterlim. apply continuous_sin.
  - rewrite Rmin_left, Rmax_right in Hc by lra. rewrite sin_0, !Rminus_0_r in E. rewrite E.
    assert (1 / 2 <= cos c). { rewrite <- cos_PI3. apply cos_decr_1; lra. }
    nra.
Qed.

Lemma inv_int a b : 0 < a -> a <= b -> is_RInt (fun z => / z) a b (ln b - ln a).
Proof.
  intros Ha Hab. apply (is_RInt_derive ln (fun z => / z)).
  - intros z Hz. rewrite Rmin_left, Rmax_right in Hz by lra. auto_derive; [lra|field; lra].
  - intros z Hz. rewrite Rmin_left, Rmax_right in Hz by lra.
    apply (ex_derive_continuous (fun z => / z)). auto_derive. lra.
Qed.

Lemma kernel_ge_0 hdev mu z : upper hdev <= mu -> 0 < z -> z <= 1 ->
  cst hdev * / 4 ^ ex hdev * / z <= kernel hdev mu z.
Proof.
  intros Hmu H0 H1. rewrite kernel_eq, !Rmult_assoc. apply Rmult_le_compat_l; [left; apply cst_pos|].
  apply Rle_trans with (((z / 2) ^ 2) ^ ex hdev * Rpower z (- (3 + mu))).
  - replace (((z / 2) ^ 2) ^ ex hdev) with (/ 4 ^ ex hdev * (z ^ 2) ^ ex hdev).
    2:{ rewrite <- pow_inv, <- Rpow_mult_distr. f_equal. field. }
    rewrite Rmult_assoc. apply Rmult_le_compat_l; [left; apply Rinv_0_lt_compat, pow_lt; lra|].
    rewrite <- pow_mult, <- Rpower_pow, <- Rpower_plus by exact H0.
    replace (INR (2 * ex hdev) + - (3 + mu)) with (- (mu - upper hdev) + - (1))
      by (unfold ex, upper; destruct hdev; cbn [Nat.mul Nat.add INR]; ring).
    rewrite Rpower_plus, (Rpower_Ropp z 1), Rpower_1 by lra.
    rewrite <- (Rmult_1_l (/ z)) at 1. apply Rmult_le_compat_r; [left; now apply Rinv_0_lt_compat|].
    rewrite Rpower_Ropp. rewrite <- Rinv_1 at 1. apply Rinv_le_contravar; [apply Rpow_pos|].
    apply Rpower_le_1'; lra.
  - apply Rmult_le_compat_r; [left; apply Rpow_pos|]. apply pow_incr. split; [apply pow2_ge_0|].
    pose proof (sin_ge_half z H0 H1). apply pow_incr. lra.
Qed.

Lemma diverges_0 hdev mu B : upper hdev <= mu -> exists a, 0 < a <= 1 /\ B < RInt (kernel hdev mu) a 1.
Proof.
  intro Hmu. set (c := cst hdev * / 4 ^ ex hdev).
  assert (Hc : 0 < c) by (apply Rmult_lt_0_compat; [apply cst_pos|apply Rinv_0_lt_compat, pow_lt; lra]).
  set (a := exp (- (Rabs B + 1) / c)).
  assert (A0 : 0 < a) by apply exp_pos.
  assert (A1 : a <= 1).
  { apply Rle_trans with (exp 0); [|rewrite exp_0; lra]. left. apply exp_increasing. pose proof (Rabs_pos B).
    apply Ropp_lt_cancel. rewrite Ropp_0. replace (- (- (Rabs B + 1) / c)) with ((Rabs B + 1) / c) by (field; lra).
    apply Rdiv_lt_0_compat; lra. }
  exists a. split; [lra|].
  apply Rlt_le_trans with (c * (ln 1 - ln a)).
  - rewrite ln_1. unfold a. rewrite ln_exp. replace (c * (0 - - (Rabs B + 1) / c)) with (Rabs B + 1) by (field; lra).
    pose proof (Rle_abs B). lra.
  - apply (is_RInt_le (fun z => c * / z) (kernel hdev mu) a 1); [lra| | |].
    + apply (is_RInt_scal (fun z => / z) a 1 c). apply inv_int; lra.
    + apply (RInt_correct (kernel hdev mu)). apply kernel_ex; lra.
    + intros z Hz. unfold c. apply kernel_ge_0; lra.
Qed.

Lemma sin2_bernoulli z n : (1 <= n)%nat -> (1 - INR n * cos (2 * z)) / 2 ^ n <= (sin z ^ 2) ^ n.
Proof.
  intro Hn. replace (sin z ^ 2) with ((1 - cos (2 * z)) / 2).
  - unfold Rdiv at 2. rewrite Rpow_mult_distr, pow_inv. unfold Rdiv.
    apply Rmult_le_compat_r; [left; apply Rinv_0_lt_compat, pow_lt; lra|].
    pose proof (COS_bound (2 * z)) as [_ C]. set (c := cos (2 * z)) in *. clearbody c.
    clear Hn. induction n as [|n IH]; [cbn; lra|]. rewrite S_INR. cbn [pow].
    pose proof (pos_INR n). apply Rle_trans with ((1 - c) * (1 - INR n * c)); [|apply Rmult_le_compat_l; lra]. nra.
  - rewrite cos_2a_sin. field.
Qed.

Lemma bern_int n (k : nat) : is_RInt (fun z => (1 - INR n * cos (2 * z)) / 2 ^ n) (INR k * PI) (INR (S k) * PI)
  (PI / 2 ^ n).
Proof.
  assert (P : 0 < 2 ^ n) by (apply pow_lt; lra).
  assert (S0 : forall j, sin (2 * (INR j * PI)) = 0).
  { intro j. replace (2 * (INR j * PI)) with (0 + 2 * INR j * PI) by ring. rewrite sin_period. apply sin_0. }
  replace (PI / 2 ^ n) with ((fun z => (z - INR n / 2 * sin (2 * z)) / 2 ^ n) (INR (S k) * PI)
     - (fun z => (z - INR n / 2 * sin (2 * z)) / 2 ^ n) (INR k * PI)).
  2:{ cbv beta. rewrite !S0. rewrite S_INR. field. lra. }
  apply (is_RInt_derive (fun z => (z - INR n / 2 * sin (2 * z)) / 2 ^ n)).
  - intros z _. auto_derive; [exact I|]. field. lra.
  - intros z _. apply (ex_derive_continuous (fun z => (1 - INR n * cos (2 * z)) / 2 ^ n)). auto_derive. exact I.
Qed.

Lemma kernel_ge_inf hdev mu k : mu <= -2 -> (1 <= k)%nat ->
  cst hdev / 2 ^ ex hdev / INR (S k) <= RInt (kernel hdev mu) (INR k * PI) (INR (S k) * PI).
Proof.
  intros Hmu Hk. pose proof PI_RGT_0 as HP. pose proof PI2_3_2 as P3.
  assert (K1 : 1 <= INR k) by (change 1 with (INR 1); now apply le_INR).
  pose proof (S_INR k) as SK.
  set (d := cst hdev / (INR (S k) * PI)).
  assert (D : 0 < d) by (apply Rdiv_lt_0_compat; [apply cst_pos|apply Rmult_lt_0_compat; lra]).
  replace (cst hdev / 2 ^ ex hdev / INR (S k)) with (d * (PI / 2 ^ ex hdev)).
  2:{ unfold d. field. repeat split; try lra. apply pow_nonzero; lra. }
  apply (is_RInt_le (fun z => d * ((1 - INR (ex hdev) * cos (2 * z)) / 2 ^ ex hdev)) (kernel hdev mu)
    (INR k * PI) (INR (S k) * PI)).
  - apply Rmult_le_compat_r; lra.
  - apply (is_RInt_scal (fun z => (1 - INR (ex hdev) * cos (2 * z)) / 2 ^ ex hdev) _ _ d). apply bern_int.
  - apply (RInt_correct (kernel hdev mu)). apply kernel_ex; apply Rmult_lt_0_compat; lra.
  - intros z [Hz1 Hz2]. rewrite kernel_eq.
    assert (Z1 : 1 <= z) by nra.
    pose proof (sin2_bernoulli z (ex hdev) ltac:(unfold ex; destruct hdev; lia)) as SB.
    apply Rle_trans with (d * (sin z ^ 2) ^ ex hdev); [apply Rmult_le_compat_l; lra|].
    unfold d, Rdiv. rewrite !Rmult_assoc. apply Rmult_le_compat_l; [left; apply cst_pos|].
    rewrite Rmult_comm. apply Rmult_le_compat_l; [apply pow_le, pow2_ge_0|].
    apply Rle_trans with (/ z); [apply Rinv_le_contravar; lra|].
    rewrite <- (Rpower_1 z) at 1 by lra. rewrite <- Rpower_Ropp. apply Rle_Rpower; lra.
Qed.

Lemma diverges_inf hdev mu B : mu <= -2 -> exists b, PI <= b /\ B < RInt (kernel hdev mu) PI b.
Proof.
  intro Hmu. set (c := cst hdev / 2 ^ ex hdev).
  assert (Hc : 0 < c) by (apply Rdiv_lt_0_compat; [apply cst_pos|apply pow_lt; lra]).
  pose proof PI_RGT_0 as HP.
  assert (G : forall n, c * (ln (INR n + 2) - ln 2) <= RInt (kernel hdev mu) PI (INR (S n) * PI)).
  { induction n as [|n IH].
    - cbn [INR]. rewrite Rmult_1_l, Rplus_0_l, RInt_point. unfold zero. cbn. lra.
    - rewrite (int_chasles _ (kernel_ex hdev mu) PI (INR (S n) * PI) (INR (S (S n)) * PI)).
      2:exact HP. 2,3: apply Rmult_lt_0_compat; [apply lt_0_INR; lia|exact HP].
      pose proof (kernel_ge_inf hdev mu (S n) Hmu ltac:(lia)) as K. fold c in K.
      assert (L : ln (INR (S n) + 2) - ln (INR n + 2) <= / INR (S (S n))).
      { pose proof (pos_INR n). rewrite !S_INR. rewrite <- ln_div by lra.
        replace ((INR n + 1 + 2) / (INR n + 2)) with (1 + / (INR n + 2)) by (field; lra).
        replace (INR n + 1 + 1) with (INR n + 2) by ring.
        apply Rle_trans with (ln (exp (/ (INR n + 2)))); [|rewrite ln_exp; lra].
        apply ln_le; [|].
        - assert (0 < / (INR n + 2)) by (apply Rinv_0_lt_compat; lra). lra.
        - left. apply exp_ineq1. apply Rgt_not_eq, Rinv_0_lt_compat. lra. }
      unfold Rdiv in K. apply (Rmult_le_compat_l c) in L; [|lra]. lra. }
  destruct (nfloor_ex (exp (Rabs B / c + 1 + ln 2)) ltac:(left; apply exp_pos)) as [n [_ Hn]].
  exists (INR (S n) * PI). split.
  - rewrite S_INR. pose proof (pos_INR n). nra.
  - apply Rlt_le_trans with (2 := G n).
    assert (Rabs B / c + 1 + ln 2 < ln (INR n + 2)).
    { rewrite <- (ln_exp (Rabs B / c + 1 + ln 2)). apply ln_increasing; [apply exp_pos|]. lra. }
    apply Rle_lt_trans with (c * (Rabs B / c)).
    + replace (c * (Rabs B / c)) with (Rabs B) by (field; lra). apply Rle_abs.
    + apply Rmult_lt_compat_l; lra.
Qed.

(** ** C79 *)

(** The improper integral exists exactly for -2 < mu < 2 (ADEV) and -2 < mu < 4
    (HDEV); it is then positive. *)
Theorem C79_convergence hdev mu : (exists v, half_line (kernel hdev mu) v) <-> -2 < mu < upper hdev.
Proof.
  split.
  - intros [v Hv].
    destruct (half_line_bounded _ (fun z _ => kernel_nonneg hdev mu z) (kernel_ex hdev mu) v Hv) as [B HB].
    split; apply Rnot_le_lt; intro Q.
    + destruct (diverges_inf hdev mu B Q) as [b [H1 H2]]. specialize (HB PI b PI_RGT_0 H1). lra.
    + destruct (diverges_0 hdev mu B Q) as [a [H1 H2]]. specialize (HB a 1 ltac:(lra) ltac:(lra)). lra.
  - intro H.
    destruct (bounded_half_line _ (fun z _ => kernel_nonneg hdev mu z) (kernel_ex hdev mu)
      (cst hdev / (upper hdev - mu) + cst hdev / (2 + mu))) as [v [Hv _]].
    + intros a b Ha Hab. now apply kernel_bounded.
    + now exists v.
Qed.

(** ** Change of variable *)
Lemma z_density h a tau f : 0 < f -> 0 < tau ->
  h / Rpower (PI * tau) (a + 1) * (PI * tau * z_kernel a (PI * tau * f + 0)) = allan_density h a tau f.
Proof.
  intros Hf Ht. pose proof PI_RGT_0 as HP. set (c := PI * tau).
  assert (Hc : 0 < c) by (apply Rmult_lt_0_compat; lra).
  unfold z_kernel, allan_density. rewrite Rplus_0_r. replace (PI * f * tau) with (c * f) by (unfold c; ring).
  rewrite <- Rpower_mult_distr by assumption.
  replace (2 - a) with (INR 2 + - a) by (cbn [INR]; ring). rewrite !Rpower_plus, !Rpower_Ropp, !Rpower_pow by assumption.
  rewrite Rpower_1 by exact Hc.
  pose proof (Rpow_pos c a). pose proof (Rpow_pos f a). field. repeat split; lra.
Qed.

Lemma at_right_scale (P : R -> Prop) c lo : 0 < c -> at_right (c * lo) P -> at_right lo (fun x => P (c * x)).
Proof.
  intros Hc [e He]. assert (Hd : 0 < e / c) by (apply Rdiv_lt_0_compat; [apply cond_pos|exact Hc]).
  exists (mkposreal _ Hd). intros x Hx Hlo. change (Rabs (x - lo) < e / c) in Hx. apply He.
  - change (Rabs (c * x - c * lo) < e). replace (c * x - c * lo) with (c * (x - lo)) by ring.
    rewrite Rabs_mult, (Rabs_pos_eq c) by lra. apply (Rmult_lt_compat_l c) in Hx; [|exact Hc].
    replace (c * (e / c)) with (e : R) in Hx by (field; lra). exact Hx.
  - apply Rmult_lt_compat_l; assumption.
Qed.
Lemma up_scale (P : R -> Prop) c up : 0 < c -> up_filter (edge_scale c up) P -> up_filter up (fun x => P (c * x)).
Proof.
  intros Hc H. destruct up as [b|]; cbn in *.
  - destruct H as [e He]. assert (Hd : 0 < e / c) by (apply Rdiv_lt_0_compat; [apply cond_pos|exact Hc]).
    exists (mkposreal _ Hd). intros x Hx Hlo. change (Rabs (x - b) < e / c) in Hx. apply He.
    + change (Rabs (c * x - c * b) < e). replace (c * x - c * b) with (c * (x - b)) by ring.
      rewrite Rabs_mult, (Rabs_pos_eq c) by lra. apply (Rmult_lt_compat_l c) in Hx; [|exact Hc].
      replace (c * (e / c)) with (e : R) in Hx by (field; lra). exact Hx.
    + apply Rmult_lt_compat_l; assumption.
  - destruct H as [M HM]. exists (M / c). intros x Hx. apply HM.
    apply (Rmult_lt_compat_l c) in Hx; [|exact Hc]. replace (c * (M / c)) with M in Hx by (field; lra). exact Hx.
Qed.
Lemma up_pos up : (forall b, up = Some b -> 0 < b) -> up_filter up (fun x => 0 < x).
Proof.
  intro H. destruct up as [b|]; cbn.
  - specialize (H b eq_refl). exists (mkposreal b H). intros x Hx _. change (Rabs (x - b) < b) in Hx.
    apply Rabs_def2 in Hx. lra.
  - exists 0. auto.
Qed.
Lemma right_pos lo : 0 <= lo -> at_right lo (fun x => 0 < x).
Proof. intro H. exists (mkposreal 1 Rlt_0_1). intros x _ Hx. lra. Qed.

Lemma up_filter_filter up : Filter (up_filter up).
Proof. destruct up as [b|]; cbn; typeclasses eauto. Qed.

(** Substituting z = pi tau f in one segment. *)
Theorem C79_substitution h a tau lo up v : 0 < tau -> 0 <= lo -> (forall b, up = Some b -> 0 < b) ->
  seg_int (z_kernel a) (PI * tau * lo) (edge_scale (PI * tau) up) v ->
  seg_int (allan_density h a tau) lo up (h / Rpower (PI * tau) (a + 1) * v).
Proof.
  intros Ht Hlo Hup H. pose proof PI_RGT_0 as HP. set (c := PI * tau) in *.
  assert (Hc : 0 < c) by (apply Rmult_lt_0_compat; lra).
  set (k := h / Rpower c (a + 1)).
  unfold seg_int, is_RInt_gen, filterlimi, filter_le, filtermapi in *. intros P HPl.
  assert (HPl' : locally v (fun y => P (k * y))).
  { apply (filterlim_scal_r k v P). exact HPl. }
  specialize (H _ HPl'). destruct H as [Qa Qb Ha Hb H]. cbn [fst snd] in H.
  pose proof (up_filter_filter up) as FF.
  apply (Filter_prod _ _ _ (fun x => Qa (c * x) /\ 0 < x) (fun y => Qb (c * y) /\ 0 < y)).
  - apply filter_and; [now apply at_right_scale|now apply right_pos].
  - apply filter_and; [now apply up_scale|now apply up_pos].
  - intros x y [Qx Hx] [Qy Hy]. cbn [fst snd]. destruct (H _ _ Qx Qy) as [l [Il Pl]].
    exists (k * l). split; [|exact Pl].
    assert (Il' : is_RInt (z_kernel a) (c * x + 0) (c * y + 0) l) by (now rewrite !Rplus_0_r).
    apply (is_RInt_comp_lin (z_kernel a) c 0 x y l) in Il'.
    apply (is_RInt_scal _ x y k) in Il'.
    apply (is_RInt_ext (fun f => k * (c * z_kernel a (c * f + 0)))); [|exact Il'].
    intros f Hf. apply z_density; [|exact Ht]. apply Rlt_trans with (Rmin x y); [now apply Rmin_pos|apply Hf].
Qed.

(** psd_piecewise_to_adev with exact quadrature returns the square root of twice
    the integral of the piecewise PSD times sin^4(pi f tau)/(pi f tau)^2. *)
Lemma edges_pyget f n i : (1 <= n)%nat -> len f = (n - 1)%nat -> (i < n)%nat ->
  pyget (Some 0 :: map Some f ++ [None]) (Z.of_nat i) = Ok (Some (lo_edge f i)) /\
  pyget (Some 0 :: map Some f ++ [None]) (Z.of_nat i + 1) = Ok (up_edge f n i).
Proof.
  intros Hn Hf Hi.
  assert (PG : forall {A} (l : list A) d i, (i < len l)%nat -> pyget l (Z.of_nat i) = Ok (nth i l d)).
  { intros A0 l d k Hk. rewrite (list_tab l d) at 1.
    rewrite (pyget_tab _ _ (Z.of_nat k)) by lia. now rewrite Nat2Z.id. }
  replace (Z.of_nat i + 1)%Z with (Z.of_nat (S i)) by lia.
  assert (L : len (Some 0 :: map Some f ++ [None]) = S n).
  { cbn [length]. rewrite app_length, map_length. cbn. lia. }
  rewrite !(PG _ _ None) by lia. cbn [nth]. split; f_equal.
  - destruct i as [|i]; [reflexivity|]. cbn [nth lo_edge]. rewrite app_nth1 by (rewrite map_length; lia).
    rewrite (nth_indep _ None (Some 0)) by (rewrite map_length; lia). now rewrite (map_nth Some).
  - unfold up_edge. destruct (Nat.eqb_spec (S i) n) as [E|N].
    + rewrite app_nth2 by (rewrite map_length; lia). rewrite map_length.
      replace (i - len f)%nat with 0%nat by lia. reflexivity.
    + rewrite app_nth1 by (rewrite map_length; lia).
      rewrite (nth_indep _ None (Some 0)) by (rewrite map_length; lia). now rewrite (map_nth Some).
Qed.

Theorem C79_to_adev Q (h alpha f_nodes taus : list R) : (1 <= len h)%nat -> len alpha = len h ->
  len f_nodes = (len h - 1)%nat -> (forall k, (k < len f_nodes)%nat -> 0 < f_nodes.[k]) ->
  (forall tau, In tau taus -> 0 < tau) ->
  (forall tau i, In tau taus -> (i < len h)%nat ->
     let c := PI * tau in
     seg_int (z_kernel alpha.[i]) (c * lo_edge f_nodes i) (edge_scale c (up_edge f_nodes (len h) i))
       (Q alpha.[i] (c * lo_edge f_nodes i) (edge_scale c (up_edge f_nodes (len h) i)))) ->
  exists dev, psd_to_adev Q h alpha f_nodes taus = Ok dev /\ len dev = len taus /\
  forall k, (k < len taus)%nat -> exists v,
    dev.[k] = sqrt (2 * bigsum (len h) v) /\
    forall i, (i < len h)%nat ->
      seg_int (allan_density h.[i] alpha.[i] taus.[k]) (lo_edge f_nodes i) (up_edge f_nodes (len h) i) (v i).
Proof.
  intros Hn Ha Hf Hpos Htau HQ.
  set (V := fun tau i => h.[i] / Rpower (PI * tau) (alpha.[i] + 1) *
     Q alpha.[i] (PI * tau * lo_edge f_nodes i) (edge_scale (PI * tau) (up_edge f_nodes (len h) i))).
  exists (map (fun tau => sqrt (2 * bigsum (len h) (V tau))) taus). split; [|split; [apply map_length|]].
  - unfold psd_to_adev. apply mapM_tab. intros tau Hin. rewrite (mapM_tab _ (V tau)).
    + cbn [bind]. do 2 f_equal. f_equal. change (map (V tau) (seq 0 (len h))) with (tab (len h) (V tau)).
      apply asum_tab.
    + intros i Hi. apply in_seq in Hi.
      rewrite (pyget_list h i), (pyget_list alpha i) by lia. cbn [bind].
      destruct (edges_pyget f_nodes (len h) i) as [E1 E2]; try lia. rewrite E1, E2. reflexivity.
  - intros k Hk. exists (V taus.[k]). split.
    + rewrite (nth_indep _ 0 ((fun tau => sqrt (2 * bigsum (len h) (V tau))) 0)) by (rewrite map_length; lia).
      now rewrite (map_nth (fun tau => sqrt (2 * bigsum (len h) (V tau)))).
    + intros i Hi. assert (Hin : In taus.[k] taus) by (now apply nth_In).
      apply C79_substitution; [now apply Htau| | |now apply HQ].
      * destruct i as [|i]; cbn [lo_edge]; [lra|]. left. apply Hpos. lia.
      * intros b E. unfold up_edge in E. destruct (Nat.eqb_spec (S i) (len h)); [discriminate|].
        injection E as <-. apply Hpos. lia.
Qed.

(** ** What the range check of adev2psd_piecewise_approx accepts *)

(** Slopes -2 (white phase noise) and 2 pass the check although the integral
    does not exist: whatever quad returned is used. *)
Theorem C79_endpoints_refuted J :
  (exists f s h a, adev2psd J [1; / 2] [1; 2] "adev" (1 / 100000) = Ok (f, s, h, a)) /\
  slope_at [1; / 2] [1; 2] 0 = -2 /\ (forall v, ~ half_line (kernel false (-2)) v) /\
  (exists f s h a, adev2psd J [1; 2] [1; 2] "adev" (1 / 100000) = Ok (f, s, h, a)) /\
  slope_at [1; 2] [1; 2] 0 = 2 /\ (forall v, ~ half_line (kernel false 2) v) /\
  (forall v, ~ half_line (kernel true (-2)) v) /\ (forall v, ~ half_line (kernel true 4) v).
Proof.
  assert (L2 : 0 < ln 2) by apply ln2_pos.
  assert (S1 : slope_at [1; / 2] [1; 2] 0 = -2).
  { unfold slope_at. cbn [nth Nat.add]. replace ((/ 2) ^ 2) with (/ (2 * 2)) by field.
    rewrite ln_Rinv, ln_mult, pow1, ln_1 by lra. field. lra. }
  assert (S2 : slope_at [1; 2] [1; 2] 0 = 2).
  { unfold slope_at. cbn [nth Nat.add]. replace (2 ^ 2) with (2 * 2) by ring.
    rewrite ln_mult, pow1, ln_1 by lra. field. lra. }
  assert (D : forall hdev mu v, mu <= -2 \/ upper hdev <= mu -> ~ half_line (kernel hdev mu) v).
  { intros hdev mu v Hmu Hv. destruct (proj1 (C79_convergence hdev mu) (ex_intro _ v Hv)). lra. }
  assert (A : forall w, 0 < w -> -2 <= slope_at [1; w] [1; 2] 0 <= 2 ->
     exists f s h a, adev2psd J [1; w] [1; 2] "adev" (1 / 100000) = Ok (f, s, h, a)).
  { intros w Hw Hs.
    destruct (C71_shape J [1; w] [1; 2] "adev" false 2 (1 / 100000) [slope_at [1; w] [1; 2] 0])
      as (f & s & h & a & E & _).
    - repeat split; try reflexivity; cbn; try lia.
      + destruct i as [|[|i]]; cbn in *; try lia; lra.
      + destruct i as [|[|i]]; cbn in *; try lia; lra.
      + intros i Hi. destruct i as [|i]; cbn in *; try lia; lra.
    - repeat constructor.
    - unfold slopes. cbn. repeat constructor.
    - intros mu [<-|[]]. exact Hs.
    - exists f, s, h, a. exact E. }
  repeat split; try assumption; try (intro v; apply D; unfold upper; lra).
  - apply A; [lra|]. rewrite S1. lra.
  - apply A; [lra|]. rewrite S2. lra.
Qed.

(** ** Value of the integral: bounds, positivity, truncation *)
Lemma near_int g lo up v (eps : posreal) : seg_int g lo up v ->
  exists Qa Qb : R -> Prop, at_right lo Qa /\ up_filter up Qb /\
    forall a b, Qa a -> Qb b -> Rabs (RInt g a b - v) < eps.
Proof.
  intro H. unfold seg_int, is_RInt_gen, filterlimi, filter_le, filtermapi in H.
  destruct (H (ball v eps) (locally_ball v eps)) as [Qa Qb Ha Hb X].
  exists Qa, Qb. repeat split; try assumption. intros a b A B. destruct (X a b A B) as [y [Hy By]].
  cbn [fst snd] in Hy. assert (E : RInt g a b = y) by (apply is_RInt_unique; exact Hy).
  rewrite E. exact By.
Qed.

Lemma half_line_ge g v a b : (forall z, 0 < z -> 0 <= g z) -> (forall a b, 0 < a -> 0 < b -> ex_RInt g a b) ->
  half_line g v -> 0 < a -> a <= b -> RInt g a b <= v.
Proof.
  intros G X H Ha Hab. apply Rnot_lt_le. intro N.
  assert (Hd : 0 < RInt g a b - v) by lra.
  destruct (near_int g 0 None v (mkposreal _ Hd) H) as (Qa & Qb & A & B & Y). cbn [pos] in Y.
  destruct A as [e A]. destruct B as [M B].
  pose proof (cond_pos e) as Pe.
  set (a1 := Rmin a (e / 2)). set (b1 := Rmax b (M + 1)).
  assert (0 < a1) by (apply Rmin_pos; lra). assert (a1 <= a) by apply Rmin_l. assert (b <= b1) by apply Rmax_l.
  assert (Z : Rabs (RInt g a1 b1 - v) < RInt g a b - v).
  { apply Y.
    - apply A; [|assumption]. change (Rabs (a1 - 0) < e). rewrite Rminus_0_r, Rabs_pos_eq by lra.
      apply Rle_lt_trans with (e / 2); [apply Rmin_r|lra].
    - apply B. apply Rlt_le_trans with (M + 1); [lra|apply Rmax_r]. }
  apply Rabs_def2 in Z. pose proof (int_mono g G X a1 a b b1). lra.
Qed.

Lemma kernel_pos_later hdev mu x : exists b, x < b /\ 0 < b /\
  forall a, 0 < a -> a <= x -> RInt (kernel hdev mu) a x < RInt (kernel hdev mu) a b.
Proof.
  pose proof PI_RGT_0 as HP. pose proof PI2_3_2.
  destruct (nfloor_ex (Rabs x) (Rabs_pos x)) as [n [_ Hn]]. pose proof (Rle_abs x). pose proof (pos_INR n).
  set (l := INR (S n) * PI). set (r := INR (S (S n)) * PI).
  assert (Ll : x < l) by (unfold l; rewrite S_INR; nra).
  assert (L0 : 0 < l) by (unfold l; rewrite S_INR; nra).
  assert (Lr : l < r) by (unfold l, r; rewrite (S_INR (S n)); nra).
  exists r. split; [lra|]. split; [lra|]. intros a Ha Hax.
  pose proof (int_nonneg _ (fun z _ => kernel_nonneg hdev mu z) (kernel_ex hdev mu)) as IN.
  rewrite (int_chasles _ (kernel_ex hdev mu) a x r), (int_chasles _ (kernel_ex hdev mu) x l r) by lra.
  pose proof (IN x l ltac:(lra) ltac:(lra)).
  assert (0 < RInt (kernel hdev mu) l r); [|lra].
  apply RInt_gt_0; [lra| |].
  - intros z [Z1 Z2]. rewrite kernel_eq. apply Rmult_lt_0_compat; [|apply Rpow_pos].
    apply Rmult_lt_0_compat; [apply cst_pos|]. apply pow_lt. apply pow2_gt_0. intro E.
    destruct (sin_eq_0_0 z E) as [k Ek]. unfold l, r in *. rewrite !S_INR in *.
    assert (Q1 : INR n + 1 < IZR k) by (apply (Rmult_lt_reg_r PI); lra).
    assert (Q2 : IZR k < INR n + 1 + 1) by (apply (Rmult_lt_reg_r PI); lra).
    rewrite INR_IZR_INZ, <- plus_IZR in Q1. rewrite INR_IZR_INZ, <- !plus_IZR in Q2.
    apply lt_IZR in Q1. apply lt_IZR in Q2. lia.
  - intros z [Z1 Z2]. apply kernel_cont. lra.
Qed.

(** Exact values of the integral are positive and obey the explicit bound. *)
Theorem C79_value_bounds hdev mu v : half_line (kernel hdev mu) v ->
  0 < v <= cst hdev / (upper hdev - mu) + cst hdev / (2 + mu).
Proof.
  intro H.
  pose proof (fun a b => half_line_ge (kernel hdev mu) v a b (fun z _ => kernel_nonneg hdev mu z)
    (kernel_ex hdev mu) H) as G.
  assert (M : -2 < mu < upper hdev) by (apply (proj1 (C79_convergence hdev mu)); now exists v).
  split.
  - destruct (kernel_pos_later hdev mu 1) as (b & B1 & B0 & B).
    specialize (B 1 Rlt_0_1 (Rle_refl 1)). rewrite RInt_point in B. change (0 < RInt (kernel hdev mu) 1 b) in B.
    specialize (G 1 b Rlt_0_1 (Rlt_le _ _ B1)). lra.
  - apply Rnot_lt_le. intro N.
    set (B := cst hdev / (upper hdev - mu) + cst hdev / (2 + mu)) in *.
    assert (Hd : 0 < v - B) by lra.
    destruct (near_int _ 0 None v (mkposreal _ Hd) H) as (Qa & Qb & [e A] & [T Bq] & Y). cbn [pos] in Y.
    pose proof (cond_pos e) as Pe. set (a1 := Rmin 1 (e / 2)). set (b1 := Rmax 1 (T + 1)).
    assert (0 < a1) by (apply Rmin_pos; lra). assert (a1 <= 1) by apply Rmin_l. assert (1 <= b1) by apply Rmax_l.
    assert (Z : Rabs (RInt (kernel hdev mu) a1 b1 - v) < v - B).
    { apply Y.
      - apply A; [|assumption]. change (Rabs (a1 - 0) < e). rewrite Rminus_0_r, Rabs_pos_eq by lra.
        apply Rle_lt_trans with (e / 2); [apply Rmin_r|lra].
      - apply Bq. apply Rlt_le_trans with (T + 1); [lra|apply Rmax_r]. }
    pose proof (kernel_bounded hdev mu a1 b1 M). fold B in H3. apply Rabs_def2 in Z. lra.
Qed.

(** Cutting the integral at a finite frequency always loses something. *)
Theorem C79_truncation mu x q j : 0 < x -> seg_int (kernel false mu) 0 (Some x) q ->
  half_line (kernel false mu) j -> 0 <= q < j.
Proof.
  intros Hx Hq Hj.
  pose proof (fun a b => half_line_ge (kernel false mu) j a b (fun z _ => kernel_nonneg false mu z)
    (kernel_ex false mu) Hj) as G.
  assert (N : forall (eps : posreal), exists a b, 0 < a /\ a <= b /\ b < x /\ Rabs (RInt (kernel false mu) a b - q) < eps).
  { intro eps. destruct (near_int _ 0 (Some x) q eps Hq) as (Qa & Qb & [ea A] & [eb B] & Y).
    pose proof (cond_pos ea). pose proof (cond_pos eb).
    set (b := x - Rmin (x / 2) (eb / 2)). set (a := Rmin (x / 2) (ea / 2)).
    pose proof (Rmin_l (x / 2) (eb / 2)). pose proof (Rmin_r (x / 2) (eb / 2)).
    pose proof (Rmin_l (x / 2) (ea / 2)). pose proof (Rmin_r (x / 2) (ea / 2)).
    assert (0 < Rmin (x / 2) (eb / 2)) by (apply Rmin_pos; lra).
    assert (0 < a) by (apply Rmin_pos; lra).
    exists a, b. repeat split; try (unfold a, b in *; lra). apply Y.
    - apply A; [|assumption]. change (Rabs (a - 0) < ea). rewrite Rminus_0_r, Rabs_pos_eq by lra. unfold a; lra.
    - apply B; [|unfold b; lra]. change (Rabs (b - x) < eb). unfold b.
      rewrite Rabs_left; lra. }
  destruct (kernel_pos_later false mu x) as (r & R1 & R0 & Hr).
  set (d := RInt (kernel false mu) x r).
  assert (D : 0 < d).
  { specialize (Hr x Hx (Rle_refl x)). rewrite RInt_point in Hr. exact Hr. }
  split.
  - apply Rnot_lt_le. intro Q. assert (Hd : 0 < - q) by lra.
    destruct (N (mkposreal _ Hd)) as (a & b & A & AB & BX & Z). cbn [pos] in Z.
    pose proof (int_nonneg _ (fun z _ => kernel_nonneg false mu z) (kernel_ex false mu) a b A AB).
    apply Rabs_def2 in Z. lra.
  - apply Rnot_le_lt. intro Q.
    destruct (N (mkposreal _ D)) as (a & b & A & AB & BX & Z). cbn [pos] in Z. apply Rabs_def2 in Z.
    pose proof (G a r A ltac:(lra)) as Y.
    rewrite (int_chasles _ (kernel_ex false mu) a x r) in Y by lra. fold d in Y.
    pose proof (int_mono _ (fun z _ => kernel_nonneg false mu z) (kernel_ex false mu) a a b x).
    lra.
Qed.

Lemma z_kernel_eq mu z : z_kernel (- mu - 1) z = kernel false mu z.
Proof. unfold z_kernel, kernel, weight. replace (2 - (- mu - 1)) with (3 + mu) by ring. now rewrite Rmult_1_l. Qed.
Lemma seg_int_ext g g' lo up v : (forall z, g z = g' z) -> seg_int g lo up v -> seg_int g' lo up v.
Proof.
  intros E H P HP. destruct (H P HP) as [Qa Qb A B X]. apply (Filter_prod _ _ _ Qa Qb A B).
  intros a b Ha Hb. destruct (X a b Ha Hb) as [y [Y Py]]. exists y. split; [|exact Py].
  apply (is_RInt_ext g); [|exact Y]. intros; apply E.
Qed.

(** The coefficient formula of adev2psd_piecewise_approx is right: with the exact
    integral, the Allan variance of h f^(-mu-1) is B tau^mu at every tau. *)
Theorem C79_powerlaw B mu j tau : half_line (kernel false mu) j -> 0 < tau ->
  half_line (allan_density (B / (2 * j * Rpower PI mu)) (- mu - 1) tau) (B * Rpower tau mu / 2).
Proof.
  intros Hj Ht. pose proof PI_RGT_0 as HP. destruct (C79_value_bounds false mu j Hj) as [J0 _].
  replace (B * Rpower tau mu / 2) with (B / (2 * j * Rpower PI mu) / Rpower (PI * tau) (- mu - 1 + 1) * j).
  - apply (C79_substitution _ _ tau 0 None); [exact Ht|lra|discriminate|].
    rewrite Rmult_0_r. apply seg_int_ext with (kernel false mu); [intro; symmetry; apply z_kernel_eq|exact Hj].
  - replace (- mu - 1 + 1) with (- mu) by ring. rewrite Rpower_Ropp, <- Rpower_mult_distr by lra.
    pose proof (Rpow_pos PI mu). pose proof (Rpow_pos tau mu). field. lra.
Qed.

(** With exact quadrature the round trip through the function's own nodes gives
    strictly smaller deviations for every exact power law. *)
Theorem C79_roundtrip_refuted Q adev taus C mu j : valid adev taus -> 0 < C ->
  half_line (kernel false mu) j ->
  (forall x, 0 < x -> seg_int (z_kernel (- mu - 1)) 0 (Some x) (Q (- mu - 1) 0 (Some x))) ->
  (forall i, (i < len adev)%nat -> adev.[i] ^ 2 = C * Rpower taus.[i] mu) ->
  exists dev, psd_to_adev Q [C / (2 * j * Rpower PI mu)] [- mu - 1] [1 / taus.[1]; 1 / taus.[0]] taus = Ok dev /\
    len dev = len adev /\ forall i, (i < len adev)%nat -> dev.[i] < adev.[i].
Proof.
  intros V HC Hj HQ Hp. destruct (C79_value_bounds false mu j Hj) as [J0 _].
  destruct (C71_roundtrip_nodes_refuted Q adev taus C mu j V HC J0) as (dev & E & L & X).
  - intros x Hx. apply (C79_truncation mu x); [exact Hx| |exact Hj].
    apply seg_int_ext with (z_kernel (- mu - 1)); [intro; apply z_kernel_eq|now apply HQ].
  - exact Hp.
  - exists dev. split; [exact E|]. split; [exact L|]. intros i Hi. now apply X.
Qed.

(** Examples: white frequency noise (mu = -1) and the flicker floor (mu = 0). *)
Example C79_ex_wfm : exists j, half_line (kernel false (-1)) j /\ 0 < j <= 4 / 3.
Proof.
  destruct (proj2 (C79_convergence false (-1))) as [j Hj]; [unfold upper; lra|].
  exists j. split; [exact Hj|]. pose proof (C79_value_bounds _ _ _ Hj) as B. unfold cst, upper in B. lra.
Qed.
Example C79_ex_flicker_hdev : exists j, half_line (kernel true 0) j.
Proof. apply C79_convergence. unfold upper. lra. Qed.
(** Hypotheses of C79_truncation and C79_roundtrip_refuted: the truncated integrals exist. *)
Example C79_ex_truncation : exists j q, half_line (kernel false (-1)) j /\ seg_int (kernel false (-1)) 0 (Some 2) q /\ 0 <= q < j.
Proof.
  destruct (proj2 (C79_convergence false (-1))) as [j Hj]; [unfold upper; lra|].
  destruct (bounded_seg _ (fun z _ => kernel_nonneg false (-1) z) (kernel_ex false (-1))
     (cst false / (upper false - -1) + cst false / (2 + -1)) 2) as [q Hq]; [lra| |].
  - intros a b Ha Hab. apply kernel_bounded; try assumption. unfold upper. lra.
  - exists j, q. split; [exact Hj|]. split; [exact Hq|]. apply (C79_truncation (-1) 2); [lra|exact Hq|exact Hj].
Qed.
Example C79_ex_powerlaw : exists j, half_line (allan_density (1 / (2 * j * Rpower PI (-1))) (- -1 - 1) 10)
  (1 * Rpower 10 (-1) / 2).
Proof.
  destruct (proj2 (C79_convergence false (-1))) as [j Hj]; [unfold upper; lra|].
  exists j. apply C79_powerlaw; [exact Hj|lra].
Qed.

(** An exact quadrature meeting the hypotheses on Q. *)
Definition exact_quad (a lo : R) (up : option R) : R := RInt_gen (z_kernel a) (at_right lo) (up_filter up).
Lemma exact_quad_ok a lo up : (exists v, seg_int (z_kernel a) lo up v) -> seg_int (z_kernel a) lo up (exact_quad a lo up).
Proof.
  intros [v H]. unfold exact_quad, seg_int.
  assert (PF : ProperFilter' (up_filter up)) by (destruct up; cbn; typeclasses eauto).
  apply (RInt_gen_correct (z_kernel a)). now exists v.
Qed.
Example C79_ex_to_adev : exists dev, psd_to_adev exact_quad [1] [0] [] [10] = Ok dev /\ len dev = 1%nat /\
  exists v, dev.[0] = sqrt (2 * v) /\ half_line (allan_density 1 0 10) v.
Proof.
  destruct (C79_to_adev exact_quad [1] [0] [] [10]) as (dev & E & L & X); try reflexivity; try (cbn; lia).
  - intros tau [<-|[]]. lra.
  - intros tau i [<-|[]] Hi. assert (i = 0%nat) by (cbn in Hi; lia). subst i. cbv zeta. cbn [nth lo_edge].
    rewrite Rmult_0_r. change (edge_scale (PI * 10) (up_edge [] (len [1]) 0)) with (@None R).
    apply exact_quad_ok. destruct (proj2 (C79_convergence false (-1))) as [j Hj]; [unfold upper; lra|].
    exists j. apply seg_int_ext with (kernel false (-1)); [|exact Hj].
    intro z. rewrite <- z_kernel_eq. f_equal. ring.
  - exists dev. split; [exact E|]. split; [exact L|]. destruct (X 0%nat) as (v & Ev & Hv); [cbn; lia|].
    exists (v 0%nat). split.
    + rewrite Ev. f_equal. cbn. ring.
    + apply (Hv 0%nat). cbn. lia.
Qed.
Example C79_ex_roundtrip : exists j dev, half_line (kernel false 0) j /\
  psd_to_adev exact_quad [1 / (2 * j * Rpower PI 0)] [- 0 - 1] [1 / 2; 1 / 1] [1; 2] = Ok dev /\ dev.[1] < 1.
Proof.
  destruct (proj2 (C79_convergence false 0)) as [j Hj]; [unfold upper; lra|].
  destruct (C79_roundtrip_refuted exact_quad [1; 1] [1; 2] 1 0 j) as (dev & E & L & X); [ |lra|exact Hj| | |].
  - repeat split; try reflexivity; cbn; try lia.
    + destruct i as [|[|i]]; cbn in *; try lia; lra.
    + destruct i as [|[|i]]; cbn in *; try lia; lra.
    + intros i Hi. destruct i as [|i]; cbn in *; try lia; lra.
  - intros x Hx. apply exact_quad_ok.
    destruct (bounded_seg _ (fun z _ => kernel_nonneg false 0 z) (kernel_ex false 0)
     (cst false / (upper false - 0) + cst false / (2 + 0)) x Hx) as [q Hq].
    + intros a b Ha Hab. apply kernel_bounded; try assumption. unfold upper. lra.
    + exists q. apply seg_int_ext with (kernel false 0); [intro; symmetry; apply z_kernel_eq|exact Hq].
  - intros i Hi. destruct i as [|[|i]]; cbn [nth] in *; [| |cbn in Hi; lia]; rewrite Rpower_O by lra; ring.
  - exists j, dev. split; [exact Hj|]. split; [exact E|]. apply (X 1%nat). cbn. lia.
Qed.

Print Assumptions C79_convergence.
Print Assumptions C79_substitution.
Print Assumptions C79_to_adev.
Print Assumptions C79_endpoints_refuted.
Print Assumptions C79_value_bounds.
Print Assumptions C79_truncation.
Print Assumptions C79_powerlaw.
Print Assumptions C79_roundtrip_refuted.
