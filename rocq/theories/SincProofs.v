(** * The integrals of sin⁴z/z² and sin⁶z/z⁴, from the Fejér kernel. *)
From Coq Require Import Reals Arith Lia Lra Psatz.
From Coquelicot Require Import Coquelicot.
From Verif Require Import Base Num Spec RSum.
Local Open Scope R_scope.

(** ** sin²z/z² *)
Definition sinc2 (z : R) : R := if Req_EM_T z 0 then 1 else sin z ^ 2 / z ^ 2.
Lemma sinc2_0 : sinc2 0 = 1. Proof. unfold sinc2. destruct (Req_EM_T 0 0); [reflexivity|lra]. Qed.
Lemma sinc2_nz z : z <> 0 -> sinc2 z = sin z ^ 2 / z ^ 2. Proof. intros H. unfold sinc2. destruct (Req_EM_T z 0); [lra|reflexivity]. Qed.
Lemma sinc2_mul z : sin z ^ 2 = z ^ 2 * sinc2 z.
Proof. destruct (Req_dec z 0) as [->|H]; [rewrite sin_0; ring|rewrite sinc2_nz by exact H; field; exact H]. Qed.
Lemma x_cos_le x : 0 <= x <= PI / 2 -> x * cos x <= sin x.
Proof.
  intros [H0 H1]. destruct (Req_dec x 0) as [->|Hx]; [rewrite sin_0; lra|].
  destruct (MVT_cor2 (fun x => sin x - x * cos x) (fun x => x * sin x) 0 x ltac:(lra)) as (c & E & Hc).
  - intros c _. apply is_derive_Reals. auto_derive; [exact I|ring].
  - rewrite sin_0 in E. assert (0 <= sin c) by (apply sin_ge_0; lra). assert (0 <= c * sin c) by nra. nra.
Qed.
Lemma sin_le x : 0 <= x -> sin x <= x.
Proof. intros [H|<-]; [left; now apply sin_lt_x|rewrite sin_0; lra]. Qed.
Lemma sinc_gap x : 0 <= x <= PI / 2 -> 0 <= x ^ 2 - sin x ^ 2 <= x ^ 2 * sin x ^ 2.
Proof.
  intros Hx. pose proof (x_cos_le x Hx) as A. pose proof (sin_le x ltac:(lra)) as B. assert (S0 : 0 <= sin x) by (apply sin_ge_0; lra). assert (C0 : 0 <= cos x) by (apply cos_ge_0; lra).
  split; [nra|]. pose proof (sin2_cos2 x) as E. unfold Rsqr in E. assert (0 <= x * cos x) by nra. assert ((x * cos x) ^ 2 <= sin x ^ 2) by (apply pow_incr; lra).
  replace ((x * cos x) ^ 2) with (x ^ 2 * (1 - sin x ^ 2)) in H0 by (replace (1 - sin x ^ 2) with (cos x ^ 2) by lra; ring). lra.
Qed.
Lemma sinc2_even z : sinc2 (- z) = sinc2 z.
Proof. destruct (Req_dec z 0) as [->|H]; [now rewrite Ropp_0|]. rewrite !sinc2_nz by lra. rewrite sin_neg. field. exact H. Qed.
Lemma sinc2_near z : Rabs z <= 1 -> 0 <= 1 - sinc2 z <= z ^ 2.
Proof.
  assert (Q : forall z, 0 < z <= 1 -> 0 <= 1 - sinc2 z <= z ^ 2).
  { intros y Hy. pose proof PI2_1. destruct (sinc_gap y ltac:(unfold PI2 in *; lra)) as [A B]. rewrite (sinc2_mul y) in A, B. assert (P : 0 < y ^ 2) by (apply pow_lt; lra).
    assert (sinc2 y <= 1) by nra. split; [lra|]. apply Rmult_le_reg_l with (y ^ 2); [exact P|]. assert (0 <= y ^ 2 * y ^ 2 * (1 - sinc2 y)) by (apply Rmult_le_pos; [apply Rmult_le_pos; lra|lra]). lra. }
  intros H. apply Rabs_le_between in H. destruct (Rtotal_order z 0) as [L|[->|L]].
  - rewrite <- sinc2_even. replace (z ^ 2) with ((- z) ^ 2) by ring. apply Q. lra.
  - rewrite sinc2_0. lra.
  - apply Q. lra.
Qed.
Lemma sinc2_cont z : continuous sinc2 z.
Proof.
  apply continuity_pt_filterlim. destruct (Req_dec z 0) as [->|Hz].
  - intros eps He. exists (Rmin 1 eps). split; [apply Rmin_pos; lra|]. intros x [_ Hx]. cbn in *. unfold R_dist in *. rewrite Rminus_0_r in Hx.
    pose proof (Rmin_l 1 eps). pose proof (Rmin_r 1 eps). destruct (sinc2_near x ltac:(lra)) as [A B]. rewrite sinc2_0, Rabs_minus_sym, Rabs_pos_eq by exact A.
    rewrite <- (pow2_abs x) in B. pose proof (Rabs_pos x). nra.
  - apply continuity_pt_ext_loc with (fun z => sin z ^ 2 / z ^ 2).
    + exists (mkposreal (Rabs z) (Rabs_pos_lt z Hz)). intros y Hy. cbn in Hy. unfold ball in Hy; cbn in Hy; unfold AbsRing_ball, abs, minus, plus, opp in Hy; cbn in Hy.
      symmetry. apply sinc2_nz. intros ->. rewrite Rplus_0_l, Rabs_Ropp in Hy. lra.
    + apply derivable_continuous_pt, ex_derive_Reals_0. auto_derive. repeat split; exact (pow_nonzero z 2 Hz).
Qed.
Definition A (X : R) : R := RInt sinc2 0 X.
Lemma A_0 : A 0 = 0. Proof. unfold A. now rewrite RInt_point. Qed.
Lemma A_derive X : is_derive A X (sinc2 X).
Proof.
  apply (is_derive_RInt sinc2 A 0 X); [|apply sinc2_cont]. exists (mkposreal 1 Rlt_0_1). intros y _. apply (RInt_correct (V := R_CompleteNormedModule)).
  apply (ex_RInt_continuous (V := R_CompleteNormedModule)). intros; apply sinc2_cont.
Qed.

Lemma derive_div (f : R -> R) x l c : is_derive f x l -> is_derive (fun x => f x / c) x (l / c).
Proof. intros H. apply (is_derive_ext (fun x => / c * f x)); [intros t; exact (Rmult_comm (/ c) (f t))|]. replace (l / c) with (/ c * l) by (unfold Rdiv; ring). now apply is_derive_scal. Qed.
Lemma A_lin k x : is_derive (fun x => A (k * x)) x (k * sinc2 (k * x)).
Proof. apply (is_derive_comp A (fun x => k * x)); [apply A_derive|]. auto_derive; [exact I|]. now rewrite Rmult_1_r. Qed.

(** ** The Fejér kernel *)
Definition Dk (k : nat) (x : R) : R := 1 + 2 * bigsum k (fun i => cos (2 * INR (S i) * x)).
Definition Fk (n : nat) (x : R) : R := bigsum n (fun k => Dk k x).
Lemma Dk_sin k x : Dk k x * sin x = sin ((2 * INR k + 1) * x).
Proof.
  induction k as [|k IH].
  - unfold Dk. cbn [bigsum INR]. replace ((2 * 0 + 1) * x) with x by ring. ring.
  - replace (Dk (S k) x) with (Dk k x + 2 * cos (2 * INR (S k) * x)) by (unfold Dk; cbn [bigsum]; ring). rewrite Rmult_plus_distr_r, IH.
    set (a := 2 * INR (S k) * x). replace ((2 * INR k + 1) * x) with (a - x) by (unfold a; rewrite S_INR; ring). replace ((2 * INR (S k) + 1) * x) with (a + x) by (unfold a; ring).
    rewrite sin_plus, sin_minus. ring.
Qed.
Lemma Fk_sin n x : Fk n x * sin x ^ 2 = sin (INR n * x) ^ 2.
Proof.
  induction n as [|n IH]; [replace (INR 0 * x) with 0 by (cbn; ring); rewrite sin_0; unfold Fk; cbn [bigsum]; ring|].
  replace (Fk (S n) x) with (Fk n x + Dk n x) by (unfold Fk; cbn [bigsum]; ring). rewrite Rmult_plus_distr_r, IH.
  replace (Dk n x * sin x ^ 2) with (Dk n x * sin x * sin x) by ring. rewrite Dk_sin, S_INR. set (a := INR n * x).
  replace ((2 * INR n + 1) * x) with (a + (a + x)) by (unfold a; ring). replace ((INR n + 1) * x) with (a + x) by (unfold a; ring).
  rewrite sin_plus. rewrite (sin_plus a x), (cos_plus a x). pose proof (sin2_cos2 a) as E1. pose proof (sin2_cos2 x) as E2. unfold Rsqr in *.
  set (s := sin a) in *. set (c := cos a) in *. set (u := sin x) in *. set (v := cos x) in *.
  replace (s ^ 2) with (s ^ 2 * (u * u + v * v)) by (rewrite E2; ring). ring.
Qed.
Definition Pk (k : nat) (x : R) : R := x + 2 * bigsum k (fun i => sin (2 * INR (S i) * x) / (2 * INR (S i))).
Definition Qk (n : nat) (x : R) : R := bigsum n (fun k => Pk k x).
Lemma bigsum_derive n (f g : nat -> R -> R) x : (forall i, is_derive (f i) x (g i x)) -> is_derive (fun x => bigsum n (fun i => f i x)) x (bigsum n (fun i => g i x)).
Proof. intros H. induction n as [|n IH]; cbn [bigsum]; [apply (is_derive_const (K := R_AbsRing) (V := R_NormedModule))|]. apply (is_derive_plus (K := R_AbsRing) (V := R_NormedModule)); [exact IH|apply H]. Qed.
Lemma Qk_derive n x : is_derive (Qk n) x (Fk n x).
Proof.
  unfold Qk, Fk. apply (bigsum_derive n Pk Dk). intros k. unfold Pk, Dk. apply (is_derive_plus (K := R_AbsRing) (V := R_NormedModule)); [apply (is_derive_id (K := R_AbsRing))|].
  apply is_derive_scal. apply (bigsum_derive k (fun i x => sin (2 * INR (S i) * x) / (2 * INR (S i))) (fun i x => cos (2 * INR (S i) * x))). intros i.
  assert (P : INR (S i) <> 0) by (apply not_0_INR; lia). generalize dependent (INR (S i)). intros r P. auto_derive; [exact I|]. field. exact P.
Qed.
Lemma sin_INR_PI n : sin (INR n * PI) = 0.
Proof. apply sin_eq_0_1. exists (Z.of_nat n). now rewrite INR_IZR_INZ. Qed.
Lemma Qk_end n : Qk n (PI / 2) = INR n * (PI / 2).
Proof.
  unfold Qk. rewrite (bigsum_ext n _ (fun _ => PI / 2)); [now rewrite bigsum_const|]. intros k _. unfold Pk. rewrite bigsum_0; [ring|]. intros i _.
  replace (2 * INR (S i) * (PI / 2)) with (INR (S i) * PI) by field. rewrite sin_INR_PI. unfold Rdiv. ring.
Qed.
Lemma Qk_start n : Qk n 0 = 0.
Proof. unfold Qk. apply bigsum_0. intros k _. unfold Pk. rewrite bigsum_0; [ring|]. intros i _. rewrite Rmult_0_r, sin_0. unfold Rdiv. ring. Qed.
Lemma A_bound n : (1 <= n)%nat -> PI / 2 - PI / (2 * INR n) <= A (INR n * (PI / 2)) <= PI / 2.
Proof.
  intros Hn. pose proof PI_RGT_0 as HP. assert (Pn : 0 < INR n) by (apply lt_0_INR; lia). set (N := INR n) in *.
  destruct (MVT_cor2 (fun x => Qk n x / N - A (N * x)) (fun x => Fk n x / N - N * sinc2 (N * x)) 0 (PI / 2) ltac:(lra)) as (c & E & Hc).
  - intros c _. apply is_derive_Reals. apply (is_derive_minus (K := R_AbsRing) (V := R_NormedModule) (fun x => Qk n x / N) (fun x => A (N * x))).
    + apply derive_div, Qk_derive.
    + apply A_lin.
  - rewrite Qk_end, Qk_start, Rmult_0_r, A_0 in E. fold N in E.
    assert (S0 : 0 < sin c) by (apply sin_gt_0; lra). assert (Ps : 0 < sin c ^ 2) by now apply pow_lt. assert (Pc : 0 < c ^ 2) by (apply pow_lt; lra).
    destruct (sinc_gap c ltac:(lra)) as [G1 G2]. assert (EF := Fk_sin n c). fold N in EF. set (w := sin (N * c) ^ 2) in *.
    assert (Hw : 0 <= w <= 1) by (unfold w; pose proof (SIN_bound (N * c)); split; [apply pow2_ge_0|nra]).
    assert (ES : sinc2 (N * c) = w / (N ^ 2 * c ^ 2)) by (rewrite sinc2_nz by nra; unfold w; field; split; nra).
    assert (EK : Fk n c = w / sin c ^ 2) by (rewrite <- EF; field; lra).
    assert (EU : Fk n c / N - N * sinc2 (N * c) = w * (c ^ 2 - sin c ^ 2) / (N * (c ^ 2 * sin c ^ 2))) by (rewrite EK, ES; field; repeat split; lra).
    assert (B : 0 <= Fk n c / N - N * sinc2 (N * c) <= / N).
    { rewrite EU. assert (Pcs : 0 < c ^ 2 * sin c ^ 2) by nra. assert (PN : 0 < N * (c ^ 2 * sin c ^ 2)) by nra. split.
      - apply Rmult_le_pos; [nra|left; now apply Rinv_0_lt_compat].
      - apply Rmult_le_reg_r with (N * (c ^ 2 * sin c ^ 2)); [exact PN|]. unfold Rdiv. rewrite Rmult_assoc, Rinv_l, Rmult_1_r by lra.
        replace (/ N * (N * (c ^ 2 * sin c ^ 2))) with (c ^ 2 * sin c ^ 2) by (field; lra). nra. }
    replace (N * (PI / 2) / N) with (PI / 2) in E by (field; lra). replace (PI / (2 * N)) with (/ N * (PI / 2)) by (field; lra).
    set (q := Fk n c / N - N * sinc2 (N * c)) in *. nra.
Qed.

(** ** The two transfer functions *)
Definition g4 (z : R) : R := sin z ^ 4 / z ^ 2.
Definition g6 (z : R) : R := sin z ^ 6 / z ^ 4.
Lemma sin4 z : sin z ^ 4 = sin z ^ 2 - sin (2 * z) ^ 2 / 4.
Proof. rewrite sin_2a. pose proof (sin2_cos2 z) as E. unfold Rsqr in E. assert (Ec : cos z ^ 2 = 1 - sin z ^ 2) by lra. replace ((2 * sin z * cos z) ^ 2) with (4 * sin z ^ 2 * cos z ^ 2) by ring. rewrite Ec. field. Qed.
Lemma g4_sinc z : g4 z = sinc2 z - sinc2 (2 * z).
Proof.
  unfold g4. destruct (Req_dec z 0) as [->|H]; [rewrite Rmult_0_r, sin_0; unfold Rdiv; rewrite (pow_i 4) by lia; ring|].
  rewrite sin4, !sinc2_nz by lra. field. exact H.
Qed.
Lemma g4_int X : RInt g4 0 X = A X - A (2 * X) / 2.
Proof.
  apply is_RInt_unique. evar_last; [apply (is_RInt_derive (fun X => A X - A (2 * X) / 2) g4)|].
  - intros x _. rewrite g4_sinc. apply (is_derive_minus (K := R_AbsRing) (V := R_NormedModule) A (fun X => A (2 * X) / 2)); [apply A_derive|].
    replace (sinc2 (2 * x)) with (2 * sinc2 (2 * x) / 2) by field. apply (derive_div (fun X => A (2 * X))), A_lin.
  - intros x _. apply continuous_ext with (fun z => minus (sinc2 z) (sinc2 (2 * z))); [intros; now rewrite g4_sinc|].
    apply (continuous_minus (V := R_NormedModule) sinc2 (fun z => sinc2 (2 * z))); [apply sinc2_cont|]. apply (continuous_comp (fun z => 2 * z) sinc2); [|apply sinc2_cont].
    apply (ex_derive_continuous (fun z : R => 2 * z)). auto_derive. exact I.
  - rewrite Rmult_0_r, A_0. unfold minus, plus, opp; cbn. field.
Qed.
Lemma sin6 z : 5 * sin z ^ 4 - 6 * sin z ^ 6 = - (5 / 8) * sin z ^ 2 + sin (2 * z) ^ 2 - 3 / 8 * sin (3 * z) ^ 2.
Proof.
  replace (3 * z) with (2 * z + z) by ring. rewrite sin_plus, sin_2a, cos_2a. pose proof (sin2_cos2 z) as E. unfold Rsqr in E. assert (Ec : cos z ^ 2 = 1 - sin z ^ 2) by lra.
  set (s := sin z) in *. set (c := cos z) in *. replace ((2 * s * c) ^ 2) with (4 * s ^ 2 * c ^ 2) by ring.
  replace ((2 * s * c * c + (c * c - s * s) * s) ^ 2) with (s ^ 2 * (3 * c ^ 2 - s ^ 2) ^ 2) by ring. rewrite Ec. field.
Qed.
Lemma A_pos_le X : 0 < X -> 0 <= A X <= X.
Proof.
  intros HX. destruct (MVT_cor2 A sinc2 0 X HX) as (c & E & Hc); [intros; apply is_derive_Reals, A_derive|]. rewrite A_0, !Rminus_0_r in E. rewrite E.
  assert (B : 0 <= sinc2 c <= 1); [|nra]. rewrite sinc2_nz by lra. assert (P : 0 < c ^ 2) by (apply pow_lt; lra). split; [apply Rmult_le_pos; [apply pow2_ge_0|left; now apply Rinv_0_lt_compat]|].
  apply Rmult_le_reg_r with (c ^ 2); [exact P|]. unfold Rdiv. rewrite Rmult_assoc, Rinv_l by lra. pose proof (sin_le c ltac:(lra)). pose proof (SIN_bound c).
  destruct (Rle_dec 0 (sin c)) as [L|L]; [nra|]. assert (1 < c); [|nra]. apply Rnot_le_lt. intros Hc1. apply L, sin_ge_0; [lra|]. pose proof PI2_1. unfold PI2 in *. lra.
Qed.
Definition g6_prim (X : R) : R := - (5 / 8) * A X + 2 * A (2 * X) - 9 / 8 * A (3 * X).
Lemma g6_prim_derive X : X <> 0 -> is_derive g6_prim X ((5 * sin X ^ 4 - 6 * sin X ^ 6) / X ^ 2).
Proof.
  intros HX. rewrite sin6. unfold g6_prim.
  replace ((- (5 / 8) * sin X ^ 2 + sin (2 * X) ^ 2 - 3 / 8 * sin (3 * X) ^ 2) / X ^ 2) with (- (5 / 8) * sinc2 X + 2 * (2 * sinc2 (2 * X)) - 9 / 8 * (3 * sinc2 (3 * X)))
    by (rewrite !sinc2_nz by lra; field; exact HX).
  apply (is_derive_minus (K := R_AbsRing) (V := R_NormedModule) (fun X => - (5 / 8) * A X + 2 * A (2 * X)) (fun X => 9 / 8 * A (3 * X))).
  - apply (is_derive_plus (K := R_AbsRing) (V := R_NormedModule) (fun X => - (5 / 8) * A X) (fun X => 2 * A (2 * X))); apply is_derive_scal; [apply A_derive|apply A_lin].
  - apply is_derive_scal, A_lin.
Qed.
(** a primitive of g6 vanishing at 0 is [g6_prim] at the zeros of the sine *)
Lemma g6_int (G : R -> R) X : (forall x, 0 <= x -> is_derive G x (g6 x)) -> G 0 = 0 -> (forall x, 0 < x -> 0 <= g6 x <= 1) -> 0 < X -> sin X = 0 -> G X = g6_prim X.
Proof.
  intros HG G0 Hg HX Hs. set (d := fun X => G X - g6_prim X + (sin X ^ 6 / (3 * X ^ 3) + sin X ^ 5 * cos X / X ^ 2)).
  assert (D : forall x, 0 < x -> derivable_pt_lim d x 0).
  { intros x Hx. apply is_derive_Reals. unfold d.
    assert (E : is_derive (fun X => sin X ^ 6 / (3 * X ^ 3) + sin X ^ 5 * cos X / X ^ 2) x (- (g6 x - (5 * sin x ^ 4 - 6 * sin x ^ 6) / x ^ 2))).
    { unfold g6. auto_derive; [repeat split; [assert (P : 0 < x ^ 3) by (now apply pow_lt); simpl in P |- *; nra|assert (P : 0 < x ^ 2) by (now apply pow_lt); simpl in P |- *; nra]|].
      pose proof (sin2_cos2 x) as E. unfold Rsqr in E. assert (Ec : cos x ^ 2 = 1 - sin x ^ 2) by lra. set (s := sin x) in *. set (c := cos x) in *. clearbody s c.
      replace (5 * s ^ 4 - 6 * s ^ 6) with (5 * s ^ 4 * (c ^ 2 + s ^ 2) - 6 * s ^ 6) by (rewrite Ec; ring). simpl. field. lra. }
    assert (F := is_derive_minus (K := R_AbsRing) (V := R_NormedModule) G g6_prim x _ _ (HG x ltac:(lra)) (g6_prim_derive x ltac:(lra))).
    assert (H := is_derive_plus (K := R_AbsRing) (V := R_NormedModule) _ _ x _ _ F E). unfold plus, minus, opp in H; cbn in H.
    evar_last; [exact H|]. cbn. unfold plus, opp; cbn. ring. }
  assert (B : forall e, 0 < e <= 1 -> Rabs (d e) <= 14 * e).
  { intros e He. unfold d. destruct (MVT_cor2 G g6 0 e ltac:(lra)) as (c & Ec & Hc); [intros c Hc; apply is_derive_Reals, HG; lra|]. rewrite G0, !Rminus_0_r in Ec.
    specialize (Hg c ltac:(lra)). pose proof (A_pos_le e ltac:(lra)) as A1. pose proof (A_pos_le (2 * e) ltac:(lra)) as A2. pose proof (A_pos_le (3 * e) ltac:(lra)) as A3.
    assert (S0 : 0 <= sin e) by (apply sin_ge_0; [lra|]; pose proof PI2_1; unfold PI2 in *; lra). pose proof (sin_le e ltac:(lra)) as S1. pose proof (COS_bound e) as CB.
    assert (Q1 : 0 <= sin e ^ 6 / (3 * e ^ 3) <= e).
    { assert (P : 0 < e ^ 3) by (apply pow_lt; lra). split; [apply Rmult_le_pos; [now apply pow_le|left; apply Rinv_0_lt_compat; lra]|].
      apply Rmult_le_reg_r with (3 * e ^ 3); [lra|]. unfold Rdiv. rewrite Rmult_assoc, Rinv_l, Rmult_1_r by lra. apply Rle_trans with (e ^ 6); [apply pow_incr; lra|].
      replace (e ^ 6) with (e ^ 3 * (e * (e * e))) by ring. replace (e * (3 * e ^ 3)) with (e ^ 3 * (3 * e)) by ring. apply Rmult_le_compat_l; [lra|]. assert (e * e <= 1) by nra. nra. }
    assert (Q2 : Rabs (sin e ^ 5 * cos e / e ^ 2) <= e).
    { assert (P : 0 < e ^ 2) by (apply pow_lt; lra). unfold Rdiv. rewrite !Rabs_mult, (Rabs_pos_eq (/ _)) by (left; now apply Rinv_0_lt_compat). rewrite (Rabs_pos_eq (sin e ^ 5)) by (now apply pow_le).
      assert (K : sin e ^ 5 * Rabs (cos e) <= e ^ 5) by (assert (sin e ^ 5 <= e ^ 5) by (apply pow_incr; lra); assert (0 <= sin e ^ 5) by (now apply pow_le); assert (Rabs (cos e) <= 1) by (apply Rabs_le; lra); pose proof (Rabs_pos (cos e)); nra).
      apply Rmult_le_reg_r with (e ^ 2); [exact P|]. rewrite Rmult_assoc, Rinv_l, Rmult_1_r by lra. eapply Rle_trans; [exact K|]. replace (e ^ 5) with (e ^ 2 * (e * (e * e))) by ring. replace (e * e ^ 2) with (e ^ 2 * e) by ring.
      apply Rmult_le_compat_l; [lra|]. assert (e * e <= 1) by nra. nra. }
    apply Rabs_le_between in Q2. unfold g6_prim. apply Rabs_le_between. rewrite Ec. assert (0 <= g6 c * e <= e) by nra. lra. }
  assert (C : forall x y, 0 < x -> x < y -> d x = d y).
  { intros x y Hx Hy. destruct (MVT_cor2 d (fun _ => 0) x y Hy) as (c & Ec & _); [intros c Hc; apply D; lra|]. lra. }
  assert (Z : d X = 0).
  { destruct (Req_dec (d X) 0) as [E|N]; [exact E|exfalso]. assert (P := Rabs_pos_lt _ N). set (e := Rmin (Rmin 1 (X / 2)) (Rabs (d X) / 28)).
    assert (Pe : 0 < e) by (repeat apply Rmin_pos; lra). assert (e <= Rmin 1 (X / 2)) by apply Rmin_l. assert (e <= Rabs (d X) / 28) by apply Rmin_r.
    pose proof (Rmin_l 1 (X / 2)). pose proof (Rmin_r 1 (X / 2)). specialize (B e ltac:(lra)). rewrite (C e X) in B by lra. lra. }
  unfold d in Z. rewrite Hs, !pow_i in Z by lia. unfold Rdiv in Z. rewrite !Rmult_0_l in Z. lra.
Qed.
