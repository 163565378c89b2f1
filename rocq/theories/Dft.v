(** * Trigonometric sums behind the discrete Fourier transform. *)
From Coq Require Import Reals List ZArith Arith Lia Lra.
From Verif Require Import Base Num NumR Spec RSum.
Local Open Scope R_scope.

Lemma bigsum_swap n m (f : nat -> nat -> R) :
  bigsum n (fun i => bigsum m (fun j => f i j)) = bigsum m (fun j => bigsum n (fun i => f i j)).
Proof.
  induction n as [|n IH]; cbn [bigsum].
  - symmetry. apply bigsum_0. reflexivity.
  - rewrite IH, <- bigsum_plus. reflexivity.
Qed.

Lemma bigsum_prod n m (f g : nat -> R) :
  bigsum n f * bigsum m g = bigsum n (fun i => bigsum m (fun j => f i * g j)).
Proof.
  rewrite <- bigsum_scal_r. apply bigsum_ext. intros i Hi. now rewrite bigsum_scal.
Qed.

(** only index [c] contributes *)
Lemma bigsum_only n c (f : nat -> R) : (c < n)%nat ->
  (forall i, (i < n)%nat -> i <> c -> f i = 0) -> bigsum n f = f c.
Proof.
  intro Hc. induction n as [|n IH]; intro H; [lia|]. cbn [bigsum].
  destruct (Nat.eq_dec n c) as [->|Hne].
  - rewrite (bigsum_0 c f); [lra|]. intros i Hi. apply H; lia.
  - rewrite IH; [|lia|intros; apply H; lia]. rewrite (H n); [lra|lia|lia].
Qed.

Lemma bigsum_trunc n m (f : nat -> R) : (n <= m)%nat ->
  (forall i, (n <= i < m)%nat -> f i = 0) -> bigsum m f = bigsum n f.
Proof.
  intros H Hz. replace m with (n + (m - n))%nat by lia. rewrite bigsum_add.
  rewrite (bigsum_0 (m - n)); [lra|]. intros i Hi. apply Hz. lia.
Qed.

(** ** Integer multiples of pi *)

Lemma sin_int_PI (k : Z) : sin (IZR k * PI) = 0.
Proof. apply sin_eq_0_1. exists k. reflexivity. Qed.

Lemma cos_2int_PI (k : Z) : cos (2 * (IZR k * PI)) = 1.
Proof. rewrite cos_2a_sin, sin_int_PI. lra. Qed.

Lemma sin_2int_PI (k : Z) : sin (2 * (IZR k * PI)) = 0.
Proof. rewrite sin_2a, sin_int_PI. lra. Qed.

Lemma sin_zero_int x : sin x = 0 -> exists k : Z, x = IZR k * PI.
Proof. apply sin_eq_0_0. Qed.

(** sin (pi d / N) <> 0 unless N divides d *)
Lemma sin_frac (d : Z) (N : nat) : (0 < N)%nat -> (forall q, d <> q * Z.of_nat N)%Z ->
  sin (PI * IZR d / INR N) <> 0.
Proof.
  intros HN Hd E. destruct (sin_zero_int _ E) as (k & Hk). apply (Hd k).
  assert (HN' : INR N <> 0) by (apply not_0_INR; lia).
  apply eq_IZR. rewrite mult_IZR, <- INR_IZR_INZ.
  pose proof PI_RGT_0. apply (Rmult_eq_reg_l PI); [|lra].
  replace (PI * (IZR k * INR N)) with (IZR k * PI * INR N) by ring. rewrite <- Hk. field. exact HN'.
Qed.

(** ** Dirichlet sums *)

Lemma dirichlet_cos phi n :
  2 * sin (phi / 2) * bigsum n (fun k => cos (INR k * phi)) = sin ((INR n - 1 / 2) * phi) + sin (phi / 2).
Proof.
  induction n as [|n IH].
  - cbn [bigsum INR]. replace ((0 - 1 / 2) * phi) with (- (phi / 2)) by field. rewrite sin_neg. ring.
  - cbn [bigsum]. rewrite Rmult_plus_distr_l, IH, S_INR.
    replace ((INR n + 1 - 1 / 2) * phi) with (INR n * phi + phi / 2) by field.
    replace ((INR n - 1 / 2) * phi) with (INR n * phi - phi / 2) by field.
    rewrite sin_plus, sin_minus. ring.
Qed.

Lemma dirichlet_sin phi n :
  2 * sin (phi / 2) * bigsum n (fun k => sin (INR k * phi)) = cos (phi / 2) - cos ((INR n - 1 / 2) * phi).
Proof.
  induction n as [|n IH].
  - cbn [bigsum INR]. replace ((0 - 1 / 2) * phi) with (- (phi / 2)) by field. rewrite cos_neg. ring.
  - cbn [bigsum]. rewrite Rmult_plus_distr_l, IH, S_INR.
    replace ((INR n + 1 - 1 / 2) * phi) with (INR n * phi + phi / 2) by field.
    replace ((INR n - 1 / 2) * phi) with (INR n * phi - phi / 2) by field.
    rewrite cos_plus, cos_minus. ring.
Qed.

(** Orthogonality of the N-point characters. *)
Lemma char_cos (d : Z) (N : nat) : (0 < N)%nat -> (forall q, d <> q * Z.of_nat N)%Z ->
  bigsum N (fun k => cos (INR k * (2 * PI * IZR d / INR N))) = 0.
Proof.
  intros HN Hd. assert (HN' : INR N <> 0) by (apply not_0_INR; lia).
  pose proof (dirichlet_cos (2 * PI * IZR d / INR N) N) as E.
  replace (2 * PI * IZR d / INR N / 2) with (PI * IZR d / INR N) in E by (field; exact HN').
  replace ((INR N - 1 / 2) * (2 * PI * IZR d / INR N))
    with (2 * (IZR d * PI) - PI * IZR d / INR N) in E by (field; exact HN').
  rewrite sin_minus, sin_2int_PI, cos_2int_PI in E.
  pose proof (sin_frac d N HN Hd). apply (Rmult_eq_reg_l (2 * sin (PI * IZR d / INR N))); lra.
Qed.

Lemma char_sin (d : Z) (N : nat) : (0 < N)%nat ->
  bigsum N (fun k => sin (INR k * (2 * PI * IZR d / INR N))) = 0.
Proof.
  intros HN. assert (HN' : INR N <> 0) by (apply not_0_INR; lia).
  destruct (Z.eq_dec (d mod Z.of_nat N) 0) as [Hm|Hm].
  - apply Z.mod_divide in Hm; [|lia]. destruct Hm as [q ->]. apply bigsum_0. intros k Hk.
    rewrite mult_IZR, <- INR_IZR_INZ.
    replace (INR k * (2 * PI * (IZR q * INR N) / INR N)) with (2 * (INR k * IZR q * PI)) by (field; exact HN').
    rewrite INR_IZR_INZ, <- mult_IZR. apply sin_2int_PI.
  - assert (Hd : forall q, (d <> q * Z.of_nat N)%Z).
    { intros q ->. apply Hm. apply Z.mod_mul. lia. }
    pose proof (dirichlet_sin (2 * PI * IZR d / INR N) N) as E.
    replace (2 * PI * IZR d / INR N / 2) with (PI * IZR d / INR N) in E by (field; exact HN').
    replace ((INR N - 1 / 2) * (2 * PI * IZR d / INR N))
      with (2 * (IZR d * PI) - PI * IZR d / INR N) in E by (field; exact HN').
    rewrite cos_minus, sin_2int_PI, cos_2int_PI in E.
    pose proof (sin_frac d N HN Hd). apply (Rmult_eq_reg_l (2 * sin (PI * IZR d / INR N))); lra.
Qed.

(** The half-spectrum kernel of irfft for an even number 2n of points. *)
Definition half_kernel (n : nat) (d : Z) : R :=
  1 + bigsum (n - 1) (fun k => 2 * cos (PI * INR (S k) * IZR d / INR n)) + cos (PI * IZR d).

Lemma half_kernel_0 n : (1 <= n)%nat -> half_kernel n 0 = 2 * INR n.
Proof.
  intro H. unfold half_kernel. rewrite Rmult_0_r, cos_0.
  rewrite (bigsum_ext _ _ (fun _ => 2)).
  - rewrite bigsum_const, minus_INR by exact H. cbn. lra.
  - intros k Hk. replace (PI * INR (S k) * 0 / INR n) with 0 by (unfold Rdiv; ring). rewrite cos_0. ring.
Qed.

Lemma half_kernel_nz n (d : Z) : (1 <= n)%nat -> (forall q, d <> q * Z.of_nat (2 * n))%Z ->
  half_kernel n d = 0.
Proof.
  intros Hn Hd. assert (Hn' : INR n <> 0) by (apply not_0_INR; lia).
  set (phi := PI * IZR d / INR n).
  assert (Hs : sin (phi / 2) <> 0).
  { replace (phi / 2) with (PI * IZR d / INR (2 * n)).
    - apply sin_frac; [lia|exact Hd].
    - unfold phi. rewrite mult_INR. cbn [INR]. field. exact Hn'. }
  assert (E : half_kernel n d = 2 * bigsum n (fun k => cos (INR k * phi)) - 1 + cos (INR n * phi)).
  { unfold half_kernel. rewrite bigsum_scal.
    assert (B : bigsum n (fun k => cos (INR k * phi)) =
                1 + bigsum (n - 1) (fun k => cos (INR (S k) * phi))).
    { destruct n as [|n']; [lia|]. rewrite bigsum_S_l. cbn [INR]. rewrite Rmult_0_l, cos_0.
      now replace (S n' - 1)%nat with n' by lia. }
    rewrite B.
    replace (INR n * phi) with (PI * IZR d) by (unfold phi; field; exact Hn').
    rewrite (bigsum_ext (n - 1) (fun k => cos (PI * INR (S k) * IZR d / INR n))
              (fun k => cos (INR (S k) * phi))).
    - ring.
    - intros k Hk. f_equal. unfold phi. field. exact Hn'. }
  rewrite E. pose proof (dirichlet_cos phi n) as D.
  replace ((INR n - 1 / 2) * phi) with (INR n * phi - phi / 2) in D by field.
  assert (S0 : sin (INR n * phi) = 0).
  { replace (INR n * phi) with (IZR d * PI) by (unfold phi; field; exact Hn'). apply sin_int_PI. }
  rewrite sin_minus, S0 in D. apply (Rmult_eq_reg_l (sin (phi / 2))); [|exact Hs]. lra.
Qed.
