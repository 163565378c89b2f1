(** * numpy_psd (C76). *)
From Coq Require Import String Reals List ZArith Bool Arith Lia Lra.
From Verif Require Import Base Num NpList NumR Spec ListFacts RSum Dft ModelCore ModelMisc ModelCi ModelNoise ModelNoiseR NoiseProofs.
Import ListNotations.
Local Open Scope R_scope.
Local Notation len := List.length.

(** mean square, mean, and alternating mean of a record *)
Definition mean_square (x : list R) : R := bigsum (len x) (fun i => x.[i] ^ 2) / INR (len x).
Definition average (x : list R) : R := bigsum (len x) (fun i => x.[i]) / INR (len x).
Definition alternating (x : list R) : R := bigsum (len x) (fun i => (-1) ^ i * x.[i]) / INR (len x).

(** |X_k|^2 as a double sum *)
Definition pw (N : nat) (x : nat -> R) (k : nat) : R := dc N x k ^ 2 + ds N x k ^ 2.

Lemma pw_double N x k : (1 <= N)%nat -> pw N x k =
  bigsum N (fun p => bigsum N (fun q => x p * x q *
    cos (2 * PI * INR k * IZR (Z.of_nat p - Z.of_nat q) / INR N))).
Proof.
  intro HN. assert (HN' : INR N <> 0) by (apply not_0_INR; lia).
  unfold pw. cbn [pow]. rewrite !Rmult_1_r. unfold dc, ds. rewrite !bigsum_prod.
  rewrite <- bigsum_plus. apply bigsum_ext. intros p Hp. rewrite <- bigsum_plus.
  apply bigsum_ext. intros q Hq. rewrite minus_IZR, <- !INR_IZR_INZ.
  replace (2 * PI * INR k * (INR p - INR q) / INR N)
    with (2 * PI * INR k * INR p / INR N - 2 * PI * INR k * INR q / INR N) by (field; exact HN').
  rewrite cos_minus. ring.
Qed.

Lemma diag_sum N x (K : Z -> R) c : K 0%Z = c ->
  (forall d, (d <> 0)%Z -> (- Z.of_nat N < d < Z.of_nat N)%Z -> K d = 0) ->
  bigsum N (fun p => bigsum N (fun q => x p * x q * K (Z.of_nat p - Z.of_nat q)%Z)) =
  c * bigsum N (fun p => x p ^ 2).
Proof.
  intros H0 Hz. rewrite <- bigsum_scal. apply bigsum_ext. intros p Hp.
  rewrite (bigsum_only N p); [|exact Hp|].
  - rewrite Z.sub_diag, H0. ring.
  - intros q Hq Hne. rewrite Hz; [ring|lia|lia].
Qed.

Lemma no_multiple (d : Z) (N : nat) : (d <> 0)%Z -> (- Z.of_nat N < d < Z.of_nat N)%Z ->
  forall q, (d <> q * Z.of_nat N)%Z.
Proof. intros H0 H q E. assert (q = 0 \/ q <= -1 \/ 1 <= q)%Z as [->|[?|?]] by lia; nia. Qed.

Lemma dc_0 N x : dc N x 0 = bigsum N x.
Proof.
  unfold dc. apply bigsum_ext. intros i Hi.
  replace (2 * PI * INR 0 * INR i / INR N) with 0 by (cbn [INR]; unfold Rdiv; ring).
  rewrite cos_0. ring.
Qed.
Lemma ds_0 N x : ds N x 0 = 0.
Proof.
  unfold ds. apply bigsum_0. intros i Hi.
  replace (2 * PI * INR 0 * INR i / INR N) with 0 by (cbn [INR]; unfold Rdiv; ring).
  rewrite sin_0. ring.
Qed.

Lemma cos_int_PI i : cos (PI * INR i) = (-1) ^ i.
Proof.
  induction i as [|i IH]; [cbn [INR pow]; rewrite Rmult_0_r; apply cos_0|].
  rewrite S_INR. replace (PI * (INR i + 1)) with (PI * INR i + PI) by ring.
  rewrite neg_cos, IH. cbn [pow]. ring.
Qed.

Lemma dc_nyq n x : (1 <= n)%nat -> dc (2 * n) x n = bigsum (2 * n) (fun i => (-1) ^ i * x i).
Proof.
  intro Hn. assert (Hn' : INR n <> 0) by (apply not_0_INR; lia).
  unfold dc. apply bigsum_ext. intros i Hi. rewrite mult_INR. cbn [INR].
  replace (2 * PI * INR n * INR i / ((1 + 1) * INR n)) with (PI * INR i) by (field; exact Hn').
  rewrite cos_int_PI. ring.
Qed.
Lemma ds_nyq n x : (1 <= n)%nat -> ds (2 * n) x n = 0.
Proof.
  intro Hn. assert (Hn' : INR n <> 0) by (apply not_0_INR; lia).
  unfold ds. apply bigsum_0. intros i Hi. rewrite mult_INR. cbn [INR].
  replace (2 * PI * INR n * INR i / ((1 + 1) * INR n)) with (IZR (Z.of_nat i) * PI)
    by (rewrite <- INR_IZR_INZ; field; exact Hn').
  rewrite sin_int_PI. ring.
Qed.

(** Parseval over the half spectrum *)
Lemma parseval_even n x : (1 <= n)%nat ->
  2 * bigsum (S n) (pw (2 * n) x) =
  2 * INR n * bigsum (2 * n) (fun p => x p ^ 2) + pw (2 * n) x 0 + pw (2 * n) x n.
Proof.
  intro Hn. assert (Hn' : INR n <> 0) by (apply not_0_INR; lia).
  rewrite <- (diag_sum (2 * n) x (half_kernel n) (2 * INR n)).
  - assert (E : bigsum (2 * n) (fun p => bigsum (2 * n) (fun q => x p * x q * half_kernel n (Z.of_nat p - Z.of_nat q))) =
       pw (2 * n) x 0 + 2 * bigsum (n - 1) (fun k => pw (2 * n) x (S k)) + pw (2 * n) x n).
    { rewrite !pw_double by lia.
      rewrite (bigsum_ext (n - 1) (fun k => pw (2 * n) x (S k)) (fun k =>
        bigsum (2 * n) (fun p => bigsum (2 * n) (fun q => x p * x q *
          cos (2 * PI * INR (S k) * IZR (Z.of_nat p - Z.of_nat q) / INR (2 * n))))))
        by (intros; apply pw_double; lia).
      rewrite (bigsum_swap (n - 1)), <- bigsum_scal, <- !bigsum_plus. apply bigsum_ext. intros p Hp.
      rewrite (bigsum_swap (n - 1)), <- bigsum_scal, <- !bigsum_plus. apply bigsum_ext. intros q Hq.
      set (d := (Z.of_nat p - Z.of_nat q)%Z). rewrite bigsum_scal. unfold half_kernel.
      rewrite mult_INR. change (INR 2) with 2. change (INR 0) with 0.
      replace (2 * PI * 0 * IZR d / (2 * INR n)) with 0 by (field; exact Hn'). rewrite cos_0.
      replace (2 * PI * INR n * IZR d / (2 * INR n)) with (PI * IZR d) by (field; exact Hn').
      rewrite bigsum_scal.
      rewrite (bigsum_ext (n - 1) (fun k => cos (PI * INR (S k) * IZR d / INR n))
        (fun k => cos (2 * PI * INR (S k) * IZR d / (2 * INR n)))).
      - ring.
      - intros k Hk. f_equal. field. exact Hn'. }
    rewrite E. cbn [bigsum].
    assert (B : bigsum n (pw (2 * n) x) = pw (2 * n) x 0 + bigsum (n - 1) (fun k => pw (2 * n) x (S k))).
    { destruct n as [|m]; [lia|]. rewrite bigsum_S_l. now replace (S m - 1)%nat with m by lia. }
    rewrite B. ring.
  - now apply half_kernel_0.
  - intros d Hd Hr. apply half_kernel_nz; [exact Hn|]. now apply no_multiple.
Qed.

Definition odd_kernel (n : nat) (d : Z) : R :=
  2 * bigsum (S n) (fun k => cos (INR k * (2 * PI * IZR d / INR (2 * n + 1)))) - 1.

Lemma odd_kernel_0 n : odd_kernel n 0 = INR (2 * n + 1).
Proof.
  unfold odd_kernel. rewrite (bigsum_ext (S n) _ (fun _ => 1)).
  - rewrite bigsum_const, S_INR, plus_INR, mult_INR. cbn. ring.
  - intros k Hk. replace (INR k * (2 * PI * 0 / INR (2 * n + 1))) with 0 by (unfold Rdiv; ring). apply cos_0.
Qed.

Lemma odd_kernel_nz n (d : Z) : (forall q, d <> q * Z.of_nat (2 * n + 1))%Z -> odd_kernel n d = 0.
Proof.
  intro Hd. unfold odd_kernel. set (N := (2 * n + 1)%nat) in *.
  assert (HN' : INR N <> 0) by (apply not_0_INR; unfold N; lia).
  pose proof (dirichlet_cos (2 * PI * IZR d / INR N) (S n)) as E.
  assert (EN : INR N = 2 * INR n + 1) by (unfold N; rewrite plus_INR, mult_INR; cbn; ring).
  replace (2 * PI * IZR d / INR N / 2) with (PI * IZR d / INR N) in E by (field; exact HN').
  replace ((INR (S n) - 1 / 2) * (2 * PI * IZR d / INR N)) with (IZR d * PI) in E.
  2:{ rewrite S_INR. rewrite EN in *. field. lra. }
  rewrite sin_int_PI in E.
  pose proof (sin_frac d N ltac:(unfold N; lia) Hd). apply (Rmult_eq_reg_l (sin (PI * IZR d / INR N))); lra.
Qed.

Lemma parseval_odd n x :
  2 * bigsum (S n) (pw (2 * n + 1) x) =
  INR (2 * n + 1) * bigsum (2 * n + 1) (fun p => x p ^ 2) + pw (2 * n + 1) x 0.
Proof.
  set (N := (2 * n + 1)%nat). assert (HN' : INR N <> 0) by (apply not_0_INR; unfold N; lia).
  rewrite <- (diag_sum N x (odd_kernel n) (INR N)).
  - rewrite (pw_double N x 0) by (unfold N; lia).
    rewrite (bigsum_ext (S n) (pw N x) (fun k =>
        bigsum N (fun p => bigsum N (fun q => x p * x q *
          cos (INR k * (2 * PI * IZR (Z.of_nat p - Z.of_nat q) / INR N)))))).
    2:{ intros k Hk. rewrite pw_double by (unfold N; lia). apply bigsum_ext. intros p Hp. apply bigsum_ext.
        intros q Hq. f_equal. f_equal. field. exact HN'. }
    rewrite (bigsum_swap (S n)), <- bigsum_scal, <- !bigsum_plus. apply bigsum_ext. intros p Hp.
    rewrite (bigsum_swap (S n)), <- bigsum_scal, <- !bigsum_plus. apply bigsum_ext. intros q Hq.
    set (d := (Z.of_nat p - Z.of_nat q)%Z). rewrite bigsum_scal.
    replace (2 * PI * INR 0 * IZR d / INR N) with 0 by (cbn [INR]; field; exact HN'). rewrite cos_0.
    unfold odd_kernel. fold N. ring.
  - apply odd_kernel_0.
  - intros d Hd Hr. apply odd_kernel_nz. now apply no_multiple.
Qed.

Lemma Ok_pair {A B} (a c : A) (b d : B) : Ok (a, b) = Ok (c, d) -> a = c /\ b = d.
Proof. intro E. now inversion E. Qed.

(** the function computed *)
Lemma numpy_psd_eq x fs : x <> [] -> fs <> 0 ->
  numpy_psd x fs = Ok (tab (len x / 2 + 1) (fun k => INR k * (fs / 2 / INR (len x / 2))),
    tab (len x / 2 + 1) (fun k => 2 / (INR (len x) * fs) * pw (len x) (fun i => x.[i]) k)).
Proof.
  intros Hx Hf. assert (L : (1 <= len x)%nat) by (destruct x; [contradiction|cbn; lia]).
  assert (HN' : INR (len x) <> 0) by (apply not_0_INR; lia).
  unfold numpy_psd, pydiv. cbn [neqb ofZ ndiv RNum]. unfold Reqb.
  destruct (Req_EM_T (INR (len x) * fs) 0) as [E|_].
  { apply Rmult_integral in E. destruct E; contradiction. }
  cbn [bind]. rewrite (list_tab x 0) at 1. rewrite rfft_tab by exact L. cbn [bind].
  rewrite map_tab, tab_length. do 2 f_equal.
  - unfold linspace. apply tab_ext. intros k Hk. rewrite Nat.add_sub.
    replace (fs / 2 - 0) with (fs / 2) by ring. ring.
  - apply tab_ext. intros k Hk. cbn [fst snd]. unfold pw. ring.
Qed.

(** C76: the frequency axis is right for even record lengths ... *)
Theorem C76_axis_even x fs n f S : (1 <= n)%nat -> len x = (2 * n)%nat -> fs <> 0 ->
  numpy_psd x fs = Ok (f, S) ->
  len f = (n + 1)%nat /\ len S = (n + 1)%nat /\
  forall k, (k <= n)%nat -> f.[k] = INR k * fs / INR (len x).
Proof.
  intros Hn L Hf E. rewrite numpy_psd_eq in E; [|intros ->; cbn in L; lia|exact Hf].
  apply Ok_pair in E. destruct E as [<- <-]. rewrite !tab_length, L.
  assert (E2 : (2 * n / 2 = n)%nat) by (rewrite Nat.mul_comm; apply Nat.div_mul; lia). rewrite E2.
  split; [reflexivity|]. split; [reflexivity|]. intros k Hk. rewrite nth_tab by lia.
  rewrite mult_INR. cbn [INR]. field. apply not_0_INR. lia.
Qed.

(** ... and for odd lengths every entry is too large by N/(N-1): bin k is at
    k fs / N but the axis says k fs / (N-1). *)
Theorem C76_axis_odd x fs n f S : (1 <= n)%nat -> len x = (2 * n + 1)%nat -> fs <> 0 ->
  numpy_psd x fs = Ok (f, S) ->
  len f = (n + 1)%nat /\ len S = (n + 1)%nat /\
  forall k, (k <= n)%nat -> f.[k] = INR k * fs / (INR (len x) - 1).
Proof.
  intros Hn L Hf E. rewrite numpy_psd_eq in E; [|intros ->; cbn in L; lia|exact Hf].
  apply Ok_pair in E. destruct E as [<- <-]. rewrite !tab_length, L.
  assert (E2 : ((2 * n + 1) / 2 = n)%nat).
  { symmetry. apply (Nat.div_unique _ 2 n 1); lia. }
  rewrite E2.
  split; [reflexivity|]. split; [reflexivity|]. intros k Hk. rewrite nth_tab by lia.
  rewrite plus_INR, mult_INR. cbn [INR].
  assert (INR n <> 0) by (apply not_0_INR; lia). field. split; [lra|assumption].
Qed.

(** The PSD integrates to the mean square, plus a second copy of the power of
    the mean and (even lengths) of the alternating component: these two bins
    are not to be doubled in a one-sided PSD. *)
Theorem C76_parseval_even x fs n f S : (1 <= n)%nat -> len x = (2 * n)%nat -> fs <> 0 ->
  numpy_psd x fs = Ok (f, S) ->
  bigsum (len S) (fun k => S.[k]) * (fs / INR (len x)) =
  mean_square x + average x ^ 2 + alternating x ^ 2.
Proof.
  intros Hn L Hf E. rewrite numpy_psd_eq in E; [|intros ->; cbn in L; lia|exact Hf].
  apply Ok_pair in E. destruct E as [_ <-]. rewrite tab_length.
  rewrite (bigsum_ext _ _ (fun k => 2 / (INR (len x) * fs) * pw (len x) (fun i => x.[i]) k))
    by (intros k Hk; now rewrite nth_tab).
  rewrite bigsum_scal.
  unfold mean_square, average, alternating. rewrite L.
  assert (E2 : (2 * n / 2 = n)%nat) by (rewrite Nat.mul_comm; apply Nat.div_mul; lia).
  rewrite E2, Nat.add_1_r.
  pose proof (parseval_even n (fun i => x.[i]) Hn) as P.
  unfold pw at 2 3 in P. rewrite dc_0, ds_0, dc_nyq, ds_nyq in P by exact Hn.
  assert (Hn' : INR n <> 0) by (apply not_0_INR; lia).
  replace (bigsum (Datatypes.S n) (pw (2 * n) (fun i => x.[i]))) with
   ((2 * INR n * bigsum (2 * n) (fun p => x.[p] ^ 2) + bigsum (2 * n) (fun i => x.[i]) ^ 2 +
     bigsum (2 * n) (fun i => (-1) ^ i * x.[i]) ^ 2) / 2) by lra.
  rewrite mult_INR. cbn [INR]. field. split; assumption.
Qed.

Theorem C76_parseval_odd x fs n f S : len x = (2 * n + 1)%nat -> fs <> 0 ->
  numpy_psd x fs = Ok (f, S) ->
  bigsum (len S) (fun k => S.[k]) * (fs / INR (len x)) = mean_square x + average x ^ 2.
Proof.
  intros L Hf E. rewrite numpy_psd_eq in E; [|intros ->; cbn in L; lia|exact Hf].
  apply Ok_pair in E. destruct E as [_ <-]. rewrite tab_length.
  rewrite (bigsum_ext _ _ (fun k => 2 / (INR (len x) * fs) * pw (len x) (fun i => x.[i]) k))
    by (intros k Hk; now rewrite nth_tab).
  rewrite bigsum_scal.
  unfold mean_square, average. rewrite L.
  assert (E2 : ((2 * n + 1) / 2 = n)%nat).
  { symmetry. apply (Nat.div_unique _ 2 n 1); lia. }
  rewrite E2, !Nat.add_1_r.
  pose proof (parseval_odd n (fun i => x.[i])) as P.
  rewrite Nat.add_1_r in P. unfold pw at 2 in P. rewrite dc_0, ds_0 in P.
  assert (HN' : INR (Datatypes.S (2 * n)) <> 0) by (apply not_0_INR; lia).
  replace (bigsum (Datatypes.S n) (pw (Datatypes.S (2 * n)) (fun i => x.[i]))) with
   ((INR (Datatypes.S (2 * n)) * bigsum (Datatypes.S (2 * n)) (fun p => x.[p] ^ 2) +
     bigsum (Datatypes.S (2 * n)) (fun i => x.[i]) ^ 2) / 2) by lra.
  field. split; assumption.
Qed.

(** numpy_psd succeeds exactly on non-empty data with non-zero f_sample. *)
Theorem C76_total x fs :
  (x <> [] -> fs <> 0 -> exists r, numpy_psd x fs = Ok r) /\
  (x = [] \/ fs = 0 -> numpy_psd x fs = Err ZeroDivisionError).
Proof.
  split.
  - intros Hx Hf. rewrite numpy_psd_eq by assumption. eexists. reflexivity.
  - intro H. unfold numpy_psd, pydiv. cbn [neqb ofZ ndiv RNum]. unfold Reqb.
    destruct (Req_EM_T (INR (len x) * fs) 0) as [_|C]; [reflexivity|].
    exfalso. apply C. destruct H as [-> | ->]; cbn; ring.
Qed.

Example C76_example : exists f S, numpy_psd [1; 2; 3] 1 = Ok (f, S) /\ f.[1] = 1 / 2 /\
  bigsum (len S) (fun k => S.[k]) * (1 / 3) = 14 / 3 + 4.
Proof.
  destruct (proj1 (C76_total [1; 2; 3] 1)) as [[f S] E]; [discriminate|lra|].
  exists f, S. split; [exact E|].
  destruct (C76_axis_odd [1; 2; 3] 1 1 f S ltac:(lia) eq_refl ltac:(lra) E) as (_ & _ & Ha).
  pose proof (C76_parseval_odd [1; 2; 3] 1 1 f S eq_refl ltac:(lra) E) as Hp. split.
  - rewrite Ha by lia. cbn. lra.
  - unfold mean_square, average in Hp. cbn [List.length] in Hp.
    replace (INR 3) with 3 in Hp by (cbn; lra). rewrite Hp. cbn. lra.
Qed.

Print Assumptions C76_axis_even.
Print Assumptions C76_axis_odd.
Print Assumptions C76_parseval_even.
Print Assumptions C76_parseval_odd.
Print Assumptions C76_total.
