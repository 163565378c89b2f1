(** * Convolution through the FFT, and related facts. *)
From Coq Require Import String Reals List ZArith Bool Arith Lia Lra.
From Verif Require Import Base Num NpList NumR Spec ListFacts RSum Dft ModelCore ModelNoise ModelNoiseR.
Import ListNotations.
Local Open Scope R_scope.
Local Notation len := List.length.

Lemma sumR_seq n (f : nat -> R) : sumR (map f (seq 0 n)) = bigsum n f.
Proof. unfold sumR. change (map f (seq 0 n)) with (tab n f). apply asum_tab. Qed.

Lemma seq1_map {A} (f : nat -> A) n : map f (seq 1 n) = tab n (fun i => f (S i)).
Proof. unfold tab. rewrite <- seq_shift, map_map. reflexivity. Qed.

Lemma sumR_seq1 n (f : nat -> R) : sumR (map f (seq 1 n)) = bigsum n (fun i => f (S i)).
Proof. unfold sumR. rewrite seq1_map. apply asum_tab. Qed.

Lemma nth_map_seq {A} (f : nat -> A) n k d : (k < n)%nat -> nth k (map f (seq 0 n)) d = f k.
Proof. apply (nth_tab n f). Qed.

(** Coefficient k of the DFT, real and (negated) imaginary part. *)
Definition dc (N : nat) (w : nat -> R) (k : nat) : R :=
  bigsum N (fun n => w n * cos (2 * PI * INR k * INR n / INR N)).
Definition ds (N : nat) (w : nat -> R) (k : nat) : R :=
  bigsum N (fun n => w n * sin (2 * PI * INR k * INR n / INR N)).

Lemma rfft_tab N w : (1 <= N)%nat ->
  rfft (tab N w) = Ok (tab (N / 2 + 1) (fun k => (dc N w k, - ds N w k))).
Proof.
  intro HN. unfold rfft. rewrite tab_length. rewrite (proj2 (Nat.eqb_neq N 0)) by lia.
  f_equal. apply tab_ext. intros k Hk. rewrite !sumR_seq. unfold dc, ds. f_equal.
  - apply bigsum_ext. intros i Hi. now rewrite nth_tab.
  - f_equal. apply bigsum_ext. intros i Hi. now rewrite nth_tab.
Qed.

(** Re (W_k H_k exp(i a)) as a double sum *)
Lemma product_term N w h k a :
  fst (cmul (dc N w k, - ds N w k) (dc N h k, - ds N h k)) * cos a -
  snd (cmul (dc N w k, - ds N w k) (dc N h k, - ds N h k)) * sin a =
  bigsum N (fun p => bigsum N (fun q => w p * h q *
     cos (a - 2 * PI * INR k * INR p / INR N - 2 * PI * INR k * INR q / INR N))).
Proof.
  unfold cmul. cbn [fst snd].
  replace ((dc N w k * dc N h k - - ds N w k * - ds N h k) * cos a -
           (dc N w k * - ds N h k + - ds N w k * dc N h k) * sin a)
    with ((dc N w k * dc N h k - ds N w k * ds N h k) * cos a +
          (dc N w k * ds N h k + ds N w k * dc N h k) * sin a) by ring.
  unfold dc, ds. rewrite !bigsum_prod.
  rewrite <- bigsum_minus, <- bigsum_plus, <- !bigsum_scal_r, <- bigsum_plus.
  apply bigsum_ext. intros p Hp.
  rewrite <- bigsum_minus, <- bigsum_plus, <- !bigsum_scal_r, <- bigsum_plus.
  apply bigsum_ext. intros q Hq.
  set (u := 2 * PI * INR k * INR p / INR N). set (v := 2 * PI * INR k * INR q / INR N).
  replace (a - u - v) with (a - (u + v)) by ring. rewrite cos_minus, cos_plus, sin_plus. ring.
Qed.

(** irfft (rfft w * rfft h) is circular convolution; here with the kernel. *)
Lemma irfft_product n w h j : (1 <= n)%nat -> (j < 2 * n)%nat ->
  exists t, irfft (map2 cmul (tab (2 * n / 2 + 1) (fun k => (dc (2 * n) w k, - ds (2 * n) w k)))
                             (tab (2 * n / 2 + 1) (fun k => (dc (2 * n) h k, - ds (2 * n) h k)))) = Ok t /\
  len t = (2 * n)%nat /\
  t.[j] = bigsum (2 * n) (fun p => bigsum (2 * n) (fun q =>
            w p * h q * half_kernel n (Z.of_nat j - Z.of_nat p - Z.of_nat q))) / INR (2 * n).
Proof.
  intros Hn Hj. set (N := (2 * n)%nat) in *.
  assert (E2 : (N / 2 = n)%nat) by (unfold N; rewrite Nat.mul_comm; apply Nat.div_mul; lia).
  rewrite E2, map2_tab. unfold irfft. rewrite tab_length, Nat.add_sub.
  assert (HN : INR N <> 0) by (apply not_0_INR; unfold N; lia).
  assert (Hn' : INR n <> 0) by (apply not_0_INR; lia).
  fold N. rewrite (proj2 (Nat.eqb_neq N 0)) by (unfold N; lia).
  eexists. split; [reflexivity|]. split; [now rewrite map_length, seq_length|].
  rewrite nth_map_seq by exact Hj. f_equal.
  rewrite sumR_seq1. rewrite !nth_tab by lia.
  set (T := fun k a => fst (cmul (dc N w k, - ds N w k) (dc N h k, - ds N h k)) * cos a -
       snd (cmul (dc N w k, - ds N w k) (dc N h k, - ds N h k)) * sin a).
  assert (Eterm : forall k, (k <= n)%nat -> T k (2 * PI * INR k * INR j / INR N) =
     bigsum N (fun p => bigsum N (fun q => w p * h q *
       cos (PI * INR k * IZR (Z.of_nat j - Z.of_nat p - Z.of_nat q) / INR n)))).
  { intros k Hk. unfold T. rewrite product_term. apply bigsum_ext. intros p Hp. apply bigsum_ext.
    intros q Hq. f_equal. f_equal. rewrite !minus_IZR, <- !INR_IZR_INZ.
    unfold N. rewrite mult_INR. cbn [INR]. field. exact Hn'. }
  (* k = 0 *)
  assert (E0 : fst (cmul (dc N w 0, - ds N w 0) (dc N h 0, - ds N h 0)) =
     bigsum N (fun p => bigsum N (fun q => w p * h q * 1))).
  { pose proof (Eterm 0%nat ltac:(lia)) as E. unfold T in E.
    replace (2 * PI * INR 0 * INR j / INR N) with 0 in E by (cbn [INR]; field; exact HN).
    rewrite cos_0, sin_0, Rmult_1_r, Rmult_0_r, Rminus_0_r in E. rewrite E.
    apply bigsum_ext. intros p Hp. apply bigsum_ext. intros q Hq. f_equal.
    match goal with |- cos ?a = 1 => replace a with 0 by (cbn [INR]; field; exact Hn') end. apply cos_0. }
  (* k = n: the sine factor vanishes *)
  assert (En : fst (cmul (dc N w n, - ds N w n) (dc N h n, - ds N h n)) * cos (PI * INR j) =
     bigsum N (fun p => bigsum N (fun q => w p * h q *
        cos (PI * IZR (Z.of_nat j - Z.of_nat p - Z.of_nat q))))).
  { pose proof (Eterm n ltac:(lia)) as E. unfold T in E.
    replace (2 * PI * INR n * INR j / INR N) with (PI * INR j) in E
      by (unfold N; rewrite mult_INR; cbn [INR]; field; exact Hn').
    replace (sin (PI * INR j)) with 0 in E
      by (rewrite Rmult_comm, INR_IZR_INZ; symmetry; apply sin_int_PI).
    rewrite Rmult_0_r, Rminus_0_r in E. rewrite E.
    apply bigsum_ext. intros p Hp. apply bigsum_ext. intros q Hq. f_equal. f_equal. field. exact Hn'. }
  rewrite E0, En.
  rewrite (bigsum_ext (n - 1) _ (fun k => bigsum N (fun p => bigsum N (fun q =>
     w p * h q * (2 * cos (PI * INR (S k) * IZR (Z.of_nat j - Z.of_nat p - Z.of_nat q) / INR n)))))).
  2:{ intros k Hk. rewrite nth_tab by lia. cbv zeta.
      pose proof (Eterm (S k) ltac:(lia)) as E. unfold T in E. rewrite E.
      rewrite <- bigsum_scal. apply bigsum_ext. intros p Hp. rewrite <- bigsum_scal.
      apply bigsum_ext. intros q Hq. ring. }
  rewrite (bigsum_swap (n - 1) N), <- !bigsum_plus. apply bigsum_ext. intros p Hp.
  rewrite (bigsum_swap (n - 1) N), <- !bigsum_plus. apply bigsum_ext. intros q Hq.
  rewrite bigsum_scal. unfold half_kernel. ring.
Qed.

(** Zero-padded sequences: no wrap-around. *)
Lemma padded_convolution n w h j : (1 <= n)%nat -> (j < n)%nat ->
  (forall i, (n <= i)%nat -> w i = 0) -> (forall i, (n <= i)%nat -> h i = 0) ->
  bigsum (2 * n) (fun p => bigsum (2 * n) (fun q =>
     w p * h q * half_kernel n (Z.of_nat j - Z.of_nat p - Z.of_nat q))) / INR (2 * n) =
  bigsum (S j) (fun q => h q * w (j - q)%nat).
Proof.
  intros Hn Hj Hw Hh.
  assert (Hn' : INR n <> 0) by (apply not_0_INR; lia).
  rewrite bigsum_swap.
  rewrite (bigsum_trunc (S j) (2 * n)); [|lia|].
  - rewrite mult_INR. cbn [INR].
    rewrite (bigsum_ext _ _ (fun q => 2 * INR n * (h q * w (j - q)%nat))).
    + rewrite bigsum_scal. field. exact Hn'.
    + intros q Hq. rewrite (bigsum_only (2 * n) (j - q)).
      * replace (Z.of_nat j - Z.of_nat (j - q) - Z.of_nat q)%Z with 0%Z by lia.
        rewrite half_kernel_0 by exact Hn. ring.
      * lia.
      * intros p Hp Hne. destruct (le_lt_dec n p) as [Hl|Hl]; [rewrite (Hw p Hl); ring|].
        rewrite half_kernel_nz; [ring|exact Hn|]. intros z Hz.
        assert (z = 0 \/ z <= -1 \/ 1 <= z)%Z as [->|[?|?]] by lia; nia.
  - intros q Hq. apply bigsum_0. intros p Hp.
    destruct (le_lt_dec n q) as [Hl|Hl]; [rewrite (Hh q Hl); ring|].
    destruct (le_lt_dec n p) as [Hl'|Hl']; [rewrite (Hw p Hl'); ring|].
    rewrite half_kernel_nz; [ring|exact Hn|]. intros z Hz.
    assert (z = 0 \/ z <= -1 \/ 1 <= z)%Z as [->|[?|?]] by lia; nia.
Qed.

(** ** Kasdin-Walter coefficients (specification) *)
Fixpoint kw (b : R) (j : nat) : R :=
  match j with O => 1 | S i => kw b i * ((INR i - b / 2) / (INR i + 1)) end.

Lemma accumulate_from_kw b n k acc : acc = kw b k ->
  accumulate_from acc (map (fun i => (- b / 2 + INR i) / (INR i + 1)) (seq k n)) =
  map (fun i => kw b (S i)) (seq k n).
Proof.
  revert k acc. induction n as [|n IH]; intros k acc ->; [reflexivity|].
  cbn [seq map accumulate_from]. f_equal.
  - cbn [kw]. f_equal. f_equal. field.
  - apply IH. cbn [kw]. f_equal. f_equal. field.
Qed.

Lemma hfb_kw b nr : (1 <= nr)%nat ->
  accumulate (1 :: map (fun i => (- b / 2 + INR i) / (INR i + 1)) (seq 0 (nr - 1))) = tab nr (kw b).
Proof.
  intro H. destruct nr as [|n]; [lia|]. replace (S n - 1)%nat with n by lia.
  cbn [accumulate]. rewrite (accumulate_from_kw b n 0) by reflexivity. now rewrite tab_S.
Qed.

Lemma pad_tab nr (f : nat -> R) :
  tab nr f ++ repeat 0 nr = tab (2 * nr) (fun i => if Nat.ltb i nr then f i else 0).
Proof.
  rewrite repeat_tab, app_tab. replace (nr + nr)%nat with (2 * nr)%nat by lia. apply tab_ext.
  intros i Hi. reflexivity.
Qed.

Lemma generateNoise_eq (rnd : nat -> R) nr qd b : (1 <= nr)%nat ->
  generateNoise rnd (mkNoise nr qd b) =
  Ok (tab nr (fun k => bigsum (S k) (fun j => kw b j * (sqrt qd * rnd (k - j)%nat)))).
Proof.
  intro H. unfold generateNoise. cbn [nz_nr nz_qd nz_b]. cbv zeta.
  rewrite (proj2 (Nat.eqb_neq nr 0)) by lia.
  rewrite hfb_kw by exact H.
  change (map (fun i => sqrt qd * rnd i) (seq 0 nr)) with (tab nr (fun i => sqrt qd * rnd i)).
  rewrite !pad_tab, !rfft_tab by lia. cbn [bind].
  set (w := fun i => if Nat.ltb i nr then sqrt qd * rnd i else 0).
  set (h := fun i => if Nat.ltb i nr then kw b i else 0).
  destruct (irfft_product nr w h 0 H ltac:(lia)) as (t & E & L & _).
  rewrite E. cbn [bind]. f_equal. apply (tab_eq_nth _ _ _ 0).
  - rewrite firstn_length, L. lia.
  - intros k Hk. destruct (irfft_product nr w h k H ltac:(lia)) as (t' & E' & _ & V).
    rewrite E in E'. injection E' as <-.
    rewrite <- (firstn_skipn nr t), app_nth1 in V by (rewrite firstn_length, L; lia).
    rewrite V, padded_convolution; [|exact H|exact Hk| |].
    + apply bigsum_ext. intros q Hq. unfold w, h.
      now rewrite (proj2 (Nat.ltb_lt q nr)), (proj2 (Nat.ltb_lt (k - q) nr)) by lia.
    + intros i Hi. unfold w. now rewrite (proj2 (Nat.ltb_ge i nr)).
    + intros i Hi. unfold h. now rewrite (proj2 (Nat.ltb_ge i nr)).
Qed.
