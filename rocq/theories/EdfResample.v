(** * Trapezoid sums of (1-u) c(ru)^2 over different grids: the proofs behind the resampled branch of edf_greenhall (C95) *)
From Coq Require Import Reals List ZArith Bool Arith Lia Lra Psatz.
From Verif Require Import Base Num NpList NumR Spec ListFacts RSum Dft ModelCiR GreenProofs GreenTab CiProofs PropsEdfFm.
Local Open Scope R_scope.

(** ** Refining a trapezoid sum *)
Definition trapz (G : R -> R) (N : nat) : R := / INR N * bigsum N (fun i => (G (INR i / INR N) + G (INR (S i) / INR N)) / 2).

Lemma bigsum_blocks N k (f : nat -> R) : bigsum (N * k) f = bigsum N (fun i => bigsum k (fun l => f (i * k + l)%nat)).
Proof.
  induction N as [|N IH]; [reflexivity|]. cbn [Nat.mul]. rewrite Nat.add_comm, bigsum_add, IH. reflexivity.
Qed.
Lemma sum_l k : bigsum k (fun l => INR l) = INR k * (INR k - 1) / 2.
Proof. induction k as [|k IH]; [cbn; field|]. cbn [bigsum]. rewrite IH, S_INR. field. Qed.
Lemma sum_l2 k : bigsum k (fun l => INR l ^ 2) = INR k * (INR k - 1) * (2 * INR k - 1) / 6.
Proof. induction k as [|k IH]; [cbn; field|]. cbn [bigsum]. rewrite IH, S_INR. field. Qed.

(** chord minus function, at the fraction x of the way from a to b *)
Definition gap (f : R -> R) (a b x : R) : R := (1 - x) * f a + x * f b - f ((1 - x) * a + x * b).

Lemma cell_refine (G : R -> R) a b B k : (1 <= k)%nat -> (forall x, 0 <= x <= 1 -> Rabs (gap G a b x) <= x * (1 - x) * B) ->
  Rabs (INR k * ((G a + G b) / 2) - bigsum k (fun l => (G ((1 - INR l / INR k) * a + INR l / INR k * b) + G ((1 - INR (S l) / INR k) * a + INR (S l) / INR k * b)) / 2))
    <= INR k / 6 * B.
Proof.
  intros Hk H. assert (Hp : 0 < INR k) by (apply lt_0_INR; lia).
  set (x := fun l => INR l / INR k). set (D := fun l => gap G a b (x l)). set (q := fun l => x l * (1 - x l)).
  assert (HB : 0 <= B).
  { pose proof (H (1/2) ltac:(lra)). pose proof (Rabs_pos (gap G a b (1/2))). lra. }
  assert (Hx : forall l, (l <= k)%nat -> 0 <= x l <= 1).
  { intros l Hl. unfold x. split; [apply Rmult_le_pos; [apply pos_INR|left; now apply Rinv_0_lt_compat]|].
    apply Rmult_le_reg_r with (INR k); [exact Hp|]. unfold Rdiv. rewrite Rmult_assoc, Rinv_l by lra. apply le_INR in Hl. lra. }
  assert (Hq : forall l, q (S l) - q l = (INR k - 1 - 2 * INR l) / INR k ^ 2).
  { intros l. unfold q, x. rewrite S_INR. field. lra. }
  assert (E : INR k * ((G a + G b) / 2) - bigsum k (fun l => (G ((1 - INR l / INR k) * a + INR l / INR k * b) + G ((1 - INR (S l) / INR k) * a + INR (S l) / INR k * b)) / 2)
    = bigsum k (fun l => (D l + D (S l)) / 2)).
  { transitivity (bigsum k (fun l => ((1 - x l) * G a + x l * G b + ((1 - x (S l)) * G a + x (S l) * G b)) / 2) -
      bigsum k (fun l => (G ((1 - INR l / INR k) * a + INR l / INR k * b) + G ((1 - INR (S l) / INR k) * a + INR (S l) / INR k * b)) / 2)).
    - f_equal. rewrite (bigsum_ext k _ (fun l => (G a * (1 - / (2 * INR k)) + G b * / (2 * INR k)) + (G b - G a) / INR k * INR l)).
      2:{ intros l _. unfold x. rewrite S_INR. field. lra. }
      rewrite bigsum_plus, bigsum_const, bigsum_scal, sum_l. field. lra.
    - rewrite <- bigsum_minus. apply bigsum_ext. intros l _. unfold D, gap, x. field. lra. }
  rewrite E. eapply Rle_trans; [apply bigsum_absR|].
  apply Rle_trans with (bigsum k (fun l => (q l + q (S l)) / 2 * B)).
  - apply bigsum_le. intros l Hl. pose proof (H (x l) (Hx l ltac:(lia))) as H1. pose proof (H (x (S l)) (Hx (S l) ltac:(lia))) as H2.
    fold (D l) in H1. fold (D (S l)) in H2. fold (q l) in H1. fold (q (S l)) in H2.
    replace ((D l + D (S l)) / 2) with (/ 2 * (D l + D (S l))) by field. rewrite Rabs_mult, (Rabs_right (/ 2)) by lra.
    pose proof (Rabs_triang (D l) (D (S l))). lra.
  - rewrite bigsum_scal_r. apply Rmult_le_compat_r; [exact HB|].
    rewrite (bigsum_ext k _ (fun l => (INR k - 1) / (2 * INR k ^ 2) + (INR k - 1) / INR k ^ 2 * INR l + - / INR k ^ 2 * INR l ^ 2)).
    2:{ intros l _. unfold q, x. rewrite S_INR. field. lra. }
    rewrite !bigsum_plus, bigsum_const, !bigsum_scal, sum_l, sum_l2.
    apply Rmult_le_reg_r with (6 * INR k); [lra|]. 
    replace ((INR k * ((INR k - 1) / (2 * INR k ^ 2)) + (INR k - 1) / INR k ^ 2 * (INR k * (INR k - 1) / 2) + - / INR k ^ 2 * (INR k * (INR k - 1) * (2 * INR k - 1) / 6)) * (6 * INR k))
      with (INR k ^ 2 - 1) by (field; lra).
    replace (INR k / 6 * (6 * INR k)) with (INR k ^ 2) by field. lra.
Qed.

Lemma refine (G : R -> R) (B : R -> R -> R) N k : (1 <= N)%nat -> (1 <= k)%nat ->
  (forall i, (i < N)%nat -> forall x, 0 <= x <= 1 -> Rabs (gap G (INR i / INR N) (INR (S i) / INR N) x) <= x * (1 - x) * B (INR i / INR N) (INR (S i) / INR N)) ->
  Rabs (trapz G N - trapz G (N * k)) <= / (6 * INR N) * bigsum N (fun i => B (INR i / INR N) (INR (S i) / INR N)).
Proof.
  intros HN Hk H. assert (HN' : 0 < INR N) by (apply lt_0_INR; lia). assert (Hk' : 0 < INR k) by (apply lt_0_INR; lia).
  unfold trapz. rewrite bigsum_blocks, mult_INR.
  replace (/ INR N * bigsum N (fun i => (G (INR i / INR N) + G (INR (S i) / INR N)) / 2) -
    / (INR N * INR k) * bigsum N (fun i => bigsum k (fun l => (G (INR (i * k + l) / (INR N * INR k)) + G (INR (S (i * k + l)) / (INR N * INR k))) / 2)))
    with (/ (INR N * INR k) * bigsum N (fun i => INR k * ((G (INR i / INR N) + G (INR (S i) / INR N)) / 2) -
      bigsum k (fun l => (G (INR (i * k + l) / (INR N * INR k)) + G (INR (S (i * k + l)) / (INR N * INR k))) / 2))).
  2:{ rewrite bigsum_minus, bigsum_scal. field. lra. }
  rewrite Rabs_mult, (Rabs_right (/ _)) by (left; apply Rinv_0_lt_compat, Rmult_lt_0_compat; assumption).
  apply Rle_trans with (/ (INR N * INR k) * bigsum N (fun i => INR k / 6 * B (INR i / INR N) (INR (S i) / INR N))).
  - apply Rmult_le_compat_l; [left; apply Rinv_0_lt_compat, Rmult_lt_0_compat; assumption|].
    eapply Rle_trans; [apply bigsum_absR|]. apply bigsum_le. intros i Hi.
    eapply Rle_trans; [|apply (cell_refine G (INR i / INR N) (INR (S i) / INR N) _ k Hk (H i Hi))].
    right. f_equal. f_equal. apply bigsum_ext. intros l _. f_equal. f_equal; f_equal.
    + rewrite plus_INR, mult_INR, S_INR. field. lra.
    + rewrite !S_INR, plus_INR, mult_INR. field. lra.
  - rewrite bigsum_scal. right. field. lra.
Qed.

(** ** The chord error of (1-u) c(ru)^2 *)
Lemma gap_mul f g a b x : gap (fun u => f u * g u) a b x =
  x * (1 - x) * ((f b - f a) * (g b - g a)) + gap f a b x * g ((1 - x) * a + x * b) + ((1 - x) * f a + x * f b) * gap g a b x.
Proof. unfold gap. ring. Qed.

(** [c] piecewise linear with kinks at 1, 2, 3 *)
Definition step_at (k t : R) : R := if Rlt_dec t k then 1 else 0.
Definition kink (k a b : R) : R := (b - a) * (step_at k a - step_at k b).
Lemma gap_abs k a b x : a <= b -> 0 <= x <= 1 -> 0 <= gap (fun t => Rabs (t - k)) a b x <= x * (1 - x) * (2 * kink k a b).
Proof.
  intros Hab Hx. unfold gap, kink, step_at. set (p := (1 - x) * a + x * b).
  assert (Hpa : p - a = x * (b - a)) by (unfold p; ring). assert (Hpb : b - p = (1 - x) * (b - a)) by (unfold p; ring).
  assert (0 <= x * (b - a)) by (apply Rmult_le_pos; lra). assert (0 <= (1 - x) * (b - a)) by (apply Rmult_le_pos; lra).
  destruct (Rlt_dec a k) as [Ha|Ha], (Rlt_dec b k) as [Hb|Hb]; try lra.
  - rewrite !Rabs_left1 by lra. replace (_ - - (p - k)) with 0 by (unfold p; ring). lra.
  - rewrite (Rabs_left1 (a - k)), (Rabs_right (b - k)) by lra. unfold Rabs. destruct (Rcase_abs (p - k)).
    + split; [|].
      * replace ((1 - x) * - (a - k) + x * (b - k) - - (p - k)) with (2 * (x * (b - k))) by (unfold p; ring). apply Rmult_le_pos; [lra|apply Rmult_le_pos; lra].
      * replace ((1 - x) * - (a - k) + x * (b - k) - - (p - k)) with (2 * (x * (b - k))) by (unfold p; ring).
        replace (x * (1 - x) * (2 * ((b - a) * (1 - 0)))) with (2 * (x * ((1 - x) * (b - a)))) by ring.
        apply Rmult_le_compat_l; [lra|]. apply Rmult_le_compat_l; lra.
    + split; [|].
      * replace ((1 - x) * - (a - k) + x * (b - k) - (p - k)) with (2 * ((1 - x) * (k - a))) by (unfold p; ring). apply Rmult_le_pos; [lra|apply Rmult_le_pos; lra].
      * replace ((1 - x) * - (a - k) + x * (b - k) - (p - k)) with (2 * ((1 - x) * (k - a))) by (unfold p; ring).
        replace (x * (1 - x) * (2 * ((b - a) * (1 - 0)))) with (2 * ((1 - x) * (x * (b - a)))) by ring.
        apply Rmult_le_compat_l; [lra|]. apply Rmult_le_compat_l; lra.
  - rewrite !Rabs_right by lra. replace (_ - (p - k)) with 0 by (unfold p; ring). lra.
Qed.

(** correlation of two white-noise frequency differences at distance t >= 0 *)
Definition cf (d : nat) (t : R) : R :=
  match d with
  | 2%nat => / 2 - 3 / 4 * t + Rabs (t - 1) - / 4 * Rabs (t - 2)
  | _ => / 2 - 5 / 6 * t + 5 / 4 * Rabs (t - 1) - / 2 * Rabs (t - 2) + / 12 * Rabs (t - 3)
  end.
Ltac abs_cases := repeat match goal with |- context [Rabs ?t] => unfold Rabs at 1; destruct (Rcase_abs t) end.
Lemma cf_szf d t : (d = 2 \/ d = 3)%nat -> 0 <= t -> szf d None 0 t = szf d None 0 0 * cf d t.
Proof.
  intros Hd Ht. pose proof (szf_gd d 1 t Hd ltac:(lia)) as E. pose proof (szf_gd d 1 0 Hd ltac:(lia)) as E0.
  change (INR 1) with 1 in *. replace (t / 1) with t in E by field. replace (0 / 1) with 0 in E0 by field. rewrite E, E0.
  destruct Hd as [-> | ->]; unfold gd, g2, g3, cf; cbn [INR].
  - rewrite (Rabs_right t), (Rabs_right (t + 1)), (Rabs_right (t + 2 * 1)), (Rabs_left1 (0 - 1)), (Rabs_left1 (0 - 2 * 1)), (Rabs_right (0 + 1)), (Rabs_right (0 + 2 * 1)), Rabs_R0, !Rmult_1_r by lra. field.
  - rewrite (Rabs_right t), (Rabs_right (t + 1)), (Rabs_right (t + 2 * 1)), (Rabs_right (t + 3 * 1)), (Rabs_left1 (0 - 1)), (Rabs_left1 (0 - 2 * 1)), (Rabs_left1 (0 - 3 * 1)),
      (Rabs_right (0 + 1)), (Rabs_right (0 + 2 * 1)), (Rabs_right (0 + 3 * 1)), Rabs_R0, !Rmult_1_r by lra. field.
Qed.
Lemma cf_0 d : (d = 2 \/ d = 3)%nat -> cf d 0 = 1.
Proof. intros [-> | ->]; unfold cf; abs_cases; lra. Qed.
Lemma cf_le d t : (d = 2 \/ d = 3)%nat -> 0 <= t -> Rabs (cf d t) <= 1.
Proof. intros [-> | ->] Ht; apply Rabs_le; unfold cf; abs_cases; lra. Qed.
Lemma cf_lobe d t : (d = 2 \/ d = 3)%nat -> 0 <= t -> 1 - 5 / 3 * t <= cf d t.
Proof. intros [-> | ->] Ht; unfold cf; abs_cases; lra. Qed.
(** a variation function *)
Definition vf (t : R) : R := 5 / 6 * Rmin t 1 + 2 / 3 * Rmin t 2 + / 6 * Rmin t 3.
Lemma abs_inc k k' a b : a <= b -> k <= k' -> - (b - a) <= Rabs (b - k') - Rabs (a - k') /\ Rabs (b - k') - Rabs (a - k') <= Rabs (b - k) - Rabs (a - k) /\ Rabs (b - k) - Rabs (a - k) <= b - a.
Proof. intros H Hk. abs_cases; lra. Qed.
Lemma Rmin_abs a b : Rmin a b = (a + b - Rabs (a - b)) / 2.
Proof. unfold Rmin, Rabs. destruct (Rle_dec a b), (Rcase_abs (a - b)); lra. Qed.
Lemma cf_var d a b : (d = 2 \/ d = 3)%nat -> 0 <= a <= b -> Rabs (cf d b - cf d a) <= vf b - vf a.
Proof.
  intros Hd H. pose proof (abs_inc 1 2 a b ltac:(lra) ltac:(lra)). pose proof (abs_inc 2 3 a b ltac:(lra) ltac:(lra)).
  apply Rabs_le. unfold vf. rewrite !Rmin_abs. destruct Hd as [-> | ->]; unfold cf; lra.
Qed.
Lemma vf_lip a b : 0 <= a <= b -> 0 <= vf b - vf a <= 5 / 3 * (b - a).
Proof.
  intros H. pose proof (abs_inc 1 2 a b ltac:(lra) ltac:(lra)). pose proof (abs_inc 2 3 a b ltac:(lra) ltac:(lra)). unfold vf. rewrite !Rmin_abs. lra.
Qed.
Lemma vf_range t : 0 <= t -> 0 <= vf t <= 8 / 3.
Proof. intros H. unfold vf, Rmin; destruct (Rle_dec t 1), (Rle_dec t 2), (Rle_dec t 3); lra. Qed.
Definition kinks (a b : R) : R := 5 / 2 * kink 1 a b + kink 2 a b + / 6 * kink 3 a b.
Lemma kink_nonneg k a b : a <= b -> 0 <= kink k a b.
Proof. intros H. unfold kink, step_at. apply Rmult_le_pos; [lra|]. destruct (Rlt_dec a k), (Rlt_dec b k); lra. Qed.
Lemma cf_gap d a b x : (d = 2 \/ d = 3)%nat -> a <= b -> 0 <= x <= 1 -> Rabs (gap (cf d) a b x) <= x * (1 - x) * kinks a b.
Proof.
  intros Hd H Hx. pose proof (gap_abs 1 a b x H Hx) as H1. pose proof (gap_abs 2 a b x H Hx) as H2. pose proof (gap_abs 3 a b x H Hx) as H3.
  set (A1 := gap (fun t => Rabs (t - 1)) a b x) in *. set (A2 := gap (fun t => Rabs (t - 2)) a b x) in *. set (A3 := gap (fun t => Rabs (t - 3)) a b x) in *.
  assert (Hq : 0 <= x * (1 - x)) by (apply Rmult_le_pos; lra).
  pose proof (Rmult_le_pos _ _ Hq (kink_nonneg 1 a b H)). pose proof (Rmult_le_pos _ _ Hq (kink_nonneg 2 a b H)). pose proof (Rmult_le_pos _ _ Hq (kink_nonneg 3 a b H)).
  assert (E : x * (1 - x) * kinks a b = 5 / 2 * (x * (1 - x) * kink 1 a b) + x * (1 - x) * kink 2 a b + / 6 * (x * (1 - x) * kink 3 a b)) by (unfold kinks; field).
  rewrite E. apply Rabs_le. destruct Hd as [-> | ->].
  - replace (gap (cf 2) a b x) with (A1 - / 4 * A2) by (unfold A1, A2, gap, cf; field). lra.
  - replace (gap (cf 3) a b x) with (5 / 4 * A1 - / 2 * A2 + / 12 * A3) by (unfold A1, A2, A3, gap, cf; field). lra.
Qed.

Lemma abs_le_inv a b : Rabs a <= b -> - b <= a <= b.
Proof. unfold Rabs. destruct (Rcase_abs a); lra. Qed.
Definition gf (d : nat) (r u : R) : R := (1 - u) * (cf d (r * u) * cf d (r * u)).
Definition bound (r a b : R) : R := (b - a) * (2 + 5 / 3 * r) * (vf (r * b) - vf (r * a)) + 2 * kinks (r * a) (r * b).
Lemma gf_gap d r a b x : (d = 2 \/ d = 3)%nat -> 0 < r -> 0 <= a <= b -> b <= 1 -> 0 <= x <= 1 -> Rabs (gap (gf d r) a b x) <= x * (1 - x) * bound r a b.
Proof.
  intros Hd Hr Hab Hb Hx. set (c := fun u => cf d (r * u)). set (p := (1 - x) * a + x * b).
  assert (Hra : 0 <= r * a) by (apply Rmult_le_pos; lra). assert (Hrab : r * a <= r * b) by (apply Rmult_le_compat_l; lra).
  assert (Hp : a <= p <= b) by (unfold p; split; nra). assert (Hrp : 0 <= r * p) by (apply Rmult_le_pos; lra).
  set (v := vf (r * b) - vf (r * a)). set (K := kinks (r * a) (r * b)).
  pose proof (cf_le d (r * a) Hd Hra) as Ca. pose proof (cf_le d (r * b) Hd ltac:(lra)) as Cb. pose proof (cf_le d (r * p) Hd Hrp) as Cp.
  pose proof (cf_var d (r * a) (r * b) Hd ltac:(lra)) as Hv. pose proof (vf_lip (r * a) (r * b) ltac:(lra)) as Hl.
  pose proof (cf_gap d (r * a) (r * b) x Hd Hrab Hx) as Hg. fold v in Hv, Hl. fold K in Hg.
  assert (Hq : 0 <= x * (1 - x)) by (apply Rmult_le_pos; lra).
  assert (Eg : gap c a b x = gap (cf d) (r * a) (r * b) x).
  { unfold gap, c. replace (r * ((1 - x) * a + x * b)) with ((1 - x) * (r * a) + x * (r * b)) by ring. reflexivity. }
  assert (E : gap (gf d r) a b x = x * (1 - x) * (- (b - a) * ((c b - c a) * (c b + c a))) +
     (1 - p) * (x * (1 - x) * (c b - c a) ^ 2 + gap c a b x * (c p + ((1 - x) * c a + x * c b)))).
  { change (gf d r) with (fun u => (1 - u) * (c u * c u)). rewrite (gap_mul (fun u => 1 - u)), (gap_mul c c). fold p.
    replace (gap (fun u => 1 - u) a b x) with 0 by (unfold gap; ring). unfold p. ring. }
  rewrite E, Eg. unfold bound. fold v. fold K. set (g := gap (cf d) (r * a) (r * b) x) in *.
  change (cf d (r * a)) with (c a) in *. change (cf d (r * b)) with (c b) in *. change (cf d (r * p)) with (c p) in *.
  set (D := c b - c a) in *. apply abs_le_inv in Ca, Cb, Cp.
  assert (HK : 0 <= x * (1 - x) * K) by (pose proof (Rabs_pos g); lra).
  assert (A1 : Rabs (x * (1 - x) * (- (b - a) * (D * (c b + c a)))) <= x * (1 - x) * ((b - a) * (2 * v))).
  { rewrite !Rabs_mult, Rabs_Ropp. rewrite <- Rabs_mult, (Rabs_right (x * (1 - x))), (Rabs_right (b - a)) by lra.
    apply Rmult_le_compat_l; [exact Hq|]. apply Rmult_le_compat_l; [lra|]. rewrite (Rmult_comm 2).
    apply Rmult_le_compat; try apply Rabs_pos; [exact Hv|]. apply Rabs_le. lra. }
  assert (A2 : Rabs (x * (1 - x) * D ^ 2) <= x * (1 - x) * ((b - a) * (5 / 3 * r) * v)).
  { rewrite Rabs_mult, (Rabs_right (x * (1 - x))) by lra. apply Rmult_le_compat_l; [exact Hq|].
    cbn [pow]. rewrite Rmult_1_r, Rabs_mult. apply Rle_trans with (v * v).
    - apply Rmult_le_compat; try apply Rabs_pos; exact Hv.
    - apply Rmult_le_compat_r; lra. }
  assert (A3 : Rabs (g * (c p + ((1 - x) * c a + x * c b))) <= x * (1 - x) * (2 * K)).
  { rewrite Rabs_mult. replace (x * (1 - x) * (2 * K)) with (x * (1 - x) * K * 2) by ring.
    apply Rmult_le_compat; try apply Rabs_pos; [exact Hg|]. apply Rabs_le. nra. }
  assert (A4 : Rabs ((1 - p) * (x * (1 - x) * D ^ 2 + g * (c p + ((1 - x) * c a + x * c b)))) <= x * (1 - x) * ((b - a) * (5 / 3 * r) * v) + x * (1 - x) * (2 * K)).
  { rewrite Rabs_mult, (Rabs_right (1 - p)) by lra. rewrite <- (Rmult_1_l (_ + x * (1 - x) * (2 * K))).
    apply Rmult_le_compat; [lra|apply Rabs_pos|lra|]. eapply Rle_trans; [apply Rabs_triang|]. lra. }
  eapply Rle_trans; [apply Rabs_triang|]. eapply Rle_trans; [apply Rplus_le_compat; [exact A1|exact A4]|]. right. ring.
Qed.

Lemma sum_bound r N : 0 < r -> (1 <= N)%nat -> bigsum N (fun i => bound r (INR i / INR N) (INR (S i) / INR N)) <= / INR N * (16 / 3 + 106 / 9 * r).
Proof.
  intros Hr HN. assert (HN' : 0 < INR N) by (apply lt_0_INR; lia).
  set (F := fun i => (2 + 5 / 3 * r) * vf (r * (INR i / INR N)) -
     2 * r * (5 / 2 * step_at 1 (r * (INR i / INR N)) + step_at 2 (r * (INR i / INR N)) + / 6 * step_at 3 (r * (INR i / INR N)))).
  rewrite (bigsum_ext N _ (fun i => / INR N * (F (S i) - F i))).
  2:{ intros i _. unfold bound, kinks, kink, F. rewrite <- !Rmult_minus_distr_l.
      replace (INR (S i) / INR N - INR i / INR N) with (/ INR N) by (rewrite S_INR; field; lra). field. lra. }
  rewrite bigsum_scal, bigsum_telescope. apply Rmult_le_compat_l; [left; now apply Rinv_0_lt_compat|].
  unfold F. change (INR 0) with 0. replace (r * (0 / INR N)) with 0 by (field; lra). replace (r * (INR N / INR N)) with r by (field; lra).
  pose proof (vf_range r ltac:(lra)) as [_ V]. pose proof (vf_range 0 ltac:(lra)) as [V0 _].
  assert (S0 : forall k, 0 < k -> step_at k 0 = 1) by (intros k Hk; unfold step_at; destruct (Rlt_dec 0 k); lra).
  assert (S1 : forall k t, 0 <= step_at k t) by (intros k t; unfold step_at; destruct (Rlt_dec t k); lra).
  rewrite !S0 by lra. pose proof (S1 1 r). pose proof (S1 2 r). pose proof (S1 3 r).
  assert ((2 + 5 / 3 * r) * (vf r - vf 0) <= (2 + 5 / 3 * r) * (8 / 3)) by (apply Rmult_le_compat_l; lra).
  assert (0 <= r * (5 / 2 * step_at 1 r + step_at 2 r + / 6 * step_at 3 r)) by (apply Rmult_le_pos; lra).
  lra.
Qed.

Lemma gf_refine d r N k : (d = 2 \/ d = 3)%nat -> 0 < r -> (1 <= N)%nat -> (1 <= k)%nat ->
  Rabs (trapz (gf d r) N - trapz (gf d r) (N * k)) <= / (6 * INR N ^ 2) * (16 / 3 + 106 / 9 * r).
Proof.
  intros Hd Hr HN Hk. assert (HN' : 0 < INR N) by (apply lt_0_INR; lia).
  eapply Rle_trans; [apply (refine (gf d r) (bound r) N k HN Hk)|].
  - intros i Hi x Hx. apply gf_gap; auto.
    + split; [apply Rmult_le_pos; [apply pos_INR|left; now apply Rinv_0_lt_compat]|].
      apply Rmult_le_compat_r; [left; now apply Rinv_0_lt_compat|]. apply le_INR. lia.
    + apply Rmult_le_reg_r with (INR N); [exact HN'|]. unfold Rdiv. rewrite Rmult_assoc, Rinv_l by lra. apply le_INR in Hi. lra.
  - apply Rle_trans with (/ (6 * INR N) * (/ INR N * (16 / 3 + 106 / 9 * r))).
    + apply Rmult_le_compat_l; [left; apply Rinv_0_lt_compat; lra|]. now apply sum_bound.
    + right. field. lra.
Qed.

Lemma gf_compare d r N M : (d = 2 \/ d = 3)%nat -> 0 < r -> (1 <= N)%nat -> (N <= M)%nat ->
  Rabs (trapz (gf d r) N - trapz (gf d r) M) <= / (3 * INR N ^ 2) * (16 / 3 + 106 / 9 * r).
Proof.
  intros Hd Hr HN HM. pose proof (gf_refine d r N M Hd Hr HN ltac:(lia)) as H1. pose proof (gf_refine d r M N Hd Hr ltac:(lia) HN) as H2.
  rewrite (Nat.mul_comm M N) in H2. assert (HN' : 0 < INR N) by (apply lt_0_INR; lia). apply le_INR in HM as HM'.
  assert (H3 : / (6 * INR M ^ 2) * (16 / 3 + 106 / 9 * r) <= / (6 * INR N ^ 2) * (16 / 3 + 106 / 9 * r)).
  { apply Rmult_le_compat_r; [lra|]. apply Rinv_le_contravar; [|apply Rmult_le_compat_l; [lra|]; apply pow_incr; lra].
    apply Rmult_lt_0_compat; [lra|]. now apply pow_lt. }
  replace (trapz (gf d r) N - trapz (gf d r) M) with ((trapz (gf d r) N - trapz (gf d r) (N * M)) - (trapz (gf d r) M - trapz (gf d r) (N * M))) by ring.
  eapply Rle_trans; [apply Rabs_triang|]. rewrite Rabs_Ropp.
  replace (/ (3 * INR N ^ 2) * (16 / 3 + 106 / 9 * r)) with (2 * (/ (6 * INR N ^ 2) * (16 / 3 + 106 / 9 * r))) by (field; lra). lra.
Qed.

(** ** The first lobe bounds the sum from below *)
Lemma trapz_form d r N : (1 <= N)%nat -> (d = 2 \/ d = 3)%nat ->
  trapz (gf d r) N = / INR N * (bigsum N (fun i => gf d r (INR i / INR N)) - / 2).
Proof.
  intros HN Hd. assert (HN' : 0 < INR N) by (apply lt_0_INR; lia). unfold trapz. f_equal.
  rewrite (bigsum_ext N _ (fun i => gf d r (INR i / INR N) + / 2 * (gf d r (INR (S i) / INR N) - gf d r (INR i / INR N)))) by (intros; field).
  rewrite bigsum_plus, bigsum_scal, (bigsum_telescope N (fun i => gf d r (INR i / INR N))).
  replace (gf d r (INR N / INR N)) with 0 by (unfold gf; replace (INR N / INR N) with 1 by (field; lra); ring).
  replace (gf d r (INR 0 / INR N)) with 1; [ring|]. unfold gf. change (INR 0) with 0. replace (0 / INR N) with 0 by (field; lra). rewrite Rmult_0_r, cf_0 by exact Hd. ring.
Qed.

Lemma lobe_sum (b : nat -> R) del N : 0 < del -> (1 <= N)%nat -> b 0%nat = 1 -> (forall j, 0 <= b j) -> (forall j, b j - b (S j) <= del) -> (forall j, b (S j) <= b j) ->
  (forall j, b (S j) = 0 \/ b j = b (S j) + del) ->
  / (3 * del) * (1 - / (4 * del * INR N)) <= bigsum N (fun j => (1 - INR j / INR N) * b j ^ 2).
Proof.
  intros Hdel HN H0 Hb Hs Hm Hc. assert (HN' : 0 < INR N) by (apply lt_0_INR; lia).
  assert (Q : bigsum N (fun j => b (S j) ^ 3) <= / (4 * del)).
  { apply Rle_trans with (bigsum N (fun j => / (4 * del) * (b j ^ 4 - b (S j) ^ 4))).
    - apply bigsum_le. intros j _. apply Rmult_le_reg_l with (4 * del); [lra|]. rewrite <- Rmult_assoc, Rinv_r, Rmult_1_l by lra.
      destruct (Hc j) as [E|E].
      + rewrite E. pose proof (pow_le (b j) 4 (Hb j)). lra.
      + rewrite E. pose proof (Hb (S j)) as P. set (t := b (S j)) in *. 
        assert (0 <= t * t * del * del) by (repeat apply Rmult_le_pos; lra). assert (0 <= t * del * del * del) by (repeat apply Rmult_le_pos; lra).
        assert (0 <= del * del * del * del) by (repeat apply Rmult_le_pos; lra).
        replace ((t + del) ^ 4 - t ^ 4) with (4 * del * t ^ 3 + 6 * (t * t * del * del) + 4 * (t * del * del * del) + del * del * del * del) by ring. lra.
    - rewrite bigsum_scal. rewrite (bigsum_ext N _ (fun j => - (b (S j) ^ 4 - b j ^ 4))) by (intros; ring).
      rewrite (bigsum_ext N _ (fun j => (-1) * (b (S j) ^ 4 - b j ^ 4))) by (intros; ring). rewrite bigsum_scal, (bigsum_telescope N (fun j => b j ^ 4)).
      rewrite H0. assert (0 < / (4 * del)) by (apply Rinv_0_lt_compat; lra). pose proof (pow_le (b N) 4 (Hb N)).
      rewrite <- (Rmult_1_r (/ (4 * del))) at 2. apply Rmult_le_compat_l; lra. }
  apply Rle_trans with (bigsum N (fun j => / (3 * del) * ((1 - INR j / INR N) * (b j ^ 3 - b (S j) ^ 3)))).
  - rewrite bigsum_scal. apply Rmult_le_compat_l; [left; apply Rinv_0_lt_compat; lra|].
    rewrite (bigsum_ext N _ (fun j => - / INR N * b (S j) ^ 3 + (-1) * ((1 - INR (S j) / INR N) * b (S j) ^ 3 - (1 - INR j / INR N) * b j ^ 3))).
    2:{ intros j _. rewrite S_INR. field. lra. }
    rewrite bigsum_plus, !bigsum_scal, (bigsum_telescope N (fun j => (1 - INR j / INR N) * b j ^ 3)). change (INR 0) with 0. rewrite H0.
    assert (/ INR N * bigsum N (fun j => b (S j) ^ 3) <= / INR N * / (4 * del)) by (apply Rmult_le_compat_l; [left; now apply Rinv_0_lt_compat|exact Q]).
    replace (/ (4 * del * INR N)) with (/ INR N * / (4 * del)) by (field; lra).
    replace (1 - INR N / INR N) with 0 by (field; lra). replace (1 - 0 / INR N) with 1 by (field; lra). lra.
  - apply bigsum_le. intros j Hj. rewrite <- Rmult_assoc, (Rmult_comm (/ _)), Rmult_assoc.
    assert (0 <= 1 - INR j / INR N).
    { apply Rmult_le_reg_r with (INR N); [exact HN'|]. replace ((1 - INR j / INR N) * INR N) with (INR N - INR j) by (field; lra). apply lt_INR in Hj. lra. }
    apply Rmult_le_compat_l; [assumption|]. apply Rmult_le_reg_l with (3 * del); [lra|]. rewrite <- Rmult_assoc, Rinv_r, Rmult_1_l by lra.
    pose proof (Hb j). pose proof (Hb (S j)). pose proof (Hm j). pose proof (Hs j). set (t := b j) in *. set (s := b (S j)) in *.
    apply Rle_trans with (3 * (t - s) * t ^ 2).
    + assert (0 <= (t - s) * (t - s) * (2 * t + s)) by (repeat apply Rmult_le_pos; lra).
      replace (3 * (t - s) * t ^ 2) with (t ^ 3 - s ^ 3 + (t - s) * (t - s) * (2 * t + s)) by ring. lra.
    + apply Rmult_le_compat_r; [apply pow_le; lra|lra].
Qed.

Lemma trapz_lower d r N : (d = 2 \/ d = 3)%nat -> 0 < r -> (1 <= N)%nat ->
  / (5 * r) * (1 - / (20 / 3 * r)) - / (2 * INR N) <= trapz (gf d r) N.
Proof.
  intros Hd Hr HN. assert (HN' : 0 < INR N) by (apply lt_0_INR; lia). rewrite trapz_form by assumption.
  set (del := 5 / 3 * r / INR N). assert (Hdel : 0 < del) by (unfold del; apply Rmult_lt_0_compat; [lra|now apply Rinv_0_lt_compat]).
  set (b := fun j => Rmax 0 (1 - del * INR j)).
  assert (L : / (3 * del) * (1 - / (4 * del * INR N)) <= bigsum N (fun j => (1 - INR j / INR N) * b j ^ 2)).
  { apply lobe_sum; auto.
    - unfold b. change (INR 0) with 0. rewrite Rmult_0_r, Rmax_right; lra.
    - intros j. apply Rmax_l.
    - intros j. unfold b, Rmax. rewrite S_INR. destruct (Rle_dec _ _), (Rle_dec _ _); lra.
    - intros j. unfold b, Rmax. rewrite S_INR. destruct (Rle_dec _ _), (Rle_dec _ _); lra.
    - intros j. unfold b, Rmax. rewrite S_INR. destruct (Rle_dec _ _), (Rle_dec _ _); lra. }
  apply Rle_trans with (/ INR N * (bigsum N (fun j => (1 - INR j / INR N) * b j ^ 2) - / 2)).
  - replace (/ (5 * r) * (1 - / (20 / 3 * r)) - / (2 * INR N)) with (/ INR N * (/ (3 * del) * (1 - / (4 * del * INR N)) - / 2)) by (unfold del; field; lra).
    apply Rmult_le_compat_l; [left; now apply Rinv_0_lt_compat|]. lra.
  - apply Rmult_le_compat_l; [left; now apply Rinv_0_lt_compat|]. apply Rplus_le_compat_r. apply bigsum_le. intros j Hj. unfold gf.
    assert (0 <= 1 - INR j / INR N).
    { apply Rmult_le_reg_r with (INR N); [exact HN'|]. replace ((1 - INR j / INR N) * INR N) with (INR N - INR j) by (field; lra). apply lt_INR in Hj. lra. }
    apply Rmult_le_compat_l; [assumption|]. cbn [pow]. rewrite Rmult_1_r.
    assert (Ht : 0 <= r * (INR j / INR N)) by (apply Rmult_le_pos; [lra|]; apply Rmult_le_pos; [apply pos_INR|left; now apply Rinv_0_lt_compat]).
    pose proof (cf_lobe d _ Hd Ht) as C. replace (1 - 5 / 3 * (r * (INR j / INR N))) with (1 - del * INR j) in C by (unfold del; field; lra).
    unfold b, Rmax. destruct (Rle_dec 0 (1 - del * INR j)).
    + apply Rmult_le_compat; lra.
    + rewrite Rmult_0_l. apply Rle_0_sqr.
Qed.
Lemma trapz_lower_small d r N : (d = 2 \/ d = 3)%nat -> 0 < r <= 3 / 10 -> (1 <= N)%nat -> / 8 <= trapz (gf d r) N.
Proof.
  intros Hd Hr HN. assert (HN' : 0 < INR N) by (apply lt_0_INR; lia). unfold trapz.
  assert (Hi : forall j, (j <= N)%nat -> 0 <= INR j / INR N <= 1).
  { intros j Hj. split; [apply Rmult_le_pos; [apply pos_INR|left; now apply Rinv_0_lt_compat]|].
    apply Rmult_le_reg_r with (INR N); [exact HN'|]. unfold Rdiv. rewrite Rmult_assoc, Rinv_l by lra. apply le_INR in Hj. lra. }
  assert (Hg : forall j, (j <= N)%nat -> / 4 * (1 - INR j / INR N) <= gf d r (INR j / INR N)).
  { intros j Hj. specialize (Hi j Hj). unfold gf. set (u := INR j / INR N) in *. rewrite Rmult_comm. apply Rmult_le_compat_l; [lra|].
    assert (Ht : 0 <= r * u) by (apply Rmult_le_pos; lra). assert (r * u <= 3 / 10 * 1) by (apply Rmult_le_compat; lra).
    pose proof (cf_lobe d _ Hd Ht) as C. replace (/ 4) with (/ 2 * / 2) by field. apply Rmult_le_compat; lra. }
  apply Rle_trans with (/ INR N * bigsum N (fun i => / 4 * (1 - / (2 * INR N)) + (- / (4 * INR N)) * INR i)).
  - rewrite bigsum_plus, bigsum_const, bigsum_scal, sum_l. right. field. lra.
  - apply Rmult_le_compat_l; [left; now apply Rinv_0_lt_compat|]. apply bigsum_le. intros i Hl.
    pose proof (Hg i ltac:(lia)). pose proof (Hg (S i) ltac:(lia)).
    replace (/ 4 * (1 - / (2 * INR N)) + - / (4 * INR N) * INR i) with ((/ 4 * (1 - INR i / INR N) + / 4 * (1 - INR (S i) / INR N)) / 2) by (rewrite S_INR; field; lra). lra.
Qed.

Lemma resample_close d r M : (d = 2 \/ d = 3)%nat -> 0 < r <= 4 -> (100 <= M)%nat ->
  0 < trapz (gf d r) M /\ Rabs (trapz (gf d r) 100 - trapz (gf d r) M) <= 45 / 1000 * trapz (gf d r) M.
Proof.
  intros Hd Hr HM. pose proof (gf_compare d r 100 M Hd ltac:(lra) ltac:(lia) HM) as H.
  apply le_INR in HM as HM'. replace (INR 100) with 100 in * by (rewrite INR_IZR_INZ; reflexivity).
  assert (K : / 20 * (9625 / 10000) - / 200 <= trapz (gf d r) M).
  { destruct (Rle_dec r (3 / 10)) as [Hs|Hs].
    - pose proof (trapz_lower_small d r M Hd ltac:(lra) ltac:(lia)). lra.
    - pose proof (trapz_lower d r M Hd ltac:(lra) ltac:(lia)) as L. eapply Rle_trans; [|exact L].
      assert (/ (2 * INR M) <= / 200) by (apply Rinv_le_contravar; lra).
      set (y := / r). assert (Hy : / 4 <= y <= 10 / 3).
      { unfold y. split; [apply Rinv_le_contravar; lra|]. replace (10 / 3) with (/ (3 / 10)) by field. apply Rinv_le_contravar; lra. }
      replace (/ (5 * r) * (1 - / (20 / 3 * r))) with (/ 5 * y * (1 - 3 / 20 * y)) by (unfold y; field; lra). nra. }
  split; [lra|]. eapply Rle_trans; [exact H|]. lra.
Qed.

(** ** The trapezoid sum is what edf_greenhall computes *)
Lemma basic_trapz_gen F alpha d k (M : nat) r : (1 <= d <= 3)%nat -> sx_dom F alpha -> szf d F alpha 0 <> 0 ->
  (forall t, 0 <= t -> szf d F alpha t = szf d F alpha 0 * cf k t) -> (k = 2 \/ k = 3)%nat -> 0 < r -> (1 <= M)%nat -> 0 < trapz (gf k r) M ->
  basic alpha d (Z.of_nat M) (Z.of_nat M) (INR M / r) F = Ok (/ (2 * trapz (gf k r) M)).
Proof.
  intros Hd3 Hdom H0 Hk Hk23 Hr HM Hpos. assert (HM' : 0 < INR M) by (apply lt_0_INR; lia).
  assert (HS : INR M / r <> 0) by (apply Rgt_not_eq; apply Rmult_lt_0_compat; [lra|apply Rinv_0_lt_compat; lra]).
  unfold basic. rewrite sz_ok by assumption. cbn [bind]. rewrite basicsum_ok by (assumption || lia). cbn [bind]. f_equal.
  unfold bsum. set (s0 := szf d F alpha 0) in *.
  rewrite <- INR_IZR_INZ. rewrite Nat2Z.id. replace (1 - INR M / INR M) with 0 by (field; lra). rewrite Rmult_0_l, Rplus_0_r.
  rewrite (bigsum_ext (M - 1) _ (fun i => 2 * s0 ^ 2 * gf k r (INR (S i) / INR M))).
  2:{ intros i Hi. replace (i + 1)%nat with (S i) by lia. assert (P : 0 <= INR (S i)) by apply pos_INR.
      replace (INR (S i) / (INR M / r)) with (r * (INR (S i) / INR M)) by (field; lra).
      rewrite Hk. 2:{ apply Rmult_le_pos; [lra|]. apply Rmult_le_pos; [exact P|left; now apply Rinv_0_lt_compat]. }
      unfold gf. ring. }
  rewrite bigsum_scal.
  assert (E : trapz (gf k r) M = / INR M * (/ 2 + bigsum (M - 1) (fun i => gf k r (INR (S i) / INR M)))).
  { rewrite trapz_form by assumption. f_equal. replace M with (S (M - 1)) at 1 by lia. rewrite bigsum_S_l.
    replace (gf k r (INR 0 / INR M)) with 1; [lra|]. unfold gf. change (INR 0) with 0. replace (0 / INR M) with 0 by (field; lra). rewrite Rmult_0_r, cf_0 by assumption. ring. }
  set (Q := bigsum (M - 1) (fun i => gf k r (INR (S i) / INR M))) in *.
  assert (HQ : 0 < / 2 + Q).
  { rewrite E in Hpos. apply Rmult_lt_reg_l with (/ INR M); [now apply Rinv_0_lt_compat|]. now rewrite Rmult_0_r. }
  assert (Hs2 : 0 < s0 ^ 2) by (apply Rsqr_pos_lt in H0; unfold Rsqr in H0; cbn [pow]; lra).
  rewrite E. field. repeat split; try lra.
  replace (s0 ^ 2 + 2 * s0 ^ 2 * Q) with (2 * (s0 ^ 2 * (/ 2 + Q))) by field. pose proof (Rmult_lt_0_compat _ _ Hs2 HQ). lra.
Qed.
Lemma basic_trapz d (M : nat) r : (d = 2 \/ d = 3)%nat -> 0 < r -> (1 <= M)%nat -> 0 < trapz (gf d r) M ->
  basic 0 d (Z.of_nat M) (Z.of_nat M) (INR M / r) None = Ok (/ (2 * trapz (gf d r) M)).
Proof.
  intros Hd. apply basic_trapz_gen; auto.
  - destruct Hd as [-> | ->]; lia.
  - cbn; unfold sw_dom; lia.
  - pose proof (szf_gd d 1 0 Hd ltac:(lia)) as E0. change (INR 1) with 1 in E0. replace (0 / 1) with 0 in E0 by field. rewrite E0, gd_0 by exact Hd. change (INR 1) with 1.
    destruct (Nat.eqb d 2); lra.
  - intros t Ht. now apply cf_szf.
Qed.

(** the modified Allan variance of white phase noise has the same correlations as third differences of a random walk *)
Lemma szf_mod t : szf 2 (Some 1) 2 t = szf 3 None 0 t.
Proof.
  unfold szf, sxf. cbv zeta. change (0 + 2)%Z with 2%Z. replace (1 / 1) with 1 by field.
  replace (t - 1 + 1) with t by ring. replace (t + 1 - 1) with t by ring. replace (t - 2 + 1) with (t - 1) by ring. replace (t + 2 - 1) with (t + 1) by ring.
  replace (t - 1 - 1) with (t - 2) by ring. replace (t + 1 + 1) with (t + 2) by ring. replace (t - 2 - 1) with (t - 3) by ring. replace (t + 2 + 1) with (t + 3) by ring. ring.
Qed.
Lemma szf_fm_0 d : (d = 2 \/ d = 3)%nat -> szf d None 0 0 <> 0.
Proof.
  intros Hd. pose proof (szf_gd d 1 0 Hd ltac:(lia)) as E0. change (INR 1) with 1 in E0. replace (0 / 1) with 0 in E0 by field. rewrite E0, gd_0 by exact Hd. change (INR 1) with 1.
  destruct (Nat.eqb d 2); lra.
Qed.
Lemma basic_trapz_mod (M : nat) r : 0 < r -> (1 <= M)%nat -> 0 < trapz (gf 3 r) M ->
  basic 2 2 (Z.of_nat M) (Z.of_nat M) (INR M / r) (Some 1) = Ok (/ (2 * trapz (gf 3 r) M)).
Proof.
  apply basic_trapz_gen; auto; try lia.
  - split; [lra|unfold sw_dom; lia].
  - rewrite szf_mod. apply szf_fm_0. auto.
  - intros t Ht. rewrite !szf_mod. apply cf_szf; auto.
Qed.
