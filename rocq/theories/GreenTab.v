(** * The large-averaging-factor coefficients of edf_greenhall: kernels, trapezoidal sums and their limits. *)
From Coq Require Import Reals List ZArith Lra Lia Arith Bool Psatz.
From Coquelicot Require Import Coquelicot.
From Verif Require Import Base Num NpList NumR ModelCiR Spec ListFacts RSum GreenProofs.
Local Open Scope R_scope.

(** ** Spec: second differences of a power (p odd) or of a power times a logarithm (p even) *)
Definition powlog (p : nat) (t : R) : R := if Nat.even p then t ^ p * ln (Rabs t) else Rabs t ^ p.
Definition d2 (f : R -> R) (t : R) : R := 2 * f t - f (t - 1) - f (t + 1).
Definition kern (n p : nat) : R -> R := Nat.iter n d2 (powlog p).
(** normalised correlation of the terms of the variance at distance t (in units of tau) *)
Definition corr (n p : nat) (t : R) : R := kern n p t / kern n p 0.
Definition coef0 (n p T : nat) : R := 2 * RInt (fun t => corr n p t ^ 2) 0 (INR T).
Definition coef1 (n p T : nat) : R := 2 * RInt (fun t => t * corr n p t ^ 2) 0 (INR T).

(** ** the code's kernels *)
Definition expo (alpha : Z) : nat := Z.to_nat (3 - alpha).
Definition sg (alpha : Z) : R := if (alpha =? 2)%Z then -1 else 1.
Lemma sg2 alpha : sg alpha ^ 2 = 1.
Proof. unfold sg. destruct (alpha =? 2)%Z; ring. Qed.
Lemma swf_powlog alpha t : sw_dom alpha -> swf alpha t = sg alpha * powlog (expo alpha) t.
Proof.
  intros H. assert (L0 : forall p, (0 < p)%nat -> 0 ^ p * ln (Rabs 0) = 0) by (intros p Hp; rewrite pow_i by exact Hp; ring).
  apply sw_cases in H. destruct H as [-> | [-> | [-> | [-> | [-> | [-> | ->]]]]]]; unfold swf, sg, powlog, expo.
  all: match goal with |- context [Z.to_nat ?z] => let v := eval compute in (Z.to_nat z) in change (Z.to_nat z) with v end.
  all: cbn [greenhall_sw Z.eqb Pos.eqb Nat.even]; rewrite <- ?RPow_abs; try ring.
  all: destruct (Req_dec t 0) as [->|Ht]; [rewrite (proj2 (Reqb_true 0 0) eq_refl), L0 by lia; ring|rewrite (proj2 (Reqb_false t 0) Ht); ring].
Qed.
Lemma iter2 f t : d2 (d2 f) t = 6 * f t - 4 * f (t - 1) - 4 * f (t + 1) + f (t - 2) + f (t + 2).
Proof.
  unfold d2. replace (t - 1 - 1) with (t - 2) by ring. replace (t - 1 + 1) with t by ring.
  replace (t + 1 - 1) with t by ring. replace (t + 1 + 1) with (t + 2) by ring. ring.
Qed.
Lemma iter3 f t : d2 (d2 (d2 f)) t = 20 * f t - 15 * f (t - 1) - 15 * f (t + 1) + 6 * f (t - 2) + 6 * f (t + 2) - f (t - 3) - f (t + 3).
Proof.
  rewrite iter2. unfold d2. replace (t - 1 - 1) with (t - 2) by ring. replace (t - 1 + 1) with t by ring.
  replace (t + 1 - 1) with t by ring. replace (t + 1 + 1) with (t + 2) by ring. replace (t - 2 - 1) with (t - 3) by ring.
  replace (t - 2 + 1) with (t - 1) by ring. replace (t + 2 - 1) with (t + 1) by ring. replace (t + 2 + 1) with (t + 3) by ring. ring.
Qed.
Lemma iter4 f t : d2 (d2 (d2 (d2 f))) t = 70 * f t - 56 * f (t - 1) - 56 * f (t + 1) + 28 * f (t - 2) + 28 * f (t + 2) - 8 * f (t - 3) - 8 * f (t + 3) + f (t - 4) + f (t + 4).
Proof.
  rewrite iter3. unfold d2. replace (t - 1 - 1) with (t - 2) by ring. replace (t - 1 + 1) with t by ring.
  replace (t + 1 - 1) with t by ring. replace (t + 1 + 1) with (t + 2) by ring. replace (t - 2 - 1) with (t - 3) by ring.
  replace (t - 2 + 1) with (t - 1) by ring. replace (t + 2 - 1) with (t + 1) by ring. replace (t + 2 + 1) with (t + 3) by ring.
  replace (t - 3 - 1) with (t - 4) by ring. replace (t - 3 + 1) with (t - 2) by ring. replace (t + 3 - 1) with (t + 2) by ring.
  replace (t + 3 + 1) with (t + 4) by ring. ring.
Qed.
Lemma szf_iter d F alpha t : (1 <= d <= 3)%nat -> szf d F alpha t = Nat.iter d d2 (sxf F alpha) t.
Proof. intros Hd. destruct d as [|[|[|[|d]]]]; try lia; cbn -[d2]; rewrite ?iter3, ?iter2; reflexivity. Qed.
Lemma iter_d2_ext n f g c : (forall t, f t = c * g t) -> forall t, Nat.iter n d2 f t = c * Nat.iter n d2 g t.
Proof. intros H. induction n as [|n IH]; intros t; [apply H|]. change (d2 (Nat.iter n d2 f) t = c * d2 (Nat.iter n d2 g) t). unfold d2 at 1 3. rewrite !IH. ring. Qed.
Lemma szf_kern_mod d alpha t : (1 <= d <= 3)%nat -> sw_dom alpha -> szf d (Some 1) alpha t = sg alpha * kern (S d) (expo alpha) t.
Proof.
  intros Hd Ha. rewrite szf_iter by exact Hd. unfold kern. replace (Nat.iter (S d) d2 (powlog (expo alpha)) t) with (Nat.iter d d2 (d2 (powlog (expo alpha))) t) by (destruct d as [|[|[|[|d]]]]; reflexivity || lia). apply iter_d2_ext. intros u. cbn [sxf]. unfold d2.
  rewrite !swf_powlog by exact Ha. replace (1 / 1) with 1 by field. ring.
Qed.
Lemma szf_kern_inf d alpha t : (1 <= d <= 3)%nat -> sw_dom (alpha + 2) -> szf d None alpha t = sg (alpha + 2) * kern d (expo (alpha + 2)) t.
Proof.
  intros Hd Ha. rewrite szf_iter by exact Hd. apply iter_d2_ext. intros u. cbn [sxf]. now apply swf_powlog.
Qed.

(** ** the basic sum is a trapezoidal sum *)
Definition trap (S T : nat) (f : R -> R) : R := bigsum (S * T) (fun i => (f (INR i / INR S) + f (INR (i + 1) / INR S)) / 2) / INR S.
Lemma trap_ends n (f : nat -> R) : (1 <= n)%nat ->
  bigsum n (fun i => (f i + f (i + 1)%nat) / 2) = f 0%nat / 2 + f n / 2 + bigsum (n - 1) (fun i => f (i + 1)%nat).
Proof.
  induction n as [|n IH]; intros H; [lia|]. destruct n as [|n].
  - cbn. field.
  - cbn [bigsum] in *. rewrite IH by lia. replace (S (S n) - 1)%nat with (S n) by lia. replace (S n - 1)%nat with n by lia. cbn [bigsum].
    replace (n + 1)%nat with (S n) by lia. replace (S n + 1)%nat with (S (S n)) by lia. field.
Qed.
Lemma bsum_trap S T M F alpha d : (1 <= S)%nat -> (1 <= T)%nat -> (1 <= M)%Z ->
  bsum (Z.of_nat (S * T)) M (INR S) F alpha d = 2 * INR S * trap S T (fun t => (1 - t / (IZR M / INR S)) * szf d F alpha t ^ 2).
Proof.
  intros HS HT HM. assert (0 < INR S) by (apply lt_0_INR; lia). assert (0 < IZR M) by (apply IZR_lt; lia).
  unfold trap, bsum. set (f := fun i : nat => (1 - INR i / INR S / (IZR M / INR S)) * szf d F alpha (INR i / INR S) ^ 2).
  pose proof (trap_ends (S * T) f ltac:(nia)) as E. unfold f in E at 1 2. cbv beta in E. rewrite E. rewrite Nat2Z.id, <- INR_IZR_INZ.
  unfold f at 1 2. replace (INR 0 / INR S) with 0 by (cbn; field; lra).
  rewrite (bigsum_ext _ _ (fun i => 2 * f (i + 1)%nat)).
  2:{ intros i Hi. unfold f. replace (INR (i + 1) / INR S / (IZR M / INR S)) with (INR (i + 1) / IZR M) by (field; lra). ring. }
  rewrite bigsum_scal. set (B := bigsum _ _). replace (INR (S * T) / INR S / (IZR M / INR S)) with (INR (S * T) / IZR M) by (field; lra). field. lra.
Qed.
Lemma trap_ext S T f g : (forall t, 0 <= t -> f t = g t) -> trap S T f = trap S T g.
Proof.
  intros H. unfold trap. f_equal. apply bigsum_ext. intros i Hi. destruct S as [|S]; [cbn in Hi; lia|].
  rewrite !H; [reflexivity| |]; apply Rmult_le_pos; try apply pos_INR; left; apply Rinv_0_lt_compat, lt_0_INR; lia.
Qed.
Lemma trap_plus S T f g : trap S T (fun t => f t + g t) = trap S T f + trap S T g.
Proof.
  unfold trap. rewrite (bigsum_ext _ _ (fun i => (f (INR i / INR S) + f (INR (i + 1) / INR S)) / 2 + (g (INR i / INR S) + g (INR (i + 1) / INR S)) / 2)).
  - rewrite bigsum_plus. unfold Rdiv. ring.
  - intros. field.
Qed.
Lemma trap_scal S T c f : trap S T (fun t => c * f t) = c * trap S T f.
Proof.
  unfold trap. rewrite (bigsum_ext _ _ (fun i => c * ((f (INR i / INR S) + f (INR (i + 1) / INR S)) / 2))) by (intros; field).
  rewrite bigsum_scal. unfold Rdiv. ring.
Qed.

(** ** functions that are Lipschitz on bounded sets *)
Definition lips (f : R -> R) : Prop := forall c, exists L, 0 <= L /\ forall a b, Rabs a <= c -> Rabs b <= c -> Rabs (f a - f b) <= L * Rabs (a - b).
Lemma lips_bounded f : lips f -> forall c, exists B, 0 <= B /\ forall a, Rabs a <= c -> Rabs (f a) <= B.
Proof.
  intros H c. destruct (H (Rmax c 0)) as (L & L0 & HL). exists (Rabs (f 0) + L * Rmax c 0).
  assert (0 <= Rmax c 0) by apply Rmax_r. assert (c <= Rmax c 0) by apply Rmax_l.
  split; [pose proof (Rabs_pos (f 0)); nra|]. intros a Ha.
  assert (Rabs (f a - f 0) <= L * Rabs (a - 0)) by (apply HL; [lra|rewrite Rabs_R0; assumption]). rewrite Rminus_0_r in H2.
  replace (f a) with (f 0 + (f a - f 0)) by ring. eapply Rle_trans; [apply Rabs_triang|].
  assert (L * Rabs a <= L * Rmax c 0) by (apply Rmult_le_compat_l; lra). lra.
Qed.
Lemma lips_const k : lips (fun _ => k).
Proof. intros c. exists 0. split; [lra|]. intros. replace (k - k) with 0 by ring. rewrite Rabs_R0. lra. Qed.
Lemma lips_id : lips (fun t => t).
Proof. intros c. exists 1. split; [lra|]. intros. lra. Qed.
Lemma lips_abs : lips Rabs.
Proof. intros c. exists 1. split; [lra|]. intros. rewrite Rmult_1_l. apply Rabs_triang_inv2. Qed.
Lemma lips_plus f g : lips f -> lips g -> lips (fun t => f t + g t).
Proof.
  intros Hf Hg c. destruct (Hf c) as (L & L0 & HL). destruct (Hg c) as (L' & L0' & HL'). exists (L + L'). split; [lra|].
  intros a b Ha Hb. replace (f a + g a - (f b + g b)) with ((f a - f b) + (g a - g b)) by ring. eapply Rle_trans; [apply Rabs_triang|].
  specialize (HL a b Ha Hb). specialize (HL' a b Ha Hb). lra.
Qed.
Lemma lips_mult f g : lips f -> lips g -> lips (fun t => f t * g t).
Proof.
  intros Hf Hg c. destruct (lips_bounded f Hf c) as (B & B0 & HB). destruct (lips_bounded g Hg c) as (B' & B0' & HB').
  destruct (Hf c) as (L & L0 & HL). destruct (Hg c) as (L' & L0' & HL'). exists (B * L' + B' * L). split; [nra|].
  intros a b Ha Hb. replace (f a * g a - f b * g b) with (f a * (g a - g b) + g b * (f a - f b)) by ring. eapply Rle_trans; [apply Rabs_triang|].
  rewrite !Rabs_mult. specialize (HL a b Ha Hb). specialize (HL' a b Ha Hb). specialize (HB a Ha). specialize (HB' b Hb).
  pose proof (Rabs_pos (f a)). pose proof (Rabs_pos (g b)). pose proof (Rabs_pos (a - b)). pose proof (Rabs_pos (f a - f b)). pose proof (Rabs_pos (g a - g b)).
  assert (Rabs (f a) * Rabs (g a - g b) <= B * (L' * Rabs (a - b))) by (apply Rmult_le_compat; lra).
  assert (Rabs (g b) * Rabs (f a - f b) <= B' * (L * Rabs (a - b))) by (apply Rmult_le_compat; lra). lra.
Qed.
Lemma lips_ext f g : (forall t, f t = g t) -> lips f -> lips g.
Proof. intros E H c. destruct (H c) as (L & L0 & HL). exists L. split; [exact L0|]. intros. rewrite <- !E. now apply HL. Qed.
Lemma lips_shift f k : lips f -> lips (fun t => f (t + k)).
Proof.
  intros H c. destruct (H (c + Rabs k)) as (L & L0 & HL). exists L. split; [exact L0|]. intros a b Ha Hb.
  replace (a - b) with ((a + k) - (b + k)) by ring. apply HL; (eapply Rle_trans; [apply Rabs_triang|lra]).
Qed.
Lemma lips_pow f n : lips f -> lips (fun t => f t ^ n).
Proof. intros H. induction n as [|n IH]; cbn; [apply lips_const|]. now apply (lips_mult f (fun t => f t ^ n)). Qed.
(** t ln|t| times t *)
Lemma xlnx_bound x c : 0 < x -> x <= c -> 1 <= c -> Rabs (x * ln x) <= c ^ 2.
Proof.
  intros H0 Hc H1. rewrite Rabs_mult, (Rabs_right x) by lra. pose proof (ln_le x H0). pose proof (ln_ge x H0).
  assert (Ex : x * (1 - / x) = x - 1) by (field; lra).
  assert (A : x * ln x <= c ^ 2) by nra. assert (B : - c ^ 2 <= x * ln x).
  { assert (x - 1 <= x * ln x) by (rewrite <- Ex; apply Rmult_le_compat_l; lra). nra. }
  unfold Rabs. destruct (Rcase_abs (ln x)); lra.
Qed.
Lemma lips_t2ln : lips (fun t => t ^ 2 * ln (Rabs t)).
Proof.
  intros c0. set (c := Rmax c0 1). assert (C1 : 1 <= c) by apply Rmax_r. assert (C0 : c0 <= c) by apply Rmax_l.
  exists (2 * c ^ 2 + c). split; [nra|].
  assert (Pos : forall a b, 0 < a < b -> b <= c -> Rabs (b ^ 2 * ln b - a ^ 2 * ln a) <= (2 * c ^ 2 + c) * (b - a)).
  { intros a b Hab Hb.
    destruct (MVT_gen (fun x => x ^ 2 * ln x) a b (fun x => 2 * (x * ln x) + x)) as (z & Hz & Ez).
    - intros x Hx. rewrite Rmin_left, Rmax_right in Hx by lra. auto_derive; [lra|]. field. lra.
    - intros x Hx. rewrite Rmin_left, Rmax_right in Hx by lra. apply continuity_pt_mult; [apply derivable_continuous_pt, derivable_pt_pow|].
      apply derivable_continuous_pt. exists (/ x). apply derivable_pt_lim_ln. lra.
    - rewrite Rmin_left, Rmax_right in Hz by lra. rewrite Ez, Rabs_mult, (Rabs_right (b - a)) by lra. apply Rmult_le_compat_r; [lra|].
      eapply Rle_trans; [apply Rabs_triang|]. rewrite Rabs_mult, (Rabs_right 2), (Rabs_right z) by lra.
      pose proof (xlnx_bound z c ltac:(lra) ltac:(lra) C1). lra. }
  assert (Zer : forall b, 0 <= b <= c -> Rabs (b ^ 2 * ln b) <= (2 * c ^ 2 + c) * b).
  { intros b Hb. destruct (Req_dec b 0) as [->|Nb]; [replace (0 ^ 2 * ln 0) with 0 by ring; rewrite Rabs_R0; lra|].
    replace (b ^ 2 * ln b) with (b * (b * ln b)) by ring. rewrite Rabs_mult, (Rabs_right b) by lra. rewrite Rmult_comm. apply Rmult_le_compat_r; [lra|].
    pose proof (xlnx_bound b c ltac:(lra) ltac:(lra) C1). nra. }
  assert (NN : forall a b, 0 <= a <= b -> b <= c -> Rabs (b ^ 2 * ln b - a ^ 2 * ln a) <= (2 * c ^ 2 + c) * (b - a)).
  { intros a b Hab Hb. destruct (Req_dec a b) as [->|]; [replace (b ^ 2 * ln b - b ^ 2 * ln b) with 0 by ring; rewrite Rabs_R0; lra|].
    destruct (Req_dec a 0) as [->|]; [|apply Pos; lra]. replace (b ^ 2 * ln b - 0 ^ 2 * ln 0) with (b ^ 2 * ln b) by ring.
    rewrite Rminus_0_r. apply Zer. lra. }
  intros a b Ha Hb. rewrite <- (pow2_abs a), <- (pow2_abs b). pose proof (Rabs_pos a). pose proof (Rabs_pos b).
  pose proof (Rabs_triang_inv2 a b) as T. assert (0 <= 2 * c ^ 2 + c) by nra.
  destruct (Rle_dec (Rabs a) (Rabs b)).
  - rewrite Rabs_minus_sym. eapply Rle_trans; [apply NN; lra|]. apply Rmult_le_compat_l; [assumption|].
    rewrite Rabs_minus_sym in T. rewrite Rabs_right in T by lra. rewrite (Rabs_minus_sym a b) in T. rewrite (Rabs_minus_sym a b). lra.
  - eapply Rle_trans; [apply NN; lra|]. apply Rmult_le_compat_l; [assumption|]. rewrite Rabs_right in T by lra. lra.
Qed.
Lemma lips_powlog p : (1 <= p)%nat -> lips (powlog p).
Proof.
  intros Hp. unfold powlog. destruct (Nat.even p) eqn:Ev.
  - apply Nat.even_spec in Ev. destruct Ev as (k & ->). apply (lips_ext (fun t => t ^ (2 * k - 2) * (t ^ 2 * ln (Rabs t)))).
    + intros t. rewrite <- Rmult_assoc, <- pow_add. do 2 f_equal. lia.
    + apply lips_mult; [apply lips_pow, lips_id|apply lips_t2ln].
  - apply lips_pow, lips_abs.
Qed.
Lemma lips_d2 f : lips f -> lips (d2 f).
Proof.
  intros H. unfold d2. apply (lips_ext (fun t => 2 * f t + ((-1) * f (t + -1) + (-1) * f (t + 1)))).
  - intros t. replace (t + -1) with (t - 1) by ring. ring.
  - repeat apply lips_plus; apply lips_mult; try apply lips_const; try assumption; now apply lips_shift.
Qed.
Lemma lips_kern n p : (1 <= p)%nat -> lips (kern n p).
Proof. intros Hp. unfold kern. induction n as [|n IH]; [now apply lips_powlog|now apply lips_d2]. Qed.
Lemma lips_corr n p : (1 <= p)%nat -> lips (corr n p).
Proof. intros Hp. unfold corr, Rdiv. apply lips_mult; [now apply lips_kern|apply lips_const]. Qed.
Lemma lips_continuous f x : lips f -> continuous f x.
Proof.
  intros H. destruct (H (Rabs x + 1)) as (L & L0 & HL). apply continuity_pt_filterlim. intros e He.
  exists (Rmin 1 (e / (L + 1))). split.
  - apply Rmin_pos; [lra|]. apply Rdiv_lt_0_compat; lra.
  - intros y [_ Hy]. unfold dist, R_met in *. cbn in *. unfold R_dist in *.
    assert (Y1 : Rabs (y - x) < 1) by (eapply Rlt_le_trans; [exact Hy|apply Rmin_l]).
    assert (Y2 : Rabs (y - x) < e / (L + 1)) by (eapply Rlt_le_trans; [exact Hy|apply Rmin_r]).
    eapply Rle_lt_trans.
    + apply HL; [|lra]. replace y with ((y - x) + x) by ring. eapply Rle_trans; [apply Rabs_triang|lra].
    + apply Rle_lt_trans with (L * (e / (L + 1))); [apply Rmult_le_compat_l; lra|].
      replace (L * (e / (L + 1))) with (e * (L / (L + 1))) by (field; lra). rewrite <- (Rmult_1_r e) at 2. apply Rmult_lt_compat_l; [exact He|].
      apply Rmult_lt_reg_r with (L + 1); [lra|]. unfold Rdiv. rewrite Rmult_assoc, Rinv_l by lra. lra.
Qed.
Lemma lips_int f a b : lips f -> ex_RInt f a b.
Proof. intros H. apply (ex_RInt_continuous (V := R_CompleteNormedModule)). intros. now apply lips_continuous. Qed.

Lemma bigsum_absR n g : Rabs (bigsum n g) <= bigsum n (fun i => Rabs (g i)).
Proof.
  induction n as [|n IH]; cbn; [rewrite Rabs_R0; lra|]. eapply Rle_trans; [apply Rabs_triang|]. lra.
Qed.
(** ** convergence of the trapezoidal sums *)
Lemma RInt_cells (f : R -> R) S n : (1 <= S)%nat -> lips f -> RInt f 0 (INR n / INR S) = bigsum n (fun i => RInt f (INR i / INR S) (INR (i + 1) / INR S)).
Proof.
  intros HS H. induction n as [|n IH].
  - cbn [bigsum]. replace (INR 0 / INR S) with 0 by (cbn; unfold Rdiv; ring). exact (RInt_point (V := R_CompleteNormedModule) 0 f).
  - cbn [bigsum]. rewrite <- IH. replace (Datatypes.S n) with (n + 1)%nat by lia.
    symmetry. apply (RInt_Chasles f); now apply lips_int.
Qed.
Lemma cell_error f a b L : a <= b -> ex_RInt f a b -> 0 <= L -> (forall x y, a <= x <= b -> a <= y <= b -> Rabs (f x - f y) <= L * Rabs (x - y)) ->
  Rabs ((f a + f b) / 2 * (b - a) - RInt f a b) <= L * (b - a) * (b - a).
Proof.
  intros Hab Hi L0 HL. replace ((f a + f b) / 2 * (b - a)) with (RInt (fun _ => (f a + f b) / 2) a b) by (rewrite RInt_const; change ((b - a) * ((f a + f b) / 2) = (f a + f b) / 2 * (b - a)); ring).
  assert (E : minus (RInt (fun _ => (f a + f b) / 2) a b) (RInt f a b) = RInt (fun x => minus ((f a + f b) / 2) (f x)) a b).
  { symmetry. apply (RInt_minus (V := R_CompleteNormedModule) (fun _ => (f a + f b) / 2) f a b); [apply ex_RInt_const|exact Hi]. }
  change (Rabs (minus (RInt (fun _ => (f a + f b) / 2) a b) (RInt f a b)) <= L * (b - a) * (b - a)). rewrite E.
  eapply Rle_trans; [apply (abs_RInt_le_const (fun x => (f a + f b) / 2 + - f x) a b (L * (b - a))); [exact Hab| |]|lra].
  - apply (ex_RInt_minus (V := R_NormedModule) (fun _ => (f a + f b) / 2) f a b); [apply ex_RInt_const|exact Hi].
  - intros t Ht. replace ((f a + f b) / 2 + - f t) with ((f a - f t) / 2 + (f b - f t) / 2) by field.
    eapply Rle_trans; [apply Rabs_triang|]. unfold Rdiv. rewrite !Rabs_mult, (Rabs_right (/ 2)) by lra.
    assert (Rabs (f a - f t) <= L * (b - a)).
    { eapply Rle_trans; [apply HL; lra|]. apply Rmult_le_compat_l; [exact L0|]. unfold Rabs. destruct (Rcase_abs (a - t)); lra. }
    assert (Rabs (f b - f t) <= L * (b - a)).
    { eapply Rle_trans; [apply HL; lra|]. apply Rmult_le_compat_l; [exact L0|]. unfold Rabs. destruct (Rcase_abs (b - t)); lra. }
    lra.
Qed.
Lemma trap_limit f T : lips f -> exists K, 0 <= K /\ forall S, (1 <= S)%nat -> Rabs (trap S T f - RInt f 0 (INR T)) <= K / INR S.
Proof.
  intros H. destruct (H (INR T)) as (L & L0 & HL). exists (L * INR T). split; [pose proof (pos_INR T); nra|].
  intros S HS. assert (S0 : 0 < INR S) by (apply lt_0_INR; lia).
  replace (INR T) with (INR (S * T) / INR S) at 1 by (rewrite mult_INR; field; lra). rewrite (RInt_cells f S) by assumption.
  unfold trap, Rdiv at 1. rewrite Rmult_comm, <- bigsum_scal, <- bigsum_minus.
  eapply Rle_trans; [apply bigsum_absR|].
  eapply Rle_trans; [apply (bigsum_le _ _ (fun _ => L * / INR S * / INR S))|].
  - intros i Hi. assert (Eh : INR (i + 1) / INR S - INR i / INR S = / INR S) by (rewrite plus_INR; cbn [INR]; field; lra).
    assert (P : 0 < / INR S) by now apply Rinv_0_lt_compat.
    replace (/ INR S * ((f (INR i / INR S) + f (INR (i + 1) / INR S)) / 2)) with ((f (INR i / INR S) + f (INR (i + 1) / INR S)) / 2 * (INR (i + 1) / INR S - INR i / INR S)) by (rewrite Eh; ring).
    replace (L * / INR S * / INR S) with (L * (INR (i + 1) / INR S - INR i / INR S) * (INR (i + 1) / INR S - INR i / INR S)) by (rewrite Eh; ring).
    apply cell_error; [lra|now apply lips_int|exact L0|].
    assert (B0 : 0 <= INR i / INR S) by (apply Rmult_le_pos; [apply pos_INR|lra]).
    assert (B1 : INR (i + 1) / INR S <= INR T).
    { apply Rmult_le_reg_r with (INR S); [exact S0|]. unfold Rdiv. rewrite Rmult_assoc, Rinv_l, Rmult_1_r by lra. rewrite <- mult_INR. apply le_INR. nia. }
    intros x y Hx Hy. apply HL; rewrite Rabs_right; lra.
  - rewrite bigsum_const, mult_INR. right. field. lra.
Qed.
