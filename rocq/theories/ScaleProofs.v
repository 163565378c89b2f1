(** * Scaling a record in rounded arithmetic.

    [rounded rnd] is the real arithmetic in which every operation is followed
    by [rnd].  With [rnd] = rounding to 53 bits, nearest even, it is binary64
    without a limit on the exponent; with [rnd r = r] it is [RNum]. *)
From Coq Require Import Reals List ZArith Lra Lia Bool.
From Flocq Require Import Core.Core.
From Verif Require Import Base Num NumR NpList SimProofs.
Import ListNotations.
Local Open Scope R_scope.

Definition rounded (rnd : R -> R) : Num R := {|
  ofZ := fun z => rnd (IZR z);
  nadd := fun a b => rnd (a + b);
  nsub := fun a b => rnd (a - b);
  nmul := fun a b => rnd (a * b);
  ndiv := fun a b => rnd (a / b);
  nabs := Rabs;
  nsqrt := fun a => rnd (sqrt a);
  nltb := Rltb;
  nleb := Rleb;
  neqb := Reqb;
  nisnan := fun _ => false;
  nrint := fun x => Some (rintR x);
  ntrunc := fun x => Some (truncR x);
  nlogspace10 := logspace10R |}.

(** multiplication by [c] and change of sign commute with the rounding *)
Record exact_scale (rnd : R -> R) (c : R) : Prop := {
  es_nz : c <> 0;
  es_c : forall r, rnd (c * r) = c * rnd r;
  es_opp : forall r, rnd (- r) = - rnd r }.
Definition times (c a b : R) : Prop := b = c * a.

Section Scale.
Variable rnd : R -> R.
Variable c : R.
Hypothesis H : exact_scale rnd c.
Lemma rnd_0 : rnd 0 = 0.
Proof. pose proof (es_opp _ _ H 0) as E. rewrite Ropp_0 in E. lra. Qed.
Lemma rnd_c r : rnd (c * r) = c * rnd r. Proof. apply (es_c _ _ H). Qed.
Lemma rnd_c2 r : rnd (c * c * r) = c * c * rnd r.
Proof. rewrite !Rmult_assoc, !rnd_c. reflexivity. Qed.
Lemma rnd_abs r : rnd (Rabs c * r) = Rabs c * rnd r.
Proof.
  unfold Rabs. destruct (Rcase_abs c); [|apply rnd_c].
  replace (- c * r) with (- (c * r)) by ring. rewrite (es_opp _ _ H), rnd_c. ring.
Qed.
Lemma c2_pos : 0 < c * c.
Proof. pose proof (es_nz _ _ H). assert (0 < c \/ c < 0) as [?|?] by lra; nra. Qed.
Lemma sqrt_c2 a : sqrt (c * c * a) = Rabs c * sqrt a.
Proof.
  destruct (Rle_or_lt 0 a) as [Ha|Ha].
  - rewrite sqrt_mult_alt by (pose proof c2_pos; lra). f_equal. apply sqrt_Rsqr_abs.
  - rewrite (sqrt_neg a), sqrt_neg by (pose proof c2_pos; nra). ring.
Qed.
Lemma abs_c2 : Rabs c * Rabs c = c * c.
Proof. rewrite <- Rabs_mult. apply Rabs_right. pose proof c2_pos. lra. Qed.

Let NA : Num R := rounded rnd.
Ltac un := unfold times; cbn [ofZ nadd nsub nmul ndiv nabs nsqrt nltb nleb neqb nisnan NA rounded].
Theorem scale_sim : @sim R NA (times c) (times (c * c)) (times (Rabs c)).
Proof.
  split; un; intros; subst; try reflexivity; rewrite ?rnd_0; try ring.
  - rewrite <- rnd_c. f_equal. ring.
  - rewrite <- rnd_c. f_equal. ring.
  - rewrite <- rnd_c. f_equal. ring.
  - rewrite <- rnd_c. f_equal. ring.
  - rewrite <- rnd_c. f_equal. unfold Rdiv. ring.
  - rewrite <- rnd_c2. f_equal. ring.
  - rewrite <- rnd_c2. f_equal. ring.
  - rewrite <- rnd_c2. f_equal. ring.
  - rewrite <- rnd_c2. f_equal. ring.
  - rewrite <- rnd_c2. f_equal. unfold Rdiv. ring.
  - rewrite <- rnd_abs, sqrt_c2. reflexivity.
  - rewrite <- rnd_abs. f_equal. ring.
  - rewrite <- rnd_abs. f_equal. ring.
  - rewrite <- rnd_abs. f_equal. unfold Rdiv. ring.
Qed.
Lemma Rltb_scale p a b : 0 < p -> Rltb (p * a) (p * b) = Rltb a b.
Proof. intros Hp. unfold Rltb. destruct (Rlt_dec (p * a) (p * b)), (Rlt_dec a b); try reflexivity; exfalso; nra. Qed.
Lemma Rltb_neg p a b : p < 0 -> Rltb (p * a) (p * b) = Rltb b a.
Proof. intros Hp. unfold Rltb. destruct (Rlt_dec (p * a) (p * b)), (Rlt_dec b a); try reflexivity; exfalso; nra. Qed.
Lemma abs_pos : 0 < Rabs c.
Proof. apply Rabs_pos_lt, (es_nz _ _ H). Qed.
Theorem scale_order : @sim_order R NA (times c) (times (c * c)) (times (Rabs c)) (Rltb 0 c).
Proof.
  assert (Hd : (0 < c /\ Rltb 0 c = true) \/ (c < 0 /\ Rltb 0 c = false)).
  { pose proof (es_nz _ _ H). unfold Rltb. destruct (Rlt_dec 0 c); [left|right]; split; lra || reflexivity. }
  split; un.
  - intros a a' b b' -> ->. destruct Hd as [[Hc ->] | [Hc ->]]; [now apply Rltb_scale|now apply Rltb_neg].
  - intros a a' b b' -> ->. destruct Hd as [[Hc ->] | [Hc ->]].
    + rewrite Rabs_right by lra. rewrite <- rnd_c. f_equal. ring.
    + rewrite <- rnd_abs, Rabs_left by lra. f_equal. ring.
  - reflexivity.
  - intros a a' b b' -> ->. apply Rltb_scale, abs_pos.
  - intros a a' ->. rewrite <- rnd_c2, <- abs_c2. f_equal. ring.
  - intros k a a' ->. rewrite <- rnd_abs. f_equal. unfold Rdiv. ring.
Qed.
Theorem scale_cov : @sim_cov R NA (times c) (times (c * c)).
Proof.
  split; un.
  - intros l l' Hl. unfold asum. un. rewrite rnd_0.
    assert (G : forall l l', Forall2 (@prod_rel R NA (times c)) l l' -> forall a, fold_left (fun u v => rnd (u + v)) l' (c * c * a) = c * c * fold_left (fun u v => rnd (u + v)) l a).
    { clear l l' Hl. induction 1 as [|p p' l l' (u & u' & v & v' & Hu & Hv & -> & ->) Hl IH]; intros a; cbn [fold_left]; [reflexivity|].
      rewrite <- IH. f_equal. rewrite Hu, Hv. un. replace (c * u * (c * v)) with (c * c * (u * v)) by ring. rewrite (rnd_c2 (u * v)), <- (rnd_c2 (a + rnd (u * v))). f_equal. ring. }
    specialize (G l l' Hl 0). rewrite Rmult_0_r in G. exact G.
  - intros a a' ->. rewrite rnd_0. unfold Rleb. pose proof c2_pos. destruct (Rle_dec 0 (c * c * a)), (Rle_dec 0 a); try reflexivity; exfalso; nra.
  - intros a a' ->. rewrite Rabs_mult. f_equal. apply Rabs_right. pose proof c2_pos. lra.
Qed.
Theorem scale_grad : @sim_grad R NA (times (c * c)) (times (Rabs c)).
Proof. split; un; [|reflexivity]. intros a a' ->. rewrite <- rnd_c2, <- abs_c2. f_equal. ring. Qed.
End Scale.

(** ** powers of two and 53-bit rounding *)
Definition rnd53 : R -> R := round radix2 (FLX_exp 53) ZnearestE.
Local Instance p53 : Prec_gt_0 53 := eq_refl.
Lemma rnd53_bpow k r : rnd53 (bpow radix2 k * r) = bpow radix2 k * rnd53 r.
Proof.
  destruct (Req_dec r 0) as [->|Hr]; [unfold rnd53; rewrite Rmult_0_r, round_0; [ring|typeclasses eauto]|].
  unfold rnd53, round, scaled_mantissa, cexp, F2R. cbn [Fnum Fexp]. rewrite (Rmult_comm (bpow radix2 k) r), mag_mult_bpow by exact Hr.
  unfold FLX_exp. rewrite Rmult_assoc, <- bpow_plus.
  replace (k + - (mag radix2 r + k - 53))%Z with (- (mag radix2 r - 53))%Z by lia.
  replace (mag radix2 r + k - 53)%Z with (k + (mag radix2 r - 53))%Z by lia. rewrite bpow_plus. ring.
Qed.
Lemma rnd53_opp r : rnd53 (- r) = - rnd53 r.
Proof. apply round_NE_opp. Qed.
Theorem scale53 k (s : bool) : exact_scale rnd53 (if s then - bpow radix2 k else bpow radix2 k).
Proof.
  pose proof (bpow_gt_0 radix2 k). split; [destruct s; lra| |exact rnd53_opp]. intros r. destruct s; [|apply rnd53_bpow].
  replace (- bpow radix2 k * r) with (- (bpow radix2 k * r)) by ring. rewrite rnd53_opp, rnd53_bpow. ring.
Qed.
Theorem scale_id c : c <> 0 -> exact_scale (fun r => r) c.
Proof. intros Hc. split; auto. Qed.
