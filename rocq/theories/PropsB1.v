(** * The B1 and R(n) ratios of generated noise against their theory (C120).

    b1 (ci.py 193-213) is the sample variance of the block frequencies over the
    Allan variance, rn (140-151) the modified over the ordinary Allan variance;
    b1_theory and rn_theory (154-179, 216-254) say what to expect for each noise
    type, and the boundaries (182-187, 257-268) tell the types apart. *)
From Coq Require Import String Reals List ZArith Bool Arith Lia Lra Psatz.
From Interval Require Import Tactic.
From Verif Require Import Base Num NpList NumR Spec ListFacts RSum Dft ModelCore ModelDev ModelMisc ModelCi ModelCiR ModelNoise ModelNoiseR
  TauProofs DevProofs CiProofs PropsCi NoiseProofs PropsKasdin PropsPredict PropsExpect.
Import ListNotations.
Local Open Scope R_scope.
Local Notation len := List.length.

(** ** Sample variance as a sum over pairs *)
Lemma lagrange n (y : nat -> R) :
  INR n * bigsum n (fun j => y j ^ 2) - bigsum n y ^ 2 = bigsum n (fun k => bigsum k (fun j => (y k - y j) ^ 2)).
Proof.
  induction n as [|n IH]; [cbn; ring|]. cbn [bigsum]. rewrite <- IH, S_INR.
  rewrite (bigsum_ext n (fun j => (y n - y j) ^ 2) (fun j => y n ^ 2 - 2 * y n * y j + y j ^ 2)) by (intros; ring).
  rewrite bigsum_plus, bigsum_minus, bigsum_const, bigsum_scal. ring.
Qed.
Lemma sample_var_pairs n (y : nat -> R) : (2 <= n)%nat ->
  sample_var n y = / (INR n * (INR n - 1)) * bigsum n (fun k => bigsum k (fun j => (y k - y j) ^ 2)).
Proof.
  intro Hn. assert (2 <= INR n) by (apply le_INR in Hn; exact Hn). rewrite <- lagrange. unfold sample_var.
  rewrite (bigsum_ext n _ (fun j => y j ^ 2 - 2 * (bigsum n y / INR n) * y j + (bigsum n y / INR n) ^ 2)) by (intros; ring).
  rewrite bigsum_plus, bigsum_minus, bigsum_const, bigsum_scal. field. split; lra.
Qed.

(** ** Expectation of the sample variance of the block frequencies *)
Definition cb (b : R) (a j k t : nat) : R := coef b ((k + 1) * a) t - coef b (k * a) t - coef b ((j + 1) * a) t + coef b (j * a) t.
Section Exp.
Variable nr : nat.
Variable E : ((nat -> R) -> R) -> R.
Hypothesis HE : white nr E.

Lemma block_fit a k : (k < (nr - 1) / a)%nat -> (1 <= a)%nat -> ((k + 1) * a < nr)%nat.
Proof using. intros Hk Ha. pose proof (Nat.mul_div_le (nr - 1) a ltac:(lia)). nia. Qed.

Lemma E_svar qd b a (v : nat -> nat -> R) : 0 <= qd -> (1 <= a)%nat -> (2 * a < nr)%nat ->
  (forall j k, (j < k)%nat -> ((k + 1) * a < nr)%nat -> bigsum nr (fun t => cb b a j k t ^ 2) = v j k) ->
  E (fun w => sample_var ((nr - 1) / a) (block_freq (record nr qd b w) a)) =
  qd / (INR a ^ 2 * (INR ((nr - 1) / a) * (INR ((nr - 1) / a) - 1))) * bigsum ((nr - 1) / a) (fun k => bigsum k (fun j => v j k)).
Proof using HE.
  intros Hq Ha Hn Hv. assert (Hd : (2 <= (nr - 1) / a)%nat) by (apply Nat.div_le_lower_bound; lia).
  pose proof (block_fit a) as Hfit. set (N := ((nr - 1) / a)%nat) in *.
  assert (Hap : 0 < INR a) by (apply lt_0_INR; lia). assert (2 <= INR N) by (apply le_INR in Hd; exact Hd).
  rewrite (wh_ext _ E HE _ (fun w => / (INR N * (INR N - 1)) *
    (fun w => bigsum N (fun k => bigsum k (fun j => (block_freq (record nr qd b w) a k - block_freq (record nr qd b w) a j) ^ 2))) w))
    by (intro w; now apply sample_var_pairs).
  rewrite (wh_scal _ E HE).
  rewrite (E_sum _ E HE N (fun k w => bigsum k (fun j => (block_freq (record nr qd b w) a k - block_freq (record nr qd b w) a j) ^ 2))).
  rewrite (bigsum_ext N _ (fun k => qd / INR a ^ 2 * bigsum k (fun j => v j k))).
  - rewrite bigsum_scal. field. repeat split; lra.
  - intros k Hk. rewrite (E_sum _ E HE k (fun j w => (block_freq (record nr qd b w) a k - block_freq (record nr qd b w) a j) ^ 2)), <- bigsum_scal.
    apply bigsum_ext. intros j Hj. pose proof (Hfit k Hk Ha) as Fk. pose proof (Hfit j ltac:(lia) Ha) as Fj.
    rewrite (E_sq nr E HE qd _ (fun t => / INR a * cb b a j k t) Hq).
    + rewrite (bigsum_ext nr _ (fun t => / INR a ^ 2 * cb b a j k t ^ 2)) by (intros; field; lra).
      rewrite bigsum_scal, Hv by lia. field. lra.
    + intro w. unfold block_freq. rewrite !record_nth by nia.
      rewrite (bigsum_ext nr (fun t => / INR a * cb b a j k t * w t) (fun t => / INR a *
        (coef b ((k + 1) * a) t * w t - coef b (k * a) t * w t - coef b ((j + 1) * a) t * w t + coef b (j * a) t * w t))) by (intros; unfold cb; ring).
      rewrite bigsum_scal, bigsum_plus, !bigsum_minus. field. lra.
Qed.
End Exp.

(** ** The three exactly solvable slopes *)
Lemma cb_wpm nr a j k : (1 <= a)%nat -> (j < k)%nat -> ((k + 1) * a < nr)%nat ->
  bigsum nr (fun t => cb 0 a j k t ^ 2) = if Nat.eqb k (S j) then 6 else 4.
Proof.
  intros Ha Hj Hk. destruct (Nat.eqb_spec k (S j)) as [->|Hne].
  - rewrite <- (var_wpm nr a (j * a)) by lia. apply bigsum_ext. intros t Ht. f_equal. unfold cb, c2.
    replace ((S j + 1) * a)%nat with (j * a + 2 * a)%nat by lia. replace (S j * a)%nat with (j * a + a)%nat by lia. replace ((j + 1) * a)%nat with (j * a + a)%nat by lia. ring.
  - assert ((j + 1) * a < k * a)%nat by (apply Nat.mul_lt_mono_pos_r; lia).
    assert (Q1 : ((k + 1) * a = k * a + a)%nat) by lia. assert (Q2 : ((j + 1) * a = j * a + a)%nat) by lia.
    rewrite Q1, Q2 in *. set (p := (k * a)%nat) in *. set (q := (j * a)%nat) in *.
    rewrite (bigsum_ext nr _ (fun t => (fun _ => 1) t * (if Nat.eqb (p + a) t then 1 else 0) + (fun _ => 1) t * (if Nat.eqb p t then 1 else 0)
      + (fun _ => 1) t * (if Nat.eqb (q + a) t then 1 else 0) + (fun _ => 1) t * (if Nat.eqb q t then 1 else 0))).
    + rewrite !bigsum_plus. rewrite !bigsum_pick by lia. ring.
    + intros t Ht. unfold cb. rewrite Q1, Q2, !coef_0. fold p q.
      destruct (Nat.eqb_spec (p + a) t), (Nat.eqb_spec p t), (Nat.eqb_spec (q + a) t), (Nat.eqb_spec q t); try lia; ring.
Qed.
Lemma segs nr q a l (f : nat -> R) : (q + (a + (l + a)) <= nr)%nat -> (forall t, (t < q)%nat -> f t = 0) -> (forall t, (q + (a + (l + a)) <= t)%nat -> f t = 0) ->
  bigsum nr f = bigsum a (fun s => f (q + s)%nat) + bigsum l (fun s => f (q + a + s)%nat) + bigsum a (fun s => f (q + a + l + s)%nat).
Proof.
  intros H Hl Hr. replace nr with (q + (a + (l + (a + (nr - q - a - l - a)))))%nat by lia. rewrite !bigsum_add.
  rewrite (bigsum_0 q) by exact Hl. rewrite (bigsum_0 (nr - q - a - l - a)) by (intros; apply Hr; lia).
  rewrite Rplus_0_l, Rplus_0_r, Rplus_assoc. f_equal. f_equal; apply bigsum_ext; intros; f_equal; lia.
Qed.
Lemma cb_wfm nr a j k : (1 <= a)%nat -> (j < k)%nat -> ((k + 1) * a < nr)%nat -> bigsum nr (fun t => cb (-2) a j k t ^ 2) = 2 * INR a.
Proof.
  intros Ha Hj Hk. assert ((j + 1) * a <= k * a)%nat by (apply Nat.mul_le_mono_r; lia).
  assert (Q1 : ((k + 1) * a = k * a + a)%nat) by lia. assert (Q2 : ((j + 1) * a = j * a + a)%nat) by lia.
  rewrite Q1, Q2 in *. set (p := (k * a)%nat) in *. set (q := (j * a)%nat) in *.
  assert (V : forall t, cb (-2) a j k t = (if (t <=? p + a)%nat then 1 else 0) - (if (t <=? p)%nat then 1 else 0) - (if (t <=? q + a)%nat then 1 else 0) + (if (t <=? q)%nat then 1 else 0))
    by (intro t; unfold cb; rewrite Q1, Q2, !coef_m2; reflexivity).
  rewrite (segs nr (S q) a (p - q - a)) by (try lia; intros t Ht; rewrite V; repeat match goal with |- context [(?x <=? ?y)%nat] => destruct (Nat.leb_spec x y); try lia end; ring).
  rewrite (bigsum_ext a _ (fun _ => 1)), (bigsum_ext (p - q - a) _ (fun _ => 0)), (bigsum_ext a (fun s => cb _ _ _ _ _ ^ 2) (fun _ => 1)).
  - rewrite !bigsum_const. ring.
  - intros s Hs; rewrite V; repeat match goal with |- context [(?x <=? ?y)%nat] => destruct (Nat.leb_spec x y); try lia end; ring.
  - intros s Hs; rewrite V; repeat match goal with |- context [(?x <=? ?y)%nat] => destruct (Nat.leb_spec x y); try lia end; ring.
  - intros s Hs; rewrite V; repeat match goal with |- context [(?x <=? ?y)%nat] => destruct (Nat.leb_spec x y); try lia end; ring.
Qed.
Lemma cb_rwfm nr a j k : (1 <= a)%nat -> (j < k)%nat -> ((k + 1) * a < nr)%nat ->
  bigsum nr (fun t => cb (-4) a j k t ^ 2) = INR (k - j - 1) * INR a ^ 3 + INR a * (2 * INR a ^ 2 + 1) / 3.
Proof.
  intros Ha Hj Hk. assert ((j + 1) * a <= k * a)%nat by (apply Nat.mul_le_mono_r; lia).
  assert (L : (k * a - j * a - a = (k - j - 1) * a)%nat) by (rewrite !Nat.mul_sub_distr_r; lia).
  assert (Q1 : ((k + 1) * a = k * a + a)%nat) by lia. assert (Q2 : ((j + 1) * a = j * a + a)%nat) by lia.
  rewrite Q1, Q2 in *. set (p := (k * a)%nat) in *. set (q := (j * a)%nat) in *.
  assert (V : forall t, cb (-4) a j k t = INR (S (p + a) - t) - INR (S p - t) - INR (S (q + a) - t) + INR (S q - t))
    by (intro t; unfold cb; rewrite Q1, Q2, !coef_m4; reflexivity).
  rewrite (segs nr (S q) a (p - q - a)).
  - rewrite (bigsum_ext a _ (fun s => INR s ^ 2)), (bigsum_ext (p - q - a) _ (fun _ => INR a ^ 2)), (bigsum_ext a (fun s => cb _ _ _ _ _ ^ 2) (fun s => INR a ^ 2 - 2 * INR a * INR s + INR s ^ 2)).
    + rewrite bigsum_plus, bigsum_minus, !bigsum_const, bigsum_scal, sum_id, sum_sq, L, mult_INR. field.
    + intros s Hs. rewrite V. replace (S (p + a) - (S q + a + (p - q - a) + s))%nat with (a - s)%nat by lia.
      replace (S p - (S q + a + (p - q - a) + s))%nat with 0%nat by lia. replace (S (q + a) - (S q + a + (p - q - a) + s))%nat with 0%nat by lia.
      replace (S q - (S q + a + (p - q - a) + s))%nat with 0%nat by lia. rewrite minus_INR by lia. change (INR 0) with 0. ring.
    + intros s Hs. rewrite V. replace (S (p + a) - (S q + a + s))%nat with (a + (S p - (S q + a + s)))%nat by lia.
      replace (S (q + a) - (S q + a + s))%nat with 0%nat by lia. replace (S q - (S q + a + s))%nat with 0%nat by lia. rewrite plus_INR. change (INR 0) with 0. ring.
    + intros s Hs. rewrite V. replace (S (p + a) - (S q + s))%nat with (a + (S p - (S q + s)))%nat by lia.
      replace (S (q + a) - (S q + s))%nat with (a - s)%nat by lia. replace (S q - (S q + s))%nat with 0%nat by lia. rewrite plus_INR, (minus_INR a s) by lia. change (INR 0) with 0. ring.
  - lia.
  - intros t Ht. rewrite V, !minus_INR, !S_INR, !plus_INR by lia. ring.
  - intros t Ht. rewrite V. replace (S (p + a) - t)%nat with 0%nat by lia. replace (S p - t)%nat with 0%nat by lia.
    replace (S (q + a) - t)%nat with 0%nat by lia. replace (S q - t)%nat with 0%nat by lia. change (INR 0) with 0. ring.
Qed.

(** ** The double sums *)
Lemma pairs_wpm N : bigsum N (fun k => bigsum k (fun j => if Nat.eqb k (S j) then 6 else 4)) = 2 * INR N ^ 2 - 2 + (if Nat.eqb N 0 then 2 else 0).
Proof.
  assert (I : forall k, bigsum k (fun j => if Nat.eqb k (S j) then 6 else 4) = if Nat.eqb k 0 then 0 else 4 * INR k + 2).
  { intros [|k]; [reflexivity|]. cbn [bigsum]. rewrite Nat.eqb_refl. rewrite (bigsum_ext k _ (fun _ => 4)).
    - rewrite bigsum_const, S_INR. cbn [Nat.eqb]. ring.
    - intros j Hj. destruct (Nat.eqb_spec (S k) (S j)); [lia|reflexivity]. }
  induction N as [|N IH]; [cbn; ring|]. cbn [bigsum]. rewrite IH, I, S_INR. cbn [Nat.eqb]. destruct (Nat.eqb_spec N 0) as [->|]; [cbn [INR]|]; ring.
Qed.
Lemma pairs_wfm N c : bigsum N (fun k => bigsum k (fun _ => c)) = INR N * (INR N - 1) / 2 * c.
Proof. rewrite (bigsum_ext N _ (fun k => INR k * c)) by (intros; apply bigsum_const). rewrite bigsum_scal_r, sum_id. reflexivity. Qed.
Lemma pairs_rwfm N c d : bigsum N (fun k => bigsum k (fun j => INR (k - j - 1) * c + d)) = INR N * (INR N - 1) * (INR N - 2) / 6 * c + INR N * (INR N - 1) / 2 * d.
Proof.
  rewrite (bigsum_ext N _ (fun k => (INR k ^ 2 - INR k) * (c / 2) + INR k * d)).
  - rewrite bigsum_plus, !bigsum_scal_r, bigsum_minus, sum_id, sum_sq. field.
  - intros k _. rewrite bigsum_plus, bigsum_const, bigsum_scal_r.
    rewrite (bigsum_ext k _ (fun j => INR (k - 1 - j))) by (intros j Hj; f_equal; lia). rewrite (bigsum_rev k INR), sum_id. field.
Qed.

Lemma E_svar_wpm nr E qd a : white nr E -> 0 <= qd -> (1 <= a)%nat -> (2 * a < nr)%nat ->
  E (fun w => sample_var ((nr - 1) / a) (block_freq (record nr qd 0 w) a)) = 2 * (INR ((nr - 1) / a) + 1) / INR ((nr - 1) / a) * qd / INR a ^ 2.
Proof.
  intros HE Hq Ha Hn. rewrite (E_svar nr E HE qd 0 a (fun j k => if Nat.eqb k (S j) then 6 else 4) Hq Ha Hn) by (intros; now apply cb_wpm).
  assert (Hd : (2 <= (nr - 1) / a)%nat) by (apply Nat.div_le_lower_bound; lia).
  assert (0 < INR a) by (apply lt_0_INR; lia). rewrite pairs_wpm. destruct (Nat.eqb_spec ((nr - 1) / a) 0) as [C|_]; [lia|].
  apply le_INR in Hd. change (INR 2) with 2 in Hd. field. repeat split; lra.
Qed.
Lemma E_svar_wfm nr E qd a : white nr E -> 0 <= qd -> (1 <= a)%nat -> (2 * a < nr)%nat ->
  E (fun w => sample_var ((nr - 1) / a) (block_freq (record nr qd (-2) w) a)) = qd / INR a.
Proof.
  intros HE Hq Ha Hn. rewrite (E_svar nr E HE qd (-2) a (fun _ _ => 2 * INR a) Hq Ha Hn) by (intros; now apply cb_wfm).
  assert (Hd : (2 <= (nr - 1) / a)%nat) by (apply Nat.div_le_lower_bound; lia).
  assert (0 < INR a) by (apply lt_0_INR; lia). rewrite pairs_wfm. apply le_INR in Hd. change (INR 2) with 2 in Hd. field. repeat split; lra.
Qed.
Lemma E_svar_rwfm nr E qd a : white nr E -> 0 <= qd -> (1 <= a)%nat -> (2 * a < nr)%nat ->
  E (fun w => sample_var ((nr - 1) / a) (block_freq (record nr qd (-4) w) a)) = qd * (INR ((nr - 1) / a) * INR a ^ 2 + 1) / (6 * INR a).
Proof.
  intros HE Hq Ha Hn. rewrite (E_svar nr E HE qd (-4) a (fun j k => INR (k - j - 1) * INR a ^ 3 + INR a * (2 * INR a ^ 2 + 1) / 3) Hq Ha Hn) by (intros; now apply cb_rwfm).
  assert (Hd : (2 <= (nr - 1) / a)%nat) by (apply Nat.div_le_lower_bound; lia).
  assert (0 < INR a) by (apply lt_0_INR; lia). rewrite pairs_rwfm. apply le_INR in Hd. change (INR 2) with 2 in Hd. field. repeat split; lra.
Qed.
Lemma E_avar_wpm nr E qd a : white nr E -> 0 <= qd -> (1 <= a)%nat -> (2 * a < nr)%nat -> E (fun w => avar (record nr qd 0 w) 1 a) = 3 * qd / INR a ^ 2.
Proof.
  intros HE Hq Ha Hn. assert (0 < INR a) by (apply lt_0_INR; lia).
  rewrite (E_avar nr E HE qd 0 a 1 6 Hq) by (try lra; try lia; intros; apply var_wpm; lia). field. lra.
Qed.
Lemma E_avar_wfm nr E qd a : white nr E -> 0 <= qd -> (1 <= a)%nat -> (2 * a < nr)%nat -> E (fun w => avar (record nr qd (-2) w) 1 a) = qd / INR a.
Proof.
  intros HE Hq Ha Hn. assert (0 < INR a) by (apply lt_0_INR; lia).
  rewrite (E_avar nr E HE qd (-2) a 1 (2 * INR a) Hq) by (try lra; try lia; intros; apply var_wfm; lia). field. lra.
Qed.
Lemma E_avar_rwfm nr E qd a : white nr E -> 0 <= qd -> (1 <= a)%nat -> (2 * a < nr)%nat ->
  E (fun w => avar (record nr qd (-4) w) 1 a) = qd * (2 * INR a ^ 2 + 1) / (6 * INR a).
Proof.
  intros HE Hq Ha Hn. assert (0 < INR a) by (apply lt_0_INR; lia).
  rewrite (E_avar nr E HE qd (-4) a 1 (INR a * (2 * INR a ^ 2 + 1) / 3) Hq) by (try lra; try lia; intros; apply var_rwfm; lia). field. lra.
Qed.

(** what b1 and rn return on a generated record at rate 1 *)
Definition b1_is (nr : nat) (qd b : R) (a : nat) : Prop := forall w, (3 * a + 1 <= nr)%nat -> avar (record nr qd b w) 1 a <> 0 ->
  b1 (record nr qd b w) a 1 = Ok (sample_var ((nr - 1) / a) (block_freq (record nr qd b w) a) / avar (record nr qd b w) 1 a).
Definition rn_is (nr : nat) (qd b : R) (a : nat) : Prop := forall w, (3 * a + 1 <= nr)%nat -> avar (record nr qd b w) 1 a <> 0 ->
  rn (record nr qd b w) (INR a) 1 = Ok (mvar (record nr qd b w) 1 a / avar (record nr qd b w) 1 a).
Lemma b1_is_ok nr qd b a : (1 <= a)%nat -> b1_is nr qd b a.
Proof. intros Ha w Hn Hv. assert (L := record_len nr qd b w ltac:(lia)). pose proof (proj2 (C52_rate1 (record nr qd b w) a Ha ltac:(rewrite L; exact Hn) Hv)) as Q. now rewrite L in Q. Qed.
Lemma rn_is_ok nr qd b a : (1 <= a)%nat -> rn_is nr qd b a.
Proof. intros Ha w Hn Hv. assert (L := record_len nr qd b w ltac:(lia)). exact (proj1 (C52_rate1 (record nr qd b w) a Ha ltac:(rewrite L; exact Hn) Hv)). Qed.

(** ** B1 *)
Theorem C120_b1_white_pm nr E qd a : white nr E -> 0 <= qd -> (1 <= a)%nat -> (2 * a < nr)%nat ->
  b1_is nr qd 0 a /\
  exists mu r, b_to_mu 0 = Ok mu /\ b1_theory (Z.of_nat ((nr - 1) / a)) mu = Ok r /\
    E (fun w => sample_var ((nr - 1) / a) (block_freq (record nr qd 0 w) a)) = r * E (fun w => avar (record nr qd 0 w) 1 a).
Proof.
  intros HE Hq Ha Hn. split; [now apply b1_is_ok|].
  assert (Hd : (2 <= (nr - 1) / a)%nat) by (apply Nat.div_le_lower_bound; lia).
  assert (0 < INR a) by (apply lt_0_INR; lia). do 2 eexists. split; [reflexivity|]. split; [rewrite C53_b1_formula by lia; reflexivity|].
  rewrite E_svar_wpm, E_avar_wpm by assumption. unfold b1_general. rewrite <- INR_IZR_INZ. apply le_INR in Hd. change (INR 2) with 2 in Hd.
  change (Z.max (-2) (- (0 + 2) - 1)) with (-2)%Z. cbn [powerRZ]. change (Pos.to_nat 2) with 2%nat. field. repeat split; lra.
Qed.
Theorem C120_b1_white_fm nr E qd a : white nr E -> 0 <= qd -> (1 <= a)%nat -> (2 * a < nr)%nat ->
  b1_is nr qd (-2) a /\
  exists mu r, b_to_mu (-2) = Ok mu /\ b1_theory (Z.of_nat ((nr - 1) / a)) mu = Ok r /\
    E (fun w => sample_var ((nr - 1) / a) (block_freq (record nr qd (-2) w) a)) = r * E (fun w => avar (record nr qd (-2) w) 1 a).
Proof.
  intros HE Hq Ha Hn. split; [now apply b1_is_ok|]. do 2 eexists. split; [reflexivity|]. split; [reflexivity|].
  rewrite E_svar_wfm, E_avar_wfm by assumption. ring.
Qed.
(** random walk FM: the table's N/2 is the limit for long averaging times *)
Definition rwfm_ratio (N a : nat) : R := (INR N * INR a ^ 2 + 1) / (2 * INR a ^ 2 + 1).
Theorem C120_b1_random_walk_fm nr E qd a : white nr E -> 0 <= qd -> (1 <= a)%nat -> (2 * a < nr)%nat ->
  b1_is nr qd (-4) a /\
  exists mu r, b_to_mu (-4) = Ok mu /\ b1_theory (Z.of_nat ((nr - 1) / a)) mu = Ok r /\
    E (fun w => sample_var ((nr - 1) / a) (block_freq (record nr qd (-4) w) a)) = rwfm_ratio ((nr - 1) / a) a * E (fun w => avar (record nr qd (-4) w) 1 a) /\
    r - rwfm_ratio ((nr - 1) / a) a = (r - 1) / (2 * INR a ^ 2 + 1).
Proof.
  intros HE Hq Ha Hn. split; [now apply b1_is_ok|]. assert (0 < INR a) by (apply lt_0_INR; lia).
  assert (0 < 2 * INR a ^ 2 + 1) by (pose proof (pow2_ge_0 (INR a)); lra).
  do 2 eexists. split; [reflexivity|]. split; [reflexivity|]. rewrite <- INR_IZR_INZ. unfold rwfm_ratio. split; [|field; lra].
  rewrite E_svar_rwfm, E_avar_rwfm by assumption. field. split; lra.
Qed.
Print Assumptions C120_b1_white_pm. Print Assumptions C120_b1_white_fm. Print Assumptions C120_b1_random_walk_fm.

(** ** Which side of the boundaries the expected ratios fall on *)
Lemma log_pow k N : (3 <= N)%nat -> (2 ^ k <= N)%nat -> INR k * ln 2 <= ln (INR N).
Proof.
  intros HN H. rewrite <- ln_pow by lra. apply le_INR in H. rewrite pow_INR in H. change (INR 2) with 2 in H.
  destruct H as [H|H]; [apply Rlt_le, ln_increasing; [apply pow_lt; lra|exact H]|rewrite H; lra].
Qed.
Lemma cube_le n : (4 <= n)%nat -> (n ^ 3 <= 4 ^ (n - 1))%nat.
Proof.
  intro H. induction n as [|n IH]; [lia|]. destruct (Nat.eq_dec n 3) as [->|]; [cbn; lia|]. specialize (IH ltac:(lia)).
  replace (S n - 1)%nat with (S (n - 1)) by lia. rewrite (Nat.pow_succ_r' 4). assert (S n ^ 3 <= 4 * n ^ 3)%nat by (cbn [Nat.pow]; nia). lia.
Qed.
Lemma flick_hi N : (4 <= N)%nat -> ln (INR N) <= 2 / 3 * (INR N - 1) * ln 2.
Proof.
  intro H. pose proof (cube_le N H) as C. apply le_INR in C. rewrite !pow_INR in C.
  assert (P : 0 < INR N) by (apply lt_0_INR; lia).
  assert (L : ln (INR N ^ 3) <= ln (INR 4 ^ (N - 1))) by (destruct C as [C|C]; [apply Rlt_le, ln_increasing; [apply pow_lt; exact P|exact C]|rewrite C; lra]).
  change (INR 4) with (2 + 1 + 1) in L. replace (2 + 1 + 1) with (2 ^ 2) in L by ring.
  rewrite <- pow_mult, !ln_pow in L by lra. rewrite mult_INR, minus_INR in L by lia. cbn [INR] in L. lra.
Qed.
Lemma flick_lo N : (3 <= N)%nat -> 2 * (INR N - 1) * ln 2 < INR N * ln (INR N).
Proof.
  intro H. assert (L2 : 69314 / 100000 <= ln 2 <= 69315 / 100000) by (split; interval with (i_prec 60)).
  destruct (Nat.eq_dec N 3) as [->|].
  - assert (L3 : 1098 / 1000 <= ln 3) by interval with (i_prec 60). change (INR 3) with (2 + 1). replace (2 + 1) with 3 by ring. lra.
  - pose proof (log_pow 2 N H ltac:(cbn; lia)) as P. change (INR 2) with 2 in P. assert (4 <= INR N) by (replace 4 with (INR 4) by (cbn; ring); apply le_INR; lia). nra.
Qed.

Lemma boundary_is b N : (3 <= N)%nat -> (-5 <= b <= 0)%Z -> exists lo hi,
  b1_theory (Z.of_nat N) (Z.max (-2) (- (b - 1 + 2) - 1)) = Ok lo /\ b1_theory (Z.of_nat N) (Z.max (-2) (- (b + 2) - 1)) = Ok hi /\
  b1_boundary b (Z.of_nat N) = Ok (sqrt (lo * hi)).
Proof.
  intros HN Hb. destruct (C53_b1_boundary b (Z.of_nat N) ltac:(lia) Hb) as (ml & mh & lo & hi & E1 & E2 & F1 & F2 & B & _).
  rewrite C53_b_to_mu in E1, E2. replace ((-6 <=? b - 1) && (b - 1 <=? 0))%Z with true in E1 by lia. replace ((-6 <=? b) && (b <=? 0))%Z with true in E2 by lia.
  injection E1 as E1. injection E2 as E2. subst ml mh. exists lo, hi. auto.
Qed.
Lemma ok_inj (x y : R) : Ok x = Ok y -> x = y. Proof. now intros [= ->]. Qed.
Lemma sqrt_gt p q : 0 <= p -> p * p < q -> p < sqrt q.
Proof. intros Hp H. rewrite <- (sqrt_square p) by exact Hp. apply sqrt_lt_1; nra. Qed.
Lemma sqrt_lt p q : 0 <= q -> 0 <= p -> q < p * p -> sqrt q < p.
Proof. intros Hq Hp H. rewrite <- (sqrt_square p) by exact Hp. apply sqrt_lt_1; nra. Qed.
Lemma div_le x y d : 0 < d -> x <= y * d -> x / d <= y.
Proof. intros Hd H. apply (Rmult_le_reg_r d); [exact Hd|]. unfold Rdiv. rewrite Rmult_assoc, Rinv_l by lra. lra. Qed.
Lemma le_div x y d : 0 < d -> y * d <= x -> y <= x / d.
Proof. intros Hd H. apply (Rmult_le_reg_r d); [exact Hd|]. unfold Rdiv. rewrite Rmult_assoc, Rinv_l by lra. lra. Qed.
Lemma lt_div x y d : 0 < d -> y * d < x -> y < x / d.
Proof. intros Hd H. apply (Rmult_lt_reg_r d); [exact Hd|]. unfold Rdiv. rewrite Rmult_assoc, Rinv_l by lra. lra. Qed.
Lemma Rlt_div_l x y d : 0 < d -> x < y * d -> x / d < y.
Proof. intros Hd H. apply (Rmult_lt_reg_r d); [exact Hd|]. unfold Rdiv. rewrite Rmult_assoc, Rinv_l by lra. lra. Qed.
Lemma INR_3 N : (3 <= N)%nat -> 3 <= INR N.
Proof. intro H. replace 3 with (INR 3) by (cbn; ring). now apply le_INR. Qed.

(** white PM below, white FM between, random walk FM above: [r] is the factor between the two expectations *)
Theorem C120_b1_sides N a : (3 <= N)%nat -> (1 <= a)%nat -> exists r0 B1 B2 B3 B4,
  b1_theory (Z.of_nat N) (-2) = Ok r0 /\
  b1_boundary (-1) (Z.of_nat N) = Ok B1 /\ b1_boundary (-2) (Z.of_nat N) = Ok B2 /\
  b1_boundary (-3) (Z.of_nat N) = Ok B3 /\ b1_boundary (-4) (Z.of_nat N) = Ok B4 /\
  r0 < B1 /\ B1 < 1 < B2 /\ ((2 <= a)%nat -> B3 < rwfm_ratio N a) /\ rwfm_ratio N a < B4.
Proof.
  intros HN Ha. pose proof (INR_3 N HN) as HN'.
  assert (L2 : 69314 / 100000 <= ln 2 <= 69315 / 100000) by (split; interval with (i_prec 60)).
  set (n := INR N) in *. set (r0 := 2 * (n + 1) / (3 * n)). set (fl := n * ln n / (2 * (n - 1) * ln 2)).
  assert (T2 : b1_theory (Z.of_nat N) (-2) = Ok r0).
  { rewrite C53_b1_formula by lia. f_equal. unfold b1_general, r0. rewrite <- INR_IZR_INZ. fold n. cbn [powerRZ]. change (Pos.to_nat 2) with 2%nat. field. lra. }
  assert (T0 : b1_theory (Z.of_nat N) 0 = Ok fl) by (cbn [b1_theory]; rewrite <- INR_IZR_INZ; reflexivity).
  assert (T1 : b1_theory (Z.of_nat N) 1 = Ok (n / 2)) by (cbn [b1_theory]; rewrite <- INR_IZR_INZ; reflexivity).
  assert (TT : b1_theory (Z.of_nat N) 2 = Ok (n * (n + 1) / 6)) by (cbn [b1_theory]; rewrite <- INR_IZR_INZ; reflexivity).
  destruct (boundary_is (-1) N HN ltac:(lia)) as (l1 & h1 & A1 & A2 & A3). cbn [Z.max Z.opp Z.add Z.sub Z.compare Z.pos_sub Pos.add Pos.succ Pos.pred_double Pos.compare Pos.compare_cont CompOpp] in A1, A2.
  destruct (boundary_is (-2) N HN ltac:(lia)) as (l2 & h2 & C1 & C2 & C3). 
  destruct (boundary_is (-3) N HN ltac:(lia)) as (l3 & h3 & D1 & D2 & D3). 
  destruct (boundary_is (-4) N HN ltac:(lia)) as (l4 & h4 & F1 & F2 & F3). 
  change (b1_theory (Z.of_nat N) (-1) = Ok l1) in A1. change (b1_theory (Z.of_nat N) (-2) = Ok h1) in A2.
  change (b1_theory (Z.of_nat N) 0 = Ok l2) in C1. change (b1_theory (Z.of_nat N) (-1) = Ok h2) in C2.
  change (b1_theory (Z.of_nat N) 1 = Ok l3) in D1. change (b1_theory (Z.of_nat N) 0 = Ok h3) in D2.
  change (b1_theory (Z.of_nat N) 2 = Ok l4) in F1. change (b1_theory (Z.of_nat N) 1 = Ok h4) in F2.
  rewrite T2 in A2. rewrite T0 in C1, D2. rewrite T1 in D1, F2. rewrite TT in F1. change (@Ok R 1 = Ok l1) in A1. change (@Ok R 1 = Ok h2) in C2.
  apply ok_inj in A1, A2, C1, C2, D1, D2, F1, F2. subst l1 h1 l2 h2 l3 h3 l4 h4.
  exists r0, (sqrt (1 * r0)), (sqrt (fl * 1)), (sqrt (n / 2 * fl)), (sqrt (n * (n + 1) / 6 * (n / 2))). split; [exact T2|].
  do 4 (split; [assumption|]).
  assert (Hr0 : 0 < r0 < 1).
  { unfold r0. split; [apply Rdiv_lt_0_compat; lra|]. apply Rlt_div_l; lra. }
  assert (Hp : 0 < 2 * (n - 1) * ln 2) by (apply Rmult_lt_0_compat; lra).
  assert (Hfl : 1 < fl).
  { unfold fl. apply lt_div; [exact Hp|]. pose proof (flick_lo N HN) as Q. fold n in Q. lra. }
  assert (Ha' : 1 <= INR a) by (apply (le_INR 1); exact Ha).
  assert (Hr : rwfm_ratio N a <= n / 2 /\ 0 < rwfm_ratio N a).
  { unfold rwfm_ratio. fold n. split; [|apply Rdiv_lt_0_compat; nra]. apply div_le; nra. }
  split; [apply sqrt_gt; nra|]. split; [split; [apply sqrt_lt; nra|apply sqrt_gt; nra]|]. split.
  - intro Ha2. assert (Ha2' : 2 <= INR a) by (apply (le_INR 2); exact Ha2).
    assert (Hlo : (4 * n + 1) / 9 <= rwfm_ratio N a).
    { unfold rwfm_ratio. fold n. assert (4 <= INR a ^ 2) by nra. apply le_div; nra. }
    apply sqrt_lt; [nra|lra|]. apply Rlt_le_trans with ((4 * n + 1) / 9 * ((4 * n + 1) / 9)); [|nra].
    destruct (Nat.eq_dec N 3) as [->|].
    + unfold fl. subst n. replace (INR 3) with 3 by (cbn; ring). assert (ln 3 <= 10987 / 10000) by interval with (i_prec 60).
      assert (3 * ln 3 / (2 * (3 - 1) * ln 2) <= 3 * (10987 / 10000) / (2 * (3 - 1) * (69314 / 100000))).
      { apply div_le; [lra|]. apply Rle_trans with (3 * (10987 / 10000)); [lra|].
        apply Rle_trans with (3 * (10987 / 10000) / (2 * (3 - 1) * (69314 / 100000)) * (2 * (3 - 1) * (69314 / 100000))); [lra|]. apply Rmult_le_compat_l; lra. }
      lra.
    + pose proof (flick_hi N ltac:(lia)) as Fh. fold n in Fh.
      assert (fl <= n / 3).
      { unfold fl. apply div_le; [exact Hp|]. nra. }
      nra.
  - apply sqrt_gt; [lra|]. nra.
Qed.
Print Assumptions C120_b1_sides.
(** on four samples at averaging factor 1 (three blocks) random walk FM falls on the flicker FM side *)
Theorem C120_b1_sides_refuted : exists B, b1_boundary (-3) 3 = Ok B /\ rwfm_ratio 3 1 < B /\
  b1_theory 3 1 = Ok (3 / 2) /\ rwfm_ratio 3 1 = 4 / 3.
Proof.
  destruct (boundary_is (-3) 3 ltac:(lia) ltac:(lia)) as (lo & hi & A1 & A2 & A3).
  change (b1_theory 3 1 = Ok lo) in A1. change (b1_theory 3 0 = Ok hi) in A2. cbn [b1_theory] in A1, A2. apply ok_inj in A1, A2. subst lo hi.
  eexists. split; [exact A3|]. assert (R1 : rwfm_ratio 3 1 = 4 / 3) by (unfold rwfm_ratio; cbn [INR]; field). rewrite R1. split; [|split; reflexivity].
  apply sqrt_gt; [lra|]. interval with (i_prec 60).
Qed.
Print Assumptions C120_b1_sides_refuted.

(** ** R(n) *)
Lemma E_mvar_wpm nr E qd a : white nr E -> 0 <= qd -> (1 <= a)%nat -> (3 * a <= nr)%nat -> E (fun w => mvar (record nr qd 0 w) 1 a) = 3 * qd / INR a ^ 3.
Proof.
  intros HE Hq Ha Hn. assert (0 < INR a) by (apply lt_0_INR; lia).
  rewrite (E_mvar nr E HE qd 0 a 1 (6 * INR a) Hq) by (try lra; try lia; intros; apply mvar_wpm; lia). field. lra.
Qed.
Lemma E_mvar_wfm nr E qd a : white nr E -> 0 <= qd -> (1 <= a)%nat -> (3 * a <= nr)%nat ->
  E (fun w => mvar (record nr qd (-2) w) 1 a) = qd * (INR a ^ 2 + 1) / (2 * INR a ^ 3).
Proof.
  intros HE Hq Ha Hn. assert (0 < INR a) by (apply lt_0_INR; lia).
  rewrite (E_mvar nr E HE qd (-2) a 1 (INR a ^ 3 + INR a) Hq) by (try lra; try lia; intros; apply mvar_wfm; lia). field. lra.
Qed.
(** the flicker PM value the boundaries are built from *)
Definition rn_fl (a : nat) : R := 3 / 2 * ln (256 / 27) / (1038 / 1000 + 3 * ln (PI * INR a)).
Lemma lnPI a : (1 <= a)%nat -> ln (PI * INR a) = ln PI + ln (INR a) /\ 11447 / 10000 <= ln PI <= 11448 / 10000 /\ 0 <= ln (INR a).
Proof.
  intro Ha. assert (1 <= INR a) by (apply (le_INR 1); exact Ha). split; [apply ln_mult; [apply PI_RGT_0|lra]|].
  split; [split; interval with (i_prec 60)|]. rewrite <- ln_1. destruct H as [H|<-]; [left; apply ln_increasing; lra|lra].
Qed.
Lemma rn_fl_ok a : (1 <= a)%nat -> rn_theory (INR a) (-1) = Ok (rn_fl a) /\ 0 < 1038 / 1000 + 3 * ln (PI * INR a).
Proof.
  intro Ha. destruct (lnPI a Ha) as (L & P & Q). split; [|lra]. unfold rn_theory, rn_fl. f_equal.
  replace (2 * PI * (1 / 2) * INR a) with (PI * INR a) by field. pose proof PI_RGT_0. field. split; lra.
Qed.
Theorem C120_rn_white_pm nr E qd a : white nr E -> 0 <= qd -> (1 <= a)%nat -> (3 * a <= nr)%nat -> (2 * a < nr)%nat ->
  rn_is nr qd 0 a /\
  exists r B, rn_theory (INR a) 0 = Ok r /\ rn_boundary (INR a) 0 = Ok B /\
    E (fun w => mvar (record nr qd 0 w) 1 a) = r * E (fun w => avar (record nr qd 0 w) 1 a) /\ ((2 <= a)%nat -> r < B).
Proof.
  intros HE Hq Ha Hn Hn2. split; [now apply rn_is_ok|]. assert (Hp : 0 < INR a) by (apply lt_0_INR; lia). destruct (rn_fl_ok a Ha) as (F & FP).
  assert (T0 : rn_theory (INR a) 0 = Ok (1 / INR a)) by (unfold rn_theory; now rewrite pydiv_R by lra).
  exists (1 / INR a), (sqrt (1 / INR a * rn_fl a)). split; [exact T0|].
  split; [unfold rn_boundary; rewrite T0; change (0 - 1)%Z with (-1)%Z; rewrite F; reflexivity|]. split.
  - rewrite E_mvar_wpm, E_avar_wpm by assumption. field. lra.
  - intro Ha2. assert (H2 : 2 <= INR a) by (apply (le_INR 2); exact Ha2).
    assert (0 < 1 / INR a) by (apply Rdiv_lt_0_compat; lra). apply sqrt_gt; [lra|]. apply Rmult_lt_compat_l; [assumption|].
    unfold rn_fl. apply lt_div; [exact FP|]. replace (1 / INR a * (1038 / 1000 + 3 * ln (PI * INR a))) with ((1038 / 1000 + 3 * ln (PI * INR a)) / INR a) by (field; lra).
    apply Rlt_div_l; [exact Hp|]. destruct (lnPI a Ha) as (-> & P & _).
    assert (K : ln (INR a) <= ln 2 + (INR a / 2 - 1)).
    { replace (INR a) with (2 * (INR a / 2)) at 1 by field. rewrite ln_mult by lra. pose proof (exp_ineq1_le (ln (INR a / 2))) as X. rewrite exp_ln in X by lra. lra. }
    assert (L2 : 69314 / 100000 <= ln 2 <= 69315 / 100000) by (split; interval with (i_prec 60)).
    assert (L3 : 2249 / 1000 <= ln (256 / 27)) by interval with (i_prec 60). nra.
Qed.
Print Assumptions C120_rn_white_pm.
(** white FM: the table says 1, the expectation tends to one half *)
Definition wfm_rn (a : nat) : R := (1 + / INR a ^ 2) / 2.
Theorem C120_rn_white_fm nr E qd a : white nr E -> 0 <= qd -> (1 <= a)%nat -> (3 * a <= nr)%nat -> (2 * a < nr)%nat ->
  rn_is nr qd (-2) a /\ rn_theory (INR a) (-2) = Ok 1 /\
  E (fun w => mvar (record nr qd (-2) w) 1 a) = wfm_rn a * E (fun w => avar (record nr qd (-2) w) 1 a).
Proof.
  intros HE Hq Ha Hn Hn2. split; [now apply rn_is_ok|]. split; [reflexivity|]. assert (Hp : 0 < INR a) by (apply lt_0_INR; lia).
  rewrite E_mvar_wfm, E_avar_wfm by assumption. unfold wfm_rn. field. lra.
Qed.
Print Assumptions C120_rn_white_fm.
Lemma wfm_rn_small a : (2 <= a <= 19)%nat -> wfm_rn a * wfm_rn a * (1038 / 1000 + 3 * ln (PI * INR a)) < 3 / 2 * ln (256 / 27).
Proof.
  intro H. unfold wfm_rn.
  assert (C : (a = 2 \/ a = 3 \/ a = 4 \/ a = 5 \/ a = 6 \/ a = 7 \/ a = 8 \/ a = 9 \/ a = 10 \/ a = 11 \/ a = 12 \/ a = 13 \/ a = 14 \/ a = 15 \/ a = 16 \/ a = 17 \/ a = 18 \/ a = 19)%nat) by lia.
  rewrite INR_IZR_INZ. repeat destruct C as [->|C]; [..|subst a]; cbn [Z.of_nat Pos.of_succ_nat Pos.succ]; interval with (i_prec 60).
Qed.
(** ... so that at averaging factors 2 to 19 white FM falls on the flicker PM side of the boundary, and nowhere else *)
Theorem C120_rn_white_fm_side a : (1 <= a)%nat -> exists B, rn_boundary (INR a) (-1) = Ok B /\ (wfm_rn a < B <-> (2 <= a <= 19)%nat).
Proof.
  intro Ha. destruct (rn_fl_ok a Ha) as (F & FP). exists (sqrt (rn_fl a * 1)).
  split; [unfold rn_boundary; rewrite F; reflexivity|]. rewrite Rmult_1_r. assert (Hp : 1 <= INR a) by (apply (le_INR 1); exact Ha).
  assert (0 < / INR a ^ 2) by (apply Rinv_0_lt_compat, pow_lt; lra). assert (W : 1 / 2 < wfm_rn a) by (unfold wfm_rn; lra).
  assert (Hf : 0 < rn_fl a) by (apply Rdiv_lt_0_compat; [assert (2 <= ln (256 / 27)) by interval with (i_prec 60)|]; lra).
  split.
  - intro H1. destruct (le_lt_dec 2 a) as [G|G]; [|exfalso].
    + split; [exact G|]. destruct (le_lt_dec a 19) as [G'|G']; [exact G'|exfalso].
      assert (S1 : wfm_rn a * wfm_rn a < rn_fl a).
      { rewrite <- (sqrt_sqrt (rn_fl a)) by lra. apply Rmult_le_0_lt_compat; lra. }
      unfold rn_fl in S1. destruct (lnPI a Ha) as (L & P & _).
      destruct (Nat.eq_dec a 20) as [->|N20].
      * assert (X : 3 / 2 * ln (256 / 27) / (1038 / 1000 + 3 * ln (PI * INR 20)) < wfm_rn 20 * wfm_rn 20); [|lra].
        apply Rlt_div_l; [exact FP|]. unfold wfm_rn. rewrite INR_IZR_INZ. cbn [Z.of_nat Pos.of_succ_nat Pos.succ]. interval with (i_prec 60).
      * assert (ln 21 <= ln (INR a)).
        { assert (21 <= INR a) as [Q|<-] by (replace 21 with (INR 21) by (cbn; ring); apply le_INR; lia); [left; apply ln_increasing; lra|lra]. }
        assert (L21 : 3044 / 1000 <= ln 21) by interval with (i_prec 60). assert (L3 : ln (256 / 27) <= 225 / 100) by interval with (i_prec 60).
        assert (X : 3 / 2 * ln (256 / 27) / (1038 / 1000 + 3 * ln (PI * INR a)) < 1 / 4) by (apply Rlt_div_l; [exact FP|]; lra). nra.
    + assert (a = 1%nat) by lia. subst a.
      assert (S1 : wfm_rn 1 * wfm_rn 1 < rn_fl 1) by (rewrite <- (sqrt_sqrt (rn_fl 1)) by lra; apply Rmult_le_0_lt_compat; lra).
      assert (X : rn_fl 1 < 1) by (unfold rn_fl; apply Rlt_div_l; [exact FP|]; cbn [INR]; rewrite Rmult_1_r; interval with (i_prec 60)).
      assert (Y : wfm_rn 1 = 1) by (unfold wfm_rn; cbn [INR]; field). rewrite Y in S1. lra.
  - intro H1. apply sqrt_gt; [lra|]. unfold rn_fl. apply lt_div; [exact FP|]. now apply wfm_rn_small.
Qed.
Print Assumptions C120_rn_white_fm_side.

(** Examples: independent fair signs as input, nine samples in blocks of two (four blocks) *)
Example C120_b1_ex :
  signs 9 (fun w => sample_var 4 (block_freq (record 9 1 0 w) 2)) = 5 / 6 * signs 9 (fun w => avar (record 9 1 0 w) 1 2) /\
  signs 9 (fun w => sample_var 4 (block_freq (record 9 1 (-2) w) 2)) = signs 9 (fun w => avar (record 9 1 (-2) w) 1 2) /\
  signs 9 (fun w => sample_var 4 (block_freq (record 9 1 (-4) w) 2)) = 17 / 9 * signs 9 (fun w => avar (record 9 1 (-4) w) 1 2) /\
  signs 9 (fun w => avar (record 9 1 (-4) w) 1 2) = 3 / 4.
Proof.
  pose proof (signs_white 9) as W. assert (P1 : 0 <= 1) by lra. assert (P2 : (1 <= 2)%nat) by lia. assert (P3 : (2 * 2 < 9)%nat) by lia.
  pose proof (E_svar_wpm 9 (signs 9) 1 2 W P1 P2 P3) as A0. pose proof (E_avar_wpm 9 (signs 9) 1 2 W P1 P2 P3) as B0.
  pose proof (E_svar_wfm 9 (signs 9) 1 2 W P1 P2 P3) as A2. pose proof (E_avar_wfm 9 (signs 9) 1 2 W P1 P2 P3) as B2.
  pose proof (E_svar_rwfm 9 (signs 9) 1 2 W P1 P2 P3) as A4. pose proof (E_avar_rwfm 9 (signs 9) 1 2 W P1 P2 P3) as B4.
  change ((9 - 1) / 2)%nat with 4%nat in *. rewrite A0, B0, A2, B2, A4, B4. replace (INR 4) with 4 by (cbn; ring). replace (INR 2) with 2 by (cbn; ring). repeat split; field.
Qed.
Example C120_rn_ex :
  signs 9 (fun w => mvar (record 9 1 0 w) 1 2) = 1 / 2 * signs 9 (fun w => avar (record 9 1 0 w) 1 2) /\
  signs 9 (fun w => mvar (record 9 1 (-2) w) 1 2) = 5 / 8 * signs 9 (fun w => avar (record 9 1 (-2) w) 1 2) /\
  wfm_rn 2 = 5 / 8 /\ exists B, rn_boundary 2 (-1) = Ok B /\ 5 / 8 < B.
Proof.
  pose proof (signs_white 9) as W. assert (P1 : 0 <= 1) by lra. assert (P2 : (1 <= 2)%nat) by lia. assert (P3 : (2 * 2 < 9)%nat) by lia. assert (P4 : (3 * 2 <= 9)%nat) by lia.
  assert (I2 : INR 2 = 2) by (cbn; ring).
  rewrite (E_mvar_wpm 9 (signs 9) 1 2 W P1 P2 P4), (E_avar_wpm 9 (signs 9) 1 2 W P1 P2 P3), (E_mvar_wfm 9 (signs 9) 1 2 W P1 P2 P4), (E_avar_wfm 9 (signs 9) 1 2 W P1 P2 P3), I2.
  assert (E2 : wfm_rn 2 = 5 / 8) by (unfold wfm_rn; rewrite I2; field). repeat split; try field; try exact E2.
  destruct (C120_rn_white_fm_side 2 P2) as (B & Q & S). rewrite I2 in Q. exists B. split; [exact Q|]. rewrite <- E2. apply S. lia.
Qed.
(** five blocks of two: 0.8 < B < 1 < B' and 7/3 between the boundaries of random walk FM *)
Example C120_sides_ex : exists B1 B2 B3 B4, b1_boundary (-1) 5 = Ok B1 /\ b1_boundary (-2) 5 = Ok B2 /\ b1_boundary (-3) 5 = Ok B3 /\
  b1_boundary (-4) 5 = Ok B4 /\ 4 / 5 < B1 /\ B1 < 1 < B2 /\ B3 < 7 / 3 < B4.
Proof.
  destruct (C120_b1_sides 5 2 ltac:(lia) ltac:(lia)) as (r & B1 & B2 & B3 & B4 & Q0 & Q1 & Q2 & Q3 & Q4 & Q5 & Q6 & Q7 & Q8).
  exists B1, B2, B3, B4. assert (r = 4 / 5).
  { rewrite C53_b1_formula in Q0 by lia. apply ok_inj in Q0. rewrite <- Q0. unfold b1_general. cbn [Z.of_nat Pos.of_succ_nat Pos.succ powerRZ]. change (Pos.to_nat 2) with 2%nat. field. }
  assert (R7 : rwfm_ratio 5 2 = 7 / 3) by (unfold rwfm_ratio; cbn [INR]; field). rewrite R7 in *. repeat split; auto; try lra; try (apply Q7; lia).
Qed.
