(** * Greenhall's equivalent degrees of freedom: proofs. *)
From Coq Require Import String Reals List ZArith Lra Lia Arith Bool Psatz.
From Verif Require Import Base Num NpList NumR ModelCore ModelDev ModelMisc ModelCi ModelCiR ListFacts Spec RSum.
Import ListNotations.
Local Open Scope R_scope.

Lemma pydivR (a b : R) : b <> 0 -> pydiv a b = Ok (a / b).
Proof. intros H. unfold pydiv. cbn [neqb ofZ RNum]. now rewrite (proj2 (Reqb_false b 0)). Qed.
Lemma pydivR0 (a b : R) : b = 0 -> pydiv a b = Err ZeroDivisionError.
Proof. intros H. unfold pydiv. cbn [neqb ofZ RNum]. now rewrite (proj2 (Reqb_true b 0)). Qed.

(** ** Kernels as total functions *)
Definition swf (alpha : Z) (t : R) : R := match greenhall_sw t alpha with Ok v => v | Err _ => 0 end.
Definition sxf (F : option R) (alpha : Z) (t : R) : R :=
  match F with
  | None => swf (alpha + 2) t
  | Some F => F ^ 2 * (2 * swf alpha t - swf alpha (t - 1 / F) - swf alpha (t + 1 / F))
  end.
Definition szf (d : nat) (F : option R) (alpha : Z) (t : R) : R :=
  let s := sxf F alpha in
  match d with
  | 1%nat => 2 * s t - s (t - 1) - s (t + 1)
  | 2%nat => 6 * s t - 4 * s (t - 1) - 4 * s (t + 1) + s (t - 2) + s (t + 2)
  | 3%nat => 20 * s t - 15 * s (t - 1) - 15 * s (t + 1) + 6 * s (t - 2) + 6 * s (t + 2) - s (t - 3) - s (t + 3)
  | _ => 0
  end.
Definition sw_dom (alpha : Z) : Prop := (-4 <= alpha <= 2)%Z.
Definition sx_dom (F : option R) (alpha : Z) : Prop :=
  match F with None => sw_dom (alpha + 2) | Some F => F <> 0 /\ sw_dom alpha end.

Lemma sw_cases alpha : sw_dom alpha ->
  (alpha = 2 \/ alpha = 1 \/ alpha = 0 \/ alpha = -1 \/ alpha = -2 \/ alpha = -3 \/ alpha = -4)%Z.
Proof. unfold sw_dom. lia. Qed.
Lemma sw_ok alpha t : sw_dom alpha -> greenhall_sw t alpha = Ok (swf alpha t).
Proof. intros H. apply sw_cases in H. unfold swf. destruct H as [-> | [-> | [-> | [-> | [-> | [-> | ->]]]]]]; reflexivity. Qed.
Lemma sw_bad alpha t : ~ sw_dom alpha -> greenhall_sw t alpha = Err AssertionError.
Proof.
  unfold sw_dom. intros H. unfold greenhall_sw.
  destruct alpha as [|p|p]; [lia| |]; repeat (try reflexivity; try lia; destruct p as [p|p|]).
Qed.
Lemma sx_ok F alpha t : sx_dom F alpha -> greenhall_sx t F alpha = Ok (sxf F alpha t).
Proof.
  destruct F as [F|]; cbn [sx_dom].
  - intros [HF H]. unfold greenhall_sx. rewrite sw_ok by exact H. cbn [bind]. rewrite pydivR by exact HF. cbn [bind].
    rewrite !sw_ok by exact H. reflexivity.
  - intros H. unfold greenhall_sx. now rewrite sw_ok.
Qed.
Lemma sx_bad_alpha F alpha t : (match F with None => ~ sw_dom (alpha + 2) | Some _ => ~ sw_dom alpha end) ->
  greenhall_sx t F alpha = Err AssertionError.
Proof. destruct F as [F|]; intros H; unfold greenhall_sx; now rewrite sw_bad. Qed.
Lemma sz_ok d F alpha t : (1 <= d <= 3)%nat -> sx_dom F alpha -> greenhall_sz t F alpha d = Ok (szf d F alpha t).
Proof.
  intros Hd H. unfold greenhall_sz, szf.
  assert (Hc : d = 1%nat \/ d = 2%nat \/ d = 3%nat) by lia.
  destruct Hc as [-> | [-> | ->]]; rewrite !sx_ok by exact H; reflexivity.
Qed.
Lemma sz_bad_d d F alpha t : ~ (1 <= d <= 3)%nat -> greenhall_sz t F alpha d = Err AssertionError.
Proof. intros H. destruct d as [|[|[|[|d]]]]; try reflexivity; lia. Qed.

(** ** Evenness *)
Lemma swf_even alpha t : swf alpha (- t) = swf alpha t.
Proof.
  unfold swf, greenhall_sw.
  assert (E : Reqb (- t) 0 = Reqb t 0).
  { destruct (Req_dec t 0) as [->|H]; [now rewrite Ropp_0|].
    rewrite (proj2 (Reqb_false t 0)) by exact H. apply Reqb_false. lra. }
  destruct alpha as [|p|p].
  - replace ((- t) ^ 3) with (- t ^ 3) by ring. now rewrite Rabs_Ropp.
  - destruct p as [p|[p|p|]|]; try reflexivity; [now rewrite Rabs_Ropp|].
    rewrite E, Rabs_Ropp. destruct (Reqb t 0); [reflexivity|ring].
  - destruct p as [[p|p|]|[p|[p|p|]|]|]; try reflexivity.
    + rewrite E, Rabs_Ropp. destruct (Reqb t 0); [reflexivity|ring].
    + replace ((- t) ^ 7) with (- t ^ 7) by ring. now rewrite Rabs_Ropp.
    + replace ((- t) ^ 5) with (- t ^ 5) by ring. now rewrite Rabs_Ropp.
    + rewrite E, Rabs_Ropp. destruct (Reqb t 0); [reflexivity|ring].
Qed.
Lemma sxf_even F alpha t : sxf F alpha (- t) = sxf F alpha t.
Proof.
  destruct F as [F|]; cbn [sxf]; [|apply swf_even].
  rewrite swf_even. replace (- t - 1 / F) with (- (t + 1 / F)) by ring. replace (- t + 1 / F) with (- (t - 1 / F)) by ring.
  rewrite !swf_even. ring.
Qed.
Lemma szf_even d F alpha t : szf d F alpha (- t) = szf d F alpha t.
Proof.
  unfold szf. cbv zeta. rewrite sxf_even.
  assert (K : forall c, sxf F alpha (- t - c) = sxf F alpha (t + c) /\ sxf F alpha (- t + c) = sxf F alpha (t - c)).
  { intros c. replace (- t - c) with (- (t + c)) by ring. replace (- t + c) with (- (t - c)) by ring. now rewrite !sxf_even. }
  destruct d as [|[|[|[|d]]]]; try reflexivity; rewrite ?(proj1 (K 1)), ?(proj2 (K 1)), ?(proj1 (K 2)), ?(proj2 (K 2)), ?(proj1 (K 3)), ?(proj2 (K 3)); ring.
Qed.
Lemma szf0 d F alpha : let s := sxf F alpha in szf d F alpha 0 =
  match d with
  | 1%nat => 2 * s 0 - 2 * s 1
  | 2%nat => 6 * s 0 - 8 * s 1 + 2 * s 2
  | 3%nat => 20 * s 0 - 30 * s 1 + 12 * s 2 - 2 * s 3
  | _ => 0
  end.
Proof.
  cbv zeta. unfold szf. cbv zeta.
  assert (K : forall c, sxf F alpha (0 - c) = sxf F alpha c /\ sxf F alpha (0 + c) = sxf F alpha c).
  { intros c. split; [|f_equal; ring]. rewrite <- (sxf_even F alpha c). f_equal. ring. }
  destruct d as [|[|[|[|d]]]]; try reflexivity; rewrite ?(proj1 (K 1)), ?(proj2 (K 1)), ?(proj1 (K 2)), ?(proj2 (K 2)), ?(proj1 (K 3)), ?(proj2 (K 3)); ring.
Qed.

(** ** The basic sum *)
Definition bsum (J M : Z) (S : R) (F : option R) (alpha : Z) (d : nat) : R :=
  szf d F alpha 0 ^ 2 + (1 - IZR J / IZR M) * szf d F alpha (IZR J / S) ^ 2 +
  bigsum (Z.to_nat J - 1) (fun i => 2 * (1 - INR (i + 1) / IZR M) * szf d F alpha (INR (i + 1) / S) ^ 2).

Lemma foldM_sum n s (g : nat -> R) acc :
  fold_left (fun a j => a + g j) (seq s n) acc = acc + bigsum n (fun i => g (i + s)%nat).
Proof.
  revert s acc. induction n as [|n IH]; intros s acc; [cbn; ring|]. cbn [seq fold_left]. rewrite IH, bigsum_S_l.
  rewrite (bigsum_ext n (fun i => g (i + Datatypes.S s)%nat) (fun i => g (Datatypes.S i + s)%nat)) by (intros; f_equal; lia).
  cbn. ring.
Qed.

Lemma basicsum_ok J M S F alpha d : (1 <= d <= 3)%nat -> sx_dom F alpha -> (M <> 0)%Z -> S <> 0 ->
  greenhall_BasicSum J M S F alpha d = Ok (bsum J M S F alpha d).
Proof.
  intros Hd HF HM HS. assert (HM' : IZR M <> 0) by (intros C; apply HM; now apply eq_IZR).
  unfold greenhall_BasicSum. rewrite sz_ok by assumption. cbn [bind]. rewrite !pydivR by assumption. cbn [bind].
  rewrite sz_ok by assumption. cbn [bind].
  rewrite (foldM_Ok _ (fun acc j => acc + 2 * (1 - INR j / IZR M) * szf d F alpha (INR j / S) ^ 2)).
  2:{ intros s j Hj. rewrite !pydivR by assumption. cbn [bind]. rewrite sz_ok by assumption. reflexivity. }
  cbn [bind]. rewrite (foldM_sum _ 1 (fun j => 2 * (1 - INR j / IZR M) * szf d F alpha (INR j / S) ^ 2)).
  unfold bsum. f_equal. ring.
Qed.
Lemma basicsum_M0 J S F alpha d : (1 <= d <= 3)%nat -> sx_dom F alpha ->
  greenhall_BasicSum J 0 S F alpha d = Err ZeroDivisionError.
Proof.
  intros Hd HF. unfold greenhall_BasicSum. rewrite sz_ok by assumption. cbn [bind]. now rewrite pydivR0.
Qed.
Lemma bsum_ge J M S F alpha d : (1 <= M)%Z -> (J <= M)%Z -> szf d F alpha 0 ^ 2 <= bsum J M S F alpha d.
Proof.
  intros HM HJ. apply IZR_le in HM as HM'. apply IZR_le in HJ as HJ'. unfold bsum.
  assert (H1 : 0 <= 1 - IZR J / IZR M).
  { assert (IZR J / IZR M <= 1); [|lra]. apply (Rmult_le_reg_r (IZR M)); [lra|]. unfold Rdiv. rewrite Rmult_assoc, Rinv_l by lra. lra. }
  assert (H2 : 0 <= (1 - IZR J / IZR M) * szf d F alpha (IZR J / S) ^ 2) by (apply Rmult_le_pos; [exact H1|apply pow2_ge_0]).
  match goal with |- _ <= _ + bigsum ?n ?f => assert (H3 : 0 <= bigsum n f) end.
  { apply bigsum_nonneg. intros i Hi. apply Rmult_le_pos; [|apply pow2_ge_0].
    assert (INR (i + 1) / IZR M <= 1); [|lra]. apply (Rmult_le_reg_r (IZR M)); [lra|]. unfold Rdiv. rewrite Rmult_assoc, Rinv_l by lra.
    rewrite INR_IZR_INZ. assert (IZR (Z.of_nat (i + 1)) <= IZR M) by (apply IZR_le; lia). lra. }
  lra.
Qed.
Lemma bsum_neg M S F alpha d : (M < 0)%Z -> bsum M M S F alpha d = szf d F alpha 0 ^ 2.
Proof.
  intros HM. unfold bsum. replace (Z.to_nat M - 1)%nat with 0%nat by lia. cbn [bigsum].
  replace (IZR M / IZR M) with 1 by (field; apply not_0_IZR; lia). ring.
Qed.
Lemma edf_value s M b : 0 < s -> 1 <= M -> s <= b -> 0 < 1 / (1 / (s * M) * b) <= M.
Proof.
  intros Hs HM Hb. replace (1 / (1 / (s * M) * b)) with (s * M / b) by (field; lra). split.
  - apply Rdiv_lt_0_compat; nra.
  - apply (Rmult_le_reg_r b); [lra|]. unfold Rdiv. rewrite Rmult_assoc, Rinv_l by lra. nra.
Qed.

(** ** Numerical bounds on ln 2 and ln 3 *)
Lemma ln_le x : 0 < x -> ln x <= x - 1.
Proof.
  intros Hx. destruct (Req_dec x 1) as [->|H]; [rewrite ln_1; lra|].
  rewrite <- (ln_exp (x - 1)). left. apply ln_increasing; [exact Hx|]. pose proof (exp_ineq1 (x - 1)). lra.
Qed.
Lemma ln_ge x : 0 < x -> 1 - / x <= ln x.
Proof. intros Hx. pose proof (ln_le (/ x) (Rinv_0_lt_compat x Hx)) as H. rewrite ln_Rinv in H by exact Hx. lra. Qed.
Lemma ln_pow_le c p q k : (0 < p)%Z -> (0 < q)%Z -> (0 < c)%Z -> (c * q ^ Z.of_nat k <= p ^ Z.of_nat k)%Z ->
  ln (IZR c) <= INR k * (IZR p / IZR q - 1).
Proof.
  intros Hp Hq Hc H. apply IZR_lt in Hp, Hq, Hc. apply IZR_le in H. rewrite mult_IZR, <- !pow_IZR in H.
  assert (0 < IZR p / IZR q) by (now apply Rdiv_lt_0_compat).
  assert (IZR c <= (IZR p / IZR q) ^ k).
  { unfold Rdiv. rewrite Rpow_mult_distr, pow_inv. apply (Rmult_le_reg_r (IZR q ^ k)); [now apply pow_lt|].
    rewrite Rmult_assoc, Rinv_l by (apply pow_nonzero; lra). lra. }
  apply Rle_trans with (ln ((IZR p / IZR q) ^ k)).
  - destruct (Req_dec (IZR c) ((IZR p / IZR q) ^ k)) as [->|Hn]; [lra|]. left. apply ln_increasing; lra.
  - rewrite ln_pow by assumption. apply Rmult_le_compat_l; [apply pos_INR|]. now apply ln_le.
Qed.
Lemma ln_pow_ge c p q k : (0 < p)%Z -> (0 < q)%Z -> (0 < c)%Z -> (p ^ Z.of_nat k <= c * q ^ Z.of_nat k)%Z ->
  INR k * (1 - IZR q / IZR p) <= ln (IZR c).
Proof.
  intros Hp Hq Hc H. apply IZR_lt in Hp, Hq, Hc. apply IZR_le in H. rewrite mult_IZR, <- !pow_IZR in H.
  assert (0 < IZR p / IZR q) by (now apply Rdiv_lt_0_compat).
  assert ((IZR p / IZR q) ^ k <= IZR c).
  { unfold Rdiv. rewrite Rpow_mult_distr, pow_inv. apply (Rmult_le_reg_r (IZR q ^ k)); [now apply pow_lt|].
    rewrite Rmult_assoc, Rinv_l by (apply pow_nonzero; lra). lra. }
  apply Rle_trans with (ln ((IZR p / IZR q) ^ k)).
  - rewrite ln_pow by assumption. apply Rmult_le_compat_l; [apply pos_INR|].
    replace (IZR q / IZR p) with (/ (IZR p / IZR q)) by (field; lra). now apply ln_ge.
  - destruct (Req_dec (IZR c) ((IZR p / IZR q) ^ k)) as [->|Hn]; [lra|]. left. apply ln_increasing; [now apply pow_lt|lra].
Qed.
Lemma ln2_bounds : 0.69 <= ln 2 <= 0.7.
Proof.
  split.
  - pose proof (ln_pow_ge 2 12800 12731 128 eq_refl eq_refl eq_refl) as H.
    assert (E : (12800 ^ Z.of_nat 128 <= 2 * 12731 ^ Z.of_nat 128)%Z) by (apply Z.leb_le; vm_compute; reflexivity).
    specialize (H E). rewrite INR_IZR_INZ in H. change (Z.of_nat 128) with 128%Z in H. lra.
  - pose proof (ln_pow_le 2 647 640 64 eq_refl eq_refl eq_refl) as H.
    assert (E : (2 * 640 ^ Z.of_nat 64 <= 647 ^ Z.of_nat 64)%Z) by (apply Z.leb_le; vm_compute; reflexivity).
    specialize (H E). rewrite INR_IZR_INZ in H. change (Z.of_nat 64) with 64%Z in H. lra.
Qed.
Lemma ln3_bounds : 1.09 <= ln 3 <= 1.1.
Proof.
  split.
  - pose proof (ln_pow_ge 3 12800 12691 128 eq_refl eq_refl eq_refl) as H.
    assert (E : (12800 ^ Z.of_nat 128 <= 3 * 12691 ^ Z.of_nat 128)%Z) by (apply Z.leb_le; vm_compute; reflexivity).
    specialize (H E). rewrite INR_IZR_INZ in H. change (Z.of_nat 128) with 128%Z in H. lra.
  - pose proof (ln_pow_le 3 5131 5120 512 eq_refl eq_refl eq_refl) as H.
    assert (E : (3 * 5120 ^ Z.of_nat 512 <= 5131 ^ Z.of_nat 512)%Z) by (apply Z.leb_le; vm_compute; reflexivity).
    specialize (H E). rewrite INR_IZR_INZ in H. change (Z.of_nat 512) with 512%Z in H. lra.
Qed.

(** ** Kernel values on [0, inf) *)
Lemma swf_2 t : 0 <= t -> swf 2 t = - t.
Proof. intros H. unfold swf, greenhall_sw. now rewrite Rabs_pos_eq. Qed.
Lemma swf_even_pow t : 0 <= t -> swf 0 t = t ^ 3 /\ swf (-2) t = t ^ 5 /\ swf (-4) t = t ^ 7.
Proof. intros H. unfold swf, greenhall_sw. rewrite !Rabs_pos_eq by (now apply pow_le). auto. Qed.
Lemma swf_log t : 0 <= t -> swf 1 t = t ^ 2 * ln t /\ swf (-1) t = t ^ 4 * ln t /\ swf (-3) t = t ^ 6 * ln t.
Proof.
  intros H. unfold swf, greenhall_sw. rewrite Rabs_pos_eq by exact H.
  destruct (Req_dec t 0) as [->|Hn].
  - rewrite (proj2 (Reqb_true 0 0)) by reflexivity. repeat split; ring.
  - rewrite (proj2 (Reqb_false t 0)) by exact Hn. auto.
Qed.

(** ** Second differences of t^n ln t *)
Definition G (n : nat) (u : R) : R := (1 + u) ^ n * ln (1 + u) + (1 - u) ^ n * ln (1 - u).
Lemma G_bounds n u : 0 < u <= 1 ->
  u * ((1 + u) ^ S n - (1 - u) ^ S n) <= G (S (S n)) u <= u * ((1 + u) ^ S (S n) - (1 - u) ^ S (S n)).
Proof.
  intros Hu. unfold G.
  assert (A1 : u / (1 + u) <= ln (1 + u) <= u).
  { split; [|pose proof (ln_le (1 + u) ltac:(lra)); lra].
    pose proof (ln_ge (1 + u) ltac:(lra)). replace (u / (1 + u)) with (1 - / (1 + u)) by (field; lra). lra. }
  assert (P1 : 0 < (1 + u) ^ S n) by (apply pow_lt; lra).
  assert (B1 : u * (1 + u) ^ S n <= (1 + u) ^ S (S n) * ln (1 + u) <= u * (1 + u) ^ S (S n)).
  { change ((1 + u) ^ S (S n)) with ((1 + u) * (1 + u) ^ S n). set (p := (1 + u) ^ S n) in *.
    assert (u <= (1 + u) * ln (1 + u) <= u * (1 + u)).
    { destruct A1 as [A1 A2]. split; [|nra]. apply (Rmult_le_compat_l (1 + u)) in A1; [|lra].
      replace ((1 + u) * (u / (1 + u))) with u in A1 by (field; lra). exact A1. }
    split; nra. }
  assert (B2 : - u * (1 - u) ^ S n <= (1 - u) ^ S (S n) * ln (1 - u) <= - u * (1 - u) ^ S (S n)).
  { destruct (Req_dec u 1) as [->|Hn].
    - replace (1 - 1) with 0 by ring. rewrite !pow_i by lia. lra.
    - assert (A2 : - u / (1 - u) <= ln (1 - u) <= - u).
      { split; [|pose proof (ln_le (1 - u) ltac:(lra)); lra].
        pose proof (ln_ge (1 - u) ltac:(lra)). replace (- u / (1 - u)) with (1 - / (1 - u)) by (field; lra). lra. }
      assert (P2 : 0 < (1 - u) ^ S n) by (apply pow_lt; lra).
      change ((1 - u) ^ S (S n)) with ((1 - u) * (1 - u) ^ S n). set (p := (1 - u) ^ S n) in *.
      assert (- u <= (1 - u) * ln (1 - u) <= - u * (1 - u)).
      { destruct A2 as [A2 A3]. split; [|nra]. apply (Rmult_le_compat_l (1 - u)) in A2; [|lra].
        replace ((1 - u) * (- u / (1 - u))) with (- u) in A2 by (field; lra). exact A2. }
      split; nra. }
  lra.
Qed.

(** f(k+h) + f(k-h) - 2 f(k) for f(t) = t^n ln t *)
Definition D (n : nat) (k h : R) : R := (k + h) ^ n * ln (k + h) + (k - h) ^ n * ln (k - h) - 2 * (k ^ n * ln k).
Lemma D_split n k u : 0 < k -> 0 < u <= 1 -> D (S n) k (k * u) =
  k ^ S n * (G (S n) u + ln k * ((1 + u) ^ S n + (1 - u) ^ S n - 2)).
Proof.
  intros Hk Hu. unfold D, G. replace (k + k * u) with (k * (1 + u)) by ring. replace (k - k * u) with (k * (1 - u)) by ring.
  rewrite (ln_mult k (1 + u)) by lra.
  assert (E : (k * (1 - u)) ^ S n * ln (k * (1 - u)) = (k * (1 - u)) ^ S n * (ln k + ln (1 - u))).
  { destruct (Req_dec u 1) as [->|Hn].
    - replace (k * (1 - 1)) with 0 by ring. rewrite pow_i by lia. ring.
    - rewrite ln_mult by lra. reflexivity. }
  rewrite E, !Rpow_mult_distr. ring.
Qed.

(** ** Values of sx *)
Section Finite.
Variables (F h : R).
Hypothesis HF : 1 <= F.
Hypothesis Hh : h = 1 / F.
Lemma h_range : 0 < h <= 1.
Proof.
  rewrite Hh. split; [apply Rdiv_lt_0_compat; lra|]. apply (Rmult_le_reg_r F); [lra|]. unfold Rdiv. rewrite Rmult_assoc, Rinv_l by lra. lra.
Qed.
Lemma F_h : F = 1 / h.
Proof. rewrite Hh. field. lra. Qed.

Lemma sx_at0 alpha : sxf (Some F) alpha 0 = F ^ 2 * (2 * swf alpha 0 - 2 * swf alpha h).
Proof. cbn [sxf]. rewrite <- Hh. replace (0 - h) with (- h) by ring. rewrite swf_even, Rplus_0_l. ring. Qed.

Lemma sx0_values : sxf (Some F) 2 0 = 2 * F /\ sxf (Some F) 0 0 = - 2 * h /\ sxf (Some F) (-2) 0 = - 2 * h ^ 3 /\
  sxf (Some F) (-4) 0 = - 2 * h ^ 5 /\
  sxf (Some F) 1 0 = - 2 * ln h /\ sxf (Some F) (-1) 0 = - 2 * h ^ 2 * ln h /\ sxf (Some F) (-3) 0 = - 2 * h ^ 4 * ln h.
Proof.
  pose proof h_range as Hr. rewrite !sx_at0.
  rewrite !(swf_2 0), !(swf_2 h) by lra.
  destruct (swf_even_pow 0 ltac:(lra)) as (-> & -> & ->). destruct (swf_even_pow h ltac:(lra)) as (-> & -> & ->).
  destruct (swf_log 0 ltac:(lra)) as (-> & -> & ->). destruct (swf_log h ltac:(lra)) as (-> & -> & ->).
  rewrite F_h. repeat split; field; lra.
Qed.
Lemma sxk_values k : 1 <= k -> sxf (Some F) 2 k = 0 /\ sxf (Some F) 0 k = - 6 * k /\
  sxf (Some F) (-2) k = - (20 * k ^ 3 + 10 * k * h ^ 2) /\
  sxf (Some F) (-4) k = - (42 * k ^ 5 + 70 * k ^ 3 * h ^ 2 + 14 * k * h ^ 4) /\
  sxf (Some F) 1 k = - (D 2 k h / h ^ 2) /\ sxf (Some F) (-1) k = - (D 4 k h / h ^ 2) /\ sxf (Some F) (-3) k = - (D 6 k h / h ^ 2).
Proof.
  intros Hk. pose proof h_range as Hr. cbn [sxf]. rewrite <- Hh. rewrite !swf_2 by lra.
  destruct (swf_even_pow k ltac:(lra)) as (-> & -> & ->). destruct (swf_even_pow (k - h) ltac:(lra)) as (-> & -> & ->).
  destruct (swf_even_pow (k + h) ltac:(lra)) as (-> & -> & ->).
  destruct (swf_log k ltac:(lra)) as (-> & -> & ->). destruct (swf_log (k - h) ltac:(lra)) as (-> & -> & ->).
  destruct (swf_log (k + h) ltac:(lra)) as (-> & -> & ->). unfold D.
  rewrite F_h. repeat split; field; lra.
Qed.

(** even exponents: sz(0) is never 0 *)
Lemma sz0_even alpha d : (1 <= d <= 3)%nat -> (1 < alpha + 2 * Z.of_nat d)%Z ->
  (alpha = 2 \/ alpha = 0 \/ alpha = -2 \/ alpha = -4)%Z -> szf d (Some F) alpha 0 <> 0.
Proof.
  intros Hd Ha Hc. pose proof h_range as Hr. rewrite szf0. cbv zeta.
  destruct sx0_values as (Z2 & Z0 & Zm2 & Zm4 & _).
  destruct (sxk_values 1 ltac:(lra)) as (A2 & A0 & Am2 & Am4 & _).
  destruct (sxk_values 2 ltac:(lra)) as (B2 & B0 & Bm2 & Bm4 & _).
  destruct (sxk_values 3 ltac:(lra)) as (C2 & C0 & Cm2 & Cm4 & _).
  assert (Hd' : d = 1%nat \/ d = 2%nat \/ d = 3%nat) by lia.
  assert (Q : 0 < h ^ 2 <= 1) by (split; [apply pow_lt; lra|nra]).
  assert (Q3 : 0 < h ^ 3 <= h ^ 2) by (split; [apply pow_lt; lra|cbn in *; nra]).
  assert (Q4 : 0 < h ^ 4 <= h ^ 2) by (split; [apply pow_lt; lra|cbn in *; nra]).
  assert (Q5 : 0 < h ^ 5 <= h ^ 4) by (split; [apply pow_lt; lra|]; change (h ^ 5) with (h * h ^ 4); nra).
  destruct Hc as [-> | [-> | [-> | ->]]], Hd' as [-> | [-> | ->]]; cbn in Ha; try lia;
    rewrite ?Z2, ?Z0, ?Zm2, ?Zm4, ?A2, ?A0, ?Am2, ?Am4, ?B2, ?B0, ?Bm2, ?Bm4, ?C2, ?C0, ?Cm2, ?Cm4; lra.
Qed.

(** bounds on the second differences of the logarithmic kernels *)
Lemma D_bounds n k lo hi : 1 <= k ->
  lo = k ^ n * (k / h * ((1 + h / k) ^ S n - (1 - h / k) ^ S n) + (k / h) ^ 2 * ln k * ((1 + h / k) ^ S (S n) + (1 - h / k) ^ S (S n) - 2)) ->
  hi = k ^ n * (k / h * ((1 + h / k) ^ S (S n) - (1 - h / k) ^ S (S n)) + (k / h) ^ 2 * ln k * ((1 + h / k) ^ S (S n) + (1 - h / k) ^ S (S n) - 2)) ->
  lo <= D (S (S n)) k h / h ^ 2 <= hi.
Proof.
  intros Hk -> ->. pose proof h_range as Hr. set (u := h / k).
  assert (Hu : 0 < u <= 1).
  { unfold u. split; [apply Rdiv_lt_0_compat; lra|]. apply (Rmult_le_reg_r k); [lra|]. unfold Rdiv. rewrite Rmult_assoc, Rinv_l by lra. lra. }
  assert (Eh : h = k * u) by (unfold u; field; lra).
  assert (Ei : k / h = / u) by (rewrite Eh; field; lra). rewrite Ei.
  replace (D (S (S n)) k h) with (D (S (S n)) k (k * u)) by (now rewrite <- Eh). rewrite D_split by lra. pose proof (G_bounds n u Hu) as HG.
  set (g := G (S (S n)) u) in *. set (w := (1 + u) ^ S (S n) + (1 - u) ^ S (S n) - 2).
  assert (Hkn : 0 < k ^ n) by (apply pow_lt; lra).
  replace (k ^ S (S n) * (g + ln k * w) / h ^ 2) with (k ^ n * (g / u ^ 2 + (/ u) ^ 2 * ln k * w)) by (rewrite Eh; cbn [pow]; field; lra).
  assert (Hg : / u * ((1 + u) ^ S n - (1 - u) ^ S n) <= g / u ^ 2 <= / u * ((1 + u) ^ S (S n) - (1 - u) ^ S (S n))).
  { assert (Hi : 0 < / u ^ 2) by (apply Rinv_0_lt_compat, pow_lt; lra).
    assert (E1 : forall z, / u * z = (u * z) * / u ^ 2) by (intros z; field; lra).
    rewrite !E1. unfold Rdiv. split; apply Rmult_le_compat_r; lra. }
  split; apply Rmult_le_compat_l; try lra.
Qed.
Lemma D2_bounds k : 1 <= k -> 2 + 2 * ln k <= D 2 k h / h ^ 2 <= 4 + 2 * ln k.
Proof. intros Hk. pose proof h_range. apply (D_bounds 0); [exact Hk| |]; cbn [pow]; field; lra. Qed.
Lemma D4_bounds k : 1 <= k -> k ^ 2 * (6 + 12 * ln k) + (2 + 2 * ln k) * h ^ 2 <= D 4 k h / h ^ 2 <=
  k ^ 2 * (8 + 12 * ln k) + (8 + 2 * ln k) * h ^ 2.
Proof. intros Hk. pose proof h_range. apply (D_bounds 2); [exact Hk| |]; cbn [pow]; field; lra. Qed.
Lemma D6_bounds k : 1 <= k ->
  k ^ 4 * (10 + 30 * ln k) + k ^ 2 * (20 + 30 * ln k) * h ^ 2 + (2 + 2 * ln k) * h ^ 4 <= D 6 k h / h ^ 2 <=
  k ^ 4 * (12 + 30 * ln k) + k ^ 2 * (40 + 30 * ln k) * h ^ 2 + (12 + 2 * ln k) * h ^ 4.
Proof. intros Hk. pose proof h_range. apply (D_bounds 4); [exact Hk| |]; cbn [pow]; field; lra. Qed.

Lemma lnh_nonpos : ln h <= 0.
Proof. pose proof h_range. pose proof (ln_le h ltac:(lra)). lra. Qed.
Lemma h2lnh : 0 <= - 2 * h ^ 2 * ln h <= 1.
Proof.
  pose proof h_range as Hr. pose proof lnh_nonpos. assert (Q : 0 < h ^ 2) by (apply pow_lt; lra). split; [nra|].
  pose proof (ln_ge (h ^ 2) Q) as L. rewrite ln_pow in L by lra. change (INR 2) with (1 + 1) in L.
  assert (h ^ 2 * (1 - / h ^ 2) <= h ^ 2 * ((1 + 1) * ln h)) by (apply Rmult_le_compat_l; lra).
  replace (h ^ 2 * (1 - / h ^ 2)) with (h ^ 2 - 1) in H0 by (field; lra). nra.
Qed.

(** flicker phase noise: sz(0) > 0 for every F >= 1 *)
Lemma sz0_flicker_pm d : (1 <= d <= 3)%nat -> 0 < szf d (Some F) 1 0.
Proof.
  intros Hd. rewrite szf0. cbv zeta. destruct sx0_values as (_ & _ & _ & _ & Z1 & _).
  destruct (sxk_values 1 ltac:(lra)) as (_ & _ & _ & _ & A1 & _). destruct (sxk_values 2 ltac:(lra)) as (_ & _ & _ & _ & B1 & _).
  destruct (sxk_values 3 ltac:(lra)) as (_ & _ & _ & _ & C1 & _).
  pose proof (D2_bounds 1 ltac:(lra)) as D1. pose proof (D2_bounds 2 ltac:(lra)) as D2. pose proof (D2_bounds 3 ltac:(lra)) as D3.
  rewrite ln_1 in D1. pose proof ln2_bounds. pose proof ln3_bounds. pose proof lnh_nonpos.
  assert (Hd' : d = 1%nat \/ d = 2%nat \/ d = 3%nat) by lia.
  destruct Hd' as [-> | [-> | ->]]; rewrite ?Z1, ?A1, ?B1, ?C1; lra.
Qed.
End Finite.

Lemma ln4 : ln 4 = 2 * ln 2.
Proof. replace 4 with (2 * 2) by ring. rewrite ln_mult by lra. ring. Qed.

(** flicker FM and flicker-walk FM, F a positive integer *)
Lemma sz0_m1 (m : Z) d : (1 <= m)%Z -> (2 <= d <= 3)%nat -> szf d (Some (IZR m)) (-1) 0 < 0.
Proof.
  intros Hm Hd. assert (HF : 1 <= IZR m) by (apply IZR_le in Hm; lra).
  set (h := 1 / IZR m). pose proof (h_range _ h HF eq_refl) as Hr. rewrite szf0. cbv zeta.
  destruct (sx0_values _ h HF eq_refl) as (_ & _ & _ & _ & _ & Z1 & _).
  destruct (sxk_values _ h HF eq_refl 1 ltac:(lra)) as (_ & _ & _ & _ & _ & A1 & _).
  destruct (sxk_values _ h HF eq_refl 2 ltac:(lra)) as (_ & _ & _ & _ & _ & B1 & _).
  destruct (sxk_values _ h HF eq_refl 3 ltac:(lra)) as (_ & _ & _ & _ & _ & C1 & _).
  rewrite Z1, A1, B1, C1. pose proof ln2_bounds as L2. pose proof ln3_bounds as L3.
  assert (Hd' : d = 2%nat \/ d = 3%nat) by lia.
  destruct (Z.eq_dec m 1) as [E1|N1].
  - assert (Eh : h = 1) by (unfold h; rewrite E1; field). rewrite Eh in *. unfold D.
    replace (1 - 1) with 0 by ring. replace (2 - 1) with 1 by ring. replace (3 - 1) with 2 by ring.
    replace (1 + 1) with 2 by ring. replace (2 + 1) with 3 by ring. replace (3 + 1) with 4 by ring.
    rewrite ln_1, ln4. destruct Hd' as [-> | ->]; cbn [pow]; field_simplify; lra.
  - pose proof (D4_bounds _ h HF eq_refl 1 ltac:(lra)) as D1. pose proof (D4_bounds _ h HF eq_refl 2 ltac:(lra)) as D2.
    pose proof (D4_bounds _ h HF eq_refl 3 ltac:(lra)) as D3. rewrite ln_1 in D1.
    pose proof (h2lnh _ h HF eq_refl) as Hs.
    assert (Q : 0 < h ^ 2) by (apply pow_lt; lra).
    assert (Hmul : forall c lo hi, lo <= c <= hi -> lo * h ^ 2 <= c * h ^ 2 <= hi * h ^ 2) by (intros; nra).
    pose proof (Hmul _ _ _ L2) as M2. pose proof (Hmul _ _ _ L3) as M3.
    destruct (Z.eq_dec m 2) as [E2|N2].
    + assert (Eh : h = 1 / 2) by (unfold h; now rewrite E2).
      assert (El : ln h = - ln 2) by (rewrite Eh; replace (1 / 2) with (/ 2) by field; apply ln_Rinv; lra).
      rewrite El in *. assert (Eq : h ^ 2 = 1 / 4) by (rewrite Eh; field). rewrite Eq in *.
      destruct Hd' as [-> | ->]; lra.
    + assert (Hq : h ^ 2 <= 1 / 9).
      { assert (3 <= IZR m) by (apply IZR_le; lia). assert (Hi : h <= 1 / 3) by (unfold h; apply Rmult_le_compat_l; [lra|]; apply Rinv_le_contravar; lra). nra. }
      destruct Hd' as [-> | ->]; lra.
Qed.
Lemma sz0_m3 (m : Z) : (1 <= m)%Z -> 0 < szf 3 (Some (IZR m)) (-3) 0.
Proof.
  intros Hm. assert (HF : 1 <= IZR m) by (apply IZR_le in Hm; lra).
  set (h := 1 / IZR m). pose proof (h_range _ h HF eq_refl) as Hr. rewrite szf0. cbv zeta.
  destruct (sx0_values _ h HF eq_refl) as (_ & _ & _ & _ & _ & _ & Z1).
  destruct (sxk_values _ h HF eq_refl 1 ltac:(lra)) as (_ & _ & _ & _ & _ & _ & A1).
  destruct (sxk_values _ h HF eq_refl 2 ltac:(lra)) as (_ & _ & _ & _ & _ & _ & B1).
  destruct (sxk_values _ h HF eq_refl 3 ltac:(lra)) as (_ & _ & _ & _ & _ & _ & C1).
  rewrite Z1, A1, B1, C1. pose proof ln2_bounds as L2. pose proof ln3_bounds as L3.
  destruct (Z.eq_dec m 1) as [E1|N1].
  - assert (Eh : h = 1) by (unfold h; rewrite E1; field). rewrite Eh in *. unfold D.
    replace (1 - 1) with 0 by ring. replace (2 - 1) with 1 by ring. replace (3 - 1) with 2 by ring.
    replace (1 + 1) with 2 by ring. replace (2 + 1) with 3 by ring. replace (3 + 1) with 4 by ring.
    rewrite ln_1, ln4. cbn [pow]; field_simplify; lra.
  - pose proof (D6_bounds _ h HF eq_refl 1 ltac:(lra)) as D1. pose proof (D6_bounds _ h HF eq_refl 2 ltac:(lra)) as D2.
    pose proof (D6_bounds _ h HF eq_refl 3 ltac:(lra)) as D3. rewrite ln_1 in D1.
    pose proof (lnh_nonpos _ h HF eq_refl) as Hl.
    assert (Q : 0 < h ^ 2) by (apply pow_lt; lra).
    assert (Q4 : h ^ 4 = h ^ 2 * h ^ 2) by ring.
    assert (Hs : 0 <= - 2 * h ^ 4 * ln h) by (rewrite Q4; nra).
    assert (Hq : h ^ 2 <= 1 / 4).
    { assert (2 <= IZR m) by (apply IZR_le; lia). assert (Hi : h <= 1 / 2) by (unfold h; apply Rmult_le_compat_l; [lra|]; apply Rinv_le_contravar; lra). nra. }
    assert (Q4b : 0 <= h ^ 4 <= h ^ 2) by (rewrite Q4; nra).
    assert (Hmul : forall c lo hi q, 0 <= q -> lo <= c <= hi -> lo * q <= c * q <= hi * q) by (intros; nra).
    pose proof (Hmul _ _ _ (h ^ 2) ltac:(lra) L2) as M2. pose proof (Hmul _ _ _ (h ^ 2) ltac:(lra) L3) as M3.
    pose proof (Hmul _ _ _ (h ^ 4) ltac:(lra) L2) as M2'. pose proof (Hmul _ _ _ (h ^ 4) ltac:(lra) L3) as M3'.
    lra.
Qed.

(** infinite F *)
Lemma sz0_inf alpha d : (1 <= d <= 3)%nat -> (1 < alpha + 2 * Z.of_nat d)%Z -> (-4 <= alpha <= 0)%Z -> szf d None alpha 0 <> 0.
Proof.
  intros Hd Ha Hc. rewrite szf0. cbv zeta. cbn [sxf]. pose proof ln2_bounds as L2. pose proof ln3_bounds as L3.
  assert (Hd' : d = 1%nat \/ d = 2%nat \/ d = 3%nat) by lia.
  assert (Hc' : (alpha = 0 \/ alpha = -1 \/ alpha = -2 \/ alpha = -3 \/ alpha = -4)%Z) by lia.
  destruct Hc' as [-> | [-> | [-> | [-> | ->]]]]; cbn [Z.add Z.pos_sub Pos.succ Z.opp Z.succ_double Z.pred_double Pos.pred_double Z.double Pos.add].
  - rewrite !swf_2 by lra. destruct Hd' as [-> | [-> | ->]]; lra.
  - destruct (swf_log 0 ltac:(lra)) as (-> & _). destruct (swf_log 1 ltac:(lra)) as (-> & _). destruct (swf_log 2 ltac:(lra)) as (-> & _).
    destruct (swf_log 3 ltac:(lra)) as (-> & _). rewrite ln_1. destruct Hd' as [-> | [-> | ->]]; [cbn in Ha; lia| |]; cbn [pow]; lra.
  - destruct (swf_even_pow 0 ltac:(lra)) as (-> & _). destruct (swf_even_pow 1 ltac:(lra)) as (-> & _). destruct (swf_even_pow 2 ltac:(lra)) as (-> & _).
    destruct (swf_even_pow 3 ltac:(lra)) as (-> & _). destruct Hd' as [-> | [-> | ->]]; [cbn in Ha; lia| |]; cbn [pow]; lra.
  - destruct (swf_log 0 ltac:(lra)) as (_ & -> & _). destruct (swf_log 1 ltac:(lra)) as (_ & -> & _). destruct (swf_log 2 ltac:(lra)) as (_ & -> & _).
    destruct (swf_log 3 ltac:(lra)) as (_ & -> & _). rewrite ln_1. destruct Hd' as [-> | [-> | ->]]; [cbn in Ha; lia|cbn in Ha; lia|]; cbn [pow]; lra.
  - destruct (swf_even_pow 0 ltac:(lra)) as (_ & -> & _). destruct (swf_even_pow 1 ltac:(lra)) as (_ & -> & _). destruct (swf_even_pow 2 ltac:(lra)) as (_ & -> & _).
    destruct (swf_even_pow 3 ltac:(lra)) as (_ & -> & _). destruct Hd' as [-> | [-> | ->]]; [cbn in Ha; lia|cbn in Ha; lia|]; cbn [pow]; lra.
Qed.

(** all cases with F a positive integer *)
Lemma sz0_nonzero (m alpha : Z) d : (1 <= m)%Z -> (1 <= d <= 3)%nat -> (-4 <= alpha <= 2)%Z -> (1 < alpha + 2 * Z.of_nat d)%Z ->
  szf d (Some (IZR m)) alpha 0 <> 0.
Proof.
  intros Hm Hd Hr Ha. assert (HF : 1 <= IZR m) by (apply IZR_le in Hm; lra).
  assert (Hc : (alpha = 1 \/ alpha = -1 \/ alpha = -3 \/ (alpha = 2 \/ alpha = 0 \/ alpha = -2 \/ alpha = -4))%Z) by lia.
  destruct Hc as [-> | [-> | [-> | Hc]]].
  - pose proof (sz0_flicker_pm _ _ HF eq_refl d Hd). lra.
  - pose proof (sz0_m1 m d Hm ltac:(lia)). lra.
  - assert (d = 3%nat) as -> by lia. pose proof (sz0_m3 m Hm). lra.
  - now apply (sz0_even _ _ HF eq_refl).
Qed.

(** ** The branches of edf_greenhall *)
Definition basic (alpha : Z) (d : nat) (J M : Z) (S : R) (F : option R) : res R :=
  s0 <- greenhall_sz 0 F alpha d ;; b <- greenhall_BasicSum J M S F alpha d ;; Ok (1 / (1 / (s0 ^ 2 * IZR M) * b)).

Lemma edf_unfold alpha d m N o md : (1 < alpha + 2 * Z.of_nat d)%Z -> (1 <= m)%Z ->
  edf_greenhall alpha d m N o md =
  let S := if o then m else 1%Z in
  let M := greenhall_M S m N d md in
  let J := Z.min M ((Z.of_nat d + 1) * S) in
  let r := IZR M / IZR S in
  if md then
    if (J <=? 100)%Z then basic alpha d J M (IZR S) (Some 1)
    else if Rltb (INR d + 1) r then
      '(a0, a1) <- greenhall_table1 alpha d ;; Ok (1 / (1 / r * (a0 - a1 / r)))
    else basic alpha d 100 100 (100 / r) (Some 1)
  else if (alpha <=? 0)%Z then
    if (J <=? 100)%Z then basic alpha d J M (IZR S) (if (m * (Z.of_nat d + 1) <=? 100)%Z then Some (IZR m) else None)
    else if Rltb (INR d + 1) r then
      '(a0, a1) <- greenhall_table2 alpha d ;; Ok (1 / (1 / r * (a0 - a1 / r)))
    else basic alpha d 100 100 (100 / r) None
  else if (alpha =? 1)%Z then
    if (J <=? 100)%Z then basic alpha d J M (IZR S) (Some (IZR m))
    else if Rltb (INR d + 1) r then
      '(a0, a1) <- greenhall_table2 alpha d ;; '(b0, b1) <- greenhall_table3 alpha d ;;
      Ok (1 / (1 / ((b0 + b1 * ln (IZR m)) ^ 2 * r) * (a0 - a1 / r)))
    else
      '(b0, b1) <- greenhall_table3 alpha d ;;
      b <- greenhall_BasicSum 100 100 (100 / r) (Some (100 / r)) 1 d ;;
      Ok (1 / (1 / ((b0 + b1 * ln (IZR m)) ^ 2 * 100) * b))
  else if (alpha =? 2)%Z then
    if (ceilR r <=? Z.of_nat d)%Z then Err NotImplementedError
    else Ok (1 / (1 / IZR M * (binom (4 * d) (2 * d) / binom (2 * d) d ^ 2 - INR d / 2 / r)))
  else Err NotImplementedError.
Proof.
  intros Ha Hm. unfold edf_greenhall. rewrite (proj2 (Z.ltb_lt _ _) Ha). cbn [assert_ bind].
  rewrite (proj2 (Z.eqb_neq m 0)) by lia. reflexivity.
Qed.

Lemma basic_pos alpha d J M S F : (1 <= d <= 3)%nat -> sx_dom F alpha -> szf d F alpha 0 <> 0 -> (1 <= M)%Z -> (J <= M)%Z -> S <> 0 ->
  exists e, basic alpha d J M S F = Ok e /\ 0 < e <= IZR M.
Proof.
  intros Hd HF Hz HM HJ HS. unfold basic. rewrite sz_ok by assumption. cbn [bind]. rewrite basicsum_ok by (assumption || lia). cbn [bind].
  eexists. split; [reflexivity|]. apply edf_value.
  - cbn [pow]. rewrite Rmult_1_r. apply Rsqr_pos_lt in Hz. exact Hz.
  - apply IZR_le in HM. lra.
  - now apply bsum_ge.
Qed.
Lemma basic_neg alpha d M S F : (1 <= d <= 3)%nat -> sx_dom F alpha -> szf d F alpha 0 <> 0 -> (M <= -1)%Z -> S <> 0 ->
  basic alpha d M M S F = Ok (IZR M).
Proof.
  intros Hd HF Hz HM HS. unfold basic. rewrite sz_ok by assumption. cbn [bind]. rewrite basicsum_ok by (assumption || lia). cbn [bind].
  rewrite bsum_neg by lia. f_equal. field. split; [apply not_0_IZR; lia|exact Hz].
Qed.
Lemma basic_0 alpha d J S F : (1 <= d <= 3)%nat -> sx_dom F alpha -> basic alpha d J 0 S F = Err ZeroDivisionError.
Proof. intros Hd HF. unfold basic. rewrite sz_ok by assumption. cbn [bind]. now rewrite basicsum_M0. Qed.
Lemma basic_bad alpha d J M S F : (1 <= d <= 3)%nat -> (2 < alpha)%Z -> F <> None -> basic alpha d J M S F = Err AssertionError.
Proof.
  intros Hd Ha HF. unfold basic. destruct F as [F|]; [|congruence].
  assert (E : forall t, greenhall_sx t (Some F) alpha = Err AssertionError) by (intros t; apply sx_bad_alpha; unfold sw_dom; lia).
  assert (Hd' : d = 1%nat \/ d = 2%nat \/ d = 3%nat) by lia.
  destruct Hd' as [-> | [-> | ->]]; unfold greenhall_sz; now rewrite E.
Qed.

Lemma table_value r S a0 a1 D : 0 < D -> D < r -> 0 <= a1 -> 1 <= S * (a0 - a1 / D) -> 0 < S ->
  0 < 1 / (1 / r * (a0 - a1 / r)) <= r * S.
Proof.
  intros HD Hr Ha1 Hv HS.
  assert (Hq : a1 / r <= a1 / D) by (apply Rmult_le_compat_l; [exact Ha1|]; apply Rinv_le_contravar; lra).
  assert (Hp : 0 < a0 - a1 / D) by nra.
  set (v := a0 - a1 / r) in *. assert (Hvv : a0 - a1 / D <= v) by (unfold v; lra).
  replace (1 / (1 / r * v)) with (r / v) by (field; lra). split; [apply Rdiv_lt_0_compat; lra|].
  apply (Rmult_le_reg_r v); [lra|]. unfold Rdiv. rewrite Rmult_assoc, Rinv_l by lra.
  assert (1 <= S * v) by nra. nra.
Qed.

Lemma table1_good alpha d : (-4 <= alpha <= 2)%Z -> (1 <= d <= 3)%nat -> (1 < alpha + 2 * Z.of_nat d)%Z ->
  exists a0 a1, greenhall_table1 alpha d = Ok (a0, a1) /\ 0 < a1 /\ 2 / 5 <= a0 - a1 / (INR d + 1) /\ a0 <= 2.
Proof.
  intros Ha Hd H. assert (Hd' : d = 1%nat \/ d = 2%nat \/ d = 3%nat) by lia.
  assert (Hc : (alpha = 2 \/ alpha = 1 \/ alpha = 0 \/ alpha = -1 \/ alpha = -2 \/ alpha = -3 \/ alpha = -4)%Z) by lia.
  destruct Hd' as [-> | [-> | ->]]; destruct Hc as [-> | [-> | [-> | [-> | [-> | [-> | ->]]]]]];
    try (exfalso; cbn in H; lia); do 2 eexists; (split; [reflexivity|]); cbn [INR]; repeat split; lra.
Qed.
Lemma table2_good alpha d : (-3 <= alpha <= 2)%Z -> (1 <= d <= 3)%nat -> (1 < alpha + 2 * Z.of_nat d)%Z ->
  exists a0 a1, greenhall_table2 alpha d = Ok (a0, a1) /\ 0 < a1 /\ 2 / 5 <= a0 - a1 / (INR d + 1).
Proof.
  intros Ha Hd H. assert (Hd' : d = 1%nat \/ d = 2%nat \/ d = 3%nat) by lia.
  assert (Hc : (alpha = 2 \/ alpha = 1 \/ alpha = 0 \/ alpha = -1 \/ alpha = -2 \/ alpha = -3)%Z) by lia.
  destruct Hd' as [-> | [-> | ->]]; destruct Hc as [-> | [-> | [-> | [-> | [-> | ->]]]]];
    try (exfalso; cbn in H; lia); do 2 eexists; (split; [reflexivity|]); cbn [INR]; repeat split; lra.
Qed.
Lemma table2_m4 d : greenhall_table2 (-4) d = Err AssertionError.
Proof. reflexivity. Qed.

(** flicker PM, table 3: the coefficient grows slower than m *)
Lemma table23_flicker d (m : Z) : (1 <= d <= 3)%nat -> (1 <= m)%Z ->
  exists a0 a1 b0 b1, greenhall_table2 1 d = Ok (a0, a1) /\ greenhall_table3 1 d = Ok (b0, b1) /\
    0 < a1 /\ 0 < b0 + b1 * ln (IZR m) /\ (b0 + b1 * ln (IZR m)) ^ 2 <= IZR m * (a0 - a1 / (INR d + 1)).
Proof.
  intros Hd Hm. apply IZR_le in Hm. set (M := IZR m) in *. set (q := sqrt M).
  assert (Hq2 : q * q = M) by (apply sqrt_sqrt; lra).
  assert (Hq : 1 <= q) by (unfold q; rewrite <- sqrt_1; apply sqrt_le_1; lra).
  assert (Hl : ln M <= 2 * (q - 1)) by (rewrite <- Hq2, ln_mult by lra; pose proof (ln_le q ltac:(lra)); lra).
  assert (Hl0 : 0 <= ln M) by (rewrite <- ln_1; destruct (Req_dec M 1) as [->|]; [lra|left; apply ln_increasing; lra]).
  assert (Hd' : d = 1%nat \/ d = 2%nat \/ d = 3%nat) by lia.
  assert (Sq : forall x y, 0 <= x <= y -> x ^ 2 <= y ^ 2) by (intros; nra).
  destruct Hd' as [-> | [-> | ->]]; do 4 eexists; (split; [reflexivity|]); (split; [reflexivity|]); (split; [lra|]); (split; [lra|]);
    cbn [INR]; [pose proof (Sq (6 + 4 * ln M) (8 * q) ltac:(lra)) as K | pose proof (Sq (1523 / 100 + 12 * ln M) (24 * q) ltac:(lra)) as K |
      pose proof (Sq (478 / 10 + 40 * ln M) (80 * q) ltac:(lra)) as K];
    (eapply Rle_trans; [exact K|]); rewrite <- Hq2; nra.
Qed.

Lemma ceilR_gt r (z : Z) : (z < ceilR r)%Z -> IZR z < r.
Proof.
  unfold ceilR. intros H. destruct (base_Int_part (- r)) as [H1 H2]. apply Rnot_le_lt. intros C.
  assert (- Int_part (- r) - 1 < z)%Z; [|lia]. apply lt_IZR. rewrite minus_IZR, opp_IZR. lra.
Qed.
Lemma ceilR_le r (z : Z) : r <= IZR z -> (ceilR r <= z)%Z.
Proof.
  unfold ceilR. intros H. destruct (base_Int_part (- r)) as [H1 H2].
  assert (- Int_part (- r) - 1 < z)%Z; [|lia]. apply lt_IZR. rewrite minus_IZR, opp_IZR. lra.
Qed.
Lemma ceilR_iff r z : (ceilR r <= z)%Z <-> r <= IZR z.
Proof. split; [|apply ceilR_le]. intros H. apply Rnot_lt_le. intros C. destruct (base_Int_part (- r)) as [H1 H2]. unfold ceilR in H.
  assert (IZR (- Int_part (- r)) <= IZR z) by now apply IZR_le. rewrite opp_IZR in *. lra. Qed.

Lemma binom_values : binom 4 2 / binom 2 1 ^ 2 = 3 / 2 /\ binom 8 4 / binom 4 2 ^ 2 = 35 / 18 /\ binom 12 6 / binom 6 3 ^ 2 = 231 / 100.
Proof.
  assert (E : forall n, INR (fact (S n)) = INR (S n) * INR (fact n)) by (intros; rewrite fact_simpl; apply mult_INR).
  unfold binom, C. cbn [Nat.sub]. rewrite !E. cbn [fact INR]. repeat split; field.
Qed.

(** number of terms of the estimator *)
Definition terms (d : nat) (m N : Z) (overlapping modified : bool) : Z :=
  let dz := Z.of_nat d in
  match overlapping, modified with
  | true, false => N - dz * m
  | true, true => N - (dz + 1) * m + 1
  | false, false => (N - 1) / m - dz + 1
  | false, true => N / m - dz
  end%Z.
Definition stride (m : Z) (overlapping : bool) : Z := if overlapping then m else 1%Z.

Lemma M_terms d m N o md : (1 <= m)%Z -> greenhall_M (stride m o) m N d md = terms d m N o md.
Proof.
  intros Hm. unfold greenhall_M, terms, stride. cbv zeta. set (dz := Z.of_nat d). destruct o, md.
  - replace (m * (N - (m + m * dz)))%Z with ((N - (m + m * dz)) * m)%Z by ring. rewrite Z.div_mul by lia. ring.
  - replace (m * (N - (1 + m * dz)))%Z with ((N - (1 + m * dz)) * m)%Z by ring. rewrite Z.div_mul by lia. ring.
  - replace (1 * (N - (m + m * dz)))%Z with (N + (- (1 + dz)) * m)%Z by ring. rewrite Z.div_add by lia. ring.
  - replace (1 * (N - (1 + m * dz)))%Z with (N - 1 + (- dz) * m)%Z by ring. rewrite Z.div_add by lia. ring.
Qed.

Lemma ratio_lt (M S k : Z) : (0 < S)%Z -> IZR k < IZR M / IZR S <-> (k * S < M)%Z.
Proof.
  intros HS. apply IZR_lt in HS as HS'. split; intros H.
  - apply lt_IZR. rewrite mult_IZR. apply (Rmult_lt_compat_r (IZR S)) in H; [|exact HS'].
    unfold Rdiv in H. rewrite Rmult_assoc, Rinv_l in H by lra. lra.
  - apply IZR_lt in H. rewrite mult_IZR in H. apply (Rmult_lt_reg_r (IZR S)); [exact HS'|].
    unfold Rdiv. rewrite Rmult_assoc, Rinv_l by lra. lra.
Qed.
Lemma ratio_le (M S k : Z) : (0 < S)%Z -> IZR M / IZR S <= IZR k <-> (M <= k * S)%Z.
Proof. intros HS. pose proof (ratio_lt M S k HS). split; intros H1; [apply Z.nlt_ge; intros C; apply H in C; lra|apply Rnot_lt_le; intros C; apply H in C; lia]. Qed.

Definition sampled (d : nat) (S M : Z) : Prop := (100 < Z.min M ((Z.of_nat d + 1) * S))%Z.

Lemma edf_bounds alpha d m N o md : (1 <= m)%Z -> (1 <= d <= 3)%nat -> (-4 <= alpha <= 2)%Z -> (1 < alpha + 2 * Z.of_nat d)%Z ->
  let S := stride m o in let M := terms d m N o md in
  (1 <= M)%Z ->
  ~ (alpha = 2%Z /\ md = false /\ (M <= Z.of_nat d * S)%Z) ->
  ~ (alpha = (-4)%Z /\ md = false /\ sampled d S M /\ ((Z.of_nat d + 1) * S < M)%Z) ->
  exists e, edf_greenhall alpha d m N o md = Ok e /\ 0 < e /\
    (~ (alpha = 1%Z /\ md = false /\ sampled d S M /\ (M <= (Z.of_nat d + 1) * S)%Z) -> e <= IZR M).
Proof.
  intros Hm Hd Ha Hc S M HM Hx1 Hx2. rewrite edf_unfold by lia. cbv zeta. fold (stride m o). rewrite M_terms by exact Hm. fold S M.
  assert (HS : (1 <= S)%Z) by (unfold S, stride; destruct o; lia).
  assert (HS' : 1 <= IZR S) by (now apply IZR_le in HS). assert (HM' : 1 <= IZR M) by (now apply IZR_le in HM).
  assert (Hm' : 1 <= IZR m) by (now apply IZR_le in Hm).
  set (J := Z.min M ((Z.of_nat d + 1) * S)) in *. set (r := IZR M / IZR S) in *.
  assert (HJM : (J <= M)%Z) by (unfold J; lia).
  assert (Hr : 0 < r) by (apply Rdiv_lt_0_compat; lra). assert (HrS : r * IZR S = IZR M) by (unfold r; field; lra).
  assert (ED : INR d + 1 = IZR (Z.of_nat d + 1)) by (rewrite plus_IZR, <- INR_IZR_INZ; reflexivity).
  assert (HD4 : 2 <= INR d + 1 <= 4) by (rewrite ED; split; apply IZR_le; lia).
  assert (Hsp : forall F, szf d F alpha 0 <> 0 -> sx_dom F alpha -> forall S', S' <> 0 -> exists e, basic alpha d J M S' F = Ok e /\ 0 < e /\ e <= IZR M).
  { intros F Hz HF S' HS0. destruct (basic_pos alpha d J M S' F) as (e & He & H1); try assumption. exists e. split; [exact He|lra]. }
  assert (Hs1 : forall F, (100 < J)%Z -> szf d F alpha 0 <> 0 -> sx_dom F alpha -> exists e, basic alpha d 100 100 (100 / r) F = Ok e /\ 0 < e /\ e <= IZR M).
  { intros F HJ Hz HF. destruct (basic_pos alpha d 100 100 (100 / r) F) as (e & He & H1); try assumption; try lia.
    - apply Rgt_not_eq. apply Rdiv_lt_0_compat; lra.
    - exists e. split; [exact He|]. split; [lra|]. assert (IZR 100 <= IZR M) by (apply IZR_le; lia). lra. }
  assert (Sz1 : szf d (Some 1) alpha 0 <> 0) by (apply (sz0_nonzero 1); lia).
  assert (Szm : szf d (Some (IZR m)) alpha 0 <> 0) by (now apply sz0_nonzero).
  assert (Dm : forall F, F <> 0 -> sx_dom (Some F) alpha) by (intros F HF; split; [exact HF|exact Ha]).
  assert (Table : forall a0 a1, (100 < J)%Z -> Rltb (INR d + 1) r = true -> 0 < a1 -> 2 / 5 <= a0 - a1 / (INR d + 1) ->
     0 < 1 / (1 / r * (a0 - a1 / r)) <= IZR M).
  { intros a0 a1 HJ HR Ha1 Hv. apply Rltb_true in HR. rewrite <- HrS. apply (table_value r (IZR S) a0 a1 (INR d + 1)); try lra.
    assert (25 <= IZR S) by (apply IZR_le; unfold J in HJ; nia). nra. }
  destruct md.
  - destruct (J <=? 100)%Z eqn:EJ.
    + destruct (Hsp (Some 1) Sz1 (Dm 1 ltac:(lra)) (IZR S) ltac:(lra)) as (e & He & H1 & H2). eauto.
    + apply Z.leb_gt in EJ. destruct (Rltb (INR d + 1) r) eqn:ER.
      * destruct (table1_good alpha d Ha Hd Hc) as (a0 & a1 & -> & H1 & H2 & _). cbn [bind].
        eexists. split; [reflexivity|]. pose proof (Table a0 a1 EJ eq_refl H1 H2). split; [lra|intros _; lra].
      * destruct (Hs1 (Some 1) EJ Sz1 (Dm 1 ltac:(lra))) as (e & He & H1 & H2). eauto.
  - destruct (alpha <=? 0)%Z eqn:EA; [apply Z.leb_le in EA|apply Z.leb_gt in EA].
    { assert (Szi : szf d None alpha 0 <> 0) by (apply sz0_inf; lia).
      assert (Di : sx_dom None alpha) by (cbn [sx_dom]; unfold sw_dom; lia).
      destruct (J <=? 100)%Z eqn:EJ; [|apply Z.leb_gt in EJ; destruct (Rltb (INR d + 1) r) eqn:ER].
      + destruct (m * (Z.of_nat d + 1) <=? 100)%Z.
        * destruct (Hsp _ Szm (Dm (IZR m) ltac:(lra)) (IZR S) ltac:(lra)) as (e & He & H1 & H2). eauto.
        * destruct (Hsp _ Szi Di (IZR S) ltac:(lra)) as (e & He & H1 & H2). eauto.
      + assert (Hne : alpha <> (-4)%Z).
        { intros C. apply Hx2. repeat split; try assumption. apply Rltb_true in ER. rewrite ED in ER. unfold r in ER. apply ratio_lt in ER; [lia|lia]. }
        destruct (table2_good alpha d ltac:(lia) Hd Hc) as (a0 & a1 & -> & H1 & H2). cbn [bind].
        eexists. split; [reflexivity|]. pose proof (Table a0 a1 EJ eq_refl H1 H2). split; [lra|intros _; lra].
      + destruct (Hs1 _ EJ Szi Di) as (e & He & H1 & H2). eauto. }
    destruct (alpha =? 1)%Z eqn:E1; [apply Z.eqb_eq in E1|apply Z.eqb_neq in E1].
    { subst alpha. destruct (table23_flicker d m Hd Hm) as (a0 & a1 & b0 & b1 & ET2 & ET3 & H1 & H2 & H3).
      destruct (J <=? 100)%Z eqn:EJ; [|apply Z.leb_gt in EJ; destruct (Rltb (INR d + 1) r) eqn:ER].
      + destruct (Hsp _ Szm (Dm (IZR m) ltac:(lra)) (IZR S) ltac:(lra)) as (e & He & H4 & H5). eauto.
      + rewrite ET2, ET3. cbn [bind]. eexists. split; [reflexivity|].
        set (b := b0 + b1 * ln (IZR m)) in *. assert (Hb2 : 0 < b ^ 2) by nra.
        apply Rltb_true in ER.
        assert (Ho : IZR S = IZR m).
        { unfold S, stride. destruct o; [reflexivity|]. exfalso. unfold J, S, stride in EJ. lia. }
        assert (K : 0 < 1 / (1 / r * (a0 / b ^ 2 - a1 / b ^ 2 / r)) <= r * IZR m).
        { apply (table_value r (IZR m) _ _ (INR d + 1)); try lra.
          - apply Rlt_le. apply Rdiv_lt_0_compat; lra.
          - replace (IZR m * (a0 / b ^ 2 - a1 / b ^ 2 / (INR d + 1))) with (IZR m * (a0 - a1 / (INR d + 1)) / b ^ 2) by (field; lra).
            apply (Rmult_le_reg_r (b ^ 2)); [exact Hb2|]. unfold Rdiv at 1. rewrite Rmult_assoc, Rinv_l by lra. lra. }
        rewrite <- Ho, HrS in K.
        replace (1 / (1 / (b ^ 2 * r) * (a0 - a1 / r))) with (1 / (1 / r * (a0 / b ^ 2 - a1 / b ^ 2 / r))).
        * split; [apply K|intros _; apply K].
        * f_equal. field. lra.
      + rewrite ET3. cbn [bind]. apply Rltb_false in ER.
        assert (HF1 : 1 <= 100 / r). { apply (Rmult_le_reg_r r); [exact Hr|]. unfold Rdiv. rewrite Rmult_assoc, Rinv_l by lra. lra. }
        rewrite basicsum_ok; [|exact Hd|apply Dm; lra|lia|lra]. cbn [bind]. eexists. split; [reflexivity|].
        set (b := b0 + b1 * ln (IZR m)) in *. assert (Hb2 : 0 < b ^ 2) by nra.
        pose proof (sz0_flicker_pm _ _ HF1 eq_refl d Hd) as Hp.
        assert (Hbs : szf d (Some (100 / r)) 1 0 ^ 2 <= bsum 100 100 (100 / r) (Some (100 / r)) 1 d) by (apply bsum_ge; lia).
        assert (Hps : 0 < szf d (Some (100 / r)) 1 0 ^ 2) by (apply pow_lt; exact Hp).
        set (B := bsum 100 100 (100 / r) (Some (100 / r)) 1 d) in *. split.
        * replace (1 / (1 / (b ^ 2 * 100) * B)) with (b ^ 2 * 100 / B) by (field; split; [nra|lra]). apply Rdiv_lt_0_compat; nra.
        * intros Hn. exfalso. apply Hn. repeat split; try assumption. unfold r in ER. rewrite ED in ER. apply ratio_le in ER; lia. }
    assert (alpha = 2)%Z as -> by lia. cbn [Z.eqb Pos.eqb].
    assert (HK : (Z.of_nat d < ceilR r)%Z).
    { apply Z.lt_nge. intros C. apply ceilR_iff in C. apply Hx1. repeat split; try reflexivity. apply ratio_le in C; lia. }
    rewrite (proj2 (Z.leb_gt _ _) HK). eexists. split; [reflexivity|].
    apply ceilR_gt in HK. rewrite <- INR_IZR_INZ in HK.
    assert (Ha1 : 0 < INR d / 2 / r < 1 / 2).
    { split; [apply Rdiv_lt_0_compat; [|exact Hr]; assert (1 <= INR d) by (apply (le_INR 1); lia); lra|].
      apply (Rmult_lt_reg_r r); [exact Hr|]. unfold Rdiv at 1. rewrite Rmult_assoc, Rinv_l by lra. lra. }
    assert (Ha0 : 3 / 2 <= binom (4 * d) (2 * d) / binom (2 * d) d ^ 2).
    { destruct binom_values as (B1 & B2 & B3). assert (Hd' : d = 1%nat \/ d = 2%nat \/ d = 3%nat) by lia.
      destruct Hd' as [-> | [-> | ->]]; cbn [Nat.mul Nat.add]; [rewrite B1|rewrite B2|rewrite B3]; lra. }
    set (v := binom (4 * d) (2 * d) / binom (2 * d) d ^ 2 - INR d / 2 / r) in *. assert (Hv : 1 <= v) by (unfold v; lra).
    replace (1 / (1 / IZR M * v)) with (IZR M / v) by (field; lra).
    split; [apply Rdiv_lt_0_compat; lra|]. intros _. apply (Rmult_le_reg_r v); [lra|]. unfold Rdiv. rewrite Rmult_assoc, Rinv_l by lra. nra.
Qed.
