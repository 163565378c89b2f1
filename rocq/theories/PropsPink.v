(** * Correlations, Allan deviation and spectrum of noise.pink (C105).

    noise.iterpink (allantools/noise.py 168-208) says that "any continuous set of
    these samples will tend to have a 1/f power spectrum", i.e. that pink gives
    flicker noise, whose Allan deviation is the same at every averaging time. *)
From Coq Require Import String Reals List ZArith Bool Arith Lia Lra.
From Verif Require Import Base Num NpList NumR Spec ListFacts RSum Dft ModelCore ModelDev ModelNoise ModelNoiseR
  DevProofs TotProofs Laws2 Laws3 ConvProofs NoiseProofs PropsKasdin PropsPredict PropsExpect PropsDev PropsNoise PropsConv PropsLaws PropsBias PropsPsd CiProofs ColorProofs PropsColor.
Import ListNotations.
Local Open Scope R_scope.
Local Notation len := List.length.

(** ** Counting *)
Lemma count_in n a h : bigsum n (fun i => if (a <=? i)%nat && (i <? a + h)%nat then 1 else 0) = INR (Nat.min n (a + h)) - INR (Nat.min n a).
Proof.
  induction n as [|n IH]; [cbn; lra|]. cbn [bigsum]. rewrite IH.
  destruct (Nat.leb_spec a n), (Nat.ltb_spec n (a + h)); cbn [andb];
  [replace (Nat.min (S n) (a + h)) with (S (Nat.min n (a + h))) by lia; replace (Nat.min (S n) a) with (Nat.min n a) by lia; rewrite S_INR; lra|..];
  try (replace (Nat.min (S n) (a + h)) with (Nat.min n (a + h)) by lia; replace (Nat.min (S n) a) with (Nat.min n a) by lia; lra).
  - replace (Nat.min (S n) (a + h)) with (S (Nat.min n (a + h))) by lia; replace (Nat.min (S n) a) with (S (Nat.min n a)) by lia; rewrite !S_INR; lra.
Qed.
Lemma count_le n a h (f : nat -> R) : (forall i, (i < n)%nat -> f i = 0 \/ (f i = 1 /\ (a <= i < a + h)%nat)) -> bigsum n f <= INR h.
Proof.
  intros H. apply Rle_trans with (bigsum n (fun i => if (a <=? i)%nat && (i <? a + h)%nat then 1 else 0)).
  - apply bigsum_le. intros i Hi. destruct (H i Hi) as [->|[-> Hr]]; [destruct (_ && _)%bool; lra|].
    rewrite (proj2 (Nat.leb_le a i)), (proj2 (Nat.ltb_lt i (a + h))) by lia. cbn. lra.
  - rewrite count_in, <- minus_INR by lia. apply le_INR. lia.
Qed.
Lemma count_ge n a h (f : nat -> R) : (a + h <= n)%nat -> (forall i, (i < n)%nat -> 0 <= f i) -> (forall i, (a <= i < a + h)%nat -> 1 <= f i) -> INR h <= bigsum n f.
Proof.
  intros Hn H0 H1. apply Rle_trans with (bigsum n (fun i => if (a <=? i)%nat && (i <? a + h)%nat then 1 else 0)).
  - rewrite count_in, <- minus_INR by lia. apply le_INR. lia.
  - apply bigsum_le. intros i Hi. destruct (Nat.leb_spec a i), (Nat.ltb_spec i (a + h)); cbn [andb]; try now apply H0. now apply H1.
Qed.

(** ** When a slot is replaced *)
Lemma pow2_pos k : (1 <= 2 ^ k)%nat.
Proof. pose proof (Nat.pow_nonzero 2 k ltac:(lia)). lia. Qed.
Section Slots.
Variable depth : nat.
Hypothesis Hd : (1 <= depth)%nat.

Lemma mod_next t e : (t mod depth + e < depth)%nat -> ((t + e) mod depth = t mod depth + e)%nat.
Proof using Hd.
  intros H. rewrite (Nat.div_mod t depth) at 1 by lia. rewrite <- Nat.add_assoc, Nat.add_comm, Nat.mul_comm, Nat.mod_add by lia. now apply Nat.mod_small.
Qed.
Lemma mod_wrap t e : (depth <= t mod depth + e)%nat -> (e <= depth)%nat -> ((t + e) mod depth = t mod depth + e - depth)%nat.
Proof using Hd.
  intros H He. pose proof (Nat.mod_upper_bound t depth ltac:(lia)).
  assert (E : (t + e = (t mod depth + e - depth) + (t / depth + 1) * depth)%nat) by (pose proof (Nat.div_mod t depth ltac:(lia)); nia).
  rewrite E, Nat.mod_add by lia. apply Nat.mod_small. lia.
Qed.

(** a slot in use is replaced at least once in 3 2^k steps ... *)
Lemma replaced_soon k s : (2 ^ k < depth)%nat -> exists t, (s < t <= s + 3 * 2 ^ k)%nat /\ replaces depth k t.
Proof using Hd.
  intros Hk. pose proof (pow2_pos k) as P. pose proof (Nat.mod_upper_bound s depth ltac:(lia)) as Hr. set (r := (s mod depth)%nat) in *. set (h := (2 ^ k)%nat) in *.
  set (a := ((r + h) / (2 * h))%nat).
  assert (Ha : (r < (2 * a + 1) * h <= r + 2 * h)%nat).
  { pose proof (Nat.div_mod (r + h) (2 * h) ltac:(lia)) as D. pose proof (Nat.mod_upper_bound (r + h) (2 * h) ltac:(lia)) as B. fold a in D.
    replace ((2 * a + 1) * h)%nat with (2 * h * a + h)%nat by ring. lia. }
  destruct (le_lt_dec depth ((2 * a + 1) * h)) as [Hw|Hw].
  - exists (s + (depth - r + h))%nat. split; [lia|]. split; [lia|]. exists 0%nat. fold h.
    replace (s + (depth - r + h))%nat with ((s + (depth - r)) + h)%nat by lia.
    assert (E : ((s + (depth - r)) mod depth = 0)%nat) by (rewrite mod_wrap by (fold r; lia); fold r; lia).
    rewrite mod_next; rewrite E; lia.
  - exists (s + ((2 * a + 1) * h - r))%nat. split; [lia|]. split; [lia|]. exists a. fold h. rewrite mod_next by (fold r; lia). fold r. lia.
Qed.
(** ... and every depth steps *)
Lemma replaced_round k s : (2 ^ k < depth)%nat -> exists t, (s < t <= s + depth)%nat /\ replaces depth k t.
Proof using Hd.
  intros Hk. pose proof (pow2_pos k) as P. pose proof (Nat.mod_upper_bound s depth ltac:(lia)) as Hr. set (r := (s mod depth)%nat) in *. set (h := (2 ^ k)%nat) in *.
  destruct (le_lt_dec h r) as [Hw|Hw].
  - exists (s + (depth - r + h))%nat. split; [lia|]. split; [lia|]. exists 0%nat. fold h.
    replace (s + (depth - r + h))%nat with ((s + (depth - r)) + h)%nat by lia.
    assert (E : ((s + (depth - r)) mod depth = 0)%nat) by (rewrite mod_wrap by (fold r; lia); fold r; lia).
    rewrite mod_next; rewrite E; lia.
  - exists (s + (h - r))%nat. split; [lia|]. split; [lia|]. exists 0%nat. fold h. rewrite mod_next by (fold r; lia). fold r. lia.
Qed.
(** Times at which a slot k or higher is replaced are 2^k or more apart. *)
Definition high (k t : nat) : Prop := exists a, (1 <= a)%nat /\ (t mod depth = a * 2 ^ k)%nat.
Lemma high_apart k t t' : high k t -> high k t' -> (t < t')%nat -> (t + 2 ^ k <= t')%nat.
Proof using Hd.
  intros (a & Ha & Ea) (b & Hb & Eb) Ht. pose proof (pow2_pos k) as P. set (h := (2 ^ k)%nat) in *.
  destruct (le_lt_dec (t + h) t') as [|Hlt]; [assumption|exfalso]. set (e := (t' - t)%nat). assert (He : (0 < e < h)%nat) by (unfold e; lia).
  replace t' with (t + e)%nat in Eb by (unfold e; lia). pose proof (Nat.mod_upper_bound t depth ltac:(lia)) as Hr.
  destruct (le_lt_dec depth (t mod depth + e)) as [Hw|Hw].
  - rewrite mod_wrap in Eb by nia. nia.
  - rewrite mod_next in Eb by exact Hw. rewrite Ea in Eb. assert (b = a \/ (b >= a + 1)%nat \/ (b + 1 <= a)%nat) as [->|[H|H]] by lia; nia.
Qed.
Lemma replaces_high k k' t : (k <= k')%nat -> replaces depth k' t -> high k t.
Proof.
  intros Hk [_ (j & Hj)]. exists ((2 * j + 1) * 2 ^ (k' - k))%nat. pose proof (pow2_pos (k' - k)). split; [nia|].
  rewrite Hj, <- Nat.mul_assoc, <- Nat.pow_add_r. do 2 f_equal. lia.
Qed.
Lemma replaces_one k k' t : replaces depth k t -> replaces depth k' t -> k = k'.
Proof.
  intros [_ (i & Hi)] [_ (j & Hj)]. rewrite Hi in Hj. clear Hi.
  assert (G : forall a b p, ((2 * a + 1) * 2 ^ p = (2 * b + 1))%nat -> p = 0%nat).
  { intros a b [|p]; [reflexivity|]. cbn [Nat.pow]. intros H. exfalso. lia. }
  destruct (le_lt_dec k k') as [H|H].
  - replace k' with (k + (k' - k))%nat in Hj by lia. rewrite Nat.pow_add_r in Hj. pose proof (pow2_pos k).
    assert (E : ((2 * j + 1) * 2 ^ (k' - k) = 2 * i + 1)%nat) by nia. apply G in E. lia.
  - replace k with (k' + (k - k'))%nat in Hj by lia. rewrite Nat.pow_add_r in Hj. pose proof (pow2_pos k').
    assert (E : ((2 * i + 1) * 2 ^ (k - k') = 2 * j + 1)%nat) by nia. apply G in E. lia.
Qed.

(** ** Which deviates are equal *)
Lemma fresh_inj t t' : fresh depth t = fresh depth t' -> t = t'.
Proof using Hd.
  unfold fresh. intros H. pose proof (Nat.mod_upper_bound t depth ltac:(lia)). pose proof (Nat.mod_upper_bound t' depth ltac:(lia)).
  assert (t / depth = t' / depth)%nat by nia. rewrite (Nat.div_mod t depth), (Nat.div_mod t' depth) by lia. nia.
Qed.
Lemma extra_inj t t' : extra depth t = extra depth t' -> t = t'.
Proof using Hd.
  unfold extra. intros H. pose proof (Nat.mod_upper_bound t depth ltac:(lia)). pose proof (Nat.mod_upper_bound t' depth ltac:(lia)).
  assert (t / depth = t' / depth)%nat by nia. rewrite (Nat.div_mod t depth), (Nat.div_mod t' depth) by lia. nia.
Qed.
Lemma fresh_extra t t' : fresh depth t <> extra depth t'.
Proof using Hd.
  unfold fresh, extra. intros H. pose proof (Nat.mod_upper_bound t depth ltac:(lia)). pose proof (Nat.mod_upper_bound t' depth ltac:(lia)).
  set (a := (t / depth)%nat) in *. set (b := (t' / depth)%nat) in *. assert (2 + 2 * a = 1 + 2 * b \/ 2 + 2 * a < 1 + 2 * b \/ 1 + 2 * b < 2 + 2 * a)%nat as [E|[E|E]] by lia; [lia| |]; nia.
Qed.
Lemma fresh_big t : (depth <= fresh depth t)%nat.
Proof using Hd. unfold fresh. nia. Qed.
Lemma extra_big t : (depth <= extra depth t)%nat.
Proof using Hd. unfold extra. nia. Qed.

(** the slot at time t: the initial deviate or that of an earlier replacement *)
Lemma slot_src k t : (slot depth t k = k /\ forall u, (1 <= u <= t)%nat -> ~ replaces depth k u) \/
  exists u, (1 <= u <= t)%nat /\ replaces depth k u /\ slot depth t k = fresh depth u /\ forall v, (u < v <= t)%nat -> ~ replaces depth k v.
Proof using Hd.
  destruct (slot_holds depth t k Hd) as [(u & H1 & H2 & H3 & H4)|[H1 H2]].
  - right. exists u. split; [destruct H2; lia|]. split; [exact H2|]. split; [exact H3|exact H4].
  - left. split; [exact H1|]. intros u Hu. apply H2. lia.
Qed.
Lemma slot_other k k' t t' : (k < depth)%nat -> (k' < depth)%nat -> slot depth t k = slot depth t' k' -> k = k'.
Proof using Hd.
  intros Hk Hk' E. destruct (slot_src k t) as [[A _]|(u & _ & A & B & _)], (slot_src k' t') as [[C _]|(v & _ & C & D & _)]; rewrite ?A, ?B, ?C, ?D in E.
  - exact E.
  - pose proof (fresh_big v). lia.
  - pose proof (fresh_big u). lia.
  - apply fresh_inj in E as ->. now apply (replaces_one k k' v).
Qed.
Lemma slot_extra k t t' : (k < depth)%nat -> slot depth t k <> extra depth t'.
Proof using Hd.
  intros Hk E. destruct (slot_src k t) as [[A _]|(u & _ & A & B & _)]; rewrite ?A, ?B in E.
  - pose proof (extra_big t'). lia.
  - now apply fresh_extra in E.
Qed.
Lemma slot_same k i j : (k < depth)%nat -> (i <= j)%nat -> (slot depth i k = slot depth j k <-> forall t, (i < t <= j)%nat -> ~ replaces depth k t).
Proof using Hd.
  intros Hk Hij. split.
  - intros E t Ht R. destruct (slot_src k j) as [[_ N]|(u & Hu & A & B & N)]; [apply (N t); [lia|exact R]|].
    assert (t <= u)%nat by (destruct (le_lt_dec t u); [assumption|exfalso; apply (N t); [lia|exact R]]).
    destruct (slot_src k i) as [[C _]|(v & Hv & C & D & _)]; rewrite ?C, ?B, ?D in E.
    + pose proof (fresh_big u). lia.
    + apply fresh_inj in E. lia.
  - intros N. revert N. induction Hij as [|j Hij IH]; intros N; [reflexivity|]. rewrite IH by (intros; apply N; lia).
    destruct (slot_step depth j k Hd) as [[R _]|[_ E]]; [exfalso; apply (N (S j)); [lia|exact R]|now rewrite E].
Qed.
Lemma slot_lt k t : (k < depth)%nat -> (slot depth t k < 2 * t + 3 * depth)%nat.
Proof using Hd.
  intros Hk. destruct (slot_src k t) as [[-> _]|(u & Hu & _ & -> & _)]; [lia|]. unfold fresh.
  pose proof (Nat.mod_upper_bound u depth ltac:(lia)). pose proof (Nat.mul_div_le u depth ltac:(lia)). nia.
Qed.
Lemma extra_lt t : (extra depth t < 2 * t + 3 * depth)%nat.
Proof using Hd.
  unfold extra. pose proof (Nat.mod_upper_bound t depth ltac:(lia)). pose proof (Nat.mul_div_le t depth ltac:(lia)). nia.
Qed.
Lemma slot_frozen k t : (k < depth)%nat -> (depth <= 2 ^ k)%nat -> slot depth t k = k.
Proof using Hd. intros Hk Hp. apply (C65_frozen depth t k); [exact Hd|exact Hp|now apply slot_holds]. Qed.

(** the stretch during which a slot in use keeps its deviate *)
Lemma stretch k i : (k < depth)%nat -> (2 ^ k < depth)%nat -> exists u, (u <= i)%nat /\
  (forall j, slot depth j k = slot depth i k -> (u <= j < u + 3 * 2 ^ k)%nat) /\
  ((1 <= u)%nat -> forall j, (u <= j < u + 2 ^ k)%nat -> slot depth j k = slot depth i k).
Proof using Hd.
  intros Hk Hp. assert (G : exists u, (u <= i)%nat /\ ((1 <= u)%nat -> replaces depth k u) /\ (forall v, (u < v <= i)%nat -> ~ replaces depth k v)
    /\ forall j, slot depth j k = slot depth i k -> (u <= j)%nat).
  { destruct (slot_src k i) as [[A N]|(u & Hu & R & B & N)].
    - exists 0%nat. split; [lia|]. split; [lia|]. split; [intros v Hv; apply N; lia|lia].
    - exists u. split; [lia|]. split; [tauto|]. split; [exact N|]. intros j Ej. rewrite B in Ej.
      destruct (slot_src k j) as [[C _]|(v & Hv & _ & D & _)]; rewrite ?C, ?D in Ej; [pose proof (fresh_big u); lia|]. apply fresh_inj in Ej. lia. }
  destruct G as (u & Hu & R & N & L). assert (Eu : slot depth u k = slot depth i k) by now apply slot_same.
  exists u. split; [exact Hu|]. split.
  - intros j Ej. split; [now apply L|]. destruct (le_lt_dec (u + 3 * 2 ^ k) j) as [Hj|]; [exfalso|assumption].
    destruct (replaced_soon k u Hp) as (t & Ht & Rt). apply (proj1 (slot_same k u j Hk ltac:(lia)) ltac:(congruence) t); [lia|exact Rt].
  - intros U j Hj. rewrite <- Eu. symmetry. apply slot_same; [exact Hk|lia|]. intros t Ht Rt.
    pose proof (high_apart k u t (replaces_high k k u ltac:(lia) (R U)) (replaces_high k k t ltac:(lia) Rt) ltac:(lia)). lia.
Qed.
Lemma slot_between k i j l : (k < depth)%nat -> (i <= l <= j)%nat -> slot depth i k = slot depth j k -> slot depth l k = slot depth i k.
Proof using Hd.
  intros Hk Hl E. symmetry. apply slot_same; [exact Hk|lia|]. intros t Ht. apply (proj1 (slot_same k i j Hk ltac:(lia)) E). lia.
Qed.

(** At most two of the slots that stay longer than m are replaced in 2m samples. *)
Lemma few_changes m s k1 k2 k3 : (m < 2 ^ k1)%nat -> (k1 < k2)%nat -> (k2 < k3)%nat -> (k3 < depth)%nat ->
  slot depth s k1 <> slot depth (s + (2 * m - 1)) k1 -> slot depth s k2 <> slot depth (s + (2 * m - 1)) k2 ->
  slot depth s k3 <> slot depth (s + (2 * m - 1)) k3 -> False.
Proof using Hd.
  intros H1 H2 H3 Hk N1 N2 N3.
  assert (G : forall k, (k < depth)%nat -> slot depth s k <> slot depth (s + (2 * m - 1)) k -> exists t, (s < t <= s + (2 * m - 1))%nat /\ replaces depth k t).
  { intros k Hk' N. destruct (slot_src k (s + (2 * m - 1))) as [[A B]|(u & Hu & R & B & Nn)].
    - exfalso. apply N. apply slot_same; [exact Hk'|lia|]. intros t Ht. apply B. lia.
    - exists u. split; [|exact R]. destruct (le_lt_dec u s); [|lia]. exfalso. apply N. apply slot_same; [exact Hk'|lia|]. intros t Ht. apply Nn. lia. }
  destruct (G k1 ltac:(lia) N1) as (t1 & T1 & R1). destruct (G k2 ltac:(lia) N2) as (t2 & T2 & R2). destruct (G k3 Hk N3) as (t3 & T3 & R3).
  assert (D12 : t1 <> t2) by (intros ->; pose proof (replaces_one _ _ _ R1 R2); lia).
  assert (D13 : t1 <> t3) by (intros ->; pose proof (replaces_one _ _ _ R1 R3); lia).
  assert (D23 : t2 <> t3) by (intros ->; pose proof (replaces_one _ _ _ R2 R3); lia).
  pose proof (replaces_high k1 k1 t1 ltac:(lia) R1) as A1. pose proof (replaces_high k1 k2 t2 ltac:(lia) R2) as A2. pose proof (replaces_high k1 k3 t3 ltac:(lia) R3) as A3.
  assert (Q : forall x y, high k1 x -> high k1 y -> x <> y -> (x + 2 ^ k1 <= y \/ y + 2 ^ k1 <= x)%nat).
  { intros x y Hx Hy Hn. destruct (lt_dec x y); [left; now apply high_apart|right; apply high_apart; [assumption..|lia]]. }
  pose proof (Q _ _ A1 A2 D12). pose proof (Q _ _ A1 A3 D13). pose proof (Q _ _ A2 A3 D23). lia.
Qed.

(** ** The covariance *)
Definition pk (w : nat -> R) (t : nat) : R := bigsum depth (fun k => w (slot depth t k)) + w (extra depth t).
Definition sm (k i j : nat) : R := if Nat.eqb (slot depth i k) (slot depth j k) then 1 else 0.

Lemma iterpink_pk (w : nat -> R) t : iterpink w depth t = Ok (pk w t).
Proof using Hd.
  destruct (C65_value w depth t Hd) as (held & Hh & ->). unfold pk. do 2 f_equal. apply bigsum_ext. intros k Hk. f_equal.
  apply (holds_fun depth t k); [now apply Hh|now apply slot_holds].
Qed.
Lemma pink_tab (w : nat -> R) n : pink w n depth = Ok (tab n (pk w)).
Proof using Hd.
  unfold pink. unfold tab. generalize 0%nat. induction n as [|n IH]; intros a; [reflexivity|]. cbn [seq mapM map].
  rewrite iterpink_pk. cbn [bind]. now rewrite IH.
Qed.

Section Mean.
Variable T : nat.
Variable E : ((nat -> R) -> R) -> R.
Hypothesis HE : white T E.

Lemma cov_pk i j : (2 * i + 3 * depth <= T)%nat -> (2 * j + 3 * depth <= T)%nat ->
  E (fun w => pk w i * pk w j) = bigsum depth (fun k => sm k i j) + (if Nat.eqb i j then 1 else 0).
Proof using Hd HE.
  intros Hi Hj.
  rewrite (wh_ext _ E HE _ (fun w => (bigsum depth (fun k => bigsum depth (fun l => w (slot depth i k) * w (slot depth j l))) + bigsum depth (fun k => w (slot depth i k) * w (extra depth j)))
    + (bigsum depth (fun l => w (extra depth i) * w (slot depth j l)) + w (extra depth i) * w (extra depth j)))).
  2:{ intros w. unfold pk. rewrite (bigsum_ext depth (fun k => bigsum depth _) (fun k => w (slot depth i k) * bigsum depth (fun l => w (slot depth j l)))) by (intros; now rewrite bigsum_scal).
      rewrite bigsum_scal_r, bigsum_scal_r, bigsum_scal. ring. }
  rewrite (wh_add _ E HE (fun w => bigsum depth (fun k => bigsum depth (fun l => w (slot depth i k) * w (slot depth j l))) + bigsum depth (fun k => w (slot depth i k) * w (extra depth j)))
     (fun w => bigsum depth (fun l => w (extra depth i) * w (slot depth j l)) + w (extra depth i) * w (extra depth j))).
  rewrite (wh_add _ E HE (fun w => bigsum depth (fun k => bigsum depth (fun l => w (slot depth i k) * w (slot depth j l))))).
  rewrite (wh_add _ E HE (fun w => bigsum depth (fun l => w (extra depth i) * w (slot depth j l)))).
  rewrite (E_sum _ E HE depth (fun k w => bigsum depth (fun l => w (slot depth i k) * w (slot depth j l)))).
  rewrite (E_sum _ E HE depth (fun k w => w (slot depth i k) * w (extra depth j))).
  rewrite (E_sum _ E HE depth (fun l w => w (extra depth i) * w (slot depth j l))).
  pose proof (extra_lt i). pose proof (extra_lt j). rewrite (wh_cov _ E HE) by lia.
  rewrite (bigsum_0 depth (fun k => E (fun w => w (slot depth i k) * w (extra depth j)))).
  2:{ intros k Hk. pose proof (slot_lt k i Hk). rewrite (wh_cov _ E HE) by lia. now rewrite (proj2 (Nat.eqb_neq _ _) (slot_extra k i j Hk)). }
  rewrite (bigsum_0 depth (fun l => E (fun w => w (extra depth i) * w (slot depth j l)))).
  2:{ intros k Hk. pose proof (slot_lt k j Hk). rewrite (wh_cov _ E HE) by lia. now rewrite (proj2 (Nat.eqb_neq _ _) (fun H => slot_extra k j i Hk (eq_sym H))). }
  rewrite (bigsum_ext depth (fun k => E _) (fun k => sm k i j)).
  2:{ intros k Hk. rewrite (E_sum _ E HE depth (fun l w => w (slot depth i k) * w (slot depth j l))). rewrite (bigsum_only depth k _ Hk).
      2:{ intros l Hl Hn. pose proof (slot_lt k i Hk). pose proof (slot_lt l j Hl). rewrite (wh_cov _ E HE) by lia.
          rewrite (proj2 (Nat.eqb_neq _ _)); [reflexivity|]. intros Q. apply Hn. symmetry. now apply (slot_other k l i j). }
      pose proof (slot_lt k i Hk). pose proof (slot_lt k j Hk). rewrite (wh_cov _ E HE) by lia. reflexivity. }
  replace (if Nat.eqb (extra depth i) (extra depth j) then 1 else 0) with (if Nat.eqb i j then 1 else 0); [ring|].
  destruct (Nat.eqb_spec i j) as [->|N]; [now rewrite Nat.eqb_refl|]. rewrite (proj2 (Nat.eqb_neq _ _)); [reflexivity|]. intros Q. now apply extra_inj in Q.
Qed.

(** variance of a linear form of the samples s, ..., s+n-1 *)
Definition vk (k s n : nat) (c : nat -> R) : R := bigsum n (fun i => bigsum n (fun j => c i * c j * sm k (s + i) (s + j))).
Lemma var_pk s n (c : nat -> R) : (2 * (s + n) + 3 * depth <= T)%nat ->
  E (fun w => (bigsum n (fun i => c i * pk w (s + i))) ^ 2) = bigsum depth (fun k => vk k s n c) + bigsum n (fun i => c i ^ 2).
Proof using Hd HE.
  intros Hn.
  rewrite (wh_ext _ E HE _ (fun w => bigsum n (fun i => bigsum n (fun j => (c i * c j) * (pk w (s + i) * pk w (s + j)))))).
  2:{ intros w. cbn [pow]. rewrite Rmult_1_r, <- bigsum_scal_r. apply bigsum_ext. intros i Hi. rewrite <- bigsum_scal. apply bigsum_ext. intros j Hj. ring. }
  rewrite (E_sum _ E HE n (fun i w => bigsum n (fun j => (c i * c j) * (pk w (s + i) * pk w (s + j))))).
  rewrite (bigsum_ext n _ (fun i => bigsum depth (fun k => bigsum n (fun j => c i * c j * sm k (s + i) (s + j))) + c i ^ 2)).
  - rewrite bigsum_plus. f_equal. now rewrite bigsum_swap.
  - intros i Hi. rewrite (E_sum _ E HE n (fun j w => (c i * c j) * (pk w (s + i) * pk w (s + j)))).
    rewrite (bigsum_ext n _ (fun j => bigsum depth (fun k => c i * c j * sm k (s + i) (s + j)) + c i * c j * (if Nat.eqb i j then 1 else 0))).
    + rewrite bigsum_plus, (bigsum_pick n i (fun j => c i * c j)) by exact Hi. rewrite (bigsum_swap n depth). f_equal. ring.
    + intros j Hj. rewrite (wh_scal _ E HE (c i * c j) (fun w => pk w (s + i) * pk w (s + j))), cov_pk by lia. rewrite bigsum_scal.
      replace (Nat.eqb (s + i) (s + j)) with (Nat.eqb i j) by (destruct (Nat.eqb_spec i j), (Nat.eqb_spec (s + i) (s + j)); lia || reflexivity). ring.
Qed.
End Mean.

(** ** Bounds of one slot *)
Lemma sm_01 k i j : sm k i j = 0 \/ sm k i j = 1.
Proof using Type. unfold sm. destruct (Nat.eqb _ _); auto. Qed.
Lemma sm_sym k i j : sm k i j = sm k j i.
Proof using Type. unfold sm. now rewrite Nat.eqb_sym. Qed.
Lemma sm_1 k i j : slot depth i k = slot depth j k -> sm k i j = 1.
Proof using Type. intros H. unfold sm. now rewrite H, Nat.eqb_refl. Qed.
Lemma sm_eq k i j : sm k i j = 1 -> slot depth i k = slot depth j k.
Proof using Type. unfold sm. destruct (Nat.eqb_spec (slot depth i k) (slot depth j k)); [auto|lra]. Qed.

Lemma vk_nonneg k s n c : (k < depth)%nat -> 0 <= vk k s n c.
Proof using Hd.
  intros Hk. set (P := (2 * (s + n) + 3 * depth)%nat). set (e := fun p i => if Nat.eqb (slot depth (s + i) k) p then 1 else 0).
  replace (vk k s n c) with (bigsum P (fun p => (bigsum n (fun i => c i * e p i)) ^ 2)); [apply bigsum_nonneg; intros; apply pow2_ge_0|].
  unfold vk. rewrite (bigsum_ext P _ (fun p => bigsum n (fun i => bigsum n (fun j => c i * c j * (e p i * e p j))))).
  2:{ intros p Hp. cbn [pow]. rewrite Rmult_1_r, <- bigsum_scal_r. apply bigsum_ext. intros i Hi. rewrite <- bigsum_scal. apply bigsum_ext. intros j Hj. ring. }
  rewrite bigsum_swap. apply bigsum_ext. intros i Hi. rewrite bigsum_swap. apply bigsum_ext. intros j Hj. rewrite bigsum_scal. f_equal.
  unfold e. rewrite (bigsum_ext P _ (fun p => (if Nat.eqb (slot depth (s + j) k) p then 1 else 0) * (if Nat.eqb (slot depth (s + i) k) p then 1 else 0))) by (intros; ring).
  rewrite (bigsum_pick P (slot depth (s + i) k) (fun p => if Nat.eqb (slot depth (s + j) k) p then 1 else 0)) by (pose proof (slot_lt k (s + i) Hk); unfold P; lia).
  unfold sm. now rewrite Nat.eqb_sym.
Qed.

Lemma group_le k s n i : (k < depth)%nat -> (2 ^ k < depth)%nat -> bigsum n (fun j => sm k (s + i) (s + j)) <= INR (3 * 2 ^ k).
Proof using Hd.
  intros Hk Hp. destruct (stretch k (s + i) Hk Hp) as (u & Hu & L & _). apply (count_le n (u - s)). intros j Hj.
  destruct (sm_01 k (s + i) (s + j)) as [Q|Q]; [now left|right]. split; [exact Q|]. apply sm_eq, eq_sym, L in Q. lia.
Qed.
Lemma vk_le k s n c : (k < depth)%nat -> (2 ^ k < depth)%nat -> vk k s n c <= 3 * 2 ^ k * bigsum n (fun i => c i ^ 2).
Proof using Hd.
  intros Hk Hp. unfold vk. apply Rle_trans with (bigsum n (fun i => bigsum n (fun j => c i ^ 2 / 2 * sm k (s + i) (s + j) + c j ^ 2 / 2 * sm k (s + i) (s + j)))).
  - apply bigsum_le. intros i Hi. apply bigsum_le. intros j Hj. pose proof (pow2_ge_0 (c i - c j)). destruct (sm_01 k (s + i) (s + j)) as [->| ->]; nra.
  - rewrite (bigsum_ext n _ (fun i => bigsum n (fun j => c i ^ 2 / 2 * sm k (s + i) (s + j)) + bigsum n (fun j => c j ^ 2 / 2 * sm k (s + i) (s + j)))) by (intros; apply bigsum_plus).
    rewrite bigsum_plus. rewrite (bigsum_swap n n (fun i j => c j ^ 2 / 2 * sm k (s + i) (s + j))).
    rewrite (bigsum_ext n (fun j => bigsum n (fun i => c j ^ 2 / 2 * sm k (s + i) (s + j))) (fun i => bigsum n (fun j => c i ^ 2 / 2 * sm k (s + i) (s + j))))
      by (intros i Hi; apply bigsum_ext; intros j Hj; now rewrite sm_sym).
    rewrite <- bigsum_plus, <- bigsum_scal. apply bigsum_le. intros i Hi. rewrite !bigsum_scal. pose proof (group_le k s n i Hk Hp) as G.
    rewrite mult_INR, pow_INR in G. replace (INR 3) with 3 in G by (cbn; lra). change (INR 2) with 2 in G. pose proof (pow2_ge_0 (c i)).
    assert (c i ^ 2 * bigsum n (fun j => sm k (s + i) (s + j)) <= c i ^ 2 * (3 * 2 ^ k)) by now apply Rmult_le_compat_l. lra.
Qed.
(** a slot that keeps its deviate adds a constant *)
Lemma vk_still k s n c : (k < depth)%nat -> slot depth s k = slot depth (s + (n - 1)) k -> bigsum n c = 0 -> vk k s n c = 0.
Proof using Hd.
  intros Hk Hs Hc. unfold vk. apply bigsum_0. intros i Hi.
  rewrite (bigsum_ext n _ (fun j => c i * c j)).
  - rewrite bigsum_scal, Hc. ring.
  - intros j Hj. rewrite sm_1; [ring|]. rewrite (slot_between k s (s + (n - 1)) (s + i)), (slot_between k s (s + (n - 1)) (s + j)) by (assumption || lia). reflexivity.
Qed.
Lemma vk_frozen k s n c : (k < depth)%nat -> (depth <= 2 ^ k)%nat -> bigsum n c = 0 -> vk k s n c = 0.
Proof using Hd. intros Hk Hp Hc. apply vk_still; try assumption. now rewrite !slot_frozen. Qed.
End Slots.

(** ** Differences of adjacent averages *)
Definition sgn (m i : nat) : R := if (i <? m)%nat then -1 else 1.
Lemma sgn_sq m i : sgn m i ^ 2 = 1.
Proof. unfold sgn. destruct (_ <? _)%nat; ring. Qed.
Lemma sgn_pm m i : sgn m i = -1 \/ sgn m i = 1.
Proof. unfold sgn. destruct (_ <? _)%nat; auto. Qed.
Lemma sgn_sum m : bigsum (2 * m) (sgn m) = 0.
Proof.
  replace (2 * m)%nat with (m + m)%nat by lia. rewrite bigsum_add. rewrite (bigsum_ext m (sgn m) (fun _ => -1)), (bigsum_ext m (fun i => sgn m (m + i)) (fun _ => 1)).
  - rewrite !bigsum_const. ring.
  - intros i Hi. unfold sgn. now rewrite (proj2 (Nat.ltb_ge (m + i) m)) by lia.
  - intros i Hi. unfold sgn. now rewrite (proj2 (Nat.ltb_lt i m)) by lia.
Qed.

Lemma none_sum n (P : nat -> bool) : (forall a, (a < n)%nat -> P a = true -> False) -> bigsum n (fun k => if P k then 1 else 0) <= 0.
Proof.
  intros H. apply Req_le. apply bigsum_0. intros k Hk. destruct (P k) eqn:Q; [exfalso; now apply (H k)|reflexivity].
Qed.
Lemma one_sum n (P : nat -> bool) : (forall a b, (a < b)%nat -> (b < n)%nat -> P a = true -> P b = true -> False) -> bigsum n (fun k => if P k then 1 else 0) <= 1.
Proof.
  induction n as [|n IH]; intros H; cbn [bigsum]; [lra|]. destruct (P n) eqn:Q.
  - pose proof (none_sum n P ltac:(intros a Ha Pa; apply (H a n); auto)). lra.
  - pose proof (IH ltac:(intros a b Hab Hb; apply H; lia)). lra.
Qed.
Lemma two_sum n (P : nat -> bool) : (forall a b c, (a < b)%nat -> (b < c)%nat -> (c < n)%nat -> P a = true -> P b = true -> P c = true -> False) -> bigsum n (fun k => if P k then 1 else 0) <= 2.
Proof.
  induction n as [|n IH]; intros H; cbn [bigsum]; [lra|]. destruct (P n) eqn:Q.
  - pose proof (one_sum n P ltac:(intros a b Hab Hb Pa Pb; apply (H a b n); auto)). lra.
  - pose proof (IH ltac:(intros a b c Hab Hbc Hc; apply H; lia)). lra.
Qed.
(** sum of the powers of two up to m *)
Lemma pow_sum n m : (1 <= m)%nat -> bigsum n (fun k => if (2 ^ k <=? m)%nat then 2 ^ k else 0) <= 2 * INR m - 1.
Proof.
  intros Hm. assert (1 <= INR m) by (apply (le_INR 1); lia).
  assert (G : forall n, bigsum n (fun k => if (2 ^ k <=? m)%nat then 2 ^ k else 0) <= 2 ^ n - 1).
  { intros q. induction q as [|q IH]; cbn [bigsum pow]; [lra|]. pose proof (pow_lt 2 q ltac:(lra)). destruct (_ <=? _)%nat; lra. }
  induction n as [|n IH]; cbn [bigsum]; [lra|]. destruct (Nat.leb_spec (2 ^ n) m) as [Hn|Hn]; [|lra].
  apply le_INR in Hn. rewrite pow_INR in Hn. change (INR 2) with 2 in Hn. pose proof (G n). lra.
Qed.

Section Allan.
Variable depth : nat.
Hypothesis Hd : (1 <= depth)%nat.
Local Notation vk := (vk depth). Local Notation sm := (sm depth).
Local Notation dv m s := (bigsum depth (fun k => vk k s (2 * m) (sgn m))).

Lemma vk_twice k s m : vk k s (2 * m) (sgn m) <= 2 * INR m ^ 2.
Proof using Type.
  unfold PropsPink.vk. apply Rle_trans with (bigsum (2 * m) (fun i => bigsum (2 * m) (fun j => (1 + sgn m i * sgn m j) / 2))).
  - apply bigsum_le. intros i Hi. apply bigsum_le. intros j Hj.
    destruct (sm_01 depth k (s + i) (s + j)) as [->| ->], (sgn_pm m i) as [->| ->], (sgn_pm m j) as [->| ->]; lra.
  - apply Req_le. rewrite (bigsum_ext (2 * m) _ (fun i => INR m)).
    + rewrite bigsum_const, mult_INR. change (INR 2) with 2. ring.
    + intros i Hi. rewrite (bigsum_ext (2 * m) _ (fun j => / 2 + sgn m i / 2 * sgn m j)) by (intros; field). rewrite bigsum_plus, bigsum_scal, sgn_sum, bigsum_const, mult_INR. change (INR 2) with 2. field.
Qed.
Lemma sgn_sq_sum m n : bigsum n (fun i => sgn m i ^ 2) = INR n.
Proof using Type. rewrite (bigsum_ext n _ (fun _ => 1)) by (intros; apply sgn_sq). rewrite bigsum_const. ring. Qed.

Lemma dv_le m s : (1 <= m)%nat -> dv m s <= (2 * INR m ^ 2) * 8.
Proof using Hd.
  intros Hm. assert (1 <= INR m) by (apply (le_INR 1); lia).
  set (P := fun k => ((m <? 2 ^ k)%nat && negb (Nat.eqb (slot depth s k) (slot depth (s + (2 * m - 1)) k)))%bool).
  apply Rle_trans with (bigsum depth (fun k => 6 * INR m * (if (2 ^ k <=? m)%nat then 2 ^ k else 0) + 2 * INR m ^ 2 * (if P k then 1 else 0))).
  - apply bigsum_le. intros k Hk. unfold P. destruct (Nat.leb_spec (2 ^ k) m) as [Hp|Hp].
    + rewrite (proj2 (Nat.ltb_ge m (2 ^ k))) by exact Hp. cbn [andb]. destruct (le_lt_dec depth (2 ^ k)) as [Hf|Hf].
      * rewrite vk_frozen by (try assumption; apply sgn_sum). pose proof (pow_lt 2 k ltac:(lra)). nra.
      * pose proof (vk_le depth Hd k s (2 * m) (sgn m) Hk Hf) as G. rewrite sgn_sq_sum, mult_INR in G. change (INR 2) with 2 in G. lra.
    + rewrite (proj2 (Nat.ltb_lt m (2 ^ k))) by exact Hp. cbn [andb]. destruct (Nat.eqb_spec (slot depth s k) (slot depth (s + (2 * m - 1)) k)) as [Q|Q]; cbn [negb].
      * rewrite vk_still by (try assumption; apply sgn_sum). lra.
      * pose proof (vk_twice k s m). lra.
  - rewrite bigsum_plus, !bigsum_scal. pose proof (pow_sum depth m Hm) as A.
    assert (B : bigsum depth (fun k => if P k then 1 else 0) <= 2).
    { apply two_sum. intros a b c Hab Hbc Hc Pa Pb Pc. unfold P in *. apply andb_prop in Pa as (A1 & A2). apply andb_prop in Pb as (B1 & B2). apply andb_prop in Pc as (C1 & C2).
      apply Nat.ltb_lt in A1. apply negb_true_iff, Nat.eqb_neq in A2, B2, C2. now apply (few_changes depth Hd m s a b c). }
    apply (Rmult_le_compat_l (6 * INR m)) in A; [|lra]. apply (Rmult_le_compat_l (2 * INR m ^ 2)) in B; [|nra]. nra.
Qed.
Lemma slots_le s n c : bigsum n c = 0 -> bigsum depth (fun k => vk k s n c) <= 6 * INR depth * bigsum n (fun i => c i ^ 2).
Proof using Hd.
  intros Hc. assert (0 <= bigsum n (fun i => c i ^ 2)) by (apply bigsum_nonneg; intros; apply pow2_ge_0).
  apply Rle_trans with (bigsum depth (fun k => 3 * bigsum n (fun i => c i ^ 2) * (if (2 ^ k <=? depth)%nat then 2 ^ k else 0))).
  - apply bigsum_le. intros k Hk. destruct (le_lt_dec depth (2 ^ k)) as [Hf|Hf].
    + rewrite vk_frozen by assumption. pose proof (pow_lt 2 k ltac:(lra)). destruct (_ <=? _)%nat; nra.
    + rewrite (proj2 (Nat.leb_le (2 ^ k) depth)) by lia. pose proof (vk_le depth Hd k s n c Hk Hf). lra.
  - rewrite bigsum_scal. pose proof (pow_sum depth depth Hd) as A. apply (Rmult_le_compat_l (3 * bigsum n (fun i => c i ^ 2))) in A; nra.
Qed.

(** lower bound: inside each half, the stretches of slot k have 2^k or more samples *)
Lemma vk_ge k s m : (k < depth)%nat -> (2 ^ k < depth)%nat -> (6 * 2 ^ k <= m)%nat -> 2 ^ k * (2 * INR m - 12 * 2 ^ k) <= vk k s (2 * m) (sgn m).
Proof using Hd.
  intros Hk Hp Hm. set (h := (2 ^ k)%nat) in *. assert (Hh : (1 <= h)%nat) by apply pow2_pos.
  assert (HhR : INR h = 2 ^ k) by (unfold h; rewrite pow_INR; reflexivity).
  set (c := sgn m). set (e := (s + (m - 1))%nat). set (q := fun i => sm k (s + i) e). set (D := fun i => bigsum (2 * m) (fun j => c j * sm k (s + i) (s + j))).
  assert (E1 : vk k s (2 * m) c = bigsum (2 * m) (fun i => (1 - q i) * (c i * D i)) + (bigsum (2 * m) (fun i => q i * c i)) ^ 2).
  { replace ((bigsum (2 * m) (fun i => q i * c i)) ^ 2) with (bigsum (2 * m) (fun i => q i * (c i * D i))).
    - rewrite <- bigsum_plus. apply bigsum_ext. intros i Hi. unfold D. rewrite (bigsum_ext (2 * m) _ (fun j => c i * (c j * sm k (s + i) (s + j)))) by (intros; ring). rewrite bigsum_scal. ring.
    - cbn [pow]. rewrite Rmult_1_r, <- bigsum_scal_r. apply bigsum_ext. intros i Hi. destruct (sm_01 depth k (s + i) e) as [Q|Q]; unfold q at 1 2; rewrite Q; [ring|].
      apply sm_eq in Q. rewrite !Rmult_1_l. f_equal. unfold D. apply bigsum_ext. intros j Hj. unfold q, PropsPink.sm. rewrite Q, Nat.eqb_sym. ring. }
  rewrite E1. pose proof (pow2_ge_0 (bigsum (2 * m) (fun i => q i * c i))) as S0.
  (* away from the stretch in the middle, every sample of a stretch has the same sign *)
  assert (E2 : forall i, (i < 2 * m)%nat -> q i = 0 -> c i * D i = bigsum (2 * m) (fun j => sm k (s + i) (s + j))).
  { intros i Hi Q. unfold D. rewrite <- bigsum_scal. apply bigsum_ext. intros j Hj. destruct (sm_01 depth k (s + i) (s + j)) as [R0|R1]; [rewrite R0; ring|rewrite R1].
    apply sm_eq in R1. assert (N : sm k (s + i) e <> 1) by (fold (q i); rewrite Q; lra).
    unfold c, sgn. destruct (Nat.ltb_spec i m) as [Li|Li], (Nat.ltb_spec j m) as [Lj|Lj]; try ring; exfalso; apply N; apply sm_1; unfold e.
    - symmetry. apply (slot_between depth Hd k (s + i) (s + j)); [assumption|lia|assumption].
    - rewrite R1. symmetry. apply (slot_between depth Hd k (s + j) (s + i)); [assumption|lia|now symmetry]. }
  assert (E3 : forall i, (3 * h <= i)%nat -> (i + 3 * h <= 2 * m)%nat -> INR h <= bigsum (2 * m) (fun j => sm k (s + i) (s + j))).
  { intros i H1 H2. destruct (stretch depth Hd k (s + i) Hk Hp) as (u & Hu & L & F). fold h in L, F. pose proof (L (s + i)%nat eq_refl) as Li.
    apply (count_ge (2 * m) (u - s)); [lia|intros j _; destruct (sm_01 depth k (s + i) (s + j)); lra|].
    intros j Hj. rewrite sm_1; [lra|]. symmetry. apply F; lia. }
  assert (E4 : forall i, ((3 * h <= i /\ i + 3 * h < m) \/ (m + 3 * h <= i + 1 /\ i + 3 * h <= 2 * m))%nat -> q i = 0).
  { intros i Hi. destruct (sm_01 depth k (s + i) e) as [Q|Q]; [exact Q|exfalso]. apply sm_eq in Q. unfold e in *. destruct Hi as [Hi|Hi].
    - destruct (replaced_soon depth Hd k (s + i) Hp) as (t & Ht & Rt). fold h in Ht. apply (proj1 (slot_same depth Hd k (s + i) (s + (m - 1)) Hk ltac:(lia)) Q t); [lia|exact Rt].
    - destruct (replaced_soon depth Hd k (s + (m - 1)) Hp) as (t & Ht & Rt). fold h in Ht. apply (proj1 (slot_same depth Hd k (s + (m - 1)) (s + i) Hk ltac:(lia)) (eq_sym Q) t); [lia|exact Rt]. }
  assert (E5 : INR h * INR (m - 6 * h) + INR h * INR (m - 6 * h) <= bigsum (2 * m) (fun i => (1 - q i) * (c i * D i))).
  { assert (P0 : forall i, (i < 2 * m)%nat -> 0 <= (1 - q i) * (c i * D i)).
    { intros i Hi. destruct (sm_01 depth k (s + i) e) as [Q|Q]; fold (q i) in Q; [|rewrite Q; lra]. rewrite E2 by assumption. rewrite Q.
      apply Rmult_le_pos; [lra|]. apply bigsum_nonneg. intros j _. destruct (sm_01 depth k (s + i) (s + j)); lra. }
    assert (P1 : forall i, (i < 2 * m)%nat -> ((3 * h <= i /\ i + 3 * h < m) \/ (m + 3 * h <= i + 1 /\ i + 3 * h <= 2 * m))%nat -> INR h <= (1 - q i) * (c i * D i)).
    { intros i Hi Hr. pose proof (E4 i Hr) as Q. rewrite E2 by assumption. rewrite Q. pose proof (E3 i ltac:(lia) ltac:(lia)). lra. }
    assert (Hh0 : 0 < INR h) by (apply lt_0_INR; lia).
    assert (G : forall n a l (f : nat -> R), (a + l <= n)%nat -> (forall i, (i < n)%nat -> 0 <= f i) -> (forall i, (a <= i < a + l)%nat -> INR h <= f i) -> INR h * INR l <= bigsum n f).
    { intros n a l f Hn F0 F1. replace (bigsum n f) with (INR h * bigsum n (fun i => f i / INR h)) by (rewrite <- bigsum_scal; apply bigsum_ext; intros; field; lra).
      apply Rmult_le_compat_l; [lra|]. apply (count_ge n a); [exact Hn| |].
      - intros i Hi. apply Rmult_le_pos; [now apply F0|]. left. now apply Rinv_0_lt_compat.
      - intros i Hi. apply (Rmult_le_reg_r (INR h)); [lra|]. unfold Rdiv. rewrite Rmult_assoc, Rinv_l by lra. pose proof (F1 i Hi). lra. }
    replace (2 * m)%nat with (m + m)%nat in * by lia. rewrite bigsum_add. apply Rplus_le_compat.
    - apply (G m (3 * h)%nat); [lia|intros; apply P0; lia|intros; apply P1; lia].
    - apply (G m (3 * h)%nat); [lia|intros; apply P0; lia|intros; apply P1; lia]. }
  rewrite minus_INR, mult_INR, HhR in E5 by lia. replace (INR 6) with 6 in E5 by (cbn; lra). lra.
Qed.

Lemma dv_ge m s K : (6 * 2 ^ K <= m)%nat -> (m <= depth)%nat -> 4 * INR m * 2 ^ K - 16 * (2 ^ K) ^ 2 - 2 * INR m <= dv m s.
Proof using Hd.
  intros HK Hm. assert (HKd : (K < depth)%nat) by (pose proof (Nat.pow_gt_lin_r 2 K ltac:(lia)); lia).
  apply Rle_trans with (bigsum (S K) (fun k => vk k s (2 * m) (sgn m))).
  - apply Rle_trans with (bigsum (S K) (fun k => 2 ^ k * (2 * INR m - 12 * 2 ^ k))).
    + assert (G : forall q, 4 * INR m * 2 ^ q - 16 * (2 ^ q) ^ 2 - 2 * INR m <= bigsum (S q) (fun k => 2 ^ k * (2 * INR m - 12 * 2 ^ k))).
      { intros q. induction q as [|q IH]; [cbn; lra|]. change (bigsum (S (S q)) ?f) with (bigsum (S q) f + f (S q)). cbn [pow] in *. nra. }
      apply G.
    + apply bigsum_le. intros k Hk. pose proof (Nat.pow_le_mono_r 2 k K ltac:(lia) ltac:(lia)). pose proof (pow2_pos K). apply vk_ge; lia.
  - replace (dv m s) with (bigsum (S K + (depth - S K)) (fun k => vk k s (2 * m) (sgn m))) by (f_equal; lia). rewrite bigsum_add.
    assert (0 <= bigsum (depth - S K) (fun i => vk (S K + i) s (2 * m) (sgn m))) by (apply bigsum_nonneg; intros i Hi; apply vk_nonneg; lia). lra.
Qed.
End Allan.

(** ** The properties *)

(** value number i of the generator *)
Definition out (depth : nat) (w : nat -> R) (i : nat) : R := match iterpink w depth i with Ok v => v | Err _ => 0 end.

Lemma count_list n (P : nat -> bool) : exists L, NoDup L /\ (forall k, In k L <-> (k < n)%nat /\ P k = true) /\ bigsum n (fun k => if P k then 1 else 0) = INR (len L).
Proof.
  exists (filter P (seq 0 n)). split; [apply NoDup_filter, seq_NoDup|]. split.
  - intros k. rewrite filter_In, in_seq. intuition lia.
  - induction n as [|n IH]; [reflexivity|]. cbn [bigsum]. rewrite seq_S, filter_app, app_length, plus_INR, IH. f_equal. cbn. now destruct (P n).
Qed.
Lemma log2_up_spec' d k : (1 <= d)%nat -> (2 ^ k < d <-> k < Nat.log2_up d)%nat.
Proof. intros Hd. symmetry. split; intros H; [now apply Nat.log2_up_lt_pow2|apply Nat.log2_up_lt_pow2; [lia|exact H]]. Qed.

(** The product of two outputs has as mean the number of slots not replaced in
    between; an output has variance depth + 1. *)
Theorem C105_covariance T E depth i j : white T E -> (1 <= depth)%nat -> (i <= j)%nat -> (2 * j + 3 * depth <= T)%nat ->
  exists L, NoDup L /\ (forall k, In k L <-> (k < depth)%nat /\ forall t, (i < t <= j)%nat -> ~ replaces depth k t) /\
    E (fun w => out depth w i * out depth w j) = INR (len L) + (if Nat.eqb i j then 1 else 0).
Proof.
  intros HE Hd Hij HT. destruct (count_list depth (fun k => Nat.eqb (slot depth i k) (slot depth j k))) as (L & N & HL & Hs). exists L. split; [exact N|]. split.
  - intros k. rewrite HL, Nat.eqb_eq. split; intros (H1 & H2); (split; [exact H1|]); apply (slot_same depth Hd k i j H1 Hij); exact H2.
  - rewrite (wh_ext _ E HE _ (fun w => pk depth w i * pk depth w j)) by (intros w; unfold out; now rewrite !iterpink_pk by exact Hd).
    rewrite (cov_pk depth Hd T E HE) by lia. now rewrite <- Hs.
Qed.
Print Assumptions C105_covariance.

(** From depth samples on the mean of the product is that of the slots which are
    never replaced, a constant: no correlation is left. *)
Theorem C105_far T E depth i j : white T E -> (1 <= depth)%nat -> (i + depth <= j)%nat -> (2 * j + 3 * depth <= T)%nat ->
  E (fun w => out depth w i * out depth w j) = INR (depth - Nat.log2_up depth).
Proof.
  intros HE Hd Hij HT. rewrite (wh_ext _ E HE _ (fun w => pk depth w i * pk depth w j)) by (intros w; unfold out; now rewrite !iterpink_pk by exact Hd).
  rewrite (cov_pk depth Hd T E HE) by lia. rewrite (proj2 (Nat.eqb_neq i j)) by lia.
  rewrite (bigsum_ext depth _ (fun k => if (Nat.log2_up depth <=? k)%nat && (k <? Nat.log2_up depth + depth)%nat then 1 else 0)).
  - assert (Nat.log2_up depth <= depth)%nat by (destruct (Nat.eq_dec depth 1) as [->|]; [cbn; lia|]; pose proof (Nat.log2_up_lt_lin depth); lia).
    rewrite count_in. rewrite Nat.min_l, Nat.min_r by lia. rewrite minus_INR by lia. lra.
  - intros k Hk. rewrite (proj2 (Nat.ltb_lt k (Nat.log2_up depth + depth))), andb_true_r by lia. unfold sm. destruct (Nat.leb_spec (Nat.log2_up depth) k) as [H|H].
    + rewrite !slot_frozen; [now rewrite Nat.eqb_refl|..]; try exact Hd; try exact Hk; apply Nat.nlt_ge; rewrite log2_up_spec' by exact Hd; lia.
    + rewrite (proj2 (Nat.eqb_neq _ _)); [reflexivity|]. intros Q. apply log2_up_spec' in H; [|exact Hd].
      destruct (replaced_round depth Hd k i H) as (t & Ht & Rt). apply (proj1 (slot_same depth Hd k i j Hk ltac:(lia)) Q t); [lia|exact Rt].
Qed.
Print Assumptions C105_far.

Lemma d2_integrated (y : list R) rate m i : (i + 2 * m <= len y)%nat -> rate <> 0 ->
  d2 (integrated y rate) m i = bigsum (2 * m) (fun j => sgn m j * y.[i + j]) / rate.
Proof.
  intros Hl Hr. unfold d2. rewrite !nth_integrated by lia. replace (2 * m)%nat with (m + m)%nat by lia. rewrite Nat.add_assoc.
  rewrite !bigsum_add. rewrite (bigsum_ext m (fun j => sgn m j * y.[i + j]) (fun j => -1 * y.[i + j])) by
    (intros j Hj; unfold sgn; now rewrite (proj2 (Nat.ltb_lt j m)) by exact Hj).
  rewrite (bigsum_ext m (fun j => sgn m (m + j) * y.[i + (m + j)]) (fun j => y.[i + m + j])) by
    (intros j Hj; unfold sgn; rewrite (proj2 (Nat.ltb_ge (m + j) m)) by lia; rewrite Nat.add_assoc; ring).
  rewrite bigsum_scal. field. exact Hr.
Qed.
Lemma shifted_0 x : shifted (line 0 0) x = x.
Proof.
  unfold shifted. transitivity (tab (len x) (fun i => x.[i])); [|symmetry; apply list_tab]. unfold tab. apply map_ext. intros i. unfold line. ring.
Qed.

Lemma mean_between lo hi q (f : nat -> R) : (1 <= q)%nat -> (forall i, (i < q)%nat -> lo <= f i <= hi) -> lo <= bigsum q f / INR q <= hi.
Proof.
  intros Hq H. assert (0 < INR q) by (apply lt_0_INR; lia).
  assert (A : INR q * lo <= bigsum q f) by (rewrite <- bigsum_const; apply bigsum_le; intros; now apply H).
  assert (B : bigsum q f <= INR q * hi) by (rewrite <- bigsum_const; apply bigsum_le; intros; now apply H).
  split; apply (Rmult_le_reg_r (INR q)); try lra; unfold Rdiv; rewrite Rmult_assoc, Rinv_l by lra; lra.
Qed.
Section Reported.
Variables (T : nat) (E : ((nat -> R) -> R) -> R) (depth n m : nat) (rate : R).
Hypothesis HE : white T E.
Hypothesis Hd : (1 <= depth)%nat.
Hypothesis HT : (2 * n + 3 * depth <= T)%nat.
Hypothesis Hr : 0 < rate.
Hypothesis Hm : (1 <= m)%nat.
Hypothesis Hn : (3 * m <= n)%nat.
Local Notation wv s := ((bigsum depth (fun k => vk depth k s (2 * m) (sgn m)) + 2 * INR m) / (2 * INR m ^ 2)).
Local Notation M f := (mean_of E (fun w => pink w n depth) (reported f rate m)).
Local Notation rec w := (integrated (tab n (pk depth w)) rate).

Lemma E_d2 s : (s + 2 * m <= n)%nat -> E (fun w => d2 (rec w) m s ^ 2) = wv s * (2 * INR m ^ 2 / rate ^ 2).
Proof using All.
  intros Hs. assert (0 < INR m) by (apply lt_0_INR; lia).
  rewrite (wh_ext _ E HE _ (fun w => / rate ^ 2 * (bigsum (2 * m) (fun i => sgn m i * pk depth w (s + i))) ^ 2)).
  - rewrite (wh_scal _ E HE), (var_pk depth Hd T E HE) by lia. rewrite sgn_sq_sum, mult_INR. change (INR 2) with 2. field. split; lra.
  - intros w. rewrite d2_integrated by (rewrite ?tab_length; lia || lra). rewrite (bigsum_ext (2 * m) (fun j => sgn m j * (tab n (pk depth w)).[s + j]) (fun i => sgn m i * pk depth w (s + i)))
      by (intros j Hj; now rewrite nth_tab by lia). field. lra.
Qed.
Lemma tau0_ne : INR m * (1 / rate) <> 0.
Proof using All. assert (0 < INR m) by (apply lt_0_INR; lia). apply Rgt_not_eq, Rmult_lt_0_compat; [lra|]. unfold Rdiv. rewrite Rmult_1_l. now apply Rinv_0_lt_compat. Qed.
Lemma reported_pk f V : In f [adev; oadev] -> (forall w, 0 <= V (rec w)) ->
  (forall w, exists t e q, f (rec w) rate "phase"%string (TList [INR m / rate]) = Ok (t, [sqrt (V (rec w))], e, q)) -> M f = E (fun w => V (rec w)).
Proof using All.
  intros Hf H0 H. unfold mean_of. apply (wh_ext _ E HE). intros w. rewrite pink_tab by exact Hd.
  rewrite (reported_record f n _ (rec w) rate m 0 0); [|cbn in *; tauto|lia|exact Hr|apply tab_length|now rewrite shifted_0].
  destruct (H w) as (t & e & q & ->). unfold dev2. apply pow2_sqrt, H0.
Qed.
Lemma M_oadev : M oadev = bigsum (n + 1 - 2 * m) (fun s => wv s) / INR (n + 1 - 2 * m).
Proof using All.
  assert (Hmp : 0 < INR m) by (apply lt_0_INR; lia). assert (Hc : 0 < INR (n + 1 - 2 * m)) by (apply lt_0_INR; lia). pose proof tau0_ne as H0.
  assert (L : forall w, oadev_n (rec w) m = (n + 1 - 2 * m)%nat) by (intros w; unfold oadev_n; rewrite integrated_len, tab_length; lia).
  rewrite (reported_pk oadev (fun x => oavar x (1 / rate) m)); [|cbn; tauto|intros; apply oavar_nonneg|
    intros w; rewrite oadev_single by (try assumption; rewrite integrated_len, tab_length; lia); do 3 eexists; reflexivity].
  rewrite (wh_ext _ E HE _ (fun w => / (2 * (INR m * (1 / rate)) ^ 2 * INR (n + 1 - 2 * m)) * bigsum (n + 1 - 2 * m) (fun i => d2 (rec w) m i ^ 2))) by (intros w; unfold oavar; now rewrite L).
  rewrite (wh_scal _ E HE), (E_sum _ E HE _ (fun i w => d2 (rec w) m i ^ 2)).
  rewrite (bigsum_ext _ _ (fun s => wv s * (2 * INR m ^ 2 / rate ^ 2))) by (intros s Hs; apply E_d2; lia). rewrite bigsum_scal_r. field. repeat split; lra.
Qed.
Lemma M_adev : M adev = bigsum (n / m - 1) (fun k => wv (k * m)) / INR (n / m - 1).
Proof using All.
  assert (Hmp : 0 < INR m) by (apply lt_0_INR; lia). assert (H3 : (3 <= n / m)%nat) by (apply Nat.div_le_lower_bound; lia).
  assert (Hc : 0 < INR (n / m - 1)) by (apply lt_0_INR; lia). pose proof tau0_ne as H0.
  assert (L : forall w, adev_n (rec w) m = (n / m - 1)%nat) by (intros w; unfold adev_n; rewrite integrated_len, tab_length; do 2 f_equal; lia).
  rewrite (reported_pk adev (fun x => avar x (1 / rate) m)); [|cbn; tauto|intros; apply avar_nonneg|
    intros w; rewrite adev_single; [do 3 eexists; reflexivity|exact Hr|rewrite integrated_len, tab_length; lia|rewrite L; lia]].
  rewrite (wh_ext _ E HE _ (fun w => / (2 * INR (n / m - 1) * (INR m * (1 / rate)) ^ 2) * bigsum (n / m - 1) (fun k => d2 (rec w) m (k * m) ^ 2))) by (intros w; unfold avar; now rewrite L).
  rewrite (wh_scal _ E HE), (E_sum _ E HE _ (fun k w => d2 (rec w) m (k * m) ^ 2)).
  rewrite (bigsum_ext _ _ (fun k => wv (k * m) * (2 * INR m ^ 2 / rate ^ 2))).
  - rewrite bigsum_scal_r. field. repeat split; lra.
  - intros k Hk. apply E_d2. pose proof (Nat.mul_div_le n m ltac:(lia)). nia.
Qed.
Lemma M_between f lo hi : In f [adev; oadev] -> (forall s, lo <= wv s <= hi) -> lo <= M f <= hi.
Proof using All.
  intros Hf H. assert (H3 : (3 <= n / m)%nat) by (apply Nat.div_le_lower_bound; lia).
  destruct Hf as [<-|[<-|[]]]; [rewrite M_adev|rewrite M_oadev]; apply mean_between; try lia; intros; apply H.
Qed.
End Reported.

(** Up to tau = depth samples the mean Allan variance is that of a flicker floor:
    between 1/9 and 9 whatever tau, the depth, the record and the rate ... *)
Theorem C105_floor T E depth n m rate f : white T E -> In f [adev; oadev] -> 0 < rate -> (1 <= m <= depth)%nat -> (3 * m <= n)%nat -> (2 * n + 3 * depth <= T)%nat ->
  1 / 9 <= mean_of E (fun w => pink w n depth) (reported f rate m) <= 9.
Proof.
  intros HE Hf Hr Hm Hn HT. assert (Hd : (1 <= depth)%nat) by lia. assert (Hm1 : 1 <= INR m) by (apply (le_INR 1); lia).
  apply (M_between T); try assumption; try lia. intros s. assert (Hq : 0 < 2 * INR m ^ 2) by nra. split.
  - apply (Rmult_le_reg_r (2 * INR m ^ 2)); [lra|]. unfold Rdiv at 2. rewrite Rmult_assoc, Rinv_l by lra.
    destruct (le_lt_dec 6 m) as [H6|H6].
    + set (K := Nat.log2 (m / 6)). assert (H1 : (0 < m / 6)%nat) by (apply Nat.div_str_pos; lia). pose proof (Nat.log2_spec (m / 6) H1) as (A & B). fold K in A, B.
      assert (A' : (6 * 2 ^ K <= m)%nat) by (pose proof (Nat.mul_div_le m 6); lia).
      assert (B' : (m < 12 * 2 ^ K)%nat) by (pose proof (Nat.mul_succ_div_gt m 6); cbn [Nat.pow] in B; lia).
      pose proof (dv_ge depth Hd m s K A' ltac:(lia)) as G. apply le_INR in A'. apply lt_INR in B'. rewrite mult_INR, pow_INR in A', B'.
      replace (INR 6) with 6 in A' by (cbn; lra). replace (INR 12) with 12 in B' by (cbn; lra). change (INR 2) with 2 in A', B'.
      assert (0 <= (INR m - 6 * 2 ^ K) * (12 * 2 ^ K - INR m)) by (apply Rmult_le_pos; lra). set (h := 2 ^ K) in *. nra.
    + assert (INR m <= 5) by (replace 5 with (INR 5) by (cbn; lra); apply le_INR; lia).
      assert (0 <= bigsum depth (fun k => vk depth k s (2 * m) (sgn m))) by (apply bigsum_nonneg; intros; now apply vk_nonneg). nra.
  - apply (Rmult_le_reg_r (2 * INR m ^ 2)); [lra|]. unfold Rdiv. rewrite Rmult_assoc, Rinv_l by lra. pose proof (dv_le depth Hd m s ltac:(lia)). nra.
Qed.
Print Assumptions C105_floor.

(** ... but beyond it falls as 1/tau, like white frequency noise. *)
Theorem C105_tail T E depth n m rate f : white T E -> In f [adev; oadev] -> 0 < rate -> (1 <= depth)%nat -> (1 <= m)%nat -> (3 * m <= n)%nat -> (2 * n + 3 * depth <= T)%nat ->
  1 / INR m <= mean_of E (fun w => pink w n depth) (reported f rate m) <= (6 * INR depth + 1) / INR m.
Proof.
  intros HE Hf Hr Hd Hm Hn HT. assert (Hm1 : 1 <= INR m) by (apply (le_INR 1); lia).
  apply (M_between T); try assumption; try lia. intros s.
  assert (A : 0 <= bigsum depth (fun k => vk depth k s (2 * m) (sgn m))) by (apply bigsum_nonneg; intros; now apply vk_nonneg).
  pose proof (slots_le depth Hd s (2 * m) (sgn m) (sgn_sum m)) as B. rewrite sgn_sq_sum, mult_INR in B. change (INR 2) with 2 in B.
  assert (Hq : 0 < INR m ^ 2) by nra.
  set (X := bigsum depth (fun k => vk depth k s (2 * m) (sgn m))) in *.
  replace (1 / INR m) with (2 * INR m / (2 * INR m ^ 2)) by (field; lra). replace ((6 * INR depth + 1) / INR m) with ((6 * INR depth + 1) * (2 * INR m) / (2 * INR m ^ 2)) by (field; lra).
  assert (0 < / (2 * INR m ^ 2)) by (apply Rinv_0_lt_compat; lra). split; apply Rmult_le_compat_r; lra.
Qed.
Print Assumptions C105_tail.

(** So the flicker floor claimed by the docstring is not there at long averaging times. *)
Theorem C105_floor_refuted depth eps : (1 <= depth)%nat -> 0 < eps -> exists m0, forall T E n m rate f,
  white T E -> In f [adev; oadev] -> 0 < rate -> (m0 <= m)%nat -> (3 * m <= n)%nat -> (2 * n + 3 * depth <= T)%nat ->
  mean_of E (fun w => pink w n depth) (reported f rate m) < eps.
Proof.
  intros Hd He. exists (S (Z.to_nat (up ((6 * INR depth + 1) / eps)))). intros T E n m rate f HE Hf Hr Hm Hn HT.
  eapply Rle_lt_trans; [apply (C105_tail T E depth n m rate f); (assumption || lia)|].
  assert (0 < INR m) by (apply lt_0_INR; lia). apply (Rmult_lt_reg_r (INR m)); [lra|]. unfold Rdiv. rewrite Rmult_assoc, Rinv_l by lra.
  assert (0 <= INR depth) by apply pos_INR. assert (P : 0 < (6 * INR depth + 1) / eps) by (apply Rmult_lt_0_compat; [lra|now apply Rinv_0_lt_compat]).
  destruct (archimed ((6 * INR depth + 1) / eps)) as (A & _). assert (Z0 : (0 <= up ((6 * INR depth + 1) / eps))%Z) by (apply le_IZR; cbn; lra).
  assert (B : IZR (up ((6 * INR depth + 1) / eps)) <= INR m) by (rewrite <- (Z2Nat.id _ Z0), <- INR_IZR_INZ; apply le_INR; lia).
  assert (C : (6 * INR depth + 1) / eps < INR m) by lra. apply (Rmult_lt_compat_r eps) in C; [|lra]. unfold Rdiv in C. rewrite Rmult_assoc, Rinv_l in C by lra. lra.
Qed.
Print Assumptions C105_floor_refuted.

(** The periodogram is bounded whatever the length of the record. *)
Theorem C105_psd T E depth n k fs : white T E -> (1 <= depth)%nat -> 0 < fs -> (1 <= k)%nat -> (k <= n / 2)%nat -> (2 * n + 3 * depth <= T)%nat ->
  2 / fs <= mean_of E (fun w => pink w n depth) (psd_at fs k) <= 2 * (6 * INR depth + 1) / fs.
Proof.
  intros HE Hd Hf Hk Hkn HT. assert (Hn : (2 * k <= n)%nat) by (pose proof (Nat.mul_div_le n 2); lia). assert (Hnp : 0 < INR n) by (apply lt_0_INR; lia).
  set (C := fun i => cos (INR i * phi n k)). set (S := fun i => sin (INR i * phi n k)).
  assert (Q : mean_of E (fun w => pink w n depth) (psd_at fs k) = 2 / (INR n * fs) *
    ((bigsum depth (fun l => vk depth l 0 n C) + bigsum n (fun i => C i ^ 2)) + (bigsum depth (fun l => vk depth l 0 n S) + bigsum n (fun i => S i ^ 2)))).
  { unfold mean_of. rewrite (wh_ext _ E HE _ (fun w => 2 / (INR n * fs) * ((bigsum n (fun i => C i * pk depth w (0 + i))) ^ 2 + (bigsum n (fun i => S i * pk depth w (0 + i))) ^ 2))).
    - rewrite (wh_scal _ E HE), (wh_add _ E HE (fun w => (bigsum n (fun i => C i * pk depth w (0 + i))) ^ 2)). rewrite !(var_pk depth Hd T E HE) by lia. reflexivity.
    - intros w. rewrite pink_tab by exact Hd. unfold psd_at. rewrite numpy_psd_eq; [|intros Q; apply (f_equal (@List.length R)) in Q; rewrite tab_length in Q; cbn in Q; lia|lra].
      rewrite tab_length. rewrite nth_tab by lia. f_equal. unfold pw, dc, ds, C, S.
      f_equal; f_equal; apply bigsum_ext; intros i Hi; rewrite nth_tab by exact Hi; rewrite phi_eq; cbn [Nat.add]; ring. }
  assert (CS : bigsum n (fun i => C i ^ 2) + bigsum n (fun i => S i ^ 2) = INR n).
  { rewrite <- bigsum_plus. rewrite (bigsum_ext n _ (fun _ => 1)) by (intros; apply trig1). rewrite bigsum_const. ring. }
  assert (ZC : bigsum n C = 0).
  { rewrite <- (char_cos (Z.of_nat k) n); [|lia|intros q Hq; assert (q <= 0 \/ 1 <= q)%Z as [|] by lia; nia]. apply bigsum_ext. intros i _. unfold C, phi. now rewrite <- INR_IZR_INZ. }
  assert (ZS : bigsum n S = 0).
  { rewrite <- (char_sin (Z.of_nat k) n) by lia. apply bigsum_ext. intros i _. unfold S, phi. now rewrite <- INR_IZR_INZ. }
  pose proof (slots_le depth Hd 0 n C ZC) as UC. pose proof (slots_le depth Hd 0 n S ZS) as US.
  assert (LC : 0 <= bigsum depth (fun l => vk depth l 0 n C)) by (apply bigsum_nonneg; intros; now apply vk_nonneg).
  assert (LS : 0 <= bigsum depth (fun l => vk depth l 0 n S)) by (apply bigsum_nonneg; intros; now apply vk_nonneg).
  rewrite Q. assert (P : 0 < 2 / (INR n * fs)) by (apply Rmult_lt_0_compat; [lra|apply Rinv_0_lt_compat; nra]).
  split.
  - replace (2 / fs) with (2 / (INR n * fs) * INR n) by (field; lra). apply Rmult_le_compat_l; lra.
  - replace (2 * (6 * INR depth + 1) / fs) with (2 / (INR n * fs) * ((6 * INR depth + 1) * INR n)) by (field; lra). apply Rmult_le_compat_l; [lra|]. rewrite <- CS. lra.
Qed.
Print Assumptions C105_psd.

(** A 1/f spectrum of any level is above it in the lowest bin of long records. *)
Theorem C105_psd_refuted depth fs c : (1 <= depth)%nat -> 0 < fs -> 0 < c -> exists n0, forall T E n, white T E -> (n0 <= n)%nat -> (2 * n + 3 * depth <= T)%nat ->
  mean_of E (fun w => pink w n depth) (psd_at fs 1) < c / (fs / INR n).
Proof.
  intros Hd Hf Hc. assert (0 <= INR depth) by apply pos_INR. set (r := 2 * (6 * INR depth + 1) / c). assert (P : 0 < r) by (apply Rmult_lt_0_compat; [lra|now apply Rinv_0_lt_compat]).
  exists (2 + Z.to_nat (up r))%nat. intros T E n HE Hn HT.
  eapply Rle_lt_trans; [apply (C105_psd T E depth n 1 fs); (assumption || lia || (apply Nat.div_le_lower_bound; lia))|].
  assert (0 < INR n) by (apply lt_0_INR; lia). replace (c / (fs / INR n)) with (c * INR n / fs) by (field; lra).
  apply Rmult_lt_compat_r; [now apply Rinv_0_lt_compat|]. destruct (archimed r) as (A & _). assert (Z0 : (0 <= up r)%Z) by (apply le_IZR; cbn; lra).
  assert (B : IZR (up r) <= INR n) by (rewrite <- (Z2Nat.id _ Z0), <- INR_IZR_INZ; apply le_INR; lia).
  assert (C : r < INR n) by lra. apply (Rmult_lt_compat_l c) in C; [|lra]. replace (c * r) with (2 * (6 * INR depth + 1)) in C by (unfold r; field; lra). lra.
Qed.
Print Assumptions C105_psd_refuted.

(** The default depth 80 of pink: seven slots are in use. *)
Example C105_ex_cov : signs 1000 (fun w => out 80 w 3 * out 80 w 103) = 73.
Proof. rewrite (C105_far 1000) by (lia || apply signs_white). change (80 - Nat.log2_up 80)%nat with 73%nat. rewrite INR_IZR_INZ. reflexivity. Qed.
Example C105_ex_floor : 1 / 9 <= mean_of (signs 600) (fun w => pink w 150 80) (reported oadev 1 40) <= 9.
Proof. apply (C105_floor 600); [apply signs_white|cbn; tauto|lra|lia..]. Qed.
(** with depth 2 the floor is gone at 325 samples *)
Example C105_ex_tail : mean_of (signs 2000) (fun w => pink w 975 2) (reported oadev 1 325) <= 1 / 25.
Proof.
  eapply Rle_trans; [apply (C105_tail 2000); [apply signs_white|cbn; tauto|lra|lia..]|].
  rewrite !INR_IZR_INZ. change (Z.of_nat 2) with 2%Z. change (Z.of_nat 325) with 325%Z. lra.
Qed.
Example C105_ex_psd : mean_of (signs 1000) (fun w => pink w 300 80) (psd_at 1 1) <= 962.
Proof.
  eapply Rle_trans; [apply (C105_psd 1000); [apply signs_white|lia|lra|lia|cbn; lia|lia]|]. rewrite INR_IZR_INZ. change (Z.of_nat 80) with 80%Z. lra.
Qed.
