(** * Accuracy of the streaming statistics in binary64 (C104). *)
From Coq Require Import ZArith Floats Reals Lra Lia Psatz String List Bool Sorted Permutation.
From Flocq Require Import Core.Core IEEE754.BinarySingleNaN.
From Verif Require Import Base Num NpList NumF NumR ListFacts Spec RSum ModelCore ModelDev ModelRt FloatFacts FloatErr
  GenericProofs DevProofs RtProofs PropsRt PropsFloatTau PropsFloatErr PropsFloatMdev PropsFloatMore.
Import ListNotations.
Local Open Scope R_scope.
Local Notation len := List.length.
Local Notation float := Coq.Floats.PrimFloat.float.
Local Notation fsqrt := Coq.Floats.PrimFloat.sqrt.

(** ** The accumulators over any number type *)
Section Gen.
Context {A : Type} {NA : Num A}.
Lemma nth_firstn_gen (xs : list A) n k d : (k < n)%nat -> nth k (firstn n xs) d = nth k xs d.
Proof.
  revert n k. induction xs as [|a xs IH]; intros n k Hk; [now rewrite firstn_nil|].
  destruct n; [lia|]. destruct k; [reflexivity|]. cbn. apply IH. lia.
Qed.
Local Open Scope num_scope.

Lemma oadev_slot_gen t0 xs af n : (n <= len xs)%nat -> let f i := nth i xs (ofZ 0) in
  let S := asum (tab (n - 2 * af) (fun k => nsq (sd f af k))) in
  slot_after (oadev_g t0) xs af 0 n =
  (S, ofZ 0, if (2 * af <? n)%nat then nsqrt ((ofZ 1 / (ofZ 2 * nsq (ofN af * t0) * ofN (n - 2 * af))) * S) else ofZ 0).
Proof.
  intros Hn f. cbv zeta. induction n as [|n IH]; [reflexivity|]. specialize (IH ltac:(lia)).
  rewrite slot_after_S by lia. rewrite IH. clear IH. unfold oadev_g. cbv zeta. rewrite firstn_length, Nat.min_l by lia.
  destruct (Nat.leb_spec (2 * af + 1) (S n)) as [Hg|Hg].
  - destruct (Nat.ltb_spec (2 * af) (S n)) as [_|]; [|lia]. rewrite !nth_firstn_gen by lia.
    replace (S n - 2 * af)%nat with (S (n - 2 * af)) by lia. rewrite asum_S. cbn [fst snd].
    assert (E : nth (S n - 1 - 0) xs (ofZ 0) - ofZ 2 * nth (S n - 1 - af) xs (ofZ 0) + nth (S n - 1 - 2 * af) xs (ofZ 0) = sd f af (n - 2 * af)).
    { unfold sd, f. replace (S n - 1 - 0)%nat with (2 * af + (n - 2 * af))%nat by lia. replace (S n - 1 - af)%nat with (af + (n - 2 * af))%nat by lia.
      replace (S n - 1 - 2 * af)%nat with (n - 2 * af)%nat by lia. reflexivity. }
    rewrite E. replace (S n - 1 + 1 - 2 * af)%nat with (S (n - 2 * af)) by lia. reflexivity.
  - replace (n - 2 * af)%nat with 0%nat by lia. replace (S n - 2 * af)%nat with 0%nat by lia.
    destruct (Nat.ltb_spec (2 * af) n); [lia|]. destruct (Nat.ltb_spec (2 * af) (S n)); [lia|]. reflexivity.
Qed.
Lemma ohdev_slot_gen t0 xs af n : (n <= len xs)%nat -> let f i := nth i xs (ofZ 0) in
  let S := asum (tab (n - 3 * af) (fun k => nsq (td f af k))) in
  slot_after (ohdev_g t0) xs af 0 n =
  (S, ofZ 0, if (3 * af <? n)%nat then nsqrt ((ofZ 1 / (ofZ 6 * nsq (ofN af * t0) * ofN (n - 3 * af))) * S) else ofZ 0).
Proof.
  intros Hn f. cbv zeta. induction n as [|n IH]; [reflexivity|]. specialize (IH ltac:(lia)).
  rewrite slot_after_S by lia. rewrite IH. clear IH. unfold ohdev_g. cbv zeta. rewrite firstn_length, Nat.min_l by lia.
  destruct (Nat.ltb_spec (3 * af) (S n)) as [Hg|Hg].
  - rewrite !nth_firstn_gen by lia.
    replace (S n - 3 * af)%nat with (S (n - 3 * af)) by lia. rewrite asum_S. cbn [fst snd].
    assert (E : nth (S n - 1 - 0) xs (ofZ 0) - ofZ 3 * nth (S n - 1 - af) xs (ofZ 0) + ofZ 3 * nth (S n - 1 - 2 * af) xs (ofZ 0)
      - nth (S n - 1 - 3 * af) xs (ofZ 0) = td f af (n - 3 * af)).
    { unfold td, f. replace (S n - 1 - 0)%nat with (3 * af + (n - 3 * af))%nat by lia. replace (S n - 1 - af)%nat with (2 * af + (n - 3 * af))%nat by lia.
      replace (S n - 1 - 2 * af)%nat with (af + (n - 3 * af))%nat by lia. replace (S n - 1 - 3 * af)%nat with (n - 3 * af)%nat by lia. reflexivity. }
    rewrite E. replace (S n - 1 + 1 - 3 * af)%nat with (S (n - 3 * af)) by lia. reflexivity.
  - replace (n - 3 * af)%nat with 0%nat by lia. replace (S n - 3 * af)%nat with 0%nat by lia.
    destruct (Nat.ltb_spec (3 * af) n); [lia|]. reflexivity.
Qed.

(** tdev_realtime: the running window sum while the first window fills, and while it slides, and the sum of squares *)
Fixpoint fill (f : nat -> A) (m k : nat) : A :=
  match k with O => ofZ 0 | S k => fill f m k + f (2 * m + k)%nat - ofZ 2 * f (m + k)%nat + f k end.
Definition slide (f : nat -> A) (m k : nat) : A := ofZ (-1) * f k + ofZ 3 * f (m + k)%nat - ofZ 3 * f (2 * m + k)%nat + f (3 * m + k)%nat.
Fixpoint live (f : nat -> A) (m j : nat) : A := match j with O => fill f m m | S k => live f m k + slide f m k end.
Fixpoint live_sq (f : nat -> A) (m j : nat) : A := match j with O => nsq (live f m 0) | S k => live_sq f m k + nsq (live f m (S k)) end.
Lemma tdev_slot_gen xs af n : (1 <= af)%nat -> (n <= len xs)%nat -> let f i := nth i xs (ofZ 0) in
  slot_after tdev_g xs af 0 n =
  if (n <? 3 * af)%nat then (fill f af (n - 2 * af), ofZ 0, ofZ 0)
  else (live f af (n - 3 * af), live_sq f af (n - 3 * af), tdev_value n af (live_sq f af (n - 3 * af))).
Proof.
  intros Ha Hn f. induction n as [|n IH].
  - destruct (Nat.ltb_spec 0 (3 * af)); [reflexivity|lia].
  - specialize (IH ltac:(lia)). rewrite slot_after_S by lia. rewrite IH. clear IH. unfold tdev_g. cbv zeta. rewrite firstn_length, Nat.min_l by lia.
    destruct (Nat.leb_spec (3 * af + 1) (S n)) as [Hg|Hg].
    + destruct (Nat.ltb_spec n (3 * af)); [lia|]. destruct (Nat.ltb_spec (S n) (3 * af)); [lia|]. cbn [fst snd]. rewrite !nth_firstn_gen by lia.
      replace (S n - 3 * af)%nat with (S (n - 3 * af)) by lia. cbn [live live_sq].
      assert (E : ofZ (-1) * nth (S n - 1 - 3 * af) xs (ofZ 0) + ofZ 3 * nth (S n - 1 - 2 * af) xs (ofZ 0) - ofZ 3 * nth (S n - 1 - af) xs (ofZ 0)
         + nth (S n - 1 - 0) xs (ofZ 0) = slide f af (n - 3 * af)).
      { unfold slide, f. replace (S n - 1 - 0)%nat with (3 * af + (n - 3 * af))%nat by lia. replace (S n - 1 - af)%nat with (2 * af + (n - 3 * af))%nat by lia.
        replace (S n - 1 - 2 * af)%nat with (af + (n - 3 * af))%nat by lia. replace (S n - 1 - 3 * af)%nat with (n - 3 * af)%nat by lia. reflexivity. }
      rewrite E. reflexivity.
    + destruct (Nat.ltb_spec n (3 * af)); [|lia]. destruct (Nat.leb_spec (2 * af + 1) (S n)) as [Hh|Hh].
      * rewrite !nth_firstn_gen by lia. cbn [fst snd].
        assert (E : fill f af (n - 2 * af) + nth (S n - 1 - 0) xs (ofZ 0) - ofZ 2 * nth (S n - 1 - af) xs (ofZ 0) + nth (S n - 1 - 2 * af) xs (ofZ 0)
            = fill f af (S n - 2 * af)).
        { replace (S n - 2 * af)%nat with (S (n - 2 * af)) by lia. cbn [fill].
          unfold f. replace (S n - 1 - 0)%nat with (2 * af + (n - 2 * af))%nat by lia. replace (S n - 1 - af)%nat with (af + (n - 2 * af))%nat by lia.
          replace (S n - 1 - 2 * af)%nat with (n - 2 * af)%nat by lia. reflexivity. }
        rewrite E. destruct (Nat.eqb_spec (S n) (3 * af)) as [E3|E3].
        -- destruct (Nat.ltb_spec (S n) (3 * af)); [lia|]. replace (S n - 3 * af)%nat with 0%nat by lia. cbn [live live_sq].
           replace (S n - 2 * af)%nat with af by lia. reflexivity.
        -- destruct (Nat.ltb_spec (S n) (3 * af)); [|lia]. reflexivity.
      * destruct (Nat.ltb_spec (S n) (3 * af)); [|lia]. replace (n - 2 * af)%nat with 0%nat by lia. replace (S n - 2 * af)%nat with 0%nat by lia. reflexivity.
Qed.
End Gen.

Lemma sum_of_snoc v s a : sum_of v s -> sum_of (v ++ [a]) (s + a)%float.
Proof.
  intros (t & z & -> & Hz & P). exists (Node t (Leaf a)), z. split; [reflexivity|]. split; [exact Hz|].
  cbn [leaves]. rewrite app_assoc. now apply Permutation_app_tail.
Qed.
Lemma live_sq_sum f m j : sum_of (tab (S j) (fun k => nsq (live f m k))) (live_sq f m j : float).
Proof.
  induction j as [|j IH].
  - exists (Leaf (nsq (live f m 0))), 0%nat. split; [reflexivity|]. split; [lia|]. apply Permutation_refl.
  - rewrite tab_snoc. cbn [live_sq]. now apply sum_of_snoc.
Qed.

(** ** Inverses *)
Lemma approx_inv (y : float) w j : approx y w j -> 0 < w -> mid (/ w) -> (j <= 6)%nat -> approx (f_ofZ 1 / y)%float (/ w) (S (S j)).
Proof.
  intros [F E] Pw Hm Hj. rewrite (Rabs_pos_eq w) in E by lra.
  destruct (fofZ_ok 1 ltac:(lia)) as [F1 V1].
  destruct (pow_u_bound j ltac:(lia)) as [P0 P1]. set (b := (1 + u64) ^ j) in *.
  assert (U : 0 < u64 <= / 4096) by (split; [apply u64_pos|unfold u64; lra]).
  assert (Bj : b - 1 <= 7 * u64).
  { assert (INR j <= 6) by (replace 6 with (INR 6) by (cbn; lra); apply le_INR; lia).
    apply Rle_trans with ((INR j + / 8) * u64); [exact P1|]. apply Rmult_le_compat_r; lra. }
  apply Rabs_le_inv in E.
  assert (Ly : (2 - b) * w <= fR y) by lra. assert (Uy : fR y <= b * w) by lra.
  assert (Py : 0 < fR y) by nra.
  assert (Iw : 0 < / w) by (now apply Rinv_0_lt_compat).
  destruct (rnd_approx (fR (f_ofZ 1) / fR y) (/ w) (S j) Hm ltac:(lia)) as [B E'].
  - rewrite V1, (Rabs_pos_eq (/ w)) by lra. replace ((1 + u64) ^ S j) with ((1 + u64) * b) by reflexivity.
    assert (Up : / fR y <= ((1 + u64) * b) * / w).
    { apply (Rmult_le_reg_l (fR y)); [exact Py|]. rewrite Rinv_r by lra.
      apply (Rmult_le_reg_r w); [exact Pw|]. rewrite Rmult_1_l.
      replace (fR y * ((1 + u64) * b * / w) * w) with (fR y * ((1 + u64) * b)) by (field; lra).
      apply Rle_trans with ((2 - b) * w * ((1 + u64) * b)); [|apply Rmult_le_compat_r; [nra|exact Ly]].
      replace ((2 - b) * w * ((1 + u64) * b)) with (w * ((2 - b) * b * (1 + u64))) by ring.
      rewrite <- (Rmult_1_r w) at 1. apply Rmult_le_compat_l; [lra|].
      replace ((2 - b) * b) with (1 - (b - 1) * (b - 1)) by ring. assert ((b - 1) * (b - 1) <= 49 * (u64 * u64)) by nra. nra. }
    assert (Dn : (2 - (1 + u64) * b) * / w <= / fR y).
    { apply Rle_trans with (/ (b * w)); [|apply Rinv_le; assumption]. rewrite Rinv_mult. apply Rmult_le_compat_r; [lra|].
      apply (Rmult_le_reg_l b); [lra|]. rewrite Rinv_r by lra. nra. }
    unfold Rdiv. rewrite Rmult_1_l. apply Rabs_le. lra.
  - destruct (fdiv_ok (f_ofZ 1) y F1 ltac:(lra) B) as [F' V]. split; [exact F'|]. now rewrite V.
Qed.

Lemma near_mul_approx_r (t : float) Y i s X j z : approx t Y i -> near s X j z -> 0 < Y -> 0 <= X -> 0 <= z -> (i <= 7)%nat ->
  (Z.of_nat j <= 2 ^ 41)%Z -> Y * X <= / 4 * bpow radix2 990 -> Y * z <= / 4 * bpow radix2 990 ->
  near (s * t)%float (Y * X) (S (i + j)) ((1 + u64) * ((1 + / 1000) * (Y * z)) + eta).
Proof.
  intros [Ft Et] (F & P & E) PY PX Pz Hi Hj B Bz. rewrite (Rabs_pos_eq Y) in Et by lra.
  pose proof (pow_u_small j ltac:(lia)) as Sm. pose proof (pow_u_ge1 j) as G.
  pose proof (pow_u_small i ltac:(lia)) as Si. pose proof (pow_u_ge1 i) as Gi.
  pose proof (pow_u_small (i + j) ltac:(lia)) as Sij.
  assert (Pt : 0 <= fR t) by (apply Rabs_le_inv in Et; nra).
  assert (E2 : Rabs (fR s * fR t - Y * X) <= ((1 + u64) ^ (i + j) - 1) * (Y * X) + (1 + / 1000) * (Y * z)).
  { replace (fR s * fR t - Y * X) with (fR t * (fR s - X) + (fR t - Y) * X) by ring.
    eapply Rle_trans; [apply Rabs_triang|]. rewrite !Rabs_mult, (Rabs_pos_eq (fR t)), (Rabs_pos_eq X) by lra. rewrite pow_add.
    set (a := (1 + u64) ^ j) in *. set (b := (1 + u64) ^ i) in *.
    assert (Ut : fR t <= b * Y) by (apply Rabs_le_inv in Et; lra).
    assert (T1 : fR t * Rabs (fR s - X) <= (b * Y) * ((a - 1) * X + z)) by (apply Rmult_le_compat; auto using Rabs_pos).
    assert (T2 : Rabs (fR t - Y) * X <= (b - 1) * Y * X) by (apply Rmult_le_compat_r; lra).
    assert (0 <= Y * z) by nra. assert (b * (Y * z) <= (1 + / 1000) * (Y * z)) by (apply Rmult_le_compat_r; lra). nra. }
  assert (PYX : 0 <= Y * X) by nra. assert (PYz : 0 <= Y * z) by nra. assert (Pv : 0 <= fR s * fR t) by nra.
  pose proof bpow1000_2 as B2. pose proof (bpow_ge_0 radix2 990) as B0. pose proof (pow_u_ge1 (i + j)) as Gij.
  assert (O : Rabs (fR s * fR t) <= bpow radix2 1000).
  { rewrite Rabs_pos_eq by exact Pv. apply Rabs_le_inv in E2. set (b := (1 + u64) ^ (i + j)) in *. nra. }
  destruct (fmul_ok s t F Ft (rnd_bound _ O)) as [F' V].
  apply (near_round _ (fR s * fR t)); auto. nra.
Qed.

(** ** The root of a coefficient times a sum of squares *)
Lemma live_row n (vh : nat -> float) (v : nat -> R) (s c : float) q K M d D : (1 <= n)%nat -> (Z.of_nat n <= 2 ^ 40)%Z ->
  bpow radix2 (-200) <= M -> 1 <= q <= 8 -> rg K (-100) 140 -> 0 <= d -> 0 <= D ->
  (forall k, (k < n)%nat -> ffin (vh k) /\ Rabs (fR (vh k)) <= bpow radix2 250 /\ Rabs (fR (vh k) - v k) <= d) ->
  sum_of (tab n (fun k => nsq (vh k))) s -> d * d <= D * D * (q * (K * K)) ->
  approx c (/ (q * (K * K) * INR n)) 7 ->  u64 * M / (16 * K) <= bpow radix2 300 ->
  near (fsqrt (c * s)) (R_sqrt.sqrt (bigsum n (fun k => v k ^ 2) / (q * (K * K) * INR n))) (n + 10) ((1 + / 1000) * D + u64 * M / (8 * K)).
Proof.
  intros Hn1 Hn HM Hq RK Pd PD Hv Hs HD Hc Hy. pose proof (rg_pos _ _ _ RK) as PK. pose proof eta_pos as Pe. pose proof u64_pos as Pu.
  assert (Rn : rg (INR n) 0 40) by (now apply rg_nat). assert (Rq : rg q 0 3) by (split; cbn; lra).
  assert (RY := rg_mul _ _ _ _ _ _ (rg_mul _ _ _ _ _ _ Rq (rg_mul _ _ _ _ _ _ RK RK)) Rn). cbn [Z.add] in RY.
  set (Y := q * (K * K) * INR n) in *. pose proof (rg_pos _ _ _ RY) as PY. pose proof (rg_pos _ _ _ Rn) as Pn.
  assert (IY : 0 < / Y) by (now apply Rinv_0_lt_compat).
  assert (Pm0 : 0 < M) by (pose proof (bpow_gt_0 radix2 (-200)); lra).
  assert (H450 : bpow radix2 250 <= bpow radix2 450) by (apply bpow_le; lia).
  assert (Hq' : forall k, (k < n)%nat -> near (nsq (vh k)) (fR (vh k) ^ 2) 1 eta /\ 0 <= fR (vh k) ^ 2 <= bpow radix2 500).
  { intros k Hk. destruct (Hv k Hk) as (F & B & _). destruct (near_sq (vh k) F ltac:(lra)) as [H _]. split; [exact H|].
    split; [apply pow2_ge_0|]. change 500%Z with (2 * 250)%Z. rewrite <- bpow_sq, <- Rsqr_pow2. apply Rsqr_le_abs_1 in B || idtac.
    replace (fR (vh k))² with (Rabs (fR (vh k)) * Rabs (fR (vh k))) by (symmetry; apply Rsqr_abs).
    pose proof (Rabs_pos (fR (vh k))). apply Rmult_le_compat; lra. }
  set (X := bigsum n (fun k => fR (vh k) ^ 2)).
  assert (PX : 0 <= X <= INR n * bpow radix2 500).
  { split; [apply bigsum_nonneg; intros; apply pow2_ge_0|]. unfold X. rewrite <- bigsum_const. apply bigsum_le. intros k Hk. apply Hq', Hk. }
  assert (B5 : 0 < bpow radix2 500) by apply bpow_gt_0.
  assert (Un : INR n <= bpow radix2 40) by apply Rn.
  assert (E5 : eta <= bpow radix2 500) by (apply bpow_le; lia).
  assert (H1 := near_sum n (fun i => nsq (vh i)) (fun k => fR (vh k) ^ 2) 1 eta (bpow radix2 500) s Hn1 Hn ltac:(lia) ltac:(lra) Hq').
  specialize (H1 ltac:(apply Rle_trans with (bpow radix2 40 * (4 * bpow radix2 500));
     [apply Rmult_le_compat; lra|change 4 with (bpow radix2 2); rewrite <- !bpow_plus; apply bpow_le; lia]) Hs).
  fold X in H1. set (z := (1 + / 1000) * (INR n * eta)) in *.
  assert (Pz : 0 <= z) by (unfold z; nra).
  set (y := u64 * M / (16 * K)) in *.
  assert (Ey : y = / 16 * (u64 * M) * / K) by (unfold y; field; lra).
  assert (IK : 0 < / K) by (now apply Rinv_0_lt_compat).
  assert (Py : 0 <= y) by (rewrite Ey; repeat apply Rmult_le_pos; lra).
  assert (Yz : / Y * z <= (1 + / 1000) * (eta / (K * K))).
  { unfold z, Y. replace (/ (q * (K * K) * INR n) * ((1 + / 1000) * (INR n * eta))) with (/ q * ((1 + / 1000) * (eta / (K * K)))) by (field; lra).
    rewrite <- Rmult_1_l. apply Rmult_le_compat_r; [|rewrite <- Rinv_1; apply Rinv_le; lra].
    apply Rmult_le_pos; [lra|]. apply Rmult_le_pos; [lra|]. left. apply Rinv_0_lt_compat. nra. }
  assert (T := tiny M K 2 HM RK ltac:(split; [lra|change 2 with (bpow radix2 1); apply bpow_le; lia])). fold y in T.
  assert (KK : 0 <= eta / (K * K)) by (apply Rmult_le_pos; [lra|]; left; apply Rinv_0_lt_compat; nra).
  assert (U8 : u64 <= / 4096) by (unfold u64; lra).
  assert (Ty : (1 + u64) * ((1 + / 1000) * (/ Y * z)) + eta <= y * y).
  { eapply Rle_trans; [|exact T]. replace (2 * eta / (K * K)) with (2 * (eta / (K * K))) by (unfold Rdiv; ring). nra. }
  assert (H2 := near_mul_approx c (/ Y) 7 s X (n + 1) z Hc H1 IY (proj1 PX) Pz ltac:(lia) ltac:(lia)).
  assert (IYb : / Y <= bpow radix2 200) by (pose proof (rg_inv _ _ _ RY) as [_ L]; exact L).
  assert (Q4 : forall a, 0 <= a <= bpow radix2 600 -> / Y * a <= / 4 * bpow radix2 990).
  { intros a Ha. apply Rle_trans with (bpow radix2 200 * bpow radix2 600); [apply Rmult_le_compat; lra|].
    replace (/ 4) with (bpow radix2 (-2)) by (cbn; lra). rewrite <- !bpow_plus. apply bpow_le. lia. }
  assert (Nb : INR n * bpow radix2 500 <= / 4 * bpow radix2 600).
  { apply Rle_trans with (bpow radix2 40 * bpow radix2 500); [apply Rmult_le_compat_r; lra|].
    replace (/ 4) with (bpow radix2 (-2)) by (cbn; lra). rewrite <- !bpow_plus. apply bpow_le. lia. }
  assert (P6 : 0 < bpow radix2 600) by apply bpow_gt_0.
  specialize (H2 ltac:(apply Q4; lra)). specialize (H2 ltac:(apply Q4; split; [exact Pz|]; unfold z; nra)).
  apply (near_sqrt_gen _ _ _ _ y) in H2; [|apply Rmult_le_pos; lra|exact Py|exact Ty|lia].
  replace (n + 10)%nat with (S (S (7 + (n + 1)))) by lia.
  replace (/ Y * X) with (X / Y) in H2 by (unfold Rdiv; ring).
  replace ((1 + / 1000) * D + u64 * M / (8 * K)) with ((1 + / 1000) * D + 2 * y) by (unfold y; field; lra).
  apply (near_shift _ _ _ _ _ D H2); [|apply sqrt_pos|exact PD|lia].
  assert (One : forall g : nat -> R, bigsum n (fun k => g k ^ 2) = bigsum n (fun k => 1 * g k ^ 2)) by (intro g; apply bigsum_ext; intros; ring).
  unfold X. rewrite (One (fun k => fR (vh k))), (One v). apply wrms_close; [exact PY|exact PD|intros; lra|].
  apply Rle_trans with (bigsum n (fun _ => d * d)).
  - apply bigsum_le. intros k Hk. rewrite Rmult_1_l. replace (d * d) with (Rsqr d) by reflexivity. rewrite <- Rsqr_pow2. apply Rsqr_le_abs_1.
    rewrite (Rabs_pos_eq d) by exact Pd. apply Hv, Hk.
  - rewrite bigsum_const. unfold Y. replace (D ^ 2 * (q * (K * K) * INR n)) with (INR n * (D * D * (q * (K * K)))) by ring.
    apply Rmult_le_compat_l; lra.
Qed.

Section Rows.
Variables (N m : nat) (f : nat -> float) (M : R) (t0 : float).
Hypothesis HN : (Z.of_nat N <= 2 ^ 40)%Z.
Hypothesis Hm : (1 <= m)%nat.
Hypothesis HmN : (2 * m < N)%nat.
Hypothesis HM : bpow radix2 (-200) <= M <= bpow radix2 200.
Hypothesis Hf : forall i, (i < N)%nat -> ffin (f i) /\ Rabs (fR (f i)) <= M.
Hypothesis Ht : moderate_rate t0.
Let U : R := u64 * M.
Let K : R := INR m * fR t0.

Lemma rt_consts : 0 < M /\ 0 < u64 <= / 4096 * / 4096 /\ 0 < U <= / 4096 * M /\ 1 <= INR m <= bpow radix2 40 /\ 1 <= INR N /\
  INR N * u64 <= / 8192 /\ eta <= / 4096 * U /\ rg K (-100) 140.
Proof using All.
  assert (PM : 0 < M) by (pose proof (bpow_gt_0 radix2 (-200)); lra).
  assert (Uq : 0 < u64 <= / 4096 * / 4096) by (split; [apply u64_pos|unfold u64; lra]).
  split; [exact PM|]. split; [exact Uq|]. split; [unfold U; split; nra|].
  assert (Rm : rg (INR m) 0 40) by (apply rg_nat; lia). split; [split; [apply Rm|apply Rm]|].
  assert (Pm : 1 <= INR N) by (change 1 with (INR 1); apply le_INR; lia). split; [exact Pm|]. split; [|split].
  - apply Rle_trans with (bpow radix2 40 * u64).
    + apply Rmult_le_compat_r; [lra|]. rewrite INR_IZR_INZ. change (bpow radix2 40) with (IZR (2 ^ 40)). now apply IZR_le.
    + change (bpow radix2 40) with (IZR (2 ^ 40)). unfold u64. cbn. lra.
  - destruct bpow_nums as (_ & _ & Bu). apply Rle_trans with (bpow radix2 (-12) * (bpow radix2 (-53) * bpow radix2 (-200))).
    + unfold eta. rewrite <- !bpow_plus. apply bpow_le. lia.
    + rewrite Bu. unfold U. apply Rmult_le_compat; [apply bpow_ge_0|apply Rmult_le_pos; [lra|apply bpow_ge_0]|cbn; lra|].
      apply Rmult_le_compat_l; lra.
  - unfold K. destruct Ht as [_ H]. apply (rg_mul _ _ 0 40 (-100) 100); [exact Rm|exact H].
Qed.

Lemma coef_ok q n : (1 <= n)%nat -> (Z.of_nat n <= 2 ^ 40)%Z -> (1 <= q <= 8)%Z ->
  approx (f_ofZ 1 / (f_ofZ q * nsq (f_ofZ (Z.of_nat m) * t0) * f_ofZ (Z.of_nat n)))%float (/ (IZR q * (K * K) * INR n)) 7.
Proof using All.
  intros Hn1 Hn Hq. destruct rt_consts as (PM & Uq & UM & Pm & PN & NU & EU & RK). destruct Ht as [Fr [Lr Ur]].
  assert (Rn : rg (INR n) 0 40) by (now apply rg_nat).
  assert (Rq : rg (IZR q) 0 3) by (split; [change (bpow radix2 0) with 1|change (bpow radix2 3) with 8]; apply IZR_le; lia).
  assert (S1 := rg_mul _ _ _ _ _ _ RK RK). assert (S2 := rg_mul _ _ _ _ _ _ Rq S1). assert (S3 := rg_mul _ _ _ _ _ _ S2 Rn). cbn [Z.add] in S1, S2, S3.
  assert (Am : approx (f_ofZ (Z.of_nat m)) (INR m) 0) by (rewrite INR_IZR_INZ; apply approx_Z; lia).
  assert (An : approx (f_ofZ (Z.of_nat n)) (INR n) 0) by (rewrite INR_IZR_INZ; apply approx_Z; lia).
  assert (At : approx (f_ofZ (Z.of_nat m) * t0)%float K 1) by (apply (approx_mul _ _ _ _ 0 0); [exact Am|now apply approx_self|now apply (rg_mid _ _ _ RK)|lia]).
  apply approx_inv; [|now apply (rg_pos _ _ _ S3)|apply (rg_mid _ _ _ (rg_inv _ _ _ S3)); lia|lia].
  unfold nsq. cbn [nmul FNum].
  apply (approx_mul _ _ _ _ 4 0); [|exact An|now apply (rg_mid _ _ _ S3)|lia].
  apply (approx_mul _ _ _ _ 0 3); [apply (approx_Z q); lia| |now apply (rg_mid _ _ _ S2)|lia].
  apply (approx_mul _ _ _ _ 1 1); [exact At|exact At|now apply (rg_mid _ _ _ S1)|lia].
Qed.

Lemma y_small : u64 * M / (16 * K) <= bpow radix2 300.
Proof using All.
  destruct rt_consts as (PM & Uq & UM & Pm & PN & NU & EU & RK). pose proof (rg_pos _ _ _ RK) as PK.
  assert (IK : 0 < / K) by (now apply Rinv_0_lt_compat).
  assert (IKb : / K <= bpow radix2 100) by (pose proof (rg_inv _ _ _ RK) as [_ L]; exact L).
  replace (u64 * M / (16 * K)) with (/ 16 * U * / K) by (unfold U; field; lra).
  change 300%Z with (200 + 100)%Z. rewrite bpow_plus. apply Rmult_le_compat; lra.
Qed.

Lemma m_400 : bpow radix2 (-400) <= M <= bpow radix2 400.
Proof using All. clear -HM. split; [eapply Rle_trans; [|apply HM]|eapply Rle_trans; [apply HM|]]; apply bpow_le; lia. Qed.
Lemma m_250 : 16 * M <= bpow radix2 250.
Proof using All.
  clear -HM. apply Rle_trans with (bpow radix2 4 * bpow radix2 200); [change (bpow radix2 4) with 16; lra|]. rewrite <- bpow_plus. apply bpow_le. lia.
Qed.

Lemma oadev_live_row s : let n := (N - 2 * m)%nat in
  let v k := fR (f (2 * m + k)%nat) - 2 * fR (f (m + k)%nat) + fR (f k) in
  sum_of (tab n (fun k => nsq (sd f m k))) s ->
  near (fsqrt ((f_ofZ 1 / (f_ofZ 2 * nsq (f_ofZ (Z.of_nat m) * t0) * f_ofZ (Z.of_nat n))) * s)%float)
    (R_sqrt.sqrt (bigsum n (fun k => v k ^ 2) / (2 * (K * K) * INR n))) (n + 10) (7 * (U / K)).
Proof using All.
  intros n v Hs. destruct rt_consts as (PM & Uq & UM & Pm & PN & NU & EU & RK). pose proof (rg_pos _ _ _ RK) as PK. pose proof m_400 as M4. pose proof m_250 as M2.
  assert (IK : 0 < / K) by (now apply Rinv_0_lt_compat).
  assert (PU : 0 <= U / K) by (apply Rmult_le_pos; lra).
  eapply near_weaken; [apply (live_row n (sd f m) v s _ 2 K M (8 * U) (6 * (U / K)))|].
  - unfold n; lia.
  - unfold n; lia.
  - apply HM.
  - lra.
  - exact RK.
  - lra.
  - lra.
  - intros k Hk. unfold n in Hk. destruct (Hf (2 * m + k)%nat ltac:(lia)) as [F2 H2]. destruct (Hf (m + k)%nat ltac:(lia)) as [F1 H1].
    destruct (Hf k ltac:(lia)) as [F0 H0]. destruct (d2_err _ _ _ M F2 F1 F0 H2 H1 H0 (proj2 M4)) as [F E].
    pose proof (proj2 (abs3 _ _ _ M H2 H1 H0)) as B. change (sd f m k) with (f (2 * m + k)%nat - f_ofZ 2 * f (m + k)%nat + f k)%float.
    replace (8 * u64 * M) with (8 * U) in E by (unfold U; ring).
    split; [exact F|]. split; [|exact E]. apply Rabs_le_inv in E, B. eapply Rle_trans; [|exact M2]. apply Rabs_le. lra.
  - exact Hs.
  - replace (6 * (U / K) * (6 * (U / K)) * (2 * (K * K))) with (72 * (U * U)) by (field; lra). nra.
  - apply (coef_ok 2); unfold n; lia.
  - exact y_small.
  - replace (u64 * M / (8 * K)) with (/ 8 * (U / K)) by (unfold U; field; lra). lra.
Qed.

Lemma ohdev_live_row s : (3 * m < N)%nat -> let n := (N - 3 * m)%nat in
  let v k := fR (f (3 * m + k)%nat) - 3 * fR (f (2 * m + k)%nat) + 3 * fR (f (m + k)%nat) - fR (f k) in
  sum_of (tab n (fun k => nsq (td f m k))) s ->
  near (fsqrt ((f_ofZ 1 / (f_ofZ 6 * nsq (f_ofZ (Z.of_nat m) * t0) * f_ofZ (Z.of_nat n))) * s)%float)
    (R_sqrt.sqrt (bigsum n (fun k => v k ^ 2) / (6 * (K * K) * INR n))) (n + 10) (13 * (U / K)).
Proof using All.
  intros H3 n v Hs. destruct rt_consts as (PM & Uq & UM & Pm & PN & NU & EU & RK). pose proof (rg_pos _ _ _ RK) as PK. pose proof m_400 as M4. pose proof m_250 as M2.
  assert (IK : 0 < / K) by (now apply Rinv_0_lt_compat).
  assert (PU : 0 <= U / K) by (apply Rmult_le_pos; lra).
  eapply near_weaken; [apply (live_row n (td f m) v s _ 6 K M (28 * U) (12 * (U / K)))|].
  - unfold n; lia.
  - unfold n; lia.
  - apply HM.
  - lra.
  - exact RK.
  - lra.
  - lra.
  - intros k Hk. unfold n in Hk. destruct (Hf (3 * m + k)%nat ltac:(lia)) as [F3 H3']. destruct (Hf (2 * m + k)%nat ltac:(lia)) as [F2 H2].
    destruct (Hf (m + k)%nat ltac:(lia)) as [F1 H1].
    destruct (Hf k ltac:(lia)) as [F0 H0]. destruct (d3_err _ _ _ _ M F3 F2 F1 F0 H3' H2 H1 H0 M4) as [F E].
    change (td f m k) with (f (3 * m + k)%nat - f_ofZ 3 * f (2 * m + k)%nat + f_ofZ 3 * f (m + k)%nat - f k)%float.
    replace (28 * u64 * M) with (28 * U) in E by (unfold U; ring).
    split; [exact F|]. split; [|exact E]. apply Rabs_le_inv in E, H3', H2, H1, H0. eapply Rle_trans; [|exact M2]. apply Rabs_le. lra.
  - exact Hs.
  - replace (12 * (U / K) * (12 * (U / K)) * (6 * (K * K))) with (864 * (U * U)) by (field; lra). nra.
  - apply (coef_ok 6); unfold n; lia.
  - exact y_small.
  - replace (u64 * M / (8 * K)) with (/ 8 * (U / K)) by (unfold U; field; lra). lra.
Qed.

(** *** tdev_realtime *)
Let dd (i : nat) : R := fR (f (2 * m + i)%nat) - 2 * fR (f (m + i)%nat) + fR (f i).
Let W (j : nat) : R := bigsum m (fun i => dd (j + i)).

Lemma dd_bound i : (2 * m + i < N)%nat -> Rabs (dd i) <= 4 * M.
Proof using All.
  intro Hi. destruct (Hf (2 * m + i)%nat Hi) as [_ H2]. destruct (Hf (m + i)%nat ltac:(lia)) as [_ H1].
  destruct (Hf i ltac:(lia)) as [_ H0]. apply (abs3 _ _ _ M H2 H1 H0).
Qed.
Lemma dsum_bound k j : (2 * m + (j + k) <= N)%nat -> Rabs (bigsum k (fun i => dd (j + i))) <= 4 * (INR k * M).
Proof using All.
  intros Hk. apply Rle_trans with (bigsum k (fun i => Rabs (dd (j + i)))).
  - apply (PropsFloatMdev.bigsum_abs k (fun i => dd (j + i))).
  - apply Rle_trans with (bigsum k (fun _ => 4 * M)).
    + apply bigsum_le. intros i Hi. apply dd_bound. lia.
    + rewrite bigsum_const. lra.
Qed.
Lemma big_ok v : Rabs v <= 16 * (INR m * M) -> Rabs v <= bpow radix2 1000.
Proof using All.
  destruct rt_consts as (PM & Uq & UM & Pm & PN & NU & EU & RK). intro H. eapply Rle_trans; [exact H|].
  apply Rle_trans with (bpow radix2 4 * (bpow radix2 40 * bpow radix2 200)).
  - change (bpow radix2 4) with 16. assert (INR m * M <= bpow radix2 40 * bpow radix2 200) by (apply Rmult_le_compat; lra). lra.
  - rewrite <- !bpow_plus. apply bpow_le. lia.
Qed.

Lemma fill_ok k : (k <= m)%nat -> (2 * m + k <= N)%nat -> ffin (fill f m k) /\ Rabs (fR (fill f m k) - bigsum k dd) <= INR k * (13 * INR m * U).
Proof using All.
  destruct rt_consts as (PM & Uq & UM & Pm & PN & NU & EU & RK).
  induction k as [|k IH]; intros Hk HkN.
  - cbn [fill]. destruct (fofZ_ok 0 ltac:(lia)) as [F V]. split; [exact F|]. change (@ofZ float FNum 0) with (f_ofZ 0). rewrite V. cbn [bigsum INR].
    rewrite Rminus_diag_eq, Rabs_R0 by reflexivity. lra.
  - destruct (IH ltac:(lia) ltac:(lia)) as [F E]. clear IH. cbn [fill].
    destruct (Hf (2 * m + k)%nat ltac:(lia)) as [F2 H2]. destruct (Hf (m + k)%nat ltac:(lia)) as [F1 H1]. destruct (Hf k ltac:(lia)) as [F0 H0].
    change (@ofZ float FNum 2) with (f_ofZ 2). cbn [nadd nsub nmul FNum].
    set (s := fill f m k) in *. set (a := f (2 * m + k)%nat) in *. set (b := f (m + k)%nat) in *. set (c := f k) in *.
    pose proof (dsum_bound k 0 ltac:(lia)) as B. cbn [Nat.add] in B. change (bigsum k (fun i => dd i)) with (bigsum k dd) in B.
    assert (Ed : dd k = fR a - 2 * fR b + fR c) by reflexivity.
    cbn [bigsum]. rewrite S_INR.
    assert (KN : INR k + 1 <= INR m) by (rewrite <- S_INR; apply le_INR; lia). pose proof (pos_INR k) as K0.
    assert (mN : INR m <= INR N) by (apply le_INR; lia).
    set (kk := INR k) in *. set (mM := INR m * M).
    assert (mM1 : M <= mM) by (unfold mM; nra).
    assert (kM : kk * M <= mM - M) by (unfold mM; nra).
    assert (Small : kk * (13 * INR m * U) <= / 500 * mM).
    { replace (kk * (13 * INR m * U)) with (13 * (kk * u64) * mM) by (unfold U, mM; ring).
      assert (kk * u64 <= / 8192) by nra. apply Rmult_le_compat_r; lra. }
    assert (B99 : M <= bpow radix2 999) by (eapply Rle_trans; [apply HM|apply bpow_le; lia]).
    destruct (fdouble b F1 ltac:(lra)) as [Fd Vd].
    apply Rabs_le_inv in E, B, H2, H1, H0.
    assert (A1 : Rabs (fR s + fR a) <= (4 + / 100) * mM) by (apply Rabs_le; lra).
    destruct (fadd_err s a F F2) as [G1 E1]; [apply big_ok; fold mM; lra|].
    assert (E1' : Rabs (fR (s + a)%float - (fR s + fR a)) <= u64 * ((4 + / 100) * mM)) by (eapply Rle_trans; [exact E1|]; apply Rmult_le_compat_l; lra).
    assert (Um : u64 * mM <= / 4096 * mM) by (apply Rmult_le_compat_r; lra).
    assert (Pum : 0 <= u64 * mM) by (apply Rmult_le_pos; lra).
    replace (u64 * ((4 + / 100) * mM)) with ((4 + / 100) * (u64 * mM)) in E1' by ring.
    set (um := u64 * mM) in *. set (s1 := (s + a)%float) in *. apply Rabs_le_inv in E1'.
    assert (A2 : Rabs (fR s1 - fR (f_ofZ 2 * b)%float) <= (4 + / 50) * mM) by (rewrite Vd; apply Rabs_le; lra).
    destruct (fsub_err s1 (f_ofZ 2 * b)%float G1 Fd) as [G2 E2]; [apply big_ok; fold mM; lra|].
    assert (E2' : Rabs (fR (s1 - f_ofZ 2 * b)%float - (fR s1 - fR (f_ofZ 2 * b)%float)) <= (4 + / 50) * um).
    { eapply Rle_trans; [exact E2|]. unfold um. replace ((4 + / 50) * (u64 * mM)) with (u64 * ((4 + / 50) * mM)) by ring. apply Rmult_le_compat_l; lra. }
    rewrite Vd in E2'. set (s2 := (s1 - f_ofZ 2 * b)%float) in *. apply Rabs_le_inv in E2'.
    assert (A3 : Rabs (fR s2 + fR c) <= (4 + / 25) * mM) by (apply Rabs_le; lra).
    destruct (fadd_err s2 c G2 F0) as [G3 E3]; [apply big_ok; fold mM; lra|].
    assert (E3' : Rabs (fR (s2 + c)%float - (fR s2 + fR c)) <= (4 + / 25) * um).
    { eapply Rle_trans; [exact E3|]. unfold um. replace ((4 + / 25) * (u64 * mM)) with (u64 * ((4 + / 25) * mM)) by ring. apply Rmult_le_compat_l; lra. }
    apply Rabs_le_inv in E3'. split; [exact G3|].
    assert (Ex : 13 * INR m * U = 13 * um) by (unfold um, mM, U; ring). rewrite Ex in *. rewrite Ed.
    apply Rabs_le. lra.
Qed.

Lemma slide_ok k : (3 * m + k < N)%nat -> ffin (slide f m k) /\ Rabs (fR (slide f m k) - (W (S k) - W k)) <= 28 * U.
Proof using All.
  intros Hk. destruct rt_consts as (PM & Uq & UM & Pm & PN & NU & EU & RK).
  replace (W (S k) - W k) with (- fR (f k) + 3 * fR (f (m + k)%nat) - 3 * fR (f (2 * m + k)%nat) + fR (f (3 * m + k)%nat)).
  2: { unfold W. rewrite (window_slide dd m (S k)), (window_slide dd m k). cbn [bigsum]. unfold dd.
    replace (2 * m + (k + m))%nat with (3 * m + k)%nat by lia. replace (m + (k + m))%nat with (2 * m + k)%nat by lia.
    replace (k + m)%nat with (m + k)%nat by lia. ring. }
  destruct (Hf (3 * m + k)%nat ltac:(lia)) as [Fd Hd]. destruct (Hf (2 * m + k)%nat ltac:(lia)) as [Fc Hc].
  destruct (Hf (m + k)%nat ltac:(lia)) as [Fb Hb]. destruct (Hf k ltac:(lia)) as [Fa Ha].
  unfold slide. change (@ofZ float FNum 3) with (f_ofZ 3). change (@ofZ float FNum (-1)) with (f_ofZ (-1)). cbn [nadd nsub nmul FNum].
  set (a := f k) in *. set (b := f (m + k)%nat) in *. set (c := f (2 * m + k)%nat) in *. set (d := f (3 * m + k)%nat) in *.
  destruct (fofZ_ok 3 ltac:(lia)) as [F3 V3]. destruct (fofZ_ok (-1) ltac:(lia)) as [Fm Vm].
  assert (B1 : forall v, Rabs v <= 16 * M -> Rabs v <= bpow radix2 1000) by (intros v Hv; apply big_ok; nra).
  assert (N1 : ffin (f_ofZ (-1) * a)%float /\ fR (f_ofZ (-1) * a)%float = - fR a).
  { assert (Er : rnd (fR (f_ofZ (-1)) * fR a) = - fR a).
    { rewrite Vm. replace (-1 * fR a) with (fR (- a)%float) by (rewrite (proj2 (fopp_ok a)); ring). rewrite rnd_generic. apply fopp_ok. }
    destruct (fmul_ok _ a Fm Fa) as [F V]; [|split; [exact F|now rewrite V]].
    rewrite Er. apply Rle_lt_trans with (bpow radix2 1000); [apply B1; rewrite Rabs_Ropp; lra|apply bpow_lt; lia]. }
  destruct N1 as [Fna Vna].
  assert (M3 : forall y, ffin y -> Rabs (fR y) <= M -> ffin (f_ofZ 3 * y)%float /\ - (4 * U) <= fR (f_ofZ 3 * y)%float - 3 * fR y <= 4 * U).
  { intros y Fy Hy. assert (A : Rabs (3 * fR y) <= 3 * M) by (rewrite Rabs_mult, (Rabs_pos_eq 3) by lra; lra).
    destruct (fmul_err (f_ofZ 3) y F3 Fy) as [F E]; [rewrite V3; apply B1; lra|]. rewrite V3 in E. split; [exact F|].
    apply Rabs_le_inv. eapply Rle_trans; [exact E|].
    assert (u64 * Rabs (3 * fR y) <= u64 * (3 * M)) by (apply Rmult_le_compat_l; lra).
    replace (u64 * (3 * M)) with (3 * U) in H by (unfold U; ring). lra. }
  destruct (M3 b Fb Hb) as [Fb3 Eb]. destruct (M3 c Fc Hc) as [Fc3 Ec]. clear M3.
  apply Rabs_le_inv in Ha, Hb, Hc, Hd.
  assert (A1 : Rabs (fR (f_ofZ (-1) * a)%float + fR (f_ofZ 3 * b)%float) <= (4 + / 512) * M) by (rewrite Vna; apply Rabs_le; lra).
  destruct (fadd_err _ _ Fna Fb3 ltac:(apply B1; lra)) as [F1 E1]. set (t1 := (f_ofZ (-1) * a + f_ofZ 3 * b)%float) in *.
  assert (E1' : Rabs (fR t1 - (fR (f_ofZ (-1) * a)%float + fR (f_ofZ 3 * b)%float)) <= (4 + / 512) * U).
  { eapply Rle_trans; [exact E1|]. unfold U. replace ((4 + / 512) * (u64 * M)) with (u64 * ((4 + / 512) * M)) by ring. apply Rmult_le_compat_l; lra. }
  rewrite Vna in E1'. apply Rabs_le_inv in E1'.
  assert (A2 : Rabs (fR t1 - fR (f_ofZ 3 * c)%float) <= (7 + / 128) * M) by (apply Rabs_le; lra).
  destruct (fsub_err t1 _ F1 Fc3 ltac:(apply B1; lra)) as [F2 E2]. set (t2 := (t1 - f_ofZ 3 * c)%float) in *.
  assert (E2' : Rabs (fR t2 - (fR t1 - fR (f_ofZ 3 * c)%float)) <= (7 + / 128) * U).
  { eapply Rle_trans; [exact E2|]. unfold U. replace ((7 + / 128) * (u64 * M)) with (u64 * ((7 + / 128) * M)) by ring. apply Rmult_le_compat_l; lra. }
  apply Rabs_le_inv in E2'.
  assert (A3 : Rabs (fR t2 + fR d) <= (8 + / 64) * M) by (apply Rabs_le; lra).
  destruct (fadd_err t2 d F2 Fd ltac:(apply B1; lra)) as [F4 E4].
  assert (E4' : Rabs (fR (t2 + d)%float - (fR t2 + fR d)) <= (8 + / 64) * U).
  { eapply Rle_trans; [exact E4|]. unfold U. replace ((8 + / 64) * (u64 * M)) with (u64 * ((8 + / 64) * M)) by ring. apply Rmult_le_compat_l; lra. }
  apply Rabs_le_inv in E4'. split; [exact F4|]. apply Rabs_le. lra.
Qed.

Lemma live_ok j : (3 * m + j <= N)%nat -> ffin (live f m j) /\
  Rabs (fR (live f m j) - W j) <= (13 * INR m + 28) * INR (m + j) * U /\ Rabs (W j) <= 4 * (INR m * M).
Proof using All.
  destruct rt_consts as (PM & Uq & UM & Pm & PN & NU & EU & RK).
  induction j as [|j IH]; intro Hj.
  - destruct (fill_ok m ltac:(lia) ltac:(lia)) as [F E]. cbn [live]. split; [exact F|]. rewrite Nat.add_0_r.
    change (W 0) with (bigsum m dd). pose proof (dsum_bound m 0 ltac:(lia)) as B. split; [|exact B].
    eapply Rle_trans; [exact E|]. assert (0 <= 28 * INR m * U) by (repeat apply Rmult_le_pos; lra). nra.
  - destruct (IH ltac:(lia)) as (F & E & B). destruct (slide_ok j ltac:(lia)) as [Fs Es]. clear IH. cbn [live nadd FNum].
    pose proof (dsum_bound m (S j) ltac:(lia)) as B1. change (bigsum m (fun i => dd (S j + i))) with (W (S j)) in B1.
    rewrite Nat.add_succ_r, S_INR.
    assert (KN : INR (m + j) + 1 <= INR N) by (rewrite <- S_INR; apply le_INR; lia). pose proof (pos_INR (m + j)) as K0.
    set (k := INR (m + j)) in *. set (mM := INR m * M) in *.
    assert (mM1 : M <= mM) by (unfold mM; nra).
    assert (Small : (13 * INR m + 28) * k * U <= / 100 * mM).
    { replace ((13 * INR m + 28) * k * U) with (k * u64 * (13 * mM + 28 * M)) by (unfold U, mM; ring).
      assert (k * u64 <= / 8192) by nra. assert (0 <= k * u64) by nra.
      apply Rle_trans with (/ 8192 * (13 * mM + 28 * M)); [apply Rmult_le_compat_r; lra|lra]. }
    set (s := live f m j) in *. set (t := slide f m j) in *.
    apply Rabs_le_inv in E, B, Es, B1.
    assert (A : Rabs (fR s + fR t) <= 5 * mM) by (apply Rabs_le; lra).
    destruct (fadd_err s t F Fs) as [G Eg]; [apply big_ok; fold mM; lra|].
    assert (Eg' : Rabs (fR (s + t)%float - (fR s + fR t)) <= 5 * INR m * U).
    { eapply Rle_trans; [exact Eg|]. replace (5 * INR m * U) with (u64 * (5 * mM)) by (unfold U, mM; ring). apply Rmult_le_compat_l; lra. }
    apply Rabs_le_inv in Eg'. split; [exact G|]. split; [|apply Rabs_le; lra].
    assert (PmU : 0 <= INR m * U) by (apply Rmult_le_pos; lra).
    replace ((13 * INR m + 28) * (k + 1) * U) with ((13 * INR m + 28) * k * U + 13 * (INR m * U) + 28 * U) by ring.
    apply Rabs_le. lra.
Qed.

Lemma tdev_coef n : (1 <= n)%nat -> (Z.of_nat n <= 2 ^ 40)%Z ->
  approx (f_ofZ 1 / f_ofZ 6 * (f_ofZ 1 / f_ofZ (Z.of_nat n)) * (f_ofZ 1 / nsq (f_ofZ (Z.of_nat m))))%float (/ (6 * (INR m * INR m) * INR n)) 7.
Proof using All.
  intros Hn1 Hn. assert (Rn : rg (INR n) 0 40) by (now apply rg_nat). assert (Rm : rg (INR m) 0 40) by (apply rg_nat; lia).
  assert (R6 : rg 6 0 3) by (split; cbn; lra). pose proof (rg_pos _ _ _ Rn) as Pn. pose proof (rg_pos _ _ _ Rm) as Pm.
  assert (S1 := rg_mul _ _ _ _ _ _ Rm Rm). assert (S2 := rg_inv _ _ _ S1). assert (S3 := rg_inv _ _ _ Rn). assert (S4 := rg_inv _ _ _ R6).
  assert (S5 := rg_mul _ _ _ _ _ _ S4 S3). assert (S6 := rg_mul _ _ _ _ _ _ S5 S2). cbn [Z.add Z.opp] in S1, S2, S3, S4, S5, S6.
  assert (Am : approx (f_ofZ (Z.of_nat m)) (INR m) 0) by (rewrite INR_IZR_INZ; apply approx_Z; lia).
  assert (A1 : approx (f_ofZ 1) 1 0) by (apply (approx_Z 1); lia).
  destruct (fofZ_ok 6 ltac:(lia)) as [F6 V6]. destruct (fofZ_ok (Z.of_nat n) ltac:(lia)) as [Fn Vn]. rewrite <- INR_IZR_INZ in Vn.
  assert (A6 : approx (f_ofZ 1 / f_ofZ 6)%float (/ 6) 1).
  { replace (/ 6) with (1 / fR (f_ofZ 6)) by (rewrite V6; field). apply approx_div; [exact A1|exact F6|rewrite V6; lra| |lia].
    rewrite V6. replace (1 / 6) with (/ 6) by field. now apply (rg_mid _ _ _ S4). }
  assert (An : approx (f_ofZ 1 / f_ofZ (Z.of_nat n))%float (/ INR n) 1).
  { replace (/ INR n) with (1 / fR (f_ofZ (Z.of_nat n))) by (rewrite Vn; field; lra). apply approx_div; [exact A1|exact Fn|rewrite Vn; lra| |lia].
    rewrite Vn. replace (1 / INR n) with (/ INR n) by (field; lra). now apply (rg_mid _ _ _ S3). }
  assert (Aq : approx (f_ofZ 1 / nsq (f_ofZ (Z.of_nat m)))%float (/ (INR m * INR m)) 3).
  { apply approx_inv; [|now apply (rg_pos _ _ _ S1)|now apply (rg_mid _ _ _ S2)|lia].
    unfold nsq. cbn [nmul FNum]. apply (approx_mul _ _ _ _ 0 0); [exact Am|exact Am|now apply (rg_mid _ _ _ S1)|lia]. }
  replace (/ (6 * (INR m * INR m) * INR n)) with (/ 6 * / INR n * / (INR m * INR m)) by (field; lra).
  apply (approx_mul _ _ _ _ 3 3); [|exact Aq|now apply (rg_mid _ _ _ S6)|lia].
  apply (approx_mul _ _ _ _ 1 1); [exact A6|exact An|now apply (rg_mid _ _ _ S5)|lia].
Qed.

Lemma tdev_live_row : (3 * m <= N)%nat -> let n := (N - 3 * m + 1)%nat in
  near (tdev_value N m (live_sq f m (N - 3 * m)))
    (R_sqrt.sqrt (bigsum n (fun k => W k ^ 2) / (6 * (INR m * INR m) * INR n))) (n + 10) ((6 + 12 / INR m) * INR N * U).
Proof using All.
  intros H3 n. destruct rt_consts as (PM & Uq & UM & Pm & PN & NU & EU & RK).
  assert (Im : 0 < / INR m <= 1) by (split; [apply Rinv_0_lt_compat; lra|rewrite <- Rinv_1; apply Rinv_le; lra]).
  assert (Rm : rg (INR m) (-100) 140).
  { split; [apply Rle_trans with (bpow radix2 0); [apply bpow_le; lia|apply Pm]|]. eapply Rle_trans; [apply Pm|apply bpow_le; lia]. }
  set (d := (13 * INR m + 28) * INR N * U).
  assert (Pd : 0 <= d) by (unfold d; repeat apply Rmult_le_pos; lra).
  assert (mM1 : M <= INR m * M) by nra.
  unfold tdev_value. change (@ofZ float FNum) with f_ofZ. unfold ofN. change (@ofZ float FNum) with f_ofZ. cbn [nsqrt nmul ndiv FNum].
  replace (Z.of_nat N - 3 * Z.of_nat m + 1)%Z with (Z.of_nat n) by (unfold n; lia).
  eapply near_weaken; [apply (live_row n (live f m) W _ _ 6 (INR m) M d (5 / 12 * (d / INR m)))|].
  - unfold n; lia.
  - unfold n; lia.
  - apply HM.
  - lra.
  - exact Rm.
  - exact Pd.
  - apply Rmult_le_pos; [lra|]. apply Rmult_le_pos; lra.
  - intros k Hk. unfold n in Hk. destruct (live_ok k ltac:(lia)) as (F & E & B). split; [exact F|].
    assert (Lk : INR (m + k) <= INR N) by (apply le_INR; lia).
    assert (E' : Rabs (fR (live f m k) - W k) <= d).
    { eapply Rle_trans; [exact E|]. unfold d. apply Rmult_le_compat_r; [lra|]. apply Rmult_le_compat_l; [lra|exact Lk]. }
    split; [|exact E'].
    assert (Small : d <= / 100 * (INR m * M)).
    { unfold d. replace ((13 * INR m + 28) * INR N * U) with (INR N * u64 * (13 * (INR m * M) + 28 * M)) by (unfold U; ring).
      apply Rle_trans with (/ 8192 * (13 * (INR m * M) + 28 * M)); [apply Rmult_le_compat_r; lra|lra]. }
    apply Rabs_le_inv in E', B. apply Rle_trans with (8 * (INR m * M)); [apply Rabs_le; lra|].
    apply Rle_trans with (bpow radix2 3 * (bpow radix2 40 * bpow radix2 200)).
    + change (bpow radix2 3) with 8. assert (INR m * M <= bpow radix2 40 * bpow radix2 200) by (apply Rmult_le_compat; lra). lra.
    + rewrite <- !bpow_plus. apply bpow_le. lia.
  - replace n with (S (N - 3 * m)) by (unfold n; lia). apply live_sq_sum.
  - replace (5 / 12 * (d / INR m) * (5 / 12 * (d / INR m)) * (6 * (INR m * INR m))) with (150 / 144 * (d * d)) by (field; lra). nra.
  - apply tdev_coef; unfold n; lia.
  - apply Rle_trans with (bpow radix2 200); [|apply bpow_le; lia]. replace (u64 * M / (16 * INR m)) with (/ 16 * U * / INR m) by (unfold U; field; lra).
    apply Rle_trans with (M * 1); [|lra]. apply Rmult_le_compat; lra.
  - assert (Ed : d / INR m = (13 + 28 * / INR m) * (INR N * U)) by (unfold d; field; lra).
    rewrite Ed. replace (u64 * M / (8 * INR m)) with (/ 8 * (/ INR m * U)) by (unfold U; field; lra).
    replace (12 / INR m) with (12 * / INR m) by reflexivity. set (i := / INR m) in *. set (NUU := INR N * U).
    assert (NU1 : U <= NUU) by (unfold NUU; nra). replace ((6 + 12 * i) * INR N * U) with ((6 + 12 * i) * NUU) by (unfold NUU; ring). nra.
Qed.
End Rows.

(** ** The streams *)
(** The averaging factors of an object, the deviation reported in binary64 for each, and the exact one. *)
Definition live_within (afs : list nat) (devs : list float) (exact : nat -> R) (J B : nat -> R) : Prop :=
  Forall2 (fun af d => ffin d /\ 0 <= fR d /\ Rabs (fR d - exact af) <= (1 + / 1000) * (J af * u64) * exact af + B af) afs devs.

Lemma near_bound d X j b : near d X j b -> (Z.of_nat j <= 2 ^ 42)%Z -> 0 <= X ->
  ffin d /\ 0 <= fR d /\ Rabs (fR d - X) <= (1 + / 1000) * (INR j * u64) * X + b.
Proof.
  intros (F & P & E) Hj PX. split; [exact F|]. split; [exact P|]. eapply Rle_trans; [exact E|]. apply Rplus_le_compat_r, Rmult_le_compat_r; [exact PX|].
  now apply pow_u_le.
Qed.
Lemma zero_bound X J b : X = 0 -> 0 <= b -> ffin (f_ofZ 0) /\ 0 <= fR (f_ofZ 0) /\ Rabs (fR (f_ofZ 0) - X) <= (1 + / 1000) * (J * u64) * X + b.
Proof.
  intros -> Hb. destruct (fofZ_ok 0 ltac:(lia)) as [F V]. split; [exact F|]. rewrite V, Rminus_diag_eq, Rabs_R0 by reflexivity. split; lra.
Qed.

Lemma fixed_run_gen upd (c : @cfg float) g afs xs : local_upd upd c g -> auto_afs c = false ->
  exists s, run (add_phase upd) c (rt_init c afs) xs = Ok s /\ rx s = xs /\ rafs s = afs /\
    rt_devs s = map (fun af => snd (slot_after g xs af 0 (len xs))) afs.
Proof.
  intros Hl Ha. eexists. split; [apply (run_fixed upd c g afs xs Hl Ha)|]. split; [reflexivity|]. split; [reflexivity|].
  unfold rt_devs. cbn [st rdev]. apply (map_tab_nth (fun af => snd (slot_after g xs af 0 (len xs)))).
Qed.
Lemma Forall2_map_r {B C} (P : B -> C -> Prop) (h : B -> C) l : Forall (fun a => P a (h a)) l -> Forall2 P l (map h l).
Proof. induction 1; cbn; constructor; auto. Qed.
Lemma nth_fR x i : nth i (map fR x) 0 = fR (nth i x (f_ofZ 0)).
Proof. assert (V : fR (f_ofZ 0) = 0) by (apply fofZ_ok; lia). rewrite <- V. apply (map_nth fR). Qed.

Theorem C104_oadev t0 l M afs xs : bounded_record xs M -> bpow radix2 (-200) <= M <= bpow radix2 200 -> moderate_rate t0 ->
  Forall (fun af => (1 <= af)%nat) afs ->
  exists s, run oadev_add_phase (mkcfg t0 false l) (rt_init (mkcfg t0 false l) afs) xs = Ok s /\ rafs s = afs /\
    live_within afs (rt_devs s) (live_oadev (map fR xs) (fR t0)) (fun af => INR (len xs - 2 * af + 10))
      (fun af => 7 * (u64 * M / (INR af * fR t0))).
Proof.
  intros Hx HM Ht Ha. destruct Hx as (HN & _ & Hx). destruct (fixed_run_gen oadev_upd (mkcfg t0 false l) _ afs xs (oadev_local _) eq_refl) as (s & E & _ & Er & Ed).
  exists s. split; [exact E|]. split; [exact Er|]. rewrite Ed. apply Forall2_map_r.
  assert (P0 : 0 < fR t0) by (destruct Ht as [_ [H _]]; pose proof (bpow_gt_0 radix2 (-100)); lra).
  assert (PM : 0 < M) by (pose proof (bpow_gt_0 radix2 (-200)); lra). pose proof u64_pos as Pu.
  revert Ha. apply Forall_impl. intros af Haf. cbn [tau0]. rewrite (oadev_slot_gen t0 xs af (len xs)) by lia. cbn [snd].
  assert (Pa : 1 <= INR af) by (change 1 with (INR 1); now apply le_INR).
  assert (PK : 0 < INR af * fR t0) by (apply Rmult_lt_0_compat; lra).
  unfold live_oadev. rewrite map_length. destruct (Nat.ltb_spec (2 * af) (len xs)) as [H|H].
  - destruct (Nat.leb_spec (2 * af + 1) (len xs)) as [_|]; [|lia].
    assert (Hf : forall i, (i < len xs)%nat -> ffin (nth i xs (f_ofZ 0)) /\ Rabs (fR (nth i xs (f_ofZ 0))) <= M).
    { intros i Hi. rewrite Forall_forall in Hx. apply Hx, nth_In, Hi. }
    pose proof (oadev_live_row (len xs) af (fun i => nth i xs (f_ofZ 0)) M t0 HN Haf H HM Hf Ht _ (sum_left _)) as R. cbv zeta in R.
    apply near_bound in R; [|lia|apply sqrt_pos].
    replace (oavar (map fR xs) (fR t0) af) with
      (bigsum (len xs - 2 * af) (fun k => (fR (nth (2 * af + k) xs (f_ofZ 0)) - 2 * fR (nth (af + k) xs (f_ofZ 0)) + fR (nth k xs (f_ofZ 0))) ^ 2)
       / (2 * (INR af * fR t0 * (INR af * fR t0)) * INR (len xs - 2 * af))); [exact R|].
    unfold oavar, oadev_n. rewrite map_length. unfold Rdiv. rewrite Rmult_comm. f_equal; [f_equal; ring|].
    apply bigsum_ext. intros k _. unfold d2. rewrite !nth_fR, (Nat.add_comm k (2 * af)), (Nat.add_comm k af). reflexivity.
  - destruct (Nat.leb_spec (2 * af + 1) (len xs)) as [|_]; [lia|]. apply zero_bound; [reflexivity|].
    apply Rmult_le_pos; [lra|]. apply Rmult_le_pos; [nra|]. left. now apply Rinv_0_lt_compat.
Qed.
Print Assumptions C104_oadev.

Theorem C104_ohdev t0 l M afs xs : bounded_record xs M -> bpow radix2 (-200) <= M <= bpow radix2 200 -> moderate_rate t0 ->
  Forall (fun af => (1 <= af)%nat) afs ->
  exists s, run ohdev_add_phase (mkcfg t0 false l) (rt_init (mkcfg t0 false l) afs) xs = Ok s /\ rafs s = afs /\
    live_within afs (rt_devs s) (live_ohdev (map fR xs) (fR t0)) (fun af => INR (len xs - 3 * af + 10))
      (fun af => 13 * (u64 * M / (INR af * fR t0))).
Proof.
  intros Hx HM Ht Ha. destruct Hx as (HN & _ & Hx). destruct (fixed_run_gen ohdev_upd (mkcfg t0 false l) _ afs xs (ohdev_local _) eq_refl) as (s & E & _ & Er & Ed).
  exists s. split; [exact E|]. split; [exact Er|]. rewrite Ed. apply Forall2_map_r.
  assert (P0 : 0 < fR t0) by (destruct Ht as [_ [H _]]; pose proof (bpow_gt_0 radix2 (-100)); lra).
  assert (PM : 0 < M) by (pose proof (bpow_gt_0 radix2 (-200)); lra). pose proof u64_pos as Pu.
  revert Ha. apply Forall_impl. intros af Haf. cbn [tau0]. rewrite (ohdev_slot_gen t0 xs af (len xs)) by lia. cbn [snd].
  assert (Pa : 1 <= INR af) by (change 1 with (INR 1); now apply le_INR).
  assert (PK : 0 < INR af * fR t0) by (apply Rmult_lt_0_compat; lra).
  unfold live_ohdev. rewrite map_length. destruct (Nat.ltb_spec (3 * af) (len xs)) as [H|H].
  - destruct (Nat.leb_spec (3 * af + 1) (len xs)) as [_|]; [|lia].
    assert (Hf : forall i, (i < len xs)%nat -> ffin (nth i xs (f_ofZ 0)) /\ Rabs (fR (nth i xs (f_ofZ 0))) <= M).
    { intros i Hi. rewrite Forall_forall in Hx. apply Hx, nth_In, Hi. }
    pose proof (ohdev_live_row (len xs) af (fun i => nth i xs (f_ofZ 0)) M t0 HN Haf ltac:(lia) HM Hf Ht _ H (sum_left _)) as R. cbv zeta in R.
    apply near_bound in R; [|lia|apply sqrt_pos].
    replace (ohvar (map fR xs) (fR t0) af) with
      (bigsum (len xs - 3 * af) (fun k => (fR (nth (3 * af + k) xs (f_ofZ 0)) - 3 * fR (nth (2 * af + k) xs (f_ofZ 0)) + 3 * fR (nth (af + k) xs (f_ofZ 0))
          - fR (nth k xs (f_ofZ 0))) ^ 2)
       / (6 * (INR af * fR t0 * (INR af * fR t0)) * INR (len xs - 3 * af))); [exact R|].
    unfold ohvar, ohdev_n. rewrite map_length. unfold Rdiv. rewrite Rmult_comm. f_equal; [f_equal; ring|].
    apply bigsum_ext. intros k _. unfold d3. rewrite !nth_fR, (Nat.add_comm k (3 * af)), (Nat.add_comm k (2 * af)), (Nat.add_comm k af). reflexivity.
  - destruct (Nat.leb_spec (3 * af + 1) (len xs)) as [|_]; [lia|]. apply zero_bound; [reflexivity|].
    apply Rmult_le_pos; [lra|]. apply Rmult_le_pos; [nra|]. left. now apply Rinv_0_lt_compat.
Qed.
Print Assumptions C104_ohdev.

Lemma tdev_dev_near t0 M af xs : bounded_record xs M -> bpow radix2 (-200) <= M <= bpow radix2 200 -> moderate_rate t0 -> (1 <= af)%nat ->
  (3 * af <= len xs)%nat ->
  near (snd (slot_after (@tdev_g float FNum) xs af 0 (len xs))) (live_tdev (map fR xs) (fR t0) af) (len xs - 3 * af + 11)
    ((6 + 12 / INR af) * INR (len xs) * (u64 * M)) /\ live_tdev (map fR xs) (fR t0) af <= 4 * M.
Proof.
  intros Hx HM Ht Haf H3. destruct Hx as (HN & _ & Hx).
  assert (P0 : 0 < fR t0) by (destruct Ht as [_ [H _]]; pose proof (bpow_gt_0 radix2 (-100)); lra).
  assert (PM : 0 < M) by (pose proof (bpow_gt_0 radix2 (-200)); lra).
  assert (Pa : 1 <= INR af) by (change 1 with (INR 1); now apply le_INR).
  assert (Hf : forall i, (i < len xs)%nat -> ffin (nth i xs (f_ofZ 0)) /\ Rabs (fR (nth i xs (f_ofZ 0))) <= M).
  { intros i Hi. rewrite Forall_forall in Hx. apply Hx, nth_In, Hi. }
  rewrite (tdev_slot_gen xs af (len xs)) by lia. destruct (Nat.ltb_spec (len xs) (3 * af)); [lia|]. cbn [snd].
  pose proof (tdev_live_row (len xs) af (fun i => nth i xs (f_ofZ 0)) M t0 HN Haf ltac:(lia) HM Hf Ht H3) as R. cbv zeta in R.
  replace (len xs - 3 * af + 1 + 10)%nat with (len xs - 3 * af + 11)%nat in R by lia.
  set (n := (len xs - 3 * af + 1)%nat) in *.
  set (W := fun j => bigsum af (fun i => fR (nth (2 * af + (j + i)) xs (f_ofZ 0)) - 2 * fR (nth (af + (j + i)) xs (f_ofZ 0)) + fR (nth (j + i) xs (f_ofZ 0)))).
  assert (Pn : 1 <= INR n) by (change 1 with (INR 1); apply le_INR; unfold n; lia).
  assert (Ev : live_tdev (map fR xs) (fR t0) af = R_sqrt.sqrt (bigsum n (fun k => W k ^ 2) / (6 * (INR af * INR af) * INR n))).
  { unfold live_tdev. rewrite map_length. destruct (Nat.leb_spec (3 * af) (len xs)) as [_|]; [|lia]. f_equal.
    unfold tvar, mvar, mdev_n. rewrite map_length. replace (Z.of_nat (len xs) - 3 * Z.of_nat af + 1)%Z with (Z.of_nat n) by (unfold n; lia).
    rewrite Nat2Z.id, <- INR_IZR_INZ.
    rewrite (bigsum_ext n (fun j => (bigsum af (fun i => d2 (map fR xs) af (j + i))) ^ 2) (fun k => W k ^ 2)); [field; lra|].
    intros j _. f_equal. apply bigsum_ext. intros i _. unfold d2. rewrite !nth_fR, (Nat.add_comm (j + i) (2 * af)), (Nat.add_comm (j + i) af). reflexivity. }
  rewrite Ev. split; [exact R|].
  apply Rle_trans with (R_sqrt.sqrt (bigsum n (fun k => (W k / INR af) ^ 2) / (6 * INR n))).
  { apply Req_le. f_equal. rewrite (bigsum_ext n (fun k => (W k / INR af) ^ 2) (fun k => / (INR af * INR af) * W k ^ 2)) by (intros; field; lra).
    rewrite bigsum_scal. field. lra. }
  apply rms_bound; [unfold n; lia|lra|lra|]. intros k Hk. unfold n in Hk. unfold Rdiv. rewrite Rabs_mult, (Rabs_pos_eq (/ INR af)) by (left; apply Rinv_0_lt_compat; lra).
  apply (Rmult_le_reg_r (INR af)); [lra|]. rewrite Rmult_assoc, Rinv_l, Rmult_1_r by lra.
  pose proof (dsum_bound (len xs) af (fun i => nth i xs (f_ofZ 0)) M t0 HN Haf ltac:(lia) HM Hf Ht af k ltac:(lia)) as B. unfold W. lra.
Qed.

Theorem C104_tdev t0 l M afs xs : bounded_record xs M -> bpow radix2 (-200) <= M <= bpow radix2 200 -> moderate_rate t0 ->
  Forall (fun af => (1 <= af)%nat) afs ->
  exists s, run tdev_add_phase (mkcfg t0 false l) (rt_init (mkcfg t0 false l) afs) xs = Ok s /\ rafs s = afs /\
    live_within afs (rt_devs s) (live_tdev (map fR xs) (fR t0)) (fun af => INR (len xs - 3 * af + 11))
      (fun af => (6 + 12 / INR af) * INR (len xs) * (u64 * M)).
Proof.
  intros Hx HM Ht Ha. destruct (fixed_run_gen tdev_upd (mkcfg t0 false l) _ afs xs (tdev_local _) eq_refl) as (s & E & _ & Er & Ed).
  exists s. split; [exact E|]. split; [exact Er|]. rewrite Ed. apply Forall2_map_r.
  assert (PM : 0 < M) by (pose proof (bpow_gt_0 radix2 (-200)); lra). pose proof u64_pos as Pu.
  revert Ha. apply Forall_impl. intros af Haf.
  assert (Pa : 1 <= INR af) by (change 1 with (INR 1); now apply le_INR).
  assert (Ia : 0 < / INR af) by (apply Rinv_0_lt_compat; lra).
  destruct (le_lt_dec (3 * af) (len xs)) as [H|H].
  - destruct (tdev_dev_near t0 M af xs Hx HM Ht Haf H) as [R _]. apply near_bound in R; [exact R|destruct Hx; lia|].
    unfold live_tdev. destruct (_ <=? _)%nat; [apply sqrt_pos|lra].
  - rewrite (tdev_slot_gen xs af (len xs)) by lia. destruct (Nat.ltb_spec (len xs) (3 * af)); [|lia]. cbn [snd].
    apply zero_bound; [unfold live_tdev; rewrite map_length; destruct (Nat.leb_spec (3 * af) (len xs)); [lia|reflexivity]|].
    apply Rmult_le_pos; [|nra]. apply Rmult_le_pos; [|apply pos_INR]. unfold Rdiv. nra.
Qed.
Print Assumptions C104_tdev.

Lemma mdev_loop_gen {A} {NA : Num A} (h : nat -> A -> A) n (f : nat -> A) k : (k <= n)%nat ->
  foldM (fun l idx => v <- get_nth l idx ;; set_nth idx (h idx v) l) (seq 0 k) (tab n f) = Ok (tab n (fun j => if (j <? k)%nat then h j (f j) else f j)).
Proof.
  induction k as [|k IH]; intros Hk; [reflexivity|].
  assert (E : forall (l1 l2 : list nat) s, foldM (fun l idx => v <- get_nth l idx ;; set_nth idx (h idx v) l) (l1 ++ l2) s =
      bind (foldM (fun l idx => v <- get_nth l idx ;; set_nth idx (h idx v) l) l1 s) (foldM (fun l idx => v <- get_nth l idx ;; set_nth idx (h idx v) l) l2)).
  { induction l1 as [|a l1 IHl]; intros l2 s; [reflexivity|]. cbn [app foldM]. destruct (v <- get_nth s a ;; set_nth a (h a v) s); cbn; [apply IHl|reflexivity]. }
  rewrite seq_S, E, IH by lia. cbn [bind foldM Nat.add]. rewrite get_nth_tab by lia. cbn [bind]. rewrite set_nth_tab by lia. cbn [bind]. f_equal.
  apply tab_ext. intros j Hj. destruct (Nat.eqb_spec j k) as [->|Hne].
  - rewrite Nat.ltb_irrefl. destruct (Nat.ltb_spec k (S k)); [reflexivity|lia].
  - destruct (Nat.ltb_spec j k), (Nat.ltb_spec j (S k)); try lia; reflexivity.
Qed.

Lemma sqrt3_approx : approx (fsqrt (f_ofZ 3)) (R_sqrt.sqrt 3) 2 /\ 1.7 <= R_sqrt.sqrt 3 <= 1.7321.
Proof.
  assert (S3 : 1.7 <= R_sqrt.sqrt 3 <= 1.7321).
  { split; [rewrite <- (sqrt_square 1.7) by lra|rewrite <- (sqrt_square 1.7321) by lra]; apply sqrt_le_1_alt; lra. }
  split; [|exact S3]. destruct (fofZ_ok 3 ltac:(lia)) as [F3 V3].
  destruct (fsqrt_err (f_ofZ 3) F3 ltac:(rewrite V3; lra)) as (F & _ & E). rewrite V3 in E. split; [exact F|].
  rewrite (Rabs_pos_eq (R_sqrt.sqrt 3)) by lra. eapply Rle_trans; [exact E|]. apply Rmult_le_compat_r; [lra|]. pose proof u64_pos. cbn [pow]. nra.
Qed.

Lemma rnd_0 : rnd 0 = 0.
Proof. rewrite rnd_FLT. apply round_0. typeclasses eauto. Qed.

Definition live_mdev (xs : list R) (t0 : R) (af : nat) : R := if (3 * af <=? len xs)%nat then R_sqrt.sqrt (mvar xs t0 af) else 0.

Theorem C104_mdev t0 l M afs xs : bounded_record xs M -> bpow radix2 (-200) <= M <= bpow radix2 200 -> moderate_rate t0 ->
  Forall (fun af => (1 <= af)%nat /\ (Z.of_nat af <= 2 ^ 40)%Z) afs ->
  exists s ds, run tdev_add_phase (mkcfg t0 false l) (rt_init (mkcfg t0 false l) afs) xs = Ok s /\ rt_mdev (mkcfg t0 false l) s = Ok ds /\
    live_within afs ds (live_mdev (map fR xs) (fR t0)) (fun af => INR (len xs - 3 * af + 18))
      (fun af => (11 + 21 / INR af) * INR (len xs) * (u64 * M / (INR af * fR t0))).
Proof.
  intros Hx HM Ht Ha. set (c := mkcfg t0 false l). destruct (fixed_run_gen tdev_upd c _ afs xs (tdev_local _) eq_refl) as (s & E & _ & Er & Ed).
  exists s. eexists. split; [exact E|]. unfold rt_mdev. rewrite Er. unfold rt_devs in Ed. rewrite Ed.
  rewrite <- (map_tab_nth (fun af => snd (slot_after tdev_g xs af 0 (len xs)))).
  rewrite (mdev_loop_gen (fun idx v => ndiv (nmul v (nsqrt (ofZ 3))) (nmul (ofN (nth idx afs 0%nat)) (tau0 c)))) by lia. split; [reflexivity|].
  rewrite (tab_ext _ _ (fun j => ndiv (nmul (snd (slot_after tdev_g xs (nth j afs 0%nat) 0 (len xs))) (nsqrt (ofZ 3))) (nmul (ofN (nth j afs 0%nat)) t0)))
    by (intros j Hj; destruct (Nat.ltb_spec j (len afs)); [reflexivity|lia]).
  rewrite (map_tab_nth (fun af => ndiv (nmul (snd (slot_after tdev_g xs af 0 (len xs))) (nsqrt (ofZ 3))) (nmul (ofN af) t0))).
  apply Forall2_map_r.
  assert (PM : 0 < M) by (pose proof (bpow_gt_0 radix2 (-200)); lra). pose proof u64_pos as Pu.
  assert (P0 : 0 < fR t0) by (destruct Ht as [_ [H _]]; pose proof (bpow_gt_0 radix2 (-100)); lra).
  revert Ha. apply Forall_impl. intros af [Haf HafM].
  assert (Pa : 1 <= INR af) by (change 1 with (INR 1); now apply le_INR).
  assert (Ia : 0 < / INR af) by (apply Rinv_0_lt_compat; lra).
  set (K := INR af * fR t0). assert (PK : 0 < K) by (apply Rmult_lt_0_compat; lra).
  assert (IK : 0 < / K) by (now apply Rinv_0_lt_compat).
  destruct sqrt3_approx as [A3 S3]. set (r3 := R_sqrt.sqrt 3) in *.
  assert (RK : rg K (-100) 140).
  { unfold K. destruct Ht as [_ Hr]. apply (rg_mul _ _ 0 40 (-100) 100); [apply rg_nat; lia|exact Hr]. }
  assert (At : approx (f_ofZ (Z.of_nat af) * t0)%float K 2).
  { assert (A1 : approx (f_ofZ (Z.of_nat af) * t0)%float K 1).
    { apply (approx_mul _ _ _ _ 0 0); [rewrite INR_IZR_INZ; apply approx_Z; lia|apply approx_self, Ht|now apply (rg_mid _ _ _ RK)|lia]. }
    destruct A1 as [F Q]. split; [exact F|]. eapply Rle_trans; [exact Q|]. apply Rmult_le_compat_r; [apply Rabs_pos|].
    apply Rplus_le_compat_r, Rle_pow; [lra|lia]. }
  unfold live_mdev. rewrite map_length. destruct (Nat.leb_spec (3 * af) (len xs)) as [H|H].
  - destruct (tdev_dev_near t0 M af xs Hx HM Ht Haf H) as [R B]. destruct Hx as (HN & _ & Hx).
    assert (Nl : 1 <= INR (len xs)) by (change 1 with (INR 1); apply le_INR; lia).
    assert (NUu : INR (len xs) * u64 <= / 8192).
    { apply Rle_trans with (bpow radix2 40 * u64).
      + apply Rmult_le_compat_r; [lra|]. rewrite INR_IZR_INZ. change (bpow radix2 40) with (IZR (2 ^ 40)). now apply IZR_le.
      + change (bpow radix2 40) with (IZR (2 ^ 40)). unfold u64. cbn. lra. }
    assert (Ev : r3 * live_tdev (map fR xs) (fR t0) af / K = R_sqrt.sqrt (mvar (map fR xs) (fR t0) af)).
    { unfold live_tdev. rewrite map_length. destruct (Nat.leb_spec (3 * af) (len xs)) as [_|]; [|lia].
      unfold tvar, r3. fold K. assert (0 <= mvar (map fR xs) (fR t0) af).
      { unfold mvar, mdev_n. rewrite map_length. fold K. replace (Z.of_nat (len xs) - 3 * Z.of_nat af + 1)%Z with (Z.of_nat (len xs - 3 * af + 1)) by lia.
        rewrite <- INR_IZR_INZ. apply Rmult_le_pos; [|apply bigsum_nonneg; intros; apply pow2_ge_0].
        left. apply Rinv_0_lt_compat. assert (0 < INR (len xs - 3 * af + 1)) by (apply lt_0_INR; lia).
        repeat apply Rmult_lt_0_compat; try lra; apply pow_lt; lra. }
      rewrite <- sqrt_mult_alt by lra.
      replace (3 * (K ^ 2 / 3 * mvar (map fR xs) (fR t0) af)) with (K ^ 2 * mvar (map fR xs) (fR t0) af) by field.
      rewrite sqrt_mult_alt by apply pow2_ge_0. rewrite sqrt_pow2 by lra. field. lra. }
    rewrite <- Ev. set (X := live_tdev (map fR xs) (fR t0) af) in *.
    assert (PX : 0 <= X) by (unfold X, live_tdev; destruct (_ <=? _)%nat; [apply sqrt_pos|lra]).
    set (z := (6 + 12 / INR af) * INR (len xs) * (u64 * M)) in *.
    set (NU := INR (len xs) * (u64 * M)).
    assert (NU0 : u64 * M <= NU <= M).
    { unfold NU. assert (PUM : 0 < u64 * M) by (now apply Rmult_lt_0_compat). split.
      + rewrite <- (Rmult_1_l (u64 * M)) at 1. apply Rmult_le_compat_r; lra.
      + replace (INR (len xs) * (u64 * M)) with (INR (len xs) * u64 * M) by ring. rewrite <- (Rmult_1_l M) at 2. apply Rmult_le_compat_r; lra. }
    assert (PUM : 0 < u64 * M) by (now apply Rmult_lt_0_compat).
    assert (Ia1 : / INR af <= 1) by (rewrite <- Rinv_1; apply Rinv_le; lra).
    assert (Ez : z = (6 + 12 * / INR af) * NU) by (unfold z, NU, Rdiv; ring).
    assert (Pz : NU <= z <= 18 * M).
    { rewrite Ez. split; [nra|]. apply Rmult_le_compat; nra. }
    assert (B4 : 64 * M <= / 4 * bpow radix2 700).
    { apply Rle_trans with (64 * bpow radix2 200); [lra|]. replace (/ 4) with (bpow radix2 (-2)) by (cbn; lra). change 64 with (bpow radix2 6).
      rewrite <- !bpow_plus. apply bpow_le. lia. }
    assert (B7 : bpow radix2 700 <= bpow radix2 990) by (apply bpow_le; lia).
    assert (H1 := near_mul_approx_r (fsqrt (f_ofZ 3)) r3 2 _ X (len xs - 3 * af + 11) z A3 R ltac:(lra) PX ltac:(lra) ltac:(lia) ltac:(lia) ltac:(nra) ltac:(nra)).
    assert (Eu : eta <= / 4096 * (u64 * M)).
    { destruct bpow_nums as (_ & _ & Bu). apply Rle_trans with (bpow radix2 (-12) * (bpow radix2 (-53) * bpow radix2 (-200))).
      + unfold eta. rewrite <- !bpow_plus. apply bpow_le. lia.
      + rewrite Bu. apply Rmult_le_compat; [apply bpow_ge_0|apply Rmult_le_pos; [lra|apply bpow_ge_0]|cbn; lra|]. apply Rmult_le_compat_l; lra. }
    assert (Eu2 : eta <= / 4096 * (u64 * M * / K)).
    { destruct bpow_nums as (_ & _ & Bu). apply Rle_trans with (bpow radix2 (-12) * (bpow radix2 (-53) * bpow radix2 (-200) * bpow radix2 (-140))).
      + unfold eta. rewrite <- !bpow_plus. apply bpow_le. lia.
      + rewrite Bu. pose proof (rg_inv _ _ _ RK) as [L _]. apply Rmult_le_compat; [apply bpow_ge_0|repeat apply Rmult_le_pos; try apply bpow_ge_0; lra|cbn; lra|].
        apply Rmult_le_compat; [apply Rmult_le_pos; [lra|apply bpow_ge_0]|apply bpow_ge_0| |exact L]. apply Rmult_le_compat_l; lra. }
    pose proof eta_pos as Pe. set (z2 := (1 + u64) * ((1 + / 1000) * (r3 * z)) + eta) in *.
    assert (U1 : u64 <= / 4096 * / 4096) by (unfold u64; lra).
    assert (Z2 : 0 <= z2 <= 1.735 * z).
    { unfold z2. assert (r3 * z <= 1.7321 * z) by (apply Rmult_le_compat_r; lra). assert (0 <= r3 * z) by (apply Rmult_le_pos; lra). split; nra. }
    assert (IKb : / K <= bpow radix2 100) by (pose proof (rg_inv _ _ _ RK) as [_ L]; exact L).
    assert (Q1 : forall a, 0 <= a <= 64 * M -> a / K <= / 4 * bpow radix2 990).
    { intros a Hb. apply Rle_trans with (/ 4 * bpow radix2 700 * bpow radix2 100); [apply Rmult_le_compat; lra|].
      replace (/ 4) with (bpow radix2 (-2)) by (cbn; lra). rewrite <- !bpow_plus. apply bpow_le. lia. }
    assert (PrX : 0 <= r3 * X) by (apply Rmult_le_pos; lra).
    assert (H2 := near_div_approx _ (r3 * X) _ z2 _ K H1 At PK PrX (proj1 Z2) ltac:(lia) ltac:(apply Q1; split; [exact PrX|nra]) ltac:(apply Q1; nra)).
    unfold ofN. change (@ofZ float FNum) with f_ofZ. cbn [nsqrt nmul ndiv FNum].
    replace (len xs - 3 * af + 18)%nat with (S (3 + S (2 + (len xs - 3 * af + 11)))) by lia.
    apply near_bound; [|lia|apply Rmult_le_pos; lra].
    eapply near_weaken; [exact H2|].
    replace (u64 * M / K) with (u64 * M * / K) by reflexivity. unfold Rdiv. rewrite Ez in Z2.
    replace ((11 + 21 * / INR af) * INR (len xs) * (u64 * M * / K)) with ((11 + 21 * / INR af) * NU * / K) by (unfold NU; ring).
    assert (T1 : (1 + u64) * ((1 + / 1000) * (z2 * / K)) <= (10.5 + 20.9 * / INR af) * NU * / K).
    { replace ((1 + u64) * ((1 + / 1000) * (z2 * / K))) with ((1 + u64) * (1 + / 1000) * z2 * / K) by ring. apply Rmult_le_compat_r; [lra|].
      apply Rle_trans with (1.0011 * z2); [apply Rmult_le_compat_r; [lra|]; nra|]. assert (0 <= / INR af * NU) by nra. nra. }
    assert (T2 : u64 * M * / K <= NU * / K) by (apply Rmult_le_compat_r; lra).
    assert (0 <= / INR af * (NU * / K)) by (repeat apply Rmult_le_pos; lra). nra.
  - rewrite (tdev_slot_gen xs af (len xs)) by lia. destruct (Nat.ltb_spec (len xs) (3 * af)); [|lia]. cbn [snd].
    unfold ofN. change (@ofZ float FNum) with f_ofZ. cbn [nsqrt nmul ndiv FNum].
    assert (B0 : 0 <= bpow radix2 1000) by apply bpow_ge_0.
    destruct (fofZ_ok 0 ltac:(lia)) as [F0 V0]. destruct A3 as [F3 _]. destruct At as [Ft Et]. rewrite (Rabs_pos_eq K) in Et by lra.
    assert (Hpos : 0 < fR (f_ofZ (Z.of_nat af) * t0)%float).
    { apply Rabs_le_inv in Et. pose proof u64_pos. assert (u64 <= / 4096) by (unfold u64; lra). assert ((1 + u64) ^ 2 - 1 <= / 4) by (cbn; nra). nra. }
    assert (F1 : ffin (f_ofZ 0 * fsqrt (f_ofZ 3))%float /\ fR (f_ofZ 0 * fsqrt (f_ofZ 3))%float = 0).
    { destruct (fmul_ok (f_ofZ 0) (fsqrt (f_ofZ 3)) F0 F3) as [F V].
      - apply rnd_bound. rewrite V0, Rmult_0_l, Rabs_R0. exact B0.
      - split; [exact F|]. rewrite V, V0, Rmult_0_l. apply rnd_0. }
    destruct F1 as [F1 V1].
    destruct (fdiv_ok _ _ F1 (Rgt_not_eq _ _ Hpos)) as [F V].
    { apply rnd_bound. rewrite V1. unfold Rdiv. rewrite Rmult_0_l, Rabs_R0. exact B0. }
    split; [exact F|]. rewrite V, V1. replace (0 / fR (f_ofZ (Z.of_nat af) * t0)%float) with 0 by (unfold Rdiv; ring). rewrite rnd_0. split; [lra|].
    rewrite Rminus_0_r, Rabs_R0, Rmult_0_r, Rplus_0_l. pose proof (pos_INR (len xs)).
    apply Rmult_le_pos; [apply Rmult_le_pos; [|assumption]; unfold Rdiv; nra|]. unfold Rdiv. repeat apply Rmult_le_pos; lra.
Qed.
Print Assumptions C104_mdev.

(** The term that grows with the length of the stream is real: on a stream of equal values, whose deviation is zero, the running window sum of tdev_realtime picks up the same rounding error at every sample. *)
Lemma cst_live N k : (Z.of_nat N <= 2 ^ 40)%Z -> (3 + k <= N)%nat ->
  ffin (live (fun i => nth i (repeat cst N) (f_ofZ 0)) 1 k) /\ fR (live (fun i => nth i (repeat cst N) (f_ofZ 0)) 1 k) = - INR k.
Proof.
  intros HN Hk. assert (C : forall i, (i < N)%nat -> nth i (repeat cst N) (f_ofZ 0) = cst) by (intros i Hi; now rewrite repeat_tab, nth_tab).
  induction k as [|k IH].
  - cbn [live fill]. rewrite !C by lia.
    match goal with |- ffin ?e /\ _ => replace e with 0%float by (vm_compute; reflexivity) end.
    split; [now apply ffin_SF|]. rewrite fR_SF. cbn. lra.
  - destruct (IH ltac:(lia)) as [F V]. cbn [live]. unfold slide. rewrite !C by lia.
    match goal with |- context [nadd (live _ 1 k) ?e] => replace e with (-1)%float by (vm_compute; reflexivity) end.
    set (w := live _ 1 k) in *. cbn [nadd FNum].
    assert (F1 : ffin (-1)%float) by (now apply ffin_SF). assert (V1 : fR (-1)%float = -1).
    { rewrite fR_SF. replace (FloatOps.Prim2SF (-1)%float) with (S754_finite true 4503599627370496 (-52)) by reflexivity. cbn. unfold F2R. cbn. lra. }
    assert (S1 : fR w + fR (-1)%float = IZR (- Z.of_nat (S k))) by (rewrite V, V1, opp_IZR, <- INR_IZR_INZ, S_INR; ring).
    assert (E : rnd (fR w + fR (-1)%float) = fR w + fR (-1)%float) by (rewrite S1; apply rnd_int; lia).
    destruct (fadd_ok w (-1)%float F F1) as [F' V'].
    { rewrite E, S1, opp_IZR, Rabs_Ropp, Rabs_pos_eq by (apply IZR_le; lia). apply Rle_lt_trans with (IZR (2 ^ 40)); [apply IZR_le; lia|].
      change (IZR (2 ^ 40)) with (bpow radix2 40). apply bpow_lt. reflexivity. }
    split; [exact F'|]. rewrite V', E, S1, opp_IZR, <- INR_IZR_INZ. reflexivity.
Qed.

Theorem C104_drift N l p : (8 <= N)%nat -> (Z.of_nat N <= 2 ^ 40)%Z ->
  exists s d s', run tdev_add_phase (mkcfg 1%float false l) (rt_init (mkcfg 1%float false l) [1%nat]) (repeat cst N) = Ok s /\ rt_devs s = [d] /\
    run tdev_add_phase (fixed 1 p) (rt_init (fixed 1 p) [1%nat]) (repeat (fR cst) N) = Ok s' /\ rt_devs s' = [0] /\
    INR N / 8 * u64 * fR cst <= fR d.
Proof.
  intros H8 HN.
  destruct (fixed_run_gen tdev_upd (mkcfg 1%float false l) _ [1%nat] (repeat cst N) (tdev_local _) eq_refl) as (s & E & _ & _ & Ed).
  destruct (C57_stream 1 p [1%nat] (repeat (fR cst) N) ltac:(lra) ltac:(repeat constructor)) as (s' & E' & _ & _ & Ed').
  eexists s, _, s'. split; [exact E|]. cbn [map] in Ed, Ed'. split; [exact Ed|]. split; [exact E'|]. split.
  { rewrite Ed'. f_equal. unfold live_tdev. destruct (_ <=? _)%nat; [|reflexivity]. unfold tvar, mvar. rewrite bigsum_0; [rewrite !Rmult_0_r; apply sqrt_0|].
    intros j Hj. unfold mdev_n in Hj. rewrite repeat_length in Hj. cbn [bigsum]. unfold d2. rewrite repeat_tab, !nth_tab by lia. ring. }
  rewrite (tdev_slot_gen (repeat cst N) 1) by (rewrite ?repeat_length; lia). rewrite repeat_length. destruct (Nat.ltb_spec N (3 * 1)); [lia|]. cbn [snd].
  set (n := (N - 3 * 1 + 1)%nat). assert (Hn : (6 <= n)%nat) by (unfold n; lia).
  unfold tdev_value. change (@ofZ float FNum) with f_ofZ. unfold ofN. change (@ofZ float FNum) with f_ofZ. cbn [nsqrt nmul ndiv FNum].
  replace (Z.of_nat N - 3 * Z.of_nat 1 + 1)%Z with (Z.of_nat n) by (unfold n; lia).
  assert (B200 : bpow radix2 (-200) <= 1 <= bpow radix2 200) by (change 1 with (bpow radix2 0); split; apply bpow_le; lia).
  set (f := fun i => nth i (repeat cst N) (f_ofZ 0)).
  destruct (cst_record N HN) as [(_ & _ & Hx) HM].
  assert (Hf : forall i, (i < N)%nat -> ffin (f i) /\ Rabs (fR (f i)) <= fR cst).
  { intros i Hi. unfold f. rewrite Forall_forall in Hx. apply Hx, nth_In. now rewrite repeat_length. }
  pose proof (live_row n (live f 1) (fun k => - INR k) (live_sq f 1 (N - 3 * 1))
    (f_ofZ 1 / f_ofZ 6 * (f_ofZ 1 / f_ofZ (Z.of_nat n)) * (f_ofZ 1 / nsq (f_ofZ (Z.of_nat 1))))%float 6 (INR 1) 1 0 0) as R.
  assert (R1 : rg (INR 1) (-100) 140) by (split; change (INR 1) with (bpow radix2 0); apply bpow_le; lia).
  destruct R as (F & P & R); try exact R1; try lra; try (unfold n; lia).
  { intros k Hk. destruct (cst_live N k HN ltac:(unfold n in Hk; lia)) as [F V]. fold f in F, V. split; [exact F|]. rewrite V. split.
    - rewrite Rabs_Ropp, Rabs_pos_eq by apply pos_INR. rewrite INR_IZR_INZ.
      apply Rle_trans with (bpow radix2 40); [change (bpow radix2 40) with (IZR (2 ^ 40)); apply IZR_le; unfold n in Hk; lia|apply bpow_le; lia].
    - rewrite Rminus_diag_eq, Rabs_R0 by reflexivity. lra. }
  { replace n with (S (N - 3 * 1)) by (unfold n; lia). apply live_sq_sum. }
  { apply (tdev_coef N 1 f (fR cst) 1%float HN ltac:(lia) ltac:(lia) HM Hf mod1); unfold n; lia. }
  { apply Rle_trans with (bpow radix2 0); [|apply bpow_le; lia]. unfold u64. cbn. lra. }
  match type of R with Rabs (fR ?e - _) <= _ => change (INR N / 8 * u64 * fR cst <= fR e); set (d := fR e) in * end.
  rewrite (bigsum_ext n _ (fun k => INR k ^ 2)) in R by (intros; ring). rewrite sum_squares in R.
  assert (Pn : 6 <= INR n) by (replace 6 with (INR 6) by (cbn; lra); now apply le_INR).
  set (T := R_sqrt.sqrt _) in R.
  assert (LT : INR n / 5 <= T).
  { unfold T. rewrite <- (sqrt_square (INR n / 5)) by lra. apply sqrt_le_1_alt. cbn [INR].
    replace (INR n * (INR n - 1) * (2 * INR n - 1) / 6 / (6 * (1 * 1) * INR n)) with ((INR n - 1) * (2 * INR n - 1) / 36) by (field; lra). nra. }
  pose proof (pow_u_small (n + 10) ltac:(unfold n; lia)) as Sm.
  assert (Uc : u64 * fR cst <= 1) by (rewrite fR_cst; unfold u64; lra).
  assert (NN : INR N = INR n + 2) by (replace 2 with (INR 2) by (cbn; lra); rewrite <- plus_INR; f_equal; unfold n; lia).
  apply Rabs_le_inv in R. set (a := (1 + u64) ^ (n + 10)) in *.
  assert ((a - 1) * T <= / 1000 * T) by (apply Rmult_le_compat_r; lra).
  assert (u64 * 1 / (8 * INR 1) <= / 1000) by (unfold u64; cbn [INR]; lra).
  apply Rle_trans with (INR N / 8); [|lra].
  rewrite Rmult_assoc. rewrite <- (Rmult_1_r (INR N / 8)) at 2. apply Rmult_le_compat_l; lra.
Qed.
Print Assumptions C104_drift.

(** The stream of C104_drift in oadev_realtime, which computes every difference afresh: exactly zero. *)
Example C104_ex_drift : exists s s', run tdev_add_phase (mkcfg 1%float false []) (rt_init (mkcfg 1%float false []) [1%nat]) (repeat cst 12) = Ok s /\
  rt_devs s = [0x1.16f8334644df9p+1%float] /\
  run oadev_add_phase (mkcfg 1%float false []) (rt_init (mkcfg 1%float false []) [1%nat]) (repeat cst 12) = Ok s' /\ rt_devs s' = [0%float].
Proof. do 2 eexists. split; [vm_compute; reflexivity|]. split; [vm_compute; reflexivity|]. split; [vm_compute; reflexivity|]. vm_compute. reflexivity. Qed.

(** The hypotheses hold for an ordinary stream. *)
Example C104_ex : let x := [1; 2; 4; 8; 8]%float in let afs := [1; 2]%nat in
  bounded_record x 8 /\ bpow radix2 (-200) <= 8 <= bpow radix2 200 /\ moderate_rate 1%float /\
  Forall (fun af => (1 <= af)%nat /\ (Z.of_nat af <= 2 ^ 40)%Z) afs /\
  exists s, run tdev_add_phase (mkcfg 1%float false []) (rt_init (mkcfg 1%float false []) afs) x = Ok s /\
    live_within afs (rt_devs s) (live_tdev (map fR x) (fR 1%float)) (fun af => INR (5 - 3 * af + 11)) (fun af => (6 + 12 / INR af) * INR 5 * (u64 * 8)) /\
    nth 1 (rt_devs s) 1%float = 0%float /\ 0 < fR (nth 0 (rt_devs s) 0%float).
Proof.
  intros x afs. destruct C81_ex as (Hx & _). fold x in Hx.
  assert (H8 : bpow radix2 (-200) <= 8 <= bpow radix2 200) by (change 8 with (bpow radix2 3); split; apply bpow_le; lia).
  split; [exact Hx|]. split; [exact H8|]. split; [exact mod1|]. split; [unfold afs; repeat constructor; lia|].
  destruct (C104_tdev 1%float [] 8 afs x Hx H8 mod1 ltac:(unfold afs; repeat constructor)) as (s & E & _ & W).
  exists s. split; [exact E|]. split; [exact W|].
  assert (D : rt_devs s = [0x1.1482f86c40c42p+0%float; 0%float]).
  { assert (G : forall r : @rt float, run tdev_add_phase (mkcfg 1%float false []) (rt_init (mkcfg 1%float false []) afs) x = Ok r -> rt_devs r = [0x1.1482f86c40c42p+0%float; 0%float]).
    { intros r Q. assert (Q2 : (s <- run tdev_add_phase (mkcfg 1%float false []) (rt_init (mkcfg 1%float false []) afs) x ;; Ok (rt_devs s)) = Ok (rt_devs r)) by (rewrite Q; reflexivity).
      revert Q2. vm_compute. intro Q2. injection Q2 as <-. reflexivity. }
    exact (G _ E). }
  rewrite D. split; [reflexivity|]. cbn [nth]. rewrite fR_SF. cbn. unfold F2R. cbn. lra.
Qed.
