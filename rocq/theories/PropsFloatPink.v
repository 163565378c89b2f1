(** * C121: the running sum of iterpink in binary64.

    noise.py 168-208 never recomputes the sum of the values it holds: every step
    adds the difference between the new and the replaced value.  In exact
    arithmetic this is the sum (C65); in binary64 every step leaves a rounding
    error behind. *)
From Coq Require Import String List ZArith Lia Arith Bool Floats.
From Coq Require Import Reals Lra Psatz.
From Flocq Require Import Core.Core.
From Verif Require Import Base Num NpList NumR NumF Spec ListFacts RSum ModelNoise FloatFacts FloatErr NoiseProofs PropsNoise.
Import ListNotations.
Local Notation len := List.length.
Local Notation float := Coq.Floats.PrimFloat.float.
Local Open Scope R_scope.

(** the running sum, over any number type *)
Section Gen.
Context {A : Type} {NA : Num A}.
Fixpoint psum (w : nat -> A) (d n : nat) : A :=
  match n with
  | O => asum (randn w 0 d)
  | S k => if Nat.eqb (S (k mod d)) d then psum w d k
           else nadd (psum w d k) (nsub (w ((2 + 2 * (k / d)) * d + S k mod d)%nat) (w (slot d k (ctz (S k mod d)))))
  end.
Lemma pink_state_psum (w : nat -> A) d n : (1 <= d)%nat -> exists st, pink_state w d n = Ok st /\ p_sum st = psum w d n.
Proof.
  intro Hd. induction n as [|n (st & E & S0)]; [eexists; split; reflexivity|].
  destruct (pink_state_eq w d n Hd) as [s Es]. rewrite E in Es. injection Es as Es. cbn [pink_state psum]. rewrite E. cbn [bind].
  unfold pink_resume. rewrite Es in *. cbn [p_i p_values p_smooth p_source p_sum p_pos] in *.
  destruct (succ_mod d n Hd) as [(H1 & H2 & H3)|(H1 & H2 & H3)].
  - rewrite (proj2 (Nat.eqb_eq _ _) H1). eexists. split; [reflexivity|]. exact S0.
  - rewrite (proj2 (Nat.eqb_neq _ _) H1). cbv zeta. rewrite <- H2. pose proof (Nat.mod_upper_bound (S n) d ltac:(lia)) as B.
    assert (Hc : (ctz (S n mod d) < d)%nat).
    { pose proof (ctz_lt (S n mod d) ltac:(lia)). pose proof (Nat.pow_gt_lin_r 2 (ctz (S n mod d)) ltac:(lia)). lia. }
    rewrite !randn_tab, pyget_nat by exact B. cbn [bind]. rewrite pyget_nat by exact Hc. cbn [bind]. rewrite set_nth_tab by exact Hc. cbn [bind].
    eexists. split; [reflexivity|]. cbn [p_sum]. now rewrite S0.
Qed.
Lemma iterpink_psum (w : nat -> A) d n : (1 <= d)%nat -> iterpink w d n = Ok (nadd (psum w d n) (w ((1 + 2 * (n / d)) * d + n mod d)%nat)).
Proof.
  intro Hd. destruct (pink_state_psum w d n Hd) as (st & E & S0). destruct (pink_state_eq w d n Hd) as [s Es]. unfold iterpink. rewrite E. cbn [bind].
  rewrite E in Es. injection Es as ->. cbn [p_sum] in S0. subst s. unfold pink_yield. cbn [p_smooth p_i p_sum].
  rewrite randn_tab, pyget_nat by (apply Nat.mod_upper_bound; lia). reflexivity.
Qed.
End Gen.

Lemma psum_R (w : nat -> R) d n : (1 <= d)%nat -> psum w d n = bigsum d (fun k => w (slot d n k)).
Proof.
  intro Hd. destruct (pink_state_psum w d n Hd) as (st & E & <-). destruct (pink_state_eq w d n Hd) as [s Es].
  rewrite (pink_sum w d n st Hd E). rewrite E in Es. injection Es as ->. cbn [p_values]. apply bigsum_ext. intros i Hi. now rewrite nth_tab.
Qed.
Lemma bigsum_abs_le n (f : nat -> R) B : (forall k, (k < n)%nat -> Rabs (f k) <= B) -> Rabs (bigsum n f) <= INR n * B.
Proof.
  intro H. induction n as [|n IH]; [cbn; rewrite Rabs_R0; lra|]. cbn [bigsum]. rewrite S_INR. eapply Rle_trans; [apply Rabs_triang|].
  specialize (IH ltac:(intros; apply H; lia)). specialize (H n ltac:(lia)). lra.
Qed.

Section Err.
Variables (w : nat -> float) (d : nat) (B : R).
Hypothesis Hd : (1 <= d)%nat.
Hypothesis Hw : forall i, ffin (w i) /\ Rabs (fR (w i)) <= B.
Hypothesis HB : B <= bpow radix2 900.
Notation W := (fun i => fR (w i)).
Notation K := ((INR d + 3) * (u64 * B)).

Lemma B_pos : 0 <= B.
Proof using Hw. clear Hd HB. destruct (Hw 0%nat) as [_ H]. pose proof (Rabs_pos (fR (w 0%nat))). lra. Qed.
Lemma d_ge1 : 1 <= INR d.
Proof using Hd. apply (le_INR 1). exact Hd. Qed.
Lemma big x : x <= 2 ^ 60 * B -> x <= bpow radix2 1000.
Proof using HB.
  clear Hd Hw. intro H. eapply Rle_trans; [exact H|]. apply Rle_trans with (2 ^ 60 * bpow radix2 900); [apply Rmult_le_compat_l; [apply pow_le; lra|exact HB]|].
  replace (2 ^ 60) with (bpow radix2 60) by (cbn; lra). rewrite <- bpow_plus. apply bpow_le. lia.
Qed.
(** one addition: total stays within M*B + B *)
Lemma add_step s y S Y M e f : ffin s -> ffin y -> Rabs (fR s - S) <= e -> Rabs (fR y - Y) <= f -> Rabs (S + Y) <= M * B -> e + f <= B -> 0 <= M <= 2 ^ 52 ->
  ffin (s + y)%float /\ Rabs (fR (s + y)%float - (S + Y)) <= e + f + (M + 1) * (u64 * B).
Proof using Hw HB.
  clear Hd. intros Fs Fy He Hf HM Hs HM'. pose proof B_pos as PB. pose proof u64_pos as Pu.
  assert (H1 : Rabs (fR s + fR y) <= (M + 1) * B).
  { replace (fR s + fR y) with ((S + Y) + ((fR s - S) + (fR y - Y))) by ring. eapply Rle_trans; [apply Rabs_triang|].
    pose proof (Rabs_triang (fR s - S) (fR y - Y)). lra. }
  destruct (fadd_err s y Fs Fy) as [F V].
  { apply big. eapply Rle_trans; [exact H1|]. apply Rmult_le_compat_r; [exact PB|]. lra. }
  split; [exact F|]. replace (fR (s + y)%float - (S + Y)) with ((fR (s + y)%float - (fR s + fR y)) + ((fR s - S) + (fR y - Y))) by ring.
  eapply Rle_trans; [apply Rabs_triang|]. pose proof (Rabs_triang (fR s - S) (fR y - Y)).
  assert (u64 * Rabs (fR s + fR y) <= (M + 1) * (u64 * B)) by (replace ((M + 1) * (u64 * B)) with (u64 * ((M + 1) * B)) by ring; apply Rmult_le_compat_l; lra).
  lra.
Qed.
Lemma K_small k : (Z.of_nat (k * (d + 3)) <= 2 ^ 52)%Z -> INR k * K <= / 2 * B.
Proof using Hw.
  clear Hd HB. intro H. pose proof B_pos as PB. apply IZR_le in H. rewrite <- INR_IZR_INZ, mult_INR, plus_INR in H. change (INR 3) with (2 + 1) in H.
  replace (INR k * K) with (INR k * (INR d + (2 + 1)) * u64 * B) by ring. apply Rmult_le_compat_r; [exact PB|].
  apply Rle_trans with (IZR (2 ^ 52) * u64); [apply Rmult_le_compat_r; [left; apply u64_pos|exact H]|]. replace (IZR (2 ^ 52)) with (2 ^ 52) by (cbn; lra). unfold u64. lra.
Qed.
Lemma dM : (Z.of_nat (d * (d + 3)) <= 2 ^ 52)%Z -> 0 <= INR d + 2 <= 2 ^ 52.
Proof using Hd.
  clear Hw HB. intro H. pose proof d_ge1. split; [lra|]. apply IZR_le in H. rewrite <- INR_IZR_INZ, mult_INR, plus_INR in H. change (INR 3) with (2 + 1) in H.
  replace (IZR (2 ^ 52)) with (2 ^ 52) in H by (cbn; lra). nra.
Qed.
Lemma asum_snoc {A} {NA : Num A} (f : nat -> A) n : asum (tab (S n) f) = nadd (asum (tab n f)) (f n).
Proof using. unfold asum. rewrite tab_snoc, fold_left_app. reflexivity. Qed.
Lemma init_err j : (j <= d)%nat -> (Z.of_nat (d * (d + 3)) <= 2 ^ 52)%Z ->
  ffin (asum (tab j w)) /\ Rabs (fR (asum (tab j w)) - bigsum j W) <= INR j * K.
Proof using Hd Hw HB.
  intros Hj HK. pose proof B_pos as PB. pose proof u64_pos as Pu. pose proof d_ge1 as D1. induction j as [|j IH].
  - destruct (fofZ_ok 0 ltac:(cbn; lia)) as [F V]. split; [exact F|]. change (asum (tab 0 w)) with (f_ofZ 0). rewrite V. cbn. rewrite Rminus_0_r, Rabs_R0. lra.
  - destruct IH as [F V]; [lia|]. rewrite asum_snoc. cbn [bigsum]. destruct (Hw j) as [Fj Vj].
    assert (Hjd : INR j + 1 <= INR d) by (rewrite <- S_INR; apply le_INR; exact Hj).
    destruct (add_step (asum (tab j w)) (w j) (bigsum j W) (fR (w j)) (INR d) (INR j * K) 0 F Fj V) as [F' V'].
    + rewrite Rminus_diag_eq by reflexivity. rewrite Rabs_R0. lra.
    + eapply Rle_trans; [apply Rabs_triang|]. pose proof (bigsum_abs_le j W B ltac:(intros; apply Hw)). nra.
    + assert (INR j * K <= / 2 * B); [|lra]. apply K_small. nia.
    + pose proof (dM HK). lra.
    + split; [exact F'|]. eapply Rle_trans; [exact V'|]. rewrite S_INR. nra.
Qed.
Lemma psum_err n : (Z.of_nat ((n + d + 1) * (d + 3)) <= 2 ^ 52)%Z ->
  ffin (psum w d n) /\ Rabs (fR (psum w d n) - psum W d n) <= INR (n + d) * K.
Proof using Hd Hw HB.
  intro HK. pose proof B_pos as PB. pose proof u64_pos as Pu. pose proof d_ge1 as D1.
  assert (HKd : (Z.of_nat (d * (d + 3)) <= 2 ^ 52)%Z) by nia. pose proof (dM HKd) as HM. induction n as [|n IH].
  - cbn [psum]. rewrite !randn_tab. pose proof (init_err d (le_n d) HKd) as Q. rewrite <- (asum_tab d W) in Q. exact Q.
  - destruct IH as [F V]; [nia|]. set (nd := (n + d)%nat) in *. change (S n + d)%nat with (S nd). rewrite S_INR.
    assert (PK : 0 <= K) by (apply Rmult_le_pos; [lra|apply Rmult_le_pos; lra]).
    cbn [psum]. destruct (Nat.eqb_spec (S (n mod d)) d) as [H1|H1]; [split; [exact F|lra]|].
    set (i := ((2 + 2 * (n / d)) * d + S n mod d)%nat). set (j := slot d n (ctz (S n mod d))).
    destruct (Hw i) as [Fi Vi]. destruct (Hw j) as [Fj Vj].
    assert (Hsub : Rabs (fR (w i) - fR (w j)) <= 2 * B) by (unfold Rminus; eapply Rle_trans; [apply Rabs_triang|]; rewrite Rabs_Ropp; lra).
    destruct (fsub_err (w i) (w j) Fi Fj) as [Fs Vs]; [apply big; lra|].
    assert (Vs' : Rabs (fR (w i - w j)%float - (fR (w i) - fR (w j))) <= 2 * (u64 * B)) by nra.
    assert (Eq : psum W d n + (fR (w i) - fR (w j)) = psum W d (S n)) by (cbn [psum]; destruct (Nat.eqb_spec (S (n mod d)) d); [contradiction|reflexivity]).
    assert (HS : Rabs (psum W d n + (fR (w i) - fR (w j))) <= INR d * B).
    { rewrite Eq, psum_R by exact Hd. apply bigsum_abs_le. intros; apply Hw. }
    assert (HKn : INR nd * K <= / 2 * B) by (apply K_small; unfold nd; nia).
    assert (u64 <= / 8) by (unfold u64; lra).
    destruct (add_step (psum w d n) (w i - w j)%float (psum W d n) (fR (w i) - fR (w j)) (INR d) (INR nd * K) (2 * (u64 * B)) F Fs V Vs' HS) as [F' V'].
    + nra.
    + lra.
    + split; [exact F'|]. eapply Rle_trans; [exact V'|]. lra.
Qed.
End Err.

(** the n-th value: finite, and within (n+depth+1)(depth+3) u B of the value exact arithmetic gives for the same deviates *)
Theorem C121_pink (w : nat -> float) depth n B : (1 <= depth)%nat -> (forall i, ffin (w i) /\ Rabs (fR (w i)) <= B) -> B <= bpow radix2 900 ->
  (Z.of_nat ((n + depth + 1) * (depth + 3)) <= 2 ^ 52)%Z ->
  exists v r, iterpink w depth n = Ok v /\ iterpink (fun i => fR (w i)) depth n = Ok r /\ ffin v /\
    Rabs (fR v - r) <= INR (n + depth + 1) * (INR depth + 3) * (u64 * B).
Proof.
  intros Hd Hw HB HK. rewrite !iterpink_psum by exact Hd. do 2 eexists. split; [reflexivity|]. split; [reflexivity|].
  destruct (psum_err w depth B Hd Hw HB n HK) as [F V]. set (i := ((1 + 2 * (n / depth)) * depth + n mod depth)%nat).
  pose proof (B_pos w B Hw) as PB. pose proof u64_pos as Pu. pose proof (d_ge1 depth Hd) as D1.
  assert (HM : 0 <= INR depth + 2 <= 2 ^ 52) by (apply (dM depth Hd); nia).
  assert (PK : 0 <= (INR depth + 3) * (u64 * B)) by (apply Rmult_le_pos; [lra|apply Rmult_le_pos; lra]).
  destruct (Hw i) as [Fi Vi].
  destruct (add_step w B Hw HB (psum w depth n) (w i) (psum (fun i => fR (w i)) depth n) (fR (w i)) (INR depth + 1) (INR (n + depth) * ((INR depth + 3) * (u64 * B))) 0 F Fi V) as [F' V'].
  - rewrite Rminus_diag_eq by reflexivity. rewrite Rabs_R0. lra.
  - eapply Rle_trans; [apply Rabs_triang|]. rewrite psum_R by exact Hd.
    pose proof (bigsum_abs_le depth (fun k => fR (w (slot depth n k))) B ltac:(intros; apply Hw)). lra.
  - assert (INR (n + depth) * ((INR depth + 3) * (u64 * B)) <= / 2 * B); [|lra]. apply (K_small w depth B Hw). nia.
  - lra.
  - split; [exact F'|]. eapply Rle_trans; [exact V'|]. rewrite (plus_INR (n + depth) 1). change (INR 1) with 1. nra.
Qed.
Print Assumptions C121_pink.

(** the error does not go away: with depth 2 and the deviates 1e16, 1, 0, 0, ... the large value is
    replaced after one step, and the 1 next to it is lost for ever *)
Definition lost (i : nat) : float := match i with O => 1e16%float | 1%nat => 1%float | _ => 0%float end.
Lemma lost_ge2 i : (2 <= i)%nat -> lost i = 0%float.
Proof. destruct i as [|[|i]]; [lia|lia|reflexivity]. Qed.
Lemma lost_slot n : (2 <= slot 2 (S n) 0)%nat.
Proof.
  induction n as [|n IH]; [cbn; lia|]. cbn [slot] in *. cbv zeta in *.
  destruct (negb (S (S n) mod 2 =? 0)%nat && (0 =? ctz (S (S n) mod 2))%nat)%bool; [unfold fresh; lia|exact IH].
Qed.
Lemma lost_sum n : psum lost 2 (S n) = 0%float.
Proof.
  induction n as [|n IH]; [vm_compute; reflexivity|]. cbn [psum] in *. destruct (Nat.eqb_spec (S (S n mod 2)) 2) as [H|H]; [exact IH|].
  rewrite IH. rewrite lost_ge2 by lia.
  assert (C : ctz (S (S n) mod 2) = 0%nat) by (pose proof (Nat.mod_upper_bound (S (S n)) 2 ltac:(lia)); destruct (S (S n) mod 2)%nat as [|[|q]]; [reflexivity|reflexivity|lia]).
  rewrite C, lost_ge2 by apply lost_slot. vm_compute. reflexivity.
Qed.
Theorem C121_recovers_refuted n : (1 <= n)%nat -> iterpink lost 2 n = Ok 0%float /\ iterpink (fun i => fR (lost i)) 2 n = Ok 1.
Proof.
  intro Hn. destruct n as [|n]; [lia|]. rewrite !iterpink_psum by lia. split.
  - rewrite lost_sum, lost_ge2 by lia. vm_compute. reflexivity.
  - f_equal. rewrite psum_R by lia. rewrite (lost_ge2 ((1 + 2 * (S n / 2)) * 2 + S n mod 2)) by lia.
    assert (Z0 : fR 0%float = 0) by (rewrite fR_SF; reflexivity).
    assert (Z1 : fR 1%float = 1) by (destruct (fofZ_ok 1 ltac:(cbn; lia)) as [_ V]; exact V).
    cbn [bigsum nadd RNum]. rewrite (lost_ge2 _ (lost_slot n)). 
    rewrite (C65_frozen 2 (S n) 1 (slot 2 (S n) 1) ltac:(lia) ltac:(cbn; lia) (slot_holds 2 (S n) 1 ltac:(lia))). cbn [lost]. rewrite Z0, Z1. ring.
Qed.
Print Assumptions C121_recovers_refuted.

(** Example: depth 20 (the default), deviates within 8, a million values: the error stays below 2.1e-8 *)
Example C121_ex (w : nat -> float) n : (forall i, ffin (w i) /\ Rabs (fR (w i)) <= 8) -> (n <= 1000 * 1000)%nat ->
  exists v r, iterpink w 20 n = Ok v /\ iterpink (fun i => fR (w i)) 20 n = Ok r /\ Rabs (fR v - r) <= 21 / 10 ^ 9.
Proof.
  intros Hw Hn. assert (HnZ : (Z.of_nat n <= 1000000)%Z) by (replace 1000000%Z with (Z.of_nat (1000 * 1000)) by (rewrite Nat2Z.inj_mul; reflexivity); lia).
  destruct (C121_pink w 20 n 8 ltac:(lia) Hw) as (v & r & E1 & E2 & _ & E3).
  - replace 8 with (bpow radix2 3) by (cbn; lra). apply bpow_le. lia.
  - lia.
  - exists v, r. split; [exact E1|]. split; [exact E2|]. eapply Rle_trans; [exact E3|]. rewrite !plus_INR. apply IZR_le in HnZ. rewrite <- INR_IZR_INZ in HnZ.
    replace (INR 20) with 20 by (cbn; lra). change (INR 1) with 1. unfold u64. lra.
Qed.
Example C121_lost_ex : (forall i, ffin (lost i) /\ Rabs (fR (lost i)) <= IZR (10 ^ 16)) /\ fR (lost 0) = IZR (10 ^ 16).
Proof.
  assert (Z0 : ffin 0%float /\ fR 0%float = 0) by (apply (fofZ_ok 0); cbn; lia).
  assert (Z1 : ffin 1%float /\ fR 1%float = 1) by (apply (fofZ_ok 1); cbn; lia).
  assert (Z2 : ffin 1e16%float /\ fR 1e16%float = IZR (10 ^ 16)) by (split; [apply ffin_SF; vm_compute; reflexivity|rewrite fR_SF; vm_compute; lra]).
  split; [|apply Z2]. intros [|[|i]]; cbn [lost].
  - destruct Z2 as [F ->]. split; [exact F|]. rewrite Rabs_pos_eq; [apply Rle_refl|apply IZR_le; lia].
  - destruct Z1 as [F ->]. split; [exact F|]. rewrite Rabs_R1. apply IZR_le. lia.
  - destruct Z0 as [F ->]. split; [exact F|]. rewrite Rabs_R0. apply IZR_le. lia.
Qed.
