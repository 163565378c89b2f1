(** * Exact trapezoidal sums of squared polynomial kernels (even power-law exponents). *)
From Coq Require Import Reals List ZArith Lra Lia Arith Bool Psatz.
From Coquelicot Require Import Coquelicot.
From Verif Require Import Base Num NpList NumR ModelCiR Spec ListFacts RSum GreenProofs GreenTab.
Import ListNotations.
Local Open Scope R_scope.
Local Notation len := List.length.

(** ** integer polynomials *)
Fixpoint zeval (c : list Z) (u : R) : R := match c with [] => 0 | a :: c => IZR a + u * zeval c u end.
Fixpoint zadd (a b : list Z) : list Z :=
  match a, b with [], b => b | a, [] => a | x :: a, y :: b => (x + y)%Z :: zadd a b end.
Definition zscale (k : Z) (a : list Z) : list Z := map (Z.mul k) a.
Fixpoint zmul (a b : list Z) : list Z := match a with [] => [] | x :: a => zadd (zscale x b) (0%Z :: zmul a b) end.
Fixpoint zpow (a : list Z) (n : nat) : list Z := match n with O => [1%Z] | S n => zmul a (zpow a n) end.
Lemma zeval_add a b u : zeval (zadd a b) u = zeval a u + zeval b u.
Proof. revert b. induction a as [|x a IH]; intros [|y b]; cbn [zadd zeval]; rewrite ?IH, ?plus_IZR; ring. Qed.
Lemma zeval_scale k a u : zeval (zscale k a) u = IZR k * zeval a u.
Proof. induction a as [|x a IH]; cbn [zscale map zeval]; [ring|]. unfold zscale in IH. rewrite IH, mult_IZR. ring. Qed.
Lemma zeval_mul a b u : zeval (zmul a b) u = zeval a u * zeval b u.
Proof. induction a as [|x a IH]; cbn [zmul zeval]; [ring|]. rewrite zeval_add, zeval_scale. cbn [zeval]. rewrite IH. ring. Qed.
Lemma zeval_pow a n u : zeval (zpow a n) u = zeval a u ^ n.
Proof. induction n as [|n IH]; cbn [zpow]; [cbn; ring|]. rewrite zeval_mul, IH. reflexivity. Qed.

(** ** the kernel on [a, a+1] *)
Definition absz (p : nat) (a : Z) : list Z := zscale (if (0 <=? a)%Z then 1 else -1) (zpow [a; 1%Z] p).
Fixpoint kz (n p : nat) (a : Z) : list Z :=
  match n with O => absz p a | S n => zadd (zscale 2 (kz n p a)) (zscale (-1) (zadd (kz n p (a - 1)) (kz n p (a + 1)))) end.
Lemma absz_ok p a u : Nat.even p = false -> 0 <= u <= 1 -> powlog p (IZR a + u) = zeval (absz p a) u.
Proof.
  intros Hp Hu. unfold powlog, absz. rewrite Hp, zeval_scale, zeval_pow. replace (zeval [a; 1%Z] u) with (IZR a + u) by (cbn; ring).
  destruct (Z.leb_spec 0 a) as [H|H].
  - apply IZR_le in H. rewrite Rabs_right by lra. ring.
  - assert (H' : (a <= -1)%Z) by lia. apply IZR_le in H'. rewrite Rabs_left1 by lra.
    replace (- (IZR a + u)) with ((-1) * (IZR a + u)) by ring. rewrite Rpow_mult_distr.
    assert (Ho : Nat.Odd p) by (apply Nat.odd_spec; rewrite <- Nat.negb_even, Hp; reflexivity). destruct Ho as (k & ->). rewrite Nat.add_1_r, pow_1_odd. ring.
Qed.
Lemma kz_ok n p : Nat.even p = false -> forall a u, 0 <= u <= 1 -> kern n p (IZR a + u) = zeval (kz n p a) u.
Proof.
  intros Hp. induction n as [|n IH]; intros a u Hu; [now apply absz_ok|].
  change (d2 (kern n p) (IZR a + u) = zeval (kz (S n) p a) u). unfold d2. cbn [kz]. rewrite zeval_add, !zeval_scale, zeval_add, <- !IH by exact Hu.
  rewrite minus_IZR, plus_IZR. replace (IZR a + u - 1) with (IZR a - 1 + u) by ring. replace (IZR a + u + 1) with (IZR a + 1 + u) by ring. ring.
Qed.
Lemma kz_0 n p : Nat.even p = false -> kern n p 0 = IZR (hd 0%Z (kz n p 0)).
Proof.
  intros Hp. replace 0 with (IZR 0 + 0) at 1 by (cbn; ring). rewrite kz_ok by (assumption || lra). destruct (kz n p 0); cbn; ring.
Qed.

(** ** trapezoidal sums of powers: 720720 times the sum over [0,1] with S cells is a polynomial in 1/S^2 *)
Definition tzs : list (list Z) := [
  [720720];
    [360360];
    [240240; 120120];
    [180180; 180180];
    [144144; 240240; -24024];
    [120120; 300300; -60060];
    [102960; 360360; -120120; 17160];
    [90090; 420420; -210210; 60060];
    [80080; 480480; -336336; 160160; -24024];
    [72072; 540540; -504504; 360360; -108108];
    [65520; 600600; -720720; 720720; -360360; 54600];
    [60060; 660660; -990990; 1321320; -990990; 300300];
    [55440; 720720; -1321320; 2265120; -2378376; 1201200; -182424];
    [51480; 780780; -1717716; 3680820; -5153148; 3903900; -1185756];
    [48048; 840840; -2186184; 5725720; -10306296; 10930920; -5533528; 840840];
    [45045; 900900; -2732730; 8588580; -19324305; 27327300; -20750730; 6306300]]%Z.
Fixpoint seval (e : nat) (a : list Z) (s : R) : R := match a with [] => 0 | x :: a => IZR x * s ^ e + seval (e - 2) a s end.
Lemma tz_raw n : (n < 16)%nat -> forall N, 720720 * bigsum N (fun i => (INR i ^ n + INR (i + 1) ^ n) / 2) = seval (S n) (nth n tzs []) (INR N).
Proof.
  intros Hn N.
  do 16 (destruct n as [|n]; [cbn [nth tzs seval Nat.sub]; induction N as [|N IH]; [cbn [bigsum INR]; cbn; ring|];
    cbn [bigsum]; rewrite Rmult_plus_distr_l, IH, S_INR, plus_INR; cbn [INR]; field|]). lia.
Qed.
Lemma seval_zeval a : forall e s, s <> 0 -> (2 * (len a - 1) <= e)%nat -> seval e a s = s ^ e * zeval a (/ s ^ 2).
Proof.
  induction a as [|x a IH]; intros e s Hs Hl; cbn [seval zeval]; [ring|]. destruct a as [|y a].
  - cbn. ring.
  - cbn [len] in Hl. rewrite IH by (assumption || (cbn [len]; lia)). replace e with (2 + (e - 2))%nat at 1 3 by lia. rewrite pow_add. field. exact Hs.
Qed.
Lemma tz_ok n N : (n < 16)%nat -> (1 <= N)%nat -> 720720 * trap N 1 (fun u => u ^ n) = zeval (nth n tzs []) (/ INR N ^ 2).
Proof.
  intros Hn HN. assert (N0 : INR N <> 0) by (apply not_0_INR; lia). unfold trap. rewrite Nat.mul_1_r.
  rewrite (bigsum_ext N _ (fun i => / INR N ^ n * ((INR i ^ n + INR (i + 1) ^ n) / 2))).
  2:{ intros i _. unfold Rdiv. rewrite !Rpow_mult_distr, !pow_inv. ring. }
  rewrite bigsum_scal. set (B := bigsum N _). pose proof (tz_raw n Hn N) as E. fold B in E.
  rewrite seval_zeval in E; [|exact N0|]. 2:{ do 16 (destruct n as [|n]; [cbn; lia|]). lia. }
  replace (720720 * (/ INR N ^ n * B / INR N)) with (/ INR N ^ S n * (720720 * B)) by (cbn [pow]; field; repeat split; try apply pow_nonzero; exact N0).
  rewrite E. rewrite <- Rmult_assoc, Rinv_l by now apply pow_nonzero. ring.
Qed.
(** coefficients (in 1/S^2) of 720720 times the trapezoidal sum over [0,1] of u^n * c(u) *)
Fixpoint ztr (n : nat) (c : list Z) : list Z := match c with [] => [] | a :: c => zadd (zscale a (nth n tzs [])) (ztr (S n) c) end.
Lemma ztr_ok c : forall n N, (n + len c <= 16)%nat -> (1 <= N)%nat -> 720720 * trap N 1 (fun u => u ^ n * zeval c u) = zeval (ztr n c) (/ INR N ^ 2).
Proof.
  induction c as [|a c IH]; intros n N Hl HN; cbn [ztr zeval len] in *.
  - rewrite (trap_ext N 1 _ (fun u => 0 * u)) by (intros; ring). rewrite trap_scal. ring.
  - rewrite (trap_ext N 1 _ (fun u => IZR a * u ^ n + u ^ S n * zeval c u)) by (intros; cbn [pow]; ring).
    rewrite trap_plus, trap_scal, zeval_add, zeval_scale, <- tz_ok, <- IH by lia. ring.
Qed.
(** ** a function that is polynomial on every [k, k+1] *)
Lemma trap_pieces N T f (g : nat -> R -> R) : (1 <= N)%nat -> (forall k u, (k < T)%nat -> 0 <= u <= 1 -> f (INR k + u) = g k u) ->
  trap N T f = bigsum T (fun k => trap N 1 (g k)).
Proof.
  intros HN H. assert (N0 : 0 < INR N) by (apply lt_0_INR; lia). induction T as [|T IH].
  - unfold trap. rewrite Nat.mul_0_r. cbn. unfold Rdiv. ring.
  - cbn [bigsum]. rewrite <- IH by (intros; apply H; lia || assumption). unfold trap. replace (N * S T)%nat with (N * T + N)%nat by lia. rewrite bigsum_add, Nat.mul_1_r.
    rewrite Rdiv_plus_distr. f_equal. f_equal. apply bigsum_ext. intros i Hi.
    assert (B : forall j, (j <= N)%nat -> 0 <= INR j / INR N <= 1).
    { intros j Hj. split; [apply Rmult_le_pos; [apply pos_INR|left; now apply Rinv_0_lt_compat]|].
      apply Rmult_le_reg_r with (INR N); [exact N0|]. unfold Rdiv. rewrite Rmult_assoc, Rinv_l, Rmult_1_r, Rmult_1_l by lra. now apply le_INR. }
    replace (INR (N * T + i) / INR N) with (INR T + INR i / INR N) by (rewrite plus_INR, mult_INR; field; lra).
    replace (INR (N * T + i + 1) / INR N) with (INR T + INR (i + 1) / INR N) by (rewrite !plus_INR, mult_INR; field; lra).
    rewrite !H by (lia || (apply B; lia)). reflexivity.
Qed.
Fixpoint zsum (T : nat) (g : nat -> list Z) : list Z := match T with O => [] | S T => zadd (zsum T g) (g T) end.
Lemma zeval_sum T g u : zeval (zsum T g) u = bigsum T (fun k => zeval (g k) u).
Proof. induction T as [|T IH]; cbn [zsum bigsum]; [reflexivity|]. now rewrite zeval_add, IH. Qed.
Definition sqz (n p k : nat) : list Z := zmul (kz n p (Z.of_nat k)) (kz n p (Z.of_nat k)).
Definition tsqz (n p k : nat) : list Z := zmul [Z.of_nat k; 1%Z] (sqz n p k).
Definition P0 (n p T : nat) : list Z := zsum T (fun k => ztr 0 (sqz n p k)).
Definition P1 (n p T : nat) : list Z := zsum T (fun k => ztr 0 (tsqz n p k)).
Definition fits (n p T : nat) : bool := (negb (Nat.even p) && forallb (fun k => Nat.leb (len (tsqz n p k)) 16 && Nat.leb (len (sqz n p k)) 16) (seq 0 T))%bool.
Lemma fits_ok n p T : fits n p T = true -> Nat.even p = false /\ forall k, (k < T)%nat -> (len (tsqz n p k) <= 16)%nat /\ (len (sqz n p k) <= 16)%nat.
Proof.
  unfold fits. intros H. apply andb_prop in H as [H1 H2]. split; [now apply negb_true_iff in H1|]. intros k Hk. rewrite forallb_forall in H2.
  specialize (H2 k). rewrite in_seq in H2. specialize (H2 ltac:(lia)). apply andb_prop in H2 as [A B]. split; now apply Nat.leb_le.
Qed.
Lemma trap0 n p T N : fits n p T = true -> (1 <= N)%nat -> trap N T (fun t => kern n p t ^ 2) = zeval (P0 n p T) (/ INR N ^ 2) / 720720.
Proof.
  intros F HN. apply fits_ok in F as [Hp Hf]. rewrite (trap_pieces N T _ (fun k u => zeval (sqz n p k) u)) by (assumption ||
    (intros k u _ Hu; rewrite INR_IZR_INZ, kz_ok by assumption; unfold sqz; rewrite zeval_mul; ring)).
  unfold P0. rewrite zeval_sum. apply Rmult_eq_reg_l with 720720; [|lra]. rewrite <- bigsum_scal.
  replace (720720 * (bigsum T (fun k => zeval (ztr 0 (sqz n p k)) (/ INR N ^ 2)) / 720720)) with (bigsum T (fun k => zeval (ztr 0 (sqz n p k)) (/ INR N ^ 2))) by field.
  apply bigsum_ext. intros k Hk. rewrite <- ztr_ok by (assumption || (cbn; now apply Hf)). f_equal. apply trap_ext. intros. cbn [pow]. ring.
Qed.
Lemma trap1 n p T N : fits n p T = true -> (1 <= N)%nat -> trap N T (fun t => t * kern n p t ^ 2) = zeval (P1 n p T) (/ INR N ^ 2) / 720720.
Proof.
  intros F HN. apply fits_ok in F as [Hp Hf]. rewrite (trap_pieces N T _ (fun k u => zeval (tsqz n p k) u)) by (assumption ||
    (intros k u _ Hu; unfold tsqz, sqz; rewrite !zeval_mul, <- kz_ok, <- INR_IZR_INZ by assumption; cbn [zeval]; rewrite <- INR_IZR_INZ; ring)).
  unfold P1. rewrite zeval_sum. apply Rmult_eq_reg_l with 720720; [|lra]. rewrite <- bigsum_scal.
  replace (720720 * (bigsum T (fun k => zeval (ztr 0 (tsqz n p k)) (/ INR N ^ 2)) / 720720)) with (bigsum T (fun k => zeval (ztr 0 (tsqz n p k)) (/ INR N ^ 2))) by field.
  apply bigsum_ext. intros k Hk. rewrite <- ztr_ok by (assumption || (cbn; now apply Hf)). f_equal. apply trap_ext. intros. cbn [pow]. ring.
Qed.

(** ** the integrals are the constant coefficients *)
Lemma zeval_near c : exists C, 0 <= C /\ forall x, 0 <= x <= 1 -> Rabs (zeval c x - IZR (hd 0%Z c)) <= C * x.
Proof.
  assert (B : forall c, exists C, 0 <= C /\ forall x, 0 <= x <= 1 -> Rabs (zeval c x) <= C).
  { clear c. induction c as [|a c (C & C0 & H)]; [exists 0; split; [lra|]; intros; cbn; rewrite Rabs_R0; lra|].
    exists (Rabs (IZR a) + C). split; [pose proof (Rabs_pos (IZR a)); lra|]. intros x Hx. cbn [zeval]. eapply Rle_trans; [apply Rabs_triang|].
    rewrite Rabs_mult, (Rabs_right x) by lra. specialize (H x Hx). pose proof (Rabs_pos (zeval c x)). nra. }
  destruct c as [|a c]; [exists 0; split; [lra|]; intros; cbn; rewrite Rminus_0_r, Rabs_R0; lra|].
  destruct (B c) as (C & C0 & H). exists C. split; [exact C0|]. intros x Hx. cbn [zeval hd]. replace (IZR a + x * zeval c x - IZR a) with (zeval c x * x) by ring.
  rewrite Rabs_mult, (Rabs_right x) by lra. specialize (H x Hx). apply Rmult_le_compat_r; lra.
Qed.
Lemma small_zero a C : (forall N, (1 <= N)%nat -> Rabs a <= C / INR N) -> a = 0.
Proof.
  intros H. destruct (Req_dec a 0) as [|Na]; [assumption|]. exfalso. pose proof (Rabs_pos_lt a Na) as P.
  destruct (archimed_cor1 (Rabs a / (Rabs C + 1))) as (N & HN & N0); [pose proof (Rabs_pos C); apply Rdiv_lt_0_compat; lra|].
  specialize (H N N0). pose proof (Rabs_pos C) as PC. assert (0 < / INR N) by (apply Rinv_0_lt_compat, lt_0_INR; lia).
  assert (C / INR N <= Rabs C * / INR N) by (apply Rmult_le_compat_r; [lra|apply Rle_abs]).
  assert (Rabs C * / INR N <= Rabs C * (Rabs a / (Rabs C + 1))) by (apply Rmult_le_compat_l; lra).
  assert (Rabs C * (Rabs a / (Rabs C + 1)) < Rabs a); [|lra].
  replace (Rabs C * (Rabs a / (Rabs C + 1))) with (Rabs a * (Rabs C / (Rabs C + 1))) by (field; lra). rewrite <- (Rmult_1_r (Rabs a)) at 2.
  apply Rmult_lt_compat_l; [exact P|]. apply Rmult_lt_reg_r with (Rabs C + 1); [lra|]. unfold Rdiv. rewrite Rmult_assoc, Rinv_l by lra. lra.
Qed.
Lemma int_of_trap f T c D : lips f -> 0 < D -> (forall N, (1 <= N)%nat -> trap N T f = zeval c (/ INR N ^ 2) / D) -> RInt f 0 (INR T) = IZR (hd 0%Z c) / D.
Proof.
  intros Hf HD H. destruct (trap_limit f T Hf) as (K & K0 & HK). destruct (zeval_near c) as (C & C0 & HC).
  assert (E : RInt f 0 (INR T) - IZR (hd 0%Z c) / D = 0); [|lra]. apply (small_zero _ (K + C / D)). intros N HN.
  specialize (HK N HN). rewrite (H N HN) in HK. assert (N1 : 1 <= INR N) by (apply (le_INR 1); exact HN).
  assert (I1 : 0 < / INR N <= 1) by (split; [apply Rinv_0_lt_compat; lra|rewrite <- Rinv_1; apply Rinv_le_contravar; lra]).
  assert (X : / INR N ^ 2 = / INR N * / INR N) by (field; lra).
  assert (HC' := HC (/ INR N ^ 2) ltac:(rewrite X; nra)).
  replace (RInt f 0 (INR T) - IZR (hd 0%Z c) / D) with (- (zeval c (/ INR N ^ 2) / D - RInt f 0 (INR T)) + (zeval c (/ INR N ^ 2) - IZR (hd 0%Z c)) / D) by (field; lra).
  eapply Rle_trans; [apply Rabs_triang|]. rewrite Rabs_Ropp. unfold Rdiv at 2. rewrite (Rabs_mult _ (/ D)), (Rabs_right (/ D)) by (apply Rle_ge, Rlt_le, Rinv_0_lt_compat, HD).
  assert (ID : 0 < / D) by now apply Rinv_0_lt_compat.
  assert (C * / INR N ^ 2 <= C * / INR N) by (apply Rmult_le_compat_l; [exact C0|rewrite X; nra]).
  assert (Rabs (zeval c (/ INR N ^ 2) - IZR (hd 0%Z c)) * / D <= C * / INR N * / D) by (apply Rmult_le_compat_r; lra).
  unfold Rdiv in *. lra.
Qed.
Lemma RInt_cmul c f a b : lips f -> RInt (fun t => c * f t) a b = c * RInt f a b.
Proof. intros H. exact (RInt_scal (V := R_CompleteNormedModule) f a b c (lips_int f a b H)). Qed.
Lemma coef_even n p T : fits n p T = true -> (1 <= p)%nat -> kern n p 0 <> 0 ->
  coef0 n p T = 2 * IZR (hd 0%Z (P0 n p T)) / (720720 * kern n p 0 ^ 2) /\ coef1 n p T = 2 * IZR (hd 0%Z (P1 n p T)) / (720720 * kern n p 0 ^ 2).
Proof.
  intros F Hp K0. unfold coef0, coef1, corr.
  assert (L : lips (fun t => kern n p t ^ 2)) by now apply lips_pow, lips_kern.
  assert (L1 : lips (fun t => t * kern n p t ^ 2)) by (apply lips_mult; [apply lips_id|exact L]).
  assert (I0 : RInt (fun t => kern n p t ^ 2) 0 (INR T) = IZR (hd 0%Z (P0 n p T)) / 720720) by (apply int_of_trap; [exact L|lra|intros; now apply trap0]).
  assert (I1 : RInt (fun t => t * kern n p t ^ 2) 0 (INR T) = IZR (hd 0%Z (P1 n p T)) / 720720) by (apply int_of_trap; [exact L1|lra|intros; now apply trap1]).
  split.
  - rewrite (RInt_ext _ (fun t => / kern n p 0 ^ 2 * kern n p t ^ 2)) by (intros t _; unfold Rdiv; rewrite Rpow_mult_distr, pow_inv; apply Rmult_comm).
    rewrite RInt_cmul, I0 by exact L. field. exact K0.
  - rewrite (RInt_ext _ (fun t => / kern n p 0 ^ 2 * (t * kern n p t ^ 2))) by
      (intros t _; unfold Rdiv; rewrite Rpow_mult_distr, pow_inv; rewrite <- Rmult_assoc; apply Rmult_comm).
    rewrite (RInt_cmul _ (fun t => t * kern n p t ^ 2)), I1 by exact L1. field. exact K0.
Qed.

(** ** explicit distance from a pair of tabulated coefficients (numerators over 9000) for all S >= S0 and r >= T *)
Fixpoint habs (B : Z) (l : list Z) : Z := match l with [] => 0%Z | a :: l => (Z.abs a * B ^ Z.of_nat (S (len l)) + habs B l)%Z end.
Definition combo (n p T : nat) (e : Z) : list Z := zadd (zscale (18000 * Z.of_nat T) (P0 n p T)) (zscale (- 18000 * e) (P1 n p T)).
Definition target (n p T : nat) (n0 n1 e : Z) : Z := ((Z.of_nat T * n0 - e * n1) * (720720 * hd 0 (kz n p 0) ^ 2))%Z.
Definition near (R : list Z) (c B : Z) : bool :=
  match R with
  | [] => false
  | r0 :: rl => (1000 * (Z.abs (r0 - c) * B ^ Z.of_nat (S (len rl)) + habs B rl) <=? 3 * c * B ^ Z.of_nat (S (len rl)))%Z
  end.
Definition close (n p T : nat) (n0 n1 S0 : Z) : bool :=
  ((1 <=? Z.of_nat T) && (1 <=? S0) && near (combo n p T 0) (target n p T n0 n1 0) (S0 ^ 2) && near (combo n p T 1) (target n p T n0 n1 1) (S0 ^ 2))%Z%bool.
Lemma habs_ok B l : (1 <= B)%Z -> IZR (habs B l) = zeval (map Z.abs l) (/ IZR B) * IZR B ^ len l.
Proof.
  intros HB. assert (B0 : IZR B <> 0) by (apply not_0_IZR; lia). induction l as [|a l IH]; [cbn; ring|].
  cbn [habs map zeval len]. rewrite plus_IZR, mult_IZR, <- pow_IZR, IH. cbn [pow]. field. exact B0.
Qed.
Lemma zeval_abs l x y : 0 <= x <= y -> Rabs (zeval l x) <= zeval (map Z.abs l) y.
Proof.
  intros H. induction l as [|a l IH]; cbn [map zeval]; [rewrite Rabs_R0; lra|]. eapply Rle_trans; [apply Rabs_triang|].
  rewrite abs_IZR, Rabs_mult, (Rabs_right x) by lra. pose proof (Rabs_pos (zeval l x)). nra.
Qed.
Lemma near_ok R c B x : near R c B = true -> (1 <= B)%Z -> 0 <= x <= / IZR B -> Rabs (zeval R x - IZR c) <= 3 / 1000 * IZR c.
Proof.
  intros H HB Hx. destruct R as [|r0 rl]; [discriminate|]. cbn [near] in H. apply Z.leb_le in H. apply IZR_le in H.
  rewrite !mult_IZR, plus_IZR, mult_IZR, <- !pow_IZR, habs_ok, abs_IZR, minus_IZR in H by exact HB. cbn [zeval].
  assert (B1 : 1 <= IZR B) by (apply (IZR_le 1); exact HB). assert (P : 0 < IZR B ^ S (len rl)) by (apply pow_lt; lra).
  set (z := zeval (map Z.abs rl) (/ IZR B)) in *. assert (Z0 : Rabs (zeval rl x) <= z) by now apply zeval_abs.
  assert (K : Rabs (IZR r0 - IZR c) + / IZR B * z <= 3 / 1000 * IZR c).
  { apply Rmult_le_reg_r with (1000 * IZR B ^ S (len rl)); [lra|].
    replace ((Rabs (IZR r0 - IZR c) + / IZR B * z) * (1000 * IZR B ^ S (len rl))) with (1000 * (Rabs (IZR r0 - IZR c) * IZR B ^ S (len rl) + z * IZR B ^ len rl)) by (cbn [pow]; field; lra).
    lra. }
  replace (IZR r0 + x * zeval rl x - IZR c) with ((IZR r0 - IZR c) + x * zeval rl x) by ring. eapply Rle_trans; [apply Rabs_triang|].
  rewrite (Rabs_mult x), (Rabs_right x) by lra. pose proof (Rabs_pos (zeval rl x)).
  assert (x * Rabs (zeval rl x) <= / IZR B * z) by (apply Rmult_le_compat; lra). lra.
Qed.
Lemma IZR_sq z : IZR (z ^ 2) = IZR z ^ 2.
Proof. rewrite Z.pow_2_r, mult_IZR. ring. Qed.
Lemma close_ok n p T n0 n1 S0 x y : close n p T n0 n1 S0 = true -> Nat.even p = false -> kern n p 0 <> 0 -> 0 <= x <= / IZR S0 ^ 2 -> 0 <= y <= / INR T ->
  Rabs (2 * (zeval (P0 n p T) x - y * zeval (P1 n p T) x) / (720720 * kern n p 0 ^ 2) - (IZR n0 - IZR n1 * y) / 9000) <= 3 / 1000 * ((IZR n0 - IZR n1 * y) / 9000).
Proof.
  intros H Hp K0 Hx Hy. unfold close in H. apply andb_prop in H as [H N1]. apply andb_prop in H as [H N0]. apply andb_prop in H as [HT HS].
  apply Z.leb_le in HT. apply Z.leb_le in HS. assert (T0 : 0 < INR T) by (apply lt_0_INR; lia).
  assert (HB : (1 <= S0 ^ 2)%Z) by nia.
  assert (Hx' : 0 <= x <= / IZR (S0 ^ 2)) by (rewrite IZR_sq; exact Hx).
  apply (near_ok _ _ _ x) in N0; try assumption. apply (near_ok _ _ _ x) in N1; try assumption.
  unfold combo, target in N0, N1. rewrite zeval_add, !zeval_scale, !mult_IZR, minus_IZR, !mult_IZR, !IZR_sq, <- !INR_IZR_INZ, <- kz_0 in N0, N1 by exact Hp.
  set (p0 := zeval (P0 n p T) x) in *. set (p1 := zeval (P1 n p T) x) in *. set (k2 := kern n p 0 ^ 2) in *.
  assert (K2 : 0 < k2) by (unfold k2; apply pow2_gt_0; exact K0).
  set (l := y * INR T). assert (Hl : 0 <= l <= 1).
  { unfold l. split; [nra|]. apply Rmult_le_reg_r with (/ INR T); [now apply Rinv_0_lt_compat|]. rewrite Rmult_assoc, Rinv_r by lra. lra. }
  assert (Ey : y = l / INR T) by (unfold l; field; lra).
  set (W := 9000 * INR T * (720720 * k2)). assert (W0 : 0 < W) by (unfold W; apply Rmult_lt_0_compat; [|lra]; lra).
  set (e0 := 18000 * INR T * p0 + -18000 * 0 * p1 - (INR T * IZR n0 - 0 * IZR n1) * (720720 * k2)) in *.
  set (e1 := 18000 * INR T * p0 + -18000 * 1 * p1 - (INR T * IZR n0 - 1 * IZR n1) * (720720 * k2)) in *.
  replace (2 * (p0 - y * p1) / (720720 * k2) - (IZR n0 - IZR n1 * y) / 9000) with (((1 - l) * e0 + l * e1) / W)
    by (unfold e0, e1, W; rewrite Ey; field; lra).
  replace (3 / 1000 * ((IZR n0 - IZR n1 * y) / 9000)) with (((1 - l) * (3 / 1000 * ((INR T * IZR n0 - 0 * IZR n1) * (720720 * k2))) + l * (3 / 1000 * ((INR T * IZR n0 - 1 * IZR n1) * (720720 * k2)))) / W)
    by (unfold W; rewrite Ey; field; lra).
  unfold Rdiv. rewrite (Rabs_mult _ (/ W)), (Rabs_right (/ W)) by (apply Rle_ge, Rlt_le, Rinv_0_lt_compat, W0).
  apply Rmult_le_compat_r; [left; now apply Rinv_0_lt_compat|]. eapply Rle_trans; [apply Rabs_triang|].
  rewrite !Rabs_mult, (Rabs_right (1 - l)), (Rabs_right l) by lra. unfold Rdiv in N0, N1. nra.
Qed.
