(** * Accuracy of gcodev in binary64 (C116). *)
From Coq Require Import ZArith Floats Reals Lra Lia Psatz Ascii String List Bool Permutation.
From Flocq Require Import Core.Core IEEE754.BinarySingleNaN.
From Verif Require Import Base Num NpList NumF NumR ListFacts Spec RSum ModelCore ModelDev ModelMisc FloatFacts FloatErr
  GenericProofs TauProofs TauLaws DevProofs TotProofs Laws2 Laws3 NanProofs PropsFloatTau PropsFloatErr PropsFloatMtie PropsFloatMdev PropsFloatMore.
Import ListNotations.
Local Open Scope R_scope.
Local Notation len := List.length.
Local Notation float := Coq.Floats.PrimFloat.float.
Local Notation fsqrt := Coq.Floats.PrimFloat.sqrt.
Local Notation rms n D a := (R_sqrt.sqrt (bigsum n (fun k => a k ^ 2) / D)).

(** ** Sums of products *)
Lemma rms_cs n D (a b : nat -> R) : 0 < D -> bigsum n (fun k => Rabs (a k * b k)) / D <= rms n D a * rms n D b.
Proof.
  intros PD. pose proof (cauchy_schwarz n (fun k => Rabs (a k)) (fun k => Rabs (b k))) as C. cbv beta in C.
  rewrite (bigsum_ext n (fun i => Rabs (a i) ^ 2) (fun i => a i ^ 2)) in C by (intros; apply pow2_abs).
  rewrite (bigsum_ext n (fun i => Rabs (b i) ^ 2) (fun i => b i ^ 2)) in C by (intros; apply pow2_abs).
  rewrite (bigsum_ext n (fun i => Rabs (a i) * Rabs (b i)) (fun i => Rabs (a i * b i))) in C by (intros; now rewrite Rabs_mult).
  set (S := bigsum n (fun i => Rabs (a i * b i))) in *. set (A := bigsum n (fun k => a k ^ 2)) in *. set (B := bigsum n (fun k => b k ^ 2)) in *.
  assert (PA : 0 <= A) by (apply bigsum_nonneg; intros; apply pow2_ge_0). assert (PB : 0 <= B) by (apply bigsum_nonneg; intros; apply pow2_ge_0).
  assert (ID : 0 < / D) by now apply Rinv_0_lt_compat.
  assert (QA : 0 <= A / D) by (apply Rmult_le_pos; lra). assert (QB : 0 <= B / D) by (apply Rmult_le_pos; lra).
  rewrite <- sqrt_mult by assumption. apply Rsqr_incr_0_var; [|apply sqrt_pos]. rewrite Rsqr_sqrt by (now apply Rmult_le_pos).
  unfold Rsqr. replace (S / D * (S / D)) with (S ^ 2 * (/ D * / D)) by (unfold Rdiv; ring). replace (A / D * (B / D)) with (A * B * (/ D * / D)) by (unfold Rdiv; ring).
  apply Rmult_le_compat_r; [nra|exact C].
Qed.
Lemma bigsum_minus n a b : bigsum n (fun k => a k - b k) = bigsum n a - bigsum n b.
Proof. induction n as [|n IH]; cbn; [ring|]. rewrite IH. ring. Qed.
Lemma absum_tab_eq n (q : nat -> float) : absum (tab n q) = bigsum n (fun k => Rabs (fR (q k))).
Proof.
  assert (G : forall l, absum l = bigsum (len l) (fun k => Rabs (fR (nth k l 0%float)))).
  { induction l as [|a l IH]; [reflexivity|]. cbn [absum length]. rewrite bigsum_S_l. cbn [nth]. now rewrite IH. }
  rewrite G, tab_length. apply bigsum_ext. intros k Hk. now rewrite nth_tab.
Qed.

Lemma prod_sum_err n (p q : nat -> float) (v w : nat -> R) d e D s : (1 <= n)%nat -> (Z.of_nat n <= 2 ^ 40)%Z -> INR n <= D -> 0 <= d -> 0 <= e ->
  (forall k, (k < n)%nat -> ffin (p k) /\ ffin (q k) /\ Rabs (fR (p k)) <= bpow radix2 400 /\ Rabs (fR (q k)) <= bpow radix2 400 /\ Rabs (fR (p k) - v k) <= d /\ Rabs (fR (q k) - w k) <= e) ->
  sum_of (tab n (fun k => p k * q k)%float) s ->
  ffin s /\ Rabs (fR s - bigsum n (fun k => v k * w k)) / D <= (1 + u64) ^ (n + 1) * ((rms n D v + d) * (rms n D w + e)) - rms n D v * rms n D w + 2 * eta.
Proof.
  intros Hn1 Hn HD Hd He H (t & z & -> & Hz & Lt).
  assert (Pn : 1 <= INR n) by (change 1 with (INR 1); now apply le_INR). assert (PD : 0 < D) by lra. assert (ID : 0 < / D) by now apply Rinv_0_lt_compat.
  destruct (fofZ_ok 0 ltac:(lia)) as [F0 V0]. pose proof u64_pos as Pu. pose proof eta_pos as Pe.
  set (P := fun k => fR (p k)). set (Q := fun k => fR (q k)).
  assert (HP : forall k, (k < n)%nat -> ffin (p k * q k)%float /\ Rabs (fR (p k * q k)%float - P k * Q k) <= u64 * Rabs (P k * Q k) + eta /\ Rabs (P k * Q k) <= bpow radix2 800).
  { intros k Hk. destruct (H k Hk) as (Fp & Fq & Bp & Bq & _). assert (B : Rabs (P k * Q k) <= bpow radix2 800).
    { rewrite Rabs_mult. change 800%Z with (400 + 400)%Z. rewrite bpow_plus. apply Rmult_le_compat; try apply Rabs_pos; assumption. }
    destruct (fmul_err (p k) (q k) Fp Fq) as [F E]; [eapply Rle_trans; [exact B|apply bpow_le; lia]|]. auto. }
  set (X := bigsum n (fun k => Rabs (P k * Q k))). assert (PX : 0 <= X) by (apply bigsum_nonneg; intros; apply Rabs_pos).
  assert (LL : len (leaves t) = (z + n)%nat) by (rewrite (Permutation_length Lt), app_length, repeat_length; now rewrite tab_length).
  assert (RS : rsum (leaves t) = bigsum n (fun k => fR (p k * q k)%float)).
  { rewrite (rsum_perm _ _ Lt), rsum_app, rsum_tab. destruct z as [|[|z]]; [cbn; ring|cbn [repeat rsum]; rewrite V0; ring|lia]. }
  assert (AS : absum (leaves t) = bigsum n (fun k => Rabs (fR (p k * q k)%float))).
  { rewrite (absum_perm _ _ Lt), absum_app, absum_tab_eq. destruct z as [|[|z]]; [cbn; ring|cbn [repeat absum]; rewrite V0, Rabs_R0; ring|lia]. }
  assert (AX : absum (leaves t) <= (1 + u64) * X + INR n * eta).
  { rewrite AS. unfold X. rewrite <- bigsum_scal. rewrite <- (bigsum_const n eta), <- bigsum_plus. apply bigsum_le. intros k Hk. destruct (HP k Hk) as (_ & E & _).
    replace (fR (p k * q k)%float) with ((fR (p k * q k)%float - P k * Q k) + P k * Q k) by ring. eapply Rle_trans; [apply Rabs_triang|]. lra. }
  assert (NB : INR n <= bpow radix2 40) by (rewrite INR_IZR_INZ; change (bpow radix2 40) with (IZR (2 ^ 40)); now apply IZR_le).
  assert (XB : X <= bpow radix2 840).
  { apply Rle_trans with (INR n * bpow radix2 800).
    - rewrite <- bigsum_const. apply bigsum_le. intros k Hk. apply HP, Hk.
    - change 840%Z with (40 + 800)%Z. rewrite bpow_plus. apply Rmult_le_compat_r; [apply bpow_ge_0|exact NB]. }
  assert (E1 : INR n * eta <= bpow radix2 840).
  { unfold eta. apply Rle_trans with (bpow radix2 40 * bpow radix2 (-1075)); [apply Rmult_le_compat_r; [apply bpow_ge_0|exact NB]|]. rewrite <- bpow_plus. apply bpow_le. lia. }
  assert (U1 : u64 <= / 4096) by (unfold u64; lra).
  assert (O : absum (leaves t) <= bpow radix2 999).
  { apply Rle_trans with (bpow radix2 2 * bpow radix2 840); [change (bpow radix2 2) with 4; nra|]. rewrite <- bpow_plus. apply bpow_le. lia. }
  destruct (fsum_signed t) as [F E].
  { apply (Permutation_Forall (Permutation_sym Lt)), Forall_app. split.
    - apply Forall_forall. intros y Hy. apply repeat_spec in Hy as ->. exact F0.
    - apply Forall_tab. intros i Hi. apply HP, Hi. }
  { exact O. }
  { lia. }
  split; [exact F|]. rewrite LL, RS in E.
  assert (G1 : 1 <= (1 + u64) ^ n) by (apply pow_R1_Rle; lra).
  assert (G2 : (1 + u64) ^ (z + n - 1) <= (1 + u64) ^ n) by (apply Rle_pow; [lra|lia]).
  assert (G3 : (1 + u64) ^ n - 1 <= / 1000) by (apply pow_u_small; lia).
  pose proof (absum_nonneg (leaves t)) as PA. pose proof (pow_u_ge1 (z + n - 1)) as G0.
  assert (E2 : Rabs (fR (fsum t) - bigsum n (fun k => fR (p k * q k)%float)) <= ((1 + u64) ^ n - 1) * ((1 + u64) * X + INR n * eta)).
  { eapply Rle_trans; [exact E|]. apply Rmult_le_compat; lra. }
  assert (E3 : Rabs (bigsum n (fun k => fR (p k * q k)%float) - bigsum n (fun k => P k * Q k)) <= u64 * X + INR n * eta).
  { rewrite <- bigsum_minus. eapply Rle_trans; [apply bigsum_abs|]. unfold X. rewrite <- bigsum_scal, <- (bigsum_const n eta), <- bigsum_plus. apply bigsum_le. intros k Hk. apply HP, Hk. }
  assert (E4 : Rabs (fR (fsum t) - bigsum n (fun k => P k * Q k)) <= ((1 + u64) ^ (n + 1) - 1) * X + 2 * INR n * eta).
  { replace (fR (fsum t) - bigsum n (fun k => P k * Q k)) with ((fR (fsum t) - bigsum n (fun k => fR (p k * q k)%float)) + (bigsum n (fun k => fR (p k * q k)%float) - bigsum n (fun k => P k * Q k))) by ring.
    eapply Rle_trans; [apply Rabs_triang|]. rewrite Nat.add_1_r. cbn [pow]. set (a := (1 + u64) ^ n) in *. assert (0 <= INR n * eta) by nra. nra. }
  set (A := rms n D v). set (B := rms n D w). assert (PA0 : 0 <= A) by apply sqrt_pos. assert (PB0 : 0 <= B) by apply sqrt_pos.
  assert (RA : rms n D P <= A + d).
  { pose proof (rms_close n P v D d Hn1 HD Hd ltac:(intros k Hk; apply H, Hk)) as K. apply Rabs_le_inv in K. unfold A. lra. }
  assert (RB : rms n D Q <= B + e).
  { pose proof (rms_close n Q w D e Hn1 HD He ltac:(intros k Hk; apply H, Hk)) as K. apply Rabs_le_inv in K. unfold B. lra. }
  assert (RP : 0 <= rms n D P) by apply sqrt_pos. assert (RQ : 0 <= rms n D Q) by apply sqrt_pos.
  assert (DX : X / D <= (A + d) * (B + e)).
  { eapply Rle_trans; [apply (rms_cs n D P Q PD)|]. apply Rmult_le_compat; assumption. }
  assert (DY : Rabs (bigsum n (fun k => P k * Q k) - bigsum n (fun k => v k * w k)) / D <= d * (B + e) + A * e).
  { rewrite <- bigsum_minus. apply Rle_trans with ((bigsum n (fun k => Rabs ((P k - v k) * Q k)) + bigsum n (fun k => Rabs (v k * (Q k - w k)))) / D).
    - apply Rmult_le_compat_r; [lra|]. eapply Rle_trans; [apply bigsum_abs|]. rewrite <- bigsum_plus. apply bigsum_le. intros k Hk.
      replace (P k * Q k - v k * w k) with ((P k - v k) * Q k + v k * (Q k - w k)) by ring. apply Rabs_triang.
    - rewrite Rdiv_plus_distr. apply Rplus_le_compat.
      + eapply Rle_trans; [apply (rms_cs n D (fun k => P k - v k) Q PD)|]. apply Rmult_le_compat; try apply sqrt_pos; [|exact RB]. apply rms_bound; auto. intros k Hk. apply H, Hk.
      + eapply Rle_trans; [apply (rms_cs n D v (fun k => Q k - w k) PD)|]. apply Rmult_le_compat_l; [apply sqrt_pos|]. apply rms_bound; auto. intros k Hk. apply H, Hk. }
  apply Rle_trans with ((Rabs (fR (fsum t) - bigsum n (fun k => P k * Q k)) + Rabs (bigsum n (fun k => P k * Q k) - bigsum n (fun k => v k * w k))) / D).
  { apply Rmult_le_compat_r; [lra|]. eapply Rle_trans; [|apply Rabs_triang]. apply Req_le. f_equal. ring. }
  rewrite Rdiv_plus_distr.
  assert (E5 : Rabs (fR (fsum t) - bigsum n (fun k => P k * Q k)) / D <= ((1 + u64) ^ (n + 1) - 1) * (X / D) + 2 * eta).
  { apply Rle_trans with ((((1 + u64) ^ (n + 1) - 1) * X + 2 * INR n * eta) / D); [apply Rmult_le_compat_r; lra|].
    rewrite Rdiv_plus_distr. unfold Rdiv at 1. rewrite Rmult_assoc. fold (X / D). apply Rplus_le_compat_l.
    apply (Rmult_le_reg_r D); [exact PD|]. unfold Rdiv. rewrite Rmult_assoc, Rinv_l, Rmult_1_r by lra. nra. }
  assert (G4 : 1 <= (1 + u64) ^ (n + 1)) by (apply pow_R1_Rle; lra).
  assert (E6 : ((1 + u64) ^ (n + 1) - 1) * (X / D) <= ((1 + u64) ^ (n + 1) - 1) * ((A + d) * (B + e))) by (apply Rmult_le_compat_l; lra).
  fold A B. set (g := (1 + u64) ^ (n + 1)) in *. nra.
Qed.

(** ** The last operations: sqrt(s/(2n))/m*rate *)
Lemma sq_diff t T g z : 0 <= t -> 0 <= T -> 0 <= g -> 0 <= z -> Rabs (t - T) <= g * T + z -> Rabs (t ^ 2 - T ^ 2) <= ((1 + g) ^ 2 - 1) * T ^ 2 + 2 * (1 + g) * T * z + z ^ 2.
Proof.
  intros Pt PT Pg Pz H. replace (t ^ 2 - T ^ 2) with ((t - T) * (t + T)) by ring. rewrite Rabs_mult, (Rabs_pos_eq (t + T)) by lra. apply Rabs_le_inv in H as H'.
  apply Rle_trans with ((g * T + z) * (2 * T + (g * T + z))); [apply Rmult_le_compat; try apply Rabs_pos; lra|]. apply Req_le. ring.
Qed.
Lemma root_tail (w : float) X V U n m rate mu : ffin w -> 0 <= fR w -> (1 <= n)%nat -> (1 <= m)%nat -> (Z.of_nat n <= 2 ^ 40)%Z -> (Z.of_nat m <= 2 ^ 40)%Z ->
  moderate_rate rate -> bpow radix2 (-200) <= mu <= bpow radix2 200 -> 0 <= X <= V -> V <= U -> U <= 26 * mu ^ 2 -> Rabs (fR w / (2 * INR n) - X) <= U - V + 2 * eta ->
  let dev := (fsqrt (w / (f_ofZ 2 * f_ofZ (Z.of_nat n))) / f_ofZ (Z.of_nat m) * rate)%float in
  let rho := fR rate / INR m in
  ffin dev /\ 0 <= fR dev /\ Rabs (fR dev ^ 2 - X * rho ^ 2) <= ((1 + u64) ^ 7 * U - V + u64 ^ 2 * mu ^ 2) * rho ^ 2.
Proof.
  intros Fw Pw Hn1 Hm1 Hn Hm [Fr Hr] Hmu HX HV HU Hw dev rho. pose proof u64_pos as Pu. pose proof eta_pos as Pe. destruct bpow_nums as (_ & _ & Bu).
  assert (U1 : u64 <= / 4096) by (unfold u64; lra).
  assert (UU : u64 ^ 2 = bpow radix2 (-106)) by (rewrite <- Bu; cbn [pow]; rewrite Rmult_1_r, <- bpow_plus; reflexivity).
  assert (Pmu : 0 < mu) by (pose proof (bpow_gt_0 radix2 (-200)); lra).
  assert (Pn : 1 <= INR n) by (change 1 with (INR 1); now apply le_INR). assert (Pm : 1 <= INR m) by (change 1 with (INR 1); now apply le_INR).
  destruct (fofZ_ok (Z.of_nat n) ltac:(lia)) as [Fn Vn]. destruct (fofZ_ok (Z.of_nat m) ltac:(lia)) as [Fm Vm]. rewrite <- INR_IZR_INZ in Vn, Vm.
  assert (Un : INR n <= bpow radix2 40) by (rewrite INR_IZR_INZ; change (bpow radix2 40) with (IZR (2 ^ 40)); now apply IZR_le).
  assert (Um : INR m <= bpow radix2 40) by (rewrite INR_IZR_INZ; change (bpow radix2 40) with (IZR (2 ^ 40)); apply IZR_le; lia).
  destruct (fdouble (f_ofZ (Z.of_nat n)) Fn) as [FC VC].
  { rewrite Vn, Rabs_pos_eq by lra. eapply Rle_trans; [exact Un|]. apply bpow_le. lia. }
  rewrite Vn in VC.
  assert (Pr : 0 < fR rate) by (pose proof (bpow_gt_0 radix2 (-100)); lra).
  assert (Mu2 : mu ^ 2 <= bpow radix2 400) by (change 400%Z with (200 + 200)%Z; rewrite bpow_plus; cbn [pow]; rewrite Rmult_1_r; apply Rmult_le_compat; lra).
  assert (E0 : eta <= bpow radix2 (-1000)) by (apply bpow_le; lia).
  assert (B1 : bpow radix2 (-1000) <= bpow radix2 400) by (apply bpow_le; lia).
  assert (W : 0 <= fR w / (2 * INR n) <= U + 2 * eta).
  { split; [apply Rmult_le_pos; [exact Pw|left; apply Rinv_0_lt_compat; lra]|]. apply Rabs_le_inv in Hw. lra. }
  assert (BW : fR w / (2 * INR n) <= bpow radix2 410).
  { apply Rle_trans with (bpow radix2 5 * bpow radix2 400); [change (bpow radix2 5) with 32; lra|rewrite <- bpow_plus; apply bpow_le; lia]. }
  destruct (fdiv_err w (f_ofZ 2 * f_ofZ (Z.of_nat n))%float Fw) as [Fq Eq]; [rewrite VC; lra|rewrite VC, Rabs_pos_eq by lra; eapply Rle_trans; [exact BW|apply bpow_le; lia]|].
  rewrite VC, (Rabs_pos_eq (fR w / _)) in Eq by lra. set (q := (w / (f_ofZ 2 * f_ofZ (Z.of_nat n)))%float) in *.
  assert (Pq : 0 <= fR q).
  { destruct (fdiv_ok w (f_ofZ 2 * f_ofZ (Z.of_nat n))%float Fw) as [_ Vq]; [rewrite VC; lra|apply rnd_bound; rewrite VC, Rabs_pos_eq by lra; eapply Rle_trans; [exact BW|apply bpow_le; lia]|].
    unfold q. rewrite Vq, VC. apply rnd_nonneg. lra. }
  set (W0 := fR w / (2 * INR n)) in *. apply Rabs_le_inv in Eq as Eq'. apply Rabs_le_inv in Hw as Hw'.
  assert (Q1 : Rabs (fR q - X) <= (1 + u64) * U - V + 4 * eta) by (apply Rabs_le; nra).
  assert (Q2 : fR q <= (1 + u64) * U + 4 * eta) by nra.
  destruct (fsqrt_err q Fq Pq) as (Fs & Ps & Es). set (T0 := R_sqrt.sqrt (fR q)) in *. assert (PT0 : 0 <= T0) by apply sqrt_pos. assert (TT : T0 ^ 2 = fR q) by (cbn [pow]; rewrite Rmult_1_r; apply sqrt_sqrt; exact Pq).
  assert (EM : eta <= / 100 * (u64 ^ 2 * bpow radix2 (-400))).
  { apply Rle_trans with (bpow radix2 (-7) * (bpow radix2 (-106) * bpow radix2 (-400))).
    - rewrite <- !bpow_plus. apply bpow_le. lia.
    - rewrite UU. apply Rmult_le_compat_r; [apply Rmult_le_pos; apply bpow_ge_0|]. change (bpow radix2 (-7)) with (/ 128). lra. }
  assert (MM : bpow radix2 (-400) <= mu ^ 2) by (change (-400)%Z with (-200 + -200)%Z; rewrite bpow_plus; cbn [pow]; rewrite Rmult_1_r; pose proof (bpow_ge_0 radix2 (-200)); apply Rmult_le_compat; lra).
  assert (Pmu2 : 0 < mu ^ 2) by (apply pow_lt; lra).
  assert (Pu2 : 0 < u64 ^ 2 <= / 1000) by (split; [apply pow_lt; lra|cbn [pow]; nra]).
  assert (EM2 : eta <= / 100 * (u64 ^ 2 * mu ^ 2)) by (eapply Rle_trans; [exact EM|]; apply Rmult_le_compat_l; [lra|]; apply Rmult_le_compat_l; lra).
  assert (BT : T0 <= 6 * mu).
  { apply Rsqr_incr_0_var; [|lra]. unfold Rsqr. replace (T0 * T0) with (fR q) by (rewrite <- TT; ring).
    assert (u64 * U <= / 4096 * (26 * mu ^ 2)) by (apply Rmult_le_compat; lra). assert (u64 ^ 2 * mu ^ 2 <= / 1000 * mu ^ 2) by (apply Rmult_le_compat_r; lra). nra. }
  assert (BTb : T0 <= bpow radix2 203) by (apply Rle_trans with (bpow radix2 3 * bpow radix2 200); [change (bpow radix2 3) with 8; lra|rewrite <- bpow_plus; apply bpow_le; lia]).
  assert (IM : 0 < / INR m <= 1) by (split; [apply Rinv_0_lt_compat; lra|rewrite <- Rinv_1; apply Rinv_le; lra]).
  assert (N1 : near (fsqrt q) T0 1 0) by (split; [exact Fs|]; split; [exact Ps|]; cbn [pow]; lra).
  assert (N2 : near (fsqrt q / f_ofZ (Z.of_nat m))%float (T0 / INR m) 2 eta).
  { rewrite <- Vm. eapply near_weaken; [apply near_div; [exact N1|rewrite Vm; lra|exact PT0|lra|lia| |]|]; rewrite ?Vm.
    - apply Rle_trans with T0; [unfold Rdiv; nra|]. eapply Rle_trans; [exact BTb|apply bpow_le; lia].
    - unfold Rdiv. rewrite Rmult_0_l. pose proof (bpow_ge_0 radix2 990). lra.
    - unfold Rdiv. rewrite Rmult_0_l. lra. }
  assert (PT1 : 0 <= T0 / INR m <= bpow radix2 203) by (split; [apply Rmult_le_pos; lra|]; eapply Rle_trans; [|exact BTb]; unfold Rdiv; nra).
  assert (R100 : bpow radix2 203 * bpow radix2 100 <= bpow radix2 990) by (rewrite <- bpow_plus; apply bpow_le; lia).
  assert (N3 : near dev (T0 / INR m * fR rate) 3 ((1 + u64) * (eta * fR rate) + eta)).
  { apply near_mul; auto; try lra; try lia.
    - eapply Rle_trans; [|exact R100]. apply Rmult_le_compat; lra.
    - apply Rle_trans with (bpow radix2 (-1000) * bpow radix2 100); [apply Rmult_le_compat; lra|]. replace (/ 2) with (bpow radix2 (-1)) by (cbn; lra). rewrite <- !bpow_plus. apply bpow_le. lia. }
  destruct N3 as (Fd & Pd & Ed). split; [exact Fd|]. split; [exact Pd|].
  set (z := (1 + u64) * (eta * fR rate) + eta) in *.
  assert (Ez : T0 / INR m * fR rate = T0 * rho) by (unfold rho, Rdiv; ring). rewrite Ez in Ed.
  assert (Prho : 0 < rho) by (unfold rho, Rdiv; apply Rmult_lt_0_compat; lra).
  assert (Zz : 0 <= z <= / 100 * (u64 ^ 2 * (mu * rho))).
  { assert (Per : 0 <= eta * fR rate) by (apply Rmult_le_pos; lra). split; [unfold z; apply Rplus_le_le_0_compat; [apply Rmult_le_pos|]; lra|].
    assert (Z1 : z <= 2 * eta * bpow radix2 101 * fR rate).
    { unfold z. assert (H1 : 1 <= bpow radix2 100 * fR rate) by (rewrite <- (Rinv_r (bpow radix2 100)) by (pose proof (bpow_gt_0 radix2 100); lra); apply Rmult_le_compat_l; [apply bpow_ge_0|]; rewrite <- bpow_opp; apply Hr).
      assert (H2 : bpow radix2 101 = 2 * bpow radix2 100) by (change 101%Z with (1 + 100)%Z; rewrite bpow_plus; reflexivity). rewrite H2.
      assert (H3 : 1 <= bpow radix2 100) by (change 1 with (bpow radix2 0); apply bpow_le; lia).
      assert (eta * 1 <= eta * (bpow radix2 100 * fR rate)) by (apply Rmult_le_compat_l; lra).
      assert (eta * fR rate * 1 <= eta * fR rate * bpow radix2 100) by (apply Rmult_le_compat_l; nra). nra. }
    eapply Rle_trans; [exact Z1|].
    assert (K : 2 * eta * bpow radix2 101 <= / 100 * (u64 ^ 2 * bpow radix2 (-200) * bpow radix2 (-40))).
    { apply Rle_trans with (bpow radix2 (-7) * (bpow radix2 (-106) * bpow radix2 (-200) * bpow radix2 (-40))).
      - change 2 with (bpow radix2 1). unfold eta. rewrite <- !bpow_plus. apply bpow_le. lia.
      - rewrite UU. apply Rmult_le_compat_r; [repeat apply Rmult_le_pos; apply bpow_ge_0|]. change (bpow radix2 (-7)) with (/ 128). lra. }
    assert (Q : bpow radix2 (-40) <= / INR m) by (change (-40)%Z with (- (40))%Z; rewrite bpow_opp; apply Rinv_le; lra).
    unfold rho, Rdiv. apply Rle_trans with (/ 100 * (u64 ^ 2 * bpow radix2 (-200) * bpow radix2 (-40)) * fR rate); [apply Rmult_le_compat_r; lra|].
    replace (/ 100 * (u64 ^ 2 * (mu * (fR rate * / INR m)))) with (/ 100 * (u64 ^ 2 * mu * / INR m) * fR rate) by ring.
    apply Rmult_le_compat_r; [lra|]. apply Rmult_le_compat_l; [lra|]. pose proof (bpow_ge_0 radix2 (-40)). pose proof (bpow_ge_0 radix2 (-200)). apply Rmult_le_compat; [nra|lra| |exact Q]. apply Rmult_le_compat_l; lra. }
  assert (PT2 : 0 <= T0 * rho) by nra.
  assert (G3 : 1 <= (1 + u64) ^ 3 <= 1 + / 100) by (cbn [pow]; nra).
  pose proof (sq_diff (fR dev) (T0 * rho) ((1 + u64) ^ 3 - 1) z Pd PT2 ltac:(lra) (proj1 Zz) Ed) as S.
  replace ((1 + ((1 + u64) ^ 3 - 1)) ^ 2 - 1) with ((1 + u64) ^ 6 - 1) in S by ring. replace (1 + ((1 + u64) ^ 3 - 1)) with ((1 + u64) ^ 3) in S by ring.
  replace ((T0 * rho) ^ 2) with (fR q * rho ^ 2) in S by (rewrite <- TT; ring).
  assert (Prho2 : 0 < rho ^ 2) by (apply pow_lt; lra).
  assert (S1 : 2 * (1 + u64) ^ 3 * (T0 * rho) * z + z ^ 2 <= / 4 * (u64 ^ 2 * mu ^ 2) * rho ^ 2).
  { assert (V1 : T0 * rho <= 6 * (mu * rho)) by nra. assert (Pmr : 0 < mu * rho) by nra.
    replace (/ 4 * (u64 ^ 2 * mu ^ 2) * rho ^ 2) with (/ 4 * u64 ^ 2 * (mu * rho) ^ 2) by ring. set (y := mu * rho) in *. set (T := T0 * rho) in *. set (k := (1 + u64) ^ 3) in *. set (v := u64 ^ 2) in *.
    assert (2 * k * T <= 13 * y) by nra. assert (2 * k * T * z <= 13 * y * (/ 100 * (v * y))) by (apply Rmult_le_compat; nra).
    assert (z ^ 2 <= (/ 100 * (v * y)) * (/ 100 * (v * y))) by (cbn [pow]; rewrite Rmult_1_r; apply Rmult_le_compat; lra).
    assert (v * y * (v * y) <= / 1000 * (v * y * y)) by (assert (0 <= v * y * y) by nra; nra). nra. }
  assert (G6 : 0 <= (1 + u64) ^ 6 - 1 <= / 100) by (cbn [pow]; nra).
  replace (fR dev ^ 2 - X * rho ^ 2) with ((fR dev ^ 2 - fR q * rho ^ 2) + (fR q - X) * rho ^ 2) by ring.
  eapply Rle_trans; [apply Rabs_triang|]. rewrite (Rabs_mult (fR q - X)), (Rabs_pos_eq (rho ^ 2)) by lra.
  assert (S2 : ((1 + u64) ^ 6 - 1) * (fR q * rho ^ 2) <= ((1 + u64) ^ 6 - 1) * (((1 + u64) * U + 4 * eta) * rho ^ 2)) by (apply Rmult_le_compat_l; [lra|]; apply Rmult_le_compat_r; lra).
  assert (S3 : Rabs (fR q - X) * rho ^ 2 <= ((1 + u64) * U - V + 4 * eta) * rho ^ 2) by (apply Rmult_le_compat_r; lra).
  assert (S4 : eta * rho ^ 2 <= / 100 * (u64 ^ 2 * mu ^ 2) * rho ^ 2) by (apply Rmult_le_compat_r; lra).
  assert (S5 : ((1 + u64) ^ 6 - 1) * (eta * rho ^ 2) <= / 100 * (eta * rho ^ 2)) by (apply Rmult_le_compat_r; [nra|lra]).
  assert (P6 : 0 <= u64 ^ 2 * mu ^ 2 * rho ^ 2) by (repeat apply Rmult_le_pos; try lra; nra).
  replace ((1 + u64) ^ 7) with ((1 + u64) ^ 6 * (1 + u64)) by ring. set (g := (1 + u64) ^ 6) in *. nra.
Qed.

(** ** calc_gcodev_phase over any number type *)
Section Gen.
Context {A : Type} {NA : Num A}.
Lemma second_diff_gen n n2 n1 n0 (f2 f1 f0 : nat -> A) : (n <= n2)%nat -> (n <= n1)%nat -> (n <= n0)%nat ->
  second_diff n (tab n2 f2) (tab n1 f1) (tab n0 f0) = Ok (tab n (fun i => nadd (nsub (f2 i) (nmul (ofZ 2) (f1 i))) (f0 i))).
Proof.
  intros H2 H1 H0. unfold second_diff, scal, vsub, vadd. rewrite !firstn_tab, !Nat.min_l by assumption. rewrite map_tab, bmap2_tab. cbn [bind]. now rewrite bmap2_tab.
Qed.
Lemma second_diff_short_gen (d2 d1 d0 : list A) : d2 = [] -> second_diff 1 d2 d1 d0 = Ok [].
Proof.
  intros ->. unfold second_diff, vsub, vadd, scal. rewrite firstn_nil, bmap2_nil_l by (rewrite map_length, firstn_length; lia).
  cbn [bind]. apply bmap2_nil_l. rewrite firstn_length. lia.
Qed.
Lemma calc_gcodev_gen N (f g : nat -> A) rate m : (2 * m < N)%nat ->
  let n := (N - 2 * m)%nat in let v := fun (f : nat -> A) k => nadd (nsub (f (2 * m + k)%nat) (nmul (ofZ 2) (f (m + k)%nat))) (f k) in
  let s := asum (tab n (fun k => nmul (v f k) (v g k))) in
  let dev := if nleb (ofZ 0) s then nmul (ndiv (nsqrt (ndiv s (nmul (ofZ 2) (ofN n)))) (ofN m)) rate
             else nmul (ndiv (nsqrt (ndiv (nabs s) (nmul (ofZ 2) (ofN n)))) (ofN m)) rate in
  calc_gcodev_phase (tab N f) (tab N g) rate m 1 = Ok (dev, ndiv dev (nsqrt (ofN n)), Z.of_nat n).
Proof.
  intros Hn n v s dev. unfold calc_gcodev_phase. rewrite !pystride_tab by lia. cbn [bind]. rewrite !tab_length, !stride_count_1.
  rewrite (min3_eq (N - 0)) by lia. fold n. destruct (Nat.eqb_spec n 0) as [C|_]; [unfold n in C; lia|].
  rewrite !second_diff_gen by (unfold n; lia). cbn [bind]. unfold vmul. rewrite bmap2_tab. cbn [bind].
  assert (E : tab n (fun i => nmul (nadd (nsub (f (2 * m + i * 1)%nat) (nmul (ofZ 2) (f (1 * m + i * 1)%nat))) (f (0 + i * 1)%nat))
      (nadd (nsub (g (2 * m + i * 1)%nat) (nmul (ofZ 2) (g (1 * m + i * 1)%nat))) (g (0 + i * 1)%nat))) = tab n (fun k => nmul (v f k) (v g k))).
  { apply tab_ext. intros i Hi. unfold v. rewrite Nat.mul_1_r, Nat.mul_1_l, Nat.add_0_l. reflexivity. }
  rewrite E. reflexivity.
Qed.
Lemma calc_gcodev_short_gen N (f g : nat -> A) rate m : (N <= 2 * m)%nat -> exists d e, calc_gcodev_phase (tab N f) (tab N g) rate m 1 = Ok (d, e, 1%Z).
Proof.
  intros Hn. unfold calc_gcodev_phase. rewrite !pystride_tab by lia. cbn [bind]. rewrite !tab_length, !stride_count_1.
  replace (N - 2 * m)%nat with 0%nat by lia. rewrite (min3_eq (N - 0)) by lia. cbn [Nat.eqb].
  rewrite !second_diff_short_gen by reflexivity. cbn [bind]. unfold vmul. rewrite bmap2_nil_l by (cbn; lia). cbn [bind]. eexists _, _. reflexivity.
Qed.
End Gen.

(** One row: M1, M2 bound the samples; a, b are the exact overlapping Allan deviations of the two records. *)
Lemma gcodev_row N (f g : nat -> float) rate m M1 M2 s :
  (Z.of_nat N <= 2 ^ 40)%Z -> bpow radix2 (-200) <= M1 <= bpow radix2 200 -> bpow radix2 (-200) <= M2 <= bpow radix2 200 ->
  (forall i, (i < N)%nat -> ffin (f i) /\ Rabs (fR (f i)) <= M1) -> (forall i, (i < N)%nat -> ffin (g i) /\ Rabs (fR (g i)) <= M2) -> moderate_rate rate ->
  (1 <= m)%nat -> (2 * m < N)%nat -> let n := (N - 2 * m)%nat in
  let v := fun (f : nat -> float) k => (f (2 * m + k)%nat - f_ofZ 2 * f (m + k)%nat + f k)%float in
  let e := fun (f : nat -> float) k => fR (f (2 * m + k)%nat) - 2 * fR (f (m + k)%nat) + fR (f k) in
  let D := 2 * INR n in let rho := fR rate / INR m in
  let a := rms n D (e f) * rho in let b := rms n D (e g) * rho in let c := Rabs (bigsum n (fun k => e f k * e g k)) / D * rho ^ 2 in
  sum_of (tab n (fun k => v f k * v g k)%float) s ->
  let dev := if nleb (ofZ 0) s then (fsqrt (s / (f_ofZ 2 * f_ofZ (Z.of_nat n))) / f_ofZ (Z.of_nat m) * rate)%float
             else (fsqrt (nabs s / (f_ofZ 2 * f_ofZ (Z.of_nat n))) / f_ofZ (Z.of_nat m) * rate)%float in
  ffin dev /\ 0 <= fR dev /\
  Rabs (fR dev ^ 2 - c) <= (1 + (1 + / 1000) * (INR (n + 8) * u64)) * ((a + 9 * (u64 * M1 * rho)) * (b + 9 * (u64 * M2 * rho))) - a * b.
Proof.
  intros HN HM1 HM2 Hf Hg Hr Hm Hn n v e D rho a b c Hs dev.
  assert (Hn1 : (1 <= n)%nat) by (unfold n; lia). assert (NN : (Z.of_nat n <= 2 ^ 40)%Z) by (unfold n; lia).
  assert (Pn : 1 <= INR n) by (change 1 with (INR 1); now apply le_INR). pose proof u64_pos as Pu. assert (U1 : u64 <= / 4096) by (unfold u64; lra).
  pose proof eta_pos as Pe. assert (P0 : 0 < bpow radix2 (-200)) by apply bpow_gt_0.
  assert (PD : 0 < D) by (unfold D; lra). assert (ND : INR n <= D) by (unfold D; lra). assert (IMD : 0 < / D) by now apply Rinv_0_lt_compat.
  assert (K : forall (h : nat -> float) M, bpow radix2 (-200) <= M <= bpow radix2 200 -> (forall i, (i < N)%nat -> ffin (h i) /\ Rabs (fR (h i)) <= M) ->
    forall k, (k < n)%nat -> ffin (v h k) /\ Rabs (fR (v h k)) <= bpow radix2 400 /\ Rabs (fR (v h k) - e h k) <= 8 * u64 * M /\ Rabs (e h k) <= 4 * M).
  { intros h M HM Hh k Hk. destruct (Hh (2 * m + k)%nat ltac:(lia)) as [F2 B2]. destruct (Hh (m + k)%nat ltac:(lia)) as [F1 B1]. destruct (Hh k ltac:(lia)) as [F0 B0].
    assert (B4 : bpow radix2 200 <= bpow radix2 400) by (apply bpow_le; lia).
    destruct (d2_err _ _ _ M F2 F1 F0 B2 B1 B0 ltac:(lra)) as [F E]. destruct (abs3 _ _ _ M B2 B1 B0) as [_ B]. fold (v h k) in F, E. fold (e h k) in E, B.
    split; [exact F|]. split; [|split; [exact E|exact B]]. apply Rle_trans with (bpow radix2 3 * bpow radix2 200).
    - change (bpow radix2 3) with 8. apply Rabs_le_inv in E, B. apply Rabs_le. nra.
    - rewrite <- bpow_plus. apply bpow_le. lia. }
  set (A := rms n D (e f)) in *. set (B := rms n D (e g)) in *.
  assert (BA : 0 <= A <= 4 * M1) by (apply rms_bound; auto; [lra|intros k Hk; apply (K f M1); auto]).
  assert (BB : 0 <= B <= 4 * M2) by (apply rms_bound; auto; [lra|intros k Hk; apply (K g M2); auto]).
  destruct (prod_sum_err n (v f) (v g) (e f) (e g) (8 * u64 * M1) (8 * u64 * M2) D s Hn1 NN ND ltac:(nra) ltac:(nra)) as [Fs Es].
  { intros k Hk. destruct (K f M1 HM1 Hf k Hk) as (? & ? & ? & ?). destruct (K g M2 HM2 Hg k Hk) as (? & ? & ? & ?). tauto. }
  { exact Hs. }
  fold A B in Es. set (C := bigsum n (fun k => e f k * e g k)) in *.
  set (w := if nleb (ofZ 0) s then s else nabs s).
  assert (Ew : dev = (fsqrt (w / (f_ofZ 2 * f_ofZ (Z.of_nat n))) / f_ofZ (Z.of_nat m) * rate)%float) by (unfold dev, w; destruct (nleb (ofZ 0) s); reflexivity).
  assert (Hw : ffin w /\ fR w = Rabs (fR s)).
  { unfold w. cbn [nleb ofZ FNum nabs]. destruct (fofZ_ok 0 ltac:(lia)) as [F0 V0]. rewrite fleb_ok, V0 by assumption. destruct (Rle_bool_spec 0 (fR s)) as [L|L].
    - rewrite Rabs_pos_eq by exact L. auto.
    - destruct (fabs_ok s). auto. }
  destruct Hw as [Fw Vw].
  assert (Cab : Rabs C / D <= A * B).
  { eapply Rle_trans; [|apply (rms_cs n D (e f) (e g) PD)]. apply Rmult_le_compat_r; [lra|]. apply bigsum_abs. }
  assert (PM : 0 < M1 /\ 0 < M2) by lra. set (mu := R_sqrt.sqrt (M1 * M2)). assert (MU : mu ^ 2 = M1 * M2) by (unfold mu; cbn [pow]; rewrite Rmult_1_r; apply sqrt_sqrt; nra).
  assert (PM12 : 0 < M1 * M2) by nra.
  assert (Hmu : bpow radix2 (-200) <= mu <= bpow radix2 200).
  { pose proof (bpow_ge_0 radix2 200). assert (0 <= mu) by apply sqrt_pos. split; apply Rsqr_incr_0_var; try lra; unfold Rsqr; replace (mu * mu) with (M1 * M2) by (rewrite <- MU; ring); apply Rmult_le_compat; lra. }
  assert (G1 : 1 <= (1 + u64) ^ (n + 1)) by (apply pow_R1_Rle; lra). assert (G2 : (1 + u64) ^ (n + 1) - 1 <= / 1000) by (apply pow_u_small; lia).
  set (Y := (A + 8 * u64 * M1) * (B + 8 * u64 * M2)) in *.
  assert (um1 : 0 <= u64 * M1 <= / 4096 * M1) by nra. assert (um2 : 0 <= u64 * M2 <= / 4096 * M2) by nra.
  assert (YA : A * B <= Y) by (unfold Y; nra).
  assert (YB : Y <= 20 * (M1 * M2)).
  { apply Rle_trans with ((4 * M1 + 8 * (/ 4096 * M1)) * (4 * M2 + 8 * (/ 4096 * M2))); [unfold Y; apply Rmult_le_compat; nra|nra]. }
  assert (PAB : 0 <= A * B) by nra. assert (PC : 0 <= Rabs C / D) by (apply Rmult_le_pos; [apply Rabs_pos|lra]).
  pose proof (root_tail w (Rabs C / D) (A * B) ((1 + u64) ^ (n + 1) * Y) n m rate mu Fw ltac:(rewrite Vw; apply Rabs_pos) Hn1 Hm NN ltac:(lia) Hr Hmu) as RT.
  specialize (RT (conj PC Cab) ltac:(nra) ltac:(rewrite MU; nra)). cbv zeta in RT. rewrite <- Ew in RT. fold rho in RT.
  destruct RT as (Fd & Pd & Ed).
  { rewrite Vw. fold D. eapply Rle_trans; [|exact Es]. replace (Rabs (fR s) / D - Rabs C / D) with ((Rabs (fR s) - Rabs C) * / D) by (unfold Rdiv; ring).
    rewrite Rabs_mult, (Rabs_pos_eq (/ D)) by lra. apply Rmult_le_compat_r; [lra|]. apply Rabs_triang_inv2. }
  split; [exact Fd|]. split; [exact Pd|]. fold c in Ed. eapply Rle_trans; [exact Ed|]. rewrite MU.
  replace ((1 + u64) ^ 7 * ((1 + u64) ^ (n + 1) * Y)) with ((1 + u64) ^ (n + 8) * Y) by (rewrite <- Rmult_assoc, <- pow_add; do 2 f_equal; lia).
  pose proof (pow_u_le (n + 8) ltac:(lia)) as GL. pose proof (pow_u_ge1 (n + 8)) as G8.
  set (Kn := 1 + (1 + / 1000) * (INR (n + 8) * u64)) in *.
  replace (Kn * ((a + 9 * (u64 * M1 * rho)) * (b + 9 * (u64 * M2 * rho))) - a * b) with ((Kn * ((A + 9 * (u64 * M1)) * (B + 9 * (u64 * M2))) - A * B) * rho ^ 2) by (unfold a, b; ring).
  apply Rmult_le_compat_r; [apply pow2_ge_0|].
  assert (HK : (1 + u64) ^ (n + 8) * Y <= Kn * Y) by (apply Rmult_le_compat_r; unfold Kn; lra).
  assert (HY : Y + u64 ^ 2 * (M1 * M2) <= (A + 9 * (u64 * M1)) * (B + 9 * (u64 * M2))).
  { unfold Y. replace (u64 ^ 2 * (M1 * M2)) with ((u64 * M1) * (u64 * M2)) by ring. set (p := u64 * M1) in *. set (q := u64 * M2) in *.
    replace (8 * u64 * M1) with (8 * p) by (unfold p; ring). replace (8 * u64 * M2) with (8 * q) by (unfold q; ring). assert (0 <= p * q) by nra. assert (0 <= A * q) by nra. assert (0 <= p * B) by nra. nra. }
  assert (K1 : 1 <= Kn) by (unfold Kn; lra).
  assert (PU2 : 0 <= u64 ^ 2 * (M1 * M2)) by (apply Rmult_le_pos; [apply pow2_ge_0|lra]).
  assert (HKY : Kn * (Y + u64 ^ 2 * (M1 * M2)) <= Kn * ((A + 9 * (u64 * M1)) * (B + 9 * (u64 * M2)))) by (apply Rmult_le_compat_l; lra).
  nra.
Qed.

Definition cov_close (X Y : list R) (M1 M2 : R) (rate : float) (r : row) : Prop :=
  let a := R_sqrt.sqrt (oavar X (1 / fR rate) (Z.to_nat (r_m r))) in let b := R_sqrt.sqrt (oavar Y (1 / fR rate) (Z.to_nat (r_m r))) in
  let e := fun M => 9 * (u64 * M * (fR rate / IZR (r_m r))) in
  ffin (r_dF r) /\ 0 <= fR (r_dF r) /\
  Rabs (fR (r_dF r) ^ 2 - r_dR r ^ 2) <= (1 + (1 + / 1000) * (IZR (r_n r + 8) * u64)) * ((a + e M1) * (b + e M2)) - a * b.

Lemma rms_oavar (f : nat -> float) N m rate x : 0 < fR rate -> (1 <= m)%nat -> (2 * m < N)%nat -> map fR x = tab N (fun i => fR (f i)) ->
  rms (N - 2 * m) (2 * INR (N - 2 * m)) (fun k => fR (f (2 * m + k)%nat) - 2 * fR (f (m + k)%nat) + fR (f k)) * (fR rate / INR m) = R_sqrt.sqrt (oavar (map fR x) (1 / fR rate) m).
Proof.
  intros Hr Hm Hn Ex. assert (LN : len (map fR x) = N) by (rewrite Ex; apply tab_length). unfold oavar, oadev_n. rewrite LN.
  set (n := (N - 2 * m)%nat). replace (2 * (INR m * (1 / fR rate)) ^ 2 * INR n) with (2 * INR n * (INR m * (1 / fR rate)) ^ 2) by ring.
  rewrite <- adev_dev_eq by (auto; unfold n; lia).
  assert (EB : bigsum n (fun i => d2 (map fR x) m i ^ 2) = bigsum n (fun k => (fR (f (2 * m + k)%nat) - 2 * fR (f (m + k)%nat) + fR (f k)) ^ 2)).
  { apply bigsum_ext. intros k Hk. f_equal. unfold d2. rewrite Ex. unfold n in Hk. rewrite !nth_tab by lia. repeat (f_equal; try lia). }
  rewrite EB. unfold Rdiv. ring.
Qed.

Lemma gcodev_rows x y rate M1 M2 : bounded_record x M1 -> bounded_record y M2 -> bpow radix2 (-200) <= M1 <= bpow radix2 200 -> bpow radix2 (-200) <= M2 <= bpow radix2 200 ->
  len y = len x -> moderate_rate rate -> forall m, (1 <= m < Z.of_nat (len x))%Z -> exists r, r_m r = m /\
    calc_gcodev_phase x y rate (Z.to_nat m) 1 = Ok (r_dF r, r_eF r, r_n r) /\
    calc_gcodev_phase (map fR x) (map fR y) (fR rate) (Z.to_nat m) 1 = Ok (r_dR r, r_eR r, r_n r) /\
    ((1 < r_n r)%Z -> cov_close (map fR x) (map fR y) M1 M2 rate r).
Proof.
  intros Hx Hy HM1 HM2 Hl Hr m Hm. destruct (rec_tab x M1 Hx) as (HN & _ & Et & EtR & Hf). destruct (rec_tab y M2 Hy) as (_ & _ & Eu & EuR & Hg). rewrite Hl in Eu, EuR, Hg.
  set (N := len x) in *. set (f := fun i => nth i x 0%float) in *. set (g := fun i => nth i y 0%float) in *. set (k := Z.to_nat m). assert (Hk : (1 <= k)%nat) by lia.
  assert (Pr : 0 < fR rate) by (destruct Hr as [_ [L _]]; pose proof (bpow_gt_0 radix2 (-100)); lra).
  destruct (Nat.le_gt_cases N (2 * k)) as [S|S].
  - destruct (calc_gcodev_short_gen N f g rate k S) as (d & e & E). destruct (calc_gcodev_short_gen N (fun i => fR (f i)) (fun i => fR (g i)) (fR rate) k S) as (d' & e' & E').
    exists (Row m 1 d e d' e'). cbn [r_m r_n r_dF r_eF r_dR r_eR]. rewrite EtR, EuR. rewrite Et, Eu at 1. repeat split; auto; intros; lia.
  - pose proof (calc_gcodev_gen N f g rate k S) as E. cbv zeta in E. rewrite <- Et, <- Eu in E.
    assert (LX : len (map fR x) = N) by (apply map_length).
    pose proof (calc_gcodev_spec (map fR x) (map fR y) (fR rate) k Pr Hk ltac:(rewrite !map_length; exact Hl) ltac:(unfold oadev_n; rewrite LX; lia)) as E'. cbv zeta in E'. unfold oadev_n in E'. rewrite LX in E'.
    eexists (Row m _ _ _ _ _). cbn [r_m r_n r_dF r_eF r_dR r_eR]. split; [reflexivity|]. split; [exact E|]. split; [exact E'|].
    intros _. unfold cov_close. cbn [r_m r_n r_dF r_eF r_dR r_eR]. fold k.
    pose proof (gcodev_row N f g rate k M1 M2 _ HN HM1 HM2 Hf Hg Hr Hk S (sum_left _)) as R. cbv beta zeta in R.
    rewrite (rms_oavar f N k rate x Pr Hk S EtR), (rms_oavar g N k rate y Pr Hk S EuR) in R.
    unfold ofN. cbn [nadd nsub nmul ndiv nsqrt ofZ FNum]. destruct R as (R1 & R2 & R3). split; [exact R1|]. split; [exact R2|].
    replace (IZR m) with (INR k) by (rewrite INR_IZR_INZ; f_equal; lia).
    replace (IZR (Z.of_nat (N - 2 * k) + 8)) with (INR (N - 2 * k + 8)) by (rewrite INR_IZR_INZ; f_equal; lia).
    eapply Rle_trans; [|exact R3]. apply Req_le. f_equal. f_equal.
    replace (R_sqrt.sqrt (Rabs (ocov (map fR x) (map fR y) (1 / fR rate) k)) ^ 2) with (Rabs (ocov (map fR x) (map fR y) (1 / fR rate) k)) by (cbn [pow]; rewrite Rmult_1_r, sqrt_sqrt; [reflexivity|apply Rabs_pos]).
    unfold ocov, oadev_n. rewrite LX. set (n := (N - 2 * k)%nat). assert (Pn : 0 < INR n) by (apply lt_0_INR; unfold n; lia). assert (Pk : 0 < INR k) by (apply lt_0_INR; lia).
    rewrite Rabs_mult, Rabs_pos_eq.
    2:{ left. apply Rinv_0_lt_compat. apply Rmult_lt_0_compat; [|exact Pn]. apply Rmult_lt_0_compat; [lra|]. apply pow_lt. unfold Rdiv. rewrite Rmult_1_l. apply Rmult_lt_0_compat; [lra|]. now apply Rinv_0_lt_compat. }
    assert (EB : bigsum n (fun i => d2 (map fR x) k i * d2 (map fR y) k i) =
      bigsum n (fun j => (fR (f (2 * k + j)%nat) - 2 * fR (f (k + j)%nat) + fR (f j)) * (fR (g (2 * k + j)%nat) - 2 * fR (g (k + j)%nat) + fR (g j)))).
    { apply bigsum_ext. intros i Hi. unfold d2. rewrite EtR, EuR. unfold n in Hi. rewrite !nth_tab by lia. rewrite (Nat.add_comm i (2 * k)), (Nat.add_comm i k). reflexivity. }
    rewrite EB. field. repeat split; lra.
Qed.

(** gcodev of the binary64 numbers beside gcodev of the same numbers in exact arithmetic *)
Theorem C116_gcodev x y rate M1 M2 tF tR : bounded_record x M1 -> bounded_record y M2 -> bpow radix2 (-200) <= M1 <= bpow radix2 200 -> bpow radix2 (-200) <= M2 <= bpow radix2 200 ->
  x <> [] -> len y = len x -> moderate_rate rate -> same_request rate tF tR ->
  (gcodev x y rate "phase" tF = Err UserWarning /\ gcodev (map fR x) (map fR y) (fR rate) "phase" tR = Err UserWarning) \/
  exists rows, gcodev x y rate "phase" tF = Ok (tableF rate rows) /\ gcodev (map fR x) (map fR y) (fR rate) "phase" tR = Ok (tableR (fR rate) rows) /\
    rows <> [] /\ Forall (cov_close (map fR x) (map fR y) M1 M2 rate) rows.
Proof.
  intros Hx Hy HM1 HM2 Hx0 Hl Hr Hs. assert (Hy0 : y <> []) by (destruct y, x; cbn in Hl; congruence || lia || discriminate).
  destruct (same_factors x rate M1 tF tR Hx Hx0 Hr Hs) as (ms' & G1' & G2' & _). destruct (same_factors y rate M2 tF tR Hy Hy0 Hr Hs) as (ms & G1 & G2 & Hb).
  unfold gcodev, input_to_phase. cbn [String.eqb Ascii.eqb Bool.eqb bind]. rewrite G1'. cbn [ofZ RNum]. rewrite G2'. cbn [bind]. cbn [ofZ RNum]. rewrite G1. cbn [bind]. rewrite G2. cbn [bind].
  destruct (run_rows_par (fun mj => calc_gcodev_phase x y rate mj 1) (fun mj => calc_gcodev_phase (map fR x) (map fR y) (fR rate) mj 1) rate (cov_close (map fR x) (map fR y) M1 M2 rate) ms) as [[E1 E2]|(rows & E1 & E2 & E3 & E4 & _)].
  - intros m Hm. apply gcodev_rows; auto. rewrite <- Hl. now apply Hb.
  - left. auto.
  - right. exists rows. auto.
Qed.
Print Assumptions C116_gcodev.


(** ** Witnesses *)
Definition ints (l : list Z) : list float := map f_ofZ l.
Lemma ints_R l : Forall (fun z => (Z.abs z <= 2 ^ 53)%Z) l -> map fR (ints l) = map IZR l.
Proof. intro H. unfold ints. rewrite map_map. apply map_ext_in. intros z Hz. rewrite Forall_forall in H. now apply fofZ_ok, H. Qed.
Lemma ints_bounded l M : Forall (fun z => (Z.abs z <= M)%Z) l -> (Z.of_nat (len l) <= 2 ^ 40)%Z -> (1 <= M <= 2 ^ 53)%Z -> bounded_record (ints l) (IZR M).
Proof.
  intros H L HM. split; [unfold ints; now rewrite map_length|]. split.
  - split; [apply Rle_trans with (bpow radix2 0); [apply bpow_le; lia|apply (IZR_le 1); lia]|].
    apply Rle_trans with (IZR (2 ^ 53)); [apply IZR_le; lia|]. change (IZR (2 ^ 53)) with (bpow radix2 53). apply bpow_le. lia.
  - unfold ints. apply Forall_map. eapply Forall_impl; [|exact H]. intros z Hz. cbv beta in Hz. destruct (fofZ_ok z ltac:(lia)) as [F V]. split; [exact F|].
    rewrite V, <- abs_IZR. now apply IZR_le.
Qed.
Lemma one_rate : moderate_rate (f_ofZ 1).
Proof.
  destruct (fofZ_ok 1 ltac:(lia)) as [F V]. split; [exact F|]. rewrite V. change 1 with (bpow radix2 0). split; apply bpow_le; lia.
Qed.

(** No relative bound: the products of the second differences are 2^54, 1 and -2^54; the float covariance is 0. *)
Definition can_x : list Z := [0; 0; 134217728; 268435457; 536870914]%Z.
Definition can_y : list Z := [0; 0; 134217728; 268435457; 268435458]%Z.
Theorem C116_relative_refuted : let x := ints can_x in let y := ints can_y in
  bounded_record x 1073741824 /\ bounded_record y 1073741824 /\ moderate_rate (f_ofZ 1) /\
  gcodev x y (f_ofZ 1) "phase" (TList [f_ofZ 1]) = Ok ([1]%float, [0]%float, EArr [0]%float, [3]%Z) /\
  exists e, gcodev (map fR x) (map fR y) (fR (f_ofZ 1)) "phase" (TList [INR 1 / fR (f_ofZ 1)]) = Ok ([INR 1 / fR (f_ofZ 1)], [R_sqrt.sqrt (/ 6)], EArr e, [3]%Z).
Proof.
  intros x y.
  split; [apply (ints_bounded _ 1073741824); [repeat constructor; cbn; lia|cbn; lia|lia]|].
  split; [apply (ints_bounded _ 1073741824); [repeat constructor; cbn; lia|cbn; lia|lia]|]. split; [exact one_rate|]. split; [vm_compute; reflexivity|].
  destruct (fofZ_ok 1 ltac:(lia)) as [_ V]. rewrite V. unfold x, y. rewrite !ints_R by (repeat constructor; cbn; lia).
  eexists. rewrite (gcodev_spec _ _ 1 (TList [INR 1 / 1]) [1%nat]); [|lra|reflexivity|apply adm_single; [lra|cbn; lia]]. cbv zeta.
  rewrite report_single by (cbn; lia). do 3 f_equal. f_equal. f_equal.
  replace (ocov (map IZR can_x) (map IZR can_y) (1 / 1) 1) with (/ 6) by (unfold ocov, oadev_n, d2, can_x, can_y; cbn; field).
  rewrite Rabs_pos_eq by lra. reflexivity.
Qed.
Print Assumptions C116_relative_refuted.

(** The hypotheses hold for two ordinary records, and the result is then a table. *)
Example C116_ex : let x := ints [1; 2; 4; 8; 8; 1]%Z in let y := ints [2; -3; 5; 7; 1; 0]%Z in
  bounded_record x 8 /\ bounded_record y 8 /\ moderate_rate (f_ofZ 1) /\ same_request (f_ofZ 1) (TStr "octave") (TStr "octave") /\
  exists rows, gcodev x y (f_ofZ 1) "phase" (TStr "octave") = Ok (tableF (f_ofZ 1) rows) /\
    gcodev (map fR x) (map fR y) (fR (f_ofZ 1)) "phase" (TStr "octave") = Ok (tableR (fR (f_ofZ 1)) rows) /\
    map r_n rows = [4; 2]%Z /\ Forall (cov_close (map fR x) (map fR y) 8 8 (f_ofZ 1)) rows.
Proof.
  intros x y. assert (Hx : bounded_record x 8) by (apply (ints_bounded _ 8); [repeat constructor; cbn; lia|cbn; lia|lia]).
  assert (Hy : bounded_record y 8) by (apply (ints_bounded _ 8); [repeat constructor; cbn; lia|cbn; lia|lia]).
  assert (Hs : same_request (f_ofZ 1) (TStr "octave") (TStr "octave")).
  { left. exists "octave"%string. split; [cbn; tauto|]. split; (left; reflexivity) || (right; reflexivity) || reflexivity. }
  assert (H8 : bpow radix2 (-200) <= 8 <= bpow radix2 200) by (change 8 with (bpow radix2 3); split; apply bpow_le; lia).
  pose proof one_rate as Hr. do 4 (split; [assumption|]).
  destruct (C116_gcodev x y (f_ofZ 1) 8 8 _ _ Hx Hy H8 H8 ltac:(discriminate) eq_refl Hr Hs) as [[E _]|(rows & E1 & E2 & _ & A)].
  - exfalso. revert E. vm_compute. discriminate.
  - exists rows. split; [exact E1|]. split; [exact E2|]. split; [|exact A].
    assert (G : forall r : @result float, gcodev x y (f_ofZ 1) "phase" (TStr "octave") = Ok r -> snd r = [4; 2]%Z).
    { intros r. vm_compute. intro Q. injection Q as <-. reflexivity. }
    exact (G _ E1).
Qed.
