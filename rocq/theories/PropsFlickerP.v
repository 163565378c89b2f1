(** * The parabolic deviation of the series of noise_kasdin.Noise against
      Noise.pdev_from_qd (allantools/noise_kasdin.py:321-356), for all five slopes (C110). *)
From Coq Require Import String Reals List ZArith Bool Arith Lia Lra Psatz.
From Coquelicot Require Import Coquelicot.
From Interval Require Import Tactic.
From Verif Require Import Base Num NpList NumR Spec ListFacts RSum Dft ModelCore ModelDev ModelNoise ModelNoiseR
  DevProofs TotProofs Laws2 Laws3 ConvProofs NoiseProofs PropsKasdin PropsPredict PropsExpect PropsDev PropsBias
  PropsColor CiProofs FlickerProofs PropsFlicker.
Import ListNotations.
Local Open Scope R_scope.
Local Notation len := List.length.

(** ** Parabolic weights as second tail sums of sparse weights *)
Definition pl (m : nat) : list (nat * R) :=
  cons (0%nat, (INR m - 1) / 2) (cons (1%nat, - ((INR m + 1) / 2)) (cons (m, 1) (cons (S m, 1)
  (cons ((2 * m)%nat, - ((INR m + 1) / 2)) (cons (S (2 * m), (INR m - 1) / 2) nil))))).
Definition wq (m : nat) : nat -> R := tl (S (S (2 * m))) (sp (pl m)).
Definition wp (m : nat) : nat -> R := tl (S (2 * m)) (wq m).

Lemma pl_sum m P g : (S (2 * m) < P)%nat -> bigsum P (fun s => sp (pl m) s * g s) =
  (INR m - 1) / 2 * g 0%nat - (INR m + 1) / 2 * g 1%nat + g m + g (S m) - (INR m + 1) / 2 * g (2 * m)%nat + (INR m - 1) / 2 * g (S (2 * m)).
Proof. intro H. rewrite sp_sum by (unfold pl; fall). unfold pl. cbn [spsum]. ring. Qed.
Lemma pl_0 m : bigsum (S (S (2 * m))) (sp (pl m)) = 0.
Proof.
  rewrite (bigsum_ext _ _ (fun s => sp (pl m) s * 1)) by (intros; ring). rewrite (pl_sum m _ (fun _ => 1)) by lia. field.
Qed.
Lemma pl_1 m : bigsum (S (S (2 * m))) (fun s => INR s * sp (pl m) s) = 0.
Proof.
  rewrite (bigsum_ext _ _ (fun s => sp (pl m) s * INR s)) by (intros; ring). rewrite (pl_sum m _ INR) by lia.
  rewrite !S_INR, mult_INR. change (INR 2) with 2. change (INR 1) with 1. change (INR 0) with 0. field.
Qed.
Lemma wq_0 m : bigsum (S (2 * m)) (wq m) = 0.
Proof. unfold wq. rewrite tl_total. apply pl_1. Qed.
Lemma wp_gg m g : bigsum (2 * m) (fun u => wp m u * g u) =
  let GG := fun s => bigsum s (fun i => bigsum i g) in
  GG m + GG (S m) - (INR m + 1) / 2 * GG (2 * m)%nat + (INR m - 1) / 2 * GG (S (2 * m)).
Proof.
  unfold wp. rewrite <- (tl_sum (2 * m) (wq m) g). unfold wq. rewrite <- (tl_sum (S (2 * m)) (sp (pl m)) (fun s => bigsum s g)).
  rewrite (pl_sum m _ (fun s => bigsum s (fun i => bigsum i g))) by lia. cbv zeta. cbn [bigsum]. ring.
Qed.
Lemma abel m g : bigsum m (fun k => INR k * g k) = INR m * bigsum m g - bigsum (S m) (fun i => bigsum i g).
Proof.
  induction m as [|m IH]; [cbn [bigsum]; cbn [INR]; ring|]. cbn [bigsum] in *. rewrite IH, S_INR. ring.
Qed.
Lemma wp_sum m g : bigsum (2 * m) (fun u => wp m u * g u) =
  bigsum m (fun k => ((INR m - 1) / 2 - INR k) * (g k - g (k + m)%nat)).
Proof.
  rewrite wp_gg. cbv zeta.
  transitivity (((INR m - 1) / 2 * bigsum m g - bigsum m (fun k => INR k * g k)) -
    (((INR m - 1) / 2 + INR m) * (bigsum (2 * m) g - bigsum m g) - (bigsum (2 * m) (fun k => INR k * g k) - bigsum m (fun k => INR k * g k)))).
  - rewrite !abel. rewrite mult_INR. change (INR 2) with 2.
    set (GG := fun s => bigsum s (fun i => bigsum i g)).
    change (bigsum (S m) (fun i => bigsum i g)) with (GG m + bigsum m g).
    change (bigsum (S (2 * m)) (fun i => bigsum i g)) with (GG (2 * m)%nat + bigsum (2 * m) g).
    change (bigsum m (fun i => bigsum i g)) with (GG m). change (bigsum (2 * m) (fun i => bigsum i g)) with (GG (2 * m)%nat). field.
  - replace (2 * m)%nat with (m + m)%nat by lia. rewrite !bigsum_add.
    rewrite (bigsum_ext m (fun i => INR (m + i) * g (m + i)%nat) (fun i => INR m * g (m + i)%nat + INR i * g (m + i)%nat))
      by (intros; rewrite plus_INR; ring).
    rewrite bigsum_plus, bigsum_scal.
    rewrite (bigsum_ext m (fun k => ((INR m - 1) / 2 - INR k) * (g k - g (k + m)%nat))
      (fun k => ((INR m - 1) / 2 * g k - INR k * g k) - ((INR m - 1) / 2 * g (m + k)%nat - INR k * g (m + k)%nat)))
      by (intros; rewrite (Nat.add_comm m); ring).
    rewrite !bigsum_minus, !bigsum_scal. ring.
Qed.
Lemma wp_0 m : bigsum (2 * m) (wp m) = 0.
Proof. unfold wp. rewrite tl_total. rewrite <- (Rmult_0_r 1).
  rewrite (bigsum_ext _ _ (fun s => wq m s * INR s)) by (intros; ring).
  rewrite (bigsum_ext _ _ (fun s => wq m s * bigsum s (fun _ => 1))) by (intros; rewrite bigsum_const; ring).
  rewrite (tl_sum (2 * m) (wq m) (fun _ => 1)). fold (wp m). rewrite (wp_sum m (fun _ => 1)). rewrite bigsum_0; [ring|]. intros; ring.
Qed.
Lemma wp_1 m : bigsum (2 * m) (fun u => INR u * wp m u) = 0.
Proof.
  rewrite (bigsum_ext _ _ (fun u => wp m u * INR u)) by (intros; ring). rewrite wp_sum.
  rewrite (bigsum_ext m _ (fun k => - INR m * ((INR m - 1) / 2) + INR m * INR k)) by (intros; rewrite plus_INR; ring).
  rewrite bigsum_plus, bigsum_const, bigsum_scal, sum_below. field.
Qed.
Lemma pl_dbl m F : (2 <= m)%nat -> F 0%nat = 0 -> F 1%nat = 0 -> dbl (S (S (2 * m))) (sp (pl m)) F =
  let mu := (INR m - 1) / 2 in let nu := (INR m + 1) / 2 in
  2 * (- 2 * F m - 2 * nu * F (m - 1)%nat + 2 * mu * F (S m) - 2 * mu * nu * F (2 * m)%nat + nu ^ 2 * F (2 * m - 1)%nat + mu ^ 2 * F (S (2 * m))).
Proof.
  intros Hm F0 F1. rewrite sp_dbl by (unfold pl; fall). unfold pl. cbn [spsum]. cbv zeta. unfold nd.
  repeat match goal with |- context [F (?a - ?b + (?c - ?d))%nat] =>
    let e := constr:((a - b + (c - d))%nat) in
    first [ replace e with 0%nat by lia | replace e with 1%nat by lia | replace e with m by lia | replace e with (m - 1)%nat by lia
          | replace e with (S m) by lia | replace e with (2 * m)%nat by lia | replace e with (2 * m - 1)%nat by lia
          | replace e with (S (2 * m)) by lia ] end.
  rewrite F0, F1. field.
Qed.
Lemma wp_dbl m f F H : (2 <= m)%nat -> diff2 F f -> diff2 H F -> H 0%nat = 0 -> H 1%nat = 0 ->
  dbl (2 * m) (wp m) f = dbl (S (S (2 * m))) (sp (pl m)) H.
Proof.
  intros Hm D1 D2 H0 H1. unfold wp. rewrite (dbl_int F f (wq m) (2 * m) D1 (wq_0 m)). unfold wq.
  rewrite (dbl_int H F (sp (pl m)) (S (2 * m)) D2 (pl_0 m)). ring.
Qed.

(** third running sum *)
Definition oI (n : nat) : R :=
  (INR n ^ 6 / 720 - 7 / 576 * INR n ^ 4 + 259 / 11520 * INR n ^ 2 - 5 / 1024) * oddh n
  - 49 / 28800 * INR n ^ 6 + 301 / 23040 * INR n ^ 4 - 4193 / 230400 * INR n ^ 2.
Lemma oI_diff : diff2 oI oH.
Proof.
  split.
  - unfold oI, oH. rewrite oddh_S. change (oddh 0) with 0. cbn [INR]. field.
  - intro n. unfold oI, oH. rewrite !oddh_S, !S_INR. pose proof (pos_INR n). field. lra.
Qed.
Definition rI (n : nat) : R := INR n * (INR n ^ 2 - 1) * (INR n ^ 2 - 4) * (INR n ^ 2 - 9) / 5040.
Lemma rI_diff : diff2 rI rH.
Proof. split; [unfold rI, rH; cbn [INR]; field|]. intro n. unfold rI, rH. rewrite !S_INR. field. Qed.

Lemma oddh_pred n : (1 <= n)%nat -> oddh (n - 1) = oddh n - / (2 * INR n - 1).
Proof.
  intro H. destruct n as [|n]; [lia|]. replace (S n - 1)%nat with n by lia. rewrite oddh_S, S_INR.
  replace (2 * (INR n + 1) - 1) with (2 * INR n + 1) by ring. ring.
Qed.
Ltac pdbl m Hm :=
  rewrite (pl_dbl m _ Hm); [cbv zeta | | ]; rewrite ?S_INR, ?minus_INR by lia; rewrite ?oddh_S, ?oddh_pred by lia;
  rewrite ?S_INR, ?minus_INR, ?mult_INR by lia; change (INR 2) with 2; change (INR 1) with 1.

Definition pv1 (m : nat) : R :=
  INR m ^ 4 / 3 * (oddh (2 * m) - oddh m) - INR m ^ 4 / 24 + INR m ^ 2 * (oddh m / 3 - 13 / 48 * oddh (2 * m))
  - (oddh m / 16 - oddh (2 * m) / 64).
Definition pv3 (m : nat) : R :=
  7 / 360 * INR m ^ 6 - INR m ^ 6 / 45 * (oddh (2 * m) - oddh m) + INR m ^ 4 * (5 / 72 * (oddh (2 * m) - oddh m) - 43 / 1440)
  + INR m ^ 2 * (17 / 360 * oddh m - 409 / 11520 * oddh (2 * m)) - oddh m / 128 + oddh (2 * m) / 512.
Lemma oH_1 : oH 1 = 0.
Proof. unfold oH, oddh. cbn [bigsum INR]. field. Qed.
Lemma oI_0 : oI 0 = 0.
Proof. unfold oI. rewrite oddh_0. cbn [INR]. ring. Qed.
Lemma oI_1 : oI 1 = 0.
Proof. unfold oI, oddh. cbn [bigsum INR]. field. Qed.
Lemma rI_0 : rI 0 = 0.
Proof. unfold rI. cbn [INR]. field. Qed.
Lemma rI_1 : rI 1 = 0.
Proof. unfold rI. cbn [INR]. field. Qed.

Lemma pl_oH m : (2 <= m)%nat -> dbl (S (S (2 * m))) (sp (pl m)) oH = - pv1 m.
Proof.
  intro Hm. rewrite (pl_dbl m _ Hm oH_0 oH_1). cbv zeta. unfold oH, pv1.
  rewrite ?oddh_S, !oddh_pred by lia. rewrite ?S_INR, ?minus_INR, ?mult_INR by lia. change (INR 2) with 2. change (INR 1) with 1.
  assert (2 <= INR m) by (apply (le_INR 2); exact Hm). field. repeat split; lra.
Qed.
Lemma pl_oI m : (2 <= m)%nat -> dbl (S (S (2 * m))) (sp (pl m)) oI = pv3 m.
Proof.
  intro Hm. rewrite (pl_dbl m _ Hm oI_0 oI_1). cbv zeta. unfold oI, pv3.
  rewrite ?oddh_S, !oddh_pred by lia. rewrite ?S_INR, ?minus_INR, ?mult_INR by lia. change (INR 2) with 2. change (INR 1) with 1.
  assert (2 <= INR m) by (apply (le_INR 2); exact Hm). field. repeat split; lra.
Qed.
Lemma pl_rI m : (2 <= m)%nat -> dbl (S (S (2 * m))) (sp (pl m)) rI =
  2 * (13 / 2520 * INR m ^ 7 - INR m ^ 5 / 180 + INR m ^ 3 / 360 - INR m / 420).
Proof.
  intro Hm. rewrite (pl_dbl m _ Hm rI_0 rI_1). cbv zeta. unfold rI.
  rewrite ?S_INR, ?minus_INR, ?mult_INR by lia. change (INR 2) with 2. change (INR 1) with 1. field.
Qed.

Lemma lim_p1 m : (2 <= m)%nat -> is_lim_seq (qf (-1) (wp m) (2 * m)) (2 / PI * pv1 m).
Proof.
  intro Hm. replace (2 / PI * pv1 m) with (- (2 / PI) * dbl (2 * m) (wp m) oddh).
  - apply qf_lim0, wp_0.
  - rewrite (wp_dbl m oddh oG oH Hm oG_diff oH_diff oH_0 oH_1), pl_oH by exact Hm. ring.
Qed.
Lemma lim_p3 m : (2 <= m)%nat -> is_lim_seq (qf (-3) (wp m) (2 * m)) (2 / PI * pv3 m).
Proof.
  intro Hm. replace (2 / PI * pv3 m) with (2 / PI * dbl (2 * m) (wp m) oG).
  - replace (2 * m)%nat with (S (2 * m - 1)) by lia. apply qf_lim1; replace (S (2 * m - 1)) with (2 * m)%nat by lia; [apply wp_0|apply wp_1].
  - rewrite (wp_dbl m oG oH oI Hm oH_diff oI_diff oI_0 oI_1), pl_oI by exact Hm. ring.
Qed.
Lemma var_p4 m k : (2 <= m)%nat -> qf (-4) (wp m) (2 * m) k =
  13 / 2520 * INR m ^ 7 - INR m ^ 5 / 180 + INR m ^ 3 / 360 - INR m / 420.
Proof.
  intro Hm. replace (2 * m)%nat with (S (2 * m - 1)) by lia. rewrite qf_m4; replace (S (2 * m - 1)) with (2 * m)%nat by lia; [|apply wp_0|apply wp_1].
  rewrite (wp_dbl m rG rH rI Hm rH_diff rI_diff rI_0 rI_1), pl_rI by exact Hm. field.
Qed.

Section T.
Variables (qd rate : R) (m : nat).
Hypothesis Hq : 0 <= qd.
Hypothesis Hr : 0 < rate.
Hypothesis Hm : (2 <= m)%nat.
Let tau := INR m / rate.
Let O := odd_harmonic.
Let t0 := 1 / rate.

Lemma mp2 : 2 <= INR m.
Proof using Hm. apply (le_INR 2), Hm. Qed.
Lemma t0_pos' : 0 < t0.
Proof using Hr. apply Rdiv_lt_0_compat; lra. Qed.
Lemma tau_pos' : 0 < tau.
Proof using Hr Hm. pose proof mp2. apply Rdiv_lt_0_compat; lra. Qed.

Lemma pvar_forms b nr E : white nr E -> (2 * m + 2 <= nr)%nat ->
  edev E nr qd b pdev rate m = 72 * qd / (INR m ^ 4 * tau ^ 2) *
    (bigsum (nr - 2 * m) (qf b (wp m) (2 * m)) / INR (nr - 2 * m)).
Proof using All.
  intros HE Hn. pose proof tau_pos' as Tp. pose proof mp2 as Mp.
  assert (Np : 0 < INR (nr - 2 * m)) by (apply lt_0_INR; lia).
  rewrite (edev_var E nr qd b _ rate m (fun x => pvar x (1 / rate) m) HE).
  - rewrite (wh_ext _ E HE _ (fun w => 72 / (INR (nr - 2 * m) * INR m ^ 4 * tau ^ 2) *
      bigsum (nr - 2 * m) (fun j => (fun i w => bigsum m (fun k => ((INR m - 1) / 2 - INR k) *
        ((record nr qd b w).[i + k] - (record nr qd b w).[i + k + m]))) j w ^ 2))).
    + rewrite (E_forms nr E HE qd Hq b (wp m) (2 * m) (nr - 2 * m) _ (fun i => i)).
      * change (fun i => qf b (wp m) (2 * m) i) with (qf b (wp m) (2 * m)). field. lra.
      * intros; lia.
      * intros i w Hi. rewrite (wp_sum m (fun s => (record nr qd b w).[i + s])). apply bigsum_ext. intros k Hk.
        now replace (i + (k + m))%nat with (i + k + m)%nat by lia.
    + intro w. unfold pvar, oadev_n. rewrite record_len by lia. destruct (Nat.eqb_spec m 1); [lia|].
      replace (INR m * (1 / rate)) with tau by (unfold tau; field; lra). reflexivity.
  - intro w. apply pvar_nonneg.
  - intro w. rewrite pdev_single by (try assumption; rewrite ?record_len by lia; lia). do 3 eexists. reflexivity.
Qed.
Lemma grows_pdev b l : is_lim_seq (qf b (wp m) (2 * m)) (Finite l) ->
  grows_to (2 * m + 2) (fun E nr => edev E nr qd b pdev rate m) (72 * qd / (INR m ^ 4 * tau ^ 2) * l).
Proof using All.
  intro Hl. pose proof tau_pos' as Tp. pose proof mp2 as Mp.
  apply (grows_avg b (wp m) (2 * m) l _ _ _ (fun nr => nr - 2 * m)%nat (fun i => i) Hl).
  - apply Rmult_le_pos; [lra|]. left. apply Rinv_0_lt_compat, Rmult_lt_0_compat; apply pow_lt; lra.
  - intros; lia.
  - intros; lia.
  - intro K. exists (K + 2 * m)%nat. intros; lia.
  - intros nr E HE Hn. apply pvar_forms; assumption.
Qed.

Definition lim_pvar1 : R := qd / (PI * tau ^ 2) *
  (48 * (O (2 * m)%nat - O m) - 6 + (48 * O m - 39 * O (2 * m)%nat) / INR m ^ 2 - (9 * O m - 9 / 4 * O (2 * m)%nat) / INR m ^ 4).
Definition lim_pvar3 : R := qd / PI * rate ^ 2 *
  (14 / 5 - 16 / 5 * (O (2 * m)%nat - O m) + (10 * (O (2 * m)%nat - O m) - 43 / 10) / INR m ^ 2
   + (34 / 5 * O m - 409 / 80 * O (2 * m)%nat) / INR m ^ 4 - (9 / 8 * O m - 9 / 32 * O (2 * m)%nat) / INR m ^ 6).

(** The expected squared pdev of a flicker record, in the limit of long records. *)
Theorem C110_pdev_flicker :
  grows_to (2 * m + 2) (fun E nr => edev E nr qd (-1) pdev rate m) lim_pvar1 /\
  grows_to (2 * m + 2) (fun E nr => edev E nr qd (-3) pdev rate m) lim_pvar3.
Proof using Hq Hr Hm.
  pose proof mp2 as Mp. pose proof PI_RGT_0 as HP. split.
  - replace lim_pvar1 with (72 * qd / (INR m ^ 4 * tau ^ 2) * (2 / PI * pv1 m)); [exact (grows_pdev (-1) _ (lim_p1 m Hm))|].
    unfold lim_pvar1, pv1, O, tau. change odd_harmonic with oddh. field. lra.
  - replace lim_pvar3 with (72 * qd / (INR m ^ 4 * tau ^ 2) * (2 / PI * pv3 m)); [exact (grows_pdev (-3) _ (lim_p3 m Hm))|].
    unfold lim_pvar3, pv3, O, tau. change odd_harmonic with oddh. field. lra.
Qed.

Lemma pred_pdev b (k : Z) c nr : b = IZR k -> 0 <= c ->
  pdev_from_qd (mkNoise nr qd b) t0 tau = Ok (sqrt (c * phase_psd_from_qd (mkNoise nr qd b) t0 * (2 * PI) ^ 2)) ->
  exists p, pdev_from_qd (mkNoise nr qd b) t0 tau = Ok p /\ p ^ 2 = c * (qd * 2 * powerRZ (2 * PI) (k + 2) * powerRZ t0 (k + 1)).
Proof using Hq Hr Hm.
  intros Hb Hc H. eexists. split; [exact H|].
  replace (c * phase_psd_from_qd (mkNoise nr qd b) t0 * (2 * PI) ^ 2) with (c * frequency_psd_from_qd (mkNoise nr qd b) t0)
    by (rewrite psd_relation; ring).
  rewrite pow2_sqrt; [now rewrite (fpsd nr qd b t0 k t0_pos' Hb)|]. apply Rmult_le_pos; [exact Hc|now apply fpsd_nonneg].
Qed.
Ltac powz := cbn [Z.add Z.opp Z.pos_sub Pos.add Pos.succ Pos.pred_double]; pz.

(** White phase and white frequency noise: the prediction times 1 - 1/m^2 and 1 - 1/m^4. *)
Theorem C110_pdev_white nr E : white nr E -> (2 * m + 2 <= nr)%nat ->
  (exists p, pdev_from_qd (mkNoise nr qd 0) t0 tau = Ok p /\
     edev E nr qd 0 pdev rate m = p ^ 2 / tau ^ 3 * (1 - / INR m ^ 2)) /\
  (exists p, pdev_from_qd (mkNoise nr qd (-2)) t0 tau = Ok p /\
     edev E nr qd (-2) pdev rate m = p ^ 2 / tau * (1 - / INR m ^ 4)).
Proof using Hq Hr Hm.
  intros HE Hn. pose proof mp2 as Mp. pose proof PI_RGT_0 as HP.
  destruct (C85_pdev nr E qd rate m HE Hq Hr Hm Hn) as [A B]. split.
  - destruct (pred_pdev 0 0 (3 / (2 * PI ^ 2)) nr eq_refl) as [p [P1 P2]].
    + left. apply Rdiv_lt_0_compat; [lra|]. pose proof (pow_lt PI 2 HP). lra.
    + unfold pdev_from_qd. cbn [nz_b]. eqbs. reflexivity.
    + exists p. split; [exact P1|]. rewrite A, P2. unfold allan, t0, tau. destruct (Req_EM_T 0 0) as [_|N]; [|contradiction].
      powz. field. lra.
  - destruct (pred_pdev (-2) (-2) (3 / 5) nr eq_refl) as [p [P1 P2]].
    + lra.
    + unfold pdev_from_qd. cbn [nz_b]. eqbs. reflexivity.
    + exists p. split; [exact P1|]. rewrite B, P2. unfold allan, t0, tau.
      destruct (Req_EM_T (-2) 0) as [N|_]; [lra|]. destruct (Req_EM_T (-2) (-2)) as [_|N]; [|contradiction].
      powz. field. lra.
Qed.

(** Random-walk frequency noise. *)
Theorem C110_pdev_rwfm nr E : white nr E -> (2 * m + 2 <= nr)%nat ->
  exists p, pdev_from_qd (mkNoise nr qd (-4)) t0 tau = Ok p /\
  edev E nr qd (-4) pdev rate m = p ^ 2 * tau *
    (1 - 14 / (13 * INR m ^ 2) + 7 / (13 * INR m ^ 4) - 6 / (13 * INR m ^ 6)).
Proof using Hq Hr Hm.
  intros HE Hn. pose proof mp2 as Mp. pose proof PI_RGT_0 as HP.
  destruct (pred_pdev (-4) (-4) (26 / 35 * PI ^ 2) nr eq_refl) as [p [P1 P2]].
  - pose proof (pow_lt PI 2 HP). lra.
  - unfold pdev_from_qd. cbn [nz_b]. eqbs. reflexivity.
  - exists p. split; [exact P1|]. rewrite (pvar_forms (-4) nr E HE Hn).
    rewrite (bigsum_ext _ _ (fun _ => 13 / 2520 * INR m ^ 7 - INR m ^ 5 / 180 + INR m ^ 3 / 360 - INR m / 420)) by (intros; now apply var_p4).
    rewrite bigsum_const, P2. unfold t0, tau. assert (0 < INR (nr - 2 * m)) by (apply lt_0_INR; lia). powz. field. lra.
Qed.

Lemma O_third : oddh m <= 1 + (INR m - 1) / 3.
Proof using Hm.
  clear Hq Hr tau O t0. induction m as [|n IH]; [lia|]. destruct (le_lt_dec 2 n) as [H|H].
  - specialize (IH H). rewrite oddh_S, S_INR. assert (2 <= INR n) by (apply (le_INR 2), H).
    assert (/ (2 * INR n + 1) <= / 3) by (apply Rinv_le_contravar; lra). lra.
  - replace n with 1%nat by lia. unfold oddh. cbn [bigsum]. rewrite !S_INR. change (INR 0) with 0. lra.
Qed.
Lemma O_43 : 4 / 3 <= oddh m.
Proof using Hm.
  clear Hq Hr tau O t0. induction m as [|n IH]; [lia|]. destruct (le_lt_dec 2 n) as [H|H].
  - specialize (IH H). rewrite oddh_S. pose proof (pos_INR n).
    assert (0 < / (2 * INR n + 1)) by (apply Rinv_0_lt_compat; lra). lra.
  - replace n with 1%nat by lia. unfold oddh. cbn [bigsum]. rewrite !S_INR. change (INR 0) with 0. lra.
Qed.

(** Flicker frequency noise: the prediction is reached from below, as 1/m^2. *)
Theorem C110_pdev_ffm nr : exists p, pdev_from_qd (mkNoise nr qd (-3)) t0 tau = Ok p /\
  - (105 / 100) * (qd / PI * rate ^ 2 / INR m ^ 2) <= lim_pvar3 - p ^ 2 <= - (64 / 100) * (qd / PI * rate ^ 2 / INR m ^ 2).
Proof using Hq Hr Hm.
  pose proof mp2 as Mp. pose proof PI_RGT_0 as HP.
  assert (L16 : ln 16 = 4 * ln 2) by (replace 16 with (2 ^ 4) by ring; rewrite ln_pow by lra; cbn [INR]; ring).
  assert (L2 : 69314 / 100000 <= ln 2 <= 69315 / 100000) by (split; interval with (i_prec 60)).
  destruct (pred_pdev (-3) (-3) (2 * (7 - ln 16) / 5) nr eq_refl) as [p [P1 P2]].
  - lra.
  - unfold pdev_from_qd. cbn [nz_b]. eqbs. reflexivity.
  - exists p. split; [exact P1|].
    set (c := qd / PI * rate ^ 2). set (i2 := / INR m ^ 2).
    assert (C0 : 0 <= c).
    { apply Rmult_le_pos; [|apply pow2_ge_0]. apply Rmult_le_pos; [lra|left; now apply Rinv_0_lt_compat]. }
    assert (I0 : 0 < i2) by (apply Rinv_0_lt_compat, pow_lt; lra).
    assert (I1 : i2 <= / 4) by (unfold i2; apply Rinv_le_contravar; nra).
    assert (PP : p ^ 2 = c * (14 / 5 - 8 / 5 * ln 2)).
    { rewrite P2, L16. unfold c, t0. powz. field. lra. }
    set (s := (eh m - eh (2 * m)) * INR m ^ 2). pose proof (scaled_12 m ltac:(lia)) as S12. fold s in S12.
    set (d := oddh (2 * m) - oddh m). pose proof (oddh_12 m ltac:(lia)) as D12. fold d in D12.
    pose proof O_third as OT. pose proof O_43 as O4.
    set (u := (27 / 16 * oddh m - 409 / 80 * d) * i2). set (v := (27 / 32 * oddh m - 9 / 32 * d) * i2 * i2).
    assert (LL : lim_pvar3 - p ^ 2 = c * i2 * (16 / 5 * s + (10 * d - 43 / 10) + u - v)).
    { rewrite PP. unfold lim_pvar3, O. change odd_harmonic with oddh. fold c.
      replace (16 / 5 * (oddh (2 * m) - oddh m)) with (8 / 5 * ln 2 - 16 / 5 * (s * i2)).
      - unfold u, v, i2, d. field. lra.
      - unfold s, i2. rewrite !oddh_eh, ln_INR2 by lia. field. lra. }
    assert (Q : forall a, a * INR m ^ 2 * i2 = a) by (intro; unfold i2; field; lra).
    assert (U : 0 <= u <= 14 / 100).
    { unfold u. split; [apply Rmult_le_pos; lra|]. rewrite <- (Q (14 / 100)). apply Rmult_le_compat_r; [lra|].
      pose proof (pow2_ge_0 (INR m - 2009 / 1000)). lra. }
    assert (V : 0 <= v <= 75 / 1000).
    { unfold v. split; [apply Rmult_le_pos; [apply Rmult_le_pos|]; lra|].
      assert (0 <= (27 / 32 * oddh m - 9 / 32 * d) * i2 <= 30 / 100).
      { split; [apply Rmult_le_pos; lra|]. rewrite <- (Q (30 / 100)). apply Rmult_le_compat_r; [lra|]. nra. }
      apply Rle_trans with (30 / 100 * / 4); [apply Rmult_le_compat; lra|lra]. }
    rewrite LL. unfold Rdiv at 3 6. fold i2. rewrite !(Rmult_comm _ (c * i2)).
    assert (0 <= c * i2) by (apply Rmult_le_pos; lra).
    split; apply Rmult_le_compat_l; lra.
Qed.

(** Flicker phase noise: the limit for large m is 3(ln 16 - 1)/(2 pi^2) times the frequency PSD, not
    (3 ln 16 - 1)/(2 pi^2): the expected squared deviation never exceeds three quarters of the prediction. *)
Theorem C110_pdev_fpm :
  (9 * O m - 17) * (qd / (PI * tau ^ 2) / INR m ^ 2) <=
  lim_pvar1 - 3 * (ln 16 - 1) / (2 * PI ^ 2) * (4 * PI * qd) / tau ^ 2 <=
  (9 * O m - 13) * (qd / (PI * tau ^ 2) / INR m ^ 2).
Proof using Hq Hr Hm.
  pose proof mp2 as Mp. pose proof PI_RGT_0 as HP. pose proof tau_pos' as Tp.
  assert (L16 : ln 16 = 4 * ln 2) by (replace 16 with (2 ^ 4) by ring; rewrite ln_pow by lra; cbn [INR]; ring).
  set (c := qd / (PI * tau ^ 2)). set (i2 := / INR m ^ 2).
  assert (C0 : 0 <= c).
  { apply Rmult_le_pos; [exact Hq|]. left. apply Rinv_0_lt_compat, Rmult_lt_0_compat; [exact HP|]. now apply pow_lt. }
  assert (I0 : 0 < i2) by (apply Rinv_0_lt_compat, pow_lt; lra).
  assert (PP : 3 * (ln 16 - 1) / (2 * PI ^ 2) * (4 * PI * qd) / tau ^ 2 = c * (24 * ln 2 - 6)).
  { rewrite L16. unfold c. field. lra. }
  set (s := (eh m - eh (2 * m)) * INR m ^ 2). pose proof (scaled_12 m ltac:(lia)) as S12. fold s in S12.
  set (d := oddh (2 * m) - oddh m). pose proof (oddh_12 m ltac:(lia)) as D12. fold d in D12.
  pose proof O_third as OT. pose proof O_43 as O4.
  set (v := (27 / 4 * oddh m - 9 / 4 * d) * i2).
  assert (LL : lim_pvar1 - 3 * (ln 16 - 1) / (2 * PI ^ 2) * (4 * PI * qd) / tau ^ 2 = c * i2 * (9 * oddh m - 48 * s - 39 * d - v)).
  { rewrite PP. unfold lim_pvar1, O. change odd_harmonic with oddh. fold c.
    replace (48 * (oddh (2 * m) - oddh m)) with (24 * ln 2 - 48 * (s * i2)).
    - unfold v, i2, d. field. lra.
    - unfold s, i2. rewrite !oddh_eh, ln_INR2 by lia. field. lra. }
  assert (Q : forall a, a * INR m ^ 2 * i2 = a) by (intro; unfold i2; field; lra).
  assert (V : 0 <= v <= 21 / 10).
  { unfold v. split; [apply Rmult_le_pos; lra|]. rewrite <- (Q (21 / 10)). apply Rmult_le_compat_r; [lra|]. nra. }
  rewrite LL. unfold O. change odd_harmonic with oddh. unfold Rdiv at 1 2. fold i2. rewrite !(Rmult_comm _ (c * i2)).
  assert (0 <= c * i2) by (apply Rmult_le_pos; lra).
  split; apply Rmult_le_compat_l; lra.
Qed.

Theorem C110_pdev_fpm_refuted nr E : white nr E -> (2 * m + 2 <= nr)%nat ->
  exists p, pdev_from_qd (mkNoise nr qd (-1)) t0 tau = Ok p /\
  edev E nr qd (-1) pdev rate m <= 3 / 4 * (p ^ 2 / tau ^ 2).
Proof using Hq Hr Hm.
  intros HE Hn. pose proof mp2 as Mp. pose proof PI_RGT_0 as HP. pose proof tau_pos' as Tp.
  assert (L16 : ln 16 = 4 * ln 2) by (replace 16 with (2 ^ 4) by ring; rewrite ln_pow by lra; cbn [INR]; ring).
  assert (L2 : 69314 / 100000 <= ln 2 <= 69315 / 100000) by (split; interval with (i_prec 60)).
  destruct (pred_pdev (-1) (-1) ((3 * ln 16 - 1) / 2 / PI ^ 2) nr eq_refl) as [p [P1 P2]].
  - left. repeat apply Rdiv_lt_0_compat; try lra. now apply pow_lt.
  - unfold pdev_from_qd. cbn [nz_b]. eqbs. reflexivity.
  - exists p. split; [exact P1|]. apply Rle_trans with (1 := proj1 (proj1 C110_pdev_flicker) nr E HE Hn).
    pose proof (proj2 C110_pdev_fpm) as U. set (c := qd / (PI * tau ^ 2)) in *.
    assert (C0 : 0 <= c).
    { apply Rmult_le_pos; [exact Hq|]. left. apply Rinv_0_lt_compat, Rmult_lt_0_compat; [exact HP|]. now apply pow_lt. }
    assert (PP : p ^ 2 / tau ^ 2 = c * (24 * ln 2 - 2)).
    { rewrite P2, L16. unfold c, t0. powz. field. lra. }
    assert (PQ : 3 * (ln 16 - 1) / (2 * PI ^ 2) * (4 * PI * qd) / tau ^ 2 = c * (24 * ln 2 - 6)).
    { rewrite L16. unfold c. field. lra. }
    rewrite PP. rewrite PQ in U. unfold O in U. change odd_harmonic with oddh in U.
    assert (W : (9 * oddh m - 13) * (c / INR m ^ 2) <= c * (34 / 100)).
    { pose proof O_third. replace ((9 * oddh m - 13) * (c / INR m ^ 2)) with (c * ((9 * oddh m - 13) / INR m ^ 2)) by (unfold Rdiv; ring).
      apply Rmult_le_compat_l; [exact C0|]. apply (Rmult_le_reg_r (INR m ^ 2)); [apply pow_lt; lra|].
      unfold Rdiv. rewrite Rmult_assoc, Rinv_l, Rmult_1_r by (pose proof (pow_lt (INR m) 2 ltac:(lra)); lra). pose proof (pow2_ge_0 (INR m - 75 / 17)). lra. }
    apply Rle_trans with (c * (24 * ln 2 - 6 + 34 / 100)); [lra|].
    replace (3 / 4 * (c * (24 * ln 2 - 2))) with (c * (3 / 4 * (24 * ln 2 - 2))) by ring.
    apply Rmult_le_compat_l; lra.
Qed.
End T.

Example C110_ex1 : grows_to 6 (fun E nr => edev E nr 1 (-1) pdev 1 2) (12 / (5 * PI)).
Proof.
  destruct (C110_pdev_flicker 1 1 2 ltac:(lra) ltac:(lra) ltac:(lia)) as [H _]. pose proof PI_RGT_0.
  replace (12 / (5 * PI)) with (lim_pvar1 1 1 2); [exact H|].
  unfold lim_pvar1, odd_harmonic. cbn [bigsum Nat.mul Nat.add INR]. field. lra.
Qed.
Example C110_ex2 : white 8 (signs 8) /\ exists p, pdev_from_qd (mkNoise 8 1 (-4)) (1 / 1) (INR 2 / 1) = Ok p /\
  edev (signs 8) 8 1 (-4) pdev 1 2 = p ^ 2 * (INR 2 / 1) * (63 / 832 * 10).
Proof.
  split; [apply signs_white|].
  destruct (C110_pdev_rwfm 1 1 2 ltac:(lra) ltac:(lra) ltac:(lia) 8 (signs 8) (signs_white 8) ltac:(lia)) as [p [A B]].
  exists p. split; [exact A|]. rewrite B. f_equal. change (INR 2) with 2. field.
Qed.

Print Assumptions C110_pdev_flicker.
Print Assumptions C110_pdev_white.
Print Assumptions C110_pdev_rwfm.
Print Assumptions C110_pdev_ffm.
Print Assumptions C110_pdev_fpm.
Print Assumptions C110_pdev_fpm_refuted.
