(** * Confidence intervals from identified noise, end to end (C98).

    A user computes a deviation with adev ... tdev and passes it with the record
    to confidence_interval_noiseID (allantools/ci.py 73-133), which identifies the
    noise type, looks up the degrees of freedom and returns a chi-square interval.
    For a record of Gaussian power-law noise the interval is, up to a probability
    that tends to zero, the one with the degrees of freedom of the true noise type;
    for white phase and white frequency noise these are compared with the true
    degrees of freedom of the estimator. *)
From Coq Require Import String Reals List ZArith Bool Arith Lia Lra Psatz.
From Verif Require Import Base Num NpList NumR Spec ListFacts RSum Dft ModelCore ModelDev ModelMisc ModelCi ModelNoise ModelNoiseR ModelCiR
  DevProofs TotProofs Laws2 Laws3 NoiseProofs GreenProofs CiProofs PropsKasdin PropsExpect PropsDev PropsEdf PropsGreen PropsEdfFm
  NoiseIdProofs NoiseIdProb NoiseIdMain PropsNoiseId EdfResample PropsEdfFm2.
Import ListNotations.
Local Open Scope R_scope.
Local Open Scope string_scope.
Local Notation len := List.length.

(** ** Specification *)

(** the functions covered, the name by which confidence_interval_noiseID knows
    each, the order of its differences, whether they overlap, whether modified *)
Inductive measured : (list R -> R -> string -> taus_arg R -> res (@result R)) -> string -> nat -> bool -> bool -> Prop :=
| me_adev : measured adev "adev" 2 false false
| me_oadev : measured oadev "oadev" 2 true false
| me_hdev : measured hdev "hdev" 3 false false
| me_ohdev : measured ohdev "ohdev" 3 true false
| me_mdev : measured mdev "mdev" 2 true true
| me_tdev : measured tdev "tdev" 2 true true.

(** what the user does: one deviation, and the interval for it *)
Definition session (fn : list R -> R -> string -> taus_arg R -> res (@result R)) name (detrend : list R -> nat -> res (list R)) (ppf : R -> R -> R) (rate : R) (m : nat) (ci : R) (x : list R) : res (R * R * R) :=
  match fn x rate "phase" (TList [INR m / rate]) with
  | Ok (_, [dev], _, _) =>
      match confidence_interval_noiseID (noise_ident detrend) ppf x dev (Z.of_nat m) name "phase" ci with
      | Ok (lo, hi) => Ok (dev, lo, hi)
      | Err e => Err e
      end
  | Ok _ => Err GenericException
  | Err e => Err e
  end.

(** two-sided chi-square interval for the deviation [dev] with [e] degrees of freedom *)
Definition chi2_interval (ppf : R -> R -> R) (e ci dev lo hi : R) : Prop :=
  let q := Rmin (Rabs ci) (Rabs (ci - 1)) / 2 in
  lo = sqrt (e * dev ^ 2 / ppf (1 - q) e) /\ hi = sqrt (e * dev ^ 2 / ppf q e).
Lemma chi2_interval_dec ppf e ci dev lo hi : {chi2_interval ppf e ci dev lo hi} + {~ chi2_interval ppf e ci dev lo hi}.
Proof. unfold chi2_interval. cbv zeta. destruct (Req_EM_T lo (sqrt (e * dev ^ 2 / ppf (1 - Rmin (Rabs ci) (Rabs (ci - 1)) / 2) e))), (Req_EM_T hi (sqrt (e * dev ^ 2 / ppf (Rmin (Rabs ci) (Rabs (ci - 1)) / 2) e))); tauto. Qed.

(** probability that the session with a generated record does not end with that interval *)
Definition failure_rate (E : ((nat -> R) -> R) -> R) fn name detrend ppf rate m ci (N : nat) (qd b e : R) : R :=
  E (fun w => match generateNoise w (mkNoise N qd b) with
              | Ok x => match session fn name detrend ppf rate m ci x with
                        | Ok (dev, lo, hi) => if chi2_interval_dec ppf e ci dev lo hi then 0 else 1
                        | Err _ => 1
                        end
              | Err _ => 1
              end).

(** ** Proofs *)
Lemma row_exists fn name d o md (x : list R) rate m : measured fn name d o md -> 0 < rate -> (1 <= m)%nat -> (d * m < len x)%nat ->
  (2 <= terms d (Z.of_nat m) (Z.of_nat (len x)) o md)%Z ->
  exists t dev er n, fn x rate "phase" (TList [INR m / rate]) = Ok (t, [dev], er, n).
Proof.
  intros Hm Hr H1 Hd Ht. assert (HA : admissible (len x) rate (TList [INR m / rate]) [m]).
  { apply adm_single; [exact Hr|]. destruct Hm; lia. }
  assert (Q : (Z.of_nat ((len x - 1) / m) = (Z.of_nat (len x) - 1) / Z.of_nat m)%Z) by (rewrite Nat2Z.inj_div, Nat2Z.inj_sub by lia; reflexivity).
  destruct Hm; unfold terms in Ht.
  - rewrite (C14_adev x rate _ [m] Hr HA). cbv zeta. rewrite report_single by (unfold adev_n; lia). repeat eexists.
  - rewrite (C15_oadev x rate _ [m] Hr HA). cbv zeta. rewrite report_single by (unfold oadev_n; lia). repeat eexists.
  - rewrite (C16_hdev x rate _ [m] Hr HA). cbv zeta. rewrite report_single by (unfold hdev_n; lia). repeat eexists.
  - rewrite (C17_ohdev x rate _ [m] Hr HA). cbv zeta. rewrite report_single by (unfold ohdev_n; lia). repeat eexists.
  - rewrite (C18_mdev x rate _ [m] Hr HA). cbv zeta. rewrite report_single by (unfold mdev_n; lia). repeat eexists.
  - rewrite (C19_tdev x rate _ [m] Hr HA). cbv zeta. rewrite report_single by (unfold mdev_n; lia). repeat eexists.
Qed.

Lemma ci_value ppf dev e ci : let '(lo, hi) := confidence_interval ppf dev e ci in chi2_interval ppf e ci dev lo hi.
Proof.
  unfold confidence_interval, chi2_interval, pymin2. cbn [ofZ nadd nsub nmul ndiv nsqrt nabs nltb RNum].
  assert (Q : (if Rltb (Rabs (ci - 1)) (Rabs ci) then Rabs (ci - 1) else Rabs ci) = Rmin (Rabs ci) (Rabs (ci - 1))).
  { unfold Rmin. destruct (Rltb (Rabs (ci - 1)) (Rabs ci)) eqn:C; [apply Rltb_true in C|apply Rltb_false in C]; destruct (Rle_dec (Rabs ci) (Rabs (ci - 1))); lra. }
  rewrite Q. cbn [pow]. rewrite Rmult_1_r. split; reflexivity.
Qed.

(** The interval is the one of the true noise type: white phase, white frequency and random walk frequency noise. *)
Theorem C98_interval E fn name d o md detrend ppf rate m ci N qd b k e : measured fn name d o md -> least_squares detrend -> prob N E ->
  0 < qd -> 0 < rate -> (1 <= m)%nat -> (d * m < N)%nat -> (2 <= terms d (Z.of_nat m) (Z.of_nat N) o md)%Z ->
  In (b, k) [(0, 0%Z); (-2, 1%Z); (-4, 2%Z)] -> edf_greenhall (2 - 2 * k) d (Z.of_nat m) (Z.of_nat N) o md = Ok e ->
  failure_rate E fn name detrend ppf rate m ci N qd b e <= 2500000 / INR ((N + m - 1) / m).
Proof.
  intros Hme HL HP Hq Hr Hm Hd Ht Hb He.
  set (dmax := match d with 3%nat => 3%Z | _ => 2%Z end).
  assert (Hk : (0 <= k <= 2)%Z) by (destruct Hb as [H|[H|[H|[]]]]; injection H as _ <-; lia).
  eapply Rle_trans; [|apply (C97_phase detrend E N qd b k m 0 dmax HL HP Hq ltac:(lia) Hm Hb)]; [|destruct Hme; cbn in dmax; lia].
  unfold failure_rate, error_rate. apply (pr_mono N E HP). intros w.
  pose proof (record_len N qd b w ltac:(lia)) as HLn. unfold record in HLn.
  destruct (generateNoise w (mkNoise N qd b)) as [x|er]; [|lra].
  destruct (identified (autocorr_noise_id detrend x m "phase" 0 dmax) (2 - 2 * k)) eqn:Hid.
  2:{ destruct (session _ _ _ _ _ _ _ _) as [[[dev lo] hi]|]; [destruct (chi2_interval_dec _ _ _ _ _ _)|]; lra. }
  destruct (row_exists fn name d o md x rate m Hme Hr Hm) as (t & dev & er & n & Hrow); [now rewrite HLn|now rewrite HLn|].
  assert (Hi : noise_ident detrend x (Z.of_nat m) "phase" 0 dmax = Ok (2 - 2 * k)%Z).
  { unfold noise_ident. rewrite Nat2Z.id. unfold identified in Hid.
    destruct (autocorr_noise_id detrend x m "phase" 0 dmax) as [[[[[ai ?] ?] ?]|]|]; try discriminate. apply Z.eqb_eq in Hid. now rewrite Hid. }
  assert (Hf : family name = Some (d, o, md, dmax)) by (destruct Hme; reflexivity).
  unfold session. rewrite Hrow, noiseID_dispatch, Hf, Hi. cbn [bind]. rewrite HLn, He. cbn [bind].
  pose proof (ci_value ppf dev e ci) as HV. destruct (confidence_interval ppf dev e ci) as [lo hi].
  destruct (chi2_interval_dec ppf e ci dev lo hi); [lra|contradiction].
Qed.
Print Assumptions C98_interval.

(** White phase noise: the degrees of freedom are the true ones of adev, oadev, hdev, ohdev, and within 5 % of those of mdev and tdev. *)
Theorem C98_white_phase E fn name d o md detrend ppf rate m ci N qd : measured fn name d o md -> least_squares detrend -> prob N E ->
  0 < qd -> 0 < rate -> (1 <= m)%nat -> ((if md then 3 else 2 * d) * m < N)%nat ->
  exists e e', edf_of E (fun w => dev2 fn rate m (record N qd 0 w)) e' /\ (md = false -> e = e') /\ 95 / 100 <= e / e' <= 105 / 100 /\
    failure_rate E fn name detrend ppf rate m ci N qd 0 e <= 2500000 / INR ((N + m - 1) / m).
Proof.
  intros Hme HL HP Hq Hr Hm HN. pose proof (pr_gauss N E HP) as HG.
  assert (K : exists e e', edf_greenhall 2 d (Z.of_nat m) (Z.of_nat N) o md = Ok e /\
    edf_of E (fun w => dev2 fn rate m (record N qd 0 w)) e' /\ (md = false -> e = e') /\ 95 / 100 <= e / e' <= 105 / 100).
  { destruct md.
    - destruct (C82_white_pm_mod fn N m rate qd E) as (e & e' & H1 & H2 & H3); auto; [inversion Hme; auto|].
      replace d with 2%nat by (inversion Hme; auto). replace o with true by (inversion Hme; auto).
      exists e, e'. split; [exact H1|]. split; [exact H2|]. split; [discriminate|exact H3].
    - assert (X : exact_edf E fn d o false 2 0 rate qd N m).
      { destruct (C82_white_pm N m rate qd E HG Hq Hr Hm) as [P2 P3]. inversion Hme; subst; try (apply P2; lia); try (apply P3; lia). }
      destruct X as (e & H1 & H2). exists e, e. split; [exact H1|]. split; [exact H2|]. split; [reflexivity|].
      destruct H2 as [P _]. replace (e / e) with 1 by (field; lra). lra. }
  destruct K as (e & e' & H1 & H2 & H3 & H4). exists e, e'. split; [exact H2|]. split; [exact H3|]. split; [exact H4|].
  apply (C98_interval E fn name d o md detrend ppf rate m ci N qd 0 0%Z e); auto.
  - destruct Hme; lia.
  - assert (Q : (2 <= (Z.of_nat N - 1) / Z.of_nat m - Z.of_nat d + 1)%Z \/ md = true \/ o = true).
    { destruct md; [auto|]. destruct o; [auto|]. left.
      assert (Z.of_nat d + 1 <= (Z.of_nat N - 1) / Z.of_nat m)%Z; [|lia]. apply Z.div_le_lower_bound; [lia|]. inversion Hme; subst; lia. }
    unfold terms. destruct Hme; lia.
  - cbn; auto.
Qed.
Print Assumptions C98_white_phase.

(** White frequency noise: the degrees of freedom are never more than a fifth from the true ones. *)
Theorem C98_white_frequency E fn name d o detrend ppf rate m ci N qd : measured fn name d o false -> least_squares detrend -> prob N E ->
  0 < qd -> 0 < rate -> (1 <= m)%nat -> (d * m < N)%nat -> (2 <= terms d (Z.of_nat m) (Z.of_nat N) o false)%Z ->
  exists e e', edf_of E (fun w => dev2 fn rate m (record N qd (-2) w)) e' /\ 88 / 100 <= e / e' <= 119 / 100 /\
    failure_rate E fn name detrend ppf rate m ci N qd (-2) e <= 2500000 / INR ((N + m - 1) / m).
Proof.
  intros Hme HL HP Hq Hr Hm HN Ht. pose proof (pr_gauss N E HP) as HG.
  assert (Hu : unmodified fn d o) by (inversion Hme; constructor).
  destruct (C95_all fn d o N m rate qd E Hu HG Hq Hr Hm HN Ht) as (e & e' & H1 & H2 & _ & H4). exists e, e'. split; [exact H2|]. split; [exact H4|].
  apply (C98_interval E fn name d o false detrend ppf rate m ci N qd (-2) 1%Z e); auto. cbn; auto.
Qed.
Print Assumptions C98_white_frequency.

(** ** Examples: 10^10 points of white frequency noise, oadev at averaging factor 50, and 10^8 points of white phase noise, tdev at 1 *)
Example C98_ex ppf ci : let N := Z.to_nat 10000000000 in
  exists e e', edf_of (trip N) (fun w => dev2 oadev 1 50 (record N 1 (-2) w)) e' /\ 88 / 100 <= e / e' <= 119 / 100 /\
  failure_rate (trip N) oadev "oadev" ls_detrend ppf 1 50 ci N 1 (-2) e <= 125 / 10000.
Proof.
  intros N. assert (HN : N = Z.to_nat 10000000000) by reflexivity. clearbody N.
  destruct (C98_white_frequency (trip N) oadev "oadev" 2 true ls_detrend ppf 1 50 ci N 1) as (e & e' & H1 & H2 & H3);
    try constructor; try apply C97_ex_detrend; try apply trip_gaussian; try apply trip_mono; try lra; try lia; try (unfold terms; lia).
  exists e, e'. split; [exact H1|]. split; [lra|].
  assert (Hn : ((N + 50 - 1) / 50 = Z.to_nat 200000000)%nat) by (symmetry; apply (Nat.div_unique _ 50 _ 49); lia).
  rewrite Hn, INR_IZR_INZ, Z2Nat.id in H3 by lia. lra.
Qed.
Example C98_ex_phase ppf ci : let N := Z.to_nat 100000000 in
  exists e e', edf_of (trip N) (fun w => dev2 tdev 2 1 (record N 1 0 w)) e' /\ 95 / 100 <= e / e' <= 105 / 100 /\
  failure_rate (trip N) tdev "tdev" ls_detrend ppf 2 1 ci N 1 0 e <= 25 / 1000.
Proof.
  intros N. assert (HN : N = Z.to_nat 100000000) by reflexivity. clearbody N.
  destruct (C98_white_phase (trip N) tdev "tdev" 2 true true ls_detrend ppf 2 1 ci N 1) as (e & e' & H1 & _ & H2 & H3);
    try constructor; try apply C97_ex_detrend; try apply trip_gaussian; try apply trip_mono; try lra; try lia.
  exists e, e'. split; [exact H1|]. split; [lra|]. replace (N + 1 - 1)%nat with N in H3 by lia. rewrite Nat.div_1_r in H3.
  rewrite HN, INR_IZR_INZ, Z2Nat.id in H3 by lia. rewrite HN. lra.
Qed.
