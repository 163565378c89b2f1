(** * Properties C31-C39, C72: laws of the deviation functions. *)
From Coq Require Import String Reals List ZArith Lra Lia Arith Bool Sorted.
From Verif Require Import Base Num NpList ModelCore ModelDev NumR ListFacts Spec RSum TauProofs DevProofs TotProofs
  GenericProofs Closed Laws Laws2 Laws3 Laws4 ConvProofs.
Import ListNotations.
Local Open Scope R_scope.
Local Notation len := List.length.

Ltac as_stat H L s Hs := match type of H with In ?f _ => change (In f (map s_fun L)) in H end;
  apply in_map_iff in H as (s & <- & Hs).

(** ** C31 *)
Theorem C31_line a b x rate taus f :
  In f [adev; oadev; hdev; ohdev; mdev; tdev; pdev; totdev; mtotdev; ttotdev; htotdev; theo1] -> 0 < rate ->
  f (shifted (line a b) x) rate "phase"%string taus = f x rate "phase"%string taus.
Proof. intros Hf Hr. as_stat Hf line_blind s Hs. now apply line_invariant. Qed.
Print Assumptions C31_line.

Theorem C31_constant a x rate taus f : In f [tierms; mtie] -> 0 < rate ->
  f (map (fun v => v + a) x) rate "phase"%string taus = f x rate "phase"%string taus.
Proof.
  intros Hf Hr. as_stat Hf [st_tierms; st_mtie] s Hs.
  replace (map (fun v => v + a) x) with (shifted (line a 0) x).
  - apply const_invariant; [|exact Hr]. revert Hs. unfold stats. cbn. tauto.
  - unfold shifted, line. pose proof (list_tab x 0) as Hx.
    transitivity (map (fun v => v + a) (tab (len x) (fun i => x.[i]))); [|now rewrite <- Hx].
    rewrite map_tab. apply tab_ext. intros. ring.
Qed.
Print Assumptions C31_constant.

Example C31_ex : theo1 [1; 3; 9; 7; 12] 1 "phase" (TStr "all") = theo1 [0; 0; 4; 0; 3] 1 "phase" (TStr "all").
Proof.
  rewrite <- (C31_line 1 2 [0; 0; 4; 0; 3] 1 (TStr "all") theo1); [|cbn; tauto|lra].
  f_equal. unfold shifted, line. cbn. repeat (apply f_equal2; [lra|]). reflexivity.
Qed.

(** A linear phase ramp is visible to mtie and tierms. *)
Theorem C31_ramp_refuted : exists x rate taus, 0 < rate /\
  mtie (shifted (line 0 1) x) rate "phase" taus <> mtie x rate "phase" taus /\
  tierms (shifted (line 0 1) x) rate "phase" taus <> tierms x rate "phase" taus.
Proof.
  exists [0; 0; 0], 1, (TList [INR 1 / 1]). split; [lra|]. split.
  - rewrite (mtie_single [0; 0; 0] 1 1 0), (mtie_single _ 1 1 1); try lra; try lia; try (cbn; lia).
    + intros E. injection E. intros. lra.
    + split.
      * intros j k Hj Hk H1 H2. unfold shifted, line in *. cbn [len map seq] in Hj, Hk.
        destruct j as [|[|[|]]]; try lia; destruct k as [|[|[|]]]; try lia; cbn; lra.
      * exists 1%nat, 0%nat. unfold shifted, line. cbn. repeat split; try lia. lra.
    + split.
      * intros j k Hj Hk H1 H2. cbn [len] in Hj, Hk.
        destruct j as [|[|[|]]]; try lia; destruct k as [|[|[|]]]; try lia; cbn; lra.
      * exists 1%nat, 0%nat. cbn. repeat split; try lia. lra.
  - rewrite !tierms_single by (cbn; lra || lia). intros E. injection E as E.
    apply (f_equal Rsqr) in E. rewrite !Rsqr_sqrt in E.
    + unfold tierms_var, shifted, line in E. cbn in E. lra.
    + unfold tierms_var. cbn. lra.
    + unfold tierms_var, shifted, line. cbn. lra.
Qed.
Print Assumptions C31_ramp_refuted.

(** ** C32 *)
Theorem C32_hadamard a b c x rate taus f : In f [hdev; ohdev] -> 0 < rate ->
  f (shifted (parabola a b c) x) rate "phase"%string taus = f x rate "phase"%string taus.
Proof.
  intros Hf Hr. as_stat Hf [st_hdev; st_ohdev] s Hs. apply drift_invariant; [|exact Hr].
  destruct Hs as [<-|[<-|[]]]; auto.
Qed.
Print Assumptions C32_hadamard.

(** A pure drift c*i^2 has oadev sqrt 2 |c| m rate at factor m. *)
Theorem C32_oadev_drift N a b c rate m : 0 < rate -> (1 <= m)%nat -> (2 * m + 2 <= N)%nat ->
  let d := sqrt 2 * Rabs c * INR m * rate in
  oadev (map (parabola a b c) (seq 0 N)) rate "phase" (TList [INR m / rate]) =
  Ok ([INR m / rate], [d], EArr [d / sqrt (INR (N - 2 * m))], [Z.of_nat (N - 2 * m)]).
Proof. exact (oadev_drift N a b c rate m). Qed.
Print Assumptions C32_oadev_drift.

Example C32_ex : ohdev [1; 2; 4; 9; 16; 25] 1 "phase" TNone = ohdev [1; 1; 0; 0; 0; 0] 1 "phase" TNone.
Proof.
  rewrite <- (C32_hadamard 0 0 1 [1; 1; 0; 0; 0; 0] 1 TNone ohdev); [|cbn; tauto|lra].
  f_equal. unfold shifted, parabola. cbn. repeat (apply f_equal2; [lra|]). reflexivity.
Qed.

(** ** C33 *)
Theorem C33_homogeneous c x rate taus f :
  In f [adev; oadev; hdev; ohdev; mdev; tdev; pdev; totdev; mtotdev; ttotdev; htotdev; theo1; tierms; mtie] ->
  0 < rate ->
  f (map (Rmult c) x) rate "phase"%string taus = scale_devs (Rabs c) (f x rate "phase"%string taus).
Proof. intros Hf Hr. as_stat Hf stats s Hs. now apply homogeneous. Qed.
Print Assumptions C33_homogeneous.

Theorem C33_gcodev c x y rate taus : 0 < rate -> len y = len x ->
  gcodev x (map (Rmult c) y) rate "phase" taus = scale_devs (sqrt (Rabs c)) (gcodev x y rate "phase" taus).
Proof. exact (gcodev_scaled c x y rate taus). Qed.
Print Assumptions C33_gcodev.

Example C33_ex : mtie [0; -2; -4; -1] 1 "phase" (TStr "all") = scale_devs 2 (mtie [0; 1; 2; 1/2] 1 "phase" (TStr "all")).
Proof.
  pose proof (C33_homogeneous (-2) [0; 1; 2; 1/2] 1 (TStr "all") mtie ltac:(cbn; tauto) ltac:(lra)) as H.
  rewrite Rabs_left in H by lra. replace (- -2) with 2 in H by ring. rewrite <- H.
  f_equal. cbn. repeat (apply f_equal2; [lra|]). reflexivity.
Qed.

(** ** C34 *)
Theorem C34_frequency_type k x rate taus f :
  In f [adev; oadev; hdev; ohdev; mdev; pdev; totdev; mtotdev; htotdev; theo1] -> 0 < rate -> 0 < k ->
  f x (k * rate) "phase"%string (scale_taus k taus) = rescale k k (f x rate "phase"%string taus).
Proof. intros Hf Hr Hk. as_stat Hf freq_type s Hs. now apply rate_freq. Qed.
Print Assumptions C34_frequency_type.

Theorem C34_time_type k x rate taus f : In f [tdev; ttotdev; tierms; mtie] -> 0 < rate -> 0 < k ->
  f x (k * rate) "phase"%string (scale_taus k taus) = rescale k 1 (f x rate "phase"%string taus).
Proof. intros Hf Hr Hk. as_stat Hf phase_type s Hs. now apply rate_phase. Qed.
Print Assumptions C34_time_type.

Example C34_ex : mdev [1; 2; 4; 9; 16; 25] (4 * (1/2)) "phase" (TArr [2 / 4]) =
  rescale 4 4 (mdev [1; 2; 4; 9; 16; 25] (1/2) "phase" (TArr [2])).
Proof. apply (C34_frequency_type 4 _ (1/2) (TArr [2]) mdev); [cbn; tauto|lra|lra]. Qed.

(** ** C35 *)
Theorem C35_reversal x rate taus f :
  In f [oadev; ohdev; mdev; tdev; totdev; mtotdev; ttotdev; htotdev; theo1; tierms; mtie] -> 0 < rate ->
  f (rev x) rate "phase"%string taus = f x rate "phase"%string taus.
Proof. intros Hf Hr. as_stat Hf reversible s Hs. now apply reversal. Qed.
Print Assumptions C35_reversal.

Theorem C35_adev_refuted : exists x rate taus, 0 < rate /\
  adev (rev x) rate "phase" taus <> adev x rate "phase" taus.
Proof. exact adev_not_reversible. Qed.
Print Assumptions C35_adev_refuted.
Theorem C35_hdev_refuted : exists x rate taus, 0 < rate /\
  hdev (rev x) rate "phase" taus <> hdev x rate "phase" taus.
Proof. exact hdev_not_reversible. Qed.
Print Assumptions C35_hdev_refuted.
Theorem C35_pdev_refuted : exists x rate taus, 0 < rate /\
  pdev (rev x) rate "phase" taus <> pdev x rate "phase" taus.
Proof. exact pdev_not_reversible. Qed.
Print Assumptions C35_pdev_refuted.

Example C35_ex : mtotdev [5; 1; 1; 0; 2; 7] 1 "phase" TNone = mtotdev [7; 2; 0; 1; 1; 5] 1 "phase" TNone.
Proof. apply (C35_reversal [7; 2; 0; 1; 1; 5] 1 TNone mtotdev); [cbn; tauto|lra]. Qed.

(** ** C36 *)
(** in any arithmetic: whenever the only selected factor is 1 *)
Theorem C36_any_arithmetic {A} {NA : Num A} (x : list A) rate taus t :
  tau_generator x rate taus false (ofZ (-1)) = Ok (x, [1%Z], t) ->
  oadev x rate "phase" taus = adev x rate "phase" taus /\
  pdev x rate "phase" taus = adev x rate "phase" taus /\
  ohdev x rate "phase" taus = hdev x rate "phase" taus.
Proof. exact (m1_coincide x rate taus t). Qed.
Print Assumptions C36_any_arithmetic.

Theorem C36_exact x rate : 0 < rate -> (2 <= len x)%nat ->
  let taus := TList [INR 1 / rate] in
  oadev x rate "phase" taus = adev x rate "phase" taus /\
  pdev x rate "phase" taus = adev x rate "phase" taus /\
  mdev x rate "phase" taus = adev x rate "phase" taus /\
  ohdev x rate "phase" taus = hdev x rate "phase" taus.
Proof. exact (at_m1 x rate). Qed.
Print Assumptions C36_exact.

Example C36_ex : mdev [0; 0; 1; 0; 0] 3 "phase" (TList [INR 1 / 3]) = adev [0; 0; 1; 0; 0] 3 "phase" (TList [INR 1 / 3]) /\
  exists d, adev [0; 0; 1; 0; 0] 3 "phase" (TList [INR 1 / 3]) = Ok ([INR 1 / 3], [d], EArr [d / sqrt (INR 3)], [3%Z]).
Proof.
  split; [apply C36_exact; cbn; lra || lia|]. eexists.
  rewrite adev_single; [reflexivity|lra|cbn; lia|cbn; lia].
Qed.

(** ** C37 *)
Theorem C37_mtie_monotone x rate taus t d e n : 0 < rate ->
  mtie x rate "phase" taus = Ok (t, d, e, n) -> StronglySorted Rle d.
Proof. exact (mtie_monotone x rate taus t d e n). Qed.
Print Assumptions C37_mtie_monotone.

Theorem C37_tierms_le_mtie x rate taus t d e n t' d' e' n' : 0 < rate ->
  tierms x rate "phase" taus = Ok (t, d, e, n) -> mtie x rate "phase" taus = Ok (t', d', e', n') ->
  t = t' /\ n = n' /\ Forall2 (fun a b => 0 <= a <= b) d d'.
Proof. exact (tierms_le_mtie x rate taus t d e n t' d' e' n'). Qed.
Print Assumptions C37_tierms_le_mtie.

Theorem C37_mtie_le_peak_to_peak x rate taus t d e n P : 0 < rate ->
  mtie x rate "phase" taus = Ok (t, d, e, n) ->
  (forall j k, (j < len x)%nat -> (k < len x)%nat -> x.[j] - x.[k] <= P) -> Forall (fun v => v <= P) d.
Proof. exact (mtie_le_p2p x rate taus t d e n P). Qed.
Print Assumptions C37_mtie_le_peak_to_peak.

Lemma some_row_mtie x rate m : 0 < rate -> (1 <= m)%nat -> (m + 2 <= len x)%nat ->
  exists d e n, mtie x rate "phase" (TList [INR m / rate]) = Ok ([INR m / rate], [d], e, n).
Proof.
  intros Hr Hm Hl. eexists _, _, _. apply (mtie_single x rate m (mtie_val x m)); auto. apply mtie_val_is. lia.
Qed.

Example C37_ex : exists a b e e' n n',
  tierms [0; 1; 4; 9; 7] 1 "phase" (TList [INR 2 / 1]) = Ok ([INR 2 / 1], [a], e, n) /\
  mtie [0; 1; 4; 9; 7] 1 "phase" (TList [INR 2 / 1]) = Ok ([INR 2 / 1], [b], e', n') /\ 0 <= a <= b.
Proof.
  destruct (some_row_mtie [0; 1; 4; 9; 7] 1 2) as (b & e' & n' & Hb); [lra|lia|cbn; lia|].
  pose proof (tierms_single [0; 1; 4; 9; 7] 1 2 ltac:(lra) ltac:(lia) ltac:(cbn; lia)) as Ha.
  pose proof (fun h => C37_tierms_le_mtie _ _ _ _ _ _ _ _ _ _ _ h Ha Hb) as H. destruct H as (_ & _ & H); [lra|].
  inversion H; subst. eexists _, _, _, _, _, _. split; [exact Ha|]. split; [exact Hb|assumption].
Qed.

(** ** C38 *)
Theorem C38_nonnegative f x rate taus t d e n :
  In f [adev; oadev; hdev; ohdev; mdev; tdev; pdev; totdev; mtotdev; ttotdev; htotdev; theo1; tierms; mtie] ->
  0 < rate -> f x rate "phase"%string taus = Ok (t, d, e, n) ->
  Forall (fun v => 0 <= v) d /\ (exists l, e = EArr l /\ Forall (fun v => 0 <= v) l) /\ Forall (fun v => 0 < v) t.
Proof. intros Hf. as_stat Hf stats s Hs. now apply stat_nonneg. Qed.
Print Assumptions C38_nonnegative.

Theorem C38_oadev_zero x rate : 0 < rate -> (4 <= len x)%nat ->
  ((exists t e n, oadev x rate "phase" (TList [INR 1 / rate]) = Ok (t, [0], e, n)) <->
   exists a b, forall i, (i < len x)%nat -> x.[i] = a + b * INR i).
Proof. exact (oadev_zero_iff x rate). Qed.
Print Assumptions C38_oadev_zero.

Theorem C38_ohdev_zero x rate : 0 < rate -> (5 <= len x)%nat ->
  ((exists t e n, ohdev x rate "phase" (TList [INR 1 / rate]) = Ok (t, [0], e, n)) <->
   exists a b c, forall i, (i < len x)%nat -> x.[i] = a + b * INR i + c * INR i ^ 2).
Proof. exact (ohdev_zero_iff x rate). Qed.
Print Assumptions C38_ohdev_zero.

Theorem C38_mtie_zero x rate m : 0 < rate -> (1 <= m)%nat -> (m + 2 <= len x)%nat ->
  ((exists t e n, mtie x rate "phase" (TList [INR m / rate]) = Ok (t, [0], e, n)) <->
   exists a, forall i, (i < len x)%nat -> x.[i] = a).
Proof. exact (mtie_zero_iff x rate m). Qed.
Print Assumptions C38_mtie_zero.

Example C38_ex : (exists t e n, oadev [3; 5; 7; 9] 2 "phase" (TList [INR 1 / 2]) = Ok (t, [0], e, n)) /\
  ~ (exists t e n, mtie [3; 5; 7; 9] 2 "phase" (TList [INR 1 / 2]) = Ok (t, [0], e, n)).
Proof.
  split.
  - apply C38_oadev_zero; [lra|cbn; lia|]. exists 3, 2. intros i Hi. cbn [len] in Hi.
    destruct i as [|[|[|[|]]]]; try lia; cbn; lra.
  - rewrite C38_mtie_zero; [|lra|lia|cbn; lia]. intros (a & H).
    pose proof (H 0%nat ltac:(cbn; lia)). pose proof (H 1%nat ltac:(cbn; lia)). cbn in *. lra.
Qed.

(** ** C39 *)
Theorem C39_symmetric x y rate taus : 0 < rate -> len y = len x ->
  gcodev y x rate "phase" taus = gcodev x y rate "phase" taus.
Proof. exact (gcodev_sym x y rate taus). Qed.
Print Assumptions C39_symmetric.
Theorem C39_self x rate taus : 0 < rate -> gcodev x x rate "phase" taus = oadev x rate "phase" taus.
Proof. exact (gcodev_self x rate taus). Qed.
Print Assumptions C39_self.
Theorem C39_cauchy_schwarz x y rate taus t dx ex nx t' dy ey ny tg dg eg ng : 0 < rate -> len y = len x ->
  oadev x rate "phase" taus = Ok (t, dx, ex, nx) -> oadev y rate "phase" taus = Ok (t', dy, ey, ny) ->
  gcodev x y rate "phase" taus = Ok (tg, dg, eg, ng) ->
  t = tg /\ t' = tg /\ len dx = len dg /\ len dy = len dg /\
  forall i, (i < len dg)%nat -> dg.[i] ^ 2 <= dx.[i] * dy.[i].
Proof. exact (gcodev_cs x y rate taus t dx ex nx t' dy ey ny tg dg eg ng). Qed.
Print Assumptions C39_cauchy_schwarz.
Theorem C39_sign_lost x y rate taus : 0 < rate -> len y = len x ->
  gcodev x (map Ropp y) rate "phase" taus = gcodev x y rate "phase" taus.
Proof.
  intros Hr Hl. replace (map Ropp y) with (scaled (-1) y) by (unfold scaled; apply map_ext; intros; ring).
  rewrite gcodev_scaled by assumption. rewrite Rabs_left by lra. replace (- -1) with 1 by ring. rewrite sqrt_1.
  assert (Hid : forall l, map (Rmult 1) l = l).
  { intros l. rewrite <- (map_id l) at 2. apply map_ext. intros. ring. }
  destruct (gcodev x y rate "phase" taus) as [[[[t d] e] n]|] eqn:E; [|reflexivity].
  apply gcodev_well_formed in E as (t0 & d0 & e0 & n0 & ms & E & _). injection E as -> -> -> ->.
  cbn. now rewrite !Hid.
Qed.
Print Assumptions C39_sign_lost.

Example C39_ex : gcodev [0; 1; 4; 9; 16; 25] [0; 0; 0; 0; -1; 0] 1 "phase" TNone =
  gcodev [0; 0; 0; 0; 1; 0] [0; 1; 4; 9; 16; 25] 1 "phase" TNone.
Proof.
  rewrite (C39_symmetric [0; 1; 4; 9; 16; 25]) by (reflexivity || lra).
  rewrite <- (C39_sign_lost _ [0; 0; 0; 0; 1; 0]) by (reflexivity || lra).
  f_equal. cbn. repeat (apply f_equal2; [lra|]). reflexivity.
Qed.

(** ** C72 *)
Theorem C72_pdev_last_sample x a a' rate taus : 0 < rate ->
  ~ requested (S (len x)) rate taus 1 ->
  pdev (x ++ [a]) rate "phase" taus = pdev (x ++ [a']) rate "phase" taus.
Proof. exact (pdev_last_sample x a a' rate taus). Qed.
Print Assumptions C72_pdev_last_sample.

(** The parabolic variance written with all N-2m+1 windows of the record. *)
Definition pvar_full (x : list R) (tau0 : R) (m : nat) : R :=
  72 / (INR (len x - 2 * m + 1) * INR m ^ 4 * (INR m * tau0) ^ 2) *
  bigsum (len x - 2 * m + 1) (fun i =>
    (bigsum m (fun k => ((INR m - 1) / 2 - INR k) * (x.[i + k] - x.[i + k + m]))) ^ 2).

Theorem C72_not_all_windows_refuted : exists x rate m, 0 < rate /\ (1 < m)%nat /\ (2 * m + 2 <= len x)%nat /\
  forall t d e n, pdev x rate "phase" (TList [INR m / rate]) = Ok (t, [d], e, n) ->
  d <> sqrt (pvar_full x (1 / rate) m).
Proof.
  exists [0; 0; 0; 0; 0; 1], 1, 2%nat. split; [lra|]. split; [lia|]. split; [cbn; lia|].
  intros t d e n H. rewrite pdev_single in H by (cbn; lra || lia). injection H as _ H _ _. subst d.
  intros E. apply (f_equal Rsqr) in E. rewrite !Rsqr_sqrt in E.
  - unfold pvar, pvar_full, oadev_n in E. cbn in E. lra.
  - unfold pvar_full. cbn. lra.
  - unfold pvar, oadev_n. cbn. lra.
Qed.
Print Assumptions C72_not_all_windows_refuted.

Example C72_ex : pdev ([0; 1; 4; 9; 16] ++ [25]) 1 "phase" (TList [2]) = pdev ([0; 1; 4; 9; 16] ++ [-7]) 1 "phase" (TList [2]).
Proof.
  apply C72_pdev_last_sample; [lra|]. cbn. intros (t & [<-|[]] & H).
  destruct H as [H|[H H']]; revert H; [|discriminate]; unfold Rabs; destruct (Rcase_abs _); lra.
Qed.
