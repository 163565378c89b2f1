(** * Row-wise relations, coincidences at m = 1, exact null spaces of full results. *)
From Coq Require Import String Reals List ZArith Lra Lia Arith Bool Sorted.
From Verif Require Import Base Num NpList ModelCore ModelDev NumR ListFacts Spec RSum TauProofs DevProofs TotProofs
  GenericProofs Closed Laws Laws2 Laws3.
Import ListNotations.
Local Open Scope R_scope.
Local Notation len := List.length.

(** ** tdev and ttotdev, row by row (any arithmetic) *)
Section Generic.
Context {A : Type} {NA : Num A}.

Definition tau_scaled (r : res (@result A)) : res (@result A) :=
  match r with
  | Ok (t, d, _, n) =>
      let td := map2 (fun tau md => ndiv (nmul tau md) (nsqrt (ofZ 3))) t d in
      Ok (t, td, EArr (map2 (fun v k => ndiv v (nsqrt (ofZ k))) td n), n)
  | Err e => Err e
  end.

Lemma map_map2 {B C D F} (g : D -> F) (f : B -> C -> D) l l' : map g (map2 f l l') = map2 (fun a b => g (f a b)) l l'.
Proof. revert l'. induction l; intros [|]; cbn; [reflexivity..|]. now rewrite IHl. Qed.

Lemma scale_tdev_scaled rate r : well_formed rate r -> scale_tdev r = tau_scaled (Ok r).
Proof.
  intros (t & d & e & n & ms & -> & Hs & Hp & Hn & Ht & Hd & He & Hl & Hk). unfold scale_tdev, vmul, tau_scaled.
  rewrite bmap2_eqlen by (rewrite Ht, map_length; lia). cbn [bind].
  rewrite bmap2_eqlen by (rewrite map_length, map2_length, Ht, map_length; lia). cbn [bind].
  now rewrite map_map2.
Qed.

Lemma mdev_input data rate dt taus :
  mdev data rate dt taus = (p <- input_to_phase data rate dt ;; mdev p rate "phase" taus).
Proof. unfold mdev. destruct (input_to_phase data rate dt); reflexivity. Qed.

Lemma tdev_rows data rate dt taus : tdev data rate dt taus = tau_scaled (mdev data rate dt taus).
Proof.
  rewrite mdev_input. unfold tdev. destruct (input_to_phase data rate dt) as [p|]; cbn [bind]; [|reflexivity].
  destruct (mdev p rate "phase" taus) as [r|] eqn:E; cbn [bind]; [|reflexivity].
  apply (scale_tdev_scaled rate). apply (devs_well_formed mdev) in E; [exact E|]. unfold all_devs. cbn. tauto.
Qed.

Lemma ttotdev_rows data rate dt taus : ttotdev data rate dt taus = tau_scaled (mtotdev data rate dt taus).
Proof.
  unfold ttotdev. destruct (mtotdev data rate dt taus) as [r|] eqn:E; cbn [bind]; [|reflexivity].
  apply (scale_tdev_scaled rate). apply (devs_well_formed mtotdev) in E; [exact E|]. unfold all_devs. cbn. tauto.
Qed.
End Generic.

(** ** m = 1 *)
Lemma at_m1 x rate : 0 < rate -> (2 <= len x)%nat ->
  let taus := TList [INR 1 / rate] in
  oadev x rate "phase" taus = adev x rate "phase" taus /\
  pdev x rate "phase" taus = adev x rate "phase" taus /\
  mdev x rate "phase" taus = adev x rate "phase" taus /\
  ohdev x rate "phase" taus = hdev x rate "phase" taus.
Proof.
  intros Hr Hl taus.
  assert (Ha : admissible (len x) rate taus [1%nat]) by (apply adm_single; auto; lia).
  rewrite (oadev_spec x rate taus _ Hr Ha), (adev_spec x rate taus _ Hr Ha), (pdev_spec x rate taus _ Hr Ha),
    (mdev_spec x rate taus _ Hr Ha), (ohdev_spec x rate taus _ Hr Ha), (hdev_spec x rate taus _ Hr Ha).
  cbv zeta.
  assert (Hn : adev_n x 1 = oadev_n x 1) by (unfold adev_n, oadev_n; rewrite Nat.div_1_r; lia).
  assert (Hh : hdev_n x 1 = ohdev_n x 1) by (unfold hdev_n, ohdev_n; rewrite Nat.div_1_r; lia).
  assert (Hc : mdev_n x 1 = Z.of_nat (adev_n x 1)) by (rewrite Hn; unfold mdev_n, oadev_n; lia).
  split; [|split; [|split]]; apply report_ext; intros m [<-|[]]; try (intros Hgt; cbv beta in Hgt; unfold plain_err);
    rewrite ?Hn, ?Hh, ?Hc; auto.
  - rewrite avar_1. auto.
  - rewrite avar_1. unfold pvar. cbn [Nat.eqb]. auto.
  - rewrite avar_1, mvar_1; [rewrite ?Hn; auto|]. rewrite Hc in Hgt. unfold adev_n in Hgt. rewrite Nat.div_1_r in Hgt. lia.
  - replace (hvar x (1 / rate) 1) with (ohvar x (1 / rate) 1); [auto|].
    unfold ohvar, hvar. rewrite Hh. f_equal. apply bigsum_ext. intros. now rewrite Nat.mul_1_r.
Qed.

(** ** null spaces *)
Definition reports_zero (r : res (@result R)) : Prop := exists t e n, r = Ok (t, [0], e, n).

Lemma oadev_zero_iff x rate : 0 < rate -> (4 <= len x)%nat ->
  (reports_zero (oadev x rate "phase" (TList [INR 1 / rate])) <->
   exists a b, forall i, (i < len x)%nat -> x.[i] = a + b * INR i).
Proof.
  intros Hr Hl. rewrite oadev_single by (auto; lia). cbv zeta.
  assert (Ht : 1 / rate <> 0) by (apply Rgt_not_eq, Rdiv_lt_0_compat; lra).
  rewrite <- (oavar_0_iff x (1 / rate)) by (auto; lia). split.
  - intros (t & e & n & H). injection H as _ H _ _. exact (proj1 (sqrt_0_iff _ (oavar_nonneg _ _ _)) H).
  - intros H. rewrite H, sqrt_0. eexists _, _, _. reflexivity.
Qed.

Lemma ohdev_zero_iff x rate : 0 < rate -> (5 <= len x)%nat ->
  (reports_zero (ohdev x rate "phase" (TList [INR 1 / rate])) <->
   exists a b c, forall i, (i < len x)%nat -> x.[i] = a + b * INR i + c * INR i ^ 2).
Proof.
  intros Hr Hl. rewrite ohdev_single by (auto; lia). cbv zeta.
  assert (Ht : 1 / rate <> 0) by (apply Rgt_not_eq, Rdiv_lt_0_compat; lra).
  rewrite <- (ohvar_0_iff x (1 / rate)) by (auto; lia). split.
  - intros (t & e & n & H). injection H as _ H _ _. exact (proj1 (sqrt_0_iff _ (ohvar_nonneg _ _ _)) H).
  - intros H. rewrite H, sqrt_0. eexists _, _, _. reflexivity.
Qed.

Lemma mtie_zero_iff x rate m : 0 < rate -> (1 <= m)%nat -> (m + 2 <= len x)%nat ->
  (reports_zero (mtie x rate "phase" (TList [INR m / rate])) <->
   exists a, forall i, (i < len x)%nat -> x.[i] = a).
Proof.
  intros Hr Hm Hl. rewrite <- (is_mtie_0_iff x m) by lia. split.
  - pose proof (mtie_val_is x m ltac:(lia)) as Hv.
    rewrite (mtie_single x rate m (mtie_val x m)) by assumption.
    intros (t & e & n & H). injection H as _ H _ _. now rewrite H in Hv.
  - intros H0. rewrite (mtie_single x rate m 0) by assumption. eexists _, _, _. reflexivity.
Qed.

(** oadev of a pure linear frequency drift *)
Lemma oadev_drift N a b c rate m : 0 < rate -> (1 <= m)%nat -> (2 * m + 2 <= N)%nat ->
  let d := sqrt 2 * Rabs c * INR m * rate in
  oadev (map (parabola a b c) (seq 0 N)) rate "phase" (TList [INR m / rate]) =
  Ok ([INR m / rate], [d], EArr [d / sqrt (INR (N - 2 * m))], [Z.of_nat (N - 2 * m)]).
Proof.
  intros Hr Hm Hl d. rewrite oadev_single by (auto; rewrite map_length, seq_length; lia). cbv zeta.
  rewrite map_length, seq_length, oavar_drift; try lia; [|apply Rgt_not_eq, Rdiv_lt_0_compat; lra].
  replace (2 * c ^ 2 * INR m ^ 2 / (1 / rate) ^ 2) with (2 * Rsqr (c * (INR m * rate))) by (unfold Rsqr; field; lra).
  rewrite sqrt_mult by (try lra; apply Rle_0_sqr). rewrite sqrt_Rsqr_abs, Rabs_mult, (Rabs_pos_eq (INR m * rate)).
  2:{ apply Rmult_le_pos; [apply pos_INR|lra]. }
  replace (sqrt 2 * (Rabs c * (INR m * rate))) with d by (unfold d; ring). reflexivity.
Qed.

(** pdev never reads the last phase sample, except at m = 1 *)
Lemma pdev_last_sample x a a' rate taus : 0 < rate ->
  ~ requested (S (len x)) rate taus 1 ->
  pdev (x ++ [a]) rate "phase" taus = pdev (x ++ [a']) rate "phase" taus.
Proof.
  intros Hr H1.
  assert (Hla : forall v, len (x ++ [v]) = S (len x)) by (intros v; rewrite app_length; cbn; lia).
  assert (Hin : In st_pdev stats) by (unfold stats; cbn; tauto).
  pose proof (stats_closed st_pdev Hin (x ++ [a]) rate taus Hr) as [Hb Hg].
  pose proof (stats_closed st_pdev Hin (x ++ [a']) rate taus Hr) as [Hb' Hg'].
  change (pdev (x ++ [a])) with (s_fun st_pdev (x ++ [a])). change (pdev (x ++ [a'])) with (s_fun st_pdev (x ++ [a'])).
  pose proof (law_case st_pdev (x ++ [a]) rate taus Hin Hr) as Hc. rewrite ?Hla in *.
  destruct Hc as [[e He]|(He & ms & Hms & Hms')].
  - now rewrite (Hb e He), (Hb' e He).
  - rewrite (proj2 (Hg He) ms Hms), (proj2 (Hg' He) ms Hms).
    apply report_ext; [reflexivity|]. intros m Hm _.
    assert (m <> 1%nat).
    { intros ->. apply H1. destruct Hms as (_ & _ & Hi). apply Hi in Hm as (_ & _ & Hq). exact Hq. }
    unfold s_dev. cbn [s_var st_pdev]. rewrite (pvar_last x a a') by assumption. auto.
Qed.
