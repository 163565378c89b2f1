(** * Laws, third part: orderings, null spaces, covariance, counter-examples. *)
From Coq Require Import String Reals List ZArith Lra Lia Arith Bool Sorted.
From Verif Require Import Base Num NpList ModelCore ModelDev NumR ListFacts Spec RSum TauProofs DevProofs TotProofs Closed Laws Laws2.
Import ListNotations.
Local Open Scope R_scope.
Local Notation len := List.length.

(** ** shape of a successful result *)
Lemma stat_ok s (x : list R) rate taus t d e n : In s stats -> 0 < rate ->
  s_fun s x rate "phase" taus = Ok (t, d, e, n) ->
  exists ms good, adm s (len x) rate taus ms /\
    good = filter (fun m => (1 <? s_cnt s (len x) m)%Z) ms /\ good <> [] /\
    t = map (fun m => INR m / rate) good /\ d = map (s_dev s x rate) good /\
    e = EArr (map (fun m => s_dev s x rate m * s_w s (len x) m) good) /\
    n = map (s_cnt s (len x)) good.
Proof.
  intros Hs Hr H. destruct (stats_closed s Hs x rate taus Hr) as [Hb Hg].
  destruct (law_case s x rate taus Hs Hr) as [[ex He]|(He & ms & Hms & Hin)].
  - rewrite (Hb ex He) in H. discriminate.
  - rewrite (proj2 (Hg He) ms Hms) in H. unfold report in H.
    exists ms, (filter (fun m => (1 <? s_cnt s (len x) m)%Z) ms). split; [exact Hms|]. split; [reflexivity|].
    destruct (filter _ ms) as [|m0 g]; [discriminate|]. injection H as <- <- <- <-.
    repeat split; auto. discriminate.
Qed.

Lemma adm_in s (x : list R) rate taus ms m : In s stats -> adm s (len x) rate taus ms -> In m ms ->
  (1 <= m < len x)%nat /\ s_ok s (len x) m = true.
Proof.
  intros Hs (_ & _ & H) Hm. apply H in Hm as (Hb & Hok & _). pose proof (base_le s (len x) Hs).
  split; [lia|exact Hok].
Qed.

(** ** signs *)
Lemma stat_nonneg s (x : list R) rate taus t d e n : In s stats -> 0 < rate ->
  s_fun s x rate "phase" taus = Ok (t, d, e, n) ->
  Forall (fun v => 0 <= v) d /\ (exists l, e = EArr l /\ Forall (fun v => 0 <= v) l) /\
  Forall (fun v => 0 < v) t.
Proof.
  intros Hs Hr H. destruct (stat_ok s x rate taus t d e n Hs Hr H) as (ms & good & Hms & Hg & _ & -> & -> & -> & ->).
  split; [|split].
  - apply Forall_forall. intros v Hv. apply in_map_iff in Hv as (m & <- & _). apply sqrt_pos.
  - eexists. split; [reflexivity|]. apply Forall_forall. intros v Hv.
    apply in_map_iff in Hv as (m & <- & _). apply Rmult_le_pos; [apply sqrt_pos|].
    unfold stats in Hs. repeat (destruct Hs as [<-|Hs]); [..|destruct Hs];
      cbn [s_w st_adev st_oadev st_hdev st_ohdev st_mdev st_tdev
      st_pdev st_totdev st_mtotdev st_ttotdev st_htotdev st_theo1 st_tierms st_mtie];
      try lra; apply inv_nonneg, sqrt_pos.
  - apply Forall_forall. intros v Hv. apply in_map_iff in Hv as (m & <- & Hm). rewrite Hg in Hm.
    apply filter_In in Hm as [Hm _]. destruct (adm_in s x rate taus ms m Hs Hms Hm) as [[Hm1 _] _].
    apply Rdiv_lt_0_compat; [apply INR_pos; lia|exact Hr].
Qed.

(** ** MTIE orderings *)
Lemma is_mtie_mono x m m' d d' : (m <= m')%nat -> is_mtie x m d -> is_mtie x m' d' -> d <= d'.
Proof.
  intros Hm [_ (j & k & Hj & Hk & H1 & H2 & <-)] [Hu _]. apply Hu; lia.
Qed.

Lemma mtie_dev x rate m : (1 <= m < len x)%nat -> s_dev st_mtie x rate m = mtie_val x m.
Proof.
  intros Hm. unfold s_dev. cbn [s_var st_mtie].
  replace (mtie_val x m ^ 2) with (Rsqr (mtie_val x m)) by (unfold Rsqr; ring).
  apply sqrt_Rsqr. now apply mtie_val_nonneg.
Qed.

Lemma in_mtie : In st_mtie stats. Proof. unfold stats; cbn; tauto. Qed.
Lemma in_tierms : In st_tierms stats. Proof. unfold stats; cbn; tauto. Qed.

Lemma sorted_map_mono (f : nat -> R) l : StronglySorted lt l ->
  (forall a b, In a l -> In b l -> (a <= b)%nat -> f a <= f b) -> StronglySorted Rle (map f l).
Proof.
  induction 1 as [|a l Hs IH Hf]; intros H; cbn; constructor.
  - apply IH. intros; apply H; cbn; auto.
  - apply Forall_forall. intros v Hv. apply in_map_iff in Hv as (b & <- & Hb).
    rewrite Forall_forall in Hf. apply H; cbn; auto. apply Hf in Hb. lia.
Qed.

Lemma mtie_monotone x rate taus t d e n : 0 < rate -> mtie x rate "phase" taus = Ok (t, d, e, n) ->
  StronglySorted Rle d.
Proof.
  intros Hr H. destruct (stat_ok st_mtie x rate taus t d e n in_mtie Hr H) as (ms & good & Hms & Hg & _ & _ & -> & _).
  assert (Hin : forall m, In m good -> (1 <= m < len x)%nat).
  { intros m Hm. rewrite Hg in Hm. apply filter_In in Hm as [Hm _]. apply (adm_in _ _ _ _ _ _ in_mtie Hms Hm). }
  apply sorted_map_mono.
  - rewrite Hg. apply filter_StronglySorted. apply Hms.
  - intros a b Ha Hb Hab. rewrite !mtie_dev by auto.
    apply (is_mtie_mono x a b); auto; apply mtie_val_is; auto.
Qed.

Lemma tierms_le_mtie_val x m : (1 <= m < len x)%nat -> sqrt (tierms_var x m) <= mtie_val x m.
Proof.
  intros Hm. pose proof (mtie_val_nonneg x m Hm) as H0. destruct (mtie_val_is x m Hm) as [Hu _].
  rewrite <- (sqrt_Rsqr (mtie_val x m)) by assumption. apply sqrt_le_1_alt. unfold tierms_var.
  assert (Hn : 0 < INR (len x - m)) by (apply INR_pos; lia).
  apply (Rmult_le_reg_l (INR (len x - m))); [exact Hn|].
  rewrite <- Rmult_assoc, Rinv_r, Rmult_1_l by lra.
  rewrite <- bigsum_const. apply bigsum_le. intros i Hi.
  pose proof (Hu (i + m)%nat i ltac:(lia) ltac:(lia) ltac:(lia) ltac:(lia)).
  pose proof (Hu i (i + m)%nat ltac:(lia) ltac:(lia) ltac:(lia) ltac:(lia)).
  unfold Rsqr. nra.
Qed.

Lemma tierms_le_mtie x rate taus t d e n t' d' e' n' : 0 < rate ->
  tierms x rate "phase" taus = Ok (t, d, e, n) -> mtie x rate "phase" taus = Ok (t', d', e', n') ->
  t = t' /\ n = n' /\ Forall2 (fun a b => 0 <= a <= b) d d'.
Proof.
  intros Hr H H'.
  destruct (stat_ok st_tierms x rate taus _ _ _ _ in_tierms Hr H) as (ms & good & Hms & Hg & _ & -> & -> & _ & ->).
  destruct (stat_ok st_mtie x rate taus _ _ _ _ in_mtie Hr H') as (ms' & good' & Hms' & Hg' & _ & -> & -> & _ & ->).
  assert (ms' = ms) by (eapply admissible_unique; eassumption). subst ms'.
  assert (good' = good) as -> by (rewrite Hg, Hg'; reflexivity).
  split; [reflexivity|]. split; [reflexivity|].
  assert (Hin : forall m, In m good -> (1 <= m < len x)%nat).
  { intros m Hm. rewrite Hg in Hm. apply filter_In in Hm as [Hm _]. apply (adm_in _ _ _ _ _ _ in_mtie Hms' Hm). }
  clear -Hin. induction good as [|m g IH]; cbn; constructor.
  - split; [apply sqrt_pos|]. rewrite mtie_dev by (apply Hin; cbn; auto).
    apply tierms_le_mtie_val. apply Hin; cbn; auto.
  - apply IH. intros; apply Hin; cbn; auto.
Qed.

Lemma mtie_le_p2p x rate taus t d e n P : 0 < rate -> mtie x rate "phase" taus = Ok (t, d, e, n) ->
  (forall j k, (j < len x)%nat -> (k < len x)%nat -> x.[j] - x.[k] <= P) -> Forall (fun v => v <= P) d.
Proof.
  intros Hr H HP. destruct (stat_ok st_mtie x rate taus t d e n in_mtie Hr H) as (ms & good & Hms & Hg & _ & _ & -> & _).
  apply Forall_forall. intros v Hv. apply in_map_iff in Hv as (m & <- & Hm).
  rewrite Hg in Hm. apply filter_In in Hm as [Hm _]. apply (adm_in _ _ _ _ _ _ in_mtie Hms) in Hm as [Hm _].
  rewrite mtie_dev by assumption. destruct (mtie_val_is x m Hm) as [_ (j & k & Hj & Hk & _ & _ & <-)]. now apply HP.
Qed.

(** ** null spaces *)
Lemma sqrt_0_iff v : 0 <= v -> (sqrt v = 0 <-> v = 0).
Proof. intros H. split; intros E; [now apply sqrt_eq_0|rewrite E; apply sqrt_0]. Qed.

Lemma two_step (x : list R) : (forall i, (i + 2 < len x)%nat -> x.[i + 2] - 2 * x.[i + 1] + x.[i] = 0) ->
  forall i, (i < len x)%nat -> x.[i] = x.[0] + (x.[1] - x.[0]) * INR i.
Proof.
  intros H. assert (G : forall i, ((i < len x)%nat -> x.[i] = x.[0] + (x.[1] - x.[0]) * INR i) /\
     ((S i < len x)%nat -> x.[S i] = x.[0] + (x.[1] - x.[0]) * INR (S i))).
  { induction i as [|i [IH1 IH2]].
    - split; intros; cbn; ring.
    - split; [exact IH2|]. intros Hi. specialize (H i). rewrite IH1 in H by lia.
      replace (i + 2)%nat with (S (S i)) in H by lia. replace (i + 1)%nat with (S i) in H by lia.
      rewrite IH2 in H by lia. specialize (H Hi). rewrite !S_INR in *. lra. }
  intros i. apply G.
Qed.

Lemma three_step (x : list R) :
  (forall i, (i + 3 < len x)%nat -> x.[i + 3] - 3 * x.[i + 2] + 3 * x.[i + 1] - x.[i] = 0) ->
  let c := (x.[2] - 2 * x.[1] + x.[0]) / 2 in
  let b := x.[1] - x.[0] - c in
  forall i, (i < len x)%nat -> x.[i] = x.[0] + b * INR i + c * INR i ^ 2.
Proof.
  intros H c b.
  assert (G : forall i, ((i < len x)%nat -> x.[i] = x.[0] + b * INR i + c * INR i ^ 2) /\
     ((S i < len x)%nat -> x.[S i] = x.[0] + b * INR (S i) + c * INR (S i) ^ 2) /\
     ((S (S i) < len x)%nat -> x.[S (S i)] = x.[0] + b * INR (S (S i)) + c * INR (S (S i)) ^ 2)).
  { induction i as [|i (IH1 & IH2 & IH3)].
    - repeat split; intros; unfold b, c; cbn; field.
    - split; [exact IH2|]. split; [exact IH3|]. intros Hi. specialize (H i).
      replace (i + 3)%nat with (S (S (S i))) in H by lia.
      replace (i + 2)%nat with (S (S i)) in H by lia. replace (i + 1)%nat with (S i) in H by lia.
      specialize (H Hi). rewrite IH1, IH2, IH3 in H by lia. rewrite !S_INR in *. nra. }
  intros i. apply G.
Qed.

Lemma sum_sq_zero n (f : nat -> R) : bigsum n (fun i => f i ^ 2) = 0 -> forall i, (i < n)%nat -> f i = 0.
Proof.
  intros H i Hi. assert (f i ^ 2 = 0).
  { apply (bigsum_zero_all n (fun i => f i ^ 2)); auto. intros. nra. }
  nra.
Qed.

Lemma oavar_0_iff x t : t <> 0 -> (3 <= len x)%nat ->
  (oavar x t 1 = 0 <-> exists a b, forall i, (i < len x)%nat -> x.[i] = a + b * INR i).
Proof.
  intros Ht Hl. unfold oavar, oadev_n. split.
  - intros H. exists x.[0], (x.[1] - x.[0]). apply two_step. intros i Hi.
    apply Rmult_integral in H as [H|H].
    + exfalso. assert (INR (len x - 2 * 1) <> 0) by (apply not_0_INR; lia).
      revert H. apply Rinv_neq_0_compat. cbn [INR].
      intros E. apply Rmult_integral in E as [E|E]; [|contradiction].
      assert ((1 * t) ^ 2 <> 0) by (apply pow_nonzero; lra). lra.
    + pose proof (sum_sq_zero _ _ H i ltac:(lia)) as E. unfold d2 in E.
      replace (i + 2 * 1)%nat with (i + 2)%nat in E by lia. exact E.
  - intros (a & b & H). rewrite bigsum_0; [ring|]. intros i Hi. unfold d2.
    rewrite !H by lia. inr. ring.
Qed.

Lemma ohvar_0_iff x t : t <> 0 -> (4 <= len x)%nat ->
  (ohvar x t 1 = 0 <-> exists a b c, forall i, (i < len x)%nat -> x.[i] = a + b * INR i + c * INR i ^ 2).
Proof.
  intros Ht Hl. unfold ohvar, ohdev_n. split.
  - intros H. eexists _, _, _. apply three_step. intros i Hi.
    apply Rmult_integral in H as [H|H].
    + exfalso. assert (INR (len x - 3 * 1) <> 0) by (apply not_0_INR; lia).
      revert H. apply Rinv_neq_0_compat. cbn [INR].
      intros E. apply Rmult_integral in E as [E|E]; [|contradiction].
      assert ((1 * t) ^ 2 <> 0) by (apply pow_nonzero; lra). lra.
    + pose proof (sum_sq_zero _ _ H i ltac:(lia)) as E. unfold d3 in E.
      replace (i + 3 * 1)%nat with (i + 3)%nat in E by lia.
      replace (i + 2 * 1)%nat with (i + 2)%nat in E by lia. exact E.
  - intros (a & b & c & H). rewrite bigsum_0; [ring|]. intros i Hi. unfold d3.
    rewrite !H by lia. inr. ring.
Qed.

Lemma oavar_nonneg x t m : 0 <= oavar x t m.
Proof.
  unfold oavar. apply Rmult_le_pos.
  - apply inv_nonneg. apply Rmult_le_pos; [|apply pos_INR]. nra.
  - apply bigsum_nonneg. intros. nra.
Qed.
Lemma ohvar_nonneg x t m : 0 <= ohvar x t m.
Proof.
  unfold ohvar. apply Rmult_le_pos.
  - apply inv_nonneg. apply Rmult_le_pos; [|apply pos_INR]. nra.
  - apply bigsum_nonneg. intros. nra.
Qed.

Lemma oadev_single x rate m : 0 < rate -> (1 <= m)%nat -> (2 * m + 2 <= len x)%nat ->
  let d := sqrt (oavar x (1 / rate) m) in let n := (len x - 2 * m)%nat in
  oadev x rate "phase" (TList [INR m / rate]) =
  Ok ([INR m / rate], [d], EArr [d / sqrt (INR n)], [Z.of_nat n]).
Proof.
  intros Hr Hm Hl d n. rewrite (oadev_spec x rate _ [m] Hr) by (apply adm_single; auto; lia).
  cbv zeta. unfold oadev_n in *. rewrite report_single by (unfold oadev_n; lia). unfold plain_err, oadev_n.
  rewrite <- INR_IZR_INZ. reflexivity.
Qed.
Lemma ohdev_single x rate m : 0 < rate -> (1 <= m)%nat -> (3 * m + 2 <= len x)%nat ->
  let d := sqrt (ohvar x (1 / rate) m) in let n := (len x - 3 * m)%nat in
  ohdev x rate "phase" (TList [INR m / rate]) =
  Ok ([INR m / rate], [d], EArr [d / sqrt (INR n)], [Z.of_nat n]).
Proof.
  intros Hr Hm Hl d n. rewrite (ohdev_spec x rate _ [m] Hr) by (apply adm_single; auto; lia).
  cbv zeta. rewrite report_single by (unfold ohdev_n; lia). unfold plain_err, ohdev_n.
  rewrite <- INR_IZR_INZ. reflexivity.
Qed.
Lemma mdev_single x rate m : 0 < rate -> (1 <= m)%nat -> (3 * m + 1 <= len x)%nat ->
  let d := sqrt (mvar x (1 / rate) m) in let n := (len x - 3 * m + 1)%nat in
  mdev x rate "phase" (TList [INR m / rate]) =
  Ok ([INR m / rate], [d], EArr [d / sqrt (INR n)], [Z.of_nat n]).
Proof.
  intros Hr Hm Hl d n. rewrite (mdev_spec x rate _ [m] Hr) by (apply adm_single; auto; lia).
  cbv zeta. rewrite report_single by (unfold mdev_n; lia). unfold plain_err. rewrite mdev_n_nat by lia.
  rewrite <- INR_IZR_INZ. reflexivity.
Qed.

Lemma mtie_single x rate m d : 0 < rate -> (1 <= m)%nat -> (m + 2 <= len x)%nat -> is_mtie x m d ->
  mtie x rate "phase" (TList [INR m / rate]) =
  Ok ([INR m / rate], [d], EArr [d / sqrt (INR (len x - m))], [Z.of_nat (len x - m)]).
Proof.
  intros Hr Hm Hl Hd. rewrite (mtie_spec x rate _ [m] Hr) with (dev := fun _ => d).
  2:{ apply adm_single; auto; lia. }
  2:{ intros k [<-|[]]. exact Hd. }
  rewrite report_single by (unfold tie_n; lia). unfold plain_err, tie_n.
  rewrite <- Nat2Z.inj_sub by lia. rewrite <- INR_IZR_INZ. reflexivity.
Qed.

Lemma is_mtie_0_iff x m : (1 <= m < len x)%nat ->
  (is_mtie x m 0 <-> exists a, forall i, (i < len x)%nat -> x.[i] = a).
Proof.
  intros Hm. split.
  - intros [Hu _]. exists x.[0]. intros i Hi. induction i as [|i IH]; [reflexivity|].
    rewrite <- IH by lia.
    pose proof (Hu i (S i) ltac:(lia) ltac:(lia) ltac:(lia) ltac:(lia)).
    pose proof (Hu (S i) i ltac:(lia) ltac:(lia) ltac:(lia) ltac:(lia)). lra.
  - intros [a H]. split.
    + intros j k Hj Hk _ _. rewrite !H by assumption. lra.
    + exists 0%nat, 0%nat. repeat split; try lia. lra.
Qed.

(** ** m = 1 *)
Lemma mvar_1 x t : (3 <= len x)%nat -> mvar x t 1 = oavar x t 1.
Proof.
  intros Hl. unfold mvar, oavar, oadev_n. rewrite mdev_n_nat by lia.
  replace (len x - 3 * 1 + 1)%nat with (len x - 2 * 1)%nat by lia. rewrite Nat2Z.id.
  rewrite <- INR_IZR_INZ. f_equal.
  - f_equal. cbn [INR]. ring.
  - apply bigsum_ext. intros j Hj. cbn [bigsum]. rewrite Nat.add_0_r. ring.
Qed.

Lemma avar_1 x t : avar x t 1 = oavar x t 1.
Proof.
  unfold avar, oavar, adev_n, oadev_n. rewrite Nat.div_1_r.
  replace (len x - 2 * 1)%nat with (len x - 1 - 1)%nat by lia. f_equal.
  - f_equal. ring.
  - apply bigsum_ext. intros. now rewrite Nat.mul_1_r.
Qed.

(** ** covariance *)
Lemma ocov_sym x y t m : len y = len x -> ocov y x t m = ocov x y t m.
Proof.
  intros Hl. unfold ocov, oadev_n. rewrite Hl. f_equal. apply bigsum_ext. intros. ring.
Qed.
Lemma ocov_self x t m : ocov x x t m = oavar x t m.
Proof. unfold ocov, oavar. f_equal. apply bigsum_ext. intros. ring. Qed.
Lemma ocov_scaled_r c x y t m : ocov x (scaled c y) t m = c * ocov x y t m.
Proof.
  unfold ocov. rewrite (bigsum_ext _ _ (fun i => c * (d2 x m i * d2 y m i))) by (intros; rewrite d2_scaled; ring).
  rewrite bigsum_scal. ring.
Qed.

Lemma cauchy_schwarz n (a b : nat -> R) :
  (bigsum n (fun i => a i * b i)) ^ 2 <= bigsum n (fun i => a i ^ 2) * bigsum n (fun i => b i ^ 2).
Proof.
  set (A := bigsum n (fun i => a i ^ 2)). set (B := bigsum n (fun i => b i ^ 2)).
  set (C := bigsum n (fun i => a i * b i)).
  assert (HB : 0 <= B) by (apply bigsum_nonneg; intros; nra).
  assert (H : forall t, 0 <= A - 2 * t * C + t ^ 2 * B).
  { intros t. replace (A - 2 * t * C + t ^ 2 * B) with (bigsum n (fun i => (a i - t * b i) ^ 2)).
    - apply bigsum_nonneg. intros. apply pow2_ge_0.
    - unfold A, B, C. rewrite (bigsum_ext n _ (fun i => a i ^ 2 + (- 2 * t * (a i * b i) + t ^ 2 * b i ^ 2)))
        by (intros; ring).
      rewrite !bigsum_plus, !bigsum_scal. ring. }
  destruct (Req_dec B 0) as [H0|H0].
  - assert (HC : C = 0).
    { apply bigsum_0. intros i Hi. rewrite (sum_sq_zero n b H0 i Hi). ring. }
    rewrite HC, H0. lra.
  - specialize (H (C / B)). assert (0 < B) by lra.
    replace (A - 2 * (C / B) * C + (C / B) ^ 2 * B) with (A - C ^ 2 / B) in H by (field; lra).
    apply (Rmult_le_reg_r (/ B)); [now apply Rinv_0_lt_compat|].
    rewrite Rmult_assoc, Rinv_r by lra. unfold Rdiv in H. lra.
Qed.

Lemma ocov_cs x y t m : len y = len x -> ocov x y t m ^ 2 <= oavar x t m * oavar y t m.
Proof.
  intros Hl. unfold ocov, oavar, oadev_n. rewrite Hl. set (n := (len x - 2 * m)%nat).
  pose proof (cauchy_schwarz n (d2 x m) (d2 y m)) as H.
  set (k := / (2 * (INR m * t) ^ 2 * INR n)).
  replace ((k * bigsum n (fun i => d2 x m i * d2 y m i)) ^ 2) with
    (k ^ 2 * bigsum n (fun i => d2 x m i * d2 y m i) ^ 2) by ring.
  replace (k * bigsum n (fun i => d2 x m i ^ 2) * (k * bigsum n (fun i => d2 y m i ^ 2))) with
    (k ^ 2 * (bigsum n (fun i => d2 x m i ^ 2) * bigsum n (fun i => d2 y m i ^ 2))) by ring.
  apply Rmult_le_compat_l; [nra|exact H].
Qed.

Lemma gcodev_err (x y : list R) rate taus e : 0 < rate -> len y = len x -> bad_exn (len x) taus = Some e ->
  gcodev x y rate "phase" taus = Err e.
Proof.
  intros Hr Hl He. unfold gcodev. rewrite !input_phase. cbn [bind].
  now rewrite (tau_default_bad x _ _ e) by assumption.
Qed.

Lemma gcodev_cases (x y : list R) rate taus : 0 < rate -> len y = len x ->
  (exists e, bad_exn (len x) taus = Some e /\ gcodev x y rate "phase" taus = Err e) \/
  (exists ms, bad_exn (len x) taus = None /\ admissible (len x) rate taus ms /\
    let dev := fun m => sqrt (Rabs (ocov x y (1 / rate) m)) in
    let cnt := fun m => Z.of_nat (oadev_n x m) in
    gcodev x y rate "phase" taus = report rate ms dev (plain_err dev cnt) cnt).
Proof.
  intros Hr Hl. destruct (bad_exn (len x) taus) as [e|] eqn:E.
  - left. exists e. split; [reflexivity|]. now apply gcodev_err.
  - right. apply bad_exn_valid in E.
    destruct (admissible_exists (fun _ => true) (len x) rate taus ltac:(lra) E) as [ms Hms].
    apply (adm_any (len x)) in Hms. exists ms. split; [reflexivity|]. split; [exact Hms|].
    now apply gcodev_spec.
Qed.

Lemma gcodev_sym x y rate taus : 0 < rate -> len y = len x ->
  gcodev y x rate "phase" taus = gcodev x y rate "phase" taus.
Proof.
  intros Hr Hl.
  destruct (gcodev_cases x y rate taus Hr Hl) as [(e & He & ->)|(ms & He & Hms & ->)].
  - apply gcodev_err; auto. now rewrite Hl.
  - rewrite (gcodev_spec y x rate taus ms) by (auto; now rewrite Hl).
    apply report_ext.
    + intros. unfold oadev_n. now rewrite Hl.
    + intros m Hm _. unfold plain_err, oadev_n. rewrite (ocov_sym x y) by assumption. rewrite Hl. auto.
Qed.

Lemma gcodev_self x rate taus : 0 < rate -> gcodev x x rate "phase" taus = oadev x rate "phase" taus.
Proof.
  intros Hr.
  destruct (gcodev_cases x x rate taus Hr eq_refl) as [(e & He & ->)|(ms & He & Hms & ->)].
  - symmetry. apply (stats_closed st_oadev); [unfold stats; cbn; tauto|exact Hr|exact He].
  - rewrite (oadev_spec x rate taus ms) by assumption. apply report_ext; [reflexivity|].
    intros m Hm _. unfold plain_err. rewrite ocov_self, Rabs_pos_eq by apply oavar_nonneg. auto.
Qed.

Lemma gcodev_scaled c x y rate taus : 0 < rate -> len y = len x ->
  gcodev x (scaled c y) rate "phase" taus = scale_devs (sqrt (Rabs c)) (gcodev x y rate "phase" taus).
Proof.
  intros Hr Hl.
  destruct (gcodev_cases x y rate taus Hr Hl) as [(e & He & ->)|(ms & He & Hms & ->)].
  - apply gcodev_err; auto. now rewrite scaled_len.
  - rewrite (gcodev_spec x (scaled c y) rate taus ms) by (auto; now rewrite scaled_len).
    apply report_scale; [reflexivity|]. intros m Hm _.
    rewrite ocov_scaled_r, Rabs_mult, sqrt_mult_alt by apply Rabs_pos.
    split; [reflexivity|]. unfold plain_err. rewrite ocov_scaled_r, Rabs_mult, sqrt_mult_alt by apply Rabs_pos.
    unfold Rdiv. ring.
Qed.

Lemma gcodev_cs x y rate taus t dx ex nx t' dy ey ny tg dg eg ng : 0 < rate -> len y = len x ->
  oadev x rate "phase" taus = Ok (t, dx, ex, nx) -> oadev y rate "phase" taus = Ok (t', dy, ey, ny) ->
  gcodev x y rate "phase" taus = Ok (tg, dg, eg, ng) ->
  t = tg /\ t' = tg /\ len dx = len dg /\ len dy = len dg /\
  forall i, (i < len dg)%nat -> dg.[i] ^ 2 <= dx.[i] * dy.[i].
Proof.
  intros Hr Hl Hx Hy Hg.
  destruct (gcodev_cases x y rate taus Hr Hl) as [(e & He & H)|(ms & He & Hms & H)]; rewrite H in Hg; [discriminate|].
  rewrite (oadev_spec x rate taus ms) in Hx by assumption.
  rewrite (oadev_spec y rate taus ms) in Hy by (auto; now rewrite Hl).
  unfold report in *. unfold oadev_n in *. rewrite Hl in Hy.
  set (good := filter _ ms) in *.
  assert (Hgood : forall m, In m good -> True) by auto.
  destruct good as [|m0 g] eqn:E; [discriminate|]. rewrite <- E in *. clear E m0 g.
  injection Hx as <- <- _ _. injection Hy as <- <- _ _. injection Hg as <- <- _ _.
  rewrite !map_length. repeat split.
  intros i Hi.
  set (q := nth i good 0%nat).
  rewrite (nth_indep _ 0 (sqrt (Rabs (ocov x y (1 / rate) 0)))) by now rewrite map_length.
  rewrite (map_nth (fun m => sqrt (Rabs (ocov x y (1 / rate) m)))).
  rewrite (nth_indep _ 0 (sqrt (oavar x (1 / rate) 0))) by now rewrite map_length.
  rewrite (map_nth (fun m => sqrt (oavar x (1 / rate) m))).
  rewrite (nth_indep _ 0 (sqrt (oavar y (1 / rate) 0))) by now rewrite map_length.
  rewrite (map_nth (fun m => sqrt (oavar y (1 / rate) m))). fold q.
  rewrite pow2_sqrt by apply Rabs_pos.
  rewrite <- sqrt_mult by apply oavar_nonneg.
  rewrite <- (sqrt_Rsqr (Rabs (ocov x y (1 / rate) q))) by apply Rabs_pos.
  apply sqrt_le_1_alt. rewrite <- Rsqr_abs. unfold Rsqr.
  pose proof (ocov_cs x y (1 / rate) q Hl). lra.
Qed.

(** ** adev, hdev, pdev are not reversal invariant *)
Lemma sqrt_pos_neq v : 0 < v -> sqrt v <> 0.
Proof. intros H E. pose proof (sqrt_lt_R0 v H). lra. Qed.

Lemma adev_single x rate m : 0 < rate -> (1 <= m < len x)%nat -> (2 <= adev_n x m)%nat ->
  let d := sqrt (avar x (1 / rate) m) in
  adev x rate "phase" (TList [INR m / rate]) =
  Ok ([INR m / rate], [d], EArr [d / sqrt (INR (adev_n x m))], [Z.of_nat (adev_n x m)]).
Proof.
  intros Hr Hm Hn d. rewrite (adev_spec x rate _ [m] Hr) by (apply adm_single; auto; lia).
  cbv zeta. rewrite report_single by lia. unfold plain_err. rewrite <- INR_IZR_INZ. reflexivity.
Qed.
Lemma hdev_single x rate m : 0 < rate -> (1 <= m < len x)%nat -> (2 <= hdev_n x m)%nat ->
  let d := sqrt (hvar x (1 / rate) m) in
  hdev x rate "phase" (TList [INR m / rate]) =
  Ok ([INR m / rate], [d], EArr [d / sqrt (INR (hdev_n x m))], [Z.of_nat (hdev_n x m)]).
Proof.
  intros Hr Hm Hn d. rewrite (hdev_spec x rate _ [m] Hr) by (apply adm_single; auto; lia).
  cbv zeta. rewrite report_single by lia. unfold plain_err. rewrite <- INR_IZR_INZ. reflexivity.
Qed.
Lemma pdev_single x rate m : 0 < rate -> (1 <= m)%nat -> (2 * m + 2 <= len x)%nat ->
  let d := sqrt (pvar x (1 / rate) m) in let n := (len x - 2 * m)%nat in
  pdev x rate "phase" (TList [INR m / rate]) =
  Ok ([INR m / rate], [d], EArr [d / sqrt (INR n)], [Z.of_nat n]).
Proof.
  intros Hr Hm Hl d n. rewrite (pdev_spec x rate _ [m] Hr) by (apply adm_single; auto; lia).
  cbv zeta. rewrite report_single by (unfold oadev_n; lia). unfold plain_err, oadev_n.
  rewrite <- INR_IZR_INZ. reflexivity.
Qed.

Lemma adev_not_reversible : exists x rate taus, 0 < rate /\
  adev (rev x) rate "phase" taus <> adev x rate "phase" taus.
Proof.
  exists [1; 0; 0; 0; 0; 0; 0; 0], 1, (TList [INR 2 / 1]). split; [lra|].
  rewrite !adev_single by (cbn; lra || lia). intros E. injection E as E _.
  apply (f_equal Rsqr) in E. rewrite !Rsqr_sqrt in E.
  - unfold avar, adev_n, d2 in E. cbn in E. lra.
  - unfold avar, adev_n, d2. cbn. lra.
  - unfold avar, adev_n, d2. cbn. lra.
Qed.
Lemma hdev_not_reversible : exists x rate taus, 0 < rate /\
  hdev (rev x) rate "phase" taus <> hdev x rate "phase" taus.
Proof.
  exists [1; 0; 0; 0; 0; 0; 0; 0; 0; 0], 1, (TList [INR 2 / 1]). split; [lra|].
  rewrite !hdev_single by (cbn; lra || lia). intros E. injection E as E _.
  apply (f_equal Rsqr) in E. rewrite !Rsqr_sqrt in E.
  - unfold hvar, hdev_n, d3 in E. cbn in E. lra.
  - unfold hvar, hdev_n, d3. cbn. lra.
  - unfold hvar, hdev_n, d3. cbn. lra.
Qed.
Lemma pdev_not_reversible : exists x rate taus, 0 < rate /\
  pdev (rev x) rate "phase" taus <> pdev x rate "phase" taus.
Proof.
  exists [1; 0; 0; 0; 0; 0], 1, (TList [INR 2 / 1]). split; [lra|].
  rewrite !pdev_single by (cbn; lra || lia). intros E. injection E as E _.
  apply (f_equal Rsqr) in E. rewrite !Rsqr_sqrt in E.
  - unfold pvar, oadev_n in E. cbn in E. lra.
  - unfold pvar, oadev_n. cbn. lra.
  - unfold pvar, oadev_n. cbn. lra.
Qed.
