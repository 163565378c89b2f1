(** * Closed forms of totdev, mtotdev, ttotdev, htotdev, theo1, tierms, mtie. *)
From Coq Require Import String Reals List ZArith Lra Lia Arith Bool Sorted.
From Verif Require Import Base Num NpList ModelCore ModelDev NumR ListFacts Spec RSum TauProofs DevProofs.
Import ListNotations.
Local Open Scope R_scope.
Local Notation len := List.length.

(** ** totdev *)
Lemma totdev_extend_spec x : (2 <= len x)%nat ->
  totdev_extend x = Ok (tab (3 * len x - 4) (fun k => xtot x (Z.of_nat k - Z.of_nat (len x - 2)))).
Proof.
  intros HN. pose proof (list_tab x 0) as Hx. set (N := len x) in *. set (f := fun i => x.[i]) in *.
  transitivity (totdev_extend (tab N f)); [now rewrite <- Hx|].
  unfold totdev_extend. cbv zeta.
  rewrite tab_length. rewrite pyget_tab by lia. cbn [bind Z.to_nat].
  destruct (Nat.ltb_spec N 2); [lia|].
  unfold vsub. rewrite pyinner_tab, !repeat_tab, rev_tab, !bmap2_tab. cbn [bind].
  rewrite pyget_tab_last by lia. cbn [bind]. rewrite ?repeat_tab, ?rev_tab, !bmap2_tab. cbn [bind].
  rewrite !tab_length.
  replace (N - 2 + N + (N - 2))%nat with (3 * N - 4)%nat by lia. rewrite Nat.eqb_refl.
  cbn [assert_ bind]. rewrite !app_tab.
  replace (N - 2 + (N + (N - 2)))%nat with (3 * N - 4)%nat by lia.
  f_equal. apply tab_ext. intros i Hi. rn. unfold xtot, f. fold N.
  destruct (Nat.ltb_spec i (N - 2)).
  - destruct (Z.ltb_spec (Z.of_nat i - Z.of_nat (N - 2)) 0); [|lia].
    f_equal. f_equal. lia.
  - destruct (Z.ltb_spec (Z.of_nat i - Z.of_nat (N - 2)) 0); [lia|].
    destruct (Nat.ltb_spec (i - (N - 2)) N).
    + destruct (Z.ltb_spec (Z.of_nat i - Z.of_nat (N - 2)) (Z.of_nat N)); [|lia]. f_equal. lia.
    + destruct (Z.ltb_spec (Z.of_nat i - Z.of_nat (N - 2)) (Z.of_nat N)); [lia|].
      f_equal. f_equal. lia.
Qed.

Lemma calc_totdev_spec x rate m : 0 < rate -> (3 <= len x)%nat -> (1 <= m < len x)%nat ->
  let dev := sqrt (totvar x (1 / rate) m) in
  calc_totdev (tab (3 * len x - 4) (fun k => xtot x (Z.of_nat k - Z.of_nat (len x - 2)))) (len x) rate m
  = Ok (dev, dev / sqrt (INR (totdev_n x)), Z.of_nat (totdev_n x)).
Proof.
  intros Hr HN Hm dev. unfold calc_totdev. cbv zeta. set (N := len x) in *.
  rewrite !pyfrom_tab by lia. rewrite !tab_length.
  set (e := min3 _ _ _).
  assert (He : (N - 2 <= e)%nat) by (unfold e, min3; lia).
  unfold vsub, vadd, scal. rewrite !firstn_tab.
  rewrite !(Nat.min_l e) by (unfold e, min3; lia).
  rewrite map_tab, bmap2_tab. cbn [bind]. rewrite bmap2_tab. cbn [bind].
  rewrite firstn_tab, (Nat.min_l (N - 2)) by exact He.
  rewrite sumsq_tab, nsq_R, !ofN_INR. rn.
  replace (Z.of_nat N - 2)%Z with (Z.of_nat (N - 2)) by lia. rewrite ofN_R.
  unfold dev, totvar, totdev_n. fold N.
  assert (HS : forall g h : nat -> R, (forall k, (k < N - 2)%nat -> g k = h k) -> bigsum (N - 2) g = bigsum (N - 2) h)
    by (intros; apply bigsum_ext; auto).
  match goal with |- Ok (sqrt ?a, _, _) = Ok (sqrt ?b, _, _) => assert (Hd : a = b) end.
  { rewrite (HS _ (fun k => let i := Z.of_nat (k + 1) in
      (xtot x (i - Z.of_nat m) - 2 * xtot x i + xtot x (i + Z.of_nat m)) ^ 2)).
    - cbv zeta. generalize (bigsum (N - 2) (fun k => (xtot x (Z.of_nat (k + 1) - Z.of_nat m) - 2 * xtot x (Z.of_nat (k + 1))
         + xtot x (Z.of_nat (k + 1) + Z.of_nat m)) ^ 2)). intros S.
      field. repeat split; try lra; apply not_0_INR; lia.
    - intros k Hk. cbv zeta. f_equal. repeat (f_equal; try lia). }
  now rewrite Hd.
Qed.

Lemma totdev_spec x rate taus ms : 0 < rate -> (2 <= len x)%nat -> admissible (len x) rate taus ms ->
  let dev := fun m => sqrt (totvar x (1 / rate) m) in
  let cnt := fun m : nat => Z.of_nat (totdev_n x) in
  totdev x rate "phase" taus = report rate ms dev (plain_err dev cnt) cnt.
Proof.
  intros Hr HN Ha dev cnt. unfold totdev. rewrite input_phase. cbn [bind].
  change (ofZ (-1)) with (IZR (-1)).
  rewrite (tau_generator_default x rate taus ms) by (auto; lra). cbn [bind].
  rewrite totdev_extend_spec by exact HN. cbn [bind].
  apply run_rows_report. intros m Hm.
  destruct Ha as (_ & _ & Hin). apply Hin in Hm as (Hb & _ & _).
  destruct (Nat.eq_dec (len x) 2) as [H2|H2].
  - unfold calc_totdev. cbv zeta. rewrite H2.
    rewrite !pyfrom_tab by lia. rewrite !tab_length.
    set (e := min3 _ _ _).
    unfold vsub, vadd, scal. rewrite !firstn_tab.
    rewrite !(Nat.min_l e) by (unfold e, min3; lia).
    rewrite map_tab, bmap2_tab. cbn [bind]. rewrite bmap2_tab. cbn [bind].
    eexists _, _, _. split; [reflexivity|].
    intros [C|C]; [cbn in C; lia|unfold cnt, totdev_n in C; lia].
  - rewrite calc_totdev_spec by (auto; lia).
    eexists _, _, _. split; [reflexivity|]. intros _. split; [reflexivity|].
    split; [|reflexivity]. unfold plain_err, cnt. now rewrite ofN_R.
Qed.

(** ** sliding sums of mtotdev / htotdev *)
Lemma sliding_squaresum_spec (z : nat -> R) m : (1 <= m)%nat ->
  sliding_squaresum (tab (9 * m) z) m =
  Ok (bigsum (6 * m) (fun j => ((wsum z m j - 2 * wsum z m (j + m) + wsum z m (j + 2 * m)) / INR m) ^ 2)).
Proof.
  intros Hm. unfold sliding_squaresum.
  set (T := fun j => ((wsum z m j - 2 * wsum z m (j + m) + wsum z m (j + 2 * m)) / INR m) ^ 2).
  rewrite (foldM_inv _ (fun j => match j with
     | O => (0, 0, 0, 0)
     | S i => (wsum z m i, wsum z m (i + m), wsum z m (i + 2 * m), bigsum (S i) T) end)).
  - cbn [bind]. destruct (6 * m)%nat eqn:E; [lia|]. reflexivity.
  - reflexivity.
  - intros i Hi. destruct i as [|i].
    + cbn [Nat.eqb bind]. rewrite !pyslice_tab, !asum_tab, nsq_R, ofN_INR. rn.
      replace (Nat.min (m - 0) (9 * m - 0)) with m by lia.
      replace (Nat.min (2 * m - m) (9 * m - m)) with m by lia.
      replace (Nat.min (3 * m - 2 * m) (9 * m - 2 * m)) with m by lia.
      unfold bigsum at 5. unfold T. reflexivity.
    + cbn [Nat.eqb bind]. rewrite !pyget_tab by lia. cbn [bind].
      rewrite !Nat2Z.id, nsq_R, ofN_INR. rn.
      assert (Hw : forall j, (1 <= j)%nat -> wsum z m (j - 1) - z (j - 1)%nat + z (j + m - 1)%nat = wsum z m j).
      { intros j Hj. unfold wsum.
        assert (H : bigsum (S m) (fun k => z (j - 1 + k)%nat) = z (j - 1)%nat + bigsum m (fun k => z (j + k)%nat)).
        { rewrite bigsum_S_l. f_equal; [f_equal; lia|]. apply bigsum_ext. intros; f_equal; lia. }
        cbn [bigsum] in H. replace (j + m - 1)%nat with (j - 1 + m)%nat by lia. lra. }
      pose proof (Hw (S i) ltac:(lia)) as H1. replace (S i - 1)%nat with i in H1 by lia.
      pose proof (Hw (S i + m)%nat ltac:(lia)) as H2.
      replace (S i + m - 1)%nat with (i + m)%nat in H2 by lia.
      pose proof (Hw (S i + 2 * m)%nat ltac:(lia)) as H3.
      replace (S i + 2 * m - 1)%nat with (i + 2 * m)%nat in H3 by lia.
      replace (S i - 1)%nat with i by lia.
      replace (S i + m - 1)%nat with (i + m)%nat in * by lia.
      replace (m + S i - 1)%nat with (i + m)%nat by lia.
      replace (S i + m + m - 1)%nat with (S i + 2 * m - 1)%nat in H2 by lia.
      replace (2 * m + S i - 1)%nat with (i + 2 * m)%nat by lia.
      replace (S i + 2 * m + m - 1)%nat with (S i + 3 * m - 1)%nat in H3 by lia.
      replace (i + 2 * m)%nat with (S i + 2 * m - 1)%nat in H3 at 2 by lia.
      replace (S i + 2 * m - 1)%nat with (i + 2 * m)%nat in * by lia.
      rewrite H1, H2, H3. unfold T. cbn [bigsum]. reflexivity.
Qed.

(** ** the two detrending steps *)
Lemma half_of_R k : @half_of R _ k = IZR k / 2.
Proof. unfold half_of. rn. field. Qed.

Lemma div2_3m m : (1 <= m)%nat -> (1 <= Nat.div2 (3 * m) <= 3 * m - 1)%nat.
Proof. intros H. pose proof (Nat.div2_odd (3 * m)). destruct (Nat.odd (3 * m)); cbn [Nat.b2n] in *; lia. Qed.

Lemma slope_den m : (if Nat.odd (3 * m) then IZR (3 * Z.of_nat m - 1) / 2 + 1 else IZR 3 / 2 * INR m)
  = INR (3 * m - Nat.div2 (3 * m)).
Proof.
  pose proof (Nat.div2_odd (3 * m)) as H. destruct (Nat.odd (3 * m)) eqn:E; cbn [Nat.b2n] in H.
  - replace (3 * m - Nat.div2 (3 * m))%nat with (S (Nat.div2 (3 * m))) by lia.
    rewrite S_INR. replace (3 * Z.of_nat m - 1)%Z with (2 * Z.of_nat (Nat.div2 (3 * m)))%Z by lia.
    rewrite mult_IZR, ofN_R. lra.
  - replace (3 * m - Nat.div2 (3 * m))%nat with (Nat.div2 (3 * m)) by lia.
    assert (Hm : INR (3 * m) = 2 * INR (Nat.div2 (3 * m))).
    { rewrite H at 1. rewrite Nat.add_0_r, mult_INR. cbn. lra. }
    rewrite mult_INR in Hm. cbn [INR] in Hm. lra.
Qed.

Lemma map2_seq_tab {B C} (g : nat -> B -> C) n f :
  map2 g (seq 0 n) (tab n f) = tab n (fun i => g i (f i)).
Proof.
  replace (seq 0 n) with (tab n (fun i => i)) by (unfold tab; apply map_id). apply map2_tab.
Qed.

Lemma means_eq (y : nat -> R) m : (1 <= m)%nat ->
  let h := Nat.div2 (3 * m) in
  mean (skipn (3 * m - h) (tab (3 * m) y)) - mean (firstn h (tab (3 * m) y)) =
  half_slope y m * INR (3 * m - h).
Proof.
  intros Hm h. pose proof (div2_3m m Hm) as Hh. fold h in Hh. unfold mean.
  rewrite skipn_tab, firstn_tab, !tab_length, !asum_tab, !ofN_INR. rn.
  replace (3 * m - (3 * m - h))%nat with h by lia. rewrite Nat.min_l by lia.
  unfold half_slope. fold h. field. split; apply not_0_INR; lia.
Qed.

Lemma mtot_detrend_spec (y : nat -> R) m tau0 : (1 <= m)%nat -> tau0 <> 0 ->
  mtot_detrend (tab (3 * m) y) m tau0 = tab (3 * m) (fun k => y k - half_slope y m * INR k).
Proof.
  intros Hm Ht. unfold mtot_detrend. cbv zeta. rewrite tab_length, map2_seq_tab.
  apply tab_ext. intros k Hk. rn. rewrite (means_eq y m Hm).
  pose proof (slope_den m) as Hd. pose proof (div2_3m m Hm) as Hh.
  assert (Hnz : INR (3 * m - Nat.div2 (3 * m)) <> 0) by (apply not_0_INR; lia).
  rn. rewrite !ofN_INR, !half_of_R. f_equal.
  destruct (Nat.odd (3 * m)); rewrite Hd; field; auto.
Qed.

Lemma htot_detrend_spec (y : nat -> R) m : (1 <= m)%nat ->
  htot_detrend (tab (3 * m) y) m =
  tab (3 * m) (fun k => (y k - half_slope y m * INR k) + half_slope y m * INR (Nat.div2 (3 * m))).
Proof.
  intros Hm. unfold htot_detrend. cbv zeta. rewrite tab_length, map2_seq_tab.
  apply tab_ext. intros k Hk. rn. rewrite (means_eq y m Hm).
  pose proof (slope_den m) as Hd. pose proof (div2_3m m Hm) as Hh.
  assert (Hnz : INR (3 * m - Nat.div2 (3 * m)) <> 0) by (apply not_0_INR; lia).
  rn. rewrite !ofN_INR, !half_of_R.
  destruct (Nat.odd (3 * m)); rewrite Hd; field; auto.
Qed.

Lemma reflect_tab (y : nat -> R) m :
  (rev (tab (3 * m) y) ++ tab (3 * m) y ++ rev (tab (3 * m) y))%list = tab (9 * m) (reflect9 y m).
Proof.
  rewrite rev_tab, !app_tab. replace (3 * m + (3 * m + 3 * m))%nat with (9 * m)%nat by lia.
  apply tab_ext. intros i Hi. unfold reflect9.
  destruct (Nat.ltb_spec i (3 * m)); [reflexivity|].
  destruct (Nat.ltb_spec (i - 3 * m) (3 * m)), (Nat.ltb_spec i (6 * m)); try lia; f_equal; lia.
Qed.

Lemma reflect9_const y c m j : reflect9 (fun k => y k + c) m j = reflect9 y m j + c.
Proof. unfold reflect9. destruct (j <? 3 * m)%nat, (j <? 6 * m)%nat; reflexivity. Qed.

Lemma wsum_const z c m j : wsum (fun k => z k + c) m j = wsum z m j + INR m * c.
Proof. unfold wsum. rewrite bigsum_plus, bigsum_const. reflexivity. Qed.

Lemma wsum_ext z z' m j : (forall k, z k = z' k) -> wsum z m j = wsum z' m j.
Proof. intros H. unfold wsum. apply bigsum_ext. auto. Qed.

Lemma pyslice_list (x : list R) i k : (i + k <= len x)%nat ->
  pyslice i (i + k) x = tab k (fun j => x.[i + j]).
Proof.
  intros H. transitivity (pyslice i (i + k) (tab (len x) (fun j => x.[j]))).
  - now rewrite <- list_tab.
  - rewrite pyslice_tab. f_equal. lia.
Qed.

(** loop body, mtotdev *)
Lemma mdev_n_nat x m : (3 * m <= len x)%nat -> mdev_n x m = Z.of_nat (len x - 3 * m + 1).
Proof. unfold mdev_n. lia. Qed.

Lemma calc_mtotdev_spec x rate m : 0 < rate -> (1 <= m)%nat -> (3 * m <= len x)%nat ->
  let dev := sqrt (mtotvar x (1 / rate) m) in
  calc_mtotdev_phase x rate m = Ok (dev, dev / sqrt (IZR (mdev_n x m)), mdev_n x m).
Proof.
  intros Hr Hm HN dev.
  assert (Ht0 : 1 / rate <> 0) by (apply Rgt_not_eq, Rdiv_lt_0_compat; lra).
  unfold calc_mtotdev_phase. cbv zeta. change (ofZ 1 / rate)%num with (1 / rate).
  change (Z.of_nat (len x) - 3 * Z.of_nat m + 1)%Z with (mdev_n x m).
  rewrite (mdev_n_nat x m HN). set (n := (len x - 3 * m + 1)%nat). rewrite Nat2Z.id.
  rewrite (foldM_inv _ (fun j => (Z.of_nat j, bigsum j (fun i => tot_term (fun k => x.[i + k]) m)))).
  - cbn [bind]. rewrite Z.eqb_refl. cbn [assert_ bind]. rewrite nsq_R, ofN_INR. rn. rewrite ofN_R.
    unfold dev, mtotvar. rewrite (mdev_n_nat x m HN). fold n. rewrite Nat2Z.id, ofN_R.
    match goal with |- Ok (sqrt ?a, _, _) = Ok (sqrt ?b, _, _) => assert (Hd : a = b) end.
    { field. repeat split; try lra; apply not_0_INR; lia. }
    now rewrite Hd.
  - reflexivity.
  - intros i Hi. rewrite (pyslice_list x i (3 * m)) by (unfold n in Hi; lia).
    rewrite tab_length, Nat.eqb_refl. cbn [assert_ bind].
    rewrite mtot_detrend_spec by assumption. rewrite reflect_tab, tab_length, Nat.eqb_refl.
    cbn [assert_ bind]. rewrite sliding_squaresum_spec by exact Hm. cbn [bind].
    rewrite ofN_INR. rn. f_equal. f_equal; [lia|]. cbn [bigsum]. f_equal.
    unfold tot_term. f_equal. field. apply not_0_INR. lia.
Qed.

Lemma third_len_ok N m : INR m <= (if Reqb (third_len N) (-1) then INR N else third_len N) <->
  (3 * m <= N)%nat.
Proof.
  unfold third_len. rewrite ofN_INR. rn.
  destruct (Reqb (INR N / 3) (-1)) eqn:E.
  - apply Reqb_true in E. pose proof (pos_INR N). lra.
  - assert (H : INR m <= INR N / 3 <-> INR (3 * m) <= INR N).
    { rewrite mult_INR. cbn [INR]. lra. }
    rewrite H. split; [apply INR_le|apply le_INR].
Qed.

Definition fits3 (N m : nat) : Prop := (3 * m <= N)%nat.

Lemma tau_generator_third x rate taus ms : rate <> 0 ->
  admissible_if (fits3 (len x)) (len x) rate taus ms ->
  tau_generator x rate taus false (third_len (len x)) =
    Ok (x, map Z.of_nat ms, map (fun m => INR m / rate) ms).
Proof.
  intros Hr Ha. eapply tau_generator_spec; [exact Hr| |exact Ha].
  intros m Hm. rewrite third_len_ok. unfold fits3. intuition discriminate.
Qed.

Lemma mtotdev_spec x rate taus ms : 0 < rate -> admissible_if (fun m => 3 * m <= len x)%nat (len x) rate taus ms ->
  let dev := fun m => sqrt (mtotvar x (1 / rate) m) in
  mtotdev x rate "phase" taus = report rate ms dev (plain_err dev (mdev_n x)) (mdev_n x).
Proof.
  intros Hr Ha dev. unfold mtotdev. rewrite input_phase. cbn [bind].
  rewrite (tau_generator_third x rate taus ms) by (auto; lra). cbn [bind].
  apply run_rows_report. intros m Hm.
  destruct Ha as (_ & _ & Hin). apply Hin in Hm as (Hb & H3 & _).
  rewrite calc_mtotdev_spec by (auto; lia).
  eexists _, _, _. split; [reflexivity|]. intros _. repeat split.
Qed.

Lemma tot_term_nonneg y m : 0 <= tot_term y m.
Proof.
  unfold tot_term. apply Rmult_le_pos.
  - destruct (Req_dec (6 * INR m) 0) as [->|H]; [rewrite Rinv_0; lra|].
    left. apply Rinv_0_lt_compat. pose proof (pos_INR m). lra.
  - apply bigsum_nonneg. intros. apply pow2_ge_0.
Qed.

Lemma inv_nonneg a : 0 <= a -> 0 <= / a.
Proof. intros [H|<-]; [left; now apply Rinv_0_lt_compat|rewrite Rinv_0; lra]. Qed.

Lemma mtotvar_nonneg x tau0 m : (0 < mdev_n x m)%Z -> 0 <= mtotvar x tau0 m.
Proof.
  intros H. unfold mtotvar. apply Rmult_le_pos.
  - apply inv_nonneg. apply Rmult_le_pos; [|apply IZR_le; lia].
    apply Rmult_le_pos; [lra|apply pow2_ge_0].
  - apply bigsum_nonneg. intros. apply tot_term_nonneg.
Qed.

Lemma ttotdev_spec x rate taus ms : 0 < rate -> admissible_if (fun m => 3 * m <= len x)%nat (len x) rate taus ms ->
  let dev := fun m => sqrt ((INR m * (1 / rate)) ^ 2 / 3 * mtotvar x (1 / rate) m) in
  ttotdev x rate "phase" taus = report rate ms dev (plain_err dev (mdev_n x)) (mdev_n x).
Proof.
  intros Hr Ha dev. unfold ttotdev. rewrite (mtotdev_spec x rate taus ms Hr Ha).
  apply (scale_report rate ms (mtotvar x (1 / rate)) (mdev_n x)); [exact Hr|].
  intros m Hm Hc. split; [apply mtotvar_nonneg; lia|reflexivity].
Qed.

(** ** htotdev *)
Lemma calc_htotdev_spec f m : (1 <= m)%nat -> (3 * m <= len f)%nat ->
  let dev := sqrt (htotvar_freq f m) in
  calc_htotdev_freq f m = Ok (dev, dev / sqrt (IZR (mdev_n f m)), mdev_n f m).
Proof.
  intros Hm HN dev.
  unfold calc_htotdev_freq. cbv zeta.
  change (Z.of_nat (len f) - 3 * Z.of_nat m + 1)%Z with (mdev_n f m).
  rewrite (mdev_n_nat f m HN). set (n := (len f - 3 * m + 1)%nat). rewrite Nat2Z.id.
  rewrite (foldM_inv _ (fun j => (Z.of_nat j, bigsum j (fun i => / 6 * tot_term (fun k => f.[i + k]) m)))).
  - cbn [bind]. rewrite Z.eqb_refl. cbn [assert_ bind]. rn. rewrite ofN_R.
    unfold dev, htotvar_freq. rewrite (mdev_n_nat f m HN). fold n. rewrite Nat2Z.id, ofN_R.
    rewrite bigsum_scal.
    match goal with |- Ok (sqrt ?a, _, _) = Ok (sqrt ?b, _, _) => assert (Hd : a = b) end.
    { field. apply not_0_INR; lia. }
    now rewrite Hd.
  - reflexivity.
  - intros i Hi. rewrite (pyslice_list f i (3 * m)) by (unfold n in Hi; lia).
    rewrite tab_length, Nat.eqb_refl. cbn [assert_ bind].
    rewrite htot_detrend_spec by assumption. rewrite reflect_tab, tab_length, Nat.eqb_refl.
    cbn [assert_ bind]. rewrite sliding_squaresum_spec by exact Hm. cbn [bind].
    rewrite ofN_INR. rn. f_equal. f_equal; [lia|]. cbn [bigsum]. f_equal.
    unfold tot_term.
    set (y := fun k => f.[i + k]). set (c := half_slope y m).
    match goal with |- _ * ?a = _ * (_ * ?b) => assert (Hs : a = b) end.
    { apply bigsum_ext. intros j Hj. f_equal. f_equal.
      assert (Hw : forall j, wsum (reflect9 (fun k => y k - c * INR k + c * INR (Nat.div2 (3 * m))) m) m j
         = wsum (reflect9 (fun k => y k - c * INR k) m) m j + INR m * (c * INR (Nat.div2 (3 * m)))).
      { intros j'. rewrite <- wsum_const. apply wsum_ext. intros. apply reflect9_const. }
      change (fun k => f.[i + k]) with y. fold c. rewrite !Hw. unfold y. ring. }
    rewrite Hs, mult_INR. replace (INR 6) with 6 by (cbn; lra). field.
    apply not_0_INR. lia.
Qed.

(** phase2frequency on the reals *)

Lemma map2_tab_app {A B C} (g : A -> B -> C) n a b l :
  map2 g (tab n a) (tab n b ++ l) = tab n (fun i => g (a i) (b i)).
Proof.
  revert a b. induction n as [|n IH]; intros a b; [destruct l; reflexivity|].
  rewrite !tab_S. cbn. now rewrite IH.
Qed.

Lemma phase2frequency_R x rate : phase2frequency x rate = freq_of x rate.
Proof.
  unfold phase2frequency, diff, scal.
  pose proof (list_tab x 0) as Hx. set (f := fun i => x.[i]) in *.
  rewrite Hx at 1 2. rewrite tl_tab.
  assert (H : map2 (fun b a : R => (b - a)%num) (tab (len x - 1) (fun i => f (S i))) (tab (len x) f)
              = tab (len x - 1) (fun i => f (S i) - f i)).
  { destruct (len x) as [|n]; [reflexivity|]. rewrite (tab_snoc n f). replace (S n - 1)%nat with n by lia.
    rewrite map2_tab_app. reflexivity. }
  rewrite H, map_tab. apply map_ext. intros i. rn. unfold f. now rewrite Nat.add_1_r.
Qed.

Lemma freq_of_length x rate : len (freq_of x rate) = (len x - 1)%nat.
Proof. unfold freq_of. now rewrite map_length, seq_length. Qed.

Lemma ohdev_n_1 (x : list R) : (1 <= len x)%nat ->
  Z.of_nat (ohdev_n x 1) = Z.max 0 (Z.of_nat (len x - 1) - 2)%Z.
Proof. unfold ohdev_n. lia. Qed.


Lemma htot_rows x f rate taus ms : 0 < rate ->
  admissible_if (fun m => 3 * m <= len f)%nat (len f) rate taus ms ->
  (r <- tau_generator f rate taus false (third_len (len f)) ;;
   let '(freq, ms, taus_used) := r in
   run_rows (fun mj => if Nat.eqb mj 1 then calc_hdev_phase x rate mj 1
                      else calc_htotdev_freq freq mj) ms taus_used) =
  report rate ms (htot_dev x f rate) (plain_err (htot_dev x f rate) (htot_cnt x f)) (htot_cnt x f).
Proof.
  intros Hr Ha. rewrite (tau_generator_third f rate taus ms) by (auto; lra). cbn [bind].
  apply run_rows_report. intros m Hm.
  destruct Ha as (_ & _ & Hin). apply Hin in Hm as (Hb & H3 & _).
  unfold htot_cnt, plain_err, htot_dev. destruct (Nat.eqb_spec m 1) as [->|H1].
  - destruct (Nat.eq_dec (ohdev_n x 1) 0) as [H0|H0].
    + destruct (calc_ohdev_short x rate 1 H0) as (d & e & He).
      exists d, e, 1%Z. split; [exact He|]. rewrite H0. cbn. lia.
    + rewrite calc_ohdev_spec by (auto; lia).
      eexists _, _, _. split; [reflexivity|]. intros _. split; [reflexivity|].
      split; [|reflexivity]. now rewrite ofN_R.
  - rewrite calc_htotdev_spec by (auto; lia).
    eexists _, _, _. split; [reflexivity|]. intros _. repeat split.
Qed.

Lemma htotdev_spec x rate taus ms : 0 < rate ->
  let f := freq_of x rate in
  admissible_if (fun m => 3 * m <= len x - 1)%nat (len x - 1) rate taus ms ->
  htotdev x rate "phase" taus =
  report rate ms (htot_dev x f rate) (plain_err (htot_dev x f rate) (htot_cnt x f)) (htot_cnt x f).
Proof.
  intros Hr f Ha. unfold htotdev. cbn [String.eqb]. cbn [bind].
  change ("phase" =? "phase")%string with true. cbn [bind].
  rewrite phase2frequency_R. fold f.
  rewrite <- (htot_rows x f rate taus ms Hr).
  - reflexivity.
  - unfold f. rewrite freq_of_length. exact Ha.
Qed.

(** ** theo1 *)
Lemma calc_theo1_spec x rate m : 0 < rate -> (1 <= m < len x)%nat -> Nat.even m = true ->
  let dev := sqrt (theo1var x (1 / rate) m) in
  calc_theo1 x rate m = Ok (dev, dev / sqrt (IZR (tie_n x m)), theo1_n x m).
Proof.
  intros Hr Hm He dev.
  pose proof (list_tab x 0) as Hx. set (N := len x) in *. set (f := fun i => x.[i]) in *.
  transitivity (calc_theo1 (tab N f) rate m); [now rewrite <- Hx|].
  unfold calc_theo1. cbv zeta. rewrite He, tab_length. cbn [assert_ bind].
  assert (Hm2 : m = (2 * Nat.div2 m)%nat).
  { pose proof (Nat.div2_odd m) as H. rewrite <- Nat.negb_even, He in H. cbn [negb Nat.b2n] in H. lia. }
  set (h := Nat.div2 m) in *.
  assert (HmI : INR m = 2 * INR h). { rewrite Hm2 at 1. rewrite mult_INR. cbn. lra. }
  set (T := fun i d => / (INR h - INR d) * ((x.[i] - x.[i + h - d]) + (x.[i + m] - x.[i + h + d])) ^ 2).
  rewrite (foldM_inv _ (fun j => (bigsum j (fun i => bigsum h (T i)), (Z.of_nat j * Z.of_nat h)%Z))).
  - cbn [bind].
    replace (2 * (Z.of_nat (N - m) * Z.of_nat h) =? (Z.of_nat N - Z.of_nat m) * Z.of_nat m)%Z with true.
    2:{ symmetry. apply Z.eqb_eq. rewrite Hm2 at 3. lia. }
    cbn [assert_ bind]. rewrite nsq_R, ofN_INR. rn.
    unfold dev, theo1var, tie_n, theo1_n. fold N h T.
    replace (Z.of_nat N - Z.of_nat m)%Z with (Z.of_nat (N - m)) by lia. rewrite ofN_R.
    match goal with |- Ok (sqrt ?a, _, _) = Ok (sqrt ?b, _, _) => assert (Hd : a = b) end.
    { unfold T. field. repeat split; try lra; apply not_0_INR; lia. }
    now rewrite Hd.
  - reflexivity.
  - intros i Hi. cbn [bind].
    rewrite (foldM_inv _ (fun d => (bigsum d (T i), (Z.of_nat i * Z.of_nat h + Z.of_nat d)%Z))).
    + cbn [bind bigsum]. rn. f_equal. f_equal. lia.
    + rn. cbn [bigsum]. f_equal. lia.
    + intros d Hd. rewrite !pyget_tab by lia. cbn [bind bigsum]. rewrite nsq_R, !ofN_INR. rn.
      f_equal. f_equal; [|lia]. f_equal. unfold T, f.
      replace (Z.to_nat (Z.of_nat i)) with i by lia.
      replace (Z.to_nat (Z.of_nat i - Z.of_nat d + Z.of_nat h)) with (i + h - d)%nat by lia.
      replace (Z.to_nat (Z.of_nat i + Z.of_nat m)) with (i + m)%nat by lia.
      replace (Z.to_nat (Z.of_nat i + Z.of_nat d + Z.of_nat h)) with (i + h + d)%nat by lia.
      rewrite HmI. assert (INR d < INR h) by (apply lt_INR; exact Hd).
      field. lra.
Qed.

Lemma theo1_spec x rate taus ms : 0 < rate ->
  admissible_if (fun m => Nat.even m = true) (len x) rate taus ms ->
  let dev := fun m => sqrt (theo1var x (1 / rate) m) in
  theo1 x rate "phase" taus =
  report rate ms dev (fun m => dev m / sqrt (IZR (tie_n x m))) (theo1_n x).
Proof.
  intros Hr Ha dev. unfold theo1. rewrite input_phase. cbn [bind]. rn.
  destruct (Reqb rate 0) eqn:E; [apply Reqb_true in E; lra|].
  rewrite (tau_generator_spec (fun m => Nat.even m = true) x rate taus true (-1) ms); [| lra | |exact Ha].
  - cbn [bind]. apply run_rows_report. intros m Hm.
    destruct Ha as (_ & _ & Hin). apply Hin in Hm as (Hb & H3 & _).
    rewrite calc_theo1_spec by (auto; lia).
    eexists _, _, _. split; [reflexivity|]. intros _. repeat split.
  - intros m Hm. rewrite (proj2 (Reqb_true (-1) (-1)) eq_refl).
    split; [intros H; split; [apply le_INR; lia|auto]|intros [_ H]; auto].
Qed.

(** ** tierms *)
Lemma nmax2_R a b : @nmax2 R _ a b = Rmax a b.
Proof.
  unfold nmax2. cbn [nisnan nltb RNum]. unfold Rmax.
  destruct (Rltb a b) eqn:E, (Rle_dec a b) as [H|H]; try reflexivity.
  - apply Rltb_true in E. lra.
  - apply Rltb_false in E. lra.
Qed.
Lemma nmin2_R a b : @nmin2 R _ a b = Rmin a b.
Proof.
  unfold nmin2. cbn [nisnan nltb RNum]. unfold Rmin.
  destruct (Rltb b a) eqn:E, (Rle_dec a b) as [H|H]; try reflexivity.
  - apply Rltb_true in E. lra.
  - apply Rltb_false in E. lra.
Qed.

Lemma calc_tierms_spec x m : (1 <= m < len x)%nat ->
  calc_tierms x m = Ok (sqrt (tierms_var x m), 0, tie_n x m).
Proof.
  intros Hm. pose proof (list_tab x 0) as Hx. set (N := len x) in *. set (f := fun i => x.[i]) in *.
  transitivity (calc_tierms (tab N f) m); [now rewrite <- Hx|].
  unfold calc_tierms. cbv zeta. rewrite tab_length, firstn_tab, skipn_tab, !tab_length.
  rewrite Nat.min_l by lia. rewrite Nat.eqb_refl. cbn [negb].
  rewrite !map2_tab. unfold vsub. rewrite bmap2_tab. cbn [bind].
  unfold mean. rewrite map_tab, tab_length, asum_tab, ofN_INR. rn.
  unfold tierms_var, tie_n. fold N.
  assert (Hs : bigsum (N - m) (fun i => nsq (nmax2 (f i) (f (m + i)%nat) - nmin2 (f i) (f (m + i)%nat)))
     = bigsum (N - m) (fun i => (x.[i + m] - x.[i]) ^ 2)).
  { apply bigsum_ext. intros i Hi. rewrite nsq_R, nmax2_R, nmin2_R. unfold f.
    replace (m + i)%nat with (i + m)%nat by lia.
    unfold Rmax, Rmin. destruct (Rle_dec x.[i] x.[i + m]); ring. }
  rewrite Hs. f_equal. f_equal. f_equal.
  - f_equal. unfold Rdiv. apply Rmult_comm.
  - unfold Rdiv. apply Rmult_0_l.
Qed.

Lemma tierms_spec x rate taus ms : 0 < rate -> admissible (len x) rate taus ms ->
  tierms x rate "phase" taus =
  report rate ms (fun m => sqrt (tierms_var x m)) (fun _ => 0) (tie_n x).
Proof.
  intros Hr Ha. unfold tierms. rewrite input_phase. cbn [bind].
  change (ofZ (-1)) with (IZR (-1)).
  rewrite (tau_generator_default x rate taus ms) by (auto; lra). cbn [bind].
  apply run_rows_report. intros m Hm.
  destruct Ha as (_ & _ & Hin). apply Hin in Hm as (Hb & _ & _).
  rewrite calc_tierms_spec by lia.
  eexists _, _, _. split; [reflexivity|]. intros _. repeat split.
Qed.

(** ** mtie *)
Definition lmax (l : list R) : R := fold_left Rmax (tl l) (hd 0 l).
Definition lmin (l : list R) : R := fold_left Rmin (tl l) (hd 0 l).

Lemma npmax_R l : l <> [] -> npmax l = Ok (lmax l).
Proof.
  destruct l as [|a t]; [contradiction|]. intros _. unfold npmax, lmax. cbn [tl hd]. f_equal.
  revert a. induction t as [|b t IH]; intros a; [reflexivity|]. cbn [fold_left]. rewrite nmax2_R. apply IH.
Qed.
Lemma npmin_R l : l <> [] -> npmin l = Ok (lmin l).
Proof.
  destruct l as [|a t]; [contradiction|]. intros _. unfold npmin, lmin. cbn [tl hd]. f_equal.
  revert a. induction t as [|b t IH]; intros a; [reflexivity|]. cbn [fold_left]. rewrite nmin2_R. apply IH.
Qed.

Lemma fold_Rmax t : forall a, (fold_left Rmax t a = a \/ In (fold_left Rmax t a) t) /\
  a <= fold_left Rmax t a /\ forall y, In y t -> y <= fold_left Rmax t a.
Proof.
  induction t as [|b t IH]; intros a; [cbn; intuition lra|]. cbn [fold_left].
  destruct (IH (Rmax a b)) as (H1 & H2 & H3).
  pose proof (Rmax_l a b). pose proof (Rmax_r a b).
  split; [|split; [lra|]].
  - destruct H1 as [H1|H1]; [|right; right; exact H1]. rewrite H1.
    unfold Rmax. destruct (Rle_dec a b); [right; left; reflexivity|left; reflexivity].
  - intros y [ <- | Hy ]; [lra|auto].
Qed.
Lemma fold_Rmin t : forall a, (fold_left Rmin t a = a \/ In (fold_left Rmin t a) t) /\
  fold_left Rmin t a <= a /\ forall y, In y t -> fold_left Rmin t a <= y.
Proof.
  induction t as [|b t IH]; intros a; [cbn; intuition lra|]. cbn [fold_left].
  destruct (IH (Rmin a b)) as (H1 & H2 & H3).
  pose proof (Rmin_l a b). pose proof (Rmin_r a b).
  split; [|split; [lra|]].
  - destruct H1 as [H1|H1]; [|right; right; exact H1]. rewrite H1.
    unfold Rmin. destruct (Rle_dec a b); [left; reflexivity|right; left; reflexivity].
  - intros y [ <- | Hy ]; [lra|auto].
Qed.

Lemma lmax_spec l : l <> [] -> In (lmax l) l /\ forall y, In y l -> y <= lmax l.
Proof.
  destruct l as [|a t]; [contradiction|]. intros _. unfold lmax. cbn [tl hd].
  destruct (fold_Rmax t a) as (H1 & H2 & H3). split.
  - destruct H1 as [H1|H1]; [left; now symmetry|right; exact H1].
  - intros y [ <- | Hy ]; [exact H2|auto].
Qed.
Lemma lmin_spec l : l <> [] -> In (lmin l) l /\ forall y, In y l -> lmin l <= y.
Proof.
  destruct l as [|a t]; [contradiction|]. intros _. unfold lmin. cbn [tl hd].
  destruct (fold_Rmin t a) as (H1 & H2 & H3). split.
  - destruct H1 as [H1|H1]; [left; now symmetry|right; exact H1].
  - intros y [ <- | Hy ]; [exact H2|auto].
Qed.

Lemma tab_nonnil {A} n (f : nat -> A) : (1 <= n)%nat -> tab n f <> [].
Proof. destruct n; [lia|]. rewrite tab_S. discriminate. Qed.
Lemma in_tab {A} n (f : nat -> A) y : In y (tab n f) <-> exists i, (i < n)%nat /\ y = f i.
Proof.
  unfold tab. rewrite in_map_iff. split.
  - intros (i & <- & Hi). apply in_seq in Hi. exists i. split; [lia|reflexivity].
  - intros (i & Hi & ->). exists i. split; [reflexivity|]. apply in_seq. lia.
Qed.

Definition mtie_val (x : list R) (m : nat) : R :=
  lmax (tab (len x - m) (fun i => lmax (tab (m + 1) (fun k => x.[i + k]))
                                - lmin (tab (m + 1) (fun k => x.[i + k])))).

Lemma mtie_try_spec x m : (1 <= m < len x)%nat -> mtie_try x m = Ok (mtie_val x m).
Proof.
  intros Hm. pose proof (list_tab x 0) as Hx. set (N := len x) in *. set (f := fun i => x.[i]) in *.
  transitivity (mtie_try (tab N f) m); [now rewrite <- Hx|].
  unfold mtie_try, mtie_rolling_window. rewrite tab_length.
  destruct (Nat.ltb_spec (m + 1) 1); [lia|]. destruct (Nat.ltb_spec N (m + 1)); [lia|]. cbn [bind].
  replace (N - (m + 1) + 1)%nat with (N - m)%nat by lia.
  assert (Hw : map (fun i => pyslice i (i + (m + 1)) (tab N f)) (seq 0 (N - m)) =
               tab (N - m) (fun i => tab (m + 1) (fun k => f (i + k)%nat))).
  { apply tab_ext. intros i Hi. rewrite pyslice_tab. f_equal. lia. }
  rewrite Hw.
  rewrite (mapM_Ok npmax lmax).
  2:{ intros l Hl. apply in_tab in Hl as (i & Hi & ->). apply npmax_R. apply tab_nonnil. lia. }
  cbn [bind]. rewrite (mapM_Ok npmin lmin).
  2:{ intros l Hl. apply in_tab in Hl as (i & Hi & ->). apply npmin_R. apply tab_nonnil. lia. }
  cbn [bind]. rewrite !map_tab. unfold vsub. rewrite bmap2_tab. cbn [bind].
  rewrite npmax_R by (apply tab_nonnil; lia). reflexivity.
Qed.

Lemma mtie_val_is x m : (1 <= m < len x)%nat -> is_mtie x m (mtie_val x m).
Proof.
  intros Hm. unfold mtie_val. set (N := len x) in *.
  set (win := fun i => tab (m + 1) (fun k => x.[i + k])).
  destruct (lmax_spec (tab (N - m) (fun i => lmax (win i) - lmin (win i)))) as [Hin Hub].
  { apply tab_nonnil. lia. }
  assert (Hwin : forall i, win i <> []) by (intros; apply tab_nonnil; lia).
  split.
  - intros j k Hj Hk Hjk Hkj.
    set (i := Nat.min (Nat.min j k) (N - m - 1)).
    apply Rle_trans with (lmax (win i) - lmin (win i)).
    + destruct (lmax_spec (win i) (Hwin i)) as [_ Hmx]. destruct (lmin_spec (win i) (Hwin i)) as [_ Hmn].
      assert (x.[j] <= lmax (win i)).
      { apply Hmx. apply in_tab. exists (j - i)%nat. split; [lia|f_equal; lia]. }
      assert (lmin (win i) <= x.[k]).
      { apply Hmn. apply in_tab. exists (k - i)%nat. split; [lia|f_equal; lia]. }
      lra.
    + apply Hub. apply in_tab. exists i. split; [lia|reflexivity].
  - apply in_tab in Hin as (i & Hi & Heq).
    destruct (lmax_spec (win i) (Hwin i)) as [Hmx _]. destruct (lmin_spec (win i) (Hwin i)) as [Hmn _].
    apply in_tab in Hmx as (a & Ha & Ea). apply in_tab in Hmn as (b & Hb & Eb).
    exists (i + a)%nat, (i + b)%nat. repeat split; try (fold N; lia).
    rewrite <- Ea, <- Eb. symmetry. exact Heq.
Qed.

Lemma is_mtie_unique x m d d' : is_mtie x m d -> is_mtie x m d' -> d = d'.
Proof.
  intros [U (j & k & Hj & Hk & H1 & H2 & E)] [U' (j' & k' & Hj' & Hk' & H1' & H2' & E')].
  pose proof (U j' k' Hj' Hk' H1' H2'). pose proof (U' j k Hj Hk H1 H2). lra.
Qed.

Lemma calc_mtie_spec x m : (1 <= m < len x)%nat ->
  calc_mtie x m = Ok (mtie_val x m, mtie_val x m / sqrt (IZR (tie_n x m)), tie_n x m).
Proof.
  intros Hm. unfold calc_mtie. rewrite mtie_try_spec by exact Hm. reflexivity.
Qed.

Lemma mtie_spec x rate taus ms : 0 < rate -> admissible (len x) rate taus ms ->
  forall dev, (forall m, In m ms -> is_mtie x m (dev m)) ->
  mtie x rate "phase" taus = report rate ms dev (plain_err dev (tie_n x)) (tie_n x).
Proof.
  intros Hr Ha dev Hdev. unfold mtie. rewrite input_phase. cbn [bind].
  change (ofZ (-1)) with (IZR (-1)).
  rewrite (tau_generator_default x rate taus ms) by (auto; lra). cbn [bind].
  apply run_rows_report. intros m Hm. pose proof (Hdev m Hm) as Hd.
  destruct Ha as (_ & _ & Hin). apply Hin in Hm as (Hb & _ & _).
  rewrite calc_mtie_spec by lia.
  assert (E : mtie_val x m = dev m) by (eapply is_mtie_unique; [apply mtie_val_is; lia|exact Hd]).
  eexists _, _, _. split; [reflexivity|]. intros _. unfold plain_err. rewrite E. repeat split.
Qed.

Lemma is_mtie_exists x m : (1 <= m < len x)%nat -> exists d, is_mtie x m d.
Proof. intros H. exists (mtie_val x m). now apply mtie_val_is. Qed.
