(** * Facts about tau_generator and the row layout, in the form of the property list. *)
From Coq Require Import String Reals List ZArith Lra Lia Arith Bool Sorted.
From Verif Require Import Base Num NpList ModelCore ModelDev NumR ListFacts Spec RSum TauProofs DevProofs TotProofs GenericProofs Closed Laws Laws2 Laws3.
Import ListNotations.
Local Open Scope R_scope.
Local Notation len := List.length.

Lemma tau_explicit (x : list R) rate taus l even mx : rate <> 0 ->
  (taus = TArr l \/ (taus = TList l /\ l <> [])) ->
  exists ms, tau_generator x rate taus even mx = Ok (x, ms, map (fun m => IZR m / rate) ms) /\
    StronglySorted Z.lt ms /\
    forall m, In m ms <-> (exists t, In t l /\ half_even (t * rate) m) /\
      (0 < m < Z.of_nat (len x))%Z /\ (mx = -1 \/ IZR m <= mx) /\ (even = true -> Z.even m = true).
Proof.
  intros Hr Ht. assert (He : expand_taus (len x) rate taus = Ok l).
  { destruct Ht as [->|[-> Hl]]; [reflexivity|]. destruct l; [contradiction|reflexivity]. }
  unfold tau_generator. rn. rewrite (proj2 (Reqb_false rate 0) Hr), He. cbn [bind].
  eexists. split; [reflexivity|]. split.
  - destruct even; [apply filter_StronglySorted|]; apply unique_sorted.
  - intros m.
    assert (Hb : IZR m <= (if Reqb mx (-1) then @ofN R _ (len x) else mx) /\ (m < Z.of_nat (len x))%Z <->
                 (mx = -1 \/ IZR m <= mx) /\ (m < Z.of_nat (len x))%Z).
    { destruct (Reqb mx (-1)) eqn:E.
      - apply Reqb_true in E. rewrite ofN_INR, INR_IZR_INZ. split; intros [H1 H2]; split; auto.
        apply IZR_le. lia.
      - apply Reqb_false in E. tauto. }
    assert (Hs : In m (if even then filter Z.even (select_m (len x) rate (if Reqb mx (-1) then ofN (len x) else mx) l)
                 else select_m (len x) rate (if Reqb mx (-1) then ofN (len x) else mx) l) <->
                 In m (select_m (len x) rate (if Reqb mx (-1) then ofN (len x) else mx) l) /\ (even = true -> Z.even m = true)).
    { destruct even; [rewrite filter_In; tauto|]. intuition discriminate. }
    rewrite Hs, select_m_In. tauto.
Qed.

Lemma admissible_sorted_unique (P : nat -> Prop) ms ms' :
  StronglySorted lt ms -> StronglySorted lt ms' -> (forall m, In m ms <-> P m) -> (forall m, In m ms' <-> P m) -> ms = ms'.
Proof.
  intros Hs Hs' Hi Hi'. apply (sorted_ext lt); auto.
  - intros x; lia.
  - intros x y z; lia.
  - intros m. rewrite Hi, Hi'. reflexivity.
Qed.

Lemma seq_sorted a n : StronglySorted lt (seq a n).
Proof.
  revert a. induction n as [|n IH]; intros a; cbn; constructor; auto.
  apply Forall_forall. intros b Hb. apply in_seq in Hb. lia.
Qed.

Lemma tau_all (x : list R) rate : rate <> 0 ->
  tau_generator x rate (TStr "all") false (-1) =
  Ok (x, map Z.of_nat (seq 1 (len x - 1)), map (fun m => INR m / rate) (seq 1 (len x - 1))).
Proof.
  intros Hr. apply tau_generator_default; [exact Hr|].
  split; [cbn; unfold keyword; tauto|]. split; [apply seq_sorted|].
  intros m. rewrite in_seq. cbn. split; intros; intuition lia.
Qed.

Lemma tau_keyword (x : list R) rate taus : rate <> 0 -> valid_request (len x) taus ->
  exists ms, StronglySorted lt ms /\
    tau_generator x rate taus false (-1) = Ok (x, map Z.of_nat ms, map (fun m => INR m / rate) ms) /\
    forall m, In m ms <-> (1 <= m < len x)%nat /\ requested (len x) rate taus m.
Proof.
  intros Hr Hv. destruct (admissible_exists (fun _ => true) (len x) rate taus Hr Hv) as [ms Hms].
  apply (adm_any (len x)) in Hms. exists ms. split; [apply Hms|]. split; [now apply tau_generator_default|].
  intros m. destruct Hms as (_ & _ & H). rewrite H. tauto.
Qed.

Lemma tau_octave (x : list R) rate taus : rate <> 0 -> (1 <= len x)%nat ->
  taus = TStr "octave" \/ taus = TNone \/ taus = TList [] ->
  exists ms, StronglySorted lt ms /\
    tau_generator x rate taus false (-1) = Ok (x, map Z.of_nat ms, map (fun m => INR m / rate) ms) /\
    forall m, In m ms <-> (m < len x)%nat /\ exists k, m = (2 ^ k)%nat.
Proof.
  intros Hr Hx Ht.
  assert (Hv : valid_request (len x) taus).
  { destruct Ht as [->|[->| ->]]; cbn; auto. unfold keyword. tauto. }
  destruct (tau_keyword x rate taus Hr Hv) as (ms & Hs & He & Hi). exists ms. split; [exact Hs|]. split; [exact He|].
  intros m. rewrite Hi. assert (requested (len x) rate taus m <-> exists k, m = (2 ^ k)%nat) as ->
    by (destruct Ht as [->|[->| ->]]; cbn; reflexivity).
  split; [intros [H1 H2]; split; [lia|exact H2]|].
  intros [H1 [k ->]]. split; [|eauto]. split; [|exact H1].
  pose proof (Nat.pow_nonzero 2 k). lia.
Qed.

Lemma tau_decade (x : list R) rate : rate <> 0 -> (1 <= len x)%nat ->
  exists ms, StronglySorted lt ms /\
    tau_generator x rate (TStr "decade") false (-1) = Ok (x, map Z.of_nat ms, map (fun m => INR m / rate) ms) /\
    forall m, In m ms <-> (m < len x)%nat /\ exists c k, In c [1; 2; 4]%nat /\ m = (c * 10 ^ k)%nat.
Proof.
  intros Hr Hx.
  assert (Hv : valid_request (len x) (TStr "decade")) by (cbn; unfold keyword; tauto).
  destruct (tau_keyword x rate _ Hr Hv) as (ms & Hs & He & Hi). exists ms. split; [exact Hs|]. split; [exact He|].
  intros m. rewrite Hi. cbn [requested String.eqb Ascii.eqb Bool.eqb].
  assert (Hp : forall k, (10 ^ k <> 0)%nat) by (intros; apply Nat.pow_nonzero; lia).
  split.
  - intros [H1 [k H2]]. split; [lia|].
    destruct H2 as [->|[->| ->]]; [exists 1%nat|exists 2%nat|exists 4%nat]; exists k; cbn [In]; split; auto; lia.
  - intros [H1 (c & k & Hc & ->)]. specialize (Hp k). cbn [In] in Hc.
    split; [lia|]. exists k. lia.
Qed.

Lemma tau_log10 (x : list R) rate : rate <> 0 -> (2 <= len x)%nat ->
  exists ms, StronglySorted lt (1%nat :: ms) /\ (forall m, In m ms -> (m < len x)%nat) /\
    tau_generator x rate (TStr "log10") false (-1) =
    Ok (x, map Z.of_nat (1%nat :: ms), map (fun m => INR m / rate) (1%nat :: ms)).
Proof.
  intros Hr Hx.
  assert (Hv : valid_request (len x) (TStr "log10")) by (cbn; unfold keyword; split; [tauto|right; lia]).
  destruct (tau_keyword x rate _ Hr Hv) as (ms & Hs & He & Hi).
  assert (H1 : In 1%nat ms).
  { apply Hi. split; [lia|]. cbn [requested String.eqb Ascii.eqb Bool.eqb].
    set (L := ln (INR (len x)) / ln 10).
    assert (Hl10 : 0 < ln 10) by (rewrite <- ln_1; apply ln_increasing; lra).
    assert (HL : 1 <= 10 * L).
    { unfold L. apply (Rmult_le_reg_r (ln 10)); [exact Hl10|].
      replace (10 * (ln (INR (len x)) / ln 10) * ln 10) with (10 * ln (INR (len x))) by (field; lra).
      assert (H2 : ln 2 <= ln (INR (len x))).
      { assert (H2 : 2 <= INR (len x)) by (change 2 with (INR 2); apply le_INR; exact Hx).
        destruct (Req_dec 2 (INR (len x))) as [<-|]; [lra|]. left. apply ln_increasing; lra. }
      assert (H3 : ln 10 <= ln 1024) by (left; apply ln_increasing; lra).
      replace 1024 with (2 ^ 10) in H3 by ring. rewrite ln_pow in H3 by lra.
      change (INR 10) with (IZR (Z.of_nat 10)) in H3 || rewrite INR_IZR_INZ in H3. cbn in H3. lra. }
    pose proof (truncR_nat (10 * L) ltac:(lra)) as HP.
    exists (Z.to_nat (truncR (10 * L))), 0%nat. split; [exact HP|]. split.
    - destruct (Z.to_nat (truncR (10 * L))) eqn:E; [|lia]. cbn in HP. lra.
    - cbn [INR]. rewrite Rmult_0_l. rewrite Rpower_O by lra. apply (half_even_IZR 1). }
  destruct ms as [|a ms]; [destruct H1|].
  assert (a = 1%nat).
  { destruct H1 as [H1|H1]; [exact H1|]. inversion Hs as [|? ? _ Hf]; subst.
    rewrite Forall_forall in Hf. specialize (Hf _ H1).
    pose proof (proj1 (Hi a) (or_introl eq_refl)). lia. }
  subst a. exists ms. split; [exact Hs|]. split; [|exact He].
  intros m Hm. assert (Hm' : In m (1%nat :: ms)) by now right. apply Hi in Hm'. lia.
Qed.

Definition is_keyword_request (taus : taus_arg R) : Prop :=
  taus = TNone \/ taus = TList [] \/ exists s, taus = TStr s /\ keyword s.

Lemma requested_rate N rate rate' taus m : is_keyword_request taus ->
  requested N rate taus m <-> requested N rate' taus m.
Proof. intros [->|[->|(s & -> & _)]]; reflexivity. Qed.

Lemma tau_keyword_rate (x : list R) rate rate' taus : rate <> 0 -> rate' <> 0 -> is_keyword_request taus ->
  valid_request (len x) taus ->
  exists ms, tau_generator x rate taus false (-1) = Ok (x, ms, map (fun m => IZR m / rate) ms) /\
             tau_generator x rate' taus false (-1) = Ok (x, ms, map (fun m => IZR m / rate') ms).
Proof.
  intros Hr Hr' Hk Hv.
  destruct (tau_keyword x rate taus Hr Hv) as (ms & Hs & He & Hi).
  destruct (tau_keyword x rate' taus Hr' Hv) as (ms' & Hs' & He' & Hi').
  assert (ms' = ms).
  { apply (admissible_sorted_unique (fun m => In m ms)); auto; try reflexivity.
    intros m. rewrite Hi, Hi', (requested_rate _ rate rate') by assumption. reflexivity. }
  subst ms'. exists (map Z.of_nat ms). rewrite He, He', !map_map. split; f_equal; f_equal; apply map_ext; intros; now rewrite ofN_R.
Qed.

Lemma tau_idempotent (x : list R) rate taus even mx ms t : rate <> 0 ->
  tau_generator x rate taus even mx = Ok (x, ms, t) ->
  tau_generator x rate (TArr t) even mx = Ok (x, ms, t) /\
  (t <> [] -> tau_generator x rate (TList t) even mx = Ok (x, ms, t)).
Proof.
  intros Hr H. pose proof H as Hg. unfold tau_generator in H. revert H. rn.
  rewrite (proj2 (Reqb_false rate 0) Hr). destruct (expand_taus (len x) rate taus) as [ts|]; cbn [bind]; [|discriminate].
  intros H. injection H as Hm Ht.
  assert (Hsm : forall z, In z ms <-> (exists u, In u ts /\ half_even (u * rate) z) /\ (0 < z < Z.of_nat (len x))%Z /\
      IZR z <= (if Reqb mx (-1) then @ofN R _ (len x) else mx) /\ (even = true -> Z.even z = true)).
  { intros z. rewrite <- Hm. destruct even; [rewrite filter_In|]; rewrite select_m_In; intuition discriminate. }
  assert (Hss : StronglySorted Z.lt ms).
  { rewrite <- Hm. destruct even; [apply filter_StronglySorted|]; apply unique_sorted. }
  assert (Ht' : t = map (fun m => IZR m / rate) ms) by (rewrite <- Ht, <- Hm; reflexivity).
  clear Hm Ht Hg.
  assert (G : forall taus', expand_taus (len x) rate taus' = Ok t -> tau_generator x rate taus' even mx = Ok (x, ms, t)).
  { intros taus' He. unfold tau_generator. rn. rewrite (proj2 (Reqb_false rate 0) Hr), He. cbn [bind].
    match goal with |- Ok (x, ?m, _) = _ => assert (Hm : m = ms) end.
    { apply sortedZ_unique; auto.
      - destruct even; [apply filter_StronglySorted|]; apply unique_sorted.
      - intros z. transitivity (In z (select_m (len x) rate (if Reqb mx (-1) then ofN (len x) else mx) t) /\ (even = true -> Z.even z = true)).
        { destruct even; [rewrite filter_In|]; intuition discriminate. }
        rewrite select_m_In. split.
        + intros (((u & Hu & Hz) & Hb & Hx) & Hev). rewrite Ht' in Hu. apply in_map_iff in Hu as (m & <- & Hm).
          replace (IZR m / rate * rate) with (IZR m) in Hz by (field; exact Hr).
          rewrite (half_even_unique _ _ _ Hz (half_even_IZR m)). exact Hm.
        + intros Hz. pose proof (proj1 (Hsm z) Hz) as (_ & Hb & Hx & Hev). split; [|exact Hev].
          split; [|split; assumption]. exists (IZR z / rate). split.
          * rewrite Ht'. apply in_map_iff. exists z. auto.
          * replace (IZR z / rate * rate) with (IZR z) by (field; exact Hr). apply half_even_IZR. }
    rewrite Hm. f_equal. f_equal. now rewrite Ht'. }
  split; [now apply G|]. intros Hn. apply G. destruct t; [contradiction|reflexivity].
Qed.

(** ** no usable averaging factor *)
Lemma devs_unusable f (x : list R) rate taus l : In f all_devs -> 0 < rate -> (2 <= len x)%nat ->
  (taus = TArr l \/ (taus = TList l /\ l <> [])) ->
  (forall t m, In t l -> half_even (t * rate) m -> (m <= 0 \/ Z.of_nat (len x) <= m)%Z) ->
  f x rate "phase"%string taus = Err UserWarning.
Proof.
  intros Hf Hr Hl Ht H. apply devs_none; auto.
  - rn. apply Reqb_false. lra.
  - intros y even mx Hy. destruct (tau_explicit y rate taus l even mx ltac:(lra) Ht) as (ms & He & _ & Hi).
    assert (Hly : (len y <= len x)%nat).
    { destruct Hy as [->| ->]; [lia|]. rewrite phase2frequency_len. lia. }
    destruct ms as [|m ms]; [exists []; rewrite He; reflexivity|].
    exfalso. pose proof (proj1 (Hi m) (or_introl eq_refl)) as ((t & Htl & Hh) & Hb & _).
    specialize (H t m Htl Hh). lia.
Qed.

(** ** which rows are reported *)
Lemma stat_taus s (x : list R) rate taus t d e n : In s stats -> 0 < rate ->
  s_fun s x rate "phase" taus = Ok (t, d, e, n) ->
  forall v, In v t <-> exists m, v = INR m / rate /\ (1 <= m < s_base s (len x))%nat /\
    s_ok s (len x) m = true /\ requested (s_base s (len x)) rate taus m /\ (1 < s_cnt s (len x) m)%Z.
Proof.
  intros Hs Hr H v. destruct (stat_ok s x rate taus t d e n Hs Hr H) as (ms & good & Hms & -> & _ & -> & _).
  rewrite in_map_iff. destruct Hms as (_ & _ & Hi). split.
  - intros (m & <- & Hm). apply filter_In in Hm as [Hm Hc]. apply Hi in Hm as (Hb & Hok & Hq).
    exists m. apply Z.ltb_lt in Hc. auto.
  - intros (m & -> & Hb & Hok & Hq & Hc). exists m. split; [reflexivity|]. apply filter_In. split.
    + apply Hi. auto.
    + now apply Z.ltb_lt.
Qed.

Lemma theo1_rows (x : list R) rate taus t d e n : 0 < rate -> theo1 x rate "phase" taus = Ok (t, d, e, n) ->
  forall v, In v t <-> exists m, v = INR m / rate /\ (1 <= m < len x)%nat /\ Nat.even m = true /\
    requested (len x) rate taus m /\ (1 < (Z.of_nat (len x) - Z.of_nat m) * Z.of_nat (Nat.div2 m))%Z.
Proof. intros Hr H. apply (stat_taus st_theo1 x rate taus t d e n); auto. unfold stats; cbn; tauto. Qed.

Lemma third_rows s (x : list R) rate taus t d e n : s = st_mtotdev \/ s = st_ttotdev -> 0 < rate ->
  s_fun s x rate "phase" taus = Ok (t, d, e, n) ->
  forall v, In v t <-> exists m, v = INR m / rate /\ (1 <= m)%nat /\ (3 * m + 1 <= len x)%nat /\ requested (len x) rate taus m.
Proof.
  intros Hs Hr H v. rewrite (stat_taus s x rate taus t d e n) by (auto; destruct Hs as [->| ->]; unfold stats; cbn; tauto).
  destruct Hs as [->| ->]; cbn [s_base s_ok s_cnt st_mtotdev st_ttotdev]; unfold idn, third, c_mdev;
  (split; [intros (m & -> & Hb & H3 & Hq & Hc)|intros (m & -> & Hb & H3 & Hq)]; exists m; rewrite Nat.leb_le in *;
   repeat split; auto; lia).
Qed.

Lemma htot_rows_iff (x : list R) rate taus t d e n : 0 < rate ->
  htotdev x rate "phase" taus = Ok (t, d, e, n) ->
  forall v, In v t <-> exists m, v = INR m / rate /\ (1 <= m)%nat /\ (3 * m + 2 <= len x)%nat /\ requested (len x - 1) rate taus m.
Proof.
  intros Hr H v. rewrite (stat_taus st_htotdev x rate taus t d e n) by (auto; unfold stats; cbn; tauto).
  cbn [s_base s_ok s_cnt st_htotdev]; unfold third, c_htot.
  split; [intros (m & -> & Hb & H3 & Hq & Hc)|intros (m & -> & Hb & H3 & Hq)]; exists m; rewrite Nat.leb_le in *;
   repeat split; auto; try lia.
  - destruct (Nat.eqb_spec m 1); lia.
  - destruct (Nat.eqb_spec m 1); lia.
Qed.

Lemma stat_rows_plain f (x : list R) rate taus t d e n :
  In f [adev; oadev; hdev; ohdev; mdev; tdev; pdev; totdev; mtotdev; ttotdev; htotdev; mtie] -> 0 < rate ->
  f x rate "phase"%string taus = Ok (t, d, e, n) ->
  (forall v, In v t -> exists m, v = INR m / rate /\ (1 <= m < len x)%nat /\
     (requested (len x) rate taus m \/ requested (len x - 1) rate taus m)) /\
  exists k, e = EArr k /\ k = map2 (fun dv nv => dv / sqrt (IZR nv)) d n.
Proof.
  intros Hf Hr H.
  change (In f (map s_fun [st_adev; st_oadev; st_hdev; st_ohdev; st_mdev; st_tdev; st_pdev; st_totdev; st_mtotdev;
   st_ttotdev; st_htotdev; st_mtie])) in Hf.
  apply in_map_iff in Hf as (s & <- & Hf).
  assert (Hs : In s stats) by (revert Hf; unfold stats; cbn; tauto).
  assert (Hw : forall N m, s_w s N m = / sqrt (IZR (s_cnt s N m))).
  { repeat (destruct Hf as [<-|Hf]; [intros; reflexivity|]). destruct Hf. }
  assert (Hb : forall N, s_base s N = N \/ s_base s N = (N - 1)%nat).
  { intros N. repeat (destruct Hf as [<-|Hf]; [cbn; auto|]). destruct Hf. }
  split.
  - intros v Hv. apply (stat_taus s x rate taus t d e n Hs Hr H) in Hv as (m & -> & Hm & _ & Hq & _).
    exists m. split; [reflexivity|]. destruct (Hb (len x)) as [E|E]; rewrite E in *; split; auto; lia.
  - destruct (stat_ok s x rate taus t d e n Hs Hr H) as (ms & good & _ & _ & _ & _ & -> & -> & ->).
    eexists. split; [reflexivity|]. clear -Hw. induction good as [|m g IH]; cbn; [reflexivity|].
    rewrite IH, Hw. reflexivity.
Qed.
