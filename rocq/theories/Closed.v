(** * One uniform description of all deviation functions on the reals:
    closed forms packed in a table, used to derive the laws (Laws.v). *)
From Coq Require Import String Reals List ZArith Lra Lia Arith Bool Sorted.
From Verif Require Import Base Num NpList ModelCore ModelDev NumR ListFacts Spec RSum TauProofs DevProofs TotProofs.
Import ListNotations.
Local Open Scope R_scope.
Local Notation len := List.length.

(** An estimator: the function, which averaging factors it evaluates on N
    points, variance, error weight, number of terms. *)
Record stat := Stat {
  s_fun : list R -> R -> string -> taus_arg R -> res (@result R);
  s_ok : nat -> nat -> bool;           (* N, m *)
  s_base : nat -> nat;                 (* number of points bounding m *)
  s_var : list R -> R -> nat -> R;     (* x, rate, m *)
  s_w : nat -> nat -> R;               (* err = dev * w N m *)
  s_cnt : nat -> nat -> Z;             (* n, from N and m *)
  s_exn : nat -> taus_arg R -> option exn   (* the exception, if any *)
}.

Definition keywordb (s : string) : bool :=
  (String.eqb s "all" || String.eqb s "octave" || String.eqb s "decade" || String.eqb s "log10")%bool.

Definition bad_exn (N : nat) (taus : taus_arg R) : option exn :=
  match taus with
  | TNone => if Nat.eqb N 0 then Some OverflowError else None
  | TList [] => if Nat.eqb N 0 then Some OverflowError else None
  | TList _ => None
  | TArr _ => None
  | TStr s => if negb (keywordb s) then Some TypeError
              else if String.eqb s "all" then None
              else if Nat.eqb N 0 then Some OverflowError else None
  end.

Lemma keywordb_iff s : keywordb s = true <-> keyword s.
Proof.
  unfold keywordb, keyword. rewrite !orb_true_iff, !String.eqb_eq. tauto.
Qed.

Lemma bad_exn_valid N taus : bad_exn N taus = None <-> valid_request N taus.
Proof.
  destruct taus as [|[|t l]|l|s]; cbn.
  - destruct (Nat.eqb_spec N 0); split; intros; try discriminate; try lia; reflexivity.
  - destruct (Nat.eqb_spec N 0); split; intros; try discriminate; try lia; reflexivity.
  - tauto.
  - tauto.
  - rewrite <- keywordb_iff. destruct (keywordb s); cbn [negb].
    2:{ split; [discriminate|intros [H _]; discriminate]. }
    destruct (String.eqb_spec s "all").
    + split; [auto|reflexivity].
    + destruct (Nat.eqb_spec N 0); split; intros; try discriminate; auto.
      * destruct H as [_ [H|H]]; [contradiction|lia].
      * split; [reflexivity|]. right. lia.
Qed.

Lemma tau_generator_bad x rate taus even mx e : rate <> 0 -> bad_exn (len x) taus = Some e ->
  tau_generator x rate taus even mx = Err e.
Proof.
  intros Hr He. unfold tau_generator. cbn [neqb ofZ RNum].
  destruct (Reqb rate 0) eqn:E0; [apply Reqb_true in E0; contradiction|].
  set (N := len x) in *. clearbody N.
  destruct taus as [|[|t l]|l|s]; cbn in *; try discriminate.
  - destruct N; cbn in *; [|discriminate]. now injection He as <-.
  - destruct N; cbn in *; [|discriminate]. now injection He as <-.
  - unfold keywordb in He.
    destruct (String.eqb_spec s "all") as [->|]; cbn in *; [discriminate|].
    destruct (String.eqb_spec s "octave") as [->|]; cbn in *.
    { destruct N; cbn in *; [|discriminate]. now injection He as <-. }
    destruct (String.eqb_spec s "log10") as [->|]; cbn in *.
    { destruct N; cbn in *; [|discriminate]. now injection He as <-. }
    destruct (String.eqb_spec s "decade") as [->|]; cbn in *.
    { destruct N; cbn in *; [|discriminate]. now injection He as <-. }
    now injection He as <-.
Qed.

(** The stated closed form. *)
Definition adm (s : stat) (N : nat) (rate : R) (taus : taus_arg R) (ms : list nat) : Prop :=
  admissible_if (fun m => s_ok s N m = true) (s_base s N) rate taus ms.

Definition s_dev (s : stat) x rate m := sqrt (s_var s x rate m).

Definition closed (s : stat) : Prop :=
  forall x rate taus, 0 < rate ->
  (forall e, s_exn s (len x) taus = Some e -> s_fun s x rate "phase" taus = Err e) /\
  (s_exn s (len x) taus = None ->
   valid_request (s_base s (len x)) taus /\
   forall ms, adm s (len x) rate taus ms ->
   s_fun s x rate "phase" taus =
   report rate ms (s_dev s x rate) (fun m => s_dev s x rate m * s_w s (len x) m) (s_cnt s (len x))).

Definition any (N m : nat) : bool := true.
Definition idn (N : nat) : nat := N.
Definition wplain (cnt : nat -> nat -> Z) (N m : nat) : R := / sqrt (IZR (cnt N m)).

Definition c_adev (N m : nat) : Z := Z.of_nat ((N - 1) / m - 1).
Definition c_oadev (N m : nat) : Z := Z.of_nat (N - 2 * m).
Definition c_hdev (N m : nat) : Z := Z.of_nat ((N - 1) / m - 2).
Definition c_ohdev (N m : nat) : Z := Z.of_nat (N - 3 * m).
Definition c_mdev (N m : nat) : Z := (Z.of_nat N - 3 * Z.of_nat m + 1)%Z.
Definition c_tot (N m : nat) : Z := Z.of_nat (N - 2).
Definition c_htot (N m : nat) : Z :=
  if Nat.eqb m 1 then Z.of_nat (N - 3) else (Z.of_nat (N - 1) - 3 * Z.of_nat m + 1)%Z.
Definition c_theo (N m : nat) : Z := ((Z.of_nat N - Z.of_nat m) * Z.of_nat (Nat.div2 m))%Z.
Definition c_tie (N m : nat) : Z := (Z.of_nat N - Z.of_nat m)%Z.

Definition tot_exn (N : nat) (taus : taus_arg R) : option exn :=
  match bad_exn N taus with
  | Some e => Some e
  | None => if Nat.eqb N 0 then Some IndexError else if Nat.eqb N 1 then Some ValueError else None
  end.
Definition htot_exn (N : nat) (taus : taus_arg R) : option exn := bad_exn (N - 1) taus.
Definition third (N m : nat) : bool := (3 * m <=? N)%nat.
Definition evenm (N m : nat) : bool := Nat.even m.

Definition htotvar (x : list R) (rate : R) (m : nat) : R :=
  if Nat.eqb m 1 then ohvar x (1 / rate) 1 else htotvar_freq (freq_of x rate) m.

Definition st_adev := Stat adev any idn (fun x rate => avar x (1 / rate)) (wplain c_adev) c_adev bad_exn.
Definition st_oadev := Stat oadev any idn (fun x rate => oavar x (1 / rate)) (wplain c_oadev) c_oadev bad_exn.
Definition st_hdev := Stat hdev any idn (fun x rate => hvar x (1 / rate)) (wplain c_hdev) c_hdev bad_exn.
Definition st_ohdev := Stat ohdev any idn (fun x rate => ohvar x (1 / rate)) (wplain c_ohdev) c_ohdev bad_exn.
Definition st_mdev := Stat mdev any idn (fun x rate => mvar x (1 / rate)) (wplain c_mdev) c_mdev bad_exn.
Definition st_tdev := Stat tdev any idn (fun x rate => tvar x (1 / rate)) (wplain c_mdev) c_mdev bad_exn.
Definition st_pdev := Stat pdev any idn (fun x rate => pvar x (1 / rate)) (wplain c_oadev) c_oadev bad_exn.
Definition st_totdev := Stat totdev any idn (fun x rate => totvar x (1 / rate)) (wplain c_tot) c_tot tot_exn.
Definition st_mtotdev := Stat mtotdev third idn (fun x rate => mtotvar x (1 / rate)) (wplain c_mdev) c_mdev bad_exn.
Definition st_ttotdev := Stat ttotdev third idn
  (fun x rate m => (INR m * (1 / rate)) ^ 2 / 3 * mtotvar x (1 / rate) m) (wplain c_mdev) c_mdev bad_exn.
Definition st_htotdev := Stat htotdev (fun N m => third (N - 1) m) (fun N => N - 1)%nat htotvar (wplain c_htot) c_htot htot_exn.
Definition st_theo1 := Stat theo1 evenm idn (fun x rate => theo1var x (1 / rate)) (wplain c_tie) c_theo bad_exn.
Definition st_tierms := Stat tierms any idn (fun x _ => tierms_var x) (fun _ _ => 0) c_tie bad_exn.
Definition st_mtie := Stat mtie any idn (fun x _ m => (mtie_val x m) ^ 2) (wplain c_tie) c_tie bad_exn.

Definition stats : list stat :=
  [st_adev; st_oadev; st_hdev; st_ohdev; st_mdev; st_tdev; st_pdev; st_totdev; st_mtotdev;
   st_ttotdev; st_htotdev; st_theo1; st_tierms; st_mtie].

Lemma report_ext rate ms d d' e e' c c' :
  (forall m, In m ms -> c m = c' m) ->
  (forall m, In m ms -> (1 < c m)%Z -> d m = d' m /\ e m = e' m) ->
  report rate ms d e c = report rate ms d' e' c'.
Proof.
  intros Hc Hd. unfold report.
  rewrite (filter_ext_in (fun m => (1 <? c m)%Z) (fun m => (1 <? c' m)%Z))
    by (intros m Hm; now rewrite Hc).
  assert (H : forall m, In m (filter (fun m => (1 <? c' m)%Z) ms) -> d m = d' m /\ e m = e' m /\ c m = c' m).
  { intros m Hm. apply filter_In in Hm as [Hm Hl]. apply Z.ltb_lt in Hl.
    rewrite <- Hc in Hl by exact Hm. destruct (Hd m Hm Hl). auto. }
  destruct (filter _ ms) as [|m0 g]; [reflexivity|].
  rewrite (map_ext_in d d') by (intros m Hm; apply (H m Hm)).
  rewrite (map_ext_in e e') by (intros m Hm; apply (H m Hm)).
  rewrite (map_ext_in c c') by (intros m Hm; apply (H m Hm)).
  reflexivity.
Qed.

Lemma bad_exn_N1 N taus e : bad_exn N taus = Some e -> e = TypeError \/ N = 0%nat.
Proof.
  destruct taus as [|[|t l]|l|s]; cbn; try discriminate.
  - destruct (Nat.eqb_spec N 0); [auto|discriminate].
  - destruct (Nat.eqb_spec N 0); [auto|discriminate].
  - destruct (negb (keywordb s)); [intros H; injection H as <-; auto|].
    destruct (String.eqb s "all"); [discriminate|].
    destruct (Nat.eqb_spec N 0); [auto|discriminate].
Qed.

Lemma tau_default_bad x rate taus e : 0 < rate -> bad_exn (len x) taus = Some e ->
  forall even mx, tau_generator x rate taus even mx = Err e.
Proof. intros Hr H even mx. apply tau_generator_bad; [lra|exact H]. Qed.

Lemma mtie_val_nonneg x m : (1 <= m < len x)%nat -> 0 <= mtie_val x m.
Proof.
  intros Hm. destruct (mtie_val_is x m Hm) as [H _].
  specialize (H 0%nat 0%nat). lra || (replace 0 with (x.[0] - x.[0]) by lra; apply H; lia).
Qed.

Lemma adm_any N rate taus ms : admissible_if (fun m => any N m = true) N rate taus ms ->
  admissible N rate taus ms.
Proof.
  intros (Hv & Hs & H). split; [exact Hv|]. split; [exact Hs|]. intros m. rewrite H. unfold any. tauto.
Qed.

Lemma adm_third N rate taus ms : admissible_if (fun m => third N m = true) N rate taus ms ->
  admissible_if (fun m => 3 * m <= N)%nat N rate taus ms.
Proof.
  intros (Hv & Hs & H). split; [exact Hv|]. split; [exact Hs|]. intros m. rewrite H. unfold third.
  rewrite Nat.leb_le. tauto.
Qed.

Ltac bad rate := match goal with He : bad_exn _ _ = Some ?e |- _ =>
  cbv delta [adev oadev hdev ohdev mdev tdev pdev totdev mtotdev ttotdev theo1 tierms mtie] beta;
  rewrite ?input_phase; cbn [bind];
  try (unfold mdev; rewrite input_phase; cbn [bind]);
  try (cbn [neqb ofZ RNum]; rewrite (proj2 (Reqb_false rate 0)) by lra);
  rewrite (tau_default_bad _ _ _ e) by assumption; reflexivity end.

Lemma stats_closed s : In s stats -> closed s.
Proof.
  intros Hs x rate taus Hr. unfold stats in Hs.
  repeat (destruct Hs as [<-|Hs]); [..|destruct Hs];
    cbn [s_fun s_ok s_base s_var s_w s_cnt s_exn st_adev st_oadev st_hdev st_ohdev st_mdev st_tdev
      st_pdev st_totdev st_mtotdev st_ttotdev st_htotdev st_theo1 st_tierms st_mtie] in *;
    (split; [intros e He; try (bad rate)|
             intros He; split; [try (apply bad_exn_valid; exact He)|intros ms Hms]]).
  - apply adm_any in Hms. rewrite (adev_spec x rate taus ms) by assumption.
    apply report_ext; intros; [reflexivity|split; reflexivity].
  - apply adm_any in Hms. rewrite (oadev_spec x rate taus ms) by assumption.
    apply report_ext; intros; [reflexivity|split; reflexivity].
  - apply adm_any in Hms. rewrite (hdev_spec x rate taus ms) by assumption.
    apply report_ext; intros; [reflexivity|split; reflexivity].
  - apply adm_any in Hms. rewrite (ohdev_spec x rate taus ms) by assumption.
    apply report_ext; intros; [reflexivity|split; reflexivity].
  - apply adm_any in Hms. rewrite (mdev_spec x rate taus ms) by assumption.
    apply report_ext; intros; [reflexivity|split; reflexivity].
  - apply adm_any in Hms. rewrite (tdev_spec x rate taus ms) by assumption.
    apply report_ext; intros; [reflexivity|split; reflexivity].
  - apply adm_any in Hms. rewrite (pdev_spec x rate taus ms) by assumption.
    apply report_ext; intros; [reflexivity|split; reflexivity].
  - unfold tot_exn in He. unfold totdev. rewrite input_phase. cbn [bind].
    destruct (bad_exn (len x) taus) as [e'|] eqn:Eb.
    + injection He as <-. now rewrite (tau_default_bad _ _ _ e') by assumption.
    + apply bad_exn_valid in Eb.
      destruct (admissible_exists (fun _ => true) (len x) rate taus ltac:(lra) Eb) as [ms Hms].
      apply (adm_any (len x)) in Hms.
      rn. rewrite (tau_generator_default x rate taus ms) by (auto; lra). cbn [bind].
      destruct x as [|a [|b t]]; cbn in He; try discriminate; injection He as <-; reflexivity.
  - unfold tot_exn in He. apply bad_exn_valid. unfold idn.
    destruct (bad_exn (len x) taus); [discriminate|reflexivity].
  - unfold tot_exn in He.
    destruct (bad_exn (len x) taus); [discriminate|].
    assert (2 <= len x)%nat by (destruct (len x) as [|[|n]]; cbn in He; try discriminate; lia).
    apply adm_any in Hms. rewrite (totdev_spec x rate taus ms) by assumption.
    apply report_ext; intros; [reflexivity|split; reflexivity].
  - apply adm_third in Hms. rewrite (mtotdev_spec x rate taus ms) by assumption.
    apply report_ext; intros; [reflexivity|split; reflexivity].
  - apply adm_third in Hms. rewrite (ttotdev_spec x rate taus ms) by assumption.
    apply report_ext; intros; [reflexivity|split; reflexivity].
  - unfold htot_exn in He. unfold htotdev. cbn [String.eqb Ascii.eqb Bool.eqb bind].
    rewrite phase2frequency_R, (tau_default_bad _ _ _ e) by (auto; now rewrite freq_of_length). reflexivity.
  - unfold htot_exn in He. apply (adm_third (len x - 1)) in Hms.
    rewrite (htotdev_spec x rate taus ms) by assumption.
    apply report_ext; intros m Hm; unfold htot_cnt, c_htot, htot_dev, s_dev, plain_err, wplain; cbn [s_var s_cnt].
    + destruct (Nat.eqb m 1); [unfold ohdev_n; now rewrite Nat.mul_1_r|].
      unfold mdev_n. now rewrite freq_of_length.
    + intros _. cbn [st_htotdev s_var]. unfold htotvar, c_htot, htot_cnt.
      destruct (Nat.eqb m 1); [|unfold mdev_n; rewrite freq_of_length; split; reflexivity].
      unfold ohdev_n. rewrite Nat.mul_1_r. split; reflexivity.
  - apply (theo1_spec x rate taus ms) in Hms; [|assumption]. rewrite Hms.
    apply report_ext; intros; [reflexivity|split; reflexivity].
  - apply adm_any in Hms. rewrite (tierms_spec x rate taus ms) by assumption.
    apply report_ext; intros; [reflexivity|split; [reflexivity|unfold s_dev; lra]].
  - pose proof Hms as (_ & _ & Hin). apply adm_any in Hms.
    rewrite (mtie_spec x rate taus ms Hr Hms (fun m => mtie_val x m)).
    2:{ intros m Hm. apply Hin in Hm as [Hm _]. now apply mtie_val_is. }
    apply report_ext; intros m Hm; [reflexivity|]. intros _.
    assert (Hd : s_dev st_mtie x rate m = mtie_val x m).
    { unfold s_dev. cbn [s_var st_mtie]. apply Hin in Hm as [Hm _].
      replace (mtie_val x m ^ 2) with (Rsqr (mtie_val x m)) by (unfold Rsqr; ring).
      apply sqrt_Rsqr. now apply mtie_val_nonneg. }
    unfold s_dev in *. cbn [s_var st_mtie] in *. rewrite Hd. split; reflexivity.
Qed.

(** Laws: same length, related variances => related results. *)
Lemma base_le s N : In s stats -> (s_base s N <= N)%nat.
Proof.
  intros Hs. unfold stats in Hs. repeat (destruct Hs as [<-|Hs]); [..|destruct Hs]; cbn; unfold idn; lia.
Qed.

Lemma law_case s (x : list R) rate taus : In s stats -> 0 < rate ->
  (exists e, s_exn s (len x) taus = Some e) \/
  (s_exn s (len x) taus = None /\ exists ms, adm s (len x) rate taus ms /\
     forall m, In m ms -> (1 <= m < len x)%nat /\ s_ok s (len x) m = true).
Proof.
  intros Hs Hr. destruct (s_exn s (len x) taus) as [e|] eqn:He; [left; eauto|right].
  split; [reflexivity|].
  destruct (proj2 (stats_closed s Hs x rate taus Hr) He) as [Hv _].
  destruct (admissible_exists (s_ok s (len x)) (s_base s (len x)) rate taus ltac:(lra) Hv) as [ms Hms].
  exists ms. split; [exact Hms|]. intros m Hm. destruct Hms as (_ & _ & H).
  apply H in Hm as (Hb & Hok & _). pose proof (base_le s (len x) Hs). split; [lia|exact Hok].
Qed.

(** (i) invariance *)
Lemma law_invariant s (x x' : list R) rate taus : In s stats -> 0 < rate -> len x' = len x ->
  (forall m, (1 <= m < len x)%nat -> s_ok s (len x) m = true -> (1 < s_cnt s (len x) m)%Z ->
     s_var s x' rate m = s_var s x rate m) ->
  s_fun s x' rate "phase" taus = s_fun s x rate "phase" taus.
Proof.
  intros Hs Hr Hl H.
  pose proof (stats_closed s Hs x rate taus Hr) as [Hb Hg].
  pose proof (stats_closed s Hs x' rate taus Hr) as [Hb' Hg']. rewrite Hl in *.
  destruct (law_case s x rate taus Hs Hr) as [[e He]|(He & ms & Hms & Hin)].
  - now rewrite (Hb e He), (Hb' e He).
  - rewrite (proj2 (Hg He) ms Hms), (proj2 (Hg' He) ms Hms).
    apply report_ext; [reflexivity|]. intros m Hm Hc. destruct (Hin m Hm).
    unfold s_dev. rewrite H by assumption. split; reflexivity.
Qed.

(** (ii) scaling of the deviations by a constant *)

Lemma report_scale k rate ms d e d' e' c c' :
  (forall m, In m ms -> c m = c' m) ->
  (forall m, In m ms -> (1 < c m)%Z -> d' m = k * d m /\ e' m = k * e m) ->
  report rate ms d' e' c' = scale_devs k (report rate ms d e c).
Proof.
  intros Hc Hd.
  rewrite (report_ext rate ms d' (fun m => k * d m) e' (fun m => k * e m) c' c).
  - unfold report. destruct (filter _ ms) as [|m0 g] eqn:E; [reflexivity|].
    unfold scale_devs. now rewrite !map_map.
  - intros; symmetry; auto.
  - intros m Hm Hl. rewrite <- Hc in Hl by assumption. auto.
Qed.

Lemma law_scale s (x x' : list R) k rate taus : In s stats -> 0 < rate -> len x' = len x -> 0 <= k ->
  (forall m, (1 <= m < len x)%nat -> s_ok s (len x) m = true -> (1 < s_cnt s (len x) m)%Z ->
     s_var s x' rate m = k ^ 2 * s_var s x rate m) ->
  s_fun s x' rate "phase" taus = scale_devs k (s_fun s x rate "phase" taus).
Proof.
  intros Hs Hr Hl Hk H.
  pose proof (stats_closed s Hs x rate taus Hr) as [Hb Hg].
  pose proof (stats_closed s Hs x' rate taus Hr) as [Hb' Hg']. rewrite Hl in *.
  destruct (law_case s x rate taus Hs Hr) as [[e He]|(He & ms & Hms & Hin)].
  - now rewrite (Hb e He), (Hb' e He).
  - rewrite (proj2 (Hg He) ms Hms), (proj2 (Hg' He) ms Hms).
    apply report_scale; [reflexivity|]. intros m Hm Hc. destruct (Hin m Hm).
    assert (Hd : s_dev s x' rate m = k * s_dev s x rate m).
    { unfold s_dev. rewrite H by assumption. rewrite sqrt_mult_alt by nra.
      replace (k ^ 2) with (Rsqr k) by (unfold Rsqr; ring). now rewrite sqrt_Rsqr. }
    rewrite Hd. split; ring.
Qed.

(** (iii) change of rate at fixed averaging factors *)


Lemma bad_exn_scale k N taus : bad_exn N (scale_taus k taus) = bad_exn N taus.
Proof. destruct taus as [|[|t l]|l|s]; reflexivity. Qed.

Lemma s_exn_scale s k N taus : In s stats -> s_exn s N (scale_taus k taus) = s_exn s N taus.
Proof.
  intros Hs. unfold stats in Hs. repeat (destruct Hs as [<-|Hs]); [..|destruct Hs]; cbn;
  unfold tot_exn, htot_exn; now rewrite bad_exn_scale.
Qed.

Lemma requested_scale k N rate taus m : 0 < k ->
  requested N (k * rate) (scale_taus k taus) m <-> requested N rate taus m.
Proof.
  intros Hk.
  assert (HL : forall l, (exists t, In t (map (fun t => t / k) l) /\ half_even (t * (k * rate)) (Z.of_nat m)) <->
                 exists t, In t l /\ half_even (t * rate) (Z.of_nat m)).
  { intros l. split.
    - intros (t & Ht & H). apply in_map_iff in Ht as (u & <- & Hu). exists u. split; [exact Hu|].
      replace (u * rate) with (u / k * (k * rate)) by (field; lra). exact H.
    - intros (t & Ht & H). exists (t / k). split; [apply in_map_iff; exists t; auto|].
      replace (t / k * (k * rate)) with (t * rate) by (field; lra). exact H. }
  destruct taus as [|[|t l]|l|s]; cbn [scale_taus requested map]; try tauto.
  - apply (HL (t :: l)).
  - apply HL.
Qed.

Lemma adm_scale s k N rate taus ms : 0 < k -> adm s N rate taus ms ->
  adm s N (k * rate) (scale_taus k taus) ms.
Proof.
  intros Hk (Hv & Hs & H). split; [|split; [exact Hs|]].
  - apply bad_exn_valid. rewrite bad_exn_scale. now apply bad_exn_valid.
  - intros m. rewrite H, requested_scale by assumption. reflexivity.
Qed.

Lemma law_rate s (x : list R) k kd rate taus : In s stats -> 0 < rate -> 0 < k -> 0 <= kd ->
  (forall m, (1 <= m < len x)%nat -> s_ok s (len x) m = true -> (1 < s_cnt s (len x) m)%Z ->
     s_var s x (k * rate) m = kd ^ 2 * s_var s x rate m) ->
  s_fun s x (k * rate) "phase" (scale_taus k taus) = rescale k kd (s_fun s x rate "phase" taus).
Proof.
  intros Hs Hr Hk Hkd H.
  assert (Hkr : 0 < k * rate) by nra.
  pose proof (stats_closed s Hs x rate taus Hr) as [Hb Hg].
  pose proof (stats_closed s Hs x (k * rate) (scale_taus k taus) Hkr) as [Hb' Hg'].
  rewrite s_exn_scale in * by assumption.
  destruct (law_case s x rate taus Hs Hr) as [[e He]|(He & ms & Hms & Hin)].
  - now rewrite (Hb e He), (Hb' e He).
  - rewrite (proj2 (Hg He) ms Hms), (proj2 (Hg' He) ms (adm_scale s k _ rate taus ms Hk Hms)).
    assert (Hd : forall m, In m ms -> (1 < s_cnt s (len x) m)%Z -> s_dev s x (k * rate) m = kd * s_dev s x rate m).
    { intros m Hm Hc. destruct (Hin m Hm). unfold s_dev. rewrite H by assumption. rewrite sqrt_mult_alt by nra.
      replace (kd ^ 2) with (Rsqr kd) by (unfold Rsqr; ring). now rewrite sqrt_Rsqr. }
    rewrite (report_ext (k * rate) ms (s_dev s x (k * rate)) (fun m => kd * s_dev s x rate m)
      _ (fun m => kd * (s_dev s x rate m * s_w s (len x) m)) (s_cnt s (len x)) (s_cnt s (len x))); [|reflexivity|].
    + unfold report. destruct (filter _ ms) as [|m0 g]; [reflexivity|].
      unfold rescale. rewrite !map_map. f_equal. f_equal. f_equal. f_equal.
      apply map_ext. intros m. field. lra.
    + intros m Hm Hc. rewrite Hd by assumption. split; ring.
Qed.
