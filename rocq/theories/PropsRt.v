(** * Streaming statistics: C55 - C60, C75. *)
From Coq Require Import String Reals List ZArith Lra Lia Arith Bool Psatz Sorted.
From Verif Require Import Base Num NpList NumR ModelCore ModelDev ModelMisc ModelCi ModelRt ListFacts Spec RSum TauProofs
  DevProofs TotProofs Closed Laws Laws2 Laws3 ConvProofs PropsConv PropsDev CiProofs RtProofs.
Import ListNotations.
Local Open Scope R_scope.
Local Notation len := List.length.

(** an object with the given averaging factors / in auto_afs mode with p points
    per decade *)
Definition fixed (t0 : R) (p : nat) : @cfg R := mkcfg t0 false (decade p).
Definition auto (t0 : R) (p : nat) : @cfg R := mkcfg t0 true (decade p).

Lemma map_tab_nth {B} (f : nat -> B) (l : list nat) : tab (len l) (fun j => f (nth j l 0%nat)) = map f l.
Proof. refine (eq_trans _ (f_equal (map f) (eq_sym (list_tab l 0%nat)))). unfold tab. rewrite map_map. reflexivity. Qed.

(** ** C55 *)
Definition live_oadev (xs : list R) (t0 : R) (af : nat) : R := if (2 * af + 1 <=? len xs)%nat then sqrt (oavar xs t0 af) else 0.
Definition live_ohdev (xs : list R) (t0 : R) (af : nat) : R := if (3 * af + 1 <=? len xs)%nat then sqrt (ohvar xs t0 af) else 0.
Definition live_tdev (xs : list R) (t0 : R) (af : nat) : R := if (3 * af <=? len xs)%nat then sqrt (tvar xs t0 af) else 0.

Lemma oadev_slot0 t0 xs af T : 0 < t0 -> (1 <= af)%nat -> (T <= 2 * af)%nat -> snd (slot_after (oadev_g t0) xs af T (len xs)) = live_oadev xs t0 af.
Proof.
  intros Ht Ha HT. rewrite (oadev_slot t0 xs af T) by lia. cbv zeta. cbn [snd]. unfold live_oadev.
  replace (Nat.max T (2 * af)) with (2 * af)%nat by lia.
  destruct (Nat.ltb_spec (2 * af) (len xs)) as [H|H]; destruct (Nat.leb_spec (2 * af + 1) (len xs)) as [H'|H']; try lia; [|reflexivity].
  f_equal. unfold oavar, oadev_n. replace (2 * af - 2 * af)%nat with 0%nat by lia. unfold Rdiv. rewrite Rmult_1_l. reflexivity.
Qed.
Lemma ohdev_slot0 t0 xs af T : 0 < t0 -> (1 <= af)%nat -> (T <= 3 * af)%nat -> snd (slot_after (ohdev_g t0) xs af T (len xs)) = live_ohdev xs t0 af.
Proof.
  intros Ht Ha HT. rewrite (ohdev_slot t0 xs af T) by lia. cbv zeta. cbn [snd]. unfold live_ohdev.
  replace (Nat.max T (3 * af)) with (3 * af)%nat by lia.
  destruct (Nat.ltb_spec (3 * af) (len xs)) as [H|H]; destruct (Nat.leb_spec (3 * af + 1) (len xs)) as [H'|H']; try lia; [|reflexivity].
  f_equal. unfold ohvar, ohdev_n. replace (3 * af - 3 * af)%nat with 0%nat by lia. unfold Rdiv. rewrite Rmult_1_l. reflexivity.
Qed.
Lemma tdev_slot0 t0 xs af : 0 < t0 -> (1 <= af)%nat -> snd (slot_after tdev_g xs af 0 (len xs)) = live_tdev xs t0 af.
Proof.
  intros Ht Ha. rewrite (tdev_slot xs af 0) by lia. cbv zeta. unfold live_tdev.
  replace (Nat.max 0 (2 * af)) with (2 * af)%nat by lia. replace (2 * af - 2 * af)%nat with 0%nat by lia. cbn [bigsum].
  destruct (Nat.ltb_spec (len xs) (3 * af)) as [H|H]; destruct (Nat.leb_spec (3 * af) (len xs)) as [H'|H']; try lia; [reflexivity|].
  cbn [snd]. f_equal. unfold tvar, mvar, mdev_n.
  replace (Z.of_nat (len xs) - 3 * Z.of_nat af + 1)%Z with (Z.of_nat (len xs - 3 * af + 1)) by lia.
  rewrite Nat2Z.id, <- INR_IZR_INZ.
  rewrite (bigsum_ext _ _ (fun j => (bigsum af (fun i => d2 xs af (j + i))) ^ 2)) by (intros; unfold RtProofs.wsum; ring).
  assert (INR af <> 0) by (apply not_0_INR; lia). assert (INR (len xs - 3 * af + 1) <> 0) by (apply not_0_INR; lia).
  field. repeat split; auto; lra.
Qed.

Lemma fixed_run upd (t0 : R) p g afs xs : local_upd upd (fixed t0 p) g ->
  exists s, run (add_phase upd) (fixed t0 p) (rt_init (fixed t0 p) afs) xs = Ok s /\ rx s = xs /\
    rt_taus (fixed t0 p) s = map (fun af => t0 * INR af) afs /\ rafs s = afs /\
    rt_devs s = map (fun af => snd (slot_after g xs af 0 (len xs))) afs.
Proof.
  intros Hl. eexists. split; [apply (run_fixed upd (fixed t0 p) g afs xs Hl eq_refl)|].
  split; [reflexivity|]. split; [unfold rt_taus; cbn [rafs st tau0 fixed]; apply map_ext; intros a; now rewrite ofN_INR|].
  split; [reflexivity|]. unfold rt_devs. cbn [st rdev]. apply (map_tab_nth (fun af => snd (slot_after g xs af 0 (len xs)))).
Qed.

Theorem C55_stream (t0 : R) p afs xs : 0 < t0 -> Forall (fun af => (1 <= af)%nat) afs ->
  exists s, run oadev_add_phase (fixed t0 p) (rt_init (fixed t0 p) afs) xs = Ok s /\ rx s = xs /\
    rt_taus (fixed t0 p) s = map (fun af => t0 * INR af) afs /\ rt_devs s = map (live_oadev xs t0) afs.
Proof.
  intros Ht Ha. destruct (fixed_run oadev_upd t0 p _ afs xs (oadev_local _)) as (s & E & H1 & H2 & _ & H3).
  exists s. repeat split; try assumption. rewrite H3. apply map_ext_in. intros af Hin. rewrite Forall_forall in Ha.
  apply oadev_slot0; [exact Ht|now apply Ha|lia].
Qed.
Print Assumptions C55_stream.
Lemma inv_tau t0 m : 0 < t0 -> INR m / (1 / t0) = t0 * INR m.
Proof. intros H. field. lra. Qed.
(** ... where the deviation is the one returned by the batch function *)
Theorem C55_batch (t0 : R) af xs : 0 < t0 -> (1 <= af)%nat -> (2 * af + 2 <= len xs)%nat ->
  exists e n, oadev xs (1 / t0) "phase" (TList [t0 * INR af]) = Ok ([t0 * INR af], [live_oadev xs t0 af], EArr [e], [n]).
Proof.
  intros Ht Ha Hn. assert (0 < 1 / t0) by (apply Rdiv_lt_0_compat; lra). do 2 eexists. rewrite <- inv_tau by exact Ht.
  rewrite (C15_oadev _ _ _ [af]); [|assumption|apply adm_single; [assumption|lia]]. cbv zeta.
  rewrite report_single by (unfold oadev_n; lia). replace (1 / (1 / t0)) with t0 by (field; lra).
  unfold live_oadev. destruct (Nat.leb_spec (2 * af + 1) (len xs)); [reflexivity|lia].
Qed.
Print Assumptions C55_batch.
Example C55_ex : exists s, run oadev_add_phase (fixed 2 4) (rt_init (fixed 2 4) [1%nat; 2%nat; 3%nat]) [0; 1; 4; 9; 16; 25] = Ok s /\
  rt_taus (fixed 2 4) s = [2 * 1; 2 * (1 + 1); 2 * (1 + 1 + 1)] /\ rt_devs s = [sqrt (1 / 2); sqrt 2; 0].
Proof.
  destruct (C55_stream 2 4 [1%nat; 2%nat; 3%nat] [0; 1; 4; 9; 16; 25]) as (s & E & _ & Ht & Hd); [lra|repeat constructor; lia|].
  exists s. split; [exact E|]. split; [exact Ht|]. rewrite Hd. unfold live_oadev, oavar, oadev_n, d2. cbn.
  f_equal; [f_equal; field|f_equal; f_equal; field].
Qed.

(** ** C56 *)
Theorem C56_stream (t0 : R) p afs xs : 0 < t0 -> Forall (fun af => (1 <= af)%nat) afs ->
  exists s, run ohdev_add_phase (fixed t0 p) (rt_init (fixed t0 p) afs) xs = Ok s /\ rx s = xs /\
    rt_taus (fixed t0 p) s = map (fun af => t0 * INR af) afs /\ rt_devs s = map (live_ohdev xs t0) afs.
Proof.
  intros Ht Ha. destruct (fixed_run ohdev_upd t0 p _ afs xs (ohdev_local _)) as (s & E & H1 & H2 & _ & H3).
  exists s. repeat split; try assumption. rewrite H3. apply map_ext_in. intros af Hin. rewrite Forall_forall in Ha.
  apply ohdev_slot0; [exact Ht|now apply Ha|lia].
Qed.
Print Assumptions C56_stream.
Theorem C56_batch (t0 : R) af xs : 0 < t0 -> (1 <= af)%nat -> (3 * af + 2 <= len xs)%nat ->
  exists e n, ohdev xs (1 / t0) "phase" (TList [t0 * INR af]) = Ok ([t0 * INR af], [live_ohdev xs t0 af], EArr [e], [n]).
Proof.
  intros Ht Ha Hn. assert (0 < 1 / t0) by (apply Rdiv_lt_0_compat; lra). do 2 eexists. rewrite <- inv_tau by exact Ht.
  rewrite (C17_ohdev _ _ _ [af]); [|assumption|apply adm_single; [assumption|lia]]. cbv zeta.
  rewrite report_single by (unfold ohdev_n; lia). replace (1 / (1 / t0)) with t0 by (field; lra).
  unfold live_ohdev. destruct (Nat.leb_spec (3 * af + 1) (len xs)); [reflexivity|lia].
Qed.
Print Assumptions C56_batch.

(** the averaging factors in use after N samples in auto mode, 1 <= p <= 5 *)
Definition scheduled (p N a : nat) : Prop :=
  a = 1%nat \/ exists k, (1 <= k)%nat /\ half_even (Rpower 10 (INR k / INR p)) (Z.of_nat a) /\ (2 * a + 1 <= N)%nat.

Lemma sorted_tab K (f : nat -> nat) : (forall k, (f k < f (S k))%nat) -> StronglySorted lt (tab K f).
Proof.
  intros H. assert (Hm : forall j k, (j < k)%nat -> (f j < f k)%nat).
  { intros j k Hjk. induction Hjk; [apply H|]. specialize (H m). lia. }
  unfold tab. generalize 0%nat. induction K as [|K IH]; intros a; cbn; constructor; [apply IH|].
  apply Forall_forall. intros b Hb. apply in_map_iff in Hb. destruct Hb as (j & <- & Hj). apply in_seq in Hj. apply Hm. lia.
Qed.
Lemma rint_grid_nat p k : (1 <= p)%nat -> (1 <= rintR (grid p k))%Z.
Proof.
  intros Hp. apply rint_ge_of. pose proof (grid_mono p 0 k ltac:(lia) ltac:(lia)) as H. rewrite grid_0 in H. lra.
Qed.
Lemma auto_strict t0 p : (1 <= p <= 5)%nat -> forall k, (af_at (auto t0 p) k < af_at (auto t0 p) (S k))%nat.
Proof. intros Hp. exact (default_strict t0 p Hp). Qed.
Lemma auto_af_ge t0 p : (1 <= p)%nat -> forall k, (1 <= af_at (auto t0 p) k)%nat.
Proof. intros Hp [|k]; [cbn; lia|]. unfold auto. rewrite af_at_grid by lia. pose proof (rint_grid_nat p (S k) Hp). lia. Qed.
Lemma auto_af_ge2 t0 p : (1 <= p <= 5)%nat -> forall k, (1 <= k)%nat -> (2 <= af_at (auto t0 p) k)%nat.
Proof.
  intros Hp [|k] Hk; [lia|]. pose proof (auto_strict t0 p Hp k). pose proof (auto_af_ge t0 p ltac:(lia) k). lia.
Qed.
Lemma auto_afs_spec t0 p N K : (1 <= p <= 5)%nat -> (1 <= K)%nat ->
  (forall k, (k < K)%nat <-> (start_at (auto t0 p) k <= N)%nat) ->
  StronglySorted lt (tab K (af_at (auto t0 p))) /\ forall a, In a (tab K (af_at (auto t0 p))) <-> scheduled p N a.
Proof.
  intros Hp HK1 HK. split; [apply sorted_tab, (auto_strict t0 p Hp)|]. intros a. unfold tab. rewrite in_map_iff. split.
  - intros (k & <- & Hk). apply in_seq in Hk. destruct k as [|k]; [left; reflexivity|right]. exists (S k). split; [lia|].
    assert (Hs : (start_at (auto t0 p) (S k) <= N)%nat) by (apply HK; lia).
    rewrite (start_strict _ (auto_strict t0 p Hp)) in Hs by lia. split; [|exact Hs].
    unfold auto. rewrite af_at_grid by lia. rewrite Z2Nat.id by (pose proof (rint_grid_nat p (S k) ltac:(lia)); lia).
    apply rintR_spec.
  - intros [ -> | (k & Hk & Hh & HN)]; [exists 0%nat; split; [reflexivity|apply in_seq; lia]|]. exists k.
    assert (E : af_at (auto t0 p) k = a).
    { unfold auto. rewrite af_at_grid by lia. apply rintR_iff in Hh. unfold grid. rewrite Hh. apply Nat2Z.id. }
    split; [exact E|]. apply in_seq. split; [lia|]. cbn. apply HK. rewrite (start_strict _ (auto_strict t0 p Hp)) by lia. now rewrite E.
Qed.

Lemma auto_run upd t0 p g afs0 xs : local_upd upd (auto t0 p) g -> (1 <= p)%nat -> (1 <= len afs0)%nat ->
  exists K s, (1 <= K)%nat /\ (forall k, (k < K)%nat <-> (start_at (auto t0 p) k <= len xs)%nat) /\
    run (add_phase upd) (auto t0 p) (rt_init (auto t0 p) afs0) xs = Ok s /\ rx s = xs /\
    rafs s = tab K (af_at (auto t0 p)) /\
    rt_devs s = tab (K + (len afs0 - 1)) (fun j => snd (slot_after g xs (af_at (auto t0 p) j) (start_at (auto t0 p) j) (len xs))).
Proof.
  intros Hl Hp Ha. assert (Hd : len (decade p) = p) by apply tab_length.
  destruct (run_auto upd (auto t0 p) g afs0 xs Hl eq_refl (sched_total_grid t0 p Hp)) as (K & HK & Hk & E).
  - cbn [af_taus auto]. lia.
  - exact Ha.
  - exists K. eexists. split; [exact HK|]. split; [exact Hk|]. split; [exact E|]. repeat split; reflexivity.
Qed.
Lemma tab_map {B C} (f : B -> C) n (h : nat -> B) : map f (tab n h) = tab n (fun j => f (h j)).
Proof. unfold tab. now rewrite map_map. Qed.

Theorem C56_auto (t0 : R) p a0 xs : 0 < t0 -> (1 <= p <= 5)%nat ->
  exists s, run ohdev_add_phase (auto t0 p) (rt_init (auto t0 p) [a0]) xs = Ok s /\ rx s = xs /\
    StronglySorted lt (rafs s) /\ (forall a, In a (rafs s) <-> scheduled p (len xs) a) /\
    rt_devs s = map (live_ohdev xs t0) (rafs s).
Proof.
  intros Ht Hp. destruct (auto_run ohdev_upd t0 p _ [a0] xs (ohdev_local _)) as (K & s & HK & Hk & E & Hx & Ha & Hd); [lia|cbn; lia|].
  exists s. split; [exact E|]. split; [exact Hx|]. rewrite Ha. destruct (auto_afs_spec t0 p (len xs) K Hp HK Hk) as [H1 H2].
  split; [exact H1|]. split; [exact H2|]. rewrite Hd, tab_map. cbn [len]. replace (K + (1 - 1))%nat with K by lia.
  apply tab_ext. intros j Hj. cbn [tau0 auto].
  assert (Hst : (start_at (auto t0 p) j <= 3 * af_at (auto t0 p) j)%nat /\ (1 <= af_at (auto t0 p) j)%nat).
  { destruct j as [|j]; [cbn; lia|]. rewrite (start_strict _ (auto_strict t0 p Hp)) by lia. pose proof (auto_af_ge2 t0 p Hp (S j) ltac:(lia)). lia. }
  apply ohdev_slot0; [exact Ht|apply Hst|apply Hst].
Qed.
Print Assumptions C56_auto.
Example C56_ex : exists s, run ohdev_add_phase (fixed 1 4) (rt_init (fixed 1 4) [1%nat; 2%nat]) [0; 1; 8; 27; 64] = Ok s /\ rt_devs s = [sqrt 6; 0].
Proof.
  destruct (C56_stream 1 4 [1%nat; 2%nat] [0; 1; 8; 27; 64]) as (s & E & _ & _ & Hd); [lra|repeat constructor; lia|].
  exists s. split; [exact E|]. rewrite Hd. unfold live_ohdev, ohvar, ohdev_n, d3. cbn. do 2 f_equal. field.
Qed.
(** with many points per decade the same factor is appended several times, and
    the later copies miss terms *)
Theorem C56_dense_refuted : exists t0 p xs s j, 0 < t0 /\ run ohdev_add_phase (auto t0 p) (rt_init (auto t0 p) [1%nat]) xs = Ok s /\
  (j < len (rafs s))%nat /\ nth j (rt_devs s) 0 <> live_ohdev xs t0 (nth j (rafs s) 0%nat).
Proof.
  exists 1, 12%nat, [1; 0; 0; 0; 0].
  destruct (auto_run ohdev_upd 1 12 _ [1%nat] [1; 0; 0; 0; 0] (ohdev_local _)) as (K & s & HK & Hk & E & Hx & Ha & Hd); [lia|cbn; lia|].
  assert (A : forall k, (1 <= k <= 2)%nat -> af_at (auto 1 12) k = 1%nat).
  { intros k Hk'. unfold auto. rewrite af_at_grid by lia. assert (rintR (grid 12 k) = 1)%Z as ->; [|reflexivity].
    apply Z.le_antisymm; [|apply rint_grid_nat; lia]. apply rint_le_of.
    pose proof (grid_p 12 ltac:(lia)) as Eg. pose proof (grid_step_ge1 12 ltac:(lia)) as H1.
    assert (grid 12 k <= grid 12 2) by (apply grid_mono; lia). rewrite (grid_pow 12 2) in H by lia.
    apply Rnot_le_lt. intros C. assert (1.5 <= grid 12 1 ^ 2) by lra.
    assert (1.5 ^ 6 <= (grid 12 1 ^ 2) ^ 6) by (apply pow_incr; lra). rewrite <- pow_mult in H2. cbn [Nat.mul Nat.add] in H2. rewrite Eg in H2.
    cbn [pow] in H2. lra. }
  assert (S2 : start_at (auto 1 12) 2 = 4%nat).
  { cbn [start_at]. rewrite !A by lia. reflexivity. }
  assert (H2 : (2 < K)%nat) by (apply Hk; rewrite S2; cbn; lia).
  exists s, 2%nat. split; [lra|]. split; [exact E|]. rewrite Ha, Hd, tab_length. split; [exact H2|].
  rewrite !nth_tab by (cbn; lia). rewrite S2, !A by lia. cbn [tau0 auto].
  rewrite (ohdev_slot 1 [1; 0; 0; 0; 0] 1 4) by (cbn; lia). cbv zeta. unfold live_ohdev, ohvar, ohdev_n, d3. cbn.
  assert (P : 0 < / (6 * (1 * 1 * (1 * 1 * 1)) * (1 + 1)) * (0 + (0 - 3 * 0 + 3 * 0 - 1) * ((0 - 3 * 0 + 3 * 0 - 1) * 1) + (0 - 3 * 0 + 3 * 0 - 0) * ((0 - 3 * 0 + 3 * 0 - 0) * 1))) by lra.
  intros C. match type of C with sqrt ?a = sqrt ?b => assert (Ea : a = 0) by lra; rewrite Ea, sqrt_0 in C; assert (Hb : 0 < b) by lra; apply sqrt_lt_R0 in Hb; lra end.
Qed.
Print Assumptions C56_dense_refuted.

(** ** C57 *)
Theorem C57_stream (t0 : R) p afs xs : 0 < t0 -> Forall (fun af => (1 <= af)%nat) afs ->
  exists s, run tdev_add_phase (fixed t0 p) (rt_init (fixed t0 p) afs) xs = Ok s /\ rx s = xs /\
    rt_taus (fixed t0 p) s = map (fun af => t0 * INR af) afs /\ rt_devs s = map (live_tdev xs t0) afs.
Proof.
  intros Ht Ha. destruct (fixed_run tdev_upd t0 p _ afs xs (tdev_local _)) as (s & E & H1 & H2 & _ & H3).
  exists s. repeat split; try assumption. rewrite H3. apply map_ext_in. intros af Hin. rewrite Forall_forall in Ha.
  apply tdev_slot0; [exact Ht|now apply Ha].
Qed.
Print Assumptions C57_stream.
Lemma mdev_loop (h : nat -> R -> R) n (f : nat -> R) k : (k <= n)%nat ->
  foldM (fun l idx => v <- get_nth l idx ;; set_nth idx (h idx v) l) (seq 0 k) (tab n f) =
  Ok (tab n (fun j => if (j <? k)%nat then h j (f j) else f j)).
Proof.
  induction k as [|k IH]; intros Hk; [cbn; f_equal; apply tab_ext; intros; reflexivity|].
  rewrite seq_S, foldM_app, IH by lia. cbn [bind foldM Nat.add]. rewrite get_nth_tab by lia. cbn [bind]. rewrite set_nth_tab by lia. cbn [bind].
  f_equal. apply tab_ext. intros j Hj. destruct (Nat.ltb_spec k k); [lia|].
  destruct (Nat.eqb_spec j k) as [->|]; [destruct (Nat.ltb_spec k (S k)); [reflexivity|lia]|].
  destruct (Nat.ltb_spec j k), (Nat.ltb_spec j (S k)); try lia; reflexivity.
Qed.
Theorem C57_mdev (t0 : R) p afs xs s : 0 < t0 -> Forall (fun af => (1 <= af)%nat) afs ->
  run tdev_add_phase (fixed t0 p) (rt_init (fixed t0 p) afs) xs = Ok s ->
  rt_mdev (fixed t0 p) s = Ok (map (fun af => if (3 * af <=? len xs)%nat then sqrt (mvar xs t0 af) else 0) afs).
Proof.
  intros Ht Ha E. destruct (fixed_run tdev_upd t0 p _ afs xs (tdev_local _)) as (s' & E' & H1 & H2 & Hr & H3).
  unfold tdev_add_phase in E. rewrite E in E'. injection E' as <-. unfold rt_mdev. rewrite Hr. unfold rt_devs in H3. rewrite H3.
  rewrite <- (map_tab_nth (fun af => snd (slot_after tdev_g xs af 0 (len xs)))), <- (map_tab_nth (fun af => if (3 * af <=? len xs)%nat then sqrt (mvar xs t0 af) else 0)).
  rewrite (mdev_loop (fun idx v => v * sqrt 3 / (ofN (nth idx afs 0%nat) * t0))) by lia. f_equal. apply tab_ext. intros j Hj.
  destruct (Nat.ltb_spec j (len afs)); [|lia]. rewrite Forall_forall in Ha. assert (Hj1 : (1 <= nth j afs 0)%nat) by (apply Ha, nth_In, Hj).
  set (af := nth j afs 0%nat) in *. rewrite (tdev_slot0 t0 xs af Ht Hj1). unfold live_tdev. rewrite ofN_INR.
  assert (0 < INR af) by (apply lt_0_INR; lia). assert (0 < INR af * t0) by nra.
  destruct (Nat.leb_spec (3 * af) (len xs)); [|field; split; lra].
  unfold tvar. replace ((INR af * t0) ^ 2 / 3 * mvar xs t0 af) with (((INR af * t0) ^ 2 / 3) * mvar xs t0 af) by reflexivity.
  assert (0 < (INR af * t0) ^ 2 / 3) by (apply Rdiv_lt_0_compat; [apply pow_lt|]; lra).
  rewrite sqrt_mult_alt by lra. unfold Rdiv at 2. rewrite sqrt_mult_alt by (apply pow_le; lra). rewrite sqrt_pow2 by lra.
  rewrite sqrt_inv by lra. assert (0 < sqrt 3) by (apply sqrt_lt_R0; lra). field. repeat split; lra.
Qed.
Print Assumptions C57_mdev.
Theorem C57_batch (t0 : R) af xs : 0 < t0 -> (1 <= af)%nat -> (3 * af + 1 <= len xs)%nat ->
  (exists e n, mdev xs (1 / t0) "phase" (TList [t0 * INR af]) = Ok ([t0 * INR af], [sqrt (mvar xs t0 af)], EArr [e], [n])) /\
  (exists e n, tdev xs (1 / t0) "phase" (TList [t0 * INR af]) = Ok ([t0 * INR af], [live_tdev xs t0 af], EArr [e], [n])).
Proof.
  intros Ht Ha Hn. assert (0 < 1 / t0) by (apply Rdiv_lt_0_compat; lra).
  replace (TList [t0 * INR af]) with (TList [INR af / (1 / t0)]) by (now rewrite inv_tau). rewrite <- (inv_tau t0 af Ht).
  split; do 2 eexists.
  - rewrite (C18_mdev _ _ _ [af]); [|assumption|apply adm_single; [assumption|lia]]. cbv zeta.
    rewrite report_single by (unfold mdev_n; lia). replace (1 / (1 / t0)) with t0 by (field; lra). reflexivity.
  - rewrite (C19_tdev _ _ _ [af]); [|assumption|apply adm_single; [assumption|lia]]. cbv zeta.
    rewrite report_single by (unfold mdev_n; lia). replace (1 / (1 / t0)) with t0 by (field; lra).
    unfold live_tdev, tvar. destruct (Nat.leb_spec (3 * af) (len xs)); [reflexivity|lia].
Qed.
Print Assumptions C57_batch.
Example C57_ex : exists s, run tdev_add_phase (fixed 2 4) (rt_init (fixed 2 4) [1%nat; 2%nat]) [0; 1; 4; 9; 16] = Ok s /\
  rt_devs s = [sqrt (2 / 3); 0] /\ rt_mdev (fixed 2 4) s = Ok [sqrt (1 / 2); 0].
Proof.
  destruct (C57_stream 2 4 [1%nat; 2%nat] [0; 1; 4; 9; 16]) as (s & E & _ & _ & Hd); [lra|repeat constructor; lia|].
  exists s. split; [exact E|]. split.
  - rewrite Hd. cbn [map]. unfold live_tdev. cbn [len Nat.leb Nat.mul Nat.add]. do 2 f_equal. unfold tvar, mvar, mdev_n, d2.
    change (Z.to_nat _) with 3%nat. cbn. field.
  - rewrite (C57_mdev 2 4 [1%nat; 2%nat] [0; 1; 4; 9; 16] s); [|lra|repeat constructor; lia|exact E].
    cbn [map len Nat.leb Nat.mul Nat.add]. do 3 f_equal. unfold mvar, mdev_n, d2. change (Z.to_nat _) with 3%nat. cbn. field.
Qed.

(** ** C58 *)
(** what the live value is made of: the first squared second difference is missing *)
Definition short_oadev (xs : list R) (t0 : R) (af : nat) : R :=
  sqrt (/ (2 * (INR af * t0) ^ 2 * INR (len xs - 2 * af)) * bigsum (len xs - 2 * af - 1) (fun i => d2 xs af (S i) ^ 2)).
Theorem C58_oadev_auto (t0 : R) p a0 xs : 0 < t0 -> (1 <= p <= 5)%nat ->
  exists s, run oadev_add_phase (auto t0 p) (rt_init (auto t0 p) [a0]) xs = Ok s /\ rx s = xs /\
    StronglySorted lt (rafs s) /\ (forall a, In a (rafs s) <-> scheduled p (len xs) a) /\
    rt_devs s = map (fun af => if (af =? 1)%nat then live_oadev xs t0 1 else short_oadev xs t0 af) (rafs s).
Proof.
  intros Ht Hp. destruct (auto_run oadev_upd t0 p _ [a0] xs (oadev_local _)) as (K & s & HK & Hk & E & Hx & Ha & Hd); [lia|cbn; lia|].
  exists s. split; [exact E|]. split; [exact Hx|]. rewrite Ha. destruct (auto_afs_spec t0 p (len xs) K Hp HK Hk) as [H1 H2].
  split; [exact H1|]. split; [exact H2|]. rewrite Hd, tab_map. cbn [len]. replace (K + (1 - 1))%nat with K by lia.
  apply tab_ext. intros j Hj. cbn [tau0 auto]. destruct j as [|j].
  - cbn [af_at start_at]. cbn [Nat.eqb]. apply oadev_slot0; [exact Ht|lia|lia].
  - pose proof (auto_af_ge2 t0 p Hp (S j) ltac:(lia)) as H2'. set (af := af_at (auto t0 p) (S j)) in *.
    destruct (Nat.eqb_spec af 1) as [|_]; [lia|].
    assert (Es : start_at (auto t0 p) (S j) = (2 * af + 1)%nat) by (apply (start_strict _ (auto_strict t0 p Hp)); lia).
    assert (HN : (2 * af + 1 <= len xs)%nat) by (rewrite <- Es; apply Hk; exact Hj).
    rewrite Es, (oadev_slot t0 xs af) by lia. cbv zeta. cbn [snd]. unfold short_oadev.
    replace (Nat.max (2 * af + 1) (2 * af)) with (2 * af + 1)%nat by lia.
    destruct (Nat.ltb_spec (2 * af + 1) (len xs)) as [H|H].
    + f_equal. unfold Rdiv. rewrite Rmult_1_l. f_equal. replace (len xs - 2 * af - 1)%nat with (len xs - (2 * af + 1))%nat by lia.
      apply bigsum_ext. intros i Hi. replace (2 * af + 1 - 2 * af + i)%nat with (S i) by lia. reflexivity.
    + replace (len xs - 2 * af - 1)%nat with 0%nat by lia. cbn [bigsum]. now rewrite Rmult_0_r, sqrt_0.
Qed.
Print Assumptions C58_oadev_auto.

(** hence never above the batch value, and equal exactly when the first term is 0 *)
Theorem C58_short (xs : list R) t0 af : 0 < t0 -> (1 <= af)%nat -> (2 * af + 1 <= len xs)%nat ->
  short_oadev xs t0 af <= live_oadev xs t0 af /\ (short_oadev xs t0 af = live_oadev xs t0 af <-> d2 xs af 0 = 0).
Proof.
  intros Ht Ha HN. unfold short_oadev, live_oadev. destruct (Nat.leb_spec (2 * af + 1) (len xs)) as [_|]; [|lia].
  unfold oavar, oadev_n. destruct (len xs - 2 * af)%nat as [|n] eqn:En; [lia|]. replace (S n - 1)%nat with n by lia.
  rewrite (bigsum_S_l n). assert (P : 0 < / (2 * (INR af * t0) ^ 2 * INR (S n))).
  { apply Rinv_0_lt_compat. assert (0 < INR af) by (apply lt_0_INR; lia). assert (0 < INR (S n)) by (apply lt_0_INR; lia).
    apply Rmult_lt_0_compat; [|assumption]. apply Rmult_lt_0_compat; [lra|]. apply pow_lt. nra. }
  set (k := / _) in *. set (B := bigsum n _).
  assert (HB : 0 <= B) by (apply bigsum_nonneg; intros; nra). set (D := d2 xs af 0). split.
  - apply sqrt_le_1_alt. nra.
  - split; intros H.
    + apply sqrt_inj in H; [|nra|nra]. assert (D ^ 2 = 0) by nra. nra.
    + rewrite H. f_equal. ring.
Qed.
Print Assumptions C58_short.
(** for any number of points per decade the live value never exceeds the batch value *)
Theorem C58_never_above (t0 : R) p a0 xs : 0 < t0 -> (1 <= p)%nat ->
  exists s, run oadev_add_phase (auto t0 p) (rt_init (auto t0 p) [a0]) xs = Ok s /\
    len (rt_devs s) = len (rafs s) /\
    forall j, (j < len (rafs s))%nat -> 0 <= nth j (rt_devs s) 0 <= live_oadev xs t0 (nth j (rafs s) 0%nat).
Proof.
  intros Ht Hp. destruct (auto_run oadev_upd t0 p _ [a0] xs (oadev_local _)) as (K & s & HK & Hk & E & Hx & Ha & Hd); [lia|cbn; lia|].
  exists s. split; [exact E|]. rewrite Ha, Hd. cbn [len]. replace (K + (1 - 1))%nat with K by lia. rewrite !tab_length. split; [reflexivity|].
  intros j Hj. rewrite !nth_tab by exact Hj. cbn [tau0 auto]. pose proof (auto_af_ge t0 p Hp j) as Hg. set (af := af_at (auto t0 p) j) in *.
  assert (Hl : 0 <= live_oadev xs t0 af) by (unfold live_oadev; destruct (_ <=? _)%nat; [apply sqrt_pos|lra]).
  rewrite (oadev_slot t0 xs af) by lia. cbv zeta. cbn [snd]. set (b := Nat.max _ _).
  destruct (Nat.ltb_spec b (len xs)) as [H|H]; [|lra]. split; [apply sqrt_pos|].
  unfold live_oadev. destruct (Nat.leb_spec (2 * af + 1) (len xs)) as [_|]; [|lia]. apply sqrt_le_1_alt. unfold oavar, oadev_n, Rdiv. rewrite Rmult_1_l.
  apply Rmult_le_compat_l.
  - apply Rlt_le, Rinv_0_lt_compat. assert (0 < INR af) by (apply lt_0_INR; lia). assert (0 < INR (len xs - 2 * af)) by (apply lt_0_INR; lia).
    apply Rmult_lt_0_compat; [|assumption]. apply Rmult_lt_0_compat; [lra|]. apply pow_lt. nra.
  - replace (len xs - 2 * af)%nat with ((b - 2 * af) + (len xs - b))%nat by lia. rewrite bigsum_add.
    assert (0 <= bigsum (b - 2 * af) (fun i => d2 xs af i ^ 2)) by (apply bigsum_nonneg; intros; nra).
    replace (bigsum (len xs - b) _) with (bigsum (len xs - b) (fun i => d2 xs af (b - 2 * af + i) ^ 2)) by reflexivity. lra.
Qed.
Print Assumptions C58_never_above.
Theorem C58_tdev_auto (t0 : R) p a0 xs : 0 < t0 -> (1 <= p <= 5)%nat ->
  exists s, run tdev_add_phase (auto t0 p) (rt_init (auto t0 p) [a0]) xs = Ok s /\ rx s = xs /\
    (forall a, In a (rafs s) <-> scheduled p (len xs) a) /\
    rt_devs s = map (fun af => if (af =? 1)%nat then live_tdev xs t0 1 else if (len xs <? 3 * af)%nat then 0 else
      sqrt (/ (6 * INR (len xs - 3 * af + 1) * INR af ^ 2) *
        bigsum (len xs - 3 * af + 1) (fun k => (bigsum af (fun i => d2 xs af (k + i)) - d2 xs af 0) ^ 2))) (rafs s).
Proof.
  intros Ht Hp. destruct (auto_run tdev_upd t0 p _ [a0] xs (tdev_local _)) as (K & s & HK & Hk & E & Hx & Ha & Hd); [lia|cbn; lia|].
  exists s. split; [exact E|]. split; [exact Hx|]. rewrite Ha. destruct (auto_afs_spec t0 p (len xs) K Hp HK Hk) as [H1 H2].
  split; [exact H2|]. rewrite Hd, tab_map. cbn [len]. replace (K + (1 - 1))%nat with K by lia.
  apply tab_ext. intros j Hj. destruct j as [|j].
  - cbn [af_at start_at]. cbn [Nat.eqb]. apply tdev_slot0; [exact Ht|lia].
  - pose proof (auto_af_ge2 t0 p Hp (S j) ltac:(lia)) as H2'. set (af := af_at (auto t0 p) (S j)) in *.
    destruct (Nat.eqb_spec af 1) as [|_]; [lia|].
    assert (Es : start_at (auto t0 p) (S j) = (2 * af + 1)%nat) by (apply (start_strict _ (auto_strict t0 p Hp)); lia).
    rewrite Es, (tdev_slot xs af) by lia. cbv zeta. replace (Nat.max (2 * af + 1) (2 * af)) with (2 * af + 1)%nat by lia.
    replace (2 * af + 1 - 2 * af)%nat with 1%nat by lia. destruct (Nat.ltb_spec (len xs) (3 * af)) as [H|H]; [reflexivity|].
    cbn [snd]. f_equal. unfold Rdiv. rewrite Rmult_1_l. f_equal. apply bigsum_ext. intros k Hk'. unfold RtProofs.wsum. cbn [bigsum]. ring.
Qed.
Print Assumptions C58_tdev_auto.
Lemma default_second : rintR (Rpower 10 (INR 1 / INR 4)) = 2%Z.
Proof.
  change (Rpower 10 (INR 1 / INR 4)) with (grid 4 1). pose proof (grid_p 4 ltac:(lia)) as E. pose proof (grid_step_ge1 4 ltac:(lia)) as H.
  apply Z.le_antisymm.
  - apply rint_le_of. apply Rnot_le_lt. intros C. assert ((2 + 1 / 2) ^ 4 <= grid 4 1 ^ 4) by (apply pow_incr; lra). cbn [pow] in *. lra.
  - apply rint_ge_of. apply Rnot_le_lt. intros C. assert (grid 4 1 ^ 4 <= (2 - 1 / 2) ^ 4) by (apply pow_incr; lra). cbn [pow] in *. lra.
Qed.
(** so the streaming classes do not agree with the batch functions in auto mode *)
Theorem C58_batch_refuted : exists t0 p xs s af, 0 < t0 /\
  run oadev_add_phase (auto t0 p) (rt_init (auto t0 p) [1%nat]) xs = Ok s /\ In af (rafs s) /\ (2 * af + 2 <= len xs)%nat /\
  rt_devs s <> map (live_oadev xs t0) (rafs s).
Proof.
  exists 1, 4%nat, [1; 0; 0; 0; 0; 0]. destruct (C58_oadev_auto 1 4 1 [1; 0; 0; 0; 0; 0]) as (s & E & Hx & Hs & Ha & Hd); [lra|lia|].
  assert (H2 : In 2%nat (rafs s)).
  { apply Ha. right. exists 1%nat. split; [lia|]. split; [|cbn; lia]. apply rintR_iff. apply default_second. }
  exists s, 2%nat. split; [lra|]. split; [exact E|]. split; [exact H2|]. split; [cbn; lia|]. intros C. rewrite C in Hd.
  assert (Heq : forall a, In a (rafs s) -> live_oadev [1; 0; 0; 0; 0; 0] 1 a = (if (a =? 1)%nat then live_oadev [1; 0; 0; 0; 0; 0] 1 1 else short_oadev [1; 0; 0; 0; 0; 0] 1 a)).
  { intros a Hin. clear -Hd Hin. revert Hd. induction (rafs s) as [|b l IH]; [contradiction|]. cbn [map]. intros H. injection H as Hb Hl.
    destruct Hin as [ -> |Hin]; [exact Hb|now apply IH]. }
  specialize (Heq 2%nat H2). cbn [Nat.eqb] in Heq. symmetry in Heq. apply C58_short in Heq; [|lra|lia|cbn; lia]. unfold d2 in Heq. cbn in Heq. lra.
Qed.
Print Assumptions C58_batch_refuted.
Example C58_ex : exists s, run oadev_add_phase (auto 1 4) (rt_init (auto 1 4) [1%nat]) [1; 0; 0; 0; 0; 0] = Ok s /\
  rafs s = [1%nat; 2%nat] /\ rt_devs s = [sqrt (1 / 8); 0].
Proof.
  destruct (C58_oadev_auto 1 4 1 [1; 0; 0; 0; 0; 0]) as (s & E & Hx & Hs & Ha & Hd); [lra|lia|].
  assert (R : rafs s = [1%nat; 2%nat]).
  { apply (sorted_ext lt); [exact Nat.lt_irrefl|exact Nat.lt_trans|exact Hs|repeat constructor; lia|]. intros a. rewrite Ha. unfold scheduled. cbn [len]. split.
    - intros [ -> | (k & Hk & Hh & Hl)]; [left; reflexivity|]. assert (a = 1 \/ a = 2 \/ a = 0)%nat as [ -> |[ -> | -> ]] by lia; [cbn; tauto|cbn; tauto|].
      exfalso. apply rintR_iff in Hh. change (Rpower 10 (INR k / INR 4)) with (grid 4 k) in Hh. pose proof (rint_grid_nat 4 k ltac:(lia)). lia.
    - intros [ <- |[ <- |[]]]; [tauto|]. right. exists 1%nat. split; [lia|]. split; [|lia]. apply rintR_iff, default_second. }
  exists s. split; [exact E|]. split; [exact R|]. rewrite Hd, R. unfold live_oadev, short_oadev, oavar, oadev_n, d2. cbn.
  f_equal; [f_equal; field|f_equal]. match goal with |- sqrt ?a = 0 => replace a with 0 by ring end. apply sqrt_0.
Qed.

(** ** C59 *)
Section Frequency.
Context {A : Type} {NA : Num A}.
(** 0, 0+f1, (0+f1)+f2, ... *)
Fixpoint partial_sums (a : A) (fs : list A) : list A :=
  match fs with [] => [a] | f :: t => a :: partial_sums (nadd a f) t end.
Definition keeps_x (upd : @cfg A -> @rt A -> nat -> nat -> res rt) : Prop :=
  forall c s idx af s', upd c s idx af = Ok s' -> rx s' = rx s.
Ltac steps H := repeat (first [progress cbn [bind] in H | match type of H with (bind ?e _) = _ => destruct e; [|discriminate] | (if ?b then _ else _) = _ => destruct b end]); injection H as <-; reflexivity.
Lemma oadev_keeps : keeps_x oadev_upd.
Proof. intros c s idx af s' H. unfold oadev_upd in H. cbv zeta in H. steps H. Qed.
Lemma ohdev_keeps : keeps_x ohdev_upd.
Proof. intros c s idx af s' H. unfold ohdev_upd in H. cbv zeta in H. steps H. Qed.
Lemma tdev_keeps : keeps_x tdev_upd.
Proof. intros c s idx af s' H. unfold tdev_upd in H. cbv zeta in H. steps H. Qed.
Lemma update_af_keeps c (s s' : @rt A) : update_af c s = Ok s' -> rx s' = rx s.
Proof. unfold update_af. destruct (next_slot c s) as [i d]. intros H. steps H. Qed.
Lemma add_phase_x upd c (s : @rt A) v s' : keeps_x upd -> add_phase upd c s v = Ok s' -> rx s' = rx s ++ [v].
Proof.
  intros Hk. unfold add_phase. set (s0 := mkrt _ _ _ _ _ _ _). intros H.
  assert (L : forall l (s1 s2 : @rt A), foldM (fun s idx => upd c s idx (nth idx (rafs s) 0%nat)) l s1 = Ok s2 -> rx s2 = rx s1).
  { induction l as [|a l IH]; intros s1 s2 E; cbn [foldM] in E; [now injection E as <-|].
    destruct (upd c s1 a _) as [s3|] eqn:E3; [|discriminate]. cbn [bind] in E. rewrite (IH _ _ E). exact (Hk _ _ _ _ _ E3). }
  destruct (foldM _ _ s0) as [s1|] eqn:E1; [|discriminate]. cbn [bind] in H. apply L in E1. cbn in E1.
  destruct (auto_afs c); [apply update_af_keeps in H; congruence|injection H as <-; exact E1].
Qed.
Lemma run_frequency upd c : keeps_x upd -> forall fs (s : @rt A) a, rx s <> [] -> a = back s 0 ->
  run (add_frequency (add_phase upd)) c s fs = run (add_phase upd) c s (tl (partial_sums a fs)).
Proof.
  intros Hk. induction fs as [|f fs IH]; intros s a Hx Ea; [reflexivity|].
  unfold run in *. cbn [foldM partial_sums tl]. destruct (partial_sums (nadd a f) fs) as [|b l] eqn:El; [destruct fs; discriminate|].
  assert (b = nadd a f) as -> by (destruct fs; injection El as <-; congruence). cbn [foldM].
  unfold add_frequency at 1. destruct (rx s) as [|x0 xt] eqn:Es; [congruence|]. cbn [bind]. rewrite <- Ea.
  destruct (add_phase upd c s (nadd a f)) as [s'|] eqn:E; [|reflexivity]. cbn [bind]. apply (add_phase_x _ _ _ _ _ Hk) in E.
  replace l with (tl (partial_sums (nadd a f) fs)) by (now rewrite El). apply IH.
  - rewrite E. destruct (rx s); discriminate.
  - unfold back. rewrite E, app_length, Nat.sub_0_r. cbn [len]. rewrite app_nth2 by lia.
    replace (len (rx s) + 1 - 1 - len (rx s))%nat with 0%nat by lia. reflexivity.
Qed.
Lemma stream_frequency upd c (s : @rt A) f fs : keeps_x upd -> rx s = [] ->
  run (add_frequency (add_phase upd)) c s (f :: fs) = run (add_phase upd) c s (partial_sums (ofZ 0) (f :: fs)).
Proof.
  intros Hk Hx. cbn [partial_sums]. unfold run. cbn [foldM]. unfold add_frequency at 1. rewrite Hx.
  destruct (add_phase upd c s (ofZ 0)) as [s'|] eqn:E; [|reflexivity]. cbn [bind]. pose proof (add_phase_x _ _ _ _ _ Hk E) as Hx'. rewrite Hx in Hx'.
  assert (B : back s' 0 = ofZ 0) by (unfold back; rewrite Hx'; reflexivity). rewrite B.
  destruct (partial_sums (nadd (ofZ 0) f) fs) as [|b l] eqn:El; [destruct fs; discriminate|].
  assert (b = nadd (ofZ 0) f) as -> by (destruct fs; injection El as <-; congruence). cbn [foldM].
  destruct (add_phase upd c s' (nadd (ofZ 0) f)) as [s2|] eqn:E2; [|reflexivity]. cbn [bind].
  apply (add_phase_x _ _ _ _ _ Hk) in E2. replace l with (tl (partial_sums (nadd (ofZ 0) f) fs)) by (now rewrite El).
  apply (run_frequency upd c Hk fs).
  - rewrite E2. destruct (rx s'); discriminate.
  - unfold back. rewrite E2, app_length, Nat.sub_0_r. cbn [len]. rewrite app_nth2 by lia.
    replace (len (rx s') + 1 - 1 - len (rx s'))%nat with 0%nat by lia. reflexivity.
Qed.
(** in any arithmetic, any mode, errors included; tau0 plays no part *)
Theorem C59_stream c afs (f : A) fs :
  run (add_frequency oadev_add_phase) c (rt_init c afs) (f :: fs) = run oadev_add_phase c (rt_init c afs) (partial_sums (ofZ 0) (f :: fs)) /\
  run (add_frequency ohdev_add_phase) c (rt_init c afs) (f :: fs) = run ohdev_add_phase c (rt_init c afs) (partial_sums (ofZ 0) (f :: fs)) /\
  run (add_frequency tdev_add_phase) c (rt_init c afs) (f :: fs) = run tdev_add_phase c (rt_init c afs) (partial_sums (ofZ 0) (f :: fs)).
Proof.
  repeat split; apply stream_frequency; auto using oadev_keeps, ohdev_keeps, tdev_keeps.
Qed.
End Frequency.
Print Assumptions C59_stream.

Lemma partial_sums_R a (fs : list R) : partial_sums a fs = map (fun i => a + bigsum i (fun k => fs.[k])) (seq 0 (S (len fs))).
Proof.
  revert a. induction fs as [|f fs IH]; intros a; [cbn; f_equal; ring|].
  cbn [partial_sums len]. rewrite IH. change (seq 0 (S (S (len fs)))) with (0%nat :: seq 1 (S (len fs))). cbn [map]. f_equal; [cbn; ring|].
  rewrite <- (seq_shift (S (len fs)) 0), map_map. apply map_ext. intros i. rewrite bigsum_S_l. cbn [nth]. cbn. ring.
Qed.
Lemma partial_sums_int (fs : list R) : partial_sums 0 fs = integrated fs 1.
Proof. rewrite partial_sums_R. unfold integrated. apply map_ext. intros i. field. Qed.
Lemma integrated_scaled (fs : list R) t0 : 0 < t0 -> integrated fs (1 / t0) = scaled t0 (integrated fs 1).
Proof. intros H. unfold integrated, scaled. rewrite map_map. apply map_ext. intros i. field. lra. Qed.
(** the deviation is 1/tau0 times the one the batch function computes from the
    same frequencies at rate 1/tau0: right only for tau0 = 1 *)
Theorem C59_batch (t0 : R) p afs f fs : 0 < t0 -> Forall (fun af => (1 <= af)%nat) afs ->
  exists s, run (add_frequency oadev_add_phase) (fixed t0 p) (rt_init (fixed t0 p) afs) (f :: fs) = Ok s /\
    forall j, (j < len afs)%nat -> let af := nth j afs 0%nat in (2 * af + 2 <= S (len (f :: fs)))%nat ->
      exists e n, oadev (f :: fs) (1 / t0) "freq" (TList [t0 * INR af]) = Ok ([t0 * INR af], [t0 * nth j (rt_devs s) 0], EArr [e], [n]).
Proof.
  intros Ht Ha. destruct (C59_stream (fixed t0 p) afs f fs) as (Es & _). rewrite Es.
  change (@ofZ R RNum 0) with 0. rewrite partial_sums_int. set (xs := integrated (f :: fs) 1).
  destruct (C55_stream t0 p afs xs Ht Ha) as (s & E & Hx & _ & Hd). exists s. split; [exact E|]. intros j Hj af HN.
  assert (Hl : len xs = S (len (f :: fs))) by (apply integrated_len).
  rewrite Forall_forall in Ha. assert (Haf : (1 <= af)%nat) by (apply Ha, nth_In, Hj).
  assert (Hr : 0 < 1 / t0) by (apply Rdiv_lt_0_compat; lra).
  rewrite (C12_trend_blind (f :: fs) (1 / t0) _ oadev); [|cbn; tauto|discriminate|exact Hr].
  rewrite integrated_scaled by exact Ht. fold xs.
  destruct (C55_batch t0 af (scaled t0 xs) Ht Haf) as (e & n & EB); [rewrite scaled_len; lia|]. exists e, n. rewrite EB.
  assert (V : live_oadev (scaled t0 xs) t0 af = t0 * nth j (rt_devs s) 0); [|now rewrite V].
  rewrite Hd. rewrite (nth_indep _ 0 (live_oadev xs t0 0)) by (now rewrite map_length). rewrite map_nth. fold af.
  unfold live_oadev. rewrite scaled_len, oavar_scaled. destruct (_ <=? _)%nat; [|ring].
  rewrite sqrt_mult_alt by (apply pow_le; lra). rewrite sqrt_pow2 by lra. reflexivity.
Qed.
Print Assumptions C59_batch.
Example C59_ex : exists s, run (add_frequency oadev_add_phase) (fixed 2 4) (rt_init (fixed 2 4) [1%nat]) [1; 3; 5; 7] = Ok s /\
  rx s = [0; 1; 4; 9; 16] /\ rt_devs s = [sqrt (1 / 2)].
Proof.
  destruct (C59_stream (fixed 2 4) [1%nat] 1 [3; 5; 7]) as (Es & _). rewrite Es. cbn [partial_sums].
  match goal with |- context [run oadev_add_phase _ _ ?l] => replace l with [0; 1; 4; 9; 16] by (cbn; repeat f_equal; ring) end.
  destruct (C55_stream 2 4 [1%nat] [0; 1; 4; 9; 16]) as (s & E & Hx & _ & Hd); [lra|repeat constructor; lia|].
  exists s. split; [exact E|]. split; [exact Hx|]. rewrite Hd. unfold live_oadev, oavar, oadev_n, d2. cbn. do 2 f_equal. field.
Qed.

(** ** C60 *)
Lemma tab_add {B} n m (f : nat -> B) : tab (n + m) f = tab n f ++ tab m (fun i => f (n + i)%nat).
Proof. unfold tab. rewrite seq_app, map_app. f_equal. rewrite <- (map_map (fun i => (n + i)%nat) f). f_equal. cbn. clear. induction m as [|m IH] in n |- *; [reflexivity|]. cbn. rewrite Nat.add_0_r. f_equal. rewrite <- (seq_shift m 0), map_map, IH. apply map_ext. intros; lia. Qed.
Lemma slot_zero {A} {NA : Num A} g (xs : list A) af T : (len xs <= T)%nat -> snd (slot_after g xs af T (len xs)) = ofZ 0.
Proof. intros H. rewrite slot_after_early by exact H. reflexivity. Qed.
(** extra initial factors are ignored except for trailing zeros in devs() *)
Theorem C60_extra_zeros (upd : cfg -> rt -> nat -> nat -> res rt) (t0 : R) p a0 afs0 xs : upd = oadev_upd \/ upd = ohdev_upd \/ upd = tdev_upd -> (1 <= p)%nat ->
  exists s s', run (add_phase upd) (auto t0 p) (rt_init (auto t0 p) (a0 :: afs0)) xs = Ok s /\
    run (add_phase upd) (auto t0 p) (rt_init (auto t0 p) [1%nat]) xs = Ok s' /\
    len (rt_devs s') = len (rafs s') /\ rt_taus (auto t0 p) s = rt_taus (auto t0 p) s' /\
    rt_devs s = rt_devs s' ++ repeat 0 (len afs0).
Proof.
  intros Hu Hp. assert (exists g, local_upd upd (auto t0 p) g) as [g Hl].
  { destruct Hu as [ -> |[ -> | -> ]]; eexists; [apply oadev_local|apply ohdev_local|apply tdev_local]. }
  destruct (auto_run upd t0 p g (a0 :: afs0) xs Hl Hp) as (K & s & HK & Hk & E & Hx & Ha & Hd); [cbn; lia|].
  destruct (auto_run upd t0 p g [1%nat] xs Hl Hp) as (K' & s' & HK' & Hk' & E' & Hx' & Ha' & Hd'); [cbn; lia|].
  assert (K' = K) as ->.
  { destruct (Nat.lt_trichotomy K K') as [H|[H|H]]; [|auto|].
    - apply Hk' in H. apply Hk in H. lia.
    - apply Hk in H. apply Hk' in H. lia. }
  exists s, s'. split; [exact E|]. split; [exact E'|].
  rewrite Hd', Ha'. cbn [len] in *. replace (K + (1 - 1))%nat with K by lia. rewrite !tab_length. split; [reflexivity|].
  split; [unfold rt_taus; now rewrite Ha, Ha'|]. rewrite Hd. replace (S (len afs0) - 1)%nat with (len afs0) by lia. rewrite tab_add. f_equal.
  assert (forall n, (n <= len afs0)%nat -> tab n (fun i => snd (slot_after g xs (af_at (auto t0 p) (K + i)) (start_at (auto t0 p) (K + i)) (len xs))) = repeat 0 n) as Hz; [|apply Hz; lia].
  intros n Hn. transitivity (tab n (fun _ : nat => 0)).
  - apply tab_ext. intros i Hi. rewrite slot_zero; [reflexivity|]. destruct (Nat.le_gt_cases (len xs) (start_at (auto t0 p) (K + i))) as [H|H]; [exact H|].
    assert (K + i < K)%nat by (apply Hk; lia). lia.
  - clear. unfold tab. generalize 0%nat. induction n as [|n IH]; intros a; [reflexivity|]. cbn. f_equal. apply IH.
Qed.
Print Assumptions C60_extra_zeros.
(** an empty list: the third sample raises IndexError *)
Lemma update_af_short t0 p s : (1 <= p)%nat -> (len (rx s) <= 2)%nat -> af_idx s = 0%nat -> af_decade s = 0%nat -> update_af (auto t0 p) s = Ok s.
Proof.
  intros Hp Hx Hi Hd. unfold update_af, next_slot. rewrite Hi, Hd. replace (len (af_taus (auto t0 p))) with p by (symmetry; apply tab_length). cbn [Nat.add].
  destruct (Nat.eqb_spec 1 p) as [<-|Hne].
  - unfold auto. rewrite (sched_grid t0 1) by lia. cbn [bind]. pose proof (rint_grid_nat 1 (1 * 1 + 0) ltac:(lia)).
    destruct (Z.leb_spec (2 * rintR (grid 1 (1 * 1 + 0)) + 1) (Z.of_nat (len (rx s)))); [lia|reflexivity].
  - unfold auto. rewrite (sched_grid t0 p) by lia. cbn [bind]. pose proof (rint_grid_nat p (0 * p + 1) ltac:(lia)).
    destruct (Z.leb_spec (2 * rintR (grid p (0 * p + 1)) + 1) (Z.of_nat (len (rx s)))); [lia|reflexivity].
Qed.
Theorem C60_empty_list (t0 : R) p x1 x2 x3 xs : (1 <= p)%nat ->
  (exists s, run oadev_add_phase (auto t0 p) (rt_init (auto t0 p) []) [x1; x2] = Ok s) /\
  run oadev_add_phase (auto t0 p) (rt_init (auto t0 p) []) (x1 :: x2 :: x3 :: xs) = Err IndexError /\
  run tdev_add_phase (auto t0 p) (rt_init (auto t0 p) []) (x1 :: x2 :: x3 :: xs) = Err IndexError.
Proof.
  intros Hp. unfold run, oadev_add_phase, tdev_add_phase. cbn [foldM]. unfold add_phase, rt_init. cbn. split; [|split].
  - eexists. rewrite update_af_short; cbn; try lia. rewrite update_af_short; cbn; try lia. reflexivity.
  - rewrite update_af_short; cbn; try lia. rewrite update_af_short; cbn; try lia. reflexivity.
  - rewrite update_af_short; cbn; try lia. rewrite update_af_short; cbn; try lia. reflexivity.
Qed.
Print Assumptions C60_empty_list.
Example C60_ex : exists s, run oadev_add_phase (auto 1 4) (rt_init (auto 1 4) [1%nat; 2%nat; 4%nat]) [0; 1; 4; 9] = Ok s /\
  rt_taus (auto 1 4) s = [1] /\ rt_devs s = [sqrt 2; 0; 0].
Proof.
  destruct (C60_extra_zeros oadev_upd 1 4 1 [2%nat; 4%nat] [0; 1; 4; 9]) as (s & s' & E & E' & _ & Ht & Hd); [auto|lia|].
  destruct (C58_oadev_auto 1 4 1 [0; 1; 4; 9]) as (s2 & E2 & _ & Hs & Ha & Hd2); [lra|lia|].
  unfold oadev_add_phase in *. rewrite E2 in E'. injection E' as ->.
  assert (R : rafs s' = [1%nat]).
  { apply (sorted_ext lt); [exact Nat.lt_irrefl|exact Nat.lt_trans|exact Hs|repeat constructor|]. intros a. rewrite Ha. unfold scheduled. cbn [len]. split.
    - intros [ -> | (k & Hk & Hh & Hl)]; [left; reflexivity|]. assert (a = 1 \/ a = 0)%nat as [ -> | -> ] by lia; [cbn; tauto|].
      exfalso. apply rintR_iff in Hh. change (Rpower 10 (INR k / INR 4)) with (grid 4 k) in Hh. pose proof (rint_grid_nat 4 k ltac:(lia)). lia.
    - intros [ <- |[]]. tauto. }
  exists s. split; [exact E|]. split; [rewrite Ht; unfold rt_taus; rewrite R; cbn; f_equal; ring|].
  rewrite Hd, Hd2, R. unfold live_oadev, oavar, oadev_n, d2. cbn. f_equal. f_equal. field.
Qed.

(** ** C75 *)
(** the k-th factor auto mode will use: 1 for k = 0, else 10^(k/p) rounded *)
Theorem C75_distinct (t0 : R) p : (1 <= p <= 5)%nat -> forall upd a0 xs s,
  upd = oadev_upd \/ upd = ohdev_upd \/ upd = tdev_upd ->
  run (add_phase upd) (auto t0 p) (rt_init (auto t0 p) [a0]) xs = Ok s -> NoDup (rafs s).
Proof.
  intros Hp upd a0 xs s Hu E. assert (exists g, local_upd upd (auto t0 p) g) as [g Hl].
  { destruct Hu as [ -> |[ -> | -> ]]; eexists; [apply oadev_local|apply ohdev_local|apply tdev_local]. }
  destruct (auto_run upd t0 p g [a0] xs Hl) as (K & s' & HK & Hk & E' & Hx & Ha & Hd); [lia|cbn; lia|].
  rewrite E in E'. injection E' as <-. rewrite Ha. destruct (auto_afs_spec t0 p (len xs) K Hp HK Hk) as [H _].
  clear -H. induction H as [|a l Hs IH Hf]; [constructor|]. constructor; [|exact IH]. intros Hin. rewrite Forall_forall in Hf. apply Hf in Hin. lia.
Qed.
Print Assumptions C75_distinct.
Theorem C75_duplicates (t0 : R) p upd a0 xs : (6 <= p)%nat -> upd = oadev_upd \/ upd = ohdev_upd \/ upd = tdev_upd -> (3 <= len xs)%nat ->
  exists s l, run (add_phase upd) (auto t0 p) (rt_init (auto t0 p) [a0]) xs = Ok s /\ rafs s = 1%nat :: 1%nat :: l.
Proof.
  intros Hp Hu HN. assert (exists g, local_upd upd (auto t0 p) g) as [g Hl].
  { destruct Hu as [ -> |[ -> | -> ]]; eexists; [apply oadev_local|apply ohdev_local|apply tdev_local]. }
  destruct (auto_run upd t0 p g [a0] xs Hl) as (K & s & HK & Hk & E & Hx & Ha & Hd); [lia|cbn; lia|].
  assert (D : af_at (auto t0 p) 1 = 1%nat) by (apply dense_duplicate; exact Hp).
  assert (H1 : (1 < K)%nat) by (apply Hk; cbn [start_at]; rewrite D; cbn; lia).
  destruct K as [|[|K]]; try lia. exists s. eexists. split; [exact E|]. rewrite Ha, !tab_S, D. cbn [af_at]. reflexivity.
Qed.
Print Assumptions C75_duplicates.
Example C75_ex : exists s l, run oadev_add_phase (auto 1 6) (rt_init (auto 1 6) [1%nat]) [0; 1; 4] = Ok s /\ rafs s = 1%nat :: 1%nat :: l.
Proof. apply (C75_duplicates 1 6 oadev_upd 1 [0; 1; 4]); [lia|auto|cbn; lia]. Qed.
