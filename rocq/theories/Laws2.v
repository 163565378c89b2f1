(** * Laws, second part: rate change, time reversal, orderings, null spaces. *)
From Coq Require Import String Reals List ZArith Lra Lia Arith Bool Sorted.
From Verif Require Import Base Num NpList ModelCore ModelDev NumR ListFacts Spec RSum TauProofs DevProofs TotProofs Closed Laws.
Import ListNotations.
Local Open Scope R_scope.
Local Notation len := List.length.

(** ** line / parabola invariance of the functions *)
Definition line_blind : list stat :=
  [st_adev; st_oadev; st_hdev; st_ohdev; st_mdev; st_tdev; st_pdev; st_totdev; st_mtotdev;
   st_ttotdev; st_htotdev; st_theo1].

Lemma line_blind_stats s : In s line_blind -> In s stats.
Proof. unfold line_blind, stats. cbn. tauto. Qed.

Lemma line_invariant s a b x rate taus : In s line_blind -> 0 < rate ->
  s_fun s (shifted (line a b) x) rate "phase" taus = s_fun s x rate "phase" taus.
Proof.
  intros Hs Hr. apply law_invariant; auto using line_blind_stats, shifted_len.
  intros m Hm Hok _. unfold line_blind in Hs.
  repeat (destruct Hs as [<-|Hs]); [..|destruct Hs]; cbn in *.
  - apply avar_line; lia.
  - apply oavar_line.
  - rewrite shifted_line_parabola. apply hvar_parabola; lia.
  - rewrite shifted_line_parabola. apply ohvar_parabola.
  - apply mvar_line.
  - unfold tvar. now rewrite mvar_line.
  - apply pvar_line.
  - now apply totvar_line.
  - apply mtotvar_line; lia.
  - rewrite mtotvar_line by lia. reflexivity.
  - apply htotvar_line; lia.
  - now apply theo1var_line.
Qed.

Lemma tierms_var_const a x m : tierms_var (shifted (line a 0) x) m = tierms_var x m.
Proof.
  unfold tierms_var. rewrite shifted_len. f_equal. apply bigsum_ext. intros i Hi.
  rewrite !nth_shifted by lia. unfold line. ring.
Qed.

Lemma is_mtie_const a x m d : is_mtie x m d -> is_mtie (shifted (line a 0) x) m d.
Proof.
  intros [Hu (j & k & Hj & Hk & H1 & H2 & Hd)]. unfold is_mtie. rewrite shifted_len. split.
  - intros p q Hp Hq Hpq Hqp. rewrite !nth_shifted by assumption. unfold line.
    pose proof (Hu p q Hp Hq Hpq Hqp). lra.
  - exists j, k. repeat split; try assumption. rewrite !nth_shifted by assumption. unfold line. lra.
Qed.

Lemma const_invariant s a x rate taus : In s stats -> 0 < rate ->
  s_fun s (shifted (line a 0) x) rate "phase" taus = s_fun s x rate "phase" taus.
Proof.
  intros Hs Hr. assert (Hc : In s line_blind \/ s = st_tierms \/ s = st_mtie).
  { unfold stats, line_blind in *. cbn in *. intuition. }
  destruct Hc as [Hc|Hc]; [now apply line_invariant|].
  apply law_invariant; auto using shifted_len. intros m Hm _ _.
  destruct Hc as [ -> | -> ]; cbn.
  - apply tierms_var_const.
  - f_equal; [|f_equal]; apply (is_mtie_unique (shifted (line a 0) x) m);
      try (apply mtie_val_is; now rewrite shifted_len); apply is_mtie_const; now apply mtie_val_is.
Qed.

Lemma drift_invariant s a b c x rate taus : s = st_hdev \/ s = st_ohdev -> 0 < rate ->
  s_fun s (shifted (parabola a b c) x) rate "phase" taus = s_fun s x rate "phase" taus.
Proof.
  intros Hs Hr. apply law_invariant; auto using shifted_len.
  - unfold stats. destruct Hs as [ -> | -> ]; cbn; tauto.
  - intros m Hm _ _. destruct Hs as [ -> | -> ]; cbn; [apply hvar_parabola; lia|apply ohvar_parabola].
Qed.

(** Allan variance of a pure drift *)
Lemma oavar_drift N a b c t m : (1 <= m)%nat -> (2 * m < N)%nat -> t <> 0 ->
  oavar (map (parabola a b c) (seq 0 N)) t m = 2 * c ^ 2 * INR m ^ 2 / t ^ 2.
Proof.
  intros Hm HN Ht. unfold oavar, oadev_n. rewrite map_length, seq_length.
  fold (tab N (parabola a b c)).
  rewrite (bigsum_ext _ _ (fun _ => (2 * c * INR m ^ 2) ^ 2)).
  - rewrite bigsum_const. assert (INR (N - 2 * m) <> 0) by (apply not_0_INR; lia).
    assert (INR m <> 0) by (apply not_0_INR; lia). field. auto.
  - intros i Hi. f_equal. unfold d2. rewrite !nth_tab by lia. unfold parabola. inr. ring.
Qed.

(** ** rate *)
Definition freq_type : list stat :=
  [st_adev; st_oadev; st_hdev; st_ohdev; st_mdev; st_pdev; st_totdev; st_mtotdev; st_htotdev; st_theo1].
Definition phase_type : list stat := [st_tdev; st_ttotdev; st_tierms; st_mtie].

Ltac nz := repeat split; try lra; try (apply not_0_INR; lia); try (apply not_0_IZR; lia).

Lemma mvar_rate x k rate m : 0 < k -> 0 < rate -> (1 <= m)%nat -> (1 < mdev_n x m)%Z ->
  mvar x (1 / (k * rate)) m = k ^ 2 * mvar x (1 / rate) m.
Proof. intros. unfold mvar. field. nz. Qed.
Lemma mtotvar_rate x k rate m : 0 < k -> 0 < rate -> (1 <= m)%nat -> (1 < mdev_n x m)%Z ->
  mtotvar x (1 / (k * rate)) m = k ^ 2 * mtotvar x (1 / rate) m.
Proof. intros. unfold mtotvar. field. nz. Qed.

Lemma freq_of_rate x k rate : freq_of x (k * rate) = scaled k (freq_of x rate).
Proof. unfold freq_of, scaled. rewrite map_map. apply map_ext. intros i. ring. Qed.

Lemma oavar_rate x k rate m : 0 < k -> 0 < rate -> (1 <= m)%nat -> (1 < c_oadev (len x) m)%Z ->
  oavar x (1 / (k * rate)) m = k ^ 2 * oavar x (1 / rate) m.
Proof.
  intros Hk Hr Hm Hc. unfold c_oadev in Hc. unfold oavar, oadev_n. field. nz.
Qed.
Lemma ohvar_rate x k rate m : 0 < k -> 0 < rate -> (1 <= m)%nat -> (1 < c_ohdev (len x) m)%Z ->
  ohvar x (1 / (k * rate)) m = k ^ 2 * ohvar x (1 / rate) m.
Proof.
  intros Hk Hr Hm Hc. unfold c_ohdev in Hc. unfold ohvar, ohdev_n. field. nz.
Qed.

Lemma rate_freq s k x rate taus : In s freq_type -> 0 < rate -> 0 < k ->
  s_fun s x (k * rate) "phase" (scale_taus k taus) = rescale k k (s_fun s x rate "phase" taus).
Proof.
  intros Hs Hr Hk.
  assert (Hst : In s stats) by (revert Hs; unfold freq_type, stats; cbn; tauto).
  apply law_rate; auto; [lra|]. intros m Hm Hok Hc.
  unfold freq_type in Hs. repeat (destruct Hs as [<-|Hs]); [..|destruct Hs]; cbn [st_adev st_oadev
    st_hdev st_ohdev st_mdev st_pdev st_totdev st_mtotdev st_htotdev st_theo1 s_var s_cnt s_ok] in *.
  - unfold avar, adev_n. unfold c_adev in Hc. field. nz.
  - apply oavar_rate; auto; lia.
  - unfold hvar, hdev_n. unfold c_hdev in Hc. field. nz.
  - apply ohvar_rate; auto; lia.
  - apply mvar_rate; auto; lia.
  - unfold pvar. destruct (Nat.eqb_spec m 1) as [->|]; [apply oavar_rate; auto; lia|].
    unfold oadev_n. unfold c_oadev in Hc. field. nz.
  - unfold totvar, totdev_n. unfold c_tot in Hc. field. nz.
  - apply mtotvar_rate; auto; lia.
  - unfold htotvar. unfold c_htot in Hc. destruct (Nat.eqb_spec m 1) as [->|].
    + apply ohvar_rate; auto; unfold c_ohdev; lia.
    + rewrite freq_of_rate. set (f := freq_of x rate). unfold htotvar_freq, mdev_n. rewrite scaled_len.
      rewrite (bigsum_ext _ _ (fun i => k ^ 2 * tot_term (fun q => f.[i + q]) m)).
      * rewrite bigsum_scal. ring.
      * intros i _. rewrite <- tot_term_scale. apply tot_term_ext. intros. apply nth_scaled.
  - unfold theo1var. field. nz.
Qed.

Lemma rate_phase s k x rate taus : In s phase_type -> 0 < rate -> 0 < k ->
  s_fun s x (k * rate) "phase" (scale_taus k taus) = rescale k 1 (s_fun s x rate "phase" taus).
Proof.
  intros Hs Hr Hk.
  assert (Hst : In s stats) by (revert Hs; unfold phase_type, stats; cbn; tauto).
  apply law_rate; auto; [lra|]. intros m Hm Hok Hc.
  unfold phase_type in Hs. repeat (destruct Hs as [<-|Hs]); [..|destruct Hs]; cbn [st_tdev st_ttotdev st_tierms st_mtie
    s_var s_cnt s_ok] in *.
  - unfold tvar. rewrite mvar_rate by (auto; lia). field. nz.
  - rewrite mtotvar_rate by (auto; lia). field. nz.
  - ring.
  - ring.
Qed.

(** ** time reversal *)
Lemma oavar_rev x t m : oavar (rev x) t m = oavar x t m.
Proof.
  unfold oavar, oadev_n. rewrite rev_length. f_equal.
  rewrite <- (bigsum_rev (len x - 2 * m) (fun i => d2 x m i ^ 2)). apply bigsum_ext. intros i Hi.
  rewrite d2_rev by lia. do 2 f_equal. lia.
Qed.
Lemma ohvar_rev x t m : ohvar (rev x) t m = ohvar x t m.
Proof.
  unfold ohvar, ohdev_n. rewrite rev_length. f_equal.
  rewrite <- (bigsum_rev (len x - 3 * m) (fun i => d3 x m i ^ 2)). apply bigsum_ext. intros i Hi.
  rewrite d3_rev by lia. replace (len x - 3 * m - 1 - i)%nat with (len x - 1 - 3 * m - i)%nat by lia. ring.
Qed.
Lemma mvar_rev x t m : mvar (rev x) t m = mvar x t m.
Proof.
  unfold mvar, mdev_n. rewrite rev_length. f_equal.
  set (n := Z.to_nat _).
  rewrite <- (bigsum_rev n (fun j => bigsum m (fun i => d2 x m (j + i)) ^ 2)). apply bigsum_ext. intros j Hj.
  f_equal. rewrite <- (bigsum_rev m (fun i => d2 x m (n - 1 - j + i))). apply bigsum_ext. intros i Hi.
  rewrite d2_rev by lia. f_equal. lia.
Qed.
(** the last sample is never used by pdev at m > 1 *)
Lemma pvar_last x a a' t m : m <> 1%nat -> pvar (x ++ [a]) t m = pvar (x ++ [a']) t m.
Proof.
  intros Hm. unfold pvar. destruct (Nat.eqb_spec m 1); [contradiction|].
  unfold oadev_n. rewrite !app_length. cbn [len]. f_equal. apply bigsum_ext. intros i Hi. f_equal.
  apply bigsum_ext. intros k Hk. rewrite !app_nth1 by lia. reflexivity.
Qed.
Lemma xtot_rev x i : (- Z.of_nat (len x) < i < 2 * Z.of_nat (len x) - 1)%Z ->
  xtot (rev x) i = xtot x (Z.of_nat (len x) - 1 - i).
Proof.
  intros H. unfold xtot. rewrite rev_length.
  destruct (Z.ltb_spec i 0).
  - destruct (Z.ltb_spec (Z.of_nat (len x) - 1 - i) 0); [lia|].
    destruct (Z.ltb_spec (Z.of_nat (len x) - 1 - i) (Z.of_nat (len x))); [lia|].
    rewrite !nth_rev by lia. f_equal; [f_equal; f_equal; lia|f_equal; lia].
  - destruct (Z.ltb_spec i (Z.of_nat (len x))).
    + destruct (Z.ltb_spec (Z.of_nat (len x) - 1 - i) 0); [lia|].
      destruct (Z.ltb_spec (Z.of_nat (len x) - 1 - i) (Z.of_nat (len x))); [|lia].
      rewrite nth_rev by lia. f_equal. lia.
    + destruct (Z.ltb_spec (Z.of_nat (len x) - 1 - i) 0); [|lia].
      rewrite !nth_rev by lia. f_equal; [f_equal; f_equal; lia|f_equal; lia].
Qed.
Lemma totvar_rev x t m : (1 <= m < len x)%nat -> totvar (rev x) t m = totvar x t m.
Proof.
  intros Hm. unfold totvar, totdev_n. rewrite rev_length. f_equal. cbv zeta.
  refine (eq_trans _ (bigsum_rev _ _)).
  apply bigsum_ext. intros k Hk. rewrite !xtot_rev by lia.
  replace (Z.of_nat (len x) - 1 - (Z.of_nat (k + 1) - Z.of_nat m))%Z
    with (Z.of_nat (len x - 2 - 1 - k + 1) + Z.of_nat m)%Z by lia.
  replace (Z.of_nat (len x) - 1 - (Z.of_nat (k + 1) + Z.of_nat m))%Z
    with (Z.of_nat (len x - 2 - 1 - k + 1) - Z.of_nat m)%Z by lia.
  replace (Z.of_nat (len x) - 1 - (Z.of_nat (k + 1)))%Z
    with (Z.of_nat (len x - 2 - 1 - k + 1))%Z by lia. ring.
Qed.

Lemma tot_sum_rev (x x' : list R) m n : (1 <= m)%nat -> (n + 3 * m <= len x + 1)%nat ->
  (forall i, (i < n + 3 * m - 1)%nat -> x'.[i] = x.[n + 3 * m - 2 - i]) ->
  bigsum n (fun i => tot_term (fun k => x'.[i + k]) m) = bigsum n (fun i => tot_term (fun k => x.[i + k]) m).
Proof.
  intros Hm Hn H. rewrite <- (bigsum_rev n (fun i => tot_term (fun k => x.[i + k]) m)).
  apply bigsum_ext. intros i Hi.
  rewrite <- (tot_term_rev (fun k => x.[n - 1 - i + k])) by assumption.
  apply tot_term_ext. intros k Hk. rewrite H by lia. f_equal. lia.
Qed.

Lemma mtotvar_rev x t m : (1 <= m)%nat -> (3 * m <= len x)%nat -> mtotvar (rev x) t m = mtotvar x t m.
Proof.
  intros Hm Hl. unfold mtotvar, mdev_n. rewrite rev_length. f_equal.
  apply tot_sum_rev; [assumption|lia|]. intros i Hi. rewrite nth_rev by lia. f_equal. lia.
Qed.

Lemma htotvar_rev x rate m : (1 <= m)%nat -> (3 * m <= len x - 1)%nat -> htotvar (rev x) rate m = htotvar x rate m.
Proof.
  intros Hm Hl. unfold htotvar. destruct (Nat.eqb m 1); [apply ohvar_rev|].
  unfold htotvar_freq, mdev_n. rewrite !freq_of_length, rev_length. f_equal.
  set (n := Z.to_nat _).
  transitivity (bigsum n (fun i => tot_term (fun k => (scaled (-1) (rev (freq_of x rate))).[i + k]) m)).
  - apply bigsum_ext. intros i Hi. apply tot_term_ext. intros k Hk.
    rewrite nth_scaled, nth_rev, !nth_freq_of by (rewrite ?rev_length, ?freq_of_length; lia).
    rewrite freq_of_length, !nth_rev by lia.
    replace (len x - 1 - 1 - (i + k) + 1)%nat with (len x - 1 - (i + k))%nat by lia.
    replace (len x - 1 - 1 - (i + k))%nat with (len x - 1 - (i + k + 1))%nat by lia. ring.
  - transitivity (bigsum n (fun i => tot_term (fun k => (rev (freq_of x rate)).[i + k]) m)).
    + apply bigsum_ext. intros i Hi. transitivity ((-1) ^ 2 * tot_term (fun k => (rev (freq_of x rate)).[i + k]) m); [|ring].
      rewrite <- tot_term_scale. apply tot_term_ext. intros. apply nth_scaled.
    + apply tot_sum_rev; [assumption|rewrite freq_of_length; lia|]. intros i Hi.
      rewrite nth_rev by (rewrite freq_of_length; lia). rewrite freq_of_length. f_equal. lia.
Qed.

Lemma theo1var_rev x t m : (1 <= m < len x)%nat -> Nat.even m = true -> theo1var (rev x) t m = theo1var x t m.
Proof.
  intros Hm He. unfold theo1var. rewrite rev_length. f_equal.
  refine (eq_trans _ (bigsum_rev _ _)). apply bigsum_ext. intros i Hi.
  apply Nat.even_spec in He as [h ->]. rewrite Nat.div2_double.
  apply bigsum_ext. intros d Hd. f_equal. rewrite !nth_rev by lia.
  replace (len x - 1 - (i + h - d))%nat with (len x - 2 * h - 1 - i + h + d)%nat by lia.
  replace (len x - 1 - (i + 2 * h))%nat with (len x - 2 * h - 1 - i)%nat by lia.
  replace (len x - 1 - (i + h + d))%nat with (len x - 2 * h - 1 - i + h - d)%nat by lia.
  replace (len x - 1 - i)%nat with (len x - 2 * h - 1 - i + 2 * h)%nat by lia. f_equal. ring.
Qed.
Lemma tierms_var_rev x m : (1 <= m < len x)%nat -> tierms_var (rev x) m = tierms_var x m.
Proof.
  intros Hm. unfold tierms_var. rewrite rev_length. f_equal.
  rewrite <- (bigsum_rev (len x - m) (fun i => (x.[i + m] - x.[i]) ^ 2)). apply bigsum_ext. intros i Hi.
  rewrite !nth_rev by lia.
  replace (len x - 1 - (i + m))%nat with (len x - m - 1 - i)%nat by lia.
  replace (len x - m - 1 - i + m)%nat with (len x - 1 - i)%nat by lia. ring.
Qed.
Lemma is_mtie_rev x m d : is_mtie x m d -> is_mtie (rev x) m d.
Proof.
  intros [Hu (j & k & Hj & Hk & H1 & H2 & Hd)]. unfold is_mtie. rewrite rev_length. split.
  - intros p q Hp Hq Hpq Hqp. rewrite !nth_rev by assumption. apply Hu; lia.
  - exists (len x - 1 - j)%nat, (len x - 1 - k)%nat. repeat split; try lia.
    rewrite !nth_rev by lia. rewrite <- Hd. f_equal; f_equal; lia.
Qed.

Definition reversible : list stat :=
  [st_oadev; st_ohdev; st_mdev; st_tdev; st_totdev; st_mtotdev; st_ttotdev; st_htotdev;
   st_theo1; st_tierms; st_mtie].

Lemma reversal s x rate taus : In s reversible -> 0 < rate ->
  s_fun s (rev x) rate "phase" taus = s_fun s x rate "phase" taus.
Proof.
  intros Hs Hr. assert (Hst : In s stats) by (revert Hs; unfold reversible, stats; cbn; tauto).
  apply law_invariant; auto using rev_length. intros m Hm Hok _.
  unfold reversible in Hs. repeat (destruct Hs as [<-|Hs]); [..|destruct Hs]; cbn in *.
  - apply oavar_rev.
  - apply ohvar_rev.
  - apply mvar_rev.
  - unfold tvar. now rewrite mvar_rev.
  - now apply totvar_rev.
  - unfold third in Hok. apply Nat.leb_le in Hok. apply mtotvar_rev; lia.
  - unfold third in Hok. apply Nat.leb_le in Hok. rewrite mtotvar_rev by lia. reflexivity.
  - unfold third in Hok. apply Nat.leb_le in Hok. apply htotvar_rev; lia.
  - now apply theo1var_rev.
  - now apply tierms_var_rev.
  - assert (E : mtie_val (rev x) m = mtie_val x m); [|now rewrite E].
    apply (is_mtie_unique (rev x) m); [apply mtie_val_is; now rewrite rev_length|].
    apply is_mtie_rev. now apply mtie_val_is.
Qed.

(** ** single averaging factor *)
Lemma adm_single N rate m : 0 < rate -> (1 <= m < N)%nat ->
  admissible N rate (TList [INR m / rate]) [m].
Proof.
  intros Hr Hm. split; [exact I|]. split; [repeat constructor|].
  intros k. cbn. split.
  - intros [<-|[]]. split; [exact Hm|]. split; [exact I|]. exists (INR m / rate). split; [auto|].
    replace (INR m / rate * rate) with (IZR (Z.of_nat m)) by (rewrite <- INR_IZR_INZ; field; lra).
    apply half_even_IZR.
  - intros (Hk & _ & t & [<-|[]] & H). left.
    replace (INR m / rate * rate) with (IZR (Z.of_nat m)) in H by (rewrite <- INR_IZR_INZ; field; lra).
    pose proof (half_even_unique _ _ _ H (half_even_IZR (Z.of_nat m))). lia.
Qed.

Lemma report_single rate m d e c : (1 < c m)%Z ->
  report rate [m] d e c = Ok ([INR m / rate], [d m], EArr [e m], [c m]).
Proof. intros H. unfold report. cbn. destruct (Z.ltb_spec 1 (c m)); [reflexivity|lia]. Qed.
