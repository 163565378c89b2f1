(** * Sums of records and disturbances of bounded size (C90). *)
From Coq Require Import String Reals List ZArith Lra Lia Arith Bool Psatz.
From Verif Require Import Base Num NpList ModelCore ModelDev NumR ListFacts Spec RSum TauProofs DevProofs TotProofs Closed Laws Laws2 Laws3 SemiProofs SemiBound ConvProofs.
Import ListNotations.
Local Open Scope R_scope.
Local Notation len := List.length.

Ltac as_stat H L s Hs := match type of H with In ?f _ => change (In f (map s_fun L)) in H end;
  apply in_map_iff in H as (s & <- & Hs).

(** three answers with the same taus and n, the first one's deviations and errors at most the sum of the others';
    or the same exception *)
Definition at_most_sum (r r1 r2 : res (@result R)) : Prop :=
  match r, r1, r2 with
  | Ok (t, d, EArr e, n), Ok (t1, d1, EArr e1, n1), Ok (t2, d2, EArr e2, n2) =>
      t1 = t /\ t2 = t /\ n1 = n /\ n2 = n /\ len d = len t /\ len d1 = len t /\ len d2 = len t /\
      (forall i, d.[i] <= d1.[i] + d2.[i]) /\ (forall i, e.[i] <= e1.[i] + e2.[i])
  | Err x, Err x1, Err x2 => x1 = x /\ x2 = x
  | _, _, _ => False
  end.

Lemma nth_map0 (f : nat -> R) l i : (map f l).[i] = if (i <? len l)%nat then f (nth i l 0%nat) else 0.
Proof.
  destruct (Nat.ltb_spec i (len l)) as [Hi|Hi].
  - rewrite (nth_indep _ 0 (f 0%nat)) by (now rewrite map_length). apply map_nth.
  - apply nth_overflow. now rewrite map_length.
Qed.
Lemma s_w_nonneg s N m : In s stats -> 0 <= s_w s N m.
Proof.
  intros Hs. unfold stats in Hs. repeat (destruct Hs as [<-|Hs]); [..|destruct Hs];
      cbn [s_w st_adev st_oadev st_hdev st_ohdev st_mdev st_tdev
      st_pdev st_totdev st_mtotdev st_ttotdev st_htotdev st_theo1 st_tierms st_mtie];
      try lra; apply inv_ge0, sqrt_pos.
Qed.

Theorem C90_triangle f x y rate taus :
  In f [adev; oadev; hdev; ohdev; mdev; tdev; pdev; totdev; mtotdev; ttotdev; htotdev; theo1; tierms; mtie] ->
  0 < rate -> len y = len x ->
  at_most_sum (f (plus x y) rate "phase"%string taus) (f x rate "phase"%string taus) (f y rate "phase"%string taus).
Proof.
  intros Hf Hr Hl. as_stat Hf stats s Hs.
  destruct (same_rows s (len x) rate taus Hs Hr) as [[e E]|(good & _ & Hg & E)].
  - rewrite !E by (rewrite ?plus_len; auto). cbn. auto.
  - rewrite !E by (rewrite ?plus_len; auto). unfold at_most_sum. rewrite !map_length. repeat split.
    + intros i. rewrite !nth_map0. destruct (Nat.ltb_spec i (len good)) as [Hi|Hi]; [|lra].
      destruct (Hg (nth i good 0%nat) (nth_In _ _ Hi)) as (Hm & _ & Hc).
      apply (stat_semi (len x) s rate _ Hs Hm Hc x y eq_refl Hl).
    + intros i. rewrite !nth_map0. destruct (Nat.ltb_spec i (len good)) as [Hi|Hi]; [|lra].
      destruct (Hg (nth i good 0%nat) (nth_In _ _ Hi)) as (Hm & _ & Hc). rewrite <- Rmult_plus_distr_r.
      apply Rmult_le_compat_r; [now apply s_w_nonneg|]. apply (stat_semi (len x) s rate _ Hs Hm Hc x y eq_refl Hl).
Qed.
Print Assumptions C90_triangle.

(** Two records differ in their deviations by at most the deviation of their difference. *)
Theorem C90_distance f x y rate taus t d e n t' d' e' n' :
  In f [adev; oadev; hdev; ohdev; mdev; tdev; pdev; totdev; mtotdev; ttotdev; htotdev; theo1; tierms; mtie] ->
  0 < rate -> len y = len x ->
  f x rate "phase"%string taus = Ok (t, d, e, n) -> f y rate "phase"%string taus = Ok (t', d', e', n') ->
  t' = t /\ n' = n /\ exists dd ee, f (minus x y) rate "phase"%string taus = Ok (t, dd, ee, n) /\
    len d = len t /\ len d' = len t /\ len dd = len t /\ forall i, Rabs (d.[i] - d'.[i]) <= dd.[i].
Proof.
  intros Hf Hr Hl Ex Ey.
  pose proof (C90_triangle f (minus x y) y rate taus Hf Hr ltac:(now rewrite minus_len)) as T1.
  pose proof (C90_triangle f (minus y x) x rate taus Hf Hr ltac:(now rewrite minus_len)) as T2.
  pose proof (C90_triangle f x (minus y x) rate taus Hf Hr ltac:(now rewrite minus_len)) as T3.
  rewrite minus_plus in T1, T2 by auto. replace (plus x (minus y x)) with y in T3.
  2:{ apply (nth_ext _ _ 0 0); [now rewrite plus_len|]. intros i _. rewrite nth_plus, nth_minus by (rewrite ?minus_len; auto). ring. }
  (* the deviation of y - x is that of x - y *)
  assert (E : f (minus x y) rate "phase"%string taus = f (minus y x) rate "phase"%string taus).
  { clear T1 T2 T3 Ex Ey. as_stat Hf stats s Hs. pose proof (homogeneous s (-1) (minus y x) rate taus Hs Hr) as Hh.
    replace (scaled (-1) (minus y x)) with (minus x y) in Hh.
    2:{ apply (nth_ext _ _ 0 0); [unfold scaled; now rewrite map_length, !minus_len|]. intros i _. rewrite nth_scaled, !nth_minus by auto. ring. }
    rewrite Hh, Rabs_left by lra. replace (- -1) with 1 by lra.
    destruct (s_fun s (minus y x) rate "phase" taus) as [[[[u v] w] z]|ex]; [|reflexivity].
    assert (M : forall l, map (Rmult 1) l = l) by (intros l; rewrite <- (map_id l) at 2; apply map_ext; intros; ring).
    destruct w as [l|ls]; cbn; rewrite M; [now rewrite M|]. rewrite (map_ext _ (fun l => l) M), map_id. reflexivity. }
  rewrite Ex, Ey in T1, T2, T3. rewrite <- E in T2, T3.
  destruct (f (minus x y) rate "phase"%string taus) as [[[[u v] w] z]|ex]; cbn in T1, T2; destruct e as [e|es], e' as [e'|es'];
    try contradiction; try (destruct w; contradiction).
  destruct w as [w|ws]; [|contradiction].
  destruct T1 as (-> & -> & -> & -> & L1 & L2 & L3 & D1 & _). destruct T3 as (_ & _ & _ & _ & _ & _ & _ & D3 & _).
  split; [reflexivity|]. split; [reflexivity|]. exists v, (EArr w). repeat split; auto.
  intros i. specialize (D1 i). specialize (D3 i). unfold Rabs. destruct Rcase_abs; lra.
Qed.
Print Assumptions C90_distance.

(** ** records that agree up to q at every sample (read-out resolution, bounded glitches) *)
Definition gains : list ((list R -> R -> string -> taus_arg R -> res (@result R)) * (R -> R -> R)) :=
  [(adev, fun _ tau => sqrt 8 / tau); (oadev, fun _ tau => sqrt 8 / tau); (mdev, fun _ tau => sqrt 8 / tau);
   (tdev, fun _ _ => sqrt (8 / 3));
   (hdev, fun _ tau => sqrt (32 / 3) / tau); (ohdev, fun _ tau => sqrt (32 / 3) / tau);
   (pdev, fun _ tau => sqrt 18 / tau); (totdev, fun _ tau => sqrt 32 / tau);
   (mtotdev, fun _ tau => sqrt 72 / tau); (ttotdev, fun _ _ => sqrt 24);
   (htotdev, fun rate _ => sqrt 96 * rate);
   (theo1, fun rate tau => sqrt (64 / 3 * (1 + ln (tau * rate / 2))) / tau);
   (tierms, fun _ _ => 2); (mtie, fun _ _ => 2)].

Lemma dev_le V g B T : 0 <= B -> 0 <= g -> 0 < T -> V <= g * B ^ 2 / T ^ 2 -> sqrt V <= sqrt g / T * B.
Proof.
  intros HB Hg HT H. eapply Rle_trans; [apply sqrt_le_1_alt, H|]. right.
  replace (g * B ^ 2 / T ^ 2) with (g * (B / T) ^ 2) by (field; lra).
  rewrite sqrt_mult_alt, sqrt_pow2 by (assumption || (apply Rmult_le_pos; [assumption|left; now apply Rinv_0_lt_compat])). field. lra.
Qed.
Lemma dev_le1 V g B : 0 <= B -> 0 <= g -> V <= g * B ^ 2 -> sqrt V <= sqrt g * B.
Proof. intros HB Hg H. replace (sqrt g * B) with (sqrt g / 1 * B) by field. apply dev_le; try lra. Qed.
Lemma sqrt_4 : sqrt 4 = 2.
Proof. replace 4 with (2 ^ 2) by ring. apply sqrt_pow2. lra. Qed.

Ltac gain_intro :=
  let Hr := fresh "Hr" in let Hx := fresh "Hx" in let Hm := fresh "Hm" in
  intros x B rate m Hr Hx Hm;
  assert (HB : 0 <= B) by (eapply B0; exact Hx);
  assert (Ht : 0 < 1 / rate) by (apply Rdiv_lt_0_compat; lra); assert (Hm1 : (1 <= m)%nat) by lia;
  assert (Hi : 1 <= INR m) by (apply le_INR in Hm1; exact Hm1);
  assert (ET : INR m / rate = INR m * (1 / rate)) by (field; lra);
  assert (HT : 0 < INR m * (1 / rate)) by nra; rewrite ?ET.
Lemma stat_gain f g : In (f, g) gains -> exists s, In s stats /\ s_fun s = f /\
  forall x B rate m, 0 < rate -> within B x -> (1 <= m < len x)%nat ->
   s_ok s (len x) m = true -> (1 < s_cnt s (len x) m)%Z -> s_dev s x rate m <= g rate (INR m / rate) * B.
Proof.
  intros Hin.
  unfold gains in Hin. repeat (destruct Hin as [Hin|Hin]); try (now destruct Hin); injection Hin as <- <-.
  - exists st_adev. split; [cbn; tauto|]. split; [reflexivity|]. gain_intro. intros _ Hc. cbn in Hc. unfold c_adev in Hc.
    apply dev_le; try lra. cbn. apply avar_le; auto. unfold adev_n. lia.
  - exists st_oadev. split; [cbn; tauto|]. split; [reflexivity|]. gain_intro. intros _ Hc. cbn in Hc. unfold c_oadev in Hc.
    apply dev_le; try lra. cbn. apply oavar_le; auto. unfold oadev_n. lia.
  - exists st_mdev. split; [cbn; tauto|]. split; [reflexivity|]. gain_intro. intros _ Hc. cbn in Hc. unfold c_mdev in Hc.
    apply dev_le; try lra. cbn. apply mvar_le; auto. unfold mdev_n. lia.
  - exists st_tdev. split; [cbn; tauto|]. split; [reflexivity|]. gain_intro. intros _ Hc. cbn in Hc. unfold c_mdev in Hc.
    apply dev_le1; try lra. cbn [s_var st_tdev]. unfold tvar.
    pose proof (mvar_le x B (1 / rate) m Hx Ht Hm1 ltac:(unfold mdev_n; lia)) as M.
    pose proof (tpos (1 / rate) m Ht Hm1) as P. set (U := (INR m * (1 / rate)) ^ 2) in *.
    apply Rle_trans with (U / 3 * (8 * B ^ 2 / U)); [apply Rmult_le_compat_l; lra|]. right. field. lra.
  - exists st_hdev. split; [cbn; tauto|]. split; [reflexivity|]. gain_intro. intros _ Hc. cbn in Hc. unfold c_hdev in Hc.
    apply dev_le; try lra. cbn. apply hvar_le; auto. unfold hdev_n. lia.
  - exists st_ohdev. split; [cbn; tauto|]. split; [reflexivity|]. gain_intro. intros _ Hc. cbn in Hc. unfold c_ohdev in Hc.
    apply dev_le; try lra. cbn. apply ohvar_le; auto. unfold ohdev_n. lia.
  - exists st_pdev. split; [cbn; tauto|]. split; [reflexivity|]. gain_intro. intros _ Hc. cbn in Hc. unfold c_oadev in Hc.
    apply dev_le; try lra. apply pvar_le; auto. unfold oadev_n. lia.
  - exists st_totdev. split; [cbn; tauto|]. split; [reflexivity|]. gain_intro. intros _ Hc. cbn in Hc. unfold c_tot in Hc.
    apply dev_le; try lra. apply totvar_le; auto. unfold totdev_n. lia.
  - exists st_mtotdev. split; [cbn; tauto|]. split; [reflexivity|]. gain_intro. intros _ Hc. cbn in Hc. unfold c_mdev in Hc.
    apply dev_le; try lra. apply mtotvar_le; auto. unfold mdev_n. lia.
  - exists st_ttotdev. split; [cbn; tauto|]. split; [reflexivity|]. gain_intro. intros _ Hc. cbn in Hc. unfold c_mdev in Hc.
    apply dev_le1; try lra. cbn [s_var st_ttotdev].
    pose proof (mtotvar_le x B (1 / rate) m Hx Ht Hm1 ltac:(unfold mdev_n; lia)) as M.
    pose proof (tpos (1 / rate) m Ht Hm1) as P. set (U := (INR m * (1 / rate)) ^ 2) in *.
    apply Rle_trans with (U / 3 * (72 * B ^ 2 / U)); [apply Rmult_le_compat_l; lra|]. right. field. lra.
  - exists st_htotdev. split; [cbn; tauto|]. split; [reflexivity|]. gain_intro. intros _ Hc. cbn in Hc.
    replace (sqrt 96 * rate * B) with (sqrt 96 * (B * rate)) by ring.
    apply dev_le1; [nra|lra|]. replace (96 * (B * rate) ^ 2) with (96 * B ^ 2 * rate ^ 2) by ring. apply htotvar_le; auto. lia.
  - exists st_theo1. split; [cbn; tauto|]. split; [reflexivity|]. gain_intro. intros Hev Hc. cbn in Hev, Hc. unfold evenm in Hev. unfold c_theo in Hc.
    apply Nat.even_spec in Hev. destruct Hev as [h ->].
    assert (Hh : Nat.div2 (2 * h) = h) by apply Nat.div2_double. assert (H1 : (1 <= h)%nat) by lia.
    replace (INR (2 * h) * (1 / rate) * rate / 2) with (INR h) by (rewrite mult_INR; cbn [INR]; field; lra).
    assert (Hl : 0 <= ln (INR h)).
    { assert (1 <= INR h) as L by (apply le_INR in H1; exact H1). destruct L as [L | <-]; [left; rewrite <- ln_1; apply ln_increasing; lra|rewrite ln_1; lra]. }
    apply dev_le; try lra. cbn [s_var st_theo1]. eapply Rle_trans; [refine (theo1var_le x B (1 / rate) (2 * h) _ Ht Hm1 _); [assumption|lia]|]. rewrite Hh.
    pose proof (harmonic_le h H1). pose proof (tpos (1 / rate) (2 * h) Ht Hm1) as P. set (U := (INR (2 * h) * (1 / rate)) ^ 2) in *.
    unfold Rdiv. apply Rmult_le_compat_r; [left; now apply Rinv_0_lt_compat|]. apply Rmult_le_compat_r; [apply pow2_ge_0|]. lra.
  - exists st_tierms. split; [cbn; tauto|]. split; [reflexivity|]. gain_intro. intros _ Hc. rewrite <- sqrt_4. apply dev_le1; try lra. apply tierms_le; auto; lia.
  - exists st_mtie. split; [cbn; tauto|]. split; [reflexivity|]. gain_intro. intros _ Hc. rewrite <- sqrt_4. apply dev_le1; try lra. apply mtie_le; auto; lia.
Qed.

Theorem C90_resolution f g x y q rate taus t d e n t' d' e' n' : In (f, g) gains -> 0 < rate -> len y = len x ->
  (forall i, Rabs (x.[i] - y.[i]) <= q) ->
  f x rate "phase"%string taus = Ok (t, d, e, n) -> f y rate "phase"%string taus = Ok (t', d', e', n') ->
  t' = t /\ n' = n /\ len d = len t /\ len d' = len t /\
  forall i, (i < len t)%nat -> Rabs (d.[i] - d'.[i]) <= g rate t.[i] * q.
Proof.
  intros Hin Hr Hl Hq Ex Ey.
  assert (Hf : In f [adev; oadev; hdev; ohdev; mdev; tdev; pdev; totdev; mtotdev; ttotdev; htotdev; theo1; tierms; mtie]).
  { apply (in_map fst) in Hin. cbn [map fst gains] in Hin. cbn [In] in *. intuition. }
  destruct (C90_distance f x y rate taus t d e n t' d' e' n' Hf Hr Hl Ex Ey) as (-> & -> & dd & ee & Em & L1 & L2 & L3 & D).
  repeat split; auto. intros i Hi. eapply Rle_trans; [apply D|].
  assert (Hw : within q (minus x y)) by (intros j; now rewrite nth_minus).
  destruct (stat_gain f g Hin) as (s & Hs & Es & G).
  destruct (same_rows s (len x) rate taus Hs Hr) as [[ex E]|(good & _ & Hg & E)].
  - rewrite Es in E. rewrite E in Ex by reflexivity. discriminate.
  - rewrite Es in E. pose proof Em as Em'. rewrite E in Em' by apply minus_len. injection Em' as Et Ed _ _. subst t dd.
    rewrite map_length in Hi. rewrite !nth_map0. destruct (Nat.ltb_spec i (len good)); [|lia].
    destruct (Hg (nth i good 0%nat) (nth_In _ _ Hi)) as (Hm & Hok & Hc).
    specialize (G (minus x y) q rate (nth i good 0%nat)). rewrite minus_len in G. apply G; auto.
Qed.

(** ** the gains of oadev, ohdev, tierms and mtie are attained at every odd m: by the record q, -q, q, -q, ... *)
Definition zigzag (q : R) (N : nat) : list R := map (fun i => if Nat.even i then q else - q) (seq 0 N).
Lemma zigzag_len q N : len (zigzag q N) = N.
Proof. unfold zigzag. now rewrite map_length, seq_length. Qed.
Lemma zigzag_nth q N i : (i < N)%nat -> (zigzag q N).[i] = if Nat.even i then q else - q.
Proof. intros H. unfold zigzag. exact (nth_tab N (fun i => if Nat.even i then q else - q) i 0 H). Qed.
Lemma zigzag_within q N i : 0 <= q -> Rabs ((zigzag q N).[i] - (zigzag 0 N).[i]) <= q.
Proof.
  intros Hq. destruct (Nat.lt_ge_cases i N) as [H|H].
  - rewrite !zigzag_nth by exact H. destruct (Nat.even i); [rewrite Rminus_0_r, Rabs_pos_eq; lra|].
    replace (- q - - 0) with (- q) by ring. rewrite Rabs_Ropp, Rabs_pos_eq; lra.
  - rewrite !nth_overflow by (rewrite zigzag_len; lia). rewrite Rminus_0_r, Rabs_R0. exact Hq.
Qed.
Lemma even_odd m i : Nat.Odd m -> Nat.even (i + m) = negb (Nat.even i).
Proof.
  intros H. apply Nat.odd_spec in H. rewrite Nat.even_add, <- (Nat.negb_odd m), H. now destruct (Nat.even i).
Qed.

Section Sharp.
Context (q rate : R) (N m : nat) (Hq : 0 <= q) (Hr : 0 < rate) (Hm : Nat.Odd m).
Let H1 : (1 <= m)%nat. Proof. destruct Hm as [k ->]. lia. Qed.
Let Hi : 1 <= INR m. Proof. apply le_INR in H1. exact H1. Qed.
Lemma sharp_out V g : 0 <= g -> V = g * q ^ 2 / (INR m * (1 / rate)) ^ 2 -> sqrt V = sqrt g / (INR m / rate) * q.
Proof using All.
  intros Hg ->. replace (g * q ^ 2 / (INR m * (1 / rate)) ^ 2) with (g * (q / (INR m / rate)) ^ 2) by (field; lra).
  assert (0 < INR m / rate) by (apply Rdiv_lt_0_compat; lra).
  rewrite sqrt_mult_alt, sqrt_pow2 by (assumption || (apply Rmult_le_pos; [assumption|left; now apply Rinv_0_lt_compat])). field. lra.
Qed.
Lemma zz_oavar : (2 * m + 2 <= N)%nat -> oavar (zigzag q N) (1 / rate) m = 8 * q ^ 2 / (INR m * (1 / rate)) ^ 2.
Proof using All.
  intros HN. unfold oavar, oadev_n. rewrite zigzag_len. rewrite (bigsum_ext _ _ (fun _ => 16 * q ^ 2)).
  - rewrite bigsum_const. field. assert (INR (N - 2 * m) <> 0) by (apply not_0_INR; lia). repeat split; lra.
  - intros i L. unfold d2. rewrite !zigzag_nth by lia. replace (i + 2 * m)%nat with (i + m + m)%nat by lia.
    rewrite !even_odd by assumption. destruct (Nat.even i); cbn [negb]; ring.
Qed.
Lemma zz_ohvar : (3 * m + 2 <= N)%nat -> ohvar (zigzag q N) (1 / rate) m = 32 / 3 * q ^ 2 / (INR m * (1 / rate)) ^ 2.
Proof using All.
  intros HN. unfold ohvar, ohdev_n. rewrite zigzag_len. rewrite (bigsum_ext _ _ (fun _ => 64 * q ^ 2)).
  - rewrite bigsum_const. field. assert (INR (N - 3 * m) <> 0) by (apply not_0_INR; lia). repeat split; lra.
  - intros i L. unfold d3. rewrite !zigzag_nth by lia. replace (i + 3 * m)%nat with (i + m + m + m)%nat by lia.
    replace (i + 2 * m)%nat with (i + m + m)%nat by lia.
    rewrite !even_odd by assumption. destruct (Nat.even i); cbn [negb]; ring.
Qed.
Lemma zz_tierms : (m + 2 <= N)%nat -> sqrt (tierms_var (zigzag q N) m) = 2 * q.
Proof using All.
  intros HN. unfold tierms_var. rewrite zigzag_len. rewrite (bigsum_ext _ _ (fun _ => (2 * q) ^ 2)).
  - rewrite bigsum_const. replace (/ INR (N - m) * _) with ((2 * q) ^ 2); [apply sqrt_pow2; lra|].
    field. apply not_0_INR. lia.
  - intros i L. rewrite !zigzag_nth by lia. rewrite even_odd by assumption. destruct (Nat.even i); cbn [negb]; ring.
Qed.
Lemma zz_mtie : (m + 2 <= N)%nat -> is_mtie (zigzag q N) m (2 * q).
Proof using All.
  intros HN. split.
  - intros j k Hj Hk _ _. rewrite zigzag_len in *. rewrite !zigzag_nth by assumption.
    destruct (Nat.even j), (Nat.even k); lra.
  - exists 0%nat, m. rewrite zigzag_len. repeat split; try lia. rewrite !zigzag_nth by lia.
    rewrite <- (Nat.add_0_l m), even_odd by assumption. cbn. lra.
Qed.
Theorem C90_sharp f g : In (f, g) [(oadev, fun tau => sqrt 8 / tau); (ohdev, fun tau => sqrt (32 / 3) / tau); (tierms, fun _ => 2); (mtie, fun _ => 2)] ->
  (3 * m + 2 <= N)%nat -> len (zigzag 0 N) = len (zigzag q N) /\ (forall i, Rabs ((zigzag q N).[i] - (zigzag 0 N).[i]) <= q) /\
  (exists e n, f (zigzag q N) rate "phase"%string (TList [INR m / rate]) = Ok ([INR m / rate], [g (INR m / rate) * q], e, n)).
Proof using All.
  intros Hin HN. split; [now rewrite !zigzag_len|]. split; [intros; now apply zigzag_within|].
  repeat (destruct Hin as [Hin|Hin]); try (now destruct Hin); injection Hin as <- <-.
  - rewrite oadev_single by (rewrite ?zigzag_len; auto; lia). cbv zeta.
    rewrite (sharp_out _ 8) by (lra || (apply zz_oavar; lia)). eauto.
  - rewrite ohdev_single by (rewrite ?zigzag_len; auto; lia). cbv zeta.
    rewrite (sharp_out _ (32 / 3)) by (lra || (apply zz_ohvar; lia)). eauto.
  - rewrite ConvProofs.tierms_single by (rewrite ?zigzag_len; auto; lia). rewrite zz_tierms by lia. eauto.
  - rewrite (mtie_single _ _ _ (2 * q)) by (rewrite ?zigzag_len; auto; try lia; apply zz_mtie; lia). eauto.
Qed.
End Sharp.

(** 1, -1, 1, ... against 1/2, -1/2, 1/2, ...: samples differ by 1/2, oadev by the full sqrt 8 * 1/2 *)
Example C90_resolution_ex : exists e n e' n',
  oadev (zigzag 1 8) 1 "phase"%string (TList [INR 1 / 1]) = Ok ([INR 1 / 1], [sqrt 8 / (INR 1 / 1) * 1], e, n) /\
  oadev (zigzag (1 / 2) 8) 1 "phase"%string (TList [INR 1 / 1]) = Ok ([INR 1 / 1], [sqrt 8 / (INR 1 / 1) * (1 / 2)], e', n') /\
  (forall i, Rabs ((zigzag 1 8).[i] - (zigzag (1 / 2) 8).[i]) <= 1 / 2) /\
  Rabs ([sqrt 8 / (INR 1 / 1) * 1].[0] - [sqrt 8 / (INR 1 / 1) * (1 / 2)].[0]) = sqrt 8 / (INR 1 / 1) * (1 / 2).
Proof.
  destruct (C90_sharp 1 1 8 1 ltac:(lra) ltac:(lra) ltac:(exists 0%nat; reflexivity) oadev _ (or_introl eq_refl) ltac:(lia)) as (_ & _ & e & n & E).
  destruct (C90_sharp (1 / 2) 1 8 1 ltac:(lra) ltac:(lra) ltac:(exists 0%nat; reflexivity) oadev _ (or_introl eq_refl) ltac:(lia)) as (_ & _ & e' & n' & E').
  exists e, n, e', n'. split; [exact E|]. split; [exact E'|]. split.
  - intros i. destruct (Nat.lt_ge_cases i 8) as [H|H].
    + rewrite !zigzag_nth by exact H. destruct (Nat.even i); [rewrite Rabs_pos_eq; lra|rewrite Rabs_left; lra].
    + rewrite !nth_overflow by (rewrite zigzag_len; lia). rewrite Rminus_0_r, Rabs_R0. lra.
  - cbn [nth]. pose proof (sqrt_pos 8). cbn [INR].
    replace (sqrt 8 / (1 / 1) * 1 - sqrt 8 / (1 / 1) * (1 / 2)) with (sqrt 8 / (1 / 1) * (1 / 2)) by field.
    apply Rabs_pos_eq. replace (sqrt 8 / (1 / 1) * (1 / 2)) with (sqrt 8 / 2) by field. lra.
Qed.
Print Assumptions C90_resolution.
Print Assumptions C90_sharp.

(** the sum of the two records above is 3/2, -3/2, ...: here the triangle inequality is an equality *)
Example C90_triangle_ex : plus (zigzag 1 8) (zigzag (1 / 2) 8) = zigzag (3 / 2) 8 /\
  len (zigzag (1 / 2) 8) = len (zigzag 1 8) /\
  exists e n, oadev (plus (zigzag 1 8) (zigzag (1 / 2) 8)) 1 "phase"%string (TList [INR 1 / 1]) =
              Ok ([INR 1 / 1], [sqrt 8 / (INR 1 / 1) * 1 + sqrt 8 / (INR 1 / 1) * (1 / 2)], e, n).
Proof.
  assert (E0 : plus (zigzag 1 8) (zigzag (1 / 2) 8) = zigzag (3 / 2) 8) by (unfold plus, zigzag; cbn; repeat (apply (f_equal2 (@cons R)); [lra|]); reflexivity).
  split; [exact E0|]. split; [reflexivity|]. rewrite E0.
  destruct (C90_sharp (3 / 2) 1 8 1 ltac:(lra) ltac:(lra) ltac:(exists 0%nat; reflexivity) oadev _ (or_introl eq_refl) ltac:(lia)) as (_ & _ & e & n & E).
  eexists _, _. rewrite E.
  replace (sqrt 8 / (INR 1 / 1) * (3 / 2)) with (sqrt 8 / (INR 1 / 1) * 1 + sqrt 8 / (INR 1 / 1) * (1 / 2)) by (cbn [INR]; field). reflexivity.
Qed.
