(** * NaN in the input: which rows it reaches, in every arithmetic whose
    operations return NaN for a NaN operand. *)
From Coq Require Import String List ZArith Lia Arith Bool Sorted.
From Verif Require Import Base Num NpList ModelCore ModelDev ListFacts GenericProofs.
Import ListNotations.
Local Notation len := List.length.
Local Open Scope num_scope.

(** NaN in, NaN out. *)
Record nan_strict (A : Type) {NA : Num A} : Prop := {
  ns_add : forall a b : A, nisnan a = true \/ nisnan b = true -> nisnan (a + b) = true;
  ns_sub : forall a b : A, nisnan a = true \/ nisnan b = true -> nisnan (a - b) = true;
  ns_mul : forall a b : A, nisnan a = true \/ nisnan b = true -> nisnan (a * b) = true;
  ns_div : forall a b : A, nisnan a = true \/ nisnan b = true -> nisnan (a / b) = true;
  ns_sqrt : forall a : A, nisnan a = true -> nisnan (nsqrt a) = true }.

(** a result as a list of rows (m, dev, err, n) *)
Section Rows.
Context {A : Type} {NA : Num A}.
Definition of_rows (rate : A) (rows : list (nat * A * A * Z)) : @result A :=
  (map (fun '(m, _, _, _) => ofN m / rate) rows, map (fun '(_, d, _, _) => d) rows,
   EArr (map (fun '(_, _, e, _) => e) rows), map (fun '(_, _, _, n) => n) rows).

Lemma mapM_rows (calc : nat -> res (A * A * Z)) ms rows : mapM (fun mj => calc (Z.to_nat mj)) ms = Ok rows ->
  Forall2 (fun m r => calc (Z.to_nat m) = Ok r) ms rows.
Proof.
  revert rows. induction ms as [|m ms IH]; cbn; intros rows H.
  - injection H as <-. constructor.
  - destruct (calc (Z.to_nat m)) as [r|] eqn:E; cbn [bind] in H; [|discriminate].
    destruct (mapM _ ms) as [q|]; cbn [bind] in H; [|discriminate]. injection H as <-. constructor; auto.
Qed.

Definition zip_rows (ms : list Z) (rows : list (A * A * Z)) : list (nat * A * A * Z) :=
  map (fun c : Z * (A * A * Z) => (Z.to_nat (fst c), fst (fst (snd c)), snd (fst (snd c)), snd (snd c))) (combine ms rows).
Lemma zip_rows_spec calc (rate : A) ms0 ms rows : incl ms ms0 -> Forall (fun m => (1 <= m)%Z) ms ->
  Forall2 (fun m r => calc (Z.to_nat m) = Ok r) ms rows ->
  let cr := zip_rows ms rows in
  map (fun m => ofZ m / rate) ms = map (fun '(m, _, _, _) => ofN m / rate) cr /\
  map (fun r => fst (fst r)) rows = map (fun '(_, d, _, _) => d) cr /\
  map (fun r => snd (fst r)) rows = map (fun '(_, _, e, _) => e) cr /\
  map snd rows = map (fun '(_, _, _, n) => n) cr /\
  Forall (fun '(m, d, e, n) => In (Z.of_nat m) ms0 /\ calc m = Ok (d, e, n)) cr /\
  map (fun '(m, _, _, _) => m) cr = map Z.to_nat ms.
Proof.
  intros Hi Hp E. unfold zip_rows. induction E as [|m [[d e] n] ms rows Hc E IH]; [repeat split; constructor|].
  apply Forall_cons_iff in Hp as [H1 Hp].
  assert (Hi' : incl ms ms0) by (intros z Hz; apply Hi; now right).
  destruct (IH Hi' Hp) as (E1 & E2 & E3 & E4 & E5 & E6).
  cbn [combine map fst snd]. rewrite <- E1, <- E2, <- E3, <- E4, E6.
  assert (Hz : Z.of_nat (Z.to_nat m) = m) by lia.
  repeat split; auto.
  - unfold ofN. now rewrite Hz.
  - constructor; [|exact E5]. rewrite Hz. split; [apply Hi; now left|exact Hc].
Qed.

(** the rows of [run_rows] *)
Lemma run_rows_rows calc ms (rate : A) r : StronglySorted Z.lt ms -> Forall (fun m => (1 <= m)%Z) ms ->
  run_rows calc ms (map (fun m => ofZ m / rate) ms) = Ok r ->
  exists rows, r = of_rows rate rows /\ StronglySorted lt (map (fun '(m, _, _, _) => m) rows) /\
    Forall (fun '(m, d, e, n) => In (Z.of_nat m) ms /\ calc m = Ok (d, e, n) /\ (1 < n)%Z) rows.
Proof.
  intros Hs Hp. unfold run_rows. destruct (mapM _ ms) as [rows|] eqn:E; cbn [bind]; [|discriminate].
  apply mapM_rows in E.
  destruct (zip_rows_spec calc rate ms ms rows (fun z Hz => Hz) Hp E) as (E1 & E2 & E3 & E4 & E5 & E6).
  set (cr := zip_rows ms rows) in *.
  rewrite E1, E2, E3, E4. unfold remove_small_ns. rewrite map_map, !mask_select_map. cbn [bind].
  set (g := filter _ cr). intros H.
  assert (Hg : g <> []) by (intros C; rewrite C in H; discriminate).
  exists g. split; [|split].
  - destruct g; [contradiction|]. unfold of_rows. cbn [map] in H |- *. injection H as <-. reflexivity.
  - assert (Hss : StronglySorted lt (map (fun '(m, _, _, _) => m) cr)).
    { rewrite E6. clear -Hs Hp. induction Hs as [|m ms Hs IH Hf]; [constructor|]. apply Forall_cons_iff in Hp as [H1 Hp].
      cbn [map]. constructor; [auto|]. apply Forall_forall. intros k Hk. apply in_map_iff in Hk as (z & <- & Hz).
      rewrite Forall_forall in Hf. apply Hf in Hz. lia. }
    unfold g. clear -Hss. induction cr as [|[[[m d] e] n] cr IH]; [constructor|]. cbn [map] in Hss.
    apply StronglySorted_inv in Hss as [Hss Hf]. cbn [filter]. destruct (_ <? _)%Z; [|auto]. cbn [map]. constructor; [auto|].
    apply Forall_forall. intros k Hk. apply in_map_iff in Hk as ([[[m' d'] e'] n'] & <- & Hk). apply filter_In in Hk as [Hk _].
    rewrite Forall_forall in Hf. apply Hf. apply in_map_iff. now exists (m', d', e', n').
  - apply Forall_forall. intros [[[m d] e] n] Hr. apply filter_In in Hr as [Hr H1]. rewrite Forall_forall in E5.
    apply E5 in Hr as [Ha Hb]. apply Z.ltb_lt in H1. auto.
Qed.

Lemma select_m_lt n (rate mx : A) l : Forall (fun m => (m < Z.of_nat n)%Z) (select_m n rate mx l).
Proof.
  apply Forall_forall. intros z Hz. unfold select_m in Hz. rewrite unique_In in Hz.
  apply in_flat_map in Hz as (t & _ & Hz). destruct (nrint _) as [m|]; [|destruct Hz].
  destruct ((m <? Z.of_nat n)%Z && (0 <? m)%Z && nleb (ofZ m) mx) eqn:E; [|destruct Hz].
  destruct Hz as [<-|[]]. apply andb_prop in E as [E _]. apply andb_prop in E as [E _].
  apply Z.ltb_lt in E. lia.
Qed.
Lemma tau_generator_lt (x : list A) rate taus even mx x' ms t :
  tau_generator x rate taus even mx = Ok (x', ms, t) -> Forall (fun m => (m < Z.of_nat (len x))%Z) ms.
Proof.
  unfold tau_generator. destruct (neqb rate (ofZ 0)); [discriminate|].
  destruct (expand_taus _ _ _) as [ts|]; cbn [bind]; [|discriminate]. intros H. injection H as _ <- _.
  pose proof (select_m_lt (len x) rate (if neqb mx (ofZ (-1)) then ofN (len x) else mx) ts) as Hl.
  destruct even; [|exact Hl]. apply Forall_forall. intros z Hz. apply filter_In in Hz as [Hz _].
  rewrite Forall_forall in Hl. auto.
Qed.
(** tau_generator looks at the length of the record only *)
Lemma tau_generator_len (x x' : list A) rate taus even mx ms t y : len x = len x' ->
  tau_generator x rate taus even mx = Ok (y, ms, t) -> tau_generator x' rate taus even mx = Ok (x', ms, t).
Proof.
  unfold tau_generator. intros <-. destruct (neqb rate (ofZ 0)); [discriminate|].
  destruct (expand_taus _ _ _) as [ts|]; cbn [bind]; [|discriminate]. intros H. now injection H as <- <- <-.
Qed.

Lemma gen_rows (p : list A) rate taus even mx (calc : list A -> nat -> res (A * A * Z)) r :
  (r' <- tau_generator p rate taus even mx ;;
   let '(x, ms, t) := r' in run_rows (calc x) ms t) = Ok r ->
  exists rows, r = of_rows rate rows /\ StronglySorted lt (map (fun '(m, _, _, _) => m) rows) /\
    Forall (fun '(m, d, e, n) => (1 <= m < len p)%nat /\ calc p m = Ok (d, e, n) /\ (1 < n)%Z) rows.
Proof.
  destruct (tau_generator p rate taus even mx) as [[[x' ms] t]|] eqn:E; cbn [bind]; [|discriminate].
  pose proof (tau_generator_lt _ _ _ _ _ _ _ _ E) as Hl.
  apply tau_generator_shape in E as (-> & Hs & Hp & ->). intros H.
  apply run_rows_rows in H as (rows & -> & Hss & Hf); auto. exists rows. split; [reflexivity|]. split; [exact Hss|].
  rewrite Forall_forall in Hp, Hl. eapply Forall_impl; [|exact Hf]. intros [[[m d] e] n] (Hi & Hc & Hn).
  pose proof (Hp _ Hi). pose proof (Hl _ Hi). cbn in *. split; [lia|]. auto.
Qed.
End Rows.

(** ** propagation *)
Section Strict.
Context {A : Type} {NA : Num A} (S : nan_strict A).
Let bad (a : A) := nisnan a = true.

Lemma bad_fold l : forall a, bad a \/ Exists bad l -> bad (fold_left nadd l a).
Proof.
  induction l as [|b l IH]; intros a [H|H]; cbn [fold_left].
  - exact H.
  - inversion H.
  - apply IH. left. apply (ns_add _ S). now left.
  - apply IH. apply Exists_cons in H as [H|H]; [left; apply (ns_add _ S); now right|now right].
Qed.
Lemma bad_asum l : Exists bad l -> bad (asum l).
Proof. intros H. apply bad_fold. now right. Qed.
Lemma bad_nsq a : bad a -> bad (nsq a).
Proof. intros H. apply (ns_mul _ S). now left. Qed.
Lemma bad_map (g : A -> A) l : (forall a, bad a -> bad (g a)) -> Exists bad l -> Exists bad (map g l).
Proof. intros Hg H. induction H; cbn [map]; [apply Exists_cons_hd|apply Exists_cons_tl]; auto. Qed.
Lemma bad_sumsq l : Exists bad l -> bad (sumsq l).
Proof. intros H. apply bad_asum. apply bad_map; [apply bad_nsq|exact H]. Qed.
Lemma bad_mean l : Exists bad l -> bad (mean l).
Proof. intros H. apply (ns_div _ S). left. now apply bad_asum. Qed.
Lemma bad_tab n f i : (i < n)%nat -> bad (f i) -> Exists bad (tab n f).
Proof. intros Hi H. apply Exists_exists. exists (f i). split; [|exact H]. apply in_map. apply in_seq. lia. Qed.
Lemma bad_max a b : bad a \/ bad b -> bad (nmax2 a b).
Proof. unfold nmax2, bad. destruct (nisnan a) eqn:E; [auto|]. intros [H|H]; [discriminate|]. now rewrite H. Qed.
Lemma bad_min a b : bad a \/ bad b -> bad (nmin2 a b).
Proof. unfold nmin2, bad. destruct (nisnan a) eqn:E; [auto|]. intros [H|H]; [discriminate|]. now rewrite H. Qed.
Lemma bad_npmax l a : Exists bad l -> npmax l = Ok a -> bad a.
Proof.
  destruct l as [|b l]; [discriminate|]. intros H E. injection E as <-.
  assert (Hf : forall l b, bad b \/ Exists bad l -> bad (fold_left nmax2 l b)).
  { clear. induction l as [|c l IH]; intros b [H|H]; cbn [fold_left]; [exact H|inversion H| |].
    - apply IH. left. apply bad_max. now left.
    - apply IH. apply Exists_cons in H as [H|H]; [left; apply bad_max; now right|now right]. }
  apply Hf. now apply Exists_cons in H.
Qed.
Lemma bad_cumsum_from l : forall a, bad a \/ Exists bad l -> l <> [] -> Exists bad (cumsum_from a l).
Proof.
  induction l as [|b l IH]; intros a H Hl; [contradiction|]. cbn [cumsum_from].
  assert (bad a \/ bad b \/ Exists bad l) as [H1|[H1|H1]].
  { destruct H as [H|H]; [auto|]. apply Exists_cons in H. tauto. }
  - apply Exists_cons_hd. apply (ns_add _ S). now left.
  - apply Exists_cons_hd. apply (ns_add _ S). now right.
  - apply Exists_cons_tl. apply IH; [now right|]. intros ->. inversion H1.
Qed.
Lemma bad_cumsum l : Exists bad l -> Exists bad (cumsum l).
Proof.
  destruct l as [|a l]; intros H; [inversion H|]. cbn [cumsum]. apply Exists_cons in H as [H|H]; [now apply Exists_cons_hd|].
  apply Exists_cons_tl. apply bad_cumsum_from; [now right|]. intros ->. inversion H.
Qed.
Lemma bad_dev_err d q e (E : e = d / q) : bad d -> bad d /\ bad e.
Proof. intros H. subst e. split; [exact H|]. apply (ns_div _ S). now left. Qed.
End Strict.

(** ** closed forms of the rows in every arithmetic *)
Section Forms.
Context {A : Type} {NA : Num A}.
Let val (x : list A) i := nth i x (ofZ 0).

Lemma bmap2_nil_l {B C D} (g : B -> C -> D) b : (len b <= 1)%nat -> bmap2 g [] b = Ok [].
Proof. destruct b as [|c [|c' b]]; cbn; intros H; [reflexivity|reflexivity|lia]. Qed.

Lemma stride_count_mono n a b s : (1 <= s)%nat -> (a <= b)%nat -> (stride_count n b s <= stride_count n a s)%nat.
Proof.
  intros Hs Hab. destruct (Nat.le_gt_cases (stride_count n b s) (stride_count n a s)) as [H|H]; [exact H|].
  apply (stride_count_lt n b s (stride_count n a s) Hs) in H.
  assert (stride_count n a s < stride_count n a s)%nat by (apply stride_count_lt; [exact Hs|lia]). lia.
Qed.

Definition sdiff (x : list A) (m s i : nat) : A := val x (2 * m + i * s) - ofZ 2 * val x (1 * m + i * s) + val x (0 + i * s).
Definition tdiff (x : list A) (m s i : nat) : A :=
  val x (3 * m + i * s) - ofZ 3 * val x (2 * m + i * s) + ofZ 3 * val x (1 * m + i * s) - val x (0 + i * s).

Definition adev_cnt (N m s : nat) : nat := let c := stride_count N (2 * m) s in if Nat.eqb c 0 then 1%nat else c.
Definition adev_val (x : list A) (rate : A) m s : A :=
  nsqrt (sumsq (tab (stride_count (len x) (2 * m) s) (sdiff x m s)) / (ofZ 2 * ofN (adev_cnt (len x) m s))) / ofN m * rate.
Lemma calc_adev_form x rate m s : (1 <= s)%nat -> calc_adev_phase x rate m s =
  Ok (adev_val x rate m s, adev_val x rate m s / nsqrt (ofN (adev_cnt (len x) m s)), Z.of_nat (adev_cnt (len x) m s)).
Proof.
  intros Hs. transitivity (calc_adev_phase (tab (len x) (fun i => nth i x (ofZ 0))) rate m s); [now rewrite <- (list_tab x (ofZ 0))|].
  unfold calc_adev_phase. rewrite !pystride_tab by exact Hs. cbn [bind].
  rewrite !tab_length.
  pose proof (stride_count_mono (len x) 0 (1 * m) s Hs ltac:(lia)). pose proof (stride_count_mono (len x) (1 * m) (2 * m) s Hs ltac:(lia)).
  unfold min3. rewrite (Nat.min_r _ (stride_count (len x) (2 * m) s)) by lia. rewrite Nat.min_r by lia.
  fold (adev_cnt (len x) m s).
  assert (E : second_diff (adev_cnt (len x) m s) (tab (stride_count (len x) (2 * m) s) (fun i => nth (2 * m + i * s) x (ofZ 0)))
     (tab (stride_count (len x) (1 * m) s) (fun i => nth (1 * m + i * s) x (ofZ 0)))
     (tab (stride_count (len x) 0 s) (fun i => nth (0 + i * s) x (ofZ 0))) = Ok (tab (stride_count (len x) (2 * m) s) (sdiff x m s))).
  { unfold second_diff, scal, vsub, vadd, adev_cnt. rewrite !firstn_tab, map_tab. destruct (Nat.eqb_spec (stride_count (len x) (2 * m) s) 0) as [->|H1].
    - change (Nat.min 1 0) with 0%nat. rewrite !tab_0. rewrite bmap2_nil_l by (rewrite tab_length; lia). cbn [bind].
      apply bmap2_nil_l. rewrite tab_length; lia.
    - rewrite !Nat.min_l by lia. rewrite bmap2_tab. cbn [bind]. now rewrite bmap2_tab. }
  rewrite E. reflexivity.
Qed.

Definition hdev_cnt (N m s : nat) : nat := let c := stride_count N (3 * m) s in if Nat.eqb c 0 then 1%nat else c.
Definition hdev_val (x : list A) (rate : A) m s : A :=
  nsqrt (sumsq (tab (stride_count (len x) (3 * m) s) (tdiff x m s)) / ofZ 6 / ofN (hdev_cnt (len x) m s)) / (ofZ 1 / rate * ofN m).
Lemma calc_hdev_form x rate m s : (1 <= s)%nat -> calc_hdev_phase x rate m s =
  Ok (hdev_val x rate m s, hdev_val x rate m s / nsqrt (ofN (hdev_cnt (len x) m s)), Z.of_nat (hdev_cnt (len x) m s)).
Proof.
  intros Hs. transitivity (calc_hdev_phase (tab (len x) (fun i => nth i x (ofZ 0))) rate m s); [now rewrite <- (list_tab x (ofZ 0))|].
  unfold calc_hdev_phase. rewrite !pystride_tab by exact Hs. cbn [bind].
  rewrite !tab_length.
  pose proof (stride_count_mono (len x) 0 (1 * m) s Hs ltac:(lia)). pose proof (stride_count_mono (len x) (1 * m) (2 * m) s Hs ltac:(lia)).
  pose proof (stride_count_mono (len x) (2 * m) (3 * m) s Hs ltac:(lia)).
  unfold min4, min3. rewrite (Nat.min_r _ (stride_count (len x) (3 * m) s)) by lia.
  unfold third_diff, scal, vsub, vadd. rewrite !firstn_tab, !map_tab, !Nat.min_l by lia.
  rewrite bmap2_tab. cbn [bind]. rewrite bmap2_tab. cbn [bind]. rewrite bmap2_tab. reflexivity.
Qed.

(** mdev *)
Definition mdev_e (N m : nat) : nat := (N - 3 * m)%nat.
Definition mdev_sum (x : list A) m : A :=
  let v := asum (tab (Nat.min m (len x - 2 * m)) (fun i => val x (2 * m + i) - ofZ 2 * val x (m + i) + val x (0 + i))) in
  v * v + sumsq (map (fun c => v + c) (cumsum (tab (len x - 3 * m) (tdiff x m 1)))).
Definition mdev_val (x : list A) (rate : A) m : A :=
  nsqrt (mdev_sum x m / (ofZ 2 * ofN m * ofN m * (ofN m / rate) * (ofN m / rate) * ofN (Datatypes.S (len x - 3 * m)))).
Lemma calc_mdev_tab N (f : nat -> A) rate m :
  let v := asum (tab (Nat.min m (N - 2 * m)) (fun i => f (2 * m + i)%nat - ofZ 2 * f (m + i)%nat + f (0 + i)%nat)) in
  let s := nsqrt ((v * v + sumsq (map (fun c => v + c) (cumsum (tab (N - 3 * m) (fun i => f (3 * m + i)%nat - ofZ 3 * f (2 * m + i)%nat + ofZ 3 * f (1 * m + i)%nat - f i)))))
    / (ofZ 2 * ofN m * ofN m * (ofN m / rate) * (ofN m / rate) * ofN (Datatypes.S (N - 3 * m)))) in
  calc_mdev_phase (tab N f) rate m = Ok (s, s / nsqrt (ofN (Datatypes.S (N - 3 * m))), Z.of_nat (Datatypes.S (N - 3 * m))).
Proof.
  cbv zeta. unfold calc_mdev_phase. cbv zeta.
  rewrite !pyslice_tab, !skipn_tab, !tab_length. unfold min3, min4, min3.
  replace (Nat.min (Nat.min (m - 0) (N - 0)) (Nat.min (Nat.min (2 * m - m) (N - m)) (Nat.min (3 * m - 2 * m) (N - 2 * m))))
    with (Nat.min m (N - 2 * m)) by lia.
  replace (Nat.min (Nat.min N (Nat.min (N - 1 * m) (N - 2 * m))) (N - 3 * m)) with (N - 3 * m)%nat by lia.
  unfold second_diff, third_diff, scal, vsub, vadd. rewrite !firstn_tab, !map_tab.
  rewrite !(Nat.min_l (Nat.min m (N - 2 * m))) by lia.
  rewrite bmap2_tab. cbn [bind]. rewrite bmap2_tab. cbn [bind].
  rewrite !(Nat.min_l (N - 3 * m)) by lia.
  rewrite bmap2_tab. cbn [bind]. rewrite bmap2_tab. cbn [bind]. rewrite bmap2_tab. cbn [bind]. reflexivity.
Qed.
Lemma calc_mdev_form x rate m : calc_mdev_phase x rate m =
  Ok (mdev_val x rate m, mdev_val x rate m / nsqrt (ofN (Datatypes.S (len x - 3 * m))), Z.of_nat (Datatypes.S (len x - 3 * m))).
Proof.
  transitivity (calc_mdev_phase (tab (len x) (val x)) rate m); [unfold val; now rewrite <- (list_tab x (ofZ 0))|].
  rewrite calc_mdev_tab. cbv zeta.
  assert (Et : tab (len x - 3 * m) (fun i => val x (3 * m + i) - ofZ 3 * val x (2 * m + i) + ofZ 3 * val x (1 * m + i) - val x i) =
    tab (len x - 3 * m) (tdiff x m 1)).
  { apply tab_ext. intros i _. unfold tdiff. now rewrite Nat.mul_1_r. }
  rewrite Et. reflexivity.
Qed.

(** pdev *)
Definition pdev_M (N m : nat) : Z := (Z.of_nat N - 2 * Z.of_nat m)%Z.
Definition pdev_term (x : list A) m i : A :=
  asum (tab m (fun k => ((ofN m - ofZ 1) / ofZ 2 - ofN k) * (val x (i + k) - val x (i + m + k)))).
Definition pdev_val (x : list A) (rate : A) m : A :=
  if Nat.eqb m 1 then adev_val x rate m 1
  else if (pdev_M (len x) m <? 1)%Z then ofZ 0
  else nsqrt (ofZ 72 * fold_left (fun s i => s + nsq (pdev_term x m i)) (seq 0 (len x - 2 * m)) (ofZ 0) /
         (ofZ (pdev_M (len x) m * Z.of_nat m ^ 4) * nsq (ofN m * (ofZ 1 / rate)))).
Definition pdev_cnt (N m : nat) : Z :=
  if Nat.eqb m 1 then Z.of_nat (adev_cnt N m 1) else if (pdev_M N m <? 1)%Z then 0%Z else pdev_M N m.
Definition pdev_err (x : list A) (rate : A) m : A :=
  if Nat.eqb m 1 then adev_val x rate m 1 / nsqrt (ofN (adev_cnt (len x) m 1))
  else if (pdev_M (len x) m <? 1)%Z then ofZ 0 else pdev_val x rate m / nsqrt (ofZ (pdev_M (len x) m)).
Lemma calc_pdev_form x rate m : calc_pdev_phase x rate m = Ok (pdev_val x rate m, pdev_err x rate m, pdev_cnt (len x) m).
Proof.
  unfold pdev_val, pdev_err, pdev_cnt. destruct (Nat.eqb m 1) eqn:E1.
  { transitivity (calc_adev_phase x rate m 1); [unfold calc_pdev_phase; rewrite E1; reflexivity|]. now apply calc_adev_form. }
  unfold calc_pdev_phase. rewrite E1. fold (pdev_M (len x) m). destruct (Z.ltb_spec (pdev_M (len x) m) 1) as [H|H]; [reflexivity|].
  assert (HM : Z.to_nat (pdev_M (len x) m) = (len x - 2 * m)%nat) by (unfold pdev_M in *; lia). rewrite HM.
  rewrite (foldM_Ok _ (fun s i => s + nsq (pdev_term x m i))).
  - cbn [bind]. unfold pdev_val. rewrite E1. destruct (Z.ltb_spec (pdev_M (len x) m) 1); [lia|]. reflexivity.
  - intros i s Hi. apply in_seq in Hi. unfold pdev_M in H.
    assert (Ep : forall a b, pyslice a b x = tab (Nat.min (b - a) (len x - a)) (fun k => val x (a + k))).
    { intros a b. rewrite (list_tab x (ofZ 0)) at 1. apply pyslice_tab. }
    rewrite !Ep. rewrite !Nat.min_l by lia.
    replace (i + m - i)%nat with m by lia. replace (i + 2 * m - (i + m))%nat with m by lia.
    unfold vsub, vmul. rewrite bmap2_tab. cbn [bind].
    change (map (fun k => (ofN m - ofZ 1) / ofZ 2 - ofN k) (seq 0 m)) with (tab m (fun k => (ofN m - ofZ 1) / ofZ 2 - ofN k)).
    rewrite bmap2_tab. cbn [bind]. reflexivity.
Qed.

(** tierms *)
Definition tie_term (x : list A) m i : A := nmax2 (val x i) (val x (m + i)) - nmin2 (val x i) (val x (m + i)).
Definition tierms_val (x : list A) m : A := nsqrt (mean (map nsq (tab (len x - m) (tie_term x m)))).
Lemma calc_tierms_form x m : calc_tierms x m =
  Ok (tierms_val x m, ofZ 0 / nsqrt (ofZ (Z.of_nat (len x) - Z.of_nat m)), (Z.of_nat (len x) - Z.of_nat m)%Z).
Proof.
  transitivity (calc_tierms (tab (len x) (fun i => nth i x (ofZ 0))) m); [now rewrite <- (list_tab x (ofZ 0))|].
  unfold calc_tierms. rewrite !tab_length, !firstn_tab, !skipn_tab, !tab_length.
  rewrite Nat.min_l by lia. rewrite Nat.eqb_refl. cbn [negb]. rewrite !map2_tab. unfold vsub. rewrite bmap2_tab. cbn [bind]. reflexivity.
Qed.
End Forms.

(** ** NaN reaches a row *)
Section Reach.
Context {A : Type} {NA : Num A} (S : nan_strict A).
Let bad (a : A) := nisnan a = true.
Let val (x : list A) i := nth i x (ofZ 0).

Ltac bad_in := first
  [ assumption
  | apply (ns_add _ S); first [left; bad_in | right; bad_in]
  | apply (ns_sub _ S); first [left; bad_in | right; bad_in]
  | apply (ns_mul _ S); first [left; bad_in | right; bad_in]
  | apply (ns_div _ S); left; bad_in
  | apply (ns_sqrt _ S); bad_in ].

Lemma sdiff_bad x m s i p : bad (val x p) -> (p = 2 * m + i * s \/ p = 1 * m + i * s \/ p = 0 + i * s)%nat -> bad (sdiff x m s i).
Proof. intros H [-> | [-> | ->]]; unfold bad, sdiff, val in *; bad_in. Qed.
Lemma tdiff_bad x m s i p : bad (val x p) ->
  (p = 3 * m + i * s \/ p = 2 * m + i * s \/ p = 1 * m + i * s \/ p = 0 + i * s)%nat -> bad (tdiff x m s i).
Proof. intros H [-> | [-> | [-> | ->]]]; unfold bad, tdiff, val in *; bad_in. Qed.

Lemma adev_bad x rate m s i p : (i < stride_count (len x) (2 * m) s)%nat -> bad (val x p) ->
  (p = 2 * m + i * s \/ p = 1 * m + i * s \/ p = 0 + i * s)%nat -> bad (adev_val x rate m s).
Proof.
  intros Hi H Hp.
  assert (Hb : bad (sumsq (tab (stride_count (len x) (2 * m) s) (sdiff x m s)))).
  { apply (bad_sumsq S). apply (bad_tab _ _ i Hi). now apply (sdiff_bad _ _ _ _ p). }
  unfold bad, adev_val in *. bad_in.
Qed.
Lemma hdev_bad x rate m s i p : (i < stride_count (len x) (3 * m) s)%nat -> bad (val x p) ->
  (p = 3 * m + i * s \/ p = 2 * m + i * s \/ p = 1 * m + i * s \/ p = 0 + i * s)%nat -> bad (hdev_val x rate m s).
Proof.
  intros Hi H Hp.
  assert (Hb : bad (sumsq (tab (stride_count (len x) (3 * m) s) (tdiff x m s)))).
  { apply (bad_sumsq S). apply (bad_tab _ _ i Hi). now apply (tdiff_bad _ _ _ _ p). }
  unfold bad, hdev_val in *. bad_in.
Qed.

Lemma mdev_bad x rate m p : (1 <= m)%nat -> (3 * m < len x)%nat -> (p < len x)%nat -> bad (val x p) -> bad (mdev_val x rate m).
Proof.
  intros Hm HN Hp H.
  assert (Hb : bad (mdev_sum x m)).
  { unfold mdev_sum. set (v := asum _). destruct (Nat.lt_ge_cases p (3 * m)) as [Hc|Hc].
    - assert (Hv : bad v).
      { apply (bad_asum S). rewrite Nat.min_l by lia. apply (bad_tab _ _ (p mod m)); [apply Nat.mod_upper_bound; lia|].
        assert (Hd : p = (m * (p / m) + p mod m)%nat) by (apply Nat.div_mod; lia).
        assert (Hq : (p / m < 3)%nat) by (apply Nat.div_lt_upper_bound; lia).
        destruct (p / m)%nat as [|[|[|q]]]; [| | |lia].
        - replace (p mod m)%nat with p by lia. unfold bad, val in *. bad_in.
        - replace (m + p mod m)%nat with p by lia. unfold bad, val in *. bad_in.
        - replace (2 * m + p mod m)%nat with p by lia. unfold bad, val in *. bad_in. }
      unfold bad in *. bad_in.
    - assert (Hs : bad (sumsq (map (fun c => v + c) (cumsum (tab (len x - 3 * m) (tdiff x m 1)))))).
      { apply (bad_sumsq S). apply bad_map; [intros a Ha; apply (ns_add _ S); now right|]. apply (bad_cumsum S).
        apply (bad_tab _ _ (p - 3 * m)); [lia|]. apply (tdiff_bad _ _ _ _ p H). left. lia. }
      unfold bad in *. bad_in. }
  unfold bad, mdev_val in *. bad_in.
Qed.

Lemma bad_fold_left {B} (g : B -> A) l : forall a, bad a \/ Exists (fun b => bad (g b)) l ->
  bad (fold_left (fun s b => s + g b) l a).
Proof.
  induction l as [|b l IH]; intros a [H|H]; cbn [fold_left]; [exact H|inversion H| |].
  - apply IH. left. apply (ns_add _ S). now left.
  - apply IH. apply Exists_cons in H as [H|H]; [left; apply (ns_add _ S); now right|now right].
Qed.
Lemma pdev_bad x rate m p : (1 < m)%nat -> (2 * m < len x)%nat -> (p < len x - 1)%nat -> bad (val x p) ->
  bad (pdev_val x rate m) /\ bad (pdev_err x rate m).
Proof.
  intros Hm HN Hp H. unfold pdev_err. assert (Hd : bad (pdev_val x rate m)).
  { unfold pdev_val. rewrite (proj2 (Nat.eqb_neq m 1)) by lia.
    destruct (Z.ltb_spec (pdev_M (len x) m) 1) as [C|_]; [unfold pdev_M in C; lia|].
    set (s := fold_left _ _ _). assert (Hs : bad s).
    { apply (bad_fold_left (fun i => nsq (pdev_term x m i))). right. apply Exists_exists.
      exists (Nat.min p (len x - 2 * m - 1)). split; [apply in_seq; lia|]. apply (bad_nsq S). apply (bad_asum S).
      set (i := Nat.min p (len x - 2 * m - 1)).
      destruct (Nat.lt_ge_cases (p - i) m) as [Hc|Hc].
      - apply (bad_tab _ _ (p - i) Hc). replace (i + (p - i))%nat with p by lia. unfold bad, val in *. bad_in.
      - assert (Hc2 : (p - i - m < m)%nat) by lia. apply (bad_tab _ _ (p - i - m) Hc2).
        replace (i + m + (p - i - m))%nat with p by lia. unfold bad, val in *. bad_in. }
    unfold bad in *. bad_in. }
  split; [exact Hd|]. rewrite (proj2 (Nat.eqb_neq m 1)) by lia.
  destruct (Z.ltb_spec (pdev_M (len x) m) 1) as [C|_]; [unfold pdev_M in C; lia|]. apply (ns_div _ S). now left.
Qed.

Lemma tierms_bad x m p : (1 <= m < len x)%nat -> (p < len x)%nat -> (p + m < len x \/ m <= p)%nat -> bad (val x p) -> bad (tierms_val x m).
Proof.
  intros Hm Hp Hu H. apply (ns_sqrt _ S). apply (bad_mean S). apply bad_map; [apply (bad_nsq S)|].
  destruct Hu as [Hu|Hu].
  - apply (bad_tab _ _ p); [lia|]. apply (ns_sub _ S). left. apply bad_max. now left.
  - apply (bad_tab _ _ (p - m)); [lia|]. apply (ns_sub _ S). left. apply bad_max. right.
    replace (m + (p - m))%nat with p by lia. exact H.
Qed.

(** folds in the error monad *)
Lemma foldM_reach {T B} (f : T -> B -> res T) (P : T -> Prop) l s r :
  foldM f l s = Ok r -> (forall s b s', In b l -> P s -> f s b = Ok s' -> P s') ->
  (exists b, In b l /\ forall s s', f s b = Ok s' -> P s') -> P r.
Proof.
  intros E Hk (b & Hb & Hf).
  assert (Hkeep : forall l', incl l' l -> forall s r, P s -> foldM f l' s = Ok r -> P r).
  { induction l' as [|c l' IH]; intros Hi s0 r0 Hs E0; cbn in E0; [now injection E0 as <-|].
    destruct (f s0 c) as [s1|] eqn:E1; cbn [bind] in E0; [|discriminate].
    apply (IH (fun z Hz => Hi z (or_intror Hz)) s1 r0); [|exact E0]. apply (Hk s0 c s1); auto. apply Hi. now left. }
  apply in_split in Hb as (l1 & l2 & ->). revert s E.
  assert (Hi : incl l2 (l1 ++ b :: l2)) by (intros z Hz; apply in_or_app; right; now right).
  assert (Hgo : forall l1' s, foldM f (l1' ++ b :: l2) s = Ok r -> P r).
  { induction l1' as [|c l1' IH]; intros s E; cbn in E.
    - destruct (f s b) as [s1|] eqn:E1; cbn [bind] in E; [|discriminate]. apply (Hkeep l2 Hi s1 r); [|exact E]. now apply (Hf s).
    - destruct (f s c) as [s1|]; cbn [bind] in E; [|discriminate]. now apply (IH s1). }
  exact (Hgo l1).
Qed.
Lemma pyget_val x i a : pyget x i = Ok a -> (0 <= i)%Z -> a = val x (Z.to_nat i).
Proof.
  unfold pyget. intros H Hi. destruct (Z.ltb_spec i 0) as [C|_]; [lia|]. destruct (Z.ltb_spec i 0) as [C|_]; [lia|].
  destruct (nth_error x (Z.to_nat i)) as [b|] eqn:E; [|discriminate]. injection H as <-. symmetry. now apply nth_error_nth.
Qed.

(** theo1 *)
Lemma theo1_bad x rate m d e n p : (1 <= m < len x)%nat -> (p < len x)%nat -> bad (val x p) ->
  calc_theo1 x rate m = Ok (d, e, n) -> bad d /\ bad e.
Proof.
  intros Hm Hp H. unfold calc_theo1. destruct (Nat.even m) eqn:Ev; [|discriminate]. cbn [assert_ bind].
  destruct (foldM _ (seq 0 (len x - m)) _) as [[dev k]|] eqn:E; cbn [bind]; [|discriminate].
  assert (Hd : bad dev).
  { pose proof (foldM_reach _ (fun st => bad (fst st)) _ _ _ E) as G. apply G; clear G E.
    - intros [s k0] i [s' k'] _ Hs. cbn [fst] in *. destruct (foldM _ (seq 0 (Nat.div2 m)) _) as [[u k1]|]; cbn [bind]; [|discriminate].
      intros C. injection C as <- _. unfold bad in *. bad_in.
    - apply Nat.even_spec in Ev as [h ->]. assert (Hh : Nat.div2 (2 * h) = h) by apply Nat.div2_double.
      assert (Hin : exists i dd, (i < len x - 2 * h)%nat /\ (dd < h)%nat /\
        (p = i \/ p = i + 2 * h \/ p + dd = i + h \/ p = i + dd + h)%nat).
      { destruct (Nat.lt_ge_cases p (len x - 2 * h)) as [C|C]; [exists p, 0%nat; lia|].
        destruct (Nat.lt_ge_cases p (2 * h)) as [C2|C2]; [|exists (p - 2 * h)%nat, 0%nat; lia].
        set (i := (len x - 2 * h - 1)%nat). destruct (Nat.lt_ge_cases (p - i) (h + 1)) as [C3|C3].
        - exists i, (h - (p - i))%nat. lia.
        - exists i, (p - i - h)%nat. lia. }
      destruct Hin as (i & dd & Hi & Hdd & Hc). exists i. split; [apply in_seq; lia|].
      intros [s k0] [s' k']. cbn [fst]. rewrite Hh. destruct (foldM _ (seq 0 h) _) as [[u k1]|] eqn:E; cbn [bind]; [|discriminate].
      assert (Hu : bad u).
      { pose proof (foldM_reach _ (fun st => bad (fst st)) _ _ _ E) as G. apply G; clear G E.
        - intros [s0 k2] j [s1 k3] _ Hs0. cbn [fst] in *.
          destruct (pyget x _); cbn [bind]; [|discriminate]. destruct (pyget x _); cbn [bind]; [|discriminate].
          destruct (pyget x _); cbn [bind]; [|discriminate]. destruct (pyget x _); cbn [bind]; [|discriminate].
          intros C. injection C as <- _. unfold bad in *. bad_in.
        - exists dd. split; [apply in_seq; lia|]. intros [s0 k2] [s1 k3]. cbn [fst].
          destruct (pyget x (Z.of_nat i)) as [a|] eqn:Ea; cbn [bind]; [|discriminate].
          destruct (pyget x (Z.of_nat i - Z.of_nat dd + Z.of_nat h)) as [b|] eqn:Eb; cbn [bind]; [|discriminate].
          destruct (pyget x (Z.of_nat i + _)) as [c|] eqn:Ec; cbn [bind]; [|discriminate].
          destruct (pyget x (Z.of_nat i + Z.of_nat dd + _)) as [f|] eqn:Ef; cbn [bind]; [|discriminate].
          intros C. injection C as <- _.
          apply pyget_val in Ea; [|lia]. apply pyget_val in Eb; [|lia]. apply pyget_val in Ec; [|lia]. apply pyget_val in Ef; [|lia].
          assert (Ht : bad (a - b + c - f)).
          { destruct Hc as [Hc|[Hc|[Hc|Hc]]].
            - assert (bad a) by (rewrite Ea; replace (Z.to_nat (Z.of_nat i)) with p by lia; exact H). unfold bad in *. bad_in.
            - assert (bad c) by (rewrite Ec; replace (Z.to_nat (Z.of_nat i + Z.of_nat (2 * h))) with p by lia; exact H). unfold bad in *. bad_in.
            - assert (bad b) by (rewrite Eb; replace (Z.to_nat (Z.of_nat i - Z.of_nat dd + Z.of_nat h)) with p by lia; exact H). unfold bad in *. bad_in.
            - assert (bad f) by (rewrite Ef; replace (Z.to_nat (Z.of_nat i + Z.of_nat dd + Z.of_nat h)) with p by lia; exact H). unfold bad in *. bad_in. }
          apply (bad_nsq S) in Ht. unfold bad in *. bad_in. }
      intros C. injection C as <- _. unfold bad in *. bad_in. }
  destruct (assert_ _); cbn [bind]; [|discriminate]. intros C. injection C as <- <- _.
  apply (bad_dev_err S _ _ _ eq_refl). unfold bad in *. bad_in.
Qed.

(** the sliding sums of mtotdev and htotdev *)
Lemma Exists_app_l (l1 l2 : list A) : Exists bad l1 -> Exists bad (l1 ++ l2).
Proof. intros H. apply Exists_app. now left. Qed.
Lemma sliding_bad xs m r q : (1 <= m)%nat -> (q < 3 * m)%nat -> (3 * m <= len xs)%nat -> bad (val xs q) ->
  sliding_squaresum xs m = Ok r -> bad r.
Proof.
  intros Hm Hq Hl H. unfold sliding_squaresum. destruct (foldM _ _ _) as [st|] eqn:E; cbn [bind]; [|discriminate].
  intros C. injection C as <-.
  pose proof (foldM_reach _ (fun st => bad (snd st)) _ _ _ E) as G. apply G; clear G E.
  - intros [[[s1 s2] s3] s4] j [[[t1 t2] t3] t4] _ Hs. cbn [snd] in *.
    destruct (if Nat.eqb j 0 then _ else _) as [[[u1 u2] u3]|]; cbn [bind]; [|discriminate].
    intros C. injection C as _ _ _ <-. unfold bad in *. bad_in.
  - exists 0%nat. split; [apply in_seq; lia|]. intros [[[s1 s2] s3] s4] [[[t1 t2] t3] t4]. cbn [Nat.eqb bind snd].
    intros C. injection C as _ _ _ <-.
    assert (Hs : forall a, (a <= q < a + m)%nat -> (a + m <= 3 * m)%nat -> bad (asum (pyslice a (a + m) xs))).
    { intros a Ha Hb. apply (bad_asum S). rewrite (list_tab xs (ofZ 0)), pyslice_tab. rewrite Nat.min_l by lia.
      apply (bad_tab _ _ (q - a)); [lia|]. replace (a + (q - a))%nat with q by lia. exact H. }
    assert (Ht : bad (asum (pyslice 0 m xs) - ofZ 2 * asum (pyslice m (2 * m) xs) + asum (pyslice (2 * m) (3 * m) xs))).
    { destruct (Nat.lt_ge_cases q m) as [C|C]; [|destruct (Nat.lt_ge_cases q (2 * m)) as [C2|C2]].
      - pose proof (Hs 0%nat ltac:(lia) ltac:(lia)) as B. cbn [Nat.add] in B. unfold bad in *. bad_in.
      - pose proof (Hs m ltac:(lia) ltac:(lia)) as B. replace (m + m)%nat with (2 * m)%nat in B by lia. unfold bad in *. bad_in.
      - pose proof (Hs (2 * m)%nat ltac:(lia) ltac:(lia)) as B. replace (2 * m + m)%nat with (3 * m)%nat in B by lia. unfold bad in *. bad_in. }
    assert (Hn : bad (nsq ((asum (pyslice 0 m xs) - ofZ 2 * asum (pyslice m (2 * m) xs) + asum (pyslice (2 * m) (3 * m) xs)) / ofN m))).
    { apply (bad_nsq S). unfold bad in *. bad_in. }
    unfold bad in *. bad_in.
Qed.
Lemma nth_rev_val (l : list A) q : (q < len l)%nat -> val (rev l) (len l - 1 - q) = val l q.
Proof.
  intros H. unfold val. rewrite rev_nth by lia. f_equal. lia.
Qed.
Lemma map2_seq_bad (g : nat -> A -> A) xs q : (forall i a, bad a -> bad (g i a)) -> (q < len xs)%nat -> bad (val xs q) ->
  bad (val (map2 g (seq 0 (len xs)) xs) q).
Proof.
  intros Hg Hq H. transitivity (nisnan (val (map2 g (tab (len xs) (fun i => i)) (tab (len xs) (fun i => val xs i))) q)).
  - f_equal. unfold val at 3. rewrite <- (list_tab xs (ofZ 0)). unfold tab. now rewrite map_id.
  - rewrite map2_tab. unfold val at 1. rewrite nth_tab by exact Hq. now apply Hg.
Qed.
Lemma extended_bad (x0 : list A) m q r : (1 <= m)%nat -> len x0 = (3 * m)%nat -> (q < 3 * m)%nat -> bad (val x0 q) ->
  sliding_squaresum (rev x0 ++ x0 ++ rev x0) m = Ok r -> bad r.
Proof.
  intros Hm Hl Hq H. apply (sliding_bad _ m r (3 * m - 1 - q)); [exact Hm|lia|rewrite app_length, rev_length; lia|].
  unfold val. rewrite app_nth1 by (rewrite rev_length; lia). rewrite <- Hl. fold (val (rev x0) (len x0 - 1 - q)).
  rewrite nth_rev_val by lia. exact H.
Qed.
Lemma window_bad (x : list A) i w p : (i + w <= len x)%nat -> (i <= p < i + w)%nat -> bad (val x p) ->
  len (pyslice i (i + w) x) = w /\ bad (val (pyslice i (i + w) x) (p - i)).
Proof.
  intros Hw Hp H. rewrite (list_tab x (ofZ 0)), pyslice_tab, tab_length. split; [lia|].
  unfold val at 1. rewrite nth_tab by lia. replace (i + (p - i))%nat with p by lia. exact H.
Qed.

Lemma mtot_loop_bad (x : list A) m p (scale : A) (det : list A -> list A) dev n cnt :
  (1 <= m)%nat -> (p < len x)%nat -> bad (val x p) -> (3 * m <= len x)%nat -> cnt = (len x - 3 * m + 1)%nat ->
  (forall xs q, len xs = (3 * m)%nat -> (q < 3 * m)%nat -> bad (val xs q) -> len (det xs) = (3 * m)%nat /\ bad (val (det xs) q)) ->
  foldM (fun '(n, dev) i =>
      let xs := pyslice i (i + 3 * m) x in
      _ <- assert_ (Nat.eqb (len xs) (3 * m)) ;;
      let x0 := det xs in
      let xstar := (rev x0 ++ x0 ++ rev x0)%list in
      _ <- assert_ (Nat.eqb (len xstar) (9 * m)) ;;
      squaresum <- sliding_squaresum xstar m ;;
      let squaresum := scale * squaresum in
      Ok ((n + 1)%Z, dev + squaresum))
    (seq 0 cnt) (0%Z, ofZ 0) = Ok (n, dev) -> bad dev.
Proof.
  intros Hm Hp H HN -> Hdet E.
  pose proof (foldM_reach _ (fun st : Z * A => bad (snd st)) _ _ _ E) as G. apply G; clear G E.
  - intros [n0 s] i [n1 s'] _ Hs. cbn [snd] in *. cbv zeta. destruct (assert_ _); cbn [bind]; [|discriminate].
    destruct (assert_ _); cbn [bind]; [|discriminate]. destruct (sliding_squaresum _ _); cbn [bind]; [|discriminate].
    intros C. injection C as _ <-. unfold bad in *. bad_in.
  - set (i := Nat.min p (len x - 3 * m)). exists i. split; [apply in_seq; lia|]. intros [n0 s] [n1 s']. cbn [snd]. cbv zeta.
    destruct (window_bad x i (3 * m) p ltac:(lia) ltac:(lia) H) as [Hwl Hwb].
    destruct (Hdet _ (p - i)%nat Hwl ltac:(lia) Hwb) as [Hdl Hdb].
    destruct (assert_ _); cbn [bind]; [|discriminate].
    destruct (assert_ _); cbn [bind]; [|discriminate]. destruct (sliding_squaresum _ _) as [q|] eqn:E; cbn [bind]; [|discriminate].
    apply (extended_bad _ m (p - i) q Hm Hdl ltac:(lia) Hdb) in E.
    intros C. injection C as _ <-. unfold bad in *. bad_in.
Qed.
Lemma mtot_detrend_bad m tau0 xs q : len xs = (3 * m)%nat -> (q < 3 * m)%nat -> bad (val xs q) ->
  len (mtot_detrend xs m tau0) = (3 * m)%nat /\ bad (val (mtot_detrend xs m tau0) q).
Proof.
  intros Hl Hq H. unfold mtot_detrend. rewrite map2_length, seq_length. split; [lia|].
  apply map2_seq_bad; [|lia|exact H]. intros i a Ha. unfold bad in *. bad_in.
Qed.
Lemma htot_detrend_bad m xs q : len xs = (3 * m)%nat -> (q < 3 * m)%nat -> bad (val xs q) ->
  len (htot_detrend xs m) = (3 * m)%nat /\ bad (val (htot_detrend xs m) q).
Proof.
  intros Hl Hq H. unfold htot_detrend. rewrite map2_length, seq_length. split; [lia|].
  apply map2_seq_bad; [|lia|exact H]. intros i a Ha. unfold bad in *. bad_in.
Qed.
Lemma mtot_bad x rate m d e n p : (1 <= m)%nat -> (p < len x)%nat -> bad (val x p) ->
  calc_mtotdev_phase x rate m = Ok (d, e, n) -> (1 < n)%Z -> bad d /\ bad e.
Proof.
  intros Hm Hp H. unfold calc_mtotdev_phase. destruct (foldM _ _ _) as [[k dev]|] eqn:E; cbn [bind]; [|discriminate].
  destruct (Z.eqb_spec k (Z.of_nat (len x) - 3 * Z.of_nat m + 1)) as [Ek|]; cbn [assert_ bind]; [|discriminate].
  intros C Hn. injection C as <- <- <-.
  assert (Hd : bad dev).
  { refine (mtot_loop_bad x m p _ (fun xs => mtot_detrend xs m (ofZ 1 / rate)) dev k _ Hm Hp H _ _ _ E); [lia|lia|].
    intros xs q. apply mtot_detrend_bad. }
  apply (bad_dev_err S _ _ _ eq_refl). unfold bad in *. bad_in.
Qed.
Lemma htot_bad x m d e n p : (1 <= m)%nat -> (p < len x)%nat -> bad (val x p) ->
  calc_htotdev_freq x m = Ok (d, e, n) -> (1 < n)%Z -> bad d /\ bad e.
Proof.
  intros Hm Hp H. unfold calc_htotdev_freq. destruct (foldM _ _ _) as [[k dev]|] eqn:E; cbn [bind]; [|discriminate].
  destruct (Z.eqb_spec k (Z.of_nat (len x) - 3 * Z.of_nat m + 1)) as [Ek|]; cbn [assert_ bind]; [|discriminate].
  intros C Hn. injection C as <- <- <-.
  assert (Hd : bad dev).
  { refine (mtot_loop_bad x m p _ (fun xs => htot_detrend xs m) dev k _ Hm Hp H _ _ _ E); [lia|lia|].
    intros xs q. apply htot_detrend_bad. }
  apply (bad_dev_err S _ _ _ eq_refl). unfold bad in *. bad_in.
Qed.

(** mtie *)
Lemma mtie_bad x m d e n p : (1 <= m < len x)%nat -> (p < len x)%nat -> bad (val x p) ->
  calc_mtie x m = Ok (d, e, n) -> bad d /\ bad e.
Proof.
  intros Hm Hp H. unfold calc_mtie.
  assert (Ht : exists a, mtie_try x m = Ok a /\ bad a).
  { unfold mtie_try, mtie_rolling_window. rewrite (proj2 (Nat.ltb_ge (m + 1) 1)) by lia. rewrite (proj2 (Nat.ltb_ge (len x) (m + 1))) by lia.
    cbn [bind]. set (W := fun i => tab (m + 1) (fun k => val x (i + k))).
    rewrite (map_ext_in _ W).
    2:{ intros i Hi. apply in_seq in Hi. unfold W. rewrite (list_tab x (ofZ 0)) at 1. rewrite pyslice_tab. f_equal. lia. }
    set (c := (len x - (m + 1) + 1)%nat). change (map W (seq 0 c)) with (tab c W).
    assert (HW : forall i, W i = val x (i + 0) :: tab m (fun k => val x (i + Datatypes.S k))).
    { intros i. unfold W. rewrite Nat.add_1_r. apply tab_S. }
    set (mx := fun l : list A => match l with [] => ofZ 0 | a :: t => fold_left nmax2 t a end).
    set (mn := fun l : list A => match l with [] => ofZ 0 | a :: t => fold_left nmin2 t a end).
    rewrite (mapM_Ok npmax mx).
    2:{ intros l Hl. apply in_map_iff in Hl as (i & <- & _). rewrite HW. reflexivity. }
    rewrite (mapM_Ok npmin mn).
    2:{ intros l Hl. apply in_map_iff in Hl as (i & <- & _). rewrite HW. reflexivity. }
    cbn [bind]. unfold vsub. rewrite !map_tab, bmap2_tab. cbn [bind].
    assert (Hc : (1 <= c)%nat) by (unfold c; lia).
    destruct (npmax (tab c (fun i => mx (W i) - mn (W i)))) as [a|] eqn:E.
    - exists a. split; [reflexivity|]. refine (bad_npmax _ _ _ E).
      set (i := Nat.min p (len x - (m + 1))). apply (bad_tab _ _ i); [unfold c; lia|]. apply (ns_sub _ S). left.
      apply (bad_npmax (W i)); [|rewrite HW; reflexivity]. apply (bad_tab _ _ (p - i)); [lia|].
      replace (i + (p - i))%nat with p by lia. exact H.
    - exfalso. destruct c as [|c']; [lia|]. rewrite tab_S in E. discriminate. }
  destruct Ht as (a & -> & Ha). cbn [bind]. intros C. injection C as <- <- _. now apply (bad_dev_err S a _ _ eq_refl).
Qed.

(** totdev *)
Lemma totdev_bad x y rate m d e n p : (1 <= m < len x)%nat -> (p < len x)%nat -> bad (val x p) ->
  totdev_extend x = Ok y -> calc_totdev y (len x) rate m = Ok (d, e, n) -> (1 < n)%Z -> bad d /\ bad e.
Proof.
  intros Hm Hp H Ey E Hn.
  assert (HN : (4 <= len x)%nat).
  { unfold calc_totdev in E. destruct (vsub _ _); cbn [bind] in E; [|discriminate]. destruct (vadd _ _); cbn [bind] in E; [|discriminate].
    injection E as _ _ <-. lia. }
  set (N := len x) in *.
  assert (Hy : y = tab (3 * N - 4) (fun i => if (i <? N - 2)%nat then ofZ 2 * val x 0 - val x (N - 2 - i)
      else if (i <? 2 * N - 2)%nat then val x (i - (N - 2)) else ofZ 2 * val x (N - 1) - val x (3 * N - 4 - i))).
  { unfold totdev_extend in Ey. fold N in Ey. rewrite (list_tab x (ofZ 0)) in Ey. fold N in Ey.
    rewrite pyget_tab in Ey by lia. cbn [bind] in Ey. destruct (Nat.ltb_spec N 2); [lia|].
    rewrite !pyinner_tab, !repeat_tab, rev_tab in Ey. unfold vsub in Ey. rewrite bmap2_tab in Ey. cbn [bind] in Ey.
    rewrite pyget_tab_last in Ey by lia. cbn [bind] in Ey. rewrite repeat_tab in Ey. rewrite bmap2_tab in Ey. cbn [bind] in Ey.
    rewrite rev_tab, !tab_length in Ey. destruct (assert_ _); cbn [bind] in Ey; [|discriminate]. injection Ey as <-.
    rewrite !app_tab. replace (N - 2 + (N + (N - 2)))%nat with (3 * N - 4)%nat by lia. apply tab_ext. intros i Hi.
    unfold val. destruct (Nat.ltb_spec i (N - 2)).
    - f_equal. f_equal. lia.
    - destruct (Nat.ltb_spec (i - (N - 2)) N); destruct (Nat.ltb_spec i (2 * N - 2)); try lia; [reflexivity|].
      f_equal. f_equal. lia. }
  set (g := fun i => _) in Hy. subst y. unfold calc_totdev in E. rewrite !pyfrom_tab in E by lia. rewrite !tab_length in E.
  set (ee := min3 _ _ _) in E. unfold vsub, vadd, scal in E. rewrite !firstn_tab, map_tab in E.
  rewrite !Nat.min_l in E by (unfold ee, min3; lia). rewrite bmap2_tab in E. cbn [bind] in E. rewrite bmap2_tab in E. cbn [bind] in E.
  rewrite firstn_tab in E. rewrite Nat.min_l in E by (unfold ee, min3; lia). set (v := fun i => _) in E.
  injection E as <- <- _. apply (bad_dev_err S _ _ _ eq_refl).
  assert (Hv : bad (sumsq (tab (N - 2) v))); [|unfold bad in *; bad_in].
  apply (bad_sumsq S).
  assert (Hg0 : (p = 0)%nat -> forall i, (i <= N - 2)%nat -> bad (g i)).
  { intros -> i Hi. unfold g. destruct (Nat.ltb_spec i (N - 2)); [unfold bad in *; bad_in|].
    destruct (Nat.ltb_spec i (2 * N - 2)); [|lia]. replace (i - (N - 2))%nat with 0%nat by lia. exact H. }
  assert (Hg1 : (p = N - 1)%nat -> forall i, (2 * N - 3 <= i)%nat -> bad (g i)).
  { intros -> i Hi. unfold g. destruct (Nat.ltb_spec i (N - 2)); [lia|].
    destruct (Nat.ltb_spec i (2 * N - 2)); [|unfold bad in *; bad_in]. replace (i - (N - 2))%nat with (N - 1)%nat by lia. exact H. }
  destruct (Nat.eq_dec p 0) as [C|C]; [|destruct (Nat.eq_dec p (N - 1)) as [C2|C2]].
  - apply (bad_tab _ _ 0); [lia|]. unfold v.
    assert (Hb : bad (g (Z.to_nat (Z.of_nat (N - 2) - Z.of_nat m + 1) + 0)%nat)) by (apply (Hg0 C); lia).
    unfold bad in *. bad_in.
  - apply (bad_tab _ _ (N - 3)); [lia|]. unfold v.
    assert (Hb : bad (g (Z.to_nat (Z.of_nat (N - 2) + Z.of_nat m + 1) + (N - 3))%nat)) by (apply (Hg1 C2); lia).
    unfold bad in *. bad_in.
  - apply (bad_tab _ _ (p - 1)); [lia|]. unfold v.
    assert (Hb : bad (g (Z.to_nat (Z.of_nat (N - 2) + 1) + (p - 1))%nat)).
    { unfold g. destruct (Nat.ltb_spec (Z.to_nat (Z.of_nat (N - 2) + 1) + (p - 1)) (N - 2)); [lia|].
      destruct (Nat.ltb_spec (Z.to_nat (Z.of_nat (N - 2) + 1) + (p - 1)) (2 * N - 2)); [|lia].
      replace (Z.to_nat (Z.of_nat (N - 2) + 1) + (p - 1) - (N - 2))%nat with p by lia. exact H. }
    unfold bad in *. bad_in.
Qed.
End Reach.

(** ** rows which do not look at a point *)
Section Unused.
Context {A : Type} {NA : Num A}.

Lemma run_rows_Ok (calc : nat -> res (A * A * Z)) D E C ms (rate : A) : Forall (fun m => (1 <= m)%Z) ms ->
  (forall m, calc m = Ok (D m, E m, C m)) ->
  run_rows calc ms (map (fun m => ofZ m / rate) ms) =
  match filter (fun m => (1 <? C m)%Z) (map Z.to_nat ms) with
  | [] => Err UserWarning
  | good => Ok (of_rows rate (map (fun m => (m, D m, E m, C m)) good))
  end.
Proof.
  intros Hp H. unfold run_rows. rewrite (mapM_Ok _ (fun z => (D (Z.to_nat z), E (Z.to_nat z), C (Z.to_nat z)))) by (intros; apply H).
  cbn [bind]. rewrite !map_map. cbn [fst snd].
  assert (Ez : map (fun m => ofZ m / rate) ms = map (fun m => ofN m / rate) (map Z.to_nat ms)).
  { rewrite map_map. apply map_ext_in. intros z Hz. rewrite Forall_forall in Hp. apply Hp in Hz. unfold ofN. now rewrite Z2Nat.id by lia. }
  rewrite Ez. rewrite <- (map_map Z.to_nat D), <- (map_map Z.to_nat E), <- (map_map Z.to_nat C).
  set (l := map Z.to_nat ms). unfold remove_small_ns. rewrite map_map, !mask_select_map. cbn [bind].
  destruct (filter _ l) as [|m0 good]; [reflexivity|]. unfold of_rows. rewrite !map_map. reflexivity.
Qed.

Definition same_rows (P : nat -> Prop) (rows rows' : list (nat * A * A * Z)) : Prop :=
  Forall2 (fun '(m, d, e, n) '(m', d', e', n') => m = m' /\ n = n' /\ (P m -> d = d' /\ e = e')) rows rows'.

Lemma gen_unused (x x' : list A) rate taus even mx (calc : list A -> nat -> res (A * A * Z)) D E C (P : nat -> Prop) (Q : nat -> A -> A -> Z -> Prop) r :
  len x = len x' ->
  (forall m d e n, (1 <= m < len x)%nat -> calc x m = Ok (d, e, n) -> (1 < n)%Z -> Q m d e n) ->
  (forall y m, (1 <= m)%nat -> calc y m = Ok (D y m, E y m, C (len y) m)) ->
  (forall m, (1 <= m < len x)%nat -> P m -> (1 < C (len x) m)%Z -> D x m = D x' m /\ E x m = E x' m) ->
  (r' <- tau_generator x rate taus even mx ;; let '(y, ms, t) := r' in run_rows (calc y) ms t) = Ok r ->
  exists rows rows', r = of_rows rate rows /\
  (r' <- tau_generator x' rate taus even mx ;; let '(y, ms, t) := r' in run_rows (calc y) ms t) = Ok (of_rows rate rows') /\
  same_rows P rows rows' /\ StronglySorted lt (map (fun '(m, _, _, _) => m) rows) /\
  Forall (fun '(m, d, e, n) => (1 <= m < len x)%nat /\ Q m d e n) rows.
Proof.
  intros Hl HQ Hc Hs. destruct (tau_generator x rate taus even mx) as [[[y ms] t]|] eqn:E1; cbn [bind]; [|discriminate].
  rewrite (tau_generator_len x x' rate taus even mx ms t y Hl E1). cbn [bind].
  pose proof (tau_generator_lt _ _ _ _ _ _ _ _ E1) as Hlt. apply tau_generator_shape in E1 as (-> & Hss & Hp & ->).
  set (cx := fun z m => if Nat.eqb m 0 then Ok (ofZ 0, ofZ 0, 0%Z) else calc z m).
  assert (Hcx : forall z, run_rows (calc z) ms (map (fun m => ofZ m / rate) ms) = run_rows (cx z) ms (map (fun m => ofZ m / rate) ms)).
  { intros z. unfold run_rows. rewrite (mapM_ext_in _ (fun mj => cx z (Z.to_nat mj))); [reflexivity|]. intros k Hk.
    rewrite Forall_forall in Hp. apply Hp in Hk. unfold cx. rewrite (proj2 (Nat.eqb_neq (Z.to_nat k) 0)) by lia. reflexivity. }
  rewrite !Hcx.
  set (Dz := fun z m => if Nat.eqb m 0 then ofZ 0 else D z m). set (Ez := fun z m => if Nat.eqb m 0 then ofZ 0 else E z m).
  set (Cz := fun m => if Nat.eqb m 0 then 0%Z else C (len x) m).
  rewrite (run_rows_Ok (cx x) (Dz x) (Ez x) Cz ms rate Hp).
  2:{ intros m. unfold cx, Dz, Ez, Cz. destruct (Nat.eqb_spec m 0); [reflexivity|]. apply Hc. lia. }
  rewrite (run_rows_Ok (cx x') (Dz x') (Ez x') Cz ms rate Hp).
  2:{ intros m. unfold cx, Dz, Ez, Cz. destruct (Nat.eqb_spec m 0); [reflexivity|]. rewrite Hl. apply Hc. lia. }
  assert (Hg : forall m, In m (filter (fun m => (1 <? Cz m)%Z) (map Z.to_nat ms)) -> P m -> Dz x m = Dz x' m /\ Ez x m = Ez x' m).
  { intros m Hm HP. apply filter_In in Hm as [Hm H1]. apply in_map_iff in Hm as (k & <- & Hk). rewrite Forall_forall in Hp, Hlt.
    pose proof (Hp _ Hk). pose proof (Hlt _ Hk). cbn beta in *. apply Z.ltb_lt in H1. unfold Cz, Dz, Ez in *.
    rewrite (proj2 (Nat.eqb_neq (Z.to_nat k) 0)) in * by lia. apply Hs; [lia|exact HP|exact H1]. }
  assert (Hq : Forall (fun m => (1 <= m < len x)%nat /\ Q m (Dz x m) (Ez x m) (Cz m)) (filter (fun m => (1 <? Cz m)%Z) (map Z.to_nat ms))).
  { apply Forall_forall. intros m Hm. apply filter_In in Hm as [Hm H1]. apply in_map_iff in Hm as (k & <- & Hk). rewrite Forall_forall in Hp, Hlt.
    pose proof (Hp _ Hk). pose proof (Hlt _ Hk). cbn beta in *. apply Z.ltb_lt in H1. split; [lia|]. unfold Cz, Dz, Ez in *.
    rewrite (proj2 (Nat.eqb_neq (Z.to_nat k) 0)) in * by lia. apply HQ; [lia|apply Hc; lia|exact H1]. }
  assert (Hso : StronglySorted lt (filter (fun m => (1 <? Cz m)%Z) (map Z.to_nat ms))).
  { apply filter_StronglySorted. clear -Hss Hp. induction Hss as [|m ms Hs IH Hf]; [constructor|]. apply Forall_cons_iff in Hp as [H1 Hp].
    cbn [map]. constructor; [auto|]. apply Forall_forall. intros k Hk. apply in_map_iff in Hk as (z & <- & Hz).
    rewrite Forall_forall in Hf. apply Hf in Hz. lia. }
  destruct (filter _ _) as [|m0 good]; [discriminate|]. intros H. injection H as <-.
  exists (map (fun m => (m, Dz x m, Ez x m, Cz m)) (m0 :: good)), (map (fun m => (m, Dz x' m, Ez x' m, Cz m)) (m0 :: good)).
  split; [reflexivity|]. split; [reflexivity|]. split; [|split].
  - unfold same_rows. clear -Hg. induction (m0 :: good) as [|m l IH]; cbn [map]; constructor.
    + split; [reflexivity|]. split; [reflexivity|]. intros HP. apply Hg; [now left|exact HP].
    + apply IH. intros k Hk. apply Hg. now right.
  - rewrite map_map, map_id. exact Hso.
  - apply Forall_map. exact Hq.
Qed.

Section Two.
Variables (x x' : list A) (p : nat).
Hypothesis Hl : len x = len x'.
Hypothesis Hx : forall i, i <> p -> nth i x (ofZ 0) = nth i x' (ofZ 0).

Lemma adev_same rate m s : (forall i, (i < stride_count (len x) (2 * m) s)%nat -> (p <> 2 * m + i * s /\ p <> 1 * m + i * s /\ p <> 0 + i * s)%nat) ->
  adev_val x rate m s = adev_val x' rate m s.
Proof.
  intros H. unfold adev_val. rewrite <- Hl.
  assert (Et : tab (stride_count (len x) (2 * m) s) (sdiff x m s) = tab (stride_count (len x) (2 * m) s) (sdiff x' m s)).
  { apply tab_ext. intros i Hi. destruct (H i Hi) as (H2 & H1 & H0). unfold sdiff. now rewrite !Hx by congruence. }
  now rewrite Et.
Qed.
Lemma hdev_same rate m s :
  (forall i, (i < stride_count (len x) (3 * m) s)%nat -> (p <> 3 * m + i * s /\ p <> 2 * m + i * s /\ p <> 1 * m + i * s /\ p <> 0 + i * s)%nat) ->
  hdev_val x rate m s = hdev_val x' rate m s.
Proof.
  intros H. unfold hdev_val. rewrite <- Hl.
  assert (Et : tab (stride_count (len x) (3 * m) s) (tdiff x m s) = tab (stride_count (len x) (3 * m) s) (tdiff x' m s)).
  { apply tab_ext. intros i Hi. destruct (H i Hi) as (H3 & H2 & H1 & H0). unfold tdiff. now rewrite !Hx by congruence. }
  now rewrite Et.
Qed.
Lemma pdev_same rate m : (1 < m)%nat -> (len x - 1 <= p)%nat -> pdev_val x rate m = pdev_val x' rate m /\ pdev_err x rate m = pdev_err x' rate m.
Proof.
  intros Hm Hp.
  assert (E : pdev_val x rate m = pdev_val x' rate m).
  { unfold pdev_val. rewrite <- Hl. rewrite (proj2 (Nat.eqb_neq m 1)) by lia. destruct (Z.ltb_spec (pdev_M (len x) m) 1) as [C|C]; [reflexivity|].
    assert (Ef : fold_left (fun s i => s + nsq (pdev_term x m i)) (seq 0 (len x - 2 * m)) (ofZ 0) =
      fold_left (fun s i => s + nsq (pdev_term x' m i)) (seq 0 (len x - 2 * m)) (ofZ 0)).
    { assert (Hin : forall i, In i (seq 0 (len x - 2 * m)) -> pdev_term x m i = pdev_term x' m i).
      { intros i Hi. apply in_seq in Hi. unfold pdev_term. f_equal. apply tab_ext. intros k Hk. now rewrite !Hx by lia. }
      revert Hin. generalize (@ofZ A NA 0). induction (seq 0 (len x - 2 * m)) as [|i l IH]; intros a Hin; [reflexivity|]. cbn [fold_left].
      rewrite (Hin i (or_introl eq_refl)). apply IH. intros k Hk. apply Hin. now right. }
    now rewrite Ef. }
  split; [exact E|]. unfold pdev_err. rewrite <- Hl, E. rewrite (proj2 (Nat.eqb_neq m 1)) by lia. reflexivity.
Qed.
Lemma tierms_same m : (len x <= p + m)%nat -> (p < m)%nat -> tierms_val x m = tierms_val x' m.
Proof.
  intros H1 H2. unfold tierms_val. rewrite <- Hl. f_equal. f_equal. f_equal. apply tab_ext. intros i Hi. unfold tie_term.
  now rewrite !Hx by lia.
Qed.
End Two.
End Unused.
