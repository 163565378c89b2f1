(** * The deviations as seminorms: triangle inequality and sup-norm bounds. *)
From Coq Require Import String Reals List ZArith Lra Lia Arith Bool Sorted Psatz.
From Verif Require Import Base Num NpList ModelCore ModelDev NumR ListFacts Spec RSum TauProofs DevProofs TotProofs Closed Laws Laws2 Laws3.
Import ListNotations.
Local Open Scope R_scope.
Local Notation len := List.length.

(** pointwise sum and difference of two records *)
Definition plus (x y : list R) : list R := map (fun i => x.[i] + y.[i]) (seq 0 (len x)).
Definition minus (x y : list R) : list R := map (fun i => x.[i] - y.[i]) (seq 0 (len x)).
Lemma plus_len x y : len (plus x y) = len x.
Proof. unfold plus. now rewrite map_length, seq_length. Qed.
Lemma minus_len x y : len (minus x y) = len x.
Proof. unfold minus. now rewrite map_length, seq_length. Qed.
Lemma nth_plus x y i : len y = len x -> (plus x y).[i] = x.[i] + y.[i].
Proof.
  intros Hl. unfold plus. destruct (Nat.lt_ge_cases i (len x)) as [Hi|Hi].
  - exact (nth_tab (len x) (fun i => x.[i] + y.[i]) i 0 Hi).
  - rewrite !nth_overflow; [lra|lia..|]. rewrite map_length, seq_length. lia.
Qed.
Lemma nth_minus x y i : len y = len x -> (minus x y).[i] = x.[i] - y.[i].
Proof.
  intros Hl. unfold minus. destruct (Nat.lt_ge_cases i (len x)) as [Hi|Hi].
  - exact (nth_tab (len x) (fun i => x.[i] - y.[i]) i 0 Hi).
  - rewrite !nth_overflow; [lra|lia..|]. rewrite map_length, seq_length. lia.
Qed.
Lemma minus_plus x y : len y = len x -> plus (minus x y) y = x.
Proof.
  intros Hl. apply (nth_ext _ _ 0 0); [now rewrite plus_len, minus_len|]. intros i _.
  rewrite nth_plus, nth_minus by (rewrite ?minus_len; auto). ring.
Qed.

(** the rows depend on the record only through its length *)
Lemma same_rows s N rate taus : In s stats -> 0 < rate ->
  (exists e, forall x, len x = N -> s_fun s x rate "phase" taus = Err e) \/
  (exists good, good <> [] /\ (forall m, In m good -> (1 <= m < N)%nat /\ s_ok s N m = true /\ (1 < s_cnt s N m)%Z) /\
     forall x, len x = N -> s_fun s x rate "phase" taus =
       Ok (map (fun m => INR m / rate) good, map (s_dev s x rate) good, EArr (map (fun m => s_dev s x rate m * s_w s N m) good), map (s_cnt s N) good)).
Proof.
  intros Hs Hr. destruct (s_exn s N taus) as [e|] eqn:He.
  - left. exists e. intros x Hx. apply (proj1 (stats_closed s Hs x rate taus Hr)). now rewrite Hx.
  - set (x0 := repeat 0 N). assert (L0 : len x0 = N) by apply repeat_length.
    destruct (law_case s x0 rate taus Hs Hr) as [[e He']|(_ & ms & Hms & Hin)]; [rewrite L0, He in He'; discriminate|]. rewrite L0 in *.
    destruct (filter (fun m => (1 <? s_cnt s N m)%Z) ms) as [|m0 g] eqn:E.
    + left. exists UserWarning. intros x Hx. destruct (proj2 (stats_closed s Hs x rate taus Hr)) as [_ G]; [now rewrite Hx|].
      rewrite Hx in G. rewrite (G ms Hms). unfold report. now rewrite E.
    + right. exists (m0 :: g). split; [discriminate|]. split.
      * intros m Hm. rewrite <- E in Hm. apply filter_In in Hm as [Hm Hc]. apply Z.ltb_lt in Hc. destruct (Hin m Hm). auto.
      * intros x Hx. destruct (proj2 (stats_closed s Hs x rate taus Hr)) as [_ G]; [now rewrite Hx|].
        rewrite Hx in G. rewrite (G ms Hms). unfold report. now rewrite E.
Qed.

(** ** triangle inequality *)
Section Triangle.
Variable N : nat.
Definition additive (L : list R -> R) : Prop := forall x y, len x = N -> len y = N -> L (plus x y) = L x + L y.
Definition semi (V : list R -> R) : Prop := forall x y, len x = N -> len y = N ->
  0 <= V x /\ 0 <= V y /\ 0 <= V (plus x y) /\ sqrt (V (plus x y)) <= sqrt (V x) + sqrt (V y).

Lemma semi_sq L : additive L -> semi (fun x => L x ^ 2).
Proof.
  intros HL x y Hx Hy. rewrite HL by assumption. repeat split; try apply pow2_ge_0.
  rewrite <- !Rsqr_pow2, !sqrt_Rsqr_abs. apply Rabs_triang.
Qed.
Lemma semi_0 : semi (fun _ => 0).
Proof. intros x y _ _. rewrite sqrt_0. lra. Qed.
Lemma semi_scal w V : 0 <= w -> semi V -> semi (fun x => w * V x).
Proof.
  intros Hw HV x y Hx Hy. destruct (HV x y Hx Hy) as (A & B & C & D). rewrite !sqrt_mult_alt by assumption.
  pose proof (sqrt_pos w). repeat split; nra.
Qed.
Lemma hypot_triangle a b c d : 0 <= a -> 0 <= b -> 0 <= c -> 0 <= d ->
  sqrt ((a + b) ^ 2 + (c + d) ^ 2) <= sqrt (a ^ 2 + c ^ 2) + sqrt (b ^ 2 + d ^ 2).
Proof.
  intros Ha Hb Hc Hd. set (p := sqrt (a ^ 2 + c ^ 2)). set (q := sqrt (b ^ 2 + d ^ 2)).
  assert (Hp : 0 <= p) by apply sqrt_pos. assert (Hq : 0 <= q) by apply sqrt_pos.
  assert (Ep : p ^ 2 = a ^ 2 + c ^ 2) by (apply pow2_sqrt; pose proof (pow2_ge_0 a); pose proof (pow2_ge_0 c); lra).
  assert (Eq : q ^ 2 = b ^ 2 + d ^ 2) by (apply pow2_sqrt; pose proof (pow2_ge_0 b); pose proof (pow2_ge_0 d); lra).
  assert (Hcs : a * b + c * d <= p * q).
  { apply Rsqr_incr_0_var; [|now apply Rmult_le_pos]. unfold Rsqr.
    replace (p * q * (p * q)) with (p ^ 2 * q ^ 2) by ring. rewrite Ep, Eq. pose proof (pow2_ge_0 (a * d - b * c)). nra. }
  rewrite <- (sqrt_pow2 (p + q)) by lra. apply sqrt_le_1_alt. nra.
Qed.
Lemma semi_plus V W : semi V -> semi W -> semi (fun x => V x + W x).
Proof.
  intros HV HW x y Hx Hy. destruct (HV x y Hx Hy) as (A & B & C & D). destruct (HW x y Hx Hy) as (A' & B' & C' & D').
  repeat split; try lra.
  pose proof (hypot_triangle (sqrt (V x)) (sqrt (V y)) (sqrt (W x)) (sqrt (W y)) (sqrt_pos _) (sqrt_pos _) (sqrt_pos _) (sqrt_pos _)) as T.
  rewrite !pow2_sqrt in T by assumption. eapply Rle_trans; [|exact T]. apply sqrt_le_1_alt.
  rewrite <- (pow2_sqrt (V (plus x y))), <- (pow2_sqrt (W (plus x y))) by assumption.
  pose proof (sqrt_pos (V (plus x y))). pose proof (sqrt_pos (W (plus x y))).
  apply Rplus_le_compat; apply pow_incr; split; assumption.
Qed.
Lemma semi_ext V W : (forall x, len x = N -> V x = W x) -> semi W -> semi V.
Proof. intros E HW x y Hx Hy. rewrite !E by (rewrite ?plus_len; assumption). now apply HW. Qed.
Lemma semi_bigsum n (F : nat -> list R -> R) : (forall i, (i < n)%nat -> semi (F i)) -> semi (fun x => bigsum n (fun i => F i x)).
Proof.
  induction n as [|n IH]; intros HF; cbn [bigsum]; [apply semi_0|]. apply semi_plus; [apply IH; intros; apply HF; lia|apply HF; lia].
Qed.
Lemma semi_mean w n (F : nat -> list R -> R) : 0 <= w -> (forall i, (i < n)%nat -> additive (F i)) ->
  semi (fun x => w * bigsum n (fun i => F i x ^ 2)).
Proof. intros Hw HF. apply semi_scal; [exact Hw|]. apply semi_bigsum. intros i Hi. now apply semi_sq, HF. Qed.

Lemma inv_ge0 r : 0 <= r -> 0 <= / r.
Proof. intros [H | <-]; [left; now apply Rinv_0_lt_compat|rewrite Rinv_0; lra]. Qed.

Ltac pp := first [lra | apply pow2_ge_0 | apply pos_INR | apply Rmult_le_pos; pp].
(** additivity of the linear forms *)
Lemma add_nth i : additive (fun x => x.[i]).
Proof. intros x y Hx Hy. apply nth_plus. congruence. Qed.
Lemma add_lin a b L M : additive L -> additive M -> additive (fun x => a * L x + b * M x).
Proof. intros HL HM x y Hx Hy. rewrite HL, HM by assumption. ring. Qed.
Lemma add_ext L M : (forall x, len x = N -> L x = M x) -> additive M -> additive L.
Proof. intros E HM x y Hx Hy. rewrite !E by (rewrite ?plus_len; assumption). now apply HM. Qed.
Lemma add_sum n (F : nat -> list R -> R) : (forall i, (i < n)%nat -> additive (F i)) -> additive (fun x => bigsum n (fun i => F i x)).
Proof. intros HF x y Hx Hy. rewrite <- bigsum_plus. apply bigsum_ext. intros i Hi. now apply HF. Qed.
Lemma add_scal a L : additive L -> additive (fun x => a * L x).
Proof. intros HL x y Hx Hy. rewrite HL by assumption. ring. Qed.
Lemma add_minus L M : additive L -> additive M -> additive (fun x => L x - M x).
Proof. intros HL HM x y Hx Hy. rewrite HL, HM by assumption. ring. Qed.
Lemma add_plus L M : additive L -> additive M -> additive (fun x => L x + M x).
Proof. intros HL HM x y Hx Hy. rewrite HL, HM by assumption. ring. Qed.
Lemma add_div a L : additive L -> additive (fun x => L x / a).
Proof. intros HL x y Hx Hy. rewrite HL by assumption. unfold Rdiv. ring. Qed.
Lemma add_mulr a L : additive L -> additive (fun x => L x * a).
Proof. intros HL x y Hx Hy. rewrite HL by assumption. ring. Qed.
Lemma add_d2 m i : additive (fun x => d2 x m i).
Proof. unfold d2. auto using add_plus, add_minus, add_scal, add_nth. Qed.
Lemma add_d3 m i : additive (fun x => d3 x m i).
Proof. unfold d3. auto using add_plus, add_minus, add_scal, add_nth. Qed.

Lemma semi_avar t m : semi (fun x => avar x t m).
Proof.
  apply (semi_ext _ (fun x => / (2 * INR ((N - 1) / m - 1) * (INR m * t) ^ 2) * bigsum ((N - 1) / m - 1) (fun k => d2 x m (k * m) ^ 2))).
  - intros x Hx. unfold avar, adev_n. now rewrite Hx.
  - apply (semi_mean _ _ (fun k x => d2 x m (k * m))); [|intros; apply add_d2].
    apply inv_ge0, Rmult_le_pos; [pose proof (pos_INR ((N - 1) / m - 1)); lra|apply pow2_ge_0].
Qed.
Lemma w_nonneg c t n : 0 <= c -> 0 <= / (c * t ^ 2 * INR n).
Proof. intros Hc. apply inv_ge0. pose proof (pos_INR n). pose proof (pow2_ge_0 t). pp. Qed.
Lemma semi_oavar t m : semi (fun x => oavar x t m).
Proof.
  apply (semi_ext _ (fun x => / (2 * (INR m * t) ^ 2 * INR (N - 2 * m)) * bigsum (N - 2 * m) (fun i => d2 x m i ^ 2))).
  - intros x Hx. unfold oavar, oadev_n. now rewrite Hx.
  - apply (semi_mean _ _ (fun i x => d2 x m i)); [apply w_nonneg; lra|intros; apply add_d2].
Qed.
Lemma semi_hvar t m : semi (fun x => hvar x t m).
Proof.
  apply (semi_ext _ (fun x => / (6 * (INR m * t) ^ 2 * INR ((N - 1) / m - 2)) * bigsum ((N - 1) / m - 2) (fun k => d3 x m (k * m) ^ 2))).
  - intros x Hx. unfold hvar, hdev_n. now rewrite Hx.
  - apply (semi_mean _ _ (fun k x => d3 x m (k * m))); [apply w_nonneg; lra|intros; apply add_d3].
Qed.
Lemma semi_ohvar t m : semi (fun x => ohvar x t m).
Proof.
  apply (semi_ext _ (fun x => / (6 * (INR m * t) ^ 2 * INR (N - 3 * m)) * bigsum (N - 3 * m) (fun i => d3 x m i ^ 2))).
  - intros x Hx. unfold ohvar, ohdev_n. now rewrite Hx.
  - apply (semi_mean _ _ (fun i x => d3 x m i)); [apply w_nonneg; lra|intros; apply add_d3].
Qed.
Lemma mdev_cnt_nonneg m : (0 < c_mdev N m)%Z -> 0 < IZR (c_mdev N m).
Proof. intros H. now apply IZR_lt. Qed.
Lemma mdev_n_c x m : len x = N -> mdev_n x m = c_mdev N m.
Proof. intros <-. reflexivity. Qed.
Lemma semi_mvar t m : (0 < c_mdev N m)%Z -> semi (fun x => mvar x t m).
Proof.
  intros Hc. apply (semi_ext _ (fun x => / (2 * INR m ^ 2 * (INR m * t) ^ 2 * IZR (c_mdev N m)) *
    bigsum (Z.to_nat (c_mdev N m)) (fun j => bigsum m (fun i => d2 x m (j + i)) ^ 2))).
  - intros x Hx. unfold mvar. now rewrite (mdev_n_c x m Hx).
  - apply (semi_mean _ _ (fun j x => bigsum m (fun i => d2 x m (j + i)))).
    + apply inv_ge0. pose proof (mdev_cnt_nonneg m Hc). pose proof (pow2_ge_0 (INR m)). pose proof (pow2_ge_0 (INR m * t)).
      pp.
    + intros j _. apply (add_sum m (fun i x => d2 x m (j + i))). intros; apply add_d2.
Qed.
Lemma semi_pvar t m : semi (fun x => pvar x t m).
Proof.
  unfold pvar. destruct (Nat.eqb m 1); [apply semi_oavar|].
  apply (semi_ext _ (fun x => 72 / (INR (N - 2 * m) * INR m ^ 4 * (INR m * t) ^ 2) *
    bigsum (N - 2 * m) (fun i => bigsum m (fun k => ((INR m - 1) / 2 - INR k) * (x.[i + k] - x.[i + k + m])) ^ 2))).
  - intros x Hx. unfold oadev_n. now rewrite Hx.
  - apply (semi_mean _ _ (fun i x => bigsum m (fun k => ((INR m - 1) / 2 - INR k) * (x.[i + k] - x.[i + k + m])))).
    + apply Rmult_le_pos; [lra|]. apply inv_ge0. pose proof (pos_INR (N - 2 * m)). pose proof (pow2_ge_0 (INR m * t)).
      assert (0 <= INR m ^ 4) by (apply pow_le, pos_INR). pp.
    + intros i _. apply (add_sum m (fun k x => ((INR m - 1) / 2 - INR k) * (x.[i + k] - x.[i + k + m]))).
      intros k _. apply add_scal, add_minus; apply add_nth.
Qed.
Lemma add_xtot i : additive (fun x => xtot x i).
Proof.
  apply (add_ext _ (fun x => if (i <? 0)%Z then 2 * x.[0] - x.[Z.to_nat (- i)] else if (i <? Z.of_nat N)%Z then x.[Z.to_nat i]
    else 2 * x.[N - 1] - x.[Z.to_nat (2 * (Z.of_nat N - 1) - i)])).
  - intros x Hx. unfold xtot. now rewrite Hx.
  - destruct (i <? 0)%Z; [|destruct (i <? Z.of_nat N)%Z]; auto using add_minus, add_scal, add_nth.
Qed.
Lemma semi_totvar t m : semi (fun x => totvar x t m).
Proof.
  apply (semi_ext _ (fun x => / (2 * (INR m * t) ^ 2 * INR (N - 2)) * bigsum (N - 2) (fun k =>
    (xtot x (Z.of_nat (k + 1) - Z.of_nat m) - 2 * xtot x (Z.of_nat (k + 1)) + xtot x (Z.of_nat (k + 1) + Z.of_nat m)) ^ 2))).
  - intros x Hx. unfold totvar, totdev_n. now rewrite Hx.
  - apply (semi_mean _ _ (fun k x => xtot x (Z.of_nat (k + 1) - Z.of_nat m) - 2 * xtot x (Z.of_nat (k + 1)) + xtot x (Z.of_nat (k + 1) + Z.of_nat m))).
    + apply w_nonneg; lra.
    + intros k _. auto using add_plus, add_minus, add_scal, add_xtot.
Qed.
Lemma add_slope m (y : list R -> nat -> R) : (forall k, additive (fun x => y x k)) -> additive (fun x => half_slope (y x) m).
Proof.
  intros Hy. unfold half_slope. cbv zeta. apply add_div, add_minus; apply add_div.
  - apply (add_sum _ (fun k x => y x (3 * m - Nat.div2 (3 * m) + k)%nat)). intros; apply Hy.
  - apply (add_sum _ (fun k x => y x k)). intros; apply Hy.
Qed.
Lemma add_reflect m j (y : list R -> nat -> R) : (forall k, additive (fun x => y x k)) -> additive (fun x => reflect9 (y x) m j).
Proof. intros Hy. unfold reflect9. destruct (j <? 3 * m)%nat; [apply Hy|]. destruct (j <? 6 * m)%nat; apply Hy. Qed.
Lemma add_wsum m j (z : list R -> nat -> R) : (forall k, additive (fun x => z x k)) -> additive (fun x => wsum (z x) m j).
Proof. intros Hz. unfold wsum. apply (add_sum m (fun k x => z x (j + k)%nat)). intros; apply Hz. Qed.
Lemma semi_tot_term m (y : list R -> nat -> R) : (forall k, additive (fun x => y x k)) -> semi (fun x => tot_term (y x) m).
Proof.
  intros Hy. unfold tot_term. cbv zeta.
  set (z := fun x => reflect9 (fun k => y x k - half_slope (y x) m * INR k) m).
  assert (Hz : forall k, additive (fun x => z x k)).
  { intros k. apply (add_reflect m k (fun x k => y x k - half_slope (y x) m * INR k)). intros j. apply add_minus; [apply Hy|]. apply add_mulr, add_slope, Hy. }
  apply (semi_mean (/ (6 * INR m)) (6 * m) (fun j x => (wsum (z x) m j - 2 * wsum (z x) m (j + m) + wsum (z x) m (j + 2 * m)) / INR m)).
  - apply inv_ge0. pose proof (pos_INR m). lra.
  - intros j _. apply add_div, add_plus; [apply add_minus; [|apply add_scal]|]; apply add_wsum, Hz.
Qed.
Lemma semi_mtotvar t m : (0 < c_mdev N m)%Z -> semi (fun x => mtotvar x t m).
Proof.
  intros Hc. apply (semi_ext _ (fun x => / (2 * (INR m * t) ^ 2 * IZR (c_mdev N m)) *
    bigsum (Z.to_nat (c_mdev N m)) (fun i => tot_term (fun k => x.[i + k]) m))).
  - intros x Hx. unfold mtotvar. now rewrite (mdev_n_c x m Hx).
  - apply semi_scal.
    + apply inv_ge0. pose proof (mdev_cnt_nonneg m Hc). pose proof (pow2_ge_0 (INR m * t)). pp.
    + apply (semi_bigsum _ (fun i x => tot_term (fun k => x.[i + k]) m)). intros i _.
      apply (semi_tot_term m (fun x k => x.[i + k])). intros; apply add_nth.
Qed.
Lemma nth_freq x rate k : (freq_of x rate).[k] = if (k <? len x - 1)%nat then rate * (x.[k + 1] - x.[k]) else 0.
Proof.
  unfold freq_of. destruct (Nat.ltb_spec k (len x - 1)) as [Hk|Hk].
  - exact (nth_tab (len x - 1) (fun i => rate * (x.[i + 1] - x.[i])) k 0 Hk).
  - apply nth_overflow. rewrite map_length, seq_length. lia.
Qed.
Lemma freq_len x rate : len (freq_of x rate) = (len x - 1)%nat.
Proof. unfold freq_of. now rewrite map_length, seq_length. Qed.
Lemma semi_htotvar rate m : (0 < c_htot N m)%Z -> semi (fun x => htotvar x rate m).
Proof.
  unfold c_htot, htotvar. destruct (Nat.eqb m 1); [intros _; apply semi_ohvar|]. intros Hc.
  set (c := (Z.of_nat (N - 1) - 3 * Z.of_nat m + 1)%Z) in *.
  apply (semi_ext _ (fun x => / (6 * IZR c) * bigsum (Z.to_nat c) (fun i => tot_term (fun k => (freq_of x rate).[i + k]) m))).
  - intros x Hx. unfold htotvar_freq, mdev_n. rewrite freq_len, Hx. reflexivity.
  - apply semi_scal.
    + apply inv_ge0. apply IZR_lt in Hc. lra.
    + apply (semi_bigsum _ (fun i x => tot_term (fun k => (freq_of x rate).[i + k]) m)). intros i _.
      apply (semi_tot_term m (fun x k => (freq_of x rate).[i + k])). intros k.
      apply (add_ext _ (fun x => if (i + k <? N - 1)%nat then rate * (x.[i + k + 1] - x.[i + k]) else 0)).
      * intros x Hx. now rewrite nth_freq, Hx.
      * destruct (i + k <? N - 1)%nat; [apply add_scal, add_minus; apply add_nth|]. intros x y _ _. ring.
Qed.
Lemma semi_theo1 t m : semi (fun x => theo1var x t m).
Proof.
  apply (semi_ext _ (fun x => / (3 / 4 * INR (N - m) * (INR m * t) ^ 2) * bigsum (N - m) (fun i => bigsum (Nat.div2 m) (fun d =>
    / (INR (Nat.div2 m) - INR d) * ((x.[i] - x.[i + Nat.div2 m - d]) + (x.[i + m] - x.[i + Nat.div2 m + d])) ^ 2)))).
  - intros x Hx. unfold theo1var. now rewrite Hx.
  - apply semi_scal.
    + apply inv_ge0. pose proof (pos_INR (N - m)). pose proof (pow2_ge_0 (INR m * t)). pp.
    + apply (semi_bigsum _ (fun i x => bigsum (Nat.div2 m) (fun d => / (INR (Nat.div2 m) - INR d) *
        ((x.[i] - x.[i + Nat.div2 m - d]) + (x.[i + m] - x.[i + Nat.div2 m + d])) ^ 2))). intros i _.
      apply (semi_bigsum _ (fun d x => / (INR (Nat.div2 m) - INR d) * ((x.[i] - x.[i + Nat.div2 m - d]) + (x.[i + m] - x.[i + Nat.div2 m + d])) ^ 2)).
      intros d Hd. apply semi_scal; [apply inv_ge0; apply lt_INR in Hd; lra|]. apply semi_sq, add_plus; apply add_minus; apply add_nth.
Qed.
Lemma semi_tierms m : semi (fun x => tierms_var x m).
Proof.
  apply (semi_ext _ (fun x => / INR (N - m) * bigsum (N - m) (fun i => (x.[i + m] - x.[i]) ^ 2))).
  - intros x Hx. unfold tierms_var. now rewrite Hx.
  - apply (semi_mean _ _ (fun i x => x.[i + m] - x.[i])); [apply inv_ge0, pos_INR|]. intros; apply add_minus; apply add_nth.
Qed.
Lemma semi_mtie m : (1 <= m < N)%nat -> semi (fun x => mtie_val x m ^ 2).
Proof.
  intros Hm x y Hx Hy. repeat split; try apply pow2_ge_0.
  assert (Hp : len (plus x y) = N) by now rewrite plus_len.
  rewrite !sqrt_pow2 by (apply mtie_val_nonneg; lia).
  destruct (mtie_val_is (plus x y) m ltac:(lia)) as (_ & j & k & Hj & Hk & H1 & H2 & <-).
  destruct (mtie_val_is x m ltac:(lia)) as [Bx _]. destruct (mtie_val_is y m ltac:(lia)) as [By _].
  rewrite !nth_plus by congruence. rewrite Hp in Hj, Hk.
  pose proof (Bx j k ltac:(lia) ltac:(lia) H1 H2). pose proof (By j k ltac:(lia) ltac:(lia) H1 H2). lra.
Qed.
Lemma stat_semi s rate m : In s stats -> (1 <= m < N)%nat -> (1 < s_cnt s N m)%Z -> semi (fun x => s_var s x rate m).
Proof.
  intros Hs Hm Hc. unfold stats in Hs. repeat (destruct Hs as [<-|Hs]); [..|destruct Hs]; cbn [s_var s_cnt st_adev st_oadev st_hdev st_ohdev st_mdev st_tdev
      st_pdev st_totdev st_mtotdev st_ttotdev st_htotdev st_theo1 st_tierms st_mtie] in *.
  - apply semi_avar.
  - apply semi_oavar.
  - apply semi_hvar.
  - apply semi_ohvar.
  - apply semi_mvar; lia.
  - unfold tvar. apply semi_scal; [pose proof (pow2_ge_0 (INR m * (1 / rate))); lra|]. apply semi_mvar; lia.
  - apply semi_pvar.
  - apply semi_totvar.
  - apply semi_mtotvar; lia.
  - apply semi_scal; [pose proof (pow2_ge_0 (INR m * (1 / rate))); lra|]. apply semi_mtotvar; lia.
  - apply semi_htotvar; lia.
  - apply semi_theo1.
  - apply semi_tierms.
  - now apply semi_mtie.
Qed.
End Triangle.
