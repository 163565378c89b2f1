(** * Proofs about ci.py: confidence intervals, simple degrees of freedom,
    lag-1 autocorrelation and noise identification. *)
From Coq Require Import String Reals List ZArith Lra Lia Arith Bool Psatz.
From Verif Require Import Base Num NpList NumR ModelCore ModelDev ModelMisc ModelCi ModelCiR ListFacts Spec RSum TauProofs
  DevProofs TotProofs Closed Laws Laws2 Laws3.
Import ListNotations.
Local Open Scope R_scope.
Local Notation len := List.length.

(** ** confidence_interval *)
Lemma ci_level ci : (pymin2 (nabs ci) (nabs (ci - ofZ 1)) / ofZ 2)%num = Rmin (Rabs ci) (Rabs (ci - 1)) / 2.
Proof.
  unfold pymin2. cbn. unfold Rltb, Rmin. destruct (Rlt_dec _ _), (Rle_dec _ _); lra.
Qed.
Lemma ci_eq ppf dev edf ci : let p := Rmin (Rabs ci) (Rabs (ci - 1)) / 2 in
  confidence_interval ppf dev edf ci =
  (sqrt (edf * (dev * dev) / ppf (1 - p) edf), sqrt (edf * (dev * dev) / ppf p edf)).
Proof. cbv zeta. unfold confidence_interval. rewrite ci_level. reflexivity. Qed.

Lemma ci_level_hi ci : 1/2 <= ci <= 1 -> Rmin (Rabs ci) (Rabs (ci - 1)) = 1 - ci.
Proof. intros H. rewrite (Rabs_pos_eq ci), (Rabs_minus_sym ci 1), (Rabs_pos_eq (1 - ci)) by lra. rewrite Rmin_right; lra. Qed.
Lemma ci_level_lo ci : 0 <= ci <= 1/2 -> Rmin (Rabs ci) (Rabs (ci - 1)) = ci.
Proof. intros H. rewrite (Rabs_pos_eq ci), (Rabs_minus_sym ci 1), (Rabs_pos_eq (1 - ci)) by lra. rewrite Rmin_left; lra. Qed.
Lemma ci_level_sym ci : Rmin (Rabs ci) (Rabs (ci - 1)) = Rmin (Rabs (1 - ci)) (Rabs (1 - ci - 1)).
Proof.
  replace (1 - ci - 1) with (- ci) by ring. rewrite Rabs_Ropp, (Rabs_minus_sym 1 ci). apply Rmin_comm.
Qed.

(** ** lag1_acf *)
Definition mu (x : list R) : R := bigsum (len x) (fun i => x.[i]) / INR (len x).
Definition acf_num (x : list R) : R := bigsum (len x - 1) (fun i => (x.[i] - mu x) * (x.[S i] - mu x)).
Definition acf_den (x : list R) : R := bigsum (len x) (fun i => (x.[i] - mu x) ^ 2).

Lemma mean_mu (x : list R) : mean x = mu x.
Proof. unfold mean, mu. rewrite asum_list, ofN_INR. reflexivity. Qed.

Lemma map2_tab_min {A B C} (g : A -> B -> C) n m f1 f2 :
  map2 g (tab n f1) (tab m f2) = tab (Nat.min n m) (fun i => g (f1 i) (f2 i)).
Proof.
  revert m f1 f2. induction n as [|n IH]; intros m f1 f2; [reflexivity|].
  destruct m; [reflexivity|]. change (Nat.min (S n) (S m)) with (S (Nat.min n m)). rewrite !tab_S. cbn. now rewrite IH.
Qed.

Lemma lag1_spec (x : list R) : x <> [] -> lag1_acf x = Ok (acf_num x / acf_den x).
Proof.
  intros Hx. unfold lag1_acf. destruct x as [|a l] eqn:E; [contradiction|]. rewrite <- E in *. clear E a l Hx.
  cbv zeta. rewrite mean_mu. set (c := mu x).
  assert (E1 : map2 (fun p q : R => ((p - c) * (q - c))%num) x (tl x) =
    tab (len x - 1) (fun i => (x.[i] - c) * (x.[S i] - c))).
  { rewrite (list_tab x 0) at 1 2. rewrite tl_tab. rewrite map2_tab_min.
    replace (Nat.min (len x) (len x - 1)) with (len x - 1)%nat by lia. reflexivity. }
  assert (E2 : map (fun xn : R => nsq (xn - c)%num) x = tab (len x) (fun i => (x.[i] - c) ^ 2)).
  { rewrite (list_tab x 0) at 1. rewrite map_tab. apply tab_ext. intros i Hi. now rewrite nsq_R. }
  rewrite E1, E2, !asum_tab. reflexivity.
Qed.

(** [const x]: all entries equal *)
Definition const (x : list R) : Prop := forall i, (i < len x)%nat -> x.[i] = x.[0].

Lemma bigsum_pos_term n f i : (forall j, (j < n)%nat -> 0 <= f j) -> (i < n)%nat -> f i <= bigsum n f.
Proof.
  induction n as [|n IH]; intros H Hi; [lia|]. cbn.
  assert (0 <= bigsum n f) by (apply bigsum_nonneg; intros; apply H; lia).
  destruct (Nat.eq_dec i n) as [->|].
  - lra.
  - assert (f i <= bigsum n f) by (apply IH; [intros; apply H; lia|lia]). pose proof (H n ltac:(lia)). lra.
Qed.

Lemma const_mu x : const x -> x <> [] -> forall i, (i < len x)%nat -> x.[i] = mu x.
Proof.
  intros Hc Hx i Hi. unfold mu. rewrite (bigsum_ext _ _ (fun _ => x.[0])) by exact Hc.
  rewrite bigsum_const. rewrite (Hc i Hi). field. apply not_0_INR. destruct x; [contradiction|cbn; lia].
Qed.

Lemma acf_den_pos x : ~ const x -> 0 < acf_den x.
Proof.
  intros Hc. unfold acf_den.
  destruct (Rle_lt_or_eq_dec 0 (bigsum (len x) (fun i => (x.[i] - mu x) ^ 2))) as [H|H]; [apply bigsum_nonneg; intros; apply pow2_ge_0|exact H|].
  exfalso. apply Hc. symmetry in H.
  assert (Z : forall i, (i < len x)%nat -> x.[i] = mu x).
  { intros i Hi. pose proof (bigsum_zero_all _ _ (fun i _ => pow2_ge_0 _) H i Hi) as E. cbv beta in E. nra. }
  intros i Hi. rewrite (Z i Hi). symmetry. apply Z. lia.
Qed.

(** sums of a telescoping bound *)
Lemma acf_gap (u : nat -> R) n s : s = 1 \/ s = -1 ->
  2 * (bigsum (S n) (fun i => u i ^ 2) - s * bigsum n (fun i => u i * u (S i))) =
  u 0%nat ^ 2 + u n ^ 2 + bigsum n (fun i => (u i - s * u (S i)) ^ 2).
Proof.
  intros Hs. assert (s ^ 2 = 1) by (destruct Hs as [-> | ->]; ring).
  induction n as [|n IH].
  - cbn. ring.
  - change (bigsum (S (S n)) (fun i => u i ^ 2)) with (bigsum (S n) (fun i => u i ^ 2) + u (S n) ^ 2).
    cbn [bigsum] in *. set (a := bigsum n _) in *. set (b := bigsum n _) in *. set (c := bigsum n _) in *. nra.
Qed.

Lemma acf_bound x : ~ const x -> Rabs (acf_num x) < acf_den x.
Proof.
  intros Hc. set (u := fun i => x.[i] - mu x).
  assert (Hl : (1 <= len x)%nat).
  { destruct x; [exfalso; apply Hc; intros i Hi; cbn in Hi; lia|cbn; lia]. }
  assert (Hd : acf_den x = bigsum (S (len x - 1)) (fun i => u i ^ 2)).
  { unfold acf_den. replace (S (len x - 1)) with (len x) by lia. reflexivity. }
  assert (Hn : acf_num x = bigsum (len x - 1) (fun i => u i * u (S i))) by reflexivity.
  assert (K : forall s, s = 1 \/ s = -1 -> s * acf_num x < acf_den x).
  { intros s Hs. pose proof (acf_gap u (len x - 1) s Hs) as G. rewrite <- Hd, <- Hn in G.
    assert (G3 : 0 <= bigsum (len x - 1) (fun i => (u i - s * u (S i)) ^ 2)) by (apply bigsum_nonneg; intros; apply pow2_ge_0).
    pose proof (pow2_ge_0 (u 0%nat)). pose proof (pow2_ge_0 (u (len x - 1)%nat)).
    destruct (Rlt_dec (s * acf_num x) (acf_den x)) as [L|L]; [exact L|exfalso].
    assert (Z0 : u 0%nat ^ 2 = 0) by lra.
    assert (Z1 : bigsum (len x - 1) (fun i => (u i - s * u (S i)) ^ 2) = 0) by lra.
    assert (Z : forall i, (i <= len x - 1)%nat -> u i = 0).
    { induction i as [|i IH]; intros Hi; [nra|].
      pose proof (bigsum_zero_all _ _ (fun j _ => pow2_ge_0 _) Z1 i ltac:(lia)) as E. cbv beta in E.
      rewrite IH in E by lia. destruct Hs as [-> | ->]; nra. }
    apply Hc. intros i Hi. pose proof (Z i ltac:(lia)) as E1. pose proof (Z 0%nat ltac:(lia)) as E2. unfold u in *. lra. }
  apply Rabs_def1; [pose proof (K 1 (or_introl eq_refl))|pose proof (K (-1) (or_intror eq_refl))]; lra.
Qed.

Lemma acf_lt_1 x : ~ const x -> Rabs (acf_num x / acf_den x) < 1.
Proof.
  intros Hc. pose proof (acf_bound x Hc) as H. pose proof (acf_den_pos x Hc) as Hp.
  unfold Rdiv. rewrite Rabs_mult, (Rabs_pos_eq (/ acf_den x)) by (left; now apply Rinv_0_lt_compat).
  apply (Rmult_lt_reg_r (acf_den x)); [exact Hp|]. rewrite Rmult_assoc, Rinv_l by lra. lra.
Qed.

(** affine maps and reversal *)
Definition affine (a b : R) (x : list R) : list R := map (fun v => a * v + b) x.
Lemma affine_nth a b (x : list R) i : (i < len x)%nat -> (affine a b x).[i] = a * x.[i] + b.
Proof.
  intros Hi. unfold affine. rewrite (nth_indep _ 0 (a * 0 + b)) by (now rewrite map_length).
  now rewrite (map_nth (fun v => a * v + b)).
Qed.
Lemma affine_len a b x : len (affine a b x) = len x.
Proof. apply map_length. Qed.
Lemma affine_mu a b x : x <> [] -> mu (affine a b x) = a * mu x + b.
Proof.
  intros Hx. unfold mu. rewrite affine_len.
  rewrite (bigsum_ext _ _ (fun i => a * x.[i] + b)) by (intros; now apply affine_nth).
  rewrite bigsum_plus, bigsum_scal, bigsum_const. field. apply not_0_INR. destruct x; [contradiction|cbn; lia].
Qed.
Lemma scale_quot a p q : a <> 0 -> a ^ 2 * p / (a ^ 2 * q) = p / q.
Proof.
  intros Ha. unfold Rdiv. rewrite Rinv_mult. 
  replace (a ^ 2 * p * (/ a ^ 2 * / q)) with ((a ^ 2 * / a ^ 2) * (p * / q)) by ring.
  rewrite Rinv_r by (now apply pow_nonzero). ring.
Qed.
Lemma lag1_affine a b x : a <> 0 -> lag1_acf (affine a b x) = lag1_acf x.
Proof.
  intros Ha. destruct x as [|v t] eqn:E; [reflexivity|]. rewrite <- E.
  assert (Hx : x <> []) by (rewrite E; discriminate).
  assert (Hx' : affine a b x <> []) by (rewrite E; discriminate).
  rewrite !lag1_spec by assumption. f_equal.
  assert (En : acf_num (affine a b x) = a ^ 2 * acf_num x).
  { unfold acf_num. rewrite affine_len, <- bigsum_scal. apply bigsum_ext. intros i Hi.
    rewrite affine_mu, !affine_nth by (assumption || lia). ring. }
  assert (Ed : acf_den (affine a b x) = a ^ 2 * acf_den x).
  { unfold acf_den. rewrite affine_len, <- bigsum_scal. apply bigsum_ext. intros i Hi.
    rewrite affine_mu, !affine_nth by assumption. ring. }
  rewrite En, Ed. now apply scale_quot.
Qed.

Lemma rev_nthR (x : list R) i : (i < len x)%nat -> (rev x).[i] = x.[len x - 1 - i].
Proof. intros Hi. rewrite rev_nth by exact Hi. f_equal. lia. Qed.
Lemma rev_mu (x : list R) : mu (rev x) = mu x.
Proof.
  unfold mu. rewrite rev_length. f_equal. rewrite (bigsum_ext _ _ (fun i => x.[len x - 1 - i])) by (intros; now apply rev_nthR).
  apply (bigsum_rev (len x) (fun i => x.[i])).
Qed.
Lemma lag1_rev (x : list R) : lag1_acf (rev x) = lag1_acf x.
Proof.
  destruct x as [|v t] eqn:E; [reflexivity|]. rewrite <- E.
  assert (Hx : x <> []) by (rewrite E; discriminate).
  assert (Hx' : rev x <> []) by (intros C; apply (f_equal (@rev R)) in C; rewrite rev_involutive in C; now apply Hx).
  rewrite !lag1_spec by assumption. f_equal. f_equal.
  - unfold acf_num. rewrite rev_length, rev_mu.
    rewrite <- (bigsum_rev (len x - 1)). apply bigsum_ext. intros i Hi. rewrite !rev_nthR by lia.
    rewrite Rmult_comm. f_equal; f_equal; f_equal; lia.
  - unfold acf_den. rewrite rev_length, rev_mu. rewrite <- (bigsum_rev (len x)). apply bigsum_ext. intros i Hi.
    rewrite !rev_nthR by lia. do 3 f_equal. lia.
Qed.

(** ** autocorr_noise_id, any arithmetic *)
Section Acf.
Context {A : Type} {NA : Num A}.
Local Open Scope num_scope.

(** the series after k differentiations, and the quantity tested *)
Fixpoint differenced (k : nat) (x : list A) : list A :=
  match k with O => x | S k => diff (differenced k x) end.
Definition lag_rho (x : list A) (rho : A) : Prop :=
  exists r, lag1_acf x = Ok r /\ rho = r / (ofZ 1 + r).
Definition stop_at (dmin dmax : Z) (d : nat) (rho : A) : Prop :=
  (dmin <= Z.of_nat d)%Z /\ (nltb rho (ofZ 1 / ofZ 4) = true \/ (dmax <= Z.of_nat d)%Z).

Lemma diff_len (x : list A) : len (diff x) = (len x - 1)%nat.
Proof. unfold diff. rewrite map2_length. destruct x; cbn; lia. Qed.
Lemma differenced_len k (x : list A) : len (differenced k x) = (len x - k)%nat.
Proof.
  induction k as [|k IH]; cbn [differenced]; [lia|]. rewrite diff_len, IH. lia.
Qed.
Lemma differenced_S k (x : list A) : differenced (S k) x = differenced k (diff x).
Proof. induction k as [|k IH]; [reflexivity|]. cbn [differenced] in *. now rewrite IH. Qed.
Lemma lag1_ok (x : list A) : x <> [] -> exists r, lag1_acf x = Ok r.
Proof. destruct x; [contradiction|]. intros _. eexists. reflexivity. Qed.

Lemma acf_loop_spec phase dmin dmax fuel (x : list A) d :
  (Z.to_nat (Z.max dmin dmax - Z.of_nat d) < fuel)%nat -> (Z.max dmin dmax - Z.of_nat d < Z.of_nat (len x))%Z -> (0 < len x)%nat ->
  exists k rho, (Z.of_nat k <= Z.max 0 (Z.max dmin dmax - Z.of_nat d))%Z /\
    lag_rho (differenced k x) rho /\ stop_at dmin dmax (d + k) rho /\
    (forall j rho', (j < k)%nat -> lag_rho (differenced j x) rho' -> ~ stop_at dmin dmax (d + j) rho') /\
    acf_loop phase dmin dmax fuel x (Z.of_nat d) =
    Some (z <- int_round (ofZ 2 * rho) ;;
          Ok ((- z - 2 * Z.of_nat (d + k) + (if phase then 2 else 0))%Z,
              ofZ (-2) * (rho + ofZ (Z.of_nat (d + k))) + ofZ (if phase then 2%Z else 0%Z), Z.of_nat (d + k), rho)).
Proof.
  revert x d. induction fuel as [|f IH]; intros x d Hf Hl Hx; [lia|].
  cbn [acf_loop]. destruct (lag1_ok x) as (r & Er); [destruct x; [cbn in Hx; lia|discriminate]|].
  rewrite Er. cbv zeta. set (rho := (r / (ofZ 1 + r))%num).
  destruct ((dmin <=? Z.of_nat d)%Z && (nltb rho (ofZ 1 / ofZ 4) || (dmax <=? Z.of_nat d)%Z))%bool eqn:E.
  - exists 0%nat, rho. rewrite Nat.add_0_r. split; [lia|]. split; [now exists r|]. split.
    { apply andb_true_iff in E as [E1 E2]. apply Z.leb_le in E1. split; [exact E1|].
      apply orb_true_iff in E2 as [E2|E2]; [now left|right; now apply Z.leb_le]. }
    split; [intros; lia|]. destruct phase; reflexivity.
  - assert (Hns : ~ stop_at dmin dmax d rho).
    { intros [S1 S2]. apply Z.leb_le in S1. rewrite S1 in E. cbn in E. apply orb_false_iff in E as [E1 E2].
      apply Z.leb_gt in E2. destruct S2; [congruence|lia]. }
    assert (Hd : (Z.of_nat d < Z.max dmin dmax)%Z).
    { destruct (Z_lt_le_dec (Z.of_nat d) (Z.max dmin dmax)) as [L|L]; [exact L|].
      exfalso. apply Hns. split; [lia|right; lia]. }
    destruct (IH (diff x) (S d)) as (k & rho' & H1 & H2 & H3 & H4 & H5).
    + lia.
    + rewrite diff_len. lia.
    + rewrite diff_len. lia.
    + exists (S k), rho'. split; [lia|]. rewrite differenced_S. split; [exact H2|].
      replace (d + S k)%nat with (S d + k)%nat by lia. split; [exact H3|]. split.
      * intros [|j] rho0 Hj Hr.
        -- rewrite Nat.add_0_r. destruct Hr as (r0 & E0 & ->). cbn in E0. rewrite E0 in Er. injection Er as ->. exact Hns.
        -- rewrite differenced_S in Hr. replace (d + S j)%nat with (S d + j)%nat by lia. apply (H4 j rho0); [lia|exact Hr].
      * rewrite <- H5. f_equal. lia.
Qed.
End Acf.

(** ** rn and b1 *)
Lemma avar_nonneg x t m : 0 <= avar x t m.
Proof.
  unfold avar. apply Rmult_le_pos.
  - apply inv_nonneg. apply Rmult_le_pos; [|apply pow2_ge_0]. pose proof (pos_INR (adev_n x m)). lra.
  - apply bigsum_nonneg. intros. apply pow2_ge_0.
Qed.

Lemma adm_round N rate t m : (1 <= m < N)%nat -> half_even (t * rate) (Z.of_nat m) ->
  admissible N rate (TList [t]) [m].
Proof.
  intros Hm He. split; [exact I|]. split; [repeat constructor|].
  intros k. cbn [In]. split.
  - intros [<-|[]]. split; [exact Hm|]. split; [exact I|]. exists t. split; [now left|exact He].
  - intros (Hk & _ & t' & [<-|[]] & H). left. apply Nat2Z.inj. eapply half_even_unique; eauto.
Qed.

Lemma adev_n_ge x m : (1 <= m)%nat -> (3 * m + 1 <= len x)%nat -> (2 <= adev_n x m)%nat.
Proof.
  intros Hm Hl. unfold adev_n. assert (3 <= (len x - 1) / m)%nat by (apply Nat.div_le_lower_bound; lia). lia.
Qed.

Lemma rn_spec (x : list R) af rate m : 0 < rate -> half_even (af * rate * rate) (Z.of_nat m) ->
  (1 <= m)%nat -> (3 * m + 1 <= len x)%nat -> avar x (1 / rate) m <> 0 ->
  rn x af rate = Ok (mvar x (1 / rate) m / avar x (1 / rate) m).
Proof.
  intros Hr He Hm Hl Ha. unfold rn.
  assert (Had : admissible (len x) rate (TList [af * rate]) [m]) by (apply adm_round; [lia|exact He]).
  change (nmul af rate) with (af * rate).
  rewrite (adev_spec x rate _ [m] Hr Had). cbv zeta. rewrite report_single.
  2:{ pose proof (adev_n_ge x m Hm Hl). lia. }
  cbn [bind]. unfold first_dev at 1. cbn [pyget]. 
  change (pyget [sqrt (avar x (1 / rate) m)] 0) with (Ok (sqrt (avar x (1 / rate) m))). cbn [bind].
  rewrite (mdev_spec x rate _ [m] Hr Had). cbv zeta. rewrite report_single by (unfold mdev_n; lia).
  cbn [bind]. unfold first_dev.
  change (pyget [sqrt (mvar x (1 / rate) m)] 0) with (Ok (sqrt (mvar x (1 / rate) m))). cbn [bind].
  rewrite nsq_R. f_equal. cbn [ndiv RNum].
  assert (Hm0 : 0 <= mvar x (1 / rate) m) by (apply mvar_nonneg; unfold mdev_n; lia).
  pose proof (avar_nonneg x (1 / rate) m) as Ha0.
  unfold Rdiv at 1. rewrite Rpow_mult_distr, pow_inv, !pow2_sqrt by assumption. reflexivity.
Qed.

(** mean frequency over block j of af samples, and its sample variance *)
Definition block_freq (x : list R) (af j : nat) : R := (x.[(j + 1) * af] - x.[j * af]) / INR af.
Definition sample_var (n : nat) (y : nat -> R) : R :=
  let c := bigsum n y / INR n in bigsum n (fun j => (y j - c) ^ 2) / (INR n - 1).

Lemma diff_tab (x : list R) : diff x = tab (len x - 1) (fun i => x.[S i] - x.[i]).
Proof.
  unfold diff. rewrite (list_tab x 0) at 1 2. rewrite tl_tab, map2_tab_min.
  replace (Nat.min (len x - 1) (len x)) with (len x - 1)%nat by lia. reflexivity.
Qed.
Lemma bigsum_telescope n (f : nat -> R) : bigsum n (fun i => f (S i) - f i) = f n - f 0%nat.
Proof. induction n as [|n IH]; cbn; [ring|rewrite IH; ring]. Qed.

Lemma blocks_diff (x : list R) af : (1 <= af)%nat ->
  block_averages (diff x) af = Ok (tab ((len x - 1) / af) (block_freq x af)).
Proof.
  intros Ha. unfold block_averages. destruct (Nat.eqb_spec af 0); [lia|]. f_equal.
  rewrite diff_tab, tab_length. apply tab_ext. intros j Hj.
  rewrite pyslice_tab. unfold mean. rewrite tab_length, asum_tab, ofN_INR.
  assert (Hb : ((j + 1) * af <= len x - 1)%nat).
  { assert ((j + 1) * af <= (len x - 1) / af * af)%nat by (apply Nat.mul_le_mono_r; lia).
    pose proof (Nat.mul_div_le (len x - 1) af ltac:(lia)). lia. }
  replace (Nat.min _ _) with af by nia.
  cbn [ndiv RNum]. unfold block_freq. f_equal.
  rewrite (bigsum_ext _ _ (fun i => x.[j * af + S i] - x.[j * af + i])).
  2:{ intros i Hi. f_equal; f_equal; lia. }
  rewrite (bigsum_telescope af (fun i => x.[j * af + i])). f_equal; f_equal; lia.
Qed.
Lemma var1_tab n (y : nat -> R) : (1 <= n)%nat -> var1 (tab n y) = sample_var n y.
Proof.
  intro Hn.
  unfold var1, sample_var, mean. rewrite map_tab, !asum_tab, tab_length, ofN_INR. cbn [ndiv nsub ofZ RNum].
  rewrite ofN_INR, minus_INR by exact Hn. f_equal. apply bigsum_ext. intros i Hi. apply nsq_R.
Qed.

Lemma b1_spec (x : list R) (af : nat) rate m : 0 < rate -> (1 <= af)%nat -> half_even (INR af * rate * rate) (Z.of_nat m) ->
  (1 <= m)%nat -> (3 * m + 1 <= len x)%nat -> (2 * af + 1 <= len x)%nat ->
  b1 x af rate = Ok (sample_var ((len x - 1) / af) (block_freq x af) / avar x (1 / rate) m).
Proof.
  intros Hr Haf He Hm Hl Hb. unfold b1. rewrite ofN_INR.
  assert (Had : admissible (len x) rate (TList [INR af * rate]) [m]) by (apply adm_round; [lia|exact He]).
  change (nmul (INR af) rate) with (INR af * rate).
  rewrite (adev_spec x rate _ [m] Hr Had). cbv zeta. rewrite report_single.
  2:{ pose proof (adev_n_ge x m Hm Hl). lia. }
  cbn [bind]. unfold first_dev at 1.
  change (pyget [sqrt (avar x (1 / rate) m)] 0) with (Ok (sqrt (avar x (1 / rate) m))). cbn [bind].
  rewrite blocks_diff by exact Haf. cbn [bind]. rewrite var1_tab, nsq_R, pow2_sqrt by (apply avar_nonneg || (apply Nat.div_le_lower_bound; lia)). reflexivity.
Qed.
