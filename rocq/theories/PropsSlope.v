(** * How the deviations of one record bound one another (C113). *)
From Coq Require Import String Reals List ZArith Lra Lia Arith Bool Psatz.
From Verif Require Import Base Num NpList ModelCore ModelDev NumR ListFacts Spec RSum Dft TauProofs DevProofs TotProofs Closed Laws Laws2 Laws3 SemiProofs ConvProofs.
Import ListNotations.
Local Open Scope R_scope.
Local Notation len := List.length.

(** (t, d, n) is a row of the answer *)
Definition row (r : res (@result R)) (t d : R) (n : Z) : Prop :=
  exists ts ds e ns i, r = Ok (ts, ds, e, ns) /\ nth_error ts i = Some t /\ nth_error ds i = Some d /\ nth_error ns i = Some n.
Definition dev_fun := list R -> R -> string -> taus_arg R -> res (@result R).

Lemma row_stat s x rate taus t d n : In s stats -> 0 < rate -> row (s_fun s x rate "phase" taus) t d n ->
  exists m, t = INR m / rate /\ (1 <= m < len x)%nat /\ d = s_dev s x rate m /\ n = s_cnt s (len x) m /\ (1 < s_cnt s (len x) m)%Z.
Proof.
  intros Hs Hr (ts & ds & e & ns & i & E & Ht & Hd & Hn).
  destruct (same_rows s (len x) rate taus Hs Hr) as [[e' E']|(good & _ & Hg & E')]; rewrite (E' x eq_refl) in E; [discriminate|].
  injection E as <- <- <- <-. rewrite nth_error_map in Ht, Hd, Hn. destruct (nth_error good i) as [m|] eqn:G; [|discriminate].
  cbn in Ht, Hd, Hn. injection Ht as <-. injection Hd as <-. injection Hn as <-. apply nth_error_In in G. destruct (Hg m G) as (A & _ & C). exists m. auto.
Qed.

(** count times squared deviation, as a sum of squares *)
Lemma en n c S : (0 < n)%Z -> 0 <= c -> 0 <= S -> IZR n * sqrt (/ IZR n * (c * S)) ^ 2 = c * S.
Proof.
  intros Hn Hc HS. apply IZR_lt in Hn. rewrite pow2_sqrt. { field. lra. }
  apply Rmult_le_pos; [left; now apply Rinv_0_lt_compat|now apply Rmult_le_pos].
Qed.
Lemma en' n c S v : (0 < n)%Z -> 0 <= c -> 0 <= S -> v = / IZR n * (c * S) -> IZR n * sqrt v ^ 2 = c * S.
Proof. intros Hn Hc HS ->. now apply en. Qed.
Definition ss (n : nat) (f : nat -> R) : R := bigsum n (fun i => f i ^ 2).
Lemma ss_pos n f : 0 <= ss n f. Proof. apply bigsum_nonneg. intros. apply pow2_ge_0. Qed.
Lemma inv_pos0 a : 0 < a -> 0 <= / a. Proof. intros. left. now apply Rinv_0_lt_compat. Qed.

Section Energies.
Context (x : list R) (rate : R) (m : nat) (Hr : 0 < rate) (Hm : (1 <= m)%nat).
Let T := INR m * (1 / rate).
Lemma T_pos : 0 < T.
Proof using All. unfold T. apply Rmult_lt_0_compat; [apply lt_0_INR; lia|apply Rdiv_lt_0_compat; lra]. Qed.
Lemma m_pos : 0 < INR m. Proof using All. apply lt_0_INR; lia. Qed.
Ltac go := repeat match goal with |- 0 < _ * _ => apply Rmult_lt_0_compat | |- 0 < _ ^ _ => apply pow_lt end; try lra; try apply T_pos; try apply m_pos.
Lemma e_adev : (1 < s_cnt st_adev (len x) m)%Z ->
  IZR (s_cnt st_adev (len x) m) * s_dev st_adev x rate m ^ 2 = / (2 * T ^ 2) * ss ((len x - 1) / m - 1) (fun i => d2 x m (i * m)).
Proof using All.
  intros Hn. unfold s_dev. apply en'; [lia|apply inv_pos0; go|apply ss_pos|].
  cbn [s_var st_adev s_cnt]. unfold avar, adev_n, c_adev. rewrite <- INR_IZR_INZ. fold T. unfold ss. rewrite !Rinv_mult. ring.
Qed.
Lemma e_oadev : (1 < s_cnt st_oadev (len x) m)%Z ->
  IZR (s_cnt st_oadev (len x) m) * s_dev st_oadev x rate m ^ 2 = / (2 * T ^ 2) * ss (len x - 2 * m) (d2 x m).
Proof using All.
  intros Hn. unfold s_dev. apply en'; [lia|apply inv_pos0; go|apply ss_pos|].
  cbn [s_var st_oadev s_cnt]. unfold oavar, oadev_n, c_oadev. rewrite <- INR_IZR_INZ. fold T. unfold ss. rewrite !Rinv_mult. ring.
Qed.
Lemma e_hdev : (1 < s_cnt st_hdev (len x) m)%Z ->
  IZR (s_cnt st_hdev (len x) m) * s_dev st_hdev x rate m ^ 2 = / (6 * T ^ 2) * ss ((len x - 1) / m - 2) (fun i => d3 x m (i * m)).
Proof using All.
  intros Hn. unfold s_dev. apply en'; [lia|apply inv_pos0; go|apply ss_pos|].
  cbn [s_var st_hdev s_cnt]. unfold hvar, hdev_n, c_hdev. rewrite <- INR_IZR_INZ. fold T. unfold ss. rewrite !Rinv_mult. ring.
Qed.
Lemma e_ohdev : (1 < s_cnt st_ohdev (len x) m)%Z ->
  IZR (s_cnt st_ohdev (len x) m) * s_dev st_ohdev x rate m ^ 2 = / (6 * T ^ 2) * ss (len x - 3 * m) (d3 x m).
Proof using All.
  intros Hn. unfold s_dev. apply en'; [lia|apply inv_pos0; go|apply ss_pos|].
  cbn [s_var st_ohdev s_cnt]. unfold ohvar, ohdev_n, c_ohdev. rewrite <- INR_IZR_INZ. fold T. unfold ss. rewrite !Rinv_mult. ring.
Qed.
Lemma e_mdev : (1 < s_cnt st_mdev (len x) m)%Z ->
  IZR (s_cnt st_mdev (len x) m) * s_dev st_mdev x rate m ^ 2 = / (2 * INR m ^ 2 * T ^ 2) * ss (len x + 1 - 3 * m) (fun j => bigsum m (fun i => d2 x m (j + i))).
Proof using All.
  intros Hn. unfold s_dev. apply en'; [lia|apply inv_pos0; go|apply ss_pos|].
  cbn [s_var st_mdev s_cnt]. unfold mvar, mdev_n, c_mdev. replace (Z.to_nat (Z.of_nat (len x) - 3 * Z.of_nat m + 1)) with (len x + 1 - 3 * m)%nat by lia.
  fold T. unfold ss. rewrite !Rinv_mult. ring.
Qed.
Lemma e_tdev : (1 < s_cnt st_tdev (len x) m)%Z ->
  IZR (s_cnt st_tdev (len x) m) * s_dev st_tdev x rate m ^ 2 = / (6 * INR m ^ 2) * ss (len x + 1 - 3 * m) (fun j => bigsum m (fun i => d2 x m (j + i))).
Proof using All.
  intros Hn. unfold s_dev. apply en'; [lia|apply inv_pos0; go|apply ss_pos|].
  cbn [s_var st_tdev s_cnt]. unfold tvar, mvar, mdev_n, c_mdev. replace (Z.to_nat (Z.of_nat (len x) - 3 * Z.of_nat m + 1)) with (len x + 1 - 3 * m)%nat by lia.
  fold T. unfold ss. pose proof T_pos. pose proof m_pos. cbn [s_cnt st_tdev] in Hn. unfold c_mdev in Hn. apply IZR_lt in Hn. field. repeat split; lra.
Qed.
Lemma e_tierms : (1 < s_cnt st_tierms (len x) m)%Z ->
  IZR (s_cnt st_tierms (len x) m) * s_dev st_tierms x rate m ^ 2 = 1 * ss (len x - m) (fun i => x.[i + m] - x.[i]).
Proof using All.
  intros Hn. unfold s_dev. apply en'; [lia|lra|apply ss_pos|].
  cbn [s_var st_tierms s_cnt] in *. unfold tierms_var, c_tie in *. replace (Z.of_nat (len x) - Z.of_nat m)%Z with (Z.of_nat (len x - m)) by lia.
  rewrite <- INR_IZR_INZ. unfold ss. ring.
Qed.
Definition pterm (m : nat) (x : list R) (i : nat) : R :=
  if Nat.eqb m 1 then d2 x 1 i / 12 else bigsum m (fun k => ((INR m - 1) / 2 - INR k) * (x.[i + k] - x.[i + k + m])).
Lemma e_pdev : (1 < s_cnt st_pdev (len x) m)%Z ->
  IZR (s_cnt st_pdev (len x) m) * s_dev st_pdev x rate m ^ 2 = 72 / (INR m ^ 4 * T ^ 2) * ss (len x - 2 * m) (pterm m x).
Proof using All.
  intros Hn. unfold s_dev. apply en'; [lia|apply Rmult_le_pos; [lra|apply inv_pos0; go]|apply ss_pos|].
  cbn [s_var st_pdev s_cnt]. unfold pvar, oavar, oadev_n, c_oadev. rewrite <- INR_IZR_INZ. fold T. pose proof T_pos. pose proof m_pos.
  cbn [s_cnt st_pdev] in Hn. unfold c_oadev in Hn. apply IZR_lt in Hn. rewrite <- INR_IZR_INZ in Hn.
  unfold pterm. destruct (Nat.eqb_spec m 1) as [E|_].
  - unfold T in *. rewrite E in *. unfold ss. rewrite (bigsum_ext _ (fun i => (d2 x 1 i / 12) ^ 2) (fun i => / 144 * d2 x 1 i ^ 2)) by (intros; field).
    rewrite bigsum_scal. change (INR 1) with 1 in *. field. repeat split; lra.
  - unfold ss. field. repeat split; lra.
Qed.
Lemma e_totdev : (1 < s_cnt st_totdev (len x) m)%Z ->
  IZR (s_cnt st_totdev (len x) m) * s_dev st_totdev x rate m ^ 2 =
  / (2 * T ^ 2) * ss (len x - 2) (fun k => xtot x (Z.of_nat (k + 1) - Z.of_nat m) - 2 * xtot x (Z.of_nat (k + 1)) + xtot x (Z.of_nat (k + 1) + Z.of_nat m)).
Proof using All.
  intros Hn. unfold s_dev. apply en'; [lia|apply inv_pos0; go|apply ss_pos|].
  cbn [s_var st_totdev s_cnt]. unfold totvar, totdev_n, c_tot. rewrite <- INR_IZR_INZ. fold T. unfold ss. rewrite !Rinv_mult. ring.
Qed.
End Energies.

(** ** Sums of squares *)
Lemma ss_ext n f g : (forall i, (i < n)%nat -> f i = g i) -> ss n f = ss n g.
Proof. intros H. apply bigsum_ext. intros i Hi. now rewrite H. Qed.
Lemma sq_sum k (u : nat -> R) : bigsum k u ^ 2 <= INR k * ss k u.
Proof.
  unfold ss. induction k as [|k IH]; [cbn; lra|]. cbn [bigsum]. rewrite S_INR. pose proof (pos_INR k) as Hk.
  assert (H : 2 * u k * bigsum k u <= bigsum k (fun i => u i ^ 2) + INR k * u k ^ 2).
  { rewrite <- bigsum_const, <- bigsum_plus, <- bigsum_scal. apply bigsum_le. intros i _. pose proof (pow2_ge_0 (u i - u k)). nra. }
  nra.
Qed.
Lemma ss_shift n N a f : (n + a <= N)%nat -> ss n (fun i => f (i + a)%nat) <= ss N f.
Proof.
  intros H. unfold ss. replace N with (a + (n + (N - a - n)))%nat by lia. rewrite (bigsum_add a), bigsum_add.
  pose proof (bigsum_nonneg a (fun i => f i ^ 2) (fun i _ => pow2_ge_0 _)).
  pose proof (bigsum_nonneg (N - a - n) (fun i => f (a + (n + i))%nat ^ 2) (fun i _ => pow2_ge_0 _)).
  rewrite (bigsum_ext n (fun i => f (i + a)%nat ^ 2) (fun i => f (a + i)%nat ^ 2)) by (intros; do 2 f_equal; lia). lra.
Qed.
(** a sum of k shifted copies, overlapping and not *)
Lemma ss_copies n N k s f : (n + (k - 1) * s <= N)%nat -> ss n (fun i => bigsum k (fun a => f (i + a * s)%nat)) <= INR k ^ 2 * ss N f.
Proof.
  intros H. pose proof (pos_INR k) as Hk. eapply Rle_trans.
  - apply bigsum_le. intros i _. apply sq_sum.
  - rewrite bigsum_scal. replace (INR k ^ 2 * ss N f) with (INR k * (INR k * ss N f)) by ring. apply Rmult_le_compat_l; [exact Hk|].
    unfold ss at 1. rewrite bigsum_swap. rewrite <- bigsum_const. apply bigsum_le. intros a Ha. apply (ss_shift n N (a * s) f). nia.
Qed.
Lemma blocks_sum D (f : nat -> R) n : bigsum n (fun i => bigsum D (fun k => f (i * D + k)%nat)) = bigsum (n * D) f.
Proof. induction n as [|n IH]; [reflexivity|]. cbn [bigsum]. rewrite IH. replace (S n * D)%nat with (n * D + D)%nat by lia. now rewrite bigsum_add. Qed.
Lemma ss_blocks n N k f : (n * k <= N)%nat -> ss n (fun i => bigsum k (fun a => f (i * k + a)%nat)) <= INR k * ss N f.
Proof.
  intros H. eapply Rle_trans.
  - apply bigsum_le. intros i _. apply sq_sum.
  - rewrite bigsum_scal. apply Rmult_le_compat_l; [apply pos_INR|]. unfold ss at 1. rewrite (blocks_sum k (fun i => f i ^ 2)).
    pose proof (ss_shift (n * k) N 0 f ltac:(lia)) as Q. erewrite ss_ext in Q; [exact Q|]. intros i _. cbv beta. f_equal. lia.
Qed.

(** ** Differences over k m points *)
Lemma tele k (g : nat -> R) : bigsum k (fun a => g (S a) - g a) = g k - g 0%nat.
Proof. induction k as [|k IH]; cbn [bigsum]; [ring|rewrite IH; ring]. Qed.
Section Steps.
Context (x : list R) (m k : nat).
Lemma d1_km i : x.[i + k * m] - x.[i] = bigsum k (fun a => x.[i + a * m + m] - x.[i + a * m]).
Proof using All.
  pose proof (tele k (fun a => x.[i + a * m])) as H. cbv beta in H. rewrite Nat.mul_0_l, Nat.add_0_r in H. rewrite <- H.
  apply bigsum_ext. intros a _. do 2 f_equal. lia.
Qed.
Lemma d2_km i : d2 x (k * m) i = bigsum k (fun b => bigsum k (fun a => d2 x m (i + a * m + b * m))).
Proof using All.
  transitivity (bigsum k (fun b => (x.[i + k * m + b * m + m] - x.[i + k * m + b * m]) - (x.[i + b * m + m] - x.[i + b * m]))).
  - rewrite bigsum_minus, <- (d1_km (i + k * m)), <- (d1_km i). unfold d2. replace (i + 2 * (k * m))%nat with (i + k * m + k * m)%nat by lia. ring.
  - apply bigsum_ext. intros b _. pose proof (tele k (fun a => x.[i + a * m + b * m + m] - x.[i + a * m + b * m])) as H. cbv beta in H.
    rewrite Nat.mul_0_l, Nat.add_0_r in H. rewrite <- H. apply bigsum_ext. intros a _. unfold d2.
    replace (i + S a * m + b * m + m)%nat with (i + a * m + b * m + 2 * m)%nat by lia. replace (i + S a * m + b * m)%nat with (i + a * m + b * m + m)%nat by lia. ring.
Qed.
Lemma d3_d2 m' i : d3 x m' i = d2 x m' (i + m') - d2 x m' i.
Proof. unfold d3, d2. replace (i + m' + 2 * m')%nat with (i + 3 * m')%nat by lia. replace (i + m' + m')%nat with (i + 2 * m')%nat by lia. ring. Qed.
Lemma d3_km i : d3 x (k * m) i = bigsum k (fun c => bigsum k (fun b => bigsum k (fun a => d3 x m (i + a * m + b * m + c * m)))).
Proof using All.
  rewrite d3_d2, !d2_km, <- bigsum_minus. apply bigsum_ext. intros c _. rewrite <- bigsum_minus. rewrite (bigsum_swap k k).
  transitivity (bigsum k (fun b => d2 x m (i + k * m + b * m + c * m) - d2 x m (i + b * m + c * m))).
  - apply bigsum_ext. intros b _. do 2 f_equal; lia.
  - apply bigsum_ext. intros b _. pose proof (tele k (fun a => d2 x m (i + a * m + b * m + c * m))) as H. cbv beta in H.
    rewrite Nat.mul_0_l, Nat.add_0_r in H. rewrite <- H. apply bigsum_ext. intros a _. rewrite d3_d2. do 2 f_equal; lia.
Qed.
Lemma mean_km j : bigsum (k * m) (fun i => d2 x (k * m) (j + i)) =
  bigsum k (fun c => bigsum k (fun b => bigsum k (fun a => bigsum m (fun i => d2 x m (j + a * m + b * m + c * m + i))))).
Proof using All.
  rewrite <- (blocks_sum m (fun i => d2 x (k * m) (j + i)) k). apply bigsum_ext. intros c _.
  rewrite (bigsum_ext m _ (fun i => bigsum k (fun b => bigsum k (fun a => d2 x m (j + a * m + b * m + c * m + i))))).
  - rewrite bigsum_swap. apply bigsum_ext. intros b _. apply bigsum_swap.
  - intros i _. rewrite d2_km. apply bigsum_ext. intros b _. apply bigsum_ext. intros a _. f_equal. lia.
Qed.
End Steps.

(** ** Growth with tau *)
Section Grow.
Context (x : list R) (m k : nat) (Hm : (1 <= m)%nat) (Hk : (1 <= k)%nat).
Notation N := (len x).
Lemma g_tierms : (1 <= N - k * m)%nat -> ss (N - k * m) (fun i => x.[i + k * m] - x.[i]) <= INR k ^ 2 * ss (N - m) (fun i => x.[i + m] - x.[i]).
Proof using All.
  intros H. rewrite (ss_ext _ _ (fun i => bigsum k (fun a => (fun j => x.[j + m] - x.[j]) (i + a * m)%nat))) by (intros; apply d1_km).
  apply (ss_copies _ _ k m (fun j => x.[j + m] - x.[j])). nia.
Qed.
Lemma g_oadev : (1 <= N - 2 * (k * m))%nat -> ss (N - 2 * (k * m)) (d2 x (k * m)) <= INR k ^ 4 * ss (N - 2 * m) (d2 x m).
Proof using All.
  intros H. set (g := fun j => bigsum k (fun a => d2 x m (j + a * m))).
  rewrite (ss_ext _ _ (fun i => bigsum k (fun b => g (i + b * m)%nat))).
  2:{ intros i _. rewrite d2_km. apply bigsum_ext. intros b _. apply bigsum_ext. intros a _. f_equal. lia. }
  eapply Rle_trans; [apply (ss_copies _ (N - 2 * (k * m) + (k - 1) * m)); lia|]. replace (INR k ^ 4) with (INR k ^ 2 * INR k ^ 2) by ring. rewrite Rmult_assoc.
  apply Rmult_le_compat_l; [apply pow2_ge_0|]. apply (ss_copies _ (N - 2 * m) k m (d2 x m)). nia.
Qed.
Lemma g_ohdev : (1 <= N - 3 * (k * m))%nat -> ss (N - 3 * (k * m)) (d3 x (k * m)) <= INR k ^ 6 * ss (N - 3 * m) (d3 x m).
Proof using All.
  intros H. set (g := fun j => bigsum k (fun a => d3 x m (j + a * m))). set (h := fun j => bigsum k (fun a => g (j + a * m)%nat)).
  rewrite (ss_ext _ _ (fun i => bigsum k (fun b => h (i + b * m)%nat))).
  2:{ intros i _. rewrite d3_km. apply bigsum_ext. intros c _. apply bigsum_ext. intros b _. apply bigsum_ext. intros a _. f_equal. lia. }
  eapply Rle_trans; [apply (ss_copies _ (N - 3 * (k * m) + (k - 1) * m)); lia|]. replace (INR k ^ 6) with (INR k ^ 2 * (INR k ^ 2 * INR k ^ 2)) by ring. rewrite !Rmult_assoc.
  apply Rmult_le_compat_l; [apply pow2_ge_0|]. eapply Rle_trans; [apply (ss_copies _ (N - 3 * (k * m) + 2 * (k - 1) * m)); lia|].
  apply Rmult_le_compat_l; [apply pow2_ge_0|]. apply (ss_copies _ (N - 3 * m) k m (d3 x m)). nia.
Qed.
Lemma g_mdev : (1 <= N + 1 - 3 * (k * m))%nat -> ss (N + 1 - 3 * (k * m)) (fun j => bigsum (k * m) (fun i => d2 x (k * m) (j + i))) <=
  INR k ^ 6 * ss (N + 1 - 3 * m) (fun j => bigsum m (fun i => d2 x m (j + i))).
Proof using All.
  intros H. set (f := fun j => bigsum m (fun i => d2 x m (j + i))). set (g := fun j => bigsum k (fun a => f (j + a * m)%nat)). set (h := fun j => bigsum k (fun a => g (j + a * m)%nat)).
  rewrite (ss_ext _ _ (fun i => bigsum k (fun b => h (i + b * m)%nat))).
  2:{ intros i _. rewrite mean_km. apply bigsum_ext. intros c _. apply bigsum_ext. intros b _. apply bigsum_ext. intros a _. unfold f. apply bigsum_ext. intros q _. f_equal. lia. }
  eapply Rle_trans; [apply (ss_copies _ (N + 1 - 3 * (k * m) + (k - 1) * m)); lia|]. replace (INR k ^ 6) with (INR k ^ 2 * (INR k ^ 2 * INR k ^ 2)) by ring. rewrite !Rmult_assoc.
  apply Rmult_le_compat_l; [apply pow2_ge_0|]. eapply Rle_trans; [apply (ss_copies _ (N + 1 - 3 * (k * m) + 2 * (k - 1) * m)); lia|].
  apply Rmult_le_compat_l; [apply pow2_ge_0|]. apply (ss_copies _ (N + 1 - 3 * m) k m f). nia.
Qed.
Lemma div_km p : (p <= (N - 1) / (k * m))%nat -> (p * k <= (N - 1) / m)%nat.
Proof using All.
  intros H. apply Nat.div_le_lower_bound; [lia|]. pose proof (Nat.mul_div_le (N - 1) (k * m) ltac:(nia)) as Q.
  pose proof (Nat.mul_le_mono_l _ _ (k * m) H) as Q'. lia.
Qed.
Lemma g_adev : (1 <= (N - 1) / (k * m) - 1)%nat -> ss ((N - 1) / (k * m) - 1) (fun i => d2 x (k * m) (i * (k * m))) <= INR k ^ 3 * ss ((N - 1) / m - 1) (fun i => d2 x m (i * m)).
Proof using All.
  intros H. set (n' := ((N - 1) / (k * m) - 1)%nat) in *. assert (L : (n' * k + (k - 1) <= (N - 1) / m - 1)%nat).
  { pose proof (div_km (n' + 1) ltac:(lia)). nia. }
  set (F := fun q => d2 x m (q * m)). set (G := fun q => bigsum k (fun b => F (q + b * 1)%nat)).
  rewrite (ss_ext _ _ (fun i => bigsum k (fun a => G (i * k + a)%nat))).
  2:{ intros i _. rewrite d2_km, bigsum_swap. apply bigsum_ext. intros a _. apply bigsum_ext. intros b _. unfold F. f_equal. lia. }
  eapply Rle_trans; [apply (ss_blocks n' (n' * k) k G); lia|]. replace (INR k ^ 3) with (INR k * INR k ^ 2) by ring. rewrite Rmult_assoc.
  apply Rmult_le_compat_l; [apply pos_INR|]. apply (ss_copies _ _ k 1 F). lia.
Qed.
Lemma g_hdev : (1 <= (N - 1) / (k * m) - 2)%nat -> ss ((N - 1) / (k * m) - 2) (fun i => d3 x (k * m) (i * (k * m))) <= INR k ^ 5 * ss ((N - 1) / m - 2) (fun i => d3 x m (i * m)).
Proof using All.
  intros H. set (n' := ((N - 1) / (k * m) - 2)%nat) in *. assert (L : (n' * k + 2 * (k - 1) <= (N - 1) / m - 2)%nat).
  { pose proof (div_km (n' + 2) ltac:(lia)). nia. }
  set (F := fun q => d3 x m (q * m)). set (G := fun q => bigsum k (fun b => F (q + b * 1)%nat)). set (J := fun q => bigsum k (fun b => G (q + b * 1)%nat)).
  rewrite (ss_ext _ _ (fun i => bigsum k (fun a => J (i * k + a)%nat))).
  2:{ intros i _. rewrite d3_km. apply bigsum_ext. intros c _. apply bigsum_ext. intros b _. apply bigsum_ext. intros a _. unfold F. f_equal. lia. }
  eapply Rle_trans; [apply (ss_blocks n' (n' * k) k J); lia|]. replace (INR k ^ 5) with (INR k * (INR k ^ 2 * INR k ^ 2)) by ring. rewrite !Rmult_assoc.
  apply Rmult_le_compat_l; [apply pos_INR|]. eapply Rle_trans; [apply (ss_copies _ (n' * k + (k - 1)) k 1 G); lia|].
  apply Rmult_le_compat_l; [apply pow2_ge_0|]. apply (ss_copies _ _ k 1 F). lia.
Qed.
Lemma g_mtie : (k * m < N)%nat -> mtie_val x (k * m) <= INR k * mtie_val x m.
Proof using All.
  intros H. destruct (mtie_val_is x m ltac:(nia)) as [U _]. destruct (mtie_val_is x (k * m) ltac:(nia)) as [_ (a & b & Ha & Hb & H1 & H2 & <-)].
  pose proof (mtie_val_nonneg x m ltac:(nia)) as P.
  assert (Q : forall q i j, (i < N)%nat -> (j < N)%nat -> (i <= j + q * m)%nat -> (j <= i + q * m)%nat -> x.[i] - x.[j] <= INR q * mtie_val x m).
  { clear a b Ha Hb H1 H2. induction q as [|q IH]; intros i j Hi Hj H1 H2.
    - replace i with j by lia. cbn. lra.
    - rewrite S_INR. destruct (Nat.le_gt_cases i (j + q * m)) as [A|A]; [destruct (Nat.le_gt_cases j (i + q * m)) as [B|B]|].
      + specialize (IH i j Hi Hj A B). lra.
      + pose proof (IH i (i + q * m)%nat Hi ltac:(lia) ltac:(lia) ltac:(lia)) as I1. pose proof (U (i + q * m)%nat j ltac:(lia) Hj ltac:(lia) ltac:(lia)) as I2. lra.
      + pose proof (IH (j + q * m)%nat j ltac:(lia) Hj ltac:(lia) ltac:(lia)) as I1. pose proof (U i (j + q * m)%nat Hi ltac:(lia) ltac:(lia) ltac:(lia)) as I2. lra. }
  apply Q; assumption.
Qed.
End Grow.

Definition growth : list (dev_fun * nat) := [(adev, 1%nat); (oadev, 2%nat); (hdev, 3%nat); (ohdev, 4%nat); (mdev, 2%nat); (tdev, 4%nat); (tierms, 2%nat)].

Lemma row_mult k m m' rate : 0 < rate -> (1 <= m')%nat -> INR m' / rate = INR k * (INR m / rate) -> (1 <= k)%nat /\ m' = (k * m)%nat.
Proof.
  intros Hr Hm' E. assert (Q : INR m' = INR (k * m)).
  { rewrite mult_INR. apply (Rmult_eq_reg_r (/ rate)); [|apply Rinv_neq_0_compat; lra]. unfold Rdiv in E. rewrite E. ring. }
  apply INR_eq in Q. split; [|exact Q]. destruct k; [cbn in Q; lia|lia].
Qed.
Lemma scale_le c c' K p S S' : 0 <= c -> 0 < K -> c' * K = c * p -> S' <= K * S -> 0 <= c' -> c' * S' <= p * (c * S).
Proof. intros Hc HK E H Hc'. apply Rle_trans with (c' * (K * S)); [now apply Rmult_le_compat_l|]. rewrite <- Rmult_assoc, E. lra. Qed.

Ltac pick Hf := cbn [In growth] in Hf; repeat destruct Hf as [Hf|Hf]; try contradiction Hf; injection Hf as <- <-.
Theorem C113_growth f p x rate taus taus' t d n k d' n' : In (f, p) growth -> 0 < rate ->
  row (f x rate "phase"%string taus) t d n -> row (f x rate "phase"%string taus') (INR k * t) d' n' ->
  IZR n' * d' ^ 2 <= INR k ^ p * (IZR n * d ^ 2).
Proof.
  intros Hf Hr H H'.
  assert (G : forall s e0 (c : nat -> R) (S : nat -> R), In s stats -> s_fun s = f ->
    (forall m, (1 <= m)%nat -> (1 < s_cnt s (len x) m)%Z -> IZR (s_cnt s (len x) m) * s_dev s x rate m ^ 2 = c m * S m) ->
    (forall m, (1 <= m)%nat -> 0 <= c m) -> (forall m, (1 <= m)%nat -> (1 <= k)%nat -> c (k * m)%nat * INR k ^ e0 = c m * INR k ^ p) ->
    (forall m, (1 <= m)%nat -> (1 <= k)%nat -> (1 < s_cnt s (len x) (k * m))%Z -> S (k * m)%nat <= INR k ^ e0 * S m) ->
    IZR n' * d' ^ 2 <= INR k ^ p * (IZR n * d ^ 2)).
  { intros s e0 c S Hs Es Eq Hc Hp HS. rewrite <- Es in H, H'. apply (row_stat s) in H; [|exact Hs|exact Hr]. apply (row_stat s) in H'; [|exact Hs|exact Hr].
    destruct H as (m & -> & Hm & -> & -> & Hn). destruct H' as (m' & E & Hm' & -> & -> & Hn').
    destruct (row_mult k m m' rate Hr ltac:(lia) (eq_sym E)) as [Hk ->]. rewrite (Eq m), (Eq (k * m)%nat) by (lia || nia || assumption).
    apply (scale_le (c m) _ (INR k ^ e0)); [apply Hc; lia|apply pow_lt, lt_0_INR; lia|apply Hp; lia|apply HS; lia || assumption|apply Hc; nia]. }
  assert (Pm : forall m, (1 <= m)%nat -> 0 < INR m) by (intros; apply lt_0_INR; lia).
  assert (PT : forall m, (1 <= m)%nat -> 0 < INR m * (1 / rate)) by (intros; apply Rmult_lt_0_compat; [auto|apply Rdiv_lt_0_compat; lra]).
  pick Hf.
  - apply (G st_adev 3%nat (fun m => / (2 * (INR m * (1 / rate)) ^ 2)) (fun m => ss ((len x - 1) / m - 1) (fun i => d2 x m (i * m)))); [cbn; tauto|reflexivity|intros; now apply e_adev|..].
    + intros m Hm. apply inv_pos0. specialize (PT m Hm). apply Rmult_lt_0_compat; [lra|now apply pow_lt].
    + intros m Hm Hk. specialize (Pm m Hm) as P1. specialize (Pm k Hk) as P2. rewrite mult_INR. field. lra.
    + intros m Hm Hk Hn. cbn [s_cnt st_adev] in Hn. unfold c_adev in Hn. apply g_adev; lia.
  - apply (G st_oadev 4%nat (fun m => / (2 * (INR m * (1 / rate)) ^ 2)) (fun m => ss (len x - 2 * m) (d2 x m))); [cbn; tauto|reflexivity|intros; now apply e_oadev|..].
    + intros m Hm. apply inv_pos0. specialize (PT m Hm). apply Rmult_lt_0_compat; [lra|now apply pow_lt].
    + intros m Hm Hk. specialize (Pm m Hm) as P1. specialize (Pm k Hk) as P2. rewrite mult_INR. field. lra.
    + intros m Hm Hk Hn. cbn [s_cnt st_oadev] in Hn. unfold c_oadev in Hn. apply g_oadev; lia.
  - apply (G st_hdev 5%nat (fun m => / (6 * (INR m * (1 / rate)) ^ 2)) (fun m => ss ((len x - 1) / m - 2) (fun i => d3 x m (i * m)))); [cbn; tauto|reflexivity|intros; now apply e_hdev|..].
    + intros m Hm. apply inv_pos0. specialize (PT m Hm). apply Rmult_lt_0_compat; [lra|now apply pow_lt].
    + intros m Hm Hk. specialize (Pm m Hm) as P1. specialize (Pm k Hk) as P2. rewrite mult_INR. field. lra.
    + intros m Hm Hk Hn. cbn [s_cnt st_hdev] in Hn. unfold c_hdev in Hn. apply g_hdev; lia.
  - apply (G st_ohdev 6%nat (fun m => / (6 * (INR m * (1 / rate)) ^ 2)) (fun m => ss (len x - 3 * m) (d3 x m))); [cbn; tauto|reflexivity|intros; now apply e_ohdev|..].
    + intros m Hm. apply inv_pos0. specialize (PT m Hm). apply Rmult_lt_0_compat; [lra|now apply pow_lt].
    + intros m Hm Hk. specialize (Pm m Hm) as P1. specialize (Pm k Hk) as P2. rewrite mult_INR. field. lra.
    + intros m Hm Hk Hn. cbn [s_cnt st_ohdev] in Hn. unfold c_ohdev in Hn. apply g_ohdev; lia.
  - apply (G st_mdev 6%nat (fun m => / (2 * INR m ^ 2 * (INR m * (1 / rate)) ^ 2)) (fun m => ss (len x + 1 - 3 * m) (fun j => bigsum m (fun i => d2 x m (j + i))))); [cbn; tauto|reflexivity|intros; now apply e_mdev|..].
    + intros m Hm. apply inv_pos0. specialize (PT m Hm). specialize (Pm m Hm). apply Rmult_lt_0_compat; [apply Rmult_lt_0_compat; [lra|]|]; now apply pow_lt.
    + intros m Hm Hk. specialize (Pm m Hm) as P1. specialize (Pm k Hk) as P2. rewrite mult_INR. field. lra.
    + intros m Hm Hk Hn. cbn [s_cnt st_mdev] in Hn. unfold c_mdev in Hn. apply g_mdev; lia.
  - apply (G st_tdev 6%nat (fun m => / (6 * INR m ^ 2)) (fun m => ss (len x + 1 - 3 * m) (fun j => bigsum m (fun i => d2 x m (j + i))))); [cbn; tauto|reflexivity|intros; now apply e_tdev|..].
    + intros m Hm. apply inv_pos0. specialize (Pm m Hm). apply Rmult_lt_0_compat; [lra|]; now apply pow_lt.
    + intros m Hm Hk. specialize (Pm m Hm) as P1. specialize (Pm k Hk) as P2. rewrite mult_INR. field. lra.
    + intros m Hm Hk Hn. cbn [s_cnt st_tdev] in Hn. unfold c_mdev in Hn. apply g_mdev; lia.
  - apply (G st_tierms 2%nat (fun m => 1) (fun m => ss (len x - m) (fun i => x.[i + m] - x.[i]))); [cbn; tauto|reflexivity|intros; now apply e_tierms|..].
    + intros; lra.
    + intros; ring.
    + intros m Hm Hk Hn. cbn [s_cnt st_tierms] in Hn. unfold c_tie in Hn. apply g_tierms; lia.
Qed.
Print Assumptions C113_growth.

Theorem C113_mtie_growth x rate taus taus' t d n k d' n' : 0 < rate ->
  row (mtie x rate "phase" taus) t d n -> row (mtie x rate "phase" taus') (INR k * t) d' n' -> d' <= INR k * d.
Proof.
  intros Hr H H'. apply (row_stat st_mtie) in H; [|cbn; tauto|exact Hr]. apply (row_stat st_mtie) in H'; [|cbn; tauto|exact Hr].
  destruct H as (m & -> & Hm & -> & -> & Hn). destruct H' as (m' & E & Hm' & -> & -> & Hn').
  destruct (row_mult k m m' rate Hr ltac:(lia) (eq_sym E)) as [Hk ->]. unfold s_dev. cbn [s_var st_mtie].
  rewrite !sqrt_pow2 by (apply mtie_val_nonneg; lia). apply g_mtie; lia.
Qed.
Print Assumptions C113_mtie_growth.

(** ** One deviation against another at the same tau *)
Lemma ss_stride n M m f : (1 <= m)%nat -> ((n - 1) * m < M)%nat -> ss n (fun i => f (i * m)%nat) <= ss M f.
Proof.
  intros Hm H. destruct n as [|n]; [cbn; apply ss_pos|]. apply Rle_trans with (ss (n * m + 1) f).
  - clear H. induction n as [|n IH]; [cbn; lra|]. unfold ss in *. cbn [bigsum] in *. replace (S n * m + 1)%nat with (S (n * m + m)) by lia. cbn [bigsum].
    replace (n * m + m)%nat with (S n * m)%nat at 2 by lia. apply Rplus_le_compat_r. eapply Rle_trans; [exact IH|].
    replace (n * m + m)%nat with (n * m + 1 + (m - 1))%nat by lia. rewrite (bigsum_add (n * m + 1)).
    pose proof (bigsum_nonneg (m - 1) (fun i => f (n * m + 1 + i)%nat ^ 2) (fun i _ => pow2_ge_0 _)). lra.
  - pose proof (ss_shift (n * m + 1) M 0 f ltac:(lia)) as Q. erewrite ss_ext in Q; [exact Q|]. intros i _. cbv beta. f_equal. lia.
Qed.
Lemma ss_diff n M a f : (n + a <= M)%nat -> ss n (fun i => f (i + a)%nat - f i) <= 4 * ss M f.
Proof.
  intros H. pose proof (ss_shift n M a f H) as A. pose proof (ss_shift n M 0 f ltac:(lia)) as B.
  assert (Q : ss n (fun i => f (i + a)%nat - f i) <= 2 * ss n (fun i => f (i + a)%nat) + 2 * ss n (fun i => f (i + 0)%nat)).
  { unfold ss. rewrite <- !bigsum_scal, <- bigsum_plus. apply bigsum_le. intros i _. rewrite Nat.add_0_r. pose proof (pow2_ge_0 (f (i + a)%nat + f i)). nra. }
  lra.
Qed.
Lemma d2_d1 x m i : d2 x m i = (fun j => x.[j + m] - x.[j]) (i + m)%nat - (fun j => x.[j + m] - x.[j]) i.
Proof. cbv beta. unfold d2. replace (i + m + m)%nat with (i + 2 * m)%nat by lia. ring. Qed.
Lemma w_sum (c : R) n : 6 * bigsum n (fun k => (c - INR k) ^ 2) = 6 * c ^ 2 * INR n - 6 * c * INR n * (INR n - 1) + INR n * (INR n - 1) * (2 * INR n - 1).
Proof. induction n as [|n IH]; [cbn; ring|]. cbn [bigsum]. rewrite Rmult_plus_distr_l, IH, S_INR. ring. Qed.
Lemma p_tie x m : (2 <= m)%nat -> (1 <= len x - 2 * m)%nat ->
  12 * ss (len x - 2 * m) (fun i => bigsum m (fun k => ((INR m - 1) / 2 - INR k) * (x.[i + k] - x.[i + k + m]))) <=
  INR m ^ 2 * (INR m ^ 2 - 1) * ss (len x - m) (fun i => x.[i + m] - x.[i]).
Proof.
  intros Hm Hn. set (w := fun k => (INR m - 1) / 2 - INR k). set (W := bigsum m (fun k => w k ^ 2)).
  assert (EW : 12 * W = INR m * (INR m ^ 2 - 1)). { pose proof (w_sum ((INR m - 1) / 2) m) as Q. fold W in Q. unfold W, w. lra. }
  assert (Pm : 2 <= INR m) by (change 2 with (INR 2); now apply le_INR). pose proof (ss_pos (len x - m) (fun i => x.[i + m] - x.[i])) as PS.
  set (e := fun i => x.[i + m] - x.[i]) in *.
  assert (Q : ss (len x - 2 * m) (fun i => bigsum m (fun k => w k * (x.[i + k] - x.[i + k + m]))) <= W * (INR m * ss (len x - m) e)).
  { apply Rle_trans with (bigsum (len x - 2 * m) (fun i => W * bigsum m (fun k => e (i + k)%nat ^ 2))).
    - apply bigsum_le. intros i _. eapply Rle_trans; [apply cauchy_schwarz|]. fold W. apply Req_le. f_equal. apply bigsum_ext. intros k _. unfold e. ring.
    - rewrite bigsum_scal. apply Rmult_le_compat_l; [apply bigsum_nonneg; intros; apply pow2_ge_0|]. rewrite bigsum_swap, <- bigsum_const.
      apply bigsum_le. intros k Hk. apply (ss_shift (len x - 2 * m) (len x - m) k e). lia. }
  change (fun i => bigsum m (fun k => ((INR m - 1) / 2 - INR k) * (x.[i + k] - x.[i + k + m]))) with (fun i => bigsum m (fun k => w k * (x.[i + k] - x.[i + k + m]))).
  nra.
Qed.

(** (f, g, c, q): count times squared deviation of f times tau^q is at most c times that of g *)
Definition kinds : list (dev_fun * dev_fun * R * nat) :=
  [ (adev, oadev, 1, 0%nat); (hdev, ohdev, 1, 0%nat); (mdev, oadev, 1, 0%nat); (oadev, totdev, 1, 0%nat);
    (hdev, adev, 4 / 3, 0%nat); (ohdev, oadev, 4 / 3, 0%nat);
    (oadev, tierms, 2, 2%nat); (tdev, tierms, 2 / 3, 0%nat); (pdev, tierms, 6, 2%nat) ].

Lemma row_same m m' rate : 0 < rate -> INR m / rate = INR m' / rate -> m' = m.
Proof.
  intros Hr E. apply INR_eq. apply (Rmult_eq_reg_r (/ rate)); [|apply Rinv_neq_0_compat; lra]. unfold Rdiv in E. now rewrite E.
Qed.
Theorem C113_kinds f g c q x rate taus taus' t d n d' n' : In (f, g, c, q) kinds -> 0 < rate ->
  row (f x rate "phase"%string taus) t d n -> row (g x rate "phase"%string taus') t d' n' ->
  IZR n * d ^ 2 * t ^ q <= c * (IZR n' * d' ^ 2).
Proof.
  intros Hf Hr H H'.
  assert (G : forall s s', In s stats -> In s' stats -> s_fun s = f -> s_fun s' = g ->
    (forall m, (1 <= m)%nat -> (1 < s_cnt s (len x) m)%Z -> (1 < s_cnt s' (len x) m)%Z ->
      IZR (s_cnt s (len x) m) * s_dev s x rate m ^ 2 * (INR m * (1 / rate)) ^ q <= c * (IZR (s_cnt s' (len x) m) * s_dev s' x rate m ^ 2)) ->
    IZR n * d ^ 2 * t ^ q <= c * (IZR n' * d' ^ 2)).
  { intros s s' Hs Hs' Es Es' Eq. rewrite <- Es in H. rewrite <- Es' in H'. apply (row_stat s) in H; [|exact Hs|exact Hr]. apply (row_stat s') in H'; [|exact Hs'|exact Hr].
    destruct H as (m & -> & Hm & -> & -> & Hn). destruct H' as (m' & E & Hm' & -> & -> & Hn'). apply row_same in E; [|exact Hr]. subst m'.
    replace (INR m / rate) with (INR m * (1 / rate)) by (field; lra). apply Eq; [lia|exact Hn|exact Hn']. }
  assert (Pm : forall m, (1 <= m)%nat -> 0 < INR m) by (intros; apply lt_0_INR; lia).
  assert (PT : forall m, (1 <= m)%nat -> 0 < INR m * (1 / rate)) by (intros; apply Rmult_lt_0_compat; [auto|apply Rdiv_lt_0_compat; lra]).
  assert (PI2 : forall m a, (1 <= m)%nat -> 0 < a -> 0 <= / (a * (INR m * (1 / rate)) ^ 2)).
  { intros m a Hm Ha. apply inv_pos0, Rmult_lt_0_compat; [exact Ha|apply pow_lt; auto]. }
  cbn [In kinds] in Hf. repeat destruct Hf as [Hf|Hf]; try contradiction Hf; injection Hf as <- <- <- <-.
  - apply (G st_adev st_oadev); [cbn; tauto|cbn; tauto|reflexivity|reflexivity|]. intros m Hm Hn Hn'. rewrite e_adev, e_oadev by assumption. cbn [s_cnt st_adev st_oadev] in *. unfold c_adev, c_oadev in *.
    rewrite pow_O, Rmult_1_r, Rmult_1_l. apply Rmult_le_compat_l; [apply PI2; [exact Hm|lra]|]. apply (ss_stride _ _ m (d2 x m) Hm).
    pose proof (Nat.mul_div_le (len x - 1) m ltac:(lia)). nia.
  - apply (G st_hdev st_ohdev); [cbn; tauto|cbn; tauto|reflexivity|reflexivity|]. intros m Hm Hn Hn'. rewrite e_hdev, e_ohdev by assumption. cbn [s_cnt st_hdev st_ohdev] in *. unfold c_hdev, c_ohdev in *.
    rewrite pow_O, Rmult_1_r, Rmult_1_l. apply Rmult_le_compat_l; [apply PI2; [exact Hm|lra]|]. apply (ss_stride _ _ m (d3 x m) Hm).
    pose proof (Nat.mul_div_le (len x - 1) m ltac:(lia)). nia.
  - apply (G st_mdev st_oadev); [cbn; tauto|cbn; tauto|reflexivity|reflexivity|]. intros m Hm Hn Hn'. rewrite e_mdev, e_oadev by assumption. cbn [s_cnt st_mdev st_oadev] in *. unfold c_mdev, c_oadev in *.
    pose proof (ss_copies (len x + 1 - 3 * m) (len x - 2 * m) m 1 (d2 x m) ltac:(lia)) as Q.
    rewrite (ss_ext _ _ (fun i => bigsum m (fun a => d2 x m (i + a * 1)))) by (intros; apply bigsum_ext; intros; f_equal; lia).
    rewrite pow_O, Rmult_1_r. specialize (Pm m Hm). specialize (PT m Hm).
    apply (scale_le (/ (2 * (INR m * (1 / rate)) ^ 2)) _ (INR m ^ 2)); [apply PI2; lra || lia|now apply pow_lt|field; lra|exact Q|].
    apply inv_pos0, Rmult_lt_0_compat; [apply Rmult_lt_0_compat; [lra|]|]; now apply pow_lt.
  - apply (G st_oadev st_totdev); [cbn; tauto|cbn; tauto|reflexivity|reflexivity|]. intros m Hm Hn Hn'. rewrite e_totdev, e_oadev by assumption. cbn [s_cnt st_totdev st_oadev] in *. unfold c_tot, c_oadev in *.
    rewrite pow_O, Rmult_1_r, Rmult_1_l. apply Rmult_le_compat_l; [apply PI2; [exact Hm|lra]|].
    pose proof (ss_shift (len x - 2 * m) (len x - 2) (m - 1) (fun k => xtot x (Z.of_nat (k + 1) - Z.of_nat m) - 2 * xtot x (Z.of_nat (k + 1)) + xtot x (Z.of_nat (k + 1) + Z.of_nat m)) ltac:(lia)) as Q.
    erewrite ss_ext; [exact Q|]. intros i Hi. cbv beta. unfold d2, xtot.
    replace (Z.of_nat (i + (m - 1) + 1) - Z.of_nat m)%Z with (Z.of_nat i) by lia. replace (Z.of_nat (i + (m - 1) + 1)) with (Z.of_nat (i + m)) by lia.
    replace (Z.of_nat (i + m) + Z.of_nat m)%Z with (Z.of_nat (i + 2 * m)) by lia.
    repeat match goal with |- context [(Z.of_nat ?a <? 0)%Z] => replace (Z.of_nat a <? 0)%Z with false by (symmetry; apply Z.ltb_ge; lia) end.
    repeat match goal with |- context [(Z.of_nat ?a <? Z.of_nat (len x))%Z] => replace (Z.of_nat a <? Z.of_nat (len x))%Z with true by (symmetry; apply Z.ltb_lt; lia) end.
    rewrite !Nat2Z.id. ring.
  - apply (G st_hdev st_adev); [cbn; tauto|cbn; tauto|reflexivity|reflexivity|]. intros m Hm Hn Hn'. rewrite e_hdev, e_adev by assumption. cbn [s_cnt st_hdev st_adev] in *. unfold c_hdev, c_adev in *.
    pose proof (ss_diff ((len x - 1) / m - 2) ((len x - 1) / m - 1) 1 (fun i => d2 x m (i * m)) ltac:(lia)) as Q. cbv beta in Q.
    rewrite (ss_ext _ _ (fun i => d2 x m ((i + 1) * m) - d2 x m (i * m))) by (intros; rewrite d3_d2; f_equal; f_equal; lia).
    rewrite pow_O, Rmult_1_r. specialize (Pm m Hm). specialize (PT m Hm).
    apply (scale_le (/ (2 * (INR m * (1 / rate)) ^ 2)) _ 4); [apply PI2; lra || lia|lra|field; lra|exact Q|]. apply PI2; lra || lia.
  - apply (G st_ohdev st_oadev); [cbn; tauto|cbn; tauto|reflexivity|reflexivity|]. intros m Hm Hn Hn'. rewrite e_ohdev, e_oadev by assumption. cbn [s_cnt st_ohdev st_oadev] in *. unfold c_ohdev, c_oadev in *.
    pose proof (ss_diff (len x - 3 * m) (len x - 2 * m) m (d2 x m) ltac:(lia)) as Q.
    rewrite (ss_ext _ _ (fun i => d2 x m (i + m) - d2 x m i)) by (intros; apply d3_d2).
    rewrite pow_O, Rmult_1_r. specialize (Pm m Hm). specialize (PT m Hm).
    apply (scale_le (/ (2 * (INR m * (1 / rate)) ^ 2)) _ 4); [apply PI2; lra || lia|lra|field; lra|exact Q|]. apply PI2; lra || lia.
  - apply (G st_oadev st_tierms); [cbn; tauto|cbn; tauto|reflexivity|reflexivity|]. intros m Hm Hn Hn'. rewrite e_oadev, e_tierms by assumption. cbn [s_cnt st_tierms st_oadev] in *. unfold c_tie, c_oadev in *.
    pose proof (ss_diff (len x - 2 * m) (len x - m) m (fun j => x.[j + m] - x.[j]) ltac:(lia)) as Q.
    rewrite (ss_ext _ _ (fun i => (fun j => x.[j + m] - x.[j]) (i + m)%nat - (fun j => x.[j + m] - x.[j]) i)) by (intros; apply d2_d1).
    specialize (Pm m Hm). specialize (PT m Hm). set (T := INR m * (1 / rate)) in *.
    replace (/ (2 * T ^ 2) * ss (len x - 2 * m) (fun i => (fun j => x.[j + m] - x.[j]) (i + m)%nat - (fun j => x.[j + m] - x.[j]) i) * T ^ 2)
      with (/ 2 * ss (len x - 2 * m) (fun i => (fun j => x.[j + m] - x.[j]) (i + m)%nat - (fun j => x.[j + m] - x.[j]) i)) by (field; lra). lra.
  - apply (G st_tdev st_tierms); [cbn; tauto|cbn; tauto|reflexivity|reflexivity|]. intros m Hm Hn Hn'. rewrite e_tdev, e_tierms by assumption. cbn [s_cnt st_tierms st_tdev] in *. unfold c_tie, c_mdev in *.
    pose proof (ss_copies (len x + 1 - 3 * m) (len x - 2 * m) m 1 (d2 x m) ltac:(lia)) as Q.
    pose proof (ss_diff (len x - 2 * m) (len x - m) m (fun j => x.[j + m] - x.[j]) ltac:(lia)) as Q2.
    rewrite <- (ss_ext _ (d2 x m)) in Q2 by (intros; apply d2_d1).
    rewrite (ss_ext _ _ (fun i => bigsum m (fun a => d2 x m (i + a * 1)))) by (intros; apply bigsum_ext; intros; f_equal; lia).
    rewrite pow_O, Rmult_1_r. specialize (Pm m Hm).
    apply (scale_le 1 _ (4 * INR m ^ 2)); [lra|apply Rmult_lt_0_compat; [lra|now apply pow_lt]|field; lra| |apply inv_pos0, Rmult_lt_0_compat; [lra|now apply pow_lt]].
    eapply Rle_trans; [exact Q|]. rewrite (Rmult_comm 4), Rmult_assoc. apply Rmult_le_compat_l; [apply pow2_ge_0|exact Q2].
  - apply (G st_pdev st_tierms); [cbn; tauto|cbn; tauto|reflexivity|reflexivity|]. intros m Hm Hn Hn'. rewrite e_pdev, e_tierms by assumption. cbn [s_cnt st_tierms st_pdev] in *. unfold c_tie, c_oadev in *.
    specialize (Pm m Hm). specialize (PT m Hm). set (T := INR m * (1 / rate)) in *. unfold pterm. destruct (Nat.eqb_spec m 1) as [E|E].
    + rewrite E in *. pose proof (ss_diff (len x - 2 * 1) (len x - 1) 1 (fun j => x.[j + 1] - x.[j]) ltac:(lia)) as Q.
      rewrite <- (ss_ext _ (d2 x 1)) in Q by (intros; apply d2_d1). unfold ss at 1. rewrite (bigsum_ext _ (fun i => (d2 x 1 i / 12) ^ 2) (fun i => / 144 * d2 x 1 i ^ 2)) by (intros; field).
      rewrite bigsum_scal. fold (ss (len x - 2 * 1) (d2 x 1)). change (INR 1) with 1 in *. replace (72 / (1 ^ 4 * T ^ 2) * (/ 144 * ss (len x - 2 * 1) (d2 x 1)) * T ^ 2) with (/ 2 * ss (len x - 2 * 1) (d2 x 1)) by (field; lra).
      pose proof (ss_pos (len x - 1) (fun j => x.[j + 1] - x.[j])). lra.
    + pose proof (p_tie x m ltac:(lia) ltac:(lia)) as Q. pose proof (ss_pos (len x - m) (fun j => x.[j + m] - x.[j])) as P.
      match goal with |- 72 / _ * ?S * _ <= _ => set (SS := S) in * end. match goal with |- _ <= 6 * (1 * ?S) => set (S0 := S) in * end.
      replace (72 / (INR m ^ 4 * T ^ 2) * SS * T ^ 2) with (6 * (12 * SS) / INR m ^ 4) by (field; lra). apply Rmult_le_reg_r with (INR m ^ 4); [now apply pow_lt|].
      replace (6 * (12 * SS) / INR m ^ 4 * INR m ^ 4) with (6 * (12 * SS)) by (field; lra).
      assert (0 <= INR m ^ 2 * S0) by (apply Rmult_le_pos; [apply pow2_ge_0|exact P]). nra.
Qed.
Print Assumptions C113_kinds.

Theorem C113_mtie_kinds x rate taus taus' t d n d' n' : 0 < rate ->
  row (oadev x rate "phase" taus) t d n -> row (mtie x rate "phase" taus') t d' n' -> d * t <= sqrt 2 * d'.
Proof.
  intros Hr H H'. apply (row_stat st_oadev) in H; [|cbn; tauto|exact Hr]. apply (row_stat st_mtie) in H'; [|cbn; tauto|exact Hr].
  destruct H as (m & -> & Hm & -> & -> & Hn). destruct H' as (m' & E & Hm' & -> & -> & Hn'). apply row_same in E; [|exact Hr]. subst m'.
  pose proof (e_oadev x rate m Hr ltac:(lia) Hn) as Q. cbn [s_cnt st_oadev] in *. unfold c_oadev in *. pose proof (mtie_val_nonneg x m ltac:(lia)) as P.
  set (M := mtie_val x m) in *. replace (s_dev st_mtie x rate m) with M by (unfold s_dev; cbn [s_var st_mtie]; symmetry; now apply sqrt_pow2).
  destruct (mtie_val_is x m ltac:(lia)) as [U _]. fold M in U.
  assert (B : ss (len x - 2 * m) (d2 x m) <= INR (len x - 2 * m) * (4 * M ^ 2)).
  { unfold ss. rewrite <- bigsum_const. apply bigsum_le. intros i Hi. unfold d2.
    pose proof (U (i + 2 * m)%nat (i + m)%nat ltac:(lia) ltac:(lia) ltac:(lia) ltac:(lia)). pose proof (U (i + m)%nat (i + 2 * m)%nat ltac:(lia) ltac:(lia) ltac:(lia) ltac:(lia)).
    pose proof (U i (i + m)%nat ltac:(lia) ltac:(lia) ltac:(lia) ltac:(lia)). pose proof (U (i + m)%nat i ltac:(lia) ltac:(lia) ltac:(lia) ltac:(lia)).
    set (z := x.[i + 2 * m] - 2 * x.[i + m] + x.[i]) in *. assert (- (2 * M) <= z <= 2 * M) by (unfold z; lra). nra. }
  assert (Pn : 0 < INR (len x - 2 * m)) by (apply lt_0_INR; lia). assert (PT := T_pos x rate m Hr ltac:(lia)).
  replace (INR m / rate) with (INR m * (1 / rate)) by (field; lra). set (T := INR m * (1 / rate)) in *. rewrite <- INR_IZR_INZ in Q.
  assert (Pd : 0 <= s_dev st_oadev x rate m) by apply sqrt_pos. set (dv := s_dev st_oadev x rate m) in *. set (nn := INR (len x - 2 * m)) in *.
  apply Rsqr_incr_0_var; [|apply Rmult_le_pos; [apply sqrt_pos|exact P]]. rewrite !Rsqr_mult. rewrite (Rsqr_sqrt 2) by lra. unfold Rsqr.
  apply Rmult_le_reg_l with nn; [exact Pn|]. replace (nn * (dv * dv * (T * T))) with (nn * dv ^ 2 * T ^ 2) by ring. rewrite Q.
  replace (/ (2 * T ^ 2) * ss (len x - 2 * m) (d2 x m) * T ^ 2) with (/ 2 * ss (len x - 2 * m) (d2 x m)) by (field; lra). nra.
Qed.
Print Assumptions C113_mtie_kinds.

(** ** Concatenated records *)
Lemma ss_split nx ny n a f g h : (nx <= a)%nat -> (a + ny <= n)%nat -> (forall i, (i < nx)%nat -> h i = f i) -> (forall i, (i < ny)%nat -> h (a + i)%nat = g i) ->
  ss nx f + ss ny g <= ss n h.
Proof.
  intros H1 H2 Hf Hg. rewrite <- (ss_ext _ _ _ Hf), <- (ss_ext _ _ _ Hg). unfold ss. replace n with (nx + (a - nx + (ny + (n - a - ny))))%nat by lia.
  rewrite (bigsum_add nx), (bigsum_add (a - nx)), (bigsum_add ny).
  pose proof (bigsum_nonneg (a - nx) (fun i => h (nx + i)%nat ^ 2) (fun i _ => pow2_ge_0 _)).
  pose proof (bigsum_nonneg (n - a - ny) (fun i => h (nx + (a - nx + (ny + i)))%nat ^ 2) (fun i _ => pow2_ge_0 _)).
  rewrite (bigsum_ext ny (fun i => h (nx + (a - nx + i))%nat ^ 2) (fun i => h (a + i)%nat ^ 2)) by (intros; do 2 f_equal; lia). lra.
Qed.
Lemma app1 (x y : list R) i : (i < len x)%nat -> (x ++ y).[i] = x.[i]. Proof. intros. now apply app_nth1. Qed.
Lemma app2 (x y : list R) i : (x ++ y).[len x + i] = y.[i]. Proof. apply app_nth2_plus. Qed.
Lemma app2' (x y : list R) i j : (x ++ y).[len x + i + j] = y.[i + j]. Proof. rewrite <- Nat.add_assoc. apply app2. Qed.

Theorem C113_split f x y rate taus taus1 taus2 t d n d1 n1 d2 n2 : In f [oadev; ohdev; mdev; tdev; pdev; tierms] -> 0 < rate ->
  row (f x rate "phase"%string taus1) t d1 n1 -> row (f y rate "phase"%string taus2) t d2 n2 -> row (f (x ++ y) rate "phase"%string taus) t d n ->
  IZR n1 * d1 ^ 2 + IZR n2 * d2 ^ 2 <= IZR n * d ^ 2.
Proof.
  intros Hf Hr H1 H2 H.
  assert (G : forall s (c : nat -> R) (w : nat -> nat -> nat) (F : nat -> list R -> nat -> R), In s stats -> s_fun s = f ->
    (forall z m, (1 <= m)%nat -> (1 < s_cnt s (len z) m)%Z -> IZR (s_cnt s (len z) m) * s_dev s z rate m ^ 2 = c m * ss (w (len z) m) (F m z)) ->
    (forall m, (1 <= m)%nat -> 0 <= c m) -> (forall N m, (1 <= m)%nat -> (w N m <= N)%nat) ->
    (forall m, (1 <= m)%nat -> (1 < s_cnt s (len x) m)%Z -> (1 < s_cnt s (len y) m)%Z -> (len x + w (len y) m <= w (len x + len y) m)%nat) ->
    (forall m i, (1 <= m)%nat -> (1 < s_cnt s (len x) m)%Z -> (i < w (len x) m)%nat -> F m (x ++ y) i = F m x i) ->
    (forall m i, (1 <= m)%nat -> F m (x ++ y) (len x + i)%nat = F m y i) ->
    IZR n1 * d1 ^ 2 + IZR n2 * d2 ^ 2 <= IZR n * d ^ 2).
  { intros s c w F Hs Es Eq Hc Hw1 Hw2 Hx Hy. rewrite <- Es in H1, H2, H. apply (row_stat s) in H, H1, H2; try exact Hs; try exact Hr.
    destruct H as (m & -> & Hm & -> & -> & Hn). destruct H1 as (m1 & E1 & Hm1 & -> & -> & Hn1). destruct H2 as (m2 & E2 & Hm2 & -> & -> & Hn2).
    apply row_same in E1, E2; try exact Hr. subst m1 m2. rewrite !Eq by (lia || assumption). rewrite <- Rmult_plus_distr_l. apply Rmult_le_compat_l; [apply Hc; lia|].
    apply (ss_split _ _ _ (len x)); [apply Hw1; lia|rewrite app_length; apply Hw2; lia || assumption|intros; apply Hx; lia || assumption|intros; apply Hy; lia]. }
  assert (Pm : forall m, (1 <= m)%nat -> 0 < INR m) by (intros; apply lt_0_INR; lia).
  assert (PT : forall m, (1 <= m)%nat -> 0 < INR m * (1 / rate)) by (intros; apply Rmult_lt_0_compat; [auto|apply Rdiv_lt_0_compat; lra]).
  assert (PI2 : forall m a, (1 <= m)%nat -> 0 < a -> 0 <= / (a * (INR m * (1 / rate)) ^ 2)).
  { intros m a Hm Ha. apply inv_pos0, Rmult_lt_0_compat; [exact Ha|apply pow_lt; auto]. }
  repeat destruct Hf as [<-|Hf]; try contradiction Hf.
  - apply (G st_oadev (fun m => / (2 * (INR m * (1 / rate)) ^ 2)) (fun N m => (N - 2 * m)%nat) (fun m z => Spec.d2 z m)); [cbn; tauto|reflexivity|intros; now apply e_oadev|intros; apply PI2; lra || lia|lia| | |].
    + cbn [s_cnt st_oadev]. unfold c_oadev. lia.
    + intros m i Hm _ Hi. unfold Spec.d2. rewrite !app1 by lia. reflexivity.
    + intros m i Hm. unfold Spec.d2. now rewrite !app2', app2.
  - apply (G st_ohdev (fun m => / (6 * (INR m * (1 / rate)) ^ 2)) (fun N m => (N - 3 * m)%nat) (fun m z => d3 z m)); [cbn; tauto|reflexivity|intros; now apply e_ohdev|intros; apply PI2; lra || lia|lia| | |].
    + cbn [s_cnt st_ohdev]. unfold c_ohdev. lia.
    + intros m i Hm _ Hi. unfold d3. rewrite !app1 by lia. reflexivity.
    + intros m i Hm. unfold d3. now rewrite !app2', app2.
  - apply (G st_mdev (fun m => / (2 * INR m ^ 2 * (INR m * (1 / rate)) ^ 2)) (fun N m => (N + 1 - 3 * m)%nat) (fun m z j => bigsum m (fun i => Spec.d2 z m (j + i)))); [cbn; tauto|reflexivity|intros; now apply e_mdev| |lia| | |].
    + intros m Hm. apply inv_pos0. apply Rmult_lt_0_compat; [apply Rmult_lt_0_compat; [lra|]|]; apply pow_lt; auto.
    + cbn [s_cnt st_mdev]. unfold c_mdev. lia.
    + intros m i Hm _ Hi. apply bigsum_ext. intros q Hq. unfold Spec.d2. rewrite !app1 by lia. reflexivity.
    + intros m i Hm. apply bigsum_ext. intros q Hq. unfold Spec.d2. replace (len x + i + q)%nat with (len x + (i + q))%nat by lia. now rewrite !app2', app2.
  - apply (G st_tdev (fun m => / (6 * INR m ^ 2)) (fun N m => (N + 1 - 3 * m)%nat) (fun m z j => bigsum m (fun i => Spec.d2 z m (j + i)))); [cbn; tauto|reflexivity|intros; now apply e_tdev| |lia| | |].
    + intros m Hm. apply inv_pos0. apply Rmult_lt_0_compat; [lra|]. apply pow_lt; auto.
    + cbn [s_cnt st_tdev]. unfold c_mdev. lia.
    + intros m i Hm _ Hi. apply bigsum_ext. intros q Hq. unfold Spec.d2. rewrite !app1 by lia. reflexivity.
    + intros m i Hm. apply bigsum_ext. intros q Hq. unfold Spec.d2. replace (len x + i + q)%nat with (len x + (i + q))%nat by lia. now rewrite !app2', app2.
  - apply (G st_pdev (fun m => 72 / (INR m ^ 4 * (INR m * (1 / rate)) ^ 2)) (fun N m => (N - 2 * m)%nat) (fun m z => pterm m z)); [cbn; tauto|reflexivity|intros; now apply e_pdev| |lia| | |].
    + intros m Hm. apply Rmult_le_pos; [lra|]. apply inv_pos0, Rmult_lt_0_compat; apply pow_lt; auto.
    + cbn [s_cnt st_pdev]. unfold c_oadev. lia.
    + intros m i Hm _ Hi. unfold pterm. destruct (Nat.eqb_spec m 1) as [->|_]; [unfold Spec.d2; rewrite !app1 by lia; reflexivity|].
      apply bigsum_ext. intros q Hq. rewrite !app1 by lia. reflexivity.
    + intros m i Hm. unfold pterm. destruct (Nat.eqb_spec m 1) as [->|_]; [unfold Spec.d2; now rewrite !app2', app2|].
      apply bigsum_ext. intros q Hq. replace (len x + i + q)%nat with (len x + (i + q))%nat by lia. now rewrite !app2', app2.
  - apply (G st_tierms (fun m => 1) (fun N m => (N - m)%nat) (fun m z i => z.[i + m] - z.[i])); [cbn; tauto|reflexivity|intros; now apply e_tierms|intros; lra|lia| | |].
    + cbn [s_cnt st_tierms]. unfold c_tie. lia.
    + intros m i Hm _ Hi. cbv beta. rewrite !app1 by lia. reflexivity.
    + intros m i Hm. cbv beta. now rewrite !app2', app2.
Qed.
Print Assumptions C113_split.

Lemma ss_prefix a b f g : (a <= b)%nat -> (forall i, (i < a)%nat -> g i = f i) -> ss a f <= ss b g.
Proof. intros H E. rewrite <- (ss_ext _ _ _ E). pose proof (ss_shift a b 0 g ltac:(lia)) as Q. erewrite ss_ext in Q; [exact Q|]. intros i _. cbv beta. f_equal. lia. Qed.
Theorem C113_extend f x y rate taus taus1 t d n d1 n1 : In f [adev; oadev; hdev; ohdev; mdev; tdev; pdev; tierms] -> 0 < rate ->
  row (f x rate "phase"%string taus1) t d1 n1 -> row (f (x ++ y) rate "phase"%string taus) t d n ->
  (n1 <= n)%Z /\ IZR n1 * d1 ^ 2 <= IZR n * d ^ 2.
Proof.
  intros Hf Hr H1 H.
  assert (G : forall s (c : nat -> R) (w : nat -> nat -> nat) (F : nat -> list R -> nat -> R), In s stats -> s_fun s = f ->
    (forall z m, (1 <= m)%nat -> (1 < s_cnt s (len z) m)%Z -> IZR (s_cnt s (len z) m) * s_dev s z rate m ^ 2 = c m * ss (w (len z) m) (F m z)) ->
    (forall m, (1 <= m)%nat -> 0 <= c m) -> (forall m, (1 <= m)%nat -> (s_cnt s (len x) m <= s_cnt s (len x + len y) m)%Z /\ (w (len x) m <= w (len x + len y) m)%nat) ->
    (forall m i, (1 <= m)%nat -> (i < w (len x) m)%nat -> F m (x ++ y) i = F m x i) ->
    (n1 <= n)%Z /\ IZR n1 * d1 ^ 2 <= IZR n * d ^ 2).
  { intros s c w F Hs Es Eq Hc Hw Hx. rewrite <- Es in H1, H. apply (row_stat s) in H, H1; try exact Hs; try exact Hr.
    destruct H as (m & -> & Hm & -> & -> & Hn). destruct H1 as (m1 & E1 & Hm1 & -> & -> & Hn1).
    apply row_same in E1; try exact Hr. subst m1. split; [rewrite app_length; apply Hw; lia|]. rewrite !Eq by (lia || assumption). apply Rmult_le_compat_l; [apply Hc; lia|].
    apply ss_prefix; [rewrite app_length; apply Hw; lia|intros; apply Hx; lia]. }
  assert (Pm : forall m, (1 <= m)%nat -> 0 < INR m) by (intros; apply lt_0_INR; lia).
  assert (PT : forall m, (1 <= m)%nat -> 0 < INR m * (1 / rate)) by (intros; apply Rmult_lt_0_compat; [auto|apply Rdiv_lt_0_compat; lra]).
  assert (PI2 : forall m a, (1 <= m)%nat -> 0 < a -> 0 <= / (a * (INR m * (1 / rate)) ^ 2)).
  { intros m a Hm Ha. apply inv_pos0, Rmult_lt_0_compat; [exact Ha|apply pow_lt; auto]. }
  assert (D : forall m, (1 <= m)%nat -> ((len x - 1) / m <= (len x + len y - 1) / m)%nat) by (intros; apply Nat.div_le_mono; lia).
  repeat destruct Hf as [<-|Hf]; try contradiction Hf.
  - apply (G st_adev (fun m => / (2 * (INR m * (1 / rate)) ^ 2)) (fun N m => ((N - 1) / m - 1)%nat) (fun m z i => d2 z m (i * m))); [cbn; tauto|reflexivity|intros; now apply e_adev|intros; apply PI2; lra || lia| |].
    + intros m Hm. specialize (D m Hm). cbn [s_cnt st_adev]. unfold c_adev. lia.
    + intros m i Hm Hi. pose proof (Nat.mul_div_le (len x - 1) m ltac:(lia)). unfold d2. rewrite !app1 by nia. reflexivity.
  - apply (G st_oadev (fun m => / (2 * (INR m * (1 / rate)) ^ 2)) (fun N m => (N - 2 * m)%nat) (fun m z => d2 z m)); [cbn; tauto|reflexivity|intros; now apply e_oadev|intros; apply PI2; lra || lia| |].
    + cbn [s_cnt st_oadev]. unfold c_oadev. lia.
    + intros m i Hm Hi. unfold d2. rewrite !app1 by lia. reflexivity.
  - apply (G st_hdev (fun m => / (6 * (INR m * (1 / rate)) ^ 2)) (fun N m => ((N - 1) / m - 2)%nat) (fun m z i => d3 z m (i * m))); [cbn; tauto|reflexivity|intros; now apply e_hdev|intros; apply PI2; lra || lia| |].
    + intros m Hm. specialize (D m Hm). cbn [s_cnt st_hdev]. unfold c_hdev. lia.
    + intros m i Hm Hi. pose proof (Nat.mul_div_le (len x - 1) m ltac:(lia)). unfold d3. rewrite !app1 by nia. reflexivity.
  - apply (G st_ohdev (fun m => / (6 * (INR m * (1 / rate)) ^ 2)) (fun N m => (N - 3 * m)%nat) (fun m z => d3 z m)); [cbn; tauto|reflexivity|intros; now apply e_ohdev|intros; apply PI2; lra || lia| |].
    + cbn [s_cnt st_ohdev]. unfold c_ohdev. lia.
    + intros m i Hm Hi. unfold d3. rewrite !app1 by lia. reflexivity.
  - apply (G st_mdev (fun m => / (2 * INR m ^ 2 * (INR m * (1 / rate)) ^ 2)) (fun N m => (N + 1 - 3 * m)%nat) (fun m z j => bigsum m (fun i => d2 z m (j + i)))); [cbn; tauto|reflexivity|intros; now apply e_mdev| | |].
    + intros m Hm. apply inv_pos0. apply Rmult_lt_0_compat; [apply Rmult_lt_0_compat; [lra|]|]; apply pow_lt; auto.
    + cbn [s_cnt st_mdev]. unfold c_mdev. lia.
    + intros m i Hm Hi. apply bigsum_ext. intros q Hq. unfold d2. rewrite !app1 by lia. reflexivity.
  - apply (G st_tdev (fun m => / (6 * INR m ^ 2)) (fun N m => (N + 1 - 3 * m)%nat) (fun m z j => bigsum m (fun i => d2 z m (j + i)))); [cbn; tauto|reflexivity|intros; now apply e_tdev| | |].
    + intros m Hm. apply inv_pos0. apply Rmult_lt_0_compat; [lra|]. apply pow_lt; auto.
    + cbn [s_cnt st_tdev]. unfold c_mdev. lia.
    + intros m i Hm Hi. apply bigsum_ext. intros q Hq. unfold d2. rewrite !app1 by lia. reflexivity.
  - apply (G st_pdev (fun m => 72 / (INR m ^ 4 * (INR m * (1 / rate)) ^ 2)) (fun N m => (N - 2 * m)%nat) (fun m z => pterm m z)); [cbn; tauto|reflexivity|intros; now apply e_pdev| | |].
    + intros m Hm. apply Rmult_le_pos; [lra|]. apply inv_pos0, Rmult_lt_0_compat; apply pow_lt; auto.
    + cbn [s_cnt st_pdev]. unfold c_oadev. lia.
    + intros m i Hm Hi. unfold pterm. destruct (Nat.eqb_spec m 1) as [->|_]; [unfold d2; rewrite !app1 by lia; reflexivity|].
      apply bigsum_ext. intros q Hq. rewrite !app1 by lia. reflexivity.
  - apply (G st_tierms (fun m => 1) (fun N m => (N - m)%nat) (fun m z i => z.[i + m] - z.[i])); [cbn; tauto|reflexivity|intros; now apply e_tierms|intros; lra| |].
    + cbn [s_cnt st_tierms]. unfold c_tie. lia.
    + intros m i Hm Hi. cbv beta. rewrite !app1 by lia. reflexivity.
Qed.
Print Assumptions C113_extend.
Theorem C113_mtie_split x y rate taus taus1 taus2 t d n d1 n1 d2 n2 : 0 < rate ->
  row (mtie x rate "phase" taus1) t d1 n1 -> row (mtie y rate "phase" taus2) t d2 n2 -> row (mtie (x ++ y) rate "phase" taus) t d n -> Rmax d1 d2 <= d.
Proof.
  intros Hr H1 H2 H. apply (row_stat st_mtie) in H; [|cbn; tauto|exact Hr]. apply (row_stat st_mtie) in H1; [|cbn; tauto|exact Hr]. apply (row_stat st_mtie) in H2; [|cbn; tauto|exact Hr].
  destruct H as (m & -> & Hm & -> & -> & Hn). destruct H1 as (m1 & E1 & Hm1 & -> & -> & Hn1). destruct H2 as (m2 & E2 & Hm2 & -> & -> & Hn2).
  apply row_same in E1, E2; try exact Hr. subst m1 m2. unfold s_dev. cbn [s_var st_mtie]. rewrite !sqrt_pow2 by (apply mtie_val_nonneg; lia).
  destruct (mtie_val_is (x ++ y) m Hm) as [U _]. rewrite app_length in U. apply Rmax_lub.
  - destruct (mtie_val_is x m Hm1) as [_ (a & b & Ha & Hb & Q1 & Q2 & <-)]. rewrite <- (app1 x y a), <- (app1 x y b) by assumption. apply U; lia.
  - destruct (mtie_val_is y m Hm2) as [_ (a & b & Ha & Hb & Q1 & Q2 & <-)]. rewrite <- (app2 x y a), <- (app2 x y b). apply U; lia.
Qed.
Print Assumptions C113_mtie_split.

(** a record with a growing deviation: the rate k of the growth is reached *)
Definition parabola : list R := [0; 1; 4; 9; 16; 25; 36; 49].
Example C113_ex : row (oadev parabola 1 "phase" (TList [INR 1 / 1])) (INR 1 / 1) (sqrt 2) 6 /\ row (oadev parabola 1 "phase" (TList [INR 2 / 1])) (INR 2 * (INR 1 / 1)) (2 * sqrt 2) 4 /\
  exists d n, row (mtie parabola 1 "phase" (TList [INR 1 / 1])) (INR 1 / 1) d n.
Proof.
  assert (R : forall t d e n, row (Ok ([t], [d], e, [n])) t d n) by (intros t d e n; exists [t], [d], e, [n], 0%nat; auto).
  split; [|split].
  - rewrite oadev_single; [|lra|lia|cbn; lia]. replace (sqrt (oavar parabola (1 / 1) 1)) with (sqrt 2); [apply R|]. f_equal. unfold oavar, oadev_n. cbn. unfold d2. cbn. field.
  - rewrite oadev_single; [|lra|lia|cbn; lia]. replace (INR 2 * (INR 1 / 1)) with (INR 2 / 1) by (cbn; field).
    replace (sqrt (oavar parabola (1 / 1) 2)) with (2 * sqrt 2); [apply R|]. replace (2 * sqrt 2) with (sqrt 4 * sqrt 2) by (f_equal; replace 4 with (2 ^ 2) by ring; apply sqrt_pow2; lra).
    rewrite <- sqrt_mult by lra. f_equal. unfold oavar, oadev_n. cbn. unfold d2. cbn. field.
  - eexists _, _. rewrite (mtie_single parabola 1 1 (mtie_val parabola 1)); [apply R|lra|lia|cbn; lia|apply mtie_val_is; cbn; lia].
Qed.
