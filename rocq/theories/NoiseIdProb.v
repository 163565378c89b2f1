(** Probabilistic part of the consistency of autocorr_noise_id: concentration of
    the quadratic forms which decide it, for a stationary series of linear forms
    whose correlation vanishes beyond lag one. *)
From Coq Require Import String Reals List ZArith Bool Arith Lia Lra Psatz.
From Verif Require Import Base Num NpList NumR Spec ListFacts RSum Dft ModelCore ModelDev ModelCi ModelNoise ModelNoiseR
  DevProofs TotProofs Laws Laws2 Laws3 NoiseProofs PropsDev PropsKasdin PropsPredict PropsExpect CiProofs GreenProofs PropsEdf PropsConsist NoiseIdProofs.
Import ListNotations.
Local Open Scope R_scope.
Local Notation len := List.length.

(** expectations which are also monotone *)
Record prob (K : nat) (E : ((nat -> R) -> R) -> R) : Prop := {
  pr_gauss : gaussian K E;
  pr_mono : forall f g, (forall w, f w <= g w) -> E f <= E g }.

Lemma trip_mono K : forall f g, (forall w, f w <= g w) -> trip K f <= trip K g.
Proof.
  induction K as [|K IH]; intros f g H; cbn [trip]; [apply H|].
  pose proof (IH (fun w => f (upd w K 0)) (fun w => g (upd w K 0)) (fun w => H _)).
  pose proof (IH (fun w => f (upd w K (sqrt 3))) (fun w => g (upd w K (sqrt 3))) (fun w => H _)).
  pose proof (IH (fun w => f (upd w K (- sqrt 3))) (fun w => g (upd w K (- sqrt 3))) (fun w => H _)). lra.
Qed.
Lemma trip_prob K : prob K (trip K).
Proof. split; [apply trip_gaussian|apply trip_mono]. Qed.

Definition kern (rho : R) (j : nat) : R := match j with O => 1 | 1%nat => rho | _ => 0 end.

Lemma lagp_abs L c : Rabs (lagp L c) <= nrm L c.
Proof.
  destruct L as [|L]; [unfold lagp, nrm; cbn; rewrite Rabs_R0; lra|].
  pose proof (nrm_shift1 (S L) c ltac:(lia)) as E1. pose proof (nrm_last (S L) c ltac:(lia)) as E2.
  assert (B : forall s : R, s = 1 \/ s = -1 -> 2 * (s * lagp (S L) c) <= nrm (S L - 1) c + nrm (S L - 1) (fun i => c (S i))).
  { intros s Hs. unfold lagp, nrm. rewrite <- !bigsum_scal, <- bigsum_plus. apply bigsum_le. intros i _.
    pose proof (pow2_ge_0 (c i - c (S i))). pose proof (pow2_ge_0 (c i + c (S i))). destruct Hs as [-> | ->]; nra. }
  pose proof (B 1 ltac:(auto)). pose proof (B (-1) ltac:(auto)). pose proof (pow2_ge_0 (c 0%nat)). pose proof (pow2_ge_0 (c (S L - 1)%nat)).
  apply Rabs_le. lra.
Qed.
Lemma quad_kern rho L c :
  bigsum L (fun t => bigsum L (fun t' => c t * c t' * kern rho (dist t t'))) = nrm L c + 2 * rho * lagp L c.
Proof.
  induction L as [|L IH]; [unfold nrm, lagp; cbn; ring|].
  cbn [bigsum]. rewrite bigsum_plus, IH.
  assert (D : dist L L = 0%nat) by (unfold dist; lia). rewrite D.
  assert (S1 : bigsum L (fun t => c t * c L * kern rho (dist t L)) = rho * (match L with O => 0 | S k => c k * c L end)).
  { destruct L as [|k]; [cbn; ring|]. cbn [bigsum].
    rewrite bigsum_0; [|intros i Hi; replace (dist i (S k)) with (S (S (k - 1 - i))) by (unfold dist; lia); cbn; ring].
    replace (dist k (S k)) with 1%nat by (unfold dist; lia). cbn [kern]. ring. }
  assert (S2 : bigsum L (fun t' => c L * c t' * kern rho (dist L t')) = rho * (match L with O => 0 | S k => c k * c L end)).
  { rewrite <- S1. apply bigsum_ext. intros t _. replace (dist L t) with (dist t L) by (unfold dist; lia). ring. }
  rewrite S1, S2. unfold nrm, lagp. cbn [bigsum kern]. replace (S L - 1)%nat with L by lia. destruct L as [|k]; [cbn; ring|].
  replace (S k - 1)%nat with k by lia. cbn [bigsum]. ring.
Qed.

Section Stat.
Variables (K : nat) (E : ((nat -> R) -> R) -> R) (a : nat -> nat -> R) (m : nat) (g rho : R).
Hypothesis HP : prob K E.
Hypothesis Hg : 0 < g.
Hypothesis Hr : Rabs rho <= 1 / 2.
Hypothesis Hcov : forall i j, (i < m)%nat -> (j < m)%nat -> dot K (a i) (a j) = g * kern rho (dist i j).
Let HG := pr_gauss K E HP.
Let HW := ga_white K E HG.
Definition V (w : nat -> R) (i : nat) : R := lin K (a i) w.
Definition comb (c : nat -> R) (L s j : nat) : R := bigsum L (fun t => c t * a (s + t)%nat j).
Definition out (c : nat -> R) (L : nat) (w : nat -> R) (s : nat) : R := bigsum L (fun t => c t * V w (s + t)%nat).
Definition gain (c : nat -> R) (L : nat) : R := g * (nrm L c + 2 * rho * lagp L c).

Lemma lin_comb c L s w : lin K (comb c L s) w = out c L w s.
Proof.
  unfold lin, comb, out, V, lin.
  rewrite (bigsum_ext K _ (fun j => bigsum L (fun t => c t * a (s + t)%nat j * w j))) by (intros; now rewrite <- bigsum_scal_r).
  rewrite bigsum_swap. apply bigsum_ext. intros t _. rewrite <- bigsum_scal. apply bigsum_ext. intros; ring.
Qed.
Lemma dot_comb c L s s' : (s + L <= m)%nat -> (s' + L <= m)%nat ->
  dot K (comb c L s) (comb c L s') = g * bigsum L (fun t => bigsum L (fun t' => c t * c t' * kern rho (dist (s + t) (s' + t')))).
Proof using Hcov.
  intros H H'. unfold dot.
  rewrite (bigsum_ext K _ (fun j => bigsum L (fun t => bigsum L (fun t' => c t * c t' * (a (s + t)%nat j * a (s' + t')%nat j))))).
  - rewrite bigsum_swap, <- bigsum_scal. apply bigsum_ext. intros t Ht. rewrite bigsum_swap, <- bigsum_scal. apply bigsum_ext. intros t' Ht'.
    rewrite bigsum_scal. change (bigsum K (fun j => a (s + t)%nat j * a (s' + t')%nat j)) with (dot K (a (s + t)%nat) (a (s' + t')%nat)).
    rewrite Hcov by lia. ring.
  - intros j _. unfold comb. rewrite bigsum_prod. apply bigsum_ext. intros t _. apply bigsum_ext. intros; ring.
Qed.
Lemma dot_self c L s : (s + L <= m)%nat -> dot K (comb c L s) (comb c L s) = gain c L.
Proof using Hcov.
  intros H. rewrite dot_comb by assumption. unfold gain. f_equal. rewrite <- quad_kern. apply bigsum_ext. intros t _. apply bigsum_ext. intros t' _.
  f_equal. f_equal. unfold dist. lia.
Qed.
Lemma dot_far c L s s' : (s + L <= m)%nat -> (s' + L <= m)%nat -> (L + 1 <= dist s s')%nat -> dot K (comb c L s) (comb c L s') = 0.
Proof using Hcov.
  intros H H' Hd. rewrite dot_comb by assumption. rewrite bigsum_0; [ring|]. intros t Ht. apply bigsum_0. intros t' Ht'.
  destruct (dist (s + t) (s' + t')) as [|[|q]] eqn:Eq; [| |cbn [kern]; ring]; exfalso; unfold dist in *; lia.
Qed.
Lemma E_out c L s : (s + L <= m)%nat -> E (fun w => out c L w s ^ 2) = gain c L.
Proof using HP Hcov.
  intros H. rewrite <- (dot_self c L s H), <- (E_two_lin K E HG). apply (wh_ext K E HW). intros w. now rewrite lin_comb.
Qed.
Lemma gain_le c L : gain c L <= 2 * g * nrm L c.
Proof using Hg Hr.
  unfold gain. replace (2 * g * nrm L c) with (g * (2 * nrm L c)) by ring. apply Rmult_le_compat_l; [lra|].
  pose proof (lagp_abs L c) as H.
  assert (Rabs (rho * lagp L c) <= 1 / 2 * nrm L c) by (rewrite Rabs_mult; apply Rmult_le_compat; try apply Rabs_pos; assumption).
  apply abs_inv in H0. lra.
Qed.
Lemma gain_ge c L : 0 <= rho <= 1 / 4 -> g / 2 * nrm L c <= gain c L.
Proof using Hg.
  intros Hq. unfold gain. replace (g / 2 * nrm L c) with (g * (1 / 2 * nrm L c)) by field. apply Rmult_le_compat_l; [lra|].
  pose proof (lagp_abs L c) as H.
  assert (Rabs (rho * lagp L c) <= 1 / 4 * nrm L c).
  { rewrite Rabs_mult. apply Rmult_le_compat; try apply Rabs_pos; [|assumption]. rewrite Rabs_right; lra. }
  apply abs_inv in H0. lra.
Qed.
Lemma conc c L M : (M + L <= m + 1)%nat ->
  E (fun w => (nrm M (out c L w) - INR M * gain c L) ^ 2) <= 2 * gain c L ^ 2 * (INR M * (2 * INR L + 1)).
Proof using HP Hcov.
  intros H. set (A := comb c L).
  assert (HM : E (fun w => 1 * bigsum M (fun k => lin K (A k) w ^ 2)) = INR M * gain c L).
  { rewrite (quad_mean K E HG 1 M A). rewrite (bigsum_ext M _ (fun _ => gain c L)) by (intros k Hk; apply dot_self; lia). rewrite bigsum_const. ring. }
  pose proof (quad_var K E HG 1 M A) as HV. cbv zeta in HV. rewrite HM in HV.
  rewrite (wh_ext K E HW _ (fun w => (1 * bigsum M (fun k => lin K (A k) w ^ 2) - INR M * gain c L) ^ 2)).
  2:{ intros w. f_equal. f_equal. rewrite Rmult_1_l. unfold nrm. apply bigsum_ext. intros k _. unfold A. now rewrite lin_comb. }
  rewrite HV. replace (2 * 1 ^ 2) with 2 by ring. rewrite Rmult_assoc. apply Rmult_le_compat_l; [lra|].
  apply Rle_trans with (gain c L ^ 2 * dsum M (fun j => if (j <? L + 1)%nat then 1 else 0)).
  - rewrite <- dsum_scal. unfold dsum. apply bigsum_le. intros k Hk. apply bigsum_le. intros l Hl.
    destruct (Nat.ltb_spec (dist k l) (L + 1)) as [D|D].
    + rewrite Rmult_1_r. pose proof (cauchy_schwarz K (A k) (A l)) as CS. unfold dot.
      assert (E1 : forall i, (i < M)%nat -> bigsum K (fun j => A i j ^ 2) = gain c L).
      { intros i Hi. rewrite <- (dot_self c L i) by lia. unfold dot. apply bigsum_ext. intros; unfold A; ring. }
      rewrite !E1 in CS by assumption. lra.
    + unfold A. rewrite dot_far by (try assumption; lia). rewrite Rmult_0_r. cbn. lra.
  - apply Rmult_le_compat_l; [apply pow2_ge_0|].
    pose proof (band_count M (L + 1) ltac:(lia)) as B. rewrite plus_INR in B. change (INR 1) with 1 in B. replace (2 * INR L + 1) with (2 * (INR L + 1) - 1) by ring. exact B.
Qed.
(** a filter output of sufficient power *)
Definition Qw (c : nat -> R) (L M : nat) (w : nat -> R) : R :=
  / (INR M * gain c L / 2) ^ 2 * (nrm M (out c L w) - INR M * gain c L) ^ 2.
Lemma Qw_nonneg c L M w : 0 <= Qw c L M w.
Proof.
  unfold Qw. apply Rmult_le_pos; [|apply pow2_ge_0]. rewrite <- pow_inv. apply pow2_ge_0.
Qed.
Lemma Qw_mean c L M : (1 <= M)%nat -> (M + L <= m + 1)%nat -> 0 < gain c L -> E (Qw c L M) <= 8 * (2 * INR L + 1) / INR M.
Proof using HP Hcov.
  intros HM H Hp. apply lt_0_INR in HM. unfold Qw. rewrite (wh_scal K E HW _ (fun w => (nrm M (out c L w) - INR M * gain c L) ^ 2)).
  apply Rle_trans with (/ (INR M * gain c L / 2) ^ 2 * (2 * gain c L ^ 2 * (INR M * (2 * INR L + 1)))).
  - apply Rmult_le_compat_l; [|now apply conc]. left. apply Rinv_0_lt_compat, pow_lt. assert (0 < INR M * gain c L) by now apply Rmult_lt_0_compat. lra.
  - right. field. split; lra.
Qed.
Lemma guard_dev D t : 0 < t -> Rabs D <= t \/ 1 <= / t ^ 2 * D ^ 2.
Proof.
  intros Ht. destruct (Rle_dec (Rabs D) t) as [H|H]; [now left|right].
  apply (Rmult_le_reg_l (t ^ 2)); [now apply pow_lt|]. rewrite <- Rmult_assoc, Rinv_r, Rmult_1_l, Rmult_1_r by (apply pow_nonzero; lra).
  rewrite <- (pow2_abs D). apply pow_incr. lra.
Qed.
Lemma guard_up F t : 0 < t -> F <= t \/ 1 <= / t * F.
Proof.
  intros Ht. destruct (Rle_dec F t) as [H|H]; [now left|right].
  apply (Rmult_le_reg_l t); [assumption|]. rewrite <- Rmult_assoc, Rinv_r by lra. lra.
Qed.
Lemma Qw_guard c L M w : (1 <= M)%nat -> 0 < gain c L -> INR M * gain c L / 2 <= nrm M (out c L w) \/ 1 <= Qw c L M w.
Proof.
  intros HM Hp. apply lt_0_INR in HM. assert (0 < INR M * gain c L) by now apply Rmult_lt_0_compat.
  destruct (guard_dev (nrm M (out c L w) - INR M * gain c L) (INR M * gain c L / 2) ltac:(lra)) as [H1|H1]; [left|now right].
  apply abs_inv in H1. lra.
Qed.

Section Typ.
Variables (p : (nat -> R) -> nat -> R) (Bf : (nat -> R) -> R).
Hypothesis Hm : (1000 <= m)%nat.
Hypothesis HB : forall w, nrm m (p w) <= Bf w.
Hypothesis HBm : E Bf <= 120 * g.
Definition one (_ : nat) : R := 1.
Definition alt (t : nat) : R := match t with O => 1 | _ => -1 end.
Definition mg : R := INR m * g.
Definition Tq (w : nat -> R) : R :=
  (/ (2 / 100 * mg) ^ 2 * (nrm m (out one 1 w) - INR m * gain one 1) ^ 2 +
   / (36 / 1000 * mg) ^ 2 * (nrm (m - 1) (out one 2 w) - INR (m - 1) * gain one 2) ^ 2) +
  (/ (36 / 1000 * mg) ^ 2 * (nrm (m - 1) (out alt 2 w) - INR (m - 1) * gain alt 2) ^ 2 +
   / (mg / 17000) * (Bf w + / INR m * out one m w 0%nat ^ 2)).
Lemma Bf_nonneg w : 0 <= Bf w.
Proof using HB. pose proof (HB w). pose proof (nrm_nonneg m (p w)). lra. Qed.
Lemma mg_pos : 0 < mg.
Proof using Hg Hm. unfold mg. apply Rmult_lt_0_compat; [apply lt_0_INR; lia|assumption]. Qed.
Lemma dev_nonneg t D : 0 <= / t ^ 2 * D ^ 2.
Proof. apply Rmult_le_pos; [rewrite <- pow_inv|]; apply pow2_ge_0. Qed.
Lemma fit_nonneg w : 0 <= / (mg / 17000) * (Bf w + / INR m * out one m w 0%nat ^ 2).
Proof using Hg Hm HB.
  pose proof mg_pos. assert (0 < INR m) by (apply lt_0_INR; lia). pose proof (Bf_nonneg w).
  apply Rmult_le_pos; [left; apply Rinv_0_lt_compat; lra|].
  assert (0 <= / INR m * out one m w 0%nat ^ 2) by (apply Rmult_le_pos; [left; now apply Rinv_0_lt_compat|apply pow2_ge_0]). lra.
Qed.
Lemma Tq_nonneg w : 0 <= Tq w.
Proof using Hg Hm HB.
  unfold Tq. repeat match goal with |- 0 <= _ + _ => apply Rplus_le_le_0_compat end; first [apply dev_nonneg | apply fit_nonneg].
Qed.
Lemma gain_1 : gain one 1 = g.
Proof. unfold gain, nrm, lagp, one. cbn. ring. Qed.
Lemma gain_2 : gain one 2 = g * (2 + 2 * rho).
Proof. unfold gain, nrm, lagp, one. cbn. ring. Qed.
Lemma gain_a : gain alt 2 = g * (2 - 2 * rho).
Proof. unfold gain, nrm, lagp, alt. cbn. ring. Qed.
Lemma Tq_typical w : typical m g rho (V w) (p w) \/ 1 <= Tq w.
Proof using Hg Hm HB.
  pose proof mg_pos as H0. unfold Tq.
  pose proof (dev_nonneg (2 / 100 * mg) (nrm m (out one 1 w) - INR m * gain one 1)) as N1.
  pose proof (dev_nonneg (36 / 1000 * mg) (nrm (m - 1) (out one 2 w) - INR (m - 1) * gain one 2)) as N2.
  pose proof (dev_nonneg (36 / 1000 * mg) (nrm (m - 1) (out alt 2 w) - INR (m - 1) * gain alt 2)) as N3.
  pose proof (fit_nonneg w) as N4.
  destruct (guard_dev (nrm m (out one 1 w) - INR m * gain one 1) (2 / 100 * mg) ltac:(lra)) as [G1|G1]; [|right; lra].
  destruct (guard_dev (nrm (m - 1) (out one 2 w) - INR (m - 1) * gain one 2) (36 / 1000 * mg) ltac:(lra)) as [G2|G2]; [|right; lra].
  destruct (guard_dev (nrm (m - 1) (out alt 2 w) - INR (m - 1) * gain alt 2) (36 / 1000 * mg) ltac:(lra)) as [G3|G3]; [|right; lra].
  destruct (guard_up (Bf w + / INR m * out one m w 0%nat ^ 2) (mg / 17000) ltac:(lra)) as [G4|G4]; [|right; lra].
  left. rewrite gain_1 in G1. rewrite gain_2 in G2. rewrite gain_a in G3. split.
  - rewrite (nrm_ext m (V w) (out one 1 w)); [exact G1|]. intros i _. unfold out, one. cbn [bigsum]. rewrite Nat.add_0_r. ring.
  - rewrite (nrm_ext (m - 1) _ (out one 2 w)); [exact G2|]. intros i _. unfold out, one. cbn [bigsum]. rewrite Nat.add_0_r, Nat.add_1_r. ring.
  - rewrite (nrm_ext (m - 1) _ (out alt 2 w)); [exact G3|]. intros i _. unfold out, alt. cbn [bigsum]. rewrite Nat.add_0_r, Nat.add_1_r. ring.
  - rewrite (bigsum_ext m (V w) (fun t => one t * V w (0 + t)%nat)) by (intros; unfold one; cbn [Nat.add]; ring).
    fold (out one m w 0%nat). pose proof (HB w). unfold mg in G4. unfold Rdiv at 1. rewrite (Rmult_comm _ (/ INR m)). lra.
Qed.
Lemma dev_mean c L M t C : (M + L <= m + 1)%nat -> (M <= m)%nat -> 0 < t -> gain c L <= C * g -> 0 <= gain c L ->
  E (fun w => / (t * mg) ^ 2 * (nrm M (out c L w) - INR M * gain c L) ^ 2) <= 2 * C ^ 2 * (2 * INR L + 1) / t ^ 2 / INR m.
Proof using HP Hcov Hg Hm.
  intros H1 H2 Ht HC H0. pose proof mg_pos as Hp. assert (Hmp : 0 < INR m) by (apply lt_0_INR; lia).
  rewrite (wh_scal K E HW _ (fun w => (nrm M (out c L w) - INR M * gain c L) ^ 2)).
  assert (Hi : 0 < / (t * mg) ^ 2) by (apply Rinv_0_lt_compat, pow_lt, Rmult_lt_0_compat; assumption).
  apply Rle_trans with (/ (t * mg) ^ 2 * (2 * (C * g) ^ 2 * (INR m * (2 * INR L + 1)))).
  - apply Rmult_le_compat_l; [lra|]. eapply Rle_trans; [now apply conc|].
    apply Rmult_le_compat.
    + pose proof (pow2_ge_0 (gain c L)). lra.
    + apply Rmult_le_pos; [apply pos_INR|pose proof (pos_INR L); lra].
    + apply Rmult_le_compat_l; [lra|]. apply pow_incr. lra.
    + apply Rmult_le_compat_r; [pose proof (pos_INR L); lra|now apply le_INR].
  - right. unfold mg. field. repeat split; lra.
Qed.
Lemma Tq_mean : E Tq <= 2230000 / INR m.
Proof using All.
  pose proof mg_pos as Hp. assert (Hmp : 0 < INR m) by (apply lt_0_INR; lia). pose proof Hr as Hr'. apply abs_inv in Hr'.
  unfold Tq. rewrite (wh_add K E HW (fun w => / (2 / 100 * mg) ^ 2 * (nrm m (out one 1 w) - INR m * gain one 1) ^ 2 +
     / (36 / 1000 * mg) ^ 2 * (nrm (m - 1) (out one 2 w) - INR (m - 1) * gain one 2) ^ 2)).
  rewrite (wh_add K E HW (fun w => / (2 / 100 * mg) ^ 2 * (nrm m (out one 1 w) - INR m * gain one 1) ^ 2)).
  rewrite (wh_add K E HW (fun w => / (36 / 1000 * mg) ^ 2 * (nrm (m - 1) (out alt 2 w) - INR (m - 1) * gain alt 2) ^ 2)).
  pose proof (dev_mean one 1 m (2 / 100) 1 ltac:(lia) ltac:(lia) ltac:(lra) ltac:(rewrite gain_1; lra) ltac:(rewrite gain_1; lra)) as D1.
  pose proof (dev_mean one 2 (m - 1) (36 / 1000) 3 ltac:(lia) ltac:(lia) ltac:(lra) ltac:(rewrite gain_2; nra) ltac:(rewrite gain_2; nra)) as D2.
  pose proof (dev_mean alt 2 (m - 1) (36 / 1000) 3 ltac:(lia) ltac:(lia) ltac:(lra) ltac:(rewrite gain_a; nra) ltac:(rewrite gain_a; nra)) as D3.
  assert (D4 : E (fun w => / (mg / 17000) * (Bf w + / INR m * out one m w 0%nat ^ 2)) <= 17000 * 122 / INR m).
  { rewrite (wh_scal K E HW _ (fun w => Bf w + / INR m * out one m w 0%nat ^ 2)).
    rewrite (wh_add K E HW Bf (fun w => / INR m * out one m w 0%nat ^ 2)), (wh_scal K E HW (/ INR m) (fun w => out one m w 0%nat ^ 2)).
    rewrite E_out by lia. pose proof (gain_le one m) as GL.
    assert (En : nrm m one = INR m) by (unfold nrm, one; rewrite (bigsum_ext m _ (fun _ => 1)) by (intros; ring); rewrite bigsum_const; ring).
    rewrite En in GL. apply Rle_trans with (/ (mg / 17000) * (120 * g + / INR m * (2 * g * INR m))).
    - apply Rmult_le_compat_l; [left; apply Rinv_0_lt_compat; lra|]. apply Rplus_le_compat; [exact HBm|].
      apply Rmult_le_compat_l; [left; now apply Rinv_0_lt_compat|exact GL].
    - right. unfold mg. field. lra. }
  change (INR 1) with 1 in D1. change (INR 2) with 2 in D2, D3.
  assert (F : 2 * 1 ^ 2 * (2 * 1 + 1) / (2 / 100) ^ 2 / INR m + 2 * 3 ^ 2 * (2 * 2 + 1) / (36 / 1000) ^ 2 / INR m
    + (2 * 3 ^ 2 * (2 * 2 + 1) / (36 / 1000) ^ 2 / INR m + 17000 * 122 / INR m) <= 2230000 / INR m).
  { assert (0 < / INR m) by now apply Rinv_0_lt_compat. unfold Rdiv. lra. }
  lra.
Qed.
End Typ.
End Stat.
