(** * Flicker noise of noise_kasdin.Noise against the predictions of the class (C109).

    For b = -1 (flicker phase noise) and b = -3 (flicker frequency noise) the series
    generated (allantools/noise_kasdin.py:122-148) starts from nothing, so its
    deviations are not stationary: their expectation grows with the record to a
    limit.  Here the limit in closed form, and its distance from Noise.adev and
    Noise.mdev (lines 182-319). *)
From Coq Require Import String Reals List ZArith Bool Arith Lia Lra Psatz.
From Coquelicot Require Import Coquelicot.
From Interval Require Import Tactic.
From Verif Require Import Base Num NpList NumR Spec ListFacts RSum Dft ModelCore ModelDev ModelNoise ModelNoiseR
  DevProofs TotProofs Laws2 Laws3 ConvProofs NoiseProofs PropsKasdin PropsPredict PropsExpect PropsDev PropsBias
  PropsColor CiProofs FlickerProofs.
Import ListNotations.
Local Open Scope R_scope.
Local Notation len := List.length.

(** ** Specification *)

(** The mean [F E nr] of a quantity of a record of nr points never exceeds L (from
    nmin points on) and tends to L as the record grows, whatever the uncorrelated
    unit-variance input. *)
Definition grows_to (nmin : nat) (F : (((nat -> R) -> R) -> R) -> nat -> R) (L : R) : Prop :=
  (forall nr E, white nr E -> (nmin <= nr)%nat -> F E nr <= L) /\
  (forall eps, 0 < eps -> exists N, forall nr E, white nr E -> (N <= nr)%nat -> L - eps <= F E nr).

(** 1 + 1/3 + 1/5 + ... + 1/(2n-1) *)
Definition odd_harmonic (n : nat) : R := bigsum n (fun i => / (2 * INR i + 1)).

(** ** Expectation of a sum of squared linear forms *)
Section F.
Variable nr : nat.
Variable E : ((nat -> R) -> R) -> R.
Hypothesis HE : white nr E.
Variable qd : R.
Hypothesis Hq : 0 <= qd.

Lemma E_form b a P i (f : (nat -> R) -> R) : (i + P <= nr)%nat ->
  (forall w, f w = bigsum P (fun s => a s * (record nr qd b w).[i + s])) ->
  E (fun w => f w ^ 2) = qd * qf b a P i.
Proof using All.
  intros Hi Hf.
  rewrite (E_sq nr E HE qd f (fun j => bigsum P (fun s => a s * coef b (i + s) j)) Hq).
  - f_equal. unfold qf. replace nr with (i + P + (nr - (i + P)))%nat by lia. rewrite bigsum_add, (bigsum_0 (nr - (i + P))); [ring|].
    intros j Hj. rewrite bigsum_0; [cbn; ring|]. intros s Hs. unfold coef.
    destruct (Nat.leb_spec (i + P + j) (i + s)); [lia|ring].
  - intro w. rewrite Hf.
    rewrite (bigsum_ext P _ (fun s => sqrt qd * bigsum nr (fun j => a s * coef b (i + s) j * w j))).
    + rewrite bigsum_scal. f_equal. rewrite bigsum_swap. apply bigsum_ext. intros j Hj. now rewrite bigsum_scal_r.
    + intros s Hs. rewrite record_nth by lia.
      rewrite (bigsum_ext nr (fun j => a s * coef b (i + s) j * w j) (fun j => a s * (coef b (i + s) j * w j))) by (intros; ring).
      rewrite bigsum_scal. ring.
Qed.
Lemma E_forms b a P n c (pos : nat -> nat) (g : nat -> (nat -> R) -> R) :
  (forall i, (i < n)%nat -> (pos i + P <= nr)%nat) ->
  (forall i w, (i < n)%nat -> g i w = bigsum P (fun s => a s * (record nr qd b w).[pos i + s])) ->
  E (fun w => c * bigsum n (fun i => g i w ^ 2)) = c * qd * bigsum n (fun i => qf b a P (pos i)).
Proof using All.
  intros Hp Hg. rewrite (wh_scal _ E HE c (fun w => bigsum n (fun i => g i w ^ 2))).
  rewrite (E_sum _ E HE n (fun i w => g i w ^ 2)). rewrite Rmult_assoc. f_equal. rewrite <- bigsum_scal. apply bigsum_ext.
  intros i Hi. apply E_form; [now apply Hp|]. intro w. now apply Hg.
Qed.
End F.

Lemma qf_nonneg b a P k : 0 <= qf b a P k.
Proof. unfold qf. apply bigsum_nonneg. intros; apply pow2_ge_0. Qed.

(** averages of an increasing sequence *)
Lemma grows_avg b a P (l : R) nmin (F : (((nat -> R) -> R) -> R) -> nat -> R) C (cnt : nat -> nat) (pos : nat -> nat) :
  is_lim_seq (qf b a P) l -> 0 <= C ->
  (forall i, (i <= pos i)%nat) -> (forall nr, (nmin <= nr)%nat -> (1 <= cnt nr)%nat) ->
  (forall K, exists N, forall nr, (N <= nr)%nat -> (K <= cnt nr)%nat) ->
  (forall nr E, white nr E -> (nmin <= nr)%nat -> F E nr = C * (bigsum (cnt nr) (fun i => qf b a P (pos i)) / INR (cnt nr))) ->
  grows_to nmin F (C * l).
Proof.
  intros Hl HC Hpos H1 Hinf HF. split.
  - intros nr E HE Hn. rewrite (HF nr E HE Hn). apply Rmult_le_compat_l; [exact HC|].
    assert (0 < INR (cnt nr)) by (apply lt_0_INR; pose proof (H1 nr Hn); lia).
    apply (Rmult_le_reg_r (INR (cnt nr))); [assumption|]. unfold Rdiv. rewrite Rmult_assoc, Rinv_l, Rmult_1_r by lra.
    rewrite (Rmult_comm l), <- bigsum_const. apply bigsum_le. intros i Hi. now apply qf_le_lim.
  - intros eps He.
    assert (L0 : 0 <= l) by (apply Rle_trans with (1 := qf_nonneg b a P 0); now apply qf_le_lim).
    set (e := eps / (2 * (C + 1))). assert (E0 : 0 < e) by (apply Rdiv_lt_0_compat; lra).
    assert (Hev : exists k0, forall k, (k0 <= k)%nat -> l - e <= qf b a P k).
    { apply is_lim_seq_spec in Hl. destruct (Hl (mkposreal e E0)) as [k0 Hk]. exists k0. intros k Hk0.
      specialize (Hk k Hk0). cbn in Hk. apply Rabs_def2 in Hk. lra. }
    destruct Hev as [k0 Hk0].
    destruct (nfloor_ex (INR k0 * l / e)) as [K [_ HK]].
    { apply Rmult_le_pos; [apply Rmult_le_pos; [apply pos_INR|exact L0]|left; apply Rinv_0_lt_compat, E0]. }
    destruct (Hinf (S K + k0)%nat) as [N HN]. exists (Nat.max N nmin). intros nr E HE Hn.
    rewrite (HF nr E HE) by lia. specialize (HN nr ltac:(lia)). set (n := cnt nr) in *.
    assert (Pn : 0 < INR n) by (apply lt_0_INR; lia).
    assert (A : l - 2 * e <= bigsum n (fun i => qf b a P (pos i)) / INR n).
    { apply (Rmult_le_reg_r (INR n)); [exact Pn|]. unfold Rdiv. rewrite Rmult_assoc, Rinv_l, Rmult_1_r by lra.
      assert (B : INR (n - k0) * (l - e) <= bigsum n (fun i => qf b a P (pos i))).
      { replace n with (k0 + (n - k0))%nat at 2 by lia. rewrite bigsum_add.
        assert (0 <= bigsum k0 (fun i => qf b a P (pos i))) by (apply bigsum_nonneg; intros; apply qf_nonneg).
        assert (INR (n - k0) * (l - e) <= bigsum (n - k0) (fun i => qf b a P (pos (k0 + i)%nat))); [|lra].
        rewrite <- bigsum_const. apply bigsum_le. intros i Hi. apply Hk0. pose proof (Hpos (k0 + i)%nat). lia. }
      rewrite minus_INR in B by lia.
      assert (Q : INR k0 * l <= e * INR n).
      { apply (Rmult_le_reg_r (/ e)); [now apply Rinv_0_lt_compat|].
        replace (e * INR n * / e) with (INR n) by (field; lra). left. apply Rlt_le_trans with (1 := HK).
        rewrite <- S_INR. apply le_INR. lia. }
      pose proof (Rmult_le_pos _ _ (pos_INR k0) (Rlt_le _ _ E0)). lra. }
    apply Rle_trans with (C * (l - 2 * e)); [|now apply Rmult_le_compat_l].
    assert (C * (2 * e) <= eps); [|lra]. unfold e.
    replace (C * (2 * (eps / (2 * (C + 1))))) with (eps * (C / (C + 1))) by (field; lra).
    rewrite <- (Rmult_1_r eps) at 2. apply Rmult_le_compat_l; [lra|]. apply (Rmult_le_reg_r (C + 1)); [lra|].
    unfold Rdiv. rewrite Rmult_assoc, Rinv_l, Rmult_1_r by lra. lra.
Qed.

(** ** The deviations as sums of squared forms *)
Lemma d2_form x m i : d2 x m i = bigsum (S (2 * m)) (fun s => w2 m s * x.[i + s]).
Proof. rewrite (w2_sum _ m (fun s => x.[i + s])) by lia. unfold d2. rewrite Nat.add_0_r. ring. Qed.
Lemma d3_form x m i : d3 x m i = bigsum (S (3 * m)) (fun s => w3 m s * x.[i + s]).
Proof. rewrite (w3_sum _ m (fun s => x.[i + s])) by lia. unfold d3. rewrite Nat.add_0_r. ring. Qed.
Lemma dm_form x m j : bigsum m (fun i => d2 x m (j + i)) = bigsum (3 * m) (fun s => wm m s * x.[j + s]).
Proof.
  rewrite (wm_sum m (fun s => x.[j + s])). apply bigsum_ext. intros t Ht. unfold d2.
  replace (j + t + 2 * m)%nat with (j + (2 * m + t))%nat by lia. replace (j + t + m)%nat with (j + (m + t))%nat by lia. ring.
Qed.

Section Dev.
Variables (qd rate b : R) (m : nat).
Hypothesis Hq : 0 <= qd.
Hypothesis Hr : 0 < rate.
Hypothesis Hm : (1 <= m)%nat.
Let tau := INR m / rate.

Lemma tau_p : 0 < tau.
Proof using All. apply Rdiv_lt_0_compat; [apply lt_0_INR; lia|exact Hr]. Qed.
Lemma tau_eq : INR m * (1 / rate) = tau.
Proof using All. unfold tau. field. lra. Qed.

Lemma grows_oadev l : is_lim_seq (qf b (w2 m) (S (2 * m))) (Finite l) ->
  grows_to (2 * m + 2) (fun E nr => edev E nr qd b oadev rate m) (qd / (2 * tau ^ 2) * l).
Proof using All.
  intro Hl. pose proof tau_p as Tp.
  apply (grows_avg b (w2 m) (S (2 * m)) l _ _ _ (fun nr => nr - 2 * m)%nat (fun i => i) Hl).
  - apply Rmult_le_pos; [exact Hq|]. left. apply Rinv_0_lt_compat. apply Rmult_lt_0_compat; [lra|now apply pow_lt].
  - intros; lia.
  - intros; lia.
  - intro K. exists (K + 2 * m)%nat. intros; lia.
  - intros nr E HE Hn. rewrite (edev_var E nr qd b _ rate m (fun x => oavar x (1 / rate) m) HE).
    + rewrite (wh_ext _ E HE _ (fun w => / (2 * tau ^ 2 * INR (nr - 2 * m)) *
        bigsum (nr - 2 * m) (fun i => (fun i w => d2 (record nr qd b w) m i) i w ^ 2))).
      * rewrite (E_forms nr E HE qd Hq b (w2 m) (S (2 * m)) (nr - 2 * m) _ (fun i => i)) by (intros; (lia || apply d2_form)).
        assert (0 < INR (nr - 2 * m)) by (apply lt_0_INR; lia). field. lra.
      * intro w. unfold oavar, oadev_n. rewrite record_len by lia. now rewrite tau_eq.
    + intro w. apply oavar_nonneg.
    + intro w. rewrite oadev_single by (try assumption; rewrite record_len by lia; lia). do 3 eexists. reflexivity.
Qed.
Lemma grows_ohdev l : is_lim_seq (qf b (w3 m) (S (3 * m))) (Finite l) ->
  grows_to (3 * m + 2) (fun E nr => edev E nr qd b ohdev rate m) (qd / (6 * tau ^ 2) * l).
Proof using All.
  intro Hl. pose proof tau_p as Tp.
  apply (grows_avg b (w3 m) (S (3 * m)) l _ _ _ (fun nr => nr - 3 * m)%nat (fun i => i) Hl).
  - apply Rmult_le_pos; [exact Hq|]. left. apply Rinv_0_lt_compat. apply Rmult_lt_0_compat; [lra|now apply pow_lt].
  - intros; lia.
  - intros; lia.
  - intro K. exists (K + 3 * m)%nat. intros; lia.
  - intros nr E HE Hn. rewrite (edev_var E nr qd b _ rate m (fun x => ohvar x (1 / rate) m) HE).
    + rewrite (wh_ext _ E HE _ (fun w => / (6 * tau ^ 2 * INR (nr - 3 * m)) *
        bigsum (nr - 3 * m) (fun i => (fun i w => d3 (record nr qd b w) m i) i w ^ 2))).
      * rewrite (E_forms nr E HE qd Hq b (w3 m) (S (3 * m)) (nr - 3 * m) _ (fun i => i)) by (intros; (lia || apply d3_form)).
        assert (0 < INR (nr - 3 * m)) by (apply lt_0_INR; lia). field. lra.
      * intro w. unfold ohvar, ohdev_n. rewrite record_len by lia. now rewrite tau_eq.
    + intro w. apply ohvar_nonneg.
    + intro w. rewrite ohdev_single by (try assumption; rewrite record_len by lia; lia). do 3 eexists. reflexivity.
Qed.
Lemma div_grows c K : exists N, forall nr, (N <= nr)%nat -> (K <= (nr - 1) / m - c)%nat.
Proof using Hm.
  exists ((K + c) * m + 1)%nat. intros nr H.
  assert (K + c <= (nr - 1) / m)%nat by (apply Nat.div_le_lower_bound; lia). lia.
Qed.
Lemma div_fits nr c i : (c <= (nr - 1) / m)%nat -> (i < (nr - 1) / m - c)%nat -> (i * m + S ((c + 1) * m) <= nr)%nat.
Proof using Hm.
  intros H Hi. assert (((nr - 1) / m * m <= nr - 1)%nat) by (rewrite Nat.mul_comm; apply Nat.mul_div_le; lia).
  assert ((i + c + 1) * m <= (nr - 1) / m * m)%nat by (apply Nat.mul_le_mono_r; lia).
  assert (1 <= nr)%nat by (destruct nr; [cbn in H; rewrite Nat.div_0_l in Hi by lia; lia|lia]). lia.
Qed.
Lemma grows_adev l : is_lim_seq (qf b (w2 m) (S (2 * m))) (Finite l) ->
  grows_to (3 * m + 1) (fun E nr => edev E nr qd b adev rate m) (qd / (2 * tau ^ 2) * l).
Proof using All.
  intro Hl. pose proof tau_p as Tp.
  assert (D : forall nr, (3 * m + 1 <= nr)%nat -> (3 <= (nr - 1) / m)%nat) by (intros; apply Nat.div_le_lower_bound; lia).
  apply (grows_avg b (w2 m) (S (2 * m)) l _ _ _ (fun nr => (nr - 1) / m - 1)%nat (fun i => i * m)%nat Hl).
  - apply Rmult_le_pos; [exact Hq|]. left. apply Rinv_0_lt_compat. apply Rmult_lt_0_compat; [lra|now apply pow_lt].
  - intros; nia.
  - intros nr Hn. pose proof (D nr Hn). lia.
  - intro K. apply div_grows.
  - intros nr E HE Hn. pose proof (D nr Hn) as Dn. rewrite (edev_var E nr qd b _ rate m (fun x => avar x (1 / rate) m) HE).
    + rewrite (wh_ext _ E HE _ (fun w => / (2 * INR ((nr - 1) / m - 1) * tau ^ 2) *
        bigsum ((nr - 1) / m - 1) (fun i => (fun i w => d2 (record nr qd b w) m (i * m)) i w ^ 2))).
      * rewrite (E_forms nr E HE qd Hq b (w2 m) (S (2 * m)) ((nr - 1) / m - 1) _ (fun i => i * m)%nat)
          by (intros; (apply d2_form || apply (div_fits nr 1); lia)).
        assert (0 < INR ((nr - 1) / m - 1)) by (apply lt_0_INR; lia). field. lra.
      * intro w. unfold avar, adev_n. rewrite record_len by lia. now rewrite tau_eq.
    + intro w. apply avar_nonneg.
    + intro w. rewrite adev_single; [do 3 eexists; reflexivity|exact Hr|rewrite record_len by lia; lia|].
      unfold adev_n. rewrite record_len by lia. lia.
Qed.
Lemma grows_hdev l : is_lim_seq (qf b (w3 m) (S (3 * m))) (Finite l) ->
  grows_to (4 * m + 1) (fun E nr => edev E nr qd b hdev rate m) (qd / (6 * tau ^ 2) * l).
Proof using All.
  intro Hl. pose proof tau_p as Tp.
  assert (D : forall nr, (4 * m + 1 <= nr)%nat -> (4 <= (nr - 1) / m)%nat) by (intros; apply Nat.div_le_lower_bound; lia).
  apply (grows_avg b (w3 m) (S (3 * m)) l _ _ _ (fun nr => (nr - 1) / m - 2)%nat (fun i => i * m)%nat Hl).
  - apply Rmult_le_pos; [exact Hq|]. left. apply Rinv_0_lt_compat. apply Rmult_lt_0_compat; [lra|now apply pow_lt].
  - intros; nia.
  - intros nr Hn. pose proof (D nr Hn). lia.
  - intro K. apply div_grows.
  - intros nr E HE Hn. pose proof (D nr Hn) as Dn. rewrite (edev_var E nr qd b _ rate m (fun x => hvar x (1 / rate) m) HE).
    + rewrite (wh_ext _ E HE _ (fun w => / (6 * tau ^ 2 * INR ((nr - 1) / m - 2)) *
        bigsum ((nr - 1) / m - 2) (fun i => (fun i w => d3 (record nr qd b w) m (i * m)) i w ^ 2))).
      * rewrite (E_forms nr E HE qd Hq b (w3 m) (S (3 * m)) ((nr - 1) / m - 2) _ (fun i => i * m)%nat)
          by (intros; (apply d3_form || apply (div_fits nr 2); lia)).
        assert (0 < INR ((nr - 1) / m - 2)) by (apply lt_0_INR; lia). field. lra.
      * intro w. unfold hvar, hdev_n. rewrite record_len by lia. now rewrite tau_eq.
    + intro w. apply hvar_nonneg'.
    + intro w. rewrite hdev_single; [do 3 eexists; reflexivity|exact Hr|rewrite record_len by lia; lia|].
      unfold hdev_n. rewrite record_len by lia. lia.
Qed.
Lemma mvar_forms nr E : white nr E -> (3 * m + 1 <= nr)%nat ->
  edev E nr qd b mdev rate m = qd / (2 * INR m ^ 2 * tau ^ 2) *
    (bigsum (nr - 3 * m + 1) (qf b (wm m) (3 * m)) / INR (nr - 3 * m + 1)).
Proof using All.
  intros HE Hn. pose proof tau_p as Tp. assert (Mp : 0 < INR m) by (apply lt_0_INR; lia).
  rewrite (edev_var E nr qd b _ rate m (fun x => mvar x (1 / rate) m) HE).
  - rewrite (wh_ext _ E HE _ (fun w => / (2 * INR m ^ 2 * tau ^ 2 * INR (nr - 3 * m + 1)) *
      bigsum (nr - 3 * m + 1) (fun j => (fun j w => bigsum m (fun i => d2 (record nr qd b w) m (j + i))) j w ^ 2))).
    + rewrite (E_forms nr E HE qd Hq b (wm m) (3 * m) (nr - 3 * m + 1) _ (fun i => i)) by (intros; (lia || apply dm_form)).
      assert (0 < INR (nr - 3 * m + 1)) by (apply lt_0_INR; lia). change (fun i => qf b (wm m) (3 * m) i) with (qf b (wm m) (3 * m)).
      field. lra.
    + intro w. unfold mvar, mdev_n. rewrite record_len by lia.
      replace (Z.of_nat nr - 3 * Z.of_nat m + 1)%Z with (Z.of_nat (nr - 3 * m + 1)) by lia.
      rewrite <- INR_IZR_INZ, Nat2Z.id. now rewrite tau_eq.
  - intro w. apply mvar_nonneg. unfold mdev_n. rewrite record_len by lia. lia.
  - intro w. rewrite mdev_single by (try assumption; rewrite record_len by lia; lia). do 3 eexists. reflexivity.
Qed.
Lemma grows_mdev l : is_lim_seq (qf b (wm m) (3 * m)) (Finite l) ->
  grows_to (3 * m + 1) (fun E nr => edev E nr qd b mdev rate m) (qd / (2 * INR m ^ 2 * tau ^ 2) * l).
Proof using All.
  intro Hl. pose proof tau_p as Tp. assert (Mp : 0 < INR m) by (apply lt_0_INR; lia).
  apply (grows_avg b (wm m) (3 * m) l _ _ _ (fun nr => nr - 3 * m + 1)%nat (fun i => i) Hl).
  - apply Rmult_le_pos; [exact Hq|]. left. apply Rinv_0_lt_compat. apply Rmult_lt_0_compat; [|now apply pow_lt].
    apply Rmult_lt_0_compat; [lra|now apply pow_lt].
  - intros; lia.
  - intros; lia.
  - intro K. exists (K + 3 * m)%nat. intros; lia.
  - intros nr E HE Hn. apply mvar_forms; assumption.
Qed.
End Dev.

(** ** Odd harmonic numbers and the logarithm *)
Definition eh (n : nat) : R := oddh n - ln (INR n) / 2.

Lemma atanh_bounds u : 0 <= u -> u < 1 ->
  u <= (ln (1 + u) - ln (1 - u)) / 2 <= u + u ^ 3 / (3 * (1 - u ^ 2)).
Proof.
  intros H0 H1.
  assert (D : forall (G g : R -> R), (forall t, 0 <= t <= u -> is_derive G t (g t)) -> (forall t, 0 <= t <= u -> 0 <= g t) -> G 0 <= G u).
  { intros G g HG Hg. destruct (MVT_gen G 0 u g) as [c [Hc E]].
    - intros x Hx. rewrite Rmin_left, Rmax_right in Hx by lra. apply HG. lra.
    - intros x Hx. rewrite Rmin_left, Rmax_right in Hx by lra.
      apply derivable_continuous_pt. exists (g x). apply is_derive_Reals. apply HG. lra.
    - rewrite Rmin_left, Rmax_right in Hc by lra. specialize (Hg c Hc). pose proof (Rmult_le_pos _ _ Hg H0). lra. }
  split.
  - assert (Q : 0 <= (ln (1 + u) - ln (1 - u)) / 2 - u); [|lra].
    apply Rle_trans with ((fun t => (ln (1 + t) - ln (1 - t)) / 2 - t) 0); [right; cbv beta; rewrite Rplus_0_r, !Rminus_0_r, ln_1; field|].
    apply (D (fun t => (ln (1 + t) - ln (1 - t)) / 2 - t) (fun t => t ^ 2 / (1 - t ^ 2))).
    + intros t Ht. auto_derive; [lra|]. field. nra.
    + intros t Ht. apply Rmult_le_pos; [apply pow2_ge_0|]. left. apply Rinv_0_lt_compat. nra.
  - assert (Q : 0 <= u + u ^ 3 / (3 * (1 - u ^ 2)) - (ln (1 + u) - ln (1 - u)) / 2); [|lra].
    apply Rle_trans with ((fun t => t + t ^ 3 / (3 * (1 - t ^ 2)) - (ln (1 + t) - ln (1 - t)) / 2) 0);
      [right; cbv beta; rewrite Rplus_0_r, !Rminus_0_r, ln_1; field; lra|].
    apply (D (fun t => t + t ^ 3 / (3 * (1 - t ^ 2)) - (ln (1 + t) - ln (1 - t)) / 2) (fun t => 2 * t ^ 4 / (3 * (1 - t ^ 2) ^ 2))).
    + intros t Ht. assert (0 < 1 - t ^ 2) by nra. auto_derive; [lra|]. field. nra.
    + intros t Ht. assert (0 < 1 - t ^ 2) by nra. apply Rmult_le_pos; [pose proof (pow2_ge_0 (t ^ 2)) as Q; rewrite <- pow_mult in Q; cbn [Nat.mul Nat.add] in Q; lra|].
      left. apply Rinv_0_lt_compat. pose proof (pow_lt (1 - t ^ 2) 2 H). lra.
Qed.

Lemma eh_step n : (1 <= n)%nat ->
  0 <= eh n - eh (S n) <= (/ INR n ^ 2 - / INR (S n) ^ 2) / 48.
Proof.
  intro Hn. assert (Pn : 1 <= INR n) by (apply (le_INR 1); lia).
  set (u := / (2 * INR n + 1)). assert (U0 : 0 < u) by (apply Rinv_0_lt_compat; lra).
  assert (U1 : u < 1) by (unfold u; rewrite <- Rinv_1; apply Rinv_lt_contravar; lra).
  destruct (atanh_bounds u (Rlt_le _ _ U0) U1) as [A B].
  assert (E : eh n - eh (S n) = (ln (1 + u) - ln (1 - u)) / 2 - u).
  { unfold eh. rewrite oddh_S, S_INR. fold u.
    assert (Q : ln (1 + u) - ln (1 - u) = ln (INR n + 1) - ln (INR n)); [|lra].
    rewrite <- !ln_div by lra. f_equal. unfold u. field. split; [lra|]. lra. }
  rewrite E. split; [lra|]. apply Rle_trans with (u ^ 3 / (3 * (1 - u ^ 2))); [lra|]. rewrite S_INR.
  replace (u ^ 3 / (3 * (1 - u ^ 2))) with (/ (12 * INR n * (INR n + 1) * (2 * INR n + 1))).
  2:{ unfold u. field. repeat split; nra. }
  replace ((/ INR n ^ 2 - / (INR n + 1) ^ 2) / 48) with ((2 * INR n + 1) / (48 * (INR n * (INR n + 1)) ^ 2)) by (field; lra).
  set (q := INR n * (INR n + 1)). assert (Q0 : 0 < q) by (unfold q; nra).
  apply (Rmult_le_reg_r (48 * q ^ 2 * (2 * INR n + 1))); [apply Rmult_lt_0_compat; [|lra]; pose proof (pow_lt q 2 Q0); lra|].
  replace (/ (12 * INR n * (INR n + 1) * (2 * INR n + 1)) * (48 * q ^ 2 * (2 * INR n + 1))) with (4 * q) by (unfold q; field; lra).
  replace ((2 * INR n + 1) / (48 * q ^ 2) * (48 * q ^ 2 * (2 * INR n + 1))) with ((2 * INR n + 1) ^ 2) by (field; lra).
  unfold q. nra.
Qed.
Lemma eh_diff n k : (1 <= n)%nat -> 0 <= eh n - eh (n + k) <= (/ INR n ^ 2 - / INR (n + k) ^ 2) / 48.
Proof.
  intro Hn. induction k as [|k IH]; [rewrite Nat.add_0_r; lra|].
  replace (n + S k)%nat with (S (n + k)) by lia. pose proof (eh_step (n + k) ltac:(lia)). lra.
Qed.
Lemma eh_12 m : (1 <= m)%nat -> 0 <= eh m - eh (2 * m) <= / 64 / INR m ^ 2.
Proof.
  intro Hm. pose proof (eh_diff m m Hm) as D. replace (m + m)%nat with (2 * m)%nat in D by lia.
  rewrite mult_INR in D. change (INR 2) with 2 in D. assert (0 < INR m) by (apply lt_0_INR; lia).
  replace ((/ INR m ^ 2 - / (2 * INR m) ^ 2) / 48) with (/ 64 / INR m ^ 2) in D by (field; lra). exact D.
Qed.
Lemma eh_23 m : (1 <= m)%nat -> 0 <= eh (2 * m) - eh (3 * m) <= 5 / 1728 / INR m ^ 2.
Proof.
  intro Hm. pose proof (eh_diff (2 * m) m ltac:(lia)) as D. replace (2 * m + m)%nat with (3 * m)%nat in D by lia.
  rewrite !mult_INR in D. change (INR 2) with 2 in D. replace (INR 3) with 3 in D by (cbn; lra).
  assert (0 < INR m) by (apply lt_0_INR; lia).
  replace ((/ (2 * INR m) ^ 2 - / (3 * INR m) ^ 2) / 48) with (5 / 1728 / INR m ^ 2) in D by (field; lra). exact D.
Qed.
Lemma eh_up n : (1 <= n)%nat -> eh n <= 1.
Proof.
  intro Hn. pose proof (eh_diff 1 (n - 1) ltac:(lia)) as D. replace (1 + (n - 1))%nat with n in D by lia.
  assert (eh 1 = 1); [|lra]. unfold eh, oddh. cbn [bigsum INR]. rewrite ln_1. field.
Qed.
Lemma eh_lo n : (1 <= n)%nat -> 9817 / 10000 <= eh n.
Proof.
  intro Hn. assert (Q : forall n, (8 <= n)%nat -> 9817 / 10000 <= eh n).
  { clear n Hn. intros n Hn. pose proof (eh_diff 8 (n - 8) ltac:(lia)) as D. replace (8 + (n - 8))%nat with n in D by lia.
    assert (A : 98207 / 100000 <= eh 8).
    { unfold eh, oddh. cbn [bigsum]. rewrite !S_INR. change (INR 0) with 0. interval with (i_prec 60). }
    assert (B : 0 < / INR n ^ 2) by (apply Rinv_0_lt_compat, pow_lt, lt_0_INR; lia).
    assert (C : / INR 8 ^ 2 <= 1 / 64) by (rewrite !S_INR; change (INR 0) with 0; lra). lra. }
  destruct (le_lt_dec 8 n) as [H|H]; [now apply Q|]. pose proof (eh_diff n 8 Hn). specialize (Q (n + 8)%nat ltac:(lia)). lra.
Qed.
Lemma oddh_eh n : oddh n = eh n + ln (INR n) / 2.
Proof. unfold eh. lra. Qed.
Lemma ln_INR2 m : (1 <= m)%nat -> ln (INR (2 * m)) = ln 2 + ln (INR m).
Proof. intro H. rewrite mult_INR. change (INR 2) with 2. apply ln_mult; [lra|]. apply lt_0_INR; lia. Qed.
Lemma ln_INR3 m : (1 <= m)%nat -> ln (INR (3 * m)) = ln 3 + ln (INR m).
Proof. intro H. rewrite mult_INR. replace (INR 3) with 3 by (cbn; lra). apply ln_mult; [lra|]. apply lt_0_INR; lia. Qed.
Lemma oddh_le n : oddh n <= INR n.
Proof.
  induction n as [|n IH]; [cbn; lra|]. rewrite oddh_S, S_INR. pose proof (pos_INR n).
  assert (/ (2 * INR n + 1) <= / 1) by (apply Rinv_le_contravar; lra). rewrite Rinv_1 in *. lra.
Qed.
Lemma oddh_ge1 n : (1 <= n)%nat -> 1 <= oddh n.
Proof.
  intro H. induction n as [|n IH]; [lia|]. rewrite oddh_S. pose proof (pos_INR n).
  destruct n as [|n]; [cbn; lra|]. specialize (IH ltac:(lia)).
  assert (0 < / (2 * INR (S n) + 1)) by (apply Rinv_0_lt_compat; lra). lra.
Qed.
(** differences *)
Lemma oddh_12 m : (1 <= m)%nat -> 1 / 3 <= oddh (2 * m) - oddh m <= 34658 / 100000.
Proof.
  intro Hm. pose proof (eh_12 m Hm) as D. rewrite !oddh_eh, ln_INR2 by exact Hm.
  assert (L : 69314 / 100000 <= ln 2 <= 69315 / 100000) by (split; interval with (i_prec 60)).
  split; [|lra]. assert (M : 1 <= INR m) by (apply (le_INR 1); exact Hm).
  assert (/ INR m ^ 2 <= 1) by (rewrite <- Rinv_1; apply Rinv_le_contravar; nra).
  destruct (Nat.eq_dec m 1) as [->|N1].
  - change (2 * 1)%nat with 2%nat. unfold eh, oddh. cbn [bigsum]. change (INR 2) with 2. change (INR 1) with 1. change (INR 0) with 0. rewrite ln_1. lra.
  - assert (M2 : 2 <= INR m) by (apply (le_INR 2); lia).
    assert (/ INR m ^ 2 <= / 4) by (apply Rinv_le_contravar; nra). lra.
Qed.
Lemma oddh_13 m : (1 <= m)%nat -> 53 / 100 <= oddh (3 * m) - oddh m <= 54931 / 100000.
Proof.
  intro Hm. pose proof (eh_12 m Hm) as D. pose proof (eh_23 m Hm) as D'. rewrite !oddh_eh, ln_INR3 by exact Hm.
  assert (L : 109861 / 100000 <= ln 3 <= 109862 / 100000) by (split; interval with (i_prec 60)).
  assert (M : 1 <= INR m) by (apply (le_INR 1); exact Hm).
  assert (/ INR m ^ 2 <= 1) by (rewrite <- Rinv_1; apply Rinv_le_contravar; nra). lra.
Qed.

(** ** Limits *)
Section T.
Variables (qd rate : R) (m : nat).
Hypothesis Hq : 0 <= qd.
Hypothesis Hr : 0 < rate.
Hypothesis Hm : (1 <= m)%nat.
Let tau := INR m / rate.
Let O := odd_harmonic.

Lemma mp : 0 < INR m.
Proof using Hm. apply lt_0_INR; lia. Qed.

Definition lim_avar1 : R := 2 * qd / (PI * tau ^ 2) * (4 * O m - O (2 * m)%nat).
Definition lim_avar3 : R := 2 * qd / PI * rate ^ 2 *
  (2 * (O (2 * m)%nat - O m) + (4 * O m - O (2 * m)%nat) / (8 * INR m ^ 2)).
Definition lim_hvar1 : R := 2 * qd / (3 * PI * tau ^ 2) * (15 * O m - 6 * O (2 * m)%nat + O (3 * m)%nat).
Definition lim_hvar3 : R := qd / (3 * PI) * rate ^ 2 *
  (24 * O (2 * m)%nat - 15 * O m - 9 * O (3 * m)%nat + (15 * O m - 6 * O (2 * m)%nat + O (3 * m)%nat) / (4 * INR m ^ 2)).
Definition lim_mvar1 : R := qd / (PI * tau ^ 2) *
  (24 * O (2 * m)%nat - 15 * O m - 9 * O (3 * m)%nat + (15 * O m - 6 * O (2 * m)%nat + O (3 * m)%nat) / (4 * INR m ^ 2)).
Definition lim_mvar3 : R := 2 * qd / PI * rate ^ 2 *
  ((15 * O m - 96 * O (2 * m)%nat + 81 * O (3 * m)%nat) / 24 -
   5 / 48 * (15 * O m - 24 * O (2 * m)%nat + 9 * O (3 * m)%nat) / INR m ^ 2 +
   3 / 128 * (15 * O m - 6 * O (2 * m)%nat + O (3 * m)%nat) / INR m ^ 4).

Lemma eq_a1 : qd / (2 * tau ^ 2) * (4 / PI * (4 * oddh m - oddh (2 * m))) = lim_avar1.
Proof using Hr Hm.
  unfold lim_avar1, O, odd_harmonic, oddh, tau. pose proof mp. pose proof PI_RGT_0. field. lra.
Qed.
Ltac inrs := rewrite ?mult_INR; change (INR 2) with 2; replace (INR 3) with 3 by (cbn; lra).
Lemma eq_a3 : qd / (2 * tau ^ 2) * (4 / PI * (oG (2 * m) - 4 * oG m)) = lim_avar3.
Proof using Hr Hm.
  unfold lim_avar3, O, oG, tau. change odd_harmonic with oddh. inrs. pose proof mp. pose proof PI_RGT_0. field. lra.
Qed.
Lemma eq_h1 : qd / (6 * tau ^ 2) * (4 / PI * (15 * oddh m - 6 * oddh (2 * m) + oddh (3 * m))) = lim_hvar1.
Proof using Hr Hm.
  unfold lim_hvar1, O, tau. change odd_harmonic with oddh. pose proof mp. pose proof PI_RGT_0. field. lra.
Qed.
Lemma eq_h3 : qd / (6 * tau ^ 2) * (4 / PI * (6 * oG (2 * m) - 15 * oG m - oG (3 * m))) = lim_hvar3.
Proof using Hr Hm.
  unfold lim_hvar3, O, oG, tau. change odd_harmonic with oddh. inrs. pose proof mp. pose proof PI_RGT_0. field. lra.
Qed.
Lemma eq_m1 : qd / (2 * INR m ^ 2 * tau ^ 2) * (4 / PI * (6 * oG (2 * m) - 15 * oG m - oG (3 * m))) = lim_mvar1.
Proof using Hr Hm.
  unfold lim_mvar1, O, oG, tau. change odd_harmonic with oddh. inrs. pose proof mp. pose proof PI_RGT_0. field. lra.
Qed.
Lemma eq_m3 : qd / (2 * INR m ^ 2 * tau ^ 2) * (4 / PI * (15 * oH m - 6 * oH (2 * m) + oH (3 * m))) = lim_mvar3.
Proof using Hr Hm.
  unfold lim_mvar3, O, oH, tau. change odd_harmonic with oddh. inrs. pose proof mp. pose proof PI_RGT_0. field. lra.
Qed.

(** oadev, adev, ohdev, hdev and mdev of a flicker phase record *)
Theorem C109_flicker_phase :
  grows_to (2 * m + 2) (fun E nr => edev E nr qd (-1) oadev rate m) lim_avar1 /\
  grows_to (3 * m + 1) (fun E nr => edev E nr qd (-1) adev rate m) lim_avar1 /\
  grows_to (3 * m + 2) (fun E nr => edev E nr qd (-1) ohdev rate m) lim_hvar1 /\
  grows_to (4 * m + 1) (fun E nr => edev E nr qd (-1) hdev rate m) lim_hvar1 /\
  grows_to (3 * m + 1) (fun E nr => edev E nr qd (-1) mdev rate m) lim_mvar1.
Proof using Hq Hr Hm.
  rewrite <- eq_a1, <- eq_h1, <- eq_m1. repeat split.
  all: try (apply (grows_oadev qd rate (-1) m Hq Hr Hm _ (lim_a1 m))).
  all: try (apply (grows_adev qd rate (-1) m Hq Hr Hm _ (lim_a1 m))).
  all: try (apply (grows_ohdev qd rate (-1) m Hq Hr Hm _ (lim_h1 m))).
  all: try (apply (grows_hdev qd rate (-1) m Hq Hr Hm _ (lim_h1 m))).
  all: apply (grows_mdev qd rate (-1) m Hq Hr Hm _ (lim_m1 m)).
Qed.

(** the same for a flicker frequency record *)
Theorem C109_flicker_frequency :
  grows_to (2 * m + 2) (fun E nr => edev E nr qd (-3) oadev rate m) lim_avar3 /\
  grows_to (3 * m + 1) (fun E nr => edev E nr qd (-3) adev rate m) lim_avar3 /\
  grows_to (3 * m + 2) (fun E nr => edev E nr qd (-3) ohdev rate m) lim_hvar3 /\
  grows_to (4 * m + 1) (fun E nr => edev E nr qd (-3) hdev rate m) lim_hvar3 /\
  grows_to (3 * m + 1) (fun E nr => edev E nr qd (-3) mdev rate m) lim_mvar3.
Proof using Hq Hr Hm.
  rewrite <- eq_a3, <- eq_h3, <- eq_m3. repeat split.
  all: try (apply (grows_oadev qd rate (-3) m Hq Hr Hm _ (lim_a3 m))).
  all: try (apply (grows_adev qd rate (-3) m Hq Hr Hm _ (lim_a3 m))).
  all: try (apply (grows_ohdev qd rate (-3) m Hq Hr Hm _ (lim_h3 m))).
  all: try (apply (grows_hdev qd rate (-3) m Hq Hr Hm _ (lim_h3 m))).
  all: apply (grows_mdev qd rate (-3) m Hq Hr Hm _ (lim_m3 m Hm)).
Qed.

(** ** Against the predictions of the class *)
Let t0 := 1 / rate.
Lemma t0_pos : 0 < t0.
Proof using Hr. apply Rdiv_lt_0_compat; lra. Qed.
Lemma t0_tau : t0 <= tau.
Proof using Hr Hm.
  unfold t0, tau. apply Rmult_le_compat_r; [left; apply Rinv_0_lt_compat, Hr|]. apply (le_INR 1), Hm.
Qed.

(** Noise.adev for b = -1 is too low by a fixed 0.72 to 0.88 times qd/(pi tau^2). *)
Theorem C109_adev_fpm nr : exists p, noise_adev (mkNoise nr qd (-1)) t0 tau = Ok p /\
  72 / 100 * (qd / (PI * tau ^ 2)) <= lim_avar1 - p ^ 2 <= 88 / 100 * (qd / (PI * tau ^ 2)) /\
  p ^ 2 <= lim_avar1 <= 12 / 10 * p ^ 2.
Proof using Hq Hr Hm.
  pose proof t0_pos as T0. pose proof t0_tau as T1. pose proof mp as Mp. pose proof PI_RGT_0 as HP.
  eexists. split; [apply C68_adev; [exact Hq|exact T0|lra|intro; exact T1|apply av_fpm]|].
  assert (TT : tau / t0 = INR m) by (unfold tau, t0; field; lra).
  rewrite TT. clear T1.
  set (c := qd / (PI * tau ^ 2)).
  assert (C0 : 0 <= c).
  { apply Rmult_le_pos; [exact Hq|]. left. apply Rinv_0_lt_compat, Rmult_lt_0_compat; [exact HP|]. apply pow_lt, Rdiv_lt_0_compat; lra. }
  rewrite ln_mult by lra.
  set (g := 57721566490153286060651209 / 10 ^ 26).
  assert (G : 5772 / 10000 <= g <= 57722 / 100000) by (unfold g; lra).
  assert (LP : 11447 / 10000 <= ln PI <= 11448 / 10000) by (split; interval with (i_prec 60)).
  assert (L2 : 69314 / 100000 <= ln 2 <= 69315 / 100000) by (split; interval with (i_prec 60)).
  assert (LM : 0 <= ln (INR m)). { rewrite <- ln_1. destruct (Nat.eq_dec m 1) as [->|N]; [right; reflexivity|]. left. apply ln_increasing; [lra|]. apply (lt_INR 1). lia. }
  set (v := 3 * g - ln 2 + 3 * (ln PI + ln (INR m))). replace (v * qd / (PI * tau ^ 2)) with (c * v) by (unfold c, Rdiv; ring).
  assert (V0 : 447 / 100 <= v) by (unfold v; lra).
  rewrite pow2_sqrt by (apply Rmult_le_pos; lra).
  assert (LL : lim_avar1 = c * (8 * eh m - 2 * eh (2 * m) + 3 * ln (INR m) - ln 2)).
  { unfold lim_avar1, O. change odd_harmonic with oddh. rewrite !oddh_eh, ln_INR2 by exact Hm. unfold c. fold tau.
    assert (0 < tau) by (apply Rdiv_lt_0_compat; lra). field. lra. }
  rewrite LL.
  set (d := 8 * eh m - 2 * eh (2 * m) + 3 * ln (INR m) - ln 2 - v).
  replace (8 * eh m - 2 * eh (2 * m) + 3 * ln (INR m) - ln 2) with (v + d) by (unfold d; ring).
  assert (D : 72 / 100 <= d <= 88 / 100).
  { unfold d, v. pose proof (eh_12 m Hm). pose proof (eh_lo m Hm). pose proof (eh_up m Hm).
    assert (M1 : 1 <= INR m) by (apply (le_INR 1), Hm).
    assert (/ INR m ^ 2 <= 1) by (rewrite <- Rinv_1; apply Rinv_le_contravar; nra). lra. }
  replace (c * (v + d) - c * v) with (c * d) by ring. rewrite (Rmult_comm (72 / 100)), (Rmult_comm (88 / 100)).
  replace (12 / 10 * (c * v)) with (c * (12 / 10 * v)) by ring.
  repeat split; apply Rmult_le_compat_l; lra.
Qed.

(** Noise.adev for b = -3 is what is reached for large m; at small m the deviations are above it. *)
Theorem C109_adev_ffm nr : exists p, noise_adev (mkNoise nr qd (-3)) t0 tau = Ok p /\
  p ^ 2 = 2 * ln 2 * qd / PI * rate ^ 2 /\
  (3 / 8 * O m - 75 / 1000) * (2 * qd / PI * rate ^ 2 / INR m ^ 2) <= lim_avar3 - p ^ 2 <=
  (3 / 8 * O m - 41 / 1000) * (2 * qd / PI * rate ^ 2 / INR m ^ 2).
Proof using Hq Hr Hm.
  pose proof t0_pos as T0. pose proof t0_tau as T1. pose proof mp as Mp. pose proof PI_RGT_0 as HP.
  eexists. split; [apply C68_adev; [exact Hq|exact T0|lra|intro; exact T1|apply av_ffm]|]. clear T1.
  set (c := 2 * qd / PI * rate ^ 2).
  assert (C0 : 0 <= c).
  { apply Rmult_le_pos; [|apply pow2_ge_0]. apply Rmult_le_pos; [lra|left; now apply Rinv_0_lt_compat]. }
  assert (L2 : 69314 / 100000 <= ln 2 <= 69315 / 100000) by (split; interval with (i_prec 60)).
  replace (2 * ln 2 * qd / (PI * t0 ^ 2)) with (c * ln 2) by (unfold c, t0; field; lra).
  rewrite pow2_sqrt by (apply Rmult_le_pos; lra). split; [unfold c, Rdiv; ring|].
  assert (LL : lim_avar3 - c * ln 2 = (c / INR m ^ 2) * ((4 * oddh m - oddh (2 * m)) / 8 - 2 * ((eh m - eh (2 * m)) * INR m ^ 2))).
  { assert (Q : 2 * (oddh (2 * m) - oddh m) = ln 2 - 2 * (eh m - eh (2 * m))) by (rewrite !oddh_eh, ln_INR2 by exact Hm; lra).
    unfold lim_avar3, O. change odd_harmonic with oddh. fold c. rewrite Q. field. lra. }
  rewrite LL. rewrite !(Rmult_comm _ (c / INR m ^ 2)). unfold O. change odd_harmonic with oddh.
  assert (D : 0 <= (eh m - eh (2 * m)) * INR m ^ 2 <= / 64).
  { pose proof (eh_12 m Hm) as [D1 D2]. pose proof (pow_lt _ 2 Mp). split; [apply Rmult_le_pos; lra|].
    apply Rle_trans with (/ 64 / INR m ^ 2 * INR m ^ 2); [apply Rmult_le_compat_r; lra|]. right. field. lra. }
  pose proof (oddh_12 m Hm) as D2.
  assert (0 <= c / INR m ^ 2) by (apply Rmult_le_pos; [exact C0|left; apply Rinv_0_lt_compat, pow_lt, Mp]).
  split; apply Rmult_le_compat_l; lra.
Qed.

Lemma scaled_12 : 0 <= (eh m - eh (2 * m)) * INR m ^ 2 <= / 64.
Proof using Hm.
  pose proof mp as Mp. pose proof (eh_12 m Hm) as [D1 D2]. pose proof (pow_lt _ 2 Mp). split; [apply Rmult_le_pos; lra|].
  apply Rle_trans with (/ 64 / INR m ^ 2 * INR m ^ 2); [apply Rmult_le_compat_r; lra|]. right. field. lra.
Qed.
Lemma scaled_23 : 0 <= (eh (2 * m) - eh (3 * m)) * INR m ^ 2 <= 5 / 1728.
Proof using Hm.
  pose proof mp as Mp. pose proof (eh_23 m Hm) as [D1 D2]. pose proof (pow_lt _ 2 Mp). split; [apply Rmult_le_pos; lra|].
  apply Rle_trans with (5 / 1728 / INR m ^ 2 * INR m ^ 2); [apply Rmult_le_compat_r; lra|]. right. field. lra.
Qed.

(** Noise.mdev for b = -1 *)
Theorem C109_mdev_fpm nr : exists p, noise_mdev (mkNoise nr qd (-1)) t0 tau = Ok p /\
  (5 / 2 * O m - 63 / 100) * (qd / (PI * tau ^ 2) / INR m ^ 2) <= lim_mvar1 - p ^ 2 <=
  (5 / 2 * O m - 33 / 100) * (qd / (PI * tau ^ 2) / INR m ^ 2).
Proof using Hq Hr Hm.
  pose proof t0_pos as T0. pose proof t0_tau as T1. pose proof mp as Mp. pose proof PI_RGT_0 as HP.
  eexists. split; [apply C68_mdev; [exact Hq|exact T0|lra|apply mv_fpm]|]. 
  set (c := qd / (PI * tau ^ 2)).
  assert (C0 : 0 <= c).
  { apply Rmult_le_pos; [exact Hq|]. left. apply Rinv_0_lt_compat, Rmult_lt_0_compat; [exact HP|]. apply pow_lt. lra. }
  assert (L2 : 69314 / 100000 <= ln 2 <= 69315 / 100000) by (split; interval with (i_prec 60)).
  assert (L3 : 109861 / 100000 <= ln 3 <= 109862 / 100000) by (split; interval with (i_prec 60)).
  replace ((24 * ln 2 - 9 * ln 3) * qd / (2 * PI * tau ^ 2)) with (c * ((24 * ln 2 - 9 * ln 3) / 2)) by (unfold c; field; lra).
  rewrite pow2_sqrt by (apply Rmult_le_pos; lra).
  assert (LL : lim_mvar1 - c * ((24 * ln 2 - 9 * ln 3) / 2) = (c / INR m ^ 2) * ((15 * oddh m - 6 * oddh (2 * m) + oddh (3 * m)) / 4
     - 15 * ((eh m - eh (2 * m)) * INR m ^ 2) + 9 * ((eh (2 * m) - eh (3 * m)) * INR m ^ 2))).
  { assert (Q : 24 * oddh (2 * m) - 15 * oddh m - 9 * oddh (3 * m) =
       (24 * ln 2 - 9 * ln 3) / 2 - 15 * (eh m - eh (2 * m)) + 9 * (eh (2 * m) - eh (3 * m)))
      by (rewrite !oddh_eh, ln_INR2, ln_INR3 by exact Hm; lra).
    unfold lim_mvar1, O. change odd_harmonic with oddh. fold c. rewrite Q. field. lra. }
  rewrite LL. rewrite !(Rmult_comm _ (c / INR m ^ 2)). unfold O. change odd_harmonic with oddh.
  pose proof scaled_12. pose proof scaled_23. pose proof (oddh_12 m Hm). pose proof (oddh_13 m Hm).
  assert (0 <= c / INR m ^ 2) by (apply Rmult_le_pos; [exact C0|left; apply Rinv_0_lt_compat, pow_lt, Mp]).
  split; apply Rmult_le_compat_l; lra.
Qed.

(** Noise.mdev for b = -3: the factor (27/20) ln 2 in the code is (27 ln 3 - 32 ln 2)/8, rounded. *)
Theorem C109_mdev_ffm nr : exists p, noise_mdev (mkNoise nr qd (-3)) t0 tau = Ok p /\
  (60 / 100 / INR m ^ 2 - 53 / 100000) * (qd / PI * rate ^ 2) <= lim_mvar3 - p ^ 2 <=
  (114 / 100 / INR m ^ 2 - 52 / 100000) * (qd / PI * rate ^ 2).
Proof using Hq Hr Hm.
  pose proof t0_pos as T0. pose proof t0_tau as T1. pose proof mp as Mp. pose proof PI_RGT_0 as HP.
  eexists. split; [apply C68_mdev; [exact Hq|exact T0|lra|apply mv_ffm]|]. 
  set (c := qd / PI * rate ^ 2).
  assert (C0 : 0 <= c).
  { apply Rmult_le_pos; [|apply pow2_ge_0]. apply Rmult_le_pos; [lra|left; now apply Rinv_0_lt_compat]. }
  assert (L2 : 69314 / 100000 <= ln 2 <= 69315 / 100000) by (split; interval with (i_prec 60)).
  assert (L3 : 109861 / 100000 <= ln 3 <= 109862 / 100000) by (split; interval with (i_prec 60)).
  assert (L23 : 52 / 100000 <= 27 / 20 * ln 2 - (27 * ln 3 - 32 * ln 2) / 8 <= 53 / 100000) by (split; interval with (i_prec 60)).
  replace (27 / 20 * ln 2 * qd / (PI * t0 ^ 2)) with (c * (27 / 20 * ln 2)) by (unfold c, t0; field; lra).
  rewrite pow2_sqrt by (apply Rmult_le_pos; lra).
  set (i2 := / INR m ^ 2). assert (I0 : 0 < i2) by (apply Rinv_0_lt_compat, pow_lt, Mp).
  set (s12 := (eh m - eh (2 * m)) * INR m ^ 2). set (s23 := (eh (2 * m) - eh (3 * m)) * INR m ^ 2).
  pose proof scaled_12 as S12. pose proof scaled_23 as S23. fold s12 in S12. fold s23 in S23.
  set (h := 15 * oddh m - 6 * oddh (2 * m) + oddh (3 * m)).
  assert (M1 : 1 <= INR m) by (apply (le_INR 1), Hm).
  assert (H0 : 0 <= h * i2 <= 86 / 10).
  { pose proof (oddh_12 m Hm). pose proof (oddh_13 m Hm). pose proof (oddh_le m). pose proof (oddh_ge1 m Hm).
    assert (h <= 86 / 10 * INR m ^ 2) by (unfold h; nra).
    split; [apply Rmult_le_pos; [unfold h; lra|lra]|]. apply (Rmult_le_reg_r (INR m ^ 2)); [apply pow_lt, Mp|].
    unfold i2. rewrite Rmult_assoc, Rinv_l, Rmult_1_r by (pose proof (pow_lt _ 2 Mp); lra). lra. }
  assert (I1 : i2 <= 1) by (unfold i2; rewrite <- Rinv_1; apply Rinv_le_contravar; nra).
  set (y := (15 * s12 - 81 * s23) / 12 + 5 / 24 * ((24 * ln 2 - 9 * ln 3) / 2 - 15 * s12 * i2 + 9 * s23 * i2) + 3 / 64 * (h * i2)).
  assert (LL : lim_mvar3 - c * (27 / 20 * ln 2) = c * (i2 * y - (27 / 20 * ln 2 - (27 * ln 3 - 32 * ln 2) / 8))).
  { assert (Q : 24 * oddh (2 * m) - 15 * oddh m - 9 * oddh (3 * m) =
       (24 * ln 2 - 9 * ln 3) / 2 - 15 * (eh m - eh (2 * m)) + 9 * (eh (2 * m) - eh (3 * m)))
      by (rewrite !oddh_eh, ln_INR2, ln_INR3 by exact Hm; lra).
    assert (Q2 : 15 * oddh m - 96 * oddh (2 * m) + 81 * oddh (3 * m) =
       3 / 2 * (27 * ln 3 - 32 * ln 2) + 15 * (eh m - eh (2 * m)) - 81 * (eh (2 * m) - eh (3 * m)))
      by (rewrite !oddh_eh, ln_INR2, ln_INR3 by exact Hm; lra).
    assert (Q' : 15 * oddh m - 24 * oddh (2 * m) + 9 * oddh (3 * m) =
       - ((24 * ln 2 - 9 * ln 3) / 2 - 15 * (eh m - eh (2 * m)) + 9 * (eh (2 * m) - eh (3 * m)))) by lra.
    unfold lim_mvar3, O. change odd_harmonic with oddh. fold h. rewrite Q2, Q'. unfold y, s12, s23, i2, c. field. lra. }
  assert (Y : 60 / 100 <= y <= 114 / 100).
  { assert (0 <= s12 * i2 <= / 64) by (split; [apply Rmult_le_pos; lra|]; apply Rle_trans with (s12 * 1); [apply Rmult_le_compat_l|]; lra).
    assert (0 <= s23 * i2 <= 5 / 1728) by (split; [apply Rmult_le_pos; lra|]; apply Rle_trans with (s23 * 1); [apply Rmult_le_compat_l|]; lra).
    unfold y. split; lra. }
  rewrite LL. rewrite !(Rmult_comm _ c). unfold Rdiv at 2. fold i2. unfold Rdiv at 8. fold i2.
  assert (60 / 100 * i2 <= i2 * y <= 114 / 100 * i2).
  { rewrite (Rmult_comm i2). split; apply Rmult_le_compat_r; lra. }
  split; apply Rmult_le_compat_l; try exact C0; unfold i2 in *; lra.
Qed.
End T.

(** ** Random-walk frequency noise (b = -4): exact for every record length *)
Lemma qf_m2 a P k : bigsum P a = 0 -> qf (-2) a P k = - dbl P a INR / 2.
Proof.
  intro H0. rewrite qf_exp.
  assert (C : forall s t, (s < P)%nat -> (t < P)%nat ->
    bigsum (k + P) (fun j => coef (-2) (k + s) j * coef (-2) (k + t) j) = INR k + 1 + INR s / 2 + INR t / 2 - INR (nd s t) / 2).
  { assert (C : forall s t, (s <= t)%nat -> (t < P)%nat ->
      bigsum (k + P) (fun j => coef (-2) (k + s) j * coef (-2) (k + t) j) = INR k + 1 + INR s / 2 + INR t / 2 - INR (nd s t) / 2).
    { intros s t Hs Ht. rewrite cov_m2 by lia. unfold nd. replace (s - t + (t - s))%nat with (t - s)%nat by lia.
      rewrite minus_INR, plus_INR by lia. lra. }
    intros s t Hs Ht. destruct (Nat.le_ge_cases s t) as [H|H]; [now apply C|].
    rewrite cov_sym, C by assumption. rewrite nd_sym. lra. }
  transitivity (bigsum P (fun s => a s * ((INR k + 1 + INR s / 2) * bigsum P a) + a s * bigsum P (fun t => a t * (INR t / 2)))
    - dbl P a INR / 2).
  - unfold dbl. unfold Rdiv at 3. rewrite <- bigsum_scal_r, <- bigsum_minus. apply bigsum_ext. intros s Hs.
    rewrite <- bigsum_scal, <- bigsum_scal_r, <- !bigsum_scal, <- bigsum_plus, <- bigsum_minus. apply bigsum_ext. intros t Ht.
    rewrite C by assumption. field.
  - rewrite bigsum_plus. rewrite (bigsum_0 P (fun s => a s * ((INR k + 1 + INR s / 2) * bigsum P a))) by (intros; rewrite H0; ring).
    rewrite bigsum_scal_r, H0. field.
Qed.
Definition rG (n : nat) : R := (INR n ^ 3 - INR n) / 6.
Definition rH (n : nat) : R := INR n * (INR n ^ 2 - 1) * (INR n ^ 2 - 4) / 120.
Lemma rG_diff : diff2 rG INR.
Proof. split; [unfold rG; cbn [INR]; field|]. intro n. unfold rG. rewrite !S_INR. field. Qed.
Lemma rH_diff : diff2 rH rG.
Proof. split; [unfold rG, rH; cbn [INR]; field|]. intro n. unfold rG, rH. rewrite !S_INR. field. Qed.
Lemma qf_m4 a P k : bigsum (S P) a = 0 -> bigsum (S P) (fun s => INR s * a s) = 0 ->
  qf (-4) a (S P) k = dbl (S P) a rG / 2.
Proof.
  intros H0 H1. replace (-4) with (-2 - 2) by ring. rewrite qf_int, qf_m2 by (rewrite ?tl_total; assumption).
  rewrite (dbl_int rG INR a P rG_diff H0). field.
Qed.

(** Expected squared mdev, and how far Noise.mdev is from it. *)
Theorem C109_mdev_rwfm nr E qd rate m : white nr E -> 0 <= qd -> 0 < rate -> (1 <= m)%nat -> (3 * m + 1 <= nr)%nat ->
  exists p, noise_mdev (mkNoise nr qd (-4)) (1 / rate) (INR m / rate) = Ok p /\
  edev E nr qd (-4) mdev rate m = p ^ 2 * (1 + 5 / (11 * INR m ^ 2) + 4 / (11 * INR m ^ 4)).
Proof.
  intros HE Hq Hr Hm Hn. assert (Mp : 0 < INR m) by (apply lt_0_INR; lia).
  assert (T0 : 0 < 1 / rate) by (apply Rdiv_lt_0_compat; lra). assert (T1 : 0 < INR m / rate) by (apply Rdiv_lt_0_compat; lra).
  eexists. split; [apply C68_mdev; [exact Hq|exact T0|exact T1|apply mv_rwfm]|].
  rewrite pow2_sqrt.
  2:{ apply Rmult_le_pos; [|left; apply Rinv_0_lt_compat, pow_lt, T0]. apply Rmult_le_pos; lra. }
  rewrite (mvar_forms qd rate (-4) m Hq Hr Hm nr E HE Hn).
  rewrite (bigsum_ext _ _ (fun _ => (15 * rH m - 6 * rH (2 * m) + rH (3 * m)))).
  - rewrite bigsum_const. unfold rH. rewrite !mult_INR. change (INR 2) with 2. replace (INR 3) with 3 by (cbn; lra).
    assert (0 < INR (nr - 3 * m + 1)) by (apply lt_0_INR; lia). field. lra.
  - intros i Hi. replace (3 * m)%nat with (S (3 * m - 1)) at 1 by lia. rewrite qf_m4.
    + replace (S (3 * m - 1)) with (3 * m)%nat by lia. rewrite (wm_dbl m rH rG rH_diff); [field|]. unfold rH. cbn [INR]. field.
    + replace (S (3 * m - 1)) with (3 * m)%nat by lia. apply wm_0.
    + replace (S (3 * m - 1)) with (3 * m)%nat by lia. apply wm_1.
Qed.

(** The factor (27/20) ln 2 used by Noise.mdev for b = -3 is not the limit of any record: from m = 64 on the
    expectation stays below the prediction, however long the record. *)
Theorem C109_mdev_ffm_refuted nr E m : white nr E -> (64 <= m)%nat -> (3 * m + 1 <= nr)%nat ->
  exists p, noise_mdev (mkNoise nr 1 (-3)) (1 / 1) (INR m / 1) = Ok p /\
  edev E nr 1 (-3) mdev 1 m <= p ^ 2 - 1 / 10000 * p ^ 2.
Proof.
  intros HE Hm Hn. destruct (C109_mdev_ffm 1 1 m ltac:(lra) ltac:(lra) ltac:(lia) nr) as [p [E1 [_ U]]].
  exists p. split; [exact E1|].
  destruct (C109_flicker_frequency 1 1 m ltac:(lra) ltac:(lra) ltac:(lia)) as [_ [_ [_ [_ [G _]]]]].
  apply Rle_trans with (1 := G nr E HE Hn).
  assert (P2 : p ^ 2 = 27 / 20 * ln 2 / PI).
  { assert (T : 0 < INR m / 1) by (apply Rdiv_lt_0_compat; [apply lt_0_INR; lia|lra]).
    rewrite (C68_mdev nr 1 (-3) (1 / 1) (INR m / 1) _ ltac:(lra) ltac:(lra) T (mv_ffm _ _ _)) in E1. injection E1 as <-.
    pose proof PI_RGT_0 as HP. assert (0 < ln 2) by (rewrite <- ln_1; apply ln_increasing; lra).
    rewrite pow2_sqrt; [field; lra|]. apply Rmult_le_pos; [lra|]. left. apply Rinv_0_lt_compat. nra. }
  rewrite P2 in *. pose proof PI_RGT_0 as HP.
  assert (M : 64 <= INR m) by (replace 64 with (INR 64) by (cbn; lra); now apply le_INR).
  assert (M2 : / INR m ^ 2 <= / 4096) by (apply Rinv_le_contravar; nra).
  assert (L2 : ln 2 <= 69315 / 100000) by interval with (i_prec 60).
  assert (I : 0 < / PI) by now apply Rinv_0_lt_compat.
  assert (Q : (114 / 100 / INR m ^ 2 - 52 / 100000) * (1 / PI * 1 ^ 2) <= - (1 / 10000) * (27 / 20 * ln 2 / PI)); [|lra].
  replace ((114 / 100 / INR m ^ 2 - 52 / 100000) * (1 / PI * 1 ^ 2)) with ((114 / 100 * / INR m ^ 2 - 52 / 100000) * / PI) by (unfold Rdiv; ring).
  replace (- (1 / 10000) * (27 / 20 * ln 2 / PI)) with ((- (1 / 10000) * (27 / 20 * ln 2)) * / PI) by (unfold Rdiv; ring).
  apply Rmult_le_compat_r; lra.
Qed.

(** ** Example: unit flicker frequency noise at one sample per second *)
Example C109_ex1 : grows_to 4 (fun E nr => edev E nr 1 (-3) oadev 1 1) (2 / PI).
Proof.
  destruct (C109_flicker_frequency 1 1 1 ltac:(lra) ltac:(lra) ltac:(lia)) as [H _].
  replace (2 / PI) with (lim_avar3 1 1 1); [exact H|]. pose proof PI_RGT_0.
  unfold lim_avar3, odd_harmonic. cbn [bigsum Nat.mul Nat.add INR]. field. lra.
Qed.
Example C109_ex2 : grows_to 4 (fun E nr => edev E nr 1 (-1) adev 1 1) (16 / (3 * PI)).
Proof.
  destruct (C109_flicker_phase 1 1 1 ltac:(lra) ltac:(lra) ltac:(lia)) as [_ [H _]].
  replace (16 / (3 * PI)) with (lim_avar1 1 1 1); [exact H|]. pose proof PI_RGT_0.
  unfold lim_avar1, odd_harmonic. cbn [bigsum Nat.mul Nat.add INR]. field. lra.
Qed.
Example C109_ex3 : white 8 (signs 8) /\ edev (signs 8) 8 1 (-3) oadev 1 1 <= 2 / PI.
Proof. split; [apply signs_white|]. apply (proj1 C109_ex1); [apply signs_white|lia]. Qed.

Print Assumptions C109_flicker_phase.
Print Assumptions C109_flicker_frequency.
Print Assumptions C109_adev_fpm.
Print Assumptions C109_adev_ffm.
Print Assumptions C109_mdev_fpm.
Print Assumptions C109_mdev_ffm.
Print Assumptions C109_mdev_rwfm.
Print Assumptions C109_mdev_ffm_refuted.
