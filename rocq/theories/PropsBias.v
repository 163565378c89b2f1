(** * Expected value of the other estimators on the generated power-law noises (C85).

    PropsExpect.v gives the expectation of the squared Allan and modified Allan
    deviation of the records of noise_kasdin.Noise.  Here the same for hdev, ohdev,
    pdev, totdev, theo1 and tierms (allantools/allantools.py), as the expectation of
    the square of the number the function returns, so that the bias of each
    estimator against the Allan variance of the same noise is exact. *)
From Coq Require Import String Reals List ZArith Bool Arith Lia Lra.
From Verif Require Import Base Num NpList NumR Spec ListFacts RSum Dft ModelCore ModelDev ModelNoise ModelNoiseR
  DevProofs TotProofs Laws2 Laws3 ConvProofs NoiseProofs PropsKasdin PropsPredict PropsExpect PropsDev.
Import ListNotations.
Local Open Scope R_scope.
Local Notation len := List.length.

(** ** Specification *)

(** Square of the single reported deviation (0 stands for an exception or another
    number of rows; neither occurs below). *)
Definition dev2 (r : res (@result R)) : R :=
  match r with Ok (_, [d], _, _) => d ^ 2 | _ => 0 end.

(** Expected square of the deviation which the function [f] reports at tau = m/rate
    for a generated record of nr points of slope b and discrete variance qd. *)
Definition edev (E : ((nat -> R) -> R) -> R) (nr : nat) (qd b : R)
    (f : list R -> R -> string -> taus_arg R -> res (@result R)) (rate : R) (m : nat) : R :=
  E (fun w => dev2 (f (record nr qd b w) rate "phase"%string (TList [INR m / rate]))).

(** ** Covariances of the generated record *)
Definition wcov (b : R) (K L : R) : R := (* K <= L *)
  if Req_EM_T b (-2) then K + 1
  else (K + 1) * (K + 2) * (2 * K + 3) / 6 + (L - K) * (K + 1) * (K + 2) / 2.

Lemma sum_dd n d : bigsum n (fun t => (INR t + 1) * (INR t + 1 + d)) =
  INR n * (INR n + 1) * (2 * INR n + 1) / 6 + d * INR n * (INR n + 1) / 2.
Proof. induction n as [|n IH]; cbn [bigsum]; [cbn; field|]. rewrite IH, S_INR. field. Qed.

Lemma cov_m2 nr k l : (k <= l)%nat -> (l < nr)%nat ->
  bigsum nr (fun j => coef (-2) k j * coef (-2) l j) = INR k + 1.
Proof.
  intros Hk Hl. replace nr with (S k + (nr - S k))%nat by lia. rewrite bigsum_add.
  rewrite (bigsum_0 (nr - S k)).
  - rewrite (bigsum_ext (S k) _ (fun _ => 1)).
    + rewrite bigsum_const, S_INR. ring.
    + intros j Hj. rewrite !coef_m2. destruct (Nat.leb_spec j k), (Nat.leb_spec j l); try lia. ring.
  - intros j Hj. rewrite !coef_m2. destruct (Nat.leb_spec (S k + j) k); try lia. ring.
Qed.

Lemma cov_m4 nr k l : (k <= l)%nat -> (l < nr)%nat ->
  bigsum nr (fun j => coef (-4) k j * coef (-4) l j) =
  (INR k + 1) * (INR k + 2) * (2 * INR k + 3) / 6 + (INR l - INR k) * (INR k + 1) * (INR k + 2) / 2.
Proof.
  intros Hk Hl. replace nr with (S k + (nr - S k))%nat by lia. rewrite bigsum_add.
  rewrite (bigsum_0 (nr - S k)).
  - rewrite <- (bigsum_rev (S k)).
    rewrite (bigsum_ext (S k) _ (fun t => (INR t + 1) * (INR t + 1 + (INR l - INR k)))).
    + rewrite sum_dd, S_INR. field.
    + intros j Hj. rewrite !coef_m4. replace (S k - (S k - 1 - j))%nat with (S j) by lia.
      replace (S l - (S k - 1 - j))%nat with (S j + (l - k))%nat by lia.
      rewrite plus_INR, !S_INR, minus_INR by lia. ring.
  - intros j Hj. rewrite !coef_m4. replace (S k - (S k + j))%nat with 0%nat by lia. cbn. ring.
Qed.

Lemma cov_sym nr b k l : bigsum nr (fun j => coef b k j * coef b l j) = bigsum nr (fun j => coef b l j * coef b k j).
Proof. apply bigsum_ext. intros. ring. Qed.

Lemma cov_0 nr k l : (k < nr)%nat ->
  bigsum nr (fun j => coef 0 k j * coef 0 l j) = if Nat.eqb k l then 1 else 0.
Proof.
  intro Hk.
  rewrite (bigsum_ext nr _ (fun j => (fun j => coef 0 l j) j * (if Nat.eqb k j then 1 else 0)))
    by (intros j Hj; rewrite (coef_0 k j); ring).
  rewrite (bigsum_pick nr k (fun j => coef 0 l j)) by exact Hk. rewrite coef_0, Nat.eqb_sym. reflexivity.
Qed.

(** sum of squares of a four-term combination in terms of the covariances *)
Lemma quad4 nr b a0 a1 a2 a3 k0 k1 k2 k3 :
  let V k l := bigsum nr (fun j => coef b k j * coef b l j) in
  bigsum nr (fun j => (a0 * coef b k0 j + a1 * coef b k1 j + a2 * coef b k2 j + a3 * coef b k3 j) ^ 2) =
  a0 ^ 2 * V k0 k0 + a1 ^ 2 * V k1 k1 + a2 ^ 2 * V k2 k2 + a3 ^ 2 * V k3 k3
  + 2 * a0 * a1 * V k0 k1 + 2 * a0 * a2 * V k0 k2 + 2 * a0 * a3 * V k0 k3
  + 2 * a1 * a2 * V k1 k2 + 2 * a1 * a3 * V k1 k3 + 2 * a2 * a3 * V k2 k3.
Proof.
  intro V. unfold V. rewrite <- !bigsum_scal, <- !bigsum_plus. apply bigsum_ext. intros j Hj. ring.
Qed.

Section B.
Variable nr : nat.
Variable E : ((nat -> R) -> R) -> R.
Hypothesis HE : white nr E.
Variable qd : R.
Hypothesis Hq : 0 <= qd.

(** variance of a four-term combination of record points *)
Lemma E_comb b a0 a1 a2 a3 k0 k1 k2 k3 :
  (k0 < nr)%nat -> (k1 < nr)%nat -> (k2 < nr)%nat -> (k3 < nr)%nat ->
  E (fun w => let x := record nr qd b w in (a0 * x.[k0] + a1 * x.[k1] + a2 * x.[k2] + a3 * x.[k3]) ^ 2) =
  qd * bigsum nr (fun j => (a0 * coef b k0 j + a1 * coef b k1 j + a2 * coef b k2 j + a3 * coef b k3 j) ^ 2).
Proof.
  intros H0 H1 H2 H3. cbv zeta.
  rewrite (E_sq nr E HE qd _ (fun j => a0 * coef b k0 j + a1 * coef b k1 j + a2 * coef b k2 j + a3 * coef b k3 j) Hq);
    [reflexivity|].
  intro w. rewrite !record_nth by lia.
  rewrite (bigsum_ext nr (fun j => (a0 * coef b k0 j + a1 * coef b k1 j + a2 * coef b k2 j + a3 * coef b k3 j) * w j)
    (fun j => a0 * (coef b k0 j * w j) + a1 * (coef b k1 j * w j) + a2 * (coef b k2 j * w j) + a3 * (coef b k3 j * w j)))
    by (intros; ring).
  rewrite !bigsum_plus, !bigsum_scal. ring.
Qed.

(** ordered points: white frequency and random walk frequency noise *)
Lemma comb_ord b a0 a1 a2 a3 k0 k1 k2 k3 : b = -2 \/ b = -4 ->
  (k0 <= k1)%nat -> (k1 <= k2)%nat -> (k2 <= k3)%nat -> (k3 < nr)%nat ->
  let V k l := wcov b (INR k) (INR l) in
  E (fun w => let x := record nr qd b w in (a0 * x.[k0] + a1 * x.[k1] + a2 * x.[k2] + a3 * x.[k3]) ^ 2) =
  qd * (a0 ^ 2 * V k0 k0 + a1 ^ 2 * V k1 k1 + a2 ^ 2 * V k2 k2 + a3 ^ 2 * V k3 k3
  + 2 * a0 * a1 * V k0 k1 + 2 * a0 * a2 * V k0 k2 + 2 * a0 * a3 * V k0 k3
  + 2 * a1 * a2 * V k1 k2 + 2 * a1 * a3 * V k1 k3 + 2 * a2 * a3 * V k2 k3).
Proof.
  intros Hb H0 H1 H2 H3 V. rewrite E_comb by lia. rewrite quad4. unfold V, wcov.
  destruct Hb as [ -> | -> ].
  - destruct (Req_EM_T (-2) (-2)) as [_|N]; [|contradiction]. now rewrite !cov_m2 by lia.
  - destruct (Req_EM_T (-4) (-2)) as [N|_]; [lra|]. now rewrite !cov_m4 by lia.
Qed.

(** distinct points: white phase noise *)
Lemma comb_wpm a0 a1 a2 a3 k0 k1 k2 k3 :
  (k0 < nr)%nat -> (k1 < nr)%nat -> (k2 < nr)%nat -> (k3 < nr)%nat ->
  let D (k l : nat) := if Nat.eqb k l then 1 else 0 in
  E (fun w => let x := record nr qd 0 w in (a0 * x.[k0] + a1 * x.[k1] + a2 * x.[k2] + a3 * x.[k3]) ^ 2) =
  qd * (a0 ^ 2 + a1 ^ 2 + a2 ^ 2 + a3 ^ 2
  + 2 * a0 * a1 * D k0 k1 + 2 * a0 * a2 * D k0 k2 + 2 * a0 * a3 * D k0 k3
  + 2 * a1 * a2 * D k1 k2 + 2 * a1 * a3 * D k1 k3 + 2 * a2 * a3 * D k2 k3).
Proof.
  intros H0 H1 H2 H3 D. rewrite E_comb by lia. rewrite quad4. unfold D.
  rewrite !cov_0 by lia. rewrite !Nat.eqb_refl. ring.
Qed.

(** average of n equal expectations *)
Lemma E_mean c n v (g : nat -> (nat -> R) -> R) : 
  (forall i, (i < n)%nat -> E (g i) = v) ->
  E (fun w => c * bigsum n (fun i => g i w)) = c * (INR n * v).
Proof.
  intro H. rewrite (wh_scal _ E HE c (fun w => bigsum n (fun i => g i w))).
  rewrite (E_sum _ E HE n g). rewrite (bigsum_ext n _ (fun _ => v)) by exact H. now rewrite bigsum_const.
Qed.

(** ** Hadamard *)
Definition v3 (b : R) (m : nat) : R :=
  if Req_EM_T b 0 then 20 else if Req_EM_T b (-2) then 6 * INR m else INR m * (INR m ^ 2 + 1).

Lemma E_d3 b m i : b = 0 \/ b = -2 \/ b = -4 -> (1 <= m)%nat -> (i + 3 * m < nr)%nat ->
  E (fun w => (d3 (record nr qd b w) m i) ^ 2) = qd * v3 b m.
Proof.
  intros Hb Hm Hi.
  rewrite (wh_ext _ E HE _ (fun w => let x := record nr qd b w in
    (-1 * x.[i] + 3 * x.[i + m] + -3 * x.[i + 2 * m] + 1 * x.[i + 3 * m]) ^ 2))
    by (intro w; unfold d3; cbv zeta; ring).
  unfold v3. destruct Hb as [ -> |Hb].
  - destruct (Req_EM_T 0 0) as [_|N]; [|contradiction]. rewrite comb_wpm by lia.
    repeat match goal with |- context [Nat.eqb ?p ?q] => destruct (Nat.eqb_spec p q); [lia|] end. ring.
  - destruct (Req_EM_T b 0) as [N|_]; [lra|]. rewrite comb_ord by (tauto || lia).
    rewrite !plus_INR, !mult_INR. change (INR 2) with 2. replace (INR 3) with 3 by (cbn; lra).
    unfold wcov. destruct Hb as [ -> | -> ].
    + destruct (Req_EM_T (-2) (-2)) as [_|N]; [|contradiction]. ring.
    + destruct (Req_EM_T (-4) (-2)) as [N|_]; [lra|]. field.
Qed.

Lemma E_ohvar b m tau0 : b = 0 \/ b = -2 \/ b = -4 -> 0 < tau0 -> (1 <= m)%nat -> (3 * m < nr)%nat ->
  E (fun w => ohvar (record nr qd b w) tau0 m) = qd * v3 b m / (6 * (INR m * tau0) ^ 2).
Proof.
  intros Hb Ht Hm Hn. assert (Hmp : 0 < INR m) by (apply lt_0_INR; lia).
  assert (Hnp : 0 < INR (nr - 3 * m)) by (apply lt_0_INR; lia).
  rewrite (wh_ext _ E HE _ (fun w => / (6 * (INR m * tau0) ^ 2 * INR (nr - 3 * m)) *
    bigsum (nr - 3 * m) (fun i => (fun i w => (d3 (record nr qd b w) m i) ^ 2) i w)))
    by (intro w; unfold ohvar, ohdev_n; now rewrite record_len by lia).
  rewrite (E_mean _ _ (qd * v3 b m)) by (intros i Hi; apply E_d3; auto; lia). field. lra.
Qed.

Lemma E_hvar b m tau0 : b = 0 \/ b = -2 \/ b = -4 -> 0 < tau0 -> (1 <= m)%nat -> (3 * m < nr)%nat ->
  E (fun w => hvar (record nr qd b w) tau0 m) = qd * v3 b m / (6 * (INR m * tau0) ^ 2).
Proof.
  intros Hb Ht Hm Hn. assert (Hmp : 0 < INR m) by (apply lt_0_INR; lia).
  assert (Hd : (3 <= (nr - 1) / m)%nat) by (apply Nat.div_le_lower_bound; lia).
  set (n := ((nr - 1) / m - 2)%nat).
  assert (Hnp : 0 < INR n) by (apply lt_0_INR; lia).
  rewrite (wh_ext _ E HE _ (fun w => / (6 * (INR m * tau0) ^ 2 * INR n) *
    bigsum n (fun i => (fun i w => (d3 (record nr qd b w) m (i * m)) ^ 2) i w)))
    by (intro w; unfold hvar, hdev_n; now rewrite record_len by lia).
  rewrite (E_mean _ _ (qd * v3 b m)); [field; lra|].
  intros i Hi. apply E_d3; auto.
  assert (((nr - 1) / m * m <= nr - 1)%nat) by (rewrite Nat.mul_comm; apply Nat.mul_div_le; lia).
  unfold n in Hi. nia.
Qed.

(** ** TIErms *)
Definition v1 (b : R) (m : nat) : R := if Req_EM_T b 0 then 2 else INR m.
Lemma E_tierms b m : b = 0 \/ b = -2 -> (1 <= m)%nat -> (m < nr)%nat ->
  E (fun w => tierms_var (record nr qd b w) m) = qd * v1 b m.
Proof.
  intros Hb Hm Hn. assert (Hnp : 0 < INR (nr - m)) by (apply lt_0_INR; lia).
  rewrite (wh_ext _ E HE _ (fun w => / INR (nr - m) *
    bigsum (nr - m) (fun i => (fun i w => ((record nr qd b w).[i + m] - (record nr qd b w).[i]) ^ 2) i w)))
    by (intro w; unfold tierms_var; now rewrite record_len by lia).
  rewrite (E_mean _ _ (qd * v1 b m)); [field; lra|].
  intros i Hi. cbv beta.
  rewrite (wh_ext _ E HE _ (fun w => let x := record nr qd b w in
    (-1 * x.[i] + 1 * x.[i + m] + 0 * x.[i + m] + 0 * x.[i + m]) ^ 2)) by (intro w; cbv zeta; ring).
  unfold v1. destruct Hb as [ -> | -> ].
  - destruct (Req_EM_T 0 0) as [_|N]; [|contradiction]. rewrite comb_wpm by lia.
    rewrite !Nat.eqb_refl. destruct (Nat.eqb_spec i (i + m)); [lia|]. ring.
  - destruct (Req_EM_T (-2) 0) as [N|_]; [lra|]. rewrite comb_ord by (tauto || lia).
    unfold wcov. destruct (Req_EM_T (-2) (-2)) as [_|N]; [|contradiction]. rewrite plus_INR. ring.
Qed.

(** ** Theo1 *)
(** expected square of one bracket with e = h - d *)
Definition vt (b : R) (h e : R) : R :=
  if Req_EM_T b (-2) then 2 * e else e * (2 * e ^ 2 + 1) / 3 + 2 * (h - e) * e ^ 2.
Lemma E_bracket b h d i : b = -2 \/ b = -4 -> (d < h)%nat -> (i + 2 * h < nr)%nat ->
  E (fun w => let x := record nr qd b w in ((x.[i] - x.[i + h - d]) + (x.[i + 2 * h] - x.[i + h + d])) ^ 2) =
  qd * vt b (INR h) (INR h - INR d).
Proof.
  intros Hb Hd Hi.
  rewrite (wh_ext _ E HE _ (fun w => let x := record nr qd b w in
    (1 * x.[i] + -1 * x.[i + h - d] + -1 * x.[i + h + d] + 1 * x.[i + 2 * h]) ^ 2)) by (intro w; cbv zeta; ring).
  rewrite comb_ord by (tauto || lia). rewrite minus_INR by lia. rewrite !plus_INR, mult_INR. change (INR 2) with 2.
  unfold vt, wcov. destruct Hb as [ -> | -> ].
  - destruct (Req_EM_T (-2) (-2)) as [_|N]; [|contradiction]. ring.
  - destruct (Req_EM_T (-4) (-2)) as [N|_]; [lra|]. field.
Qed.
Lemma E_bracket_wpm h d i : (d < h)%nat -> (i + 2 * h < nr)%nat ->
  E (fun w => let x := record nr qd 0 w in ((x.[i] - x.[i + h - d]) + (x.[i + 2 * h] - x.[i + h + d])) ^ 2) =
  qd * (if Nat.eqb d 0 then 6 else 4).
Proof.
  intros Hd Hi.
  rewrite (wh_ext _ E HE _ (fun w => let x := record nr qd 0 w in
    (1 * x.[i] + -1 * x.[i + h - d] + -1 * x.[i + h + d] + 1 * x.[i + 2 * h]) ^ 2)) by (intro w; cbv zeta; ring).
  rewrite comb_wpm by lia.
  repeat match goal with |- context [Nat.eqb ?p ?q] => destruct (Nat.eqb_spec p q); try lia end; ring.
Qed.

(** weighted sum over the brackets of one window *)
Lemma E_theo1 b h tau0 v : 0 < tau0 -> (1 <= h)%nat -> (2 * h < nr)%nat ->
  (forall i, (i + 2 * h < nr)%nat -> bigsum h (fun d => / (INR h - INR d) *
     E (fun w => let x := record nr qd b w in ((x.[i] - x.[i + h - d]) + (x.[i + 2 * h] - x.[i + h + d])) ^ 2)) = qd * v) ->
  E (fun w => theo1var (record nr qd b w) tau0 (2 * h)) = qd * v / (3 / 4 * (INR (2 * h) * tau0) ^ 2).
Proof.
  intros Ht Hh Hn Hv. assert (Hmp : 0 < INR (2 * h)) by (apply lt_0_INR; lia).
  assert (Hnp : 0 < INR (nr - 2 * h)) by (apply lt_0_INR; lia).
  rewrite (wh_ext _ E HE _ (fun w => / (3 / 4 * INR (nr - 2 * h) * (INR (2 * h) * tau0) ^ 2) *
    bigsum (nr - 2 * h) (fun i => (fun i w => bigsum h (fun d => / (INR h - INR d) *
      (let x := record nr qd b w in ((x.[i] - x.[i + h - d]) + (x.[i + 2 * h] - x.[i + h + d])) ^ 2))) i w))).
  2:{ intro w. unfold theo1var. rewrite record_len by lia. replace (Nat.div2 (2 * h)) with h; [reflexivity|].
      symmetry. apply Nat.div2_double. }
  rewrite (E_mean _ _ (qd * v)); [field; lra|].
  intros i Hi. cbv beta.
  rewrite (E_sum _ E HE h (fun d w => / (INR h - INR d) *
      (let x := record nr qd b w in ((x.[i] - x.[i + h - d]) + (x.[i + 2 * h] - x.[i + h + d])) ^ 2))).
  rewrite <- (Hv i) by lia. apply bigsum_ext. intros d Hd.
  apply (wh_scal _ E HE (/ (INR h - INR d)) (fun w => let x := record nr qd b w in
    ((x.[i] - x.[i + h - d]) + (x.[i + 2 * h] - x.[i + h + d])) ^ 2)).
Qed.

(** ** Parabolic deviation *)
Lemma E_pvar b m tau0 v : 0 < tau0 -> (2 <= m)%nat -> (2 * m < nr)%nat ->
  (forall i, (i + 2 * m < nr)%nat ->
     bigsum nr (fun j => (bigsum m (fun k => ((INR m - 1) / 2 - INR k) * (coef b (i + k) j - coef b (i + k + m) j))) ^ 2) = v) ->
  E (fun w => pvar (record nr qd b w) tau0 m) = 72 * qd * v / (INR m ^ 4 * (INR m * tau0) ^ 2).
Proof.
  intros Ht Hm Hn Hv. assert (Hmp : 0 < INR m) by (apply lt_0_INR; lia).
  assert (Hnp : 0 < INR (nr - 2 * m)) by (apply lt_0_INR; lia).
  rewrite (wh_ext _ E HE _ (fun w => 72 / (INR (nr - 2 * m) * INR m ^ 4 * (INR m * tau0) ^ 2) *
    bigsum (nr - 2 * m) (fun i => (fun i w => (bigsum m (fun k => ((INR m - 1) / 2 - INR k) *
       ((record nr qd b w).[i + k] - (record nr qd b w).[i + k + m]))) ^ 2) i w))).
  2:{ intro w. unfold pvar, oadev_n. rewrite record_len by lia.
      destruct (Nat.eqb_spec m 1); [lia|reflexivity]. }
  rewrite (E_mean _ _ (qd * v)); [field; lra|].
  intros i Hi. cbv beta. rewrite <- (Hv i) by lia.
  apply (E_sq nr E HE qd _ (fun j => bigsum m (fun k => ((INR m - 1) / 2 - INR k) * (coef b (i + k) j - coef b (i + k + m) j))) Hq).
  intro w.
  rewrite (bigsum_ext m _ (fun k => sqrt qd * (((INR m - 1) / 2 - INR k) *
     bigsum nr (fun j => (coef b (i + k) j - coef b (i + k + m) j) * w j)))).
  - rewrite bigsum_scal. f_equal.
    rewrite (bigsum_ext m _ (fun k => bigsum nr (fun j => ((INR m - 1) / 2 - INR k) * ((coef b (i + k) j - coef b (i + k + m) j) * w j))))
      by (intros; now rewrite bigsum_scal).
    rewrite bigsum_swap. apply bigsum_ext. intros j Hj. rewrite <- bigsum_scal_r. apply bigsum_ext. intros; ring.
  - intros k Hk. rewrite !record_nth by lia.
    rewrite (bigsum_ext nr (fun j => (coef b (i + k) j - coef b (i + k + m) j) * w j)
       (fun j => coef b (i + k) j * w j - coef b (i + k + m) j * w j)) by (intros; ring).
    rewrite bigsum_minus. ring.
Qed.
End B.

(** ** Sums *)
Lemma sum_cu m : bigsum m (fun t => INR t ^ 3) = (INR m * (INR m - 1) / 2) ^ 2.
Proof. induction m as [|m IH]; cbn [bigsum]; [cbn; field|]. rewrite IH, S_INR. field. Qed.
Lemma sum_qu m : bigsum m (fun t => INR t ^ 4) =
  INR m * (INR m - 1) * (2 * INR m - 1) * (3 * INR m ^ 2 - 3 * INR m - 1) / 30.
Proof. induction m as [|m IH]; cbn [bigsum]; [cbn; field|]. rewrite IH, S_INR. field. Qed.

(** harmonic numbers *)
Definition harm (h : nat) : R := bigsum h (fun k => / (INR k + 1)).
Lemma harm_rev h : bigsum h (fun d => / (INR h - INR d)) = harm h.
Proof.
  unfold harm. rewrite <- (bigsum_rev h (fun k => / (INR k + 1))). apply bigsum_ext. intros d Hd.
  rewrite !minus_INR by lia. change (INR 1) with 1. f_equal. ring.
Qed.

(** ** Weights of the parabolic deviation *)
Lemma pw_pick m t (a : nat -> R) i j : j = (i + t)%nat -> (t < m)%nat ->
  bigsum m (fun k => a k * coef 0 (i + k) j) = a t.
Proof.
  intros -> Ht. rewrite <- (bigsum_pick m t a Ht). apply bigsum_ext. intros k Hk. rewrite coef_0. f_equal.
  destruct (Nat.eqb_spec (i + k) (i + t)), (Nat.eqb_spec t k); try lia; reflexivity.
Qed.
Lemma pw_none m (a : nat -> R) i j : (j < i \/ i + m <= j)%nat ->
  bigsum m (fun k => a k * coef 0 (i + k) j) = 0.
Proof.
  intro H. apply bigsum_0. intros k Hk. rewrite coef_0.
  destruct (Nat.eqb_spec (i + k) j); [lia|ring].
Qed.
Lemma pw_split b m (a : nat -> R) i j :
  bigsum m (fun k => a k * (coef b (i + k) j - coef b (i + k + m) j)) =
  bigsum m (fun k => a k * coef b (i + k) j) - bigsum m (fun k => a k * coef b (i + m + k) j).
Proof.
  rewrite <- bigsum_minus. apply bigsum_ext. intros k Hk. replace (i + k + m)%nat with (i + m + k)%nat by lia. ring.
Qed.

Lemma pvar_wpm nr m i : (i + 2 * m < nr)%nat ->
  bigsum nr (fun j => (bigsum m (fun k => ((INR m - 1) / 2 - INR k) * (coef 0 (i + k) j - coef 0 (i + k + m) j))) ^ 2)
  = INR m * (INR m ^ 2 - 1) / 6.
Proof.
  intro H. set (a := fun k => (INR m - 1) / 2 - INR k).
  rewrite (bigsum_ext nr _ (fun j => (bigsum m (fun k => a k * coef 0 (i + k) j) - bigsum m (fun k => a k * coef 0 (i + m + k) j)) ^ 2))
    by (intros j Hj; f_equal; apply (pw_split 0 m a i j)).
  rewrite (seg2 nr i m).
  - transitivity (bigsum m (fun t => a t ^ 2) + bigsum m (fun t => a t ^ 2)).
    { f_equal; apply bigsum_ext; intros t Ht.
      - rewrite (pw_pick m t a i (i + t)) by lia. rewrite (pw_none m a (i + m) (i + t)) by lia. ring.
      - rewrite (pw_pick m t a (i + m) (i + m + t)) by lia. rewrite (pw_none m a i (i + m + t)) by lia. ring. }
    rewrite (bigsum_ext m (fun t => a t ^ 2) (fun t => ((INR m - 1) / 2) ^ 2 - (INR m - 1) * INR t + INR t ^ 2))
      by (intros t Ht; unfold a; field).
    rewrite bigsum_plus, bigsum_minus, bigsum_const, bigsum_scal, sum_id, sum_sq. field.
  - lia.
  - intros j Hj. rewrite !pw_none by lia. ring.
  - intros j Hj. rewrite !pw_none by lia. ring.
Qed.

Lemma pw_tail m t i j : j = (i + t)%nat -> (t <= m)%nat ->
  bigsum m (fun k => ((INR m - 1) / 2 - INR k) * coef (-2) (i + k) j) = - INR t * (INR m - INR t) / 2.
Proof.
  intros -> Ht. replace m with (t + (m - t))%nat at 1 by lia. rewrite bigsum_add, (bigsum_0 t).
  - rewrite (bigsum_ext (m - t) _ (fun s => ((INR m - 1) / 2 - INR t) - INR s)).
    + rewrite bigsum_minus, bigsum_const, sum_id, minus_INR by lia. field.
    + intros s Hs. rewrite coef_m2. destruct (Nat.leb_spec (i + t) (i + (t + s))); [|lia]. rewrite plus_INR. ring.
  - intros k Hk. rewrite coef_m2. destruct (Nat.leb_spec (i + t) (i + k)); [lia|]. ring.
Qed.
Lemma pw_below m i j : (j <= i)%nat ->
  bigsum m (fun k => ((INR m - 1) / 2 - INR k) * coef (-2) (i + k) j) = 0.
Proof.
  intro H. rewrite (bigsum_ext m _ (fun k => (INR m - 1) / 2 - INR k)).
  - rewrite bigsum_minus, bigsum_const, sum_id. field.
  - intros k Hk. rewrite coef_m2. destruct (Nat.leb_spec j (i + k)); [ring|lia].
Qed.
Lemma pw_above m i j : (i + m <= j)%nat ->
  bigsum m (fun k => ((INR m - 1) / 2 - INR k) * coef (-2) (i + k) j) = 0.
Proof.
  intro H. apply bigsum_0. intros k Hk. rewrite coef_m2. destruct (Nat.leb_spec j (i + k)); [lia|ring].
Qed.
Lemma pvar_wfm nr m i : (i + 2 * m < nr)%nat ->
  bigsum nr (fun j => (bigsum m (fun k => ((INR m - 1) / 2 - INR k) * (coef (-2) (i + k) j - coef (-2) (i + k + m) j))) ^ 2)
  = INR m * (INR m ^ 4 - 1) / 60.
Proof.
  intro H.
  rewrite (bigsum_ext nr _ (fun j => (bigsum m (fun k => ((INR m - 1) / 2 - INR k) * coef (-2) (i + k) j)
     - bigsum m (fun k => ((INR m - 1) / 2 - INR k) * coef (-2) (i + m + k) j)) ^ 2))
    by (intros j Hj; f_equal; apply (pw_split (-2) m (fun k => (INR m - 1) / 2 - INR k) i j)).
  rewrite (seg2 nr i m).
  - set (g := fun t : nat => INR m ^ 2 / 4 * INR t ^ 2 - INR m / 2 * INR t ^ 3 + / 4 * INR t ^ 4).
    transitivity (bigsum m g + bigsum m g).
    { f_equal; apply bigsum_ext; intros t Ht.
      - rewrite (pw_tail m t i (i + t)) by lia. rewrite (pw_below m (i + m) (i + t)) by lia. unfold g. field.
      - rewrite (pw_tail m t (i + m) (i + m + t)) by lia. rewrite (pw_above m i (i + m + t)) by lia.
        unfold g. field. }
    unfold g. rewrite bigsum_plus, bigsum_minus, !bigsum_scal, sum_sq, sum_cu, sum_qu. field.
  - lia.
  - intros j Hj. rewrite !pw_below by lia. ring.
  - intros j Hj. rewrite !pw_above by lia. ring.
Qed.

(** ** Total deviation *)
Definition v2 (b : R) (m : nat) : R :=
  if Req_EM_T b 0 then 6 else if Req_EM_T b (-2) then 2 * INR m else INR m * (2 * INR m ^ 2 + 1) / 3.
(** variance of the second difference centred i points from an end, 1 <= i < m *)
Definition vedge (b : R) (m i : nat) : R :=
  if Req_EM_T b 0 then (if Nat.eqb (2 * i) m then 14 else 10)
  else if Req_EM_T b (-2) then (if (2 * i <=? m)%nat then 6 * INR i else 4 * INR m - 2 * INR i)
  else if (2 * i <=? m)%nat then 4 * INR i ^ 2 * (INR m - INR i) + INR i
  else let u := INR m - INR i in INR m * (2 * INR m ^ 2 + 1) / 3 - 4 / 3 * u ^ 3 + u / 3.
Definition slope3 (b : R) : Prop := b = 0 \/ b = -2 \/ b = -4.
Definition par (m : nat) : R := INR (m mod 2).

(** excess over v2 summed over one end *)
Definition excess (b : R) (m : nat) : R :=
  if Req_EM_T b 0 then 4 * (INR m - par m)
  else if Req_EM_T b (-2) then INR m - par m
  else - INR m ^ 4 / 4 + INR m ^ 3 / 3 + INR m / 6 - par m / 4.

Lemma sumP1 q M : bigsum q (fun k => 4 * INR (k + 1) ^ 2 * (M - INR (k + 1)) + INR (k + 1)) =
  4 * M * (INR q * (INR q + 1) * (2 * INR q + 1) / 6) - (INR q * (INR q + 1)) ^ 2 + INR q * (INR q + 1) / 2.
Proof. induction q as [|q IH]; cbn [bigsum]; [cbn; field|]. rewrite IH, plus_INR. change (INR 1) with 1. rewrite S_INR. field. Qed.
Lemma sumP2 n v : bigsum n (fun k => v - 4 / 3 * INR (k + 1) ^ 3 + INR (k + 1) / 3) =
  INR n * v - (INR n * (INR n + 1)) ^ 2 / 3 + INR n * (INR n + 1) / 6.
Proof. induction n as [|q IH]; cbn [bigsum]; [cbn; field|]. rewrite IH, plus_INR. change (INR 1) with 1. rewrite S_INR. field. Qed.
Lemma sum_id1 n : bigsum n (fun k => INR (k + 1)) = INR n * (INR n + 1) / 2.
Proof. induction n as [|q IH]; cbn [bigsum]; [cbn; field|]. rewrite IH, plus_INR. change (INR 1) with 1. rewrite S_INR. field. Qed.

(** split one end at m/2 and count the far half from the other side *)
Lemma edge_halves m (f : nat -> R) : (1 <= m)%nat ->
  bigsum (m - 1) (fun k => f (k + 1)%nat) =
  bigsum (m / 2) (fun k => f (k + 1)%nat) + bigsum (m - 1 - m / 2) (fun k => f (m - (k + 1))%nat).
Proof.
  intro Hm. assert (m / 2 <= m - 1)%nat by (pose proof (Nat.div_mod m 2 ltac:(lia)); pose proof (Nat.mod_upper_bound m 2 ltac:(lia)); lia).
  replace (m - 1)%nat with (m / 2 + (m - 1 - m / 2))%nat at 1 by lia. rewrite bigsum_add. f_equal.
  rewrite <- (bigsum_rev (m - 1 - m / 2)). apply bigsum_ext. intros k Hk. f_equal. lia.
Qed.

Lemma edge_sum b m : slope3 b -> (1 <= m)%nat ->
  bigsum (m - 1) (fun k => vedge b m (k + 1)) = INR (m - 1) * v2 b m + excess b m.
Proof.
  intros Hb Hm. pose proof (Nat.div_mod m 2 ltac:(lia)) as Dm. pose proof (Nat.mod_upper_bound m 2 ltac:(lia)) as Um.
  unfold slope3 in Hb. destruct Hb as [ -> | Hb].
  - unfold vedge, v2, excess, par. destruct (Req_EM_T 0 0) as [_|N]; [|contradiction].
    destruct (Nat.eq_dec (m mod 2) 0) as [E0|E0].
    + rewrite E0. set (q := (m / 2)%nat) in *.
      replace (m - 1)%nat with ((q - 1) + (1 + (q - 1)))%nat by lia. rewrite !bigsum_add.
      transitivity (bigsum (q - 1) (fun _ => 10) + (bigsum 1 (fun _ => 14) + bigsum (q - 1) (fun _ => 10))).
      { f_equal; [|f_equal]; apply bigsum_ext; intros k Hk;
          match goal with |- context [Nat.eqb ?u ?v] => destruct (Nat.eqb_spec u v) end; reflexivity || lia. }
      rewrite !bigsum_const, !plus_INR. replace (INR m) with (2 * INR q) by (rewrite Dm, E0, Nat.add_0_r, mult_INR; reflexivity).
      rewrite minus_INR by lia. cbn [INR]. ring.
    + replace (m mod 2)%nat with 1%nat by lia.
      rewrite (bigsum_ext (m - 1) _ (fun _ => 10)).
      2:{ intros k Hk. destruct (Nat.eqb_spec (2 * (k + 1)) m); [lia|reflexivity]. }
      rewrite bigsum_const, minus_INR by lia. cbn [INR]. ring.
  - rewrite edge_halves by exact Hm. set (q := (m / 2)%nat) in *. set (p := (m mod 2)%nat) in *.
    assert (QM : INR m = 2 * INR q + INR p) by (rewrite Dm, plus_INR, mult_INR; reflexivity).
    assert (P2 : INR p ^ 2 = INR p) by (destruct p as [|[|p']]; [cbn; ring|cbn; ring|lia]).
    assert (QN : INR (m - 1 - q) = INR q + INR p - 1) by (rewrite !minus_INR by lia; rewrite QM; cbn [INR]; ring).
    assert (Qm : INR (m - 1) = 2 * INR q + INR p - 1) by (rewrite !minus_INR by lia; rewrite QM; cbn [INR]; ring).
    unfold vedge, v2, excess, par. fold p. destruct Hb as [ -> | -> ].
    + destruct (Req_EM_T (-2) 0) as [N|_]; [lra|]. destruct (Req_EM_T (-2) (-2)) as [_|N]; [|contradiction].
      rewrite (bigsum_ext q _ (fun k => 6 * INR (k + 1))).
      2:{ intros k Hk. destruct (Nat.leb_spec (2 * (k + 1)) m); [reflexivity|lia]. }
      rewrite (bigsum_ext (m - 1 - q) _ (fun k => 2 * INR m + 2 * INR (k + 1))).
      2:{ intros k Hk. destruct (Nat.leb_spec (2 * (m - (k + 1))) m); [lia|]. rewrite minus_INR by lia. ring. }
      rewrite bigsum_plus, bigsum_const, !bigsum_scal, !sum_id1, QN, Qm, QM.
      replace (INR p) with (INR p) by reflexivity. set (P := INR p) in *. set (Q := INR q). 
      match goal with |- ?L = ?R => assert (Z : L - R = 0); [|lra] end.
      ring_simplify. nra.
    + destruct (Req_EM_T (-4) 0) as [N|_]; [lra|]. destruct (Req_EM_T (-4) (-2)) as [N|_]; [lra|].
      rewrite (bigsum_ext q _ (fun k => 4 * INR (k + 1) ^ 2 * (INR m - INR (k + 1)) + INR (k + 1))).
      2:{ intros k Hk. destruct (Nat.leb_spec (2 * (k + 1)) m); [reflexivity|lia]. }
      rewrite (bigsum_ext (m - 1 - q) _ (fun k => INR m * (2 * INR m ^ 2 + 1) / 3 - 4 / 3 * INR (k + 1) ^ 3 + INR (k + 1) / 3)).
      2:{ intros k Hk. destruct (Nat.leb_spec (2 * (m - (k + 1))) m); [lia|]. cbv zeta.
          replace (INR m - INR (m - (k + 1))) with (INR (k + 1)) by (rewrite (minus_INR m) by lia; ring). reflexivity. }
      rewrite sumP1, sumP2, QN, Qm, QM. set (P := INR p) in *. set (Q := INR q).
      destruct (Req_dec P 0) as [ -> |NP]; [field|].
      assert (P1 : P = 1) by (apply (Rmult_eq_reg_l P); [lra|exact NP]). rewrite P1. field.
Qed.

Lemma xtot_mid (x : list R) j : (j < len x)%nat -> xtot x (Z.of_nat j) = x.[j].
Proof.
  intro H. unfold xtot. destruct (Z.ltb_spec (Z.of_nat j) 0); [lia|].
  destruct (Z.ltb_spec (Z.of_nat j) (Z.of_nat (len x))); [|lia]. now rewrite Nat2Z.id.
Qed.
Lemma xtot_left (x : list R) z k : (0 < k)%nat -> z = (- Z.of_nat k)%Z -> xtot x z = 2 * x.[0] - x.[k].
Proof.
  intros H ->. unfold xtot. destruct (Z.ltb_spec (- Z.of_nat k) 0); [|lia].
  rewrite Z.opp_involutive. now rewrite Nat2Z.id.
Qed.
Lemma xtot_right (x : list R) z k : (0 < k < len x)%nat -> z = Z.of_nat (len x - 1 + k) ->
  xtot x z = 2 * x.[len x - 1] - x.[len x - 1 - k].
Proof.
  intros H ->. unfold xtot. destruct (Z.ltb_spec (Z.of_nat (len x - 1 + k)) 0); [lia|].
  destruct (Z.ltb_spec (Z.of_nat (len x - 1 + k)) (Z.of_nat (len x))); [lia|].
  replace (Z.to_nat (2 * (Z.of_nat (len x) - 1) - Z.of_nat (len x - 1 + k))) with (len x - 1 - k)%nat by lia. reflexivity.
Qed.

Section T.
Variable nr : nat.
Variable E : ((nat -> R) -> R) -> R.
Hypothesis HE : white nr E.
Variable qd : R.
Hypothesis Hq : 0 <= qd.

Definition tterm (x : list R) (m i : nat) : R :=
  (xtot x (Z.of_nat i - Z.of_nat m) - 2 * xtot x (Z.of_nat i) + xtot x (Z.of_nat i + Z.of_nat m)) ^ 2.

Lemma E_t_mid b m i : slope3 b -> (1 <= m)%nat -> (m <= i)%nat -> (i + m < nr)%nat ->
  E (fun w => tterm (record nr qd b w) m i) = qd * v2 b m.
Proof.
  intros Hb Hm H1 H2.
  rewrite (wh_ext _ E HE _ (fun w => (d2 (record nr qd b w) m (i - m)) ^ 2)).
  2:{ intro w. unfold tterm, d2.
      replace (Z.of_nat i - Z.of_nat m)%Z with (Z.of_nat (i - m)) by lia.
      replace (Z.of_nat i + Z.of_nat m)%Z with (Z.of_nat (i + m)) by lia.
      rewrite !xtot_mid by (rewrite record_len by lia; lia).
      replace (i - m + 2 * m)%nat with (i + m)%nat by lia. replace (i - m + m)%nat with i by lia. ring. }
  rewrite (E_sq nr E HE qd _ (c2 b m (i - m)) Hq) by (intro w; apply record_d2; lia). f_equal. unfold v2.
  destruct Hb as [ -> | [ -> | -> ] ].
  - destruct (Req_EM_T 0 0) as [_|N]; [|contradiction]. apply var_wpm; lia.
  - destruct (Req_EM_T (-2) 0) as [N|_]; [lra|]. destruct (Req_EM_T (-2) (-2)) as [_|N]; [|contradiction].
    apply var_wfm; lia.
  - destruct (Req_EM_T (-4) 0) as [N|_]; [lra|]. destruct (Req_EM_T (-4) (-2)) as [N|_]; [lra|].
    apply var_rwfm; lia.
Qed.

Lemma E_t_left b m i : slope3 b -> (1 <= i)%nat -> (i < m)%nat -> (i + m < nr)%nat ->
  E (fun w => tterm (record nr qd b w) m i) = qd * vedge b m i.
Proof.
  intros Hb H1 H2 H3.
  assert (S : forall w, tterm (record nr qd b w) m i = (let x := record nr qd b w in
    (2 * x.[0] + -1 * x.[m - i] + -2 * x.[i] + 1 * x.[i + m]) ^ 2)).
  { intro w. unfold tterm. rewrite (xtot_left _ _ (m - i)) by lia.
    replace (Z.of_nat i + Z.of_nat m)%Z with (Z.of_nat (i + m)) by lia.
    rewrite !xtot_mid by (rewrite record_len by lia; lia). cbv zeta. ring. }
  unfold vedge. destruct Hb as [ -> | Hb].
  - destruct (Req_EM_T 0 0) as [_|N]; [|contradiction].
    rewrite (wh_ext _ E HE _ _ S). rewrite (comb_wpm nr E HE qd Hq) by lia.
    destruct (Nat.eqb_spec 0 (m - i)); [lia|]. destruct (Nat.eqb_spec 0 i); [lia|].
    destruct (Nat.eqb_spec 0 (i + m)); [lia|]. destruct (Nat.eqb_spec (m - i) (i + m)); [lia|].
    destruct (Nat.eqb_spec i (i + m)); [lia|].
    destruct (Nat.eqb_spec (m - i) i), (Nat.eqb_spec (2 * i) m); try lia; ring.
  - destruct (Req_EM_T b 0) as [N|_]; [lra|]. destruct (Nat.leb_spec (2 * i) m).
    + rewrite (wh_ext _ E HE _ (fun w => let x := record nr qd b w in
        (2 * x.[0] + -2 * x.[i] + -1 * x.[m - i] + 1 * x.[i + m]) ^ 2)) by (intro w; rewrite S; cbv zeta; ring).
      rewrite (comb_ord nr E HE qd Hq) by (tauto || lia). rewrite minus_INR by lia. rewrite plus_INR. change (INR 0) with 0.
      unfold wcov. destruct Hb as [ -> | -> ].
      * destruct (Req_EM_T (-2) (-2)) as [_|N]; [|contradiction]. ring.
      * destruct (Req_EM_T (-4) (-2)) as [N|_]; [lra|]. field.
    + rewrite (wh_ext _ E HE _ _ S).
      rewrite (comb_ord nr E HE qd Hq) by (tauto || lia). rewrite minus_INR by lia. rewrite plus_INR. change (INR 0) with 0.
      unfold wcov. destruct Hb as [ -> | -> ].
      * destruct (Req_EM_T (-2) (-2)) as [_|N]; [|contradiction]. ring.
      * destruct (Req_EM_T (-4) (-2)) as [N|_]; [lra|]. field.
Qed.

Lemma E_t_right b m r : slope3 b -> (1 <= r)%nat -> (r < m)%nat -> (r + m < nr)%nat ->
  E (fun w => tterm (record nr qd b w) m (nr - 1 - r)) = qd * vedge b m r.
Proof.
  intros Hb H1 H2 H3. assert (HT : exists T, nr = S T) by (exists (nr - 1)%nat; lia). destruct HT as (T & HT).
  assert (S : forall w, tterm (record nr qd b w) m (nr - 1 - r) = (let x := record nr qd b w in
    (1 * x.[T - (m + r)] + -2 * x.[T - r] + -1 * x.[T - (m - r)] + 2 * x.[T]) ^ 2)).
  { intro w. unfold tterm. rewrite (xtot_right _ (Z.of_nat (nr - 1 - r) + Z.of_nat m) (m - r))
      by (rewrite record_len by lia; lia).
    replace (Z.of_nat (nr - 1 - r) - Z.of_nat m)%Z with (Z.of_nat (T - (m + r))) by lia.
    rewrite !xtot_mid by (rewrite record_len by lia; lia). rewrite record_len by lia. cbv zeta.
    replace (nr - 1)%nat with T by lia. ring. }
  unfold vedge. destruct Hb as [ -> | Hb].
  - destruct (Req_EM_T 0 0) as [_|N]; [|contradiction].
    rewrite (wh_ext _ E HE _ _ S). rewrite (comb_wpm nr E HE qd Hq) by lia.
    destruct (Nat.eqb_spec (T - (m + r)) (T - r)); [lia|]. destruct (Nat.eqb_spec (T - (m + r)) (T - (m - r))); [lia|].
    destruct (Nat.eqb_spec (T - (m + r)) T); [lia|]. destruct (Nat.eqb_spec (T - r) T); [lia|].
    destruct (Nat.eqb_spec (T - (m - r)) T); [lia|].
    destruct (Nat.eqb_spec (T - r) (T - (m - r))), (Nat.eqb_spec (2 * r) m); try lia; ring.
  - destruct (Req_EM_T b 0) as [N|_]; [lra|]. destruct (Nat.leb_spec (2 * r) m).
    + rewrite (wh_ext _ E HE _ (fun w => let x := record nr qd b w in
        (1 * x.[T - (m + r)] + -1 * x.[T - (m - r)] + -2 * x.[T - r] + 2 * x.[T]) ^ 2)) by (intro w; rewrite S; cbv zeta; ring).
      rewrite (comb_ord nr E HE qd Hq) by (tauto || lia). rewrite !minus_INR by lia. rewrite plus_INR.
      unfold wcov. destruct Hb as [ -> | -> ].
      * destruct (Req_EM_T (-2) (-2)) as [_|N]; [|contradiction]. ring.
      * destruct (Req_EM_T (-4) (-2)) as [N|_]; [lra|]. field.
    + rewrite (wh_ext _ E HE _ _ S).
      rewrite (comb_ord nr E HE qd Hq) by (tauto || lia). rewrite !minus_INR by lia. rewrite plus_INR.
      unfold wcov. destruct Hb as [ -> | -> ].
      * destruct (Req_EM_T (-2) (-2)) as [_|N]; [|contradiction]. ring.
      * destruct (Req_EM_T (-4) (-2)) as [N|_]; [lra|]. field.
Qed.

Lemma E_totvar b m tau0 : slope3 b -> 0 < tau0 -> (1 <= m)%nat -> (2 * m <= nr)%nat -> (3 <= nr)%nat ->
  E (fun w => totvar (record nr qd b w) tau0 m) =
  qd * (v2 b m + 2 * excess b m / INR (nr - 2)) / (2 * (INR m * tau0) ^ 2).
Proof.
  intros Hb Ht Hm Hn H3. assert (Hmp : 0 < INR m) by (apply lt_0_INR; lia).
  assert (Hnp : 0 < INR (nr - 2)) by (apply lt_0_INR; lia).
  rewrite (wh_ext _ E HE _ (fun w => / (2 * (INR m * tau0) ^ 2 * INR (nr - 2)) *
    (fun w => bigsum (nr - 2) (fun k => (fun k w => tterm (record nr qd b w) m (k + 1)) k w)) w))
    by (intro w; unfold totvar, totdev_n; now rewrite record_len by lia).
  rewrite (wh_scal _ E HE). rewrite (E_sum _ E HE (nr - 2) (fun k w => tterm (record nr qd b w) m (k + 1))).
  assert (C : bigsum (nr - 2) (fun i => E (fun w => tterm (record nr qd b w) m (i + 1))) =
     qd * (INR (nr - 2) * v2 b m + 2 * excess b m)).
  { replace (nr - 2)%nat with ((m - 1) + ((nr - 2 * m) + (m - 1)))%nat at 1 by lia. rewrite !bigsum_add.
    rewrite (bigsum_ext (m - 1) _ (fun k => qd * vedge b m (k + 1))) by (intros k Hk; apply E_t_left; auto; lia).
    rewrite bigsum_scal, edge_sum by assumption.
    rewrite (bigsum_ext (nr - 2 * m) _ (fun _ => qd * v2 b m)) by (intros k Hk; apply E_t_mid; auto; lia).
    rewrite bigsum_const.
    transitivity (qd * (INR (m - 1) * v2 b m + excess b m) + (INR (nr - 2 * m) * (qd * v2 b m) +
       bigsum (m - 1) (fun k => qd * vedge b m (m - 1 - 1 - k + 1)))).
    { f_equal. f_equal. apply bigsum_ext. intros k Hk.
      replace (m - 1 + (nr - 2 * m + k) + 1)%nat with (nr - 1 - (m - 1 - 1 - k + 1))%nat by lia.
      apply E_t_right; auto; lia. }
    rewrite (bigsum_rev (m - 1) (fun k => qd * vedge b m (k + 1))), bigsum_scal, edge_sum by assumption.
    replace (INR (nr - 2)) with (INR (m - 1) + INR (nr - 2 * m) + INR (m - 1)); [ring|].
    rewrite <- !plus_INR. f_equal. lia. }
  rewrite C. field. lra.
Qed.
End T.

(** ** From the variances to the reported deviations *)
Lemma edev_var E nr qd b f rate m (V : list R -> R) : white nr E ->
  (forall w, 0 <= V (record nr qd b w)) ->
  (forall w, exists t e n, f (record nr qd b w) rate "phase"%string (TList [INR m / rate]) = Ok (t, [sqrt (V (record nr qd b w))], e, n)) ->
  edev E nr qd b f rate m = E (fun w => V (record nr qd b w)).
Proof.
  intros HE H0 H. unfold edev. apply (wh_ext _ E HE). intro w. destruct (H w) as (t & e & n & Q). rewrite Q.
  unfold dev2. apply pow2_sqrt, H0.
Qed.

Lemma pvar_nonneg x t m : 0 <= pvar x t m.
Proof.
  unfold pvar. destruct (Nat.eqb m 1); [apply oavar_nonneg|].
  apply Rmult_le_pos; [|apply bigsum_nonneg; intros; apply pow2_ge_0].
  apply Rmult_le_pos; [lra|]. apply inv_nonneg.
  apply Rmult_le_pos; [|apply pow2_ge_0]. apply Rmult_le_pos; [apply pos_INR|apply pow_le, pos_INR].
Qed.
Lemma totvar_nonneg x t m : 0 <= totvar x t m.
Proof.
  unfold totvar. apply Rmult_le_pos; [|apply bigsum_nonneg; intros; apply pow2_ge_0].
  apply inv_nonneg. apply Rmult_le_pos; [|apply pos_INR]. apply Rmult_le_pos; [lra|apply pow2_ge_0].
Qed.
Lemma theo1var_nonneg x t h : 0 <= theo1var x t (2 * h).
Proof.
  unfold theo1var. rewrite Nat.div2_double. apply Rmult_le_pos.
  - apply inv_nonneg. apply Rmult_le_pos; [|apply pow2_ge_0]. apply Rmult_le_pos; [lra|apply pos_INR].
  - apply bigsum_nonneg. intros i Hi. apply bigsum_nonneg. intros d Hd. apply Rmult_le_pos; [|apply pow2_ge_0].
    apply inv_nonneg. assert (INR d <= INR h) by (apply le_INR; lia). lra.
Qed.
Lemma tierms_var_nonneg x m : 0 <= tierms_var x m.
Proof.
  unfold tierms_var. apply Rmult_le_pos; [apply inv_nonneg, pos_INR|].
  apply bigsum_nonneg; intros; apply pow2_ge_0.
Qed.
Lemma hvar_nonneg' x t m : 0 <= hvar x t m.
Proof.
  unfold hvar. apply Rmult_le_pos; [|apply bigsum_nonneg; intros; apply pow2_ge_0].
  apply inv_nonneg. apply Rmult_le_pos; [|apply pos_INR]. apply Rmult_le_pos; [lra|apply pow2_ge_0].
Qed.

Lemma tau_pos rate : 0 < rate -> 0 < 1 / rate.
Proof. intro H. apply Rdiv_lt_0_compat; lra. Qed.

(** ** C85 *)

(** The reference: expected Allan variance, as the square of what oadev reports. *)
Definition allan (b qd tau : R) (m : nat) : R :=
  if Req_EM_T b 0 then 3 * qd / tau ^ 2
  else if Req_EM_T b (-2) then qd * INR m / tau ^ 2
  else qd * INR m * (2 * INR m ^ 2 + 1) / (6 * tau ^ 2).

Lemma allan_v2 b qd rate m : slope3 b -> 0 < rate -> (1 <= m)%nat ->
  qd * v2 b m / (2 * (INR m * (1 / rate)) ^ 2) = allan b qd (INR m / rate) m.
Proof.
  intros Hb Hr Hm. assert (0 < INR m) by (apply lt_0_INR; lia). unfold allan, v2.
  destruct Hb as [ -> | [ -> | -> ] ];
  repeat match goal with |- context [Req_EM_T ?p ?q] => destruct (Req_EM_T p q); try (exfalso; lra) end; field; lra.
Qed.

Theorem C85_oadev nr E qd rate m b : white nr E -> 0 <= qd -> 0 < rate -> slope3 b ->
  (1 <= m)%nat -> (2 * m + 2 <= nr)%nat ->
  edev E nr qd b oadev rate m = allan b qd (INR m / rate) m.
Proof.
  intros HE Hq Hr Hb Hm Hn.
  rewrite (edev_var E nr qd b _ rate m (fun x => oavar x (1 / rate) m) HE).
  - rewrite (E_oavar nr E HE qd b m (1 / rate) (v2 b m) Hq); [apply allan_v2; assumption|lia|exact Hm|apply tau_pos, Hr|].
    intros i Hi. unfold v2.
    destruct Hb as [ -> | [ -> | -> ] ];
    repeat match goal with |- context [Req_EM_T ?p ?q] => destruct (Req_EM_T p q); try (exfalso; lra) end.
    + apply var_wpm; lia.
    + apply var_wfm; lia.
    + apply var_rwfm; lia.
  - intro w. apply oavar_nonneg.
  - intro w. rewrite oadev_single by (try assumption; rewrite record_len by lia; lia). do 3 eexists. reflexivity.
Qed.

(** Hadamard, overlapping or not: 10/9 of the Allan variance for white phase noise,
    unbiased for white frequency noise, between 2/3 and 1/2 for random walk frequency noise. *)
Definition hratio (b : R) (m : nat) : R :=
  if Req_EM_T b 0 then 10 / 9 else if Req_EM_T b (-2) then 1 else (INR m ^ 2 + 1) / (2 * INR m ^ 2 + 1).

Lemma hratio_v3 b qd rate m : slope3 b -> 0 < rate -> (1 <= m)%nat ->
  qd * v3 b m / (6 * (INR m * (1 / rate)) ^ 2) = hratio b m * allan b qd (INR m / rate) m.
Proof.
  intros Hb Hr Hm. assert (0 < INR m) by (apply lt_0_INR; lia). unfold allan, v3, hratio.
  assert (0 < 2 * INR m ^ 2 + 1) by nra.
  destruct Hb as [ -> | [ -> | -> ] ];
  repeat match goal with |- context [Req_EM_T ?p ?q] => destruct (Req_EM_T p q); try (exfalso; lra) end; field; lra.
Qed.

Theorem C85_ohdev nr E qd rate m b : white nr E -> 0 <= qd -> 0 < rate -> slope3 b ->
  (1 <= m)%nat -> (3 * m + 2 <= nr)%nat ->
  edev E nr qd b ohdev rate m = hratio b m * allan b qd (INR m / rate) m.
Proof.
  intros HE Hq Hr Hb Hm Hn.
  rewrite (edev_var E nr qd b _ rate m (fun x => ohvar x (1 / rate) m) HE).
  - rewrite (E_ohvar nr E HE qd Hq) by (try assumption; try lia; apply tau_pos, Hr). now apply hratio_v3.
  - intro w. apply ohvar_nonneg.
  - intro w. rewrite ohdev_single by (try assumption; rewrite record_len by lia; lia). do 3 eexists. reflexivity.
Qed.

Theorem C85_hdev nr E qd rate m b : white nr E -> 0 <= qd -> 0 < rate -> slope3 b ->
  (1 <= m)%nat -> (4 * m + 1 <= nr)%nat ->
  edev E nr qd b hdev rate m = hratio b m * allan b qd (INR m / rate) m.
Proof.
  intros HE Hq Hr Hb Hm Hn.
  rewrite (edev_var E nr qd b _ rate m (fun x => hvar x (1 / rate) m) HE).
  - rewrite (E_hvar nr E HE qd Hq) by (try assumption; try lia; apply tau_pos, Hr). now apply hratio_v3.
  - intro w. apply hvar_nonneg'.
  - intro w. rewrite hdev_single; [do 3 eexists; reflexivity|exact Hr|rewrite record_len by lia; lia|].
    unfold hdev_n. rewrite record_len by lia.
    assert (4 <= (nr - 1) / m)%nat by (apply Nat.div_le_lower_bound; lia). lia.
Qed.

(** Parabolic deviation, m >= 2 (at m = 1 it is oadev): 4 (1 - 1/m^2) / m of the Allan variance for
    white phase noise, 6/5 (1 - 1/m^4) for white frequency noise. *)
Theorem C85_pdev nr E qd rate m : white nr E -> 0 <= qd -> 0 < rate -> (2 <= m)%nat -> (2 * m + 2 <= nr)%nat ->
  edev E nr qd 0 pdev rate m = 4 * (1 - / INR m ^ 2) / INR m * allan 0 qd (INR m / rate) m /\
  edev E nr qd (-2) pdev rate m = 6 / 5 * (1 - / INR m ^ 4) * allan (-2) qd (INR m / rate) m.
Proof.
  intros HE Hq Hr Hm Hn. assert (Hmp : 0 < INR m) by (apply lt_0_INR; lia).
  assert (P : forall b, edev E nr qd b pdev rate m = E (fun w => pvar (record nr qd b w) (1 / rate) m)).
  { intro b. apply (edev_var E nr qd b _ rate m (fun x => pvar x (1 / rate) m) HE).
    - intro w. apply pvar_nonneg.
    - intro w. rewrite pdev_single by (try assumption; rewrite ?record_len by lia; lia). do 3 eexists. reflexivity. }
  rewrite !P. unfold allan. split.
  - rewrite (E_pvar nr E HE qd Hq 0 m (1 / rate) (INR m * (INR m ^ 2 - 1) / 6))
      by (try lia; try (apply tau_pos, Hr); intros; apply pvar_wpm; lia).
    destruct (Req_EM_T 0 0) as [_|N]; [|contradiction]. field. lra.
  - rewrite (E_pvar nr E HE qd Hq (-2) m (1 / rate) (INR m * (INR m ^ 4 - 1) / 60))
      by (try lia; try (apply tau_pos, Hr); intros; apply pvar_wfm; lia).
    destruct (Req_EM_T (-2) 0) as [N|_]; [lra|]. destruct (Req_EM_T (-2) (-2)) as [_|N]; [|contradiction]. field. lra.
Qed.

(** Total deviation, 2m <= nr: relative bias against the Allan variance (par m is 1 for odd m, 0 for even m). *)
Definition totbias (b : R) (m : nat) : R :=
  if Req_EM_T b 0 then 4 / 3 * (INR m - INR (m mod 2))
  else if Req_EM_T b (-2) then (INR m - INR (m mod 2)) / INR m
  else - (3 / 4) * (INR m ^ 4 - 4 / 3 * INR m ^ 3 - 2 / 3 * INR m + INR (m mod 2)) / (INR m ^ 3 + INR m / 2).

Theorem C85_totdev nr E qd rate m b : white nr E -> 0 <= qd -> 0 < rate -> slope3 b ->
  (1 <= m)%nat -> (2 * m <= nr)%nat -> (4 <= nr)%nat ->
  edev E nr qd b totdev rate m = (1 + totbias b m / INR (nr - 2)) * allan b qd (INR m / rate) m.
Proof.
  intros HE Hq Hr Hb Hm Hn H4. assert (Hmp : 0 < INR m) by (apply lt_0_INR; lia).
  assert (Hnp : 0 < INR (nr - 2)) by (apply lt_0_INR; lia).
  rewrite (edev_var E nr qd b _ rate m (fun x => totvar x (1 / rate) m) HE).
  - rewrite (E_totvar nr E HE qd Hq) by (try assumption; try lia; apply tau_pos, Hr).
    unfold v2, excess, allan, totbias, par. assert (0 < INR m ^ 2) by nra.
    destruct Hb as [ -> | [ -> | -> ] ];
    repeat match goal with |- context [Req_EM_T ?p ?q] => destruct (Req_EM_T p q); try (exfalso; lra) end;
    field; repeat split; nra.
  - intro w. apply totvar_nonneg.
  - intro w. rewrite (totdev_spec _ rate _ [m] Hr); [|rewrite record_len by lia; lia|apply adm_single; [exact Hr|rewrite record_len by lia; lia]].
    cbv zeta. rewrite report_single by (unfold totdev_n; rewrite record_len by lia; lia). do 3 eexists. reflexivity.
Qed.

(** For random walk frequency noise the relative bias per averaging factor tends to -3/4 (SP1065
    gives a = 0.750 in 1 - a tau/T): it is -3m/4 up to at most 2, for every m. *)
Theorem C85_totdev_rw m : (1 <= m)%nat ->
  - (3 / 4) * INR m <= totbias (-4) m <= - (3 / 4) * INR m + 2.
Proof.
  intro Hm. assert (Hmp : 1 <= INR m) by (change 1 with (INR 1); apply le_INR; lia). unfold totbias.
  destruct (Req_EM_T (-4) 0) as [N|_]; [lra|]. destruct (Req_EM_T (-4) (-2)) as [N|_]; [lra|].
  assert (P : 0 <= INR (m mod 2) <= 1).
  { pose proof (Nat.mod_upper_bound m 2 ltac:(lia)). split; [apply pos_INR|]. change 1 with (INR 1). apply le_INR. lia. }
  set (M := INR m) in *. set (p := INR (m mod 2)) in *.
  assert (D : 0 < M ^ 3 + M / 2) by nra.
  assert (M2 : M <= M ^ 2) by nra. assert (M3 : M ^ 2 <= M ^ 3) by nra.
  split.
  - apply (Rmult_le_reg_r (M ^ 3 + M / 2)); [exact D|].
    replace (- (3 / 4) * (M ^ 4 - 4 / 3 * M ^ 3 - 2 / 3 * M + p) / (M ^ 3 + M / 2) * (M ^ 3 + M / 2))
      with (- (3 / 4) * (M ^ 4 - 4 / 3 * M ^ 3 - 2 / 3 * M + p)) by (field; lra). nra.
  - apply (Rmult_le_reg_r (M ^ 3 + M / 2)); [exact D|].
    replace (- (3 / 4) * (M ^ 4 - 4 / 3 * M ^ 3 - 2 / 3 * M + p) / (M ^ 3 + M / 2) * (M ^ 3 + M / 2))
      with (- (3 / 4) * (M ^ 4 - 4 / 3 * M ^ 3 - 2 / 3 * M + p)) by (field; lra). nra.
Qed.

(** Theo1 at averaging factor m = 2h (reported at tau = m/rate): 4/3 of the Allan variance at that
    tau for white frequency noise, that is, exactly the Allan variance at 3/4 of the reported tau. *)
Definition theo1ratio (b : R) (h : nat) : R :=
  if Req_EM_T b 0 then 8 / 9 * (2 * harm h + / INR h)
  else if Req_EM_T b (-2) then 4 / 3
  else 4 / 9 * (5 * INR h ^ 2 + 3 * INR h + 1) / (8 * INR h ^ 2 + 1).

Lemma adm_even N rate h : 0 < rate -> (1 <= h)%nat -> (2 * h < N)%nat ->
  admissible_if (fun m => Nat.even m = true) N rate (TList [INR (2 * h) / rate]) [(2 * h)%nat].
Proof.
  intros Hr Hh Hn. destruct (adm_single N rate (2 * h) Hr ltac:(lia)) as (A & B & C).
  split; [exact A|]. split; [exact B|]. intros k. rewrite (C k). split.
  - intros (P & _ & Q). split; [exact P|]. split; [|exact Q].
    assert (In k [(2 * h)%nat]) as [<-|[]] by (apply C; auto). rewrite Nat.even_mul. reflexivity.
  - intros (P & _ & Q). auto.
Qed.

Lemma sum_rw h : bigsum h (fun k => (2 * (INR k + 1) ^ 2 + 1) / 3 + 2 * (INR h - (INR k + 1)) * (INR k + 1)) =
  INR h * (5 * INR h ^ 2 + 3 * INR h + 1) / 9.
Proof.
  assert (G : forall n H, bigsum n (fun k => (2 * (INR k + 1) ^ 2 + 1) / 3 + 2 * (H - (INR k + 1)) * (INR k + 1)) =
    - (4 / 3) * (INR n * (INR n + 1) * (2 * INR n + 1) / 6) + H * INR n * (INR n + 1) + INR n / 3).
  { intros n H. induction n as [|n IH]; cbn [bigsum]; [cbn; field|]. rewrite IH, S_INR. field. }
  rewrite G. field.
Qed.

Theorem C85_theo1 nr E qd rate h b : white nr E -> 0 <= qd -> 0 < rate -> slope3 b ->
  (1 <= h)%nat -> (2 * h + 2 <= nr)%nat ->
  edev E nr qd b theo1 rate (2 * h) = theo1ratio b h * allan b qd (INR (2 * h) / rate) (2 * h).
Proof.
  intros HE Hq Hr Hb Hh Hn. assert (Hhp : 0 < INR h) by (apply lt_0_INR; lia).
  rewrite (edev_var E nr qd b _ rate (2 * h) (fun x => theo1var x (1 / rate) (2 * h)) HE).
  - assert (Hd : forall d, (d < h)%nat -> INR h - INR d <> 0).
    { intros d Hd. assert (INR d < INR h) by (apply lt_INR; lia). lra. }
    unfold theo1ratio, allan. rewrite mult_INR. change (INR 2) with 2. destruct Hb as [ -> | [ -> | -> ] ];
    repeat match goal with |- context [Req_EM_T ?p ?q] => destruct (Req_EM_T p q); try (exfalso; lra) end.
    + rewrite (E_theo1 nr E HE qd 0 h (1 / rate) (4 * harm h + 2 / INR h)) by
        (try lia; try (apply tau_pos, Hr); intros i Hi;
         rewrite (bigsum_ext h _ (fun d => qd * (4 * / (INR h - INR d) + (fun d => 2 / INR h) d * (if Nat.eqb 0 d then 1 else 0))))
          by (intros d Hd'; rewrite (E_bracket_wpm nr E HE qd Hq) by lia; destruct d as [|d];
              [cbn [Nat.eqb]; change (INR 0) with 0; field; lra | cbn [Nat.eqb]; field; split; [lra|now apply Hd]]);
         rewrite bigsum_scal, bigsum_plus, bigsum_scal, harm_rev, (bigsum_pick h 0 (fun _ => 2 / INR h)) by lia; reflexivity).
      rewrite mult_INR. change (INR 2) with 2. field. lra.
    + rewrite (E_theo1 nr E HE qd (-2) h (1 / rate) (2 * INR h)) by
        (try lia; try (apply tau_pos, Hr); intros i Hi;
         rewrite (bigsum_ext h _ (fun d => 2 * qd))
          by (intros d Hd'; rewrite (E_bracket nr E HE qd Hq) by (tauto || lia); unfold vt;
              destruct (Req_EM_T (-2) (-2)) as [_|N]; [|contradiction]; field; now apply Hd);
         rewrite bigsum_const; ring).
      rewrite mult_INR. change (INR 2) with 2. field. lra.
    + rewrite (E_theo1 nr E HE qd (-4) h (1 / rate) (INR h * (5 * INR h ^ 2 + 3 * INR h + 1) / 9)).
      * rewrite mult_INR. change (INR 2) with 2. field. repeat split; nra.
      * apply tau_pos, Hr.
      * lia.
      * lia.
      * intros i Hi. rewrite <- (sum_rw h), <- bigsum_scal.
        rewrite <- (bigsum_rev h (fun k => qd * ((2 * (INR k + 1) ^ 2 + 1) / 3 + 2 * (INR h - (INR k + 1)) * (INR k + 1)))).
        apply bigsum_ext. intros d Hd'. rewrite (E_bracket nr E HE qd Hq) by (tauto || lia). unfold vt.
        destruct (Req_EM_T (-4) (-2)) as [N|_]; [lra|].
        rewrite !minus_INR by lia. change (INR 1) with 1. field. now apply Hd.
  - intro w. apply theo1var_nonneg.
  - intro w. rewrite (theo1_spec _ rate _ [(2 * h)%nat] Hr)
      by (apply adm_even; [exact Hr|exact Hh|rewrite record_len by lia; lia]).
    cbv zeta. rewrite report_single; [do 3 eexists; reflexivity|].
    unfold theo1_n. rewrite record_len by lia. rewrite Nat.div2_double. nia.
Qed.

(** In terms of the functions alone: at m = 4k theo1 estimates, without bias, what oadev reports at 3k. *)
Theorem C85_theo1_effective nr E qd rate k : white nr E -> 0 <= qd -> 0 < rate ->
  (1 <= k)%nat -> (6 * k + 2 <= nr)%nat ->
  edev E nr qd (-2) theo1 rate (4 * k) = edev E nr qd (-2) oadev rate (3 * k).
Proof.
  intros HE Hq Hr Hk Hn. assert (Hkp : 0 < INR k) by (apply lt_0_INR; lia).
  replace (4 * k)%nat with (2 * (2 * k))%nat by lia.
  rewrite (C85_theo1 nr E) by (try assumption; try lia; unfold slope3; tauto).
  rewrite (C85_oadev nr E) by (try assumption; try lia; unfold slope3; tauto).
  unfold theo1ratio, allan.
  repeat match goal with |- context [Req_EM_T ?p ?q] => destruct (Req_EM_T p q); try (exfalso; lra) end.
  rewrite !mult_INR. change (INR 2) with 2. replace (INR 3) with 3 by (cbn; lra). field. lra.
Qed.

(** TIErms: twice the phase variance for white phase noise, m times the increment variance for
    white frequency noise. *)
Theorem C85_tierms nr E qd rate m : white nr E -> 0 <= qd -> 0 < rate -> (1 <= m)%nat -> (m + 2 <= nr)%nat ->
  edev E nr qd 0 tierms rate m = 2 * qd /\ edev E nr qd (-2) tierms rate m = qd * INR m.
Proof.
  intros HE Hq Hr Hm Hn.
  assert (P : forall b, edev E nr qd b tierms rate m = E (fun w => tierms_var (record nr qd b w) m)).
  { intro b. apply (edev_var E nr qd b _ rate m (fun x => tierms_var x m) HE).
    - intro w. apply tierms_var_nonneg.
    - intro w. rewrite tierms_single by (try assumption; rewrite ?record_len by lia; lia). do 3 eexists. reflexivity. }
  rewrite !P, !(E_tierms nr E HE qd Hq) by (tauto || lia). unfold v1.
  destruct (Req_EM_T 0 0) as [_|N]; [|contradiction]. destruct (Req_EM_T (-2) 0) as [N|_]; [lra|]. split; ring.
Qed.

(** Unbiasedness fails: at m = 2, theo1 overestimates the Allan variance of white frequency noise at the
    reported tau by 4/3, of white phase noise by 8/3, and totdev that of white phase noise. *)
Theorem C85_unbiased_refuted : exists E, white 6 E /\
  edev E 6 1 (-2) theo1 1 2 = 4 / 3 * edev E 6 1 (-2) oadev 1 2 /\
  edev E 6 1 0 theo1 1 2 = 8 / 3 * edev E 6 1 0 oadev 1 2 /\
  edev E 6 1 0 totdev 1 2 = 5 / 3 * edev E 6 1 0 oadev 1 2 /\
  edev E 6 1 (-2) totdev 1 2 = 5 / 4 * edev E 6 1 (-2) oadev 1 2 /\
  0 < edev E 6 1 0 oadev 1 2 /\ 0 < edev E 6 1 (-2) oadev 1 2.
Proof.
  pose proof (signs_white 6) as W. exists (signs 6). split; [exact W|].
  rewrite !(C85_oadev 6 (signs 6) 1 1 2) by (try lra; try lia; try exact W; unfold slope3; tauto).
  rewrite !(C85_totdev 6 (signs 6) 1 1 2) by (try lra; try lia; try exact W; unfold slope3; tauto).
  rewrite !(C85_theo1 6 (signs 6) 1 1 1) by (try lra; try lia; try exact W; unfold slope3; tauto).
  unfold theo1ratio, allan, totbias, harm.
  repeat match goal with |- context [Req_EM_T ?p ?q] => destruct (Req_EM_T p q); try (exfalso; lra) end.
  cbn. repeat split; try field; lra.
Qed.

(** Example: 11 points of random walk frequency noise (independent fair signs as input) at m = 3. *)
Example C85_ex : 
  edev (signs 11) 11 2 (-4) oadev 1 3 = 19 / 9 /\
  edev (signs 11) 11 2 (-4) ohdev 1 3 = 10 / 19 * (19 / 9) /\
  edev (signs 11) 11 2 (-4) totdev 1 3 = (1 - 22 / 171) * (19 / 9).
Proof.
  pose proof (signs_white 11) as W.
  rewrite (C85_oadev 11 (signs 11) 2 1 3) by (try lra; try lia; try exact W; unfold slope3; tauto).
  rewrite (C85_ohdev 11 (signs 11) 2 1 3) by (try lra; try lia; try exact W; unfold slope3; tauto).
  rewrite (C85_totdev 11 (signs 11) 2 1 3) by (try lra; try lia; try exact W; unfold slope3; tauto).
  unfold hratio, allan, totbias.
  repeat match goal with |- context [Req_EM_T ?p ?q] => destruct (Req_EM_T p q); try (exfalso; lra) end.
  cbn. repeat split; field.
Qed.

Print Assumptions C85_oadev.
Print Assumptions C85_ohdev.
Print Assumptions C85_hdev.
Print Assumptions C85_pdev.
Print Assumptions C85_totdev.
Print Assumptions C85_totdev_rw.
Print Assumptions C85_theo1.
Print Assumptions C85_theo1_effective.
Print Assumptions C85_tierms.
Print Assumptions C85_unbiased_refuted.
