(** * Equivalent degrees of freedom are exact for white phase noise (C82).

    ci.edf_greenhall (allantools/ci.py 447-606) returns the number of equivalent
    degrees of freedom (edf) of a variance estimator V, from which
    confidence_interval builds its chi-squared bounds.  The edf of V is
    2 (E V)^2 / Var V.  It is a statement about the first two moments of the
    estimator over all noise realisations, so a test can only compare it with a
    table or a Monte-Carlo run.  Here the moments are computed exactly for the
    estimators as implemented, on records produced by the package's own
    generator noise_kasdin.Noise from Gaussian input. *)
From Coq Require Import String Reals List ZArith Bool Arith Lia Lra.
From Verif Require Import Base Num NpList NumR Spec ListFacts RSum Dft ModelCore ModelDev ModelCi ModelCiR ModelNoise ModelNoiseR
  DevProofs TotProofs Laws2 Laws3 NoiseProofs CiProofs PropsDev PropsKasdin PropsPredict PropsExpect GreenProofs.
Import ListNotations.
Local Open Scope R_scope.
Local Notation len := List.length.

(** ** Specification *)

(** Expectation over [K] uncorrelated unit samples with the fourth moments of
    independent standard normal variables (Isserlis' formula). *)
Definition delta (i j : nat) : R := if Nat.eqb i j then 1 else 0.
Record gaussian (K : nat) (E : ((nat -> R) -> R) -> R) : Prop := {
  ga_white : white K E;
  ga_one : E (fun _ => 1) = 1;
  ga_four : forall i j k l, (i < K)%nat -> (j < K)%nat -> (k < K)%nat -> (l < K)%nat ->
    E (fun w => w i * w j * w k * w l) =
    delta i j * delta k l + delta i k * delta j l + delta i l * delta j k }.

(** [e] is the equivalent number of degrees of freedom of the random variable [V]:
    e = 2 (E V)^2 / Var V. *)
Definition edf_of (E : ((nat -> R) -> R) -> R) (V : (nat -> R) -> R) (e : R) : Prop :=
  0 < e /\ 0 < E V /\ e * E (fun w => (V w - E V) ^ 2) = 2 * E V ^ 2.

(** The square of the deviation reported by [fn] for one averaging time
    m/rate (0 if the call reports no row). *)
Definition dev2 (fn : list R -> R -> string -> taus_arg R -> res result) (rate : R) (m : nat) (x : list R) : R :=
  match fn x rate "phase"%string (TList [INR m / rate]) with
  | Ok (_, [d], _, _) => d ^ 2
  | _ => 0
  end.

(** ** Such expectations exist: independent three-point variables *)
Fixpoint trip (K : nat) (f : (nat -> R) -> R) : R :=
  match K with
  | O => f (fun _ => 0)
  | S k => 2 / 3 * trip k (fun w => f (upd w k 0)) + / 6 * trip k (fun w => f (upd w k (sqrt 3)))
           + / 6 * trip k (fun w => f (upd w k (- sqrt 3)))
  end.
Lemma trip_ext K : forall f g, (forall w, f w = g w) -> trip K f = trip K g.
Proof.
  induction K as [|K IH]; intros f g H; cbn [trip]; [apply H|].
  rewrite (IH (fun w => f (upd w K 0)) (fun w => g (upd w K 0))) by (intro; apply H).
  rewrite (IH (fun w => f (upd w K (sqrt 3))) (fun w => g (upd w K (sqrt 3)))) by (intro; apply H).
  now rewrite (IH (fun w => f (upd w K (- sqrt 3))) (fun w => g (upd w K (- sqrt 3)))) by (intro; apply H).
Qed.
Lemma trip_add K : forall f g, trip K (fun w => f w + g w) = trip K f + trip K g.
Proof. induction K as [|K IH]; intros f g; cbn [trip]; [reflexivity|]. rewrite !IH. field. Qed.
Lemma trip_scal K : forall c f, trip K (fun w => c * f w) = c * trip K f.
Proof. induction K as [|K IH]; intros c f; cbn [trip]; [reflexivity|]. rewrite !IH. field. Qed.
Lemma trip_const K c : trip K (fun _ => c) = c.
Proof. induction K as [|K IH]; cbn [trip]; [reflexivity|]. rewrite IH. field. Qed.

Definition mom (p : nat) : R := 2 / 3 * 0 ^ p + / 6 * sqrt 3 ^ p + / 6 * (- sqrt 3) ^ p.
Lemma mom_val : mom 0 = 1 /\ mom 1 = 0 /\ mom 2 = 1 /\ mom 3 = 0 /\ mom 4 = 3.
Proof.
  assert (H : sqrt 3 * sqrt 3 = 3) by (apply sqrt_sqrt; lra). unfold mom.
  set (s := sqrt 3) in *. cbn [pow]. repeat split; try field.
  - replace (- s * (- s * 1)) with (s * s) by ring. replace (s * (s * 1)) with (s * s) by ring. rewrite H. field.
  - replace (- s * (- s * (- s * (- s * 1)))) with ((s * s) * (s * s)) by ring.
    replace (s * (s * (s * (s * 1)))) with ((s * s) * (s * s)) by ring. rewrite H. field.
Qed.
Lemma trip_pick K p (f g : (nat -> R) -> R) : (forall w v, f (upd w K v) = v ^ p * g w) ->
  trip (S K) f = mom p * trip K g.
Proof.
  intros H. cbn [trip].
  rewrite (trip_ext K (fun w => f (upd w K 0)) (fun w => 0 ^ p * g w)) by (intro; apply H).
  rewrite (trip_ext K (fun w => f (upd w K (sqrt 3))) (fun w => sqrt 3 ^ p * g w)) by (intro; apply H).
  rewrite (trip_ext K (fun w => f (upd w K (- sqrt 3))) (fun w => (- sqrt 3) ^ p * g w)) by (intro; apply H).
  rewrite !trip_scal. unfold mom. ring.
Qed.

Lemma delta_refl i : delta i i = 1.
Proof. unfold delta. now rewrite Nat.eqb_refl. Qed.
Lemma delta_neq i j : i <> j -> delta i j = 0.
Proof. intros H. unfold delta. apply Nat.eqb_neq in H. now rewrite H. Qed.
Lemma delta_sym i j : delta i j = delta j i.
Proof. unfold delta. now rewrite Nat.eqb_sym. Qed.

Ltac updt := intros w v; rewrite ?upd_same, ?upd_other by lia; ring.
Lemma trip_white K : white K (trip K).
Proof.
  split; [apply trip_ext|apply trip_add|apply trip_scal|].
  destruct mom_val as (M0 & M1 & M2 & M3 & M4).
  induction K as [|K IH]; intros i j Hi Hj; [lia|]. change (trip (S K) (fun w => w i * w j) = delta i j).
  destruct (Nat.eq_dec i K) as [->|Ni]; destruct (Nat.eq_dec j K) as [->|Nj].
  - rewrite (trip_pick K 2 _ (fun _ => 1)) by updt. rewrite M2, trip_const, delta_refl. ring.
  - rewrite (trip_pick K 1 _ (fun w => w j)) by updt. rewrite M1, delta_neq by lia. ring.
  - rewrite (trip_pick K 1 _ (fun w => w i)) by updt. rewrite M1, delta_neq by lia. ring.
  - rewrite (trip_pick K 0 _ (fun w => w i * w j)) by updt. rewrite M0, IH by lia. unfold delta. ring.
Qed.
Lemma trip_gaussian K : gaussian K (trip K).
Proof.
  split; [apply trip_white|apply trip_const|].
  destruct mom_val as (M0 & M1 & M2 & M3 & M4).
  induction K as [|K IH]; intros i j k l Hi Hj Hk Hl; [lia|].
  pose proof (wh_cov K _ (trip_white K)) as HC. change (forall i j, (i < K)%nat -> (j < K)%nat -> trip K (fun w => w i * w j) = delta i j) in HC.
  destruct (Nat.eq_dec i K) as [->|Ni]; destruct (Nat.eq_dec j K) as [->|Nj];
  destruct (Nat.eq_dec k K) as [->|Nk]; destruct (Nat.eq_dec l K) as [->|Nl];
  rewrite ?delta_refl; rewrite ?(delta_neq K) by lia; rewrite ?(delta_sym _ K); rewrite ?(delta_neq K) by lia.
  - rewrite (trip_pick K 4 _ (fun _ => 1)) by updt. rewrite M4, trip_const. ring.
  - rewrite (trip_pick K 3 _ (fun w => w l)) by updt. rewrite M3. ring.
  - rewrite (trip_pick K 3 _ (fun w => w k)) by updt. rewrite M3. ring.
  - rewrite (trip_pick K 2 _ (fun w => w k * w l)) by updt. rewrite M2, HC by lia. ring.
  - rewrite (trip_pick K 3 _ (fun w => w j)) by updt. rewrite M3. ring.
  - rewrite (trip_pick K 2 _ (fun w => w j * w l)) by updt. rewrite M2, HC by lia. ring.
  - rewrite (trip_pick K 2 _ (fun w => w j * w k)) by updt. rewrite M2, HC by lia. ring.
  - rewrite (trip_pick K 1 _ (fun w => w j * w k * w l)) by updt. rewrite M1. ring.
  - rewrite (trip_pick K 3 _ (fun w => w i)) by updt. rewrite M3. ring.
  - rewrite (trip_pick K 2 _ (fun w => w i * w l)) by updt. rewrite M2, HC by lia. ring.
  - rewrite (trip_pick K 2 _ (fun w => w i * w k)) by updt. rewrite M2, HC by lia. ring.
  - rewrite (trip_pick K 1 _ (fun w => w i * w k * w l)) by updt. rewrite M1. ring.
  - rewrite (trip_pick K 2 _ (fun w => w i * w j)) by updt. rewrite M2, HC by lia. ring.
  - rewrite (trip_pick K 1 _ (fun w => w i * w j * w l)) by updt. rewrite M1. ring.
  - rewrite (trip_pick K 1 _ (fun w => w i * w j * w k)) by updt. rewrite M1. ring.
  - rewrite (trip_pick K 0 _ (fun w => w i * w j * w k * w l)) by updt. rewrite M0, IH by lia. ring.
Qed.

(** ** Moments of sums of squared linear forms *)
Definition lin (K : nat) (a w : nat -> R) : R := bigsum K (fun j => a j * w j).
Definition dot (K : nat) (a b : nat -> R) : R := bigsum K (fun j => a j * b j).

Lemma pick_l n i (a : nat -> R) : (i < n)%nat -> bigsum n (fun j => a j * delta i j) = a i.
Proof. apply bigsum_pick. Qed.

Section Moments.
Variable K : nat.
Variable E : ((nat -> R) -> R) -> R.
Hypothesis HG : gaussian K E.
Let HE := ga_white K E HG.

Lemma E_four_lin a b : E (fun w => lin K a w ^ 2 * lin K b w ^ 2) = dot K a a * dot K b b + 2 * dot K a b ^ 2.
Proof.
  rewrite (wh_ext _ E HE _ (fun w => bigsum K (fun i => bigsum K (fun j => bigsum K (fun k => bigsum K (fun l =>
    (a i * a j * b k * b l) * (w i * w j * w k * w l))))))).
  2:{ intros w. unfold lin. transitivity (bigsum K (fun i => a i * w i) * (bigsum K (fun j => a j * w j) *
        (bigsum K (fun k => b k * w k) * bigsum K (fun l => b l * w l)))); [ring|].
      rewrite <- bigsum_scal_r. apply bigsum_ext. intros i _.
      rewrite <- bigsum_scal_r, <- bigsum_scal. apply bigsum_ext. intros j _.
      rewrite <- bigsum_scal_r, <- !bigsum_scal. apply bigsum_ext. intros k _.
      rewrite <- !bigsum_scal. apply bigsum_ext. intros l _. ring. }
  transitivity (bigsum K (fun i => bigsum K (fun j => bigsum K (fun k => bigsum K (fun l =>
    (a i * a j * b k * b l) * (delta i j * delta k l + delta i k * delta j l + delta i l * delta j k)))))).
  { rewrite (E_sum K E HE K (fun i w => bigsum K (fun j => bigsum K (fun k => bigsum K (fun l =>
      (a i * a j * b k * b l) * (w i * w j * w k * w l)))))). apply bigsum_ext. intros i Hi.
    rewrite (E_sum K E HE K (fun j w => bigsum K (fun k => bigsum K (fun l =>
      (a i * a j * b k * b l) * (w i * w j * w k * w l))))). apply bigsum_ext. intros j Hj.
    rewrite (E_sum K E HE K (fun k w => bigsum K (fun l =>
      (a i * a j * b k * b l) * (w i * w j * w k * w l)))). apply bigsum_ext. intros k Hk.
    rewrite (E_sum K E HE K (fun l w => (a i * a j * b k * b l) * (w i * w j * w k * w l))). apply bigsum_ext. intros l Hl.
    rewrite (wh_scal _ E HE (a i * a j * b k * b l) (fun w => w i * w j * w k * w l)).
    now rewrite (ga_four K E HG) by assumption. }
  transitivity (bigsum K (fun i => a i * a i * dot K b b + 2 * (a i * b i) * dot K a b)).
  2:{ rewrite bigsum_plus, !bigsum_scal_r, (bigsum_scal K 2). unfold dot. ring. }
  apply bigsum_ext. intros i Hi.
  transitivity (bigsum K (fun j => (a i * a j * dot K b b) * delta i j + a i * b i * (a j * b j) + a i * b i * (a j * b j))).
  2:{ rewrite !bigsum_plus, pick_l by exact Hi. rewrite bigsum_scal. unfold dot. ring. }
  apply bigsum_ext. intros j Hj.
  transitivity (bigsum K (fun k => (a i * a j * delta i j) * (b k * b k) + (a i * a j * b k * b j) * delta i k
    + (a i * a j * b k * b i) * delta j k)).
  2:{ rewrite !bigsum_plus. rewrite (pick_l K i (fun k => a i * a j * b k * b j)), (pick_l K j (fun k => a i * a j * b k * b i)) by assumption.
      rewrite bigsum_scal. unfold dot. ring. }
  apply bigsum_ext. intros k Hk.
  transitivity (bigsum K (fun l => (a i * a j * b k * b l * delta i j) * delta k l + (a i * a j * b k * b l * delta i k) * delta j l
    + (a i * a j * b k * b l * delta j k) * delta i l)).
  - apply bigsum_ext. intros l _. ring.
  - rewrite !bigsum_plus, !pick_l by assumption. ring.
Qed.

Lemma E_two_lin a : E (fun w => lin K a w ^ 2) = dot K a a.
Proof.
  unfold lin. rewrite (E_lin K E HE) by lia. unfold dot. apply bigsum_ext. intros j _. ring.
Qed.

(** mean and variance of c * sum_k (linear form)^2 *)
Lemma quad_mean c n (a : nat -> nat -> R) :
  E (fun w => c * bigsum n (fun k => lin K (a k) w ^ 2)) = c * bigsum n (fun k => dot K (a k) (a k)).
Proof.
  rewrite (wh_scal _ E HE c (fun w => bigsum n (fun k => lin K (a k) w ^ 2))). f_equal.
  rewrite (E_sum K E HE n (fun k w => lin K (a k) w ^ 2)). apply bigsum_ext. intros k _. apply E_two_lin.
Qed.
Lemma quad_var c n (a : nat -> nat -> R) :
  let V := fun w => c * bigsum n (fun k => lin K (a k) w ^ 2) in
  E (fun w => (V w - E V) ^ 2) = 2 * c ^ 2 * bigsum n (fun k => bigsum n (fun l => dot K (a k) (a l) ^ 2)).
Proof.
  intros V. set (mu := E V).
  assert (Hmu : mu = c * bigsum n (fun k => dot K (a k) (a k))) by apply quad_mean.
  rewrite (wh_ext _ E HE _ (fun w => V w ^ 2 + ((-2 * mu) * V w + mu ^ 2 * 1))) by (intro; ring).
  rewrite (wh_add _ E HE (fun w => V w ^ 2) (fun w => (-2 * mu) * V w + mu ^ 2 * 1)).
  rewrite (wh_add _ E HE (fun w => (-2 * mu) * V w) (fun w => mu ^ 2 * 1)).
  rewrite (wh_scal _ E HE (-2 * mu) V), (wh_scal _ E HE (mu ^ 2) (fun _ => 1)), (ga_one K E HG). fold mu.
  assert (H2 : E (fun w => V w ^ 2) = mu ^ 2 + 2 * c ^ 2 * bigsum n (fun k => bigsum n (fun l => dot K (a k) (a l) ^ 2))).
  { rewrite (wh_ext _ E HE _ (fun w => c ^ 2 * bigsum n (fun k => bigsum n (fun l => lin K (a k) w ^ 2 * lin K (a l) w ^ 2)))).
    2:{ intros w. unfold V. rewrite Rpow_mult_distr. f_equal. cbn [pow]. rewrite Rmult_1_r.
        rewrite <- bigsum_scal_r. apply bigsum_ext. intros k _. rewrite <- bigsum_scal. reflexivity. }
    rewrite (wh_scal _ E HE (c ^ 2) (fun w => bigsum n (fun k => bigsum n (fun l => lin K (a k) w ^ 2 * lin K (a l) w ^ 2)))).
    rewrite (E_sum K E HE n (fun k w => bigsum n (fun l => lin K (a k) w ^ 2 * lin K (a l) w ^ 2))).
    rewrite (bigsum_ext n _ (fun k => dot K (a k) (a k) * bigsum n (fun l => dot K (a l) (a l)) + 2 * bigsum n (fun l => dot K (a k) (a l) ^ 2))).
    2:{ intros k _. rewrite (E_sum K E HE n (fun l w => lin K (a k) w ^ 2 * lin K (a l) w ^ 2)).
        rewrite <- !bigsum_scal, <- bigsum_plus. apply bigsum_ext. intros l _. apply E_four_lin. }
    rewrite bigsum_plus, bigsum_scal_r, bigsum_scal, Hmu. ring. }
  rewrite H2. ring.
Qed.
End Moments.

(** ** Double sums of a function of the distance *)
Definition dist (k l : nat) : nat := (k - l + (l - k))%nat.
Definition dsum (n : nat) (g : nat -> R) : R := bigsum n (fun k => bigsum n (fun l => g (dist k l))).
Lemma dsum_S n g : dsum (S n) g = dsum n g + 2 * bigsum n (fun i => g (S i)) + g 0%nat.
Proof.
  unfold dsum. cbn [bigsum].
  assert (H1 : bigsum n (fun l => g (dist n l)) = bigsum n (fun i => g (S i))).
  { rewrite <- (bigsum_rev n (fun i => g (S i))). apply bigsum_ext. intros i Hi. f_equal. unfold dist. lia. }
  rewrite (bigsum_ext n (fun k => bigsum n (fun l => g (dist k l)) + g (dist k n))
     (fun k => bigsum n (fun l => g (dist k l)) + g (dist n k))) by (intros; f_equal; f_equal; unfold dist; lia).
  rewrite bigsum_plus, H1. replace (dist n n) with 0%nat by (unfold dist; lia). ring.
Qed.
Lemma dsum_ext n g h : (forall j, (j < n)%nat -> g j = h j) -> dsum n g = dsum n h.
Proof. intros H. unfold dsum. apply bigsum_ext. intros k Hk. apply bigsum_ext. intros l Hl. apply H. unfold dist. lia. Qed.
Lemma dsum_plus n g h : dsum n (fun j => g j + h j) = dsum n g + dsum n h.
Proof. unfold dsum. rewrite <- bigsum_plus. apply bigsum_ext. intros. apply bigsum_plus. Qed.
Lemma dsum_scal n c g : dsum n (fun j => c * g j) = c * dsum n g.
Proof. unfold dsum. rewrite <- bigsum_scal. apply bigsum_ext. intros. apply bigsum_scal. Qed.
Lemma dsum_0 n : dsum n (fun j => delta 0 j) = INR n.
Proof.
  induction n as [|n IH]; [reflexivity|]. rewrite dsum_S, IH, S_INR, bigsum_0; [rewrite delta_refl; ring|].
  intros. apply delta_neq. lia.
Qed.
Lemma dsum_delta n p : (1 <= p)%nat -> dsum n (fun j => delta p j) = 2 * INR (n - p).
Proof.
  intros Hp. induction n as [|n IH]; [cbn; ring|]. rewrite dsum_S, IH. rewrite (delta_neq p 0) by lia.
  destruct (le_gt_dec p n) as [H|H].
  - rewrite (bigsum_ext n _ (fun i => 1 * delta (p - 1) i)).
    + rewrite (pick_l n (p - 1) (fun _ => 1)) by lia. replace (S n - p)%nat with (S (n - p)) by lia. rewrite S_INR. ring.
    + intros i Hi. unfold delta. destruct (Nat.eqb_spec p (S i)), (Nat.eqb_spec (p - 1) i); try lia; ring.
  - rewrite bigsum_0 by (intros; apply delta_neq; lia).
    replace (S n - p)%nat with 0%nat by lia. replace (n - p)%nat with 0%nat by lia. cbn. ring.
Qed.
(** one-sided form *)
Lemma dsum_lags n g : dsum n g = INR n * g 0%nat + bigsum (n - 1) (fun i => 2 * (INR n - INR (i + 1)) * g (i + 1)%nat).
Proof.
  induction n as [|n IH]; [cbn; unfold dsum; cbn; ring|]. rewrite dsum_S, IH. clear IH.
  rewrite S_INR. replace (S n - 1)%nat with n by lia.
  destruct n as [|n]; [cbn [Nat.sub bigsum]; change (INR 0) with 0; ring|]. replace (S n - 1)%nat with n by lia. cbn [bigsum].
  rewrite (bigsum_ext n (fun i => 2 * (INR (S n) + 1 - INR (i + 1)) * g (i + 1)%nat)
    (fun i => 2 * (INR (S n) - INR (i + 1)) * g (i + 1)%nat + 2 * g (S i))).
  - rewrite bigsum_plus, bigsum_scal. replace (n + 1)%nat with (S n) by lia. rewrite S_INR. ring.
  - intros i Hi. replace (S i) with (i + 1)%nat by lia. ring.
Qed.

(** edf of a stationary estimator *)
Lemma edf_stationary K E c n (a : nat -> nat -> R) (r : nat -> R) : gaussian K E -> 0 < c -> (1 <= n)%nat -> 0 < r 0%nat ->
  (forall k l, (k < n)%nat -> (l < n)%nat -> dot K (a k) (a l) ^ 2 = r (dist k l) ^ 2) ->
  (forall k, (k < n)%nat -> dot K (a k) (a k) = r 0%nat) ->
  forall e, 0 < e -> e * dsum n (fun j => r j ^ 2) = (INR n * r 0%nat) ^ 2 ->
  edf_of E (fun w => c * bigsum n (fun k => lin K (a k) w ^ 2)) e.
Proof.
  intros HG Hc Hn Hr Hd H0 e He HH. apply lt_0_INR in Hn as Hn'.
  assert (HM : E (fun w => c * bigsum n (fun k => lin K (a k) w ^ 2)) = c * (INR n * r 0%nat)).
  { rewrite (quad_mean K E HG). f_equal. rewrite (bigsum_ext n _ (fun _ => r 0%nat)) by exact H0. apply bigsum_const. }
  split; [exact He|]. split.
  - rewrite HM. apply Rmult_lt_0_compat; [exact Hc|]. now apply Rmult_lt_0_compat.
  - pose proof (quad_var K E HG c n a) as HV. cbv zeta in HV. rewrite HV, HM.
    assert (HQ : bigsum n (fun k => bigsum n (fun l => dot K (a k) (a l) ^ 2)) = dsum n (fun j => r j ^ 2)).
    { unfold dsum. apply bigsum_ext. intros k Hk. apply bigsum_ext. intros l Hl. now apply Hd. }
    rewrite HQ.
    transitivity (2 * c ^ 2 * (e * dsum n (fun j => r j ^ 2))); [ring|]. rewrite HH. ring.
Qed.

(** ** White phase noise: the coefficient vectors *)
Definition w2 (m i j : nat) : R := delta (i + 2 * m) j - 2 * delta (i + m) j + delta i j.
Definition w3 (m i j : nat) : R := delta (i + 3 * m) j - 3 * delta (i + 2 * m) j + 3 * delta (i + m) j - delta i j.

Lemma c2_0 m i j : c2 0 m i j = w2 m i j.
Proof. unfold c2, w2. rewrite !coef_0. reflexivity. Qed.

Lemma record0_nth nr qd w k : (k < nr)%nat -> (record nr qd 0 w).[k] = sqrt qd * w k.
Proof.
  intros H. rewrite record_nth by lia. f_equal.
  rewrite (bigsum_ext nr _ (fun j => w j * delta k j)) by (intros; rewrite coef_0; unfold delta; ring).
  now apply pick_l.
Qed.
Lemma lin_w2 nr m i w : (i + 2 * m < nr)%nat -> lin nr (w2 m i) w = w (i + 2 * m)%nat - 2 * w (i + m)%nat + w i.
Proof.
  intros H. unfold lin. rewrite (bigsum_ext nr _ (fun j => w j * delta (i + 2 * m) j - 2 * (w j * delta (i + m) j) + w j * delta i j))
    by (intros; unfold w2; ring).
  rewrite bigsum_plus, bigsum_minus, bigsum_scal, !pick_l by lia. reflexivity.
Qed.
Lemma lin_w3 nr m i w : (i + 3 * m < nr)%nat ->
  lin nr (w3 m i) w = w (i + 3 * m)%nat - 3 * w (i + 2 * m)%nat + 3 * w (i + m)%nat - w i.
Proof.
  intros H. unfold lin. rewrite (bigsum_ext nr _ (fun j => w j * delta (i + 3 * m) j - 3 * (w j * delta (i + 2 * m) j)
     + 3 * (w j * delta (i + m) j) - w j * delta i j)) by (intros; unfold w3; ring).
  rewrite bigsum_minus, bigsum_plus, bigsum_minus, !bigsum_scal, !pick_l by lia. reflexivity.
Qed.
Lemma d2_w nr qd w m i : (i + 2 * m < nr)%nat -> d2 (record nr qd 0 w) m i = sqrt qd * lin nr (w2 m i) w.
Proof. intros H. unfold d2. rewrite !record0_nth by lia. rewrite lin_w2 by exact H. ring. Qed.
Lemma d3_w nr qd w m i : (i + 3 * m < nr)%nat -> d3 (record nr qd 0 w) m i = sqrt qd * lin nr (w3 m i) w.
Proof. intros H. unfold d3. rewrite !record0_nth by lia. rewrite lin_w3 by exact H. ring. Qed.

Lemma delta_mul s a b A B : (1 <= s)%nat -> A = (a * s)%nat -> B = (b * s)%nat -> delta A B = delta a b.
Proof.
  intros H -> ->. unfold delta. destruct (Nat.eqb_spec a b) as [->|N]; [now rewrite Nat.eqb_refl|].
  destruct (Nat.eqb_spec (a * s) (b * s)) as [Q|_]; [|reflexivity]. apply Nat.mul_cancel_r in Q; lia.
Qed.

Definition r2 (q j : nat) : R := 6 * delta 0 j - 4 * delta q j + delta (2 * q) j.
Definition r3 (q j : nat) : R := 20 * delta 0 j - 15 * delta q j + 6 * delta (2 * q) j - delta (3 * q) j.

Ltac deltas := repeat match goal with |- context [delta ?a ?b] =>
  first [replace (delta a b) with 1 by (symmetry; unfold delta; replace (Nat.eqb a b) with true by (symmetry; apply Nat.eqb_eq; lia); reflexivity)
        |rewrite (delta_neq a b) by lia] end.

Lemma dot_w2 nr s q k l : (1 <= s)%nat -> (1 <= q)%nat ->
  (k * s + 2 * (s * q) < nr)%nat -> (l * s + 2 * (s * q) < nr)%nat ->
  dot nr (w2 (s * q) (k * s)) (w2 (s * q) (l * s)) = r2 q (dist k l).
Proof.
  intros Hs Hq Hk Hl.
  transitivity (lin nr (w2 (s * q) (k * s)) (w2 (s * q) (l * s))); [reflexivity|].
  rewrite lin_w2 by exact Hk. unfold w2.
  rewrite (delta_mul s (l + 2 * q) (k + 2 * q) (l * s + 2 * (s * q)) (k * s + 2 * (s * q))), (delta_mul s (l + q) (k + 2 * q) (l * s + s * q) (k * s + 2 * (s * q))), (delta_mul s l (k + 2 * q) (l * s) (k * s + 2 * (s * q))),
    (delta_mul s (l + 2 * q) (k + q) (l * s + 2 * (s * q)) (k * s + s * q)), (delta_mul s (l + q) (k + q) (l * s + s * q) (k * s + s * q)), (delta_mul s l (k + q) (l * s) (k * s + s * q)),
    (delta_mul s (l + 2 * q) k (l * s + 2 * (s * q)) (k * s)), (delta_mul s (l + q) k (l * s + s * q) (k * s)), (delta_mul s l k (l * s) (k * s)) by (assumption || ring).
  clear Hk Hl. unfold r2, dist.
  destruct (Nat.eq_dec k l); [deltas; ring|]. destruct (Nat.eq_dec k (l + q)); [deltas; ring|].
  destruct (Nat.eq_dec l (k + q)); [deltas; ring|]. destruct (Nat.eq_dec k (l + 2 * q)); [deltas; ring|].
  destruct (Nat.eq_dec l (k + 2 * q)); deltas; ring.
Qed.
Lemma dot_w3 nr s q k l : (1 <= s)%nat -> (1 <= q)%nat ->
  (k * s + 3 * (s * q) < nr)%nat -> (l * s + 3 * (s * q) < nr)%nat ->
  dot nr (w3 (s * q) (k * s)) (w3 (s * q) (l * s)) = r3 q (dist k l).
Proof.
  intros Hs Hq Hk Hl.
  transitivity (lin nr (w3 (s * q) (k * s)) (w3 (s * q) (l * s))); [reflexivity|].
  rewrite lin_w3 by exact Hk. unfold w3.
  rewrite (delta_mul s (l + 3 * q) (k + 3 * q) (l * s + 3 * (s * q)) (k * s + 3 * (s * q))), (delta_mul s (l + 2 * q) (k + 3 * q) (l * s + 2 * (s * q)) (k * s + 3 * (s * q))), (delta_mul s (l + q) (k + 3 * q) (l * s + s * q) (k * s + 3 * (s * q))), (delta_mul s l (k + 3 * q) (l * s) (k * s + 3 * (s * q))),
    (delta_mul s (l + 3 * q) (k + 2 * q) (l * s + 3 * (s * q)) (k * s + 2 * (s * q))), (delta_mul s (l + 2 * q) (k + 2 * q) (l * s + 2 * (s * q)) (k * s + 2 * (s * q))), (delta_mul s (l + q) (k + 2 * q) (l * s + s * q) (k * s + 2 * (s * q))), (delta_mul s l (k + 2 * q) (l * s) (k * s + 2 * (s * q))),
    (delta_mul s (l + 3 * q) (k + q) (l * s + 3 * (s * q)) (k * s + s * q)), (delta_mul s (l + 2 * q) (k + q) (l * s + 2 * (s * q)) (k * s + s * q)), (delta_mul s (l + q) (k + q) (l * s + s * q) (k * s + s * q)), (delta_mul s l (k + q) (l * s) (k * s + s * q)),
    (delta_mul s (l + 3 * q) k (l * s + 3 * (s * q)) (k * s)), (delta_mul s (l + 2 * q) k (l * s + 2 * (s * q)) (k * s)), (delta_mul s (l + q) k (l * s + s * q) (k * s)), (delta_mul s l k (l * s) (k * s)) by (assumption || ring).
  clear Hk Hl. unfold r3, dist.
  destruct (Nat.eq_dec k l); [deltas; ring|]. destruct (Nat.eq_dec k (l + q)); [deltas; ring|].
  destruct (Nat.eq_dec l (k + q)); [deltas; ring|]. destruct (Nat.eq_dec k (l + 2 * q)); [deltas; ring|].
  destruct (Nat.eq_dec l (k + 2 * q)); [deltas; ring|]. destruct (Nat.eq_dec k (l + 3 * q)); [deltas; ring|].
  destruct (Nat.eq_dec l (k + 3 * q)); deltas; ring.
Qed.

Lemma dsum_r2 n q : (1 <= q)%nat -> (2 * q <= n)%nat -> dsum n (fun j => r2 q j ^ 2) = 70 * INR n - 36 * INR q.
Proof.
  intros Hq Hn.
  rewrite (dsum_ext n _ (fun j => (36 * delta 0 j + 16 * delta q j) + delta (2 * q) j)).
  - rewrite !dsum_plus, !dsum_scal, dsum_0, !dsum_delta by lia. rewrite !minus_INR, mult_INR by lia.
    change (INR 2) with 2. ring.
  - intros j _. unfold r2. destruct (Nat.eq_dec j 0); [deltas; ring|]. destruct (Nat.eq_dec j q); [deltas; ring|].
    destruct (Nat.eq_dec j (2 * q)); deltas; ring.
Qed.
Lemma dsum_r3 n q : (1 <= q)%nat -> (3 * q <= n)%nat -> dsum n (fun j => r3 q j ^ 2) = 924 * INR n - 600 * INR q.
Proof.
  intros Hq Hn.
  rewrite (dsum_ext n _ (fun j => ((400 * delta 0 j + 225 * delta q j) + 36 * delta (2 * q) j) + delta (3 * q) j)).
  - rewrite !dsum_plus, !dsum_scal, dsum_0, !dsum_delta by lia. rewrite !minus_INR, !mult_INR by lia.
    change (INR 2) with 2. replace (INR 3) with 3 by (cbn; lra). ring.
  - intros j _. unfold r3. destruct (Nat.eq_dec j 0); [deltas; ring|]. destruct (Nat.eq_dec j q); [deltas; ring|].
    destruct (Nat.eq_dec j (2 * q)); [deltas; ring|]. destruct (Nat.eq_dec j (3 * q)); deltas; ring.
Qed.

(** ** The value returned by edf_greenhall for white PM, unmodified *)
Lemma terms_gt d m N o : (1 <= m)%nat -> (2 * d * m < N)%nat ->
  (Z.of_nat d * stride (Z.of_nat m) o < terms d (Z.of_nat m) (Z.of_nat N) o false)%Z.
Proof.
  intros Hm H. unfold terms, stride. destruct o; [nia|].
  assert (2 * Z.of_nat d <= (Z.of_nat N - 1) / Z.of_nat m)%Z by (apply Z.div_le_lower_bound; nia). lia.
Qed.
Lemma edf_pm d m N o (n q : nat) : (1 <= m)%nat -> (2 <= d <= 3)%nat -> (1 <= q)%nat -> (d * q < n)%nat ->
  terms d (Z.of_nat m) (Z.of_nat N) o false = Z.of_nat n -> stride (Z.of_nat m) o = Z.of_nat q ->
  edf_greenhall 2 d (Z.of_nat m) (Z.of_nat N) o false =
  Ok (1 / (1 / INR n * (binom (4 * d) (2 * d) / binom (2 * d) d ^ 2 - INR d / 2 / (INR n / INR q)))).
Proof.
  intros Hm Hd Hq Hn HM HS. rewrite edf_unfold by lia. cbv zeta.
  change (if o then Z.of_nat m else 1%Z) with (stride (Z.of_nat m) o). rewrite M_terms by lia. rewrite HM, HS.
  rewrite <- !INR_IZR_INZ. cbn [Z.leb Z.eqb Z.compare Pos.eqb].
  assert (Hc : (Z.of_nat d < ceilR (INR n / INR q))%Z).
  { apply Z.nle_gt. intros C. apply ceilR_iff in C. rewrite !INR_IZR_INZ in C. apply ratio_le in C; lia. }
  rewrite (proj2 (Z.leb_gt _ _) Hc). reflexivity.
Qed.
Lemma edf_pm_none d m N o : (1 <= m)%nat -> (2 <= d <= 3)%nat -> (N <= 2 * d * m)%nat ->
  edf_greenhall 2 d (Z.of_nat m) (Z.of_nat N) o false = Err NotImplementedError.
Proof.
  intros Hm Hd HN. rewrite edf_unfold by lia. cbv zeta.
  change (if o then Z.of_nat m else 1%Z) with (stride (Z.of_nat m) o). rewrite M_terms by lia.
  cbn [Z.leb Z.eqb Z.compare Pos.eqb].
  assert (HS : (0 < stride (Z.of_nat m) o)%Z) by (unfold stride; destruct o; lia).
  replace (ceilR _ <=? Z.of_nat d)%Z with true; [reflexivity|]. symmetry. apply Z.leb_le. apply ceilR_iff, ratio_le; [exact HS|].
  unfold terms, stride. destruct o; [nia|].
  assert ((Z.of_nat N - 1) / Z.of_nat m < 2 * Z.of_nat d)%Z by (apply Z.div_lt_upper_bound; nia). lia.
Qed.

Lemma edf_val2 n q : (1 <= q)%nat -> (2 * q < n)%nat ->
  let e := 1 / (1 / INR n * (binom (4 * 2) (2 * 2) / binom (2 * 2) 2 ^ 2 - INR 2 / 2 / (INR n / INR q))) in
  0 < e /\ e * dsum n (fun j => r2 q j ^ 2) = (INR n * r2 q 0) ^ 2.
Proof.
  intros Hq Hn e. rewrite dsum_r2 by lia. destruct binom_values as (_ & B & _).
  replace (r2 q 0) with 6 by (unfold r2; deltas; ring).
  assert (Hq' : 1 <= INR q) by (apply (le_INR 1); lia).
  assert (Hn' : 2 * INR q + 1 <= INR n) by (change 2 with (INR 2); change 1 with (INR 1); rewrite <- mult_INR, <- plus_INR; apply le_INR; lia).
  assert (He : e = 18 * INR n ^ 2 / (35 * INR n - 18 * INR q)).
  { unfold e. change (4 * 2)%nat with 8%nat. change (2 * 2)%nat with 4%nat. rewrite B. change (INR 2) with 2. field. repeat split; try lra. }
  rewrite He. split.
  - apply Rdiv_lt_0_compat; [|lra]. nra.
  - field. lra.
Qed.
Lemma edf_val3 n q : (1 <= q)%nat -> (3 * q < n)%nat ->
  let e := 1 / (1 / INR n * (binom (4 * 3) (2 * 3) / binom (2 * 3) 3 ^ 2 - INR 3 / 2 / (INR n / INR q))) in
  0 < e /\ e * dsum n (fun j => r3 q j ^ 2) = (INR n * r3 q 0) ^ 2.
Proof.
  intros Hq Hn e. rewrite dsum_r3 by lia. destruct binom_values as (_ & _ & B).
  replace (r3 q 0) with 20 by (unfold r3; deltas; ring).
  assert (Hq' : 1 <= INR q) by (apply (le_INR 1); lia).
  assert (H3 : INR 3 = 3) by (cbn; lra).
  assert (Hn' : 3 * INR q + 1 <= INR n) by (rewrite <- H3; change 1 with (INR 1); rewrite <- mult_INR, <- plus_INR; apply le_INR; lia).
  assert (He : e = 100 * INR n ^ 2 / (231 * INR n - 150 * INR q)).
  { unfold e. change (4 * 3)%nat with 12%nat. change (2 * 3)%nat with 6%nat. rewrite B, H3. field. repeat split; try lra. }
  rewrite He. split.
  - apply Rdiv_lt_0_compat; [|lra]. nra.
  - field. lra.
Qed.

Lemma edf_of_ext K E V W e : gaussian K E -> (forall w, V w = W w) -> edf_of E W e -> edf_of E V e.
Proof.
  intros HG H (H1 & H2 & H3). pose proof (wh_ext K E (ga_white K E HG)) as X.
  assert (HV : E V = E W) by (apply X; exact H). split; [exact H1|]. rewrite HV. split; [exact H2|].
  rewrite <- H3. f_equal. apply X. intros w. now rewrite H.
Qed.

(** unmodified estimators: [n] terms of difference order 2 or 3, stride [s], lag [s * q] *)
Lemma edf_of_2 N E c s q n : gaussian N E -> 0 < c -> (1 <= s)%nat -> (1 <= q)%nat -> (2 * q < n)%nat ->
  (forall k, (k < n)%nat -> (k * s + 2 * (s * q) < N)%nat) ->
  edf_of E (fun w => c * bigsum n (fun k => lin N (w2 (s * q) (k * s)) w ^ 2))
    (1 / (1 / INR n * (binom (4 * 2) (2 * 2) / binom (2 * 2) 2 ^ 2 - INR 2 / 2 / (INR n / INR q)))).
Proof.
  intros HG Hc Hs Hq Hn HN. destruct (edf_val2 n q Hq Hn) as [He1 He2].
  apply (edf_stationary N E c n (fun k => w2 (s * q) (k * s)) (r2 q)); try assumption; try lia.
  - unfold r2. deltas. lra.
  - intros k l Hk Hl. now rewrite dot_w2 by auto.
  - intros k Hk. rewrite dot_w2 by auto. f_equal. unfold dist. lia.
Qed.
Lemma edf_of_3 N E c s q n : gaussian N E -> 0 < c -> (1 <= s)%nat -> (1 <= q)%nat -> (3 * q < n)%nat ->
  (forall k, (k < n)%nat -> (k * s + 3 * (s * q) < N)%nat) ->
  edf_of E (fun w => c * bigsum n (fun k => lin N (w3 (s * q) (k * s)) w ^ 2))
    (1 / (1 / INR n * (binom (4 * 3) (2 * 3) / binom (2 * 3) 3 ^ 2 - INR 3 / 2 / (INR n / INR q)))).
Proof.
  intros HG Hc Hs Hq Hn HN. destruct (edf_val3 n q Hq Hn) as [He1 He2].
  apply (edf_stationary N E c n (fun k => w3 (s * q) (k * s)) (r3 q)); try assumption; try lia.
  - unfold r3. deltas. lra.
  - intros k l Hk Hl. now rewrite dot_w3 by auto.
  - intros k Hk. rewrite dot_w3 by auto. f_equal. unfold dist. lia.
Qed.

(** ** The squared deviations as quadratic forms *)
Lemma hvar_nonneg x t m : 0 <= hvar x t m.
Proof.
  unfold hvar. apply Rmult_le_pos.
  - apply inv_nonneg. apply Rmult_le_pos; [|apply pos_INR]. pose proof (pow2_ge_0 (INR m * t)). lra.
  - apply bigsum_nonneg. intros. apply pow2_ge_0.
Qed.
Section Quad.
Variables (N m : nat) (rate qd : R).
Hypothesis Hr : 0 < rate.
Hypothesis Hq : 0 < qd.
Hypothesis Hm : (1 <= m)%nat.

Lemma tau_pos : 0 < INR m * (1 / rate).
Proof. apply Rmult_lt_0_compat; [apply lt_0_INR; lia|apply Rdiv_lt_0_compat; lra]. Qed.

Lemma sq_lin y L : y = sqrt qd * L -> y ^ 2 = qd * L ^ 2.
Proof. intros ->. rewrite Rpow_mult_distr, pow2_sqrt by lra. reflexivity. Qed.

Lemma dev2_adev w : let n := ((N - 1) / m - 1)%nat in (2 <= n)%nat ->
  dev2 adev rate m (record N qd 0 w) =
  / (2 * INR n * (INR m * (1 / rate)) ^ 2) * qd * bigsum n (fun k => lin N (w2 (m * 1) (k * m)) w ^ 2).
Proof.
  intros n Hn. assert (H3 : (3 * m <= N - 1)%nat) by (pose proof (Nat.mul_div_le (N - 1) m ltac:(lia)); nia).
  assert (HL : len (record N qd 0 w) = N) by (apply record_len; lia).
  assert (HNn : adev_n (record N qd 0 w) m = n) by (unfold adev_n; now rewrite HL).
  unfold dev2. rewrite (C14_adev _ _ _ [m]); [|exact Hr|rewrite HL; apply adm_single; [exact Hr|lia]].
  cbv zeta. rewrite report_single by (rewrite HNn; lia). cbv beta. rewrite pow2_sqrt by apply avar_nonneg.
  unfold avar. rewrite HNn. rewrite (Rmult_assoc _ qd). f_equal. rewrite <- bigsum_scal. apply bigsum_ext. intros k Hk.
  apply sq_lin. rewrite Nat.mul_1_r. apply d2_w.
  pose proof (Nat.mul_div_le (N - 1) m ltac:(lia)). unfold n in Hk. nia.
Qed.
Lemma dev2_oadev w : (2 * m + 2 <= N)%nat ->
  dev2 oadev rate m (record N qd 0 w) =
  / (2 * (INR m * (1 / rate)) ^ 2 * INR (N - 2 * m)) * qd * bigsum (N - 2 * m) (fun k => lin N (w2 (1 * m) (k * 1)) w ^ 2).
Proof.
  intros Hn. 
  assert (HL : len (record N qd 0 w) = N) by (apply record_len; lia).
  assert (HNn : oadev_n (record N qd 0 w) m = (N - 2 * m)%nat) by (unfold oadev_n; now rewrite HL).
  unfold dev2. rewrite (C15_oadev _ _ _ [m]); [|exact Hr|rewrite HL; apply adm_single; [exact Hr|lia]].
  cbv zeta. rewrite report_single by (rewrite HNn; lia). cbv beta. rewrite pow2_sqrt by apply oavar_nonneg.
  unfold oavar. rewrite HNn. rewrite (Rmult_assoc _ qd). f_equal. rewrite <- bigsum_scal. apply bigsum_ext. intros k Hk.
  apply sq_lin. rewrite Nat.mul_1_r, Nat.mul_1_l. apply d2_w. lia.
Qed.
Lemma dev2_hdev w : let n := ((N - 1) / m - 2)%nat in (2 <= n)%nat ->
  dev2 hdev rate m (record N qd 0 w) =
  / (6 * (INR m * (1 / rate)) ^ 2 * INR n) * qd * bigsum n (fun k => lin N (w3 (m * 1) (k * m)) w ^ 2).
Proof.
  intros n Hn. assert (H3 : (4 * m <= N - 1)%nat) by (pose proof (Nat.mul_div_le (N - 1) m ltac:(lia)); nia).
  assert (HL : len (record N qd 0 w) = N) by (apply record_len; lia).
  assert (HNn : hdev_n (record N qd 0 w) m = n) by (unfold hdev_n; now rewrite HL).
  unfold dev2. rewrite (C16_hdev _ _ _ [m]); [|exact Hr|rewrite HL; apply adm_single; [exact Hr|lia]].
  cbv zeta. rewrite report_single by (rewrite HNn; lia). cbv beta. rewrite pow2_sqrt by apply hvar_nonneg.
  unfold hvar. rewrite HNn. rewrite (Rmult_assoc _ qd). f_equal. rewrite <- bigsum_scal. apply bigsum_ext. intros k Hk.
  apply sq_lin. rewrite Nat.mul_1_r. apply d3_w.
  pose proof (Nat.mul_div_le (N - 1) m ltac:(lia)). unfold n in Hk. nia.
Qed.
Lemma dev2_ohdev w : (3 * m + 2 <= N)%nat ->
  dev2 ohdev rate m (record N qd 0 w) =
  / (6 * (INR m * (1 / rate)) ^ 2 * INR (N - 3 * m)) * qd * bigsum (N - 3 * m) (fun k => lin N (w3 (1 * m) (k * 1)) w ^ 2).
Proof.
  intros Hn. 
  assert (HL : len (record N qd 0 w) = N) by (apply record_len; lia).
  assert (HNn : ohdev_n (record N qd 0 w) m = (N - 3 * m)%nat) by (unfold ohdev_n; now rewrite HL).
  unfold dev2. rewrite (C17_ohdev _ _ _ [m]); [|exact Hr|rewrite HL; apply adm_single; [exact Hr|lia]].
  cbv zeta. rewrite report_single by (rewrite HNn; lia). cbv beta. rewrite pow2_sqrt by apply ohvar_nonneg.
  unfold ohvar. rewrite HNn. rewrite (Rmult_assoc _ qd). f_equal. rewrite <- bigsum_scal. apply bigsum_ext. intros k Hk.
  apply sq_lin. rewrite Nat.mul_1_r, Nat.mul_1_l. apply d3_w. lia.
Qed.
End Quad.

(** ** C82, unmodified estimators *)
Definition exact_edf (E : ((nat -> R) -> R) -> R) fn (d : nat) (overlapping modified : bool) (alpha : Z) (b rate qd : R) (N m : nat) : Prop :=
  exists e, edf_greenhall alpha d (Z.of_nat m) (Z.of_nat N) overlapping modified = Ok e /\
    edf_of E (fun w => dev2 fn rate m (record N qd b w)) e.

Theorem C82_white_pm N m rate qd E : gaussian N E -> 0 < qd -> 0 < rate -> (1 <= m)%nat ->
  ((4 * m < N)%nat -> exact_edf E adev 2 false false 2 0 rate qd N m /\ exact_edf E oadev 2 true false 2 0 rate qd N m) /\
  ((6 * m < N)%nat -> exact_edf E hdev 3 false false 2 0 rate qd N m /\ exact_edf E ohdev 3 true false 2 0 rate qd N m).
Proof.
  intros HG Hq Hr Hm.
  assert (Hmp : 0 < INR m * (1 / rate)) by (apply tau_pos; assumption).
  assert (Hcp : forall n, (1 <= n)%nat -> forall c, 0 < c -> 0 < / (c * (INR m * (1 / rate)) ^ 2 * INR n) * qd).
  { intros n Hn c Hc. apply lt_0_INR in Hn. apply Rmult_lt_0_compat; [|exact Hq]. apply Rinv_0_lt_compat.
    apply Rmult_lt_0_compat; [|exact Hn]. apply Rmult_lt_0_compat; [exact Hc|now apply pow_lt]. }
  pose proof (Nat.mul_div_le (N - 1) m ltac:(lia)) as HD.
  split; intros HN; split.
  - assert (H4 : (4 <= (N - 1) / m)%nat) by (apply Nat.div_le_lower_bound; lia).
    eexists. split.
    + apply (edf_pm 2 m N false ((N - 1) / m - 1) 1); try lia; [|reflexivity].
      unfold terms. rewrite Nat2Z.inj_sub, Nat2Z.inj_div, Nat2Z.inj_sub by lia. lia.
    + eapply edf_of_ext; [exact HG|intros w; apply dev2_adev; auto; lia|].
      apply edf_of_2; auto; try lia.
      * replace (2 * INR _ * _) with (2 * (INR m * (1 / rate)) ^ 2 * INR ((N - 1) / m - 1)) by ring. apply Hcp; [lia|lra].
      * intros k Hk. nia.
  - eexists. split.
    + apply (edf_pm 2 m N true (N - 2 * m) m); try lia; [|reflexivity]. unfold terms. lia.
    + eapply edf_of_ext; [exact HG|intros w; apply dev2_oadev; auto; lia|].
      apply edf_of_2; auto; try lia. apply Hcp; [lia|lra].
  - assert (H4 : (6 <= (N - 1) / m)%nat) by (apply Nat.div_le_lower_bound; lia).
    eexists. split.
    + apply (edf_pm 3 m N false ((N - 1) / m - 2) 1); try lia; [|reflexivity].
      unfold terms. rewrite Nat2Z.inj_sub, Nat2Z.inj_div, Nat2Z.inj_sub by lia. lia.
    + eapply edf_of_ext; [exact HG|intros w; apply dev2_hdev; auto; lia|].
      apply edf_of_3; auto; try lia.
      * apply Hcp; [lia|lra].
      * intros k Hk. nia.
  - eexists. split.
    + apply (edf_pm 3 m N true (N - 3 * m) m); try lia; [|reflexivity]. unfold terms. lia.
    + eapply edf_of_ext; [exact HG|intros w; apply dev2_ohdev; auto; lia|].
      apply edf_of_3; auto; try lia. apply Hcp; [lia|lra].
Qed.
Print Assumptions C82_white_pm.

(** The length condition is sharp: for shorter records edf_greenhall raises. *)
Theorem C82_white_pm_domain N m d o : (1 <= m)%nat -> (2 <= d <= 3)%nat -> (N <= 2 * d * m)%nat ->
  edf_greenhall 2 d (Z.of_nat m) (Z.of_nat N) o false = Err NotImplementedError.
Proof. apply edf_pm_none. Qed.
Print Assumptions C82_white_pm_domain.

(** ** Modified Allan variance: window sums *)
Definition win (m i j : nat) : R := bigsum m (fun t => delta (i + t) j).
Definition wm (m i j : nat) : R := win m (i + 2 * m) j - 2 * win m (i + m) j + win m i j.
Lemma win_val m i j : win m i j = if ((i <=? j) && (j <? i + m))%nat then 1 else 0.
Proof. rewrite <- avg_0. unfold win. apply bigsum_ext. intros t _. now rewrite coef_0. Qed.
Lemma lin_win nr m i w : (i + m <= nr)%nat -> lin nr (win m i) w = bigsum m (fun t => w (i + t)%nat).
Proof.
  intros H. unfold lin, win.
  rewrite (bigsum_ext nr _ (fun j => bigsum m (fun t => w j * delta (i + t) j)))
    by (intros; rewrite <- bigsum_scal_r; apply bigsum_ext; intros; ring).
  rewrite bigsum_swap. apply bigsum_ext. intros t Ht. apply pick_l. lia.
Qed.
Lemma lin_wm nr m i w : (i + 3 * m <= nr)%nat -> lin nr (wm m i) w =
  bigsum m (fun t => w (i + 2 * m + t)%nat) - 2 * bigsum m (fun t => w (i + m + t)%nat) + bigsum m (fun t => w (i + t)%nat).
Proof.
  intros H. rewrite <- !(lin_win nr) by lia. unfold lin.
  rewrite <- bigsum_scal, <- bigsum_minus, <- bigsum_plus. apply bigsum_ext. intros j _. unfold wm. ring.
Qed.
Lemma count_win A B m n : (n <= m)%nat ->
  bigsum n (fun t => if ((B <=? A + t) && (A + t <? B + m))%nat then 1 else 0) = INR (Nat.min (A + n) (B + m) - Nat.max A B).
Proof.
  intros Hn. induction n as [|n IH]; cbn [bigsum].
  - replace (Nat.min (A + 0) (B + m) - Nat.max A B)%nat with 0%nat by lia. reflexivity.
  - rewrite IH by lia. destruct (Nat.leb_spec B (A + n)), (Nat.ltb_spec (A + n) (B + m)); cbn [andb].
    + replace (Nat.min (A + S n) (B + m) - Nat.max A B)%nat with (S (Nat.min (A + n) (B + m) - Nat.max A B)) by lia.
      rewrite S_INR. ring.
    + rewrite Rplus_0_r. f_equal. lia.
    + rewrite Rplus_0_r. f_equal. lia.
    + lia.
Qed.
Lemma dot_win m A B : bigsum m (fun t => win m B (A + t)) = INR (m - dist A B).
Proof.
  rewrite (bigsum_ext m _ (fun t => if ((B <=? A + t) && (A + t <? B + m))%nat then 1 else 0)) by (intros; apply win_val).
  rewrite count_win by lia. f_equal. unfold dist. lia.
Qed.

Definition T (m x : nat) : R := INR (m - x).
Definition rm (m j : nat) : R :=
  6 * T m j - 4 * (T m (dist j m) + T m (j + m)) + (T m (dist j (2 * m)) + T m (j + 2 * m)).
Lemma dot_wm nr m k l : (k + 3 * m <= nr)%nat -> (l + 3 * m <= nr)%nat ->
  dot nr (wm m k) (wm m l) = rm m (dist k l).
Proof.
  intros Hk Hl. change (lin nr (wm m k) (wm m l) = rm m (dist k l)). rewrite lin_wm by exact Hk. unfold wm.
  rewrite !bigsum_plus, !bigsum_minus, !bigsum_scal, !dot_win.
  unfold rm, T. destruct (le_ge_dec k l).
  - replace (dist (k + 2 * m) (l + 2 * m)) with (dist k l) by (unfold dist; lia).
    replace (dist (k + m) (l + m)) with (dist k l) by (unfold dist; lia).
    replace (dist (k + 2 * m) (l + m)) with (dist (dist k l) m) by (unfold dist; lia).
    replace (dist (k + m) l) with (dist (dist k l) m) by (unfold dist; lia).
    replace (dist (k + m) (l + 2 * m)) with (dist k l + m)%nat by (unfold dist; lia).
    replace (dist k (l + m)) with (dist k l + m)%nat by (unfold dist; lia).
    replace (dist (k + 2 * m) l) with (dist (dist k l) (2 * m)) by (unfold dist; lia).
    replace (dist k (l + 2 * m)) with (dist k l + 2 * m)%nat by (unfold dist; lia). ring.
  - replace (dist (k + 2 * m) (l + 2 * m)) with (dist k l) by (unfold dist; lia).
    replace (dist (k + m) (l + m)) with (dist k l) by (unfold dist; lia).
    replace (dist (k + 2 * m) (l + m)) with (dist k l + m)%nat by (unfold dist; lia).
    replace (dist (k + m) l) with (dist k l + m)%nat by (unfold dist; lia).
    replace (dist (k + m) (l + 2 * m)) with (dist (dist k l) m) by (unfold dist; lia).
    replace (dist k (l + m)) with (dist (dist k l) m) by (unfold dist; lia).
    replace (dist (k + 2 * m) l) with (dist k l + 2 * m)%nat by (unfold dist; lia).
    replace (dist k (l + 2 * m)) with (dist (dist k l) (2 * m)) by (unfold dist; lia). ring.
Qed.
Lemma T_0 m x : (m <= x)%nat -> T m x = 0.
Proof. intros H. unfold T. now replace (m - x)%nat with 0%nat by lia. Qed.
Lemma rm_0 m : rm m 0 = 6 * INR m.
Proof. unfold rm. rewrite (T_0 m (dist 0 m)), (T_0 m (0 + m)), (T_0 m (dist 0 (2 * m))), (T_0 m (0 + 2 * m)) by (unfold dist; lia).
  unfold T. rewrite Nat.sub_0_r. ring. Qed.
Lemma rm_far m j : (3 * m <= j)%nat -> rm m j = 0.
Proof. intros H. unfold rm. rewrite !T_0 by (unfold dist; lia). ring. Qed.

(** Greenhall's kernel for alpha = 2, F = 1 is the window autocorrelation *)
Lemma swf_2 t : swf 2 t = - Rabs t.
Proof. reflexivity. Qed.
Lemma sxf_T m x : (1 <= m)%nat -> sxf (Some 1) 2 (INR x / INR m) = 2 / INR m * T m x.
Proof.
  intros Hm. apply lt_0_INR in Hm as Hm'. unfold sxf. rewrite !swf_2. replace (1 / 1) with 1 by field.
  pose proof (pos_INR x) as Hx.
  assert (Ha : 0 <= INR x / INR m) by (apply Rmult_le_pos; [exact Hx|left; now apply Rinv_0_lt_compat]).
  rewrite (Rabs_pos_eq (INR x / INR m)), (Rabs_pos_eq (INR x / INR m + 1)) by lra. unfold T.
  destruct (le_gt_dec x m) as [H|H].
  - rewrite minus_INR by exact H. rewrite Rabs_left1.
    + field. lra.
    + apply le_INR in H. apply (Rmult_le_reg_r (INR m)); [exact Hm'|]. unfold Rdiv. rewrite Rmult_minus_distr_r, Rmult_assoc, Rinv_l by lra. lra.
  - replace (m - x)%nat with 0%nat by lia. change (INR 0) with 0. rewrite Rabs_pos_eq.
    + field. lra.
    + assert (INR m <= INR x) by (apply le_INR; lia).
      apply (Rmult_le_reg_r (INR m)); [exact Hm'|]. unfold Rdiv. rewrite Rmult_minus_distr_r, Rmult_assoc, Rinv_l by lra. lra.
Qed.
Lemma sxf_T_sub m j u : (1 <= m)%nat -> sxf (Some 1) 2 (INR j / INR m - INR u) = 2 / INR m * T m (dist j (u * m)).
Proof.
  intros Hm. rewrite <- sxf_T by exact Hm. apply lt_0_INR in Hm as Hm'. destruct (le_ge_dec (u * m) j) as [H|H].
  - f_equal. replace (dist j (u * m)) with (j - u * m)%nat by (unfold dist; lia). rewrite minus_INR, mult_INR by exact H. field. lra.
  - rewrite <- sxf_even. f_equal. replace (dist j (u * m)) with (u * m - j)%nat by (unfold dist; lia).
    rewrite minus_INR, mult_INR by exact H. field. lra.
Qed.
Lemma sxf_T_add m j u : (1 <= m)%nat -> sxf (Some 1) 2 (INR j / INR m + INR u) = 2 / INR m * T m (j + u * m).
Proof.
  intros Hm. rewrite <- sxf_T by exact Hm. apply lt_0_INR in Hm as Hm'.
  f_equal. rewrite plus_INR, mult_INR. field. lra.
Qed.
Lemma szf_rm m j : (1 <= m)%nat -> szf 2 (Some 1) 2 (INR j / INR m) = 2 / INR m * rm m j.
Proof.
  intros Hm. unfold szf. cbv zeta. rewrite sxf_T by exact Hm.
  pose proof (sxf_T_sub m j 1 Hm) as S1. pose proof (sxf_T_sub m j 2 Hm) as S2.
  pose proof (sxf_T_add m j 1 Hm) as A1. pose proof (sxf_T_add m j 2 Hm) as A2.
  change (INR 1) with 1 in *. change (INR 2) with 2 in *. rewrite Nat.mul_1_l in *. rewrite S1, S2, A1, A2. unfold rm. ring.
Qed.

Lemma bsum_dsum m n : (1 <= m)%nat -> (1 <= n)%nat ->
  bsum (Z.min (Z.of_nat n) (3 * Z.of_nat m)) (Z.of_nat n) (IZR (Z.of_nat m)) (Some 1) 2 2 =
  (2 / INR m) ^ 2 / INR n * dsum n (fun j => rm m j ^ 2).
Proof.
  intros Hm Hn. apply lt_0_INR in Hm as Hm'. apply lt_0_INR in Hn as Hn'.
  set (J := Nat.min n (3 * m)). replace (Z.min (Z.of_nat n) (3 * Z.of_nat m)) with (Z.of_nat J) by (unfold J; lia).
  unfold bsum. rewrite <- !INR_IZR_INZ, Nat2Z.id.
  replace 0 with (INR 0 / INR m) at 1 by (change (INR 0) with 0; field; lra).
  rewrite !szf_rm by exact Hm.
  rewrite (bigsum_ext (J - 1) _ (fun i => (2 / INR m) ^ 2 / INR n * (2 * (INR n - INR (i + 1)) * rm m (i + 1) ^ 2))).
  2:{ intros i _. rewrite szf_rm by exact Hm. field. lra. }
  rewrite bigsum_scal, dsum_lags.
  assert (HJ : bigsum (n - 1) (fun i => 2 * (INR n - INR (i + 1)) * rm m (i + 1) ^ 2) =
               bigsum (J - 1) (fun i => 2 * (INR n - INR (i + 1)) * rm m (i + 1) ^ 2)).
  { replace (n - 1)%nat with ((J - 1) + (n - J))%nat by (unfold J; lia). rewrite bigsum_add.
    rewrite (bigsum_0 (n - J)); [ring|]. intros i Hi. rewrite (rm_far m); [ring|]. unfold J in *. lia. }
  rewrite HJ. clear HJ.
  assert (HE : (INR n - INR J) * rm m J ^ 2 = 0).
  { destruct (le_gt_dec (3 * m) n) as [H|H].
    - rewrite (rm_far m J); [ring|]. unfold J. lia.
    - replace J with n by (unfold J; lia). ring. }
  set (B := bigsum _ _). 
  transitivity ((2 / INR m) ^ 2 / INR n * (INR n * rm m 0 ^ 2 + (INR n - INR J) * rm m J ^ 2 + B)); [field; lra|].
  rewrite HE. ring.
Qed.

Lemma basic_pm_mod m (n : nat) : (1 <= m)%nat -> (1 <= n)%nat ->
  basic 2 2 (Z.min (Z.of_nat n) (3 * Z.of_nat m)) (Z.of_nat n) (IZR (Z.of_nat m)) (Some 1) =
  Ok ((INR n * rm m 0) ^ 2 / dsum n (fun j => rm m j ^ 2)).
Proof.
  intros Hm Hn. apply lt_0_INR in Hm as Hm'. apply lt_0_INR in Hn as Hn'.
  assert (HF : sx_dom (Some 1) 2) by (split; [lra|unfold sw_dom; lia]).
  unfold basic. rewrite sz_ok by (lia || exact HF). cbn [bind].
  rewrite basicsum_ok; [|lia|exact HF|lia|rewrite <- INR_IZR_INZ; lra]. cbn [bind]. rewrite bsum_dsum by assumption.
  f_equal. rewrite <- INR_IZR_INZ. replace 0 with (INR 0 / INR m) at 1 by (change (INR 0) with 0; field; lra).
  rewrite szf_rm by exact Hm. 
  assert (HD : INR n * rm m 0 ^ 2 <= dsum n (fun j => rm m j ^ 2)).
  { rewrite dsum_lags. rewrite <- (Rplus_0_r (INR n * rm m 0 ^ 2)) at 1. apply Rplus_le_compat_l. apply bigsum_nonneg. intros i Hi.
    apply Rmult_le_pos; [|apply pow2_ge_0]. assert (INR (i + 1) <= INR n) by (apply le_INR; lia). lra. }
  rewrite rm_0 in *. assert (0 < INR n * (6 * INR m) ^ 2) by (apply Rmult_lt_0_compat; [exact Hn'|apply pow_lt; lra]).
  field. repeat split; lra.
Qed.


Lemma edf_pm_mod m N (n : nat) : (1 <= m)%nat -> (1 <= n)%nat -> Z.of_nat n = (Z.of_nat N - 3 * Z.of_nat m + 1)%Z ->
  (Nat.min n (3 * m) <= 100)%nat ->
  edf_greenhall 2 2 (Z.of_nat m) (Z.of_nat N) true true =
  Ok ((INR n * rm m 0) ^ 2 / dsum n (fun j => rm m j ^ 2)).
Proof.
  intros Hm Hn HM HJ.
  rewrite edf_unfold by lia. cbv zeta. change (greenhall_M (Z.of_nat m) (Z.of_nat m) (Z.of_nat N) 2 true)
    with (greenhall_M (stride (Z.of_nat m) true) (Z.of_nat m) (Z.of_nat N) 2 true).
  rewrite M_terms by lia. unfold terms. replace (Z.of_nat N - (Z.of_nat 2 + 1) * Z.of_nat m + 1)%Z with (Z.of_nat n) by lia.
  change (Z.of_nat 2 + 1)%Z with 3%Z.
  replace (Z.min (Z.of_nat n) (3 * Z.of_nat m) <=? 100)%Z with true by (symmetry; apply Z.leb_le; lia).
  now apply basic_pm_mod.
Qed.

(** the uncapped formula *)
Lemma edf_simple_mod m N (n : nat) : (1 <= m)%nat -> (1 <= n)%nat -> Z.of_nat n = (Z.of_nat N - 3 * Z.of_nat m + 1)%Z ->
  edf_greenhall_simple 2 2 (Z.of_nat m) (Z.of_nat m) 1 (Z.of_nat N) =
  Ok ((INR n * rm m 0) ^ 2 / dsum n (fun j => rm m j ^ 2)).
Proof.
  intros Hm Hn HM. rewrite <- basic_pm_mod by assumption. unfold edf_greenhall_simple.
  change (1 =? 0)%Z with false. rewrite (proj2 (Z.eqb_neq (Z.of_nat m) 0)) by lia. cbv zeta.
  replace (1 + Z.of_nat m * (Z.of_nat N - (Z.of_nat m / 1 + Z.of_nat m * Z.of_nat 2)) / Z.of_nat m)%Z with (Z.of_nat n).
  - reflexivity.
  - rewrite Z.div_1_r, (Z.mul_comm (Z.of_nat m) (_ - _)), Z.div_mul by lia. lia.
Qed.

Lemma dev2_mdev N m rate qd w : 0 < rate -> 0 < qd -> (1 <= m)%nat -> (3 * m + 1 <= N)%nat ->
  dev2 mdev rate m (record N qd 0 w) =
  / (2 * INR m ^ 2 * (INR m * (1 / rate)) ^ 2 * INR (N - 3 * m + 1)) * qd * bigsum (N - 3 * m + 1) (fun k => lin N (wm m k) w ^ 2).
Proof.
  intros Hr Hq Hm Hn.
  assert (HL : len (record N qd 0 w) = N) by (apply record_len; lia).
  assert (HNn : mdev_n (record N qd 0 w) m = Z.of_nat (N - 3 * m + 1)) by (unfold mdev_n; rewrite HL; lia).
  unfold dev2. rewrite (C18_mdev _ _ _ [m]); [|exact Hr|rewrite HL; apply adm_single; [exact Hr|lia]].
  cbv zeta. rewrite report_single by (rewrite HNn; lia). cbv beta. rewrite pow2_sqrt by (apply mvar_nonneg; rewrite HNn; lia).
  unfold mvar. rewrite HNn. rewrite <- INR_IZR_INZ, Nat2Z.id. rewrite (Rmult_assoc _ qd). f_equal. rewrite <- bigsum_scal. apply bigsum_ext. intros k Hk.
  apply sq_lin; [exact Hq|]. rewrite lin_wm by lia.
  rewrite (bigsum_ext m _ (fun i => sqrt qd * (w (k + 2 * m + i)%nat - 2 * w (k + m + i)%nat + w (k + i)%nat))).
  - rewrite bigsum_scal, bigsum_plus, bigsum_minus, bigsum_scal. reflexivity.
  - intros i Hi. rewrite d2_w, lin_w2 by lia. replace (k + i + 2 * m)%nat with (k + 2 * m + i)%nat by lia.
    replace (k + i + m)%nat with (k + m + i)%nat by lia. reflexivity.
Qed.

Lemma mdev_edf_of N m rate qd E : gaussian N E -> 0 < qd -> 0 < rate -> (1 <= m)%nat -> (3 * m < N)%nat ->
  edf_of E (fun w => dev2 mdev rate m (record N qd 0 w))
    ((INR (N - 3 * m + 1) * rm m 0) ^ 2 / dsum (N - 3 * m + 1) (fun j => rm m j ^ 2)).
Proof.
  intros HG Hq Hr Hm HN. apply lt_0_INR in Hm as Hm'.
  assert (Hn' : 0 < INR (N - 3 * m + 1)) by (apply lt_0_INR; lia).
  eapply edf_of_ext; [exact HG|intros w; apply dev2_mdev; auto; lia|].
    assert (HD : 0 < dsum (N - 3 * m + 1) (fun j => rm m j ^ 2)).
    { rewrite dsum_lags, rm_0. apply Rplus_lt_le_0_compat.
      - apply Rmult_lt_0_compat; [exact Hn'|apply pow_lt; lra].
      - apply bigsum_nonneg. intros i Hi. apply Rmult_le_pos; [|apply pow2_ge_0].
        assert (INR (i + 1) <= INR (N - 3 * m + 1)) by (apply le_INR; lia). lra. }
    assert (H0 : 0 < INR (N - 3 * m + 1) * rm m 0) by (rewrite rm_0; apply Rmult_lt_0_compat; lra).
    apply (edf_stationary N E _ _ (wm m) (rm m)); auto; try lia.
    + pose proof (tau_pos m rate Hr Hm). apply Rmult_lt_0_compat; [|exact Hq]. apply Rinv_0_lt_compat.
      apply Rmult_lt_0_compat; [|exact Hn']. apply Rmult_lt_0_compat; [|now apply pow_lt]. apply Rmult_lt_0_compat; [lra|now apply pow_lt].
    + rewrite rm_0. lra.
    + intros k l Hk Hl. now rewrite dot_wm by lia.
    + intros k Hk. rewrite dot_wm by lia. f_equal. unfold dist. lia.
    + apply Rdiv_lt_0_compat; [now apply pow_lt|exact HD].
    + field. lra.
Qed.

(** ** C82, modified Allan deviation *)
Theorem C82_white_pm_mdev N m rate qd E : gaussian N E -> 0 < qd -> 0 < rate -> (1 <= m)%nat -> (3 * m < N)%nat ->
  (Nat.min (N - 3 * m + 1) (3 * m) <= 100)%nat -> exact_edf E mdev 2 true true 2 0 rate qd N m.
Proof.
  intros HG Hq Hr Hm HN HJ. eexists. split; [apply (edf_pm_mod m N (N - 3 * m + 1)); lia|]. now apply mdev_edf_of.
Qed.
Print Assumptions C82_white_pm_mdev.

(** edf_greenhall_simple with F = 1, S = m is exact without the restriction min(M, 3m) <= 100. *)
Theorem C82_simple_mdev N m rate qd E : gaussian N E -> 0 < qd -> 0 < rate -> (1 <= m)%nat -> (3 * m < N)%nat ->
  exists e, edf_greenhall_simple 2 2 (Z.of_nat m) (Z.of_nat m) 1 (Z.of_nat N) = Ok e /\
    edf_of E (fun w => dev2 mdev rate m (record N qd 0 w)) e.
Proof.
  intros HG Hq Hr Hm HN. eexists. split; [apply (edf_simple_mod m N (N - 3 * m + 1)); lia|]. now apply mdev_edf_of.
Qed.
Print Assumptions C82_simple_mdev.


(** ** White FM at m = 1: the returned value is not the edf of the estimator *)
Definition wf (i j : nat) : R := delta (i + 2) j - delta (i + 1) j.
Lemma c2_m2 i j : c2 (-2) 1 i j = wf i j.
Proof.
  unfold c2, wf, delta. rewrite !coef_m2. change (2 * 1)%nat with 2%nat.
  destruct (Nat.leb_spec j (i + 2)), (Nat.leb_spec j (i + 1)), (Nat.leb_spec j i), (Nat.eqb_spec (i + 2) j), (Nat.eqb_spec (i + 1) j);
    try lia; ring.
Qed.
Definition rf (j : nat) : R := 2 * delta 0 j - delta 1 j.
Lemma dot_wf nr k l : (k + 2 < nr)%nat -> (l + 2 < nr)%nat -> dot nr (wf k) (wf l) = rf (dist k l).
Proof.
  intros Hk Hl. unfold dot.
  rewrite (bigsum_ext nr _ (fun j => wf l j * delta (k + 2) j - wf l j * delta (k + 1) j)) by (intros; unfold wf; ring).
  rewrite bigsum_minus, !pick_l by lia. unfold wf, rf, dist.
  destruct (Nat.eq_dec k l); [deltas; ring|]. destruct (Nat.eq_dec k (l + 1)); [deltas; ring|].
  destruct (Nat.eq_dec l (k + 1)); deltas; ring.
Qed.
Lemma dsum_rf n : (1 <= n)%nat -> dsum n (fun j => rf j ^ 2) = 6 * INR n - 2.
Proof.
  intros Hn. rewrite (dsum_ext n _ (fun j => 4 * delta 0 j + delta 1 j)).
  - rewrite dsum_plus, dsum_scal, dsum_0, dsum_delta, minus_INR by lia. change (INR 1) with 1. ring.
  - intros j _. unfold rf. destruct (Nat.eq_dec j 0); [deltas; ring|]. destruct (Nat.eq_dec j 1); deltas; ring.
Qed.

Lemma dev2_oadev_fm N rate qd w : 0 < rate -> 0 < qd -> (4 <= N)%nat ->
  dev2 oadev rate 1 (record N qd (-2) w) =
  / (2 * (INR 1 * (1 / rate)) ^ 2 * INR (N - 2)) * qd * bigsum (N - 2) (fun k => lin N (wf k) w ^ 2).
Proof.
  intros Hr Hq Hn.
  assert (HL : len (record N qd (-2) w) = N) by (apply record_len; lia).
  assert (HNn : oadev_n (record N qd (-2) w) 1 = (N - 2)%nat) by (unfold oadev_n; rewrite HL; lia).
  unfold dev2. rewrite (C15_oadev _ _ _ [1%nat]); [|exact Hr|rewrite HL; apply adm_single; [exact Hr|lia]].
  cbv zeta. rewrite report_single by (rewrite HNn; lia). cbv beta. rewrite pow2_sqrt by apply oavar_nonneg.
  unfold oavar. rewrite HNn. rewrite (Rmult_assoc _ qd). f_equal. rewrite <- bigsum_scal. apply bigsum_ext. intros k Hk.
  apply sq_lin; [exact Hq|]. rewrite record_d2 by lia. f_equal. apply bigsum_ext. intros j _. now rewrite c2_m2.
Qed.
Lemma dev2_adev_fm N rate qd w : 0 < rate -> (4 <= N)%nat ->
  dev2 adev rate 1 (record N qd (-2) w) = dev2 oadev rate 1 (record N qd (-2) w).
Proof.
  intros Hr Hn.
  assert (HL : len (record N qd (-2) w) = N) by (apply record_len; lia).
  assert (HNn : oadev_n (record N qd (-2) w) 1 = (N - 2)%nat) by (unfold oadev_n; rewrite HL; lia).
  assert (HNa : adev_n (record N qd (-2) w) 1 = (N - 2)%nat) by (unfold adev_n; rewrite HL, Nat.div_1_r; lia).
  unfold dev2. rewrite (C15_oadev _ _ _ [1%nat]), (C14_adev _ _ _ [1%nat]); try exact Hr; try (rewrite HL; apply adm_single; [exact Hr|lia]).
  cbv zeta. rewrite !report_single by (rewrite ?HNn, ?HNa; lia). cbv beta. f_equal. f_equal.
  unfold avar, oavar. rewrite HNn, HNa. f_equal; [f_equal; ring|]. apply bigsum_ext. intros k _. now rewrite Nat.mul_1_r.
Qed.

(** greenhall_sx for alpha = 0, F = 1 at the integers *)
Lemma sxf_0 (z : Z) : sxf (Some 1) 0 (IZR z) = IZR (2 * Z.abs (z ^ 3) - Z.abs ((z - 1) ^ 3) - Z.abs ((z + 1) ^ 3)).
Proof.
  unfold sxf, swf, greenhall_sw. replace (1 / 1) with 1 by field.
  rewrite !minus_IZR, mult_IZR, !abs_IZR.
  rewrite <- !(pow_IZR _ 3), minus_IZR, plus_IZR. ring.
Qed.
Lemma szf_0 (z : Z) (v : Z) :
  (let s := fun z => 2 * Z.abs (z ^ 3) - Z.abs ((z - 1) ^ 3) - Z.abs ((z + 1) ^ 3) in
   6 * s z - 4 * s (z - 1) - 4 * s (z + 1) + s (z - 2) + s (z + 2) = v)%Z ->
  szf 2 (Some 1) 0 (IZR z) = IZR v.
Proof.
  intros <-. unfold szf. cbv zeta.
  replace (IZR z - 1) with (IZR (z - 1)) by (now rewrite minus_IZR).
  replace (IZR z + 1) with (IZR (z + 1)) by (now rewrite plus_IZR).
  replace (IZR z - 2) with (IZR (z - 2)) by (now rewrite minus_IZR).
  replace (IZR z + 2) with (IZR (z + 2)) by (now rewrite plus_IZR).
  rewrite !sxf_0. set (a := (_ : Z)). rewrite <- !mult_IZR, <- !minus_IZR, <- !plus_IZR. reflexivity.
Qed.

Lemma edf_fm_1 N o : (5 <= N)%nat ->
  edf_greenhall 0 2 1 (Z.of_nat N) o false = Ok (18 * INR (N - 2) ^ 2 / (23 * INR (N - 2) - 6)).
Proof.
  intros HN. set (n := (N - 2)%nat). assert (Hn : (3 <= n)%nat) by (unfold n; lia).
  assert (Hn' : 3 <= INR n) by (replace 3 with (INR 3) by (cbn; lra); now apply le_INR).
  rewrite edf_unfold by lia. cbv zeta. replace (if o then 1%Z else 1%Z) with 1%Z by (now destruct o).
  replace (greenhall_M 1 1 (Z.of_nat N) 2 false) with (Z.of_nat n).
  2:{ pose proof (M_terms 2 1 (Z.of_nat N) true false ltac:(lia)) as HM. cbn [stride] in HM. rewrite HM. unfold terms, n. lia. }
  replace (Z.min (Z.of_nat n) ((Z.of_nat 2 + 1) * 1)) with 3%Z by lia.
  change (0 <=? 0)%Z with true. change (3 <=? 100)%Z with true. change (1 * (Z.of_nat 2 + 1) <=? 100)%Z with true. cbv iota.
  assert (HF : sx_dom (Some 1) 0) by (split; [lra|unfold sw_dom; lia]).
  unfold basic. rewrite sz_ok by (lia || exact HF). cbn [bind].
  rewrite basicsum_ok; [|lia|exact HF|lia|lra]. cbn [bind]. f_equal.
  unfold bsum. change (Z.to_nat 3 - 1)%nat with 2%nat. cbn [bigsum].
  change (INR (0 + 1)) with 1. change (INR (1 + 1)) with 2.
  replace (1 / 1) with 1 by field. replace (2 / 1) with 2 by field. replace (3 / 1) with 3 by field.
  rewrite (szf_0 0 12 eq_refl), (szf_0 1 (-4) eq_refl), (szf_0 2 (-2) eq_refl), (szf_0 3 0 eq_refl).
  rewrite <- INR_IZR_INZ. field. lra.
Qed.

Theorem C82_white_fm_refuted N rate qd E : gaussian N E -> 0 < qd -> 0 < rate -> (5 <= N)%nat ->
  (forall o, edf_greenhall 0 2 1 (Z.of_nat N) o false = Ok (18 * INR (N - 2) ^ 2 / (23 * INR (N - 2) - 6))) /\
  (forall fn, fn = adev \/ fn = oadev ->
    edf_of E (fun w => dev2 fn rate 1 (record N qd (-2) w)) (2 * INR (N - 2) ^ 2 / (3 * INR (N - 2) - 1))) /\
  2 * INR (N - 2) ^ 2 / (3 * INR (N - 2) - 1) < 18 * INR (N - 2) ^ 2 / (23 * INR (N - 2) - 6).
Proof.
  intros HG Hq Hr HN. split; [intros o; now apply edf_fm_1|].
  set (n := (N - 2)%nat). assert (Hn : (3 <= n)%nat) by (unfold n; lia).
  assert (Hn' : 3 <= INR n) by (replace 3 with (INR 3) by (cbn; lra); now apply le_INR).
  assert (Hn2 : 0 < INR n ^ 2) by (apply pow_lt; lra).
  split.
  - assert (HO : edf_of E (fun w => dev2 oadev rate 1 (record N qd (-2) w)) (2 * INR n ^ 2 / (3 * INR n - 1))).
    { eapply edf_of_ext; [exact HG|intros w; apply dev2_oadev_fm; auto; lia|].
      apply (edf_stationary N E _ n wf rf); auto; try lia.
      - apply Rmult_lt_0_compat; [|exact Hq]. apply Rinv_0_lt_compat. fold n.
        pose proof (tau_pos 1 rate Hr (le_n 1)). apply Rmult_lt_0_compat; [|lra]. apply Rmult_lt_0_compat; [lra|now apply pow_lt].
      - unfold rf. deltas. lra.
      - intros k l Hk Hl. unfold n in *. now rewrite dot_wf by lia.
      - intros k Hk. unfold n in *. rewrite dot_wf by lia. f_equal. unfold dist. lia.
      - apply Rdiv_lt_0_compat; lra.
      - rewrite dsum_rf by lia. replace (rf 0) with 2 by (unfold rf; deltas; ring). field. lra. }
    intros fn [-> | ->]; [|exact HO].
    eapply edf_of_ext; [exact HG|intros w; apply dev2_adev_fm; auto; lia|exact HO].
  - apply (Rmult_lt_reg_r ((3 * INR n - 1) * (23 * INR n - 6))); [apply Rmult_lt_0_compat; lra|].
    replace (2 * INR n ^ 2 / (3 * INR n - 1) * ((3 * INR n - 1) * (23 * INR n - 6))) with (2 * INR n ^ 2 * (23 * INR n - 6)) by (field; lra).
    replace (18 * INR n ^ 2 / (23 * INR n - 6) * ((3 * INR n - 1) * (23 * INR n - 6))) with (18 * INR n ^ 2 * (3 * INR n - 1)) by (field; lra).
    nra.
Qed.
Print Assumptions C82_white_fm_refuted.

(** the edf of a random variable is unique *)
Theorem C82_unique E V e e' : edf_of E V e -> edf_of E V e' -> e = e'.
Proof.
  intros (H1 & H2 & H3) (_ & _ & H4). rewrite <- H4 in H3. apply Rmult_eq_reg_r in H3; [exact H3|].
  intros C. rewrite C, Rmult_0_r in H4. pose proof (pow_lt _ 2 H2). lra.
Qed.
Print Assumptions C82_unique.

(** inputs meeting the hypotheses exist for every record length *)
Theorem C82_inputs_exist K : exists E, gaussian K E.
Proof. exists (trip K). apply trip_gaussian. Qed.
Print Assumptions C82_inputs_exist.

(** ** Time deviation: a multiple of mdev *)
Lemma tdev_edf_of N m rate qd E e : gaussian N E -> 0 < qd -> 0 < rate -> (1 <= m)%nat -> (3 * m < N)%nat ->
  edf_of E (fun w => dev2 mdev rate m (record N qd 0 w)) e -> edf_of E (fun w => dev2 tdev rate m (record N qd 0 w)) e.
Proof.
  intros HG Hq Hr Hm HN (H1 & H2 & H3).
  set (c := (INR m * (1 / rate)) ^ 2 / 3). pose proof (tau_pos m rate Hr Hm) as Ht.
  assert (Hc : 0 < c) by (apply Rdiv_lt_0_compat; [now apply pow_lt|lra]).
  apply (edf_of_ext N E _ (fun w => c * dev2 mdev rate m (record N qd 0 w)) e HG).
  - intros w.
    assert (HL : len (record N qd 0 w) = N) by (apply record_len; lia).
    assert (HNn : (1 < mdev_n (record N qd 0 w) m)%Z) by (unfold mdev_n; rewrite HL; lia).
    assert (HA : admissible (len (record N qd 0 w)) rate (TList [INR m / rate]) [m]) by (rewrite HL; apply adm_single; [exact Hr|lia]).
    unfold dev2. rewrite (C18_mdev _ _ _ [m] Hr HA), (C19_tdev _ _ _ [m] Hr HA). cbv zeta. rewrite !report_single by exact HNn.
    assert (HV : 0 <= mvar (record N qd 0 w) (1 / rate) m) by (apply mvar_nonneg; lia).
    rewrite !pow2_sqrt; [reflexivity|exact HV|]. apply Rmult_le_pos; [fold c; lra|exact HV].
  - pose proof (ga_white N E HG) as HE. set (V := fun w => dev2 mdev rate m (record N qd 0 w)) in *.
    change (e * E (fun w => (V w - E V) ^ 2) = 2 * E V ^ 2) in H3.
    split; [exact H1|].
    assert (HM : E (fun w => c * V w) = c * E V) by apply (wh_scal N E HE c V).
    change (fun w => c * dev2 mdev rate m (record N qd 0 w)) with (fun w => c * V w). rewrite HM.
    split; [now apply Rmult_lt_0_compat|].
    rewrite (wh_ext N E HE _ (fun w => c ^ 2 * (V w - E V) ^ 2)) by (intro w; change (dev2 mdev rate m (record N qd 0 w)) with (V w); ring).
    rewrite (wh_scal N E HE (c ^ 2) (fun w => (V w - E V) ^ 2)).
    transitivity (c ^ 2 * (e * E (fun w => (V w - E V) ^ 2))); [ring|]. rewrite H3. ring.
Qed.
Theorem C82_white_pm_tdev N m rate qd E : gaussian N E -> 0 < qd -> 0 < rate -> (1 <= m)%nat -> (3 * m < N)%nat ->
  (Nat.min (N - 3 * m + 1) (3 * m) <= 100)%nat -> exact_edf E tdev 2 true true 2 0 rate qd N m.
Proof.
  intros HG Hq Hr Hm HN HJ. destruct (C82_white_pm_mdev N m rate qd E HG Hq Hr Hm HN HJ) as (e & He & H).
  exists e. split; [exact He|]. now apply tdev_edf_of.
Qed.
Print Assumptions C82_white_pm_tdev.

(** ** Examples: ten samples, unit rate *)
Example C82_ex : exact_edf (trip 10) adev 2 false false 2 0 1 1 10 1 /\ exact_edf (trip 10) oadev 2 true false 2 0 1 1 10 2 /\
  exact_edf (trip 10) mdev 2 true true 2 0 1 1 10 2 /\ exact_edf (trip 10) ohdev 3 true false 2 0 1 1 10 1.
Proof.
  pose proof (trip_gaussian 10) as HG.
  split; [|split; [|split]].
  - apply (C82_white_pm 10 1 1 1 (trip 10) HG ltac:(lra) ltac:(lra) ltac:(lia)); lia.
  - apply (C82_white_pm 10 2 1 1 (trip 10) HG ltac:(lra) ltac:(lra) ltac:(lia)); lia.
  - apply C82_white_pm_mdev; auto; try lra; lia.
  - apply (C82_white_pm 10 1 1 1 (trip 10) HG ltac:(lra) ltac:(lra) ltac:(lia)); lia.
Qed.
Example C82_ex_values : edf_of (trip 10) (fun w => dev2 adev 1 1 (record 10 1 0 w)) (576 / 131) /\
  edf_of (trip 10) (fun w => dev2 adev 1 1 (record 10 1 (-2) w)) (128 / 23) /\
  edf_greenhall 0 2 1 10 false false = Ok (576 / 89).
Proof.
  pose proof (trip_gaussian 10) as HG.
  assert (H8 : INR 8 = 8) by (cbn; lra).
  split; [|split].
  - destruct (proj1 (C82_white_pm 10 1 1 1 (trip 10) HG ltac:(lra) ltac:(lra) ltac:(lia)) ltac:(lia)) as [(e & He & H) _].
    rewrite (edf_pm 2 1 10 false 8 1 ltac:(lia) ltac:(lia) ltac:(lia) ltac:(lia) eq_refl eq_refl) in He.
    apply (f_equal (fun r => match r with Ok v => v | Err _ => 0 end)) in He. cbv beta iota in He. destruct binom_values as (_ & B & _).
    change (4 * 2)%nat with 8%nat in He. change (2 * 2)%nat with 4%nat in He. rewrite B, H8 in He. change (INR 2) with 2 in He. change (INR 1) with 1 in He.
    replace (576 / 131) with e; [exact H|]. rewrite <- He. field.
  - destruct (C82_white_fm_refuted 10 1 1 (trip 10) HG ltac:(lra) ltac:(lra) ltac:(lia)) as (_ & H & _).
    specialize (H adev (or_introl eq_refl)). change (10 - 2)%nat with 8%nat in H. rewrite H8 in H.
    replace (128 / 23) with (2 * 8 ^ 2 / (3 * 8 - 1)) by field. exact H.
  - change 10%Z with (Z.of_nat 10). rewrite (edf_fm_1 10 false) by lia. f_equal. change (10 - 2)%nat with 8%nat. rewrite H8. field.
Qed.
