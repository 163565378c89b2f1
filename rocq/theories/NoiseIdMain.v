(** Assembly: the probability that the loop of autocorr_noise_id stops at another
    stage or with another exponent than the noise has. *)
From Coq Require Import String Reals List ZArith Bool Arith Lia Lra Psatz.
From Verif Require Import Base Num NpList NumR Spec ListFacts RSum Dft ModelCore ModelDev ModelCi ModelNoise ModelNoiseR
  DevProofs TotProofs Laws Laws2 Laws3 NoiseProofs PropsDev PropsKasdin PropsPredict PropsExpect CiProofs GreenProofs PropsEdf PropsConsist
  NoiseIdProofs NoiseIdProb.
Import ListNotations.
Local Open Scope R_scope.
Local Notation len := List.length.

(** Least-squares removal of a polynomial of degree 1 or 2: the residual is the
    series less a polynomial, and orthogonal to the monomials (normal equations). *)
Definition least_squares (detrend : list R -> nat -> res (list R)) : Prop :=
  forall (x : list R) (deg : nat), (deg = 1 \/ deg = 2)%nat -> (3 <= len x)%nat ->
  exists c : nat -> R,
    let r := fun t => x.[t] - bigsum (S deg) (fun k => c k * INR t ^ k) in
    detrend x deg = Ok (tab (len x) r) /\
    forall k, (k <= deg)%nat -> bigsum (len x) (fun t => r t * INR t ^ k) = 0.

Definition identified (r : option (res (Z * R * Z * R))) (al : Z) : bool :=
  match r with Some (Ok (ai, _, _, _)) => Z.eqb ai al | _ => false end.

Definition run (detrend : list R -> nat -> res (list R)) (ph : bool) (deg : nat) (dmin dmax : Z) (y : list R) :=
  match detrend y deg with
  | Err e => Some (Err e)
  | Ok y => if (len y <? 30)%nat then Some (Err NotImplementedError)
            else acf_loop ph dmin dmax (S (Z.to_nat (Z.max dmin dmax))) y 0%Z
  end.

Lemma fit_ex detrend n deg X : least_squares detrend -> (3 <= n)%nat -> (deg = 1 \/ deg = 2)%nat ->
  exists c0 c1 c2, detrend (tab n X) deg = Ok (tab n (fun t => X t - pol c0 c1 c2 t)) /\ fit n deg X c0 c1 c2.
Proof.
  intros HL Hn Hd. destruct (HL (tab n X) deg Hd) as (c & H1 & H2); [now rewrite tab_length|]. rewrite tab_length in *.
  exists (c 0%nat), (c 1%nat), (if Nat.eqb deg 2 then c 2%nat else 0).
  assert (EP : forall t, bigsum (S deg) (fun k => c k * INR t ^ k) = pol (c 0%nat) (c 1%nat) (if Nat.eqb deg 2 then c 2%nat else 0) t).
  { intros t. unfold pol. destruct Hd as [-> | ->]; cbn [bigsum Nat.eqb]; ring. }
  split.
  - rewrite H1. f_equal. apply tab_ext. intros i Hi. rewrite nth_tab by exact Hi. now rewrite EP.
  - split; [destruct Hd as [-> | ->]; [right; split; reflexivity|now left]|].
    set (r := fun t => X t - pol (c 0%nat) (c 1%nat) (if Nat.eqb deg 2 then c 2%nat else 0) t) in *.
    assert (O : forall k, (k <= deg)%nat -> bigsum n (fun t => r t * INR t ^ k) = 0).
    { intros k Hk. etransitivity; [|exact (H2 k Hk)]. apply bigsum_ext. intros t Ht. rewrite nth_tab by exact Ht. unfold r. now rewrite EP. }
    intros q0 q1 q2 Hq.
    rewrite (bigsum_ext n _ (fun t => q0 * (r t * INR t ^ 0) + q1 * (r t * INR t ^ 1) + q2 * (r t * INR t ^ 2))) by (intros; unfold r, pol; ring).
    rewrite !bigsum_plus, !bigsum_scal, (O 0%nat), (O 1%nat) by (destruct Hd as [-> | ->]; lia).
    destruct Hq as [-> | [-> ->]]; [rewrite (O 2%nat) by lia|]; ring.
Qed.

Lemma typical_ext m g rho v p v' p' : (2 <= m)%nat -> (forall i, (i < m)%nat -> v i = v' i) -> (forall i, (i < m)%nat -> p i = p' i) ->
  typical m g rho v p -> typical m g rho v' p'.
Proof.
  intros Hm Hv Hp [T1 T2 T3 T4]. split.
  - rewrite <- (nrm_ext m v v') by assumption. exact T1.
  - rewrite <- (nrm_ext (m - 1) (fun i => v i + v (S i))); [exact T2|]. intros i Hi. now rewrite !Hv by lia.
  - rewrite <- (nrm_ext (m - 1) (fun i => v i - v (S i))); [exact T3|]. intros i Hi. now rewrite !Hv by lia.
  - rewrite <- (nrm_ext m p p') by assumption. rewrite <- (bigsum_ext m v v') by assumption. exact T4.
Qed.

(** ** One realisation *)
Definition class (rho : R) (k : Z) : Prop := 0 <= rho <= 1 / 4 /\ k = 0%Z \/ rho = - (1 / 2) /\ k = (-2)%Z.
Lemma class_abs rho k : class rho k -> Rabs rho <= 1 / 2.
Proof. intros [(H & _)|(-> & _)]; apply Rabs_le; lra. Qed.

Section Realisation.
Variables (detrend : list R -> nat -> res (list R)) (ph : bool) (deg : nat) (dmin dmax : Z) (g rho : R) (k : Z) (h : nat).
Hypothesis Hg : 0 < g.
Hypothesis Hc : class rho k.
Let Hr := class_abs rho k Hc.
Let add := (if ph then 2 else 0)%Z.

Lemma det0 n X q : (1000 <= n)%nat -> (dmin <= 0)%Z -> detrend (tab n X) deg = Ok (tab n (fun t => X t - q t)) ->
  typical n g rho X q -> identified (run detrend ph deg dmin dmax (tab n X)) (- k + add) = true.
Proof using Hg Hc.
  intros Hn Hd Hf HT. unfold run. rewrite Hf, tab_length. destruct (Nat.ltb_spec n 30); [lia|].
  destruct (typ_final n g rho X q Hn Hg Hr HT) as (F1 & F2).
  destruct (loop_end ph dmin dmax (Z.to_nat (Z.max dmin dmax)) n (fun t => X t - q t) 0 rho k ltac:(lia) Hd F1 F2 Hc) as (al & r & ->).
  cbn [identified]. apply Z.eqb_eq. unfold add. lia.
Qed.
Lemma det1 m X c0 c1 c2 : (1000 <= m)%nat -> (dmin <= 1 <= dmax)%Z -> let n := S m in
  detrend (tab n X) deg = Ok (tab n (fun t => X t - pol c0 c1 c2 t)) ->
  typical m g rho (dif X) (dif (pol c0 c1 c2)) -> 280 * (INR m * g) <= nrm (n - 3 * h) (third h X) ->
  identified (run detrend ph deg dmin dmax (tab n X)) (- k - 2 + add) = true.
Proof using Hg Hc.
  intros Hm Hd n Hf HT HW. unfold run. rewrite Hf, tab_length. destruct (Nat.ltb_spec n 30); [lia|].
  set (y := fun t => X t - pol c0 c1 c2 t) in *.
  destruct (typ_walk m g rho (dif X) (dif (pol c0 c1 c2)) Hm Hg Hr HT h y) as (W1 & W2).
  { intros i _. apply dif_minus. }
  { rewrite (nrm_ext _ (third h y) (third h X)); [exact HW|]. intros i _. unfold y. rewrite third_minus, third_pol. ring. }
  destruct (Z.to_nat (Z.max dmin dmax)) as [|f] eqn:Ef; [lia|].
  unfold n. rewrite (loop_go ph dmin dmax (S f) (S m) y 0 ltac:(lia) ltac:(lia) W1 W2). cbn [Nat.sub]. rewrite Nat.sub_0_r.
  rewrite (tab_ext m (dif y) (fun i => dif X i - dif (pol c0 c1 c2) i)) by (intros; apply dif_minus).
  destruct (typ_final m g rho (dif X) (dif (pol c0 c1 c2)) Hm Hg Hr HT) as (F1 & F2).
  destruct (loop_end ph dmin dmax f m (fun i => dif X i - dif (pol c0 c1 c2) i) (0 + 1) rho k ltac:(lia) ltac:(lia) F1 F2 Hc) as (al & r & ->).
  cbn [identified]. apply Z.eqb_eq. unfold add. lia.
Qed.
Lemma det2 m X c0 c1 c2 : (1000 <= m)%nat -> (dmin <= 2 <= dmax)%Z -> let n := S (S m) in
  detrend (tab n X) deg = Ok (tab n (fun t => X t - pol c0 c1 c2 t)) ->
  typical m g rho (dif (dif X)) (dif (dif (pol c0 c1 c2))) ->
  280 * (INR m * g) <= nrm (S m - 3 * h) (third h (dif X)) -> 120000 * (INR m * g) <= nrm (n - 3 * h) (third h X) ->
  identified (run detrend ph deg dmin dmax (tab n X)) (- k - 4 + add) = true.
Proof using Hg Hc.
  intros Hm Hd n Hf HT HW HR. unfold run. rewrite Hf, tab_length. destruct (Nat.ltb_spec n 30); [lia|].
  set (q := pol c0 c1 c2) in *. set (y := fun t => X t - q t) in *.
  assert (Ed : forall i, dif y i = dif X i - dif q i) by (intros; apply dif_minus).
  assert (Edd : forall i, dif (dif y) i = dif (dif X) i - dif (dif q) i) by (intros; unfold y, dif; ring).
  destruct (typ_run m g rho (dif (dif X)) (dif (dif q)) Hm Hg Hr HT h y) as (R1 & R2).
  { intros i _. apply Edd. }
  { rewrite (nrm_ext _ (third h y) (third h X)); [exact HR|]. intros i _. unfold y, q. rewrite third_minus, third_pol. ring. }
  destruct (typ_walk m g rho (dif (dif X)) (dif (dif q)) Hm Hg Hr HT h (dif y)) as (W1 & W2).
  { intros i _. apply Edd. }
  { rewrite (nrm_ext _ (third h (dif y)) (third h (dif X))); [exact HW|]. intros i _.
    transitivity (third h (dif X) i - third h (dif q) i); [unfold y, third, dif; ring|].
    replace (third h (dif q) i) with 0; [ring|]. symmetry.
    transitivity (third h (pol (c1 + c2) (2 * c2) 0) i); [|apply third_pol]. unfold third, q. rewrite !dif_pol. reflexivity. }
  destruct (Z.to_nat (Z.max dmin dmax)) as [|[|f]] eqn:Ef; [lia|lia|].
  unfold n. rewrite (loop_go ph dmin dmax (S (S f)) (S (S m)) y 0 ltac:(lia) ltac:(lia) R1 R2).
  replace (S (S m) - 1)%nat with (S m) by lia.
  rewrite (loop_go ph dmin dmax (S f) (S m) (dif y) (0 + 1) ltac:(lia) ltac:(lia) W1 W2).
  replace (S m - 1)%nat with m by lia.
  rewrite (tab_ext m (dif (dif y)) (fun i => dif (dif X) i - dif (dif q) i)) by (intros; apply Edd).
  destruct (typ_final m g rho (dif (dif X)) (dif (dif q)) Hm Hg Hr HT) as (F1 & F2).
  destruct (loop_end ph dmin dmax f m (fun i => dif (dif X) i - dif (dif q) i) (0 + 1 + 1) rho k ltac:(lia) ltac:(lia) F1 F2 Hc) as (al & r & ->).
  cbn [identified]. apply Z.eqb_eq. unfold add. lia.
Qed.
End Realisation.

(** ** The filters of the earlier stages *)
Definition cw (h t : nat) : R := if (t <? h)%nat then 1 else if (t <? 2 * h)%nat then -2 else 1.
Definition cr (h s : nat) : R := bigsum (3 * h - 1 - s) (fun t => cw h (s + 1 + t)%nat).
Lemma cw_split h (f : nat -> R) : bigsum (3 * h) (fun t => cw h t * f t) =
  bigsum h f - 2 * bigsum h (fun t => f (h + t)%nat) + bigsum h (fun t => f (2 * h + t)%nat).
Proof.
  replace (3 * h)%nat with (h + h + h)%nat by lia. rewrite !bigsum_add.
  rewrite (bigsum_ext h (fun t => cw h t * f t) f).
  2:{ intros t Ht. unfold cw. destruct (Nat.ltb_spec t h); [ring|lia]. }
  rewrite (bigsum_ext h (fun t => cw h (h + t)%nat * f (h + t)%nat) (fun t => - 2 * f (h + t)%nat)).
  2:{ intros t Ht. unfold cw. destruct (Nat.ltb_spec (h + t) h); [lia|]. destruct (Nat.ltb_spec (h + t) (2 * h)); [reflexivity|lia]. }
  rewrite (bigsum_ext h (fun t => cw h (h + h + t)%nat * f (h + h + t)%nat) (fun t => f (2 * h + t)%nat)).
  2:{ intros t Ht. unfold cw. destruct (Nat.ltb_spec (h + h + t) h); [lia|]. destruct (Nat.ltb_spec (h + h + t) (2 * h)); [lia|].
      replace (2 * h + t)%nat with (h + h + t)%nat by lia. ring. }
  rewrite bigsum_scal. ring.
Qed.
Lemma third_walk h Y k : third h Y k = bigsum (3 * h) (fun t => cw h t * dif Y (k + t)%nat).
Proof.
  rewrite (cw_split h (fun t => dif Y (k + t)%nat)). cbv beta.
  assert (Tl : forall s, bigsum h (fun t => dif Y (k + (s + t))%nat) = Y (k + (s + h))%nat - Y (k + s)%nat).
  { intros s. pose proof (bigsum_telescope h (fun t => Y (k + s + t)%nat)) as B. cbv beta in B.
    replace (k + (s + h))%nat with (k + s + h)%nat by lia. replace (Y (k + s)%nat) with (Y (k + s + 0)%nat) by (f_equal; lia). rewrite <- B.
    apply bigsum_ext. intros t _. unfold dif. f_equal; f_equal; lia. }
  pose proof (Tl 0%nat) as T0. cbn [Nat.add] in T0. rewrite T0, !Tl. unfold third. rewrite Nat.add_0_r.
  replace (k + (h + h))%nat with (k + 2 * h)%nat by lia. replace (k + (2 * h + h))%nat with (k + 3 * h)%nat by lia. ring.
Qed.
Lemma abel2 L (c v : nat -> R) :
  bigsum L (fun t => c t * bigsum t v) = bigsum L (fun s => bigsum (L - 1 - s) (fun t => c (s + 1 + t)%nat) * v s).
Proof.
  induction L as [|L IH]; [reflexivity|]. cbn [bigsum]. rewrite IH.
  replace (S L - 1 - L)%nat with 0%nat by lia. cbn [bigsum]. rewrite Rmult_0_l, Rplus_0_r, <- bigsum_scal, <- bigsum_plus.
  apply bigsum_ext. intros s Hs. replace (S L - 1 - s)%nat with (S (L - 1 - s)) by lia. cbn [bigsum].
  replace (s + 1 + (L - 1 - s))%nat with L by lia. ring.
Qed.
Lemma third_run h Y k : third h Y k = bigsum (3 * h) (fun s => cr h s * dif (dif Y) (k + s)%nat).
Proof.
  rewrite third_walk.
  assert (Hd : forall t, dif Y (k + t)%nat = dif Y k + bigsum t (fun s => dif (dif Y) (k + s)%nat)).
  { intros t. pose proof (bigsum_telescope t (fun s => dif Y (k + s)%nat)) as B. cbv beta in B. rewrite Nat.add_0_r in B.
    rewrite (bigsum_ext t (fun s => dif (dif Y) (k + s)%nat) (fun i => dif Y (k + S i)%nat - dif Y (k + i)%nat)); [rewrite B; ring|].
    intros i _. unfold dif at 1. f_equal. f_equal. lia. }
  rewrite (bigsum_ext (3 * h) _ (fun t => cw h t * dif Y k + cw h t * bigsum t (fun s => dif (dif Y) (k + s)%nat))).
  2:{ intros t _. rewrite Hd. ring. }
  rewrite bigsum_plus, (abel2 (3 * h) (cw h)).
  assert (Z : bigsum (3 * h) (fun t => cw h t * dif Y k) = 0).
  { rewrite (cw_split h (fun _ => dif Y k)). ring. }
  rewrite Z, Rplus_0_l. reflexivity.
Qed.
Lemma cw_nrm h : nrm (3 * h) (cw h) = 6 * INR h.
Proof.
  unfold nrm. rewrite (bigsum_ext _ _ (fun t => cw h t * cw h t)) by (intros; ring). rewrite (cw_split h (cw h)).
  rewrite (bigsum_ext h (cw h) (fun _ => 1)), (bigsum_ext h (fun t => cw h (h + t)%nat) (fun _ => -2)), (bigsum_ext h (fun t => cw h (2 * h + t)%nat) (fun _ => 1)).
  - rewrite !bigsum_const. ring.
  - intros t Ht. unfold cw. destruct (Nat.ltb_spec (2 * h + t) h); [lia|]. destruct (Nat.ltb_spec (2 * h + t) (2 * h)); [lia|reflexivity].
  - intros t Ht. unfold cw. destruct (Nat.ltb_spec (h + t) h); [lia|]. destruct (Nat.ltb_spec (h + t) (2 * h)); [reflexivity|lia].
  - intros t Ht. unfold cw. destruct (Nat.ltb_spec t h); [reflexivity|lia].
Qed.
Lemma cr_nrm h : INR h * (INR h - 1) * (2 * INR h - 1) / 6 <= nrm (3 * h) (cr h).
Proof.
  eapply Rle_trans; [|apply (nrm_window (3 * h) h (2 * h)); lia]. right.
  unfold nrm. rewrite <- (bigsum_rev h (fun i => cr h (2 * h + i)%nat ^ 2)).
  rewrite (bigsum_ext h _ (fun t => 0 + 0 * INR t + 1 * INR t ^ 2 + 0 * INR t ^ 3 + 0 * INR t ^ 4)).
  - rewrite sum_poly4. field.
  - intros i Hi. unfold cr. replace (3 * h - 1 - (2 * h + (h - 1 - i)))%nat with i by lia.
    rewrite (bigsum_ext i _ (fun _ => 1)); [rewrite bigsum_const; ring|].
    intros t Ht. unfold cw. match goal with |- (if (?x <? _)%nat then _ else _) = _ => destruct (Nat.ltb_spec x h); [lia|]; destruct (Nat.ltb_spec x (2 * h)); [lia|reflexivity] end.
Qed.

(** ** The fit *)
Lemma fit_dif1 n deg X c0 c1 c2 : (3 <= n)%nat -> fit n deg X c0 c1 c2 ->
  nrm (n - 1) (dif (pol c0 c1 c2)) <= 60 / INR n ^ 2 * nrm n (fun t => bigsum t (dif X)).
Proof.
  intros Hn HF. assert (Hp : 0 < INR n) by (apply lt_0_INR; lia).
  assert (S0 : in_span deg 0) by (destruct (proj1 HF) as [->|[-> _]]; [now left|now right]).
  pose proof (fit_nrm_le n deg X c0 c1 c2 (X 0%nat) 0 0 HF S0) as H1.
  pose proof (dif_pol_le n Hn (c0 - X 0%nat) (c1 - 0) (c2 - 0)) as H2.
  rewrite (nrm_ext (n - 1) _ (dif (pol c0 c1 c2))) in H2 by (intros; rewrite !dif_pol; unfold pol; ring).
  rewrite (nrm_ext n (fun t => X t - pol (X 0%nat) 0 0 t) (fun t => bigsum t (dif X))) in H1.
  - apply (Rmult_le_reg_l (INR n ^ 2)); [now apply pow_lt|].
    replace (INR n ^ 2 * (60 / INR n ^ 2 * nrm n (fun t => bigsum t (dif X)))) with (60 * nrm n (fun t => bigsum t (dif X))) by (field; lra). lra.
  - intros t _. unfold pol, dif. rewrite bigsum_telescope. ring.
Qed.
Lemma twice_summed X t : X t = X 0%nat + INR t * dif X 0 + bigsum (t - 1) (fun s => INR (t - 1 - s) * dif (dif X) s).
Proof.
  assert (E : X t = X 0%nat + bigsum t (fun r => dif X 0 + 1 * bigsum r (dif (dif X)))).
  { rewrite (bigsum_ext t _ (dif X)); [unfold dif; rewrite bigsum_telescope; ring|].
    intros r _. unfold dif at 2. rewrite bigsum_telescope. unfold dif. ring. }
  rewrite E, bigsum_plus, bigsum_const, (abel2 t (fun _ => 1)).
  rewrite (bigsum_ext t _ (fun s => INR (t - 1 - s) * dif (dif X) s)) by (intros; rewrite bigsum_const; ring).
  destruct t as [|t]; [cbn; ring|]. replace (S t - 1)%nat with t by lia. cbn [bigsum]. rewrite Nat.sub_diag. change (INR 0) with 0. ring.
Qed.
Lemma fit_dif2 n deg X c0 c1 c2 : (3 <= n)%nat -> fit n deg X c0 c1 c2 ->
  nrm (n - 2) (dif (dif (pol c0 c1 c2))) <=
  720 / INR n ^ 4 * nrm n (fun t => bigsum (t - 1) (fun s => INR (t - 1 - s) * dif (dif X) s)).
Proof.
  intros Hn HF. assert (Hp : 0 < INR n) by (apply lt_0_INR; lia).
  assert (S0 : in_span deg 0) by (destruct (proj1 HF) as [->|[-> _]]; [now left|now right]).
  pose proof (fit_nrm_le n deg X c0 c1 c2 (X 0%nat) (dif X 0) 0 HF S0) as H1.
  pose proof (dif2_pol_le n Hn (c0 - X 0%nat) (c1 - dif X 0) (c2 - 0)) as H2.
  rewrite (nrm_ext (n - 2) _ (dif (dif (pol c0 c1 c2)))) in H2 by (intros; unfold dif, pol; rewrite !S_INR; ring).
  rewrite (nrm_ext n (fun t => X t - pol (X 0%nat) (dif X 0) 0 t) (fun t => bigsum (t - 1) (fun s => INR (t - 1 - s) * dif (dif X) s))) in H1.
  - apply (Rmult_le_reg_l (INR n ^ 4)); [now apply pow_lt|]. set (Q := nrm n (fun t => bigsum (t - 1) (fun s => INR (t - 1 - s) * dif (dif X) s))) in *.
    replace (INR n ^ 4 * (720 / INR n ^ 4 * Q)) with (720 * Q) by (field; lra). lra.
  - intros t _. rewrite (twice_summed X t) at 1. unfold pol. ring.
Qed.

(** ** All realisations *)
Section Chance.
Variables (detrend : list R -> nat -> res (list R)) (ph : bool) (deg : nat) (dmin dmax : Z).
Variables (K : nat) (E : ((nat -> R) -> R) -> R) (a : nat -> nat -> R) (m : nat) (g rho : R) (k : Z) (X : (nat -> R) -> nat -> R).
Hypothesis HL : least_squares detrend.
Hypothesis Hdeg : (deg = 1 \/ deg = 2)%nat.
Hypothesis HP : prob K E.
Hypothesis Hg : 0 < g.
Hypothesis Hc : class rho k.
Hypothesis Hcov : forall i j, (i < m)%nat -> (j < m)%nat -> dot K (a i) (a j) = g * kern rho (dist i j).
Let HG := pr_gauss K E HP.
Let HW := ga_white K E HG.
Let Hr := class_abs rho k Hc.
Let add := (if ph then 2 else 0)%Z.
Local Notation V := (V K a).
Local Notation out := (out K a).
Local Notation gain := (gain g rho).
Definition residue (n : nat) (w : nat -> R) (i : nat) : R :=
  X w i - match detrend (tab n (X w)) deg with Ok r => r.[i] | Err _ => 0 end.
Definition missed (n : nat) (al : Z) (w : nat -> R) : R :=
  if identified (run detrend ph deg dmin dmax (tab n (X w))) al then 0 else 1.

Lemma missed_le1 n al : E (missed n al) <= 1.
Proof using HP.
  eapply Rle_trans; [apply (pr_mono K E HP _ (fun _ => 1)); intros w; unfold missed; destruct identified; lra|].
  rewrite (ga_one K E HG). lra.
Qed.
Lemma large n : (1 <= n)%nat -> 1 <= 2500000 / INR n \/ 2500000 < INR n.
Proof.
  intros Hn. apply lt_0_INR in Hn. destruct (Rle_dec (INR n) 2500000) as [H|H]; [left|right; lra].
  apply (Rmult_le_reg_r (INR n)); [assumption|]. unfold Rdiv. rewrite Rmult_assoc, Rinv_l by lra. lra.
Qed.
Lemma nat_large n j : 2500000 < INR n -> INR j <= 2500000 -> (j <= n)%nat.
Proof. intros H1 H2. apply INR_le. lra. Qed.
Lemma residue_pol n w c0 c1 c2 i : detrend (tab n (X w)) deg = Ok (tab n (fun t => X w t - pol c0 c1 c2 t)) -> (i < n)%nat ->
  residue n w i = pol c0 c1 c2 i.
Proof. intros H Hi. unfold residue. rewrite H, nth_tab by exact Hi. ring. Qed.

Lemma big_1000 n : 2500000 < INR n -> (1000 <= n)%nat.
Proof. intros H. apply (nat_large n 1000 H). rewrite INR_IZR_INZ. change (Z.of_nat 1000) with 1000%Z. lra. Qed.

Lemma one_nrm t : nrm t one = INR t.
Proof. unfold nrm, one. rewrite (bigsum_ext t _ (fun _ => 1)) by (intros; ring). rewrite bigsum_const. ring. Qed.

(** white noise itself *)
Definition Bf0 (w : nat -> R) : R :=
  (/ INR m * out one m w 0%nat ^ 2 + / N1 m * out (P1 m) m w 0%nat ^ 2) + / N2 m * out (P2 m) m w 0%nat ^ 2.
Lemma ident0 : (1 <= m)%nat -> (dmin <= 0)%Z -> (forall w i, (i < m)%nat -> X w i = V w i) ->
  E (missed m (- k + add)) <= 2500000 / INR m.
Proof using All.
  intros Hm Hd HX. destruct (large m Hm) as [H|Hbig]; [eapply Rle_trans; [apply missed_le1|exact H]|].
  pose proof (big_1000 m Hbig) as H1000. pose proof (N1_pos m ltac:(lia)) as PN1. pose proof (N2_pos m ltac:(lia)) as PN2.
  assert (HB : forall w, nrm m (residue m w) <= Bf0 w).
  { intros w. destruct (fit_ex detrend m deg (X w) HL ltac:(lia) Hdeg) as (c0 & c1 & c2 & H1 & H2).
    rewrite (nrm_ext m _ (pol c0 c1 c2)) by (intros i Hi; now apply residue_pol).
    eapply Rle_trans; [apply (fit_rank m ltac:(lia) deg (X w) c0 c1 c2 H2)|]. right. unfold Bf0.
    rewrite (bigsum_ext m (X w) (fun t => one t * V w (0 + t)%nat)) by (intros i Hi; rewrite HX by exact Hi; unfold one; cbn [Nat.add]; ring).
    rewrite (bigsum_ext m (fun t => P1 m t * X w t) (fun t => P1 m t * V w (0 + t)%nat)) by (intros i Hi; rewrite HX by exact Hi; reflexivity).
    rewrite (bigsum_ext m (fun t => P2 m t * X w t) (fun t => P2 m t * V w (0 + t)%nat)) by (intros i Hi; rewrite HX by exact Hi; reflexivity).
    unfold out. unfold Rdiv. ring. }
  assert (HBm : E Bf0 <= 120 * g).
  { unfold Bf0. rewrite (wh_add K E HW (fun w => / INR m * out one m w 0%nat ^ 2 + / N1 m * out (P1 m) m w 0%nat ^ 2)).
    rewrite (wh_add K E HW (fun w => / INR m * out one m w 0%nat ^ 2)).
    rewrite (wh_scal K E HW (/ INR m) (fun w => out one m w 0%nat ^ 2)), (wh_scal K E HW (/ N1 m) (fun w => out (P1 m) m w 0%nat ^ 2)),
      (wh_scal K E HW (/ N2 m) (fun w => out (P2 m) m w 0%nat ^ 2)).
    rewrite !(E_out K E a m g rho HP Hcov) by lia.
    assert (B : forall c N, nrm m c = N -> 0 < N -> / N * gain c m <= 2 * g).
    { intros c N HN HN0. pose proof (gain_le g rho Hg Hr c m) as GL. rewrite HN in GL.
      apply (Rmult_le_reg_l N); [assumption|]. rewrite <- Rmult_assoc, Rinv_r by lra. lra. }
    pose proof (B one (INR m) (one_nrm m) ltac:(apply lt_0_INR; lia)). pose proof (B (P1 m) (N1 m) (P1_nrm m) PN1).
    pose proof (B (P2 m) (N2 m) (P2_nrm m) PN2). lra. }
  eapply Rle_trans; [apply (pr_mono K E HP _ (Tq K a m g rho Bf0))|].
  - intros w. pose proof (Tq_nonneg K a m g rho Hg (residue m) Bf0 H1000 HB w) as T0. unfold missed, add.
    destruct (Tq_typical K a m g rho Hg (residue m) Bf0 H1000 HB w) as [HT|HT]; [|destruct identified; lra].
    destruct (fit_ex detrend m deg (X w) HL ltac:(lia) Hdeg) as (c0 & c1 & c2 & H1 & H2).
    rewrite (det0 detrend ph deg dmin dmax g rho k Hg Hc m (X w) (pol c0 c1 c2) H1000 Hd H1); [exact T0|].
    apply (typical_ext m g rho (V w) (residue m w)); [lia|intros; symmetry; now apply HX|intros; now apply residue_pol|exact HT].
  - eapply Rle_trans; [apply (Tq_mean K E a m g rho HP Hg Hr Hcov (residue m) Bf0 H1000 HB HBm)|].
    assert (0 < / INR m) by (apply Rinv_0_lt_compat; lra). unfold Rdiv. lra.
Qed.

(** noise whose differences are white *)
Hypothesis Hpos : 0 <= rho <= 1 / 4.
Definition hh : nat := 256.
Lemma hh_val : INR hh = 256.
Proof. unfold hh. rewrite INR_IZR_INZ. reflexivity. Qed.
Lemma gain_walk : 768 * g <= gain (cw hh) (3 * hh).
Proof using Hg Hpos. pose proof (gain_ge g rho Hg (cw hh) (3 * hh) Hpos) as H. rewrite cw_nrm, hh_val in H. lra. Qed.
Lemma gain_run : 2779840 * g <= gain (cr hh) (3 * hh).
Proof using Hg Hpos.
  pose proof (gain_ge g rho Hg (cr hh) (3 * hh) Hpos) as H. pose proof (cr_nrm hh) as H2. rewrite hh_val in H2.
  assert (g / 2 * (256 * (256 - 1) * (2 * 256 - 1) / 6) <= g / 2 * nrm (3 * hh) (cr hh)) by (apply Rmult_le_compat_l; lra). lra.
Qed.
Definition Bf1 (w : nat -> R) : R := 60 / INR (S m) ^ 2 * bigsum (S m) (fun t => out one t w 0%nat ^ 2).
Definition Bf2 (w : nat -> R) : R := 720 / INR (S (S m)) ^ 4 * bigsum (S (S m)) (fun t => out (fun s => INR (t - 1 - s)) (t - 1) w 0%nat ^ 2).
Lemma Bf1_mean : E Bf1 <= 120 * g.
Proof using All.
  assert (Hn : 0 < INR (S m)) by (apply lt_0_INR; lia).
  unfold Bf1. rewrite (wh_scal K E HW _ (fun w => bigsum (S m) (fun t => out one t w 0%nat ^ 2))).
  rewrite (E_sum K E HW (S m) (fun t w => out one t w 0%nat ^ 2)).
  apply Rle_trans with (60 / INR (S m) ^ 2 * (g * INR (S m) ^ 2)); [|replace (60 / INR (S m) ^ 2 * (g * INR (S m) ^ 2)) with (60 * g) by (field; lra); lra].
  apply Rmult_le_compat_l; [left; apply Rmult_lt_0_compat; [lra|apply Rinv_0_lt_compat, pow_lt, Hn]|].
  apply Rle_trans with (bigsum (S m) (fun t => 0 + 2 * g * INR t + 0 * INR t ^ 2 + 0 * INR t ^ 3 + 0 * INR t ^ 4)).
  - apply bigsum_le. intros t Ht. rewrite (E_out K E a m g rho HP Hcov) by lia.
    pose proof (gain_le g rho Hg Hr one t) as GL. rewrite one_nrm in GL. lra.
  - rewrite sum_poly4. nra.
Qed.
Lemma Bf2_mean : E Bf2 <= 120 * g.
Proof using All.
  set (n := S (S m)). assert (Hn : 0 < INR n) by (apply lt_0_INR; unfold n; lia).
  unfold Bf2. fold n. rewrite (wh_scal K E HW _ (fun w => bigsum n (fun t => out (fun s => INR (t - 1 - s)) (t - 1) w 0%nat ^ 2))).
  rewrite (E_sum K E HW n (fun t w => out (fun s => INR (t - 1 - s)) (t - 1) w 0%nat ^ 2)).
  apply Rle_trans with (720 / INR n ^ 4 * (g / 6 * INR n ^ 4)); [|right; field; lra].
  apply Rmult_le_compat_l; [left; apply Rmult_lt_0_compat; [lra|apply Rinv_0_lt_compat, pow_lt, Hn]|].
  apply Rle_trans with (bigsum n (fun t => 0 + 0 * INR t + 0 * INR t ^ 2 + 2 * g / 3 * INR t ^ 3 + 0 * INR t ^ 4)).
  - apply bigsum_le. intros t Ht. rewrite (E_out K E a m g rho HP Hcov) by (unfold n in Ht; lia).
    eapply Rle_trans; [apply (gain_le g rho Hg Hr)|].
    destruct t as [|t]; [unfold nrm; cbn; lra|]. replace (S t - 1)%nat with t by lia.
    assert (EN : nrm t (fun s => INR (t - s)) = INR t * (INR t + 1) * (2 * INR t + 1) / 6).
    { unfold nrm. rewrite <- (bigsum_rev t (fun i => INR (t - i) ^ 2)).
      rewrite (bigsum_ext t _ (fun i => 1 + 2 * INR i + 1 * INR i ^ 2 + 0 * INR i ^ 3 + 0 * INR i ^ 4)).
      - rewrite sum_poly4. field.
      - intros i Hi. replace (t - (t - 1 - i))%nat with (S i) by lia. rewrite S_INR. ring. }
    rewrite EN, S_INR. pose proof (pos_INR t) as H0. set (x := INR t) in *.
    assert (x * (x + 1) * (2 * x + 1) / 6 <= (x + 1) ^ 3 / 3) by nra.
    apply Rle_trans with (2 * g * ((x + 1) ^ 3 / 3)); [apply Rmult_le_compat_l; lra|right; field].
  - rewrite sum_poly4. set (x := INR n) in *. replace (g / 6 * x ^ 4) with (2 * g / 3 * (x * x / 2) ^ 2) by field.
    assert ((x * (x - 1) / 2) ^ 2 <= (x * x / 2) ^ 2).
    { apply pow_incr. assert (1 <= x) by (apply (le_INR 1); unfold n; lia). split; nra. }
    assert (2 * g / 3 * (x * (x - 1) / 2) ^ 2 <= 2 * g / 3 * (x * x / 2) ^ 2) by (apply Rmult_le_compat_l; lra). lra.
Qed.
Lemma tail_bound n M c : 2500000 < INR n -> INR n - 1000 <= INR M -> INR n - 2 <= INR m -> 0 < c -> c <= 25000 ->
  2230000 / INR m + c / INR M <= 2500000 / INR n.
Proof.
  intros H1 H2 H3 H4 H5.
  assert (I1 : / INR m <= / INR n * (1001 / 1000)).
  { apply (Rmult_le_reg_l (INR m)); [lra|]. rewrite Rinv_r by lra. apply (Rmult_le_reg_l (INR n)); [lra|].
    replace (INR n * (INR m * (/ INR n * (1001 / 1000)))) with (INR m * (1001 / 1000)) by (field; lra). lra. }
  assert (I2 : / INR M <= / INR n * (1001 / 1000)).
  { apply (Rmult_le_reg_l (INR M)); [lra|]. rewrite Rinv_r by lra. apply (Rmult_le_reg_l (INR n)); [lra|].
    replace (INR n * (INR M * (/ INR n * (1001 / 1000)))) with (INR M * (1001 / 1000)) by (field; lra). lra. }
  assert (0 < / INR n) by (apply Rinv_0_lt_compat; lra). assert (0 < / INR M) by (apply Rinv_0_lt_compat; lra). unfold Rdiv.
  assert (c * / INR M <= 25000 * / INR M) by (apply Rmult_le_compat_r; lra). lra.
Qed.

Lemma ident1 : (dmin <= 1 <= dmax)%Z -> (forall w i, (i < m)%nat -> dif (X w) i = V w i) ->
  E (missed (S m) (- k - 2 + add)) <= 2500000 / INR (S m).
Proof using All.
  intros Hd HX. set (n := S m). destruct (large n ltac:(unfold n; lia)) as [H|Hbig]; [eapply Rle_trans; [apply missed_le1|exact H]|].
  assert (Hnm : INR n = INR m + 1) by (unfold n; now rewrite S_INR).
  assert (H1000 : (1000 <= m)%nat).
  { apply INR_le. rewrite (INR_IZR_INZ 1000). change (Z.of_nat 1000) with 1000%Z. lra. }
  pose proof hh_val as Hh. set (M := (n - 3 * hh)%nat).
  assert (H3h : (3 * hh < m)%nat) by (apply INR_lt; rewrite mult_INR, Hh; replace (INR 3) with 3 by (cbn; lra); lra).
  assert (HMr : INR M = INR n - 768) by (unfold M; rewrite minus_INR by (unfold n; lia); rewrite mult_INR, Hh; replace (INR 3) with 3 by (cbn; lra); lra).
  pose proof gain_walk as GW. assert (Gp : 0 < gain (cw hh) (3 * hh)) by lra.
  set (p := fun w => dif (residue n w)).
  assert (Hpol : forall w c0 c1 c2, detrend (tab n (X w)) deg = Ok (tab n (fun t => X w t - pol c0 c1 c2 t)) ->
    forall i, (i < m)%nat -> p w i = dif (pol c0 c1 c2) i).
  { intros w c0 c1 c2 H1 i Hi. unfold p, dif. rewrite !(residue_pol n w c0 c1 c2) by (try exact H1; unfold n; lia). reflexivity. }
  assert (HB : forall w, nrm m (p w) <= Bf1 w).
  { intros w. destruct (fit_ex detrend n deg (X w) HL ltac:(unfold n; lia) Hdeg) as (c0 & c1 & c2 & H1 & H2).
    rewrite (nrm_ext m _ (dif (pol c0 c1 c2))) by (now apply Hpol).
    pose proof (fit_dif1 n deg (X w) c0 c1 c2 ltac:(unfold n; lia) H2) as HF. replace (n - 1)%nat with m in HF by (unfold n; lia).
    eapply Rle_trans; [exact HF|]. right. unfold Bf1. fold n. f_equal. unfold nrm. apply bigsum_ext. intros t Ht. f_equal. unfold out.
    apply bigsum_ext. intros s Hs. rewrite HX by (unfold n in Ht; lia). unfold one. cbn [Nat.add]. ring. }
  eapply Rle_trans; [apply (pr_mono K E HP _ (fun w => Tq K a m g rho Bf1 w + Qw K a g rho (cw hh) (3 * hh) M w))|].
  - intros w. pose proof (Tq_nonneg K a m g rho Hg p Bf1 H1000 HB w) as T0. unfold missed, add.
    pose proof (Qw_nonneg K a g rho (cw hh) (3 * hh) M w) as Q0.
    destruct (Tq_typical K a m g rho Hg p Bf1 H1000 HB w) as [HT|HT]; [|destruct identified; lra].
    destruct (Qw_guard K a g rho (cw hh) (3 * hh) M w ltac:(unfold M, n; lia) Gp) as [HQ|HQ]; [|destruct identified; lra].
    destruct (fit_ex detrend n deg (X w) HL ltac:(unfold n; lia) Hdeg) as (c0 & c1 & c2 & H1 & H2).
    unfold n. rewrite (det1 detrend ph deg dmin dmax g rho k hh Hg Hc m (X w) c0 c1 c2 H1000 Hd H1); [lra| |].
    + apply (typical_ext m g rho (V w) (p w)); [lia|intros; symmetry; now apply HX|now apply Hpol|exact HT].
    + fold n M. rewrite (nrm_ext M (third hh (X w)) (out (cw hh) (3 * hh) w)).
      * eapply Rle_trans; [|exact HQ]. assert (INR M * (768 * g) <= INR M * gain (cw hh) (3 * hh)) by (apply Rmult_le_compat_l; [apply pos_INR|exact GW]).
        assert (2500000 * g <= INR n * g) by (apply Rmult_le_compat_r; lra).
        replace (INR M * (768 * g)) with (768 * (INR n * g) - 768 * 768 * g) in * by (rewrite HMr; ring).
        replace (INR m * g) with (INR n * g - g) by (rewrite Hnm; ring). lra.
      * intros i Hi. rewrite third_walk. apply bigsum_ext. intros t Ht. rewrite HX by (unfold M, n in Hi; lia). reflexivity.
  - rewrite (wh_add K E HW (Tq K a m g rho Bf1)).
    pose proof (Tq_mean K E a m g rho HP Hg Hr Hcov p Bf1 H1000 HB Bf1_mean) as T1.
    pose proof (Qw_mean K E a m g rho HP Hcov (cw hh) (3 * hh) M ltac:(unfold M, n; lia) ltac:(unfold M, n; lia) Gp) as Q1.
    assert (EL : 8 * (2 * INR (3 * hh) + 1) = 12296) by (rewrite mult_INR, Hh; replace (INR 3) with 3 by (cbn; lra); lra). rewrite EL in Q1.
    pose proof (tail_bound n M 12296 Hbig ltac:(lra) ltac:(lra) ltac:(lra) ltac:(lra)). lra.
Qed.

Lemma ident2 : (dmin <= 2 <= dmax)%Z -> (forall w i, (i < m)%nat -> dif (dif (X w)) i = V w i) ->
  E (missed (S (S m)) (- k - 4 + add)) <= 2500000 / INR (S (S m)).
Proof using All.
  intros Hd HX. set (n := S (S m)). destruct (large n ltac:(unfold n; lia)) as [H|Hbig]; [eapply Rle_trans; [apply missed_le1|exact H]|].
  assert (Hnm : INR n = INR m + 2) by (unfold n; rewrite !S_INR; ring).
  assert (H1000 : (1000 <= m)%nat).
  { apply INR_le. rewrite (INR_IZR_INZ 1000). change (Z.of_nat 1000) with 1000%Z. lra. }
  pose proof hh_val as Hh. set (M := (S m - 3 * hh)%nat).
  assert (H3h : (3 * hh < m)%nat) by (apply INR_lt; rewrite mult_INR, Hh; replace (INR 3) with 3 by (cbn; lra); lra).
  assert (HMr : INR M = INR n - 769) by (unfold M; rewrite minus_INR, S_INR by lia; rewrite mult_INR, Hh; replace (INR 3) with 3 by (cbn; lra); lra).
  pose proof gain_walk as GW. assert (Gp : 0 < gain (cw hh) (3 * hh)) by lra.
  pose proof gain_run as GR. assert (Gq : 0 < gain (cr hh) (3 * hh)) by lra.
  set (p := fun w => dif (dif (residue n w))).
  assert (Hpol : forall w c0 c1 c2, detrend (tab n (X w)) deg = Ok (tab n (fun t => X w t - pol c0 c1 c2 t)) ->
    forall i, (i < m)%nat -> p w i = dif (dif (pol c0 c1 c2)) i).
  { intros w c0 c1 c2 H1 i Hi. unfold p, dif. rewrite !(residue_pol n w c0 c1 c2) by (try exact H1; unfold n; lia). reflexivity. }
  assert (HB : forall w, nrm m (p w) <= Bf2 w).
  { intros w. destruct (fit_ex detrend n deg (X w) HL ltac:(unfold n; lia) Hdeg) as (c0 & c1 & c2 & H1 & H2).
    rewrite (nrm_ext m _ (dif (dif (pol c0 c1 c2)))) by (now apply Hpol).
    pose proof (fit_dif2 n deg (X w) c0 c1 c2 ltac:(unfold n; lia) H2) as HF. replace (n - 2)%nat with m in HF by (unfold n; lia).
    eapply Rle_trans; [exact HF|]. right. unfold Bf2. fold n. f_equal. unfold nrm. apply bigsum_ext. intros t Ht. f_equal. unfold out.
    apply bigsum_ext. intros s Hs. rewrite HX by (unfold n in Ht; lia). reflexivity. }
  eapply Rle_trans; [apply (pr_mono K E HP _ (fun w => Tq K a m g rho Bf2 w + (Qw K a g rho (cw hh) (3 * hh) M w + Qw K a g rho (cr hh) (3 * hh) M w)))|].
  - intros w. pose proof (Tq_nonneg K a m g rho Hg p Bf2 H1000 HB w) as T0. unfold missed, add.
    pose proof (Qw_nonneg K a g rho (cw hh) (3 * hh) M w) as Q0. pose proof (Qw_nonneg K a g rho (cr hh) (3 * hh) M w) as Q1.
    destruct (Tq_typical K a m g rho Hg p Bf2 H1000 HB w) as [HT|HT]; [|destruct identified; lra].
    destruct (Qw_guard K a g rho (cw hh) (3 * hh) M w ltac:(unfold M; lia) Gp) as [HQ|HQ]; [|destruct identified; lra].
    destruct (Qw_guard K a g rho (cr hh) (3 * hh) M w ltac:(unfold M; lia) Gq) as [HR|HR]; [|destruct identified; lra].
    destruct (fit_ex detrend n deg (X w) HL ltac:(unfold n; lia) Hdeg) as (c0 & c1 & c2 & H1 & H2).
    assert (2500000 * g <= INR n * g) by (apply Rmult_le_compat_r; lra).
    unfold n. rewrite (det2 detrend ph deg dmin dmax g rho k hh Hg Hc m (X w) c0 c1 c2 H1000 Hd H1); [lra| | |].
    + apply (typical_ext m g rho (V w) (p w)); [lia|intros; symmetry; now apply HX|now apply Hpol|exact HT].
    + fold M. rewrite (nrm_ext M (third hh (dif (X w))) (out (cw hh) (3 * hh) w)).
      * eapply Rle_trans; [|exact HQ]. assert (INR M * (768 * g) <= INR M * gain (cw hh) (3 * hh)) by (apply Rmult_le_compat_l; [apply pos_INR|exact GW]).
        replace (INR M * (768 * g)) with (768 * (INR n * g) - 769 * 768 * g) in * by (rewrite HMr; ring).
        replace (INR m * g) with (INR n * g - 2 * g) by (rewrite Hnm; ring). lra.
      * intros i Hi. rewrite third_walk. apply bigsum_ext. intros t Ht. rewrite HX by (unfold M in Hi; lia). reflexivity.
    + apply Rle_trans with (nrm M (third hh (X w))).
      * rewrite (nrm_ext M (third hh (X w)) (out (cr hh) (3 * hh) w)).
        -- eapply Rle_trans; [|exact HR]. assert (INR M * (2779840 * g) <= INR M * gain (cr hh) (3 * hh)) by (apply Rmult_le_compat_l; [apply pos_INR|exact GR]).
           replace (INR M * (2779840 * g)) with (2779840 * (INR n * g) - 769 * 2779840 * g) in * by (rewrite HMr; ring).
           replace (INR m * g) with (INR n * g - 2 * g) by (rewrite Hnm; ring). lra.
        -- intros i Hi. rewrite third_run. apply bigsum_ext. intros t Ht. rewrite HX by (unfold M in Hi; lia). reflexivity.
      * fold n. apply (nrm_window (n - 3 * hh) M 0 (third hh (X w))). unfold M, n. lia.
  - rewrite (wh_add K E HW (Tq K a m g rho Bf2)), (wh_add K E HW (Qw K a g rho (cw hh) (3 * hh) M)).
    pose proof (Tq_mean K E a m g rho HP Hg Hr Hcov p Bf2 H1000 HB Bf2_mean) as T1.
    pose proof (Qw_mean K E a m g rho HP Hcov (cw hh) (3 * hh) M ltac:(unfold M; lia) ltac:(unfold M; lia) Gp) as Q1.
    pose proof (Qw_mean K E a m g rho HP Hcov (cr hh) (3 * hh) M ltac:(unfold M; lia) ltac:(unfold M; lia) Gq) as Q2.
    assert (EL : 8 * (2 * INR (3 * hh) + 1) = 12296) by (rewrite mult_INR, Hh; replace (INR 3) with 3 by (cbn; lra); lra). rewrite EL in Q1, Q2.
    pose proof (tail_bound n M (12296 + 12296) Hbig ltac:(lra) ltac:(lra) ltac:(lra) ltac:(lra)). unfold Rdiv in *. lra.
Qed.
End Chance.
