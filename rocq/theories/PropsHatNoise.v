(** * The three-cornered hat and the Groslambert covariance on three independent clocks (C102).

    Both functions are for finding the deviation of one clock from comparisons of
    three clocks.  Here the three clocks carry independent generated noise of
    arbitrary types and strengths, and the values reported for the first clock are
    compared with its Allan variance: the signed estimate has exactly that mean,
    the two reported (unsigned) values have a mean which is not below it, and a
    mean-square error that decreases like 1/n. *)
From Coq Require Import String Reals List ZArith Bool Arith Lia Lra.
From Verif Require Import Base Num NpList NumR Spec ListFacts RSum Dft ModelCore ModelDev ModelMisc ModelNoise ModelNoiseR
  DevProofs TotProofs Laws Laws2 Laws3 NoiseProofs PropsDev PropsMisc PropsKasdin PropsPredict PropsExpect CiProofs GreenProofs PropsEdf
  PropsConsist NoiseIdProb GradProofs PropsGapNoise.
From Verif Require PropsBias.
Import ListNotations.
Local Open Scope R_scope.
Local Notation len := List.length.

(** ** Specification *)

(** the k-th clock: N points of generated noise from the k-th stretch of the input stream *)
Definition clock (N k : nat) (qd b : R) (w : nat -> R) : list R := record N qd b (fun i => w (k * N + i)%nat).
(** the comparison of two clocks *)
Definition versus (x y : list R) : list R := map (fun i => nth i x 0 - nth i y 0) (seq 0 (len x)).
(** the square of the single reported deviation *)
Definition sqdev (r : res (@result R)) : R := match r with Ok (_, [d], _, _) => d ^ 2 | _ => 0 end.

(** ** Products of linear forms *)
Section Bilinear.
Variable K : nat.
Variable E : ((nat -> R) -> R) -> R.

Lemma E_two_lin2 a b : white K E -> E (fun w => lin K a w * lin K b w) = dot K a b.
Proof.
  intros HE. assert (H2 : forall c, E (fun w => lin K c w ^ 2) = dot K c c).
  { intros c. unfold lin. rewrite (E_lin K E HE) by lia. unfold dot. apply bigsum_ext. intros j _. ring. }
  rewrite (wh_ext _ E HE _ (fun w => / 4 * ((fun w => lin K (fun j => a j + b j) w ^ 2) w + -1 * (fun w => lin K (fun j => a j - b j) w ^ 2) w))).
  - rewrite (wh_scal _ E HE (/ 4)).
    rewrite (wh_add _ E HE (fun w => lin K (fun j => a j + b j) w ^ 2) (fun w => -1 * (fun w => lin K (fun j => a j - b j) w ^ 2) w)).
    rewrite (wh_scal _ E HE (-1)), !H2. unfold dot.
    rewrite <- bigsum_scal, <- bigsum_plus, <- bigsum_scal. apply bigsum_ext. intros; field.
  - intros w. assert (E1 : lin K (fun j => a j + b j) w = lin K a w + lin K b w)
      by (unfold lin; rewrite <- bigsum_plus; apply bigsum_ext; intros; ring).
    assert (E2 : lin K (fun j => a j - b j) w = lin K a w - lin K b w)
      by (unfold lin; rewrite <- bigsum_minus; apply bigsum_ext; intros; ring).
    rewrite E1, E2. field.
Qed.

Hypothesis HG : gaussian K E.
Let HE := ga_white K E HG.
Lemma E_four_lin4 a b c d : E (fun w => lin K a w * lin K b w * (lin K c w * lin K d w)) =
  dot K a b * dot K c d + dot K a c * dot K b d + dot K a d * dot K b c.
Proof using All.
  rewrite (wh_ext _ E HE _ (fun w => bigsum K (fun i => bigsum K (fun j => bigsum K (fun k => bigsum K (fun l =>
    (a i * b j * c k * d l) * (w i * w j * w k * w l))))))).
  2:{ intros w. unfold lin. transitivity (bigsum K (fun i => a i * w i) * (bigsum K (fun j => b j * w j) *
        (bigsum K (fun k => c k * w k) * bigsum K (fun l => d l * w l)))); [ring|].
      rewrite <- bigsum_scal_r. apply bigsum_ext. intros i _.
      rewrite <- bigsum_scal_r, <- bigsum_scal. apply bigsum_ext. intros j _.
      rewrite <- bigsum_scal_r, <- !bigsum_scal. apply bigsum_ext. intros k _.
      rewrite <- !bigsum_scal. apply bigsum_ext. intros l _. ring. }
  transitivity (bigsum K (fun i => bigsum K (fun j => bigsum K (fun k => bigsum K (fun l =>
    (a i * b j * c k * d l) * (delta i j * delta k l + delta i k * delta j l + delta i l * delta j k)))))).
  { rewrite (E_sum K E HE K (fun i w => bigsum K (fun j => bigsum K (fun k => bigsum K (fun l =>
      (a i * b j * c k * d l) * (w i * w j * w k * w l)))))). apply bigsum_ext. intros i Hi.
    rewrite (E_sum K E HE K (fun j w => bigsum K (fun k => bigsum K (fun l =>
      (a i * b j * c k * d l) * (w i * w j * w k * w l))))). apply bigsum_ext. intros j Hj.
    rewrite (E_sum K E HE K (fun k w => bigsum K (fun l =>
      (a i * b j * c k * d l) * (w i * w j * w k * w l)))). apply bigsum_ext. intros k Hk.
    rewrite (E_sum K E HE K (fun l w => (a i * b j * c k * d l) * (w i * w j * w k * w l))). apply bigsum_ext. intros l Hl.
    rewrite (wh_scal _ E HE (a i * b j * c k * d l) (fun w => w i * w j * w k * w l)).
    now rewrite (ga_four K E HG) by assumption. }
  transitivity (bigsum K (fun i => a i * b i * dot K c d + (a i * c i) * dot K b d + (a i * d i) * dot K b c)).
  2:{ rewrite !bigsum_plus, !bigsum_scal_r. unfold dot. ring. }
  apply bigsum_ext. intros i Hi.
  transitivity (bigsum K (fun j => (a i * b j * dot K c d) * delta i j + a i * c i * (b j * d j) + a i * d i * (b j * c j))).
  2:{ rewrite !bigsum_plus, pick_l by exact Hi. rewrite !bigsum_scal. unfold dot. ring. }
  apply bigsum_ext. intros j Hj.
  transitivity (bigsum K (fun k => (a i * b j * delta i j) * (c k * d k) + (a i * b j * c k * d j) * delta i k
    + (a i * b j * c k * d i) * delta j k)).
  2:{ rewrite !bigsum_plus. rewrite (pick_l K i (fun k => a i * b j * c k * d j)), (pick_l K j (fun k => a i * b j * c k * d i)) by assumption.
      rewrite bigsum_scal. unfold dot. ring. }
  apply bigsum_ext. intros k Hk.
  transitivity (bigsum K (fun l => (a i * b j * c k * d l * delta i j) * delta k l + (a i * b j * c k * d l * delta i k) * delta j l
    + (a i * b j * c k * d l * delta j k) * delta i l)).
  - apply bigsum_ext. intros l _. ring.
  - rewrite !bigsum_plus, !pick_l by assumption. ring.
Qed.

(** variance of c * sum_k (form p_k)(form q_k) *)
Lemma bilin_var c n (p q : nat -> nat -> R) :
  let V := fun w => c * bigsum n (fun k => lin K (p k) w * lin K (q k) w) in
  E (fun w => (V w - E V) ^ 2) = c ^ 2 * bigsum n (fun k => bigsum n (fun l =>
    dot K (p k) (p l) * dot K (q k) (q l) + dot K (p k) (q l) * dot K (q k) (p l))).
Proof using All.
  intros V. set (mu := E V).
  assert (Hmu : mu = c * bigsum n (fun k => dot K (p k) (q k))).
  { unfold mu, V. rewrite (wh_scal _ E HE c (fun w => bigsum n (fun k => lin K (p k) w * lin K (q k) w))). f_equal.
    rewrite (E_sum K E HE n (fun k w => lin K (p k) w * lin K (q k) w)). apply bigsum_ext. intros k _. apply E_two_lin2, HE. }
  rewrite (wh_ext _ E HE _ (fun w => V w ^ 2 + ((-2 * mu) * V w + mu ^ 2 * 1))) by (intro; ring).
  rewrite (wh_add _ E HE (fun w => V w ^ 2) (fun w => (-2 * mu) * V w + mu ^ 2 * 1)).
  rewrite (wh_add _ E HE (fun w => (-2 * mu) * V w) (fun w => mu ^ 2 * 1)).
  rewrite (wh_scal _ E HE (-2 * mu) V), (wh_scal _ E HE (mu ^ 2) (fun _ => 1)), (ga_one K E HG). fold mu.
  set (Q := bigsum n (fun k => bigsum n (fun l => dot K (p k) (p l) * dot K (q k) (q l) + dot K (p k) (q l) * dot K (q k) (p l)))).
  assert (H2 : E (fun w => V w ^ 2) = mu ^ 2 + c ^ 2 * Q).
  { rewrite (wh_ext _ E HE _ (fun w => c ^ 2 * bigsum n (fun k => bigsum n (fun l => lin K (p k) w * lin K (q k) w * (lin K (p l) w * lin K (q l) w))))).
    2:{ intros w. unfold V. rewrite Rpow_mult_distr. f_equal. cbn [pow]. rewrite Rmult_1_r.
        rewrite <- bigsum_scal_r. apply bigsum_ext. intros k _. rewrite <- bigsum_scal. reflexivity. }
    rewrite (wh_scal _ E HE (c ^ 2) (fun w => bigsum n (fun k => bigsum n (fun l => lin K (p k) w * lin K (q k) w * (lin K (p l) w * lin K (q l) w))))).
    rewrite (E_sum K E HE n (fun k w => bigsum n (fun l => lin K (p k) w * lin K (q k) w * (lin K (p l) w * lin K (q l) w)))).
    rewrite (bigsum_ext n _ (fun k => dot K (p k) (q k) * bigsum n (fun l => dot K (p l) (q l)) +
      bigsum n (fun l => dot K (p k) (p l) * dot K (q k) (q l) + dot K (p k) (q l) * dot K (q k) (p l)))).
    2:{ intros k _. rewrite (E_sum K E HE n (fun l w => lin K (p k) w * lin K (q k) w * (lin K (p l) w * lin K (q l) w))).
        rewrite <- !bigsum_scal, <- bigsum_plus. apply bigsum_ext. intros l _. rewrite E_four_lin4. ring. }
    rewrite bigsum_plus, bigsum_scal_r, Hmu. fold Q. ring. }
  rewrite H2. ring.
Qed.
End Bilinear.

(** ** Three stretches of one stream *)
Definition cat3 (N : nat) (f g h : nat -> R) (j : nat) : R :=
  if (j <? N)%nat then f j else if (j <? 2 * N)%nat then g (j - N)%nat else h (j - 2 * N)%nat.
Lemma sum_cat3 N f g h (u : nat -> R) : bigsum (3 * N) (fun j => cat3 N f g h j * u j) =
  bigsum N (fun j => f j * u j) + bigsum N (fun j => g j * u (N + j)%nat) + bigsum N (fun j => h j * u (2 * N + j)%nat).
Proof.
  replace (3 * N)%nat with (N + (N + N))%nat by lia. rewrite !bigsum_add, Rplus_assoc. f_equal; [|f_equal]; apply bigsum_ext; intros j Hj; unfold cat3.
  - destruct (Nat.ltb_spec j N); [reflexivity|lia].
  - destruct (Nat.ltb_spec (N + j) N); [lia|]. destruct (Nat.ltb_spec (N + j) (2 * N)); [|lia]. do 2 f_equal. lia.
  - destruct (Nat.ltb_spec (N + (N + j)) N); [lia|]. destruct (Nat.ltb_spec (N + (N + j)) (2 * N)); [lia|].
    f_equal; f_equal; lia.
Qed.
Lemma lin_cat3 N f g h w : lin (3 * N) (cat3 N f g h) w =
  lin N f (fun i => w (0 * N + i)%nat) + lin N g (fun i => w (1 * N + i)%nat) + lin N h (fun i => w (2 * N + i)%nat).
Proof. unfold lin. rewrite sum_cat3. replace (1 * N)%nat with N by lia. reflexivity. Qed.
Lemma dot_cat3 N f g h f' g' h' : dot (3 * N) (cat3 N f g h) (cat3 N f' g' h') = dot N f f' + dot N g g' + dot N h h'.
Proof.
  unfold dot. rewrite sum_cat3. f_equal; [f_equal|]; apply bigsum_ext; intros j Hj; f_equal; unfold cat3.
  - destruct (Nat.ltb_spec j N); [reflexivity|lia].
  - destruct (Nat.ltb_spec (N + j) N); [lia|]. destruct (Nat.ltb_spec (N + j) (2 * N)); [|lia]. f_equal. lia.
  - destruct (Nat.ltb_spec (2 * N + j) N); [lia|]. destruct (Nat.ltb_spec (2 * N + j) (2 * N)); [lia|]. f_equal. lia.
Qed.
Lemma dot_sc N r s (f g : nat -> R) : dot N (fun j => r * f j) (fun j => s * g j) = r * s * dot N f g.
Proof. unfold dot. rewrite <- bigsum_scal. apply bigsum_ext. intros; ring. Qed.
Lemma dot_0l N (g : nat -> R) : dot N (fun _ => 0) g = 0.
Proof. unfold dot. apply bigsum_0. intros; ring. Qed.
Lemma dot_0r N (g : nat -> R) : dot N g (fun _ => 0) = 0.
Proof. unfold dot. apply bigsum_0. intros; ring. Qed.
Lemma lin_sc N r (f : nat -> R) w : lin N (fun j => r * f j) w = r * lin N f w.
Proof. unfold lin. rewrite <- bigsum_scal. apply bigsum_ext. intros; ring. Qed.
Lemma lin_0 N w : lin N (fun _ => 0) w = 0.
Proof. unfold lin. apply bigsum_0. intros; ring. Qed.

(** ** The three comparisons *)
Lemma versus_len x y : len (versus x y) = len x.
Proof. unfold versus. now rewrite map_length, seq_length. Qed.
Lemma versus_nth x y i : (i < len x)%nat -> (versus x y).[i] = x.[i] - y.[i].
Proof. intros H. unfold versus. change (map ?f (seq 0 ?n)) with (tab n f). now rewrite nth_tab. Qed.
Lemma versus_d2 x y m i : (i + 2 * m < len x)%nat -> d2 (versus x y) m i = d2 x m i - d2 y m i.
Proof. intros H. unfold d2. rewrite !versus_nth by lia. ring. Qed.

Lemma c2_dot b N m k l : slope b -> (1 <= m)%nat -> (k + 2 * m < N)%nat -> (l + 2 * m < N)%nat ->
  - PropsBias.v2 b m <= dot N (c2 b m k) (c2 b m l) <= PropsBias.v2 b m.
Proof.
  intros Hb Hm Hk Hl. pose proof (cauchy_schwarz N (c2 b m k) (c2 b m l)) as CS. rewrite !v2_var in CS by assumption.
  assert (0 <= PropsBias.v2 b m) by (rewrite <- (v2_var b N m k) by assumption; apply bigsum_nonneg; intros; apply pow2_ge_0).
  unfold dot. set (D := bigsum N _) in *. split; nra.
Qed.
Lemma c2_self b N m k : slope b -> (1 <= m)%nat -> (k + 2 * m < N)%nat -> dot N (c2 b m k) (c2 b m k) = PropsBias.v2 b m.
Proof. intros Hb Hm Hk. rewrite <- (v2_var b N m k) by assumption. unfold dot. apply bigsum_ext. intros; ring. Qed.
Lemma c2_shifty b m : slope b -> (1 <= m)%nat -> shifty (c2 b m) 1 (2 * m + 1).
Proof.
  intros Hb Hm. destruct (shifty_c2 b m 1 Hb Hm (le_n 1)) as [H1 H2 H3 H4 H5 H6]. split; try assumption.
  - intros k j. specialize (H3 k j). now rewrite !Nat.mul_1_r in H3.
  - intros k j H. specialize (H4 k j H). now rewrite Nat.mul_1_r in H4.
  - intros k j H. specialize (H5 k j H). now rewrite Nat.mul_1_r in H5.
Qed.
Lemma c2_far b N m k l : slope b -> (1 <= m)%nat -> (2 * m + 1 <= dist k l)%nat -> dot N (c2 b m k) (c2 b m l) = 0.
Proof. intros Hb Hm H. apply (sh_far (c2 b m) 1 (2 * m + 1) (c2_shifty b m Hb Hm) N k l (2 * m + 1)); lia. Qed.

Section Three.
Variables (N m : nat) (ba bb bc qa qb qc rate : R).
Hypothesis (Ha : slope ba) (Hb : slope bb) (Hc : slope bc).
Hypothesis (Qa : 0 <= qa) (Qb : 0 <= qb) (Qc : 0 <= qc).
Hypothesis Hr : 0 < rate.
Hypothesis Hm : (1 <= m)%nat.
Hypothesis Hn : (2 <= N - 2 * m)%nat.

Let a w := clock N 0 qa ba w.
Let b w := clock N 1 qb bb w.
Let c w := clock N 2 qc bc w.
Let n := (N - 2 * m)%nat.
Let P k := cat3 N (fun j => sqrt qa * c2 ba m k j) (fun j => - sqrt qb * c2 bb m k j) (fun _ => 0).
Let Q k := cat3 N (fun j => sqrt qa * c2 ba m k j) (fun _ => 0) (fun j => - sqrt qc * c2 bc m k j).
Let C := / (2 * (INR m * (1 / rate)) ^ 2 * INR n).
Let S w := C * bigsum n (fun k => lin (3 * N) (P k) w * lin (3 * N) (Q k) w).

Lemma clock_len k q bq w : len (clock N k q bq w) = N.
Proof using Hm Hn. apply record_len. lia. Qed.
Lemma clock_d2 k q bq w i : (i < n)%nat -> d2 (clock N k q bq w) m i = sqrt q * lin N (c2 bq m i) (fun i => w (k * N + i)%nat).
Proof using Hm Hn. intros Hi. unfold clock. unfold lin. apply record_d2. unfold n in Hi. lia. Qed.
Lemma ab_d2 w i : (i < n)%nat -> d2 (versus (a w) (b w)) m i = lin (3 * N) (P i) w.
Proof using Hm Hn.
  intros Hi. rewrite versus_d2 by (unfold a; rewrite clock_len; unfold n in Hi; lia). unfold a, b, P.
  rewrite !clock_d2 by exact Hi. rewrite lin_cat3, !lin_sc, lin_0. ring.
Qed.
Lemma ac_d2 w i : (i < n)%nat -> d2 (versus (a w) (c w)) m i = lin (3 * N) (Q i) w.
Proof using Hm Hn.
  intros Hi. rewrite versus_d2 by (unfold a; rewrite clock_len; unfold n in Hi; lia). unfold a, c, Q.
  rewrite !clock_d2 by exact Hi. rewrite lin_cat3, !lin_sc, lin_0. ring.
Qed.
Lemma ca_d2 w i : (i < n)%nat -> d2 (versus (c w) (a w)) m i = - lin (3 * N) (Q i) w.
Proof using Hm Hn.
  intros Hi. rewrite <- ac_d2 by exact Hi. rewrite !versus_d2 by (unfold a, c; rewrite clock_len; unfold n in Hi; lia). ring.
Qed.
Lemma bc_d2 w i : (i < n)%nat -> d2 (versus (b w) (c w)) m i = lin (3 * N) (Q i) w - lin (3 * N) (P i) w.
Proof using Hm Hn.
  intros Hi. rewrite <- ac_d2, <- ab_d2 by exact Hi. rewrite !versus_d2 by (unfold a, b, c; rewrite clock_len; unfold n in Hi; lia). ring.
Qed.

Lemma S_cov w : ocov (versus (a w) (b w)) (versus (a w) (c w)) (1 / rate) m = S w /\
  ocov (versus (a w) (b w)) (versus (c w) (a w)) (1 / rate) m = - S w.
Proof using Hm Hn.
  assert (Hl : oadev_n (versus (a w) (b w)) m = n) by (unfold oadev_n, a; now rewrite versus_len, clock_len).
  unfold ocov, S. rewrite !Hl. fold C. split.
  - f_equal. apply bigsum_ext. intros i Hi. now rewrite ab_d2, ac_d2.
  - rewrite <- Ropp_mult_distr_r_reverse. f_equal. rewrite (bigsum_ext n _ (fun k => -1 * (lin (3 * N) (P k) w * lin (3 * N) (Q k) w))).
    + rewrite bigsum_scal. ring.
    + intros i Hi. rewrite ab_d2, ca_d2 by exact Hi. ring.
Qed.
Lemma S_oavar w : (oavar (versus (a w) (b w)) (1 / rate) m + oavar (versus (c w) (a w)) (1 / rate) m - oavar (versus (b w) (c w)) (1 / rate) m) / 2 = S w.
Proof using Hm Hn.
  assert (Hl : forall k q bq y, oadev_n (versus (clock N k q bq w) y) m = n) by (intros; unfold oadev_n; now rewrite versus_len, clock_len).
  unfold oavar, S, a, b, c. rewrite !Hl. fold C. fold (a w) (b w) (c w).
  rewrite (bigsum_ext n (fun i => d2 (versus (a w) (b w)) m i ^ 2) (fun k => lin (3 * N) (P k) w ^ 2)) by (intros i Hi; now rewrite ab_d2).
  rewrite (bigsum_ext n (fun i => d2 (versus (c w) (a w)) m i ^ 2) (fun k => lin (3 * N) (Q k) w ^ 2)) by (intros i Hi; rewrite ca_d2 by exact Hi; ring).
  rewrite (bigsum_ext n (fun i => d2 (versus (b w) (c w)) m i ^ 2)
    (fun k => lin (3 * N) (P k) w ^ 2 + (lin (3 * N) (Q k) w ^ 2 - 2 * (lin (3 * N) (P k) w * lin (3 * N) (Q k) w))))
    by (intros i Hi; rewrite bc_d2 by exact Hi; ring).
  rewrite bigsum_plus, bigsum_minus, bigsum_scal. field.
Qed.

Let tm := TList [INR m / rate].
Lemma oadev_row x : len x = N -> sqdev (oadev x rate "phase" tm) = oavar x (1 / rate) m.
Proof using Hn Hm Hr.
  intros HL. unfold tm. rewrite (C15_oadev _ _ _ [m]); [|exact Hr|rewrite HL; apply adm_single; [exact Hr|lia]].
  cbv zeta. rewrite report_single by (unfold oadev_n; rewrite HL; lia). cbn [sqdev]. apply pow2_sqrt, oavar_nonneg.
Qed.
Lemma gco_row w : exists e, gcodev (versus (a w) (b w)) (versus (a w) (c w)) rate "phase" tm =
  Ok ([INR m / rate], [sqrt (Rabs (S w))], e, [Z.of_nat n]).
Proof using Hn Hm Hr.
  assert (HL : len (versus (a w) (b w)) = N) by (unfold a; now rewrite versus_len, clock_len).
  unfold tm. rewrite (C28_gcodev _ _ _ _ [m]); [|exact Hr|unfold a; now rewrite !versus_len|rewrite HL; apply adm_single; [exact Hr|lia]].
  cbv zeta. assert (Hl : oadev_n (versus (a w) (b w)) m = n) by (unfold oadev_n; now rewrite HL).
  rewrite report_single by (rewrite Hl; unfold n; lia). rewrite Hl, (proj1 (S_cov w)). eexists. reflexivity.
Qed.
Lemma hat_row w : exists e, three_cornered_hat_phase (versus (a w) (b w)) (versus (b w) (c w)) (versus (c w) (a w)) rate tm oadev =
  Ok ([INR m / rate], [sqrt (Rmax 0 (S w))], e, [Z.of_nat n]).
Proof using Hn Hm Hr.
  assert (HL : len (versus (a w) (b w)) = N) by (unfold a; now rewrite versus_len, clock_len).
  assert (HA : len (a w) = N /\ len (b w) = N /\ len (c w) = N) by (unfold a, b, c; now rewrite !clock_len).
  destruct HA as (LA & LB & LC).
  unfold tm. rewrite (C41_closed_loop _ _ _ _ _ [m]); [|exact Hr|rewrite !versus_len; lia|rewrite !versus_len; lia| |rewrite HL; apply adm_single; [exact Hr|lia]].
  2:{ intros i Hi. rewrite HL in Hi. rewrite !versus_nth by lia. ring. }
  cbv zeta. assert (Hl : oadev_n (versus (a w) (b w)) m = n) by (unfold oadev_n; now rewrite HL).
  rewrite report_single by (rewrite Hl; unfold n; lia). rewrite Hl, (proj2 (S_cov w)), Ropp_involutive. eexists. reflexivity.
Qed.

Let va := PropsBias.allan ba qa (INR m / rate) m.
Let vb := PropsBias.allan bb qb (INR m / rate) m.
Let vc := PropsBias.allan bc qc (INR m / rate) m.
Let c0 := / (2 * (INR m * (1 / rate)) ^ 2).

Lemma c0_pos : 0 < c0.
Proof using Hm Hr. unfold c0. apply Rinv_0_lt_compat. pose proof (pow_lt _ 2 (PropsEdf.tau_pos m rate Hr Hm)). lra. Qed.
Lemma v_eq q bq : slope bq -> PropsBias.allan bq q (INR m / rate) m = c0 * (q * PropsBias.v2 bq m).
Proof using Hm Hr. intros H. rewrite <- PropsBias.allan_v2 by assumption. unfold c0, Rdiv. ring. Qed.

Lemma pp k l : dot (3 * N) (P k) (P l) = qa * dot N (c2 ba m k) (c2 ba m l) + qb * dot N (c2 bb m k) (c2 bb m l).
Proof using Qa Qb.
  unfold P. rewrite dot_cat3, !dot_sc, dot_0l. rewrite sqrt_sqrt by exact Qa.
  replace (- sqrt qb * - sqrt qb) with (sqrt qb * sqrt qb) by ring. rewrite sqrt_sqrt by exact Qb. ring.
Qed.
Lemma qq k l : dot (3 * N) (Q k) (Q l) = qa * dot N (c2 ba m k) (c2 ba m l) + qc * dot N (c2 bc m k) (c2 bc m l).
Proof using Qa Qc.
  unfold Q. rewrite dot_cat3, !dot_sc, dot_0l. rewrite sqrt_sqrt by exact Qa.
  replace (- sqrt qc * - sqrt qc) with (sqrt qc * sqrt qc) by ring. rewrite sqrt_sqrt by exact Qc. ring.
Qed.
Lemma pq k l : dot (3 * N) (P k) (Q l) = qa * dot N (c2 ba m k) (c2 ba m l).
Proof using Qa.
  unfold P, Q. rewrite dot_cat3, !dot_sc, dot_0l, dot_0r. rewrite sqrt_sqrt by exact Qa. ring.
Qed.
Lemma qp k l : dot (3 * N) (Q k) (P l) = qa * dot N (c2 ba m k) (c2 ba m l).
Proof using Qa.
  unfold P, Q. rewrite dot_cat3, !dot_sc, dot_0l, dot_0r. rewrite sqrt_sqrt by exact Qa. ring.
Qed.

Lemma S_mean E : white (3 * N) E -> E S = va.
Proof using All.
  intros HE. unfold S. rewrite (wh_scal _ E HE C (fun w => bigsum n (fun k => lin (3 * N) (P k) w * lin (3 * N) (Q k) w))).
  rewrite (E_sum _ E HE n (fun k w => lin (3 * N) (P k) w * lin (3 * N) (Q k) w)).
  rewrite (bigsum_ext n _ (fun _ => qa * PropsBias.v2 ba m)).
  - rewrite bigsum_const. unfold va. rewrite v_eq by exact Ha. unfold C, c0.
    assert (0 < INR n) by (apply lt_0_INR; unfold n; lia). assert (0 < INR m) by (apply lt_0_INR; lia). field. lra.
  - intros k Hk. rewrite E_two_lin2 by exact HE. rewrite pq. f_equal. apply c2_self; auto. unfold n in Hk; lia.
Qed.

Lemma prod_le x y X Y : - X <= x <= X -> - Y <= y <= Y -> x * y <= X * Y.
Proof. intros. nra. Qed.

Lemma S_var E : gaussian (3 * N) E ->
  E (fun w => (S w - va) ^ 2) <= (4 * INR m + 1) / INR n * ((va + vb) * (va + vc) + va ^ 2).
Proof using All.
  intros HG. pose proof (bilin_var (3 * N) E HG C n P Q) as HV. cbv zeta in HV.
  change (fun w => C * bigsum n (fun k => lin (3 * N) (P k) w * lin (3 * N) (Q k) w)) with S in HV.
  rewrite (S_mean E (ga_white _ _ HG)) in HV.
  apply Rle_trans with (C ^ 2 * bigsum n (fun k => bigsum n (fun l =>
    dot (3 * N) (P k) (P l) * dot (3 * N) (Q k) (Q l) + dot (3 * N) (P k) (Q l) * dot (3 * N) (Q k) (P l)))).
  { right. exact HV. }
  clear HV. set (fa := PropsBias.v2 ba m). set (fb := PropsBias.v2 bb m). set (fc := PropsBias.v2 bc m).
  assert (Hnp : 0 < INR n) by (apply lt_0_INR; unfold n; lia). assert (Hmp : 0 < INR m) by (apply lt_0_INR; lia).
  set (W := (qa * fa + qb * fb) * (qa * fa + qc * fc) + (qa * fa) ^ 2).
  assert (HQ : bigsum n (fun k => bigsum n (fun l =>
    dot (3 * N) (P k) (P l) * dot (3 * N) (Q k) (Q l) + dot (3 * N) (P k) (Q l) * dot (3 * N) (Q k) (P l))) <= W * (INR n * (2 * INR (2 * m + 1) - 1))).
  { apply Rle_trans with (W * dsum n (fun j => if (j <? 2 * m + 1)%nat then 1 else 0)).
    - rewrite <- dsum_scal. unfold dsum. apply bigsum_le. intros k Hk. apply bigsum_le. intros l Hl.
      rewrite pp, qq, pq, qp. unfold n in Hk, Hl.
      destruct (Nat.ltb_spec (dist k l) (2 * m + 1)) as [H|H].
      + rewrite Rmult_1_r. pose proof (c2_dot ba N m k l Ha Hm ltac:(lia) ltac:(lia)) as B1.
        pose proof (c2_dot bb N m k l Hb Hm ltac:(lia) ltac:(lia)) as B2. pose proof (c2_dot bc N m k l Hc Hm ltac:(lia) ltac:(lia)) as B3.
        fold fa in B1. fold fb in B2. fold fc in B3.
        set (x := dot N (c2 ba m k) _) in *. set (y := dot N (c2 bb m k) _) in *. set (z := dot N (c2 bc m k) _) in *.
        assert (- (qa * fa) <= qa * x <= qa * fa) by nra. assert (- (qb * fb) <= qb * y <= qb * fb) by nra.
        assert (- (qc * fc) <= qc * z <= qc * fc) by nra.
        pose proof (prod_le (qa * x + qb * y) (qa * x + qc * z) (qa * fa + qb * fb) (qa * fa + qc * fc) ltac:(lra) ltac:(lra)).
        pose proof (prod_le (qa * x) (qa * x) (qa * fa) (qa * fa) ltac:(lra) ltac:(lra)). unfold W. lra.
      + rewrite !(c2_far _ N m k l) by (assumption || lia). lra.
    - apply Rmult_le_compat_l; [|apply band_count; lia].
      assert (P0 : forall q bq, 0 <= q -> slope bq -> 0 <= q * PropsBias.v2 bq m).
      { intros q bq H1 H2. apply Rmult_le_pos; [exact H1|]. rewrite <- (v2_var bq N m 0) by (assumption || lia). apply bigsum_nonneg. intros; apply pow2_ge_0. }
      pose proof (P0 qa ba Qa Ha) as P1. pose proof (P0 qb bb Qb Hb) as P2. pose proof (P0 qc bc Qc Hc) as P3.
      fold fa in P1. fold fb in P2. fold fc in P3. unfold W.
      pose proof (pow2_ge_0 (qa * fa)). pose proof (Rmult_le_pos (qa * fa + qb * fb) (qa * fa + qc * fc) ltac:(lra) ltac:(lra)). lra. }
  apply (Rmult_le_compat_l (C ^ 2)) in HQ; [|apply pow2_ge_0]. eapply Rle_trans; [exact HQ|]. right.
  unfold va, vb, vc. rewrite !v_eq by assumption. fold fa fb fc. rewrite plus_INR, mult_INR. cbn [INR]. unfold W, C, c0. field. lra.
Qed.
End Three.

(** ** C102 *)
(** The three-cornered combination of the squared deviations has the Allan variance
    of clock A as its mean, whatever the three noises are; gcodev and
    three_cornered_hat_phase report its absolute value and its positive part. *)
Theorem C102_unbiased N m ba bb bc qa qb qc rate E : white (3 * N) E ->
  (forall b, In b [ba; bb; bc] -> b = 0 \/ b = -2 \/ b = -4) -> 0 <= qa -> 0 <= qb -> 0 <= qc ->
  0 < rate -> (1 <= m)%nat -> (2 <= N - 2 * m)%nat ->
  let a := clock N 0 qa ba in let b := clock N 1 qb bb in let c := clock N 2 qc bc in
  let taus := TList [INR m / rate] in
  let sq x := sqdev (oadev x rate "phase" taus) in
  let signed w := (sq (versus (a w) (b w)) + sq (versus (c w) (a w)) - sq (versus (b w) (c w))) / 2 in
  E signed = PropsBias.allan ba qa (INR m / rate) m /\
  forall w,
  (exists e, gcodev (versus (a w) (b w)) (versus (a w) (c w)) rate "phase" taus =
     Ok ([INR m / rate], [sqrt (Rabs (signed w))], e, [Z.of_nat (N - 2 * m)])) /\
  (exists e, three_cornered_hat_phase (versus (a w) (b w)) (versus (b w) (c w)) (versus (c w) (a w)) rate taus oadev =
     Ok ([INR m / rate], [sqrt (Rmax 0 (signed w))], e, [Z.of_nat (N - 2 * m)])).
Proof.
  intros HE Hs Qa Qb Qc Hr Hm Hn a b c taus sq signed.
  assert (Ha : slope ba) by (apply Hs; cbn; auto). assert (Hb : slope bb) by (apply Hs; cbn; auto). assert (Hc : slope bc) by (apply Hs; cbn; auto).
  assert (ES : forall w, signed w = / (2 * (INR m * (1 / rate)) ^ 2 * INR (N - 2 * m)) * bigsum (N - 2 * m) (fun k =>
    lin (3 * N) (cat3 N (fun j => sqrt qa * c2 ba m k j) (fun j => - sqrt qb * c2 bb m k j) (fun _ => 0)) w *
    lin (3 * N) (cat3 N (fun j => sqrt qa * c2 ba m k j) (fun _ => 0) (fun j => - sqrt qc * c2 bc m k j)) w)).
  { intros w. unfold signed, sq, taus.
    assert (LA : len (a w) = N) by (apply record_len; lia). assert (LB : len (b w) = N) by (apply record_len; lia).
    assert (LC : len (c w) = N) by (apply record_len; lia).
    rewrite !(oadev_row N m rate Hr Hm Hn) by (rewrite versus_len; assumption).
    apply (S_oavar N m ba bb bc qa qb qc rate Hm Hn). }
  split.
  - rewrite (wh_ext _ E HE signed _ ES). now apply (S_mean N m ba bb bc qa qb qc rate).
  - intros w. rewrite ES. split; [now apply (gco_row N m ba bb bc qa qb qc rate)|now apply (hat_row N m ba bb bc qa qb qc rate)].
Qed.
Print Assumptions C102_unbiased.

Lemma abs_near s v : 0 <= v -> (Rabs s - v) ^ 2 <= (s - v) ^ 2.
Proof. intros H. unfold Rabs. destruct (Rcase_abs s); nra. Qed.
Lemma max_near s v : 0 <= v -> (Rmax 0 s - v) ^ 2 <= (s - v) ^ 2.
Proof. intros H. unfold Rmax. destruct (Rle_dec 0 s); nra. Qed.

(** The reported values: mean not below the Allan variance of clock A, mean-square
    error at most (4m+1)/n ((va+vb)(va+vc) + va^2). *)
Theorem C102_accuracy N m ba bb bc qa qb qc rate E : prob (3 * N) E ->
  (forall b, In b [ba; bb; bc] -> b = 0 \/ b = -2 \/ b = -4) -> 0 <= qa -> 0 <= qb -> 0 <= qc ->
  0 < rate -> (1 <= m)%nat -> (2 <= N - 2 * m)%nat ->
  let a := clock N 0 qa ba in let b := clock N 1 qb bb in let c := clock N 2 qc bc in
  let taus := TList [INR m / rate] in
  let gco w := sqdev (gcodev (versus (a w) (b w)) (versus (a w) (c w)) rate "phase" taus) in
  let hat w := sqdev (three_cornered_hat_phase (versus (a w) (b w)) (versus (b w) (c w)) (versus (c w) (a w)) rate taus oadev) in
  let va := PropsBias.allan ba qa (INR m / rate) m in
  let vb := PropsBias.allan bb qb (INR m / rate) m in
  let vc := PropsBias.allan bc qc (INR m / rate) m in
  let bound := (4 * INR m + 1) / INR (N - 2 * m) * ((va + vb) * (va + vc) + va ^ 2) in
  va <= E hat <= E gco /\
  E (fun w => (gco w - va) ^ 2) <= bound /\ E (fun w => (hat w - va) ^ 2) <= bound /\
  (0 < va -> E (fun w => if Req_EM_T (hat w) 0 then 1 else 0) <= bound / va ^ 2).
Proof.
  intros HP Hs Qa Qb Qc Hr Hm Hn a b c taus gco hat va vb vc bound.
  assert (Ha : slope ba) by (apply Hs; cbn; auto). assert (Hb : slope bb) by (apply Hs; cbn; auto). assert (Hc : slope bc) by (apply Hs; cbn; auto).
  pose proof (pr_gauss _ _ HP) as HG. pose proof (ga_white _ _ HG) as HE.
  set (S := fun w => / (2 * (INR m * (1 / rate)) ^ 2 * INR (N - 2 * m)) * bigsum (N - 2 * m) (fun k =>
    lin (3 * N) (cat3 N (fun j => sqrt qa * c2 ba m k j) (fun j => - sqrt qb * c2 bb m k j) (fun _ => 0)) w *
    lin (3 * N) (cat3 N (fun j => sqrt qa * c2 ba m k j) (fun _ => 0) (fun j => - sqrt qc * c2 bc m k j)) w)).
  assert (HM : E S = va) by (now apply (S_mean N m ba bb bc qa qb qc rate)).
  assert (HV : E (fun w => (S w - va) ^ 2) <= bound) by (now apply (S_var N m ba bb bc qa qb qc rate)).
  assert (G : forall w, gco w = Rabs (S w)).
  { intros w. unfold gco. destruct (gco_row N m ba bb bc qa qb qc rate Hr Hm Hn w) as [e He].
    unfold a, b, c, taus. rewrite He. cbn [sqdev]. apply pow2_sqrt, Rabs_pos. }
  assert (H : forall w, hat w = Rmax 0 (S w)).
  { intros w. unfold hat. destruct (hat_row N m ba bb bc qa qb qc rate Hr Hm Hn w) as [e He].
    unfold a, b, c, taus. rewrite He. cbn [sqdev]. apply pow2_sqrt, Rmax_l. }
  assert (Hva : 0 <= va).
  { unfold va. rewrite (v_eq m rate Hr Hm) by exact Ha. apply Rmult_le_pos; [left; now apply c0_pos|]. apply Rmult_le_pos; [exact Qa|].
    rewrite <- (v2_var ba N m 0) by (assumption || lia). apply bigsum_nonneg. intros; apply pow2_ge_0. }
  split; [split|split; [|split]].
  - rewrite <- HM. apply (pr_mono _ _ HP). intros w. rewrite H. apply Rmax_r.
  - apply (pr_mono _ _ HP). intros w. rewrite G, H. apply Rmax_lub; [apply Rabs_pos|apply Rle_abs].
  - eapply Rle_trans; [|exact HV]. apply (pr_mono _ _ HP). intros w. rewrite G. now apply abs_near.
  - eapply Rle_trans; [|exact HV]. apply (pr_mono _ _ HP). intros w. rewrite H. now apply max_near.
  - intros Hp. assert (Hp2 : 0 < va ^ 2) by (now apply pow_lt).
    apply (Rmult_le_reg_l (va ^ 2)); [exact Hp2|]. replace (va ^ 2 * (bound / va ^ 2)) with bound by (field; lra).
    rewrite <- (wh_scal _ E HE (va ^ 2) (fun w => if Req_EM_T (hat w) 0 then 1 else 0)).
    eapply Rle_trans; [|exact HV]. apply (pr_mono _ _ HP). intros w. destruct (Req_EM_T (hat w) 0) as [e|e].
    + rewrite H in e. pose proof (Rmax_r 0 (S w)). nra.
    + rewrite Rmult_0_r. apply pow2_ge_0.
Qed.
Print Assumptions C102_accuracy.

(** So both converge to the Allan variance of clock A as the records grow, even
    when the other two clocks are much worse. *)
Theorem C102_consistent m ba bb bc qa qb qc rate :
  (forall b, In b [ba; bb; bc] -> b = 0 \/ b = -2 \/ b = -4) -> 0 <= qa -> 0 <= qb -> 0 <= qc ->
  0 < rate -> (1 <= m)%nat ->
  let taus := TList [INR m / rate] in
  let va := PropsBias.allan ba qa (INR m / rate) m in
  forall eps, 0 < eps -> exists N0, forall N E, (N0 <= N)%nat -> prob (3 * N) E ->
  let a := clock N 0 qa ba in let b := clock N 1 qb bb in let c := clock N 2 qc bc in
  E (fun w => (sqdev (gcodev (versus (a w) (b w)) (versus (a w) (c w)) rate "phase" taus) - va) ^ 2) <= eps /\
  E (fun w => (sqdev (three_cornered_hat_phase (versus (a w) (b w)) (versus (b w) (c w)) (versus (c w) (a w)) rate taus oadev) - va) ^ 2) <= eps.
Proof.
  intros Hs Qa Qb Qc Hr Hm taus va eps He.
  set (vb := PropsBias.allan bb qb (INR m / rate) m). set (vc := PropsBias.allan bc qc (INR m / rate) m).
  set (M := (4 * INR m + 1) * ((va + vb) * (va + vc) + va ^ 2)).
  destruct (INR_above (M / eps)) as [n0 Hn0]. exists (n0 + 2 * m + 2)%nat. intros N E HN HP a b c.
  destruct (C102_accuracy N m ba bb bc qa qb qc rate E HP Hs Qa Qb Qc Hr Hm ltac:(lia)) as (_ & H1 & H2 & _).
  fold va vb vc in H1, H2.
  assert (HB : (4 * INR m + 1) / INR (N - 2 * m) * ((va + vb) * (va + vc) + va ^ 2) <= eps).
  { assert (Hcn : INR n0 <= INR (N - 2 * m)) by (apply le_INR; lia). assert (Hcp : 0 < INR (N - 2 * m)) by (apply lt_0_INR; lia).
    replace ((4 * INR m + 1) / INR (N - 2 * m) * ((va + vb) * (va + vc) + va ^ 2)) with (M / INR (N - 2 * m)) by (unfold M; field; lra).
    apply (Rmult_le_reg_r (INR (N - 2 * m))); [exact Hcp|]. unfold Rdiv at 1. rewrite Rmult_assoc, Rinv_l, Rmult_1_r by lra.
    apply (Rmult_lt_compat_r eps) in Hn0; [|exact He]. unfold Rdiv in Hn0. rewrite Rmult_assoc, Rinv_l, Rmult_1_r in Hn0 by lra. nra. }
  split; eapply Rle_trans; [exact H1|exact HB|exact H2|exact HB].
Qed.
Print Assumptions C102_consistent.

(** white phase noise, white and random-walk frequency noise; 40 points, m = 3 *)
Example C102_ex : prob (3 * 40) (trip (3 * 40)) /\ (forall b, In b [0; -2; -4] -> b = 0 \/ b = -2 \/ b = -4) /\ (2 <= 40 - 2 * 3)%nat /\
  0 < PropsBias.allan 0 1 (INR 3 / 1) 3.
Proof.
  split; [apply trip_prob|]. split; [intros b; cbn; intuition auto|]. split; [lia|].
  unfold PropsBias.allan. destruct (Req_EM_T 0 0); [|lra]. apply Rdiv_lt_0_compat; [lra|]. apply pow_lt. cbn. lra.
Qed.
