(** * Properties of ci.py: C42, C43, C45, C46, C50-C53. *)
From Coq Require Import String Reals List ZArith Lra Lia Arith Bool Psatz.
From Verif Require Import Base Num NpList NumR ModelCore ModelDev ModelMisc ModelCi ModelCiR ListFacts Spec RSum TauProofs
  DevProofs TotProofs Closed Laws Laws2 Laws3 CiProofs.
Import ListNotations.
Local Open Scope R_scope.
Local Notation len := List.length.

(** ** C42 *)
(** The interval uses the levels pl and ph = 1 - pl, which enclose probability
    max(ci, 1-ci). *)
Theorem C42_levels ppf dev edf ci : 0 <= ci <= 1 -> exists pl ph,
  confidence_interval ppf dev edf ci =
    (sqrt (edf * (dev * dev) / ppf ph edf), sqrt (edf * (dev * dev) / ppf pl edf)) /\
  pl + ph = 1 /\ ph - pl = Rmax ci (1 - ci).
Proof.
  intros H. rewrite ci_eq. cbv zeta. do 2 eexists. split; [reflexivity|]. split; [ring|].
  destruct (Rle_dec ci (1/2)).
  - rewrite ci_level_lo by lra. rewrite Rmax_right; lra.
  - rewrite ci_level_hi by lra. rewrite Rmax_left; lra.
Qed.
Print Assumptions C42_levels.
Theorem C42_upper ppf dev edf ci : 1/2 <= ci <= 1 -> confidence_interval ppf dev edf ci =
  (sqrt (edf * (dev * dev) / ppf ((1 + ci) / 2) edf), sqrt (edf * (dev * dev) / ppf ((1 - ci) / 2) edf)).
Proof. intros H. rewrite ci_eq. cbv zeta. rewrite ci_level_hi by lra.
  replace (1 - (1 - ci) / 2) with ((1 + ci) / 2) by field. reflexivity. Qed.
Print Assumptions C42_upper.
Theorem C42_same_interval ppf dev edf ci : confidence_interval ppf dev edf ci = confidence_interval ppf dev edf (1 - ci).
Proof. rewrite !ci_eq. cbv zeta. now rewrite (ci_level_sym ci). Qed.
Print Assumptions C42_same_interval.
(** a 20% request is answered with the 80% interval *)
Theorem C42_coverage_refuted : exists ppf dev edf ci, 0 < ci < 1/2 /\ 0 < dev /\ 0 < edf /\
  (forall p q d, 0 < d -> 0 < p -> p < q -> 0 < ppf p d < ppf q d) /\
  fst (confidence_interval ppf dev edf ci) < sqrt (edf * (dev * dev) / ppf ((1 + ci) / 2) edf) /\
  sqrt (edf * (dev * dev) / ppf ((1 - ci) / 2) edf) < snd (confidence_interval ppf dev edf ci).
Proof.
  exists (fun p d => d * p), 1, 1, (1/5). repeat split; try lra; try nra.
  all: rewrite ci_eq; cbv zeta; rewrite ci_level_lo by lra; cbn [fst snd]; apply sqrt_lt_1; lra.
Qed.
Print Assumptions C42_coverage_refuted.
Example C42_ex : confidence_interval (fun p d => d * p) 1 1 (1/2) = (sqrt (4/3), sqrt 4).
Proof. rewrite C42_upper by lra. f_equal; f_equal; field. Qed.

(** ** C43 *)
(** what is assumed of the quantile function: positive and increasing in p on (0,1) *)
Definition quantile_like (ppf : R -> R -> R) : Prop :=
  forall p q d, 0 < d -> 0 < p -> p <= q -> q < 1 -> 0 < ppf p d /\ ppf p d <= ppf q d.

Lemma level_range ci : 0 < ci < 1 -> 0 < Rmin (Rabs ci) (Rabs (ci - 1)) / 2 <= 1/4.
Proof.
  intros H. destruct (Rle_dec ci (1/2)); [rewrite ci_level_lo by lra|rewrite ci_level_hi by lra]; lra.
Qed.
Lemma quot_le a p q : 0 <= a -> 0 < p -> p <= q -> a / q <= a / p.
Proof. intros Ha Hp Hq. unfold Rdiv. apply Rmult_le_compat_l; [exact Ha|]. apply Rinv_le_contravar; lra. Qed.

Theorem C43_ordered ppf dev edf ci lo hi : quantile_like ppf -> 0 < dev -> 0 < edf -> 0 < ci < 1 ->
  confidence_interval ppf dev edf ci = (lo, hi) -> 0 < lo /\ lo <= hi.
Proof.
  intros Hq Hd He Hc E. rewrite ci_eq in E. cbv zeta in E. pose proof (level_range ci Hc) as Hp.
  set (p := _ / 2) in *. injection E as <- <-.
  destruct (Hq p (1 - p) edf) as [H1 H2]; try lra.
  assert (0 < edf * (dev * dev)) by (apply Rmult_lt_0_compat; nra).
  split.
  - apply sqrt_lt_R0. apply Rdiv_lt_0_compat; lra.
  - apply sqrt_le_1_alt. apply quot_le; lra.
Qed.
Print Assumptions C43_ordered.
Theorem C43_homogeneous ppf dev edf ci c lo hi :
  0 <= edf * (dev * dev) / ppf (Rmin (Rabs ci) (Rabs (ci - 1)) / 2) edf ->
  0 <= edf * (dev * dev) / ppf (1 - Rmin (Rabs ci) (Rabs (ci - 1)) / 2) edf ->
  confidence_interval ppf dev edf ci = (lo, hi) ->
  confidence_interval ppf (c * dev) edf ci = (Rabs c * lo, Rabs c * hi).
Proof.
  intros H1 H2 E. rewrite ci_eq in *. cbv zeta in *. injection E as <- <-.
  assert (K : forall v, 0 <= edf * (dev * dev) / v ->
     sqrt (edf * (c * dev * (c * dev)) / v) = Rabs c * sqrt (edf * (dev * dev) / v)).
  { intros v Hv. rewrite <- sqrt_Rsqr_abs, <- sqrt_mult; [|apply Rle_0_sqr|exact Hv].
    f_equal. unfold Rsqr, Rdiv. ring. }
  now rewrite !K.
Qed.
Print Assumptions C43_homogeneous.
(** coverage: the interval contains sigma exactly when edf dev^2/sigma^2 lies between the two quantiles, and a distribution
    function F inverting the quantile function gives that event the probability max(ci, 1-ci) *)
Theorem C42_covers ppf dev edf ci lo hi sigma F : quantile_like ppf -> 0 < dev -> 0 < edf -> 0 < ci < 1 -> 0 < sigma ->
  (forall p, 0 < p < 1 -> F (ppf p edf) = p) ->
  confidence_interval ppf dev edf ci = (lo, hi) ->
  exists qlo qhi, F qhi - F qlo = Rmax ci (1 - ci) /\ F qlo = 1 - F qhi /\
    (lo <= sigma <= hi <-> qlo <= edf * dev ^ 2 / sigma ^ 2 <= qhi).
Proof.
  intros Hq Hd He Hc Hs HF E. rewrite ci_eq in E. cbv zeta in E. pose proof (level_range ci Hc) as Hp.
  set (p := _ / 2) in *.
  assert (Ep : 1 - p - p = Rmax ci (1 - ci)).
  { subst p. destruct (Rle_dec ci (1/2)).
    - rewrite ci_level_lo by lra. rewrite Rmax_right; lra.
    - rewrite ci_level_hi by lra. rewrite Rmax_left; lra. }
  injection E as <- <-. destruct (Hq p (1 - p) edf) as [H1 H2]; try lra.
  exists (ppf p edf), (ppf (1 - p) edf). rewrite !HF by lra. split; [lra|]. split; [lra|].
  assert (Hv : 0 < edf * (dev * dev)) by (apply Rmult_lt_0_compat; nra).
  assert (Hs2 : 0 < sigma * sigma) by nra.
  assert (Es : sigma = sqrt (sigma * sigma)) by (symmetry; apply sqrt_square; lra).
  set (X := edf * dev ^ 2 / sigma ^ 2).
  assert (EX : edf * (dev * dev) = X * (sigma * sigma)) by (unfold X; field; lra).
  assert (K : forall v, 0 < v -> (sqrt (edf * (dev * dev) / v) <= sigma <-> X <= v) /\ (sigma <= sqrt (edf * (dev * dev) / v) <-> v <= X)).
  { intros v Hv0. assert (Hx : 0 <= edf * (dev * dev) / v) by (apply Rlt_le, Rdiv_lt_0_compat; nra).
    assert (Ev : edf * (dev * dev) / v * v = X * (sigma * sigma)) by (rewrite <- EX; field; lra).
    set (W := edf * (dev * dev) / v) in *.
    split; split; intros H.
    - rewrite Es in H. apply sqrt_le_0 in H; [|exact Hx|lra].
      apply (Rmult_le_compat_r v) in H; [|lra]. rewrite Ev in H. apply (Rmult_le_reg_r (sigma * sigma)); [lra|]. lra.
    - rewrite Es. apply sqrt_le_1_alt. apply (Rmult_le_reg_r v); [exact Hv0|]. rewrite Ev.
      apply (Rmult_le_compat_r (sigma * sigma)) in H; lra.
    - rewrite Es in H. apply sqrt_le_0 in H; [|lra|exact Hx].
      apply (Rmult_le_compat_r v) in H; [|lra]. rewrite Ev in H. apply (Rmult_le_reg_r (sigma * sigma)); [lra|]. lra.
    - rewrite Es. apply sqrt_le_1_alt. apply (Rmult_le_reg_r v); [exact Hv0|]. rewrite Ev.
      apply (Rmult_le_compat_r (sigma * sigma)) in H; lra. }
  destruct (K (ppf (1 - p) edf) ltac:(lra)) as [K1 _]. destruct (K (ppf p edf) ltac:(lra)) as [_ K2]. tauto.
Qed.
Print Assumptions C42_covers.
(** the quantiles and distribution function of the uniform law on (0, 2d), which has mean d like chi-squared *)
Example C42_ex_covers : quantile_like (fun p d => 2 * d * p) /\ (forall p, 0 < p < 1 -> (fun v => v / (2 * 3)) ((fun p d => 2 * d * p) p 3) = p).
Proof. split; [intros p q d Hd Hp Hq H1; split; nra|]. intros p Hp. field. Qed.
Theorem C43_brackets ppf dev edf ci lo hi : quantile_like ppf -> 0 < dev -> 0 < edf -> 0 < ci < 1 ->
  confidence_interval ppf dev edf ci = (lo, hi) ->
  (exists pl ph, pl + ph = 1 /\ ph - pl = Rmax ci (1 - ci) /\
   (lo <= dev <= hi <-> ppf pl edf <= edf <= ppf ph edf)).
Proof.
  intros Hq Hd He Hc E. rewrite ci_eq in E. cbv zeta in E. pose proof (level_range ci Hc) as Hp.
  exists (Rmin (Rabs ci) (Rabs (ci - 1)) / 2), (1 - Rmin (Rabs ci) (Rabs (ci - 1)) / 2).
  split; [ring|]. split.
  { destruct (Rle_dec ci (1/2)).
    - rewrite ci_level_lo by lra. rewrite Rmax_right; lra.
    - rewrite ci_level_hi by lra. rewrite Rmax_left; lra. }
  set (p := _ / 2) in *. injection E as <- <-.
  destruct (Hq p (1 - p) edf) as [H1 H2]; try lra.
  assert (Hv : 0 < dev * dev) by nra.
  assert (K : forall v, 0 < v -> (sqrt (edf * (dev * dev) / v) <= dev <-> edf <= v) /\ (dev <= sqrt (edf * (dev * dev) / v) <-> v <= edf)).
  { intros v Hv0.
    assert (Hx : 0 <= edf * (dev * dev) / v) by (apply Rlt_le, Rdiv_lt_0_compat; nra).
    assert (Ed : dev = sqrt (dev * dev)) by (symmetry; apply sqrt_square; lra).
    assert (Ev : edf * (dev * dev) / v * v = edf * (dev * dev)) by (field; lra).
    set (W := edf * (dev * dev) / v) in *.
    split; split; intros H.
    - rewrite Ed in H. apply sqrt_le_0 in H; [|exact Hx|lra].
      apply (Rmult_le_compat_r v) in H; [|lra]. rewrite Ev in H. nra.
    - rewrite Ed. apply sqrt_le_1_alt. apply (Rmult_le_reg_r v); [exact Hv0|]. rewrite Ev. nra.
    - rewrite Ed in H. apply sqrt_le_0 in H; [|lra|exact Hx].
      apply (Rmult_le_compat_r v) in H; [|lra]. rewrite Ev in H. nra.
    - rewrite Ed. apply sqrt_le_1_alt. apply (Rmult_le_reg_r v); [exact Hv0|]. rewrite Ev. nra. }
  destruct (K (ppf (1 - p) edf) ltac:(lra)) as [K1 _]. destruct (K (ppf p edf) ltac:(lra)) as [_ K2]. tauto.
Qed.
Print Assumptions C43_brackets.
Theorem C43_nested ppf dev edf c1 c2 lo1 hi1 lo2 hi2 : quantile_like ppf -> 0 < edf -> 1/2 <= c1 -> c1 <= c2 -> c2 < 1 ->
  confidence_interval ppf dev edf c1 = (lo1, hi1) -> confidence_interval ppf dev edf c2 = (lo2, hi2) ->
  lo2 <= lo1 /\ hi1 <= hi2.
Proof.
  intros Hq He H1 H2 H3 E1 E2. rewrite C42_upper in E1, E2 by lra. injection E1 as <- <-. injection E2 as <- <-.
  assert (Hn : 0 <= edf * (dev * dev)) by nra.
  destruct (Hq ((1 + c1) / 2) ((1 + c2) / 2) edf) as [A1 A2]; try lra.
  destruct (Hq ((1 - c2) / 2) ((1 - c1) / 2) edf) as [B1 B2]; try lra.
  split; apply sqrt_le_1_alt; apply quot_le; assumption.
Qed.
Print Assumptions C43_nested.
(** such a function (the quantiles of the uniform law on (0, 2d)) *)
Example C43_ex : quantile_like (fun p d => 2 * d * p) /\ (fun p d => 2 * d * p) (1/4) 3 <= 3 <= (fun p d => 2 * d * p) (3/4) 3.
Proof. split; [|lra]. intros p q d Hd Hp Hq H1. split; nra. Qed.

(** ** C45 *)
(** SP1065 Table 5 *)
Definition table5 (N m : R) (alpha : Z) : R :=
  match alpha with
  | 2%Z => (N + 1) * (N - 2 * m) / (2 * (N - m))
  | 1%Z => exp (sqrt (ln ((N - 1) / (2 * m)) * ln ((2 * m + 1) * (N - 1) / 4)))
  | 0%Z => (3 * (N - 1) / (2 * m) - 2 * (N - 2) / N) * (4 * m ^ 2 / (4 * m ^ 2 + 5))
  | (-1)%Z => if Reqb m 1 then 2 * (N - 2) / (2.3 * N - 4.9) else 5 * N ^ 2 / (4 * m * (N + 3 * m))
  | (-2)%Z => (N - 2) / (m * (N - 3) ^ 2) * ((N - 1) ^ 2 - 3 * m * (N - 1) + 4 * m ^ 2)
  | _ => N - 1
  end.

Lemma pydiv_R (a b : R) : b <> 0 -> pydiv a b = Ok (a / b).
Proof. intros H. unfold pydiv. cbn [neqb ofZ RNum]. now rewrite (proj2 (Reqb_false b 0)). Qed.
Lemma pydiv_R0 (a b : R) : b = 0 -> pydiv a b = Err ZeroDivisionError.
Proof. intros H. unfold pydiv. cbn [neqb ofZ RNum]. now rewrite (proj2 (Reqb_true b 0)). Qed.

Theorem C45_positive N m alpha : (1 <= m)%Z -> (2 * m + 1 <= N)%Z -> (alpha = (-2)%Z -> (4 <= N)%Z) ->
  edf_simple ln exp N m (Some alpha) = Ok (table5 (IZR N) (IZR m) alpha) /\ 0 < table5 (IZR N) (IZR m) alpha.
Proof.
  intros Hm HN H4. apply IZR_le in HN as HN'. rewrite plus_IZR, mult_IZR in HN'. apply IZR_le in Hm as Hm'.
  assert (Hc : alpha = 2%Z \/ alpha = 1%Z \/ alpha = 0%Z \/ alpha = (-1)%Z \/ alpha = (-2)%Z \/
     (alpha <> 2 /\ alpha <> 1 /\ alpha <> 0 /\ alpha <> -1 /\ alpha <> -2)%Z) by lia.
  destruct Hc as [-> | [-> | [-> | [-> | [-> | Hc]]]]].
  - unfold edf_simple, table5. cbn [ofZ nadd nsub nmul ndiv RNum]. rewrite pydiv_R by lra. split; [reflexivity|].
    apply Rdiv_lt_0_compat; [|lra]. apply Rmult_lt_0_compat; lra.
  - unfold edf_simple, table5. cbn [ofZ nadd nsub nmul ndiv nsqrt RNum]. rewrite pydiv_R by lra. cbn [bind].
    split; [reflexivity|apply exp_pos].
  - unfold edf_simple, table5. cbn [ofZ nadd nsub nmul ndiv RNum]. rewrite !pydiv_R by nra. cbn [bind].
    split; [do 2 f_equal; cbn; f_equal; ring_simplify; reflexivity|].
    apply Rmult_lt_0_compat.
    + assert (3 <= 3 * (IZR N - 1) / (2 * IZR m)).
      { apply (Rmult_le_reg_r (2 * IZR m)); [lra|]. unfold Rdiv. rewrite Rmult_assoc, Rinv_l by lra. lra. }
      assert (2 * (IZR N - 2) / IZR N < 2).
      { apply (Rmult_lt_reg_r (IZR N)); [lra|]. unfold Rdiv. rewrite Rmult_assoc, Rinv_l by lra. lra. }
      lra.
    + apply Rdiv_lt_0_compat; nra.
  - unfold edf_simple, table5. cbn [ofZ nadd nsub nmul ndiv RNum].
    destruct (Z.eqb_spec m 1) as [->|Hne].
    + rewrite (proj2 (Reqb_true 1 1)) by reflexivity. rewrite pydiv_R by lra. split; [do 2 f_equal; lra|].
      apply Rdiv_lt_0_compat; lra.
    + rewrite (proj2 (Reqb_false (IZR m) 1)) by (intros C; apply Hne; now apply eq_IZR).
      destruct (Z.leb_spec 2 m); [|lia]. rewrite pydiv_R by nra. split; [do 2 f_equal; ring|].
      apply Rdiv_lt_0_compat; nra.
  - specialize (H4 eq_refl). apply IZR_le in H4. unfold edf_simple, table5. cbn [ofZ nadd nsub nmul ndiv RNum].
    assert (0 < (IZR N - 3) * (IZR N - 3)) by nra. rewrite pydiv_R by nra. cbn [bind].
    split; [do 2 f_equal; [|ring]; f_equal; ring|].
    apply Rmult_lt_0_compat; [apply Rdiv_lt_0_compat; nra|]. nra.
  - destruct Hc as (? & ? & ? & ? & ?).
    assert (E1 : edf_simple ln exp N m (Some alpha) = Ok (IZR N - 1)).
    { unfold edf_simple. destruct alpha as [|p|p]; [easy| |]; repeat (try reflexivity; try easy; destruct p as [p|p|]). }
    assert (E2 : table5 (IZR N) (IZR m) alpha = IZR N - 1).
    { unfold table5. destruct alpha as [|p|p]; [easy| |]; repeat (try reflexivity; try easy; destruct p as [p|p|]). }
    rewrite E1, E2. split; [reflexivity|lra].
Qed.
Print Assumptions C45_positive.

(** for alpha = 1 both logarithms are of numbers >= 1 *)
Theorem C45_logs N m : 1 <= m -> 2 * m + 1 <= N -> 1 <= (N - 1) / (2 * m) /\ 1 <= (2 * m + 1) * (N - 1) / 4.
Proof.
  intros Hm HN. split.
  - apply (Rmult_le_reg_r (2 * m)); [lra|]. unfold Rdiv. rewrite Rmult_assoc, Rinv_l by lra. lra.
  - nra.
Qed.
Print Assumptions C45_logs.

(** where it raises, and the fallback *)
Theorem C45_raises N m :
  edf_simple ln exp N N (Some 2%Z) = Err ZeroDivisionError /\
  edf_simple ln exp 3 m (Some (-2)%Z) = Err ZeroDivisionError /\
  ((m < 1)%Z -> edf_simple ln exp N m (Some (-1)%Z) = Err UnboundLocalError) /\
  edf_simple ln exp N m None = Ok (IZR N - 1).
Proof.
  unfold edf_simple. cbn [ofZ nadd nsub nmul ndiv RNum]. split; [|split; [|split]].
  - apply pydiv_R0. ring.
  - rewrite pydiv_R0 by ring. reflexivity.
  - intros H. destruct (Z.eqb_spec m 1); [lia|]. destruct (Z.leb_spec 2 m); [lia|reflexivity].
  - reflexivity.
Qed.
Print Assumptions C45_raises.
Example C45_ex : edf_simple ln exp 9 2 (Some 2%Z) = Ok (25 / 7).
Proof. rewrite (proj1 (C45_positive 9 2 2 ltac:(lia) ltac:(lia) ltac:(lia))). unfold table5. f_equal. field. Qed.

(** ** C46 *)
Theorem C46_totdev N m b c alpha : (1 <= m)%Z ->
  In (alpha, b, c) [(0%Z, 1.50, 0); ((-1)%Z, 1.17, 0.22); ((-2)%Z, 0.93, 0.36)] ->
  edf_totdev ln exp N m alpha = Ok (b * (IZR N / IZR m) - c) /\
  ((2 * m <= N)%Z -> 0 < b * (IZR N / IZR m) - c).
Proof.
  intros Hm Hin. apply IZR_le in Hm.
  assert (Hq : (2 * m <= N)%Z -> 2 <= IZR N / IZR m).
  { intros H. apply IZR_le in H. rewrite mult_IZR in H. apply (Rmult_le_reg_r (IZR m)); [lra|].
    unfold Rdiv. rewrite Rmult_assoc, Rinv_l by lra. lra. }
  cbn [In] in Hin.
  destruct Hin as [E | [E | [E | []]]]; injection E as <- <- <-; (split; [|intros H; specialize (Hq H); lra]);
    unfold edf_totdev; rewrite pydiv_R by (cbn; lra); cbn [bind]; f_equal; cbn; lra.
Qed.
Print Assumptions C46_totdev.
Theorem C46_totdev_other N m alpha : ~ In alpha [0; -1; -2]%Z ->
  edf_totdev ln exp N m alpha = edf_simple ln exp N m (Some alpha).
Proof.
  intros H. cbn in H. unfold edf_totdev.
  destruct alpha as [|p|p]; [tauto|reflexivity|]. repeat (try reflexivity; try tauto; destruct p as [p|p|]).
Qed.
Print Assumptions C46_totdev_other.
Theorem C46_mtotdev N m b c alpha : (1 <= m)%Z ->
  In (alpha, b, c) [(2%Z, 1.90, 2.1); (1%Z, 1.20, 1.40); (0%Z, 1.10, 1.2); ((-1)%Z, 0.85, 0.50); ((-2)%Z, 0.75, 0.31)] ->
  edf_mtotdev N m alpha = Ok (b * (IZR N / IZR m) - c) /\
  ((2 * m <= N)%Z -> 0 < b * (IZR N / IZR m) - c).
Proof.
  intros Hm Hin. apply IZR_le in Hm.
  assert (Hq : (2 * m <= N)%Z -> 2 <= IZR N / IZR m).
  { intros H. apply IZR_le in H. rewrite mult_IZR in H. apply (Rmult_le_reg_r (IZR m)); [lra|].
    unfold Rdiv. rewrite Rmult_assoc, Rinv_l by lra. lra. }
  cbn [In] in Hin.
  destruct Hin as [E | [E | [E | [E | [E | []]]]]]; injection E as <- <- <-; (split; [|intros H; specialize (Hq H); lra]);
    unfold edf_mtotdev; rewrite pydiv_R by (cbn; lra); cbn [bind]; f_equal; cbn; lra.
Qed.
Print Assumptions C46_mtotdev.
Theorem C46_mtotdev_other N m alpha : ~ In alpha [2; 1; 0; -1; -2]%Z -> @edf_mtotdev R _ N m alpha = Err AssertionError.
Proof.
  intros H. cbn in H. unfold edf_mtotdev.
  destruct alpha as [|p|p]; [tauto| |]; repeat (try reflexivity; try tauto; destruct p as [p|p|]).
Qed.
Print Assumptions C46_mtotdev_other.
Example C46_ex : edf_totdev ln exp 100 10 (-1) = Ok (1.17 * 10 - 0.22) /\ @edf_mtotdev R _ 100 10 2 = Ok (1.90 * 10 - 2.1).
Proof.
  split.
  - rewrite (proj1 (C46_totdev 100 10 1.17 0.22 (-1) ltac:(lia) ltac:(cbn; tauto))). f_equal. field.
  - rewrite (proj1 (C46_mtotdev 100 10 1.90 2.1 2 ltac:(lia) ltac:(cbn; tauto))). f_equal. field.
Qed.

(** ** C50 *)
(** the series whose noise is identified: every af-th phase point, detrended
    with degree 2; block means of frequencies, detrended with degree 1; the
    data itself for any other data_type *)
Definition prepared {A} {NA : Num A} (detrend : list A -> nat -> res (list A)) (x : list A) (af : nat) (data_type : string)
    : res (list A) :=
  if String.eqb data_type "phase" then
    if (af <=? 1)%nat then detrend x 2%nat else bind (pystride 0 af x) (fun y => detrend y 2%nat)
  else if String.eqb data_type "freq" then bind (block_averages x af) (fun y => detrend y 1%nat)
  else Ok x.

(** What these series are, for real data. *)
Theorem C50_series detrend (x : list R) af : (1 <= af)%nat ->
  prepared detrend x af "phase" = detrend (tab ((len x + af - 1) / af) (fun j => x.[j * af])) 2%nat /\
  prepared detrend x af "freq" =
    detrend (tab (len x / af) (fun j => bigsum af (fun i => x.[j * af + i]) / INR af)) 1%nat /\
  forall dt, dt <> "phase"%string -> dt <> "freq"%string -> prepared detrend x af dt = Ok x.
Proof.
  intros Ha. split; [|split].
  - unfold prepared. cbn [String.eqb Ascii.eqb Bool.eqb]. destruct (Nat.leb_spec af 1) as [H|H].
    + assert (af = 1%nat) as -> by lia. f_equal. rewrite Nat.add_sub, Nat.div_1_r. rewrite (list_tab x 0) at 1.
      apply tab_ext. intros i _. now rewrite Nat.mul_1_r.
    + rewrite (list_tab x 0) at 1. rewrite pystride_tab by lia. cbn [bind]. f_equal. unfold stride_count. f_equal.
      f_equal. lia.
  - unfold prepared. cbn [String.eqb Ascii.eqb Bool.eqb]. unfold block_averages. destruct (Nat.eqb_spec af 0); [lia|].
    cbn [bind]. f_equal. apply tab_ext. intros j Hj. rewrite (list_tab x 0) at 1. rewrite pyslice_tab.
    unfold mean. rewrite tab_length, asum_tab, ofN_INR.
    assert (Hb : ((j + 1) * af <= len x)%nat).
    { assert ((j + 1) * af <= len x / af * af)%nat by (apply Nat.mul_le_mono_r; lia).
      pose proof (Nat.mul_div_le (len x) af ltac:(lia)). lia. }
    replace (Nat.min _ _) with af by nia. reflexivity.
  - intros dt H1 H2. unfold prepared. destruct (String.eqb_spec dt "phase"); [contradiction|].
    destruct (String.eqb_spec dt "freq"); [contradiction|reflexivity].
Qed.
Print Assumptions C50_series.
Theorem C50_af0 {A} {NA : Num A} detrend (x : list A) dmin dmax :
  autocorr_noise_id detrend x 0 "freq" dmin dmax = Some (Err ZeroDivisionError).
Proof. reflexivity. Qed.
Print Assumptions C50_af0.
Example C50_ex_series : prepared (fun x _ => Ok x) [1; 2; 3; 4; 5] 2 "phase" = Ok [1; 3; 5] /\
  prepared (fun x _ => Ok x) [1; 2; 3; 4; 5] 2 "freq" = Ok [3 / 2; 7 / 2].
Proof.
  destruct (C50_series (fun x _ => Ok x) [1; 2; 3; 4; 5] 2 ltac:(lia)) as (E1 & E2 & _). rewrite E1, E2. split; [reflexivity|].
  cbn. repeat f_equal; lra.
Qed.

Lemma autocorr_prepared {A} {NA : Num A} detrend (x : list A) af dt dmin dmax :
  autocorr_noise_id detrend x af dt dmin dmax =
  match prepared detrend x af dt with
  | Err e => Some (Err e)
  | Ok y => if (len y <? 30)%nat then Some (Err NotImplementedError)
            else acf_loop (String.eqb dt "phase") dmin dmax (S (Z.to_nat (Z.max dmin dmax))) y 0%Z
  end.
Proof.
  unfold autocorr_noise_id, prepared. destruct (String.eqb dt "phase").
  - destruct (Nat.ltb_spec 1 af), (Nat.leb_spec af 1); try lia; reflexivity.
  - reflexivity.
Qed.

(** Any arithmetic: the loop ends after d differentiations, d the first count
    with dmin <= d and (rho < 1/4 or dmax <= d); rho is computed from the
    d-times differenced series. *)
Theorem C50_stops {A} {NA : Num A} detrend (x y : list A) af dt dmin dmax :
  prepared detrend x af dt = Ok y -> (30 <= len y)%nat -> (Z.max dmin dmax < Z.of_nat (len y))%Z ->
  exists d rho, (dmin <= Z.of_nat d <= Z.max 0 (Z.max dmin dmax))%Z /\
    lag_rho (differenced d y) rho /\ stop_at dmin dmax d rho /\
    (forall j rho', (j < d)%nat -> lag_rho (differenced j y) rho' -> ~ stop_at dmin dmax j rho') /\
    let add := if String.eqb dt "phase" then 2%Z else 0%Z in
    autocorr_noise_id detrend x af dt dmin dmax =
    Some (bind (int_round (ofZ 2 * rho)%num) (fun z =>
          Ok ((- z - 2 * Z.of_nat d + add)%Z, (ofZ (-2) * (rho + ofZ (Z.of_nat d)) + ofZ add)%num, Z.of_nat d, rho))).
Proof.
  intros Hy Hl Hd. rewrite autocorr_prepared, Hy. destruct (Nat.ltb_spec (len y) 30); [lia|].
  destruct (acf_loop_spec (String.eqb dt "phase") dmin dmax (S (Z.to_nat (Z.max dmin dmax))) y 0) as (d & rho & H1 & H2 & H3 & H4 & H5); try lia.
  exists d, rho. cbn [Nat.add] in *. split; [destruct H3; lia|]. split; [exact H2|]. split; [exact H3|]. split; [exact H4|exact H5].
Qed.
Print Assumptions C50_stops.
Theorem C50_short {A} {NA : Num A} detrend (x y : list A) af dt dmin dmax :
  prepared detrend x af dt = Ok y -> (len y < 30)%nat ->
  autocorr_noise_id detrend x af dt dmin dmax = Some (Err NotImplementedError).
Proof. intros Hy Hl. rewrite autocorr_prepared, Hy. destruct (Nat.ltb_spec (len y) 30); [reflexivity|lia]. Qed.
Print Assumptions C50_short.
(** real arithmetic: the integer exponent is the real one rounded *)
Lemma acf_loop_rounding ph dmin dmax fuel (y : list R) d0 ai alpha d rho :
  acf_loop ph dmin dmax fuel y d0 = Some (Ok (ai, alpha, d, rho)) ->
  alpha = -2 * (rho + IZR d) + IZR (if ph : bool then 2 else 0) /\ Rabs (IZR ai - alpha) <= 1 / 2.
Proof.
  revert y d0. induction fuel as [|f IH]; intros y d0; [discriminate|]. cbn [acf_loop].
  destruct (lag1_acf y) as [r|]; [|discriminate]. cbv zeta. set (rho' := (r / (ofZ 1 + r))%num).
  assert (Hd : IZR (2 * d0) = 2 * IZR d0) by (now rewrite mult_IZR). set (dd := (2 * d0)%Z) in *. clearbody dd.
  destruct (andb _ _) eqn:E.
  - unfold int_round. cbn [nrint RNum]. cbn [bind].
    intros H. injection H as <- <- <- <-. cbn [ofZ nadd nmul RNum].
    split; [reflexivity|].
    assert (H1 : Rabs (2 * rho' - IZR (rintR (2 * rho'))) <= 1 / 2) by (destruct (rintR_spec (2 * rho')) as [H1|[H1 _]]; lra).
    rewrite plus_IZR, minus_IZR, opp_IZR, Hd.
    match goal with |- Rabs ?t <= _ => replace t with (2 * rho' - IZR (rintR (2 * rho'))) by ring end. exact H1.
  - intros H. eapply IH. exact H.
Qed.
Theorem C50_rounding detrend (x : list R) af dt dmin dmax ai alpha d rho :
  autocorr_noise_id detrend x af dt dmin dmax = Some (Ok (ai, alpha, d, rho)) ->
  alpha = -2 * (rho + IZR d) + IZR (if String.eqb dt "phase" then 2 else 0) /\ Rabs (IZR ai - alpha) <= 1 / 2.
Proof.
  rewrite autocorr_prepared. destruct (prepared detrend x af dt) as [y|]; [|discriminate].
  destruct (Nat.ltb_spec (len y) 30); [discriminate|]. apply acf_loop_rounding.
Qed.
Print Assumptions C50_rounding.
Example C50_ex : exists y, prepared (fun x _ => Ok x) (tab 60 INR) 2 "phase" = Ok y /\ (30 <= len y)%nat.
Proof. eexists. split; [reflexivity|cbn; lia]. Qed.

(** ** C51 *)
Theorem C51_bounded x : ~ const x -> exists r, lag1_acf x = Ok r /\ -1 < r < 1 /\ 0 < 1 + r /\ r / (1 + r) < 1 / 2.
Proof.
  intros Hc. exists (acf_num x / acf_den x).
  assert (Hx : x <> []) by (intros ->; apply Hc; intros i Hi; cbn in Hi; lia).
  split; [now apply lag1_spec|]. pose proof (acf_lt_1 x Hc) as H. apply Rabs_def2 in H as [H1 H2].
  split; [lra|]. split; [lra|]. apply (Rmult_lt_reg_r (1 + acf_num x / acf_den x)); [lra|].
  unfold Rdiv at 1. rewrite Rmult_assoc, Rinv_l by lra. lra.
Qed.
Print Assumptions C51_bounded.
Theorem C51_affine a b x : a <> 0 -> lag1_acf (map (fun v => a * v + b) x) = lag1_acf x.
Proof. exact (lag1_affine a b x). Qed.
Print Assumptions C51_affine.
Theorem C51_reverse (x : list R) : lag1_acf (rev x) = lag1_acf x.
Proof. exact (lag1_rev x). Qed.
Print Assumptions C51_reverse.
(** the value: sum of lag-1 products over sum of squares, both about the mean *)
Theorem C51_value (x : list R) : x <> [] ->
  let mu := bigsum (len x) (fun i => x.[i]) / INR (len x) in
  lag1_acf x = Ok (bigsum (len x - 1) (fun i => (x.[i] - mu) * (x.[S i] - mu)) / bigsum (len x) (fun i => (x.[i] - mu) ^ 2)).
Proof. exact (lag1_spec x). Qed.
Print Assumptions C51_value.
Theorem C51_empty : @lag1_acf R _ [] = Err ZeroDivisionError.
Proof. reflexivity. Qed.
Print Assumptions C51_empty.
(** the bound cannot be improved to a constant: alternating series *)
Example C51_ex : lag1_acf [1; -1; 1; -1] = Ok (-(3/4)) /\ ~ const [1; -1; 1; -1].
Proof.
  split.
  - rewrite C51_value by discriminate. cbv zeta. f_equal. cbn. field.
  - intros H. specialize (H 1%nat). cbn in H. lra || (specialize (H ltac:(lia)); lra).
Qed.

(** ** C52 *)
Theorem C52_rn (x : list R) af rate m : 0 < rate -> half_even (af * rate * rate) (Z.of_nat m) ->
  (1 <= m)%nat -> (3 * m + 1 <= len x)%nat -> avar x (1 / rate) m <> 0 ->
  rn x af rate = Ok (mvar x (1 / rate) m / avar x (1 / rate) m).
Proof. exact (rn_spec x af rate m). Qed.
Print Assumptions C52_rn.
Theorem C52_b1 (x : list R) (af : nat) rate m : 0 < rate -> (1 <= af)%nat -> half_even (INR af * rate * rate) (Z.of_nat m) ->
  (1 <= m)%nat -> (3 * m + 1 <= len x)%nat -> (2 * af + 1 <= len x)%nat -> avar x (1 / rate) m <> 0 ->
  b1 x af rate = Ok (sample_var ((len x - 1) / af) (block_freq x af) / avar x (1 / rate) m).
Proof. intros. now apply b1_spec. Qed.
Print Assumptions C52_b1.
(** rate 1: the documented ratios at averaging factor af *)
Theorem C52_rate1 (x : list R) (af : nat) : (1 <= af)%nat -> (3 * af + 1 <= len x)%nat -> avar x 1 af <> 0 ->
  rn x (INR af) 1 = Ok (mvar x 1 af / avar x 1 af) /\
  b1 x af 1 = Ok (sample_var ((len x - 1) / af) (block_freq x af) / avar x 1 af).
Proof.
  intros Ha Hl Hv. assert (E1 : 1 / 1 = 1) by field.
  assert (He : half_even (INR af * 1 * 1) (Z.of_nat af)).
  { replace (INR af * 1 * 1) with (IZR (Z.of_nat af)) by (rewrite <- INR_IZR_INZ; ring). apply half_even_IZR. }
  split.
  - rewrite (rn_spec x (INR af) 1 af); rewrite ?E1; auto; lra.
  - rewrite (b1_spec x af 1 af); rewrite ?E1; auto; lra || lia.
Qed.
Print Assumptions C52_rate1.
Definition spike13 : list R := [0; 0; 0; 0; 1; 0; 0; 0; 0; 0; 0; 0; 0].
Lemma spike13_var : avar spike13 (1 / 2) 4 = 5 / 16 /\ mvar spike13 (1 / 2) 4 = 5 / 256 /\
  avar spike13 (1 / 2) 1 = 12 / 11 /\ mvar spike13 (1 / 2) 1 = 12 / 11.
Proof.
  repeat split.
  - unfold avar, adev_n. change ((len spike13 - 1) / 4 - 1)%nat with 2%nat. unfold d2, spike13. cbn. field.
  - unfold mvar, mdev_n. change (Z.of_nat (len spike13) - 3 * Z.of_nat 4 + 1)%Z with 2%Z. change (Z.to_nat 2) with 2%nat. unfold d2, spike13. cbn. field.
  - unfold avar, adev_n. change ((len spike13 - 1) / 1 - 1)%nat with 11%nat. unfold d2, spike13. cbn. field.
  - unfold mvar, mdev_n. change (Z.of_nat (len spike13) - 3 * Z.of_nat 1 + 1)%Z with 11%Z. change (Z.to_nat 11) with 11%nat. unfold d2, spike13. cbn. field.
Qed.
(** the series satisfies the hypotheses: at rate 2 and af 1 the averaging factor is 4 *)
Example C52_ex : rn spike13 1 2 = Ok (1 / 16) /\ half_even (1 * 2 * 2) (Z.of_nat 4).
Proof.
  assert (Hh : half_even (1 * 2 * 2) (Z.of_nat 4)) by (replace (1 * 2 * 2) with (IZR (Z.of_nat 4)) by (cbn; ring); apply half_even_IZR).
  destruct spike13_var as (E1 & E2 & _). split; [|exact Hh].
  rewrite (C52_rn spike13 1 2 4); [|lra|exact Hh|lia|cbn; lia|rewrite E1; lra].
  rewrite E1, E2. f_equal. field.
Qed.
(** rate 2: rn(x, 1, 2) is the ratio at averaging factor 4, not 1 *)
Theorem C52_rate_refuted : exists x (af : nat) rate, 0 < rate /\ (1 <= af)%nat /\ (3 * af + 1 <= len x)%nat /\
  avar x (1 / rate) af <> 0 /\ rn x (INR af) rate <> Ok (mvar x (1 / rate) af / avar x (1 / rate) af).
Proof.
  exists spike13, 1%nat, 2. destruct spike13_var as (E1 & E2 & E3 & E4).
  split; [lra|]. split; [lia|]. split; [cbn; lia|]. rewrite E3, E4. split; [lra|].
  rewrite (rn_spec spike13 (INR 1) 2 4).
  - rewrite E1, E2. intros C. injection C as C. field_simplify in C. lra.
  - lra.
  - replace (INR 1 * 2 * 2) with (IZR (Z.of_nat 4)) by (cbn; ring). apply half_even_IZR.
  - lia.
  - cbn; lia.
  - rewrite E1. lra.
Qed.
Print Assumptions C52_rate_refuted.

(** ** C53 *)
Theorem C53_b_to_mu b : 
  b_to_mu b = if ((-6 <=? b) && (b <=? 0))%Z then Ok (Z.max (-2) (- (b + 2) - 1)) else Err AssertionError.
Proof.
  destruct (Z_le_gt_dec (-6) b) as [H1|H1].
  - destruct (Z_le_gt_dec b 0) as [H2|H2].
    + assert (Hb : (b = -6 \/ b = -5 \/ b = -4 \/ b = -3 \/ b = -2 \/ b = -1 \/ b = 0)%Z) by lia.
      destruct Hb as [-> | [-> | [-> | [-> | [-> | [-> | ->]]]]]]; reflexivity.
    + assert (Eb : ((-6 <=? b) && (b <=? 0))%Z = false) by lia. rewrite Eb. unfold b_to_mu.
      destruct (b + 2)%Z as [|p|p] eqn:E; [lia| |lia]. destruct p as [[p|p|]|[p|p|]|]; try reflexivity; lia.
  - assert (Eb : ((-6 <=? b) && (b <=? 0))%Z = false) by lia. rewrite Eb. unfold b_to_mu.
    destruct (b + 2)%Z as [|p|p] eqn:E; [lia|lia|].
    repeat (try reflexivity; try lia; destruct p as [p|p|]).
Qed.
Print Assumptions C53_b_to_mu.

(** Howe's general formula; the tabulated cases agree with it *)
Definition b1_general (N : R) (mu : Z) : R := N * (1 - powerRZ N mu) / (2 * (N - 1) * (1 - powerRZ 2 mu)).

Lemma powerRZ_ne_1 a mu : 1 < a -> mu <> 0%Z -> powerRZ a mu <> 1.
Proof.
  intros Ha Hm. assert (K : forall p, powerRZ a (Z.pos p) > 1).
  { intros p. cbn. apply Rlt_pow_R1; [exact Ha|apply Pos2Nat.is_pos]. }
  destruct mu as [|p|p]; [easy| |].
  - specialize (K p). lra.
  - specialize (K p). cbn in *. intros C. assert (a ^ Pos.to_nat p = 1) by (rewrite <- (Rinv_inv (a ^ Pos.to_nat p)), C; field). lra.
Qed.
Theorem C53_b1_formula N mu : (2 <= N)%Z -> mu <> 0%Z -> b1_theory N mu = Ok (b1_general (IZR N) mu).
Proof.
  intros HN Hmu. assert (N0 : (N =? 0)%Z = false) by (apply Z.eqb_neq; lia). apply IZR_le in HN. unfold b1_theory, b1_general. set (n := IZR N) in *.
  pose proof (powerRZ_ne_1 2 mu ltac:(lra) Hmu) as H2.
  assert (Hd : 2 * (n - 1) * (1 - powerRZ 2 mu) <> 0) by (apply Rmult_integral_contrapositive_currified; lra).
  assert (Hc : mu = 2%Z \/ mu = 1%Z \/ mu = (-1)%Z \/ mu = (-2)%Z \/ (mu <> 2 /\ mu <> 1 /\ mu <> 0 /\ mu <> -1 /\ mu <> -2)%Z) by lia.
  destruct Hc as [-> | [-> | [-> | [-> | Hc]]]].
  - f_equal. cbn [powerRZ]. change (Pos.to_nat 2) with 2%nat. cbn [pow]. field. lra.
  - f_equal. cbn [powerRZ]. change (Pos.to_nat 1) with 1%nat. cbn [pow]. field. lra.
  - f_equal. cbn [powerRZ]. change (Pos.to_nat 1) with 1%nat. cbn [pow]. field. lra.
  - rewrite pydiv_R by (apply Rmult_integral_contrapositive_currified; lra). f_equal.
    cbn [powerRZ]. change (Pos.to_nat 2) with 2%nat. cbn [pow]. field. lra.
  - destruct Hc as (? & ? & ? & ? & ?).
    destruct mu as [|p|p]; [easy| |]; repeat (try (rewrite N0; now apply pydiv_R); try easy; destruct p as [p|p|]).
Qed.
Print Assumptions C53_b1_formula.
Theorem C53_b1_flicker N : b1_theory N 0 = Ok (IZR N * (ln (IZR N) / ln 2) / (2 * (IZR N - 1))).
Proof.
  unfold b1_theory. f_equal. unfold Rdiv. rewrite !Rinv_mult. ring.
Qed.
Print Assumptions C53_b1_flicker.

Lemma b1_pos N mu : (2 <= N)%Z -> exists v, b1_theory N mu = Ok v /\ 0 < v.
Proof.
  intros HN. destruct (Z.eq_dec mu 0) as [->|Hmu].
  - eexists. split; [apply C53_b1_flicker|]. apply IZR_le in HN.
    assert (0 < ln 2) by (rewrite <- ln_1; apply ln_increasing; lra).
    assert (0 < ln (IZR N)) by (rewrite <- ln_1; apply ln_increasing; lra).
    apply Rdiv_lt_0_compat; [|lra]. apply Rmult_lt_0_compat; [lra|]. now apply Rdiv_lt_0_compat.
  - rewrite C53_b1_formula by assumption. eexists. split; [reflexivity|]. apply IZR_le in HN. unfold b1_general.
    set (n := IZR N) in *. destruct mu as [|p|p]; [easy| |].
    + assert (Hp : forall a, 1 < a -> 1 < a ^ Pos.to_nat p) by (intros a Ha; apply Rlt_pow_R1; [exact Ha|apply Pos2Nat.is_pos]).
      cbn. pose proof (Hp 2 ltac:(lra)). pose proof (Hp n ltac:(lra)).
      replace (_ / _) with (n * (n ^ Pos.to_nat p - 1) / (2 * (n - 1) * (2 ^ Pos.to_nat p - 1))) by (field; lra).
      apply Rdiv_lt_0_compat; [apply Rmult_lt_0_compat; lra|]. apply Rmult_lt_0_compat; lra.
    + assert (Hp : forall a, 1 < a -> 0 < / a ^ Pos.to_nat p < 1).
      { intros a Ha. assert (1 < a ^ Pos.to_nat p) by (apply Rlt_pow_R1; [exact Ha|apply Pos2Nat.is_pos]).
        split; [apply Rinv_0_lt_compat; lra|]. rewrite <- Rinv_1. apply Rinv_lt_contravar; lra. }
      cbn. pose proof (Hp 2 ltac:(lra)). pose proof (Hp n ltac:(lra)).
      apply Rdiv_lt_0_compat; [apply Rmult_lt_0_compat; lra|]. apply Rmult_lt_0_compat; lra.
Qed.
Theorem C53_b1_positive N mu : (2 <= N)%Z -> exists v, b1_theory N mu = Ok v /\ 0 < v.
Proof. exact (b1_pos N mu). Qed.
Print Assumptions C53_b1_positive.
Theorem C53_white_fm N : b1_theory N (-1) = Ok 1.
Proof. reflexivity. Qed.
Print Assumptions C53_white_fm.

Lemma geo_between a b : 0 < a -> 0 < b -> Rmin a b <= sqrt (a * b) <= Rmax a b.
Proof.
  intros Ha Hb. assert (K : forall p q, 0 < p -> p <= q -> p <= sqrt (p * q) <= q).
  { intros p q Hp Hq. split.
    - rewrite <- (sqrt_square p) at 1 by lra. apply sqrt_le_1_alt. nra.
    - rewrite <- (sqrt_square q) at 2 by lra. apply sqrt_le_1_alt. nra. }
  destruct (Rle_dec a b) as [H|H].
  - rewrite Rmin_left, Rmax_right by lra. now apply K.
  - rewrite Rmin_right, Rmax_left, Rmult_comm by lra. apply K; lra.
Qed.
(** always the geometric mean of the two neighbouring values *)
Theorem C53_b1_boundary b_hi N : (2 <= N)%Z -> (-5 <= b_hi <= 0)%Z -> exists mu_lo mu_hi lo hi,
  b_to_mu (b_hi - 1) = Ok mu_lo /\ b_to_mu b_hi = Ok mu_hi /\
  b1_theory N mu_lo = Ok lo /\ b1_theory N mu_hi = Ok hi /\
  b1_boundary b_hi N = Ok (sqrt (lo * hi)) /\ Rmin lo hi <= sqrt (lo * hi) <= Rmax lo hi.
Proof.
  intros HN Hb. pose proof (C53_b_to_mu (b_hi - 1)) as E1. pose proof (C53_b_to_mu b_hi) as E2.
  replace ((-6 <=? b_hi - 1) && (b_hi - 1 <=? 0))%Z with true in E1 by lia.
  replace ((-6 <=? b_hi) && (b_hi <=? 0))%Z with true in E2 by lia.
  destruct (b1_pos N (Z.max (-2) (- (b_hi - 1 + 2) - 1)) HN) as (lo & F1 & P1).
  destruct (b1_pos N (Z.max (-2) (- (b_hi + 2) - 1)) HN) as (hi & F2 & P2).
  do 2 eexists. exists lo, hi. split; [exact E1|]. split; [exact E2|]. split; [exact F1|]. split; [exact F2|].
  split; [|now apply geo_between]. unfold b1_boundary. rewrite E1. cbn [bind]. rewrite F1. cbn [bind].
  rewrite E2. cbn [bind]. rewrite F2. cbn [bind]. rewrite (proj2 (Rleb_true (-4) lo)) by lra. reflexivity.
Qed.
Print Assumptions C53_b1_boundary.
Theorem C53_b1_boundary_outside b_hi N : ~ (-5 <= b_hi <= 0)%Z -> (2 <= N)%Z -> b1_boundary b_hi N = Err AssertionError.
Proof.
  intros Hb HN. unfold b1_boundary. rewrite !C53_b_to_mu.
  destruct ((-6 <=? b_hi - 1) && (b_hi - 1 <=? 0))%Z eqn:E; [|reflexivity]. cbn [bind].
  destruct (b1_pos N (Z.max (-2) (- (b_hi - 1 + 2) - 1)) HN) as (v & -> & _). cbn [bind].
  replace ((-6 <=? b_hi) && (b_hi <=? 0))%Z with false by lia. reflexivity.
Qed.
Print Assumptions C53_b1_boundary_outside.

Lemma PI_gt_3 : 3 < PI.
Proof. pose proof PI2_3_2. lra. Qed.
(** expected R(n): 1/af for white PM, strictly between 0 and 1 for flicker PM, else 1 *)
Theorem C53_rn_theory af b : 1 <= af -> exists v, rn_theory af b = Ok v /\ 0 < v <= 1 /\
  (b = 0%Z -> v = / af) /\ (b = (-1)%Z -> v < 1) /\ ((b <> 0 /\ b <> -1)%Z -> v = 1).
Proof.
  intros Haf. destruct (Z.eq_dec b 0) as [->|H0]; [|destruct (Z.eq_dec b (-1)) as [->|H1]].
  - exists (1 / af). unfold rn_theory. rewrite pydiv_R by lra. split; [reflexivity|].
    assert (0 < 1 / af <= 1).
    { split; [apply Rdiv_lt_0_compat; lra|]. apply (Rmult_le_reg_r af); [lra|]. unfold Rdiv. rewrite Rmult_assoc, Rinv_l by lra. lra. }
    split; [exact H|]. split; [intros _; field; lra|]. split; lia.
  - eexists. split; [reflexivity|]. pose proof PI_gt_3 as Hpi.
    assert (Hl9 : ln (256 / 27) < 2 * ln 3 + 1/10).
    { replace (2 * ln 3) with (ln 9) by (replace 9 with (3 * 3) by ring; rewrite ln_mult by lra; ring).
      replace (256 / 27) with (9 * (256 / 243)) by field. rewrite ln_mult by lra.
      pose proof (exp_ineq1 (256 / 243 - 1) ltac:(lra)) as He.
      assert (ln (256 / 243) < 256 / 243 - 1).
      { rewrite <- (ln_exp (256 / 243 - 1)). apply ln_increasing; lra. }
      lra. }
    assert (Hl0 : 0 < ln (256 / 27)) by (rewrite <- ln_1; apply ln_increasing; lra).
    assert (Hl3 : 0 < ln 3) by (rewrite <- ln_1; apply ln_increasing; lra).
    assert (Hla : ln 3 <= ln (2 * PI * (1 / 2) * af)).
    { assert (3 < PI * af) by nra. replace (2 * PI * (1 / 2) * af) with (PI * af) by field. left. apply ln_increasing; lra. }
    set (L := ln (2 * PI * (1 / 2) * af)) in *. set (l9 := ln (256 / 27)) in *.
    replace (3 * l9 / (8 * PI ^ 2) / ((1038 / 1000 + 3 * L) / (4 * PI ^ 2)))
      with (3 * l9 / (2 * (1038 / 1000 + 3 * L))) by (field; lra).
    assert (Hv : 0 < 3 * l9 / (2 * (1038 / 1000 + 3 * L)) < 1).
    { split; [apply Rdiv_lt_0_compat; lra|].
      apply (Rmult_lt_reg_r (2 * (1038 / 1000 + 3 * L))); [lra|]. unfold Rdiv. rewrite Rmult_assoc, Rinv_l by lra. lra. }
    split; [lra|]. split; [lia|]. split; [lra|]. lia.
  - exists 1. split; [unfold rn_theory; destruct b as [|p|[p|p|]]; easy|]. split; [lra|]. split; [lia|]. split; [lia|]. lra.
Qed.
Print Assumptions C53_rn_theory.
Theorem C53_rn_boundary af b_hi : 1 <= af -> exists lo hi, rn_theory af (b_hi - 1) = Ok lo /\ rn_theory af b_hi = Ok hi /\
  rn_boundary af b_hi = Ok (sqrt (hi * lo)) /\ Rmin hi lo <= sqrt (hi * lo) <= Rmax hi lo.
Proof.
  intros Haf. destruct (C53_rn_theory af (b_hi - 1) Haf) as (lo & E1 & P1 & _).
  destruct (C53_rn_theory af b_hi Haf) as (hi & E2 & P2 & _). exists lo, hi.
  split; [exact E1|]. split; [exact E2|]. split; [|apply geo_between; lra]. unfold rn_boundary. rewrite E2. cbn [bind]. now rewrite E1.
Qed.
Print Assumptions C53_rn_boundary.
Example C53_ex : b1_theory 5 2 = Ok 5 /\ b1_boundary (-3) 5 = Ok (sqrt (5 / 2 * (5 * ln 5 / (2 * (5 - 1) * ln 2)))).
Proof.
  split; [unfold b1_theory; f_equal; field|].
  unfold b1_boundary. change (b_to_mu (-3 - 1)) with (@Ok Z 1%Z). change (b_to_mu (-3)) with (@Ok Z 0%Z). cbn [bind b1_theory].
  rewrite (proj2 (Rleb_true (-4) (5 / 2))) by lra. reflexivity.
Qed.

From Verif Require Import NumX GradProofs.

(** ** C50 continued: a series without any variation *)
Lemma lsum_repeat n c : lsum (repeat c n) = INR n * c.
Proof. induction n as [|n IH]; cbn [repeat lsum]; [cbn; ring|]. rewrite IH, S_INR. ring. Qed.
Lemma map2_repeat_r {T U V} (f : T -> U -> V) a b n : map2 f (repeat a n) (repeat b (S n)) = repeat (f a b) n.
Proof. induction n as [|n IH]; [reflexivity|]. cbn [repeat map2]. f_equal. exact IH. Qed.
Lemma map2_repeat_l {T U V} (f : T -> U -> V) a b n : map2 f (repeat a (S n)) (repeat b n) = repeat (f a b) n.
Proof. induction n as [|n IH]; [reflexivity|]. cbn [repeat map2]. f_equal. exact IH. Qed.
Lemma diff_repeat c n : @diff ext XNum (repeat (Fin c) n) = repeat (Fin 0) (n - 1).
Proof.
  unfold diff. destruct n as [|n]; [reflexivity|]. cbn [repeat tl]. rewrite Nat.sub_succ, Nat.sub_0_r.
  change (Fin c :: repeat (Fin c) n) with (repeat (Fin c) (S n)). rewrite map2_repeat_r.
  cbn [nsub XNum x_sub]. now rewrite Rminus_diag_eq.
Qed.
Lemma differenced_repeat c n k : exists c', differenced k (repeat (Fin c) n) = repeat (Fin c') (n - k).
Proof.
  induction k as [|k (c' & IH)].
  - exists c. cbn. now rewrite Nat.sub_0_r.
  - exists 0. cbn [differenced]. rewrite IH, diff_repeat. f_equal. lia.
Qed.
Lemma map_rep {T U} (f : T -> U) a n : map f (repeat a n) = repeat (f a) n.
Proof. induction n as [|n IH]; cbn; congruence. Qed.
Lemma map_Fin_repeat c n : repeat (Fin c) n = map Fin (repeat c n).
Proof. induction n as [|n IH]; cbn; congruence. Qed.
Lemma mean_repeat c n : @mean ext XNum (repeat (Fin c) (S n)) = Fin c.
Proof.
  unfold mean. rewrite map_Fin_repeat, asum_Fin, lsum_repeat, map_length, repeat_length.
  unfold ofN. cbn [ofZ XNum ndiv]. rewrite <- INR_IZR_INZ. unfold x_div.
  assert (INR (S n) <> 0) by (apply not_0_INR; lia).
  destruct (Req_EM_T (INR (S n)) 0); [contradiction|]. f_equal. field. assumption.
Qed.
Lemma lag1_repeat c n : @lag1_acf ext XNum (repeat (Fin c) (S n)) = Ok NaN.
Proof.
  unfold lag1_acf. cbn [repeat]. change (Fin c :: repeat (Fin c) n) with (repeat (Fin c) (S n)).
  rewrite mean_repeat. cbn [tl repeat]. change (Fin c :: repeat (Fin c) n) with (repeat (Fin c) (S n)).
  rewrite map2_repeat_l. rewrite map_rep. unfold nsq.
  cbn [nsub nmul XNum x_sub x_mul]. rewrite (map_Fin_repeat _ n), (map_Fin_repeat _ (S n)), !asum_Fin, !lsum_repeat.
  f_equal. cbn [ndiv XNum]. unfold x_div. rewrite !Rminus_diag_eq by reflexivity. rewrite !Rmult_0_l, !Rmult_0_r.
  destruct (Req_EM_T 0 0) as [_|N]; [|contradiction]. unfold x_sign.
  destruct (Rlt_dec 0 0); [lra|reflexivity].
Qed.

(** With IEEE special values the autocorrelation of a constant series is 0/0 = NaN, which satisfies no
    comparison and cannot be converted to an integer. *)
Theorem C50_constant detrend (x y : list ext) af dt dmin dmax c :
  prepared detrend x af dt = Ok y -> (30 <= len y)%nat -> (Z.max dmin dmax < Z.of_nat (len y))%Z ->
  Forall (fun a => a = Fin c) y ->
  autocorr_noise_id detrend x af dt dmin dmax = Some (Err ValueError).
Proof.
  intros Hy Hl Hd Hc. destruct (C50_stops detrend x y af dt dmin dmax Hy Hl Hd) as (d & rho & Hb & (r & Hr & ->) & _ & _ & E).
  cbv zeta in E. rewrite E. clear E.
  assert (Ey : y = repeat (Fin c) (len y)).
  { clear -Hc. induction Hc as [|a y Ha Hc IH]; [reflexivity|]. cbn [len repeat]. now rewrite <- IH, Ha. }
  rewrite Ey in Hr. destruct (differenced_repeat c (len y) d) as (c' & Ed). rewrite Ed in Hr.
  destruct (len y - d)%nat as [|n] eqn:En; [lia|]. rewrite lag1_repeat in Hr. injection Hr as <-. reflexivity.
Qed.
Print Assumptions C50_constant.
Example C50_constant_ex : autocorr_noise_id (fun x _ => Ok x) (repeat (Fin 7) 64) 2 "phase" 0 2 = Some (Err ValueError).
Proof.
  apply (C50_constant _ _ (repeat (Fin 7) 32) _ _ _ _ 7); [reflexivity|cbn; lia|cbn; lia|].
  cbn [repeat]. repeat constructor.
Qed.
