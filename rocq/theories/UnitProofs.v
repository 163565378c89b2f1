(** * Two binary64 computations whose operands differ by a power of two. *)
From Coq Require Import ZArith Floats Reals Lra Lia Psatz String List Bool.
From Flocq Require Import Core.Core IEEE754.BinarySingleNaN.
From Verif Require Import Base Num NpList NumF ListFacts Spec RSum ModelCore ModelDev FloatFacts FloatErr SimProofs ScaleProofs PropsFloatErr.
Import ListNotations.
Local Open Scope R_scope.
Local Notation len := List.length.
Local Notation float := Coq.Floats.PrimFloat.float.
Local Instance p53' : Prec_gt_0 53 := eq_refl.

(** ** Rounding with and without a smallest exponent *)
Lemma rnd_53 r : r = 0 \/ bpow radix2 (-1022) <= Rabs r -> rnd r = rnd53 r.
Proof.
  intros [->|H]; [rewrite rnd_FLT; unfold rnd53; rewrite !round_0; [reflexivity| |]; typeclasses eauto|].
  rewrite rnd_FLT. unfold rnd53. apply round_FLT_FLX. exact H.
Qed.
Lemma rnd53_0 : rnd53 0 = 0. Proof. unfold rnd53. apply round_0. typeclasses eauto. Qed.
Lemma rnd53_le a b : a <= b -> rnd53 a <= rnd53 b.
Proof. intros H. unfold rnd53. apply round_le; [apply FLX_exp_valid; reflexivity|typeclasses eauto|exact H]. Qed.
(** j 2^e with |j| <= 2^53 is a 53-bit number *)
Lemma rnd53_id j e : (Z.abs j <= 2 ^ 53)%Z -> rnd53 (IZR j * bpow radix2 e) = IZR j * bpow radix2 e.
Proof.
  intros H. unfold rnd53. apply round_generic; [typeclasses eauto|]. destruct (Z.eq_dec (Z.abs j) (2 ^ 53)) as [E|E].
  - destruct (Z.abs_spec j) as [[_ E']|[_ E']]; rewrite E' in E.
    + subst j. change (IZR (2 ^ 53)) with (bpow radix2 53). rewrite <- bpow_plus. apply generic_format_bpow. unfold FLX_exp. lia.
    + replace j with (- 2 ^ 53)%Z by lia. rewrite opp_IZR. change (IZR (2 ^ 53)) with (bpow radix2 53). rewrite Ropp_mult_distr_l_reverse, <- bpow_plus. apply generic_format_opp, generic_format_bpow. unfold FLX_exp. lia.
  - apply generic_format_FLX. exists (Float radix2 j e); [reflexivity|]. cbn [Fnum]. change (Z.pow radix2 53) with (2 ^ 53)%Z. lia.
Qed.
Lemma rnd53_abs r B : 0 <= B -> rnd53 B = B -> Rabs r <= B -> Rabs (rnd53 r) <= B.
Proof. intros PB EB H. apply Rabs_le_inv in H. apply Rabs_le. split; [rewrite <- EB, <- rnd53_opp; apply rnd53_le; lra|rewrite <- EB; apply rnd53_le; lra]. Qed.
Lemma rnd53_bp e : rnd53 (bpow radix2 e) = bpow radix2 e.
Proof. rewrite <- (Rmult_1_l (bpow radix2 e)). apply (rnd53_id 1). lia. Qed.

(** multiples of 2^g *)
Definition gran (g : Z) (r : R) : Prop := exists z, r = IZR z * bpow radix2 g.
Lemma gran_0 g : gran g 0. Proof. exists 0%Z. ring. Qed.
Lemma gran_add g a b : gran g a -> gran g b -> gran g (a + b). Proof. intros [z ->] [w ->]. exists (z + w)%Z. rewrite plus_IZR. ring. Qed.
Lemma gran_sub g a b : gran g a -> gran g b -> gran g (a - b). Proof. intros [z ->] [w ->]. exists (z - w)%Z. rewrite minus_IZR. ring. Qed.
Lemma gran_mul g g' a b : gran g a -> gran g' b -> gran (g + g') (a * b). Proof. intros [z ->] [w ->]. exists (z * w)%Z. rewrite mult_IZR, bpow_plus. ring. Qed.
Lemma gran_low g r : gran g r -> r = 0 \/ bpow radix2 g <= Rabs r.
Proof.
  intros [z ->]. destruct (Z.eq_dec z 0) as [->|Hz]; [left; ring|right]. rewrite Rabs_mult, (Rabs_pos_eq (bpow _ _)) by apply bpow_ge_0.
  assert (1 <= Rabs (IZR z)) by (rewrite <- abs_IZR; apply IZR_le; lia). pose proof (bpow_ge_0 radix2 g). nra.
Qed.
Lemma gran_coarse g g' r : gran g r -> (g' <= g)%Z -> gran g' r.
Proof.
  intros [z ->] H. exists (z * 2 ^ (g - g'))%Z. rewrite mult_IZR. change 2%Z with (radix_val radix2). rewrite IZR_Zpower by lia. rewrite Rmult_assoc, <- bpow_plus. f_equal. f_equal. lia.
Qed.
Lemma gran_rnd g r : gran g r -> gran g (rnd53 r).
Proof.
  intros [z ->]. destruct (Z.eq_dec z 0) as [->|Hz]; [rewrite Rmult_0_l, rnd53_0; apply gran_0|].
  set (r := IZR z * bpow radix2 g). set (e := cexp radix2 (FLX_exp 53) r).
  destruct (Z_le_gt_dec e g) as [L|L].
  - exists z. unfold rnd53. apply round_generic; [typeclasses eauto|]. apply generic_format_F2R' with (Float radix2 z g); [reflexivity|]. intros _. exact L.
  - apply gran_coarse with e; [|lia]. unfold rnd53, round, F2R. cbn [Fnum Fexp]. fold e. eexists. reflexivity.
Qed.
(** a float which is 0 or at least 2^l is a multiple of 2^(l-52) *)
Lemma gran_format x l : (-1022 <= l)%Z -> fR x = 0 \/ bpow radix2 l <= Rabs (fR x) -> gran (l - 52) (fR x).
Proof.
  intros Hl [->|H]; [apply gran_0|]. pose proof (format_fR x) as F. unfold generic_format in F. set (e := cexp radix2 (FLT_exp (-1074) 53) (fR x)) in *.
  assert (L : (l - 52 <= e)%Z). { unfold e, cexp, FLT_exp. pose proof (mag_ge_bpow radix2 (fR x) (l + 1)) as M. replace (l + 1 - 1)%Z with l in M by lia. specialize (M H). lia. }
  rewrite F. apply gran_coarse with e; [|exact L]. unfold F2R. cbn [Fnum Fexp]. fold e. eexists. reflexivity.
Qed.

(** ** Pairs of floats one of which is c times the other *)
Section Pair.
Context (k : Z).
Let c : R := bpow radix2 k.
Lemma c_pos : 0 < c. Proof. apply bpow_gt_0. Qed.
Lemma rnd_c r : rnd53 (c * r) = c * rnd53 r. Proof. apply rnd53_bpow. Qed.
Definition c2_is : c * c = bpow radix2 (2 * k). Proof. unfold c. rewrite <- bpow_plus. f_equal. lia. Qed.
Lemma rnd_cc r : rnd53 (c * c * r) = c * c * rnd53 r. Proof. rewrite c2_is. apply rnd53_bpow. Qed.
Definition scaled (a b : float) : Prop := ffin a /\ ffin b /\ fR b = c * fR a.

(** signed quantities: multiples of 2^g of size at most z 2^h *)
Definition G (g h z : Z) (a b : float) : Prop :=
  scaled a b /\ gran g (fR a) /\ gran g (fR b) /\ Rabs (fR a) <= IZR z * bpow radix2 h /\ Rabs (fR b) <= IZR z * bpow radix2 h.
Lemma G_weaken g h z g' w a b : G g h z a b -> (g' <= g)%Z -> (z <= w)%Z -> G g' h w a b.
Proof.
  intros (S & G1 & G2 & B1 & B2) Hg H. apply IZR_le in H. pose proof (bpow_ge_0 radix2 h). split; [exact S|]. split; [now apply gran_coarse with g|]. split; [now apply gran_coarse with g|]. split; (eapply Rle_trans; [eassumption|apply Rmult_le_compat_r; lra]).
Qed.
(** a count of size 2^e moves into the exponent *)
Lemma G_lift g h z e a b : G g h z a b -> (0 <= e)%Z -> (z <= 2 ^ e)%Z -> G g (h + e) 1 a b.
Proof.
  intros (S & G1 & G2 & B1 & B2) He H. split; [exact S|]. split; [exact G1|]. split; [exact G2|].
  assert (K : IZR z * bpow radix2 h <= 1 * bpow radix2 (h + e)).
  { rewrite Rmult_1_l, Z.add_comm, bpow_plus. apply Rmult_le_compat_r; [apply bpow_ge_0|]. rewrite <- IZR_Zpower by exact He. apply IZR_le. exact H. }
  split; lra.
Qed.
Lemma gran_ok g r : (-1022 <= g)%Z -> gran g r -> rnd r = rnd53 r.
Proof. intros Hg H. apply rnd_53. destruct (gran_low g r H) as [E|L]; [now left|right]. eapply Rle_trans; [|exact L]. apply bpow_le. lia. Qed.
Lemma big_ok h z : (h <= 900)%Z -> (0 <= z <= 2 ^ 53)%Z -> 0 <= IZR z * bpow radix2 h < bpow radix2 1024.
Proof.
  intros Hh H. pose proof (bpow_gt_0 radix2 h). assert (0 <= IZR z <= bpow radix2 53) by (split; [apply IZR_le; lia|change (bpow radix2 53) with (IZR (2 ^ 53)); apply IZR_le; lia]). split; [nra|].
  apply Rle_lt_trans with (bpow radix2 53 * bpow radix2 h); [nra|]. rewrite <- bpow_plus. apply bpow_lt. lia.
Qed.
Definition rng (g h : Z) : Prop := (-1022 <= g)%Z /\ (h <= 900)%Z.
Lemma G_op (op : float -> float -> float) (rop : R -> R -> R) g h z a a' b b' w :
  (forall x y, ffin x -> ffin y -> Rabs (rnd (rop (fR x) (fR y))) < bpow radix2 1024 -> ffin (op x y) /\ fR (op x y) = rnd (rop (fR x) (fR y))) ->
  (forall x y, gran g x -> gran g y -> gran g (rop x y)) -> (forall x y, rop (c * x) (c * y) = c * rop x y) -> (forall x y, Rabs (rop x y) <= Rabs x + Rabs y) ->
  rng g h -> G g h z a a' -> G g h w b b' -> (0 <= z)%Z -> (0 <= w)%Z -> (z + w <= 2 ^ 53)%Z -> G g h (z + w) (op a b) (op a' b').
Proof.
  intros Ho Hg Hc Ht [Rg Rh] (Sa & A1 & A2 & A3 & A4) (Sb & B1 & B2 & B3 & B4) Pz Pw Hzw. destruct Sa as (Fa & Fa' & Ea), Sb as (Fb & Fb' & Eb).
  destruct (big_ok h (z + w) Rh ltac:(lia)) as [K0 K1]. assert (EK : rnd53 (IZR (z + w) * bpow radix2 h) = IZR (z + w) * bpow radix2 h) by (apply rnd53_id; lia).
  assert (EI : IZR (z + w) * bpow radix2 h = IZR z * bpow radix2 h + IZR w * bpow radix2 h) by (rewrite plus_IZR; ring).
  assert (U : Rabs (rop (fR a) (fR b)) <= IZR (z + w) * bpow radix2 h) by (eapply Rle_trans; [apply Ht|]; lra).
  assert (U' : Rabs (rop (fR a') (fR b')) <= IZR (z + w) * bpow radix2 h) by (eapply Rle_trans; [apply Ht|]; lra).
  pose proof (gran_ok g _ Rg (Hg _ _ A1 B1)) as R1. pose proof (gran_ok g _ Rg (Hg _ _ A2 B2)) as R2.
  pose proof (rnd53_abs _ _ K0 EK U) as V1. pose proof (rnd53_abs _ _ K0 EK U') as V2.
  destruct (Ho a b Fa Fb ltac:(rewrite R1; lra)) as [F1 E1]. destruct (Ho a' b' Fa' Fb' ltac:(rewrite R2; lra)) as [F2 E2].
  unfold G, scaled. rewrite E1, E2, R1, R2. split; [split; [exact F1|split; [exact F2|]]; rewrite Ea, Eb, Hc; apply rnd_c|].
  split; [apply gran_rnd, Hg; assumption|]. split; [apply gran_rnd, Hg; assumption|]. split; assumption.
Qed.
Lemma G_add g h z w a a' b b' : G g h z a a' -> G g h w b b' -> rng g h -> (0 <= z)%Z -> (0 <= w)%Z -> (z + w <= 2 ^ 53)%Z -> G g h (z + w) (a + b)%float (a' + b')%float.
Proof. intros. apply (G_op _ Rplus); auto using fadd_ok, gran_add; intros; [ring|apply Rabs_triang]. Qed.
Lemma G_sub g h z w a a' b b' : G g h z a a' -> G g h w b b' -> rng g h -> (0 <= z)%Z -> (0 <= w)%Z -> (z + w <= 2 ^ 53)%Z -> G g h (z + w) (a - b)%float (a' - b')%float.
Proof. intros. apply (G_op _ Rminus); auto using fsub_ok, gran_sub; intros; [ring|]. unfold Rminus. rewrite <- (Rabs_Ropp y). apply Rabs_triang. Qed.
(** multiplication by a fixed multiple of 2^gq *)
Lemma G_mul_l g h z a a' q gq j : G g h z a a' -> ffin q -> gran gq (fR q) -> Rabs (fR q) <= IZR j -> rng (g + gq) h -> (0 <= j)%Z -> (0 <= z)%Z -> (j * z <= 2 ^ 53)%Z ->
  G (g + gq) h (j * z) (q * a)%float (q * a')%float.
Proof.
  intros (Sa & A1 & A2 & A3 & A4) Fj Gq Bq [Rg Rh] Pj Pz Hjz. destruct Sa as (Fa & Fa' & Ea).
  destruct (big_ok h (j * z) Rh ltac:(nia)) as [K0 K1]. assert (EK : rnd53 (IZR (j * z) * bpow radix2 h) = IZR (j * z) * bpow radix2 h) by (apply rnd53_id; nia).
  assert (U : forall x, Rabs x <= IZR z * bpow radix2 h -> Rabs (fR q * x) <= IZR (j * z) * bpow radix2 h).
  { intros x Hx. rewrite Rabs_mult, mult_IZR, Rmult_assoc. apply Rmult_le_compat; auto; apply Rabs_pos. }
  assert (GM : forall x, gran g x -> gran (g + gq) (fR q * x)) by (intros x Hx; rewrite Rmult_comm; now apply gran_mul).
  pose proof (gran_ok _ _ Rg (GM _ A1)) as R1. pose proof (gran_ok _ _ Rg (GM _ A2)) as R2.
  pose proof (rnd53_abs _ _ K0 EK (U _ A3)) as V1. pose proof (rnd53_abs _ _ K0 EK (U _ A4)) as V2.
  destruct (fmul_ok q a Fj Fa ltac:(rewrite R1; lra)) as [F1 E1]. destruct (fmul_ok q a' Fj Fa' ltac:(rewrite R2; lra)) as [F2 E2].
  unfold G, scaled. rewrite E1, E2, R1, R2. split; [split; [exact F1|split; [exact F2|]]; rewrite Ea, <- rnd_c; f_equal; ring|].
  split; [apply gran_rnd, GM; assumption|]. split; [apply gran_rnd, GM; assumption|]. split; assumption.
Qed.
Lemma G_mulZ j g h z a a' : G g h z a a' -> rng g h -> (0 <= j <= 2 ^ 53)%Z -> (0 <= z)%Z -> (j * z <= 2 ^ 53)%Z -> G g h (j * z) (f_ofZ j * a)%float (f_ofZ j * a')%float.
Proof.
  intros H Hr Hj Pz Hjz. destruct (fofZ_ok j ltac:(lia)) as [Fj Vj]. rewrite <- (Z.add_0_r g). apply G_mul_l; auto; try lia.
  - rewrite Vj. exists j. cbn. ring.
  - rewrite Vj, <- abs_IZR. apply IZR_le. lia.
  - now rewrite Z.add_0_r.
Qed.
Lemma G_zero g h z : (0 <= z)%Z -> G g h z (f_ofZ 0) (f_ofZ 0).
Proof.
  intros Hz. destruct (fofZ_ok 0 ltac:(lia)) as [F V]. unfold G, scaled. rewrite V, Rabs_R0. pose proof (bpow_ge_0 radix2 h). apply IZR_le in Hz.
  repeat split; auto; try apply gran_0; nra.
Qed.

(** non-negative quantities between 2^l and 2^h, or 0 *)
Definition Q (s : R) (l h : Z) (a b : float) : Prop :=
  ffin a /\ ffin b /\ fR b = s * fR a /\
  (fR a = 0 \/ bpow radix2 l <= fR a) /\ (fR b = 0 \/ bpow radix2 l <= fR b) /\ 0 <= fR a <= bpow radix2 h /\ 0 <= fR b <= bpow radix2 h.
Lemma Q_weaken s l h l' h' a b : Q s l h a b -> (l' <= l)%Z -> (h <= h')%Z -> Q s l' h' a b.
Proof.
  intros (F1 & F2 & E & L1 & L2 & H1 & H2) Hl Hh. apply (bpow_le radix2) in Hl. apply (bpow_le radix2) in Hh. unfold Q. intuition lra.
Qed.
(** a positive operation, rounded *)
Lemma Q_round (a b : float) s r r' l h : ffin a -> ffin b -> fR a = rnd r -> fR b = rnd r' -> r' = s * r -> (forall x, rnd53 (s * x) = s * rnd53 x) ->
  (r = 0 \/ bpow radix2 l <= r) -> (r' = 0 \/ bpow radix2 l <= r') -> r <= bpow radix2 h -> r' <= bpow radix2 h -> (-1022 <= l)%Z -> Q s l h a b.
Proof.
  intros Fa Fb Ea Eb Er Hs L1 L2 H1 H2 Hl. assert (Pl := bpow_gt_0 radix2 l). assert (Ph := bpow_gt_0 radix2 h).
  assert (N1 : rnd r = rnd53 r) by (apply rnd_53; destruct L1 as [->|L]; [now left|right; rewrite Rabs_pos_eq by lra; eapply Rle_trans; [apply bpow_le; exact Hl|exact L]]).
  assert (N2 : rnd r' = rnd53 r') by (apply rnd_53; destruct L2 as [->|L]; [now left|right; rewrite Rabs_pos_eq by lra; eapply Rle_trans; [apply bpow_le; exact Hl|exact L]]).
  assert (T : forall x, (x = 0 \/ bpow radix2 l <= x) -> x <= bpow radix2 h -> (rnd53 x = 0 \/ bpow radix2 l <= rnd53 x) /\ 0 <= rnd53 x <= bpow radix2 h).
  { intros x Lx Hx. split; [destruct Lx as [->|L]; [left; apply rnd53_0|right; rewrite <- (rnd53_bp l); now apply rnd53_le]|].
    split; [rewrite <- rnd53_0; apply rnd53_le; destruct Lx; lra|rewrite <- (rnd53_bp h); now apply rnd53_le]. }
  destruct (T r L1 H1) as [T1 T2]. destruct (T r' L2 H2) as [T3 T4]. unfold Q. rewrite Ea, Eb, N1, N2.
  split; [exact Fa|]. split; [exact Fb|]. split; [rewrite Er; apply Hs|]. tauto.
Qed.
Lemma rnd_lt r h : 0 <= r <= bpow radix2 h -> (h <= 1000)%Z -> Rabs (rnd r) < bpow radix2 1024.
Proof. intros H Hh. apply rnd_bound. rewrite Rabs_pos_eq by lra. eapply Rle_trans; [apply H|]. now apply bpow_le. Qed.
Lemma Q_sq g h a a' : G g h 1 a a' -> (-500 <= g)%Z -> (h <= 490)%Z -> Q (c * c) (2 * g) (2 * h) (nsq a) (nsq a').
Proof.
  intros (Sa & A1 & A2 & A3 & A4) Hg Hh. destruct Sa as (Fa & Fa' & Ea). unfold nsq. cbn [nmul FNum].
  assert (U : forall x, Rabs x <= 1 * bpow radix2 h -> 0 <= x * x <= bpow radix2 (2 * h)).
  { intros x Hx. rewrite Rmult_1_l in Hx. split; [apply Rle_0_sqr|]. replace (2 * h)%Z with (h + h)%Z by lia. rewrite bpow_plus. replace (x * x) with (Rabs x * Rabs x) by (rewrite <- Rabs_mult; apply Rabs_pos_eq, Rle_0_sqr). pose proof (Rabs_pos x). nra. }
  assert (L : forall x, gran g x -> x * x = 0 \/ bpow radix2 (2 * g) <= x * x).
  { intros x Hx. destruct (gran_low g x Hx) as [->|L]; [left; ring|right]. replace (2 * g)%Z with (g + g)%Z by lia. rewrite bpow_plus. replace (x * x) with (Rabs x * Rabs x) by (rewrite <- Rabs_mult; apply Rabs_pos_eq, Rle_0_sqr). pose proof (bpow_ge_0 radix2 g). nra. }
  destruct (fmul_ok a a Fa Fa (rnd_lt _ (2 * h) (U _ A3) ltac:(lia))) as [F1 E1]. destruct (fmul_ok a' a' Fa' Fa' (rnd_lt _ (2 * h) (U _ A4) ltac:(lia))) as [F2 E2].
  apply (Q_round _ _ (c * c) _ _ _ _ F1 F2 E1 E2); [rewrite Ea; ring|apply rnd_cc|apply L, A1|apply L, A2|apply U, A3|apply U, A4|lia].
Qed.
(** the quantities that stay fixed *)
Definition between (q : float) (p r : Z) : Prop := ffin q /\ bpow radix2 p <= fR q <= bpow radix2 r.
Lemma rnd_bp e : (-1022 <= e)%Z -> rnd (bpow radix2 e) = bpow radix2 e.
Proof. intros H. rewrite rnd_53; [apply rnd53_bp|right]. rewrite Rabs_pos_eq by apply bpow_ge_0. now apply bpow_le. Qed.
Lemma rnd_le' a b : a <= b -> rnd a <= rnd b.
Proof. intros H. rewrite !rnd_FLT. apply round_le; [typeclasses eauto|typeclasses eauto|exact H]. Qed.
Lemma between_rnd q x p r : ffin q -> fR q = rnd x -> bpow radix2 p <= x <= bpow radix2 r -> (-1022 <= p)%Z -> (-1022 <= r)%Z -> between q p r.
Proof. intros F E [H1 H2] Hp Hr. split; [exact F|]. rewrite E, <- (rnd_bp p Hp), <- (rnd_bp r Hr). split; now apply rnd_le'. Qed.
Lemma between_ofZ j r : (1 <= j)%Z -> (j <= 2 ^ r)%Z -> (0 <= r <= 53)%Z -> between (f_ofZ j) 0 r.
Proof.
  intros H1 H2 Hr. assert (2 ^ r <= 2 ^ 53)%Z by (apply Z.pow_le_mono_r; lia). destruct (fofZ_ok j ltac:(lia)) as [F V]. split; [exact F|]. rewrite V. cbn [bpow]. split; [now apply IZR_le|].
  rewrite <- IZR_Zpower by lia. now apply IZR_le.
Qed.
Lemma between_ofN n r : (1 <= n)%nat -> (Z.of_nat n <= 2 ^ r)%Z -> (0 <= r <= 53)%Z -> between (ofN n) 0 r.
Proof. intros H1 H2 Hr. apply between_ofZ; lia. Qed.
Lemma between_mul a b p r p' r' : between a p r -> between b p' r' -> (-1000 <= p + p')%Z -> (r + r' <= 1000)%Z -> between (a * b)%float (p + p') (r + r').
Proof.
  intros (Fa & A1 & A2) (Fb & B1 & B2) Hp Hr. assert (P := bpow_gt_0 radix2 p). assert (P' := bpow_gt_0 radix2 p').
  assert (K : bpow radix2 (p + p') <= fR a * fR b <= bpow radix2 (r + r')) by (rewrite !bpow_plus; split; apply Rmult_le_compat; lra).
  assert (p + p' <= r + r')%Z by (apply (le_bpow radix2); lra).
  destruct (fmul_ok a b Fa Fb) as [F E]; [apply (rnd_lt _ (r + r')); [split; [nra|apply K]|lia]|]. now apply (between_rnd _ _ _ _ F E K); lia.
Qed.
Lemma between_div a b p r p' r' : between a p r -> between b p' r' -> (-1000 <= p - r')%Z -> (r - p' <= 1000)%Z -> between (a / b)%float (p - r') (r - p').
Proof.
  intros (Fa & A1 & A2) (Fb & B1 & B2) Hp Hr. assert (P := bpow_gt_0 radix2 p). assert (P' := bpow_gt_0 radix2 p').
  assert (K : bpow radix2 (p - r') <= fR a / fR b <= bpow radix2 (r - p')).
  { unfold Z.sub. rewrite !bpow_plus, !bpow_opp. unfold Rdiv. assert (0 < / bpow radix2 r') by (apply Rinv_0_lt_compat, bpow_gt_0). assert (0 < / fR b) by (apply Rinv_0_lt_compat; lra). split; apply Rmult_le_compat; try lra; apply Rinv_le; lra. }
  assert (p - r' <= r - p')%Z by (apply (le_bpow radix2); lra). pose proof (bpow_gt_0 radix2 (p - r')).
  destruct (fdiv_ok a b Fa ltac:(lra)) as [F E]; [apply (rnd_lt _ (r - p')); [lra|lia]|]. now apply (between_rnd _ _ _ _ F E K); lia.
Qed.
Lemma sqrt_bpow2 e : R_sqrt.sqrt (bpow radix2 (2 * e)) = bpow radix2 e.
Proof. replace (2 * e)%Z with (e + e)%Z by lia. rewrite bpow_plus. apply sqrt_square, bpow_ge_0. Qed.
Lemma between_sqrt a p r : between a (2 * p) (2 * r) -> (-1000 <= p)%Z -> between (Coq.Floats.PrimFloat.sqrt a) p r.
Proof.
  intros (Fa & A1 & A2) Hp. pose proof (bpow_gt_0 radix2 (2 * p)). destruct (fsqrt_ok a Fa ltac:(lra)) as [F E].
  assert (2 * p <= 2 * r)%Z by (apply (le_bpow radix2); lra).
  apply (between_rnd _ _ _ _ F E); [|lia|lia]. rewrite <- (sqrt_bpow2 p), <- (sqrt_bpow2 r). split; now apply sqrt_le_1_alt.
Qed.
Lemma between_sqrt_n j : (1 <= j <= 2 ^ 40)%Z -> between (Coq.Floats.PrimFloat.sqrt (f_ofZ j)) 0 20.
Proof. intros H. apply between_sqrt; [|lia]. change (2 * 0)%Z with 0%Z. change (2 * 20)%Z with 40%Z. apply between_ofZ; lia. Qed.
Lemma Q_div s l h a a' q p r : Q s l h a a' -> between q p r -> (forall x, rnd53 (s * x) = s * rnd53 x) -> (-1000 <= l - r)%Z -> (h - p <= 1000)%Z -> Q s (l - r) (h - p) (a / q)%float (a' / q)%float.
Proof.
  intros (F1 & F2 & E & L1 & L2 & H1 & H2) (Fq & B1 & B2) Hs Hl Hh. assert (P := bpow_gt_0 radix2 p). assert (Pq : 0 < fR q) by lra.
  assert (U : forall x, 0 <= x <= bpow radix2 h -> 0 <= x / fR q <= bpow radix2 (h - p)).
  { intros x Hx. split; [apply Rmult_le_pos; [lra|left; now apply Rinv_0_lt_compat]|]. apply Rmult_le_reg_r with (fR q); [exact Pq|]. replace (x / fR q * fR q) with x by (field; lra).
    apply Rle_trans with (bpow radix2 (h - p) * bpow radix2 p); [rewrite <- bpow_plus; replace (h - p + p)%Z with h by lia; apply Hx|]. apply Rmult_le_compat_l; [apply bpow_ge_0|exact B1]. }
  assert (L : forall x, x = 0 \/ bpow radix2 l <= x -> x / fR q = 0 \/ bpow radix2 (l - r) <= x / fR q).
  { intros x [->|Hx]; [left; unfold Rdiv; ring|right]. apply Rmult_le_reg_r with (fR q); [exact Pq|]. replace (x / fR q * fR q) with x by (field; lra).
    apply Rle_trans with (bpow radix2 (l - r) * bpow radix2 r); [apply Rmult_le_compat_l; [apply bpow_ge_0|exact B2]|]. rewrite <- bpow_plus. replace (l - r + r)%Z with l by lia. exact Hx. }
  destruct (fdiv_ok a q F1 ltac:(lra) (rnd_lt _ _ (U _ H1) Hh)) as [G1 V1]. destruct (fdiv_ok a' q F2 ltac:(lra) (rnd_lt _ _ (U _ H2) Hh)) as [G2 V2].
  apply (Q_round _ _ s _ _ _ _ G1 G2 V1 V2); [rewrite E; unfold Rdiv; ring|exact Hs|apply L, L1|apply L, L2|apply U, H1|apply U, H2|lia].
Qed.
Lemma Q_mul s l h a a' q p r : Q s l h a a' -> between q p r -> (forall x, rnd53 (s * x) = s * rnd53 x) -> (-1000 <= l + p)%Z -> (h + r <= 1000)%Z -> Q s (l + p) (h + r) (a * q)%float (a' * q)%float.
Proof.
  intros (F1 & F2 & E & L1 & L2 & H1 & H2) (Fq & B1 & B2) Hs Hl Hh. assert (P := bpow_gt_0 radix2 p). assert (Pq : 0 < fR q) by lra.
  assert (U : forall x, 0 <= x <= bpow radix2 h -> 0 <= x * fR q <= bpow radix2 (h + r)).
  { intros x Hx. split; [nra|]. rewrite bpow_plus. apply Rmult_le_compat; lra. }
  assert (L : forall x, x = 0 \/ bpow radix2 l <= x -> x * fR q = 0 \/ bpow radix2 (l + p) <= x * fR q).
  { intros x [->|Hx]; [left; ring|right]. rewrite bpow_plus. apply Rmult_le_compat; try apply bpow_ge_0; assumption. }
  destruct (fmul_ok a q F1 Fq (rnd_lt _ _ (U _ H1) Hh)) as [G1 V1]. destruct (fmul_ok a' q F2 Fq (rnd_lt _ _ (U _ H2) Hh)) as [G2 V2].
  apply (Q_round _ _ s _ _ _ _ G1 G2 V1 V2); [rewrite E; ring|exact Hs|apply L, L1|apply L, L2|apply U, H1|apply U, H2|lia].
Qed.
Lemma Q_mul_l s l h a a' q p r : Q s l h a a' -> between q p r -> (forall x, rnd53 (s * x) = s * rnd53 x) -> (-1000 <= l + p)%Z -> (h + r <= 1000)%Z -> Q s (l + p) (h + r) (q * a)%float (q * a')%float.
Proof.
  intros (F1 & F2 & E & L1 & L2 & H1 & H2) (Fq & B1 & B2) Hs Hl Hh. assert (P := bpow_gt_0 radix2 p). assert (Pq : 0 < fR q) by lra.
  assert (U : forall x, 0 <= x <= bpow radix2 h -> 0 <= fR q * x <= bpow radix2 (h + r)).
  { intros x Hx. split; [nra|]. rewrite bpow_plus, Rmult_comm. apply Rmult_le_compat; lra. }
  assert (L : forall x, x = 0 \/ bpow radix2 l <= x -> fR q * x = 0 \/ bpow radix2 (l + p) <= fR q * x).
  { intros x [->|Hx]; [left; ring|right]. rewrite bpow_plus, (Rmult_comm (fR q)). apply Rmult_le_compat; try apply bpow_ge_0; assumption. }
  destruct (fmul_ok q a Fq F1 (rnd_lt _ _ (U _ H1) Hh)) as [G1 V1]. destruct (fmul_ok q a' Fq F2 (rnd_lt _ _ (U _ H2) Hh)) as [G2 V2].
  apply (Q_round _ _ s _ _ _ _ G1 G2 V1 V2); [rewrite E; ring|exact Hs|apply L, L1|apply L, L2|apply U, H1|apply U, H2|lia].
Qed.
Lemma Q_sqrt l h a a' : Q (c * c) (2 * l) (2 * h) a a' -> (-1000 <= l)%Z -> (h <= 1000)%Z -> Q c l h (Coq.Floats.PrimFloat.sqrt a) (Coq.Floats.PrimFloat.sqrt a').
Proof.
  intros (F1 & F2 & E & L1 & L2 & H1 & H2) Hl Hh. pose proof c_pos as Pc.
  destruct (fsqrt_ok a F1 ltac:(lra)) as [G1 V1]. destruct (fsqrt_ok a' F2 ltac:(lra)) as [G2 V2].
  apply (Q_round _ _ c _ _ _ _ G1 G2 V1 V2); [rewrite E, sqrt_mult by nra; rewrite sqrt_square by lra; reflexivity|exact rnd_c| | | | |lia].
  - destruct L1 as [->|L]; [left; apply sqrt_0|right]. rewrite <- sqrt_bpow2. now apply sqrt_le_1_alt.
  - destruct L2 as [->|L]; [left; apply sqrt_0|right]. rewrite <- sqrt_bpow2. now apply sqrt_le_1_alt.
  - rewrite <- sqrt_bpow2. now apply sqrt_le_1_alt.
  - rewrite <- sqrt_bpow2. now apply sqrt_le_1_alt.
Qed.
(** sums of at most 2^40 terms *)
Definition Qn (s : R) (l : Z) (n : nat) (h : Z) (a b : float) : Prop :=
  ffin a /\ ffin b /\ fR b = s * fR a /\
  (fR a = 0 \/ bpow radix2 l <= fR a) /\ (fR b = 0 \/ bpow radix2 l <= fR b) /\ 0 <= fR a <= INR n * bpow radix2 h /\ 0 <= fR b <= INR n * bpow radix2 h.
Lemma Qn_add s l h n a a' b b' : Qn s l n h a a' -> Q s l h b b' -> (forall x, rnd53 (s * x) = s * rnd53 x) -> (Z.of_nat n < 2 ^ 50)%Z -> (-1000 <= l)%Z -> (h <= 900)%Z ->
  Qn s l (S n) h (a + b)%float (a' + b')%float.
Proof.
  intros (F1 & F2 & E & L1 & L2 & H1 & H2) (K1 & K2 & EK & M1 & M2 & N1 & N2) Hs Hn Hl Hh. pose proof (bpow_gt_0 radix2 l) as Pl. pose proof (bpow_gt_0 radix2 h) as Ph.
  assert (EI : INR (S n) * bpow radix2 h = INR n * bpow radix2 h + bpow radix2 h) by (rewrite S_INR; ring).
  assert (BI : INR (S n) * bpow radix2 h <= bpow radix2 1000).
  { apply Rle_trans with (bpow radix2 50 * bpow radix2 h); [apply Rmult_le_compat_r; [lra|]; change (bpow radix2 50) with (IZR (2 ^ 50)); rewrite INR_IZR_INZ; apply IZR_le; lia|]. rewrite <- bpow_plus. apply bpow_le. lia. }
  assert (ER : rnd53 (INR (S n) * bpow radix2 h) = INR (S n) * bpow radix2 h) by (rewrite INR_IZR_INZ; apply rnd53_id; lia).
  assert (O1 : Rabs (rnd (fR a + fR b)) < bpow radix2 1024) by (apply rnd_bound; rewrite Rabs_pos_eq; lra).
  assert (O2 : Rabs (rnd (fR a' + fR b')) < bpow radix2 1024) by (apply rnd_bound; rewrite Rabs_pos_eq; lra).
  destruct (fadd_ok a b F1 K1 O1) as [G1 V1]. destruct (fadd_ok a' b' F2 K2 O2) as [G2 V2].
  assert (T : forall x, (x = 0 \/ bpow radix2 l <= x) -> x <= INR (S n) * bpow radix2 h -> rnd x = rnd53 x /\ (rnd53 x = 0 \/ bpow radix2 l <= rnd53 x) /\ 0 <= rnd53 x <= INR (S n) * bpow radix2 h).
  { intros x Lx Hx. split; [apply rnd_53; destruct Lx as [->|L]; [now left|right; rewrite Rabs_pos_eq by lra; eapply Rle_trans; [|exact L]; apply bpow_le; lia]|].
    split; [destruct Lx as [->|L]; [left; apply rnd53_0|right; rewrite <- (rnd53_bp l); now apply rnd53_le]|].
    split; [rewrite <- rnd53_0; apply rnd53_le; destruct Lx; lra|rewrite <- ER; now apply rnd53_le]. }
  destruct (T (fR a + fR b)) as (T1 & T2 & T3); [destruct L1 as [->|?], M1 as [->|?]; try (right; lra); left; ring|lra|].
  destruct (T (fR a' + fR b')) as (T4 & T5 & T6); [destruct L2 as [->|?], M2 as [->|?]; try (right; lra); left; ring|lra|].
  unfold Qn. rewrite V1, V2, T1, T4. split; [exact G1|]. split; [exact G2|]. split; [rewrite E, EK, <- Rmult_plus_distr_l; apply Hs|]. tauto.
Qed.
Lemma Q_asum s l h n (f g : nat -> float) : (forall x, rnd53 (s * x) = s * rnd53 x) -> (forall i, (i < n)%nat -> Q s l h (f i) (g i)) -> (Z.of_nat n <= 2 ^ 40)%Z -> (-1000 <= l)%Z -> (h <= 900)%Z ->
  Q s l (h + 40) (asum (tab n f)) (asum (tab n g)).
Proof.
  intros Hs H Hn Hl Hh. destruct (fofZ_ok 0 ltac:(lia)) as [F0 V0].
  assert (K : forall j, (j <= n)%nat -> Qn s l j h (fold_left nadd (tab j f) (f_ofZ 0)) (fold_left nadd (tab j g) (f_ofZ 0))).
  { induction j as [|j IH]; intros Hj.
    - cbn [tab seq map fold_left]. unfold Qn. rewrite V0. cbn [INR]. repeat split; auto; lra.
    - unfold tab. rewrite seq_S, !map_app, !fold_left_app. cbn [map fold_left Nat.add]. apply Qn_add; [apply IH; lia|apply H; lia|exact Hs|lia|exact Hl|exact Hh]. }
  specialize (K n (le_n n)). unfold asum. cbn [ofZ FNum]. destruct K as (K1 & K2 & K3 & K4 & K5 & K6 & K7).
  assert (INR n * bpow radix2 h <= bpow radix2 (h + 40)). { rewrite Z.add_comm, bpow_plus. apply Rmult_le_compat_r; [apply bpow_ge_0|]. change (bpow radix2 40) with (IZR (2 ^ 40)). rewrite INR_IZR_INZ. apply IZR_le. lia. }
  unfold Q. repeat split; auto; lra.
Qed.
Lemma Q_sumsq g h n (f f' : nat -> float) : (forall i, (i < n)%nat -> G g h 1 (f i) (f' i)) -> (Z.of_nat n <= 2 ^ 40)%Z -> (-500 <= g)%Z -> (h <= 450)%Z ->
  Q (c * c) (2 * g) (2 * h + 40) (sumsq (tab n f)) (sumsq (tab n f')).
Proof.
  intros H Hn Hg Hh. unfold sumsq. rewrite !map_tab. apply (Q_asum (c * c) (2 * g) (2 * h) n); [exact rnd_cc| |exact Hn|lia|lia]. intros i Hi. apply Q_sq; [now apply H|lia|lia].
Qed.
Lemma G_asum g h z n (f f' : nat -> float) : (forall i, (i < n)%nat -> G g h z (f i) (f' i)) -> rng g h -> (0 <= z)%Z -> (Z.of_nat n * z <= 2 ^ 53)%Z -> G g h (Z.of_nat n * z) (asum (tab n f)) (asum (tab n f')).
Proof.
  intros H Hr Hz Hn. unfold asum. cbn [ofZ FNum].
  assert (K : forall j, (j <= n)%nat -> G g h (Z.of_nat j * z) (fold_left nadd (tab j f) (f_ofZ 0)) (fold_left nadd (tab j f') (f_ofZ 0))).
  { induction j as [|j IH]; intros Hj; [apply G_zero; lia|]. unfold tab. rewrite seq_S, !map_app, !fold_left_app. cbn [map fold_left Nat.add].
    replace (Z.of_nat (S j) * z)%Z with (Z.of_nat j * z + z)%Z by lia. apply G_add; [apply IH; lia|apply H; lia|exact Hr|lia|lia|nia]. }
  apply K. lia.
Qed.
Lemma Q_add s l h a a' b b' : Q s l h a a' -> Q s l h b b' -> (forall x, rnd53 (s * x) = s * rnd53 x) -> (-1000 <= l)%Z -> (h <= 900)%Z -> Q s l (h + 1) (a + b)%float (a' + b')%float.
Proof.
  intros Ha Hb Hs Hl Hh. assert (K : Qn s l 1 h a a') by (unfold Q in Ha; unfold Qn; cbn [INR]; rewrite Rmult_1_l; exact Ha).
  pose proof (Qn_add s l h 1 a a' b b' K Hb Hs ltac:(lia) Hl Hh) as P. unfold Qn in P. unfold Q. replace (bpow radix2 (h + 1)) with (INR 2 * bpow radix2 h); [exact P|].
  rewrite Z.add_comm, bpow_plus. reflexivity.
Qed.
Lemma Q_zero s l h : Q s l h (f_ofZ 0) (f_ofZ 0).
Proof. destruct (fofZ_ok 0 ltac:(lia)) as [F V]. pose proof (bpow_gt_0 radix2 h). unfold Q. rewrite V. repeat split; auto; lra. Qed.
Lemma Q_scaled l h a b : Q c l h a b -> scaled a b. Proof. intros (F1 & F2 & E & _). split; [exact F1|]. split; assumption. Qed.
End Pair.

(** ** Rows with at most one term are dropped *)
Definition big_rel (D : float -> float -> Prop) (T : float -> Prop) (B : Z) (r r' : @result float) : Prop :=
  result_rel D r r' /\ Forall T (fst (fst (fst r))) /\ Forall (fun n => (1 < n <= B)%Z) (snd r).
Lemma mask_sub {X} (P : X -> Prop) b (l : list X) m : mask_select b l = Ok m -> Forall P l -> Forall P m.
Proof.
  unfold mask_select. destruct (Nat.eqb _ _); [|discriminate]. intros E H. apply (f_equal (fun r => match r with Ok u => u | Err _ => [] end)) in E. subst m.
  revert b. induction H as [|a l Ha Hl IH]; intros [|[|] b]; cbn [mask_zip]; auto.
Qed.
Lemma mask_ns (ns : list Z) B m : mask_select (map (fun n => (1 <? n)%Z) ns) ns = Ok m -> Forall (fun n => (n <= B)%Z) ns -> Forall (fun n => (1 < n <= B)%Z) m.
Proof.
  unfold mask_select. destruct (Nat.eqb _ _); [|discriminate]. intros E H. apply (f_equal (fun r => match r with Ok u => u | Err _ => [] end)) in E. subst m.
  induction H as [|a l Ha Hl IH]; cbn [map mask_zip]; [constructor|]. destruct (Z.ltb_spec 1 a); [|exact IH]. constructor; [lia|exact IH].
Qed.
Lemma run_rows_big (D : float -> float -> Prop) (T : float -> Prop) B calc calc' ms (ts : list float) : Forall T ts ->
  (forall m, In m ms -> exists d e d' e' n, calc (Z.to_nat m) = Ok (d, e, n) /\ calc' (Z.to_nat m) = Ok (d', e', n) /\ (n <= B)%Z /\ ((1 < n)%Z -> D d d' /\ D e e')) ->
  rres (big_rel D T B) (run_rows calc ms ts) (run_rows calc' ms ts).
Proof.
  intros HT H. unfold run_rows.
  assert (K : exists rows rows', mapM (fun mj => calc (Z.to_nat mj)) ms = Ok rows /\ mapM (fun mj => calc' (Z.to_nat mj)) ms = Ok rows' /\
    Forall2 (fun r r' => snd r = snd r' /\ ((1 < snd r)%Z -> D (fst (fst r)) (fst (fst r')) /\ D (snd (fst r)) (snd (fst r')))) rows rows' /\ Forall (fun n => (n <= B)%Z) (map snd rows)).
  { clear HT. induction ms as [|m ms IH]; [exists [], []; repeat split; constructor|]. destruct (H m (or_introl eq_refl)) as (d & e & d' & e' & n & E1 & E2 & HB & HD).
    destruct IH as (rows & rows' & R1 & R2 & R3 & R4); [intros; apply H; now right|]. exists ((d, e, n) :: rows), ((d', e', n) :: rows'). cbn [mapM]. rewrite E1, E2, R1, R2. cbn [bind]. split; [reflexivity|]. split; [reflexivity|]. split; [constructor; [|exact R3]; split; [reflexivity|exact HD]|]. constructor; assumption. }
  destruct K as (rows & rows' & -> & -> & K & KB). cbn [bind].
  assert (En : map snd rows' = map snd rows) by (clear H KB; induction K as [|a b l l' [E _] Hl IH]; cbn; [reflexivity|f_equal; auto]). rewrite En.
  set (big := map (fun n => (1 <? n)%Z) (map snd rows)).
  assert (M : forall p, (p = (fun r : float * float * Z => fst (fst r)) \/ p = (fun r => snd (fst r))) -> rres (Forall2 D) (mask_select big (map p rows)) (mask_select big (map p rows'))).
  { intros p Hp. unfold mask_select. assert (El : len rows' = len rows) by (rewrite <- (map_length snd rows'), En; apply map_length). rewrite !map_length, El. unfold big. rewrite !map_length, Nat.eqb_refl. cbn [rres].
    clear -K Hp. induction K as [|a b l l' [E HD] Hl IH]; cbn [map mask_zip]; [constructor|]. destruct (Z.ltb_spec 1 (snd a)) as [L|L]; [|exact IH]. constructor; [|exact IH]. destruct (HD L). destruct Hp as [->| ->]; assumption. }
  unfold remove_small_ns. fold big. eapply rres_bind with (P := fun u u' => u = u' /\ Forall T u).
  { destruct (mask_select big ts) as [u|e] eqn:Eu; [|reflexivity]. split; [reflexivity|]. now apply (mask_sub T big ts). }
  intros u u' [<- HU].
  eapply rres_bind with (P := Forall2 D); [apply M; now left|]. intros v v' Hv.
  eapply rres_bind with (P := fun n n' => n = n' /\ Forall (fun n => (1 < n <= B)%Z) n).
  { destruct (mask_select big (map snd rows)) as [n|e] eqn:Eu; [|reflexivity]. split; [reflexivity|]. now apply (mask_ns (map snd rows)). }
  intros n n' [<- HN].
  eapply rres_bind with (P := errs_rel D); [eapply rres_bind with (P := Forall2 D); [apply M; now right|]; intros w w' Hw; exact Hw|].
  intros f f' Hf. destruct Hv; cbn; [reflexivity|]. unfold big_rel. cbn. repeat split; auto.
Qed.
