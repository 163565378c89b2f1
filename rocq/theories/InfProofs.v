(** * One infinite sample in the closed forms of the deviations. *)
From Coq Require Import String List ZArith Lia Arith Bool Floats.
From Coq Require Import Reals Lra Psatz.
From Flocq Require Import Core.Core.
From Verif Require Import Base Num NpList ModelCore ModelDev ListFacts GenericProofs NanProofs NumX SpecialProofs.
Import ListNotations.
Local Notation len := List.length.
Local Open Scope num_scope.

Lemma bpow_1 e : (bpow radix2 e * 2 = bpow radix2 (e + 1))%R.
Proof. rewrite bpow_plus. reflexivity. Qed.
Lemma IZR_bpow l : (0 <= l)%Z -> IZR (2 ^ l) = bpow radix2 l.
Proof. intros H. now rewrite (IZR_Zpower radix2). Qed.

Section Inf.
Context {A : Type} {NA : Num A} (sp : A -> ext) (rd : R -> R) (SP : special sp rd).

(** finite with |a| <= n 2^k *)
Definition below (n k : Z) (a : A) : Prop := exists r, sp a = Fin r /\ (Rabs r <= IZR n * bpow radix2 k)%R.
(** 2^-l <= a <= 2^l *)
Definition within (l : Z) (a : A) : Prop := exists r, sp a = Fin r /\ (bpow radix2 (- l) <= r <= bpow radix2 l)%R.
Definition pinf (a : A) : Prop := sp a = Inf false.
Definition isnn (a : A) : Prop := nonneg (sp a).

Lemma rd_abs n k x : (0 <= n <= 2 ^ 53)%Z -> (-1000 <= k <= 1000)%Z -> (Rabs x <= IZR n * bpow radix2 k)%R -> (Rabs (rd x) <= IZR n * bpow radix2 k)%R.
Proof using SP.
  intros Hn Hk H. apply Rabs_le in H || idtac. apply Rabs_le. apply Rabs_le_inv in H. split.
  - replace (- (IZR n * bpow radix2 k))%R with (rd (IZR (- n) * bpow radix2 k)).
    + apply (rd_le _ _ SP). rewrite opp_IZR. lra.
    + rewrite (rd_fix _ _ SP) by lia. rewrite opp_IZR. lra.
  - rewrite <- (rd_fix _ _ SP n k) by lia. apply (rd_le _ _ SP). lra.
Qed.
Lemma rd_bp e : (-1000 <= e <= 1000)%Z -> rd (bpow radix2 e) = bpow radix2 e.
Proof using SP. intros H. pose proof (rd_fix _ _ SP 1 e ltac:(lia) H) as E. now rewrite Rmult_1_l in E. Qed.
Lemma rd_within l x : (0 <= l <= 1000)%Z -> (bpow radix2 (- l) <= x <= bpow radix2 l)%R -> (bpow radix2 (- l) <= rd x <= bpow radix2 l)%R.
Proof using SP.
  intros Hl [H1 H2]. split.
  - rewrite <- (rd_bp (- l)) by lia. now apply (rd_le _ _ SP).
  - rewrite <- (rd_bp l) by lia. now apply (rd_le _ _ SP).
Qed.
Lemma big n k x : (0 <= n <= 2 ^ 53)%Z -> (0 <= k <= 900)%Z -> (Rabs x <= IZR n * bpow radix2 k)%R -> (Rabs x <= bpow radix2 1000)%R.
Proof.
  intros Hn Hk H. eapply Rle_trans; [exact H|]. apply Rle_trans with (bpow radix2 53 * bpow radix2 k)%R.
  - apply Rmult_le_compat_r; [apply bpow_ge_0|]. rewrite <- IZR_bpow by lia. apply IZR_le. lia.
  - rewrite <- bpow_plus. apply bpow_le. lia.
Qed.

Lemma below_le n n' k a : (n <= n')%Z -> below n k a -> below n' k a.
Proof. intros H (r & E & B). exists r. split; [exact E|]. eapply Rle_trans; [exact B|]. apply Rmult_le_compat_r; [apply bpow_ge_0|]. now apply IZR_le. Qed.
Lemma below_add n n' k a b : (0 <= n)%Z -> (0 <= n')%Z -> (n + n' <= 2 ^ 53)%Z -> (0 <= k <= 900)%Z -> below n k a -> below n' k b -> below (n + n') k (a + b).
Proof using SP.
  intros H1 H2 H3 Hk (r & E & B) (r' & E' & B').
  assert (Hb : (Rabs (r + r') <= IZR (n + n') * bpow radix2 k)%R).
  { rewrite plus_IZR. eapply Rle_trans; [apply Rabs_triang|]. lra. }
  exists (rd (r + r')). split; [apply (sp_fadd _ _ SP); auto; apply (big (n + n') k); auto; lia|]. apply rd_abs; auto; lia.
Qed.
Lemma below_sub n n' k a b : (0 <= n)%Z -> (0 <= n')%Z -> (n + n' <= 2 ^ 53)%Z -> (0 <= k <= 900)%Z -> below n k a -> below n' k b -> below (n + n') k (a - b).
Proof using SP.
  intros H1 H2 H3 Hk (r & E & B) (r' & E' & B').
  assert (Hb : (Rabs (r - r') <= IZR (n + n') * bpow radix2 k)%R).
  { rewrite plus_IZR. eapply Rle_trans; [apply Rabs_triang|]. rewrite Rabs_Ropp. lra. }
  exists (rd (r - r')). split; [apply (sp_fsub _ _ SP); auto; apply (big (n + n') k); auto; lia|]. apply rd_abs; auto; lia.
Qed.
Lemma sp_int z : (Z.abs z <= 2 ^ 53)%Z -> sp (ofZ z) = Fin (IZR z).
Proof using SP.
  intros H. rewrite (sp_ofZ _ _ SP) by (apply Z.le_trans with (1 := H); apply Z.pow_le_mono_r; lia). f_equal.
  pose proof (rd_fix _ _ SP z 0 H ltac:(lia)) as E. cbn [bpow] in E. now rewrite Rmult_1_r in E.
Qed.
Lemma below_scal c n k a : (0 <= n)%Z -> (0 < c <= 2 ^ 53)%Z -> (c * n <= 2 ^ 53)%Z -> (0 <= k <= 900)%Z -> below n k a -> below (c * n) k (ofZ c * a).
Proof using SP.
  intros H1 H2 H3 Hk (r & E & B).
  assert (Hb : (Rabs (IZR c * r) <= IZR (c * n) * bpow radix2 k)%R).
  { rewrite mult_IZR, Rabs_mult, (Rabs_pos_eq (IZR c)) by (apply IZR_le; lia). rewrite Rmult_assoc. apply Rmult_le_compat_l; [apply IZR_le; lia|exact B]. }
  exists (rd (IZR c * r)). split; [apply (sp_fmul _ _ SP); auto; [apply sp_int; lia|apply (big (c * n) k); auto; lia]|]. apply rd_abs; auto; lia.
Qed.
Lemma below_zero k : below 0 k (ofZ 0).
Proof using SP. exists 0%R. split; [apply sp_int; lia|]. rewrite Rabs_R0. lra. Qed.
Lemma below_nonfin n k a : below n k a -> ~ nonfinite (sp a).
Proof. intros (r & E & _). unfold nonfinite. rewrite E. discriminate. Qed.

(** infinite against finite *)
Lemma inf_add_l s n k a b : sp a = Inf s -> below n k b -> sp (a + b) = Inf s.
Proof using SP. intros Ha (r & E & _). rewrite (sp_add _ _ SP), Ha, E by (left; unfold nonfinite; now rewrite Ha). reflexivity. Qed.
Lemma inf_add_r s n k a b : below n k a -> sp b = Inf s -> sp (a + b) = Inf s.
Proof using SP. intros (r & E & _) Hb. rewrite (sp_add _ _ SP), Hb, E by (right; unfold nonfinite; now rewrite Hb). reflexivity. Qed.
Lemma inf_sub_l s n k a b : sp a = Inf s -> below n k b -> sp (a - b) = Inf s.
Proof using SP. intros Ha (r & E & _). rewrite (sp_sub _ _ SP), Ha, E by (left; unfold nonfinite; now rewrite Ha). reflexivity. Qed.
Lemma inf_sub_r s n k a b : below n k a -> sp b = Inf s -> sp (a - b) = Inf (negb s).
Proof using SP. intros (r & E & _) Hb. rewrite (sp_sub _ _ SP), Hb, E by (right; unfold nonfinite; now rewrite Hb). reflexivity. Qed.
Lemma inf_cancel s a b : sp a = Inf s -> sp b = Inf (negb s) -> sp (a + b) = NaN.
Proof using SP. intros Ha Hb. rewrite (sp_add _ _ SP), Ha, Hb by (left; unfold nonfinite; now rewrite Ha). destruct s; reflexivity. Qed.
Lemma x_sign_pos r : (0 < r)%R -> x_sign r = Some false.
Proof. intros H. unfold x_sign. destruct (Rlt_dec r 0); [lra|]. destruct (Rlt_dec 0 r); [reflexivity|contradiction]. Qed.
Lemma x_sign_neg r : (r < 0)%R -> x_sign r = Some true.
Proof. intros H. unfold x_sign. destruct (Rlt_dec r 0); [reflexivity|contradiction]. Qed.
Lemma inf_scal s c a : (0 < c <= 2 ^ 53)%Z -> sp a = Inf s -> sp (ofZ c * a) = Inf s.
Proof using SP.
  intros Hc Ha. rewrite (sp_mul _ _ SP), Ha, sp_int by (try lia; right; unfold nonfinite; now rewrite Ha). cbn. rewrite x_sign_pos by (apply IZR_lt; lia).
  now rewrite xorb_false_r.
Qed.
Lemma inf_sq s a : sp a = Inf s -> pinf (nsq a).
Proof using SP. intros Ha. unfold pinf, nsq. rewrite (sp_mul _ _ SP), Ha by (left; unfold nonfinite; now rewrite Ha). cbn. now rewrite xorb_nilpotent. Qed.
Lemma nn_sq n k a : below n k a -> isnn (nsq a).
Proof using SP. intros (r & E & _). apply (sp_sqnn _ _ SP a r E). Qed.
Lemma pinf_nn a : pinf a -> isnn a.
Proof. unfold isnn. now intros ->. Qed.
Lemma nn_add a b : isnn a -> isnn b -> isnn (a + b) /\ (pinf a \/ pinf b -> pinf (a + b)).
Proof using SP.
  unfold isnn, pinf. intros Ha Hb. destruct (sp a) as [x|s|] eqn:Ea, (sp b) as [y|t|] eqn:Eb; cbn in Ha, Hb; try contradiction.
  - split; [now apply (sp_addnn _ _ SP a b x y)|]. intros [C|C]; discriminate.
  - subst t. rewrite (sp_add _ _ SP), Ea, Eb by (right; unfold nonfinite; now rewrite Eb). split; reflexivity.
  - subst s. rewrite (sp_add _ _ SP), Ea, Eb by (left; unfold nonfinite; now rewrite Ea). split; reflexivity.
  - subst s t. rewrite (sp_add _ _ SP), Ea, Eb by (left; unfold nonfinite; now rewrite Ea). split; reflexivity.
Qed.

(** positive factors *)
Lemma within_pos l a : within l a -> exists r, sp a = Fin r /\ (0 < r)%R.
Proof. intros (r & E & H & _). exists r. split; [exact E|]. pose proof (bpow_gt_0 radix2 (- l)). lra. Qed.
Lemma pinf_div l a b : pinf a -> within l b -> pinf (a / b).
Proof using SP.
  unfold pinf. intros Ha Hb. apply within_pos in Hb as (r & E & Hr). rewrite (sp_div _ _ SP).
  - rewrite Ha, E. cbn. now rewrite x_sign_pos.
  - left. unfold nonfinite. now rewrite Ha.
  - rewrite E. intros C. injection C as C. lra.
Qed.
Lemma pinf_mul l a b : pinf a -> within l b -> pinf (a * b).
Proof using SP.
  unfold pinf. intros Ha Hb. apply within_pos in Hb as (r & E & Hr). rewrite (sp_mul _ _ SP) by (left; unfold nonfinite; now rewrite Ha).
  rewrite Ha, E. cbn. now rewrite x_sign_pos.
Qed.
Lemma pinf_mul_l l a b : within l a -> pinf b -> pinf (a * b).
Proof using SP.
  unfold pinf. intros Ha Hb. apply within_pos in Ha as (r & E & Hr). rewrite (sp_mul _ _ SP) by (right; unfold nonfinite; now rewrite Hb).
  rewrite Hb, E. cbn. now rewrite x_sign_pos.
Qed.
Lemma pinf_sqrt a : pinf a -> pinf (nsqrt a).
Proof using SP. unfold pinf. intros Ha. rewrite (sp_sqrt _ _ SP), Ha by (unfold nonfinite; now rewrite Ha). reflexivity. Qed.
Lemma within_mul l l' a b : (0 <= l)%Z -> (0 <= l')%Z -> (l + l' <= 1000)%Z -> within l a -> within l' b -> within (l + l') (a * b).
Proof using SP.
  intros H1 H2 H3 (r & E & B1 & B2) (r' & E' & B1' & B2').
  pose proof (bpow_gt_0 radix2 (- l)). pose proof (bpow_gt_0 radix2 (- l')).
  assert (Hb : (bpow radix2 (- (l + l')) <= r * r' <= bpow radix2 (l + l'))%R).
  { replace (- (l + l'))%Z with (- l + - l')%Z by lia. rewrite !bpow_plus. split; apply Rmult_le_compat; lra. }
  exists (rd (r * r')). split; [|apply rd_within; [lia|exact Hb]]. apply (sp_fmul _ _ SP); auto.
  rewrite Rabs_pos_eq by (apply Rmult_le_pos; lra). eapply Rle_trans; [apply Hb|]. apply bpow_le. lia.
Qed.
Lemma within_div l l' a b : (0 <= l)%Z -> (0 <= l')%Z -> (l + l' <= 1000)%Z -> within l a -> within l' b -> within (l + l') (a / b).
Proof using SP.
  intros H1 H2 H3 (r & E & B1 & B2) (r' & E' & B1' & B2').
  pose proof (bpow_gt_0 radix2 (- l)). pose proof (bpow_gt_0 radix2 (- l')).
  assert (Hi : (bpow radix2 (- l') <= / r' <= bpow radix2 l')%R).
  { split.
    - rewrite bpow_opp. apply Rinv_le_contravar; lra.
    - replace (bpow radix2 l') with (/ bpow radix2 (- l'))%R by (rewrite bpow_opp; apply Rinv_inv). apply Rinv_le_contravar; lra. }
  assert (Hb : (bpow radix2 (- (l + l')) <= r / r' <= bpow radix2 (l + l'))%R).
  { replace (- (l + l'))%Z with (- l + - l')%Z by lia. rewrite !bpow_plus. unfold Rdiv. split; apply Rmult_le_compat; lra. }
  exists (rd (r / r')). split; [|apply rd_within; [lia|exact Hb]]. apply (sp_fdiv _ _ SP); auto; [lra|].
  rewrite Rabs_pos_eq by (unfold Rdiv; apply Rmult_le_pos; lra). eapply Rle_trans; [apply Hb|]. apply bpow_le. lia.
Qed.
Lemma within_ofZ l z : (0 <= l <= 1000)%Z -> (1 <= z <= 2 ^ l)%Z -> within l (ofZ z).
Proof using SP.
  intros Hl Hz. exists (rd (IZR z)). split.
  - apply (sp_ofZ _ _ SP). assert (2 ^ l <= 2 ^ 1000)%Z by (apply Z.pow_le_mono_r; lia). lia.
  - apply rd_within; [exact Hl|]. split.
    + apply Rle_trans with 1%R; [apply (bpow_le radix2 (- l) 0); lia|apply IZR_le; lia].
    + rewrite <- IZR_bpow by lia. apply IZR_le. lia.
Qed.
Lemma within_ofN l n : (0 <= l <= 1000)%Z -> (1 <= n)%nat -> (Z.of_nat n <= 2 ^ l)%Z -> within l (ofN n).
Proof using SP. intros. apply within_ofZ; lia. Qed.
Lemma within_sqrt l a : (0 <= l <= 1000)%Z -> within l a -> within l (nsqrt a).
Proof using SP.
  intros Hl (r & E & B1 & B2). pose proof (bpow_gt_0 radix2 (- l)). exists (rd (sqrt r)). split; [apply (sp_fsqrt _ _ SP); [exact E|lra]|].
  apply rd_within; [exact Hl|].
  assert (Hlo : (bpow radix2 (- l) <= 1)%R) by (apply (bpow_le radix2 (- l) 0); lia).
  assert (Hhi : (1 <= bpow radix2 l)%R) by (apply (bpow_le radix2 0 l); lia).
  split.
  - apply Rsqr_incr_0; [|lra|apply sqrt_pos]. rewrite Rsqr_sqrt by lra. unfold Rsqr. nra.
  - apply Rsqr_incr_0; [|apply sqrt_pos|lra]. rewrite Rsqr_sqrt by lra. unfold Rsqr. nra.
Qed.

(** ** sums *)
Lemma asum_snoc l a : asum (l ++ [a]) = asum l + a.
Proof. unfold asum. now rewrite fold_left_app. Qed.
Lemma asum_below n k c f : (0 <= c)%Z -> (c * Z.of_nat n <= 2 ^ 53)%Z -> (0 <= k <= 900)%Z ->
  (forall i, (i < n)%nat -> below c k (f i)) -> below (c * Z.of_nat n) k (asum (tab n f)).
Proof using SP.
  intros Hc Hn Hk. induction n as [|n IH]; intros H.
  - rewrite Z.mul_0_r. apply below_zero.
  - rewrite tab_snoc, asum_snoc. replace (c * Z.of_nat (S n))%Z with (c * Z.of_nat n + c)%Z by lia. apply below_add; try lia.
    + apply IH; [lia|]. auto.
    + apply H. lia.
Qed.
Lemma asum_inf n k c f j s : (0 <= c)%Z -> (c * Z.of_nat n <= 2 ^ 53)%Z -> (0 <= k <= 900)%Z -> (j < n)%nat ->
  sp (f j) = Inf s -> (forall i, (i < n)%nat -> i <> j -> below c k (f i)) -> sp (asum (tab n f)) = Inf s.
Proof using SP.
  intros Hc Hn Hk Hj Hf. induction n as [|n IH]; intros H; [lia|]. rewrite tab_snoc, asum_snoc. destruct (Nat.eq_dec j n) as [->|N].
  - apply (inf_add_r s (c * Z.of_nat n) k); [|exact Hf]. apply asum_below; try lia. intros i Hi. apply H; lia.
  - apply (inf_add_l s c k); [apply IH; try lia; intros; apply H; lia|]. apply H; lia.
Qed.
Lemma asum_nn n f : (forall i, (i < n)%nat -> isnn (f i)) -> isnn (asum (tab n f)) /\ (forall j, (j < n)%nat -> pinf (f j) -> pinf (asum (tab n f))).
Proof using SP.
  induction n as [|n IH]; intros H.
  - split; [|intros; lia]. unfold isnn. cbn. rewrite sp_int by lia. cbn. lra.
  - rewrite tab_snoc, asum_snoc. destruct IH as [I1 I2]; [auto|]. destruct (nn_add (asum (tab n f)) (f n) I1 (H n ltac:(lia))) as [N1 N2].
    split; [exact N1|]. intros j Hj Hp. apply N2. destruct (Nat.eq_dec j n) as [->|C]; [now right|]. left. apply (I2 j); [lia|exact Hp].
Qed.
Lemma sumsq_pinf n k c g j s : (j < n)%nat -> sp (g j) = Inf s -> (forall i, (i < n)%nat -> (exists t, sp (g i) = Inf t) \/ below c k (g i)) ->
  pinf (sumsq (tab n g)).
Proof using SP.
  intros Hj Hs H. unfold sumsq. rewrite map_tab. destruct (asum_nn n (fun i => nsq (g i))) as [_ I2].
  - intros i Hi. destruct (H i Hi) as [[t Ht]|B]; [apply pinf_nn, (inf_sq t), Ht|apply (nn_sq c k), B].
  - apply (I2 j Hj). apply (inf_sq s), Hs.
Qed.

(** maxima and minima *)
Lemma nonan_fin n k a : below n k a -> nisnan a = false.
Proof using SP. intros (r & E & _). now rewrite (sp_nan _ _ SP), E. Qed.
Lemma nonan_inf s a : sp a = Inf s -> nisnan a = false.
Proof using SP. intros E. now rewrite (sp_nan _ _ SP), E. Qed.
Definition fin_or (s : bool) (n k : Z) (a : A) : Prop := below n k a \/ sp a = Inf s.
Lemma max_pinf n k a b : fin_or false n k a -> fin_or false n k b ->
  fin_or false n k (nmax2 a b) /\ (pinf a \/ pinf b -> pinf (nmax2 a b)).
Proof using SP.
  intros Ha Hb. unfold nmax2.
  assert (Na : nisnan a = false) by (destruct Ha as [H|H]; [eapply nonan_fin|eapply nonan_inf]; exact H).
  assert (Nb : nisnan b = false) by (destruct Hb as [H|H]; [eapply nonan_fin|eapply nonan_inf]; exact H).
  rewrite Na, Nb. split; [destruct (nltb a b); assumption|]. unfold pinf.
  intros H. rewrite (sp_ltb _ _ SP). destruct Ha as [(r & Ea & _)|Ea], Hb as [(r' & Eb & _)|Eb]; rewrite Ea, Eb in *; cbn; try assumption.
  - destruct H; discriminate.
Qed.
Lemma max_minf n k a b : fin_or true n k a -> fin_or true n k b ->
  fin_or true n k (nmax2 a b) /\ (below n k a \/ below n k b -> below n k (nmax2 a b)).
Proof using SP.
  intros Ha Hb. unfold nmax2.
  assert (Na : nisnan a = false) by (destruct Ha as [H|H]; [eapply nonan_fin|eapply nonan_inf]; exact H).
  assert (Nb : nisnan b = false) by (destruct Hb as [H|H]; [eapply nonan_fin|eapply nonan_inf]; exact H).
  rewrite Na, Nb. split; [destruct (nltb a b); assumption|].
  intros H. rewrite (sp_ltb _ _ SP). destruct Ha as [Fa|Ea], Hb as [Fb|Eb].
  - destruct (x_ltb _ _); assumption.
  - destruct Fa as (r & Ea & Ba) eqn:Q. rewrite Ea, Eb. cbn. exact Fa.
  - destruct Fb as (r & Eb & Bb) eqn:Q. rewrite Ea, Eb. cbn. exact Fb.
  - exfalso. destruct H as [(r & E & _)|(r & E & _)]; congruence.
Qed.
Lemma min_minf n k a b : fin_or true n k a -> fin_or true n k b ->
  fin_or true n k (nmin2 a b) /\ (sp a = Inf true \/ sp b = Inf true -> sp (nmin2 a b) = Inf true).
Proof using SP.
  intros Ha Hb. unfold nmin2.
  assert (Na : nisnan a = false) by (destruct Ha as [H|H]; [eapply nonan_fin|eapply nonan_inf]; exact H).
  assert (Nb : nisnan b = false) by (destruct Hb as [H|H]; [eapply nonan_fin|eapply nonan_inf]; exact H).
  rewrite Na, Nb. split; [destruct (nltb b a); assumption|].
  intros H. rewrite (sp_ltb _ _ SP). destruct Ha as [(r & Ea & _)|Ea], Hb as [(r' & Eb & _)|Eb]; rewrite Ea, Eb in *; cbn; try assumption.
  - destruct H; discriminate.
Qed.
Lemma min_pinf n k a b : fin_or false n k a -> fin_or false n k b ->
  fin_or false n k (nmin2 a b) /\ (below n k a \/ below n k b -> below n k (nmin2 a b)).
Proof using SP.
  intros Ha Hb. unfold nmin2.
  assert (Na : nisnan a = false) by (destruct Ha as [H|H]; [eapply nonan_fin|eapply nonan_inf]; exact H).
  assert (Nb : nisnan b = false) by (destruct Hb as [H|H]; [eapply nonan_fin|eapply nonan_inf]; exact H).
  rewrite Na, Nb. split; [destruct (nltb b a); assumption|].
  intros H. rewrite (sp_ltb _ _ SP). destruct Ha as [Fa|Ea], Hb as [Fb|Eb].
  - destruct (x_ltb _ _); assumption.
  - destruct Fa as (r & Ea & Ba) eqn:Q. rewrite Ea, Eb. cbn. exact Fa.
  - destruct Fb as (r & Eb & Bb) eqn:Q. rewrite Ea, Eb. cbn. exact Fb.
  - exfalso. destruct H as [(r & E & _)|(r & E & _)]; congruence.
Qed.
Lemma fold_two {P Q : A -> Prop} (op : A -> A -> A) : (forall a b, P a -> P b -> P (op a b) /\ (Q a \/ Q b -> Q (op a b))) ->
  forall l a, P a -> Forall P l -> P (fold_left op l a) /\ (Q a \/ Exists Q l -> Q (fold_left op l a)).
Proof.
  intros H. induction l as [|b l IH]; intros a Ha Hl; cbn [fold_left].
  - split; [exact Ha|]. intros [C|C]; [exact C|inversion C].
  - inversion Hl as [|? ? Hb Hl']; subst. destruct (H a b Ha Hb) as [H1 H2]. destruct (IH (op a b) H1 Hl') as [H3 H4]. split; [exact H3|].
    intros [C|C]; apply H4; [left; auto|]. apply Exists_cons in C as [C|C]; [left; auto|now right].
Qed.

(** ** a record with one infinite sample *)
Context (x : list A) (rate : A) (p : nat) (s : bool).
Let val i := nth i x (ofZ 0).
Hypothesis Hp : (p < len x)%nat.
Hypothesis Hinf : sp (val p) = Inf s.
Hypothesis Hfin : forall i, i <> p -> below 1 800 (val i).
Hypothesis Hlen : (Z.of_nat (len x) <= 2 ^ 49)%Z.
Hypothesis Hrate : within 100 rate.

Ltac fins := repeat first [ assumption | apply Hfin; lia
  | match goal with
    | |- below _ _ (_ - _) => eapply below_sub
    | |- below _ _ (_ + _) => eapply below_add
    | |- below _ _ (ofZ _ * _) => eapply below_scal
    end | lia ].

Lemma sdiff_fin m t i : p <> (2 * m + i * t)%nat -> p <> (1 * m + i * t)%nat -> p <> (0 + i * t)%nat -> below 4 800 (sdiff x m t i).
Proof using All.
  intros H1 H2 H3. unfold sdiff. change 4%Z with (1 + 2 * 1 + 1)%Z. fold (val (2 * m + i * t)) (val (1 * m + i * t)) (val (0 + i * t)).
  apply below_add; [lia|lia|lia|lia| |apply Hfin; lia]. apply below_sub; [lia|lia|lia|lia|apply Hfin; lia|].
  apply below_scal; [lia|lia|lia|lia|apply Hfin; lia].
Qed.
Lemma sdiff_inf m t i : (1 <= m)%nat ->
  ((p = 2 * m + i * t)%nat -> sp (sdiff x m t i) = Inf s) /\ ((p = 1 * m + i * t)%nat -> sp (sdiff x m t i) = Inf (negb s)) /\
  ((p = 0 + i * t)%nat -> sp (sdiff x m t i) = Inf s).
Proof using All.
  intros Hm. unfold sdiff. fold (val (2 * m + i * t)) (val (1 * m + i * t)) (val (0 + i * t)). split; [|split]; intros E.
  - apply (inf_add_l s 1 800); [|apply Hfin; lia]. apply (inf_sub_l s (2 * 1) 800); [now rewrite <- E|].
    apply below_scal; [lia|lia|lia|lia|apply Hfin; lia].
  - apply (inf_add_l (negb s) 1 800); [|apply Hfin; lia]. apply (inf_sub_r s 1 800); [apply Hfin; lia|].
    apply inf_scal; [lia|]. now rewrite <- E.
  - apply (inf_add_r s (1 + 2 * 1) 800); [|now rewrite <- E]. apply below_sub; [lia|lia|lia|lia|apply Hfin; lia|].
    apply below_scal; [lia|lia|lia|lia|apply Hfin; lia].
Qed.
Lemma tdiff_fin m t i : p <> (3 * m + i * t)%nat -> p <> (2 * m + i * t)%nat -> p <> (1 * m + i * t)%nat -> p <> (0 + i * t)%nat -> below 8 800 (tdiff x m t i).
Proof using All.
  intros H0 H1 H2 H3. unfold tdiff. change 8%Z with (1 + 3 * 1 + 3 * 1 + 1)%Z. fold (val (3 * m + i * t)) (val (2 * m + i * t)) (val (1 * m + i * t)) (val (0 + i * t)).
  apply below_sub; [lia|lia|lia|lia| |apply Hfin; lia]. apply below_add; [lia|lia|lia|lia| |].
  - apply below_sub; [lia|lia|lia|lia|apply Hfin; lia|]. apply below_scal; [lia|lia|lia|lia|apply Hfin; lia].
  - apply below_scal; [lia|lia|lia|lia|apply Hfin; lia].
Qed.
Lemma tdiff_inf m t i : (1 <= m)%nat ->
  ((p = 3 * m + i * t)%nat -> sp (tdiff x m t i) = Inf s) /\ ((p = 2 * m + i * t)%nat -> sp (tdiff x m t i) = Inf (negb s)) /\
  ((p = 1 * m + i * t)%nat -> sp (tdiff x m t i) = Inf s) /\ ((p = 0 + i * t)%nat -> sp (tdiff x m t i) = Inf (negb s)).
Proof using All.
  intros Hm. unfold tdiff. fold (val (3 * m + i * t)) (val (2 * m + i * t)) (val (1 * m + i * t)) (val (0 + i * t)).
  assert (F3 : forall q, q <> p -> below (3 * 1) 800 (ofZ 3 * val q)) by (intros q Hq; apply below_scal; [lia|lia|lia|lia|now apply Hfin]).
  split; [|split; [|split]]; intros E.
  - apply (inf_sub_l s 1 800); [|apply Hfin; lia]. apply (inf_add_l s (3 * 1) 800); [|apply F3; lia].
    apply (inf_sub_l s (3 * 1) 800); [now rewrite <- E|apply F3; lia].
  - apply (inf_sub_l (negb s) 1 800); [|apply Hfin; lia]. apply (inf_add_l (negb s) (3 * 1) 800); [|apply F3; lia].
    apply (inf_sub_r s 1 800); [apply Hfin; lia|]. apply inf_scal; [lia|now rewrite <- E].
  - apply (inf_sub_l s 1 800); [|apply Hfin; lia]. apply (inf_add_r s (1 + 3 * 1) 800).
    + apply below_sub; [lia|lia|lia|lia|apply Hfin; lia|apply F3; lia].
    + apply inf_scal; [lia|now rewrite <- E].
  - apply (inf_sub_r s (1 + 3 * 1 + 3 * 1) 800); [|now rewrite <- E]. apply below_add; [lia|lia|lia|lia| |apply F3; lia].
    apply below_sub; [lia|lia|lia|lia|apply Hfin; lia|apply F3; lia].
Qed.

Lemma adev_pinf m t i : (1 <= m < len x)%nat -> (1 <= t)%nat -> (i < stride_count (len x) (2 * m) t)%nat ->
  (p = 2 * m + i * t \/ p = 1 * m + i * t \/ p = 0 + i * t)%nat -> pinf (adev_val x rate m t).
Proof using All.
  intros Hm Ht Hi Hu. assert (Hcnt : (stride_count (len x) (2 * m) t <= len x)%nat).
  { destruct (Nat.le_gt_cases (stride_count (len x) (2 * m) t) (len x)) as [L|L]; [exact L|]. apply stride_count_lt in L; [nia|exact Ht]. }
  assert (Hs : pinf (sumsq (tab (stride_count (len x) (2 * m) t) (sdiff x m t)))).
  { assert (Hd : forall j, (exists u, sp (sdiff x m t j) = Inf u) \/ below 4 800 (sdiff x m t j)).
    { intros j. destruct (sdiff_inf m t j ltac:(lia)) as (S1 & S2 & S3).
      destruct (Nat.eq_dec p (2 * m + j * t)) as [E1|N1]; [left; eexists; now apply S1|].
      destruct (Nat.eq_dec p (1 * m + j * t)) as [E2|N2]; [left; eexists; now apply S2|].
      destruct (Nat.eq_dec p (0 + j * t)) as [E3|N3]; [left; eexists; now apply S3|]. right. now apply sdiff_fin. }
    destruct (sdiff_inf m t i ltac:(lia)) as (S1 & S2 & S3).
    assert (exists u, sp (sdiff x m t i) = Inf u) as [u Hu'] by (destruct Hu as [E|[E|E]]; eexists; auto).
    apply (sumsq_pinf _ 800 4 _ i u Hi Hu'). intros j _. apply Hd. }
  assert (Hc : (1 <= adev_cnt (len x) m t <= len x)%nat).
  { unfold adev_cnt. destruct (Nat.eqb_spec (stride_count (len x) (2 * m) t) 0); lia. }
  unfold adev_val. apply (pinf_mul 100); [|exact Hrate]. apply (pinf_div 50); [|apply within_ofN; lia].
  apply pinf_sqrt. apply (pinf_div (1 + 50)); [exact Hs|]. apply within_mul; [lia|lia|lia|apply within_ofZ; lia|apply within_ofN; lia].
Qed.
Lemma hdev_pinf m t i : (1 <= m < len x)%nat -> (1 <= t)%nat -> (i < stride_count (len x) (3 * m) t)%nat ->
  (p = 3 * m + i * t \/ p = 2 * m + i * t \/ p = 1 * m + i * t \/ p = 0 + i * t)%nat -> pinf (hdev_val x rate m t).
Proof using All.
  intros Hm Ht Hi Hu. assert (Hcnt : (stride_count (len x) (3 * m) t <= len x)%nat).
  { destruct (Nat.le_gt_cases (stride_count (len x) (3 * m) t) (len x)) as [L|L]; [exact L|]. apply stride_count_lt in L; [nia|exact Ht]. }
  assert (Hs : pinf (sumsq (tab (stride_count (len x) (3 * m) t) (tdiff x m t)))).
  { assert (Hd : forall j, (exists u, sp (tdiff x m t j) = Inf u) \/ below 8 800 (tdiff x m t j)).
    { intros j. destruct (tdiff_inf m t j ltac:(lia)) as (S1 & S2 & S3 & S4).
      destruct (Nat.eq_dec p (3 * m + j * t)) as [E1|N1]; [left; eexists; now apply S1|].
      destruct (Nat.eq_dec p (2 * m + j * t)) as [E2|N2]; [left; eexists; now apply S2|].
      destruct (Nat.eq_dec p (1 * m + j * t)) as [E3|N3]; [left; eexists; now apply S3|].
      destruct (Nat.eq_dec p (0 + j * t)) as [E4|N4]; [left; eexists; now apply S4|]. right. now apply tdiff_fin. }
    destruct (tdiff_inf m t i ltac:(lia)) as (S1 & S2 & S3 & S4).
    assert (exists u, sp (tdiff x m t i) = Inf u) as [u Hu'] by (destruct Hu as [E|[E|[E|E]]]; eexists; auto).
    apply (sumsq_pinf _ 800 8 _ i u Hi Hu'). intros j _. apply Hd. }
  assert (Hc : (1 <= hdev_cnt (len x) m t <= len x)%nat).
  { unfold hdev_cnt. destruct (Nat.eqb_spec (stride_count (len x) (3 * m) t) 0); lia. }
  unfold hdev_val. apply (pinf_div (1 + 100 + 50)).
  - apply pinf_sqrt. apply (pinf_div 50); [|apply within_ofN; lia]. apply (pinf_div 3); [exact Hs|apply within_ofZ; lia].
  - apply within_mul; [lia|lia|lia| |apply within_ofN; lia]. apply within_div; [lia|lia|lia|apply within_ofZ; lia|exact Hrate].
Qed.

(** a maximum minus a minimum *)
Lemma val_fin_or q : fin_or s 1 800 (val q).
Proof using All. destruct (Nat.eq_dec q p) as [->|N]; [now right|left; now apply Hfin]. Qed.
Lemma spread_inf l a : fin_or s 1 800 a -> Forall (fin_or s 1 800) l -> (below 1 800 a \/ Exists (below 1 800) l) -> (sp a = Inf s \/ Exists (fun b => sp b = Inf s) l) ->
  pinf (fold_left nmax2 l a - fold_left nmin2 l a).
Proof using All.
  intros Ha Hl Hf Hi. destruct s.
  - destruct (fold_two (P := fin_or true 1 800) (Q := below 1 800) nmax2 (max_minf 1 800) l a Ha Hl) as [_ M]. specialize (M Hf).
    destruct (fold_two (P := fin_or true 1 800) (Q := fun b => sp b = Inf true) nmin2 (min_minf 1 800) l a Ha Hl) as [_ M']. specialize (M' Hi).
    exact (inf_sub_r true 1 800 _ _ M M').
  - destruct (fold_two (P := fin_or false 1 800) (Q := pinf) nmax2 (max_pinf 1 800) l a Ha Hl) as [_ M]. specialize (M Hi).
    destruct (fold_two (P := fin_or false 1 800) (Q := below 1 800) nmin2 (min_pinf 1 800) l a Ha Hl) as [_ M']. specialize (M' Hf).
    exact (inf_sub_l false 1 800 _ _ M M').
Qed.
Lemma spread_fin l a : below 1 800 a -> Forall (below 1 800) l -> below 2 800 (fold_left nmax2 l a - fold_left nmin2 l a).
Proof using All.
  intros Ha Hl. assert (Hl' : forall u, Forall (fin_or u 1 800) l) by (intros u; eapply Forall_impl; [|exact Hl]; intros; now left).
  destruct (fold_two (P := fin_or true 1 800) (Q := below 1 800) nmax2 (max_minf 1 800) l a (or_introl Ha) (Hl' true)) as [_ M].
  destruct (fold_two (P := fin_or false 1 800) (Q := below 1 800) nmin2 (min_pinf 1 800) l a (or_introl Ha) (Hl' false)) as [_ M'].
  change 2%Z with (1 + 1)%Z. apply below_sub; try lia; [apply M|apply M']; now left.
Qed.
Lemma tierms_pinf m : (1 <= m < len x)%nat -> (p + m < len x \/ m <= p)%nat -> pinf (tierms_val x m).
Proof using All.
  intros Hm Hu. unfold tierms_val. apply pinf_sqrt. unfold mean. rewrite map_length, tab_length.
  apply (pinf_div 50); [|apply within_ofN; lia]. change (asum (map nsq (tab (len x - m) (tie_term x m)))) with (sumsq (tab (len x - m) (tie_term x m))).
  assert (Ht : forall i, tie_term x m i = fold_left nmax2 [val (m + i)] (val i) - fold_left nmin2 [val (m + i)] (val i)) by reflexivity.
  assert (Hone : forall i, p = i \/ p = (m + i)%nat -> pinf (tie_term x m i)).
  { intros i Hi. rewrite Ht. apply spread_inf.
    - apply val_fin_or.
    - constructor; [apply val_fin_or|constructor].
    - destruct Hi as [E|E]; [right; constructor|left]; apply Hfin; lia.
    - destruct Hi as [E|E]; [left; now rewrite <- E|right; constructor; now rewrite <- E]. }
  apply (sumsq_pinf _ 800 2 _ (if p + m <? len x then p else p - m)%nat false).
  - destruct (Nat.ltb_spec (p + m) (len x)); lia.
  - apply Hone. destruct (Nat.ltb_spec (p + m) (len x)); lia.
  - intros i _. destruct (Nat.eq_dec p i) as [E|N1]; [left; eexists; apply Hone; now left|].
    destruct (Nat.eq_dec p (m + i)) as [E|N2]; [left; eexists; apply Hone; now right|]. right. rewrite Ht. apply spread_fin; [apply Hfin; lia|].
    constructor; [apply Hfin; lia|constructor].
Qed.
Lemma mtie_pinf m d e n : (1 <= m < len x)%nat -> calc_mtie x m = Ok (d, e, n) -> pinf d /\ pinf e.
Proof using All.
  intros Hm. unfold calc_mtie.
  assert (Ht : exists a, mtie_try x m = Ok a /\ pinf a).
  { unfold mtie_try, mtie_rolling_window. rewrite (proj2 (Nat.ltb_ge (m + 1) 1)) by lia. rewrite (proj2 (Nat.ltb_ge (len x) (m + 1))) by lia.
    cbn [bind]. set (W := fun i => tab (m + 1) (fun k => val (i + k))).
    rewrite (map_ext_in _ W).
    2:{ intros i Hi. apply in_seq in Hi. unfold W. rewrite (list_tab x (ofZ 0)) at 1. rewrite pyslice_tab. f_equal. lia. }
    set (c := (len x - (m + 1) + 1)%nat). change (map W (seq 0 c)) with (tab c W).
    assert (HW : forall i, W i = val (i + 0) :: tab m (fun k => val (i + S k))).
    { intros i. unfold W. rewrite Nat.add_1_r. apply tab_S. }
    set (mx := fun l : list A => match l with [] => ofZ 0 | a :: t => fold_left nmax2 t a end).
    set (mn := fun l : list A => match l with [] => ofZ 0 | a :: t => fold_left nmin2 t a end).
    rewrite (mapM_Ok npmax mx).
    2:{ intros l Hl. apply in_map_iff in Hl as (i & <- & _). rewrite HW. reflexivity. }
    rewrite (mapM_Ok npmin mn).
    2:{ intros l Hl. apply in_map_iff in Hl as (i & <- & _). rewrite HW. reflexivity. }
    cbn [bind]. unfold vsub. rewrite !map_tab, bmap2_tab. cbn [bind].
    assert (Hc : (1 <= c)%nat) by (unfold c; lia).
    assert (HI : forall i, (i <= p <= i + m)%nat -> pinf (mx (W i) - mn (W i))).
    { intros i Hi. rewrite HW. cbn [mx mn]. apply spread_inf.
      - apply val_fin_or.
      - apply Forall_forall. intros b Hb. apply in_map_iff in Hb as (k & <- & _). apply val_fin_or.
      - destruct (Nat.eq_dec p (i + 0)) as [E|N]; [right|left; apply Hfin; lia]. apply Exists_exists. exists (val (i + 1)). split; [|apply Hfin; lia].
        apply in_map_iff. exists 0%nat. split; [reflexivity|apply in_seq; lia].
      - destruct (Nat.eq_dec p (i + 0)) as [E|N]; [left; now rewrite <- E|right]. apply Exists_exists. exists (val p). split; [|exact Hinf].
        apply in_map_iff. exists (p - i - 1)%nat. split; [f_equal; lia|apply in_seq; lia]. }
    assert (HF : forall i, ~ (i <= p <= i + m)%nat -> below 2 800 (mx (W i) - mn (W i))).
    { intros i Hi. rewrite HW. cbn [mx mn]. apply spread_fin; [apply Hfin; lia|].
      apply Forall_forall. intros b Hb. apply in_map_iff in Hb as (k & <- & Hk). apply in_seq in Hk. apply Hfin. lia. }
    set (D := fun i => mx (W i) - mn (W i)) in *.
    assert (HD : forall i, fin_or false 2 800 (D i)).
    { intros i. destruct (le_dec i p) as [L|L]; [destruct (le_dec p (i + m)) as [L'|L']|].
      - right. apply HI. lia.
      - left. apply HF. lia.
      - left. apply HF. lia. }
    destruct c as [|c'] eqn:Ec; [lia|]. rewrite tab_S. cbn [npmax]. eexists. split; [reflexivity|].
    destruct (fold_two (P := fin_or false 2 800) (Q := pinf) nmax2 (max_pinf 2 800) (tab c' (fun i => D (S i))) (D 0%nat) (HD 0%nat)) as [_ M].
    { apply Forall_forall. intros b Hb. apply in_map_iff in Hb as (k & <- & _). apply HD. }
    apply M. set (i := Nat.min p (len x - (m + 1))). destruct i as [|i'] eqn:Ei.
    - left. apply HI. lia.
    - right. apply Exists_exists. exists (D (S i')). split; [|apply HI; lia]. apply in_map_iff. exists i'. split; [reflexivity|]. apply in_seq. lia. }
  destruct Ht as (a & -> & Ha). cbn [bind]. intros E. injection E as <- <- <-. split; [exact Ha|].
  apply (pinf_div 50); [exact Ha|]. apply within_sqrt; [lia|]. apply within_ofZ; lia.
Qed.

(** ** mdev: running sums *)
Fixpoint csum (g : nat -> A) (j : nat) : A := match j with O => g O | S k => nadd (csum g k) (g (S k)) end.
Lemma cumsum_from_gen (g : nat -> A) : forall n k, cumsum_from (csum g k) (tab n (fun i => g (S (k + i)))) = tab n (fun i => csum g (S (k + i))).
Proof.
  induction n as [|n IH]; intro k; [reflexivity|]. rewrite !tab_S. cbn [cumsum_from]. rewrite Nat.add_0_r. f_equal.
  etransitivity; [|etransitivity; [apply (IH (S k))|]].
  - cbn [csum]. f_equal. apply tab_ext. intros i _. f_equal. lia.
  - apply tab_ext. intros i _. f_equal. lia.
Qed.
Lemma cumsum_gen n (g : nat -> A) : cumsum (tab n g) = tab n (csum g).
Proof.
  destruct n as [|n]; [reflexivity|]. rewrite !tab_S. unfold cumsum. f_equal.
  etransitivity; [|etransitivity; [apply (cumsum_from_gen g n 0)|]]; [reflexivity|]. apply tab_ext. intros i _. reflexivity.
Qed.
Lemma csum_fin g j : (Z.of_nat j < 2 ^ 50)%Z -> (forall i, (i <= j)%nat -> below 8 800 (g i)) -> below (8 * Z.of_nat (S j)) 800 (csum g j).
Proof using All.
  induction j as [|j IH]; intros Hj H; cbn [csum]; [apply H; lia|].
  replace (8 * Z.of_nat (S (S j)))%Z with (8 * Z.of_nat (S j) + 8)%Z by lia. apply below_add; try lia; [apply IH; [lia|auto]|apply H; lia].
Qed.
Lemma csum_inf g t i0 j : (Z.of_nat j < 2 ^ 50)%Z -> (i0 <= j)%nat -> sp (g i0) = Inf t -> (forall i, (i <= j)%nat -> i <> i0 -> below 8 800 (g i)) -> sp (csum g j) = Inf t.
Proof using All.
  induction j as [|j IH]; intros Hj Hi Hg H; cbn [csum].
  - now replace i0 with 0%nat in Hg by lia.
  - destruct (Nat.eq_dec i0 (S j)) as [->|N].
    + apply (inf_add_r t (8 * Z.of_nat (S j)) 800); [|exact Hg]. apply csum_fin; [lia|]. intros i Hi'. apply H; lia.
    + apply (inf_add_l t 8 800); [apply IH; [lia|lia|exact Hg|]; intros; apply H; lia|]. apply H; lia.
Qed.
Lemma csum_cancel g t i0 i1 : (Z.of_nat i1 < 2 ^ 50)%Z -> (i0 < i1)%nat -> sp (g i0) = Inf t -> sp (g i1) = Inf (negb t) ->
  (forall i, (i < i1)%nat -> i <> i0 -> below 8 800 (g i)) -> sp (csum g i1) = NaN.
Proof using All.
  intros Hj Hi H0 H1 H. destruct i1 as [|j]; [lia|]. cbn [csum]. apply (inf_cancel t); [|exact H1].
  apply (csum_inf g t i0); [lia|lia|exact H0|]. intros i Hi'. apply H. lia.
Qed.

(** the infinite sample enters the running sum twice, with opposite signs *)
Definition mdev_twice (N m q : nat) : Prop :=
  (q < m /\ q + 3 * m < N \/ m <= q < 2 * m /\ q + 2 * m < N \/ 2 * m <= q /\ q + m < N)%nat.
Definition mdev_v (m : nat) : A := asum (tab (Nat.min m (len x - 2 * m)) (fun i => val (2 * m + i) - ofZ 2 * val (m + i) + val (0 + i))).
Lemma sdiff_1 m i : val (2 * m + i) - ofZ 2 * val (m + i) + val (0 + i) = sdiff x m 1 i.
Proof. unfold sdiff, val. now rewrite Nat.mul_1_r, Nat.mul_1_l. Qed.
Lemma mdev_v_inf m : (1 <= m)%nat -> (3 * m < len x)%nat -> (p < 3 * m)%nat ->
  sp (mdev_v m) = Inf (if (p <? m)%nat then s else if (p <? 2 * m)%nat then negb s else s).
Proof using All.
  intros Hm HN H3. unfold mdev_v. rewrite Nat.min_l by lia.
  apply (asum_inf m 800 4 _ (p mod m)); try lia; [apply Nat.mod_upper_bound; lia| |].
  - rewrite sdiff_1. destruct (sdiff_inf m 1 (p mod m) Hm) as (S1 & S2 & S3).
    assert (Hd : p = (m * (p / m) + p mod m)%nat) by (apply Nat.div_mod; lia).
    assert (Hr : (p mod m < m)%nat) by (apply Nat.mod_upper_bound; lia).
    assert (Hq : (p / m < 3)%nat) by (apply Nat.div_lt_upper_bound; lia).
    destruct (p / m)%nat as [|[|[|q]]] eqn:E; [| | |lia].
    + rewrite (proj2 (Nat.ltb_lt p m)) by lia. apply S3. lia.
    + rewrite (proj2 (Nat.ltb_ge p m)) by lia. rewrite (proj2 (Nat.ltb_lt p (2 * m))) by lia. apply S2. lia.
    + rewrite (proj2 (Nat.ltb_ge p m)) by lia. rewrite (proj2 (Nat.ltb_ge p (2 * m))) by lia. apply S1. lia.
  - intros i Hi Hne. rewrite sdiff_1. assert (Hn : forall c, p <> (c * m + i * 1)%nat).
    { intros c E. apply Hne. rewrite E, Nat.mul_1_r, Nat.add_comm, Nat.mod_add by lia. symmetry. apply Nat.mod_small. lia. }
    apply sdiff_fin; [apply Hn|apply Hn|apply (Hn 0%nat)].
Qed.
Lemma mdev_v_fin m : (1 <= m)%nat -> (3 * m < len x)%nat -> (3 * m <= p)%nat -> below (4 * Z.of_nat m) 800 (mdev_v m).
Proof using All.
  intros Hm HN H3. unfold mdev_v. rewrite Nat.min_l by lia. apply asum_below; try lia. intros i Hi. rewrite sdiff_1. apply sdiff_fin; lia.
Qed.
Lemma mdev_sum_eq m : mdev_sum x m = mdev_v m * mdev_v m + sumsq (tab (len x - 3 * m) (fun i => mdev_v m + csum (tdiff x m 1) i)).
Proof. unfold mdev_sum. rewrite cumsum_gen, map_tab. reflexivity. Qed.
Lemma mdev_pinf m : (1 <= m)%nat -> (3 * m < len x)%nat -> ~ mdev_twice (len x) m p -> pinf (mdev_val x rate m).
Proof using All.
  intros Hm HN Ht.
  assert (Hs : pinf (mdev_sum x m)).
  { rewrite mdev_sum_eq. destruct (Nat.lt_ge_cases p (3 * m)) as [C|C].
    - pose proof (mdev_v_inf m Hm HN C) as Hv.
      assert (Hg : forall i, (i < len x - 3 * m)%nat -> sp (mdev_v m + csum (tdiff x m 1) i) = Inf (if (p <? m)%nat then s else if (p <? 2 * m)%nat then negb s else s)).
      { intros i Hi. apply (inf_add_l _ (8 * Z.of_nat (S i)) 800); [exact Hv|]. apply csum_fin; [lia|]. intros j Hj. unfold mdev_twice in Ht. apply tdiff_fin; lia. }
      apply nn_add.
      + apply pinf_nn. eapply inf_sq, Hv.
      + apply pinf_nn. eapply (sumsq_pinf _ 800 1 _ 0); [lia|apply Hg; lia|]. intros i Hi. left. eexists. apply Hg, Hi.
      + left. eapply inf_sq, Hv.
    - pose proof (mdev_v_fin m Hm HN C) as Hv.
      assert (HT : forall i, (i < len x - 3 * m)%nat -> i <> (p - 3 * m)%nat -> below 8 800 (tdiff x m 1 i)).
      { intros i Hi Hne. unfold mdev_twice in Ht. apply tdiff_fin; lia. }
      assert (HI : sp (tdiff x m 1 (p - 3 * m)) = Inf s) by (apply (proj1 (tdiff_inf m 1 (p - 3 * m) Hm)); lia).
      assert (Hg : pinf (sumsq (tab (len x - 3 * m) (fun i => mdev_v m + csum (tdiff x m 1) i)))).
      { assert (Hc : forall i, (p - 3 * m <= i < len x - 3 * m)%nat -> sp (mdev_v m + csum (tdiff x m 1) i) = Inf s).
        { intros i Hi. apply (inf_add_r s (4 * Z.of_nat m) 800); [exact Hv|]. apply (csum_inf _ s (p - 3 * m)); [lia|lia|exact HI|]. intros; apply HT; lia. }
        apply (sumsq_pinf _ 800 (4 * Z.of_nat m + 8 * Z.of_nat (len x)) _ (p - 3 * m) s); [lia|apply Hc; lia|].
        intros i Hi. destruct (Nat.lt_ge_cases i (p - 3 * m)) as [L|L]; [right|left; eexists; apply Hc; lia].
        apply below_add; try lia; [exact Hv|]. apply (below_le (8 * Z.of_nat (S i))); [lia|]. apply csum_fin; [lia|]. intros; apply HT; lia. }
      apply nn_add; [apply (nn_sq (4 * Z.of_nat m) 800), Hv|now apply pinf_nn|now right]. }
  unfold mdev_val. apply pinf_sqrt. apply (pinf_div (1 + 50 + 50 + (50 + 100) + (50 + 100) + 50)); [exact Hs|].
  assert (Wm : within 50 (ofN m)) by (apply within_ofN; lia).
  assert (Wt : within (50 + 100) (ofN m / rate)) by (apply within_div; [lia|lia|lia|exact Wm|exact Hrate]).
  apply within_mul; [lia|lia|lia| |apply within_ofN; lia].
  apply within_mul; [lia|lia|lia| |exact Wt]. apply within_mul; [lia|lia|lia| |exact Wt].
  apply within_mul; [lia|lia|lia| |exact Wm]. apply within_mul; [lia|lia|lia|apply within_ofZ; lia|exact Wm].
Qed.

(** NaN spreads *)
Definition isnan (a : A) : Prop := sp a = NaN.
Lemma isnan_iff a : isnan a <-> nisnan a = true.
Proof using All. unfold isnan. rewrite (sp_nan _ _ SP). destruct (sp a); split; intros; try discriminate; reflexivity. Qed.
Lemma mdev_isnan (NS : nan_strict A) m : (1 <= m)%nat -> (3 * m < len x)%nat -> mdev_twice (len x) m p -> nisnan (mdev_val x rate m) = true.
Proof using All.
  intros Hm HN Ht.
  assert (Hs : nisnan (mdev_sum x m) = true).
  { rewrite mdev_sum_eq. apply (ns_add _ NS). right. apply (bad_sumsq NS).
    assert (Hc : exists i, (i < len x - 3 * m)%nat /\ isnan (mdev_v m + csum (tdiff x m 1) i)).
    { destruct (Nat.lt_ge_cases p (3 * m)) as [C|C].
      - pose proof (mdev_v_inf m Hm HN C) as Hv.
        destruct (tdiff_inf m 1 (p mod m) Hm) as (T1 & T2 & T3 & T4).
        destruct (Nat.ltb_spec p m) as [L|L]; [|destruct (Nat.ltb_spec p (2 * m)) as [L2|L2]].
        + exists p. unfold mdev_twice in Ht. split; [lia|]. apply (inf_cancel s); [exact Hv|].
          apply (csum_inf _ _ p); [lia|lia|apply (proj2 (proj2 (proj2 (tdiff_inf m 1 p Hm)))); lia|]. intros; apply tdiff_fin; lia.
        + exists (p - m)%nat. unfold mdev_twice in Ht. split; [lia|]. apply (inf_cancel (negb s)); [exact Hv|]. rewrite negb_involutive.
          apply (csum_inf _ _ (p - m)); [lia|lia|apply (proj1 (proj2 (proj2 (tdiff_inf m 1 (p - m) Hm)))); lia|]. intros; apply tdiff_fin; lia.
        + exists (p - 2 * m)%nat. unfold mdev_twice in Ht. split; [lia|]. apply (inf_cancel s); [exact Hv|].
          apply (csum_inf _ _ (p - 2 * m)); [lia|lia|apply (proj1 (proj2 (tdiff_inf m 1 (p - 2 * m) Hm))); lia|]. intros; apply tdiff_fin; lia.
      - pose proof (mdev_v_fin m Hm HN C) as (r & Hv & _).
        exists (p - 2 * m)%nat. unfold mdev_twice in Ht. split; [lia|]. unfold isnan.
        rewrite (sp_add _ _ SP); rewrite (csum_cancel _ s (p - 3 * m) (p - 2 * m)); try lia.
        + destruct (sp (mdev_v m)); reflexivity.
        + apply (proj1 (tdiff_inf m 1 (p - 3 * m) Hm)); lia.
        + apply (proj1 (proj2 (tdiff_inf m 1 (p - 2 * m) Hm))); lia.
        + intros; apply tdiff_fin; lia.
        + now right.
        + apply (proj1 (tdiff_inf m 1 (p - 3 * m) Hm)); lia.
        + apply (proj1 (proj2 (tdiff_inf m 1 (p - 2 * m) Hm))); lia.
        + intros; apply tdiff_fin; lia. }
    destruct Hc as (i & Hi & Hn). apply (bad_tab _ _ i Hi). now apply isnan_iff. }
  unfold mdev_val. apply (ns_sqrt _ NS). apply (ns_div _ NS). now left.
Qed.

(** ** pdev *)
Lemma pcoef m k : (1 <= m)%nat -> (k < m)%nat -> (Z.of_nat m <= 2 ^ 50)%Z ->
  sp ((ofN m - ofZ 1) / ofZ 2 - ofN k) = Fin (IZR (Z.of_nat m - 1 - 2 * Z.of_nat k) * bpow radix2 (-1)).
Proof using All.
  intros Hm Hk Hl. unfold ofN.
  assert (HB : forall z e, (Z.abs z <= 2 ^ 52)%Z -> (-1 <= e <= 0)%Z -> (Rabs (IZR z * bpow radix2 e) <= bpow radix2 1000)%R).
  { intros z e Hz He. rewrite Rabs_mult, (Rabs_pos_eq (bpow radix2 e)), <- abs_IZR by apply bpow_ge_0. apply Rle_trans with (IZR (2 ^ 52) * 1)%R.
    - apply Rmult_le_compat; [apply IZR_le; lia|apply bpow_ge_0|apply IZR_le; lia|]. apply (bpow_le radix2 e 0). lia.
    - rewrite Rmult_1_r, IZR_bpow by lia. apply bpow_le. lia. }
  assert (H1 : sp (ofZ (Z.of_nat m) - ofZ 1) = Fin (IZR (Z.of_nat m - 1))).
  { rewrite (sp_fsub _ _ SP _ _ (IZR (Z.of_nat m)) (IZR 1)); [|apply sp_int; lia|apply sp_int; lia|].
    - rewrite <- minus_IZR. f_equal. pose proof (rd_fix _ _ SP (Z.of_nat m - 1) 0 ltac:(lia) ltac:(lia)) as E. cbn [bpow] in E. now rewrite Rmult_1_r in E.
    - rewrite <- minus_IZR. pose proof (HB (Z.of_nat m - 1)%Z 0%Z ltac:(lia) ltac:(lia)) as E. cbn [bpow] in E. now rewrite Rmult_1_r in E. }
  assert (Eh : forall z, (IZR z / 2 = IZR z * bpow radix2 (-1))%R) by (intros z; cbn; lra).
  assert (H2 : sp ((ofZ (Z.of_nat m) - ofZ 1) / ofZ 2) = Fin (IZR (Z.of_nat m - 1) * bpow radix2 (-1))).
  { rewrite (sp_fdiv _ _ SP _ _ (IZR (Z.of_nat m - 1)) 2%R H1); [|apply sp_int; lia|lra|].
    - rewrite Eh. f_equal. apply (rd_fix _ _ SP); lia.
    - rewrite Eh. apply HB; lia. }
  assert (E3 : (IZR (Z.of_nat m - 1) * bpow radix2 (-1) - IZR (Z.of_nat k) = IZR (Z.of_nat m - 1 - 2 * Z.of_nat k) * bpow radix2 (-1))%R).
  { rewrite <- !Eh. rewrite (minus_IZR (Z.of_nat m - 1)), mult_IZR. lra. }
  rewrite (sp_fsub _ _ SP _ _ _ (IZR (Z.of_nat k)) H2); [|apply sp_int; lia|].
  - rewrite E3. f_equal. apply (rd_fix _ _ SP); lia.
  - rewrite E3. apply HB; lia.
Qed.
Lemma pfactor_fin m k q q' : (1 <= m)%nat -> (k < m)%nat -> (Z.of_nat m <= 2 ^ 50)%Z -> q <> p -> q' <> p ->
  below 1 852 (((ofN m - ofZ 1) / ofZ 2 - ofN k) * (val q - val q')).
Proof using All.
  intros Hm Hk Hl Hq Hq'. pose proof (pcoef m k Hm Hk Hl) as Hc.
  destruct (below_sub 1 1 800 (val q) (val q') ltac:(lia) ltac:(lia) ltac:(lia) ltac:(lia) (Hfin q Hq) (Hfin q' Hq')) as (r & Hr & Br).
  assert (Hb : (Rabs (IZR (Z.of_nat m - 1 - 2 * Z.of_nat k) * bpow radix2 (-1) * r) <= IZR 1 * bpow radix2 852)%R).
  { rewrite !Rabs_mult, (Rabs_pos_eq (bpow radix2 (-1))), <- abs_IZR by apply bpow_ge_0.
    replace (IZR 1 * bpow radix2 852)%R with (bpow radix2 52 * bpow radix2 (-1) * (IZR (1 + 1) * bpow radix2 800))%R.
    - apply Rmult_le_compat; [apply Rmult_le_pos; [apply IZR_le; lia|apply bpow_ge_0]|apply Rabs_pos| |exact Br].
      apply Rmult_le_compat_r; [apply bpow_ge_0|]. rewrite <- IZR_bpow by lia. apply IZR_le. lia.
    - change (IZR (1 + 1)) with (bpow radix2 1). rewrite Rmult_1_l, <- !bpow_plus. reflexivity. }
  exists (rd (IZR (Z.of_nat m - 1 - 2 * Z.of_nat k) * bpow radix2 (-1) * r)). split; [|apply rd_abs; [lia|lia|exact Hb]].
  apply (sp_fmul _ _ SP); [exact Hc|exact Hr|]. apply (big 1 852); [lia|lia|exact Hb].
Qed.
Lemma pfactor_inf m k q q' : (1 <= m)%nat -> (k < m)%nat -> (Z.of_nat m <= 2 ^ 50)%Z -> (q = p /\ q' <> p \/ q <> p /\ q' = p) ->
  exists u, sp (((ofN m - ofZ 1) / ofZ 2 - ofN k) * (val q - val q')) = if (Z.of_nat m - 1 =? 2 * Z.of_nat k)%Z then NaN else Inf u.
Proof using All.
  intros Hm Hk Hl Hq. pose proof (pcoef m k Hm Hk Hl) as Hc.
  assert (exists t, sp (val q - val q') = Inf t) as [t Ht].
  { destruct Hq as [[-> Hq']|[Hq ->]]; eexists.
    - apply (inf_sub_l s 1 800); [exact Hinf|now apply Hfin].
    - apply (inf_sub_r s 1 800); [now apply Hfin|exact Hinf]. }
  assert (Pb : (0 < bpow radix2 (-1))%R) by apply bpow_gt_0.
  rewrite (sp_mul _ _ SP), Hc, Ht by (right; unfold nonfinite; now rewrite Ht). cbn [x_mul].
  destruct (Z.eqb_spec (Z.of_nat m - 1) (2 * Z.of_nat k)) as [E|N].
  - exists false. replace (Z.of_nat m - 1 - 2 * Z.of_nat k)%Z with 0%Z by lia. rewrite Rmult_0_l, x_sign_0. reflexivity.
  - destruct (Z.lt_total (Z.of_nat m - 1 - 2 * Z.of_nat k) 0) as [L|[L|L]]; [| lia |].
    + rewrite x_sign_neg; [eexists; reflexivity|]. apply IZR_lt in L. nra.
    + rewrite x_sign_pos; [eexists; reflexivity|]. apply IZR_lt in L. nra.
Qed.
Definition uses_window (m i : nat) : Prop := (i <= p < i + 2 * m)%nat.
Lemma pterm_split m i : uses_window m i -> exists k, (k < m)%nat /\ (p = i + k \/ p = i + m + k)%nat.
Proof. unfold uses_window. intros H. destruct (Nat.lt_ge_cases p (i + m)) as [L|L]; [exists (p - i)%nat|exists (p - i - m)%nat]; lia. Qed.
Lemma pterm_inf m i : (1 <= m)%nat -> (Z.of_nat m <= 2 ^ 50)%Z -> Nat.even m = true -> uses_window m i -> exists u, sp (pdev_term x m i) = Inf u.
Proof using All.
  intros Hm Hl He Hu. destruct (pterm_split m i Hu) as (k & Hk & Hpk). apply Nat.even_spec in He as [h Eh].
  destruct (pfactor_inf m k (i + k) (i + m + k) Hm Hk Hl ltac:(lia)) as [u Eu].
  destruct (Z.eqb_spec (Z.of_nat m - 1) (2 * Z.of_nat k)); [lia|]. exists u.
  apply (asum_inf m 852 1 _ k); try lia; [exact Eu|]. intros j Hj Hne. apply pfactor_fin; lia.
Qed.
Lemma pterm_fin m i : (1 <= m)%nat -> (Z.of_nat m <= 2 ^ 50)%Z -> ~ uses_window m i -> below (1 * Z.of_nat m) 852 (pdev_term x m i).
Proof using All. intros Hm Hl Hu. unfold uses_window in Hu. apply asum_below; try lia. intros j Hj. apply pfactor_fin; lia. Qed.
Lemma fold_tab n (g : nat -> A) : fold_left (fun a i => a + g i) (seq 0 n) (ofZ 0) = asum (tab n g).
Proof.
  induction n as [|n IH]; [reflexivity|]. rewrite tab_snoc, asum_snoc, <- IH. rewrite seq_S, fold_left_app. reflexivity.
Qed.
Lemma pdev_pinf m : (1 < m)%nat -> (2 * m < len x)%nat -> Nat.even m = true -> (p + 1 < len x)%nat -> pinf (pdev_val x rate m) /\ pinf (pdev_err x rate m).
Proof using All.
  intros Hm HN He Hp1. assert (Hl : (Z.of_nat m <= 2 ^ 50)%Z) by lia.
  assert (HM : (1 <= pdev_M (len x) m <= 2 ^ 50)%Z) by (unfold pdev_M; lia).
  unfold pdev_err. assert (Hd : pinf (pdev_val x rate m)).
  { unfold pdev_val. rewrite (proj2 (Nat.eqb_neq m 1)) by lia. rewrite (proj2 (Z.ltb_ge _ _)) by lia.
    rewrite (fold_tab _ (fun i => nsq (pdev_term x m i))). rewrite <- (map_tab nsq). fold (sumsq (tab (len x - 2 * m) (pdev_term x m))).
    assert (Hs : pinf (sumsq (tab (len x - 2 * m) (pdev_term x m)))).
    { set (i := Nat.min p (len x - 2 * m - 1)). destruct (pterm_inf m i ltac:(lia) Hl He) as [u Eu]; [unfold uses_window, i; lia|].
      apply (sumsq_pinf _ 852 (1 * Z.of_nat m) _ i u); [unfold i; lia|exact Eu|]. intros j Hj.
      assert (uses_window m j \/ ~ uses_window m j) as [U|U] by (unfold uses_window; lia).
      - left. apply pterm_inf; [lia|exact Hl|exact He|exact U].
      - right. apply pterm_fin; [lia|exact Hl|exact U]. }
    apply pinf_sqrt. apply (pinf_div (250 + ((50 + (1 + 100)) + (50 + (1 + 100))))).
    - apply (pinf_mul_l 7); [apply within_ofZ; lia|exact Hs].
    - apply within_mul; [lia|lia|lia| |].
      + apply within_ofZ; [lia|]. assert (1 <= Z.of_nat m ^ 4 <= 2 ^ 200)%Z.
        { split; [apply (Z.pow_le_mono_l 1 (Z.of_nat m) 4); lia|]. change (2 ^ 200)%Z with ((2 ^ 50) ^ 4)%Z. apply Z.pow_le_mono_l. lia. }
        split; [nia|]. change (2 ^ 250)%Z with (2 ^ 50 * 2 ^ 200)%Z. apply Z.mul_le_mono_nonneg; lia.
      + assert (W : within (50 + (1 + 100)) (ofN m * (ofZ 1 / rate))).
        { apply within_mul; [lia|lia|lia|apply within_ofN; lia|]. apply within_div; [lia|lia|lia|apply within_ofZ; lia|exact Hrate]. }
        apply within_mul; [lia|lia|lia|exact W|exact W]. }
  split; [exact Hd|]. rewrite (proj2 (Nat.eqb_neq m 1)) by lia. rewrite (proj2 (Z.ltb_ge _ _)) by lia.
  apply (pinf_div 50); [exact Hd|]. apply within_sqrt; [lia|]. apply within_ofZ; lia.
Qed.
(** odd m: the weight in the middle of the window is zero *)
Lemma pdev_isnan (NS : nan_strict A) m h : (m = 2 * h + 1)%nat -> (1 <= h)%nat -> (2 * m < len x)%nat ->
  (exists i, (i + 2 * m < len x)%nat /\ (p = i + h \/ p = i + m + h)%nat) -> nisnan (pdev_val x rate m) = true /\ nisnan (pdev_err x rate m) = true.
Proof using All.
  intros Hm Hh HN (i & Hi & Hpi). assert (Hl : (Z.of_nat m <= 2 ^ 50)%Z) by lia.
  unfold pdev_err. assert (Hd : nisnan (pdev_val x rate m) = true).
  { unfold pdev_val. rewrite (proj2 (Nat.eqb_neq m 1)) by lia. rewrite (proj2 (Z.ltb_ge _ _)) by (unfold pdev_M; lia).
    apply (ns_sqrt _ NS). apply (ns_div _ NS). left. apply (ns_mul _ NS). right.
    rewrite (fold_tab _ (fun i => nsq (pdev_term x m i))). rewrite <- (map_tab nsq). apply (bad_asum NS). apply bad_map; [apply (bad_nsq NS)|].
    apply (bad_tab _ _ i); [lia|]. apply (bad_asum NS). apply (bad_tab _ _ h); [lia|]. apply isnan_iff.
    destruct (pfactor_inf m h (i + h) (i + m + h) ltac:(lia) ltac:(lia) Hl ltac:(lia)) as [u Eu].
    rewrite (proj2 (Z.eqb_eq _ _)) in Eu by lia. exact Eu. }
  split; [exact Hd|]. rewrite (proj2 (Nat.eqb_neq m 1)) by lia. rewrite (proj2 (Z.ltb_ge _ _)) by (unfold pdev_M; lia). apply (ns_div _ NS). now left.
Qed.
End Inf.
