(** * C122: an infinite sample given to a realtime object. *)
From Coq Require Import String List ZArith Lia Arith Bool Floats.
From Coq Require Import Reals Lra.
From Flocq Require Import Core.Core.
From Verif Require Import Base Num NpList ModelCore ModelDev ModelRt ListFacts RtProofs GenericProofs NanProofs NumF NumX NumR FloatFacts
  SpecialProofs InfProofs PropsNan PropsInf PropsRt PropsFloatMdev PropsFloatRt PropsNanRt.
Import ListNotations.
Local Notation len := List.length.
Local Notation float := Coq.Floats.PrimFloat.float.
Local Open Scope num_scope.

(** ** specification *)
(** tdev_realtime: the sample has entered the running window sum once, or has been seen again while the window slides *)
Definition seen_once (N m p : nat) : Prop := (3 * m <= N)%nat /\ in_one_step N m p.
Definition seen_twice (N m p : nat) : Prop := (3 * m <= N)%nat /\ in_two_steps N m p.
(** every deviation which depends on the sample is v *)
Definition shows {A} (sp : A -> ext) (v : ext) (uses : nat -> nat -> nat -> Prop) (N p : nat) (afs : list nat) (devs : list A) : Prop :=
  Forall2 (fun af d => uses N af p -> sp d = v) afs devs.

Section Thm.
Context {A : Type} {NA : Num A} (sp : A -> ext) (rd : R -> R) (SP : special sp rd).

Lemma below_neg k a : (0 <= k <= 900)%Z -> below sp 1 k a -> below sp 1 k (ofZ (-1) * a).
Proof using SP.
  intros Hk (r & E & B). exists (rd (IZR (-1) * r)).
  assert (Hb : (Rabs (IZR (-1) * r) <= IZR 1 * bpow radix2 k)%R) by (replace (IZR (-1) * r)%R with (- r)%R by lra; rewrite Rabs_Ropp; exact B).
  split; [apply (sp_fmul _ _ SP); auto; [apply (sp_int sp rd SP); lia|apply (big 1 k); auto; lia]|]. apply (rd_abs sp rd SP); auto; lia.
Qed.
Lemma inf_neg t a : sp a = Inf t -> sp (ofZ (-1) * a) = Inf (negb t).
Proof using SP.
  intros E. rewrite (sp_mul _ _ SP) by (right; now rewrite E). rewrite E, (sp_int sp rd SP) by lia. cbn [x_mul].
  rewrite x_sign_neg by lra. now destruct t.
Qed.

Section One.
Context (x : list A) (p : nat) (s : bool).
Let f i := nth i x (ofZ 0).
Hypothesis Hp : (p < len x)%nat.
Hypothesis Hinf : sp (f p) = Inf s.
Hypothesis Hfin : forall i, i <> p -> below sp 1 800 (f i).
Hypothesis Hlen : (Z.of_nat (len x) <= 2 ^ 49)%Z.
Context (t0 : A).
Hypothesis Ht0 : within sp 100 t0.

Lemma sd_is m k : sd f m k = sdiff x m 1 k.
Proof. unfold sd, sdiff, f. now rewrite !Nat.mul_1_r, !Nat.mul_1_l. Qed.
Lemma td_is m k : td f m k = tdiff x m 1 k.
Proof. unfold td, tdiff, f. now rewrite !Nat.mul_1_r, !Nat.mul_1_l. Qed.

Lemma oadev_inf af : (1 <= af)%nat -> in_triple (len x) af p -> sp (snd (slot_after (oadev_g t0) x af 0 (len x))) = Inf false.
Proof using All.
  intros Ha (k & Hk & Hu). rewrite oadev_slot_gen by lia. cbn [snd]. destruct (Nat.ltb_spec (2 * af) (len x)); [|lia].
  apply (pinf_sqrt sp rd SP). fold f.
  assert (Hd : forall j, (exists u, sp (sd f af j) = Inf u) \/ below sp 4 800 (sd f af j)).
  { intros j. rewrite sd_is. destruct (sdiff_inf sp rd SP x t0 p s Hp Hinf Hfin Hlen Ht0 af 1 j Ha) as (S1 & S2 & S3).
    destruct (Nat.eq_dec p (2 * af + j * 1)) as [E1|N1]; [left; eexists; now apply S1|].
    destruct (Nat.eq_dec p (1 * af + j * 1)) as [E2|N2]; [left; eexists; now apply S2|].
    destruct (Nat.eq_dec p (0 + j * 1)) as [E3|N3]; [left; eexists; now apply S3|]. right. now apply (sdiff_fin sp rd SP x t0 p s Hp Hinf Hfin Hlen Ht0). }
  assert (exists u, sp (sd f af k) = Inf u) as [u Hu'].
  { rewrite sd_is. destruct (sdiff_inf sp rd SP x t0 p s Hp Hinf Hfin Hlen Ht0 af 1 k Ha) as (S1 & S2 & S3).
    destruct Hu as [E|[E|E]]; eexists; [apply S3|apply S2|apply S1]; lia. }
  pose proof (sumsq_pinf sp rd SP (len x - 2 * af) 800 4 (sd f af) k u ltac:(lia) Hu' (fun j _ => Hd j)) as Hs.
  unfold sumsq in Hs. rewrite map_tab in Hs.
  assert (Wt : within sp (50 + 100) (ofN af * t0)) by (apply (within_mul sp rd SP); [lia|lia|lia|apply (within_ofN sp rd SP); lia|exact Ht0]).
  apply (pinf_mul_l sp rd SP (1 + (1 + (50 + 100 + (50 + 100)) + 50))); [|exact Hs].
  apply (within_div sp rd SP); [lia|lia|lia|apply (within_ofZ sp rd SP); lia|].
  apply (within_mul sp rd SP); [lia|lia|lia| |apply (within_ofN sp rd SP); lia].
  apply (within_mul sp rd SP); [lia|lia|lia|apply (within_ofZ sp rd SP); lia|]. unfold nsq. now apply (within_mul sp rd SP).
Qed.
Lemma ohdev_inf af : (1 <= af)%nat -> in_quadruple (len x) af p -> sp (snd (slot_after (ohdev_g t0) x af 0 (len x))) = Inf false.
Proof using All.
  intros Ha (k & Hk & Hu). rewrite ohdev_slot_gen by lia. cbn [snd]. destruct (Nat.ltb_spec (3 * af) (len x)); [|lia].
  apply (pinf_sqrt sp rd SP). fold f.
  assert (Hd : forall j, (exists u, sp (td f af j) = Inf u) \/ below sp 8 800 (td f af j)).
  { intros j. rewrite td_is. destruct (tdiff_inf sp rd SP x t0 p s Hp Hinf Hfin Hlen Ht0 af 1 j Ha) as (S1 & S2 & S3 & S4).
    destruct (Nat.eq_dec p (3 * af + j * 1)) as [E1|N1]; [left; eexists; now apply S1|].
    destruct (Nat.eq_dec p (2 * af + j * 1)) as [E2|N2]; [left; eexists; now apply S2|].
    destruct (Nat.eq_dec p (1 * af + j * 1)) as [E3|N3]; [left; eexists; now apply S3|].
    destruct (Nat.eq_dec p (0 + j * 1)) as [E4|N4]; [left; eexists; now apply S4|]. right. now apply (tdiff_fin sp rd SP x t0 p s Hp Hinf Hfin Hlen Ht0). }
  assert (exists u, sp (td f af k) = Inf u) as [u Hu'].
  { rewrite td_is. destruct (tdiff_inf sp rd SP x t0 p s Hp Hinf Hfin Hlen Ht0 af 1 k Ha) as (S1 & S2 & S3 & S4).
    destruct Hu as [E|[E|[E|E]]]; eexists; [apply S4|apply S3|apply S2|apply S1]; lia. }
  pose proof (sumsq_pinf sp rd SP (len x - 3 * af) 800 8 (td f af) k u ltac:(lia) Hu' (fun j _ => Hd j)) as Hs.
  unfold sumsq in Hs. rewrite map_tab in Hs.
  assert (Wt : within sp (50 + 100) (ofN af * t0)) by (apply (within_mul sp rd SP); [lia|lia|lia|apply (within_ofN sp rd SP); lia|exact Ht0]).
  apply (pinf_mul_l sp rd SP (1 + (3 + (50 + 100 + (50 + 100)) + 50))); [|exact Hs].
  apply (within_div sp rd SP); [lia|lia|lia|apply (within_ofZ sp rd SP); lia|].
  apply (within_mul sp rd SP); [lia|lia|lia| |apply (within_ofN sp rd SP); lia].
  apply (within_mul sp rd SP); [lia|lia|lia|apply (within_ofZ sp rd SP); lia|]. unfold nsq. now apply (within_mul sp rd SP).
Qed.

(** the running window sum of tdev_realtime *)
Definition sgn (m : nat) : bool := if (p <? m)%nat then s else if (p <? 2 * m)%nat then negb s else s.
Lemma fill_step_fin m k c a : (0 <= c)%Z -> (c + 4 <= 2 ^ 53)%Z -> p <> (2 * m + k)%nat -> p <> (m + k)%nat -> p <> k -> below sp c 800 a ->
  below sp (c + 4) 800 (a + f (2 * m + k) - ofZ 2 * f (m + k) + f k).
Proof using All.
  intros H0 Hc H1 H2 H3 Ha. replace (c + 4)%Z with (c + 1 + 2 * 1 + 1)%Z by lia.
  apply (below_add sp rd SP); [lia|lia|lia|lia| |apply Hfin; lia]. apply (below_sub sp rd SP); [lia|lia|lia|lia| |].
  - apply (below_add sp rd SP); [lia|lia|lia|lia|exact Ha|apply Hfin; lia].
  - apply (below_scal sp rd SP); [lia|lia|lia|lia|apply Hfin; lia].
Qed.
Lemma fill_fin m k : (Z.of_nat k <= 2 ^ 50)%Z -> (k <= m)%nat -> (k <= p)%nat -> ~ (m <= p < m + k)%nat -> ~ (2 * m <= p < 2 * m + k)%nat ->
  below sp (4 * Z.of_nat k) 800 (fill f m k).
Proof using All.
  induction k as [|k IH]; intros Hk Hm H1 H2 H3; [apply (below_zero sp rd SP)|].
  cbn [fill]. replace (4 * Z.of_nat (S k))%Z with (4 * Z.of_nat k + 4)%Z by lia. apply fill_step_fin; try lia. apply IH; lia.
Qed.
Lemma fill_inf m k : (Z.of_nat k <= 2 ^ 50)%Z -> (k <= m)%nat -> (p < k \/ m <= p < m + k \/ 2 * m <= p < 2 * m + k)%nat -> sp (fill f m k) = Inf (sgn m).
Proof using All.
  induction k as [|k IH]; intros Hk Hm H; [lia|]. cbn [fill].
  assert (F2 : forall q, q <> p -> below sp (2 * 1) 800 (ofZ 2 * f q)) by (intros q Hq; apply (below_scal sp rd SP); [lia|lia|lia|lia|now apply Hfin]).
  destruct (Nat.eq_dec p k) as [E|N1]; [|destruct (Nat.eq_dec p (m + k)) as [E|N2]; [|destruct (Nat.eq_dec p (2 * m + k)) as [E|N3]]].
  - unfold sgn. rewrite (proj2 (Nat.ltb_lt p m)) by lia. apply (inf_add_r sp rd SP s (4 * Z.of_nat k + 1 + 2 * 1) 800); [|now rewrite <- E].
    apply (below_sub sp rd SP); [lia|lia|lia|lia| |apply F2; lia].
    apply (below_add sp rd SP); [lia|lia|lia|lia|apply fill_fin; lia|apply Hfin; lia].
  - unfold sgn. rewrite (proj2 (Nat.ltb_ge p m)), (proj2 (Nat.ltb_lt p (2 * m))) by lia.
    apply (inf_add_l sp rd SP _ 1 800); [|apply Hfin; lia]. apply (inf_sub_r sp rd SP s (4 * Z.of_nat k + 1) 800).
    + apply (below_add sp rd SP); [lia|lia|lia|lia|apply fill_fin; lia|apply Hfin; lia].
    + apply (inf_scal sp rd SP); [lia|now rewrite <- E].
  - unfold sgn. rewrite (proj2 (Nat.ltb_ge p m)), (proj2 (Nat.ltb_ge p (2 * m))) by lia.
    apply (inf_add_l sp rd SP _ 1 800); [|apply Hfin; lia]. apply (inf_sub_l sp rd SP _ (2 * 1) 800); [|apply F2; lia].
    apply (inf_add_r sp rd SP s (4 * Z.of_nat k) 800); [apply fill_fin; lia|now rewrite <- E].
  - apply (inf_add_l sp rd SP _ 1 800); [|apply Hfin; lia]. apply (inf_sub_l sp rd SP _ (2 * 1) 800); [|apply F2; lia].
    apply (inf_add_l sp rd SP _ 1 800); [|apply Hfin; lia]. apply IH; lia.
Qed.
Lemma slide_fin m k : p <> k -> p <> (m + k)%nat -> p <> (2 * m + k)%nat -> p <> (3 * m + k)%nat -> below sp 8 800 (slide f m k).
Proof using All.
  intros H0 H1 H2 H3. unfold slide. change 8%Z with (1 + 3 * 1 + 3 * 1 + 1)%Z.
  apply (below_add sp rd SP); [lia|lia|lia|lia| |apply Hfin; lia]. apply (below_sub sp rd SP); [lia|lia|lia|lia| |].
  - apply (below_add sp rd SP); [lia|lia|lia|lia|apply below_neg; [lia|apply Hfin; lia]|]. apply (below_scal sp rd SP); [lia|lia|lia|lia|apply Hfin; lia].
  - apply (below_scal sp rd SP); [lia|lia|lia|lia|apply Hfin; lia].
Qed.
Lemma slide_inf m k : (1 <= m)%nat ->
  (p = k -> sp (slide f m k) = Inf (negb s)) /\ ((p = m + k)%nat -> sp (slide f m k) = Inf s) /\
  ((p = 2 * m + k)%nat -> sp (slide f m k) = Inf (negb s)) /\ ((p = 3 * m + k)%nat -> sp (slide f m k) = Inf s).
Proof using All.
  intros Hm. unfold slide.
  assert (F3 : forall q, q <> p -> below sp (3 * 1) 800 (ofZ 3 * f q)) by (intros q Hq; apply (below_scal sp rd SP); [lia|lia|lia|lia|now apply Hfin]).
  split; [|split; [|split]]; intros E.
  - apply (inf_add_l sp rd SP _ 1 800); [|apply Hfin; lia]. apply (inf_sub_l sp rd SP _ (3 * 1) 800); [|apply F3; lia].
    apply (inf_add_l sp rd SP _ (3 * 1) 800); [|apply F3; lia]. apply inf_neg. now rewrite <- E.
  - apply (inf_add_l sp rd SP _ 1 800); [|apply Hfin; lia]. apply (inf_sub_l sp rd SP _ (3 * 1) 800); [|apply F3; lia].
    apply (inf_add_r sp rd SP _ 1 800); [apply below_neg; [lia|apply Hfin; lia]|]. apply (inf_scal sp rd SP); [lia|now rewrite <- E].
  - apply (inf_add_l sp rd SP _ 1 800); [|apply Hfin; lia]. apply (inf_sub_r sp rd SP s (1 + 3 * 1) 800).
    + apply (below_add sp rd SP); [lia|lia|lia|lia|apply below_neg; [lia|apply Hfin; lia]|apply F3; lia].
    + apply (inf_scal sp rd SP); [lia|now rewrite <- E].
  - apply (inf_add_r sp rd SP _ (1 + 3 * 1 + 3 * 1) 800); [|now rewrite <- E]. apply (below_sub sp rd SP); [lia|lia|lia|lia| |apply F3; lia].
    apply (below_add sp rd SP); [lia|lia|lia|lia|apply below_neg; [lia|apply Hfin; lia]|apply F3; lia].
Qed.
Lemma live_state m j : (1 <= m)%nat -> (3 * m + j <= len x)%nat ->
  ((3 * m + j <= p)%nat -> below sp (4 * Z.of_nat m + 8 * Z.of_nat j) 800 (live f m j)) /\
  ((p < 3 * m + j)%nat -> ~ in_two_steps (3 * m + j) m p -> sp (live f m j) = Inf (sgn m)) /\
  ((p < 3 * m + j)%nat -> in_two_steps (3 * m + j) m p -> sp (live f m j) = NaN).
Proof using All.
  intros Hm. induction j as [|j IH]; intros HN.
  - cbn [live]. split; [|split].
    + intros Hj. rewrite Z.add_0_r. apply fill_fin; lia.
    + intros Hj _. apply fill_inf; lia.
    + intros Hj H. unfold in_two_steps in H. lia.
  - destruct (IH ltac:(lia)) as (I1 & I2 & I3). clear IH. cbn [live]. destruct (slide_inf m j Hm) as (S0 & S1 & S2 & S3). split; [|split].
    + intros Hj. replace (4 * Z.of_nat m + 8 * Z.of_nat (S j))%Z with (4 * Z.of_nat m + 8 * Z.of_nat j + 8)%Z by lia.
      apply (below_add sp rd SP); [lia|lia|lia|lia|apply I1; lia|apply slide_fin; lia].
    + intros Hj Ht. destruct (Nat.eq_dec p (3 * m + j)) as [E|N].
      * unfold sgn. rewrite (proj2 (Nat.ltb_ge p m)), (proj2 (Nat.ltb_ge p (2 * m))) by lia.
        apply (inf_add_r sp rd SP _ (4 * Z.of_nat m + 8 * Z.of_nat j) 800); [apply I1; lia|now apply S3].
      * apply (inf_add_l sp rd SP _ 8 800); [apply I2; [lia|unfold in_two_steps in *; lia]|]. unfold in_two_steps in Ht. apply slide_fin; lia.
    + intros Hj Ht. assert (D : (p < 3 * m + j /\ in_two_steps (3 * m + j) m p \/ ~ in_two_steps (3 * m + j) m p)%nat) by (unfold in_two_steps in *; lia).
      destruct D as [[D1 D]|D].
      * rewrite (sp_add _ _ SP) by (left; now rewrite (I3 D1 D)). now rewrite (I3 D1 D).
      * assert (H : (p < 3 * m + j)%nat) by (unfold in_two_steps in *; lia). specialize (I2 H D). unfold sgn in I2.
        destruct (Nat.ltb_spec p m) as [L|L]; [|destruct (Nat.ltb_spec p (2 * m)) as [L2|L2]].
        -- apply (inf_cancel sp rd SP s); [exact I2|]. apply S0. unfold in_two_steps in *; lia.
        -- apply (inf_cancel sp rd SP (negb s)); [exact I2|]. rewrite negb_involutive. apply S1. unfold in_two_steps in *; lia.
        -- apply (inf_cancel sp rd SP s); [exact I2|]. apply S2. unfold in_two_steps in *; lia.
Qed.
Lemma live_sq_nn m j : (1 <= m)%nat -> (3 * m + j <= len x)%nat -> ~ in_two_steps (3 * m + j) m p -> isnn sp (live_sq f m j).
Proof using All.
  intros Hm. induction j as [|j IH]; intros HN Ht; cbn [live_sq].
  - destruct (live_state m 0 Hm HN) as (I1 & I2 & _). destruct (Nat.le_gt_cases (3 * m + 0) p) as [L|L].
    + eapply (nn_sq sp rd SP), I1, L.
    + apply pinf_nn. eapply (inf_sq sp rd SP), I2; assumption.
  - apply (nn_add sp rd SP).
    + apply IH; [lia|]. unfold in_two_steps in *; lia.
    + destruct (live_state m (S j) Hm HN) as (I1 & I2 & _). destruct (Nat.le_gt_cases (3 * m + S j) p) as [L|L].
      * eapply (nn_sq sp rd SP), I1, L.
      * apply pinf_nn. eapply (inf_sq sp rd SP), I2; assumption.
Qed.
Lemma live_sq_inf m j : (1 <= m)%nat -> (3 * m + j <= len x)%nat -> (p < 3 * m + j)%nat -> ~ in_two_steps (3 * m + j) m p -> pinf sp (live_sq f m j).
Proof using All.
  intros Hm HN L Ht. destruct (live_state m j Hm HN) as (_ & I2 & _). specialize (I2 L Ht). destruct j as [|j]; cbn [live_sq].
  - eapply (inf_sq sp rd SP), I2.
  - assert (P : pinf sp (nsq (live f m (S j)))) by (eapply (inf_sq sp rd SP), I2). apply (nn_add sp rd SP).
    + apply live_sq_nn; [exact Hm|lia|unfold in_two_steps in *; lia].
    + now apply pinf_nn.
    + now right.
Qed.
Lemma nan_add a b : sp a = NaN \/ sp b = NaN -> sp (a + b) = NaN.
Proof using SP. intros [E|E]; rewrite (sp_add _ _ SP) by (rewrite E; first [now left|now right]); rewrite E; [reflexivity|now destruct (sp a)]. Qed.
Lemma nan_mul a b : sp a = NaN \/ sp b = NaN -> sp (a * b) = NaN.
Proof using SP. intros [E|E]; rewrite (sp_mul _ _ SP) by (rewrite E; first [now left|now right]); rewrite E; [reflexivity|now destruct (sp a)]. Qed.
Lemma nan_sqrt a : sp a = NaN -> sp (nsqrt a) = NaN.
Proof using SP. intros E. rewrite (sp_sqrt _ _ SP) by (now rewrite E). now rewrite E. Qed.
Lemma live_sq_nan m j : (1 <= m)%nat -> (3 * m + j <= len x)%nat -> (p < 3 * m + j)%nat -> in_two_steps (3 * m + j) m p -> sp (live_sq f m j) = NaN.
Proof using All.
  intros Hm HN L Ht. destruct (live_state m j Hm HN) as (_ & _ & I3). specialize (I3 L Ht).
  assert (P : sp (nsq (live f m j)) = NaN) by (unfold nsq; apply nan_mul; now left).
  destruct j as [|j]; cbn [live_sq]; [exact P|]. apply nan_add. now right.
Qed.

Lemma tdev_inf af : (1 <= af)%nat -> seen_once (len x) af p -> sp (snd (slot_after tdev_g x af 0 (len x))) = Inf false.
Proof using All.
  intros Ha [HN Ht]. rewrite tdev_slot_gen by lia. destruct (Nat.ltb_spec (len x) (3 * af)); [lia|]. cbn [snd]. fold f. unfold tdev_value.
  apply (pinf_sqrt sp rd SP). assert (E : (3 * af + (len x - 3 * af) = len x)%nat) by lia.
  assert (P : pinf sp (live_sq f af (len x - 3 * af))) by (apply live_sq_inf; rewrite ?E; auto; lia).
  assert (W1 : within sp 1 (ofZ 1)) by (apply (within_ofZ sp rd SP); lia).
  assert (Wa : within sp 50 (ofN af)) by (apply (within_ofN sp rd SP); lia).
  apply (pinf_mul_l sp rd SP (1 + 3 + (1 + 50) + (1 + (50 + 50)))); [|exact P].
  apply (within_mul sp rd SP); [lia|lia|lia| |apply (within_div sp rd SP); [lia|lia|lia|exact W1|unfold nsq; now apply (within_mul sp rd SP)]].
  apply (within_mul sp rd SP); [lia|lia|lia| |apply (within_div sp rd SP); [lia|lia|lia|exact W1|apply (within_ofZ sp rd SP); lia]].
  apply (within_div sp rd SP); [lia|lia|lia|exact W1|apply (within_ofZ sp rd SP); lia].
Qed.
Lemma tdev_nan af : (1 <= af)%nat -> seen_twice (len x) af p -> sp (snd (slot_after tdev_g x af 0 (len x))) = NaN.
Proof using All.
  intros Ha [HN Ht]. rewrite tdev_slot_gen by lia. destruct (Nat.ltb_spec (len x) (3 * af)); [lia|]. cbn [snd]. fold f. unfold tdev_value.
  apply nan_sqrt. apply nan_mul. right. assert (E : (3 * af + (len x - 3 * af) = len x)%nat) by lia. apply live_sq_nan; rewrite ?E; auto; lia.
Qed.
End One.

(** One infinite sample among finite ones: oadev_realtime and ohdev_realtime report +inf at every averaging factor that uses the sample,
    tdev_realtime +inf and, once the sliding window has met the sample a second time, NaN. *)
Theorem C122_infinite c afs (x : list A) p s : auto_afs c = false -> Forall (fun af => (1 <= af)%nat) afs ->
  one_infinite sp x p s -> sane sp (len x) (tau0 c) ->
  Forall (fun q : (@cfg A -> @rt A -> A -> res (@rt A)) * (nat -> nat -> nat -> Prop) * ext => let '(ap, uses, v) := q in
    exists st, run ap c (rt_init c afs) x = Ok st /\ rafs st = afs /\ shows sp v uses (len x) p afs (rt_devs st))
  [(oadev_add_phase, in_triple, Inf false); (ohdev_add_phase, in_quadruple, Inf false);
   (tdev_add_phase, seen_once, Inf false); (tdev_add_phase, seen_twice, NaN)].
Proof using All.
  intros Ha H1 Hone Hsane. rewrite Forall_forall in H1.
  pose proof (PropsInf.Hp sp x p s Hone) as P1. pose proof (PropsInf.Hinf sp x p s Hone) as P2. pose proof (PropsInf.Hfin sp rd SP x p s Hone) as P3.
  pose proof (proj1 Hsane) as P4. pose proof (PropsInf.Hrate sp x (tau0 c) Hsane) as P5. repeat constructor.
  - destruct (fixed_run_any oadev_upd c _ afs x (oadev_local c) Ha) as (st & E & Er & _ & Ed). exists st. split; [exact E|]. split; [exact Er|].
    unfold shows. rewrite Ed. apply Forall2_map_r'. intros af Hi. apply (oadev_inf x p s P1 P2 P3 P4 (tau0 c) P5); auto.
  - destruct (fixed_run_any ohdev_upd c _ afs x (ohdev_local c) Ha) as (st & E & Er & _ & Ed). exists st. split; [exact E|]. split; [exact Er|].
    unfold shows. rewrite Ed. apply Forall2_map_r'. intros af Hi. apply (ohdev_inf x p s P1 P2 P3 P4 (tau0 c) P5); auto.
  - destruct (fixed_run_any tdev_upd c _ afs x (tdev_local c) Ha) as (st & E & Er & _ & Ed). exists st. split; [exact E|]. split; [exact Er|].
    unfold shows. rewrite Ed. apply Forall2_map_r'. intros af Hi. apply (tdev_inf x p s P1 P2 P3 P4 (tau0 c) P5); auto.
  - destruct (fixed_run_any tdev_upd c _ afs x (tdev_local c) Ha) as (st & E & Er & _ & Ed). exists st. split; [exact E|]. split; [exact Er|].
    unfold shows. rewrite Ed. apply Forall2_map_r'. intros af Hi. apply (tdev_nan x p s P1 P2 P3 P4 (tau0 c) P5); auto.
Qed.
(** tdev_realtime.mdev() *)
Theorem C122_mdev c afs (x : list A) p s : auto_afs c = false -> Forall (fun af => (1 <= af)%nat) afs ->
  one_infinite sp x p s -> sane sp (len x) (tau0 c) ->
  exists st ds, run tdev_add_phase c (rt_init c afs) x = Ok st /\ rt_mdev c st = Ok ds /\
    shows sp (Inf false) seen_once (len x) p afs ds /\ shows sp NaN seen_twice (len x) p afs ds.
Proof using All.
  intros Ha H1 Hone Hsane. rewrite Forall_forall in H1.
  pose proof (PropsInf.Hp sp x p s Hone) as P1. pose proof (PropsInf.Hinf sp x p s Hone) as P2. pose proof (PropsInf.Hfin sp rd SP x p s Hone) as P3.
  pose proof (proj1 Hsane) as P4. pose proof (PropsInf.Hrate sp x (tau0 c) Hsane) as P5.
  destruct (fixed_run_any tdev_upd c _ afs x (tdev_local c) Ha) as (st & E & Er & _ & Ed).
  exists st. eexists. split; [exact E|]. unfold rt_mdev. rewrite Er. unfold rt_devs in Ed. rewrite Ed.
  rewrite <- (map_tab_nth (fun af => snd (slot_after tdev_g x af 0 (len x)))).
  rewrite (mdev_loop_gen (fun idx v => ndiv (nmul v (nsqrt (ofZ 3))) (nmul (ofN (nth idx afs 0%nat)) (tau0 c)))) by lia. split; [reflexivity|].
  rewrite (tab_ext _ _ (fun j => ndiv (nmul (snd (slot_after tdev_g x (nth j afs 0%nat) 0 (len x))) (nsqrt (ofZ 3))) (nmul (ofN (nth j afs 0%nat)) (tau0 c))))
    by (intros j Hj; destruct (Nat.ltb_spec j (len afs)); [reflexivity|lia]).
  rewrite (map_tab_nth (fun af => ndiv (nmul (snd (slot_after tdev_g x af 0 (len x))) (nsqrt (ofZ 3))) (nmul (ofN af) (tau0 c)))).
  assert (W : forall af, (1 <= af)%nat -> (af <= len x)%nat -> within sp (50 + 100) (ofN af * tau0 c)).
  { intros af H H'. apply (within_mul sp rd SP); [lia|lia|lia|apply (within_ofN sp rd SP); lia|exact P5]. }
  split; apply Forall2_map_r'; intros af Hi Hu; pose proof (H1 af Hi) as Hm; pose proof (proj1 Hu) as Hl; specialize (W af Hm ltac:(lia)).
  - apply (pinf_div sp rd SP (50 + 100)); [|exact W]. apply (pinf_mul sp rd SP 2); [|apply (sqrt3 sp rd SP)].
    apply (tdev_inf x p s P1 P2 P3 P4 (tau0 c) P5); auto.
  - assert (N : sp (snd (slot_after tdev_g x af 0 (len x)) * nsqrt (ofZ 3)) = NaN)
      by (apply nan_mul; left; apply (tdev_nan x p s P1 P2 P3 P4 (tau0 c) P5); auto).
    destruct (within_pos sp 150 _ W) as (r & Er' & Hr). rewrite (sp_div _ _ SP), N; [reflexivity|left; now rewrite N|].
    rewrite Er'. intros [=]. lra.
Qed.
End Thm.
Print Assumptions C122_infinite.
Print Assumptions C122_mdev.

(** However many samples follow, it stays so, and tdev always ends in NaN. *)
Theorem C122_forever N N' m p : (1 <= m)%nat -> (N <= N')%nat -> (p < N)%nat ->
  (in_triple N m p -> in_triple N' m p) /\ (in_quadruple N m p -> in_quadruple N' m p) /\ (seen_twice N m p -> seen_twice N' m p) /\
  (3 * m <= N -> seen_once N m p \/ seen_twice N m p)%nat /\ (p + 3 * m < N' -> in_triple N' m p /\ in_quadruple N' m p /\ seen_twice N' m p)%nat.
Proof.
  intros Hm HN Hp. unfold in_triple, in_quadruple, seen_twice, seen_once, in_one_step, in_two_steps. split; [|split; [|split; [|split]]].
  - intros (i & Hi & Hu). exists i. lia.
  - intros (i & Hi & Hu). exists i. lia.
  - lia.
  - lia.
  - intros H. split; [exists p; lia|]. split; [exists p; lia|]. lia.
Qed.
Print Assumptions C122_forever.

Local Open Scope float_scope.
Definition rt_kinds (ap : @cfg float -> @rt float -> float -> res (@rt float)) (c : @cfg float) (afs : list nat) (x : list float) : list string :=
  match run ap c (rt_init c afs) x with Ok st => map kind (rt_devs st) | Err _ => [] end.
Definition c1 : @cfg float := mkcfg 1 false [].
(** the record of C111's example, spoiled at sample 6 or 9: deviations after 7, 8, 9, 10 samples *)
Example C122_ex : map (fun n => rt_kinds oadev_add_phase c1 [1; 2; 3; 4]%nat (firstn n (spike 6 infinity))) [6; 7; 8; 9; 10]%nat =
    [["finite"; "finite"; "finite"; "finite"]; ["inf"; "inf"; "inf"; "finite"]; ["inf"; "inf"; "inf"; "finite"];
     ["inf"; "inf"; "inf"; "finite"]; ["inf"; "inf"; "inf"; "finite"]]%string /\
  rt_kinds ohdev_add_phase c1 [1; 2; 3]%nat (spike 9 neg_infinity) = ["inf"; "inf"; "inf"]%string /\
  map (fun n => rt_kinds tdev_add_phase c1 [1; 2; 3]%nat (firstn n (spike 6 infinity))) [6; 7; 8; 9; 10]%nat =
    [["finite"; "finite"; "finite"]; ["inf"; "inf"; "finite"]; ["nan"; "inf"; "finite"]; ["nan"; "nan"; "inf"]; ["nan"; "nan"; "nan"]]%string /\
  match run tdev_add_phase c1 (rt_init c1 [1; 2; 3]%nat) (firstn 9 (spike 6 infinity)) with
  | Ok st => match rt_mdev c1 st with Ok ds => map kind ds | Err _ => [] end | Err _ => [] end = ["nan"; "nan"; "inf"]%string.
Proof. vm_compute. repeat split. Qed.
Example C122_ex_hyp : auto_afs c1 = false /\ one_infinite toX (spike 9 neg_infinity) 9 true /\ sane toX (len (spike 9 neg_infinity)) (tau0 c1) /\
  in_triple 10 4 9 /\ in_quadruple 10 3 9 /\ seen_once 10 3 9 /\ seen_twice 10 3 6.
Proof.
  destruct C111_ex_hyp as (H1 & H2 & _). split; [reflexivity|]. split; [exact H1|]. split; [exact H2|].
  unfold in_triple, in_quadruple, seen_once, seen_twice, in_one_step, in_two_steps. split; [exists 1%nat; lia|]. split; [exists 0%nat; lia|]. lia.
Qed.
