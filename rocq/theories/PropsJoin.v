(** * C123: joining records. *)
From Coq Require Import String Reals List ZArith Lra Lia Arith Bool Sorted Psatz.
From Verif Require Import Base Num NpList ModelCore ModelDev ModelMisc ModelCi NumR NumX ListFacts Spec RSum TauProofs DevProofs TotProofs Closed Laws Laws2 Laws3 SemiProofs ConvProofs GradProofs PropsGrad PropsSlope.
Import ListNotations.
Local Open Scope R_scope.
Local Notation len := List.length.

(** ** specification *)
(** A statistic which averages a local quantity: [n dev^2] is the sum of [p_term x m i] over the N - k(m) places i of the record; the reported
    count is [p_mult m] per place. *)
Record parts := Parts { p_fun : dev_fun; p_lost : nat -> nat; p_mult : nat -> Z; p_term : R -> list R -> nat -> nat -> R }.
Definition one (_ : nat) : Z := 1%Z.
Definition wd2 (x : list R) (m i : nat) : R := bigsum m (fun a => d2 x m (i + a)).
Definition freq_at (rate : R) (x : list R) (i : nat) : R := rate * (x.[i + 1] - x.[i]).
Definition theo1_term (x : list R) (m i : nat) : R :=
  bigsum (Nat.div2 m) (fun d => / (INR (Nat.div2 m) - INR d) * ((x.[i] - x.[i + Nat.div2 m - d]) + (x.[i + m] - x.[i + Nat.div2 m + d])) ^ 2).
Definition tau_of (rate : R) (m : nat) : R := INR m * (1 / rate).
Definition all_parts : list parts :=
  [ Parts oadev (fun m => 2 * m)%nat one (fun rate x m i => / (2 * tau_of rate m ^ 2) * d2 x m i ^ 2);
    Parts ohdev (fun m => 3 * m)%nat one (fun rate x m i => / (6 * tau_of rate m ^ 2) * d3 x m i ^ 2);
    Parts mdev (fun m => 3 * m - 1)%nat one (fun rate x m i => / (2 * INR m ^ 2 * tau_of rate m ^ 2) * wd2 x m i ^ 2);
    Parts tdev (fun m => 3 * m - 1)%nat one (fun rate x m i => / (6 * INR m ^ 2) * wd2 x m i ^ 2);
    Parts pdev (fun m => 2 * m)%nat one (fun rate x m i => 72 / (INR m ^ 4 * tau_of rate m ^ 2) * pterm m x i ^ 2);
    Parts mtotdev (fun m => 3 * m - 1)%nat one (fun rate x m i => / (2 * tau_of rate m ^ 2) * tot_term (fun a => x.[i + a]) m);
    Parts ttotdev (fun m => 3 * m - 1)%nat one (fun rate x m i => / 6 * tot_term (fun a => x.[i + a]) m);
    Parts htotdev (fun m => 3 * m)%nat one (fun rate x m i =>
      if Nat.eqb m 1 then / (6 * tau_of rate 1 ^ 2) * d3 x 1 i ^ 2 else / 6 * tot_term (fun a => freq_at rate x (i + a)) m);
    Parts theo1 (fun m => m) (fun m => Z.of_nat (Nat.div2 m)) (fun rate x m i => INR (Nat.div2 m) / (3 / 4 * tau_of rate m ^ 2) * theo1_term x m i);
    Parts tierms (fun m => m) one (fun rate x m i => (x.[i + m] - x.[i]) ^ 2) ].

(** ** locality *)
Definition local (P : parts) : Prop := forall rate x z m i j, (1 <= m)%nat ->
  (forall a, (a <= p_lost P m)%nat -> x.[i + a] = z.[j + a]) -> p_term P rate x m i = p_term P rate z m j.
Lemma all_local P : In P all_parts -> local P.
Proof.
  intros HP rate x z m i j Hm H. unfold all_parts in HP.
  assert (W : (forall a, (a <= 3 * m - 1)%nat -> x.[i + a] = z.[j + a]) -> wd2 x m i = wd2 z m j).
  { intros G. unfold wd2. apply bigsum_ext. intros a Ha. unfold d2. rewrite <- !Nat.add_assoc. rewrite !G by lia. reflexivity. }
  repeat (destruct HP as [<-|HP]); [..|destruct HP]; cbn [p_term p_lost] in *.
  - f_equal. unfold d2. rewrite !H, <- (Nat.add_0_r i), <- (Nat.add_0_r j), H by lia. reflexivity.
  - f_equal. unfold d3. rewrite !H, <- (Nat.add_0_r i), <- (Nat.add_0_r j), H by lia. reflexivity.
  - f_equal. now rewrite (W H).
  - f_equal. now rewrite (W H).
  - f_equal. f_equal. unfold pterm. destruct (Nat.eqb_spec m 1) as [E|_].
    + f_equal. unfold d2. rewrite !H, <- (Nat.add_0_r i), <- (Nat.add_0_r j), H by lia. reflexivity.
    + apply bigsum_ext. intros k Hk. rewrite <- !Nat.add_assoc, !H by lia. reflexivity.
  - f_equal. apply tot_term_ext. intros k Hk. apply H. lia.
  - f_equal. apply tot_term_ext. intros k Hk. apply H. lia.
  - destruct (Nat.eqb_spec m 1) as [E|_].
    + f_equal. unfold d3. rewrite !H, <- (Nat.add_0_r i), <- (Nat.add_0_r j), H by lia. reflexivity.
    + f_equal. apply tot_term_ext. intros k Hk. unfold freq_at. rewrite <- !Nat.add_assoc, !H by lia. reflexivity.
  - f_equal. unfold theo1_term. assert (Hh : (2 * Nat.div2 m <= m)%nat) by (pose proof (Nat.div2_odd m); destruct (Nat.odd m); cbn [Nat.b2n] in *; lia).
    apply bigsum_ext. intros d Hd. f_equal. rewrite <- !Nat.add_assoc, <- !Nat.add_sub_assoc by lia. rewrite !H by lia.
    pose proof (H 0%nat ltac:(lia)) as H0. rewrite !Nat.add_0_r in H0. rewrite H0. reflexivity.
  - rewrite !H, <- (Nat.add_0_r i), <- (Nat.add_0_r j), H by lia. reflexivity.
Qed.

Lemma term_nonneg P : In P all_parts -> forall rate x m i, 0 < rate -> (1 <= m)%nat -> 0 <= p_term P rate x m i.
Proof.
  intros HP rate x m i Hr Hm.
  assert (T : forall q, (1 <= q)%nat -> 0 < tau_of rate q) by (intros q Hq; unfold tau_of; apply Rmult_lt_0_compat; [apply lt_0_INR; lia|apply Rdiv_lt_0_compat; lra]).
  assert (Hm0 : 0 < INR m) by (apply lt_0_INR; lia). pose proof (T m Hm) as Ht. pose proof (T 1%nat (le_n _)) as Ht1.
  unfold all_parts in HP.
  assert (I : forall a, 0 < a -> 0 <= / a) by (intros; left; now apply Rinv_0_lt_compat).
  assert (Q2 : 0 < tau_of rate m ^ 2) by now apply pow_lt. assert (Q1 : 0 < tau_of rate 1 ^ 2) by now apply pow_lt.
  assert (M2 : 0 < INR m ^ 2) by now apply pow_lt. assert (M4 : 0 < INR m ^ 4) by now apply pow_lt.
  repeat (destruct HP as [<-|HP]); [..|destruct HP]; cbn [p_term].
  1-4: apply Rmult_le_pos; [apply I|apply pow2_ge_0]; try apply Rmult_lt_0_compat; try apply Rmult_lt_0_compat; lra.
  - apply Rmult_le_pos; [|apply pow2_ge_0]. unfold Rdiv. apply Rmult_le_pos; [lra|]. apply I. now apply Rmult_lt_0_compat.
  - apply Rmult_le_pos; [|apply tot_term_nonneg]. apply I. lra.
  - apply Rmult_le_pos; [lra|apply tot_term_nonneg].
  - destruct (Nat.eqb_spec m 1); apply Rmult_le_pos; [apply I; lra|apply pow2_ge_0|lra|apply tot_term_nonneg].
  - apply Rmult_le_pos; [unfold Rdiv; apply Rmult_le_pos; [apply pos_INR|apply I; lra]|]. unfold theo1_term. apply bigsum_nonneg. intros d Hd.
    apply Rmult_le_pos; [|apply pow2_ge_0]. apply I. apply lt_INR in Hd. lra.
  - apply pow2_ge_0.
Qed.

(** ** one row *)
Lemma en0 (n : Z) c S v : (0 < n)%Z -> 0 <= c -> 0 <= S -> v = / IZR n * (c * S) -> IZR n * sqrt v ^ 2 = c * S.
Proof. apply en'. Qed.
Lemma row_parts P x rate taus t d n : In P all_parts -> 0 < rate -> row (p_fun P x rate "phase"%string taus) t d n ->
  exists m, t = INR m / rate /\ (1 <= m)%nat /\ (p_lost P m < len x)%nat /\ n = (p_mult P m * Z.of_nat (len x - p_lost P m))%Z /\
    IZR n * d ^ 2 = bigsum (len x - p_lost P m) (p_term P rate x m).
Proof.
  intros HP Hr Hrow. unfold all_parts in HP.
  repeat (destruct HP as [<-|HP]); [..|destruct HP]; cbn [p_fun p_lost p_mult p_term] in *; unfold one.
  - apply (row_stat st_oadev) in Hrow as (m & -> & [Hm _] & -> & -> & Hc); [|cbn; auto 20|exact Hr]. exists m. split; [reflexivity|]. split; [exact Hm|].
    rewrite e_oadev by (auto; lia). cbn [s_cnt st_oadev] in *. unfold c_oadev in *. split; [lia|]. split; [lia|].
    unfold ss, tau_of. now rewrite bigsum_scal.
  - apply (row_stat st_ohdev) in Hrow as (m & -> & [Hm _] & -> & -> & Hc); [|cbn; auto 20|exact Hr]. exists m. split; [reflexivity|]. split; [exact Hm|].
    rewrite e_ohdev by (auto; lia). cbn [s_cnt st_ohdev] in *. unfold c_ohdev in *. split; [lia|]. split; [lia|].
    unfold ss, tau_of. now rewrite bigsum_scal.
  - apply (row_stat st_mdev) in Hrow as (m & -> & [Hm _] & -> & -> & Hc); [|cbn; auto 20|exact Hr]. exists m. split; [reflexivity|]. split; [exact Hm|].
    rewrite e_mdev by (auto; lia). cbn [s_cnt st_mdev] in *. unfold c_mdev in *. split; [lia|]. split; [lia|].
    unfold ss, tau_of. rewrite bigsum_scal. f_equal. replace (len x + 1 - 3 * m)%nat with (len x - (3 * m - 1))%nat by lia. reflexivity.
  - apply (row_stat st_tdev) in Hrow as (m & -> & [Hm _] & -> & -> & Hc); [|cbn; auto 20|exact Hr]. exists m. split; [reflexivity|]. split; [exact Hm|].
    rewrite e_tdev by (auto; lia). cbn [s_cnt st_tdev] in *. unfold c_mdev in *. split; [lia|]. split; [lia|].
    unfold ss, tau_of. rewrite bigsum_scal. f_equal. replace (len x + 1 - 3 * m)%nat with (len x - (3 * m - 1))%nat by lia. reflexivity.
  - apply (row_stat st_pdev) in Hrow as (m & -> & [Hm _] & -> & -> & Hc); [|cbn; auto 20|exact Hr]. exists m. split; [reflexivity|]. split; [exact Hm|].
    rewrite e_pdev by (auto; lia). cbn [s_cnt st_pdev] in *. unfold c_oadev in *. split; [lia|]. split; [lia|].
    unfold ss, tau_of. now rewrite bigsum_scal.
  - apply (row_stat st_mtotdev) in Hrow as (m & -> & [Hm _] & -> & -> & Hc); [|cbn; auto 20|exact Hr]. exists m. split; [reflexivity|]. split; [exact Hm|].
    cbn [s_cnt st_mtotdev] in *. unfold c_mdev in *. split; [lia|]. split; [lia|]. rewrite bigsum_scal. unfold s_dev. cbn [s_var st_mtotdev].
    assert (Ht : 0 < tau_of rate m) by (unfold tau_of; apply Rmult_lt_0_compat; [apply lt_0_INR; lia|apply Rdiv_lt_0_compat; lra]).
    apply en0; [lia|left; apply Rinv_0_lt_compat; apply Rmult_lt_0_compat; [lra|now apply pow_lt]|apply bigsum_nonneg; intros; apply tot_term_nonneg|].
    unfold mtotvar, mdev_n. fold (tau_of rate m). replace (Z.to_nat (Z.of_nat (len x) - 3 * Z.of_nat m + 1)) with (len x - (3 * m - 1))%nat by lia.
    rewrite Rinv_mult. ring.
  - apply (row_stat st_ttotdev) in Hrow as (m & -> & [Hm _] & -> & -> & Hc); [|cbn; auto 20|exact Hr]. exists m. split; [reflexivity|]. split; [exact Hm|].
    cbn [s_cnt st_ttotdev] in *. unfold c_mdev in *. split; [lia|]. split; [lia|]. rewrite bigsum_scal. unfold s_dev. cbn [s_var st_ttotdev].
    assert (Ht : 0 < tau_of rate m) by (unfold tau_of; apply Rmult_lt_0_compat; [apply lt_0_INR; lia|apply Rdiv_lt_0_compat; lra]).
    apply en0; [lia|lra|apply bigsum_nonneg; intros; apply tot_term_nonneg|].
    unfold mtotvar, mdev_n. fold (tau_of rate m). replace (Z.to_nat (Z.of_nat (len x) - 3 * Z.of_nat m + 1)) with (len x - (3 * m - 1))%nat by lia.
    apply IZR_lt in Hc. field. split; lra.
  - apply (row_stat st_htotdev) in Hrow as (m & -> & [Hm _] & -> & -> & Hc); [|cbn; auto 20|exact Hr]. exists m. split; [reflexivity|]. split; [exact Hm|].
    cbn [s_cnt st_htotdev] in *. unfold s_dev. cbn [s_var st_htotdev]. unfold htotvar, c_htot in *. destruct (Nat.eqb_spec m 1) as [->|N1].
    + split; [lia|]. split; [lia|]. rewrite bigsum_scal.
      assert (Ht : 0 < tau_of rate 1) by (unfold tau_of; apply Rmult_lt_0_compat; [apply lt_0_INR; lia|apply Rdiv_lt_0_compat; lra]).
      apply en0; [lia|left; apply Rinv_0_lt_compat; apply Rmult_lt_0_compat; [lra|now apply pow_lt]|apply bigsum_nonneg; intros; apply pow2_ge_0|].
      unfold ohvar, ohdev_n. fold (tau_of rate 1). change (3 * 1)%nat with 3%nat. rewrite <- INR_IZR_INZ, Rinv_mult. ring.
    + split; [lia|]. split; [lia|]. rewrite bigsum_scal. apply en0; [lia|lra|apply bigsum_nonneg; intros; apply tot_term_nonneg|].
      unfold htotvar_freq, mdev_n. assert (Lf : len (freq_of x rate) = (len x - 1)%nat) by (unfold freq_of; now rewrite map_length, seq_length).
      rewrite Lf. replace (Z.to_nat (Z.of_nat (len x - 1) - 3 * Z.of_nat m + 1)) with (len x - 3 * m)%nat by lia.
      rewrite Rinv_mult. rewrite (bigsum_ext _ _ (fun i => tot_term (fun a => freq_at rate x (i + a)) m)); [ring|].
      intros i Hi. apply tot_term_ext. intros k Hk. unfold freq_of, freq_at. rewrite (nth_indep _ 0 (rate * (x.[0 + 1] - x.[0]))) by (rewrite map_length, seq_length; lia).
      rewrite (map_nth (fun q => rate * (x.[q + 1] - x.[q]))), seq_nth by lia. reflexivity.
  - apply (row_stat st_theo1) in Hrow as (m & -> & [Hm Hl] & -> & -> & Hc); [|cbn; auto 20|exact Hr]. exists m. split; [reflexivity|]. split; [exact Hm|].
    cbn [s_cnt st_theo1] in *. unfold c_theo in *. split; [exact Hl|]. split; [nia|]. rewrite bigsum_scal. unfold s_dev. cbn [s_var st_theo1].
    assert (Ht : 0 < tau_of rate m) by (unfold tau_of; apply Rmult_lt_0_compat; [apply lt_0_INR; lia|apply Rdiv_lt_0_compat; lra]).
    assert (Hh : (0 < Nat.div2 m)%nat) by (destruct (Nat.div2 m); lia). assert (Hh' : 0 < INR (Nat.div2 m)) by now apply lt_0_INR.
    assert (Hq : 0 < INR (len x - m)) by (apply lt_0_INR; lia).
    apply en0; [lia| | |].
    + unfold Rdiv. apply Rmult_le_pos; [lra|]. left. apply Rinv_0_lt_compat. apply Rmult_lt_0_compat; [lra|now apply pow_lt].
    + apply bigsum_nonneg. intros i _. unfold theo1_term. apply bigsum_nonneg. intros d Hd. apply Rmult_le_pos; [|apply pow2_ge_0].
      left. apply Rinv_0_lt_compat. apply lt_INR in Hd. lra.
    + unfold theo1var. cbv zeta. fold (tau_of rate m). unfold theo1_term.
      rewrite mult_IZR, <- Nat2Z.inj_sub, <- !INR_IZR_INZ by lia. field. repeat split; lra.
  - apply (row_stat st_tierms) in Hrow as (m & -> & [Hm Hl] & -> & -> & Hc); [|cbn; auto 20|exact Hr]. exists m. split; [reflexivity|]. split; [exact Hm|].
    rewrite (e_tierms x rate m) by (auto; lia). cbn [s_cnt st_tierms] in *. unfold c_tie in *. split; [lia|]. split; [lia|]. unfold ss. ring.
Qed.

Lemma app_l (x y : list R) i : (i < len x)%nat -> (x ++ y).[i] = x.[i]. Proof. apply app_nth1. Qed.
Lemma app_r (x y : list R) i : (x ++ y).[len x + i] = y.[i].
Proof. rewrite app_nth2 by lia. f_equal. lia. Qed.
Lemma INR_rate m m' rate : 0 < rate -> INR m / rate = INR m' / rate -> m = m'.
Proof. intros Hr E. apply INR_eq. apply (f_equal (fun v => v * rate)) in E. unfold Rdiv in E. rewrite !Rmult_assoc, Rinv_l, !Rmult_1_r in E by lra. exact E. Qed.

(** Two records joined end to end: the counts add up, and so do count times squared deviation, but for the k(m) places which straddle the junction. *)
Theorem C123_join P x y rate taus taus1 taus2 t d n d1 n1 d2 n2 : In P all_parts -> 0 < rate ->
  row (p_fun P (x ++ y) rate "phase"%string taus) t d n -> row (p_fun P x rate "phase"%string taus1) t d1 n1 -> row (p_fun P y rate "phase"%string taus2) t d2 n2 ->
  exists m, t = INR m / rate /\ let k := p_lost P m in
    n = (n1 + n2 + p_mult P m * Z.of_nat k)%Z /\
    IZR n * d ^ 2 = IZR n1 * d1 ^ 2 + IZR n2 * d2 ^ 2 + bigsum k (fun i => p_term P rate (x ++ y) m (len x - k + i)).
Proof.
  intros HP Hr H H1 H2. apply (row_parts P) in H as (m & E & Hm & Hl & -> & ->); [|assumption..].
  apply (row_parts P) in H1 as (m1 & E1 & _ & Hl1 & -> & ->); [|assumption..]. apply (row_parts P) in H2 as (m2 & E2 & _ & Hl2 & -> & ->); [|assumption..].
  assert (m1 = m) by (apply (INR_rate m1 m rate Hr); congruence). assert (m2 = m) by (apply (INR_rate m2 m rate Hr); congruence). subst m1 m2.
  exists m. split; [exact E|]. cbv zeta. set (k := p_lost P m) in *. rewrite app_length in *. split; [nia|].
  replace (len x + len y - k)%nat with (len x - k + (k + (len y - k)))%nat by lia. rewrite bigsum_add, (bigsum_add k).
  rewrite (bigsum_ext (len x - k) (p_term P rate (x ++ y) m) (p_term P rate x m)).
  2:{ intros i Hi. apply (all_local P HP); [exact Hm|]. fold k. intros a Ha. apply app_l. lia. }
  rewrite (bigsum_ext (len y - k) (fun i => p_term P rate (x ++ y) m (len x - k + (k + i))) (p_term P rate y m)).
  2:{ intros i Hi. replace (len x - k + (k + i))%nat with (len x + i)%nat by lia. apply (all_local P HP); [exact Hm|]. fold k. intros a Ha.
      rewrite <- Nat.add_assoc. apply app_r. }
  ring.
Qed.
Print Assumptions C123_join.

(** None of the straddling terms is negative: the whole record never shows less than its parts. *)
Theorem C123_parts P x y rate taus taus1 taus2 t d n d1 n1 d2 n2 : In P all_parts -> 0 < rate ->
  row (p_fun P (x ++ y) rate "phase"%string taus) t d n -> row (p_fun P x rate "phase"%string taus1) t d1 n1 -> row (p_fun P y rate "phase"%string taus2) t d2 n2 ->
  IZR n1 * d1 ^ 2 + IZR n2 * d2 ^ 2 <= IZR n * d ^ 2.
Proof.
  intros HP Hr H H1 H2. pose proof (row_parts P (x ++ y) rate taus t d n HP Hr H) as (m' & E' & Hm & _).
  destruct (C123_join P x y rate taus taus1 taus2 t d n d1 n1 d2 n2 HP Hr H H1 H2) as (m & E & _ & ->).
  assert (m = m') by (apply (INR_rate m m' rate Hr); congruence). subst m'.
  pose proof (bigsum_nonneg (p_lost P m) (fun i => p_term P rate (x ++ y) m (len x - p_lost P m + i)) (fun i _ => term_nonneg P HP rate _ m _ Hr Hm)). lra.
Qed.
Print Assumptions C123_parts.

(** A piece of a record, whatever surrounds it. *)
Theorem C123_piece P u x v rate taus taus1 t d n d1 n1 : In P all_parts -> 0 < rate ->
  row (p_fun P (u ++ x ++ v) rate "phase"%string taus) t d n -> row (p_fun P x rate "phase"%string taus1) t d1 n1 ->
  (n1 <= n)%Z /\ IZR n1 * d1 ^ 2 <= IZR n * d ^ 2.
Proof.
  intros HP Hr H H1. apply (row_parts P) in H as (m & E & Hm & Hl & -> & ->); [|assumption..].
  apply (row_parts P) in H1 as (m1 & E1 & _ & Hl1 & -> & ->); [|assumption..].
  assert (m1 = m) by (apply (INR_rate m1 m rate Hr); congruence). subst m1. set (k := p_lost P m) in *. rewrite !app_length in *.
  assert (Hp : (0 <= p_mult P m)%Z) by (unfold all_parts in HP; repeat (destruct HP as [<-|HP]); [..|destruct HP]; cbn; unfold one; lia).
  split; [nia|]. replace (len u + (len x + len v) - k)%nat with (len u + ((len x - k) + len v))%nat by lia. rewrite bigsum_add, (bigsum_add (len x - k)).
  rewrite (bigsum_ext (len x - k) (fun i => p_term P rate (u ++ x ++ v) m (len u + i)) (p_term P rate x m)).
  2:{ intros i Hi. apply (all_local P HP); [exact Hm|]. fold k. intros a Ha. rewrite <- Nat.add_assoc, app_r. apply app_l. lia. }
  pose proof (bigsum_nonneg (len u) (p_term P rate (u ++ x ++ v) m) (fun i _ => term_nonneg P HP rate _ m _ Hr Hm)).
  pose proof (bigsum_nonneg (len v) (fun i => p_term P rate (u ++ x ++ v) m (len u + (len x - k + i))) (fun i _ => term_nonneg P HP rate _ m _ Hr Hm)). lra.
Qed.
Print Assumptions C123_piece.

(** ** adev and hdev: when the first record ends on the grid of m samples *)
Theorem C123_adev x y rate taus taus1 taus2 t d n d1' n1 d2' n2 m : 0 < rate -> t = INR m / rate -> Nat.divide m (len x) ->
  row (adev (x ++ y) rate "phase"%string taus) t d n -> row (adev x rate "phase"%string taus1) t d1' n1 -> row (adev y rate "phase"%string taus2) t d2' n2 ->
  n = (n1 + n2 + 2)%Z /\
  IZR n * d ^ 2 = IZR n1 * d1' ^ 2 + IZR n2 * d2' ^ 2 + / (2 * tau_of rate m ^ 2) * (d2 (x ++ y) m (len x - 2 * m) ^ 2 + d2 (x ++ y) m (len x - m) ^ 2).
Proof.
  intros Hr E [q Eq] H H1 H2. apply (row_stat st_adev) in H as (m' & E' & [Hm _] & -> & -> & Hc); [|cbn; auto|exact Hr].
  apply (row_stat st_adev) in H1 as (m1 & E1 & _ & -> & -> & Hc1); [|cbn; auto|exact Hr]. apply (row_stat st_adev) in H2 as (m2 & E2 & _ & -> & -> & Hc2); [|cbn; auto|exact Hr].
  assert (m' = m) by (apply (INR_rate m' m rate Hr); congruence). assert (m1 = m) by (apply (INR_rate m1 m rate Hr); congruence).
  assert (m2 = m) by (apply (INR_rate m2 m rate Hr); congruence). subst m' m1 m2. rewrite !e_adev by (auto; lia). cbn [s_cnt st_adev] in *. unfold c_adev in *.
  assert (Q1 : ((len x - 1) / m = q - 1)%nat).
  { symmetry. apply (Nat.div_unique _ m (q - 1) (m - 1)); [lia|]. assert (1 <= q)%nat by (destruct q; [rewrite Eq in Hc1; cbn in Hc1; rewrite Nat.div_0_l in Hc1 by lia; lia|lia]). rewrite Eq. nia. }
  set (r := ((len y - 1) / m)%nat) in *. assert (Hy : (1 <= len y)%nat) by (destruct (len y); [unfold r in Hc2; cbn in Hc2; rewrite Nat.div_0_l in Hc2 by lia; lia|lia]).
  assert (Q : ((len (x ++ y) - 1) / m = q + r)%nat).
  { rewrite app_length, Eq. replace (q * m + len y - 1)%nat with (len y - 1 + q * m)%nat by lia. rewrite Nat.div_add by lia. unfold r. lia. }
  rewrite Q1, Q in *. split; [lia|]. fold (tau_of rate m). unfold ss.
  replace (q + r - 1)%nat with ((q - 1 - 1) + (2 + (r - 1)))%nat by lia. rewrite bigsum_add, (bigsum_add 2). cbn [bigsum].
  rewrite (bigsum_ext (q - 1 - 1) (fun i => d2 (x ++ y) m (i * m) ^ 2) (fun i => d2 x m (i * m) ^ 2)).
  2:{ intros i Hi. unfold d2. assert ((i + 3) * m <= q * m)%nat by (apply Nat.mul_le_mono_r; lia). rewrite !app_l by (rewrite Eq; nia). reflexivity. }
  rewrite (bigsum_ext (r - 1) (fun i => d2 (x ++ y) m ((q - 1 - 1 + (2 + i)) * m) ^ 2) (fun i => d2 y m (i * m) ^ 2)).
  2:{ intros i Hi. replace ((q - 1 - 1 + (2 + i)) * m)%nat with (len x + i * m)%nat by (rewrite Eq; replace (q - 1 - 1 + (2 + i))%nat with (q + i)%nat by lia; lia).
      unfold d2. rewrite <- !Nat.add_assoc, !app_r. reflexivity. }
  replace ((q - 1 - 1 + 0) * m)%nat with (len x - 2 * m)%nat by (rewrite Eq; rewrite <- Nat.mul_sub_distr_r; f_equal; lia).
  replace ((q - 1 - 1 + 1) * m)%nat with (len x - m)%nat by (rewrite Eq; rewrite <- (Nat.mul_1_l m) at 2; rewrite <- Nat.mul_sub_distr_r; f_equal; lia). ring.
Qed.
Print Assumptions C123_adev.

Theorem C123_hdev x y rate taus taus1 taus2 t d n d1' n1 d2' n2 m : 0 < rate -> t = INR m / rate -> Nat.divide m (len x) ->
  row (hdev (x ++ y) rate "phase"%string taus) t d n -> row (hdev x rate "phase"%string taus1) t d1' n1 -> row (hdev y rate "phase"%string taus2) t d2' n2 ->
  n = (n1 + n2 + 3)%Z /\
  IZR n * d ^ 2 = IZR n1 * d1' ^ 2 + IZR n2 * d2' ^ 2 +
    / (6 * tau_of rate m ^ 2) * (d3 (x ++ y) m (len x - 3 * m) ^ 2 + d3 (x ++ y) m (len x - 2 * m) ^ 2 + d3 (x ++ y) m (len x - m) ^ 2).
Proof.
  intros Hr E [q Eq] H H1 H2. apply (row_stat st_hdev) in H as (m' & E' & [Hm _] & -> & -> & Hc); [|cbn; auto|exact Hr].
  apply (row_stat st_hdev) in H1 as (m1 & E1 & _ & -> & -> & Hc1); [|cbn; auto|exact Hr]. apply (row_stat st_hdev) in H2 as (m2 & E2 & _ & -> & -> & Hc2); [|cbn; auto|exact Hr].
  assert (m' = m) by (apply (INR_rate m' m rate Hr); congruence). assert (m1 = m) by (apply (INR_rate m1 m rate Hr); congruence).
  assert (m2 = m) by (apply (INR_rate m2 m rate Hr); congruence). subst m' m1 m2. rewrite !e_hdev by (auto; lia). cbn [s_cnt st_hdev] in *. unfold c_hdev in *.
  assert (Q1 : ((len x - 1) / m = q - 1)%nat).
  { symmetry. apply (Nat.div_unique _ m (q - 1) (m - 1)); [lia|]. assert (1 <= q)%nat by (destruct q; [rewrite Eq in Hc1; cbn in Hc1; rewrite Nat.div_0_l in Hc1 by lia; lia|lia]). rewrite Eq. nia. }
  set (r := ((len y - 1) / m)%nat) in *. assert (Hy : (1 <= len y)%nat) by (destruct (len y); [unfold r in Hc2; cbn in Hc2; rewrite Nat.div_0_l in Hc2 by lia; lia|lia]).
  assert (Q : ((len (x ++ y) - 1) / m = q + r)%nat).
  { rewrite app_length, Eq. replace (q * m + len y - 1)%nat with (len y - 1 + q * m)%nat by lia. rewrite Nat.div_add by lia. unfold r. lia. }
  rewrite Q1, Q in *. split; [lia|]. fold (tau_of rate m). unfold ss.
  replace (q + r - 2)%nat with ((q - 1 - 2) + (3 + (r - 2)))%nat by lia. rewrite bigsum_add, (bigsum_add 3). cbn [bigsum].
  rewrite (bigsum_ext (q - 1 - 2) (fun i => d3 (x ++ y) m (i * m) ^ 2) (fun i => d3 x m (i * m) ^ 2)).
  2:{ intros i Hi. unfold d3. assert ((i + 4) * m <= q * m)%nat by (apply Nat.mul_le_mono_r; lia). rewrite !app_l by (rewrite Eq; nia). reflexivity. }
  rewrite (bigsum_ext (r - 2) (fun i => d3 (x ++ y) m ((q - 1 - 2 + (3 + i)) * m) ^ 2) (fun i => d3 y m (i * m) ^ 2)).
  2:{ intros i Hi. replace ((q - 1 - 2 + (3 + i)) * m)%nat with (len x + i * m)%nat by (rewrite Eq; replace (q - 1 - 2 + (3 + i))%nat with (q + i)%nat by lia; lia).
      unfold d3. rewrite <- !Nat.add_assoc, !app_r. reflexivity. }
  replace ((q - 1 - 2 + 0) * m)%nat with (len x - 3 * m)%nat by (rewrite Eq; rewrite <- Nat.mul_sub_distr_r; f_equal; lia).
  replace ((q - 1 - 2 + 1) * m)%nat with (len x - 2 * m)%nat by (rewrite Eq; rewrite <- Nat.mul_sub_distr_r; f_equal; lia).
  replace ((q - 1 - 2 + 2) * m)%nat with (len x - m)%nat by (rewrite Eq; rewrite <- (Nat.mul_1_l m) at 2; rewrite <- Nat.mul_sub_distr_r; f_equal; lia). ring.
Qed.
Print Assumptions C123_hdev.

(** ** rows are not lost by joining *)
Lemma keeps_row s : In s stats ->
  (forall N N' m, (N <= N')%nat -> s_ok s N m = true -> s_ok s N' m = true) -> (forall N N', (N <= N')%nat -> (s_base s N <= s_base s N')%nat) ->
  (forall N N' m, (1 <= m)%nat -> (N <= N')%nat -> (s_cnt s N m <= s_cnt s N' m)%Z) -> (forall N u l, s_exn s N (TList (u :: l)) = None) ->
  forall x z rate u l t d n, 0 < rate -> (len x <= len z)%nat -> row (s_fun s x rate "phase"%string (TList (u :: l))) t d n ->
  exists d' n', row (s_fun s z rate "phase"%string (TList (u :: l))) t d' n' /\ (n <= n')%Z.
Proof.
  intros Hs Mok Mb Mc Mx x z rate u l t d n Hr Hl (ts & ds & e & ns & i & E & Ht & Hd & Hn).
  destruct (law_case s x rate (TList (u :: l)) Hs Hr) as [[e' He]|(He & ms & Hms & _)]; [rewrite Mx in He; discriminate|].
  destruct (law_case s z rate (TList (u :: l)) Hs Hr) as [[e' He']|(He' & ms' & Hms' & _)]; [rewrite Mx in He'; discriminate|].
  destruct (proj2 (stats_closed s Hs x rate _ Hr) He) as [_ G]. rewrite (G ms Hms) in E.
  destruct (proj2 (stats_closed s Hs z rate _ Hr) He') as [_ G']. specialize (G' ms' Hms').
  assert (G2 : exists m, In m ms /\ (1 < s_cnt s (len x) m)%Z /\ t = INR m / rate /\ n = s_cnt s (len x) m).
  { unfold report in E. destruct (filter _ ms) as [|m0 g] eqn:Ef; [discriminate|]. injection E as <- _ _ <-.
    change (nth_error (map (fun m => INR m / rate) (m0 :: g)) i = Some t) in Ht. change (nth_error (map (s_cnt s (len x)) (m0 :: g)) i = Some n) in Hn.
    rewrite nth_error_map in Ht, Hn. destruct (nth_error (m0 :: g) i) as [m|] eqn:Em; [|discriminate]. cbn in Ht, Hn. injection Ht as <-. injection Hn as <-.
    apply nth_error_In in Em. rewrite <- Ef in Em. apply filter_In in Em as [Em Hc]. apply Z.ltb_lt in Hc. exists m. auto. }
  destruct G2 as (m & Hin & Hc & -> & ->). destruct Hms as (_ & _ & I). apply I in Hin as ([H1 H2] & Hok & Hreq). clear I.
  assert (Hin' : In m ms').
  { destruct Hms' as (_ & _ & I'). apply I'. split; [pose proof (Mb _ _ Hl); lia|]. split; [now apply (Mok (len x))|]. exact Hreq. }
  assert (Hf : In m (filter (fun q => (1 <? s_cnt s (len z) q)%Z) ms')).
  { apply filter_In. split; [exact Hin'|]. apply Z.ltb_lt. pose proof (Mc _ _ m H1 Hl). lia. }
  exists (s_dev s z rate m), (s_cnt s (len z) m). split; [|now apply Mc]. rewrite G'. unfold report.
  destruct (filter _ ms') as [|m0 g]; [destruct Hf|]. apply In_nth_error in Hf as [j Hj].
  exists (map (fun q => INR q / rate) (m0 :: g)), (map (s_dev s z rate) (m0 :: g)). eexists. exists (map (s_cnt s (len z)) (m0 :: g)), j.
  split; [reflexivity|]. rewrite !nth_error_map, Hj. auto.
Qed.
Theorem C123_rows P u x v rate a l t d1 n1 : In P all_parts -> 0 < rate ->
  row (p_fun P x rate "phase"%string (TList (a :: l))) t d1 n1 -> exists d n, row (p_fun P (u ++ x ++ v) rate "phase"%string (TList (a :: l))) t d n.
Proof.
  intros HP Hr H. assert (Hl : (len x <= len (u ++ x ++ v))%nat) by (rewrite !app_length; lia).
  assert (K : forall s, In s stats -> p_fun P = s_fun s -> 
    (forall N N' m, (N <= N')%nat -> s_ok s N m = true -> s_ok s N' m = true) -> (forall N N', (N <= N')%nat -> (s_base s N <= s_base s N')%nat) ->
    (forall N N' m, (1 <= m)%nat -> (N <= N')%nat -> (s_cnt s N m <= s_cnt s N' m)%Z) -> (forall N u l, s_exn s N (TList (u :: l)) = None) ->
    exists d n, row (p_fun P (u ++ x ++ v) rate "phase"%string (TList (a :: l))) t d n).
  { intros s Hs E A1 A2 A3 A4. rewrite E in *. destruct (keeps_row s Hs A1 A2 A3 A4 x (u ++ x ++ v) rate a l t d1 n1 Hr Hl H) as (d & n & R & _). eauto. }
  unfold all_parts in HP.
  repeat (destruct HP as [<-|HP]); [..|destruct HP];
  [apply (K st_oadev)|apply (K st_ohdev)|apply (K st_mdev)|apply (K st_tdev)|apply (K st_pdev)|apply (K st_mtotdev)|apply (K st_ttotdev)|apply (K st_htotdev)|apply (K st_theo1)|apply (K st_tierms)];
  try reflexivity; try (cbn; auto 20; fail);
  cbn [s_ok s_base s_cnt s_exn st_oadev st_ohdev st_mdev st_tdev st_pdev st_mtotdev st_ttotdev st_htotdev st_theo1 st_tierms];
  unfold any, idn, third, evenm, c_oadev, c_ohdev, c_mdev, c_htot, c_theo, c_tie, htot_exn, bad_exn; try (intros; reflexivity); try (intros; lia);
  try (intros N N' m HN HK; apply Nat.leb_le in HK; apply Nat.leb_le; lia); try (intros; assumption).
  - intros N N' m Hm HN. destruct (Nat.eqb m 1); lia.
  - intros N N' m Hm HN. nia.
Qed.
Print Assumptions C123_rows.

(** ** gradev: two records with a gap between them *)
(** (t, d, n) is a row of the answer of gradev *)
Definition grow (r : res (@result ext)) (t d : R) (n : Z) : Prop :=
  exists ts ds e ns i, r = Ok (ts, ds, e, ns) /\ nth_error ts i = Some (Fin t) /\ nth_error ds i = Some (Fin d) /\ nth_error ns i = Some n.
Definition full (g : list (option R)) (m i : nat) : bool := (present g i && present g (i + m) && present g (i + 2 * m))%bool.
Definition gterm (g : list (option R)) (m i : nat) : R := if full g m i then (point g (i + 2 * m) - 2 * point g (i + m) + point g i) ^ 2 else 0.
Lemma lsum_filter (p : nat -> bool) (f : nat -> R) n : lsum (map f (filter p (seq 0 n))) = bigsum n (fun i => if p i then f i else 0).
Proof.
  rewrite <- lsum_seq. generalize (seq 0 n). intros l. induction l as [|a l IH]; [reflexivity|]. cbn. destruct (p a); cbn; rewrite IH; lra.
Qed.
Lemma count_filter (p : nat -> bool) n : INR (len (filter p (seq 0 n))) = bigsum n (fun i => if p i then 1 else 0).
Proof.
  rewrite <- lsum_seq. generalize (seq 0 n). intros l. induction l as [|a l IH]; [reflexivity|]. cbn [filter map lsum]. destruct (p a); [cbn [len]; rewrite S_INR|]; rewrite IH; lra.
Qed.
Lemma filter_len_le {A} (p : A -> bool) l : (len (filter p l) <= len l)%nat.
Proof. induction l as [|a l IH]; cbn; [lia|]. destruct (p a); cbn; lia. Qed.
Lemma grow_inv nlog nexp ppf g rate taus ci nt t d n : 0 < rate -> valid_request (len g) taus ->
  grow (gradev nlog nexp ppf (with_gaps g) (Fin rate) "phase"%string (req taus) ci nt) t d n ->
  exists m, t = INR m / rate /\ (1 <= m)%nat /\ (2 * m < len g)%nat /\ IZR n = bigsum (len g - 2 * m) (fun i => if full g m i then 1 else 0) /\
    IZR n * d ^ 2 = / (2 * tau_of rate m ^ 2) * bigsum (len g - 2 * m) (gterm g m).
Proof.
  intros Hr Hv (ts & ds & e & ns & i & E & Ht & Hd & Hn).
  destruct (admissible_exists (fun _ => true) (len g) rate taus ltac:(lra) Hv) as [ms Hms].
  assert (Ha : admissible (len g) rate taus ms).
  { destruct Hms as (A1 & A2 & A3). split; [exact A1|]. split; [exact A2|]. intros m. rewrite A3. tauto. }
  destruct (existsb (fun m => String.eqb nt "wp" && (Nat.eqb (points g) m && (1 <? len (triples g m))%nat))%bool ms) eqn:Ex.
  - exfalso. apply existsb_exists in Ex as (m & Hm & Hb). apply andb_true_iff in Hb as [B1 B2]. apply andb_true_iff in B2 as [B2 B3].
    apply String.eqb_eq in B1. apply Nat.eqb_eq in B2. apply Nat.ltb_lt in B3.
    rewrite (proj2 (C73_zero_division nlog nexp ppf g rate taus ms ci nt Hr Ha)) in E; [discriminate|]. split; [exact B1|]. exists m. auto.
  - assert (Hf : forall m, In m ms -> ~ gr_fails nt g m).
    { intros m Hm (F1 & F2 & F3). assert (true = false); [|discriminate]. rewrite <- Ex. symmetry. apply existsb_exists. exists m. split; [exact Hm|].
      apply andb_true_iff. split; [now apply String.eqb_eq|]. apply andb_true_iff. split; [now apply Nat.eqb_eq|now apply Nat.ltb_lt]. }
    destruct (C29_gradev nlog nexp ppf g rate taus ms ci nt Hr Ha Hf) as (lo & hi & G). rewrite G in E. unfold report2 in E.
    destruct (filter _ ms) as [|m0 gd] eqn:Ef; [discriminate|]. injection E as <- <- _ <-.
    change (nth_error (map (fun m => Fin (INR m / rate)) (m0 :: gd)) i = Some (Fin t)) in Ht.
    change (nth_error (map (fun m => Fin (sqrt (gr_var g (1 / rate) m))) (m0 :: gd)) i = Some (Fin d)) in Hd.
    change (nth_error (map (fun m => Z.of_nat (len (triples g m))) (m0 :: gd)) i = Some n) in Hn.
    rewrite nth_error_map in Ht, Hd, Hn. destruct (nth_error (m0 :: gd) i) as [m|] eqn:Em; [|discriminate]. cbn in Ht, Hd, Hn.
    injection Ht as <-. injection Hd as <-. injection Hn as <-. apply nth_error_In in Em. rewrite <- Ef in Em. apply filter_In in Em as [Em Hc]. apply Z.ltb_lt in Hc.
    destruct Ha as (_ & _ & A3). apply A3 in Em as (H1 & _). exists m. split; [reflexivity|]. split; [lia|].
    assert (Hl : (len (triples g m) <= len g - 2 * m)%nat) by (unfold triples; rewrite <- (seq_length (len g - 2 * m) 0) at 2; apply filter_len_le).
    split; [lia|]. rewrite <- INR_IZR_INZ. split; [unfold triples; now rewrite count_filter|].
    assert (Ht : 0 < tau_of rate m) by (unfold tau_of; apply Rmult_lt_0_compat; [apply lt_0_INR; lia|apply Rdiv_lt_0_compat; lra]).
    rewrite INR_IZR_INZ. apply en'; [lia|left; apply Rinv_0_lt_compat; apply Rmult_lt_0_compat; [lra|now apply pow_lt]| |].
    + apply bigsum_nonneg. intros j _. unfold gterm. destruct (full g m j); [apply pow2_ge_0|lra].
    + unfold gr_var. fold (tau_of rate m). rewrite <- INR_IZR_INZ, Rinv_mult. unfold gterm. rewrite <- lsum_filter. unfold triples, full. ring.
Qed.
Lemma present_l g h i : (i < len g)%nat -> present (g ++ h) i = present g i /\ point (g ++ h) i = point g i.
Proof. intros H. unfold present, point. now rewrite app_nth1. Qed.
Lemma present_r g h i : present (g ++ h) (len g + i) = present h i /\ point (g ++ h) (len g + i) = point h i.
Proof. unfold present, point. rewrite app_nth2 by lia. now replace (len g + i - len g)%nat with i by lia. Qed.

(** Two records with at least 2m missing samples between them count as one: the numbers of triples and count times squared deviation add up exactly. *)
Theorem C123_gap nlog nexp ppf ci nt g h k rate taus taus1 taus2 t m d n d1 n1 d2 n2 :
  0 < rate -> valid_request (len g) taus1 -> valid_request (len h) taus2 -> valid_request (len g + (k + len h)) taus ->
  t = INR m / rate -> (2 * m <= k)%nat ->
  grow (gradev nlog nexp ppf (with_gaps (g ++ repeat None k ++ h)) (Fin rate) "phase"%string (req taus) ci nt) t d n ->
  grow (gradev nlog nexp ppf (with_gaps g) (Fin rate) "phase"%string (req taus1) ci nt) t d1 n1 ->
  grow (gradev nlog nexp ppf (with_gaps h) (Fin rate) "phase"%string (req taus2) ci nt) t d2 n2 ->
  n = (n1 + n2)%Z /\ IZR n * d ^ 2 = IZR n1 * d1 ^ 2 + IZR n2 * d2 ^ 2.
Proof.
  intros Hr V1 V2 V E Hk H H1 H2. assert (Lz : len (g ++ repeat (@None R) k ++ h) = (len g + (k + len h))%nat) by now rewrite !app_length, repeat_length.
  apply grow_inv in H as (m' & E' & Hm & Hl & Hn & Hd); [|assumption|now rewrite Lz].
  apply grow_inv in H1 as (m1 & E1 & _ & Hl1 & Hn1 & Hd1); [|assumption..]. apply grow_inv in H2 as (m2 & E2 & _ & Hl2 & Hn2 & Hd2); [|assumption..].
  assert (m' = m) by (apply (INR_rate m' m rate Hr); congruence). assert (m1 = m) by (apply (INR_rate m1 m rate Hr); congruence).
  assert (m2 = m) by (apply (INR_rate m2 m rate Hr); congruence). subst m' m1 m2. rewrite Lz in *. set (z := g ++ repeat None k ++ h) in *.
  assert (Zl : forall i, (i < len g)%nat -> present z i = present g i /\ point z i = point g i) by (intros; unfold z; now apply present_l).
  assert (Zr : forall i, present z (len g + k + i) = present h i /\ point z (len g + k + i) = point h i).
  { intros i. unfold z. rewrite app_assoc. replace (len g + k)%nat with (len (g ++ repeat (@None R) k)) by now rewrite app_length, repeat_length. apply present_r. }
  assert (Zm : forall i, (len g <= i < len g + k)%nat -> present z i = false).
  { intros i Hi. replace i with (len g + (i - len g))%nat by lia. unfold z. rewrite (proj1 (present_r g _ _)). rewrite (proj1 (present_l (repeat None k) h (i - len g)%nat ltac:(rewrite repeat_length; lia))).
    unfold present. now rewrite nth_repeat. }
  assert (F1 : forall i, (i < len g - 2 * m)%nat -> full z m i = full g m i).
  { intros i Hi. unfold full. now rewrite !(fun q Hq => proj1 (Zl q Hq)) by lia. }
  assert (F3 : forall i, full z m (len g + k + i) = full h m i).
  { intros i. unfold full. rewrite <- !Nat.add_assoc, !(Nat.add_assoc (len g) k). now rewrite !(fun q => proj1 (Zr q)). }
  assert (F2 : forall i, (len g - 2 * m <= i < len g + k)%nat -> full z m i = false).
  { intros i Hi. unfold full. destruct (Nat.lt_ge_cases i (len g)) as [L|L].
    - rewrite (Zm (i + 2 * m)%nat) by lia. now rewrite andb_false_r.
    - now rewrite (Zm i) by lia. }
  assert (Split : forall (f : nat -> R), bigsum (len g + (k + len h) - 2 * m) f =
    bigsum (len g - 2 * m) f + bigsum (2 * m + k) (fun i => f (len g - 2 * m + i)%nat) + bigsum (len h - 2 * m) (fun i => f (len g + k + i)%nat)).
  { intros f. replace (len g + (k + len h) - 2 * m)%nat with ((len g - 2 * m) + ((2 * m + k) + (len h - 2 * m)))%nat by lia. rewrite bigsum_add, (bigsum_add (2 * m + k)).
    rewrite (bigsum_ext (len h - 2 * m) (fun i => f (len g - 2 * m + (2 * m + k + i))%nat) (fun i => f (len g + k + i)%nat)) by (intros; f_equal; lia). ring. }
  split.
  - apply eq_IZR. rewrite plus_IZR, Hn, Hn1, Hn2, Split. rewrite (bigsum_0 (2 * m + k)) by (intros; now rewrite F2 by lia).
    rewrite (bigsum_ext (len g - 2 * m) _ (fun i => if full g m i then 1 else 0)) by (intros; now rewrite F1).
    rewrite (bigsum_ext (len h - 2 * m) _ (fun i => if full h m i then 1 else 0)) by (intros; now rewrite F3). ring.
  - rewrite Hd, Hd1, Hd2, Split. rewrite (bigsum_0 (2 * m + k)) by (intros; unfold gterm; now rewrite F2 by lia).
    rewrite (bigsum_ext (len g - 2 * m) _ (gterm g m)) by (intros; unfold gterm; rewrite F1 by assumption; now rewrite !(fun q Hq => proj2 (Zl q Hq)) by lia).
    rewrite (bigsum_ext (len h - 2 * m) _ (gterm h m)); [ring|]. intros i Hi. unfold gterm. rewrite F3. rewrite <- !Nat.add_assoc, !(Nat.add_assoc (len g) k).
    now rewrite !(fun q => proj2 (Zr q)).
Qed.
Print Assumptions C123_gap.

(** ** concrete records *)
Definition jx : list R := [0; 1; 4; 9; 16].
Definition jy : list R := [0; 0; 2; 2; 6; 6].
(** 3 terms of the first record, 4 of the second, 2 that straddle: 9 in all *)
Example C123_ex : row (oadev jx 1 "phase"%string (TList [INR 1 / 1])) (INR 1 / 1) (sqrt 2) 3 /\
  row (oadev jy 1 "phase"%string (TList [INR 1 / 1])) (INR 1 / 1) (sqrt 5) 4 /\
  row (oadev (jx ++ jy) 1 "phase"%string (TList [INR 1 / 1])) (INR 1 / 1) (sqrt (837 / 18)) 9.
Proof.
  assert (R : forall t d e n, row (Ok ([t], [d], e, [n])) t d n) by (intros t d e n; exists [t], [d], e, [n], 0%nat; auto).
  split; [|split]; (rewrite oadev_single; [|lra|lia|cbn; lia]).
  - replace (sqrt (oavar jx (1 / 1) 1)) with (sqrt 2); [apply R|]. f_equal. unfold oavar, oadev_n. cbn. unfold d2. cbn. field.
  - replace (sqrt (oavar jy (1 / 1) 1)) with (sqrt 5); [apply R|]. f_equal. unfold oavar, oadev_n. cbn. unfold d2. cbn. field.
  - replace (sqrt (oavar (jx ++ jy) (1 / 1) 1)) with (sqrt (837 / 18)); [apply R|]. f_equal. unfold oavar, oadev_n. cbn. unfold d2. cbn. field.
Qed.
Example C123_ex_sum : 9 * sqrt (837 / 18) ^ 2 = 3 * sqrt 2 ^ 2 + 4 * sqrt 5 ^ 2 + (/ 2 * d2 (jx ++ jy) 1 3 ^ 2 + / 2 * d2 (jx ++ jy) 1 4 ^ 2).
Proof. rewrite !pow2_sqrt by lra. unfold d2. cbn. field. Qed.
(** two records of gradev and a gap of two samples *)
Definition jg : list (option R) := [Some 0; Some 1; Some 4; Some 9].
Definition jh : list (option R) := [Some 0; Some 4; Some 0; Some 0].
Lemma grow_one nlog nexp ppf ci g v : (3 <= len g)%nat -> (1 < len (triples g 1))%nat -> gr_var g (1 / 1) 1 = v ->
  grow (gradev nlog nexp ppf (with_gaps g) (Fin 1) "phase"%string (req (TList [INR 1 / 1])) ci "wf"%string) (INR 1 / 1) (sqrt v) (Z.of_nat (len (triples g 1))).
Proof.
  intros Hl Hc Hv. destruct (C29_gradev nlog nexp ppf g 1 (TList [INR 1 / 1]) [1%nat] ci "wf"%string) as (lo & hi & E); [lra|apply adm_single; [lra|lia]|intros m Hm (C & _); discriminate|].
  rewrite E. unfold report2. cbn [filter]. replace (1 <? Z.of_nat (len (triples g 1)))%Z with true by (symmetry; apply Z.ltb_lt; lia).
  cbn [map]. rewrite Hv. eexists _, _, _, _, 0%nat. split; [reflexivity|]. auto.
Qed.
Example C123_gap_ex nlog nexp ppf ci : let f g := gradev nlog nexp ppf (with_gaps g) (Fin 1) "phase"%string (req (TList [INR 1 / 1])) ci "wf"%string in
  grow (f jg) (INR 1 / 1) (sqrt 2) 2 /\ grow (f jh) (INR 1 / 1) (sqrt 20) 2 /\ grow (f (jg ++ repeat None 2 ++ jh)) (INR 1 / 1) (sqrt 11) 4 /\
  valid_request (len jg) (TList [INR 1 / 1]) /\ valid_request (len (jg ++ repeat None 2 ++ jh)) (TList [INR 1 / 1]).
Proof.
  intros f. split; [|split; [|split; [|split]]].
  - apply (grow_one nlog nexp ppf ci jg 2); [cbn; lia|cbn; lia|]. unfold gr_var. cbn. unfold point. cbn. field.
  - apply (grow_one nlog nexp ppf ci jh 20); [cbn; lia|cbn; lia|]. unfold gr_var. cbn. unfold point. cbn. field.
  - apply (grow_one nlog nexp ppf ci (jg ++ repeat None 2 ++ jh) 11); [cbn; lia|cbn; lia|]. unfold gr_var. cbn. unfold point. cbn. field.
  - exact I.
  - exact I.
Qed.
(** adev at two samples per tau: 6 samples, then 7 *)
Definition jz : list R := [0; 0; 1; 0; 4; 0; 9].
Definition jw : list R := [0; 0; 1; 0; 4; 0; 9; 0].
Example C123_adev_ex : Nat.divide 2 (len jw) /\
  (exists d, row (adev jw 1 "phase"%string (TList [INR 2 / 1])) (INR 2 / 1) d 2) /\ (exists d, row (adev jz 1 "phase"%string (TList [INR 2 / 1])) (INR 2 / 1) d 2) /\
  (exists d, row (adev (jw ++ jz) 1 "phase"%string (TList [INR 2 / 1])) (INR 2 / 1) d 6).
Proof.
  assert (R : forall t d e n, row (Ok ([t], [d], e, [n])) t d n) by (intros t d e n; exists [t], [d], e, [n], 0%nat; auto).
  split; [exists 4%nat; reflexivity|]. split; [|split]; eexists; (rewrite adev_single; [apply R|lra|cbn; lia|cbn; lia]).
Qed.
