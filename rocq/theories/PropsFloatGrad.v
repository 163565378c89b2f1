(** * Accuracy of gradev on records with gaps in binary64 (C118). *)
From Coq Require Import ZArith Floats Reals Lra Lia Psatz Ascii String List Bool Permutation.
From Flocq Require Import Core.Core IEEE754.BinarySingleNaN.
From Verif Require Import Base Num NpList NumF NumR NumX ListFacts Spec RSum ModelCore ModelDev ModelMisc ModelCi FloatFacts FloatErr
  GenericProofs TauProofs TauLaws DevProofs TotProofs Laws2 Laws3 NanProofs GradProofs PropsNan PropsFloatTau PropsFloatErr PropsFloatMtie PropsFloatMdev PropsFloatMore PropsFloatCov.
Import ListNotations.
Local Open Scope R_scope.
Local Notation len := List.length.
Local Notation float := Coq.Floats.PrimFloat.float.
Local Notation fsqrt := Coq.Floats.PrimFloat.sqrt.

(** ** One averaging factor: second differences at arbitrary places *)
Lemma d2_row n (a b c : nat -> float) rate m M sq :
  (Z.of_nat n <= 2 ^ 40)%Z -> bpow radix2 (-400) <= M <= bpow radix2 400 ->
  (forall k, (k < n)%nat -> (ffin (a k) /\ Rabs (fR (a k)) <= M) /\ (ffin (b k) /\ Rabs (fR (b k)) <= M) /\ (ffin (c k) /\ Rabs (fR (c k)) <= M)) -> moderate_rate rate ->
  (1 <= m)%nat -> (Z.of_nat m <= 2 ^ 40)%Z -> (1 <= n)%nat ->
  sum_of_squares (tab n (fun k => a k - f_ofZ 2 * b k + c k)%float) sq ->
  near (Coq.Floats.PrimFloat.sqrt (sq / (f_ofZ 2 * ofN n)) / ofN m * rate)%float
    (R_sqrt.sqrt (bigsum n (fun k => (fR (a k) - 2 * fR (b k) + fR (c k)) ^ 2) / (2 * INR n)) / INR m * fR rate)
    (n + 5) (9 * u64 * M * (fR rate / INR m)).
Proof.
  intros NN HM Hf [Fr Hr] Hm Hmm Hn Hsq. destruct bpow_nums as (B3 & B5 & Bu). pose proof u64_pos as Pu.
  assert (Uq : u64 <= / 4096) by (unfold u64; lra).
  assert (PM : 0 < M) by (pose proof (bpow_gt_0 radix2 (-400)); lra).
  set (vh := fun k => (a k - f_ofZ 2 * b k + c k)%float) in *.
  set (w := fun k => fR (a k) - 2 * fR (b k) + fR (c k)).
  assert (Hv : forall k, (k < n)%nat -> ffin (vh k) /\ Rabs (fR (vh k) - w k) <= 8 * u64 * M /\ Rabs (w k) <= 4 * M).
  { intros k Hk. destruct (Hf k Hk) as ([F2 H2] & [F1 H1] & [F0 H0]).
    destruct (d2_err _ _ _ M F2 F1 F0 H2 H1 H0 (proj2 HM)) as [F E]. split; [exact F|]. split; [exact E|].
    apply (abs3 _ _ _ M H2 H1 H0). }
    assert (Big : 8 * M <= bpow radix2 450).
  { apply Rle_trans with (bpow radix2 3 * bpow radix2 400); [rewrite B3; lra|]. rewrite <- bpow_plus. apply bpow_le. lia. }
  destruct (sumsq_err n vh sq Hn NN) as (FS & PS & [PE UE] & ES).
  { intros k Hk. destruct (Hv k Hk) as (F & E & B). split; [exact F|]. apply Rabs_le_inv in E, B.
    apply Rle_trans with (8 * M); [|exact Big]. apply Rabs_le. nra. }
  { exact Hsq. }
  set (Ex := bigsum n (fun k => fR (vh k) ^ 2)) in *.
  assert (Pn : 1 <= INR n) by (change 1 with (INR 1); now apply le_INR).
  assert (Pm : 1 <= INR m) by (change 1 with (INR 1); now apply le_INR).
  pose proof eta_pos as Pe.
  destruct (fofZ_ok (Z.of_nat n) ltac:(lia)) as [Fn Vn]. destruct (fofZ_ok (Z.of_nat m) ltac:(lia)) as [Fm Vm].
  rewrite <- INR_IZR_INZ in Vn, Vm.
  assert (Un : INR n <= bpow radix2 40) by (rewrite INR_IZR_INZ; change (bpow radix2 40) with (IZR (2 ^ 40)); now apply IZR_le).
  assert (Um : INR m <= bpow radix2 40) by (rewrite INR_IZR_INZ; change (bpow radix2 40) with (IZR (2 ^ 40)); apply IZR_le; lia).
  destruct (fdouble (f_ofZ (Z.of_nat n)) Fn) as [FC VC].
  { rewrite Vn, Rabs_pos_eq by lra. eapply Rle_trans; [exact Un|]. apply bpow_le. lia. }
  rewrite Vn in VC. unfold ofN. cbn [ofZ FNum].
  assert (H1 : near (sq / (f_ofZ 2 * f_ofZ (Z.of_nat n)))%float (Ex / (2 * INR n)) (S (n + 1)) (4 * eta)).
  { rewrite <- VC. apply near_weaken with ((1 + u64) * (2 * INR n * eta / fR (f_ofZ 2 * f_ofZ (Z.of_nat n))%float) + eta).
    - apply near_div; rewrite ?VC; try lra; try lia.
      + split; [exact FS|]. split; [exact PS|exact ES].
      + nra.
      + apply Rle_trans with Ex.
        * apply (Rmult_le_reg_r (2 * INR n)); [lra|]. unfold Rdiv. rewrite Rmult_assoc, Rinv_l by lra. nra.
        * eapply Rle_trans; [exact UE|]. apply bpow_le. lia.
      + replace (2 * INR n * eta / (2 * INR n)) with eta by (field; lra). unfold eta.
        replace (/ 2) with (bpow radix2 (-1)) by (cbn; lra). rewrite <- bpow_plus. apply bpow_le. lia.
    - rewrite VC. replace (2 * INR n * eta / (2 * INR n)) with eta by (field; lra). nra. }
  pose proof (rms_near n vh w M (8 * u64 * M) (S (n + 1)) (sq / (f_ofZ 2 * f_ofZ (Z.of_nat n)))%float (2 * INR n) Hn NN HM) as H2.
  specialize (H2 ltac:(split; nra)).
  specialize (H2 ltac:(intros k Hk; destruct (Hv k Hk) as (? & ? & ?); repeat split; auto; lra) H1 ltac:(lra) ltac:(lia)).
  set (T0 := R_sqrt.sqrt (bigsum n (fun k => w k ^ 2) / (2 * INR n))) in *.
  
  assert (BT : 0 <= T0 <= 4 * M) by (apply rms_bound; auto; [lra|lra|intros k Hk; apply Hv, Hk]).
  assert (B450 : bpow radix2 450 <= / 2 * bpow radix2 990).
  { replace (/ 2) with (bpow radix2 (-1)) by (cbn; lra). rewrite <- bpow_plus. apply bpow_le. lia. }
  assert (Pr : 0 < fR rate) by (pose proof (bpow_gt_0 radix2 (-100)); lra).
  assert (IM : 0 < / INR m <= 1).
  { split; [apply Rinv_0_lt_compat; lra|]. rewrite <- Rinv_1. apply Rinv_le; lra. }
  set (z1 := (1 + / 1000) * (8 * u64 * M) + u64 * M / 8) in *.
  assert (Z1 : 0 <= z1 <= (8 + / 6) * (u64 * M)) by (unfold z1; split; nra).
  assert (UMs : 0 <= u64 * M <= / 4096 * M) by (split; nra).
  assert (H3 : near (Coq.Floats.PrimFloat.sqrt (sq / (f_ofZ 2 * f_ofZ (Z.of_nat n))) / f_ofZ (Z.of_nat m))%float
     (T0 / INR m) (S (S (S (n + 1)))) ((1 + u64) * (z1 / INR m) + eta)).
  { rewrite <- Vm. apply near_div; rewrite ?Vm; try lra; try lia; [exact H2| |]; unfold Rdiv; nra. }
  set (z2 := (1 + u64) * (z1 / INR m) + eta) in *.
  assert (Z1m : 0 <= z1 * / INR m) by (apply Rmult_le_pos; lra).
  assert (Z2 : 0 <= z2) by (unfold z2, Rdiv; nra).
  assert (B550 : 16 * bpow radix2 450 * bpow radix2 100 <= / 2 * bpow radix2 990).
  { replace (/ 2) with (bpow radix2 (-1)) by (cbn; lra). change 16 with (bpow radix2 4). rewrite <- !bpow_plus. apply bpow_le. lia. }
  assert (E1 : eta <= / 1000 * (u64 * M * / INR m) /\ eta <= / 1000 * (u64 * M * / INR m) * fR rate).
  { assert (G : eta <= / 1000 * (u64 * bpow radix2 (-400) * bpow radix2 (-40)) * bpow radix2 (-100)).
    { rewrite <- Bu. apply Rle_trans with (bpow radix2 (-10) * (bpow radix2 (-53) * bpow radix2 (-400) * bpow radix2 (-40)) * bpow radix2 (-100)).
      - rewrite <- !bpow_plus. apply bpow_le. lia.
      - repeat apply Rmult_le_compat_r; try apply bpow_ge_0. rewrite <- !bpow_plus. apply bpow_ge_0. cbn. lra. }
    assert (Q : bpow radix2 (-40) <= / INR m) by (change (-40)%Z with (- (40))%Z; rewrite bpow_opp; apply Rinv_le; lra).
    assert (Pb4 : 0 < bpow radix2 (-400)) by apply bpow_gt_0. assert (Pb1 : 0 < bpow radix2 (-100)) by apply bpow_gt_0.
    assert (Pb0 : 0 < bpow radix2 (-40)) by apply bpow_gt_0.
    assert (Q2 : u64 * bpow radix2 (-400) * bpow radix2 (-40) <= u64 * M * / INR m).
    { apply Rmult_le_compat; nra. }
    assert (b1 : bpow radix2 (-100) <= 1) by (change 1 with (bpow radix2 0); apply bpow_le; lia).
    assert (0 < u64 * bpow radix2 (-400) * bpow radix2 (-40)) by (repeat apply Rmult_lt_0_compat; lra).
    split.
    - eapply Rle_trans; [exact G|]. nra.
    - eapply Rle_trans; [exact G|]. apply Rmult_le_compat; nra. }
  destruct E1 as [E1 E2].
  assert (Z2u : z2 <= (8 + / 5) * (u64 * M * / INR m)).
  { unfold z2, Rdiv. assert (z1 * / INR m <= (8 + / 6) * (u64 * M) * / INR m) by (apply Rmult_le_compat_r; lra).
    assert (0 <= u64 * M * / INR m) by nra. nra. }
  assert (UM1 : 0 <= u64 * M * / INR m <= M) by (split; [nra|]; assert (u64 * M * / INR m <= u64 * M * 1) by (apply Rmult_le_compat_l; lra); lra).
  assert (H4 : near (Coq.Floats.PrimFloat.sqrt (sq / (f_ofZ 2 * f_ofZ (Z.of_nat n))) / f_ofZ (Z.of_nat m) * rate)%float
     (T0 / INR m * fR rate) (S (S (S (S (n + 1))))) ((1 + u64) * (z2 * fR rate) + eta)).
  { apply near_mul; auto; try lia.
    - unfold Rdiv. nra.
    - apply Rle_trans with (bpow radix2 450 * bpow radix2 100).
      + apply Rmult_le_compat; try lra; unfold Rdiv; nra.
      + pose proof (bpow_ge_0 radix2 450). pose proof (bpow_ge_0 radix2 100). nra.
    - apply Rle_trans with (16 * bpow radix2 450 * bpow radix2 100); [|exact B550].
      apply Rmult_le_compat; try lra; nra. }
  replace (n + 5)%nat with (S (S (S (S (n + 1))))) by lia.
  apply near_weaken with ((1 + u64) * (z2 * fR rate) + eta); [exact H4|].
  replace (9 * u64 * M * (fR rate / INR m)) with (9 * (u64 * M * / INR m) * fR rate) by (unfold Rdiv; ring).
  assert (z2 * fR rate <= (8 + / 5) * (u64 * M * / INR m) * fR rate) by (apply Rmult_le_compat_r; lra).
  assert (0 <= u64 * M * / INR m * fR rate) by nra. nra.
Qed.

(** ** Records with gaps *)
(** a sample is missing (NaN) or an ordinary number; [gaps] is the record as the mathematics sees it *)
Definition gappy_record (x : list float) (M : R) : Prop :=
  (Z.of_nat (len x) <= 2 ^ 40)%Z /\ bpow radix2 (-400) <= M <= bpow radix2 400 /\
  Forall (fun a => Coq.Floats.PrimFloat.is_nan a = true \/ (ffin a /\ Rabs (fR a) <= M)) x.
Definition gap (a : float) : option R := if Coq.Floats.PrimFloat.is_nan a then None else Some (fR a).
Definition gaps (x : list float) : list (option R) := map gap x.

Lemma gaps_len x : len (gaps x) = len x.
Proof. apply map_length. Qed.
Lemma gaps_nth x M i : gappy_record x M -> (i < len x)%nat ->
  (present (gaps x) i = false /\ nisnan (nth i x 0%float) = true) \/
  (present (gaps x) i = true /\ nisnan (nth i x 0%float) = false /\ point (gaps x) i = fR (nth i x 0%float) /\ ffin (nth i x 0%float) /\ Rabs (fR (nth i x 0%float)) <= M).
Proof.
  intros (_ & _ & H) Hi. unfold present, point, gaps. rewrite (nth_indep _ None (gap 0%float)) by (rewrite map_length; exact Hi). rewrite map_nth.
  rewrite Forall_forall in H. specialize (H (nth i x 0%float) (nth_In _ _ Hi)). unfold gap. cbn [nisnan FNum].
  destruct (Coq.Floats.PrimFloat.is_nan (nth i x 0%float)) eqn:E; [left; auto|right]. destruct H as [H|[F B]]; [discriminate|]. auto.
Qed.

(** the terms of the sum that np.nansum keeps *)
Lemma filter_sel {T B} (p : T -> bool) (v : T -> B) (q : B -> bool) l : (forall i, In i l -> q (v i) = p i) -> filter q (map v l) = map v (filter p l).
Proof.
  induction l as [|a l IH]; intro H; [reflexivity|]. cbn [map filter]. rewrite H by (now left). rewrite IH by (intros; apply H; now right). now destruct (p a).
Qed.
Lemma bigsum_lsum {T} (f : T -> R) l d : lsum (map f l) = bigsum (len l) (fun k => f (nth k l d)).
Proof.
  induction l as [|a l IH] using rev_ind; [reflexivity|]. rewrite map_app, app_length. cbn [map len]. rewrite Nat.add_1_r. cbn [bigsum].
  assert (E : forall u w, lsum (u ++ w) = lsum u + lsum w) by (clear; induction u; intros; cbn; [ring|rewrite IHu; ring]). rewrite E, IH. cbn [lsum].
  rewrite app_nth2, Nat.sub_diag by lia. cbn [nth]. rewrite Rplus_0_r. f_equal. apply bigsum_ext. intros k Hk. now rewrite app_nth1 by exact Hk.
Qed.

Definition dF (x : list float) (m i : nat) : float := (nth (i + 2 * m) x 0 - f_ofZ 2 * nth (i + m) x 0 + nth i x 0)%float.

Lemma v_nan x M m i : gappy_record x M -> (i + 2 * m < len x)%nat ->
  let p := (present (gaps x) i && present (gaps x) (i + m) && present (gaps x) (i + 2 * m))%bool in
  negb (nisnan (dF x m i)) = p /\ negb (nisnan (nsq (dF x m i))) = p.
Proof.
  intros Hx Hi p. assert (HM : M <= bpow radix2 400) by (destruct Hx as (_ & [_ HM] & _); exact HM). pose proof C88_binary64 as S.
  assert (G : nisnan (dF x m i) = true -> p = false -> negb (nisnan (dF x m i)) = p /\ negb (nisnan (nsq (dF x m i))) = p).
  { intros H ->. rewrite H. unfold nsq. rewrite (ns_mul _ S) by (now left). auto. }
  unfold dF in *.
  destruct (gaps_nth x M i Hx ltac:(lia)) as [[P0 N0]|(P0 & N0 & _ & F0 & B0)].
  { apply G; [apply (ns_add _ S); right; exact N0|unfold p; now rewrite P0]. }
  destruct (gaps_nth x M (i + m) Hx ltac:(lia)) as [[P1 N1]|(P1 & N1 & _ & F1 & B1)].
  { apply G; [apply (ns_add _ S); left; apply (ns_sub _ S); right; apply (ns_mul _ S); right; exact N1|unfold p; now rewrite P1, andb_false_r]. }
  destruct (gaps_nth x M (i + 2 * m) Hx ltac:(lia)) as [[P2 N2]|(P2 & N2 & _ & F2 & B2)].
  { apply G; [apply (ns_add _ S); left; apply (ns_sub _ S); left; exact N2|unfold p; now rewrite P2, andb_false_r]. }
  destruct (d2_err _ _ _ M F2 F1 F0 B2 B1 B0 HM) as [F E]. unfold p. rewrite P0, P1, P2. cbn [andb]. rewrite (fin_not_nan _ F). split; [reflexivity|].
  unfold nsq. cbn [nmul FNum]. apply negb_true_iff, fin_not_nan. apply fmul_err; auto.
  assert (PM : 0 <= M) by (pose proof (Rabs_pos (fR (nth i x 0%float))); lra). pose proof u64_pos. assert (u64 <= / 4096) by (unfold u64; lra).
  assert (W : Rabs (fR (nth (i + 2 * m) x 0 - f_ofZ 2 * nth (i + m) x 0 + nth i x 0)%float) <= 8 * M).
  { destruct (abs3 _ _ _ M B2 B1 B0) as [_ A3]. apply Rabs_le_inv in A3, E. apply Rabs_le. nra. }
  rewrite Rabs_mult. apply Rle_trans with (8 * M * (8 * M)); [apply Rmult_le_compat; try apply Rabs_pos; exact W|].
  apply Rle_trans with (bpow radix2 403 * bpow radix2 403); [|rewrite <- bpow_plus; apply bpow_le; lia].
  assert (8 * M <= bpow radix2 403) by (change 403%Z with (3 + 400)%Z; rewrite bpow_plus; change (bpow radix2 3) with 8; lra). apply Rmult_le_compat; lra.
Qed.

(** ** The degrees of freedom are a number unless the divisor of the white-PM formula is 0 *)
Local Instance p53 : Prec_gt_0 53 := eq_refl.
Lemma rnd_0 : rnd 0 = 0.
Proof. rewrite rnd_FLT. apply round_0. typeclasses eauto. Qed.
Lemma rnd_le a b : a <= b -> rnd a <= rnd b.
Proof. intros H. rewrite !rnd_FLT. now apply round_le; [typeclasses eauto..|]. Qed.
Lemma rnd_keep r k : (0 <= k <= 1000)%Z -> 1 <= Rabs r <= bpow radix2 k -> 1 <= Rabs (rnd r) <= bpow radix2 k.
Proof.
  intros Hk [L U]. rewrite rnd_FLT. split.
  - apply abs_round_ge_generic; [typeclasses eauto..| |exact L]. change 1 with (bpow radix2 0). apply generic_format_bpow. cbn. lia.
  - apply abs_round_le_generic; [typeclasses eauto..| |exact U]. apply generic_format_bpow. unfold FLT_exp. lia.
Qed.
Definition sized (k : Z) (a : float) : Prop := ffin a /\ 1 <= Rabs (fR a) <= bpow radix2 k.
Definition positive (k : Z) (a : float) : Prop := ffin a /\ 1 <= fR a <= bpow radix2 k.
Lemma small_bpow k r : (0 <= k <= 1000)%Z -> Rabs r <= bpow radix2 k -> Rabs r < bpow radix2 1024.
Proof. intros Hk H. eapply Rle_lt_trans; [exact H|]. apply bpow_lt. lia. Qed.
Lemma rnd_pos r k : (0 <= k <= 1000)%Z -> 1 <= r <= bpow radix2 k -> 1 <= rnd r <= bpow radix2 k.
Proof.
  intros Hk H. assert (P : 0 <= rnd r) by (rewrite <- rnd_0; apply rnd_le; lra). pose proof (rnd_keep r k Hk ltac:(rewrite Rabs_pos_eq; lra)) as Q. now rewrite Rabs_pos_eq in Q by exact P.
Qed.
Lemma pos_Z z k : (1 <= z)%Z -> (z <= 2 ^ k)%Z -> (0 <= k <= 53)%Z -> positive k (f_ofZ z).
Proof.
  intros H1 H2 Hk. assert (2 ^ k <= 2 ^ 53)%Z by (apply Z.pow_le_mono_r; lia). destruct (fofZ_ok z ltac:(lia)) as [F V]. split; [exact F|]. rewrite V.
  split; [now apply (IZR_le 1)|]. rewrite <- IZR_Zpower by lia. now apply IZR_le.
Qed.
Lemma pos_mul a b j k : positive j a -> positive k b -> (0 <= j)%Z -> (0 <= k)%Z -> (j + k <= 1000)%Z -> positive (j + k) (a * b)%float.
Proof.
  intros [Fa Ha] [Fb Hb] Hj Hk Hs. assert (H : 1 <= fR a * fR b <= bpow radix2 (j + k)) by (rewrite bpow_plus; split; [nra|apply Rmult_le_compat; lra]).
  pose proof (rnd_pos _ (j + k) ltac:(lia) H) as Q. destruct (fmul_ok a b Fa Fb) as [F V]; [apply (small_bpow (j + k)); [lia|rewrite Rabs_pos_eq; lra]|]. split; [exact F|]. now rewrite V.
Qed.
Lemma pos_add a b j k : positive j a -> positive k b -> (0 <= k <= j)%Z -> (j <= 900)%Z -> positive (j + 1) (a + b)%float.
Proof.
  intros [Fa Ha] [Fb Hb] Hj Hs. assert (bpow radix2 k <= bpow radix2 j) by (apply bpow_le; lia).
  assert (H1 : 1 <= fR a + fR b <= bpow radix2 (j + 1)) by (rewrite bpow_plus; change (bpow radix2 1) with 2; split; lra).
  pose proof (rnd_pos _ (j + 1) ltac:(lia) H1) as Q. destruct (fadd_ok a b Fa Fb) as [F V]; [apply (small_bpow (j + 1)); [lia|rewrite Rabs_pos_eq; lra]|]. split; [exact F|]. now rewrite V.
Qed.
Lemma Z_sub z w : (Z.abs z <= 2 ^ 40)%Z -> (Z.abs w <= 2 ^ 40)%Z -> z <> w -> sized 41 (f_ofZ z - f_ofZ w)%float /\ ((w < z)%Z -> positive 41 (f_ofZ z - f_ofZ w)%float).
Proof.
  intros Hz Hw N. destruct (fofZ_ok z ltac:(lia)) as [Fz Vz]. destruct (fofZ_ok w ltac:(lia)) as [Fw Vw].
  assert (H : 1 <= Rabs (fR (f_ofZ z) - fR (f_ofZ w)) <= bpow radix2 41).
  { rewrite Vz, Vw, <- minus_IZR, <- abs_IZR. change (bpow radix2 41) with (IZR (2 ^ 41)). split; [apply (IZR_le 1); lia|apply IZR_le; lia]. }
  pose proof (rnd_keep _ 41 ltac:(lia) H) as Q. destruct (fsub_ok _ _ Fz Fw) as [F V]; [apply (small_bpow 41); [lia|lra]|]. split; [split; [exact F|now rewrite V]|].
  intro L. split; [exact F|]. rewrite V. apply rnd_pos; [lia|]. rewrite Vz, Vw in *. rewrite Rabs_pos_eq in H; [exact H|]. apply IZR_lt in L. lra.
Qed.
Lemma pydiv_sized a b k : sized k b -> pydiv a b = Ok (a / b)%float.
Proof.
  intros [F H]. unfold pydiv. cbn [neqb FNum ndiv]. destruct (fofZ_ok 0 ltac:(lia)) as [F0 V0]. rewrite feqb_ok by assumption. cbn [ofZ FNum]. rewrite V0.
  destruct (Req_bool_spec (fR b) 0) as [E|E]; [|reflexivity]. rewrite E, Rabs_R0 in H. lra.
Qed.
Lemma pydiv_pos a b k : positive k b -> pydiv a b = Ok (a / b)%float.
Proof. intros [F H]. apply (pydiv_sized a b k). split; [exact F|]. rewrite Rabs_pos_eq; lra. Qed.

Lemma edf_F nlog nexp (N m : nat) nt : (4 <= N)%nat -> (1 <= m)%nat -> (Z.of_nat N <= 2 ^ 40)%Z -> (Z.of_nat m <= 2 ^ 40)%Z -> (nt = "wp"%string -> N <> m) ->
  exists e : float, edf_simple nlog nexp (Z.of_nat N) (Z.of_nat m)
    (if String.eqb nt "wp" then Some 2%Z else if String.eqb nt "wf" then Some 0%Z
     else if String.eqb nt "fp" then Some (-2)%Z else None) = Ok e.
Proof.
  intros HN Hm BN Bm Hw. assert (P : forall z k, (1 <= z)%Z -> (z <= 2 ^ k)%Z -> (0 <= k <= 53)%Z -> positive k (f_ofZ z)) by (intros; now apply pos_Z).
  destruct (String.eqb_spec nt "wp") as [->|Hnw]; [|destruct (String.eqb nt "wf"); [|destruct (String.eqb nt "fp")]]; unfold edf_simple.
  - specialize (Hw eq_refl). destruct (Z_sub (Z.of_nat N) (Z.of_nat m) ltac:(lia) ltac:(lia) ltac:(lia)) as [[F H] _].
    eexists. apply (pydiv_sized _ _ 42). destruct (fofZ_ok 2 ltac:(lia)) as [F2 V2]. cbn [nsub nmul ofZ FNum].
    assert (H' : 1 <= Rabs (fR (f_ofZ 2) * fR (f_ofZ (Z.of_nat N) - f_ofZ (Z.of_nat m))%float) <= bpow radix2 42).
    { rewrite V2, Rabs_mult, (Rabs_pos_eq 2) by lra. change 42%Z with (1 + 41)%Z. rewrite bpow_plus. change (bpow radix2 1) with 2. lra. }
    pose proof (rnd_keep _ 42 ltac:(lia) H') as Q. destruct (fmul_ok _ _ F2 F) as [Fm V]; [apply (small_bpow 42); [lia|lra]|]. split; [exact Fm|]. now rewrite V.
  - cbn [nadd nsub nmul ndiv ofZ FNum].
    rewrite (pydiv_pos _ _ (1 + 40)) by (apply pos_mul; try lia; apply P; lia). cbn [bind].
    rewrite (pydiv_pos _ _ 40) by (apply P; lia). cbn [bind].
    rewrite (pydiv_pos _ _ ((2 + (40 + 40)) + 1)) by (apply (pos_add _ _ _ 3); [apply pos_mul; try lia; [apply P; lia|apply pos_mul; try lia; apply P; lia]|apply P; lia|lia|lia]).
    cbn [bind]. now eexists.
  - cbn [nadd nsub nmul ndiv ofZ FNum]. destruct (Z_sub (Z.of_nat N) 3 ltac:(lia) ltac:(lia) ltac:(lia)) as [_ H]. specialize (H ltac:(lia)).
    rewrite (pydiv_pos _ _ (40 + (41 + 41))) by (apply pos_mul; try lia; [apply P; lia|apply pos_mul; try lia; exact H]). cbn [bind]. now eexists.
  - now eexists.
Qed.

Lemma edf_F_wp nlog nexp (m : nat) : (Z.of_nat m <= 2 ^ 40)%Z -> edf_simple nlog nexp (Z.of_nat m) (Z.of_nat m) (Some 2%Z) = @Err float ZeroDivisionError.
Proof.
  intro Hm. unfold edf_simple. cbn [nadd nsub nmul ndiv ofZ FNum]. destruct (fofZ_ok (Z.of_nat m) ltac:(lia)) as [F V]. destruct (fofZ_ok 2 ltac:(lia)) as [F2 V2]. destruct (fofZ_ok 0 ltac:(lia)) as [F0 V0].
  destruct (fsub_ok _ _ F F) as [Fs Vs]; [rewrite Rminus_diag_eq, rnd_0, Rabs_R0 by reflexivity; apply bpow_gt_0|]. rewrite Rminus_diag_eq, rnd_0 in Vs by reflexivity.
  destruct (fmul_ok _ _ F2 Fs) as [Fp Vp]; [rewrite Vs, Rmult_0_r, rnd_0, Rabs_R0; apply bpow_gt_0|]. rewrite Vs, Rmult_0_r, rnd_0 in Vp.
  unfold pydiv. cbn [neqb ofZ FNum]. rewrite feqb_ok by assumption. rewrite Vp, V0. now rewrite Req_bool_true.
Qed.

Lemma filter_len {T} (p : T -> bool) l : (len (filter p l) <= len l)%nat.
Proof. induction l as [|a l IH]; cbn; [lia|]. destruct (p a); cbn; lia. Qed.

(** ** One row in binary64 *)
Lemma calc_gradev_F nlog nexp ppf x M rate m ci nt : gappy_record x M -> moderate_rate rate -> (1 <= m < len x)%nat ->
  let g := gaps x in let n := len (triples g m) in
  exists d e c, calc_gradev_phase nlog nexp ppf x rate m 1 ci nt =
    (if ((1 <? n)%nat && String.eqb nt "wp" && Nat.eqb (points g) m)%bool then Err ZeroDivisionError else Ok (d, e, c)) /\
    ((1 < c)%Z \/ (1 < n)%nat -> c = Z.of_nat n /\
       near d (R_sqrt.sqrt (gr_var g (1 / fR rate) m)) (n + 5) (9 * u64 * M * (fR rate / INR m))).
Proof.
  intros Hx Hr Hm g n. pose proof Hx as (HN & HM & _). pose proof (list_tab x 0%float) as Et. set (N := len x) in *. set (f := fun i => nth i x 0%float) in *.
  unfold calc_gradev_phase. rewrite Et. rewrite !pystride_tab by lia. cbn [bind]. rewrite !tab_length, !stride_count_1.
  replace (min3 (N - 0) (N - 1 * m) (N - 2 * m)) with (N - 2 * m)%nat by (unfold min3; lia).
  rewrite second_diff_gen by lia. cbn [bind].
  set (p := fun i => (present g i && present g (i + m) && present g (i + 2 * m))%bool).
  assert (Ev : tab (N - 2 * m) (fun i => nadd (nsub (f (2 * m + i * 1)%nat) (nmul (ofZ 2) (f (1 * m + i * 1)%nat))) (f (0 + i * 1)%nat)) = map (dF x m) (seq 0 (N - 2 * m))).
  { apply tab_ext. intros i _. unfold dF, f. cbn [nadd nsub nmul ofZ FNum].
    replace (2 * m + i * 1)%nat with (i + 2 * m)%nat by lia. replace (1 * m + i * 1)%nat with (i + m)%nat by lia. replace (0 + i * 1)%nat with i by lia. reflexivity. }
  rewrite Ev, map_map.
  assert (Ep : triples g m = filter p (seq 0 (N - 2 * m))) by (unfold triples, g; rewrite gaps_len; reflexivity).
  rewrite (filter_sel p (dF x m)) by (intros i Hi; apply in_seq in Hi; apply (v_nan x M m i Hx); fold N; lia).
  rewrite (filter_sel p (fun i => nsq (dF x m i))) by (intros i Hi; apply in_seq in Hi; apply (v_nan x M m i Hx); fold N; lia).
  rewrite <- Ep, map_length. fold n.
  assert (EN : len (filter (fun v0 => negb (nisnan v0)) (tab N f)) = points g).
  { unfold tab. rewrite (filter_sel (present g)); [rewrite map_length; unfold points, g; now rewrite gaps_len|].
    intros i Hi. apply in_seq in Hi. unfold f. destruct (gaps_nth x M i Hx ltac:(fold N; lia)) as [[P Q]|(P & Q & _)]; unfold g; rewrite P, Q; reflexivity. }
  rewrite EN. set (T := triples g m) in *.
  assert (LT : (n <= N - 2 * m)%nat) by (unfold n; rewrite Ep; pose proof (filter_len p (seq 0 (N - 2 * m))) as Q; now rewrite seq_length in Q).
  assert (Lp : (points g <= N)%nat) by (unfold points, g; rewrite gaps_len; fold N; pose proof (filter_len (present (gaps x)) (seq 0 N)) as Q; now rewrite seq_length in Q).
  assert (Es : asum (map (fun i => nsq (dF x m i)) T) = sumsq (tab n (fun k => dF x m (nth k T 0%nat)))).
  { transitivity (asum (map (fun i => nsq (dF x m i)) (tab n (fun k => nth k T 0%nat)))); [do 2 f_equal; apply list_tab|].
    unfold sumsq, tab. now rewrite !map_map. }
  rewrite Es. set (n1 := if Nat.eqb n 0 then 1%nat else n).
  assert (Hd : (1 <= n)%nat -> n1 = n /\ near (nmul (ndiv (nsqrt (ndiv (sumsq (tab n (fun k => dF x m (nth k T 0%nat)))) (nmul (ofZ 2) (ofN n1)))) (ofN m)) rate)
     (R_sqrt.sqrt (gr_var g (1 / fR rate) m)) (n + 5) (9 * u64 * M * (fR rate / INR m))).
  { intro Hn. assert (n1 = n) as -> by (unfold n1; destruct (Nat.eqb_spec n 0); lia). split; [reflexivity|].
    pose proof (d2_row n (fun k => f (nth k T 0 + 2 * m)%nat) (fun k => f (nth k T 0 + m)%nat) (fun k => f (nth k T 0)%nat) rate m M (sumsq (tab n (fun k => dF x m (nth k T 0%nat)))) ltac:(lia) HM) as D.
    assert (HT : forall k, (k < n)%nat -> present g (nth k T 0%nat) = true /\ present g (nth k T 0 + m)%nat = true /\ present g (nth k T 0 + 2 * m)%nat = true).
    { intros k Hk. apply triples_in. apply nth_In. exact Hk. }
    assert (HP : forall i, present g i = true -> (ffin (f i) /\ Rabs (fR (f i)) <= M) /\ point g i = fR (f i)).
    { intros i Hi. assert (Li : (i < N)%nat) by (apply present_lt in Hi; unfold g in Hi; now rewrite gaps_len in Hi).
      destruct (gaps_nth x M i Hx Li) as [[P _]|(_ & _ & V & F & B)]; [unfold g in Hi; congruence|]. split; [split; [exact F|exact B]|exact V]. }
    specialize (D ltac:(intros k Hk; destruct (HT k Hk) as (A0 & A1 & A2); split; [apply HP, A2|split; [apply HP, A1|apply HP, A0]]) Hr ltac:(lia) ltac:(lia) Hn (sumsq_left _)).
    replace (R_sqrt.sqrt (gr_var g (1 / fR rate) m)) with (R_sqrt.sqrt (bigsum n (fun k => (fR (f (nth k T 0 + 2 * m)%nat) - 2 * fR (f (nth k T 0 + m)%nat) + fR (f (nth k T 0)%nat)) ^ 2) / (2 * INR n)) / INR m * fR rate); [exact D|].
    assert (Pr : 0 < fR rate) by (destruct Hr as [_ [L _]]; pose proof (bpow_gt_0 radix2 (-100)); lra). assert (Pm : 1 <= INR m) by (apply (le_INR 1); lia). assert (Pn : 1 <= INR n) by (apply (le_INR 1); lia).
    unfold gr_var. fold T n. rewrite (bigsum_lsum _ T 0%nat). fold n.
    rewrite (bigsum_ext n _ (fun k => (point g (nth k T 0 + 2 * m)%nat - 2 * point g (nth k T 0 + m)%nat + point g (nth k T 0)%nat) ^ 2)).
    2:{ intros k Hk. destruct (HT k Hk) as (A0 & A1 & A2). rewrite (proj2 (HP _ A0)), (proj2 (HP _ A1)), (proj2 (HP _ A2)). reflexivity. }
    set (s := bigsum n _). assert (Hs : 0 <= s) by (apply bigsum_nonneg; intros; apply pow2_ge_0).
    replace (/ (2 * (INR m * (1 / fR rate)) ^ 2 * INR n) * s) with (s / (2 * INR n) * (fR rate / INR m) ^ 2) by (field; lra).
    rewrite sqrt_mult_alt by (apply Rmult_le_pos; [exact Hs|left; apply Rinv_0_lt_compat; lra]).
    rewrite sqrt_pow2; [field; lra|]. apply Rmult_le_pos; [lra|]. left. apply Rinv_0_lt_compat. lra. }
  destruct (Nat.ltb_spec 1 n1) as [L|L].
  - assert (Hn : (1 < n)%nat) by (unfold n1 in L; destruct (Nat.eqb_spec n 0); lia). destruct (Hd ltac:(lia)) as [E1 D]. rewrite (proj2 (Nat.ltb_lt 1 n)) by exact Hn. cbn [andb].
    pose proof (points_4 g m ltac:(lia) ltac:(fold T; fold n; lia)) as P4.
    destruct (String.eqb nt "wp" && Nat.eqb (points g) m)%bool eqn:Eb.
    + apply andb_true_iff in Eb as [Ew Ep']. rewrite Ew. apply Nat.eqb_eq in Ep'. rewrite Ep', edf_F_wp by lia. cbn [bind]. eexists _, (0%float, 0%float), (Z.of_nat n). split; [reflexivity|]. intros _. split; [reflexivity|exact D].
    + destruct (edf_F nlog nexp (points g) m nt P4 ltac:(lia) ltac:(lia) ltac:(lia)) as [ed Ee].
      { intros ->. rewrite String.eqb_refl in Eb. cbn [andb] in Eb. now apply Nat.eqb_neq in Eb. }
      rewrite Ee. cbn [bind]. do 3 eexists. split; [reflexivity|]. intros _. split; [now rewrite E1|exact D].
  - assert (Hn : (n <= 1)%nat) by (unfold n1 in L; destruct (Nat.eqb_spec n 0); lia). destruct (Nat.ltb_spec 1 n); [lia|]. cbn [andb bind].
    do 3 eexists. split; [reflexivity|]. intros [C|C]; lia.
Qed.

Lemma same_factors_len (x : list float) (y : list R) rate tF tR : (Z.of_nat (len x) <= 2 ^ 40)%Z -> len y = len x -> x <> [] -> moderate_rate rate -> same_request rate tF tR ->
  exists ms, tau_generator x rate tF false (ofZ (-1)) = Ok (x, ms, map (fun m => f_ofZ m / rate)%float ms) /\
    tau_generator y (fR rate) tR false (-1) = Ok (y, ms, map (fun m => IZR m / fR rate) ms) /\
    forall m, In m ms -> (1 <= m < Z.of_nat (len x))%Z.
Proof.
  intros Hn Hy Hx0 Hr Hs. apply moderate_safe in Hr. assert (Hl : (1 <= len x)%nat) by (destruct x; [contradiction|cbn; lia]).
  assert (G : exists ms, tau_generator x rate tF false (ofZ (-1)) = Ok (x, ms, map (fun m => f_ofZ m / rate)%float ms) /\
    tau_generator y (fR rate) tR false (-1) = Ok (y, ms, map (fun m => IZR m / fR rate) ms)).
  { destruct Hs as [(s & Hs & HF & HR)|(l & -> & -> & Hl')].
    - destruct (C80_keywords x y rate tF tR s false (-1)) as (ms & G1 & G2 & _); auto; [lia|lia|]. exists ms. auto.
    - destruct (C80_explicit x y rate l false (-1)) as (ms & G1 & G2 & _); auto; [lia|lia|]. exists ms. auto. }
  destruct G as (ms & G1 & G2). exists ms. split; [exact G1|]. split; [exact G2|].
  intros m Hm. unfold tau_generator in G1. destruct (neqb rate (ofZ 0)); [discriminate|].
  destruct (expand_taus (len x) rate tF) as [ts|]; cbn [bind] in G1; [|discriminate].
  injection G1 as E _. rewrite <- E in Hm. apply select_m_In_gen in Hm. lia.
Qed.

Lemma two_cols {A} `{Num A} (tau : Z -> A) (h : Z -> A * (A * A) * Z) ms :
  remove_small_ns (map tau ms) (map (fun m => fst (fst (h m))) ms) (EList [map (fun m => fst (snd (fst (h m)))) ms; map (fun m => snd (snd (fst (h m)))) ms]) (map (fun m => snd (h m)) ms) =
  match filter (fun m => (1 <? snd (h m))%Z) ms with
  | [] => Err UserWarning
  | good => Ok (map tau good, map (fun m => fst (fst (h m))) good, EList [map (fun m => fst (snd (fst (h m)))) good; map (fun m => snd (snd (fst (h m)))) good], map (fun m => snd (h m)) good)
  end.
Proof. unfold remove_small_ns. rewrite !map_map, !mask_select_map. cbn [bind]. destruct (filter _ ms); reflexivity. Qed.

(** ** gradev *)
Definition grow (g : list (option R)) (M : R) (rate : float) (r : row) : Prop :=
  r_n r = Z.of_nat (len (triples g (Z.to_nat (r_m r)))) /\ (1 < r_n r)%Z /\
  r_dR r = R_sqrt.sqrt (gr_var g (1 / fR rate) (Z.to_nat (r_m r))) /\ accurate 5 9 M rate r.

Theorem C118_gradev nlog nexp ppf ci nlog' nexp' ppf' ci' x M rate tF tR nt : gappy_record x M -> x <> [] -> moderate_rate rate -> same_request rate tF tR ->
  let g := gaps x in
  let resF := gradev nlog nexp ppf x rate "phase" tF ci nt in
  let resX := gradev nlog' nexp' ppf' (with_gaps g) (Fin (fR rate)) "phase" (req tR) ci' nt in
  (exists e, In e [UserWarning; ZeroDivisionError] /\ resF = Err e /\ resX = Err e) \/
  exists rows lo hi lo' hi',
    resF = Ok (map (fun r => f_ofZ (r_m r) / rate)%float rows, map r_dF rows, EList [lo; hi], map r_n rows) /\
    resX = Ok (map (fun r => Fin (IZR (r_m r) / fR rate)) rows, map (fun r => Fin (r_dR r)) rows, EList [lo'; hi'], map r_n rows) /\
    rows <> [] /\ Forall (grow g M rate) rows.
Proof.
  intros Hx Hx0 Hr Hs g resF resX. pose proof Hx as (HN & HM & _).
  set (y := map (fun _ => 0) x). assert (Ly : len y = len x) by apply map_length.
  destruct (same_factors_len x y rate tF tR HN Ly Hx0 Hr Hs) as (ms & G1 & G2 & Hb).
  assert (Pr : 0 < fR rate) by (destruct Hr as [_ [L _]]; pose proof (bpow_gt_0 radix2 (-100)); lra).
  unfold resF, resX, gradev. cbn [input_to_phase String.eqb Ascii.eqb Bool.eqb]. unfold input_to_phase. cbn [String.eqb Ascii.eqb Bool.eqb bind].
  rewrite G1. rewrite (taugen_X (with_gaps g) y) by (unfold with_gaps, g; rewrite map_length, gaps_len; lia). rewrite G2. cbn [bind].
  set (fails := fun mj => ((1 <? len (triples g (Z.to_nat mj)))%nat && String.eqb nt "wp" && Nat.eqb (points g) (Z.to_nat mj))%bool).
  assert (RF : forall mj, In mj ms -> exists h, calc_gradev_phase nlog nexp ppf x rate (Z.to_nat mj) 1 ci nt = (if fails mj then Err ZeroDivisionError else Ok h) /\
     ((1 < snd h)%Z \/ (1 < len (triples g (Z.to_nat mj)))%nat -> snd h = Z.of_nat (len (triples g (Z.to_nat mj))) /\
       near (fst (fst h)) (R_sqrt.sqrt (gr_var g (1 / fR rate) (Z.to_nat mj))) (len (triples g (Z.to_nat mj)) + 5) (9 * u64 * M * (fR rate / INR (Z.to_nat mj))))).
  { intros mj Hj. pose proof (Hb mj Hj). destruct (calc_gradev_F nlog nexp ppf x M rate (Z.to_nat mj) ci nt Hx Hr ltac:(lia)) as (d & e & c & E & C). exists (d, e, c). split; [exact E|exact C]. }
  assert (RX : forall mj, In mj ms -> exists h, calc_gradev_phase nlog' nexp' ppf' (with_gaps g) (Fin (fR rate)) (Z.to_nat mj) 1 ci' nt = (if fails mj then Err ZeroDivisionError else Ok h) /\
     ((1 < snd h)%Z \/ (1 < len (triples g (Z.to_nat mj)))%nat -> snd h = Z.of_nat (len (triples g (Z.to_nat mj))) /\
       fst (fst h) = Fin (R_sqrt.sqrt (gr_var g (1 / fR rate) (Z.to_nat mj))))).
  { intros mj Hj. pose proof (Hb mj Hj). destruct (calc_gradev_X nlog' nexp' ppf' g (fR rate) (Z.to_nat mj) ci' nt Pr ltac:(lia)) as (d & e & c & E & C). exists (d, e, c). split; [exact E|]. intro Q. destruct (C Q) as (-> & -> & _). split; reflexivity. }
  destruct (existsb fails ms) eqn:Ef.
  - left. exists ZeroDivisionError. split; [right; left; reflexivity|]. apply existsb_exists in Ef as (m0 & Hm0 & F0).
    split; rewrite (mapM_Err _ ZeroDivisionError); try reflexivity.
    + intros z Hz. destruct (RF z Hz) as (h & -> & _). destruct (fails z); [now right|left; eauto].
    + exists m0. split; [exact Hm0|]. destruct (RF m0 Hm0) as (h & -> & _). now rewrite F0.
    + intros z Hz. destruct (RX z Hz) as (h & -> & _). destruct (fails z); [now right|left; eauto].
    + exists m0. split; [exact Hm0|]. destruct (RX m0 Hm0) as (h & -> & _). now rewrite F0.
  - assert (Hf : forall m, In m ms -> fails m = false).
    { intros m Hm. destruct (fails m) eqn:E; [|reflexivity]. rewrite <- Ef. symmetry. apply existsb_exists. eauto. }
    set (hF := fun mj => match calc_gradev_phase nlog nexp ppf x rate (Z.to_nat mj) 1 ci nt with Ok h => h | Err _ => (0, (0, 0), 0%Z)%float end).
    set (hX := fun mj => match calc_gradev_phase nlog' nexp' ppf' (with_gaps g) (Fin (fR rate)) (Z.to_nat mj) 1 ci' nt with Ok h => h | Err _ => (NaN, (NaN, NaN), 0%Z) end).
    rewrite (mapM_Ok _ hF) by (intros z Hz; unfold hF; destruct (RF z Hz) as (h & E & _); rewrite (Hf z Hz) in E; now rewrite E).
    rewrite (mapM_Ok _ hX) by (intros z Hz; unfold hX; destruct (RX z Hz) as (h & E & _); rewrite (Hf z Hz) in E; now rewrite E).
    cbn [bind]. rewrite !map_map. rewrite two_cols, two_cols.
    set (cnt := fun m => Z.of_nat (len (triples g (Z.to_nat m)))).
    assert (KF : forall m, In m ms -> (1 < snd (hF m))%Z \/ (1 < cnt m)%Z -> snd (hF m) = cnt m /\
       near (fst (fst (hF m))) (R_sqrt.sqrt (gr_var g (1 / fR rate) (Z.to_nat m))) (len (triples g (Z.to_nat m)) + 5) (9 * u64 * M * (fR rate / INR (Z.to_nat m)))).
    { intros m Hm Q. unfold hF in *. destruct (RF m Hm) as (h & E & C). rewrite (Hf m Hm) in E. rewrite E in Q |- *. apply C. unfold cnt in Q. lia. }
    assert (KX : forall m, In m ms -> (1 < snd (hX m))%Z \/ (1 < cnt m)%Z -> snd (hX m) = cnt m /\ fst (fst (hX m)) = Fin (R_sqrt.sqrt (gr_var g (1 / fR rate) (Z.to_nat m)))).
    { intros m Hm Q. unfold hX in *. destruct (RX m Hm) as (h & E & C). rewrite (Hf m Hm) in E. rewrite E in Q |- *. apply C. unfold cnt in Q. lia. }
    assert (FF : filter (fun m => (1 <? snd (hF m))%Z) ms = filter (fun m => (1 <? cnt m)%Z) ms).
    { apply filter_ext_in. intros m Hm. destruct (Z.ltb_spec 1 (snd (hF m))) as [L|L]; destruct (Z.ltb_spec 1 (cnt m)) as [L'|L']; try reflexivity; destruct (KF m Hm ltac:(lia)) as [Q _]; lia. }
    assert (FX : filter (fun m => (1 <? snd (hX m))%Z) ms = filter (fun m => (1 <? cnt m)%Z) ms).
    { apply filter_ext_in. intros m Hm. destruct (Z.ltb_spec 1 (snd (hX m))) as [L|L]; destruct (Z.ltb_spec 1 (cnt m)) as [L'|L']; try reflexivity; destruct (KX m Hm ltac:(lia)) as [Q _]; lia. }
    rewrite FF, FX. assert (Hg : forall m, In m (filter (fun m => (1 <? cnt m)%Z) ms) -> In m ms /\ (1 < cnt m)%Z) by (intros m Hm; apply filter_In in Hm as [P Q]; apply Z.ltb_lt in Q; auto).
    destruct (filter (fun m => (1 <? cnt m)%Z) ms) as [|m0 l0] eqn:Eg.
    { left. exists UserWarning. split; [left; reflexivity|split; reflexivity]. }
    right. set (good := m0 :: l0) in *.
    exists (map (fun m => Row m (cnt m) (fst (fst (hF m))) (fst (fst (hF m))) (R_sqrt.sqrt (gr_var g (1 / fR rate) (Z.to_nat m))) 0) good).
    exists (map (fun m => fst (snd (fst (hF m)))) good), (map (fun m => snd (snd (fst (hF m)))) good), (map (fun m => fst (snd (fst (hX m)))) good), (map (fun m => snd (snd (fst (hX m)))) good).
    rewrite !map_map. cbn [r_m r_n r_dF r_dR].
    rewrite (map_ext_in (fun m => snd (hF m)) cnt good) by (intros m Hm; destruct (Hg m Hm) as [P Q]; apply KF; auto).
    rewrite (map_ext_in (fun m => snd (hX m)) cnt good) by (intros m Hm; destruct (Hg m Hm) as [P Q]; apply KX; auto).
    rewrite (map_ext_in (fun m => fst (fst (hX m))) (fun m => Fin (R_sqrt.sqrt (gr_var g (1 / fR rate) (Z.to_nat m)))) good) by (intros m Hm; destruct (Hg m Hm) as [P Q]; apply KX; auto).
    split; [reflexivity|]. split; [reflexivity|]. split; [discriminate|].
    apply Forall_forall. intros r Hr'. apply in_map_iff in Hr' as (m & <- & Hm). destruct (Hg m Hm) as [P Q]. pose proof (Hb m P) as Bm.
    unfold grow. cbn [r_m r_n r_dF r_dR]. split; [reflexivity|]. split; [exact Q|]. split; [reflexivity|].
    assert (LT : (len (triples g (Z.to_nat m)) <= len x)%nat).
    { unfold triples, g. rewrite gaps_len. eapply Nat.le_trans; [apply filter_len|]. rewrite seq_length. lia. }
    destruct (KF m P (or_intror Q)) as [_ A].
    apply (near_accurate _ (len (triples g (Z.to_nat m)))); cbn [r_m r_n r_dF r_dR]; try lia; try reflexivity; [|apply sqrt_pos].
    replace (IZR m) with (INR (Z.to_nat m)) by (rewrite INR_IZR_INZ; f_equal; lia). exact A.
Qed.
Print Assumptions C118_gradev.

(** Two missing samples: at m = 1 three complete triples are left, at m = 2 two. *)
Definition gap_x : list float := ints [0; 1; 5; 3]%Z ++ [nan] ++ ints [2; -4; 7]%Z ++ [nan].
Example C118_ex nlog nexp ppf ci nlog' nexp' ppf' ci' :
  gappy_record gap_x 7 /\ moderate_rate (f_ofZ 1) /\ same_request (f_ofZ 1) (TStr "octave") (TStr "octave") /\
  exists rows lo hi lo' hi',
    gradev nlog nexp ppf gap_x (f_ofZ 1) "phase" (TStr "octave") ci "wf" = Ok (map (fun r => f_ofZ (r_m r) / f_ofZ 1)%float rows, map r_dF rows, EList [lo; hi], map r_n rows) /\
    gradev nlog' nexp' ppf' (with_gaps (gaps gap_x)) (Fin (fR (f_ofZ 1))) "phase" (req (TStr "octave")) ci' "wf" =
      Ok (map (fun r => Fin (IZR (r_m r) / fR (f_ofZ 1))) rows, map (fun r => Fin (r_dR r)) rows, EList [lo'; hi'], map r_n rows) /\
    map r_n rows = [3; 2]%Z /\ Forall (grow (gaps gap_x) 7 (f_ofZ 1)) rows.
Proof.
  assert (Hx : gappy_record gap_x 7).
  { split; [cbn; lia|]. split.
    - split; [apply Rle_trans with (bpow radix2 0); [apply bpow_le; lia|cbn; lra]|apply Rle_trans with (bpow radix2 3); [cbn; lra|apply bpow_le; lia]].
    - assert (G : forall l, Forall (fun z => (Z.abs z <= 7)%Z) l -> Forall (fun a => Coq.Floats.PrimFloat.is_nan a = true \/ (ffin a /\ Rabs (fR a) <= 7)) (ints l)).
      { intros l H. unfold ints. apply Forall_map. eapply Forall_impl; [|exact H]. intros z Hz. cbv beta in Hz. right. destruct (fofZ_ok z ltac:(lia)) as [F V]. split; [exact F|]. rewrite V, <- abs_IZR. now apply IZR_le. }
      unfold gap_x. apply Forall_app. split; [apply G; repeat constructor; cbn; lia|]. apply Forall_app. split; [constructor; [left; reflexivity|constructor]|].
      apply Forall_app. split; [apply G; repeat constructor; cbn; lia|]. constructor; [left; reflexivity|constructor]. }
  assert (Hs : same_request (f_ofZ 1) (TStr "octave") (TStr "octave")).
  { left. exists "octave"%string. split; [cbn; tauto|]. split; (left; reflexivity) || (right; reflexivity) || reflexivity. }
  pose proof one_rate as Hr. do 3 (split; [assumption|]).
  destruct (C118_gradev nlog nexp ppf ci nlog' nexp' ppf' ci' gap_x 7 (f_ofZ 1) _ _ "wf" Hx ltac:(discriminate) Hr Hs) as [(e & _ & E & _)|(rows & lo & hi & lo' & hi' & E1 & E2 & _ & A)].
  - exfalso. revert E. vm_compute. discriminate.
  - exists rows, lo, hi, lo', hi'. split; [exact E1|]. split; [exact E2|]. split; [|exact A].
    assert (G : forall r : @result float, gradev nlog nexp ppf gap_x (f_ofZ 1) "phase" (TStr "octave") ci "wf" = Ok r -> snd r = [3; 2]%Z).
    { intros r. vm_compute. intro Q. injection Q as <-. reflexivity. }
    exact (G _ E1).
Qed.
