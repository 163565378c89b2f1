(** * Laws of the estimators: invariances, scaling, time reversal. *)
From Coq Require Import String Reals List ZArith Lra Lia Arith Bool Sorted.
From Verif Require Import Base Num NpList ModelCore ModelDev NumR ListFacts Spec RSum TauProofs DevProofs TotProofs Closed.
Import ListNotations.
Local Open Scope R_scope.
Local Notation len := List.length.

Lemma shifted_len g x : len (shifted g x) = len x.
Proof. unfold shifted. now rewrite map_length, seq_length. Qed.
Lemma nth_shifted g x i : (i < len x)%nat -> (shifted g x).[i] = x.[i] + g i.
Proof. intros H. unfold shifted. fold (tab (len x) (fun i => x.[i] + g i)). now rewrite nth_tab. Qed.
Lemma scaled_len c x : len (scaled c x) = len x.
Proof. unfold scaled. now rewrite map_length. Qed.
Lemma nth_scaled c x i : (scaled c x).[i] = c * x.[i].
Proof.
  unfold scaled. rewrite <- (Rmult_0_r c) at 1. now rewrite map_nth.
Qed.
Lemma nth_rev x i : (i < len x)%nat -> (rev x).[i] = x.[len x - 1 - i].
Proof. intros H. rewrite rev_nth by assumption. f_equal. lia. Qed.

Lemma adev_idx N m k : (1 <= m)%nat -> (k < (N - 1) / m - 1)%nat -> (k * m + 2 * m < N)%nat.
Proof. intros Hm Hk. pose proof (Nat.mul_div_le (N - 1) m). nia. Qed.
Lemma hdev_idx N m k : (1 <= m)%nat -> (k < (N - 1) / m - 2)%nat -> (k * m + 3 * m < N)%nat.
Proof. intros Hm Hk. pose proof (Nat.mul_div_le (N - 1) m). nia. Qed.

Ltac inr := repeat first [rewrite plus_INR | rewrite mult_INR]; change (INR 0) with 0; change (INR 1) with 1;
  replace (INR 2) with 2 by (cbn; lra); replace (INR 3) with 3 by (cbn; lra).

Lemma d2_line a b x m i : (i + 2 * m < len x)%nat -> d2 (shifted (line a b) x) m i = d2 x m i.
Proof. intros H. unfold d2. rewrite !nth_shifted by lia. unfold line. inr. ring. Qed.
Lemma d3_parabola a b c x m i : (i + 3 * m < len x)%nat -> d3 (shifted (parabola a b c) x) m i = d3 x m i.
Proof. intros H. unfold d3. rewrite !nth_shifted by lia. unfold parabola. inr. ring. Qed.
Lemma d2_parabola a b c x m i : (i + 2 * m < len x)%nat ->
  d2 (shifted (parabola a b c) x) m i = d2 x m i + 2 * c * INR m ^ 2.
Proof. intros H. unfold d2. rewrite !nth_shifted by lia. unfold parabola. inr. ring. Qed.
Lemma line_parabola a b i : line a b i = parabola a b 0 i.
Proof. unfold line, parabola. ring. Qed.
Lemma shifted_ext g h x : (forall i, g i = h i) -> shifted g x = shifted h x.
Proof. intros H. unfold shifted. apply map_ext. intros. now rewrite H. Qed.
Lemma shifted_line_parabola a b x : shifted (line a b) x = shifted (parabola a b 0) x.
Proof. apply shifted_ext, line_parabola. Qed.
Lemma d2_scaled c x m i : d2 (scaled c x) m i = c * d2 x m i.
Proof. unfold d2. rewrite !nth_scaled. ring. Qed.
Lemma d3_scaled c x m i : d3 (scaled c x) m i = c * d3 x m i.
Proof. unfold d3. rewrite !nth_scaled. ring. Qed.
Lemma d2_rev x m i : (i + 2 * m < len x)%nat -> d2 (rev x) m i = d2 x m (len x - 1 - 2 * m - i).
Proof.
  intros H. unfold d2. rewrite !nth_rev by lia.
  replace (len x - 1 - (i + 2 * m))%nat with (len x - 1 - 2 * m - i)%nat by lia.
  replace (len x - 1 - 2 * m - i + 2 * m)%nat with (len x - 1 - i)%nat by lia.
  replace (len x - 1 - 2 * m - i + m)%nat with (len x - 1 - (i + m))%nat by lia. ring.
Qed.
Lemma d3_rev x m i : (i + 3 * m < len x)%nat -> d3 (rev x) m i = - d3 x m (len x - 1 - 3 * m - i).
Proof.
  intros H. unfold d3. rewrite !nth_rev by lia.
  replace (len x - 1 - (i + 3 * m))%nat with (len x - 1 - 3 * m - i)%nat by lia.
  replace (len x - 1 - 3 * m - i + 3 * m)%nat with (len x - 1 - i)%nat by lia.
  replace (len x - 1 - 3 * m - i + 2 * m)%nat with (len x - 1 - (i + m))%nat by lia.
  replace (len x - 1 - 3 * m - i + m)%nat with (len x - 1 - (i + 2 * m))%nat by lia. ring.
Qed.

(** ** constant and linear phase terms *)
Lemma avar_line a b x t m : (1 <= m)%nat -> avar (shifted (line a b) x) t m = avar x t m.
Proof.
  intros Hm. unfold avar, adev_n. rewrite shifted_len. f_equal. apply bigsum_ext. intros k Hk.
  rewrite d2_line; [reflexivity|]. now apply adev_idx.
Qed.
Lemma oavar_line a b x t m : oavar (shifted (line a b) x) t m = oavar x t m.
Proof.
  unfold oavar, oadev_n. rewrite shifted_len. f_equal. apply bigsum_ext. intros k Hk.
  rewrite d2_line; [reflexivity|lia].
Qed.
Lemma hvar_parabola a b c x t m : (1 <= m)%nat -> hvar (shifted (parabola a b c) x) t m = hvar x t m.
Proof.
  intros Hm. unfold hvar, hdev_n. rewrite shifted_len. f_equal. apply bigsum_ext. intros k Hk.
  rewrite d3_parabola; [reflexivity|]. now apply hdev_idx.
Qed.
Lemma ohvar_parabola a b c x t m : ohvar (shifted (parabola a b c) x) t m = ohvar x t m.
Proof.
  unfold ohvar, ohdev_n. rewrite shifted_len. f_equal. apply bigsum_ext. intros k Hk.
  rewrite d3_parabola; [reflexivity|lia].
Qed.
Lemma mvar_line a b x t m : mvar (shifted (line a b) x) t m = mvar x t m.
Proof.
  unfold mvar, mdev_n. rewrite shifted_len. f_equal. apply bigsum_ext. intros j Hj. f_equal.
  apply bigsum_ext. intros i Hi. apply d2_line. lia.
Qed.

Lemma bigsum_INR n : bigsum n INR = INR n * (INR n - 1) / 2.
Proof. induction n; [cbn; lra|]. cbn [bigsum]. rewrite IHn, S_INR. lra. Qed.

Lemma pvar_weights m : bigsum m (fun k => (INR m - 1) / 2 - INR k) = 0.
Proof. rewrite bigsum_minus, bigsum_const, bigsum_INR. lra. Qed.

Lemma pvar_line a b x t m : pvar (shifted (line a b) x) t m = pvar x t m.
Proof.
  unfold pvar. destruct (Nat.eqb m 1); [apply oavar_line|].
  unfold oadev_n. rewrite shifted_len. f_equal. apply bigsum_ext. intros i Hi. f_equal.
  rewrite (bigsum_ext m _ (fun k => ((INR m - 1) / 2 - INR k) * (x.[i + k] - x.[i + k + m]) +
     (- b * INR m) * ((INR m - 1) / 2 - INR k))).
  - rewrite bigsum_plus, bigsum_scal, pvar_weights. ring.
  - intros k Hk. rewrite !nth_shifted by lia. unfold line. inr. ring.
Qed.

Lemma xtot_line a b x i : (- Z.of_nat (len x) < i < 2 * Z.of_nat (len x) - 1)%Z ->
  xtot (shifted (line a b) x) i = xtot x i + (a + b * IZR i).
Proof.
  intros H. unfold xtot. rewrite shifted_len.
  destruct (Z.ltb_spec i 0).
  - rewrite !nth_shifted by lia. unfold line. rewrite (INR_IZR_INZ (Z.to_nat (- i))), Z2Nat.id by lia.
    rewrite opp_IZR. cbn. ring.
  - destruct (Z.ltb_spec i (Z.of_nat (len x))).
    + rewrite nth_shifted by lia. unfold line. rewrite (INR_IZR_INZ (Z.to_nat i)), Z2Nat.id by lia. ring.
    + rewrite !nth_shifted by lia. unfold line. rewrite (INR_IZR_INZ (Z.to_nat _)), Z2Nat.id by lia.
      rewrite (INR_IZR_INZ (len x - 1)), Nat2Z.inj_sub by lia.
      rewrite !minus_IZR, mult_IZR, !minus_IZR. cbn [Z.of_nat Pos.of_succ_nat]. ring.
Qed.

Lemma totvar_line a b x t m : (1 <= m < len x)%nat ->
  totvar (shifted (line a b) x) t m = totvar x t m.
Proof.
  intros Hm. unfold totvar, totdev_n. rewrite shifted_len. f_equal. apply bigsum_ext. intros k Hk.
  cbv zeta. f_equal. rewrite !xtot_line by lia. rewrite minus_IZR, plus_IZR. ring.
Qed.

(** ** properties of one total-deviation term *)
Lemma reflect9_ext y y' m j : (j < 9 * m)%nat -> (forall k, (k < 3 * m)%nat -> y k = y' k) ->
  reflect9 y m j = reflect9 y' m j.
Proof.
  intros Hj H. unfold reflect9.
  destruct (Nat.ltb_spec j (3 * m)); [apply H; lia|].
  destruct (Nat.ltb_spec j (6 * m)); apply H; lia.
Qed.

Lemma wsum_ext_in z z' m j : (forall k, (k < m)%nat -> z (j + k)%nat = z' (j + k)%nat) -> wsum z m j = wsum z' m j.
Proof. intros H. apply bigsum_ext. exact H. Qed.

Lemma half_slope_ext y y' m : (forall k, (k < 3 * m)%nat -> y k = y' k) -> half_slope y m = half_slope y' m.
Proof.
  intros H. unfold half_slope. destruct (Nat.eq_dec m 0) as [->|Hm]; [reflexivity|].
  pose proof (div2_3m m ltac:(lia)). set (h := Nat.div2 (3 * m)) in *.
  f_equal. f_equal; f_equal; apply bigsum_ext; intros; apply H; lia.
Qed.

Lemma tot_term_ext y y' m : (forall k, (k < 3 * m)%nat -> y k = y' k) -> tot_term y m = tot_term y' m.
Proof.
  intros H. unfold tot_term. rewrite (half_slope_ext y y' m H). f_equal.
  apply bigsum_ext. intros j Hj.
  assert (HW : forall j', (j' + m <= 9 * m)%nat ->
     wsum (reflect9 (fun k => y k - half_slope y' m * INR k) m) m j' =
     wsum (reflect9 (fun k => y' k - half_slope y' m * INR k) m) m j').
  { intros j' Hj'. apply wsum_ext_in. intros k Hk. apply reflect9_ext; [lia|].
    intros q Hq. now rewrite H. }
  rewrite !HW by lia. reflexivity.
Qed.

Lemma half_slope_line y a b m : (1 <= m)%nat ->
  half_slope (fun k => y k + (a + b * INR k)) m = half_slope y m + b.
Proof.
  intros Hm. unfold half_slope. pose proof (div2_3m m Hm) as Hh. set (h := Nat.div2 (3 * m)) in *.
  rewrite !bigsum_plus, !bigsum_const, !bigsum_scal.
  rewrite (bigsum_ext h (fun i => INR (3 * m - h + i)) (fun i => INR (3 * m - h) + INR i))
    by (intros; apply plus_INR).
  rewrite bigsum_plus, bigsum_const.
  assert (INR h <> 0) by (apply not_0_INR; lia).
  assert (INR (3 * m - h) <> 0) by (apply not_0_INR; lia).
  field. auto.
Qed.

Lemma tot_term_line y a b m : (1 <= m)%nat ->
  tot_term (fun k => y k + (a + b * INR k)) m = tot_term y m.
Proof.
  intros Hm. unfold tot_term. rewrite half_slope_line by assumption. f_equal.
  apply bigsum_ext. intros j Hj.
  assert (HW : forall j',
     wsum (reflect9 (fun k => y k + (a + b * INR k) - (half_slope y m + b) * INR k) m) m j' =
     wsum (reflect9 (fun k => y k - half_slope y m * INR k) m) m j' + INR m * a).
  { intros j'. rewrite <- wsum_const. apply wsum_ext. intros k. rewrite <- reflect9_const.
    unfold reflect9. destruct (k <? 3 * m)%nat; [ring|]. destruct (k <? 6 * m)%nat; ring. }
  rewrite !HW. f_equal. f_equal. ring.
Qed.

Lemma half_slope_scale y c m : half_slope (fun k => c * y k) m = c * half_slope y m.
Proof. unfold half_slope. rewrite !bigsum_scal. unfold Rdiv. ring. Qed.

Lemma tot_term_scale y c m : tot_term (fun k => c * y k) m = c ^ 2 * tot_term y m.
Proof.
  unfold tot_term. rewrite half_slope_scale.
  rewrite (bigsum_ext (6 * m) _ (fun j => c ^ 2 *
    ((wsum (reflect9 (fun k => y k - half_slope y m * INR k) m) m j -
      2 * wsum (reflect9 (fun k => y k - half_slope y m * INR k) m) m (j + m) +
      wsum (reflect9 (fun k => y k - half_slope y m * INR k) m) m (j + 2 * m)) / INR m) ^ 2)).
  - rewrite bigsum_scal. ring.
  - intros j Hj.
    assert (HW : forall j',
     wsum (reflect9 (fun k => c * y k - (c * half_slope y m) * INR k) m) m j' =
     c * wsum (reflect9 (fun k => y k - half_slope y m * INR k) m) m j').
    { intros j'. unfold wsum. rewrite <- bigsum_scal. apply bigsum_ext. intros k _.
      unfold reflect9. destruct (j' + k <? 3 * m)%nat; [ring|]. destruct (j' + k <? 6 * m)%nat; ring. }
    rewrite !HW. unfold Rdiv. ring.
Qed.

(** reversal *)
Lemma half_slope_rev y m : (1 <= m)%nat ->
  half_slope (fun k => y (3 * m - 1 - k)%nat) m = - half_slope y m.
Proof.
  intros Hm. unfold half_slope. pose proof (div2_3m m Hm) as Hh. set (h := Nat.div2 (3 * m)) in *.
  rewrite (bigsum_ext h (fun k => y (3 * m - 1 - (3 * m - h + k))%nat) (fun k => y (h - 1 - k)%nat))
    by (intros; f_equal; lia).
  rewrite (bigsum_rev h y).
  rewrite <- (bigsum_rev h (fun k => y (3 * m - 1 - k)%nat)).
  rewrite (bigsum_ext h (fun i => y (3 * m - 1 - (h - 1 - i))%nat) (fun k => y (3 * m - h + k)%nat))
    by (intros; f_equal; lia).
  unfold Rdiv. ring.
Qed.

Lemma wsum_rev z z' m L j : (forall k, (k < L)%nat -> z' k = z (L - 1 - k)%nat) -> (j + m <= L)%nat ->
  wsum z' m j = wsum z m (L - m - j).
Proof.
  intros H Hj. unfold wsum. rewrite <- bigsum_rev. apply bigsum_ext. intros k Hk.
  rewrite H by lia. f_equal. lia.
Qed.

Lemma reflect9_wrap z m k : (k < 3 * m)%nat -> reflect9 z m (6 * m + k) = reflect9 z m k.
Proof.
  intros H. unfold reflect9.
  destruct (Nat.ltb_spec (6 * m + k) (3 * m)); [lia|].
  destruct (Nat.ltb_spec (6 * m + k) (6 * m)); [lia|].
  destruct (Nat.ltb_spec k (3 * m)); [|lia]. f_equal. lia.
Qed.

Lemma tot_term_rev y m : (1 <= m)%nat -> tot_term (fun k => y (3 * m - 1 - k)%nat) m = tot_term y m.
Proof.
  intros Hm. unfold tot_term. rewrite half_slope_rev by assumption. f_equal.
  set (c := half_slope y m).
  set (z := reflect9 (fun k => y k - c * INR k) m).
  set (z' := reflect9 (fun k => y (3 * m - 1 - k)%nat - - c * INR k) m).
  assert (Hz : forall k, (k < 9 * m)%nat -> z' k = z (9 * m - 1 - k)%nat + c * INR (3 * m - 1)).
  { assert (HI : forall p, (p < 3 * m)%nat -> INR p = INR (3 * m - 1) - INR (3 * m - 1 - p)).
    { intros p Hp. rewrite <- minus_INR by lia. f_equal. lia. }
    intros k Hk. unfold z, z', reflect9.
    destruct (Nat.ltb_spec k (3 * m)).
    - destruct (Nat.ltb_spec (9 * m - 1 - k) (3 * m)); [lia|].
      destruct (Nat.ltb_spec (9 * m - 1 - k) (6 * m)); [lia|].
      replace (9 * m - 1 - (9 * m - 1 - k))%nat with k by lia.
      replace (3 * m - 1 - (3 * m - 1 - k))%nat with k by lia.
      rewrite (HI k) by lia. ring.
    - destruct (Nat.ltb_spec k (6 * m)).
      + destruct (Nat.ltb_spec (9 * m - 1 - k) (3 * m)); [lia|].
        destruct (Nat.ltb_spec (9 * m - 1 - k) (6 * m)); [|lia].
        replace (9 * m - 1 - k - 3 * m)%nat with (3 * m - 1 - (k - 3 * m))%nat by lia.
        rewrite (HI (k - 3 * m)%nat) by lia. ring.
      + destruct (Nat.ltb_spec (9 * m - 1 - k) (3 * m)); [|lia].
        replace (3 * m - 1 - (9 * m - 1 - k))%nat with (k - 6 * m)%nat by lia.
        replace (3 * m - 1 - (9 * m - 1 - k))%nat with (k - 6 * m)%nat by lia.
        rewrite (HI (9 * m - 1 - k)%nat) by lia.
        replace (3 * m - 1 - (9 * m - 1 - k))%nat with (k - 6 * m)%nat by lia. ring. }
  set (G := fun j => ((wsum z m j - 2 * wsum z m (j + m) + wsum z m (j + 2 * m)) / INR m) ^ 2).
  assert (HG : forall j, (j < 6 * m)%nat ->
     ((wsum z' m j - 2 * wsum z' m (j + m) + wsum z' m (j + 2 * m)) / INR m) ^ 2 = G (6 * m - j)%nat).
  { intros j Hj.
    assert (HW : forall j', (j' + m <= 9 * m)%nat ->
       wsum z' m j' = wsum z m (8 * m - j') + INR m * (c * INR (3 * m - 1))).
    { intros j' Hj'. rewrite <- wsum_const.
      replace (8 * m - j')%nat with (9 * m - m - j')%nat by lia.
      apply wsum_rev; [|lia]. intros k Hk. now apply Hz. }
    rewrite !HW by lia. unfold G.
    replace (8 * m - j)%nat with (6 * m - j + 2 * m)%nat by lia.
    replace (8 * m - (j + m))%nat with (6 * m - j + m)%nat by lia.
    replace (8 * m - (j + 2 * m))%nat with (6 * m - j)%nat by lia.
    f_equal. f_equal. ring. }
  rewrite (bigsum_ext (6 * m) _ (fun j => G (6 * m - j)%nat)) by exact HG.
  change (bigsum (6 * m) (fun j => G (6 * m - j)%nat) = bigsum (6 * m) G).
  assert (HG0 : G (6 * m)%nat = G 0%nat).
  { unfold G.
    assert (HW : forall q, (q + m <= 3 * m)%nat -> wsum z m (6 * m + q) = wsum z m q).
    { intros q Hq. apply bigsum_ext. intros k Hk. rewrite <- Nat.add_assoc. apply reflect9_wrap. lia. }
    replace (6 * m)%nat with (6 * m + 0)%nat at 1 by lia. rewrite (HW 0%nat) by lia.
    rewrite (HW m), (HW (2 * m)%nat) by lia. rewrite !Nat.add_0_l. reflexivity. }
  (* sum over 6m, 6m-1, ..., 1  =  sum over 0..6m-1 *)
  assert (Hs : bigsum (S (6 * m)) (fun j => G (6 * m - j)%nat) = bigsum (S (6 * m)) G).
  { rewrite <- (bigsum_rev (S (6 * m)) G). apply bigsum_ext. intros j Hj. f_equal. lia. }
  cbn [bigsum] in Hs. rewrite Nat.sub_diag in Hs. rewrite HG0 in Hs. lra.
Qed.

(** ** mtotdev, htotdev *)
Lemma mtotvar_line a b x t m : (1 <= m)%nat -> mtotvar (shifted (line a b) x) t m = mtotvar x t m.
Proof.
  intros Hm. unfold mtotvar, mdev_n. rewrite shifted_len. f_equal. apply bigsum_ext. intros i Hi.
  rewrite <- (tot_term_line (fun k => x.[i + k]) (a + b * INR i) b m Hm).
  apply tot_term_ext. intros k Hk. rewrite nth_shifted by lia. unfold line. inr. ring.
Qed.

Lemma nth_freq_of x rate i : (i < len x - 1)%nat -> (freq_of x rate).[i] = rate * (x.[i + 1] - x.[i]).
Proof.
  intros H. unfold freq_of. fold (tab (len x - 1) (fun i => rate * (x.[i + 1] - x.[i]))).
  now rewrite nth_tab.
Qed.

Lemma htotvar_line a b x rate m : (1 <= m)%nat -> htotvar (shifted (line a b) x) rate m = htotvar x rate m.
Proof.
  intros Hm. unfold htotvar. destruct (Nat.eqb m 1).
  - rewrite shifted_line_parabola. apply ohvar_parabola.
  - unfold htotvar_freq, mdev_n. rewrite !freq_of_length, shifted_len. f_equal. apply bigsum_ext. intros i Hi.
    rewrite <- (tot_term_line (fun k => (freq_of x rate).[i + k]) (rate * b) 0 m Hm).
    apply tot_term_ext. intros k Hk. rewrite !nth_freq_of by (rewrite ?shifted_len; lia).
    rewrite !nth_shifted by lia. unfold line. inr. ring.
Qed.

Lemma theo1var_line a b x t m : (1 <= m < len x)%nat -> Nat.even m = true ->
  theo1var (shifted (line a b) x) t m = theo1var x t m.
Proof.
  intros Hm He. unfold theo1var. rewrite shifted_len. f_equal. apply bigsum_ext. intros i Hi.
  apply Nat.even_spec in He as [h ->]. rewrite Nat.div2_double.
  apply bigsum_ext. intros d Hd. f_equal. f_equal.
  rewrite !nth_shifted by lia. unfold line.
  replace (i + h - d)%nat with (i + (h - d))%nat by lia. inr. rewrite minus_INR by lia. ring.
Qed.

(** ** homogeneity *)
Lemma sq_scal c A B : (c * A) ^ 2 = c ^ 2 * A ^ 2 -> A = B -> (c * A) ^ 2 = c ^ 2 * B ^ 2.
Proof. intros H ->. exact H. Qed.

Lemma avar_scaled c x t m : avar (scaled c x) t m = c ^ 2 * avar x t m.
Proof.
  unfold avar, adev_n. rewrite scaled_len.
  rewrite (bigsum_ext _ _ (fun k => c ^ 2 * d2 x m (k * m) ^ 2)) by (intros; rewrite d2_scaled; ring).
  rewrite bigsum_scal. ring.
Qed.
Lemma oavar_scaled c x t m : oavar (scaled c x) t m = c ^ 2 * oavar x t m.
Proof.
  unfold oavar, oadev_n. rewrite scaled_len.
  rewrite (bigsum_ext _ _ (fun k => c ^ 2 * d2 x m k ^ 2)) by (intros; rewrite d2_scaled; ring).
  rewrite bigsum_scal. ring.
Qed.
Lemma hvar_scaled c x t m : hvar (scaled c x) t m = c ^ 2 * hvar x t m.
Proof.
  unfold hvar, hdev_n. rewrite scaled_len.
  rewrite (bigsum_ext _ _ (fun k => c ^ 2 * d3 x m (k * m) ^ 2)) by (intros; rewrite d3_scaled; ring).
  rewrite bigsum_scal. ring.
Qed.
Lemma ohvar_scaled c x t m : ohvar (scaled c x) t m = c ^ 2 * ohvar x t m.
Proof.
  unfold ohvar, ohdev_n. rewrite scaled_len.
  rewrite (bigsum_ext _ _ (fun k => c ^ 2 * d3 x m k ^ 2)) by (intros; rewrite d3_scaled; ring).
  rewrite bigsum_scal. ring.
Qed.
Lemma mvar_scaled c x t m : mvar (scaled c x) t m = c ^ 2 * mvar x t m.
Proof.
  unfold mvar, mdev_n. rewrite scaled_len.
  rewrite (bigsum_ext _ _ (fun j => c ^ 2 * (bigsum m (fun i => d2 x m (j + i))) ^ 2)).
  - rewrite bigsum_scal. ring.
  - intros j _. rewrite (bigsum_ext m _ (fun i => c * d2 x m (j + i))) by (intros; apply d2_scaled).
    rewrite bigsum_scal. ring.
Qed.
Lemma pvar_scaled c x t m : pvar (scaled c x) t m = c ^ 2 * pvar x t m.
Proof.
  unfold pvar. destruct (Nat.eqb m 1); [apply oavar_scaled|].
  unfold oadev_n. rewrite scaled_len.
  rewrite (bigsum_ext _ _ (fun i => c ^ 2 *
    (bigsum m (fun k => ((INR m - 1) / 2 - INR k) * (x.[i + k] - x.[i + k + m]))) ^ 2)).
  - rewrite bigsum_scal. ring.
  - intros i _. rewrite (bigsum_ext m _ (fun k => c * (((INR m - 1) / 2 - INR k) * (x.[i + k] - x.[i + k + m]))))
      by (intros; rewrite !nth_scaled; ring).
    rewrite bigsum_scal. ring.
Qed.
Lemma xtot_scaled c x i : xtot (scaled c x) i = c * xtot x i.
Proof.
  unfold xtot. rewrite scaled_len. destruct (i <? 0)%Z; [rewrite !nth_scaled; ring|].
  destruct (i <? Z.of_nat (len x))%Z; rewrite !nth_scaled; ring.
Qed.
Lemma totvar_scaled c x t m : totvar (scaled c x) t m = c ^ 2 * totvar x t m.
Proof.
  unfold totvar, totdev_n. rewrite scaled_len.
  rewrite (bigsum_ext _ _ (fun k => c ^ 2 *
   (xtot x (Z.of_nat (k + 1) - Z.of_nat m) - 2 * xtot x (Z.of_nat (k + 1)) + xtot x (Z.of_nat (k + 1) + Z.of_nat m)) ^ 2))
    by (intros; cbv zeta; rewrite !xtot_scaled; ring).
  rewrite bigsum_scal. cbv zeta. ring.
Qed.
Lemma mtotvar_scaled c x t m : mtotvar (scaled c x) t m = c ^ 2 * mtotvar x t m.
Proof.
  unfold mtotvar, mdev_n. rewrite scaled_len.
  rewrite (bigsum_ext _ _ (fun i => c ^ 2 * tot_term (fun k => x.[i + k]) m)).
  - rewrite bigsum_scal. ring.
  - intros i _. rewrite <- tot_term_scale. apply tot_term_ext. intros. apply nth_scaled.
Qed.
Lemma freq_of_scaled c x rate : freq_of (scaled c x) rate = scaled c (freq_of x rate).
Proof.
  unfold freq_of. rewrite scaled_len. unfold scaled at 3. rewrite map_map. apply map_ext. intros i.
  rewrite !nth_scaled. ring.
Qed.
Lemma htotvar_scaled c x rate m : htotvar (scaled c x) rate m = c ^ 2 * htotvar x rate m.
Proof.
  unfold htotvar. destruct (Nat.eqb m 1); [apply ohvar_scaled|].
  rewrite freq_of_scaled. set (f := freq_of x rate). unfold htotvar_freq, mdev_n. rewrite scaled_len.
  rewrite (bigsum_ext _ _ (fun i => c ^ 2 * tot_term (fun k => f.[i + k]) m)).
  - rewrite bigsum_scal. ring.
  - intros i _. rewrite <- tot_term_scale. apply tot_term_ext. intros. apply nth_scaled.
Qed.
Lemma theo1var_scaled c x t m : theo1var (scaled c x) t m = c ^ 2 * theo1var x t m.
Proof.
  unfold theo1var. rewrite scaled_len.
  rewrite (bigsum_ext (len x - m) _ (fun i => c ^ 2 * bigsum (Nat.div2 m) (fun d =>
    / (INR (Nat.div2 m) - INR d) *
    ((x.[i] - x.[i + Nat.div2 m - d]) + (x.[i + m] - x.[i + Nat.div2 m + d])) ^ 2))).
  - rewrite bigsum_scal. ring.
  - intros i _. rewrite <- bigsum_scal. apply bigsum_ext. intros d _. rewrite !nth_scaled. ring.
Qed.
Lemma tierms_var_scaled c x m : tierms_var (scaled c x) m = c ^ 2 * tierms_var x m.
Proof.
  unfold tierms_var. rewrite scaled_len.
  rewrite (bigsum_ext _ _ (fun i => c ^ 2 * (x.[i + m] - x.[i]) ^ 2)) by (intros; rewrite !nth_scaled; ring).
  rewrite bigsum_scal. ring.
Qed.

Lemma is_mtie_scaled c x m d : is_mtie x m d -> is_mtie (scaled c x) m (Rabs c * d).
Proof.
  intros [Hu (j & k & Hj & Hk & H1 & H2 & Hd)]. unfold is_mtie. rewrite scaled_len. split.
  - intros p q Hp Hq Hpq Hqp. rewrite !nth_scaled.
    pose proof (Hu p q Hp Hq Hpq Hqp). pose proof (Hu q p Hq Hp Hqp Hpq).
    unfold Rabs. destruct (Rcase_abs c); nra.
  - unfold Rabs. destruct (Rcase_abs c).
    + exists k, j. repeat split; try assumption. rewrite !nth_scaled. nra.
    + exists j, k. repeat split; try assumption. rewrite !nth_scaled. nra.
Qed.
Lemma mtie_val_scaled c x m : (1 <= m < len x)%nat -> mtie_val (scaled c x) m = Rabs c * mtie_val x m.
Proof.
  intros Hm. apply (is_mtie_unique (scaled c x) m).
  - apply mtie_val_is. now rewrite scaled_len.
  - apply is_mtie_scaled. now apply mtie_val_is.
Qed.

Lemma stat_homogeneous s c x rate m : In s stats -> (1 <= m < len x)%nat ->
  s_var s (scaled c x) rate m = Rabs c ^ 2 * s_var s x rate m.
Proof.
  intros Hs Hm. replace (Rabs c ^ 2) with (c ^ 2) by (rewrite <- Rsqr_pow2, Rsqr_abs, Rsqr_pow2; reflexivity).
  unfold stats in Hs. repeat (destruct Hs as [<-|Hs]); [..|destruct Hs]; cbn.
  - apply avar_scaled.
  - apply oavar_scaled.
  - apply hvar_scaled.
  - apply ohvar_scaled.
  - apply mvar_scaled.
  - unfold tvar. rewrite mvar_scaled. ring.
  - apply pvar_scaled.
  - apply totvar_scaled.
  - apply mtotvar_scaled.
  - rewrite mtotvar_scaled. ring.
  - apply htotvar_scaled.
  - apply theo1var_scaled.
  - apply tierms_var_scaled.
  - rewrite mtie_val_scaled by assumption.
    replace (c * (c * 1)) with (Rabs c * Rabs c); [ring|]. rewrite <- (Rsqr_abs c : Rabs c * Rabs c = _) || idtac.
    pose proof (Rsqr_abs c). unfold Rsqr in H. lra.
Qed.

Lemma homogeneous s c x rate taus : In s stats -> 0 < rate ->
  s_fun s (scaled c x) rate "phase" taus = scale_devs (Rabs c) (s_fun s x rate "phase" taus).
Proof.
  intros Hs Hr. apply law_scale; auto.
  - apply scaled_len.
  - apply Rabs_pos.
  - intros m Hm _ _. now apply stat_homogeneous.
Qed.
