(** * Accuracy of mtotdev, ttotdev and htotdev in binary64 (C108).

    Each stretch of 3m samples has the slope between the means of its two
    halves removed, is reflected to 9m points and averaged over m points by
    sums that slide along it (allantools.py 1037-1088 and 1199-1245), so that
    the rounding errors of 6m updates pile up in every term. *)
From Coq Require Import ZArith Floats Reals Lra Lia Psatz String List Bool Sorted Permutation.
From Flocq Require Import Core.Core IEEE754.BinarySingleNaN.
From Verif Require Import Base Num NpList NumF NumR ListFacts Spec RSum ModelCore ModelDev FloatFacts FloatErr
  GenericProofs TauProofs TauLaws DevProofs TotProofs CiProofs Laws Laws3 NanProofs PropsFloatTau PropsFloatErr PropsFloatMtie PropsFloatMdev PropsFloatMore.
Import ListNotations.
Local Open Scope R_scope.
Local Notation len := List.length.
Local Notation float := Coq.Floats.PrimFloat.float.
Local Notation fsqrt := Coq.Floats.PrimFloat.sqrt.

(** ** The computations over any number type *)
Section Gen.
Context {A : Type} {NA : Num A}.
(** a sum of m neighbours sliding along [z], started from [s0] *)
Fixpoint slid (s0 : A) (z : nat -> A) (m j : nat) : A :=
  match j with O => s0 | S i => nadd (nsub (slid s0 z m i) (z i)) (z (i + m)%nat) end.
Definition win3 (m : nat) (a b c : A) : A := ndiv (nadd (nsub a (nmul (ofZ 2) b)) c) (ofN m).
Definition win (s1 s2 s3 : A) (z : nat -> A) (m j : nat) : A :=
  win3 m (slid s1 z m j) (slid s2 (fun k => z (m + k)%nat) m j) (slid s3 (fun k => z (2 * m + k)%nat) m j).
Definition wsum0 (z : nat -> A) (m o : nat) : A := asum (tab m (fun k => z (o + k)%nat)).
Definition win_of (z : nat -> A) (m : nat) : nat -> A := win (wsum0 z m 0) (wsum0 z m m) (wsum0 z m (2 * m)) z m.

Lemma sliding_gen (z : nat -> A) m : (1 <= m)%nat ->
  sliding_squaresum (tab (9 * m) z) m = Ok (asum (tab (6 * m) (fun j => nsq (win_of z m j)))).
Proof.
  intro Hm. unfold sliding_squaresum.
  rewrite (foldM_inv _ (fun j => match j with
     | O => (ofZ 0, ofZ 0, ofZ 0, ofZ 0)
     | S i => (slid (wsum0 z m 0) z m i, slid (wsum0 z m m) (fun k => z (m + k)%nat) m i,
               slid (wsum0 z m (2 * m)) (fun k => z (2 * m + k)%nat) m i, asum (tab (S i) (fun j => nsq (win_of z m j)))) end)).
  - cbn [bind]. destruct (6 * m)%nat eqn:E; [lia|]. reflexivity.
  - reflexivity.
  - intros i Hi. destruct i as [|i].
    + cbn [Nat.eqb bind]. rewrite !pyslice_tab.
      replace (Nat.min (m - 0) (9 * m - 0)) with m by lia.
      replace (Nat.min (2 * m - m) (9 * m - m)) with m by lia.
      replace (Nat.min (3 * m - 2 * m) (9 * m - 2 * m)) with m by lia.
      reflexivity.
    + cbn [Nat.eqb bind]. rewrite !pyget_tab by lia. cbn [bind].
      rewrite !Nat2Z.id. rewrite (asum_S (S i)). unfold win_of at 1 2. unfold win at 2. cbn [slid].
      replace (S i - 1)%nat with i by lia. replace (S i + m - 1)%nat with (i + m)%nat by lia.
      replace (m + S i - 1)%nat with (m + i)%nat by lia. replace (S i + 2 * m - 1)%nat with (m + (i + m))%nat by lia.
      replace (2 * m + S i - 1)%nat with (2 * m + i)%nat by lia. replace (S i + 3 * m - 1)%nat with (2 * m + (i + m))%nat by lia.
      reflexivity.
Qed.

(** the sequence after detrending is reflected to 9m points *)
Definition refl9 (y : nat -> A) (m j : nat) : A :=
  if (j <? 3 * m)%nat then y (3 * m - 1 - j)%nat else if (j <? 6 * m)%nat then y (j - 3 * m)%nat else y (9 * m - 1 - j)%nat.
Lemma refl_gen (y : nat -> A) m : (rev (tab (3 * m) y) ++ tab (3 * m) y ++ rev (tab (3 * m) y))%list = tab (9 * m) (refl9 y m).
Proof.
  rewrite rev_tab, !app_tab. replace (3 * m + (3 * m + 3 * m))%nat with (9 * m)%nat by lia.
  apply tab_ext. intros i Hi. unfold refl9.
  destruct (Nat.ltb_spec i (3 * m)); [reflexivity|].
  destruct (Nat.ltb_spec (i - 3 * m) (3 * m)), (Nat.ltb_spec i (6 * m)); try lia; f_equal; lia.
Qed.

Definition hden (m : nat) : A := if Nat.odd (3 * m) then nadd (half_of (3 * Z.of_nat m - 1)) (ofZ 1) else nmul (half_of 3) (ofN m).
(** difference of the means of the two halves, from their sums *)
Definition hdiff (m : nat) (a b : A) : A := nsub (ndiv b (ofN (Nat.div2 (3 * m)))) (ndiv a (ofN (Nat.div2 (3 * m)))).
Definition mdet (m : nat) (a b tau0 : A) (y : nat -> A) (k : nat) : A :=
  nsub (y k) (nmul (nmul (ndiv (hdiff m a b) (nmul (hden m) tau0)) (ofN k)) tau0).
Definition hdet (m : nat) (a b : A) (y : nat -> A) (k : nat) : A :=
  nsub (y k) (nmul (ndiv (hdiff m a b) (hden m)) (nsub (ofN k) (ofN (Nat.div2 (3 * m))))).
Definition lsum (m : nat) (y : nat -> A) : A := asum (tab (Nat.div2 (3 * m)) y).
Definition usum (m : nat) (y : nat -> A) : A := asum (tab (Nat.div2 (3 * m)) (fun i => y (3 * m - Nat.div2 (3 * m) + i)%nat)).

Lemma mtot_detrend_gen (y : nat -> A) m tau0 : (1 <= m)%nat ->
  mtot_detrend (tab (3 * m) y) m tau0 = tab (3 * m) (mdet m (lsum m y) (usum m y) tau0 y).
Proof.
  intro Hm. unfold mtot_detrend. cbv zeta. rewrite tab_length, map2_seq_tab. apply tab_ext. intros k Hk.
  pose proof (div2_3m m Hm) as Hh. unfold mean. rewrite skipn_tab, firstn_tab, !tab_length.
  replace (3 * m - (3 * m - Nat.div2 (3 * m)))%nat with (Nat.div2 (3 * m)) by lia. rewrite Nat.min_l by lia.
  unfold mdet, hdiff, hden, lsum, usum. destruct (Nat.odd (3 * m)); reflexivity.
Qed.
Lemma htot_detrend_gen (y : nat -> A) m : (1 <= m)%nat ->
  htot_detrend (tab (3 * m) y) m = tab (3 * m) (hdet m (lsum m y) (usum m y) y).
Proof.
  intro Hm. unfold htot_detrend. cbv zeta. rewrite tab_length, map2_seq_tab. apply tab_ext. intros k Hk.
  pose proof (div2_3m m Hm) as Hh. unfold mean. rewrite skipn_tab, firstn_tab, !tab_length.
  replace (3 * m - (3 * m - Nat.div2 (3 * m)))%nat with (Nat.div2 (3 * m)) by lia. rewrite Nat.min_l by lia.
  unfold hdet, hdiff, hden, lsum, usum. destruct (Nat.odd (3 * m)); reflexivity.
Qed.

Definition mrow (f : nat -> A) (m : nat) (tau0 : A) (i : nat) : nat -> A :=
  let y := fun k => f (i + k)%nat in refl9 (mdet m (lsum m y) (usum m y) tau0 y) m.
Definition hrow (f : nat -> A) (m : nat) (i : nat) : nat -> A :=
  let y := fun k => f (i + k)%nat in refl9 (hdet m (lsum m y) (usum m y) y) m.

Lemma calc_mtot_gen N (f : nat -> A) rate m : (1 <= m)%nat -> (3 * m <= N)%nat ->
  let n := (N - 3 * m + 1)%nat in let tau0 := ndiv (ofZ 1) rate in
  let S := asum (tab n (fun i => nmul (ndiv (ofZ 1) (nmul (ofZ 6) (ofN m))) (asum (tab (6 * m) (fun j => nsq (win_of (mrow f m tau0 i) m j)))))) in
  let dev := nsqrt (ndiv (nmul S (ofZ 1)) (nmul (nmul (ofZ 2) (nsq (nmul (ofN m) tau0))) (ofN n))) in
  calc_mtotdev_phase (tab N f) rate m = Ok (dev, ndiv dev (nsqrt (ofN n)), Z.of_nat n).
Proof.
  intros Hm HN n tau0 S dev. unfold calc_mtotdev_phase. cbv zeta. rewrite tab_length.
  replace (Z.of_nat N - 3 * Z.of_nat m + 1)%Z with (Z.of_nat n) by lia. rewrite Nat2Z.id. fold tau0.
  rewrite (foldM_inv _ (fun j => (Z.of_nat j, asum (tab j (fun i => nmul (ndiv (ofZ 1) (nmul (ofZ 6) (ofN m)))
     (asum (tab (6 * m) (fun j => nsq (win_of (mrow f m tau0 i) m j))))))))).
  - cbn [bind]. rewrite Z.eqb_refl. cbn [assert_ bind]. reflexivity.
  - reflexivity.
  - intros i Hi. rewrite pyslice_tab. replace (Nat.min (i + 3 * m - i) (N - i)) with (3 * m)%nat by (unfold n in Hi; lia).
    rewrite tab_length, Nat.eqb_refl. cbn [assert_ bind].
    rewrite mtot_detrend_gen by assumption. rewrite refl_gen, tab_length, Nat.eqb_refl.
    cbn [assert_ bind]. rewrite sliding_gen by exact Hm. cbn [bind]. rewrite asum_S.
    f_equal. f_equal. lia.
Qed.

Lemma calc_htot_gen N (f : nat -> A) m : (1 <= m)%nat -> (3 * m <= N)%nat ->
  let n := (N - 3 * m + 1)%nat in
  let S := asum (tab n (fun i => nmul (ndiv (ofZ 1) (nmul (ofZ 6) (ofN (6 * m)))) (asum (tab (6 * m) (fun j => nsq (win_of (hrow f m i) m j)))))) in
  let dev := nsqrt (ndiv (nmul S (ofZ 1)) (ofN n)) in
  calc_htotdev_freq (tab N f) m = Ok (dev, ndiv dev (nsqrt (ofN n)), Z.of_nat n).
Proof.
  intros Hm HN n S dev. unfold calc_htotdev_freq. cbv zeta. rewrite tab_length.
  replace (Z.of_nat N - 3 * Z.of_nat m + 1)%Z with (Z.of_nat n) by lia. rewrite Nat2Z.id.
  rewrite (foldM_inv _ (fun j => (Z.of_nat j, asum (tab j (fun i => nmul (ndiv (ofZ 1) (nmul (ofZ 6) (ofN (6 * m))))
     (asum (tab (6 * m) (fun j => nsq (win_of (hrow f m i) m j))))))))).
  - cbn [bind]. rewrite Z.eqb_refl. cbn [assert_ bind]. reflexivity.
  - reflexivity.
  - intros i Hi. rewrite pyslice_tab. replace (Nat.min (i + 3 * m - i) (N - i)) with (3 * m)%nat by (unfold n in Hi; lia).
    rewrite tab_length, Nat.eqb_refl. cbn [assert_ bind].
    rewrite htot_detrend_gen by assumption. rewrite refl_gen, tab_length, Nat.eqb_refl.
    cbn [assert_ bind]. rewrite sliding_gen by exact Hm. cbn [bind]. rewrite asum_S.
    f_equal. f_equal. lia.
Qed.
End Gen.

(** ** The sliding sums in binary64 *)
Lemma wsum_shift (z : nat -> R) m j : (1 <= m)%nat ->
  wsum z m j = z j + wsum z (m - 1) (S j) /\ wsum z m (S j) = wsum z (m - 1) (S j) + z (j + m)%nat.
Proof.
  intro Hm. destruct m as [|m]; [lia|]. replace (S m - 1)%nat with m by lia. unfold wsum. split.
  - rewrite bigsum_S_l. f_equal; [f_equal; lia|]. apply bigsum_ext. intros; f_equal; lia.
  - cbn [bigsum]. f_equal. f_equal. lia.
Qed.
Lemma wsum_bound (z : nat -> R) m j B : (forall k, (k < m)%nat -> Rabs (z (j + k)%nat) <= B) -> Rabs (wsum z m j) <= INR m * B.
Proof.
  intro H. unfold wsum. eapply Rle_trans; [apply bigsum_abs|]. rewrite <- bigsum_const. now apply bigsum_le.
Qed.
Lemma wsum_close (z z' : nat -> R) m j e : (forall k, (k < m)%nat -> Rabs (z (j + k)%nat - z' (j + k)%nat) <= e) ->
  Rabs (wsum z m j - wsum z' m j) <= INR m * e.
Proof.
  intro H. unfold wsum. rewrite <- bigsum_minus. eapply Rle_trans; [apply bigsum_abs|]. rewrite <- bigsum_const. now apply bigsum_le.
Qed.

Section Slide.
Variables (m : nat) (g : nat -> float) (G : nat -> R) (B e : R).
Hypothesis Hm : (1 <= m)%nat.
Hypothesis HmN : (Z.of_nat (3 * m) <= 2 ^ 40)%Z.
Hypothesis HB : 0 < B <= bpow radix2 500.
Hypothesis Hu : eta <= / 4096 * (u64 * B).
Hypothesis He : 0 <= e <= / 1000 * B.
Hypothesis Hg : forall k, (k < 9 * m)%nat -> ffin (g k) /\ Rabs (fR (g k) - G k) <= e /\ Rabs (G k) <= B.

Lemma slide_consts : 1 <= INR m <= bpow radix2 40 /\ 0 < u64 <= / 4096 * / 4096 /\ INR m * u64 <= / 24000 /\ 0 < u64 * B /\
  8 * (INR m * B) <= bpow radix2 600.
Proof using All.
  pose proof u64_pos as Pu. assert (Uq : u64 <= / 4096 * / 4096) by (unfold u64; lra).
  assert (I1 : 1 <= INR m) by (change 1 with (INR 1); now apply le_INR).
  assert (I2 : INR m <= 1099511627776 / 3).
  { assert (H : IZR (Z.of_nat (3 * m)) <= IZR (2 ^ 40)) by (now apply IZR_le). rewrite <- INR_IZR_INZ, mult_INR in H.
    replace (INR 3) with 3 in H by (cbn; lra). change (IZR (2 ^ 40)) with 1099511627776 in H. lra. }
  assert (I3 : INR m <= bpow radix2 40) by (change (bpow radix2 40) with 1099511627776; lra).
  split; [lra|]. split; [lra|]. split; [|split; [apply Rmult_lt_0_compat; lra|]].
  - apply Rle_trans with (1099511627776 / 3 * u64); [apply Rmult_le_compat_r; lra|]. unfold u64. lra.
  - apply Rle_trans with (bpow radix2 3 * (bpow radix2 40 * bpow radix2 500)); [|rewrite <- !bpow_plus; apply bpow_le; lia].
    change (bpow radix2 3) with 8. apply Rmult_le_compat_l; [lra|]. apply Rmult_le_compat; lra.
Qed.

Lemma g_abs k : (k < 9 * m)%nat -> Rabs (fR (g k)) <= (1 + / 1000) * B.
Proof using All. intro Hk. destruct (Hg k Hk) as (_ & E & L). apply Rabs_le_inv in E, L. apply Rabs_le. lra. Qed.

Let V (j : nat) : R := wsum (fun k => fR (g k)) m j.
Lemma slid_ok o s0 j : (o <= 2 * m)%nat -> (j < 6 * m)%nat -> sum_of (tab m (fun k => g (o + k)%nat)) s0 ->
  ffin (slid s0 (fun k => g (o + k)%nat) m j) /\
  Rabs (fR (slid s0 (fun k => g (o + k)%nat) m j) - V (o + j)) <= u64 * B * (INR m * (101 / 100 * INR m + 201 / 100 * INR j)).
Proof using All.
  destruct slide_consts as (I1 & Uq & MU & PUB & B6). intros Ho Hj Hs.
  assert (B61 : bpow radix2 600 <= bpow radix2 900) by (apply bpow_le; lia). assert (B62 : bpow radix2 600 <= bpow radix2 1000) by (apply bpow_le; lia).
  assert (MB : B <= INR m * B) by nra.
  induction j as [|j IH].
  - destruct (sum_err m (fun k => g (o + k)%nat) ((1 + / 1000) * B) s0 Hm ltac:(lia)) as [F E]; [split; nra| |exact Hs|].
    + intros k Hk. split; [apply Hg; lia|apply g_abs; lia].
    + cbn [slid]. split; [exact F|]. unfold V, wsum. rewrite Nat.add_0_r. eapply Rle_trans; [exact E|]. cbn [INR].
      replace ((1 + / 1000) * (INR m * u64) * (INR m * ((1 + / 1000) * B))) with ((1 + / 1000) * (1 + / 1000) * (u64 * B * (INR m * INR m))) by ring.
      replace (u64 * B * (INR m * (101 / 100 * INR m + 201 / 100 * 0))) with (101 / 100 * (u64 * B * (INR m * INR m))) by ring.
      assert (0 < u64 * B * (INR m * INR m)) by (apply Rmult_lt_0_compat; nra). lra.
  - destruct (IH ltac:(lia)) as [F E]. cbn [slid]. rewrite S_INR.
    set (x := slid s0 (fun k => g (o + k)%nat) m j) in *.
    replace (o + (j + m))%nat with (o + j + m)%nat by lia. replace (o + S j)%nat with (S (o + j)) by lia.
    destruct (wsum_shift (fun k => fR (g k)) m (o + j) Hm) as [W1 W2]. fold (V (o + j)) in W1. fold (V (S (o + j))) in W2.
    set (w := wsum (fun k => fR (g k)) (m - 1) (S (o + j))) in *.
    destruct (Hg (o + j)%nat ltac:(lia)) as [F1 _]. destruct (Hg (o + j + m)%nat ltac:(lia)) as [F2 _].
    pose proof (g_abs (o + j + m)%nat ltac:(lia)) as A2.
    set (a := g (o + j)%nat) in *. set (b := g (o + j + m)%nat) in *.
    assert (Bw : Rabs w <= (INR m - 1) * ((1 + / 1000) * B)).
    { replace (INR m - 1) with (INR (m - 1)) by (rewrite minus_INR by lia; reflexivity).
      unfold w. apply wsum_bound. intros k Hk. apply g_abs. lia. }
    assert (J : INR j + 1 <= 6 * INR m).
    { rewrite <- S_INR. replace 6 with (INR 6) by (cbn; lra). rewrite <- mult_INR. apply le_INR. lia. }
    pose proof (pos_INR j) as J0. set (I := INR m) in *. set (jr := INR j) in *. set (UB := u64 * B) in *.
    assert (Small : UB * (I * (101 / 100 * I + 201 / 100 * jr)) <= / 1000 * (I * B)).
    { apply Rle_trans with (UB * (I * (14 * I))); [apply Rmult_le_compat_l; [lra|]; apply Rmult_le_compat_l; lra|].
      replace (UB * (I * (14 * I))) with (14 * (I * u64) * (I * B)) by (unfold UB; ring). apply Rmult_le_compat_r; [nra|]. lra. }
    set (E0 := UB * (I * (101 / 100 * I + 201 / 100 * jr))) in *.
    apply Rabs_le_inv in E, Bw, A2.
    assert (S1 : Rabs (fR x - fR a) <= (1 + / 500) * (I * B)) by (apply Rabs_le; split; nra).
    destruct (fsub_err x a F F1 ltac:(nra)) as [F3 E3].
    assert (E3' : Rabs (fR (x - a)%float - (fR x - fR a)) <= (1 + / 500) * (UB * I)).
    { eapply Rle_trans; [exact E3|]. replace ((1 + / 500) * (UB * I)) with (u64 * ((1 + / 500) * (I * B))) by (unfold UB; ring). apply Rmult_le_compat_l; lra. }
    set (t := (x - a)%float) in *. apply Rabs_le_inv in E3'.
    assert (UI : 0 < UB * I <= / 4096 * (I * B)).
    { split; [nra|]. replace (UB * I) with (u64 * (I * B)) by (unfold UB; ring). apply Rmult_le_compat_r; nra. }
    assert (S2 : Rabs (fR t + fR b) <= (1 + / 250) * (I * B)).
    { apply Rabs_le. split; nra. }
    destruct (fadd_err t b F3 F2 ltac:(nra)) as [F4 E4].
    assert (E4' : Rabs (fR (t + b)%float - (fR t + fR b)) <= (1 + / 250) * (UB * I)).
    { eapply Rle_trans; [exact E4|]. replace ((1 + / 250) * (UB * I)) with (u64 * ((1 + / 250) * (I * B))) by (unfold UB; ring). apply Rmult_le_compat_l; lra. }
    apply Rabs_le_inv in E4'. change (@nadd float FNum (@nsub float FNum x a) b) with (t + b)%float. split; [exact F4|].
    replace (UB * (I * (101 / 100 * I + 201 / 100 * (jr + 1)))) with (E0 + 201 / 100 * (UB * I)) by (unfold E0; ring).
    apply Rabs_le. lra.
Qed.

Definition wval (G : nat -> R) (m j : nat) : R := (wsum G m j - 2 * wsum G m (j + m) + wsum G m (j + 2 * m)) / INR m.
Lemma win_ok s1 s2 s3 j : (j < 6 * m)%nat -> sum_of (tab m g) s1 -> sum_of (tab m (fun k => g (m + k)%nat)) s2 ->
  sum_of (tab m (fun k => g (2 * m + k)%nat)) s3 ->
  ffin (win s1 s2 s3 g m j) /\ Rabs (fR (win s1 s2 s3 g m j) - wval G m j) <= (53 * INR m + 12) * (u64 * B) + 4 * e /\
  Rabs (wval G m j) <= 4 * B.
Proof using All.
  destruct slide_consts as (I1 & Uq & MU & PUB & B6). intros Hj H1 H2 H3. pose proof eta_pos as Pe.
  assert (B61 : bpow radix2 600 <= bpow radix2 999) by (apply bpow_le; lia). assert (B62 : bpow radix2 600 <= bpow radix2 1000) by (apply bpow_le; lia).
  assert (MB : B <= INR m * B) by nra.
  assert (C0 : forall o s, (o <= 2 * m)%nat -> sum_of (tab m (fun k => g (o + k)%nat)) s ->
     ffin (slid s (fun k => g (o + k)%nat) m j) /\
     Rabs (fR (slid s (fun k => g (o + k)%nat) m j) - wsum G m (o + j)) <= u64 * B * (INR m * (131 / 10 * INR m)) + INR m * e /\
     Rabs (wsum G m (o + j)) <= INR m * B).
  { intros o s Ho Hs. destruct (slid_ok o s j Ho Hj Hs) as [F E]. split; [exact F|].
    assert (J : INR j + 1 <= 6 * INR m).
    { rewrite <- S_INR. replace 6 with (INR 6) by (cbn; lra). rewrite <- mult_INR. apply le_INR. lia. }
    split.
    - pose proof (wsum_close (fun k => fR (g k)) G m (o + j) e) as Q. specialize (Q ltac:(intros k Hk; apply Hg; lia)). fold (V (o + j)) in Q.
      assert (u64 * B * (INR m * (101 / 100 * INR m + 201 / 100 * INR j)) <= u64 * B * (INR m * (131 / 10 * INR m))).
      { apply Rmult_le_compat_l; [lra|]. apply Rmult_le_compat_l; lra. }
      apply Rabs_le_inv in E, Q. apply Rabs_le. lra.
    - apply wsum_bound. intros k Hk. apply Hg. lia. }
  destruct (C0 0%nat s1 ltac:(lia) H1) as (F1 & E1 & L1). destruct (C0 m s2 ltac:(lia) H2) as (F2 & E2 & L2).
  destruct (C0 (2 * m)%nat s3 ltac:(lia) H3) as (F3 & E3 & L3). clear C0.
  unfold win, win3. cbn [ndiv nadd nsub nmul FNum]. unfold ofN. cbn [ofZ FNum].
  change (fun k : nat => g (0 + k)%nat) with g in F1, E1.
  set (a := slid s1 g m j) in *. set (b := slid s2 (fun k => g (m + k)%nat) m j) in *. set (c := slid s3 (fun k => g (2 * m + k)%nat) m j) in *.
  unfold wval. replace (j + m)%nat with (m + j)%nat by lia. replace (j + 2 * m)%nat with (2 * m + j)%nat by lia.
  change (0 + j)%nat with j in *.
  set (A1 := wsum G m j) in *. set (A2 := wsum G m (m + j)) in *. set (A3 := wsum G m (2 * m + j)) in *.
  set (I := INR m) in *. set (q := u64 * B) in *.
  set (E0 := q * (I * (131 / 10 * I)) + I * e) in *.
  assert (PIB : 0 < I * B) by nra.
  assert (qI : 0 < q * I <= / 4096 * (I * B)).
  { split; [nra|]. replace (q * I) with (u64 * (I * B)) by (unfold q; ring). apply Rmult_le_compat_r; nra. }
  assert (Small : E0 <= / 500 * (I * B)).
  { unfold E0. replace (q * (I * (131 / 10 * I))) with (131 / 10 * (I * u64) * (I * B)) by (unfold q; ring).
    assert (131 / 10 * (I * u64) * (I * B) <= / 1000 * (I * B)) by (apply Rmult_le_compat_r; lra).
    assert (I * e <= / 1000 * (I * B)) by nra. lra. }
  apply Rabs_le_inv in E1, E2, E3, L1, L2, L3.
  destruct (fdouble b F2) as [F4 V4]; [apply Rabs_le; nra|]. set (b2 := (f_ofZ 2 * b)%float) in *.
  assert (T1 : Rabs (fR a - fR b2) <= (3 + / 100) * (I * B)) by (rewrite V4; apply Rabs_le; lra).
  destruct (fsub_err a b2 F1 F4 ltac:(nra)) as [F5 E5]. 
  assert (E5' : Rabs (fR (a - b2)%float - (fR a - fR b2)) <= (3 + / 100) * (q * I)).
  { eapply Rle_trans; [exact E5|]. replace ((3 + / 100) * (q * I)) with (u64 * ((3 + / 100) * (I * B))) by (unfold q; ring). apply Rmult_le_compat_l; lra. }
  set (t := (a - b2)%float) in *. apply Rabs_le_inv in E5'. rewrite V4 in E5'.
  assert (T2 : Rabs (fR t + fR c) <= (4 + / 50) * (I * B)) by (apply Rabs_le; lra).
  destruct (fadd_err t c F5 F3 ltac:(nra)) as [F6 E6].
  assert (E6' : Rabs (fR (t + c)%float - (fR t + fR c)) <= (4 + / 50) * (q * I)).
  { eapply Rle_trans; [exact E6|]. replace ((4 + / 50) * (q * I)) with (u64 * ((4 + / 50) * (I * B))) by (unfold q; ring). apply Rmult_le_compat_l; lra. }
  set (r := (t + c)%float) in *. apply Rabs_le_inv in E6'.
  destruct (fofZ_ok (Z.of_nat m) ltac:(lia)) as [Fm Vm]. rewrite <- INR_IZR_INZ in Vm. fold I in Vm.
  set (A := A1 - 2 * A2 + A3) in *.
  assert (LA : Rabs A <= 4 * (I * B)) by (unfold A; apply Rabs_le; lra).
  assert (Er : Rabs (fR r - A) <= 4 * E0 + (7 + / 25) * (q * I)) by (unfold A; apply Rabs_le; lra).
  assert (II : 0 < / I) by (apply Rinv_0_lt_compat; lra).
  assert (Er2 : Rabs (fR r / I - A / I) <= 524 / 10 * (q * I) + 4 * e + (7 + / 25) * q).
  { replace (fR r / I - A / I) with ((fR r - A) * / I) by (unfold Rdiv; ring). rewrite Rabs_mult, (Rabs_pos_eq (/ I)) by lra.
    apply Rle_trans with ((4 * E0 + (7 + / 25) * (q * I)) * / I); [apply Rmult_le_compat_r; lra|].
    apply Req_le. unfold E0. field. lra. }
  assert (LA2 : Rabs (A / I) <= 4 * B).
  { unfold Rdiv. rewrite Rabs_mult, (Rabs_pos_eq (/ I)) by lra. apply Rle_trans with (4 * (I * B) * / I); [apply Rmult_le_compat_r; lra|]. apply Req_le. field. lra. }
  assert (qB : q <= / 4096 * B) by (unfold q; apply Rmult_le_compat_r; lra).
  assert (qIB : q * I <= / 24000 * B).
  { replace (q * I) with (I * u64 * B) by (unfold q; ring). apply Rmult_le_compat_r; lra. }
  assert (Lr : Rabs (fR r / I) <= (4 + / 50) * B) by (apply Rabs_le_inv in Er2, LA2; apply Rabs_le; lra).
  destruct (fdiv_err r (f_ofZ (Z.of_nat m)) F6) as [F7 E7]; [rewrite Vm; lra|rewrite Vm; nra|]. rewrite Vm in E7.
  split; [exact F7|]. split; [|exact LA2].
  assert (E7' : Rabs (fR (r / f_ofZ (Z.of_nat m))%float - fR r / I) <= (4 + / 20) * q).
  { eapply Rle_trans; [exact E7|]. assert (u64 * Rabs (fR r / I) <= u64 * ((4 + / 50) * B)) by (apply Rmult_le_compat_l; lra).
    replace (u64 * ((4 + / 50) * B)) with ((4 + / 50) * q) in H by (unfold q; ring). fold q in Hu. lra. }
  apply Rabs_le_inv in E7', Er2. apply Rabs_le. lra.
Qed.
End Slide.

(** ** From the averaged second differences to the deviation *)
Lemma near_times1 s X j z : near s X j z -> near (s * f_ofZ 1)%float X j z.
Proof.
  intros (F & P & E). destruct (fofZ_ok 1 ltac:(lia)) as [F1 V1].
  assert (R : rnd (fR s * fR (f_ofZ 1)) = fR s) by (rewrite V1, Rmult_1_r; apply rnd_generic).
  destruct (fmul_ok s (f_ofZ 1) F F1) as [F' V'].
  - rewrite R. apply (abs_B2R_lt_emax prec emax).
  - rewrite R in V'. unfold near. rewrite V'. auto.
Qed.

Section Root.
Variables (n m : nat) (wh : nat -> nat -> float) (v : nat -> nat -> R) (q : nat -> float) (s pre den : float) (B d c w y D : R).
Hypothesis Hn : (1 <= n)%nat.
Hypothesis HnN : (Z.of_nat n <= 2 ^ 39)%Z.
Hypothesis Hm : (1 <= m)%nat.
Hypothesis HmN : (Z.of_nat (6 * m) <= 2 ^ 40)%Z.
Hypothesis HB : 0 < B <= bpow radix2 330.
Hypothesis Hd : 0 <= d <= B.
Hypothesis Hv : forall i j, (i < n)%nat -> (j < 6 * m)%nat -> ffin (wh i j) /\ Rabs (fR (wh i j) - v i j) <= d /\ Rabs (v i j) <= 4 * B.
Hypothesis Hq : forall i, (i < n)%nat -> sum_of (tab (6 * m) (fun j => nsq (wh i j))) (q i).
Hypothesis Hs : sum_of (tab n (fun i => pre * q i)%float) s.
Hypothesis Hpre : approx pre c 2.
Hypothesis Hc : 0 < c.
Hypothesis Hc6 : c * INR (6 * m) <= 1.
Hypothesis Hw : bpow radix2 (-200) <= w.
Let Y := w * INR n.
Hypothesis Hden : approx den Y 7.
Hypothesis Hy : 0 <= y.
Hypothesis Hy2 : y * y <= / 4 * bpow radix2 990.
Hypothesis Hyw : 3 * eta / w + eta <= y * y.
Hypothesis HD : 0 <= D.
Hypothesis HDw : c * INR (6 * m) * d ^ 2 <= D ^ 2 * w.

Lemma tot_row : near (fsqrt (s * f_ofZ 1 / den)) (R_sqrt.sqrt (bigsum n (fun i => c * bigsum (6 * m) (fun j => v i j ^ 2)) / Y))
  (n + 6 * m + 14) ((1 + / 1000) * D + 2 * y).
Proof using All.
  pose proof eta_pos as Pe. pose proof u64_pos as Pu. assert (Uq : u64 <= / 4096 * / 4096) by (unfold u64; lra).
  pose proof (bpow_gt_0 radix2 (-200)) as P2. assert (Pw : 0 < w) by lra.
  destruct (rg_nat n Hn ltac:(lia)) as [N1 N2]. change (bpow radix2 0) with 1 in N1.
  set (h := (6 * m)%nat) in *. assert (H41 : (Z.of_nat h <= 2 ^ 41)%Z) by (unfold h; lia).
  assert (Hh : (1 <= h)%nat) by (unfold h; lia).
  assert (I1 : 1 <= INR h) by (change 1 with (INR 1); now apply le_INR).
  assert (I2 : INR h <= bpow radix2 41) by (rewrite INR_IZR_INZ; change (bpow radix2 41) with (IZR (2 ^ 41)); now apply IZR_le).
  assert (PY : 0 < Y) by (unfold Y; nra).
  assert (Bq : 16 * B <= bpow radix2 334).
  { change 334%Z with (4 + 330)%Z. rewrite bpow_plus. change (bpow radix2 4) with 16. lra. }
  assert (Vb : forall i j, (i < n)%nat -> (j < h)%nat -> Rabs (fR (wh i j)) <= bpow radix2 334).
  { intros i j Hi Hj. destruct (Hv i j Hi Hj) as (_ & E & L). apply Rabs_le_inv in E, L. apply Rabs_le. lra. }
  assert (B45 : bpow radix2 334 <= bpow radix2 450) by (apply bpow_le; lia).
  assert (Sq : forall i j, (i < n)%nat -> (j < h)%nat -> 0 <= fR (wh i j) ^ 2 <= bpow radix2 668).
  { intros i j Hi Hj. split; [apply pow2_ge_0|]. change 668%Z with (334 + 334)%Z. rewrite bpow_plus. rewrite <- Rsqr_pow2. apply Rsqr_le_abs_1.
    rewrite (Rabs_pos_eq (bpow _ _)) by apply bpow_ge_0. now apply Vb. }
  set (Xi := fun i => bigsum h (fun j => fR (wh i j) ^ 2)).
  assert (P668 : 0 < bpow radix2 668) by apply bpow_gt_0.
  assert (Z0 : eta <= bpow radix2 668) by (apply bpow_le; lia).
  assert (XiB : forall i, (i < n)%nat -> 0 <= Xi i <= INR h * bpow radix2 668).
  { intros i Hi. split; [apply bigsum_nonneg; intros; apply pow2_ge_0|]. rewrite <- bigsum_const. apply bigsum_le. intros j Hj. now apply Sq. }
  assert (Q : forall i, (i < n)%nat -> near (q i) (Xi i) (h + 1) ((1 + / 1000) * (INR h * eta))).
  { intros i Hi. apply (near_sum h (fun j => nsq (wh i j)) (fun j => fR (wh i j) ^ 2) 1 eta (bpow radix2 668) (q i) Hh HmN ltac:(lia) ltac:(lra)).
    - intros j Hj. destruct (Hv i j Hi Hj) as (F & _ & _). destruct (near_sq (wh i j) F) as [Ns _]; [eapply Rle_trans; [now apply Vb|exact B45]|].
      split; [exact Ns|now apply Sq].
    - apply Rle_trans with (bpow radix2 41 * (bpow radix2 2 * bpow radix2 668)); [|rewrite <- !bpow_plus; apply bpow_le; lia].
      change (bpow radix2 2) with 4. apply Rmult_le_compat; lra.
    - now apply Hq. }
  assert (Phe : 0 < INR h * eta) by nra.
  assert (B988 : bpow radix2 988 = / 4 * bpow radix2 990).
  { change 988%Z with (-2 + 990)%Z. rewrite bpow_plus. replace (bpow radix2 (-2)) with (/ 4) by (cbn; lra). reflexivity. }
  assert (B69 : bpow radix2 669 <= bpow radix2 988) by (apply bpow_le; lia).
  assert (E69 : bpow radix2 669 = 2 * bpow radix2 668) by (change 669%Z with (1 + 668)%Z; rewrite bpow_plus; reflexivity).
  assert (cX : forall i, (i < n)%nat -> 0 <= c * Xi i <= bpow radix2 668).
  { intros i Hi. destruct (XiB i Hi) as [X0 X1]. split; [nra|].
    apply Rle_trans with (c * (INR h * bpow radix2 668)); [apply Rmult_le_compat_l; lra|].
    rewrite <- Rmult_assoc. rewrite <- (Rmult_1_l (bpow radix2 668)) at 2. apply Rmult_le_compat_r; lra. }
  assert (ch : c * (INR h * eta) <= eta) by (rewrite <- Rmult_assoc; nra).
  assert (Pch : 0 < c * (INR h * eta)) by nra.
  assert (Q2 : forall i, (i < n)%nat -> near (pre * q i)%float (c * Xi i) (h + 4) (21 / 10 * eta) /\ 0 <= c * Xi i <= bpow radix2 668).
  { intros i Hi. split; [|now apply cX].
    assert (H := near_mul_approx pre c 2 (q i) (Xi i) (h + 1) _ Hpre (Q i Hi) Hc (proj1 (XiB i Hi)) ltac:(lra) ltac:(lia) ltac:(lia)).
    pose proof (cX i Hi) as CX. specialize (H ltac:(lra) ltac:(lra)).
    replace (h + 4)%nat with (S (2 + (h + 1))) by lia. eapply near_weaken; [exact H|].
    replace (c * ((1 + / 1000) * (INR h * eta))) with ((1 + / 1000) * (c * (INR h * eta))) by ring. nra. }
  set (X := bigsum n (fun i => c * Xi i)).
  assert (NX : near s X (n + (h + 4)) (22 / 10 * (INR n * eta))).
  { assert (0 < INR n * eta) by nra.
    eapply near_weaken; [apply (near_sum n (fun i => pre * q i)%float (fun i => c * Xi i) (h + 4) (21 / 10 * eta) (bpow radix2 668) s Hn ltac:(lia) ltac:(lia) ltac:(lra) Q2)|].
    - apply Rle_trans with (bpow radix2 40 * (bpow radix2 3 * bpow radix2 668)); [|rewrite <- !bpow_plus; apply bpow_le; lia].
      change (bpow radix2 3) with 8. apply Rmult_le_compat; lra.
    - exact Hs.
    - lra. }
  apply near_times1 in NX.
  assert (Fl : forall g : nat -> nat -> R, bigsum n (fun i => c * bigsum h (fun j => g i j ^ 2)) =
     bigsum (n * h) (fun k => c * g (k / h)%nat (k mod h)%nat ^ 2)).
  { intro g. rewrite <- (bigsum_flat n h (fun i j => c * g i j ^ 2) Hh). apply bigsum_ext. intros i _. symmetry. apply bigsum_scal. }
  assert (Kd : forall k, (k < n * h)%nat -> (k / h < n)%nat /\ (k mod h < h)%nat).
  { intros k Hk. split; [apply Nat.div_lt_upper_bound; lia|apply Nat.mod_upper_bound; lia]. }
  assert (XB : 0 <= X <= INR n * bpow radix2 668).
  { split; [apply bigsum_nonneg; intros i Hi; now apply cX|]. unfold X. rewrite <- bigsum_const. apply bigsum_le. intros i Hi. now apply cX. }
  unfold X, Xi in NX. rewrite (Fl (fun i j => fR (wh i j))) in NX. rewrite (Fl v).
  replace (n + h + 14)%nat with (n + (h + 4) + 10)%nat by lia.
  assert (IY : 0 < / Y) by (now apply Rinv_0_lt_compat). assert (Iw : 0 < / w) by (now apply Rinv_0_lt_compat).
  apply (root_near (n * h) (fun _ => c) (fun k => wh (k / h)%nat (k mod h)%nat) (fun k => v (k / h)%nat (k mod h)%nat)
     (s * f_ofZ 1)%float den Y (n + (h + 4)) _ y D NX Hden PY).
  - assert (0 < INR n * eta) by nra. lra.
  - lia.
  - intros; lra.
  - rewrite <- (Fl (fun i j => fR (wh i j))). fold X. rewrite <- B988.
    apply Rle_trans with (INR n * bpow radix2 668 * / Y); [apply Rmult_le_compat_r; [lra|apply XB]|].
    replace (INR n * bpow radix2 668 * / Y) with (bpow radix2 668 * / w) by (unfold Y; field; lra).
    apply Rle_trans with (bpow radix2 668 * bpow radix2 200); [|rewrite <- bpow_plus; apply bpow_le; lia].
    apply Rmult_le_compat_l; [lra|]. replace (bpow radix2 200) with (/ bpow radix2 (-200)) by (rewrite <- bpow_opp; reflexivity). now apply Rinv_le.
  - exact HD.
  - exact Hy.
  - exact Hy2.
  - eapply Rle_trans; [|exact Hyw]. apply Rplus_le_compat_r.
    replace (22 / 10 * (INR n * eta) / Y) with (22 / 10 * (eta * / w)) by (unfold Y; field; lra).
    replace (3 * eta / w) with (3 * (eta * / w)) by (unfold Rdiv; ring).
    assert (0 < eta * / w) by nra. nra.
  - apply Rle_trans with (bigsum (n * h) (fun k => c * d ^ 2)).
    + apply bigsum_le. intros k Hk. destruct (Kd k Hk) as [K1 K2]. apply Rmult_le_compat_l; [lra|].
      rewrite <- !Rsqr_pow2. apply Rsqr_le_abs_1. rewrite (Rabs_pos_eq d) by lra. now apply Hv.
    + rewrite bigsum_const, mult_INR. unfold Y. replace (INR n * INR h * (c * d ^ 2)) with (INR n * (c * INR h * d ^ 2)) by ring.
      replace (D ^ 2 * (w * INR n)) with (INR n * (D ^ 2 * w)) by ring. apply Rmult_le_compat_l; lra.
Qed.
End Root.

(** ** Removing the slope *)
Lemma abs_mul_le a b A B : Rabs a <= A -> Rabs b <= B -> Rabs (a * b) <= A * B.
Proof. intros. rewrite Rabs_mult. apply Rmult_le_compat; auto using Rabs_pos. Qed.
Lemma sm_int z : (Z.abs z <= 2 ^ 53)%Z -> Rabs (IZR z) < bpow radix2 1024.
Proof.
  intro Hz. rewrite <- abs_IZR. apply Rle_lt_trans with (IZR (2 ^ 53)); [now apply IZR_le|]. change (IZR (2 ^ 53)) with (bpow radix2 53). apply bpow_lt. lia.
Qed.
Lemma half_ex z : (Z.abs z <= 2 ^ 53)%Z -> rnd (IZR z / 2) = IZR z / 2.
Proof. apply (half_exact 5%nat 2%nat); try lia. Qed.
Lemma half_of_ok z : (Z.abs z <= 2 ^ 52)%Z -> ffin (@half_of float FNum z) /\ fR (@half_of float FNum z) = IZR z / 2.
Proof.
  intro Hz. unfold half_of. cbn [ndiv nmul ofZ FNum].
  replace (f_ofZ 1 / f_ofZ 2)%float with 0x1p-1%float by reflexivity.
  assert (V : fR 0x1p-1%float = / 2).
  { rewrite fR_SF. replace (FloatOps.Prim2SF 0x1p-1%float) with (S754_finite false 4503599627370496 (-53)) by reflexivity.
    unfold SF2R, F2R. cbn [cond_Zopp Fnum Fexp]. change (bpow radix2 (-53)) with (/ 9007199254740992). lra. }
  assert (F : ffin 0x1p-1%float) by (apply ffin_SF; reflexivity).
  destruct (fofZ_ok z ltac:(lia)) as [Fz Vz].
  assert (E : fR 0x1p-1%float * fR (f_ofZ z) = IZR z / 2) by (rewrite V, Vz; lra).
  destruct (fmul_ok _ _ F Fz) as [F' V'].
  - rewrite E, half_ex by lia. pose proof (sm_int z ltac:(lia)). unfold Rdiv. rewrite Rabs_mult, (Rabs_pos_eq (/ 2)) by lra. pose proof (Rabs_pos (IZR z)). lra.
  - split; [exact F'|]. now rewrite V', E, half_ex by lia.
Qed.
Lemma hden_ok m : (1 <= m)%nat -> (Z.of_nat (6 * m) <= 2 ^ 40)%Z ->
  ffin (@hden float FNum m) /\ fR (@hden float FNum m) = INR (3 * m - Nat.div2 (3 * m)).
Proof.
  intros Hm HN. pose proof (slope_den m) as H. pose proof (div2_3m m Hm) as Hh. unfold hden, ofN. cbn [nadd nmul ofZ FNum].
  assert (EI : INR (3 * m - Nat.div2 (3 * m)) = IZR (Z.of_nat (3 * m - Nat.div2 (3 * m)))) by apply INR_IZR_INZ.
  destruct (Nat.odd (3 * m)).
  - destruct (half_of_ok (3 * Z.of_nat m - 1) ltac:(lia)) as [F V]. destruct (fofZ_ok 1 ltac:(lia)) as [F1 V1].
    assert (E : fR (half_of (3 * Z.of_nat m - 1)) + fR (f_ofZ 1) = IZR (Z.of_nat (3 * m - Nat.div2 (3 * m)))) by (rewrite V, V1, <- EI; exact H).
    destruct (fadd_ok _ _ F F1) as [F' V']; [rewrite E, rnd_int by lia; apply sm_int; lia|].
    split; [exact F'|]. now rewrite V', E, rnd_int, EI by lia.
  - destruct (half_of_ok 3 ltac:(lia)) as [F V]. destruct (fofZ_ok (Z.of_nat m) ltac:(lia)) as [F1 V1].
    assert (E : fR (half_of 3) * fR (f_ofZ (Z.of_nat m)) = IZR (Z.of_nat (3 * m - Nat.div2 (3 * m)))) by (rewrite V, V1, <- EI, <- INR_IZR_INZ; exact H).
    destruct (fmul_ok _ _ F F1) as [F' V']; [rewrite E, rnd_int by lia; apply sm_int; lia|].
    split; [exact F'|]. now rewrite V', E, rnd_int, EI by lia.
Qed.

Section Detrend.
Variables (m : nat) (y : nat -> float) (yr : nat -> R) (M eps : R) (a b : float).
Hypothesis Hm : (1 <= m)%nat.
Hypothesis HmN : (Z.of_nat (6 * m) <= 2 ^ 40)%Z.
Hypothesis HM : bpow radix2 (-310) <= M <= bpow radix2 310.
Hypothesis Heps : 0 <= eps <= 21 / 10 * (u64 * M).
Hypothesis Hy : forall k, (k < 3 * m)%nat -> ffin (y k) /\ Rabs (fR (y k) - yr k) <= eps /\ Rabs (yr k) <= M.
Let h := Nat.div2 (3 * m).
Hypothesis Ha : sum_of (tab h y) a.
Hypothesis Hb : sum_of (tab h (fun i => y (3 * m - h + i)%nat)) b.
Let Dn := INR (3 * m - h).
Let Delta := half_slope yr m * Dn.

Lemma det_consts : 0 < M /\ 0 < u64 <= / 4096 * / 4096 /\ 0 < u64 * M <= / 4096 * / 4096 * M /\ 1 <= INR m <= bpow radix2 38 /\
  INR m * u64 <= / 40000 /\ bpow radix2 400 * eta <= / 4096 * (u64 * M) /\ 16 * M <= bpow radix2 320 /\
  1 <= INR h /\ 2 * INR h <= 3 * INR m <= 2 * Dn /\ 1 <= Dn /\ INR h <= Dn /\ 3 * INR m = INR h + Dn /\ eta <= bpow radix2 400 * eta.
Proof using Hm HmN HM.
  clear Heps Hy Ha Hb. unfold Dn.
  pose proof u64_pos as Pu. assert (Uq : u64 <= / 4096 * / 4096) by (unfold u64; lra).
  pose proof (bpow_gt_0 radix2 (-310)) as P3. assert (PM : 0 < M) by lra.
  assert (I1 : 1 <= INR m) by (change 1 with (INR 1); now apply le_INR).
  assert (I2 : INR m <= 1099511627776 / 6).
  { assert (H : IZR (Z.of_nat (6 * m)) <= IZR (2 ^ 40)) by (now apply IZR_le). rewrite <- INR_IZR_INZ, mult_INR in H.
    replace (INR 6) with 6 in H by (cbn; lra). change (IZR (2 ^ 40)) with 1099511627776 in H. lra. }
  pose proof (div2_3m m Hm) as Hh. fold h in Hh.
  assert (E3 : INR (3 * m) = 3 * INR m) by (rewrite mult_INR; replace (INR 3) with 3 by (cbn; lra); ring).
  assert (ED : INR (3 * m - h) = 3 * INR m - INR h) by (rewrite minus_INR, E3 by lia; reflexivity).
  assert (H2 : 2 * INR h <= 3 * INR m).
  { rewrite <- E3. change 2 with (INR 2). rewrite <- mult_INR. apply le_INR. pose proof (Nat.div2_odd (3 * m)) as Q. fold h in Q. lia. }
  assert (H1 : 1 <= INR h) by (change 1 with (INR 1); apply le_INR; lia).
  assert (C1 : 0 < u64 * M <= / 4096 * / 4096 * M) by nra.
  assert (C2 : INR m <= bpow radix2 38) by (change (bpow radix2 38) with 274877906944; lra).
  assert (C3 : INR m * u64 <= / 40000) by (apply Rle_trans with (1099511627776 / 6 * u64); [apply Rmult_le_compat_r; lra|]; unfold u64; lra).
  assert (C4 : bpow radix2 400 * eta <= / 4096 * (u64 * M)).
  { destruct bpow_nums as (_ & _ & Bu). rewrite <- Bu. apply Rle_trans with (bpow radix2 (-12) * (bpow radix2 (-53) * bpow radix2 (-310))).
    + unfold eta. rewrite <- !bpow_plus. apply bpow_le. lia.
    + replace (/ 4096) with (bpow radix2 (-12)) by (cbn; lra). apply Rmult_le_compat_l; [apply bpow_ge_0|]. apply Rmult_le_compat_l; [apply bpow_ge_0|lra]. }
  assert (C5 : 16 * M <= bpow radix2 320).
  { apply Rle_trans with (bpow radix2 4 * bpow radix2 310); [change (bpow radix2 4) with 16; lra|]. rewrite <- bpow_plus. apply bpow_le. lia. }
  assert (C6 : eta <= bpow radix2 400 * eta).
  { rewrite <- (Rmult_1_l eta) at 1. apply Rmult_le_compat_r; [left; apply eta_pos|]. change 1 with (bpow radix2 0). apply bpow_le. lia. }
  repeat split; lra.
Qed.

Lemma Delta_eq : Delta = wsum yr h (3 * m - h) / INR h - wsum yr h 0 / INR h.
Proof using Hm HmN HM.
  destruct det_consts as (_ & _ & _ & _ & _ & _ & _ & H1 & _ & D1 & _). unfold Delta, half_slope. fold h Dn. unfold wsum. cbn [Nat.add].
  change (fun k : nat => yr k) with yr. field. lra.
Qed.
Lemma Delta_bound : Rabs Delta <= 2 * M.
Proof using All.
  destruct det_consts as (PM & Uq & UM & Im & MU & EE & BM & H1 & H2 & D1 & HD & H3 & E1). rewrite Delta_eq.
  pose proof (div2_3m m Hm) as Hh. fold h in Hh.
  assert (Q : forall o, (o + h <= 3 * m)%nat -> Rabs (wsum yr h o / INR h) <= M).
  { intros o Ho. assert (L := wsum_bound yr h o M ltac:(intros k Hk; apply Hy; lia)).
    assert (0 < / INR h) by (apply Rinv_0_lt_compat; lra). unfold Rdiv. rewrite Rabs_mult, (Rabs_pos_eq (/ INR h)) by lra.
    apply Rle_trans with (INR h * M * / INR h); [apply Rmult_le_compat_r; lra|]. apply Req_le. field. lra. }
  pose proof (Q (3 * m - h)%nat ltac:(lia)) as Q1. pose proof (Q 0%nat ltac:(lia)) as Q2. apply Rabs_le_inv in Q1, Q2. apply Rabs_le. lra.
Qed.

Lemma hdiff_ok : ffin (hdiff m a b) /\ Rabs (fR (hdiff m a b) - Delta) <= (301 / 100 * INR m + 41 / 10) * (u64 * M) + 2 * eps.
Proof using All.
  destruct det_consts as (PM & Uq & UM & Im & MU & EE & BM & H1 & H2 & D1 & HD & H3 & E1). rewrite Delta_eq.
  pose proof (div2_3m m Hm) as Hh. fold h in Hh. pose proof eta_pos as Pe.
  assert (B3 : bpow radix2 320 <= bpow radix2 900) by (apply bpow_le; lia). assert (B4 : bpow radix2 900 <= bpow radix2 1000) by (apply bpow_le; lia).
  destruct (fofZ_ok (Z.of_nat h) ltac:(lia)) as [Fh Vh]. rewrite <- INR_IZR_INZ in Vh.
  assert (Ih : 0 < / INR h) by (apply Rinv_0_lt_compat; lra).
  assert (eM : eps <= / 1000 * M) by lra.
  assert (hU : INR h * (u64 * M) <= / 20000 * M).
  { rewrite <- Rmult_assoc. apply Rmult_le_compat_r; [lra|]. assert (INR h * u64 <= 3 / 2 * INR m * u64) by (apply Rmult_le_compat_r; lra). lra. }
  set (q := u64 * M) in *.
  assert (C : forall o s, (o + h <= 3 * m)%nat -> sum_of (tab h (fun k => y (o + k)%nat)) s ->
     ffin (s / f_ofZ (Z.of_nat h))%float /\ Rabs (fR (s / f_ofZ (Z.of_nat h))%float - wsum yr h o / INR h) <= (1003 / 1000 * INR h + 101 / 100) * q + eps /\
     Rabs (wsum yr h o / INR h) <= M).
  { intros o s Ho Hs. destruct (sum_err h (fun k => y (o + k)%nat) ((1 + / 1000) * M) s ltac:(lia) ltac:(lia) ltac:(split; lra)) as [F E]; [|exact Hs|].
    { intros k Hk. destruct (Hy (o + k)%nat ltac:(lia)) as (F & E & L). split; [exact F|]. apply Rabs_le_inv in E, L. apply Rabs_le. lra. }
    assert (W := wsum_close (fun k => fR (y k)) yr h o eps ltac:(intros k Hk; apply Hy; lia)). unfold wsum at 1 in W.
    assert (L := wsum_bound yr h o M ltac:(intros k Hk; apply Hy; lia)).
    set (T := wsum yr h o) in *.
    assert (L2 : Rabs (T / INR h) <= M).
    { unfold Rdiv. rewrite Rabs_mult, (Rabs_pos_eq (/ INR h)) by lra. apply Rle_trans with (INR h * M * / INR h); [apply Rmult_le_compat_r; lra|]. apply Req_le. field. lra. }
    assert (E' : Rabs (fR s - T) <= 1003 / 1000 * INR h * (INR h * q) + INR h * eps).
    { apply Rabs_le_inv in E, W. replace ((1 + / 1000) * (INR h * u64) * (INR h * ((1 + / 1000) * M))) with ((1 + / 1000) * (1 + / 1000) * (INR h * (INR h * q))) in E by (unfold q; ring).
      assert (0 < INR h * (INR h * q)) by (repeat apply Rmult_lt_0_compat; lra). apply Rabs_le. lra. }
    assert (E2 : Rabs (fR s / INR h - T / INR h) <= 1003 / 1000 * INR h * q + eps).
    { replace (fR s / INR h - T / INR h) with ((fR s - T) * / INR h) by (unfold Rdiv; ring). rewrite Rabs_mult, (Rabs_pos_eq (/ INR h)) by lra.
      apply Rle_trans with ((1003 / 1000 * INR h * (INR h * q) + INR h * eps) * / INR h); [apply Rmult_le_compat_r; lra|]. apply Req_le. field. lra. }
    assert (L3 : Rabs (fR s / INR h) <= (1 + / 200) * M) by (apply Rabs_le_inv in E2, L2; apply Rabs_le; lra).
    destruct (fdiv_err s (f_ofZ (Z.of_nat h)) F) as [F' E3]; [rewrite Vh; lra|rewrite Vh; lra|]. rewrite Vh in E3.
    assert (E3' : u64 * Rabs (fR s / INR h) + eta <= 101 / 100 * q).
    { assert (u64 * Rabs (fR s / INR h) <= u64 * ((1 + / 200) * M)) by (apply Rmult_le_compat_l; lra). unfold q in *. lra. }
    split; [exact F'|]. split; [|exact L2]. apply Rabs_le_inv in E3, E2. apply Rabs_le. lra. }
  destruct (C 0%nat a ltac:(lia) Ha) as (F1 & A1 & L1). destruct (C (3 * m - h)%nat b ltac:(lia) Hb) as (F2 & A2 & L2).
  unfold hdiff, ofN. fold h. cbn [nsub ndiv ofZ FNum].
  set (p := (b / f_ofZ (Z.of_nat h))%float) in *. set (r := (a / f_ofZ (Z.of_nat h))%float) in *.
  set (T1 := wsum yr h 0 / INR h) in *. set (T2 := wsum yr h (3 * m - h) / INR h) in *.
  apply Rabs_le_inv in A1, A2, L1, L2.
  assert (S1 : Rabs (fR p - fR r) <= (2 + / 50) * M) by (apply Rabs_le; lra).
  destruct (fsub_err p r F2 F1 ltac:(lra)) as [F3 E3].
  assert (E3' : u64 * Rabs (fR p - fR r) <= (2 + / 50) * q).
  { replace ((2 + / 50) * q) with (u64 * ((2 + / 50) * M)) by (unfold q; ring). apply Rmult_le_compat_l; lra. }
  split; [exact F3|]. apply Rabs_le_inv in E3. assert (INR h * q <= 3 / 2 * INR m * q) by (apply Rmult_le_compat_r; lra). apply Rabs_le. lra.
Qed.

Let dh := fR (hdiff m a b).
Lemma dh_bound : Rabs dh <= (2 + / 500) * M /\ Rabs (dh - Delta) <= (301 / 100 * INR m + 41 / 10) * (u64 * M) + 2 * eps.
Proof using All.
  destruct det_consts as (PM & Uq & UM & Im & MU & EE & BM & H1 & H2 & D1 & HD & H3 & E1). destruct hdiff_ok as [_ E]. pose proof Delta_bound as L.
  split; [|exact E]. fold dh in E. apply Rabs_le_inv in E, L.
  assert (INR m * (u64 * M) <= / 40000 * M) by (rewrite <- Rmult_assoc; apply Rmult_le_compat_r; lra). apply Rabs_le. lra.
Qed.

(** htotdev: the slope is removed about the middle *)
Lemma hdet_ok k : (k < 3 * m)%nat -> ffin (hdet m a b y k) /\
  Rabs (fR (hdet m a b y k) - (yr k - half_slope yr m * (INR k - INR h))) <= (302 / 100 * INR m + 18) * (u64 * M) /\
  Rabs (yr k - half_slope yr m * (INR k - INR h)) <= 3 * M.
Proof using All.
  destruct det_consts as (PM & Uq & UM & Im & MU & EE & BM & H1 & H2 & D1 & HD & H3 & E1). intro Hk.
  pose proof (div2_3m m Hm) as Hh. fold h in Hh. pose proof eta_pos as Pe.
  assert (B4 : bpow radix2 320 <= bpow radix2 1000) by (apply bpow_le; lia).
  destruct hdiff_ok as [Fd _]. destruct dh_bound as [Ld Ed]. pose proof Delta_bound as LD. destruct (hden_ok m Hm HmN) as [Fn Vn]. fold h in Vn. fold Dn in Vn.
  destruct (fofZ_ok (Z.of_nat h) ltac:(lia)) as [Fh Vh]. destruct (fofZ_ok (Z.of_nat k) ltac:(lia)) as [Fk Vk].
  unfold hdet, ofN. fold h. cbn [nsub ndiv nmul ofZ FNum].
  assert (Ek : fR (f_ofZ (Z.of_nat k)) - fR (f_ofZ (Z.of_nat h)) = IZR (Z.of_nat k - Z.of_nat h)) by (rewrite Vk, Vh, minus_IZR; reflexivity).
  destruct (fsub_ok _ _ Fk Fh) as [F1 V1]; [rewrite Ek, rnd_int by lia; apply sm_int; lia|].
  rewrite Ek, rnd_int in V1 by lia. rewrite minus_IZR, <- !INR_IZR_INZ in V1.
  assert (Kk : INR k <= 3 * INR m - 1).
  { replace (3 * INR m) with (INR (3 * m)) by (rewrite mult_INR; replace (INR 3) with 3 by (cbn; lra); ring). apply Rplus_le_reg_r with 1.
    replace (INR (3 * m) - 1 + 1) with (INR (3 * m)) by ring. rewrite <- S_INR. apply le_INR. lia. }
  pose proof (pos_INR k) as K0. set (kk := INR k - INR h) in *.
  assert (Lk : Rabs kk <= Dn) by (unfold kk; apply Rabs_le; lra).
  set (id := (f_ofZ (Z.of_nat k) - f_ofZ (Z.of_nat h))%float) in *.
  assert (ID : 0 < / Dn) by (apply Rinv_0_lt_compat; lra). assert (ID1 : / Dn <= 1) by (rewrite <- Rinv_1; apply Rinv_le; lra).
  set (c := dh / Dn). assert (cD : c * Dn = dh) by (unfold c; field; lra).
  assert (Lc : Rabs c <= (2 + / 500) * M).
  { unfold c, Rdiv. rewrite Rabs_mult, (Rabs_pos_eq (/ Dn)) by lra. rewrite <- (Rmult_1_r ((2 + / 500) * M)). apply Rmult_le_compat; try lra. apply Rabs_pos. }
  assert (LcD : Rabs c * Dn <= (2 + / 500) * M).
  { rewrite <- (Rabs_pos_eq Dn) at 1 by lra. rewrite <- Rabs_mult, cD. exact Ld. }
  assert (DB : Dn <= bpow radix2 40).
  { apply Rle_trans with (3 * INR m); [lra|]. apply Rle_trans with (bpow radix2 2 * bpow radix2 38); [change (bpow radix2 2) with 4; lra|]. rewrite <- bpow_plus. apply bpow_le. lia. }
  assert (De : Dn * eta <= / 4096 * (u64 * M)).
  { eapply Rle_trans; [|exact EE]. apply Rmult_le_compat_r; [lra|]. eapply Rle_trans; [exact DB|]. apply bpow_le. lia. }
  destruct (fdiv_err (hdiff m a b) (hden m) Fd) as [F2 E2]; [rewrite Vn; lra|rewrite Vn; fold dh c; lra|]. rewrite Vn in E2. fold dh c in E2.
  set (sl := (hdiff m a b / hden m)%float) in *.
  assert (E3 : Rabs (fR sl * kk - c * kk) <= u64 * ((2 + / 500) * M) + Dn * eta).
  { replace (fR sl * kk - c * kk) with ((fR sl - c) * kk) by ring. eapply Rle_trans; [apply abs_mul_le; [exact E2|exact Lk]|].
    rewrite Rmult_plus_distr_r, Rmult_assoc. assert (u64 * (Rabs c * Dn) <= u64 * ((2 + / 500) * M)) by (apply Rmult_le_compat_l; lra). lra. }
  assert (L3 : Rabs (c * kk) <= (2 + / 500) * M).
  { rewrite Rabs_mult. eapply Rle_trans; [|exact LcD]. apply Rmult_le_compat_l; [apply Rabs_pos|exact Lk]. }
  set (q := u64 * M) in *. replace (u64 * ((2 + / 500) * M)) with ((2 + / 500) * q) in E3 by (unfold q; ring).
  assert (L4 : Rabs (fR sl * kk) <= (2 + / 400) * M) by (apply Rabs_le_inv in E3, L3; apply Rabs_le; lra).
  destruct (fmul_err sl id F2 F1) as [F4 E4]; [rewrite V1; lra|]. rewrite V1 in E4.
  assert (E4' : u64 * Rabs (fR sl * kk) + eta <= (2 + / 300) * q).
  { assert (u64 * Rabs (fR sl * kk) <= u64 * ((2 + / 400) * M)) by (apply Rmult_le_compat_l; lra). unfold q in *. lra. }
  assert (E5 : Rabs (c * kk - half_slope yr m * kk) <= (301 / 100 * INR m + 41 / 10) * q + 2 * eps).
  { replace (c * kk - half_slope yr m * kk) with ((dh - Delta) * (kk * / Dn)) by (unfold c, Delta; field; lra).
    rewrite <- (Rmult_1_r (_ + 2 * eps)). apply abs_mul_le; [exact Ed|]. rewrite Rabs_mult, (Rabs_pos_eq (/ Dn)) by lra.
    apply Rle_trans with (Dn * / Dn); [apply Rmult_le_compat_r; lra|]. apply Req_le. field. lra. }
  assert (LH : Rabs (half_slope yr m * kk) <= 2 * M).
  { replace (half_slope yr m * kk) with (Delta * (kk * / Dn)) by (unfold Delta; field; lra). rewrite <- (Rmult_1_r (2 * M)). apply abs_mul_le; [exact LD|].
    rewrite Rabs_mult, (Rabs_pos_eq (/ Dn)) by lra. apply Rle_trans with (Dn * / Dn); [apply Rmult_le_compat_r; lra|]. apply Req_le. field. lra. }
  destruct (Hy k Hk) as (Fy & Ey & Ly). set (T := half_slope yr m * kk) in *. set (tr := (sl * id)%float) in *.
  assert (Em : INR m * q <= / 40000 * M) by (unfold q; rewrite <- Rmult_assoc; apply Rmult_le_compat_r; lra).
  apply Rabs_le_inv in E3, E4, E5, Ey, Ly, LH.
  assert (L6 : Rabs (fR (y k) - fR tr) <= (3 + / 100) * M) by (apply Rabs_le; lra).
  destruct (fsub_err (y k) tr Fy F4 ltac:(lra)) as [F7 E7].
  assert (E7' : u64 * Rabs (fR (y k) - fR tr) <= (3 + / 100) * q).
  { replace ((3 + / 100) * q) with (u64 * ((3 + / 100) * M)) by (unfold q; ring). apply Rmult_le_compat_l; lra. }
  split; [exact F7|]. apply Rabs_le_inv in E7. split; apply Rabs_le; lra.
Qed.

(** mtotdev: the slope is divided and multiplied by the sample interval *)
Lemma mdet_ok tau0 k : eps = 0 -> ffin tau0 -> bpow radix2 (-110) <= fR tau0 <= bpow radix2 110 -> (k < 3 * m)%nat -> ffin (mdet m a b tau0 y k) /\
  Rabs (fR (mdet m a b tau0 y k) - (yr k - half_slope yr m * INR k)) <= (603 / 100 * INR m + 30) * (u64 * M) /\
  Rabs (yr k - half_slope yr m * INR k) <= 5 * M.
Proof using All.
  destruct det_consts as (PM & Uq & UM & Im & MU & EE & BM & H1 & H2 & D1 & HD & H3 & E1). intros E0 Ft Rt Hk.
  pose proof (div2_3m m Hm) as Hh. fold h in Hh. pose proof eta_pos as Pe.
  assert (B4 : bpow radix2 320 <= bpow radix2 1000) by (apply bpow_le; lia).
  destruct hdiff_ok as [Fd _]. destruct dh_bound as [Ld Ed]. pose proof Delta_bound as LD. destruct (hden_ok m Hm HmN) as [Fn Vn]. fold h in Vn. fold Dn in Vn.
  destruct (fofZ_ok (Z.of_nat k) ltac:(lia)) as [Fk Vk]. rewrite <- INR_IZR_INZ in Vk.
  unfold mdet, ofN. cbn [nsub ndiv nmul ofZ FNum].
  assert (Kk : INR k <= 3 * INR m - 1).
  { replace (3 * INR m) with (INR (3 * m)) by (rewrite mult_INR; replace (INR 3) with 3 by (cbn; lra); ring). apply Rplus_le_reg_r with 1.
    replace (INR (3 * m) - 1 + 1) with (INR (3 * m)) by ring. rewrite <- S_INR. apply le_INR. lia. }
  pose proof (pos_INR k) as K0. set (kk := INR k) in *.
  assert (Lk : kk <= 2 * Dn) by lra.
  assert (ID : 0 < / Dn) by (apply Rinv_0_lt_compat; lra).
  assert (Pt : 0 < fR tau0) by (pose proof (bpow_gt_0 radix2 (-110)); lra). set (t := fR tau0) in *.
  assert (DB : Dn <= bpow radix2 40).
  { apply Rle_trans with (3 * INR m); [lra|]. apply Rle_trans with (bpow radix2 2 * bpow radix2 38); [change (bpow radix2 2) with 4; lra|]. rewrite <- bpow_plus. apply bpow_le. lia. }
  assert (KB : kk <= bpow radix2 41) by (change 41%Z with (1 + 40)%Z; rewrite bpow_plus; change (bpow radix2 1) with 2; lra).
  assert (RDt : rg (Dn * t) (-110) 150).
  { change (-110)%Z with (0 + -110)%Z. change 150%Z with (40 + 110)%Z. apply rg_mul; [|exact Rt]. split; [exact D1|exact DB]. }
  assert (PDt : 0 < Dn * t) by (apply Rmult_lt_0_compat; lra). assert (uDt : 0 < u64 * (Dn * t) <= / 4096 * / 4096 * (Dn * t)) by (split; [apply Rmult_lt_0_compat; lra|apply Rmult_le_compat_r; lra]).
  (* D * tau0 *)
  assert (A1 : approx (hden m * tau0)%float (Dn * t) 1).
  { rewrite <- Vn. apply (approx_mul _ _ _ _ 0 0); [apply approx_self, Fn|apply approx_self, Ft| |lia]. fold t. rewrite Vn. now apply (rg_mid _ _ _ RDt). }
  destruct A1 as [Fp Ep]. rewrite (Rabs_pos_eq (Dn * t)) in Ep by lra. replace ((1 + u64) ^ 1 - 1) with u64 in Ep by ring.
  set (p := (hden m * tau0)%float) in *. assert (Ep' := Ep). apply Rabs_le_inv in Ep'.
  assert (Pp : (1 - / 4096) * (Dn * t) <= fR p) by lra. assert (Pp0 : 0 < fR p) by lra.
  set (c := dh / (Dn * t)). 
  assert (Lct : Rabs c * (Dn * t) <= (2 + / 500) * M).
  { rewrite <- (Rabs_pos_eq (Dn * t)) at 1 by lra. rewrite <- Rabs_mult. replace (c * (Dn * t)) with dh by (unfold c; field; lra). exact Ld. }
  assert (Pc : 0 <= Rabs c) by apply Rabs_pos.
  assert (E2 : Rabs (dh / fR p - c) <= (1 + / 1000) * u64 * Rabs c).
  { replace (dh / fR p - c) with (c * ((Dn * t - fR p) * / fR p)) by (unfold c; field; lra). rewrite Rabs_mult, Rmult_comm.
    apply Rmult_le_compat_r; [exact Pc|]. rewrite Rabs_mult, (Rabs_pos_eq (/ fR p)) by (left; now apply Rinv_0_lt_compat).
    apply (Rmult_le_reg_r (fR p)); [exact Pp0|]. rewrite Rmult_assoc, Rinv_l, Rmult_1_r by lra. rewrite Rabs_minus_sym.
    eapply Rle_trans; [exact Ep|]. assert (u64 * ((1 - / 4096) * (Dn * t)) <= u64 * fR p) by (apply Rmult_le_compat_l; lra). lra. }
  assert (It : / (Dn * t) <= bpow radix2 110) by (pose proof (rg_inv _ _ _ RDt) as [_ L]; exact L).
  assert (Lc : Rabs c <= bpow radix2 430).
  { unfold c, Rdiv. rewrite Rabs_mult, (Rabs_pos_eq (/ (Dn * t))) by (left; now apply Rinv_0_lt_compat).
    change 430%Z with (320 + 110)%Z. rewrite bpow_plus. apply Rmult_le_compat; [apply Rabs_pos|left; now apply Rinv_0_lt_compat|lra|exact It]. }
  assert (B43 : 2 * bpow radix2 430 <= bpow radix2 1000).
  { change 2 with (bpow radix2 1). rewrite <- bpow_plus. apply bpow_le. lia. }
  assert (uc0 : 0 <= u64 * Rabs c) by (apply Rmult_le_pos; lra).
  assert (uc : u64 * Rabs c <= / 4096 * Rabs c) by (apply Rmult_le_compat_r; lra).
  destruct (fdiv_err (hdiff m a b) p Fd) as [F2 E3]; [lra| |].
  { fold dh. apply Rabs_le_inv in E2. pose proof (Rle_abs c). pose proof (Rle_abs (- c)). rewrite Rabs_Ropp in *. apply Rabs_le. split; lra. }
  fold dh in E3. set (sl := (hdiff m a b / p)%float) in *.
  assert (Ldp : Rabs (dh / fR p) <= (1 + / 1000) * Rabs c).
  { replace (dh / fR p) with ((dh / fR p - c) + c) by ring. eapply Rle_trans; [apply Rabs_triang|]. lra. }
  assert (E4 : Rabs (fR sl - c) <= 201 / 100 * (u64 * Rabs c) + eta).
  { replace (fR sl - c) with ((fR sl - dh / fR p) + (dh / fR p - c)) by ring. eapply Rle_trans; [apply Rabs_triang|].
    assert (u64 * Rabs (dh / fR p) <= u64 * ((1 + / 1000) * Rabs c)) by (apply Rmult_le_compat_l; lra). lra. }
  (* slope * k *)
  assert (Lsl : Rabs (fR sl) <= (1 + / 1000) * Rabs c + eta).
  { replace (fR sl) with ((fR sl - c) + c) by ring. eapply Rle_trans; [apply Rabs_triang|]. lra. }
  assert (E5 : Rabs (fR sl * kk - c * kk) <= 201 / 100 * (u64 * (Rabs c * kk)) + kk * eta).
  { replace (fR sl * kk - c * kk) with ((fR sl - c) * kk) by ring. rewrite Rabs_mult, (Rabs_pos_eq kk) by lra.
    apply Rle_trans with ((201 / 100 * (u64 * Rabs c) + eta) * kk); [apply Rmult_le_compat_r; lra|]. apply Req_le. ring. }
  assert (L5 : Rabs (fR sl * kk) <= (1 + / 1000) * (Rabs c * kk) + kk * eta).
  { rewrite Rabs_mult, (Rabs_pos_eq kk) by lra. apply Rle_trans with (((1 + / 1000) * Rabs c + eta) * kk); [apply Rmult_le_compat_r; lra|]. apply Req_le. ring. }
  assert (ke : kk * eta <= 1).
  { apply Rle_trans with (bpow radix2 41 * eta); [apply Rmult_le_compat_r; lra|]. change 1 with (bpow radix2 0). unfold eta. rewrite <- bpow_plus. apply bpow_le. lia. }
  assert (Lck : Rabs c * kk <= bpow radix2 471).
  { change 471%Z with (430 + 41)%Z. rewrite bpow_plus. apply Rmult_le_compat; lra. }
  assert (B47 : 2 * bpow radix2 471 + 2 <= bpow radix2 1000).
  { apply Rle_trans with (4 * bpow radix2 471).
    - assert (1 <= bpow radix2 471) by (change 1 with (bpow radix2 0); apply bpow_le; lia). lra.
    - change 4 with (bpow radix2 2). rewrite <- bpow_plus. apply bpow_le. lia. }
  assert (Pck : 0 <= Rabs c * kk) by (apply Rmult_le_pos; lra).
  destruct (fmul_err sl (f_ofZ (Z.of_nat k)) F2 Fk) as [F6 E6]; [rewrite Vk; fold kk; lra|]. rewrite Vk in E6. fold kk in E6.
  set (s2 := (sl * f_ofZ (Z.of_nat k))%float) in *. set (ck := Rabs c * kk) in *. set (ke' := kk * eta) in *.
  assert (Pke : 0 <= ke') by (unfold ke'; apply Rmult_le_pos; lra).
  assert (E7 : Rabs (fR s2 - c * kk) <= 302 / 100 * (u64 * ck) + 101 / 100 * ke' + eta).
  { replace (fR s2 - c * kk) with ((fR s2 - fR sl * kk) + (fR sl * kk - c * kk)) by ring. eapply Rle_trans; [apply Rabs_triang|].
    assert (u64 * Rabs (fR sl * kk) <= u64 * ((1 + / 1000) * ck + ke')) by (apply Rmult_le_compat_l; lra).
    assert (0 <= u64 * ck) by (apply Rmult_le_pos; lra). assert (u64 * ke' <= / 4096 * ke') by (apply Rmult_le_compat_r; lra). lra. }
  (* times tau0 *)
  set (ckt := ck * t). set (z := 101 / 100 * ke' + eta) in *.
  assert (Lckt : 0 <= ckt <= (4 + / 200) * M).
  { unfold ckt. split; [apply Rmult_le_pos; lra|]. unfold ck. apply Rle_trans with (Rabs c * (2 * Dn) * t); [apply Rmult_le_compat_r; [lra|]; apply Rmult_le_compat_l; lra|].
    replace (Rabs c * (2 * Dn) * t) with (2 * (Rabs c * (Dn * t))) by ring. lra. }
  assert (zt : 0 <= z * t <= / 2000 * (u64 * M)).
  { assert (Pz : 0 <= z) by (unfold z; lra). split; [apply Rmult_le_pos; lra|].
    apply Rle_trans with (bpow radix2 43 * eta * bpow radix2 110).
    - apply Rmult_le_compat; try lra. unfold z, ke'. apply Rle_trans with ((101 / 100 * bpow radix2 41 + 1) * eta).
      + rewrite Rmult_plus_distr_r, Rmult_1_l. apply Rplus_le_compat_r. rewrite <- Rmult_assoc. apply Rmult_le_compat_r; lra.
      + apply Rmult_le_compat_r; [lra|]. change 43%Z with (2 + 41)%Z. rewrite bpow_plus. change (bpow radix2 2) with 4.
        assert (1 <= bpow radix2 41) by (change 1 with (bpow radix2 0); apply bpow_le; lia). lra.
    - replace (bpow radix2 43 * eta * bpow radix2 110) with (bpow radix2 153 * eta) by (change 153%Z with (43 + 110)%Z; rewrite bpow_plus; ring).
      apply Rle_trans with (bpow radix2 400 * eta); [apply Rmult_le_compat_r; [lra|apply bpow_le; lia]|]. lra. }
  set (q := u64 * M) in *.
  assert (uq : u64 * ckt <= (4 + / 200) * q) by (replace ((4 + / 200) * q) with (u64 * ((4 + / 200) * M)) by (unfold q; ring); apply Rmult_le_compat_l; lra).
  assert (uq0 : 0 <= u64 * ckt) by (apply Rmult_le_pos; lra).
  assert (E8 : Rabs (fR s2 * t - c * kk * t) <= 302 / 100 * (u64 * ckt) + z * t).
  { replace (fR s2 * t - c * kk * t) with ((fR s2 - c * kk) * t) by ring. rewrite Rabs_mult, (Rabs_pos_eq t) by lra.
    apply Rle_trans with ((302 / 100 * (u64 * ck) + 101 / 100 * ke' + eta) * t); [apply Rmult_le_compat_r; lra|]. apply Req_le. unfold ckt, z. ring. }
  assert (L8 : Rabs (c * kk * t) <= ckt).
  { unfold ckt, ck. rewrite !Rabs_mult, (Rabs_pos_eq t), (Rabs_pos_eq kk) by lra. lra. }
  assert (L9 : Rabs (fR s2 * t) <= (4 + / 100) * M) by (apply Rabs_le_inv in E8, L8; apply Rabs_le; lra).
  destruct (fmul_err s2 tau0 F6 Ft) as [F9 E9]; [fold t; lra|]. fold t in E9. set (tr := (s2 * tau0)%float) in *.
  assert (E9' : u64 * Rabs (fR s2 * t) + eta <= (4 + / 50) * q).
  { assert (u64 * Rabs (fR s2 * t) <= u64 * ((4 + / 100) * M)) by (apply Rmult_le_compat_l; lra). unfold q in *. lra. }
  assert (KD : 0 <= kk * / Dn <= 2).
  { split; [apply Rmult_le_pos; lra|]. apply Rle_trans with (2 * Dn * / Dn); [apply Rmult_le_compat_r; lra|]. apply Req_le. field. lra. }
  assert (E10 : Rabs (c * kk * t - half_slope yr m * kk) <= ((301 / 100 * INR m + 41 / 10) * q + 2 * eps) * 2).
  { replace (c * kk * t - half_slope yr m * kk) with ((dh - Delta) * (kk * / Dn)) by (unfold c, Delta; field; lra).
    apply abs_mul_le; [exact Ed|]. rewrite Rabs_pos_eq; lra. }
  assert (LH : Rabs (half_slope yr m * kk) <= 2 * M * 2).
  { replace (half_slope yr m * kk) with (Delta * (kk * / Dn)) by (unfold Delta; field; lra). apply abs_mul_le; [exact LD|]. rewrite Rabs_pos_eq; lra. }
  destruct (Hy k Hk) as (Fy & Ey & Ly). set (T := half_slope yr m * kk) in *.
  assert (Em : INR m * q <= / 40000 * M) by (unfold q; rewrite <- Rmult_assoc; apply Rmult_le_compat_r; lra).
  apply Rabs_le_inv in E8, E9, E10, Ey, Ly, LH. rewrite E0 in *.
  assert (L11 : Rabs (fR (y k) - fR tr) <= (5 + / 100) * M) by (apply Rabs_le; lra).
  destruct (fsub_err (y k) tr Fy F9 ltac:(lra)) as [F12 E12].
  assert (E12' : u64 * Rabs (fR (y k) - fR tr) <= (5 + / 100) * q).
  { replace ((5 + / 100) * q) with (u64 * ((5 + / 100) * M)) by (unfold q; ring). apply Rmult_le_compat_l; lra. }
  split; [exact F12|]. apply Rabs_le_inv in E12. split; apply Rabs_le; lra.
Qed.
End Detrend.

Lemma tot_bound n m (v : nat -> nat -> R) B c w r : (1 <= n)%nat -> 0 < c -> c * INR (6 * m) <= 1 -> 0 < w -> 0 <= B ->
  (forall i j, (i < n)%nat -> (j < 6 * m)%nat -> Rabs (v i j) <= 4 * B) -> 0 <= r -> 16 * B ^ 2 <= r ^ 2 * w ->
  R_sqrt.sqrt (bigsum n (fun i => c * bigsum (6 * m) (fun j => v i j ^ 2)) / (w * INR n)) <= r.
Proof.
  intros Hn Hc Hc6 Hw HB Hv Hr0 Hr. rewrite <- (sqrt_square r) by exact Hr0. apply sqrt_le_1_alt.
  assert (I1 : 1 <= INR n) by (change 1 with (INR 1); now apply le_INR).
  assert (PY : 0 < w * INR n) by (apply Rmult_lt_0_compat; lra).
  apply (Rmult_le_reg_r (w * INR n)); [exact PY|]. unfold Rdiv. rewrite Rmult_assoc, Rinv_l, Rmult_1_r by lra.
  replace (r * r * (w * INR n)) with (INR n * (r ^ 2 * w)) by ring. rewrite <- bigsum_const. apply bigsum_le. intros i Hi.
  apply Rle_trans with (c * bigsum (6 * m) (fun _ => 16 * B ^ 2)).
  - apply Rmult_le_compat_l; [lra|]. apply bigsum_le. intros j Hj. replace (16 * B ^ 2) with (Rsqr (4 * B)) by (unfold Rsqr; ring).
    rewrite <- Rsqr_pow2. apply Rsqr_le_abs_1. rewrite (Rabs_pos_eq (4 * B)) by lra. now apply Hv.
  - rewrite bigsum_const. apply Rle_trans with (1 * (16 * B ^ 2)); [|lra]. rewrite <- Rmult_assoc.
    apply Rmult_le_compat_r; [|exact Hc6]. pose proof (pow2_ge_0 B). lra.
Qed.

(** ** One row of mtotdev *)
Section MRow.
Variables (N m : nat) (f : nat -> float) (M : R) (rate : float) (a b s1 s2 s3 q : nat -> float) (s : float).
Hypothesis HN : (Z.of_nat N <= 2 ^ 39)%Z.
Hypothesis Hm : (1 <= m)%nat.
Hypothesis HNm : (3 * m <= N)%nat.
Hypothesis HM : bpow radix2 (-200) <= M <= bpow radix2 200.
Hypothesis Hf : forall i, (i < N)%nat -> ffin (f i) /\ Rabs (fR (f i)) <= M.
Hypothesis Hr : moderate_rate rate.
Let n := (N - 3 * m + 1)%nat.
Let h := Nat.div2 (3 * m).
Let tau0 : float := (f_ofZ 1 / rate)%float.
Hypothesis Ha : forall i, (i < n)%nat -> sum_of (tab h (fun k => f (i + k)%nat)) (a i).
Hypothesis Hb : forall i, (i < n)%nat -> sum_of (tab h (fun k => f (i + (3 * m - h + k))%nat)) (b i).
Let g (i : nat) : nat -> float := refl9 (mdet m (a i) (b i) tau0 (fun k => f (i + k)%nat)) m.
Hypothesis H1 : forall i, (i < n)%nat -> sum_of (tab m (g i)) (s1 i).
Hypothesis H2 : forall i, (i < n)%nat -> sum_of (tab m (fun k => g i (m + k)%nat)) (s2 i).
Hypothesis H3 : forall i, (i < n)%nat -> sum_of (tab m (fun k => g i (2 * m + k)%nat)) (s3 i).
Hypothesis Hq : forall i, (i < n)%nat -> sum_of (tab (6 * m) (fun j => nsq (win (s1 i) (s2 i) (s3 i) (g i) m j))) (q i).
Let pre : float := (f_ofZ 1 / (f_ofZ 6 * f_ofZ (Z.of_nat m)))%float.
Hypothesis Hs : sum_of (tab n (fun i => pre * q i)%float) s.
Let den : float := (f_ofZ 2 * nsq (f_ofZ (Z.of_nat m) * tau0) * f_ofZ (Z.of_nat n))%float.
Let K := INR m / fR rate.
Let y (i k : nat) : R := fR (f (i + k)%nat).
Let G (i : nat) : nat -> R := reflect9 (fun k => y i k - half_slope (y i) m * INR k) m.
Let v (i j : nat) : R := wval (G i) m j.

Lemma mrow_consts : 0 < M /\ 0 < u64 <= / 4096 * / 4096 /\ 0 < u64 * M /\ 1 <= INR m /\ INR m * u64 <= / 40000 /\ rg K (-100) 140 /\ rg (/ fR rate) (-100) 100 /\
  (Z.of_nat (6 * m) <= 2 ^ 40)%Z /\ rg (INR m) 0 40 /\ rg (INR n) 0 40 /\ eta <= / 4096 * (u64 * M).
Proof using HN Hm HNm HM Hr.
  pose proof (bpow_gt_0 radix2 (-200)) as P2. pose proof u64_pos as Pu. assert (Uq : u64 <= / 4096 * / 4096) by (unfold u64; lra).
  destruct Hr as [Fr [Lr Ur]]. pose proof (bpow_gt_0 radix2 (-100)) as P1.
  assert (Rr : rg (/ fR rate) (-100) 100) by (apply (rg_inv _ (-100) 100); split; assumption).
  assert (H6 : (Z.of_nat (6 * m) <= 2 ^ 40)%Z) by lia.
  assert (Rm : rg (INR m) 0 40) by (apply rg_nat; lia). assert (Rn : rg (INR n) 0 40) by (apply rg_nat; unfold n; lia).
  assert (I1 : 1 <= INR m) by (change 1 with (INR 1); now apply le_INR).
  assert (I2 : INR m <= 1099511627776 / 6).
  { assert (H : IZR (Z.of_nat (6 * m)) <= IZR (2 ^ 40)) by (now apply IZR_le). rewrite <- INR_IZR_INZ, mult_INR in H.
    replace (INR 6) with 6 in H by (cbn; lra). change (IZR (2 ^ 40)) with 1099511627776 in H. lra. }
  assert (UM : 0 < u64 * M) by (apply Rmult_lt_0_compat; lra).
  assert (MU : INR m * u64 <= / 40000) by (apply Rle_trans with (1099511627776 / 6 * u64); [apply Rmult_le_compat_r; lra|]; unfold u64; lra).
  assert (E : eta <= / 4096 * (u64 * M)).
  { destruct bpow_nums as (_ & _ & Bu). rewrite <- Bu. apply Rle_trans with (bpow radix2 (-12) * (bpow radix2 (-53) * bpow radix2 (-200))).
    + unfold eta. rewrite <- !bpow_plus. apply bpow_le. lia.
    + replace (/ 4096) with (bpow radix2 (-12)) by (cbn; lra). apply Rmult_le_compat_l; [apply bpow_ge_0|]. apply Rmult_le_compat_l; [apply bpow_ge_0|lra]. }
  assert (RK : rg K (-100) 140) by (apply (rg_mul (INR m) (/ fR rate) 0 40 (-100) 100); assumption).
  repeat split; try lra; try assumption; try apply Rm; try apply Rn; try apply Rr; apply RK.
Qed.

Let e := (603 / 100 * INR m + 30) * (u64 * M).
Let d := (290 * INR m + 180) * (u64 * M).
Lemma mrow_term i j : (i < n)%nat -> (j < 6 * m)%nat -> ffin (win (s1 i) (s2 i) (s3 i) (g i) m j) /\
  Rabs (fR (win (s1 i) (s2 i) (s3 i) (g i) m j) - v i j) <= d /\ Rabs (v i j) <= 4 * (5 * M).
Proof using All.
  intros Hi Hj. destruct mrow_consts as (PM & Uq & UM & I1 & MU & RK & Rr & H6 & Rm & Rn & E1).
  destruct Hr as [Fr [Lr Ur]]. pose proof (bpow_gt_0 radix2 (-100)) as P1.
  assert (At : approx tau0 (/ fR rate) 1).
  { replace (/ fR rate) with (1 / fR rate) by (unfold Rdiv; ring). apply approx_div; [apply (approx_Z 1); lia|exact Fr|lra| |lia].
    unfold Rdiv. rewrite Rmult_1_l. now apply (rg_mid _ _ _ Rr). }
  destruct At as [Ft Et]. pose proof (rg_pos _ _ _ Rr) as Pir. rewrite (Rabs_pos_eq (/ fR rate)) in Et by lra. replace ((1 + u64) ^ 1 - 1) with u64 in Et by ring.
  assert (Bt : bpow radix2 (-110) <= fR tau0 <= bpow radix2 110).
  { destruct Rr as [R1 R2]. assert (u64 * / fR rate <= / 2 * / fR rate) by (apply Rmult_le_compat_r; lra). apply Rabs_le_inv in Et.
    assert (2 * bpow radix2 (-110) <= bpow radix2 (-100)) by (change 2 with (bpow radix2 1); rewrite <- bpow_plus; apply bpow_le; lia).
    assert (2 * bpow radix2 100 <= bpow radix2 110) by (change 2 with (bpow radix2 1); rewrite <- bpow_plus; apply bpow_le; lia). lra. }
  assert (HM3 : bpow radix2 (-310) <= M <= bpow radix2 310).
  { split; [eapply Rle_trans; [|apply HM]|eapply Rle_trans; [apply HM|]]; apply bpow_le; lia. }
  assert (E0 : 0 <= 0 <= 21 / 10 * (u64 * M)) by lra.
  assert (Em : INR m * (u64 * M) <= / 40000 * M) by (rewrite <- Rmult_assoc; apply Rmult_le_compat_r; lra).
  assert (UM2 : u64 * M <= / 4096 * / 4096 * M) by (apply Rmult_le_compat_r; lra).
  assert (Ge : forall k, (k < 9 * m)%nat -> ffin (g i k) /\ Rabs (fR (g i k) - G i k) <= e /\ Rabs (G i k) <= 5 * M).
  { assert (T : forall k, (k < 3 * m)%nat -> ffin (mdet m (a i) (b i) tau0 (fun k => f (i + k)%nat) k) /\
       Rabs (fR (mdet m (a i) (b i) tau0 (fun k => f (i + k)%nat) k) - (y i k - half_slope (y i) m * INR k)) <= e /\ Rabs (y i k - half_slope (y i) m * INR k) <= 5 * M).
    { intros k Hk. apply (mdet_ok m (fun k => f (i + k)%nat) (y i) M 0 (a i) (b i) Hm H6 HM3 E0); auto.
      intros k' Hk'. destruct (Hf (i + k')%nat ltac:(unfold n in Hi; lia)) as [F L]. split; [exact F|]. split; [|exact L]. unfold y. rewrite Rminus_diag_eq, Rabs_R0 by reflexivity. lra. }
    intros k Hk. unfold g, G, refl9, reflect9.
    destruct (Nat.ltb_spec k (3 * m)); [apply T; lia|]. destruct (Nat.ltb_spec k (6 * m)); apply T; lia. }
  assert (Pe : 0 <= e <= / 1000 * (5 * M)).
  { unfold e. split; [apply Rmult_le_pos; lra|]. lra. }
  assert (B5 : 0 < 5 * M <= bpow radix2 500).
  { split; [lra|]. apply Rle_trans with (bpow radix2 3 * bpow radix2 200); [change (bpow radix2 3) with 8; lra|]. rewrite <- bpow_plus. apply bpow_le. lia. }
  assert (Hu : eta <= / 4096 * (u64 * (5 * M))) by lra.
  destruct (win_ok m (g i) (G i) (5 * M) e Hm ltac:(lia) B5 Hu Pe Ge (s1 i) (s2 i) (s3 i) j Hj (H1 i Hi) (H2 i Hi) (H3 i Hi)) as (F & E & L).
  split; [exact F|]. split; [|exact L]. eapply Rle_trans; [exact E|]. unfold e, d.
  assert (0 < INR m * (u64 * M)) by (apply Rmult_lt_0_compat; lra). lra.
Qed.

Let c := / (6 * INR m).
Let w := 2 * (K * K).
Let dR := R_sqrt.sqrt (bigsum n (fun i => c * bigsum (6 * m) (fun j => v i j ^ 2)) / (w * INR n)).

Lemma mrow_ok : near (fsqrt (s * f_ofZ 1 / den)) dR (n + 6 * m + 14) ((206 * INR m + 130) * (u64 * M) / K) /\ 0 <= dR <= 15 * M / K.
Proof using All.
  destruct mrow_consts as (PM & Uq & UM & I1 & MU & RK & Rr & H6 & Rm & Rn & E1).
  destruct Hr as [Fr [Lr Ur]]. pose proof (bpow_gt_0 radix2 (-100)) as P1.
  pose proof (rg_pos _ _ _ RK) as PK. assert (IK : 0 < / K) by (now apply Rinv_0_lt_compat).
  assert (IKb : / K <= bpow radix2 100) by (pose proof (rg_inv _ _ _ RK) as [_ L]; exact L).
  assert (RKK := rg_mul _ _ _ _ _ _ RK RK). assert (R2 : rg 2 1 1) by (split; cbn; lra). assert (RW := rg_mul _ _ _ _ _ _ R2 RKK). fold w in RW.
  assert (RY := rg_mul _ _ _ _ _ _ RW Rn). pose proof (rg_pos _ _ _ RW) as Pw.
  assert (E6 : INR (6 * m) = 6 * INR m) by (rewrite mult_INR; replace (INR 6) with 6 by (cbn; lra); reflexivity).
  assert (Pc : 0 < c) by (apply Rinv_0_lt_compat; lra).
  assert (C6 : c * INR (6 * m) = 1) by (unfold c; rewrite E6; field; lra).
  assert (R6 : rg (6 * INR m) 0 41).
  { rewrite <- E6. split; [change (bpow radix2 0) with 1; lra|]. rewrite INR_IZR_INZ. change (bpow radix2 41) with (IZR (2 ^ 41)). apply IZR_le. lia. }
  assert (Ap : approx pre c 2).
  { assert (A6 : approx (f_ofZ 6 * f_ofZ (Z.of_nat m))%float (6 * INR m) 1).
    { apply (approx_mul _ _ _ _ 0 0); [apply (approx_Z 6); lia|rewrite INR_IZR_INZ; apply approx_Z; lia|now apply (rg_mid _ _ _ R6)|lia]. }
    destruct (fofZ_ok 6 ltac:(lia)) as [F6 V6]. destruct (fofZ_ok (Z.of_nat m) ltac:(lia)) as [Fm Vm].
    assert (E6m : fR (f_ofZ 6) * fR (f_ofZ (Z.of_nat m)) = IZR (6 * Z.of_nat m)) by (rewrite V6, Vm, mult_IZR; reflexivity).
    destruct (fmul_ok _ _ F6 Fm) as [F V]; [rewrite E6m, rnd_int by lia; apply sm_int; lia|]. rewrite E6m, rnd_int in V by lia.
    assert (V' : fR (f_ofZ 6 * f_ofZ (Z.of_nat m))%float = 6 * INR m) by (rewrite V, mult_IZR, <- INR_IZR_INZ; reflexivity).
    assert (Ac : approx pre (1 / fR (f_ofZ 6 * f_ofZ (Z.of_nat m))%float) 1).
    { apply approx_div; [apply (approx_Z 1); lia|exact F|rewrite V'; lra| |lia]. rewrite V'. unfold Rdiv. rewrite Rmult_1_l.
      apply (rg_mid _ _ _ (rg_inv _ _ _ R6)); lia. }
    rewrite V' in Ac. replace (1 / (6 * INR m)) with c in Ac by (unfold c, Rdiv; ring). destruct Ac as [Fc Ec]. split; [exact Fc|]. eapply Rle_trans; [exact Ec|].
    apply Rmult_le_compat_r; [apply Rabs_pos|]. cbn [pow]. pose proof u64_pos. nra. }
  assert (Ad : approx den (w * INR n) 7).
  { assert (A1 : approx tau0 (1 / fR rate) 1).
    { apply approx_div; [apply (approx_Z 1); lia|exact Fr|lra| |lia]. unfold Rdiv. rewrite Rmult_1_l. now apply (rg_mid _ _ _ Rr). }
    assert (EK : INR m * (1 / fR rate) = K) by (unfold K; field; lra).
    assert (A2 : approx (f_ofZ (Z.of_nat m) * tau0)%float K 2).
    { rewrite <- EK. apply (approx_mul _ _ _ _ 0 1); [rewrite INR_IZR_INZ; apply approx_Z; lia|exact A1| |lia]. rewrite EK. now apply (rg_mid _ _ _ RK). }
    assert (A3 : approx (nsq (f_ofZ (Z.of_nat m) * tau0)%float) (K * K) 5) by (apply (approx_mul _ _ _ _ 2 2); [exact A2|exact A2|now apply (rg_mid _ _ _ RKK)|lia]).
    unfold den. change (nsq ?z) with (z * z)%float in *. cbn [nmul FNum] in *.
    assert (A4 : approx (f_ofZ 2 * (f_ofZ (Z.of_nat m) * tau0 * (f_ofZ (Z.of_nat m) * tau0)))%float w 5).
    { destruct A3 as [F3 E3]. pose proof (rg_pos _ _ _ RKK) as PKK. rewrite (Rabs_pos_eq (K * K)) in E3 by lra.
      destruct RKK as [_ UK]. assert (U5 : (1 + u64) ^ 5 - 1 <= 1).
      { assert ((1 + u64) ^ 5 <= (1 + / 10) ^ 5) by (apply pow_incr; lra). lra. }
      assert (B9 : bpow radix2 (140 + 140) * 4 <= bpow radix2 1000) by (change 4 with (bpow radix2 2); rewrite <- bpow_plus; apply bpow_le; lia).
      set (Q := (f_ofZ (Z.of_nat m) * tau0 * (f_ofZ (Z.of_nat m) * tau0))%float) in *.
      assert (((1 + u64) ^ 5 - 1) * (K * K) <= 1 * (K * K)) by (apply Rmult_le_compat_r; lra).
      assert (B10 : bpow radix2 (140 + 140) * 4 <= bpow radix2 999) by (change 4 with (bpow radix2 2); rewrite <- bpow_plus; apply bpow_le; lia).
      destruct (fdouble Q F3) as [F4 V4]; [apply Rabs_le_inv in E3; apply Rabs_le; lra|].
      split; [exact F4|]. rewrite V4. unfold w. replace (2 * fR Q - 2 * (K * K)) with (2 * (fR Q - K * K)) by ring.
      rewrite Rabs_mult, (Rabs_pos_eq 2), (Rabs_pos_eq (2 * (K * K))) by lra. lra. }
    destruct (fun A B => approx_mul _ (f_ofZ (Z.of_nat n)) w (INR n) 5 0 A4 A B ltac:(lia)) as [F5 E5].
    - rewrite INR_IZR_INZ. apply approx_Z. unfold n. lia.
    - now apply (rg_mid _ _ _ RY).
    - split; [exact F5|]. eapply Rle_trans; [exact E5|]. apply Rmult_le_compat_r; [apply Rabs_pos|]. apply Rplus_le_compat_r. apply Rle_pow; [pose proof u64_pos; lra|lia]. }
  set (yy := u64 * M / (16 * K)).
  assert (Ey : yy = / 16 * (u64 * M * / K)) by (unfold yy; field; lra).
  assert (Uk : 0 < u64 * M * / K) by (apply Rmult_lt_0_compat; lra).
  assert (Uk2 : u64 * M * / K <= bpow radix2 300).
  { change 300%Z with (200 + 100)%Z. rewrite bpow_plus. apply Rmult_le_compat; try lra. nra. }
  assert (Q990 : bpow radix2 988 = / 4 * bpow radix2 990).
  { change 988%Z with (-2 + 990)%Z. rewrite bpow_plus. replace (bpow radix2 (-2)) with (/ 4) by (cbn; lra). reflexivity. }
  assert (B5 : 0 < 5 * M <= bpow radix2 330).
  { split; [lra|]. apply Rle_trans with (bpow radix2 3 * bpow radix2 200); [change (bpow radix2 3) with 8; lra|]. rewrite <- bpow_plus. apply bpow_le. lia. }
  assert (Em : INR m * (u64 * M) <= / 40000 * M) by (rewrite <- Rmult_assoc; apply Rmult_le_compat_r; lra).
  assert (UM2 : u64 * M <= / 4096 * / 4096 * M) by (apply Rmult_le_compat_r; lra).
  assert (Pd : 0 <= d <= 5 * M) by (unfold d; split; [apply Rmult_le_pos; lra|lra]).
  assert (Hn1 : (1 <= n)%nat) by (unfold n; lia).
  split; [|split; [apply sqrt_pos|]].
  - set (D := 7072 / 10000 * (d * / K)).
    assert (Y2 : yy * yy <= / 4 * bpow radix2 990).
    { rewrite <- Q990. apply Rle_trans with (bpow radix2 300 * bpow radix2 300); [|rewrite <- bpow_plus; apply bpow_le; lia].
      apply Rmult_le_compat; rewrite Ey; lra. }
    assert (Yw : 3 * eta / w + eta <= yy * yy).
    { pose proof (tiny M K (3 / 2) (proj1 HM) RK) as T. fold yy in T. eapply Rle_trans; [|apply T].
      - apply Rplus_le_compat_r. apply Req_le. unfold w. field. lra.
      - split; [lra|]. change (bpow radix2 60) with 1152921504606846976. lra. }
    assert (Dw : c * INR (6 * m) * d ^ 2 <= D ^ 2 * w).
    { rewrite C6. unfold D, w. replace ((7072 / 10000 * (d * / K)) ^ 2 * (2 * (K * K))) with (2 * (7072 / 10000) ^ 2 * d ^ 2) by (field; lra).
      pose proof (pow2_ge_0 d). lra. }
    assert (PD : 0 <= D) by (unfold D; apply Rmult_le_pos; [lra|]; apply Rmult_le_pos; lra).
    assert (Lw : bpow radix2 (-200) <= w) by (destruct RW as [L _]; eapply Rle_trans; [|exact L]; apply bpow_le; lia).
    assert (Py : 0 <= yy) by (rewrite Ey; lra).
    eapply near_weaken; [apply (tot_row n m (fun i j => win (s1 i) (s2 i) (s3 i) (g i) m j) v q s pre den (5 * M) d c w yy D Hn1 ltac:(unfold n; lia) Hm H6 B5 Pd
       (fun i j Hi Hj => mrow_term i j Hi Hj) Hq Hs Ap Pc (Req_le _ _ C6) Lw Ad Py Y2 Yw PD Dw)|].
    rewrite Ey. unfold D, d.
    replace ((206 * INR m + 130) * (u64 * M) / K) with ((206 * INR m + 130) * (u64 * M * / K)) by (unfold Rdiv; ring).
    replace ((290 * INR m + 180) * (u64 * M) * / K) with ((290 * INR m + 180) * (u64 * M * / K)) by ring.
    assert (0 < INR m * (u64 * M * / K)) by (apply Rmult_lt_0_compat; lra). lra.
  - apply (tot_bound n m v (5 * M) c w); auto; try lra.
    + intros i j Hi Hj. now apply mrow_term.
    + unfold Rdiv. apply Rmult_le_pos; lra.
    + unfold w. replace ((15 * M / K) ^ 2 * (2 * (K * K))) with (450 * M ^ 2) by (field; lra). pose proof (pow2_ge_0 M). lra.
Qed.

(** ttotdev: times tau over the root of 3 *)
Lemma trow_ok : near (f_ofZ (Z.of_nat m) / rate * fsqrt (s * f_ofZ 1 / den) / fsqrt (f_ofZ 3))%float (K * dR / R_sqrt.sqrt 3) (n + 6 * m + 20)
  ((124 * INR m + 80) * (u64 * M)).
Proof using All.
  destruct mrow_consts as (PM & Uq & UM & I1 & MU & RK & Rr & H6 & Rm & Rn & E1). destruct mrow_ok as [H0 [D0 D1]].
  destruct Hr as [Fr [Lr Ur]]. pose proof (bpow_gt_0 radix2 (-100)) as P1. pose proof (rg_pos _ _ _ RK) as PK.
  set (z := (206 * INR m + 130) * (u64 * M) / K) in *. set (gg := (206 * INR m + 130) * (u64 * M)).
  assert (At : approx (f_ofZ (Z.of_nat m) / rate)%float K 1).
  { apply approx_div; [rewrite INR_IZR_INZ; apply approx_Z; lia|exact Fr|lra|now apply (rg_mid _ _ _ RK)|lia]. }
  assert (Tz : K * z = gg) by (unfold z, gg; field; lra).
  assert (Pg : 0 < gg) by (unfold gg; apply Rmult_lt_0_compat; lra).
  assert (Em : INR m * (u64 * M) <= / 40000 * M) by (rewrite <- Rmult_assoc; apply Rmult_le_compat_r; lra).
  assert (UM2 : u64 * M <= / 4096 * / 4096 * M) by (apply Rmult_le_compat_r; lra).
  assert (G3 : gg <= M) by (unfold gg; lra).
  assert (Pz : 0 <= z) by (unfold z, Rdiv; apply Rmult_le_pos; [exact (Rlt_le _ _ Pg)|left; now apply Rinv_0_lt_compat]).
  assert (BM : 32 * M <= / 4 * bpow radix2 990).
  { apply Rle_trans with (32 * bpow radix2 200); [lra|]. replace (/ 4) with (bpow radix2 (-2)) by (cbn; lra). change 32 with (bpow radix2 5).
    rewrite <- !bpow_plus. apply bpow_le. lia. }
  assert (TD : K * dR <= 15 * M).
  { apply Rle_trans with (K * (15 * M / K)); [apply Rmult_le_compat_l; lra|]. apply Req_le. field. lra. }
  assert (PKd : 0 <= K * dR) by (apply Rmult_le_pos; lra).
  assert (X1 := near_mul_approx _ _ 1 _ dR (n + 6 * m + 14) z At H0 PK D0 Pz ltac:(lia) ltac:(unfold n; lia) ltac:(lra) ltac:(rewrite Tz; lra)).
  rewrite Tz in X1.
  destruct (fofZ_ok 3 ltac:(lia)) as [F3 V3].
  assert (S3 : 17 / 10 <= R_sqrt.sqrt 3 <= 2).
  { split; [rewrite <- (sqrt_square (17 / 10)) by lra|rewrite <- (sqrt_square 2) by lra]; apply sqrt_le_1_alt; lra. }
  assert (A3 : approx (fsqrt (f_ofZ 3)) (R_sqrt.sqrt 3) 2).
  { destruct (fsqrt_err (f_ofZ 3) F3 ltac:(rewrite V3; lra)) as (F & _ & E). rewrite V3 in E. split; [exact F|].
    rewrite (Rabs_pos_eq (R_sqrt.sqrt 3)) by lra. eapply Rle_trans; [exact E|]. apply Rmult_le_compat_r; [lra|]. cbn [pow]. nra. }
  pose proof eta_pos as Pe.
  set (z2 := (1 + u64) * ((1 + / 1000) * gg) + eta) in *.
  assert (Z2 : 0 <= z2 <= (1 + / 500) * gg).
  { assert (u64 * gg <= / 4096 * gg) by (apply Rmult_le_compat_r; lra). assert (0 <= u64 * gg) by (apply Rmult_le_pos; lra).
    assert (eta <= / 4096 * gg). { assert (u64 * M <= gg) by (unfold gg; assert (0 < INR m * (u64 * M)) by (apply Rmult_lt_0_compat; lra); lra). lra. }
    unfold z2. split; lra. }
  assert (I3 : 0 < / R_sqrt.sqrt 3 <= 10 / 17).
  { split; [apply Rinv_0_lt_compat; lra|]. replace (10 / 17) with (/ (17 / 10)) by field. apply Rinv_le; lra. }
  assert (Q1 : K * dR / R_sqrt.sqrt 3 <= K * dR).
  { unfold Rdiv. rewrite <- (Rmult_1_r (K * dR)) at 2. apply Rmult_le_compat_l; lra. }
  assert (Q2 : 0 <= z2 / R_sqrt.sqrt 3 <= 10 / 17 * z2).
  { unfold Rdiv. split; [apply Rmult_le_pos; lra|]. rewrite Rmult_comm. apply Rmult_le_compat_r; lra. }
  assert (X2 := near_div_approx _ _ _ z2 _ _ X1 A3 ltac:(lra) PKd (proj1 Z2) ltac:(unfold n; lia) ltac:(lra) ltac:(lra)).
  replace (n + 6 * m + 20)%nat with (S (3 + S (1 + (n + 6 * m + 14)))) by lia.
  eapply near_weaken; [exact X2|].
  set (t := z2 / R_sqrt.sqrt 3) in *. assert (u64 * t <= / 4096 * t) by (apply Rmult_le_compat_r; lra).
  assert (0 < INR m * (u64 * M)) by (apply Rmult_lt_0_compat; lra). unfold gg in Z2. lra.
Qed.
End MRow.

(** ** One row of htotdev *)
Section HRow.
Variables (N m : nat) (f : nat -> float) (fr : nat -> R) (F : R) (a b s1 s2 s3 q : nat -> float) (s : float).
Hypothesis HN : (Z.of_nat N <= 2 ^ 39)%Z.
Hypothesis Hm : (1 <= m)%nat.
Hypothesis HNm : (3 * m <= N)%nat.
Hypothesis HF : bpow radix2 (-310) <= F <= bpow radix2 310.
Hypothesis Hf : forall i, (i < N)%nat -> ffin (f i) /\ Rabs (fR (f i) - fr i) <= 21 / 10 * (u64 * F) /\ Rabs (fr i) <= F.
Let n := (N - 3 * m + 1)%nat.
Let h := Nat.div2 (3 * m).
Hypothesis Ha : forall i, (i < n)%nat -> sum_of (tab h (fun k => f (i + k)%nat)) (a i).
Hypothesis Hb : forall i, (i < n)%nat -> sum_of (tab h (fun k => f (i + (3 * m - h + k))%nat)) (b i).
Let g (i : nat) : nat -> float := refl9 (hdet m (a i) (b i) (fun k => f (i + k)%nat)) m.
Hypothesis H1 : forall i, (i < n)%nat -> sum_of (tab m (g i)) (s1 i).
Hypothesis H2 : forall i, (i < n)%nat -> sum_of (tab m (fun k => g i (m + k)%nat)) (s2 i).
Hypothesis H3 : forall i, (i < n)%nat -> sum_of (tab m (fun k => g i (2 * m + k)%nat)) (s3 i).
Hypothesis Hq : forall i, (i < n)%nat -> sum_of (tab (6 * m) (fun j => nsq (win (s1 i) (s2 i) (s3 i) (g i) m j))) (q i).
Let pre : float := (f_ofZ 1 / (f_ofZ 6 * f_ofZ (Z.of_nat (6 * m))))%float.
Hypothesis Hs : sum_of (tab n (fun i => pre * q i)%float) s.
Let den : float := f_ofZ (Z.of_nat n).
Let y (i k : nat) : R := fr (i + k)%nat.
Let G (i : nat) : nat -> R := reflect9 (fun k => y i k - half_slope (y i) m * (INR k - INR h)) m.
Let v (i j : nat) : R := wval (G i) m j.
Let e := (302 / 100 * INR m + 18) * (u64 * F).
Let d := (172 * INR m + 108) * (u64 * F).
Let c := / (36 * INR m).

Lemma hrow_ok : near (fsqrt (s * f_ofZ 1 / den)) (R_sqrt.sqrt (bigsum n (fun i => c * bigsum (6 * m) (fun j => v i j ^ 2)) / (1 * INR n)))
  (n + 6 * m + 14) ((71 * INR m + 45) * (u64 * F)).
Proof using All.
  pose proof (bpow_gt_0 radix2 (-310)) as P2. pose proof u64_pos as Pu. assert (Uq : u64 <= / 4096 * / 4096) by (unfold u64; lra).
  assert (PF : 0 < F) by lra.
  assert (H6 : (Z.of_nat (6 * m) <= 2 ^ 40)%Z) by lia.
  assert (I1 : 1 <= INR m) by (change 1 with (INR 1); now apply le_INR).
  assert (I2 : INR m <= 1099511627776 / 6).
  { assert (H : IZR (Z.of_nat (6 * m)) <= IZR (2 ^ 40)) by (now apply IZR_le). rewrite <- INR_IZR_INZ, mult_INR in H.
    replace (INR 6) with 6 in H by (cbn; lra). change (IZR (2 ^ 40)) with 1099511627776 in H. lra. }
  assert (UM : 0 < u64 * F) by (apply Rmult_lt_0_compat; lra).
  assert (MU : INR m * u64 <= / 40000) by (apply Rle_trans with (1099511627776 / 6 * u64); [apply Rmult_le_compat_r; lra|]; unfold u64; lra).
  assert (E1 : eta <= / 4096 * (u64 * F)).
  { destruct bpow_nums as (_ & _ & Bu). rewrite <- Bu. apply Rle_trans with (bpow radix2 (-12) * (bpow radix2 (-53) * bpow radix2 (-310))).
    + unfold eta. rewrite <- !bpow_plus. apply bpow_le. lia.
    + replace (/ 4096) with (bpow radix2 (-12)) by (cbn; lra). apply Rmult_le_compat_l; [apply bpow_ge_0|]. apply Rmult_le_compat_l; [apply bpow_ge_0|lra]. }
  assert (Em : INR m * (u64 * F) <= / 40000 * F) by (rewrite <- Rmult_assoc; apply Rmult_le_compat_r; lra).
  assert (UM2 : u64 * F <= / 4096 * / 4096 * F) by (apply Rmult_le_compat_r; lra).
  assert (PmU : 0 < INR m * (u64 * F)) by (apply Rmult_lt_0_compat; lra).
  assert (Pe : 0 <= e <= / 1000 * (3 * F)) by (unfold e; split; [apply Rmult_le_pos; lra|lra]).
  assert (Pd : 0 <= d <= 3 * F) by (unfold d; split; [apply Rmult_le_pos; lra|lra]).
  assert (B3 : 0 < 3 * F <= bpow radix2 330).
  { split; [lra|]. apply Rle_trans with (bpow radix2 2 * bpow radix2 310); [change (bpow radix2 2) with 4; lra|]. rewrite <- bpow_plus. apply bpow_le. lia. }
  assert (B35 : bpow radix2 330 <= bpow radix2 500) by (apply bpow_le; lia).
  assert (T : forall i j, (i < n)%nat -> (j < 6 * m)%nat -> ffin (win (s1 i) (s2 i) (s3 i) (g i) m j) /\
     Rabs (fR (win (s1 i) (s2 i) (s3 i) (g i) m j) - v i j) <= d /\ Rabs (v i j) <= 4 * (3 * F)).
  { intros i j Hi Hj.
    assert (Ge : forall k, (k < 9 * m)%nat -> ffin (g i k) /\ Rabs (fR (g i k) - G i k) <= e /\ Rabs (G i k) <= 3 * F).
    { assert (T : forall k, (k < 3 * m)%nat -> ffin (hdet m (a i) (b i) (fun k => f (i + k)%nat) k) /\
         Rabs (fR (hdet m (a i) (b i) (fun k => f (i + k)%nat) k) - (y i k - half_slope (y i) m * (INR k - INR h))) <= e /\
         Rabs (y i k - half_slope (y i) m * (INR k - INR h)) <= 3 * F).
      { intros k Hk. apply (hdet_ok m (fun k => f (i + k)%nat) (y i) F (21 / 10 * (u64 * F)) (a i) (b i) Hm H6 HF ltac:(lra)); auto.
        intros k' Hk'. apply Hf. unfold n in Hi. lia. }
      intros k Hk. unfold g, G, refl9, reflect9.
      destruct (Nat.ltb_spec k (3 * m)); [apply T; lia|]. destruct (Nat.ltb_spec k (6 * m)); apply T; lia. }
    destruct (win_ok m (g i) (G i) (3 * F) e Hm ltac:(lia) ltac:(lra) ltac:(lra) Pe Ge (s1 i) (s2 i) (s3 i) j Hj (H1 i Hi) (H2 i Hi) (H3 i Hi)) as (Fw & E & L).
    split; [exact Fw|]. split; [|exact L]. eapply Rle_trans; [exact E|]. unfold e, d. lra. }
  assert (E6 : INR (6 * m) = 6 * INR m) by (rewrite mult_INR; replace (INR 6) with 6 by (cbn; lra); reflexivity).
  assert (Pc : 0 < c) by (apply Rinv_0_lt_compat; lra).
  assert (C6 : c * INR (6 * m) = / 6) by (unfold c; rewrite E6; field; lra).
  assert (R6 : rg (36 * INR m) 0 43).
  { split; [change (bpow radix2 0) with 1; lra|]. change (bpow radix2 43) with 8796093022208. lra. }
  assert (Ap : approx pre c 2).
  { destruct (fofZ_ok 6 ltac:(lia)) as [F6 V6]. destruct (fofZ_ok (Z.of_nat (6 * m)) ltac:(lia)) as [Fm Vm].
    assert (E6m : fR (f_ofZ 6) * fR (f_ofZ (Z.of_nat (6 * m))) = IZR (6 * Z.of_nat (6 * m))) by (rewrite V6, Vm, mult_IZR; reflexivity).
    destruct (fmul_ok _ _ F6 Fm) as [Fp V]; [rewrite E6m, rnd_int by lia; apply sm_int; lia|]. rewrite E6m, rnd_int in V by lia.
    assert (V' : fR (f_ofZ 6 * f_ofZ (Z.of_nat (6 * m)))%float = 36 * INR m) by (rewrite V, mult_IZR, <- INR_IZR_INZ, E6; ring).
    assert (Ac : approx pre (1 / fR (f_ofZ 6 * f_ofZ (Z.of_nat (6 * m)))%float) 1).
    { apply approx_div; [apply (approx_Z 1); lia|exact Fp|rewrite V'; lra| |lia]. rewrite V'. unfold Rdiv. rewrite Rmult_1_l.
      apply (rg_mid _ _ _ (rg_inv _ _ _ R6)); lia. }
    rewrite V' in Ac. replace (1 / (36 * INR m)) with c in Ac by (unfold c, Rdiv; ring). destruct Ac as [Fc Ec]. split; [exact Fc|]. eapply Rle_trans; [exact Ec|].
    apply Rmult_le_compat_r; [apply Rabs_pos|]. cbn [pow]. nra. }
  assert (Ad : approx den (1 * INR n) 7).
  { destruct (approx_Z (Z.of_nat n) ltac:(unfold n; lia)) as [Fn En]. rewrite <- INR_IZR_INZ in En. rewrite Rmult_1_l. split; [exact Fn|].
    eapply Rle_trans; [exact En|]. apply Rmult_le_compat_r; [apply Rabs_pos|]. apply Rplus_le_compat_r. apply Rle_pow; [lra|lia]. }
  set (yy := u64 * F * / 16). set (D := 4083 / 10000 * d).
  assert (Py : 0 <= yy) by (unfold yy; lra).
  assert (Q990 : bpow radix2 988 = / 4 * bpow radix2 990).
  { change 988%Z with (-2 + 990)%Z. rewrite bpow_plus. replace (bpow radix2 (-2)) with (/ 4) by (cbn; lra). reflexivity. }
  assert (Y2 : yy * yy <= / 4 * bpow radix2 990).
  { rewrite <- Q990. apply Rle_trans with (bpow radix2 310 * bpow radix2 310); [|rewrite <- bpow_plus; apply bpow_le; lia].
    apply Rmult_le_compat; unfold yy; lra. }
  assert (Yw : 3 * eta / 1 + eta <= yy * yy).
  { destruct bpow_nums as (_ & _ & Bu).
    assert (L : bpow radix2 (-367) <= yy).
    { unfold yy. replace (/ 16) with (bpow radix2 (-4)) by (cbn; lra). rewrite <- Bu. apply Rle_trans with (bpow radix2 (-53) * bpow radix2 (-310) * bpow radix2 (-4)).
      - rewrite <- !bpow_plus. apply bpow_le. lia.
      - apply Rmult_le_compat_r; [apply bpow_ge_0|]. apply Rmult_le_compat_l; [apply bpow_ge_0|lra]. }
    apply Rle_trans with (bpow radix2 (-367) * bpow radix2 (-367)); [|apply Rmult_le_compat; try assumption; apply bpow_ge_0].
    replace (3 * eta / 1 + eta) with (bpow radix2 2 * eta) by (change (bpow radix2 2) with 4; field). unfold eta. rewrite <- !bpow_plus. apply bpow_le. lia. }
  assert (Dw : c * INR (6 * m) * d ^ 2 <= D ^ 2 * 1).
  { rewrite C6. unfold D. pose proof (pow2_ge_0 d). nra. }
  assert (PD : 0 <= D) by (unfold D; lra).
  assert (Lw : bpow radix2 (-200) <= 1) by (change 1 with (bpow radix2 0); apply bpow_le; lia).
  eapply near_weaken; [apply (tot_row n m (fun i j => win (s1 i) (s2 i) (s3 i) (g i) m j) v q s pre den (3 * F) d c 1 yy D ltac:(unfold n; lia) ltac:(unfold n; lia) Hm H6 B3 Pd
     T Hq Hs Ap Pc ltac:(lra) Lw Ad Py Y2 Yw PD Dw)|].
  unfold D, d, yy. lra.
Qed.
End HRow.

(** ** The averaging factors up to a third of the record *)
Lemma tau_generator_mx {A} {NA : Num A} (x : list A) rate taus even mx mx' :
  neqb mx (ofZ (-1)) = false -> neqb mx' (ofZ (-1)) = false ->
  (forall m, (0 < m < Z.of_nat (len x))%Z -> nleb (ofZ m) mx = nleb (ofZ m) mx') ->
  tau_generator x rate taus even mx = tau_generator x rate taus even mx'.
Proof.
  intros E1 E2 H. unfold tau_generator. destruct (neqb rate (ofZ 0)); [reflexivity|]. destruct (expand_taus (len x) rate taus) as [ts|]; [|reflexivity].
  cbn [bind]. rewrite E1, E2.
  assert (S : select_m (len x) rate mx ts = select_m (len x) rate mx' ts).
  { unfold select_m. f_equal. apply flat_map_ext. intro t. destruct (nrint (nmul t rate)) as [m|]; [|reflexivity].
    destruct (Z.ltb_spec m (Z.of_nat (len x))); [|reflexivity]. destruct (Z.ltb_spec 0 m); [|reflexivity]. now rewrite H by lia. }
  now rewrite S.
Qed.
Lemma third_le m N : (3 * m <= N)%Z <-> (m <= N / 3)%Z.
Proof. split; intro H; [apply Z.div_le_lower_bound; lia|]. pose proof (Z.mul_div_le N 3 ltac:(lia)). lia. Qed.
Lemma third_F (x : list float) rate taus even : (Z.of_nat (len x) <= 2 ^ 40)%Z ->
  tau_generator x rate taus even (third_len (len x)) = tau_generator x rate taus even (ofZ (Z.of_nat (len x) / 3)).
Proof.
  intro Hn. set (N := Z.of_nat (len x)) in *. pose proof (Z.div_pos N 3 ltac:(lia) ltac:(lia)) as D0. assert (D1 : (N / 3 <= N)%Z) by (apply Z.div_le_upper_bound; lia).
  destruct (fofZ_ok N ltac:(lia)) as [FN VN]. destruct (fofZ_ok 3 ltac:(lia)) as [F3 V3]. destruct (fofZ_ok (-1) ltac:(lia)) as [F1 V1].
  destruct (fofZ_ok (N / 3) ltac:(lia)) as [FD VD].
  assert (N0 : 0 <= IZR N <= 1099511627776) by (split; apply IZR_le; lia).
  assert (B : 1099511627776 <= bpow radix2 1000) by (change 1099511627776 with (bpow radix2 40); apply bpow_le; lia).
  pose proof u64_pos as Pu. pose proof eta_pos as Pe.
  assert (Ee : eta <= / 4096). { replace (/ 4096) with (bpow radix2 (-12)) by (cbn; lra). apply bpow_le. lia. }
  assert (Pq : 0 <= IZR N / 3) by lra.
  destruct (fdiv_err (f_ofZ N) (f_ofZ 3) FN) as [FT ET]; [rewrite V3; lra|rewrite VN, V3, Rabs_pos_eq; lra|]. rewrite VN, V3, Rabs_pos_eq with (x := IZR N / 3) in ET by exact Pq.
  assert (VT : fR (f_ofZ N / f_ofZ 3)%float = rnd (IZR N / 3)).
  { destruct (fdiv_ok (f_ofZ N) (f_ofZ 3) FN) as [_ V]; [rewrite V3; lra| |rewrite V, VN, V3; reflexivity].
    rewrite VN, V3. apply rnd_bound. rewrite Rabs_pos_eq; lra. }
  assert (P0 : 0 <= fR (f_ofZ N / f_ofZ 3)%float) by (rewrite VT; rewrite <- (rnd_int 0) by lia; apply rnd_mono; exact Pq).
  apply tau_generator_mx; unfold third_len, ofN; fold N; cbn [neqb ndiv ofZ FNum].
  - rewrite feqb_ok by assumption. apply Req_bool_false. rewrite V1. lra.
  - rewrite feqb_ok by assumption. apply Req_bool_false. rewrite VD, V1. assert (0 <= IZR (N / 3)) by (now apply IZR_le). lra.
  - intros m Hm. cbn [nleb FNum]. destruct (fofZ_ok m ltac:(lia)) as [Fm Vm]. rewrite !fleb_ok by assumption. rewrite Vm, VD.
    destruct (Z.le_gt_cases m (N / 3)) as [L|L].
    + rewrite (Rle_bool_true (IZR m) (IZR (N / 3))) by (now apply IZR_le). apply Rle_bool_true. rewrite VT, <- (rnd_int m) by lia. apply rnd_mono.
      apply third_le in L. apply IZR_le in L. rewrite mult_IZR in L. lra.
    + rewrite (Rle_bool_false (IZR m) (IZR (N / 3))) by (now apply IZR_lt). apply Rle_bool_false.
      assert (L' : (N + 1 <= 3 * m)%Z) by (pose proof (third_le m N); lia). apply IZR_le in L'. rewrite plus_IZR, mult_IZR in L'.
      apply Rabs_le_inv in ET. assert (u64 * (IZR N / 3) <= / 8192 * / 3).
      { apply Rle_trans with (u64 * (1099511627776 / 3)); [apply Rmult_le_compat_l; lra|]. unfold u64. lra. }
      lra.
Qed.
Lemma third_R (x : list R) rate taus even :
  tau_generator x rate taus even (third_len (len x)) = tau_generator x rate taus even (ofZ (Z.of_nat (len x) / 3)).
Proof.
  set (N := Z.of_nat (len x)). pose proof (Z.div_pos N 3 ltac:(lia) ltac:(lia)) as D0. apply IZR_le in D0.
  assert (N0 : 0 <= IZR N) by (apply IZR_le; lia).
  apply tau_generator_mx; unfold third_len, ofN; fold N; cbn [neqb ndiv ofZ RNum].
  - apply Reqb_false. lra.
  - apply Reqb_false. lra.
  - intros m Hm. cbn [nleb RNum]. destruct (Z.le_gt_cases m (N / 3)) as [L|L].
    + rewrite (proj2 (Rleb_true (IZR m) (IZR (N / 3)))) by (now apply IZR_le). apply Rleb_true.
      apply third_le in L. apply IZR_le in L. rewrite mult_IZR in L. lra.
    + transitivity false; [|symmetry]; apply not_true_is_false; intro Q; apply Rleb_true in Q.
      * assert (L' : (N < 3 * m)%Z) by (pose proof (third_le m N); lia). apply IZR_lt in L'. rewrite mult_IZR in L'. lra.
      * apply le_IZR in Q. lia.
Qed.
Lemma same_factors3 (x : list float) (y : list R) rate tF tR : (1 <= len x)%nat -> (Z.of_nat (len x) <= 2 ^ 40)%Z -> len y = len x ->
  moderate_rate rate -> same_request rate tF tR ->
  exists ms, tau_generator x rate tF false (third_len (len x)) = Ok (x, ms, map (fun m => f_ofZ m / rate)%float ms) /\
    tau_generator y (fR rate) tR false (third_len (len y)) = Ok (y, ms, map (fun m => IZR m / fR rate) ms) /\
    forall m, In m ms -> (1 <= m)%Z /\ (3 * m <= Z.of_nat (len x))%Z.
Proof.
  intros H1 Hn Hl Hr Hs. apply moderate_safe in Hr. rewrite third_F by exact Hn. rewrite third_R, Hl. set (T := (Z.of_nat (len x) / 3)%Z).
  assert (T0 : (0 <= T)%Z) by (apply Z.div_pos; lia). assert (T1 : (T <= Z.of_nat (len x))%Z) by (apply Z.div_le_upper_bound; lia).
  assert (G : exists ms, tau_generator x rate tF false (ofZ T) = Ok (x, ms, map (fun m => f_ofZ m / rate)%float ms) /\
    tau_generator y (fR rate) tR false (IZR T) = Ok (y, ms, map (fun m => IZR m / fR rate) ms)).
  { destruct Hs as [(s & Hs & HF & HR)|(l & -> & -> & Hl')].
    - destruct (C80_keywords x y rate tF tR s false T) as (ms & G1 & G2 & _); auto; try lia. exists ms. auto.
    - destruct (C80_explicit x y rate l false T) as (ms & G1 & G2 & _); auto; try lia. exists ms. auto. }
  destruct G as (ms & G1 & G2). exists ms. split; [exact G1|]. split; [exact G2|].
  intros m Hm. unfold tau_generator in G2. destruct (neqb (fR rate) (ofZ 0)); [discriminate|].
  destruct (expand_taus (len y) (fR rate) tR) as [ts|]; cbn [bind] in G2; [|discriminate].
  injection G2 as E _. rewrite <- E in Hm. apply select_m_In_gen in Hm as (_ & Hb & Hm). split; [lia|].
  cbn [neqb ofZ RNum nleb] in Hm. rewrite (proj2 (Reqb_false (IZR T) (-1))) in Hm by (assert (0 <= IZR T) by (now apply IZR_le); lra).
  apply Rleb_true, le_IZR in Hm. now apply third_le.
Qed.

(** ** Rows *)
Lemma tot_form_m n m (y : nat -> nat -> R) K : (1 <= m)%nat -> (1 <= n)%nat -> K <> 0 ->
  bigsum n (fun i => / (6 * INR m) * bigsum (6 * m) (fun j => wval (reflect9 (fun k => y i k - half_slope (y i) m * INR k) m) m j ^ 2)) / (2 * (K * K) * INR n)
  = / (2 * K ^ 2 * INR n) * bigsum n (fun i => tot_term (y i) m).
Proof.
  intros Hm Hn HK. replace (2 * K ^ 2 * INR n) with (2 * (K * K) * INR n) by ring. unfold Rdiv at 1. rewrite Rmult_comm. reflexivity.
Qed.
Lemma wval_shift z c m j : (1 <= m)%nat -> wval (fun k => z k + c) m j = wval z m j.
Proof.
  intro Hm. unfold wval. rewrite !wsum_const. f_equal. ring.
Qed.
Lemma wval_ext z z' m j : (forall k, z k = z' k) -> wval z m j = wval z' m j.
Proof. intro H. unfold wval. now rewrite !(wsum_ext z z') by exact H. Qed.
Lemma tot_form_h n m (y : nat -> nat -> R) : (1 <= m)%nat -> (1 <= n)%nat ->
  bigsum n (fun i => / (36 * INR m) * bigsum (6 * m) (fun j =>
     wval (reflect9 (fun k => y i k - half_slope (y i) m * (INR k - INR (Nat.div2 (3 * m)))) m) m j ^ 2)) / (1 * INR n)
  = / (6 * INR n) * bigsum n (fun i => tot_term (y i) m).
Proof.
  intros Hm Hn. assert (INR m <> 0) by (apply not_0_INR; lia). assert (INR n <> 0) by (apply not_0_INR; lia).
  replace (/ (6 * INR n) * bigsum n (fun i => tot_term (y i) m)) with (bigsum n (fun i => / 6 * tot_term (y i) m) / (1 * INR n)) by (rewrite bigsum_scal; field; assumption).
  f_equal. apply bigsum_ext. intros i _. unfold tot_term. rewrite <- Rmult_assoc.
  replace (/ 6 * / (6 * INR m)) with (/ (36 * INR m)) by (field; assumption). f_equal.
  apply bigsum_ext. intros j _. f_equal. fold (wval (reflect9 (fun k => y i k - half_slope (y i) m * INR k) m) m j).
  transitivity (wval (fun k => reflect9 (fun k => y i k - half_slope (y i) m * INR k) m k + half_slope (y i) m * INR (Nat.div2 (3 * m))) m j);
    [|now apply wval_shift]. apply wval_ext. intro k. cbv beta. rewrite <- reflect9_const.
  unfold reflect9. destruct (k <? 3 * m)%nat, (k <? 6 * m)%nat; ring.
Qed.

Lemma p2f_gen {A} {NA : Num A} n (h : nat -> A) rt : phase2frequency (tab n h) rt = tab (n - 1) (fun i => nmul rt (nsub (h (S i)) (h i))).
Proof.
  unfold phase2frequency, diff, scal. rewrite tl_tab. destruct n as [|n]; [reflexivity|]. rewrite (tab_snoc n h). replace (S n - 1)%nat with n by lia.
  rewrite map2_tab_app. apply map_tab.
Qed.

Section Rows.
Variables (x : list float) (M : R) (rate : float).
Hypothesis Hx : bounded_record x M.
Hypothesis Hlen : (Z.of_nat (len x) <= 2 ^ 39)%Z.
Hypothesis HM : bpow radix2 (-200) <= M <= bpow radix2 200.
Hypothesis Hr : moderate_rate rate.
Let X := map fR x.
Let f i := nth i x 0%float.

Lemma mtot_exact m : (1 <= m)%nat -> (3 * m <= len x)%nat ->
  let n := (len x - 3 * m + 1)%nat in let K := INR m / fR rate in let y i k := fR (f (i + k)%nat) in
  bigsum n (fun i => / (6 * INR m) * bigsum (6 * m) (fun j => wval (reflect9 (fun k => y i k - half_slope (y i) m * INR k) m) m j ^ 2)) / (2 * (K * K) * INR n)
  = mtotvar X (1 / fR rate) m.
Proof using Hx Hr.
  intros Hm H3 n K y. pose proof (rate_pos rate Hr) as Pr. assert (Hn : (1 <= n)%nat) by (unfold n; lia).
  assert (I : INR m <> 0) by (apply not_0_INR; lia).
  rewrite tot_form_m; [|exact Hm|exact Hn|unfold K, Rdiv; apply Rmult_integral_contrapositive_currified; [exact I|apply Rinv_neq_0_compat; lra]].
  unfold mtotvar. rewrite (mdev_n_nat X m) by (unfold X; rewrite map_length; exact H3). unfold X. rewrite map_length. fold n. rewrite Nat2Z.id, <- INR_IZR_INZ.
  replace (INR m * (1 / fR rate)) with K by (unfold K; field; lra). f_equal. apply bigsum_ext. intros i _. apply tot_term_ext. intros k _.
  unfold y, f. symmetry. apply (val_map x M rate Hx Hr).
Qed.

Lemma mtotdev_rows m : (1 <= m)%Z -> (3 * m <= Z.of_nat (len x))%Z ->
  twin (calc_mtotdev_phase x rate) (calc_mtotdev_phase X (fR rate)) m (fun r =>
    close_by (fun r => IZR (r_n r + 6 * r_m r + 14)) (fun r => (206 * IZR (r_m r) + 130) * (u64 * M * (fR rate / IZR (r_m r)))) r /\
    close_by (fun r => IZR (r_n r + 6 * r_m r + 20)) (fun r => (124 * IZR (r_m r) + 80) * (u64 * M)) (trow rate r)).
Proof using All.
  intros H1 H3. destruct (rec_tab x M Hx) as (HN & HMM & Et & EtR & Hf). fold f in Et, EtR, Hf. set (k := Z.to_nat m). set (N := len x) in *.
  assert (Hk : (1 <= k)%nat) by lia. assert (H3k : (3 * k <= N)%nat) by lia. pose proof (rate_pos rate Hr) as Pr.
  pose proof (calc_mtot_gen N f rate k Hk H3k) as E. cbv zeta in E. rewrite <- Et in E.
  pose proof (calc_mtotdev_spec X (fR rate) k Pr Hk) as E'. unfold X in E'. rewrite map_length in E'. specialize (E' H3k). cbv zeta in E'.
  rewrite mdev_n_nat in E' by (now rewrite map_length). rewrite map_length in E'. fold N X in E'.
  set (n := (N - 3 * k + 1)%nat) in *.
  eexists (Row m _ _ _ _ _). cbn [r_m r_n r_dF r_eF r_dR r_eR]. split; [reflexivity|]. split; [exact E|]. split; [exact E'|]. intros _.
  assert (Kk : IZR m = INR k) by (rewrite INR_IZR_INZ; f_equal; lia). assert (Zk : m = Z.of_nat k) by lia.
  set (y := fun i : nat => fun j => f (i + j)%nat).
  set (tau0 := (f_ofZ 1 / rate)%float). set (g := mrow f k tau0).
  pose proof (mtot_exact k Hk H3k) as EX. cbv zeta in EX. fold N n in EX.
  assert (D0 : 0 <= R_sqrt.sqrt (mtotvar X (1 / fR rate) k)) by apply sqrt_pos.
  assert (Ik : 1 <= INR k) by (change 1 with (INR 1); now apply le_INR).
  split.
  - apply near_close with (n + 6 * k + 14)%nat; cbn [r_m r_n r_dF r_eF r_dR r_eR]; [|unfold n; lia|rewrite INR_IZR_INZ; apply IZR_le; lia|exact D0].
    rewrite Kk. eapply near_weaken; [|apply Req_le; instantiate (1 := (206 * INR k + 130) * (u64 * M) / (INR k / fR rate)); field; lra].
    rewrite <- EX. eapply proj1. apply (mrow_ok N k f M rate (fun i => lsum k (y i)) (fun i => usum k (y i)) (fun i => wsum0 (g i) k 0) (fun i => wsum0 (g i) k k) (fun i => wsum0 (g i) k (2 * k))
     (fun i => asum (tab (6 * k) (fun j => nsq (win_of (g i) k j)))) _ Hlen Hk H3k HM Hf Hr
     (fun i _ => sum_left _) (fun i _ => sum_left _) (fun i _ => sum_left _) (fun i _ => sum_left _) (fun i _ => sum_left _) (fun i _ => sum_left _) (sum_left _)).
  - apply near_close with (n + 6 * k + 20)%nat; unfold trow; cbn [r_m r_n r_dF r_eF r_dR r_eR]; [|unfold n; lia|rewrite INR_IZR_INZ; apply IZR_le; lia|].
    + rewrite Kk, <- EX. rewrite Zk.
      apply (trow_ok N k f M rate (fun i => lsum k (y i)) (fun i => usum k (y i)) (fun i => wsum0 (g i) k 0) (fun i => wsum0 (g i) k k) (fun i => wsum0 (g i) k (2 * k))
     (fun i => asum (tab (6 * k) (fun j => nsq (win_of (g i) k j)))) _ Hlen Hk H3k HM Hf Hr
     (fun i _ => sum_left _) (fun i _ => sum_left _) (fun i _ => sum_left _) (fun i _ => sum_left _) (fun i _ => sum_left _) (fun i _ => sum_left _) (sum_left _)).
    + rewrite Kk. unfold Rdiv. assert (0 < / fR rate) by (now apply Rinv_0_lt_compat). assert (0 < R_sqrt.sqrt 3) by (apply sqrt_lt_R0; lra).
      assert (0 < / R_sqrt.sqrt 3) by (now apply Rinv_0_lt_compat). repeat apply Rmult_le_pos; lra.
Qed.

(** frequencies of a phase record in binary64 *)
Definition freqF (i : nat) : float := (rate * (f (S i) - f i))%float.
Definition freqR (i : nat) : R := fR rate * (fR (f (S i)) - fR (f i)).
Lemma freq_ok i : (S i < len x)%nat ->
  ffin (freqF i) /\ Rabs (fR (freqF i) - freqR i) <= 21 / 10 * (u64 * (2 * M * fR rate)) /\ Rabs (freqR i) <= 2 * M * fR rate.
Proof using All.
  intro Hi. destruct (rec_tab x M Hx) as (HN & HMM & _ & _ & Hf). change (forall i, (i < len x)%nat -> ffin (f i) /\ Rabs (fR (f i)) <= M) in Hf. destruct (Hf (S i) Hi) as [F1 L1]. destruct (Hf i ltac:(lia)) as [F0 L0].
  pose proof (rate_pos rate Hr) as Pr. destruct Hr as [Fr [Lr Ur]]. pose proof u64_pos as Pu. assert (Uq : u64 <= / 4096 * / 4096) by (unfold u64; lra).
  pose proof (bpow_gt_0 radix2 (-200)) as P2. unfold freqF, freqR. set (D := fR (f (S i)) - fR (f i)).
  assert (LD : Rabs D <= 2 * M) by (unfold D; apply Rabs_le_inv in L1, L0; apply Rabs_le; lra).
  assert (B1 : 4 * M <= bpow radix2 210) by (apply Rle_trans with (bpow radix2 2 * bpow radix2 200); [change (bpow radix2 2) with 4; lra|]; rewrite <- bpow_plus; apply bpow_le; lia).
  assert (B2 : bpow radix2 210 <= bpow radix2 1000) by (apply bpow_le; lia).
  destruct (fsub_err (f (S i)) (f i) F1 F0 ltac:(fold D; lra)) as [F2 E2]. fold D in E2. set (t := (f (S i) - f i)%float) in *.
  assert (E2' : Rabs (fR t - D) <= 2 * (u64 * M)) by (eapply Rle_trans; [exact E2|]; replace (2 * (u64 * M)) with (u64 * (2 * M)) by ring; apply Rmult_le_compat_l; lra).
  assert (UM : u64 * M <= / 4096 * M) by (apply Rmult_le_compat_r; lra).
  assert (Lt : Rabs (fR t) <= (2 + / 1000) * M) by (apply Rabs_le_inv in E2', LD; apply Rabs_le; lra).
  assert (B3 : Rabs (fR rate * fR t) <= bpow radix2 310).
  { change 310%Z with (100 + 210)%Z. rewrite bpow_plus. apply abs_mul_le; [rewrite Rabs_pos_eq; lra|lra]. }
  assert (B4 : bpow radix2 310 <= bpow radix2 1000) by (apply bpow_le; lia).
  destruct (fmul_err rate t Fr F2 ltac:(lra)) as [F3 E3].
  assert (E4 : Rabs (fR rate * fR t - fR rate * D) <= fR rate * (2 * (u64 * M))).
  { replace (fR rate * fR t - fR rate * D) with (fR rate * (fR t - D)) by ring. rewrite Rabs_mult, (Rabs_pos_eq (fR rate)) by lra. apply Rmult_le_compat_l; lra. }
  assert (L4 : Rabs (fR rate * fR t) <= fR rate * ((2 + / 1000) * M)) by (rewrite Rabs_mult, (Rabs_pos_eq (fR rate)) by lra; apply Rmult_le_compat_l; lra).
  assert (Ee : eta <= / 4096 * (u64 * (M * fR rate))).
  { destruct bpow_nums as (_ & _ & Bu). rewrite <- Bu. apply Rle_trans with (bpow radix2 (-12) * (bpow radix2 (-53) * (bpow radix2 (-200) * bpow radix2 (-100)))).
    + unfold eta. rewrite <- !bpow_plus. apply bpow_le. lia.
    + replace (/ 4096) with (bpow radix2 (-12)) by (cbn; lra). apply Rmult_le_compat_l; [apply bpow_ge_0|]. apply Rmult_le_compat_l; [apply bpow_ge_0|].
      apply Rmult_le_compat; try apply bpow_ge_0; lra. }
  assert (E5 : u64 * Rabs (fR rate * fR t) <= u64 * (fR rate * ((2 + / 1000) * M))) by (apply Rmult_le_compat_l; lra).
  assert (PU : 0 < u64 * (M * fR rate)) by (apply Rmult_lt_0_compat; [lra|]; apply Rmult_lt_0_compat; lra).
  split; [exact F3|]. split.
  - apply Rabs_le_inv in E3, E4. apply Rabs_le. replace (u64 * (2 * M * fR rate)) with (2 * (u64 * (M * fR rate))) by ring.
    replace (fR rate * (2 * (u64 * M))) with (2 * (u64 * (M * fR rate))) in E4 by ring.
    replace (u64 * (fR rate * ((2 + / 1000) * M))) with ((2 + / 1000) * (u64 * (M * fR rate))) in E5 by ring. lra.
  - rewrite Rabs_mult, (Rabs_pos_eq (fR rate)), Rmult_comm by lra. apply Rmult_le_compat_r; lra.
Qed.

Lemma htotdev_rows m : (1 <= m)%Z -> (3 * m <= Z.of_nat (len x - 1))%Z ->
  twin (fun mj => if Nat.eqb mj 1 then calc_hdev_phase x rate mj 1 else calc_htotdev_freq (phase2frequency x rate) mj)
       (fun mj => if Nat.eqb mj 1 then calc_hdev_phase X (fR rate) mj 1 else calc_htotdev_freq (phase2frequency X (fR rate)) mj) m
    (close_by (fun r => IZR (r_n r + 6 * r_m r + 14)) (fun r => (142 * IZR (r_m r) + 90) * (u64 * M * fR rate))).
Proof using All.
  intros H1 H3. destruct (rec_tab x M Hx) as (HN & HMM & Et & EtR & Hf). fold f in Et, EtR, Hf. set (k := Z.to_nat m).
  pose proof (rate_pos rate Hr) as Pr. pose proof u64_pos as Pu. assert (PM : 0 < M) by (pose proof (bpow_gt_0 radix2 (-200)); lra).
  assert (PU : 0 < u64 * M * fR rate) by (repeat apply Rmult_lt_0_compat; lra).
  destruct (Nat.eqb_spec k 1) as [Ek|Ek].
  - assert (Em : m = 1%Z) by lia. destruct (hdev_rows x rate M (fun _ => 1%nat) Hx Hr ltac:(auto) m ltac:(lia)) as (r & Er & EF & ER & HA).
    exists r. fold k. fold k in EF, ER. rewrite (proj2 (Nat.eqb_eq k 1)) by exact Ek. split; [exact Er|]. split; [exact EF|]. split; [exact ER|]. intro Hn. destruct (HA Hn) as (F & P & B).
    assert (D0 : 0 <= r_dR r).
    { rewrite Ek in ER. rewrite (calc_ohdev_spec (map fR x) (fR rate) 1 Pr) in ER; [|lia|unfold ohdev_n; rewrite map_length; lia]. injection ER as <- _ _. apply sqrt_pos. }
    split; [exact F|]. split; [exact P|]. eapply Rle_trans; [exact B|]. rewrite Er, Em. apply Rplus_le_compat.
    + apply Rmult_le_compat_r; [exact D0|]. apply Rmult_le_compat_l; [lra|]. apply Rmult_le_compat_r; [lra|]. apply IZR_le. lia.
    + replace (29 * u64 * M * (fR rate / 1)) with (29 * (u64 * M * fR rate)) by field. lra.
  - set (N := (len x - 1)%nat) in *. assert (Hk : (1 <= k)%nat) by lia. assert (H3k : (3 * k <= N)%nat) by lia.
    assert (PF : phase2frequency x rate = tab N freqF).
    { replace (phase2frequency x rate) with (phase2frequency (tab (len x) f) rate) by (now rewrite <- Et). exact (@p2f_gen float FNum (len x) f rate). }
    assert (PR : phase2frequency X (fR rate) = tab N freqR).
    { unfold X. rewrite EtR. exact (@p2f_gen R RNum (len x) (fun i => fR (f i)) (fR rate)). }
    pose proof (calc_htot_gen N freqF k Hk H3k) as E. cbv zeta in E. rewrite <- PF in E.
    pose proof (calc_htotdev_spec (tab N freqR) k Hk) as E'. rewrite tab_length in E'. specialize (E' H3k). cbv zeta in E'. rewrite <- PR in E'.
    rewrite mdev_n_nat in E' by (rewrite PR, tab_length; exact H3k). rewrite PR, tab_length in E'. rewrite <- PR in E'.
    set (n := (N - 3 * k + 1)%nat) in *.
    eexists (Row m _ _ _ _ _). cbn [r_m r_n r_dF r_eF r_dR r_eR]. fold k. rewrite (proj2 (Nat.eqb_neq k 1)) by exact Ek.
    split; [reflexivity|]. split; [exact E|]. split; [exact E'|]. intros _.
    assert (Kk : IZR m = INR k) by (rewrite INR_IZR_INZ; f_equal; lia).
    apply near_close with (n + 6 * k + 14)%nat; cbn [r_m r_n r_dF r_eF r_dR r_eR]; [|unfold n; lia|rewrite INR_IZR_INZ; apply IZR_le; lia|apply sqrt_pos].
    set (F := 2 * M * fR rate).
    rewrite Kk. eapply near_weaken; [|apply Req_le; instantiate (1 := (71 * INR k + 45) * (u64 * F)); unfold F; ring].
    assert (HF : bpow radix2 (-310) <= F <= bpow radix2 310).
    { unfold F. destruct Hr as [_ [Lr Ur]]. pose proof (bpow_gt_0 radix2 (-200)). pose proof (bpow_gt_0 radix2 (-100)). split.
      - apply Rle_trans with (bpow radix2 1 * bpow radix2 (-200) * bpow radix2 (-100)); [rewrite <- !bpow_plus; apply bpow_le; lia|]. change (bpow radix2 1) with 2.
        apply Rmult_le_compat; lra.
      - apply Rle_trans with (bpow radix2 1 * bpow radix2 200 * bpow radix2 100); [|rewrite <- !bpow_plus; apply bpow_le; lia]. change (bpow radix2 1) with 2.
        apply Rmult_le_compat; lra. }
    assert (EX : bigsum n (fun i => / (36 * INR k) * bigsum (6 * k) (fun j =>
        wval (reflect9 (fun k0 => freqR (i + k0) - half_slope (fun k0 => freqR (i + k0)%nat) k * (INR k0 - INR (Nat.div2 (3 * k)))) k) k j ^ 2)) / (1 * INR n)
        = htotvar_freq (phase2frequency X (fR rate)) k).
    { rewrite (tot_form_h n k (fun i k0 => freqR (i + k0)%nat)) by (unfold n; lia). unfold htotvar_freq.
      rewrite mdev_n_nat by (rewrite PR, tab_length; exact H3k). rewrite PR, tab_length. fold n. rewrite Nat2Z.id, <- INR_IZR_INZ. f_equal.
      apply bigsum_ext. intros i Hi. apply tot_term_ext. intros j Hj. rewrite nth_tab by (unfold n in Hi; lia). reflexivity. }
    rewrite <- EX. set (g := hrow freqF k).
    apply (hrow_ok N k freqF freqR F (fun i => lsum k (fun j => freqF (i + j)%nat)) (fun i => usum k (fun j => freqF (i + j)%nat))
      (fun i => wsum0 (g i) k 0) (fun i => wsum0 (g i) k k) (fun i => wsum0 (g i) k (2 * k)) (fun i => asum (tab (6 * k) (fun j => nsq (win_of (g i) k j)))) _
      ltac:(lia) Hk H3k HF (fun i Hi => freq_ok i ltac:(lia))
      (fun i _ => sum_left _) (fun i _ => sum_left _) (fun i _ => sum_left _) (fun i _ => sum_left _) (fun i _ => sum_left _) (fun i _ => sum_left _) (sum_left _)).
Qed.
End Rows.

Theorem C108_accuracy x rate M tF tR : bounded_record x M -> (2 <= Z.of_nat (len x) <= 2 ^ 39)%Z -> bpow radix2 (-200) <= M <= bpow radix2 200 ->
  moderate_rate rate -> same_request rate tF tR ->
  agree_by rate (fun r => IZR (r_n r + 6 * r_m r + 14)) (fun r => (206 * IZR (r_m r) + 130) * (u64 * M * (fR rate / IZR (r_m r))))
    (mtotdev x rate "phase" tF) (mtotdev (map fR x) (fR rate) "phase" tR) /\
  agree_by rate (fun r => IZR (r_n r + 6 * r_m r + 20)) (fun r => (124 * IZR (r_m r) + 80) * (u64 * M))
    (ttotdev x rate "phase" tF) (ttotdev (map fR x) (fR rate) "phase" tR) /\
  agree_by rate (fun r => IZR (r_n r + 6 * r_m r + 14)) (fun r => (142 * IZR (r_m r) + 90) * (u64 * M * fR rate))
    (htotdev x rate "phase" tF) (htotdev (map fR x) (fR rate) "phase" tR).
Proof.
  intros Hx Hl HM Hr Hs.
  destruct (same_factors3 x (map fR x) rate tF tR ltac:(lia) ltac:(lia) (map_length _ _) Hr Hs) as (ms & G1 & G2 & Hb).
  assert (LF : len (phase2frequency x rate) = (len x - 1)%nat).
  { unfold phase2frequency, scal. rewrite map_length. apply diff_len. }
  assert (LR : len (phase2frequency (map fR x) (fR rate)) = len (phase2frequency x rate)).
  { rewrite phase2frequency_R, freq_of_length, map_length, LF. reflexivity. }
  destruct (same_factors3 (phase2frequency x rate) (phase2frequency (map fR x) (fR rate)) rate tF tR ltac:(lia) ltac:(lia) LR Hr Hs) as (ms' & G1' & G2' & Hb').
  assert (MT := run_rows_par (calc_mtotdev_phase x rate) (calc_mtotdev_phase (map fR x) (fR rate)) rate _ ms
    (fun m Hm => mtotdev_rows x M rate Hx ltac:(lia) HM Hr m (proj1 (Hb m Hm)) (proj2 (Hb m Hm)))).
  assert (HT := run_rows_par _ _ rate _ ms' (fun m Hm => htotdev_rows x M rate Hx ltac:(lia) HM Hr m (proj1 (Hb' m Hm)) ltac:(rewrite <- LF; exact (proj2 (Hb' m Hm))))).
  cbv beta in MT, HT.
  unfold ttotdev, mtotdev, htotdev, input_to_phase. cbn [String.eqb Ascii.eqb Bool.eqb bind].
  rewrite G1, G2, G1', G2'. cbn [bind].
  split; [|split].
  - destruct MT as [[E1 E2]|(rows & E1 & E2 & E3 & E4 & _)]; [left; auto|]. right. exists rows. split; [exact E1|]. split; [exact E2|]. split; [exact E3|].
    eapply Forall_impl; [|exact E4]. intros r H. apply H.
  - destruct MT as [[E1 E2]|(rows & E1 & E2 & E3 & E4 & _)]; [left; rewrite E1, E2; auto|]. right. exists (map (trow rate) rows).
    rewrite E1, E2. cbn [bind]. destruct (scale_tables rate rows) as [S1 S2]. split; [exact S1|]. split; [exact S2|].
    split; [destruct rows; [contradiction|discriminate]|]. apply Forall_map. eapply Forall_impl; [|exact E4]. intros r H. apply H.
  - destruct HT as [[E1 E2]|(rows & E1 & E2 & E3 & E4 & _)]; [left; auto|]. right. exists rows. auto.
Qed.
Print Assumptions C108_accuracy.

(** One row with every sum added up in any order (numpy.sum and numpy.mean work pairwise). *)
Theorem C108_any_order x rate M m (a b s1 s2 s3 q : nat -> float) (s : float) :
  bounded_record x M -> (Z.of_nat (len x) <= 2 ^ 39)%Z -> bpow radix2 (-200) <= M <= bpow radix2 200 -> moderate_rate rate -> (1 <= m)%nat ->
  let within j b dev exact := ffin dev /\ 0 <= fR dev /\ Rabs (fR dev - exact) <= (1 + / 1000) * (INR j * u64) * exact + b in
  let h := Nat.div2 (3 * m) in
  let sums N (y : nat -> float) (z : nat -> nat -> float) pre :=
    let n := (N - 3 * m + 1)%nat in
    (forall i, (i < n)%nat ->
      sum_of (tab h (fun k => y (i + k)%nat)) (a i) /\ sum_of (tab h (fun k => y (i + (3 * m - h + k))%nat)) (b i) /\
      sum_of (tab m (z i)) (s1 i) /\ sum_of (tab m (fun k => z i (m + k)%nat)) (s2 i) /\ sum_of (tab m (fun k => z i (2 * m + k)%nat)) (s3 i) /\
      sum_of (tab (6 * m) (fun j => nsq (win (s1 i) (s2 i) (s3 i) (z i) m j))) (q i)) /\
    sum_of (tab n (fun i => pre * q i)%float) s in
  (let N := len x in let n := (N - 3 * m + 1)%nat in let f i := nth i x 0%float in let tau0 := (f_ofZ 1 / rate)%float in
   (3 * m <= N)%nat ->
   sums N f (fun i => refl9 (mdet m (a i) (b i) tau0 (fun k => f (i + k)%nat)) m) (f_ofZ 1 / (f_ofZ 6 * f_ofZ (Z.of_nat m)))%float ->
   within (n + 6 * m + 14)%nat ((206 * INR m + 130) * (u64 * M * (fR rate / INR m)))
     (fsqrt (s * f_ofZ 1 / (f_ofZ 2 * nsq (f_ofZ (Z.of_nat m) * tau0) * f_ofZ (Z.of_nat n))))%float (R_sqrt.sqrt (mtotvar (map fR x) (1 / fR rate) m))) /\
  (let N := (len x - 1)%nat in let n := (N - 3 * m + 1)%nat in let f i := (rate * (nth (S i) x 0 - nth i x 0))%float in
   (3 * m <= N)%nat ->
   sums N f (fun i => refl9 (hdet m (a i) (b i) (fun k => f (i + k)%nat)) m) (f_ofZ 1 / (f_ofZ 6 * f_ofZ (Z.of_nat (6 * m))))%float ->
   within (n + 6 * m + 14)%nat ((142 * INR m + 90) * (u64 * M * fR rate))
     (fsqrt (s * f_ofZ 1 / f_ofZ (Z.of_nat n)))%float (R_sqrt.sqrt (htotvar_freq (freq_of (map fR x) (fR rate)) m))).
Proof.
  intros Hx Hl HM Hr Hm within h sums. destruct (rec_tab x M Hx) as (_ & _ & Et & EtR & Hf). pose proof (rate_pos rate Hr) as Pr.
  assert (Ik : 1 <= INR m) by (change 1 with (INR 1); now apply le_INR).
  assert (W : forall dev exact j b b', near dev exact j b' -> (Z.of_nat j <= 2 ^ 42)%Z -> 0 <= exact -> b' = b -> within j b dev exact).
  { intros dev exact j b0 b' (F & P & E) Hj He <-. split; [exact F|]. split; [exact P|]. eapply Rle_trans; [exact E|].
    apply Rplus_le_compat_r, Rmult_le_compat_r; [exact He|]. apply pow_u_le, Hj. }
  split.
  - intros N n f tau0 H3 [HA HS]. rewrite <- (mtot_exact x M rate Hx Hr m Hm H3).
    eapply W; [apply (mrow_ok N m f M rate a b s1 s2 s3 q s Hl Hm H3 HM Hf Hr)|unfold n, N; lia|apply sqrt_pos|field; lra]; try (intros i Hi; apply (HA i Hi)). exact HS.
  - intros N n f H3 [HA HS]. set (F := 2 * M * fR rate).
    assert (HF : bpow radix2 (-310) <= F <= bpow radix2 310).
    { unfold F. destruct Hr as [_ [Lr Ur]]. pose proof (bpow_gt_0 radix2 (-200)). pose proof (bpow_gt_0 radix2 (-100)). split.
      - apply Rle_trans with (bpow radix2 1 * bpow radix2 (-200) * bpow radix2 (-100)); [rewrite <- !bpow_plus; apply bpow_le; lia|]. change (bpow radix2 1) with 2.
        apply Rmult_le_compat; lra.
      - apply Rle_trans with (bpow radix2 1 * bpow radix2 200 * bpow radix2 100); [|rewrite <- !bpow_plus; apply bpow_le; lia]. change (bpow radix2 1) with 2.
        apply Rmult_le_compat; lra. }
    set (fr := freqR x rate).
    assert (EX : bigsum n (fun i => / (36 * INR m) * bigsum (6 * m) (fun j =>
        wval (reflect9 (fun k0 => fr (i + k0)%nat - half_slope (fun k0 => fr (i + k0)%nat) m * (INR k0 - INR h)) m) m j ^ 2)) / (1 * INR n)
        = htotvar_freq (freq_of (map fR x) (fR rate)) m).
    { unfold h. rewrite (tot_form_h n m (fun i k0 => fr (i + k0)%nat)) by (unfold n; lia).
      assert (PR : freq_of (map fR x) (fR rate) = tab N fr).
      { rewrite <- phase2frequency_R, EtR. exact (@p2f_gen R RNum (len x) (fun i => fR (nth i x 0%float)) (fR rate)). }
      unfold htotvar_freq. rewrite mdev_n_nat by (rewrite PR, tab_length; exact H3). rewrite PR, tab_length. fold n. rewrite Nat2Z.id, <- INR_IZR_INZ. f_equal.
      apply bigsum_ext. intros i Hi. apply tot_term_ext. intros j Hj. rewrite nth_tab by (unfold n in Hi; lia). reflexivity. }
    rewrite <- EX. eapply W; [apply (hrow_ok N m f fr F a b s1 s2 s3 q s ltac:(unfold N; lia) Hm H3 HF (fun i Hi => freq_ok x M rate Hx Hl HM Hr i ltac:(unfold N in Hi; lia)))
      |unfold n, N; lia|apply sqrt_pos|unfold F; ring]; try (intros i Hi; apply (HA i Hi)). exact HS.
Qed.
Print Assumptions C108_any_order.

Example C108_ex : let x := [1; 2; 4; 8; 8; 1; 2; 4; 1]%float in
  bounded_record x 8 /\ (2 <= Z.of_nat (len x) <= 2 ^ 39)%Z /\ bpow radix2 (-200) <= 8 <= bpow radix2 200 /\
  moderate_rate 10%float /\ same_request 10%float (TStr "all") (TStr "all") /\
  (exists rows, mtotdev x 10%float "phase" (TStr "all") = Ok (tableF 10%float rows) /\
     mtotdev (map fR x) (fR 10%float) "phase" (TStr "all") = Ok (tableR (fR 10%float) rows) /\ map r_n rows = [7; 4]%Z /\
     Forall (close_by (fun r => IZR (r_n r + 6 * r_m r + 14)) (fun r => (206 * IZR (r_m r) + 130) * (u64 * 8 * (fR 10%float / IZR (r_m r))))) rows) /\
  (exists rows, htotdev x 10%float "phase" (TStr "all") = Ok (tableF 10%float rows) /\ map r_n rows = [6; 3]%Z /\
     Forall (close_by (fun r => IZR (r_n r + 6 * r_m r + 14)) (fun r => (142 * IZR (r_m r) + 90) * (u64 * 8 * fR 10%float))) rows).
Proof.
  intro x. destruct C81_ex as (_ & Hr & Hs & _). destruct fR_1_2_4_8 as (V1 & V2 & V4 & V8).
  assert (Hx : bounded_record x 8).
  { split; [cbn; lia|]. split.
    - change 8 with (bpow radix2 3). split; apply bpow_le; lia.
    - repeat constructor; try (now apply ffin_SF); rewrite ?V1, ?V2, ?V4, ?V8, Rabs_pos_eq; lra. }
  assert (H8 : bpow radix2 (-200) <= 8 <= bpow radix2 200) by (change 8 with (bpow radix2 3); split; apply bpow_le; lia).
  assert (H2 : (2 <= Z.of_nat (len x) <= 2 ^ 39)%Z) by (cbn; lia).
  split; [exact Hx|]. split; [exact H2|]. split; [exact H8|]. split; [exact Hr|]. split; [exact Hs|].
  destruct (C108_accuracy x 10%float 8 _ _ Hx H2 H8 Hr Hs) as (P & _ & T). split.
  - destruct P as [[E _]|(rows & E1 & E2 & _ & A)]; [exfalso; revert E; vm_compute; discriminate|].
    exists rows. split; [exact E1|]. split; [exact E2|]. split; [|exact A].
    assert (G : forall r : @result float, mtotdev x 10%float "phase" (TStr "all") = Ok r -> snd r = [7; 4]%Z).
    { intros r. vm_compute. intro Q. injection Q as <-. reflexivity. }
    exact (G _ E1).
  - destruct T as [[E _]|(rows & E1 & E2 & _ & A)]; [exfalso; revert E; vm_compute; discriminate|].
    exists rows. split; [exact E1|]. split; [|exact A].
    assert (G : forall r : @result float, htotdev x 10%float "phase" (TStr "all") = Ok r -> snd r = [6; 3]%Z).
    { intros r. vm_compute. intro Q. injection Q as <-. reflexivity. }
    exact (G _ E1).
Qed.
