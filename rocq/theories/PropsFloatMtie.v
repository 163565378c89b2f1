(** * MTIE in binary64 is the correctly rounded MTIE (C83).

    mtie (allantools.py 1413-1481) uses maxima, minima and one subtraction per
    window.  Hence, unlike the variance-based deviations of C81, its binary64
    result is the exact value rounded once. *)
From Coq Require Import ZArith Floats Reals Lra Lia Psatz String List Bool Sorted Permutation.
From Flocq Require Import Core.Core IEEE754.BinarySingleNaN IEEE754.PrimFloat.
From Verif Require Import Base Num NpList NumF NumR ListFacts Spec RSum ModelCore ModelDev FloatFacts FloatErr
  GenericProofs TauProofs TauLaws DevProofs TotProofs Laws3 PropsFloatTau PropsFloatErr.
Import ListNotations.
Local Open Scope R_scope.
Local Notation len := List.length.
Local Notation float := Coq.Floats.PrimFloat.float.

Lemma fin_not_nan (a : float) : ffin a -> @nisnan float FNum a = false.
Proof.
  intros H. cbn [nisnan FNum]. rewrite is_nan_equiv. unfold ffin in H. destruct (Prim2B a); try reflexivity; discriminate.
Qed.

Lemma fmax_spec : forall (t : list float) x, ffin x -> Forall ffin t ->
  let v := fold_left nmax2 t x in ffin v /\ In v (x :: t) /\ forall y, In y (x :: t) -> fR y <= fR v.
Proof.
  induction t as [|y t IH]; intros x Hx Ht; cbn [fold_left].
  - split; [exact Hx|]. split; [now left|]. intros y [->|[]]. apply Rle_refl.
  - inversion Ht as [|? ? Hy Ht']; subst.
    assert (E : nmax2 x y = if Rlt_bool (fR x) (fR y) then y else x).
    { unfold nmax2. rewrite !fin_not_nan by assumption. cbn [nltb FNum]. now rewrite fltb_ok. }
    assert (Hm : ffin (nmax2 x y)) by (rewrite E; destruct (Rlt_bool (fR x) (fR y)); assumption).
    destruct (IH (nmax2 x y) Hm Ht') as (F & I & U). split; [exact F|]. split.
    + destruct I as [I|I]; [|right; now right]. rewrite <- I, E. destruct (Rlt_bool (fR x) (fR y)); [right; now left|now left].
    + assert (K : fR x <= fR (nmax2 x y) /\ fR y <= fR (nmax2 x y)) by (rewrite E; destruct (Rlt_bool_spec (fR x) (fR y)); lra).
      pose proof (U _ (or_introl eq_refl)) as U0.
      intros z [->|[->|Hz]]; [lra|lra|]. apply U. now right.
Qed.
Lemma fmin_spec : forall (t : list float) x, ffin x -> Forall ffin t ->
  let v := fold_left nmin2 t x in ffin v /\ In v (x :: t) /\ forall y, In y (x :: t) -> fR v <= fR y.
Proof.
  induction t as [|y t IH]; intros x Hx Ht; cbn [fold_left].
  - split; [exact Hx|]. split; [now left|]. intros y [->|[]]. apply Rle_refl.
  - inversion Ht as [|? ? Hy Ht']; subst.
    assert (E : nmin2 x y = if Rlt_bool (fR y) (fR x) then y else x).
    { unfold nmin2. rewrite !fin_not_nan by assumption. cbn [nltb FNum]. now rewrite fltb_ok. }
    assert (Hm : ffin (nmin2 x y)) by (rewrite E; destruct (Rlt_bool (fR y) (fR x)); assumption).
    destruct (IH (nmin2 x y) Hm Ht') as (F & I & U). split; [exact F|]. split.
    + destruct I as [I|I]; [|right; now right]. rewrite <- I, E. destruct (Rlt_bool (fR y) (fR x)); [right; now left|now left].
    + assert (K : fR (nmin2 x y) <= fR x /\ fR (nmin2 x y) <= fR y) by (rewrite E; destruct (Rlt_bool_spec (fR y) (fR x)); lra).
      pose proof (U _ (or_introl eq_refl)) as U0.
      intros z [->|[->|Hz]]; [lra|lra|]. apply U. now right.
Qed.

Definition gmax (l : list float) : float := match l with [] => 0%float | x :: t => fold_left nmax2 t x end.
Definition gmin (l : list float) : float := match l with [] => 0%float | x :: t => fold_left nmin2 t x end.
Lemma gmax_ok l : l <> [] -> npmax l = Ok (gmax l).
Proof. destruct l; [contradiction|reflexivity]. Qed.
Lemma gmin_ok l : l <> [] -> npmin l = Ok (gmin l).
Proof. destruct l; [contradiction|reflexivity]. Qed.
Lemma gmax_spec l : l <> [] -> Forall ffin l -> ffin (gmax l) /\ In (gmax l) l /\ forall y, In y l -> fR y <= fR (gmax l).
Proof. destruct l as [|x t]; [contradiction|]. intros _ H. inversion H; subst. now apply fmax_spec. Qed.
Lemma gmin_spec l : l <> [] -> Forall ffin l -> ffin (gmin l) /\ In (gmin l) l /\ forall y, In y l -> fR (gmin l) <= fR y.
Proof. destruct l as [|x t]; [contradiction|]. intros _ H. inversion H; subst. now apply fmin_spec. Qed.

Lemma rnd_mono a b : a <= b -> rnd a <= rnd b.
Proof. intros H. rewrite !rnd_FLT. apply round_le; [apply FLT_exp_valid; reflexivity|typeclasses eauto|exact H]. Qed.

Section Try.
Variables (N m : nat) (f : nat -> float).
Hypothesis Hm : (1 <= m < N)%nat.
Hypothesis Hf : forall i, (i < N)%nat -> ffin (f i) /\ Rabs (fR (f i)) <= bpow radix2 400.

Let win (i : nat) : list float := tab (m + 1) (fun k => f (i + k)%nat).

Lemma try_gen : mtie_try (tab N f) m = Ok (gmax (tab (N - m) (fun i => gmax (win i) - gmin (win i))%float)).
Proof.
  unfold mtie_try, mtie_rolling_window. rewrite tab_length.
  destruct (Nat.ltb_spec (m + 1) 1); [lia|]. destruct (Nat.ltb_spec N (m + 1)); [lia|]. cbn [bind].
  replace (N - (m + 1) + 1)%nat with (N - m)%nat by lia.
  assert (Hw : map (fun i => pyslice i (i + (m + 1)) (tab N f)) (seq 0 (N - m)) = tab (N - m) win).
  { apply tab_ext. intros i Hi. rewrite pyslice_tab. unfold win. f_equal. lia. }
  rewrite Hw.
  rewrite (mapM_Ok npmax gmax).
  2:{ intros l Hl. apply in_tab in Hl as (i & Hi & ->). apply gmax_ok. apply tab_nonnil. lia. }
  cbn [bind]. rewrite (mapM_Ok npmin gmin).
  2:{ intros l Hl. apply in_tab in Hl as (i & Hi & ->). apply gmin_ok. apply tab_nonnil. lia. }
  cbn [bind]. rewrite !map_tab. unfold vsub. rewrite bmap2_tab. cbn [bind].
  rewrite gmax_ok by (apply tab_nonnil; lia). reflexivity.
Qed.

Lemma sub_small a b : ffin a -> ffin b -> Rabs (fR a) <= bpow radix2 400 -> Rabs (fR b) <= bpow radix2 400 ->
  ffin (a - b)%float /\ fR (a - b)%float = rnd (fR a - fR b).
Proof.
  intros Fa Fb Ba Bb. apply fsub_ok; auto. apply rnd_bound.
  assert (2 * bpow radix2 400 <= bpow radix2 1000).
  { change 2 with (bpow radix2 1) at 1. rewrite <- bpow_plus. apply bpow_le. lia. }
  apply Rabs_le_inv in Ba. apply Rabs_le_inv in Bb.
  apply Rabs_le. lra.
Qed.

Lemma try_rounded D : is_mtie (tab N (fun i => fR (f i))) m D ->
  exists d, mtie_try (tab N f) m = Ok d /\ ffin d /\ fR d = rnd D.
Proof.
  intros [U (j & k & Hj & Hk & H1 & H2 & E)]. rewrite tab_length in *.
  set (tie := tab (N - m) (fun i => gmax (win i) - gmin (win i))%float).
  exists (gmax tie). split; [exact try_gen|].
  assert (Hw : forall i, (i < N - m)%nat ->
     (exists a b, (a <= m)%nat /\ (b <= m)%nat /\ gmax (win i) = f (i + a)%nat /\ gmin (win i) = f (i + b)%nat) /\
     forall t, (t <= m)%nat -> fR (gmin (win i)) <= fR (f (i + t)%nat) <= fR (gmax (win i))).
  { intros i Hi.
    assert (Hn : win i <> []) by (apply tab_nonnil; lia).
    assert (HF : Forall ffin (win i)) by (apply Forall_tab; intros t Ht; apply Hf; lia).
    destruct (gmax_spec (win i) Hn HF) as (_ & I1 & U1). destruct (gmin_spec (win i) Hn HF) as (_ & I2 & U2).
    apply in_tab in I1 as (a & Ha & Ea). apply in_tab in I2 as (b & Hb & Eb). split.
    - exists a, b. repeat split; try lia; assumption.
    - intros t Ht. assert (It : In (f (i + t)%nat) (win i)) by (apply in_tab; exists t; split; [lia|reflexivity]). auto. }
  assert (Hd : forall i, (i < N - m)%nat -> ffin (gmax (win i) - gmin (win i))%float /\
     fR (gmax (win i) - gmin (win i))%float = rnd (fR (gmax (win i)) - fR (gmin (win i)))).
  { intros i Hi. destruct (Hw i Hi) as [(a & b & Ha & Hb & Ea & Eb) _]. rewrite Ea, Eb.
    apply sub_small; apply Hf; lia. }
  assert (Hn : tie <> []) by (apply tab_nonnil; lia).
  assert (HF : Forall ffin tie) by (apply Forall_tab; intros i Hi; apply Hd; exact Hi).
  destruct (gmax_spec tie Hn HF) as (F & I & UB). split; [exact F|].
  apply Rle_antisym.
  - apply in_tab in I as (i & Hi & ->). rewrite (proj2 (Hd i Hi)). apply rnd_mono.
    destruct (Hw i Hi) as [(a & b & Ha & Hb & Ea & Eb) _]. rewrite Ea, Eb.
    pose proof (U (i + a)%nat (i + b)%nat ltac:(lia) ltac:(lia) ltac:(lia) ltac:(lia)) as Q.
    now rewrite !nth_tab in Q by lia.
  - rewrite !nth_tab in E by lia. rewrite <- E.
    set (i := Nat.min (Nat.min j k) (N - m - 1)). assert (Hi : (i < N - m)%nat) by lia.
    apply Rle_trans with (fR (gmax (win i) - gmin (win i))%float).
    + rewrite (proj2 (Hd i Hi)). apply rnd_mono. destruct (Hw i Hi) as [_ B].
      pose proof (B (j - i)%nat ltac:(lia)) as B1. pose proof (B (k - i)%nat ltac:(lia)) as B2.
      replace (i + (j - i))%nat with j in B1 by lia. replace (i + (k - i))%nat with k in B2 by lia. lra.
    + apply UB. apply in_tab. exists i. split; [exact Hi|reflexivity].
Qed.
End Try.

(** ** C83 *)
(** the binary64 deviation is the exact MTIE of the record, rounded to nearest *)
Definition mtie_rounded (x : list float) (r : row) : Prop :=
  is_mtie (map fR x) (Z.to_nat (r_m r)) (r_dR r) /\ ffin (r_dF r) /\ fR (r_dF r) = rnd (r_dR r).

Lemma mtie_rows x M : bounded_record x M ->
  forall m, (1 <= m < Z.of_nat (len x))%Z -> exists r, r_m r = m /\
    calc_mtie x (Z.to_nat m) = Ok (r_dF r, r_eF r, r_n r) /\
    calc_mtie (map fR x) (Z.to_nat m) = Ok (r_dR r, r_eR r, r_n r) /\ ((1 < r_n r)%Z -> mtie_rounded x r).
Proof.
  intros Hx m Hm. destruct (rec_tab x M Hx) as (HN & HM & Et & EtR & Hf).
  assert (Hk : (1 <= Z.to_nat m < len x)%nat) by lia.
  assert (HkR : (1 <= Z.to_nat m < len (map fR x))%nat) by (rewrite map_length; exact Hk).
  pose proof (mtie_val_is (map fR x) (Z.to_nat m) HkR) as HD.
  pose proof (calc_mtie_spec (map fR x) (Z.to_nat m) HkR) as HR.
  destruct (try_rounded (len x) (Z.to_nat m) (fun i => nth i x 0%float) Hk) with (D := mtie_val (map fR x) (Z.to_nat m)) as (d & E & F & V).
  { intros i Hi. destruct (Hf i Hi) as [F B]. split; [exact F|lra]. }
  { rewrite <- EtR. exact HD. }
  rewrite <- Et in E.
  eexists (Row m _ d _ _ _). cbn [r_m r_n r_dF r_eF r_dR r_eR]. split; [reflexivity|]. split; [|split; [exact HR|]].
  - unfold calc_mtie. rewrite E. unfold tie_n. rewrite map_length. reflexivity.
  - intros _. split; [|split]; cbn [r_m r_n r_dF r_eF r_dR r_eR]; assumption.
Qed.

Theorem C83_mtie x rate M tF tR : bounded_record x M -> x <> [] -> moderate_rate rate -> same_request rate tF tR ->
  (mtie x rate "phase" tF = Err UserWarning /\ mtie (map fR x) (fR rate) "phase" tR = Err UserWarning) \/
  exists rows, mtie x rate "phase" tF = Ok (tableF rate rows) /\ mtie (map fR x) (fR rate) "phase" tR = Ok (tableR (fR rate) rows) /\
    rows <> [] /\ Forall (mtie_rounded x) rows.
Proof.
  intros Hx Hx0 Hr Hs. destruct (same_factors x rate M tF tR Hx Hx0 Hr Hs) as (ms & G1 & G2 & Hb).
  unfold mtie, input_to_phase. cbn [String.eqb Ascii.eqb Bool.eqb bind].
  rewrite G1. cbn [ofZ RNum]. rewrite G2. cbn [bind].
  destruct (run_rows_par (calc_mtie x) (calc_mtie (map fR x)) rate (mtie_rounded x) ms) as [H|(rows & E1 & E2 & E3 & E4 & _)].
  - intros m Hm. apply (mtie_rows x M Hx). apply Hb, Hm.
  - left. exact H.
  - right. exists rows. auto.
Qed.
Print Assumptions C83_mtie.

(** hence the binary64 values grow with tau, exactly as the real ones do *)
Theorem C83_monotone x r1 r2 : mtie_rounded x r1 -> mtie_rounded x r2 -> (0 <= r_m r1 <= r_m r2)%Z ->
  fR (r_dF r1) <= fR (r_dF r2).
Proof.
  intros (I1 & _ & E1) (I2 & _ & E2) H. rewrite E1, E2. apply rnd_mono.
  eapply is_mtie_mono; [|exact I1|exact I2]. lia.
Qed.
Print Assumptions C83_monotone.

(** An ordinary record: the hypotheses hold and the result is a table. *)
Example C83_ex : let x := [1; 2; 4; 8; 8]%float in
  bounded_record x 8 /\ moderate_rate 10%float /\ same_request 10%float (TStr "all") (TStr "all") /\
  exists rows, mtie x 10%float "phase" (TStr "all") = Ok (tableF 10%float rows) /\
    mtie (map fR x) (fR 10%float) "phase" (TStr "all") = Ok (tableR (fR 10%float) rows) /\
    map r_dF rows = [4; 6; 7]%float /\ Forall (mtie_rounded x) rows.
Proof.
  intro x. destruct C81_ex as (Hx & Hr & Hs & _). fold x in Hx.
  split; [exact Hx|]. split; [exact Hr|]. split; [exact Hs|].
  destruct (C83_mtie x 10%float 8 _ _ Hx ltac:(discriminate) Hr Hs) as [[E _]|(rows & E1 & E2 & _ & A)].
  - exfalso. revert E. vm_compute. discriminate.
  - exists rows. split; [exact E1|]. split; [exact E2|]. split; [|exact A].
    assert (G : forall r : @result float, mtie x 10%float "phase" (TStr "all") = Ok r -> snd (fst (fst r)) = [4; 6; 7]%float).
    { intros r. vm_compute. intro Q. injection Q as <-. reflexivity. }
    exact (G _ E1).
Qed.

(** One rounding is unavoidable: the exact MTIE of this record is 2^54 + 1, which binary64 cannot hold. *)
Example C83_ex_rounding : let x := [-1; 0x1p+54; 0; 0]%float in
  exists t e, mtie x 1%float "phase" (TStr "all") = Ok (t, [0x1p+54; 0x1p+54]%float, e, [3; 2]%Z).
Proof. eexists _, _. vm_compute. reflexivity. Qed.
