(** * gradev on noise with missing points: unbiased and consistent (C101).

    gradev is the function for records with missing points.  Here the points of a
    generated noise record are removed by an arbitrary mask, and the mean and the
    variance of the squared deviation over all realisations of the noise are
    obtained: the mean is the Allan variance of the complete record whatever the
    mask, and the relative variance lies between 2/n and 2(4m+1)/n, where n is the
    number of complete triples, which is the number gradev reports. *)
From Coq Require Import String Reals List ZArith Bool Arith Lia Lra.
From Verif Require Import Base Num NpList NumR NumX Spec ListFacts RSum Dft ModelCore ModelDev ModelMisc ModelCi ModelNoise ModelNoiseR
  DevProofs TotProofs Laws Laws2 Laws3 NoiseProofs PropsDev PropsKasdin PropsPredict PropsExpect CiProofs GreenProofs PropsEdf
  PropsConsist GradProofs PropsGrad.
From Verif Require PropsBias.
Import ListNotations.
Local Open Scope R_scope.
Local Notation len := List.length.

(** ** Specification *)

(** the record [x] with the points where [keep] is false missing *)
Definition blank (keep : nat -> bool) (x : list R) : list (option R) :=
  map (fun i => if keep i then Some (nth i x 0) else None) (seq 0 (len x)).
(** the start indices of the complete triples at averaging factor m of N points *)
Definition complete (keep : nat -> bool) (N m : nat) : list nat :=
  filter (fun i => keep i && keep (i + m) && keep (i + 2 * m))%nat%bool (seq 0 (N - 2 * m)).
(** the square of the single reported deviation *)
Definition xdev2 (r : res (@result ext)) : R := match r with Ok (_, [Fin d], _, _) => d ^ 2 | _ => 0 end.
(** the call: phase data with missing points, tau = m/rate *)
Definition gap_call (nlog nexp : ext -> ext) (ppf : ext -> ext -> ext) (keep : nat -> bool) (rate : R) (m : nat) (ci : ext) (nt : string) (x : list R) :=
  gradev nlog nexp ppf (with_gaps (blank keep x)) (Fin rate) "phase"%string (TList [Fin (INR m / rate)]) ci nt.
(** number of points kept *)
Definition kept (keep : nat -> bool) (N : nat) : nat := len (filter keep (seq 0 N)).

(** ** Sums over a list of distinct positions *)
Lemma bigsum_count n (p : nat -> bool) : bigsum n (fun i => if p i then 1 else 0) = INR (len (filter p (seq 0 n))).
Proof.
  induction n as [|n IH]; [reflexivity|]. cbn [bigsum]. rewrite IH, seq_S, filter_app, app_length, plus_INR. f_equal.
  cbn [filter Nat.add]. destruct (p n); reflexivity.
Qed.
Lemma near_count (l : list nat) q c : NoDup l -> (1 <= q)%nat ->
  bigsum (len l) (fun k => if (dist c (nth k l 0%nat) <? q)%nat then 1 else 0) <= 2 * INR q - 1.
Proof.
  intros Hl Hq. rewrite bigsum_count.
  set (f := filter (fun k => (dist c (nth k l 0%nat) <? q)%nat) (seq 0 (len l))).
  assert (Hf : forall k, In k f -> (k < len l)%nat /\ (dist c (nth k l 0%nat) < q)%nat).
  { intros k Hk. apply filter_In in Hk as [H1 H2]. apply in_seq in H1. apply Nat.ltb_lt in H2. lia. }
  assert (Hlen : (len f <= len (seq (c + 1 - q) (2 * q - 1)))%nat).
  { rewrite <- (map_length (fun k => nth k l 0%nat) f). apply NoDup_incl_length.
    - assert (Hnd : NoDup f) by apply NoDup_filter, seq_NoDup. clearbody f. induction f as [|k f IH]; [constructor|].
      inversion_clear Hnd. cbn [map]. constructor.
      + rewrite in_map_iff. intros (j & Hj & Hin). destruct (Hf k ltac:(now left)) as [H1 _]. destruct (Hf j ltac:(now right)) as [H2 _].
        assert (j = k) by (eapply (NoDup_nth l 0%nat); eauto). now subst j.
      + apply IH; [intros; apply Hf; now right|assumption].
    - intros x Hx. apply in_map_iff in Hx as (k & <- & Hk). destruct (Hf k Hk) as [_ H]. apply in_seq. unfold dist in H. lia. }
  rewrite seq_length in Hlen. apply le_INR in Hlen. rewrite minus_INR, mult_INR in Hlen by lia. cbn [INR] in Hlen. lra.
Qed.

Section Pick.
Variables (a : nat -> nat -> R) (L : nat) (l : list nat).
Hypothesis Ha : shifty a 1 L.
Hypothesis Hl : NoDup l.
Let at_ (k : nat) := a (nth k l 0%nat).

Lemma pick_moments K E c : gaussian K E -> 0 < c -> (1 <= len l)%nat -> (forall i, In i l -> (i + L <= K)%nat) ->
  let n := len l in
  let V := fun w => c / INR n * bigsum n (fun k => lin K (at_ k) w ^ 2) in
  E V = c * power a L /\
  2 / INR n * E V ^ 2 <= E (fun w => (V w - E V) ^ 2) <= 2 * (2 * INR L - 1) / INR n * E V ^ 2.
Proof using All.
  intros HG Hc Hn HK n V. apply lt_0_INR in Hn as Hn'. fold n in Hn'. pose proof (power_pos a 1 L Ha) as Hp.
  pose proof (sh_L _ _ _ Ha) as HL1.
  assert (Hself : forall k, (k < n)%nat -> dot K (at_ k) (at_ k) = power a L).
  { intros k Hk. apply (sh_self a 1 L Ha). specialize (HK _ (nth_In l 0%nat Hk)). lia. }
  assert (HM : E V = c * power a L).
  { unfold V. rewrite (quad_mean K E HG). rewrite (bigsum_ext n _ (fun _ => power a L)) by exact Hself.
    rewrite bigsum_const. field. lra. }
  split; [exact HM|].
  pose proof (quad_var K E HG (c / INR n) n at_) as HV. cbv zeta in HV. fold V in HV. rewrite HV, HM. clear HV.
  set (Q := bigsum n (fun k => bigsum n (fun l => dot K (at_ k) (at_ l) ^ 2))).
  assert (HQ1 : INR n * power a L ^ 2 <= Q).
  { rewrite <- bigsum_const. apply bigsum_le. intros k Hk. rewrite <- (Hself k Hk).
    apply (bigsum_term n (fun l => dot K (at_ k) (at_ l) ^ 2)); [intros; apply pow2_ge_0|exact Hk]. }
  assert (HQ2 : Q <= INR n * (power a L ^ 2 * (2 * INR L - 1))).
  { rewrite <- bigsum_const. apply bigsum_le. intros k Hk.
    apply Rle_trans with (power a L ^ 2 * bigsum n (fun j => if (dist (nth k l 0%nat) (nth j l 0%nat) <? L)%nat then 1 else 0)).
    - rewrite <- bigsum_scal. apply bigsum_le. intros j Hj.
      destruct (Nat.ltb_spec (dist (nth k l 0%nat) (nth j l 0%nat)) L) as [H|H].
      + rewrite Rmult_1_r. pose proof (cauchy_schwarz K (at_ k) (at_ j)) as CS. unfold dot.
        assert (E1 : forall i, (i < n)%nat -> bigsum K (fun j => at_ i j ^ 2) = power a L).
        { intros i Hi. rewrite <- (Hself i Hi). unfold dot. apply bigsum_ext. intros; ring. }
        rewrite !E1 in CS by assumption. lra.
      + unfold at_. rewrite (sh_far a 1 L Ha K _ _ L) by lia. rewrite Rmult_0_r. cbn. lra.
    - apply Rmult_le_compat_l; [apply pow2_ge_0|]. apply near_count; [exact Hl|lia]. }
  assert (Hk2 : 2 * (c / INR n) ^ 2 * (INR n * power a L ^ 2) = 2 / INR n * (c * power a L) ^ 2) by (field; lra).
  assert (Hk3 : 2 * (c / INR n) ^ 2 * (INR n * (power a L ^ 2 * (2 * INR L - 1))) = 2 * (2 * INR L - 1) / INR n * (c * power a L) ^ 2) by (field; lra).
  rewrite <- Hk2, <- Hk3.
  assert (0 <= 2 * (c / INR n) ^ 2) by (pose proof (pow2_ge_0 (c / INR n)); lra).
  split; apply Rmult_le_compat_l; assumption.
Qed.
End Pick.

(** ** The masked record *)
Lemma blank_nth keep x i : nth i (blank keep x) None = if (i <? len x)%nat then (if keep i then Some (nth i x 0) else None) else None.
Proof.
  unfold blank. destruct (Nat.ltb_spec i (len x)) as [H|H].
  - change (map ?f (seq 0 ?n)) with (tab n f). now rewrite nth_tab.
  - apply nth_overflow. rewrite map_length, seq_length. exact H.
Qed.
Lemma blank_len keep x : len (blank keep x) = len x.
Proof. unfold blank. now rewrite map_length, seq_length. Qed.
Lemma blank_present keep x i : (i < len x)%nat -> present (blank keep x) i = keep i.
Proof. intros H. unfold present. rewrite blank_nth. destruct (Nat.ltb_spec i (len x)); [|lia]. now destruct (keep i). Qed.
Lemma blank_point keep x i : (i < len x)%nat -> keep i = true -> point (blank keep x) i = nth i x 0.
Proof. intros H Hk. unfold point. rewrite blank_nth, Hk. destruct (Nat.ltb_spec i (len x)); [reflexivity|lia]. Qed.
Lemma filter_ext_in' {T} (p q : T -> bool) l : (forall a, In a l -> p a = q a) -> filter p l = filter q l.
Proof. induction l as [|a l IH]; intros H; [reflexivity|]. cbn [filter]. rewrite H by now left. rewrite IH by (intros; apply H; now right). reflexivity. Qed.
Lemma blank_triples keep x m : triples (blank keep x) m = complete keep (len x) m.
Proof.
  unfold triples, complete. rewrite blank_len. apply filter_ext_in'. intros i Hi. apply in_seq in Hi. now rewrite !blank_present by lia.
Qed.
Lemma blank_points keep x : points (blank keep x) = kept keep (len x).
Proof. unfold points, kept. rewrite blank_len. f_equal. apply filter_ext_in'. intros i Hi. apply in_seq in Hi. now apply blank_present. Qed.
Lemma complete_in keep N m i : In i (complete keep N m) ->
  (i + 2 * m < N)%nat /\ keep i = true /\ keep (i + m)%nat = true /\ keep (i + 2 * m)%nat = true.
Proof. intros H. apply filter_In in H as [H1 H2]. apply in_seq in H1. rewrite !andb_true_iff in H2. destruct H2 as [[H3 H4] H5]. repeat split; auto. lia. Qed.
Lemma complete_nodup keep N m : NoDup (complete keep N m).
Proof. apply NoDup_filter, seq_NoDup. Qed.

Lemma lsum_nth f (l : list nat) : lsum (map f l) = bigsum (len l) (fun k => f (nth k l 0%nat)).
Proof.
  induction l as [|a l IH]; [reflexivity|]. cbn [map lsum List.length]. rewrite bigsum_S_l. cbn [nth]. now rewrite IH.
Qed.

Lemma gr_blank keep x t m : gr_var (blank keep x) t m =
  / (2 * (INR m * t) ^ 2 * INR (len (complete keep (len x) m))) *
  bigsum (len (complete keep (len x) m)) (fun k => d2 x m (nth k (complete keep (len x) m) 0%nat) ^ 2).
Proof.
  unfold gr_var. rewrite blank_triples. f_equal. rewrite lsum_nth. apply bigsum_ext. intros k Hk.
  destruct (complete_in keep (len x) m _ (nth_In _ 0%nat Hk)) as (H1 & H2 & H3 & H4).
  rewrite !blank_point by (try assumption; lia). reflexivity.
Qed.

Lemma gap_row nlog nexp ppf keep rate m ci nt x : 0 < rate -> (1 <= m)%nat -> (2 <= len (complete keep (len x) m))%nat ->
  (nt <> "wp"%string \/ kept keep (len x) <> m) ->
  exists lo hi, gap_call nlog nexp ppf keep rate m ci nt x =
    Ok ([Fin (INR m / rate)], [Fin (sqrt (gr_var (blank keep x) (1 / rate) m))], EList [[lo]; [hi]], [Z.of_nat (len (complete keep (len x) m))]).
Proof.
  intros Hr Hm Hn Hf.
  assert (Hx : (2 * m + 2 <= len x)%nat).
  { assert (H : (len (complete keep (len x) m) <= len (seq 0 (len x - 2 * m)))%nat).
    { apply NoDup_incl_length; [apply complete_nodup|]. intros i Hi. apply complete_in in Hi. apply in_seq. lia. }
    rewrite seq_length in H. lia. }
  destruct (C29_gradev nlog nexp ppf (blank keep x) rate (TList [INR m / rate]) [m] ci nt Hr) as (lo & hi & E).
  - rewrite blank_len. apply adm_single; [exact Hr|lia].
  - intros k [<-|[]] (H1 & H2 & H3). rewrite blank_points in H2. destruct Hf; contradiction.
  - exists (lo m), (hi m). unfold gap_call. change (TList [Fin (INR m / rate)]) with (req (TList [INR m / rate])). rewrite E.
    unfold report2. cbn [filter]. rewrite !blank_triples. destruct (Z.ltb_spec 1 (Z.of_nat (len (complete keep (len x) m)))); [|lia].
    cbn [map]. now rewrite !blank_triples.
Qed.

Lemma gr_nonneg g t m : 0 <= gr_var g t m.
Proof.
  unfold gr_var. apply Rmult_le_pos; [|apply lsum_nonneg]. apply inv_nonneg.
  apply Rmult_le_pos; [|apply pos_INR]. apply Rmult_le_pos; [lra|apply pow2_ge_0].
Qed.
Lemma v2_var b N m i : slope b -> (1 <= m)%nat -> (i + 2 * m < N)%nat -> bigsum N (fun j => c2 b m i j ^ 2) = PropsBias.v2 b m.
Proof.
  intros Hb Hm Hi. unfold PropsBias.v2. destruct Hb as [ -> | [ -> | -> ] ];
    repeat match goal with |- context [Req_EM_T ?p ?q] => destruct (Req_EM_T p q); try (exfalso; lra) end.
  - apply var_wpm; lia.
  - apply var_wfm; lia.
  - apply var_rwfm; lia.
Qed.

(** ** C101 *)
(** For every mask: the row is there with n = number of complete triples, and the
    mean of its squared deviation is the Allan variance of the noise. *)
Theorem C101_unbiased nlog nexp ppf keep N m b rate qd ci nt E : white N E -> b = 0 \/ b = -2 \/ b = -4 ->
  0 < qd -> 0 < rate -> (1 <= m)%nat -> (2 <= len (complete keep N m))%nat ->
  nt <> "wp"%string \/ kept keep N <> m ->
  let call := fun w => gap_call nlog nexp ppf keep rate m ci nt (record N qd b w) in
  (forall w, exists d lo hi, call w = Ok ([Fin (INR m / rate)], [Fin d], EList [[lo]; [hi]], [Z.of_nat (len (complete keep N m))])) /\
  E (fun w => xdev2 (call w)) = PropsBias.allan b qd (INR m / rate) m.
Proof.
  intros HE Hb Hq Hr Hm Hn Hf call.
  assert (HN : (1 <= N)%nat) by (destruct N; [cbn in Hn; lia|lia]).
  assert (HL : forall w, len (record N qd b w) = N) by (intros; now apply record_len).
  assert (Row : forall w, exists lo hi, call w = Ok ([Fin (INR m / rate)],
    [Fin (sqrt (gr_var (blank keep (record N qd b w)) (1 / rate) m))], EList [[lo]; [hi]], [Z.of_nat (len (complete keep N m))])).
  { intros w. pose proof (gap_row nlog nexp ppf keep rate m ci nt (record N qd b w)) as H. rewrite HL in H. apply H; assumption. }
  split. { intros w. destruct (Row w) as (lo & hi & H). eauto. }
  set (l := complete keep N m) in *. set (c := / (2 * (INR m * (1 / rate)) ^ 2 * INR (len l))).
  rewrite (wh_ext _ E HE _ (fun w => c * (fun w => bigsum (len l) (fun k => d2 (record N qd b w) m (nth k l 0%nat) ^ 2)) w)).
  - rewrite (wh_scal _ E HE). rewrite (E_sum _ E HE (len l) (fun k w => d2 (record N qd b w) m (nth k l 0%nat) ^ 2)).
    rewrite (bigsum_ext _ _ (fun _ => qd * PropsBias.v2 b m)).
    + rewrite bigsum_const, <- PropsBias.allan_v2 by assumption. unfold c.
      assert (0 < INR m) by (apply lt_0_INR; lia). assert (0 < INR (len l)) by (apply lt_0_INR; lia). field. lra.
    + intros k Hk. destruct (complete_in keep N m _ (nth_In l 0%nat Hk)) as [Hi _].
      rewrite (E_sq _ E HE qd _ (c2 b m (nth k l 0%nat))) by (try lra; intro w; apply record_d2; lia).
      f_equal. rewrite <- (v2_var b N m (nth k l 0%nat)) by assumption. reflexivity.
  - intros w. destruct (Row w) as (lo & hi & ->). cbn [xdev2]. rewrite pow2_sqrt by apply gr_nonneg.
    rewrite gr_blank, HL. reflexivity.
Qed.
Print Assumptions C101_unbiased.

(** For Gaussian input the reported n bounds the precision of the value, whatever
    the mask. *)
Theorem C101_rate nlog nexp ppf keep N m b rate qd ci nt E : gaussian N E -> b = 0 \/ b = -2 \/ b = -4 ->
  0 < qd -> 0 < rate -> (1 <= m)%nat -> (2 <= len (complete keep N m))%nat ->
  nt <> "wp"%string \/ kept keep N <> m ->
  let V := fun w => xdev2 (gap_call nlog nexp ppf keep rate m ci nt (record N qd b w)) in
  let n := INR (len (complete keep N m)) in let v := PropsBias.allan b qd (INR m / rate) m in
  0 < v /\ 2 / n * v ^ 2 <= E (fun w => (V w - v) ^ 2) <= 2 * (4 * INR m + 1) / n * v ^ 2.
Proof.
  intros HG Hb Hq Hr Hm Hn Hf V n v. pose proof (ga_white _ _ HG) as HE.
  destruct (C101_unbiased nlog nexp ppf keep N m b rate qd ci nt E HE Hb Hq Hr Hm Hn Hf) as [_ HM]. cbv zeta in HM. fold V v in HM.
  set (l := complete keep N m) in *.
  assert (HN : (1 <= N)%nat) by (destruct N; [cbn in Hn; lia|lia]).
  assert (HL : forall w, len (record N qd b w) = N) by (intros; now apply record_len).
  assert (Hlp : 0 < INR (len l)) by (apply lt_0_INR; lia). assert (Hmp : 0 < INR m) by (apply lt_0_INR; lia).
  pose proof (PropsEdf.tau_pos m rate Hr Hm) as tp.
  set (c := / (2 * (INR m * (1 / rate)) ^ 2) * qd).
  assert (Hc : 0 < c). { apply Rmult_lt_0_compat; [|exact Hq]. apply Rinv_0_lt_compat. pose proof (pow_lt _ 2 tp). lra. }
  assert (Hsh : shifty (c2 b m) 1 (2 * m + 1)).
  { destruct (shifty_c2 b m 1 Hb Hm (le_n 1)) as [H1 H2 H3 H4 H5 H6]. split; try assumption.
    - intros k j. specialize (H3 k j). now rewrite !Nat.mul_1_r in H3.
    - intros k j H. specialize (H4 k j H). now rewrite Nat.mul_1_r in H4.
    - intros k j H. specialize (H5 k j H). now rewrite Nat.mul_1_r in H5. }
  destruct (pick_moments (c2 b m) (2 * m + 1) l Hsh (complete_nodup keep N m) N E c HG Hc ltac:(lia)) as [HM' HV].
  { intros i Hi. apply complete_in in Hi. lia. }
  set (V' := fun w => c / INR (len l) * bigsum (len l) (fun k => lin N (c2 b m (nth k l 0%nat)) w ^ 2)) in *.
  assert (EV : forall w, V w = V' w).
  { intros w. unfold V, V'.
    destruct (gap_row nlog nexp ppf keep rate m ci nt (record N qd b w)) as (lo & hi & ->); try (rewrite ?HL; assumption).
    cbn [xdev2]. rewrite pow2_sqrt by apply gr_nonneg. rewrite gr_blank, HL. fold l.
    rewrite (bigsum_ext _ _ (fun k => qd * lin N (c2 b m (nth k l 0%nat)) w ^ 2)).
    - rewrite bigsum_scal. unfold c. field. lra.
    - intros k Hk. destruct (complete_in keep N m _ (nth_In l 0%nat Hk)) as [Hi _]. apply (sq_lin qd Hq). apply record_d2. exact Hi. }
  assert (EE : E V = E V') by (apply (wh_ext _ E HE); exact EV).
  assert (Hv : E V' = v) by (now rewrite <- EE).
  assert (EVar : E (fun w => (V w - v) ^ 2) = E (fun w => (V' w - E V') ^ 2)).
  { apply (wh_ext _ E HE). intros w. now rewrite EV, Hv. }
  rewrite EVar. rewrite Hv in HV. rewrite Hv.
  split. { rewrite <- Hv, HM'. apply Rmult_lt_0_compat; [exact Hc|]. now apply (power_pos _ 1). }
  replace (4 * INR m + 1) with (2 * INR (2 * m + 1) - 1) by (rewrite plus_INR, mult_INR; cbn [INR]; ring).
  exact HV.
Qed.
Print Assumptions C101_rate.

(** So the value is approached as complete triples accumulate, uniformly in the
    record length and in the pattern of gaps. *)
Theorem C101_consistent nlog nexp ppf m b rate qd ci nt : b = 0 \/ b = -2 \/ b = -4 ->
  0 < qd -> 0 < rate -> (1 <= m)%nat -> nt <> "wp"%string ->
  let v := PropsBias.allan b qd (INR m / rate) m in
  forall eps, 0 < eps -> exists n0, forall keep N E, (n0 <= len (complete keep N m))%nat -> gaussian N E ->
    E (fun w => (xdev2 (gap_call nlog nexp ppf keep rate m ci nt (record N qd b w)) - v) ^ 2) <= eps * v ^ 2.
Proof.
  intros Hb Hq Hr Hm Hnt v eps He.
  destruct (INR_above (2 * (4 * INR m + 1) / eps)) as [n0 Hn0]. exists (n0 + 2)%nat. intros keep N E Hn HG.
  destruct (C101_rate nlog nexp ppf keep N m b rate qd ci nt E HG Hb Hq Hr Hm ltac:(lia) (or_introl Hnt)) as (_ & _ & H).
  eapply Rle_trans; [exact H|]. apply Rmult_le_compat_r; [apply pow2_ge_0|].
  set (n := len (complete keep N m)) in *.
  assert (Hcn : INR n0 <= INR n) by (apply le_INR; lia). assert (Hcp : 0 < INR n) by (apply lt_0_INR; lia).
  apply (Rmult_le_reg_r (INR n)); [exact Hcp|]. unfold Rdiv at 1. rewrite Rmult_assoc, Rinv_l, Rmult_1_r by lra.
  apply (Rmult_lt_compat_r eps) in Hn0; [|exact He]. unfold Rdiv in Hn0. rewrite Rmult_assoc, Rinv_l, Rmult_1_r in Hn0 by lra. nra.
Qed.
Print Assumptions C101_consistent.

(** twenty points with every seventh missing: nine complete triples at m = 2 *)
Definition every7 (i : nat) : bool := negb (Nat.eqb (i mod 7) 3).
Example C101_ex : gaussian 20 (trip 20) /\ len (complete every7 20 2) = 9%nat /\ kept every7 20 = 17%nat.
Proof. split; [apply trip_gaussian|]. split; reflexivity. Qed.
