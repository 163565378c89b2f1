(** * The series generated by noise.white, noise.brown and noise.violet: closed forms, integrals and linear forms. *)
From Coq Require Import String Reals List ZArith Bool Arith Lia Lra.
From Verif Require Import Base Num NpList NumR Spec ListFacts RSum Dft ModelCore ModelDev ModelNoise ModelNoiseR
  DevProofs TotProofs Laws2 Laws3 ConvProofs NoiseProofs PropsKasdin PropsPredict PropsExpect PropsDev PropsNoise PropsConv PropsLaws PropsBias.
Import ListNotations.
Local Open Scope R_scope.
Local Notation len := List.length.

(** ** closed forms *)
Definition wscale (b0 fs : R) : R := sqrt (b0 * fs / 2).
Lemma white_series w n b0 fs : 0 <= b0 -> 0 < fs -> ModelNoise.white w n b0 fs = Ok (tab n (fun i => wscale b0 fs * w i)).
Proof. intros Hb Hf. apply C66_white. nra. Qed.
Lemma brown_series w n b fs : 0 <= b -> 0 < fs ->
  brown PI w n b fs = Ok (tab n (fun i => wscale (b * (4 * PI * PI)) fs / fs * bigsum (S i) w)).
Proof.
  intros Hb Hf. unfold brown. cbn [neqb ofZ nmul ndiv RNum]. unfold Reqb. destruct (Req_EM_T fs 0) as [E|_]; [lra|].
  assert (H0 : 0 <= b * (4 * PI * PI)) by (pose proof PI_RGT_0; assert (0 < 4 * PI * PI) by nra; nra).
  rewrite (white_series w n _ fs H0 Hf). cbn [bind]. rewrite cumsum_tab. unfold scal. rewrite map_tab. f_equal. apply tab_ext.
  intros i Hi. cbn [nmul RNum]. rewrite bigsum_scal. field. lra.
Qed.
Lemma violet_series w n b fs : 0 <= b -> 0 < fs ->
  violet PI w n b fs = Ok (tab n (fun i => fs * wscale (b / (2 * PI) ^ 2) fs * (w (S i) - w i))).
Proof.
  intros Hb Hf. destruct (C66_violet w n b fs) as (x & v & Hx & Hv & Hl & Hn); [nra|]. rewrite Hx. f_equal.
  rewrite white_series in Hv; [|apply Rmult_le_pos; [exact Hb|left; apply Rinv_0_lt_compat, pow_lt; pose proof PI_RGT_0; lra]|exact Hf].
  injection Hv as <-. rewrite (list_tab x 0), Hl. apply tab_ext. intros i Hi. rewrite Hn by exact Hi. rewrite !nth_tab by lia.
  rewrite Nat.add_1_r. change (2 * PI * (2 * PI * 1)) with ((2 * PI) ^ 2). ring.
Qed.

(** ** their integrals (frequency2phase), as records of the Kasdin generator driven by the same samples *)
Definition rot (n : nat) (w : nat -> R) (j : nat) : R := match j with O => w n | S i => w i end.
Definition Erot (n : nat) (E : ((nat -> R) -> R) -> R) (f : (nat -> R) -> R) : R := E (fun w => f (rot n w)).
Lemma white_rot n E : white (n + 1) E -> white (n + 1) (Erot n E).
Proof.
  intros H. unfold Erot. split.
  - intros f g Hfg. apply (wh_ext _ E H). intros w. apply Hfg.
  - intros f g. apply (wh_add _ E H (fun w => f (rot n w)) (fun w => g (rot n w))).
  - intros c f. apply (wh_scal _ E H c (fun w => f (rot n w))).
  - intros i j Hi Hj. set (s := fun k : nat => match k with O => n | S k => k end).
    rewrite (wh_ext _ E H _ (fun w => w (s i) * w (s j))) by (intros w; unfold rot, s; destruct i, j; reflexivity).
    rewrite (wh_cov _ E H) by (unfold s; destruct i, j; lia).
    assert (Q : Nat.eqb (s i) (s j) = Nat.eqb i j).
    { destruct (Nat.eqb_spec (s i) (s j)) as [Q|Q]; destruct (Nat.eqb_spec i j) as [P|P]; try reflexivity; exfalso; unfold s in Q; destruct i, j; lia. }
    now rewrite Q.
Qed.
Lemma integrated_tab n g rate : integrated (tab n g) rate = tab (n + 1) (fun k => bigsum k g / rate).
Proof.
  unfold integrated. change (tab (S (len (tab n g))) (fun i => bigsum i (fun k => (tab n g).[k]) / rate) = tab (n + 1) (fun k => bigsum k g / rate)).
  rewrite tab_length. replace (S n) with (n + 1)%nat by lia. apply tab_ext. intros i Hi. f_equal. apply bigsum_ext. intros k Hk. apply nth_tab. lia.
Qed.
Lemma record_rot n qd b w k : (k <= n)%nat -> (record (n + 1) qd b (rot n w)).[k] = sqrt qd * (kw b k * w n + bigsum k (fun j => kw b (k - S j) * w j)).
Proof.
  intros Hk. rewrite record_nth by lia. f_equal.
  replace (n + 1)%nat with (S k + (n - k))%nat by lia. rewrite bigsum_add, (bigsum_0 (n - k)), Rplus_0_r.
  2:{ intros j Hj. unfold coef. replace (S k + j <=? k)%nat with false by (symmetry; apply Nat.leb_gt; lia). ring. }
  rewrite bigsum_S_l. cbn [rot]. unfold coef at 1. replace (0 <=? k)%nat with true by (symmetry; apply Nat.leb_le; lia). rewrite Nat.sub_0_r. f_equal.
  apply bigsum_ext. intros j Hj. unfold coef. replace (S j <=? k)%nat with true by (symmetry; apply Nat.leb_le; lia). reflexivity.
Qed.
Lemma shifted_eq x y g : len x = len y -> (forall k, (k < len y)%nat -> x.[k] = y.[k] + g k) -> x = shifted g y.
Proof.
  intros L H. rewrite (list_tab x 0), L. unfold shifted. change (tab (len y) (fun i => x.[i]) = tab (len y) (fun i => y.[i] + g i)). now apply tab_ext.
Qed.
Lemma white_record w n b0 fs : 0 <= b0 -> 0 < fs ->
  record (n + 1) (b0 / (2 * fs)) (-2) (rot n w) = shifted (line (sqrt (b0 / (2 * fs)) * w n) 0) (integrated (tab n (fun i => wscale b0 fs * w i)) fs).
Proof.
  intros Hb Hf. rewrite integrated_tab. apply shifted_eq; rewrite ?tab_length, ?record_len by lia; [reflexivity|].
  intros k Hk. rewrite record_rot by lia. rewrite nth_tab by exact Hk. unfold line. rewrite kw_m2, (bigsum_ext k _ w) by (intros; rewrite kw_m2; ring).
  rewrite bigsum_scal. replace (sqrt (b0 / (2 * fs))) with (wscale b0 fs / fs); [field; lra|].
  unfold wscale. replace (b0 / (2 * fs)) with (b0 * fs / 2 / fs ^ 2) by (field; lra). rewrite (sqrt_div_alt (b0 * fs / 2) (fs ^ 2)), sqrt_pow2 by (try lra; apply pow_lt; lra). reflexivity.
Qed.
Lemma bigsum_twice k w : bigsum k (fun i => bigsum (S i) w) = bigsum k (fun j => INR (k - j) * w j).
Proof.
  induction k as [|k IH]; [reflexivity|]. cbn [bigsum] in *. rewrite IH. replace (S k - k)%nat with 1%nat by lia. cbn [INR].
  rewrite <- (Rplus_assoc (bigsum k _)), <- bigsum_plus. rewrite Rmult_1_l. f_equal. apply bigsum_ext. intros j Hj. replace (S k - j)%nat with (S (k - j)) by lia. rewrite S_INR. ring.
Qed.
Lemma brown_record w n b fs : 0 <= b -> 0 < fs -> let qd := 2 * PI ^ 2 * b / fs ^ 3 in
  record (n + 1) qd (-4) (rot n w) = shifted (line (sqrt qd * w n) (sqrt qd * w n)) (integrated (tab n (fun i => wscale (b * (4 * PI * PI)) fs / fs * bigsum (S i) w)) fs).
Proof.
  intros Hb Hf qd. rewrite integrated_tab. apply shifted_eq; rewrite ?tab_length, ?record_len by lia; [reflexivity|].
  intros k Hk. rewrite record_rot by lia. rewrite nth_tab by exact Hk. unfold line. rewrite kw_m4.
  rewrite (bigsum_ext k _ (fun j => INR (k - j) * w j)) by (intros j Hj; rewrite kw_m4; replace (k - j)%nat with (S (k - S j)) by lia; rewrite S_INR; ring).
  rewrite bigsum_scal, bigsum_twice. replace (sqrt qd) with (wscale (b * (4 * PI * PI)) fs / fs ^ 2); [field; lra|].
  unfold wscale, qd. replace (2 * PI ^ 2 * b / fs ^ 3) with (b * (4 * PI * PI) * fs / 2 / (fs ^ 2) ^ 2) by (field; lra). rewrite (sqrt_div_alt (b * (4 * PI * PI) * fs / 2) ((fs ^ 2) ^ 2)), sqrt_pow2 by (try (apply pow_le; lra); apply pow_lt, pow_lt; lra). reflexivity.
Qed.
Lemma violet_record w n b fs : 0 <= b -> 0 < fs -> let qd := b * fs / (8 * PI ^ 2) in
  record (n + 1) qd 0 w = shifted (line (sqrt qd * w O) 0) (integrated (tab n (fun i => fs * wscale (b / (2 * PI) ^ 2) fs * (w (S i) - w i))) fs).
Proof.
  intros Hb Hf qd. rewrite integrated_tab. apply shifted_eq; rewrite ?tab_length, ?record_len by lia; [reflexivity|].
  intros k Hk. rewrite record_nth by lia. rewrite nth_tab by exact Hk. unfold line.
  rewrite (bigsum_ext _ (fun j => coef 0 k j * w j) (fun j => w j * (if Nat.eqb k j then 1 else 0))).
  2:{ intros j Hj. unfold coef. destruct (Nat.eqb_spec k j) as [->|N].
      - replace (j <=? j)%nat with true by (symmetry; apply Nat.leb_le; lia). rewrite Nat.sub_diag. cbn [kw]. ring.
      - destruct (Nat.leb_spec j k); [|ring]. destruct (k - j)%nat as [|q] eqn:Q; [lia|]. rewrite kw_0. ring. }
  rewrite bigsum_pick by exact Hk. rewrite bigsum_scal.
  assert (T : forall m, bigsum m (fun i => w (S i) - w i) = w m - w O) by (induction m as [|m IH]; cbn [bigsum]; [ring|rewrite IH; ring]).
  rewrite T. replace (sqrt qd) with (wscale (b / (2 * PI) ^ 2) fs); [field; lra|].
  unfold wscale, qd. f_equal. pose proof PI_RGT_0. field. lra.
Qed.
