(** * scipy_psd, the averaged periodogram (C96) *)
From Coq Require Import String Reals List ZArith Bool Arith Lia Lra.
From Verif Require Import Base Num NpList NumR Spec ListFacts RSum Dft ModelCore ModelDev ModelMisc ModelCi ModelNoise ModelNoiseR ModelWelch
  NoiseProofs RtProofs PropsKasdin PropsExpect PropsNoise PropsPsd ColorProofs PropsColor.
Import ListNotations.
Local Open Scope R_scope.
Local Notation len := List.length.

(** ** Specification *)
(** the periodic Hann window *)
Definition hannw (L j : nat) : R := if Nat.leb L 1 then 1 else (1 - cos (2 * PI * INR j / INR L)) / 2.
(** start-to-start distance and number of half-overlapping segments of L points in n points *)
Definition hop (L : nat) : nat := (L - L / 2)%nat.
Definition nseg (n L : nat) : nat := ((n - L / 2) / hop L)%nat.
(** mean of the L points from a on *)
Definition seg_mean (x : list R) (L a : nat) : R := bigsum L (fun j => x.[a + j]) / INR L.
(** the windowed segment without its mean *)
Definition tapered (x : list R) (L a j : nat) : R := hannw L j * (x.[a + j] - seg_mean x L a).
Definition energy (L : nat) : R := bigsum L (fun j => hannw L j ^ 2).
(** one-sided: bins strictly between 0 and the Nyquist frequency count twice *)
Definition weight (L k : nat) : R := if (0 <? k)%nat && (2 * k <? L)%nat then 2 else 1.
(** one-sided density in bin k: the squared Fourier sums of the tapered segments, averaged *)
Definition density (x : list R) (fs : R) (L k : nat) : R :=
  weight L k / (fs * energy L) * (bigsum (nseg (len x) L) (fun s => pw L (tapered x L (s * hop L)) k) / INR (nseg (len x) L)).

Lemma sided_weight L k : (k <= L / 2)%nat -> sided L k = weight L k.
Proof.
  intros Hk. unfold sided, weight. pose proof (Nat.div_mod L 2 ltac:(lia)) as D. pose proof (Nat.mod_upper_bound L 2 ltac:(lia)) as U.
  destruct (Nat.eqb_spec k 0) as [->|H0]; [reflexivity|]. rewrite (proj2 (Nat.ltb_lt 0 k)) by lia. cbn [orb andb].
  assert (E : Nat.even L = Nat.eqb (L mod 2) 0) by (destruct (Nat.even L) eqn:e; symmetry; [apply Nat.eqb_eq; apply Nat.even_spec in e; destruct e as (j & ->); rewrite Nat.mul_comm; apply Nat.mod_mul; lia|apply Nat.eqb_neq; intros Z; rewrite D, Z, Nat.add_0_r, Nat.even_mul in e; discriminate]).
  rewrite E. destruct (Nat.eqb_spec (L mod 2) 0) as [M|M], (Nat.eqb_spec k (L / 2)) as [K|K], (Nat.ltb_spec (2 * k) L) as [Z|Z]; cbn [andb]; try reflexivity; lia.
Qed.
Lemma hann_tab L : hann L = tab L (hannw L).
Proof.
  unfold hann. destruct (Nat.leb_spec L 1).
  - destruct L as [|[|L]]; [reflexivity|reflexivity|lia].
  - apply tab_ext. intros j Hj. unfold hannw. destruct (Nat.leb_spec L 1); [lia|]. field.
Qed.
Lemma hop_pos L : (1 <= L)%nat -> (1 <= hop L)%nat.
Proof. intros H. unfold hop. pose proof (Nat.div_lt L 2 ltac:(lia) ltac:(lia)). lia. Qed.
Lemma hop_half L : (hop L + L / 2 = L)%nat.
Proof. unfold hop. pose proof (Nat.div_le_upper_bound L 2 L ltac:(lia) ltac:(lia)). lia. Qed.
Lemma nseg_pos n L : (1 <= L <= n)%nat -> (1 <= nseg n L)%nat.
Proof. intros H. unfold nseg. pose proof (hop_half L). pose proof (hop_pos L ltac:(lia)). apply Nat.div_le_lower_bound; lia. Qed.
Lemma seg_fits n L s : (1 <= L <= n)%nat -> (s < nseg n L)%nat -> (s * hop L + L <= n)%nat.
Proof.
  intros H Hs. pose proof (hop_half L). pose proof (hop_pos L ltac:(lia)). unfold nseg in Hs.
  pose proof (Nat.mul_div_le (n - L / 2) (hop L) ltac:(lia)). nia.
Qed.
Lemma seg_tab (x : list R) L a : (a + L <= len x)%nat -> firstn L (skipn a x) = tab L (fun j => x.[a + j]).
Proof.
  intros H. rewrite (list_tab x 0) at 1. rewrite skipn_tab, firstn_tab. replace (Nat.min L (len x - a)) with L by lia. reflexivity.
Qed.
Lemma energy_pos L : (1 <= L)%nat -> 0 < energy L.
Proof.
  intros H. unfold energy. destruct (Nat.leb_spec L 1).
  - replace L with 1%nat by lia. cbn. lra.
  - (* the last point of the window is not 0 *)
    destruct L as [|L]; [lia|]. cbn [bigsum]. apply Rplus_le_lt_0_compat; [apply bigsum_nonneg; intros; apply pow2_ge_0|].
    apply pow_lt. unfold hannw. destruct (Nat.leb_spec (S L) 1); [lia|].
    assert (P : 0 < INR (S L)) by (apply lt_0_INR; lia).
    assert (C : 1 - cos (2 * PI * INR L / INR (S L)) = 2 * sin (PI * IZR (Z.of_nat L) / INR (S L)) ^ 2).
    { rewrite <- INR_IZR_INZ. replace (2 * PI * INR L / INR (S L)) with (2 * (PI * INR L / INR (S L))) by (field; lra). rewrite cos_2a_sin. ring. }
    rewrite C. assert (N0 : sin (PI * IZR (Z.of_nat L) / INR (S L)) <> 0).
    { apply sin_frac; [lia|]. intros q E. assert (q <= 0 \/ 1 <= q)%Z as [?|?] by lia; nia. }
    apply Rsqr_pos_lt in N0. unfold Rsqr in N0. lra.
Qed.
Lemma periodogram_eq x L a : (1 <= L)%nat -> (a + L <= len x)%nat ->
  periodogram (hann L) (firstn L (skipn a x)) = Ok (tab (L / 2 + 1) (fun k => pw L (tapered x L a) k)).
Proof.
  intros HL Ha. unfold periodogram, detrend_constant. rewrite seg_tab by exact Ha. rewrite hann_tab, tab_length, map_tab, map2_tab.
  unfold sumR. rewrite asum_tab. rewrite rfft_tab by exact HL. cbn [bind]. rewrite map_tab. f_equal. apply tab_ext. intros k Hk. cbn [fst snd]. unfold pw, tapered, seg_mean. ring.
Qed.

(** ** Value *)
Theorem C96_value x fs (nr : nat) : (1 <= nr)%nat -> (nr <= len x)%nat -> fs <> 0 ->
  let L := (len x / nr)%nat in
  scipy_psd x fs (Z.of_nat nr) = Ok (tab (L / 2 + 1) (fun k => INR k * fs / INR L), tab (L / 2 + 1) (density x fs L)).
Proof.
  intros Hr Hn Hf L. assert (HL : (1 <= L)%nat) by (apply Nat.div_le_lower_bound; lia).
  assert (HLn : (L <= len x)%nat) by (apply Nat.div_le_upper_bound; nia). assert (L0 : INR L <> 0) by (apply not_0_INR; lia).
  unfold scipy_psd. rewrite (proj2 (Z.eqb_neq _ 0)) by lia. rewrite Z.quot_div_nonneg, <- Nat2Z.inj_div by lia. fold L.
  unfold welch. rewrite (proj2 (Nat.eqb_neq _ 0)) by lia. rewrite (proj2 (Z.ltb_ge _ 1)) by lia. rewrite Nat2Z.id, (Nat.min_l L) by exact HLn. cbv zeta.
  unfold pydiv. cbn [neqb ofZ ndiv RNum]. rewrite (proj2 (Reqb_false fs 0) Hf). cbn [bind]. fold (hop L). fold (nseg (len x) L).
  unfold segments. rewrite (mapM_Ok _ (fun seg => match periodogram (hann L) seg with Ok v => v | Err _ => [] end)).
  2:{ intros seg Hin. apply in_map_iff in Hin as (s & <- & Hs). apply in_seq in Hs. rewrite periodogram_eq; [reflexivity|exact HL|]. apply seg_fits; lia. }
  cbn [bind]. rewrite map_map. do 2 f_equal.
  - apply tab_ext. intros k Hk. field. split; assumption.
  - apply tab_ext. intros k Hk. rewrite map_map, sumR_seq. unfold density.
    rewrite (bigsum_ext _ _ (fun s => weight L k / (fs * energy L) * pw L (tapered x L (s * hop L)) k)).
    + rewrite bigsum_scal. unfold Rdiv. ring.
    + intros s Hs. rewrite periodogram_eq by (try exact HL; apply seg_fits; lia). rewrite nth_tab by lia.
      rewrite hann_tab, map_tab. unfold sumR. rewrite asum_tab. unfold energy.
      rewrite (bigsum_ext L (fun j => hannw L j * hannw L j) (fun j => hannw L j ^ 2)) by (intros; ring). rewrite sided_weight by lia. unfold Rdiv. ring.
Qed.
Print Assumptions C96_value.

(** every other call *)
Theorem C96_errors x fs :
  scipy_psd x fs 0 = Err ZeroDivisionError /\
  (forall nr, nr <> 0%Z -> x = [] -> scipy_psd x fs nr = Ok ([], [])) /\
  (forall nr, nr <> 0%Z -> x <> [] -> (nr < 0 \/ Z.of_nat (len x) < nr)%Z -> scipy_psd x fs nr = Err ValueError) /\
  (forall nr, (1 <= nr <= Z.of_nat (len x))%Z -> scipy_psd x 0 nr = Err ZeroDivisionError).
Proof.
  split; [reflexivity|]. split; [|split].
  - intros nr H ->. unfold scipy_psd. now rewrite (proj2 (Z.eqb_neq _ 0)).
  - intros nr H Hx Hn. unfold scipy_psd. rewrite (proj2 (Z.eqb_neq _ 0)) by exact H. unfold welch.
    assert (len x <> 0%nat) by (destruct x; [contradiction|cbn; lia]). rewrite (proj2 (Nat.eqb_neq _ 0)) by assumption.
    rewrite (proj2 (Z.ltb_lt _ 1)); [reflexivity|]. destruct Hn as [Hn|Hn].
    + pose proof (Z.quot_opp_r (Z.of_nat (len x)) (- nr) ltac:(lia)) as Q. rewrite Z.opp_involutive in Q. rewrite Q.
      pose proof (Z.quot_pos (Z.of_nat (len x)) (- nr) ltac:(lia) ltac:(lia)). lia.
    + rewrite Z.quot_small; lia.
  - intros nr H. unfold scipy_psd. rewrite (proj2 (Z.eqb_neq _ 0)) by lia. unfold welch. rewrite (proj2 (Nat.eqb_neq _ 0)) by lia.
    rewrite (proj2 (Z.ltb_ge _ 1)); [|rewrite Z.quot_div_nonneg by lia; apply Z.div_le_lower_bound; lia]. cbv zeta.
    unfold pydiv. cbn [neqb ofZ ndiv RNum]. rewrite (proj2 (Reqb_true 0 0) eq_refl). reflexivity.
Qed.
Print Assumptions C96_errors.

(** ** Blind to an offset, quadratic in the unit *)
Lemma tapered_affine x c b L a j : (1 <= L)%nat -> (a + L <= len x)%nat -> (j < L)%nat -> tapered (map (fun v => c * v + b) x) L a j = c * tapered x L a j.
Proof.
  intros HL Ha Hj. assert (L0 : INR L <> 0) by (apply not_0_INR; lia).
  assert (E : forall i, (i < L)%nat -> (map (fun v => c * v + b) x).[a + i] = c * x.[a + i] + b).
  { intros i Hi. rewrite (nth_indep _ 0 (c * 0 + b)) by (rewrite map_length; lia). now rewrite (map_nth (fun v => c * v + b)). }
  unfold tapered, seg_mean. rewrite E by exact Hj. rewrite (bigsum_ext L (fun i => (map (fun v => c * v + b) x).[a + i]) (fun i => c * x.[a + i] + b)) by exact E.
  rewrite bigsum_plus, bigsum_scal, bigsum_const. field. exact L0.
Qed.
Lemma pw_ext N f g k : (forall i, (i < N)%nat -> f i = g i) -> pw N f k = pw N g k.
Proof. intros H. unfold pw, dc, ds. f_equal; f_equal; apply bigsum_ext; intros i Hi; now rewrite H. Qed.
Lemma pw_scal N f c k : pw N (fun i => c * f i) k = c ^ 2 * pw N f k.
Proof.
  unfold pw, dc, ds. rewrite (bigsum_ext N (fun n => c * f n * cos _) (fun n => c * (f n * cos (2 * PI * INR k * INR n / INR N)))) by (intros; ring).
  rewrite (bigsum_ext N (fun n => c * f n * sin _) (fun n => c * (f n * sin (2 * PI * INR k * INR n / INR N)))) by (intros; ring). rewrite !bigsum_scal. ring.
Qed.
Lemma density_affine x c b fs L k : (1 <= L <= len x)%nat -> density (map (fun v => c * v + b) x) fs L k = c ^ 2 * density x fs L k.
Proof.
  intros HL. unfold density. rewrite map_length.
  rewrite (bigsum_ext _ (fun s => pw L (tapered (map _ x) L (s * hop L)) k) (fun s => c ^ 2 * pw L (tapered x L (s * hop L)) k)).
  - rewrite bigsum_scal. unfold Rdiv. ring.
  - intros s Hs. rewrite <- pw_scal. apply pw_ext. intros i Hi. apply tapered_affine; [lia|apply seg_fits; lia|exact Hi].
Qed.
Theorem C96_affine x c b fs nr f p : (1 <= nr)%nat -> (nr <= len x)%nat -> fs <> 0 -> scipy_psd x fs (Z.of_nat nr) = Ok (f, p) ->
  scipy_psd (map (fun v => c * v + b) x) fs (Z.of_nat nr) = Ok (f, map (fun v => c ^ 2 * v) p).
Proof.
  intros Hr Hn Hf E. rewrite C96_value in * by (rewrite ?map_length; assumption). cbv zeta in *. rewrite map_length. injection E as <- <-. rewrite map_tab. do 2 f_equal.
  apply tab_ext. intros k Hk. apply density_affine. split; [apply Nat.div_le_lower_bound|apply Nat.div_le_upper_bound]; nia.
Qed.
Print Assumptions C96_affine.

(** ** Parseval: the density integrates to the mean variance of the segments, weighted with the squared window *)
Lemma even_half L : Nat.even L = true -> L = (2 * (L / 2))%nat.
Proof. intros H. apply Nat.even_spec in H as [q ->]. rewrite (Nat.mul_comm 2 q), Nat.div_mul by lia. lia. Qed.
Lemma odd_half L : Nat.even L = false -> L = (2 * (L / 2) + 1)%nat.
Proof.
  intros H. assert (O : Nat.odd L = true) by (now rewrite <- Nat.negb_even, H). apply Nat.odd_spec in O as [q ->]. f_equal. f_equal.
  apply (Nat.div_unique (2 * q + 1) 2 q 1); lia.
Qed.
Lemma half_sum L y : (1 <= L)%nat -> bigsum (L / 2 + 1) (fun k => weight L k * pw L y k) = INR L * bigsum L (fun j => y j ^ 2).
Proof.
  intros HL. assert (G : bigsum (L / 2 + 1) (fun k => weight L k * pw L y k) =
      2 * bigsum (L / 2 + 1) (pw L y) - pw L y 0 - (if Nat.even L then pw L y (L / 2) else 0)).
  { rewrite <- bigsum_scal. rewrite (bigsum_ext _ (fun k => weight L k * pw L y k)
      (fun k => 2 * pw L y k + (if Nat.eqb k 0 then - pw L y 0 else 0) + (if Nat.even L && Nat.eqb k (L / 2) then - pw L y (L / 2) else 0))).
    - rewrite !bigsum_plus. rewrite (bigsum_only _ 0 (fun k => if Nat.eqb k 0 then _ else _)); [|lia|intros i _ Hi; now rewrite (proj2 (Nat.eqb_neq i 0) Hi)].
      cbn [Nat.eqb]. destruct (Nat.even L) eqn:E; cbn [andb].
      + rewrite (bigsum_only _ (L / 2) (fun k => if Nat.eqb k (L / 2) then - pw L y (L / 2) else 0)); [|lia|intros i _ Hi; now rewrite (proj2 (Nat.eqb_neq i _) Hi)]. rewrite Nat.eqb_refl. ring.
      + rewrite (bigsum_0 _ (fun _ => 0)) by reflexivity. ring.
    - intros k Hk. rewrite <- sided_weight by lia. unfold sided. destruct (Nat.eqb_spec k 0) as [->|H0]; cbn [orb].
      + destruct (Nat.even L) eqn:E; cbn [andb]; [|ring]. apply even_half in E. rewrite (proj2 (Nat.eqb_neq 0 (L / 2))) by lia. ring.
      + destruct (Nat.even L) eqn:E; cbn [andb]; [|ring]. destruct (Nat.eqb_spec k (L / 2)) as [->|H1]; ring. }
  rewrite G. destruct (Nat.even L) eqn:E.
  - apply even_half in E. pose proof (parseval_even (L / 2) y ltac:(lia)) as P. rewrite <- E in P. rewrite Nat.add_1_r. rewrite P.
    assert (EQ : INR L = 2 * INR (L / 2)) by (rewrite E at 1; now rewrite mult_INR). rewrite EQ. ring.
  - apply odd_half in E. pose proof (parseval_odd (L / 2) y) as P. rewrite <- E in P. rewrite Nat.add_1_r, P. ring.
Qed.
Theorem C96_parseval x fs nr f p : (1 <= nr)%nat -> (nr <= len x)%nat -> fs <> 0 -> scipy_psd x fs (Z.of_nat nr) = Ok (f, p) ->
  let L := (len x / nr)%nat in let K := nseg (len x) L in
  bigsum (len p) (fun k => p.[k]) * (fs / INR L) = bigsum K (fun s => bigsum L (fun j => tapered x L (s * hop L) j ^ 2) / energy L) / INR K.
Proof.
  intros Hr Hn Hf E L K. rewrite C96_value in E by assumption. cbv zeta in E. fold L in E. injection E as _ <-. rewrite tab_length.
  assert (HL : (1 <= L)%nat) by (apply Nat.div_le_lower_bound; lia). assert (L0 : INR L <> 0) by (apply not_0_INR; lia).
  assert (K0 : INR K <> 0) by (apply not_0_INR; pose proof (nseg_pos (len x) L); assert (L <= len x)%nat by (apply Nat.div_le_upper_bound; nia); unfold K; lia).
  pose proof (energy_pos L HL) as EP.
  rewrite (bigsum_ext _ _ (density x fs L)) by (intros k Hk; now rewrite nth_tab). unfold density. fold K.
  rewrite (bigsum_ext _ _ (fun k => / (fs * energy L * INR K) * bigsum K (fun s => weight L k * pw L (tapered x L (s * hop L)) k))).
  2:{ intros k Hk. rewrite bigsum_scal. field. repeat split; try assumption; lra. }
  rewrite bigsum_scal, bigsum_swap. rewrite (bigsum_ext K _ (fun s => INR L * bigsum L (fun j => tapered x L (s * hop L) j ^ 2))) by (intros; now apply half_sum).
  rewrite bigsum_scal. unfold Rdiv at 3. rewrite (bigsum_ext K (fun s => _ * / energy L) (fun s => / energy L * bigsum L (fun j => tapered x L (s * hop L) j ^ 2))) by (intros; ring).
  rewrite bigsum_scal. field. repeat split; try assumption; lra.
Qed.
Print Assumptions C96_parseval.

(** ** Mean of the density of the generated noises *)
(** value scipy_psd gives at bin k *)
Definition welch_at (fs : R) (nr k : nat) (y : list R) : R := match scipy_psd y fs (Z.of_nat nr) with Ok (_, p) => p.[k] | Err _ => 0 end.

Lemma E_bsum K E n (f : nat -> (nat -> R) -> R) : white K E -> E (fun w => bigsum n (fun s => f s w)) = bigsum n (fun s => E (f s)).
Proof.
  intros HE. induction n as [|n IH]; cbn [bigsum].
  - rewrite (wh_ext K E HE _ (fun _ => 0 * 0)) by (intros; ring). rewrite (wh_scal K E HE 0 (fun _ => 0)). ring.
  - now rewrite (wh_add K E HE), IH.
Qed.
Definition ang (L : nat) (d : Z) (i : nat) : R := INR i * (2 * PI * IZR d / INR L).
Lemma dc_ang L y k : dc L y k = bigsum L (fun i => y i * cos (ang L (Z.of_nat k) i)).
Proof. unfold dc, ang. apply bigsum_ext. intros i _. do 2 f_equal. rewrite <- INR_IZR_INZ. unfold Rdiv. ring. Qed.
Lemma ds_ang L y k : ds L y k = bigsum L (fun i => y i * sin (ang L (Z.of_nat k) i)).
Proof. unfold ds, ang. apply bigsum_ext. intros i _. do 2 f_equal. rewrite <- INR_IZR_INZ. unfold Rdiv. ring. Qed.
Lemma hann_cos L d i : (2 <= L)%nat -> hannw L i * cos (ang L d i) = 1 / 2 * cos (ang L d i) - 1 / 4 * cos (ang L (d + 1) i) - 1 / 4 * cos (ang L (d - 1) i).
Proof.
  intros HL. assert (L0 : INR L <> 0) by (apply not_0_INR; lia). unfold hannw. destruct (Nat.leb_spec L 1); [lia|].
  replace (2 * PI * INR i / INR L) with (ang L 1 i) by (unfold ang; field; exact L0).
  replace (ang L (d + 1) i) with (ang L d i + ang L 1 i) by (unfold ang; rewrite plus_IZR; field; exact L0).
  replace (ang L (d - 1) i) with (ang L d i - ang L 1 i) by (unfold ang; rewrite minus_IZR; field; exact L0).
  rewrite cos_plus, cos_minus. field.
Qed.
Lemma hann_sin L d i : (2 <= L)%nat -> hannw L i * sin (ang L d i) = 1 / 2 * sin (ang L d i) - 1 / 4 * sin (ang L (d + 1) i) - 1 / 4 * sin (ang L (d - 1) i).
Proof.
  intros HL. assert (L0 : INR L <> 0) by (apply not_0_INR; lia). unfold hannw. destruct (Nat.leb_spec L 1); [lia|].
  replace (2 * PI * INR i / INR L) with (ang L 1 i) by (unfold ang; field; exact L0).
  replace (ang L (d + 1) i) with (ang L d i + ang L 1 i) by (unfold ang; rewrite plus_IZR; field; exact L0).
  replace (ang L (d - 1) i) with (ang L d i - ang L 1 i) by (unfold ang; rewrite minus_IZR; field; exact L0).
  rewrite sin_plus, sin_minus. field.
Qed.
Lemma bs3 n a b c f g h : bigsum n (fun i => a * f i - b * g i - c * h i) = a * bigsum n f - b * bigsum n g - c * bigsum n h.
Proof. induction n as [|n IH]; cbn [bigsum]; [ring|rewrite IH; ring]. Qed.
Lemma csum L d : (1 <= L)%nat -> bigsum L (fun i => cos (ang L d i)) = if (d =? 0)%Z then INR L else if (d mod Z.of_nat L =? 0)%Z then bigsum L (fun i => cos (ang L d i)) else 0.
Proof.
  intros HL. destruct (Z.eqb_spec d 0) as [->|H0].
  - rewrite (bigsum_ext L _ (fun _ => 1)), bigsum_const; [ring|]. intros i _. unfold ang. replace (INR i * (2 * PI * 0 / INR L)) with 0 by (unfold Rdiv; ring). apply cos_0.
  - destruct (Z.eqb_spec (d mod Z.of_nat L) 0) as [|H1]; [reflexivity|]. apply char_cos; [lia|]. intros q ->. apply H1. apply Z.mod_mul. lia.
Qed.
Lemma csum_0 L : (1 <= L)%nat -> bigsum L (fun i => cos (ang L 0 i)) = INR L.
Proof. intros HL. now rewrite csum. Qed.
Lemma csum_nz L d : (- Z.of_nat L < d < Z.of_nat L)%Z -> d <> 0%Z -> bigsum L (fun i => cos (ang L d i)) = 0.
Proof. intros H H0. apply char_cos; [lia|]. now apply no_multiple. Qed.
Lemma W_sin L d : (2 <= L)%nat -> bigsum L (fun i => hannw L i * sin (ang L d i)) = 0.
Proof.
  intros HL. rewrite (bigsum_ext L _ _ (fun i _ => hann_sin L d i HL)), bs3. unfold ang. rewrite !char_sin by lia. ring.
Qed.
Lemma W_cos L k : (3 <= L)%nat -> (2 * k <= L)%nat -> bigsum L (fun i => hannw L i * cos (ang L (Z.of_nat k) i)) = match k with 0%nat => INR L / 2 | 1%nat => - (INR L / 4) | _ => 0 end.
Proof.
  intros HL Hk. rewrite (bigsum_ext L _ _ (fun i _ => hann_cos L (Z.of_nat k) i ltac:(lia))), bs3. destruct k as [|[|k]].
  - cbn [Z.of_nat]. rewrite csum_0, !csum_nz by lia. field.
  - change (Z.of_nat 1 - 1)%Z with 0%Z. rewrite csum_0, !csum_nz by lia. field.
  - rewrite !csum_nz by lia. ring.
Qed.
Lemma energy_eq L : (3 <= L)%nat -> energy L = 3 * INR L / 8.
Proof.
  intros HL. assert (L0 : INR L <> 0) by (apply not_0_INR; lia). unfold energy.
  rewrite (bigsum_ext L _ (fun i => 3 / 8 * cos (ang L 0 i) - 1 / 2 * cos (ang L 1 i) - - (1 / 8) * cos (ang L 2 i))).
  - rewrite bs3, csum_0, !csum_nz by lia. field.
  - intros i _. unfold hannw. destruct (Nat.leb_spec L 1); [lia|].
    replace (2 * PI * INR i / INR L) with (ang L 1 i) by (unfold ang; field; exact L0).
    replace (ang L 2 i) with (2 * ang L 1 i) by (unfold ang; field; exact L0). rewrite cos_2a_cos.
    replace (ang L 0 i) with 0 by (unfold ang; field; exact L0). rewrite cos_0. field.
Qed.
(** Fourier sums of a tapered segment as linear forms of the series *)
Lemma taper_lin n (u : nat -> R) L a (c : nat -> R) : (1 <= L)%nat -> (a + L <= n)%nat ->
  bigsum L (fun i => tapered (tab n u) L a i * c i) = bigsum L (fun i => (hannw L i * c i - bigsum L (fun j => hannw L j * c j) / INR L) * u (a + i)%nat).
Proof.
  intros HL Ha. assert (L0 : INR L <> 0) by (apply not_0_INR; lia). set (W := bigsum L (fun j => hannw L j * c j)).
  unfold tapered, seg_mean. set (m := bigsum L (fun j => (tab n u).[a + j]) / INR L).
  assert (Em : m = bigsum L (fun j => u (a + j)%nat) / INR L) by (unfold m; f_equal; apply bigsum_ext; intros j Hj; apply nth_tab; lia).
  rewrite (bigsum_ext L _ (fun i => hannw L i * c i * u (a + i)%nat + - m * (hannw L i * c i))) by (intros i Hi; rewrite nth_tab by lia; ring).
  rewrite bigsum_plus, bigsum_scal. fold W.
  rewrite (bigsum_ext L (fun i => (hannw L i * c i - W / INR L) * u (a + i)%nat) (fun i => hannw L i * c i * u (a + i)%nat + - (W / INR L) * u (a + i)%nat)) by (intros; ring).
  rewrite bigsum_plus, bigsum_scal, Em. field. exact L0.
Qed.
Lemma welch_lin K E n fs nr k gen y (C S : nat -> nat -> R) V : white K E -> (1 <= nr <= n)%nat -> 0 < fs ->
  let L := (n / nr)%nat in (k <= L / 2)%nat ->
  (forall w, gen w = Ok (tab n (y w))) ->
  (forall a w, (a + L <= n)%nat -> dc L (tapered (tab n (y w)) L a) k = bigsum K (fun j => C a j * w j)) ->
  (forall a w, (a + L <= n)%nat -> ds L (tapered (tab n (y w)) L a) k = bigsum K (fun j => S a j * w j)) ->
  (forall a, (a + L <= n)%nat -> bigsum K (fun j => C a j ^ 2) + bigsum K (fun j => S a j ^ 2) = V) ->
  mean_of E gen (welch_at fs nr k) = weight L k / (fs * energy L) * V.
Proof.
  intros HE Hr Hf L Hk Hg HC HS HV. assert (HL : (1 <= L)%nat) by (apply Nat.div_le_lower_bound; lia). assert (HLn : (L <= n)%nat) by (apply Nat.div_le_upper_bound; nia).
  set (M := nseg n L). assert (HM : (1 <= M)%nat) by (apply nseg_pos; lia). assert (M0 : INR M <> 0) by (apply not_0_INR; lia).
  unfold mean_of. set (c := weight L k / (fs * energy L)).
  rewrite (wh_ext K E HE _ (fun w => c / INR M * bigsum M (fun s => bigsum K (fun j => C (s * hop L)%nat j * w j) ^ 2 + bigsum K (fun j => S (s * hop L)%nat j * w j) ^ 2))).
  - rewrite (wh_scal K E HE), (E_bsum K E M _ HE). rewrite (bigsum_ext M _ (fun _ => V)), bigsum_const; [field; exact M0|].
    intros s Hs. rewrite (wh_add K E HE), !(E_lin K E HE) by lia. apply HV. now apply seg_fits.
  - intros w. rewrite Hg. unfold welch_at. rewrite C96_value by (rewrite ?tab_length; try lia; lra). cbv zeta. rewrite tab_length. fold L. rewrite nth_tab by lia.
    unfold density. rewrite tab_length. fold M. fold c. rewrite (bigsum_ext M (fun s => pw L _ k) (fun s => bigsum K (fun j => C (s * hop L)%nat j * w j) ^ 2 + bigsum K (fun j => S (s * hop L)%nat j * w j) ^ 2)).
    + field. exact M0.
    + intros s Hs. unfold pw. rewrite HC, HS by (now apply seg_fits). reflexivity.
Qed.
Lemma embed n a L (g : nat -> R) : (a + L <= n)%nat -> bigsum n (fun j => if (a <=? j)%nat && (j <? a + L)%nat then g j else 0) = bigsum L (fun i => g (a + i)%nat).
Proof.
  intros H. replace n with (a + (L + (n - a - L)))%nat by lia. rewrite !bigsum_add.
  rewrite (bigsum_0 a) by (intros j Hj; now rewrite (proj2 (Nat.leb_gt a j) Hj)).
  rewrite (bigsum_0 (n - a - L)) by (intros j Hj; rewrite (proj2 (Nat.ltb_ge (a + (L + j)) (a + L))) by lia; now rewrite andb_false_r).
  rewrite Rplus_0_l, Rplus_0_r. apply bigsum_ext. intros i Hi. now rewrite (proj2 (Nat.leb_le a (a + i))), (proj2 (Nat.ltb_lt (a + i) (a + L))) by lia.
Qed.
Lemma embed_lin n a L (c : nat -> R) (w : nat -> R) : (a + L <= n)%nat ->
  bigsum n (fun j => (if (a <=? j)%nat && (j <? a + L)%nat then c (j - a)%nat else 0) * w j) = bigsum L (fun i => c i * w (a + i)%nat).
Proof.
  intros H. rewrite (bigsum_ext n _ (fun j => if (a <=? j)%nat && (j <? a + L)%nat then c (j - a)%nat * w j else 0)) by (intros j _; destruct (_ && _); ring).
  rewrite embed by exact H. apply bigsum_ext. intros i _. now replace (a + i - a)%nat with i by lia.
Qed.
Lemma embed_sq n a L (c : nat -> R) : (a + L <= n)%nat ->
  bigsum n (fun j => (if (a <=? j)%nat && (j <? a + L)%nat then c (j - a)%nat else 0) ^ 2) = bigsum L (fun i => c i ^ 2).
Proof.
  intros H. rewrite (bigsum_ext n _ (fun j => if (a <=? j)%nat && (j <? a + L)%nat then c (j - a)%nat ^ 2 else 0)) by (intros j _; destruct (_ && _); ring).
  rewrite embed by exact H. apply bigsum_ext. intros i _. now replace (a + i - a)%nat with i by lia.
Qed.

(** white noise of level b0: the density is b0 except in the two lowest bins, where the mean was removed, and half of it at the Nyquist frequency *)
Definition white_level (L k : nat) : R :=
  match k with 0%nat => 1 / 6 | 1%nat => 5 / 6 | _ => if Nat.even L && Nat.eqb k (L / 2) then 1 / 2 else 1 end.
Theorem C96_white E n b0 fs nr k : white n E -> 0 <= b0 -> 0 < fs -> (1 <= nr)%nat ->
  let L := (n / nr)%nat in (3 <= L)%nat -> (k <= L / 2)%nat ->
  mean_of E (fun w => ModelNoise.white w n b0 fs) (welch_at fs nr k) = white_level L k * b0.
Proof.
  intros HE Hb Hf Hr L HL Hk. assert (L0 : 0 < INR L) by (apply lt_0_INR; lia). assert (Hn : (nr <= n)%nat) by (destruct (Nat.le_gt_cases nr n) as [H|H]; [exact H|]; unfold L in HL; rewrite Nat.div_small in HL; lia).
  assert (H2 : (2 * k <= L)%nat) by (pose proof (Nat.mul_div_le L 2); lia).
  set (Cc := fun i => cos (ang L (Z.of_nat k) i)). set (Cs := fun i => sin (ang L (Z.of_nat k) i)).
  set (g := fun c : nat -> R => fun i => wscale b0 fs * (hannw L i * c i - bigsum L (fun j => hannw L j * c j) / INR L)).
  rewrite (welch_lin n E n fs nr k _ (fun w i => wscale b0 fs * w i) (fun a j => if (a <=? j)%nat && (j <? a + L)%nat then g Cc (j - a)%nat else 0)
    (fun a j => if (a <=? j)%nat && (j <? a + L)%nat then g Cs (j - a)%nat else 0) (bigsum L (fun i => g Cc i ^ 2) + bigsum L (fun i => g Cs i ^ 2)) HE).
  - fold L. unfold g. rewrite (W_cos L k HL H2 : bigsum L (fun j => hannw L j * Cc j) = _). rewrite (W_sin L (Z.of_nat k) ltac:(lia) : bigsum L (fun j => hannw L j * Cs j) = 0).
    set (W := match k with 0%nat => _ | 1%nat => _ | _ => _ end).
    assert (Q : bigsum L (fun i => (wscale b0 fs * (hannw L i * Cc i - W / INR L)) ^ 2) + bigsum L (fun i => (wscale b0 fs * (hannw L i * Cs i - 0 / INR L)) ^ 2) = b0 * fs / 2 * (energy L - W ^ 2 / INR L)).
    { rewrite <- bigsum_plus. rewrite (bigsum_ext L _ (fun i => b0 * fs / 2 * hannw L i ^ 2 - (b0 * fs * W / INR L) * (hannw L i * Cc i) - - (b0 * fs / 2 * W ^ 2 / INR L ^ 2) * 1)).
      - rewrite bs3, bigsum_const. rewrite (W_cos L k HL H2 : bigsum L (fun j => hannw L j * Cc j) = _). fold W. fold (energy L). field. lra.
      - intros i _. rewrite !Rpow_mult_distr, wscale_sq by assumption. pose proof (trig1 (ang L (Z.of_nat k) i)) as T. fold (Cc i) (Cs i) in T.
        transitivity (b0 * fs / 2 * (hannw L i ^ 2 * (Cc i ^ 2 + Cs i ^ 2) - 2 * (W / INR L) * (hannw L i * Cc i) + (W / INR L) ^ 2)); [field; lra|]. rewrite T. field. lra. }
    rewrite Q, energy_eq by exact HL. rewrite <- sided_weight by exact Hk. unfold white_level, sided, W. clear Q. destruct k as [|[|k]].
    + cbn [Nat.eqb orb]. field. lra.
    + replace (Nat.even L && Nat.eqb 1 (L / 2)) with false.
      * cbn [Nat.eqb orb]. field. lra.
      * symmetry. destruct (Nat.even L) eqn:E'; [|reflexivity]. apply even_half in E'. apply Nat.eqb_neq. lia.
    + change (Nat.eqb (S (S k)) 0) with false. rewrite orb_false_l. destruct (Nat.even L && Nat.eqb (S (S k)) (L / 2)); field; lra.
  - lia.
  - exact Hf.
  - exact Hk.
  - intros w. now apply white_series.
  - intros a w Ha. rewrite dc_ang, taper_lin by (try exact Ha; lia). rewrite embed_lin by exact Ha. apply bigsum_ext. intros i _. unfold g, Cc. fold L. cbv beta. ring.
  - intros a w Ha. rewrite ds_ang, taper_lin by (try exact Ha; lia). rewrite embed_lin by exact Ha. apply bigsum_ext. intros i _. unfold g, Cs. fold L. cbv beta. ring.
  - intros a Ha. now rewrite !embed_sq by exact Ha.
Qed.
Print Assumptions C96_white.

(** ** Brown and violet noise *)
Lemma char_shift L d del : (- Z.of_nat L < d < Z.of_nat L)%Z -> d <> 0%Z -> bigsum L (fun i => cos ((INR i + del) * (2 * PI * IZR d / INR L))) = 0.
Proof.
  intros H H0. set (f := 2 * PI * IZR d / INR L).
  rewrite (bigsum_ext L _ (fun i => cos (del * f) * cos (INR i * f) - sin (del * f) * sin (INR i * f) - 0 * 0)).
  - rewrite (bs3 L _ _ _ (fun i => cos (INR i * f)) (fun i => sin (INR i * f)) (fun _ => 0)). unfold f. rewrite char_cos, char_sin by (try lia; now apply no_multiple). ring.
  - intros i _. rewrite Rmult_plus_distr_r, cos_plus. ring.
Qed.
Lemma tri_cos p q r A B C : (p * cos A + q * cos B + r * cos C) ^ 2 + (p * sin A + q * sin B + r * sin C) ^ 2 =
  (p ^ 2 + q ^ 2 + r ^ 2) + 2 * p * q * cos (B - A) + 2 * p * r * cos (A - C) + 2 * q * r * cos (B - C).
Proof.
  rewrite !cos_minus. pose proof (trig1 A) as TA. pose proof (trig1 B) as TB. pose proof (trig1 C) as TC.
  transitivity (p ^ 2 * (cos A ^ 2 + sin A ^ 2) + q ^ 2 * (cos B ^ 2 + sin B ^ 2) + r ^ 2 * (cos C ^ 2 + sin C ^ 2) + 2 * p * q * (cos B * cos A + sin B * sin A)
     + 2 * p * r * (cos A * cos C + sin A * sin C) + 2 * q * r * (cos B * cos C + sin B * sin C)); [ring|]. rewrite TA, TB, TC. ring.
Qed.
Definition pha (L : nat) (d : Z) (del : R) (i : nat) : R := (INR i + del) * (2 * PI * IZR d / INR L).
(** three neighbouring Fourier components are orthogonal *)
Lemma three L d del p q r : (3 <= L)%nat ->
  bigsum L (fun i => (p * cos (pha L d del i) + q * cos (pha L (d + 1) del i) + r * cos (pha L (d - 1) del i)) ^ 2 +
                     (p * sin (pha L d del i) + q * sin (pha L (d + 1) del i) + r * sin (pha L (d - 1) del i)) ^ 2) = INR L * (p ^ 2 + q ^ 2 + r ^ 2).
Proof.
  intros HL. assert (L0 : INR L <> 0) by (apply not_0_INR; lia).
  rewrite (bigsum_ext L _ (fun i => (p ^ 2 + q ^ 2 + r ^ 2) * 1 - - (2 * p * q + 2 * p * r) * cos ((INR i + del) * (2 * PI * IZR 1 / INR L)) - - (2 * q * r) * cos ((INR i + del) * (2 * PI * IZR 2 / INR L)))).
  - rewrite bs3, bigsum_const, !char_shift by lia. ring.
  - intros i _. rewrite tri_cos. unfold pha. rewrite plus_IZR, minus_IZR.
    replace ((INR i + del) * (2 * PI * (IZR d + 1) / INR L) - (INR i + del) * (2 * PI * IZR d / INR L)) with ((INR i + del) * (2 * PI * IZR 1 / INR L)) by (field; exact L0).
    replace ((INR i + del) * (2 * PI * IZR d / INR L) - (INR i + del) * (2 * PI * (IZR d - 1) / INR L)) with ((INR i + del) * (2 * PI * IZR 1 / INR L)) by (field; exact L0).
    replace ((INR i + del) * (2 * PI * (IZR d + 1) / INR L) - (INR i + del) * (2 * PI * (IZR d - 1) / INR L)) with ((INR i + del) * (2 * PI * IZR 2 / INR L)) by (field; exact L0). ring.
Qed.
Definition gc (L k : nat) (i : nat) : R := hannw L i * cos (ang L (Z.of_nat k) i).
Definition gs (L k : nat) (i : nat) : R := hannw L i * sin (ang L (Z.of_nat k) i).
Lemma g_ends L k : (2 <= L)%nat -> gc L k 0 = 0 /\ gs L k 0 = 0 /\ gc L k L = 0 /\ gs L k L = 0.
Proof.
  intros HL. assert (L0 : INR L <> 0) by (apply not_0_INR; lia).
  assert (A : hannw L 0 = 0) by (unfold hannw; destruct (Nat.leb_spec L 1); [lia|]; change (INR 0) with 0; replace (2 * PI * 0 / INR L) with 0 by (field; exact L0); rewrite cos_0; field).
  assert (B : hannw L L = 0) by (unfold hannw; destruct (Nat.leb_spec L 1); [lia|]; replace (2 * PI * INR L / INR L) with (2 * PI) by (field; exact L0); rewrite cos_2PI; field).
  unfold gc, gs. rewrite A, B. repeat split; ring.
Qed.
(** half angles *)
Definition hs (L : nat) (d : Z) : R := sin (PI * IZR d / INR L).
Definition hc (L : nat) (d : Z) : R := cos (PI * IZR d / INR L).

Lemma diff_cos L d i : (1 <= L)%nat -> cos (ang L d (S i)) - cos (ang L d i) = - (2 * hs L d) * sin (pha L d (1 / 2) i).
Proof.
  intros HL. assert (L0 : INR L <> 0) by (apply not_0_INR; lia). unfold ang, pha, hs. rewrite S_INR.
  replace ((INR i + 1) * (2 * PI * IZR d / INR L)) with ((INR i + 1 / 2) * (2 * PI * IZR d / INR L) + PI * IZR d / INR L) by (field; exact L0).
  replace (INR i * (2 * PI * IZR d / INR L)) with ((INR i + 1 / 2) * (2 * PI * IZR d / INR L) - PI * IZR d / INR L) by (field; exact L0).
  rewrite cos_plus, cos_minus. ring.
Qed.
Lemma diff_sin L d i : (1 <= L)%nat -> sin (ang L d (S i)) - sin (ang L d i) = 2 * hs L d * cos (pha L d (1 / 2) i).
Proof.
  intros HL. assert (L0 : INR L <> 0) by (apply not_0_INR; lia). unfold ang, pha, hs. rewrite S_INR.
  replace ((INR i + 1) * (2 * PI * IZR d / INR L)) with ((INR i + 1 / 2) * (2 * PI * IZR d / INR L) + PI * IZR d / INR L) by (field; exact L0).
  replace (INR i * (2 * PI * IZR d / INR L)) with ((INR i + 1 / 2) * (2 * PI * IZR d / INR L) - PI * IZR d / INR L) by (field; exact L0).
  rewrite sin_plus, sin_minus. ring.
Qed.
Lemma diff_energy L k : (3 <= L)%nat ->
  bigsum L (fun i => (gc L k (S i) - gc L k i) ^ 2) + bigsum L (fun i => (gs L k (S i) - gs L k i) ^ 2) =
  INR L * (hs L (Z.of_nat k) ^ 2 + 1 / 4 * hs L (Z.of_nat k + 1) ^ 2 + 1 / 4 * hs L (Z.of_nat k - 1) ^ 2).
Proof.
  intros HL. rewrite <- bigsum_plus. set (d := Z.of_nat k).
  rewrite (bigsum_ext L _ (fun i => (hs L d * cos (pha L d (1 / 2) i) + - (1 / 2 * hs L (d + 1)) * cos (pha L (d + 1) (1 / 2) i) + - (1 / 2 * hs L (d - 1)) * cos (pha L (d - 1) (1 / 2) i)) ^ 2 +
     (hs L d * sin (pha L d (1 / 2) i) + - (1 / 2 * hs L (d + 1)) * sin (pha L (d + 1) (1 / 2) i) + - (1 / 2 * hs L (d - 1)) * sin (pha L (d - 1) (1 / 2) i)) ^ 2)).
  - rewrite three by exact HL. field.
  - intros i _. unfold gc, gs. fold d. rewrite !hann_cos, !hann_sin by lia.
    replace (1 / 2 * cos (ang L d (S i)) - 1 / 4 * cos (ang L (d + 1) (S i)) - 1 / 4 * cos (ang L (d - 1) (S i)) - (1 / 2 * cos (ang L d i) - 1 / 4 * cos (ang L (d + 1) i) - 1 / 4 * cos (ang L (d - 1) i)))
      with (1 / 2 * (cos (ang L d (S i)) - cos (ang L d i)) - 1 / 4 * (cos (ang L (d + 1) (S i)) - cos (ang L (d + 1) i)) - 1 / 4 * (cos (ang L (d - 1) (S i)) - cos (ang L (d - 1) i))) by ring.
    replace (1 / 2 * sin (ang L d (S i)) - 1 / 4 * sin (ang L (d + 1) (S i)) - 1 / 4 * sin (ang L (d - 1) (S i)) - (1 / 2 * sin (ang L d i) - 1 / 4 * sin (ang L (d + 1) i) - 1 / 4 * sin (ang L (d - 1) i)))
      with (1 / 2 * (sin (ang L d (S i)) - sin (ang L d i)) - 1 / 4 * (sin (ang L (d + 1) (S i)) - sin (ang L (d + 1) i)) - 1 / 4 * (sin (ang L (d - 1) (S i)) - sin (ang L (d - 1) i))) by ring.
    rewrite !diff_cos, !diff_sin by lia. field.
Qed.
(** differences of the series: summation by parts over one segment *)
Lemma parts_diff L (g w : nat -> R) a : g 0%nat = 0 -> g L = 0 -> (1 <= L)%nat ->
  bigsum L (fun i => g i * (w (S (a + i)) - w (a + i)%nat)) = bigsum L (fun i => (g i - g (S i)) * w (S a + i)%nat).
Proof.
  intros G0 GL HL. assert (P : forall n, bigsum n (fun i => g i * (w (S (a + i)) - w (a + i)%nat)) = bigsum n (fun i => (g i - g (S i)) * w (S a + i)%nat) + g n * w (a + n)%nat - g 0%nat * w (a + 0)%nat).
  { induction n as [|n IH]; cbn [bigsum]; [ring|]. rewrite IH. replace (a + S n)%nat with (S a + n)%nat by lia. replace (S (a + n)) with (S a + n)%nat by lia. ring. }
  rewrite P, G0, GL. ring.
Qed.
(** partial sums of the windowed characters *)
Lemma part_cos L d n : (1 <= L)%nat -> hs L d <> 0 -> bigsum n (fun i => cos (ang L d i)) = (sin (pha L d (- (1 / 2)) n) + hs L d) / (2 * hs L d).
Proof.
  intros HL H. assert (L0 : INR L <> 0) by (apply not_0_INR; lia). pose proof (dirichlet_cos (2 * PI * IZR d / INR L) n) as D.
  replace (2 * PI * IZR d / INR L / 2) with (PI * IZR d / INR L) in D by (field; exact L0). fold (hs L d) in D.
  apply (Rmult_eq_reg_l (2 * hs L d)); [|lra]. unfold ang. rewrite D. unfold pha. replace (INR n + - (1 / 2)) with (INR n - 1 / 2) by ring. field. exact H.
Qed.
Lemma part_sin L d n : (1 <= L)%nat -> hs L d <> 0 -> bigsum n (fun i => sin (ang L d i)) = (hc L d - cos (pha L d (- (1 / 2)) n)) / (2 * hs L d).
Proof.
  intros HL H. assert (L0 : INR L <> 0) by (apply not_0_INR; lia). pose proof (dirichlet_sin (2 * PI * IZR d / INR L) n) as D.
  replace (2 * PI * IZR d / INR L / 2) with (PI * IZR d / INR L) in D by (field; exact L0). fold (hs L d) (hc L d) in D.
  apply (Rmult_eq_reg_l (2 * hs L d)); [|lra]. unfold ang. rewrite D. unfold pha. replace (INR n + - (1 / 2)) with (INR n - 1 / 2) by ring. field. exact H.
Qed.
Definition kappa (L : nat) (d : Z) : R := hc L d / (4 * hs L d) - hc L (d + 1) / (8 * hs L (d + 1)) - hc L (d - 1) / (8 * hs L (d - 1)).
Lemma sum_energy L k : (4 <= L)%nat -> (2 <= k)%nat -> (2 * k <= L)%nat -> let d := Z.of_nat k in
  bigsum L (fun n => bigsum n (gc L k) ^ 2) + bigsum L (fun n => bigsum n (gs L k) ^ 2) =
  INR L * (kappa L d ^ 2 + / (16 * hs L d ^ 2) + / (64 * hs L (d + 1) ^ 2) + / (64 * hs L (d - 1) ^ 2)).
Proof.
  intros HL Hk H2 d. assert (NZ : forall e, (0 < e < Z.of_nat L)%Z -> hs L e <> 0) by (intros e He; apply sin_frac; [lia|apply no_multiple; lia]).
  assert (N0 : hs L d <> 0) by (apply NZ; lia). assert (N1 : hs L (d + 1) <> 0) by (apply NZ; lia). assert (N2 : hs L (d - 1) <> 0) by (apply NZ; lia).
  rewrite <- bigsum_plus.
  set (p := / (4 * hs L d)). set (q := - / (8 * hs L (d + 1))). set (r := - / (8 * hs L (d - 1))).
  set (T := fun n => p * cos (pha L d (- (1 / 2)) n) + q * cos (pha L (d + 1) (- (1 / 2)) n) + r * cos (pha L (d - 1) (- (1 / 2)) n)).
  set (U := fun n => p * sin (pha L d (- (1 / 2)) n) + q * sin (pha L (d + 1) (- (1 / 2)) n) + r * sin (pha L (d - 1) (- (1 / 2)) n)).
  assert (Hc : forall n, bigsum n (gc L k) = U n).
  { intros n. unfold gc. fold d. rewrite (bigsum_ext n _ _ (fun i _ => hann_cos L d i ltac:(lia))), bs3, !part_cos by (try assumption; lia). unfold U, p, q, r. field. repeat split; assumption. }
  assert (Hs : forall n, bigsum n (gs L k) = kappa L d - T n).
  { intros n. unfold gs. fold d. rewrite (bigsum_ext n _ _ (fun i _ => hann_sin L d i ltac:(lia))), bs3, !part_sin by (try assumption; lia). unfold T, p, q, r, kappa. field. repeat split; assumption. }
  rewrite (bigsum_ext L _ (fun n => kappa L d ^ 2 * 1 - (2 * kappa L d) * T n - - (1) * (T n ^ 2 + U n ^ 2))) by (intros n _; rewrite Hc, Hs; ring).
  rewrite (bs3 L _ _ _ (fun _ => 1) T (fun n => T n ^ 2 + U n ^ 2)). rewrite bigsum_const. unfold T at 2, U. rewrite three by lia.
  assert (TZ : bigsum L T = 0).
  { unfold T. rewrite (bigsum_ext L _ (fun n => p * cos (pha L d (- (1 / 2)) n) - (- q) * cos (pha L (d + 1) (- (1 / 2)) n) - (- r) * cos (pha L (d - 1) (- (1 / 2)) n))) by (intros; ring).
    rewrite bs3. unfold pha. rewrite !char_shift by lia. ring. }
  rewrite TZ. unfold p, q, r. field. repeat split; assumption.
Qed.
Lemma parts_sum L (g w : nat -> R) a :
  bigsum (S L) (fun i => g i * bigsum (S (a + i)) w) = bigsum (S L) g * bigsum (a + S L) w - bigsum L (fun t => bigsum (S t) g * w (S a + t)%nat).
Proof.
  induction L as [|L IH].
  - cbn [bigsum]. rewrite Nat.add_0_r, Nat.add_1_r. cbn [bigsum]. ring.
  - change (bigsum (S (S L)) (fun i => g i * bigsum (S (a + i)) w)) with (bigsum (S L) (fun i => g i * bigsum (S (a + i)) w) + g (S L) * bigsum (S (a + S L)) w). rewrite IH.
    change (bigsum (S (S L)) g) with (bigsum (S L) g + g (S L)). replace (a + S (S L))%nat with (S (a + S L)) by lia.
    change (bigsum (S L) (fun t => bigsum (S t) g * w (S a + t)%nat)) with (bigsum L (fun t => bigsum (S t) g * w (S a + t)%nat) + bigsum (S L) g * w (S a + L)%nat).
    change (bigsum (S (a + S L)) w) with (bigsum (a + S L) w + w (a + S L)%nat). replace (S a + L)%nat with (a + S L)%nat by lia. ring.
Qed.
Lemma PI_le : PI <= 22 / 7.
Proof.
  destruct (Rle_or_lt PI (22 / 7)) as [H|H]; [exact H|exfalso].
  destruct (COS (11 / 7) ltac:(lra) ltac:(lra)) as [_ U]. pose proof (cos_ge_0 (11 / 7) ltac:(lra) ltac:(lra)) as P.
  assert (E : cos_ub (11 / 7) = 1 - (11 / 7) ^ 2 / 2 + (11 / 7) ^ 4 / 24 - (11 / 7) ^ 6 / 720 + (11 / 7) ^ 8 / 40320).
  { unfold cos_ub, cos_approx, cos_term. change (2 * (1 + 1))%nat with 4%nat. cbn [sum_f_R0].
    change (2 * 0)%nat with 0%nat. change (2 * 1)%nat with 2%nat. change (2 * 2)%nat with 4%nat. change (2 * 3)%nat with 6%nat. change (2 * 4)%nat with 8%nat.
    replace (INR (fact 0)) with 1 by reflexivity. replace (INR (fact 2)) with 2 by (rewrite INR_IZR_INZ; reflexivity). replace (INR (fact 4)) with 24 by (rewrite INR_IZR_INZ; reflexivity).
    replace (INR (fact 6)) with 720 by (rewrite INR_IZR_INZ; reflexivity). replace (INR (fact 8)) with 40320.
    2:{ rewrite INR_IZR_INZ. apply f_equal. change (fact 8) with (8 * fact 7)%nat. rewrite Nat2Z.inj_mul. reflexivity. } field. }
  rewrite E in U. lra.
Qed.
Lemma sin_low x : 0 < x -> x <= PI / 2 -> 636 / 1000 * x <= sin x.
Proof.
  intros H0 H1. pose proof PI_le as HP. destruct (SIN x ltac:(lra) ltac:(lra)) as [H _].
  assert (E : sin_lb x = x - x ^ 3 / 6 + x ^ 5 / 120 - x ^ 7 / 5040).
  { unfold sin_lb, sin_approx, sin_term. cbn [sum_f_R0].
    change (2 * 0 + 1)%nat with 1%nat. change (2 * 1 + 1)%nat with 3%nat. change (2 * 2 + 1)%nat with 5%nat. change (2 * 3 + 1)%nat with 7%nat.
    replace (INR (fact 1)) with 1 by reflexivity. replace (INR (fact 3)) with 6 by (rewrite INR_IZR_INZ; reflexivity).
    replace (INR (fact 5)) with 120 by (rewrite INR_IZR_INZ; reflexivity). replace (INR (fact 7)) with 5040 by (rewrite INR_IZR_INZ; reflexivity). field. }
  rewrite E in H. assert (U : 0 <= x ^ 2 <= 247 / 100) by (split; [apply pow2_ge_0|nra]).
  set (u := x ^ 2) in *. replace (x - x ^ 3 / 6 + x ^ 5 / 120 - x ^ 7 / 5040) with (x * (1 - u / 6 + u ^ 2 / 120 - u ^ 3 / 5040)) in H by (unfold u; field).
  assert (K : 636 / 1000 <= 1 - u / 6 + u ^ 2 / 120 - u ^ 3 / 5040).
  { clear H E. set (c := 247 / 100) in *. replace (1 - u / 6 + u ^ 2 / 120 - u ^ 3 / 5040) with ((1 - c / 6 + c ^ 2 / 120 - c ^ 3 / 5040) + (c - u) * (1 / 6 - (c + u) / 120 + (c ^ 2 + c * u + u ^ 2) / 5040)) by field.
    assert (0 <= (c - u) * (1 / 6 - (c + u) / 120 + (c ^ 2 + c * u + u ^ 2) / 5040)) by (apply Rmult_le_pos; [lra|unfold c in *; nra]).
    assert (636 / 1000 <= 1 - c / 6 + c ^ 2 / 120 - c ^ 3 / 5040) by (unfold c; lra). lra. }
  nra.
Qed.
(** the two characters beside bin k *)
Lemma near L (k : nat) : (1 <= L)%nat -> let x := PI * INR k / INR L in let y := PI / INR L in let d := Z.of_nat k in
  hs L d = sin x /\ hc L d = cos x /\ hs L (d + 1) = sin (x + y) /\ hc L (d + 1) = cos (x + y) /\ hs L (d - 1) = sin (x - y) /\ hc L (d - 1) = cos (x - y).
Proof.
  intros HL x y d. assert (L0 : INR L <> 0) by (apply not_0_INR; lia). unfold hs, hc, x, y, d. rewrite plus_IZR, minus_IZR, <- INR_IZR_INZ.
  repeat split; f_equal; field; exact L0.
Qed.
(** the angles of bin k: 2y <= x <= pi/2, and (sin y / sin x)^2 <= 5/(2 k^2) *)
Lemma bin_angles L k : (4 <= L)%nat -> (2 <= k)%nat -> (2 * k <= L)%nat -> let x := PI * INR k / INR L in let y := PI / INR L in
  0 < y /\ y <= PI / 4 /\ 2 * y <= x /\ x <= PI / 2 /\ 0 < sin y /\ 0 < sin x /\ 4 * sin y ^ 2 * (1 - sin y ^ 2) <= sin x ^ 2 /\ sin y ^ 2 <= 1 / 2 /\ sin y ^ 2 <= 5 / (2 * INR k ^ 2) * sin x ^ 2.
Proof.
  intros HL Hk H2 x y. pose proof PI_RGT_0 as HP. assert (L0 : 0 < INR L) by (apply lt_0_INR; lia). assert (k0 : 0 < INR k) by (apply lt_0_INR; lia).
  assert (L4 : 4 <= INR L) by (apply (le_INR 4 L) in HL; cbn in HL; lra). assert (k2 : 2 <= INR k) by (apply (le_INR 2 k) in Hk; cbn in Hk; lra).
  assert (kL : 2 * INR k <= INR L) by (apply le_INR in H2; rewrite mult_INR in H2; cbn in H2; lra).
  assert (y0 : 0 < y) by (unfold y; apply Rmult_lt_0_compat; [exact HP|now apply Rinv_0_lt_compat]).
  assert (yL : y * INR L = PI) by (unfold y; field; lra). assert (xy : x = INR k * y) by (unfold x, y; field; lra).
  assert (y4 : y <= PI / 4) by nra. assert (x2 : 2 * y <= x) by nra. assert (xp : x <= PI / 2) by nra.
  assert (sy : 0 < sin y) by (apply sin_gt_0; lra). assert (sx : 0 < sin x) by (apply sin_gt_0; lra).
  assert (S2 : sin (2 * y) <= sin x) by (destruct (Rle_lt_or_eq_dec _ _ x2) as [h|h]; [left; apply sin_increasing_1; lra|rewrite h; lra]).
  assert (S0 : 0 <= sin (2 * y)) by (apply sin_ge_0; lra).
  assert (cy : 0 <= cos (2 * y)) by (apply cos_ge_0; lra). pose proof (trig1 y) as T. repeat split; try assumption.
  - replace (4 * sin y ^ 2 * (1 - sin y ^ 2)) with (sin (2 * y) ^ 2) by (rewrite sin_2a, <- T; ring). apply pow_incr. lra.
  - rewrite cos_2a in cy. nra.
  - pose proof (sin_low x ltac:(lra) xp) as B. pose proof (sin_lt_x y y0) as C. apply (Rmult_le_reg_l (2 * INR k ^ 2)); [nra|].
    replace (2 * INR k ^ 2 * (5 / (2 * INR k ^ 2) * sin x ^ 2)) with (5 * sin x ^ 2) by (field; lra).
    assert (D : (INR k * sin y) ^ 2 <= x ^ 2) by (apply pow_incr; rewrite xy; split; nra).
    assert (F : (636 / 1000 * x) ^ 2 <= sin x ^ 2) by (apply pow_incr; lra). nra.
Qed.

(** violet noise "b2*f^2" (noise.py:122): the sampled differences have the level b f^2 (sin x/x)^2; the Hann window keeps it up to 5/(6 k^2) *)
Theorem C96_violet E n b fs nr k : white (n + 1) E -> 0 <= b -> 0 < fs -> (1 <= nr)%nat ->
  let L := (n / nr)%nat in (4 <= L)%nat -> (2 <= k)%nat -> (2 * k <= L)%nat ->
  let f := INR k * fs / INR L in let x := PI * INR k / INR L in let y := PI / INR L in
  let B := b * f ^ 2 * (sin x / x) ^ 2 in let M := mean_of E (fun w => violet PI w n b fs) (welch_at fs nr k) in
  M = weight L k / 2 * B * (1 + cos (2 * x) / 3 * (sin y / sin x) ^ 2) /\ Rabs (M - weight L k / 2 * B) <= 5 / (6 * INR k ^ 2) * (weight L k / 2 * B).
Proof.
  intros HE Hb Hf Hr L HL Hk H2 f x y B M. pose proof PI_RGT_0 as HP. assert (L0 : 0 < INR L) by (apply lt_0_INR; lia). assert (k0 : 0 < INR k) by (apply lt_0_INR; lia).
  assert (Hn : (nr <= n)%nat) by (destruct (Nat.le_gt_cases nr n) as [H|H]; [exact H|]; unfold L in HL; rewrite Nat.div_small in HL; lia).
  destruct (bin_angles L k HL Hk H2) as (y0 & y4 & x2 & xp & sy & sx & _ & _ & tb). fold x y in y0, y4, x2, xp, sy, sx, tb.
  destruct (near L k ltac:(lia)) as (N0 & _ & N1 & _ & N2 & _). fold x y in N0, N1, N2. destruct (g_ends L k ltac:(lia)) as (G0 & G1 & G2 & G3).
  set (s := fs * wscale (b / (2 * PI) ^ 2) fs).
  assert (Hs : s ^ 2 = b * fs ^ 3 / (8 * PI ^ 2)).
  { unfold s. rewrite Rpow_mult_distr, wscale_sq; [field; lra| |exact Hf]. apply Rmult_le_pos; [exact Hb|left; apply Rinv_0_lt_compat, pow_lt; lra]. }
  assert (HB : B = b * fs ^ 2 * sin x ^ 2 / PI ^ 2) by (unfold B, f; unfold x at 2; field; repeat split; lra).
  set (G := fun (g : nat -> R) i => s * (g i - g (S i))).
  assert (MV : M = weight L k / 2 * B * (1 + cos (2 * x) / 3 * (sin y / sin x) ^ 2)).
  { unfold M. rewrite (welch_lin (n + 1) E n fs nr k _ (fun w i => s * (w (S i) - w i)) (fun a j => if (S a <=? j)%nat && (j <? S a + L)%nat then G (gc L k) (j - S a)%nat else 0)
      (fun a j => if (S a <=? j)%nat && (j <? S a + L)%nat then G (gs L k) (j - S a)%nat else 0) (bigsum L (fun i => G (gc L k) i ^ 2) + bigsum L (fun i => G (gs L k) i ^ 2)) HE).
    - fold L. unfold G. rewrite (bigsum_ext L _ (fun i => s ^ 2 * (gc L k (S i) - gc L k i) ^ 2)) by (intros; ring). rewrite (bigsum_ext L (fun i => (s * (gs L k i - gs L k (S i))) ^ 2) (fun i => s ^ 2 * (gs L k (S i) - gs L k i) ^ 2)) by (intros; ring).
      rewrite !bigsum_scal, <- Rmult_plus_distr_l, diff_energy by lia. rewrite N0, N1, N2, energy_eq, Hs by lia. rewrite sin_plus, sin_minus, cos_2a_sin.
      pose proof (trig1 x) as Tx. pose proof (trig1 y) as Ty. replace (1 / 4 * (sin x * cos y + cos x * sin y) ^ 2) with (1 / 4 * (sin x ^ 2 * cos y ^ 2 + cos x ^ 2 * sin y ^ 2 + 2 * sin x * cos x * sin y * cos y)) by field.
      replace (1 / 4 * (sin x * cos y - cos x * sin y) ^ 2) with (1 / 4 * (sin x ^ 2 * cos y ^ 2 + cos x ^ 2 * sin y ^ 2 - 2 * sin x * cos x * sin y * cos y)) by field.
      replace (cos y ^ 2) with (1 - sin y ^ 2) by lra. replace (cos x ^ 2) with (1 - sin x ^ 2) by lra. rewrite HB. field. repeat split; lra.
    - lia.
    - exact Hf.
    - apply Nat.div_le_lower_bound; lia.
    - intros w. now apply violet_series.
    - intros a w Ha. rewrite dc_ang, taper_lin by (try exact Ha; lia). rewrite embed_lin by (fold L; lia). fold L. rewrite W_cos by lia. destruct k as [|[|k']]; [lia|lia|]. set (k := S (S k')) in *.
      rewrite (bigsum_ext L _ (fun i => s * (gc L k i * (w (S (a + i)) - w (a + i)%nat)))) by (intros; unfold gc; field; lra). rewrite bigsum_scal, parts_diff, <- bigsum_scal by (try assumption; lia). apply bigsum_ext. intros; unfold G; ring.
    - intros a w Ha. rewrite ds_ang, taper_lin by (try exact Ha; lia). rewrite embed_lin by (fold L; lia). fold L. rewrite W_sin by lia.
      rewrite (bigsum_ext L _ (fun i => s * (gs L k i * (w (S (a + i)) - w (a + i)%nat)))) by (intros; unfold gs; field; lra). rewrite bigsum_scal, parts_diff, <- bigsum_scal by (try assumption; lia). apply bigsum_ext. intros; unfold G; ring.
    - intros a Ha. now rewrite !embed_sq by (fold L; lia). }
  split; [exact MV|]. assert (B0 : 0 <= B) by (unfold B; apply Rmult_le_pos; [apply Rmult_le_pos; [exact Hb|apply pow2_ge_0]|apply pow2_ge_0]).
  assert (sd : 0 <= weight L k) by (unfold weight; destruct (_ && _); lra). assert (SB : 0 <= weight L k / 2 * B) by (apply Rmult_le_pos; lra).
  rewrite MV. replace (weight L k / 2 * B * (1 + cos (2 * x) / 3 * (sin y / sin x) ^ 2) - weight L k / 2 * B) with (weight L k / 2 * B * (cos (2 * x) / 3 * (sin y / sin x) ^ 2)) by ring.
  rewrite Rabs_mult, (Rabs_pos_eq _ SB), Rmult_comm. apply Rmult_le_compat_r; [exact SB|].
  assert (T0 : 0 <= (sin y / sin x) ^ 2) by apply pow2_ge_0. assert (T1 : (sin y / sin x) ^ 2 <= 5 / (2 * INR k ^ 2)).
  { apply (Rmult_le_reg_r (sin x ^ 2)); [apply pow_lt, sx|]. replace ((sin y / sin x) ^ 2 * sin x ^ 2) with (sin y ^ 2) by (field; lra). exact tb. }
  pose proof (COS_bound (2 * x)) as CB. replace (5 / (6 * INR k ^ 2)) with (5 / (2 * INR k ^ 2) / 3) by (field; lra). apply Rabs_le. split; nra.
Qed.
Print Assumptions C96_violet.

Lemma brown_ratio s v : 0 < v -> v <= 1 / 2 -> 4 * v * (1 - v) <= s -> s <= 1 ->
  let r := 2 / 3 * (1 + ((1 - s) * v ^ 2 + s * (s + v - 2 * s * v) / 2) / (s - v) ^ 2) in 1 <= r /\ r <= 3 / 2 /\ r <= 1 + 2 * (v / s).
Proof.
  intros v0 vh s0 s1 r. assert (D : 0 < s - v) by nra. assert (S0 : 0 < s) by lra. assert (D2 : 0 < (s - v) ^ 2) by (apply pow_lt, D).
  assert (E : r * (3 * (s - v) ^ 2) = 2 * (s - v) ^ 2 + 2 * (1 - s) * v ^ 2 + s * (s + v - 2 * s * v)) by (unfold r; field; lra).
  set (u := s - 4 * v * (1 - v)) in *. assert (U : 0 <= u) by (unfold u; lra). assert (Es : s = u + 4 * v * (1 - v)) by (unfold u; lra).
  repeat split.
  - apply (Rmult_le_reg_r (3 * (s - v) ^ 2)); [lra|]. rewrite E. assert (0 <= v * (v * (1 / 2 - s) + s * (3 / 2 - s))); [|nra]. apply Rmult_le_pos; [lra|nra].
  - apply (Rmult_le_reg_r (3 * (s - v) ^ 2)); [lra|]. rewrite E.
    assert (0 <= s ^ 2 * (3 / 4 + v) - s * v * (3 - v) + v ^ 2 / 4); [|nra].
    replace (s ^ 2 * (3 / 4 + v) - s * v * (3 - v) + v ^ 2 / 4) with (v ^ 2 * (1 / 4 + 8 * v * (1 - v) * (1 - 2 * v)) + u * (v * (3 + 3 * v - 8 * v ^ 2)) + u ^ 2 * (3 / 4 + v)) by (rewrite Es; field).
    assert (0 <= v * (1 - v) * (1 - 2 * v)) by (apply Rmult_le_pos; nra).
    assert (0 <= v ^ 2 * (1 / 4 + 8 * v * (1 - v) * (1 - 2 * v))) by (apply Rmult_le_pos; nra). assert (0 <= u * (v * (3 + 3 * v - 8 * v ^ 2))) by (apply Rmult_le_pos; [exact U|apply Rmult_le_pos; nra]).
    assert (0 <= u ^ 2 * (3 / 4 + v)) by (apply Rmult_le_pos; nra). lra.
  - apply (Rmult_le_reg_r (3 * (s - v) ^ 2 * s)); [apply Rmult_lt_0_compat; lra|]. rewrite <- Rmult_assoc, E. replace ((1 + 2 * (v / s)) * (3 * (s - v) ^ 2 * s)) with ((s + 2 * v) * (3 * (s - v) ^ 2)) by (field; lra).
    set (P := s ^ 3 + s ^ 2 * (3 / 2 + v) - 13 / 2 * s * v + 3 * v ^ 2).
    replace ((s + 2 * v) * (3 * (s - v) ^ 2)) with ((2 * (s - v) ^ 2 + 2 * (1 - s) * v ^ 2 + s * (s + v - 2 * s * v)) * s + 2 * v * P) by (unfold P; field).
    assert (0 <= 2 * v * P); [|lra]. apply Rmult_le_pos; [lra|]. unfold P. set (c := 1 - v).
    replace (s ^ 3 + s ^ 2 * (3 / 2 + v) - 13 / 2 * s * v + 3 * v ^ 2) with
      (v ^ 2 * (1 + v * (64 * c ^ 3 + 16 * c ^ 2 - 24 * c + 2)) + u * (v * (48 * v * c ^ 2 + 12 * c + 8 * v * c - 13 / 2)) + u ^ 2 * (3 * (4 * v * c) + 3 / 2 + v) + u ^ 3) by (rewrite Es; unfold c; field).
    assert (ch : 1 / 2 <= c < 1) by (unfold c; lra).
    assert (0 <= 64 * c ^ 3 + 16 * c ^ 2 - 24 * c + 2).
    { replace (64 * c ^ 3 + 16 * c ^ 2 - 24 * c + 2) with (2 + (c - 1 / 2) * (64 * c ^ 2 + 48 * c)) by field. assert (0 <= (c - 1 / 2) * (64 * c ^ 2 + 48 * c)) by (apply Rmult_le_pos; nra). lra. }
    assert (0 <= v ^ 2 * (1 + v * (64 * c ^ 3 + 16 * c ^ 2 - 24 * c + 2))) by (apply Rmult_le_pos; [nra|assert (0 <= v * (64 * c ^ 3 + 16 * c ^ 2 - 24 * c + 2)) by (apply Rmult_le_pos; lra); lra]).
    assert (0 <= 48 * v * c ^ 2 + 12 * c + 8 * v * c - 13 / 2) by (assert (0 <= v * c ^ 2) by (apply Rmult_le_pos; nra); replace v with (1 - c) in * by (unfold c; lra); nra).
    assert (0 <= u * (v * (48 * v * c ^ 2 + 12 * c + 8 * v * c - 13 / 2))) by (apply Rmult_le_pos; [exact U|apply Rmult_le_pos; lra]).
    assert (0 <= u ^ 2 * (3 * (4 * v * c) + 3 / 2 + v)) by (apply Rmult_le_pos; nra). assert (0 <= u ^ 3) by (now apply pow_le). lra.
Qed.
(** brown noise "b2*f^-2" (noise.py:92): the sampled sums have the level b/f^2 (x/sin x)^2; what leaks through the Hann window adds at most
    a half of it, and no more than 5/k^2 in bin k *)
Theorem C96_brown E n b fs nr k : white n E -> 0 <= b -> 0 < fs -> (1 <= nr)%nat ->
  let L := (n / nr)%nat in (4 <= L)%nat -> (2 <= k)%nat -> (2 * k <= L)%nat ->
  let f := INR k * fs / INR L in let x := PI * INR k / INR L in let s := sin x ^ 2 in let v := sin (PI / INR L) ^ 2 in
  let B := b / f ^ 2 * (x / sin x) ^ 2 in let M := mean_of E (fun w => brown PI w n b fs) (welch_at fs nr k) in
  M = weight L k / 2 * B * (2 / 3 * (1 + ((1 - s) * v ^ 2 + s * (s + v - 2 * s * v) / 2) / (s - v) ^ 2)) /\
  weight L k / 2 * B <= M /\ M <= 3 / 2 * (weight L k / 2 * B) /\ M <= (1 + 5 / INR k ^ 2) * (weight L k / 2 * B).
Proof.
  intros HE Hb Hf Hr L HL Hk H2 f x s v B M. pose proof PI_RGT_0 as HP. assert (L0 : 0 < INR L) by (apply lt_0_INR; lia). assert (k0 : 0 < INR k) by (apply lt_0_INR; lia).
  assert (Hn : (nr <= n)%nat) by (destruct (Nat.le_gt_cases nr n) as [H|H]; [exact H|]; unfold L in HL; rewrite Nat.div_small in HL; lia).
  destruct (bin_angles L k HL Hk H2) as (y0 & y4 & x2 & xp & sy & sx & sv & vh & tb). fold x in x2, xp, sx, sv, tb. set (y := PI / INR L) in *. fold s v in sv, tb, vh.
  destruct (near L k ltac:(lia)) as (N0 & N3 & N1 & N4 & N2 & N5). fold x y in N0, N1, N2, N3, N4, N5. destruct (g_ends L k ltac:(lia)) as (G0 & G1 & _ & _).
  set (q := wscale (b * (4 * PI * PI)) fs / fs).
  assert (Hs : q ^ 2 = 2 * PI ^ 2 * b / fs).
  { unfold q. replace ((wscale (b * (4 * PI * PI)) fs / fs) ^ 2) with (wscale (b * (4 * PI * PI)) fs ^ 2 / fs ^ 2) by (field; lra). rewrite wscale_sq by (try lra; apply Rmult_le_pos; nra). field. lra. }
  assert (s0 : 0 < s) by (apply pow_lt, sx). assert (v0 : 0 < v) by (apply pow_lt, sy). assert (D : 0 < s - v) by nra.
  pose proof (trig1 x) as Tx. pose proof (trig1 y) as Ty. fold s in Tx. fold v in Ty. assert (s1 : s <= 1) by (pose proof (pow2_ge_0 (cos x)); lra).
  assert (HB : B = b * PI ^ 2 / (fs ^ 2 * s)) by (unfold B, f, s; unfold x at 1; field; repeat split; lra).
  assert (PM : sin (x + y) * sin (x - y) = s - v) by (rewrite sin_plus, sin_minus; transitivity (sin x ^ 2 * cos y ^ 2 - cos x ^ 2 * sin y ^ 2); [ring|]; fold s v; replace (cos y ^ 2) with (1 - v) by lra; replace (cos x ^ 2) with (1 - s) by lra; ring).
  assert (PN : sin (x + y) <> 0 /\ sin (x - y) <> 0) by (split; intros Z; rewrite Z in PM; lra). destruct PN as (PN & PO).
  assert (SQ : sin (x + y) ^ 2 + sin (x - y) ^ 2 = 2 * (s + v - 2 * s * v)) by (rewrite sin_plus, sin_minus; transitivity (2 * (sin x ^ 2 * cos y ^ 2 + cos x ^ 2 * sin y ^ 2)); [ring|]; fold s v; replace (cos y ^ 2) with (1 - v) by lra; replace (cos x ^ 2) with (1 - s) by lra; ring).
  assert (SC : cos (x + y) * sin (x - y) + cos (x - y) * sin (x + y) = 2 * sin x * cos x).
  { rewrite <- sin_2a. replace (2 * x) with ((x - y) + (x + y)) by ring. rewrite (sin_plus (x - y)). ring. }
  assert (KA : kappa L (Z.of_nat k) = - (cos x * v) / (4 * sin x * (s - v))).
  { unfold kappa. rewrite N0, N1, N2, N3, N4, N5. transitivity (cos x / (4 * sin x) - (cos (x + y) * sin (x - y) + cos (x - y) * sin (x + y)) / (8 * (sin (x + y) * sin (x - y)))); [field; repeat split; lra|].
    rewrite SC, PM. replace (cos x / (4 * sin x)) with (cos x * (s - v) / (4 * sin x * (s - v))) by (field; lra). unfold s at 1. field. lra. }
  destruct L as [|L1] eqn:EL; [lia|]. rewrite <- EL in *. assert (EL' : L = S L1) by exact EL.
  set (H := fun (g : nat -> R) t => - (q * bigsum (S t) g)).
  assert (MV : M = weight L k / 2 * B * (2 / 3 * (1 + ((1 - s) * v ^ 2 + s * (s + v - 2 * s * v) / 2) / (s - v) ^ 2))).
  { unfold M. rewrite (welch_lin n E n fs nr k _ (fun w i => q * bigsum (S i) w) (fun a j => if (S a <=? j)%nat && (j <? S a + L1)%nat then H (gc L k) (j - S a)%nat else 0)
      (fun a j => if (S a <=? j)%nat && (j <? S a + L1)%nat then H (gs L k) (j - S a)%nat else 0) (bigsum L1 (fun i => H (gc L k) i ^ 2) + bigsum L1 (fun i => H (gs L k) i ^ 2)) HE); fold L.
    - assert (SH : forall g, bigsum L1 (fun i => H g i ^ 2) = q ^ 2 * bigsum L (fun n => bigsum n g ^ 2)).
      { intros g. rewrite EL', bigsum_S_l. cbn [bigsum]. rewrite pow_i, Rplus_0_l by lia. rewrite <- bigsum_scal. apply bigsum_ext. intros i _. unfold H. cbn [bigsum]. ring. }
      rewrite !SH, <- Rmult_plus_distr_l, sum_energy by lia. rewrite KA, N0, N1, N2, energy_eq, Hs, HB by lia. fold s.
      transitivity (weight L k / (fs * (3 * INR L / 8)) * (2 * PI ^ 2 * b / fs * (INR L * (cos x ^ 2 * v ^ 2 / (16 * s * (s - v) ^ 2) + / (16 * s) + (sin (x + y) ^ 2 + sin (x - y) ^ 2) / (64 * (sin (x + y) * sin (x - y)) ^ 2))))).
      + unfold s. field. fold s. repeat split; lra.
      + rewrite SQ, PM. replace (cos x ^ 2) with (1 - s) by lra. field. repeat split; lra.
    - lia.
    - exact Hf.
    - apply Nat.div_le_lower_bound; lia.
    - intros w. now apply brown_series.
    - intros a w Ha. rewrite dc_ang, taper_lin by (try exact Ha; lia). rewrite embed_lin by lia. rewrite W_cos by lia. destruct k as [|[|k']]; [lia|lia|]. set (k := S (S k')) in *.
      rewrite (bigsum_ext L _ (fun i => q * (gc L k i * bigsum (S (a + i)) w))) by (intros; unfold gc; field; lra). rewrite bigsum_scal, EL', parts_sum, <- EL'.
      replace (bigsum L (gc L k)) with 0 by (symmetry; exact (W_cos L k ltac:(lia) H2)). rewrite Rmult_0_l, Rminus_0_l, <- Ropp_mult_distr_r, Ropp_mult_distr_l, <- bigsum_scal. apply bigsum_ext. intros; unfold H; ring.
    - intros a w Ha. rewrite ds_ang, taper_lin by (try exact Ha; lia). rewrite embed_lin by lia. rewrite W_sin by lia.
      rewrite (bigsum_ext L _ (fun i => q * (gs L k i * bigsum (S (a + i)) w))) by (intros; unfold gs; field; lra). rewrite bigsum_scal, EL', parts_sum, <- EL'.
      replace (bigsum L (gs L k)) with 0 by (symmetry; exact (W_sin L (Z.of_nat k) ltac:(lia))). rewrite Rmult_0_l, Rminus_0_l, <- Ropp_mult_distr_r, Ropp_mult_distr_l, <- bigsum_scal. apply bigsum_ext. intros; unfold H; ring.
    - intros a Ha. now rewrite !embed_sq by lia. }
  split; [exact MV|]. destruct (brown_ratio s v v0 vh sv s1) as (R1 & R2 & R3). rewrite MV. clear MV M.
  set (r := 2 / 3 * (1 + _)) in *. assert (B0 : 0 <= weight L k / 2 * B).
  { apply Rmult_le_pos; [unfold weight; destruct (_ && _); lra|]. rewrite HB. apply Rmult_le_pos; [apply Rmult_le_pos; [exact Hb|apply pow2_ge_0]|left; apply Rinv_0_lt_compat, Rmult_lt_0_compat; [apply pow_lt, Hf|exact s0]]. }
  set (A := weight L k / 2 * B) in *. assert (R4 : v / s <= 5 / (2 * INR k ^ 2)) by (apply (Rmult_le_reg_r s); [exact s0|]; replace (v / s * s) with v by (field; lra); exact tb).
  replace (1 + 5 / INR k ^ 2) with (1 + 2 * (5 / (2 * INR k ^ 2))) by (field; lra). repeat split; [nra|nra|].
  rewrite (Rmult_comm A). apply Rmult_le_compat_r; [exact B0|lra].
Qed.
Print Assumptions C96_brown.

(** ** Examples *)
Lemma cos_q2 : cos (2 * PI * INR 2 / INR 4) = -1. Proof. replace (2 * PI * INR 2 / INR 4) with PI by (cbn; field). apply cos_PI. Qed.
Lemma cos_q1 : cos (2 * PI * INR 1 / INR 4) = 0. Proof. replace (2 * PI * INR 1 / INR 4) with (PI / 2) by (cbn; field). apply cos_PI2. Qed.
Lemma cos_q3 : cos (2 * PI * INR 3 / INR 4) = 0. Proof. replace (2 * PI * INR 3 / INR 4) with (3 * (PI / 2)) by (cbn; field). apply cos_3PI2. Qed.
Lemma hann4 : hannw 4 0 = 0 /\ hannw 4 1 = 1 / 2 /\ hannw 4 2 = 1 /\ hannw 4 3 = 1 / 2.
Proof.
  unfold hannw. cbn [Nat.leb]. rewrite cos_q1, cos_q2, cos_q3. replace (2 * PI * INR 0 / INR 4) with 0 by (cbn; field). rewrite cos_0. repeat split; field.
Qed.
Example C96_value_ex : scipy_psd [0; 0; 4; 0] 1 1 = Ok ([0; 1 / 4; 1 / 2], [8 / 3; 12; 32 / 3]).
Proof.
  pose proof (C96_value [0; 0; 4; 0] 1 1 ltac:(lia) ltac:(cbn; lia) ltac:(lra)) as VV. change (Z.of_nat 1) with 1%Z in VV. rewrite VV. clear VV. cbv zeta. change (Nat.div (len [0; 0; 4; 0]) 1) with 4%nat. change (4 / 2 + 1)%nat with 3%nat.
  destruct hann4 as (h0 & h1 & h2 & h3). assert (M : seg_mean [0; 0; 4; 0] 4 0 = 1) by (unfold seg_mean; cbn; field).
  assert (EN : energy 4 = 3 / 2) by (unfold energy; cbn [bigsum]; rewrite h0, h1, h2, h3; field).
  assert (T : forall k, pw 4 (tapered [0; 0; 4; 0] 4 0) k = (- (1 / 2) * cos (ang 4 (Z.of_nat k) 1) + 3 * cos (ang 4 (Z.of_nat k) 2) - 1 / 2 * cos (ang 4 (Z.of_nat k) 3)) ^ 2 +
    (- (1 / 2) * sin (ang 4 (Z.of_nat k) 1) + 3 * sin (ang 4 (Z.of_nat k) 2) - 1 / 2 * sin (ang 4 (Z.of_nat k) 3)) ^ 2).
  { intros k. unfold pw. rewrite dc_ang, ds_ang. unfold tapered. rewrite M. cbn [bigsum]. rewrite h0, h1, h2, h3. cbn [nth Nat.add]. field. }
  unfold tab. cbn [seq map]. unfold density. change (nseg (len (A := R) [0; 0; 4; 0]) 4) with 1%nat. cbn [bigsum]. change (0 * hop 4)%nat with 0%nat. rewrite !T, EN. change (weight 4 0) with 1. change (weight 4 1) with 2. change (weight 4 2) with 1.
  assert (Q : forall k i, ang 4 (Z.of_nat k) i = INR (i * k) * (PI / 2)) by (intros k i; unfold ang; rewrite <- INR_IZR_INZ, mult_INR; cbn; field).
  assert (P3 : 3 * PI = PI + 2 * PI) by ring. pose proof sin_3PI2 as S3. pose proof cos_3PI2 as C3.
  rewrite !Q. cbn [Nat.mul Nat.add]. replace (INR 0 * (PI / 2)) with 0 by (cbn; ring). replace (INR 1 * (PI / 2)) with (PI / 2) by (cbn; ring). replace (INR 2 * (PI / 2)) with PI by (cbn; field).
  replace (INR 3 * (PI / 2)) with (3 * (PI / 2)) by (cbn; field). replace (INR 4 * (PI / 2)) with (2 * PI) by (cbn; field). replace (INR 6 * (PI / 2)) with (PI + 2 * PI) by (cbn; field).
  rewrite sin_0, cos_0, sin_PI2, cos_PI2, sin_PI, cos_PI, S3, C3, sin_2PI, cos_2PI, sin_plus, cos_plus, sin_2PI, cos_2PI, sin_PI, cos_PI.
  apply f_equal, f_equal2; (apply f_equal2; [|apply f_equal2; [|apply f_equal2; [|reflexivity]]]); change (INR 0) with 0; change (INR 1) with 1; change (INR 2) with 2; replace (INR 4) with 4 by (cbn; ring); field.
Qed.
(** twelve points, in segments of six and of four *)
Example C96_ex : let E := signs 13 in
  mean_of (signs 12) (fun w => ModelNoise.white w 12 3 10) (welch_at 10 2 0) = 1 / 2 /\
  mean_of (signs 12) (fun w => ModelNoise.white w 12 3 10) (welch_at 10 2 2) = 3 /\
  mean_of (signs 12) (fun w => brown PI w 12 3 10) (welch_at 10 3 2) = PI ^ 2 / 50 /\
  mean_of E (fun w => violet PI w 12 3 10) (welch_at 10 3 2) = 125 / PI ^ 2.
Proof.
  cbn zeta. pose proof PI_RGT_0 as HP. assert (X : PI * INR 2 / INR 4 = PI / 2) by (cbn; field). assert (I4 : INR 4 = 4) by (cbn; ring).
  assert (S4 : sin (PI / 4) ^ 2 = 1 / 2) by (rewrite sin_PI4; unfold Rdiv; rewrite Rpow_mult_distr, pow_inv, pow2_sqrt by lra; field).
  assert (SD : weight 4 2 = 1) by reflexivity.
  destruct (C96_brown (signs 12) 12 3 10 3 2 (signs_white 12)) as (B & _); try lra; try lia; try (cbn; lia).
  destruct (C96_violet (signs 13) 12 3 10 3 2 (signs_white 13)) as (V & _); try lra; try lia; try (cbn; lia).
  change (12 / 3)%nat with 4%nat in B, V. cbv zeta in B, V.
  rewrite !(C96_white (signs 12) 12 3 10 2) by (try apply signs_white; try lra; try lia; cbn; lia). rewrite B, V, X, I4, sin_PI2, S4, SD. change (white_level (12 / 2) 0) with (1 / 6). change (white_level (12 / 2) 2) with 1.
  replace ((sin (PI / 4) / 1) ^ 2) with (1 / 2) by (rewrite <- S4; field). replace (2 * (PI / 2)) with PI by field. rewrite cos_PI. change (INR 2) with 2.
  repeat split; field; lra.
Qed.
Example C96_errors_ex : scipy_psd [1; 2] 1 3 = Err ValueError /\ scipy_psd [1; 2] 1 (-1) = Err ValueError /\ scipy_psd [] 1 3 = Ok ([], []) /\ scipy_psd [1; 2] 1 0 = Err ZeroDivisionError.
Proof.
  destruct (C96_errors [1; 2] 1) as (A & _ & B & _). destruct (C96_errors [] 1) as (_ & C & _).
  split; [apply B; [discriminate|discriminate|cbn; lia]|]. split; [apply B; [discriminate|discriminate|cbn; lia]|]. split; [now apply C|exact A].
Qed.
(** an offset and a change of unit: the value of [C96_value_ex] times four *)
Example C96_affine_ex : scipy_psd [5; 5; -3; 5] 1 1 = Ok ([0; 1 / 4; 1 / 2], [32 / 3; 48; 128 / 3]).
Proof.
  pose proof (C96_affine [0; 0; 4; 0] (-2) 5 1 1 _ _ ltac:(lia) ltac:(cbn; lia) ltac:(lra) C96_value_ex) as A. cbn [map] in A. change (Z.of_nat 1) with 1%Z in A.
  replace [5; 5; -3; 5] with [-2 * 0 + 5; -2 * 0 + 5; -2 * 4 + 5; -2 * 0 + 5] by (repeat (f_equal; try ring)). rewrite A. do 2 f_equal.
  apply f_equal2; [field|]. apply f_equal2; [ring|]. apply f_equal2; [field|reflexivity].
Qed.
