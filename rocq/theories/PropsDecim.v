(** * Decimated, block-averaged and smoothed records (C112). *)
From Coq Require Import String Reals List ZArith Lra Lia Arith Bool Psatz Sorted.
From Verif Require Import Base Num NpList ModelCore ModelDev NumR ListFacts Spec RSum TauProofs DevProofs TotProofs Closed Laws Laws2 Laws3 ConvProofs PropsConv Dft.
Import ListNotations.
Local Open Scope R_scope.
Local Notation len := List.length.

(** every D-th sample from sample j on: x[j::D] *)
Definition thin (D j : nat) (x : list R) : list R := map (fun i => x.[j + i * D]) (seq 0 ((len x - j + (D - 1)) / D)).
(** means of D consecutive values, without and with overlap *)
Definition block_mean (D : nat) (y : list R) : list R := map (fun i => bigsum D (fun k => y.[i * D + k]) / INR D) (seq 0 (len y / D)).
Definition moving_mean (D : nat) (x : list R) : list R := map (fun i => bigsum D (fun k => x.[i + k]) / INR D) (seq 0 (len x + 1 - D)).
(** the averaging times D k/rate *)
Definition taus_at (D : nat) (rate : R) (ks : list nat) : taus_arg R := TList (map (fun k => INR (D * k) / rate) ks).
(** number of terms times the squared deviation *)
Definition pooled (r : res (@result R)) : R := match r with Ok (_, [d], _, [n]) => IZR n * d ^ 2 | _ => 0 end.

Lemma thin_len D j x : len (thin D j x) = stride_count (len x) j D.
Proof. unfold thin. now rewrite map_length, seq_length. Qed.
Lemma thin_lt D j x i : (1 <= D)%nat -> (i < len (thin D j x) <-> j + i * D < len x)%nat.
Proof. intros H. rewrite thin_len. now apply stride_count_lt. Qed.
Lemma thin_nth D j x i : (1 <= D)%nat -> (thin D j x).[i] = x.[j + i * D].
Proof.
  intros HD. destruct (Nat.lt_ge_cases i (len (thin D j x))) as [L|L].
  - rewrite thin_len in L. exact (nth_tab _ (fun i => x.[j + i * D]) i 0 L).
  - rewrite nth_overflow by exact L. symmetry. apply nth_overflow. destruct (Nat.lt_ge_cases (j + i * D) (len x)) as [C|C]; [|exact C].
    apply (thin_lt D j x i HD) in C. lia.
Qed.
Lemma d2_thin D j x k i : (1 <= D)%nat -> d2 (thin D j x) k i = d2 x (D * k) (j + i * D).
Proof.
  intros H. unfold d2. rewrite !thin_nth by exact H.
  replace (j + (i + 2 * k) * D)%nat with (j + i * D + 2 * (D * k))%nat by lia. replace (j + (i + k) * D)%nat with (j + i * D + D * k)%nat by lia. reflexivity.
Qed.
Lemma d3_thin D j x k i : (1 <= D)%nat -> d3 (thin D j x) k i = d3 x (D * k) (j + i * D).
Proof.
  intros H. unfold d3. rewrite !thin_nth by exact H.
  replace (j + (i + 3 * k) * D)%nat with (j + i * D + 3 * (D * k))%nat by lia.
  replace (j + (i + 2 * k) * D)%nat with (j + i * D + 2 * (D * k))%nat by lia. replace (j + (i + k) * D)%nat with (j + i * D + D * k)%nat by lia. reflexivity.
Qed.
Lemma thin_div D x k : (1 <= D)%nat -> (1 <= k)%nat -> ((len (thin D 0 x) - 1) / k = (len x - 1) / (D * k))%nat.
Proof.
  intros HD Hk. rewrite <- Nat.div_div by lia. f_equal. rewrite thin_len. unfold stride_count. rewrite Nat.sub_0_r. destruct (len x) as [|n].
  - cbn [Nat.sub]. rewrite (Nat.div_small (0 + (D - 1))) by lia. rewrite Nat.div_0_l by lia. reflexivity.
  - replace (S n + (D - 1))%nat with (n + 1 * D)%nat by lia. rewrite Nat.div_add by lia. replace (S n - 1)%nat with n by lia. lia.
Qed.
Lemma tau_eq D rate k : (1 <= D)%nat -> 0 < rate -> INR k * (1 / (rate / INR D)) = INR (D * k) * (1 / rate).
Proof. intros HD Hr. assert (0 < INR D) by (apply lt_0_INR; lia). rewrite mult_INR. field. lra. Qed.
Lemma rate_pos D rate : (1 <= D)%nat -> 0 < rate -> 0 < rate / INR D.
Proof. intros HD Hr. apply Rdiv_lt_0_compat; [exact Hr|]. apply lt_0_INR. lia. Qed.
Lemma avar_thin D x rate k : (1 <= D)%nat -> (1 <= k)%nat -> 0 < rate -> avar (thin D 0 x) (1 / (rate / INR D)) k = avar x (1 / rate) (D * k).
Proof.
  intros HD Hk Hr. unfold avar. rewrite tau_eq by assumption. unfold adev_n. rewrite thin_div by assumption. f_equal.
  apply bigsum_ext. intros i _. rewrite d2_thin by exact HD. do 2 f_equal. lia.
Qed.
Lemma hvar_thin D x rate k : (1 <= D)%nat -> (1 <= k)%nat -> 0 < rate -> hvar (thin D 0 x) (1 / (rate / INR D)) k = hvar x (1 / rate) (D * k).
Proof.
  intros HD Hk Hr. unfold hvar. rewrite tau_eq by assumption. unfold hdev_n. rewrite thin_div by assumption. f_equal.
  apply bigsum_ext. intros i _. rewrite d3_thin by exact HD. do 2 f_equal. lia.
Qed.

(** the averaging factors of the two calls *)
Lemma req_at D N rate ks m : ks <> [] -> 0 < rate -> (requested N rate (taus_at D rate ks) m <-> exists k, In k ks /\ m = (D * k)%nat).
Proof.
  intros Hk Hr. unfold taus_at. destruct ks as [|k0 ks]; [contradiction|]. set (l := k0 :: ks) in *.
  assert (E : requested N rate (TList (map (fun k => INR (D * k) / rate) l)) m <-> exists t, In t (map (fun k => INR (D * k) / rate) l) /\ half_even (t * rate) (Z.of_nat m)) by reflexivity.
  rewrite E. clear E. assert (Q : forall k, INR (D * k) / rate * rate = IZR (Z.of_nat (D * k))) by (intros k; rewrite <- INR_IZR_INZ; field; lra). split.
  - intros (t & Ht & H). apply in_map_iff in Ht as (k & <- & Hin). exists k. split; [exact Hin|].
    rewrite Q in H. pose proof (half_even_unique _ _ _ H (half_even_IZR _)). lia.
  - intros (k & Hin & ->). exists (INR (D * k) / rate). split; [apply in_map_iff; eauto|]. rewrite Q. apply half_even_IZR.
Qed.
Lemma taus_thin D rate ks : (1 <= D)%nat -> 0 < rate -> taus_at D rate ks = taus_at 1 (rate / INR D) ks.
Proof.
  intros HD Hr. unfold taus_at. f_equal. apply map_ext. intros k. rewrite Nat.mul_1_l, mult_INR. assert (0 < INR D) by (apply lt_0_INR; lia). field. lra.
Qed.
Lemma adm_thin D x rate ks ms : (1 <= D)%nat -> 0 < rate -> ks <> [] -> admissible (len (thin D 0 x)) (rate / INR D) (taus_at D rate ks) ms ->
  admissible (len x) rate (taus_at D rate ks) (map (Nat.mul D) ms).
Proof.
  intros HD Hr Hk (Hv & Hs & Hin). split.
  - unfold taus_at, valid_request. destruct ks as [|k0 ks]; [contradiction|]. exact I.
  - split.
    + clear Hin. induction Hs as [|a l Hs IH Hf]; cbn [map]; constructor; [exact IH|]. apply Forall_map. eapply Forall_impl; [|exact Hf]. intros b Hb. cbn. nia.
    + intros m. rewrite in_map_iff. rewrite req_at by assumption. split.
      * intros (k & <- & Hk2). apply Hin in Hk2 as ((H1 & H2) & _ & Hq). rewrite taus_thin in Hq by assumption.
        apply req_at in Hq; [|exact Hk|now apply rate_pos]. destruct Hq as (k' & Hk' & ->). apply (proj1 (thin_lt D 0 x _ HD)) in H2.
        split; [nia|]. split; [exact I|]. exists k'. split; [exact Hk'|lia].
      * intros (Hm & _ & k & Hk2 & ->). exists k. split; [reflexivity|]. apply Hin. split; [|split; [exact I|]].
        -- split; [nia|]. apply (proj2 (thin_lt D 0 x _ HD)). lia.
        -- rewrite taus_thin by assumption. apply req_at; [exact Hk|now apply rate_pos|]. exists k. split; [exact Hk2|lia].
Qed.
Lemma report_map D rate ms dev err cnt dev' err' cnt' : (1 <= D)%nat -> 0 < rate ->
  (forall k, In k ms -> dev' k = dev (D * k)%nat /\ err' k = err (D * k)%nat /\ cnt' k = cnt (D * k)%nat) ->
  report (rate / INR D) ms dev' err' cnt' = report rate (map (Nat.mul D) ms) dev err cnt.
Proof.
  intros HD Hr H. unfold report.
  assert (Ef : filter (fun m => (1 <? cnt m)%Z) (map (Nat.mul D) ms) = map (Nat.mul D) (filter (fun m => (1 <? cnt' m)%Z) ms)).
  { induction ms as [|a l IH]; [reflexivity|]. cbn [map filter]. destruct (H a (or_introl eq_refl)) as (_ & _ & <-).
    rewrite IH by (intros; apply H; now right). destruct (1 <? cnt' a)%Z; reflexivity. }
  rewrite Ef. assert (Hg : forall k, In k (filter (fun m => (1 <? cnt' m)%Z) ms) -> In k ms) by (intros k Hk; now apply filter_In in Hk).
  assert (M : forall (B : Type) (f f' : nat -> B) g, (forall k, In k g -> In k ms) -> (forall k, In k ms -> f' k = f (D * k)%nat) -> map f' g = map f (map (Nat.mul D) g)).
  { intros B f f' g Hi He. rewrite map_map. apply map_ext_in. intros k Hk. apply He, Hi, Hk. }
  assert (E : forall g, (forall k, In k g -> In k ms) ->
    (map (fun m => INR m / (rate / INR D)) g, map dev' g, EArr (map err' g), map cnt' g) =
    (map (fun m => INR m / rate) (map (Nat.mul D) g), map dev (map (Nat.mul D) g), EArr (map err (map (Nat.mul D) g)), map cnt (map (Nat.mul D) g))).
  { intros g Hi. rewrite <- (M R dev dev' g Hi), <- (M R err err' g Hi), <- (M Z cnt cnt' g Hi) by (intros; now apply H).
    rewrite <- (M R (fun m => INR m / rate) (fun m => INR m / (rate / INR D)) g Hi); [reflexivity|].
    intros k _. pose proof (tau_eq D rate k HD Hr) as E. unfold Rdiv in *. rewrite !Rmult_1_l in E. exact E. }
  destruct (filter (fun m => (1 <? cnt' m)%Z) ms) as [|a l]; [reflexivity|]. exact (f_equal Ok (E (a :: l) Hg)).
Qed.

Theorem C112_decimate x rate D ks : (1 <= D)%nat -> 0 < rate -> ks <> [] ->
  adev (thin D 0 x) (rate / INR D) "phase" (taus_at D rate ks) = adev x rate "phase" (taus_at D rate ks) /\
  hdev (thin D 0 x) (rate / INR D) "phase" (taus_at D rate ks) = hdev x rate "phase" (taus_at D rate ks).
Proof.
  intros HD Hr Hk. pose proof (rate_pos D rate HD Hr) as Hr'.
  destruct (admissible_exists (fun _ => true) (len (thin D 0 x)) (rate / INR D) (taus_at D rate ks)) as [ms Hms]; [lra| |].
  { unfold taus_at, valid_request. destruct ks; [contradiction|exact I]. }
  assert (Ha : admissible (len (thin D 0 x)) (rate / INR D) (taus_at D rate ks) ms).
  { destruct Hms as (A & B & C). split; [exact A|]. split; [exact B|]. intros m. rewrite C. intuition. }
  pose proof (adm_thin D x rate ks ms HD Hr Hk Ha) as Ha'. assert (P : forall k, In k ms -> (1 <= k)%nat) by (intros k Hin; apply Ha in Hin; lia).
  split.
  - rewrite (adev_spec _ _ _ ms Hr' Ha), (adev_spec _ _ _ _ Hr Ha'). cbv zeta. apply report_map; [exact HD|exact Hr|]. intros k Hin. specialize (P k Hin).
    unfold plain_err. rewrite avar_thin by assumption. unfold adev_n. rewrite thin_div by assumption. auto.
  - rewrite (hdev_spec _ _ _ ms Hr' Ha), (hdev_spec _ _ _ _ Hr Ha'). cbv zeta. apply report_map; [exact HD|exact Hr|]. intros k Hin. specialize (P k Hin).
    unfold plain_err. rewrite hvar_thin by assumption. unfold hdev_n. rewrite thin_div by assumption. auto.
Qed.
Print Assumptions C112_decimate.

(** ** Frequency records *)
Lemma block_mean_len D y : len (block_mean D y) = (len y / D)%nat.
Proof. unfold block_mean. now rewrite map_length, seq_length. Qed.
Lemma block_mean_nth D y i : (i < len y / D)%nat -> (block_mean D y).[i] = bigsum D (fun k => y.[i * D + k]) / INR D.
Proof. intros H. exact (nth_tab _ (fun i => bigsum D (fun k => y.[i * D + k]) / INR D) i 0 H). Qed.
Lemma blocks_sum D (f : nat -> R) n : bigsum n (fun i => bigsum D (fun k => f (i * D + k)%nat)) = bigsum (n * D) f.
Proof. induction n as [|n IH]; [reflexivity|]. cbn [bigsum]. rewrite IH. replace (S n * D)%nat with (n * D + D)%nat by lia. now rewrite bigsum_add. Qed.
Lemma integrated_blocks D y rate : (1 <= D)%nat -> 0 < rate -> integrated (block_mean D y) (rate / INR D) = thin D 0 (integrated y rate).
Proof.
  intros HD Hr. assert (0 < INR D) by (apply lt_0_INR; lia).
  assert (L : len (integrated (block_mean D y) (rate / INR D)) = len (thin D 0 (integrated y rate))).
  { rewrite integrated_len, block_mean_len, thin_len, integrated_len. unfold stride_count. rewrite Nat.sub_0_r.
    replace (S (len y) + (D - 1))%nat with (len y + 1 * D)%nat by lia. rewrite Nat.div_add by lia. lia. }
  apply (nth_ext _ _ 0 0 L). intros i Hi. rewrite thin_nth by exact HD. rewrite integrated_len, block_mean_len in Hi.
  assert (Hb : (i * D <= len y)%nat) by (pose proof (Nat.mul_div_le (len y) D); nia).
  rewrite nth_integrated by (rewrite block_mean_len; lia). rewrite nth_integrated by lia. cbn [Nat.add].
  rewrite (bigsum_ext i _ (fun k => / INR D * bigsum D (fun q => y.[k * D + q]))).
  2:{ intros k Hk2. rewrite block_mean_nth by lia. unfold Rdiv. ring. }
  rewrite bigsum_scal, (blocks_sum D (fun q => y.[q])). field. lra.
Qed.
Theorem C112_average y rate D ks : (1 <= D <= len y)%nat -> 0 < rate -> ks <> [] ->
  adev (block_mean D y) (rate / INR D) "freq" (taus_at D rate ks) = adev y rate "freq" (taus_at D rate ks) /\
  hdev (block_mean D y) (rate / INR D) "freq" (taus_at D rate ks) = hdev y rate "freq" (taus_at D rate ks).
Proof.
  intros [HD HL] Hr Hk. pose proof (rate_pos D rate HD Hr) as Hr'.
  assert (Hy : y <> []) by (intros ->; cbn in HL; lia).
  assert (Hb : block_mean D y <> []).
  { intros E. apply (f_equal (@List.length R)) in E. rewrite block_mean_len in E. cbn in E. pose proof (Nat.div_le_mono D (len y) D ltac:(lia) HL). rewrite Nat.div_same in H by lia. lia. }
  destruct (C112_decimate (integrated y rate) rate D ks HD Hr Hk) as [Ea Eh].
  rewrite (C12_trend_blind _ _ _ adev) by (cbn; auto 20 || assumption). rewrite (C12_trend_blind y _ _ adev) by (cbn; auto 20 || assumption).
  rewrite (C12_trend_blind _ _ _ hdev) by (cbn; auto 20 || assumption). rewrite (C12_trend_blind y _ _ hdev) by (cbn; auto 20 || assumption).
  rewrite integrated_blocks by assumption. split; assumption.
Qed.
Print Assumptions C112_average.

(** ** The D interleaved sub-records *)
Lemma lt_unique a b : (forall i : nat, i < a <-> i < b)%nat -> a = b.
Proof. intros H. destruct (Nat.lt_trichotomy a b) as [C|[C|C]]; [apply H in C; lia|exact C|apply H in C; lia]. Qed.
Lemma stride_sub N j D p : (1 <= D)%nat -> stride_count (N - D * p) j D = (stride_count N j D - p)%nat.
Proof.
  intros HD. apply lt_unique. intros i. rewrite stride_count_lt by exact HD.
  assert (E : (i < stride_count N j D - p <-> i + p < stride_count N j D)%nat) by lia. rewrite E, stride_count_lt by exact HD. nia.
Qed.
Lemma stride_S n j D : (1 <= D)%nat -> (j < D)%nat -> stride_count (S n) j D = (stride_count n j D + if Nat.eqb j (n mod D) then 1 else 0)%nat.
Proof.
  intros HD Hj. pose proof (Nat.div_mod n D ltac:(lia)) as E. pose proof (Nat.mod_upper_bound n D ltac:(lia)) as B. destruct (Nat.eqb_spec j (n mod D)) as [->|Hne].
  - assert (Q : forall N c, (forall i, n mod D + i * D < N <-> i < c)%nat -> stride_count N (n mod D) D = c).
    { intros N c H. apply lt_unique. intros i. rewrite stride_count_lt by exact HD. apply H. }
    rewrite (Q n (n / D)%nat), (Q (S n) (n / D + 1)%nat) by (intros; nia). reflexivity.
  - rewrite Nat.add_0_r. apply lt_unique. intros i. rewrite !stride_count_lt by exact HD. split; [|lia]. intros C.
    destruct (Nat.eq_dec (j + i * D) n) as [En|]; [|lia]. exfalso. apply Hne. rewrite <- En, Nat.mod_add, Nat.mod_small by lia. reflexivity.
Qed.
Lemma residues D n (f : nat -> R) : (1 <= D)%nat -> bigsum n f = bigsum D (fun j => bigsum (stride_count n j D) (fun i => f (j + i * D)%nat)).
Proof.
  intros HD. induction n as [|n IH].
  - symmetry. apply bigsum_0. intros j Hj. replace (stride_count 0 j D) with 0%nat; [reflexivity|]. unfold stride_count. symmetry. apply Nat.div_small. lia.
  - cbn [bigsum]. rewrite IH. pose proof (Nat.mod_upper_bound n D ltac:(lia)) as B. pose proof (Nat.div_mod n D ltac:(lia)) as E.
    rewrite (bigsum_ext D (fun j => bigsum (stride_count (S n) j D) _) (fun j => bigsum (stride_count n j D) (fun i => f (j + i * D)%nat) + if Nat.eqb j (n mod D) then f n else 0)).
    + rewrite bigsum_plus. f_equal. rewrite (bigsum_only D (n mod D)) by (exact B || (intros i _ Hi; apply Nat.eqb_neq in Hi; now rewrite Hi)). now rewrite Nat.eqb_refl.
    + intros j Hj. rewrite stride_S by assumption. destruct (Nat.eqb_spec j (n mod D)) as [->|_]; [|rewrite Nat.add_0_r; ring].
      rewrite Nat.add_1_r. cbn [bigsum]. f_equal. f_equal.
      assert (Q : stride_count n (n mod D) D = (n / D)%nat). { apply lt_unique. intros i. rewrite stride_count_lt by exact HD. nia. }
      rewrite Q. nia.
Qed.
Lemma pooled_one t d e n : pooled (Ok ([t], [d], e, [n])) = IZR n * d ^ 2. Proof. reflexivity. Qed.
Lemma thin_long D j x p : (1 <= D)%nat -> (j < D)%nat -> (D * (p + 2) <= len x)%nat -> (p + 2 <= len (thin D j x))%nat.
Proof. intros HD Hj HL. assert (p + 1 < len (thin D j x))%nat; [|lia]. apply (proj2 (thin_lt D j x _ HD)). nia. Qed.
Lemma sq_sqrt_inv q n S : 0 <= q -> (0 < n)%nat -> 0 <= S -> q = / INR n * S -> IZR (Z.of_nat n) * sqrt q ^ 2 = S.
Proof. intros Hq Hn HS ->. rewrite pow2_sqrt by exact Hq. rewrite <- INR_IZR_INZ. field. apply not_0_INR. lia. Qed.

Definition one_tau (D k : nat) (rate : R) : taus_arg R := TList [INR (D * k) / rate].
Lemma one_tau_thin D k rate : (1 <= D)%nat -> 0 < rate -> one_tau D k rate = TList [INR k / (rate / INR D)].
Proof. intros HD Hr. unfold one_tau. do 2 f_equal. rewrite mult_INR. assert (0 < INR D) by (apply lt_0_INR; lia). field. lra. Qed.

Lemma pooled_oadev x rate k : 0 < rate -> (1 <= k)%nat -> (2 * k + 2 <= len x)%nat ->
  pooled (oadev x rate "phase" (TList [INR k / rate])) = / (2 * (INR k * (1 / rate)) ^ 2) * bigsum (len x - 2 * k) (fun i => d2 x k i ^ 2).
Proof.
  intros Hr Hk HL. rewrite oadev_single by assumption. rewrite pooled_one.
  assert (0 < INR k) by (apply lt_0_INR; lia). assert (0 < 1 / rate) by (apply Rdiv_lt_0_compat; lra).
  assert (Hs : 0 <= bigsum (len x - 2 * k) (fun i => d2 x k i ^ 2)) by (apply bigsum_nonneg; intros; apply pow2_ge_0).
  assert (Hp : 0 < / (2 * (INR k * (1 / rate)) ^ 2)) by (apply Rinv_0_lt_compat, Rmult_lt_0_compat; [lra|apply pow_lt; now apply Rmult_lt_0_compat]).
  assert (HN : 0 < INR (len x - 2 * k)) by (apply lt_0_INR; lia).
  assert (E : oavar x (1 / rate) k = / INR (len x - 2 * k) * (/ (2 * (INR k * (1 / rate)) ^ 2) * bigsum (len x - 2 * k) (fun i => d2 x k i ^ 2))).
  { unfold oavar, oadev_n. rewrite Rinv_mult. ring. }
  apply sq_sqrt_inv; [|lia| |exact E]; [rewrite E; apply Rmult_le_pos; [left; now apply Rinv_0_lt_compat|]|]; apply Rmult_le_pos; lra.
Qed.
Lemma pooled_ohdev x rate k : 0 < rate -> (1 <= k)%nat -> (3 * k + 2 <= len x)%nat ->
  pooled (ohdev x rate "phase" (TList [INR k / rate])) = / (6 * (INR k * (1 / rate)) ^ 2) * bigsum (len x - 3 * k) (fun i => d3 x k i ^ 2).
Proof.
  intros Hr Hk HL. rewrite ohdev_single by assumption. rewrite pooled_one.
  assert (0 < INR k) by (apply lt_0_INR; lia). assert (0 < 1 / rate) by (apply Rdiv_lt_0_compat; lra).
  assert (Hs : 0 <= bigsum (len x - 3 * k) (fun i => d3 x k i ^ 2)) by (apply bigsum_nonneg; intros; apply pow2_ge_0).
  assert (Hp : 0 < / (6 * (INR k * (1 / rate)) ^ 2)) by (apply Rinv_0_lt_compat, Rmult_lt_0_compat; [lra|apply pow_lt; now apply Rmult_lt_0_compat]).
  assert (HN : 0 < INR (len x - 3 * k)) by (apply lt_0_INR; lia).
  assert (E : ohvar x (1 / rate) k = / INR (len x - 3 * k) * (/ (6 * (INR k * (1 / rate)) ^ 2) * bigsum (len x - 3 * k) (fun i => d3 x k i ^ 2))).
  { unfold ohvar, ohdev_n. rewrite Rinv_mult. ring. }
  apply sq_sqrt_inv; [|lia| |exact E]; [rewrite E; apply Rmult_le_pos; [left; now apply Rinv_0_lt_compat|]|]; apply Rmult_le_pos; lra.
Qed.
Lemma pooled_tierms x rate k : 0 < rate -> (1 <= k)%nat -> (k + 2 <= len x)%nat ->
  pooled (tierms x rate "phase" (TList [INR k / rate])) = bigsum (len x - k) (fun i => (x.[i + k] - x.[i]) ^ 2).
Proof.
  intros Hr Hk HL. rewrite tierms_single by assumption. rewrite pooled_one.
  assert (Hs : 0 <= bigsum (len x - k) (fun i => (x.[i + k] - x.[i]) ^ 2)) by (apply bigsum_nonneg; intros; apply pow2_ge_0).
  assert (HN : 0 < INR (len x - k)) by (apply lt_0_INR; lia).
  apply sq_sqrt_inv; [|lia|exact Hs|reflexivity]. unfold tierms_var. apply Rmult_le_pos; [left; now apply Rinv_0_lt_compat|exact Hs].
Qed.

(** n dev^2 of the record at D k is the sum over the D sub-records of theirs at k *)
Theorem C112_interleave x rate D k : (1 <= D)%nat -> (1 <= k)%nat -> 0 < rate ->
  let whole f := pooled (f x rate "phase"%string (one_tau D k rate)) in
  let parts f := bigsum D (fun j => pooled (f (thin D j x) (rate / INR D) "phase"%string (one_tau D k rate))) in
  ((D * (2 * k + 2) <= len x)%nat -> whole oadev = parts oadev) /\
  ((D * (3 * k + 2) <= len x)%nat -> whole ohdev = parts ohdev) /\
  ((D * (k + 2) <= len x)%nat -> whole tierms = parts tierms).
Proof.
  intros HD Hk Hr whole parts. subst whole parts. cbv beta. pose proof (rate_pos D rate HD Hr) as Hr'.
  split; [|split]; intros HL.
  - unfold one_tau at 1. rewrite pooled_oadev by (assumption || nia).
    rewrite (bigsum_ext D _ (fun j => / (2 * (INR (D * k) * (1 / rate)) ^ 2) * bigsum (stride_count (len x - 2 * (D * k)) j D) (fun i => d2 x (D * k) (j + i * D) ^ 2))).
    2:{ intros j Hj. rewrite one_tau_thin by assumption. rewrite pooled_oadev by (try assumption; now apply thin_long).
        rewrite tau_eq by assumption. f_equal. replace (2 * (D * k))%nat with (D * (2 * k))%nat by lia. rewrite stride_sub, thin_len by exact HD.
        apply bigsum_ext. intros i _. now rewrite d2_thin. }
    rewrite bigsum_scal. f_equal. now rewrite (residues D _ (fun i => d2 x (D * k) i ^ 2)).
  - unfold one_tau at 1. rewrite pooled_ohdev by (assumption || nia).
    rewrite (bigsum_ext D _ (fun j => / (6 * (INR (D * k) * (1 / rate)) ^ 2) * bigsum (stride_count (len x - 3 * (D * k)) j D) (fun i => d3 x (D * k) (j + i * D) ^ 2))).
    2:{ intros j Hj. rewrite one_tau_thin by assumption. rewrite pooled_ohdev by (try assumption; now apply thin_long).
        rewrite tau_eq by assumption. f_equal. replace (3 * (D * k))%nat with (D * (3 * k))%nat by lia. rewrite stride_sub, thin_len by exact HD.
        apply bigsum_ext. intros i _. now rewrite d3_thin. }
    rewrite bigsum_scal. f_equal. now rewrite (residues D _ (fun i => d3 x (D * k) i ^ 2)).
  - unfold one_tau at 1. rewrite pooled_tierms by (assumption || nia).
    rewrite (residues D _ (fun i => (x.[i + D * k] - x.[i]) ^ 2)) by exact HD. apply bigsum_ext. intros j Hj. rewrite one_tau_thin by assumption.
    rewrite pooled_tierms by (try assumption; now apply thin_long). rewrite stride_sub, thin_len by exact HD.
    apply bigsum_ext. intros i _. rewrite !thin_nth by exact HD. do 3 f_equal. lia.
Qed.
Print Assumptions C112_interleave.

(** ** Smoothing *)
Lemma moving_len D x : len (moving_mean D x) = (len x + 1 - D)%nat.
Proof. unfold moving_mean. now rewrite map_length, seq_length. Qed.
Lemma moving_nth D x i : (i < len x + 1 - D)%nat -> (moving_mean D x).[i] = bigsum D (fun k => x.[i + k]) / INR D.
Proof. intros H. exact (nth_tab _ (fun i => bigsum D (fun k => x.[i + k]) / INR D) i 0 H). Qed.
Theorem C112_smooth x rate m : (1 <= m)%nat -> (3 * m + 1 <= len x)%nat -> 0 < rate ->
  mdev x rate "phase" (one_tau 1 m rate) = oadev (moving_mean m x) rate "phase" (one_tau 1 m rate).
Proof.
  intros Hm HL Hr. unfold one_tau. rewrite Nat.mul_1_l. rewrite mdev_single by assumption. rewrite oadev_single by (try assumption; rewrite moving_len; lia).
  assert (Pm : 0 < INR m) by (apply lt_0_INR; lia).
  assert (E : mvar x (1 / rate) m = oavar (moving_mean m x) (1 / rate) m).
  { unfold mvar, oavar, mdev_n, oadev_n. rewrite moving_len. replace (Z.to_nat (Z.of_nat (len x) - 3 * Z.of_nat m + 1)) with (len x + 1 - m - 2 * m)%nat by lia.
    replace (Z.of_nat (len x) - 3 * Z.of_nat m + 1)%Z with (Z.of_nat (len x + 1 - m - 2 * m)) by lia. rewrite <- INR_IZR_INZ.
    set (n := (len x + 1 - m - 2 * m)%nat). assert (Pn : 0 < INR n) by (apply lt_0_INR; lia).
    rewrite (bigsum_ext n (fun i => d2 (moving_mean m x) m i ^ 2) (fun j => / INR m ^ 2 * bigsum m (fun i => d2 x m (j + i)) ^ 2)).
    - rewrite bigsum_scal. field. repeat split; lra.
    - intros i Hi. unfold d2 at 1. rewrite !moving_nth by lia.
      assert (Q : bigsum m (fun i0 => d2 x m (i + i0)) = bigsum m (fun k => x.[i + 2 * m + k]) - 2 * bigsum m (fun k => x.[i + m + k]) + bigsum m (fun k => x.[i + k])).
      { rewrite <- bigsum_scal, <- bigsum_minus, <- bigsum_plus. apply bigsum_ext. intros q _. unfold d2.
        replace (i + q + 2 * m)%nat with (i + 2 * m + q)%nat by lia. replace (i + q + m)%nat with (i + m + q)%nat by lia. reflexivity. }
      rewrite Q. field. lra. }
  rewrite E, moving_len. replace (len x - 3 * m + 1)%nat with (len x + 1 - m - 2 * m)%nat by lia. reflexivity.
Qed.
Print Assumptions C112_smooth.

Definition first_dev (r : res (@result R)) : R := match r with Ok (_, d :: _, _, _) => d | _ => 0 end.
(** decimating or smoothing never raises MTIE *)
Theorem C112_mtie x rate D k : (1 <= D)%nat -> (1 <= k)%nat -> 0 < rate ->
  ((D * (k + 2) <= len x)%nat -> forall j, (j < D)%nat ->
    first_dev (mtie (thin D j x) (rate / INR D) "phase" (one_tau D k rate)) <= first_dev (mtie x rate "phase" (one_tau D k rate))) /\
  ((D + k + 1 <= len x)%nat ->
    first_dev (mtie (moving_mean D x) rate "phase" (one_tau 1 k rate)) <= first_dev (mtie x rate "phase" (one_tau 1 k rate))).
Proof.
  intros HD Hk Hr. pose proof (rate_pos D rate HD Hr) as Hr'. split.
  - intros HL j Hj. assert (L : (k + 2 <= len (thin D j x))%nat) by now apply thin_long. rewrite one_tau_thin at 1 by assumption.
    rewrite (mtie_single _ _ k _ Hr' Hk L (mtie_val_is (thin D j x) k ltac:(lia))).
    unfold one_tau. rewrite (mtie_single x rate (D * k) _ Hr ltac:(nia) ltac:(nia) (mtie_val_is x (D * k) ltac:(nia))). cbn [first_dev].
    destruct (mtie_val_is (thin D j x) k ltac:(lia)) as [_ (a & b & Ha & Hb & H1 & H2 & <-)]. destruct (mtie_val_is x (D * k) ltac:(nia)) as [U _].
    apply (proj1 (thin_lt D j x _ HD)) in Ha, Hb. rewrite !thin_nth by exact HD. apply U; nia.
  - intros HL. assert (L : (k + 2 <= len (moving_mean D x))%nat) by (rewrite moving_len; lia). unfold one_tau. rewrite Nat.mul_1_l.
    rewrite (mtie_single _ _ k _ Hr Hk L (mtie_val_is (moving_mean D x) k ltac:(lia))).
    rewrite (mtie_single x rate k _ Hr Hk ltac:(lia) (mtie_val_is x k ltac:(lia))). cbn [first_dev].
    destruct (mtie_val_is (moving_mean D x) k ltac:(lia)) as [_ (a & b & Ha & Hb & H1 & H2 & <-)]. destruct (mtie_val_is x k ltac:(lia)) as [U _].
    rewrite moving_len in Ha, Hb. rewrite !moving_nth by assumption. assert (PD : 0 < INR D) by (apply lt_0_INR; lia).
    replace (bigsum D (fun q => x.[a + q]) / INR D - bigsum D (fun q => x.[b + q]) / INR D) with (/ INR D * bigsum D (fun q => x.[a + q] - x.[b + q])) by (rewrite bigsum_minus; field; lra).
    replace (mtie_val x k) with (/ INR D * bigsum D (fun _ => mtie_val x k)) by (rewrite bigsum_const; field; lra).
    apply Rmult_le_compat_l; [left; now apply Rinv_0_lt_compat|]. apply bigsum_le. intros q Hq. apply U; lia.
Qed.
Print Assumptions C112_mtie.

(** the overlapping deviations do not survive decimation *)
Definition last_step : list R := [0; 0; 0; 0; 0; 0; 0; 1].
Theorem C112_overlap_refuted : ~ (forall x rate D ks, (1 <= D)%nat -> 0 < rate -> ks <> [] ->
  oadev (thin D 0 x) (rate / INR D) "phase" (taus_at D rate ks) = oadev x rate "phase" (taus_at D rate ks)).
Proof.
  intros H. specialize (H last_step 1 2%nat [1%nat] ltac:(lia) ltac:(lra) ltac:(discriminate)). apply (f_equal pooled) in H.
  change (taus_at 2 1 [1%nat]) with (one_tau 2 1 1) in H. rewrite one_tau_thin in H at 1 by (lia || lra).
  rewrite pooled_oadev in H; [|apply rate_pos; lia || lra|lia|cbn; lia]. unfold one_tau in H. rewrite pooled_oadev in H; [|lra|lia|cbn; lia].
  cbn in H. unfold d2 in H. cbn in H. lra.
Qed.
Print Assumptions C112_overlap_refuted.

Definition parabola : list R := [0; 1; 4; 9; 16; 25; 36; 49].
Example C112_ex_thin : thin 2 0 parabola = [0; 4; 16; 36] /\ thin 2 1 parabola = [1; 9; 25; 49].
Proof. split; reflexivity. Qed.
Example C112_ex_mean : block_mean 2 parabola = [(0 + 0 + 1) / 2; (0 + 4 + 9) / 2; (0 + 16 + 25) / 2; (0 + 36 + 49) / 2].
Proof. reflexivity. Qed.
Example C112_ex : pooled (oadev parabola 1 "phase" (one_tau 2 1 1)) = 32 /\
  pooled (oadev (thin 2 0 parabola) (1 / INR 2) "phase" (one_tau 2 1 1)) = 16 /\ pooled (oadev (thin 2 1 parabola) (1 / INR 2) "phase" (one_tau 2 1 1)) = 16.
Proof.
  split; [|split]; [unfold one_tau| |]; try rewrite one_tau_thin by (lia || lra);
    (rewrite pooled_oadev; [|first [lra|apply rate_pos; [lia|lra]]|lia|cbn; lia]); cbn; unfold d2; cbn; field.
Qed.
Example C112_ex_hyp : (1 <= 2 <= len parabola)%nat /\ 0 < 1 /\ [1%nat; 3%nat] <> [] /\ (2 * (2 * 1 + 2) <= len parabola)%nat /\
  (3 * 2 + 1 <= len parabola)%nat /\ (2 * (1 + 2) <= len parabola)%nat /\ (2 + 1 + 1 <= len parabola)%nat.
Proof. cbn. repeat split; try lia; try lra. discriminate. Qed.
Example C112_ex_hyp3 : (2 * (3 * 1 + 2) <= len (map INR (seq 0 10)))%nat.
Proof. cbn. lia. Qed.
