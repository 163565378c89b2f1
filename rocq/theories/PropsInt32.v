(** * C125: phase records held in an int32 array. *)
From Coq Require Import String Reals List ZArith Lra Lia Arith Bool Psatz.
From Verif Require Import Base Num NpList ModelCore ModelDev ModelInt ModelInt32 NumR NumX ListFacts Spec RSum TauProofs DevProofs GenericProofs NanProofs TotProofs PropsSlope PropsJoin Laws2 Laws3 GradProofs PropsInt.
Import ListNotations.
Local Open Scope R_scope.
Local Notation len := List.length.

(** ** specification *)
(** second and third differences of the phase over m samples, in exact integers *)
Definition z_d2 (z : list Z) (m i : nat) : Z := (nth (i + 2 * m) z 0 - 2 * nth (i + m) z 0 + nth i z 0)%Z.
Definition z_d3 (z : list Z) (m i : nat) : Z := (nth (i + 3 * m) z 0 - 3 * nth (i + 2 * m) z 0 + 3 * nth (i + m) z 0 - nth i z 0)%Z.
(** float version, int32 version, weight, difference, its span in units of m, step between the differences used *)
Definition int32_funs : list (dev_fun * int_fun * R * (list Z -> nat -> nat -> Z) * nat * (nat -> nat)) :=
  [ (adev, adev_int32, 2, z_d2, 2%nat, fun m => m); (oadev, oadev_int32, 2, z_d2, 2%nat, fun _ => 1%nat);
    (hdev, hdev_int32, 6, z_d3, 3%nat, fun m => m); (ohdev, ohdev_int32, 6, z_d3, 3%nat, fun _ => 1%nat) ].
(** [d] and [d'] are the deviations at tau = t from the n differences [v]: [d] from their squares, [d'] from their squares each kept in 32 bits. *)
Definition int32_of (w : R) (v : nat -> Z) (n : nat) (t d : R) (d' : ext) : Prop :=
  exists k : nat -> Z, (forall j, (j < n)%nat -> 0 <= k j /\ - 2 ^ 31 <= v j ^ 2 - k j * 2 ^ 32 < 2 ^ 31)%Z /\
    let T := bigsum n (fun j => IZR (v j ^ 2 - k j * 2 ^ 32)) in
    0 <= d /\ w * INR n * t ^ 2 * d ^ 2 = bigsum n (fun j => IZR (v j ^ 2)) /\
    (T < 0 -> d' = NaN) /\ (0 <= T -> exists u, 0 <= u /\ d' = Fin u /\ w * INR n * t ^ 2 * u ^ 2 = T).

(** ** wrapping *)
Lemma wrap32_mod z : wrap32 z = (z - (z + 2 ^ 31) / 2 ^ 32 * 2 ^ 32)%Z /\ (- 2 ^ 31 <= wrap32 z < 2 ^ 31)%Z.
Proof.
  unfold wrap32. pose proof (Z.div_mod (z + 2 ^ 31) (2 ^ 32) ltac:(lia)). pose proof (Z.mod_pos_bound (z + 2 ^ 31) (2 ^ 32) ltac:(lia)). split; [lia|].
  change (2 ^ 32)%Z with (2 * 2 ^ 31)%Z in *. lia.
Qed.
Lemma wrap32_eq a b : ((a - b) mod 2 ^ 32 = 0)%Z -> wrap32 a = wrap32 b.
Proof.
  intros H. unfold wrap32. f_equal. apply Z.mod_divide in H; [|lia]. destruct H as [k Hk]. replace (a + 2 ^ 31)%Z with (b + 2 ^ 31 + k * 2 ^ 32)%Z by lia. apply Z.mod_add. lia.
Qed.
Ltac hom32 := apply wrap32_eq;
  repeat match goal with |- context [wrap32 ?z] => let k := fresh "k" in let E := fresh "E" in destruct (wrap32_mod z) as (E & _); set (k := ((z + 2 ^ 31) / 2 ^ 32)%Z) in E; rewrite E; clear E; clearbody k end;
  apply Z.mod_divide; [lia|].
Lemma wrap32_add a b : wrap32 (a + b) = wrap32 (wrap32 a + wrap32 b).
Proof. hom32. exists (k + k0)%Z. ring. Qed.
Lemma wrap32_sub a b : wrap32 (a - b) = wrap32 (wrap32 a - wrap32 b).
Proof. hom32. exists (k - k0)%Z. ring. Qed.
Lemma wrap32_mul a b : wrap32 (a * b) = wrap32 (wrap32 a * wrap32 b).
Proof. hom32. exists (k0 * a + k * b - k * k0 * 2 ^ 32)%Z. ring. Qed.
Definition int32 (z : Z) : Prop := (- 2 ^ 31 <= z < 2 ^ 31)%Z.
Lemma wrap32_id z : int32 z -> wrap32 z = z.
Proof. intros H. unfold wrap32. rewrite Z.mod_small; [lia|]. unfold int32 in H. change (2 ^ 32)%Z with (2 * 2 ^ 31)%Z. lia. Qed.

(** the int64 sum of fewer than 2^32 int32 numbers is exact *)
Lemma zsum_R l : IZR (@asum Z ZEx l) = @asum R RNum (map IZR l).
Proof. apply (@hom_asum Z R ZEx RNum IZR); [reflexivity|exact plus_IZR]. Qed.
Lemma zsum_size l : Forall int32 l -> (Z.abs (@asum Z ZEx l) <= Z.of_nat (len l) * 2 ^ 31)%Z.
Proof.
  intros H. unfold asum. change (@ofZ Z ZEx 0) with 0%Z. change (@nadd Z ZEx) with Z.add. assert (G : forall a, (Z.abs (fold_left Z.add l a) <= Z.abs a + Z.of_nat (len l) * 2 ^ 31)%Z); [|specialize (G 0%Z); lia].
  induction H as [|z l Hz Hl IH]; intros a; cbn [fold_left len]; [lia|]. specialize (IH (a + z)%Z). unfold int32 in Hz. lia.
Qed.
Lemma sum64 l : Forall int32 l -> (Z.of_nat (len l) < 2 ^ 32)%Z -> @asum Z I64 l = @asum Z ZEx l.
Proof.
  intros H Hl. pose proof (zsum_size l H) as B. rewrite <- (wrap_id (@asum Z ZEx l)).
  - rewrite (@hom_asum Z Z ZEx I64 wrap) by (cbn; auto using wrap_add). f_equal. symmetry. rewrite <- (map_id l) at 2. apply map_ext_in. intros z Hz. apply wrap_id.
    pose proof (proj1 (Forall_forall _ _) H z Hz) as Q. unfold int32, int64 in *. lia.
  - unfold int64. change (2 ^ 63)%Z with (2 ^ 32 * 2 ^ 31)%Z. assert (Z.of_nat (len l) * 2 ^ 31 < 2 ^ 32 * 2 ^ 31)%Z by (apply Z.mul_lt_mono_pos_r; lia). lia.
Qed.

Section Sums.
Variable zs : list Z.
Hypothesis Hzs : Forall int32 zs.
Hypothesis Hlen : (Z.of_nat (len zs) < 2 ^ 32)%Z.
Lemma zs_wrap32 : map wrap32 zs = zs.
Proof using Hzs. rewrite <- (map_id zs) at 2. apply map_ext_in. intros z Hz. apply wrap32_id. exact (proj1 (Forall_forall _ _) Hzs z Hz). Qed.
Lemma sdiff32 m s j : @sdiff Z I32 zs m s j = wrap32 (z_d2 zs m (j * s)).
Proof using Hzs.
  transitivity (wrap32 (@sdiff Z ZEx zs m s j)).
  - rewrite (@hom_sdiff Z Z ZEx I32 wrap32) by (cbn; auto using wrap32_add, wrap32_sub, wrap32_mul). now rewrite zs_wrap32.
  - f_equal. unfold sdiff, z_d2. cbn [nadd nsub nmul ofZ ZEx]. rewrite (Nat.add_comm (2 * m)), (Nat.add_comm (1 * m)), Nat.mul_1_l. reflexivity.
Qed.
Lemma tdiff32 m s j : @tdiff Z I32 zs m s j = wrap32 (z_d3 zs m (j * s)).
Proof using Hzs.
  transitivity (wrap32 (@tdiff Z ZEx zs m s j)).
  - rewrite (@hom_tdiff Z Z ZEx I32 wrap32) by (cbn; auto using wrap32_add, wrap32_sub, wrap32_mul). now rewrite zs_wrap32.
  - f_equal. unfold tdiff, z_d3. cbn [nadd nsub nmul ofZ ZEx]. rewrite (Nat.add_comm (3 * m)), (Nat.add_comm (2 * m)), (Nat.add_comm (1 * m)), Nat.mul_1_l. reflexivity.
Qed.
Lemma sumsq32_R n (g v : nat -> Z) : (n <= len zs)%nat -> (forall j, g j = wrap32 (v j)) -> IZR (sumsq32 (tab n g)) = bigsum n (fun j => IZR (wrap32 (v j ^ 2))).
Proof using Hlen.
  intros Hn Hg. unfold sumsq32. rewrite map_tab. rewrite (tab_ext n _ (fun j => wrap32 (v j ^ 2))).
  2:{ intros j _. rewrite Hg. unfold nsq. cbn [nmul I32]. rewrite <- wrap32_mul, Z.pow_2_r. reflexivity. }
  rewrite sum64.
  - rewrite zsum_R, map_tab, asum_tab. reflexivity.
  - apply Forall_forall. intros z Hz. apply in_map_iff in Hz as (j & <- & _). apply wrap32_mod.
  - rewrite tab_length. lia.
Qed.
Lemma sumsq_R_exact n (g : nat -> R) (v : nat -> Z) : (forall j, g j = IZR (v j)) -> @sumsq R RNum (tab n g) = bigsum n (fun j => IZR (v j ^ 2)).
Proof. intros H. unfold sumsq. rewrite map_tab, asum_tab. apply bigsum_ext. intros j _. rewrite H, Z.pow_2_r, mult_IZR. reflexivity. Qed.
End Sums.

(** one number *)
Lemma core32 (v : nat -> Z) n w q c t : 0 < q -> 0 <= c -> w * INR n * t ^ 2 * c ^ 2 = q ->
  int32_of w v n t (sqrt (bigsum n (fun j => IZR (v j ^ 2)) / q) * c) (xdev (bigsum n (fun j => IZR (wrap32 (v j ^ 2)))) q c).
Proof.
  intros Hq Hc Hw. exists (fun j => (v j ^ 2 + 2 ^ 31) / 2 ^ 32)%Z. split.
  - intros j _. destruct (wrap32_mod (v j ^ 2)) as [<- B]. split; [|exact B]. apply Z.div_pos; [|lia]. pose proof (Z.square_nonneg (v j)). rewrite Z.pow_2_r. lia.
  - assert (V : forall z, 0 <= z -> w * INR n * t ^ 2 * (sqrt (z / q) * c) ^ 2 = z).
    { intros z Hz. rewrite Rpow_mult_distr, pow2_sqrt by (apply Rmult_le_pos; [exact Hz|left; now apply Rinv_0_lt_compat]).
      replace (w * INR n * t ^ 2 * (z / q * c ^ 2)) with (w * INR n * t ^ 2 * c ^ 2 * (z / q)) by ring. rewrite Hw. field. lra. }
    cbv zeta. rewrite (bigsum_ext n (fun j => IZR (v j ^ 2 - (v j ^ 2 + 2 ^ 31) / 2 ^ 32 * 2 ^ 32)) (fun j => IZR (wrap32 (v j ^ 2)))) by (intros j _; now rewrite (proj1 (wrap32_mod (v j ^ 2)))).
    set (T := bigsum n (fun j => IZR (wrap32 (v j ^ 2)))). split; [apply Rmult_le_pos; [apply sqrt_pos|exact Hc]|]. split.
    + apply V. apply bigsum_nonneg. intros j _. apply IZR_le. rewrite Z.pow_2_r. apply Z.square_nonneg.
    + unfold xdev. destruct (Rlt_dec T 0) as [L|L]; split; intros H; try reflexivity; try lra. exists (sqrt (T / q) * c). split; [apply Rmult_le_pos; [apply sqrt_pos|exact Hc]|]. split; [reflexivity|]. now apply V.
Qed.

(** ** rows *)
Section Forms.
Context {A : Type} {NA : Num A}.
Local Open Scope num_scope.
Lemma calc_adev_int32_form (x : list Z) (rate : A) m s : (1 <= s)%nat ->
  let v := nsqrt (ofZ (sumsq32 (tab (stride_count (len x) (2 * m) s) (@sdiff Z I32 x m s))) / (ofZ 2 * ofN (adev_cnt (len x) m s))) / ofN m * rate in
  calc_adev_int32 x rate m s = Ok (v, v / nsqrt (ofN (adev_cnt (len x) m s)), Z.of_nat (adev_cnt (len x) m s)).
Proof.
  intros Hs. cbv zeta. transitivity (calc_adev_int32 (tab (len x) (fun i => nth i x (@ofZ Z I32 0))) rate m s); [now rewrite <- (list_tab x (@ofZ Z I32 0))|].
  unfold calc_adev_int32. rewrite !pystride_tab by exact Hs. cbn [bind]. rewrite !tab_length.
  pose proof (stride_count_mono (len x) 0 (1 * m) s Hs ltac:(lia)). pose proof (stride_count_mono (len x) (1 * m) (2 * m) s Hs ltac:(lia)).
  unfold min3. rewrite (Nat.min_r _ (stride_count (len x) (2 * m) s)) by lia. rewrite Nat.min_r by lia. fold (adev_cnt (len x) m s).
  assert (E : @second_diff Z I32 (adev_cnt (len x) m s) (tab (stride_count (len x) (2 * m) s) (fun i => nth (2 * m + i * s) x (@ofZ Z I32 0)))
     (tab (stride_count (len x) (1 * m) s) (fun i => nth (1 * m + i * s) x (@ofZ Z I32 0)))
     (tab (stride_count (len x) 0 s) (fun i => nth (0 + i * s) x (@ofZ Z I32 0))) = Ok (tab (stride_count (len x) (2 * m) s) (@sdiff Z I32 x m s))).
  { unfold second_diff, scal, vsub, vadd, adev_cnt. rewrite !firstn_tab, map_tab. destruct (Nat.eqb_spec (stride_count (len x) (2 * m) s) 0) as [->|H1].
    - change (Nat.min 1 0) with 0%nat. rewrite !tab_0. rewrite NanProofs.bmap2_nil_l by (rewrite tab_length; lia). cbn [bind].
      apply NanProofs.bmap2_nil_l. rewrite tab_length; lia.
    - rewrite !Nat.min_l by lia. rewrite bmap2_tab. cbn [bind]. now rewrite bmap2_tab. }
  rewrite E. reflexivity.
Qed.
Lemma calc_hdev_int32_form (x : list Z) (rate : A) m s : (1 <= s)%nat ->
  let v := nsqrt (ofZ (sumsq32 (tab (stride_count (len x) (3 * m) s) (@tdiff Z I32 x m s))) / ofZ 6 / ofN (hdev_cnt (len x) m s)) / (ofZ 1 / rate * ofN m) in
  calc_hdev_int32 x rate m s = Ok (v, v / nsqrt (ofN (hdev_cnt (len x) m s)), Z.of_nat (hdev_cnt (len x) m s)).
Proof.
  intros Hs. cbv zeta. transitivity (calc_hdev_int32 (tab (len x) (fun i => nth i x (@ofZ Z I32 0))) rate m s); [now rewrite <- (list_tab x (@ofZ Z I32 0))|].
  unfold calc_hdev_int32. rewrite !pystride_tab by exact Hs. cbn [bind]. rewrite !tab_length.
  pose proof (stride_count_mono (len x) 0 (1 * m) s Hs ltac:(lia)). pose proof (stride_count_mono (len x) (1 * m) (2 * m) s Hs ltac:(lia)).
  pose proof (stride_count_mono (len x) (2 * m) (3 * m) s Hs ltac:(lia)).
  unfold min4, min3. rewrite (Nat.min_r _ (stride_count (len x) (3 * m) s)) by lia.
  unfold third_diff, scal, vsub, vadd. rewrite !firstn_tab, !map_tab, !Nat.min_l by lia.
  rewrite bmap2_tab. cbn [bind]. rewrite bmap2_tab. cbn [bind]. rewrite bmap2_tab. cbn [bind].
  change (if (stride_count (len x) (3 * m) s =? 0)%nat then 1%nat else stride_count (len x) (3 * m) s) with (hdev_cnt (len x) m s).
  fold (@tdiff Z I32 x m s). reflexivity.
Qed.
End Forms.

Lemma sc_le N a s : (1 <= s)%nat -> (stride_count N a s <= N)%nat.
Proof.
  intros Hs. unfold stride_count. destruct (Nat.le_gt_cases N a) as [H|H].
  - replace (N - a + (s - 1))%nat with (s - 1)%nat by lia. rewrite Nat.div_small by lia. lia.
  - apply Nat.div_le_upper_bound; [lia|]. nia.
Qed.

Section Pairs.
Variables (zs : list Z) (rate : R).
Hypothesis Hzs : Forall int32 zs.
Hypothesis Hlen : (Z.of_nat (len zs) < 2 ^ 32)%Z.
Hypothesis Hr : 0 < rate.
Lemma ad_pair32 m s : (1 <= m)%nat -> (1 <= s)%nat ->
  exists d e d' e', calc_adev_phase (map IZR zs) rate m s = Ok (d, e, Z.of_nat (adev_cnt (len zs) m s)) /\
    calc_adev_int32 zs (Fin rate) m s = Ok (d', e', Z.of_nat (adev_cnt (len zs) m s)) /\
    ((1 < adev_cnt (len zs) m s)%nat -> adev_cnt (len zs) m s = stride_count (len zs) (2 * m) s /\
       int32_of 2 (fun j => z_d2 zs m (j * s)) (adev_cnt (len zs) m s) (INR m / rate) d d').
Proof using All.
  intros Hm Hs. rewrite calc_adev_form, calc_adev_int32_form by exact Hs. cbv zeta. rewrite map_length. do 4 eexists. split; [reflexivity|]. split; [reflexivity|]. intros Hc1.
  assert (Ec : adev_cnt (len zs) m s = stride_count (len zs) (2 * m) s) by (unfold adev_cnt in *; cbv zeta in *; destruct (Nat.eqb_spec (stride_count (len zs) (2 * m) s) 0); lia).
  split; [exact Ec|]. assert (Hm' : 0 < INR m) by (apply lt_0_INR; lia).
  unfold adev_val. rewrite map_length. rewrite <- Ec. set (n := adev_cnt (len zs) m s) in *. assert (Hn : 0 < INR n) by (apply lt_0_INR; lia).
  rewrite (sumsq_R_exact n _ (fun j => z_d2 zs m (j * s))).
  2:{ intros j. unfold sdiff, z_d2. cbn [nadd nsub nmul ofZ RNum]. change 0 with (IZR 0). rewrite !map_nth, plus_IZR, minus_IZR, mult_IZR, (Nat.add_comm (2 * m)), (Nat.add_comm (1 * m)), Nat.mul_1_l. reflexivity. }
  rewrite !ofNR, !ofNX. set (Q := bigsum n _).
  replace (@nmul R RNum _ rate) with (sqrt (Q / (2 * INR n)) * (/ INR m * rate)) by (cbn; unfold Rdiv; ring).
  replace (@nmul ext XNum _ (Fin rate)) with (xdev (bigsum n (fun j => IZR (wrap32 (z_d2 zs m (j * s) ^ 2)))) (2 * INR n) (/ INR m * rate)).
  - apply core32; [lra|apply Rmult_le_pos; [left; now apply Rinv_0_lt_compat|lra]|]. field. lra.
  - cbn [nmul ndiv nsqrt ofZ XNum]. change (x_mul (Fin 2) (Fin (INR n))) with (Fin (2 * INR n)).
    rewrite (sumsq32_R zs Hlen n _ (fun j => z_d2 zs m (j * s))) by (try (intros j; apply (sdiff32 zs Hzs)); rewrite Ec; now apply sc_le).
    rewrite xsqrt by lra. unfold xdev. destruct (Rlt_dec _ 0); [reflexivity|]. rewrite x_div_fin by lra. cbn. f_equal. unfold Rdiv. ring.
Qed.
Lemma hd_pair32 m s : (1 <= m)%nat -> (1 <= s)%nat ->
  exists d e d' e', calc_hdev_phase (map IZR zs) rate m s = Ok (d, e, Z.of_nat (hdev_cnt (len zs) m s)) /\
    calc_hdev_int32 zs (Fin rate) m s = Ok (d', e', Z.of_nat (hdev_cnt (len zs) m s)) /\
    ((1 < hdev_cnt (len zs) m s)%nat -> hdev_cnt (len zs) m s = stride_count (len zs) (3 * m) s /\
       int32_of 6 (fun j => z_d3 zs m (j * s)) (hdev_cnt (len zs) m s) (INR m / rate) d d').
Proof using All.
  intros Hm Hs. rewrite calc_hdev_form, calc_hdev_int32_form by exact Hs. cbv zeta. rewrite map_length. do 4 eexists. split; [reflexivity|]. split; [reflexivity|]. intros Hc1.
  assert (Ec : hdev_cnt (len zs) m s = stride_count (len zs) (3 * m) s) by (unfold hdev_cnt in *; cbv zeta in *; destruct (Nat.eqb_spec (stride_count (len zs) (3 * m) s) 0); lia).
  split; [exact Ec|]. assert (Hm' : 0 < INR m) by (apply lt_0_INR; lia).
  assert (Hir : 0 < / rate) by now apply Rinv_0_lt_compat. assert (Him : 0 < / INR m) by now apply Rinv_0_lt_compat.
  unfold hdev_val. rewrite map_length. rewrite <- Ec. set (n := hdev_cnt (len zs) m s) in *. assert (Hn : 0 < INR n) by (apply lt_0_INR; lia).
  rewrite (sumsq_R_exact n _ (fun j => z_d3 zs m (j * s))).
  2:{ intros j. unfold tdiff, z_d3. cbn [nadd nsub nmul ofZ RNum]. change 0 with (IZR 0). rewrite !map_nth, minus_IZR, plus_IZR, minus_IZR, !mult_IZR, (Nat.add_comm (3 * m)), (Nat.add_comm (2 * m)), (Nat.add_comm (1 * m)), Nat.mul_1_l. reflexivity. }
  rewrite !ofNR, !ofNX. set (Q := bigsum n _).
  replace (@ndiv R RNum (nsqrt _) _) with (sqrt (Q / (6 * INR n)) * (/ INR m * rate)) by (cbn; unfold Rdiv; rewrite !Rinv_mult, Rinv_1, Rinv_inv; rewrite Rmult_assoc; ring).
  replace (@ndiv ext XNum (nsqrt _) _) with (xdev (bigsum n (fun j => IZR (wrap32 (z_d3 zs m (j * s) ^ 2)))) (6 * INR n) (/ INR m * rate)).
  - apply core32; [lra|nra|]. field. lra.
  - cbn [nmul ndiv nsqrt ofZ XNum]. rewrite (sumsq32_R zs Hlen n _ (fun j => z_d3 zs m (j * s))) by (try (intros j; apply (tdiff32 zs Hzs)); rewrite Ec; now apply sc_le).
    set (T := bigsum n (fun j => IZR (wrap32 _))). rewrite (x_div_fin 1 rate), (x_div_fin _ 6) by lra. rewrite xsqrt by lra. unfold xdev.
    destruct (Rlt_dec T 0) as [L|L], (Rlt_dec (T / 6) 0) as [L'|L']; try (exfalso; lra); [reflexivity|].
    cbn [x_mul]. rewrite x_div_fin by (apply Rgt_not_eq; unfold Rdiv; nra). f_equal. replace (T / (6 * INR n)) with (T / 6 / INR n) by (field; lra). field. lra.
Qed.
End Pairs.

(** ** the table *)
Lemma tables32 zs rate taus (c : list R -> R -> nat -> res (R * R * Z)) (c' : list Z -> ext -> nat -> res (ext * ext * Z)) fd (cnt : nat -> nat) (G : nat -> nat -> R -> ext -> Prop) : 0 < rate ->
  (forall m, (1 <= m)%nat -> exists d e d' e', c (map IZR zs) rate m = Ok (d, e, Z.of_nat (cnt m)) /\ c' zs (Fin rate) m = Ok (d', e', Z.of_nat (cnt m)) /\ ((1 < cnt m)%nat -> G m (cnt m) d d')) ->
  match ('(p, ms, tu) <- tau_generator (map IZR zs) rate taus false (ofZ (-1)) ;; run_rows (c p rate) ms tu)%res with
  | Err e => int_dev c' fd zs (Fin rate) "phase"%string (req taus) = Err e
  | Ok (ts, ds, _, ns) => exists ds' es', int_dev c' fd zs (Fin rate) "phase"%string (req taus) = Ok (map Fin ts, ds', es', ns) /\ len ds' = len ds /\
      forall i t d n, nth_error ts i = Some t -> nth_error ds i = Some d -> nth_error ns i = Some n ->
        exists m d', t = INR m / rate /\ (1 <= m)%nat /\ (1 < n)%Z /\ nth_error ds' i = Some d' /\ G m (Z.to_nat n) d d'
  end.
Proof.
  intros Hr Hp. unfold int_dev. cbn [String.eqb Ascii.eqb Bool.eqb].
  rewrite (taugen_X (map ofZ zs) (map IZR zs) rate taus) by now rewrite !map_length. change (@ofZ R RNum (-1)) with (-1).
  destruct (tau_generator (map IZR zs) rate taus false (-1)) as [[[x ms] tu]|e] eqn:E; [|reflexivity].
  apply tau_generator_shape in E as (-> & _ & Hpos & ->). cbn [bind]. rewrite map_map.
  assert (Hm : forall m, In m ms -> (1 <= m)%Z) by (intros m Hm; exact (proj1 (Forall_forall _ _) Hpos m Hm)).
  pose (h := fun m => unres (0, 0, 0%Z) (c (map IZR zs) rate (Z.to_nat m))). pose (h' := fun m => unres (NaN, NaN, 0%Z) (c' zs (Fin rate) (Z.to_nat m))).
  assert (P : forall m, In m ms -> c (map IZR zs) rate (Z.to_nat m) = Ok (h m) /\ c' zs (Fin rate) (Z.to_nat m) = Ok (h' m) /\ snd (h m) = Z.of_nat (cnt (Z.to_nat m)) /\ snd (h' m) = snd (h m) /\
    ((1 < snd (h m))%Z -> G (Z.to_nat m) (Z.to_nat (snd (h m))) (fst (fst (h m))) (fst (fst (h' m))))).
  { intros m Hi. destruct (Hp (Z.to_nat m)) as (d & e & d' & e' & E & E' & H); [specialize (Hm m Hi); lia|]. unfold h, h'. rewrite E, E'. cbn [unres fst snd]. rewrite Nat2Z.id.
    split; [reflexivity|]. split; [reflexivity|]. split; [reflexivity|]. split; [reflexivity|]. intros L. apply H. lia. }
  rewrite (run_rows_table (c (map IZR zs) rate) _ h) by (intros m Hi; apply P, Hi).
  rewrite (run_rows_table (c' zs (Fin rate)) _ h') by (intros m Hi; apply P, Hi).
  unfold table. rewrite (filter_ext_in (fun m => (1 <? snd (h' m))%Z) (fun m => (1 <? snd (h m))%Z) ms) by (intros m Hi; destruct (P m Hi) as (_ & _ & _ & -> & _); reflexivity).
  assert (Q : forall m, In m (filter (fun m => (1 <? snd (h m))%Z) ms) -> In m ms /\ (1 < snd (h m))%Z) by (intros m Hi; apply filter_In in Hi as [Hi Hc]; apply Z.ltb_lt in Hc; auto).
  destruct (filter _ ms) as [|m0 gd]; [reflexivity|]. revert Q. generalize (m0 :: gd). intros L Q.
  exists (map (fun m => fst (fst (h' m))) L). eexists. split; [|split].
  - rewrite map_map. f_equal. f_equal. apply map_ext_in. intros m Hi. apply P, Q, Hi.
  - now rewrite !map_length.
  - intros i t d n Ht Hd Hn. rewrite nth_error_map in Ht, Hd, Hn. rewrite nth_error_map. destruct (nth_error L i) as [m|] eqn:E; [|discriminate]. cbn [option_map] in *.
    injection Ht as <-. injection Hd as <-. injection Hn as <-. apply nth_error_In in E. destruct (Q m E) as [Hi Hl]. destruct (P m Hi) as (_ & _ & _ & _ & K).
    exists (Z.to_nat m), (fst (fst (h' m))). rewrite INR_IZR_INZ, Z2Nat.id by (specialize (Hm m Hi); lia). split; [reflexivity|]. split; [specialize (Hm m Hi); lia|]. split; [exact Hl|]. split; [reflexivity|]. exact (K Hl).
Qed.
Lemma sc_lt N a s j : (1 <= s)%nat -> (j < stride_count N a s <-> j * s + a < N)%nat.
Proof.
  intros Hs. unfold stride_count. pose proof (Nat.div_mod (N - a + (s - 1)) s ltac:(lia)) as D. pose proof (Nat.mod_upper_bound (N - a + (s - 1)) s ltac:(lia)) as U.
  set (q := ((N - a + (s - 1)) / s)%nat) in *. set (r := ((N - a + (s - 1)) mod s)%nat) in *. split; intros H.
  - assert (s * S j <= s * q)%nat by (apply Nat.mul_le_mono_l; lia). lia.
  - destruct (Nat.le_gt_cases q j) as [L|L]; [|exact L]. exfalso. assert (s * q <= s * j)%nat by (apply Nat.mul_le_mono_l; lia). lia.
Qed.

(** Same taus and counts as the float record, or the same exception; each deviation comes from the wrapped squares of the differences which fit into the record. *)
Theorem C125_value f fi w D o s zs rate taus : In (f, fi, w, D, o, s) int32_funs -> 0 < rate -> Forall int32 zs -> (Z.of_nat (len zs) < 2 ^ 32)%Z ->
  match f (map IZR zs) rate "phase"%string taus with
  | Err e => fi zs (Fin rate) "phase"%string (req taus) = Err e
  | Ok (ts, ds, _, ns) => exists ds' es', fi zs (Fin rate) "phase"%string (req taus) = Ok (map Fin ts, ds', es', ns) /\ len ds' = len ds /\
      forall i t d n, nth_error ts i = Some t -> nth_error ds i = Some d -> nth_error ns i = Some n ->
        exists m d', t = INR m / rate /\ (1 <= m)%nat /\ (1 < n)%Z /\ nth_error ds' i = Some d' /\
          (forall j, (j < Z.to_nat n <-> j * s m + o * m < len zs)%nat) /\ int32_of w (fun j => D zs m (j * s m)%nat) (Z.to_nat n) (INR m / rate) d d'
  end.
Proof.
  intros Hf Hr Hz Hl. unfold int32_funs in Hf. repeat (destruct Hf as [E|Hf]; [injection E as <- <- <- <- <- <-|]); [..|destruct Hf].
  - apply (tables32 zs rate taus (fun x rate mj => calc_adev_phase x rate mj mj) (fun x rate mj => calc_adev_int32 x rate mj mj) adev (fun m => adev_cnt (len zs) m m)
      (fun m n d d' => (forall j, (j < n <-> j * m + 2 * m < len zs)%nat) /\ int32_of 2 (fun j => z_d2 zs m (j * m)%nat) n (INR m / rate) d d')); [exact Hr|].
    intros m Hm. destruct (ad_pair32 zs rate Hz Hl Hr m m Hm Hm) as (d & e & d' & e' & E & E' & G). exists d, e, d', e'. split; [exact E|]. split; [exact E'|]. intros L. destruct (G L) as [Ec Gi].
    split; [intros j; rewrite Ec; now apply sc_lt|exact Gi].
  - apply (tables32 zs rate taus (fun x rate mj => calc_adev_phase x rate mj 1) (fun x rate mj => calc_adev_int32 x rate mj 1) oadev (fun m => adev_cnt (len zs) m 1)
      (fun m n d d' => (forall j, (j < n <-> j * 1 + 2 * m < len zs)%nat) /\ int32_of 2 (fun j => z_d2 zs m (j * 1)%nat) n (INR m / rate) d d')); [exact Hr|].
    intros m Hm. destruct (ad_pair32 zs rate Hz Hl Hr m 1 Hm (le_n 1)) as (d & e & d' & e' & E & E' & G). exists d, e, d', e'. split; [exact E|]. split; [exact E'|]. intros L. destruct (G L) as [Ec Gi].
    split; [intros j; rewrite Ec; now apply sc_lt|exact Gi].
  - apply (tables32 zs rate taus (fun x rate mj => calc_hdev_phase x rate mj mj) (fun x rate mj => calc_hdev_int32 x rate mj mj) hdev (fun m => hdev_cnt (len zs) m m)
      (fun m n d d' => (forall j, (j < n <-> j * m + 3 * m < len zs)%nat) /\ int32_of 6 (fun j => z_d3 zs m (j * m)%nat) n (INR m / rate) d d')); [exact Hr|].
    intros m Hm. destruct (hd_pair32 zs rate Hz Hl Hr m m Hm Hm) as (d & e & d' & e' & E & E' & G). exists d, e, d', e'. split; [exact E|]. split; [exact E'|]. intros L. destruct (G L) as [Ec Gi].
    split; [intros j; rewrite Ec; now apply sc_lt|exact Gi].
  - apply (tables32 zs rate taus (fun x rate mj => calc_hdev_phase x rate mj 1) (fun x rate mj => calc_hdev_int32 x rate mj 1) ohdev (fun m => hdev_cnt (len zs) m 1)
      (fun m n d d' => (forall j, (j < n <-> j * 1 + 3 * m < len zs)%nat) /\ int32_of 6 (fun j => z_d3 zs m (j * 1)%nat) n (INR m / rate) d d')); [exact Hr|].
    intros m Hm. destruct (hd_pair32 zs rate Hz Hl Hr m 1 Hm (le_n 1)) as (d & e & d' & e' & E & E' & G). exists d, e, d', e'. split; [exact E|]. split; [exact E'|]. intros L. destruct (G L) as [Ec Gi].
    split; [intros j; rewrite Ec; now apply sc_lt|exact Gi].
Qed.
Print Assumptions C125_value.
Lemma row32 f fi w D o s zs rate taus t d n m : In (f, fi, w, D, o, s) int32_funs -> 0 < rate -> Forall int32 zs -> (Z.of_nat (len zs) < 2 ^ 32)%Z ->
  row (f (map IZR zs) rate "phase"%string taus) t d n -> t = INR m / rate ->
  exists d', xrow (fi zs (Fin rate) "phase"%string (req taus)) t d' n /\ 0 < w * INR (Z.to_nat n) * t ^ 2 /\
    (forall j, (j < Z.to_nat n <-> j * s m + o * m < len zs)%nat) /\ int32_of w (fun j => D zs m (j * s m)%nat) (Z.to_nat n) t d d'.
Proof.
  intros Hf Hr Hz Hl (ts & ds & e & ns & i & E & Ht & Hd & Hn) Em. pose proof (C125_value f fi w D o s zs rate taus Hf Hr Hz Hl) as H. rewrite E in H. destruct H as (ds' & es' & E' & _ & G).
  destruct (G i t d n Ht Hd Hn) as (m' & d' & Et & Hm & Hn1 & Hd' & Hj & T).
  assert (m' = m) by (rewrite Em in Et; apply Rmult_eq_reg_r in Et; [now apply INR_eq|apply Rinv_neq_0_compat; lra]). subst m'. rewrite <- Et in T.
  exists d'. split; [exists (map Fin ts), ds', es', ns, i; rewrite nth_error_map, Ht; auto|]. split; [|split; [exact Hj|exact T]].
  assert (0 < t) by (rewrite Et; apply Rdiv_lt_0_compat; [apply lt_0_INR; lia|exact Hr]). assert (0 < INR (Z.to_nat n)) by (apply lt_0_INR; lia).
  assert (0 < w) by (cbn in Hf; repeat (destruct Hf as [X|Hf]; [injection X; intros; subst; lra|]); destruct Hf).
  apply Rmult_lt_0_compat; [nra|]. apply pow_lt. assumption.
Qed.
(** Right if no difference over m samples exceeds 46340 counts ... *)
Theorem C125_right f fi w D o s zs rate taus t d n m : In (f, fi, w, D, o, s) int32_funs -> 0 < rate -> Forall int32 zs -> (Z.of_nat (len zs) < 2 ^ 32)%Z ->
  row (f (map IZR zs) rate "phase"%string taus) t d n -> t = INR m / rate -> (forall i, (i + o * m < len zs)%nat -> (Z.abs (D zs m i) <= 46340)%Z) ->
  xrow (fi zs (Fin rate) "phase"%string (req taus)) t (Fin d) n.
Proof.
  intros Hf Hr Hz Hl H Em B. destruct (row32 f fi w D o s zs rate taus t d n m Hf Hr Hz Hl H Em) as (d' & X & W & J & k & Hk & Hd & Q & _ & T).
  assert (E : bigsum (Z.to_nat n) (fun j => IZR (D zs m (j * s m)%nat ^ 2 - k j * 2 ^ 32)) = bigsum (Z.to_nat n) (fun j => IZR (D zs m (j * s m)%nat ^ 2))).
  { apply bigsum_ext. intros j Hj. f_equal. destruct (Hk j Hj) as [K0 K1]. specialize (B (j * s m)%nat (proj1 (J j) Hj)). set (v := D zs m (j * s m)%nat) in *. assert (v ^ 2 <= 46340 ^ 2)%Z by nia.
    assert (k j = 0)%Z; [|lia]. change (2 ^ 32)%Z with 4294967296%Z in K1. change (2 ^ 31)%Z with 2147483648%Z in K1. change (46340 ^ 2)%Z with 2147395600%Z in *. lia. }
  cbv zeta in T. rewrite E in T. destruct T as (u & Hu & -> & Eu); [apply bigsum_nonneg; intros j _; apply IZR_le; rewrite Z.pow_2_r; apply Z.square_nonneg|].
  rewrite <- Q in Eu. apply Rmult_eq_reg_l in Eu; [|lra]. replace d with u; [exact X|]. apply Rsqr_inj; [assumption..|]. unfold Rsqr. cbn [pow] in Eu. lra.
Qed.
Print Assumptions C125_right.
(** ... and wrong if one which is used does: NaN, or too small. *)
Theorem C125_wrong f fi w D o s zs rate taus t d n m j : In (f, fi, w, D, o, s) int32_funs -> 0 < rate -> Forall int32 zs -> (Z.of_nat (len zs) < 2 ^ 32)%Z ->
  row (f (map IZR zs) rate "phase"%string taus) t d n -> t = INR m / rate -> (j * s m + o * m < len zs)%nat -> (46341 <= Z.abs (D zs m (j * s m)%nat))%Z ->
  exists d', xrow (fi zs (Fin rate) "phase"%string (req taus)) t d' n /\ (d' = NaN \/ exists v, d' = Fin v /\ 0 <= v < d).
Proof.
  intros Hf Hr Hz Hl H Em Hj B. destruct (row32 f fi w D o s zs rate taus t d n m Hf Hr Hz Hl H Em) as (d' & X & W & J & k & Hk & Hd & Q & N & T). cbv zeta in N, T. apply J in Hj.
  exists d'. split; [exact X|]. set (v := fun j => D zs m (j * s m)%nat) in *. change (D zs m (j * s m)%nat) with (v j) in B. set (n' := Z.to_nat n) in *. assert (Hk' : forall j, (j < n')%nat -> (0 <= k j /\ - 2 ^ 31 <= v j ^ 2 - k j * 2 ^ 32 < 2 ^ 31)%Z) by exact Hk. clear Hk. rename Hk' into Hk.
  assert (L : bigsum n' (fun j => IZR (v j ^ 2 - k j * 2 ^ 32)) < bigsum n' (fun j => IZR (v j ^ 2))).
  { assert (Le : forall M, (M <= n')%nat -> bigsum M (fun j => IZR (v j ^ 2 - k j * 2 ^ 32)) <= bigsum M (fun j => IZR (v j ^ 2))).
    { intros M HM. apply bigsum_le. intros l Hl'. apply IZR_le. destruct (Hk l ltac:(lia)). lia. }
    assert (A : forall M, (M <= n')%nat -> (j < M)%nat -> bigsum M (fun j => IZR (v j ^ 2 - k j * 2 ^ 32)) < bigsum M (fun j => IZR (v j ^ 2))); [|apply (A n'); lia].
    induction M as [|M IH]; intros HM HjM; [lia|]. cbn [bigsum]. destruct (Nat.eq_dec j M) as [<-|].
    - apply Rplus_le_lt_compat; [apply Le; lia|]. apply IZR_lt. destruct (Hk j ltac:(lia)) as [K0 K1].  assert (46341 ^ 2 <= v j ^ 2)%Z by (rewrite !Z.pow_2_r, <- (Z.abs_square (v j)); apply Z.mul_le_mono_nonneg; lia).
      change (2 ^ 32)%Z with 4294967296%Z in *. change (2 ^ 31)%Z with 2147483648%Z in K1. change (46341 ^ 2)%Z with 2147488281%Z in *. lia.
    - apply Rplus_lt_le_compat; [apply IH; lia|]. apply IZR_le. destruct (Hk M ltac:(lia)). lia. }
  destruct (Rlt_dec (bigsum n' (fun j => IZR (v j ^ 2 - k j * 2 ^ 32))) 0) as [G|G]; [left; now apply N|right].
  destruct T as (u & Hu & -> & Eu); [apply Rnot_lt_le; exact G|]. exists u. split; [reflexivity|]. split; [exact Hu|].
  assert (L2 : w * INR n' * t ^ 2 * u ^ 2 < w * INR n' * t ^ 2 * d ^ 2) by (rewrite Eu, Q; exact L). apply Rmult_lt_reg_l in L2; [|exact W]. nra.
Qed.
Print Assumptions C125_wrong.

(** One step of 46341 counts and oadev of an int32 record is NaN; one of 65536 counts and it is 0. *)
Definition step32 (c : Z) : list Z := [0; 0; 0; c]%Z.
Lemma step32_row c : row (oadev (map IZR (step32 c)) 1 "phase"%string (TList [INR 1 / 1])) (INR 1 / 1) (sqrt (IZR c ^ 2 / 4)) 2.
Proof. apply (oadev_row1 (step32 c)); [cbn; lia|]. unfold oavar, oadev_n, step32. cbn. unfold d2. cbn. field. Qed.
Lemma step32_int c : int32 c -> exists d' k, xrow (oadev_int32 (step32 c) (Fin 1) "phase"%string (req (TList [INR 1 / 1]))) (INR 1 / 1) d' 2 /\ (- 2 ^ 31 <= c ^ 2 - k * 2 ^ 32 < 2 ^ 31)%Z /\
  ((c ^ 2 - k * 2 ^ 32 < 0)%Z -> d' = NaN) /\ ((c ^ 2 - k * 2 ^ 32 = 0)%Z -> d' = Fin 0).
Proof.
  intros Hc. destruct (row32 oadev oadev_int32 2 z_d2 2 (fun _ => 1%nat) (step32 c) 1 (TList [INR 1 / 1]) (INR 1 / 1) (sqrt (IZR c ^ 2 / 4)) 2 1 ltac:(cbn; auto) Rlt_0_1) as (d' & X & W & _ & k & Hk & _ & _ & N & T);
    [unfold step32; do 4 (apply Forall_cons; [first [exact Hc|unfold int32; lia]|]); apply Forall_nil|cbn; lia|apply step32_row|reflexivity|].
  exists d', (k 1%nat). change (Z.to_nat 2) with 2%nat in *. cbv zeta in N, T. cbn [bigsum] in N, T.
  assert (V0 : z_d2 (step32 c) 1 (0 * 1) = 0%Z) by reflexivity. assert (V1 : z_d2 (step32 c) 1 (1 * 1) = c) by (unfold z_d2; cbn; lia).
  rewrite V0, V1 in N, T. pose proof (Hk 0%nat ltac:(lia)) as K0. pose proof (Hk 1%nat ltac:(lia)) as K1. rewrite V0 in K0. rewrite V1 in K1.
  assert (k 0%nat = 0%Z) as E0 by (change (2 ^ 32)%Z with (2 * 2 ^ 31)%Z in K0; lia). rewrite E0 in N, T. replace (0 ^ 2 - 0 * 2 ^ 32)%Z with 0%Z in N, T by reflexivity. rewrite !Rplus_0_l in N, T.
  split; [exact X|]. split; [apply K1|]. split.
  - intros L. apply N. now apply IZR_lt.
  - intros L. rewrite L in T. destruct T as (u & Hu & -> & Eu); [lra|]. f_equal. assert (u ^ 2 = 0); [|nra]. apply Rmult_integral in Eu as [Eu|Eu]; [|exact Eu]. lra.
Qed.
Theorem C125_refuted :
  (exists d, 0 < d /\ row (oadev (map IZR (step32 46341)) 1 "phase"%string (TList [INR 1 / 1])) (INR 1 / 1) d 2 /\
     xrow (oadev_int32 (step32 46341) (Fin 1) "phase"%string (req (TList [INR 1 / 1]))) (INR 1 / 1) NaN 2) /\
  (exists d, 0 < d /\ row (oadev (map IZR (step32 65536)) 1 "phase"%string (TList [INR 1 / 1])) (INR 1 / 1) d 2 /\
     xrow (oadev_int32 (step32 65536) (Fin 1) "phase"%string (req (TList [INR 1 / 1]))) (INR 1 / 1) (Fin 0) 2).
Proof.
  split.
  - exists (sqrt (46341 ^ 2 / 4)). split; [apply sqrt_lt_R0; lra|]. split; [apply step32_row|]. destruct (step32_int 46341) as (d' & k & X & B & N & _); [unfold int32; lia|].
    rewrite N in X; [exact X|]. change (46341 ^ 2)%Z with 2147488281%Z in *. change (2 ^ 32)%Z with 4294967296%Z in *. change (2 ^ 31)%Z with 2147483648%Z in B. lia.
  - exists (sqrt (65536 ^ 2 / 4)). split; [apply sqrt_lt_R0; lra|]. split; [apply step32_row|]. destruct (step32_int 65536) as (d' & k & X & B & _ & N); [unfold int32; lia|].
    rewrite N in X; [exact X|]. change (65536 ^ 2)%Z with 4294967296%Z in *. change (2 ^ 32)%Z with 4294967296%Z in *. change (2 ^ 31)%Z with 2147483648%Z in B. lia.
Qed.
Print Assumptions C125_refuted.
(** a step inside the limit, and one outside *)
Example C125_ex : Forall int32 (step32 46340) /\ row (oadev (map IZR (step32 46340)) 1 "phase"%string (TList [INR 1 / 1])) (INR 1 / 1) (sqrt (46340 ^ 2 / 4)) 2 /\
  (forall i, (i + 2 * 1 < len (step32 46340))%nat -> (Z.abs (z_d2 (step32 46340) 1 i) <= 46340)%Z) /\
  (1 * 1 + 2 * 1 < len (step32 46341))%nat /\ (46341 <= Z.abs (z_d2 (step32 46341) 1 (1 * 1)))%Z.
Proof.
  split; [unfold step32; do 4 (apply Forall_cons; [unfold int32; lia|]); apply Forall_nil|]. split; [apply step32_row|]. split; [|split; [cbn; lia|unfold z_d2; cbn; lia]].
  intros i Hi. cbn in Hi. do 2 (destruct i as [|i]; [unfold z_d2; cbn; lia|]). lia.
Qed.

(** Frequency data are converted before anything is squared, as with int64. *)
Definition int32_funs_any {A} {NA : Num A} : list ((list A -> A -> string -> taus_arg A -> res (@result A)) * (list Z -> A -> string -> taus_arg A -> res (@result A))) :=
  [ (adev, adev_int32); (oadev, oadev_int32); (hdev, hdev_int32); (ohdev, ohdev_int32) ].
Theorem C125_freq {A} {NA : Num A} f fi (zs : list Z) (rate : A) dt taus : In (f, fi) int32_funs_any -> (forall k, @nisnan A NA (ofZ k) = false) ->
  dt <> "phase"%string -> fi zs rate dt taus = f (map ofZ zs) rate dt taus.
Proof.
  intros Hf Hn Hd. assert (Ed : String.eqb dt "phase" = false) by now apply String.eqb_neq.
  unfold int32_funs_any in Hf. repeat (destruct Hf as [E|Hf]; [injection E as <- <-|]); [..|destruct Hf];
  unfold adev_int32, oadev_int32, hdev_int32, ohdev_int32, int_dev, adev, oadev, hdev, ohdev, input_to_phase; rewrite Ed;
  (destruct (String.eqb dt "freq"); [|reflexivity]); rewrite f2p_int by exact Hn; (destruct (frequency2phase (map ofZ zs) rate); [|reflexivity]); reflexivity.
Qed.
Print Assumptions C125_freq.
Example C125_freq_ex : (forall k, @nisnan ext XNum (ofZ k) = false) /\ In (ohdev, ohdev_int32) (@int32_funs_any ext XNum) /\ "freq"%string <> "phase"%string.
Proof. split; [reflexivity|]. split; [cbn; auto 10|discriminate]. Qed.
