(** * C124: phase records held in an integer array. *)
From Coq Require Import String Reals List ZArith Lra Lia Arith Bool Sorted Psatz.
From Verif Require Import Base Num NpList ModelCore ModelDev ModelInt NumR NumX ListFacts Spec RSum TauProofs DevProofs GenericProofs NanProofs TotProofs Closed Laws Laws2 Laws3 GradProofs PropsSlope PropsJoin.
Import ListNotations.
Local Open Scope R_scope.
Local Notation len := List.length.

(** ** specification *)
(** [q] is an integer number of squared counts; kept in 64 bits it is [q - 2^64 k] for the k which brings it into [-2^63, 2^63), and the square root of a negative
    number is NaN.  [int64_of w d d']: [d'] is what becomes of the deviation [d] when [w d^2] is kept in 64 bits. *)
Definition int64_of (w d : R) (d' : ext) : Prop :=
  exists k : Z, (0 <= k)%Z /\ - 2 ^ 63 <= w * d ^ 2 - IZR k * 2 ^ 64 < 2 ^ 63 /\
    (w * d ^ 2 - IZR k * 2 ^ 64 < 0 -> d' = NaN) /\
    (0 <= w * d ^ 2 - IZR k * 2 ^ 64 -> exists v, 0 <= v /\ d' = Fin v /\ w * v ^ 2 = w * d ^ 2 - IZR k * 2 ^ 64).
Definition int_fun := list Z -> ext -> string -> taus_arg ext -> res (@result ext).
(** the functions; the sum of squared differences is [w rate tau * n * dev^2] *)
Definition int_funs : list (dev_fun * int_fun * (R -> R -> R)) :=
  [ (adev, adev_int, fun _ t => 2 * t ^ 2); (oadev, oadev_int, fun _ t => 2 * t ^ 2);
    (hdev, hdev_int, fun _ t => 6 * t ^ 2); (ohdev, ohdev_int, fun _ t => 6 * t ^ 2);
    (mdev, mdev_int, fun rate t => 2 * (rate * t) ^ 2 * t ^ 2); (tdev, tdev_int, fun rate t => 6 * (rate * t) ^ 2) ].
Definition int64 (z : Z) : Prop := (- 2 ^ 63 <= z < 2 ^ 63)%Z.

(** ** ring homomorphisms *)
Section Hom.
Context {A B : Type} {NA : Num A} {NB : Num B} (f : A -> B).
Hypothesis Hz : forall k, f (ofZ k) = ofZ k.
Hypothesis Ha : forall a b, f (nadd a b) = nadd (f a) (f b).
Hypothesis Hs : forall a b, f (nsub a b) = nsub (f a) (f b).
Hypothesis Hm : forall a b, f (nmul a b) = nmul (f a) (f b).
Lemma hom_fold l : forall a, f (fold_left nadd l a) = fold_left nadd (map f l) (f a).
Proof using Ha. induction l as [|b l IH]; intros a; cbn; [reflexivity|]. now rewrite IH, Ha. Qed.
Lemma hom_asum l : f (asum l) = asum (map f l).
Proof using Ha Hz. unfold asum. now rewrite hom_fold, Hz. Qed.
Lemma hom_sumsq l : f (sumsq l) = sumsq (map f l).
Proof using Ha Hz Hm. unfold sumsq. rewrite hom_asum, !map_map. f_equal. apply map_ext. intros a. apply Hm. Qed.
Lemma hom_cumsum_from l : forall a, map f (cumsum_from a l) = cumsum_from (f a) (map f l).
Proof using Ha. induction l as [|b l IH]; intros a; cbn; [reflexivity|]. now rewrite IH, Ha. Qed.
Lemma hom_cumsum l : map f (cumsum l) = cumsum (map f l).
Proof using Ha. destruct l as [|a l]; cbn; [reflexivity|]. now rewrite hom_cumsum_from. Qed.
Lemma hom_nth x i : f (nth i x (ofZ 0)) = nth i (map f x) (ofZ 0).
Proof using Hz. rewrite <- Hz. symmetry. apply map_nth. Qed.
Lemma hom_sdiff x m s i : f (sdiff x m s i) = sdiff (map f x) m s i.
Proof using All. unfold sdiff. now rewrite Ha, Hs, Hm, Hz, !hom_nth. Qed.
Lemma hom_tdiff x m s i : f (tdiff x m s i) = tdiff (map f x) m s i.
Proof using All. unfold tdiff. now rewrite !Hs, Ha, Hs, !Hm, Hz, !hom_nth. Qed.
Lemma hom_mdev_sum x m : f (mdev_sum x m) = mdev_sum (map f x) m.
Proof using All.
  unfold mdev_sum. cbv zeta. rewrite map_length.
  set (v := asum _). assert (Hv : f v = asum (tab (Nat.min m (len x - 2 * m)) (fun i =>
    nadd (nsub (nth (2 * m + i) (map f x) (ofZ 0)) (nmul (ofZ 2) (nth (m + i) (map f x) (ofZ 0)))) (nth (0 + i) (map f x) (ofZ 0))))).
  { unfold v. rewrite hom_asum, map_tab. f_equal. apply tab_ext. intros i _. now rewrite Ha, Hs, Hm, Hz, !hom_nth. }
  rewrite <- Hv. rewrite Ha, Hm, hom_sumsq. f_equal. f_equal. rewrite map_map.
  replace (cumsum (tab (len x - 3 * m) (tdiff (map f x) m 1))) with (map f (cumsum (tab (len x - 3 * m) (tdiff x m 1)))).
  2:{ rewrite hom_cumsum, map_tab. f_equal. apply tab_ext. intros i _. apply hom_tdiff. }
  rewrite map_map. apply map_ext. intros c. apply Ha.
Qed.
End Hom.

(** exact integers *)
Definition ZEx : Num Z := {| ofZ := fun k => k; nadd := Z.add; nsub := Z.sub; nmul := Z.mul; ndiv := fun _ _ => 0%Z; nabs := Z.abs; nsqrt := fun _ => 0%Z;
  nltb := Z.ltb; nleb := Z.leb; neqb := Z.eqb; nisnan := fun _ => false; nrint := Some; ntrunc := Some; nlogspace10 := fun _ => [] |}.
Lemma wrap_mod z : exists k, wrap z = (z - k * 2 ^ 64)%Z /\ (- 2 ^ 63 <= wrap z < 2 ^ 63)%Z.
Proof.
  exists ((z + 2 ^ 63) / 2 ^ 64)%Z. unfold wrap. pose proof (Z.div_mod (z + 2 ^ 63) (2 ^ 64) ltac:(lia)). pose proof (Z.mod_pos_bound (z + 2 ^ 63) (2 ^ 64) ltac:(lia)).
  split; [lia|]. change (2 ^ 64)%Z with (2 * 2 ^ 63)%Z in *. lia.
Qed.
Lemma wrap_eq a b : ((a - b) mod 2 ^ 64 = 0)%Z -> wrap a = wrap b.
Proof.
  intros H. unfold wrap. f_equal. apply Z.mod_divide in H; [|lia]. destruct H as [k Hk]. replace (a + 2 ^ 63)%Z with (b + 2 ^ 63 + k * 2 ^ 64)%Z by lia. apply Z.mod_add. lia.
Qed.
Lemma wrap_id z : int64 z -> wrap z = z.
Proof. intros H. unfold wrap. rewrite Z.mod_small; [lia|]. unfold int64 in H. change (2 ^ 64)%Z with (2 * 2 ^ 63)%Z. lia. Qed.
Ltac wrap_hom := apply wrap_eq;
  repeat match goal with |- context [wrap ?z] => let k := fresh "k" in let E := fresh "E" in destruct (wrap_mod z) as (k & E & _); rewrite E; clear E end;
  apply Z.mod_divide; [lia|].
Lemma wrap_add a b : wrap (a + b) = wrap (wrap a + wrap b).
Proof. wrap_hom. exists (k + k0)%Z. ring. Qed.
Lemma wrap_sub a b : wrap (a - b) = wrap (wrap a - wrap b).
Proof. wrap_hom. exists (k - k0)%Z. ring. Qed.
Lemma wrap_mul a b : wrap (a * b) = wrap (wrap a * wrap b).
Proof. wrap_hom. exists (k0 * a + k * b - k * k0 * 2 ^ 64)%Z. ring. Qed.

Section Sums.
Variable zs : list Z.
Hypothesis Hzs : Forall int64 zs.
Lemma zs_wrap : map wrap zs = zs.
Proof using Hzs. rewrite <- (map_id zs) at 2. apply map_ext_in. intros z Hz. apply wrap_id. exact (proj1 (Forall_forall _ _) Hzs z Hz). Qed.
Definition S_ad m s : Z := @sumsq Z ZEx (tab (stride_count (len zs) (2 * m) s) (@sdiff Z ZEx zs m s)).
Definition S_hd m s : Z := @sumsq Z ZEx (tab (stride_count (len zs) (3 * m) s) (@tdiff Z ZEx zs m s)).
Definition S_md m : Z := @mdev_sum Z ZEx zs m.
Lemma S_ad_int m s : @sumsq Z I64 (tab (stride_count (len zs) (2 * m) s) (@sdiff Z I64 zs m s)) = wrap (S_ad m s).
Proof using Hzs.
  unfold S_ad. rewrite (@hom_sumsq Z Z ZEx I64 wrap) by (cbn; auto using wrap_add, wrap_mul). rewrite map_tab. f_equal. apply tab_ext. intros i _.
  rewrite (@hom_sdiff Z Z ZEx I64 wrap) by (cbn; auto using wrap_add, wrap_sub, wrap_mul). now rewrite zs_wrap.
Qed.
Lemma S_hd_int m s : @sumsq Z I64 (tab (stride_count (len zs) (3 * m) s) (@tdiff Z I64 zs m s)) = wrap (S_hd m s).
Proof using Hzs.
  unfold S_hd. rewrite (@hom_sumsq Z Z ZEx I64 wrap) by (cbn; auto using wrap_add, wrap_mul). rewrite map_tab. f_equal. apply tab_ext. intros i _.
  rewrite (@hom_tdiff Z Z ZEx I64 wrap) by (cbn; auto using wrap_add, wrap_sub, wrap_mul). now rewrite zs_wrap.
Qed.
Lemma S_md_int m : @mdev_sum Z I64 zs m = wrap (S_md m).
Proof using Hzs. unfold S_md. rewrite (@hom_mdev_sum Z Z ZEx I64 wrap) by (cbn; auto using wrap_add, wrap_sub, wrap_mul). now rewrite zs_wrap. Qed.
Lemma S_ad_R m s : @sumsq R RNum (tab (stride_count (len zs) (2 * m) s) (@sdiff R RNum (map IZR zs) m s)) = IZR (S_ad m s).
Proof.
  unfold S_ad. rewrite (@hom_sumsq Z R ZEx RNum IZR) by (cbn; auto using plus_IZR, mult_IZR). rewrite map_tab. f_equal. apply tab_ext. intros i _.
  symmetry. apply (@hom_sdiff Z R ZEx RNum IZR); cbn; auto using plus_IZR, minus_IZR, mult_IZR.
Qed.
Lemma S_hd_R m s : @sumsq R RNum (tab (stride_count (len zs) (3 * m) s) (@tdiff R RNum (map IZR zs) m s)) = IZR (S_hd m s).
Proof.
  unfold S_hd. rewrite (@hom_sumsq Z R ZEx RNum IZR) by (cbn; auto using plus_IZR, mult_IZR). rewrite map_tab. f_equal. apply tab_ext. intros i _.
  symmetry. apply (@hom_tdiff Z R ZEx RNum IZR); cbn; auto using plus_IZR, minus_IZR, mult_IZR.
Qed.
Lemma S_md_R m : @mdev_sum R RNum (map IZR zs) m = IZR (S_md m).
Proof. symmetry. unfold S_md. apply (@hom_mdev_sum Z R ZEx RNum IZR); cbn; auto using plus_IZR, minus_IZR, mult_IZR. Qed.
Lemma sumsq_pos l : (0 <= @sumsq Z ZEx l)%Z.
Proof.
  unfold sumsq, asum. change (@ofZ Z ZEx 0) with 0%Z. assert (G : forall a, (0 <= a)%Z -> (0 <= fold_left (@nadd Z ZEx) (map (@nsq Z ZEx) l) a)%Z); [|apply G; lia].
  induction l as [|b l IH]; intros a H; cbn [map fold_left]; [exact H|]. apply IH. cbn. unfold nsq. cbn. nia.
Qed.
Lemma S_md_pos m : (0 <= S_md m)%Z.
Proof. unfold S_md, mdev_sum. cbv zeta. set (v := asum _). pose proof (sumsq_pos (map (fun c => @nadd Z ZEx v c) (@cumsum Z ZEx (tab (len zs - 3 * m) (@tdiff Z ZEx zs m 1))))). cbn [nadd nmul ZEx] in *. nia. Qed.
End Sums.

(** ** rows *)
Section Forms.
Context {A : Type} {NA : Num A}.
Local Open Scope num_scope.
Lemma calc_adev_int_form (x : list Z) (rate : A) m s : (1 <= s)%nat ->
  let v := nsqrt (ofZ (@sumsq Z I64 (tab (stride_count (len x) (2 * m) s) (@sdiff Z I64 x m s))) / (ofZ 2 * ofN (adev_cnt (len x) m s))) / ofN m * rate in
  calc_adev_int x rate m s = Ok (v, v / nsqrt (ofN (adev_cnt (len x) m s)), Z.of_nat (adev_cnt (len x) m s)).
Proof.
  intros Hs. cbv zeta. transitivity (calc_adev_int (tab (len x) (fun i => nth i x (@ofZ Z I64 0))) rate m s); [now rewrite <- (list_tab x (@ofZ Z I64 0))|].
  unfold calc_adev_int. rewrite !pystride_tab by exact Hs. cbn [bind]. rewrite !tab_length.
  pose proof (stride_count_mono (len x) 0 (1 * m) s Hs ltac:(lia)). pose proof (stride_count_mono (len x) (1 * m) (2 * m) s Hs ltac:(lia)).
  unfold min3. rewrite (Nat.min_r _ (stride_count (len x) (2 * m) s)) by lia. rewrite Nat.min_r by lia. fold (adev_cnt (len x) m s).
  assert (E : @second_diff Z I64 (adev_cnt (len x) m s) (tab (stride_count (len x) (2 * m) s) (fun i => nth (2 * m + i * s) x (@ofZ Z I64 0)))
     (tab (stride_count (len x) (1 * m) s) (fun i => nth (1 * m + i * s) x (@ofZ Z I64 0)))
     (tab (stride_count (len x) 0 s) (fun i => nth (0 + i * s) x (@ofZ Z I64 0))) = Ok (tab (stride_count (len x) (2 * m) s) (@sdiff Z I64 x m s))).
  { unfold second_diff, scal, vsub, vadd, adev_cnt. rewrite !firstn_tab, map_tab. destruct (Nat.eqb_spec (stride_count (len x) (2 * m) s) 0) as [->|H1].
    - change (Nat.min 1 0) with 0%nat. rewrite !tab_0. rewrite NanProofs.bmap2_nil_l by (rewrite tab_length; lia). cbn [bind].
      apply NanProofs.bmap2_nil_l. rewrite tab_length; lia.
    - rewrite !Nat.min_l by lia. rewrite bmap2_tab. cbn [bind]. now rewrite bmap2_tab. }
  rewrite E. reflexivity.
Qed.
Lemma calc_hdev_int_form (x : list Z) (rate : A) m s : (1 <= s)%nat ->
  let v := nsqrt (ofZ (@sumsq Z I64 (tab (stride_count (len x) (3 * m) s) (@tdiff Z I64 x m s))) / ofZ 6 / ofN (hdev_cnt (len x) m s)) / (ofZ 1 / rate * ofN m) in
  calc_hdev_int x rate m s = Ok (v, v / nsqrt (ofN (hdev_cnt (len x) m s)), Z.of_nat (hdev_cnt (len x) m s)).
Proof.
  intros Hs. cbv zeta. transitivity (calc_hdev_int (tab (len x) (fun i => nth i x (@ofZ Z I64 0))) rate m s); [now rewrite <- (list_tab x (@ofZ Z I64 0))|].
  unfold calc_hdev_int. rewrite !pystride_tab by exact Hs. cbn [bind]. rewrite !tab_length.
  pose proof (stride_count_mono (len x) 0 (1 * m) s Hs ltac:(lia)). pose proof (stride_count_mono (len x) (1 * m) (2 * m) s Hs ltac:(lia)).
  pose proof (stride_count_mono (len x) (2 * m) (3 * m) s Hs ltac:(lia)).
  unfold min4, min3. rewrite (Nat.min_r _ (stride_count (len x) (3 * m) s)) by lia.
  unfold third_diff, scal, vsub, vadd. rewrite !firstn_tab, !map_tab, !Nat.min_l by lia.
  rewrite bmap2_tab. cbn [bind]. rewrite bmap2_tab. cbn [bind]. rewrite bmap2_tab. reflexivity.
Qed.
Lemma calc_mdev_int_form (x : list Z) (rate : A) m :
  let v := nsqrt (ofZ (@mdev_sum Z I64 x m) / (ofZ 2 * ofN m * ofN m * (ofN m / rate) * (ofN m / rate) * ofN (S (len x - 3 * m)))) in
  calc_mdev_int x rate m = Ok (v, v / nsqrt (ofN (S (len x - 3 * m))), Z.of_nat (S (len x - 3 * m))).
Proof.
  cbv zeta. transitivity (calc_mdev_int (tab (len x) (fun i => nth i x (@ofZ Z I64 0))) rate m); [now rewrite <- (list_tab x (@ofZ Z I64 0))|].
  unfold calc_mdev_int. cbv zeta.
  rewrite !pyslice_tab, !skipn_tab, !tab_length. unfold min3, min4, min3. set (N := len x).
  replace (Nat.min (Nat.min (m - 0) (N - 0)) (Nat.min (Nat.min (2 * m - m) (N - m)) (Nat.min (3 * m - 2 * m) (N - 2 * m))))
    with (Nat.min m (N - 2 * m)) by lia.
  replace (Nat.min (Nat.min N (Nat.min (N - 1 * m) (N - 2 * m))) (N - 3 * m)) with (N - 3 * m)%nat by lia.
  unfold second_diff, third_diff, scal, vsub, vadd. rewrite !firstn_tab, !map_tab.
  rewrite !(Nat.min_l (Nat.min m (N - 2 * m))) by lia.
  rewrite bmap2_tab. cbn [bind]. rewrite bmap2_tab. cbn [bind].
  rewrite !(Nat.min_l (N - 3 * m)) by lia.
  rewrite bmap2_tab. cbn [bind]. rewrite bmap2_tab. cbn [bind]. rewrite bmap2_tab. cbn [bind].
  assert (Et : tab (N - 3 * m) (fun i => @nsub Z I64 (@nadd Z I64 (@nsub Z I64 (nth (3 * m + i) x (@ofZ Z I64 0)) (@nmul Z I64 (@ofZ Z I64 3) (nth (2 * m + i) x (@ofZ Z I64 0)))) (@nmul Z I64 (@ofZ Z I64 3) (nth (1 * m + i) x (@ofZ Z I64 0)))) (nth i x (@ofZ Z I64 0))) =
    tab (N - 3 * m) (@tdiff Z I64 x m 1)) by (apply tab_ext; intros i _; unfold tdiff; now rewrite Nat.mul_1_r).
  rewrite Et. reflexivity.
Qed.

(** the table of a list of rows *)
Definition table (g : Z -> A) (h : Z -> A * A * Z) (ms : list Z) : res (@result A) :=
  match filter (fun m => (1 <? snd (h m))%Z) ms with
  | [] => Err UserWarning
  | good => Ok (map g good, map (fun m => fst (fst (h m))) good, EArr (map (fun m => snd (fst (h m))) good), map (fun m => snd (h m)) good)
  end.
Lemma run_rows_table (c : nat -> res (A * A * Z)) (g : Z -> A) (h : Z -> A * A * Z) ms : (forall m, In m ms -> c (Z.to_nat m) = Ok (h m)) -> run_rows c ms (map g ms) = table g h ms.
Proof.
  intros H. unfold run_rows. rewrite (mapM_Ok _ h _ H). cbn [bind]. unfold remove_small_ns, table. rewrite !map_map, !mask_select_map. cbn [bind].
  destruct (filter _ ms); reflexivity.
Qed.
Lemma bmap2_map {T C D E} (f : C -> D -> E) (a : T -> C) (b : T -> D) l : bmap2 f (map a l) (map b l) = Ok (map (fun x => f (a x) (b x)) l).
Proof.
  rewrite bmap2_eqlen by now rewrite !map_length. f_equal. induction l as [|x l IH]; [reflexivity|]. cbn. f_equal. exact IH.
Qed.
Lemma scale_table g h ms : (r <- table g h ms ;; scale_tdev r)%res =
  table g (fun m => let d := g m * fst (fst (h m)) / nsqrt (ofZ 3) in (d, d / nsqrt (ofZ (snd (h m))), snd (h m))) ms.
Proof.
  unfold table. cbn [fst snd]. destruct (filter _ ms) as [|m0 gd]; [reflexivity|]. set (L := m0 :: gd). cbn [bind]. unfold scale_tdev, vmul. rewrite bmap2_map. cbn [bind].
  rewrite map_map, bmap2_map. reflexivity.
Qed.
End Forms.

(** ** one number *)
Definition xdev (W q c : R) : ext := if Rlt_dec W 0 then NaN else Fin (sqrt (W / q) * c).
Lemma core (s : Z) (q c w : R) : (0 <= s)%Z -> 0 < q -> 0 <= c -> w * c ^ 2 = q -> int64_of w (sqrt (IZR s / q) * c) (xdev (IZR (wrap s)) q c).
Proof.
  intros Hs Hq Hc Hw. assert (V : forall z, (0 <= z)%Z -> w * (sqrt (IZR z / q) * c) ^ 2 = IZR z).
  { intros z Hz. rewrite Rpow_mult_distr, pow2_sqrt by (apply Rmult_le_pos; [now apply IZR_le|left; now apply Rinv_0_lt_compat]).
    replace (w * (IZR z / q * c ^ 2)) with (w * c ^ 2 * (IZR z / q)) by ring. rewrite Hw. field. lra. }
  unfold int64_of. rewrite (V s Hs). destruct (wrap_mod s) as (k & Ek & Hk). exists k.
  assert (Er : IZR (wrap s) = IZR s - IZR k * 2 ^ 64) by (rewrite Ek, minus_IZR, mult_IZR; change 64%Z with (Z.of_nat 64); rewrite <- pow_IZR; reflexivity).
  rewrite <- Er. assert (P63 : IZR (2 ^ 63) = 2 ^ 63) by (change 63%Z with (Z.of_nat 63); rewrite <- pow_IZR; reflexivity).
  split; [change (2 ^ 64)%Z with (2 * 2 ^ 63)%Z in Ek; nia|]. split; [|split].
  - rewrite <- P63, <- opp_IZR. destruct Hk. split; [now apply IZR_le|now apply IZR_lt].
  - intros L. unfold xdev. destruct (Rlt_dec (IZR (wrap s)) 0); [reflexivity|lra].
  - intros L. unfold xdev. destruct (Rlt_dec (IZR (wrap s)) 0); [lra|]. exists (sqrt (IZR (wrap s) / q) * c).
    split; [apply Rmult_le_pos; [apply sqrt_pos|exact Hc]|]. split; [reflexivity|]. apply V. now apply le_IZR.
Qed.
Lemma xsqrt W q : 0 < q -> x_sqrt (x_div (Fin W) (Fin q)) = if Rlt_dec W 0 then NaN else Fin (sqrt (W / q)).
Proof.
  intros Hq. rewrite x_div_fin by lra. cbn. assert (0 < / q) by now apply Rinv_0_lt_compat. unfold Rdiv.
  destruct (Rlt_dec W 0), (Rlt_dec (W * / q) 0); try reflexivity; exfalso; nra.
Qed.

Definition int_table (w : R -> R -> R) (rate : R) (r : res (@result R)) (r' : res (@result ext)) : Prop :=
  match r with
  | Err e => r' = Err e
  | Ok (ts, ds, _, ns) => exists ds' es', r' = Ok (map Fin ts, ds', es', ns) /\ len ds' = len ds /\
      forall i t d n, nth_error ts i = Some t -> nth_error ds i = Some d -> nth_error ns i = Some n ->
        exists d', nth_error ds' i = Some d' /\ int64_of (w rate t * IZR n) d d'
  end.
Lemma pair_table w rate ms (h : Z -> R * R * Z) (h' : Z -> ext * ext * Z) :
  (forall m, In m ms -> snd (h' m) = snd (h m) /\ ((1 < snd (h m))%Z -> int64_of (w rate (IZR m / rate) * IZR (snd (h m))) (fst (fst (h m))) (fst (fst (h' m))))) ->
  int_table w rate (table (fun m => IZR m / rate) h ms) (table (fun m => Fin (IZR m / rate)) h' ms).
Proof.
  intros H. unfold table. rewrite (filter_ext_in (fun m => (1 <? snd (h' m))%Z) (fun m => (1 <? snd (h m))%Z) ms) by (intros m Hm; now rewrite (proj1 (H m Hm))).
  assert (G : forall m, In m (filter (fun m => (1 <? snd (h m))%Z) ms) -> snd (h' m) = snd (h m) /\ int64_of (w rate (IZR m / rate) * IZR (snd (h m))) (fst (fst (h m))) (fst (fst (h' m)))).
  { intros m Hm. apply filter_In in Hm as [Hm Hc]. apply Z.ltb_lt in Hc. destruct (H m Hm). auto. }
  destruct (filter _ ms) as [|m0 gd]; [reflexivity|]. revert G. generalize (m0 :: gd). intros L G. cbn.
  exists (map (fun m => fst (fst (h' m))) L). eexists. split; [|split].
  - rewrite map_map. f_equal. f_equal. apply map_ext_in. intros m Hm. now rewrite (proj1 (G m Hm)).
  - now rewrite !map_length.
  - intros i t d n Ht Hd Hn. rewrite nth_error_map in Ht, Hd, Hn. rewrite nth_error_map. destruct (nth_error L i) as [m|] eqn:E; [|discriminate]. cbn in *.
    injection Ht as <-. injection Hd as <-. injection Hn as <-. eexists. split; [reflexivity|]. apply G. eapply nth_error_In, E.
Qed.
Lemma gen_pair w zs rate taus c (c' : list Z -> ext -> nat -> res (ext * ext * Z)) (fd : list ext -> ext -> string -> taus_arg ext -> res result) (h : Z -> R * R * Z) (h' : Z -> ext * ext * Z) : 0 < rate ->
  (forall m, (1 <= m)%Z -> c (map IZR zs) rate (Z.to_nat m) = Ok (h m) /\ c' zs (Fin rate) (Z.to_nat m) = Ok (h' m)) ->
  (forall m, (1 <= m)%Z -> snd (h' m) = snd (h m) /\ ((1 < snd (h m))%Z -> int64_of (w rate (IZR m / rate) * IZR (snd (h m))) (fst (fst (h m))) (fst (fst (h' m))))) ->
  (exists e, ('(p, ms, tu) <- tau_generator (map IZR zs) rate taus false (ofZ (-1)) ;; run_rows (c p rate) ms tu)%res = Err e /\ int_dev c' fd zs (Fin rate) "phase" (req taus) = Err e) \/
  exists ms, (forall m, In m ms -> (1 <= m)%Z) /\
    ('(p, ms, tu) <- tau_generator (map IZR zs) rate taus false (ofZ (-1)) ;; run_rows (c p rate) ms tu)%res = table (fun m => IZR m / rate) h ms /\
    int_dev c' fd zs (Fin rate) "phase" (req taus) = table (fun m => Fin (IZR m / rate)) h' ms.
Proof.
  intros Hr Hc Hp. unfold int_dev. cbn [String.eqb Ascii.eqb Bool.eqb].
  rewrite (taugen_X (map ofZ zs) (map IZR zs) rate taus) by now rewrite !map_length. change (@ofZ R RNum (-1)) with (-1).
  destruct (tau_generator (map IZR zs) rate taus false (-1)) as [[[x ms] tu]|e] eqn:E; [|left; exists e; split; reflexivity].
  apply tau_generator_shape in E as (-> & _ & Hpos & ->). cbn [bind]. rewrite map_map. right. exists ms.
  assert (Hm : forall m, In m ms -> (1 <= m)%Z) by (intros m Hm; exact (proj1 (Forall_forall _ _) Hpos m Hm)). split; [exact Hm|]. split.
  - apply run_rows_table. intros m Hin. apply Hc. auto.
  - apply run_rows_table. intros m Hin. apply Hc. auto.
Qed.

Section Pairs.
Variables (zs : list Z) (rate : R).
Hypothesis Hzs : Forall int64 zs.
Hypothesis Hr : 0 < rate.
Lemma ofNR n : @ofN R RNum n = INR n. Proof. unfold ofN. cbn. symmetry. apply INR_IZR_INZ. Qed.
Lemma ofNX n : @ofN ext XNum n = Fin (INR n). Proof. unfold ofN. cbn. now rewrite <- INR_IZR_INZ. Qed.
Lemma cnt1 N m s : 0 < INR (adev_cnt N m s) /\ 0 < INR (hdev_cnt N m s).
Proof. unfold adev_cnt, hdev_cnt. cbv zeta. split; apply lt_0_INR; [destruct (Nat.eqb_spec (stride_count N (2 * m) s) 0)|destruct (Nat.eqb_spec (stride_count N (3 * m) s) 0)]; lia. Qed.
Lemma S_ad_pos m s : (0 <= S_ad zs m s)%Z. Proof. apply sumsq_pos. Qed.
Lemma S_hd_pos m s : (0 <= S_hd zs m s)%Z. Proof. apply sumsq_pos. Qed.

Lemma ad_pair m s : (1 <= m)%nat -> (1 <= s)%nat ->
  exists d e d' e', calc_adev_phase (map IZR zs) rate m s = Ok (d, e, Z.of_nat (adev_cnt (len zs) m s)) /\
    calc_adev_int zs (Fin rate) m s = Ok (d', e', Z.of_nat (adev_cnt (len zs) m s)) /\
    int64_of (2 * (INR m / rate) ^ 2 * INR (adev_cnt (len zs) m s)) d d'.
Proof using All.
  intros Hm Hs. rewrite calc_adev_form, calc_adev_int_form by exact Hs. cbv zeta. rewrite map_length. do 4 eexists. split; [reflexivity|]. split; [reflexivity|].
  destruct (cnt1 (len zs) m s) as [Hc _]. set (n := adev_cnt (len zs) m s) in *. assert (Hm' : 0 < INR m) by (apply lt_0_INR; lia).
  unfold adev_val. rewrite map_length. fold n. rewrite (S_ad_R zs), (S_ad_int zs Hzs), ofNR, !ofNX, ofNR.
  replace (@nmul R RNum _ rate) with (sqrt (IZR (S_ad zs m s) / (2 * INR n)) * (/ INR m * rate)) by (cbn; unfold Rdiv; ring).
  replace (@nmul ext XNum _ (Fin rate)) with (xdev (IZR (wrap (S_ad zs m s))) (2 * INR n) (/ INR m * rate)).
  - apply core; [apply S_ad_pos|lra|apply Rmult_le_pos; [left; now apply Rinv_0_lt_compat|lra]|]. field. lra.
  - cbn [nmul ndiv nsqrt ofZ XNum]. change (x_mul (Fin 2) (Fin (INR n))) with (Fin (2 * INR n)). rewrite xsqrt by lra. unfold xdev.
    destruct (Rlt_dec _ 0); [reflexivity|]. rewrite x_div_fin by lra. cbn. f_equal. unfold Rdiv. ring.
Qed.
Lemma hd_pair m s : (1 <= m)%nat -> (1 <= s)%nat ->
  exists d e d' e', calc_hdev_phase (map IZR zs) rate m s = Ok (d, e, Z.of_nat (hdev_cnt (len zs) m s)) /\
    calc_hdev_int zs (Fin rate) m s = Ok (d', e', Z.of_nat (hdev_cnt (len zs) m s)) /\
    int64_of (6 * (INR m / rate) ^ 2 * INR (hdev_cnt (len zs) m s)) d d'.
Proof using All.
  intros Hm Hs. rewrite calc_hdev_form, calc_hdev_int_form by exact Hs. cbv zeta. rewrite map_length. do 4 eexists. split; [reflexivity|]. split; [reflexivity|].
  destruct (cnt1 (len zs) m s) as [_ Hc]. set (n := hdev_cnt (len zs) m s) in *. assert (Hm' : 0 < INR m) by (apply lt_0_INR; lia).
  assert (Hir : 0 < / rate) by now apply Rinv_0_lt_compat. assert (Him : 0 < / INR m) by now apply Rinv_0_lt_compat.
  unfold hdev_val. rewrite map_length. fold n. rewrite (S_hd_R zs), (S_hd_int zs Hzs), ofNR, !ofNX, ofNR.
  replace (@ndiv R RNum (nsqrt _) _) with (sqrt (IZR (S_hd zs m s) / (6 * INR n)) * (/ INR m * rate)) by (cbn; unfold Rdiv; rewrite !Rinv_mult, Rinv_1, Rinv_inv; rewrite Rmult_assoc; ring).
  replace (@ndiv ext XNum (nsqrt _) _) with (xdev (IZR (wrap (S_hd zs m s))) (6 * INR n) (/ INR m * rate)).
  - apply core; [apply S_hd_pos|lra|nra|]. field. lra.
  - cbn [nmul ndiv nsqrt ofZ XNum]. rewrite (x_div_fin 1 rate), (x_div_fin _ 6) by lra. rewrite xsqrt by lra. unfold xdev.
    destruct (Rlt_dec _ 0) as [L|L], (Rlt_dec (IZR (wrap (S_hd zs m s)) / 6) 0) as [L'|L']; try (exfalso; lra); [reflexivity|].
    cbn [x_mul]. rewrite x_div_fin by (apply Rgt_not_eq; unfold Rdiv; nra). f_equal. replace (IZR (wrap (S_hd zs m s)) / (6 * INR n)) with (IZR (wrap (S_hd zs m s)) / 6 / INR n) by (field; lra). field. lra.
Qed.
Lemma md_pair m : (1 <= m)%nat ->
  exists d e d' e', calc_mdev_phase (map IZR zs) rate m = Ok (d, e, Z.of_nat (S (len zs - 3 * m))) /\
    calc_mdev_int zs (Fin rate) m = Ok (d', e', Z.of_nat (S (len zs - 3 * m))) /\
    int64_of (2 * (rate * (INR m / rate)) ^ 2 * (INR m / rate) ^ 2 * INR (S (len zs - 3 * m))) d d' /\
    forall n', n' = S (len zs - 3 * m) ->
    int64_of (6 * (rate * (INR m / rate)) ^ 2 * INR n') (INR m / rate * d / sqrt 3) (x_div (x_mul (Fin (INR m / rate)) d') (Fin (sqrt 3))).
Proof using All.
  intros Hm. rewrite calc_mdev_form, calc_mdev_int_form. cbv zeta. rewrite map_length. do 4 eexists. split; [reflexivity|]. split; [reflexivity|].
  set (n := S (len zs - 3 * m)). assert (Hc : 0 < INR n) by (apply lt_0_INR; unfold n; lia). assert (Hm' : 0 < INR m) by (apply lt_0_INR; lia).
  set (t := INR m / rate). assert (Ht : 0 < t) by (unfold t; now apply Rdiv_lt_0_compat).
  set (q := 2 * INR m * INR m * t * t * INR n). assert (Hq : 0 < q) by (unfold q; clearbody t n; repeat apply Rmult_lt_0_compat; lra).
  assert (Em : rate * t = INR m) by (unfold t; field; lra). rewrite Em.
  unfold mdev_val. rewrite map_length. fold n. rewrite (S_md_R zs), (S_md_int zs Hzs), !ofNR, !ofNX.
  replace (@nsqrt R RNum _) with (sqrt (IZR (S_md zs m) / q)) by (cbn; reflexivity).
  assert (EX : forall W, @nsqrt ext XNum (@ndiv ext XNum (@ofZ ext XNum W) (nmul (nmul (nmul (nmul (nmul (ofZ 2) (Fin (INR m))) (Fin (INR m))) (ndiv (Fin (INR m)) (Fin rate))) (ndiv (Fin (INR m)) (Fin rate))) (Fin (INR n)))) = xdev (IZR W) q 1).
  { intros W. cbn [nmul ndiv nsqrt ofZ XNum]. rewrite (x_div_fin (INR m) rate) by lra. fold t. cbn [x_mul]. fold q. rewrite xsqrt by exact Hq. unfold xdev. destruct (Rlt_dec _ 0); [reflexivity|]. now rewrite Rmult_1_r. }
  rewrite EX. assert (H3 : 0 < sqrt 3) by (apply sqrt_lt_R0; lra). split.
  - replace (sqrt (IZR (S_md zs m) / q)) with (sqrt (IZR (S_md zs m) / q) * 1) by ring. apply core; [apply S_md_pos|exact Hq|lra|]. unfold q. ring.
  - intros n' ->. fold n. replace (t * sqrt (IZR (S_md zs m) / q) / sqrt 3) with (sqrt (IZR (S_md zs m) / q) * (t / sqrt 3)) by (field; lra).
    replace (x_div _ _) with (xdev (IZR (wrap (S_md zs m))) q (t / sqrt 3)).
    + apply core; [apply S_md_pos|exact Hq|left; now apply Rdiv_lt_0_compat|]. unfold Rdiv. rewrite Rpow_mult_distr, pow_inv, pow2_sqrt by lra. unfold q. field.
    + unfold xdev. destruct (Rlt_dec _ 0); [reflexivity|]. cbn [x_mul]. rewrite x_div_fin by lra. f_equal. field. lra.
Qed.
End Pairs.


(** ** the tables *)
Definition unres {T} (d : T) (r : res T) : T := match r with Ok x => x | Err _ => d end.
Theorem C124_value f fi w zs rate taus : In (f, fi, w) int_funs -> 0 < rate -> Forall int64 zs ->
  int_table w rate (f (map IZR zs) rate "phase"%string taus) (fi zs (Fin rate) "phase"%string (req taus)).
Proof.
  intros Hf Hr Hzs.
  assert (Main : forall w c (c' : list Z -> ext -> nat -> res (ext * ext * Z)) fd (cnt : nat -> Z), 
    (forall m, (1 <= m)%nat -> exists d e d' e', c (map IZR zs) rate m = Ok (d, e, cnt m) /\ c' zs (Fin rate) m = Ok (d', e', cnt m) /\ int64_of (w rate (INR m / rate) * IZR (cnt m)) d d') ->
    int_table w rate ('(p, ms, tu) <- tau_generator (map IZR zs) rate taus false (ofZ (-1)) ;; run_rows (c p rate) ms tu)%res (int_dev c' fd zs (Fin rate) "phase"%string (req taus))).
  { intros w0 c c' fd cnt Hp.
    pose (h := fun m => unres (0, 0, 0%Z) (c (map IZR zs) rate (Z.to_nat m))). pose (h' := fun m => unres (NaN, NaN, 0%Z) (c' zs (Fin rate) (Z.to_nat m))).
    assert (H2 : forall m, (1 <= m)%Z -> snd (h' m) = snd (h m) /\ ((1 < snd (h m))%Z -> int64_of (w0 rate (IZR m / rate) * IZR (snd (h m))) (fst (fst (h m))) (fst (fst (h' m))))).
    { intros m Hm. destruct (Hp (Z.to_nat m) ltac:(lia)) as (d & e & d' & e' & E & E' & G). unfold h, h'. rewrite E, E'. cbn. split; [reflexivity|]. intros _.
      rewrite INR_IZR_INZ, Z2Nat.id in G by lia. exact G. }
    destruct (gen_pair w0 zs rate taus c c' fd h h' Hr) as [(e & -> & ->)|(ms & Hms & -> & ->)]; [|exact H2|reflexivity|].
    - intros m Hm. destruct (Hp (Z.to_nat m) ltac:(lia)) as (d & e & d' & e' & E & E' & G). unfold h, h'. rewrite E, E'. split; reflexivity.
    - apply pair_table. intros m Hm. apply H2. auto. }
  assert (MT : int_table (fun rate t => 6 * (rate * t) ^ 2) rate (tdev (map IZR zs) rate "phase"%string taus) (tdev_int zs (Fin rate) "phase"%string (req taus))).
  { pose (h := fun m => unres (0, 0, 0%Z) (calc_mdev_phase (map IZR zs) rate (Z.to_nat m))). pose (h' := fun m => unres (NaN, NaN, 0%Z) (calc_mdev_int zs (Fin rate) (Z.to_nat m))).
    assert (Hd : tdev (map IZR zs) rate "phase"%string taus = (r <- ('(p, ms, tu) <- tau_generator (map IZR zs) rate taus false (ofZ (-1)) ;; run_rows (calc_mdev_phase p rate) ms tu) ;; scale_tdev r)%res) by reflexivity.
    assert (Hd' : tdev_int zs (Fin rate) "phase"%string (req taus) = (r <- int_dev calc_mdev_int mdev zs (Fin rate) "phase"%string (req taus) ;; scale_tdev r)%res) by reflexivity.
    rewrite Hd, Hd'. clear Hd Hd'.
    destruct (gen_pair (fun rate t => 2 * (rate * t) ^ 2 * t ^ 2) zs rate taus calc_mdev_phase calc_mdev_int mdev h h' Hr) as [(e & -> & ->)|(ms & Hms & -> & ->)]; [| |reflexivity|].
    - intros m Hm. destruct (md_pair zs rate Hzs Hr (Z.to_nat m) ltac:(lia)) as (d & e & d' & e' & E & E' & G & _). unfold h, h'. rewrite E, E'. split; reflexivity.
    - intros m Hm. destruct (md_pair zs rate Hzs Hr (Z.to_nat m) ltac:(lia)) as (d & e & d' & e' & E & E' & G & _). unfold h, h'. rewrite E, E'. cbn [unres fst snd]. split; [reflexivity|]. intros _.
      rewrite <- INR_IZR_INZ. rewrite (INR_IZR_INZ (Z.to_nat m)), Z2Nat.id in G by lia. exact G.
    - rewrite !scale_table. apply pair_table. intros m Hm. apply Hms in Hm. destruct (md_pair zs rate Hzs Hr (Z.to_nat m) ltac:(lia)) as (d & e & d' & e' & E & E' & _ & G).
      unfold h, h'. rewrite E, E'. cbn [unres fst snd]. split; [reflexivity|]. intros _. specialize (G _ eq_refl).
      rewrite (INR_IZR_INZ (Z.to_nat m)), Z2Nat.id in G by lia. rewrite <- INR_IZR_INZ.
      replace (@nsqrt ext XNum (@ofZ ext XNum 3)) with (Fin (sqrt 3)) by (cbn [nsqrt ofZ XNum]; now rewrite x_sqrt_fin by lra). exact G. }
  unfold int_funs in Hf. repeat (destruct Hf as [E|Hf]; [injection E as <- <- <-|]); [..|destruct Hf].
  - apply (Main (fun _ t => 2 * t ^ 2) (fun x rate mj => calc_adev_phase x rate mj mj) (fun x rate mj => calc_adev_int x rate mj mj) adev (fun m => Z.of_nat (adev_cnt (len zs) m m))).
    intros m Hm. destruct (ad_pair zs rate Hzs Hr m m Hm Hm) as (d & e & d' & e' & E & E' & G). exists d, e, d', e'. rewrite <- INR_IZR_INZ. auto.
  - apply (Main (fun _ t => 2 * t ^ 2) (fun x rate mj => calc_adev_phase x rate mj 1) (fun x rate mj => calc_adev_int x rate mj 1) oadev (fun m => Z.of_nat (adev_cnt (len zs) m 1))).
    intros m Hm. destruct (ad_pair zs rate Hzs Hr m 1 Hm (le_n 1)) as (d & e & d' & e' & E & E' & G). exists d, e, d', e'. rewrite <- INR_IZR_INZ. auto.
  - apply (Main (fun _ t => 6 * t ^ 2) (fun x rate mj => calc_hdev_phase x rate mj mj) (fun x rate mj => calc_hdev_int x rate mj mj) hdev (fun m => Z.of_nat (hdev_cnt (len zs) m m))).
    intros m Hm. destruct (hd_pair zs rate Hzs Hr m m Hm Hm) as (d & e & d' & e' & E & E' & G). exists d, e, d', e'. rewrite <- INR_IZR_INZ. auto.
  - apply (Main (fun _ t => 6 * t ^ 2) (fun x rate mj => calc_hdev_phase x rate mj 1) (fun x rate mj => calc_hdev_int x rate mj 1) ohdev (fun m => Z.of_nat (hdev_cnt (len zs) m 1))).
    intros m Hm. destruct (hd_pair zs rate Hzs Hr m 1 Hm (le_n 1)) as (d & e & d' & e' & E & E' & G). exists d, e, d', e'. rewrite <- INR_IZR_INZ. auto.
  - apply (Main (fun rate t => 2 * (rate * t) ^ 2 * t ^ 2) calc_mdev_phase calc_mdev_int mdev (fun m => Z.of_nat (S (len zs - 3 * m)))).
    intros m Hm. destruct (md_pair zs rate Hzs Hr m Hm) as (d & e & d' & e' & E & E' & G & _). exists d, e, d', e'. rewrite <- INR_IZR_INZ. auto.
  - exact MT.
Qed.
Print Assumptions C124_value.

(** (t, d, n) is a row of the answer, d possibly NaN *)
Definition xrow (r : res (@result ext)) (t : R) (d : ext) (n : Z) : Prop :=
  exists ts ds e ns i, r = Ok (ts, ds, e, ns) /\ nth_error ts i = Some (Fin t) /\ nth_error ds i = Some d /\ nth_error ns i = Some n.
Lemma value_row f fi w zs rate taus t d n : In (f, fi, w) int_funs -> 0 < rate -> Forall int64 zs -> row (f (map IZR zs) rate "phase"%string taus) t d n ->
  exists d', xrow (fi zs (Fin rate) "phase"%string (req taus)) t d' n /\ int64_of (w rate t * IZR n) d d'.
Proof.
  intros Hf Hr Hz (ts & ds & e & ns & i & E & Ht & Hd & Hn). pose proof (C124_value f fi w zs rate taus Hf Hr Hz) as H. rewrite E in H. cbn in H.
  destruct H as (ds' & es' & E' & _ & G). destruct (G i t d n Ht Hd Hn) as (d' & Hd' & Hi). exists d'. split; [|exact Hi].
  exists (map Fin ts), ds', es', ns, i. rewrite nth_error_map, Ht. auto.
Qed.
Lemma row_pos f fi w zs rate taus t d n : In (f, fi, w) int_funs -> 0 < rate -> row (f (map IZR zs) rate "phase"%string taus) t d n -> 0 < w rate t * IZR n /\ 0 <= d /\ exists m, t = INR m / rate /\ (1 <= m)%nat.
Proof.
  intros Hf Hr H.
  assert (G : forall s, In s stats -> s_fun s = f -> (forall t, 0 < t -> 0 < w rate t) -> 0 < w rate t * IZR n /\ 0 <= d /\ exists m, t = INR m / rate /\ (1 <= m)%nat).
  { intros s Hs E Hw. rewrite <- E in H. apply (row_stat s) in H as (m & -> & Hm & -> & -> & Hc); [|exact Hs|exact Hr]. split; [|split].
    - apply Rmult_lt_0_compat; [apply Hw; apply Rdiv_lt_0_compat; [apply lt_0_INR; lia|exact Hr]|apply IZR_lt; lia].
    - unfold s_dev. apply sqrt_pos.
    - exists m. split; [reflexivity|lia]. }
  unfold int_funs in Hf. repeat (destruct Hf as [E|Hf]; [injection E as <- <- <-|]); [..|destruct Hf];
  [apply (G st_adev)|apply (G st_oadev)|apply (G st_hdev)|apply (G st_ohdev)|apply (G st_mdev)|apply (G st_tdev)]; try reflexivity; try (cbn; auto 20; fail);
  intros u Hu; assert (0 < rate * u) by nra; try nra; apply Rmult_lt_0_compat; nra.
Qed.

(** Right as long as the sum of squares stays below 2^63 ... *)
Theorem C124_right f fi w zs rate taus t d n : In (f, fi, w) int_funs -> 0 < rate -> Forall int64 zs -> row (f (map IZR zs) rate "phase"%string taus) t d n ->
  w rate t * IZR n * d ^ 2 < 2 ^ 63 -> xrow (fi zs (Fin rate) "phase"%string (req taus)) t (Fin d) n.
Proof.
  intros Hf Hr Hz H L. destruct (row_pos f fi w zs rate taus t d n Hf Hr H) as (Hw & Hd & _).
  destruct (value_row f fi w zs rate taus t d n Hf Hr Hz H) as (d' & X & k & Hk & B & _ & C).
  assert (k = 0%Z).
  { destruct (Z.le_gt_cases k 0) as [|G]; [lia|]. exfalso. assert (1 <= IZR k) by (apply IZR_le; lia). assert (0 < 2 ^ 63) by (apply pow_lt; lra).
    replace (2 ^ 64) with (2 * 2 ^ 63) in B by (cbn [pow]; ring). nra. }
  subst k. rewrite Rmult_0_l, Rminus_0_r in *. destruct C as (v & Hv & -> & E); [apply Rmult_le_pos; [lra|apply pow2_ge_0]|].
  replace d with v; [exact X|]. apply Rmult_eq_reg_l in E; [|lra]. apply Rsqr_inj; [assumption..|]. unfold Rsqr. cbn [pow] in E. lra.
Qed.
Print Assumptions C124_right.
(** ... and never right from there on: NaN, or too small. *)
Theorem C124_wrong f fi w zs rate taus t d n : In (f, fi, w) int_funs -> 0 < rate -> Forall int64 zs -> row (f (map IZR zs) rate "phase"%string taus) t d n ->
  2 ^ 63 <= w rate t * IZR n * d ^ 2 -> exists d', xrow (fi zs (Fin rate) "phase"%string (req taus)) t d' n /\ (d' = NaN \/ exists v, d' = Fin v /\ 0 <= v < d).
Proof.
  intros Hf Hr Hz H L. destruct (row_pos f fi w zs rate taus t d n Hf Hr H) as (Hw & Hd & _).
  destruct (value_row f fi w zs rate taus t d n Hf Hr Hz H) as (d' & X & k & Hk & B & N & C). exists d'. split; [exact X|].
  destruct (Rlt_dec (w rate t * IZR n * d ^ 2 - IZR k * 2 ^ 64) 0) as [G|G]; [left; now apply N|right].
  destruct C as (v & Hv & -> & E); [lra|]. exists v. split; [reflexivity|]. split; [exact Hv|].
  assert (P : 0 < 2 ^ 63) by (apply pow_lt; lra). assert (1 <= k)%Z.
  { destruct (Z.eq_dec k 0) as [->|]; [|lia]. exfalso. lra. }
  assert (1 <= IZR k) by now apply IZR_le. replace (2 ^ 64) with (2 * 2 ^ 63) in E by (cbn [pow]; ring).
  assert (v ^ 2 < d ^ 2) by (apply (Rmult_lt_reg_l (w rate t * IZR n)); nra). nra.
Qed.
Print Assumptions C124_wrong.

(** ** records of bounded size *)
Definition int_size : list (dev_fun * int_fun * (R -> R -> R)) :=
  [ (adev, adev_int, fun _ _ => 16); (oadev, oadev_int, fun _ _ => 16); (hdev, hdev_int, fun _ _ => 64); (ohdev, ohdev_int, fun _ _ => 64);
    (mdev, mdev_int, fun rate t => 16 * (rate * t) ^ 2); (tdev, tdev_int, fun rate t => 16 * (rate * t) ^ 2) ].
Lemma abs_in a b : Rabs a <= b -> - b <= a <= b.
Proof. unfold Rabs. destruct (Rcase_abs a); lra. Qed.
Lemma d2_size x B m i : 0 <= B -> (forall z, In z x -> Rabs z <= B) -> Rabs (d2 x m i) <= 4 * B.
Proof.
  intros HB H. assert (N : forall j, Rabs x.[j] <= B) by (intros j; destruct (nth_in_or_default j x 0) as [I|E]; [now apply H|rewrite E, Rabs_R0; exact HB]).
  unfold d2. pose proof (N i). pose proof (N (i + m)%nat). pose proof (N (i + 2 * m)%nat). repeat match goal with H : Rabs _ <= _ |- _ => apply abs_in in H end. apply Rabs_le. lra.
Qed.
Lemma d3_size x B m i : 0 <= B -> (forall z, In z x -> Rabs z <= B) -> Rabs (d3 x m i) <= 8 * B.
Proof.
  intros HB H. assert (N : forall j, Rabs x.[j] <= B) by (intros j; destruct (nth_in_or_default j x 0) as [I|E]; [now apply H|rewrite E, Rabs_R0; exact HB]).
  unfold d3. pose proof (N i). pose proof (N (i + m)%nat). pose proof (N (i + 2 * m)%nat). pose proof (N (i + 3 * m)%nat). repeat match goal with H : Rabs _ <= _ |- _ => apply abs_in in H end. apply Rabs_le. lra.
Qed.
Lemma ss_size n N f C : (n <= N)%nat -> 0 <= C -> (forall i, Rabs (f i) <= C) -> ss n f <= INR N * C ^ 2.
Proof.
  intros Hn HC H. apply Rle_trans with (INR n * C ^ 2).
  - unfold ss. clear Hn. induction n as [|n IH]; [cbn; lra|]. cbn [bigsum]. rewrite S_INR. pose proof (abs_in _ _ (H n)). assert (f n ^ 2 <= C ^ 2) by nra. lra.
  - apply Rmult_le_compat_r; [apply pow2_ge_0|now apply le_INR].
Qed.
Lemma sum_size m f C : 0 <= C -> (forall i, Rabs (f i) <= C) -> Rabs (bigsum m f) <= INR m * C.
Proof.
  intros HC H. induction m as [|m IH]; [cbn; rewrite Rabs_R0; lra|]. cbn [bigsum]. rewrite S_INR. pose proof (Rabs_triang (bigsum m f) (f m)). pose proof (H m). lra.
Qed.
(** Samples of at most B counts: adev and oadev are right when 16 N B^2 < 2^63, hdev and ohdev when 64 N B^2 < 2^63, mdev and tdev when 16 N (m B)^2 < 2^63. *)
Theorem C124_size f fi K zs rate taus t d n B : In (f, fi, K) int_size -> 0 < rate -> 0 <= B < 2 ^ 63 -> (forall z, In z zs -> Rabs (IZR z) <= B) ->
  row (f (map IZR zs) rate "phase"%string taus) t d n -> K rate t * INR (len zs) * B ^ 2 < 2 ^ 63 -> xrow (fi zs (Fin rate) "phase"%string (req taus)) t (Fin d) n.
Proof.
  intros Hf Hr HB Hz H L.
  assert (Hzs : Forall int64 zs).
  { apply Forall_forall. intros z Hin. specialize (Hz z Hin). apply abs_in in Hz. assert (P63 : IZR (2 ^ 63) = 2 ^ 63) by (change 63%Z with (Z.of_nat 63); rewrite <- pow_IZR; reflexivity).
    split; [apply le_IZR|apply lt_IZR]; rewrite ?opp_IZR, P63; lra. }
  assert (Hx : forall z, In z (map IZR zs) -> Rabs z <= B) by (intros z Hin; apply in_map_iff in Hin as (y & <- & Hy); auto).
  assert (G : forall s w, In s stats -> s_fun s = f -> In (f, fi, w) int_funs ->
    (forall m, (1 <= m)%nat -> (1 < s_cnt s (len zs) m)%Z -> w rate (INR m / rate) * (IZR (s_cnt s (len zs) m) * s_dev s (map IZR zs) rate m ^ 2) <= K rate (INR m / rate) * INR (len zs) * B ^ 2) ->
    xrow (fi zs (Fin rate) "phase"%string (req taus)) t (Fin d) n).
  { intros s w Hs E Hw Hle. apply (C124_right f fi w zs rate taus t d n Hw Hr Hzs H). rewrite <- E in H.
    apply (row_stat s) in H as (m & -> & Hm & -> & -> & Hc); [|exact Hs|exact Hr]. rewrite map_length in *. specialize (Hle m ltac:(lia) Hc). lra. }
  assert (T : forall m, (1 <= m)%nat -> 0 < INR m /\ INR m / rate = INR m * (1 / rate) /\ 0 < INR m * (1 / rate)).
  { intros m Hm. assert (0 < INR m) by (apply lt_0_INR; lia). split; [assumption|]. split; [unfold Rdiv; ring|]. apply Rmult_lt_0_compat; [assumption|]. apply Rdiv_lt_0_compat; lra. }
  unfold int_size in Hf. repeat (destruct Hf as [E|Hf]; [injection E as <- <- <-|]); [..|destruct Hf].
  - apply (G st_adev (fun _ t => 2 * t ^ 2)); [cbn; auto 20|reflexivity|cbn; auto 20|]. intros m Hm Hc. destruct (T m Hm) as (T1 & -> & T2). rewrite <- (map_length IZR zs) in Hc |- *. rewrite e_adev by assumption.
    rewrite <- Rmult_assoc, Rinv_r, Rmult_1_l by (apply Rgt_not_eq; nra). eapply Rle_trans; [apply (ss_size _ (len (map IZR zs)) _ (4 * B))|right; ring]; [|lra|intros; apply d2_size; tauto].
    assert (len (map IZR zs) - 1 <= m * len (map IZR zs))%nat by nia. pose proof (Nat.div_le_upper_bound (len (map IZR zs) - 1) m (len (map IZR zs)) ltac:(lia) ltac:(assumption)). lia.
  - apply (G st_oadev (fun _ t => 2 * t ^ 2)); [cbn; auto 20|reflexivity|cbn; auto 20|]. intros m Hm Hc. destruct (T m Hm) as (T1 & -> & T2). rewrite <- (map_length IZR zs) in Hc |- *. rewrite e_oadev by assumption.
    rewrite <- Rmult_assoc, Rinv_r, Rmult_1_l by (apply Rgt_not_eq; nra). eapply Rle_trans; [apply (ss_size _ (len (map IZR zs)) _ (4 * B))|right; ring]; [lia|lra|intros; apply d2_size; tauto].
  - apply (G st_hdev (fun _ t => 6 * t ^ 2)); [cbn; auto 20|reflexivity|cbn; auto 20|]. intros m Hm Hc. destruct (T m Hm) as (T1 & -> & T2). rewrite <- (map_length IZR zs) in Hc |- *. rewrite e_hdev by assumption.
    rewrite <- Rmult_assoc, Rinv_r, Rmult_1_l by (apply Rgt_not_eq; nra). eapply Rle_trans; [apply (ss_size _ (len (map IZR zs)) _ (8 * B))|right; ring]; [|lra|intros; apply d3_size; tauto].
    assert (len (map IZR zs) - 1 <= m * len (map IZR zs))%nat by nia. pose proof (Nat.div_le_upper_bound (len (map IZR zs) - 1) m (len (map IZR zs)) ltac:(lia) ltac:(assumption)). lia.
  - apply (G st_ohdev (fun _ t => 6 * t ^ 2)); [cbn; auto 20|reflexivity|cbn; auto 20|]. intros m Hm Hc. destruct (T m Hm) as (T1 & -> & T2). rewrite <- (map_length IZR zs) in Hc |- *. rewrite e_ohdev by assumption.
    rewrite <- Rmult_assoc, Rinv_r, Rmult_1_l by (apply Rgt_not_eq; nra). eapply Rle_trans; [apply (ss_size _ (len (map IZR zs)) _ (8 * B))|right; ring]; [lia|lra|intros; apply d3_size; tauto].
  - apply (G st_mdev (fun rate t => 2 * (rate * t) ^ 2 * t ^ 2)); [cbn; auto 20|reflexivity|cbn; auto 20|]. intros m Hm Hc. destruct (T m Hm) as (T1 & E1 & T2).
    replace (rate * (INR m / rate)) with (INR m) by (field; lra). rewrite E1. rewrite <- (map_length IZR zs) in Hc |- *. rewrite e_mdev by assumption.
    rewrite <- Rmult_assoc, Rinv_r, Rmult_1_l by (apply Rgt_not_eq; apply Rmult_lt_0_compat; nra). eapply Rle_trans; [apply (ss_size _ (len (map IZR zs)) _ (INR m * (4 * B)))|right; ring]; [|nra|intros; apply sum_size; [lra|intros; apply d2_size; tauto]].
    lia.
  - apply (G st_tdev (fun rate t => 6 * (rate * t) ^ 2)); [cbn; auto 20|reflexivity|cbn; auto 20|]. intros m Hm Hc. destruct (T m Hm) as (T1 & E1 & T2).
    replace (rate * (INR m / rate)) with (INR m) by (field; lra). rewrite <- (map_length IZR zs) in Hc |- *. rewrite e_tdev by assumption.
    rewrite <- Rmult_assoc, Rinv_r, Rmult_1_l by (apply Rgt_not_eq; nra). eapply Rle_trans; [apply (ss_size _ (len (map IZR zs)) _ (INR m * (4 * B)))|right; ring]; [|nra|intros; apply sum_size; [lra|intros; apply d2_size; tauto]].
    lia.
Qed.
Print Assumptions C124_size.

(** ** frequency data *)
(** Frequency data are converted before anything is squared: integers give what the same numbers give as floats, in every arithmetic in which an integer is never NaN. *)
Definition int_funs_any {A} {NA : Num A} : list ((list A -> A -> string -> taus_arg A -> res (@result A)) * (list Z -> A -> string -> taus_arg A -> res (@result A))) :=
  [ (adev, adev_int); (oadev, oadev_int); (hdev, hdev_int); (ohdev, ohdev_int); (mdev, mdev_int); (tdev, tdev_int); (tierms, tierms_int) ].
Lemma f2p_int {A} {NA : Num A} (zs : list Z) (rate : A) : (forall k, @nisnan A NA (ofZ k) = false) -> frequency2phase_int zs rate = frequency2phase (map ofZ zs) rate.
Proof.
  intros Hn. unfold frequency2phase_int, frequency2phase. destruct (neqb rate (ofZ 0)); [reflexivity|]. cbv zeta. destruct zs as [|z zs]; [reflexivity|]. set (l := z :: zs).
  assert (F : forall k, filter (fun x => negb (@nisnan A NA x)) (map ofZ k) = map ofZ k) by (intros k; induction k as [|a k IH]; [reflexivity|]; cbn; rewrite Hn; cbn; now rewrite IH).
  assert (T : trim_data (map (@ofZ A NA) l) = Ok (map ofZ l)).
  { unfold trim_data, last_valid. assert (V : forall k : list A, k <> [] -> (forall a, In a k -> nisnan a = false) -> first_valid k = Ok 0%nat) by (intros [|a k] Hk Ha; [contradiction|]; cbn; now rewrite Ha by (cbn; auto)).
    assert (I : forall a, In a (map (@ofZ A NA) l) -> nisnan a = false) by (intros a Ha; apply in_map_iff in Ha as (k & <- & _); apply Hn).
    rewrite V; [|discriminate|exact I]. cbn [bind]. rewrite V; [| |intros a Ha; apply I; now apply in_rev].
    - cbn [bind]. unfold pyslice. rewrite Nat.sub_0_r. f_equal. cbn [skipn]. rewrite ?Nat.sub_0_r. now rewrite firstn_all.
    - intros E. apply (f_equal (@len A)) in E. rewrite rev_length in E. discriminate. }
  rewrite T. cbn [bind]. unfold nanmean, mean. rewrite F, map_length, map_map. reflexivity.
Qed.
Theorem C124_freq {A} {NA : Num A} f fi (zs : list Z) (rate : A) dt taus : In (f, fi) int_funs_any -> (forall k, @nisnan A NA (ofZ k) = false) ->
  dt <> "phase"%string -> fi zs rate dt taus = f (map ofZ zs) rate dt taus.
Proof.
  intros Hf Hn Hd. assert (Ed : String.eqb dt "phase" = false) by now apply String.eqb_neq.
  unfold int_funs_any in Hf. repeat (destruct Hf as [E|Hf]; [injection E as <- <-|]); [..|destruct Hf];
  unfold adev_int, oadev_int, hdev_int, ohdev_int, tdev_int, mdev_int, tierms_int, int_dev, adev, oadev, hdev, ohdev, tdev, mdev, tierms, input_to_phase; rewrite Ed;
  (destruct (String.eqb dt "freq"); [|reflexivity]); rewrite f2p_int by exact Hn; (destruct (frequency2phase (map ofZ zs) rate); [|reflexivity]); reflexivity.
Qed.
Print Assumptions C124_freq.
(** integers are not NaN in the extended reals *)
Example C124_freq_ex : (forall k, @nisnan ext XNum (ofZ k) = false) /\ In (tdev, tdev_int) (@int_funs_any ext XNum) /\ "freq"%string <> "phase"%string.
Proof. split; [reflexivity|]. split; [cbn; auto 10|discriminate]. Qed.

(** ** witnesses *)
Definition step_nan : list Z := [0; 0; 0; 3037000500]%Z.
Definition step_zero : list Z := [0; 0; 4294967296; 0; 0; 0]%Z.
Lemma oadev_row1 zs d : (4 <= len zs)%nat -> oavar (map IZR zs) (1 / 1) 1 = d -> row (oadev (map IZR zs) 1 "phase"%string (TList [INR 1 / 1])) (INR 1 / 1) (sqrt d) (Z.of_nat (len zs - 2)).
Proof.
  intros Hl <-. rewrite oadev_single; [|lra|lia|rewrite map_length; lia]. unfold oadev_n. rewrite map_length. eexists _, _, _, _, 0%nat. split; [reflexivity|]. cbn. auto.
Qed.
(** One step of 3037000500 counts and oadev is NaN at the first averaging time; one outlier of 2^32 counts and it is 0: an integer record does not give what the same
    numbers give as floats. *)
Theorem C124_refuted :
  (exists d, 0 < d /\ row (oadev (map IZR step_nan) 1 "phase"%string (TList [INR 1 / 1])) (INR 1 / 1) d 2 /\
     xrow (oadev_int step_nan (Fin 1) "phase"%string (req (TList [INR 1 / 1]))) (INR 1 / 1) NaN 2) /\
  (exists d, 0 < d /\ row (oadev (map IZR step_zero) 1 "phase"%string (TList [INR 1 / 1])) (INR 1 / 1) d 4 /\
     xrow (oadev_int step_zero (Fin 1) "phase"%string (req (TList [INR 1 / 1]))) (INR 1 / 1) (Fin 0) 4).
Proof.
  split.
  - set (d := 3037000500 ^ 2 / 4). assert (Hd : 0 < d) by (unfold d; lra). exists (sqrt d). split; [now apply sqrt_lt_R0|].
    assert (R : row (oadev (map IZR step_nan) 1 "phase"%string (TList [INR 1 / 1])) (INR 1 / 1) (sqrt d) 2).
    { apply (oadev_row1 step_nan d); [cbn; lia|]. unfold oavar, oadev_n, d, step_nan. cbn. unfold d2. cbn. field. }
    split; [exact R|]. destruct (value_row oadev oadev_int (fun _ t => 2 * t ^ 2) step_nan 1 _ _ _ _ ltac:(cbn; auto) ltac:(lra) ltac:(repeat constructor; unfold int64; cbn; lia) R) as (d' & X & k & Hk & B & N & _).
    rewrite pow2_sqrt in B, N by lra. replace (2 * (INR 1 / 1) ^ 2 * 2 * d) with (3037000500 ^ 2) in B, N by (unfold d; cbn [INR]; field).
    assert (k = 1%Z).
    { assert (0 < IZR k < 2); [|destruct H as [H1 H2]; apply lt_IZR in H1, H2; lia]. lra. }
    subst k. rewrite N in X; [exact X|]. lra.
  - set (d := 6 * 2 ^ 64 / 8). assert (Hd : 0 < d) by (unfold d; lra). exists (sqrt d). split; [now apply sqrt_lt_R0|].
    assert (R : row (oadev (map IZR step_zero) 1 "phase"%string (TList [INR 1 / 1])) (INR 1 / 1) (sqrt d) 4).
    { apply (oadev_row1 step_zero d); [cbn; lia|]. unfold oavar, oadev_n, d, step_zero. cbn. unfold d2. cbn. field. }
    split; [exact R|]. destruct (value_row oadev oadev_int (fun _ t => 2 * t ^ 2) step_zero 1 _ _ _ _ ltac:(cbn; auto) ltac:(lra) ltac:(repeat constructor; unfold int64; cbn; lia) R) as (d' & X & k & Hk & B & _ & C).
    rewrite pow2_sqrt in B, C by lra. replace (2 * (INR 1 / 1) ^ 2 * 4 * d) with (6 * 2 ^ 64) in B, C by (unfold d; cbn [INR]; field).
    assert (k = 6%Z).
    { assert (5 < IZR k < 7); [|destruct H as [H1 H2]; apply lt_IZR in H1, H2; lia]. lra. }
    subst k. destruct C as (v & Hv & -> & E); [lra|]. assert (v = 0); [|subst v; exact X]. cbn [INR] in E. assert (v ^ 2 = 0) by lra. nra.
Qed.
Print Assumptions C124_refuted.

(** a record inside the bounds *)
Example C124_ex : 16 * INR (len [0; 1; 4; 9; 16]%Z) * 16 ^ 2 < 2 ^ 63 /\ (forall z, In z [0; 1; 4; 9; 16]%Z -> Rabs (IZR z) <= 16) /\
  row (oadev (map IZR [0; 1; 4; 9; 16]%Z) 1 "phase"%string (TList [INR 1 / 1])) (INR 1 / 1) (sqrt 2) 3 /\
  xrow (oadev_int [0; 1; 4; 9; 16]%Z (Fin 1) "phase"%string (req (TList [INR 1 / 1]))) (INR 1 / 1) (Fin (sqrt 2)) 3.
Proof.
  assert (L : 16 * INR (len [0; 1; 4; 9; 16]%Z) * 16 ^ 2 < 2 ^ 63) by (cbn; lra).
  assert (Z : forall z, In z [0; 1; 4; 9; 16]%Z -> Rabs (IZR z) <= 16) by (intros z Hz; cbn in Hz; intuition subst; apply Rabs_le; lra).
  assert (R : row (oadev (map IZR [0; 1; 4; 9; 16]%Z) 1 "phase"%string (TList [INR 1 / 1])) (INR 1 / 1) (sqrt 2) 3).
  { apply (oadev_row1 [0; 1; 4; 9; 16]%Z 2); [cbn; lia|]. unfold oavar, oadev_n. cbn. unfold d2. cbn. field. }
  split; [exact L|]. split; [exact Z|]. split; [exact R|].
  apply (C124_size oadev oadev_int (fun _ _ => 16) [0; 1; 4; 9; 16]%Z 1 (TList [INR 1 / 1]) (INR 1 / 1) (sqrt 2) 3 16); [cbn; auto|lra|lra|exact Z|exact R|exact L].
Qed.
