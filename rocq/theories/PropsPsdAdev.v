(** * psd2allan (C70). *)
From Coq Require Import String Ascii Floats Reals List ZArith Bool Arith Lia Lra Sorted.
From Verif Require Import Base Num NpList NumR NumF Spec ListFacts RSum TauProofs TotProofs MiscProofs ModelPsd.
Import ListNotations.
Local Open Scope R_scope.
Local Notation len := List.length.

(** ** Specification, written without the model. *)

(** Squared transfer function of the Allan and of the modified Allan deviation. *)
Definition gain_allan (z : R) : R := sin z ^ 4 / z ^ 2.
Definition gain_modified (z : R) : R := sin z ^ 6 / z ^ 4.

(** Composite Simpson sum of g over 2k+1 points with spacing h. *)
Definition simpson_sum (k : nat) (g : nat -> R) (h : R) : R :=
  h / 3 * bigsum k (fun j => g (2 * j)%nat + 4 * g (2 * j + 1)%nat + g (2 * j + 2)%nat).

(** The two grids and the frequencies for a PSD of n samples spaced df. *)
Definition coarse (n : nat) (df : R) : list R := tab n (fun i => INR i * (4 * df)).
Definition fine (n : nat) (df : R) : list R := tab (4 * (n - 1)) (fun i => INR (S i) * df).

(** The averaging times, with the factors the code selects; [C70_factors] says which these are. *)
Definition psd_taus (n : nat) (df base : R) : list R :=
  map (fun m => m / (INR (n - 1) * df)) (psd_m (INR (n - 1) / 2) base).

(** Deviation at tau for interpolated PSD values s and a squared transfer function g. *)
Definition psd_dev (g : R -> R) (n : nat) (df : R) (s : list R) (tau : R) : R :=
  sqrt (2 * simpson_sum (2 * (n - 1))
    (fun i => match i with O => 0 | S k => s.[k] * g (PI * (INR (S k) * (df / 4)) * tau) end) (df / 4)).

(** ** Grids *)

Lemma truncR_INR n : truncR (INR n) = Z.of_nat n.
Proof.
  pose proof (truncR_nat (INR n) (pos_INR n)) as [H1 H2].
  assert (E : (Z.to_nat (truncR (INR n)) = n)).
  { apply INR_le in H1. rewrite <- S_INR in H2. apply INR_lt in H2. lia. }
  unfold truncR in *. destruct Rle_dec as [_|C]; [|exfalso; apply C, pos_INR].
  assert (0 <= Int_part (INR n))%Z.
  { pose proof (Int_part_bounds (INR n)). pose proof (pos_INR n).
    assert (-1 < IZR (Int_part (INR n))) by lra. apply (lt_IZR (-1)) in H3. lia. }
  lia.
Qed.

Lemma nceil_INR n : nceil (INR n) = Ok n.
Proof.
  unfold nceil. cbn [ntrunc RNum]. rewrite truncR_INR. cbn [nltb ofZ RNum].
  rewrite <- INR_IZR_INZ. destruct (Rltb _ _) eqn:E; [apply Rltb_true in E; lra|].
  now rewrite Nat2Z.id.
Qed.

Lemma arange_R a b d n : d <> 0 -> (b - a) / d = INR n ->
  arange a b d = Ok (tab n (fun i => a + INR i * d)).
Proof.
  intros Hd E. unfold arange. cbn [neqb ofZ RNum ndiv nsub].
  destruct (Reqb d 0) eqn:Z; [unfold Reqb in Z; destruct Req_EM_T; congruence|].
  rewrite E, nceil_INR. cbn [bind]. unfold tab. f_equal. apply map_ext. intro i.
  cbn [nadd nmul RNum]. now rewrite ofN_INR.
Qed.

Lemma grids_R n df : (1 <= n)%nat -> 0 < df -> psd_grids n df = Ok (coarse n df, fine n df).
Proof.
  intros Hn Hd. unfold psd_grids. cbn [nadd nmul nsub ofZ RNum]. rewrite ofN_INR.
  rewrite (arange_R _ _ _ n) by (try lra; field; lra). cbn [bind].
  rewrite (arange_R _ _ _ (4 * (n - 1))).
  - cbn [bind]. unfold coarse, fine. f_equal. f_equal; apply tab_ext; intros i _; [ring|].
    rewrite S_INR. ring.
  - lra.
  - rewrite mult_INR, minus_INR by lia. cbn [INR]. field. lra.
Qed.

Lemma nmin2_R (a b : R) : a <= b -> nmin2 a b = a.
Proof.
  intro H. unfold nmin2. cbn. unfold Rltb. repeat (destruct Rlt_dec; try lra; cbn); try reflexivity.
Qed.
Lemma nmax2_R (a b : R) : a <= b -> nmax2 a b = b.
Proof.
  intro H. unfold nmax2. cbn. unfold Rltb. repeat (destruct Rlt_dec; try lra; cbn); try reflexivity.
Qed.

Lemma last_tab {B} n (f : nat -> B) d : (1 <= n)%nat -> last (tab n f) d = f (n - 1)%nat.
Proof.
  intro H. replace n with (S (n - 1)) at 1 by lia. now rewrite tab_snoc, last_last.
Qed.

Lemma bounds_R n df : (1 <= n)%nat -> 0 < df -> in_bounds (coarse n df) (fine n df) = true.
Proof.
  intros Hn Hd. unfold in_bounds. cbv zeta. apply forallb_forall. intros v Hv.
  unfold fine in Hv. apply in_map_iff in Hv. destruct Hv as [i [<- Hi]]. apply in_seq in Hi.
  unfold coarse. rewrite nth_tab, last_tab by lia. cbn [nleb RNum]. change (INR 0) with 0. rewrite Rmult_0_l.
  assert (0 <= INR (n - 1) * (4 * df)) by (pose proof (pos_INR (n - 1)); nra).
  rewrite nmin2_R, nmax2_R by lra. apply andb_true_intro. split; apply Rleb_true.
  - pose proof (pos_INR (S i)). nra.
  - assert (INR (S i) <= INR (4 * (n - 1))) by (apply le_INR; lia).
    rewrite mult_INR in H0. change (INR 4) with (1+1+1+1) in H0. nra.
Qed.

(** ** Simpson *)
Lemma simpson_cons3 y0 y1 y2 yr x0 x1 x2 xr :
  simpson (y0 :: y1 :: y2 :: yr) (x0 :: x1 :: x2 :: xr) =
  ((x1 - x0) + (x2 - x1)) / 6 *
   (y0 * (2 - 1 / ((x1 - x0) / (x2 - x1))) +
    y1 * (((x1 - x0) + (x2 - x1)) * ((x1 - x0) + (x2 - x1)) / ((x1 - x0) * (x2 - x1))) +
    y2 * (2 - (x1 - x0) / (x2 - x1))) + simpson (y2 :: yr) (x2 :: xr).
Proof. reflexivity. Qed.

Lemma simpson_uniform k : forall g a h, h <> 0 ->
  simpson (tab (2 * k + 1) g) (tab (2 * k + 1) (fun i => a + INR i * h)) = simpson_sum k g h.
Proof.
  induction k as [|k IH]; intros g a h Hh.
  - unfold simpson_sum. cbn. ring.
  - replace (2 * S k + 1)%nat with (S (S (S (2 * k)))) by lia. rewrite !tab_S, simpson_cons3.
    specialize (IH (fun i => g (2 + i)%nat) (a + 2 * h) h Hh).
    replace (2 * k + 1)%nat with (S (2 * k)) in IH by lia. rewrite !tab_S in IH.
    replace (a + INR 0 * h) with a by (cbn [INR]; ring).
    replace (a + INR 1 * h) with (a + h) by (cbn [INR]; ring).
    replace (a + 2 * h + INR 0 * h) with (a + INR 2 * h) in IH by (cbn [INR]; ring).
    assert (IH' : simpson (g 2%nat :: tab (2 * k) (fun i => g (S (S (S i)))))
      (a + INR 2 * h :: tab (2 * k) (fun i => a + INR (S (S (S i))) * h)) =
      simpson_sum k (fun i => g (2 + i)%nat) h).
    { rewrite <- IH. f_equal. f_equal. apply tab_ext. intros i _. rewrite !S_INR. ring. }
    rewrite IH'. unfold simpson_sum. rewrite bigsum_S_l.
    rewrite (bigsum_ext k (fun i => g (2 * S i)%nat + 4 * g (2 * S i + 1)%nat + g (2 * S i + 2)%nat)
      (fun j => g (2 + 2 * j)%nat + 4 * g (2 + (2 * j + 1))%nat + g (2 + (2 * j + 2))%nat)).
    + cbn [Nat.mul Nat.add]. change (INR 2) with (1 + 1). field. lra.
    + intros j _. f_equal; [f_equal; [f_equal; lia|f_equal; f_equal; lia]|f_equal; lia].
Qed.

Lemma transfer_allan f tau : transfer 1 f tau = gain_allan (PI * f * tau).
Proof.
  unfold transfer, gain_allan. rewrite pow2_abs. set (z := PI * f * tau).
  cbn [Nat.add]. rewrite Rpow_mult_distr || unfold Rdiv. rewrite ?Rpow_mult_distr, ?pow_1.
  rewrite <- pow_mult. cbn [Nat.mul Nat.add]. now rewrite pow_inv.
Qed.
Lemma transfer_modified f tau : transfer 2 f tau = gain_modified (PI * f * tau).
Proof.
  unfold transfer, gain_modified. rewrite pow2_abs. set (z := PI * f * tau).
  cbn [Nat.add]. unfold Rdiv. rewrite Rpow_mult_distr, pow_inv, <- !pow_mult. reflexivity.
Qed.

Lemma lmax_fine n df : (2 <= n)%nat -> 0 < df ->
  lmax (map (fun v => v / 4) (fine n df)) = INR (n - 1) * df.
Proof.
  intros Hn Hd. unfold fine. rewrite map_tab. set (f := fun i => _).
  assert (Hne : tab (4 * (n - 1)) f <> []) by (apply tab_nonnil; lia).
  destruct (lmax_spec _ Hne) as [Hin Hub]. apply Rle_antisym.
  - apply in_map_iff in Hin. destruct Hin as [i [<- Hi]]. apply in_seq in Hi. unfold f.
    assert (INR (S i) <= INR (4 * (n - 1))) by (apply le_INR; lia).
    rewrite mult_INR in H. change (INR 4) with (1+1+1+1) in H. nra.
  - replace (INR (n - 1) * df) with (f (4 * (n - 1) - 1)%nat).
    + apply Hub. unfold tab. apply in_map, in_seq. lia.
    + unfold f. replace (S (4 * (n - 1) - 1)) with (4 * (n - 1))%nat by lia.
      rewrite mult_INR. change (INR 4) with (1+1+1+1). field.
Qed.

Lemma psd_exponent_ok kind e : psd_exponent kind = Ok e -> e = 1%nat \/ e = 2%nat.
Proof.
  destruct kind as [|c t]; cbn; [discriminate|].
  destruct (Ascii.eqb _ _); [intro H; injection H; auto|].
  destruct (Ascii.eqb _ _); [intro H; injection H; auto|discriminate].
Qed.

(** ** Statements *)
Section C70.
Variable interp : list R -> list R -> list R -> list R.
(** interp1d returns one value per requested point *)
Hypothesis interp_len : forall f0 S f, len (interp f0 S f) = len f.

(** first letter of kind selects the transfer function, case insensitively *)
Definition kind_of (kind : string) (g : R -> R) : Prop :=
  (exists t, (kind = String "a" t \/ kind = String "A" t) /\ g = gain_allan) \/
  (exists t, (kind = String "m" t \/ kind = String "M" t) /\ g = gain_modified).

Lemma psd_dev_eq e S n df s tau : 0 < df -> (2 <= n)%nat -> len s = (4 * (n - 1))%nat ->
  e = 1%nat \/ e = 2%nat -> S = (if Nat.eqb e 1 then gain_allan else gain_modified) ->
  sqrt (2 * simpson (0 :: map2 (fun s v => s * transfer e v tau) s (map (fun v => v / 4) (fine n df)))
          (0 :: map (fun v => v / 4) (fine n df))) = psd_dev S n df s tau.
Proof.
  intros Hd Hn Hl He ->. unfold psd_dev. f_equal. f_equal.
  rewrite (list_tab s 0), Hl. unfold fine. rewrite map_tab, map2_tab.
  set (N := (4 * (n - 1))%nat).
  rewrite <- (simpson_uniform (2 * (n - 1)) _ 0 (df / 4)) by lra.
  replace (2 * (2 * (n - 1)) + 1)%nat with (Datatypes.S N) by (unfold N; lia).
  rewrite !tab_S. f_equal.
  - f_equal. apply tab_ext. intros i Hi. rewrite nth_tab by exact Hi. f_equal.
    destruct He as [->| ->]; cbn [Nat.eqb]; rewrite ?transfer_allan, ?transfer_modified; f_equal; f_equal; field.
  - f_equal; [cbn [INR]; ring|]. apply tab_ext. intros i _. field.
Qed.

Lemma lower_a c : Ascii.eqb (lower_ascii c) "a" = true <-> c = "a"%char \/ c = "A"%char.
Proof.
  split; [|intros [->| ->]; reflexivity].
  destruct c as [[] [] [] [] [] [] [] []]; vm_compute; try discriminate; auto.
Qed.
Lemma lower_m c : Ascii.eqb (lower_ascii c) "m" = true <-> c = "m"%char \/ c = "M"%char.
Proof.
  split; [|intros [->| ->]; reflexivity].
  destruct c as [[] [] [] [] [] [] [] []]; vm_compute; try discriminate; auto.
Qed.

Lemma kind_exponent kind g : kind_of kind g -> exists e, psd_exponent kind = Ok e /\
  (e = 1%nat \/ e = 2%nat) /\ g = (if Nat.eqb e 1 then gain_allan else gain_modified).
Proof.
  intros [[t [[->| ->] ->]]|[t [[->| ->] ->]]]; [exists 1%nat|exists 1%nat|exists 2%nat|exists 2%nat]; cbn; auto.
Qed.

(** With a step df > 0 and at least four samples, psd2allan returns the
    averaging times [psd_taus] and at each of them the Simpson integral of the
    interpolated PSD times the transfer function, over 4(n-1)+1 (an odd number
    of) equally spaced frequencies from 0 to (n-1) df. *)
Theorem C70_value S df kind g base : (4 <= len S)%nat -> 0 < df -> kind_of kind g ->
  psd2allan interp (Some S) (FStep df) kind base =
  Ok (psd_taus (len S) df base,
      map (psd_dev g (len S) df (interp (coarse (len S) df) S (fine (len S) df))) (psd_taus (len S) df base)).
Proof.
  intros Hn Hd Hk. destruct (kind_exponent _ _ Hk) as [e [He [He12 Hg]]].
  unfold psd2allan. cbn [bind]. rewrite grids_R by (lia || lra). cbn [bind].
  replace (len (coarse (len S) df)) with (len S) by (unfold coarse; now rewrite tab_length).
  rewrite Nat.eqb_refl, bounds_R by (lia || lra).
  destruct (Nat.ltb_spec (len S) 4); [lia|]. cbn [orb negb]. cbv zeta.
  rewrite npmax_R by (unfold fine; rewrite map_tab; apply tab_nonnil; lia). cbn [bind].
  rewrite lmax_fine by (lia || lra). rewrite He. cbn [bind].
  assert (0 < INR (len S - 1)) by (apply lt_0_INR; lia).
  replace (1 / df / (1 / (INR (len S - 1) * df)) / 2) with (INR (len S - 1) / 2) by (field; lra).
  assert (E : map (fun k => k * (1 / (INR (len S - 1) * df))) (psd_m (INR (len S - 1) / 2) base)
    = psd_taus (len S) df base).
  { unfold psd_taus. apply map_ext. intro k. field. lra. }
  rewrite E. f_equal. f_equal. apply map_ext. intro tau. apply psd_dev_eq; auto; try lia.
  rewrite interp_len. unfold fine. now rewrite tab_length.
Qed.

(** Only the difference of the first two entries of a frequency vector
    matters; its length and its other entries are not looked at. *)
Theorem C70_vector S a b rest kind base :
  psd2allan interp S (FVec (a :: b :: rest)) kind base =
  psd2allan interp S (FStep (b - a)) kind base.
Proof. reflexivity. Qed.

(** An argument that is not an array, or an f that is neither array nor scalar. *)
Theorem C70_type_errors S f kind base :
  psd2allan interp None f kind base = Err ValueError /\
  psd2allan interp S FOther kind base = Err ValueError.
Proof. split; [reflexivity|destruct S; reflexivity]. Qed.

(** Any other first letter reads a local variable that was never assigned;
    the empty string is an IndexError. *)
Theorem C70_kind_errors S df c t base : (4 <= len S)%nat -> 0 < df ->
  c <> "a"%char -> c <> "A"%char -> c <> "m"%char -> c <> "M"%char ->
  psd2allan interp (Some S) (FStep df) (String c t) base = Err UnboundLocalError /\
  psd2allan interp (Some S) (FStep df) EmptyString base = Err IndexError.
Proof.
  intros Hn Hd H1 H2 H3 H4.
  assert (E : psd_exponent (String c t) = Err UnboundLocalError).
  { unfold psd_exponent.
    destruct (Ascii.eqb (lower_ascii c) "a") eqn:Ea; [apply lower_a in Ea; tauto|].
    destruct (Ascii.eqb (lower_ascii c) "m") eqn:Em; [apply lower_m in Em; tauto|]. reflexivity. }
  unfold psd2allan. cbn [bind]. rewrite grids_R by (lia || lra). cbn [bind].
  replace (len (coarse (len S) df)) with (len S) by (unfold coarse; now rewrite tab_length).
  rewrite Nat.eqb_refl, bounds_R by (lia || lra).
  destruct (Nat.ltb_spec (len S) 4); [lia|]. cbn [orb negb]. cbv zeta.
  rewrite npmax_R by (unfold fine; rewrite map_tab; apply tab_nonnil; lia). cbn [bind].
  rewrite E. split; reflexivity.
Qed.

(** Fewer than four samples cannot be interpolated. *)
Theorem C70_short S df kind base : (1 <= len S < 4)%nat -> 0 < df ->
  psd2allan interp (Some S) (FStep df) kind base = Err ValueError.
Proof.
  intros Hn Hd. unfold psd2allan. cbn [bind]. rewrite grids_R by (lia || lra). cbn [bind].
  destruct (Nat.ltb_spec (len S) 4); [reflexivity|lia].
Qed.

(** simpson_sum is linear and monotone in the integrand *)
Lemma simpson_sum_scal k g h c : simpson_sum k (fun i => c * g i) h = c * simpson_sum k g h.
Proof.
  unfold simpson_sum. rewrite (bigsum_ext k _ (fun j => c * (g (2 * j)%nat + 4 * g (2 * j + 1)%nat + g (2 * j + 2)%nat)))
    by (intros; ring). rewrite bigsum_scal. ring.
Qed.
Lemma simpson_sum_plus k g g' h : simpson_sum k (fun i => g i + g' i) h = simpson_sum k g h + simpson_sum k g' h.
Proof.
  unfold simpson_sum. rewrite (bigsum_ext k _ (fun j => (g (2 * j)%nat + 4 * g (2 * j + 1)%nat + g (2 * j + 2)%nat)
    + (g' (2 * j)%nat + 4 * g' (2 * j + 1)%nat + g' (2 * j + 2)%nat))) by (intros; ring). rewrite bigsum_plus. ring.
Qed.
Lemma simpson_sum_ext k g g' h : (forall i, (i <= 2 * k)%nat -> g i = g' i) -> simpson_sum k g h = simpson_sum k g' h.
Proof.
  intro H. unfold simpson_sum. f_equal. apply bigsum_ext. intros j Hj. rewrite !H by lia. reflexivity.
Qed.
Lemma simpson_sum_le k g g' h : 0 <= h -> (forall i, (i <= 2 * k)%nat -> g i <= g' i) -> simpson_sum k g h <= simpson_sum k g' h.
Proof.
  intros Hh H. unfold simpson_sum. apply Rmult_le_compat_l; [lra|]. apply bigsum_le. intros j Hj.
  pose proof (H (2 * j)%nat ltac:(lia)). pose proof (H (2 * j + 1)%nat ltac:(lia)).
  pose proof (H (2 * j + 2)%nat ltac:(lia)). lra.
Qed.
Lemma simpson_sum_nonneg k g h : 0 <= h -> (forall i, (i <= 2 * k)%nat -> 0 <= g i) -> 0 <= simpson_sum k g h.
Proof.
  intros Hh H. replace 0 with (simpson_sum k (fun _ => 0) h).
  - now apply simpson_sum_le.
  - unfold simpson_sum. rewrite (bigsum_ext k _ (fun _ => 0)) by (intros; ring). rewrite bigsum_const. ring.
Qed.

(** Scaling the PSD by c >= 0 keeps the averaging times and scales every
    deviation by sqrt c, when interpolation is homogeneous (splines are). *)
Theorem C70_scale S df kind g base c : (4 <= len S)%nat -> 0 < df -> kind_of kind g -> 0 <= c ->
  interp (coarse (len S) df) (map (Rmult c) S) (fine (len S) df) =
    map (Rmult c) (interp (coarse (len S) df) S (fine (len S) df)) ->
  exists taus dev,
    psd2allan interp (Some S) (FStep df) kind base = Ok (taus, dev) /\
    psd2allan interp (Some (map (Rmult c) S)) (FStep df) kind base = Ok (taus, map (Rmult (sqrt c)) dev).
Proof.
  intros Hn Hd Hk Hc Hi. do 2 eexists. split; [now apply (C70_value S df kind g)|].
  rewrite (C70_value _ df kind g) by (rewrite ?map_length; auto). rewrite !map_length, Hi.
  f_equal. f_equal. rewrite map_map. apply map_ext. intro tau. unfold psd_dev.
  rewrite <- sqrt_mult_alt by exact Hc. f_equal.
  set (s := interp _ _ _).
  rewrite (simpson_sum_ext _ _ (fun i => c * match i with O => 0 | Datatypes.S k => s.[k] * g (PI * (INR (Datatypes.S k) * (df / 4)) * tau) end)).
  - rewrite simpson_sum_scal. ring.
  - intros [|i] Hle; [ring|]. rewrite (nth_indep _ 0 (c * 0)), (map_nth (Rmult c)); [ring|].
    rewrite map_length. unfold s. rewrite interp_len. unfold fine. rewrite tab_length. lia.
Qed.

Lemma gain_nonneg z : 0 <= gain_allan z /\ 0 <= gain_modified z.
Proof.
  unfold gain_allan, gain_modified.
  assert (H : forall n y, 0 <= y ^ (2 * n)) by (intros; rewrite pow_mult; apply pow_le, pow2_ge_0).
  assert (G : forall a b, 0 <= a -> 0 <= b -> 0 <= a / b).
  { intros a b Ha Hb. destruct (Req_dec b 0) as [->|Hz]; [unfold Rdiv; rewrite Rinv_0; lra|].
    apply Rmult_le_pos; [exact Ha|]. apply Rlt_le, Rinv_0_lt_compat. lra. }
  split; apply G; [apply (H 2%nat)|apply (H 1%nat)|apply (H 3%nat)|apply (H 2%nat)].
Qed.

Lemma sin_sq_le z : sin z ^ 2 <= z ^ 2.
Proof.
  assert (P : forall y, 0 <= y -> sin y ^ 2 <= y ^ 2).
  { intros y Hy. destruct (Req_dec y 0) as [->|Hne]; [rewrite sin_0; lra|].
    assert (sin y < y) by (apply sin_lt_x; lra).
    assert (- y <= sin y).
    { destruct (Rle_dec y 1).
      - pose proof (sin_ge_0 y Hy). assert (y <= PI) by (pose proof PI2_1; lra). specialize (H0 H1). lra.
      - pose proof (SIN_bound y). lra. }
    nra. }
  destruct (Rle_dec 0 z); [auto|]. specialize (P (- z) ltac:(lra)). rewrite sin_neg in P. nra.
Qed.

Lemma gain_le z : gain_modified z <= gain_allan z.
Proof.
  destruct (Req_dec z 0) as [->|Hz].
  - unfold gain_modified, gain_allan. rewrite sin_0. unfold Rdiv. rewrite !pow_ne_zero by lia. lra.
  - replace (gain_modified z) with (gain_allan z * (sin z ^ 2 / z ^ 2)).
    + destruct (gain_nonneg z) as [H _]. rewrite <- (Rmult_1_r (gain_allan z)) at 2.
      apply Rmult_le_compat_l; [exact H|].
      assert (0 < z ^ 2) by nra. apply (Rmult_le_reg_r (z ^ 2)); [assumption|].
      unfold Rdiv. rewrite Rmult_assoc, Rinv_l by lra. pose proof (sin_sq_le z). lra.
    + unfold gain_modified, gain_allan. field. exact Hz.
Qed.

(** Wherever the interpolated PSD is non-negative, the modified Allan
    deviation never exceeds the Allan deviation at the same averaging time. *)
Theorem C70_modified_le S df ka km base : (4 <= len S)%nat -> 0 < df ->
  kind_of ka gain_allan -> kind_of km gain_modified ->
  (forall v, In v (interp (coarse (len S) df) S (fine (len S) df)) -> 0 <= v) ->
  exists taus a m,
    psd2allan interp (Some S) (FStep df) ka base = Ok (taus, a) /\
    psd2allan interp (Some S) (FStep df) km base = Ok (taus, m) /\
    len a = len taus /\ len m = len taus /\
    forall i, (i < len taus)%nat -> 0 <= m.[i] <= a.[i].
Proof.
  intros Hn Hd Ha Hm Hv. do 3 eexists.
  split; [now apply (C70_value S df ka gain_allan base)|]. split; [now apply (C70_value S df km gain_modified base)|].
  rewrite !map_length. split; [reflexivity|]. split; [reflexivity|]. intros i Hi.
  set (s := interp _ _ _) in *. set (taus := psd_taus _ _ _) in *.
  assert (N : forall h : R -> R, (map h taus).[i] = h (taus.[i])).
  { intro h. rewrite (nth_indep _ 0 (h 0)) by (now rewrite map_length). apply map_nth. }
  rewrite !N. clear N.
  split; [apply sqrt_pos|]. unfold psd_dev. apply sqrt_le_1_alt. apply Rmult_le_compat_l; [lra|].
  apply simpson_sum_le; [lra|]. intros [|k] Hk; [lra|].
  assert (0 <= s.[k]).
  { apply Hv. unfold s. apply nth_In. rewrite interp_len. unfold fine. rewrite tab_length. lia. }
  apply Rmult_le_compat_l; [assumption|apply gain_le].
Qed.

(** Variances add over PSDs with non-negative interpolants, when interpolation is additive. *)
Theorem C70_additive S1 S2 df kind g base : (4 <= len S1)%nat -> len S2 = len S1 -> 0 < df -> kind_of kind g ->
  let f0 := coarse (len S1) df in let f := fine (len S1) df in
  interp f0 (map2 Rplus S1 S2) f = map2 Rplus (interp f0 S1 f) (interp f0 S2 f) ->
  (forall v, In v (interp f0 S1 f) \/ In v (interp f0 S2 f) -> 0 <= v) ->
  exists taus d1 d2 d12,
    psd2allan interp (Some S1) (FStep df) kind base = Ok (taus, d1) /\
    psd2allan interp (Some S2) (FStep df) kind base = Ok (taus, d2) /\
    psd2allan interp (Some (map2 Rplus S1 S2)) (FStep df) kind base = Ok (taus, d12) /\
    forall i, (i < len taus)%nat -> d12.[i] ^ 2 = d1.[i] ^ 2 + d2.[i] ^ 2.
Proof.
  intros Hn H2 Hd Hk f0 f Hadd Hv.
  assert (H12 : len (map2 Rplus S1 S2) = len S1).
  { rewrite (list_tab S1 0), (list_tab S2 0), H2, map2_tab, !tab_length. reflexivity. }
  do 4 eexists. split; [now apply (C70_value S1 df kind g base)|].
  split; [rewrite (C70_value S2 df kind g base) by (rewrite ?H2; auto); rewrite H2; reflexivity|].
  split; [rewrite (C70_value _ df kind g base) by (rewrite ?H12; auto); rewrite H12; reflexivity|].
  fold f0 f. rewrite Hadd. intros i Hi. set (s1 := interp _ S1 _) in *. set (s2 := interp _ S2 _) in *.
  set (taus := psd_taus _ _ _) in *.
  assert (N : forall h : R -> R, (map h taus).[i] = h (taus.[i])).
  { intro h. rewrite (nth_indep _ 0 (h 0)) by (now rewrite map_length). apply map_nth. }
  rewrite !N. clear N. set (tau := taus.[i]). unfold psd_dev.
  assert (L1 : len s1 = (4 * (len S1 - 1))%nat) by (unfold s1, f, fine; rewrite interp_len, tab_length; reflexivity).
  assert (L2 : len s2 = (4 * (len S1 - 1))%nat) by (unfold s2, f, fine; rewrite interp_len, tab_length; reflexivity).
  assert (G : forall z, 0 <= g z).
  { intro z. destruct Hk as [[t [_ ->]]|[t [_ ->]]]; apply gain_nonneg. }
  assert (P : forall s, (forall v, In v s -> 0 <= v) -> len s = (4 * (len S1 - 1))%nat ->
    0 <= 2 * simpson_sum (2 * (len S1 - 1)) (fun i => match i with O => 0 | Datatypes.S k => s.[k] * g (PI * (INR (Datatypes.S k) * (df / 4)) * tau) end) (df / 4)).
  { intros s Hs Hl. apply Rmult_le_pos; [lra|]. apply simpson_sum_nonneg; [lra|]. intros [|k] Hk'; [lra|].
    apply Rmult_le_pos; [|apply G]. apply Hs, nth_In. lia. }
  rewrite !pow2_sqrt.
  - rewrite <- Rmult_plus_distr_l, <- simpson_sum_plus. f_equal. apply simpson_sum_ext.
    intros [|k] Hk'; [ring|]. rewrite (list_tab s1 0) at 1. rewrite (list_tab s2 0) at 1.
    rewrite L1, L2, map2_tab, nth_tab by lia. ring.
  - apply P; auto.
  - apply P; auto.
  - apply P.
    + intros v Hin. rewrite (list_tab s1 0), (list_tab s2 0), L1, L2, map2_tab in Hin.
      apply in_map_iff in Hin. destruct Hin as [k [<- Hk']]. apply in_seq in Hk'.
      apply Rplus_le_le_0_compat; apply Hv; [left|right]; apply nth_In; lia.
    + rewrite (list_tab s1 0), (list_tab s2 0), L1, L2, map2_tab, tab_length. reflexivity.
Qed.

End C70.

(** ** Averaging times *)

(** For base > 1 the averaging times are strictly increasing multiples of
    tau0 = 1/((n-1) df), and the largest is round((n-1)/2) tau0, i.e. half the
    inverse of the frequency step up to rounding. *)
Theorem C70_taus n df base : (4 <= n)%nat -> 0 < df -> 1 < base ->
  StronglySorted Rlt (psd_taus n df base) /\
  (forall t, In t (psd_taus n df base) ->
     exists m : Z, (1 <= m <= rintR (INR (n - 1) / 2))%Z /\ t = IZR m / (INR (n - 1) * df)) /\
  In (IZR (rintR (INR (n - 1) / 2)) / (INR (n - 1) * df)) (psd_taus n df base).
Proof.
  intros Hn Hd Hb.
  assert (Hp : 0 < INR (n - 1) * df) by (apply Rmult_lt_0_compat; [apply lt_0_INR; lia|exact Hd]).
  unfold psd_taus, psd_m. destruct (Rltb 1 base) eqn:E; [|apply Rltb_false in E; lra].
  rewrite map_map. set (v := INR (n - 1) / 2).
  assert (Hv : 1 < v).
  { unfold v. assert (INR 3 <= INR (n - 1)) by (apply le_INR; lia). change (INR 3) with (1+1+1) in H. lra. }
  set (l := map rintR _).
  assert (Hl : forall z, In z l -> (1 <= z <= rintR v)%Z).
  { intros z Hz. unfold l in Hz. apply in_map_iff in Hz. destruct Hz as [r [<- Hr]].
    assert (M : 1 <= r <= v).
    { apply in_app_or in Hr. destruct Hr as [Hr|[<-|[]]]; [|lra].
      apply in_map_iff in Hr. destruct Hr as [k [<- Hk]]. apply in_seq in Hk.
      assert (L : 0 < ln base) by (rewrite <- ln_1; apply ln_increasing; lra).
      assert (INR k * ln base <= ln v).
      { assert (IZR (Z.of_nat k) <= IZR (Int_part (ln v / ln base))) by (apply IZR_le; lia).
        rewrite <- INR_IZR_INZ in H. pose proof (Int_part_bounds (ln v / ln base)) as [F _].
        assert (INR k <= ln v / ln base) by lra.
        apply (Rmult_le_compat_r (ln base)) in H0; [|lra].
        unfold Rdiv in H0. rewrite Rmult_assoc, Rinv_l in H0 by lra. lra. }
      unfold Rpower. split.
      - rewrite <- exp_0. destruct (Req_dec (INR k * ln base) 0) as [->|]; [lra|].
        apply Rlt_le, exp_increasing. pose proof (pos_INR k). nra.
      - rewrite <- (exp_ln v) by lra. destruct H; [left; now apply exp_increasing|rewrite H; lra]. }
    assert (mono : forall a b, a <= b -> (rintR a <= rintR b)%Z) by (intros; now apply rintR_mono).
    split; [|now apply mono]. replace 1%Z with (rintR (IZR 1)) by apply rintR_IZR. apply mono. lra. }
  repeat split.
  - pose proof (unique_sorted l) as U. set (u := unique l) in *. clearbody u. clear -U Hp.
    induction U as [|a t Ht IH Hall]; cbn; constructor; auto.
    rewrite Forall_forall in *. intros y Hy. apply in_map_iff in Hy. destruct Hy as [z [<- Hz]].
    specialize (Hall z Hz). apply Rmult_lt_compat_r; [now apply Rinv_0_lt_compat|]. now apply IZR_lt.
  - intros t Ht. apply in_map_iff in Ht. destruct Ht as [z [<- Hz]]. exists z. split; [|reflexivity].
    apply Hl, (proj1 (unique_In l z)), Hz.
  - apply in_map_iff. exists (rintR v). split; [reflexivity|]. apply unique_In. unfold l.
    apply in_map_iff. exists v. split; [reflexivity|]. apply in_or_app. right. now left.
Qed.

(** Which averaging factors these are, for a PSD of n samples: without a base all m >= 1 with 2m < n-1;
    with base b > 1 the rounded powers b^k for which the next power still is at most (n-1)/2, and (n-1)/2 rounded. *)
Definition psd_factor (n : nat) (base : R) (z : Z) : Prop :=
  if Rlt_dec 1 base
  then half_even (INR (n - 1) / 2) z \/ exists k, base ^ (k + 1) <= INR (n - 1) / 2 /\ half_even (base ^ k) z
  else (1 <= z /\ 2 * z < Z.of_nat n - 1)%Z.

Theorem C70_factors n df base : (4 <= n)%nat -> exists ms,
  psd_taus n df base = map (fun m => IZR m / (INR (n - 1) * df)) ms /\
  StronglySorted Z.lt ms /\ forall z, In z ms <-> psd_factor n base z.
Proof.
  intros Hn. set (v := INR (n - 1) / 2).
  assert (Hv : 1 < v).
  { unfold v. assert (INR 3 <= INR (n - 1)) by (apply le_INR; lia). change (INR 3) with (1+1+1) in H. lra. }
  unfold psd_taus, psd_m, psd_factor. fold v. destruct (Rlt_dec 1 base) as [Hb|Hb].
  - destruct (Rltb 1 base) eqn:E; [|apply Rltb_false in E; lra].
    eexists (unique _). rewrite map_map. split; [reflexivity|]. split; [apply unique_sorted|].
    assert (L : 0 < ln base) by (rewrite <- ln_1; apply ln_increasing; lra).
    assert (Lv : 0 < ln v) by (rewrite <- ln_1; apply ln_increasing; lra).
    assert (P : forall k, (k < Z.to_nat (Int_part (ln v / ln base)))%nat <-> base ^ (k + 1) <= v).
    { intro k. pose proof (Int_part_bounds (ln v / ln base)) as [F1 F2]. set (I := Int_part (ln v / ln base)) in *.
      assert (Q : base ^ (k + 1) <= v <-> INR (k + 1) <= ln v / ln base).
      { assert (K : INR (k + 1) <= ln v / ln base <-> ln (base ^ (k + 1)) <= ln v).
        { rewrite ln_pow by lra. split; intro H.
          - apply (Rmult_le_compat_r (ln base)) in H; [|lra]. unfold Rdiv in H. rewrite Rmult_assoc, Rinv_l in H by lra. lra.
          - apply (Rmult_le_reg_r (ln base)); [lra|]. unfold Rdiv. rewrite Rmult_assoc, Rinv_l by lra. lra. }
        assert (0 < base ^ (k + 1)) by (apply pow_lt; lra).
        rewrite K. split; intro H0.
        - destruct H0 as [H0|H0]; [left; apply ln_increasing; auto|rewrite H0; lra].
        - destruct (Rle_lt_dec (base ^ (k + 1)) v) as [|C]; [assumption|]. apply ln_increasing in C; lra. }
      rewrite Q, INR_IZR_INZ. split; intro H.
      - assert (IZR (Z.of_nat (k + 1)) <= IZR I) by (apply IZR_le; lia). lra.
      - assert (H1 : IZR (Z.of_nat (k + 1)) < IZR (I + 1)) by (rewrite plus_IZR; lra). apply lt_IZR in H1. lia. }
    intro z. rewrite unique_In, in_map_iff. split.
    + intros (r & Hz & Hr). apply rintR_iff in Hz. apply in_app_or in Hr. destruct Hr as [Hr|[<-|[]]]; [right|now left].
      apply in_map_iff in Hr as (k & <- & Hk). apply in_seq in Hk. exists k.
      rewrite Rpower_pow in Hz by lra. split; [apply P; lia|exact Hz].
    + intros [H|(k & H & Hz)].
      * exists v. split; [now apply rintR_iff|]. apply in_or_app. right. now left.
      * exists (base ^ k). split; [now apply rintR_iff|]. apply in_or_app. left. apply in_map_iff. exists k.
        split; [apply Rpower_pow; lra|]. apply in_seq. apply P in H. lia.
  - destruct (Rltb 1 base) eqn:E; [apply Rltb_true in E; lra|].
    exists (map (fun k => (1 + Z.of_nat k)%Z) (seq 0 ((n - 2) / 2))).
    assert (C : Z.to_nat (- Int_part (- (v - 1))) = ((n - 2) / 2)%nat).
    { pose proof (Int_part_bounds (- (v - 1))) as [F1 F2]. set (I := Int_part (- (v - 1))) in *.
      assert (D : v - 1 = IZR (Z.of_nat n - 3) / 2).
      { unfold v. rewrite minus_INR, INR_IZR_INZ, minus_IZR by lia. cbn [INR]. lra. }
      rewrite D in *.
      assert (H1 : IZR (2 * I) <= IZR (3 - Z.of_nat n)) by (rewrite mult_IZR, minus_IZR in *; lra). apply le_IZR in H1.
      assert (H2 : IZR (3 - Z.of_nat n) < IZR (2 * I + 2)) by (rewrite plus_IZR, mult_IZR, minus_IZR in *; lra). apply lt_IZR in H2.
      pose proof (Nat.div_mod (n - 2) 2 ltac:(lia)). pose proof (Nat.mod_upper_bound (n - 2) 2 ltac:(lia)). lia. }
    rewrite C. split; [|split].
    + rewrite !map_map. apply map_ext. intro k. now rewrite plus_IZR, <- INR_IZR_INZ.
    + assert (K : forall c a, StronglySorted Z.lt (map (fun k => (1 + Z.of_nat k)%Z) (seq a c))); [|apply K].
      induction c as [|c IH]; intro a; cbn [seq map]; constructor; [apply IH|].
      apply Forall_forall. intros y Hy. apply in_map_iff in Hy as (k & <- & Hk). apply in_seq in Hk. lia.
    + intro z. rewrite in_map_iff. pose proof (Nat.div_mod (n - 2) 2 ltac:(lia)). pose proof (Nat.mod_upper_bound (n - 2) 2 ltac:(lia)).
      split.
      * intros (k & <- & Hk). apply in_seq in Hk. lia.
      * intros Hz. exists (Z.to_nat (z - 1)). split; [lia|]. apply in_seq. lia.
Qed.

(** "base=2: octave" is not what base 2 gives: with 20 PSD samples the factor 8 is left out, although 8 <= 19/2,
    and the factor 10 is included. *)
Theorem C70_octave_refuted df : 0 < df ->
  let taus := psd_taus 20 df 2 in let tau0 := / (19 * df) in
  taus = [1 * tau0; 2 * tau0; 4 * tau0; 10 * tau0].
Proof.
  intros Hd taus tau0. destruct (C70_factors 20 df 2 ltac:(lia)) as (ms & E & S & H).
  assert (V : INR (20 - 1) / 2 = 19 / 2) by (cbn; lra).
  assert (M : ms = [1; 2; 4; 10]%Z).
  { apply (sorted_ext Z.lt); [apply Z.lt_irrefl|exact Z.lt_trans|exact S|repeat constructor; lia|].
    intro z. rewrite H. unfold psd_factor. destruct (Rlt_dec 1 2) as [_|C]; [|lra]. rewrite V.
    assert (T : half_even (19 / 2) 10) by (right; split; [rewrite Rabs_left; lra|reflexivity]).
    assert (Q : forall k y, half_even (2 ^ k) y <-> y = (2 ^ Z.of_nat k)%Z).
    { intros k y. assert (K : 2 ^ k = IZR (2 ^ Z.of_nat k)) by (now rewrite pow_IZR). rewrite K, <- rintR_iff, rintR_IZR. split; auto. }
    split.
    - intros [A|(k & Hk & A)].
      + rewrite (half_even_unique _ _ _ A T). cbn. tauto.
      + apply Q in A. subst z. assert (k < 3)%nat.
        { apply Nat.nle_gt. intro C. assert (2 ^ 4 <= 2 ^ (k + 1)) by (apply Rle_pow; [lra|lia]). lra. }
        destruct k as [|[|[|k]]]; [cbn; tauto..|lia].
    - intros [<-|[<-|[<-|[<-|[]]]]].
      + right. exists 0%nat. split; [cbn; lra|]. now apply Q.
      + right. exists 1%nat. split; [cbn; lra|]. now apply Q.
      + right. exists 2%nat. split; [cbn; lra|]. now apply Q.
      + left. exact T. }
  unfold taus. rewrite E, M. cbn [map]. replace (INR (20 - 1)) with 19 by (cbn; lra). reflexivity.
Qed.

(** Without a base: three factors for 9 samples. *)
Example C70_ex_factors df : psd_taus 9 df 1 = [1 / (8 * df); 2 / (8 * df); 3 / (8 * df)].
Proof.
  destruct (C70_factors 9 df 1 ltac:(lia)) as (ms & E & S & H).
  assert (M : ms = [1; 2; 3]%Z).
  { apply (sorted_ext Z.lt); [apply Z.lt_irrefl|exact Z.lt_trans|exact S|repeat constructor; lia|].
    intro z. rewrite H. unfold psd_factor. destruct (Rlt_dec 1 1) as [C|_]; [lra|]. cbn [In]. lia. }
  rewrite E, M. cbn [map]. replace (INR (9 - 1)) with 8 by (cbn; lra). reflexivity.
Qed.

(** ** Binary64: the frequency grid can overshoot the interpolation range *)

(** psd2allan(np.ones(4), f=0.1): in binary64 the fine grid has 13 points
    instead of 12, the last one above the coarse grid, so interp1d raises
    ValueError although the same call over the reals succeeds. *)
Theorem C70_binary64_refuted :
  exists f0 f : list float, psd_grids (A := float) 4 0x1.999999999999ap-4%float = Ok (f0, f) /\
    len f0 = 4%nat /\ len f = 13%nat /\ in_bounds f0 f = false.
Proof.
  destruct (psd_grids (A := float) 4 0x1.999999999999ap-4%float) as [[f0 f]|e] eqn:E.
  - exists f0, f. split; [reflexivity|].
    assert (V : match psd_grids (A := float) 4 0x1.999999999999ap-4%float with
      | Ok (f0, f) => (Nat.eqb (len f0) 4 && Nat.eqb (len f) 13 && negb (in_bounds f0 f))%bool
      | Err _ => false end = true) by (vm_compute; reflexivity).
    rewrite E in V. apply andb_prop in V. destruct V as [V V3]. apply andb_prop in V. destruct V as [V1 V2].
    apply Nat.eqb_eq in V1, V2. apply negb_true_iff in V3. auto.
  - exfalso. assert (V : match psd_grids (A := float) 4 0x1.999999999999ap-4%float with
      | Ok _ => true | Err _ => false end = true) by (vm_compute; reflexivity).
    rewrite E in V. discriminate.
Qed.
Theorem C70_reals_fit n df : (1 <= n)%nat -> 0 < df -> exists f0 f : list R,
  psd_grids n df = Ok (f0, f) /\ len f0 = n /\ len f = (4 * (n - 1))%nat /\ in_bounds f0 f = true.
Proof.
  intros Hn Hd. exists (coarse n df), (fine n df).
  split; [now apply grids_R|]. unfold coarse at 1, fine at 1. rewrite !tab_length.
  split; [reflexivity|]. split; [reflexivity|]. now apply bounds_R.
Qed.

(** ** Examples *)

(** A zero-order-hold interpolation: homogeneous, additive, non-negative on
    non-negative data, with the right length. *)
Definition hold (f0 s f : list R) : list R := tab (len f) (fun i => s.[(i + 1) / 4]).
Example hold_len f0 S f : len (hold f0 S f) = len f.
Proof. apply tab_length. Qed.
Example hold_scale f0 S f c : hold f0 (map (Rmult c) S) f = map (Rmult c) (hold f0 S f).
Proof.
  unfold hold. rewrite map_tab. apply tab_ext. intros i _.
  rewrite <- (Rmult_0_r c) at 1. apply (map_nth (Rmult c)).
Qed.
Example hold_nonneg f0 f v : In v (hold f0 [1;1;1;2;3] f) -> 0 <= v.
Proof.
  unfold hold. intro H. apply in_map_iff in H. destruct H as [i [<- _]].
  generalize ((i + 1) / 4)%nat. intro k.
  do 6 (destruct k as [|k]; [cbn; lra|]). cbn. destruct k; lra.
Qed.
Example C70_kinds : kind_of "adev" gain_allan /\ kind_of "MDEV" gain_modified.
Proof. split; [left|right]; eexists; split; [left|reflexivity|right|reflexivity]; reflexivity. Qed.
Example C70_instance : exists taus a m,
    psd2allan hold (Some [1;1;1;2;3]) (FStep (1/10)) "adev" 2 = Ok (taus, a) /\
    psd2allan hold (Some [1;1;1;2;3]) (FStep (1/10)) "MDEV" 2 = Ok (taus, m) /\
    len a = len taus /\ len m = len taus /\ forall i, (i < len taus)%nat -> 0 <= m.[i] <= a.[i].
Proof.
  apply (C70_modified_le hold hold_len); try apply C70_kinds; try (cbn; lia); try lra.
  intros v Hv. now apply hold_nonneg in Hv.
Qed.
Example C70_scale_instance : exists taus dev,
    psd2allan hold (Some [1;1;1;2;3]) (FStep (1/10)) "adev" 2 = Ok (taus, dev) /\
    psd2allan hold (Some (map (Rmult 9) [1;1;1;2;3])) (FStep (1/10)) "adev" 2 = Ok (taus, map (Rmult (sqrt 9)) dev).
Proof.
  apply (C70_scale hold hold_len _ _ _ gain_allan); try apply C70_kinds; try (cbn; lia); try lra.
  apply hold_scale.
Qed.
Example C70_kind_example : psd2allan hold (Some [1;1;1;2;3]) (FStep (1/10)) "hdev" 2 = Err UnboundLocalError.
Proof. apply (C70_kind_errors hold); try discriminate; try (cbn; lia); lra. Qed.

Print Assumptions C70_value.
Print Assumptions C70_vector.
Print Assumptions C70_type_errors.
Print Assumptions C70_kind_errors.
Print Assumptions C70_short.
Print Assumptions C70_scale.
Print Assumptions C70_modified_le.
Print Assumptions C70_additive.
Print Assumptions C70_taus.
Print Assumptions C70_factors.
Print Assumptions C70_octave_refuted.
Print Assumptions C70_binary64_refuted.
Print Assumptions C70_reals_fit.
