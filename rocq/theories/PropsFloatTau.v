(** * tau_generator in binary64 (C80). *)
From Coq Require Import ZArith Floats Reals Lra Lia Psatz String List Bool Sorted.
From Flocq Require Import Core.Core IEEE754.BinarySingleNaN.
From Verif Require Import Base Num NpList NumF NumR ListFacts Spec ModelCore FloatFacts GenericProofs TauProofs TauLaws.
Import ListNotations.
Local Open Scope R_scope.
Local Notation len := List.length.
Local Notation float := Coq.Floats.PrimFloat.float.

(** ** Relative error of a short chain of products and quotients *)

(** [x] is finite and differs from [v] by at most [j] unit roundings. *)
Definition approx (x : float) (v : R) (j : nat) : Prop :=
  ffin x /\ Rabs (fR x - v) <= ((1 + u64) ^ j - 1) * Rabs v.

Definition mid (v : R) : Prop := bpow radix2 (-1000) <= Rabs v <= bpow radix2 1000.

Lemma pow_u_bound j : (j <= 8)%nat -> 0 <= (1 + u64) ^ j - 1 <= (INR j + / 8) * u64.
Proof.
  intro H. split.
  - pose proof u64_pos. assert (1 <= (1 + u64) ^ j) by (apply pow_R1_Rle; lra). lra.
  - assert (U : 0 < u64 <= / 4096) by (split; [apply u64_pos|unfold u64; lra]).
    do 9 (destruct j as [|j]; [cbn [pow INR]; nra|]). lia.
Qed.

Lemma bpow_1000_big : 2 * bpow radix2 1000 < bpow radix2 1024.
Proof. change 2 with (bpow radix2 1). rewrite <- bpow_plus. apply bpow_lt. reflexivity. Qed.

(** One rounding of a value close to [v]. *)
Lemma rnd_approx r v j : mid v -> (j <= 7)%nat ->
  Rabs (r - v) <= ((1 + u64) ^ j - 1) * Rabs v ->
  Rabs (rnd r) < bpow radix2 1024 /\ Rabs (rnd r - v) <= ((1 + u64) ^ S j - 1) * Rabs v.
Proof.
  intros [L U] J E. destruct (pow_u_bound j ltac:(lia)) as [P0 P1].
  assert (V : 0 < Rabs v) by (eapply Rlt_le_trans; [apply (bpow_gt_0 radix2 (-1000))|exact L]).
  assert (Q : (INR j + / 8) * u64 <= / 8).
  { assert (INR j <= INR 7) by (apply le_INR; lia). change (INR 7) with (1+1+1+1+1+1+1) in H. pose proof (pos_INR j).
    assert (U' : 0 < u64 <= / 4096) by (split; [apply u64_pos|unfold u64; lra]). nra. }
  assert (A1 : Rabs v - Rabs (r - v) <= Rabs r).
  { replace v with (r - (r - v)) at 1 by ring. pose proof (Rabs_triang r (- (r - v))) as T.
    rewrite Rabs_Ropp in T. replace (r - (r - v)) with (r + - (r - v)) by ring. lra. }
  assert (A2 : Rabs r <= Rabs v + Rabs (r - v)).
  { replace r with (v + (r - v)) at 1 by ring. apply Rabs_triang. }
  assert (B : bpow radix2 (-1022) <= Rabs r).
  { apply Rle_trans with (Rabs v / 2); [|nra].
    apply Rle_trans with (bpow radix2 (-1000) / 2); [|lra].
    replace (bpow radix2 (-1000) / 2) with (bpow radix2 (-1001)).
    - apply bpow_le. lia.
    - change (-1000)%Z with (-1001 + 1)%Z. rewrite bpow_plus. change (bpow radix2 1) with 2. lra. }
  pose proof (rnd_rel r B) as E2. pose proof u64_pos as Pu.
  assert (A3 : Rabs (rnd r) <= Rabs r + Rabs (rnd r - r)).
  { replace (rnd r) with (r + (rnd r - r)) at 1 by ring. apply Rabs_triang. }
  assert (A4 : Rabs (rnd r - v) <= Rabs (rnd r - r) + Rabs (r - v)).
  { replace (rnd r - v) with ((rnd r - r) + (r - v)) by ring. apply Rabs_triang. }
  split.
  - apply Rle_lt_trans with (2 * bpow radix2 1000); [|apply bpow_1000_big].
    assert (u64 <= / 8) by (unfold u64; lra). nra.
  - cbn [pow]. nra.
Qed.

Lemma approx_mul x y v w i j : approx x v i -> approx y w j -> mid (v * w) -> (i + j <= 7)%nat ->
  approx (x * y)%float (v * w) (S (i + j)).
Proof.
  intros [Fx Ex] [Fy Ey] M J.
  destruct (rnd_approx (fR x * fR y) (v * w) (i + j) M J) as [B E].
  - destruct (pow_u_bound i ltac:(lia)) as [Pi _]. destruct (pow_u_bound j ltac:(lia)) as [Pj _].
    rewrite pow_add. set (a := (1 + u64) ^ i) in *. set (b := (1 + u64) ^ j) in *.
    replace (fR x * fR y - v * w) with ((fR x - v) * (fR y - w) + (fR x - v) * w + v * (fR y - w)) by ring.
    eapply Rle_trans; [apply Rabs_triang|]. eapply Rle_trans; [apply Rplus_le_compat_r, Rabs_triang|].
    rewrite !Rabs_mult.
    pose proof (Rabs_pos (fR x - v)). pose proof (Rabs_pos (fR y - w)). pose proof (Rabs_pos v). pose proof (Rabs_pos w).
    assert (Rabs (fR x - v) * Rabs (fR y - w) <= (a - 1) * Rabs v * ((b - 1) * Rabs w)) by (apply Rmult_le_compat; assumption).
    assert (Rabs (fR x - v) * Rabs w <= (a - 1) * Rabs v * Rabs w) by (apply Rmult_le_compat_r; assumption).
    assert (Rabs v * Rabs (fR y - w) <= Rabs v * ((b - 1) * Rabs w)) by (apply Rmult_le_compat_l; assumption).
    nra.
  - destruct (fmul_ok x y Fx Fy B) as [F V]. split; [exact F|]. now rewrite V.
Qed.

Lemma approx_div x y v i : approx x v i -> ffin y -> fR y <> 0 -> mid (v / fR y) -> (i <= 7)%nat ->
  approx (x / y)%float (v / fR y) (S i).
Proof.
  intros [Fx Ex] Fy Ny M J.
  destruct (rnd_approx (fR x / fR y) (v / fR y) i M J) as [B E].
  - replace (fR x / fR y - v / fR y) with ((fR x - v) * / fR y) by (unfold Rdiv; ring).
    unfold Rdiv. rewrite !Rabs_mult, <- Rmult_assoc. apply Rmult_le_compat_r; [apply Rabs_pos|exact Ex].
  - destruct (fdiv_ok x y Fx Ny B) as [F V]. split; [exact F|]. now rewrite V.
Qed.

Lemma approx_Z z : (Z.abs z <= 2 ^ 53)%Z -> approx (f_ofZ z) (IZR z) 0.
Proof.
  intro H. destruct (fofZ_ok z H) as [F V]. split; [exact F|]. rewrite V. cbn [pow].
  rewrite Rminus_diag_eq, Rabs_R0 by reflexivity. lra.
Qed.
Lemma approx_self x : ffin x -> approx x (fR x) 0.
Proof.
  intro F. split; [exact F|]. cbn [pow]. rewrite Rminus_diag_eq, Rabs_R0 by reflexivity. lra.
Qed.

Lemma approx_rint x k j : approx x (IZR k) j -> (j <= 5)%nat -> (Z.abs k <= 2 ^ 49)%Z -> f_rint x = Some k.
Proof.
  intros [F E] J K. rewrite (f_rint_ok x F). f_equal. apply near_int_exact.
  destruct (pow_u_bound j ltac:(lia)) as [P0 P1]. eapply Rle_lt_trans; [exact E|].
  assert (HK : Rabs (IZR k) <= 2 ^ 49).
  { rewrite <- abs_IZR. apply Rle_trans with (IZR (2 ^ 49)); [apply IZR_le; exact K|]. apply Req_le. cbn. ring. }
  pose proof (Rabs_pos (IZR k)) as K0.
  assert (Hj : INR j <= 5) by (replace 5 with (INR 5) by (cbn; ring); apply le_INR; lia).
  pose proof u64_pos as Pu.
  apply Rle_lt_trans with ((5 + / 8) * u64 * 2 ^ 49); [|unfold u64; lra].
  apply Rmult_le_compat; [exact P0|exact K0| |exact HK].
  eapply Rle_trans; [exact P1|]. apply Rmult_le_compat_r; lra.
Qed.

(** ** Sampling rates for which nothing overflows or underflows *)
Definition safe_rate (rate : float) : Prop :=
  ffin rate /\ bpow radix2 (-900) <= Rabs (fR rate) <= bpow radix2 900.

Lemma safe_nz rate : safe_rate rate -> fR rate <> 0.
Proof.
  intros (_ & L & _) E. rewrite E, Rabs_R0 in L. pose proof (bpow_gt_0 radix2 (-900)). lra.
Qed.

Lemma mid_Z k : (0 < k <= 2 ^ 50)%Z -> mid (IZR k).
Proof.
  intro H. assert (1 <= IZR k) by (apply IZR_le; lia).
  assert (IZR k <= bpow radix2 50) by (change (bpow radix2 50) with (IZR (2 ^ 50)); apply IZR_le; lia).
  unfold mid. rewrite Rabs_pos_eq by lra. split.
  - apply Rle_trans with 1; [|assumption]. change 1 with (bpow radix2 0). apply bpow_le. lia.
  - eapply Rle_trans; [eassumption|]. apply bpow_le. lia.
Qed.

Lemma mid_Z_div rate k : safe_rate rate -> (0 < k <= 2 ^ 50)%Z -> mid (IZR k / fR rate).
Proof.
  intros Hs Hk. pose proof (safe_nz rate Hs) as N. destruct Hs as (_ & L & U).
  assert (K1 : 1 <= IZR k) by (apply IZR_le; lia).
  assert (K2 : IZR k <= bpow radix2 50) by (change (bpow radix2 50) with (IZR (2 ^ 50)); apply IZR_le; lia).
  assert (P : 0 < Rabs (fR rate)) by (now apply Rabs_pos_lt).
  unfold mid, Rdiv. rewrite Rabs_mult, Rabs_inv, (Rabs_pos_eq (IZR k)) by lra.
  assert (I1 : bpow radix2 (-900) <= / Rabs (fR rate)).
  { change (-900)%Z with (- (900))%Z. rewrite bpow_opp. apply Rinv_le; [exact P|exact U]. }
  assert (I2 : / Rabs (fR rate) <= bpow radix2 900).
  { change 900%Z with (- (-900))%Z. rewrite bpow_opp. apply Rinv_le; [apply bpow_gt_0|exact L]. }
  pose proof (bpow_gt_0 radix2 (-900)). split.
  - apply Rle_trans with (1 * bpow radix2 (-900)).
    + rewrite Rmult_1_l. apply bpow_le. lia.
    + apply Rmult_le_compat; lra.
  - apply Rle_trans with (bpow radix2 50 * bpow radix2 900).
    + apply Rmult_le_compat; lra.
    + rewrite <- bpow_plus. apply bpow_le. lia.
Qed.

(** round((m/rate)*rate) = m. *)
Lemma rint_div_mul rate m : safe_rate rate -> (0 < m <= 2 ^ 49)%Z ->
  f_rint ((f_ofZ m / rate) * rate)%float = Some m.
Proof.
  intros Hs Hm. pose proof (safe_nz rate Hs) as N. apply approx_rint with 2%nat; [|lia|lia].
  replace (IZR m) with (IZR m / fR rate * fR rate) by (field; exact N).
  apply (approx_mul _ _ _ _ 1 0).
  - apply approx_div; [apply approx_Z; lia|apply Hs|exact N|apply mid_Z_div; [exact Hs|lia]|lia].
  - apply approx_self, Hs.
  - replace (IZR m / fR rate * fR rate) with (IZR m) by (field; exact N). apply mid_Z. lia.
  - lia.
Qed.

(** round(((1/rate)*k)*rate) = k. *)
Lemma rint_scaled rate k : safe_rate rate -> (0 < k <= 2 ^ 49)%Z ->
  f_rint ((f_ofZ 1 / rate) * f_ofZ k * rate)%float = Some k.
Proof.
  intros Hs Hk. pose proof (safe_nz rate Hs) as N. apply approx_rint with 3%nat; [|lia|lia].
  replace (IZR k) with (1 / fR rate * IZR k * fR rate) by (field; exact N).
  apply (approx_mul _ _ _ _ 2 0).
  - apply (approx_mul _ _ _ _ 1 0).
    + apply approx_div; [apply (approx_Z 1); lia|apply Hs|exact N|apply (mid_Z_div rate 1); [exact Hs|lia]|lia].
    + apply approx_Z; lia.
    + replace (1 / fR rate * IZR k) with (IZR k / fR rate) by (field; exact N). apply mid_Z_div; [exact Hs|lia].
    + lia.
  - apply approx_self, Hs.
  - replace (1 / fR rate * IZR k * fR rate) with (IZR k) by (field; exact N). apply mid_Z. lia.
  - lia.
Qed.

(** round(((c*(1/rate))*p)*rate) = c*p. *)
Lemma rint_scaled2 rate c p : safe_rate rate -> (0 < c)%Z -> (0 < p)%Z -> (c * p <= 2 ^ 49)%Z ->
  f_rint (f_ofZ c * (f_ofZ 1 / rate) * f_ofZ p * rate)%float = Some (c * p)%Z.
Proof.
  intros Hs Hc Hp Hk. pose proof (safe_nz rate Hs) as N. apply approx_rint with 4%nat; [|lia|nia].
  assert (c <= 2 ^ 49 /\ p <= 2 ^ 49)%Z as [C2 P2] by nia.
  assert (E : IZR (c * p) = IZR c * (1 / fR rate) * IZR p * fR rate) by (rewrite mult_IZR; field; exact N).
  rewrite E. apply (approx_mul _ _ _ _ 3 0).
  - apply (approx_mul _ _ _ _ 2 0).
    + apply (approx_mul _ _ _ _ 0 1).
      * apply approx_Z; lia.
      * apply approx_div; [apply (approx_Z 1); lia|apply Hs|exact N|apply (mid_Z_div rate 1); [exact Hs|lia]|lia].
      * replace (IZR c * (1 / fR rate)) with (IZR c / fR rate) by (field; exact N). apply mid_Z_div; [exact Hs|lia].
      * lia.
    + apply approx_Z; lia.
    + replace (IZR c * (1 / fR rate) * IZR p) with (IZR (c * p) / fR rate) by (rewrite mult_IZR; field; exact N).
      apply mid_Z_div; [exact Hs|nia].
    + lia.
  - apply approx_self, Hs.
  - rewrite <- E. apply mid_Z. nia.
  - lia.
Qed.

(** ** Selection of averaging factors over any number type *)
Section Select.
Context {A : Type} {NA : Num A}.
Implicit Types (rate mx : A) (ts : list A) (ks : list Z).

Lemma select_m_In_gen n rate mx ts z :
  In z (select_m n rate mx ts) <->
  (exists t, In t ts /\ nrint (nmul t rate) = Some z) /\ (0 < z < Z.of_nat n)%Z /\ nleb (ofZ z) mx = true.
Proof.
  unfold select_m. rewrite unique_In, in_flat_map. split.
  - intros (t & Ht & Hz). destruct (nrint (nmul t rate)) as [m|] eqn:E; [|destruct Hz].
    destruct ((m <? Z.of_nat n)%Z && (0 <? m)%Z && nleb (ofZ m) mx) eqn:C; [|destruct Hz].
    destruct Hz as [<-|[]]. apply andb_prop in C as [C C3]. apply andb_prop in C as [C1 C2].
    apply Z.ltb_lt in C1, C2. split; [|split; [lia|exact C3]]. now exists t.
  - intros ((t & Ht & Hh) & Hz & Hm). exists t. split; [exact Ht|]. rewrite Hh, Hm.
    destruct (Z.ltb_spec z (Z.of_nat n)); [|lia]. destruct (Z.ltb_spec 0 z); [|lia]. cbn. auto.
Qed.

(** [ts] and [ks] describe the same averaging factors. *)
Definition rounds_to rate ts ks : Prop :=
  forall k, (exists t, In t ts /\ nrint (nmul t rate) = Some k) <-> In k ks.

Lemma idem_gen (x : list A) rate taus even mx ms t :
  (forall m, (0 < m < Z.of_nat (len x))%Z -> nrint (nmul (ndiv (ofZ m) rate) rate) = Some m) ->
  tau_generator x rate taus even mx = Ok (x, ms, t) ->
  tau_generator x rate (TArr t) even mx = Ok (x, ms, t) /\
  (t <> [] -> tau_generator x rate (TList t) even mx = Ok (x, ms, t)).
Proof.
  intros Hrt H. pose proof (tau_generator_shape _ _ _ _ _ _ _ _ H) as (_ & Hss & _ & Ht).
  unfold tau_generator in H. destruct (neqb rate (ofZ 0)) eqn:Hr; [discriminate|].
  destruct (expand_taus (len x) rate taus) as [ts|]; cbn [bind] in H; [|discriminate].
  set (mx' := if neqb mx (ofZ (-1)) then ofN (len x) else mx) in *.
  injection H as Hm _.
  assert (G : forall taus', expand_taus (len x) rate taus' = Ok t -> tau_generator x rate taus' even mx = Ok (x, ms, t)).
  { intros taus' He. unfold tau_generator. rewrite Hr, He. cbn [bind]. fold mx'.
    match goal with |- Ok (x, ?m, _) = _ => assert (E : m = ms) end.
    { apply sortedZ_unique; [destruct even; [apply filter_StronglySorted|]; apply unique_sorted|exact Hss|].
      intro z.
      assert (Q : forall l, In z (if even then filter Z.even l else l) <-> In z l /\ (even = true -> Z.even z = true)).
      { intro l. destruct even; [rewrite filter_In|]; intuition discriminate. }
      rewrite Q, select_m_In_gen. split.
      - intros (((w & Hw & Hz) & _ & _) & _). rewrite Ht in Hw. apply in_map_iff in Hw as (m & <- & Hin).
        assert (Hb : (0 < m < Z.of_nat (len x))%Z).
        { rewrite <- Hm in Hin.
          destruct even; [apply filter_In in Hin as [Hin _]|]; apply select_m_In_gen in Hin; apply Hin. }
        rewrite (Hrt m Hb) in Hz. now injection Hz as <-.
      - intros Hz. pose proof Hz as Hz'. rewrite <- Hm in Hz'. apply Q in Hz' as [Hz' He'].
        apply select_m_In_gen in Hz' as (_ & Hb & Hx). split; [|exact He'].
        split; [|split; assumption]. exists (ndiv (ofZ z) rate). split; [|now apply Hrt].
        rewrite Ht. apply in_map_iff. now exists z. }
    rewrite E. now rewrite Ht. }
  split; [now apply G|]. intro Hn. apply G. destruct t; [contradiction|reflexivity].
Qed.

(** The three keywords that need no logarithm of a non-integer. *)
Definition kw_request (taus : taus_arg A) (s : string) : Prop :=
  taus = TStr s \/ s = "octave"%string /\ (taus = TNone \/ taus = TList []).

Definition kw_factors (n : nat) (s : string) : list Z :=
  if String.eqb s "all" then map (fun k => Z.of_nat (S k)) (seq 0 n)
  else if String.eqb s "octave" then map (fun k => (2 ^ Z.of_nat k)%Z) (seq 0 (S (Nat.log2 n)))
  else flat_map (fun k => map (fun c => c * 10 ^ Z.of_nat k)%Z [1; 2; 4]%Z) (seq 0 (S (ilog10 n))).

Lemma ilog10_fuel_low f : forall n, (1 <= n <= Z.of_nat f)%Z -> (10 ^ Z.of_nat (ilog10_fuel f n) <= n)%Z.
Proof.
  induction f as [|f IH]; intros n H; [lia|]. cbn [ilog10_fuel]. destruct (Z.ltb_spec n 10) as [L|L]; [cbn; lia|].
  pose proof (Z.div_mod n 10 ltac:(lia)) as D. pose proof (Z.mod_pos_bound n 10 ltac:(lia)) as B.
  specialize (IH (n / 10)%Z ltac:(lia)). rewrite Nat2Z.inj_succ, Z.pow_succ_r by lia. lia.
Qed.
Lemma ilog10_low n : (1 <= n)%nat -> (10 ^ Z.of_nat (ilog10 n) <= Z.of_nat n)%Z.
Proof. intro H. apply ilog10_fuel_low. lia. Qed.

Lemma kw_expand n rate taus s : (1 <= n)%nat -> In s ["all"; "octave"; "decade"]%string -> kw_request taus s ->
  (forall k, (0 < k <= 4 * Z.of_nat n)%Z -> nrint (nmul (nmul (ndiv (ofZ 1) rate) (ofZ k)) rate) = Some k) ->
  (forall c p, (0 < c)%Z -> (0 < p)%Z -> (c * p <= 4 * Z.of_nat n)%Z ->
     nrint (nmul (nmul (nmul (ofZ c) (ndiv (ofZ 1) rate)) (ofZ p)) rate) = Some (c * p)%Z) ->
  exists ts, expand_taus n rate taus = Ok ts /\ rounds_to rate ts (kw_factors n s).
Proof.
  intros Hn Hs Hk H1 H2. destruct n as [|n']; [lia|]. set (n := S n') in *.
  assert (Ho : rounds_to rate (map (fun k => nmul (ndiv (ofZ 1) rate) (ofZ (2 ^ Z.of_nat k))) (seq 0 (S (Nat.log2 n))))
                 (kw_factors n "octave")).
  { unfold kw_factors. cbn [String.eqb Ascii.eqb Bool.eqb]. intro z. rewrite in_map_iff.
    assert (B : forall k, In k (seq 0 (S (Nat.log2 n))) -> (0 < 2 ^ Z.of_nat k <= 4 * Z.of_nat n)%Z).
    { intros k Hi. apply in_seq in Hi. destruct (Nat.log2_spec n ltac:(lia)) as [L _].
      assert (2 ^ k <= 2 ^ Nat.log2 n)%nat by (apply Nat.pow_le_mono_r; lia).
      assert (E : Z.of_nat (2 ^ k) = (2 ^ Z.of_nat k)%Z) by (now rewrite Nat2Z.inj_pow). lia. }
    split.
    - intros (t & Ht & Hz). apply in_map_iff in Ht as (k & <- & Hi). rewrite (H1 _ (B k Hi)) in Hz.
      injection Hz as <-. now exists k.
    - intros (k & <- & Hi). eexists. split; [apply in_map_iff; exists k; split; [reflexivity|exact Hi]|]. exact (H1 _ (B k Hi)). }
  destruct Hs as [<-|[<-|[<-|[]]]].
  - destruct Hk as [->|[E _]]; [|discriminate]. eexists. split; [reflexivity|].
    unfold kw_factors. cbn [String.eqb Ascii.eqb Bool.eqb]. intro z. rewrite in_map_iff. split.
    + intros (t & Ht & Hz). apply in_map_iff in Ht as (k & <- & Hi). pose proof Hi as Hi'. apply in_seq in Hi'.
      unfold ofN in Hz. rewrite H1 in Hz by lia. injection Hz as <-. now exists k.
    + intros (k & <- & Hi). pose proof Hi as Hi'. apply in_seq in Hi'. eexists. split; [apply in_map_iff; exists k; split; [reflexivity|exact Hi]|].
      unfold ofN. apply H1. lia.
  - destruct Hk as [->|[_ [->| ->]]]; (eexists; split; [reflexivity|exact Ho]).
  - destruct Hk as [->|[E _]]; [|discriminate]. eexists. split; [reflexivity|].
    unfold kw_factors. cbn [String.eqb Ascii.eqb Bool.eqb]. intro z. rewrite in_flat_map.
    assert (B : forall k, In k (seq 0 (S (ilog10 n))) -> (0 < 10 ^ Z.of_nat k <= Z.of_nat n)%Z).
    { intros k Hi. apply in_seq in Hi. pose proof (ilog10_low n ltac:(lia)).
      assert (10 ^ Z.of_nat k <= 10 ^ Z.of_nat (ilog10 n))%Z by (apply Z.pow_le_mono_r; lia).
      split; [apply Z.pow_pos_nonneg; lia|lia]. }
    split.
    + intros (t & Ht & Hz). apply in_flat_map in Ht as (k & Hi & Ht). specialize (B k Hi). exists k. split; [exact Hi|].
      cbn [In] in Ht. destruct Ht as [<-|[<-|[<-|[]]]]; rewrite H2 in Hz by lia; injection Hz as <-; cbn [map In]; tauto.
    + intros (k & Hi & Hz). specialize (B k Hi). cbn [map In] in Hz.
      assert (Q : forall t, In t [nmul (nmul (ofZ 1) (ndiv (ofZ 1) rate)) (ofZ (10 ^ Z.of_nat k));
                   nmul (nmul (ofZ 2) (ndiv (ofZ 1) rate)) (ofZ (10 ^ Z.of_nat k));
                   nmul (nmul (ofZ 4) (ndiv (ofZ 1) rate)) (ofZ (10 ^ Z.of_nat k))] ->
                 nrint (nmul t rate) = Some z ->
                 exists t, In t (flat_map (fun k => [nmul (nmul (ofZ 1) (ndiv (ofZ 1) rate)) (ofZ (10 ^ Z.of_nat k));
                   nmul (nmul (ofZ 2) (ndiv (ofZ 1) rate)) (ofZ (10 ^ Z.of_nat k));
                   nmul (nmul (ofZ 4) (ndiv (ofZ 1) rate)) (ofZ (10 ^ Z.of_nat k))]) (seq 0 (S (ilog10 n)))) /\ nrint (nmul t rate) = Some z).
      { intros t Ht E. exists t. split; [|exact E]. apply in_flat_map. exists k. split; [exact Hi|exact Ht]. }
      destruct Hz as [<-|[<-|[<-|[]]]]; (eapply Q; [cbn [In]|apply H2; lia]); tauto.
Qed.

(** tau_generator when the request rounds to the integers [ks]. *)
Lemma tau_gen_rounds (x : list A) rate taus even mx ts ks :
  neqb rate (ofZ 0) = false -> expand_taus (len x) rate taus = Ok ts -> rounds_to rate ts ks ->
  exists ms, tau_generator x rate taus even mx = Ok (x, ms, map (fun m => ndiv (ofZ m) rate) ms) /\
    StronglySorted Z.lt ms /\
    forall m, In m ms <-> In m ks /\ (0 < m < Z.of_nat (len x))%Z /\
      nleb (ofZ m) (if neqb mx (ofZ (-1)) then ofN (len x) else mx) = true /\ (even = true -> Z.even m = true).
Proof.
  intros Hr He Hk. unfold tau_generator. rewrite Hr, He. cbn [bind]. eexists. split; [reflexivity|]. split.
  - destruct even; [apply filter_StronglySorted|]; apply unique_sorted.
  - intro m.
    assert (Q : forall l, In m (if even then filter Z.even l else l) <-> In m l /\ (even = true -> Z.even m = true)).
    { intro l. destruct even; [rewrite filter_In|]; intuition discriminate. }
    rewrite Q, select_m_In_gen. rewrite <- (Hk m). tauto.
Qed.
End Select.

(** ** C80 *)
Lemma safe_neq0 rate : safe_rate rate -> @neqb _ FNum rate (ofZ 0) = false.
Proof.
  intro Hs. cbn [neqb FNum ofZ]. destruct (fofZ_ok 0 ltac:(lia)) as [F0 V0].
  rewrite (feqb_ok rate (f_ofZ 0) (proj1 Hs) F0), V0. apply Req_bool_false, safe_nz, Hs.
Qed.

Theorem C80_idempotent (x : list float) rate taus even mx ms t :
  safe_rate rate -> (Z.of_nat (len x) <= 2 ^ 49)%Z ->
  tau_generator x rate taus even mx = Ok (x, ms, t) ->
  tau_generator x rate (TArr t) even mx = Ok (x, ms, t) /\
  (t <> [] -> tau_generator x rate (TList t) even mx = Ok (x, ms, t)).
Proof.
  intros Hs Hn. apply idem_gen. intros m Hm. apply (rint_div_mul rate m Hs). lia.
Qed.
Print Assumptions C80_idempotent.

Lemma mx_same (n : nat) M m : (Z.of_nat n <= 2 ^ 53)%Z -> (Z.abs M <= 2 ^ 53)%Z -> (0 < m < Z.of_nat n)%Z ->
  @nleb _ FNum (ofZ m) (if @neqb _ FNum (ofZ M) (ofZ (-1)) then ofN n else ofZ M) =
  @nleb _ RNum (ofZ m) (if @neqb _ RNum (ofZ M) (ofZ (-1)) then ofN n else ofZ M).
Proof.
  intros Hn HM Hm. unfold ofN. cbn [nleb neqb FNum RNum ofZ].
  destruct (fofZ_ok M HM) as [FM VM]. destruct (fofZ_ok (-1) ltac:(lia)) as [F1 V1].
  destruct (fofZ_ok m ltac:(lia)) as [Fm Vm]. destruct (fofZ_ok (Z.of_nat n) ltac:(lia)) as [Fn Vn].
  rewrite (feqb_ok _ _ FM F1), VM, V1.
  destruct (Req_bool_spec (IZR M) (-1)) as [E|E].
  - rewrite (proj2 (Reqb_true (IZR M) (-1)) E), (fleb_ok _ _ Fm Fn), Vm, Vn.
    destruct (Rle_bool_spec (IZR m) (IZR (Z.of_nat n))) as [L|L].
    + symmetry. now apply Rleb_true.
    + symmetry. apply not_true_is_false. intro Q. apply Rleb_true in Q. lra.
  - rewrite (proj2 (Reqb_false (IZR M) (-1)) E), (fleb_ok _ _ Fm FM), Vm, VM.
    destruct (Rle_bool_spec (IZR m) (IZR M)) as [L|L].
    + symmetry. now apply Rleb_true.
    + symmetry. apply not_true_is_false. intro Q. apply Rleb_true in Q. lra.
Qed.

(** Both number types select the same averaging factors when both requests round to the same integers. *)
Lemma same_selection (x : list float) (y : list R) rate tF tR even M tsF tsR ks :
  safe_rate rate -> len y = len x -> (Z.of_nat (len x) <= 2 ^ 49)%Z -> (Z.abs M <= 2 ^ 53)%Z ->
  expand_taus (len x) rate tF = Ok tsF -> expand_taus (len y) (fR rate) tR = Ok tsR ->
  rounds_to rate tsF ks -> rounds_to (fR rate) tsR ks ->
  exists ms,
    tau_generator x rate tF even (ofZ M) = Ok (x, ms, map (fun m => f_ofZ m / rate)%float ms) /\
    tau_generator y (fR rate) tR even (IZR M) = Ok (y, ms, map (fun m => IZR m / fR rate) ms) /\
    Forall (fun m => Rabs (fR (f_ofZ m / rate)%float - IZR m / fR rate) <= u64 * Rabs (IZR m / fR rate)) ms.
Proof.
  intros Hs Hl Hn HM EF ER KF KR.
  destruct (tau_gen_rounds x rate tF even (ofZ M) tsF ks (safe_neq0 rate Hs) EF KF) as (ms & GF & SF & IF).
  assert (R0 : @neqb _ RNum (fR rate) (ofZ 0) = false).
  { cbn [neqb RNum ofZ]. apply Reqb_false, safe_nz, Hs. }
  destruct (tau_gen_rounds y (fR rate) tR even (ofZ M) tsR ks R0 ER KR) as (ms' & GR & SR & IR).
  assert (E : ms' = ms).
  { apply sortedZ_unique; auto. intro m. rewrite IF, IR, Hl.
    split; intros (H1 & H2 & H3 & H4); (split; [exact H1|split; [exact H2|split; [|exact H4]]]).
    - rewrite mx_same; [exact H3|lia|exact HM|exact H2].
    - rewrite mx_same in H3; [exact H3|lia|exact HM|exact H2]. }
  subst ms'. exists ms. split; [exact GF|]. split; [exact GR|].
  apply Forall_forall. intros m Hm. apply IF in Hm as (_ & Hb & _).
  assert (A : approx (f_ofZ m / rate)%float (IZR m / fR rate) 1).
  { apply approx_div; [apply approx_Z; lia|apply Hs|apply safe_nz, Hs|apply mid_Z_div; [exact Hs|lia]|lia]. }
  destruct A as [_ A]. cbn [pow] in A. eapply Rle_trans; [exact A|]. apply Req_le. ring.
Qed.

Theorem C80_keywords (x : list float) (y : list R) rate tF tR s even M :
  safe_rate rate -> (1 <= len x)%nat -> (Z.of_nat (len x) <= 2 ^ 47)%Z -> len y = len x -> (Z.abs M <= 2 ^ 53)%Z ->
  In s ["all"; "octave"; "decade"]%string -> kw_request tF s -> kw_request tR s ->
  exists ms,
    tau_generator x rate tF even (ofZ M) = Ok (x, ms, map (fun m => f_ofZ m / rate)%float ms) /\
    tau_generator y (fR rate) tR even (IZR M) = Ok (y, ms, map (fun m => IZR m / fR rate) ms) /\
    Forall (fun m => Rabs (fR (f_ofZ m / rate)%float - IZR m / fR rate) <= u64 * Rabs (IZR m / fR rate)) ms.
Proof.
  intros Hs Hx Hn Hl HM Hk HF HR. pose proof (safe_nz rate Hs) as Nz.
  destruct (kw_expand (len x) rate tF s Hx Hk HF) as (tsF & EF & KF).
  { intros k B. apply (rint_scaled rate k Hs). lia. }
  { intros c p Hc Hp B. apply (rint_scaled2 rate c p Hs Hc Hp). lia. }
  destruct (kw_expand (len y) (fR rate) tR s ltac:(lia) Hk HR) as (tsR & ER & KR).
  { intros k B. cbn [nrint nmul ndiv ofZ RNum]. f_equal. apply rintR_iff.
    replace (1 / fR rate * IZR k * fR rate) with (IZR k) by (field; exact Nz). apply half_even_IZR. }
  { intros c p Hc Hp B. cbn [nrint nmul ndiv ofZ RNum]. f_equal. apply rintR_iff.
    replace (IZR c * (1 / fR rate) * IZR p * fR rate) with (IZR (c * p)) by (rewrite mult_IZR; field; exact Nz).
    apply half_even_IZR. }
  rewrite Hl in KR. apply (same_selection x y rate tF tR even M tsF tsR (kw_factors (len x) s)); auto. lia.
Qed.
Print Assumptions C80_keywords.

(** A requested time interval well away from a rounding boundary. *)
Definition clear_of_ties (v : R) : Prop :=
  mid v /\ forall k : Z, u64 * Rabs v < Rabs (v - (IZR k + / 2)).

Lemma clear_rint t rate : ffin t -> ffin rate -> clear_of_ties (fR t * fR rate) ->
  exists m, f_rint (t * rate)%float = Some m /\ half_even (fR t * fR rate) m.
Proof.
  intros Ft Fr [M C]. set (v := fR t * fR rate) in *.
  destruct (rnd_approx v v 0 M ltac:(lia)) as [B E].
  { rewrite Rminus_diag_eq, Rabs_R0 by reflexivity. cbn [pow]. lra. }
  destruct (fmul_ok t rate Ft Fr B) as [F V]. exists (rintR v). split; [|apply rintR_spec].
  rewrite (f_rint_ok _ F). f_equal. apply near_int_exact. rewrite V. fold v.
  cbn [pow] in E. replace ((1 + u64) * 1 - 1) with u64 in E by ring.
  pose proof (rintR_spec v) as S. set (m := rintR v) in *.
  pose proof (C m) as C1. pose proof (C (m - 1)%Z) as C2. rewrite minus_IZR in C2.
  assert (D : Rabs (v - IZR m) <= / 2) by (destruct S as [S|[S _]]; lra).
  apply Rabs_le_inv in D. apply Rabs_le_inv in E. apply Rabs_lt. pose proof (Rabs_pos v). pose proof u64_pos.
  assert (0 <= u64 * Rabs v) by (apply Rmult_le_pos; lra).
  revert C1 C2. unfold Rabs at 2 4. destruct (Rcase_abs _), (Rcase_abs _); intros; split; lra.
Qed.

Theorem C80_explicit (x : list float) (y : list R) rate l even M :
  safe_rate rate -> (Z.of_nat (len x) <= 2 ^ 49)%Z -> len y = len x -> (Z.abs M <= 2 ^ 53)%Z ->
  Forall (fun t => ffin t /\ clear_of_ties (fR t * fR rate)) l ->
  exists ms,
    tau_generator x rate (TArr l) even (ofZ M) = Ok (x, ms, map (fun m => f_ofZ m / rate)%float ms) /\
    tau_generator y (fR rate) (TArr (map fR l)) even (IZR M) = Ok (y, ms, map (fun m => IZR m / fR rate) ms) /\
    Forall (fun m => Rabs (fR (f_ofZ m / rate)%float - IZR m / fR rate) <= u64 * Rabs (IZR m / fR rate)) ms.
Proof.
  intros Hs Hn Hl HM Hc.
  set (ks := flat_map (fun t => match f_rint (t * rate)%float with Some k => [k] | None => [] end) l).
  apply (same_selection x y rate (TArr l) (TArr (map fR l)) even M l (map fR l) ks); auto.
  - intro k. unfold ks. rewrite in_flat_map. cbn [nrint nmul FNum]. split.
    + intros (t & Ht & E). exists t. rewrite E. cbn. auto.
    + intros (t & Ht & E). exists t. split; [exact Ht|]. destruct (f_rint _); [|destruct E]. destruct E as [->|[]]. reflexivity.
  - intro k. unfold ks. rewrite in_flat_map. cbn [nrint nmul RNum]. rewrite Forall_forall in Hc. split.
    + intros (t & Ht & E). apply in_map_iff in Ht as (w & <- & Hw). destruct (Hc w Hw) as [Fw Cw].
      destruct (clear_rint w rate Fw (proj1 Hs) Cw) as (m & Em & Hm). exists w. split; [exact Hw|]. rewrite Em.
      injection E as <-. apply rintR_iff in Hm. rewrite Hm. now left.
    + intros (w & Hw & E). destruct (Hc w Hw) as [Fw Cw].
      destruct (clear_rint w rate Fw (proj1 Hs) Cw) as (m & Em & Hm). rewrite Em in E. destruct E as [->|[]].
      exists (fR w). split; [now apply in_map|]. f_equal. now apply rintR_iff.
Qed.
Print Assumptions C80_explicit.

(** Away from the safe range, or at a rounding boundary, binary64 and exact arithmetic part. *)
(** 0x1.6666666666666p-2 is the double nearest to 0.35. *)
Lemma fR_035 : fR 0x1.6666666666666p-2%float = 6305039478318694 * / 2 ^ 54.
Proof. rewrite fR_SF. replace (FloatOps.Prim2SF 0x1.6666666666666p-2%float) with (S754_finite false 6305039478318694 (-54)) by reflexivity. cbn. unfold F2R. cbn. lra. Qed.
Lemma fR_10 : fR 10%float = 10.
Proof. rewrite fR_SF. replace (FloatOps.Prim2SF 10%float) with (S754_finite false 5629499534213120 (-49)) by reflexivity. cbn. unfold F2R. cbn. lra. Qed.

Lemma safe_10 : safe_rate 10%float.
Proof.
  split; [now apply ffin_SF|]. rewrite fR_10, Rabs_pos_eq by lra. split.
  - apply Rle_trans with (bpow radix2 0); [apply bpow_le; lia|cbn; lra].
  - apply Rle_trans with (bpow radix2 4); [cbn; lra|apply bpow_le; lia].
Qed.

Theorem C80_explicit_ties_refuted :
  exists (x : list float) (y : list R) (rate t : float),
    safe_rate rate /\ ffin t /\ len y = len x /\
    tau_generator x rate (TArr [t]) false (ofZ (-1)) = Ok (x, [4%Z], [f_ofZ 4 / rate]%float) /\
    tau_generator y (fR rate) (TArr [fR t]) false (-1) = Ok (y, [3%Z], [3 / fR rate]).
Proof.
  exists (repeat 0%float 9), (repeat 0 9), 10%float, 0x1.6666666666666p-2%float.
  split; [exact safe_10|]. split; [now apply ffin_SF|]. split; [reflexivity|]. split; [vm_compute; reflexivity|].
  assert (Nz : fR 10%float <> 0) by (apply safe_nz, safe_10).
  assert (E : rintR (fR 0x1.6666666666666p-2%float * fR 10%float) = 3%Z).
  { apply rintR_iff. left. rewrite fR_035, fR_10. apply Rabs_def1; lra. }
  assert (S : forall mx, 9 <= mx -> select_m 9 (fR 10%float) mx [fR 0x1.6666666666666p-2%float] = [3%Z]).
  { intros mx Hmx. unfold select_m. cbn [flat_map nrint nmul RNum]. rewrite E. cbn [nleb ofZ RNum].
    rewrite (proj2 (Rleb_true 3 mx)) by lra. reflexivity. }
  unfold tau_generator. cbn [neqb RNum ofZ expand_taus bind]. rewrite (proj2 (Reqb_false _ 0) Nz).
  rewrite (proj2 (Reqb_true (-1) (-1)) eq_refl). rewrite repeat_length, S; [reflexivity|].
  unfold ofN. cbn. lra.
Qed.
Print Assumptions C80_explicit_ties_refuted.

Theorem C80_tiny_rate_refuted :
  exists (x : list float) (y : list R) (rate : float),
    ffin rate /\ 0 < fR rate /\ len y = len x /\
    tau_generator x rate (TStr "all") false (ofZ (-1)) = Ok (x, [], []) /\
    tau_generator y (fR rate) (TStr "all") false (-1) = Ok (y, [1; 2]%Z, [1 / fR rate; 2 / fR rate]).
Proof.
  exists [0; 0; 0]%float, [0; 0; 0], 0x1p-1060%float.
  assert (P : 0 < fR 0x1p-1060%float).
  { rewrite fR_SF. replace (FloatOps.Prim2SF 0x1p-1060%float) with (S754_finite false 16384 (-1074)) by reflexivity.
    apply F2R_gt_0. reflexivity. }
  split; [now apply ffin_SF|]. split; [exact P|]. split; [reflexivity|]. split; [vm_compute; reflexivity|].
  rewrite tau_all by lra. cbn. repeat f_equal; lra.
Qed.
Print Assumptions C80_tiny_rate_refuted.

Example C80_ex : let x := [0; 1; 3; 2; 5; 4; 1; 0; 2; 7; 7; 1]%float in
  tau_generator x 10%float (TStr "decade") false (ofZ (-1)) = Ok (x, [1; 2; 4; 10]%Z, map (fun m => f_ofZ m / 10)%float [1; 2; 4; 10]%Z) /\
  exists ms, tau_generator (map fR x) (fR 10%float) (TStr "decade") false (-1) = Ok (map fR x, ms, map (fun m => IZR m / fR 10%float) ms) /\ ms = [1; 2; 4; 10]%Z.
Proof.
  intro x. assert (H : tau_generator x 10%float (TStr "decade") false (ofZ (-1)) = Ok (x, [1; 2; 4; 10]%Z, map (fun m => f_ofZ m / 10)%float [1; 2; 4; 10]%Z))
    by (vm_compute; reflexivity).
  split; [exact H|].
  destruct (C80_keywords x (map fR x) 10%float (TStr "decade") (TStr "decade") "decade" false (-1)) as (ms & HF & HR & _).
  - exact safe_10.
  - cbn. lia.
  - cbn. lia.
  - reflexivity.
  - lia.
  - cbn. tauto.
  - now left.
  - now left.
  - exists ms. split; [exact HR|]. rewrite HF in H. now injection H.
Qed.

Example C80_ex_idempotent : let x := [0; 1; 3; 2; 5; 4; 1]%float in
  tau_generator x 10%float (TStr "all") false (ofZ (-1)) = Ok (x, [1; 2; 3; 4; 5; 6]%Z, map (fun m => f_ofZ m / 10)%float [1; 2; 3; 4; 5; 6]%Z) /\
  tau_generator x 10%float (TArr (map (fun m => f_ofZ m / 10)%float [1; 2; 3; 4; 5; 6]%Z)) false (ofZ (-1)) =
  Ok (x, [1; 2; 3; 4; 5; 6]%Z, map (fun m => f_ofZ m / 10)%float [1; 2; 3; 4; 5; 6]%Z).
Proof.
  intro x. assert (H : tau_generator x 10%float (TStr "all") false (ofZ (-1)) =
    Ok (x, [1; 2; 3; 4; 5; 6]%Z, map (fun m => f_ofZ m / 10)%float [1; 2; 3; 4; 5; 6]%Z)) by (vm_compute; reflexivity).
  split; [exact H|]. apply (C80_idempotent x 10%float (TStr "all")); [exact safe_10|cbn; lia|exact H].
Qed.

(** [clear_of_ties] holds at every whole multiple of the sample interval. *)
Example C80_ex_explicit : ffin 0.5%float /\ clear_of_ties (fR 0.5%float * fR 10%float).
Proof.
  split; [now apply ffin_SF|].
  assert (E : fR 0.5%float = / 2).
  { rewrite fR_SF. replace (FloatOps.Prim2SF 0.5%float) with (S754_finite false 4503599627370496 (-53)) by reflexivity.
    cbn. unfold F2R. cbn. lra. }
  rewrite E, fR_10. replace (/ 2 * 10) with (IZR 5) by lra. split; [apply mid_Z; lia|].
  intro k. rewrite (Rabs_pos_eq 5) by lra. apply Rlt_le_trans with (/ 2); [unfold u64; lra|].
  destruct (Z_le_gt_dec k 4) as [L|L].
  - apply IZR_le in L. rewrite Rabs_pos_eq; lra.
  - assert (L' : (5 <= k)%Z) by lia. apply IZR_le in L'. rewrite Rabs_left; lra.
Qed.
