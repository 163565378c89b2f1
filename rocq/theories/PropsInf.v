(** * C111: infinite samples. *)
From Coq Require Import String List ZArith Lia Arith Bool Sorted Floats.
From Coq Require Import Reals Lra.
From Flocq Require Import Core.Core.
From Verif Require Import Base Num NpList ModelCore ModelDev ListFacts GenericProofs NanProofs NumF NumX NumR FloatFacts SpecialProofs InfProofs PropsNan.
Import ListNotations.
Local Notation len := List.length.
Local Notation float := Coq.Floats.PrimFloat.float.
Local Open Scope num_scope.

(** ** the special values of binary64 follow the extended reals *)
Theorem C111_rules (a b : float) :
  (nonfinite (toX a) \/ nonfinite (toX b) ->
    toX (a + b)%float = toX a + toX b /\ toX (a - b)%float = toX a - toX b /\ toX (a * b)%float = toX a * toX b) /\
  (nonfinite (toX a) \/ nonfinite (toX b) \/ toX b = Fin 0 -> Prim2SF b <> S754_zero true -> toX (a / b)%float = toX a / toX b) /\
  ((forall r, toX a = Fin r -> (r < 0)%R) -> toX (PrimFloat.sqrt a) = nsqrt (toX a)) /\
  toX (PrimFloat.abs a) = nabs (toX a) /\
  nltb a b = nltb (toX a) (toX b) /\ nleb a b = nleb (toX a) (toX b) /\ neqb a b = neqb (toX a) (toX b) /\
  nisnan a = nisnan (toX a) /\
  (nonfinite (toX a) -> nrint a = nrint (toX a) /\ ntrunc a = ntrunc (toX a)).
Proof.
  split; [intros H; split; [now apply X_add|split; [now apply X_sub|now apply X_mul]]|].
  split; [apply X_div|]. split; [apply X_sqrt|]. split; [apply X_abs|]. split; [apply X_ltb|]. split; [apply X_leb|].
  split; [apply X_eqb|]. split; [apply X_isnan|]. intros H. cbn [nrint ntrunc FNum XNum]. destruct (X_rint a H) as [-> ->].
  destruct (toX a); [discriminate|auto|auto].
Qed.
Print Assumptions C111_rules.
Example C111_rules_ex : toX infinity = Inf false /\ toX neg_infinity = Inf true /\ toX nan = NaN /\ toX 0%float = Fin 0 /\
  toX (infinity - infinity)%float = NaN /\ toX (infinity * 0)%float = NaN /\ toX (1 / 0)%float = Inf false /\ toX (PrimFloat.abs neg_infinity) = Inf false /\
  toX (PrimFloat.sqrt (-1)%float) = NaN /\ PrimFloat.ltb neg_infinity 3 = true /\ PrimFloat.eqb nan nan = false /\ f_rint infinity = None.
Proof.
  assert (H0 : toX 0%float = Fin 0) by (unfold toX; rewrite fR_SF; reflexivity). repeat split; auto.
Qed.

(** ** which rows are infinite and which are NaN *)
(** even m: every point but the last; m = 1 is the Allan deviation *)
Definition pdev_even (N m p : nat) : Prop := m = 1%nat \/ (Nat.even m = true /\ p + 1 < N)%nat.
(** odd m > 1: the points in the middle of one of the two halves of a window of 2m points *)
Definition pdev_middle (N m p : nat) : Prop :=
  exists h i, (m = 2 * h + 1 /\ 1 <= h /\ i + 2 * m < N /\ (p = i + h \/ p = i + m + h))%nat.
(** the point is in two of the windows of mdev that follow one another *)
Definition in_two_steps (N m p : nat) : Prop :=
  (p < m /\ p + 3 * m < N \/ m <= p < 2 * m /\ p + 2 * m < N \/ 2 * m <= p /\ p + m < N)%nat.
Definition in_one_step (N m p : nat) : Prop := ~ in_two_steps N m p.

Section Table.
Context {A : Type} {NA : Num A} (sp : A -> ext).
Definition inf_table : list (dev_fun * (nat -> nat -> nat -> Prop) * bool) :=
  [ (adev, multiples, true); (hdev, multiples, true); (oadev, in_triple, true); (ohdev, in_quadruple, true); (tierms, in_pair, false);
    (mtie, every_point, true); (pdev, pdev_even, true); (mdev, in_one_step, true); (tdev, in_one_step, true) ].
Definition invalid_table : list (dev_fun * (nat -> nat -> nat -> Prop) * bool) :=
  [ (mdev, in_two_steps, true); (tdev, in_two_steps, true); (pdev, pdev_middle, true) ].

(** sample p is infinite, the others are finite and below 2^800 *)
Definition one_infinite (x : list A) (p : nat) (s : bool) : Prop :=
  (exists a, nth_error x p = Some a /\ sp a = Inf s) /\
  forall i b, i <> p -> nth_error x i = Some b -> exists r, sp b = Fin r /\ (Rabs r <= bpow radix2 800)%R.
Definition sane (N : nat) (rate : A) : Prop := (Z.of_nat N <= 2 ^ 49)%Z /\ exists r, sp rate = Fin r /\ (bpow radix2 (-100) <= r <= bpow radix2 100)%R.

(** every row using the point reports v *)
Definition reports (v : ext) (N p : nat) (uses : nat -> nat -> nat -> Prop) (with_err : bool) (rate : A) (r : @result A) : Prop :=
  exists rows, r = of_rows rate rows /\ StronglySorted lt (map row_m rows) /\
  Forall (fun '(m, d, e, n) => (1 <= m < N)%nat /\ (uses N m p -> sp d = v /\ (with_err = true -> sp e = v))) rows.
End Table.

Section Thm.
Context {A : Type} {NA : Num A} (sp : A -> ext) (rd : R -> R) (SP : special sp rd).
Context (x : list A) (rate : A) (p : nat) (s : bool).
Hypothesis Hone : one_infinite sp x p s.
Hypothesis Hsane : sane sp (len x) rate.
Let val i := nth i x (ofZ 0).
Lemma Hp : (p < len x)%nat.
Proof using Hone. destruct Hone as [(a & E & _) _]. apply nth_error_Some. congruence. Qed.
Lemma Hinf : sp (val p) = Inf s.
Proof using Hone. destruct Hone as [(a & E & H) _]. unfold val. now rewrite (nth_error_nth _ _ _ E). Qed.
Lemma Hfin i : i <> p -> below sp 1 800 (val i).
Proof using Hone SP.
  intros Hi. destruct Hone as [_ H]. unfold val. destruct (nth_error x i) as [b|] eqn:E.
  - rewrite (nth_error_nth _ _ _ E). destruct (H i b Hi E) as (r & Er & Hr). exists r. split; [exact Er|]. lra.
  - apply nth_error_None in E. rewrite nth_overflow by exact E. apply (below_le sp 0); [lia|]. apply (below_zero sp rd SP).
Qed.
Lemma Hlen : (Z.of_nat (len x) <= 2 ^ 49)%Z.
Proof using Hsane. apply Hsane. Qed.
Lemma Hrate : within sp 100 rate.
Proof using Hsane. apply Hsane. Qed.

Lemma err_inf d e k n : e = d / nsqrt (ofZ k) -> k = n -> (1 <= n <= 2 ^ 49)%Z -> pinf sp d -> sp d = Inf false /\ (true = true -> sp e = Inf false).
Proof using SP.
  intros -> -> Hk Hd. split; [exact Hd|]. intros _. apply (pinf_div sp rd SP 49); [exact Hd|]. apply (within_sqrt sp rd SP); [lia|].
  apply (within_ofZ sp rd SP); lia.
Qed.
Lemma strided_le a t : (1 <= t)%nat -> (stride_count (len x) a t <= len x)%nat.
Proof.
  intros Ht. destruct (Nat.le_gt_cases (stride_count (len x) a t) (len x)) as [L|L]; [exact L|]. apply stride_count_lt in L; [nia|exact Ht].
Qed.

Lemma mdev_rows taus q : mdev x rate "phase" taus = Ok q -> exists rows, q = of_rows rate rows /\
    StronglySorted lt (map (fun '(m, _, _, _) => m) rows) /\
    Forall (fun '(m, d, e, n) => (1 <= m < len x)%nat /\ (3 * m < len x)%nat /\ d = mdev_val x rate m /\ e = d / nsqrt (ofZ n) /\ n = Z.of_nat (S (len x - 3 * m))) rows.
Proof.
  intros Hq. apply (gen_rows x rate taus false (ofZ (-1)) (fun y => calc_mdev_phase y rate)) in Hq as (rows & -> & Hs & Hf).
  exists rows. split; [reflexivity|]. split; [exact Hs|]. eapply Forall_impl; [|exact Hf].
  intros [[[m d] e] n] (Hm & Hc & Hn). rewrite calc_mdev_form in Hc. injection Hc as <- <- <-. split; [exact Hm|]. split; [lia|]. auto.
Qed.
Lemma sqrt3 : within sp 2 (nsqrt (ofZ 3)).
Proof using SP. apply (within_sqrt sp rd SP); [lia|]. apply (within_ofZ sp rd SP); lia. Qed.

Theorem C111_infinite f uses with_err taus r : In (f, uses, with_err) inf_table -> f x rate "phase"%string taus = Ok r ->
  reports sp (Inf false) (len x) p uses with_err rate r.
Proof using All.
  intros Hin Hr. pose proof Hp as P1. pose proof Hinf as P2. pose proof Hfin as P3. pose proof Hlen as P4. pose proof Hrate as P5.
  assert (Hmake : forall rows (Q : nat -> A -> A -> Z -> Prop), r = of_rows rate rows -> StronglySorted lt (map (fun '(m, _, _, _) => m) rows) ->
    Forall (fun '(m, d, e, n) => Q m d e n) rows ->
    (forall m d e n, Q m d e n -> (1 <= m < len x)%nat /\ (uses (len x) m p -> sp d = Inf false /\ (with_err = true -> sp e = Inf false))) ->
    reports sp (Inf false) (len x) p uses with_err rate r).
  { intros rows Q -> Hs Hf H. exists rows. split; [reflexivity|]. split.
    - rewrite (map_ext row_m (fun '(m, _, _, _) => m)); [exact Hs|]. now intros [[[m d] e] n].
    - eapply Forall_impl; [|exact Hf]. intros [[[m d] e] n] Hq. now apply (H m d e n). }
  assert (Hadev : forall m t d e n i, (1 <= m < len x)%nat -> (1 <= t)%nat -> calc_adev_phase x rate m t = Ok (d, e, n) -> (i < stride_count (len x) (2 * m) t)%nat ->
    (p = 2 * m + i * t \/ p = 1 * m + i * t \/ p = 0 + i * t)%nat -> sp d = Inf false /\ (true = true -> sp e = Inf false)).
  { intros m t d e n i Hm Ht Hc Hi Hu. rewrite calc_adev_form in Hc by lia. injection Hc as <- <- <-.
    apply (err_inf _ _ _ (Z.of_nat (adev_cnt (len x) m t)) eq_refl eq_refl).
    - pose proof (strided_le (2 * m) t Ht). unfold adev_cnt. destruct (Nat.eqb_spec (stride_count (len x) (2 * m) t) 0); lia.
    - apply (adev_pinf sp rd SP x rate p s P1 P2 P3 P4 P5 m t i); assumption. }
  assert (Hhdev : forall m t d e n i, (1 <= m < len x)%nat -> (1 <= t)%nat -> calc_hdev_phase x rate m t = Ok (d, e, n) -> (i < stride_count (len x) (3 * m) t)%nat ->
    (p = 3 * m + i * t \/ p = 2 * m + i * t \/ p = 1 * m + i * t \/ p = 0 + i * t)%nat -> sp d = Inf false /\ (true = true -> sp e = Inf false)).
  { intros m t d e n i Hm Ht Hc Hi Hu. rewrite calc_hdev_form in Hc by lia. injection Hc as <- <- <-.
    apply (err_inf _ _ _ (Z.of_nat (hdev_cnt (len x) m t)) eq_refl eq_refl).
    - pose proof (strided_le (3 * m) t Ht). unfold hdev_cnt. destruct (Nat.eqb_spec (stride_count (len x) (3 * m) t) 0); lia.
    - apply (hdev_pinf sp rd SP x rate p s P1 P2 P3 P4 P5 m t i); assumption. }
  repeat (destruct Hin as [E|Hin]; [injection E as <- <- <-|]); [..|destruct Hin].
  - (* adev *)
    apply (gen_rows x rate taus false (ofZ (-1)) (fun y mj => calc_adev_phase y rate mj mj)) in Hr as (rows & -> & Hs & Hf).
    refine (Hmake rows _ eq_refl Hs Hf _). intros m d e n (Hm & Hc & Hn). split; [exact Hm|]. intros [k E].
    assert (H2 : (0 < stride_count (len x) (2 * m) m)%nat).
    { pose proof Hc as Hc'. rewrite calc_adev_form in Hc' by lia. injection Hc' as _ _ <-. unfold adev_cnt in Hn.
      destruct (Nat.eqb_spec (stride_count (len x) (2 * m) m) 0); lia. }
    destruct k as [|[|k]].
    + apply (Hadev m m d e n 0%nat); try assumption; lia.
    + apply (Hadev m m d e n 0%nat); try assumption; lia.
    + apply (Hadev m m d e n k); try assumption; [lia|apply stride_count_lt; lia|lia].
  - (* hdev *)
    apply (gen_rows x rate taus false (ofZ (-1)) (fun y mj => calc_hdev_phase y rate mj mj)) in Hr as (rows & -> & Hs & Hf).
    refine (Hmake rows _ eq_refl Hs Hf _). intros m d e n (Hm & Hc & Hn). split; [exact Hm|]. intros [k E].
    assert (H2 : (0 < stride_count (len x) (3 * m) m)%nat).
    { pose proof Hc as Hc'. rewrite calc_hdev_form in Hc' by lia. injection Hc' as _ _ <-. unfold hdev_cnt in Hn.
      destruct (Nat.eqb_spec (stride_count (len x) (3 * m) m) 0); lia. }
    destruct k as [|[|[|k]]].
    + apply (Hhdev m m d e n 0%nat); try assumption; lia.
    + apply (Hhdev m m d e n 0%nat); try assumption; lia.
    + apply (Hhdev m m d e n 0%nat); try assumption; lia.
    + apply (Hhdev m m d e n k); try assumption; [lia|apply stride_count_lt; lia|lia].
  - (* oadev *)
    apply (gen_rows x rate taus false (ofZ (-1)) (fun y mj => calc_adev_phase y rate mj 1)) in Hr as (rows & -> & Hs & Hf).
    refine (Hmake rows _ eq_refl Hs Hf _). intros m d e n (Hm & Hc & Hn). split; [exact Hm|]. intros (i & Hi & Hpi).
    apply (Hadev m 1%nat d e n i); try assumption; [lia|apply stride_count_lt; lia|lia].
  - (* ohdev *)
    apply (gen_rows x rate taus false (ofZ (-1)) (fun y mj => calc_hdev_phase y rate mj 1)) in Hr as (rows & -> & Hs & Hf).
    refine (Hmake rows _ eq_refl Hs Hf _). intros m d e n (Hm & Hc & Hn). split; [exact Hm|]. intros (i & Hi & Hpi).
    apply (Hhdev m 1%nat d e n i); try assumption; [lia|apply stride_count_lt; lia|lia].
  - (* tierms *)
    apply (gen_rows x rate taus false (ofZ (-1)) (fun _ => calc_tierms x)) in Hr as (rows & -> & Hs & Hf).
    refine (Hmake rows _ eq_refl Hs Hf _). intros m d e n (Hm & Hc & Hn). split; [exact Hm|]. intros (i & Hi & Hpi).
    split; [|discriminate]. rewrite calc_tierms_form in Hc. injection Hc as <- _ _.
    apply (tierms_pinf sp rd SP x rate p s P1 P2 P3 P4 P5 m Hm). lia.
  - (* mtie *)
    apply (gen_rows x rate taus false (ofZ (-1)) (fun y => calc_mtie y)) in Hr as (rows & -> & Hs & Hf).
    refine (Hmake rows _ eq_refl Hs Hf _). intros m d e n (Hm & Hc & Hn). split; [exact Hm|]. intros _.
    destruct (mtie_pinf sp rd SP x rate p s P1 P2 P3 P4 P5 m d e n Hm Hc) as [H1 H2]. split; [exact H1|]. intros _. exact H2.
  - (* pdev *)
    apply (gen_rows x rate taus false (ofZ (-1)) (fun y => calc_pdev_phase y rate)) in Hr as (rows & -> & Hs & Hf).
    refine (Hmake rows _ eq_refl Hs Hf _). intros m d e n (Hm & Hc & Hn). split; [exact Hm|]. intros Hu.
    destruct (Nat.eq_dec m 1) as [->|H1].
    + assert (Hc' : calc_adev_phase x rate 1 1 = Ok (d, e, n)) by (rewrite <- Hc; reflexivity).
      assert (Hn' : (3 <= len x)%nat).
      { pose proof Hc' as G. rewrite calc_adev_form in G by lia. injection G as _ _ <-. unfold adev_cnt in Hn. rewrite stride_count_1 in Hn.
        destruct (Nat.eqb_spec (len x - 2 * 1) 0); lia. }
      apply (Hadev 1%nat 1%nat d e n (Nat.min p (len x - 3))); try assumption; [lia|apply stride_count_lt; lia|lia].
    + destruct Hu as [Hu|[He Hq]]; [contradiction|]. rewrite calc_pdev_form in Hc. injection Hc as <- <- <-.
      unfold pdev_cnt in Hn. rewrite (proj2 (Nat.eqb_neq m 1) H1) in Hn. destruct (Z.ltb_spec (pdev_M (len x) m) 1); [lia|]. unfold pdev_M in *.
      destruct (pdev_pinf sp rd SP x rate p s P1 P2 P3 P4 P5 m) as [D1 D2]; [lia|lia|exact He|exact Hq|]. split; [exact D1|]. intros _. exact D2.
  - (* mdev *)
    destruct (mdev_rows taus r Hr) as (rows & -> & Hs & Hf).
    refine (Hmake rows _ eq_refl Hs Hf _). intros m d e n (Hm & H3 & -> & -> & ->). split; [exact Hm|]. intros Hu.
    apply (err_inf _ _ _ (Z.of_nat (S (len x - 3 * m))) eq_refl eq_refl); [lia|].
    apply (mdev_pinf sp rd SP x rate p s P1 P2 P3 P4 P5 m); [lia|exact H3|exact Hu].
  - (* tdev *)
    unfold tdev in Hr. cbn [input_to_phase String.eqb Ascii.eqb Bool.eqb bind] in Hr.
    destruct (mdev x rate "phase" taus) as [q|] eqn:E; cbn [bind] in Hr; [|discriminate].
    destruct (mdev_rows taus q E) as (rows & -> & Hs & Hf). rewrite scale_tdev_rows in Hr. injection Hr as <-.
    eexists. split; [reflexivity|]. split.
    + rewrite map_map. rewrite (map_ext _ (fun '(m, _, _, _) => m)); [exact Hs|]. now intros [[[m d] e] n].
    + apply Forall_map. eapply Forall_impl; [|exact Hf]. intros [[[m d] e] n] (Hm & H3 & -> & _ & ->). split; [exact Hm|]. intros Hu.
      apply (err_inf _ _ _ (Z.of_nat (S (len x - 3 * m))) eq_refl eq_refl); [lia|].
      apply (pinf_div sp rd SP 2); [|exact sqrt3]. apply (pinf_mul_l sp rd SP (49 + 100)).
      * apply (within_div sp rd SP); [lia|lia|lia|apply (within_ofN sp rd SP); lia|exact P5].
      * apply (mdev_pinf sp rd SP x rate p s P1 P2 P3 P4 P5 m); [lia|exact H3|exact Hu].
Qed.

Theorem C111_invalid (NS : nan_strict A) f uses with_err taus r : In (f, uses, with_err) invalid_table -> f x rate "phase"%string taus = Ok r ->
  reports sp NaN (len x) p uses with_err rate r.
Proof using All.
  intros Hin Hr. pose proof Hp as P1. pose proof Hinf as P2. pose proof Hfin as P3. pose proof Hlen as P4. pose proof Hrate as P5.
  assert (Hnn : forall a, nisnan a = true -> sp a = NaN) by (intros a; apply (isnan_iff sp rd SP x rate p s P1 P2 P3 P4 P5)).
  assert (Hde : forall d q, nisnan d = true -> sp d = NaN /\ (true = true -> sp (d / q) = NaN)).
  { intros d q H. split; [auto|]. intros _. apply Hnn, (ns_div _ NS). now left. }
  assert (Hmake : forall rows (Q : nat -> A -> A -> Z -> Prop), r = of_rows rate rows -> StronglySorted lt (map (fun '(m, _, _, _) => m) rows) ->
    Forall (fun '(m, d, e, n) => Q m d e n) rows ->
    (forall m d e n, Q m d e n -> (1 <= m < len x)%nat /\ (uses (len x) m p -> sp d = NaN /\ (with_err = true -> sp e = NaN))) ->
    reports sp NaN (len x) p uses with_err rate r).
  { intros rows Q -> Hs Hf H. exists rows. split; [reflexivity|]. split.
    - rewrite (map_ext row_m (fun '(m, _, _, _) => m)); [exact Hs|]. now intros [[[m d] e] n].
    - eapply Forall_impl; [|exact Hf]. intros [[[m d] e] n] Hq. now apply (H m d e n). }
  repeat (destruct Hin as [E|Hin]; [injection E as <- <- <-|]); [..|destruct Hin].
  - (* mdev *)
    destruct (mdev_rows taus r Hr) as (rows & -> & Hs & Hf).
    refine (Hmake rows _ eq_refl Hs Hf _). intros m d e n (Hm & H3 & -> & -> & ->). split; [exact Hm|]. intros Hu. apply Hde.
    apply (mdev_isnan sp rd SP x rate p s P1 P2 P3 P4 P5 NS m); [lia|exact H3|exact Hu].
  - (* tdev *)
    unfold tdev in Hr. cbn [input_to_phase String.eqb Ascii.eqb Bool.eqb bind] in Hr.
    destruct (mdev x rate "phase" taus) as [q|] eqn:E; cbn [bind] in Hr; [|discriminate].
    destruct (mdev_rows taus q E) as (rows & -> & Hs & Hf). rewrite scale_tdev_rows in Hr. injection Hr as <-.
    eexists. split; [reflexivity|]. split.
    + rewrite map_map. rewrite (map_ext _ (fun '(m, _, _, _) => m)); [exact Hs|]. now intros [[[m d] e] n].
    + apply Forall_map. eapply Forall_impl; [|exact Hf]. intros [[[m d] e] n] (Hm & H3 & -> & _ & ->). split; [exact Hm|]. intros Hu. apply Hde.
      apply (ns_div _ NS). left. apply (ns_mul _ NS). right.
      apply (mdev_isnan sp rd SP x rate p s P1 P2 P3 P4 P5 NS m); [lia|exact H3|exact Hu].
  - (* pdev *)
    apply (gen_rows x rate taus false (ofZ (-1)) (fun y => calc_pdev_phase y rate)) in Hr as (rows & -> & Hs & Hf).
    refine (Hmake rows _ eq_refl Hs Hf _). intros m d e n (Hm & Hc & Hn). split; [exact Hm|]. intros (h & i & Eh & Hh & Hi & Hpi).
    rewrite calc_pdev_form in Hc. injection Hc as <- <- <-.
    destruct (pdev_isnan sp rd SP x rate p s P1 P2 P3 P4 P5 NS m h) as [D1 D2]; [exact Eh|exact Hh|lia|eauto|]. split; [auto|]. intros _. auto.
Qed.
End Thm.
Print Assumptions C111_infinite.
Print Assumptions C111_invalid.

(** both arithmetics qualify *)
Theorem C111_binary64 : @special float FNum toX rnd.
Proof. exact special_float. Qed.
Print Assumptions C111_binary64.
Theorem C111_extended : @special ext XNum (fun a => a) (fun r => r).
Proof. exact special_ext. Qed.
Print Assumptions C111_extended.

Local Open Scope float_scope.
Definition spike (p : nat) (v : float) : list float := firstn p whole ++ v :: skipn (S p) whole.
Definition kind (a : float) : string := match Prim2SF a with S754_nan => "nan" | S754_infinity false => "inf" | S754_infinity true => "-inf" | _ => "finite" end.
Definition kinds (r : res (@result float)) : list string := map kind (devs_of r).
Example C111_ex : nth_error (spike 6 infinity) 6 = Some infinity /\ nth_error (spike 9 neg_infinity) 9 = Some neg_infinity /\
  kinds (adev (spike 6 infinity) 1 "phase" (TList [1; 2; 3; 4])) = ["inf"; "inf"; "inf"]%string /\
  kinds (oadev (spike 4 infinity) 1 "phase" (TList [1; 2; 3; 4])) = ["inf"; "inf"; "inf"; "inf"]%string /\
  kinds (ohdev (spike 9 neg_infinity) 1 "phase" (TList [1; 2])) = ["inf"; "inf"]%string /\
  kinds (tierms (spike 4 infinity) 1 "phase" (TList [1; 5; 6; 7])) = ["inf"; "inf"; "finite"; "finite"]%string /\
  kinds (mtie (spike 4 neg_infinity) 1 "phase" (TList [1; 5; 6])) = ["inf"; "inf"; "inf"]%string /\
  kinds (mdev (spike 6 infinity) 1 "phase" (TList [1; 2; 3])) = ["nan"; "nan"; "nan"]%string /\
  kinds (mdev (spike 9 neg_infinity) 1 "phase" (TList [1; 2; 3])) = ["inf"; "inf"; "inf"]%string /\
  kinds (tdev (spike 5 neg_infinity) 1 "phase" (TList [1; 2; 3])) = ["nan"; "nan"; "inf"]%string /\
  kinds (pdev (spike 4 infinity) 1 "phase" (TList [1; 2; 3])) = ["inf"; "inf"; "nan"]%string.
Proof. vm_compute. repeat split. Qed.
Example C111_ex_hyp : one_infinite toX (spike 9 neg_infinity) 9 true /\ sane toX (len (spike 9 neg_infinity)) 1 /\ in_one_step 10 3 9 /\ in_two_steps 10 3 6 /\
  pdev_middle 10 3 4 /\ pdev_even 10 2 4.
Proof.
  assert (Hv : forall z, (Z.abs z <= 16)%Z -> exists r, toX (f_ofZ z) = Fin r /\ (Rabs r <= bpow radix2 800)%R).
  { intros z Hz. exists (IZR z). destruct (fofZ_ok z) as [F V]; [lia|]. split; [rewrite (proj1 (toX_fin _) F), V; reflexivity|].
    rewrite <- abs_IZR. apply Rle_trans with (IZR 16); [apply IZR_le, Hz|]. apply (bpow_le radix2 4 800). lia. }
  split; [split|].
  - exists neg_infinity. split; reflexivity.
  - intros i b Hi Hb. assert (Hl : (i < 10)%nat).
    { change 10%nat with (len (spike 9 neg_infinity)). apply nth_error_Some. congruence. }
    do 10 (destruct i as [|i]; [try contradiction; injection Hb as <-; match goal with |- exists r, toX ?v = _ /\ _ => 
      first [change v with (f_ofZ 0)|change v with (f_ofZ 1)|change v with (f_ofZ 4)|change v with (f_ofZ 9)|change v with (f_ofZ 16)|change v with (f_ofZ 3)|change v with (f_ofZ 5)|change v with (f_ofZ 2)] end; apply Hv; lia|]). lia.
  - split.
    + split; [vm_compute; discriminate|]. exists 1%R. destruct (fofZ_ok 1) as [F V]; [lia|]. split.
      * change (toX (f_ofZ 1) = Fin 1). rewrite (proj1 (toX_fin _) F), V. reflexivity.
      * split; [apply (bpow_le radix2 (-100) 0); lia|apply (bpow_le radix2 0 100); lia].
    + unfold in_one_step, in_two_steps, pdev_middle, pdev_even. split; [lia|]. split; [lia|]. split; [exists 1%nat, 3%nat; lia|]. right. split; [reflexivity|lia].
Qed.
