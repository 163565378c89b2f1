(** * Properties of the noise generators of noise.py (C65, C66). *)
From Coq Require Import Floats Reals List ZArith Bool Arith Lia Lra.
From Verif Require Import Base Num NpList NumR NumF Spec ListFacts RSum ModelCore ModelNoise.
Import ListNotations.
Local Open Scope R_scope.
Local Notation len := List.length.

(** ** Specification of the pink noise generator

    The n-th output (from 0) falls in block n / depth at index n mod depth.
    Deviates are numbered in the order they are drawn. *)

(** Output number [t] replaces slot [k]: its index within the block is an odd
    multiple of 2^k. *)
Definition replaces (depth k t : nat) : Prop :=
  (1 <= t)%nat /\ exists j, (t mod depth = (2 * j + 1) * 2 ^ k)%nat.

(** The deviate used by output [t] to replace a slot, and the deviate added
    on top of the slots. *)
Definition fresh (depth t : nat) : nat := ((2 + 2 * (t / depth)) * depth + t mod depth)%nat.
Definition extra (depth t : nat) : nat := ((1 + 2 * (t / depth)) * depth + t mod depth)%nat.

(** At output [n], slot [k] holds deviate number [p]: the one of the latest
    replacement, or the initial deviate [k]. *)
Definition holds (depth n k p : nat) : Prop :=
  (exists t, (t <= n)%nat /\ replaces depth k t /\ p = fresh depth t /\
     forall t', (t < t' <= n)%nat -> ~ replaces depth k t') \/
  (p = k /\ forall t, (t <= n)%nat -> ~ replaces depth k t).

(** ** Trailing zeros *)

Lemma testbit_odd_mul j k : Nat.testbit ((2 * j + 1) * 2 ^ k) k = true.
Proof.
  rewrite <- (Nat.add_0_l k) at 2. rewrite Nat.mul_pow2_bits_add.
  rewrite Nat.bit0_odd, Nat.add_1_r, Nat.odd_succ. apply Nat.even_spec. exists j. lia.
Qed.

Lemma testbit_odd_mul_lt j k c : (c < k)%nat -> Nat.testbit ((2 * j + 1) * 2 ^ k) c = false.
Proof. intro H. apply Nat.mul_pow2_bits_low, H. Qed.

Lemma odd_part i : (1 <= i)%nat -> exists j k, i = ((2 * j + 1) * 2 ^ k)%nat.
Proof.
  induction i as [i IH] using lt_wf_ind. intro Hi.
  destruct (Nat.Even_or_Odd i) as [[h Hh]|[h Hh]].
  - destruct (IH h ltac:(lia) ltac:(lia)) as (j & k & E). exists j, (S k).
    rewrite Nat.pow_succ_r'. lia.
  - exists h, 0%nat. cbn. lia.
Qed.

Lemma ctz_loop_odd j k fuel c : (c <= k)%nat -> (k < fuel + c)%nat ->
  ctz_loop fuel ((2 * j + 1) * 2 ^ k) c = k.
Proof.
  revert c. induction fuel as [|f IH]; intros c H1 H2; [lia|]. cbn [ctz_loop].
  destruct (Nat.eq_dec c k) as [->|Hne].
  - now rewrite testbit_odd_mul.
  - rewrite testbit_odd_mul_lt by lia. apply IH; lia.
Qed.

Lemma ctz_odd j k : ctz ((2 * j + 1) * 2 ^ k) = k.
Proof.
  apply ctz_loop_odd; [lia|].
  pose proof (Nat.pow_gt_lin_r 2 k ltac:(lia)). nia.
Qed.

Lemma ctz_lt i : (1 <= i)%nat -> (2 ^ ctz i <= i)%nat.
Proof. intro H. destruct (odd_part i H) as (j & k & ->). rewrite ctz_odd. nia. Qed.

Lemma ctz_char i k : (1 <= i)%nat -> (ctz i = k <-> exists j, i = ((2 * j + 1) * 2 ^ k)%nat).
Proof.
  intro H. split.
  - intros <-. destruct (odd_part i H) as (j & k & E). exists j. rewrite E at 2. now rewrite ctz_odd.
  - intros (j & ->). apply ctz_odd.
Qed.

(** ** The generator, step by step *)

Section Gen.
Context {A : Type} {NA : Num A}.

Lemma randn_tab (rnd : nat -> A) p n : randn rnd p n = tab n (fun i => rnd (p + i)%nat).
Proof. reflexivity. Qed.

Lemma set_nth_tab n (f : nat -> A) k v : (k < n)%nat ->
  set_nth k v (tab n f) = Ok (tab n (fun i => if Nat.eqb i k then v else f i)).
Proof.
  revert f k. induction n as [|n IH]; intros f k Hk; [lia|].
  rewrite !tab_S. destruct k as [|k]; cbn.
  - reflexivity.
  - rewrite IH by lia. reflexivity.
Qed.

Lemma pyget_nat n (f : nat -> A) i : (i < n)%nat -> pyget (tab n f) (Z.of_nat i) = Ok (f i).
Proof.
  intro H. unfold pyget. destruct (Z.ltb_spec (Z.of_nat i) 0); [lia|].
  destruct (Z.ltb_spec (Z.of_nat i) 0); [lia|].
  rewrite Nat2Z.id, nth_error_tab by exact H. reflexivity.
Qed.

(** number of the deviate in slot k *)
Fixpoint slot (depth n k : nat) : nat :=
  match n with
  | O => k
  | S n' => let i := (S n' mod depth)%nat in
            if (negb (Nat.eqb i 0) && Nat.eqb k (ctz i))%bool then fresh depth (S n')
            else slot depth n' k
  end.

Lemma slot_step depth n k : (1 <= depth)%nat ->
  (replaces depth k (S n) /\ slot depth (S n) k = fresh depth (S n)) \/
  (~ replaces depth k (S n) /\ slot depth (S n) k = slot depth n k).
Proof.
  intro Hd. cbn [slot]. cbv zeta.
  destruct (Nat.eqb_spec (S n mod depth) 0) as [E|E]; cbn [negb andb].
  - right. split; [|reflexivity]. intros [_ (j & Hj)]. rewrite E in Hj.
    pose proof (Nat.pow_nonzero 2 k ltac:(lia)). nia.
  - destruct (Nat.eqb_spec k (ctz (S n mod depth))) as [->|Hk].
    + left. split; [|reflexivity]. split; [lia|]. apply ctz_char; [lia|reflexivity].
    + right. split; [|reflexivity]. intros [_ H]. apply Hk. symmetry. apply ctz_char; [lia|exact H].
Qed.

Lemma slot_holds depth n k : (1 <= depth)%nat -> holds depth n k (slot depth n k).
Proof.
  intro Hd. induction n as [|n IH].
  - right. split; [reflexivity|]. intros t Ht [H _]. lia.
  - destruct (slot_step depth n k Hd) as [[H ->]|[H ->]].
    + left. exists (S n). split; [lia|]. split; [exact H|]. split; [reflexivity|]. intros; lia.
    + destruct IH as [(t & H1 & H2 & H3 & H4)|[H1 H2]].
      * left. exists t. repeat split; try easy; [lia | apply H2 | apply H2 |].
        intros t' Ht'. destruct (Nat.eq_dec t' (S n)) as [->|]; [exact H|]. apply H4; lia.
      * right. split; [exact H1|]. intros t Ht.
        destruct (Nat.eq_dec t (S n)) as [->|]; [exact H|]. apply H2; lia.
Qed.

Lemma holds_fun depth n k p q : holds depth n k p -> holds depth n k q -> p = q.
Proof.
  intros [(t & A1 & A2 & -> & A4)|[-> A5]] [(u & B1 & B2 & -> & B4)|[-> B5]].
  - destruct (lt_eq_lt_dec t u) as [[H|H]|H].
    + exfalso. apply (A4 u); [lia|exact B2].
    + now subst.
    + exfalso. apply (B4 t); [lia|exact A2].
  - exfalso. apply (B5 t); assumption.
  - exfalso. apply (A5 u); assumption.
  - reflexivity.
Qed.

Lemma succ_mod d n : (1 <= d)%nat ->
  (S (n mod d) = d /\ S n mod d = 0 /\ S n / d = S (n / d))%nat \/
  (S (n mod d) <> d /\ S n mod d = S (n mod d) /\ S n / d = n / d)%nat.
Proof.
  intro Hd. pose proof (Nat.div_mod n d ltac:(lia)) as E.
  pose proof (Nat.mod_upper_bound n d ltac:(lia)) as B.
  destruct (Nat.eq_dec (S (n mod d)) d) as [H|H].
  - left. split; [exact H|].
    assert (E' : S n = ((S (n / d)) * d + 0)%nat) by nia.
    split.
    + rewrite E', Nat.add_0_r. apply Nat.mod_mul; lia.
    + rewrite E', Nat.add_0_r at 1. apply Nat.div_mul; lia.
  - right. split; [exact H|].
    assert (E' : S n = (d * (n / d) + S (n mod d))%nat) by lia.
    split.
    + symmetry. apply (Nat.mod_unique _ _ (n / d)); lia.
    + symmetry. apply (Nat.div_unique _ _ _ (S (n mod d))); lia.
Qed.

(** the state at the n-th yield *)
Lemma pink_state_eq (rnd : nat -> A) d n : (1 <= d)%nat -> exists s,
  pink_state rnd d n = Ok (mkP (tab d (fun k => rnd (slot d n k)))
    (randn rnd ((1 + 2 * (n / d)) * d) d) (randn rnd ((2 + 2 * (n / d)) * d) d)
    s (n mod d) ((3 + 2 * (n / d)) * d)%nat).
Proof.
  intro Hd. induction n as [|n [s IH]].
  - rewrite Nat.div_small, Nat.mod_small by lia. eexists. cbn [pink_state].
    unfold pink_init. f_equal. f_equal; try (f_equal; lia); lia.
  - cbn [pink_state]. rewrite IH. cbn [bind]. unfold pink_resume. cbn [p_i p_values p_smooth p_source p_sum p_pos].
    destruct (succ_mod d n Hd) as [(H1 & H2 & H3)|(H1 & H2 & H3)].
    + rewrite (proj2 (Nat.eqb_eq _ _) H1). rewrite H2, H3. eexists. f_equal. f_equal.
      * apply tab_ext. intros k Hk. f_equal. cbn [slot]. now rewrite H2.
      * f_equal; lia.
      * f_equal; lia.
      * lia.
    + rewrite (proj2 (Nat.eqb_neq _ _) H1). cbv zeta. rewrite <- H2.
      pose proof (Nat.mod_upper_bound (S n) d ltac:(lia)) as B.
      assert (Hc : (ctz (S n mod d) < d)%nat).
      { pose proof (ctz_lt (S n mod d) ltac:(lia)).
        pose proof (Nat.pow_gt_lin_r 2 (ctz (S n mod d)) ltac:(lia)). lia. }
      rewrite !randn_tab, pyget_nat by exact B. cbn [bind].
      rewrite pyget_nat by exact Hc. cbn [bind].
      rewrite set_nth_tab by exact Hc. cbn [bind]. eexists. f_equal. rewrite H3. f_equal.
      apply tab_ext. intros k Hk. cbn [slot]. cbv zeta.
      rewrite (proj2 (Nat.eqb_neq (S n mod d) 0)) by lia. cbn [negb andb].
      destruct (Nat.eqb k (ctz (S n mod d))); [|reflexivity].
      unfold fresh. rewrite H3. reflexivity.
Qed.

Lemma iterpink_ok (rnd : nat -> A) d n : (1 <= d)%nat -> exists v, iterpink rnd d n = Ok v.
Proof.
  intro Hd. destruct (pink_state_eq rnd d n Hd) as [s E]. unfold iterpink. rewrite E. cbn [bind].
  unfold pink_yield. cbn [p_smooth p_i p_sum]. rewrite randn_tab, pyget_nat.
  - eexists; reflexivity.
  - apply Nat.mod_upper_bound; lia.
Qed.

Lemma mapM_ok_all {B C} (f : B -> res C) l : (forall x, In x l -> exists v, f x = Ok v) ->
  exists vs, mapM f l = Ok vs /\ len vs = len l.
Proof.
  induction l as [|x l IH]; intro H; [exists []; auto|].
  destruct (H x (or_introl eq_refl)) as [v Hv].
  destruct IH as (vs & E & L); [intros; apply H; now right|].
  exists (v :: vs). cbn. rewrite Hv. cbn. rewrite E. cbn. auto.
Qed.

End Gen.

Lemma bigsum_replace n (f : nat -> R) c v : (c < n)%nat ->
  bigsum n (fun i => if Nat.eqb i c then v else f i) = bigsum n f + (v - f c).
Proof.
  induction n as [|n IH]; intro H; [lia|]. cbn [bigsum].
  destruct (Nat.eqb_spec n c) as [->|Hne].
  - rewrite (bigsum_ext c _ f); [lra|]. intros i Hi.
    now rewrite (proj2 (Nat.eqb_neq i c)) by lia.
  - rewrite IH by lia. lra.
Qed.

(** in the reals the running sum is the sum of the slots *)
Lemma pink_sum (rnd : nat -> R) d n st : (1 <= d)%nat -> pink_state rnd d n = Ok st ->
  p_sum st = bigsum d (fun k => (p_values st).[k]).
Proof.
  intro Hd. revert st. induction n as [|n IH]; intros st E.
  - cbn in E. injection E as <-. cbn. rewrite randn_tab, asum_tab. apply bigsum_ext.
    intros i Hi. now rewrite nth_tab.
  - destruct (pink_state_eq rnd d n Hd) as [s Es]. specialize (IH _ Es).
    destruct (pink_state_eq rnd d (S n) Hd) as [s' Es']. rewrite E in Es'.
    cbn [pink_state] in E. rewrite Es in E. cbn [bind] in E. unfold pink_resume in E.
    cbn [p_i p_values p_smooth p_source p_sum p_pos] in *.
    destruct (succ_mod d n Hd) as [(H1 & H2 & H3)|(H1 & H2 & H3)].
    + rewrite (proj2 (Nat.eqb_eq _ _) H1) in E. injection E as <-. cbn. exact IH.
    + rewrite (proj2 (Nat.eqb_neq _ _) H1) in E. cbv zeta in E. rewrite <- H2 in E.
      pose proof (Nat.mod_upper_bound (S n) d ltac:(lia)) as B.
      assert (Hc : (ctz (S n mod d) < d)%nat).
      { pose proof (ctz_lt (S n mod d) ltac:(lia)).
        pose proof (Nat.pow_gt_lin_r 2 (ctz (S n mod d)) ltac:(lia)). lia. }
      rewrite !randn_tab, pyget_nat in E by exact B. cbn [bind] in E.
      rewrite pyget_nat in E by exact Hc. cbn [bind] in E.
      rewrite set_nth_tab in E by exact Hc. cbn [bind] in E. injection E as <-.
      cbn [p_sum p_values].
      rewrite (bigsum_ext d _ (fun i => if Nat.eqb i (ctz (S n mod d))
         then rnd ((2 + 2 * (n / d)) * d + S n mod d)%nat else rnd (slot d n i)))
        by (intros i Hi; now rewrite nth_tab).
      rewrite bigsum_replace by exact Hc. rewrite IH.
      rewrite (bigsum_ext d (fun k => (tab d _).[k]) (fun k => rnd (slot d n k)))
        by (intros i Hi; now rewrite nth_tab).
      cbn. reflexivity.
Qed.

(** C65: for every depth >= 1 and every random source, the n-th value is the
    sum over the slots of the deviate each slot currently holds, plus a fresh
    deviate; each slot holds exactly one deviate. *)
Theorem C65_value (rnd : nat -> R) depth n : (1 <= depth)%nat ->
  exists held, (forall k, (k < depth)%nat -> holds depth n k (held k)) /\
    iterpink rnd depth n = Ok (bigsum depth (fun k => rnd (held k)) + rnd (extra depth n)).
Proof.
  intro Hd. exists (slot depth n). split; [intros; now apply slot_holds|].
  destruct (pink_state_eq rnd depth n Hd) as [s E].
  pose proof (pink_sum rnd depth n _ Hd E) as Hs. cbn [p_sum p_values] in Hs.
  unfold iterpink. rewrite E. cbn [bind]. unfold pink_yield. cbn [p_smooth p_i p_sum].
  rewrite randn_tab, pyget_nat by (apply Nat.mod_upper_bound; lia). cbn [bind].
  rewrite Hs. cbn. f_equal. f_equal. apply bigsum_ext. intros i Hi. now rewrite nth_tab.
Qed.

(** The running sum kept by the generator is the sum of its values array. *)
Theorem C65_running_sum (rnd : nat -> R) depth n : (1 <= depth)%nat ->
  exists st, pink_state rnd depth n = Ok st /\ len (p_values st) = depth /\
    p_sum st = bigsum depth (fun k => (p_values st).[k]).
Proof.
  intro Hd. destruct (pink_state_eq rnd depth n Hd) as [s E]. eexists. split; [exact E|].
  split; [apply tab_length|]. now apply (pink_sum rnd depth n).
Qed.

(** No index error, whatever the number type: pink returns num_points values. *)
Theorem C65_total {A} {NA : Num A} (rnd : nat -> A) num_points depth : (1 <= depth)%nat ->
  exists v, pink rnd num_points depth = Ok v /\ len v = num_points.
Proof.
  intro Hd. destruct (mapM_ok_all (iterpink rnd depth) (seq 0 num_points)) as (v & E & L).
  - intros n _. now apply iterpink_ok.
  - exists v. split; [exact E|]. now rewrite L, seq_length.
Qed.

(** depth 0 fails at the first value *)
Theorem C65_depth0 {A} {NA : Num A} (rnd : nat -> A) num_points :
  pink rnd num_points 0 = if Nat.eqb num_points 0 then Ok [] else Err IndexError.
Proof. destruct num_points; reflexivity. Qed.

(** One step replaces at most one slot. *)
Theorem C65_one_slot {A} {NA : Num A} (rnd : nat -> A) depth n st st' (a : A) :
  (1 <= depth)%nat -> pink_state rnd depth n = Ok st -> pink_state rnd depth (S n) = Ok st' ->
  exists c, forall k, k <> c -> nth k (p_values st') a = nth k (p_values st) a.
Proof.
  intros Hd E E'. destruct (pink_state_eq rnd depth n Hd) as [s H].
  destruct (pink_state_eq rnd depth (S n) Hd) as [s' H']. rewrite E in H. rewrite E' in H'.
  injection H as ->. injection H' as ->. cbn [p_values].
  exists (ctz (S n mod depth)). intros k Hk.
  destruct (lt_dec k depth) as [Hl|Hl].
  - rewrite !nth_tab by exact Hl. f_equal. cbn [slot]. cbv zeta.
    rewrite (proj2 (Nat.eqb_neq _ _) Hk), Bool.andb_false_r. reflexivity.
  - rewrite !nth_overflow by (rewrite tab_length; lia). reflexivity.
Qed.

(** Slots k with 2^k >= depth are never replaced: only ceil(log2 depth) of
    the depth slots take part, the others contribute a constant offset. *)
Theorem C65_frozen depth n k p : (1 <= depth)%nat -> (depth <= 2 ^ k)%nat ->
  holds depth n k p -> p = k.
Proof.
  intros Hd Hk H. apply (holds_fun depth n k); [exact H|]. right. split; [reflexivity|].
  intros t Ht [_ (j & Hj)]. pose proof (Nat.mod_upper_bound t depth ltac:(lia)). nia.
Qed.

(** ... and every slot below is replaced (once every 2^(k+1) outputs). *)
Theorem C65_replaced depth k t : (2 ^ k < depth)%nat -> (t mod depth = 2 ^ k)%nat ->
  replaces depth k t.
Proof.
  intros Hd Ht. assert (1 <= 2 ^ k)%nat by (pose proof (Nat.pow_nonzero 2 k ltac:(lia)); lia).
  split.
  - destruct t; [|lia]. rewrite Nat.mod_small in Ht by lia. lia.
  - exists 0%nat. lia.
Qed.

(** With the default depth of pink, 80, slots 7..79 never change. *)
Example C65_example_80 n k p : (7 <= k)%nat -> holds 80 n k p -> p = k.
Proof.
  intro Hk. apply C65_frozen; [lia|].
  apply Nat.le_trans with (2 ^ 7)%nat; [cbn; lia|]. apply Nat.pow_le_mono_r; lia.
Qed.

Example C65_example : iterpink (fun i => INR i) 3 4 = Ok (13 + 8 + 2 + 10).
Proof.
  destruct (C65_value (fun i => INR i) 3 4 ltac:(lia)) as (held & H & ->).
  assert (H0 : held 0%nat = 13%nat).
  { apply (holds_fun 3 4 0); [apply H; lia|]. left. exists 4%nat. repeat split; try lia.
    exists 0%nat. reflexivity. }
  assert (H1 : held 1%nat = 8%nat).
  { apply (holds_fun 3 4 1); [apply H; lia|]. left. exists 2%nat. repeat split; try lia.
    - exists 0%nat. reflexivity.
    - intros t' Ht [_ (j & Hj)]. assert (t' = 3 \/ t' = 4)%nat as [-> | ->] by lia;
        cbn in Hj; lia. }
  assert (H2 : held 2%nat = 2%nat).
  { apply (C65_frozen 3 4 2); [lia|cbn; lia|]. apply H; lia. }
  f_equal. cbn [bigsum]. rewrite H0, H1, H2. unfold extra. cbn. lra.
Qed.

(** In binary64 the running sum drifts away from the sum of the values. *)
Definition drift_rnd (i : nat) : float :=
  match i with 0%nat => 0.1 | 1%nat => 0.7 | _ => 0.3 end%float.
Theorem C65_binary64_refuted : exists st, pink_state drift_rnd 2 1 = Ok st /\
  PrimFloat.eqb (p_sum st) (asum (p_values st)) = false.
Proof. eexists. split; [vm_compute; reflexivity|]. vm_compute. reflexivity. Qed.

(** ** C66 *)

Lemma msqrt_R x : msqrt x = if Rlt_dec x 0 then Err ValueError else Ok (sqrt x).
Proof. unfold msqrt. cbn. unfold Rltb. now destruct (Rlt_dec x 0). Qed.

Theorem C66_white (rnd : nat -> R) n b0 fs :
  (0 <= b0 * fs -> white rnd n b0 fs = Ok (tab n (fun i => sqrt (b0 * fs / 2) * rnd i))) /\
  (b0 * fs < 0 -> white rnd n b0 fs = Err ValueError).
Proof.
  unfold white. rewrite msqrt_R. cbn [ofZ nmul ndiv RNum]. split; intro H.
  - destruct (Rlt_dec (b0 * fs / 2) 0); [lra|]. cbn. unfold scal. now rewrite randn_tab, map_tab.
  - destruct (Rlt_dec (b0 * fs / 2) 0); [reflexivity|lra].
Qed.

(** brown: differencing with phase2frequency gives back the white samples
    with PSD 4 pi^2 b, except the first one, which is fs times brown's first. *)
Theorem C66_brown (rnd : nat -> R) n b fs : 0 < fs -> 0 <= b -> exists x w,
  brown PI rnd n b fs = Ok x /\ white rnd n (b * (4 * PI * PI)) fs = Ok w /\
  len x = n /\ phase2frequency x fs = tl w /\ fs * x.[0] = w.[0].
Proof.
  intros Hf Hb. unfold brown. cbn [neqb ofZ nmul ndiv RNum]. unfold Reqb.
  destruct (Req_EM_T fs 0) as [E|_]; [lra|].
  assert (H0 : 0 <= b * (4 * PI * PI) * fs) by (pose proof PI_RGT_0; assert (0 < 4 * PI * PI) by nra; apply Rmult_le_pos; nra).
  rewrite (proj1 (C66_white rnd n _ fs) H0). cbn [bind].
  eexists; eexists; split; [reflexivity|]. split; [reflexivity|].
  set (f := fun i => _ * rnd i). rewrite cumsum_tab. unfold scal. rewrite map_tab.
  split; [apply tab_length|]. split.
  - unfold phase2frequency, diff, scal. rewrite !tl_tab.
    destruct n as [|n]; [reflexivity|].
    replace (S n - 1)%nat with n by lia.
    assert (E : tab (S n) (fun i => 1 / fs * bigsum (S i) f) =
                tab n (fun i => 1 / fs * bigsum (S i) f) ++ [1 / fs * bigsum (S n) f])
      by exact (tab_snoc n (fun i => 1 / fs * bigsum (S i) f)).
    assert (M : forall m (g h : nat -> R) z, map2 (fun b a => b - a) (tab m g) (tab m h ++ [z]) =
                tab m (fun i => g i - h i)).
    { induction m as [|m IH]; intros; [reflexivity|]. rewrite !tab_S. cbn. f_equal. apply IH. }
    cbn [nsub nmul RNum]. rewrite E, M, map_tab. apply tab_ext. intros i Hi. cbn [bigsum]. field. lra.
  - destruct n as [|n]; [cbn; lra|]. rewrite !nth_tab by lia. cbn [bigsum nmul RNum].
    rewrite Rplus_0_l. generalize (f 0%nat). intro z. field. lra.
Qed.

Theorem C66_brown_errors (rnd : nat -> R) n b fs :
  (fs = 0 -> brown PI rnd n b fs = Err ZeroDivisionError) /\
  (fs <> 0 -> b * fs < 0 -> brown PI rnd n b fs = Err ValueError).
Proof.
  unfold brown. cbn [neqb ofZ nmul ndiv RNum]. unfold Reqb. split.
  - intros ->. destruct (Req_EM_T 0 0); [reflexivity|lra].
  - intros H0 Hb. destruct (Req_EM_T fs 0); [lra|].
    rewrite (proj2 (C66_white rnd n _ fs)); [reflexivity|].
    pose proof PI_RGT_0. replace (b * (4 * PI * PI) * fs) with (- ((- (b * fs)) * (4 * PI * PI))) by ring.
    enough (0 < (- (b * fs)) * (4 * PI * PI)) by lra. apply Rmult_lt_0_compat; nra.
Qed.

Theorem C66_violet (rnd : nat -> R) n b fs : 0 <= b * fs -> exists x w,
  violet PI rnd n b fs = Ok x /\ white rnd (n + 1) (b / (2 * PI) ^ 2) fs = Ok w /\
  len x = n /\ forall i, (i < n)%nat -> x.[i] = fs * (w.[i + 1] - w.[i]).
Proof.
  intro H. unfold violet. rewrite nsq_R. cbn [ofZ nmul ndiv RNum].
  assert (H0 : 0 <= b / (2 * PI) ^ 2 * fs).
  { replace (b / (2 * PI) ^ 2 * fs) with (b * fs / (2 * PI) ^ 2) by (unfold Rdiv; ring).
    pose proof PI_RGT_0. apply Rmult_le_pos; [exact H|]. left. apply Rinv_0_lt_compat, pow_lt. lra. }
  rewrite (proj1 (C66_white rnd (n + 1) _ fs) H0). cbn [bind].
  eexists; eexists; split; [reflexivity|]. split; [reflexivity|].
  set (f := fun i => _ * rnd i). unfold scal, diff.
  assert (M : map2 (fun b a : R => b - a) (tl (tab (n + 1) f)) (tab (n + 1) f) =
              tab n (fun i => f (S i) - f i)).
  { rewrite tl_tab, Nat.add_sub. rewrite Nat.add_1_r, tab_snoc. generalize (f n). intro z.
    clearbody f. revert f. induction n as [|n IH]; intro f; [reflexivity|].
    rewrite !tab_S. cbn. f_equal. exact (IH (fun i => f (S i))). }
  cbn [nsub nmul RNum]. rewrite M, map_tab. split; [apply tab_length|].
  intros i Hi. rewrite !nth_tab by lia. rewrite Nat.add_1_r. reflexivity.
Qed.

Theorem C66_violet_error (rnd : nat -> R) n b fs : b * fs < 0 ->
  violet PI rnd n b fs = Err ValueError.
Proof.
  intro H. unfold violet. rewrite nsq_R. cbn [ofZ nmul ndiv RNum].
  rewrite (proj2 (C66_white rnd (n + 1) _ fs)); [reflexivity|].
  replace (b / (2 * PI) ^ 2 * fs) with (- (- (b * fs) / (2 * PI) ^ 2)) by (unfold Rdiv; ring).
  pose proof PI_RGT_0. enough (0 < - (b * fs) / (2 * PI) ^ 2) by lra.
  apply Rdiv_lt_0_compat; [lra|]. apply pow_lt. lra.
Qed.

Example C66_example : white (fun i => INR i) 3 2 1 = Ok [0; 1; 2].
Proof.
  rewrite (proj1 (C66_white _ 3 2 1)) by lra. cbn.
  replace (2 * 1 / 2) with 1 by lra. rewrite sqrt_1. repeat f_equal; lra.
Qed.

Print Assumptions C65_value.
Print Assumptions C65_running_sum.
Print Assumptions C65_total.
Print Assumptions C65_depth0.
Print Assumptions C65_one_slot.
Print Assumptions C65_frozen.
Print Assumptions C65_replaced.
Print Assumptions C65_binary64_refuted.
Print Assumptions C66_white.
Print Assumptions C66_brown.
Print Assumptions C66_brown_errors.
Print Assumptions C66_violet.
Print Assumptions C66_violet_error.
