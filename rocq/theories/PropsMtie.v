(** * The except-ValueError branch of mtie (C27).

    The branch is not taken for any admissible averaging factor ([C27_no_fallback]; the model's rolling window has no
    size limit, numpy's as_strided raises ValueError when the view would exceed 2^63 bytes, i.e. beyond 2^31 points).
    If it were taken it would not compute MTIE. *)
From Coq Require Import String Reals List ZArith Lra Lia Arith Bool Sorted.
From Verif Require Import Base Num NpList ModelCore ModelDev NumR ListFacts Spec RSum TauProofs DevProofs TotProofs MiscProofs.
Import ListNotations.
Local Open Scope R_scope.
Local Notation len := List.length.

Lemma Rltb_spec a b : Bool.reflect (a < b) (Rltb a b).
Proof. apply iff_reflect. symmetry. apply Rltb_true. Qed.

Lemma foldM_inv {St A} (P : nat -> St -> Prop) (f : St -> A -> res St) (l : list A) (d : A) :
  (forall i s, (i < len l)%nat -> P i s -> exists s', f s (nth i l d) = Ok s' /\ P (S i) s') ->
  forall s, P 0%nat s -> exists s', foldM f l s = Ok s' /\ P (len l) s'.
Proof.
  revert P. induction l as [|a l IH]; intros P H s H0.
  - exists s. auto.
  - destruct (H 0%nat s ltac:(cbn; lia) H0) as (s1 & E & H1). cbn [nth] in E. cbn [foldM]. rewrite E. cbn [bind].
    apply (IH (fun i => P (S i))); [|exact H1]. intros i t Hi Ht. apply (H (S i) t); [cbn; lia|exact Ht].
Qed.

Lemma slice_max (x : list R) a b : (a < b)%nat -> (b <= len x)%nat ->
  (exists j, (a <= j < b)%nat /\ npmax (pyslice a b x) = Ok x.[j]) /\
  (exists j, (a <= j < b)%nat /\ npmin (pyslice a b x) = Ok x.[j]).
Proof.
  intros H1 H2. pose proof (list_tab x 0) as Hx.
  assert (E : pyslice a b x = tab (b - a) (fun k => x.[a + k])).
  { rewrite Hx at 1. rewrite pyslice_tab. f_equal. lia. }
  assert (NE : pyslice a b x <> []) by (rewrite E; apply tab_nonnil; lia).
  rewrite npmax_R, npmin_R by exact NE. destruct (lmax_spec _ NE) as [Ia _]. destruct (lmin_spec _ NE) as [Ii _].
  rewrite E in Ia, Ii. apply in_tab in Ia as (i & Hi & Ea). apply in_tab in Ii as (k & Hk & Ei).
  split; [exists (a + i)%nat|exists (a + k)%nat]; (split; [lia|]); now rewrite E, ?Ea, ?Ei.
Qed.

Lemma fallback_bound (x : list R) m : (1 <= m < len x)%nat -> exists d, mtie_fallback x m = Ok d /\ 0 <= d /\
  exists j k, (j < len x)%nat /\ (k < len x)%nat /\ (j <= k + m)%nat /\ (k <= j + m)%nat /\ d = x.[j] - x.[k].
Proof.
  intro Hm. unfold mtie_fallback.
  destruct (Nat.ltb_spec (m + 1) 1); [lia|]. destruct (Nat.ltb_spec (len x) (m + 1)); [lia|].
  destruct (slice_max x 0 m) as [(j0 & Hj0 & E1) (k0 & Hk0 & E2)]; [lia|lia|].
  rewrite E1, E2. cbn [bind].
  set (f := fun '(currMax, currMin, dev) winStartIdx => _).
  set (P := fun (w : nat) (s : R * R * R) => let '(M, i, d) := s in
     (exists j, (w <= j <= w + m)%nat /\ (j < len x)%nat /\ M = x.[j]) /\ (exists k, (w <= k <= w + m)%nat /\ (k < len x)%nat /\ i = x.[k]) /\
     (exists j k, (j < len x)%nat /\ (k < len x)%nat /\ (j <= k + m)%nat /\ (k <= j + m)%nat /\ d = x.[j] - x.[k]) /\ 0 <= d).
  destruct (foldM_inv P f (seq 1 (len x - m - 1)) 0%nat) with (s := (x.[j0], x.[k0], nsub x.[j0] x.[k0])) as ([[M' i'] d'] & E & Q).
  - intros w [[M i] d] Hw ((j & Hj & Hjl & ->) & (k & Hk & Hkl & ->) & Hd & Pd). rewrite seq_length in Hw.
    rewrite seq_nth by exact Hw. change (1 + w)%nat with (S w).
    unfold f. replace (Z.of_nat (S w) - 1)%Z with (Z.of_nat w) by lia. rewrite pyget_list by lia. cbn [bind].
    destruct (slice_max x (S w) (m + S w)) as [(ja & Hja & Ea) (ka & Hka & Eb)]; [lia|lia|].
    assert (G1 : exists j', (S w <= j' <= S w + m)%nat /\ (j' < len x)%nat /\
       (if neqb x.[j] x.[w] then npmax (pyslice (S w) (m + S w) x)
        else new <- pyget x (Z.of_nat (m + S w)) ;; Ok (if nltb x.[j] new then new else x.[j])) = Ok x.[j']).
    { rn. unfold Reqb; destruct (Req_EM_T x.[j] x.[w]) as [Q|Q].
      - exists ja. repeat split; try lia. exact Ea.
      - rewrite pyget_list by lia. cbn [bind]. destruct (Rltb_spec x.[j] x.[m + S w]).
        + exists (m + S w)%nat. repeat split; try lia.
        + exists j. assert (j <> w) by (intros ->; now apply Q). repeat split; try lia. }
    assert (G2 : exists k', (S w <= k' <= S w + m)%nat /\ (k' < len x)%nat /\
       (if neqb x.[k] x.[w] then npmin (pyslice (S w) (m + S w) x)
        else new <- pyget x (Z.of_nat (m + S w)) ;; Ok (if nltb new x.[k] then new else x.[k])) = Ok x.[k']).
    { rn. unfold Reqb; destruct (Req_EM_T x.[k] x.[w]) as [Q|Q].
      - exists ka. repeat split; try lia. exact Eb.
      - rewrite pyget_list by lia. cbn [bind]. destruct (Rltb_spec x.[m + S w] x.[k]).
        + exists (m + S w)%nat. repeat split; try lia.
        + exists k. assert (k <> w) by (intros ->; now apply Q). repeat split; try lia. }
    destruct G1 as (j' & Hj' & Hjl' & ->). destruct G2 as (k' & Hk' & Hkl' & ->). cbn [bind].
    eexists. split; [reflexivity|]. cbn [P]. unfold P. split; [exists j'; auto|]. split; [exists k'; auto|].
    rn. destruct (Rltb_spec d (x.[j'] - x.[k'])); [|auto]. split; [|lra]. exists j', k'. repeat split; lia || reflexivity.
  - unfold P. split; [exists j0; repeat split; lia|]. split; [exists k0; repeat split; lia|]. split.
    + exists j0, k0. repeat split; lia || reflexivity.
    + pose proof (list_tab x 0) as Hx.
      assert (NE : pyslice 0 m x <> []) by (rewrite Hx, pyslice_tab; apply tab_nonnil; lia).
      rewrite npmax_R in E1 by exact NE. rewrite npmin_R in E2 by exact NE. injection E1 as <-. injection E2 as <-.
      destruct (lmax_spec _ NE) as [Ia _]. destruct (lmin_spec _ NE) as [_ Ii]. apply Ii in Ia. rn. lra.
  - rewrite E. cbn [bind]. exists d'. destruct Q as (_ & _ & Q1 & Q2). auto.
Qed.

(** The branch never exceeds MTIE ... *)
Theorem C27_fallback_low (x : list R) m d : (1 <= m < len x)%nat -> is_mtie x m d ->
  exists d', mtie_fallback x m = Ok d' /\ 0 <= d' <= d.
Proof.
  intros Hm [U _]. destruct (fallback_bound x m Hm) as (d' & E & P & j & k & Hj & Hk & H1 & H2 & ->).
  eexists. split; [exact E|]. split; [exact P|]. now apply U.
Qed.
Print Assumptions C27_fallback_low.

(** ... and at the smallest averaging factor it returns zero whatever the data. *)
Theorem C27_fallback_refuted (x : list R) : (2 <= len x)%nat -> mtie_fallback x 1 = Ok 0.
Proof.
  intro Hm. unfold mtie_fallback. change (1 + 1 <? 1)%nat with false. cbv iota.
  destruct (Nat.ltb_spec (len x) (1 + 1)); [lia|]. cbn [Nat.add].
  assert (SL : forall w, (w < len x)%nat -> pyslice w (S w) x = [x.[w]]).

  { intros w Hw. transitivity (tab 1 (fun k => x.[w + k])); [|cbn; now rewrite Nat.add_0_r].
    rewrite (list_tab x 0) at 1. rewrite pyslice_tab. f_equal. lia. }
  assert (MX : forall a : R, npmax [a] = Ok a) by (intro a; rewrite npmax_R by discriminate; reflexivity).
  assert (MI : forall a : R, npmin [a] = Ok a) by (intro a; rewrite npmin_R by discriminate; reflexivity).
  rewrite (SL 0%nat), MX, MI by lia. cbn [bind].
  set (f := fun '(currMax, currMin, dev) winStartIdx => _).
  destruct (foldM_inv (fun w s => s = (x.[w], x.[w], 0)) f (seq 1 (len x - 1 - 1)) 0%nat) with (s := (x.[0], x.[0], nsub x.[0] x.[0]))
    as (s' & E & Q).
  - intros w s Hw ->. rewrite seq_length in Hw. rewrite seq_nth by exact Hw. change (1 + w)%nat with (S w).
    unfold f. replace (Z.of_nat (S w) - 1)%Z with (Z.of_nat w) by lia. rewrite pyget_list by lia. cbn [bind]. rn.
    rewrite (proj2 (Reqb_true x.[w] x.[w]) eq_refl).
    rewrite SL, MX, MI by lia. cbn [bind].
    eexists. split; [reflexivity|]. destruct (Rltb_spec 0 (x.[S w] - x.[S w])); [lra|reflexivity].
  - rn. f_equal. lra.
  - rewrite E. cbn [bind]. destruct s' as [[M i] d]. injection Q as _ _ ->. reflexivity.
Qed.
Print Assumptions C27_fallback_refuted.

Example C27_ex_fallback : mtie_fallback [0; 5; 1] 1 = Ok 0 /\ is_mtie [0; 5; 1] 1 5.
Proof.
  split; [apply C27_fallback_refuted; cbn; lia|]. split.
  - intros j k Hj Hk H1 H2. cbn [len] in *. destruct j as [|[|[|]]]; try lia; destruct k as [|[|[|]]]; try lia; cbn; lra.
  - exists 1%nat, 0%nat. cbn. repeat split; try lia. lra.
Qed.
