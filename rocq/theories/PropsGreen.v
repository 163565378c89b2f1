(** * Greenhall's degrees of freedom and the noise-identified interval: C47, C48, C49, C54, C74. *)
From Coq Require Import String Reals List ZArith Lra Lia Arith Bool Psatz.
From Verif Require Import Base Num NpList NumR ModelCore ModelDev ModelMisc ModelCi ModelCiR ListFacts Spec RSum TauProofs
  DevProofs TotProofs Closed Laws Laws2 Laws3 CiProofs GreenProofs PropsCi.
Import ListNotations.
Local Open Scope R_scope.
Local Notation len := List.length.

(** ** C47 *)
Lemma sw_dom_dec alpha : sw_dom alpha \/ ~ sw_dom alpha.
Proof. unfold sw_dom. lia. Qed.
Theorem C47_sw_even t alpha : greenhall_sw (- t) alpha = greenhall_sw t alpha.
Proof. destruct (sw_dom_dec alpha) as [H|H]; [rewrite !sw_ok, swf_even by exact H; reflexivity|now rewrite !sw_bad]. Qed.
Print Assumptions C47_sw_even.
Lemma sx_even t F alpha : greenhall_sx (- t) F alpha = greenhall_sx t F alpha.
Proof.
  destruct F as [F|]; [|apply C47_sw_even].
  destruct (sw_dom_dec alpha) as [H|H]; [|now rewrite !sx_bad_alpha].
  destruct (Req_dec F 0) as [->|HF].
  - unfold greenhall_sx. rewrite C47_sw_even, (sw_ok _ _ H). cbn [bind]. now rewrite pydivR0.
  - rewrite !sx_ok by (split; assumption). now rewrite sxf_even.
Qed.
Theorem C47_sx_even t F alpha : greenhall_sx (- t) F alpha = greenhall_sx t F alpha.
Proof. apply sx_even. Qed.
Print Assumptions C47_sx_even.
Lemma sx_err F alpha : ~ sx_dom F alpha -> exists e, forall t, greenhall_sx t F alpha = Err e.
Proof.
  intros H. destruct F as [F|]; cbn [sx_dom] in H.
  - destruct (sw_dom_dec alpha) as [Hs|Hs]; [|exists AssertionError; intros t; now apply sx_bad_alpha].
    exists ZeroDivisionError. intros t. assert (F = 0) as -> by (destruct (Req_dec F 0); tauto).
    unfold greenhall_sx. rewrite (sw_ok _ _ Hs). cbn [bind]. now rewrite pydivR0.
  - exists AssertionError. intros t. now apply sx_bad_alpha.
Qed.
Lemma sx_dom_dec F alpha : sx_dom F alpha \/ ~ sx_dom F alpha.
Proof. destruct F as [F|]; cbn [sx_dom]; [destruct (Req_dec F 0); destruct (sw_dom_dec alpha); tauto|apply sw_dom_dec]. Qed.
Lemma d_dec d : (1 <= d <= 3)%nat \/ ~ (1 <= d <= 3)%nat.
Proof. lia. Qed.
Lemma sz_err d F alpha : ~ sx_dom F alpha -> (1 <= d <= 3)%nat -> exists e, forall t, greenhall_sz t F alpha d = Err e.
Proof.
  intros H Hd. destruct (sx_err F alpha H) as [e He]. exists e. intros t.
  assert (Hc : d = 1%nat \/ d = 2%nat \/ d = 3%nat) by lia. unfold greenhall_sz. destruct Hc as [-> | [-> | ->]]; now rewrite He.
Qed.
Theorem C47_sz_even t F alpha d : greenhall_sz (- t) F alpha d = greenhall_sz t F alpha d.
Proof.
  destruct (d_dec d) as [Hd|Hd]; [|now rewrite !sz_bad_d].
  destruct (sx_dom_dec F alpha) as [H|H]; [rewrite !sz_ok, szf_even by assumption; reflexivity|].
  destruct (sz_err d F alpha H Hd) as [e He]. now rewrite !He.
Qed.
Print Assumptions C47_sz_even.
(** where it is defined; an infinite F shifts the exponents by two *)
Theorem C47_domain t F alpha d : (exists v, greenhall_sz t F alpha d = Ok v) <->
  (1 <= d <= 3)%nat /\ match F with Some f => f <> 0 /\ (-4 <= alpha <= 2)%Z | None => (-6 <= alpha <= 0)%Z end.
Proof.
  split.
  - intros [v Hv]. destruct (d_dec d) as [Hd|Hd]; [|rewrite sz_bad_d in Hv by exact Hd; discriminate].
    split; [exact Hd|]. destruct (sx_dom_dec F alpha) as [H|H].
    + destruct F; cbn [sx_dom] in H; unfold sw_dom in H; [exact H|lia].
    + destruct (sz_err d F alpha H Hd) as [e He]. rewrite He in Hv. discriminate.
  - intros [Hd H]. exists (szf d F alpha t). apply sz_ok; [exact Hd|]. destruct F; cbn [sx_dom]; unfold sw_dom; [exact H|lia].
Qed.
Print Assumptions C47_domain.
(** sz kills constants (and, for d = 2, linear functions): sz of white PM is supported near the integers 0..d *)
Theorem C47_white_pm_support t F d : (1 <= d <= 3)%nat -> 0 < F -> INR d + 1 / F <= Rabs t -> greenhall_sz t (Some F) 2 d = Ok 0.
Proof.
  intros Hd HF Ht. rewrite sz_ok; [|exact Hd|split; [lra|unfold sw_dom; lia]]. f_equal.
  assert (Hh : 0 < 1 / F) by (apply Rdiv_lt_0_compat; lra).
  assert (K : forall u, 1 / F <= Rabs u -> sxf (Some F) 2 u = 0).
  { intros u Hu. cbn [sxf]. unfold swf, greenhall_sw. set (h := 1 / F) in *. unfold Rabs in *.
    assert (E : forall a b c, a = 2 * b - c -> F ^ 2 * (2 * - b - - a - - c) = 0) by (intros; subst; ring).
    repeat destruct Rcase_abs; try lra; apply E; lra. }
  assert (Hc : d = 1%nat \/ d = 2%nat \/ d = 3%nat) by lia.
  assert (L : forall c, Rabs c <= INR d -> sxf (Some F) 2 (t - c) = 0 /\ sxf (Some F) 2 (t + c) = 0).
  { intros c Hcc. split; apply K.
    - pose proof (Rabs_triang_inv t c). lra.
    - pose proof (Rabs_triang_inv t (- c)) as Hv. rewrite Rabs_Ropp in Hv. unfold Rminus in Hv. rewrite Ropp_involutive in Hv. lra. }
  assert (L0 : sxf (Some F) 2 t = 0). { apply K. assert (0 <= INR d) by apply pos_INR. lra. }
  unfold szf. cbv zeta. rewrite L0.
  destruct Hc as [-> | [-> | ->]]; cbn [INR] in L;
    repeat (match goal with |- context [sxf (Some F) 2 (t - ?c)] => destruct (L c) as [E1 E2]; [rewrite Rabs_pos_eq; lra|rewrite E1, E2; clear E1 E2] end); ring.
Qed.
Print Assumptions C47_white_pm_support.
Example C47_ex : greenhall_sz 0 (Some 2) 0 2 = Ok 18 /\ greenhall_sz (1/2) None 0 1 = Ok 1.
Proof.
  split.
  - rewrite sz_ok; [|lia|split; [lra|unfold sw_dom; lia]]. f_equal. rewrite szf0. cbv zeta.
    destruct (sx0_values 2 (1/2) ltac:(lra) ltac:(lra)) as (_ & -> & _).
    destruct (sxk_values 2 (1/2) ltac:(lra) ltac:(lra) 1 ltac:(lra)) as (_ & -> & _).
    destruct (sxk_values 2 (1/2) ltac:(lra) ltac:(lra) 2 ltac:(lra)) as (_ & -> & _). lra.
  - rewrite sz_ok; [|lia|unfold sx_dom, sw_dom; lia]. f_equal. unfold szf, sxf. cbv zeta. change (0 + 2)%Z with 2%Z.
    unfold swf, greenhall_sw. unfold Rabs. repeat destruct Rcase_abs; lra.
Qed.

(** ** C48 *)
Theorem C48_table1 alpha d : (-4 <= alpha <= 2)%Z -> (1 <= d <= 3)%nat -> (1 < alpha + 2 * Z.of_nat d)%Z ->
  exists a0 a1, greenhall_table1 alpha d = Ok (a0, a1) /\ 0 < a1 < a0 /\ (a0, a1) <> (-1, -1).
Proof.
  intros Ha Hd H. assert (Hd' : d = 1%nat \/ d = 2%nat \/ d = 3%nat) by lia.
  assert (Hc : (alpha = 2 \/ alpha = 1 \/ alpha = 0 \/ alpha = -1 \/ alpha = -2 \/ alpha = -3 \/ alpha = -4)%Z) by lia.
  destruct Hd' as [-> | [-> | ->]]; destruct Hc as [-> | [-> | [-> | [-> | [-> | [-> | ->]]]]]];
    try (exfalso; cbn in H; lia); do 2 eexists; (split; [reflexivity|]); (split; [lra|]); intros C; injection C; lra.
Qed.
Print Assumptions C48_table1.
Theorem C48_table2 alpha d : (-3 <= alpha <= 2)%Z -> (1 <= d <= 3)%nat -> (1 < alpha + 2 * Z.of_nat d)%Z ->
  exists a0 a1, greenhall_table2 alpha d = Ok (a0, a1) /\ 0 < a1 < a0 /\ (a0, a1) <> (-1, -1).
Proof.
  intros Ha Hd H. assert (Hd' : d = 1%nat \/ d = 2%nat \/ d = 3%nat) by lia.
  assert (Hc : (alpha = 2 \/ alpha = 1 \/ alpha = 0 \/ alpha = -1 \/ alpha = -2 \/ alpha = -3)%Z) by lia.
  destruct Hd' as [-> | [-> | ->]]; destruct Hc as [-> | [-> | [-> | [-> | [-> | ->]]]]];
    try (exfalso; cbn in H; lia); do 2 eexists; (split; [reflexivity|]); (split; [lra|]); intros C; injection C; lra.
Qed.
Print Assumptions C48_table2.
(** ** C49 first, the last claims of C48 need it *)
(** the number of estimator terms, and its agreement with the counts the deviation functions report *)
Theorem C49_counts (x : list R) (m : nat) : (1 <= m)%nat ->
  let N := Z.of_nat (len x) in let mz := Z.of_nat m in
  ((1 <= adev_n x m)%nat -> greenhall_M 1 mz N 2 false = Z.of_nat (adev_n x m)) /\
  ((1 <= oadev_n x m)%nat -> greenhall_M mz mz N 2 false = Z.of_nat (oadev_n x m)) /\
  ((1 <= hdev_n x m)%nat -> greenhall_M 1 mz N 3 false = Z.of_nat (hdev_n x m)) /\
  ((1 <= ohdev_n x m)%nat -> greenhall_M mz mz N 3 false = Z.of_nat (ohdev_n x m)) /\
  greenhall_M mz mz N 2 true = mdev_n x m.
Proof.
  intros Hm N mz.
  assert (E : forall k, (1 <= (len x - 1) / m - k)%nat -> ((N - 1) / mz = Z.of_nat ((len x - 1) / m))%Z).
  { intros k Hk. assert (1 <= len x)%nat. { destruct (len x); [|lia]. rewrite Nat.div_0_l in Hk by lia. lia. }
    unfold N, mz. rewrite Nat2Z.inj_div. f_equal. lia. }
  pose proof (M_terms 2 mz N false false ltac:(lia)) as T1. pose proof (M_terms 2 mz N true false ltac:(lia)) as T2.
  pose proof (M_terms 3 mz N false false ltac:(lia)) as T3. pose proof (M_terms 3 mz N true false ltac:(lia)) as T4.
  pose proof (M_terms 2 mz N true true ltac:(lia)) as T5. cbn [stride terms] in *.
  rewrite T1, T2, T3, T4, T5. unfold adev_n, oadev_n, hdev_n, ohdev_n, mdev_n.
  split; [|split; [|split; [|split]]].
  - intros H. rewrite (E _ H). lia.
  - lia.
  - intros H. rewrite (E _ H). lia.
  - lia.
  - fold N mz. lia.
Qed.
Print Assumptions C49_counts.

(** [terms], [stride] and [sampled] are the closed forms of GreenProofs.v:
    terms = N - dm, N - (d+1)m + 1, floor((N-1)/m) - d + 1, floor(N/m) - d;
    sampled: min(M, (d+1)S) > 100. *)
Theorem C49_bounds alpha d m N o md : (1 <= m)%Z -> (1 <= d <= 3)%nat -> (-4 <= alpha <= 2)%Z -> (1 < alpha + 2 * Z.of_nat d)%Z ->
  let S := stride m o in let M := terms d m N o md in
  (1 <= M)%Z ->
  ~ (alpha = 2%Z /\ md = false /\ (M <= Z.of_nat d * S)%Z) ->
  ~ (alpha = (-4)%Z /\ md = false /\ sampled d S M /\ ((Z.of_nat d + 1) * S < M)%Z) ->
  exists e, edf_greenhall alpha d m N o md = Ok e /\ 0 < e /\
    (~ (alpha = 1%Z /\ md = false /\ sampled d S M /\ (M <= (Z.of_nat d + 1) * S)%Z) -> e <= IZR M).
Proof. exact (edf_bounds alpha d m N o md). Qed.
Print Assumptions C49_bounds.

Lemma edf_cases_low alpha d m N o md : (1 <= m)%Z -> (1 <= d <= 3)%nat -> (-4 <= alpha <= 2)%Z -> (1 < alpha + 2 * Z.of_nat d)%Z ->
  (terms d m N o md <= 0)%Z -> ~ (alpha = 2%Z /\ md = false) ->
  exists F, sx_dom F alpha /\ szf d F alpha 0 <> 0 /\ IZR (stride m o) <> 0 /\
    edf_greenhall alpha d m N o md = basic alpha d (terms d m N o md) (terms d m N o md) (IZR (stride m o)) F.
Proof.
  intros Hm Hd Ha Hc HM Hx. rewrite edf_unfold by lia. cbv zeta. fold (stride m o). rewrite M_terms by exact Hm.
  set (M := terms d m N o md) in *. set (S := stride m o).
  assert (HS : (1 <= S)%Z) by (unfold S, stride; destruct o; lia).
  assert (HS' : 1 <= IZR S) by (now apply IZR_le in HS). assert (Hm' : 1 <= IZR m) by (now apply IZR_le in Hm).
  replace (Z.min M ((Z.of_nat d + 1) * S)) with M by nia. rewrite (proj2 (Z.leb_le M 100)) by lia.
  destruct md.
  - exists (Some 1). repeat split; try exact (proj1 Ha); try exact (proj2 Ha); try lra. apply (sz0_nonzero 1); lia.
  - destruct (alpha <=? 0)%Z eqn:EA; [apply Z.leb_le in EA|apply Z.leb_gt in EA].
    + destruct (m * (Z.of_nat d + 1) <=? 100)%Z.
      * exists (Some (IZR m)). repeat split; try exact (proj1 Ha); try exact (proj2 Ha); try lra. now apply sz0_nonzero.
      * exists None. repeat split; cbn [sx_dom]; unfold sw_dom; try lia; try lra. apply sz0_inf; lia.
    + destruct (alpha =? 1)%Z eqn:E1; [apply Z.eqb_eq in E1|apply Z.eqb_neq in E1; exfalso; apply Hx; split; [lia|reflexivity]].
      exists (Some (IZR m)). repeat split; try exact (proj1 Ha); try exact (proj2 Ha); try lra. now apply sz0_nonzero.
Qed.
(** too few points: a negative number of degrees of freedom, returned without complaint *)
Theorem C49_negative_refuted alpha d m N o md : (1 <= m)%Z -> (1 <= d <= 3)%nat -> (-4 <= alpha <= 2)%Z -> (1 < alpha + 2 * Z.of_nat d)%Z ->
  (terms d m N o md <= -1)%Z -> ~ (alpha = 2%Z /\ md = false) ->
  edf_greenhall alpha d m N o md = Ok (IZR (terms d m N o md)).
Proof.
  intros Hm Hd Ha Hc HM Hx. destruct (edf_cases_low alpha d m N o md) as (F & HF & Hz & HS & ->); try assumption; [lia|].
  now apply basic_neg.
Qed.
Print Assumptions C49_negative_refuted.
Theorem C49_zero alpha d m N o md : (1 <= m)%Z -> (1 <= d <= 3)%nat -> (-4 <= alpha <= 2)%Z -> (1 < alpha + 2 * Z.of_nat d)%Z ->
  terms d m N o md = 0%Z -> ~ (alpha = 2%Z /\ md = false) ->
  edf_greenhall alpha d m N o md = Err ZeroDivisionError.
Proof.
  intros Hm Hd Ha Hc HM Hx. destruct (edf_cases_low alpha d m N o md) as (F & HF & Hz & HS & ->); try assumption; [lia|].
  rewrite HM. now apply basic_0.
Qed.
Print Assumptions C49_zero.
(** white PM with M <= dS is not implemented *)
Theorem C49_white_pm d m N o : (1 <= m)%Z -> (1 <= d <= 3)%nat -> (terms d m N o false <= Z.of_nat d * stride m o)%Z ->
  edf_greenhall 2 d m N o false = Err NotImplementedError.
Proof.
  intros Hm Hd H. rewrite edf_unfold by lia. cbv zeta. fold (stride m o). rewrite M_terms by exact Hm. cbn [Z.leb Z.compare Z.eqb Pos.eqb].
  rewrite (proj2 (Z.leb_le _ _)); [reflexivity|]. apply ceilR_iff. apply ratio_le; [unfold stride; destruct o; lia|exact H].
Qed.
Print Assumptions C49_white_pm.
Theorem C49_alpha_high alpha d m N o : (1 <= m)%Z -> (2 < alpha)%Z -> edf_greenhall alpha d m N o false = Err NotImplementedError.
Proof.
  intros Hm Ha. rewrite edf_unfold by lia. cbv zeta. destruct (Z.leb_spec alpha 0); [lia|].
  destruct (Z.eqb_spec alpha 1); [lia|]. destruct (Z.eqb_spec alpha 2); [lia|reflexivity].
Qed.
Print Assumptions C49_alpha_high.
Theorem C49_alpha_high_modified alpha d m N o : (1 <= m)%Z -> (1 <= d <= 3)%nat -> (2 < alpha)%Z ->
  ~ sampled d (stride m o) (terms d m N o true) -> edf_greenhall alpha d m N o true = Err AssertionError.
Proof.
  intros Hm Hd Ha HJ. rewrite edf_unfold by lia. cbv zeta. fold (stride m o). rewrite M_terms by exact Hm. unfold sampled in HJ.
  rewrite (proj2 (Z.leb_le _ 100)) by lia. apply basic_bad; [exact Hd|exact Ha|discriminate].
Qed.
Print Assumptions C49_alpha_high_modified.
Theorem C49_divergent alpha d m N o md : (alpha + 2 * Z.of_nat d <= 1)%Z -> edf_greenhall alpha d m N o md = Err AssertionError.
Proof. intros H. unfold edf_greenhall. cbv zeta. rewrite (proj2 (Z.ltb_ge _ _) H). reflexivity. Qed.
Print Assumptions C49_divergent.
(** every call with m >= 1 and alpha <= 2: which error, exactly when *)
Theorem C49_errors alpha d m N o md e : (1 <= m)%Z -> (1 <= d <= 3)%nat -> (alpha <= 2)%Z ->
  let S := stride m o in let M := terms d m N o md in
  edf_greenhall alpha d m N o md = Err e <->
  (e = AssertionError /\ (alpha + 2 * Z.of_nat d <= 1)%Z) \/
  (e = AssertionError /\ alpha = (-4)%Z /\ d = 3%nat /\ md = false /\ sampled d S M /\ ((Z.of_nat d + 1) * S < M)%Z) \/
  (e = NotImplementedError /\ alpha = 2%Z /\ md = false /\ (M <= Z.of_nat d * S)%Z) \/
  (e = ZeroDivisionError /\ (1 < alpha + 2 * Z.of_nat d)%Z /\ ~ (alpha = 2%Z /\ md = false) /\ M = 0%Z).
Proof.
  intros Hm Hd Ha S M.
  assert (X4 : forall N', (1 < -4 + 2 * Z.of_nat d)%Z -> sampled d S (terms d m N' o false) -> ((Z.of_nat d + 1) * S < terms d m N' o false)%Z ->
     edf_greenhall (-4) d m N' o false = Err AssertionError).
  { intros N' Hc Hs Hr. rewrite edf_unfold by lia. cbv zeta. fold (stride m o). rewrite M_terms by exact Hm. fold S. unfold sampled in Hs.
    cbn [Z.leb Z.compare]. rewrite (proj2 (Z.leb_gt _ 100)) by lia.
    replace (Rltb (INR d + 1) _) with true; [reflexivity|]. symmetry. apply Rltb_true.
    replace (INR d + 1) with (IZR (Z.of_nat d + 1)) by (rewrite plus_IZR, <- INR_IZR_INZ; reflexivity).
    apply ratio_lt; [unfold S, stride; destruct o; lia|exact Hr]. }
  assert (HS : (1 <= S)%Z) by (unfold S, stride; destruct o; lia).
  split.
  - intros E. destruct (Z_le_gt_dec (alpha + 2 * Z.of_nat d) 1) as [Hc|Hc].
    { rewrite C49_divergent in E by exact Hc. left. split; congruence. }
    assert (Ha4 : (-4 <= alpha)%Z) by lia.
    assert (Fin : (1 <= M)%Z -> ~ (alpha = 2%Z /\ md = false /\ (M <= Z.of_nat d * S)%Z) ->
      ~ (alpha = (-4)%Z /\ md = false /\ sampled d S M /\ ((Z.of_nat d + 1) * S < M)%Z) -> False).
    { intros F1 F2 F3. destruct (edf_bounds alpha d m N o md) as (v & Hv & _); try assumption; try lia. rewrite Hv in E. discriminate. }
    assert (D2 : (alpha = 2%Z /\ md = false) \/ ~ (alpha = 2%Z /\ md = false)) by (destruct md; lia).
    destruct D2 as [[-> ->]|Hx].
    + destruct (Z_le_gt_dec M (Z.of_nat d * S)) as [L|L].
      * rewrite C49_white_pm in E by assumption. right; right; left. repeat split; try assumption; congruence.
      * exfalso. apply Fin; [nia|intros (_ & _ & C); lia|intros (C & _); lia].
    + destruct (Z_lt_le_dec M 1) as [L|L].
      * destruct (Z.eq_dec M 0) as [M0|M0].
        { rewrite C49_zero in E; try assumption; try lia. right; right; right. split; [congruence|]. split; [lia|]. split; assumption. }
        exfalso. rewrite C49_negative_refuted in E; try assumption; first [discriminate | fold M; lia].
      * assert (D4 : (alpha = (-4)%Z /\ md = false /\ sampled d S M /\ ((Z.of_nat d + 1) * S < M)%Z) \/
          ~ (alpha = (-4)%Z /\ md = false /\ sampled d S M /\ ((Z.of_nat d + 1) * S < M)%Z)) by (unfold sampled; destruct md; lia).
        destruct D4 as [(-> & Hmd & H1 & H2)|Hn]; [|exfalso; apply Fin; tauto].
        subst md. right; left. unfold M in H1, H2. rewrite X4 in E; [|lia|exact H1|exact H2]. repeat split; try assumption; try congruence; lia.
  - intros [[-> H] | [(-> & -> & -> & -> & H1 & H2) | [(-> & -> & -> & H) | (-> & H1 & H2 & H3)]]].
    + now apply C49_divergent.
    + apply X4; try assumption. cbn. lia.
    + now apply C49_white_pm.
    + apply C49_zero; try assumption. lia.
Qed.
Print Assumptions C49_errors.
(** edf_greenhall_simple *)
Theorem C49_simple alpha d m S F N : (1 <= m)%Z -> (1 <= S)%Z -> (1 <= F)%Z -> (1 <= d <= 3)%nat -> (-4 <= alpha <= 2)%Z -> (1 < alpha + 2 * Z.of_nat d)%Z ->
  let M := (1 + (S * (N - (m / F + m * Z.of_nat d))) / m)%Z in
  (1 <= M)%Z -> exists e, edf_greenhall_simple alpha d m S F N = Ok e /\ 0 < e <= IZR M.
Proof.
  intros Hm HS HF Hd Ha Hc M HM. unfold edf_greenhall_simple. rewrite (proj2 (Z.eqb_neq F 0)), (proj2 (Z.eqb_neq m 0)) by lia.
  cbv zeta. fold M. apply basic_pos; try assumption.
  - split; [apply not_0_IZR; lia|exact Ha].
  - now apply sz0_nonzero.
  - lia.
  - apply not_0_IZR. lia.
Qed.
Print Assumptions C49_simple.
(** It is the formula behind edf_greenhall wherever that does not switch to a table or to m = infinity:
    F = 1 for the modified variances, F = m for the unmodified ones, S the stride. *)
Theorem C49_simple_full alpha d m N o md : (1 <= m)%Z -> (1 < alpha + 2 * Z.of_nat d)%Z ->
  (Z.min (terms d m N o md) ((Z.of_nat d + 1) * stride m o) <= 100)%Z ->
  (md = true \/ alpha = 1%Z \/ (alpha <= 0 /\ m * (Z.of_nat d + 1) <= 100)%Z) ->
  edf_greenhall_simple alpha d m (stride m o) (if md then 1 else m) N = edf_greenhall alpha d m N o md.
Proof.
  intros Hm Hc HJ Hx. rewrite edf_unfold by assumption. cbv zeta. fold (stride m o).
  rewrite M_terms by exact Hm. rewrite (proj2 (Z.leb_le _ 100)) by exact HJ.
  unfold edf_greenhall_simple. rewrite (proj2 (Z.eqb_neq m 0)) by lia.
  rewrite (proj2 (Z.eqb_neq (if md then 1 else m) 0)) by (destruct md; lia). cbv zeta.
  assert (EM : (1 + stride m o * (N - (m / (if md then 1 else m) + m * Z.of_nat d)) / m)%Z = terms d m N o md).
  { rewrite <- M_terms by exact Hm. unfold greenhall_M. destruct md; [now rewrite Z.div_1_r|]. now rewrite Z.div_same by lia. }
  rewrite EM. destruct md; [reflexivity|]. destruct Hx as [C|[->|[C1 C2]]]; [discriminate|reflexivity|].
  rewrite (proj2 (Z.leb_le alpha 0)) by exact C1. rewrite (proj2 (Z.leb_le _ 100)) by exact C2. reflexivity.
Qed.
Print Assumptions C49_simple_full.
Theorem C49_simple_errors alpha d m S F N : (F = 0 \/ m = 0)%Z -> edf_greenhall_simple alpha d m S F N = Err ZeroDivisionError.
Proof. intros [->| ->]; unfold edf_greenhall_simple; [reflexivity|]. now destruct (F =? 0)%Z. Qed.
Print Assumptions C49_simple_errors.
Example C49_ex : (exists e, edf_greenhall 0 2 1 100 true false = Ok e /\ 0 < e <= 98) /\
  edf_greenhall 0 2 10 15 true false = Ok (-5) /\ edf_greenhall 0 2 10 20 true false = Err ZeroDivisionError /\
  edf_greenhall 2 2 10 30 true false = Err NotImplementedError.
Proof.
  split; [|split; [|split]].
  - destruct (C49_bounds 0 2 1 100 true false) as (e & He & H1 & H2); try lia; try (cbn; lia); try (intros (C & _); lia).
    exists e. split; [exact He|]. split; [exact H1|]. apply H2. intros (C & _). lia.
  - apply (C49_negative_refuted 0 2 10 15 true false); try lia; cbn; lia.
  - apply C49_zero; try lia; reflexivity.
  - apply C49_white_pm; try lia. cbn. lia.
Qed.

(** ** C48 continued: the assertion for flicker-walk... random-run FM, overlapping Hadamard *)
Theorem C48_assertion m N : (1 <= m)%Z ->
  edf_greenhall (-4) 3 m N true false = Err AssertionError <-> (26 <= m)%Z /\ (7 * m < N)%Z.
Proof.
  intros Hm. pose proof (C49_errors (-4) 3 m N true false AssertionError Hm ltac:(lia) ltac:(lia)) as H. cbn [stride terms] in H.
  rewrite H. unfold sampled. split.
  - intros [[_ C] | [C | [C | C]]]; [lia| |destruct C as [C _]; discriminate|destruct C as [C _]; discriminate].
    destruct C as (_ & _ & _ & _ & C1 & C2). split; lia.
  - intros [H1 H2]. right; left. repeat split; lia.
Qed.
Print Assumptions C48_assertion.
(** an exponent above the table's range reaches the placeholder row through the
    negative index, and the "degrees of freedom" come out negative *)
Theorem C48_placeholder_refuted m N : (34 <= m)%Z -> (6 * m <= N)%Z ->
  exists e, edf_greenhall 3 2 m N true true = Ok e /\ e < 0.
Proof.
  intros Hm HN. rewrite edf_unfold by lia. cbv zeta. pose proof (M_terms 2 m N true true ltac:(lia)) as EM. cbn [stride terms] in EM. rewrite EM. clear EM. set (M := (N - (Z.of_nat 2 + 1) * m + 1)%Z). assert (HM : (3 * m < M)%Z) by lia.
  rewrite (proj2 (Z.leb_gt _ 100)) by lia.
  assert (Hr : 3 < IZR M / IZR m) by (apply (ratio_lt M m 3); lia).
  replace (Rltb (INR 2 + 1) _) with true by (symmetry; apply Rltb_true; cbn [INR]; lra).
  change (greenhall_table1 3 2) with (Ok (-1, -1) : res (R * R)). cbn [bind]. eexists. split; [reflexivity|].
  set (r := IZR M / IZR m) in *.
  replace (1 / (1 / r * (-1 - -1 / r))) with (- (r * r / (r - 1))) by (field; lra).
  assert (0 < r * r / (r - 1)) by (apply Rdiv_lt_0_compat; nra). lra.
Qed.
Print Assumptions C48_placeholder_refuted.
Example C48_ex : edf_greenhall (-4) 3 26 183 true false = Err AssertionError /\
  (exists e, edf_greenhall (-4) 3 26 182 true false = Ok e).
Proof.
  split; [apply C48_assertion; lia|].
  destruct (C49_bounds (-4) 3 26 182 true false) as (e & He & _); try lia; try (cbn; lia); try (intros (_ & _ & _ & C); cbn in C; lia).
  eauto.
Qed.

(** ** C54 *)
(** (difference order, overlapping, modified, largest differencing tried) of each deviation *)
Definition family (dev_type : string) : option (nat * bool * bool * Z) :=
  if in_dec String.string_dec dev_type ["adev"]%string then Some (2%nat, false, false, 2%Z)
  else if in_dec String.string_dec dev_type ["oadev"]%string then Some (2%nat, true, false, 2%Z)
  else if in_dec String.string_dec dev_type ["mdev"; "tdev"]%string then Some (2%nat, true, true, 2%Z)
  else if in_dec String.string_dec dev_type ["hdev"]%string then Some (3%nat, false, false, 3%Z)
  else if in_dec String.string_dec dev_type ["ohdev"]%string then Some (3%nat, true, false, 3%Z)
  else None.
Lemma noiseID_dispatch ident ppf x dev af dt data_type ci :
  confidence_interval_noiseID ident ppf x dev af dt data_type ci =
  bind (ident x af data_type 0%Z (match family dt with Some (_, _, _, dmax) => dmax | None => 2%Z end)) (fun alpha =>
    match family dt with
    | Some (d, o, md, _) => bind (edf_greenhall alpha d af (Z.of_nat (len x)) o md) (fun edf => Ok (confidence_interval ppf dev edf ci))
    | None => Err NotImplementedError
    end).
Proof.
  unfold confidence_interval_noiseID, family. cbv zeta.
  destruct (in_dec String.string_dec dt ["adev"]%string) as [H|H]; [destruct H as [<- | []]; reflexivity|].
  destruct (in_dec String.string_dec dt ["oadev"]%string) as [H1|H1]; [destruct H1 as [<- | []]; reflexivity|].
  destruct (in_dec String.string_dec dt ["mdev"; "tdev"]%string) as [H2|H2]; [destruct H2 as [<- | [<- | []]]; reflexivity|].
  destruct (in_dec String.string_dec dt ["hdev"]%string) as [H3|H3]; [destruct H3 as [<- | []]; reflexivity|].
  destruct (in_dec String.string_dec dt ["ohdev"]%string) as [H4|H4]; [destruct H4 as [<- | []]; reflexivity|].
  assert (E : forall s l, ~ In dt l -> In s l -> String.eqb dt s = false).
  { intros s l Hn Hi. apply String.eqb_neq. intros ->. contradiction. }
  rewrite (E "adev"%string _ H), (E "oadev"%string _ H1), (E "mdev"%string _ H2), (E "tdev"%string _ H2), (E "hdev"%string _ H3), (E "ohdev"%string _ H4) by (cbn; tauto).
  reflexivity.
Qed.
(** the interval is the chi-squared one with Greenhall's edf of that family for the identified exponent *)
Theorem C54_interval ident ppf x dev af dt data_type ci lo hi :
  confidence_interval_noiseID ident ppf x dev af dt data_type ci = Ok (lo, hi) ->
  exists d o md dmax alpha edf, family dt = Some (d, o, md, dmax) /\ ident x af data_type 0%Z dmax = Ok alpha /\
    edf_greenhall alpha d af (Z.of_nat (len x)) o md = Ok edf /\ (lo, hi) = confidence_interval ppf dev edf ci.
Proof.
  rewrite noiseID_dispatch. destruct (family dt) as [[[[d o] md] dmax]|] eqn:Ef.
  - destruct (ident x af data_type 0%Z dmax) as [alpha|] eqn:Ei; [|discriminate]. cbn [bind].
    destruct (edf_greenhall _ _ _ _ _ _) as [edf|] eqn:Ee; [|discriminate]. cbn [bind]. intros H.
    apply (f_equal (fun r => match r with Ok v => v | Err _ => (lo, hi) end)) in H. cbv beta iota in H.
    exists d, o, md, dmax, alpha, edf. auto.
  - destruct (ident _ _ _ _ _); cbn [bind]; discriminate.
Qed.
Print Assumptions C54_interval.
Theorem C54_unknown ident ppf x dev af dt data_type ci :
  ~ In dt ["adev"; "oadev"; "mdev"; "tdev"; "hdev"; "ohdev"]%string ->
  confidence_interval_noiseID ident ppf x dev af dt data_type ci =
  match ident x af data_type 0%Z 2%Z with Ok _ => Err NotImplementedError | Err e => Err e end.
Proof.
  intros H. rewrite noiseID_dispatch. replace (family dt) with (@None (nat * bool * bool * Z)).
  - destruct (ident x af data_type 0%Z 2%Z); reflexivity.
  - unfold family. cbn [In] in H. repeat (destruct in_dec as [Hi|_]; [cbn [In] in Hi; exfalso; intuition|]). reflexivity.
Qed.
Print Assumptions C54_unknown.
(** end to end: a usable noise type and enough points give a positive, ordered interval *)
Theorem C54_usable ident ppf (x : list R) dev (m : nat) dt data_type ci d o md dmax alpha : quantile_like ppf -> 0 < dev -> 0 < ci < 1 ->
  (1 <= m)%nat -> family dt = Some (d, o, md, dmax) -> ident x (Z.of_nat m) data_type 0%Z dmax = Ok alpha ->
  (-3 <= alpha <= 1)%Z -> (1 < alpha + 2 * Z.of_nat d)%Z -> (1 <= terms d (Z.of_nat m) (Z.of_nat (len x)) o md)%Z ->
  exists lo hi, confidence_interval_noiseID ident ppf x dev (Z.of_nat m) dt data_type ci = Ok (lo, hi) /\ 0 < lo <= hi.
Proof.
  intros Hq Hdev Hci Hm Ef Ei Ha Hc HM. rewrite noiseID_dispatch, Ef, Ei. cbn [bind].
  assert (Hd : (1 <= d <= 3)%nat).
  { unfold family in Ef. repeat (destruct in_dec as [_|_]; [injection Ef as <- _ _ _; lia|]). discriminate. }
  destruct (edf_bounds alpha d (Z.of_nat m) (Z.of_nat (len x)) o md) as (e & He & H1 & _); try lia; try (intros (C & _); lia).
  rewrite He. cbn [bind]. destruct (confidence_interval ppf dev e ci) as [lo hi] eqn:E. exists lo, hi.
  split; [reflexivity|]. now apply (C43_ordered ppf dev e ci).
Qed.
Print Assumptions C54_usable.
Example C54_ex : exists lo hi, confidence_interval_noiseID (fun _ _ _ _ _ => Ok 0%Z) (fun p d => 2 * d * p) (repeat 0 40) 1 2 "oadev" "phase" (2/3) = Ok (lo, hi) /\ 0 < lo <= hi.
Proof.
  apply (C54_usable _ _ _ _ 2 "oadev"%string "phase"%string (2/3) 2 true false 2%Z 0%Z); try lra; try lia; try reflexivity.
  - apply C43_ex.
  - rewrite repeat_length. cbn. lia.
Qed.

(** ** C74 *)
(** anti-correlated phase data are identified as alpha >= 3, for which no edf is implemented *)
Lemma rint_low v : v < - (1/2) -> forall z, nrint v = Some z -> (z <= -1)%Z.
Proof.
  intros Hv z Hz. assert (Hb : Rabs (IZR z - v) <= 1 / 2).
  { cbn [nrint RNum] in Hz. injection Hz as <-. pose proof (rintR_spec v) as Hs. rewrite Rabs_minus_sym. destruct Hs as [Hs|[Hs _]]; lra. }
  assert (z < 0)%Z; [|lia]. apply lt_IZR. unfold Rabs in Hb. destruct Rcase_abs; lra.
Qed.
Theorem C74_anticorrelated detrend (x y : list R) (m : nat) ppf dev ci dt d o md dmax r :
  prepared detrend x m "phase" = Ok y -> (30 <= len y)%nat -> lag1_acf y = Ok r -> -1 < r < - (1/5) ->
  (1 <= m)%nat -> family dt = Some (d, o, md, dmax) ->
  (exists alpha, noise_ident detrend x (Z.of_nat m) "phase" 0 dmax = Ok alpha /\ (3 <= alpha)%Z) /\
  (md = false -> confidence_interval_noiseID (noise_ident detrend) ppf x dev (Z.of_nat m) dt "phase" ci = Err NotImplementedError) /\
  (md = true -> ~ sampled d (stride (Z.of_nat m) o) (terms d (Z.of_nat m) (Z.of_nat (len x)) o md) ->
   confidence_interval_noiseID (noise_ident detrend) ppf x dev (Z.of_nat m) dt "phase" ci = Err AssertionError).
Proof.
  intros Hp Hl Hr Hb Hm Ef.
  assert (Hd : (1 <= d <= 3)%nat /\ (2 <= dmax <= 3)%Z).
  { unfold family in Ef. repeat (destruct in_dec as [_|_]; [injection Ef as <- _ _ <-; lia|]). discriminate. }
  assert (I : exists alpha, noise_ident detrend x (Z.of_nat m) "phase" 0 dmax = Ok alpha /\ (3 <= alpha)%Z).
  { unfold noise_ident. rewrite Nat2Z.id.
    destruct (C50_stops detrend x y m "phase" 0 dmax Hp Hl ltac:(lia)) as (k & rho & H1 & H2 & H3 & H4 & H5).
    assert (Hrho : r / (1 + r) < - (1/4)).
    { apply (Rmult_lt_reg_r (1 + r)); [lra|]. unfold Rdiv at 1. rewrite Rmult_assoc, Rinv_l by lra. lra. }
    assert (Hk : k = 0%nat).
    { destruct k as [|k]; [reflexivity|]. exfalso. apply (H4 0%nat (r / (1 + r)) ltac:(lia)).
      - exists r. split; [exact Hr|]. reflexivity.
      - split; [cbn; lia|]. left. cbn [nltb RNum]. apply Rltb_true. cbn [ofZ RNum ndiv]. lra. }
    subst k. destruct H2 as (r' & Hr' & ->). cbn [differenced] in Hr'. rewrite Hr in Hr'. injection Hr' as <-.
    rewrite H5. unfold int_round.
    destruct (nrint _) as [z|] eqn:Ez; [|exfalso; cbn [nrint RNum] in Ez; discriminate].
    apply rint_low in Ez; [|cbn [ofZ RNum ndiv nmul nadd]; lra].
    cbn [bind]. eexists. split; [reflexivity|]. cbn [String.eqb Ascii.eqb Bool.eqb]. cbn [Z.of_nat]. lia. }
  split; [exact I|]. destruct I as (alpha & Hi & H3). split; intros Hmd; subst md.
  - rewrite noiseID_dispatch, Ef, Hi. cbn [bind]. rewrite C49_alpha_high by lia. reflexivity.
  - intros HJ. rewrite noiseID_dispatch, Ef, Hi. cbn [bind]. rewrite C49_alpha_high_modified by (assumption || lia). reflexivity.
Qed.
Print Assumptions C74_anticorrelated.
(** an alternating record *)
Lemma alternating_acf : lag1_acf (concat (repeat [1; -1] 15)) = Ok (- (29 / 30)).
Proof.
  rewrite lag1_spec by discriminate. f_equal. set (x := concat (repeat [1; -1] 15)).
  assert (Hl : len x = 30%nat) by reflexivity.
  assert (Hmu : mu x = 0) by (unfold mu; rewrite Hl; unfold x; cbn; field).
  assert (Hn : acf_num x = -29) by (unfold acf_num; rewrite Hl, Hmu; unfold x; cbn; ring).
  assert (Hd : acf_den x = 30) by (unfold acf_den; rewrite Hl, Hmu; unfold x; cbn; ring).
  rewrite Hn, Hd. field.
Qed.
Example C74_ex ppf dev ci : confidence_interval_noiseID (noise_ident (fun x _ => Ok x)) ppf (concat (repeat [1; -1] 15)) dev 1 "oadev" "phase" ci = Err NotImplementedError.
Proof.
  destruct (C74_anticorrelated (fun x _ => Ok x) (concat (repeat [1; -1] 15)) (concat (repeat [1; -1] 15)) 1 ppf dev ci "oadev" 2 true false 2%Z (- (29/30))) as (_ & H & _);
    try reflexivity; try (cbn; lia); try lra; [apply alternating_acf|]. now apply H.
Qed.
