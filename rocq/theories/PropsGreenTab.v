(** * The simplified equations of edf_greenhall for large averaging factors (C93) *)
From Coq Require Import Reals List ZArith Lra Lia Arith Bool Psatz.
From Coquelicot Require Import Coquelicot.
From Verif Require Import Base Num NpList NumR ModelCiR Spec ListFacts RSum GreenProofs GreenTab GreenPoly.
Import ListNotations.
Local Open Scope R_scope.
Local Notation len := List.length.

(** Greenhall's formula without any short cut: J = min(M, (d+1)S) terms *)
Definition full_edf (alpha : Z) (d : nat) (M S : Z) (F : option R) : res R :=
  basic alpha d (Z.min M ((Z.of_nat d + 1) * S)) M (IZR S) F.

Lemma full_value alpha d F n p c (m M : Z) : (1 <= d <= 3)%nat -> sx_dom F alpha -> c ^ 2 = 1 -> (forall t, szf d F alpha t = c * kern n p t) -> kern n p 0 <> 0 ->
  (1 <= m)%Z -> ((Z.of_nat d + 1) * m <= M)%Z -> let r := IZR M / IZR m in
  exists e, full_edf alpha d M m F = Ok e /\ 0 < e /\
    r / e = 2 * trap (Z.to_nat m) (d + 1) (fun t => corr n p t ^ 2) - 2 * trap (Z.to_nat m) (d + 1) (fun t => t * corr n p t ^ 2) / r.
Proof.
  intros Hd HF Hc Hk K0 Hm HM r. assert (K0' : szf d F alpha 0 <> 0) by (rewrite Hk; intros C; apply K0; apply Rmult_integral in C as [->|C]; [nra|exact C]).
  assert (M1 : (1 <= M)%Z) by nia. assert (m0 : 0 < IZR m) by (apply IZR_lt; lia). assert (M0 : 0 < IZR M) by (apply IZR_lt; lia).
  destruct (basic_pos alpha d (Z.min M ((Z.of_nat d + 1) * m)) M (IZR m) F) as (e & He & E0 & _); try assumption; [lia|lra|].
  exists e. split; [exact He|]. split; [exact E0|]. unfold basic in He. rewrite sz_ok, basicsum_ok in He by (assumption || lia || lra). cbn [bind] in He.
  injection He as He. set (N := Z.to_nat m). assert (EN : IZR m = INR N) by (unfold N; rewrite INR_IZR_INZ, Z2Nat.id by lia; reflexivity).
  set (J := Z.min M ((Z.of_nat d + 1) * m)) in *. set (b := bsum J M (IZR m) F alpha d) in *.
  assert (b0 : 0 < b) by (eapply Rlt_le_trans; [apply pow2_gt_0; exact K0'|apply bsum_ge; unfold J; lia]).
  replace (r / e) with (b / (IZR m * szf d F alpha 0 ^ 2)) by (rewrite <- He; unfold r; field; repeat split; lra).
  assert (EJ : J = Z.of_nat (N * (d + 1))) by (unfold J, N; rewrite Nat2Z.inj_mul, Z2Nat.id, Nat2Z.inj_add by lia; cbn; lia).
  unfold b. rewrite EJ, EN, bsum_trap by (lia || (unfold N; lia)). rewrite <- EN. fold r.
  assert (r0 : 0 < r) by (unfold r; apply Rdiv_lt_0_compat; assumption).
  rewrite (trap_ext N (d + 1) _ (fun t => kern n p 0 ^ 2 * (corr n p t ^ 2 + (- / r) * (t * corr n p t ^ 2)))).
  2:{ intros t _. rewrite Hk. unfold corr. replace ((1 - t / r) * (c * kern n p t) ^ 2) with (c ^ 2 * ((1 - t / r) * kern n p t ^ 2)) by ring. rewrite Hc. field. split; [exact K0|lra]. }
  rewrite trap_scal, trap_plus, trap_scal, Hk. set (t0 := trap N _ _). set (t1 := trap N _ _).
  replace ((c * kern n p 0) ^ 2) with (kern n p 0 ^ 2) by (rewrite Rpow_mult_distr, Hc; ring). field. repeat split; try assumption; lra.
Qed.

(** *** the limit *)
Lemma comb_le t0 t1 i0 i1 r A B : Rabs (t0 - i0) <= A -> Rabs (t1 - i1) <= B -> 1 <= r ->
  Rabs (2 * t0 - 2 * t1 / r - (2 * i0 - 2 * i1 / r)) <= 2 * A + 2 * B.
Proof.
  intros HA HB Hr. replace (2 * t0 - 2 * t1 / r - (2 * i0 - 2 * i1 / r)) with (2 * (t0 - i0) + 2 * (/ r * (i1 - t1))) by (field; lra).
  eapply Rle_trans; [apply Rabs_triang|]. rewrite !Rabs_mult, (Rabs_right 2), (Rabs_minus_sym i1 t1) by lra.
  assert (R0 : 0 < / r <= 1) by (split; [apply Rinv_0_lt_compat; lra|rewrite <- Rinv_1; apply Rinv_le_contravar; lra]). rewrite (Rabs_right (/ r)) by lra.
  pose proof (Rabs_pos (t1 - i1)). nra.
Qed.
Lemma limit_gen n p T : (1 <= p)%nat -> exists K, 0 <= K /\ forall N r, (1 <= N)%nat -> 1 <= r ->
  Rabs (2 * trap N T (fun t => corr n p t ^ 2) - 2 * trap N T (fun t => t * corr n p t ^ 2) / r - (coef0 n p T - coef1 n p T / r)) <= K / INR N.
Proof.
  intros Hp. assert (L : lips (fun t => corr n p t ^ 2)) by now apply lips_pow, lips_corr.
  assert (L1 : lips (fun t => t * corr n p t ^ 2)) by (apply lips_mult; [apply lips_id|exact L]).
  destruct (trap_limit _ T L) as (K & K0 & HK). destruct (trap_limit _ T L1) as (K1 & K10 & HK1). exists (2 * K + 2 * K1). split; [lra|].
  intros N r HN Hr. specialize (HK N HN). specialize (HK1 N HN). unfold coef0, coef1.
  replace ((2 * K + 2 * K1) / INR N) with (2 * (K / INR N) + 2 * (K1 / INR N)) by (unfold Rdiv; ring). now apply comb_le.
Qed.

(** the kernel of the modified variances (F = 1) and of the unmodified ones in the limit of many samples per tau (F = infinity) *)
Definition order (F : option R) (d : nat) : nat := match F with None => d | Some _ => S d end.
Definition power (F : option R) (alpha : Z) : nat := match F with None => expo (alpha + 2) | Some _ => expo alpha end.
Definition kernel_case (F : option R) (alpha : Z) (d : nat) : Prop :=
  (1 <= d <= 3)%nat /\ (1 < alpha + 2 * Z.of_nat d)%Z /\ ((F = Some 1 /\ (-4 <= alpha <= 2)%Z) \/ (F = None /\ (-4 <= alpha <= 0)%Z)).
Lemma case_kern F alpha d : kernel_case F alpha d -> let n := order F d in let p := power F alpha in
  sx_dom F alpha /\ (1 <= p)%nat /\ kern n p 0 <> 0 /\ exists c, c ^ 2 = 1 /\ forall t, szf d F alpha t = c * kern n p t.
Proof.
  intros (Hd & Hc & [[-> Ha]|[-> Ha]]); cbn [order power].
  - assert (E : forall t, szf d (Some 1) alpha t = sg alpha * kern (S d) (expo alpha) t) by (intros; apply szf_kern_mod; assumption).
    split; [split; [lra|exact Ha]|]. split; [unfold expo; lia|]. split.
    + intros C. apply (sz0_nonzero 1 alpha d); try assumption; [lia|]. rewrite E, C. ring.
    + exists (sg alpha). split; [apply sg2|exact E].
  - assert (E : forall t, szf d None alpha t = sg (alpha + 2) * kern d (expo (alpha + 2)) t) by (intros; apply szf_kern_inf; [assumption|unfold sw_dom; lia]).
    split; [unfold sx_dom, sw_dom; lia|]. split; [unfold expo; lia|]. split.
    + intros C. apply (sz0_inf alpha d); try assumption. rewrite E, C. ring.
    + exists (sg (alpha + 2)). split; [apply sg2|exact E].
Qed.

Theorem C93_limit F alpha d : kernel_case F alpha d -> let n := order F d in let p := power F alpha in
  exists K, forall m M : Z, (1 <= m)%Z -> ((Z.of_nat d + 1) * m <= M)%Z -> let r := IZR M / IZR m in
  exists e, full_edf alpha d M m F = Ok e /\ 0 < e /\ Rabs (r / e - (coef0 n p (d + 1) - coef1 n p (d + 1) / r)) <= K / IZR m.
Proof.
  intros HC n p. destruct (case_kern F alpha d HC) as (Hs & Hp & K0 & c & Hc & Hk). fold n in K0, Hk. fold p in Hp, K0, Hk.
  destruct (limit_gen n p (d + 1) Hp) as (K & _ & HK). exists K. intros m M Hm HM r. destruct HC as (Hd & _).
  destruct (full_value alpha d F n p c m M Hd Hs Hc Hk K0 Hm HM) as (e & He & E0 & Er). exists e. split; [exact He|]. split; [exact E0|].
  fold r in Er. rewrite Er. replace (IZR m) with (INR (Z.to_nat m)) by (rewrite INR_IZR_INZ, Z2Nat.id by lia; reflexivity).
  apply HK; [lia|]. unfold r. assert (0 < IZR m) by (apply IZR_lt; lia). apply Rmult_le_reg_r with (IZR m); [assumption|].
  replace (IZR M / IZR m * IZR m) with (IZR M) by (field; lra). rewrite Rmult_1_l. apply IZR_le. nia.
Qed.
Print Assumptions C93_limit.

(** *** even alpha: the tables agree with the integrals and with the full sum *)
Lemma trap_corr n p T N y : fits n p T = true -> (1 <= N)%nat -> kern n p 0 <> 0 ->
  2 * trap N T (fun t => corr n p t ^ 2) - 2 * trap N T (fun t => t * corr n p t ^ 2) * y =
  2 * (zeval (P0 n p T) (/ INR N ^ 2) - y * zeval (P1 n p T) (/ INR N ^ 2)) / (720720 * kern n p 0 ^ 2).
Proof.
  intros Hf HN K0. rewrite (trap_ext N T (fun t => corr n p t ^ 2) (fun t => / kern n p 0 ^ 2 * kern n p t ^ 2)) by (intros; unfold corr; field; exact K0).
  rewrite (trap_ext N T (fun t => t * corr n p t ^ 2) (fun t => / kern n p 0 ^ 2 * (t * kern n p t ^ 2))) by (intros; unfold corr; field; exact K0).
  rewrite !trap_scal, trap0, trap1 by assumption. field. exact K0.
Qed.

(** the table consulted by edf_greenhall *)
Definition table (F : option R) (alpha : Z) (d : nat) : res (R * R) := match F with None => greenhall_table2 alpha d | Some _ => greenhall_table1 alpha d end.
Definition modified (F : option R) : bool := match F with None => false | Some _ => true end.
Definition even_case (F : option R) (alpha : Z) (d : nat) : Prop := kernel_case F alpha d /\ Z.even alpha = true /\ (F = None -> (-2 <= alpha)%Z).

Definition rows : list (bool * Z * nat * (Z * Z)) :=
  [ (true, 2%Z, 1%nat, (6000, 3000)%Z); (true, 2%Z, 2%nat, (7000, 4500)%Z); (true, 2%Z, 3%nat, (7920, 6000)%Z);
    (true, 0%Z, 1%nat, (9711, 3312)%Z); (true, 0%Z, 2%nat, (9297, 5463)%Z); (true, 0%Z, 3%nat, (10656, 7632)%Z);
    (true, (-2)%Z, 2%nat, (11718, 4815)%Z); (true, (-2)%Z, 3%nat, (10575, 6993)%Z); (true, (-4)%Z, 3%nat, (13401, 6318)%Z);
    (false, 0%Z, 1%nat, (6000, 1500)%Z); (false, 0%Z, 2%nat, (6000, 3000)%Z); (false, 0%Z, 3%nat, (7000, 4500)%Z);
    (false, (-2)%Z, 2%nat, (9711, 3312)%Z); (false, (-2)%Z, 3%nat, (9297, 5463)%Z) ].
Definition Fof (b : bool) : option R := if b then Some 1 else None.
Definition nrow (b : bool) (d : nat) : nat := if b then S d else d.
Definition prow (b : bool) (alpha : Z) : nat := if b then expo alpha else expo (alpha + 2).
Lemma rows_check : forallb (fun '(b, alpha, d, (n0, n1)) => fits (nrow b d) (prow b alpha) (d + 1) && close (nrow b d) (prow b alpha) (d + 1) n0 n1 (100 / Z.of_nat (d + 1) + 1)) rows = true.
Proof. vm_compute. reflexivity. Qed.
Lemma even_rows F alpha d : even_case F alpha d -> exists b n0 n1, F = Fof b /\ In (b, alpha, d, (n0, n1)) rows /\ table F alpha d = Ok (IZR n0 / 9000, IZR n1 / 9000).
Proof.
  intros ((Hd & Hc & Ha) & He & Hn). assert (Hd' : d = 1%nat \/ d = 2%nat \/ d = 3%nat) by lia.
  assert (Hc' : (alpha = 2 \/ alpha = 0 \/ alpha = -2 \/ alpha = -4)%Z).
  { apply Z.even_spec in He as [k ->]. lia. }
  destruct Ha as [[-> Ha]|[-> Ha]]; [exists true|exists false; specialize (Hn eq_refl)];
  destruct Hd' as [-> | [-> | ->]]; destruct Hc' as [-> | [-> | [-> | ->]]]; try (exfalso; cbn in Hc, Hn; lia);
    do 2 eexists; (split; [reflexivity|]); (split; [unfold rows; cbn [In]; repeat first [left; reflexivity|right]|]); (refine (eq_trans (y := Ok (_, _)) _ _); [reflexivity|apply f_equal, f_equal2; lra]).
Qed.
Lemma even_facts F alpha d : even_case F alpha d -> let n := order F d in let p := power F alpha in exists n0 n1,
  table F alpha d = Ok (IZR n0 / 9000, IZR n1 / 9000) /\ fits n p (d + 1) = true /\ close n p (d + 1) n0 n1 (100 / Z.of_nat (d + 1) + 1) = true.
Proof.
  intros H n p. destruct (even_rows F alpha d H) as (b & n0 & n1 & EF & HI & HT). exists n0, n1. split; [exact HT|].
  pose proof rows_check as C. rewrite forallb_forall in C. specialize (C _ HI). cbn in C. apply andb_prop in C.
  unfold n, p. subst F. destruct b; exact C.
Qed.

Theorem C93_even F alpha d (m N : Z) : even_case F alpha d -> (1 <= m)%Z ->
  let M := terms d m N true (modified F) in let r := IZR M / IZR m in
  (100 < (Z.of_nat d + 1) * m)%Z -> ((Z.of_nat d + 1) * m < M)%Z ->
  exists a0 a1 e e', table F alpha d = Ok (a0, a1) /\
    edf_greenhall alpha d m N true (modified F) = Ok e /\ e = r / (a0 - a1 / r) /\
    full_edf alpha d M m F = Ok e' /\ 0 < e' /\ Rabs (e / e' - 1) <= 3 / 1000.
Proof.
  intros HE Hm M r HJ HM. pose proof HE as (HC & Hev & Hn). destruct (even_facts F alpha d HE) as (n0 & n1 & HT & Hf & Hcl).
  destruct (case_kern F alpha d HC) as (Hs & Hp & K0 & c & Hc & Hk). set (n := order F d) in *. set (p := power F alpha) in *.
  pose proof HC as (Hd & Hal & Hab).
  destruct (full_value alpha d F n p c m M Hd Hs Hc Hk K0 Hm) as (e' & He' & E0 & Er); [lia|]. fold r in Er.
  assert (m0 : 0 < IZR m) by (apply IZR_lt; lia). assert (M0 : 0 < IZR M) by (apply IZR_lt; lia). assert (r0 : 0 < r) by (unfold r; apply Rdiv_lt_0_compat; assumption).
  assert (rT : INR (d + 1) < r) by (unfold r; rewrite INR_IZR_INZ; apply ratio_lt; lia). assert (T0 : 0 < INR (d + 1)) by (apply lt_0_INR; lia).
  set (b := IZR n0 / 9000 - IZR n1 / 9000 / r).
  assert (KEY : Rabs (r / e' - b) <= 3 / 1000 * b).
  { rewrite (eq_trans Er (trap_corr n p (d + 1) (Z.to_nat m) (/ r) Hf ltac:(lia) K0)).
    replace b with ((IZR n0 - IZR n1 * / r) / 9000) by (unfold b; field; lra).
    apply close_ok with (S0 := (100 / Z.of_nat (d + 1) + 1)%Z); try assumption.
    - now apply fits_ok in Hf.
    - assert (Q : (100 / Z.of_nat (d + 1) + 1 <= m)%Z).
      { assert (100 / Z.of_nat (d + 1) < m)%Z by (apply Z.div_lt_upper_bound; lia). lia. }
      assert (Q1 : (1 <= 100 / Z.of_nat (d + 1) + 1)%Z) by (assert (0 <= 100 / Z.of_nat (d + 1))%Z by (apply Z.div_pos; lia); lia).
      assert (Q0 : 0 < IZR (100 / Z.of_nat (d + 1) + 1)) by (apply IZR_lt; lia). apply IZR_le in Q.
      rewrite INR_IZR_INZ, Z2Nat.id by lia. split; [left; apply Rinv_0_lt_compat, pow_lt; assumption|].
      apply Rinv_le_contravar; [apply pow_lt; assumption|]. apply pow_incr. lra.
    - split; [left; now apply Rinv_0_lt_compat|]. apply Rinv_le_contravar; lra. }
  assert (B0 : 0 < b).
  { assert (0 < r / e') by now apply Rdiv_lt_0_compat. destruct (Rlt_le_dec 0 b) as [B|B]; [exact B|]. pose proof (Rle_abs (r / e' - b)). lra. }
  exists (IZR n0 / 9000), (IZR n1 / 9000), (r / b), e'. split; [exact HT|]. split; [|split; [reflexivity|]].
  - rewrite edf_unfold by assumption. cbv zeta. change (greenhall_M m m N d (modified F)) with (greenhall_M (stride m true) m N d (modified F)).
    rewrite M_terms by assumption. fold M. rewrite Z.min_r by lia. replace ((Z.of_nat d + 1) * m <=? 100)%Z with false by (symmetry; apply Z.leb_gt; lia).
    fold r. assert (RL : Rltb (INR d + 1) r = true) by (apply Rltb_true; rewrite <- S_INR; replace (S d) with (d + 1)%nat by lia; exact rT).
    rewrite RL. destruct Hab as [[-> _]|[-> Ha]]; cbn [modified table] in *.
    + rewrite HT. cbn [bind]. fold b. f_equal. field. lra.
    + rewrite (proj2 (Z.leb_le alpha 0)) by lia. rewrite HT. cbn [bind]. fold b. f_equal. field. lra.
  - split; [exact He'|]. split; [exact E0|]. replace (r / b / e' - 1) with (/ b * (r / e' - b)) by (field; lra).
    rewrite Rabs_mult, (Rabs_right (/ b)) by (left; now apply Rinv_0_lt_compat). apply Rmult_le_reg_l with b; [exact B0|]. rewrite <- Rmult_assoc, Rinv_r by lra. lra.
Qed.
Print Assumptions C93_even.

(** the complete sum with F = 1 is what edf_greenhall_simple returns for the modified overlapping estimator *)
Theorem C93_simple alpha d (m N : Z) : (1 <= m)%Z -> edf_greenhall_simple alpha d m m 1 N = full_edf alpha d (terms d m N true true) m (Some 1).
Proof.
  intros Hm. unfold edf_greenhall_simple. cbn [Z.eqb]. rewrite (proj2 (Z.eqb_neq m 0)), Z.div_1_r by lia. cbv zeta.
  replace (1 + m * (N - (m + m * Z.of_nat d)) / m)%Z with (terms d m N true true) by (rewrite <- M_terms by lia; reflexivity). reflexivity.
Qed.
Print Assumptions C93_simple.

Theorem C93_even_coef F alpha d a0 a1 : even_case F alpha d -> table F alpha d = Ok (a0, a1) -> let n := order F d in let p := power F alpha in
  Rabs (a0 - coef0 n p (d + 1)) <= 55 / 100000 /\ Rabs (a1 - coef1 n p (d + 1)) <= 55 / 100000.
Proof.
  intros HE HT n p. pose proof HE as (HC & _). destruct (case_kern F alpha d HC) as (_ & Hp & K0 & _).
  destruct (even_facts F alpha d HE) as (n0 & n1 & _ & Hf & _). fold n in Hf, K0. fold p in Hf, K0, Hp. destruct (coef_even n p (d + 1) Hf Hp K0) as [-> ->].
  apply fits_ok in Hf as [Hpo _]. rewrite kz_0 by exact Hpo. clear K0 Hp Hpo n0 n1.
  destruct HE as ((Hd & Hc & Ha) & He & Hn). assert (Hd' : d = 1%nat \/ d = 2%nat \/ d = 3%nat) by lia.
  assert (Hc' : (alpha = 2 \/ alpha = 0 \/ alpha = -2 \/ alpha = -4)%Z) by (apply Z.even_spec in He as [k ->]; lia).
  destruct Ha as [[-> Ha]|[-> Ha]]; [|specialize (Hn eq_refl)];
  destruct Hd' as [-> | [-> | ->]]; destruct Hc' as [-> | [-> | [-> | ->]]]; try (exfalso; cbn in Hc; lia);
    (refine ((fun E => _) (eq_trans (y := Ok (_, _)) (eq_sym HT) _)); [|reflexivity]); injection E as -> ->; clear HT; unfold n, p; cbn [order power];
    match goal with |- context [hd 0%Z (P0 ?n ?p ?T)] => let v := eval vm_compute in (hd 0%Z (P0 n p T)) in replace (hd 0%Z (P0 n p T)) with v by (vm_compute; reflexivity) end;
    match goal with |- context [hd 0%Z (P1 ?n ?p ?T)] => let v := eval vm_compute in (hd 0%Z (P1 n p T)) in replace (hd 0%Z (P1 n p T)) with v by (vm_compute; reflexivity) end;
    match goal with |- context [hd 0%Z (kz ?n ?p 0)] => let v := eval vm_compute in (hd 0%Z (kz n p 0)) in replace (hd 0%Z (kz n p 0)) with v by (vm_compute; reflexivity) end;
    split; apply Rabs_le; lra.
Qed.
Print Assumptions C93_even_coef.

(** *** examples: white PM and white FM, m = 50, N = 1000 *)
Example C93_ex_coef : coef0 2 1 2 = 2 / 3 /\ coef1 2 1 2 = 1 / 3.
Proof.
  assert (K0 : kern 2 1 0 <> 0) by (rewrite kz_0 by reflexivity; apply not_0_IZR; vm_compute; discriminate).
  destruct (coef_even 2 1 2) as [-> ->]; [vm_compute; reflexivity|lia|exact K0|]. rewrite kz_0 by reflexivity.
  replace (hd 0%Z (P0 2 1 2)) with 3843840%Z by (vm_compute; reflexivity). replace (hd 0%Z (P1 2 1 2)) with 1921920%Z by (vm_compute; reflexivity).
  replace (hd 0%Z (kz 2 1 0)) with (-4)%Z by (vm_compute; reflexivity). split; lra.
Qed.
Example C93_ex_case : even_case (Some 1) 0 2 /\ even_case None (-2) 3 /\ kernel_case (Some 1) 1 2.
Proof. repeat split; try lia; try reflexivity; try (intros; lia || discriminate); try (left; split; [reflexivity|lia]); right; split; [reflexivity|lia]. Qed.
Example C93_ex : exists e e', edf_greenhall 0 2 50 1000 true true = Ok e /\ edf_greenhall_simple 0 2 50 50 1 1000 = Ok e' /\ 17 <= e <= 18 /\ Rabs (e / e' - 1) <= 3 / 1000.
Proof.
  destruct (C93_even (Some 1) 0 2 50 1000) as (a0 & a1 & e & e' & HT & He & Ee & He' & _ & H); [apply C93_ex_case|lia|cbn; lia|cbn; lia|].
  exists e, e'. split; [exact He|]. split; [rewrite C93_simple by lia; exact He'|]. split; [|exact H].
  injection HT as <- <-. rewrite Ee. cbn [terms modified]. replace (1000 - (Z.of_nat 2 + 1) * 50 + 1)%Z with 851%Z by reflexivity. lra.
Qed.
