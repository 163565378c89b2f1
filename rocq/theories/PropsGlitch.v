(** * Signature of one outlier, one phase step and one frequency step (C119). *)
From Coq Require Import String Reals List ZArith Lra Lia Arith Bool Psatz.
From Verif Require Import Base Num NpList ModelCore ModelDev NumR ListFacts Spec RSum TauProofs DevProofs TotProofs Closed Laws Laws2 Laws3 ConvProofs PropsSignal.
Import ListNotations.
Local Open Scope R_scope.
Local Notation len := List.length.

(** N samples of a line with an event [g] added *)
Definition with_event (a b : R) (g : nat -> R) (N : nat) : list R := map (fun i => a + b * INR i + g i) (seq 0 N).
(** one wrong sample, at index k *)
Definition outlier (A : R) (k i : nat) : R := if Nat.eqb i k then A else 0.
(** the phase jumps by J, first seen in sample k *)
Definition phase_step (J : R) (k i : nat) : R := if (k <=? i)%nat then J else 0.
(** the frequency jumps by J at sample k *)
Definition freq_step (J rate : R) (k i : nat) : R := if (k <=? i)%nat then J * INR (i - k) / rate else 0.

Lemma ev_len a b g N : len (with_event a b g N) = N.
Proof. unfold with_event. now rewrite map_length, seq_length. Qed.
Lemma ev_nth a b g N i : (i < N)%nat -> (with_event a b g N).[i] = a + b * INR i + g i.
Proof. intro H. exact (nth_tab N (fun i => a + b * INR i + g i) i 0 H). Qed.

(** differences of the event alone *)
Definition D2 (g : nat -> R) (m i : nat) : R := g (i + 2 * m)%nat - 2 * g (i + m)%nat + g i.
Definition D3 (g : nat -> R) (m i : nat) : R := g (i + 3 * m)%nat - 3 * g (i + 2 * m)%nat + 3 * g (i + m)%nat - g i.
Lemma d2_ev a b g N m i : (i + 2 * m < N)%nat -> d2 (with_event a b g N) m i = D2 g m i.
Proof. intro H. unfold d2, D2. rewrite !ev_nth by lia. rewrite !plus_INR, mult_INR. cbn [INR]. ring. Qed.
Lemma d3_ev a b g N m i : (i + 3 * m < N)%nat -> d3 (with_event a b g N) m i = D3 g m i.
Proof. intro H. unfold d3, D3. rewrite !ev_nth by lia. rewrite !plus_INR, !mult_INR. cbn [INR]. ring. Qed.

Lemma m_grid N m j c : (1 <= m)%nat -> (j < (N - 1) / m - c)%nat -> (j * m + (S c) * m < N)%nat.
Proof. intros Hm Hj. pose proof (Nat.div_mod (N - 1) m ltac:(lia)). set (q := ((N - 1) / m)%nat) in *. nia. Qed.

Section Var.
Variables (a b : R) (g : nat -> R) (N m : nat) (rate : R).
Hypothesis Hr : 0 < rate.
Hypothesis Hm : (1 <= m)%nat.
Let x := with_event a b g N.
Let tau := INR m / rate.
Local Lemma mm : INR m <> 0. Proof using Hm. apply not_0_INR. lia. Qed.

Lemma oavar_ev : (0 < N - 2 * m)%nat -> INR (N - 2 * m) * oavar x (1 / rate) m = bigsum (N - 2 * m) (fun i => D2 g m i ^ 2) / 2 / tau ^ 2.
Proof using Hr Hm.
  intro Hn. unfold oavar, oadev_n, x. rewrite ev_len. rewrite (bigsum_ext _ _ (fun i => D2 g m i ^ 2)) by (intros i Hi; rewrite d2_ev by lia; reflexivity).
  assert (INR (N - 2 * m) <> 0) by (apply not_0_INR; lia). pose proof mm. unfold tau. field. repeat split; auto; lra.
Qed.
Lemma avar_ev : (0 < (N - 1) / m - 1)%nat -> INR ((N - 1) / m - 1) * avar x (1 / rate) m = bigsum ((N - 1) / m - 1) (fun j => D2 g m (j * m) ^ 2) / 2 / tau ^ 2.
Proof using Hr Hm.
  intro Hn. unfold avar, adev_n, x. rewrite ev_len. rewrite (bigsum_ext _ _ (fun j => D2 g m (j * m) ^ 2)) by (intros j Hj; rewrite d2_ev by (apply (m_grid N m j 1); lia); reflexivity).
  set (n := ((N - 1) / m - 1)%nat) in *. assert (INR n <> 0) by (apply not_0_INR; lia). pose proof mm. unfold tau. field. repeat split; auto; lra.
Qed.
Lemma ohvar_ev : (0 < N - 3 * m)%nat -> INR (N - 3 * m) * ohvar x (1 / rate) m = bigsum (N - 3 * m) (fun i => D3 g m i ^ 2) / 6 / tau ^ 2.
Proof using Hr Hm.
  intro Hn. unfold ohvar, ohdev_n, x. rewrite ev_len. rewrite (bigsum_ext _ _ (fun i => D3 g m i ^ 2)) by (intros i Hi; rewrite d3_ev by lia; reflexivity).
  assert (INR (N - 3 * m) <> 0) by (apply not_0_INR; lia). pose proof mm. unfold tau. field. repeat split; auto; lra.
Qed.
Lemma hvar_ev : (0 < (N - 1) / m - 2)%nat -> INR ((N - 1) / m - 2) * hvar x (1 / rate) m = bigsum ((N - 1) / m - 2) (fun j => D3 g m (j * m) ^ 2) / 6 / tau ^ 2.
Proof using Hr Hm.
  intro Hn. unfold hvar, hdev_n, x. rewrite ev_len. rewrite (bigsum_ext _ _ (fun j => D3 g m (j * m) ^ 2)) by (intros j Hj; rewrite d3_ev by (apply (m_grid N m j 2); lia); reflexivity).
  set (n := ((N - 1) / m - 2)%nat) in *. assert (INR n <> 0) by (apply not_0_INR; lia). pose proof mm. unfold tau. field. repeat split; auto; lra.
Qed.
(** window sums *)
Definition W (g : nat -> R) (m j : nat) : R := bigsum m (fun i => g (j + i)%nat).
Lemma mvar_ev : (3 * m <= N)%nat -> INR (N - 3 * m + 1) * mvar x (1 / rate) m = bigsum (N - 3 * m + 1) (fun j => D2 (W g m) m j ^ 2) / 2 / INR m ^ 2 / tau ^ 2.
Proof using Hr Hm.
  intro Hn. unfold mvar, mdev_n, x. rewrite ev_len. replace (Z.of_nat N - 3 * Z.of_nat m + 1)%Z with (Z.of_nat (N - 3 * m + 1)) by lia. rewrite Nat2Z.id, <- INR_IZR_INZ.
  rewrite (bigsum_ext _ _ (fun j => D2 (W g m) m j ^ 2)).
  2:{ intros j Hj. f_equal. unfold D2, W. rewrite <- bigsum_scal, <- bigsum_minus, <- bigsum_plus. apply bigsum_ext. intros i Hi. rewrite d2_ev by lia. unfold D2.
      replace (j + 2 * m + i)%nat with (j + i + 2 * m)%nat by lia. replace (j + m + i)%nat with (j + i + m)%nat by lia. reflexivity. }
  assert (INR (N - 3 * m + 1) <> 0) by (apply not_0_INR; lia). pose proof mm. unfold tau. field. repeat split; auto; lra.
Qed.
Definition P1 (g : nat -> R) (m i : nat) : R := bigsum m (fun k => ((INR m - 1) / 2 - INR k) * (g (i + k)%nat - g (i + k + m)%nat)).
Lemma pvar_ev : m <> 1%nat -> (0 < N - 2 * m)%nat -> INR (N - 2 * m) * pvar x (1 / rate) m = 72 * bigsum (N - 2 * m) (fun i => P1 g m i ^ 2) / INR m ^ 4 / tau ^ 2.
Proof using Hr Hm.
  intros H1 Hn. unfold pvar, oadev_n, x. destruct (Nat.eqb_spec m 1); [contradiction|]. rewrite ev_len. rewrite (bigsum_ext _ _ (fun i => P1 g m i ^ 2)).
  2:{ intros i Hi. f_equal. unfold P1. rewrite (bigsum_ext m _ (fun k => ((INR m - 1) / 2 - INR k) * (g (i + k)%nat - g (i + k + m)%nat) + (- (b * INR m)) * ((INR m - 1) / 2 - INR k))).
      2:{ intros k Hk. rewrite !ev_nth by lia. rewrite !plus_INR. ring. }
      rewrite bigsum_plus, bigsum_scal, sum_pdev0. ring. }
  assert (INR (N - 2 * m) <> 0) by (apply not_0_INR; lia). pose proof mm. unfold tau. field. repeat split; auto; lra.
Qed.
End Var.

(** ** Sums *)
Lemma only n c (v : R) : (c < n)%nat -> bigsum n (fun i => if Nat.eqb i c then v else 0) = v.
Proof.
  intro H. induction n as [|n IH]; [lia|]. rewrite bigsum_S. destruct (Nat.eqb_spec n c) as [->|E].
  - rewrite bigsum_0; [ring|]. intros i Hi. destruct (Nat.eqb_spec i c); [lia|reflexivity].
  - rewrite IH by lia. ring.
Qed.
(** a function that vanishes outside [a, a+L) *)
Lemma support n s L (f : nat -> R) : (s + L <= n)%nat -> (forall i, (i < n)%nat -> (i < s \/ s + L <= i)%nat -> f i = 0) -> bigsum n f = bigsum L (fun p => f (s + p)%nat).
Proof.
  intros H Z. replace n with (s + (L + (n - s - L)))%nat by lia. rewrite !bigsum_add, (bigsum_0 s) by (intros i Hi; apply Z; lia).
  rewrite (bigsum_0 (n - s - L)) by (intros i Hi; apply Z; lia). ring.
Qed.
Lemma seg2 n s m (f f1 f2 : nat -> R) : (s + 2 * m <= n)%nat -> (forall i, (i < n)%nat -> (i < s \/ s + 2 * m <= i)%nat -> f i = 0) ->
  (forall p, (p < m)%nat -> f (s + p)%nat = f1 p /\ f (s + m + p)%nat = f2 p) -> bigsum n f = bigsum m f1 + bigsum m f2.
Proof.
  intros H Z E. rewrite (support n s (2 * m)) by (auto; lia). replace (2 * m)%nat with (m + m)%nat by lia. rewrite bigsum_add.
  f_equal; apply bigsum_ext; intros p Hp; destruct (E p Hp) as [E1 E2]; [exact E1|]. rewrite <- E2. f_equal. lia.
Qed.
Lemma seg3 n s m (f f1 f2 f3 : nat -> R) : (s + 3 * m <= n)%nat -> (forall i, (i < n)%nat -> (i < s \/ s + 3 * m <= i)%nat -> f i = 0) ->
  (forall p, (p < m)%nat -> f (s + p)%nat = f1 p /\ f (s + m + p)%nat = f2 p /\ f (s + 2 * m + p)%nat = f3 p) -> bigsum n f = bigsum m f1 + bigsum m f2 + bigsum m f3.
Proof.
  intros H Z E. rewrite (support n s (3 * m)) by (auto; lia). replace (3 * m)%nat with (m + (m + m))%nat by lia. rewrite !bigsum_add, <- Rplus_assoc.
  f_equal; [f_equal|]; apply bigsum_ext; intros p Hp; destruct (E p Hp) as (E1 & E2 & E3); [exact E1| |]; [rewrite <- E2|rewrite <- E3]; f_equal; lia.
Qed.
(** sum of squares of a quadratic *)
Lemma quad q al be ga : bigsum q (fun r => (al * INR r ^ 2 + be * INR r + ga) ^ 2) =
  let n := INR q in
  al ^ 2 * (n * (n - 1) * (2 * n - 1) * (3 * n ^ 2 - 3 * n - 1) / 30) + 2 * al * be * (n * (n - 1) / 2) ^ 2 +
  (be ^ 2 + 2 * al * ga) * (n * (n - 1) * (2 * n - 1) / 6) + 2 * be * ga * (n * (n - 1) / 2) + ga ^ 2 * n.
Proof. induction q as [|q IH]; [cbn; field|]. rewrite bigsum_S, IH. cbv zeta. rewrite S_INR. field. Qed.
Lemma count_win n c m : (m <= c + 1)%nat -> (c < n)%nat -> bigsum n (fun j => if ((j <=? c) && (c <? j + m))%nat%bool then 1 else 0) = INR m.
Proof.
  intros H1 H2. rewrite (support n (c + 1 - m) m) by (try lia; intros i Hi Ho; destruct (Nat.leb_spec i c), (Nat.ltb_spec c (i + m)); cbn; reflexivity || lia).
  rewrite (bigsum_ext m _ (fun _ => 1)). { rewrite bigsum_const. ring. }
  intros p Hp. destruct (Nat.leb_spec (c + 1 - m + p) c); [|lia]. destruct (Nat.ltb_spec c (c + 1 - m + p + m)); [reflexivity|lia].
Qed.

Ltac splits := repeat match goal with
  | |- context [Nat.eqb ?u ?v] => destruct (Nat.eqb_spec u v); try (exfalso; lia)
  | |- context [Nat.leb ?u ?v] => destruct (Nat.leb_spec u v); try (exfalso; lia)
  | |- context [Nat.ltb ?u ?v] => destruct (Nat.ltb_spec u v); try (exfalso; lia) end; cbn [andb].
(** ** One outlier *)
Section Outlier.
Variables (A : R) (k N m : nat).
Hypothesis Hm : (1 <= m)%nat.
Let g := outlier A k.

Ltac cases := unfold g, outlier; splits; ring.

Lemma out_o2 : (2 * m <= k)%nat -> (k + 2 * m < N)%nat -> bigsum (N - 2 * m) (fun i => D2 g m i ^ 2) = 6 * A ^ 2.
Proof using Hm.
  intros H1 H2. rewrite (bigsum_ext _ _ (fun i => (if Nat.eqb i (k - 2 * m) then A ^ 2 else 0) + (if Nat.eqb i (k - m) then 4 * A ^ 2 else 0) + (if Nat.eqb i k then A ^ 2 else 0))).
  - rewrite !bigsum_plus, !only by lia. ring.
  - intros i Hi. unfold D2. cases.
Qed.
Lemma out_o3 : (3 * m <= k)%nat -> (k + 3 * m < N)%nat -> bigsum (N - 3 * m) (fun i => D3 g m i ^ 2) = 20 * A ^ 2.
Proof using Hm.
  intros H1 H2. rewrite (bigsum_ext _ _ (fun i => (if Nat.eqb i (k - 3 * m) then A ^ 2 else 0) + (if Nat.eqb i (k - 2 * m) then 9 * A ^ 2 else 0) + (if Nat.eqb i (k - m) then 9 * A ^ 2 else 0) + (if Nat.eqb i k then A ^ 2 else 0))).
  - rewrite !bigsum_plus, !only by lia. ring.
  - intros i Hi. unfold D3. cases.
Qed.
Lemma on_grid j q c : (j * m + c * m = q * m <-> j + c = q)%nat.
Proof using Hm. split; intro H; [|subst; ring]. rewrite <- Nat.mul_add_distr_r in H. now apply Nat.mul_cancel_r in H; [|lia]. Qed.
Lemma grid_eqb j q c : Nat.eqb (j * m + c * m) (q * m) = Nat.eqb (j + c) q.
Proof using Hm. pose proof (on_grid j q c) as [G G']. destruct (Nat.eqb_spec (j * m + c * m) (q * m)), (Nat.eqb_spec (j + c) q); auto; exfalso; auto. Qed.
Lemma grid_eqb1 j q : Nat.eqb (j * m + m) (q * m) = Nat.eqb (j + 1) q.
Proof using Hm. pose proof (grid_eqb j q 1) as G. now rewrite Nat.mul_1_l in G. Qed.
Lemma grid_eqb0 j q : Nat.eqb (j * m) (q * m) = Nat.eqb j q.
Proof using Hm. pose proof (grid_eqb j q 0) as G. now rewrite Nat.mul_0_l, !Nat.add_0_r in G. Qed.
Lemma grid_hi q c : (q * m + c * m < N)%nat -> (q + c <= (N - 1) / m)%nat.
Proof using Hm. intro H. apply Nat.div_le_lower_bound; [lia|]. nia. Qed.
Lemma out_a2 : (2 * m <= k)%nat -> (k + 2 * m < N)%nat -> bigsum ((N - 1) / m - 1) (fun j => D2 g m (j * m) ^ 2) = if Nat.eqb (k mod m) 0 then 6 * A ^ 2 else 0.
Proof using Hm.
  intros H1 H2. destruct (Nat.eqb_spec (k mod m) 0) as [E|E].
  - assert (Q : exists q, k = (q * m)%nat) by (apply Nat.mod_divides in E; [|lia]; destruct E as [q ->]; exists q; ring). destruct Q as [q Q].
    pose proof (grid_hi q 2 ltac:(lia)) as Hq. assert (2 <= q)%nat by nia.
    rewrite (bigsum_ext _ _ (fun j => (if Nat.eqb j (q - 2) then A ^ 2 else 0) + (if Nat.eqb j (q - 1) then 4 * A ^ 2 else 0) + (if Nat.eqb j q then A ^ 2 else 0))).
    + rewrite !bigsum_plus, !only by lia. ring.
    + intros j Hj. unfold D2, g, outlier. rewrite Q, grid_eqb, grid_eqb1, grid_eqb0. clear Q E Hj Hq H1 H2. splits; ring.
  - apply bigsum_0. intros j Hj. unfold D2, g, outlier.
    assert (G : forall c, (j * m + c * m)%nat <> k) by (intros c <-; apply E; rewrite <- Nat.mul_add_distr_r; apply Nat.mod_mul; lia).
    pose proof (G 2%nat) as G2. pose proof (G 1%nat) as G1. pose proof (G 0%nat) as G0. rewrite Nat.mul_1_l in G1. rewrite Nat.mul_0_l, Nat.add_0_r in G0.
    destruct (Nat.eqb_spec (j * m + 2 * m) k), (Nat.eqb_spec (j * m + m) k), (Nat.eqb_spec (j * m) k); try contradiction. ring.
Qed.
Lemma out_a3 : (3 * m <= k)%nat -> (k + 3 * m < N)%nat -> bigsum ((N - 1) / m - 2) (fun j => D3 g m (j * m) ^ 2) = if Nat.eqb (k mod m) 0 then 20 * A ^ 2 else 0.
Proof using Hm.
  intros H1 H2. destruct (Nat.eqb_spec (k mod m) 0) as [E|E].
  - assert (Q : exists q, k = (q * m)%nat) by (apply Nat.mod_divides in E; [|lia]; destruct E as [q ->]; exists q; ring). destruct Q as [q Q].
    pose proof (grid_hi q 3 ltac:(lia)) as Hq. assert (3 <= q)%nat by nia.
    rewrite (bigsum_ext _ _ (fun j => (if Nat.eqb j (q - 3) then A ^ 2 else 0) + (if Nat.eqb j (q - 2) then 9 * A ^ 2 else 0) + (if Nat.eqb j (q - 1) then 9 * A ^ 2 else 0) + (if Nat.eqb j q then A ^ 2 else 0))).
    + rewrite !bigsum_plus, !only by lia. ring.
    + intros j Hj. unfold D3, g, outlier. rewrite Q, !grid_eqb, grid_eqb1, grid_eqb0. clear Q E Hj Hq H1 H2. splits; ring.
  - apply bigsum_0. intros j Hj. unfold D3, g, outlier.
    assert (G : forall c, (j * m + c * m)%nat <> k) by (intros c <-; apply E; rewrite <- Nat.mul_add_distr_r; apply Nat.mod_mul; lia).
    pose proof (G 3%nat) as G3. pose proof (G 2%nat) as G2. pose proof (G 1%nat) as G1. pose proof (G 0%nat) as G0. rewrite Nat.mul_1_l in G1. rewrite Nat.mul_0_l, Nat.add_0_r in G0.
    destruct (Nat.eqb_spec (j * m + 3 * m) k), (Nat.eqb_spec (j * m + 2 * m) k), (Nat.eqb_spec (j * m + m) k), (Nat.eqb_spec (j * m) k); try contradiction. ring.
Qed.
Lemma out_W j : W g m j = if ((j <=? k) && (k <? j + m))%nat%bool then A else 0.
Proof using Hm.
  unfold W, g, outlier. destruct (Nat.leb_spec j k), (Nat.ltb_spec k (j + m)); cbn [andb].
  - rewrite (bigsum_ext _ _ (fun i => if Nat.eqb i (k - j) then A else 0)); [apply only; lia|]. intros i Hi. cases.
  - apply bigsum_0. intros i Hi. cases.
  - apply bigsum_0. intros i Hi. cases.
  - apply bigsum_0. intros i Hi. cases.
Qed.
Lemma out_m : (3 * m <= k)%nat -> (k + 3 * m < N)%nat -> bigsum (N - 3 * m + 1) (fun j => D2 (W g m) m j ^ 2) = 6 * INR m * A ^ 2.
Proof using Hm.
  intros H1 H2. set (w := fun c j => if ((j <=? c) && (c <? j + m))%nat%bool then 1 else 0).
  rewrite (bigsum_ext _ _ (fun j => A ^ 2 * w (k - 2 * m)%nat j + 4 * A ^ 2 * w (k - m)%nat j + A ^ 2 * w k j)).
  - rewrite !bigsum_plus, !bigsum_scal. unfold w. rewrite !count_win by lia. ring.
  - intros j Hj. unfold D2. rewrite !out_W. unfold w.
    splits; ring.
Qed.
Lemma out_P i : P1 g m i = (if ((i <=? k) && (k <? i + m))%nat%bool then ((INR m - 1) / 2 - INR (k - i)) * A else 0) -
  (if ((i + m <=? k) && (k <? i + m + m))%nat%bool then ((INR m - 1) / 2 - INR (k - i - m)) * A else 0).
Proof using Hm.
  unfold P1. rewrite (bigsum_ext m _ (fun q => ((INR m - 1) / 2 - INR q) * g (i + q)%nat - ((INR m - 1) / 2 - INR q) * g (i + q + m)%nat)) by (intros; ring). rewrite bigsum_minus.
  assert (G : forall s, bigsum m (fun q => ((INR m - 1) / 2 - INR q) * g (s + q)%nat) = if ((s <=? k) && (k <? s + m))%nat%bool then ((INR m - 1) / 2 - INR (k - s)) * A else 0).
  { intro s. destruct (Nat.leb_spec s k), (Nat.ltb_spec k (s + m)); cbn [andb].
    - rewrite (bigsum_ext m _ (fun q => if Nat.eqb q (k - s) then ((INR m - 1) / 2 - INR (k - s)) * A else 0)); [apply only; lia|].
      intros q Hq. unfold g, outlier. destruct (Nat.eqb_spec (s + q) k), (Nat.eqb_spec q (k - s)); try (exfalso; lia); try (replace (k - s)%nat with q by lia); ring.
    - apply bigsum_0. intros q Hq. cases.
    - apply bigsum_0. intros q Hq. cases.
    - apply bigsum_0. intros q Hq. cases. }
  rewrite G. f_equal. rewrite (bigsum_ext m _ (fun q => ((INR m - 1) / 2 - INR q) * g (i + m + q)%nat)) by (intros q Hq; do 2 f_equal; lia).
  rewrite G. now rewrite <- Nat.sub_add_distr.
Qed.
Lemma out_p : (2 * m <= k)%nat -> (k + 2 * m < N)%nat -> bigsum (N - 2 * m) (fun i => P1 g m i ^ 2) = INR m * (INR m ^ 2 - 1) / 6 * A ^ 2.
Proof using Hm.
  intros H1 H2. set (sq := fun p => (0 * INR p ^ 2 + A * INR p + (- ((INR m - 1) / 2 * A))) ^ 2).
  rewrite (seg2 _ (k - 2 * m + 1) m _ sq sq); [unfold sq; rewrite quad; cbv zeta; field|lia| |].
  - intros i Hi Ho. rewrite out_P. splits; ring.
  - intros p Hp. rewrite !out_P. set (i1 := (k - 2 * m + 1 + p)%nat). set (i2 := (k - 2 * m + 1 + m + p)%nat). split.
    + destruct (Nat.leb_spec i1 k), (Nat.ltb_spec k (i1 + m)), (Nat.leb_spec (i1 + m) k), (Nat.ltb_spec k (i1 + m + m)); try (unfold i1 in *; lia); cbn [andb].
      replace (k - i1 - m)%nat with (m - 1 - p)%nat by (unfold i1; lia). rewrite !minus_INR by lia. unfold sq. cbn [INR]. field.
    + destruct (Nat.leb_spec i2 k), (Nat.ltb_spec k (i2 + m)), (Nat.leb_spec (i2 + m) k), (Nat.ltb_spec k (i2 + m + m)); try (unfold i2 in *; lia); cbn [andb].
      replace (k - i2)%nat with (m - 1 - p)%nat by (unfold i2; lia). rewrite !minus_INR by lia. unfold sq. cbn [INR]. field.
Qed.
End Outlier.

(** ** One phase step *)
Section Step.
Variables (J : R) (k N m : nat).
Hypothesis Hm : (1 <= m)%nat.
Let g := phase_step J k.

Ltac cases := unfold D2, D3, g, phase_step; splits; ring.

Lemma st_o2 : (2 * m <= k)%nat -> (k + 2 * m <= N)%nat -> bigsum (N - 2 * m) (fun i => D2 g m i ^ 2) = 2 * INR m * J ^ 2.
Proof using Hm.
  intros H1 H2. rewrite (seg2 _ (k - 2 * m) m _ (fun _ => J ^ 2) (fun _ => J ^ 2)); [rewrite !bigsum_const; ring|lia| |].
  - intros i Hi Ho. cases.
  - intros p Hp. split; cases.
Qed.
Lemma st_o3 : (3 * m <= k)%nat -> (k + 3 * m <= N)%nat -> bigsum (N - 3 * m) (fun i => D3 g m i ^ 2) = 6 * INR m * J ^ 2.
Proof using Hm.
  intros H1 H2. rewrite (seg3 _ (k - 3 * m) m _ (fun _ => J ^ 2) (fun _ => 4 * J ^ 2) (fun _ => J ^ 2)); [rewrite !bigsum_const; ring|lia| |].
  - intros i Hi Ho. cases.
  - intros p Hp. split; [cases|split; cases].
Qed.
Lemma st_W j : W g m j = J * INR (Nat.min m (j + m - k)).
Proof using Hm.
  unfold W. rewrite (support m (m - Nat.min m (j + m - k)) (Nat.min m (j + m - k))).
  - rewrite (bigsum_ext _ _ (fun _ => J)); [rewrite bigsum_const; ring|]. intros p Hp. cases.
  - lia.
  - intros i Hi Ho. cases.
Qed.
Lemma st_m : (3 * m <= k)%nat -> (k + 3 * m <= N)%nat -> bigsum (N - 3 * m + 1) (fun j => D2 (W g m) m j ^ 2) = INR m * (INR m ^ 2 + 1) * J ^ 2.
Proof using Hm.
  intros H1 H2. set (f := fun be ga p => (0 * INR p ^ 2 + be * INR p + ga) ^ 2).
  rewrite (seg3 _ (k - 3 * m) m _ (f J 0) (f (-2 * J) (J * INR m)) (f J (- (J * INR m)))); [unfold f; rewrite !quad; cbv zeta; field|lia| |].
  - intros i Hi Ho. unfold D2. rewrite !st_W. destruct Ho.
    + replace (Nat.min m (i + 2 * m + m - k)) with 0%nat by lia. replace (Nat.min m (i + m + m - k)) with 0%nat by lia. replace (Nat.min m (i + m - k)) with 0%nat by lia. cbn [INR]. ring.
    + replace (Nat.min m (i + 2 * m + m - k)) with m by lia. replace (Nat.min m (i + m + m - k)) with m by lia. replace (Nat.min m (i + m - k)) with m by lia. ring.
  - intros p Hp. unfold D2, f. rewrite !st_W. split; [|split].
    + replace (Nat.min m _) with p by lia. replace (Nat.min m _) with 0%nat by lia. replace (Nat.min m (k - 3 * m + p + m - k)) with 0%nat by lia. cbn [INR]. ring.
    + replace (Nat.min m (k - 3 * m + m + p + 2 * m + m - k)) with m by lia. replace (Nat.min m (k - 3 * m + m + p + m + m - k)) with p by lia. replace (Nat.min m (k - 3 * m + m + p + m - k)) with 0%nat by lia. cbn [INR]. ring.
    + replace (Nat.min m (k - 3 * m + 2 * m + p + 2 * m + m - k)) with m by lia. replace (Nat.min m (k - 3 * m + 2 * m + p + m + m - k)) with m by lia. replace (Nat.min m (k - 3 * m + 2 * m + p + m - k)) with p by lia. ring.
Qed.
Lemma w_head s : (s <= m)%nat -> bigsum s (fun q => (INR m - 1) / 2 - INR q) = INR s * (INR m - INR s) / 2.
Proof using Hm.
  intros _. rewrite (bigsum_ext s _ (fun q => (INR m - 1) / 2 + (-1) * INR q)) by (intros; ring). rewrite bigsum_plus, bigsum_scal, bigsum_const, sum_k. field.
Qed.
Lemma st_p : (2 * m <= k)%nat -> (k + 2 * m <= N)%nat -> bigsum (N - 2 * m) (fun i => P1 g m i ^ 2) = INR m * (INR m ^ 4 - 1) / 60 * J ^ 2.
Proof using Hm.
  intros H1 H2. set (f := fun p => (- J / 2 * INR p ^ 2 + J * INR m / 2 * INR p + 0) ^ 2).
  rewrite (seg2 _ (k - 2 * m) m _ f f); [unfold f; rewrite !quad; cbv zeta; field|lia| |].
  - intros i Hi Ho. unfold P1. rewrite (bigsum_0 m); [ring|]. intros q Hq. cases.
  - intros p Hp. split.
    + assert (E : P1 g m (k - 2 * m + p) = J * (INR p * (INR m - INR p) / 2)).
      { unfold P1. replace m with ((m - p) + p)%nat at 1 by lia. rewrite bigsum_add, bigsum_0, Rplus_0_l by (intros q Hq; cases).
        rewrite (bigsum_ext p _ (fun q => (- J) * ((INR m - 1) / 2 - INR (m - p + q)))) by (intros q Hq; cases). rewrite bigsum_scal.
        pose proof (w_head m ltac:(lia)) as H. replace m with ((m - p) + p)%nat in H at 1 by lia. rewrite bigsum_add, w_head, minus_INR in H by lia.
        set (s := bigsum p _) in *. replace s with (- (INR p * (INR m - INR p) / 2)); [ring|]. lra. }
      rewrite E. unfold f. field.
    + assert (E : P1 g m (k - 2 * m + m + p) = - (J * (INR p * (INR m - INR p) / 2))).
      { unfold P1. replace m with ((m - p) + p)%nat at 1 by lia. rewrite bigsum_add, (bigsum_0 p), Rplus_0_r by (intros q Hq; cases).
        rewrite (bigsum_ext (m - p) _ (fun q => (- J) * ((INR m - 1) / 2 - INR q))) by (intros q Hq; cases). rewrite bigsum_scal, w_head, minus_INR by lia. field. }
      rewrite E. unfold f. field.
Qed.
End Step.

(** the step seen on every m-th sample *)
Lemma ceil_grid k m : (1 <= m)%nat -> let q := ((k + (m - 1)) / m)%nat in (q * m < k + m /\ k <= q * m)%nat.
Proof. intros Hm q. pose proof (Nat.div_mod (k + (m - 1)) m ltac:(lia)) as D. pose proof (Nat.mod_upper_bound (k + (m - 1)) m ltac:(lia)). fold q in D. nia. Qed.
Lemma grid_le k m q j : (1 <= m)%nat -> (q * m < k + m)%nat -> (k <= q * m)%nat -> (k <=? j * m)%nat = (q <=? j)%nat.
Proof. intros Hm H1 H2. destruct (Nat.leb_spec q j), (Nat.leb_spec k (j * m)); try reflexivity; exfalso; nia. Qed.
Lemma grid_top N m q c : (1 <= m)%nat -> ((q + c) * m < N)%nat -> (q + c <= (N - 1) / m)%nat.
Proof. intros Hm H. apply Nat.div_le_lower_bound; nia. Qed.

Lemma step_grid J k m q j : (1 <= m)%nat -> (q * m < k + m)%nat -> (k <= q * m)%nat -> phase_step J k (j * m) = phase_step J q j.
Proof. intros Hm H1 H2. unfold phase_step. now rewrite (grid_le k m q j). Qed.
Lemma st_a2 J k N m : (1 <= m)%nat -> (2 * m <= k)%nat -> (k + 2 * m <= N)%nat -> bigsum ((N - 1) / m - 1) (fun j => D2 (phase_step J k) m (j * m) ^ 2) = 2 * J ^ 2.
Proof.
  intros Hm H1 H2. destruct (ceil_grid k m Hm) as [Q1 Q2]. set (q := ((k + (m - 1)) / m)%nat) in *. clearbody q. pose proof (grid_top N m q 1 Hm ltac:(nia)) as Hq. set (n := ((N - 1) / m)%nat) in *. clearbody n.
  rewrite (bigsum_ext _ _ (fun j => D2 (phase_step J q) 1 j ^ 2)).
  - replace (n - 1)%nat with ((n + 1) - 2 * 1)%nat by lia. rewrite st_o2 by nia. cbn [INR]. ring.
  - intros j Hj. unfold D2. rewrite <- !Nat.mul_add_distr_r. replace (j * m + m)%nat with ((j + 1) * m)%nat by ring. rewrite !(step_grid J k m q) by assumption. reflexivity.
Qed.
Lemma st_a3 J k N m : (1 <= m)%nat -> (3 * m <= k)%nat -> (k + 3 * m <= N)%nat -> bigsum ((N - 1) / m - 2) (fun j => D3 (phase_step J k) m (j * m) ^ 2) = 6 * J ^ 2.
Proof.
  intros Hm H1 H2. destruct (ceil_grid k m Hm) as [Q1 Q2]. set (q := ((k + (m - 1)) / m)%nat) in *. clearbody q. pose proof (grid_top N m q 2 Hm ltac:(nia)) as Hq. set (n := ((N - 1) / m)%nat) in *. clearbody n.
  rewrite (bigsum_ext _ _ (fun j => D3 (phase_step J q) 1 j ^ 2)).
  - replace (n - 2)%nat with ((n + 1) - 3 * 1)%nat by lia. rewrite st_o3 by nia. cbn [INR]. ring.
  - intros j Hj. unfold D3. rewrite <- !Nat.mul_add_distr_r. replace (j * m + m)%nat with ((j + 1) * m)%nat by ring. rewrite !(step_grid J k m q) by assumption. reflexivity.
Qed.

(** ** One frequency step *)
Lemma fstep_sub J rate k i : rate <> 0 -> freq_step J rate k i = J / rate * INR (i - k).
Proof. intro H. unfold freq_step. destruct (Nat.leb_spec k i); [field; exact H|]. replace (i - k)%nat with 0%nat by lia. cbn [INR]. field. exact H. Qed.

Section FStep.
Variables (J rate : R) (k N m : nat).
Hypothesis Hr : rate <> 0.
Let g := freq_step J rate k.
Let c := J / rate.
Lemma fs_lo i : (i <= k)%nat -> g i = 0.
Proof using Hr. intro H. unfold g. rewrite fstep_sub by exact Hr. replace (i - k)%nat with 0%nat by lia. cbn [INR]. ring. Qed.
Lemma fs_hi i p : i = (k + p)%nat -> g i = c * INR p.
Proof using Hr. intros ->. unfold g. rewrite fstep_sub by exact Hr. now replace (k + p - k)%nat with p by lia. Qed.

Hypothesis Hm : (1 <= m)%nat.
Lemma fs_o2 : (2 * m <= k)%nat -> (k + 2 * m <= N)%nat -> bigsum (N - 2 * m) (fun i => D2 g m i ^ 2) = INR m * (2 * INR m ^ 2 + 1) / 3 * c ^ 2.
Proof using Hm Hr.
  intros H1 H2. set (f := fun be ga p => (0 * INR p ^ 2 + be * INR p + ga) ^ 2).
  rewrite (seg2 _ (k - 2 * m) m _ (f c 0) (f (- c) (c * INR m))); [unfold f; rewrite !quad; cbv zeta; field|lia| |].
  - intros i Hi [Ho|Ho]; unfold D2.
    + rewrite !fs_lo by lia. ring.
    + rewrite (fs_hi (i + 2 * m) (i - k + 2 * m)), (fs_hi (i + m) (i - k + m)), (fs_hi i (i - k)) by lia. rewrite !plus_INR, !mult_INR. cbn [INR]. ring.
  - intros p Hp. unfold D2, f. split.
    + rewrite (fs_hi _ p) by lia. rewrite !fs_lo by lia. ring.
    + rewrite (fs_hi (k - 2 * m + m + p + 2 * m) (m + p)), (fs_hi (k - 2 * m + m + p + m) p) by lia. rewrite fs_lo by lia. rewrite plus_INR. ring.
Qed.
Lemma fs_o3 : (3 * m <= k)%nat -> (k + 3 * m <= N)%nat -> bigsum (N - 3 * m) (fun i => D3 g m i ^ 2) = INR m * (INR m ^ 2 + 1) * c ^ 2.
Proof using Hm Hr.
  intros H1 H2. set (f := fun be ga p => (0 * INR p ^ 2 + be * INR p + ga) ^ 2).
  rewrite (seg3 _ (k - 3 * m) m _ (f c 0) (f (-2 * c) (c * INR m)) (f c (- (c * INR m)))); [unfold f; rewrite !quad; cbv zeta; field|lia| |].
  - intros i Hi [Ho|Ho]; unfold D3.
    + rewrite !fs_lo by lia. ring.
    + rewrite (fs_hi (i + 3 * m) (i - k + 3 * m)), (fs_hi (i + 2 * m) (i - k + 2 * m)), (fs_hi (i + m) (i - k + m)), (fs_hi i (i - k)) by lia. rewrite !plus_INR, !mult_INR. cbn [INR]. ring.
  - intros p Hp. unfold D3, f. split; [|split].
    + rewrite (fs_hi _ p) by lia. rewrite !fs_lo by lia. ring.
    + rewrite (fs_hi (k - 3 * m + m + p + 3 * m) (m + p)), (fs_hi (k - 3 * m + m + p + 2 * m) p) by lia. rewrite !fs_lo by lia. rewrite plus_INR. ring.
    + rewrite (fs_hi (k - 3 * m + 2 * m + p + 3 * m) (2 * m + p)), (fs_hi (k - 3 * m + 2 * m + p + 2 * m) (m + p)), (fs_hi (k - 3 * m + 2 * m + p + m) p) by lia. rewrite fs_lo by lia. rewrite !plus_INR, mult_INR. cbn [INR]. ring.
Qed.
Lemma fs_Wlo j : (j + m <= k + 1)%nat -> W g m j = 0.
Proof using Hr Hm. intro H. unfold W. apply bigsum_0. intros i Hi. apply fs_lo. lia. Qed.
Lemma fs_Wmid j p : (j + m = k + p)%nat -> (p <= m)%nat -> W g m j = c * (INR p * (INR p - 1) / 2).
Proof using Hr Hm.
  intros H Hp. unfold W. rewrite (support m (m - p) p) by (try lia; intros i Hi Ho; apply fs_lo; lia).
  rewrite (bigsum_ext p _ (fun q => c * INR q)) by (intros q Hq; apply fs_hi; lia). rewrite bigsum_scal, sum_k. reflexivity.
Qed.
Lemma fs_Whi j p : (j = k + p)%nat -> W g m j = c * (INR m * INR p + INR m * (INR m - 1) / 2).
Proof using Hr Hm.
  intros ->. unfold W. rewrite (bigsum_ext m _ (fun i => c * INR p + c * INR i)) by (intros i Hi; rewrite (fs_hi _ (p + i)) by lia; rewrite plus_INR; ring).
  rewrite bigsum_plus, bigsum_const, bigsum_scal, sum_k. ring.
Qed.
Lemma fs_m : (3 * m <= k)%nat -> (k + 3 * m <= N)%nat -> bigsum (N - 3 * m + 1) (fun j => D2 (W g m) m j ^ 2) = INR m * (11 * INR m ^ 4 + 5 * INR m ^ 2 + 4) / 20 * c ^ 2.
Proof using Hm Hr.
  intros H1 H2. set (f := fun al be ga p => (al * INR p ^ 2 + be * INR p + ga) ^ 2). set (M := INR m).
  rewrite (seg3 _ (k - 3 * m) m _ (f (c / 2) (- c / 2) 0) (f (- c) (c * (M + 1)) (c * (M * (M - 1) / 2))) (f (c / 2) (c * (- M - 1 / 2)) (c * (M ^ 2 - M * (M - 1) / 2)))); [unfold f; rewrite !quad; cbv zeta; fold M; field|lia| |].
  - intros i Hi [Ho|Ho]; unfold D2.
    + rewrite !fs_Wlo by lia. ring.
    + rewrite (fs_Whi (i + 2 * m) (i - k + 2 * m)), (fs_Whi (i + m) (i - k + m)), (fs_Whi i (i - k)) by lia. rewrite !plus_INR, !mult_INR. cbn [INR]. ring.
  - intros p Hp. unfold D2, f. split; [|split].
    + rewrite (fs_Wmid (k - 3 * m + p + 2 * m) p) by lia. rewrite !fs_Wlo by lia. field.
    + rewrite (fs_Whi (k - 3 * m + m + p + 2 * m) p), (fs_Wmid (k - 3 * m + m + p + m) p) by lia. rewrite fs_Wlo by lia. fold M. field.
    + rewrite (fs_Whi (k - 3 * m + 2 * m + p + 2 * m) (m + p)), (fs_Whi (k - 3 * m + 2 * m + p + m) p), (fs_Wmid (k - 3 * m + 2 * m + p) p) by lia. rewrite plus_INR. fold M. field.
Qed.
(** every m-th sample: the ramp starts between two of them *)
Lemma fs_grid q j : (q * m < k + m)%nat -> (k <= q * m)%nat ->
  g (j * m) = if (q <=? j)%nat then c * (INR (j - q) * INR m + INR (q * m - k)) else 0.
Proof using Hm Hr.
  intros H1 H2. destruct (Nat.leb_spec q j).
  - rewrite (fs_hi (j * m) ((j - q) * m + (q * m - k))) by nia. now rewrite plus_INR, mult_INR.
  - apply fs_lo. nia.
Qed.
Definition corner (k m : nat) : nat := (k mod m)%nat.
Lemma corner_q q : (q * m < k + m)%nat -> (k <= q * m)%nat -> INR (q * m - k) = 0 /\ corner k m = 0%nat \/ INR (q * m - k) = INR m - INR (corner k m).
Proof using Hm.
  intros H1 H2. unfold corner. pose proof (Nat.div_mod k m ltac:(lia)) as D. pose proof (Nat.mod_upper_bound k m ltac:(lia)). set (t := (k / m)%nat) in *. set (r := (k mod m)%nat) in *.
  destruct (Nat.eq_dec r 0) as [E|E]; [left|right].
  - split; [|exact E]. assert (Hq : (q = t)%nat) by nia. replace (q * m - k)%nat with 0%nat by (rewrite Hq; lia). reflexivity.
  - rewrite <- minus_INR by lia. assert (Hq : (q = t + 1)%nat) by nia. f_equal. rewrite Hq. lia.
Qed.
Lemma fs_a2 : (2 * m <= k)%nat -> (k + 2 * m <= N)%nat ->
  bigsum ((N - 1) / m - 1) (fun j => D2 g m (j * m) ^ 2) = (INR (corner k m) ^ 2 + (INR m - INR (corner k m)) ^ 2) * c ^ 2.
Proof using Hm Hr.
  intros H1 H2. destruct (ceil_grid k m Hm) as [Q1 Q2]. set (q := ((k + (m - 1)) / m)%nat) in *. clearbody q. pose proof (grid_top N m q 1 Hm ltac:(nia)) as Hq.
  assert (Hq2 : (2 <= q)%nat) by nia. pose proof (corner_q q Q1 Q2) as C. set (n := ((N - 1) / m)%nat) in *. clearbody n. set (v := INR (q * m - k)) in *.
  rewrite (seg2 _ (q - 2) 1 _ (fun _ => (c * v) ^ 2) (fun _ => (c * (INR m - v)) ^ 2)).
  - cbn [bigsum]. destruct C as [[-> ->]|C]; [cbn [INR]; ring|]. rewrite C. ring.
  - lia.
  - intros i Hi Ho. unfold D2. rewrite <- !Nat.mul_add_distr_r. replace (i * m + m)%nat with ((i + 1) * m)%nat by ring. rewrite !(fs_grid q) by assumption. fold v.
    clear Q1 Q2 C. splits; try ring. rewrite !minus_INR by lia. rewrite !plus_INR. cbn [INR]. ring.
  - intros p Hp. unfold D2. rewrite <- !Nat.mul_add_distr_r. replace ((q - 2 + p) * m + m)%nat with ((q - 2 + p + 1) * m)%nat by ring. replace ((q - 2 + 1 + p) * m + m)%nat with ((q - 2 + 1 + p + 1) * m)%nat by ring.
    rewrite !(fs_grid q) by assumption. fold v. clear Q1 Q2 C. assert (p = 0)%nat as -> by lia. split; splits.
    + replace (q - 2 + 0 + 2 - q)%nat with 0%nat by lia. cbn [INR]. ring.
    + replace (q - 2 + 1 + 0 + 2 - q)%nat with 1%nat by lia. replace (q - 2 + 1 + 0 + 1 - q)%nat with 0%nat by lia. cbn [INR]. ring.
Qed.
Lemma fs_a3 : (3 * m <= k)%nat -> (k + 3 * m <= N)%nat ->
  bigsum ((N - 1) / m - 2) (fun j => D3 g m (j * m) ^ 2) = (INR (corner k m) ^ 2 + (INR m - 2 * INR (corner k m)) ^ 2 + (INR m - INR (corner k m)) ^ 2) * c ^ 2.
Proof using Hm Hr.
  intros H1 H2. destruct (ceil_grid k m Hm) as [Q1 Q2]. set (q := ((k + (m - 1)) / m)%nat) in *. clearbody q. pose proof (grid_top N m q 2 Hm ltac:(nia)) as Hq.
  assert (Hq2 : (3 <= q)%nat) by nia. pose proof (corner_q q Q1 Q2) as C. set (n := ((N - 1) / m)%nat) in *. clearbody n. set (v := INR (q * m - k)) in *.
  rewrite (seg3 _ (q - 3) 1 _ (fun _ => (c * v) ^ 2) (fun _ => (c * (INR m - 2 * v)) ^ 2) (fun _ => (c * (v - INR m)) ^ 2)).
  - cbn [bigsum]. destruct C as [[-> ->]|C]; [cbn [INR]; ring|]. rewrite C. ring.
  - lia.
  - intros i Hi Ho. unfold D3. rewrite <- !Nat.mul_add_distr_r. replace (i * m + m)%nat with ((i + 1) * m)%nat by ring. rewrite !(fs_grid q) by assumption. fold v.
    clear Q1 Q2 C. splits; try ring. rewrite !minus_INR by lia. rewrite !plus_INR. cbn [INR]. ring.
  - intros p Hp. assert (p = 0)%nat as -> by lia. unfold D3. rewrite <- !Nat.mul_add_distr_r.
    replace ((q - 3 + 0) * m + m)%nat with ((q - 3 + 0 + 1) * m)%nat by ring. replace ((q - 3 + 1 + 0) * m + m)%nat with ((q - 3 + 1 + 0 + 1) * m)%nat by ring. replace ((q - 3 + 2 * 1 + 0) * m + m)%nat with ((q - 3 + 2 * 1 + 0 + 1) * m)%nat by ring.
    rewrite !(fs_grid q) by assumption. fold v. clear Q1 Q2 C. split; [|split]; splits.
    + replace (q - 3 + 0 + 3 - q)%nat with 0%nat by lia. cbn [INR]. ring.
    + replace (q - 3 + 1 + 0 + 3 - q)%nat with 1%nat by lia. replace (q - 3 + 1 + 0 + 2 - q)%nat with 0%nat by lia. cbn [INR]. ring.
    + replace (q - 3 + 2 * 1 + 0 + 3 - q)%nat with 2%nat by lia. replace (q - 3 + 2 * 1 + 0 + 2 - q)%nat with 1%nat by lia. replace (q - 3 + 2 * 1 + 0 + 1 - q)%nat with 0%nat by lia. cbn [INR]. ring.
Qed.
End FStep.

(** ** From the sums to the reported rows *)
Lemma dev_sq s x rate m : 0 <= s_var s x rate m -> s_dev s x rate m ^ 2 = s_var s x rate m.
Proof. intro H. unfold s_dev. now rewrite pow2_sqrt. Qed.
Lemma var_pos s x rate m c V : 0 < c -> 0 <= V -> c * s_var s x rate m = V -> c * s_dev s x rate m ^ 2 = V.
Proof.
  intros Hc HV E. assert (0 <= s_var s x rate m). { destruct (Rle_dec 0 (s_var s x rate m)) as [H|H]; [exact H|]. exfalso. apply Rnot_le_lt in H. nra. }
  now rewrite dev_sq.
Qed.
Lemma ss_pos n (f : nat -> R) : 0 <= bigsum n (fun i => f i ^ 2).
Proof. apply bigsum_nonneg. intros i _. apply pow2_ge_0. Qed.
Lemma div_pos a b : 0 <= a -> 0 < b -> 0 <= a / b.
Proof. intros Ha Hb. apply Rmult_le_pos; [exact Ha|]. left. now apply Rinv_0_lt_compat. Qed.

Lemma row_pdev1 x rate m : m = 1%nat -> s_dev st_pdev x rate m = s_dev st_oadev x rate m.
Proof. intros ->. reflexivity. Qed.
Section Rows.
Variables (a b : R) (g : nat -> R) (N m : nat) (rate : R).
Hypothesis Hr : 0 < rate.
Hypothesis Hm : (1 <= m)%nat.
Let x := with_event a b g N.
Let tau := INR m / rate.
Let T : 0 < tau ^ 2. Proof. apply pow_lt, Rdiv_lt_0_compat; [apply lt_0_INR; lia|exact Hr]. Qed.
Let M0 : 0 < INR m. Proof. apply lt_0_INR. lia. Qed.

Lemma row_oadev : (1 < c_oadev N m)%Z -> IZR (c_oadev N m) * s_dev st_oadev x rate m ^ 2 = bigsum (N - 2 * m) (fun i => D2 g m i ^ 2) / 2 / tau ^ 2.
Proof using Hr Hm T M0.
  unfold c_oadev. intro Hc. rewrite <- INR_IZR_INZ. apply var_pos; [apply lt_0_INR; lia|repeat apply div_pos; try lra; apply (ss_pos _ (D2 g m))|].
  cbn [s_var st_oadev]. apply oavar_ev; auto; lia.
Qed.
Lemma row_adev : (1 < c_adev N m)%Z -> IZR (c_adev N m) * s_dev st_adev x rate m ^ 2 = bigsum ((N - 1) / m - 1) (fun j => D2 g m (j * m) ^ 2) / 2 / tau ^ 2.
Proof using Hr Hm T M0.
  unfold c_adev. intro Hc. rewrite <- INR_IZR_INZ. apply var_pos; [apply lt_0_INR; lia|repeat apply div_pos; try lra; apply (ss_pos _ (fun j => D2 g m (j * m)))|].
  cbn [s_var st_adev]. apply avar_ev; auto; lia.
Qed.
Lemma row_ohdev : (1 < c_ohdev N m)%Z -> IZR (c_ohdev N m) * s_dev st_ohdev x rate m ^ 2 = bigsum (N - 3 * m) (fun i => D3 g m i ^ 2) / 6 / tau ^ 2.
Proof using Hr Hm T M0.
  unfold c_ohdev. intro Hc. rewrite <- INR_IZR_INZ. apply var_pos; [apply lt_0_INR; lia|repeat apply div_pos; try lra; apply (ss_pos _ (D3 g m))|].
  cbn [s_var st_ohdev]. apply ohvar_ev; auto; lia.
Qed.
Lemma row_hdev : (1 < c_hdev N m)%Z -> IZR (c_hdev N m) * s_dev st_hdev x rate m ^ 2 = bigsum ((N - 1) / m - 2) (fun j => D3 g m (j * m) ^ 2) / 6 / tau ^ 2.
Proof using Hr Hm T M0.
  unfold c_hdev. intro Hc. rewrite <- INR_IZR_INZ. apply var_pos; [apply lt_0_INR; lia|repeat apply div_pos; try lra; apply (ss_pos _ (fun j => D3 g m (j * m)))|].
  cbn [s_var st_hdev]. apply hvar_ev; auto; lia.
Qed.
Lemma cm_nat : (1 < c_mdev N m)%Z -> IZR (c_mdev N m) = INR (N - 3 * m + 1).
Proof using Hm. unfold c_mdev. intro H. rewrite INR_IZR_INZ. f_equal. lia. Qed.
Lemma row_mdev : (1 < c_mdev N m)%Z -> IZR (c_mdev N m) * s_dev st_mdev x rate m ^ 2 = bigsum (N - 3 * m + 1) (fun j => D2 (W g m) m j ^ 2) / 2 / INR m ^ 2 / tau ^ 2.
Proof using Hr Hm T M0.
  intro Hc. rewrite cm_nat by exact Hc. unfold c_mdev in Hc. apply var_pos; [apply lt_0_INR; lia|repeat apply div_pos; try lra; [apply (ss_pos _ (D2 (W g m) m))|apply pow_lt; lra]|].
  cbn [s_var st_mdev]. apply mvar_ev; auto; lia.
Qed.
Lemma row_tdev : (1 < c_mdev N m)%Z -> IZR (c_mdev N m) * s_dev st_tdev x rate m ^ 2 = bigsum (N - 3 * m + 1) (fun j => D2 (W g m) m j ^ 2) / 6 / INR m ^ 2.
Proof using Hr Hm T M0.
  intro Hc. rewrite cm_nat by exact Hc. unfold c_mdev in Hc. apply var_pos; [apply lt_0_INR; lia|repeat apply div_pos; try lra; [apply (ss_pos _ (D2 (W g m) m))|apply pow_lt; lra]|].
  cbn [s_var st_tdev]. unfold tvar. transitivity ((INR m * (1 / rate)) ^ 2 / 3 * (INR (N - 3 * m + 1) * mvar x (1 / rate) m)); [ring|].
  unfold x. rewrite mvar_ev by (auto; lia). field. split; lra.
Qed.
Lemma row_pdev : (1 < c_oadev N m)%Z -> m <> 1%nat -> IZR (c_oadev N m) * s_dev st_pdev x rate m ^ 2 = 72 * bigsum (N - 2 * m) (fun i => P1 g m i ^ 2) / INR m ^ 4 / tau ^ 2.
Proof using Hr Hm T M0.
  unfold c_oadev. intros Hc H1. rewrite <- INR_IZR_INZ. apply var_pos; [apply lt_0_INR; lia|repeat apply div_pos; try lra; [apply Rmult_le_pos; [lra|apply (ss_pos _ (P1 g m))]|apply pow_lt; lra]|].
  cbn [s_var st_pdev]. apply pvar_ev; auto; lia.
Qed.

(** totdev: the event seen from sample 1-m on, continued by reflection *)
Lemma row_totdev (h : nat -> R) : (1 < c_tot N m)%Z -> (m < N)%nat ->
  (forall i, (i < N)%nat -> h (i + (m - 1))%nat = g i) ->
  (forall i, (1 <= i < m)%nat -> h (m - 1 - i)%nat = 2 * g 0%nat - g i) ->
  (forall i, (1 <= i < m)%nat -> h (N - 1 + i + (m - 1))%nat = 2 * g (N - 1)%nat - g (N - 1 - i)%nat) ->
  IZR (c_tot N m) * s_dev st_totdev x rate m ^ 2 = bigsum (N - 2) (fun j => D2 h m j ^ 2) / 2 / tau ^ 2.
Proof using Hr Hm T M0.
  unfold c_tot. intros Hc HN Hin Hl Hh. rewrite <- INR_IZR_INZ. apply var_pos; [apply lt_0_INR; lia|repeat apply div_pos; try lra; apply (ss_pos _ (D2 h m))|].
  cbn [s_var st_totdev]. unfold totvar, totdev_n, x. rewrite ev_len. cbv zeta.
  assert (X : forall z, (- Z.of_nat m < z < Z.of_nat N - 1 + Z.of_nat m)%Z -> xtot (with_event a b g N) z = a + b * IZR z + h (Z.to_nat (z + Z.of_nat m - 1))).
  { intros z Hz. unfold xtot. rewrite ev_len. destruct (Z.ltb_spec z 0) as [L|L]; [|destruct (Z.ltb_spec z (Z.of_nat N)) as [L'|L']].
    - rewrite !ev_nth by lia. replace (Z.to_nat (z + Z.of_nat m - 1)) with (m - 1 - Z.to_nat (- z))%nat by lia. rewrite Hl by lia.
      rewrite (INR_IZR_INZ (Z.to_nat _)), Z2Nat.id, opp_IZR by lia. cbn [INR]. ring.
    - rewrite ev_nth by lia. replace (Z.to_nat (z + Z.of_nat m - 1)) with (Z.to_nat z + (m - 1))%nat by lia. rewrite Hin by lia.
      rewrite (INR_IZR_INZ (Z.to_nat _)), Z2Nat.id by lia. ring.
    - rewrite !ev_nth by lia. set (i := Z.to_nat (z - (Z.of_nat N - 1))). replace (Z.to_nat (z + Z.of_nat m - 1)) with (N - 1 + i + (m - 1))%nat by lia. rewrite Hh by lia.
      replace (Z.to_nat (2 * (Z.of_nat N - 1) - z)) with (N - 1 - i)%nat by lia.
      rewrite (minus_INR (N - 1) i) by lia. replace (IZR z) with (INR (N - 1) + INR i); [ring|]. rewrite <- plus_INR, INR_IZR_INZ. f_equal. lia. }
  rewrite (bigsum_ext (N - 2) _ (fun j => D2 h m j ^ 2)).
  { assert (INR (N - 2) <> 0) by (apply not_0_INR; lia). unfold tau. field. repeat split; auto; lra. }
  intros j Hj. f_equal. rewrite !X by lia. unfold D2. rewrite minus_IZR, plus_IZR.
  replace (Z.to_nat (Z.of_nat (j + 1) - Z.of_nat m + Z.of_nat m - 1)) with j by lia. replace (Z.to_nat (Z.of_nat (j + 1) + Z.of_nat m - 1)) with (j + m)%nat by lia.
  replace (Z.to_nat (Z.of_nat (j + 1) + Z.of_nat m + Z.of_nat m - 1)) with (j + 2 * m)%nat by lia. ring.
Qed.
End Rows.

Definition resp := list (fn * (nat * (nat -> nat -> R -> R)))%type.
(** number of terms times squared deviation, for an event of size 1 at sample k, averaging factor m and time tau *)
Definition outlier_resp : resp :=
  [(adev, (2%nat, fun k m tau => if Nat.eqb (k mod m) 0 then 3 / tau ^ 2 else 0));
   (oadev, (2%nat, fun _ _ tau => 3 / tau ^ 2));
   (hdev, (3%nat, fun k m tau => if Nat.eqb (k mod m) 0 then 10 / 3 / tau ^ 2 else 0));
   (ohdev, (3%nat, fun _ _ tau => 10 / 3 / tau ^ 2));
   (mdev, (3%nat, fun _ m tau => 3 / INR m / tau ^ 2));
   (tdev, (3%nat, fun _ m _ => 1 / INR m));
   (pdev, (2%nat, fun _ m tau => if Nat.eqb m 1 then 3 / tau ^ 2 else 12 * (INR m ^ 2 - 1) / INR m ^ 3 / tau ^ 2));
   (totdev, (2%nat, fun _ _ tau => 3 / tau ^ 2))].
Definition step_resp : resp :=
  [(adev, (2%nat, fun _ _ tau => 1 / tau ^ 2));
   (oadev, (2%nat, fun _ m tau => INR m / tau ^ 2));
   (hdev, (3%nat, fun _ _ tau => 1 / tau ^ 2));
   (ohdev, (3%nat, fun _ m tau => INR m / tau ^ 2));
   (mdev, (3%nat, fun _ m tau => (INR m ^ 2 + 1) / (2 * INR m) / tau ^ 2));
   (tdev, (3%nat, fun _ m _ => (INR m ^ 2 + 1) / (6 * INR m)));
   (pdev, (2%nat, fun _ m tau => if Nat.eqb m 1 then 1 / tau ^ 2 else 6 / 5 * (INR m ^ 4 - 1) / INR m ^ 3 / tau ^ 2));
   (totdev, (2%nat, fun _ m tau => INR m / tau ^ 2))].
Definition freq_resp : resp :=
  [(adev, (2%nat, fun k m _ => (INR (k mod m) ^ 2 + (INR m - INR (k mod m)) ^ 2) / (2 * INR m ^ 2)));
   (oadev, (2%nat, fun _ m _ => (2 * INR m ^ 2 + 1) / (6 * INR m)));
   (hdev, (3%nat, fun k m _ => (INR (k mod m) ^ 2 + (INR m - 2 * INR (k mod m)) ^ 2 + (INR m - INR (k mod m)) ^ 2) / (6 * INR m ^ 2)));
   (ohdev, (3%nat, fun _ m _ => (INR m ^ 2 + 1) / (6 * INR m)));
   (mdev, (3%nat, fun _ m _ => (11 * INR m ^ 4 + 5 * INR m ^ 2 + 4) / (40 * INR m ^ 3)));
   (tdev, (3%nat, fun _ m tau => (11 * INR m ^ 4 + 5 * INR m ^ 2 + 4) / (120 * INR m ^ 3) * tau ^ 2));
   (totdev, (2%nat, fun _ m _ => (2 * INR m ^ 2 + 1) / (6 * INR m)))].

(** what a table of responses means *)
Definition responds (r : resp) (event : R -> R -> nat -> nat -> R) : Prop :=
  forall f c G a b A k N rate taus t d e n, In (f, (c, G)) r -> 0 < rate ->
  f (with_event a b (event A rate k) N) rate "phase"%string taus = Ok (t, d, e, n) ->
  len d = len t /\ len n = len t /\
  forall i m, (i < len t)%nat -> t.[i] = INR m / rate -> (c * m <= k)%nat -> (k + c * m < N)%nat ->
    IZR (nth i n 0%Z) * d.[i] ^ 2 = A ^ 2 * G k m t.[i].

Lemma responds_by r event :
  (forall f c G, In (f, (c, G)) r -> exists s, In s stats /\ s_fun s = f /\
     forall a b A rate k N m, 0 < rate -> (1 <= m < N)%nat -> (1 < s_cnt s N m)%Z -> (c * m <= k)%nat -> (k + c * m < N)%nat ->
       IZR (s_cnt s N m) * s_dev s (with_event a b (event A rate k) N) rate m ^ 2 = A ^ 2 * G k m (INR m / rate)) -> responds r event.
Proof.
  intros H f c G a b A k N rate taus t d e n Hin Hr E. destruct (H f c G Hin) as (s & Hs & Es & Hd).
  destruct (rows (fun rate tau dv n => forall m, tau = INR m / rate -> (c * m <= k)%nat -> (k + c * m < N)%nat -> IZR n * dv ^ 2 = A ^ 2 * G k m tau) f s _ rate taus t d e n Hs Es Hr E) as (L1 & L2 & R1).
  - rewrite ev_len. intros m Hm _ Hc m' Em Hk1 Hk2. assert (m' = m).
    { apply INR_eq. apply (f_equal (fun v => v * rate)) in Em. unfold Rdiv in Em. rewrite !Rmult_assoc, Rinv_l in Em by lra. lra. }
    subst m'. now apply Hd.
  - split; [exact L1|]. split; [exact L2|]. intros i m Hi. now apply R1.
Qed.

Theorem C119_outlier : responds outlier_resp (fun A _ => outlier A).
Proof.
  apply responds_by. intros f c G Hin. unfold outlier_resp in Hin.
  repeat (destruct Hin as [Hin|Hin]); try (now destruct Hin); injection Hin as <- <- <-;
    [exists st_adev|exists st_oadev|exists st_hdev|exists st_ohdev|exists st_mdev|exists st_tdev|exists st_pdev|exists st_totdev];
    (split; [cbn; tauto|]; split; [reflexivity|]; intros a b A rate k N m Hr Hm Hc H1 H2;
     assert (M0 : INR m <> 0) by (apply not_0_INR; lia)).
  - change (1 < c_adev N m)%Z in Hc; change (s_cnt st_adev N m) with (c_adev N m); cbv beta. rewrite row_adev, out_a2 by (auto; lia). destruct (Nat.eqb (k mod m) 0); field; split; lra.
  - change (1 < c_oadev N m)%Z in Hc; change (s_cnt st_oadev N m) with (c_oadev N m); cbv beta. rewrite row_oadev, out_o2 by (auto; lia). field. split; lra.
  - change (1 < c_hdev N m)%Z in Hc; change (s_cnt st_hdev N m) with (c_hdev N m); cbv beta. rewrite row_hdev, out_a3 by (auto; lia). destruct (Nat.eqb (k mod m) 0); field; split; lra.
  - change (1 < c_ohdev N m)%Z in Hc; change (s_cnt st_ohdev N m) with (c_ohdev N m); cbv beta. rewrite row_ohdev, out_o3 by (auto; lia). field. split; lra.
  - change (1 < c_mdev N m)%Z in Hc; change (s_cnt st_mdev N m) with (c_mdev N m); cbv beta. rewrite row_mdev, out_m by (auto; lia). field. split; lra.
  - change (1 < c_mdev N m)%Z in Hc; change (s_cnt st_tdev N m) with (c_mdev N m); cbv beta. rewrite row_tdev, out_m by (auto; lia). field. lra.
  - change (1 < c_oadev N m)%Z in Hc; change (s_cnt st_pdev N m) with (c_oadev N m); cbv beta. destruct (Nat.eqb_spec m 1) as [E|E].
    + rewrite row_pdev1, row_oadev, out_o2 by (auto; lia). field. split; lra.
    + rewrite row_pdev, out_p by (auto; lia). field. split; lra.
  - change (1 < c_tot N m)%Z in Hc; change (s_cnt st_totdev N m) with (c_tot N m); cbv beta. rewrite (row_totdev a b (outlier A k) N m rate Hr ltac:(lia) (outlier A (k + (m - 1)))); auto; try lia.
    + replace (N - 2)%nat with ((N - 2 + 2 * m) - 2 * m)%nat by lia. rewrite out_o2 by lia. field. split; lra.
    + intros i Hi. unfold outlier. splits; reflexivity.
    + intros i Hi. unfold outlier. splits; ring.
    + intros i Hi. unfold outlier. splits; ring.
Qed.
Print Assumptions C119_outlier.

Theorem C119_phase_step : responds step_resp (fun A _ => phase_step A).
Proof.
  apply responds_by. intros f c G Hin. unfold step_resp in Hin.
  repeat (destruct Hin as [Hin|Hin]); try (now destruct Hin); injection Hin as <- <- <-;
    [exists st_adev|exists st_oadev|exists st_hdev|exists st_ohdev|exists st_mdev|exists st_tdev|exists st_pdev|exists st_totdev];
    (split; [cbn; tauto|]; split; [reflexivity|]; intros a b A rate k N m Hr Hm Hc H1 H2;
     assert (M0 : INR m <> 0) by (apply not_0_INR; lia)).
  - change (1 < c_adev N m)%Z in Hc; change (s_cnt st_adev N m) with (c_adev N m); cbv beta.
    rewrite row_adev, st_a2 by (auto; lia). field. split; lra.
  - change (1 < c_oadev N m)%Z in Hc; change (s_cnt st_oadev N m) with (c_oadev N m); cbv beta.
    rewrite row_oadev, st_o2 by (auto; lia). field. split; lra.
  - change (1 < c_hdev N m)%Z in Hc; change (s_cnt st_hdev N m) with (c_hdev N m); cbv beta.
    rewrite row_hdev, st_a3 by (auto; lia). field. split; lra.
  - change (1 < c_ohdev N m)%Z in Hc; change (s_cnt st_ohdev N m) with (c_ohdev N m); cbv beta.
    rewrite row_ohdev, st_o3 by (auto; lia). field. split; lra.
  - change (1 < c_mdev N m)%Z in Hc; change (s_cnt st_mdev N m) with (c_mdev N m); cbv beta.
    rewrite row_mdev, st_m by (auto; lia). field. split; lra.
  - change (1 < c_mdev N m)%Z in Hc; change (s_cnt st_tdev N m) with (c_mdev N m); cbv beta.
    rewrite row_tdev, st_m by (auto; lia). field. lra.
  - change (1 < c_oadev N m)%Z in Hc; change (s_cnt st_pdev N m) with (c_oadev N m); cbv beta.
    destruct (Nat.eqb_spec m 1) as [E|E].
    + rewrite row_pdev1, row_oadev, st_o2 by (auto; lia). rewrite E. cbn [INR]. field. lra.
    + rewrite row_pdev, st_p by (auto; lia). field. split; lra.
  - change (1 < c_tot N m)%Z in Hc; change (s_cnt st_totdev N m) with (c_tot N m); cbv beta.
    rewrite (row_totdev a b (phase_step A k) N m rate Hr ltac:(lia) (phase_step A (k + (m - 1)))); auto; try lia.
    + replace (N - 2)%nat with ((N - 2 + 2 * m) - 2 * m)%nat by lia. rewrite st_o2 by lia. field. split; lra.
    + intros i Hi. unfold phase_step. splits; reflexivity.
    + intros i Hi. unfold phase_step. splits; ring.
    + intros i Hi. unfold phase_step. splits; ring.
Qed.
Print Assumptions C119_phase_step.

Theorem C119_frequency_step : responds freq_resp freq_step.
Proof.
  apply responds_by. intros f c G Hin. unfold freq_resp in Hin.
  repeat (destruct Hin as [Hin|Hin]); try (now destruct Hin); injection Hin as <- <- <-;
    [exists st_adev|exists st_oadev|exists st_hdev|exists st_ohdev|exists st_mdev|exists st_tdev|exists st_totdev];
    (split; [cbn; tauto|]; split; [reflexivity|]; intros a b A rate k N m Hr Hm Hc H1 H2;
     assert (M0 : INR m <> 0) by (apply not_0_INR; lia)).
  - change (1 < c_adev N m)%Z in Hc; change (s_cnt st_adev N m) with (c_adev N m); cbv beta.
    rewrite row_adev, fs_a2 by (auto; lra || lia). unfold corner. field. split; lra.
  - change (1 < c_oadev N m)%Z in Hc; change (s_cnt st_oadev N m) with (c_oadev N m); cbv beta.
    rewrite row_oadev, fs_o2 by (auto; lra || lia). field. split; lra.
  - change (1 < c_hdev N m)%Z in Hc; change (s_cnt st_hdev N m) with (c_hdev N m); cbv beta.
    rewrite row_hdev, fs_a3 by (auto; lra || lia). unfold corner. field. split; lra.
  - change (1 < c_ohdev N m)%Z in Hc; change (s_cnt st_ohdev N m) with (c_ohdev N m); cbv beta.
    rewrite row_ohdev, fs_o3 by (auto; lra || lia). field. split; lra.
  - change (1 < c_mdev N m)%Z in Hc; change (s_cnt st_mdev N m) with (c_mdev N m); cbv beta.
    rewrite row_mdev, fs_m by (auto; lra || lia). field. split; lra.
  - change (1 < c_mdev N m)%Z in Hc; change (s_cnt st_tdev N m) with (c_mdev N m); cbv beta.
    rewrite row_tdev, fs_m by (auto; lra || lia). field. split; lra.
  - change (1 < c_tot N m)%Z in Hc; change (s_cnt st_totdev N m) with (c_tot N m); cbv beta.
    rewrite (row_totdev a b (freq_step A rate k) N m rate Hr ltac:(lia) (freq_step A rate (k + (m - 1)))); auto; try lia.
    + replace (N - 2)%nat with ((N - 2 + 2 * m) - 2 * m)%nat by lia. rewrite fs_o2 by (lra || lia). field. split; lra.
    + intros i Hi. unfold freq_step. splits; [do 3 f_equal; lia|reflexivity].
    + intros i Hi. unfold freq_step. splits; ring.
    + intros i Hi. unfold freq_step. splits. rewrite !minus_INR, !plus_INR, !minus_INR by lia. field. lra.
Qed.
Print Assumptions C119_frequency_step.

(** ** The time interval errors, which do see the frequency offset, so b = 0 *)
Lemma flat_nth a g N i : (i < N)%nat -> (with_event a 0 g N).[i] = a + g i.
Proof. intro H. rewrite ev_nth by exact H. ring. Qed.
Lemma out_tie a A k N m : (1 <= m)%nat -> (m <= k)%nat -> (k + m < N)%nat -> INR (N - m) * tierms_var (with_event a 0 (outlier A k) N) m = 2 * A ^ 2.
Proof.
  intros Hm H1 H2. unfold tierms_var. rewrite ev_len, <- Rmult_assoc, Rinv_r, Rmult_1_l by (apply not_0_INR; lia).
  rewrite (bigsum_ext _ _ (fun i => (if Nat.eqb i (k - m) then A ^ 2 else 0) + (if Nat.eqb i k then A ^ 2 else 0))).
  - rewrite bigsum_plus, !only by lia. ring.
  - intros i Hi. rewrite !flat_nth by lia. unfold outlier. splits; ring.
Qed.
Lemma step_tie a J k N m : (1 <= m)%nat -> (m <= k)%nat -> (k + m <= N)%nat -> INR (N - m) * tierms_var (with_event a 0 (phase_step J k) N) m = INR m * J ^ 2.
Proof.
  intros Hm H1 H2. unfold tierms_var. rewrite ev_len, <- Rmult_assoc, Rinv_r, Rmult_1_l by (apply not_0_INR; lia).
  rewrite (support _ (k - m) m) by (try lia; intros i Hi Ho; rewrite !flat_nth by lia; unfold phase_step; splits; ring).
  rewrite (bigsum_ext _ _ (fun _ => J ^ 2)); [now rewrite bigsum_const|].
  intros i Hi. rewrite !flat_nth by lia. unfold phase_step. splits; ring.
Qed.
Lemma out_mtie a A k N m : (1 <= m < N)%nat -> (k < N)%nat -> is_mtie (with_event a 0 (outlier A k) N) m (Rabs A).
Proof.
  intros Hm Hk. unfold is_mtie. rewrite ev_len. split.
  - intros i j Hi Hj _ _. rewrite !flat_nth by lia. unfold outlier. pose proof (Rabs_pos A). pose proof (Rle_abs A). pose proof (Rle_abs (- A)). rewrite Rabs_Ropp in *.
    destruct (Nat.eqb_spec i k), (Nat.eqb_spec j k); lra.
  - assert (exists l, (l < N)%nat /\ l <> k /\ (l <= k + m)%nat /\ (k <= l + m)%nat) as (l & L1 & L2 & L3 & L4).
    { destruct k as [|k]; [exists 1%nat|exists k]; lia. }
    destruct (Rcase_abs A) as [Hn|Hp]; [exists l, k; rewrite Rabs_left by lra|exists k, l; rewrite Rabs_right by lra]; repeat split; try lia;
      rewrite !flat_nth by lia; unfold outlier; splits; ring.
Qed.
Lemma step_mtie a J k N m : (1 <= m < N)%nat -> (1 <= k < N)%nat -> is_mtie (with_event a 0 (phase_step J k) N) m (Rabs J).
Proof.
  intros Hm Hk. unfold is_mtie. rewrite ev_len. split.
  - intros i j Hi Hj _ _. rewrite !flat_nth by lia. unfold phase_step. pose proof (Rabs_pos J). pose proof (Rle_abs J). pose proof (Rle_abs (- J)). rewrite Rabs_Ropp in *.
    destruct (Nat.leb_spec k i), (Nat.leb_spec k j); lra.
  - destruct (Rcase_abs J) as [Hn|Hp]; [exists (k - 1)%nat, k; rewrite Rabs_left by lra|exists k, (k - 1)%nat; rewrite Rabs_right by lra]; repeat split; try lia;
      rewrite !flat_nth by lia; unfold phase_step; splits; ring.
Qed.

Theorem C119_tierms a A k N rate taus t d e n : 0 < rate ->
  (tierms (with_event a 0 (outlier A k) N) rate "phase"%string taus = Ok (t, d, e, n) ->
   len d = len t /\ len n = len t /\ forall i m, (i < len t)%nat -> t.[i] = INR m / rate -> (m <= k)%nat -> (k + m < N)%nat -> IZR (nth i n 0%Z) * d.[i] ^ 2 = 2 * A ^ 2) /\
  (tierms (with_event a 0 (phase_step A k) N) rate "phase"%string taus = Ok (t, d, e, n) ->
   len d = len t /\ len n = len t /\ forall i m, (i < len t)%nat -> t.[i] = INR m / rate -> (m <= k)%nat -> (k + m <= N)%nat -> IZR (nth i n 0%Z) * d.[i] ^ 2 = INR m * A ^ 2).
Proof.
  intro Hr. assert (Inj : forall m m', INR m / rate = INR m' / rate -> m = m').
  { intros m m' Em. apply INR_eq. apply (f_equal (fun v => v * rate)) in Em. unfold Rdiv in Em. rewrite !Rmult_assoc, Rinv_l in Em by lra. lra. }
  split; intro E.
  - destruct (rows (fun rate tau dv n => forall m, tau = INR m / rate -> (m <= k)%nat -> (k + m < N)%nat -> IZR n * dv ^ 2 = 2 * A ^ 2) tierms st_tierms _ rate taus t d e n ltac:(cbn; tauto) eq_refl Hr E) as (L1 & L2 & R1).
    + rewrite ev_len. intros m Hm _ Hc m' Em H1 H2. apply Inj in Em. subst m'. change (s_cnt st_tierms N m) with (c_tie N m).
      replace (c_tie N m) with (Z.of_nat (N - m)) by (unfold c_tie; lia). rewrite <- INR_IZR_INZ.
      apply var_pos; [apply lt_0_INR; lia|nra|]. cbn [s_var st_tierms]. apply out_tie; lia.
    + split; [exact L1|]. split; [exact L2|]. intros i m Hi. now apply R1.
  - destruct (rows (fun rate tau dv n => forall m, tau = INR m / rate -> (m <= k)%nat -> (k + m <= N)%nat -> IZR n * dv ^ 2 = INR m * A ^ 2) tierms st_tierms _ rate taus t d e n ltac:(cbn; tauto) eq_refl Hr E) as (L1 & L2 & R1).
    + rewrite ev_len. intros m Hm _ Hc m' Em H1 H2. apply Inj in Em. subst m'. change (s_cnt st_tierms N m) with (c_tie N m).
      replace (c_tie N m) with (Z.of_nat (N - m)) by (unfold c_tie; lia). rewrite <- INR_IZR_INZ.
      apply var_pos; [apply lt_0_INR; lia|apply Rmult_le_pos; [apply pos_INR|apply pow2_ge_0]|]. cbn [s_var st_tierms]. apply step_tie; lia.
    + split; [exact L1|]. split; [exact L2|]. intros i m Hi. now apply R1.
Qed.
Print Assumptions C119_tierms.

Theorem C119_mtie a A k N rate taus t d e n x : 0 < rate -> (1 <= k < N)%nat -> In x [with_event a 0 (outlier A k) N; with_event a 0 (phase_step A k) N] ->
  mtie x rate "phase"%string taus = Ok (t, d, e, n) ->
  len d = len t /\ forall i, (i < len t)%nat -> d.[i] = Rabs A.
Proof.
  intros Hr Hk Hx E. assert (L : len x = N) by (destruct Hx as [<-|[<-|[]]]; apply ev_len).
  destruct (rows (fun _ _ dv _ => dv = Rabs A) mtie st_mtie x rate taus t d e n ltac:(cbn; tauto) eq_refl Hr E) as (L1 & _ & R1); [|split; auto].
  rewrite L. intros m Hm _ _. rewrite mtie_dev by now rewrite L. apply (is_mtie_unique x m).
  - apply mtie_val_is. now rewrite L.
  - destruct Hx as [<-|[<-|[]]]; [now apply out_mtie|now apply step_mtie].
Qed.
Print Assumptions C119_mtie.

(** ** Examples: records of 16 or 20 samples at rate 1 with a frequency offset *)
(** the outlier at sample 6 raises every overlapping estimate ... *)
Example C119_ex_outlier : exists d e, oadev (with_event 5 (-3) (outlier 4 6) 16) 1 "phase" (TList [INR 2 / 1]) = Ok ([INR 2 / 1], [d], e, [12%Z]) /\ d ^ 2 = 1.
Proof.
  pose proof (oadev_single (with_event 5 (-3) (outlier 4 6) 16) 1 2 Rlt_0_1 ltac:(lia) ltac:(rewrite ev_len; lia)) as E. cbv zeta in E. rewrite ev_len in E.
  destruct (C119_outlier oadev 2%nat _ 5 (-3) 4 6%nat 16%nat 1 _ _ _ _ _ ltac:(right; left; reflexivity) Rlt_0_1 E) as (_ & _ & H).
  specialize (H 0%nat 2%nat ltac:(cbn; lia) eq_refl ltac:(lia) ltac:(lia)). cbn [nth] in H. eexists _, _. split; [exact E|].
  change (IZR (Z.of_nat (16 - 2 * 2))) with 12 in H. cbn [INR] in H. set (d := sqrt _) in *. clearbody d. lra.
Qed.
(** ... but at sample 7 adev at m = 3 does not see it at all *)
Example C119_ex_missed : exists d e, adev (with_event 5 (-3) (outlier 4 7) 20) 1 "phase" (TList [INR 3 / 1]) = Ok ([INR 3 / 1], [d], e, [5%Z]) /\ d = 0.
Proof.
  pose proof (adev_single (with_event 5 (-3) (outlier 4 7) 20) 1 3 Rlt_0_1 ltac:(rewrite ev_len; lia) ltac:(unfold adev_n; rewrite ev_len; cbn; lia)) as E. cbv zeta in E. unfold adev_n in E. rewrite ev_len in E.
  destruct (C119_outlier adev 2%nat _ 5 (-3) 4 7%nat 20%nat 1 _ _ _ _ _ ltac:(left; reflexivity) Rlt_0_1 E) as (_ & _ & H).
  specialize (H 0%nat 3%nat ltac:(cbn; lia) eq_refl ltac:(lia) ltac:(lia)). cbn [nth] in H. eexists _, _. split; [exact E|].
  change (IZR (Z.of_nat ((20 - 1) / 3 - 1))) with 5 in H. change (Nat.eqb (7 mod 3) 0) with false in H. cbv iota in H. set (d := sqrt _) in *. clearbody d. nra.
Qed.
Example C119_ex_step : exists d e, oadev (with_event 5 (-3) (phase_step 6 6) 16) 1 "phase" (TList [INR 2 / 1]) = Ok ([INR 2 / 1], [d], e, [12%Z]) /\ d ^ 2 = 3 / 2.
Proof.
  pose proof (oadev_single (with_event 5 (-3) (phase_step 6 6) 16) 1 2 Rlt_0_1 ltac:(lia) ltac:(rewrite ev_len; lia)) as E. cbv zeta in E. rewrite ev_len in E.
  destruct (C119_phase_step oadev 2%nat _ 5 (-3) 6 6%nat 16%nat 1 _ _ _ _ _ ltac:(right; left; reflexivity) Rlt_0_1 E) as (_ & _ & H).
  specialize (H 0%nat 2%nat ltac:(cbn; lia) eq_refl ltac:(lia) ltac:(lia)). cbn [nth] in H. eexists _, _. split; [exact E|].
  change (IZR (Z.of_nat (16 - 2 * 2))) with 12 in H. cbn [INR] in H. set (d := sqrt _) in *. clearbody d. lra.
Qed.
Example C119_ex_freq : exists d e, mdev (with_event 5 (-3) (freq_step 1 1 9) 20) 1 "phase" (TList [INR 2 / 1]) = Ok ([INR 2 / 1], [d], e, [15%Z]) /\ d ^ 2 = 1 / 24.
Proof.
  pose proof (mdev_single (with_event 5 (-3) (freq_step 1 1 9) 20) 1 2 Rlt_0_1 ltac:(lia) ltac:(rewrite ev_len; lia)) as E. cbv zeta in E. rewrite ev_len in E.
  destruct (C119_frequency_step mdev 3%nat _ 5 (-3) 1 9%nat 20%nat 1 _ _ _ _ _ ltac:(right; right; right; right; left; reflexivity) Rlt_0_1 E) as (_ & _ & H).
  specialize (H 0%nat 2%nat ltac:(cbn; lia) eq_refl ltac:(lia) ltac:(lia)). cbn [nth] in H. eexists _, _. split; [exact E|].
  change (IZR (Z.of_nat (20 - 3 * 2 + 1))) with 15 in H. cbn [INR] in H. set (d := sqrt _) in *. clearbody d. lra.
Qed.
Example C119_ex_tierms : exists d e, tierms (with_event 5 0 (phase_step 6 6) 16) 1 "phase" (TList [INR 2 / 1]) = Ok ([INR 2 / 1], [d], e, [14%Z]) /\ d ^ 2 = 36 / 7.
Proof.
  pose proof (tierms_single (with_event 5 0 (phase_step 6 6) 16) 1 2 Rlt_0_1 ltac:(lia) ltac:(rewrite ev_len; lia)) as E. rewrite ev_len in E.
  destruct (proj2 (C119_tierms 5 6 6 16 1 (TList [INR 2 / 1]) _ _ _ _ Rlt_0_1) E) as (_ & _ & H).
  specialize (H 0%nat 2%nat ltac:(cbn; lia) eq_refl ltac:(lia) ltac:(lia)). cbn [nth] in H. eexists _, _. split; [exact E|].
  change (IZR (Z.of_nat (16 - 2))) with 14 in H. cbn [INR] in H. set (d := sqrt _) in *. clearbody d. lra.
Qed.
Example C119_ex_mtie : exists e, mtie (with_event 5 0 (outlier (-4) 6) 16) 1 "phase" (TList [INR 2 / 1]) = Ok ([INR 2 / 1], [4], e, [14%Z]).
Proof.
  pose proof (mtie_single (with_event 5 0 (outlier (-4) 6) 16) 1 2 _ Rlt_0_1 ltac:(lia) ltac:(rewrite ev_len; lia) (out_mtie 5 (-4) 6 16 2 ltac:(lia) ltac:(lia))) as E.
  eexists. rewrite E, ev_len. replace (Rabs (-4)) with 4 by (rewrite Rabs_left; lra). reflexivity.
Qed.
