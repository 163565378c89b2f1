(** * psd2allan as the grid is refined (C114). *)
From Coq Require Import Ascii String Reals List ZArith Bool Arith Lia Lra Psatz.
From Coquelicot Require Import Coquelicot.
From Verif Require Import Base Num NpList NumR Spec ListFacts RSum ModelPsd PropsPsdAdev SincProofs.
Import ListNotations.
Local Open Scope R_scope.
Local Notation len := List.length.

(** n samples of the spectral density S from 0 to F *)
Definition step (F : R) (n : nat) : R := F / INR (n - 1).
Definition samples (S : R -> R) (F : R) (n : nat) : list R := map (fun i => S (INR i * step F n)) (seq 0 n).
(** the interpolated values approach the density as the grid is refined *)
Definition accurate (interp : list R -> list R -> list R -> list R) (S : R -> R) (F : R) : Prop :=
  forall eps, 0 < eps -> exists n0, forall n, (n0 <= n)%nat -> forall k, (k < 4 * (n - 1))%nat ->
    Rabs ((interp (coarse n (step F n)) (samples S F n) (fine n (step F n))).[k] - S (INR (k + 1) * (step F n / 4))) <= eps.
(** the answer has the row (t, d) *)
Definition at_tau (r : res (list R * list R)) (t d : R) : Prop :=
  exists ts ds i, r = Ok (ts, ds) /\ nth_error ts i = Some t /\ nth_error ds i = Some d.
(** m is one of the averaging factors once the grid is fine enough *)
Definition factor_of (base : R) (m : nat) : Prop :=
  (1 <= m)%nat /\ (base <= 1 \/ 1 < base /\ exists k, half_even (base ^ k) (Z.of_nat m)).
(** the integral of the documentation, up to the highest frequency *)
Definition variance (g S : R -> R) (F tau : R) : R := 2 * RInt (fun f => S f * g (PI * f * tau)) 0 F.

(** ** Simpson's rule *)
Lemma cont_pt (f : R -> R) x : continuous f x -> continuity_pt f x.
Proof. intros H. now apply continuity_pt_filterlim. Qed.
Lemma simpson_cell (f : R -> R) a h eps : 0 < h -> ex_RInt f a (a + 2 * h) -> (forall x y, a <= x <= a + 2 * h -> a <= y <= a + 2 * h -> Rabs (f x - f y) <= eps) ->
  Rabs (h / 3 * (f a + 4 * f (a + h) + f (a + 2 * h)) - RInt f a (a + 2 * h)) <= 2 * h * eps.
Proof.
  intros Hh Hex Hu. set (c := (f a + 4 * f (a + h) + f (a + 2 * h)) / 6).
  assert (E : h / 3 * (f a + 4 * f (a + h) + f (a + 2 * h)) - RInt f a (a + 2 * h) = RInt (fun x => c - f x) a (a + 2 * h)).
  { rewrite (RInt_minus (fun _ => c) f) by (try apply ex_RInt_const; exact Hex). rewrite RInt_const.
    unfold minus, plus, opp, scal; cbn; unfold mult; cbn. unfold c. field. }
  rewrite E. replace (2 * h * eps) with ((a + 2 * h - a) * eps) by ring. apply abs_RInt_le_const; [lra| |].
  - apply (ex_RInt_minus (fun _ => c) f); [apply ex_RInt_const|exact Hex].
  - intros t Ht. unfold c.
    pose proof (Hu a t ltac:(lra) Ht) as A. pose proof (Hu (a + h) t ltac:(lra) Ht) as B. pose proof (Hu (a + 2 * h) t ltac:(lra) Ht) as C.
    apply Rabs_le_between in A, B, C. apply Rabs_le_between. lra.
Qed.
Lemma simpson_near (f : R -> R) k h eps : 0 < h -> (forall x, 0 <= x <= INR k * (2 * h) -> continuous f x) ->
  (forall x y, 0 <= x <= INR k * (2 * h) -> 0 <= y <= INR k * (2 * h) -> Rabs (x - y) <= 2 * h -> Rabs (f x - f y) <= eps) ->
  Rabs (simpson_sum k (fun i => f (INR i * h)) h - RInt f 0 (INR k * (2 * h))) <= INR k * (2 * h) * eps.
Proof.
  intros Hh. unfold simpson_sum. induction k as [|k IH]; intros Hc Hu.
  - cbn [bigsum INR]. rewrite !Rmult_0_l, RInt_point. unfold zero; cbn. rewrite Rmult_0_r, Rminus_0_r, Rabs_R0. lra.
  - assert (Pk : 0 <= INR k) by apply pos_INR. rewrite S_INR in *. cbn [bigsum].
    assert (B : 0 <= INR k * (2 * h)) by nra.
    assert (X1 : ex_RInt f 0 (INR k * (2 * h))) by (apply (ex_RInt_continuous (V := R_CompleteNormedModule)); intros z; rewrite Rmin_left, Rmax_right by lra; intros; apply Hc; lra).
    assert (X2 : ex_RInt f (INR k * (2 * h)) (INR k * (2 * h) + 2 * h)) by (apply (ex_RInt_continuous (V := R_CompleteNormedModule)); intros z; rewrite Rmin_left, Rmax_right by lra; intros; apply Hc; lra).
    replace ((INR k + 1) * (2 * h)) with (INR k * (2 * h) + 2 * h) by ring. rewrite <- (RInt_Chasles f 0 (INR k * (2 * h)) (INR k * (2 * h) + 2 * h) X1 X2).
    assert (I1 := IH ltac:(intros; apply Hc; lra) ltac:(intros; apply Hu; lra)).
    assert (I2 := simpson_cell f (INR k * (2 * h)) h eps Hh X2 ltac:(intros x y Hx Hy; apply Hu; try lra; apply Rabs_le_between; lra)).
    set (A := bigsum k _) in *. replace (INR (2 * k) * h) with (INR k * (2 * h)) by (rewrite mult_INR; cbn [INR]; ring).
    replace (INR (2 * k + 1) * h) with (INR k * (2 * h) + h) by (rewrite plus_INR, mult_INR; cbn [INR]; ring).
    replace (INR (2 * k + 2) * h) with (INR k * (2 * h) + 2 * h) by (rewrite plus_INR, mult_INR; cbn [INR]; ring).
    set (B1 := f _ + 4 * f _ + f _) in *. rewrite Rmult_plus_distr_l. apply Rabs_le_between in I1, I2. apply Rabs_le_between.
    change (plus (RInt f 0 (INR k * (2 * h))) (RInt f (INR k * (2 * h)) (INR k * (2 * h) + 2 * h))) with (RInt f 0 (INR k * (2 * h)) + RInt f (INR k * (2 * h)) (INR k * (2 * h) + 2 * h)). nra.
Qed.

(** ** The transfer functions *)
Lemma sin_sq_le z : sin z ^ 2 <= z ^ 2.
Proof.
  destruct (Req_dec z 0) as [->|Hz]; [rewrite sin_0; lra|]. assert (Q : forall y, 0 < y -> sin y ^ 2 <= y ^ 2).
  { intros y Hy. assert (sin y <= y) by (left; now apply sin_lt_x). destruct (Rle_dec 1 y) as [L|L].
    - pose proof (SIN_bound y). nra.
    - assert (0 <= sin y) by (apply sin_ge_0; pose proof PI2_1; lra). nra. }
  destruct (Rlt_dec 0 z) as [P|P]; [now apply Q|]. specialize (Q (- z) ltac:(lra)). rewrite sin_neg in Q. nra.
Qed.
Lemma sin_sq_1 z : sin z ^ 2 <= 1. Proof. pose proof (SIN_bound z). nra. Qed.
Definition gain (g : R -> R) : Prop := g = gain_allan \/ g = gain_modified.
Lemma gain_bound g z : gain g -> 0 <= g z <= 1 /\ g z <= z ^ 2.
Proof.
  intros Hg. pose proof (sin_sq_le z) as A. pose proof (sin_sq_1 z) as B. assert (P : 0 <= sin z ^ 2) by apply pow2_ge_0.
  destruct (Req_dec z 0) as [->|Hz].
  { destruct Hg as [->| ->]; unfold gain_allan, gain_modified; rewrite sin_0; unfold Rdiv; rewrite !(pow_i 4), ?(pow_i 6), !Rmult_0_l by lia; lra. }
  assert (Pz : 0 < z ^ 2) by (assert (0 < z * z) by (apply Rsqr_pos_lt in Hz; exact Hz); nra).
  assert (Q : 0 <= sin z ^ 2 / z ^ 2 <= 1).
  { split; [apply Rmult_le_pos; [exact P|left; now apply Rinv_0_lt_compat]|]. apply Rmult_le_reg_r with (z ^ 2); [exact Pz|]. unfold Rdiv. rewrite Rmult_assoc, Rinv_l by lra. lra. }
  set (q := sin z ^ 2 / z ^ 2) in *. assert (E : sin z ^ 2 = q * z ^ 2) by (unfold q; field; lra).
  destruct Hg as [->| ->].
  - unfold gain_allan. replace (sin z ^ 4 / z ^ 2) with (q * sin z ^ 2) by (unfold q; field; lra). nra.
  - unfold gain_modified. replace (sin z ^ 6 / z ^ 4) with (q ^ 2 * sin z ^ 2) by (unfold q; field; lra). assert (0 <= q ^ 2 <= 1) by nra. nra.
Qed.
Lemma gain_cont (g : R -> R) z : gain g -> continuous g z.
Proof.
  intros Hg. destruct (Req_dec z 0) as [->|Hz].
  - apply continuity_pt_filterlim. intros eps He. exists (Rmin 1 eps). split; [apply Rmin_pos; lra|]. intros x [_ Hx]. unfold R_dist in *. cbn in *. unfold R_dist in *.
    destruct (gain_bound g x Hg) as [[A _] B]. destruct (gain_bound g 0 Hg) as [[C _] D]. replace (g 0) with 0 by (rewrite pow_i in D by lia; lra). rewrite Rminus_0_r in *.
    rewrite Rabs_pos_eq by exact A. pose proof (Rmin_l 1 eps). pose proof (Rmin_r 1 eps). pose proof (Rabs_pos x). eapply Rle_lt_trans; [exact B|]. rewrite <- (pow2_abs x). nra.
  - apply continuity_pt_filterlim. destruct Hg as [->| ->]; unfold gain_allan, gain_modified; apply derivable_continuous_pt, ex_derive_Reals_0; auto_derive; repeat split; first [exact I|exact (pow_nonzero z 2 Hz)|exact (pow_nonzero z 4 Hz)|idtac].
Qed.

(** ** Convergence *)
Lemma simpson_shift k a b h eps : 0 <= h -> (forall i, (i <= 2 * k)%nat -> Rabs (a i - b i) <= eps) -> Rabs (simpson_sum k a h - simpson_sum k b h) <= INR k * (2 * h) * eps.
Proof.
  intros Hh H. assert (E : simpson_sum k (fun _ => eps) h = INR k * (2 * h) * eps).
  { unfold simpson_sum. rewrite bigsum_const. field. }
  assert (U : simpson_sum k a h <= simpson_sum k (fun i => b i + eps) h) by (apply simpson_sum_le; [exact Hh|]; intros i Hi; specialize (H i Hi); apply Rabs_le_between in H; lra).
  assert (L : simpson_sum k b h <= simpson_sum k (fun i => a i + eps) h) by (apply simpson_sum_le; [exact Hh|]; intros i Hi; specialize (H i Hi); apply Rabs_le_between in H; lra).
  rewrite simpson_sum_plus, E in U, L. apply Rabs_le_between. lra.
Qed.
Lemma sqrt_near a b eps : 0 <= eps -> Rabs (a - b) <= eps ^ 2 -> Rabs (sqrt a - sqrt b) <= eps.
Proof.
  assert (Q : forall a b, 0 <= eps -> a - b <= eps ^ 2 -> sqrt a - sqrt b <= eps).
  { intros a' b' He H. destruct (Rle_dec 0 a') as [A|A]; [|rewrite (sqrt_neg_0 a') by lra; pose proof (sqrt_pos b'); lra].
    assert (sqrt a' <= sqrt b' + eps); [|lra]. pose proof (sqrt_pos b'). rewrite <- (sqrt_pow2 (sqrt b' + eps)) by lra. apply sqrt_le_1_alt.
    destruct (Rle_dec 0 b') as [B|B]; [pose proof (pow2_sqrt b' B); nra|rewrite (sqrt_neg_0 b') by lra; nra]. }
  intros He H. apply Rabs_le_between in H. apply Rabs_le_between. pose proof (Q a b He ltac:(lra)). pose proof (Q b a He ltac:(lra)). lra.
Qed.
Section Limit.
Context (interp : list R -> list R -> list R -> list R) (Hlen : forall f0 S f, len (interp f0 S f) = len f).
Context (g S : R -> R) (F tau : R) (Hg : gain g) (HF : 0 < F) (HS : forall f, 0 <= f <= F -> continuous S f) (Ha : accurate interp S F).
Let phi f := S f * g (PI * f * tau).
Lemma phi_cont f : 0 <= f <= F -> continuous phi f.
Proof using All.
  intros Hf. apply (continuous_mult S (fun f => g (PI * f * tau))); [now apply HS|]. apply (continuous_comp (fun f => PI * f * tau) g); [|now apply gain_cont].
  apply (ex_derive_continuous (fun f => PI * f * tau)). auto_derive. exact I.
Qed.
Lemma phi_0 : phi 0 = 0.
Proof using All.
  unfold phi. rewrite Rmult_0_r, Rmult_0_l. destruct (gain_bound g 0 Hg) as [[A _] B]. rewrite pow_i in B by lia. replace (g 0) with 0 by lra. ring.
Qed.
Lemma grid_fine eps : 0 < eps -> exists n0, (4 <= n0)%nat /\ forall n, (n0 <= n)%nat -> 0 < step F n /\ INR (n - 1) * step F n = F /\ step F n <= eps.
Proof using All.
  intros He. destruct (archimed (F / eps)) as [U _]. set (z := Z.to_nat (up (F / eps))).
  assert (Pq : 0 < F / eps) by (apply Rdiv_lt_0_compat; lra). assert (Z0 : (0 < up (F / eps))%Z) by (apply lt_IZR; lra).
  exists (z + 4)%nat. split; [lia|]. intros n Hn. assert (Pn : 0 < INR (n - 1)) by (apply lt_0_INR; lia). unfold step. split; [apply Rdiv_lt_0_compat; lra|]. split; [field; lra|].
  apply Rmult_le_reg_r with (INR (n - 1)); [exact Pn|]. replace (F / INR (n - 1) * INR (n - 1)) with F by (field; lra).
  assert (F / eps <= INR (n - 1)). { apply Rle_trans with (INR z); [|apply le_INR; lia]. unfold z. rewrite INR_IZR_INZ, Z2Nat.id by lia. lra. }
  apply Rmult_le_compat_l with (r := eps) in H; [|lra]. replace (eps * (F / eps)) with F in H by (field; lra). exact H.
Qed.
Definition sampled (n : nat) : R :=
  2 * simpson_sum (2 * (n - 1)) (fun i => match i with O => 0 | Datatypes.S k => (interp (coarse n (step F n)) (samples S F n) (fine n (step F n))).[k] *
    g (PI * (INR (Datatypes.S k) * (step F n / 4)) * tau) end) (step F n / 4).
Lemma variance_near eps : 0 < eps -> exists n0, (4 <= n0)%nat /\ forall n, (n0 <= n)%nat -> Rabs (sampled n - variance g S F tau) <= eps.
Proof using All.
  intros He. set (e := eps / (4 * F)). assert (Pe : 0 < e) by (apply Rdiv_lt_0_compat; lra).
  destruct (@Heine_cor2 phi 0 F (fun x Hx => cont_pt phi x (phi_cont x Hx)) (mkposreal e Pe)) as [dl Hdl]. cbn in Hdl.
  destruct (grid_fine (dl / 2) ltac:(pose proof (cond_pos dl); lra)) as (n1 & Hn1 & G). destruct (Ha e Pe) as (n2 & Hn2). exists (max n1 n2). split; [lia|]. intros n Hn.
  destruct (G n ltac:(lia)) as (Pd & EF & Hd). set (df := step F n) in *. set (k := (2 * (n - 1))%nat).
  assert (EK : INR k * (2 * (df / 4)) = F) by (unfold k; rewrite mult_INR; cbn [INR]; lra). pose proof (cond_pos dl) as Pdl.
  assert (A := simpson_near phi k (df / 4) e ltac:(lra) ltac:(rewrite EK; intros; now apply phi_cont)
    ltac:(rewrite EK; intros x y Hx Hy Hxy; left; apply Hdl; [exact Hx|exact Hy|eapply Rle_lt_trans; [exact Hxy|lra]])). rewrite EK in A.
  assert (B := simpson_shift k (fun i => match i with O => 0 | Datatypes.S k => (interp (coarse n df) (samples S F n) (fine n df)).[k] * g (PI * (INR (Datatypes.S k) * (df / 4)) * tau) end)
    (fun i => phi (INR i * (df / 4))) (df / 4) e ltac:(lra)). rewrite EK in B. unfold sampled, variance. fold df. fold k. change (fun f => S f * g (PI * f * tau)) with phi.
  set (I := RInt phi 0 F) in *.
  set (s1 := simpson_sum k (fun i => match i with O => _ | _ => _ end) _) in *. set (s2 := simpson_sum k (fun i => phi _) _) in *.
  assert (B' : Rabs (s1 - s2) <= F * e).
  { apply B. intros [|q] Hq.
    - cbn [INR]. rewrite Rmult_0_l, phi_0, Rminus_0_r, Rabs_R0. lra.
    - unfold phi. rewrite <- Rmult_minus_distr_r, Rabs_mult. destruct (gain_bound g (PI * (INR (Datatypes.S q) * (df / 4)) * tau) Hg) as [[P0 P1] _].
      rewrite (Rabs_pos_eq (g _)) by exact P0. specialize (Hn2 n ltac:(lia) q ltac:(unfold k in Hq; lia)). replace (q + 1)%nat with (Datatypes.S q) in Hn2 by lia. fold df in Hn2.
      pose proof (Rabs_pos ((interp (coarse n df) (samples S F n) (fine n df)).[q] - S (INR (Datatypes.S q) * (df / 4)))). nra. }
  assert (EE : F * e = eps / 4) by (unfold e; field; lra). rewrite EE in *. apply Rabs_le_between in A, B'. apply Rabs_le_between.
  revert A B'. generalize s1 s2 I. clear. intros. lra.
Qed.
End Limit.

Theorem C114_limit interp kind g base S F m : (forall f0 S f, len (interp f0 S f) = len f) -> kind_of kind g -> factor_of base m -> 0 < F ->
  (forall f, 0 <= f <= F -> continuous S f) -> accurate interp S F -> 0 < variance g S F (INR m / F) ->
  forall eps, 0 < eps -> exists n0, forall n, (n0 <= n)%nat ->
  exists d, at_tau (psd2allan interp (Some (samples S F n)) (FStep (step F n)) kind base) (INR m / F) d /\ 0 < d /\
    Rabs (d - sqrt (variance g S F (INR m / F))) <= eps.
Proof.
  intros Hlen Hk Hm HF HS Ha HV eps He. assert (Hg : gain g) by (destruct Hk as [(t & _ & ->)|(t & _ & ->)]; [left|right]; reflexivity).
  set (V := variance g S F (INR m / F)) in *. set (q := Rmin (eps ^ 2) (V / 2)). assert (Pq : 0 < q) by (apply Rmin_pos; [now apply pow_lt|lra]).
  destruct (variance_near interp Hlen g S F (INR m / F) Hg HF HS Ha q Pq) as (n1 & Hn1 & Hnear).
  destruct (grid_fine interp Hlen g S F (INR m / F) Hg HF HS Ha 1 ltac:(lra)) as (n2 & Hn2 & G).
  assert (W : exists n3, forall n, (n3 <= n)%nat -> psd_factor n base (Z.of_nat m)).
  { destruct Hm as [Hm1 [Hb|(Hb & k & Hke)]]; unfold psd_factor; destruct (Rlt_dec 1 base) as [L|L]; try lra.
    - exists (2 * m + 2)%nat. intros n Hn. lia.
    - destruct (archimed (2 * base ^ (k + 1))) as [U _]. set (z := Z.to_nat (up (2 * base ^ (k + 1)))). exists (z + 1)%nat. intros n Hn. right. exists k. split; [|exact Hke].
      assert (P : 0 < base ^ (k + 1)) by (apply pow_lt; lra). assert (Z0 : (0 < up (2 * base ^ (k + 1)))%Z) by (apply lt_IZR; lra).
      assert (2 * base ^ (k + 1) <= INR (n - 1)); [|lra]. apply Rle_trans with (INR z); [unfold z; rewrite INR_IZR_INZ, Z2Nat.id by lia; lra|apply le_INR; lia]. }
  destruct W as (n3 & W). exists (max n1 (max n2 n3)). intros n Hn. destruct (G n ltac:(lia)) as (Pd & EF & _). specialize (Hnear n ltac:(lia)). specialize (W n ltac:(lia)).
  assert (Ls : len (samples S F n) = n) by (unfold samples; now rewrite map_length, seq_length).
  exists (sqrt (sampled interp g S F (INR m / F) n)). split.
  - rewrite (C70_value interp Hlen (samples S F n) (step F n) kind g base ltac:(lia) Pd Hk). rewrite Ls.
    destruct (C70_factors n (step F n) base ltac:(lia)) as (ms & Et & _ & Hin). apply Hin in W. rewrite Et, EF. apply In_nth_error in W as [i Hi].
    eexists _, _, i. split; [reflexivity|]. rewrite !nth_error_map, Hi. cbn [option_map]. rewrite <- INR_IZR_INZ. split; reflexivity.
  - assert (Q1 : q <= eps ^ 2) by apply Rmin_l. assert (Q2 : q <= V / 2) by apply Rmin_r. split.
    + apply sqrt_lt_R0. fold V in Hnear. apply Rabs_le_between in Hnear. lra.
    + apply sqrt_near; [lra|]. fold V in Hnear. lra.
Qed.
Print Assumptions C114_limit.

(** an interpolation that is accurate for every continuous density: the sample to the left *)
Definition left_sample (f0 S f : list R) : list R := map (fun k => S.[(k + 1) / 4]) (seq 0 (len f)).
Example C114_accurate S F : 0 < F -> (forall f, 0 <= f <= F -> continuous S f) -> (forall f0 S f, len (left_sample f0 S f) = len f) /\ accurate left_sample S F.
Proof.
  intros HF HS. split; [intros; unfold left_sample; now rewrite map_length, seq_length|]. intros eps He.
  destruct (@Heine_cor2 S 0 F (fun x Hx => cont_pt S x (HS x Hx)) (mkposreal eps He)) as [dl Hdl]. cbn in Hdl. pose proof (cond_pos dl) as Pdl.
  destruct (archimed (F / dl)) as [U _]. set (z := Z.to_nat (up (F / dl))). assert (Pq : 0 < F / dl) by (apply Rdiv_lt_0_compat; lra). assert (Z0 : (0 < up (F / dl))%Z) by (apply lt_IZR; lra).
  exists (z + 2)%nat. intros n Hn k Hk. assert (Pn : 0 < INR (n - 1)) by (apply lt_0_INR; lia).
  assert (Pd : 0 < step F n) by (apply Rdiv_lt_0_compat; lra). assert (EF : INR (n - 1) * step F n = F) by (unfold step; field; lra).
  assert (Hd : step F n < dl).
  { apply Rmult_lt_reg_l with (INR (n - 1)); [exact Pn|]. rewrite EF. assert (F / dl < INR (n - 1)) by (apply Rlt_le_trans with (INR z); [unfold z; rewrite INR_IZR_INZ, Z2Nat.id by lia; lra|apply le_INR; lia]).
    apply Rmult_lt_compat_r with (r := dl) in H; [|lra]. replace (F / dl * dl) with F in H by (field; lra). exact H. }
  set (i := ((k + 1) / 4)%nat). assert (Hi : (4 * i <= k + 1 < 4 * i + 4)%nat) by (unfold i; pose proof (Nat.div_mod (k + 1) 4 ltac:(lia)); pose proof (Nat.mod_upper_bound (k + 1) 4 ltac:(lia)); lia).
  assert (Lf : len (fine n (step F n)) = (4 * (n - 1))%nat) by (unfold fine; now rewrite tab_length).
  replace ((left_sample (coarse n (step F n)) (samples S F n) (fine n (step F n))).[k]) with (S (INR i * step F n)).
  2:{ unfold left_sample. rewrite Lf. symmetry. etransitivity; [exact (nth_tab (4 * (n - 1)) (fun k => (samples S F n).[(k + 1) / 4]) k 0 Hk)|].
      exact (nth_tab n (fun i => S (INR i * step F n)) i 0 ltac:(lia)). }
  destruct Hi as [H1 H2]. apply le_INR in H1. apply lt_INR in H2. rewrite mult_INR in H1. rewrite (plus_INR (4 * i)), mult_INR in H2. cbn [INR] in H1, H2.
  assert (Hk' : INR (k + 1) <= 4 * INR (n - 1)) by (replace 4 with (INR 4) by (cbn; lra); rewrite <- mult_INR; apply le_INR; lia). pose proof (pos_INR i). pose proof (pos_INR (k + 1)).
  left. apply Hdl; [nra|nra|]. eapply Rle_lt_trans; [|exact Hd]. apply Rabs_le_between. nra.
Qed.

(** ** White frequency noise and white phase noise *)
Definition G (g : R -> R) (X : R) : R := RInt g 0 X.
Lemma G_derive g X : gain g -> is_derive (G g) X (g X).
Proof.
  intros Hg. apply (is_derive_RInt g (G g) 0 X); [|now apply gain_cont]. exists (mkposreal 1 Rlt_0_1). intros y _. apply (RInt_correct (V := R_CompleteNormedModule)).
  apply (ex_RInt_continuous (V := R_CompleteNormedModule)). intros; now apply gain_cont.
Qed.
Lemma G_0 g : G g 0 = 0. Proof. unfold G. now rewrite RInt_point. Qed.
Lemma G_incr g X Y : gain g -> X <= Y -> G g X <= G g Y.
Proof.
  intros Hg [H| ->]; [|lra]. destruct (MVT_cor2 (G g) g X Y H) as (c & E & Hc); [intros; now apply is_derive_Reals, G_derive|]. destruct (gain_bound g c Hg) as [[A _] _]. nra.
Qed.
Lemma A_pi k : (1 <= k)%nat -> PI / 2 - PI / (4 * INR k) <= A (INR k * PI) <= PI / 2.
Proof.
  intros Hk. pose proof (A_bound (2 * k) ltac:(lia)) as H. rewrite mult_INR in H. cbn [INR] in H. assert (0 < INR k) by (apply lt_0_INR; lia).
  replace ((1 + 1) * INR k * (PI / 2)) with (INR k * PI) in H by field. replace (PI / (2 * ((1 + 1) * INR k))) with (PI / (4 * INR k)) in H by (field; lra). exact H.
Qed.
Lemma G_allan k : (1 <= k)%nat -> PI / 4 - PI / (4 * INR k) <= G gain_allan (INR k * PI) <= PI / 4 + PI / (16 * INR k).
Proof.
  intros Hk. unfold G. change gain_allan with g4. rewrite g4_int. pose proof (A_pi k Hk) as H1. pose proof (A_pi (2 * k) ltac:(lia)) as H2. rewrite mult_INR in H2. change (INR 2) with 2 in H2.
  rewrite Rmult_assoc in H2. assert (0 < INR k) by (apply lt_0_INR; lia). replace (PI / (4 * (2 * INR k))) with (2 * (PI / (16 * INR k))) in H2 by (field; lra). lra.
Qed.
Lemma G_modified k : (1 <= k)%nat -> PI / 8 - PI / (4 * INR k) <= G gain_modified (INR k * PI) <= PI / 8 + PI / (4 * INR k).
Proof.
  intros Hk. assert (P : 0 < INR k) by (apply lt_0_INR; lia). pose proof PI_RGT_0. assert (Gm : gain gain_modified) by now right.
  rewrite (g6_int (G gain_modified) (INR k * PI) (fun x _ => G_derive gain_modified x Gm) (G_0 _) (fun x _ => proj1 (gain_bound gain_modified x Gm)) ltac:(nra) (sin_INR_PI k)). unfold g6_prim.
  pose proof (A_pi k Hk) as H1. pose proof (A_pi (2 * k) ltac:(lia)) as H2. pose proof (A_pi (3 * k) ltac:(lia)) as H3. rewrite mult_INR in H2, H3.
  replace (INR 2) with 2 in H2 by (cbn; lra). replace (INR 3) with 3 in H3 by (cbn; lra). rewrite Rmult_assoc in H2, H3.
  set (q := PI / (48 * INR k)). assert (0 < q) by (apply Rdiv_lt_0_compat; lra).
  replace (PI / (4 * INR k)) with (12 * q) in * by (unfold q; field; lra). replace (PI / (4 * (2 * INR k))) with (6 * q) in H2 by (unfold q; field; lra).
  replace (PI / (4 * (3 * INR k))) with (4 * q) in H3 by (unfold q; field; lra). lra.
Qed.
(** an increasing function below c + b/k at every k is below c *)
Lemma below (f : R -> R) c b m : 0 < b -> (forall X Y, X <= Y -> f X <= f Y) -> (forall k, (1 <= k)%nat -> f (INR k * PI) <= c + b / INR k) -> f (INR m * PI) <= c.
Proof.
  intros Hb Hi H. apply Rnot_lt_le. intros L. set (e := f (INR m * PI) - c) in *. assert (Pe : 0 < e) by (unfold e; lra). pose proof PI_RGT_0.
  destruct (archimed (b / e)) as [U _]. set (z := Z.to_nat (up (b / e))). assert (Pq : 0 < b / e) by (apply Rdiv_lt_0_compat; lra). assert (Z0 : (0 < up (b / e))%Z) by (apply lt_IZR; lra).
  specialize (H (z + m)%nat ltac:(lia)). specialize (Hi (INR m * PI) (INR (z + m) * PI)). rewrite plus_INR in *. assert (Ez : INR z = IZR (up (b / e))) by (unfold z; rewrite INR_IZR_INZ, Z2Nat.id by lia; reflexivity).
  pose proof (pos_INR m). pose proof (pos_INR z). specialize (Hi ltac:(nra)). set (K := INR z + INR m) in *. assert (Hk : b / e < K) by (unfold K; lra).
  assert (b / K < e); [|unfold e in *; lra]. apply Rmult_lt_reg_r with K; [lra|]. replace (b / K * K) with b by (field; lra). apply Rmult_lt_compat_r with (r := e) in Hk; [|lra].
  replace (b / e * e) with b in Hk by (field; lra). lra.
Qed.
Lemma variance_white g h0 F m : gain g -> 0 < F -> (1 <= m)%nat -> variance g (fun _ => h0) F (INR m / F) = 2 * h0 / (PI * (INR m / F)) * G g (INR m * PI).
Proof.
  intros Hg HF Hm. assert (P : 0 < INR m) by (apply lt_0_INR; lia). pose proof PI_RGT_0 as HP. set (tau := INR m / F). assert (Pt : 0 < tau) by (apply Rdiv_lt_0_compat; lra).
  unfold variance. rewrite (is_RInt_unique _ 0 F (h0 / (PI * tau) * G g (INR m * PI))); [field; split; lra|].
  evar_last; [apply (is_RInt_derive (fun f => h0 / (PI * tau) * G g (PI * f * tau)) (fun f => h0 * g (PI * f * tau)))|].
  - intros x _. assert (D := is_derive_comp (G g) (fun f => PI * f * tau) x (g (PI * x * tau)) (PI * tau) (G_derive g _ Hg) ltac:(auto_derive; [exact I|ring])).
    apply (is_derive_scal _ x (h0 / (PI * tau))) in D. unfold scal in D; cbn in D; unfold mult in D; cbn in D. replace (h0 * g (PI * x * tau)) with (h0 / (PI * tau) * (PI * tau * g (PI * x * tau))) by (field; split; lra). exact D.
  - intros x _. apply (continuous_mult (fun _ => h0) (fun f => g (PI * f * tau))); [apply continuous_const|]. apply (continuous_comp (fun f => PI * f * tau) g); [|now apply gain_cont].
    apply (ex_derive_continuous (fun f : R => PI * f * tau)). auto_derive. exact I.
  - replace (PI * F * tau) with (INR m * PI) by (unfold tau; field; lra). rewrite Rmult_0_r, Rmult_0_l, G_0. unfold minus, plus, opp; cbn. ring.
Qed.
Lemma white_between V lo hi d eps : lo <= V -> V <= hi -> Rabs (d - sqrt V) <= eps -> sqrt lo - eps <= d <= sqrt hi + eps.
Proof. intros H1 H2 H. apply Rabs_le_between in H. pose proof (sqrt_le_1_alt _ _ H1). pose proof (sqrt_le_1_alt _ _ H2). lra. Qed.

Theorem C114_white_adev interp t kind base h0 F m : (forall f0 S f, len (interp f0 S f) = len f) -> kind = String "a"%char t \/ kind = String "A"%char t -> factor_of base m -> (2 <= m)%nat ->
  0 < F -> 0 < h0 -> accurate interp (fun _ => h0) F ->
  forall eps, 0 < eps -> exists n0, forall n, (n0 <= n)%nat ->
  exists d, at_tau (psd2allan interp (Some (samples (fun _ => h0) F n)) (FStep (step F n)) kind base) (INR m / F) d /\ 0 < d /\
    sqrt (h0 / (2 * (INR m / F)) * (1 - 1 / INR m)) - eps <= d <= sqrt (h0 / (2 * (INR m / F))) + eps.
Proof.
  intros Hlen Hk Hm Hm2 HF Hh Ha eps He. assert (Hg : gain gain_allan) by now left. assert (P : 2 <= INR m) by (apply (le_INR 2); lia). pose proof PI_RGT_0 as HP.
  assert (EV := variance_white gain_allan h0 F m Hg HF ltac:(lia)). set (V := variance gain_allan (fun _ => h0) F (INR m / F)) in *.
  assert (U := below (G gain_allan) (PI / 4) (PI / 16) m ltac:(lra) (fun X Y => G_incr gain_allan X Y Hg) ltac:(intros k Kk; replace (PI / 16 / INR k) with (PI / (16 * INR k)) by (field; apply not_0_INR; lia); apply G_allan, Kk)).
  destruct (G_allan m ltac:(lia)) as [L _]. set (tau := INR m / F) in *. assert (Pt : 0 < tau) by (apply Rdiv_lt_0_compat; lra). set (c := 2 * h0 / (PI * tau)) in *.
  assert (Pc : 0 < c) by (apply Rdiv_lt_0_compat; nra).
  assert (E1 : h0 / (2 * tau) = c * (PI / 4)) by (unfold c; field; lra). assert (E2 : c * (PI / 4) * (1 - 1 / INR m) = c * (PI / 4 - PI / (4 * INR m))) by (field; lra).
  assert (V1 : h0 / (2 * tau) * (1 - 1 / INR m) <= V) by (rewrite E1, E2, EV; apply Rmult_le_compat_l; lra).
  assert (V2 : V <= h0 / (2 * tau)) by (rewrite E1, EV; apply Rmult_le_compat_l; lra).
  assert (PV : 0 < V). { eapply Rlt_le_trans; [|exact V1]. apply Rmult_lt_0_compat; [apply Rdiv_lt_0_compat; lra|]. assert (1 / INR m < 1); [|lra]. apply Rmult_lt_reg_r with (INR m); [lra|]. unfold Rdiv. rewrite Rmult_assoc, Rinv_l; lra. }
  destruct (C114_limit interp kind gain_allan base (fun _ => h0) F m Hlen ltac:(left; now exists t) Hm HF ltac:(intros; apply continuous_const) Ha PV eps He) as (n0 & Hn0).
  exists n0. intros n Hn. destruct (Hn0 n Hn) as (d & D1 & D2 & D3). exists d. split; [exact D1|]. split; [exact D2|]. exact (white_between V _ _ d eps V1 V2 D3).
Qed.
Print Assumptions C114_white_adev.

Theorem C114_white_mdev interp t kind base h0 F m : (forall f0 S f, len (interp f0 S f) = len f) -> kind = String "m"%char t \/ kind = String "M"%char t -> factor_of base m -> (3 <= m)%nat ->
  0 < F -> 0 < h0 -> accurate interp (fun _ => h0) F ->
  forall eps, 0 < eps -> exists n0, forall n, (n0 <= n)%nat ->
  exists d, at_tau (psd2allan interp (Some (samples (fun _ => h0) F n)) (FStep (step F n)) kind base) (INR m / F) d /\ 0 < d /\
    sqrt (h0 / (4 * (INR m / F)) * (1 - 2 / INR m)) - eps <= d <= sqrt (h0 / (4 * (INR m / F))) + eps.
Proof.
  intros Hlen Hk Hm Hm2 HF Hh Ha eps He. assert (Hg : gain gain_modified) by now right. assert (P : 3 <= INR m) by (replace 3 with (INR 3) by (cbn; lra); apply le_INR; lia). pose proof PI_RGT_0 as HP.
  assert (EV := variance_white gain_modified h0 F m Hg HF ltac:(lia)). set (V := variance gain_modified (fun _ => h0) F (INR m / F)) in *.
  assert (U := below (G gain_modified) (PI / 8) (PI / 4) m ltac:(lra) (fun X Y => G_incr gain_modified X Y Hg) ltac:(intros k Kk; replace (PI / 4 / INR k) with (PI / (4 * INR k)) by (field; apply not_0_INR; lia); apply G_modified, Kk)).
  destruct (G_modified m ltac:(lia)) as [L _]. set (tau := INR m / F) in *. assert (Pt : 0 < tau) by (apply Rdiv_lt_0_compat; lra). set (c := 2 * h0 / (PI * tau)) in *.
  assert (Pc : 0 < c) by (apply Rdiv_lt_0_compat; nra).
  assert (E1 : h0 / (4 * tau) = c * (PI / 8)) by (unfold c; field; lra). assert (E2 : c * (PI / 8) * (1 - 2 / INR m) = c * (PI / 8 - PI / (4 * INR m))) by (field; lra).
  assert (V1 : h0 / (4 * tau) * (1 - 2 / INR m) <= V) by (rewrite E1, E2, EV; apply Rmult_le_compat_l; lra).
  assert (V2 : V <= h0 / (4 * tau)) by (rewrite E1, EV; apply Rmult_le_compat_l; lra).
  assert (PV : 0 < V). { eapply Rlt_le_trans; [|exact V1]. apply Rmult_lt_0_compat; [apply Rdiv_lt_0_compat; lra|]. assert (2 / INR m < 1); [|lra]. apply Rmult_lt_reg_r with (INR m); [lra|]. unfold Rdiv. rewrite Rmult_assoc, Rinv_l; lra. }
  destruct (C114_limit interp kind gain_modified base (fun _ => h0) F m Hlen ltac:(right; now exists t) Hm HF ltac:(intros; apply continuous_const) Ha PV eps He) as (n0 & Hn0).
  exists n0. intros n Hn. destruct (Hn0 n Hn) as (d & D1 & D2 & D3). exists d. split; [exact D1|]. split; [exact D2|]. exact (white_between V _ _ d eps V1 V2 D3).
Qed.
Print Assumptions C114_white_mdev.

(** ** White phase noise: S = h2 f² *)
Lemma sin4_prim k x : k <> 0 -> is_derive (fun x => 3 / 8 * x - sin (2 * (k * x)) / (4 * k) + sin (4 * (k * x)) / (32 * k)) x (sin (k * x) ^ 4).
Proof.
  intros Hk. auto_derive; [exact I|]. replace (4 * (k * x)) with (2 * (2 * (k * x))) by ring. rewrite (cos_2a_sin (2 * (k * x))), (cos_2a_sin (k * x)), sin_2a. pose proof (sin2_cos2 (k * x)) as E. unfold Rsqr in E.
  set (s := sin (k * x)) in *. set (c := cos (k * x)) in *. replace (2 * s * c * (2 * s * c)) with (4 * (s * s) * (c * c)) by ring. replace (2 * (2 * s * c) * (2 * s * c)) with (8 * (s * s) * (c * c)) by ring.
  replace (c * c) with (1 - s * s) by lra. field. exact Hk.
Qed.
Lemma variance_wpm h2 F m : 0 < F -> (1 <= m)%nat -> variance gain_allan (fun f => h2 * f ^ 2) F (INR m / F) = 3 * h2 * F / (4 * (PI * (INR m / F)) ^ 2).
Proof.
  intros HF Hm. assert (P : 0 < INR m) by (apply lt_0_INR; lia). pose proof PI_RGT_0 as HP. set (tau := INR m / F). assert (Pt : 0 < tau) by (apply Rdiv_lt_0_compat; lra).
  set (k := PI * tau). assert (Pk : 0 < k) by (unfold k; nra). unfold variance.
  rewrite (RInt_ext _ (fun f => h2 / k ^ 2 * sin (k * f) ^ 4)).
  2:{ rewrite Rmin_left, Rmax_right by lra. intros x Hx. unfold gain_allan. replace (PI * x * tau) with (k * x) by (unfold k; ring). change (h2 * x ^ 2 * (sin (k * x) ^ 4 / (k * x) ^ 2) = h2 / k ^ 2 * sin (k * x) ^ 4). field. split; lra. }
  rewrite (is_RInt_unique _ 0 F (h2 / k ^ 2 * (3 / 8 * F))); [field; unfold k in *; lra|].
  apply (is_RInt_scal (fun f => sin (k * f) ^ 4) 0 F (h2 / k ^ 2) (3 / 8 * F)).
  evar_last; [apply (is_RInt_derive (fun x => 3 / 8 * x - sin (2 * (k * x)) / (4 * k) + sin (4 * (k * x)) / (32 * k)) (fun f => sin (k * f) ^ 4))|].
  - intros x _. apply sin4_prim. lra.
  - intros x _. apply (ex_derive_continuous (fun f : R => sin (k * f) ^ 4)). auto_derive. exact I.
  - replace (2 * (k * F)) with (INR (2 * m) * PI) by (unfold k, tau; rewrite mult_INR; change (INR 2) with 2; field; lra).
    replace (4 * (k * F)) with (INR (4 * m) * PI) by (unfold k, tau; rewrite mult_INR; replace (INR 4) with 4 by (cbn; lra); field; lra).
    rewrite !Rmult_0_r, sin_0, !sin_INR_PI. unfold minus, plus, opp; cbn. field. lra.
Qed.
Theorem C114_white_phase interp t kind base h2 F m : (forall f0 S f, len (interp f0 S f) = len f) -> kind = String "a"%char t \/ kind = String "A"%char t -> factor_of base m ->
  0 < F -> 0 < h2 -> accurate interp (fun f => h2 * f ^ 2) F ->
  forall eps, 0 < eps -> exists n0, forall n, (n0 <= n)%nat ->
  exists d, at_tau (psd2allan interp (Some (samples (fun f => h2 * f ^ 2) F n)) (FStep (step F n)) kind base) (INR m / F) d /\ 0 < d /\
    Rabs (d - sqrt (3 * h2 * F) / (2 * PI * (INR m / F))) <= eps.
Proof.
  intros Hlen Hk Hm HF Hh Ha eps He. assert (Hm1 : (1 <= m)%nat) by apply Hm. assert (P : 0 < INR m) by (apply lt_0_INR; lia). pose proof PI_RGT_0 as HP.
  assert (Pt : 0 < INR m / F) by (apply Rdiv_lt_0_compat; lra). assert (EV := variance_wpm h2 F m HF Hm1). set (V := variance gain_allan _ F (INR m / F)) in *.
  assert (P1 : 0 < 3 * h2 * F) by nra. assert (P2 : 0 < PI * (INR m / F)) by nra.
  assert (ES : sqrt V = sqrt (3 * h2 * F) / (2 * PI * (INR m / F))).
  { rewrite EV. replace (4 * (PI * (INR m / F)) ^ 2) with ((2 * PI * (INR m / F)) ^ 2) by ring. rewrite sqrt_div_alt by (apply pow_lt; nra). now rewrite sqrt_pow2 by nra. }
  rewrite <- ES. apply (C114_limit interp kind gain_allan base (fun f => h2 * f ^ 2) F m Hlen); [left; now exists t|exact Hm|exact HF| |exact Ha| |exact He].
  - intros f _. apply (ex_derive_continuous (fun f : R => h2 * f ^ 2)). auto_derive. exact I.
  - change (0 < V). rewrite EV. apply Rdiv_lt_0_compat; [exact P1|]. assert (0 < (PI * (INR m / F)) ^ 2) by now apply pow_lt. lra.
Qed.
Print Assumptions C114_white_phase.

(** the hypotheses are met: the sample to the left, h0 = 1 up to 8 Hz, octave spacing, tau = 1/2 s *)
Example C114_ex : (forall f0 S f, len (left_sample f0 S f) = len f) /\ factor_of 2 4 /\ accurate left_sample (fun _ => 1) 8 /\ accurate left_sample (fun f => 1 * f ^ 2) 8.
Proof.
  split; [intros; unfold left_sample; now rewrite map_length, seq_length|]. split.
  { split; [lia|]. right. split; [lra|]. exists 2%nat. replace (2 ^ 2) with (IZR (Z.of_nat 4)) by (cbn; lra). left. replace (IZR (Z.of_nat 4) - IZR (Z.of_nat 4)) with 0 by ring. rewrite Rabs_R0. lra. }
  split; apply C114_accurate; try lra; intros f _; [apply continuous_const|]. apply (ex_derive_continuous (fun f : R => 1 * f ^ 2)). auto_derive. exact I.
Qed.
