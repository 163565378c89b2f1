(** * Noise.generateNoise and the Noise predictions (C67, C68, C77). *)
From Coq Require Import String Reals List ZArith Bool Arith Lia Lra.
From Verif Require Import Base Num NpList NumR Spec ListFacts RSum Dft ModelCore ModelNoise ModelNoiseR NoiseProofs.
Import ListNotations.
Local Open Scope R_scope.
Local Notation len := List.length.

(** C67: the FFT-based filter is the causal convolution of the scaled normal
    deviates with the coefficients [kw b], for every length (not only powers
    of two). *)
Theorem C67_convolution (rnd : nat -> R) nr qd b : (1 <= nr)%nat ->
  exists x, generateNoise rnd (mkNoise nr qd b) = Ok x /\ len x = nr /\
  forall k, (k < nr)%nat ->
    x.[k] = bigsum (S k) (fun j => kw b j * (sqrt qd * rnd (k - j)%nat)).
Proof.
  intro H. rewrite (generateNoise_eq rnd nr qd b H). eexists. split; [reflexivity|].
  split; [apply tab_length|]. intros k Hk. now rewrite nth_tab.
Qed.

Theorem C67_nr0 (rnd : nat -> R) qd b : generateNoise rnd (mkNoise 0 qd b) = Err IndexError.
Proof. reflexivity. Qed.

Lemma kw_0 j : kw 0 (S j) = 0.
Proof.
  induction j as [|j IH].
  - cbn. field.
  - change (kw 0 (S (S j))) with (kw 0 (S j) * ((INR (S j) - 0 / 2) / (INR (S j) + 1))).
    rewrite IH. ring.
Qed.

Lemma kw_m2 j : kw (-2) j = 1.
Proof.
  induction j as [|j IH]; [reflexivity|]. cbn [kw]. rewrite IH. field.
  pose proof (pos_INR j). lra.
Qed.

Lemma kw_m4 j : kw (-4) j = INR j + 1.
Proof.
  induction j as [|j IH]; [cbn; ring|]. cbn [kw]. rewrite IH, S_INR. field.
  pose proof (pos_INR j). lra.
Qed.

(** b = 0: the white samples themselves. *)
Theorem C67_white_pm (rnd : nat -> R) nr qd : (1 <= nr)%nat ->
  generateNoise rnd (mkNoise nr qd 0) = Ok (tab nr (fun k => sqrt qd * rnd k)).
Proof.
  intro H. rewrite generateNoise_eq by exact H. f_equal. apply tab_ext. intros k Hk.
  rewrite bigsum_S_l. rewrite bigsum_0.
  - cbn [kw]. rewrite Nat.sub_0_r. ring.
  - intros i Hi. rewrite kw_0. ring.
Qed.

(** b = -2: their running sum. *)
Theorem C67_white_fm (rnd : nat -> R) nr qd : (1 <= nr)%nat ->
  generateNoise rnd (mkNoise nr qd (-2)) =
  Ok (tab nr (fun k => bigsum (S k) (fun i => sqrt qd * rnd i))).
Proof.
  intro H. rewrite generateNoise_eq by exact H. f_equal. apply tab_ext. intros k Hk.
  rewrite <- (bigsum_rev (S k) (fun i => sqrt qd * rnd i)). apply bigsum_ext. intros i Hi. rewrite kw_m2.
  replace (S k - 1 - i)%nat with (k - i)%nat by lia.  ring.
Qed.

(** b = -4: the running sum of the running sum. *)
Theorem C67_random_walk_fm (rnd : nat -> R) nr qd : (1 <= nr)%nat ->
  generateNoise rnd (mkNoise nr qd (-4)) =
  Ok (tab nr (fun k => bigsum (S k) (fun l => bigsum (S l) (fun i => sqrt qd * rnd i)))).
Proof.
  intro H. rewrite generateNoise_eq by exact H. f_equal. apply tab_ext. intros k Hk. clear.
  induction k as [|k IH].
  - cbn. ring.
  - rewrite bigsum_S_l.
    rewrite (bigsum_ext (S k) _ (fun j => kw (-4) j * (sqrt qd * rnd (k - j)%nat) + sqrt qd * rnd (k - j)%nat)).
    + rewrite bigsum_plus, IH.
      rewrite (bigsum_ext (S k) (fun j => sqrt qd * rnd (k - j)%nat)
                (fun j => (fun i => sqrt qd * rnd i) (S k - 1 - j)%nat)).
      * rewrite (bigsum_rev (S k) (fun i => sqrt qd * rnd i)). set (W := fun i => sqrt qd * rnd i).
        change (bigsum (S (S k)) (fun l => bigsum (S l) W)) with
          (bigsum (S k) (fun l => bigsum (S l) W) + bigsum (S (S k)) W).
        change (bigsum (S (S k)) W) with (bigsum (S k) W + W (S k)). unfold W.
        rewrite kw_m4, Nat.sub_0_r. cbn [INR]. ring.
      * intros i Hi. cbv beta. do 2 f_equal. lia.
    + intros i Hi. rewrite !kw_m4, S_INR. replace (S k - S i)%nat with (k - i)%nat by lia. ring.
Qed.

(** C77: the coefficients form a semigroup in b. *)
Lemma kw_rec b j : (INR j + 1) * kw b (S j) = (INR j - b / 2) * kw b j.
Proof. cbn [kw]. field. pose proof (pos_INR j). lra. Qed.

Lemma kw_semigroup b c k : bigsum (S k) (fun j => kw b j * kw c (k - j)) = kw (b + c) k.
Proof.
  induction k as [|k IH].
  - cbn. ring.
  - apply (Rmult_eq_reg_l (INR k + 1)); [|pose proof (pos_INR k); lra].
    rewrite kw_rec, <- IH. rewrite <- !bigsum_scal.
    assert (E : bigsum (S (S k)) (fun j => (INR k + 1) * (kw b j * kw c (S k - j))) =
      bigsum (S (S k)) (fun j => INR j * kw b j * kw c (S k - j)) +
      bigsum (S (S k)) (fun j => kw b j * (INR (S k - j) * kw c (S k - j)))).
    { rewrite <- bigsum_plus. apply bigsum_ext. intros j Hj. rewrite minus_INR by lia.
      rewrite S_INR. ring. }
    rewrite E.
    rewrite (bigsum_S_l (S k) (fun j => INR j * kw b j * kw c (S k - j))). cbn [INR].
    change (bigsum (S (S k)) (fun j => kw b j * (INR (S k - j) * kw c (S k - j)))) with
      (bigsum (S k) (fun j => kw b j * (INR (S k - j) * kw c (S k - j))) +
       kw b (S k) * (INR (S k - S k) * kw c (S k - S k))).
    rewrite Nat.sub_diag. cbn [INR]. rewrite !Rmult_0_l, Rmult_0_r, Rplus_0_l, Rplus_0_r.
    rewrite <- bigsum_plus. apply bigsum_ext. intros j Hj.
    replace (S k - S j)%nat with (k - j)%nat by lia.
    replace (S k - j)%nat with (S (k - j)) by lia.
    rewrite (S_INR (k - j)). pose proof (kw_rec b j) as R1. pose proof (kw_rec c (k - j)) as R2.
    change (match j with 0%nat => 1 | S _ => INR j + 1 end) with (INR (S j)).
    rewrite S_INR, R1, R2, minus_INR by lia. field.
Qed.

(** Filtering the noise of type c with the coefficients of type b gives the
    noise of type b + c from the same deviates. *)
Theorem C77_compose (rnd : nat -> R) nr qd b c : (1 <= nr)%nat -> exists x y,
  generateNoise rnd (mkNoise nr qd c) = Ok x /\
  generateNoise rnd (mkNoise nr qd (b + c)) = Ok y /\
  forall k, (k < nr)%nat -> y.[k] = bigsum (S k) (fun j => kw b j * x.[k - j]).
Proof.
  intro H. rewrite !generateNoise_eq by exact H.
  eexists; eexists; split; [reflexivity|]. split; [reflexivity|]. intros k Hk.
  rewrite nth_tab by exact Hk.
  rewrite (bigsum_ext (S k) (fun j => kw b j * _) (fun j => bigsum (S k) (fun i =>
     if Nat.leb (i + j) k then kw b j * kw c i * (sqrt qd * rnd (k - j - i)%nat) else 0))).
  2:{ intros j Hj. rewrite nth_tab by lia. rewrite (bigsum_trunc (S (k - j)) (S k)); [|lia|].
      - rewrite <- bigsum_scal. apply bigsum_ext. intros i Hi.
        rewrite (proj2 (Nat.leb_le (i + j) k)) by lia. ring.
      - intros i Hi. now rewrite (proj2 (Nat.leb_gt (i + j) k)) by lia. }
  (* both sides: sum over l = i + j *)
  assert (D : forall (F : nat -> nat -> R) n, bigsum n (fun j => bigsum n (fun i => if Nat.ltb (i + j) n then F j i else 0)) =
     bigsum n (fun l => bigsum (S l) (fun j => F j (l - j)%nat))).
  { intros F n. induction n as [|n IH]; [reflexivity|].
    change (bigsum (S n) (fun l => bigsum (S l) (fun j => F j (l - j)%nat))) with
      (bigsum n (fun l => bigsum (S l) (fun j => F j (l - j)%nat)) + bigsum (S n) (fun j => F j (n - j)%nat)).
    rewrite <- IH.
    assert (R1 : forall j, (j <= n)%nat ->
       bigsum (S n) (fun i => if Nat.ltb (i + j) (S n) then F j i else 0) =
       bigsum n (fun i => if Nat.ltb (i + j) n then F j i else 0) + F j (n - j)%nat).
    { intros j Hj.
      rewrite (bigsum_ext (S n) _ (fun i => (if Nat.ltb (i + j) n then F j i else 0) +
                                           (if Nat.eqb i (n - j) then F j i else 0))).
      - rewrite bigsum_plus. f_equal.
        + cbn [bigsum]. rewrite (proj2 (Nat.ltb_ge (n + j) n)) by lia. lra.
        + rewrite (bigsum_only (S n) (n - j)); [now rewrite Nat.eqb_refl|lia|].
          intros i Hi Hne. now rewrite (proj2 (Nat.eqb_neq i (n - j))).
      - intros i Hi. destruct (Nat.ltb_spec (i + j) (S n)), (Nat.ltb_spec (i + j) n), (Nat.eqb_spec i (n - j));
          try lia; lra. }
    rewrite (bigsum_ext (S n) _ (fun j => bigsum n (fun i => if Nat.ltb (i + j) n then F j i else 0) + F j (n - j)%nat))
      by (intros j Hj; apply R1; lia).
    rewrite bigsum_plus. f_equal. cbn [bigsum]. rewrite (bigsum_0 n (fun i => if Nat.ltb (i + n) n then F n i else 0)).
    - lra.
    - intros i Hi. now rewrite (proj2 (Nat.ltb_ge (i + n) n)) by lia. }
  specialize (D (fun j i => kw b j * kw c i * (sqrt qd * rnd (k - j - i)%nat)) (S k)).
  symmetry. erewrite bigsum_ext; [rewrite D|].
  - apply bigsum_ext. intros l Hl. rewrite <- kw_semigroup, <- bigsum_scal_r. apply bigsum_ext.
    intros j Hj. replace (k - j - (l - j))%nat with (k - l)%nat by lia. reflexivity.
  - intros j Hj. apply bigsum_ext. intros i Hi. cbv beta.
    destruct (Nat.leb_spec (i + j) k), (Nat.ltb_spec (i + j) (S k)); try lia; reflexivity.
Qed.

(** In particular the noise of type b - 2 is the running sum of type b. *)
Theorem C77_integrate (rnd : nat -> R) nr qd b : (1 <= nr)%nat -> exists x y,
  generateNoise rnd (mkNoise nr qd b) = Ok x /\
  generateNoise rnd (mkNoise nr qd (b - 2)) = Ok y /\
  forall k, (k < nr)%nat -> y.[k] = bigsum (S k) (fun i => x.[i]).
Proof.
  intro H. destruct (C77_compose rnd nr qd (-2) b H) as (x & y & E1 & E2 & V).
  exists x, y. replace (b - 2) with (-2 + b) by ring. split; [exact E1|]. split; [exact E2|].
  intros k Hk. rewrite (V k Hk), <- (bigsum_rev (S k) (fun i => x.[i])). apply bigsum_ext. intros i Hi.
  rewrite kw_m2, Rmult_1_l. f_equal. lia.
Qed.

Example C67_example : generateNoise (fun i => INR i + 1) (mkNoise 3 4 (-2)) = Ok [2; 6; 12].
Proof.
  rewrite C67_white_fm by lia. cbn.
  replace 4 with (2 * 2) by lra. rewrite sqrt_square by lra. repeat f_equal; ring.
Qed.
Example C77_example : exists y, generateNoise (fun i => INR i + 1) (mkNoise 3 4 (-4)) = Ok y /\ y.[2] = 20.
Proof.
  destruct (C77_integrate (fun i => INR i + 1) 3 4 (-2) ltac:(lia)) as (x & y & E1 & E2 & V).
  exists y. replace (-4) with (-2 - 2) by lra. split; [exact E2|]. rewrite V by lia.
  rewrite C67_example in E1. injection E1 as <-. cbn. lra.
Qed.

Print Assumptions C67_convolution.
Print Assumptions C67_nr0.
Print Assumptions C67_white_pm.
Print Assumptions C67_white_fm.
Print Assumptions C67_random_walk_fm.
Print Assumptions C77_compose.
Print Assumptions C77_integrate.
