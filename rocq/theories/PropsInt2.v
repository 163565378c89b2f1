(** * C124 continued: tierms with a phase record held in an integer array. *)
From Coq Require Import String Reals List ZArith Lra Lia Arith Bool Psatz.
From Verif Require Import Base Num NpList ModelCore ModelDev ModelInt NumR NumX ListFacts Spec RSum TauProofs DevProofs GenericProofs NanProofs TotProofs PropsSlope PropsJoin Laws2 Laws3 ConvProofs GradProofs PropsInt.
Import ListNotations.
Local Open Scope R_scope.
Local Notation len := List.length.

(** ** specification *)
(** the change of the phase over m samples, starting at sample i *)
Definition step (zs : list Z) (m i : nat) : Z := (nth (i + m) zs 0 - nth i zs 0)%Z.
(** Each square is kept in 64 bits, their mean is not. *)
Definition tie64 (zs : list Z) (m : nat) (d' : ext) : Prop :=
  exists k : nat -> Z, (forall i, (i < len zs - m)%nat -> 0 <= k i /\ - 2 ^ 63 <= step zs m i ^ 2 - k i * 2 ^ 64 < 2 ^ 63)%Z /\
    let T := bigsum (len zs - m) (fun i => IZR (step zs m i ^ 2 - k i * 2 ^ 64)) in
    (T < 0 -> d' = NaN) /\ (0 <= T -> d' = Fin (sqrt (T / INR (len zs - m)))).

(** ** one row *)
Lemma calc_tierms_int_form {A} {NA : Num A} (x : list Z) m : calc_tierms_int x m =
  Ok (nsqrt (mean (map ofZ (tab (len x - m) (fun i => @nsq Z I64 (@tie_term Z I64 x m i))))), ndiv (ofZ 0) (nsqrt (ofZ (Z.of_nat (len x) - Z.of_nat m))), (Z.of_nat (len x) - Z.of_nat m)%Z).
Proof.
  transitivity (calc_tierms_int (tab (len x) (fun i => nth i x (@ofZ Z I64 0))) m); [now rewrite <- (list_tab x (@ofZ Z I64 0))|].
  unfold calc_tierms_int. rewrite !tab_length, !firstn_tab, !skipn_tab, !tab_length.
  rewrite Nat.min_l by lia. rewrite Nat.eqb_refl. cbn [negb]. rewrite !map2_tab. unfold vsub. rewrite bmap2_tab. cbn [bind]. rewrite map_tab. reflexivity.
Qed.
Lemma tie_sq x m i : @nsq Z I64 (@tie_term Z I64 x m i) = wrap (step x m i ^ 2).
Proof.
  unfold nsq, tie_term, nmax2, nmin2, step. cbn [nisnan nltb nmul nsub I64]. change (@ofZ Z I64 0) with 0%Z. rewrite <- wrap_mul, (Nat.add_comm m i).
  set (a := nth i x 0%Z). set (b := nth (i + m) x 0%Z). destruct (Z.ltb_spec a b), (Z.ltb_spec b a); f_equal; try lia; try ring. replace b with a by lia. ring.
Qed.
Lemma tie_row zs m : (1 <= m < len zs)%nat -> exists d' e', calc_tierms_int zs m = Ok (d', e', tie_n (map IZR zs) m) /\ tie64 zs m d'.
Proof.
  intros Hm. rewrite calc_tierms_int_form. eexists _, _. split; [unfold tie_n; rewrite map_length; reflexivity|].
  exists (fun i => (step zs m i ^ 2 + 2 ^ 63) / 2 ^ 64)%Z.
  assert (W : forall i, wrap (step zs m i ^ 2) = (step zs m i ^ 2 - (step zs m i ^ 2 + 2 ^ 63) / 2 ^ 64 * 2 ^ 64)%Z).
  { intros i. unfold wrap. pose proof (Z.div_mod (step zs m i ^ 2 + 2 ^ 63) (2 ^ 64) ltac:(lia)). lia. }
  split.
  - intros i _. rewrite <- W. destruct (wrap_mod (step zs m i ^ 2)) as (_ & _ & B). split; [|exact B]. apply Z.div_pos; [|lia]. pose proof (Z.square_nonneg (step zs m i)). rewrite Z.pow_2_r. lia.
  - set (n := (len zs - m)%nat). assert (Hn : 0 < INR n) by (apply lt_0_INR; unfold n; lia). set (T := bigsum n _). cbv zeta.
    assert (E : mean (map (@ofZ ext XNum) (tab n (fun i => @nsq Z I64 (@tie_term Z I64 zs m i)))) = x_div (Fin T) (Fin (INR n))).
    { unfold mean. rewrite !map_length, tab_length, ofNX. cbn [ndiv XNum]. f_equal. change (@ofZ ext XNum) with (fun z => Fin (IZR z)). rewrite <- (map_map IZR Fin).
      rewrite <- (@hom_asum R ext RNum XNum Fin) by reflexivity. f_equal. rewrite map_tab, asum_tab. apply bigsum_ext. intros i _. rewrite tie_sq, W. reflexivity. }
    rewrite E. cbn [nsqrt XNum]. rewrite xsqrt by exact Hn. destruct (Rlt_dec T 0); split; intros L; try reflexivity; lra.
Qed.

(** ** the table *)
(** Same taus and counts, or the same exception; a row at m samples is the root of the mean of the wrapped squares. *)
Theorem C124_tierms zs rate taus : 0 < rate ->
  match tierms (map IZR zs) rate "phase"%string taus with
  | Err e => tierms_int zs (Fin rate) "phase"%string (req taus) = Err e
  | Ok (ts, ds, _, ns) => exists ds' es', tierms_int zs (Fin rate) "phase"%string (req taus) = Ok (map Fin ts, ds', es', ns) /\ len ds' = len ds /\
      forall i t d n, nth_error ts i = Some t -> nth_error ds i = Some d -> nth_error ns i = Some n ->
        exists m d', t = INR m / rate /\ (1 <= m < len zs)%nat /\ d = sqrt (tierms_var (map IZR zs) m) /\ n = Z.of_nat (len zs - m) /\ nth_error ds' i = Some d' /\ tie64 zs m d'
  end.
Proof.
  intros Hr. unfold tierms, tierms_int, int_dev. rewrite input_phase. cbn [bind String.eqb Ascii.eqb Bool.eqb].
  rewrite (taugen_X (map ofZ zs) (map IZR zs) rate taus) by now rewrite !map_length. change (@ofZ R RNum (-1)) with (-1).
  destruct (tau_generator (map IZR zs) rate taus false (-1)) as [[[x ms] tu]|e] eqn:E; [|reflexivity].
  apply tau_generator_shape in E as (-> & _ & Hpos & ->). cbn [bind]. rewrite map_map.
  assert (Hm : forall m, In m ms -> (1 <= m)%Z) by (intros m Hm; exact (proj1 (Forall_forall _ _) Hpos m Hm)).
  pose (h := fun m => unres (0, 0, 0%Z) (calc_tierms (map IZR zs) (Z.to_nat m))). pose (h' := fun m => unres (NaN, NaN, 0%Z) (calc_tierms_int zs (Z.to_nat m))).
  rewrite (run_rows_table (fun mj => calc_tierms (map IZR zs) mj) _ h) by (intros m _; unfold h; rewrite calc_tierms_form; reflexivity).
  rewrite (run_rows_table (fun mj => calc_tierms_int zs mj) _ h') by (intros m _; unfold h'; rewrite calc_tierms_int_form; reflexivity).
  assert (Hs : forall m, In m ms -> snd (h' m) = snd (h m) /\ snd (h m) = (Z.of_nat (len zs) - m)%Z).
  { intros m Hi. specialize (Hm m Hi). unfold h, h'. rewrite calc_tierms_form, calc_tierms_int_form. cbn [unres snd]. rewrite map_length, Z2Nat.id by lia. auto. }
  unfold table. rewrite (filter_ext_in (fun m => (1 <? snd (h' m))%Z) (fun m => (1 <? snd (h m))%Z) ms) by (intros m Hi; now rewrite (proj1 (Hs m Hi))).
  assert (G : forall m, In m (filter (fun m => (1 <? snd (h m))%Z) ms) -> In m ms /\ (1 <= Z.to_nat m < len zs)%nat).
  { intros m Hi. apply filter_In in Hi as [Hi Hc]. apply Z.ltb_lt in Hc. rewrite (proj2 (Hs m Hi)) in Hc. specialize (Hm m Hi). split; [exact Hi|lia]. }
  destruct (filter _ ms) as [|m0 gd]; [reflexivity|]. revert G. generalize (m0 :: gd). intros L G.
  exists (map (fun m => fst (fst (h' m))) L). eexists. split; [|split].
  - rewrite map_map. f_equal. f_equal. apply map_ext_in. intros m Hi. apply Hs, G, Hi.
  - now rewrite !map_length.
  - intros i t d n Ht Hd Hn. rewrite nth_error_map in Ht, Hd, Hn. rewrite nth_error_map. destruct (nth_error L i) as [m|] eqn:E; [|discriminate]. cbn [option_map] in *.
    injection Ht as <-. injection Hd as <-. injection Hn as <-. apply nth_error_In in E. destruct (G m E) as [Hi Hl].
    destruct (tie_row zs (Z.to_nat m) Hl) as (d' & e' & E' & H'). exists (Z.to_nat m), d'. rewrite INR_IZR_INZ, Z2Nat.id by (specialize (Hm m Hi); lia).
    split; [reflexivity|]. split; [exact Hl|]. split; [unfold h; rewrite calc_tierms_spec by (rewrite map_length; exact Hl); reflexivity|].
    split; [rewrite (proj2 (Hs m Hi)); lia|]. split; [unfold h'; rewrite E'; reflexivity|exact H'].
Qed.
Print Assumptions C124_tierms.

Lemma step_R zs m i : (nth (i + m) (map IZR zs) 0 - nth i (map IZR zs) 0) ^ 2 = IZR (step zs m i ^ 2).
Proof. unfold step. change 0 with (IZR 0). rewrite !map_nth, Z.pow_2_r, mult_IZR, minus_IZR. ring. Qed.
Lemma tie_pair64 zs rate taus t d n m : 0 < rate -> row (tierms (map IZR zs) rate "phase"%string taus) t d n -> t = INR m / rate ->
  exists d', xrow (tierms_int zs (Fin rate) "phase"%string (req taus)) t d' n /\ tie64 zs m d' /\ (1 <= m < len zs)%nat /\
    d = sqrt (bigsum (len zs - m) (fun i => IZR (step zs m i ^ 2)) / INR (len zs - m)).
Proof.
  intros Hr (ts & ds & e & ns & i & E & Ht & Hd & Hn) Em. pose proof (C124_tierms zs rate taus Hr) as H. rewrite E in H. destruct H as (ds' & es' & E' & _ & G).
  destruct (G i t d n Ht Hd Hn) as (m' & d' & Et & Hm & -> & -> & Hd' & T).
  assert (m' = m) by (rewrite Em in Et; apply Rmult_eq_reg_r in Et; [now apply INR_eq|apply Rinv_neq_0_compat; lra]). subst m'.
  exists d'. split; [exists (map Fin ts), ds', es', ns, i; rewrite nth_error_map, Ht; auto|]. split; [exact T|]. split; [exact Hm|].
  f_equal. unfold tierms_var, Rdiv. rewrite map_length, Rmult_comm. f_equal. apply bigsum_ext. intros j _. apply step_R.
Qed.
(** Right if no change over m samples exceeds 3037000499 counts ... *)
Theorem C124_tierms_right zs rate taus t d n m : 0 < rate -> row (tierms (map IZR zs) rate "phase"%string taus) t d n -> t = INR m / rate ->
  (forall i, (i + m < len zs)%nat -> (Z.abs (step zs m i) <= 3037000499)%Z) -> xrow (tierms_int zs (Fin rate) "phase"%string (req taus)) t (Fin d) n.
Proof.
  intros Hr H Em B. destruct (tie_pair64 zs rate taus t d n m Hr H Em) as (d' & X & (k & Hk & T) & Hm & ->). cbv zeta in T.
  assert (E : bigsum (len zs - m) (fun i => IZR (step zs m i ^ 2 - k i * 2 ^ 64)) = bigsum (len zs - m) (fun i => IZR (step zs m i ^ 2))).
  { apply bigsum_ext. intros i Hi. f_equal. destruct (Hk i Hi) as [K0 K1]. specialize (B i ltac:(lia)). assert (step zs m i ^ 2 <= 3037000499 ^ 2)%Z by nia.
    assert (k i = 0)%Z; [|nia]. change (2 ^ 64)%Z with 18446744073709551616%Z in K1. change (2 ^ 63)%Z with 9223372036854775808%Z in K1. change (3037000499 ^ 2)%Z with 9223372030926249001%Z in *. lia. }
  rewrite E in T. destruct T as [_ T]. rewrite T in X; [exact X|]. apply bigsum_nonneg. intros i _. apply IZR_le. rewrite Z.pow_2_r. apply Z.square_nonneg.
Qed.
Print Assumptions C124_tierms_right.
(** ... and wrong if one does: NaN, or too small. *)
Theorem C124_tierms_wrong zs rate taus t d n m i : 0 < rate -> row (tierms (map IZR zs) rate "phase"%string taus) t d n -> t = INR m / rate ->
  (i + m < len zs)%nat -> (3037000500 <= Z.abs (step zs m i))%Z ->
  exists d', xrow (tierms_int zs (Fin rate) "phase"%string (req taus)) t d' n /\ (d' = NaN \/ exists v, d' = Fin v /\ 0 <= v < d).
Proof.
  intros Hr H Em Hi B. destruct (tie_pair64 zs rate taus t d n m Hr H Em) as (d' & X & (k & Hk & T) & Hm & ->). cbv zeta in T. exists d'. split; [exact X|].
  assert (Hn : 0 < INR (len zs - m)) by (apply lt_0_INR; lia).
  assert (L : bigsum (len zs - m) (fun i => IZR (step zs m i ^ 2 - k i * 2 ^ 64)) < bigsum (len zs - m) (fun i => IZR (step zs m i ^ 2))).
  { assert (A : forall N j, (N <= len zs - m)%nat -> (j < N)%nat -> (3037000500 <= Z.abs (step zs m j))%Z ->
      bigsum N (fun i => IZR (step zs m i ^ 2 - k i * 2 ^ 64)) < bigsum N (fun i => IZR (step zs m i ^ 2))).
    { assert (W : forall N, (N <= len zs - m)%nat -> bigsum N (fun i => IZR (step zs m i ^ 2 - k i * 2 ^ 64)) <= bigsum N (fun i => IZR (step zs m i ^ 2))).
      { intros N HN. apply bigsum_le. intros j Hj. apply IZR_le. destruct (Hk j ltac:(lia)). lia. }
      induction N as [|N IH]; intros j HN Hj Bj; [lia|]. cbn [bigsum]. destruct (Nat.eq_dec j N) as [->|].
      - apply Rplus_le_lt_compat; [apply W; lia|]. apply IZR_lt. destruct (Hk N ltac:(lia)) as [K0 K1]. assert (3037000500 ^ 2 <= step zs m N ^ 2)%Z by nia.
        change (2 ^ 64)%Z with 18446744073709551616%Z in *. change (2 ^ 63)%Z with 9223372036854775808%Z in K1. change (3037000500 ^ 2)%Z with 9223372037000250000%Z in *. lia.
      - apply Rplus_lt_le_compat; [apply (IH j); [lia|lia|exact Bj]|]. apply IZR_le. destruct (Hk N ltac:(lia)). lia. }
    apply (A _ i); [lia|lia|exact B]. }
  destruct (Rlt_dec (bigsum (len zs - m) (fun i => IZR (step zs m i ^ 2 - k i * 2 ^ 64))) 0) as [N|N]; [left; now apply T|right].
  eexists. split; [apply T; lra|]. split; [apply sqrt_pos|]. apply sqrt_lt_1.
  - apply Rmult_le_pos; [lra|left; now apply Rinv_0_lt_compat].
  - apply Rmult_le_pos; [lra|left; now apply Rinv_0_lt_compat].
  - apply Rmult_lt_compat_r; [now apply Rinv_0_lt_compat|exact L].
Qed.
Print Assumptions C124_tierms_wrong.

(** one step of 3037000500 counts makes tierms NaN; one of 2^32 counts makes it 0 *)
Definition jump (c : Z) : list Z := [0; 0; 0; c]%Z.
Lemma jump_row c : row (tierms (map IZR (jump c)) 1 "phase"%string (TList [INR 1 / 1])) (INR 1 / 1) (sqrt (IZR c ^ 2 / 3)) 3.
Proof.
  rewrite ConvProofs.tierms_single by (cbn; lra || lia). eexists _, _, _, _, 0%nat. split; [reflexivity|]. cbn [nth_error]. split; [reflexivity|]. split; [|reflexivity].
  f_equal. f_equal. unfold tierms_var. cbn. field.
Qed.
Lemma jump_int c d' : tie64 (jump c) 1 d' -> exists k : Z, (- 2 ^ 63 <= c ^ 2 - k * 2 ^ 64 < 2 ^ 63)%Z /\
  (IZR (c ^ 2 - k * 2 ^ 64) < 0 -> d' = NaN) /\ (0 <= IZR (c ^ 2 - k * 2 ^ 64) -> d' = Fin (sqrt (IZR (c ^ 2 - k * 2 ^ 64) / 3))).
Proof.
  intros (k & Hk & T). exists (k 2%nat). assert (S0 : step (jump c) 1 0 = 0%Z) by reflexivity. assert (S1 : step (jump c) 1 1 = 0%Z) by reflexivity. assert (S2 : step (jump c) 1 2 = c) by (unfold step; cbn; lia).
  change (len (jump c) - 1)%nat with 3%nat in *. cbv zeta in T. cbn [bigsum] in T. rewrite S0, S1, S2 in T.
  pose proof (Hk 0%nat ltac:(lia)) as K0. pose proof (Hk 1%nat ltac:(lia)) as K1. pose proof (Hk 2%nat ltac:(lia)) as K2. rewrite S0 in K0. rewrite S1 in K1. rewrite S2 in K2.
  change (2 ^ 64)%Z with (2 * 2 ^ 63)%Z in *. assert (k 0%nat = 0%Z) as E0 by lia. assert (k 1%nat = 0%Z) as E1 by lia. rewrite E0, E1 in T.
  split; [apply K2|]. replace (0 ^ 2 - 0 * (2 * 2 ^ 63))%Z with 0%Z in T by reflexivity. rewrite !Rplus_0_l in T. cbn [INR] in T. replace (1 + 1 + 1) with 3 in T by lra. exact T.
Qed.
Theorem C124_tierms_refuted :
  (exists d, 0 < d /\ row (tierms (map IZR (jump 3037000500)) 1 "phase"%string (TList [INR 1 / 1])) (INR 1 / 1) d 3 /\
     xrow (tierms_int (jump 3037000500) (Fin 1) "phase"%string (req (TList [INR 1 / 1]))) (INR 1 / 1) NaN 3) /\
  (exists d, 0 < d /\ row (tierms (map IZR (jump 4294967296)) 1 "phase"%string (TList [INR 1 / 1])) (INR 1 / 1) d 3 /\
     xrow (tierms_int (jump 4294967296) (Fin 1) "phase"%string (req (TList [INR 1 / 1]))) (INR 1 / 1) (Fin 0) 3).
Proof.
  split.
  - exists (sqrt (3037000500 ^ 2 / 3)). split; [apply sqrt_lt_R0; lra|]. split; [apply jump_row|].
    destruct (tie_pair64 (jump 3037000500) 1 _ _ _ _ 1 Rlt_0_1 (jump_row _) eq_refl) as (d' & X & T & _). apply jump_int in T as (k & B & N & _).
    assert (k = 1%Z) by (change (2 ^ 64)%Z with 18446744073709551616%Z in B; change (2 ^ 63)%Z with 9223372036854775808%Z in B; change (3037000500 ^ 2)%Z with 9223372037000250000%Z in B; lia).
    subst k. rewrite N in X; [exact X|]. apply IZR_lt. reflexivity.
  - exists (sqrt (4294967296 ^ 2 / 3)). split; [apply sqrt_lt_R0; lra|]. split; [apply jump_row|].
    destruct (tie_pair64 (jump 4294967296) 1 _ _ _ _ 1 Rlt_0_1 (jump_row _) eq_refl) as (d' & X & T & _). apply jump_int in T as (k & B & _ & N).
    assert (k = 1%Z) by (change (2 ^ 64)%Z with 18446744073709551616%Z in B; change (2 ^ 63)%Z with 9223372036854775808%Z in B; change (4294967296 ^ 2)%Z with 18446744073709551616%Z in B; lia).
    subst k. change (4294967296 ^ 2 - 1 * 2 ^ 64)%Z with 0%Z in N. rewrite N in X by lra. unfold Rdiv in X. rewrite Rmult_0_l, sqrt_0 in X. exact X.
Qed.
Print Assumptions C124_tierms_refuted.

(** a step below the limit *)
Example C124_tierms_ex : row (tierms (map IZR (jump 3000000000)) 1 "phase"%string (TList [INR 1 / 1])) (INR 1 / 1) (sqrt (3000000000 ^ 2 / 3)) 3 /\
  (forall i, (i + 1 < len (jump 3000000000))%nat -> (Z.abs (step (jump 3000000000) 1 i) <= 3037000499)%Z) /\
  (2 + 1 < len (jump 3037000500))%nat /\ (3037000500 <= Z.abs (step (jump 3037000500) 1 2))%Z.
Proof.
  split; [apply jump_row|]. split; [|split; [cbn; lia|unfold step; cbn; lia]].
  intros i Hi. cbn in Hi. do 3 (destruct i as [|i]; [unfold step; cbn; lia|]). lia.
Qed.
