(** * Frequency disturbances of bounded size (C99). *)
From Coq Require Import String Reals List ZArith Lra Lia Arith Bool Psatz.
From Verif Require Import Base Num NpList ModelCore ModelDev NumR ListFacts Spec RSum TauProofs DevProofs TotProofs Closed Laws Laws2 Laws3
  SemiProofs SemiBound ConvProofs PropsConv PropsSemi FreqBound.
Import ListNotations.
Local Open Scope R_scope.
Local Notation len := List.length.

(** Largest change of a deviation at tau per unit of fractional frequency. *)
Definition blind_gains : list ((list R -> R -> string -> taus_arg R -> res (@result R)) * (R -> R)) :=
  [(adev, fun _ => sqrt 2); (oadev, fun _ => sqrt 2); (mdev, fun _ => sqrt 2); (tdev, fun tau => sqrt (2 / 3) * tau);
   (hdev, fun _ => sqrt (8 / 3)); (ohdev, fun _ => sqrt (8 / 3));
   (pdev, fun _ => sqrt 2); (totdev, fun _ => sqrt 2);
   (mtotdev, fun _ => sqrt 8); (ttotdev, fun tau => sqrt (8 / 3) * tau);
   (htotdev, fun _ => sqrt 24); (theo1, fun _ => sqrt (4 / 3))].
Definition fgains := blind_gains ++ [(tierms, fun tau => tau); (mtie, fun tau => tau)].
(** Frequency data: the mean is removed before integration, and tierms and mtie see that. *)
Definition data_gains := blind_gains ++ [(tierms, fun tau => 2 * tau); (mtie, fun tau => 2 * tau)].

Ltac fgain_intro :=
  let Hr := fresh "Hr" in let Hx := fresh "Hx" in let Hm := fresh "Hm" in
  intros x p rate m Hr HB Hx Hm;
  assert (Ht : 0 < 1 / rate) by (apply Rdiv_lt_0_compat; lra); assert (Hm1 : (1 <= m)%nat) by lia;
  assert (Hi : 1 <= INR m) by (apply le_INR in Hm1; exact Hm1);
  assert (EP : p / rate / (1 / rate) = p) by (field; lra);
  assert (HP : 0 <= p / rate) by (apply Rmult_le_pos; [lra|left; now apply Rinv_0_lt_compat]).
Lemma stat_fgain f g : In (f, g) fgains -> exists s, In s stats /\ s_fun s = f /\
  forall x p rate m, 0 < rate -> 0 <= p -> lip (p / rate) x -> (1 <= m < len x)%nat ->
   s_ok s (len x) m = true -> (1 < s_cnt s (len x) m)%Z -> s_dev s x rate m <= g (INR m / rate) * p.
Proof.
  intros Hin.
  unfold fgains, blind_gains in Hin. cbn [app] in Hin. repeat (destruct Hin as [Hin|Hin]); try (now destruct Hin); injection Hin as <- <-.
  - exists st_adev. split; [cbn; tauto|]. split; [reflexivity|]. fgain_intro. intros _ Hc. cbn in Hc. unfold c_adev in Hc.
    apply dev_le1; try lra. rewrite <- EP. apply avar_lip; auto. unfold adev_n. lia.
  - exists st_oadev. split; [cbn; tauto|]. split; [reflexivity|]. fgain_intro. intros _ Hc. cbn in Hc. unfold c_oadev in Hc.
    apply dev_le1; try lra. rewrite <- EP. apply oavar_lip; auto. unfold oadev_n. lia.
  - exists st_mdev. split; [cbn; tauto|]. split; [reflexivity|]. fgain_intro. intros _ Hc. cbn in Hc. unfold c_mdev in Hc.
    apply dev_le1; try lra. rewrite <- EP. apply mvar_lip; auto. unfold mdev_n. lia.
  - exists st_tdev. split; [cbn; tauto|]. split; [reflexivity|]. fgain_intro. intros _ Hc. cbn in Hc. unfold c_mdev in Hc.
    replace (sqrt (2 / 3) * (INR m / rate) * p) with (sqrt (2 / 3) * (INR m * (1 / rate) * p)) by (field; lra).
    apply dev_le1; [|lra|].
    { apply Rmult_le_pos; [|lra]. apply Rmult_le_pos; lra. }
    cbn [s_var st_tdev]. unfold tvar.
    pose proof (mvar_lip x (p / rate) (1 / rate) m HP Hx Ht Hm1 ltac:(unfold mdev_n; lia)) as M. rewrite EP in M.
    pose proof (tpos (1 / rate) m Ht Hm1) as P. replace ((INR m * (1 / rate) * p) ^ 2) with ((INR m * (1 / rate)) ^ 2 * p ^ 2) by ring. set (U := (INR m * (1 / rate)) ^ 2) in *.
    apply Rle_trans with (U / 3 * (2 * p ^ 2)); [apply Rmult_le_compat_l; lra|]. right. field.
  - exists st_hdev. split; [cbn; tauto|]. split; [reflexivity|]. fgain_intro. intros _ Hc. cbn in Hc. unfold c_hdev in Hc.
    apply dev_le1; try lra. rewrite <- EP. apply hvar_lip; auto. unfold hdev_n. lia.
  - exists st_ohdev. split; [cbn; tauto|]. split; [reflexivity|]. fgain_intro. intros _ Hc. cbn in Hc. unfold c_ohdev in Hc.
    apply dev_le1; try lra. rewrite <- EP. apply ohvar_lip; auto. unfold ohdev_n. lia.
  - exists st_pdev. split; [cbn; tauto|]. split; [reflexivity|]. fgain_intro. intros _ Hc. cbn in Hc. unfold c_oadev in Hc.
    apply dev_le1; try lra. rewrite <- EP. apply pvar_lip; auto. unfold oadev_n. lia.
  - exists st_totdev. split; [cbn; tauto|]. split; [reflexivity|]. fgain_intro. intros _ Hc. cbn in Hc. unfold c_tot in Hc.
    apply dev_le1; try lra. rewrite <- EP. apply totvar_lip; auto; [unfold totdev_n; lia|lia].
  - exists st_mtotdev. split; [cbn; tauto|]. split; [reflexivity|]. fgain_intro. intros _ Hc. cbn in Hc. unfold c_mdev in Hc.
    apply dev_le1; try lra. rewrite <- EP. apply mtotvar_lip; auto. unfold mdev_n. lia.
  - exists st_ttotdev. split; [cbn; tauto|]. split; [reflexivity|]. fgain_intro. intros _ Hc. cbn in Hc. unfold c_mdev in Hc.
    replace (sqrt (8 / 3) * (INR m / rate) * p) with (sqrt (8 / 3) * (INR m * (1 / rate) * p)) by (field; lra).
    apply dev_le1; [|lra|].
    { apply Rmult_le_pos; [|lra]. apply Rmult_le_pos; lra. }
    cbn [s_var st_ttotdev].
    pose proof (mtotvar_lip x (p / rate) (1 / rate) m HP Hx Ht Hm1 ltac:(unfold mdev_n; lia)) as M. rewrite EP in M.
    pose proof (tpos (1 / rate) m Ht Hm1) as P. replace ((INR m * (1 / rate) * p) ^ 2) with ((INR m * (1 / rate)) ^ 2 * p ^ 2) by ring. set (U := (INR m * (1 / rate)) ^ 2) in *.
    apply Rle_trans with (U / 3 * (8 * p ^ 2)); [apply Rmult_le_compat_l; lra|]. right. field.
  - exists st_htotdev. split; [cbn; tauto|]. split; [reflexivity|]. fgain_intro. intros _ Hc. cbn in Hc.
    apply dev_le1; try lra. replace p with (p / rate * rate) at 1 by (field; lra). apply htotvar_lip; auto. lia.
  - exists st_theo1. split; [cbn; tauto|]. split; [reflexivity|]. fgain_intro. intros Hev Hc. cbn in Hev, Hc. unfold evenm in Hev. unfold c_theo in Hc.
    apply Nat.even_spec in Hev. destruct Hev as [h Eh].
    apply dev_le1; try lra. rewrite <- EP. apply (theo1var_lip x (p / rate) (1 / rate) m HP Hx Ht Hm1 h); [exact Eh|lia].
  - exists st_tierms. split; [cbn; tauto|]. split; [reflexivity|]. fgain_intro. intros _ Hc.
    assert (E : INR m / rate * p = INR m * (p / rate)) by (field; lra). rewrite E.
    rewrite <- (sqrt_pow2 (INR m * (p / rate))) by (apply Rmult_le_pos; lra). apply sqrt_le_1_alt. apply (tierms_lip x (p / rate) 1 m); auto; lra || lia.
  - exists st_mtie. split; [cbn; tauto|]. split; [reflexivity|]. fgain_intro. intros _ Hc.
    assert (E : INR m / rate * p = INR m * (p / rate)) by (field; lra). rewrite E.
    rewrite <- (sqrt_pow2 (INR m * (p / rate))) by (apply Rmult_le_pos; lra). apply sqrt_le_1_alt. apply (mtie_lip x (p / rate) 1 m); auto; lra || lia.
Qed.

(** Two phase records whose fractional frequencies, rate times the increment, differ by at most p. *)
Theorem C99_phase f g x y p rate taus t d e n t' d' e' n' : In (f, g) fgains -> 0 < rate -> 0 <= p -> len y = len x ->
  (forall i, (S i < len x)%nat -> Rabs (rate * (x.[S i] - x.[i]) - rate * (y.[S i] - y.[i])) <= p) ->
  f x rate "phase"%string taus = Ok (t, d, e, n) -> f y rate "phase"%string taus = Ok (t', d', e', n') ->
  t' = t /\ n' = n /\ len d = len t /\ len d' = len t /\
  forall i, (i < len t)%nat -> Rabs (d.[i] - d'.[i]) <= g t.[i] * p.
Proof.
  intros Hin Hr Hp Hl Hq Ex Ey.
  assert (Hf : In f [adev; oadev; hdev; ohdev; mdev; tdev; pdev; totdev; mtotdev; ttotdev; htotdev; theo1; tierms; mtie]).
  { apply (in_map fst) in Hin. cbn [map fst fgains blind_gains app] in Hin. cbn [In] in *. intuition. }
  destruct (C90_distance f x y rate taus t d e n t' d' e' n' Hf Hr Hl Ex Ey) as (-> & -> & dd & ee & Em & L1 & L2 & L3 & D).
  repeat split; auto. intros i Hi. eapply Rle_trans; [apply D|].
  assert (Hw : lip (p / rate) (minus x y)).
  { intros j Hj. rewrite minus_len in Hj. rewrite !nth_minus by exact Hl. specialize (Hq j Hj).
    apply (Rmult_le_reg_l rate); [exact Hr|]. replace (rate * (p / rate)) with p by (field; lra).
    rewrite <- (Rabs_pos_eq rate) at 1 by lra. rewrite <- Rabs_mult. eapply Rle_trans; [|exact Hq]. right. f_equal. ring. }
  destruct (stat_fgain f g Hin) as (s & Hs & Es & G).
  destruct (same_rows s (len x) rate taus Hs Hr) as [[ex E]|(good & _ & Hg & E)].
  - rewrite Es in E. rewrite E in Ex by reflexivity. discriminate.
  - rewrite Es in E. pose proof Em as Em'. rewrite E in Em' by apply minus_len. injection Em' as Et Ed _ _. subst t dd.
    rewrite map_length in Hi. rewrite !nth_map0. destruct (Nat.ltb_spec i (len good)); [|lia].
    destruct (Hg (nth i good 0%nat) (nth_In _ _ Hi)) as (Hm & Hok & Hc).
    specialize (G (minus x y) p rate (nth i good 0%nat)). rewrite minus_len in G. apply G; auto.
Qed.
Print Assumptions C99_phase.

(** Two frequency records that agree to within p at every sample. *)
Theorem C99_freq f g y z p rate taus t d e n t' d' e' n' : In (f, g) data_gains -> 0 < rate -> y <> [] -> len z = len y ->
  (forall i, (i < len y)%nat -> Rabs (y.[i] - z.[i]) <= p) ->
  f y rate "freq"%string taus = Ok (t, d, e, n) -> f z rate "freq"%string taus = Ok (t', d', e', n') ->
  t' = t /\ n' = n /\ len d = len t /\ len d' = len t /\
  forall i, (i < len t)%nat -> Rabs (d.[i] - d'.[i]) <= g t.[i] * p.
Proof.
  intros Hin Hr Hy Hl Hq Ex Ey.
  assert (Hz : z <> []) by (intros ->; destruct y; [contradiction|discriminate]).
  assert (Hp : 0 <= p).
  { eapply Rle_trans; [apply Rabs_pos|apply (Hq 0%nat)]. destruct y; [contradiction|cbn; lia]. }
  assert (Hn0 : INR (len y) <> 0) by (apply not_0_INR; destruct y; [contradiction|discriminate]).
  unfold data_gains in Hin. apply in_app_or in Hin as [Hin|Hc].
  - assert (Hc : In f [adev; oadev; hdev; ohdev; mdev; tdev; pdev; totdev; mtotdev; ttotdev; htotdev; theo1]).
    { apply (in_map fst) in Hin. cbn [map fst blind_gains] in Hin. cbn [In] in *. intuition. }
    rewrite C12_trend_blind in Ex by assumption. rewrite C12_trend_blind in Ey by assumption.
    apply (C99_phase f g (integrated y rate) (integrated z rate) p rate taus t d e n t' d' e' n'); auto.
    + unfold fgains. apply in_or_app. now left.
    + now rewrite !integrated_len, Hl.
    + intros i Hi. rewrite integrated_len in Hi. rewrite !nth_integrated by lia. cbn [bigsum].
      eapply Rle_trans; [|apply (Hq i); lia]. right. f_equal. field. lra.
  - set (fr := fun u : list R => tab (S (len u)) (fun i => bigsum i (fun k => u.[k] - average u) / rate)).
    assert (Hc' : (f = tierms \/ f = mtie) /\ g = fun tau => 2 * tau).
    { cbn [In] in Hc. destruct Hc as [Hc|[Hc|[]]]; injection Hc as <- <-; auto. }
    clear Hc. destruct Hc' as [Hc ->].
    assert (Ef : forall u, u <> [] -> f u rate "freq"%string taus = f (fr u) rate "phase"%string taus).
    { intros u Hu. destruct Hc as [-> | ->]; unfold tierms, mtie, input_to_phase; cbn [String.eqb Ascii.eqb Bool.eqb bind];
        rewrite frequency2phase_R by (auto; lra); reflexivity. }
    rewrite Ef in Ex, Ey by assumption.
    destruct (C99_phase f (fun tau => tau) (fr y) (fr z) (2 * p) rate taus t d e n t' d' e' n') as (A & B & C & D & F); auto.
    + unfold fgains. apply in_or_app. right. cbn. destruct Hc as [-> | ->]; auto.
    + lra.
    + unfold fr. now rewrite !tab_length, Hl.
    + intros i Hi. unfold fr in Hi |- *. rewrite tab_length in Hi. rewrite !nth_tab by lia. cbn [bigsum].
      assert (Av : Rabs (average y - average z) <= p).
      { unfold average. rewrite Hl. unfold Rdiv. rewrite <- Rmult_minus_distr_r, Rabs_mult, Rabs_inv, <- bigsum_minus.
        rewrite (Rabs_pos_eq (INR (len y))) by apply pos_INR.
        apply Rle_trans with (INR (len y) * p * / INR (len y)); [|right; field; exact Hn0].
        apply Rmult_le_compat_r; [apply inv_ge0, pos_INR|]. apply bigsum_abs. exact Hq. }
      pose proof (Hq i ltac:(lia)) as Qi.
      match goal with |- Rabs ?E <= _ => replace E with ((y.[i] - z.[i]) - (average y - average z)) by (field; lra) end.
      unfold Rabs in *. repeat destruct Rcase_abs; lra.
    + repeat split; auto. intros i Hi. specialize (F i Hi). lra.
Qed.
Print Assumptions C99_freq.

(** The bounds for oadev, ohdev, tierms and mtie are attained at m = 1: by frequencies -p, p, -p, ... *)
Theorem C99_sharp q rate N f g : 0 <= q -> 0 < rate -> (5 <= N)%nat ->
  In (f, g) [(oadev, fun _ => sqrt 2); (ohdev, fun _ => sqrt (8 / 3)); (tierms, fun tau => tau); (mtie, fun tau => tau)] ->
  let x := zigzag q N in let p := 2 * q * rate in
  (forall i, (S i < N)%nat -> Rabs (rate * (x.[S i] - x.[i])) = p) /\
  exists e n, f x rate "phase"%string (TList [1 / rate]) = Ok ([1 / rate], [g (1 / rate) * p], e, n).
Proof.
  intros Hq Hr HN Hin x p. split.
  - intros i Hi. unfold x. rewrite !zigzag_nth by lia. rewrite Nat.even_succ, <- Nat.negb_even. unfold p.
    rewrite Rabs_mult, (Rabs_pos_eq rate) by lra. destruct (Nat.even i); cbn [negb].
    + rewrite Rabs_left1 by lra. ring.
    + rewrite Rabs_pos_eq by lra. ring.
  - assert (H1 : Nat.Odd 1) by (exists 0%nat; reflexivity).
    assert (S8 : sqrt 8 = 2 * sqrt 2) by (replace 8 with (2 ^ 2 * 2) by ring; rewrite sqrt_mult_alt, sqrt_pow2 by lra; reflexivity).
    assert (S32 : sqrt (32 / 3) = 2 * sqrt (8 / 3)) by (replace (32 / 3) with (2 ^ 2 * (8 / 3)) by field; rewrite sqrt_mult_alt, sqrt_pow2 by lra; reflexivity).
    pose proof (fun f g H => C90_sharp q rate N 1 Hq Hr H1 f g H ltac:(lia)) as K.
    repeat (destruct Hin as [Hin|Hin]); try (now destruct Hin); injection Hin as <- <-.
    + destruct (K oadev (fun tau => sqrt 8 / tau) ltac:(cbn; tauto)) as (_ & _ & e & n & E). exists e, n. cbn [INR] in E. rewrite S8 in E.
      fold x in E. rewrite E. match goal with |- Ok (_, [?a], _, _) = Ok (_, [?b], _, _) => replace b with a by (unfold p; field; lra) end. reflexivity.
    + destruct (K ohdev (fun tau => sqrt (32 / 3) / tau) ltac:(cbn; tauto)) as (_ & _ & e & n & E). exists e, n. cbn [INR] in E. rewrite S32 in E.
      fold x in E. rewrite E. match goal with |- Ok (_, [?a], _, _) = Ok (_, [?b], _, _) => replace b with a by (unfold p; field; lra) end. reflexivity.
    + destruct (K tierms (fun tau => 2) ltac:(cbn; tauto)) as (_ & _ & e & n & E). exists e, n. cbn [INR] in E.
      fold x in E. rewrite E. match goal with |- Ok (_, [?a], _, _) = Ok (_, [?b], _, _) => replace b with a by (unfold p; field; lra) end. reflexivity.
    + destruct (K mtie (fun tau => 2) ltac:(cbn; tauto)) as (_ & _ & e & n & E). exists e, n. cbn [INR] in E.
      fold x in E. rewrite E. match goal with |- Ok (_, [?a], _, _) = Ok (_, [?b], _, _) => replace b with a by (unfold p; field; lra) end. reflexivity.
Qed.
Print Assumptions C99_sharp.

(** frequencies 1, -1, 1, ... against 1/2, -1/2, 1/2, ...: samples differ by 1/2, oadev by the full sqrt 2 * 1/2 *)
Example C99_ex : exists e n e' n',
  oadev [1; -1; 1; -1; 1; -1] 1 "freq"%string (TList [1 / 1]) = Ok ([1 / 1], [sqrt 2], e, n) /\
  oadev [1/2; -1/2; 1/2; -1/2; 1/2; -1/2] 1 "freq"%string (TList [1 / 1]) = Ok ([1 / 1], [sqrt 2 * (1 / 2)], e', n') /\
  (forall i, (i < 6)%nat -> Rabs ([1; -1; 1; -1; 1; -1].[i] - [1/2; -1/2; 1/2; -1/2; 1/2; -1/2].[i]) <= 1 / 2) /\
  Rabs (sqrt 2 - sqrt 2 * (1 / 2)) = sqrt 2 * (1 / 2).
Proof.
  rewrite !(C12_trend_blind _ 1 _ oadev) by (try discriminate; try lra; cbn; tauto).
  assert (E : forall a, oavar (integrated [a; -a; a; -a; a; -a] 1) (1 / 1) 1 = 2 * a ^ 2).
  { intros a. unfold oavar, oadev_n, d2. cbn. field. }
  pose proof (oadev_single (integrated [1; -1; 1; -1; 1; -1] 1) 1 1 ltac:(lra) ltac:(lia) ltac:(cbn; lia)) as K1.
  pose proof (oadev_single (integrated [1/2; -1/2; 1/2; -1/2; 1/2; -1/2] 1) 1 1 ltac:(lra) ltac:(lia) ltac:(cbn; lia)) as K2.
  cbv zeta in K1, K2. change (INR 1) with 1 in K1, K2. change (-1) with (- (1)) in K1 |- *. rewrite (E 1) in K1.
  change (-1) with (- (1)) in K2. replace (- (1)/2) with (- (1/2)) in K2 |- * by field. rewrite (E (1/2)) in K2.
  replace (sqrt (2 * 1 ^ 2)) with (sqrt 2) in K1 by (f_equal; ring).
  replace (sqrt (2 * (1 / 2) ^ 2)) with (sqrt 2 * (1 / 2)) in K2 by (rewrite sqrt_mult_alt, sqrt_pow2 by lra; reflexivity).
  eexists _, _, _, _. split; [exact K1|]. split; [exact K2|]. split.
  - intros i Hi. do 6 (destruct i as [|i]; [cbn; unfold Rabs; destruct Rcase_abs; lra|]). lia.
  - pose proof (sqrt_pos 2). rewrite Rabs_pos_eq; lra.
Qed.
