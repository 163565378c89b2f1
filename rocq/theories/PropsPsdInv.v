(** * adev2psd_piecewise_approx and psd_piecewise_to_adev (C71). *)
From Coq Require Import String Ascii Reals List ZArith Bool Arith Lia Lra.
From Verif Require Import Base Num NpList NumR Spec ListFacts RSum ModelNoiseR ModelPsd.
Import ListNotations.
Local Open Scope R_scope.
Local Notation len := List.length.

(** ** Specification, written without the model. *)

(** acceptable points *)
Definition valid (adev taus : list R) : Prop :=
  len adev = len taus /\ (2 <= len adev)%nat /\
  (forall i, (i < len adev)%nat -> 0 < adev.[i] /\ 0 < taus.[i]) /\
  (forall i, (i + 1 < len taus)%nat -> taus.[i] < taus.[i + 1]).

(** slope of log variance against log tau between points i and i+1 *)
Definition slope_at (adev taus : list R) (i : nat) : R :=
  (ln (adev.[i + 1] ^ 2) - ln (adev.[i] ^ 2)) / (ln (taus.[i + 1]) - ln (taus.[i])).
Definition slopes (adev taus : list R) : list R := tab (len adev - 1) (slope_at adev taus).

(** [merged tol last s out]: out are the slopes of s that differ by more than
    tol from the slope kept before them. *)
Inductive merged (tol : R) : option R -> list R -> list R -> Prop :=
| merged_nil l : merged tol l [] []
| merged_first mu s out : merged tol (Some mu) s out -> merged tol None (mu :: s) (mu :: out)
| merged_new l mu s out : tol < Rabs (mu - l) -> merged tol (Some mu) s out ->
    merged tol (Some l) (mu :: s) (mu :: out)
| merged_same l mu s out : Rabs (mu - l) <= tol -> merged tol (Some l) s out ->
    merged tol (Some l) (mu :: s) out.

(** variance type and the largest slope it admits *)
Definition vartype_of (vartype : string) (hdev : bool) (top : R) : Prop :=
  (lower vartype = "adev"%string /\ hdev = false /\ top = 2) \/
  (lower vartype = "hdev"%string /\ hdev = true /\ top = 4).

Lemma merged_fun tol l s a : merged tol l s a -> forall b, merged tol l s b -> a = b.
Proof.
  induction 1; intros b Hb; inversion Hb; subst; try lra; try reflexivity; auto.
  - f_equal; auto.
  - f_equal; auto.
Qed.
Lemma merged_total tol s : forall l, exists out, merged tol l s out.
Proof.
  induction s as [|mu s IH]; intro l; [exists []; constructor|].
  destruct l as [l|].
  - destruct (Rlt_dec tol (Rabs (mu - l))).
    + destruct (IH (Some mu)) as [o Ho]. exists (mu :: o). now constructor.
    + destruct (IH (Some l)) as [o Ho]. exists o. constructor; [lra|assumption].
  - destruct (IH (Some mu)) as [o Ho]. exists (mu :: o). now constructor.
Qed.

(** ** From the model to the specification *)
Fixpoint pair_slopes (p : R * R) (l : list (R * R)) : list R :=
  match l with [] => [] | q :: t => slope p q :: pair_slopes q t end.

Lemma retain_merged tol l : forall last p, merged tol last (pair_slopes p l) (map fst (retain tol last p l)).
Proof.
  induction l as [|q t IH]; intros last p; cbn [pair_slopes retain]; [constructor|].
  destruct last as [m|]; cbv zeta.
  - destruct (Rltb tol (Rabs (slope p q - m))) eqn:E.
    + apply Rltb_true in E. cbn [map fst]. constructor; auto.
    + apply Rltb_false in E. constructor; auto.
  - cbn [map fst]. constructor. apply IH.
Qed.

Lemma pair_slopes_tab l : forall p, pair_slopes p l =
  tab (len l) (fun i => slope (nth i (p :: l) (0, 0)) (nth (S i) (p :: l) (0, 0))).
Proof.
  induction l as [|q t IH]; intro p; [reflexivity|].
  cbn [pair_slopes len]. rewrite tab_S. cbn [nth]. f_equal. rewrite IH. reflexivity.
Qed.

Lemma slope_eq p q : 0 < fst p -> 0 < fst q ->
  slope p q = (ln (fst q ^ 2) - ln (fst p ^ 2)) / (ln (snd q) - ln (snd p)).
Proof.
  intros Hp Hq. unfold slope.
  assert (E : forall v, 0 < v -> ln (v ^ 2) = 2 * ln v).
  { intros v Hv. replace (v ^ 2) with (v * v) by ring. rewrite ln_mult by assumption. ring. }
  rewrite !E by assumption. unfold Rdiv. ring.
Qed.

Lemma nth_map2_pair (a t : list R) i : len a = len t -> (i < len a)%nat ->
  nth i (map2 pair a t) (0, 0) = (a.[i], t.[i]).
Proof.
  intros E H. rewrite (list_tab a 0) at 1. rewrite (list_tab t 0) at 1. rewrite <- E, map2_tab.
  now rewrite nth_tab.
Qed.
Lemma len_map2_pair (a t : list R) : len a = len t -> len (map2 pair a t) = len a.
Proof.
  intros E. rewrite (list_tab a 0), (list_tab t 0), <- E, map2_tab, !tab_length. reflexivity.
Qed.

Lemma points adev taus p pts : valid adev taus -> map2 pair adev taus = p :: pts ->
  len pts = (len adev - 1)%nat /\ (forall i, (i < len adev)%nat -> nth i (p :: pts) (0, 0) = (adev.[i], taus.[i])) /\
  pair_slopes p pts = slopes adev taus.
Proof.
  intros [E [H2 [Hpos _]]] H.
  assert (L : len pts = (len adev - 1)%nat).
  { rewrite <- (len_map2_pair adev taus E), H. cbn. lia. }
  assert (N : forall i, (i < len adev)%nat -> nth i (p :: pts) (0, 0) = (adev.[i], taus.[i])).
  { intros i Hi. rewrite <- H. now apply nth_map2_pair. }
  split; [exact L|]. split; [exact N|].
  rewrite pair_slopes_tab, L. unfold slopes. apply tab_ext. intros i Hi.
  rewrite !N by lia. unfold slope_at. replace (i + 1)%nat with (S i) by lia.
  apply slope_eq; cbn [fst]; apply Hpos; lia.
Qed.

Lemma increasing_spec l : increasing l = true <-> forall i, (i + 1 < len l)%nat -> l.[i] < l.[i + 1].
Proof.
  induction l as [|a t IH]; [cbn; split; [intros _ i H; lia|reflexivity]|].
  destruct t as [|b t].
  - cbn; split; [intros _ i H; lia|reflexivity].
  - change (increasing (a :: b :: t)) with (Rltb 0 (b - a) && increasing (b :: t))%bool.
    rewrite andb_true_iff, IH, Rltb_true. split.
    + intros [H1 H2] [|i] Hi; [cbn; lra|]. cbn [nth Nat.add]. apply (H2 i). cbn in *. lia.
    + intro H. split; [specialize (H 0%nat); cbn in H; specialize (H ltac:(lia)); lra|].
      intros i Hi. apply (H (S i)). cbn in *. lia.
Qed.

Lemma existsb_pos l : existsb (fun v => Rleb v 0) l = false <-> forall i, (i < len l)%nat -> 0 < l.[i].
Proof.
  split.
  - intros H i Hi. destruct (Rlt_dec 0 (l.[i])); [assumption|]. exfalso.
    assert (existsb (fun v => Rleb v 0) l = true); [|congruence].
    apply existsb_exists. exists (l.[i]). split; [now apply nth_In|]. apply Rleb_true. lra.
  - intro H. destruct (existsb _ l) eqn:E; [|reflexivity]. exfalso.
    apply existsb_exists in E. destruct E as [v [Hv Hz]]. apply Rleb_true in Hz.
    destruct (In_nth l v 0 Hv) as [i [Hi <-]]. specialize (H i Hi). lra.
Qed.

Lemma and_assoc_r (P Q S : Prop) : (P /\ Q /\ S) <-> ((P /\ Q) /\ S).
Proof. tauto. Qed.

Section C71.
Variable J : bool -> R -> R.

(** The retained points behind a valid input. *)
Lemma adev2psd_unfold adev taus vartype hdev top tol mus : valid adev taus ->
  vartype_of vartype hdev top -> merged tol None (slopes adev taus) mus ->
  exists p0 pts, map2 pair adev taus = p0 :: pts /\
  let kept := retain tol None p0 pts in
  map fst kept = mus /\
  adev2psd J adev taus vartype tol =
    let filtered_adev := fst p0 :: map (fun k => fst (snd k)) kept in
    let filtered_tau := snd p0 :: map (fun k => snd (snd k)) kept in
    if negb (forallb (fun mu => Rleb (-2) mu && Rleb mu top)%bool mus) then Err ValueError else
    let Bi := map (fun i => nth i filtered_adev 0 ^ 2 * Rpower (nth i filtered_tau 0) (- nth (i - 1) mus 0))
                  (seq 1 (len mus)) in
    let integral_values := map (J hdev) mus in
    let hi := map (fun i => nth i Bi 0 / (2 * nth i integral_values 0 * Rpower PI (nth i mus 0)))
                  (seq 0 (len Bi)) in
    let hi := rev hi in
    let alphas := map (fun i => - nth (len mus - 1 - i) mus 0 - 1) (seq 0 (len mus)) in
    let f_nodes :=
      if Nat.eqb (len filtered_adev) 2 then rev (map (fun t => 1 / t) filtered_tau)
      else rev (map (fun i => 1 / (10 * PI * nth i filtered_tau 0) *
             Rpower (nth i integral_values 0 / nth (i + 1) integral_values 0)
                    (1 / (nth (i + 1) mus 0 - nth i mus 0))) (seq 0 (len mus - 1))) in
    let Sy_nodes :=
      if Nat.eqb (len filtered_adev) 2 then
        map (fun i => nth 0 hi 0 * Rpower (nth i f_nodes 0) (nth 0 alphas 0)) (seq 0 (len f_nodes))
      else map (fun i => nth i hi 0 * Rpower (nth i f_nodes 0) (nth i alphas 0)) (seq 0 (len f_nodes)) in
    Ok (f_nodes, Sy_nodes, hi, alphas).
Proof.
  intros V T M. pose proof V as [E [H2 [Hpos Hinc]]].
  destruct (map2 pair adev taus) as [|p0 pts] eqn:P.
  { assert (len (map2 pair adev taus) = 0%nat) by (now rewrite P). rewrite (len_map2_pair _ _ E) in H. lia. }
  exists p0, pts. split; [reflexivity|]. cbv zeta.
  assert (K : map fst (retain tol None p0 pts) = mus).
  { destruct (points _ _ _ _ V P) as [_ [_ S]]. eapply merged_fun; [|exact M]. rewrite <- S. apply retain_merged. }
  split; [exact K|]. unfold adev2psd. rewrite <- E, Nat.eqb_refl. cbn [negb].
  destruct (Nat.ltb_spec (len adev) 2); [lia|].
  assert (A : existsb (fun v => Rleb v 0) adev = false) by (apply existsb_pos; intros i Hi; now apply Hpos).
  assert (B : existsb (fun v => Rleb v 0) taus = false)
    by (apply existsb_pos; intros i Hi; apply Hpos; lia).
  rewrite A, B. assert (I : increasing taus = true) by (now apply increasing_spec). rewrite I.
  cbn [orb negb]. rewrite P. cbv zeta. rewrite K.
  destruct T as [[-> [-> ->]]|[-> [-> ->]]]; cbn [String.eqb Ascii.eqb Bool.eqb orb negb]; reflexivity.
Qed.

Lemma range_bool mus top : forallb (fun mu => Rleb (-2) mu && Rleb mu top)%bool mus = true <->
  forall mu, In mu mus -> -2 <= mu <= top.
Proof.
  rewrite forallb_forall. split; intros H mu Hm; specialize (H mu Hm).
  - apply andb_prop in H. destruct H as [H1 H2]. apply Rleb_true in H1, H2. lra.
  - apply andb_true_intro. split; apply Rleb_true; lra.
Qed.

(** Valid points with every retained slope in range are converted: h and alpha
    have one entry per retained slope, highest slope index (longest tau) first;
    f_nodes and Sy_nodes have one entry fewer, except two entries when only
    one slope is retained. *)
Theorem C71_shape adev taus vartype hdev top tol mus : valid adev taus ->
  vartype_of vartype hdev top -> merged tol None (slopes adev taus) mus ->
  (forall mu, In mu mus -> -2 <= mu <= top) ->
  exists f s h a, adev2psd J adev taus vartype tol = Ok (f, s, h, a) /\
    (1 <= len mus)%nat /\ len h = len mus /\ len a = len mus /\ len s = len f /\
    len f = (if Nat.eqb (len mus) 1 then 2 else len mus - 1)%nat /\
    (forall r, (r < len mus)%nat -> a.[r] = - mus.[len mus - 1 - r] - 1) /\
    (forall r, (r < len f)%nat ->
       s.[r] = (if Nat.eqb (len mus) 1 then h.[0] else h.[r]) *
               Rpower f.[r] (if Nat.eqb (len mus) 1 then a.[0] else a.[r])).
Proof.
  intros V T M Rg. destruct (adev2psd_unfold _ _ _ _ _ _ _ V T M) as [p0 [pts [P [K E]]]].
  cbv zeta in K, E. rewrite E. apply range_bool in Rg. rewrite Rg. cbn [negb].
  do 4 eexists. split; [reflexivity|].
  assert (H1 : (1 <= len mus)%nat).
  { destruct V as [_ [H2 _]]. inversion M; subst; [|cbn; lia].
    assert (len (slopes adev taus) = 0%nat) by (rewrite <- H1; reflexivity).
    unfold slopes in H. rewrite tab_length in H. lia. }
  split; [exact H1|].
  assert (KL : len (retain tol None p0 pts) = len mus) by (rewrite <- K, map_length; reflexivity).
  assert (L2 : Nat.eqb (len (fst p0 :: map (fun k => fst (snd k)) (retain tol None p0 pts))) 2 = Nat.eqb (len mus) 1).
  { cbn [len]. rewrite map_length, KL. reflexivity. }
  rewrite L2.
  split; [now repeat (rewrite ?rev_length, ?map_length, ?seq_length)|].
  split; [now rewrite map_length, seq_length|].
  split; [destruct (Nat.eqb (len mus) 1); now rewrite !map_length, !seq_length|].
  split.
  { destruct (Nat.eqb_spec (len mus) 1) as [H|H]; rewrite rev_length, map_length; [cbn [len]; now rewrite map_length, KL, H|apply seq_length]. }
  split.
  { intros r Hr. match goal with |- nth r (map ?g (seq 0 ?n)) 0 = _ => change (map g (seq 0 n)) with (tab n g) end.
    rewrite nth_tab by exact Hr. reflexivity. }
  intros r Hr. destruct (Nat.eqb (len mus) 1);
    match goal with |- nth r (map ?g (seq 0 ?n)) 0 = _ => change (map g (seq 0 n)) with (tab n g) end;
    (rewrite nth_tab by exact Hr); reflexivity.
Qed.

(** A retained slope outside the admitted range is rejected. *)
Theorem C71_range_error adev taus vartype hdev top tol mus mu : valid adev taus ->
  vartype_of vartype hdev top -> merged tol None (slopes adev taus) mus ->
  In mu mus -> mu < -2 \/ top < mu -> adev2psd J adev taus vartype tol = Err ValueError.
Proof.
  intros V T M Hin Hmu. destruct (adev2psd_unfold _ _ _ _ _ _ _ V T M) as [p0 [pts [P [K E]]]].
  cbv zeta in E. rewrite E. destruct (forallb _ mus) eqn:F; [|reflexivity]. exfalso.
  apply range_bool with (mu := mu) in F; [lra|assumption].
Qed.

(** Anything but valid points, or an unknown variance type, is rejected. *)
Theorem C71_invalid adev taus vartype tol :
  ~ valid adev taus \/ (forall hdev top, ~ vartype_of vartype hdev top) ->
  adev2psd J adev taus vartype tol = Err ValueError.
Proof.
  intro H. unfold adev2psd.
  destruct (Nat.eqb_spec (len adev) (len taus)) as [E|E]; [|reflexivity]. cbn [negb].
  destruct (Nat.ltb_spec (len adev) 2) as [L|L]; [reflexivity|].
  destruct (existsb (fun v => Rleb v 0) adev) eqn:A; [reflexivity|].
  destruct (existsb (fun v => Rleb v 0) taus) eqn:B; [reflexivity|]. cbn [orb].
  destruct (increasing taus) eqn:I; [|reflexivity]. cbn [negb]. cbv zeta.
  rewrite existsb_pos in A, B. rewrite increasing_spec in I.
  destruct H as [H|H].
  - exfalso. apply H. repeat split; auto. apply B. lia.
  - destruct (String.eqb_spec (lower vartype) "adev") as [F|F].
    + exfalso. apply (H false 2). left. auto.
    + destruct (String.eqb_spec (lower vartype) "hdev") as [G|G]; [|reflexivity].
      exfalso. apply (H true 4). right. auto.
Qed.

(** *** Values *)

Lemma retain_all tol pts : forall last p, merged tol last (pair_slopes p pts) (pair_slopes p pts) ->
  retain tol last p pts = map2 pair (pair_slopes p pts) pts.
Proof.
  induction pts as [|q t IH]; intros last p M; [reflexivity|].
  cbn [pair_slopes retain map2] in *. cbv zeta. inversion M; subst.
  - f_equal. now apply IH.
  - assert (E : Rltb tol (Rabs (slope p q - l)) = true) by (now apply Rltb_true). rewrite E. f_equal. now apply IH.
  - exfalso. pose proof (retain_merged tol t (Some l) q) as R. pose proof (merged_fun _ _ _ _ H4 _ R) as C.
    assert (X : forall last p, (len (retain tol last p t) <= len t)%nat).
    { clear. induction t as [|q t IH]; intros last p; cbn [retain len]; [lia|]. cbv zeta.
      destruct last; [destruct (Rltb _ _)|]; cbn [len]; specialize (IH); try (pose proof (IH (Some (slope p q)) q); lia).
      pose proof (IH (Some r) q); lia. }
    specialize (X (Some l) q). assert (Y : len (slope p q :: pair_slopes q t) = S (len t)).
    { cbn. f_equal. rewrite pair_slopes_tab. apply tab_length. }
    rewrite C, map_length in Y. lia.
Qed.

(** When no slopes are merged, segment r of the PSD belongs to the interval
    from tau_i to tau_(i+1) with i = nseg-1-r, and its Allan integral
    2 h J(mu) (pi tau)^mu reproduces the given deviation at both ends.  The
    upper edge of segment r is 1/(10 pi tau_(i-1)) (J(mu_(i-1))/J(mu_i))^(1/(mu_i-mu_(i-1))). *)
Theorem C71_interpolates adev taus vartype hdev top tol : valid adev taus ->
  vartype_of vartype hdev top -> merged tol None (slopes adev taus) (slopes adev taus) ->
  (forall mu, In mu (slopes adev taus) -> -2 <= mu <= top /\ J hdev mu <> 0) ->
  exists f s h a, adev2psd J adev taus vartype tol = Ok (f, s, h, a) /\
  forall r i, (r + i + 2 = len adev)%nat ->
    let mu := slope_at adev taus i in
    a.[r] = - mu - 1 /\
    2 * h.[r] * J hdev mu * Rpower (PI * taus.[i]) mu = adev.[i] ^ 2 /\
    2 * h.[r] * J hdev mu * Rpower (PI * taus.[i + 1]) mu = adev.[i + 1] ^ 2 /\
    ((r + 1 < len h)%nat -> (1 <= i)%nat /\ f.[r] = 1 / (10 * PI * taus.[i - 1]) *
       Rpower (J hdev (slope_at adev taus (i - 1)) / J hdev mu) (1 / (mu - slope_at adev taus (i - 1)))).
Proof.
  intros V T M Rg. destruct (adev2psd_unfold _ _ _ _ _ _ _ V T M) as [p0 [pts [P [K E]]]].
  cbv zeta in K, E. pose proof (points _ _ _ _ V P) as [LP [NP SP]].
  pose proof V as [EL [H2 [Hpos Hinc]]].
  assert (Rb : forallb (fun mu => Rleb (-2) mu && Rleb mu top)%bool (slopes adev taus) = true).
  { apply range_bool. intros mu Hm. now apply Rg. }
  rewrite E, Rb. cbn [negb]. do 4 eexists. split; [reflexivity|].
  intros r i Hri. set (mu := slope_at adev taus i).
  set (n := (len adev - 1)%nat).
  assert (LS : len (slopes adev taus) = n) by (unfold slopes; now rewrite tab_length).
  assert (Kp : retain tol None p0 pts = map2 pair (slopes adev taus) pts).
  { rewrite <- SP. apply retain_all. rewrite SP. exact M. }
  assert (Hmu : nth i (slopes adev taus) 0 = mu).
  { unfold slopes. rewrite nth_tab by (unfold n in *; lia). reflexivity. }
  assert (Sv : forall j, (j < n)%nat -> nth j (slopes adev taus) 0 = slope_at adev taus j).
  { intros j Hj. unfold slopes. now rewrite nth_tab. }
  assert (NF : forall j, (j < len adev)%nat ->
     nth j (fst p0 :: map (fun k => fst (snd k)) (retain tol None p0 pts)) 0 = adev.[j] /\
     nth j (snd p0 :: map (fun k => snd (snd k)) (retain tol None p0 pts)) 0 = taus.[j]).
  { intros j Hj. destruct j as [|j].
    - cbn [nth]. specialize (NP 0%nat Hj). cbn [nth] in NP. rewrite NP. auto.
    - cbn [nth]. rewrite Kp. rewrite (list_tab (slopes adev taus) 0), (list_tab pts (0, 0)), LS, LP.
      fold n. rewrite map2_tab, !map_tab, !nth_tab by (unfold n; lia). cbn [snd].
      specialize (NP (S j) Hj). cbn [nth] in NP. rewrite NP. auto. }
  assert (Hrn : (r < n)%nat) by (unfold n; lia).
  split.
  { rewrite LS. match goal with |- nth r (map ?g (seq 0 ?m)) 0 = _ => change (map g (seq 0 m)) with (tab m g) end.
    rewrite nth_tab by exact Hrn. replace (n - 1 - r)%nat with i by (unfold n; lia). now rewrite Hmu. }
  rewrite and_assoc_r. split; [|
    rewrite rev_length, !map_length, !seq_length, LS; intro Hr1; split; [unfold n in Hr1; lia|];
    assert (L2 : Nat.eqb (len (fst p0 :: map (fun k => fst (snd k)) (retain tol None p0 pts))) 2 = false)
      by (apply Nat.eqb_neq; cbn [len]; rewrite map_length, <- (map_length fst), K, LS; unfold n in *; lia);
    rewrite L2, rev_nth by (rewrite map_length, seq_length; lia);
    rewrite map_length, seq_length; replace (n - 1 - S r)%nat with (i - 1)%nat by (unfold n; lia);
    match goal with |- context [nth (i - 1) (map ?g (seq 0 ?m)) 0] => change (map g (seq 0 m)) with (tab m g) end;
    rewrite nth_tab by (unfold n in *; lia); destruct (NF (i - 1)%nat) as [_ ->]; [unfold n in *; lia|];
    replace (i - 1 + 1)%nat with i by (unfold n in *; lia); rewrite !(nth_indep (map (J hdev) _) 0 (J hdev 0)) by (rewrite map_length, LS; unfold n in *; lia);
    rewrite !(map_nth (J hdev)), Hmu, Sv by (unfold n in *; lia); reflexivity ].
  rewrite rev_nth by (rewrite !map_length, !seq_length, LS; exact Hrn).
  rewrite !map_length, !seq_length, LS. replace (n - S r)%nat with i by (unfold n; lia).
  match goal with |- context [nth i (map ?g (seq 0 ?m)) 0] => change (map g (seq 0 m)) with (tab m g) end.
  rewrite nth_tab by (unfold n; lia).
  assert (NB : nth i (map (fun i0 => nth i0 (fst p0 :: map (fun k => fst (snd k)) (retain tol None p0 pts)) 0 ^ 2 *
       Rpower (nth i0 (snd p0 :: map (fun k => snd (snd k)) (retain tol None p0 pts)) 0) (- nth (i0 - 1) (slopes adev taus) 0))
       (seq 1 n)) 0 = adev.[i + 1] ^ 2 * Rpower taus.[i + 1] (- mu)).
  { rewrite <- seq_shift, map_map. match goal with |- nth i (map ?g (seq 0 ?m)) 0 = _ => change (map g (seq 0 m)) with (tab m g) end.
    rewrite nth_tab by (unfold n; lia). destruct (NF (S i) ltac:(lia)) as [-> ->].
    replace (S i - 1)%nat with i by lia. rewrite Hmu. replace (i + 1)%nat with (S i) by lia. reflexivity. }
  rewrite NB. rewrite (nth_indep (map (J hdev) _) 0 (J hdev 0)) by (rewrite map_length, LS; unfold n; lia).
  rewrite (map_nth (J hdev)), Hmu.
  assert (HJ : J hdev mu <> 0).
  { apply Rg. rewrite <- Hmu. apply nth_In. rewrite LS. unfold n. lia. }
  pose proof PI_RGT_0 as HPI. destruct (Hpos i ltac:(lia)) as [Ai Ti].
  destruct (Hpos (i + 1)%nat ltac:(lia)) as [Ai1 Ti1]. pose proof (Hinc i ltac:(lia)) as Hlt.
  assert (Pp : Rpower PI mu <> 0) by (unfold Rpower; apply Rgt_not_eq, exp_pos).
  assert (X : forall t, 0 < t -> 2 * (adev.[i + 1] ^ 2 * Rpower taus.[i + 1] (- mu) / (2 * J hdev mu * Rpower PI mu)) * J hdev mu * Rpower (PI * t) mu
     = adev.[i + 1] ^ 2 * (Rpower taus.[i + 1] (- mu) * Rpower t mu)).
  { intros t Ht. rewrite <- Rpower_mult_distr by assumption. field. auto. }
  rewrite !X by assumption. split.
  - apply ln_inv.
    + apply Rmult_lt_0_compat; [apply pow_lt; assumption|]. unfold Rpower. rewrite <- exp_plus. apply exp_pos.
    + apply pow_lt. assumption.
    + unfold Rpower. rewrite <- exp_plus, ln_mult, ln_exp by (try apply exp_pos; apply pow_lt; assumption).
      unfold mu, slope_at.
      assert (ln taus.[i] < ln taus.[i + 1]) by (now apply ln_increasing).
      field. lra.
  - unfold Rpower. rewrite <- exp_plus. replace (- mu * ln taus.[i + 1] + mu * ln taus.[i + 1]) with 0 by ring.
    rewrite exp_0. ring.
Qed.

Lemma merged_len tol l s o : merged tol l s o -> (len o <= len s)%nat.
Proof. induction 1; cbn; lia. Qed.

Lemma merged_differ tol s : forall l, merged tol l s s -> forall i, (i + 1 < len s)%nat -> tol < Rabs (s.[i + 1] - s.[i]).
Proof.
  induction s as [|a t IH]; intros l M i Hi; [cbn in Hi; lia|].
  assert (M' : merged tol (Some a) t t).
  { inversion M; subst; auto. apply merged_len in H4. cbn in H4. lia. }
  destruct i as [|i].
  - destruct t as [|b t]; [cbn in Hi; lia|]. cbn [nth Nat.add]. inversion M'; subst; auto.
    apply merged_len in H4. cbn in H4. lia.
  - cbn [nth Nat.add]. apply (IH _ M'). cbn in Hi. lia.
Qed.

Lemma Rpower_pos x y : 0 < Rpower x y.
Proof. apply exp_pos. Qed.

(** The reconstructed PSD is discontinuous: at the node between two segments
    the lower segment exceeds the upper one by the factor
    (10 tau_i / tau_(i+1))^(mu_(i+1)-mu_i). *)
Theorem C71_jump adev taus vartype hdev top tol : valid adev taus ->
  vartype_of vartype hdev top -> merged tol None (slopes adev taus) (slopes adev taus) -> 0 <= tol ->
  (forall mu, In mu (slopes adev taus) -> -2 <= mu <= top /\ 0 < J hdev mu) ->
  exists f s h a, adev2psd J adev taus vartype tol = Ok (f, s, h, a) /\
  forall r i, (r + i + 3 = len adev)%nat ->
    h.[r] * Rpower f.[r] a.[r] =
      Rpower (10 * taus.[i] / taus.[i + 1]) (slope_at adev taus (i + 1) - slope_at adev taus i) *
      (h.[r + 1] * Rpower f.[r] a.[r + 1]) /\
    (h.[r] * Rpower f.[r] a.[r] = h.[r + 1] * Rpower f.[r] a.[r + 1] <-> taus.[i + 1] = 10 * taus.[i]).
Proof.
  intros V T M Ht Rg.
  destruct (C71_interpolates adev taus vartype hdev top tol V T M) as [f [s [h [a [E Hv]]]]].
  { intros mu Hm. destruct (Rg mu Hm). split; [assumption|lra]. }
  destruct (C71_shape adev taus vartype hdev top tol _ V T M) as [f' [s' [h' [a' [E' [_ [Lh _]]]]]]].
  { intros mu Hm. now apply Rg. }
  rewrite E in E'. inversion E'; subst f' s' h' a'. clear E'.
  exists f, s, h, a. split; [exact E|]. intros r i Hri.
  pose proof V as [EL [H2 [Hpos Hinc]]].
  assert (LS : len (slopes adev taus) = (len adev - 1)%nat) by (unfold slopes; now rewrite tab_length).
  destruct (Hv r (i + 1)%nat ltac:(lia)) as [A1 [B1 [_ N]]].
  destruct N as [_ N]; [lia|]. replace (i + 1 - 1)%nat with i in N by lia.
  destruct (Hv (r + 1)%nat i ltac:(lia)) as [A2 [_ [B2 _]]].
  set (m1 := slope_at adev taus (i + 1)) in *. set (m0 := slope_at adev taus i) in *.
  assert (Sv : forall j, (j < len adev - 1)%nat -> (slopes adev taus).[j] = slope_at adev taus j).
  { intros j Hj. unfold slopes. now rewrite nth_tab. }
  assert (J1 : 0 < J hdev m1).
  { apply Rg. unfold m1. rewrite <- Sv by lia. apply nth_In. lia. }
  assert (J0 : 0 < J hdev m0).
  { apply Rg. unfold m0. rewrite <- Sv by lia. apply nth_In. lia. }
  assert (Dm : m1 - m0 <> 0).
  { pose proof (merged_differ tol _ _ M i ltac:(lia)) as D. rewrite !Sv in D by lia.
    fold m1 m0 in D. intro C. rewrite C, Rabs_R0 in D. lra. }
  destruct (Hpos i ltac:(lia)) as [_ Ti]. destruct (Hpos (i + 1)%nat ltac:(lia)) as [Ai Ti1].
  set (x0 := taus.[i]) in *. set (x1 := taus.[i + 1]) in *. pose proof PI_RGT_0 as HPI.
  assert (Hf : 0 < f.[r]).
  { rewrite N. apply Rmult_lt_0_compat; [|apply Rpower_pos]. unfold Rdiv. rewrite Rmult_1_l.
    apply Rinv_0_lt_compat. nra. }
  assert (H0 : 0 < h.[r + 1]).
  { assert (0 < 2 * h.[r + 1] * J hdev m0 * Rpower (PI * x1) m0) by (rewrite B2; apply pow_lt, Ai).
    pose proof (Rpower_pos (PI * x1) m0). set (q := Rpower (PI * x1) m0) in *.
    destruct (Rle_dec h.[r + 1] 0) as [C|C]; [|lra].
    assert (0 < J hdev m0 * q) by (apply Rmult_lt_0_compat; assumption). nra. }
  assert (Eh : h.[r] = h.[r + 1] * (J hdev m0 / J hdev m1) * Rpower (PI * x1) (m0 - m1)).
  { unfold Rminus. rewrite Rpower_plus, Rpower_Ropp.
    assert (2 * h.[r] * J hdev m1 * Rpower (PI * x1) m1 = 2 * h.[r + 1] * J hdev m0 * Rpower (PI * x1) m0) by (rewrite B1, B2; reflexivity).
    pose proof (Rpower_pos (PI * x1) m1). apply (Rmult_eq_reg_r (2 * J hdev m1 * Rpower (PI * x1) m1)).
    - transitivity (2 * h.[r + 1] * J hdev m0 * Rpower (PI * x1) m0); [rewrite <- H; ring|]. field. lra.
    - assert (0 < J hdev m1 * Rpower (PI * x1) m1) by (apply Rmult_lt_0_compat; assumption). lra. }
  assert (Ef : Rpower f.[r] (m0 - m1) = Rpower (10 * PI * x0) (m1 - m0) / (J hdev m0 / J hdev m1)).
  { assert (HJ : 0 < J hdev m0 / J hdev m1) by (apply Rdiv_lt_0_compat; assumption).
    assert (H10 : 0 < 10 * PI * x0) by nra.
    unfold Rpower at 1. rewrite N, ln_mult; [|apply Rdiv_lt_0_compat; lra|apply Rpower_pos].
    unfold Rpower at 1. rewrite ln_exp. unfold Rdiv at 1. rewrite Rmult_1_l, ln_Rinv by exact H10.
    replace ((m0 - m1) * (- ln (10 * PI * x0) + 1 / (m1 - m0) * ln (J hdev m0 / J hdev m1)))
      with ((m1 - m0) * ln (10 * PI * x0) + - ln (J hdev m0 / J hdev m1)) by (field; exact Dm).
    rewrite exp_plus, exp_Ropp, exp_ln by exact HJ. reflexivity. }
  assert (R1 : h.[r] * Rpower f.[r] a.[r] =
      Rpower (10 * x0 / x1) (m1 - m0) * (h.[r + 1] * Rpower f.[r] a.[r + 1])).
  { rewrite A1, A2, Eh. replace (- m1 - 1) with ((m0 - m1) + (- m0 - 1)) by ring.
    rewrite (Rpower_plus (m0 - m1)), Ef.
    replace (Rpower (PI * x1) (m0 - m1)) with (/ Rpower (PI * x1) (m1 - m0))
      by (rewrite <- Rpower_Ropp; f_equal; ring).
    replace (10 * PI * x0) with (PI * x1 * (10 * x0 / x1)) by (field; lra).
    rewrite <- (Rpower_mult_distr (PI * x1) (10 * x0 / x1)) by (try nra; apply Rdiv_lt_0_compat; lra).
    pose proof (Rpower_pos (PI * x1) (m1 - m0)). field. lra. }
  split; [exact R1|]. rewrite R1.
  set (u := h.[r + 1] * Rpower f.[r] a.[r + 1]).
  assert (Hu : 0 < u) by (apply Rmult_lt_0_compat; [assumption|apply Rpower_pos]).
  split.
  - intro C. assert (P1 : Rpower (10 * x0 / x1) (m1 - m0) = 1) by (apply (Rmult_eq_reg_r u); lra).
    assert (L0 : (m1 - m0) * ln (10 * x0 / x1) = 0).
    { apply exp_inv. rewrite exp_0. exact P1. }
    apply Rmult_integral in L0. destruct L0 as [L0|L0]; [contradiction|].
    assert (10 * x0 / x1 = 1).
    { apply ln_inv; [apply Rdiv_lt_0_compat; lra|lra|now rewrite ln_1]. }
    apply (f_equal (fun v => v * x1)) in H. unfold Rdiv in H. rewrite Rmult_assoc, Rinv_l in H by lra. lra.
  - intro C. replace (10 * x0 / x1) with 1 by (rewrite C; field; lra).
    unfold Rpower. rewrite ln_1, Rmult_0_r, exp_0. ring.
Qed.

(** *** A pure power law *)

Lemma merged_const tol mu n : 0 <= tol -> merged tol (Some mu) (tab n (fun _ => mu)) [].
Proof.
  intro Ht. induction n as [|n IH]; [constructor|]. rewrite tab_S. constructor; [|exact IH].
  unfold Rminus. rewrite Rplus_opp_r, Rabs_R0. exact Ht.
Qed.

Lemma powerlaw_slope adev taus C mu : valid adev taus -> 0 < C ->
  (forall i, (i < len adev)%nat -> adev.[i] ^ 2 = C * Rpower taus.[i] mu) ->
  forall i, (i + 1 < len adev)%nat -> slope_at adev taus i = mu.
Proof.
  intros [EL [H2 [Hpos Hinc]]] HC Hp i Hi. unfold slope_at. rewrite !Hp by lia.
  rewrite !ln_mult by (try assumption; apply Rpower_pos). unfold Rpower. rewrite !ln_exp.
  assert (ln taus.[i] < ln taus.[i + 1]) by (apply ln_increasing; [apply Hpos; lia|apply Hinc; lia]).
  field. lra.
Qed.

(** On an exact power law sigma^2 = C tau^mu the conversion returns the single
    segment h f^alpha with alpha = -mu-1, 2 h J(mu) pi^mu = C, and the two
    nodes 1/tau_1, 1/tau_0. *)
Theorem C71_powerlaw adev taus vartype hdev top tol C mu : valid adev taus ->
  vartype_of vartype hdev top -> 0 <= tol -> 0 < C -> -2 <= mu <= top -> J hdev mu <> 0 ->
  (forall i, (i < len adev)%nat -> adev.[i] ^ 2 = C * Rpower taus.[i] mu) ->
  exists s, adev2psd J adev taus vartype tol =
    Ok ([1 / taus.[1]; 1 / taus.[0]], s, [C / (2 * J hdev mu * Rpower PI mu)], [- mu - 1]).
Proof.
  intros V T Ht HC Hmu HJ Hp.
  pose proof V as [EL [H2 [Hpos Hinc]]].
  assert (M : merged tol None (slopes adev taus) [mu]).
  { unfold slopes. replace (len adev - 1)%nat with (S (len adev - 2)) by lia. rewrite tab_S.
    rewrite (powerlaw_slope adev taus C mu) by (auto; lia). constructor.
    rewrite (tab_ext _ _ (fun _ => mu)); [now apply merged_const|].
    intros i Hi. apply (powerlaw_slope adev taus C mu); auto; lia. }
  destruct (adev2psd_unfold _ _ _ _ _ _ _ V T M) as [p0 [pts [P [K E]]]].
  cbv zeta in K, E. pose proof (points _ _ _ _ V P) as [LP [NP SP]].
  assert (Rb : forallb (fun mu => Rleb (-2) mu && Rleb mu top)%bool [mu] = true).
  { apply range_bool. intros m [<-|[]]. exact Hmu. }
  destruct pts as [|q t]; [cbn in LP; lia|].
  assert (Kp : retain tol None p0 (q :: t) = [(mu, q)]).
  { cbn [retain] in *. cbv zeta in *. cbn [map fst] in K. inversion K as [[K1 K2]].
    apply map_eq_nil in K2. rewrite K1 in K2. now rewrite K1, K2. }
  rewrite E, Rb, Kp. cbn [negb len map snd fst seq Nat.eqb rev app nth Nat.sub].
  pose proof (NP 0%nat ltac:(lia)) as N0. pose proof (NP 1%nat ltac:(lia)) as N1. cbn [nth] in N0, N1.
  rewrite N0, N1. cbn [fst snd]. eexists. repeat f_equal.
  rewrite Hp by lia. rewrite Rmult_assoc, <- Rpower_plus. replace (mu + - mu) with 0 by ring.
  rewrite Rpower_O by (apply Hpos; lia). ring.
Qed.
End C71.

(** *** Back to a deviation *)
Section Back.
Variable Q : R -> R -> option R -> R.

(** One segment without nodes: the full Allan integral. *)
Lemma to_adev_one h a tau : psd_to_adev Q [h] [a] [] [tau] =
  Ok [sqrt (2 * (h / Rpower (PI * tau) (a + 1) * Q a 0 None))].
Proof.
  unfold psd_to_adev, asum. cbn. change (Pos.to_nat 1) with 1%nat. cbn. rewrite Rmult_0_r, Rplus_0_l. reflexivity.
Qed.
Lemma to_adev_cons h a f tau taus : psd_to_adev Q h a f (tau :: taus) =
  (d <- psd_to_adev Q h a f [tau] ;; ds <- psd_to_adev Q h a f taus ;; Ok (d ++ ds)).
Proof.
  unfold psd_to_adev. cbn [mapM]. set (F := mapM _ (seq 0 (len h))) at 1.
  fold F. destruct F; cbn [bind]; [|reflexivity].
  match goal with |- context [mapM ?g taus] => destruct (mapM g taus) end; reflexivity.
Qed.
Lemma to_adev_two_nodes h a f1 f2 tau : psd_to_adev Q [h] [a] [f1; f2] [tau] =
  Ok [sqrt (2 * (h / Rpower (PI * tau) (a + 1) * Q a 0 (Some (PI * tau * f1))))].
Proof.
  unfold psd_to_adev, asum. cbn. change (Pos.to_nat 1) with 1%nat. cbn. rewrite Rmult_0_r, Rplus_0_l. reflexivity.
Qed.

Lemma mapM_tab {A B} (F : A -> res B) (g : A -> B) l : (forall x, In x l -> F x = Ok (g x)) -> mapM F l = Ok (map g l).
Proof.
  induction l as [|x t IH]; intro H; [reflexivity|]. cbn [mapM map]. rewrite H by (now left). cbn [bind].
  rewrite IH by (intros; apply H; now right). reflexivity.
Qed.

Lemma to_adev_map h a f taus (g : R -> R) :
  (forall t, In t taus -> psd_to_adev Q h a f [t] = Ok [g t]) -> psd_to_adev Q h a f taus = Ok (map g taus).
Proof.
  induction taus as [|t ts IH]; intro H; [reflexivity|].
  rewrite to_adev_cons, H by (now left). cbn [bind]. rewrite IH by (intros; apply H; now right). reflexivity.
Qed.

(** Round trip on an exact power law, given the segment alone (no nodes): the
    input deviations come back, whatever values the quadrature returns as long
    as both functions get the same one. *)
Theorem C71_roundtrip adev taus C mu j : valid adev taus -> 0 < C -> 0 < j ->
  Q (- mu - 1) 0 None = j ->
  (forall i, (i < len adev)%nat -> adev.[i] ^ 2 = C * Rpower taus.[i] mu) ->
  psd_to_adev Q [C / (2 * j * Rpower PI mu)] [- mu - 1] [] taus = Ok adev.
Proof.
  intros [EL [H2 [Hpos Hinc]]] HC Hj HQ Hp.
  rewrite (to_adev_map _ _ _ _ (fun t => sqrt (C * Rpower t mu))).
  - f_equal. rewrite (list_tab taus 0), map_tab, <- EL. rewrite (list_tab adev 0) at 2.
    apply tab_ext. intros i Hi. rewrite <- Hp by exact Hi. apply sqrt_pow2. apply Rlt_le. now apply Hpos.
  - intros t Hin. rewrite to_adev_one, HQ. do 2 f_equal. f_equal.
    destruct (In_nth _ _ 0 Hin) as [i [Hi Et]]. assert (0 < t) by (rewrite <- Et; apply Hpos; lia).
    replace (- mu - 1 + 1) with (- mu) by ring. rewrite Rpower_Ropp.
    pose proof PI_RGT_0. rewrite <- Rpower_mult_distr by lra.
    pose proof (Rpower_pos PI mu). pose proof (Rpower_pos t mu). field. lra.
Qed.

(** With the nodes that adev2psd_piecewise_approx returns for that power law,
    only the integral up to pi tau/tau_1 is used: every variance is too small
    by the factor (truncated integral)/(full integral). *)
Theorem C71_roundtrip_nodes_refuted adev taus C mu j : valid adev taus -> 0 < C -> 0 < j ->
  (forall x, 0 < x -> 0 <= Q (- mu - 1) 0 (Some x) < j) ->
  (forall i, (i < len adev)%nat -> adev.[i] ^ 2 = C * Rpower taus.[i] mu) ->
  exists dev, psd_to_adev Q [C / (2 * j * Rpower PI mu)] [- mu - 1] [1 / taus.[1]; 1 / taus.[0]] taus = Ok dev /\
    len dev = len adev /\
    forall i, (i < len adev)%nat -> dev.[i] < adev.[i] /\
      dev.[i] ^ 2 = adev.[i] ^ 2 * (Q (- mu - 1) 0 (Some (PI * taus.[i] * (1 / taus.[1]))) / j).
Proof.
  intros [EL [H2 [Hpos Hinc]]] HC Hj HQ Hp. eexists. split.
  { apply to_adev_map with (g := fun t => sqrt (C * Rpower t mu * (Q (- mu - 1) 0 (Some (PI * t * (1 / taus.[1]))) / j))).
    intros t Hin. rewrite to_adev_two_nodes. do 2 f_equal. f_equal.
    destruct (In_nth _ _ 0 Hin) as [i [Hi Et]]. assert (0 < t) by (rewrite <- Et; apply Hpos; lia).
    replace (- mu - 1 + 1) with (- mu) by ring. rewrite Rpower_Ropp.
    pose proof PI_RGT_0. rewrite <- Rpower_mult_distr by lra.
    pose proof (Rpower_pos PI mu). pose proof (Rpower_pos t mu). field. lra. }
  split; [now rewrite map_length|]. intros i Hi.
  rewrite (nth_indep _ 0 ((fun t => sqrt (C * Rpower t mu * (Q (- mu - 1) 0 (Some (PI * t * (1 / taus.[1]))) / j))) 0))
    by (rewrite map_length; lia).
  rewrite (map_nth (fun t => sqrt (C * Rpower t mu * (Q (- mu - 1) 0 (Some (PI * t * (1 / taus.[1]))) / j)))).
  rewrite <- Hp by exact Hi. destruct (Hpos i Hi) as [Ai Ti]. destruct (Hpos 1%nat ltac:(lia)) as [_ T1].
  assert (Hx : 0 < PI * taus.[i] * (1 / taus.[1])).
  { pose proof PI_RGT_0. apply Rmult_lt_0_compat; [nra|]. apply Rdiv_lt_0_compat; lra. }
  destruct (HQ _ Hx) as [Q0 Q1]. set (q := Q _ _ _) in *.
  assert (Hq : 0 <= q / j < 1).
  { split; [apply Rmult_le_pos; [lra|]; apply Rlt_le, Rinv_0_lt_compat; lra|].
    apply (Rmult_lt_reg_r j); [lra|]. unfold Rdiv. rewrite Rmult_assoc, Rinv_l by lra. lra. }
  assert (A2 : 0 < adev.[i] ^ 2) by (now apply pow_lt).
  split.
  - rewrite <- (sqrt_pow2 adev.[i]) at 2 by lra. apply sqrt_lt_1_alt. nra.
  - apply pow2_sqrt. nra.
Qed.

(** Too few nodes for the number of segments: IndexError. *)
Theorem C71_index h a f tau taus : len a = len h -> (len f + 1 < len h)%nat ->
  psd_to_adev Q h a f (tau :: taus) = Err IndexError.
Proof.
  intros Ha Hf. unfold psd_to_adev. cbn [mapM].
  set (F := fun i : nat => _).
  assert (X : forall k n, (k <= len f + 1)%nat -> (len f + 1 < k + n)%nat -> (k + n <= len h)%nat ->
    mapM F (seq k n) = Err IndexError).
  { intros k n. revert k. induction n as [|n IH]; intros k H1 H2 H3; [lia|]. cbn [seq mapM].
    assert (PG : forall {A} (l : list A) d i, (i < len l)%nat -> pyget l (Z.of_nat i) = Ok (nth i l d)).
    { intros A l d i Hi. unfold pyget. destruct (Z.ltb_spec (Z.of_nat i) 0); [lia|]. cbv zeta.
      destruct (Z.ltb_spec (Z.of_nat i) 0); [lia|].
      rewrite Nat2Z.id. rewrite (nth_error_nth' l d) by exact Hi. reflexivity. }
    set (edges := Some 0 :: map Some f ++ [None]).
    assert (LE : len edges = (len f + 2)%nat) by (unfold edges; cbn; rewrite app_length, map_length; cbn; lia).
    destruct (Nat.eq_dec k (len f + 1)) as [->|Hk].
    - unfold F at 1. rewrite (PG _ h 0), (PG _ a 0) by lia. cbn [bind]. fold edges.
      rewrite (PG _ edges None) by lia. cbn [bind].
      assert (PE : pyget edges (Z.of_nat (len f + 1) + 1) = Err IndexError).
      { unfold pyget. destruct (Z.ltb_spec (Z.of_nat (len f + 1) + 1) 0); [lia|].
        cbv zeta. destruct (Z.ltb_spec (Z.of_nat (len f + 1) + 1) 0); [lia|].
        rewrite (proj2 (nth_error_None edges _)); [reflexivity|lia]. }
      rewrite PE. reflexivity.
    - assert (exists v, F k = Ok v) as [v ->].
      { unfold F. rewrite (PG _ h 0), (PG _ a 0) by lia. cbn [bind]. fold edges.
        rewrite (PG _ edges None) by lia. cbn [bind].
        replace (Z.of_nat k + 1)%Z with (Z.of_nat (k + 1)) by lia. rewrite (PG _ edges None) by lia. cbn [bind].
        destruct (edge_scale _ _); eexists; reflexivity. }
      cbn [bind]. rewrite IH by lia. reflexivity. }
  rewrite X by lia. reflexivity.
Qed.
End Back.

(** The two nodes returned for a single segment are refused by
    timmer_koenig_from_psd. *)
Theorem C71_timmer_koenig_refuted rnd f1 f2 h a duration timestep output :
  timmer_koenig rnd [f1; f2] [h] [a] duration timestep output = Err ValueError.
Proof.
  unfold timmer_koenig. destruct (Rleb duration 0 || Rleb timestep 0)%bool; reflexivity.
Qed.

(** ** Examples and further witnesses *)
Lemma ln2_pos : 0 < ln 2.
Proof. rewrite <- ln_1. apply ln_increasing; lra. Qed.

(** Slopes beyond the convergence limit go unnoticed when they are merged:
    with the default tolerance 1e-5, slopes 2 and 2 + 2e-6 are accepted. *)
Theorem C71_range_refuted J : exists adev taus f s h a,
  adev2psd J adev taus "adev" (1 / 100000) = Ok (f, s, h, a) /\
  valid adev taus /\ 2 < slope_at adev taus 1.
Proof.
  set (e := 1 / 1000000).
  exists [1; 2; 2 * Rpower 2 (1 + e)], [1; 2; 4].
  assert (V : valid [1; 2; 2 * Rpower 2 (1 + e)] [1; 2; 4]).
  { repeat split; try reflexivity; cbn; try lia.
    - do 3 (destruct i as [|i]; [cbn [nth]; try lra; (apply Rmult_lt_0_compat; [lra|apply Rpower_pos])|]). cbn in H. lia.
    - do 3 (destruct i as [|i]; [cbn; lra|]). cbn in H. lia.
    - do 2 (destruct i as [|i]; [intros; cbn; lra|]). intros; lia. }
  assert (E2 : forall v, 0 < v -> ln (v * (v * 1)) = 2 * ln v).
  { intros v Hv. rewrite Rmult_1_r, ln_mult by assumption. ring. }
  pose proof ln2_pos as L2. assert (L4 : ln 4 = 2 * ln 2) by (replace 4 with (2 * 2) by ring; rewrite ln_mult by lra; ring).
  assert (S0 : slope_at [1; 2; 2 * Rpower 2 (1 + e)] [1; 2; 4] 0 = 2).
  { unfold slope_at. cbn. rewrite !E2, ln_1 by lra. field. lra. }
  assert (S1 : slope_at [1; 2; 2 * Rpower 2 (1 + e)] [1; 2; 4] 1 = 2 + 2 * e).
  { unfold slope_at. cbn. pose proof (Rpower_pos 2 (1 + e)) as HP. rewrite !E2 by (lra || (apply Rmult_lt_0_compat; [lra|exact HP])). rewrite ln_mult by (lra || exact HP).
    unfold Rpower. rewrite ln_exp, L4. field. lra. }
  destruct (C71_shape J _ _ "adev" false 2 (1 / 100000) [2] V) as [f [s [h [a [E _]]]]].
  - left. auto.
  - unfold slopes, tab. cbn [len Nat.sub seq map]. rewrite S0, S1. constructor. constructor; [|constructor].
    replace (2 + 2 * e - 2) with (2 * e) by ring. rewrite Rabs_pos_eq; unfold e; lra.
  - intros mu [<-|[]]. lra.
  - exists f, s, h, a. split; [exact E|]. split; [exact V|]. rewrite S1. unfold e. lra.
Qed.

(** White FM over a decade followed by random-walk FM over a decade, with the
    decade spacing for which the reconstruction is continuous. *)
Example C71_valid_example : valid [1; 1 / 10; 1] [1; 100; 10000] /\
  merged 0 None (slopes [1; 1 / 10; 1] [1; 100; 10000]) (slopes [1; 1 / 10; 1] [1; 100; 10000]) /\
  slopes [1; 1 / 10; 1] [1; 100; 10000] = [-1; 1].
Proof.
  assert (L : ln 100 = 2 * ln 10) by (replace 100 with (10 * 10) by ring; rewrite ln_mult by lra; ring).
  assert (L' : ln 10000 = 4 * ln 10) by (replace 10000 with (100 * 100) by ring; rewrite ln_mult, L by lra; ring).
  assert (P : 0 < ln 10) by (rewrite <- ln_1; apply ln_increasing; lra).
  assert (T : ln (1 / 10) = - ln 10) by (unfold Rdiv; rewrite Rmult_1_l; apply ln_Rinv; lra).
  assert (E2 : forall v, 0 < v -> ln (v * (v * 1)) = 2 * ln v).
  { intros v Hv. rewrite Rmult_1_r, ln_mult by assumption. ring. }
  assert (S : slopes [1; 1 / 10; 1] [1; 100; 10000] = [-1; 1]).
  { unfold slopes, tab, slope_at. cbn. rewrite !E2, T, ln_1, L, L' by lra. f_equal; [field; lra|]. f_equal. field. lra. }
  split; [|split; [|exact S]].
  - repeat split; try reflexivity; cbn; try lia.
    + do 3 (destruct i as [|i]; [cbn; lra|]). cbn in H. lia.
    + do 3 (destruct i as [|i]; [cbn; lra|]). cbn in H. lia.
    + do 2 (destruct i as [|i]; [intros; cbn; lra|]). intros; lia.
  - rewrite S. constructor. constructor; [|constructor]. rewrite Rabs_pos_eq; lra.
Qed.
Example C71_vartype_example : vartype_of "ADEV" false 2 /\ vartype_of "HDev" true 4.
Proof. split; [left|right]; repeat split; reflexivity. Qed.
Example C71_vartype_bad : forall hdev top, ~ vartype_of "mdev" hdev top.
Proof. intros hdev top [[H _]|[H _]]; discriminate. Qed.
(** tau_1 = 100 tau_0: the reconstruction jumps by (1/10)^2 at its node. *)
Example C71_jump_example : exists f s h a,
  adev2psd (fun _ _ => 1) [1; 1 / 10; 1] [1; 100; 10000] "adev" 0 = Ok (f, s, h, a) /\
  h.[0] * Rpower f.[0] a.[0] = 1 / 100 * (h.[1] * Rpower f.[0] a.[1]).
Proof.
  destruct C71_valid_example as [V [M S]].
  destruct (C71_jump (fun _ _ => 1) _ _ "adev" false 2 0 V) as [f [s [h [a [E H]]]]]; auto.
  - left; auto.
  - lra.
  - rewrite S. intros mu [<-|[<-|[]]]; lra.
  - exists f, s, h, a. split; [exact E|]. destruct (H 0%nat 0%nat ltac:(reflexivity)) as [H1 _].
    cbn [Nat.add] in H1. rewrite H1. f_equal.
    assert (S0 : slope_at [1; 1 / 10; 1] [1; 100; 10000] 0 = -1) by (change (slope_at [1; 1 / 10; 1] [1; 100; 10000] 0) with ((slopes [1; 1 / 10; 1] [1; 100; 10000]).[0]); now rewrite S).
    assert (S1 : slope_at [1; 1 / 10; 1] [1; 100; 10000] 1 = 1) by (change (slope_at [1; 1 / 10; 1] [1; 100; 10000] 1) with ((slopes [1; 1 / 10; 1] [1; 100; 10000]).[1]); now rewrite S).
    rewrite S0, S1. cbn [nth]. replace (1 - -1) with (INR 2) by (cbn; ring). rewrite Rpower_pow by lra. field.
Qed.

Print Assumptions C71_shape.
Print Assumptions C71_range_error.
Print Assumptions C71_invalid.
Print Assumptions C71_interpolates.
Print Assumptions C71_jump.
Print Assumptions C71_powerlaw.
Print Assumptions C71_roundtrip.
Print Assumptions C71_roundtrip_nodes_refuted.
Print Assumptions C71_index.
Print Assumptions C71_timmer_koenig_refuted.
Print Assumptions C71_range_refuted.
