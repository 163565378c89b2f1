(** * C106: a NaN given to a realtime object. *)
From Coq Require Import String List ZArith Lia Arith Bool Floats Reals.
From Verif Require Import Base Num NpList ModelCore ModelDev ModelRt ListFacts RtProofs GenericProofs NanProofs NumF NumX PropsNan PropsRt
  PropsFloatMdev PropsFloatRt.
Import ListNotations.
Local Notation len := List.length.
Local Open Scope num_scope.

(** ** specification *)
(** the points which the deviation for averaging factor m depends on after N samples *)
Definition all_of_full (N m p : nat) : Prop := (3 * m <= N)%nat.
(** the deviations [devs] reported for the factors [afs] are NaN wherever the sample at p matters *)
Definition lost {A} {NA : Num A} (uses : nat -> nat -> nat -> Prop) (N p : nat) (afs : list nat) (devs : list A) : Prop :=
  Forall2 (fun af d => uses N af p -> nisnan d = true) afs devs.
(** and they are the same as [devs'] elsewhere *)
Definition kept {A} (uses : nat -> nat -> nat -> Prop) (N p : nat) (afs : list nat) (devs devs' : list A) : Prop :=
  len devs = len afs /\ len devs' = len afs /\
  forall j d d', nth_error devs j = Some d -> nth_error devs' j = Some d' -> ~ uses N (nth j afs 0%nat) p -> d = d'.

Lemma Forall2_map_r' {B C} (P : B -> C -> Prop) (h : B -> C) l : (forall a, In a l -> P a (h a)) -> Forall2 P l (map h l).
Proof. induction l as [|a l IH]; intros H; cbn; constructor; [apply H; now left|]. apply IH. intros b Hb. apply H. now right. Qed.

Section Nan.
Context {A : Type} {NA : Num A}.
Let bad (a : A) := nisnan a = true.

Lemma fixed_run_any upd (c : @cfg A) g afs xs : local_upd upd c g -> auto_afs c = false ->
  exists s, run (add_phase upd) c (rt_init c afs) xs = Ok s /\ rafs s = afs /\ rx s = xs /\
    rt_devs s = map (fun af => snd (slot_after g xs af 0 (len xs))) afs.
Proof using Type.
  intros Hl Ha. eexists. split; [apply (run_fixed upd c g afs xs Hl Ha)|]. split; [reflexivity|]. split; [reflexivity|].
  unfold rt_devs. cbn [st rdev]. apply (map_tab_nth (fun af => snd (slot_after g xs af 0 (len xs)))).
Qed.

(** ** which deviations depend on a sample *)
Section Same.
Context (xs xs' : list A) (p : nat).
Hypothesis Hlen : len xs = len xs'.
Hypothesis Hsame : forall i, i <> p -> nth i xs (ofZ 0) = nth i xs' (ofZ 0).
Lemma oadev_same t0 af : ~ in_triple (len xs) af p ->
  snd (slot_after (oadev_g t0) xs af 0 (len xs)) = snd (slot_after (oadev_g t0) xs' af 0 (len xs)).
Proof using All.
  intros Hn. rewrite (oadev_slot_gen t0 xs) by lia. rewrite (oadev_slot_gen t0 xs') by lia. cbn [snd].
  rewrite (tab_ext _ (fun k => nsq (sd (fun i => nth i xs (ofZ 0)) af k)) (fun k => nsq (sd (fun i => nth i xs' (ofZ 0)) af k))); [reflexivity|].
  intros k Hk. unfold sd. rewrite !Hsame; [reflexivity| | |]; intros E; apply Hn; exists k; lia.
Qed.
Lemma ohdev_same t0 af : ~ in_quadruple (len xs) af p ->
  snd (slot_after (ohdev_g t0) xs af 0 (len xs)) = snd (slot_after (ohdev_g t0) xs' af 0 (len xs)).
Proof using All.
  intros Hn. rewrite (ohdev_slot_gen t0 xs) by lia. rewrite (ohdev_slot_gen t0 xs') by lia. cbn [snd].
  rewrite (tab_ext _ (fun k => nsq (td (fun i => nth i xs (ofZ 0)) af k)) (fun k => nsq (td (fun i => nth i xs' (ofZ 0)) af k))); [reflexivity|].
  intros k Hk. unfold td. rewrite !Hsame; [reflexivity| | | |]; intros E; apply Hn; exists k; lia.
Qed.
Lemma tdev_same af : (1 <= af)%nat -> ~ all_of_full (len xs) af p ->
  snd (slot_after tdev_g xs af 0 (len xs)) = snd (slot_after tdev_g xs' af 0 (len xs)).
Proof using All.
  unfold all_of_full. intros H1 Hn. rewrite (tdev_slot_gen xs) by lia. rewrite (tdev_slot_gen xs') by lia.
  destruct (Nat.ltb_spec (len xs) (3 * af)); [reflexivity|lia].
Qed.
End Same.

Lemma kept_of uses g N p afs xs xs' :
  (forall af, In af afs -> ~ uses N af p -> snd (slot_after g xs af 0 (len xs)) = snd (slot_after g xs' af 0 (len xs'))) ->
  kept uses N p afs (map (fun af => snd (slot_after g xs af 0 (len xs))) afs) (map (fun af => snd (slot_after (A := A) g xs' af 0 (len xs'))) afs).
Proof using Type.
  intros H. split; [now rewrite map_length|]. split; [now rewrite map_length|]. intros j d d' Ed Ed' Hn.
  rewrite nth_error_map in Ed, Ed'. destruct (nth_error afs j) as [af|] eqn:E; [|discriminate]. cbn in Ed, Ed'.
  injection Ed as <-. injection Ed' as <-. apply H; [now apply nth_error_In in E|]. now rewrite (nth_error_nth _ _ _ E) in Hn.
Qed.

(** In any arithmetic, changing one sample changes no deviation that does not use it. *)
Theorem C106_unaffected c afs (xs xs' : list A) p : auto_afs c = false -> Forall (fun af => (1 <= af)%nat) afs ->
  len xs = len xs' -> (forall i, i <> p -> nth i xs (ofZ 0) = nth i xs' (ofZ 0)) ->
  Forall (fun q : (@cfg A -> @rt A -> A -> res (@rt A)) * (nat -> nat -> nat -> Prop) => let '(ap, uses) := q in
    exists s s', run ap c (rt_init c afs) xs = Ok s /\ run ap c (rt_init c afs) xs' = Ok s' /\ kept uses (len xs) p afs (rt_devs s) (rt_devs s'))
  [(oadev_add_phase, in_triple); (ohdev_add_phase, in_quadruple); (tdev_add_phase, all_of_full)].
Proof using Type.
  intros Ha H1 Hl Hs. rewrite Forall_forall in H1. repeat constructor.
  - destruct (fixed_run_any oadev_upd c _ afs xs (oadev_local c) Ha) as (s & E & _ & _ & Ed).
    destruct (fixed_run_any oadev_upd c _ afs xs' (oadev_local c) Ha) as (s' & E' & _ & _ & Ed').
    exists s, s'. split; [exact E|]. split; [exact E'|]. rewrite Ed, Ed'. apply kept_of. intros af _. rewrite <- Hl. now apply oadev_same.
  - destruct (fixed_run_any ohdev_upd c _ afs xs (ohdev_local c) Ha) as (s & E & _ & _ & Ed).
    destruct (fixed_run_any ohdev_upd c _ afs xs' (ohdev_local c) Ha) as (s' & E' & _ & _ & Ed').
    exists s, s'. split; [exact E|]. split; [exact E'|]. rewrite Ed, Ed'. apply kept_of. intros af _. rewrite <- Hl. now apply ohdev_same.
  - destruct (fixed_run_any tdev_upd c _ afs xs (tdev_local c) Ha) as (s & E & _ & _ & Ed).
    destruct (fixed_run_any tdev_upd c _ afs xs' (tdev_local c) Ha) as (s' & E' & _ & _ & Ed').
    exists s, s'. split; [exact E|]. split; [exact E'|]. rewrite Ed, Ed'. apply kept_of. intros af Hi. rewrite <- Hl. apply (tdev_same xs xs' p); auto.
Qed.

Context (S : nan_strict A).
Lemma bad_add a b : bad a \/ bad b -> bad (a + b). Proof using S. apply (ns_add _ S). Qed.
Lemma bad_sub a b : bad a \/ bad b -> bad (a - b). Proof using S. apply (ns_sub _ S). Qed.
Lemma bad_mul a b : bad a \/ bad b -> bad (a * b). Proof using S. apply (ns_mul _ S). Qed.

(** ** which deviations are lost *)
Section Lost.
Context (xs : list A) (p : nat).
Hypothesis Hb : nisnan (nth p xs (ofZ 0)) = true.
Lemma oadev_lost t0 af : in_triple (len xs) af p -> nisnan (snd (slot_after (oadev_g t0) xs af 0 (len xs))) = true.
Proof using All.
  intros (k & Hk & Hp). rewrite oadev_slot_gen by lia. cbn [snd]. destruct (Nat.ltb_spec (2 * af) (len xs)); [|lia].
  apply (ns_sqrt _ S). apply bad_mul. right. apply (bad_asum S). apply (bad_tab _ _ k); [lia|]. apply (bad_nsq S). unfold sd.
  destruct Hp as [-> | [-> | ->]].
  - apply bad_add. right. exact Hb.
  - apply bad_add. left. apply bad_sub. right. apply bad_mul. right. now replace (af + k)%nat with (k + af)%nat by lia.
  - apply bad_add. left. apply bad_sub. left. now replace (2 * af + k)%nat with (k + 2 * af)%nat by lia.
Qed.
Lemma ohdev_lost t0 af : in_quadruple (len xs) af p -> nisnan (snd (slot_after (ohdev_g t0) xs af 0 (len xs))) = true.
Proof using All.
  intros (k & Hk & Hp). rewrite ohdev_slot_gen by lia. cbn [snd]. destruct (Nat.ltb_spec (3 * af) (len xs)); [|lia].
  apply (ns_sqrt _ S). apply bad_mul. right. apply (bad_asum S). apply (bad_tab _ _ k); [lia|]. apply (bad_nsq S). unfold td.
  destruct Hp as [-> | [-> | [-> | ->]]].
  - apply bad_sub. right. exact Hb.
  - apply bad_sub. left. apply bad_add. right. apply bad_mul. right. now replace (af + k)%nat with (k + af)%nat by lia.
  - apply bad_sub. left. apply bad_add. left. apply bad_sub. right. apply bad_mul. right. now replace (2 * af + k)%nat with (k + 2 * af)%nat by lia.
  - apply bad_sub. left. apply bad_add. left. apply bad_sub. left. now replace (3 * af + k)%nat with (k + 3 * af)%nat by lia.
Qed.

Let f i := nth i xs (ofZ 0).
Lemma fill_lost m k : (p < k \/ (m <= p < m + k) \/ (2 * m <= p < 2 * m + k))%nat -> bad (fill f m k).
Proof using All.
  induction k as [|k IH]; intros H; [lia|]. cbn [fill].
  destruct (Nat.eq_dec p k) as [->|N1]; [apply bad_add; right; exact Hb|].
  destruct (Nat.eq_dec p (m + k)) as [E|N2]; [apply bad_add; left; apply bad_sub; right; apply bad_mul; right; unfold f; now rewrite <- E|].
  destruct (Nat.eq_dec p (2 * m + k)) as [E|N3]; [apply bad_add; left; apply bad_sub; left; apply bad_add; right; unfold f; now rewrite <- E|].
  apply bad_add; left; apply bad_sub; left; apply bad_add; left. apply IH. lia.
Qed.
Lemma live_lost m j : (1 <= m)%nat -> (p < 3 * m + j)%nat -> bad (live f m j).
Proof using All.
  intros Hm. induction j as [|j IH]; intros H; cbn [live]; [apply fill_lost; lia|].
  destruct (Nat.eq_dec p (3 * m + j)) as [E|N]; [|apply bad_add; left; apply IH; lia].
  apply bad_add. right. unfold slide. apply bad_add. right. unfold f. now rewrite <- E.
Qed.
Lemma live_sq_lost m j : bad (live f m j) -> bad (live_sq f m j).
Proof using All. destruct j; cbn [live_sq]; intros H; [now apply (bad_nsq S)|]. apply bad_add. right. now apply (bad_nsq S). Qed.
Lemma tdev_lost af : (1 <= af)%nat -> (p < len xs)%nat -> all_of_full (len xs) af p -> nisnan (snd (slot_after tdev_g xs af 0 (len xs))) = true.
Proof using All.
  unfold all_of_full. intros H1 Hp HN. rewrite tdev_slot_gen by lia. destruct (Nat.ltb_spec (len xs) (3 * af)); [lia|]. cbn [snd].
  unfold tdev_value. apply (ns_sqrt _ S). apply bad_mul. right. apply live_sq_lost. apply live_lost; lia.
Qed.
End Lost.

(** A NaN sample: every deviation which uses it is NaN. *)
Theorem C106_reaches c afs (xs : list A) p : auto_afs c = false -> Forall (fun af => (1 <= af)%nat) afs ->
  (p < len xs)%nat -> nisnan (nth p xs (ofZ 0)) = true ->
  Forall (fun q : (@cfg A -> @rt A -> A -> res (@rt A)) * (nat -> nat -> nat -> Prop) => let '(ap, uses) := q in
    exists s, run ap c (rt_init c afs) xs = Ok s /\ rafs s = afs /\ lost uses (len xs) p afs (rt_devs s))
  [(oadev_add_phase, in_triple); (ohdev_add_phase, in_quadruple); (tdev_add_phase, all_of_full)].
Proof using All.
  intros Ha H1 Hp Hb. rewrite Forall_forall in H1. repeat constructor.
  - destruct (fixed_run_any oadev_upd c _ afs xs (oadev_local c) Ha) as (s & E & Er & _ & Ed). exists s. split; [exact E|]. split; [exact Er|].
    rewrite Ed. apply Forall2_map_r'. intros af _. now apply oadev_lost.
  - destruct (fixed_run_any ohdev_upd c _ afs xs (ohdev_local c) Ha) as (s & E & Er & _ & Ed). exists s. split; [exact E|]. split; [exact Er|].
    rewrite Ed. apply Forall2_map_r'. intros af _. now apply ohdev_lost.
  - destruct (fixed_run_any tdev_upd c _ afs xs (tdev_local c) Ha) as (s & E & Er & _ & Ed). exists s. split; [exact E|]. split; [exact Er|].
    rewrite Ed. apply Forall2_map_r'. intros af Hi. apply (tdev_lost xs p); auto.
Qed.

(** tdev_realtime.mdev() *)
Theorem C106_mdev c afs (xs : list A) p : auto_afs c = false -> Forall (fun af => (1 <= af)%nat) afs ->
  (p < len xs)%nat -> nisnan (nth p xs (ofZ 0)) = true ->
  exists s ds, run tdev_add_phase c (rt_init c afs) xs = Ok s /\ rt_mdev c s = Ok ds /\ lost all_of_full (len xs) p afs ds.
Proof using All.
  intros Ha H1 Hp Hb. rewrite Forall_forall in H1.
  destruct (fixed_run_any tdev_upd c _ afs xs (tdev_local c) Ha) as (s & E & Er & _ & Ed).
  exists s. eexists. split; [exact E|]. unfold rt_mdev. rewrite Er. unfold rt_devs in Ed. rewrite Ed.
  rewrite <- (map_tab_nth (fun af => snd (slot_after tdev_g xs af 0 (len xs)))).
  rewrite (mdev_loop_gen (fun idx v => ndiv (nmul v (nsqrt (ofZ 3))) (nmul (ofN (nth idx afs 0%nat)) (tau0 c)))) by lia. split; [reflexivity|].
  rewrite (tab_ext _ _ (fun j => ndiv (nmul (snd (slot_after tdev_g xs (nth j afs 0%nat) 0 (len xs))) (nsqrt (ofZ 3))) (nmul (ofN (nth j afs 0%nat)) (tau0 c))))
    by (intros j Hj; destruct (Nat.ltb_spec j (len afs)); [reflexivity|lia]).
  rewrite (map_tab_nth (fun af => ndiv (nmul (snd (slot_after tdev_g xs af 0 (len xs))) (nsqrt (ofZ 3))) (nmul (ofN af) (tau0 c)))).
  apply Forall2_map_r'. intros af Hi Hu. apply (ns_div _ S). left. apply bad_mul. left. apply (tdev_lost xs p); auto.
Qed.

(** A NaN frequency: every phase point after it is NaN, so every deviation reported at all is. *)
Lemma partial_sums_len (fs : list A) : forall a, len (partial_sums a fs) = Datatypes.S (len fs).
Proof using Type. induction fs as [|f fs IH]; intros a; cbn; [reflexivity|]. now rewrite IH. Qed.
Lemma partial_sums_bad (fs : list A) : forall a, bad a \/ Exists bad fs -> bad (nth (len fs) (partial_sums a fs) (ofZ 0)).
Proof using S.
  induction fs as [|f fs IH]; intros a H; cbn; [destruct H as [H|H]; [exact H|inversion H]|].
  apply IH. destruct H as [H|H]; [left; apply bad_add; now left|]. apply Exists_cons in H as [H|H]; [left; apply bad_add; now right|now right].
Qed.
Theorem C106_frequency c afs f (fs : list A) : auto_afs c = false -> Forall (fun af => (1 <= af)%nat) afs ->
  Exists (fun a => nisnan a = true) (f :: fs) -> let N := (len (f :: fs) + 1)%nat in
  Forall (fun q : (@cfg A -> @rt A -> A -> res (@rt A)) * (nat -> bool) => let '(ap, live) := q in
    exists s, run (add_frequency ap) c (rt_init c afs) (f :: fs) = Ok s /\ rafs s = afs /\
      Forall2 (fun af d => live af = true -> nisnan d = true) afs (rt_devs s))
  [(oadev_add_phase, fun af => (2 * af <? N)%nat); (ohdev_add_phase, fun af => (3 * af <? N)%nat); (tdev_add_phase, fun af => (3 * af <=? N)%nat)].
Proof using All.
  intros Ha H1 Hf N. destruct (C59_stream c afs f fs) as (E1 & E2 & E3).
  set (xs := partial_sums (ofZ 0) (f :: fs)) in *. assert (HN : len xs = N) by (unfold xs; rewrite partial_sums_len; unfold N; cbn; lia).
  assert (Hb : nisnan (nth (N - 1) xs (ofZ 0)) = true).
  { unfold xs. replace (N - 1)%nat with (len (f :: fs)) by (unfold N; lia). apply partial_sums_bad. now right. }
  assert (Hp : (N - 1 < len xs)%nat) by (rewrite HN; unfold N; lia).
  pose proof (C106_reaches c afs xs (N - 1) Ha H1 Hp Hb) as H. rewrite HN in H.
  apply Forall_cons_iff in H as [(s1 & R1 & A1 & D1) H]. apply Forall_cons_iff in H as [(s2 & R2 & A2 & D2) H].
  apply Forall_cons_iff in H as [(s3 & R3 & A3 & D3) _].
  assert (W : forall (P Q : nat -> A -> Prop) l l', (forall a b, P a b -> Q a b) -> Forall2 P l l' -> Forall2 Q l l').
  { intros P Q l l' HPQ HF. induction HF; constructor; auto. }
  repeat constructor.
  - exists s1. rewrite E1. split; [exact R1|]. split; [exact A1|]. eapply W; [|exact D1]. cbv beta. intros af d Hd Hl. apply Hd. apply Nat.ltb_lt in Hl.
    exists (N - 1 - 2 * af)%nat. lia.
  - exists s2. rewrite E2. split; [exact R2|]. split; [exact A2|]. eapply W; [|exact D2]. cbv beta. intros af d Hd Hl. apply Hd. apply Nat.ltb_lt in Hl.
    exists (N - 1 - 3 * af)%nat. lia.
  - exists s3. rewrite E3. split; [exact R3|]. split; [exact A3|]. eapply W; [|exact D3]. cbv beta. intros af d Hd Hl. apply Hd. apply Nat.leb_le in Hl. exact Hl.
Qed.
(** ** it never recovers: any configuration, any state *)
(** entry i of the list is NaN *)
Definition nan_at (l : list A) (i : nat) : Prop := exists v, nth_error l i = Some v /\ nisnan v = true.

Lemma get_nth_ok (l : list A) i v : get_nth l i = Ok v -> nth_error l i = Some v.
Proof using Type. unfold get_nth. destruct (nth_error l i); [|discriminate]. intros H. now injection H as <-. Qed.
Lemma set_nth_ok (v : A) : forall i l l', set_nth i v l = Ok l' -> forall j, nth_error l' j = if (j =? i)%nat then Some v else nth_error l j.
Proof using Type.
  induction i as [|i IH]; intros [|a l] l' H j; try discriminate; cbn in H.
  - injection H as <-. now destruct j.
  - destruct (set_nth i v l) as [t|] eqn:E; [|discriminate]. cbn in H. injection H as <-. destruct j as [|j]; [reflexivity|]. cbn. apply (IH _ _ E).
Qed.
Lemma nan_at_set v i l l' j : set_nth i v l = Ok l' -> (j = i -> bad v) -> (j <> i -> nan_at l j) -> nan_at l' j.
Proof using Type.
  intros E Hv Hl. unfold nan_at. rewrite (set_nth_ok _ _ _ _ E). destruct (Nat.eqb_spec j i) as [->|N]; [exists v; split; [reflexivity|now apply Hv]|].
  exact (Hl N).
Qed.
Lemma nan_at_get l i v : nan_at l i -> get_nth l i = Ok v -> bad v.
Proof using Type. intros (w & E & H) G. apply get_nth_ok in G. rewrite E in G. injection G as ->. exact H. Qed.
Lemma nan_at_app l l' i : nan_at l i -> nan_at (l ++ l') i.
Proof using Type. intros (v & E & H). exists v. split; [|exact H]. rewrite nth_error_app1; [exact E|]. apply nth_error_Some. congruence. Qed.

Ltac step H := match type of H with bind ?r _ = Ok _ => let E := fresh "E" in let a := fresh "a" in destruct r as [a|] eqn:E; [cbn [bind] in H|discriminate H] end.

(** the three loop bodies keep the record and the factors *)
Definition frame (upd : @cfg A -> @rt A -> nat -> nat -> res (@rt A)) : Prop :=
  forall c s j af s', upd c s j af = Ok s' -> rx s' = rx s /\ rafs s' = rafs s.
Lemma oadev_frame : frame oadev_upd.
Proof using Type. intros c s j af s' H. unfold oadev_upd in H. destruct (_ <=? _)%nat; [|injection H as <-; auto]. repeat step H. injection H as <-. auto. Qed.
Lemma ohdev_frame : frame ohdev_upd.
Proof using Type. intros c s j af s' H. unfold ohdev_upd in H. destruct (_ <? _)%nat; [|injection H as <-; auto]. repeat step H. injection H as <-. auto. Qed.
Lemma tdev_frame : frame tdev_upd.
Proof using Type.
  intros c s j af s' H. unfold tdev_upd in H. cbv zeta in H. destruct (3 * af + 1 <=? _)%nat; [repeat step H; injection H as <-; auto|].
  destruct (2 * af + 1 <=? _)%nat; [|injection H as <-; auto]. repeat step H. destruct (_ =? _)%nat; [repeat step H|]; injection H as <-; auto.
Qed.

(** a property [Q k s] of the object that every pass keeps, and the pass over entry idx moves from k to k' *)
Section Pass.
Context (upd : @cfg A -> @rt A -> nat -> nat -> res (@rt A)) (c : @cfg A) (idx af : nat) (Q Q' : @rt A -> Prop).
Hypothesis Hfr : frame upd.
Let body := fun (s : @rt A) j => upd c s j (nth j (rafs s) 0%nat).
Lemma loop_frame l : forall s s', foldM body l s = Ok s' -> rx s' = rx s /\ rafs s' = rafs s.
Proof using Hfr.
  induction l as [|j l IH]; intros s s' H; cbn [foldM] in H; [injection H as <-; auto|].
  destruct (body s j) as [s1|] eqn:E; [|discriminate]. cbn [bind] in H. destruct (Hfr _ _ _ _ _ E) as [E1 E2]. destruct (IH _ _ H) as [E3 E4]. split; congruence.
Qed.
Lemma loop_keep (R : @rt A -> Prop) l : (forall s j s', In j l -> body s j = Ok s' -> R s -> R s') -> forall s s', foldM body l s = Ok s' -> R s -> R s'.
Proof using Type.
  induction l as [|j l IH]; intros HR s s' H Hs; cbn [foldM] in H; [now injection H as <-|].
  destruct (body s j) as [s1|] eqn:E; [|discriminate]. cbn [bind] in H. apply (IH (fun s j s' Hj => HR s j s' (or_intror Hj)) s1 s' H).
  apply (HR s j s1); auto. now left.
Qed.
Lemma loop_app l1 l2 s s' : foldM body (l1 ++ l2) s = Ok s' -> exists s1, foldM body l1 s = Ok s1 /\ foldM body l2 s1 = Ok s'.
Proof using Type.
  revert s. induction l1 as [|j l1 IH]; intros s H; cbn [app foldM] in *; [now exists s|].
  destruct (body s j) as [s1|]; [|discriminate]. cbn [bind] in *. auto.
Qed.
Lemma pass (s s' : @rt A) n : nth idx (rafs s) 0%nat = af -> (idx < n)%nat ->
  (forall s1 j s2, j <> idx -> upd c s1 j (nth j (rafs s1) 0%nat) = Ok s2 -> Q s1 -> Q s2) ->
  (forall s1 j s2, j <> idx -> upd c s1 j (nth j (rafs s1) 0%nat) = Ok s2 -> Q' s1 -> Q' s2) ->
  (forall s1 s2, rx s1 = rx s -> upd c s1 idx af = Ok s2 -> Q s1 -> Q' s2) ->
  foldM body (seq 0 n) s = Ok s' -> Q s -> Q' s'.
Proof using Hfr.
  intros Haf Hn HQ HQ' Hs H H0. replace (seq 0 n) with (seq 0 idx ++ idx :: seq (Datatypes.S idx) (n - idx - 1)) in H.
  2:{ replace n with (idx + Datatypes.S (n - idx - 1))%nat at 2 by lia. rewrite seq_app. reflexivity. }
  apply loop_app in H as (s1 & E1 & H). destruct (loop_frame _ _ _ E1) as [X1 F1]. apply (loop_keep Q) in E1; [|intros a j b Hj; apply HQ; apply in_seq in Hj; lia|exact H0].
  cbn [foldM] in H. destruct (body s1 idx) as [s2|] eqn:E2; [|discriminate]. cbn [bind] in H. unfold body in E2. rewrite F1, Haf in E2.
  apply (loop_keep Q') in H; [exact H|intros a j b Hj; apply HQ'; apply in_seq in Hj; lia|]. apply (Hs s1 s2); auto.
Qed.
End Pass.

Definition grown (s : @rt A) (v : A) : @rt A := mkrt (rx s ++ [v]) (rafs s) (rS s) (rSo s) (rdev s) (af_idx s) (af_decade s).
Lemma add_phase_split upd c s v s' : add_phase upd c s v = Ok s' ->
  exists s1, foldM (fun s j => upd c s j (nth j (rafs s) 0%nat)) (seq 0 (len (rafs s))) (grown s v) = Ok s1 /\
    (s' = s1 \/ exists a i d, s' = mkrt (rx s1) (rafs s1 ++ [a]) (rS s1 ++ [ofZ 0]) (rSo s1 ++ [ofZ 0]) (rdev s1 ++ [ofZ 0]) i d).
Proof using Type.
  unfold add_phase. fold (grown s v). cbv zeta. change (rafs (grown s v)) with (rafs s). intros H. step H. rename a into s1. exists s1. split; [reflexivity|].
  destruct (auto_afs c); [|injection H as <-; now left]. unfold update_af in H. destruct (next_slot c s1) as [i d]. step H.
  destruct (_ <=? _)%Z; injection H as <-; [right; eauto|now left].
Qed.

(** ** oadev_realtime and ohdev_realtime: accumulator and deviation *)
Definition gone (s : @rt A) (i : nat) : Prop := nan_at (rS s) i /\ nan_at (rdev s) i.
(** the newest window of factor af in the record x holds a NaN *)
Definition newest (k af : nat) (x : list A) : Prop := exists i, (i <= k)%nat /\ bad (nth (len x - 1 - i * af) x (ofZ 0)).

Lemma oadev_upd_gone c s j af s' i : oadev_upd c s j af = Ok s' -> (j = i -> gone s i \/ ((2 * af < len (rx s))%nat /\ newest 2 af (rx s))) ->
  (j <> i -> gone s i) -> gone s' i.
Proof using S.
  intros H Hi Hn. unfold oadev_upd in H. destruct (Nat.leb_spec (2 * af + 1) (len (rx s))) as [L|L].
  - repeat step H. injection H as <-. unfold gone. cbn [rS rdev].
    assert (B : i = j -> bad (a + nsq (back s 0 - ofZ 2 * back s af + back s (2 * af)))).
    { intros ->. apply bad_add. destruct (Hi eq_refl) as [[G _]|[_ (k & Hk & G)]]; [left; exact (nan_at_get _ _ _ G E)|right]. apply (bad_nsq S). unfold back.
      destruct k as [|[|[|k]]]; [| | |lia]; [apply bad_add; left; apply bad_sub; left|apply bad_add; left; apply bad_sub; right; apply bad_mul; right|apply bad_add; right].
      - exact G.
      - now rewrite Nat.mul_1_l in G.
      - exact G. }
    split; [apply (nan_at_set _ _ _ _ _ E0)|apply (nan_at_set _ _ _ _ _ E1)].
    + exact B.
    + intros N. apply Hn; auto.
    + intros Ei. apply (ns_sqrt _ S). apply bad_mul. right. now apply B.
    + intros N. apply Hn; auto.
  - injection H as <-. destruct (Nat.eq_dec j i) as [Ei|N]; [|now apply Hn]. destruct (Hi Ei) as [G|[C _]]; [exact G|lia].
Qed.
Lemma ohdev_upd_gone c s j af s' i : ohdev_upd c s j af = Ok s' -> (j = i -> gone s i \/ ((3 * af < len (rx s))%nat /\ newest 3 af (rx s))) ->
  (j <> i -> gone s i) -> gone s' i.
Proof using S.
  intros H Hi Hn. unfold ohdev_upd in H. destruct (Nat.ltb_spec (3 * af) (len (rx s))) as [L|L].
  - repeat step H. injection H as <-. unfold gone. cbn [rS rdev].
    assert (B : i = j -> bad (a + nsq (back s 0 - ofZ 3 * back s af + ofZ 3 * back s (2 * af) - back s (3 * af)))).
    { intros ->. apply bad_add. destruct (Hi eq_refl) as [[G _]|[_ (k & Hk & G)]]; [left; exact (nan_at_get _ _ _ G E)|right]. apply (bad_nsq S). unfold back.
      apply bad_sub. destruct k as [|[|[|[|k]]]]; [left|left|left|right|lia]; [apply bad_add; left; apply bad_sub; left|apply bad_add; left; apply bad_sub; right; apply bad_mul; right|apply bad_add; right; apply bad_mul; right|].
      - exact G.
      - now rewrite Nat.mul_1_l in G.
      - exact G.
      - exact G. }
    split; [apply (nan_at_set _ _ _ _ _ E0)|apply (nan_at_set _ _ _ _ _ E1)].
    + exact B.
    + intros N. apply Hn; auto.
    + intros Ei. apply (ns_sqrt _ S). apply bad_mul. right. now apply B.
    + intros N. apply Hn; auto.
  - injection H as <-. destruct (Nat.eq_dec j i) as [Ei|N]; [|now apply Hn]. destruct (Hi Ei) as [G|[C _]]; [exact G|lia].
Qed.

Section Forever.
Context (upd : @cfg A -> @rt A -> nat -> nat -> res (@rt A)) (k : nat).
Hypothesis Hfr : frame upd.
Hypothesis Hup : forall c s j af s' i, upd c s j af = Ok s' -> (j = i -> gone s i \/ ((k * af < len (rx s))%nat /\ newest k af (rx s))) -> (j <> i -> gone s i) -> gone s' i.
Lemma gone_step c s v s' i : add_phase upd c s v = Ok s' -> gone s i -> gone s' i.
Proof using Hup.
  intros H G. apply add_phase_split in H as (s1 & H & Hs). apply (loop_keep upd c (fun s => gone s i)) in H.
  - destruct Hs as [->|(a & p & d & ->)]; [exact H|]. destruct H as [H1 H2]. split; now apply nan_at_app.
  - intros a j b _ Hb Ha. eapply Hup; [exact Hb| |]; auto.
  - exact G.
Qed.
Lemma gone_run c vs : forall s s' i, run (add_phase upd) c s vs = Ok s' -> gone s i -> gone s' i.
Proof using Hup.
  unfold run. induction vs as [|v vs IH]; intros s s' i H G; cbn [foldM] in H; [now injection H as <-|].
  destruct (add_phase upd c s v) as [s1|] eqn:E; [|discriminate]. cbn [bind] in H. apply (IH s1 s' i H). eapply gone_step; eauto.
Qed.
Lemma gone_from c s v s1 vs s' i : (i < len (rafs s))%nat -> (k * nth i (rafs s) 0%nat <= len (rx s))%nat -> newest k (nth i (rafs s) 0%nat) (rx s ++ [v]) ->
  add_phase upd c s v = Ok s1 -> run (add_phase upd) c s1 vs = Ok s' -> nan_at (rt_devs s') i.
Proof using All.
  intros Hi Hk Hn H Hr. apply (gone_run c vs s1 s' i Hr). clear Hr vs s'. apply add_phase_split in H as (s2 & H & Hs).
  assert (G : gone s2 i).
  { apply (pass upd c i (nth i (rafs s) 0%nat) (fun _ => True) (fun s => gone s i) Hfr (grown s v) s2 (len (rafs s))) in H; auto.
    - intros a j b Hj Hb Ha. eapply Hup; [exact Hb|intros C; congruence|auto].
    - intros a b Hx Hb _. eapply Hup; [exact Hb| |congruence]. intros _. right. rewrite Hx. cbn [rx grown]. split; [rewrite app_length; cbn; lia|exact Hn]. }
  destruct Hs as [->|(a & p & d & ->)]; [exact G|]. destruct G as [H1 H2]. split; now apply nan_at_app.
Qed.
End Forever.

(** ** tdev_realtime: first the window sum, from 3 af samples on also the other two *)
Definition gone_t (af n : nat) (s : @rt A) (i : nat) : Prop := nan_at (rS s) i /\ ((3 * af <= n)%nat -> nan_at (rSo s) i /\ nan_at (rdev s) i).
Lemma tdev_upd_other c s j af s' af' n i : tdev_upd c s j af = Ok s' -> j <> i -> gone_t af' n s i -> gone_t af' n s' i.
Proof using Type.
  intros H N [G1 G2]. unfold tdev_upd in H. cbv zeta in H. destruct (3 * af + 1 <=? _)%nat.
  - repeat step H. injection H as <-. split; cbn [rS rSo rdev]; [apply (nan_at_set _ _ _ _ _ E0); auto; congruence|]. intros L. destruct (G2 L).
    split; [apply (nan_at_set _ _ _ _ _ E2)|apply (nan_at_set _ _ _ _ _ E3)]; auto; congruence.
  - destruct (2 * af + 1 <=? _)%nat; [|injection H as <-; split; auto]. repeat step H. destruct (_ =? _)%nat; [repeat step H|]; injection H as <-; split; cbn [rS rSo rdev].
    + apply (nan_at_set _ _ _ _ _ E0); auto; congruence.
    + intros L. destruct (G2 L). split; [apply (nan_at_set _ _ _ _ _ E1)|apply (nan_at_set _ _ _ _ _ E2)]; auto; congruence.
    + apply (nan_at_set _ _ _ _ _ E0); auto; congruence.
    + exact G2.
Qed.
Lemma bad_tdev_value n af v : bad v -> bad (tdev_value n af v).
Proof using S. intros H. apply (ns_sqrt _ S). apply bad_mul. now right. Qed.
Lemma tdev_upd_gone c s af s' i : (1 <= af)%nat -> tdev_upd c s i af = Ok s' ->
  gone_t af (len (rx s) - 1) s i \/ ((2 * af < len (rx s))%nat /\ newest (if (3 * af <? len (rx s))%nat then 3 else 2) af (rx s)) -> gone_t af (len (rx s)) s' i.
Proof using S.
  intros H1 H HG. unfold tdev_upd in H. cbv zeta in H. destruct (Nat.leb_spec (3 * af + 1) (len (rx s))) as [L|L].
  - repeat step H. injection H as <-. destruct (Nat.ltb_spec (3 * af) (len (rx s))) as [_|]; [|lia].
    assert (B : bad (a + (ofZ (-1) * back s (3 * af) + ofZ 3 * back s (2 * af) - ofZ 3 * back s af + back s 0))).
    { apply bad_add. destruct HG as [[G _]|[_ (k & Hk & G)]]; [left; exact (nan_at_get _ _ _ G E)|right]. unfold back.
      destruct k as [|[|[|[|k]]]]; [| | | |lia]; [apply bad_add; right|apply bad_add; left; apply bad_sub; right; apply bad_mul; right|
        apply bad_add; left; apply bad_sub; left; apply bad_add; right; apply bad_mul; right|apply bad_add; left; apply bad_sub; left; apply bad_add; left; apply bad_mul; right].
      - exact G.
      - now rewrite Nat.mul_1_l in G.
      - exact G.
      - exact G. }
    assert (B2 : bad (a1 + nsq (a + (ofZ (-1) * back s (3 * af) + ofZ 3 * back s (2 * af) - ofZ 3 * back s af + back s 0)))) by (apply bad_add; right; now apply (bad_nsq S)).
    split; cbn [rS rSo rdev]; [apply (nan_at_set _ _ _ _ _ E0); [intros; exact B|congruence]|]. intros _.
    split; [apply (nan_at_set _ _ _ _ _ E2)|apply (nan_at_set _ _ _ _ _ E3)]; try congruence; intros _; now apply bad_tdev_value.
  - destruct (Nat.leb_spec (2 * af + 1) (len (rx s))) as [L2|L2].
    + step H. step H. destruct (Nat.ltb_spec (3 * af) (len (rx s))) as [|_]; [lia|].
      assert (B : bad (a + back s 0 - ofZ 2 * back s af + back s (2 * af))).
      { destruct HG as [[G _]|[_ (k & Hk & G)]]; [apply bad_add; left; apply bad_sub; left; apply bad_add; left; exact (nan_at_get _ _ _ G E)|].
        unfold back. destruct k as [|[|[|k]]]; [| | |lia]; [apply bad_add; left; apply bad_sub; left; apply bad_add; right|apply bad_add; left; apply bad_sub; right; apply bad_mul; right|apply bad_add; right].
        - exact G.
        - now rewrite Nat.mul_1_l in G.
        - exact G. }
      destruct (Nat.eqb_spec (len (rx s)) (3 * af)) as [E3|E3]; [repeat step H|]; injection H as <-; split; cbn [rS rSo rdev].
      * apply (nan_at_set _ _ _ _ _ E0); [intros; exact B|congruence].
      * intros _. split; [apply (nan_at_set _ _ _ _ _ E1)|apply (nan_at_set _ _ _ _ _ E2)]; try congruence; intros _; [now apply (bad_nsq S)|apply bad_tdev_value; now apply (bad_nsq S)].
      * apply (nan_at_set _ _ _ _ _ E0); [intros; exact B|congruence].
      * intros C. lia.
    + injection H as <-. destruct HG as [[G G2]|[C _]]; [|lia]. split; [exact G|]. intros C. lia.
Qed.
Lemma gone_t_pass c s v s' i af : (1 <= af)%nat -> (i < len (rafs s))%nat -> nth i (rafs s) 0%nat = af -> add_phase tdev_upd c s v = Ok s' ->
  gone_t af (len (rx s)) s i \/ ((2 * af <= len (rx s))%nat /\ newest (if (3 * af <=? len (rx s))%nat then 3 else 2) af (rx s ++ [v])) ->
  gone_t af (len (rx s')) s' i /\ (i < len (rafs s'))%nat /\ nth i (rafs s') 0%nat = af.
Proof using S.
  intros H1 Hi Haf H HG. apply add_phase_split in H as (s2 & H & Hs).
  destruct (loop_frame tdev_upd c tdev_frame _ _ _ H) as [X F]. cbn [grown rx rafs] in X, F.
  assert (L : len (rx s ++ [v]) = Datatypes.S (len (rx s))) by (rewrite app_length; cbn; lia).
  assert (G : gone_t af (len (rx s2)) s2 i).
  { rewrite X. apply (pass tdev_upd c i af (fun s1 => gone_t af (len (rx s)) s1 i \/ ((2 * af <= len (rx s))%nat /\ newest (if (3 * af <=? len (rx s))%nat then 3 else 2) af (rx s ++ [v])))
      (fun s1 => gone_t af (len (rx s ++ [v])) s1 i) tdev_frame (grown s v) s2 (len (rafs s))) in H; auto.
    - intros a j b Hj Hb [Ha|Ha]; [left|now right]. eapply tdev_upd_other; eauto.
    - intros a j b Hj Hb Ha. eapply tdev_upd_other; eauto.
    - intros a b Hx Hb Ha. cbn [grown rx] in Hx. rewrite <- Hx. apply (tdev_upd_gone c a af b i H1 Hb). rewrite Hx, L.
      replace (Datatypes.S (len (rx s)) - 1)%nat with (len (rx s)) by lia. destruct Ha as [Ha|[Ha Hb']]; [now left|right]. split; [lia|].
      destruct (Nat.leb_spec (3 * af) (len (rx s))); destruct (Nat.ltb_spec (3 * af) (Datatypes.S (len (rx s)))); try lia; exact Hb'. }
  destruct Hs as [->|(a & p & d & ->)]; [rewrite F; auto|]. cbn [rx rS rSo rdev rafs]. rewrite F. split; [|split].
  - destruct G as [G1 G2]. split; cbn [rS rSo rdev]; [now apply nan_at_app|]. intros C. destruct (G2 C). split; now apply nan_at_app.
  - rewrite app_length. lia.
  - rewrite app_nth1 by exact Hi. exact Haf.
Qed.
Lemma gone_t_run c vs : forall s s' i af, (1 <= af)%nat -> (i < len (rafs s))%nat -> nth i (rafs s) 0%nat = af -> run (add_phase tdev_upd) c s vs = Ok s' ->
  gone_t af (len (rx s)) s i -> gone_t af (len (rx s')) s' i.
Proof using S.
  unfold run. induction vs as [|v vs IH]; intros s s' i af H1 Hi Haf H G; cbn [foldM] in H; [now injection H as <-|].
  destruct (add_phase tdev_upd c s v) as [s1|] eqn:E; [|discriminate]. cbn [bind] in H.
  destruct (gone_t_pass c s v s1 i af H1 Hi Haf E (or_introl G)) as (G1 & Hi1 & Ha1). eapply IH; eauto.
Qed.

(** Whatever the object's configuration (automatic factors included) and state: if the window which sample v
    completes for the factor of entry i holds a NaN, entry i of the deviations is NaN from then on, whatever
    samples vs follow.  For tdev_realtime, whose deviation only exists from 3 af samples on, from then on. *)
Theorem C106_forever c (s s1 s' : @rt A) v vs i : (i < len (rafs s))%nat -> let af := nth i (rafs s) 0%nat in let x := rx s ++ [v] in
  (2 * af < len x -> newest 2 af x -> oadev_add_phase c s v = Ok s1 -> run oadev_add_phase c s1 vs = Ok s' -> nan_at (rt_devs s') i)%nat /\
  (3 * af < len x -> newest 3 af x -> ohdev_add_phase c s v = Ok s1 -> run ohdev_add_phase c s1 vs = Ok s' -> nan_at (rt_devs s') i)%nat /\
  (1 <= af -> 2 * af < len x -> newest (if 3 * af <? len x then 3 else 2) af x -> tdev_add_phase c s v = Ok s1 -> run tdev_add_phase c s1 vs = Ok s' ->
     3 * af <= len x + len vs -> nan_at (rt_devs s') i)%nat.
Proof using S.
  intros Hi af x. assert (L : len x = Datatypes.S (len (rx s))) by (unfold x; rewrite app_length; cbn; lia). split; [|split].
  - intros H2 Hn H Hr. apply (gone_from oadev_upd 2 oadev_frame oadev_upd_gone c s v s1 vs s' i Hi); auto. fold af. lia.
  - intros H2 Hn H Hr. apply (gone_from ohdev_upd 3 ohdev_frame ohdev_upd_gone c s v s1 vs s' i Hi); auto. fold af. lia.
  - intros H1 H2 Hn H Hr H3. destruct (gone_t_pass c s v s1 i af H1 Hi eq_refl H) as (G & Hi1 & Ha1).
    { right. split; [lia|]. fold x. destruct (Nat.leb_spec (3 * af) (len (rx s))); destruct (Nat.ltb_spec (3 * af) (len x)); try lia; exact Hn. }
    pose proof (gone_t_run c vs s1 s' i af H1 Hi1 Ha1 Hr G) as [_ G']. apply G'.
    assert (X : forall vs (s s' : @rt A), run tdev_add_phase c s vs = Ok s' -> len (rx s') = (len (rx s) + len vs)%nat).
    { clear. unfold run. induction vs as [|v vs IH]; intros s s' H; cbn [foldM] in H; [injection H as <-; cbn; lia|].
      destruct (tdev_add_phase c s v) as [s1|] eqn:E; [|discriminate]. cbn [bind] in H. rewrite (IH _ _ H).
      rewrite (add_phase_x tdev_upd c s v s1 tdev_keeps E), app_length. cbn. lia. }
    rewrite (X _ _ _ Hr). rewrite (add_phase_x tdev_upd c s v s1 tdev_keeps H). fold x. exact H3.
Qed.
End Nan.
Print Assumptions C106_unaffected.
Print Assumptions C106_reaches.
Print Assumptions C106_mdev.
Print Assumptions C106_frequency.
Print Assumptions C106_forever.

(** binary64 *)
Local Open Scope float_scope.
Definition samples : list float := [0; 1; 4; nan; 16; 0; 3; 5; 2; 1].
Definition clean : list float := [0; 1; 4; 2; 16; 0; 3; 5; 2; 1].
Definition shown (r : res (@rt float)) : list bool := match r with Ok s => map PrimFloat.is_nan (rt_devs s) | Err _ => [] end.
(** ten samples, the one at 3 missing: lost for factors 1, 2, 3 of oadev, not for 4; after 20 more samples for 4 as well *)
Example C106_ex : nisnan (nth 3 samples (ofZ 0)) = true /\
  shown (run oadev_add_phase (mkcfg 1 false []) (rt_init (mkcfg 1 false []) [1; 2; 3; 4]%nat) samples) = [true; true; true; false] /\
  shown (run oadev_add_phase (mkcfg 1 false []) (rt_init (mkcfg 1 false []) [1; 2; 3; 4]%nat) (samples ++ clean ++ clean)) = [true; true; true; true] /\
  shown (run ohdev_add_phase (mkcfg 1 false []) (rt_init (mkcfg 1 false []) [1; 2; 3; 4]%nat) samples) = [true; true; true; false] /\
  shown (run tdev_add_phase (mkcfg 1 false []) (rt_init (mkcfg 1 false []) [1; 2; 3; 4]%nat) samples) = [true; true; true; false] /\
  shown (run (add_frequency oadev_add_phase) (mkcfg 1 false []) (rt_init (mkcfg 1 false []) [1; 2; 5; 6]%nat) samples) = [true; true; true; false].
Proof. vm_compute. repeat split. Qed.
(** automatic factors, here 1, 2, 4, 10: a factor appended later never sees the first sample, but does see the one at 3 *)
Example C106_ex_auto : let c := mkcfg 1 true [1; 2; 4] in
  shown (run oadev_add_phase c (rt_init c [1%nat]) (nan :: clean ++ clean ++ clean)) = [true; false; false; false] /\
  shown (run oadev_add_phase c (rt_init c [1%nat]) (samples ++ clean ++ clean ++ clean)) = [true; true; true; true] /\
  newest 2 4 (samples ++ [0; 0]).
Proof. vm_compute. repeat split. now exists 2%nat. Qed.
