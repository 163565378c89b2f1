(** * Proofs about mtie_phase_fast, tau_reduction and three_cornered_hat_phase. *)
From Coq Require Import String Reals List ZArith Lra Lia Arith Bool Sorted.
From Verif Require Import Base Num NpList ModelCore ModelDev ModelMisc NumR ListFacts Spec RSum TauProofs DevProofs TotProofs
  GenericProofs Closed Laws Laws2 Laws3 Laws4.
Import ListNotations.
Local Open Scope R_scope.
Local Notation len := List.length.

(** ** mtie_phase_fast *)
Lemma pymax2_R a b : pymax2 a b = Rmax a b.
Proof. unfold pymax2. cbn. unfold Rltb, Rmax. destruct (Rlt_dec a b), (Rle_dec a b); lra. Qed.
Lemma pymin2_R a b : pymin2 a b = Rmin a b.
Proof. unfold pymin2. cbn. unfold Rltb, Rmin. destruct (Rlt_dec b a), (Rle_dec a b); lra. Qed.

(** max / min over the 2^k points from i *)
Fixpoint wmax (f : nat -> R) (k i : nat) : R :=
  match k with O => f i | S k' => Rmax (wmax f k' i) (wmax f k' (i + 2 ^ k')) end.
Fixpoint wmin (f : nat -> R) (k i : nat) : R :=
  match k with O => f i | S k' => Rmin (wmin f k' i) (wmin f k' (i + 2 ^ k')) end.

Lemma wmax_spec f k : forall i, (forall j, (i <= j < i + 2 ^ k)%nat -> f j <= wmax f k i) /\
  exists j, (i <= j < i + 2 ^ k)%nat /\ f j = wmax f k i.
Proof.
  induction k as [|k IH]; intros i; cbn [wmax].
  - cbn. split; [intros j Hj; replace j with i by lia; lra|]. exists i. split; [lia|reflexivity].
  - destruct (IH i) as [H1 (j1 & Hj1 & E1)]. destruct (IH (i + 2 ^ k)%nat) as [H2 (j2 & Hj2 & E2)].
    cbn [Nat.pow]. split.
    + intros j Hj. destruct (le_lt_dec (i + 2 ^ k) j).
      * eapply Rle_trans; [apply H2; lia|apply Rmax_r].
      * eapply Rle_trans; [apply H1; lia|apply Rmax_l].
    + destruct (Rle_dec (wmax f k i) (wmax f k (i + 2 ^ k))).
      * exists j2. split; [lia|]. rewrite Rmax_right; assumption.
      * exists j1. split; [lia|]. rewrite Rmax_left; [assumption|lra].
Qed.

Lemma wmin_spec f k : forall i, (forall j, (i <= j < i + 2 ^ k)%nat -> wmin f k i <= f j) /\
  exists j, (i <= j < i + 2 ^ k)%nat /\ f j = wmin f k i.
Proof.
  induction k as [|k IH]; intros i; cbn [wmin].
  - cbn. split; [intros j Hj; replace j with i by lia; lra|]. exists i. split; [lia|reflexivity].
  - destruct (IH i) as [H1 (j1 & Hj1 & E1)]. destruct (IH (i + 2 ^ k)%nat) as [H2 (j2 & Hj2 & E2)].
    cbn [Nat.pow]. split.
    + intros j Hj. destruct (le_lt_dec (i + 2 ^ k) j).
      * eapply Rle_trans; [apply Rmin_r|apply H2; lia].
      * eapply Rle_trans; [apply Rmin_l|apply H1; lia].
    + destruct (Rle_dec (wmin f k i) (wmin f k (i + 2 ^ k))).
      * exists j1. split; [lia|]. rewrite Rmin_left; assumption.
      * exists j2. split; [lia|]. rewrite Rmin_right; [assumption|lra].
Qed.

Definition fast_dev (f : nat -> R) (N k : nat) : R := lmax (tab (N + 1 - 2 ^ k) (fun i => wmax f k i - wmin f k i)).

Lemma fast_dev_is (x : list R) k : (1 <= 2 ^ k <= len x)%nat ->
  is_mtie x (2 ^ k - 1) (fast_dev (fun i => x.[i]) (len x) k).
Proof.
  intros Hk. set (f := fun i => x.[i]). unfold fast_dev. set (n := (len x + 1 - 2 ^ k)%nat).
  destruct (lmax_spec (tab n (fun i => wmax f k i - wmin f k i)) (tab_nonnil n _ ltac:(unfold n; lia))) as [Hin Hub].
  set (v := lmax _) in *. clearbody v. split.
  - intros j l Hj Hl H1 H2.
    set (i := Nat.min (Nat.min j l) (len x - 2 ^ k)).
    apply Rle_trans with (wmax f k i - wmin f k i).
    + destruct (wmax_spec f k i) as [Hx _]. destruct (wmin_spec f k i) as [Hn _].
      pose proof (Hx j ltac:(unfold i; lia)). pose proof (Hn l ltac:(unfold i; lia)). unfold f in *. lra.
    + apply Hub. apply in_tab. exists i. split; [unfold i, n; lia|reflexivity].
  - apply in_tab in Hin as (i & Hi & ->). unfold n in Hi.
    destruct (wmax_spec f k i) as [_ (j & Hj & <-)]. destruct (wmin_spec f k i) as [_ (l & Hl & <-)].
    exists j, l. repeat split; try lia.
Qed.

Lemma pyget_list (l : list R) (i : nat) : (i < len l)%nat -> pyget l (Z.of_nat i) = Ok l.[i].
Proof.
  intros H. unfold pyget. destruct (Z.ltb_spec (Z.of_nat i) 0); [lia|].
  destruct (Z.ltb_spec (Z.of_nat i) 0); [lia|]. rewrite Nat2Z.id. now rewrite (nth_error_nth' l 0 H).
Qed.

Lemma nth_pad (n : nat) (g : nat -> R) pad i : (i < n)%nat -> (tab n g ++ pad).[i] = g i.
Proof. intros H. rewrite app_nth1 by (rewrite tab_length; lia). now apply nth_tab. Qed.

Lemma pow2_pos k : (1 <= 2 ^ k)%nat.
Proof. induction k; cbn; lia. Qed.

Lemma fast_fold (x : list R) K : len x = (2 ^ K)%nat -> forall k, (k <= K)%nat ->
  exists pm pn, foldM (fast_step x) (seq 0 k) ([], [], []) =
    Ok (pm, pn, tab k (fun j => (fast_dev (fun i => x.[i]) (len x) (S j), Z.of_nat (len x + 1 - 2 ^ S j)))) /\
  ((1 <= k)%nat -> exists pad, (len x - 1 = len x + 1 - 2 ^ k + len pad)%nat /\
     pm = tab (len x + 1 - 2 ^ k) (wmax (fun i => x.[i]) k) ++ pad /\
     pn = tab (len x + 1 - 2 ^ k) (wmin (fun i => x.[i]) k) ++ pad).
Proof.
  intros Hx. set (f := fun i => x.[i]). induction k as [|k IH]; intros Hk.
  - exists [], []. split; [reflexivity|lia].
  - destruct (IH ltac:(lia)) as (pm & pn & He & Hp). clear IH.
    rewrite seq_S, (foldM_app (fast_step x)), He. cbn [bind foldM Nat.add].
    assert (Hpow : (2 ^ S k <= len x)%nat) by (rewrite Hx; apply Nat.pow_le_mono_r; lia).
    pose proof (pow2_pos k) as Hp1.
    unfold fast_step. replace (k + 1)%nat with (S k) by lia.
    set (n := (len x + 1 - 2 ^ S k)%nat).
    rewrite (mapM_Ok _ (fun i => (wmax f (S k) i, wmin f (S k) i))).
    + cbn [bind]. rewrite !map_map. cbn [fst snd].
      fold (tab n (fun i => wmax f (S k) i)). fold (tab n (fun i => wmin f (S k) i)).
      fold (tab n (fun i => (wmax f (S k) i - wmin f (S k) i)%num)).
      rewrite npmax_R by (apply tab_nonnil; unfold n; lia). cbn [bind].
      eexists _, _. split.
      * f_equal. f_equal. rewrite tab_snoc. reflexivity.
      * intros _. exists (repeat 0 (len x - 1 - n)). rewrite repeat_length.
        split; [|split; reflexivity]. fold n. cbn [Nat.pow] in *. unfold n. cbn [Nat.pow]. lia.
    + intros i Hi. apply in_seq in Hi. unfold fast_entry.
      destruct (Nat.eqb_spec (S k) 1) as [E|E].
      * assert (k = 0%nat) as -> by lia. cbn [Nat.pow] in *.
        replace (Z.of_nat i + 1)%Z with (Z.of_nat (i + 1)) by lia.
        rewrite !pyget_list by (unfold n in Hi; lia). cbn [bind].
        rewrite pymax2_R, pymin2_R. reflexivity.
      * destruct (Hp ltac:(lia)) as (pad & Hl & -> & ->).
        replace (S k - 1)%nat with k by lia. cbn [Nat.pow] in *.
        rewrite !pyget_list by (rewrite ?app_length, tab_length; unfold n in Hi; lia). cbn [bind].
        rewrite !nth_pad by (unfold n in Hi; lia). rewrite pymax2_R, pymin2_R. reflexivity.
Qed.

Lemma mtie_fast_spec (x : list R) rate dt taus K : (2 ^ K <= len x < 2 ^ S K)%nat -> (2 <= K)%nat ->
  let y := firstn (2 ^ K) x in let ks := seq 1 (K - 1) in
  exists dev, (forall k, In k ks -> is_mtie y (2 ^ k - 1) (dev k)) /\
  mtie_phase_fast x rate dt taus =
   Ok (map (fun k => INR (2 ^ (k - 1))) ks, map dev ks, EArr (map (fun _ => 0) ks),
       map (fun k => Z.of_nat (2 ^ K - 2 ^ k + 1)) ks).
Proof.
  intros HK HK2 y ks. pose proof (pow2_pos K).
  assert (Hlog : Nat.log2 (len x) = K) by (apply Nat.log2_unique; cbn [Nat.pow] in *; lia).
  assert (Hy : len y = (2 ^ K)%nat) by (unfold y; rewrite firstn_length; lia).
  exists (fast_dev (fun i => y.[i]) (len y)). split.
  - intros k Hk. unfold ks in Hk. apply in_seq in Hk. apply fast_dev_is.
    pose proof (pow2_pos k). assert (2 ^ k <= 2 ^ K)%nat by (apply Nat.pow_le_mono_r; lia). lia.
  - unfold mtie_phase_fast. rewrite (proj2 (Nat.eqb_neq (len x) 0)) by lia. rewrite Hlog.
    unfold pyslice. rewrite Nat.sub_0_r. cbn [skipn]. fold y. rewrite Hy, Nat.eqb_refl. cbn [assert_ bind].
    destruct (fast_fold y K Hy K ltac:(lia)) as (pm & pn & -> & _). cbn [bind].
    rewrite !map_tab. cbn [fst snd]. rewrite repeat_tab. rewrite Hy.
    fold (tab K (fun k => @ofZ R RNum (Z.of_nat (2 ^ k)))).
    unfold remove_small_ns. rewrite map_tab.
    set (p := fun j => (1 <? Z.of_nat (2 ^ K + 1 - 2 ^ S j))%Z).
    unfold tab. rewrite !mask_select_map. cbn [bind].
    assert (Hf : filter p (seq 0 K) = seq 0 (K - 1)).
    { replace K with (S (K - 1)) at 1 by lia. rewrite seq_S, filter_app. cbn [filter Nat.add].
      replace (p (K - 1)%nat) with false.
      2:{ unfold p. symmetry. apply Z.ltb_ge. replace (S (K - 1)) with K by lia. lia. }
      rewrite app_nil_r.
      assert (G : forall l, (forall j, In j l -> p j = true) -> filter p l = l).
      { induction l as [|a l IHl]; intros Hl; [reflexivity|]. cbn. rewrite Hl by (cbn; auto). f_equal. apply IHl. intros; apply Hl; cbn; auto. }
      apply G. intros j Hj. apply in_seq in Hj. unfold p. apply Z.ltb_lt.
      assert (2 ^ S (S j) <= 2 ^ K)%nat by (apply Nat.pow_le_mono_r; lia). pose proof (pow2_pos (S j)). cbn [Nat.pow] in *. lia. }
    rewrite Hf. destruct (seq 0 (K - 1)) as [|j0 js] eqn:Es.
    { apply (f_equal (@len nat)) in Es. rewrite seq_length in Es. cbn in Es. lia. }
    cbn [map]. cbv iota.
    transitivity (Ok (map (fun k => INR (2 ^ (k - 1))) (map S (j0 :: js)),
      map (fast_dev (fun i => y.[i]) (2 ^ K)) (map S (j0 :: js)),
      EArr (map (fun _ : nat => 0) (map S (j0 :: js))), map (fun k => Z.of_nat (2 ^ K - 2 ^ k + 1)) (map S (j0 :: js)))).
    + rewrite !map_map. assert (Hin : forall j, In j (j0 :: js) -> (S j <= K)%nat).
      { intros j Hj. rewrite <- Es in Hj. apply in_seq in Hj. lia. }
      assert (Hn : map (fun j => Z.of_nat (2 ^ K + 1 - 2 ^ S j)) (j0 :: js) =
        map (fun j => Z.of_nat (2 ^ K - 2 ^ S j + 1)) (j0 :: js)).
      { apply map_ext_in. intros j Hj. apply Hin in Hj.
        assert (2 ^ S j <= 2 ^ K)%nat by (apply Nat.pow_le_mono_r; lia). f_equal. lia. }
      cbn [map] in Hn. 
      assert (Ht : map (fun j => INR (2 ^ (S j - 1))) (j0 :: js) = map (fun k => @ofZ R RNum (Z.of_nat (2 ^ k))) (j0 :: js)).
      { apply map_ext. intros j. cbn [ofZ RNum]. rewrite <- INR_IZR_INZ. f_equal. f_equal. lia. }
      cbn [map] in Ht |- *. rewrite Hn, Ht. reflexivity.
    + unfold ks. rewrite <- Es, seq_shift. reflexivity.
Qed.

Lemma mtie_fast_short (x : list R) rate dt taus : (len x < 4)%nat ->
  mtie_phase_fast x rate dt taus = Err (if Nat.eqb (len x) 0 then OverflowError else UserWarning).
Proof.
  intros H. destruct x as [|a [|b [|c [|d x]]]]; try reflexivity. cbn in H. lia.
Qed.

(** ** tau_reduction *)
Section TauReduction.
Variable r : Z -> Z.
Fixpoint kept (l : list Z) : list Z :=
  match l with
  | a :: ((b :: _) as t) => if (r b - r a =? 0)%Z then kept t else a :: kept t
  | _ => []
  end.

Lemma kept_sel (l : list Z) :
  let keep := map2 (fun b a => negb (r b - r a =? 0)%Z) (tl l) (removelast l) in
  len (removelast l) = len keep /\ mask_zip keep (removelast l) = kept l.
Proof.
  induction l as [|a [|b t] IH]; cbn -[Z.sub]; try (split; reflexivity).
  cbn -[Z.sub] in IH. destruct IH as [IH1 IH2]. split; [f_equal; exact IH1|].
  destruct (r b - r a =? 0)%Z; cbn; [exact IH2|f_equal; exact IH2].
Qed.

Lemma kept_incl l : forall m, In m (kept l) -> In m (removelast l).
Proof.
  induction l as [|a [|b t] IH]; intros m; try (cbn; tauto).
  cbn -[Z.sub kept removelast]. change (kept (a :: b :: t)) with (if (r b - r a =? 0)%Z then kept (b :: t) else a :: kept (b :: t)).
  change (removelast (a :: b :: t)) with (a :: removelast (b :: t)).
  destruct (r b - r a =? 0)%Z; [right; auto|intros [->|H]; [left; reflexivity|right; auto]].
Qed.

Lemma in_removelast {T} (l : list T) m : In m (removelast l) -> In m l.
Proof. induction l as [|a [|b t] IH]; cbn; tauto. Qed.

(** strictly increasing input, r monotone on it *)
Lemma kept_sorted l : StronglySorted Z.lt l ->
  (forall a b, In a l -> In b l -> (a <= b)%Z -> (r a <= r b)%Z) ->
  StronglySorted Z.lt (kept l) /\ StronglySorted (fun a b => (r a < r b)%Z) (kept l).
Proof.
  induction l as [|a [|b t] IH]; intros Hs Hm; try (cbn; split; constructor).
  apply StronglySorted_inv in Hs as [Hs Ha].
  destruct (IH Hs (fun u v Hu Hv => Hm u v (or_intror Hu) (or_intror Hv))) as [I1 I2].
  change (kept (a :: b :: t)) with (if (r b - r a =? 0)%Z then kept (b :: t) else a :: kept (b :: t)).
  destruct (Z.eqb_spec (r b - r a) 0) as [E|E]; [split; assumption|].
  assert (Hin : forall m, In m (kept (b :: t)) -> In m (b :: t)) by (intros m Hk; now apply in_removelast, kept_incl).
  rewrite Forall_forall in Ha.
  split; constructor; auto; apply Forall_forall; intros m Hk; specialize (Hin m Hk).
  - now apply Ha.
  - pose proof (Ha b (or_introl eq_refl)). pose proof (Hm a b (or_introl eq_refl) (or_intror (or_introl eq_refl)) ltac:(lia)).
    assert (b <= m)%Z. { apply StronglySorted_inv in Hs as [_ Hb]. rewrite Forall_forall in Hb. destruct Hin as [->|Hin]; [lia|]. specialize (Hb m Hin). lia. }
    pose proof (Hm b m (or_intror (or_introl eq_refl)) (or_intror Hin) ltac:(lia)). lia.
Qed.

Lemma kept_full K : kept (map Z.of_nat (seq 1 K)) =
  filter (fun m => negb (r (m + 1) - r m =? 0)%Z) (map Z.of_nat (seq 1 (K - 1))).
Proof.
  destruct K as [|K]; [reflexivity|]. replace (S K - 1)%nat with K by lia.
  generalize 1%nat. induction K as [|K IH]; intros s; [reflexivity|].
  rewrite <- cons_seq at 1. rewrite <- (cons_seq K s). cbn [map filter].
  rewrite <- (IH (S s)). rewrite <- (cons_seq K (S s)). cbn [map kept].
  replace (Z.of_nat s + 1)%Z with (Z.of_nat (S s)) by lia.
  destruct (_ =? 0)%Z; reflexivity.
Qed.
End TauReduction.

(** a list of integers increasing in r-value within [lo, hi] is short *)
Lemma bins_bound (r : Z -> Z) l : forall lo hi, StronglySorted (fun a b => (r a < r b)%Z) l ->
  (forall m, In m l -> (lo <= r m <= hi)%Z) -> (len l <= Z.to_nat (hi - lo + 1))%nat.
Proof.
  induction l as [|a l IH]; intros lo hi Hs Hb; [cbn; lia|].
  apply StronglySorted_inv in Hs as [Hs Ha]. rewrite Forall_forall in Ha.
  pose proof (Hb a (or_introl eq_refl)). cbn [len].
  specialize (IH (r a + 1)%Z hi Hs). 
  assert (len l <= Z.to_nat (hi - (r a + 1) + 1))%nat; [|lia].
  apply IH. intros m Hm. pose proof (Hb m (or_intror Hm)). specialize (Ha m Hm). cbn in Ha. lia.
Qed.

Lemma filter_sorted {T} (P : T -> T -> Prop) f l : StronglySorted P l -> StronglySorted P (filter f l).
Proof.
  induction 1 as [|a l Hs IH Ha]; [constructor|]. cbn. destruct (f a); [|exact IH].
  constructor; [exact IH|]. rewrite Forall_forall in *. intros x Hx. apply filter_In in Hx as [Hx _]. auto.
Qed.

Definition rbin (n m : Z) : Z := rintR (IZR n * log10R (IZR m)).

Lemma tau_reduction_kept (ms : list Z) rate n :
  tau_reduction log10R ms rate n = Ok (kept (rbin n) ms, map (fun m => IZR m / rate) (kept (rbin n) ms)).
Proof.
  unfold tau_reduction.
  destruct (kept_sel (rbin n) ms) as [H1 H2].
  assert (E : map2 (fun b a : Z => negb match nrint (ofZ n * log10R (ofZ b))%num with
      | Some u => match nrint (ofZ n * log10R (ofZ a))%num with Some v => (u - v =? 0)%Z | None => false end
      | None => match nrint (ofZ n * log10R (ofZ a))%num with Some _ => false | None => true end end) (tl ms) (removelast ms)
    = map2 (fun b a => negb (rbin n b - rbin n a =? 0)%Z) (tl ms) (removelast ms)) by reflexivity.
  cbv zeta. rewrite E. clear E. rewrite H1, Nat.eqb_refl. cbn [assert_ bind].
  unfold mask_select. rewrite H1, Nat.eqb_refl, H2. reflexivity.
Qed.

Lemma rintR_mono a b : a <= b -> (rintR a <= rintR b)%Z.
Proof.
  intros H. pose proof (rintR_spec a) as Ha. pose proof (rintR_spec b) as Hb.
  assert (Hle : forall x z, half_even x z -> -(1/2) <= x - IZR z <= 1/2).
  { intros x z [Hz|[Hz _]]; unfold Rabs in Hz; destruct (Rcase_abs _); lra. }
  pose proof (Hle _ _ Ha). pose proof (Hle _ _ Hb).
  destruct (Z_le_gt_dec (rintR a) (rintR b)) as [L|L]; [exact L|exfalso].
  assert (IZR (rintR b) + 1 <= IZR (rintR a)) by (rewrite <- plus_IZR; apply IZR_le; lia).
  assert (E : a = b) by lra. rewrite E in L. lia.
Qed.

Lemma ln10_pos : 0 < ln 10.
Proof. rewrite <- ln_1. apply ln_increasing; lra. Qed.

Lemma log10R_mono a b : 0 < a -> a <= b -> log10R a <= log10R b.
Proof.
  intros Ha H. unfold log10R. apply Rmult_le_compat_r; [left; apply Rinv_0_lt_compat, ln10_pos|].
  destruct H as [H| ->]; [left; now apply ln_increasing|lra].
Qed.

Lemma rbin_mono n a b : (0 <= n)%Z -> (1 <= a <= b)%Z -> (rbin n a <= rbin n b)%Z.
Proof.
  intros Hn Hab. apply rintR_mono. apply Rmult_le_compat_l; [now apply IZR_le|].
  apply log10R_mono; [apply IZR_lt; lia|apply IZR_le; lia].
Qed.

Lemma log10R_pow k : log10R (IZR (10 ^ Z.of_nat k)) = INR k.
Proof.
  unfold log10R. rewrite <- pow_IZR. rewrite ln_pow by lra. field. pose proof ln10_pos. lra.
Qed.

Lemma rbin_pow n k : rbin n (10 ^ Z.of_nat k) = (n * Z.of_nat k)%Z.
Proof. unfold rbin. rewrite log10R_pow, INR_IZR_INZ, <- mult_IZR. apply rintR_IZR. Qed.

Definition decade (k : nat) (m : Z) : bool := ((10 ^ Z.of_nat k <=? m) && (m <? 10 ^ Z.of_nat (S k)))%Z%bool.
Lemma decade_iff k m : decade k m = true <-> (10 ^ Z.of_nat k <= m < 10 ^ Z.of_nat (S k))%Z.
Proof. unfold decade. rewrite andb_true_iff, Z.leb_le, Z.ltb_lt. reflexivity. Qed.
Lemma pow10_ge1 k : (1 <= 10 ^ Z.of_nat k)%Z.
Proof. pose proof (Z.pow_pos_nonneg 10 (Z.of_nat k)). lia. Qed.

Lemma kept_general n ms : (0 <= n)%Z -> StronglySorted Z.lt ms -> (forall m, In m ms -> (1 <= m)%Z) ->
  StronglySorted Z.lt (kept (rbin n) ms) /\ (forall m, In m (kept (rbin n) ms) -> In m (removelast ms)) /\
  forall k, (len (filter (decade k) (kept (rbin n) ms)) <= Z.to_nat (n + 1))%nat.
Proof.
  intros Hn Hs Hp.
  destruct (kept_sorted (rbin n) ms Hs) as [H1 H2].
  { intros a b Ha _ Hab. apply rbin_mono; [exact Hn|]. specialize (Hp a Ha). lia. }
  split; [exact H1|]. split; [apply kept_incl|]. intros k.
  replace (n + 1)%Z with (n * Z.of_nat (S k) - n * Z.of_nat k + 1)%Z by lia.
  apply (bins_bound (rbin n)); [now apply filter_sorted|].
  intros m Hm. apply filter_In in Hm as [_ Hd]. apply decade_iff in Hd. pose proof (pow10_ge1 k).
  rewrite <- !rbin_pow. split; apply rbin_mono; lia.
Qed.

Lemma ofnat_seq_sorted s K : StronglySorted Z.lt (map Z.of_nat (seq s K)).
Proof.
  revert s. induction K; intros s; cbn; constructor; auto.
  apply Forall_forall. intros x Hx. apply in_map_iff in Hx as (j & <- & Hj). apply in_seq in Hj. lia.
Qed.

Lemma kept_full_decade n K k : (0 <= n)%Z ->
  (len (filter (decade k) (kept (rbin n) (map Z.of_nat (seq 1 K)))) <= Z.to_nat n)%nat.
Proof.
  intros Hn. set (ms := map Z.of_nat (seq 1 K)).
  assert (Hp : forall m, In m ms -> (1 <= m)%Z).
  { intros m Hm. apply in_map_iff in Hm as (j & <- & Hj). apply in_seq in Hj. lia. }
  destruct (kept_sorted (rbin n) ms (ofnat_seq_sorted 1 K)) as [_ H2].
  { intros a b Ha _ Hab. apply rbin_mono; [exact Hn|]. specialize (Hp a Ha). lia. }
  replace n with (n * Z.of_nat (S k) - 1 - n * Z.of_nat k + 1)%Z at 2 by lia.
  apply (bins_bound (rbin n)); [now apply filter_sorted|].
  intros m Hm. apply filter_In in Hm as [Hk Hd]. apply decade_iff in Hd. pose proof (pow10_ge1 k).
  rewrite <- !rbin_pow. split; [apply rbin_mono; lia|].
  unfold ms in Hk. rewrite kept_full in Hk. apply filter_In in Hk as [_ Hk]. apply negb_true_iff, Z.eqb_neq in Hk.
  pose proof (rbin_mono n m (m + 1) Hn ltac:(lia)).
  pose proof (rbin_mono n (m + 1) (10 ^ Z.of_nat (S k)) Hn ltac:(lia)). lia.
Qed.

Lemma kept_full_in n K m : In m (kept (rbin n) (map Z.of_nat (seq 1 K))) <->
  (1 <= m < Z.of_nat K)%Z /\ rbin n m <> rbin n (m + 1).
Proof.
  rewrite kept_full, filter_In, negb_true_iff, Z.eqb_neq. split.
  - intros [H1 H2]. apply in_map_iff in H1 as (j & <- & Hj). apply in_seq in Hj. split; lia.
  - intros [H1 H2]. split; [|lia]. apply in_map_iff. exists (Z.to_nat m). split; [lia|]. apply in_seq. lia.
Qed.

(** ** three_cornered_hat_phase *)
Lemma map2_sep {T A B C} (l : list T) (f : T -> A) (g : T -> B) (h : A -> B -> C) : map2 h (map f l) (map g l) = map (fun x => h (f x) (g x)) l.
Proof. induction l; cbn; [reflexivity|]. f_equal; assumption. Qed.

Definition hat (a b c : R) : R := sqrt (Rmax 0 ((a ^ 2 + c ^ 2 - b ^ 2) / 2)).

Lemma nsq_R (a : R) : nsq a = a ^ 2.
Proof. unfold nsq. cbn. ring. Qed.

Lemma clip_R (v : R) : (if nltb v (ofZ 0) then ofZ 0 else v) = Rmax 0 v.
Proof. cbn. unfold Rltb, Rmax. destruct (Rlt_dec v 0), (Rle_dec 0 v); lra. Qed.

Lemma tch_spec ab bc ca rate taus function tab_ dab eab nab tbc dbc ebc nbc tca dca eca nca :
  function ab rate "phase"%string taus = Ok (tab_, dab, eab, nab) ->
  function bc rate "phase"%string taus = Ok (tbc, dbc, ebc, nbc) ->
  function ca rate "phase"%string taus = Ok (tca, dca, eca, nca) ->
  len dbc = len dab -> len dca = len dab ->
  let dev := tab (len dab) (fun i => hat dab.[i] dbc.[i] dca.[i]) in
  three_cornered_hat_phase ab bc ca rate taus function =
   Ok (tab_, dev, EArr (map2 (fun d n => d / sqrt (IZR n)) dev nab), nab).
Proof.
  intros H1 H2 H3 L2 L3 dev. unfold three_cornered_hat_phase. rewrite H1, H2, H3. cbn [bind].
  rewrite !map_length, L2, L3, Nat.eqb_refl. cbn [andb assert_ bind].
  rewrite (list_tab dab 0), (list_tab dbc 0), (list_tab dca 0), L2, L3, !map_tab.
  unfold vadd, vsub. rewrite bmap2_tab. cbn [bind]. rewrite bmap2_tab. cbn [bind]. rewrite !map_tab.
  assert (E : tab (len dab) (fun i => nsqrt (if nltb (ofZ 1 / ofZ 2 * (nsq dab.[i] + nsq dca.[i] - nsq dbc.[i])) (ofZ 0)
     then ofZ 0 else ofZ 1 / ofZ 2 * (nsq dab.[i] + nsq dca.[i] - nsq dbc.[i])))%num = dev).
  { apply tab_ext. intros i Hi. rewrite clip_R, !nsq_R. unfold hat. cbn [nsqrt RNum]. f_equal. f_equal.
    cbn [nmul nadd nsub ndiv ofZ RNum]. field. }
  rewrite E. reflexivity.
Qed.

Lemma tch_unequal ab bc ca rate taus function tab_ dab eab nab tbc dbc ebc nbc tca dca eca nca :
  function ab rate "phase"%string taus = Ok (tab_, dab, eab, nab) ->
  function bc rate "phase"%string taus = Ok (tbc, dbc, ebc, nbc) ->
  function ca rate "phase"%string taus = Ok (tca, dca, eca, nca) ->
  ~ (len dbc = len dab /\ len dca = len dab) ->
  @three_cornered_hat_phase R RNum ab bc ca rate taus function = Err AssertionError.
Proof.
  intros H1 H2 H3 L. unfold three_cornered_hat_phase. rewrite H1, H2, H3. cbn [bind].
  rewrite !map_length. destruct (Nat.eqb_spec (len dab) (len dbc)); [|reflexivity].
  destruct (Nat.eqb_spec (len dbc) (len dca)); [|reflexivity]. exfalso. apply L. split; congruence.
Qed.

(** closed loops *)
Definition closed_loop (ab bc ca : list R) : Prop :=
  len bc = len ab /\ len ca = len ab /\ forall i, (i < len ab)%nat -> ab.[i] + bc.[i] + ca.[i] = 0.

Lemma d2_loop ab bc ca m i : closed_loop ab bc ca -> (i + 2 * m < len ab)%nat ->
  d2 bc m i = - (d2 ab m i + d2 ca m i).
Proof.
  intros (_ & _ & H) Hi. unfold d2.
  pose proof (H i ltac:(lia)). pose proof (H (i + m)%nat ltac:(lia)). pose proof (H (i + 2 * m)%nat ltac:(lia)). lra.
Qed.

Lemma oavar_loop ab bc ca t m : closed_loop ab bc ca ->
  oavar bc t m = oavar ab t m + oavar ca t m + 2 * ocov ab ca t m.
Proof.
  intros H. pose proof H as (L1 & L2 & _). unfold oavar, ocov, oadev_n. rewrite L1, L2.
  set (n := (len ab - 2 * m)%nat). set (c := / _).
  rewrite (bigsum_ext n (fun i => d2 bc m i ^ 2) (fun i => d2 ab m i ^ 2 + d2 ca m i ^ 2 + 2 * (d2 ab m i * d2 ca m i))).
  - rewrite !bigsum_plus, bigsum_scal. ring.
  - intros i Hi. rewrite (d2_loop ab bc ca) by (auto; unfold n in Hi; lia). ring.
Qed.

Lemma tch_oadev ab bc ca rate taus : 0 < rate -> closed_loop ab bc ca ->
  (exists e, oadev ab rate "phase" taus = Err e /\ three_cornered_hat_phase ab bc ca rate taus oadev = Err e) \/
  exists ms, admissible (len ab) rate taus ms /\
    let dev := fun m => sqrt (Rmax 0 (- ocov ab ca (1 / rate) m)) in
    let cnt := fun m => Z.of_nat (oadev_n ab m) in
    three_cornered_hat_phase ab bc ca rate taus oadev = report rate ms dev (plain_err dev cnt) cnt.
Proof.
  intros Hr HL. pose proof HL as (L1 & L2 & _).
  destruct (gcodev_cases ab ab rate taus Hr eq_refl) as [(e & He & H)|(ms & He & Hms & _)].
  { left. exists e. rewrite gcodev_self in H by exact Hr. split; [exact H|].
    unfold three_cornered_hat_phase. rewrite H. reflexivity. }
  pose proof (oadev_spec ab rate taus ms Hr Hms) as S1.
  pose proof (oadev_spec bc rate taus ms Hr ltac:(now rewrite L1)) as S2.
  pose proof (oadev_spec ca rate taus ms Hr ltac:(now rewrite L2)) as S3.
  cbv zeta in S1, S2, S3. unfold report in S1, S2, S3.
  assert (F1 : filter (fun m => (1 <? Z.of_nat (oadev_n bc m))%Z) ms = filter (fun m => (1 <? Z.of_nat (oadev_n ab m))%Z) ms).
  { apply filter_ext. intros. unfold oadev_n. now rewrite L1. }
  assert (F2 : filter (fun m => (1 <? Z.of_nat (oadev_n ca m))%Z) ms = filter (fun m => (1 <? Z.of_nat (oadev_n ab m))%Z) ms).
  { apply filter_ext. intros. unfold oadev_n. now rewrite L2. }
  rewrite F1 in S2. rewrite F2 in S3. clear F1 F2.
  right. exists ms. split; [exact Hms|]. cbv zeta. unfold report.
  destruct (filter (fun m => (1 <? Z.of_nat (oadev_n ab m))%Z) ms) as [|m0 good].
  { unfold three_cornered_hat_phase. rewrite S1. reflexivity. }
  set (L := m0 :: good) in *.
  rewrite (tch_spec _ _ _ _ _ _ _ _ _ _ _ _ _ _ _ _ _ _ S1 S2 S3) by (rewrite !map_length; reflexivity).
  assert (ED : tab (len (map (fun m => sqrt (oavar ab (1 / rate) m)) L))
     (fun i => hat (map (fun m => sqrt (oavar ab (1 / rate) m)) L).[i]
        (map (fun m => sqrt (oavar bc (1 / rate) m)) L).[i] (map (fun m => sqrt (oavar ca (1 / rate) m)) L).[i]) =
     map (fun m => sqrt (Rmax 0 (- ocov ab ca (1 / rate) m))) L).
  { rewrite map_length. transitivity (map (fun m => sqrt (Rmax 0 (- ocov ab ca (1 / rate) m))) (tab (len L) (fun i => nth i L 0%nat))); [|now rewrite <- list_tab].
    rewrite map_tab. apply tab_ext. intros i Hi.
    rewrite !(nth_indep _ 0 (sqrt (oavar ab (1 / rate) 0))) by (rewrite map_length; exact Hi).
    rewrite (map_nth (fun m => sqrt (oavar ab (1 / rate) m))).
    rewrite (nth_indep _ _ (sqrt (oavar bc (1 / rate) 0))) by (rewrite map_length; exact Hi).
    rewrite (map_nth (fun m => sqrt (oavar bc (1 / rate) m))).
    rewrite (nth_indep _ _ (sqrt (oavar ca (1 / rate) 0))) by (rewrite map_length; exact Hi).
    rewrite (map_nth (fun m => sqrt (oavar ca (1 / rate) m))).
    unfold hat. rewrite !pow2_sqrt by apply oavar_nonneg.
    rewrite (oavar_loop ab bc ca) by exact HL. f_equal. f_equal. field. }
  rewrite ED. clear ED. rewrite map2_sep. reflexivity.
Qed.
