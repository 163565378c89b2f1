(** * realtime.py: proofs. *)
From Coq Require Import String Reals List ZArith Lra Lia Arith Bool Psatz.
From Verif Require Import Base Num NpList NumR ModelCore ModelDev ModelMisc ModelCi ModelRt ListFacts Spec RSum.
Import ListNotations.
Local Notation len := List.length.

Section Generic.
Context {A : Type} {NA : Num A}.
Local Open Scope num_scope.

(** ** Slots *)
Definition slot : Type := A * A * A.   (* S, So, dev *)
Definition zslot : slot := (ofZ 0, ofZ 0, ofZ 0).
Definition st (x : list A) (afs : list nat) (n : nat) (sl : nat -> slot) (i d : nat) : @rt A :=
  mkrt x afs (tab n (fun j => fst (fst (sl j)))) (tab n (fun j => snd (fst (sl j)))) (tab n (fun j => snd (sl j))) i d.
Definition put (k : nat) (v : slot) (sl : nat -> slot) : nat -> slot := fun j => if (j =? k)%nat then v else sl j.

Lemma set_nth_tab k v n (f : nat -> A) : (k < n)%nat -> set_nth k v (tab n f) = Ok (tab n (fun j => if (j =? k)%nat then v else f j)).
Proof.
  revert k f. induction n as [|n IH]; intros k f Hk; [lia|]. rewrite !tab_S. destruct k as [|k].
  - cbn. f_equal.
  - cbn [set_nth]. rewrite IH by lia. cbn [bind Nat.eqb]. reflexivity.
Qed.
Lemma set_nth_long k v (l : list A) : (len l <= k)%nat -> set_nth k v l = Err IndexError.
Proof. revert k. induction l as [|a l IH]; intros k Hk; [now destruct k|]. destruct k as [|k]; cbn in *; [lia|]. now rewrite IH by lia. Qed.
Lemma get_nth_tab k n (f : nat -> A) : (k < n)%nat -> get_nth (tab n f) k = Ok (f k).
Proof. intros H. unfold get_nth. now rewrite nth_error_tab. Qed.
Lemma get_nth_long k (l : list A) : (len l <= k)%nat -> get_nth l k = Err IndexError.
Proof. intros H. unfold get_nth. now rewrite (proj2 (nth_error_None l k)). Qed.

Lemma st_ext x afs n sl sl' i d : (forall j, (j < n)%nat -> sl j = sl' j) -> st x afs n sl i d = st x afs n sl' i d.
Proof. intros H. unfold st. f_equal; apply tab_ext; intros j Hj; now rewrite H. Qed.
Lemma tab_put k (v : slot) n sl (p : slot -> A) : tab n (fun j => p (put k v sl j)) = tab n (fun j => if (j =? k)%nat then p v else p (sl j)).
Proof. apply tab_ext. intros j _. unfold put. now destruct (j =? k)%nat. Qed.

(** an update that only touches slot idx, by a function g of the record and the factor *)
Definition local_upd (upd : @cfg A -> @rt A -> nat -> nat -> res (@rt A)) (c : cfg) (g : list A -> nat -> slot -> slot) : Prop :=
  forall x afs n sl i d idx af, (idx < n)%nat -> upd c (st x afs n sl i d) idx af = Ok (st x afs n (put idx (g x af (sl idx)) sl) i d).

Definition oadev_g (t0 : A) (x : list A) (af : nat) (s : slot) : slot :=
  let b k := nth (len x - 1 - k) x (ofZ 0) in
  if (2 * af + 1 <=? len x)%nat then
    let S' := fst (fst s) + nsq (b 0%nat - ofZ 2 * b af + b (2 * af)%nat) in
    (S', snd (fst s), nsqrt ((ofZ 1 / (ofZ 2 * nsq (ofN af * t0) * ofN (len x - 1 + 1 - 2 * af))) * S'))
  else s.
Definition ohdev_g (t0 : A) (x : list A) (af : nat) (s : slot) : slot :=
  let b k := nth (len x - 1 - k) x (ofZ 0) in
  if (3 * af <? len x)%nat then
    let S' := fst (fst s) + nsq (b 0%nat - ofZ 3 * b af + ofZ 3 * b (2 * af)%nat - b (3 * af)%nat) in
    (S', snd (fst s), nsqrt ((ofZ 1 / (ofZ 6 * nsq (ofN af * t0) * ofN (len x - 1 + 1 - 3 * af))) * S'))
  else s.
Definition tdev_g (x : list A) (af : nat) (s : slot) : slot :=
  let b k := nth (len x - 1 - k) x (ofZ 0) in
  if (3 * af + 1 <=? len x)%nat then
    let Sv := fst (fst s) + (ofZ (-1) * b (3 * af)%nat + ofZ 3 * b (2 * af)%nat - ofZ 3 * b af + b 0%nat) in
    let Sov := snd (fst s) + nsq Sv in (Sv, Sov, tdev_value (len x) af Sov)
  else if (2 * af + 1 <=? len x)%nat then
    let Sv := fst (fst s) + b 0%nat - ofZ 2 * b af + b (2 * af)%nat in
    if (len x =? 3 * af)%nat then (Sv, nsq Sv, tdev_value (len x) af (nsq Sv)) else (Sv, snd (fst s), snd s)
  else s.

Lemma put_same k sl j : put k (sl k) sl j = sl j.
Proof. unfold put. destruct (Nat.eqb_spec j k) as [->|]; reflexivity. Qed.
Lemma oadev_local c : local_upd oadev_upd c (oadev_g (tau0 c)).
Proof.
  intros x afs n sl i d idx af Hk. unfold oadev_upd, oadev_g. cbn [rx st]. destruct (_ <=? _)%nat eqn:E.
  - cbn [rS rSo rdev rafs ModelRt.af_idx ModelRt.af_decade st]. rewrite get_nth_tab by exact Hk. cbn [bind].
    rewrite set_nth_tab by exact Hk. cbn [bind]. rewrite set_nth_tab by exact Hk. cbn [bind]. f_equal.
    unfold st. f_equal; apply tab_ext; intros j _; unfold put; destruct (Nat.eqb_spec j idx) as [->|]; reflexivity.
  - f_equal. apply st_ext. intros j _. now rewrite put_same.
Qed.
Lemma ohdev_local c : local_upd ohdev_upd c (ohdev_g (tau0 c)).
Proof.
  intros x afs n sl i d idx af Hk. unfold ohdev_upd, ohdev_g. cbn [rx st]. destruct (_ <? _)%nat eqn:E.
  - cbn [rS rSo rdev rafs ModelRt.af_idx ModelRt.af_decade st]. rewrite get_nth_tab by exact Hk. cbn [bind].
    rewrite set_nth_tab by exact Hk. cbn [bind]. rewrite set_nth_tab by exact Hk. cbn [bind]. f_equal.
    unfold st. f_equal; apply tab_ext; intros j _; unfold put; destruct (Nat.eqb_spec j idx) as [->|]; reflexivity.
  - f_equal. apply st_ext. intros j _. now rewrite put_same.
Qed.
Lemma tdev_local c : local_upd tdev_upd c tdev_g.
Proof.
  intros x afs n sl i d idx af Hk. unfold tdev_upd, tdev_g. cbn [rx st]. destruct (3 * af + 1 <=? len x)%nat eqn:E.
  - cbn [rS rSo rdev rafs ModelRt.af_idx ModelRt.af_decade st]. rewrite !get_nth_tab by exact Hk. cbn [bind].
    rewrite set_nth_tab by exact Hk. cbn [bind]. rewrite set_nth_tab by exact Hk. cbn [bind]. rewrite set_nth_tab by exact Hk. cbn [bind]. f_equal.
    unfold st. f_equal; apply tab_ext; intros j _; unfold put; destruct (Nat.eqb_spec j idx) as [->|]; reflexivity.
  - destruct (2 * af + 1 <=? len x)%nat; [|f_equal; apply st_ext; intros j _; now rewrite put_same].
    cbn [rS rSo rdev rafs ModelRt.af_idx ModelRt.af_decade st]. rewrite get_nth_tab by exact Hk. cbn [bind].
    rewrite set_nth_tab by exact Hk. cbn [bind]. destruct (len x =? 3 * af)%nat.
    + rewrite !set_nth_tab by exact Hk. cbn [bind]. f_equal.
      unfold st. f_equal; apply tab_ext; intros j _; unfold put; destruct (Nat.eqb_spec j idx) as [->|]; reflexivity.
    + f_equal. unfold st. f_equal; apply tab_ext; intros j _; unfold put; destruct (Nat.eqb_spec j idx) as [->|]; reflexivity.
Qed.

(** ** One sample *)
Lemma loop_spec upd c g : local_upd upd c g -> forall k x afs n sl i d, (k <= n)%nat ->
  foldM (fun s idx => upd c s idx (nth idx (rafs s) 0%nat)) (seq 0 k) (st x afs n sl i d) =
  Ok (st x afs n (fun j => if (j <? k)%nat then g x (nth j afs 0%nat) (sl j) else sl j) i d).
Proof.
  intros L k x afs n sl i d. induction k as [|k IH]; intros Hk.
  - cbn. f_equal.
  - assert (E : forall (l1 : list nat) l2 s, foldM (fun s idx => upd c s idx (nth idx (rafs s) 0%nat)) (l1 ++ l2) s =
      bind (foldM (fun s idx => upd c s idx (nth idx (rafs s) 0%nat)) l1 s) (foldM (fun s idx => upd c s idx (nth idx (rafs s) 0%nat)) l2)).
    { induction l1 as [|a l1 IHl]; intros l2 s; [reflexivity|]. cbn. destruct (upd c s a _); cbn; [apply IHl|reflexivity]. }
    rewrite seq_S, E, IH by lia. cbn [bind foldM Nat.add]. rewrite L by lia. cbn [bind]. f_equal. apply st_ext.
    intros j Hj. unfold put. cbn [rafs st]. destruct (Nat.eqb_spec j k) as [->|Hne].
    + rewrite Nat.ltb_irrefl. destruct (Nat.ltb_spec k (S k)); [reflexivity|lia].
    + destruct (Nat.ltb_spec j k), (Nat.ltb_spec j (S k)); try lia; reflexivity.
Qed.
Definition stepped (g : list A -> nat -> slot -> slot) x afs (sl : nat -> slot) : nat -> slot :=
  fun j => if (j <? len afs)%nat then g x (nth j afs 0%nat) (sl j) else sl j.
Lemma add_phase_st upd c g x afs n sl i d v : local_upd upd c g -> (len afs <= n)%nat ->
  add_phase upd c (st x afs n sl i d) v =
  let s := st (x ++ [v]) afs n (stepped g (x ++ [v]) afs sl) i d in if auto_afs c then update_af c s else Ok s.
Proof. intros L Hn. unfold add_phase. cbn [rx rafs rS rSo rdev ModelRt.af_idx ModelRt.af_decade st]. fold (st (x ++ [v]) afs n sl i d). rewrite (loop_spec upd c g L) by exact Hn. reflexivity. Qed.

(** ** A slot over time: zero until sample T, then updated with every record *)
Fixpoint slot_after (g : list A -> nat -> slot -> slot) (xs : list A) (af T n : nat) : slot :=
  match n with
  | O => zslot
  | S n' => if (n <=? T)%nat then zslot else g (firstn n xs) af (slot_after g xs af T n')
  end.
Lemma slot_after_early g xs af T n : (n <= T)%nat -> slot_after g xs af T n = zslot.
Proof. destruct n; [reflexivity|]. intros H. cbn [slot_after]. now rewrite (proj2 (Nat.leb_le _ _) H). Qed.
Lemma slot_after_S g xs af T n : (T <= n)%nat -> slot_after g xs af T (S n) = g (firstn (S n) xs) af (slot_after g xs af T n).
Proof. intros H. cbn [slot_after]. now rewrite (proj2 (Nat.leb_gt _ _)) by lia. Qed.
Lemma slot_after_app g xs ys af T n : (n <= len xs)%nat -> slot_after g (xs ++ ys) af T n = slot_after g xs af T n.
Proof.
  induction n as [|n IH]; intros H; [reflexivity|]. cbn [slot_after]. rewrite IH by lia.
  rewrite firstn_app. replace (S n - len xs)%nat with 0%nat by lia. now rewrite firstn_O, app_nil_r.
Qed.

Lemma run_app {B} (ap : @cfg A -> @rt A -> B -> res (@rt A)) c s xs ys : run ap c s (xs ++ ys) = bind (run ap c s xs) (fun s' => run ap c s' ys).
Proof. unfold run. revert s. induction xs as [|a xs IH]; intros s; [reflexivity|]. cbn [app foldM]. destruct (ap c s a); [apply IH|reflexivity]. Qed.
Lemma init_st c afs : rt_init c afs = st [] (if auto_afs c then [1%nat] else afs) (len afs) (fun _ => zslot) 0 0.
Proof. unfold rt_init, st. cbv zeta. now rewrite repeat_tab. Qed.

Theorem run_fixed upd c g afs xs : local_upd upd c g -> auto_afs c = false ->
  run (add_phase upd) c (rt_init c afs) xs =
  Ok (st xs afs (len afs) (fun j => slot_after g xs (nth j afs 0%nat) 0 (len xs)) 0 0).
Proof.
  intros L Ha. rewrite init_st, Ha. induction xs as [|v xs IH] using rev_ind; [reflexivity|].
  rewrite run_app, IH. cbn [bind]. unfold run. cbn [foldM]. rewrite (add_phase_st upd c g) by (assumption || lia). rewrite Ha. cbn [bind]. f_equal.
  apply st_ext. intros j Hj. unfold stepped. rewrite (proj2 (Nat.ltb_lt _ _) Hj). rewrite app_length. cbn [List.length]. rewrite Nat.add_1_r.
  rewrite slot_after_S by lia. rewrite slot_after_app by lia. f_equal.
  rewrite firstn_all2; [reflexivity|]. rewrite app_length. cbn. lia.
Qed.

(** ** Automatic averaging factors: each slot has its own start time *)
Definition sched_total (c : @cfg A) : Prop := forall i d, (i < len (af_taus c))%nat -> exists z, sched_af c i d = Ok z.
(** the k-th factor: 1, then the rounded logspace points decade by decade *)
Definition af_at (c : @cfg A) (k : nat) : nat :=
  match k with
  | O => 1%nat
  | _ => match sched_af c (k mod len (af_taus c))%nat (k / len (af_taus c))%nat with Ok z => Z.to_nat z | Err _ => 0%nat end
  end.
(** the sample during which it is appended: at most one per sample *)
Fixpoint start_at (c : @cfg A) (k : nat) : nat :=
  match k with O => 0%nat | S k' => Nat.max (start_at c k' + 1) (2 * af_at c k + 1) end.
Lemma start_lt c k : (start_at c k < start_at c (S k))%nat.
Proof. cbn [start_at]. lia. Qed.
Lemma start_mono c j k : (j < k)%nat -> (start_at c j < start_at c k)%nat.
Proof. intros H. induction k as [|k IH]; [lia|]. pose proof (start_lt c k). destruct (Nat.eq_dec j k) as [->|]; [assumption|]. specialize (IH ltac:(lia)). lia. Qed.
Lemma start_ge c k : (1 <= k)%nat -> (2 * af_at c k + 1 <= start_at c k)%nat.
Proof. destruct k; [lia|]. intros _. cbn [start_at]. lia. Qed.

Theorem run_auto upd c g afs0 xs : local_upd upd c g -> auto_afs c = true -> sched_total c -> (1 <= len (af_taus c))%nat -> (1 <= len afs0)%nat ->
  exists K, (1 <= K)%nat /\ (forall k, (k < K)%nat <-> (start_at c k <= len xs)%nat) /\
    run (add_phase upd) c (rt_init c afs0) xs =
    Ok (st xs (tab K (af_at c)) (K + (len afs0 - 1)) (fun j => slot_after g xs (af_at c j) (start_at c j) (len xs)) ((K - 1) mod len (af_taus c))%nat ((K - 1) / len (af_taus c))%nat).
Proof.
  intros L Ha Hs Ht H0. rewrite init_st, Ha. set (e := (len afs0 - 1)%nat). replace (len afs0) with (1 + e)%nat by lia. set (p := len (af_taus c)) in *. induction xs as [|v xs IH] using rev_ind.
  - exists 1%nat. split; [lia|]. split.
    + intros k. cbn [List.length]. destruct k as [|k]; [cbn; lia|]. pose proof (start_lt c k). lia.
    + rewrite Nat.sub_diag, Nat.mod_0_l, Nat.div_0_l by lia. cbn [run foldM]. reflexivity.
  - destruct IH as (K & HK & HT & IH). rewrite run_app, IH. cbn [bind]. unfold run. cbn [foldM].
    rewrite (add_phase_st upd c g) by (try assumption; rewrite tab_length; lia). rewrite Ha. cbv zeta.
    assert (E : forall i d, st (xs ++ [v]) (tab K (af_at c)) (K + e) (stepped g (xs ++ [v]) (tab K (af_at c)) (fun j => slot_after g xs (af_at c j) (start_at c j) (len xs))) i d =
      st (xs ++ [v]) (tab K (af_at c)) (K + e) (fun j => slot_after g (xs ++ [v]) (af_at c j) (start_at c j) (len (xs ++ [v]))) i d).
    { intros i d. apply st_ext. intros j Hj. unfold stepped. rewrite tab_length. destruct (Nat.ltb_spec j K) as [HjK|HjK].
      2:{ assert (len xs < start_at c j)%nat by (apply Nat.nle_gt; intros C; apply HT in C; lia).
          rewrite !slot_after_early; [reflexivity|rewrite app_length; cbn; lia|lia]. }
      rewrite nth_tab by exact HjK.
      rewrite app_length. cbn [List.length]. rewrite Nat.add_1_r.
      rewrite slot_after_S by (now apply HT).
      rewrite slot_after_app by lia. f_equal. rewrite firstn_all2; [reflexivity|]. rewrite app_length. cbn. lia. }
    rewrite E. clear E IH.
    assert (Hn : forall sl, next_slot c (st (xs ++ [v]) (tab K (af_at c)) (K + e) sl ((K - 1) mod p)%nat ((K - 1) / p)%nat) = ((K mod p)%nat, (K / p)%nat)).
    { intros sl. unfold next_slot. cbn [ModelRt.af_idx ModelRt.af_decade st]. fold p.
      pose proof (Nat.mod_upper_bound (K - 1) p ltac:(lia)) as Hb. pose proof (Nat.div_mod (K - 1) p ltac:(lia)) as Hd.
      set (q := ((K - 1) / p)%nat) in *. set (r := ((K - 1) mod p)%nat) in *.
      destruct (Nat.eqb_spec (r + 1) p) as [E|E].
      - f_equal; [apply (Nat.mod_unique K p (q + 1) 0); lia|apply (Nat.div_unique K p (q + 1) 0); lia].
      - f_equal; [apply (Nat.mod_unique K p q (r + 1)); lia|apply (Nat.div_unique K p q (r + 1)); lia]. }
    unfold update_af. rewrite Hn. destruct (Hs (K mod p)%nat (K / p)%nat) as [z Hz]; [apply Nat.mod_upper_bound; lia|].
    assert (Haf : af_at c K = Z.to_nat z) by (destruct K; [lia|]; unfold af_at; fold p; now rewrite Hz).
    rewrite Hz. cbn [bind]. cbn [rx st].
    assert (HKm : (start_at c (K - 1) <= len xs)%nat) by (apply HT; lia).
    assert (HKn : (len xs < start_at c K)%nat) by (destruct (le_lt_dec (start_at c K) (len xs)) as [C|C]; [apply HT in C; lia|exact C]).
    assert (HKs : start_at c K = Nat.max (start_at c (K - 1) + 1) (2 * af_at c K + 1)) by (destruct K; [lia|]; cbn [start_at]; now replace (S K - 1)%nat with K by lia).
    assert (Hl : len (xs ++ [v]) = S (len xs)) by (rewrite app_length; cbn; lia).
    destruct (Z.leb_spec (2 * z + 1) (Z.of_nat (len (xs ++ [v])))) as [Hle|Hgt]; cbn [bind].
    + assert (Es : start_at c K = S (len xs)) by lia.
      exists (S K). split; [lia|]. split.
      { intros k. rewrite Hl. split; intros Hk.
        - destruct (Nat.eq_dec k K) as [->|]; [lia|]. assert (start_at c k <= len xs)%nat by (apply HT; lia). lia.
        - apply Nat.nle_gt. intros C. pose proof (start_mono c K k ltac:(lia)). lia. }
      f_equal. cbn [rafs rS rSo rdev st]. unfold st. cbn [Nat.add]. rewrite !tab_snoc. replace (S K - 1)%nat with K by lia. rewrite <- Haf.
      assert (Hke : (start_at c K <= start_at c (K + e))%nat) by (destruct e; [rewrite Nat.add_0_r; lia|pose proof (start_mono c K (K + S e) ltac:(lia)); lia]).
      rewrite (slot_after_early g (xs ++ [v]) (af_at c (K + e)) (start_at c (K + e))) by lia. reflexivity.
    + exists K. split; [exact HK|]. split; [|reflexivity].
      intros k. rewrite Hl. split; intros Hk; [apply HT in Hk; lia|].
      destruct (le_lt_dec K k) as [C|C]; [|exact C]. exfalso.
      assert (start_at c K <= start_at c k)%nat by (destruct (Nat.eq_dec K k) as [->|]; [lia|]; pose proof (start_mono c K k ltac:(lia)); lia). lia.
Qed.
(** with strictly increasing factors the start times are 2 af + 1 *)
Lemma start_strict c : (forall k, (af_at c k < af_at c (S k))%nat) -> forall k, (1 <= k)%nat -> start_at c k = (2 * af_at c k + 1)%nat.
Proof.
  intros H. induction k as [|k IH]; intros Hk; [lia|]. cbn [start_at]. destruct k as [|k].
  - cbn [start_at]. lia.
  - rewrite IH by lia. specialize (H (S k)). lia.
Qed.
End Generic.

Local Open Scope R_scope.
Lemma nth_firstn_R (xs : list R) n k : (k < n)%nat -> nth k (firstn n xs) 0 = nth k xs 0.
Proof.
  revert n k. induction xs as [|a xs IH]; intros n k Hk; [now rewrite firstn_nil|].
  destruct n; [lia|]. destruct k; [reflexivity|]. cbn. apply IH. lia.
Qed.

Lemma oadev_slot t0 xs af T n : (n <= len xs)%nat -> let b := Nat.max T (2 * af) in
  let S := bigsum (n - b) (fun i => d2 xs af (b - 2 * af + i) ^ 2) in
  slot_after (oadev_g t0) xs af T n =
  (S, 0, if (b <? n)%nat then sqrt (1 / (2 * (INR af * t0) ^ 2 * INR (n - 2 * af)) * S) else 0).
Proof.
  intros Hn b. cbv zeta. induction n as [|n IH]; [reflexivity|]. specialize (IH ltac:(lia)).
  destruct (le_lt_dec (S n) T) as [H|H].
  - rewrite slot_after_early by exact H. replace (S n - b)%nat with 0%nat by lia. destruct (Nat.ltb_spec b (S n)); [lia|reflexivity].
  - rewrite slot_after_S by lia. rewrite IH. unfold oadev_g. cbv zeta. rewrite firstn_length, Nat.min_l by lia.
    destruct (Nat.leb_spec (2 * af + 1) (S n)) as [Hg|Hg].
    + assert (Hb : (b <= n)%nat) by lia. destruct (Nat.ltb_spec b (S n)); [|lia].
      rewrite !nth_firstn_R by lia. replace (S n - b)%nat with (S (n - b)) by lia. cbn [bigsum].
      assert (Ed : nsq (nth (S n - 1 - 0) xs 0 - ofZ 2 * nth (S n - 1 - af) xs 0 + nth (S n - 1 - 2 * af) xs 0)%num = d2 xs af (b - 2 * af + (n - b)) ^ 2).
      { rewrite nsq_R. unfold d2. cbn [nadd nsub nmul ofZ RNum]. f_equal. f_equal; [f_equal; [|f_equal]|]; f_equal; lia. }
      cbn [fst snd] in *. rewrite Ed. rewrite nsq_R, !ofN_INR. cbn [nadd nsub nmul ndiv nsqrt ofZ RNum].
      replace (S n - 1 + 1 - 2 * af)%nat with (S n - 2 * af)%nat by lia. reflexivity.
    + replace (n - b)%nat with 0%nat by lia. replace (S n - b)%nat with 0%nat by lia.
      destruct (Nat.ltb_spec b n), (Nat.ltb_spec b (S n)); try lia. reflexivity.
Qed.
Lemma ohdev_slot t0 xs af T n : (n <= len xs)%nat -> let b := Nat.max T (3 * af) in
  let S := bigsum (n - b) (fun i => d3 xs af (b - 3 * af + i) ^ 2) in
  slot_after (ohdev_g t0) xs af T n =
  (S, 0, if (b <? n)%nat then sqrt (1 / (6 * (INR af * t0) ^ 2 * INR (n - 3 * af)) * S) else 0).
Proof.
  intros Hn b. cbv zeta. induction n as [|n IH]; [reflexivity|]. specialize (IH ltac:(lia)).
  destruct (le_lt_dec (S n) T) as [H|H].
  - rewrite slot_after_early by exact H. replace (S n - b)%nat with 0%nat by lia. destruct (Nat.ltb_spec b (S n)); [lia|reflexivity].
  - rewrite slot_after_S by lia. rewrite IH. unfold ohdev_g. cbv zeta. rewrite firstn_length, Nat.min_l by lia.
    destruct (Nat.ltb_spec (3 * af) (S n)) as [Hg|Hg].
    + assert (Hb : (b <= n)%nat) by lia. destruct (Nat.ltb_spec b (S n)); [|lia].
      rewrite !nth_firstn_R by lia. replace (S n - b)%nat with (S (n - b)) by lia. cbn [bigsum].
      assert (Ed : nsq (nth (S n - 1 - 0) xs 0 - ofZ 3 * nth (S n - 1 - af) xs 0 + ofZ 3 * nth (S n - 1 - 2 * af) xs 0 - nth (S n - 1 - 3 * af) xs 0)%num = d3 xs af (b - 3 * af + (n - b)) ^ 2).
      { rewrite nsq_R. unfold d3. cbn [nadd nsub nmul ofZ RNum]. f_equal. f_equal; [f_equal; [f_equal; [|f_equal]|f_equal]|]; f_equal; lia. }
      cbn [fst snd] in *. rewrite Ed. rewrite nsq_R, !ofN_INR. cbn [nadd nsub nmul ndiv nsqrt ofZ RNum].
      replace (S n - 1 + 1 - 3 * af)%nat with (S n - 3 * af)%nat by lia. reflexivity.
    + replace (n - b)%nat with 0%nat by lia. replace (S n - b)%nat with 0%nat by lia.
      destruct (Nat.ltb_spec b n), (Nat.ltb_spec b (S n)); try lia. reflexivity.
Qed.

(** window sums of second differences *)
Definition wsum (xs : list R) (af k : nat) : R := bigsum af (fun i => d2 xs af (k + i)).
Lemma wsum_step xs af k : (1 <= af)%nat -> wsum xs af (S k) = wsum xs af k + d3 xs af k.
Proof.
  intros Ha. unfold wsum.
  assert (E : forall (f : nat -> R) n, (1 <= n)%nat -> bigsum n (fun i => f (S k + i)%nat) = bigsum n (fun i => f (k + i)%nat) + f (k + n)%nat - f k).
  { intros f n Hn. destruct n as [|n]; [lia|]. rewrite (bigsum_S_l n (fun i => f (k + i)%nat)). cbn [bigsum].
    rewrite (bigsum_ext n (fun i => f (S k + i)%nat) (fun i => f (k + S i)%nat)) by (intros; f_equal; lia).
    replace (k + 0)%nat with k by lia. replace (S k + n)%nat with (k + S n)%nat by lia. ring. }
  rewrite (E (d2 xs af) af Ha). unfold d2, d3.
  replace (k + af + 2 * af)%nat with (k + 3 * af)%nat by lia. replace (k + af + af)%nat with (k + 2 * af)%nat by lia. ring.
Qed.
Lemma tdev_slot xs af T n : (n <= len xs)%nat -> (1 <= af)%nat -> (T < 3 * af)%nat ->
  let b := Nat.max T (2 * af) in let c := bigsum (b - 2 * af) (d2 xs af) in
  slot_after tdev_g xs af T n =
  if (n <? 3 * af)%nat then (if (n <=? b)%nat then 0 else bigsum (n - 2 * af) (d2 xs af) - c, 0, 0)
  else let So := bigsum (n - 3 * af + 1) (fun k => (wsum xs af k - c) ^ 2) in
       (wsum xs af (n - 3 * af) - c, So, sqrt (1 / (6 * INR (n - 3 * af + 1) * INR af ^ 2) * So)).
Proof.
  intros Hn Ha HT b c. cbv zeta. induction n as [|n IH].
  - cbn [slot_after]. destruct (Nat.ltb_spec 0 (3 * af)); [|lia]. destruct (Nat.leb_spec 0 b); [reflexivity|lia].
  - specialize (IH ltac:(lia)). destruct (le_lt_dec (S n) T) as [H|H].
    + rewrite slot_after_early by exact H. destruct (Nat.ltb_spec (S n) (3 * af)); [|lia]. destruct (Nat.leb_spec (S n) b); [reflexivity|lia].
    + rewrite slot_after_S by lia. rewrite IH. clear IH. unfold tdev_g. cbv zeta. rewrite firstn_length, Nat.min_l by lia.
      assert (HTD : forall So, tdev_value (S n) af So = sqrt (1 / (6 * IZR (Z.of_nat (S n) - 3 * Z.of_nat af + 1) * INR af ^ 2) * So) \/ (S n < 3 * af)%nat).
      { intros So. destruct (le_lt_dec (3 * af) (S n)) as [Hx|Hx]; [left|right; lia]. unfold tdev_value. rewrite nsq_R, !ofN_INR. cbn [nadd nsub nmul ndiv nsqrt ofZ RNum]. f_equal. f_equal.
        assert (0 < INR af) by (apply lt_0_INR; lia). assert (0 < IZR (Z.of_nat (S n) - 3 * Z.of_nat af + 1)) by (apply IZR_lt; lia). field. lra. }
      destruct (Nat.leb_spec (3 * af + 1) (S n)) as [Hg|Hg].
      * destruct (Nat.ltb_spec n (3 * af)); [lia|]. destruct (Nat.ltb_spec (S n) (3 * af)); [lia|]. cbn [fst snd].
        rewrite !nth_firstn_R by lia.
        assert (Es : (wsum xs af (n - 3 * af) - c + (ofZ (-1) * nth (S n - 1 - 3 * af) xs 0 + ofZ 3 * nth (S n - 1 - 2 * af) xs 0 - ofZ 3 * nth (S n - 1 - af) xs 0 + nth (S n - 1 - 0) xs 0))%num = wsum xs af (S n - 3 * af) - c).
        { replace (S n - 3 * af)%nat with (S (n - 3 * af)) by lia. rewrite wsum_step by exact Ha. unfold d3. cbn [nadd nsub nmul ofZ RNum].
          replace (n - 3 * af + 3 * af)%nat with (S n - 1 - 0)%nat by lia. replace (n - 3 * af + 2 * af)%nat with (S n - 1 - af)%nat by lia.
          replace (n - 3 * af + af)%nat with (S n - 1 - 2 * af)%nat by lia. replace (n - 3 * af)%nat with (S n - 1 - 3 * af)%nat by lia. ring. }
        cbn [nadd nsub nmul RNum] in *. rewrite Es. replace (S n - 3 * af + 1)%nat with (S (n - 3 * af + 1)) by lia. cbn [bigsum].
        replace (n - 3 * af + 1)%nat with (S n - 3 * af)%nat by lia. rewrite nsq_R.
        destruct (HTD (bigsum (S n - 3 * af) (fun k => (wsum xs af k - c) ^ 2) + (wsum xs af (S n - 3 * af) - c) ^ 2)) as [E|E]; [|lia]. rewrite E.
        replace (IZR (Z.of_nat (S n) - 3 * Z.of_nat af + 1)) with (INR (S (S n - 3 * af))) by (rewrite INR_IZR_INZ; f_equal; lia). reflexivity.
      * destruct (Nat.ltb_spec n (3 * af)); [|lia]. destruct (Nat.leb_spec (2 * af + 1) (S n)) as [Hh|Hh].
        -- rewrite !nth_firstn_R by lia.
           assert (Es : ((if (n <=? b)%nat then 0 else bigsum (n - 2 * af) (d2 xs af) - c) + nth (S n - 1 - 0) xs 0 - ofZ 2 * nth (S n - 1 - af) xs 0 + nth (S n - 1 - 2 * af) xs 0)%num
              = bigsum (S n - 2 * af) (d2 xs af) - c).
           { cbn [nadd nsub nmul ofZ RNum].
             assert (E0 : (if (n <=? b)%nat then 0 else bigsum (n - 2 * af) (d2 xs af) - c) = bigsum (n - 2 * af) (d2 xs af) - c).
             { destruct (Nat.leb_spec n b) as [Hnb|Hnb]; [|reflexivity]. assert (n = b) as -> by lia. unfold c. ring. }
             rewrite E0. replace (S n - 2 * af)%nat with (S (n - 2 * af)) by lia. cbn [bigsum]. unfold d2.
             replace (n - 2 * af + 2 * af)%nat with (S n - 1 - 0)%nat by lia. replace (n - 2 * af + af)%nat with (S n - 1 - af)%nat by lia.
             replace (n - 2 * af)%nat with (S n - 1 - 2 * af)%nat by lia. unfold d2. ring. }
           cbn [fst snd]. cbn [nadd nsub nmul ofZ RNum] in Es |- *. rewrite Es. destruct (Nat.eqb_spec (S n) (3 * af)) as [E3|E3].
           ++ destruct (Nat.ltb_spec (S n) (3 * af)); [lia|]. replace (S n - 3 * af)%nat with 0%nat by lia. cbn [Nat.add bigsum]. rewrite nsq_R.
              assert (Ew : bigsum (S n - 2 * af) (d2 xs af) = wsum xs af 0) by (unfold wsum; replace (S n - 2 * af)%nat with af by lia; reflexivity).
              rewrite Ew. rewrite Rplus_0_l. destruct (HTD ((wsum xs af 0 - c) ^ 2)) as [E|E]; [|lia]. rewrite E.
              replace (Z.of_nat (S n) - 3 * Z.of_nat af + 1)%Z with 1%Z by lia. reflexivity.
           ++ destruct (Nat.ltb_spec (S n) (3 * af)); [|lia]. destruct (Nat.leb_spec (S n) b); [lia|reflexivity].
        -- destruct (Nat.ltb_spec (S n) (3 * af)); [|lia]. destruct (Nat.leb_spec n b), (Nat.leb_spec (S n) b); try lia. reflexivity.
Qed.

(** ** The schedule: numpy.logspace(0, 1, p+1)[:-1] in exact arithmetic *)
Definition decade (p : nat) : list R := tab p (fun j => Rpower 10 (INR j / INR p)).
Definition grid (p k : nat) : R := Rpower 10 (INR k / INR p).

Lemma grid_pos p k : 0 < grid p k.
Proof. unfold grid, Rpower. apply exp_pos. Qed.
Lemma grid_S p k : (1 <= p)%nat -> grid p (S k) = grid p k * grid p 1.
Proof.
  intros Hp. unfold grid. rewrite <- Rpower_plus. f_equal. rewrite S_INR. cbn [INR]. field. apply not_0_INR. lia.
Qed.
Lemma grid_0 p : grid p 0 = 1.
Proof. unfold grid. cbn [INR]. unfold Rdiv. rewrite Rmult_0_l. apply Rpower_O. lra. Qed.
Lemma grid_pow p k : (1 <= p)%nat -> grid p k = grid p 1 ^ k.
Proof. intros Hp. induction k as [|k IH]; [apply grid_0|]. rewrite grid_S, IH by exact Hp. cbn [pow]. ring. Qed.
Lemma grid_p p : (1 <= p)%nat -> grid p 1 ^ p = 10.
Proof. intros Hp. rewrite <- grid_pow by exact Hp. unfold grid. replace (INR p / INR p) with 1 by (field; apply not_0_INR; lia). apply Rpower_1. lra. Qed.
Lemma grid_step_ge1 p : (1 <= p)%nat -> 1 <= grid p 1.
Proof.
  intros Hp. destruct (Rle_dec 1 (grid p 1)) as [H|H]; [exact H|]. exfalso. pose proof (grid_p p Hp) as E. pose proof (grid_pos p 1) as P.
  assert (grid p 1 ^ p <= 1 ^ p) by (apply pow_incr; lra). rewrite pow1 in *. lra.
Qed.

Lemma sched_grid t0 p : (1 <= p)%nat -> forall i d, (i < p)%nat ->
  sched_af (mkcfg t0 true (decade p)) i d = Ok (rintR (grid p (d * p + i))).
Proof.
  intros Hp i d Hi. unfold sched_af. cbn [af_taus]. unfold decade at 1. rewrite get_nth_tab by exact Hi. cbn [bind]. unfold int_round. cbn [nrint RNum].
  f_equal. f_equal. cbn [nmul ofZ RNum].
  assert (Ei : Rpower 10 (INR i / INR p) = grid p i) by reflexivity. rewrite Ei, (grid_pow p (d * p + i)), (grid_pow p i), pow_add by exact Hp. f_equal.
  rewrite Nat.mul_comm, pow_mult, grid_p by exact Hp. now rewrite <- pow_IZR.
Qed.
Lemma sched_total_grid t0 p : (1 <= p)%nat -> sched_total (mkcfg t0 true (decade p)).
Proof. intros Hp i d Hi. cbn [af_taus] in Hi. unfold decade in Hi. rewrite tab_length in Hi. eexists. now apply sched_grid. Qed.
Lemma af_at_grid t0 p k : (1 <= p)%nat -> (1 <= k)%nat -> af_at (mkcfg t0 true (decade p)) k = Z.to_nat (rintR (grid p k)).
Proof.
  intros Hp Hk. unfold af_at. destruct k as [|k]; [lia|]. cbn [af_taus].
  replace (len (decade p)) with p by (unfold decade; now rewrite tab_length). rewrite sched_grid; [|exact Hp|apply Nat.mod_upper_bound; lia]. do 3 f_equal.
  rewrite Nat.mul_comm. symmetry. apply Nat.div_mod. lia.
Qed.

Lemma rint_near x : Rabs (x - IZR (rintR x)) <= 1 / 2.
Proof. destruct (rintR_spec x) as [H|[H _]]; lra. Qed.
Lemma rint_lt x y : x + 1 < y -> (rintR x < rintR y)%Z.
Proof. intros H. apply lt_IZR. pose proof (rint_near x) as H1. pose proof (rint_near y) as H2. unfold Rabs in *. repeat destruct Rcase_abs; lra. Qed.
Lemma rint_le_of x (z : Z) : x < IZR z + 1 / 2 -> (rintR x <= z)%Z.
Proof. intros H. assert (rintR x < z + 1)%Z; [|lia]. apply lt_IZR. rewrite plus_IZR. pose proof (rint_near x) as H1. unfold Rabs in *. destruct Rcase_abs; lra. Qed.
Lemma rint_ge_of x (z : Z) : IZR z - 1 / 2 < x -> (z <= rintR x)%Z.
Proof. intros H. assert (z - 1 < rintR x)%Z; [|lia]. apply lt_IZR. rewrite minus_IZR. pose proof (rint_near x) as H1. unfold Rabs in *. destruct Rcase_abs; lra. Qed.

Lemma pow_incr_exp t a b : 1 <= t -> (a <= b)%nat -> t ^ a <= t ^ b.
Proof. intros Ht H. apply Rle_pow; assumption. Qed.
Lemma step_bound p : (1 <= p <= 5)%nat -> 1.5812 <= grid p 1.
Proof.
  intros Hp. pose proof (grid_p p ltac:(lia)) as E. pose proof (grid_step_ge1 p ltac:(lia)) as H1. apply Rnot_lt_le. intros C.
  assert (grid p 1 ^ p <= grid p 1 ^ 5) by (apply pow_incr_exp; [exact H1|lia]).
  assert (grid p 1 ^ 5 <= 1.5812 ^ 5) by (apply pow_incr; lra). assert (1.5812 ^ 5 < 10) by (cbn [pow]; lra). lra.
Qed.
Lemma grid_mono p j k : (1 <= p)%nat -> (j <= k)%nat -> grid p j <= grid p k.
Proof. intros Hp H. rewrite (grid_pow p j Hp), (grid_pow p k Hp). apply pow_incr_exp; [now apply grid_step_ge1|exact H]. Qed.

Lemma default_strict t0 p : (1 <= p <= 5)%nat -> forall k, (af_at (mkcfg t0 true (decade p)) k < af_at (mkcfg t0 true (decade p)) (S k))%nat.
Proof.
  intros Hp k. pose proof (step_bound p Hp) as Ht.
  assert (Hpos : forall k, (1 <= rintR (grid p k))%Z).
  { intros j. apply rint_ge_of. pose proof (grid_mono p 0 j ltac:(lia) ltac:(lia)) as H. rewrite grid_0 in H. lra. }
  destruct k as [|k].
  - rewrite (af_at_grid t0 p 1) by lia. cbn [af_at]. assert (2 <= rintR (grid p 1))%Z by (apply rint_ge_of; lra). lia.
  - rewrite !af_at_grid by lia. pose proof (Hpos (S k)) as P1. assert (rintR (grid p (S k)) < rintR (grid p (S (S k))))%Z; [|lia].
    set (t := grid p 1) in *. destruct k as [|k].
    + rewrite (grid_S p 1) by lia. fold t. destruct (Rlt_dec t 2.5) as [H|H].
      * assert (rintR t <= 2)%Z by (apply rint_le_of; lra). assert (3 <= rintR (t * t))%Z by (apply rint_ge_of; nra). lia.
      * apply Rnot_lt_le in H. apply rint_lt. nra.
    + rewrite (grid_S p (S (S k))) by lia. fold t. pose proof (grid_mono p 2 (S (S k)) ltac:(lia) ltac:(lia)) as H2.
      rewrite (grid_S p 1) in H2 by lia. fold t in H2. apply rint_lt. nra.
Qed.
Lemma dense_duplicate t0 p : (6 <= p)%nat -> af_at (mkcfg t0 true (decade p)) 1 = 1%nat.
Proof.
  intros Hp. rewrite af_at_grid by lia. pose proof (grid_p p ltac:(lia)) as E. pose proof (grid_step_ge1 p ltac:(lia)) as H1.
  assert (H : grid p 1 < 1.5).
  { apply Rnot_le_lt. intros C. assert (1.5 ^ 6 <= grid p 1 ^ 6) by (apply pow_incr; lra).
    assert (grid p 1 ^ 6 <= grid p 1 ^ p) by (apply pow_incr_exp; [exact H1|exact Hp]). assert (10 < 1.5 ^ 6) by (cbn [pow]; lra). lra. }
  assert (rintR (grid p 1) <= 1)%Z by (apply rint_le_of; lra). assert (1 <= rintR (grid p 1))%Z by (apply rint_ge_of; lra). lia.
Qed.
