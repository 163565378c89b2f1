(** * Missing points: gradev on frequency data (C87). *)
From Coq Require Import String Reals List ZArith Lra Lia Arith Bool Sorted.
From Verif Require Import Base Num NpList ModelCore ModelDev ModelMisc ModelCi NumR NumX ListFacts Spec RSum TauProofs DevProofs
  TotProofs GenericProofs Closed Laws Laws2 Laws3 Laws4 GradProofs ConvProofs.
Import ListNotations.
Local Open Scope R_scope.
Local Notation len := List.length.

(** ** frequency2phase on a record with a gap *)
Lemma with_gaps_app g h : with_gaps (g ++ h) = with_gaps g ++ with_gaps h.
Proof. apply map_app. Qed.
Lemma with_gaps_some l : with_gaps (map Some l) = map Fin l.
Proof. unfold with_gaps. rewrite map_map. reflexivity. Qed.
Lemma with_gaps_none k : with_gaps (repeat None k) = repeat NaN k.
Proof. induction k as [|k IH]; [reflexivity|]. cbn [repeat]. rewrite <- IH. reflexivity. Qed.
Lemma with_gaps_len g : len (with_gaps g) = len g.
Proof. apply map_length. Qed.

Lemma nonnan_gaps g : exists l, filter (fun a => negb (@nisnan ext XNum a)) (with_gaps g) = map Fin l /\
  (In (Fin 0) (map (fun a => match a with NaN => NaN | _ => Fin 0 end) (with_gaps g)) -> l <> []).
Proof.
  induction g as [|[r|] g (l & E & H)].
  - exists []. split; [reflexivity|]. intros [].
  - exists (r :: l). split; [|discriminate]. exact (f_equal (cons (Fin r)) E).
  - exists l. split; [exact E|]. intros [C|C]; [discriminate|auto].
Qed.
Lemma nanmean_gaps r g : exists mu, @nanmean ext XNum (with_gaps (Some r :: g)) = Fin mu.
Proof.
  destruct (nonnan_gaps (Some r :: g)) as (l & E & H). unfold nanmean. rewrite E.
  assert (Hl : l <> []) by (apply H; left; reflexivity).
  unfold mean. rewrite asum_Fin. rewrite map_length. exists (lsum l / IZR (Z.of_nat (len l))).
  change (@ofN ext XNum (len l)) with (Fin (IZR (Z.of_nat (len l)))). change (@ndiv ext XNum) with x_div. apply x_div_fin.
  rewrite <- INR_IZR_INZ. apply not_0_INR. destruct l; [contradiction|discriminate].
Qed.

Lemma cumsum_from_NaN l : @cumsum_from ext XNum NaN l = repeat NaN (len l).
Proof. induction l as [|a l IH]; [reflexivity|]. cbn [cumsum_from List.length repeat]. cbn [nadd XNum x_add]. now rewrite IH. Qed.
Lemma cumsum_from_gap l r : forall a, @cumsum_from ext XNum (Fin a) (map Fin l ++ NaN :: r) =
  map Fin (cumsum_from a l) ++ repeat NaN (S (len r)).
Proof.
  induction l as [|b l IH]; intros a.
  - cbn [map app cumsum_from repeat]. change (@nadd ext XNum (Fin a) NaN) with NaN. now rewrite cumsum_from_NaN.
  - cbn [map app cumsum_from]. change (@nadd ext XNum (Fin a) (Fin b)) with (Fin (a + b)). now rewrite IH.
Qed.
Lemma cumsum_gap l r : l <> [] -> @cumsum ext XNum (map Fin l ++ NaN :: r) = map Fin (cumsum l) ++ repeat NaN (S (len r)).
Proof. destruct l as [|a l]; [contradiction|]. intros _. cbn [map app cumsum]. now rewrite cumsum_from_gap. Qed.

Lemma trim_gaps a b y0 y r z :
  trim_data (with_gaps (repeat None a ++ (Some y0 :: y ++ None :: r ++ [Some z]) ++ repeat None b)) =
  Ok (with_gaps (Some y0 :: y ++ None :: r ++ [Some z])).
Proof.
  rewrite !with_gaps_app, !with_gaps_none.
  apply (trim_data_ok (repeat NaN a) _ (repeat NaN b) (Fin 0)).
  - apply Forall_forall. intros v Hv. apply repeat_spec in Hv. now subst v.
  - apply Forall_forall. intros v Hv. apply repeat_spec in Hv. now subst v.
  - discriminate.
  - reflexivity.
  - replace (Some y0 :: y ++ None :: r ++ [Some z]) with ((Some y0 :: y ++ None :: r) ++ [Some z])
      by (cbn; rewrite <- app_assoc; reflexivity).
    rewrite with_gaps_app. cbn [with_gaps map]. rewrite last_last. reflexivity.
  - reflexivity.
Qed.

(** phase of a record whose first gap follows the samples [y]: the integral of [y]
    (up to a constant frequency), then only missing points *)
Lemma f2p_gap a b (y : list R) r z rate : y <> [] -> 0 < rate -> exists mu,
  frequency2phase (with_gaps (repeat None a ++ (map Some y ++ None :: r ++ [Some z]) ++ repeat None b)) (Fin rate) =
  Ok (with_gaps (map Some (tab (S (len y)) (fun i => bigsum i (fun k => y.[k]) / rate - INR i * mu)) ++ repeat None (S (S (len r))))).
Proof.
  intros Hy Hr. destruct y as [|y0 y]; [contradiction|].
  destruct (nanmean_gaps y0 (map Some y ++ None :: r ++ [Some z])) as (mu & Emu). exists (mu / rate).
  unfold frequency2phase. change (neqb (Fin rate) (ofZ 0)) with (Reqb rate 0).
  rewrite (proj2 (Reqb_false rate 0)) by lra.
  change (map Some (y0 :: y) ++ None :: r ++ [Some z]) with (Some y0 :: map Some y ++ None :: r ++ [Some z]).
  rewrite (trim_gaps a b y0 (map Some y) r z). cbn [bind]. rewrite Emu. f_equal.
  assert (Ed : @ndiv ext XNum (ofZ 1) (Fin rate) = Fin (1 / rate)) by (cbn -[x_div]; apply x_div_fin; lra). rewrite Ed. clear Ed.
  set (r' := with_gaps (r ++ [Some z])). 
  assert (Er : len r' = S (len r)) by (unfold r'; rewrite with_gaps_len, app_length; cbn; lia).
  assert (Ew : map (fun f => @nsub ext XNum f (Fin mu)) (with_gaps (Some y0 :: map Some y ++ None :: r ++ [Some z])) =
    map Fin (map (fun v => v - mu) (y0 :: y)) ++ NaN :: map (fun f => @nsub ext XNum f (Fin mu)) r').
  { change (Some y0 :: map Some y ++ None :: r ++ [Some z]) with (map Some (y0 :: y) ++ None :: r ++ [Some z]).
    rewrite with_gaps_app, with_gaps_some, map_app, !map_map. reflexivity. }
  rewrite Ew, cumsum_gap by discriminate. rewrite map_length, Er, map_app, with_gaps_app, with_gaps_some, with_gaps_none.
  rewrite tab_S. cbn [map app]. f_equal.
  - cbn [bigsum INR]. change (@ofZ ext XNum 0) with (Fin 0). f_equal. field. lra.
  - f_equal.
    + change (y0 - mu :: map (fun v => v - mu) y) with (map (fun v => v - mu) (y0 :: y)).
      set (yy := y0 :: y). transitivity (map (fun c => @nmul ext XNum c (Fin (1 / rate)))
        (map Fin (cumsum (map (fun v => v - mu) (tab (len yy) (fun i => yy.[i])))))).
      { now rewrite <- (list_tab yy 0). }
      rewrite map_tab, cumsum_tab, !map_tab.
      apply tab_ext. intros i Hi. cbn [nmul XNum x_mul]. f_equal.
      rewrite bigsum_minus, bigsum_const. field. lra.
    + induction (S (S (len r))) as [|k IH]; [reflexivity|]. cbn [repeat map]. now rewrite IH.
Qed.

(** ** the triples of a record which ends early *)
Section Early.
Variables (xs : list R) (k : nat).
Let h := map Some xs ++ repeat None k.
Lemma early_nth i : nth i h None = if (i <? len xs)%nat then Some xs.[i] else None.
Proof.
  unfold h. destruct (Nat.ltb_spec i (len xs)).
  - rewrite app_nth1 by (rewrite map_length; lia). rewrite (nth_indep _ None (Some 0)) by (rewrite map_length; lia).
    apply (map_nth Some xs 0).
  - rewrite app_nth2 by (rewrite map_length; lia).
    destruct (Nat.lt_ge_cases (i - len (map Some xs)) k).
    + apply nth_repeat.
    + apply nth_overflow. rewrite repeat_length. lia.
Qed.
Lemma early_present i : present h i = (i <? len xs)%nat.
Proof. unfold present. rewrite early_nth. destruct (i <? len xs)%nat; reflexivity. Qed.
Lemma filter_ltb n m s : filter (fun i => (i <? m)%nat) (seq s n) = seq s (Nat.min n (m - s)).
Proof.
  revert s. induction n as [|n IH]; intros s; [reflexivity|]. cbn [seq filter]. rewrite IH.
  destruct (Nat.ltb_spec s m).
  - replace (Nat.min (S n) (m - s)) with (S (Nat.min n (m - S s))) by lia. reflexivity.
  - replace (Nat.min (S n) (m - s)) with 0%nat by lia. replace (Nat.min n (m - S s)) with 0%nat by lia. reflexivity.
Qed.
Lemma early_triples m : triples h m = seq 0 (len xs - 2 * m).
Proof.
  unfold triples. rewrite (filter_ext _ (fun i => (i <? len xs - 2 * m)%nat)).
  - rewrite filter_ltb. f_equal. unfold h. rewrite app_length, map_length, repeat_length. lia.
  - intros i. rewrite !early_present.
    destruct (Nat.ltb_spec i (len xs)), (Nat.ltb_spec (i + m) (len xs)), (Nat.ltb_spec (i + 2 * m) (len xs)), (Nat.ltb_spec i (len xs - 2 * m));
      try lia; reflexivity.
Qed.
Lemma early_points : points h = len xs.
Proof.
  unfold points. rewrite (filter_ext _ (fun i => (i <? len xs)%nat)) by apply early_present.
  rewrite filter_ltb, seq_length. unfold h. rewrite app_length, map_length. lia.
Qed.
Lemma early_point i : (i < len xs)%nat -> point h i = xs.[i].
Proof. intros H. unfold point. rewrite early_nth. now rewrite (proj2 (Nat.ltb_lt _ _) H). Qed.
Lemma lsum_seq n f s : lsum (map f (seq s n)) = bigsum n (fun i => f (s + i)%nat).
Proof.
  revert s. induction n as [|n IH]; intros s; [reflexivity|]. cbn [seq map lsum]. rewrite IH, bigsum_S_l.
  rewrite Nat.add_0_r. f_equal. apply bigsum_ext. intros i _. f_equal. lia.
Qed.
Lemma early_var tau0 m : gr_var h tau0 m = oavar xs tau0 m.
Proof.
  unfold gr_var, oavar, oadev_n. rewrite early_triples, seq_length, lsum_seq. f_equal. apply bigsum_ext. intros i Hi.
  unfold d2. cbn [Nat.add]. now rewrite !early_point by lia.
Qed.
End Early.

(** ** C87 *)
(** Frequency data whose first gap follows the samples [y] (leading and trailing
    gaps apart): gradev evaluates the integral of [y] and nothing else.  [r] and
    [z], all the data after the gap, do not occur in the result. *)
Theorem C87_gradev_freq nlog nexp ppf a b (y : list R) r z rate taus ms ci nt : y <> [] -> 0 < rate ->
  admissible (len y + len r + 3) rate taus ms ->
  let dev := fun m => sqrt (oavar (integrated y rate) (1 / rate) m) in
  let bounds := fun m => confidence_interval ppf (Fin (dev m)) ci (Fin (gr_edf nt (len y + 1) m)) in
  gradev nlog nexp ppf (with_gaps (repeat None a ++ (map Some y ++ None :: r ++ [Some z]) ++ repeat None b))
    (Fin rate) "freq" (req taus) ci nt =
  report2 rate ms dev (fun m => fst (bounds m)) (fun m => snd (bounds m))
    (fun m => Z.of_nat (len y + 1 - 2 * m)).
Proof.
  intros Hy Hr Ha dev bounds. destruct (f2p_gap a b y r z rate Hy Hr) as (mu & E).
  set (xs := tab (S (len y)) (fun i => bigsum i (fun k => y.[k]) / rate - INR i * mu)) in *.
  assert (Hxs : len xs = S (len y)) by apply tab_length.
  set (h := map Some xs ++ repeat None (S (S (len r)))) in *.
  assert (Hh : len h = (len y + len r + 3)%nat) by (unfold h; rewrite app_length, map_length, repeat_length; lia).
  assert (Hf : forall m, In m ms -> ~ gr_fails nt h m).
  { intros m _ (_ & Hp & Ht). unfold h in Hp, Ht. rewrite early_points in Hp. rewrite early_triples, seq_length in Ht. lia. }
  rewrite <- Hh in Ha.
  pose proof (gradev_ok nlog nexp ppf h rate taus ms ci nt Hr Ha Hf) as G. cbv zeta in G.
  unfold gradev in G |- *. change (input_to_phase (with_gaps h) (Fin rate) "phase") with (@Ok (list ext) (with_gaps h)) in G.
  change (input_to_phase ?g (Fin rate) "freq") with (frequency2phase g (Fin rate)). rewrite E. rewrite G.
  assert (Ev : forall m, gr_var h (1 / rate) m = oavar (integrated y rate) (1 / rate) m).
  { intros m. unfold h. rewrite early_var. unfold oavar, oadev_n. rewrite Hxs, integrated_len. f_equal.
    apply bigsum_ext. intros i Hi. f_equal. unfold d2, xs. rewrite !nth_tab by lia. rewrite !nth_integrated by lia.
    rewrite !plus_INR, mult_INR. cbn [INR]. ring. }
  assert (Ec : forall m, Z.of_nat (len (triples h m)) = Z.of_nat (len y + 1 - 2 * m)).
  { intros m. unfold h. rewrite early_triples, seq_length, Hxs. lia. }
  assert (Ep : points h = (len y + 1)%nat) by (unfold h; rewrite early_points, Hxs; lia).
  unfold report2. rewrite Ep.
  rewrite (filter_ext _ (fun m => (1 <? Z.of_nat (len y + 1 - 2 * m))%Z)) by (intros m; now rewrite Ec).
  destruct (filter _ ms) as [|m0 good]; [reflexivity|].
  rewrite (map_ext _ _ Ec). unfold bounds, dev.
  rewrite (map_ext (fun m => Fin (sqrt (gr_var h (1 / rate) m))) (fun m => Fin (sqrt (oavar (integrated y rate) (1 / rate) m))))
    by (intros m; now rewrite Ev).
  repeat (f_equal; try (apply map_ext; intros m; now rewrite Ev)).
Qed.
Print Assumptions C87_gradev_freq.

(** data which differ only after the first gap give the same result *)
Theorem C87_ignored nlog nexp ppf a b (y : list R) r r' z z' rate taus ms ci nt : y <> [] -> 0 < rate -> len r = len r' ->
  admissible (len y + len r + 3) rate taus ms ->
  gradev nlog nexp ppf (with_gaps (repeat None a ++ (map Some y ++ None :: r ++ [Some z]) ++ repeat None b))
    (Fin rate) "freq" (req taus) ci nt =
  gradev nlog nexp ppf (with_gaps (repeat None a ++ (map Some y ++ None :: r' ++ [Some z']) ++ repeat None b))
    (Fin rate) "freq" (req taus) ci nt.
Proof.
  intros Hy Hr Hl Ha. rewrite (C87_gradev_freq nlog nexp ppf a b y r z rate taus ms ci nt Hy Hr Ha).
  rewrite Hl in Ha. now rewrite (C87_gradev_freq nlog nexp ppf a b y r' z' rate taus ms ci nt Hy Hr Ha).
Qed.
Print Assumptions C87_ignored.

(** one missing sample near the start, and gradev finds nothing to evaluate,
    however many samples follow *)
Theorem C87_gap_resistant_refuted nlog nexp ppf y0 r z rate taus ms ci nt : 0 < rate ->
  admissible (len r + 4) rate taus ms ->
  gradev nlog nexp ppf (with_gaps (Some y0 :: None :: r ++ [Some z])) (Fin rate) "freq" (req taus) ci nt = Err UserWarning.
Proof.
  intros Hr Ha.
  pose proof (C87_gradev_freq nlog nexp ppf 0 0 [y0] r z rate taus ms ci nt) as G. cbv zeta in G.
  cbn [repeat] in G. rewrite app_nil_r in G. cbn [map app List.length] in G. rewrite G.
  - unfold report2. replace (filter _ ms) with (@nil nat); [reflexivity|]. symmetry.
    assert (Hm : forall m, In m ms -> (1 <= m)%nat) by (intros m Hm; apply (proj2 (proj2 Ha)) in Hm; lia).
    clear -Hm. induction ms as [|m l IH]; [reflexivity|]. cbn [filter].
    pose proof (Hm m (or_introl eq_refl)). destruct (Z.ltb_spec 1 (Z.of_nat (1 + 1 - 2 * m))); [lia|].
    apply IH. intros k Hk. apply Hm. now right.
  - discriminate.
  - exact Hr.
  - replace (1 + len r + 3)%nat with (len r + 4)%nat by lia. exact Ha.
Qed.
Print Assumptions C87_gap_resistant_refuted.

(** five samples, a gap, two more samples of which one is off by a million *)
Example C87_ex nlog nexp ppf ci nt : exists lo hi,
  gradev nlog nexp ppf (with_gaps [None; Some 1; Some 3; Some 2; Some 2; None; Some 1000000; Some 5])
    (Fin 1) "freq" (TArr [Fin 1]) ci nt = Ok ([Fin (1 / 1)], [Fin (sqrt (5 / 6))], EList [[lo]; [hi]], [3%Z]).
Proof.
  assert (Ha : admissible (len [1; 3; 2; 2] + len [Some 1000000] + 3) 1 (TArr [1]) [1%nat]).
  { pose proof (adm_single 8 1 1 ltac:(lra) ltac:(lia)) as H. cbn [INR] in H. replace (1 / 1) with 1 in H by lra. exact H. }
  pose proof (C87_gradev_freq nlog nexp ppf 1 0 [1; 3; 2; 2] [Some 1000000] 5 1 (TArr [1]) [1%nat] ci nt
    ltac:(discriminate) ltac:(lra) Ha) as G. cbv zeta in G.
  do 2 eexists. cbn [repeat app map] in G. cbn [req map] in G. rewrite G. unfold report2. cbn [filter List.length Nat.add Nat.sub Nat.mul Z.of_nat Pos.of_succ_nat Pos.succ Z.ltb Z.compare Pos.compare Pos.compare_cont map].
  repeat f_equal. unfold oavar, oadev_n, integrated, d2. cbn. field.
Qed.
Print Assumptions C87_ex.
