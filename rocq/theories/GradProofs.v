(** * gradev on records with gaps. *)
From Coq Require Import String Reals List ZArith Lra Lia Arith Bool Sorted.
From Verif Require Import Base Num NpList ModelCore ModelDev ModelMisc ModelCi NumR NumX ListFacts Spec RSum TauProofs DevProofs
  TotProofs GenericProofs Closed Laws Laws2 Laws3 Laws4.
Import ListNotations.
Local Open Scope R_scope.
Local Notation len := List.length.

(** ** Specification *)
(** a record with gaps; NaN marks a missing point *)
Definition with_gaps (g : list (option R)) : list ext :=
  map (fun o => match o with Some r => Fin r | None => NaN end) g.
Definition present (g : list (option R)) (i : nat) : bool :=
  match nth i g None with Some _ => true | None => false end.
Definition point (g : list (option R)) (i : nat) : R :=
  match nth i g None with Some r => r | None => 0 end.
(** start indices of the triples without a missing point *)
Definition triples (g : list (option R)) (m : nat) : list nat :=
  filter (fun i => present g i && present g (i + m) && present g (i + 2 * m))%bool (seq 0 (len g - 2 * m)).
Fixpoint lsum (l : list R) : R := match l with [] => 0 | a :: t => a + lsum t end.
Definition gr_var (g : list (option R)) (tau0 : R) (m : nat) : R :=
  / (2 * (INR m * tau0) ^ 2 * INR (len (triples g m))) *
  lsum (map (fun i => (point g (i + 2 * m) - 2 * point g (i + m) + point g i) ^ 2) (triples g m)).
(** number of points present *)
Definition points (g : list (option R)) : nat := len (filter (present g) (seq 0 (len g))).
(** a request with real taus, as a request with extended reals *)
Definition req (taus : taus_arg R) : taus_arg ext :=
  match taus with
  | TNone => TNone
  | TList l => TList (map Fin l)
  | TArr l => TArr (map Fin l)
  | TStr s => TStr s
  end.
(** rows with n > 1, two error columns *)
Definition report2 (rate : R) (ms : list nat) (dev : nat -> R) (lo hi : nat -> ext) (cnt : nat -> Z)
    : res (@result ext) :=
  match filter (fun m => (1 <? cnt m)%Z) ms with
  | [] => Err UserWarning
  | good => Ok (map (fun m => Fin (INR m / rate)) good, map (fun m => Fin (dev m)) good,
                EList [map lo good; map hi good], map cnt good)
  end.

(** ** tau_generator *)
Lemma x_div_fin a b : b <> 0 -> x_div (Fin a) (Fin b) = Fin (a / b).
Proof. intros H. cbn. destruct (Req_EM_T b 0); [contradiction|reflexivity]. Qed.
Lemma x_sqrt_fin a : 0 <= a -> x_sqrt (Fin a) = Fin (sqrt a).
Proof. intros H. cbn. destruct (Rlt_dec a 0); [lra|reflexivity]. Qed.

Lemma expand_X n rate taus : rate <> 0 ->
  expand_taus n (Fin rate) (req taus) =
  match expand_taus n rate taus with Ok l => Ok (map Fin l) | Err e => Err e end.
Proof.
  intros Hr.
  assert (Hd : (@ndiv ext XNum (ofZ 1) (Fin rate)) = Fin (1 / rate)) by (cbn -[x_div]; now apply x_div_fin).
  assert (Ho : match n with O => Err OverflowError
     | S _ => Ok (map (fun k => @nmul ext XNum (ndiv (ofZ 1) (Fin rate)) (ofZ (2 ^ Z.of_nat k))) (seq 0 (S (Nat.log2 n)))) end
   = match match n with O => Err OverflowError
     | S _ => Ok (map (fun k => @nmul R RNum (ndiv (ofZ 1) rate) (ofZ (2 ^ Z.of_nat k))) (seq 0 (S (Nat.log2 n)))) end with
     Ok l => Ok (map Fin l) | Err e => Err e end).
  { destruct n; [reflexivity|]. rewrite map_map. do 2 f_equal. rewrite Hd. reflexivity. }
  destruct taus as [|[|t l]|l|s]; unfold expand_taus, req; cbn [map]; try exact Ho; try reflexivity.
  destruct (String.eqb s "all").
  { rewrite map_map, Hd. reflexivity. }
  destruct (String.eqb s "octave"); [exact Ho|].
  destruct (String.eqb s "log10").
  { destruct n; [reflexivity|]. rewrite Hd. cbn [nlogspace10 XNum RNum]. rewrite !map_map. reflexivity. }
  destruct (String.eqb s "decade"); [|reflexivity].
  destruct n; [reflexivity|]. rewrite Hd. f_equal.
  generalize (seq 0 (S (ilog10 (S n)))). induction l as [|k l IH]; [reflexivity|].
  cbn [flat_map]. rewrite map_app. cbn [app]. rewrite IH. reflexivity.
Qed.

Lemma select_X n rate mx l : select_m n (Fin rate) (Fin mx) (map Fin l) = select_m n rate mx l.
Proof.
  unfold select_m. f_equal. induction l as [|t l IH]; [reflexivity|].
  cbn [map flat_map]. rewrite IH. reflexivity.
Qed.

Lemma taugen_X (xs : list ext) (ys : list R) rate taus : len xs = len ys ->
  tau_generator xs (Fin rate) (req taus) false (ofZ (-1)) =
  match tau_generator ys rate taus false (-1) with
  | Ok (_, m, t) => Ok (xs, m, map Fin t) | Err e => Err e end.
Proof.
  intros Hl. change (-1) with (@ofZ R RNum (-1)). unfold tau_generator.
  change (@neqb ext XNum (Fin rate) (ofZ 0)) with (Reqb rate 0).
  change (@neqb R RNum rate (ofZ 0)) with (Reqb rate 0).
  destruct (Reqb rate 0) eqn:E; [reflexivity|]. apply Reqb_false in E.
  rewrite Hl. rewrite expand_X by exact E.
  destruct (expand_taus (len ys) rate taus) as [l|]; [|reflexivity]. cbn [bind].
  change (@neqb ext XNum (ofZ (-1)) (ofZ (-1))) with (Reqb (-1) (-1)).
  change (@neqb R RNum (ofZ (-1)) (ofZ (-1))) with (Reqb (-1) (-1)).
  replace (Reqb (-1) (-1)) with true by (symmetry; now apply Reqb_true).
  change (@ofN ext XNum (len ys)) with (Fin (@ofN R RNum (len ys))). rewrite select_X.
  f_equal. f_equal. rewrite map_map. apply map_ext. intros m. cbn -[x_div]. now rewrite x_div_fin.
Qed.

(** ** one averaging factor *)
Definition gval (g : list (option R)) (i : nat) : ext := if present g i then Fin (point g i) else NaN.
Lemma with_gaps_tab g : with_gaps g = tab (len g) (gval g).
Proof.
  unfold with_gaps. rewrite (list_tab g None) at 1. rewrite map_tab. apply tab_ext. intros i _.
  unfold gval, present, point. destruct (nth i g None); reflexivity.
Qed.

Lemma filter_partial {T} (p : T -> bool) (v : T -> R) l :
  filter (fun a => negb (@nisnan ext XNum a)) (map (fun i => if p i then Fin (v i) else NaN) l) =
  map (fun i => Fin (v i)) (filter p l).
Proof.
  set (q := fun a => _). induction l as [|a l IH]; [reflexivity|]. cbn [map filter]. destruct (p a).
  - change (q (Fin (v a))) with true. cbv iota. cbn [map]. now rewrite IH.
  - change (q NaN) with false. cbv iota. exact IH.
Qed.

Lemma asum_Fin_acc l : forall a, fold_left (@nadd ext XNum) (map Fin l) (Fin a) = Fin (a + lsum l).
Proof.
  induction l as [|b l IH]; intros a; cbn [map fold_left lsum].
  - f_equal. ring.
  - change (@nadd ext XNum (Fin a) (Fin b)) with (Fin (a + b)). rewrite IH. f_equal. ring.
Qed.
Lemma asum_Fin l : @asum ext XNum (map Fin l) = Fin (lsum l).
Proof. unfold asum. change (@ofZ ext XNum 0) with (Fin 0). rewrite asum_Fin_acc. f_equal. ring. Qed.

Lemma lsum_nonneg {T} (f : T -> R) l : 0 <= lsum (map (fun i => f i ^ 2) l).
Proof. induction l as [|a l IH]; cbn [map lsum]; [lra|]. pose proof (pow2_ge_0 (f a)). lra. Qed.

Definition wp_edf (N m : nat) : R := (INR N + 1) * (INR N - 2 * INR m) / (2 * (INR N - INR m)).
Definition wf_edf (N m : nat) : R :=
  (3 * (INR N - 1) / (2 * INR m) - 2 * (INR N - 2) / INR N) * (4 * INR m ^ 2 / (4 * INR m ^ 2 + 5)).
Definition fp_edf (N m : nat) : R :=
  (INR N - 2) / (INR m * (INR N - 3) ^ 2) * ((INR N - 1) ^ 2 - 3 * INR m * (INR N - 1) + 4 * INR m ^ 2).
(** degrees of freedom used by gradev for each noisetype argument *)
Definition gr_edf (noisetype : string) (N m : nat) : R :=
  if String.eqb noisetype "wp" then wp_edf N m
  else if String.eqb noisetype "wf" then wf_edf N m
  else if String.eqb noisetype "fp" then fp_edf N m
  else INR N - 1.

Lemma pydiv_X a b : b <> 0 -> pydiv (Fin a) (Fin b) = Ok (Fin (a / b)).
Proof.
  intros H. unfold pydiv. change (neqb (Fin b) (ofZ 0)) with (Reqb b 0).
  rewrite (proj2 (Reqb_false b 0) H). f_equal. now apply x_div_fin.
Qed.

Lemma edf_X nlog nexp (N m : nat) nt : (4 <= N)%nat -> (1 <= m)%nat -> (nt = "wp"%string -> N <> m) ->
  edf_simple nlog nexp (Z.of_nat N) (Z.of_nat m)
    (if String.eqb nt "wp" then Some 2%Z else if String.eqb nt "wf" then Some 0%Z
     else if String.eqb nt "fp" then Some (-2)%Z else None) = Ok (Fin (gr_edf nt N m)).
Proof.
  intros HN Hm Hw. unfold gr_edf.
  assert (HN' : 4 <= INR N) by (apply le_INR in HN; cbn in HN; lra).
  assert (Hm' : 1 <= INR m) by (apply le_INR in Hm; cbn in Hm; lra).
  assert (Hm2 : 0 < INR m * INR m) by nra.
  destruct (String.eqb_spec nt "wp") as [->|Hnw]; [|destruct (String.eqb nt "wf"); [|destruct (String.eqb nt "fp")]];
    unfold edf_simple; cbn [ofZ nadd nsub nmul ndiv XNum x_add x_sub x_mul]; rewrite <- ?INR_IZR_INZ.
  - rewrite pydiv_X; [reflexivity|]. specialize (Hw eq_refl). apply not_INR in Hw. lra.
  - rewrite !pydiv_X by nra. cbn [bind x_sub x_mul]. do 2 f_equal. unfold wf_edf. cbn [pow]. field. repeat split; nra.
  - rewrite pydiv_X. 2:{ apply Rmult_integral_contrapositive_currified; [lra|]. apply Rmult_integral_contrapositive_currified; lra. }
    cbn [bind x_mul x_add x_sub]. do 2 f_equal. unfold fp_edf. field. split; lra.
  - reflexivity.
Qed.

Lemma edf_X_wp nlog nexp (m : nat) : edf_simple nlog nexp (Z.of_nat m) (Z.of_nat m) (Some 2%Z) = @Err ext ZeroDivisionError.
Proof.
  unfold edf_simple. cbn [ofZ nadd nsub nmul ndiv XNum x_add x_sub x_mul].
  unfold pydiv. change (neqb (Fin ?b) (ofZ 0)) with (Reqb b 0).
  rewrite (proj2 (Reqb_true _ 0)) by ring. reflexivity.
Qed.

Lemma second_diff_X n n2 n1 n0 (f2 f1 f0 : nat -> ext) :
  (n <= n2)%nat -> (n <= n1)%nat -> (n <= n0)%nat ->
  second_diff n (tab n2 f2) (tab n1 f1) (tab n0 f0) =
  Ok (tab n (fun i => x_add (x_sub (f2 i) (x_mul (Fin 2) (f1 i))) (f0 i))).
Proof.
  intros H2 H1 H0. unfold second_diff, scal, vsub, vadd.
  rewrite !firstn_tab, !Nat.min_l by assumption.
  rewrite map_tab, bmap2_tab. cbn [bind]. rewrite bmap2_tab. reflexivity.
Qed.

(** two triples have at least four points *)
Lemma count_in (p : nat -> bool) N l : NoDup l -> (forall i, In i l -> (i < N)%nat /\ p i = true) ->
  (len l <= len (filter p (seq 0 N)))%nat.
Proof.
  intros Hn Hi. apply NoDup_incl_length; [exact Hn|]. intros i H. destruct (Hi i H).
  apply filter_In. split; [apply in_seq; lia|assumption].
Qed.

Lemma present_lt g i : present g i = true -> (i < len g)%nat.
Proof.
  unfold present. intros H. destruct (le_lt_dec (len g) i) as [L|L]; [|exact L].
  rewrite nth_overflow in H by exact L. discriminate.
Qed.

Lemma triples_in g m i : In i (triples g m) <->
  present g i = true /\ present g (i + m) = true /\ present g (i + 2 * m) = true.
Proof.
  unfold triples. rewrite filter_In, !andb_true_iff, in_seq. split.
  - intros (_ & (H1 & H2) & H3). auto.
  - intros (H1 & H2 & H3). repeat split; auto; try lia. apply present_lt in H3. lia.
Qed.

Lemma seq_ssorted n : forall s, StronglySorted lt (seq s n).
Proof.
  induction n as [|n IH]; intros s; cbn; constructor; auto.
  apply Forall_forall. intros x Hx. apply in_seq in Hx. lia.
Qed.

Lemma points_4 g m : (1 <= m)%nat -> (1 < len (triples g m))%nat -> (4 <= points g)%nat.
Proof.
  intros Hm Hn. pose proof (triples_in g m) as Hin.
  assert (Hs : StronglySorted lt (triples g m)).
  { apply filter_StronglySorted, seq_ssorted. }
  destruct (triples g m) as [|i [|j l]]; cbn [len] in Hn; try lia.
  apply StronglySorted_inv in Hs as [_ Hs]. inversion Hs as [|? ? Hij _]; subst.
  destruct (proj1 (Hin i)) as (A1 & A2 & A3); [cbn; auto|].
  destruct (proj1 (Hin j)) as (B1 & B2 & B3); [cbn; auto|].
  unfold points. apply (count_in _ _ [i; j + 2 * m; (if Nat.eq_dec j (i + m) then i + m else j); (if Nat.eq_dec j (i + m) then i + 2 * m else i + m)]%nat).
  - destruct (Nat.eq_dec j (i + m)) as [->|Hne].
    + repeat (constructor; [cbn; intuition lia|]). constructor.
    + repeat (constructor; [cbn; intuition lia|]). constructor.
  - intros k Hk. assert (present g k = true).
    { destruct (Nat.eq_dec j (i + m)); cbn in Hk; intuition subst; assumption. }
    split; [now apply present_lt|assumption].
Qed.

Lemma calc_gradev_X nlog nexp ppf g rate m ci nt : 0 < rate -> (1 <= m)%nat ->
  let n := len (triples g m) in
  exists d e c, calc_gradev_phase nlog nexp ppf (with_gaps g) (Fin rate) m 1 ci nt =
    (if ((1 <? n)%nat && String.eqb nt "wp" && Nat.eqb (points g) m)%bool then Err ZeroDivisionError else Ok (d, e, c)) /\
    ((1 < c)%Z \/ (1 < n)%nat -> c = Z.of_nat n /\ d = Fin (sqrt (gr_var g (1 / rate) m)) /\
       e = confidence_interval ppf d ci (Fin (gr_edf nt (points g) m))).
Proof.
  intros Hr Hm n. unfold calc_gradev_phase. rewrite (with_gaps_tab g).
  rewrite !pystride_tab by lia. cbn [bind]. rewrite !tab_length, !stride_count_1.
  replace (min3 (len g - 0) (len g - 1 * m) (len g - 2 * m)) with (len g - 2 * m)%nat by (unfold min3; lia).
  rewrite second_diff_X by lia. cbn [bind].
  set (p := fun i => (present g i && present g (i + m) && present g (i + 2 * m))%bool).
  set (v := fun i => point g (i + 2 * m) - 2 * point g (i + m) + point g i).
  assert (Ev : tab (len g - 2 * m) (fun i => x_add (x_sub (gval g (2 * m + i * 1)) (x_mul (Fin 2) (gval g (1 * m + i * 1)))) (gval g (0 + i * 1)))
     = map (fun i => if p i then Fin (v i) else NaN) (seq 0 (len g - 2 * m))).
  { apply tab_ext. intros i Hi. unfold gval, p, v.
    replace (2 * m + i * 1)%nat with (i + 2 * m)%nat by lia. replace (1 * m + i * 1)%nat with (i + m)%nat by lia.
    replace (0 + i * 1)%nat with i by lia.
    destruct (present g (i + 2 * m)), (present g (i + m)), (present g i); reflexivity. }
  rewrite Ev. rewrite filter_partial, map_length. fold (triples g m). change (filter p (seq 0 (len g - 2 * m))) with (triples g m).
  fold n.
  assert (Esq : map nsq (map (fun i => if p i then Fin (v i) else NaN) (seq 0 (len g - 2 * m)))
     = map (fun i => if p i then Fin (v i ^ 2) else NaN) (seq 0 (len g - 2 * m))).
  { rewrite map_map. apply map_ext. intros i. destruct (p i); cbn; [f_equal; ring|reflexivity]. }
  rewrite Esq, filter_partial. change (filter p (seq 0 (len g - 2 * m))) with (triples g m).
  rewrite <- (map_map (fun i => v i ^ 2) Fin), asum_Fin.
  assert (EN : len (filter (fun v0 => negb (nisnan v0)) (tab (len g) (gval g))) = points g).
  { unfold tab, gval. rewrite filter_partial, map_length. reflexivity. }
  rewrite EN.
  set (s := lsum _).
  assert (Hs : 0 <= s) by apply lsum_nonneg.
  set (n1 := if Nat.eqb n 0 then 1%nat else n).
  assert (Hn1 : (1 <= n1)%nat) by (unfold n1; destruct (Nat.eqb_spec n 0); lia).
  assert (HI : 1 <= INR n1) by (apply le_INR in Hn1; cbn in Hn1; lra).
  assert (Hm' : 1 <= INR m) by (apply le_INR in Hm; cbn in Hm; lra).
  assert (Ed : (nsqrt (Fin s / (ofZ 2 * ofN n1)) / ofN m * Fin rate)%num = Fin (sqrt (s / (2 * INR n1)) / INR m * rate)).
  { unfold ofN. cbn [ofZ nmul nsqrt ndiv XNum x_mul]. rewrite <- !INR_IZR_INZ.
    rewrite x_div_fin by lra. rewrite x_sqrt_fin.
    - rewrite x_div_fin by lra. reflexivity.
    - apply Rmult_le_pos; [exact Hs|]. left. apply Rinv_0_lt_compat. lra. }
  rewrite Ed. clear Ed Ev Esq.
  assert (Hd : (1 <= n)%nat -> sqrt (s / (2 * INR n1)) / INR m * rate = sqrt (gr_var g (1 / rate) m)).
  { intros Hn. assert (n1 = n) as -> by (unfold n1; destruct (Nat.eqb_spec n 0); lia).
    unfold gr_var. fold n. change (lsum _) with s.
    replace (/ (2 * (INR m * (1 / rate)) ^ 2 * INR n) * s) with (s / (2 * INR n) * (rate / INR m) ^ 2) by (field; lra).
    rewrite sqrt_mult_alt.
    2:{ apply Rmult_le_pos; [exact Hs|]. left. apply Rinv_0_lt_compat. assert (1 <= INR n) by (apply le_INR in Hn; cbn in Hn; lra). lra. }
    rewrite sqrt_pow2. { field. lra. }
    apply Rmult_le_pos; [lra|]. left. apply Rinv_0_lt_compat. lra. }
  destruct (Nat.ltb_spec 1 n1) as [L|L].
  - assert (Hnn : n1 = n) by (unfold n1 in *; destruct (Nat.eqb_spec n 0); lia).
    rewrite (proj2 (Nat.ltb_lt 1 n)) by lia. cbn [andb].
    destruct (String.eqb nt "wp" && Nat.eqb (points g) m)%bool eqn:Eb.
    + apply andb_true_iff in Eb as [Ew Ep]. rewrite Ew. apply Nat.eqb_eq in Ep. rewrite Ep.
      rewrite edf_X_wp. cbn [bind]. do 3 eexists. split; [reflexivity|]. intros _. split; [reflexivity|]. split; reflexivity.
    + rewrite edf_X.
      * cbn [bind]. do 3 eexists. split; [reflexivity|]. intros _. rewrite Hd by lia. rewrite Hnn. auto.
      * apply (points_4 g m); [exact Hm|]. fold n. lia.
      * exact Hm.
      * intros ->. rewrite String.eqb_refl in Eb. cbn [andb] in Eb. apply Nat.eqb_neq in Eb. exact Eb.
  - assert (Hnn : (n <= 1)%nat) by (unfold n1 in *; destruct (Nat.eqb_spec n 0); lia).
    destruct (Nat.ltb_spec 1 n); [lia|]. cbn [andb bind].
    do 3 eexists. split; [reflexivity|]. intros [C|C]; lia.
Qed.

Lemma mapM_Err {A B} (f : A -> res B) e l : (forall a, In a l -> (exists b, f a = Ok b) \/ f a = Err e) ->
  (exists a, In a l /\ f a = Err e) -> mapM f l = Err e.
Proof.
  induction l as [|a l IH]; intros H (x & Hx & Ex); [destruct Hx|]. cbn.
  destruct (H a (or_introl eq_refl)) as [(b & Eb)|Ea]; [|now rewrite Ea].
  rewrite Eb. cbn. rewrite IH; [reflexivity|intros y Hy; apply H; now right|].
  destruct Hx as [->|Hx]; [congruence|]. now exists x.
Qed.

(** ** gradev *)
(** the division by zero in the default degrees-of-freedom formula *)
Definition gr_fails (nt : string) (g : list (option R)) (m : nat) : Prop :=
  nt = "wp"%string /\ points g = m /\ (1 < len (triples g m))%nat.

Lemma gradev_ok nlog nexp ppf g rate taus ms ci nt : 0 < rate -> admissible (len g) rate taus ms ->
  (forall m, In m ms -> ~ gr_fails nt g m) ->
  let dev := fun m => sqrt (gr_var g (1 / rate) m) in
  let cnt := fun m => Z.of_nat (len (triples g m)) in
  let lim := fun m => confidence_interval ppf (Fin (dev m)) ci (Fin (gr_edf nt (points g) m)) in
  gradev nlog nexp ppf (with_gaps g) (Fin rate) "phase" (req taus) ci nt =
  report2 rate ms dev (fun m => fst (lim m)) (fun m => snd (lim m)) cnt.
Proof.
  intros Hr Ha Hf dev cnt lim. unfold gradev.
  change (input_to_phase (with_gaps g) (Fin rate) "phase") with (@Ok (list ext) (with_gaps g)). cbn [bind].
  set (y := map (fun _ => 0) g). 
  assert (Hy : len y = len g) by apply map_length.
  rewrite (taugen_X _ y) by (unfold with_gaps; rewrite map_length; now rewrite Hy).
  rewrite (tau_generator_default y rate taus ms) by (rewrite ?Hy; auto; lra). cbn [bind].
  assert (Hex : exists h : nat -> ext * (ext * ext) * Z, forall m, In m ms ->
     calc_gradev_phase nlog nexp ppf (with_gaps g) (Fin rate) m 1 ci nt = Ok (h m) /\
     ((1 < snd (h m))%Z \/ (1 < cnt m)%Z -> h m = (Fin (dev m), lim m, cnt m))).
  { exists (fun m => match calc_gradev_phase nlog nexp ppf (with_gaps g) (Fin rate) m 1 ci nt with Ok r => r | Err _ => (Fin 0, (Fin 0, Fin 0), 0%Z) end).
    intros m Hm. destruct Ha as (_ & _ & Hi). pose proof (proj1 (Hi m) Hm) as (Hb & _).
    destruct (calc_gradev_X nlog nexp ppf g rate m ci nt Hr ltac:(lia)) as (d & e & c & E & Hc). cbv zeta in E.
    destruct ((1 <? len (triples g m))%nat && String.eqb nt "wp" && Nat.eqb (points g) m)%bool eqn:Eb.
    { exfalso. apply andb_true_iff in Eb as [Eb E3]. apply andb_true_iff in Eb as [E1 E2].
      apply (Hf m Hm). split; [now apply String.eqb_eq|]. split; [now apply Nat.eqb_eq|now apply Nat.ltb_lt]. }
    rewrite E. cbn [snd fst]. split; [reflexivity|]. intros Hor.
    destruct Hc as (-> & -> & ->); [|reflexivity]. unfold cnt in Hor. lia. }
  destruct Hex as (h & Hh).
  rewrite (mapM_Ok _ (fun z => h (Z.to_nat z))).
  2:{ intros z Hz. apply in_map_iff in Hz as (m & <- & Hm). rewrite Nat2Z.id. now apply Hh. }
  cbn [bind]. rewrite !map_map. unfold remove_small_ns. rewrite !map_map.
  rewrite !(map_ext (fun x => (1 <? snd (h (Z.to_nat (Z.of_nat x))))%Z) (fun x => (1 <? snd (h x))%Z)) by (intros; now rewrite Nat2Z.id).
  rewrite !mask_select_map. cbn [bind].
  assert (Ef : filter (fun m => (1 <? snd (h m))%Z) ms = filter (fun m => (1 <? cnt m)%Z) ms).
  { apply filter_ext_in. intros m Hm. destruct (Hh m Hm) as [_ Hc].
    destruct (Z.ltb_spec 1 (snd (h m))) as [L|L].
    - rewrite Hc in L by (now left). cbn in L. symmetry. now apply Z.ltb_lt.
    - destruct (Z.ltb_spec 1 (cnt m)) as [L'|L']; [|reflexivity]. rewrite Hc in L by (now right). cbn [snd] in L. lia. }
  rewrite Ef. unfold report2.
  assert (Hg : forall m, In m (filter (fun m => (1 <? cnt m)%Z) ms) -> h m = (Fin (dev m), lim m, cnt m)).
  { intros m Hm. apply filter_In in Hm as [Hm Hc]. apply Z.ltb_lt in Hc. apply Hh; auto. }
  destruct (filter (fun m => (1 <? cnt m)%Z) ms) as [|m0 good] eqn:Eg; [reflexivity|].
  set (L := m0 :: good) in *.
  assert (E1 : map (fun x => fst (fst (h (Z.to_nat (Z.of_nat x))))) L = map (fun m => Fin (dev m)) L)
    by (apply map_ext_in; intros m Hm; rewrite Nat2Z.id, Hg by exact Hm; reflexivity).
  assert (E2 : map (fun x => fst (snd (fst (h (Z.to_nat (Z.of_nat x)))))) L = map (fun m => fst (lim m)) L)
    by (apply map_ext_in; intros m Hm; rewrite Nat2Z.id, Hg by exact Hm; reflexivity).
  assert (E3 : map (fun x => snd (snd (fst (h (Z.to_nat (Z.of_nat x)))))) L = map (fun m => snd (lim m)) L)
    by (apply map_ext_in; intros m Hm; rewrite Nat2Z.id, Hg by exact Hm; reflexivity).
  assert (E4 : map (fun x => snd (h (Z.to_nat (Z.of_nat x)))) L = map cnt L)
    by (apply map_ext_in; intros m Hm; rewrite Nat2Z.id, Hg by exact Hm; reflexivity).
  rewrite E1, E2, E3, E4. reflexivity.
Qed.

Lemma gradev_zerodiv nlog nexp ppf g rate taus ms ci nt : 0 < rate -> admissible (len g) rate taus ms ->
  (exists m, In m ms /\ gr_fails nt g m) ->
  gradev nlog nexp ppf (with_gaps g) (Fin rate) "phase" (req taus) ci nt = Err ZeroDivisionError.
Proof.
  intros Hr Ha (m & Hm & Ew & Ep & En). unfold gradev.
  change (input_to_phase (with_gaps g) (Fin rate) "phase") with (@Ok (list ext) (with_gaps g)). cbn [bind].
  set (y := map (fun _ => 0) g). 
  assert (Hy : len y = len g) by apply map_length.
  rewrite (taugen_X _ y) by (unfold with_gaps; rewrite map_length; now rewrite Hy).
  rewrite (tau_generator_default y rate taus ms) by (rewrite ?Hy; auto; lra). cbn [bind].
  rewrite (mapM_Err _ ZeroDivisionError); [reflexivity| |].
  - intros z Hz. apply in_map_iff in Hz as (k & <- & Hk). rewrite Nat2Z.id.
    destruct Ha as (_ & _ & Hi). pose proof (proj1 (Hi k) Hk) as (Hb & _).
    destruct (calc_gradev_X nlog nexp ppf g rate k ci nt Hr ltac:(lia)) as (d & e & c & E & _). cbv zeta in E. rewrite E.
    destruct (_ && _ && _)%bool; [now right|left; eauto].
  - exists (Z.of_nat m). split; [now apply in_map|]. rewrite Nat2Z.id.
    destruct Ha as (_ & _ & Hi). pose proof (proj1 (Hi m) Hm) as (Hb & _).
    destruct (calc_gradev_X nlog nexp ppf g rate m ci nt Hr ltac:(lia)) as (d & e & c & E & _). cbv zeta in E. rewrite E.
    rewrite (proj2 (Nat.ltb_lt _ _) En), Ew, Ep, Nat.eqb_refl. reflexivity.
Qed.

(** no gaps *)
Lemma points_full x : points (map Some x) = len x.
Proof.
  unfold points. rewrite map_length.
  assert (G : forall l, (forall i, In i l -> present (map Some x) i = true) -> filter (present (map Some x)) l = l).
  { induction l as [|a l IH]; intros H; [reflexivity|]. cbn. rewrite H by (cbn; auto). f_equal. apply IH. intros; apply H; cbn; auto. }
  rewrite G; [apply seq_length|]. intros i Hi. apply in_seq in Hi. unfold present.
  rewrite (nth_indep _ None (Some 0)) by (rewrite map_length; lia). now rewrite (map_nth Some).
Qed.
Lemma present_full x i : (i < len x)%nat -> present (map Some x) i = true /\ point (map Some x) i = x.[i].
Proof.
  intros Hi. unfold present, point. rewrite (nth_indep _ None (Some 0)) by (rewrite map_length; lia).
  now rewrite (map_nth Some).
Qed.
Lemma triples_full x m : triples (map Some x) m = seq 0 (len x - 2 * m).
Proof.
  unfold triples. rewrite map_length.
  assert (G : forall (p : nat -> bool) l, (forall i, In i l -> p i = true) -> filter p l = l).
  { intros p. induction l as [|a l IH]; intros H; [reflexivity|]. cbn. rewrite H by (cbn; auto). f_equal. apply IH. intros; apply H; cbn; auto. }
  apply G. intros i Hi. apply in_seq in Hi. rewrite !(fun i H => proj1 (present_full x i H)) by lia. reflexivity.
Qed.
Lemma lsum_seq n f : lsum (map f (seq 0 n)) = bigsum n f.
Proof.
  assert (G : forall s, lsum (map f (seq s n)) = bigsum n (fun i => f (s + i)%nat)).
  { induction n as [|n IH]; intros s; [reflexivity|]. cbn [seq map lsum]. rewrite IH, bigsum_S_l, Nat.add_0_r. f_equal.
    apply bigsum_ext. intros. f_equal. lia. }
  apply (G 0%nat).
Qed.
Lemma gr_var_full x t m : gr_var (map Some x) t m = oavar x t m.
Proof.
  unfold gr_var, oavar, oadev_n. rewrite triples_full, seq_length. f_equal. rewrite lsum_seq. apply bigsum_ext.
  intros i Hi. rewrite !(fun i H => proj2 (present_full x i H)) by lia. reflexivity.
Qed.

Lemma gradev_no_gaps nlog nexp ppf x rate taus ci nt : 0 < rate ->
  match oadev x rate "phase" taus with
  | Ok (t, d, _, n) => exists lo hi, gradev nlog nexp ppf (map Fin x) (Fin rate) "phase" (req taus) ci nt =
       Ok (map Fin t, map Fin d, EList [lo; hi], n)
  | Err e => gradev nlog nexp ppf (map Fin x) (Fin rate) "phase" (req taus) ci nt = Err e
  end.
Proof.
  intros Hr.
  assert (Hx : map Fin x = with_gaps (map Some x)) by (unfold with_gaps; rewrite map_map; reflexivity).
  destruct (gcodev_cases x x rate taus Hr eq_refl) as [(e & He & H)|(ms & He & Hms & _)].
  { rewrite gcodev_self in H by exact Hr. rewrite H. unfold gradev.
    change (input_to_phase (map Fin x) (Fin rate) "phase") with (@Ok (list ext) (map Fin x)). cbn [bind].
    rewrite (taugen_X _ x) by (now rewrite map_length).
    now rewrite (tau_generator_bad x rate taus false _ e) by (auto; lra). }
  rewrite (oadev_spec x rate taus ms Hr Hms). cbv zeta.
  rewrite Hx.
  rewrite (gradev_ok nlog nexp ppf (map Some x) rate taus ms ci nt Hr); [|now rewrite map_length|].
  2:{ intros m Hm (_ & Hp & _). rewrite points_full in Hp. destruct Hms as (_ & _ & Hi). apply Hi in Hm. lia. }
  cbv zeta. unfold report, report2. rewrite points_full.
  rewrite (filter_ext (fun m => (1 <? Z.of_nat (len (triples (map Some x) m)))%Z) (fun m => (1 <? Z.of_nat (oadev_n x m))%Z)).
  2:{ intros m. rewrite triples_full, seq_length. reflexivity. }
  destruct (filter _ ms) as [|m0 good]; [reflexivity|]. set (L := m0 :: good).
  rewrite (map_ext (fun m => Z.of_nat (len (triples (map Some x) m))) (fun m => Z.of_nat (oadev_n x m)))
    by (intros m; now rewrite triples_full, seq_length).
  rewrite (map_ext (fun m => Fin (sqrt (gr_var (map Some x) (1 / rate) m))) (fun m => Fin (sqrt (oavar x (1 / rate) m))))
    by (intros m; now rewrite gr_var_full).
  do 2 eexists. rewrite !map_map. reflexivity.
Qed.
