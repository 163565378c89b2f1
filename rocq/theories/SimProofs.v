(** * Two runs of the same function on related records.

    [V] relates the entries of the two records, [S] squares of such values,
    [D] deviations, [T] peak-to-peak differences.  Sample rate, taus and all
    other constants are the same in both runs. *)
From Coq Require Import String List ZArith Lia Arith Bool.
From Verif Require Import Base Num NpList ModelCore ModelDev ModelMisc ModelCi ModelRt ListFacts.
Import ListNotations.
Local Notation len := List.length.
Local Open Scope num_scope.
Local Open Scope res_scope.

(** both raise the same exception, or both return related values *)
Definition rres {A B} (Q : A -> B -> Prop) (r : res A) (r' : res B) : Prop :=
  match r, r' with Ok a, Ok b => Q a b | Err e, Err e' => e = e' | _, _ => False end.

Lemma rres_bind {A B C D} (P : A -> B -> Prop) (Q : C -> D -> Prop) r r' f f' :
  rres P r r' -> (forall a b, P a b -> rres Q (f a) (f' b)) -> rres Q (bind r f) (bind r' f').
Proof. destruct r, r'; cbn; intros H Hf; try contradiction; auto. Qed.
Lemma rres_impl {A B} (P Q : A -> B -> Prop) r r' : (forall a b, P a b -> Q a b) -> rres P r r' -> rres Q r r'.
Proof. destruct r, r'; cbn; auto. Qed.
Lemma rres_refl {A} (P : A -> A -> Prop) r : (forall a, P a a) -> rres P r r.
Proof. destruct r; cbn; auto. Qed.
Lemma rres_eq {A} (r r' : res A) : rres eq r r' -> r = r'.
Proof. destruct r, r'; cbn; intros H; try contradiction; congruence. Qed.

Lemma foldM_rel {A B C} (P : A -> B -> Prop) (f : A -> C -> res A) (f' : B -> C -> res B) l : forall a b,
  (forall a b c, In c l -> P a b -> rres P (f a c) (f' b c)) -> P a b -> rres P (foldM f l a) (foldM f' l b).
Proof.
  induction l as [|c l IH]; intros a b Hf H; cbn [foldM]; [exact H|].
  eapply rres_bind; [apply Hf; [now left|exact H]|]. intros a' b' H'. apply IH; [|exact H'].
  intros a0 b0 c0 Hc. apply Hf. now right.
Qed.
Lemma mapM_rel {A B C D} (P : C -> D -> Prop) (Q : A -> B -> Prop) (f : C -> res A) (f' : D -> res B) l l' :
  Forall2 P l l' -> (forall c d, P c d -> rres Q (f c) (f' d)) -> rres (Forall2 Q) (mapM f l) (mapM f' l').
Proof.
  intros H Hf. induction H as [|c d l l' Hc H IH]; cbn [mapM]; [constructor|].
  eapply rres_bind; [apply Hf, Hc|]. intros a b Hab. eapply rres_bind; [exact IH|]. intros q q' Hq. now constructor.
Qed.
Lemma map_rel {A B C D} (P : C -> D -> Prop) (Q : A -> B -> Prop) f f' l l' :
  Forall2 P l l' -> (forall c d, P c d -> Q (f c) (f' d)) -> Forall2 Q (map f l) (map f' l').
Proof. intros H Hf. induction H; cbn; constructor; auto. Qed.

Lemma Forall2_length {A B} (P : A -> B -> Prop) l l' : Forall2 P l l' -> len l = len l'.
Proof. induction 1; cbn; auto. Qed.
Lemma Forall2_eq {A} (l : list A) : Forall2 eq l l.
Proof. induction l; now constructor. Qed.
Lemma Forall2_is_eq {A} (l l' : list A) : Forall2 eq l l' -> l = l'.
Proof. induction 1; congruence. Qed.
Lemma Forall2_firstn {A B} (P : A -> B -> Prop) n l l' : Forall2 P l l' -> Forall2 P (firstn n l) (firstn n l').
Proof. intros H. revert n. induction H; destruct n; cbn; constructor; auto. Qed.
Lemma Forall2_skipn {A B} (P : A -> B -> Prop) n l l' : Forall2 P l l' -> Forall2 P (skipn n l) (skipn n l').
Proof. intros H. revert n. induction H; destruct n; cbn; try constructor; auto. Qed.
Lemma Forall2_rev {A B} (P : A -> B -> Prop) l l' : Forall2 P l l' -> Forall2 P (rev l) (rev l').
Proof. intros H. induction H; cbn; [constructor|]. apply Forall2_app; auto. Qed.
Lemma Forall2_repeat {A B} (P : A -> B -> Prop) a b n : P a b -> Forall2 P (repeat a n) (repeat b n).
Proof. intros H. induction n; cbn; constructor; auto. Qed.
Lemma everyk_rel {A B} (P : A -> B -> Prop) k l l' : Forall2 P l l' -> forall c, Forall2 P (everyk k c l) (everyk k c l').
Proof. intros H. induction H; intros [|c]; cbn; try constructor; auto. Qed.
Lemma pystride_rel {A B} (P : A -> B -> Prop) a s l l' : Forall2 P l l' -> rres (Forall2 P) (pystride a s l) (pystride a s l').
Proof. intros H. destruct s; cbn; [reflexivity|]. now apply everyk_rel, Forall2_skipn. Qed.
Lemma pyslice_rel {A B} (P : A -> B -> Prop) a b l l' : Forall2 P l l' -> Forall2 P (pyslice a b l) (pyslice a b l').
Proof. intros H. now apply Forall2_firstn, Forall2_skipn. Qed.
Lemma pyfrom_rel {A B} (P : A -> B -> Prop) a l l' : Forall2 P l l' -> Forall2 P (pyfrom a l) (pyfrom a l').
Proof. intros H. unfold pyfrom. rewrite (Forall2_length _ _ _ H). destruct (_ <? _)%Z; now apply Forall2_skipn. Qed.
Lemma nth_error_rel {A B} (P : A -> B -> Prop) l l' : Forall2 P l l' -> forall n,
  match nth_error l n, nth_error l' n with Some a, Some b => P a b | None, None => True | _, _ => False end.
Proof. intros H. induction H; intros [|n]; cbn; auto. apply IHForall2. Qed.
Lemma pyget_rel {A B} (P : A -> B -> Prop) l l' i : Forall2 P l l' -> rres P (pyget l i) (pyget l' i).
Proof.
  intros H. unfold pyget. rewrite (Forall2_length _ _ _ H). set (j := if (i <? 0)%Z then _ else _).
  destruct (j <? 0)%Z; [reflexivity|]. pose proof (nth_error_rel P l l' H (Z.to_nat j)) as Hn.
  destruct (nth_error l _), (nth_error l' _); cbn; auto; contradiction.
Qed.
Lemma removelast_rel {A B} (P : A -> B -> Prop) l l' : Forall2 P l l' -> Forall2 P (removelast l) (removelast l').
Proof. intros H. induction H as [|a b l l' Ha H IH]; cbn; [constructor|]. destruct H; constructor; auto. Qed.
Lemma tl_rel {A B} (P : A -> B -> Prop) l l' : Forall2 P l l' -> Forall2 P (tl l) (tl l').
Proof. intros H. destruct H; [constructor|assumption]. Qed.
Lemma map2_rel {A B A' B' C C'} (P : A -> A' -> Prop) (Q : B -> B' -> Prop) (W : C -> C' -> Prop) f f' a a' b b' :
  (forall x x' y y', P x x' -> Q y y' -> W (f x y) (f' x' y')) ->
  Forall2 P a a' -> Forall2 Q b b' -> Forall2 W (map2 f a b) (map2 f' a' b').
Proof.
  intros Hf Ha. revert b b'. induction Ha; intros c c' Hb; cbn; [constructor|].
  destruct Hb; constructor; auto.
Qed.
Lemma bmap2_rel {A B A' B' C C'} (P : A -> A' -> Prop) (Q : B -> B' -> Prop) (W : C -> C' -> Prop) f f' a a' b b' :
  (forall x x' y y', P x x' -> Q y y' -> W (f x y) (f' x' y')) ->
  Forall2 P a a' -> Forall2 Q b b' -> rres (Forall2 W) (bmap2 f a b) (bmap2 f' a' b').
Proof.
  intros Hf Ha Hb. unfold bmap2. rewrite (Forall2_length _ _ _ Ha), (Forall2_length _ _ _ Hb).
  destruct (Nat.eqb _ _); [cbn; eapply map2_rel; eauto|].
  destruct Ha as [|x x' a a' Hx Ha]; [|destruct Ha as [|x1 x1' a a' Hx1 Ha]];
    (destruct Hb as [|y y' b b' Hy Hb]; [|destruct Hb as [|y1 y1' b b' Hy1 Hb]]); cbn; auto; repeat constructor; auto.
  - eapply map_rel; [exact Hb|]. auto.
  - eapply map_rel; [exact Ha|]. auto.
Qed.
Lemma mask_zip_rel {A B} (P : A -> B -> Prop) m : forall l l', Forall2 P l l' -> Forall2 P (mask_zip m l) (mask_zip m l').
Proof. induction m as [|b m IH]; intros l l' H; cbn; [constructor|]. destruct H; [constructor|]. destruct b; [constructor|]; auto. Qed.
Lemma mask_select_rel {A B} (P : A -> B -> Prop) m l l' : Forall2 P l l' -> rres (Forall2 P) (mask_select m l) (mask_select m l').
Proof. intros H. unfold mask_select. rewrite (Forall2_length _ _ _ H). destruct (Nat.eqb _ _); cbn; [now apply mask_zip_rel|reflexivity]. Qed.

Section Sim.
Context {A : Type} {NA : Num A}.

(** rows (dev, err, n) and results: same taus and n, related deviations and errors *)
Definition row_rel (D : A -> A -> Prop) (r r' : A * A * Z) : Prop :=
  D (fst (fst r)) (fst (fst r')) /\ D (snd (fst r)) (snd (fst r')) /\ snd r = snd r'.
Definition errs_rel (D : A -> A -> Prop) (e e' : errs A) : Prop :=
  match e, e' with
  | EArr l, EArr l' => Forall2 D l l'
  | EList ls, EList ls' => Forall2 (Forall2 D) ls ls'
  | _, _ => False
  end.
Definition result_rel (D : A -> A -> Prop) (r r' : @result A) : Prop :=
  let '(t, d, e, n) := r in let '(t', d', e', n') := r' in t = t' /\ n = n' /\ Forall2 D d d' /\ errs_rel D e e'.

(** the arithmetic respects the relations *)
Record sim (V S D : A -> A -> Prop) : Prop := {
  v_zero : V (ofZ 0) (ofZ 0);
  v_add : forall a a' b b', V a a' -> V b b' -> V (a + b) (a' + b');
  v_sub : forall a a' b b', V a a' -> V b b' -> V (a - b) (a' - b');
  v_cl : forall c a a', V a a' -> V (c * a) (c * a');
  v_cr : forall c a a', V a a' -> V (a * c) (a' * c);
  v_div : forall c a a', V a a' -> V (a / c) (a' / c);
  v_nan : forall a a', V a a' -> nisnan a' = nisnan a;
  s_zero : S (ofZ 0) (ofZ 0);
  s_sq : forall a a', V a a' -> S (a * a) (a' * a');
  s_add : forall a a' b b', S a a' -> S b b' -> S (a + b) (a' + b');
  s_cl : forall c a a', S a a' -> S (c * a) (c * a');
  s_cr : forall c a a', S a a' -> S (a * c) (a' * c);
  s_div : forall c a a', S a a' -> S (a / c) (a' / c);
  d_zero : D (ofZ 0) (ofZ 0);
  d_sqrt : forall a a', S a a' -> D (nsqrt a) (nsqrt a');
  d_cl : forall c a a', D a a' -> D (c * a) (c * a');
  d_cr : forall c a a', D a a' -> D (a * c) (a' * c);
  d_div : forall c a a', D a a' -> D (a / c) (a' / c) }.

Context (V S D : A -> A -> Prop) (H : sim V S D).
Lemma sim_v0 : V (ofZ 0) (ofZ 0). Proof. exact (v_zero _ _ _ H). Qed.
Lemma sim_s0 : S (ofZ 0) (ofZ 0). Proof. exact (s_zero _ _ _ H). Qed.
Lemma sim_d0 : D (ofZ 0) (ofZ 0). Proof. exact (d_zero _ _ _ H). Qed.
Hint Resolve sim_v0 sim_s0 sim_d0 : core.

Local Notation drow := (row_rel D).
Local Notation dresult := (result_rel D).

Lemma dev_err d d' q n : D d d' -> drow (d, d / q, n) (d', d' / q, n).
Proof. intros Hd. split; [exact Hd|]. split; [now apply (d_div _ _ _ H)|reflexivity]. Qed.

Lemma v_fold l l' : Forall2 V l l' -> forall a a', V a a' -> V (fold_left nadd l a) (fold_left nadd l' a').
Proof. intros Hl. induction Hl; intros a a' Ha; cbn [fold_left]; auto. apply IHHl. now apply (v_add _ _ _ H). Qed.
Lemma v_asum l l' : Forall2 V l l' -> V (asum l) (asum l').
Proof. intros Hl. apply v_fold; auto. Qed.
Lemma s_fold l l' : Forall2 S l l' -> forall a a', S a a' -> S (fold_left nadd l a) (fold_left nadd l' a').
Proof. intros Hl. induction Hl; intros a a' Ha; cbn [fold_left]; auto. apply IHHl. now apply (s_add _ _ _ H). Qed.
Lemma s_asum l l' : Forall2 S l l' -> S (asum l) (asum l').
Proof. intros Hl. apply s_fold; auto. Qed.
Lemma s_sumsq l l' : Forall2 V l l' -> S (sumsq l) (sumsq l').
Proof. intros Hl. apply s_asum. eapply map_rel; [exact Hl|]. apply (s_sq _ _ _ H). Qed.
Lemma v_mean l l' : Forall2 V l l' -> V (mean l) (mean l').
Proof. intros Hl. unfold mean. rewrite (Forall2_length _ _ _ Hl). now apply (v_div _ _ _ H), v_asum. Qed.
Lemma v_vadd a a' b b' : Forall2 V a a' -> Forall2 V b b' -> rres (Forall2 V) (vadd a b) (vadd a' b').
Proof. apply bmap2_rel. intros. now apply (v_add _ _ _ H). Qed.
Lemma v_vsub a a' b b' : Forall2 V a a' -> Forall2 V b b' -> rres (Forall2 V) (vsub a b) (vsub a' b').
Proof. apply bmap2_rel. intros. now apply (v_sub _ _ _ H). Qed.
Lemma v_scal c a a' : Forall2 V a a' -> Forall2 V (scal c a) (scal c a').
Proof. intros Ha. eapply map_rel; [exact Ha|]. intros. now apply (v_cl _ _ _ H). Qed.
Lemma v_second n a a' b b' c c' : Forall2 V a a' -> Forall2 V b b' -> Forall2 V c c' ->
  rres (Forall2 V) (second_diff n a b c) (second_diff n a' b' c').
Proof.
  intros. unfold second_diff. eapply rres_bind; [apply v_vsub; [now apply Forall2_firstn|now apply v_scal, Forall2_firstn]|].
  intros t t' Ht. apply v_vadd; [exact Ht|now apply Forall2_firstn].
Qed.
Lemma v_third n a a' b b' c c' d d' : Forall2 V a a' -> Forall2 V b b' -> Forall2 V c c' -> Forall2 V d d' ->
  rres (Forall2 V) (third_diff n a b c d) (third_diff n a' b' c' d').
Proof.
  intros. unfold third_diff. eapply rres_bind; [apply v_vsub; [now apply Forall2_firstn|now apply v_scal, Forall2_firstn]|].
  intros t t' Ht. eapply rres_bind; [apply v_vadd; [exact Ht|now apply v_scal, Forall2_firstn]|].
  intros u u' Hu. apply v_vsub; [exact Hu|now apply Forall2_firstn].
Qed.
Lemma v_cumsum_from l l' : Forall2 V l l' -> forall a a', V a a' -> Forall2 V (cumsum_from a l) (cumsum_from a' l').
Proof.
  intros Hl. induction Hl; intros a a' Ha; cbn [cumsum_from]; [constructor|].
  assert (V (a + x) (a' + y)) by now apply (v_add _ _ _ H). constructor; auto.
Qed.
Lemma v_cumsum l l' : Forall2 V l l' -> Forall2 V (cumsum l) (cumsum l').
Proof. intros Hl. destruct Hl; cbn [cumsum]; constructor; auto. now apply v_cumsum_from. Qed.
Lemma v_diff l l' : Forall2 V l l' -> Forall2 V (diff l) (diff l').
Proof. intros Hl. unfold diff. eapply map2_rel; [|now apply tl_rel, Hl|exact Hl]. intros. now apply (v_sub _ _ _ H). Qed.

(** ** input conversion, taus, rows *)
Lemma first_valid_rel l l' : Forall2 V l l' -> first_valid l = first_valid l'.
Proof.
  intros Hl. induction Hl as [|a a' l l' Ha Hl IH]; cbn [first_valid]; [reflexivity|].
  rewrite (v_nan _ _ _ H _ _ Ha), IH. reflexivity.
Qed.
Lemma trim_rel l l' : Forall2 V l l' -> rres (Forall2 V) (trim_data l) (trim_data l').
Proof.
  intros Hl. unfold trim_data, last_valid. rewrite (first_valid_rel l l' Hl), (first_valid_rel _ _ (Forall2_rev _ _ _ Hl)), (Forall2_length _ _ _ Hl).
  destruct (first_valid l'); cbn; [|reflexivity]. destruct (first_valid (rev l')); cbn; [|reflexivity]. now apply pyslice_rel.
Qed.
Lemma filter_nan_rel l l' : Forall2 V l l' ->
  Forall2 V (filter (fun x => negb (nisnan x)) l) (filter (fun x => negb (nisnan x)) l').
Proof.
  intros Hl. induction Hl as [|a a' l l' Ha Hl IH]; cbn [filter]; [constructor|].
  rewrite (v_nan _ _ _ H _ _ Ha). destruct (nisnan a); cbn; [exact IH|now constructor].
Qed.
Lemma f2p_rel l l' rate : Forall2 V l l' -> rres (Forall2 V) (frequency2phase l rate) (frequency2phase l' rate).
Proof.
  intros Hl. unfold frequency2phase. destruct (neqb rate (ofZ 0)); [reflexivity|].
  eapply rres_bind; [now apply trim_rel|]. intros x x' Hx. cbn [rres]. constructor; [apply (v_zero _ _ _ H)|].
  eapply map_rel; [|intros c d Hc; apply (v_cr _ _ _ H), Hc].
  apply v_cumsum. eapply map_rel; [exact Hx|]. intros c d Hc. apply (v_sub _ _ _ H); [exact Hc|].
  now apply v_mean, filter_nan_rel.
Qed.
Lemma i2p_rel l l' rate ty : Forall2 V l l' -> rres (Forall2 V) (input_to_phase l rate ty) (input_to_phase l' rate ty).
Proof.
  intros Hl. unfold input_to_phase. destruct (String.eqb _ _); [exact Hl|]. destruct (String.eqb _ _); [now apply f2p_rel|reflexivity].
Qed.
Lemma tau_gen_rel (x x' : list A) rate taus even mx : Forall2 V x x' ->
  rres (fun r r' => Forall2 V (fst (fst r)) (fst (fst r')) /\ snd (fst r) = snd (fst r') /\ snd r = snd r')
    (tau_generator x rate taus even mx) (tau_generator x' rate taus even mx).
Proof.
  intros Hx. unfold tau_generator. rewrite (Forall2_length _ _ _ Hx). destruct (neqb rate (ofZ 0)); [reflexivity|].
  destruct (expand_taus _ _ _); cbn; auto.
Qed.
Lemma remove_small_rel (D0 : A -> A -> Prop) (t d d' : list A) e e' ns : Forall2 D0 d d' -> errs_rel D0 e e' ->
  rres (result_rel D0) (remove_small_ns t d e ns) (remove_small_ns t d' e' ns).
Proof.
  intros Hd He. unfold remove_small_ns.
  eapply rres_bind with (P := eq); [now apply rres_refl|]. intros u u' <-.
  eapply rres_bind with (P := Forall2 D0); [now apply mask_select_rel|]. intros v v' Hv.
  eapply rres_bind with (P := eq); [now apply rres_refl|]. intros n n' <-.
  eapply rres_bind with (P := errs_rel D0).
  { destruct e as [l|ls], e' as [l'|ls']; cbn [errs_rel] in He; try contradiction.
    - eapply rres_bind with (P := Forall2 D0); [now apply mask_select_rel|]. intros w w' Hw. exact Hw.
    - destruct He as [|a a' ls ls' Ha He]; [reflexivity|]. destruct He as [|b b' ls ls' Hb He]; [reflexivity|].
      destruct He; [|reflexivity].
      eapply rres_bind with (P := Forall2 D0); [now apply mask_select_rel|]. intros w w' Hw.
      eapply rres_bind with (P := Forall2 D0); [now apply mask_select_rel|]. intros z z' Hz. cbn. auto. }
  intros f f' Hf. destruct Hv; cbn; [reflexivity|]. repeat split; auto.
Qed.
Lemma run_rows_rel (D0 : A -> A -> Prop) calc calc' ms (ts : list A) : (forall m, In m ms -> rres (row_rel D0) (calc (Z.to_nat m)) (calc' (Z.to_nat m))) ->
  rres (result_rel D0) (run_rows calc ms ts) (run_rows calc' ms ts).
Proof.
  intros Hc. unfold run_rows. eapply rres_bind with (P := Forall2 (row_rel D0)).
  - clear -Hc. induction ms as [|m ms IH]; cbn [mapM]; [constructor|].
    eapply rres_bind; [apply Hc; now left|]. intros a b Hab.
    eapply rres_bind; [apply IH; intros; apply Hc; now right|]. intros q q' Hq. now constructor.
  - intros rows rows' Hr.
    assert (E : map snd rows' = map snd rows) by (clear -Hr; induction Hr as [|a b l l' [_ [_ E]] Hl IH]; cbn; congruence).
    rewrite E. apply remove_small_rel; [eapply map_rel; [exact Hr|]; intros c d Hcd; apply Hcd|].
    cbn [errs_rel]. eapply map_rel; [exact Hr|]; intros c d0 Hcd; apply Hcd.
Qed.
Lemma gen_rel (D0 : A -> A -> Prop) (x x' : list A) rate taus even mx calc calc' : Forall2 V x x' ->
  (forall y y' m, Forall2 V y y' -> rres (row_rel D0) (calc y m) (calc' y' m)) ->
  rres (result_rel D0) ('(y, ms, t) <- tau_generator x rate taus even mx ;; run_rows (calc y) ms t)
               ('(y, ms, t) <- tau_generator x' rate taus even mx ;; run_rows (calc' y) ms t).
Proof.
  intros Hx Hc. eapply rres_bind; [now apply tau_gen_rel|].
  intros [[y ms] t] [[y' ms'] t'] (Hy & E1 & E2). cbn in Hy, E1, E2. subst. apply run_rows_rel. auto.
Qed.

(** ** one averaging factor *)
Lemma adev_sim x x' rate m s : Forall2 V x x' -> rres drow (calc_adev_phase x rate m s) (calc_adev_phase x' rate m s).
Proof.
  intros Hx. unfold calc_adev_phase.
  eapply rres_bind; [apply pystride_rel; eassumption|]. intros d2 d2' H2.
  eapply rres_bind; [apply pystride_rel; eassumption|]. intros d1 d1' H1.
  eapply rres_bind; [apply pystride_rel; eassumption|]. intros d0 d0' H0. cbv zeta.
  rewrite (Forall2_length _ _ _ H0), (Forall2_length _ _ _ H1), (Forall2_length _ _ _ H2). set (n := if Nat.eqb _ _ then _ else _).
  eapply rres_bind; [now apply v_second|]. intros v v' Hv. cbn [rres]. apply dev_err.
  apply (d_cr _ _ _ H), (d_div _ _ _ H), (d_sqrt _ _ _ H), (s_div _ _ _ H), s_sumsq, Hv.
Qed.
Lemma hdev_sim x x' rate m s : Forall2 V x x' -> rres drow (calc_hdev_phase x rate m s) (calc_hdev_phase x' rate m s).
Proof.
  intros Hx. unfold calc_hdev_phase. cbv zeta.
  eapply rres_bind; [apply pystride_rel; eassumption|]. intros d3 d3' H3.
  eapply rres_bind; [apply pystride_rel; eassumption|]. intros d2 d2' H2.
  eapply rres_bind; [apply pystride_rel; eassumption|]. intros d1 d1' H1.
  eapply rres_bind; [apply pystride_rel; eassumption|]. intros d0 d0' H0.
  rewrite (Forall2_length _ _ _ H0), (Forall2_length _ _ _ H1), (Forall2_length _ _ _ H2), (Forall2_length _ _ _ H3).
  eapply rres_bind; [now apply v_third|]. intros v v' Hv. cbn [rres]. apply dev_err.
  apply (d_div _ _ _ H), (d_sqrt _ _ _ H), (s_div _ _ _ H), (s_div _ _ _ H), s_sumsq, Hv.
Qed.
Lemma mdev_sim x x' rate m : Forall2 V x x' -> rres drow (calc_mdev_phase x rate m) (calc_mdev_phase x' rate m).
Proof.
  intros Hx. unfold calc_mdev_phase. cbv zeta.
  assert (Hsl : forall a b, Forall2 V (pyslice a b x) (pyslice a b x')) by (intros; now apply pyslice_rel).
  assert (Hsk : forall a, Forall2 V (skipn a x) (skipn a x')) by (intros; now apply Forall2_skipn).
  rewrite (Forall2_length _ _ _ Hx), !(Forall2_length _ _ _ (Hsl _ _)), !(Forall2_length _ _ _ (Hsk _)).
  eapply rres_bind; [now apply v_second|]. intros v v' Hv.
  eapply rres_bind; [now apply v_third|]. intros w w' Hw. cbn [rres]. apply dev_err.
  apply (d_sqrt _ _ _ H), (s_div _ _ _ H), (s_add _ _ _ H); [now apply (s_sq _ _ _ H), v_asum|].
  apply s_sumsq. eapply map_rel; [now apply v_cumsum|]. intros. apply (v_add _ _ _ H); [now apply v_asum|assumption].
Qed.
Lemma pdev_sim x x' rate m : Forall2 V x x' -> rres drow (calc_pdev_phase x rate m) (calc_pdev_phase x' rate m).
Proof.
  intros Hx. unfold calc_pdev_phase. cbv zeta. destruct (Nat.eqb m 1).
  - eapply rres_bind; [apply pystride_rel; eassumption|]. intros d2 d2' H2.
    eapply rres_bind; [apply pystride_rel; eassumption|]. intros d1 d1' H1.
    eapply rres_bind; [apply pystride_rel; eassumption|]. intros d0 d0' H0.
    rewrite (Forall2_length _ _ _ H0), (Forall2_length _ _ _ H1), (Forall2_length _ _ _ H2). set (n := if Nat.eqb _ _ then _ else _).
    eapply rres_bind; [now apply v_second|]. intros v v' Hv. cbn [rres]. apply dev_err.
    apply (d_cr _ _ _ H), (d_div _ _ _ H), (d_sqrt _ _ _ H), (s_div _ _ _ H), s_sumsq, Hv.
  - rewrite (Forall2_length _ _ _ Hx). destruct (_ <? _)%Z; [cbn; repeat split; auto|].
    eapply rres_bind with (P := S).
    + apply foldM_rel; [|auto]. intros a b i _ Hab.
      eapply rres_bind; [apply v_vsub; now apply pyslice_rel|]. intros dx dx' Hdx.
      eapply rres_bind with (P := Forall2 V).
      { apply (bmap2_rel eq V); [|apply Forall2_eq|exact Hdx]. intros c c' d d' <- Hd. now apply (v_cl _ _ _ H). }
      intros p p' Hp. cbn [rres]. apply (s_add _ _ _ H); [exact Hab|]. now apply (s_sq _ _ _ H), v_asum.
    + intros s s' Hs. cbn [rres]. apply dev_err. apply (d_sqrt _ _ _ H), (s_div _ _ _ H), (s_cl _ _ _ H), Hs.
Qed.
Lemma totdev_extend_rel x x' : Forall2 V x x' -> rres (Forall2 V) (totdev_extend x) (totdev_extend x').
Proof.
  intros Hx. unfold totdev_extend. cbv zeta. rewrite (Forall2_length _ _ _ Hx).
  eapply rres_bind; [apply pyget_rel; eassumption|]. intros f f' Hf. destruct (_ <? _)%nat; [reflexivity|].
  assert (Hi : Forall2 V (pyinner x) (pyinner x')) by (now apply removelast_rel, tl_rel).
  eapply rres_bind; [apply v_vsub; [apply Forall2_repeat, (v_cl _ _ _ H), Hf|exact Hi]|]. intros x1 x1' H1.
  eapply rres_bind; [apply pyget_rel; eassumption|]. intros g g' Hg.
  eapply rres_bind; [apply v_vsub; [apply Forall2_repeat, (v_cl _ _ _ H), Hg|now apply Forall2_rev]|]. intros x2 x2' H2.
  rewrite !rev_length, (Forall2_length _ _ _ H1), (Forall2_length _ _ _ H2).
  eapply rres_bind with (P := eq); [now apply rres_refl|]. intros _ _ _. cbn [rres].
  apply Forall2_app; [now apply Forall2_rev|]. now apply Forall2_app.
Qed.
Lemma totdev_sim x x' N rate m : Forall2 V x x' -> rres drow (calc_totdev x N rate m) (calc_totdev x' N rate m).
Proof.
  intros Hx. unfold calc_totdev. cbv zeta.
  assert (Hf : forall a, Forall2 V (pyfrom a x) (pyfrom a x')) by (intros; now apply pyfrom_rel).
  rewrite !(Forall2_length _ _ _ (Hf _)).
  eapply rres_bind; [apply v_vsub; [now apply Forall2_firstn|now apply v_scal, Forall2_firstn]|]. intros t t' Ht.
  eapply rres_bind; [apply v_vadd; [exact Ht|now apply Forall2_firstn]|]. intros v v' Hv. cbn [rres]. apply dev_err.
  apply (d_sqrt _ _ _ H), (s_div _ _ _ H). now apply s_sumsq, Forall2_firstn.
Qed.
Lemma sliding_sim x x' m : Forall2 V x x' -> rres S (sliding_squaresum x m) (sliding_squaresum x' m).
Proof.
  intros Hx. unfold sliding_squaresum.
  set (Q := fun st st' : A * A * A * A => V (fst (fst (fst st))) (fst (fst (fst st'))) /\ V (snd (fst (fst st))) (snd (fst (fst st'))) /\
              V (snd (fst st)) (snd (fst st')) /\ S (snd st) (snd st')).
  eapply rres_bind with (P := Q); [|intros st st' (_ & _ & _ & Hs); exact Hs].
  apply foldM_rel; [|repeat split; cbn; auto].
  intros [[[a b] c] s] [[[a' b'] c'] s'] j _ (Ha & Hb & Hc & Hs). cbn in Ha, Hb, Hc, Hs.
  eapply rres_bind with (P := fun st st' : A * A * A => V (fst (fst st)) (fst (fst st')) /\ V (snd (fst st)) (snd (fst st')) /\ V (snd st) (snd st')).
  - destruct (Nat.eqb j 0).
    + cbn. repeat split; now apply v_asum, pyslice_rel.
    + repeat (eapply rres_bind; [apply pyget_rel; eassumption|]; intros ? ? ?).
      cbn. repeat split; apply (v_add _ _ _ H); try assumption; apply (v_sub _ _ _ H); assumption.
  - intros [[p q] r] [[p' q'] r'] (Hp & Hq & Hr). cbn in Hp, Hq, Hr. cbn. repeat split; cbn; auto.
    apply (s_add _ _ _ H); [exact Hs|]. apply (s_sq _ _ _ H), (v_div _ _ _ H), (v_add _ _ _ H); [|exact Hr].
    apply (v_sub _ _ _ H); [exact Hp|]. now apply (v_cl _ _ _ H).
Qed.
Lemma map2_seq_rel (g g' : nat -> A -> A) l l' k : Forall2 V l l' -> (forall i a a', V a a' -> V (g i a) (g' i a')) ->
  Forall2 V (map2 g (seq k (len l)) l) (map2 g' (seq k (len l')) l').
Proof. intros Hl Hg. rewrite (Forall2_length _ _ _ Hl). eapply (map2_rel eq V); [|apply Forall2_eq|exact Hl]. intros i i' a a' <- Ha. auto. Qed.
Lemma mtot_detrend_rel x x' m tau0 : Forall2 V x x' -> Forall2 V (mtot_detrend x m tau0) (mtot_detrend x' m tau0).
Proof.
  intros Hx. unfold mtot_detrend. cbv zeta. apply map2_seq_rel; [exact Hx|]. intros i a a' Ha.
  apply (v_sub _ _ _ H); [exact Ha|]. apply (v_cr _ _ _ H), (v_cr _ _ _ H).
  destruct (Nat.odd _); apply (v_div _ _ _ H), (v_sub _ _ _ H); apply v_mean; first [now apply Forall2_skipn|now apply Forall2_firstn].
Qed.
Lemma htot_detrend_rel x x' m : Forall2 V x x' -> Forall2 V (htot_detrend x m) (htot_detrend x' m).
Proof.
  intros Hx. unfold htot_detrend. cbv zeta. apply map2_seq_rel; [exact Hx|]. intros i a a' Ha.
  apply (v_sub _ _ _ H); [exact Ha|]. apply (v_cr _ _ _ H).
  destruct (Nat.odd _); apply (v_div _ _ _ H), (v_sub _ _ _ H); apply v_mean; first [now apply Forall2_skipn|now apply Forall2_firstn].
Qed.
Definition nrel (st st' : Z * A) : Prop := fst st = fst st' /\ S (snd st) (snd st').
Lemma mtot_sim x x' rate m : Forall2 V x x' -> rres drow (calc_mtotdev_phase x rate m) (calc_mtotdev_phase x' rate m).
Proof.
  intros Hx. unfold calc_mtotdev_phase. cbv zeta. rewrite (Forall2_length _ _ _ Hx).
  eapply rres_bind with (P := nrel).
  - apply foldM_rel; [|split; cbn; auto]. intros [n d] [n' d'] i _ [E Hd]. cbn in E, Hd. subst n'.
    assert (Hs : Forall2 V (pyslice i (i + 3 * m) x) (pyslice i (i + 3 * m) x')) by now apply pyslice_rel.
    rewrite (Forall2_length _ _ _ Hs). eapply rres_bind with (P := eq); [now apply rres_refl|]. intros _ _ _.
    pose proof (mtot_detrend_rel _ _ m (ofZ 1 / rate) Hs) as Hd0.
    rewrite !app_length, !rev_length, (Forall2_length _ _ _ Hd0). eapply rres_bind with (P := eq); [now apply rres_refl|]. intros _ _ _.
    eapply rres_bind; [apply sliding_sim; apply Forall2_app; [now apply Forall2_rev|apply Forall2_app; [exact Hd0|now apply Forall2_rev]]|].
    intros s s' Hss. split; cbn; [reflexivity|]. apply (s_add _ _ _ H); [exact Hd|now apply (s_cl _ _ _ H)].
  - intros [n d] [n' d'] [E Hd]. cbn in E, Hd. subst n'. eapply rres_bind with (P := eq); [now apply rres_refl|]. intros _ _ _. cbn [rres].
    apply dev_err. apply (d_sqrt _ _ _ H), (s_div _ _ _ H), (s_cr _ _ _ H), Hd.
Qed.
Lemma htot_sim x x' m : Forall2 V x x' -> rres drow (calc_htotdev_freq x m) (calc_htotdev_freq x' m).
Proof.
  intros Hx. unfold calc_htotdev_freq. cbv zeta. rewrite (Forall2_length _ _ _ Hx).
  eapply rres_bind with (P := nrel).
  - apply foldM_rel; [|split; cbn; auto]. intros [n d] [n' d'] i _ [E Hd]. cbn in E, Hd. subst n'.
    assert (Hs : Forall2 V (pyslice i (i + 3 * m) x) (pyslice i (i + 3 * m) x')) by now apply pyslice_rel.
    rewrite (Forall2_length _ _ _ Hs). eapply rres_bind with (P := eq); [now apply rres_refl|]. intros _ _ _.
    pose proof (htot_detrend_rel _ _ m Hs) as Hd0.
    rewrite !app_length, !rev_length, (Forall2_length _ _ _ Hd0). eapply rres_bind with (P := eq); [now apply rres_refl|]. intros _ _ _.
    eapply rres_bind; [apply sliding_sim; apply Forall2_app; [now apply Forall2_rev|apply Forall2_app; [exact Hd0|now apply Forall2_rev]]|].
    intros s s' Hss. split; cbn; [reflexivity|]. apply (s_add _ _ _ H); [exact Hd|now apply (s_cl _ _ _ H)].
  - intros [n d] [n' d'] [E Hd]. cbn in E, Hd. subst n'. eapply rres_bind with (P := eq); [now apply rres_refl|]. intros _ _ _. cbn [rres].
    apply dev_err. apply (d_sqrt _ _ _ H), (s_div _ _ _ H), (s_cr _ _ _ H), Hd.
Qed.
Lemma theo1_sim x x' rate m : Forall2 V x x' -> rres drow (calc_theo1 x rate m) (calc_theo1 x' rate m).
Proof.
  intros Hx. unfold calc_theo1. cbv zeta. rewrite (Forall2_length _ _ _ Hx).
  eapply rres_bind with (P := eq); [now apply rres_refl|]. intros _ _ _.
  set (Q := fun st st' : A * Z => S (fst st) (fst st') /\ snd st = snd st').
  eapply rres_bind with (P := Q).
  - apply foldM_rel; [|split; cbn; auto]. intros [d n] [d' n'] i _ [Hd E]. cbn in Hd, E. subst n'.
    eapply rres_bind with (P := Q).
    + apply foldM_rel; [|split; cbn; auto]. intros [s k] [s' k'] j _ [Hs E]. cbn in Hs, E. subst k'.
      repeat (eapply rres_bind; [apply pyget_rel; eassumption|]; intros ? ? ?).
      split; cbn; [|reflexivity]. apply (s_add _ _ _ H); [exact Hs|].
      apply (s_cl _ _ _ H), (s_sq _ _ _ H), (v_sub _ _ _ H); [apply (v_add _ _ _ H); [apply (v_sub _ _ _ H)|]|]; assumption.
    + intros [s k] [s' k'] [Hs E]. cbn in Hs, E. split; cbn; [now apply (s_add _ _ _ H)|exact E].
  - intros [d n] [d' n'] [Hd E]. cbn in Hd, E. subst n'. eapply rres_bind with (P := eq); [now apply rres_refl|]. intros _ _ _. cbn [rres].
    apply dev_err. apply (d_sqrt _ _ _ H), (s_div _ _ _ H), Hd.
Qed.

(** ** the functions *)
Lemma scale_tdev_rel r r' : dresult r r' -> rres dresult (scale_tdev r) (scale_tdev r').
Proof.
  destruct r as [[[t d] e] n], r' as [[[t' d'] e'] n']; cbn [result_rel]. intros (<- & <- & Hd & _).
  unfold scale_tdev. eapply rres_bind with (P := Forall2 D).
  { apply (bmap2_rel eq D); [|apply Forall2_eq|exact Hd]. intros c c' a a' <- Ha. now apply (d_cl _ _ _ H). }
  intros v v' Hv.
  assert (Hq : Forall2 D (map (fun x => x / nsqrt (ofZ 3)) v) (map (fun x => x / nsqrt (ofZ 3)) v'))
    by (eapply map_rel; [exact Hv|]; intros; now apply (d_div _ _ _ H)).
  eapply rres_bind with (P := Forall2 D).
  { apply (bmap2_rel D eq); [|exact Hq|apply Forall2_eq]. intros a a' c c' Ha <-. now apply (d_div _ _ _ H). }
  intros w w' Hw. cbn. auto.
Qed.

Definition dev_fn : Type := list A -> A -> string -> taus_arg A -> res (@result A).
Definition sim_table : list dev_fn :=
  [adev; oadev; hdev; ohdev; mdev; tdev; pdev; totdev; mtotdev; ttotdev; htotdev; theo1].

Lemma mdev_rel x x' rate ty taus : Forall2 V x x' -> rres dresult (mdev x rate ty taus) (mdev x' rate ty taus).
Proof.
  intros Hx. unfold mdev. eapply rres_bind; [now apply i2p_rel|]. intros p p' Hp.
  apply (gen_rel D p p' rate taus false (ofZ (-1)) (fun y => calc_mdev_phase y rate) (fun y => calc_mdev_phase y rate)); [exact Hp|].
  intros. now apply mdev_sim.
Qed.
Lemma mtotdev_rel x x' rate ty taus : Forall2 V x x' -> rres dresult (mtotdev x rate ty taus) (mtotdev x' rate ty taus).
Proof.
  intros Hx. unfold mtotdev. eapply rres_bind; [now apply i2p_rel|]. intros p p' Hp. rewrite (Forall2_length _ _ _ Hp).
  apply (gen_rel D p p' rate taus false (third_len (len p')) (fun y => calc_mtotdev_phase y rate) (fun y => calc_mtotdev_phase y rate)); [exact Hp|].
  intros. now apply mtot_sim.
Qed.
Theorem sim_all f x x' rate ty taus : In f sim_table -> Forall2 V x x' -> rres dresult (f x rate ty taus) (f x' rate ty taus).
Proof.
  intros Hf Hx. unfold sim_table in Hf. cbn [In] in Hf.
  destruct Hf as [<-|[<-|[<-|[<-|[<-|[<-|[<-|[<-|[<-|[<-|[<-|[<-|[]]]]]]]]]]]]].
  - eapply rres_bind; [now apply i2p_rel|]. intros p p' Hp.
    apply (gen_rel D p p' rate taus false (ofZ (-1)) (fun y mj => calc_adev_phase y rate mj mj) (fun y mj => calc_adev_phase y rate mj mj)); [exact Hp|].
    intros. now apply adev_sim.
  - eapply rres_bind; [now apply i2p_rel|]. intros p p' Hp.
    apply (gen_rel D p p' rate taus false (ofZ (-1)) (fun y mj => calc_adev_phase y rate mj 1) (fun y mj => calc_adev_phase y rate mj 1)); [exact Hp|].
    intros. now apply adev_sim.
  - eapply rres_bind; [now apply i2p_rel|]. intros p p' Hp.
    apply (gen_rel D p p' rate taus false (ofZ (-1)) (fun y mj => calc_hdev_phase y rate mj mj) (fun y mj => calc_hdev_phase y rate mj mj)); [exact Hp|].
    intros. now apply hdev_sim.
  - eapply rres_bind; [now apply i2p_rel|]. intros p p' Hp.
    apply (gen_rel D p p' rate taus false (ofZ (-1)) (fun y mj => calc_hdev_phase y rate mj 1) (fun y mj => calc_hdev_phase y rate mj 1)); [exact Hp|].
    intros. now apply hdev_sim.
  - now apply mdev_rel.
  - eapply rres_bind; [now apply i2p_rel|]. intros p p' Hp.
    eapply rres_bind; [now apply mdev_rel|]. intros r r'. apply scale_tdev_rel.
  - eapply rres_bind; [now apply i2p_rel|]. intros p p' Hp.
    apply (gen_rel D p p' rate taus false (ofZ (-1)) (fun y => calc_pdev_phase y rate) (fun y => calc_pdev_phase y rate)); [exact Hp|].
    intros. now apply pdev_sim.
  - eapply rres_bind; [now apply i2p_rel|]. intros p p' Hp.
    eapply rres_bind; [now apply tau_gen_rel|]. intros [[y ms] t] [[y' ms'] t'] (Hy & E1 & E2). cbn in Hy, E1, E2. subst.
    rewrite (Forall2_length _ _ _ Hy).
    eapply rres_bind; [now apply totdev_extend_rel|]. intros z z' Hz. apply run_rows_rel. intros. now apply totdev_sim.
  - now apply mtotdev_rel.
  - eapply rres_bind; [now apply mtotdev_rel|]. intros r r'. apply scale_tdev_rel.
  - unfold htotdev.
    eapply rres_bind with (P := fun q q' => Forall2 V (fst q) (fst q') /\ Forall2 V (snd q) (snd q')).
    { destruct (String.eqb _ _); [cbn; split; [exact Hx|now apply v_scal, v_diff]|].
      destruct (String.eqb _ _); [|reflexivity]. eapply rres_bind; [now apply f2p_rel|]. intros p p' Hp. cbn. auto. }
    intros [p q] [p' q'] [Hp Hq]. cbn in Hp, Hq. rewrite (Forall2_length _ _ _ Hq).
    apply (gen_rel D q q' rate taus false (third_len (len q')) (fun y mj => if Nat.eqb mj 1 then calc_hdev_phase p rate mj 1 else calc_htotdev_freq y mj)
      (fun y mj => if Nat.eqb mj 1 then calc_hdev_phase p' rate mj 1 else calc_htotdev_freq y mj)); [exact Hq|].
    intros y y' m Hy. destruct (Nat.eqb m 1); [now apply hdev_sim|now apply htot_sim].
  - eapply rres_bind; [now apply i2p_rel|]. intros p p' Hp. destruct (neqb rate (ofZ 0)); [reflexivity|].
    apply (gen_rel D p p' rate taus true (ofZ (-1)) (fun y => calc_theo1 y rate) (fun y => calc_theo1 y rate)); [exact Hp|].
    intros. now apply theo1_sim.
Qed.

(** ** tierms and mtie: comparisons, kept or reversed *)
Record sim_order (V S T : A -> A -> Prop) (dir : bool) : Prop := {
  o_ltb : forall a a' b b', V a a' -> V b b' -> nltb a' b' = if dir then nltb a b else nltb b a;
  t_sub : forall a a' b b', V a a' -> V b b' -> if dir then T (a - b) (a' - b') else T (a - b) (b' - a');
  t_nan : forall a a', T a a' -> nisnan a' = nisnan a;
  t_ltb : forall a a' b b', T a a' -> T b b' -> nltb a' b' = nltb a b;
  t_sq : forall a a', T a a' -> S (a * a) (a' * a');
  t_div : forall c a a', T a a' -> T (a / c) (a' / c) }.
Context (T : A -> A -> Prop) (dir : bool) (HO : sim_order V S T dir).

Definition pick (b : bool) (f g : A -> A -> A) : A -> A -> A := if b then f else g.
Lemma max_rel a a' b b' : V a a' -> V b b' -> V (pick dir nmax2 nmin2 a b) (nmax2 a' b').
Proof.
  intros Ha Hb. pose proof (o_ltb _ _ _ _ HO _ _ _ _ Ha Hb) as E. 
  destruct dir; cbn [pick]; unfold nmax2, nmin2; rewrite (v_nan _ _ _ H _ _ Ha), (v_nan _ _ _ H _ _ Hb), E;
    destruct (nisnan a), (nisnan b); cbn; auto; match goal with |- context [nltb ?p ?q] => destruct (nltb p q) end; auto.
Qed.
Lemma min_rel a a' b b' : V a a' -> V b b' -> V (pick dir nmin2 nmax2 a b) (nmin2 a' b').
Proof.
  intros Ha Hb. pose proof (o_ltb _ _ _ _ HO _ _ _ _ Hb Ha) as E. 
  destruct dir; cbn [pick]; unfold nmax2, nmin2; rewrite (v_nan _ _ _ H _ _ Ha), (v_nan _ _ _ H _ _ Hb), E;
    destruct (nisnan a), (nisnan b); cbn; auto; match goal with |- context [nltb ?p ?q] => destruct (nltb p q) end; auto.
Qed.
Lemma tmax_rel a a' b b' : T a a' -> T b b' -> T (nmax2 a b) (nmax2 a' b').
Proof.
  intros Ha Hb. pose proof (t_ltb _ _ _ _ HO _ _ _ _ Ha Hb) as E. unfold nmax2.
  rewrite (t_nan _ _ _ _ HO _ _ Ha), (t_nan _ _ _ _ HO _ _ Hb), E;
    destruct (nisnan a), (nisnan b); cbn; auto; match goal with |- context [nltb ?p ?q] => destruct (nltb p q) end; auto.
Qed.
(** max - min of the second run against max - min of the first *)
Lemma ptp_rel p q p' q' : V (if dir then p else q) p' -> V (if dir then q else p) q' -> T (p - q) (p' - q').
Proof. intros Hp Hq. destruct dir eqn:E; pose proof (t_sub _ _ _ _ HO) as Ht; [now apply Ht|]. exact (Ht _ _ _ _ Hq Hp). Qed.

Lemma tierms_sim x x' m : Forall2 V x x' -> rres drow (calc_tierms x m) (calc_tierms x' m).
Proof.
  intros Hx. unfold calc_tierms. cbv zeta. rewrite (Forall2_length _ _ _ Hx).
  pose proof (Forall2_firstn _ (len x' - m) _ _ Hx) as Ha. pose proof (Forall2_skipn _ m _ _ Hx) as Hb.
  rewrite (Forall2_length _ _ _ Ha), (Forall2_length _ _ _ Hb). destruct (negb _); [reflexivity|].
  eapply rres_bind with (P := Forall2 T).
  - set (a := firstn _ x) in *. set (b := skipn m x) in *. set (a' := firstn _ x') in *. set (b' := skipn m x') in *.
    clearbody a b a' b'. unfold vsub. rewrite !bmap2_eqlen by now rewrite !map2_length. cbn [rres].
    revert b b' Hb. induction Ha as [|u u' a a' Hu Ha IH]; intros b b' Hb; [constructor|].
    destruct Hb as [|w w' b b' Hw Hb]; [constructor|]. cbn [map2]. constructor; [|auto].
    apply ptp_rel; pose proof (max_rel _ _ _ _ Hu Hw) as M1; pose proof (min_rel _ _ _ _ Hu Hw) as M2; unfold pick in *; destruct dir; assumption.
  - intros t t' Ht. cbn [rres]. split; [|split; [|reflexivity]]; cbn [fst snd].
    + apply (d_sqrt _ _ _ H). unfold mean. rewrite !map_length, (Forall2_length _ _ _ Ht). apply (s_div _ _ _ H).
      apply s_asum. eapply map_rel; [exact Ht|]. intros. now apply (t_sq _ _ _ _ HO).
    + apply (d_div _ _ _ H). auto.
Qed.
Theorem sim_tierms x x' rate ty taus : Forall2 V x x' -> rres dresult (tierms x rate ty taus) (tierms x' rate ty taus).
Proof.
  intros Hx. eapply rres_bind; [now apply i2p_rel|]. intros p p' Hp.
  apply (gen_rel D p p' rate taus false (ofZ (-1)) (fun _ => calc_tierms p) (fun _ => calc_tierms p')); [exact Hp|].
  intros. now apply tierms_sim.
Qed.

Lemma npmax_rel l l' a : Forall2 V l l' -> npmax l = Ok a -> exists b a' b', npmin l = Ok b /\ npmax l' = Ok a' /\ npmin l' = Ok b' /\ T (a - b) (a' - b').
Proof.
  intros Hl E. destruct Hl as [|u u' l l' Hu Hl]; [discriminate|]. cbn [npmax npmin] in *. injection E as <-.
  eexists _, _, _. split; [reflexivity|]. split; [reflexivity|]. split; [reflexivity|].
  assert (G : forall p q p' q', V (if dir then p else q) p' -> V (if dir then q else p) q' ->
    T (fold_left nmax2 l p - fold_left nmin2 l q) (fold_left nmax2 l' p' - fold_left nmin2 l' q')).
  { clear u u' Hu. induction Hl as [|w w' l l' Hw Hl IH]; intros p q p' q' Hp Hq; cbn [fold_left]; [now apply ptp_rel|].
    apply IH.
    - pose proof (max_rel _ _ _ _ Hp Hw) as M. unfold pick in M. destruct dir; exact M.
    - pose proof (min_rel _ _ _ _ Hq Hw) as M. unfold pick in M. destruct dir; exact M. }
  apply G; destruct dir; exact Hu.
Qed.
Lemma mtie_windows rw rw' : Forall2 (Forall2 V) rw rw' -> Forall (fun w => w <> []) rw ->
  exists p q p' q', mapM npmax rw = Ok p /\ mapM npmin rw = Ok q /\ mapM npmax rw' = Ok p' /\ mapM npmin rw' = Ok q' /\
    len p = len q /\ len p' = len q' /\ Forall2 T (map2 nsub p q) (map2 nsub p' q').
Proof.
  intros Hr Hn. induction Hr as [|w w' rw rw' Hw Hr IH]; [exists [], [], [], []; repeat split; constructor|].
    apply Forall_cons_iff in Hn as [Hw0 Hn]. destruct (IH Hn) as (p & q & p' & q' & E1 & E2 & E3 & E4 & L1 & L2 & F).
    destruct w as [|u w]; [contradiction|]. destruct (npmax_rel _ _ _ Hw eq_refl) as (b & a' & b' & B1 & B2 & B3 & Ht).
    exists (fold_left nmax2 w u :: p), (b :: q), (a' :: p'), (b' :: q'). cbn [mapM].
    rewrite B1, B2, B3, E1, E2, E3, E4. cbn [bind npmax]. repeat split; cbn; auto.
Qed.
Lemma npmaxT_rel l l' : Forall2 T l l' -> rres T (npmax l) (npmax l').
Proof.
  intros Hl. destruct Hl as [|u u' l l' Hu Hl]; [reflexivity|]. cbn [npmax rres].
  revert u u' Hu. induction Hl as [|w w' l l' Hw Hl IH]; intros u u' Hu; cbn [fold_left]; [exact Hu|].
  apply IH. now apply tmax_rel.
Qed.
(** the window fits *)
Lemma mtie_try_rel x x' m : Forall2 V x x' -> (m < len x)%nat ->
  exists a a', mtie_try x m = Ok a /\ mtie_try x' m = Ok a' /\ T a a'.
Proof.
  intros Hx Hm. unfold mtie_try, mtie_rolling_window. rewrite <- (Forall2_length _ _ _ Hx).
  destruct (Nat.ltb_spec (m + 1) 1); [lia|]. destruct (Nat.ltb_spec (len x) (m + 1)); [lia|]. cbn [bind].
  set (rw := map _ _). set (rw' := map _ _).
  assert (Hr : Forall2 (Forall2 V) rw rw') by (eapply map_rel; [apply Forall2_eq|]; intros i i' <-; now apply pyslice_rel).
  assert (Hn : Forall (fun w => w <> []) rw).
  { apply Forall_map, Forall_forall. intros i Hi. apply in_seq in Hi. unfold pyslice. intros E. apply (f_equal (@len A)) in E.
    rewrite firstn_length, skipn_length in E. cbn in E. lia. }
  destruct (mtie_windows rw rw' Hr Hn) as (p & q & p' & q' & E1 & E2 & E3 & E4 & L1 & L2 & F).
  rewrite E1, E2, E3, E4. cbn [bind]. unfold vsub. rewrite !bmap2_eqlen by assumption. cbn [bind].
  assert (Hl : map2 nsub p q <> []).
  { intros C. apply (f_equal (@len A)) in C. rewrite map2_length, <- L1, Nat.min_id in C.
    assert (L : len p = len rw) by (clear -E1; revert p E1; induction rw as [|w rw IH]; cbn; intros p E1; [now injection E1 as <-|];
      destruct (npmax w); cbn in E1; [|discriminate]; destruct (mapM npmax rw); cbn in E1; [|discriminate]; injection E1 as <-; cbn; auto).
    unfold rw in L. rewrite map_length, seq_length in L. cbn in C. lia. }
  pose proof (npmaxT_rel _ _ F) as Hm'. set (u := map2 nsub p q) in *. set (u' := map2 nsub p' q') in *. clearbody u u'.
  destruct F as [|a a' l l' Ha F]; [contradiction|].
  cbn [npmax] in *. cbn [rres] in Hm'. eexists _, _. split; [reflexivity|]. split; [reflexivity|exact Hm'].
Qed.
Lemma mtie_sim x x' m : Forall2 V x x' -> rres (row_rel T) (calc_mtie x m) (calc_mtie x' m).
Proof.
  intros Hx. unfold calc_mtie. rewrite <- (Forall2_length _ _ _ Hx). destruct (Nat.lt_ge_cases m (len x)) as [Hm|Hm].
  - destruct (mtie_try_rel x x' m Hx Hm) as (a & a' & -> & -> & Ha). cbn [bind rres]. split; [exact Ha|]. split; [now apply (t_div _ _ _ _ HO)|reflexivity].
  - unfold mtie_try, mtie_rolling_window, mtie_fallback. rewrite <- (Forall2_length _ _ _ Hx).
    destruct (Nat.ltb_spec (m + 1) 1); [lia|]. destruct (Nat.ltb_spec (len x) (m + 1)); [|lia]. reflexivity.
Qed.
Theorem sim_mtie x x' rate ty taus : Forall2 V x x' -> rres (result_rel T) (mtie x rate ty taus) (mtie x' rate ty taus).
Proof.
  intros Hx. eapply rres_bind; [now apply i2p_rel|]. intros p p' Hp.
  apply (gen_rel T p p' rate taus false (ofZ (-1)) (fun y => calc_mtie y) (fun y => calc_mtie y)); [exact Hp|].
  intros. now apply mtie_sim.
Qed.

(** ** gcodev *)
Definition prod_rel (p p' : A) : Prop := exists a a' b b', V a a' /\ V b b' /\ p = a * b /\ p' = a' * b'.
Record sim_cov : Prop := {
  c_dot : forall l l', Forall2 prod_rel l l' -> S (asum l) (asum l');
  c_leb : forall a a', S a a' -> nleb (ofZ 0) a' = nleb (ofZ 0) a;
  c_abs : forall a a', S a a' -> S (nabs a) (nabs a') }.
Theorem sim_gcodev (HC : sim_cov) x x' y y' rate ty taus : Forall2 V x x' -> Forall2 V y y' ->
  rres dresult (gcodev x y rate ty taus) (gcodev x' y' rate ty taus).
Proof.
  intros Hx Hy. unfold gcodev. eapply rres_bind; [now apply i2p_rel|]. intros p p' Hp.
  eapply rres_bind; [now apply i2p_rel|]. intros q q' Hq.
  eapply rres_bind; [now apply tau_gen_rel|]. intros [[p1 ms1] t1] [[p1' ms1'] t1'] (Hp1 & _ & _). cbn in Hp1.
  apply (gen_rel D q q' rate taus false (ofZ (-1)) (fun z mj => calc_gcodev_phase p1 z rate mj 1) (fun z mj => calc_gcodev_phase p1' z rate mj 1)); [exact Hq|].
  intros z z' m Hz. unfold calc_gcodev_phase.
  eapply rres_bind; [apply pystride_rel; exact Hp1|]. intros a2 a2' Ha2.
  eapply rres_bind; [apply pystride_rel; exact Hp1|]. intros a1 a1' Ha1.
  eapply rres_bind; [apply pystride_rel; exact Hp1|]. intros a0 a0' Ha0.
  eapply rres_bind; [apply pystride_rel; exact Hz|]. intros b2 b2' Hb2.
  eapply rres_bind; [apply pystride_rel; exact Hz|]. intros b1 b1' Hb1.
  eapply rres_bind; [apply pystride_rel; exact Hz|]. intros b0 b0' Hb0. cbv zeta.
  rewrite (Forall2_length _ _ _ Ha0), (Forall2_length _ _ _ Ha1), (Forall2_length _ _ _ Ha2),
    (Forall2_length _ _ _ Hb0), (Forall2_length _ _ _ Hb1), (Forall2_length _ _ _ Hb2).
  eapply rres_bind; [now apply v_second|]. intros v v' Hv.
  eapply rres_bind; [now apply v_second|]. intros w w' Hw.
  eapply rres_bind with (P := Forall2 prod_rel); [apply (bmap2_rel V V); [|exact Hv|exact Hw]; intros; repeat eexists; eassumption|].
  intros l l' Hl. pose proof (c_dot HC _ _ Hl) as Hs. rewrite (c_leb HC _ _ Hs). cbn [rres]. apply dev_err.
  destruct (nleb (ofZ 0) (asum l)); apply (d_cr _ _ _ H), (d_div _ _ _ H), (d_sqrt _ _ _ H), (s_div _ _ _ H); [exact Hs|now apply (c_abs HC)].
Qed.

(** ** gradev *)
Record sim_grad : Prop := {
  g_sq : forall a a', D a a' -> S (a * a) (a' * a');
  g_nan : forall a a', S a a' -> nisnan a' = nisnan a }.
Theorem sim_gradev (HG : sim_grad) nlog nexp ppf x x' rate ty taus ci nt : Forall2 V x x' ->
  rres dresult (gradev nlog nexp ppf x rate ty taus ci nt) (gradev nlog nexp ppf x' rate ty taus ci nt).
Proof.
  intros Hx. unfold gradev. eapply rres_bind; [now apply i2p_rel|]. intros p p' Hp.
  eapply rres_bind; [now apply tau_gen_rel|]. intros [[y ms] t] [[y' ms'] t'] (Hy & E1 & E2). cbn in Hy, E1, E2. subst.
  set (Q := fun r r' : A * (A * A) * Z => D (fst (fst r)) (fst (fst r')) /\ D (fst (snd (fst r))) (fst (snd (fst r'))) /\
     D (snd (snd (fst r))) (snd (snd (fst r'))) /\ snd r = snd r').
  eapply rres_bind with (P := Forall2 Q).
  - apply (mapM_rel eq); [apply Forall2_eq|]. intros m m' <-. unfold calc_gradev_phase.
    eapply rres_bind; [apply pystride_rel; exact Hy|]. intros a2 a2' Ha2.
    eapply rres_bind; [apply pystride_rel; exact Hy|]. intros a1 a1' Ha1.
    eapply rres_bind; [apply pystride_rel; exact Hy|]. intros a0 a0' Ha0. cbv zeta.
    rewrite (Forall2_length _ _ _ Ha0), (Forall2_length _ _ _ Ha1), (Forall2_length _ _ _ Ha2).
    eapply rres_bind; [now apply v_second|]. intros v v' Hv.
    rewrite (Forall2_length _ _ _ (filter_nan_rel _ _ Hv)), (Forall2_length _ _ _ (filter_nan_rel _ _ Hy)).
    assert (Hs : S (asum (filter (fun v => negb (nisnan v)) (map nsq v))) (asum (filter (fun v => negb (nisnan v)) (map nsq v')))).
    { apply s_asum. assert (Hq : Forall2 S (map nsq v) (map nsq v')) by (eapply map_rel; [exact Hv|]; apply (s_sq _ _ _ H)).
      clear -Hq HG. induction Hq as [|a a' l l' Ha Hq IH]; cbn [filter]; [constructor|].
      rewrite (g_nan HG _ _ Ha). destruct (nisnan a); cbn; [exact IH|now constructor]. }
    set (n := if Nat.eqb _ _ then _ else _).
    assert (Hd : D (nsqrt (asum (filter (fun v => negb (nisnan v)) (map nsq v)) / (ofZ 2 * ofN n)) / ofN (Z.to_nat m) * rate)
                   (nsqrt (asum (filter (fun v => negb (nisnan v)) (map nsq v')) / (ofZ 2 * ofN n)) / ofN (Z.to_nat m) * rate))
      by (apply (d_cr _ _ _ H), (d_div _ _ _ H), (d_sqrt _ _ _ H), (s_div _ _ _ H), Hs).
    eapply rres_bind with (P := fun e e' => D (fst e) (fst e') /\ D (snd e) (snd e')).
    + destruct (1 <? n)%nat; [|cbn; auto].
      eapply rres_bind with (P := eq); [now apply rres_refl|]. intros e e' <-. cbn [rres].
      unfold confidence_interval. cbn [fst snd]. split; apply (d_sqrt _ _ _ H), (s_div _ _ _ H), (s_cl _ _ _ H), (g_sq HG), Hd.
    + intros e e' [He1 He2]. cbn [rres]. unfold Q. cbn [fst snd]. auto.
  - intros rows rows' Hr.
    assert (E : map snd rows' = map snd rows) by (clear -Hr; induction Hr as [|a b l l' (_ & _ & _ & E) Hl IH]; cbn; congruence).
    rewrite E. apply remove_small_rel; [eapply map_rel; [exact Hr|]; intros c d Hcd; apply Hcd|].
    cbn [errs_rel]. repeat constructor; eapply map_rel; try exact Hr; intros c d Hcd; apply Hcd.
Qed.

(** ** realtime classes *)
Definition rt_rel (W : A -> A -> Prop) (s s' : @rt A) : Prop :=
  Forall2 V (rx s) (rx s') /\ rafs s = rafs s' /\ Forall2 W (rS s) (rS s') /\ Forall2 S (rSo s) (rSo s') /\
  Forall2 D (rdev s) (rdev s') /\ af_idx s = af_idx s' /\ af_decade s = af_decade s'.
Lemma get_nth_rel (W : A -> A -> Prop) l l' i : Forall2 W l l' -> rres W (get_nth l i) (get_nth l' i).
Proof.
  intros Hl. unfold get_nth. pose proof (nth_error_rel W l l' Hl i) as Hn.
  destruct (nth_error l i), (nth_error l' i); cbn; auto; contradiction.
Qed.
Lemma set_nth_rel (W : A -> A -> Prop) l l' i a a' : Forall2 W l l' -> W a a' -> rres (Forall2 W) (set_nth i a l) (set_nth i a' l').
Proof.
  intros Hl Ha. revert i. induction Hl as [|b b' l l' Hb Hl IH]; intros [|i]; cbn [set_nth]; try reflexivity; [cbn; auto|].
  eapply rres_bind; [apply IH|]. intros q q' Hq. cbn. auto.
Qed.
Lemma back_rel s s' k W : rt_rel W s s' -> V (back s k) (back s' k).
Proof.
  intros (Hx & _). unfold back. rewrite (Forall2_length _ _ _ Hx). set (i := (_ - _)%nat). clearbody i.
  revert i. induction Hx; intros [|i]; cbn; auto.
Qed.
Lemma add_phase_rel (W : A -> A -> Prop) upd c s s' a a' : W (ofZ 0) (ofZ 0) ->
  (forall s s' idx af, rt_rel W s s' -> rres (rt_rel W) (upd c s idx af) (upd c s' idx af)) ->
  rt_rel W s s' -> V a a' -> rres (rt_rel W) (add_phase upd c s a) (add_phase upd c s' a').
Proof.
  intros W0 Hu Hs Ha. unfold add_phase.
  assert (H1 : rt_rel W (mkrt (rx s ++ [a]) (rafs s) (rS s) (rSo s) (rdev s) (af_idx s) (af_decade s))
                       (mkrt (rx s' ++ [a']) (rafs s') (rS s') (rSo s') (rdev s') (af_idx s') (af_decade s'))).
  { destruct Hs as (Hx & Hr). split; [apply Forall2_app; auto|exact Hr]. }
  cbv zeta. match type of H1 with rt_rel _ ?u ?v => set (t := u) in *; set (t' := v) in * end. clearbody t t'.
  assert (El : rafs t = rafs t') by (apply H1). rewrite El. eapply rres_bind with (P := rt_rel W).
  - apply foldM_rel; [|exact H1]. intros b b' i _ Hb. destruct (Hb) as (_ & Ea & _). rewrite Ea. now apply Hu.
  - intros q q' Hq. destruct (auto_afs c); [|exact Hq]. unfold update_af, next_slot.
    destruct Hq as (Hx & E1 & HS & HSo & Hd & E2 & E3). rewrite E2, E3.
    match goal with |- context [if ?e then (0%nat, ?u) else ?v] => destruct (if e then (0%nat, u) else v) as [i d] end.
    eapply rres_bind with (P := eq); [now apply rres_refl|]. intros z z' <-. rewrite (Forall2_length _ _ _ Hx).
    destruct (_ <=? _)%Z; cbn [rres]; [|repeat split; assumption].
    split; [exact Hx|]. cbn. rewrite E1. repeat split; auto; apply Forall2_app; auto.
Qed.
Lemma oadev_upd_rel c s s' idx af : rt_rel S s s' -> rres (rt_rel S) (oadev_upd c s idx af) (oadev_upd c s' idx af).
Proof.
  intros Hs. pose proof (fun k => back_rel _ _ k _ Hs) as Hb. unfold oadev_upd. destruct (Hs) as (Hx & E1 & HS & HSo & Hd & E2 & E3). cbv zeta.
  rewrite (Forall2_length _ _ _ Hx). destruct (_ <=? _)%nat; [|exact Hs].
  eapply rres_bind; [apply get_nth_rel; exact HS|]. intros o o' Ho.
  assert (Hn : S (o + nsq (back s 0 - ofZ 2 * back s af + back s (2 * af))) (o' + nsq (back s' 0 - ofZ 2 * back s' af + back s' (2 * af)))).
  { apply (s_add _ _ _ H); [exact Ho|]. apply (s_sq _ _ _ H), (v_add _ _ _ H); [|auto]. apply (v_sub _ _ _ H); [auto|]. apply (v_cl _ _ _ H). auto. }
  eapply rres_bind; [apply set_nth_rel; [exact HS|exact Hn]|]. intros q q' Hq.
  eapply rres_bind; [apply set_nth_rel; [exact Hd|apply (d_sqrt _ _ _ H), (s_cl _ _ _ H), Hn]|]. intros r r' Hr.
  cbn [rres]. repeat split; assumption.
Qed.
Lemma ohdev_upd_rel c s s' idx af : rt_rel S s s' -> rres (rt_rel S) (ohdev_upd c s idx af) (ohdev_upd c s' idx af).
Proof.
  intros Hs. pose proof (fun k => back_rel _ _ k _ Hs) as Hb. unfold ohdev_upd. destruct (Hs) as (Hx & E1 & HS & HSo & Hd & E2 & E3). cbv zeta.
  rewrite (Forall2_length _ _ _ Hx). destruct (_ <? _)%nat; [|exact Hs].
  eapply rres_bind; [apply get_nth_rel; exact HS|]. intros o o' Ho.
  assert (Hn : S (o + nsq (back s 0 - ofZ 3 * back s af + ofZ 3 * back s (2 * af) - back s (3 * af)))
    (o' + nsq (back s' 0 - ofZ 3 * back s' af + ofZ 3 * back s' (2 * af) - back s' (3 * af)))).
  { apply (s_add _ _ _ H); [exact Ho|]. apply (s_sq _ _ _ H), (v_sub _ _ _ H); [|auto]. apply (v_add _ _ _ H); [apply (v_sub _ _ _ H)|]; auto; apply (v_cl _ _ _ H); auto. }
  eapply rres_bind; [apply set_nth_rel; [exact HS|exact Hn]|]. intros q q' Hq.
  eapply rres_bind; [apply set_nth_rel; [exact Hd|apply (d_sqrt _ _ _ H), (s_cl _ _ _ H), Hn]|]. intros r r' Hr.
  cbn [rres]. repeat split; assumption.
Qed.
Lemma tdev_upd_rel c s s' idx af : rt_rel V s s' -> rres (rt_rel V) (tdev_upd c s idx af) (tdev_upd c s' idx af).
Proof.
  intros Hs. pose proof (fun k => back_rel _ _ k _ Hs) as Hb. unfold tdev_upd. destruct (Hs) as (Hx & E1 & HS & HSo & Hd & E2 & E3). cbv zeta.
  rewrite (Forall2_length _ _ _ Hx). destruct (_ <=? _)%nat.
  - eapply rres_bind; [apply get_nth_rel; exact HS|]. intros o o' Ho.
    assert (Hn : V (o + (ofZ (-1) * back s (3 * af) + ofZ 3 * back s (2 * af) - ofZ 3 * back s af + back s 0))
      (o' + (ofZ (-1) * back s' (3 * af) + ofZ 3 * back s' (2 * af) - ofZ 3 * back s' af + back s' 0))).
    { apply (v_add _ _ _ H); [exact Ho|]. apply (v_add _ _ _ H); [|auto]. apply (v_sub _ _ _ H); [apply (v_add _ _ _ H)|]; apply (v_cl _ _ _ H); auto. }
    eapply rres_bind; [apply set_nth_rel; [exact HS|exact Hn]|]. intros q q' Hq.
    eapply rres_bind; [apply get_nth_rel; exact HSo|]. intros p p' Hp.
    pose proof (s_add _ _ _ H _ _ _ _ Hp (s_sq _ _ _ H _ _ Hn)) as Hso.
    eapply rres_bind; [apply set_nth_rel; [exact HSo|exact Hso]|]. intros r r' Hr.
    eapply rres_bind; [apply set_nth_rel; [exact Hd|apply (d_sqrt _ _ _ H), (s_cl _ _ _ H), Hso]|]. intros u u' Hu'.
    cbn [rres]. repeat split; assumption.
  - destruct (_ <=? _)%nat; [|exact Hs].
    eapply rres_bind; [apply get_nth_rel; exact HS|]. intros o o' Ho.
    assert (Hn : V (o + back s 0 - ofZ 2 * back s af + back s (2 * af)) (o' + back s' 0 - ofZ 2 * back s' af + back s' (2 * af))).
    { apply (v_add _ _ _ H); [|auto]. apply (v_sub _ _ _ H); [apply (v_add _ _ _ H); auto|apply (v_cl _ _ _ H); auto]. }
    eapply rres_bind; [apply set_nth_rel; [exact HS|exact Hn]|]. intros q q' Hq.
    destruct (_ =? _)%nat; [|cbn [rres]; repeat split; assumption].
    pose proof (s_sq _ _ _ H _ _ Hn) as Hso.
    eapply rres_bind; [apply set_nth_rel; [exact HSo|exact Hso]|]. intros r r' Hr.
    eapply rres_bind; [apply set_nth_rel; [exact Hd|apply (d_sqrt _ _ _ H), (s_cl _ _ _ H), Hso]|]. intros u u' Hu'.
    cbn [rres]. repeat split; assumption.
Qed.
Lemma add_frequency_rel (W : A -> A -> Prop) ap c s s' f f' : (forall s s' a a', rt_rel W s s' -> V a a' -> rres (rt_rel W) (ap c s a) (ap c s' a')) ->
  rt_rel W s s' -> V f f' -> rres (rt_rel W) (add_frequency ap c s f) (add_frequency ap c s' f').
Proof.
  intros Hap Hs Hf. unfold add_frequency. eapply rres_bind with (P := rt_rel W).
  - destruct (Hs) as (Hx & _). destruct Hx; [apply Hap; auto|exact Hs].
  - intros q q' Hq. apply Hap; [exact Hq|]. apply (v_add _ _ _ H); [eapply back_rel; exact Hq|exact Hf].
Qed.
Lemma rt_init_rel (W : A -> A -> Prop) c afs : W (ofZ 0) (ofZ 0) -> rt_rel W (rt_init c afs) (rt_init c afs).
Proof. intros H0. unfold rt_init. repeat split; cbn; try constructor; apply Forall2_repeat; auto. Qed.
Lemma rt_mdev_rel (W : A -> A -> Prop) c s s' : rt_rel W s s' -> rres (Forall2 D) (rt_mdev c s) (rt_mdev c s').
Proof.
  intros (Hx & E1 & _ & _ & Hd & _). unfold rt_mdev. rewrite E1. apply foldM_rel; [|exact Hd]. intros l l' i _ Hl.
  eapply rres_bind; [apply get_nth_rel; exact Hl|]. intros v v' Hv. apply set_nth_rel; [exact Hl|].
  apply (d_div _ _ _ H), (d_cr _ _ _ H), Hv.
Qed.
Lemma run_rel {B B'} (W : A -> A -> Prop) (Q : B -> B' -> Prop) ap ap' c xs xs' : Forall2 Q xs xs' ->
  (forall s s' a a', rt_rel W s s' -> Q a a' -> rres (rt_rel W) (ap c s a) (ap' c s' a')) ->
  forall s s', rt_rel W s s' -> rres (rt_rel W) (run ap c s xs) (run ap' c s' xs').
Proof.
  intros Hx Ha. unfold run. induction Hx as [|a a' xs xs' Hq Hx IH]; intros s s' Hs; cbn [foldM]; [exact Hs|].
  eapply rres_bind; [apply Ha; eassumption|]. intros t t' Ht. apply IH, Ht.
Qed.
(** what a realtime object shows: averaging factors, deviations, mdev *)
Definition shown_rel (c : cfg) (s s' : @rt A) : Prop :=
  rafs s = rafs s' /\ Forall2 D (rdev s) (rdev s') /\ rres (Forall2 D) (rt_mdev c s) (rt_mdev c s').
Lemma shown W c s s' : rt_rel W s s' -> shown_rel c s s'.
Proof. intros Hs. split; [apply Hs|]. split; [apply Hs|]. eapply rt_mdev_rel, Hs. Qed.
Theorem sim_rt ap c afs xs xs' : In ap [@oadev_add_phase A NA; ohdev_add_phase; tdev_add_phase] -> Forall2 V xs xs' ->
  rres (shown_rel c) (run ap c (rt_init c afs) xs) (run ap c (rt_init c afs) xs') /\
  rres (shown_rel c) (run (add_frequency ap) c (rt_init c afs) xs) (run (add_frequency ap) c (rt_init c afs) xs').
Proof.
  intros Hin Hx.
  assert (HW : exists W, W (ofZ 0) (ofZ 0) /\ forall s s' a a', rt_rel W s s' -> V a a' -> rres (rt_rel W) (ap c s a) (ap c s' a')).
  { destruct Hin as [<- | [<- | [<- | []]]].
    - exists S. split; [auto|]. intros. apply add_phase_rel; auto. intros. now apply oadev_upd_rel.
    - exists S. split; [auto|]. intros. apply add_phase_rel; auto. intros. now apply ohdev_upd_rel.
    - exists V. split; [auto|]. intros. apply add_phase_rel; auto. intros. now apply tdev_upd_rel. }
  destruct HW as (W & W0 & Hap). split; (eapply rres_impl; [intros s s'; apply (shown W)|]); apply (run_rel W V); auto using rt_init_rel.
  intros s s' f f' Hs Hf. now apply add_frequency_rel.
Qed.
End Sim.
