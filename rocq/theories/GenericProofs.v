(** * Facts that hold in every arithmetic (no laws assumed about the numbers). *)
From Coq Require Import String List ZArith Lia Arith Bool Sorted.
From Verif Require Import Base Num NpList ModelCore ModelDev ListFacts.
Import ListNotations.
Local Notation len := List.length.

Section Generic.
Context {A : Type} {NA : Num A}.

(** The single-record deviation functions returning one error array. *)
Definition all_devs : list (list A -> A -> string -> taus_arg A -> res (@result A)) :=
  [adev; oadev; hdev; ohdev; mdev; tdev; pdev; totdev; mtotdev; ttotdev; htotdev;
   theo1; tierms; mtie].

(** ** order and multiplicity of taus *)
Definition explicit (taus : taus_arg A) (l : list A) : Prop :=
  l <> [] /\ (taus = TList l \/ taus = TArr l).

Lemma select_m_ext n rate mx l l' : (forall t : A, In t l <-> In t l') ->
  select_m n rate mx l = select_m n rate mx l'.
Proof.
  intros H. unfold select_m. apply unique_ext. intros z.
  rewrite !in_flat_map. split; intros (t & Ht & Hz); exists t; split; auto; now apply H.
Qed.

Lemma expand_explicit n rate taus l : explicit taus l -> expand_taus n rate taus = Ok l.
Proof. intros [Hl [-> | ->]]; cbn; [destruct l; [contradiction|reflexivity]|reflexivity]. Qed.

Lemma tau_generator_ext x rate taus taus' l l' even mx :
  explicit taus l -> explicit taus' l' -> (forall t : A, In t l <-> In t l') ->
  tau_generator x rate taus even mx = tau_generator x rate taus' even mx.
Proof.
  intros H1 H2 H. unfold tau_generator.
  rewrite (expand_explicit _ _ _ _ H1), (expand_explicit _ _ _ _ H2). cbn [bind].
  now rewrite (select_m_ext _ _ _ l l' H).
Qed.

Ltac in_cases := repeat match goal with
  | H : In _ (_ :: _) |- _ => destruct H as [<-|H]
  | H : In _ [] |- _ => destruct H end.

(** every deviation function depends on [taus] through tau_generator only *)
Lemma devs_taus_only f taus taus' rate :
  In f all_devs ->
  (forall x even mx, tau_generator x rate taus even mx = tau_generator x rate taus' even mx) ->
  forall x dt, f x rate dt taus = f x rate dt taus'.
Proof.
  intros Hf H x dt. unfold all_devs in Hf.
  assert (Hm : forall p, mdev p rate "phase" taus = mdev p rate "phase" taus').
  { intros p. unfold mdev. destruct (input_to_phase p rate "phase"); cbn [bind]; [|reflexivity].
    now rewrite H. }
  assert (Hmt : forall dt, mtotdev x rate dt taus = mtotdev x rate dt taus').
  { intros d. unfold mtotdev. destruct (input_to_phase x rate d); cbn [bind]; [|reflexivity].
    now rewrite H. }
  in_cases;
  try (cbv delta [adev oadev hdev ohdev mdev pdev totdev mtotdev tierms mtie] beta;
       destruct (input_to_phase x rate dt); cbn [bind]; [now rewrite H|reflexivity]).
  - unfold tdev. destruct (input_to_phase x rate dt); cbn [bind]; [now rewrite Hm|reflexivity].
  - unfold ttotdev. now rewrite Hmt.
  - unfold htotdev. destruct (String.eqb dt "phase"); cbn [bind]; [now rewrite H|].
    destruct (String.eqb dt "freq"); cbn [bind]; [|reflexivity].
    destruct (frequency2phase x rate); cbn [bind]; [now rewrite H|reflexivity].
  - unfold theo1. destruct (input_to_phase x rate dt); cbn [bind]; [|reflexivity].
    destruct (neqb rate (ofZ 0)); [reflexivity|now rewrite H].
Qed.

Lemma devs_taus_ext f taus taus' l l' :
  In f all_devs -> explicit taus l -> explicit taus' l' -> (forall t : A, In t l <-> In t l') ->
  forall x rate dt, f x rate dt taus = f x rate dt taus'.
Proof.
  intros Hf H1 H2 H x rate dt. apply devs_taus_only; [exact Hf|].
  intros. eapply tau_generator_ext; eauto.
Qed.

Lemma gcodev_taus_ext taus taus' l l' :
  explicit taus l -> explicit taus' l' -> (forall t : A, In t l <-> In t l') ->
  forall x y rate dt, gcodev x y rate dt taus = gcodev x y rate dt taus'.
Proof.
  intros H1 H2 H x y rate dt. unfold gcodev.
  destruct (input_to_phase x rate dt); cbn [bind]; [|reflexivity].
  destruct (input_to_phase y rate dt); cbn [bind]; [|reflexivity].
  rewrite (tau_generator_ext a rate taus taus' l l') by auto.
  rewrite (tau_generator_ext a0 rate taus taus' l l') by auto. reflexivity.
Qed.

(** ** remove_small_ns *)
Lemma remove_small_ns_spec (rows : list (A * A * A * Z)) :
  remove_small_ns (map (fun r => fst (fst (fst r))) rows) (map (fun r => snd (fst (fst r))) rows)
    (EArr (map (fun r => snd (fst r)) rows)) (map snd rows) =
  match filter (fun r => (1 <? snd r)%Z) rows with
  | [] => Err UserWarning
  | g => Ok (map (fun r => fst (fst (fst r))) g, map (fun r => snd (fst (fst r))) g,
             EArr (map (fun r => snd (fst r)) g), map snd g)
  end.
Proof.
  unfold remove_small_ns. rewrite map_map. rewrite !mask_select_map. cbn [bind].
  destruct (filter _ rows); reflexivity.
Qed.

Lemma remove_small_ns_spec2 (rows : list (A * A * (A * A) * Z)) :
  remove_small_ns (map (fun r => fst (fst (fst r))) rows) (map (fun r => snd (fst (fst r))) rows)
    (EList [map (fun r => fst (snd (fst r))) rows; map (fun r => snd (snd (fst r))) rows]) (map snd rows) =
  match filter (fun r => (1 <? snd r)%Z) rows with
  | [] => Err UserWarning
  | g => Ok (map (fun r => fst (fst (fst r))) g, map (fun r => snd (fst (fst r))) g,
             EList [map (fun r => fst (snd (fst r))) g; map (fun r => snd (snd (fst r))) g], map snd g)
  end.
Proof.
  unfold remove_small_ns. rewrite map_map. rewrite !mask_select_map. cbn [bind].
  destruct (filter _ rows); reflexivity.
Qed.

(** four equally long arrays are the columns of a list of rows *)
Lemma columns (t d e : list A) (n : list Z) :
  len d = len t -> len e = len t -> len n = len t ->
  exists rows : list (A * A * A * Z),
    t = map (fun r => fst (fst (fst r))) rows /\ d = map (fun r => snd (fst (fst r))) rows /\
    e = map (fun r => snd (fst r)) rows /\ n = map snd rows.
Proof.
  revert d e n. induction t as [|a t IH]; intros [|b d] [|c e] [|k n]; cbn; intros H1 H2 H3; try lia.
  - exists []. repeat split.
  - destruct (IH d e n) as (rows & -> & -> & -> & ->); [lia|lia|lia|].
    exists ((a, b, c, k) :: rows). repeat split.
Qed.

(** ** shape of the results *)
Definition well_formed (rate : A) (r : @result A) : Prop :=
  exists t d e n ms,
    r = (t, d, EArr e, n) /\
    StronglySorted Z.lt ms /\ Forall (fun m => (1 <= m)%Z) ms /\ ms <> [] /\
    t = map (fun m => ndiv (ofZ m) rate) ms /\
    len d = len ms /\ len e = len ms /\ len n = len ms /\
    Forall (fun k => (2 <= k)%Z) n.

Lemma select_m_pos n rate mx l : Forall (fun m => (1 <= m)%Z) (select_m n rate mx l).
Proof.
  apply Forall_forall. intros z Hz. unfold select_m in Hz. rewrite unique_In in Hz.
  apply in_flat_map in Hz as (t & _ & Hz). destruct (nrint _) as [m|]; [|destruct Hz].
  destruct ((m <? Z.of_nat n)%Z && (0 <? m)%Z && nleb (ofZ m) mx) eqn:E; [|destruct Hz].
  destruct Hz as [<-|[]]. apply andb_prop in E as [E _]. apply andb_prop in E as [_ E].
  apply Z.ltb_lt in E. lia.
Qed.

Lemma tau_generator_shape x rate taus even mx x' ms t :
  tau_generator x rate taus even mx = Ok (x', ms, t) ->
  x' = x /\ StronglySorted Z.lt ms /\ Forall (fun m => (1 <= m)%Z) ms /\
  t = map (fun m => ndiv (ofZ m) rate) ms.
Proof.
  unfold tau_generator. destruct (neqb rate (ofZ 0)); [discriminate|].
  destruct (expand_taus _ _ _) as [ts|]; cbn [bind]; [|discriminate].
  set (sel := select_m _ _ _ _). intros H. injection H as <- <- <-.
  split; [reflexivity|].
  assert (Hs : StronglySorted Z.lt sel) by apply unique_sorted.
  assert (Hp : Forall (fun m => (1 <= m)%Z) sel) by apply select_m_pos.
  destruct even; [|auto]. split; [now apply filter_StronglySorted|]. split; [|reflexivity].
  apply Forall_forall. intros z Hz. apply filter_In in Hz as [Hz _].
  rewrite Forall_forall in Hp. auto.
Qed.

Lemma mapM_len {B C} (f : B -> res C) l r : mapM f l = Ok r -> len r = len l.
Proof.
  revert r. induction l as [|y l IH]; cbn; intros r H.
  - now injection H as <-.
  - destruct (f y); cbn [bind] in H; [|discriminate].
    destruct (mapM f l) as [q|]; cbn [bind] in H; [|discriminate].
    injection H as <-. cbn. f_equal. now apply IH.
Qed.

Lemma sorted_filter_combine {B} (p : Z * B -> bool) ms rows :
  StronglySorted Z.lt ms -> len rows = len ms ->
  StronglySorted Z.lt (map fst (filter p (combine ms rows))).
Proof.
  revert rows. induction ms as [|m ms IH]; intros rows Hs Hl; [constructor|].
  destruct rows as [|r rows]; [discriminate|]. cbn in Hl. injection Hl as Hl.
  apply StronglySorted_inv in Hs as [Hs Hf].
  cbn [combine filter]. destruct (p (m, r)); [|now apply IH].
  cbn [map fst]. constructor; [now apply IH|].
  apply Forall_forall. intros z Hz. apply in_map_iff in Hz as ((z' & b) & <- & Hz).
  apply filter_In in Hz as [Hz _]. apply in_combine_l in Hz. rewrite Forall_forall in Hf. now apply Hf.
Qed.

Lemma run_rows_wf calc ms rate r :
  StronglySorted Z.lt ms -> Forall (fun m => (1 <= m)%Z) ms ->
  run_rows calc ms (map (fun m => ndiv (ofZ m) rate) ms) = Ok r -> well_formed rate r.
Proof.
  intros Hs Hp. unfold run_rows.
  destruct (mapM _ ms) as [rows|] eqn:E; cbn [bind]; [|discriminate].
  apply mapM_len in E.
  set (cr := combine ms rows).
  assert (H1 : map (fun m => ndiv (ofZ m) rate) ms = map (fun c => ndiv (ofZ (fst c)) rate) cr).
  { unfold cr. clear -E. revert rows E. induction ms as [|m ms IH]; intros [|q rows]; cbn; intros E; try lia; [reflexivity|].
    f_equal. apply IH. lia. }
  assert (H2 : rows = map snd cr).
  { unfold cr. clear -E. revert rows E. induction ms as [|m ms IH]; intros [|q rows]; cbn; intros E; try lia; [reflexivity|].
    f_equal. apply IH. lia. }
  rewrite H1, H2, !map_map. unfold remove_small_ns. rewrite map_map, !mask_select_map. cbn [bind].
  set (g := filter _ cr). intros H.
  assert (Hg : g <> []) by (intros C; rewrite C in H; discriminate).
  assert (Hr : r = (map (fun c => ndiv (ofZ (fst c)) rate) g,
     map (fun x => fst (fst (snd x))) g,
     EArr (map (fun x => snd (fst (snd x))) g), map (fun x => snd (snd x)) g)).
  { destruct g; [contradiction|]. cbn in H |- *. now injection H as <-. }
  exists (map (fun c => ndiv (ofZ (fst c)) rate) g), (map (fun x => fst (fst (snd x))) g),
     (map (fun x => snd (fst (snd x))) g), (map (fun x => snd (snd x)) g), (map fst g).
  split; [exact Hr|]. split; [|split; [|split; [|split; [|repeat split]]]].
  - apply sorted_filter_combine; assumption.
  - apply Forall_forall. intros z Hz. apply in_map_iff in Hz as ((z' & b) & <- & Hz).
    apply filter_In in Hz as [Hz _]. apply in_combine_l in Hz. rewrite Forall_forall in Hp. now apply Hp.
  - destruct g; [contradiction|discriminate].
  - now rewrite map_map.
  - now rewrite !map_length.
  - now rewrite !map_length.
  - now rewrite !map_length.
  - apply Forall_forall. intros z Hz. apply in_map_iff in Hz as (c & <- & Hz).
    apply filter_In in Hz as [_ Hz]. apply Z.ltb_lt in Hz. lia.
Qed.

Lemma gen_run_wf p rate taus even mx (calc : list A -> nat -> res (A * A * Z)) r :
  (r' <- tau_generator p rate taus even mx ;;
   let '(x, ms, t) := r' in run_rows (calc x) ms t) = Ok r -> well_formed rate r.
Proof.
  destruct (tau_generator p rate taus even mx) as [[[x' ms] t]|] eqn:E; cbn [bind]; [|discriminate].
  apply tau_generator_shape in E as (-> & Hs & Hp & ->). now apply run_rows_wf.
Qed.

Lemma scale_tdev_wf rate r r' : well_formed rate r -> scale_tdev r = Ok r' -> well_formed rate r'.
Proof.
  intros (t & d & e & n & ms & -> & Hs & Hp & Hn & Ht & Hd & He & Hl & Hk). unfold scale_tdev, vmul.
  rewrite bmap2_eqlen by (rewrite Ht, map_length; lia). cbn [bind].
  rewrite bmap2_eqlen by (rewrite map_length, map2_length, Ht, map_length; lia). cbn [bind].
  intros H. injection H as <-.
  eexists _, _, _, _, ms. split; [reflexivity|].
  repeat split; auto; rewrite ?map2_length, ?map_length, ?map2_length, ?Ht, ?map_length; lia.
Qed.

Lemma devs_well_formed f : In f all_devs ->
  forall x rate dt taus r, f x rate dt taus = Ok r -> well_formed rate r.
Proof.
  intros Hf x rate dt taus r. unfold all_devs in Hf.
  assert (Hm : forall p, mdev p rate "phase" taus = Ok r -> well_formed rate r)
    by (intros p; apply (gen_run_wf p rate taus false (ofZ (-1)) (fun x => calc_mdev_phase x rate))).
  in_cases; try (match goal with
      | |- tdev _ _ _ _ = _ -> _ => unfold tdev
      | |- ttotdev _ _ _ _ = _ -> _ => fail
      | _ => cbv delta [adev oadev hdev ohdev mdev pdev totdev mtotdev theo1 tierms mtie] beta end;
    destruct (input_to_phase x rate dt) as [p|]; cbn [bind]; [|discriminate]).
  - apply (gen_run_wf p rate taus false (ofZ (-1)) (fun x mj => calc_adev_phase x rate mj mj)).
  - apply (gen_run_wf p rate taus false (ofZ (-1)) (fun x mj => calc_adev_phase x rate mj 1)).
  - apply (gen_run_wf p rate taus false (ofZ (-1)) (fun x mj => calc_hdev_phase x rate mj mj)).
  - apply (gen_run_wf p rate taus false (ofZ (-1)) (fun x mj => calc_hdev_phase x rate mj 1)).
  - apply (gen_run_wf p rate taus false (ofZ (-1)) (fun x mj => calc_mdev_phase x rate mj)).
  - destruct (mdev p rate "phase" taus) as [q|] eqn:E; cbn [bind]; [|discriminate].
    apply scale_tdev_wf.
    exact (gen_run_wf p rate taus false (ofZ (-1)) (fun x => calc_mdev_phase x rate) q E).
  - apply (gen_run_wf p rate taus false (ofZ (-1)) (fun x mj => calc_pdev_phase x rate mj)).
  - destruct (tau_generator p rate taus false (ofZ (-1))) as [[[x' ms] t]|] eqn:E; cbn [bind]; [|discriminate].
    apply tau_generator_shape in E as (-> & Hs & Hp & ->).
    destruct (totdev_extend p); cbn [bind]; [|discriminate]. now apply run_rows_wf.
  - apply (gen_run_wf p rate taus false _ (fun x mj => calc_mtotdev_phase x rate mj)).
  - unfold ttotdev, mtotdev.
    destruct (input_to_phase x rate dt) as [p|]; cbn [bind]; [|discriminate].
    destruct (r' <- tau_generator p rate taus false (third_len (len p)) ;;
       let '(x, ms, t) := r' in run_rows (calc_mtotdev_phase x rate) ms t) as [q|] eqn:E; cbn [bind]; [|discriminate].
    apply scale_tdev_wf.
    exact (gen_run_wf p rate taus false _ (fun x => calc_mtotdev_phase x rate) q E).
  - unfold htotdev. destruct (String.eqb dt "phase"); cbn [bind].
    + apply (gen_run_wf _ rate taus false _ (fun freq mj => if Nat.eqb mj 1 then _ else calc_htotdev_freq freq mj)).
    + destruct (String.eqb dt "freq"); cbn [bind]; [|discriminate].
      destruct (frequency2phase x rate); cbn [bind]; [|discriminate].
      apply (gen_run_wf _ rate taus false _ (fun freq mj => if Nat.eqb mj 1 then _ else calc_htotdev_freq freq mj)).
  - destruct (neqb rate (ofZ 0)); [discriminate|].
    apply (gen_run_wf p rate taus true (ofZ (-1)) (fun x mj => calc_theo1 x rate mj)).
  - apply (gen_run_wf p rate taus false (ofZ (-1)) (fun x mj => calc_tierms p mj)).
  - apply (gen_run_wf p rate taus false (ofZ (-1)) (fun x mj => calc_mtie x mj)).
Qed.

Lemma gcodev_well_formed x y rate dt taus r : gcodev x y rate dt taus = Ok r -> well_formed rate r.
Proof.
  unfold gcodev.
  destruct (input_to_phase x rate dt) as [p|]; cbn [bind]; [|discriminate].
  destruct (input_to_phase y rate dt) as [q|]; cbn [bind]; [|discriminate].
  destruct (tau_generator p rate taus false (ofZ (-1))) as [[[p' ms'] t']|]; cbn [bind]; [|discriminate].
  apply (gen_run_wf q rate taus false (ofZ (-1)) (fun x mj => calc_gcodev_phase p' x rate mj 1)).
Qed.

(** ** errors *)
Lemma tau_generator_rate0 x rate taus even mx :
  neqb rate (ofZ 0) = true -> tau_generator x rate taus even mx = Err RuntimeError.
Proof. intros H. unfold tau_generator. now rewrite H. Qed.

Lemma devs_rate0_phase f : In f all_devs ->
  forall x rate taus, neqb rate (ofZ 0) = true ->
  f x rate "phase"%string taus = Err RuntimeError \/
  (f x rate "phase"%string taus = Err ZeroDivisionError /\ f = theo1).
Proof.
  intros Hf x rate taus H. unfold all_devs in Hf.
  in_cases; try (left; cbv delta [adev oadev hdev ohdev mdev tdev pdev totdev mtotdev ttotdev tierms mtie] beta;
    cbn [bind input_to_phase String.eqb Ascii.eqb Bool.eqb]; unfold mdev; cbn [bind input_to_phase String.eqb Ascii.eqb Bool.eqb];
    now rewrite tau_generator_rate0).
  - left. unfold htotdev. cbn [String.eqb Ascii.eqb Bool.eqb bind]. now rewrite tau_generator_rate0.
  - right. unfold theo1. cbn [bind input_to_phase String.eqb Ascii.eqb Bool.eqb]. now rewrite H.
Qed.

Lemma devs_rate0_freq f : In f all_devs ->
  forall x rate taus, neqb rate (ofZ 0) = true -> f x rate "freq"%string taus = Err ZeroDivisionError.
Proof.
  intros Hf x rate taus H. unfold all_devs in Hf.
  assert (Hi : input_to_phase x rate "freq" = Err ZeroDivisionError)
    by (cbn [input_to_phase String.eqb Ascii.eqb Bool.eqb]; unfold frequency2phase; now rewrite H).
  assert (Hf2 : frequency2phase x rate = Err ZeroDivisionError) by (unfold frequency2phase; now rewrite H).
  in_cases; try (cbv delta [adev oadev hdev ohdev mdev tdev pdev totdev mtotdev ttotdev theo1 tierms mtie] beta; now rewrite Hi).
  unfold htotdev. cbn [String.eqb Ascii.eqb Bool.eqb]. now rewrite Hf2.
Qed.

Lemma devs_bad_type f : In f all_devs ->
  forall x rate dt taus, dt <> "phase"%string -> dt <> "freq"%string ->
  f x rate dt taus = Err GenericException.
Proof.
  intros Hf x rate dt taus H1 H2. unfold all_devs in Hf.
  apply String.eqb_neq in H1, H2.
  assert (Hi : input_to_phase x rate dt = Err GenericException)
    by (unfold input_to_phase; now rewrite H1, H2).
  in_cases; try (cbv delta [adev oadev hdev ohdev mdev tdev pdev totdev mtotdev ttotdev theo1 tierms mtie] beta; now rewrite Hi).
  unfold htotdev. now rewrite H1, H2.
Qed.

(** a failing tau_generator makes every function fail in the same way *)
Lemma devs_tau_fail f : In f all_devs ->
  forall e x rate taus,
  neqb rate (ofZ 0) = false ->
  (forall y even mx, len y = len x \/ y = phase2frequency x rate ->
     tau_generator y rate taus even mx = Err e) ->
  f x rate "phase"%string taus = Err e.
Proof.
  intros Hf e x rate taus Hr H. unfold all_devs in Hf.
  in_cases; try (cbv delta [adev oadev hdev ohdev mdev tdev pdev totdev mtotdev ttotdev theo1 tierms mtie] beta;
    cbn [bind input_to_phase String.eqb Ascii.eqb Bool.eqb]; unfold mdev; cbn [bind input_to_phase String.eqb Ascii.eqb Bool.eqb];
    rewrite ?Hr; rewrite H by (left; reflexivity); reflexivity).
  unfold htotdev. cbn [bind input_to_phase String.eqb Ascii.eqb Bool.eqb].
  now rewrite H by (right; reflexivity).
Qed.

Lemma devs_bad_keyword f : In f all_devs ->
  forall x rate s, neqb rate (ofZ 0) = false ->
  s <> "all"%string -> s <> "octave"%string -> s <> "log10"%string -> s <> "decade"%string ->
  f x rate "phase"%string (TStr s) = Err TypeError.
Proof.
  intros Hf x rate s Hr H1 H2 H3 H4. apply devs_tau_fail; [exact Hf|exact Hr|].
  intros y even mx _. unfold tau_generator. rewrite Hr.
  unfold expand_taus. apply String.eqb_neq in H1, H2, H3, H4. now rewrite H1, H2, H3, H4.
Qed.

Lemma phase2frequency_len (x : list A) rate : len (phase2frequency x rate) = (len x - 1)%nat.
Proof.
  unfold phase2frequency, scal, diff. rewrite map_length, map2_length.
  destruct x as [|a t]; [reflexivity|]. cbn [tl len]. lia.
Qed.

Lemma devs_empty_keyword f : In f all_devs ->
  forall rate taus, neqb rate (ofZ 0) = false ->
  taus = TNone \/ taus = TList [] \/ taus = TStr "octave" \/ taus = TStr "log10" \/ taus = TStr "decade" ->
  f [] rate "phase"%string taus = Err OverflowError.
Proof.
  intros Hf rate taus Hr Ht. apply devs_tau_fail; [exact Hf|exact Hr|].
  intros y even mx Hy.
  assert (Hl : len y = 0%nat) by (destruct Hy as [ Hy | -> ]; [exact Hy|rewrite phase2frequency_len; reflexivity]).
  unfold tau_generator. rewrite Hr, Hl.
  destruct Ht as [ -> | [ -> | [ -> | [ -> | -> ] ] ] ]; reflexivity.
Qed.

(** no admissible averaging factor: UserWarning *)
Lemma run_rows_nil (calc : nat -> res (A * A * Z)) (t : list A) : t = [] -> run_rows calc [] t = Err UserWarning.
Proof. now intros ->. Qed.

Lemma gen_run_none p rate taus even mx (calc : list A -> nat -> res (A * A * Z)) x' t :
  tau_generator p rate taus even mx = Ok (x', [], t) ->
  (r' <- tau_generator p rate taus even mx ;;
   let '(x, ms, t) := r' in run_rows (calc x) ms t) = Err UserWarning.
Proof.
  intros E. rewrite E. cbn [bind]. apply tau_generator_shape in E as (_ & _ & _ & ->). reflexivity.
Qed.

Lemma devs_none f : In f all_devs ->
  forall x rate taus,
  neqb rate (ofZ 0) = false -> (2 <= len x)%nat ->
  (forall y even mx, len y = len x \/ y = phase2frequency x rate ->
     exists t, tau_generator y rate taus even mx = Ok (y, [], t)) ->
  f x rate "phase"%string taus = Err UserWarning.
Proof.
  intros Hf x rate taus Hr HN H. unfold all_devs in Hf.
  assert (Hx : forall even mx, exists t, tau_generator x rate taus even mx = Ok (x, [], t)) by (intros; apply H; auto).
  in_cases;
    try (cbv delta [adev oadev hdev ohdev mdev tdev pdev mtotdev ttotdev theo1 tierms mtie] beta;
    cbn [bind input_to_phase String.eqb Ascii.eqb Bool.eqb]; unfold mdev; cbn [bind input_to_phase String.eqb Ascii.eqb Bool.eqb];
    rewrite ?Hr;
    match goal with |- context [tau_generator x rate taus ?e ?m] =>
      let E := fresh in destruct (Hx e m) as [t E]; rewrite E; cbn [bind];
      apply tau_generator_shape in E as (_ & _ & _ & ->); reflexivity end).
  - unfold totdev. cbn [bind input_to_phase String.eqb Ascii.eqb Bool.eqb].
    destruct (Hx false (ofZ (-1))) as [t E]. rewrite E. cbn [bind].
    apply tau_generator_shape in E as (_ & _ & _ & ->).
    assert (exists z, totdev_extend x = Ok z) as [z ->]; [|reflexivity].
    unfold totdev_extend. rewrite (list_tab x rate). set (N := len x) in *. clearbody N.
    rewrite tab_length, pyget_tab by lia. cbn [bind]. destruct (Nat.ltb_spec N 2); [lia|].
    unfold vsub. rewrite pyinner_tab, !repeat_tab, rev_tab, !bmap2_tab. cbn [bind].
    rewrite pyget_tab_last by lia. cbn [bind]. rewrite ?repeat_tab, ?rev_tab, !bmap2_tab. cbn [bind].
    rewrite !tab_length. replace (N - 2 + N + (N - 2))%nat with (3 * N - 4)%nat by lia.
    rewrite Nat.eqb_refl. cbn [assert_ bind]. eexists; reflexivity.
  - unfold htotdev. cbn [bind input_to_phase String.eqb Ascii.eqb Bool.eqb].
    match goal with |- context [tau_generator ?y rate taus ?e ?m] =>
      destruct (H y e m) as [t E]; [now right|]; rewrite E; cbn [bind];
      apply tau_generator_shape in E as (_ & _ & _ & ->); reflexivity end.
Qed.

(** ** trim_data *)
Lemma first_valid_spec (l : list A) :
  (exists pre y post, l = pre ++ y :: post /\ Forall (fun a => nisnan a = true) pre /\
     nisnan y = false /\ first_valid l = Ok (len pre)) \/
  (Forall (fun a => nisnan a = true) l /\ first_valid l = Err IndexError).
Proof.
  induction l as [|a l IH]; [right; split; [constructor|reflexivity]|].
  cbn [first_valid]. destruct (nisnan a) eqn:E.
  - destruct IH as [(pre & y & post & -> & Hp & Hy & ->)|[Hl ->]].
    + left. exists (a :: pre), y, post. cbn. auto.
    + right. split; [now constructor|reflexivity].
  - left. exists [], a, l. cbn. auto.
Qed.

Lemma trim_data_ok (pre mid post : list A) (y : A) rest :
  Forall (fun a => nisnan a = true) pre -> Forall (fun a => nisnan a = true) post ->
  mid <> [] -> nisnan (hd y mid) = false -> nisnan (last mid y) = false -> rest = pre ++ mid ++ post ->
  trim_data rest = Ok mid.
Proof.
  intros Hpre Hpost Hm Hh Hl ->. unfold trim_data, last_valid.
  assert (Hfv : forall p q, Forall (fun a => nisnan a = true) p -> q <> [] -> nisnan (hd y q) = false ->
            forall s, first_valid (p ++ q ++ s) = Ok (len p)).
  { intros p q Hp Hq Hy s. induction Hp as [|a p Ha Hp IH]; cbn.
    - destruct q as [|b q]; [contradiction|]. cbn in *. now rewrite Hy.
    - rewrite Ha, IH. reflexivity. }
  rewrite Hfv by assumption. cbn [bind].
  rewrite !rev_app_distr, <- app_assoc. rewrite Hfv.
  - cbn [bind]. rewrite rev_length, !app_length. unfold pyslice. f_equal.
    rewrite skipn_app, skipn_all2, Nat.sub_diag by lia. cbn [app skipn].
    rewrite firstn_app.
    replace (len pre + (len mid + len post) - len post - len pre) with (len mid) by lia.
    rewrite firstn_all, Nat.sub_diag, app_nil_r. reflexivity.
  - apply Forall_forall. intros a Ha. apply in_rev in Ha. rewrite Forall_forall in Hpost. auto.
  - intros C. apply Hm. apply (f_equal (@rev A)) in C. rewrite rev_involutive in C. exact C.
  - destruct mid as [|b mid] using rev_ind; [contradiction|]. rewrite rev_unit. cbn.
    now rewrite last_last in Hl.
Qed.

Lemma trim_data_split (x : list A) (d : A) :
  (exists pre mid post, x = pre ++ mid ++ post /\ mid <> [] /\
     Forall (fun a => nisnan a = true) pre /\ Forall (fun a => nisnan a = true) post /\
     nisnan (hd d mid) = false /\ nisnan (last mid d) = false /\ trim_data x = Ok mid) \/
  (Forall (fun a => nisnan a = true) x /\ trim_data x = Err IndexError).
Proof.
  destruct (first_valid_spec x) as [(pre & y & post & -> & Hp & Hy & Hfv)|[Hl He]].
  - left. destruct (first_valid_spec (rev (y :: post))) as [(q & z & s & Hrev & Hq & Hz & _)|[Hall _]].
    + assert (Hyp : y :: post = rev s ++ [z] ++ rev q).
      { apply (f_equal (@rev A)) in Hrev. rewrite rev_involutive in Hrev. rewrite Hrev.
        rewrite rev_app_distr. cbn [rev]. now rewrite <- app_assoc. }
      exists pre, (rev s ++ [z]), (rev q).
      assert (Hx : pre ++ y :: post = pre ++ (rev s ++ [z]) ++ rev q) by (rewrite Hyp, <- app_assoc; reflexivity).
      assert (Hq' : Forall (fun a => nisnan a = true) (rev q)).
      { apply Forall_forall. intros a Ha. apply in_rev in Ha. rewrite Forall_forall in Hq. auto. }
      assert (Hh : nisnan (hd d (rev s ++ [z])) = false).
      { destruct (rev s) as [|b r]; cbn in *; injection Hyp as -> _; exact Hy. }
      assert (Hla : nisnan (last (rev s ++ [z]) d) = false) by now rewrite last_last.
      assert (Hne : rev s ++ [z] <> []) by (destruct (rev s); discriminate).
      do 6 (split; [assumption|]). apply (trim_data_ok pre _ (rev q) d); assumption.
    + exfalso. rewrite Forall_forall in Hall. specialize (Hall y).
      rewrite Hall in Hy; [discriminate|]. rewrite <- in_rev. now left.
  - right. split; [exact Hl|]. unfold trim_data. now rewrite He.
Qed.

(** ** coincidences at m = 1 *)
Lemma m1_coincide x rate taus t :
  tau_generator x rate taus false (ofZ (-1)) = Ok (x, [1%Z], t) ->
  oadev x rate "phase" taus = adev x rate "phase" taus /\
  pdev x rate "phase" taus = adev x rate "phase" taus /\
  ohdev x rate "phase" taus = hdev x rate "phase" taus.
Proof.
  intros E. unfold oadev, pdev, adev, hdev, ohdev.
  cbn [bind input_to_phase String.eqb Ascii.eqb Bool.eqb]. rewrite E. cbn [bind].
  repeat split.
Qed.

(** ** frequency input = phase input of the internally integrated record *)
Definition phase_devs : list (list A -> A -> string -> taus_arg A -> res (@result A)) :=
  [adev; oadev; hdev; ohdev; mdev; tdev; pdev; totdev; mtotdev; ttotdev;
   theo1; tierms; mtie].

Lemma freq_is_phase f : In f phase_devs ->
  forall y x rate taus, frequency2phase y rate = Ok x ->
  f y rate "freq"%string taus = f x rate "phase"%string taus.
Proof.
  intros Hf y x rate taus H. unfold phase_devs in Hf.
  in_cases; cbv delta [adev oadev hdev ohdev mdev tdev pdev totdev mtotdev ttotdev theo1 tierms mtie] beta;
  cbn [input_to_phase String.eqb Ascii.eqb Bool.eqb]; rewrite H; reflexivity.
Qed.
End Generic.
