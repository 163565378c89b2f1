(** * Properties C01-C08, C10: averaging factors, row layout, error cases, NaN trimming. *)
From Coq Require Import Floats String Reals List ZArith Lra Lia Arith Bool Sorted.
From Verif Require Import Base Num NpList ModelCore ModelDev NumR NumF ListFacts Spec GenericProofs Closed Laws3 TauLaws.
Import ListNotations.
Local Open Scope R_scope.
Local Notation len := List.length.

(** ** C01 *)
Theorem C01_tau_generator (x : list R) rate taus l even mx : rate <> 0 ->
  (taus = TArr l \/ (taus = TList l /\ l <> [])) ->
  exists ms, tau_generator x rate taus even mx = Ok (x, ms, map (fun m => IZR m / rate) ms) /\
    StronglySorted Z.lt ms /\
    forall m, In m ms <-> (exists t, In t l /\ half_even (t * rate) m) /\
      (0 < m < Z.of_nat (len x))%Z /\ (mx = -1 \/ IZR m <= mx) /\ (even = true -> Z.even m = true).
Proof. exact (tau_explicit x rate taus l even mx). Qed.
Print Assumptions C01_tau_generator.

(** The rounding relation is a function: every real has exactly one half-even rounding. *)
Theorem C01_half_even_unique x : exists z, half_even x z /\ forall z', half_even x z' -> z' = z.
Proof. exists (rintR x). split; [apply rintR_spec|]. intros. symmetry. now apply rintR_iff. Qed.
Print Assumptions C01_half_even_unique.

Example C01_ex : exists ms, tau_generator [0; 1; 3; 2; 5] 2 (TList [2; 1/4; -1; 2; 3/4; 100]) false (-1) =
   Ok ([0; 1; 3; 2; 5], ms, map (fun m => IZR m / 2) ms) /\ In 4%Z ms /\ In 2%Z ms /\ ~ In 1%Z ms /\ ~ In 200%Z ms.
Proof.
  set (l := [2; 1/4; -1; 2; 3/4; 100]).
  assert (Hl : l <> []) by discriminate.
  destruct (C01_tau_generator [0; 1; 3; 2; 5] 2 (TList l) l false (-1)
    ltac:(lra) (or_intror (conj eq_refl Hl))) as (ms & He & _ & Hi).
  assert (Hin : forall t, In t l <-> (t = 2 \/ t = 1/4 \/ t = -1 \/ t = 2 \/ t = 3/4 \/ t = 100)).
  { intros t. unfold l. cbn [In]. intuition. }
  clearbody l. cbn [len] in Hi.
  exists ms. split; [exact He|].
  split; [|split; [|split]].
  - apply Hi. split; [|split; [lia|split; [tauto|discriminate]]]. exists 2. split; [apply Hin; tauto|]. replace (2 * 2) with 4 by ring. apply half_even_IZR.
  - apply Hi. split; [|split; [lia|split; [tauto|discriminate]]]. exists (3/4). split; [apply Hin; tauto|].
    right. split; [|reflexivity]. rewrite Rabs_left; lra.
  - intros H. apply Hi in H as ((t & Ht & H) & _). apply Hin in Ht.
    destruct H as [H|[H He']]; [|discriminate]. unfold Rabs in H; destruct (Rcase_abs _);
    destruct Ht as [->|[->|[->|[->|[->| ->]]]]]; lra.
  - intros H. apply Hi in H as (_ & H & _). lia.
Qed.

(** ** C02 *)
Theorem C02_tau_generator {A} {NA : Num A} (x : list A) rate taus taus' l l' even mx :
  explicit taus l -> explicit taus' l' -> (forall t : A, In t l <-> In t l') ->
  tau_generator x rate taus even mx = tau_generator x rate taus' even mx.
Proof. exact (tau_generator_ext x rate taus taus' l l' even mx). Qed.
Print Assumptions C02_tau_generator.

Theorem C02_deviations {A} {NA : Num A} f taus taus' (l l' : list A) :
  In f [adev; oadev; hdev; ohdev; mdev; tdev; pdev; totdev; mtotdev; ttotdev; htotdev; theo1; tierms; mtie] ->
  explicit taus l -> explicit taus' l' -> (forall t : A, In t l <-> In t l') ->
  forall x rate dt, f x rate dt taus = f x rate dt taus'.
Proof. exact (devs_taus_ext f taus taus' l l'). Qed.
Print Assumptions C02_deviations.

Theorem C02_gcodev {A} {NA : Num A} taus taus' (l l' : list A) :
  explicit taus l -> explicit taus' l' -> (forall t : A, In t l <-> In t l') ->
  forall x y rate dt, gcodev x y rate dt taus = gcodev x y rate dt taus'.
Proof. exact (gcodev_taus_ext taus taus' l l'). Qed.
Print Assumptions C02_gcodev.

(** the float instance, on an unsorted request with repetitions *)
Example C02_ex (x : list float) (rate : float) :
  oadev x rate "phase" (TList [4; 1; 2; 1]%float) = oadev x rate "phase" (TArr [1; 2; 4]%float).
Proof.
  apply (C02_deviations oadev (TList [4; 1; 2; 1]%float) (TArr [1; 2; 4]%float) [4; 1; 2; 1]%float [1; 2; 4]%float).
  - cbn; tauto.
  - split; [discriminate|now left].
  - split; [discriminate|now right].
  - intros t. cbn. tauto.
Qed.

(** ** C03 *)
Theorem C03_all (x : list R) rate : rate <> 0 ->
  tau_generator x rate (TStr "all") false (-1) =
  Ok (x, map Z.of_nat (seq 1 (len x - 1)), map (fun m => INR m / rate) (seq 1 (len x - 1))).
Proof. exact (tau_all x rate). Qed.
Print Assumptions C03_all.

Theorem C03_octave (x : list R) rate taus : rate <> 0 -> (1 <= len x)%nat ->
  taus = TStr "octave" \/ taus = TNone \/ taus = TList [] ->
  exists ms, StronglySorted lt ms /\
    tau_generator x rate taus false (-1) = Ok (x, map Z.of_nat ms, map (fun m => INR m / rate) ms) /\
    forall m, In m ms <-> (m < len x)%nat /\ exists k, m = (2 ^ k)%nat.
Proof. exact (tau_octave x rate taus). Qed.
Print Assumptions C03_octave.

Theorem C03_decade (x : list R) rate : rate <> 0 -> (1 <= len x)%nat ->
  exists ms, StronglySorted lt ms /\
    tau_generator x rate (TStr "decade") false (-1) = Ok (x, map Z.of_nat ms, map (fun m => INR m / rate) ms) /\
    forall m, In m ms <-> (m < len x)%nat /\ exists c k, In c [1; 2; 4]%nat /\ m = (c * 10 ^ k)%nat.
Proof. exact (tau_decade x rate). Qed.
Print Assumptions C03_decade.

Theorem C03_log10 (x : list R) rate : rate <> 0 -> (2 <= len x)%nat ->
  exists ms, StronglySorted lt (1%nat :: ms) /\ (forall m, In m ms -> (m < len x)%nat) /\
    tau_generator x rate (TStr "log10") false (-1) =
    Ok (x, map Z.of_nat (1%nat :: ms), map (fun m => INR m / rate) (1%nat :: ms)).
Proof. exact (tau_log10 x rate). Qed.
Print Assumptions C03_log10.

(** which factors: the half-even roundings of the P log-spaced points *)
Theorem C03_log10_factors (x : list R) rate : rate <> 0 -> (1 <= len x)%nat ->
  let L := ln (INR (len x)) / ln 10 in
  exists ms, StronglySorted lt ms /\
    tau_generator x rate (TStr "log10") false (-1) = Ok (x, map Z.of_nat ms, map (fun m => INR m / rate) ms) /\
    forall m, In m ms <-> (1 <= m < len x)%nat /\
      exists P i, INR P <= 10 * L < INR P + 1 /\ (i < P)%nat /\ half_even (Rpower 10 (INR i * (L / (INR P - 1)))) (Z.of_nat m).
Proof.
  intros Hr Hx L. assert (Hv : valid_request (len x) (TStr "log10")) by (cbn; unfold keyword; split; [tauto|right; lia]).
  destruct (tau_keyword x rate _ Hr Hv) as (ms & Hs & He & Hi). exists ms. split; [exact Hs|]. split; [exact He|exact Hi].
Qed.
Print Assumptions C03_log10_factors.

Theorem C03_rate_independent (x : list R) rate rate' taus : rate <> 0 -> rate' <> 0 ->
  is_keyword_request taus -> valid_request (len x) taus ->
  exists ms, tau_generator x rate taus false (-1) = Ok (x, ms, map (fun m => IZR m / rate) ms) /\
             tau_generator x rate' taus false (-1) = Ok (x, ms, map (fun m => IZR m / rate') ms).
Proof. exact (tau_keyword_rate x rate rate' taus). Qed.
Print Assumptions C03_rate_independent.

Example C03_ex : exists ms, tau_generator (repeat 0 50) 3 (TStr "decade") false (-1) =
    Ok (repeat 0 50, map Z.of_nat ms, map (fun m => INR m / 3) ms) /\ In 40%nat ms /\ ~ In 8%nat ms /\ ~ In 100%nat ms.
Proof.
  destruct (C03_decade (repeat 0 50) 3 ltac:(lra) ltac:(cbn; lia)) as (ms & _ & He & Hi).
  exists ms. split; [exact He|]. rewrite !Hi, repeat_length. split; [|split].
  - split; [lia|]. exists 4%nat, 1%nat. cbn. auto.
  - intros [_ (c & k & Hc & E)]. destruct k as [|k]; [cbn in *; lia|].
    rewrite Nat.pow_succ_r' in E. cbn [In] in Hc. lia.
  - intros [H _]. lia.
Qed.

(** ** C04 *)
Theorem C04_idempotent (x : list R) rate taus even mx ms t : rate <> 0 ->
  tau_generator x rate taus even mx = Ok (x, ms, t) ->
  tau_generator x rate (TArr t) even mx = Ok (x, ms, t) /\
  (t <> [] -> tau_generator x rate (TList t) even mx = Ok (x, ms, t)).
Proof. exact (tau_idempotent x rate taus even mx ms t). Qed.
Print Assumptions C04_idempotent.

Example C04_ex : exists ms t, t <> [] /\ tau_generator [1; 2; 3; 4] 7 (TStr "all") false (-1) = Ok ([1; 2; 3; 4], ms, t) /\
  tau_generator [1; 2; 3; 4] 7 (TList t) false (-1) = Ok ([1; 2; 3; 4], ms, t).
Proof.
  pose proof (C03_all [1; 2; 3; 4] 7 ltac:(lra)) as H. eexists _, _. split; [|split; [exact H|]]; [discriminate|].
  refine (proj2 (C04_idempotent _ _ _ _ _ _ _ _ H) _); [lra|discriminate].
Qed.

(** ** C05 *)
Theorem C05_rate_zero_phase {A} {NA : Num A} f : In f all_devs ->
  forall x rate taus, neqb rate (ofZ 0) = true ->
  f x rate "phase"%string taus = Err RuntimeError \/
  (f x rate "phase"%string taus = Err ZeroDivisionError /\ f = theo1).
Proof. exact (devs_rate0_phase f). Qed.
Print Assumptions C05_rate_zero_phase.

Theorem C05_rate_zero_freq {A} {NA : Num A} f : In f all_devs ->
  forall x rate taus, neqb rate (ofZ 0) = true -> f x rate "freq"%string taus = Err ZeroDivisionError.
Proof. exact (devs_rate0_freq f). Qed.
Print Assumptions C05_rate_zero_freq.

Theorem C05_bad_data_type {A} {NA : Num A} f : In f all_devs ->
  forall x rate dt taus, dt <> "phase"%string -> dt <> "freq"%string ->
  f x rate dt taus = Err GenericException.
Proof. exact (devs_bad_type f). Qed.
Print Assumptions C05_bad_data_type.

Theorem C05_bad_keyword {A} {NA : Num A} f : In f all_devs ->
  forall x rate s, neqb rate (ofZ 0) = false ->
  s <> "all"%string -> s <> "octave"%string -> s <> "log10"%string -> s <> "decade"%string ->
  f x rate "phase"%string (TStr s) = Err TypeError.
Proof. exact (devs_bad_keyword f). Qed.
Print Assumptions C05_bad_keyword.

Theorem C05_empty_record {A} {NA : Num A} f : In f all_devs ->
  forall rate taus, neqb rate (ofZ 0) = false ->
  taus = TNone \/ taus = TList [] \/ taus = TStr "octave" \/ taus = TStr "log10" \/ taus = TStr "decade" ->
  f [] rate "phase"%string taus = Err OverflowError.
Proof. exact (devs_empty_keyword f). Qed.
Print Assumptions C05_empty_record.

Theorem C05_no_usable_tau f (x : list R) rate taus l : In f all_devs -> 0 < rate -> (2 <= len x)%nat ->
  (taus = TArr l \/ (taus = TList l /\ l <> [])) ->
  (forall t m, In t l -> half_even (t * rate) m -> (m <= 0 \/ Z.of_nat (len x) <= m)%Z) ->
  f x rate "phase"%string taus = Err UserWarning.
Proof. exact (devs_unusable f x rate taus l). Qed.
Print Assumptions C05_no_usable_tau.

(** gcodev takes two records; the first one is looked at first. *)
Theorem C05_gcodev {A} {NA : Num A} (x y : list A) rate taus :
  (neqb rate (ofZ 0) = true -> gcodev x y rate "phase" taus = Err RuntimeError /\ gcodev x y rate "freq" taus = Err ZeroDivisionError) /\
  (forall dt, dt <> "phase"%string -> dt <> "freq"%string -> gcodev x y rate dt taus = Err GenericException) /\
  (forall s, neqb rate (ofZ 0) = false -> s <> "all"%string -> s <> "octave"%string -> s <> "log10"%string -> s <> "decade"%string ->
     gcodev x y rate "phase" (TStr s) = Err TypeError) /\
  (neqb rate (ofZ 0) = false -> taus = TNone \/ taus = TList [] \/ taus = TStr "octave" \/ taus = TStr "log10" \/ taus = TStr "decade" ->
     x = [] \/ y = [] -> gcodev x y rate "phase" taus = Err OverflowError).
Proof.
  split; [|split; [|split]].
  - intros H. unfold gcodev. cbn [input_to_phase String.eqb Ascii.eqb Bool.eqb bind].
    rewrite (tau_generator_rate0 x rate taus false _ H). cbn [bind]. split; [reflexivity|]. unfold frequency2phase. now rewrite H.
  - intros dt H1 H2. unfold gcodev, input_to_phase. apply String.eqb_neq in H1, H2. now rewrite H1, H2.
  - intros s Hr H1 H2 H3 H4. unfold gcodev. cbn [input_to_phase String.eqb Ascii.eqb Bool.eqb bind]. unfold tau_generator. rewrite Hr.
    unfold expand_taus. apply String.eqb_neq in H1, H2, H3, H4. now rewrite H1, H2, H3, H4.
  - intros Hr Ht He. unfold gcodev. cbn [input_to_phase String.eqb Ascii.eqb Bool.eqb bind]. unfold tau_generator. rewrite Hr.
    assert (H0 : @expand_taus A NA 0 rate taus = Err OverflowError) by (destruct Ht as [-> | [-> | [-> | [-> | ->]]]]; reflexivity).
    destruct x as [|a x]; [cbn [len]; rewrite H0; reflexivity|]. destruct He as [He|He]; [discriminate|]. subst y.
    assert (H1 : exists l, @expand_taus A NA (len (a :: x)) rate taus = Ok l) by (destruct Ht as [-> | [-> | [-> | [-> | ->]]]]; eexists; reflexivity).
    destruct H1 as [l H1]. rewrite H1. cbn [bind len]. rewrite H0. reflexivity.
Qed.
Print Assumptions C05_gcodev.

Theorem C05_gcodev_no_usable_tau (x y : list R) rate taus l : 0 < rate -> (taus = TArr l \/ (taus = TList l /\ l <> [])) ->
  (forall t m, In t l -> half_even (t * rate) m -> (m <= 0 \/ Z.of_nat (len y) <= m)%Z) ->
  gcodev x y rate "phase" taus = Err UserWarning.
Proof.
  intros Hr Ht H. unfold gcodev. cbn [input_to_phase String.eqb Ascii.eqb Bool.eqb bind].
  destruct (tau_explicit x rate taus l false (-1) ltac:(lra) Ht) as (ms1 & E1 & _).
  destruct (tau_explicit y rate taus l false (-1) ltac:(lra) Ht) as (ms & E2 & _ & Hi).
  change (@ofZ R _ (-1)) with (-1). rewrite E1. cbn [bind]. rewrite E2. cbn [bind].
  destruct ms as [|m ms]; [reflexivity|]. exfalso. pose proof (proj1 (Hi m) (or_introl eq_refl)) as ((t & Htl & Hh) & Hb & _).
  specialize (H t m Htl Hh). lia.
Qed.
Print Assumptions C05_gcodev_no_usable_tau.

Example C05_ex : mdev [1; 2; 4]%float 0%float "phase" TNone = Err RuntimeError /\
  theo1 [1; 2; 4]%float 0%float "phase" TNone = Err ZeroDivisionError /\
  mdev [1; 2; 4]%float 1%float "phasee" TNone = Err GenericException /\
  mdev [1; 2; 4]%float 1%float "phase" (TStr "octaves") = Err TypeError /\
  mtie [1; 2; 4]%float 1%float "phase" (TList [3; 0; -1]%float) = Err UserWarning /\
  tdev ([] : list float) 1%float "phase" TNone = Err OverflowError /\
  gcodev [1; 2; 4]%float [] 1%float "phase" (TStr "octave") = Err OverflowError /\
  gcodev [1; 2; 4; 7; 9]%float [1; 3; 4]%float 1%float "phase" (TList [3; 0; -1]%float) = Err UserWarning.
Proof. vm_compute. repeat split. Qed.

(** ** C06 *)
Theorem C06_theo1 (x : list R) rate taus t d e n : 0 < rate -> theo1 x rate "phase" taus = Ok (t, d, e, n) ->
  forall v, In v t <-> exists m, v = INR m / rate /\ (1 <= m < len x)%nat /\ Nat.even m = true /\
    requested (len x) rate taus m /\ (1 < (Z.of_nat (len x) - Z.of_nat m) * Z.of_nat (Nat.div2 m))%Z.
Proof. exact (theo1_rows x rate taus t d e n). Qed.
Print Assumptions C06_theo1.

Theorem C06_mtotdev (x : list R) rate taus t d e n : 0 < rate -> mtotdev x rate "phase" taus = Ok (t, d, e, n) ->
  forall v, In v t <-> exists m, v = INR m / rate /\ (1 <= m)%nat /\ (3 * m + 1 <= len x)%nat /\ requested (len x) rate taus m.
Proof. exact (third_rows st_mtotdev x rate taus t d e n (or_introl eq_refl)). Qed.
Print Assumptions C06_mtotdev.

Theorem C06_ttotdev (x : list R) rate taus t d e n : 0 < rate -> ttotdev x rate "phase" taus = Ok (t, d, e, n) ->
  forall v, In v t <-> exists m, v = INR m / rate /\ (1 <= m)%nat /\ (3 * m + 1 <= len x)%nat /\ requested (len x) rate taus m.
Proof. exact (third_rows st_ttotdev x rate taus t d e n (or_intror eq_refl)). Qed.
Print Assumptions C06_ttotdev.

Theorem C06_htotdev (x : list R) rate taus t d e n : 0 < rate -> htotdev x rate "phase" taus = Ok (t, d, e, n) ->
  forall v, In v t <-> exists m, v = INR m / rate /\ (1 <= m)%nat /\ (3 * m + 2 <= len x)%nat /\ requested (len x - 1) rate taus m.
Proof. exact (htot_rows_iff x rate taus t d e n). Qed.
Print Assumptions C06_htotdev.

(** the limit itself: m <= N/3 as evaluated by tau_generator *)
Theorem C06_third_limit (x : list R) rate taus ms : rate <> 0 ->
  admissible_if (fun m => 3 * m <= len x)%nat (len x) rate taus ms ->
  tau_generator x rate taus false (third_len (len x)) =
    Ok (x, map Z.of_nat ms, map (fun m => INR m / rate) ms).
Proof. exact (TotProofs.tau_generator_third x rate taus ms). Qed.
Print Assumptions C06_third_limit.

Example C06_ex : exists d e, theo1 [0; 1; 4; 2; 3; 5; 5]%float 1%float "phase" (TStr "all") =
  Ok ([2; 4; 6]%float, d, e, [5; 6; 3]%Z) /\ exists d e, 
  mtotdev [0; 1; 4; 2; 3; 5; 5]%float 1%float "phase" (TStr "all") = Ok ([1; 2]%float, d, e, [5; 2]%Z).
Proof. eexists _, _. split; [vm_compute; reflexivity|]. eexists _, _. vm_compute. reflexivity. Qed.

(** ** C07 *)
Theorem C07_rows {A} {NA : Num A} (rows : list (A * A * A * Z)) :
  remove_small_ns (map (fun r => fst (fst (fst r))) rows) (map (fun r => snd (fst (fst r))) rows)
    (EArr (map (fun r => snd (fst r)) rows)) (map snd rows) =
  match filter (fun r => (1 <? snd r)%Z) rows with
  | [] => Err UserWarning
  | good => Ok (map (fun r => fst (fst (fst r))) good, map (fun r => snd (fst (fst r))) good,
                EArr (map (fun r => snd (fst r)) good), map snd good)
  end.
Proof. exact (remove_small_ns_spec rows). Qed.
Print Assumptions C07_rows.

Theorem C07_rows_two_errors {A} {NA : Num A} (rows : list (A * A * (A * A) * Z)) :
  remove_small_ns (map (fun r => fst (fst (fst r))) rows) (map (fun r => snd (fst (fst r))) rows)
    (EList [map (fun r => fst (snd (fst r))) rows; map (fun r => snd (snd (fst r))) rows]) (map snd rows) =
  match filter (fun r => (1 <? snd r)%Z) rows with
  | [] => Err UserWarning
  | good => Ok (map (fun r => fst (fst (fst r))) good, map (fun r => snd (fst (fst r))) good,
                EList [map (fun r => fst (snd (fst r))) good; map (fun r => snd (snd (fst r))) good], map snd good)
  end.
Proof. exact (remove_small_ns_spec2 rows). Qed.
Print Assumptions C07_rows_two_errors.

(** any four equally long columns are of that form *)
Theorem C07_columns {A} (t d e : list A) (n : list Z) :
  len d = len t -> len e = len t -> len n = len t ->
  exists rows : list (A * A * A * Z),
    t = map (fun r => fst (fst (fst r))) rows /\ d = map (fun r => snd (fst (fst r))) rows /\
    e = map (fun r => snd (fst r)) rows /\ n = map snd rows.
Proof. exact (columns t d e n). Qed.
Print Assumptions C07_columns.

(** Columns that do not fit together, or a list of other than two error arrays, are never
    silently accepted. *)
Definition columns_fit {A} (t d : list A) (e : errs A) (n : list Z) : Prop :=
  len t = len n /\ len d = len n /\
  match e with EArr l => len l = len n | EList [a; b] => len a = len n /\ len b = len n | EList _ => False end.
Theorem C07_misuse {A} {NA : Num A} (t d : list A) (e : errs A) (n : list Z) : ~ columns_fit t d e n ->
  remove_small_ns t d e n =
  if Nat.eqb (len t) (len n) && Nat.eqb (len d) (len n) && match e with EList ls => Nat.leb 3 (len ls) | EArr _ => false end
  then Err AssertionError else Err IndexError.
Proof.
  unfold columns_fit, remove_small_ns, mask_select. rewrite map_length. intros H. rewrite Nat.eqb_refl.
  rewrite !(Nat.eqb_sym (len n)).
  destruct (Nat.eqb_spec (len t) (len n)) as [Ht|_]; [|reflexivity].
  destruct (Nat.eqb_spec (len d) (len n)) as [Hd|_]; [|reflexivity]. cbn [bind andb].
  destruct e as [l|[|a [|b [|c ls]]]]; try reflexivity; rewrite !(Nat.eqb_sym (len n)).
  - destruct (Nat.eqb_spec (len l) (len n)) as [Hl|_]; [|reflexivity]. exfalso. apply H. auto.
  - cbn [List.length Nat.leb]. destruct (Nat.eqb_spec (len a) (len n)) as [Ha|_]; [|reflexivity]. cbn [bind].
    destruct (Nat.eqb_spec (len b) (len n)) as [Hb|_]; [|reflexivity]. exfalso. apply H. auto.
Qed.
Print Assumptions C07_misuse.
Example C07_ex_misuse : remove_small_ns [1; 2]%float [4; 5]%float (EList [[7; 8]%float]) [5; 2]%Z = Err IndexError /\
  remove_small_ns [1; 2]%float [4; 5]%float (EList [[7; 8]; [7; 8]; [7; 8]]%float) [5; 2]%Z = Err AssertionError.
Proof. split; reflexivity. Qed.

Example C07_ex : remove_small_ns [1; 2; 3]%float [4; 5; 6]%float (EArr [7; 8; 9]%float) [5; 1; 2]%Z =
  Ok ([1; 3]%float, [4; 6]%float, EArr [7; 9]%float, [5; 2]%Z).
Proof. reflexivity. Qed.

(** ** C08 *)
Theorem C08_shape {A} {NA : Num A} f : In f all_devs ->
  forall x rate dt taus r, f x rate dt taus = Ok r -> well_formed rate r.
Proof. exact (devs_well_formed f). Qed.
Print Assumptions C08_shape.

Theorem C08_gcodev_shape {A} {NA : Num A} (x y : list A) rate dt taus r :
  gcodev x y rate dt taus = Ok r -> well_formed rate r.
Proof. exact (gcodev_well_formed x y rate dt taus r). Qed.
Print Assumptions C08_gcodev_shape.

(** rows are requested ones; the error column is dev/sqrt(n) for these functions *)
Theorem C08_rows f (x : list R) rate taus t d e n :
  In f [adev; oadev; hdev; ohdev; mdev; tdev; pdev; totdev; mtotdev; ttotdev; htotdev; mtie] -> 0 < rate ->
  f x rate "phase"%string taus = Ok (t, d, e, n) ->
  (forall v, In v t -> exists m, v = INR m / rate /\ (1 <= m < len x)%nat /\
     (requested (len x) rate taus m \/ requested (len x - 1) rate taus m)) /\
  exists k, e = EArr k /\ k = map2 (fun dv nv => dv / sqrt (IZR nv)) d n.
Proof. exact (stat_rows_plain f x rate taus t d e n). Qed.
Print Assumptions C08_rows.

(** theo1 weights the error by the number N-m of windows, not by the reported n; tierms reports zero errors *)
Theorem C08_theo1_tierms (x : list R) rate taus t d e n : 0 < rate ->
  (theo1 x rate "phase"%string taus = Ok (t, d, e, n) -> exists ms,
     (forall m, In m ms -> (1 <= m < len x)%nat /\ Nat.even m = true /\ requested (len x) rate taus m) /\
     t = map (fun m => INR m / rate) ms /\ n = map (fun m => (Z.of_nat (len x) - Z.of_nat m) * Z.of_nat (Nat.div2 m))%Z ms /\
     e = EArr (map2 (fun dv m => dv / sqrt (INR (len x - m))) d ms)) /\
  (tierms x rate "phase"%string taus = Ok (t, d, e, n) -> exists ms,
     (forall m, In m ms -> (1 <= m < len x)%nat /\ requested (len x) rate taus m) /\
     t = map (fun m => INR m / rate) ms /\ n = map (fun m => Z.of_nat (len x) - Z.of_nat m)%Z ms /\
     e = EArr (repeat 0 (len d))).
Proof.
  intros Hr. split; intros H.
  - destruct (stat_ok st_theo1 x rate taus t d e n) as (ms & good & Hms & -> & _ & -> & -> & -> & ->); auto.
    { unfold stats; cbn; tauto. }
    set (good := filter _ ms). exists good.
    assert (Hg : forall m, In m good -> (1 <= m < len x)%nat /\ Nat.even m = true /\ requested (len x) rate taus m).
    { intros m Hm. apply filter_In in Hm as [Hm _]. destruct Hms as (_ & _ & Hi). apply Hi in Hm as (A & B & C).
      cbn [s_base s_ok st_theo1] in *. unfold idn, evenm in *. auto. }
    split; [exact Hg|]. split; [reflexivity|]. split; [reflexivity|].
    f_equal. clearbody good. induction good as [|m g IH]; [reflexivity|]. cbn [map map2 repeat List.length].
    rewrite IH by (intros; apply Hg; cbn; auto). f_equal. cbn [s_w st_theo1]. unfold wplain, c_tie.
    assert (1 <= m < len x)%nat by (apply Hg; cbn; auto).
    rewrite INR_IZR_INZ. replace (Z.of_nat (len x - m)) with (Z.of_nat (len x) - Z.of_nat m)%Z by lia. reflexivity.
  - destruct (stat_ok st_tierms x rate taus t d e n) as (ms & good & Hms & -> & _ & -> & -> & -> & ->); auto.
    { unfold stats; cbn; tauto. }
    set (good := filter _ ms). exists good.
    split.
    { intros m Hm. apply filter_In in Hm as [Hm _]. destruct Hms as (_ & _ & Hi). apply Hi in Hm as (A & B & C).
      cbn [s_base s_ok st_tierms] in *. unfold idn in *. auto. }
    split; [reflexivity|]. split; [reflexivity|].
    f_equal. clearbody good. induction good as [|m g IH]; [reflexivity|]. cbn [map map2 repeat List.length].
    rewrite IH. f_equal. apply Rmult_0_r.
Qed.
Print Assumptions C08_theo1_tierms.

Example C08_ex : exists r, pdev [0; 1; 4; 2; 3; 5; 5]%float 2%float "phase" TNone = Ok r /\ well_formed 2%float r.
Proof.
  destruct (pdev [0; 1; 4; 2; 3; 5; 5]%float 2%float "phase" TNone) as [r|] eqn:E; [|vm_compute in E; discriminate].
  exists r. split; [reflexivity|]. apply (C08_shape pdev ltac:(cbn; tauto) _ _ _ _ _ E).
Qed.

(** ** C10 *)
Theorem C10_trim_data {A} {NA : Num A} (x : list A) (d : A) :
  (exists pre mid post, x = pre ++ mid ++ post /\ mid <> [] /\
     Forall (fun a => nisnan a = true) pre /\ Forall (fun a => nisnan a = true) post /\
     nisnan (hd d mid) = false /\ nisnan (last mid d) = false /\ trim_data x = Ok mid) \/
  (Forall (fun a => nisnan a = true) x /\ trim_data x = Err IndexError).
Proof. exact (trim_data_split x d). Qed.
Print Assumptions C10_trim_data.

Example C10_ex : trim_data [nan; nan; 1; nan; 2; nan]%float = Ok [1; nan; 2]%float.
Proof. reflexivity. Qed.
