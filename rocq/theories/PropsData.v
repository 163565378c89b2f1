(** * The Dataset class: C61, C62, C63. *)
From Coq Require Import String Floats Reals List ZArith Lra Lia Arith Bool Sorted.
From Verif Require Import Base Num NpList NumR NumF ModelCore ModelDev ModelMisc ModelCi ModelData ListFacts Spec RSum TauProofs GenericProofs PropsTau.
Import ListNotations.
Local Notation len := List.length.

(** ** Independent description *)
(** the names compute() is willing to run *)
Definition accepted (f : string) : Prop := (exists p, f = (p ++ "dev")%string) \/ In f ["theo1"; "mtie"; "tierms"]%string.

Lemma sub_app p q : substring (String.length p) (String.length q) (p ++ q) = q.
Proof.
  induction p as [|a p IH]; cbn; [|exact IH]. induction q as [|b q IH]; cbn; [reflexivity|]. now rewrite IH.
Qed.
Lemma sub_full n s : (String.length s <= n)%nat -> substring 0 n s = s.
Proof. revert n. induction s as [|a s IH]; intros [|n] H; cbn in *; try lia; try reflexivity. f_equal. apply IH. lia. Qed.
Lemma sub_split k s : (substring 0 k s ++ substring k (String.length s - k) s)%string = s.
Proof.
  revert k. induction s as [|a s IH]; intros [|k]; cbn; try reflexivity.
  - f_equal. apply sub_full. lia.
  - f_equal. apply IH.
Qed.
Lemma app_len p q : String.length (p ++ q) = (String.length p + String.length q)%nat.
Proof. induction p as [|a p IH]; cbn; [reflexivity|]. now rewrite IH. Qed.
Lemma last3_dev f : last3 f = "dev"%string <-> exists p, f = (p ++ "dev")%string.
Proof.
  unfold last3. split.
  - intros H. destruct (Nat.lt_ge_cases (String.length f) 3) as [Hl|Hl].
    + replace (String.length f - 3)%nat with 0%nat in H by lia. rewrite sub_full in H by lia. rewrite H in Hl. cbn in Hl. lia.
    + exists (substring 0 (String.length f - 3) f). rewrite <- H. symmetry.
      pose proof (sub_split (String.length f - 3) f) as E. replace (String.length f - (String.length f - 3))%nat with 3%nat in E by lia. exact E.
  - intros [p ->]. rewrite app_len. replace (String.length p + String.length "dev" - 3)%nat with (String.length p) by (cbn; lia). apply (sub_app p "dev").
Qed.
Lemma mem_str_In f l : mem_str f l = true <-> In f l.
Proof.
  unfold mem_str. rewrite existsb_exists. split.
  - intros (x & Hx & E). apply String.eqb_eq in E. now subst.
  - intros H. exists f. split; [exact H|apply String.eqb_refl].
Qed.
Lemma filter_spec f : negb (String.eqb (last3 f) "dev") && negb (mem_str f whitelisted) = false <-> accepted f.
Proof.
  rewrite andb_false_iff, !negb_false_iff, String.eqb_eq, mem_str_In. unfold accepted. rewrite last3_dev. reflexivity.
Qed.
Lemma filter_spec' f : negb (String.eqb (last3 f) "dev") && negb (mem_str f whitelisted) = true <-> ~ accepted f.
Proof. rewrite <- filter_spec. destruct (_ && _); split; congruence. Qed.

Section Generic.
Context {A : Type} {NA : Num A}.
(** running function [f] of the module on inputs [i] gives [r] *)
Definition evaluates (lookup : string -> option (@attr A)) (i : inputs) (f : string) (r : @result A) : Prop :=
  accepted f /\ exists g, lookup f = Some (DevFun g) /\ g (i_data i) (i_rate i) (i_type i) (i_taus i) = Ok r.
(** the inputs in force after the calls [cs] *)
Definition in_force (i : @inputs A) (cs : list call) : inputs := fold_left (fun i c => match c with SetInput j => j | Compute _ => i end) cs i.

Lemma compute_ok lookup (d : @dataset A) f r : snd (compute lookup d f) = Ok r <-> evaluates lookup (inp d) f r.
Proof.
  unfold compute, evaluates. destruct (lookup f) as [a|]; [|split; [discriminate|intros (_ & g & E & _); discriminate]].
  destruct (negb _ && negb _) eqn:E.
  - apply filter_spec' in E. split; [discriminate|tauto].
  - apply filter_spec in E. destruct a as [g|]; [|split; [discriminate|intros (_ & g & E' & _); discriminate]].
    destruct (g _ _ _ _) as [r'|e] eqn:Eg; cbn; split.
    + intros [= <-]. split; [exact E|]. eauto.
    + intros (_ & g' & [= <-] & Eg'). now rewrite Eg in Eg'.
    + discriminate.
    + intros (_ & g' & [= <-] & Eg'). now rewrite Eg in Eg'.
Qed.
Lemma compute_state lookup (d : @dataset A) f :
  (exists r, snd (compute lookup d f) = Ok r /\ fst (compute lookup d f) = mkds (inp d) (mkout (Some r) false (Some f))) \/
  (exists e, snd (compute lookup d f) = Err e /\ fst (compute lookup d f) = d).
Proof.
  unfold compute. destruct (lookup f) as [a|]; [|right; eexists; split; reflexivity].
  destruct (negb _ && negb _); [right; eexists; split; reflexivity|].
  destruct a as [g|]; [|right; eexists; split; reflexivity].
  destruct (g _ _ _ _); [left|right]; eexists; split; reflexivity.
Qed.

(** ** C61 *)
(** one call: the result is returned and stored under the function's name, the
    inputs stay; an exception changes nothing *)
Theorem C61_compute lookup (d : @dataset A) f :
  (forall r, snd (compute lookup d f) = Ok r <-> evaluates lookup (inp d) f r) /\
  (forall r, snd (compute lookup d f) = Ok r -> inp (fst (compute lookup d f)) = inp d /\
     o_res (out (fst (compute lookup d f))) = Some r /\ o_id (out (fst (compute lookup d f))) = Some f) /\
  (forall e, snd (compute lookup d f) = Err e -> fst (compute lookup d f) = d).
Proof.
  split; [intros r; apply compute_ok|]. split.
  - intros r H. destruct (compute_state lookup d f) as [(r' & E & Es)|(e & E & _)]; rewrite E in H; [|discriminate].
    injection H as ->. rewrite Es. auto.
  - intros e H. destruct (compute_state lookup d f) as [(r' & E & _)|(e' & _ & Es)]; [rewrite E in H; discriminate|exact Es].
Qed.
(** the whole life of an object: its inputs are the last ones set, its output is
    that of the last successful computation on the inputs in force at that time
    - whatever was set later - and no later computation succeeded *)
Theorem C61_history lookup (i0 : @inputs A) cs : let d := history lookup (ds_init i0) cs in
  inp d = in_force i0 cs /\
  ((out d = mkout None true None /\ forall pre f post r, cs = pre ++ Compute f :: post -> ~ evaluates lookup (in_force i0 pre) f r) \/
   (exists pre f post r, cs = pre ++ Compute f :: post /\ evaluates lookup (in_force i0 pre) f r /\
      out d = mkout (Some r) false (Some f) /\
      forall p g q r', post = p ++ Compute g :: q -> ~ evaluates lookup (in_force i0 (pre ++ Compute f :: p)) g r')).
Proof.
  cbv zeta. induction cs as [|c cs IH] using rev_ind.
  - split; [reflexivity|]. left. split; [reflexivity|]. intros pre f post r H. destruct pre; discriminate.
  - unfold history, in_force in *. rewrite !fold_left_app. cbn [fold_left]. destruct IH as [IHi IHo]. set (d := fold_left (step lookup) cs (ds_init i0)) in *.
    assert (Snoc : forall (l : list (@call A)) x pre y post, l ++ [x] = pre ++ y :: post -> (post = [] /\ pre = l /\ y = x) \/ exists post', post = post' ++ [x] /\ l = pre ++ y :: post').
    { intros l x pre y post E. destruct post as [|z post _] using rev_ind.
      - left. apply app_inj_tail in E. destruct E as [-> ->]. auto.
      - right. exists post. rewrite app_comm_cons, app_assoc in E. apply app_inj_tail in E. destruct E as [-> ->]. auto. }
    destruct c as [i|f]; cbn [step].
    + split; [reflexivity|]. cbn [set_input out]. destruct IHo as [[Ho Hn]|(pre & g & post & r & Ec & Ev & Ho & Hn)].
      * left. split; [exact Ho|]. intros pre g post r E. apply Snoc in E. destruct E as [(_ & _ & E)|(post' & -> & E)]; [discriminate|]. eapply Hn; eauto.
      * right. exists pre, g, (post ++ [SetInput i]), r. split; [now rewrite Ec, <- app_assoc|]. split; [exact Ev|]. split; [exact Ho|].
        intros p h q r' E. apply Snoc in E. destruct E as [(_ & _ & E)|(post' & -> & E)]; [discriminate|]. eapply Hn; eauto.
    + destruct (compute_state lookup d f) as [(r & E & Es)|(e & E & Es)]; rewrite Es.
      * split; [exact IHi|]. right. exists cs, f, [], r. split; [reflexivity|]. split; [apply compute_ok in E; now rewrite IHi in E|]. split; [reflexivity|].
        intros p g q r' Ep. destruct p; discriminate.
      * split; [exact IHi|]. assert (N : forall r, ~ evaluates lookup (fold_left (fun i c => match c with SetInput j => j | Compute _ => i end) cs i0) f r).
        { intros r Hr. rewrite <- IHi in Hr. apply compute_ok in Hr. rewrite E in Hr. discriminate. }
        destruct IHo as [[Ho Hn]|(pre & g & post & r & Ec & Ev & Ho & Hn)].
        -- left. split; [exact Ho|]. intros pre g post r Ep. apply Snoc in Ep. destruct Ep as [(-> & -> & [= ->])|(post' & -> & Ep)]; [apply N|]. eapply Hn; eauto.
        -- right. exists pre, g, (post ++ [Compute f]), r. split; [now rewrite Ec, <- app_assoc|]. split; [exact Ev|]. split; [exact Ho|].
           intros p h q r' Ep. apply Snoc in Ep. destruct Ep as [(-> & -> & [= ->])|(post' & -> & Ep)]; [|eapply Hn; eauto].
           rewrite <- Ec. apply N.
Qed.

(** ** C62 *)
Theorem C62_filter lookup (d : @dataset A) f :
  (lookup f = None -> snd (compute lookup d f) = Err AttributeError) /\
  (lookup f <> None -> ~ accepted f -> snd (compute lookup d f) = Err RuntimeError) /\
  (lookup f = Some Other -> accepted f -> snd (compute lookup d f) = Err TypeError) /\
  (forall g, lookup f = Some (DevFun g) -> accepted f ->
     snd (compute lookup d f) = g (i_data (inp d)) (i_rate (inp d)) (i_type (inp d)) (i_taus (inp d))).
Proof.
  unfold compute. destruct (lookup f) as [a|]; [|repeat split; congruence].
  split; [congruence|]. split; [intros _ H; apply filter_spec' in H; now rewrite H|]. split.
  - intros [= ->] H. apply filter_spec in H. now rewrite H.
  - intros g [= ->] H. apply filter_spec in H. rewrite H. destruct (g _ _ _ _); reflexivity.
Qed.

Definition computable (nlog nexp : A -> A) (ppf : A -> A -> A) : list (string * devfun) :=
  [("adev", adev); ("oadev", oadev); ("hdev", hdev); ("ohdev", ohdev); ("mdev", mdev); ("tdev", tdev); ("pdev", pdev);
   ("totdev", totdev); ("mtotdev", mtotdev); ("ttotdev", ttotdev); ("htotdev", htotdev); ("theo1", theo1); ("mtie", mtie);
   ("tierms", tierms); ("gradev", fun x r dt t => gradev nlog nexp ppf x r dt t (ndiv (ofZ 9) (ofZ 10)) "wp")]%string.
(** for the actual module, provided its remaining attributes do not look like
    deviation functions *)
Theorem C62_module nlog nexp ppf other (d : @dataset A) f : (forall s, accepted s -> other s = false) ->
  let r := snd (compute (module_attr nlog nexp ppf other) d f) in
  (forall g, In (f, g) (computable nlog nexp ppf) -> r = g (i_data (inp d)) (i_rate (inp d)) (i_type (inp d)) (i_taus (inp d))) /\
  (f = "gcodev"%string \/ f = "psd_piecewise_to_adev"%string -> r = Err TypeError) /\
  (accepted f -> ~ In f (map fst (computable nlog nexp ppf)) -> f <> "gcodev"%string -> f <> "psd_piecewise_to_adev"%string -> r = Err AttributeError) /\
  (~ accepted f -> r = Err (if other f then RuntimeError else AttributeError)).
Proof.
  intros Ho. cbv zeta. set (lk := module_attr nlog nexp ppf other).
  assert (Acc : forall s, In s (map fst (computable nlog nexp ppf)) \/ s = "gcodev"%string \/ s = "psd_piecewise_to_adev"%string -> accepted s).
  { intros s [H|H].
    - cbn in H. repeat destruct H as [<-|H]; try contradiction; apply filter_spec; reflexivity.
    - destruct H as [ -> | -> ]; apply filter_spec; reflexivity. }
  assert (N : ~ In f (map fst (computable nlog nexp ppf)) -> f <> "gcodev"%string -> f <> "psd_piecewise_to_adev"%string -> lk f = if other f then Some Other else None).
  { intros H1 H2 H3. unfold lk, module_attr. cbn [find fst]. cbn in H1.
    repeat (match goal with |- context [String.eqb f ?x] => destruct (String.eqb_spec f x) as [E|_]; [exfalso; subst f; tauto|] end). reflexivity. }
  split; [|split; [|split]].
  - intros g Hg. apply C62_filter; [|apply Acc; left; apply in_map_iff; exists (f, g); auto].
    cbn in Hg. repeat destruct Hg as [Hg|Hg]; try contradiction; injection Hg as <- <-; reflexivity.
  - intros H. assert (Ha : accepted f) by auto. destruct H as [ -> | -> ]; (apply C62_filter; [reflexivity|exact Ha]).
  - intros Ha H1 H2 H3. specialize (N H1 H2 H3). rewrite (Ho f Ha) in N. now apply C62_filter.
  - intros Ha. assert (Hn : lk f = if other f then Some Other else None) by (apply N; intros C; apply Ha; apply Acc; auto; tauto).
    destruct (other f); [apply C62_filter; [now rewrite Hn|exact Ha]|now apply C62_filter].
Qed.

(** ** C63: errors and partial files *)
Definition header (i : @inputs A) (params : list (string * string)) : list (@ModelData.line A) :=
  [LVersion; LType (i_type i); LRate (i_rate i)] ++ map (fun p => LParam (fst p) (snd p)) params.
(** before any successful computation: the file is truncated to its header *)
Theorem C63_before_compute lookup (i0 : @inputs A) cs digits params :
  (forall pre f post r, cs = pre ++ Compute f :: post -> ~ evaluates lookup (in_force i0 pre) f r) ->
  write_results (history lookup (ds_init i0) cs) digits params = (header (in_force i0 cs) params, Some TypeError).
Proof.
  intros H. destruct (C61_history lookup i0 cs) as [Hi Ho]. cbv zeta in Hi, Ho. set (d := history lookup (ds_init i0) cs) in *.
  destruct Ho as [[Ho _]|(pre & f & post & r & E & Ev & _)]; [|exfalso; eapply H; eauto].
  unfold write_results. rewrite Ho, Hi. reflexivity.
Qed.
(** a result with separate lower and upper errors (gradev) cannot be written *)
Theorem C63_two_errors (d : @dataset A) t d' lo hi n id digits params : o_id (out d) = Some id -> o_res (out d) = Some (t, d', EList [lo; hi], n) ->
  t <> [] -> d' <> [] -> n <> [] -> (-5 <= digits)%Z ->
  exists e, write_results d digits params = (header (inp d) params ++ [LFields id], Some e).
Proof.
  intros Hi Hr Ht Hd Hn Hg. unfold write_results. rewrite Hi, Hr. destruct (Z.ltb_spec (digits + 5) 0); [lia|].
  destruct t as [|t0 t]; [congruence|]. destruct d' as [|d0 d']; [congruence|]. destruct n as [|n0 n]; [congruence|].
  cbn [len fst seq out_rows]. unfold out_row. cbn [col nth_error bind]. destruct (py_int _) as [af|e]; cbn [bind]; eexists; reflexivity.
Qed.
End Generic.
Print Assumptions C61_compute.
Print Assumptions C61_history.
Print Assumptions C62_filter.
Print Assumptions C62_module.
Print Assumptions C63_before_compute.
Print Assumptions C63_two_errors.


Local Open Scope R_scope.
Lemma rows_ok {A} {NA : Num A} (r : @result A) digits (h : nat -> ModelData.line) is :
  (forall i, In i is -> out_row r digits i = Ok (h i)) -> out_rows r digits is = (map h is, None).
Proof.
  induction is as [|i is IH]; intros H; [reflexivity|]. cbn [out_rows map]. rewrite H by now left. rewrite IH by (intros; apply H; now right). reflexivity.
Qed.
Lemma trunc_quot (a b : Z) (rate : R) : (1 <= a)%Z -> (1 <= b)%Z -> 0 < rate -> truncR (IZR a / rate / (IZR b / rate)) = (a / b)%Z.
Proof.
  intros Ha Hb Hr. assert (0 < IZR b) by (apply IZR_lt; lia). assert (0 <= IZR a) by (apply IZR_le; lia).
  replace (IZR a / rate / (IZR b / rate)) with (IZR a / IZR b) by (field; lra).
  assert (Hp : 0 <= IZR a / IZR b) by (apply Rmult_le_pos; [assumption|apply Rlt_le, Rinv_0_lt_compat; assumption]).
  pose proof (truncR_nat _ Hp) as [H1 H2]. set (q := truncR (IZR a / IZR b)) in *.
  assert (Hq : (0 <= q)%Z).
  { unfold q, truncR. destruct (Rle_dec 0 (IZR a / IZR b)); [|contradiction].
    assert (-1 < Int_part (IZR a / IZR b))%Z; [|lia]. apply lt_IZR. pose proof (base_Int_part (IZR a / IZR b)). cbn. lra. }
  rewrite INR_IZR_INZ, Z2Nat.id in H1, H2 by exact Hq.
  assert (E1 : IZR q * IZR b <= IZR a) by (apply (Rmult_le_compat_r (IZR b)) in H1; [|lra]; unfold Rdiv in H1; rewrite Rmult_assoc, Rinv_l in H1; lra).
  assert (E2 : IZR a < (IZR q + 1) * IZR b) by (apply (Rmult_lt_compat_r (IZR b)) in H2; [|lra]; unfold Rdiv in H2; rewrite Rmult_assoc, Rinv_l in H2; lra).
  rewrite <- mult_IZR in E1. apply le_IZR in E1. rewrite <- plus_IZR, <- mult_IZR in E2. apply lt_IZR in E2.
  apply (Z.div_unique a b q (a - q * b)); lia.
Qed.
Lemma nth_error_nth_len {B} (l : list B) i x : (i < len l)%nat -> nth_error l i = Some (nth i l x).
Proof. intros H. now apply nth_error_nth'. Qed.

(** the exception, in exact arithmetic: the first field of the row is formatted before the errors are *)
Theorem C63_two_errors_exact (d : @dataset R) t d' lo hi n id digits params : o_id (out d) = Some id -> o_res (out d) = Some (t, d', EList [lo; hi], n) ->
  t <> [] -> hd 0 t <> 0 -> d' <> [] -> n <> [] -> (-5 <= digits)%Z ->
  write_results d digits params = (header (inp d) params ++ [LFields id], Some (if (digits <? 1)%Z then ValueError else TypeError)).
Proof.
  intros Hi Hr Ht _ Hd Hn Hg. unfold write_results. rewrite Hi, Hr. destruct (Z.ltb_spec (digits + 5) 0); [lia|].
  destruct t as [|t0 t]; [congruence|]. destruct d' as [|d0 d']; [congruence|]. destruct n as [|n0 n]; [congruence|].
  cbn [len fst seq out_rows]. unfold out_row. cbn [col nth_error bind]. unfold py_int. reflexivity.
Qed.
Print Assumptions C63_two_errors_exact.

(** after a successful computation: one line per tau, carrying the numbers of the
    result; the first column is the quotient of the averaging factors *)
Theorem C63_file lookup (d : @dataset R) f g digits params r : In g (@all_devs R _) -> lookup f = Some (DevFun g) ->
  snd (compute lookup d f) = Ok r -> 0 < i_rate (inp d) -> (1 <= digits)%Z ->
  exists t s e n ms, r = (t, s, EArr e, n) /\ t = map (fun m => IZR m / i_rate (inp d)) ms /\ StronglySorted Z.lt ms /\ Forall (fun m => (1 <= m)%Z) ms /\
    len s = len t /\ len e = len t /\ len n = len t /\
    write_results (fst (compute lookup d f)) digits params =
    (header (inp d) params ++ LFields f ::
       map (fun i => LRow (nth i ms 0%Z / nth 0 ms 0%Z) (nth i t 0) (nth i n 0%Z) (nth i s 0 - nth i e 0 / 2) (nth i s 0) (nth i s 0 + nth i e 0 / 2))
           (seq 0 (len t)), None).
Proof.
  intros Hg Hl Hok Hr Hd. pose proof (C61_compute lookup d f) as (Hev & Hst & _). pose proof Hok as Hev'. apply Hev in Hev'.
  destruct Hev' as (_ & g' & Hl' & Eg). rewrite Hl in Hl'. injection Hl' as <-.
  destruct (devs_well_formed g Hg _ _ _ _ _ Eg) as (t & s & e & n & ms & -> & Hs & Hp & Hne & Ht & L1 & L2 & L3 & _).
  exists t, s, e, n, ms. split; [reflexivity|]. split; [exact Ht|]. split; [exact Hs|]. split; [exact Hp|].
  assert (Lt : len t = len ms) by (rewrite Ht; apply map_length). split; [lia|]. split; [lia|]. split; [lia|].
  destruct (Hst _ Hok) as (Hi & Ho & Hid). unfold write_results. rewrite Hid, Ho, Hi. destruct (Z.ltb_spec (digits + 5) 0); [lia|].
  cbn [fst]. rewrite (rows_ok _ _ (fun i => LRow (nth i ms 0%Z / nth 0 ms 0%Z) (nth i t 0) (nth i n 0%Z) (nth i s 0 - nth i e 0 / 2) (nth i s 0) (nth i s 0 + nth i e 0 / 2))); [reflexivity|].
  intros i Hin. apply in_seq in Hin. unfold out_row.
  assert (L0 : (0 < len ms)%nat) by (destruct ms; [congruence|cbn; lia]).
  unfold col. rewrite (nth_error_nth_len t i 0), (nth_error_nth_len t 0 0), (nth_error_nth_len n i 0%Z), (nth_error_nth_len s i 0), (nth_error_nth_len e i 0) by lia.
  cbn [bind]. unfold py_int. cbn [ntrunc RNum ndiv nsub nadd ofZ].
  assert (T : forall j, (j < len ms)%nat -> nth j t 0 = IZR (nth j ms 0%Z) / i_rate (inp d)).
  { intros j Hj. rewrite Ht. rewrite (nth_indep _ 0 (IZR 0 / i_rate (inp d))) by (rewrite map_length; exact Hj). apply (map_nth (fun m => IZR m / i_rate (inp d))). }
  assert (P : forall j, (j < len ms)%nat -> (1 <= nth j ms 0)%Z) by (intros j Hj; rewrite Forall_forall in Hp; apply Hp, nth_In, Hj).
  cbn [bind]. rewrite (T i), (T 0%nat) by lia. rewrite trunc_quot by (auto; apply P; lia).
  destruct (Z.ltb_spec digits 1); [lia|reflexivity].
Qed.
Print Assumptions C63_file.
(** so the AF column is the averaging factor exactly when the first one is 1 *)
Theorem C63_af_column (ms : list Z) : StronglySorted Z.lt ms -> Forall (fun m => (1 <= m)%Z) ms -> ms <> [] ->
  ((forall i, (i < len ms)%nat -> nth i ms 0 / nth 0 ms 0 = nth i ms 0)%Z <-> nth 0 ms 0%Z = 1%Z).
Proof.
  intros _ Hp Hne. destruct ms as [|m ms]; [congruence|]. inversion Hp; subst. cbn [nth]. split.
  - intros H. specialize (H 0%nat ltac:(cbn; lia)). cbn [nth] in H. rewrite Z_div_same_full in H by lia. lia.
  - intros -> i Hi. apply Z.div_1_r.
Qed.
Print Assumptions C63_af_column.
(** in binary64 the column can be wrong even then: rate 10 Hz, tau = 0.3 s *)
Theorem C63_binary64_refuted : exists (d : @dataset float) l a t n mn s mx, i_rate (inp d) = 10%float /\ i_taus (inp d) = TList [PrimFloat.div 1 10; PrimFloat.div 3 10] /\
  let lookup := module_attr (fun x => x) (fun x => x) (fun x _ => x) (fun _ => false) in
  write_results (fst (compute lookup d "oadev")) 5 [] = (l ++ [a; LRow 2 t n mn s mx], None) /\ t = PrimFloat.div 3 10.
Proof.
  exists (ds_init (mkinp [0; 1; 3; 2; 5; 9; 4; 4; 7; 1]%float 10%float "phase" (TList [PrimFloat.div 1 10; PrimFloat.div 3 10]))).
  exists (header (mkinp [] 10%float "phase" TNone) [] ++ [LFields "oadev"]). do 6 eexists.
  split; [reflexivity|]. split; [reflexivity|]. cbv zeta. split; vm_compute; reflexivity.
Qed.
Print Assumptions C63_binary64_refuted.

Definition lk : string -> option (@attr float) := module_attr (fun x => x) (fun x => x) (fun x _ => x) (fun s => mem_str s ["np"; "mtie_phase_fast"]%string).
Definition i1 : @inputs float := mkinp [0; 1; 4; 9; 16]%float 1%float "phase" (TList [1; 2]%float).
Definition i2 : @inputs float := mkinp [0]%float 1%float "phase" TNone.
(** a stale result survives set_input and a failing compute *)
Example C61_ex : let d := history lk (ds_init i1) [Compute "np"; Compute "adev"; SetInput i2; Compute "mdev"] in
  inp d = i2 /\ exists r, adev [0; 1; 4; 9; 16]%float 1%float "phase" (TList [1; 2]%float) = Ok r /\ out d = mkout (Some r) false (Some "adev"%string).
Proof. split; [reflexivity|]. eexists. split; vm_compute; reflexivity. Qed.
Example C62_ex : snd (compute lk (ds_init i1) "np") = Err RuntimeError /\ snd (compute lk (ds_init i1) "xdev") = Err AttributeError /\
  snd (compute lk (ds_init i1) "gcodev") = Err TypeError /\ exists r, snd (compute lk (ds_init i1) "theo1") = Ok r.
Proof. repeat split; try reflexivity. eexists. vm_compute. reflexivity. Qed.
Example C62_hyp_ex : forall s, accepted s -> mem_str s ["np"; "mtie_phase_fast"]%string = false.
Proof.
  intros s H. destruct (mem_str s _) eqn:E; [|reflexivity]. apply mem_str_In in E. apply filter_spec in H. destruct E as [ <- |[ <- |[]]]; discriminate H.
Qed.
(** gradev's two error columns: only the header and the field line are written *)
Example C63_gradev_ex : write_results (fst (compute lk (ds_init i1) "gradev")) 5 [("who", "me")]%string =
  (header i1 [("who", "me")]%string ++ [LFields "gradev"%string], Some TypeError).
Proof. vm_compute. reflexivity. Qed.
Example C63_af_ex : exists a b c r1 r2 : ModelData.line, write_results (fst (compute lk (ds_init (mkinp [0; 1; 4; 9; 16; 0; 3; 5; 2; 1]%float 1%float "phase" (TList [2; 4]%float))) "oadev")) 3 [] =
  ([a; b; c; LFields "oadev"; r1; r2], None) /\ (match r1 with LRow af _ _ _ _ _ => af = 1%Z | _ => False end) /\ (match r2 with LRow af t _ _ _ _ => af = 2%Z /\ t = 4%float | _ => False end).
Proof. do 5 eexists. split; [vm_compute; reflexivity|]. split; [reflexivity|split; reflexivity]. Qed.
