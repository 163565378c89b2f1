(** * timmer_koenig_from_psd and numpy_psd (C69, C76). *)
From Coq Require Import String Reals List ZArith Bool Arith Lia Lra Sorted.
From Verif Require Import Base Num NpList NumR Spec ListFacts RSum TauProofs Dft ModelCore ModelMisc ModelCi ModelNoise ModelNoiseR NoiseProofs.
Import ListNotations.
Local Open Scope R_scope.
Local Notation len := List.length.

(** ** C69: the sampled PSD *)

(** A piecewise power law with one more segment than break frequencies. *)
Definition described (f_nodes h alpha : list R) : Prop :=
  StronglySorted Rlt f_nodes /\ len h = S (len f_nodes) /\ len alpha = S (len f_nodes).

(** f lies in segment j: at or above break j-1 and below break j. *)
Definition in_segment (f_nodes : list R) (j : nat) (f : R) : Prop :=
  (j <= len f_nodes)%nat /\
  (forall i, (i < j)%nat -> f_nodes.[i] <= f) /\
  ((j < len f_nodes)%nat -> f < f_nodes.[j]).

Lemma sorted_nth (l : list R) i j : StronglySorted Rlt l -> (i < j < len l)%nat -> l.[i] < l.[j].
Proof.
  intro S. revert i j. induction S as [|x l S IH F]; intros i j H; [cbn in H; lia|].
  destruct j as [|j]; [lia|]. cbn [nth]. cbn in H. destruct i as [|i].
  - rewrite Forall_forall in F. apply F, nth_In. lia.
  - apply IH. lia.
Qed.

Lemma pyget_nth (l : list R) (i : nat) : (i < len l)%nat -> pyget l (Z.of_nat i) = Ok l.[i].
Proof.
  intro H. unfold pyget. destruct (Z.ltb_spec (Z.of_nat i) 0); [lia|].
  destruct (Z.ltb_spec (Z.of_nat i) 0); [lia|]. rewrite Nat2Z.id.
  rewrite (nth_error_nth' l 0 H). reflexivity.
Qed.

Lemma pyget_last (l : list R) : l <> [] -> pyget l (-1) = Ok l.[len l - 1].
Proof.
  intro H. destruct l as [|x t]; [contradiction|]. unfold pyget.
  change (-1 <? 0)%Z with true. cbv iota.
  destruct (Z.ltb_spec (Z.of_nat (len (x :: t)) + -1) 0); [cbn [List.length] in *; lia|].
  replace (Z.to_nat (Z.of_nat (len (x :: t)) + -1)) with (len (x :: t) - 1)%nat by lia.
  rewrite (nth_error_nth' (x :: t) 0); [reflexivity|cbn; lia].
Qed.

Lemma Rltb_t a b : a < b -> Rltb a b = true.
Proof. intro H. unfold Rltb. destruct (Rlt_dec a b); [reflexivity|contradiction]. Qed.
Lemma Rltb_f a b : b <= a -> Rltb a b = false.
Proof. intro H. unfold Rltb. destruct (Rlt_dec a b); [lra|reflexivity]. Qed.
Lemma Rleb_t a b : a <= b -> Rleb a b = true.
Proof. intro H. unfold Rleb. destruct (Rle_dec a b); [reflexivity|contradiction]. Qed.
Lemma Rleb_f a b : b < a -> Rleb a b = false.
Proof. intro H. unfold Rleb. destruct (Rle_dec a b); [lra|reflexivity]. Qed.

Section Sampling.
Variables f_nodes h alpha : list R.
Hypothesis D : described f_nodes h alpha.
Let h_ext := h ++ [h.[len h - 1]].
Let a_ext := alpha ++ [alpha.[len alpha - 1]].

Lemma h_ext_get j : (j <= len f_nodes)%nat -> pyget h_ext (Z.of_nat j) = Ok h.[j].
Proof.
  destruct D as (_ & H & _). intro Hj. rewrite pyget_nth.
  - unfold h_ext. rewrite app_nth1 by lia. reflexivity.
  - unfold h_ext. rewrite app_length. cbn. lia.
Qed.
Lemma a_ext_get j : (j <= len f_nodes)%nat -> pyget a_ext (Z.of_nat j) = Ok alpha.[j].
Proof.
  destruct D as (_ & _ & H). intro Hj. rewrite pyget_nth.
  - unfold a_ext. rewrite app_nth1 by lia. reflexivity.
  - unfold a_ext. rewrite app_length. cbn. lia.
Qed.
Lemma h_ext_last : pyget h_ext (-1) = Ok h.[len f_nodes].
Proof.
  destruct D as (_ & H & _). rewrite pyget_last by (unfold h_ext; destruct h; discriminate).
  unfold h_ext. rewrite app_length. cbn [len]. rewrite app_nth2 by lia.
  replace (len h + 1 - 1 - len h)%nat with 0%nat by lia. cbn. do 2 f_equal. lia.
Qed.
Lemma a_ext_last : pyget a_ext (-1) = Ok alpha.[len f_nodes].
Proof.
  destruct D as (_ & _ & H). rewrite pyget_last by (unfold a_ext; destruct alpha; discriminate).
  unfold a_ext. rewrite app_length. cbn [len]. rewrite app_nth2 by lia.
  replace (len alpha + 1 - 1 - len alpha)%nat with 0%nat by lia. cbn. do 2 f_equal. lia.
Qed.

Lemma sy_loop_hit f j k n : (1 <= k <= j)%nat -> (j < k + n)%nat -> (j < len f_nodes)%nat ->
  in_segment f_nodes j f ->
  sy_loop f_nodes h_ext a_ext f (seq k n) = Ok (h.[j] * Rpower f alpha.[j]).
Proof.
  intros Hk Hn Hj (_ & Hlo & Hhi). revert k Hk Hn.
  induction n as [|n IH]; intros k Hk Hn; [lia|]. cbn [seq sy_loop].
  replace (Z.of_nat k - 1)%Z with (Z.of_nat (k - 1)) by lia.
  rewrite !pyget_nth by lia. cbn [bind].
  rewrite Rleb_t by (apply Hlo; lia).
  destruct (Nat.eq_dec k j) as [->|Hne].
  - rewrite Rltb_t by (apply Hhi; lia). cbn [andb].
    rewrite h_ext_get, a_ext_get by lia. reflexivity.
  - rewrite Rltb_f by (apply Hlo; lia). cbn [andb]. apply IH; lia.
Qed.

Lemma sy_loop_miss f n k : (1 <= k)%nat -> (k + n <= len f_nodes)%nat ->
  (forall i, (i < k + n)%nat -> f_nodes.[i] <= f) ->
  sy_loop f_nodes h_ext a_ext f (seq k n) = Ok 0.
Proof.
  revert k. induction n as [|n IH]; intros k Hk Hn Hlo; [reflexivity|]. cbn [seq sy_loop].
  replace (Z.of_nat k - 1)%Z with (Z.of_nat (k - 1)) by lia.
  rewrite !pyget_nth by lia. cbn [bind]. rewrite (Rltb_f f) by (apply Hlo; lia).
  rewrite Bool.andb_false_r. apply IH; [lia|lia|]. intros i Hi. apply Hlo. lia.
Qed.

Lemma sy_at_segment f j : in_segment f_nodes j f ->
  (f_nodes <> [] -> f <> f_nodes.[len f_nodes - 1]) ->
  sy_at f_nodes h_ext a_ext f = Ok (h.[j] * Rpower f alpha.[j]).
Proof.
  intros Hs Hl. destruct D as (S & _ & _). unfold sy_at.
  assert (G0 : pyget h_ext 0 = Ok h.[0]) by (apply (h_ext_get 0); lia).
  assert (A0 : pyget a_ext 0 = Ok alpha.[0]) by (apply (a_ext_get 0); lia).
  destruct f_nodes as [|f0 t] eqn:E.
  - destruct Hs as (H & _). cbn in H. assert (j = 0%nat) by lia. subst j. rewrite G0, A0. reflexivity.
  - rewrite <- E in *. destruct (Nat.eq_dec j 0) as [->|Hj].
    + rewrite Rltb_t. { rewrite G0, A0. reflexivity. }
      destruct Hs as (_ & _ & H). rewrite E in H. apply H. cbn. lia.
    + pose proof Hs as (H1 & Hlo & Hhi).
      rewrite Rltb_f.
      2:{ specialize (Hlo 0%nat ltac:(lia)). now rewrite E in Hlo. }
      rewrite pyget_last by (rewrite E; discriminate). cbn [bind].
      destruct (Nat.eq_dec j (len f_nodes)) as [->|Hne].
      * rewrite Rltb_t.
        -- rewrite h_ext_last, a_ext_last. reflexivity.
        -- assert (f_nodes.[len f_nodes - 1] <= f) by (apply Hlo; lia).
           assert (f <> f_nodes.[len f_nodes - 1]) by (apply Hl; rewrite E; discriminate). lra.
      * rewrite Rltb_f.
        -- apply sy_loop_hit; try lia. exact Hs.
        -- assert (f < f_nodes.[j]) by (apply Hhi; lia).
           destruct (Nat.eq_dec j (len f_nodes - 1)) as [->|]; [lra|].
           pose proof (sorted_nth f_nodes j (len f_nodes - 1) S ltac:(lia)). lra.
Qed.

Lemma sy_at_hole f : f_nodes <> [] -> f = f_nodes.[len f_nodes - 1] ->
  sy_at f_nodes h_ext a_ext f = Ok 0.
Proof.
  intros Hne ->. destruct D as (S & _ & _). unfold sy_at.
  destruct f_nodes as [|f0 t] eqn:E; [contradiction|]. rewrite <- E in *.
  assert (L : (1 <= len f_nodes)%nat) by (rewrite E; cbn; lia).
  assert (M : forall i, (i < len f_nodes)%nat -> f_nodes.[i] <= f_nodes.[len f_nodes - 1]).
  { intros i Hi. destruct (Nat.eq_dec i (len f_nodes - 1)) as [->|]; [lra|].
    pose proof (sorted_nth f_nodes i (len f_nodes - 1) S ltac:(lia)). lra. }
  rewrite Rltb_f.
  2:{ specialize (M 0%nat ltac:(lia)). now rewrite E in M at 1. }
  rewrite pyget_last by exact Hne. cbn [bind]. rewrite Rltb_f by lra.
  apply sy_loop_miss; [lia|lia|]. intros i Hi. apply M. lia.
Qed.
End Sampling.

(** C69: each grid frequency gets h_j f^alpha_j of its segment, except the
    last break frequency itself, where the sampled PSD is 0. *)
Theorem C69_segment f_nodes h alpha j f : described f_nodes h alpha -> in_segment f_nodes j f ->
  (f_nodes <> [] -> f <> f_nodes.[len f_nodes - 1]) ->
  sy_at f_nodes (h ++ [h.[len h - 1]]) (alpha ++ [alpha.[len alpha - 1]]) f =
  Ok (h.[j] * Rpower f alpha.[j]).
Proof. intros D H1 H2. now apply sy_at_segment. Qed.

Theorem C69_hole f_nodes h alpha : described f_nodes h alpha -> f_nodes <> [] ->
  sy_at f_nodes (h ++ [h.[len h - 1]]) (alpha ++ [alpha.[len alpha - 1]]) f_nodes.[len f_nodes - 1] = Ok 0.
Proof. intros D H. now apply sy_at_hole. Qed.

Lemma in_segment_exists f_nodes f : StronglySorted Rlt f_nodes -> exists j, in_segment f_nodes j f.
Proof.
  intro S. unfold in_segment.
  assert (H : forall k, (k <= len f_nodes)%nat -> (forall i, (i < k)%nat -> f_nodes.[i] <= f) ->
     exists j, (j <= len f_nodes)%nat /\ (forall i, (i < j)%nat -> f_nodes.[i] <= f) /\
       ((j < len f_nodes)%nat -> f < f_nodes.[j])).
  { intros k Hk. remember (len f_nodes - k)%nat as d eqn:E. revert k Hk E.
    induction d as [|d IH]; intros k Hk E Hlo.
    - exists k. repeat split; [lia|exact Hlo|lia].
    - destruct (Rlt_dec f f_nodes.[k]) as [Hl|Hl].
      + exists k. repeat split; [lia|exact Hlo|auto].
      + apply (IH (Datatypes.S k)); [lia|lia|]. intros i Hi.
        destruct (Nat.eq_dec i k) as [->|]; [lra|]. apply Hlo. lia. }
  apply (H 0%nat); [lia|]. intros; lia.
Qed.

(** ** C69: lengths *)

Lemma mapM_ok_tab {B C} (f : B -> res C) l : (forall x, In x l -> exists v, f x = Ok v) ->
  exists vs, mapM f l = Ok vs /\ len vs = len l.
Proof.
  induction l as [|x l IH]; intro H; [exists []; auto|].
  destruct (H x (or_introl eq_refl)) as [v Hv].
  destruct IH as (vs & E & L); [intros; apply H; now right|].
  exists (v :: vs). cbn. rewrite Hv. cbn. rewrite E. cbn. auto.
Qed.

Lemma sy_at_total f_nodes h alpha f : described f_nodes h alpha -> exists v,
  sy_at f_nodes (h ++ [h.[len h - 1]]) (alpha ++ [alpha.[len alpha - 1]]) f = Ok v.
Proof.
  intro D. destruct (in_segment_exists f_nodes f (proj1 D)) as [j Hj].
  destruct f_nodes as [|f0 t] eqn:E.
  - eexists. apply (sy_at_segment _ _ _ D f j Hj). intro C; contradiction.
  - rewrite <- E in *. destruct (Req_dec f f_nodes.[len f_nodes - 1]) as [He|He].
    + eexists. apply (sy_at_hole _ _ _ D); [rewrite E; discriminate|exact He].
    + eexists. apply (sy_at_segment _ _ _ D f j Hj). auto.
Qed.

Lemma assign_eq {B} k (v a : list B) d : (1 <= k <= len a)%nat -> len v = (len a - k)%nat ->
  exists X, assign_from k v a = Ok X /\ len X = len a /\ nth 0 X d = nth 0 a d.
Proof.
  intros Hk Hv. unfold assign_from. rewrite (proj2 (Nat.eqb_eq (len v) (len a - k)) Hv).
  eexists. split; [reflexivity|]. split.
  - rewrite app_length, firstn_length. lia.
  - destruct a as [|z t]; [cbn in Hk; lia|]. destruct k; [lia|]. reflexivity.
Qed.

Lemma assign_one {B} k (v a : list B) d : (1 <= k <= len a)%nat -> len v = 1%nat ->
  exists X, assign_from k v a = Ok X /\ len X = len a /\ nth 0 X d = nth 0 a d.
Proof.
  intros Hk Hv. destruct (Nat.eq_dec (len v) (len a - k)) as [E|E]; [now apply assign_eq|].
  unfold assign_from. rewrite (proj2 (Nat.eqb_neq (len v) (len a - k)) E).
  destruct v as [|z [|z' v]]; cbn in Hv; try lia.
  eexists. split; [reflexivity|]. split.
  - rewrite app_length, firstn_length, repeat_length. lia.
  - destruct a as [|w t]; [cbn in Hk; lia|]. destruct k; [lia|]. reflexivity.
Qed.

Lemma assign_bad {B} k (v a : list B) : len v <> (len a - k)%nat -> len v <> 1%nat ->
  assign_from k v a = Err ValueError.
Proof.
  intros E H. unfold assign_from. rewrite (proj2 (Nat.eqb_neq (len v) (len a - k)) E).
  destruct v as [|z [|z' v]]; [reflexivity|cbn in H; lia|reflexivity].
Qed.

Lemma tk_spectrum_len rnd n fr Sy : (4 <= n)%nat ->
  (Nat.even n = true \/ n = 5%nat ->
     exists X, tk_spectrum rnd n fr Sy = Ok X /\ len X = n /\ nth 0 X (0, 0) = (0, 0)) /\
  (Nat.even n = false -> (7 <= n)%nat -> tk_spectrum rnd n fr Sy = Err ValueError).
Proof.
  intro Hn. unfold tk_spectrum. cbv zeta.
  match goal with |- context [assign_from _ (map conj (rev (pyslice 1 (n / 2) ?Y))) _] => set (X0 := Y) end.
  assert (L0 : @List.length cplx X0 = n) by (unfold X0; now rewrite map_length, seq_length).
  assert (E0 : nth 0 X0 (0, 0) = (0, 0)) by (unfold X0; now rewrite nth_map_seq by lia).
  set (v := map conj (rev (pyslice 1 (n / 2) X0))).
  assert (H2 : (2 <= n / 2)%nat) by (apply Nat.div_le_lower_bound; lia).
  assert (H2' : (2 * (n / 2) <= n)%nat) by (apply Nat.mul_div_le; lia).
  assert (Lv : @List.length cplx v = (n / 2 - 1)%nat).
  { unfold v, pyslice. rewrite map_length, rev_length, firstn_length, skipn_length.
    assert (L0' : @List.length (R * R) X0 = n) by exact L0. lia. }
  assert (Hd := Nat.div_mod n 2 ltac:(lia)). clearbody v X0.
  split.
  - intros [He | ->].
    + apply Nat.even_spec in He. destruct He as [q Hq].
      assert (n mod 2 = 0)%nat by (rewrite Hq, Nat.mul_comm; apply Nat.mod_mul; lia).
      destruct (@assign_eq cplx (n / 2 + 1) v X0 (0, 0)) as (X & A1 & A2 & A3); [lia|lia|].
      exists X. rewrite A2, A3. auto.
    + change (5 / 2)%nat with 2%nat in *. cbn in Lv.
      destruct (@assign_one cplx 3 v X0 (0, 0)) as (X & A1 & A2 & A3); [lia|lia|].
      exists X. rewrite A2, A3. auto.
  - intros Ho H7. assert (n mod 2 = 1)%nat.
    { pose proof (Nat.mod_upper_bound n 2 ltac:(lia)).
      destruct (Nat.eq_dec (n mod 2) 0) as [E|]; [|lia]. exfalso.
      rewrite E, Nat.add_0_r in Hd. rewrite Hd, Nat.even_mul in Ho. discriminate. }
    apply (@assign_bad cplx); lia.
Qed.

Lemma tk_unfold rnd f_nodes h alpha duration dt output : described f_nodes h alpha ->
  0 < duration -> 0 < dt -> (4 <= tk_n duration dt)%Z ->
  let n := Z.to_nat (tk_n duration dt) in
  exists Sy, timmer_koenig rnd f_nodes h alpha duration dt output =
   bind (tk_spectrum rnd n (tk_grid n dt) Sy) (fun X =>
     let x := map (fun v => v * sqrt ((INR n - 1) / dt)) (ifft_re X) in
     if String.eqb output "phase" then Ok x
     else if String.eqb output "freq" then Ok (0 :: map (fun d => d / dt) (diff x))
     else Err ValueError).
Proof.
  intros D H1 H2 H4 n. unfold timmer_koenig.
  rewrite (Rleb_f duration), (Rleb_f dt) by assumption. cbn [orb].
  pose proof D as (_ & Lh & La).
  rewrite (proj2 (Nat.eqb_eq (len h) (len alpha))) by lia. cbn [negb].
  replace (Z.of_nat (len f_nodes) =? Z.of_nat (len h) - 1)%Z with true by (symmetry; apply Z.eqb_eq; lia).
  rewrite Bool.orb_true_r. cbn [negb].
  rewrite (pyget_last h), (pyget_last alpha) by (intros ->; cbn in *; lia). cbn [bind].
  destruct (Z.ltb_spec (tk_n duration dt) 4); [lia|]. fold n.
  destruct (mapM_ok_tab (sy_at f_nodes (h ++ [h.[len h - 1]]) (alpha ++ [alpha.[len alpha - 1]])) (tk_grid n dt))
    as (Sy & E & _).
  - intros f _. now apply sy_at_total.
  - rewrite E. cbn [bind]. exists Sy. reflexivity.
Qed.

Lemma diff_len (x : list R) : len (diff x) = (len x - 1)%nat.
Proof. unfold diff. rewrite map2_length. destruct x; cbn; lia. Qed.

(** n = int(duration/timestep) even, or 5: a series of n samples, of zero
    mean (phase) or starting with 0 (freq).  n odd and >= 7: ValueError. *)
Theorem C69_lengths rnd f_nodes h alpha duration dt output : described f_nodes h alpha ->
  0 < duration -> 0 < dt -> (4 <= tk_n duration dt)%Z ->
  output = "phase"%string \/ output = "freq"%string ->
  let n := Z.to_nat (tk_n duration dt) in
  (Nat.even n = true \/ n = 5%nat ->
    exists x, timmer_koenig rnd f_nodes h alpha duration dt output = Ok x /\ len x = n) /\
  (Nat.even n = false -> (7 <= n)%nat ->
    timmer_koenig rnd f_nodes h alpha duration dt output = Err ValueError).
Proof.
  intros D H1 H2 H4 Ho n.
  destruct (tk_unfold rnd f_nodes h alpha duration dt output D H1 H2 H4) as [Sy E]. fold n in E.
  destruct (tk_spectrum_len rnd n (tk_grid n dt) Sy ltac:(unfold n; lia)) as [P Q]. split.
  - intro He. destruct (P He) as (X & EX & LX & _). rewrite E, EX. cbn [bind].
    assert (Lx : forall c, len (map (fun v => v * c) (ifft_re X)) = n).
    { intro c. rewrite map_length. unfold ifft_re. now rewrite map_length, seq_length. }
    destruct Ho as [-> | ->]; cbn [String.eqb Ascii.eqb Bool.eqb]; eexists; (split; [reflexivity|]).
    + apply Lx.
    + cbn [len]. rewrite map_length, diff_len, Lx. unfold n. lia.
  - intros He H7. rewrite E, (Q He H7). reflexivity.
Qed.

(** n is the integer part of duration/timestep *)
Theorem C69_n duration dt : 0 < duration -> 0 < dt ->
  IZR (tk_n duration dt) <= duration / dt < IZR (tk_n duration dt) + 1.
Proof.
  intros H1 H2. assert (Hq : 0 <= duration / dt) by (left; apply Rdiv_lt_0_compat; assumption).
  pose proof (truncR_nat (duration / dt) Hq) as H. unfold tk_n.
  assert (Hz : (0 <= truncR (duration / dt))%Z).
  { destruct (Z_lt_le_dec (truncR (duration / dt)) 0) as [C|]; [|assumption]. exfalso.
    rewrite (Z2Nat.inj_neg) in H || idtac.
    unfold truncR in C. destruct (Rle_dec 0 (duration / dt)); [|contradiction].
    assert (IZR (up (duration / dt) - 1) < 0) by (apply IZR_lt; exact C).
    rewrite minus_IZR in H0. pose proof (archimed (duration / dt)). 
    assert (IZR (up (duration / dt)) < 1) by lra.
    assert (0 < IZR (up (duration / dt))) by lra. 
    apply lt_IZR in H4. apply lt_IZR in H5. lia. }
  rewrite INR_IZR_INZ, Z2Nat.id in H by exact Hz. exact H.
Qed.

(** Rejected arguments. *)
Theorem C69_rejected rnd f_nodes h alpha duration dt output :
  duration <= 0 \/ dt <= 0 \/ len h <> len alpha \/
  (f_nodes <> [] /\ Datatypes.S (len f_nodes) <> len h) ->
  timmer_koenig rnd f_nodes h alpha duration dt output = Err ValueError.
Proof.
  intro H. unfold timmer_koenig.
  destruct (Rleb duration 0 || Rleb dt 0)%bool eqn:E1; [reflexivity|].
  apply Bool.orb_false_iff in E1. destruct E1 as [E1 E1'].
  unfold Rleb in E1, E1'. destruct (Rle_dec duration 0); [discriminate|]. destruct (Rle_dec dt 0); [discriminate|].
  destruct (Nat.eqb_spec (len h) (len alpha)) as [E2|E2]; cbn [negb]; [|reflexivity].
  destruct H as [H|[H|[H|[H3 H4]]]]; try lra; [contradiction|].
  destruct (Nat.eqb_spec (len f_nodes) 0) as [E3|E3].
  - destruct f_nodes; [contradiction|discriminate].
  - destruct (Z.eqb_spec (Z.of_nat (len f_nodes)) (Z.of_nat (len h) - 1)); [lia|]. reflexivity.
Qed.

(** ** C69: zero mean *)
Lemma ifft_zero_mean (X : list cplx) : (1 <= len X)%nat -> nth 0 X (0, 0) = (0, 0) ->
  bigsum (len X) (fun j => (ifft_re X).[j]) = 0.
Proof.
  intros Hn H0. set (n := len X) in *. assert (Hn' : INR n <> 0) by (apply not_0_INR; lia).
  rewrite (bigsum_ext n _ (fun j => / INR n * bigsum n (fun k =>
     fst (nth k X (0,0)) * cos (INR j * (2 * PI * IZR (Z.of_nat k) / INR n)) -
     snd (nth k X (0,0)) * sin (INR j * (2 * PI * IZR (Z.of_nat k) / INR n))))).
  - rewrite bigsum_scal, bigsum_swap.
    rewrite bigsum_0; [ring|]. intros k Hk. rewrite bigsum_minus, !bigsum_scal.
    rewrite char_sin by lia. destruct (Nat.eq_dec k 0) as [->|Hk0].
    + rewrite H0. cbn [fst]. ring.
    + rewrite char_cos; [ring|lia|]. intros q Hq.
      assert (q = 0 \/ q <= -1 \/ 1 <= q)%Z as [->|[?|?]] by lia; nia.
  - intros j Hj. unfold ifft_re. fold n. rewrite nth_map_seq by exact Hj. rewrite sumR_seq.
    unfold Rdiv at 1. rewrite Rmult_comm. f_equal. apply bigsum_ext. intros k Hk. cbv zeta.
    rewrite <- !INR_IZR_INZ.
    replace (2 * PI * INR j * INR k / INR n) with (INR j * (2 * PI * INR k / INR n)) by (field; exact Hn').
    reflexivity.
Qed.

Theorem C69_zero_mean rnd f_nodes h alpha duration dt x : described f_nodes h alpha ->
  0 < duration -> 0 < dt -> (4 <= tk_n duration dt)%Z ->
  timmer_koenig rnd f_nodes h alpha duration dt "phase" = Ok x ->
  bigsum (len x) (fun j => x.[j]) = 0.
Proof.
  intros D H1 H2 H4 Ex. set (n := Z.to_nat (tk_n duration dt)).
  destruct (tk_unfold rnd f_nodes h alpha duration dt "phase" D H1 H2 H4) as [Sy E]. fold n in E.
  destruct (tk_spectrum_len rnd n (tk_grid n dt) Sy ltac:(unfold n; lia)) as [P Q].
  assert (He : Nat.even n = true \/ n = 5%nat).
  { destruct (Nat.even n) eqn:Ev; [now left|]. right.
    destruct (le_lt_dec 7 n) as [H7|H7].
    - rewrite E, (Q eq_refl H7) in Ex. discriminate.
    - assert (4 <= n)%nat by (unfold n; lia).
      assert (n = 4 \/ n = 5 \/ n = 6)%nat as [C|[C|C]] by lia; [rewrite C in Ev; discriminate|exact C|rewrite C in Ev; discriminate]. }
  destruct (P He) as (X & EX & LX & X0). rewrite E, EX in Ex. cbn [bind String.eqb Ascii.eqb Bool.eqb] in Ex.
  injection Ex as <-. rewrite map_length.
  assert (Li : len (ifft_re X) = len X) by (unfold ifft_re; now rewrite map_length, seq_length).
  rewrite Li. set (c := sqrt _).
  rewrite (bigsum_ext _ _ (fun j => (ifft_re X).[j] * c)).
  - rewrite bigsum_scal_r, ifft_zero_mean; [ring| |exact X0]. rewrite LX. unfold n. lia.
  - intros j Hj. rewrite (nth_indep _ 0 (0 * c)) by (rewrite map_length; lia).
    exact (map_nth (fun v => v * c) (ifft_re X) 0 j).
Qed.

(** ** C69: the grid is not the FFT's frequency grid *)
Theorem C69_grid n dt k : (4 <= n)%nat -> Nat.even n = true -> 0 < dt -> (k <= n / 2)%nat ->
  (tk_grid n dt).[k] = INR k / (INR n * dt) + 1 / ((INR n - 1) * dt) * (1 - 2 * INR k / INR n).
Proof.
  intros Hn He Hd Hk. unfold tk_grid, linspace. rewrite nth_map_seq by lia.
  replace (n / 2 + 1 - 1)%nat with (n / 2)%nat by lia.
  apply Nat.even_spec in He. destruct He as [q Hq].
  assert (E : (n / 2 = q)%nat) by (rewrite Hq, Nat.mul_comm; apply Nat.div_mul; lia).
  rewrite E. assert (Hq' : INR n = 2 * INR q) by (rewrite Hq, mult_INR; reflexivity).
  assert (2 <= INR q) by (apply (le_INR 2); lia).
  rewrite Hq'. field. lra.
Qed.

(** ** Examples *)
Example C69_described : described [1; 2] [3; 4; 5] [0; -1; -2].
Proof. repeat split; repeat constructor; lra. Qed.

Example C69_example_hole :
  sy_at [1; 2] [3; 4; 5; 5] [0; -1; -2; -2] 2 = Ok 0 /\
  sy_at [1; 2] [3; 4; 5; 5] [0; -1; -2; -2] 1 = Ok (4 * Rpower 1 (-1)).
Proof.
  split.
  - apply (C69_hole [1; 2] [3; 4; 5] [0; -1; -2] C69_described). discriminate.
  - apply (C69_segment [1; 2] [3; 4; 5] [0; -1; -2] 1 1 C69_described).
    + repeat split; [cbn; lia| |intros; cbn; lra]. intros i Hi. assert (i = 0%nat) by lia. subst. cbn. lra.
    + intros _. cbn. lra.
Qed.

Lemma tk_n_int (k : Z) : (0 < k)%Z -> tk_n (IZR k) 1 = k.
Proof.
  intro H. assert (0 < IZR k) by (now apply IZR_lt).
  pose proof (C69_n (IZR k) 1 ltac:(lra) ltac:(lra)) as B.
  replace (IZR k / 1) with (IZR k) in B by field. rewrite <- plus_IZR in B.
  destruct B as [B1 B2]. apply le_IZR in B1. apply lt_IZR in B2. lia.
Qed.

Example C69_example_odd rnd : timmer_koenig rnd [] [1] [0] 7 1 "phase" = Err ValueError.
Proof.
  destruct (C69_lengths rnd [] [1] [0] 7 1 "phase") as [_ H]; try lra.
  - repeat split; constructor.
  - rewrite (tk_n_int 7) by lia. lia.
  - now left.
  - apply H; rewrite (tk_n_int 7) by lia; [reflexivity|]. cbn. lia.
Qed.

Example C69_example_even rnd : exists x, timmer_koenig rnd [1; 2] [3; 4; 5] [0; -1; -2] 8 1 "freq" = Ok x /\ len x = 8%nat.
Proof.
  destruct (C69_lengths rnd [1; 2] [3; 4; 5] [0; -1; -2] 8 1 "freq") as [H _]; try lra.
  - apply C69_described.
  - rewrite (tk_n_int 8) by lia. lia.
  - now right.
  - rewrite (tk_n_int 8) in H by lia. apply H. now left.
Qed.

(** ** C69: Hermitian symmetry of the spectrum *)
Theorem C69_hermitian rnd n fr Sy X : (4 <= n)%nat -> Nat.even n = true ->
  tk_spectrum rnd n fr Sy = Ok X ->
  forall k, (1 <= k < n / 2)%nat -> nth (n - k) X (0, 0) = conj (nth k X (0, 0)).
Proof.
  intros Hn He E k Hk. unfold tk_spectrum in E. cbv zeta in E.
  match type of E with context [map ?g (seq 0 n)] => set (F := g) in E end.
  change (map F (seq 0 n)) with (tab n F) in E.
  apply Nat.even_spec in He. destruct He as [q Hq].
  assert (E2 : (n / 2 = q)%nat) by (rewrite Hq, Nat.mul_comm; apply Nat.div_mul; lia).
  unfold assign_from in E. rewrite pyslice_tab, rev_tab, map_tab, !tab_length in E.
  cbv zeta in E. rewrite firstn_tab in E.
  rewrite E2 in *.
  rewrite (proj2 (Nat.eqb_eq (Nat.min (q - 1) (n - 1)) (n - (q + 1)))) in E by lia.
  rewrite app_tab in E. injection E as <-.
  rewrite !nth_tab by lia.
  destruct (Nat.ltb_spec (n - k) (Nat.min (q + 1) n)); [lia|].
  destruct (Nat.ltb_spec k (Nat.min (q + 1) n)); [|lia].
  do 2 f_equal. lia.
Qed.

(** ... but for n = 5 the conjugate of X_1 is stored twice. *)
Theorem C69_five_refuted : exists rnd fr Sy X,
  tk_spectrum rnd 5 fr Sy = Ok X /\ nth 3 X (0, 0) <> conj (nth 2 X (0, 0)).
Proof.
  exists (fun i => INR i), [1; 1; 1], [4; 4; 4]. eexists. split; [reflexivity|].
  cbn. intro E. injection E as E _.
  assert (P : 0 < sqrt (4 / (2 * PI * 1 * (2 * PI * 1 * 1)))).
  { apply sqrt_lt_R0. pose proof PI_RGT_0. apply Rdiv_lt_0_compat; nra. }
  lra.
Qed.

Print Assumptions C69_segment.
Print Assumptions C69_hole.
Print Assumptions C69_lengths.
Print Assumptions C69_n.
Print Assumptions C69_rejected.
Print Assumptions C69_zero_mean.
Print Assumptions C69_grid.
Print Assumptions C69_hermitian.
Print Assumptions C69_five_refuted.
