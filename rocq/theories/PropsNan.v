(** * C88: a NaN in the phase record. *)
From Coq Require Import String List ZArith Lia Arith Bool Sorted Floats.
From Coq Require Import Reals.
From Verif Require Import Base Num NpList ModelCore ModelDev ListFacts GenericProofs NanProofs NumF NumX NumR.
Import ListNotations.
Local Notation len := List.length.
Local Open Scope num_scope.

(** ** specification: the points of an N-point record that the row of averaging
    factor m depends on *)
Definition every_point (N m p : nat) : Prop := True.
Definition multiples (N m p : nat) : Prop := Nat.divide m p.
(** members of a triple i, i+m, i+2m of the record *)
Definition in_triple (N m p : nat) : Prop := exists i, (i + 2 * m < N)%nat /\ (p = i \/ p = i + m \/ p = i + 2 * m)%nat.
(** members of a quadruple i, i+m, i+2m, i+3m *)
Definition in_quadruple (N m p : nat) : Prop :=
  exists i, (i + 3 * m < N)%nat /\ (p = i \/ p = i + m \/ p = i + 2 * m \/ p = i + 3 * m)%nat.
Definition in_pair (N m p : nat) : Prop := exists i, (i + m < N)%nat /\ (p = i \/ p = i + m)%nat.
(** pdev leaves out the last point except at m = 1 *)
Definition not_last (N m p : nat) : Prop := m = 1%nat \/ (p + 1 < N)%nat.

Section Table.
Context {A : Type} {NA : Num A}.
Definition dev_fun : Type := list A -> A -> string -> taus_arg A -> res (@result A).

(** function, points, and whether the error column follows (that of tierms is 0) *)
Definition nan_table : list (dev_fun * (nat -> nat -> nat -> Prop) * bool) :=
  [ (adev, multiples, true); (hdev, multiples, true); (oadev, in_triple, true); (ohdev, in_quadruple, true); (pdev, not_last, true); (tierms, in_pair, false);
    (mdev, every_point, true); (tdev, every_point, true); (totdev, every_point, true); (mtotdev, every_point, true); (ttotdev, every_point, true);
    (htotdev, every_point, true); (theo1, every_point, true); (mtie, every_point, true) ].

Definition row_m (r : nat * A * A * Z) : nat := fst (fst (fst r)).

(** what a NaN at position p does to a result *)
Definition reached (N p : nat) (uses : nat -> nat -> nat -> Prop) (with_err : bool) (rate : A) (r : @result A) : Prop :=
  exists rows, r = of_rows rate rows /\ StronglySorted lt (map row_m rows) /\
  Forall (fun '(m, d, e, n) => (1 <= m < N)%nat /\ (uses N m p -> nisnan d = true /\ (with_err = true -> nisnan e = true))) rows.

Lemma scale_tdev_rows rate rows : scale_tdev (of_rows rate rows) =
  Ok (of_rows rate (map (fun '(m, d, _, n) => (m, ofN m / rate * d / nsqrt (ofZ 3), ofN m / rate * d / nsqrt (ofZ 3) / nsqrt (ofZ n), n)) rows)).
Proof.
  unfold scale_tdev, of_rows, vmul. rewrite bmap2_eqlen by now rewrite !map_length. cbn [bind].
  rewrite bmap2_eqlen by (rewrite map_length, map2_length, !map_length; lia). cbn [bind].
  f_equal. induction rows as [|[[[m d] e] n] rows IH]; [reflexivity|]. cbn [map map2]. injection IH as E1 E2 E3 E4.
  rewrite <- E1, <- E2, <- E4. repeat f_equal. rewrite E3. reflexivity.
Qed.

(** NaN reaches the row: the functions that leave out some points *)
Section RowReach.
Context (S : nan_strict A) (x : list A) (rate : A) (p : nat).
Hypothesis Hp : (p < len x)%nat.
Hypothesis Hb : nisnan (nth p x (ofZ 0)) = true.
Lemma adev_row m d e n : (1 <= m < len x)%nat -> calc_adev_phase x rate m m = Ok (d, e, n) -> (1 < n)%Z ->
  multiples (len x) m p -> nisnan d = true /\ nisnan e = true.
Proof using All.
  intros Hm Hc Hn [k E].
  rewrite calc_adev_form in Hc by lia. injection Hc as <- <- <-. apply (bad_dev_err S _ _ _ eq_refl).
  assert (H2 : (0 < stride_count (len x) (2 * m) m)%nat).
  { unfold adev_cnt in Hn. destruct (Nat.eqb_spec (stride_count (len x) (2 * m) m) 0); lia. }
  destruct k as [|[|k]].
  - apply (adev_bad S x rate m m 0 p); [exact H2|exact Hb|lia].
  - apply (adev_bad S x rate m m 0 p); [exact H2|exact Hb|lia].
  - apply (adev_bad S x rate m m k p); [apply stride_count_lt; [lia|]|exact Hb|]; lia.
Qed.
Lemma hdev_row m d e n : (1 <= m < len x)%nat -> calc_hdev_phase x rate m m = Ok (d, e, n) -> (1 < n)%Z ->
  multiples (len x) m p -> nisnan d = true /\ nisnan e = true.
Proof using All.
  intros Hm Hc Hn [k E].
  rewrite calc_hdev_form in Hc by lia. injection Hc as <- <- <-. apply (bad_dev_err S _ _ _ eq_refl).
  assert (H2 : (0 < stride_count (len x) (3 * m) m)%nat).
  { unfold hdev_cnt in Hn. destruct (Nat.eqb_spec (stride_count (len x) (3 * m) m) 0); lia. }
  destruct k as [|[|[|k]]].
  - apply (hdev_bad S x rate m m 0 p); [exact H2|exact Hb|lia].
  - apply (hdev_bad S x rate m m 0 p); [exact H2|exact Hb|lia].
  - apply (hdev_bad S x rate m m 0 p); [exact H2|exact Hb|lia].
  - apply (hdev_bad S x rate m m k p); [apply stride_count_lt; [lia|]|exact Hb|]; lia.
Qed.
Lemma oadev_row m d e n : (1 <= m < len x)%nat -> calc_adev_phase x rate m 1 = Ok (d, e, n) -> (1 < n)%Z ->
  in_triple (len x) m p -> nisnan d = true /\ nisnan e = true.
Proof using All.
  intros Hm Hc Hn (i & Hi & Hpi).
  rewrite calc_adev_form in Hc by lia. injection Hc as <- <- _. apply (bad_dev_err S _ _ _ eq_refl).
  apply (adev_bad S x rate m 1 i p); [apply stride_count_lt; lia|exact Hb|lia].
Qed.
Lemma ohdev_row m d e n : (1 <= m < len x)%nat -> calc_hdev_phase x rate m 1 = Ok (d, e, n) -> (1 < n)%Z ->
  in_quadruple (len x) m p -> nisnan d = true /\ nisnan e = true.
Proof using All.
  intros Hm Hc Hn (i & Hi & Hpi).
  rewrite calc_hdev_form in Hc by lia. injection Hc as <- <- _. apply (bad_dev_err S _ _ _ eq_refl).
  apply (hdev_bad S x rate m 1 i p); [apply stride_count_lt; lia|exact Hb|lia].
Qed.
Lemma pdev_row m d e n : (1 <= m < len x)%nat -> calc_pdev_phase x rate m = Ok (d, e, n) -> (1 < n)%Z ->
  not_last (len x) m p -> nisnan d = true /\ nisnan e = true.
Proof using All.
  intros Hm Hc Hn Hu. rewrite calc_pdev_form in Hc. injection Hc as <- <- <-.
  destruct (Nat.eq_dec m 1) as [->|H1].
  - unfold pdev_cnt, adev_cnt in Hn. cbn [Nat.eqb] in Hn. rewrite !stride_count_1 in Hn. change (2 * 1)%nat with 2%nat in Hn.
    destruct (Nat.eqb_spec (len x - 2) 0); [lia|].
    unfold pdev_val, pdev_err. cbn [Nat.eqb]. apply (bad_dev_err S _ _ _ eq_refl).
    apply (adev_bad S x rate 1 1 (Nat.min p (len x - 3)) p); [apply stride_count_lt; lia|exact Hb|lia].
  - destruct Hu as [Hu|Hu]; [contradiction|]. unfold pdev_cnt in Hn. rewrite (proj2 (Nat.eqb_neq m 1) H1) in Hn.
    destruct (Z.ltb_spec (pdev_M (len x) m) 1); [lia|]. unfold pdev_M in *.
    apply (pdev_bad S x rate m p); [lia|lia|lia|exact Hb].
Qed.
Lemma tierms_row m d e n : (1 <= m < len x)%nat -> calc_tierms x m = Ok (d, e, n) -> in_pair (len x) m p -> nisnan d = true.
Proof using All.
  intros Hm Hc (i & Hi & Hpi). rewrite calc_tierms_form in Hc. injection Hc as <- _ _. apply (tierms_bad S x m p Hm Hp); [lia|exact Hb].
Qed.
End RowReach.

Theorem C88_reaches (S : nan_strict A) f uses with_err x rate taus r p a : In (f, uses, with_err) nan_table ->
  f x rate "phase"%string taus = Ok r -> nth_error x p = Some a -> nisnan a = true ->
  reached (len x) p uses with_err rate r.
Proof.
  intros Hin Hr Hsome Hnan.
  assert (Hp : (p < len x)%nat) by (apply nth_error_Some; congruence).
  assert (Hb : nisnan (nth p x (ofZ 0)) = true) by (now rewrite (nth_error_nth x p (ofZ 0) Hsome)).
  clear Hsome Hnan. unfold nan_table in Hin.
  assert (Hboth : forall (P Q R : Prop), P /\ Q -> P /\ (R -> Q)) by tauto.
  assert (Hmd : forall q, mdev x rate "phase" taus = Ok q -> exists rows, q = of_rows rate rows /\
    StronglySorted lt (map (fun '(m, _, _, _) => m) rows) /\
    Forall (fun '(m, d, e, n) => (1 <= m < len x)%nat /\ nisnan d = true /\ nisnan e = true) rows).
  { intros q Hq. apply (gen_rows x rate taus false (ofZ (-1)) (fun y => calc_mdev_phase y rate)) in Hq as (rows & -> & Hs & Hf).
    exists rows. split; [reflexivity|]. split; [exact Hs|]. eapply Forall_impl; [|exact Hf].
    intros [[[m d] e] n] (Hm & Hc & Hn). rewrite calc_mdev_form in Hc. injection Hc as <- <- <-. split; [exact Hm|].
    apply (bad_dev_err S _ _ _ eq_refl). apply (mdev_bad S _ _ _ p); [lia|lia|exact Hp|exact Hb]. }
  assert (Hmt : forall q, mtotdev x rate "phase" taus = Ok q -> exists rows, q = of_rows rate rows /\
    StronglySorted lt (map (fun '(m, _, _, _) => m) rows) /\
    Forall (fun '(m, d, e, n) => (1 <= m < len x)%nat /\ nisnan d = true /\ nisnan e = true) rows).
  { intros q Hq. apply (gen_rows x rate taus false (third_len (len x)) (fun y => calc_mtotdev_phase y rate)) in Hq as (rows & -> & Hs & Hf).
    exists rows. split; [reflexivity|]. split; [exact Hs|]. eapply Forall_impl; [|exact Hf].
    intros [[[m d] e] n] (Hm & Hc & Hn). split; [exact Hm|]. apply (mtot_bad S x rate m d e n p ltac:(lia) Hp Hb Hc Hn). }
  assert (Hsc : forall q r, (exists rows, q = of_rows rate rows /\ StronglySorted lt (map (fun '(m, _, _, _) => m) rows) /\
    Forall (fun '(m, d, e, n) => (1 <= m < len x)%nat /\ nisnan d = true /\ nisnan e = true) rows) -> scale_tdev q = Ok r -> reached (len x) p every_point true rate r).
  { intros q r0 (rows & -> & Hs & Hf) E. rewrite scale_tdev_rows in E. injection E as <-.
    eexists. split; [reflexivity|]. split.
    - rewrite map_map. rewrite (map_ext _ (fun '(m, _, _, _) => m)); [exact Hs|]. now intros [[[m d] e] n].
    - apply Forall_map. eapply Forall_impl; [|exact Hf]. intros [[[m d] e] n] (Hm & Hd & _). split; [exact Hm|]. intros _. apply Hboth.
      apply (bad_dev_err S _ _ _ eq_refl). apply (ns_div _ S). left. apply (ns_mul _ S). now right. }
  assert (Hmake : forall rows (Q : nat -> A -> A -> Z -> Prop), r = of_rows rate rows -> StronglySorted lt (map (fun '(m, _, _, _) => m) rows) ->
    Forall (fun '(m, d, e, n) => Q m d e n) rows ->
    (forall m d e n, Q m d e n -> (1 <= m < len x)%nat /\ (uses (len x) m p -> nisnan d = true /\ (with_err = true -> nisnan e = true))) -> reached (len x) p uses with_err rate r).
  { intros rows Q -> Hs Hf H. exists rows. split; [reflexivity|]. split.
    - rewrite (map_ext row_m (fun '(m, _, _, _) => m)); [exact Hs|]. now intros [[[m d] e] n].
    - eapply Forall_impl; [|exact Hf]. intros [[[m d] e] n] Hq. now apply (H m d e n). }
  repeat (destruct Hin as [E|Hin]; [injection E as <- <- <-|]); [..|destruct Hin].
  - (* adev *)
    apply (gen_rows x rate taus false (ofZ (-1)) (fun y mj => calc_adev_phase y rate mj mj)) in Hr as (rows & -> & Hs & Hf).
    refine (Hmake rows _ eq_refl Hs Hf _). intros m d e n (Hm & Hc & Hn). split; [exact Hm|]. intros Hu.
    apply Hboth, (adev_row S x rate p Hp Hb m d e n Hm Hc Hn Hu).
  - (* hdev *)
    apply (gen_rows x rate taus false (ofZ (-1)) (fun y mj => calc_hdev_phase y rate mj mj)) in Hr as (rows & -> & Hs & Hf).
    refine (Hmake rows _ eq_refl Hs Hf _). intros m d e n (Hm & Hc & Hn). split; [exact Hm|]. intros Hu.
    apply Hboth, (hdev_row S x rate p Hp Hb m d e n Hm Hc Hn Hu).
  - (* oadev *)
    apply (gen_rows x rate taus false (ofZ (-1)) (fun y mj => calc_adev_phase y rate mj 1)) in Hr as (rows & -> & Hs & Hf).
    refine (Hmake rows _ eq_refl Hs Hf _). intros m d e n (Hm & Hc & Hn). split; [exact Hm|]. intros Hu.
    apply Hboth, (oadev_row S x rate p Hp Hb m d e n Hm Hc Hn Hu).
  - (* ohdev *)
    apply (gen_rows x rate taus false (ofZ (-1)) (fun y mj => calc_hdev_phase y rate mj 1)) in Hr as (rows & -> & Hs & Hf).
    refine (Hmake rows _ eq_refl Hs Hf _). intros m d e n (Hm & Hc & Hn). split; [exact Hm|]. intros Hu.
    apply Hboth, (ohdev_row S x rate p Hp Hb m d e n Hm Hc Hn Hu).
  - (* pdev *)
    apply (gen_rows x rate taus false (ofZ (-1)) (fun y => calc_pdev_phase y rate)) in Hr as (rows & -> & Hs & Hf).
    refine (Hmake rows _ eq_refl Hs Hf _). intros m d e n (Hm & Hc & Hn). split; [exact Hm|]. intros Hu.
    apply Hboth, (pdev_row S x rate p Hp Hb m d e n Hm Hc Hn Hu).
  - (* tierms *)
    apply (gen_rows x rate taus false (ofZ (-1)) (fun _ => calc_tierms x)) in Hr as (rows & -> & Hs & Hf).
    refine (Hmake rows _ eq_refl Hs Hf _). intros m d e n (Hm & Hc & Hn). split; [exact Hm|]. intros Hu.
    split; [|discriminate]. exact (tierms_row S x rate p Hp Hb m d e n Hm Hc Hu).
  - (* mdev *)
    destruct (Hmd r Hr) as (rows & -> & Hs & Hf). refine (Hmake rows (fun m d e n => (1 <= m < len x)%nat /\ nisnan d = true /\ nisnan e = true) eq_refl Hs Hf _). tauto.
  - (* tdev *)
    unfold tdev in Hr. cbn [input_to_phase String.eqb Ascii.eqb Bool.eqb bind] in Hr.
    destruct (mdev x rate "phase" taus) as [q|] eqn:E; cbn [bind] in Hr; [|discriminate]. exact (Hsc q r (Hmd q eq_refl) Hr).
  - (* totdev *)
    unfold totdev in Hr. cbn [input_to_phase String.eqb Ascii.eqb Bool.eqb bind] in Hr.
    destruct (tau_generator x rate taus false (ofZ (-1))) as [[[x' ms] t]|] eqn:E; cbn [bind] in Hr; [|discriminate].
    pose proof (tau_generator_lt _ _ _ _ _ _ _ _ E) as Hlt.
    apply tau_generator_shape in E as (-> & Hss & Hpos & ->).
    destruct (totdev_extend x) as [y|] eqn:Ey; cbn [bind] in Hr; [|discriminate].
    apply run_rows_rows in Hr as (rows & -> & Hs & Hf); auto.
    refine (Hmake rows _ eq_refl Hs Hf _). intros m d e n (Hm & Hc & Hn).
    rewrite Forall_forall in Hlt, Hpos. pose proof (Hlt _ Hm). pose proof (Hpos _ Hm). cbn beta in *.
    assert (Hm' : (1 <= m < len x)%nat) by lia. split; [exact Hm'|]. intros _.
    apply Hboth, (totdev_bad S x y rate m d e n p Hm' Hp Hb Ey Hc Hn).
  - (* mtotdev *)
    destruct (Hmt r Hr) as (rows & -> & Hs & Hf). refine (Hmake rows (fun m d e n => (1 <= m < len x)%nat /\ nisnan d = true /\ nisnan e = true) eq_refl Hs Hf _). tauto.
  - (* ttotdev *)
    unfold ttotdev in Hr. destruct (mtotdev x rate "phase" taus) as [q|] eqn:E; cbn [bind] in Hr; [|discriminate]. exact (Hsc q r (Hmt q eq_refl) Hr).
  - (* htotdev *)
    unfold htotdev in Hr. cbn [String.eqb Ascii.eqb Bool.eqb bind] in Hr.
    set (y := phase2frequency x rate) in *.
    assert (Hy : len y = (len x - 1)%nat) by apply phase2frequency_len.
    apply (gen_rows y rate taus false (third_len (len y)) (fun fr mj => if Nat.eqb mj 1 then calc_hdev_phase x rate mj 1
                      else calc_htotdev_freq fr mj)) in Hr as (rows & -> & Hs & Hf).
    refine (Hmake rows _ eq_refl Hs Hf _). intros m d e n (Hm & Hc & Hn). split; [lia|]. intros _.
    destruct (Nat.eqb_spec m 1) as [->|H1].
    + rewrite calc_hdev_form in Hc by lia. injection Hc as <- <- <-. apply Hboth, (bad_dev_err S _ _ _ eq_refl). unfold hdev_cnt in Hn. rewrite !stride_count_1 in Hn.
      change (3 * 1)%nat with 3%nat in Hn. destruct (Nat.eqb_spec (len x - 3) 0); [lia|].
      apply (hdev_bad S x rate 1 1 (Nat.min p (len x - 4)) p); [apply stride_count_lt; lia|exact Hb|lia].
    + assert (Hq : exists q, (q < len y)%nat /\ nisnan (nth q y (ofZ 0)) = true).
      { assert (Ey : y = tab (len x - 1) (fun i => rate * (nth (Datatypes.S i) x (ofZ 0) - nth i x (ofZ 0)))).
        { unfold y, phase2frequency, diff, scal. transitivity (map (fun a => rate * a) (map2 (fun b a => b - a) (tl (tab (len x) (fun i => nth i x (ofZ 0)))) (tab (len x) (fun i => nth i x (ofZ 0))))).
          - now rewrite <- (list_tab x (ofZ 0)).
          - rewrite tl_tab. destruct (len x) as [|N] eqn:El; [reflexivity|]. replace (Datatypes.S N - 1)%nat with N by lia.
            assert (Em : map2 (fun b a => b - a) (tab N (fun i => nth (Datatypes.S i) x (ofZ 0))) (tab (Datatypes.S N) (fun i => nth i x (ofZ 0))) =
              map2 (fun b a => b - a) (tab N (fun i => nth (Datatypes.S i) x (ofZ 0))) (tab N (fun i => nth i x (ofZ 0)))).
            { rewrite tab_snoc. assert (Hm2 : forall (B : Type) (l1 l2 l3 : list B) (g : B -> B -> B), len l1 = len l2 -> map2 g l1 (l2 ++ l3) = map2 g l1 l2).
              { clear. intros B l1. induction l1 as [|a l1 IH]; intros [|b l2] l3 g H; cbn in *; try lia; [destruct l3; reflexivity|]. f_equal. apply IH. lia. }
              apply Hm2. now rewrite !tab_length. }
            rewrite Em, map2_tab, map_tab. reflexivity. }
        rewrite Ey. rewrite tab_length. destruct (Nat.lt_ge_cases p (len x - 1)) as [C|C].
        - exists p. split; [exact C|]. rewrite nth_tab by exact C. apply (ns_mul _ S). right. apply (ns_sub _ S). now right.
        - exists (p - 1)%nat. split; [lia|]. rewrite nth_tab by lia. apply (ns_mul _ S). right. apply (ns_sub _ S). left.
          replace (Datatypes.S (p - 1)) with p by lia. exact Hb. }
      destruct Hq as (q & Hq & Hbq). apply Hboth, (htot_bad S y m d e n q ltac:(lia) Hq Hbq Hc Hn).
  - (* theo1 *)
    unfold theo1 in Hr. cbn [input_to_phase String.eqb Ascii.eqb Bool.eqb bind] in Hr. destruct (neqb rate (ofZ 0)); [discriminate|].
    apply (gen_rows x rate taus true (ofZ (-1)) (fun y => calc_theo1 y rate)) in Hr as (rows & -> & Hs & Hf).
    refine (Hmake rows _ eq_refl Hs Hf _). intros m d e n (Hm & Hc & Hn). split; [exact Hm|]. intros _.
    apply Hboth, (theo1_bad S x rate m d e n p Hm Hp Hb Hc).
  - (* mtie *)
    apply (gen_rows x rate taus false (ofZ (-1)) (fun y => calc_mtie y)) in Hr as (rows & -> & Hs & Hf).
    refine (Hmake rows _ eq_refl Hs Hf _). intros m d e n (Hm & Hc & Hn). split; [exact Hm|]. intros _.
    apply Hboth, (mtie_bad S x m d e n p Hm Hp Hb Hc).
Qed.

(** the functions that leave out some points at some averaging factors *)
Definition sparse_table : list (dev_fun * (nat -> nat -> nat -> Prop)) :=
  [ (adev, multiples); (hdev, multiples); (oadev, in_triple); (ohdev, in_quadruple); (pdev, not_last); (tierms, in_pair) ].

Lemma sparse_rows f uses x x' rate taus r p : In (f, uses) sparse_table ->
  len x = len x' -> (forall i, i <> p -> nth_error x i = nth_error x' i) ->
  f x rate "phase"%string taus = Ok r ->
  exists rows rows', r = of_rows rate rows /\ f x' rate "phase"%string taus = Ok (of_rows rate rows') /\
    same_rows (fun m => ~ uses (len x) m p) rows rows' /\ StronglySorted lt (map (fun '(m, _, _, _) => m) rows) /\
    Forall (fun '(m, d, e, n) => (1 <= m < len x)%nat /\
      (nan_strict A -> (p < len x)%nat -> nisnan (nth p x (ofZ 0)) = true -> uses (len x) m p -> nisnan d = true)) rows.
Proof.
  intros Hin Hl Hx. assert (Hx' : forall i, i <> p -> nth i x (ofZ 0) = nth i x' (ofZ 0)).
  { intros i Hi. pose proof (Hx i Hi) as E. destruct (nth_error x i) as [v|] eqn:E1; symmetry in E.
    - now rewrite (nth_error_nth x i (ofZ 0) E1), (nth_error_nth x' i (ofZ 0) E).
    - apply nth_error_None in E1, E. now rewrite !nth_overflow by assumption. }
  unfold sparse_table in Hin.
  repeat (destruct Hin as [E|Hin]; [injection E as <- <-|]); [..|destruct Hin].
  - apply (gen_unused x x' rate taus false (ofZ (-1)) (fun y mj => calc_adev_phase y rate mj mj) (fun y m => adev_val y rate m m)
      (fun y m => adev_val y rate m m / nsqrt (ofN (adev_cnt (len y) m m))) (fun N m => Z.of_nat (adev_cnt N m m))); [exact Hl|intros m d e n Hm Hc Hn S Hp Hb Hu; apply (adev_row S x rate p Hp Hb m d e n Hm Hc Hn Hu)| |].
    + intros y m Hm. apply calc_adev_form. lia.
    + intros m Hm Hu Hc. assert (E : adev_val x rate m m = adev_val x' rate m m); [|now rewrite E, Hl].
      apply (adev_same x x' p Hl Hx'). intros i Hi. repeat split; intros C; apply Hu; [exists (2 + i)%nat|exists (1 + i)%nat|exists i]; lia.
  - apply (gen_unused x x' rate taus false (ofZ (-1)) (fun y mj => calc_hdev_phase y rate mj mj) (fun y m => hdev_val y rate m m)
      (fun y m => hdev_val y rate m m / nsqrt (ofN (hdev_cnt (len y) m m))) (fun N m => Z.of_nat (hdev_cnt N m m))); [exact Hl|intros m d e n Hm Hc Hn S Hp Hb Hu; apply (hdev_row S x rate p Hp Hb m d e n Hm Hc Hn Hu)| |].
    + intros y m Hm. apply calc_hdev_form. lia.
    + intros m Hm Hu Hc. assert (E : hdev_val x rate m m = hdev_val x' rate m m); [|now rewrite E, Hl].
      apply (hdev_same x x' p Hl Hx'). intros i Hi. repeat split; intros C; apply Hu; [exists (3 + i)%nat|exists (2 + i)%nat|exists (1 + i)%nat|exists i]; lia.
  - apply (gen_unused x x' rate taus false (ofZ (-1)) (fun y mj => calc_adev_phase y rate mj 1) (fun y m => adev_val y rate m 1)
      (fun y m => adev_val y rate m 1 / nsqrt (ofN (adev_cnt (len y) m 1))) (fun N m => Z.of_nat (adev_cnt N m 1))); [exact Hl|intros m d e n Hm Hc Hn S Hp Hb Hu; apply (oadev_row S x rate p Hp Hb m d e n Hm Hc Hn Hu)| |].
    + intros y m Hm. apply calc_adev_form. lia.
    + intros m Hm Hu Hc. assert (E : adev_val x rate m 1 = adev_val x' rate m 1); [|now rewrite E, Hl].
      apply (adev_same x x' p Hl Hx'). intros i Hi. apply stride_count_lt in Hi; [|lia].
      repeat split; intros C; apply Hu; exists i; lia.
  - apply (gen_unused x x' rate taus false (ofZ (-1)) (fun y mj => calc_hdev_phase y rate mj 1) (fun y m => hdev_val y rate m 1)
      (fun y m => hdev_val y rate m 1 / nsqrt (ofN (hdev_cnt (len y) m 1))) (fun N m => Z.of_nat (hdev_cnt N m 1))); [exact Hl|intros m d e n Hm Hc Hn S Hp Hb Hu; apply (ohdev_row S x rate p Hp Hb m d e n Hm Hc Hn Hu)| |].
    + intros y m Hm. apply calc_hdev_form. lia.
    + intros m Hm Hu Hc. assert (E : hdev_val x rate m 1 = hdev_val x' rate m 1); [|now rewrite E, Hl].
      apply (hdev_same x x' p Hl Hx'). intros i Hi. apply stride_count_lt in Hi; [|lia].
      repeat split; intros C; apply Hu; exists i; lia.
  - apply (gen_unused x x' rate taus false (ofZ (-1)) (fun y => calc_pdev_phase y rate) (fun y m => pdev_val y rate m)
      (fun y m => pdev_err y rate m) pdev_cnt); [exact Hl|intros m d e n Hm Hc Hn S Hp Hb Hu; apply (pdev_row S x rate p Hp Hb m d e n Hm Hc Hn Hu)| |].
    + intros y m Hm. apply calc_pdev_form.
    + intros m Hm Hu Hc. unfold not_last in Hu. apply (pdev_same x x' p Hl Hx'); lia.
  - unfold tierms. cbn [input_to_phase String.eqb Ascii.eqb Bool.eqb bind]. intros Hr.
    assert (E : forall z, (r' <- tau_generator z rate taus false (ofZ (-1));; let '(_, m, t) := r' in run_rows (calc_tierms z) m t) =
      (r' <- tau_generator z rate taus false (ofZ (-1));; let '(y, m, t) := r' in run_rows (calc_tierms y) m t)).
    { intros z. destruct (tau_generator z rate taus false (ofZ (-1))) as [[[y ms] t]|] eqn:E; cbn [bind]; [|reflexivity].
      now apply tau_generator_shape in E as (-> & _). }
    rewrite E in Hr |- *. revert Hr.
    apply (gen_unused x x' rate taus false (ofZ (-1)) calc_tierms tierms_val
      (fun y m => ofZ 0 / nsqrt (ofZ (Z.of_nat (len y) - Z.of_nat m))) (fun N m => (Z.of_nat N - Z.of_nat m)%Z)); [exact Hl|intros m d e n Hm Hc Hn S Hp Hb Hu; apply (tierms_row S x rate p Hp Hb m d e n Hm Hc Hu)| |].
    + intros y m _. apply calc_tierms_form.
    + intros m Hm Hu Hc. rewrite Hl. split; [|reflexivity].
      destruct (Nat.lt_ge_cases (p + m) (len x)) as [C1|C1]; [exfalso; apply Hu; exists p; lia|].
      destruct (Nat.lt_ge_cases p m) as [C2|C2]; [now apply (tierms_same x x' p Hl Hx')|].
      destruct (Nat.lt_ge_cases p (len x)) as [C3|C3]; [exfalso; apply Hu; exists (p - m)%nat; lia|].
      unfold tierms_val. rewrite <- Hl. do 3 f_equal. apply tab_ext. intros i Hi. unfold tie_term. now rewrite !Hx' by lia.
Qed.

(** changing a point, to NaN or to anything else, changes nothing in the rows that do not use it *)
Theorem C88_unaffected f uses x x' rate taus r p : In (f, uses) sparse_table ->
  len x = len x' -> (forall i, i <> p -> nth_error x i = nth_error x' i) ->
  f x rate "phase"%string taus = Ok r ->
  exists rows rows', r = of_rows rate rows /\ f x' rate "phase"%string taus = Ok (of_rows rate rows') /\
    same_rows (fun m => ~ uses (len x) m p) rows rows'.
Proof.
  intros Hin Hl Hx Hr. destruct (sparse_rows f uses x x' rate taus r p Hin Hl Hx Hr) as (rows & rows' & E & E' & Hs & _).
  now exists rows, rows'.
Qed.

Lemma uses_dec f uses N m p : In (f, uses) sparse_table -> uses N m p \/ ~ uses N m p.
Proof.
  intros Hin. unfold sparse_table in Hin. repeat (destruct Hin as [E|Hin]; [injection E as <- <-|]); [..|destruct Hin].
  - unfold multiples. destruct (Nat.eq_dec m 0) as [->|H].
    + destruct (Nat.eq_dec p 0) as [->|H]; [left; now exists 0%nat|right; intros [k E]; lia].
    + destruct (Nat.eq_dec (p mod m) 0) as [E|E]; [left; now apply Nat.mod_divide|right; intros C; apply Nat.mod_divide in C; lia].
  - unfold multiples. destruct (Nat.eq_dec m 0) as [->|H].
    + destruct (Nat.eq_dec p 0) as [->|H]; [left; now exists 0%nat|right; intros [k E]; lia].
    + destruct (Nat.eq_dec (p mod m) 0) as [E|E]; [left; now apply Nat.mod_divide|right; intros C; apply Nat.mod_divide in C; lia].
  - destruct (Nat.lt_ge_cases (p + 2 * m) N); [left; exists p; lia|].
    destruct (Nat.lt_ge_cases (p + m) N); destruct (Nat.lt_ge_cases p m).
    + right. intros (i & Hi & C). lia.
    + left. exists (p - m)%nat. lia.
    + right. intros (i & Hi & C). lia.
    + destruct (Nat.lt_ge_cases p N); destruct (Nat.lt_ge_cases p (2 * m)); try (right; intros (i & Hi & C); lia).
      left. exists (p - 2 * m)%nat. lia.
  - destruct (Nat.lt_ge_cases (p + 3 * m) N); [left; exists p; lia|].
    destruct (le_lt_dec m p); [destruct (Nat.lt_ge_cases (p + 2 * m) N); [left; exists (p - m)%nat; lia|]|right; intros (i & Hi & C); lia].
    destruct (le_lt_dec (2 * m) p); [destruct (Nat.lt_ge_cases (p + m) N); [left; exists (p - 2 * m)%nat; lia|]|right; intros (i & Hi & C); lia].
    destruct (le_lt_dec (3 * m) p); [destruct (Nat.lt_ge_cases p N); [left; exists (p - 3 * m)%nat; lia|]|]; right; intros (i & Hi & C); lia.
  - unfold not_last. lia.
  - destruct (Nat.lt_ge_cases (p + m) N); [left; exists p; lia|].
    destruct (le_lt_dec m p); [destruct (Nat.lt_ge_cases p N); [left; exists (p - m)%nat; lia|]|]; right; intros (i & Hi & C); lia.
Qed.

(** Both together: start from a record whose deviations are all numbers and
    blank one point; exactly the rows that use the point become NaN. *)
Theorem C88_exactly (S : nan_strict A) f uses x x' rate taus p a t d' e' n : In (f, uses) sparse_table ->
  len x = len x' -> (forall i, i <> p -> nth_error x' i = nth_error x i) -> nth_error x p = Some a -> nisnan a = true ->
  f x' rate "phase"%string taus = Ok (t, d', e', n) -> Forall (fun v => nisnan v = false) d' ->
  exists ms d e, f x rate "phase"%string taus = Ok (t, d, e, n) /\
    StronglySorted lt ms /\ t = map (fun m => ofN m / rate) ms /\
    Forall2 (fun m v => nisnan v = true <-> uses (len x) m p) ms d.
Proof.
  intros Hin Hl Hx Ha Hnan Hr' Hd'.
  destruct (sparse_rows f uses x' x rate taus _ p Hin (eq_sym Hl) Hx Hr') as (r1 & r2 & _ & Hr & _).
  destruct (sparse_rows f uses x x' rate taus _ p Hin Hl (fun i Hi => eq_sym (Hx i Hi)) Hr) as (rows & rows' & E & E' & Hs & Hso & Hf).
  rewrite Hr' in E'. injection E' as -> -> -> ->. rewrite E in Hr. clear E r1 r2 Hr'.
  assert (Hp : (p < len x)%nat) by (apply nth_error_Some; congruence).
  assert (Hb : nisnan (nth p x (ofZ 0)) = true) by (now rewrite (nth_error_nth x p (ofZ 0) Ha)).
  set (ms := map (fun '(m, _, _, _) => m) rows).
  exists ms, (map (fun '(_, d, _, _) => d) rows), (EArr (map (fun '(_, _, e, _) => e) rows)).
  split; [|split; [exact Hso|split]].
  - rewrite Hr. unfold of_rows. f_equal.
    assert (Et : map (fun '(m, _, _, _) => ofN m / rate) rows = map (fun '(m, _, _, _) => ofN m / rate) rows' /\
      map (fun '(_, _, _, n) => n) rows = map (fun '(_, _, _, n) => n) rows').
    { clear -Hs. unfold same_rows in Hs. induction Hs as [|[[[m d] e] n] [[[m' d'] e'] n'] l l' (-> & -> & _) Hs IH]; [now split|].
      cbn [map]. destruct IH as [-> ->]. now split. }
    destruct Et as [-> ->]. reflexivity.
  - unfold ms. rewrite map_map. clear -Hs. unfold same_rows in Hs.
    induction Hs as [|[[[m d] e] n] [[[m' d'] e'] n'] l l' (-> & -> & _) Hs IH]; [reflexivity|]. cbn [map]. now rewrite IH.
  - unfold ms. clear Hr Hso ms. unfold same_rows in Hs. induction Hs as [|[[[m d] e] n] [[[m' d'] e'] n'] l l' (<- & _ & Hs) Hl2 IH]; [constructor|].
    cbn [map] in *. apply Forall_cons_iff in Hd' as [Hd Hd']. apply Forall_cons_iff in Hf as [[_ Hf1] Hf]. constructor; [|now apply IH].
    split.
    + intros Hn. destruct (uses_dec f uses (len x) m p Hin) as [Hu|Hu]; [exact Hu|]. destruct (Hs Hu) as [-> _]. congruence.
    + intros Hu. now apply Hf1.
Qed.

(** *** frequency data: a gap blanks every later phase point *)
Lemma cumsum_from_nth (l : list A) : forall a i, (i < len l)%nat ->
  nth i (cumsum_from a l) (ofZ 0) = fold_left nadd (firstn (Datatypes.S i) l) a.
Proof.
  induction l as [|b l IH]; intros a i Hi; [cbn in Hi; lia|]. cbn [cumsum_from]. destruct i as [|i].
  - destruct l; reflexivity.
  - cbn [nth firstn fold_left]. apply IH. cbn in Hi. lia.
Qed.
Lemma cumsum_reach (S : nan_strict A) (l : list A) p i : (p <= i < len l)%nat -> nisnan (nth p l (ofZ 0)) = true ->
  nisnan (nth i (cumsum l) (ofZ 0)) = true.
Proof.
  destruct l as [|b l]; intros Hi H; [cbn in Hi; lia|]. cbn [cumsum]. destruct i as [|i].
  - replace p with 0%nat in H by lia. exact H.
  - cbn [nth]. rewrite cumsum_from_nth by (cbn in Hi; lia). apply (bad_fold S). destruct p as [|p]; [now left|]. right.
    cbn [nth] in H. cbn in Hi. rewrite (list_tab l (ofZ 0)), firstn_tab. apply (bad_tab _ _ p); [lia|exact H].
Qed.
Lemma cumsum_len (l : list A) : len (cumsum l) = len l.
Proof.
  destruct l as [|a l]; [reflexivity|]. cbn [cumsum List.length]. f_equal. revert a. induction l as [|b l IH]; intros a; [reflexivity|].
  cbn [cumsum_from List.length]. f_equal. apply IH.
Qed.
Lemma f2p_reach (S : nan_strict A) y rate g x p i : trim_data y = Ok g -> frequency2phase y rate = Ok x ->
  (p < len g)%nat -> nisnan (nth p g (ofZ 0)) = true -> (p < i <= len g)%nat ->
  len x = Datatypes.S (len g) /\ nisnan (nth i x (ofZ 0)) = true.
Proof.
  intros Hg Hx Hp H Hi. unfold frequency2phase in Hx. destruct (neqb rate (ofZ 0)); [discriminate|]. rewrite Hg in Hx. cbn [bind] in Hx.
  set (mu := nanmean g) in Hx. injection Hx as <-. cbn [List.length]. rewrite map_length, cumsum_len, map_length. split; [reflexivity|].
  destruct i as [|i]; [lia|]. cbn [nth].
  assert (Hc : nisnan (nth i (cumsum (map (fun f => f - mu) g)) (ofZ 0)) = true).
  { apply (cumsum_reach S _ p); [rewrite map_length; lia|]. rewrite (list_tab g (ofZ 0)), map_tab, nth_tab by exact Hp. apply (ns_sub _ S). now left. }
  set (c := cumsum _) in *. assert (Hl : (i < len c)%nat) by (unfold c; rewrite cumsum_len, map_length; lia).
  rewrite (list_tab c (ofZ 0)), map_tab, nth_tab by exact Hl. apply (ns_mul _ S). now left.
Qed.
Lemma trim_last (y g : list A) : trim_data y = Ok g -> nisnan (nth (len g - 1) g (ofZ 0)) = false.
Proof.
  intros H. destruct (trim_data_split y (ofZ 0)) as [(pre & mid & post & _ & Hm & _ & _ & _ & Hl & E)|[_ E]]; rewrite E in H; [|discriminate].
  injection H as <-. clear E. destruct mid as [|b mid] using rev_ind; [contradiction|]. rewrite last_last in Hl.
  rewrite app_length. cbn [List.length]. rewrite app_nth2 by lia. replace (len mid + 1 - 1 - len mid)%nat with 0%nat by lia. exact Hl.
Qed.

Definition freq_table : list dev_fun :=
  [oadev; ohdev; pdev; tierms; mdev; tdev; totdev; mtotdev; ttotdev; theo1; mtie].

(** one missing sample inside frequency data: every deviation is NaN *)
Theorem C88_freq (S : nan_strict A) f y g rate taus r p a : In f freq_table -> trim_data y = Ok g -> nth_error g p = Some a -> nisnan a = true ->
  f y rate "freq"%string taus = Ok r -> exists rows, r = of_rows rate rows /\
    StronglySorted lt (map row_m rows) /\ Forall (fun '(m, d, e, n) => nisnan d = true) rows.
Proof.
  intros Hin Hg Ha Hnan Hr.
  assert (Hp : (p < len g)%nat) by (apply nth_error_Some; congruence).
  assert (Hb : nisnan (nth p g (ofZ 0)) = true) by (now rewrite (nth_error_nth g p (ofZ 0) Ha)).
  assert (Hpl : (p + 1 < len g)%nat).
  { destruct (Nat.eq_dec (p + 1) (len g)) as [C|C]; [|lia]. pose proof (trim_last y g Hg) as Hl. replace (len g - 1)%nat with p in Hl by lia. congruence. }
  assert (Hf2 : exists x, frequency2phase y rate = Ok x).
  { destruct (frequency2phase y rate) as [x|er] eqn:E; [now exists x|]. exfalso.
    unfold freq_table in Hin.
    repeat (destruct Hin as [<-|Hin]; [unfold oadev, ohdev, pdev, tierms, mdev, tdev, totdev, mtotdev, ttotdev, theo1, mtie, mtotdev in Hr;
      cbn [input_to_phase String.eqb Ascii.eqb Bool.eqb] in Hr; rewrite E in Hr; discriminate|]). destruct Hin. }
  destruct Hf2 as (x & Hx).
  assert (Hfp : f y rate "freq"%string taus = f x rate "phase"%string taus).
  { apply freq_is_phase; [|exact Hx]. unfold phase_devs. unfold freq_table in Hin. cbn [In] in *. tauto. }
  rewrite Hfp in Hr. clear Hfp.
  destruct (f2p_reach S y rate g x p (len g) Hg Hx Hp Hb ltac:(lia)) as [Hlen Hlast].
  destruct (f2p_reach S y rate g x p (p + 1) Hg Hx Hp Hb ltac:(lia)) as [_ Hnext].
  set (N := len x) in *.
  assert (Hnth : forall q, (q < N)%nat -> nth_error x q = Some (nth q x (ofZ 0))) by (intros q Hq; now apply nth_error_nth').
  assert (Hgo : forall uses b q, In (f, uses, b) nan_table -> (q < N)%nat -> nisnan (nth q x (ofZ 0)) = true ->
    (forall m, (1 <= m < N)%nat -> uses N m q) -> exists rows, r = of_rows rate rows /\
    StronglySorted lt (map row_m rows) /\ Forall (fun '(m, d, e, n) => nisnan d = true) rows).
  { intros uses b q Hi Hq Hnq Hu. destruct (C88_reaches S f uses b x rate taus r q _ Hi Hr (Hnth q Hq) Hnq) as (rows & -> & Hs & Hf).
    exists rows. split; [reflexivity|]. split; [exact Hs|]. eapply Forall_impl; [|exact Hf]. intros [[[m d] e] n] [Hm Hd]. now apply Hd, Hu. }
  assert (Hrow : forall rows, StronglySorted lt (map (fun '(m, _, _, _) => m) rows) -> StronglySorted lt (map (@row_m) rows)).
  { intros rows Hs. rewrite (map_ext row_m (fun '(m, _, _, _) => m)); [exact Hs|]. now intros [[[m d] e] n]. }
  unfold freq_table in Hin.
  repeat (destruct Hin as [<-|Hin]); [..|destruct Hin].
  - apply (gen_rows x rate taus false (ofZ (-1)) (fun y mj => calc_adev_phase y rate mj 1)) in Hr as (rows & -> & Hs & Hf).
    exists rows. split; [reflexivity|]. split; [now apply Hrow|]. eapply Forall_impl; [|exact Hf]. intros [[[m d] e] n] (Hm & Hc & Hn).
    apply (oadev_row S x rate (len g) ltac:(lia) Hlast m d e n Hm Hc Hn).
    rewrite calc_adev_form in Hc by lia. injection Hc as _ _ <-. unfold adev_cnt in Hn. rewrite stride_count_1 in Hn.
    fold N in Hn |- *. destruct (Nat.eqb_spec (N - 2 * m) 0); [lia|]. exists (N - 1 - 2 * m)%nat. lia.
  - apply (gen_rows x rate taus false (ofZ (-1)) (fun y mj => calc_hdev_phase y rate mj 1)) in Hr as (rows & -> & Hs & Hf).
    exists rows. split; [reflexivity|]. split; [now apply Hrow|]. eapply Forall_impl; [|exact Hf]. intros [[[m d] e] n] (Hm & Hc & Hn).
    apply (ohdev_row S x rate (len g) ltac:(lia) Hlast m d e n Hm Hc Hn).
    rewrite calc_hdev_form in Hc by lia. injection Hc as _ _ <-. unfold hdev_cnt in Hn. rewrite stride_count_1 in Hn.
    fold N in Hn |- *. destruct (Nat.eqb_spec (N - 3 * m) 0); [lia|]. exists (N - 1 - 3 * m)%nat. lia.
  - apply (Hgo not_last true (p + 1)%nat); [unfold nan_table; cbn [In]; tauto|lia|exact Hnext|]. intros m Hm. right. lia.
  - apply (Hgo in_pair false (len g)); [unfold nan_table; cbn [In]; tauto|lia|exact Hlast|]. intros m Hm. exists (N - 1 - m)%nat. lia.
  - apply (Hgo every_point true (len g)); [unfold nan_table; cbn [In]; tauto|lia|exact Hlast|]. intros m Hm. exact I.
  - apply (Hgo every_point true (len g)); [unfold nan_table; cbn [In]; tauto|lia|exact Hlast|]. intros m Hm. exact I.
  - apply (Hgo every_point true (len g)); [unfold nan_table; cbn [In]; tauto|lia|exact Hlast|]. intros m Hm. exact I.
  - apply (Hgo every_point true (len g)); [unfold nan_table; cbn [In]; tauto|lia|exact Hlast|]. intros m Hm. exact I.
  - apply (Hgo every_point true (len g)); [unfold nan_table; cbn [In]; tauto|lia|exact Hlast|]. intros m Hm. exact I.
  - apply (Hgo every_point true (len g)); [unfold nan_table; cbn [In]; tauto|lia|exact Hlast|]. intros m Hm. exact I.
  - apply (Hgo every_point true (len g)); [unfold nan_table; cbn [In]; tauto|lia|exact Hlast|]. intros m Hm. exact I.
Qed.

(** htotdev does not trim: a missing sample anywhere in the frequency data, the
    ends included, makes every row from m = 2 on NaN. *)
Theorem C88_htotdev_freq (S : nan_strict A) y rate taus r p a : nth_error y p = Some a -> nisnan a = true ->
  htotdev y rate "freq"%string taus = Ok r -> exists rows, r = of_rows rate rows /\
    StronglySorted lt (map row_m rows) /\ Forall (fun '(m, d, e, n) => (2 <= m)%nat -> nisnan d = true) rows.
Proof.
  intros Ha Hnan Hr. assert (Hp : (p < len y)%nat) by (apply nth_error_Some; congruence).
  assert (Hb : nisnan (nth p y (ofZ 0)) = true) by (now rewrite (nth_error_nth y p (ofZ 0) Ha)).
  unfold htotdev in Hr. cbn [String.eqb Ascii.eqb Bool.eqb] in Hr. destruct (frequency2phase y rate) as [x|]; cbn [bind] in Hr; [|discriminate].
  apply (gen_rows y rate taus false (third_len (len y)) (fun fr mj => if Nat.eqb mj 1 then calc_hdev_phase x rate mj 1
                      else calc_htotdev_freq fr mj)) in Hr as (rows & -> & Hs & Hf).
  exists rows. split; [reflexivity|]. split.
  - rewrite (map_ext row_m (fun '(m, _, _, _) => m)); [exact Hs|]. now intros [[[m d] e] n].
  - eapply Forall_impl; [|exact Hf]. intros [[[m d] e] n] (Hm & Hc & Hn) H2. rewrite (proj2 (Nat.eqb_neq m 1)) in Hc by lia.
    apply (htot_bad S y m d e n p ltac:(lia) Hp Hb Hc Hn).
Qed.
End Table.
Print Assumptions C88_reaches.
Print Assumptions C88_unaffected.
Print Assumptions C88_exactly.
Print Assumptions C88_freq.
Print Assumptions C88_htotdev_freq.

(** ** the two arithmetics *)
Lemma is_nan_SF (x : float) : PrimFloat.is_nan x = true <-> Prim2SF x = S754_nan.
Proof.
  unfold PrimFloat.is_nan. rewrite eqb_spec. unfold SFeqb, SFcompare. destruct (Prim2SF x) as [s|s| |s m e] eqn:E; cbn; split; intros H; try discriminate; try reflexivity.
  - destruct s; discriminate.
  - exfalso. destruct s; rewrite Z.compare_refl in H; rewrite Pos.compare_cont_refl in H; discriminate.
Qed.
Theorem C88_binary64 : nan_strict float.
Proof.
  split; cbn [nisnan nadd nsub nmul ndiv nsqrt FNum].
  - intros a b H. apply is_nan_SF. rewrite add_spec. rewrite !is_nan_SF in H. destruct H as [-> | ->]; [reflexivity|]. destruct (Prim2SF a); reflexivity.
  - intros a b H. apply is_nan_SF. rewrite sub_spec. rewrite !is_nan_SF in H. destruct H as [-> | ->]; [reflexivity|]. destruct (Prim2SF a); reflexivity.
  - intros a b H. apply is_nan_SF. rewrite mul_spec. rewrite !is_nan_SF in H. destruct H as [-> | ->]; [reflexivity|]. destruct (Prim2SF a); reflexivity.
  - intros a b H. apply is_nan_SF. rewrite div_spec. rewrite !is_nan_SF in H. destruct H as [-> | ->]; [reflexivity|]. destruct (Prim2SF a); reflexivity.
  - intros a H. apply is_nan_SF. rewrite sqrt_spec. rewrite is_nan_SF in H. now rewrite H.
Qed.
Print Assumptions C88_binary64.
Theorem C88_extended : nan_strict ext.
Proof.
  split.
  - intros [a| |] [b| |] [H|H]; try discriminate; reflexivity.
  - intros [a| |] [b| |] [H|H]; try discriminate; reflexivity.
  - intros [a| |] [b| |] [H|H]; try discriminate; reflexivity.
  - intros [a| |] [b| |] [H|H]; try discriminate; reflexivity.
  - intros [a| |] H; try discriminate; reflexivity.
Qed.
Print Assumptions C88_extended.

(** one of ten points is missing: the rows which use it are NaN, the others keep their values *)
Local Open Scope float_scope.
Definition whole : list float := [0; 1; 4; 9; 16; 0; 3; 5; 2; 1].
Definition blank (p : nat) : list float := firstn p whole ++ nan :: skipn (S p) whole.
Definition devs_of (r : res (@result float)) : list float := match r with Ok (_, d, _, _) => d | Err _ => [] end.
Definition same_or_nan (l l' : list float) : list bool := map2 (fun a b => if PrimFloat.is_nan a then true else negb (a =? b)) l l'.
Example C88_ex : nth_error (blank 1) 1 = Some nan /\ nth_error (blank 2) 2 = Some nan /\
  same_or_nan (devs_of (adev (blank 1) 1 "phase" (TList [1; 2; 3]))) (devs_of (adev whole 1 "phase" (TList [1; 2; 3]))) = [true; false; false] /\
  same_or_nan (devs_of (oadev (blank 2) 1 "phase" (TList [1; 3; 4]))) (devs_of (oadev whole 1 "phase" (TList [1; 3; 4]))) = [true; true; false] /\
  same_or_nan (devs_of (pdev (blank 9) 1 "phase" (TList [1; 2; 3]))) (devs_of (pdev whole 1 "phase" (TList [1; 2; 3]))) = [true; false; false] /\
  same_or_nan (devs_of (tierms (blank 4) 1 "phase" (TList [1; 5; 6; 7]))) (devs_of (tierms whole 1 "phase" (TList [1; 5; 6; 7]))) = [true; true; false; false] /\
  same_or_nan (devs_of (mtie (blank 4) 1 "phase" (TList [1; 5; 6; 7]))) (devs_of (mtie whole 1 "phase" (TList [1; 5; 6; 7]))) = [true; true; true; true].
Proof. vm_compute. repeat split. Qed.
(** frequency data: a gap inside, and for htotdev a gap at the end *)
Example C88_ex_freq :
  trim_data [nan; 1; 2; nan; 4; 9; 1; nan] = Ok [1; 2; nan; 4; 9; 1] /\
  map PrimFloat.is_nan (devs_of (oadev [nan; 1; 2; nan; 4; 9; 1; nan] 1 "freq" (TList [1; 2]))) = [true; true] /\
  map PrimFloat.is_nan (devs_of (adev [nan; 1; 2; nan; 4; 9; 1; nan] 1 "freq" (TList [1; 2]))) = [true; true] /\
  map PrimFloat.is_nan (devs_of (htotdev (whole ++ [nan]) 1 "freq" (TList [1; 2; 3]))) = [false; true; true].
Proof. vm_compute. repeat split. Qed.
