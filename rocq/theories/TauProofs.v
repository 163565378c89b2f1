(** * tau_generator, remove_small_ns and the shared row driver. *)
From Coq Require Import String Reals List ZArith Lra Lia Arith Bool Sorted.
From Verif Require Import Base Num NpList ModelCore NumR ListFacts Spec RSum.
Import ListNotations.
Local Open Scope R_scope.
Local Notation len := List.length.

Lemma INR_2pow k : INR (2 ^ k)%nat = IZR (2 ^ Z.of_nat k).
Proof. rewrite INR_IZR_INZ, Nat2Z.inj_pow. reflexivity. Qed.

Lemma ilog10_fuel_spec f : forall n, (0 <= n <= Z.of_nat f)%Z ->
  (n < 10 ^ (Z.of_nat (ilog10_fuel f n) + 1))%Z.
Proof.
  induction f as [|f IH]; intros n Hn.
  - cbn. lia.
  - cbn [ilog10_fuel]. destruct (Z.ltb_spec n 10) as [H|H].
    + cbn. lia.
    + assert (Hq : (0 <= n / 10 <= Z.of_nat f)%Z).
      { split; [apply Z.div_pos; lia|].
        assert (n / 10 <= n - 1)%Z; [|lia].
        apply Z.div_le_upper_bound; lia. }
      specialize (IH _ Hq).
      set (k := ilog10_fuel f (n / 10)) in *. clearbody k.
      rewrite Nat2Z.inj_succ. unfold Z.succ.
      rewrite Z.pow_add_r by lia. change (10 ^ 1)%Z with 10%Z.
      pose proof (Z.div_mod n 10 ltac:(lia)). pose proof (Z.mod_pos_bound n 10 ltac:(lia)). lia.
Qed.

Lemma ilog10_spec n : (n < 10 ^ S (ilog10 n))%nat.
Proof.
  unfold ilog10. pose proof (ilog10_fuel_spec n (Z.of_nat n) ltac:(lia)) as H.
  set (k := ilog10_fuel n (Z.of_nat n)) in *. clearbody k.
  apply Nat2Z.inj_lt. rewrite Nat2Z.inj_pow. change (Z.of_nat 10) with 10%Z.
  rewrite (Nat2Z.inj_succ k). unfold Z.succ. exact H.
Qed.

Lemma pow10_mono a b : (10 ^ a < 10 ^ b)%nat -> (a < b)%nat.
Proof.
  intros H. destruct (le_lt_dec b a) as [Hl|Hl]; [|exact Hl].
  pose proof (Nat.pow_le_mono_r 10 b a ltac:(lia) Hl). lia.
Qed.

Lemma log10R_nonneg N : (1 <= N)%nat -> 0 <= ln (INR N) / ln 10.
Proof.
  intros H. assert (Hl : 0 < ln 10) by (rewrite <- ln_1; apply ln_increasing; lra).
  apply Rmult_le_pos; [|left; apply Rinv_0_lt_compat; exact Hl].
  assert (1 <= INR N) by (change 1 with (INR 1); apply le_INR; exact H).
  destruct (Req_dec (INR N) 1) as [->|Hn]; [rewrite ln_1; lra|].
  left. rewrite <- ln_1. apply ln_increasing; lra.
Qed.

Lemma truncR_nat x : 0 <= x -> INR (Z.to_nat (truncR x)) <= x < INR (Z.to_nat (truncR x)) + 1.
Proof.
  intros H. unfold truncR. destruct (Rle_dec 0 x) as [_|C]; [|contradiction].
  pose proof (Int_part_bounds x) as [H1 H2].
  assert (0 <= Int_part x)%Z.
  { assert (-1 < Int_part x)%Z; [|lia]. apply lt_IZR. lra. }
  rewrite INR_IZR_INZ, Z2Nat.id by lia. lra.
Qed.

(** ** Expansion of the taus argument *)
Lemma scaled_iff rate (v m : Z) : rate <> 0 ->
  half_even (1 / rate * IZR v * rate) m <-> v = m.
Proof.
  intros Hr. replace (1 / rate * IZR v * rate) with (IZR v) by (field; exact Hr).
  split.
  - intros H. eapply half_even_unique; [apply half_even_IZR|exact H].
  - intros ->. apply half_even_IZR.
Qed.

Lemma octave_spec N rate m : rate <> 0 -> (1 <= m < N)%nat ->
  (exists t, In t (map (fun k => 1 / rate * IZR (2 ^ Z.of_nat k)) (seq 0 (S (Nat.log2 N)))) /\
             half_even (t * rate) (Z.of_nat m)) <->
  (exists k, m = (2 ^ k)%nat).
Proof.
  intros Hr Hm. split.
  - intros (t & Ht & Hh). apply in_map_iff in Ht as (k & <- & Hk).
    apply scaled_iff in Hh; [|exact Hr]. exists k.
    apply Nat2Z.inj. rewrite Nat2Z.inj_pow. symmetry. exact Hh.
  - intros (k & ->). exists (1 / rate * IZR (2 ^ Z.of_nat k)). split.
    + apply in_map_iff. exists k. split; [reflexivity|]. apply in_seq.
      assert (k <= Nat.log2 N)%nat; [|lia].
      apply Nat.log2_le_pow2; lia.
    + apply scaled_iff; [exact Hr|]. rewrite Nat2Z.inj_pow. reflexivity.
Qed.

Lemma expand_taus_spec N rate taus :
  rate <> 0 -> valid_request N taus ->
  exists ts, expand_taus N rate taus = Ok ts /\
    forall m, (1 <= m < N)%nat ->
      ((exists t, In t ts /\ half_even (t * rate) (Z.of_nat m)) <-> requested N rate taus m).
Proof.
  intros Hr Hv.
  assert (Hoct : (1 <= N)%nat -> exists ts,
     match N with
     | O => Err OverflowError
     | _ => Ok (map (fun k => (ofZ 1 / rate * ofZ (2 ^ Z.of_nat k))%num) (seq 0 (S (Nat.log2 N))))
     end = Ok ts /\
     forall m, (1 <= m < N)%nat ->
      ((exists t, In t ts /\ half_even (t * rate) (Z.of_nat m)) <-> (exists k, m = (2 ^ k)%nat))).
  { intros HN. destruct N as [|N']; [lia|]. eexists. split; [reflexivity|].
    intros m Hm. apply octave_spec; assumption. }
  unfold expand_taus.
  destruct taus as [|l|l|s]; cbn [valid_request requested] in *.
  - apply Hoct. exact Hv.
  - destruct l as [|a l]; [apply Hoct; exact Hv|].
    eexists. split; [reflexivity|]. intros m Hm. reflexivity.
  - eexists. split; [reflexivity|]. intros m Hm. reflexivity.
  - destruct Hv as [Hk HN].
    destruct (String.eqb_spec s "all") as [->|Hall].
    { eexists. split; [reflexivity|]. intros m Hm. split; [trivial|]. intros _.
      exists (1 / rate * IZR (Z.of_nat m)). split.
      - apply in_map_iff. exists (m - 1)%nat. split.
        + replace (S (m - 1)) with m by lia. reflexivity.
        + apply in_seq. lia.
      - apply scaled_iff; [exact Hr|reflexivity]. }
    destruct HN as [HN|HN]; [contradiction|].
    destruct (String.eqb_spec s "octave") as [->|Hoc]; [apply Hoct; exact HN|].
    destruct (String.eqb_spec s "log10") as [->|Hlog].
    { destruct (String.eqb_spec "log10" "decade") as [C|_]; [discriminate C|].
      destruct N as [|N']; [lia|]. set (N := S N') in *.
      eexists. split; [reflexivity|]. intros m Hm.
      cbn [nlogspace10 RNum]. unfold logspace10R, log10R.
      set (L := ln (INR N) / ln 10).
      pose proof (log10R_nonneg N HN) as HL. fold L in HL.
      pose proof (truncR_nat (10 * L) ltac:(lra)) as HP.
      set (P := Z.to_nat (truncR (10 * L))) in *.
      split.
      - intros (t & Ht & Hh). exists P.
        rewrite map_map in Ht. apply in_map_iff in Ht as (i & <- & Hi).
        exists i. apply in_seq in Hi. split; [exact HP|]. split; [lia|].
        cbn [nmul ndiv ofZ RNum] in Hh.
        match type of Hh with half_even ?e _ => replace e with (Rpower 10 (INR i * (L / (INR P - 1)))) in Hh
          by (field; exact Hr) end. exact Hh.
      - intros (P' & i & HP' & Hi & Hh).
        assert (P' = P) as ->.
        { assert (INR P' < INR (S P)) by (rewrite S_INR; lra).
          assert (INR P < INR (S P')) by (rewrite S_INR; lra).
          apply INR_lt in H, H0. lia. }
        eexists. split.
        + rewrite map_map. apply in_map_iff. exists i. split; [reflexivity|]. apply in_seq. lia.
        + cbn [nmul ndiv ofZ RNum].
          match goal with |- half_even ?e _ => replace e with (Rpower 10 (INR i * (L / (INR P - 1))))
            by (field; exact Hr) end. exact Hh. }
    destruct (String.eqb_spec s "decade") as [->|Hdec].
    { destruct N as [|N']; [lia|]. set (N := S N') in *.
      eexists. split; [reflexivity|]. intros m Hm.
      cbn [nmul ndiv ofZ RNum].
      assert (HH : forall c k, half_even (IZR c * (1 / rate) * IZR (10 ^ Z.of_nat k) * rate) (Z.of_nat m)
               <-> (c * 10 ^ Z.of_nat k)%Z = Z.of_nat m).
      { intros c k. replace (IZR c * (1 / rate) * IZR (10 ^ Z.of_nat k) * rate)
          with (IZR (c * 10 ^ Z.of_nat k)) by (rewrite mult_IZR; field; exact Hr).
        split; [intros H; eapply half_even_unique; [apply half_even_IZR|exact H]|].
        intros ->. apply half_even_IZR. }
      split.
      - intros (t & Ht & Hh). apply in_flat_map in Ht as (k & Hk' & Ht).
        exists k. cbn [In] in Ht.
        destruct Ht as [<-|[<-|[<-|[]]]]; apply HH in Hh.
        + left. apply Nat2Z.inj. rewrite Nat2Z.inj_pow. lia.
        + right; left. apply Nat2Z.inj. rewrite Nat2Z.inj_mul, Nat2Z.inj_pow. lia.
        + right; right. apply Nat2Z.inj. rewrite Nat2Z.inj_mul, Nat2Z.inj_pow. lia.
      - intros (k & Hk').
        assert (Hkk : (k <= ilog10 N)%nat).
        { pose proof (ilog10_spec N) as Hi.
          assert (10 ^ k < 10 ^ S (ilog10 N))%nat by lia.
          apply pow10_mono in H. lia. }
        assert (Hin : forall t, In t [ IZR 1 * (1 / rate) * IZR (10 ^ Z.of_nat k);
             IZR 2 * (1 / rate) * IZR (10 ^ Z.of_nat k); IZR 4 * (1 / rate) * IZR (10 ^ Z.of_nat k)] ->
             In t (flat_map (fun k0 : nat =>
              [1 * (1 / rate) * IZR (10 ^ Z.of_nat k0);
               2 * (1 / rate) * IZR (10 ^ Z.of_nat k0);
               4 * (1 / rate) * IZR (10 ^ Z.of_nat k0)]) (seq 0 (S (ilog10 N))))).
        { intros t Ht. apply in_flat_map. exists k. split; [apply in_seq; lia|exact Ht]. }
        destruct Hk' as [E|[E|E]].
        + exists (IZR 1 * (1 / rate) * IZR (10 ^ Z.of_nat k)). split; [apply Hin; cbn; auto|].
          apply HH. rewrite E, Nat2Z.inj_pow. lia.
        + exists (IZR 2 * (1 / rate) * IZR (10 ^ Z.of_nat k)). split; [apply Hin; cbn; auto|].
          apply HH. rewrite E, Nat2Z.inj_mul, Nat2Z.inj_pow. lia.
        + exists (IZR 4 * (1 / rate) * IZR (10 ^ Z.of_nat k)). split; [apply Hin; cbn; auto|].
          apply HH. rewrite E, Nat2Z.inj_mul, Nat2Z.inj_pow. lia. }
    exfalso. destruct Hk as [ -> | [ -> | [ -> | -> ] ] ]; contradiction.
Qed.

Lemma select_m_In N rate mx ts z :
  In z (select_m N rate mx ts) <->
  (exists t, In t ts /\ half_even (t * rate) z) /\ (0 < z < Z.of_nat N)%Z /\ IZR z <= mx.
Proof.
  unfold select_m. rewrite unique_In, in_flat_map. cbn [nrint nmul RNum nleb ofZ].
  split.
  - intros (t & Ht & Hz).
    destruct (_ && _) eqn:E; [|destruct Hz]. destruct Hz as [<-|[]].
    apply andb_prop in E as [E E3]. apply andb_prop in E as [E1 E2].
    apply Z.ltb_lt in E1, E2. apply Rleb_true in E3.
    split; [|split; [lia|exact E3]]. exists t. split; [exact Ht|]. apply rintR_spec.
  - intros ((t & Ht & Hh) & Hz & Hm). exists t. split; [exact Ht|].
    apply rintR_iff in Hh. rewrite Hh.
    destruct (Z.ltb_spec z (Z.of_nat N)); [|lia].
    destruct (Z.ltb_spec 0 z); [|lia].
    apply Rleb_true in Hm. rewrite Hm. cbn. auto.
Qed.

Lemma map_ofnat_sorted ms : StronglySorted lt ms -> StronglySorted Z.lt (map Z.of_nat ms).
Proof. apply map_StronglySorted. intros; lia. Qed.

Lemma sortedZ_unique l1 l2 : StronglySorted Z.lt l1 -> StronglySorted Z.lt l2 ->
  (forall z, In z l1 <-> In z l2) -> l1 = l2.
Proof. apply sorted_ext; [intros x; lia|intros x y z; lia]. Qed.

Lemma Zeven_nat m : Z.even (Z.of_nat m) = Nat.even m.
Proof.
  destruct (Nat.even m) eqn:E.
  - apply Nat.even_spec in E as [k ->]. rewrite Nat2Z.inj_mul. apply Z.even_mul.
  - assert (Nat.odd m = true) by (unfold Nat.odd; now rewrite E).
    apply Nat.odd_spec in H as [k ->]. rewrite Nat2Z.inj_add, Nat2Z.inj_mul.
    rewrite Z.even_add, Z.even_mul. reflexivity.
Qed.

(** Complete functional specification of tau_generator on the reals. *)
Lemma tau_generator_spec (ok : nat -> Prop) x rate taus even mx ms :
  rate <> 0 ->
  (forall m, (1 <= m < len x)%nat ->
     (ok m <-> (INR m <= if Reqb mx (-1) then INR (len x) else mx) /\
               (even = true -> Nat.even m = true))) ->
  admissible_if ok (len x) rate taus ms ->
  tau_generator x rate taus even mx =
    Ok (x, map Z.of_nat ms, map (fun m => INR m / rate) ms).
Proof.
  intros Hr Hok (Hv & Hs & Hin).
  unfold tau_generator. cbn [neqb ofZ RNum].
  destruct (Reqb rate 0) eqn:E0; [apply Reqb_true in E0; contradiction|].
  destruct (expand_taus_spec (len x) rate taus Hr Hv) as (ts & -> & Hts). cbn [bind].
  match goal with |- Ok (x, ?m, _) = _ => assert (Hm : m = map Z.of_nat ms) end.
  { apply sortedZ_unique.
    - destruct even; [apply filter_StronglySorted|]; apply unique_sorted.
    - apply map_ofnat_sorted; exact Hs.
    - intros z.
      assert (Hmx : forall z, IZR z <= (if Reqb mx (-1) then @ofN R _ (len x) else mx) <->
                IZR z <= (if Reqb mx (-1) then INR (len x) else mx)).
      { intros z'. destruct (Reqb mx (-1)); [rewrite ofN_INR|]; reflexivity. }
      split.
      + intros Hz.
        assert (Hz' : In z (select_m (len x) rate
             (if Reqb mx (-1) then ofN (len x) else mx) ts) /\ (even = true -> Z.even z = true)).
        { destruct even; [apply filter_In in Hz as [Hz He]; split; auto|].
          split; [exact Hz|discriminate]. }
        destruct Hz' as [Hsel He]. apply select_m_In in Hsel as (Ht & Hr' & Hmxz).
        apply in_map_iff. exists (Z.to_nat z). split; [lia|].
        assert (Hb : (1 <= Z.to_nat z < len x)%nat) by lia.
        apply Hin. split; [exact Hb|]. split.
        * apply Hok; [exact Hb|]. split.
          { apply Hmx in Hmxz. rewrite INR_IZR_INZ, Z2Nat.id by lia. exact Hmxz. }
          { intros Hev. rewrite <- Zeven_nat, Z2Nat.id by lia. auto. }
        * apply Hts; [exact Hb|]. rewrite Z2Nat.id by lia. exact Ht.
      + intros Hz. apply in_map_iff in Hz as (m & <- & Hm).
        apply Hin in Hm as (Hb & Hokm & Hreq).
        apply (Hok m Hb) in Hokm as [Hle Hev].
        assert (Hsel : In (Z.of_nat m) (select_m (len x) rate
             (if Reqb mx (-1) then ofN (len x) else mx) ts)).
        { apply select_m_In. split; [apply Hts; assumption|]. split; [lia|].
          apply Hmx. rewrite <- INR_IZR_INZ. exact Hle. }
        destruct even; [|exact Hsel]. apply filter_In. split; [exact Hsel|].
        rewrite Zeven_nat. auto. }
  rewrite Hm. rewrite map_map. f_equal. f_equal.
  apply map_ext. intros m. cbn. now rewrite ofN_R.
Qed.

(** An admissible list always exists for a valid request. *)
Lemma admissible_exists (ok : nat -> bool) N rate taus :
  rate <> 0 -> valid_request N taus ->
  exists ms, admissible_if (fun m => ok m = true) N rate taus ms.
Proof.
  intros Hr Hv. destruct (expand_taus_spec N rate taus Hr Hv) as (ts & _ & Hts).
  set (zs := select_m N rate (INR N) ts).
  exists (filter ok (map Z.to_nat zs)). split; [exact Hv|]. split.
  - apply filter_StronglySorted. eapply map_StronglySorted; [|apply unique_sorted].
    cbn. intros a b Ha Hb Hab. apply select_m_In in Ha, Hb. lia.
  - intros m. rewrite filter_In, in_map_iff. split.
    + intros ((z & <- & Hz) & Hok). apply select_m_In in Hz as (Ht & Hb & _).
      split; [lia|]. split; [exact Hok|]. apply Hts; [lia|]. rewrite Z2Nat.id by lia. exact Ht.
    + intros (Hb & Hok & Hreq). split; [|exact Hok]. exists (Z.of_nat m). split; [lia|].
      apply select_m_In. split; [apply Hts; assumption|]. split; [lia|].
      rewrite <- INR_IZR_INZ. apply le_INR. lia.
Qed.

Lemma admissible_unique ok N rate taus ms ms' :
  admissible_if ok N rate taus ms -> admissible_if ok N rate taus ms' -> ms = ms'.
Proof.
  intros (_ & Hs & Hi) (_ & Hs' & Hi'). apply (sorted_ext lt); auto.
  - intros x; lia.
  - intros x y z; lia.
  - intros m. rewrite Hi, Hi'. reflexivity.
Qed.

(** Default limit (-1 means len(data)): no extra condition. *)
Lemma tau_generator_default x rate taus ms :
  rate <> 0 -> admissible (len x) rate taus ms ->
  tau_generator x rate taus false (IZR (-1)) =
    Ok (x, map Z.of_nat ms, map (fun m => INR m / rate) ms).
Proof.
  intros Hr Ha. eapply tau_generator_spec; [exact Hr| |exact Ha].
  intros m Hm. rewrite (proj2 (Reqb_true (-1) (-1)) eq_refl). split; [|trivial].
  intros _. split; [apply le_INR; lia|discriminate].
Qed.

(** ** The row driver *)
Lemma run_rows_report calc rate ms dev err cnt :
  (forall m, In m ms -> exists d e n, calc m = Ok (d, e, n) /\
     ((1 < n)%Z \/ (1 < cnt m)%Z -> d = dev m /\ e = err m /\ n = cnt m)) ->
  run_rows calc (map Z.of_nat ms) (map (fun m => INR m / rate) ms) = report rate ms dev err cnt.
Proof.
  intros H.
  assert (Hex : exists g : nat -> R * R * Z, forall m, In m ms -> calc m = Ok (g m) /\
     ((1 < snd (g m))%Z \/ (1 < cnt m)%Z -> g m = (dev m, err m, cnt m))).
  { exists (fun m => match calc m with Ok r => r | Err _ => (0, 0, 0%Z) end).
    intros m Hm. destruct (H m Hm) as (d & e & n & Hc & Hn). rewrite Hc. cbn.
    split; [reflexivity|]. intros Hor. destruct (Hn Hor) as (-> & -> & ->). reflexivity. }
  destruct Hex as (g & Hg).
  unfold run_rows.
  rewrite (mapM_Ok _ (fun z => g (Z.to_nat z))).
  2:{ intros z Hz. apply in_map_iff in Hz as (m & <- & Hm). rewrite Nat2Z.id.
      apply (Hg m Hm). }
  cbn [bind]. rewrite !map_map.
  unfold remove_small_ns. rewrite !map_map.
  rewrite !mask_select_map. cbn [bind].
  unfold report.
  assert (Hf : filter (fun m => (1 <? snd (g (Z.to_nat (Z.of_nat m))))%Z) ms =
               filter (fun m => (1 <? cnt m)%Z) ms).
  { apply filter_ext_in. intros m Hm. rewrite Nat2Z.id. destruct (Hg m Hm) as [_ Hn].
    destruct (Z.ltb_spec 1 (snd (g m))) as [Hl|Hl].
    - rewrite (Hn (or_introl Hl)) in Hl. cbn in Hl. symmetry. apply Z.ltb_lt. exact Hl.
    - destruct (Z.ltb_spec 1 (cnt m)) as [Hc|Hc]; [|reflexivity].
      rewrite (Hn (or_intror Hc)) in Hl. cbn in Hl. lia. }
  rewrite Hf.
  assert (Hgood : forall m, In m (filter (fun m => (1 <? cnt m)%Z) ms) ->
            g (Z.to_nat (Z.of_nat m)) = (dev m, err m, cnt m)).
  { intros m Hm. apply filter_In in Hm as [Hm Hc]. rewrite Nat2Z.id. apply (Hg m Hm). right.
    now apply Z.ltb_lt. }
  rewrite (map_ext_in (fun x => fst (fst (g (Z.to_nat (Z.of_nat x))))) dev)
    by (intros m Hm; rewrite (Hgood m Hm); reflexivity).
  rewrite (map_ext_in (fun x => snd (fst (g (Z.to_nat (Z.of_nat x))))) err)
    by (intros m Hm; rewrite (Hgood m Hm); reflexivity).
  rewrite (map_ext_in (fun x => snd (g (Z.to_nat (Z.of_nat x)))) cnt)
    by (intros m Hm; rewrite (Hgood m Hm); reflexivity).
  destruct (filter (fun m => (1 <? cnt m)%Z) ms) as [|m0 good]; reflexivity.
Qed.
