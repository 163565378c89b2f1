(** * Binary64 arithmetic: the primitive floats as rounded reals (Flocq). *)
From Coq Require Import ZArith Floats Uint63 Reals Lra Lia Psatz List Bool.
From Flocq Require Import Core.Core IEEE754.BinarySingleNaN IEEE754.PrimFloat Relative.
From Verif Require Import Num NumF.
Import ListNotations.
Local Open Scope R_scope.

(** Real value and finiteness of a float. *)
Definition fR (x : Coq.Floats.PrimFloat.float) : R := B2R (Prim2B x).
Definition ffin (x : Coq.Floats.PrimFloat.float) : Prop := is_finite (Prim2B x) = true.
(** Rounding to nearest even in binary64. *)
Definition rnd (r : R) : R := round radix2 (SpecFloat.fexp prec emax) (round_mode mode_NE) r.
Definition u64 : R := / 2 ^ 53.

Lemma rnd_FLT r : rnd r = round radix2 (FLT_exp (-1074) 53) ZnearestE r.
Proof. reflexivity. Qed.

Lemma Rlt_bool_true' r : Rabs (rnd r) < bpow radix2 emax -> Rlt_bool (Rabs (rnd r)) (bpow radix2 emax) = true.
Proof. apply Rlt_bool_true. Qed.

Lemma fadd_ok x y : ffin x -> ffin y -> Rabs (rnd (fR x + fR y)) < bpow radix2 1024 ->
  ffin (x + y)%float /\ fR (x + y)%float = rnd (fR x + fR y).
Proof.
  intros Fx Fy B. unfold ffin, fR. rewrite add_equiv.
  pose proof (Bplus_correct prec emax Hprec Hmax mode_NE (Prim2B x) (Prim2B y) Fx Fy) as H.
  fold (fR x) (fR y) in H. fold (rnd (fR x + fR y)) in H. rewrite Rlt_bool_true in H by exact B. tauto.
Qed.
Lemma fsub_ok x y : ffin x -> ffin y -> Rabs (rnd (fR x - fR y)) < bpow radix2 1024 ->
  ffin (x - y)%float /\ fR (x - y)%float = rnd (fR x - fR y).
Proof.
  intros Fx Fy B. unfold ffin, fR. rewrite sub_equiv.
  pose proof (Bminus_correct prec emax Hprec Hmax mode_NE (Prim2B x) (Prim2B y) Fx Fy) as H.
  fold (fR x) (fR y) in H. fold (rnd (fR x - fR y)) in H. rewrite Rlt_bool_true in H by exact B. tauto.
Qed.
Lemma fmul_ok x y : ffin x -> ffin y -> Rabs (rnd (fR x * fR y)) < bpow radix2 1024 ->
  ffin (x * y)%float /\ fR (x * y)%float = rnd (fR x * fR y).
Proof.
  intros Fx Fy B. unfold ffin, fR. rewrite mul_equiv.
  pose proof (Bmult_correct prec emax Hprec Hmax mode_NE (Prim2B x) (Prim2B y)) as H.
  fold (fR x) (fR y) in H. fold (rnd (fR x * fR y)) in H. rewrite Rlt_bool_true in H by exact B.
  destruct H as (H1 & H2 & _). rewrite H1, H2. unfold ffin in *. rewrite Fx, Fy. auto.
Qed.
Lemma fdiv_ok x y : ffin x -> fR y <> 0 -> Rabs (rnd (fR x / fR y)) < bpow radix2 1024 ->
  ffin (x / y)%float /\ fR (x / y)%float = rnd (fR x / fR y).
Proof.
  intros Fx Ny B. unfold ffin, fR. rewrite div_equiv.
  pose proof (Bdiv_correct prec emax Hprec Hmax mode_NE (Prim2B x) (Prim2B y) Ny) as H.
  fold (fR x) (fR y) in H. fold (rnd (fR x / fR y)) in H. rewrite Rlt_bool_true in H by exact B.
  destruct H as (H1 & H2 & _). rewrite H1, H2. auto.
Qed.
Lemma fsqrt_ok x : ffin x -> 0 <= fR x -> ffin (Coq.Floats.PrimFloat.sqrt x) /\ fR (Coq.Floats.PrimFloat.sqrt x) = rnd (R_sqrt.sqrt (fR x)).
Proof.
  intros Fx Px. unfold ffin, fR. rewrite sqrt_equiv.
  destruct (Bsqrt_correct prec emax Hprec Hmax mode_NE (Prim2B x)) as (H1 & H2 & _).
  split; [|exact H1]. rewrite H2. unfold ffin, fR in *. destruct (Prim2B x) as [s|s| |s m e Hb]; try discriminate; try reflexivity.
  destruct s; [|reflexivity]. exfalso. cbn in Px.
  assert (F2R (Float radix2 (Z.neg m) e) < 0) by (apply F2R_lt_0; reflexivity). lra.
Qed.
Lemma fopp_ok x : (ffin x -> ffin (- x)%float) /\ fR (- x)%float = - fR x.
Proof. unfold ffin, fR. rewrite opp_equiv, is_finite_Bopp, B2R_Bopp. auto. Qed.
Lemma fabs_ok x : (ffin x -> ffin (Coq.Floats.PrimFloat.abs x)) /\ fR (Coq.Floats.PrimFloat.abs x) = Rabs (fR x).
Proof. unfold ffin, fR. rewrite abs_equiv, is_finite_Babs, B2R_Babs. auto. Qed.

Lemma fltb_ok x y : ffin x -> ffin y -> Coq.Floats.PrimFloat.ltb x y = Rlt_bool (fR x) (fR y).
Proof. intros. rewrite ltb_equiv. now apply Bltb_correct. Qed.
Lemma fleb_ok x y : ffin x -> ffin y -> Coq.Floats.PrimFloat.leb x y = Rle_bool (fR x) (fR y).
Proof. intros. rewrite leb_equiv. now apply Bleb_correct. Qed.
Lemma feqb_ok x y : ffin x -> ffin y -> Coq.Floats.PrimFloat.eqb x y = Req_bool (fR x) (fR y).
Proof. intros. rewrite eqb_equiv. now apply Beqb_correct. Qed.

(** integers up to 2^53 are exact *)
Lemma int_format z : (Z.abs z <= 2 ^ 53)%Z -> generic_format radix2 (FLT_exp (-1074) 53) (IZR z).
Proof.
  intro H. destruct (Z.eq_dec (Z.abs z) (2 ^ 53)) as [E|N].
  - assert (Q : generic_format radix2 (FLT_exp (-1074) 53) (bpow radix2 53)) by (apply generic_format_bpow; cbn; lia).
    assert (P : bpow radix2 53 = IZR (2 ^ 53)) by reflexivity.
    destruct (Z.abs_spec z) as [[_ A]|[_ A]].
    + rewrite <- A, E, <- P. exact Q.
    + replace z with (- (2 ^ 53))%Z by lia. rewrite opp_IZR, <- P. now apply generic_format_opp.
  - apply generic_format_FLT. exists (Float radix2 z 0); cbn; [unfold F2R; cbn; ring| |lia].
    change (Z.pow_pos 2 53) with (2 ^ 53)%Z. lia.
Qed.
Lemma rnd_int z : (Z.abs z <= 2 ^ 53)%Z -> rnd (IZR z) = IZR z.
Proof. intro H. rewrite rnd_FLT. apply round_generic; [typeclasses eauto|now apply int_format]. Qed.
Lemma rnd_generic x : rnd (fR x) = fR x.
Proof. rewrite rnd_FLT. apply round_generic; [typeclasses eauto|]. apply (generic_format_B2R prec emax). Qed.

Lemma fofZ_ok z : (Z.abs z <= 2 ^ 53)%Z -> ffin (f_ofZ z) /\ fR (f_ofZ z) = IZR z.
Proof.
  intro H.
  assert (A : ffin (Coq.Floats.PrimFloat.of_uint63 (Uint63.of_Z (Z.abs z))) /\ fR (Coq.Floats.PrimFloat.of_uint63 (Uint63.of_Z (Z.abs z))) = IZR (Z.abs z)).
  { unfold ffin, fR. rewrite of_int63_equiv.
    assert (E : to_Z (Uint63.of_Z (Z.abs z)) = Z.abs z).
    { rewrite of_Z_spec. apply Z.mod_small. change wB with (2 ^ 63)%Z. lia. }
    rewrite E.
    pose proof (binary_normalize_correct prec emax Hprec Hmax mode_NE (Z.abs z) 0 false) as N. cbv zeta in N.
    replace (F2R (Float radix2 (Z.abs z) 0)) with (IZR (Z.abs z)) in N by (unfold F2R; cbn; ring).
    fold (rnd (IZR (Z.abs z))) in N. rewrite rnd_int in N by lia.
    rewrite Rlt_bool_true in N; [tauto|].
    rewrite <- abs_IZR. apply Rle_lt_trans with (IZR (2 ^ 53)); [apply IZR_le; lia|].
    change (IZR (2 ^ 53)) with (bpow radix2 53). apply bpow_lt. reflexivity. }
  unfold f_ofZ. rewrite (proj2 (Z.ltb_lt (Z.abs z) (2 ^ 62))) by lia. cbv zeta. destruct (z <? 0)%Z eqn:S.
  - apply Z.ltb_lt in S. destruct (fopp_ok (Coq.Floats.PrimFloat.of_uint63 (Uint63.of_Z (Z.abs z)))) as [F V]. split; [now apply F|].
    rewrite V, (proj2 A), <- opp_IZR. f_equal. lia.
  - apply Z.ltb_ge in S. split; [apply A|]. rewrite (proj2 A). f_equal. lia.
Qed.

(** integers of any size below the overflow threshold are rounded once *)
Lemma fofZ_round z : Rabs (rnd (IZR z)) < bpow radix2 1024 -> ffin (f_ofZ z) /\ fR (f_ofZ z) = rnd (IZR z).
Proof.
  intro B.
  assert (G : forall a, Rabs (rnd (IZR a)) < bpow radix2 1024 ->
     is_finite (binary_normalize prec emax Hprec Hmax mode_NE a 0 false) = true /\
     B2R (binary_normalize prec emax Hprec Hmax mode_NE a 0 false) = rnd (IZR a)).
  { intros a Ha. pose proof (binary_normalize_correct prec emax Hprec Hmax mode_NE a 0 false) as N. cbv zeta in N.
    replace (F2R (Float radix2 a 0)) with (IZR a) in N by (unfold F2R; cbn; ring).
    fold (rnd (IZR a)) in N. rewrite Rlt_bool_true in N by exact Ha. tauto. }
  unfold f_ofZ. destruct (Z.ltb_spec (Z.abs z) (2 ^ 62)) as [S|S].
  - cbv zeta.
    assert (E : to_Z (Uint63.of_Z (Z.abs z)) = Z.abs z).
    { rewrite of_Z_spec. apply Z.mod_small. change wB with (2 ^ 63)%Z. lia. }
    assert (Ra : rnd (IZR (Z.abs z)) = Rabs (rnd (IZR z))).
    { rewrite abs_IZR, !rnd_FLT. apply round_NE_abs. now apply FLT_exp_valid. }
    destruct (G (Z.abs z)) as [F V]; [now rewrite Ra, Rabs_Rabsolu|].
    assert (A : ffin (Coq.Floats.PrimFloat.of_uint63 (Uint63.of_Z (Z.abs z))) /\
                fR (Coq.Floats.PrimFloat.of_uint63 (Uint63.of_Z (Z.abs z))) = rnd (IZR (Z.abs z))).
    { unfold ffin, fR. rewrite of_int63_equiv, E. auto. }
    destruct (z <? 0)%Z eqn:L.
    + apply Z.ltb_lt in L. destruct (fopp_ok (Coq.Floats.PrimFloat.of_uint63 (Uint63.of_Z (Z.abs z)))) as [F' V']. split; [apply F', A|].
      rewrite V', (proj2 A). replace (IZR (Z.abs z)) with (- IZR z) by (rewrite <- opp_IZR; f_equal; lia).
      rewrite !(rnd_FLT (- IZR z)), (rnd_FLT (IZR z)), round_NE_opp. ring.
    + apply Z.ltb_ge in L. rewrite Z.abs_eq in * by lia. exact A.
  - unfold ffin, fR. change FloatOps.prec with prec. change FloatOps.emax with emax.
    rewrite binary_normalize_equiv. change (SF2Prim (B2SF ?b)) with (B2Prim b). rewrite Prim2B_B2Prim. now apply G.
Qed.

(** ** Rounding errors *)
Lemma u64_pos : 0 < u64.
Proof. apply Rinv_0_lt_compat. lra. Qed.
Lemma half_ulp : / 2 * bpow radix2 (-53 + 1) = u64.
Proof. unfold u64. change (bpow radix2 (-53 + 1)) with (/ IZR (Z.pow_pos 2 52)). cbn. field. Qed.

Lemma rnd_rel r : bpow radix2 (-1022) <= Rabs r -> Rabs (rnd r - r) <= u64 * Rabs r.
Proof.
  intro H. rewrite rnd_FLT, <- half_ulp. apply (relative_error_N_FLT radix2 (-1074) 53 (eq_refl _)).
  exact H.
Qed.
Lemma rnd_rel_ex r : bpow radix2 (-1022) <= Rabs r -> exists e, Rabs e <= u64 /\ rnd r = r * (1 + e).
Proof.
  intro H. rewrite rnd_FLT, <- half_ulp. apply (relative_error_N_FLT_ex radix2 (-1074) 53 (eq_refl _)). exact H.
Qed.

(** ** f_rint is rounding to the nearest integer, ties to even *)
Lemma z_rint_div m d : (0 < d)%Z -> (0 <= m)%Z ->
  (let q := (m / d)%Z in let r := (m mod d)%Z in
   if (2 * r <? d)%Z then q else if (d <? 2 * r)%Z then (q + 1)%Z else if Z.even q then q else (q + 1)%Z)
  = ZnearestE (IZR m / IZR d).
Proof.
  intros Hd Hm. cbv zeta. pose proof (Z.div_mod m d ltac:(lia)) as E. pose proof (Z.mod_pos_bound m d Hd) as B.
  set (q := (m / d)%Z) in *. set (r := (m mod d)%Z) in *.
  assert (Pd : 0 < IZR d) by (now apply IZR_lt).
  assert (V : IZR m / IZR d = IZR q + IZR r / IZR d) by (rewrite E, plus_IZR, mult_IZR; field; lra).
  assert (F : Zfloor (IZR m / IZR d) = q).
  { apply Zfloor_imp. rewrite V, plus_IZR. assert (0 <= IZR r / IZR d < 1); [|lra].
    split; [apply Rmult_le_pos; [apply IZR_le; lia|left; now apply Rinv_0_lt_compat]|].
    apply (Rmult_lt_reg_r (IZR d)); [exact Pd|]. unfold Rdiv. rewrite Rmult_assoc, Rinv_l, Rmult_1_l, Rmult_1_r by lra.
    apply IZR_lt. lia. }
  unfold Znearest. rewrite F.
  assert (D : IZR m / IZR d - IZR q = IZR r / IZR d) by lra. rewrite D.
  assert (C : forall a b : Z, (IZR r / IZR d < / 2 <-> (2 * r < d)%Z) /\ (/ 2 < IZR r / IZR d <-> (d < 2 * r)%Z)).
  { intros _ _. assert (X : IZR (2 * r) = 2 * IZR r) by (rewrite mult_IZR; reflexivity).
    assert (Y : IZR r = IZR r / IZR d * IZR d) by (field; lra).
    split; split; intro Q.
    - apply lt_IZR. rewrite X, Y. nra.
    - apply IZR_lt in Q. rewrite X, Y in Q. nra.
    - apply lt_IZR. rewrite X, Y. nra.
    - apply IZR_lt in Q. rewrite X, Y in Q. nra. }
  specialize (C 0%Z 0%Z). destruct C as [C1 C2].
  assert (Cl : Zceil (IZR m / IZR d) = (q + 1)%Z \/ r = 0%Z).
  { destruct (Z.eq_dec r 0) as [->|N]; [now right|left].
    rewrite Zceil_floor_neq; [now rewrite F|]. rewrite F, V. intro Q.
    assert (0 < IZR r / IZR d) by (apply Rmult_lt_0_compat; [apply IZR_lt; lia|now apply Rinv_0_lt_compat]). lra. }
  destruct (Z.ltb_spec (2 * r) d) as [L|L].
  - rewrite Rcompare_Lt by (now apply C1). reflexivity.
  - assert (Cl' : Zceil (IZR m / IZR d) = (q + 1)%Z) by (destruct Cl; [assumption|lia]).
    destruct (Z.ltb_spec d (2 * r)) as [G|G].
    + rewrite Rcompare_Gt by (now apply C2). now rewrite Cl'.
    + rewrite Rcompare_Eq.
      * rewrite Cl'. now destruct (Z.even q).
      * assert (E2 : (d = 2 * r)%Z) by lia. rewrite E2, mult_IZR. field.
        apply not_0_IZR. lia.
Qed.

Lemma f_rint_ok x : ffin x -> f_rint x = Some (ZnearestE (fR x)).
Proof.
  intro F. unfold f_rint, ffin, fR in *. rewrite <- B2SF_Prim2B.
  destruct (Prim2B x) as [s|s| |s m e Hb]; try discriminate; cbn [B2SF B2R].
  - replace (ZnearestE 0) with 0%Z; [reflexivity|]. symmetry. apply (Zrnd_IZR ZnearestE 0).
  - assert (P : z_rint (Z.pos m) e = ZnearestE (F2R (Float radix2 (Z.pos m) e))).
    { unfold z_rint, F2R. cbn [Fnum Fexp]. destruct (Z.leb_spec 0 e) as [L|L].
      - rewrite <- (IZR_Zpower radix2 e L), <- mult_IZR, (Zrnd_IZR ZnearestE). reflexivity.
      - pose proof (z_rint_div (Z.pos m) (2 ^ (- e))) as ZR. cbv zeta in ZR |- *.
        rewrite ZR by (try lia; apply Z.pow_pos_nonneg; lia).
        f_equal. unfold Rdiv. f_equal.
        change 2%Z with (radix_val radix2). rewrite (IZR_Zpower radix2) by lia. rewrite bpow_opp, Rinv_inv. reflexivity. }
    rewrite P. destruct s; cbn [cond_Zopp].
    + f_equal.
      change (Z.neg m) with (- Z.pos m)%Z. rewrite F2R_Zopp, Znearest_opp. f_equal.
      unfold Znearest. destruct (Rcompare _ _); try reflexivity.
      rewrite Z.even_opp, Z.even_add. change (Z.even 1) with false. destruct (Z.even (Zfloor _)); reflexivity.
    + reflexivity.
Qed.

Lemma near_int_exact r z : Rabs (r - IZR z) < / 2 -> ZnearestE r = z.
Proof. intro H. apply Znearest_imp. exact H. Qed.

(** value of a given float *)
Lemma fR_SF x : fR x = SF2R radix2 (Prim2SF x).
Proof. unfold fR. rewrite <- B2SF_Prim2B. symmetry. apply SF2R_B2SF. Qed.
Lemma ffin_SF x : ffin x <-> is_finite_SF (Prim2SF x) = true.
Proof. unfold ffin. rewrite <- B2SF_Prim2B. now rewrite is_finite_SF_B2SF. Qed.
