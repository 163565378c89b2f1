(** * Negation of binary64 numbers. *)
From Coq Require Import ZArith List Bool Lia Reals Lra.
From Flocq Require Import Core.Core IEEE754.BinarySingleNaN IEEE754.PrimFloat Plus_error.
From Coq Require Import Floats SpecFloat.
From Verif Require Import Base Num NumF NpList SimProofs ModelDev.
Import ListNotations.
Local Open Scope Z_scope.
Local Notation float := Coq.Floats.PrimFloat.float.

(** equal (n = false) or opposite (n = true), not looking at the sign of a zero *)
Definition sf_rel (n : bool) (x y : spec_float) : Prop :=
  (exists s s', x = S754_zero s /\ y = S754_zero s') \/ y = if n then SFopp x else x.
Definition opposite (a b : float) : Prop := sf_rel true (Prim2SF a) (Prim2SF b).
Definition same_number (a b : float) : Prop := sf_rel false (Prim2SF a) (Prim2SF b).

Section SF.
Variable prec emax : Z.
Lemma bra_opp s m e l : binary_round_aux prec emax (negb s) m e l = SFopp (binary_round_aux prec emax s m e l).
Proof.
  unfold binary_round_aux. destruct (shr_fexp prec emax m e l) as [r e1].
  destruct (shr_fexp prec emax (round_nearest_even (shr_m r) (loc_of_shr_record r)) e1 loc_Exact) as [r2 e2].
  destruct (shr_m r2) as [|p|p]; cbn [SFopp]; try reflexivity. now destruct (Zle_bool e2 (emax - prec)).
Qed.
Lemma bra_xor s t m e l : binary_round_aux prec emax (xorb s t) m e l = if t then SFopp (binary_round_aux prec emax s m e l) else binary_round_aux prec emax s m e l.
Proof. destruct t; [rewrite xorb_true_r; apply bra_opp|now rewrite xorb_false_r]. Qed.
Lemma br_opp s m e : binary_round prec emax (negb s) m e = SFopp (binary_round prec emax s m e).
Proof. unfold binary_round. match goal with |- context [shl_align ?a ?b ?c] => destruct (shl_align a b c) end. apply bra_opp. Qed.
Lemma norm_opp z e : z <> 0 -> binary_normalize prec emax (- z) e false = SFopp (binary_normalize prec emax z e false).
Proof. destruct z; cbn; intros H; [contradiction|apply (br_opp false)|apply (br_opp true)]. Qed.
Lemma norm_rel (n : bool) (z : Z) (z' : Z) e : z' = (if n then - z else z) ->
  sf_rel n (binary_normalize prec emax z e false) (binary_normalize prec emax z' e false).
Proof.
  intros ->. destruct n; [|now right]. destruct (Z.eq_dec z 0) as [->|Hz]; [left; cbn; eauto|]. right. now apply norm_opp.
Qed.
Lemma cond_negb s z : cond_Zopp (negb s) z = - cond_Zopp s z.
Proof. destruct s; cbn [cond_Zopp negb]; lia. Qed.

Ltac zero := left; eauto.
Lemma add_rel n x x' y y' : sf_rel n x x' -> sf_rel n y y' -> sf_rel n (SFadd prec emax x y) (SFadd prec emax x' y').
Proof.
  intros [(s & s' & -> & ->) | ->] [(t & t' & -> & ->) | ->].
  - left. cbn. destruct (Bool.eqb s t), (Bool.eqb s' t'); eauto.
  - destruct n, y as [t|t| |t m e]; cbn; try (now right). all: left; destruct (Bool.eqb s t); try destruct (Bool.eqb s' (negb t)); try destruct (Bool.eqb s' t); eauto.
  - destruct n, x as [s|s| |s m e]; cbn; try (now right). all: left; destruct (Bool.eqb s t); try destruct (Bool.eqb (negb s) t'); try destruct (Bool.eqb s t'); eauto.
  - destruct n; [|now right]. destruct x as [s|s| |s m e], y as [t|t| |t m' e']; cbn; try (now right).
    + left. destruct s, t; cbn; eauto.
    + right. destruct s, t; reflexivity.
    + apply (norm_rel true). cbn [negb]. rewrite !cond_negb. cbn. lia.
Qed.
Lemma sub_rel n x x' y y' : sf_rel n x x' -> sf_rel n y y' -> sf_rel n (SFsub prec emax x y) (SFsub prec emax x' y').
Proof.
  intros [(s & s' & -> & ->) | ->] [(t & t' & -> & ->) | ->].
  - left. cbn. destruct (Bool.eqb s (negb t)), (Bool.eqb s' (negb t')); eauto.
  - destruct n, y as [t|t| |t m e]; cbn; try (now right). all: left; destruct (Bool.eqb s (negb t)); try destruct (Bool.eqb s' (negb (negb t))); try destruct (Bool.eqb s' (negb t)); eauto.
  - destruct n, x as [s|s| |s m e]; cbn; try (now right). all: left; destruct (Bool.eqb s (negb t)); try destruct (Bool.eqb (negb s) (negb t')); try destruct (Bool.eqb s (negb t')); eauto.
  - destruct n; [|now right]. destruct x as [s|s| |s m e], y as [t|t| |t m' e']; cbn; try (now right).
    + left. destruct s, t; cbn; eauto.
    + right. destruct s, t; reflexivity.
    + apply (norm_rel true). cbn [negb]. rewrite !cond_negb. cbn. lia.
Qed.
(** a - b against (-b) - (-a) *)
Lemma sub_swap x x' y y' : sf_rel true x x' -> sf_rel true y y' -> sf_rel false (SFsub prec emax x y) (SFsub prec emax y' x').
Proof.
  intros [(s & s' & -> & ->) | ->] [(t & t' & -> & ->) | ->].
  - left. cbn. destruct (Bool.eqb s (negb t)), (Bool.eqb t' (negb s')); eauto.
  - destruct y as [t|t| |t m e]; cbn; try (now right). left. destruct (Bool.eqb s (negb t)), (Bool.eqb (negb t) (negb s')); eauto.
  - destruct x as [s|s| |s m e]; cbn; rewrite ?negb_involutive; try (now right). left. destruct s, t, t'; cbn; eauto.
  - destruct x as [s|s| |s m e], y as [t|t| |t m' e']; cbn; rewrite ?negb_involutive; try (now right).
    + left. destruct s, t; cbn; eauto.
    + right. destruct s, t; reflexivity.
    + rewrite (Z.min_comm e' e). apply (norm_rel false). rewrite !cond_negb. cbn. lia.
Qed.
Lemma mul_rel n x x' y y' k : sf_rel n x x' -> sf_rel k y y' -> sf_rel (xorb n k) (SFmul prec emax x y) (SFmul prec emax x' y').
Proof.
  intros [(s & s' & -> & ->) | ->] [(t & t' & -> & ->) | ->].
  - left. cbn. eauto.
  - destruct k, y as [t|t| |t m e]; cbn; try (left; now eauto); right; destruct n; reflexivity.
  - destruct n, x as [s|s| |s m e]; cbn; try (left; now eauto); right; destruct k; reflexivity.
  - destruct n, k, x as [s|s| |s m e], y as [t|t| |t m' e']; cbn -[binary_round_aux];
      rewrite ?xorb_false_r; try (left; now eauto); right; cbn; try reflexivity;
      try (destruct s, t; reflexivity); destruct s, t; cbn [xorb negb]; try reflexivity; first [apply (bra_opp true)|apply (bra_opp false)].
Qed.
Lemma sq_rel n x x' : sf_rel n x x' -> SFmul prec emax x x = SFmul prec emax x' x'.
Proof.
  intros [(s & s' & -> & ->) | ->]; [cbn; now destruct s, s'|]. destruct n; [|reflexivity].
  destruct x as [s|s| |s m e]; cbn; try reflexivity; now destruct s.
Qed.
Lemma div_rel n x x' y : sf_rel n x x' -> sf_rel n (SFdiv prec emax x y) (SFdiv prec emax x' y).
Proof.
  intros [(s & s' & -> & ->) | ->].
  - destruct y as [t|t| |t m e]; cbn; try (left; now eauto); right; destruct n; reflexivity.
  - destruct n; [|now right]. destruct x as [s|s| |s m e], y as [t|t| |t m' e']; cbn -[SFdiv_core_binary]; try (left; now eauto); right; cbn -[SFdiv_core_binary]; try reflexivity;
      try (destruct s, t; reflexivity).
    destruct (SFdiv_core_binary _ _ _ _ _ _) as [[q e1] l]. destruct s, t; cbn [xorb negb]; first [apply (bra_opp true)|apply (bra_opp false)].
Qed.
End SF.

Lemma SFcompare_opp x y : SFcompare (SFopp x) (SFopp y) = SFcompare y x.
Proof.
  destruct x as [s|s| |s m e], y as [t|t| |t m' e']; cbn; try reflexivity; try (destruct s, t; reflexivity); try (destruct s; reflexivity); try (destruct t; reflexivity).
  destruct s, t; cbn; try reflexivity.
  - rewrite (Z.compare_antisym e e'). destruct (e ?= e')%Z; cbn; try reflexivity.
    rewrite <- (Pos.compare_cont_antisym m m' Eq : _ = Pos.compare_cont Eq m' m). now rewrite CompOpp_involutive.
  - rewrite (Z.compare_antisym e e'). destruct (e ?= e')%Z; cbn; try reflexivity.
    now rewrite (Pos.compare_cont_antisym m m' Eq).
Qed.
Lemma cmp_rel x x' y y' : sf_rel true x x' -> sf_rel true y y' -> SFcompare x' y' = SFcompare y x.
Proof.
  intros [(s & s' & -> & ->) | ->] [(t & t' & -> & ->) | ->].
  - reflexivity.
  - destruct y as [t|t| |t m e]; cbn; try reflexivity; now destruct t.
  - destruct x as [s|s| |s m e]; cbn; try reflexivity; now destruct s.
  - apply SFcompare_opp.
Qed.
Lemma cmp_same x x' y y' : sf_rel false x x' -> sf_rel false y y' -> SFcompare x' y' = SFcompare x y.
Proof.
  intros [(s & s' & -> & ->) | ->] [(t & t' & -> & ->) | ->]; try reflexivity.
Qed.

(** ** the same on primitive floats *)
Lemma isnan_SF x : PrimFloat.is_nan x = match Prim2SF x with S754_nan => true | _ => false end.
Proof.
  unfold PrimFloat.is_nan. rewrite eqb_spec. unfold SFeqb. destruct (Prim2SF x) as [s|s| |s m e]; cbn; try reflexivity; destruct s; cbn; try reflexivity;
  rewrite Z.compare_refl; rewrite (Pos.compare_refl m : Pos.compare_cont Eq m m = Eq); reflexivity.
Qed.
Lemma isnan_rel n a b : sf_rel n (Prim2SF a) (Prim2SF b) -> PrimFloat.is_nan b = PrimFloat.is_nan a.
Proof.
  intros H. rewrite !isnan_SF. destruct H as [(s & s' & -> & ->) | ->]; [reflexivity|]. destruct n; [|reflexivity]. now destruct (Prim2SF a).
Qed.
Lemma opposite_opp a : opposite a (- a)%float.
Proof. unfold opposite. rewrite opp_spec. now right. Qed.
Lemma opposite_zero : opposite (ofZ 0) (ofZ 0).
Proof. left. exists false, false. split; reflexivity. Qed.

Theorem sign_sim : sim opposite eq eq.
Proof.
  split.
  - exact opposite_zero.
  - intros a a' b b' Ha Hb. unfold opposite. cbn [nadd FNum]. rewrite !add_spec. now apply add_rel.
  - intros a a' b b' Ha Hb. unfold opposite. cbn [nsub FNum]. rewrite !sub_spec. now apply sub_rel.
  - intros c a a' Ha. unfold opposite. cbn [nmul FNum]. rewrite !mul_spec. apply (mul_rel _ _ false _ _ _ _ true); [now right|exact Ha].
  - intros c a a' Ha. unfold opposite. cbn [nmul FNum]. rewrite !mul_spec. apply (mul_rel _ _ true _ _ _ _ false); [exact Ha|now right].
  - intros c a a' Ha. unfold opposite. cbn [ndiv FNum]. rewrite !div_spec. now apply div_rel.
  - intros a a' Ha. exact (isnan_rel true _ _ Ha).
  - reflexivity.
  - intros a a' Ha. cbn [nmul FNum]. apply Prim2SF_inj. rewrite !mul_spec. exact (sq_rel _ _ true _ _ Ha).
  - intros; congruence.
  - intros; congruence.
  - intros; congruence.
  - intros; congruence.
  - reflexivity.
  - intros; congruence.
  - intros; congruence.
  - intros; congruence.
  - intros; congruence.
Qed.
Theorem sign_order : sim_order opposite eq same_number false.
Proof.
  split.
  - intros a a' b b' Ha Hb. cbn [nltb FNum]. rewrite !ltb_spec. unfold SFltb. now rewrite (cmp_rel _ _ _ _ Ha Hb).
  - intros a a' b b' Ha Hb. unfold same_number. cbn [nsub FNum]. rewrite !sub_spec. now apply sub_swap.
  - intros a a' Ha. exact (isnan_rel false _ _ Ha).
  - intros a a' b b' Ha Hb. cbn [nltb FNum]. rewrite !ltb_spec. unfold SFltb. now rewrite (cmp_same _ _ _ _ Ha Hb).
  - intros a a' Ha. cbn [nmul FNum]. apply Prim2SF_inj. rewrite !mul_spec. exact (sq_rel _ _ false _ _ Ha).
  - intros c a a' Ha. unfold same_number. cbn [ndiv FNum]. rewrite !div_spec. now apply div_rel.
Qed.
Theorem sign_grad : sim_grad eq eq.
Proof. split; intros; congruence. Qed.

(** ** a running sum that starts at +0 never becomes -0 *)
Local Instance p53 : Prec_gt_0 53 := eq_refl.
Local Existing Instance Hmax.
Local Existing Instance Hprec.
Definition not_mzero (x : float) : Prop := Prim2SF x <> S754_zero true.
Lemma add_same x y y' : not_mzero x -> same_number y y' -> (x + y)%float = (x + y')%float.
Proof.
  intros Hx Hy. apply Prim2SF_inj. rewrite !add_spec. destruct Hy as [(t & t' & Ht & Ht') | ->]; [|reflexivity]. rewrite Ht, Ht'.
  unfold not_mzero in Hx. destruct (Prim2SF x) as [s|s| |s m f]; cbn; try reflexivity.
  destruct s; [now contradiction Hx|]. now destruct t, t'.
Qed.
Lemma add_not_mzero x y : not_mzero x -> not_mzero (x + y)%float.
Proof.
  unfold not_mzero. rewrite <- !B2SF_Prim2B, add_equiv. set (a := Prim2B x). set (b := Prim2B y). clearbody a b. intros Ha E.
  assert (Fa : BinarySingleNaN.is_finite a = true).
  { destruct a as [s|s| |s m e Hm]; try reflexivity; exfalso; destruct b as [t|t| |t m' e' Hm']; try discriminate E. destruct s, t; discriminate E. }
  assert (Fb : BinarySingleNaN.is_finite b = true).
  { destruct b as [t|t| |t m e Hm]; try reflexivity; exfalso; destruct a as [s|s| |s m' e' Hm']; discriminate. }
  pose proof (Bplus_correct prec emax Hprec Hmax mode_NE a b Fa Fb) as HC.
  destruct (Rlt_bool _ _).
  - destruct HC as (HR & _ & HS).
    assert (Z0 : Bplus mode_NE a b = B754_zero true) by (apply B2SF_inj; exact E). rewrite Z0 in HR, HS. cbn [B2R Bsign] in HR, HS.
    assert (Hz : (B2R a + B2R b = 0)%R).
    { destruct (Req_dec (B2R a + B2R b) 0) as [Hz|Hz]; [exact Hz|]. exfalso.
      refine (round_plus_neq_0 radix2 (SpecFloat.fexp prec emax) (round_mode mode_NE) _ _ _ _ Hz (eq_sym HR)); apply generic_format_B2R. }
    rewrite Hz, Rcompare_Eq in HS by reflexivity. symmetry in HS. apply andb_prop in HS. destruct HS as [Sa Sb].
    destruct a as [s|s| |s m e Hm]; try discriminate Fa; cbn [Bsign] in Sa; subst s; [now apply Ha|].
    assert (La : (B2R (B754_finite true m e Hm : binary_float prec emax) < 0)%R) by (cbn [B2R]; apply F2R_lt_0; reflexivity).
    destruct b as [t|t| |t m' e' Hm']; try discriminate Fb; cbn [Bsign] in Sb; subst t.
    + cbn [B2R] in *. lra.
    + assert (Lb : (B2R (B754_finite true m' e' Hm' : binary_float prec emax) < 0)%R) by (cbn [B2R]; apply F2R_lt_0; reflexivity). lra.
  - destruct HC as [HC _]. rewrite E in HC. cbn in HC. discriminate.
Qed.
Lemma fold_same l l' : Forall2 same_number l l' -> forall a, not_mzero a -> fold_left PrimFloat.add l a = fold_left PrimFloat.add l' a.
Proof.
  intros Hl. induction Hl as [|b b' l l' Hb Hl IH]; intros a Ha; [reflexivity|]. cbn [fold_left].
  rewrite (add_same a b b' Ha Hb). apply IH. now apply add_not_mzero.
Qed.
Theorem sign_cov : sim_cov opposite eq.
Proof.
  split.
  - intros l l' Hl. apply (fold_same l l'); [|intros C; discriminate C]. revert Hl.
    induction 1 as [|a a' l l' (u & u' & v & v' & Hu & Hv & -> & ->) Hl IH]; constructor; [|exact IH].
    unfold same_number. cbn [nmul FNum]. rewrite !mul_spec. apply (mul_rel _ _ true _ _ _ _ true); assumption.
  - intros; congruence.
  - intros; congruence.
Qed.
