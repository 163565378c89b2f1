(** * Infinities and NaN: the special values of binary64 against the extended reals. *)
From Coq Require Import ZArith Floats Reals Lra Lia Psatz List Bool.
From Flocq Require Import Core.Core IEEE754.BinarySingleNaN IEEE754.PrimFloat.
From Verif Require Import Num NumF NumR NumX FloatFacts FloatErr.
Import ListNotations.
Local Open Scope R_scope.
Local Notation float := Coq.Floats.PrimFloat.float.

(** value of a binary64 number: a real, an infinity or NaN (the two zeros are not told apart) *)
Definition toX (f : float) : ext :=
  match Prim2SF f with S754_nan => NaN | S754_infinity s => Inf s | _ => Fin (fR f) end.
Definition is_fin (a : ext) : bool := match a with Fin _ => true | _ => false end.

Lemma toX_fin f : ffin f <-> toX f = Fin (fR f).
Proof. rewrite ffin_SF. unfold toX. destruct (Prim2SF f); cbn; split; intros; try discriminate; reflexivity. Qed.
Lemma toX_finb f : is_fin (toX f) = true <-> ffin f.
Proof. rewrite ffin_SF. unfold toX. destruct (Prim2SF f); cbn; split; intros; try discriminate; reflexivity. Qed.
Lemma toX_Fin f r : toX f = Fin r -> ffin f /\ fR f = r.
Proof. intros H. assert (F : ffin f) by (apply toX_finb; now rewrite H). split; [exact F|]. apply toX_fin in F. congruence. Qed.

Lemma SF2R_sign s m e : x_sign (SF2R radix2 (S754_finite s m e)) = Some s.
Proof.
  unfold x_sign. cbn [SF2R]. destruct s; cbn [cond_Zopp].
  - assert (F2R (Float radix2 (Z.neg m) e) < 0) by (apply F2R_lt_0; reflexivity). destruct (Rlt_dec _ _); [reflexivity|contradiction].
  - assert (0 < F2R (Float radix2 (Z.pos m) e)) by (apply F2R_gt_0; reflexivity).
    destruct (Rlt_dec _ _); [lra|]. destruct (Rlt_dec _ _); [reflexivity|contradiction].
Qed.
Lemma x_sign_0 : x_sign 0 = None.
Proof. unfold x_sign. destruct (Rlt_dec 0 0); [lra|reflexivity]. Qed.

Definition nonfinite (a : ext) : Prop := is_fin a = false.

(** value of a spec_float *)
Definition svX (f : spec_float) : ext :=
  match f with S754_nan => NaN | S754_infinity s => Inf s | _ => Fin (SF2R radix2 f) end.
Lemma toX_sv f : toX f = svX (Prim2SF f).
Proof. unfold toX, svX. rewrite fR_SF. destruct (Prim2SF f); reflexivity. Qed.

Ltac sv := intros; rewrite ?toX_sv, ?add_spec, ?sub_spec, ?mul_spec, ?div_spec, ?sqrt_spec, ?abs_spec in *.

Lemma X_add a b : nonfinite (toX a) \/ nonfinite (toX b) -> toX (a + b)%float = x_add (toX a) (toX b).
Proof.
  sv. destruct (Prim2SF a) as [s|s| |s m e], (Prim2SF b) as [t|t| |t n d]; cbn in *; try (destruct H; discriminate); try reflexivity.
  destruct s, t; reflexivity.
Qed.
Lemma X_sub a b : nonfinite (toX a) \/ nonfinite (toX b) -> toX (a - b)%float = x_sub (toX a) (toX b).
Proof.
  sv. destruct (Prim2SF a) as [s|s| |s m e], (Prim2SF b) as [t|t| |t n d]; cbn in *; try (destruct H; discriminate); try reflexivity.
  destruct s, t; reflexivity.
Qed.
Lemma X_mul a b : nonfinite (toX a) \/ nonfinite (toX b) -> toX (a * b)%float = x_mul (toX a) (toX b).
Proof.
  sv. destruct (Prim2SF a) as [s|s| |s m e], (Prim2SF b) as [t|t| |t n d]; try (destruct H; discriminate); try reflexivity;
    cbn [svX x_mul]; rewrite ?SF2R_sign; cbn [SF2R]; rewrite ?x_sign_0; cbn; try reflexivity; now rewrite xorb_comm.
Qed.
Lemma X_div a b : nonfinite (toX a) \/ nonfinite (toX b) \/ toX b = Fin 0 -> Prim2SF b <> S754_zero true ->
  toX (a / b)%float = x_div (toX a) (toX b).
Proof.
  sv. destruct (Prim2SF b) as [t|t| |t n d].
  - destruct t; [contradiction|]. destruct (Prim2SF a) as [s|s| |s m e]; cbn [svX x_div]; rewrite ?SF2R_sign; cbn [SF2R]; rewrite ?x_sign_0;
      try (destruct (Req_EM_T 0 0); [|lra]); try reflexivity; try (destruct s; reflexivity).
  - destruct (Prim2SF a) as [s|s| |s m e]; reflexivity.
  - destruct (Prim2SF a) as [s|s| |s m e]; reflexivity.
  - assert (Hnz : SF2R radix2 (S754_finite t n d) <> 0).
    { intros E. pose proof (SF2R_sign t n d) as G. rewrite E, x_sign_0 in G. discriminate. }
    destruct (Prim2SF a) as [s|s| |s m e]; try (destruct H as [H|[H|H]]; [discriminate|discriminate|injection H as H; contradiction]).
    + cbn [svX x_div]. rewrite SF2R_sign. reflexivity.
    + reflexivity.
Qed.
Lemma X_sqrt a : (forall r, toX a = Fin r -> r < 0) -> toX (Coq.Floats.PrimFloat.sqrt a) = x_sqrt (toX a).
Proof.
  sv. destruct (Prim2SF a) as [s|s| |s m e].
  - exfalso. pose proof (H _ eq_refl) as C. cbn in C. lra.
  - destruct s; reflexivity.
  - reflexivity.
  - pose proof (H _ eq_refl) as C. destruct s.
    + cbn [svX x_sqrt]. destruct (Rlt_dec _ _); [reflexivity|contradiction].
    + exfalso. cbn in C. assert (0 < F2R (Float radix2 (Z.pos m) e)) by (apply F2R_gt_0; reflexivity). lra.
Qed.
Lemma X_abs a : toX (Coq.Floats.PrimFloat.abs a) = x_abs (toX a).
Proof.
  destruct (is_fin (toX a)) eqn:E.
  - apply toX_finb in E. destruct (fabs_ok a) as [F V]. rewrite (proj1 (toX_fin a) E). rewrite (proj1 (toX_fin _) (F E)), V. reflexivity.
  - sv. destruct (Prim2SF a) as [s|s| |s m e]; try discriminate; reflexivity.
Qed.
Lemma Rlt_bool_Rltb x y : Rlt_bool x y = Rltb x y.
Proof. unfold Rltb. destruct (Rlt_bool_spec x y), (Rlt_dec x y); auto; lra. Qed.
Lemma Rle_bool_Rleb x y : Rle_bool x y = Rleb x y.
Proof. unfold Rleb. destruct (Rle_bool_spec x y), (Rle_dec x y); auto; lra. Qed.
Lemma Req_bool_Reqb x y : Req_bool x y = Reqb x y.
Proof. unfold Reqb. destruct (Req_bool_spec x y), (Req_EM_T x y); auto; contradiction. Qed.
Ltac both_fin a b l := destruct (is_fin (toX a)) eqn:Ea; [destruct (is_fin (toX b)) eqn:Eb;
  [apply toX_finb in Ea; apply toX_finb in Eb; rewrite (proj1 (toX_fin a) Ea), (proj1 (toX_fin b) Eb); rewrite l by assumption|]|].
Lemma X_ltb a b : Coq.Floats.PrimFloat.ltb a b = x_ltb (toX a) (toX b).
Proof.
  both_fin a b fltb_ok; [cbn; now rewrite Rlt_bool_Rltb|..]; rewrite FloatAxioms.ltb_spec; rewrite ?toX_sv in *;
    destruct (Prim2SF a) as [s|s| |s m e], (Prim2SF b) as [t|t| |t n d]; try discriminate; try reflexivity; destruct s; try reflexivity; destruct t; reflexivity.
Qed.
Lemma X_eqb a b : Coq.Floats.PrimFloat.eqb a b = x_eqb (toX a) (toX b).
Proof.
  both_fin a b feqb_ok; [cbn; now rewrite Req_bool_Reqb|..]; rewrite FloatAxioms.eqb_spec; rewrite ?toX_sv in *;
    destruct (Prim2SF a) as [s|s| |s m e], (Prim2SF b) as [t|t| |t n d]; try discriminate; try reflexivity; destruct s; try reflexivity; destruct t; reflexivity.
Qed.
Lemma X_leb a b : Coq.Floats.PrimFloat.leb a b = x_leb (toX a) (toX b).
Proof.
  both_fin a b fleb_ok; [cbn; now rewrite Rle_bool_Rleb|..]; rewrite FloatAxioms.leb_spec; rewrite ?toX_sv in *;
    destruct (Prim2SF a) as [s|s| |s m e], (Prim2SF b) as [t|t| |t n d]; try discriminate; try reflexivity; destruct s; try reflexivity; destruct t; reflexivity.
Qed.
Lemma X_isnan a : Coq.Floats.PrimFloat.is_nan a = match toX a with NaN => true | _ => false end.
Proof.
  unfold Coq.Floats.PrimFloat.is_nan. rewrite X_eqb. destruct (toX a) as [r|s|]; cbn; [|destruct s; reflexivity|reflexivity].
  unfold Reqb. destruct (Req_EM_T r r); [reflexivity|contradiction].
Qed.
Lemma X_rint a : nonfinite (toX a) -> f_rint a = None /\ f_trunc a = None.
Proof. unfold f_rint, f_trunc. sv. destruct (Prim2SF a); try discriminate; auto. Qed.

(** ** what is used of an arithmetic with special values *)
Definition nonneg (a : ext) : Prop := match a with Fin r => 0 <= r | Inf s => s = false | NaN => False end.
Record special {A : Type} {NA : Num A} (sp : A -> ext) (rd : R -> R) : Prop := {
  sp_add : forall a b, nonfinite (sp a) \/ nonfinite (sp b) -> sp (nadd a b) = x_add (sp a) (sp b);
  sp_sub : forall a b, nonfinite (sp a) \/ nonfinite (sp b) -> sp (nsub a b) = x_sub (sp a) (sp b);
  sp_mul : forall a b, nonfinite (sp a) \/ nonfinite (sp b) -> sp (nmul a b) = x_mul (sp a) (sp b);
  sp_div : forall a b, nonfinite (sp a) \/ nonfinite (sp b) -> sp b <> Fin 0 -> sp (ndiv a b) = x_div (sp a) (sp b);
  sp_sqrt : forall a, nonfinite (sp a) -> sp (nsqrt a) = x_sqrt (sp a);
  sp_ltb : forall a b, nltb a b = x_ltb (sp a) (sp b);
  sp_nan : forall a, nisnan a = match sp a with NaN => true | _ => false end;
  sp_fadd : forall a b x y, sp a = Fin x -> sp b = Fin y -> Rabs (x + y) <= bpow radix2 1000 -> sp (nadd a b) = Fin (rd (x + y));
  sp_fsub : forall a b x y, sp a = Fin x -> sp b = Fin y -> Rabs (x - y) <= bpow radix2 1000 -> sp (nsub a b) = Fin (rd (x - y));
  sp_fmul : forall a b x y, sp a = Fin x -> sp b = Fin y -> Rabs (x * y) <= bpow radix2 1000 -> sp (nmul a b) = Fin (rd (x * y));
  sp_fdiv : forall a b x y, sp a = Fin x -> sp b = Fin y -> y <> 0 -> Rabs (x / y) <= bpow radix2 1000 -> sp (ndiv a b) = Fin (rd (x / y));
  sp_fsqrt : forall a x, sp a = Fin x -> 0 <= x -> sp (nsqrt a) = Fin (rd (sqrt x));
  sp_ofZ : forall z, (Z.abs z <= 2 ^ 1000)%Z -> sp (ofZ z) = Fin (rd (IZR z));
  sp_addnn : forall a b x y, sp a = Fin x -> sp b = Fin y -> 0 <= x -> 0 <= y -> nonneg (sp (nadd a b));
  sp_sqnn : forall a x, sp a = Fin x -> nonneg (sp (nmul a a));
  rd_le : forall x y, x <= y -> rd x <= rd y;
  rd_fix : forall n e, (Z.abs n <= 2 ^ 53)%Z -> (-1000 <= e <= 1000)%Z -> rd (IZR n * bpow radix2 e) = IZR n * bpow radix2 e
}.

Lemma special_ext : special (fun a : ext => a) (fun r => r).
Proof.
  split; try reflexivity; try (intros; subst; reflexivity).
  - intros a b x y -> -> Hy _. cbn. destruct (Req_EM_T y 0); [contradiction|reflexivity].
  - intros a x -> Hx. cbn. destruct (Rlt_dec x 0); [lra|reflexivity].
  - intros a b x y -> -> Hx Hy. cbn. lra.
  - intros a x ->. cbn. nra.
  - auto.
Qed.

Lemma B2SF_overflow_pos (f : binary_float prec emax) : B2SF f = binary_overflow prec emax mode_NE false -> f = B754_infinity false.
Proof. destruct f as [s|s| |s m e H]; cbn; intros E; try discriminate. now injection E as ->. Qed.
Lemma toX_inf (f : float) s : Prim2B f = B754_infinity s -> toX f = Inf s.
Proof. intros H. unfold toX. rewrite <- B2SF_Prim2B, H. reflexivity. Qed.
Lemma rnd_le x y : x <= y -> rnd x <= rnd y.
Proof. intros H. rewrite !rnd_FLT. apply round_le; [apply FLT_exp_valid; reflexivity|apply valid_rnd_N|exact H]. Qed.
Lemma rnd_fix n e : (Z.abs n <= 2 ^ 53)%Z -> (-1000 <= e <= 1000)%Z -> rnd (IZR n * bpow radix2 e) = IZR n * bpow radix2 e.
Proof.
  intros Hn He. rewrite rnd_FLT. apply round_generic; [apply valid_rnd_N|].
  destruct (Z.eq_dec (Z.abs n) (2 ^ 53)) as [E|N].
  - assert (Q : generic_format radix2 (FLT_exp (-1074) 53) (IZR (2 ^ 53) * bpow radix2 e)).
    { change (IZR (2 ^ 53)) with (bpow radix2 53). rewrite <- bpow_plus. apply generic_format_bpow. unfold FLT_exp. lia. }
    destruct (Z.abs_spec n) as [[_ A]|[_ A]].
    + now replace n with (2 ^ 53)%Z by lia.
    + replace n with (- (2 ^ 53))%Z by lia. rewrite opp_IZR, Ropp_mult_distr_l_reverse. now apply generic_format_opp.
  - apply generic_format_FLT. exists (Float radix2 n e); [reflexivity| |cbn; lia]. cbn [Fnum]. change (Zpower radix2 53) with (2 ^ 53)%Z. lia.
Qed.
Lemma rnd_nonneg x : 0 <= x -> 0 <= rnd x.
Proof. intros H. replace 0 with (rnd 0); [now apply rnd_le|]. pose proof (rnd_fix 0 0 ltac:(lia) ltac:(lia)) as E. rewrite Rmult_0_l in E. exact E. Qed.

Lemma special_float : @special float FNum toX rnd.
Proof.
  split; cbn [nadd nsub nmul ndiv nsqrt nltb nisnan ofZ FNum].
  - exact X_add.
  - exact X_sub.
  - exact X_mul.
  - intros a b H Hz. apply X_div; [tauto|]. intros C. apply Hz. rewrite toX_sv, C. reflexivity.
  - intros a H. apply X_sqrt. intros r E. rewrite E in H. discriminate.
  - exact X_ltb.
  - exact X_isnan.
  - intros a b x y Ha Hb B. apply toX_Fin in Ha as [Fa <-]. apply toX_Fin in Hb as [Fb <-].
    destruct (fadd_ok a b Fa Fb (rnd_bound _ B)) as [F V]. rewrite <- V. now apply toX_fin.
  - intros a b x y Ha Hb B. apply toX_Fin in Ha as [Fa <-]. apply toX_Fin in Hb as [Fb <-].
    destruct (fsub_ok a b Fa Fb (rnd_bound _ B)) as [F V]. rewrite <- V. now apply toX_fin.
  - intros a b x y Ha Hb B. apply toX_Fin in Ha as [Fa <-]. apply toX_Fin in Hb as [Fb <-].
    destruct (fmul_ok a b Fa Fb (rnd_bound _ B)) as [F V]. rewrite <- V. now apply toX_fin.
  - intros a b x y Ha Hb Hy B. apply toX_Fin in Ha as [Fa <-]. apply toX_Fin in Hb as [Fb <-].
    destruct (fdiv_ok a b Fa Hy (rnd_bound _ B)) as [F V]. rewrite <- V. now apply toX_fin.
  - intros a x Ha Hx. apply toX_Fin in Ha as [Fa <-]. destruct (fsqrt_ok a Fa Hx) as [F V]. rewrite <- V. now apply toX_fin.
  - intros z Hz. destruct (fofZ_round z) as [F V].
    { apply rnd_bound. rewrite <- abs_IZR. replace (bpow radix2 1000) with (IZR (2 ^ 1000)) by (rewrite (IZR_Zpower radix2) by lia; reflexivity).
      now apply IZR_le. }
    rewrite <- V. now apply toX_fin.
  - intros a b x y Ha Hb Hx Hy. apply toX_Fin in Ha as [Fa <-]. apply toX_Fin in Hb as [Fb <-].
    destruct (Rlt_dec (Rabs (rnd (fR a + fR b))) (bpow radix2 1024)) as [L|L].
    + destruct (fadd_ok a b Fa Fb L) as [F V]. rewrite (proj1 (toX_fin _) F), V. cbn. apply rnd_nonneg. lra.
    + pose proof (Bplus_correct prec emax Hprec Hmax mode_NE (Prim2B a) (Prim2B b) Fa Fb) as H.
      fold (fR a) (fR b) in H. fold (rnd (fR a + fR b)) in H. rewrite Rlt_bool_false in H by (apply Rnot_lt_le in L; exact L).
      destruct H as [H Hs]. assert (Sg : Bsign (Prim2B a) = false).
      { destruct (Bsign (Prim2B a)) eqn:E; [exfalso|reflexivity]. symmetry in Hs.
        assert (Hneg : forall f, ffin f -> 0 <= fR f -> Bsign (Prim2B f) = true -> fR f = 0).
        { clear. intros f F H E. unfold fR, ffin in *. destruct (Prim2B f) as [s|s| |s m e Hb]; try discriminate; [reflexivity|].
          cbn in E. subst s. exfalso. cbn in H. assert (F2R (Float radix2 (Z.neg m) e) < 0) by (apply F2R_lt_0; reflexivity). lra. }
        rewrite (Hneg a Fa Hx E), (Hneg b Fb Hy Hs) in L. rewrite Rplus_0_r in L.
        pose proof (rnd_fix 0 0 ltac:(lia) ltac:(lia)) as Z0. rewrite Rmult_0_l in Z0. rewrite Z0, Rabs_R0 in L. apply L, bpow_gt_0. }
      rewrite Sg in H. apply B2SF_overflow_pos in H. rewrite <- add_equiv in H. rewrite (toX_inf _ _ H). reflexivity.
  - intros a x Ha. apply toX_Fin in Ha as [Fa <-].
    destruct (Rlt_dec (Rabs (rnd (fR a * fR a))) (bpow radix2 1024)) as [L|L].
    + destruct (fmul_ok a a Fa Fa L) as [F V]. rewrite (proj1 (toX_fin _) F), V. cbn. apply rnd_nonneg. nra.
    + pose proof (Bmult_correct prec emax Hprec Hmax mode_NE (Prim2B a) (Prim2B a)) as H.
      fold (fR a) in H. fold (rnd (fR a * fR a)) in H. rewrite Rlt_bool_false in H by (apply Rnot_lt_le in L; exact L).
      rewrite xorb_nilpotent in H. apply B2SF_overflow_pos in H. rewrite <- mul_equiv in H. rewrite (toX_inf _ _ H). reflexivity.
  - exact rnd_le.
  - exact rnd_fix.
Qed.
