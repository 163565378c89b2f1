(** * Accuracy of three_cornered_hat_phase in binary64 (C117). *)
From Coq Require Import ZArith Floats Reals Lra Lia Psatz Ascii String List Bool Permutation.
From Flocq Require Import Core.Core IEEE754.BinarySingleNaN.
From Verif Require Import Base Num NpList NumF NumR ListFacts Spec RSum ModelCore ModelDev ModelMisc FloatFacts FloatErr
  GenericProofs TauProofs TauLaws DevProofs TotProofs Laws Laws2 Laws3 NanProofs PropsFloatTau PropsFloatErr PropsFloatMtie PropsFloatMdev PropsFloatMore PropsFloatCov MiscProofs.
Import ListNotations.
Local Open Scope R_scope.
Local Notation len := List.length.
Local Notation float := Coq.Floats.PrimFloat.float.
Local Notation fsqrt := Coq.Floats.PrimFloat.sqrt.

(** ** The three-cornered hat *)
(** rows whose deviation is non-negative, not huge, and within [E] of the exact one *)
Definition within_E (E : row -> R) (r : row) : Prop :=
  ffin (r_dF r) /\ 0 <= fR (r_dF r) <= bpow radix2 400 /\ 0 <= r_dR r /\ Rabs (fR (r_dF r) - r_dR r) <= E r.
Definition agree_E (rate : float) (E : row -> R) (resF : res (@result float)) (resR : res (@result R)) (rows : list row) : Prop :=
  resF = Ok (tableF rate rows) /\ resR = Ok (tableR (fR rate) rows) /\ Forall (within_E E) rows.

Definition hat_F (a b c : float) : float :=
  let v := (f_ofZ 1 / f_ofZ 2 * (nsq a + nsq c - nsq b))%float in fsqrt (if Coq.Floats.PrimFloat.ltb v (f_ofZ 0) then f_ofZ 0 else v).
Definition hat_R (a b c : R) : R := R_sqrt.sqrt (Rmax 0 ((a ^ 2 + c ^ 2 - b ^ 2) / 2)).

Lemma half_F : ffin (f_ofZ 1 / f_ofZ 2)%float /\ fR (f_ofZ 1 / f_ofZ 2)%float = / 2.
Proof.
  destruct (fofZ_ok 1 ltac:(lia)) as [F1 V1]. destruct (fofZ_ok 2 ltac:(lia)) as [F2 V2].
  assert (E : rnd (fR (f_ofZ 1) / fR (f_ofZ 2)) = / 2).
  { rewrite V1, V2. rewrite rnd_FLT. replace (1 / 2) with (bpow radix2 (-1)) by (change (bpow radix2 (-1)) with (/ 2); lra). change (/ 2) with (bpow radix2 (-1)). apply round_generic; [typeclasses eauto|].
    apply generic_format_bpow; cbn; lia. }
  destruct (fdiv_ok (f_ofZ 1) (f_ofZ 2) F1) as [F V]; [rewrite V2; lra|rewrite E, Rabs_pos_eq by lra; apply Rlt_le_trans with (bpow radix2 0); [cbn; lra|apply bpow_le; lia]|]. rewrite E in V. auto.
Qed.

Lemma sq_err a : ffin a -> 0 <= fR a <= bpow radix2 400 -> let v := nsq a in ffin v /\ Rabs (fR v - fR a ^ 2) <= u64 * fR a ^ 2 + eta /\ 0 <= fR a ^ 2 <= bpow radix2 800.
Proof.
  intros F [P B] v. assert (B2 : 0 <= fR a ^ 2 <= bpow radix2 800).
  { split; [apply pow2_ge_0|]. change 800%Z with (400 + 400)%Z. rewrite bpow_plus. cbn [pow]. rewrite Rmult_1_r. apply Rmult_le_compat; assumption. }
  unfold v, nsq. cbn [nmul FNum]. destruct (fmul_err a a F F) as [F' E].
  - replace (fR a * fR a) with (fR a ^ 2) by ring. rewrite Rabs_pos_eq by lra. eapply Rle_trans; [apply B2|apply bpow_le; lia].
  - replace (fR a * fR a) with (fR a ^ 2) in E by ring. rewrite (Rabs_pos_eq (fR a ^ 2)) in E by lra. auto.
Qed.

Lemma rel_step (r t S g h e w : R) : Rabs (w - r) <= u64 * Rabs r + e -> Rabs (r - t) <= g * S + h -> Rabs t <= S ->
  Rabs (w - t) <= ((1 + u64) * (1 + g) - 1) * S + ((1 + u64) * h + e).
Proof.
  intros H1 H2 H3. pose proof u64_pos as Pu. replace (w - t) with ((w - r) + (r - t)) by ring. eapply Rle_trans; [apply Rabs_triang|].
  assert (Rabs r <= S + (g * S + h)). { replace r with (t + (r - t)) by ring. eapply Rle_trans; [apply Rabs_triang|]. lra. }
  assert (u64 * Rabs r <= u64 * (S + (g * S + h))) by (apply Rmult_le_compat_l; lra).
  replace (((1 + u64) * (1 + g) - 1) * S + ((1 + u64) * h + e)) with (u64 * (S + (g * S + h)) + e + (g * S + h)) by ring. lra.
Qed.

Lemma hat_F_err a b c : ffin a -> ffin b -> ffin c -> 0 <= fR a <= bpow radix2 400 -> 0 <= fR b <= bpow radix2 400 -> 0 <= fR c <= bpow radix2 400 ->
  ffin (hat_F a b c) /\ 0 <= fR (hat_F a b c) /\
  Rabs (fR (hat_F a b c) ^ 2 - Rmax 0 ((fR a ^ 2 + fR c ^ 2 - fR b ^ 2) / 2)) <= ((1 + u64) ^ 6 - 1) * ((fR a ^ 2 + fR b ^ 2 + fR c ^ 2) / 2) + 4 * eta.
Proof.
  intros Fa Fb Fc Ba Bb Bc. unfold hat_F. destruct (sq_err a Fa Ba) as (Fa2 & Ea & Pa). destruct (sq_err b Fb Bb) as (Fb2 & Eb & Pb). destruct (sq_err c Fc Bc) as (Fc2 & Ec & Pc).
  pose proof u64_pos as Pu. pose proof eta_pos as Pe. assert (U1 : u64 <= / 4096) by (unfold u64; lra).
  assert (E1 : eta <= bpow radix2 800) by (apply bpow_le; lia).
  assert (BB : 100 * bpow radix2 800 <= bpow radix2 1000) by (apply Rle_trans with (bpow radix2 7 * bpow radix2 800); [apply Rmult_le_compat_r; [apply bpow_ge_0|cbn; lra]|rewrite <- bpow_plus; apply bpow_le; lia]).
  set (A := fR a ^ 2) in *. set (B := fR b ^ 2) in *. set (C := fR c ^ 2) in *. set (S := A + B + C). assert (PS : 0 <= S) by (unfold S; lra).
  clearbody A B C. set (na := nsq a) in *. set (nb := nsq b) in *. set (nc := nsq c) in *. clearbody na nb nc.
  assert (SB : S <= 3 * bpow radix2 800) by (unfold S; lra). set (K8 := bpow radix2 800) in *. set (K10 := bpow radix2 1000) in *. clearbody K8.
  assert (Ue : 0 <= u64 * eta <= / 4096 * eta) by (split; [apply Rmult_le_pos; lra|apply Rmult_le_compat_r; lra]).
  assert (g2 : 0 <= (1 + u64) ^ 2 - 1 <= / 1000) by (cbn [pow]; nra).
  assert (g3 : 0 <= (1 + u64) ^ 3 - 1 <= / 1000) by (cbn [pow]; nra).
  assert (g4 : 0 <= (1 + u64) ^ 4 - 1).
  { replace ((1 + u64) ^ 4) with ((1 + u64) ^ 2 * (1 + u64) ^ 2) by ring. set (q := (1 + u64) ^ 2) in *. nra. }
  assert (E2 : Rabs (fR na + fR nc - (A + C)) <= u64 * (A + C) + 2 * eta).
  { apply Rabs_le_inv in Ea, Ec. apply Rabs_le. rewrite Rmult_plus_distr_l. lra. }
  assert (uAC : 0 <= u64 * (A + C) <= / 4096 * (A + C)) by (split; [apply Rmult_le_pos; lra|apply Rmult_le_compat_r; lra]).
  assert (uB : 0 <= u64 * B <= / 4096 * B) by (split; [apply Rmult_le_pos; lra|apply Rmult_le_compat_r; lra]).
  destruct (fadd_err na nc Fa2 Fc2) as [Fs Es]; [apply Rabs_le_inv in E2; apply Rabs_le; fold K10; lra|]. set (s := (na + nc)%float) in *. clearbody s.
  assert (Es' := rel_step (fR na + fR nc) (A + C) (A + C) u64 (2 * eta) 0 (fR s) ltac:(rewrite Rplus_0_r; exact Es) E2 ltac:(rewrite Rabs_pos_eq; lra)).
  replace ((1 + u64) * (1 + u64)) with ((1 + u64) ^ 2) in Es' by ring.
  assert (E3 : Rabs (fR s - fR nb - (A + C - B)) <= ((1 + u64) ^ 2 - 1) * S + 4 * eta).
  { assert (u64 * B <= ((1 + u64) ^ 2 - 1) * B) by (apply Rmult_le_compat_r; [lra|cbn [pow]; nra]).
    replace (((1 + u64) ^ 2 - 1) * S) with (((1 + u64) ^ 2 - 1) * (A + C) + ((1 + u64) ^ 2 - 1) * B) by (unfold S; ring).
    replace ((1 + u64) * (2 * eta) + 0) with (2 * eta + 2 * (u64 * eta)) in Es' by ring. apply Rabs_le_inv in Es', Eb. apply Rabs_le. lra. }
  assert (S2 : 0 <= ((1 + u64) ^ 2 - 1) * S <= / 1000 * S) by (split; [apply Rmult_le_pos; lra|apply Rmult_le_compat_r; lra]).
  destruct (fsub_err s nb Fs Fb2) as [Fd Ed]; [apply Rabs_le_inv in E3; apply Rabs_le; unfold S in *; fold K10; lra|]. set (d := (s - nb)%float) in *. clearbody d.
  assert (Ed' := rel_step (fR s - fR nb) (A + C - B) S ((1 + u64) ^ 2 - 1) (4 * eta) 0 (fR d) ltac:(rewrite Rplus_0_r; exact Ed) E3 ltac:(apply Rabs_le; unfold S; lra)).
  replace ((1 + u64) * (1 + ((1 + u64) ^ 2 - 1))) with ((1 + u64) ^ 3) in Ed' by ring. replace ((1 + u64) * (4 * eta) + 0) with (4 * eta + 4 * (u64 * eta)) in Ed' by ring.
  assert (S3 : 0 <= ((1 + u64) ^ 3 - 1) * S <= / 1000 * S) by (split; [apply Rmult_le_pos; lra|apply Rmult_le_compat_r; lra]).
  destruct half_F as [Fh Vh]. set (T := (A + C - B) / 2) in *.
  assert (E4 : Rabs (/ 2 * fR d - T) <= ((1 + u64) ^ 3 - 1) * (S / 2) + (2 * eta + 2 * (u64 * eta))).
  { replace (((1 + u64) ^ 3 - 1) * (S / 2)) with (((1 + u64) ^ 3 - 1) * S / 2) by field. unfold T. apply Rabs_le_inv in Ed'. apply Rabs_le. lra. }
  destruct (fmul_err _ d Fh Fd) as [Fv Ev]; [rewrite Vh; apply Rabs_le_inv in Ed'; apply Rabs_le; unfold S in *; fold K10; lra|]. rewrite Vh in Ev. set (v := (f_ofZ 1 / f_ofZ 2 * d)%float) in *.
  assert (Ev' := rel_step _ T (S / 2) _ _ eta (fR v) Ev E4 ltac:(apply Rabs_le; unfold T, S; lra)).
  replace ((1 + u64) * (1 + ((1 + u64) ^ 3 - 1))) with ((1 + u64) ^ 4) in Ev' by ring.
  assert (Ev2 : Rabs (fR v - T) <= ((1 + u64) ^ 4 - 1) * (S / 2) + 7 / 2 * eta).
  { eapply Rle_trans; [exact Ev'|]. apply Rplus_le_compat_l. assert (0 <= u64 * (u64 * eta) <= / 4096 * (u64 * eta)) by (split; [apply Rmult_le_pos; lra|apply Rmult_le_compat_r; lra]).
    replace ((1 + u64) * (2 * eta + 2 * (u64 * eta))) with (2 * eta + 4 * (u64 * eta) + 2 * (u64 * (u64 * eta))) by ring. lra. }
  destruct (fofZ_ok 0 ltac:(lia)) as [F0 V0].
  set (w := if Coq.Floats.PrimFloat.ltb v (f_ofZ 0) then f_ofZ 0 else v).
  assert (Hw : ffin w /\ fR w = Rmax 0 (fR v)).
  { unfold w. rewrite fltb_ok, V0 by assumption. destruct (Rlt_bool_spec (fR v) 0) as [L|L]; [rewrite Rmax_left, V0 by lra; auto|rewrite Rmax_right by lra; auto]. }
  destruct Hw as [Fw Vw]. assert (Pw : 0 <= fR w) by (rewrite Vw; apply Rmax_l).
  assert (EW : Rabs (fR w - Rmax 0 T) <= ((1 + u64) ^ 4 - 1) * (S / 2) + 7 / 2 * eta).
  { rewrite Vw. eapply Rle_trans; [|exact Ev2]. clear. unfold Rmax. destruct (Rle_dec 0 (fR v)), (Rle_dec 0 T); unfold Rabs; repeat destruct Rcase_abs; lra. }
  assert (BT : 0 <= Rmax 0 T <= S / 2) by (split; [apply Rmax_l|]; apply Rmax_lub; unfold T, S; lra).
  clearbody w. destruct (fsqrt_err w Fw Pw) as (Ft & Pt & Et). split; [exact Ft|]. split; [exact Pt|].
  pose proof (sq_diff _ _ u64 0 Pt (sqrt_pos (fR w)) ltac:(lra) ltac:(lra) ltac:(rewrite Rplus_0_r; exact Et)) as Q.
  replace (R_sqrt.sqrt (fR w) ^ 2) with (fR w) in Q by (cbn [pow]; rewrite Rmult_1_r, sqrt_sqrt; auto).
  assert (Q2 : Rabs (fR (fsqrt w) ^ 2 - fR w) <= ((1 + u64) ^ 2 - 1) * fR w).
  { eapply Rle_trans; [exact Q|]. rewrite ?Rplus_0_r, ?Rpow_mult_distr. cbn [pow]. rewrite !Rmult_1_r. rewrite ?(sqrt_sqrt (fR w) Pw). right. ring. }
  replace (fR (fsqrt w) ^ 2 - Rmax 0 T) with ((fR (fsqrt w) ^ 2 - fR w) + (fR w - Rmax 0 T)) by ring. eapply Rle_trans; [apply Rabs_triang|].
  assert (Bw : fR w <= (1 + u64) ^ 4 * (S / 2) + 7 / 2 * eta) by (apply Rabs_le_inv in EW; lra).
  assert (H1 : ((1 + u64) ^ 2 - 1) * fR w <= ((1 + u64) ^ 2 - 1) * ((1 + u64) ^ 4 * (S / 2) + 7 / 2 * eta)) by (apply Rmult_le_compat_l; lra).
  assert (H2 : ((1 + u64) ^ 2 - 1) * eta <= / 1000 * eta) by (apply Rmult_le_compat_r; lra).
  replace (((1 + u64) ^ 6 - 1) * ((A + B + C) / 2)) with (((1 + u64) ^ 2 - 1) * ((1 + u64) ^ 4 * (S / 2)) + ((1 + u64) ^ 4 - 1) * (S / 2)) by (unfold S; ring).
  rewrite Rmult_plus_distr_l in H1. replace (((1 + u64) ^ 2 - 1) * (7 / 2 * eta)) with (7 / 2 * (((1 + u64) ^ 2 - 1) * eta)) in H1 by field. lra.
Qed.

Lemma hat_close a b c x y z ea eb ec : ffin a -> ffin b -> ffin c -> 0 <= fR a <= bpow radix2 400 -> 0 <= fR b <= bpow radix2 400 -> 0 <= fR c <= bpow radix2 400 ->
  0 <= x -> 0 <= y -> 0 <= z -> Rabs (fR a - x) <= ea -> Rabs (fR b - y) <= eb -> Rabs (fR c - z) <= ec ->
  ffin (hat_F a b c) /\ 0 <= fR (hat_F a b c) /\
  Rabs (fR (hat_F a b c) ^ 2 - hat_R x y z ^ 2) <= ((1 + 7 * u64) * ((x + ea) ^ 2 + (y + eb) ^ 2 + (z + ec) ^ 2) - (x ^ 2 + y ^ 2 + z ^ 2)) / 2 + 4 * eta.
Proof.
  intros Fa Fb Fc Ba Bb Bc Px Py Pz Ea Eb Ec. destruct (hat_F_err a b c Fa Fb Fc Ba Bb Bc) as (F & P & E). split; [exact F|]. split; [exact P|].
  replace (hat_R x y z ^ 2) with (Rmax 0 ((x ^ 2 + z ^ 2 - y ^ 2) / 2)) by (unfold hat_R; cbn [pow]; rewrite !Rmult_1_r, sqrt_sqrt; [reflexivity|apply Rmax_l]).
  pose proof u64_pos as Pu. assert (U1 : u64 <= / 4096) by (unfold u64; lra).
  assert (G : forall p q e, 0 <= p -> 0 <= q -> Rabs (p - q) <= e -> Rabs (p ^ 2 - q ^ 2) <= (q + e) ^ 2 - q ^ 2 /\ p ^ 2 <= (q + e) ^ 2).
  { intros p q e Pp Pq H. apply Rabs_le_inv in H. split; [apply Rabs_le; split; nra|]. apply pow_incr. lra. }
  destruct (G (fR a) x ea) as [Ga Ga2]; try lra. destruct (G (fR b) y eb) as [Gb Gb2]; try lra. destruct (G (fR c) z ec) as [Gc Gc2]; try lra.
  set (A := fR a ^ 2) in *. set (B := fR b ^ 2) in *. set (C := fR c ^ 2) in *. set (X := (x + ea) ^ 2) in *. set (Y := (y + eb) ^ 2) in *. set (Z := (z + ec) ^ 2) in *.
  assert (PA : 0 <= A) by apply pow2_ge_0. assert (PB : 0 <= B) by apply pow2_ge_0. assert (PC : 0 <= C) by apply pow2_ge_0.
  replace (fR (hat_F a b c) ^ 2 - Rmax 0 ((x ^ 2 + z ^ 2 - y ^ 2) / 2)) with ((fR (hat_F a b c) ^ 2 - Rmax 0 ((A + C - B) / 2)) + (Rmax 0 ((A + C - B) / 2) - Rmax 0 ((x ^ 2 + z ^ 2 - y ^ 2) / 2))) by ring.
  eapply Rle_trans; [apply Rabs_triang|].
  assert (H : Rabs (Rmax 0 ((A + C - B) / 2) - Rmax 0 ((x ^ 2 + z ^ 2 - y ^ 2) / 2)) <= (X + Y + Z - (x ^ 2 + y ^ 2 + z ^ 2)) / 2).
  { apply Rabs_le_inv in Ga, Gb, Gc. unfold Rmax. destruct (Rle_dec 0 ((A + C - B) / 2)), (Rle_dec 0 ((x ^ 2 + z ^ 2 - y ^ 2) / 2)); unfold Rabs; repeat destruct Rcase_abs; lra. }
  assert (g6 : 0 <= (1 + u64) ^ 6 - 1 <= 7 * u64).
  { pose proof (pow_u_le 6 ltac:(lia)) as L. pose proof (pow_u_ge1 6). replace (INR 6) with 6 in L by (cbn; ring). lra. }
  assert (((1 + u64) ^ 6 - 1) * ((A + B + C) / 2) <= 7 * u64 * ((X + Y + Z) / 2)) by (apply Rmult_le_compat; lra). lra.
Qed.

Section Gen.
Context {A : Type} {NA : Num A}.
Local Open Scope num_scope.
Definition hat_gen (a b c : A) : A :=
  let v := ofZ 1 / ofZ 2 * (nsq a + nsq c - nsq b) in nsqrt (if nltb v (ofZ 0) then ofZ 0 else v).

Lemma tch_gen {T} (l : list T) (f g h : T -> A) (n : T -> Z) ab bc ca rate taus function t e t2 e2 n2 t3 e3 n3 :
  function ab rate "phase"%string taus = Ok (t, map f l, e, map n l) ->
  function bc rate "phase"%string taus = Ok (t2, map g l, e2, n2) ->
  function ca rate "phase"%string taus = Ok (t3, map h l, e3, n3) ->
  three_cornered_hat_phase ab bc ca rate taus function =
   Ok (t, map (fun x => hat_gen (f x) (g x) (h x)) l, EArr (map (fun x => hat_gen (f x) (g x) (h x) / nsqrt (ofZ (n x))) l), map n l).
Proof using.
  intros H1 H2 H3. unfold three_cornered_hat_phase. rewrite H1, H2, H3. cbn [bind].
  rewrite !map_length, Nat.eqb_refl. cbn [andb assert_ bind]. rewrite !map_map. unfold vadd, vsub, bmap2.
  rewrite !map_length, Nat.eqb_refl. cbn [bind]. rewrite map2_sep, !map_length, Nat.eqb_refl. cbn [bind]. rewrite map2_sep, !map_map, map2_sep. reflexivity.
Qed.

Lemma tch_gen_unequal ab bc ca rate taus function t d1 e n t2 d2 e2 n2 t3 d3 e3 n3 :
  function ab rate "phase"%string taus = Ok (t, d1, e, n) ->
  function bc rate "phase"%string taus = Ok (t2, d2, e2, n2) ->
  function ca rate "phase"%string taus = Ok (t3, d3, e3, n3) -> ~ (len d1 = len d2 /\ len d2 = len d3) ->
  three_cornered_hat_phase ab bc ca rate taus function = Err AssertionError.
Proof using.
  intros H1 H2 H3 L. unfold three_cornered_hat_phase. rewrite H1, H2, H3. cbn [bind].
  rewrite !map_length. destruct (Nat.eqb_spec (len d1) (len d2)); [|reflexivity].
  destruct (Nat.eqb_spec (len d2) (len d3)); [|reflexivity]. exfalso. apply L. split; congruence.
Qed.
End Gen.

Lemma zip3 {T} (a b c : list T) : len b = len a -> len c = len a -> exists l : list (T * T * T),
  map (fun x => fst (fst x)) l = a /\ map (fun x => snd (fst x)) l = b /\ map snd l = c.
Proof.
  revert b c. induction a as [|x a IH]; intros [|y b] [|z c] H1 H2; try discriminate; [exists []; auto|].
  destruct (IH b c) as (l & E1 & E2 & E3); cbn in *; try lia. exists ((x, y, z) :: l). cbn. rewrite E1, E2, E3. auto.
Qed.

Lemma tab_cong {A} (t t' d d' e e' : list A) (n n' : list Z) : t = t' -> d = d' -> e = e' -> n = n' -> Ok (t, d, EArr e, n) = Ok (t', d', EArr e', n').
Proof. now intros -> -> -> ->. Qed.

(** Two runs of a deviation function that either both find nothing to report, or tabulate the same
    averaging factors and counts with deviations within [E] of the exact ones. *)
Definition runs_agree (rate : float) (E : row -> R) (resF : res (@result float)) (resR : res (@result R)) : Prop :=
  (resF = Err UserWarning /\ resR = Err UserWarning) \/ exists rows, agree_E rate E resF resR rows.

(** the error allowed for a row of the hat computed from the rows [a], [b], [c] of the three pairs *)
Definition hat_tol (ea eb ec : R) (a b c : row) : R :=
  ((1 + 7 * u64) * ((r_dR a + ea) ^ 2 + (r_dR b + eb) ^ 2 + (r_dR c + ec) ^ 2) - (r_dR a ^ 2 + r_dR b ^ 2 + r_dR c ^ 2)) / 2 + 4 * eta.
Definition hat_row_ok (Ea Eb Ec : row -> R) (q : row * (row * row * row)) : Prop :=
  let '(r, (a, b, c)) := q in
  r_m r = r_m a /\ r_n r = r_n a /\ ffin (r_dF r) /\ 0 <= fR (r_dF r) /\
  Rabs (fR (r_dF r) ^ 2 - r_dR r ^ 2) <= hat_tol (Ea a) (Eb b) (Ec c) a b c.

(** The hat of any deviation function whose three runs agree: the same exception, or a table with the factors
    and counts of the first pair and the stated error in every squared deviation. *)
Theorem C117_any_function fF fRl ab bc ca rate tF (tR : taus_arg R) Ea Eb Ec :
  runs_agree rate Ea (fF ab rate "phase"%string tF) (fRl (map fR ab) (fR rate) "phase"%string tR) ->
  runs_agree rate Eb (fF bc rate "phase"%string tF) (fRl (map fR bc) (fR rate) "phase"%string tR) ->
  runs_agree rate Ec (fF ca rate "phase"%string tF) (fRl (map fR ca) (fR rate) "phase"%string tR) ->
  let resF := three_cornered_hat_phase ab bc ca rate tF fF in
  let resR := three_cornered_hat_phase (map fR ab) (map fR bc) (map fR ca) (fR rate) tR fRl in
  (exists e, In e [UserWarning; AssertionError] /\ resF = Err e /\ resR = Err e) \/
  exists q : list (row * (row * row * row)),
    agree_E rate Ea (fF ab rate "phase"%string tF) (fRl (map fR ab) (fR rate) "phase"%string tR) (map (fun p => fst (fst (snd p))) q) /\
    agree_E rate Eb (fF bc rate "phase"%string tF) (fRl (map fR bc) (fR rate) "phase"%string tR) (map (fun p => snd (fst (snd p))) q) /\
    agree_E rate Ec (fF ca rate "phase"%string tF) (fRl (map fR ca) (fR rate) "phase"%string tR) (map (fun p => snd (snd p)) q) /\
    resF = Ok (tableF rate (map fst q)) /\ resR = Ok (tableR (fR rate) (map fst q)) /\ Forall (hat_row_ok Ea Eb Ec) q.
Proof.
  intros [[F1 R1]|(ra & F1 & R1 & A1)] H2 H3 resF resR.
  { left. exists UserWarning. unfold resF, resR, three_cornered_hat_phase. rewrite F1, R1. cbn. auto. }
  destruct H2 as [[F2 R2]|(rb & F2 & R2 & A2)].
  { left. exists UserWarning. unfold resF, resR, three_cornered_hat_phase. rewrite F1, R1, F2, R2. cbn. auto. }
  destruct H3 as [[F3 R3]|(rc & F3 & R3 & A3)].
  { left. exists UserWarning. unfold resF, resR, three_cornered_hat_phase. rewrite F1, R1, F2, R2, F3, R3. cbn. auto. }
  unfold tableF in F1, F2, F3. unfold tableR in R1, R2, R3.
  destruct (Nat.eq_dec (len rb) (len ra)) as [L2|L2]; [destruct (Nat.eq_dec (len rc) (len ra)) as [L3|L3]|].
  2, 3: left; exists AssertionError; split; [right; left; reflexivity|]; split;
    [apply (tch_gen_unequal _ _ _ _ _ _ _ _ _ _ _ _ _ _ _ _ _ _ F1 F2 F3)|apply (tch_gen_unequal _ _ _ _ _ _ _ _ _ _ _ _ _ _ _ _ _ _ R1 R2 R3)]; rewrite !map_length; lia.
  right. destruct (zip3 ra rb rc L2 L3) as (l & <- & <- & <-). rewrite !map_map in F1, F2, F3, R1, R2, R3.
  pose proof (tch_gen l (fun x => r_dF (fst (fst x))) (fun x => r_dF (snd (fst x))) (fun x => r_dF (snd x)) (fun x => r_n (fst (fst x))) ab bc ca rate tF fF _ _ _ _ _ _ _ _ F1 F2 F3) as GF.
  pose proof (tch_gen l (fun x => r_dR (fst (fst x))) (fun x => r_dR (snd (fst x))) (fun x => r_dR (snd x)) (fun x => r_n (fst (fst x))) _ _ _ (fR rate) tR fRl _ _ _ _ _ _ _ _ R1 R2 R3) as GR.
  set (mk := fun x : row * row * row => let '(a, b, c) := x in
     Row (r_m a) (r_n a) (hat_gen (r_dF a) (r_dF b) (r_dF c)) (hat_gen (r_dF a) (r_dF b) (r_dF c) / fsqrt (f_ofZ (r_n a)))%float
         (hat_gen (r_dR a) (r_dR b) (r_dR c)) (hat_gen (r_dR a) (r_dR b) (r_dR c) / R_sqrt.sqrt (IZR (r_n a)))).
  exists (map (fun x => (mk x, x)) l). rewrite !map_map. cbn [fst snd]. unfold agree_E, tableF, tableR. rewrite !map_map.
  do 3 (split; [auto|]). split; [|split].
  - unfold resF. rewrite GF. apply tab_cong; apply map_ext; intros [[a b] c]; reflexivity.
  - unfold resR. rewrite GR. apply tab_cong; apply map_ext; intros [[a b] c]; reflexivity.
  - apply Forall_map. apply Forall_forall. intros [[a b] c] Hx. unfold hat_row_ok, mk. cbn [r_m r_n r_dF r_dR].
    rewrite Forall_forall in A1, A2, A3.
    destruct (A1 a) as (Fa & Ba & Pa & Ha); [apply in_map_iff; exists (a, b, c); auto|].
    destruct (A2 b) as (Fb & Bb & Pb & Hb); [apply in_map_iff; exists (a, b, c); auto|].
    destruct (A3 c) as (Fc & Bc & Pc & Hc); [apply in_map_iff; exists (a, b, c); auto|].
    split; [reflexivity|]. split; [reflexivity|].
    destruct (hat_close _ _ _ _ _ _ _ _ _ Fa Fb Fc Ba Bb Bc Pa Pb Pc Ha Hb Hc) as (F & P & Q).
    replace (hat_gen (r_dR a) (r_dR b) (r_dR c)) with (hat_R (r_dR a) (r_dR b) (r_dR c)).
    + split; [exact F|]. split; [exact P|exact Q].
    + unfold hat_gen, hat_R. rewrite clip_R, !nsq_R. cbn [nsqrt RNum]. f_equal. f_equal. cbn [nmul nadd nsub ndiv ofZ RNum]. field.
Qed.
Print Assumptions C117_any_function.

(** the four standard deviations are such functions *)
Definition tol (c : Z) (k M : R) (rate : float) (r : row) : R :=
  (1 + / 1000) * (IZR (r_n r + c) * u64) * r_dR r + k * u64 * M * (fR rate / IZR (r_m r)).

Lemma accurate_within c k M rate r N : accurate c k M rate r -> (0 <= c <= 100)%Z -> 0 <= k <= 100 -> 0 < M <= bpow radix2 200 -> moderate_rate rate -> (1 <= r_m r)%Z ->
  (0 <= r_n r <= N)%Z -> (N <= 2 ^ 40)%Z -> 0 <= r_dR r <= 8 * M * fR rate -> within_E (tol c k M rate) r.
Proof.
  intros (F & P & H) Hc Hk HM [Fr [L U]] Hm Hn HN HB. split; [exact F|]. split; [split; [exact P|]|split; [apply HB|exact H]].
  assert (Pr : 0 < fR rate) by (pose proof (bpow_gt_0 radix2 (-100)); lra). pose proof u64_pos as Pu.
  assert (H1 : (1 + / 1000) * (IZR (r_n r + c) * u64) <= 1).
  { assert (IZR (r_n r + c) <= IZR (2 ^ 41)) by (apply IZR_le; lia). assert (IZR (2 ^ 41) * u64 <= / 4096) by (unfold u64; change (2 ^ 41)%Z with 2199023255552%Z; lra).
    assert (IZR (r_n r + c) * u64 <= IZR (2 ^ 41) * u64) by (apply Rmult_le_compat_r; lra). lra. }
  assert (PMR : 0 <= M * fR rate) by (apply Rmult_le_pos; lra).
  assert (H2 : k * u64 * M * (fR rate / IZR (r_m r)) <= M * fR rate).
  { apply Rle_trans with (1 * M * fR rate); [|lra]. assert (1 <= IZR (r_m r)) by (apply IZR_le; lia). assert (k * u64 <= 1) by (unfold u64; nra).
    apply Rmult_le_compat; [apply Rmult_le_pos; [apply Rmult_le_pos|]; lra| | |].
    - apply Rmult_le_pos; [lra|]. left. apply Rinv_0_lt_compat. lra.
    - apply Rmult_le_compat_r; lra.
    - apply Rle_trans with (fR rate / 1); [|lra]. apply Rmult_le_compat_l; [lra|]. apply Rinv_le_contravar; lra. }
  assert (H3 : (1 + / 1000) * (IZR (r_n r + c) * u64) * r_dR r <= 1 * r_dR r) by (apply Rmult_le_compat_r; lra).
  assert (HMR : M * fR rate <= bpow radix2 300) by (change 300%Z with (200 + 100)%Z; rewrite bpow_plus; apply Rmult_le_compat; lra).
  apply Rabs_le_inv in H. apply Rle_trans with (32 * bpow radix2 300); [lra|]. change 32 with (bpow radix2 5). rewrite <- bpow_plus. apply bpow_le. lia.
Qed.

Lemma ok3 (a b d e : R) (c n : Z) : Ok (a, b, c) = Ok (d, e, n) -> d = a /\ n = c.
Proof. intro H. now injection H. Qed.

Lemma dev_bounded x M rate m s : bounded_record x M -> moderate_rate rate -> (1 <= m)%nat -> (1 <= s)%nat ->
  (forall d e n, calc_adev_phase (map fR x) (fR rate) m s = Ok (d, e, n) -> (1 < n)%Z -> (n <= 2 ^ 40)%Z /\ 0 <= d <= 8 * M * fR rate) /\
  (forall d e n, calc_hdev_phase (map fR x) (fR rate) m s = Ok (d, e, n) -> (1 < n)%Z -> (n <= 2 ^ 40)%Z /\ 0 <= d <= 8 * M * fR rate).
Proof.
  intros Hx [Fr [L U]] Hm Hs. destruct (rec_tab x M Hx) as (HN & HM & _ & Et & Hf). rewrite Et. set (N := len x) in *. set (f := fun i => fR (nth i x 0%float)).
  assert (Hff : forall i, (i < N)%nat -> Rabs (f i) <= M) by (intros i Hi; now apply Hf).
  assert (PM : 0 < M) by (pose proof (bpow_gt_0 radix2 (-400)); lra). assert (Pr : 0 < fR rate) by (pose proof (bpow_gt_0 radix2 (-100)); lra).
  assert (Pm : 1 <= INR m) by (apply (le_INR 1); lia). assert (Im : / INR m <= 1) by (rewrite <- Rinv_1; apply Rinv_le_contravar; lra). assert (Im0 : 0 < / INR m) by (apply Rinv_0_lt_compat; lra).
  assert (SC : forall w, (1 <= w)%nat -> (Z.of_nat (stride_count N w s) <= 2 ^ 40)%Z).
  { intros w Hw. destruct (Nat.eq_dec (stride_count N w s) 0) as [E|E]; [rewrite E; lia|].
    pose proof (proj1 (stride_count_lt N w s (stride_count N w s - 1) Hs) ltac:(lia)). nia. }
  split; intros d e n H Hn.
  - destruct (Nat.eq_dec (stride_count N (2 * m) s) 0) as [Z0|Z0].
    + destruct (calc_adev_short_gen N f (fR rate) m s Hs Z0) as (d1 & e1 & E). rewrite E in H. injection H as _ _ <-. lia.
    + rewrite calc_adev_tab in H by lia. apply ok3 in H as [-> ->]. split; [apply SC; lia|]. set (n2 := stride_count N (2 * m) s) in *.
      destruct (rms_bound n2 (fun k => f (2 * m + k * s)%nat - 2 * f (m + k * s)%nat + f (k * s)%nat) (2 * INR n2) (4 * M)) as [B1 B2]; [lia|pose proof (pos_INR n2); lra|lra| |].
      * intros k Hk. apply (stride_count_lt N (2 * m) s k Hs) in Hk. pose proof (Hff (2 * m + k * s)%nat ltac:(lia)) as Q1. pose proof (Hff (m + k * s)%nat ltac:(lia)) as Q2. pose proof (Hff (k * s)%nat ltac:(lia)) as Q3.
        apply Rabs_le_inv in Q1, Q2, Q3. apply Rabs_le. lra.
      * cbv beta in B1, B2. set (S := R_sqrt.sqrt _) in *. unfold Rdiv. split; [repeat apply Rmult_le_pos; lra|]. apply Rmult_le_compat_r; [lra|]. apply Rle_trans with (4 * M * 1); [apply Rmult_le_compat; lra|lra].
  - destruct (Nat.eq_dec (stride_count N (3 * m) s) 0) as [Z0|Z0].
    + destruct (calc_hdev_short_gen N f (fR rate) m s Hs Z0) as (d1 & e1 & E). rewrite E in H. injection H as _ _ <-. lia.
    + rewrite calc_hdev_tab in H by lia. apply ok3 in H as [-> ->]. split; [apply SC; lia|]. set (n3 := stride_count N (3 * m) s) in *.
      assert (Pn : 1 <= INR n3) by (apply (le_INR 1); lia).
      destruct (rms_bound n3 (fun k => f (3 * m + k * s)%nat - 3 * f (2 * m + k * s)%nat + 3 * f (m + k * s)%nat - f (k * s)%nat) (6 * INR n3) (8 * M)) as [B1 B2]; [lia|lra|lra| |].
      * intros k Hk. apply (stride_count_lt N (3 * m) s k Hs) in Hk. pose proof (Hff (3 * m + k * s)%nat ltac:(lia)) as Q1. pose proof (Hff (2 * m + k * s)%nat ltac:(lia)) as Q2. pose proof (Hff (m + k * s)%nat ltac:(lia)) as Q3. pose proof (Hff (k * s)%nat ltac:(lia)) as Q4.
        apply Rabs_le_inv in Q1, Q2, Q3, Q4. apply Rabs_le. lra.
      * cbv beta in B1, B2. replace (bigsum n3 (fun k => (f (3 * m + k * s)%nat - 3 * f (2 * m + k * s)%nat + 3 * f (m + k * s)%nat - f (k * s)%nat) ^ 2) / 6 / INR n3)
          with (bigsum n3 (fun k => (f (3 * m + k * s)%nat - 3 * f (2 * m + k * s)%nat + 3 * f (m + k * s)%nat - f (k * s)%nat) ^ 2) / (6 * INR n3)) by (field; lra).
        set (S := R_sqrt.sqrt _) in *. replace (S / (1 / fR rate * INR m)) with (S * / INR m * fR rate) by (field; lra).
        split; [apply Rmult_le_pos; [apply Rmult_le_pos; [apply sqrt_pos|lra]|lra]|]. apply Rmult_le_compat_r; [lra|]. apply Rle_trans with (8 * M * 1); [apply Rmult_le_compat; lra|lra].
Qed.

Lemma std_runs x rate M tF tR : bounded_record x M -> M <= bpow radix2 200 -> x <> [] -> moderate_rate rate -> same_request rate tF tR ->
  runs_agree rate (tol 5 9 M rate) (adev x rate "phase" tF) (adev (map fR x) (fR rate) "phase" tR) /\
  runs_agree rate (tol 5 9 M rate) (oadev x rate "phase" tF) (oadev (map fR x) (fR rate) "phase" tR) /\
  runs_agree rate (tol 8 29 M rate) (hdev x rate "phase" tF) (hdev (map fR x) (fR rate) "phase" tR) /\
  runs_agree rate (tol 8 29 M rate) (ohdev x rate "phase" tF) (ohdev (map fR x) (fR rate) "phase" tR).
Proof.
  intros Hx HM2 Hx0 Hr Hs. destruct (same_factors x rate M tF tR Hx Hx0 Hr Hs) as (ms & G1 & G2 & Hb).
  assert (PM : 0 < M) by (destruct Hx as (_ & HM & _); pose proof (bpow_gt_0 radix2 (-400)); lra).
  assert (K : forall calcF calcR c k, (0 <= c <= 100)%Z -> 0 <= k <= 100 ->
     (forall m, (1 <= m < Z.of_nat (len x))%Z -> exists r, r_m r = m /\ calcF (Z.to_nat m) = Ok (r_dF r, r_eF r, r_n r) /\
        calcR (Z.to_nat m) = Ok (r_dR r, r_eR r, r_n r) /\ ((1 < r_n r)%Z -> accurate c k M rate r)) ->
     (forall m, (1 <= m)%nat -> forall d e n, calcR m = Ok (d, e, n) -> (1 < n)%Z -> (n <= 2 ^ 40)%Z /\ 0 <= d <= 8 * M * fR rate) ->
     runs_agree rate (tol c k M rate) (run_rows calcF ms (map (fun m => f_ofZ m / rate)%float ms)) (run_rows calcR ms (map (fun m => IZR m / fR rate) ms))).
  { intros calcF calcR c k Hc Hk H HB. destruct (run_rows_par calcF calcR rate (within_E (tol c k M rate)) ms) as [[E1 E2]|(rows & E1 & E2 & E3 & E4 & _)].
    - intros m Hm. pose proof (Hb m Hm) as Bm. destruct (H m Bm) as (r & Q1 & Q2 & Q3 & Q4). exists r. repeat (split; [assumption|]). intro Hn.
      destruct (HB (Z.to_nat m) ltac:(lia) _ _ _ Q3 Hn) as [B1 B2]. apply (accurate_within c k M rate r (r_n r)); auto; lia.
    - left. auto.
    - right. exists rows. split; auto. }
  unfold adev, oadev, hdev, ohdev, input_to_phase. cbn [String.eqb Ascii.eqb Bool.eqb bind].
  rewrite G1. cbn [ofZ RNum]. rewrite G2. cbn [bind].
  split; [|split; [|split]]; apply K; try lia; try lra.
  - apply (adev_rows x rate M (fun m => m) Hx Hr). auto.
  - intros m Hm. apply (dev_bounded x M rate m m Hx Hr); lia.
  - apply (adev_rows x rate M (fun _ => 1%nat) Hx Hr). auto.
  - intros m Hm. apply (dev_bounded x M rate m 1 Hx Hr); lia.
  - apply (hdev_rows x rate M (fun m => m) Hx Hr). auto.
  - intros m Hm. apply (dev_bounded x M rate m m Hx Hr); lia.
  - apply (hdev_rows x rate M (fun _ => 1%nat) Hx Hr). auto.
  - intros m Hm. apply (dev_bounded x M rate m 1 Hx Hr); lia.
Qed.

(** The hat of adev, oadev, hdev or ohdev on three records in the same units. *)
Theorem C117_hat ab bc ca rate M tF tR : bounded_record ab M -> bounded_record bc M -> bounded_record ca M -> M <= bpow radix2 200 ->
  ab <> [] -> bc <> [] -> ca <> [] -> moderate_rate rate -> same_request rate tF tR ->
  forall fF fRl c k, In (fF, fRl, c, k) [(@adev float FNum, @adev R RNum, 5%Z, 9); (@oadev float FNum, @oadev R RNum, 5%Z, 9);
                                     (@hdev float FNum, @hdev R RNum, 8%Z, 29); (@ohdev float FNum, @ohdev R RNum, 8%Z, 29)] ->
  let resF := three_cornered_hat_phase ab bc ca rate tF fF in
  let resR := three_cornered_hat_phase (map fR ab) (map fR bc) (map fR ca) (fR rate) tR fRl in
  (exists e, In e [UserWarning; AssertionError] /\ resF = Err e /\ resR = Err e) \/
  exists q : list (row * (row * row * row)),
    agree_E rate (tol c k M rate) (fF ab rate "phase"%string tF) (fRl (map fR ab) (fR rate) "phase"%string tR) (map (fun p => fst (fst (snd p))) q) /\
    agree_E rate (tol c k M rate) (fF bc rate "phase"%string tF) (fRl (map fR bc) (fR rate) "phase"%string tR) (map (fun p => snd (fst (snd p))) q) /\
    agree_E rate (tol c k M rate) (fF ca rate "phase"%string tF) (fRl (map fR ca) (fR rate) "phase"%string tR) (map (fun p => snd (snd p)) q) /\
    resF = Ok (tableF rate (map fst q)) /\ resR = Ok (tableR (fR rate) (map fst q)) /\
    Forall (hat_row_ok (tol c k M rate) (tol c k M rate) (tol c k M rate)) q.
Proof.
  intros Ha Hb Hc HM Na Nb Nc Hr Hs fF fRl c k Hin resF resR.
  destruct (std_runs ab rate M tF tR Ha HM Na Hr Hs) as (A1 & A2 & A3 & A4).
  destruct (std_runs bc rate M tF tR Hb HM Nb Hr Hs) as (B1 & B2 & B3 & B4).
  destruct (std_runs ca rate M tF tR Hc HM Nc Hr Hs) as (C1 & C2 & C3 & C4).
  destruct Hin as [E|[E|[E|[E|[]]]]]; injection E as <- <- <- <-; now apply C117_any_function.
Qed.
Print Assumptions C117_hat.

(** No relative bound: two pairs as noisy as each other and a third 2^30 times quieter; the float hat is 0. *)
Definition can_big : list Z := [0; 0; 1073741824; 0]%Z.
Definition can_small : list Z := [0; 0; 1; 0]%Z.
Theorem C117_relative_refuted : let ab := ints can_big in let ca := ints can_small in
  bounded_record ab 1073741824 /\ bounded_record ca 1073741824 /\ moderate_rate (f_ofZ 1) /\
  three_cornered_hat_phase ab ab ca (f_ofZ 1) (TList [f_ofZ 1]) oadev = Ok ([1]%float, [0]%float, EArr [0]%float, [2]%Z) /\
  exists e, three_cornered_hat_phase (map fR ab) (map fR ab) (map fR ca) (fR (f_ofZ 1)) (TList [INR 1 / fR (f_ofZ 1)]) oadev =
    Ok ([INR 1 / fR (f_ofZ 1)], [R_sqrt.sqrt (5 / 8)], EArr e, [2]%Z).
Proof.
  intros ab ca. split; [apply (ints_bounded _ 1073741824); [repeat constructor; cbn; lia|cbn; lia|lia]|].
  split; [apply (ints_bounded _ 1073741824); [repeat constructor; cbn; lia|cbn; lia|lia]|]. split; [exact one_rate|]. split; [vm_compute; reflexivity|].
  destruct (fofZ_ok 1 ltac:(lia)) as [_ V]. rewrite V. unfold ab, ca. rewrite !ints_R by (repeat constructor; cbn; lia).
  pose proof (oadev_single (map IZR can_big) 1 1 ltac:(lra) ltac:(lia) ltac:(cbn; lia)) as E1. pose proof (oadev_single (map IZR can_small) 1 1 ltac:(lra) ltac:(lia) ltac:(cbn; lia)) as E2.
  cbv zeta in E1, E2. eexists. rewrite (tch_spec _ _ _ _ _ _ _ _ _ _ _ _ _ _ _ _ _ _ E1 E1 E2) by reflexivity. do 3 f_equal. f_equal.
  cbn [List.length tab seq map nth]. unfold hat. do 2 f_equal. rewrite !pow2_sqrt by apply oavar_nonneg.
  replace (oavar (map IZR can_small) (1 / 1) 1) with (5 / 4) by (unfold oavar, oadev_n, d2, can_small; cbn; field).
  rewrite Rmax_right; lra.
Qed.
Print Assumptions C117_relative_refuted.

(** Three differences of three clocks: the hypotheses hold and the hat of the first is a table of two rows, so the exact
    run gives a table of the same two rows. *)
Example C117_ex : let ab := ints [1; 2; 4; 8; 8; 1]%Z in let bc := ints [2; 2; 1; 0; 4; 8]%Z in let ca := ints [-3; -4; -5; -8; -12; -9]%Z in
  bounded_record ab 16 /\ bounded_record bc 16 /\ bounded_record ca 16 /\ moderate_rate (f_ofZ 1) /\
  same_request (f_ofZ 1) (TStr "octave") (TStr "octave") /\
  exists rows, three_cornered_hat_phase ab bc ca (f_ofZ 1) (TStr "octave") oadev = Ok (tableF (f_ofZ 1) rows) /\
    three_cornered_hat_phase (map fR ab) (map fR bc) (map fR ca) (fR (f_ofZ 1)) (TStr "octave") oadev = Ok (tableR (fR (f_ofZ 1)) rows) /\
    map r_n rows = [4; 2]%Z.
Proof.
  intros ab bc ca. assert (Ha : bounded_record ab 16) by (apply (ints_bounded _ 16); [repeat constructor; cbn; lia|cbn; lia|lia]).
  assert (Hb : bounded_record bc 16) by (apply (ints_bounded _ 16); [repeat constructor; cbn; lia|cbn; lia|lia]).
  assert (Hc : bounded_record ca 16) by (apply (ints_bounded _ 16); [repeat constructor; cbn; lia|cbn; lia|lia]).
  assert (Hs : same_request (f_ofZ 1) (TStr "octave") (TStr "octave")).
  { left. exists "octave"%string. split; [cbn; tauto|]. split; (left; reflexivity) || (right; reflexivity) || reflexivity. }
  pose proof one_rate as Hr. do 5 (split; [assumption|]).
  destruct (C117_hat ab bc ca (f_ofZ 1) 16 _ _ Ha Hb Hc ltac:(change 16 with (bpow radix2 4); apply bpow_le; lia) ltac:(discriminate) ltac:(discriminate) ltac:(discriminate) Hr Hs
    _ _ _ _ ltac:(right; left; reflexivity)) as [(e & _ & E & _)|(q & _ & _ & _ & E1 & E2 & _)].
  - exfalso. revert E. vm_compute. discriminate.
  - exists (map fst q). split; [exact E1|]. split; [exact E2|].
    assert (G : forall r : @result float, three_cornered_hat_phase ab bc ca (f_ofZ 1) (TStr "octave") oadev = Ok r -> snd r = [4; 2]%Z).
    { intros r. vm_compute. intro Q. injection Q as <-. reflexivity. }
    exact (G _ E1).
Qed.
