(** * The series of timmer_koenig_from_psd in closed form, and its Fourier transform. *)
From Coq Require Import String Reals List ZArith Bool Arith Lia Lra Sorted.
From Verif Require Import Base Num NpList NumR Spec ListFacts RSum TauProofs Dft ModelCore ModelMisc ModelCi ModelNoise ModelNoiseR NoiseProofs
  PropsSpectral PropsPsd.
Import ListNotations.
Local Open Scope R_scope.
Local Notation len := List.length.

(** value of the one-sided PSD that the function samples at frequency [f] *)
Definition sampled (f_nodes h alpha : list R) (f v : R) : Prop :=
  (exists j, in_segment f_nodes j f /\ (f_nodes <> [] -> f <> f_nodes.[len f_nodes - 1]) /\ v = h.[j] * Rpower f alpha.[j]) \/
  (f_nodes <> [] /\ f = f_nodes.[len f_nodes - 1] /\ v = 0).

Lemma sampled_sy f_nodes h alpha f v : described f_nodes h alpha ->
  sy_at f_nodes (h ++ [h.[len h - 1]]) (alpha ++ [alpha.[len alpha - 1]]) f = Ok v -> sampled f_nodes h alpha f v.
Proof.
  intros D E. destruct (in_segment_exists f_nodes f (proj1 D)) as [j Hj].
  destruct f_nodes as [|f0 t] eqn:Ef.
  - left. exists j. split; [exact Hj|]. split; [congruence|].
    rewrite (sy_at_segment [] h alpha D f j Hj) in E by congruence. now injection E.
  - rewrite <- Ef in *. destruct (Req_dec f f_nodes.[len f_nodes - 1]) as [He|He].
    + right. split; [rewrite Ef; discriminate|]. split; [exact He|].
      rewrite (sy_at_hole f_nodes h alpha D f) in E by (auto; rewrite Ef; discriminate). now injection E.
    + left. exists j. split; [exact Hj|]. split; [auto|].
      rewrite (sy_at_segment f_nodes h alpha D f j Hj) in E by auto. now injection E.
Qed.
Lemma mapM_nth {B C} (g : B -> res C) l vs b0 c0 : mapM g l = Ok vs -> len vs = len l /\ forall i, (i < len l)%nat -> g (nth i l b0) = Ok (nth i vs c0).
Proof.
  revert vs. induction l as [|x l IH]; intros vs E; cbn in E.
  - injection E as <-. split; [reflexivity|]. intros i Hi. cbn in Hi. lia.
  - destruct (g x) as [v|] eqn:Ex; [|discriminate]. cbn in E. destruct (mapM g l) as [ws|] eqn:El; [|discriminate].
    injection E as <-. destruct (IH ws eq_refl) as [L N]. split; [cbn; congruence|]. intros [|i] Hi; cbn; [exact Ex|]. apply N. cbn in Hi. lia.
Qed.

(** ** orthogonality of the modes on 2q points *)
Section Orth.
Context (q : nat) (Hq : (1 <= q)%nat).
Let N := (2 * q)%nat.
Definition ang (p : nat) : R := 2 * PI * INR p / INR (2 * q).
Let HN : INR N <> 0. Proof. apply not_0_INR. unfold N. lia. Qed.
Lemma ang_sub p k j : INR j * ang p - INR j * ang k = INR j * (2 * PI * IZR (Z.of_nat p - Z.of_nat k) / INR N).
Proof using All. unfold ang. fold N. rewrite minus_IZR, <- !INR_IZR_INZ. field. exact HN. Qed.
Lemma ang_add p k j : INR j * ang p + INR j * ang k = INR j * (2 * PI * IZR (Z.of_nat p + Z.of_nat k) / INR N).
Proof using All. unfold ang. fold N. rewrite plus_IZR, <- !INR_IZR_INZ. field. exact HN. Qed.
Lemma char_hit (d z : Z) : d = (z * Z.of_nat N)%Z -> bigsum N (fun j => cos (INR j * (2 * PI * IZR d / INR N))) = INR N.
Proof using All.
  intros ->. rewrite (bigsum_ext _ _ (fun _ => 1)).
  - rewrite bigsum_const. ring.
  - intros j _. rewrite mult_IZR, <- INR_IZR_INZ.
    replace (INR j * (2 * PI * (IZR z * INR N) / INR N)) with (2 * (IZR (Z.of_nat j * z) * PI)); [apply cos_2int_PI|].
    rewrite mult_IZR, <- INR_IZR_INZ. field. exact HN.
Qed.
Lemma no_mul (d : Z) : (- Z.of_nat N < d < Z.of_nat N)%Z -> (d <> 0)%Z -> forall z, (d <> z * Z.of_nat N)%Z.
Proof using All. intros H H0 z E. assert (z = 0 \/ z <= -1 \/ 1 <= z)%Z as [->|[?|?]] by lia; nia. Qed.

Lemma occ p k : (p <= q)%nat -> (1 <= k <= q)%nat -> bigsum N (fun j => cos (INR j * ang p) * cos (INR j * ang k)) =
  if (p =? k)%nat then (if (p =? q)%nat then INR N else INR q) else 0.
Proof using All.
  intros Hp Hk. rewrite (bigsum_ext _ _ (fun j => 1 / 2 * (cos (INR j * (2 * PI * IZR (Z.of_nat p - Z.of_nat k) / INR N)) +
     cos (INR j * (2 * PI * IZR (Z.of_nat p + Z.of_nat k) / INR N))))).
  2:{ intros j _. rewrite <- ang_sub, <- ang_add, cos_plus, cos_minus. field. }
  rewrite bigsum_scal, bigsum_plus. assert (EN : INR N = 2 * INR q) by (unfold N; rewrite mult_INR; reflexivity).
  destruct (Nat.eqb_spec p k) as [->|Ne].
  - rewrite (char_hit _ 0) by lia. destruct (Nat.eqb_spec k q) as [->|Nq].
    + rewrite (char_hit _ 1) by (unfold N; lia). field.
    + rewrite char_cos; [rewrite EN; field|unfold N; lia|]. apply no_mul; unfold N; lia.
  - rewrite !char_cos; [ring|unfold N; lia|apply no_mul; unfold N; lia|unfold N; lia|apply no_mul; unfold N; lia].
Qed.
Lemma oss p k : (p < q)%nat -> (1 <= k < q)%nat -> bigsum N (fun j => sin (INR j * ang p) * sin (INR j * ang k)) =
  if (p =? k)%nat then INR q else 0.
Proof using All.
  intros Hp Hk. rewrite (bigsum_ext _ _ (fun j => 1 / 2 * (cos (INR j * (2 * PI * IZR (Z.of_nat p - Z.of_nat k) / INR N)) -
     cos (INR j * (2 * PI * IZR (Z.of_nat p + Z.of_nat k) / INR N))))).
  2:{ intros j _. rewrite <- ang_sub, <- ang_add, cos_plus, cos_minus. field. }
  rewrite bigsum_scal, bigsum_minus. assert (EN : INR N = 2 * INR q) by (unfold N; rewrite mult_INR; reflexivity).
  destruct (Nat.eqb_spec p k) as [->|Ne].
  - rewrite (char_hit _ 0) by lia. rewrite char_cos; [rewrite EN; field|unfold N; lia|]. apply no_mul; unfold N; lia.
  - rewrite !char_cos; [ring|unfold N; lia|apply no_mul; unfold N; lia|unfold N; lia|apply no_mul; unfold N; lia].
Qed.
Lemma osc p k : bigsum N (fun j => sin (INR j * ang p) * cos (INR j * ang k)) = 0.
Proof using All.
  rewrite (bigsum_ext _ _ (fun j => 1 / 2 * (sin (INR j * (2 * PI * IZR (Z.of_nat p + Z.of_nat k) / INR N)) +
     sin (INR j * (2 * PI * IZR (Z.of_nat p - Z.of_nat k) / INR N))))).
  2:{ intros j _. rewrite <- ang_sub, <- ang_add, sin_plus, sin_minus. field. }
  rewrite bigsum_scal, bigsum_plus, !char_sin by (unfold N; lia). ring.
Qed.
Lemma sin_ang_q j : sin (INR j * ang q) = 0.
Proof using All.
  replace (INR j * ang q) with (IZR (Z.of_nat j) * PI); [apply sin_int_PI|]. rewrite <- INR_IZR_INZ. unfold ang. fold N.
  assert (EN : INR N = 2 * INR q) by (unfold N; rewrite mult_INR; reflexivity). rewrite EN in *. field. lra.
Qed.

(** ** a series with modes 1..q, the last one without a sine *)
Section Series.
Context (A B : nat -> R) (x : nat -> R)
  (Hx : forall j, (j < N)%nat -> x j = bigsum (q - 1) (fun r => A (S r) * cos (INR j * ang (S r)) - B (S r) * sin (INR j * ang (S r))) + A q * cos (INR j * ang q)).
Lemma dc_ang k : dc N x k = bigsum N (fun j => x j * cos (INR j * ang k)).
Proof using All. unfold dc. apply bigsum_ext. intros j _. do 2 f_equal. unfold ang. fold N. field. exact HN. Qed.
Lemma ds_ang k : ds N x k = bigsum N (fun j => x j * sin (INR j * ang k)).
Proof using All. unfold ds. apply bigsum_ext. intros j _. do 2 f_equal. unfold ang. fold N. field. exact HN. Qed.
Lemma project (g : nat -> R) : bigsum N (fun j => x j * g j) =
  bigsum (q - 1) (fun r => A (S r) * bigsum N (fun j => cos (INR j * ang (S r)) * g j) - B (S r) * bigsum N (fun j => sin (INR j * ang (S r)) * g j)) +
  A q * bigsum N (fun j => cos (INR j * ang q) * g j).
Proof using All.
  rewrite (bigsum_ext N _ (fun j => bigsum (q - 1) (fun r => A (S r) * (cos (INR j * ang (S r)) * g j) - B (S r) * (sin (INR j * ang (S r)) * g j)) +
     A q * (cos (INR j * ang q) * g j))).
  - rewrite bigsum_plus, bigsum_swap, bigsum_scal. f_equal. apply bigsum_ext. intros r _. now rewrite bigsum_minus, !bigsum_scal.
  - intros j Hj. rewrite Hx by exact Hj. rewrite Rmult_plus_distr_r, <- bigsum_scal_r. f_equal; [|ring]. apply bigsum_ext. intros r _. ring.
Qed.
Lemma dc_mid k : (1 <= k < q)%nat -> dc N x k = A k * INR q.
Proof using All.
  intros Hk. rewrite dc_ang, project. rewrite occ by lia. destruct (Nat.eqb_spec q k); [lia|].
  rewrite (bigsum_only _ (k - 1)%nat).
  - rewrite occ, osc by lia. replace (S (k - 1)) with k by lia. rewrite Nat.eqb_refl. destruct (Nat.eqb_spec k q); [lia|]. ring.
  - lia.
  - intros r Hr Hn. rewrite occ, osc by lia. destruct (Nat.eqb_spec (S r) k); [lia|]. ring.
Qed.
Lemma ds_mid k : (1 <= k < q)%nat -> ds N x k = - (B k * INR q).
Proof using All.
  assert (E : forall p, bigsum N (fun j => cos (INR j * ang p) * sin (INR j * ang k)) = 0).
  { intros p. rewrite (bigsum_ext _ _ (fun j => sin (INR j * ang k) * cos (INR j * ang p))) by (intros; ring). apply osc. }
  intros Hk. rewrite ds_ang, project. rewrite E. rewrite (bigsum_only _ (k - 1)%nat).
  - rewrite E, oss by lia. replace (S (k - 1)) with k by lia. rewrite Nat.eqb_refl. ring.
  - lia.
  - intros r Hr Hn. rewrite E, oss by lia. destruct (Nat.eqb_spec (S r) k); [lia|]. ring.
Qed.
Lemma dc_nyq : dc N x q = A q * INR N.
Proof using All.
  rewrite dc_ang, project. rewrite occ by lia. rewrite !Nat.eqb_refl. rewrite bigsum_0; [ring|]. intros r Hr.
  rewrite occ, osc by lia. destruct (Nat.eqb_spec (S r) q); [lia|]. ring.
Qed.
Lemma ds_nyq : ds N x q = 0.
Proof using All.
  rewrite ds_ang. apply bigsum_0. intros j _. rewrite sin_ang_q. ring.
Qed.
End Series.
End Orth.

(** ** the spectrum and the series *)
Definition mode_re (rnd : nat -> R) (Sx : nat -> R) (k : nat) : R := sqrt (Sx k) / 2 * rnd (2 * (k - 1))%nat.
Definition mode_im (rnd : nat -> R) (Sx : nat -> R) (k : nat) : R := sqrt (Sx k) / 2 * rnd (2 * (k - 1) + 1)%nat.
Lemma half_2q q : (2 * q / 2 = q)%nat.
Proof. rewrite Nat.mul_comm. apply Nat.div_mul. lia. Qed.

Lemma tk_spectrum_even rnd q fr Sy : (2 <= q)%nat -> len fr = (q + 1)%nat -> len Sy = (q + 1)%nat ->
  let Sx := fun k => Sy.[k] / (2 * PI * fr.[k]) ^ 2 in
  let F := fun j => if (Nat.leb 1 j && Nat.leb j q)%bool then (mode_re rnd Sx j, mode_im rnd Sx j) else (0, 0) in
  tk_spectrum rnd (2 * q) fr Sy = Ok (tab (2 * q) (fun j => if (j <? q + 1)%nat then F j else conj (F (2 * q - j)%nat))).
Proof.
  intros Hq Lf Ls Sx F. unfold tk_spectrum. cbv zeta. rewrite half_2q.
  assert (E0 : map (fun j => if (Nat.leb 1 j && Nat.leb j q)%bool then
        (sqrt (nth j (map2 (fun s f => s / (2 * PI * f) ^ 2) Sy fr) 0) / 2 * rnd (2 * (j - 1))%nat,
         sqrt (nth j (map2 (fun s f => s / (2 * PI * f) ^ 2) Sy fr) 0) / 2 * rnd (2 * (j - 1) + 1)%nat) else (0, 0)) (seq 0 (2 * q)) = tab (2 * q) F).
  { unfold tab. apply map_ext_in. intros j Hj. apply in_seq in Hj. unfold F.
    destruct (Nat.leb_spec 1 j), (Nat.leb_spec j q); cbn [andb]; try reflexivity.
    rewrite (list_tab Sy 0), (list_tab fr 0), Ls, Lf, map2_tab. rewrite nth_tab by lia. reflexivity. }
  rewrite E0. unfold assign_from. rewrite pyslice_tab, rev_tab, map_tab, !tab_length. cbv zeta. rewrite firstn_tab.
  rewrite (proj2 (Nat.eqb_eq (Nat.min (q - 1) (2 * q - 1)) (2 * q - (q + 1)))) by lia. rewrite app_tab. f_equal.
  replace (Nat.min (q + 1) (2 * q) + Nat.min (q - 1) (2 * q - 1))%nat with (2 * q)%nat by lia.
  replace (Nat.min (q + 1) (2 * q)) with (q + 1)%nat by lia. replace (Nat.min (q - 1) (2 * q - 1)) with (q - 1)%nat by lia.
  apply tab_ext. intros j Hj. destruct (Nat.ltb_spec j (q + 1)); [reflexivity|]. do 2 f_equal. lia.
Qed.

Lemma ifft_even rnd Sx q : (2 <= q)%nat ->
  let F := fun j => if (Nat.leb 1 j && Nat.leb j q)%bool then (mode_re rnd Sx j, mode_im rnd Sx j) else (0, 0) in
  ifft_re (tab (2 * q) (fun j => if (j <? q + 1)%nat then F j else conj (F (2 * q - j)%nat))) =
  tab (2 * q) (fun j => (bigsum (q - 1) (fun r => 2 * (mode_re rnd Sx (S r) * cos (INR j * ang q (S r)) - mode_im rnd Sx (S r) * sin (INR j * ang q (S r))))
      + mode_re rnd Sx q * cos (INR j * ang q q)) / INR (2 * q)).
Proof.
  intros Hq F. unfold ifft_re. rewrite !tab_length. unfold tab at 2. apply map_ext_in. intros j Hj. apply in_seq in Hj.
  assert (HN : INR (2 * q) <> 0) by (apply not_0_INR; lia).
  apply (f_equal (fun z => z / INR (2 * q))). rewrite sumR_seq.
  set (G := fun k => fst (if (k <? q + 1)%nat then F k else conj (F (2 * q - k)%nat)) * cos (INR j * ang q k) -
                     snd (if (k <? q + 1)%nat then F k else conj (F (2 * q - k)%nat)) * sin (INR j * ang q k)).
  rewrite (bigsum_ext _ _ G).
  2:{ intros k Hk. cbv zeta. unfold G. replace (2 * PI * INR j * INR k / INR (2 * q)) with (INR j * ang q k) by (unfold ang; field; exact HN).
      match goal with |- context [nth k ?l _] => assert (EX : nth k l (0, 0) = if (k <? q + 1)%nat then F k else conj (F (2 * q - k)%nat)) by exact (nth_tab (2 * q) (fun j => if (j <? q + 1)%nat then F j else conj (F (2 * q - j)%nat)) k (0, 0) Hk) end.
      apply f_equal2; apply (f_equal (fun z => z * _)); [apply (f_equal fst)|apply (f_equal snd)]; exact EX. }
  replace (2 * q)%nat with (S (q - 1) + S (q - 1))%nat by lia. rewrite bigsum_add, (bigsum_S_l (q - 1) G), (bigsum_S_l (q - 1) (fun i => G (S (q - 1) + i)%nat)).
  replace (S (q - 1) + 0)%nat with q by lia.
  rewrite <- (bigsum_rev (q - 1) (fun i => G (S (q - 1) + S i)%nat)).
  assert (G0 : G 0%nat = 0) by (unfold G, F; destruct (Nat.ltb_spec 0 (q + 1)); [cbn; ring|lia]).
  assert (Gq : G q = mode_re rnd Sx q * cos (INR j * ang q q)).
  { unfold G, F. destruct (Nat.ltb_spec q (q + 1)); [|lia]. destruct (Nat.leb_spec 1 q), (Nat.leb_spec q q); try lia. cbn [andb fst snd].
    rewrite (sin_ang_q q ltac:(lia)). ring. }
  rewrite G0, Gq. rewrite Rplus_0_l, <- Rplus_assoc, (Rplus_comm (bigsum _ _)), Rplus_assoc, <- bigsum_plus, Rplus_comm. f_equal.
  apply bigsum_ext. intros r Hr. unfold G, F.
  destruct (Nat.ltb_spec (S r) (q + 1)); [|lia]. destruct (Nat.ltb_spec (S (q - 1) + S (q - 1 - 1 - r)) (q + 1)); [lia|].
  replace (2 * q - (S (q - 1) + S (q - 1 - 1 - r)))%nat with (S r) by lia.
  destruct (Nat.leb_spec 1 (S r)), (Nat.leb_spec (S r) q); try lia. cbn [andb fst snd conj].
  replace (INR j * ang q (S (q - 1) + S (q - 1 - 1 - r))) with (- (INR j * ang q (S r)) + 2 * (IZR (Z.of_nat j) * PI)).
  - rewrite cos_plus, sin_plus, cos_2int_PI, sin_2int_PI, cos_neg, sin_neg. ring.
  - rewrite <- INR_IZR_INZ. unfold ang. replace (S (q - 1) + S (q - 1 - 1 - r))%nat with (2 * q - S r)%nat by lia.
    rewrite minus_INR by lia. field. exact HN.
Qed.

Lemma tk_series f_nodes h alpha duration dt q : described f_nodes h alpha -> 0 < duration -> 0 < dt -> (2 <= q)%nat ->
  tk_n duration dt = Z.of_nat (2 * q) ->
  exists Sy : nat -> R, (forall k, (k <= q)%nat -> sampled f_nodes h alpha (tk_grid (2 * q) dt).[k] (Sy k)) /\
  forall rnd, let Sx := fun k => Sy k / (2 * PI * (tk_grid (2 * q) dt).[k]) ^ 2 in
  timmer_koenig rnd f_nodes h alpha duration dt "phase" =
  Ok (tab (2 * q) (fun j => (bigsum (q - 1) (fun r => 2 * (mode_re rnd Sx (S r) * cos (INR j * ang q (S r)) - mode_im rnd Sx (S r) * sin (INR j * ang q (S r))))
      + mode_re rnd Sx q * cos (INR j * ang q q)) / INR (2 * q) * sqrt ((INR (2 * q) - 1) / dt))).
Proof.
  intros D H1 H2 Hq Hn.
  assert (Lg : len (tk_grid (2 * q) dt) = (q + 1)%nat) by (unfold tk_grid, linspace; rewrite map_length, seq_length, half_2q; reflexivity).
  destruct (mapM_ok_tab (sy_at f_nodes (h ++ [h.[len h - 1]]) (alpha ++ [alpha.[len alpha - 1]])) (tk_grid (2 * q) dt)) as (Sy & E & L).
  { intros f _. now apply sy_at_total. }
  exists (fun k => Sy.[k]). split.
  - intros k Hk. destruct (mapM_nth _ _ _ 0 0 E) as [_ Nk]. apply sampled_sy; [exact D|]. apply Nk. lia.
  - intros rnd Sx. unfold timmer_koenig. rewrite (Rleb_f duration), (Rleb_f dt) by assumption. cbn [orb].
    pose proof D as (_ & Lh & La).
    rewrite (proj2 (Nat.eqb_eq (len h) (len alpha))) by lia. cbn [negb].
    replace (Z.of_nat (len f_nodes) =? Z.of_nat (len h) - 1)%Z with true by (symmetry; apply Z.eqb_eq; lia).
    rewrite Bool.orb_true_r. cbn [negb].
    rewrite (pyget_last h), (pyget_last alpha) by (intros ->; cbn in *; lia). cbn [bind]. cbv zeta.
    rewrite Hn. destruct (Z.ltb_spec (Z.of_nat (2 * q)) 4); [lia|]. rewrite Nat2Z.id.
    rewrite E. cbn [bind]. rewrite tk_spectrum_even by lia. cbn [bind String.eqb Ascii.eqb Bool.eqb].
    fold Sx. rewrite ifft_even by exact Hq. rewrite map_tab. reflexivity.
Qed.
