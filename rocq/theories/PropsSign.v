(** * Change of sign and of unit of the record (C89). *)
From Coq Require Import String ZArith List Bool Lia Floats Reals Lra.
From Flocq Require Import Core.Core.
From Verif Require Import Base Num NpList ModelCore ModelDev ModelMisc ModelCi ModelRt NumF NumR ListFacts SimProofs SignProofs ScaleProofs.
Import ListNotations.
Local Notation float := Coq.Floats.PrimFloat.float.
Local Notation len := List.length.

(** the functions with the signature (data, rate, data_type, taus), mtie apart *)
Definition table (A : Type) (NA : Num A) : list (list A -> A -> string -> taus_arg A -> res (@result A)) :=
  [@adev A NA; oadev; hdev; ohdev; mdev; tdev; pdev; totdev; mtotdev; ttotdev; htotdev; theo1; tierms].
Definition realtime (A : Type) (NA : Num A) : list (cfg (A := A) -> rt (A := A) -> A -> res (rt (A := A))) :=
  [@oadev_add_phase A NA; ohdev_add_phase; tdev_add_phase].
Lemma map_F2 {A B} (P : A -> B -> Prop) f l : (forall a, P a (f a)) -> Forall2 P l (map f l).
Proof. intros Hf. induction l; cbn; constructor; auto. Qed.
Lemma result_eq {A} (r r' : res (@result A)) : rres (result_rel eq) r r' -> r' = r.
Proof.
  destruct r as [[[[t d] e] n]|], r' as [[[[t' d'] e'] n']|]; cbn; try contradiction; [|congruence].
  intros (-> & -> & Hd & He). rewrite (Forall2_is_eq _ _ Hd). destruct e as [l|ls], e' as [l'|ls']; cbn in He; try contradiction.
  - now rewrite (Forall2_is_eq _ _ He).
  - assert (ls = ls') as ->; [|reflexivity]. induction He as [|a b l l' Ha He IH]; [reflexivity|]. now rewrite (Forall2_is_eq _ _ Ha), IH.
Qed.
Lemma table_sim {A} (NA : Num A) (V S D : A -> A -> Prop) T dir (H : sim V S D) (HO : sim_order V S T dir) f x x' rate ty taus :
  In f (table A NA) -> Forall2 V x x' -> rres (result_rel D) (f x rate ty taus) (f x' rate ty taus).
Proof.
  intros Hf Hx. unfold table in Hf. change [@adev A NA; oadev; hdev; ohdev; mdev; tdev; pdev; totdev; mtotdev; ttotdev; htotdev; theo1; tierms]
    with ((@sim_table A NA) ++ [tierms]) in Hf.
  apply in_app_or in Hf. destruct Hf as [Hf | [<- | []]]; [now apply (sim_all V S D H)|]. now apply (sim_tierms V S D H T dir HO).
Qed.

(** ** binary64: the sign *)
Definition neg (x : list float) : list float := map PrimFloat.opp x.
Lemma neg_rel x : Forall2 opposite x (neg x).
Proof. apply map_F2, opposite_opp. Qed.

(** The record with every sample negated gives exactly the same answer: the same floats, and the same exception. *)
Theorem C89_sign f x rate ty taus : In f (table float FNum) -> f (neg x) rate ty taus = f x rate ty taus.
Proof. intros Hf. apply result_eq. apply (table_sim _ _ _ _ _ _ sign_sim sign_order); [exact Hf|apply neg_rel]. Qed.
Print Assumptions C89_sign.

Theorem C89_sign_gcodev x y rate ty taus : gcodev (neg x) (neg y) rate ty taus = gcodev x y rate ty taus.
Proof. apply result_eq. apply (sim_gcodev _ _ _ sign_sim sign_cov); apply neg_rel. Qed.
Print Assumptions C89_sign_gcodev.

Theorem C89_sign_gradev nlog nexp ppf x rate ty taus ci nt :
  gradev nlog nexp ppf (neg x) rate ty taus ci nt = gradev nlog nexp ppf x rate ty taus ci nt.
Proof. apply result_eq. apply (sim_gradev _ _ _ sign_sim sign_grad); apply neg_rel. Qed.
Print Assumptions C89_sign_gradev.

(** mtie: same taus, same n, and numerically the same values (a zero may change its sign) *)
Theorem C89_sign_mtie x rate ty taus :
  rres (result_rel (fun a b => a = b \/ (PrimFloat.eqb a b = true /\ PrimFloat.eqb a 0 = true)))
    (mtie x rate ty taus) (mtie (neg x) rate ty taus).
Proof.
  assert (HT : forall a b, same_number a b -> a = b \/ (PrimFloat.eqb a b = true /\ PrimFloat.eqb a 0 = true)).
  { intros a b [(s & s' & Ea & Eb) | E]; [right|left; symmetry; now apply Prim2SF_inj]. rewrite !FloatAxioms.eqb_spec, Ea, Eb. split; reflexivity. }
  eapply rres_impl; [|apply (sim_mtie _ _ _ sign_sim _ _ sign_order); apply neg_rel].
  intros [[[t d] e] n] [[[t' d'] e'] n'] (-> & -> & Hd & He). cbn. repeat split.
  - clear -Hd HT. induction Hd; constructor; auto.
  - destruct e as [l|ls], e' as [l'|ls']; cbn in *; try contradiction.
    + clear -He HT. induction He; constructor; auto.
    + clear -He HT. induction He as [|a b l l' Ha Hl IH]; constructor; auto. clear -Ha HT. induction Ha; constructor; auto.
Qed.
Print Assumptions C89_sign_mtie.

(** the realtime classes, fed with phase or with frequency *)
Definition shows {A} {NA : Num A} (c : cfg (A := A)) (r : res (rt (A := A))) := s <- r ;; Ok (rafs s, rt_devs s, rt_mdev c s).
Lemma shown_eq c (r r' : res (@rt float)) : rres (shown_rel eq c) r r' -> shows c r' = shows c r.
Proof.
  destruct r as [s|], r' as [s'|]; cbn; try contradiction; [|congruence].
  intros (E1 & Hd & Hm). unfold rt_devs. rewrite E1, (Forall2_is_eq _ _ Hd). do 2 f_equal. symmetry. apply rres_eq.
  eapply rres_impl; [|exact Hm]. intros a b. apply Forall2_is_eq.
Qed.
Theorem C89_sign_realtime ap c afs xs : In ap (realtime float FNum) ->
  shows c (run ap c (rt_init c afs) (neg xs)) = shows c (run ap c (rt_init c afs) xs) /\
  shows c (run (add_frequency ap) c (rt_init c afs) (neg xs)) = shows c (run (add_frequency ap) c (rt_init c afs) xs).
Proof.
  intros Hap. destruct (sim_rt _ _ _ sign_sim ap c afs xs (neg xs) Hap (neg_rel xs)) as [H1 H2]. split; now apply shown_eq.
Qed.
Print Assumptions C89_sign_realtime.

Definition xs0 : list float := [1; -2; 4; 0.5; nan; 3; 7; -1]%float.
Definition xs1 : list float := [1; -2; 4; 0.5; 3; 7; -1; 0]%float.
Example C89_ex : In (@totdev float FNum) (table float FNum) /\
  totdev (neg xs1) 2%float "phase" (TStr "octave") = totdev xs1 2%float "phase" (TStr "octave") /\
  (exists r, totdev xs1 2%float "phase" (TStr "octave") = Ok r) /\
  neg xs1 <> xs1 /\ hdev (neg xs0) 1%float "freq" (TList [1%float]) = hdev xs0 1%float "freq" (TList [1%float]).
Proof.
  assert (I1 : In (@totdev float FNum) (table float FNum)) by (do 7 right; now left).
  assert (I2 : In (@hdev float FNum) (table float FNum)) by (do 2 right; now left).
  split; [exact I1|]. split; [now apply C89_sign|]. split; [eexists; vm_compute; reflexivity|]. split; [|now apply C89_sign].
  intros E. injection E as E _. apply (f_equal (PrimFloat.ltb 0)) in E. discriminate E.
Qed.

(** ** the unit *)
Local Open Scope R_scope.
Definition rescale (k : R) (r : @result R) : @result R :=
  let '(t, d, e, n) := r in
  (t, map (Rmult k) d, match e with EArr l => EArr (map (Rmult k) l) | EList ls => EList (map (map (Rmult k)) ls) end, n).
Definition times_res (k : R) (r : res (@result R)) : res (@result R) := x <- r ;; Ok (rescale k x).
Lemma times_list k l l' : Forall2 (times k) l l' -> l' = map (Rmult k) l.
Proof. intros Hl. induction Hl as [|a b l l' Ha Hl IH]; [reflexivity|]. cbn. now rewrite IH, Ha. Qed.
Lemma times_result k r r' : rres (result_rel (times k)) r r' -> r' = times_res k r.
Proof.
  destruct r as [[[[t d] e] n]|], r' as [[[[t' d'] e'] n']|]; cbn; try contradiction; [|congruence].
  intros (-> & -> & Hd & He). rewrite (times_list _ _ _ Hd). destruct e as [l|ls], e' as [l'|ls']; cbn in He; try contradiction.
  - now rewrite (times_list _ _ _ He).
  - assert (ls' = map (map (Rmult k)) ls) as ->; [|reflexivity]. induction He as [|a b l l' Ha He IH]; [reflexivity|]. cbn. now rewrite (times_list _ _ _ Ha), IH.
Qed.
Lemma scale_rel c x : Forall2 (times c) x (map (Rmult c) x).
Proof. apply map_F2. reflexivity. Qed.

(** In every rounded arithmetic whose rounding commutes with the factor: multiplying the record by c multiplies
    the deviations and the errors by |c|, digit for digit, and leaves taus, n and exceptions alone. *)
Theorem C89_scale rnd c f x rate ty taus : exact_scale rnd c -> In f (mtie (NA := rounded rnd) :: table R (rounded rnd)) ->
  f (map (Rmult c) x) rate ty taus = times_res (Rabs c) (f x rate ty taus).
Proof.
  intros Hc Hf. apply times_result. destruct Hf as [<- | Hf].
  - apply (sim_mtie _ _ _ (scale_sim rnd c Hc) _ _ (scale_order rnd c Hc)), scale_rel.
  - apply (table_sim _ _ _ _ _ _ (scale_sim rnd c Hc) (scale_order rnd c Hc)); [exact Hf|apply scale_rel].
Qed.
Print Assumptions C89_scale.
Theorem C89_scale_two rnd c x y rate ty taus nlog nexp ppf ci nt : exact_scale rnd c ->
  let NA := rounded rnd in
  gcodev (map (Rmult c) x) (map (Rmult c) y) rate ty taus = times_res (Rabs c) (gcodev x y rate ty taus) /\
  gradev nlog nexp ppf (map (Rmult c) x) rate ty taus ci nt = times_res (Rabs c) (gradev nlog nexp ppf x rate ty taus ci nt).
Proof.
  intros Hc NA. split; apply times_result.
  - apply (sim_gcodev _ _ _ (scale_sim rnd c Hc) (scale_cov rnd c Hc)); apply scale_rel.
  - apply (sim_gradev _ _ _ (scale_sim rnd c Hc) (scale_grad rnd c Hc)); apply scale_rel.
Qed.
Print Assumptions C89_scale_two.

(** 53-bit arithmetic and a power of two of either sign; any factor over the reals *)
Theorem C89_scale_binary : (forall k (s : bool), exact_scale rnd53 (if s then - bpow radix2 k else bpow radix2 k)) /\
  (forall c, c <> 0 -> exact_scale (fun r => r) c).
Proof. split; [exact scale53|exact scale_id]. Qed.
Print Assumptions C89_scale_binary.
Example C89_ex_scale x rate taus :
  oadev (NA := rounded rnd53) (map (Rmult 1024) x) rate "phase" taus = times_res 1024 (oadev (NA := rounded rnd53) x rate "phase" taus).
Proof.
  change 1024 with (IZR (Zpower radix2 10)) at 1 2. rewrite (IZR_Zpower radix2 10) by lia.
  rewrite (C89_scale rnd53 (bpow radix2 10) (oadev (NA := rounded rnd53))).
  - f_equal. apply Rabs_pos_eq, bpow_ge_0.
  - exact (scale53 10 false).
  - right. right. now left.
Qed.

(** In binary64 a factor that is not a power of two moves the last digit, and a power of two can lead to underflow. *)
Theorem C89_scale_refuted :
  let x := [0; 0; 1; 1]%float in
  adev x 1%float "phase" (TList [1%float]) = Ok ([1], [0x1.6a09e667f3bcdp-1], EArr [0x1p-1], [2%Z])%float /\
  adev (map (PrimFloat.mul 3) x) 1%float "phase" (TList [1%float]) = Ok ([1], [0x1.0f876ccdf6cd9p+1], EArr [0x1.7ffffffffffffp+0], [2%Z])%float /\
  (3 * 0x1.6a09e667f3bcdp-1)%float <> 0x1.0f876ccdf6cd9p+1%float /\
  adev (map (PrimFloat.mul 0x1p-600) x) 1%float "phase" (TList [1%float]) = Ok ([1], [0], EArr [0], [2%Z])%float.
Proof.
  split; [vm_compute; reflexivity|]. split; [vm_compute; reflexivity|]. split; [|vm_compute; reflexivity].
  intros E. apply (f_equal (PrimFloat.eqb 0x1.0f876ccdf6cd9p+1)) in E. vm_compute in E. discriminate E.
Qed.
Print Assumptions C89_scale_refuted.
