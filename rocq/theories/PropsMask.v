(** * ITU masks: C64. *)
From Coq Require Import Floats Reals List ZArith Lra Lia.
From Verif Require Import Num NumR NumF ModelMask.
Import ListNotations.
Local Open Scope R_scope.

Lemma lit_R m k : @lit R RNum m k = IZR m / IZR (10 ^ k).
Proof. reflexivity. Qed.
Lemma ltb_R (a b : R) : nltb a b = if Rlt_dec a b then true else false.
Proof. cbn. unfold Rltb. destruct (Rlt_dec a b); reflexivity. Qed.
Lemma leb_R (a b : R) : nleb a b = if Rle_dec a b then true else false.
Proof. cbn. unfold Rleb. destruct (Rle_dec a b); reflexivity. Qed.
Ltac mask := unfold prc_tdev, prc_mtie, eprtc_tdev, eprtc_mtie, prtcA_tdev, prtcB_tdev, prtcA_mtie, prtcB_mtie;
  rewrite ?ltb_R, ?leb_R, ?lit_R; cbn [ofZ nadd nmul RNum];
  repeat match goal with |- context [IZR (10 ^ ?k)] => let v := eval vm_compute in (10 ^ k)%Z in change (10 ^ k)%Z with v end;
  repeat match goal with |- context [Rlt_dec ?a ?b] => destruct (Rlt_dec a b) | |- context [Rle_dec ?a ?b] => destruct (Rle_dec a b) end.

(** (a, b), v : on a <= t < b the mask is v(t) *)
Theorem C64_prc_tdev t :
  (t < 100 -> prc_tdev t = 3 / 10 ^ 9) /\ (100 <= t < 1000 -> prc_tdev t = 3 * t / 10 ^ 11) /\ (1000 <= t -> prc_tdev t = 30 / 10 ^ 9).
Proof. repeat split; intros H; mask; lra. Qed.
Print Assumptions C64_prc_tdev.
Theorem C64_prc_mtie t :
  (t < 1000 -> prc_mtie t = (0.275 * t + 25) / 10 ^ 9) /\ (1000 <= t -> prc_mtie t = (0.01 * t + 290) / 10 ^ 9).
Proof. repeat split; intros H; mask; lra. Qed.
Print Assumptions C64_prc_mtie.
Theorem C64_eprtc_tdev t :
  (t < 30000 -> eprtc_tdev t = 1 / 10 ^ 9) /\ (30000 <= t < 300000 -> eprtc_tdev t = 0.333333 * t / 10 ^ 13) /\ (300000 <= t -> eprtc_tdev t = 10 / 10 ^ 9).
Proof. repeat split; intros H; mask; lra. Qed.
Print Assumptions C64_eprtc_tdev.
Theorem C64_eprtc_mtie t :
  (t <= 1 -> eprtc_mtie t = 4 / 10 ^ 9) /\ (1 < t <= 100 -> eprtc_mtie t = (0.11114 * t + 3.89) / 10 ^ 9) /\
  (100 < t <= 400000 -> eprtc_mtie t = (0.0000375 * t + 15) / 10 ^ 9) /\ (400000 < t -> eprtc_mtie t = 30 / 10 ^ 9).
Proof. repeat split; intros H; mask; lra. Qed.
Print Assumptions C64_eprtc_mtie.
Theorem C64_prtc_tdev t :
  prtcA_tdev t = prc_tdev t /\
  (t < 100 -> prtcB_tdev t = 1 / 10 ^ 9) /\ (100 <= t < 500 -> prtcB_tdev t = t / 10 ^ 11) /\ (500 <= t -> prtcB_tdev t = 5 / 10 ^ 9).
Proof. repeat split; intros; mask; lra. Qed.
Print Assumptions C64_prtc_tdev.
Theorem C64_prtc_mtie t :
  (t < 273 -> prtcA_mtie t = prc_mtie t) /\ (273 <= t -> prtcA_mtie t = 100 / 10 ^ 9) /\
  (t < 54.5 -> prtcB_mtie t = prc_mtie t) /\ (54.5 <= t -> prtcB_mtie t = 40 / 10 ^ 9).
Proof. repeat split; intros; mask; lra. Qed.
Print Assumptions C64_prtc_mtie.

Definition masks : list (R -> R) := [prc_tdev; prc_mtie; eprtc_tdev; eprtc_mtie; prtcA_tdev; prtcB_tdev; prtcA_mtie; prtcB_mtie].
Theorem C64_positive m t : In m masks -> 0 <= t -> 0 < m t.
Proof. intros H Ht. cbn in H. repeat destruct H as [<-|H]; [mask; lra ..|contradiction]. Qed.
Print Assumptions C64_positive.
Theorem C64_monotone m s t : In m [prc_tdev; prc_mtie; prtcA_tdev; prtcB_tdev; prtcB_mtie] -> 0 <= s <= t -> m s <= m t.
Proof. intros H Ht. cbn in H. repeat destruct H as [<-|H]; [mask; lra ..|contradiction]. Qed.
Print Assumptions C64_monotone.
(** no jump: the mask changes by at most slope * distance *)
Theorem C64_continuous m s t : In m [prc_tdev; prc_mtie; prtcA_tdev; prtcB_tdev] -> Rabs (m s - m t) <= 0.275 / 10 ^ 9 * Rabs (s - t).
Proof.
  intros H. assert (W : forall s t, s <= t -> - (0.275 / 10 ^ 9 * (t - s)) <= m s - m t <= 0.275 / 10 ^ 9 * (t - s)).
  { clear s t. intros s t Ht. cbn in H. repeat destruct H as [<-|H]; [mask; lra ..|contradiction]. }
  destruct (Rle_dec s t) as [Hs|Hs].
  - specialize (W s t Hs). rewrite (Rabs_left1 (s - t)) by lra. apply Rabs_le. lra.
  - specialize (W t s ltac:(lra)). rewrite (Rabs_right (s - t)) by lra. apply Rabs_le. lra.
Qed.
Print Assumptions C64_continuous.
(** the others step down where a larger tau should not get a tighter mask *)
Theorem C64_monotone_refuted :
  eprtc_tdev 30000 < eprtc_tdev 29999 /\ eprtc_mtie 101 < eprtc_mtie 100 /\ prtcA_mtie 273 < prtcA_mtie 272.9.
Proof. repeat split; mask; lra. Qed.
Print Assumptions C64_monotone_refuted.
Theorem C64_continuous_refuted m : In m [eprtc_tdev; eprtc_mtie; prtcA_mtie; prtcB_mtie] ->
  exists t d, 0 < d /\ forall e, 0 < e -> exists s, Rabs (s - t) < e /\ d <= Rabs (m s - m t).
Proof.
  intros H. cbn in H. destruct H as [<-|[<-|[<-|[<-|[]]]]].
  - exists 30000, (1 / 10 ^ 16). split; [lra|]. intros e He. exists (30000 - Rmin 1 (e / 2)).
    assert (0 < Rmin 1 (e / 2) <= 1 /\ Rmin 1 (e / 2) < e) by (unfold Rmin; destruct (Rle_dec 1 (e / 2)); lra). set (k := Rmin _ _) in *. split.
    + rewrite Rabs_left; lra.
    + rewrite Rabs_right; mask; lra.
  - exists 100, (1 / 10 ^ 13). split; [lra|]. intros e He. exists (100 + Rmin 1 (e / 2)).
    assert (0 < Rmin 1 (e / 2) <= 1 /\ Rmin 1 (e / 2) < e) by (unfold Rmin; destruct (Rle_dec 1 (e / 2)); lra). set (k := Rmin _ _) in *. split.
    + rewrite Rabs_right; lra.
    + rewrite Rabs_left; mask; lra.
  - exists 273, (1 / 10 ^ 14). split; [lra|]. intros e He. exists (273 - Rmin (1/10) (e / 2)).
    assert (0 < Rmin (1/10) (e / 2) <= 1/10 /\ Rmin (1/10) (e / 2) < e) by (unfold Rmin; destruct (Rle_dec (1/10) (e / 2)); lra). set (k := Rmin _ _) in *. split.
    + rewrite Rabs_left; lra.
    + rewrite Rabs_right; mask; lra.
  - exists 54.5, (1 / 10 ^ 14). split; [lra|]. intros e He. exists (54.5 - Rmin (1/100) (e / 2)).
    assert (0 < Rmin (1/100) (e / 2) <= 1/100 /\ Rmin (1/100) (e / 2) < e) by (unfold Rmin; destruct (Rle_dec (1/100) (e / 2)); lra). set (k := Rmin _ _) in *. split.
    + rewrite Rabs_left; lra.
    + rewrite Rabs_left; mask; lra.
Qed.
Print Assumptions C64_continuous_refuted.
(** in binary64 even prtcB_tdev steps down, by one unit in the last place, at 100 s *)
Theorem C64_binary64_refuted : exists s t : float, PrimFloat.leb s t = true /\ PrimFloat.ltb (prtcB_tdev t) (prtcB_tdev s) = true.
Proof. exists 99%float, 100%float. split; vm_compute; reflexivity. Qed.
Print Assumptions C64_binary64_refuted.
Example C64_ex : prc_tdev 500 = 15 / 10 ^ 9 /\ prc_mtie 2000 = 310 / 10 ^ 9 /\ prtcB_mtie 40 = 36 / 10 ^ 9.
Proof. repeat split; mask; lra. Qed.
