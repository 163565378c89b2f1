(** * Properties C11-C13: conversions between phase and frequency. *)
From Coq Require Import String Reals List ZArith Lra Lia Arith Bool Sorted.
From Verif Require Import Base Num NpList ModelCore ModelDev NumR ListFacts Spec GenericProofs Closed Laws2 ConvProofs.
Import ListNotations.
Local Open Scope R_scope.
Local Notation len := List.length.

(** ** C11 *)
Theorem C11_freq_roundtrip f rate : f <> [] -> rate <> 0 -> exists x,
  frequency2phase f rate = Ok x /\ len x = S (len f) /\ x.[0] = 0 /\ x.[len f] = 0 /\
  phase2frequency x rate = map (fun v => v - average f) f.
Proof. exact (roundtrip_freq f rate). Qed.
Print Assumptions C11_freq_roundtrip.

(** The phase itself: integrated frequencies minus the mean-frequency ramp. *)
Theorem C11_phase_values f rate : f <> [] -> rate <> 0 ->
  frequency2phase f rate = Ok (shifted (line 0 (- average f / rate)) (integrated f rate)).
Proof. exact (frequency2phase_integrated f rate). Qed.
Print Assumptions C11_phase_values.

Theorem C11_phase_roundtrip x rate : (2 <= len x)%nat -> rate <> 0 ->
  frequency2phase (phase2frequency x rate) rate =
  Ok (map (fun i => x.[i] - (x.[0] + (x.[len x - 1] - x.[0]) * (INR i / INR (len x - 1)))) (seq 0 (len x))).
Proof. exact (roundtrip_phase x rate). Qed.
Print Assumptions C11_phase_roundtrip.

Example C11_ex : exists x, frequency2phase [1; 2; 6] 2 = Ok x /\ len x = 4%nat /\ x.[0] = 0 /\ x.[3] = 0 /\
  phase2frequency x 2 = [-2; -1; 3].
Proof.
  destruct (C11_freq_roundtrip [1; 2; 6] 2) as (x & H1 & H2 & H3 & H4 & H5); [discriminate|lra|].
  exists x. repeat split; auto. rewrite H5. unfold average. cbn.
  f_equal; [lra|]. f_equal; [lra|]. f_equal. lra.
Qed.

(** ** C12 *)
Theorem C12_trend_blind y rate taus f :
  In f [adev; oadev; hdev; ohdev; mdev; tdev; pdev; totdev; mtotdev; ttotdev; htotdev; theo1] ->
  y <> [] -> 0 < rate ->
  f y rate "freq"%string taus = f (integrated y rate) rate "phase"%string taus.
Proof.
  intros Hf Hy Hr. change (In f (map s_fun line_blind)) in Hf.
  apply in_map_iff in Hf as (s & <- & Hs).
  assert (Hd : s = st_htotdev \/ s <> st_htotdev).
  { destruct Hs as [<-|Hs]; [right; intros E; apply (f_equal (fun s => s_base s 1)) in E; discriminate|].
    repeat (destruct Hs as [<-|Hs]; [first [left; reflexivity |
      right; intros E; apply (f_equal (fun s => s_base s 1)) in E; discriminate]|]). destruct Hs. }
  destruct Hd as [->|Hd]; [now apply htotdev_freq_input|now apply freq_input].
Qed.
Print Assumptions C12_trend_blind.

Theorem C12_mtie_refuted : exists y rate taus, y <> [] /\ 0 < rate /\
  mtie y rate "freq" taus <> mtie (integrated y rate) rate "phase" taus.
Proof. exact mtie_freq_refuted. Qed.
Print Assumptions C12_mtie_refuted.

Theorem C12_tierms_refuted : exists y rate taus, y <> [] /\ 0 < rate /\
  tierms y rate "freq" taus <> tierms (integrated y rate) rate "phase" taus.
Proof. exact tierms_freq_refuted. Qed.
Print Assumptions C12_tierms_refuted.

Example C12_ex : mdev [1; 5; 2; 2; 8] 2 "freq" (TStr "all") = mdev [0; 1/2; 3; 4; 5; 9] 2 "phase" (TStr "all").
Proof.
  rewrite (C12_trend_blind [1; 5; 2; 2; 8] 2 (TStr "all") mdev); [|cbn; tauto|discriminate|lra].
  f_equal. unfold integrated. cbn. repeat (apply f_equal2; [lra|]). reflexivity.
Qed.

(** ** C13 *)
Theorem C13_given f mu : mu <> -1 -> frequency2fractional f mu = map (fun v => (v - mu) / mu) f.
Proof. exact (frequency2fractional_given f mu). Qed.
Print Assumptions C13_given.
Theorem C13_default f : frequency2fractional f (-1) = map (fun v => (v - average f) / average f) f.
Proof. exact (frequency2fractional_default f). Qed.
Print Assumptions C13_default.
Theorem C13_zero_mean f : f <> [] -> average f <> 0 -> average (frequency2fractional f (-1)) = 0.
Proof. exact (frequency2fractional_mean f). Qed.
Print Assumptions C13_zero_mean.
Theorem C13_radians x v0 : phase2radians PI x v0 = map (fun v => 2 * PI * v0 * v) x.
Proof. exact (phase2radians_spec x v0). Qed.
Print Assumptions C13_radians.
Example C13_ex : frequency2fractional [9; 11; 13] (-1) = [-2/11; 0; 2/11].
Proof.
  rewrite C13_default. unfold average. cbn. repeat (apply f_equal2; [lra|]). reflexivity.
Qed.
