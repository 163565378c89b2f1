(** * The tables of edf_greenhall for odd alpha and d <= 2 (C93) *)
From Coq Require Import Reals List ZArith Lra Lia Arith Bool Psatz.
From Verif Require Import Base Num NpList NumR ModelCiR Spec GreenProofs GreenTab GreenPoly GreenOdd PropsGreenTab.
Local Open Scope R_scope.

Theorem C93_odd_coef F alpha d a0 a1 : kernel_case F alpha d -> Z.odd alpha = true -> (d <= 2)%nat -> table F alpha d = Ok (a0, a1) ->
  let n := order F d in let p := power F alpha in Rabs (a0 - coef0 n p (d + 1)) <= 1 / 1000 /\ Rabs (a1 - coef1 n p (d + 1)) <= 1 / 1000.
Proof.
  intros (Hd & Hc & Ha) Ho Hd2 HT n p. assert (Hd' : d = 1%nat \/ d = 2%nat) by lia.
  assert (Hc' : (alpha = 1 \/ alpha = -1 \/ alpha = -3)%Z) by (apply Z.odd_spec in Ho as [k ->]; lia).
  destruct Ha as [[-> Ha]|[-> Ha]]; destruct Hd' as [-> | ->]; destruct Hc' as [-> | [-> | ->]]; try (exfalso; cbn in Hc; lia);
    (refine ((fun E => _) (eq_trans (y := Ok (_, _)) (eq_sym HT) _)); [|reflexivity]); injection E as -> ->.
  - exact odd_222.
  - exact odd_323.
  - exact odd_343.
  - exact odd_223.
Qed.
Print Assumptions C93_odd_coef.

(** *** example: flicker PM and flicker FM for the modified Allan variance, flicker FM for the Allan variance *)
Example C93_ex_odd : kernel_case (Some 1) 1 2 /\ kernel_case (Some 1) (-1) 2 /\ kernel_case None (-1) 2.
Proof. unfold kernel_case. repeat split; try lia; [left|left|right]; split; try reflexivity; lia. Qed.
