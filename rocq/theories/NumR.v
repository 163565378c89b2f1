(** * Exact real arithmetic instance of the number interface. *)
From Coq Require Import Reals ZArith List Lra Lia Bool.
From Verif Require Import Num.
Import ListNotations.
Local Open Scope R_scope.

Definition Rltb (a b : R) : bool := if Rlt_dec a b then true else false.
Definition Rleb (a b : R) : bool := if Rle_dec a b then true else false.
Definition Reqb (a b : R) : bool := if Req_EM_T a b then true else false.

(** np.round: nearest integer, ties to even. *)
Definition rintR (x : R) : Z :=
  let f := Int_part x in
  let d := x - IZR f in
  if Rlt_dec d (1/2) then f
  else if Rlt_dec (1/2) d then (f + 1)%Z
  else if Z.even f then f else (f + 1)%Z.

(** int(x). *)
Definition truncR (x : R) : Z :=
  if Rle_dec 0 x then Int_part x else (- Int_part (- x))%Z.

(** log10 *)
Definition log10R (x : R) : R := ln x / ln 10.

(** np.logspace(0, log10 N, int(10 log10 N), base=10) *)
Definition logspace10R (n : nat) : list R :=
  let maxn := log10R (INR n) in
  let num := Z.to_nat (truncR (10 * maxn)) in
  map (fun i => Rpower 10 (INR i * (maxn / (INR num - 1)))) (seq 0 num).

Global Instance RNum : Num R := {
  ofZ := IZR;
  nadd := Rplus;
  nsub := Rminus;
  nmul := Rmult;
  ndiv := Rdiv;
  nabs := Rabs;
  nsqrt := sqrt;
  nltb := Rltb;
  nleb := Rleb;
  neqb := Reqb;
  nisnan := fun _ => false;
  nrint := fun x => Some (rintR x);
  ntrunc := fun x => Some (truncR x);
  nlogspace10 := logspace10R
}.

(** Independent specification of rounding: [z] is a nearest integer to [x],
    and is even when there are two of them. *)
Definition half_even (x : R) (z : Z) : Prop :=
  Rabs (x - IZR z) < 1/2 \/ (Rabs (x - IZR z) = 1/2 /\ Z.even z = true).

Lemma Int_part_bounds x : IZR (Int_part x) <= x < IZR (Int_part x) + 1.
Proof. destruct (base_Int_part x); lra. Qed.

Lemma rintR_spec x : half_even x (rintR x).
Proof.
  unfold half_even, rintR. pose proof (Int_part_bounds x) as [H1 H2].
  set (f := Int_part x) in *. clearbody f.
  destruct (Rlt_dec _ _) as [Hd|Hd].
  - left. rewrite Rabs_pos_eq; lra.
  - destruct (Rlt_dec _ _) as [He|He].
    + left. rewrite plus_IZR. rewrite Rabs_left; lra.
    + assert (x - IZR f = 1/2) by lra.
      destruct (Z.even f) eqn:E.
      * right. split; [rewrite Rabs_pos_eq; lra | exact E].
      * right. rewrite plus_IZR. split.
        { rewrite Rabs_left; lra. }
        { rewrite Z.even_add, E. reflexivity. }
Qed.

Lemma half_even_unique x a b : half_even x a -> half_even x b -> a = b.
Proof.
  unfold half_even. intros Ha Hb.
  assert (Hle : forall z, Rabs (x - IZR z) < 1/2 \/ (Rabs (x - IZR z) = 1/2 /\ Z.even z = true)
          -> -(1/2) <= x - IZR z <= 1/2).
  { intros z [H|[H _]]; unfold Rabs in H; destruct (Rcase_abs _); lra. }
  pose proof (Hle a Ha) as La. pose proof (Hle b Hb) as Lb.
  assert (Hd : -1 <= IZR (a - b) <= 1) by (rewrite minus_IZR; lra).
  destruct Hd as [Hd1 Hd2]. apply le_IZR in Hd1, Hd2.
  assert (a - b = -1 \/ a - b = 0 \/ a - b = 1)%Z as [E|[E|E]] by lia; [|lia|].
  - assert (IZR a = IZR b - 1) as Eab by (replace a with (b - 1)%Z by lia; rewrite minus_IZR; lra).
    assert (x - IZR b = -(1/2)) by lra. assert (x - IZR a = 1/2) by lra.
    destruct Ha as [Ha|[_ Ha]]; [unfold Rabs in Ha; destruct (Rcase_abs _); lra|].
    destruct Hb as [Hb|[_ Hb]]; [unfold Rabs in Hb; destruct (Rcase_abs _); lra|].
    replace b with (a + 1)%Z in Hb by lia. rewrite Z.even_add, Ha in Hb. discriminate.
  - assert (IZR a = IZR b + 1) as Eab by (replace a with (b + 1)%Z by lia; rewrite plus_IZR; lra).
    assert (x - IZR b = 1/2) by lra. assert (x - IZR a = -(1/2)) by lra.
    destruct Ha as [Ha|[_ Ha]]; [unfold Rabs in Ha; destruct (Rcase_abs _); lra|].
    destruct Hb as [Hb|[_ Hb]]; [unfold Rabs in Hb; destruct (Rcase_abs _); lra|].
    replace a with (b + 1)%Z in Ha by lia. rewrite Z.even_add, Hb in Ha. discriminate.
Qed.

Lemma rintR_iff x z : rintR x = z <-> half_even x z.
Proof.
  split.
  - intros <-. apply rintR_spec.
  - intros H. eapply half_even_unique; [apply rintR_spec | exact H].
Qed.

Lemma half_even_IZR z : half_even (IZR z) z.
Proof. left. replace (IZR z - IZR z) with 0 by ring. rewrite Rabs_R0. lra. Qed.

Lemma rintR_IZR z : rintR (IZR z) = z.
Proof. apply rintR_iff, half_even_IZR. Qed.

Lemma Rltb_true a b : Rltb a b = true <-> a < b.
Proof. unfold Rltb; destruct (Rlt_dec a b); split; intros; auto; discriminate. Qed.
Lemma Rleb_true a b : Rleb a b = true <-> a <= b.
Proof. unfold Rleb; destruct (Rle_dec a b); split; intros; auto; discriminate. Qed.
Lemma Reqb_true a b : Reqb a b = true <-> a = b.
Proof. unfold Reqb; destruct (Req_EM_T a b); split; intros; auto; discriminate. Qed.
Lemma Reqb_false a b : Reqb a b = false <-> a <> b.
Proof. unfold Reqb; destruct (Req_EM_T a b); split; intros; auto; try discriminate; contradiction. Qed.
Lemma Rltb_false a b : Rltb a b = false <-> b <= a.
Proof. unfold Rltb; destruct (Rlt_dec a b); split; intros; auto; try discriminate; lra. Qed.
Lemma Rleb_false a b : Rleb a b = false <-> b < a.
Proof. unfold Rleb; destruct (Rle_dec a b); split; intros; auto; try discriminate; lra. Qed.

Lemma ofN_R n : IZR (Z.of_nat n) = INR n.
Proof. symmetry. apply INR_IZR_INZ. Qed.
