(** * Finite sums of reals, and the link from the model's list sums to them. *)
From Coq Require Import Reals List ZArith Lra Lia Arith.
From Verif Require Import Base Num NpList NumR ListFacts Spec.
Import ListNotations.
Local Open Scope R_scope.

Lemma bigsum_ext n f g : (forall i, (i < n)%nat -> f i = g i) -> bigsum n f = bigsum n g.
Proof.
  induction n as [|n IH]; intros H; cbn; [reflexivity|].
  rewrite IH by (intros; apply H; lia). now rewrite H by lia.
Qed.

Lemma bigsum_plus n f g : bigsum n (fun i => f i + g i) = bigsum n f + bigsum n g.
Proof. induction n as [|n IH]; cbn; [ring|]. rewrite IH. ring. Qed.

Lemma bigsum_minus n f g : bigsum n (fun i => f i - g i) = bigsum n f - bigsum n g.
Proof. induction n as [|n IH]; cbn; [ring|]. rewrite IH. ring. Qed.

Lemma bigsum_scal n c f : bigsum n (fun i => c * f i) = c * bigsum n f.
Proof. induction n as [|n IH]; cbn; [ring|]. rewrite IH. ring. Qed.

Lemma bigsum_scal_r n c f : bigsum n (fun i => f i * c) = bigsum n f * c.
Proof. induction n as [|n IH]; cbn; [ring|]. rewrite IH. ring. Qed.

Lemma bigsum_const n c : bigsum n (fun _ => c) = INR n * c.
Proof. induction n as [|n IH]; [cbn; ring|]. rewrite S_INR. cbn [bigsum]. rewrite IH. ring. Qed.

Lemma bigsum_0 n f : (forall i, (i < n)%nat -> f i = 0) -> bigsum n f = 0.
Proof. intros H. rewrite (bigsum_ext n f (fun _ => 0)) by exact H. rewrite bigsum_const. ring. Qed.

Lemma bigsum_S_l n f : bigsum (S n) f = f 0%nat + bigsum n (fun i => f (S i)).
Proof. induction n as [|n IH]; [cbn; ring|]. cbn [bigsum] in *. rewrite IH. ring. Qed.

Lemma bigsum_add n m f : bigsum (n + m) f = bigsum n f + bigsum m (fun i => f (n + i)%nat).
Proof.
  induction m as [|m IH]; [rewrite Nat.add_0_r; cbn; ring|].
  rewrite Nat.add_succ_r. cbn [bigsum]. rewrite IH. ring.
Qed.

Lemma bigsum_rev n f : bigsum n (fun i => f (n - 1 - i)%nat) = bigsum n f.
Proof.
  revert f. induction n as [|n IH]; intros f; [reflexivity|].
  rewrite bigsum_S_l. cbn [bigsum]. replace (S n - 1 - 0)%nat with n by lia.
  rewrite <- (IH f). rewrite Rplus_comm. f_equal. apply bigsum_ext. intros; f_equal; lia.
Qed.

Lemma bigsum_nonneg n f : (forall i, (i < n)%nat -> 0 <= f i) -> 0 <= bigsum n f.
Proof.
  induction n as [|n IH]; intros H; cbn; [lra|].
  assert (0 <= f n) by (apply H; lia). assert (0 <= bigsum n f) by (apply IH; intros; apply H; lia). lra.
Qed.

Lemma bigsum_le n f g : (forall i, (i < n)%nat -> f i <= g i) -> bigsum n f <= bigsum n g.
Proof.
  induction n as [|n IH]; intros H; cbn; [lra|].
  assert (f n <= g n) by (apply H; lia).
  assert (bigsum n f <= bigsum n g) by (apply IH; intros; apply H; lia). lra.
Qed.

Lemma bigsum_zero_all n f : (forall i, (i < n)%nat -> 0 <= f i) -> bigsum n f = 0 ->
  forall i, (i < n)%nat -> f i = 0.
Proof.
  induction n as [|n IH]; intros H H0 i Hi; [lia|]. cbn in H0.
  assert (0 <= f n) by (apply H; lia).
  assert (0 <= bigsum n f) by (apply bigsum_nonneg; intros; apply H; lia).
  destruct (Nat.eq_dec i n) as [->|Hn]; [lra|].
  apply IH; try lia; [intros; apply H; lia|lra].
Qed.

Lemma fold_left_plus_acc l a : fold_left Rplus l a = a + fold_left Rplus l 0.
Proof.
  revert a. induction l as [|x t IH]; intros a; cbn; [ring|].
  rewrite IH, (IH (0 + x)). ring.
Qed.

Lemma asum_tab n f : asum (tab n f) = bigsum n f.
Proof.
  unfold asum. cbn [nadd ofZ RNum].
  induction n as [|n IH]; [reflexivity|].
  rewrite tab_snoc, fold_left_app. cbn [fold_left]. rewrite IH. reflexivity.
Qed.

Lemma asum_list l : asum l = bigsum (length l) (fun i => l.[i]).
Proof. rewrite (list_tab l 0) at 1. apply asum_tab. Qed.

Lemma cumsum_from_tab n f (a : R) :
  cumsum_from a (tab n f) = tab n (fun i => a + bigsum (S i) f).
Proof.
  revert f a. induction n as [|n IH]; intros f a; [reflexivity|].
  rewrite !tab_S. cbn [cumsum_from nadd RNum]. rewrite IH. f_equal.
  - cbn. ring.
  - apply tab_ext. intros i Hi. rewrite (bigsum_S_l (S i)). ring.
Qed.

Lemma cumsum_tab n f : cumsum (tab n f) = tab n (fun i => bigsum (S i) f).
Proof.
  destruct n as [|n]; [reflexivity|]. rewrite !tab_S. unfold cumsum.
  rewrite cumsum_from_tab. f_equal; [cbn; ring|].
  apply tab_ext. intros i Hi. rewrite (bigsum_S_l (S i)). ring.
Qed.

Lemma nsq_R (x : R) : nsq x = x ^ 2.
Proof. unfold nsq. cbn. ring. Qed.

Lemma ofN_INR n : @ofN R _ n = INR n.
Proof. unfold ofN. cbn. apply ofN_R. Qed.
