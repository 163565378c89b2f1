(** * Odd alpha: the integrals of the logarithmic kernels behind edf_greenhall's tables, enclosed by interval arithmetic *)
From Coq Require Import Reals List ZArith Lra Lia Arith Bool Psatz.
From Coquelicot Require Import Coquelicot.
From Interval Require Import Tactic.
From Verif Require Import Spec GreenTab GreenPoly.
Local Open Scope R_scope.

Lemma pl_pos p x : Nat.even p = true -> 0 < x -> powlog p x = x ^ p * ln x.
Proof. intros Hp Hx. unfold powlog. rewrite Hp, Rabs_right by lra. reflexivity. Qed.
Lemma pl_neg p t j : Nat.even p = true -> t < j -> powlog p (t - j) = (j - t) ^ p * ln (j - t).
Proof.
  intros Hp Ht. unfold powlog. rewrite Hp, Rabs_left by lra. replace (- (t - j)) with (j - t) by ring. f_equal.
  apply Nat.even_spec in Hp as [k ->]. rewrite !pow_mult. f_equal. ring.
Qed.
Lemma pl_small p x : Nat.even p = true -> (2 <= p)%nat -> Rabs x <= 1 / 512 -> Rabs (powlog p x) <= 1 / 512.
Proof.
  intros Hp H2 Hx. unfold powlog. rewrite Hp. rewrite Rabs_mult, <- RPow_abs. set (y := Rabs x) in *. assert (y0 : 0 <= y) by apply Rabs_pos.
  destruct (Req_dec y 0) as [->|Hy]; [rewrite pow_i by lia; lra|]. assert (Y : 0 < y) by lra.
  assert (L : - ln y <= / y).
  { rewrite <- ln_Rinv by exact Y. assert (0 < / y) by now apply Rinv_0_lt_compat. pose proof (exp_ineq1_le (ln (/ y))) as E. rewrite exp_ln in E by assumption. lra. }
  assert (L0 : ln y <= 0) by (rewrite <- ln_1; apply Rcomplements.ln_le; lra). rewrite (Rabs_left1 (ln y)) by exact L0.
  destruct p as [|[|p]]; try lia. cbn [pow]. assert (P : 0 <= y ^ p <= 1) by (split; [apply pow_le; lra|rewrite <- (pow1 p); apply pow_incr; lra]).
  assert (Q : y * - ln y <= 1) by (apply Rmult_le_reg_l with (/ y); [now apply Rinv_0_lt_compat|]; rewrite <- Rmult_assoc, Rinv_l, Rmult_1_l by lra; lra).
  assert (0 <= y * - ln y) by nra. replace (y * (y * y ^ p) * - ln y) with ((y * y ^ p) * (y * - ln y)) by ring.
  assert (0 <= y * y ^ p <= 1 / 512) by nra. nra.
Qed.

(** enclosures of an integral *)
Definition encl (g : R -> R) (a b lo hi : R) : Prop := lo <= RInt g a b <= hi.
Lemma encl_chain g a b c lo1 hi1 lo2 hi2 lo hi : lips g -> encl g a b lo1 hi1 -> encl g b c lo2 hi2 -> lo <= lo1 + lo2 -> hi1 + hi2 <= hi -> encl g a c lo hi.
Proof.
  intros L H1 H2 H3 H4. unfold encl in *. assert (C : RInt g a c = RInt g a b + RInt g b c) by (symmetry; exact (RInt_Chasles g a b c (lips_int g a b L) (lips_int g b c L))).
  rewrite C. lra.
Qed.
Lemma encl_edge g a b lo hi : lips g -> a <= b -> (forall t, a <= t <= b -> lo <= g t <= hi) -> encl g a b (lo * (b - a)) (hi * (b - a)).
Proof.
  intros L H B. unfold encl. pose proof (RInt_const a b lo) as El. pose proof (RInt_const a b hi) as Eh. change (scal (b - a) lo) with ((b - a) * lo) in El. change (scal (b - a) hi) with ((b - a) * hi) in Eh.
  split.
  - rewrite Rmult_comm, <- El. apply RInt_le; [exact H|apply ex_RInt_const|apply lips_int, L|]. intros t Ht. apply B. lra.
  - rewrite Rmult_comm, <- Eh. apply RInt_le; [exact H|apply lips_int, L|apply ex_RInt_const|]. intros t Ht. apply B. lra.
Qed.
Lemma kern2 p t : kern 2 p t = 6 * powlog p t - 4 * powlog p (t - 1) - 4 * powlog p (t + 1) + powlog p (t - 2) + powlog p (t + 2).
Proof. apply iter2. Qed.
Lemma kern3 p t : kern 3 p t = 20 * powlog p t - 15 * powlog p (t - 1) - 15 * powlog p (t + 1) + 6 * powlog p (t - 2) + 6 * powlog p (t + 2) - powlog p (t - 3) - powlog p (t + 3).
Proof. apply iter3. Qed.
Ltac logs t := repeat match goal with
  | |- context [powlog ?p (t - ?j)] => first [rewrite (pl_neg p t j) by (reflexivity || lra) | rewrite (pl_pos p (t - j)) by (reflexivity || lra)]
  | |- context [powlog ?p (t + ?j)] => rewrite (pl_pos p (t + j)) by (reflexivity || lra)
  | |- context [powlog ?p t] => rewrite (pl_pos p t) by (reflexivity || lra)
  end.
Ltac kexp t := match goal with |- context [kern 2 ?p t] => rewrite (kern2 p t) | |- context [kern 3 ?p t] => rewrite (kern3 p t) end.
Ltac mid := unfold encl; erewrite RInt_ext; [|intros t Ht; rewrite Rmin_left, Rmax_right in Ht by lra; kexp t; logs t; reflexivity]; integral with (i_prec 30, i_fuel 400, i_degree 6).
Ltac edge0 := intros t Ht; kexp t;
  match goal with |- context [powlog ?p t] => let s := fresh "s" in let H := fresh in pose proof (pl_small p t eq_refl ltac:(lia) ltac:(apply Rabs_le; lra)) as H; set (s := powlog p t) in *; clearbody s; apply Rabs_le_between in H end; logs t; split; interval with (i_bisect t).
Ltac edge k := intros t Ht; kexp t;
  try match goal with |- context [powlog ?p (t - k)] => let s := fresh "s" in let H := fresh in pose proof (pl_small p (t - k) eq_refl ltac:(lia) ltac:(apply Rabs_le; lra)) as H; set (s := powlog p (t - k)) in *; clearbody s; apply Rabs_le_between in H end; logs t; split; interval with (i_bisect t).
Lemma lips_k2 n p : (1 <= p)%nat -> lips (fun t => kern n p t ^ 2).
Proof. intros. now apply lips_pow, lips_kern. Qed.
Lemma lips_tk2 n p : (1 <= p)%nat -> lips (fun t => t * kern n p t ^ 2).
Proof. intros. apply lips_mult; [apply lips_id|now apply lips_k2]. Qed.

Lemma e320_0 : encl (fun t => kern 3 2 t ^ 2) (0 / 512) (1 / 512) (181035 / 1000 * (1 / 512 - 0 / 512)) (183237 / 1000 * (1 / 512 - 0 / 512)).
Proof. apply encl_edge; [exact (lips_k2 3 2 ltac:(lia))|lra|]. edge0. Qed.
Lemma c320_1 : encl (fun t => kern 3 2 t ^ 2) (0 / 512) (1 / 512) (353 / 1000) (358 / 1000).
Proof. pose proof e320_0 as H. unfold encl in *. lra. Qed.
Lemma m320_0 : encl (fun t => kern 3 2 t ^ 2) (1 / 512) (511 / 512) (59837 / 1000) (59852 / 1000).
Proof. mid. Qed.
Lemma c320_511 : encl (fun t => kern 3 2 t ^ 2) (0 / 512) (511 / 512) (60190 / 1000) (60210 / 1000).
Proof. eapply encl_chain; [exact (lips_k2 3 2 ltac:(lia))|exact c320_1|exact m320_0|lra|lra]. Qed.
Lemma e320_1 : encl (fun t => kern 3 2 t ^ 2) (511 / 512) (513 / 512) (50695 / 1000 * (513 / 512 - 511 / 512)) (53466 / 1000 * (513 / 512 - 511 / 512)).
Proof. apply encl_edge; [exact (lips_k2 3 2 ltac:(lia))|lra|]. edge 1. Qed.
Lemma c320_513 : encl (fun t => kern 3 2 t ^ 2) (0 / 512) (513 / 512) (60388 / 1000) (60419 / 1000).
Proof. eapply encl_chain; [exact (lips_k2 3 2 ltac:(lia))|exact c320_511|exact e320_1|lra|lra]. Qed.
Lemma m320_1 : encl (fun t => kern 3 2 t ^ 2) (513 / 512) (1023 / 512) (29777 / 1000) (29792 / 1000).
Proof. mid. Qed.
Lemma c320_1023 : encl (fun t => kern 3 2 t ^ 2) (0 / 512) (1023 / 512) (90165 / 1000) (90211 / 1000).
Proof. eapply encl_chain; [exact (lips_k2 3 2 ltac:(lia))|exact c320_513|exact m320_1|lra|lra]. Qed.
Lemma e320_2 : encl (fun t => kern 3 2 t ^ 2) (1023 / 512) (1025 / 512) ((-1093 / 1000) * (1025 / 512 - 1023 / 512)) (1094 / 1000 * (1025 / 512 - 1023 / 512)).
Proof. apply encl_edge; [exact (lips_k2 3 2 ltac:(lia))|lra|]. edge 2. Qed.
Lemma c320_1025 : encl (fun t => kern 3 2 t ^ 2) (0 / 512) (1025 / 512) (90160 / 1000) (90216 / 1000).
Proof. eapply encl_chain; [exact (lips_k2 3 2 ltac:(lia))|exact c320_1023|exact e320_2|lra|lra]. Qed.
Lemma m320_2 : encl (fun t => kern 3 2 t ^ 2) (1025 / 512) (1535 / 512) (570 / 1000) (586 / 1000).
Proof. mid. Qed.
Lemma c320_1535 : encl (fun t => kern 3 2 t ^ 2) (0 / 512) (1535 / 512) (90730 / 1000) (90802 / 1000).
Proof. eapply encl_chain; [exact (lips_k2 3 2 ltac:(lia))|exact c320_1025|exact m320_2|lra|lra]. Qed.
Lemma e320_3l : encl (fun t => kern 3 2 t ^ 2) (1535 / 512) (1536 / 512) ((-962 / 1000) * (1536 / 512 - 1535 / 512)) (1227 / 1000 * (1536 / 512 - 1535 / 512)).
Proof. apply encl_edge; [exact (lips_k2 3 2 ltac:(lia))|lra|]. edge 3. Qed.
Lemma c320_1536 : encl (fun t => kern 3 2 t ^ 2) (0 / 512) (1536 / 512) (90728 / 1000) (90805 / 1000).
Proof. eapply encl_chain; [exact (lips_k2 3 2 ltac:(lia))|exact c320_1535|exact e320_3l|lra|lra]. Qed.
(* T=3: 0.996227..0.997073 *)
Lemma e321_0 : encl (fun t => t * kern 3 2 t ^ 2) (0 / 512) (1 / 512) ((-1093 / 1000) * (1 / 512 - 0 / 512)) (1449 / 1000 * (1 / 512 - 0 / 512)).
Proof. apply encl_edge; [exact (lips_tk2 3 2 ltac:(lia))|lra|]. edge0. Qed.
Lemma c321_1 : encl (fun t => t * kern 3 2 t ^ 2) (0 / 512) (1 / 512) ((-3 / 1000)) (3 / 1000).
Proof. pose proof e321_0 as H. unfold encl in *. lra. Qed.
Lemma m321_0 : encl (fun t => t * kern 3 2 t ^ 2) (1 / 512) (511 / 512) (16045 / 1000) (16061 / 1000).
Proof. mid. Qed.
Lemma c321_511 : encl (fun t => t * kern 3 2 t ^ 2) (0 / 512) (511 / 512) (16042 / 1000) (16064 / 1000).
Proof. eapply encl_chain; [exact (lips_tk2 3 2 ltac:(lia))|exact c321_1|exact m321_0|lra|lra]. Qed.
Lemma e321_1 : encl (fun t => t * kern 3 2 t ^ 2) (511 / 512) (513 / 512) (50594 / 1000 * (513 / 512 - 511 / 512)) (53568 / 1000 * (513 / 512 - 511 / 512)).
Proof. apply encl_edge; [exact (lips_tk2 3 2 ltac:(lia))|lra|]. edge 1. Qed.
Lemma c321_513 : encl (fun t => t * kern 3 2 t ^ 2) (0 / 512) (513 / 512) (16239 / 1000) (16274 / 1000).
Proof. eapply encl_chain; [exact (lips_tk2 3 2 ltac:(lia))|exact c321_511|exact e321_1|lra|lra]. Qed.
Lemma m321_1 : encl (fun t => t * kern 3 2 t ^ 2) (513 / 512) (1023 / 512) (38363 / 1000) (38379 / 1000).
Proof. mid. Qed.
Lemma c321_1023 : encl (fun t => t * kern 3 2 t ^ 2) (0 / 512) (1023 / 512) (54602 / 1000) (54653 / 1000).
Proof. eapply encl_chain; [exact (lips_tk2 3 2 ltac:(lia))|exact c321_513|exact m321_1|lra|lra]. Qed.
Lemma e321_2 : encl (fun t => t * kern 3 2 t ^ 2) (1023 / 512) (1025 / 512) ((-1093 / 1000) * (1025 / 512 - 1023 / 512)) (1095 / 1000 * (1025 / 512 - 1023 / 512)).
Proof. apply encl_edge; [exact (lips_tk2 3 2 ltac:(lia))|lra|]. edge 2. Qed.
Lemma c321_1025 : encl (fun t => t * kern 3 2 t ^ 2) (0 / 512) (1025 / 512) (54597 / 1000) (54658 / 1000).
Proof. eapply encl_chain; [exact (lips_tk2 3 2 ltac:(lia))|exact c321_1023|exact e321_2|lra|lra]. Qed.
Lemma m321_2 : encl (fun t => t * kern 3 2 t ^ 2) (1025 / 512) (1535 / 512) (1426 / 1000) (1442 / 1000).
Proof. mid. Qed.
Lemma c321_1535 : encl (fun t => t * kern 3 2 t ^ 2) (0 / 512) (1535 / 512) (56023 / 1000) (56100 / 1000).
Proof. eapply encl_chain; [exact (lips_tk2 3 2 ltac:(lia))|exact c321_1025|exact m321_2|lra|lra]. Qed.
Lemma e321_3l : encl (fun t => t * kern 3 2 t ^ 2) (1535 / 512) (1536 / 512) ((-698 / 1000) * (1536 / 512 - 1535 / 512)) (1493 / 1000 * (1536 / 512 - 1535 / 512)).
Proof. apply encl_edge; [exact (lips_tk2 3 2 ltac:(lia))|lra|]. edge 3. Qed.
Lemma c321_1536 : encl (fun t => t * kern 3 2 t ^ 2) (0 / 512) (1536 / 512) (56021 / 1000) (56103 / 1000).
Proof. eapply encl_chain; [exact (lips_tk2 3 2 ltac:(lia))|exact c321_1535|exact e321_3l|lra|lra]. Qed.
(* T=3: 0.615131..0.616032 *)
Lemma e340_0 : encl (fun t => kern 3 4 t ^ 2) (0 / 512) (1 / 512) (2003076 / 1000 * (1 / 512 - 0 / 512)) (2027287 / 1000 * (1 / 512 - 0 / 512)).
Proof. apply encl_edge; [exact (lips_k2 3 4 ltac:(lia))|lra|]. edge0. Qed.
Lemma c340_1 : encl (fun t => kern 3 4 t ^ 2) (0 / 512) (1 / 512) (3912 / 1000) (3960 / 1000).
Proof. pose proof e340_0 as H. unfold encl in *. lra. Qed.
Lemma m340_0 : encl (fun t => kern 3 4 t ^ 2) (1 / 512) (511 / 512) (878339 / 1000) (878501 / 1000).
Proof. mid. Qed.
Lemma c340_511 : encl (fun t => kern 3 4 t ^ 2) (0 / 512) (511 / 512) (882251 / 1000) (882461 / 1000).
Proof. eapply encl_chain; [exact (lips_k2 3 4 ltac:(lia))|exact c340_1|exact m340_0|lra|lra]. Qed.
Lemma e340_1 : encl (fun t => kern 3 4 t ^ 2) (511 / 512) (513 / 512) ((-9849 / 1000) * (513 / 512 - 511 / 512)) (14911 / 1000 * (513 / 512 - 511 / 512)).
Proof. apply encl_edge; [exact (lips_k2 3 4 ltac:(lia))|lra|]. edge 1. Qed.
Lemma c340_513 : encl (fun t => kern 3 4 t ^ 2) (0 / 512) (513 / 512) (882212 / 1000) (882520 / 1000).
Proof. eapply encl_chain; [exact (lips_k2 3 4 ltac:(lia))|exact c340_511|exact e340_1|lra|lra]. Qed.
Lemma m340_1 : encl (fun t => kern 3 4 t ^ 2) (513 / 512) (1023 / 512) (131976 / 1000) (132138 / 1000).
Proof. mid. Qed.
Lemma c340_1023 : encl (fun t => kern 3 4 t ^ 2) (0 / 512) (1023 / 512) (1014188 / 1000) (1014658 / 1000).
Proof. eapply encl_chain; [exact (lips_k2 3 4 ltac:(lia))|exact c340_513|exact m340_1|lra|lra]. Qed.
Lemma e340_2 : encl (fun t => kern 3 4 t ^ 2) (1023 / 512) (1025 / 512) (96487 / 1000 * (1025 / 512 - 1023 / 512)) (121610 / 1000 * (1025 / 512 - 1023 / 512)).
Proof. apply encl_edge; [exact (lips_k2 3 4 ltac:(lia))|lra|]. edge 2. Qed.
Lemma c340_1025 : encl (fun t => kern 3 4 t ^ 2) (0 / 512) (1025 / 512) (1014564 / 1000) (1015134 / 1000).
Proof. eapply encl_chain; [exact (lips_k2 3 4 ltac:(lia))|exact c340_1023|exact e340_2|lra|lra]. Qed.
Lemma m340_2 : encl (fun t => kern 3 4 t ^ 2) (1025 / 512) (1535 / 512) (40601 / 1000) (40764 / 1000).
Proof. mid. Qed.
Lemma c340_1535 : encl (fun t => kern 3 4 t ^ 2) (0 / 512) (1535 / 512) (1055165 / 1000) (1055898 / 1000).
Proof. eapply encl_chain; [exact (lips_k2 3 4 ltac:(lia))|exact c340_1025|exact m340_2|lra|lra]. Qed.
Lemma e340_3l : encl (fun t => kern 3 4 t ^ 2) (1535 / 512) (1536 / 512) ((-1214 / 1000) * (1536 / 512 - 1535 / 512)) (23006 / 1000 * (1536 / 512 - 1535 / 512)).
Proof. apply encl_edge; [exact (lips_k2 3 4 ltac:(lia))|lra|]. edge 3. Qed.
Lemma c340_1536 : encl (fun t => kern 3 4 t ^ 2) (0 / 512) (1536 / 512) (1055162 / 1000) (1055943 / 1000).
Proof. eapply encl_chain; [exact (lips_k2 3 4 ltac:(lia))|exact c340_1535|exact e340_3l|lra|lra]. Qed.
(* T=3: 1.04721..1.04798 *)
Lemma e341_0 : encl (fun t => t * kern 3 4 t ^ 2) (0 / 512) (1 / 512) ((-12092 / 1000) * (1 / 512 - 0 / 512)) (16028 / 1000 * (1 / 512 - 0 / 512)).
Proof. apply encl_edge; [exact (lips_tk2 3 4 ltac:(lia))|lra|]. edge0. Qed.
Lemma c341_1 : encl (fun t => t * kern 3 4 t ^ 2) (0 / 512) (1 / 512) ((-24 / 1000)) (32 / 1000).
Proof. pose proof e341_0 as H. unfold encl in *. lra. Qed.
Lemma m341_0 : encl (fun t => t * kern 3 4 t ^ 2) (1 / 512) (511 / 512) (234622 / 1000) (234784 / 1000).
Proof. mid. Qed.
Lemma c341_511 : encl (fun t => t * kern 3 4 t ^ 2) (0 / 512) (511 / 512) (234598 / 1000) (234816 / 1000).
Proof. eapply encl_chain; [exact (lips_tk2 3 4 ltac:(lia))|exact c341_1|exact m341_0|lra|lra]. Qed.
Lemma e341_1 : encl (fun t => t * kern 3 4 t ^ 2) (511 / 512) (513 / 512) ((-9853 / 1000) * (513 / 512 - 511 / 512)) (14917 / 1000 * (513 / 512 - 511 / 512)).
Proof. apply encl_edge; [exact (lips_tk2 3 4 ltac:(lia))|lra|]. edge 1. Qed.
Lemma c341_513 : encl (fun t => t * kern 3 4 t ^ 2) (0 / 512) (513 / 512) (234559 / 1000) (234875 / 1000).
Proof. eapply encl_chain; [exact (lips_tk2 3 4 ltac:(lia))|exact c341_511|exact e341_1|lra|lra]. Qed.
Lemma m341_1 : encl (fun t => t * kern 3 4 t ^ 2) (513 / 512) (1023 / 512) (208026 / 1000) (208189 / 1000).
Proof. mid. Qed.
Lemma c341_1023 : encl (fun t => t * kern 3 4 t ^ 2) (0 / 512) (1023 / 512) (442585 / 1000) (443064 / 1000).
Proof. eapply encl_chain; [exact (lips_tk2 3 4 ltac:(lia))|exact c341_513|exact m341_1|lra|lra]. Qed.
Lemma e341_2 : encl (fun t => t * kern 3 4 t ^ 2) (1023 / 512) (1025 / 512) (205279 / 1000 * (1025 / 512 - 1023 / 512)) (230914 / 1000 * (1025 / 512 - 1023 / 512)).
Proof. apply encl_edge; [exact (lips_tk2 3 4 ltac:(lia))|lra|]. edge 2. Qed.
Lemma c341_1025 : encl (fun t => t * kern 3 4 t ^ 2) (0 / 512) (1025 / 512) (443386 / 1000) (443967 / 1000).
Proof. eapply encl_chain; [exact (lips_tk2 3 4 ltac:(lia))|exact c341_1023|exact e341_2|lra|lra]. Qed.
Lemma m341_2 : encl (fun t => t * kern 3 4 t ^ 2) (1025 / 512) (1535 / 512) (94147 / 1000) (94309 / 1000).
Proof. mid. Qed.
Lemma c341_1535 : encl (fun t => t * kern 3 4 t ^ 2) (0 / 512) (1535 / 512) (537533 / 1000) (538276 / 1000).
Proof. eapply encl_chain; [exact (lips_tk2 3 4 ltac:(lia))|exact c341_1025|exact m341_2|lra|lra]. Qed.
Lemma e341_3l : encl (fun t => t * kern 3 4 t ^ 2) (1535 / 512) (1536 / 512) (20541 / 1000 * (1536 / 512 - 1535 / 512)) (44814 / 1000 * (1536 / 512 - 1535 / 512)).
Proof. apply encl_edge; [exact (lips_tk2 3 4 ltac:(lia))|lra|]. edge 3. Qed.
Lemma c341_1536 : encl (fun t => t * kern 3 4 t ^ 2) (0 / 512) (1536 / 512) (537573 / 1000) (538364 / 1000).
Proof. eapply encl_chain; [exact (lips_tk2 3 4 ltac:(lia))|exact c341_1535|exact e341_3l|lra|lra]. Qed.
(* T=3: 0.533519..0.534304 *)
Lemma e220_0 : encl (fun t => kern 2 2 t ^ 2) (0 / 512) (1 / 512) (30562 / 1000 * (1 / 512 - 0 / 512)) (30934 / 1000 * (1 / 512 - 0 / 512)).
Proof. apply encl_edge; [exact (lips_k2 2 2 ltac:(lia))|lra|]. edge0. Qed.
Lemma c220_1 : encl (fun t => kern 2 2 t ^ 2) (0 / 512) (1 / 512) (59 / 1000) (61 / 1000).
Proof. pose proof e220_0 as H. unfold encl in *. lra. Qed.
Lemma m220_0 : encl (fun t => kern 2 2 t ^ 2) (1 / 512) (511 / 512) (10855 / 1000) (10859 / 1000).
Proof. mid. Qed.
Lemma c220_511 : encl (fun t => kern 2 2 t ^ 2) (0 / 512) (511 / 512) (10914 / 1000) (10920 / 1000).
Proof. eapply encl_chain; [exact (lips_k2 2 2 ltac:(lia))|exact c220_1|exact m220_0|lra|lra]. Qed.
Lemma e220_1 : encl (fun t => kern 2 2 t ^ 2) (511 / 512) (513 / 512) (1241 / 1000 * (513 / 512 - 511 / 512)) (1653 / 1000 * (513 / 512 - 511 / 512)).
Proof. apply encl_edge; [exact (lips_k2 2 2 ltac:(lia))|lra|]. edge 1. Qed.
Lemma c220_513 : encl (fun t => kern 2 2 t ^ 2) (0 / 512) (513 / 512) (10918 / 1000) (10927 / 1000).
Proof. eapply encl_chain; [exact (lips_k2 2 2 ltac:(lia))|exact c220_511|exact e220_1|lra|lra]. Qed.
Lemma m220_1 : encl (fun t => kern 2 2 t ^ 2) (513 / 512) (1023 / 512) (1983 / 1000) (1986 / 1000).
Proof. mid. Qed.
Lemma c220_1023 : encl (fun t => kern 2 2 t ^ 2) (0 / 512) (1023 / 512) (12901 / 1000) (12913 / 1000).
Proof. eapply encl_chain; [exact (lips_k2 2 2 ltac:(lia))|exact c220_513|exact m220_1|lra|lra]. Qed.
Lemma e220_2l : encl (fun t => kern 2 2 t ^ 2) (1023 / 512) (1024 / 512) (353 / 1000 * (1024 / 512 - 1023 / 512)) (727 / 1000 * (1024 / 512 - 1023 / 512)).
Proof. apply encl_edge; [exact (lips_k2 2 2 ltac:(lia))|lra|]. edge 2. Qed.
Lemma c220_1024 : encl (fun t => kern 2 2 t ^ 2) (0 / 512) (1024 / 512) (12901 / 1000) (12915 / 1000).
Proof. eapply encl_chain; [exact (lips_k2 2 2 ltac:(lia))|exact c220_1023|exact e220_2l|lra|lra]. Qed.
(* T=2: 0.839117..0.840028 *)
Lemma e220_2 : encl (fun t => kern 2 2 t ^ 2) (1023 / 512) (1025 / 512) (350 / 1000 * (1025 / 512 - 1023 / 512)) (727 / 1000 * (1025 / 512 - 1023 / 512)).
Proof. apply encl_edge; [exact (lips_k2 2 2 ltac:(lia))|lra|]. edge 2. Qed.
Lemma c220_1025 : encl (fun t => kern 2 2 t ^ 2) (0 / 512) (1025 / 512) (12902 / 1000) (12916 / 1000).
Proof. eapply encl_chain; [exact (lips_k2 2 2 ltac:(lia))|exact c220_1023|exact e220_2|lra|lra]. Qed.
Lemma m220_2 : encl (fun t => kern 2 2 t ^ 2) (1025 / 512) (1535 / 512) (191 / 1000) (194 / 1000).
Proof. mid. Qed.
Lemma c220_1535 : encl (fun t => kern 2 2 t ^ 2) (0 / 512) (1535 / 512) (13093 / 1000) (13110 / 1000).
Proof. eapply encl_chain; [exact (lips_k2 2 2 ltac:(lia))|exact c220_1025|exact m220_2|lra|lra]. Qed.
Lemma e220_3l : encl (fun t => kern 2 2 t ^ 2) (1535 / 512) (1536 / 512) ((-121 / 1000) * (1536 / 512 - 1535 / 512)) (249 / 1000 * (1536 / 512 - 1535 / 512)).
Proof. apply encl_edge; [exact (lips_k2 2 2 ltac:(lia))|lra|]. edge 3. Qed.
Lemma c220_1536 : encl (fun t => kern 2 2 t ^ 2) (0 / 512) (1536 / 512) (13092 / 1000) (13111 / 1000).
Proof. eapply encl_chain; [exact (lips_k2 2 2 ltac:(lia))|exact c220_1535|exact e220_3l|lra|lra]. Qed.
(* T=3: 0.85154..0.852776 *)
Lemma e221_0 : encl (fun t => t * kern 2 2 t ^ 2) (0 / 512) (1 / 512) ((-185 / 1000) * (1 / 512 - 0 / 512)) (245 / 1000 * (1 / 512 - 0 / 512)).
Proof. apply encl_edge; [exact (lips_tk2 2 2 ltac:(lia))|lra|]. edge0. Qed.
Lemma c221_1 : encl (fun t => t * kern 2 2 t ^ 2) (0 / 512) (1 / 512) ((-1 / 1000)) (1 / 1000).
Proof. pose proof e221_0 as H. unfold encl in *. lra. Qed.
Lemma m221_0 : encl (fun t => t * kern 2 2 t ^ 2) (1 / 512) (511 / 512) (2490 / 1000) (2493 / 1000).
Proof. mid. Qed.
Lemma c221_511 : encl (fun t => t * kern 2 2 t ^ 2) (0 / 512) (511 / 512) (2489 / 1000) (2494 / 1000).
Proof. eapply encl_chain; [exact (lips_tk2 2 2 ltac:(lia))|exact c221_1|exact m221_0|lra|lra]. Qed.
Lemma e221_1 : encl (fun t => t * kern 2 2 t ^ 2) (511 / 512) (513 / 512) (1238 / 1000 * (513 / 512 - 511 / 512)) (1656 / 1000 * (513 / 512 - 511 / 512)).
Proof. apply encl_edge; [exact (lips_tk2 2 2 ltac:(lia))|lra|]. edge 1. Qed.
Lemma c221_513 : encl (fun t => t * kern 2 2 t ^ 2) (0 / 512) (513 / 512) (2493 / 1000) (2501 / 1000).
Proof. eapply encl_chain; [exact (lips_tk2 2 2 ltac:(lia))|exact c221_511|exact e221_1|lra|lra]. Qed.
Lemma m221_1 : encl (fun t => t * kern 2 2 t ^ 2) (513 / 512) (1023 / 512) (2809 / 1000) (2813 / 1000).
Proof. mid. Qed.
Lemma c221_1023 : encl (fun t => t * kern 2 2 t ^ 2) (0 / 512) (1023 / 512) (5302 / 1000) (5314 / 1000).
Proof. eapply encl_chain; [exact (lips_tk2 2 2 ltac:(lia))|exact c221_513|exact m221_1|lra|lra]. Qed.
Lemma e221_2l : encl (fun t => t * kern 2 2 t ^ 2) (1023 / 512) (1024 / 512) (892 / 1000 * (1024 / 512 - 1023 / 512)) (1269 / 1000 * (1024 / 512 - 1023 / 512)).
Proof. apply encl_edge; [exact (lips_tk2 2 2 ltac:(lia))|lra|]. edge 2. Qed.
Lemma c221_1024 : encl (fun t => t * kern 2 2 t ^ 2) (0 / 512) (1024 / 512) (5303 / 1000) (5317 / 1000).
Proof. eapply encl_chain; [exact (lips_tk2 2 2 ltac:(lia))|exact c221_1023|exact e221_2l|lra|lra]. Qed.
(* T=2: 0.344922..0.345832 *)
Lemma e221_2 : encl (fun t => t * kern 2 2 t ^ 2) (1023 / 512) (1025 / 512) (885 / 1000 * (1025 / 512 - 1023 / 512)) (1269 / 1000 * (1025 / 512 - 1023 / 512)).
Proof. apply encl_edge; [exact (lips_tk2 2 2 ltac:(lia))|lra|]. edge 2. Qed.
Lemma c221_1025 : encl (fun t => t * kern 2 2 t ^ 2) (0 / 512) (1025 / 512) (5305 / 1000) (5319 / 1000).
Proof. eapply encl_chain; [exact (lips_tk2 2 2 ltac:(lia))|exact c221_1023|exact e221_2|lra|lra]. Qed.
Lemma m221_2 : encl (fun t => t * kern 2 2 t ^ 2) (1025 / 512) (1535 / 512) (447 / 1000) (451 / 1000).
Proof. mid. Qed.
Lemma c221_1535 : encl (fun t => t * kern 2 2 t ^ 2) (0 / 512) (1535 / 512) (5752 / 1000) (5770 / 1000).
Proof. eapply encl_chain; [exact (lips_tk2 2 2 ltac:(lia))|exact c221_1025|exact m221_2|lra|lra]. Qed.
Lemma e221_3l : encl (fun t => t * kern 2 2 t ^ 2) (1535 / 512) (1536 / 512) (6 / 1000 * (1536 / 512 - 1535 / 512)) (376 / 1000 * (1536 / 512 - 1535 / 512)).
Proof. apply encl_edge; [exact (lips_tk2 2 2 ltac:(lia))|lra|]. edge 3. Qed.
Lemma c221_1536 : encl (fun t => t * kern 2 2 t ^ 2) (0 / 512) (1536 / 512) (5752 / 1000) (5771 / 1000).
Proof. eapply encl_chain; [exact (lips_tk2 2 2 ltac:(lia))|exact c221_1535|exact e221_3l|lra|lra]. Qed.
(* T=3: 0.374126..0.375362 *)

(** ** the coefficients *)
Lemma coef_scale n p T : (1 <= p)%nat -> kern n p 0 <> 0 ->
  coef0 n p T = 2 * RInt (fun t => kern n p t ^ 2) 0 (INR T) / kern n p 0 ^ 2 /\ coef1 n p T = 2 * RInt (fun t => t * kern n p t ^ 2) 0 (INR T) / kern n p 0 ^ 2.
Proof.
  intros Hp K0. unfold coef0, coef1, corr. split.
  - rewrite (RInt_ext _ (fun t => / kern n p 0 ^ 2 * kern n p t ^ 2)) by (intros t _; unfold Rdiv; rewrite Rpow_mult_distr, pow_inv; apply Rmult_comm).
    rewrite RInt_cmul by now apply lips_k2. field. exact K0.
  - rewrite (RInt_ext _ (fun t => / kern n p 0 ^ 2 * (t * kern n p t ^ 2))) by (intros t _; unfold Rdiv; rewrite Rpow_mult_distr, pow_inv; rewrite <- Rmult_assoc; apply Rmult_comm).
    rewrite (RInt_cmul _ (fun t => t * kern n p t ^ 2)) by now apply lips_tk2. field. exact K0.
Qed.
Lemma pl_0 p : powlog (S p) 0 = 0.
Proof. unfold powlog. destruct (Nat.even (S p)); cbn [pow]; rewrite ?Rabs_R0; ring. Qed.
Lemma k0_22 : kern 2 2 0 = 8 * ln 2.
Proof.
  rewrite kern2. rewrite pl_0. rewrite !pl_neg by (reflexivity || lra). rewrite !pl_pos by (reflexivity || lra).
  replace (1 - 0) with 1 by ring. replace (0 + 1) with 1 by ring. replace (2 - 0) with 2 by ring. replace (0 + 2) with 2 by ring. rewrite ln_1. ring.
Qed.
Lemma k0_3 p : Nat.even (S p) = true -> kern 3 (S p) 0 = 12 * (2 ^ S p * ln 2) - 2 * (3 ^ S p * ln 3).
Proof.
  intros Hp. rewrite kern3. rewrite pl_0. rewrite !pl_neg by (assumption || lra). rewrite !pl_pos by (assumption || lra).
  replace (1 - 0) with 1 by ring. replace (0 + 1) with 1 by ring. replace (2 - 0) with 2 by ring. replace (0 + 2) with 2 by ring.
  replace (3 - 0) with 3 by ring. replace (0 + 3) with 3 by ring. rewrite ln_1. ring.
Qed.
Lemma ends T : 0 / 512 = 0 /\ 512 * INR T / 512 = INR T.
Proof. split; field. Qed.
Lemma near_coef V lo hi k a e : lo <= V <= hi -> 0 < k -> a - e <= 2 * lo / k -> 2 * hi / k <= a + e -> Rabs (a - 2 * V / k) <= e.
Proof.
  intros [H1 H2] K L U. assert (I : 0 < / k) by now apply Rinv_0_lt_compat. unfold Rdiv in *. apply Rabs_le. nra.
Qed.

Lemma odd_323 : Rabs (997 / 1000 - coef0 3 2 3) <= 1 / 1000 /\ Rabs (616 / 1000 - coef1 3 2 3) <= 1 / 1000.
Proof.
  assert (K : kern 3 2 0 <> 0) by (rewrite (k0_3 1 eq_refl); first [apply Rgt_not_eq; interval|apply Rlt_not_eq; interval]).
  destruct (coef_scale 3 2 3 ltac:(lia) K) as [-> ->]. pose proof c320_1536 as H0. pose proof c321_1536 as H1. unfold encl in H0, H1.
  replace (0 / 512) with 0 in H0, H1 by field. replace (1536 / 512) with (INR 3) in H0, H1 by (cbn [INR]; field).
  split; (eapply near_coef; [eassumption|rewrite (k0_3 1 eq_refl); interval|rewrite (k0_3 1 eq_refl); interval|rewrite (k0_3 1 eq_refl); interval]).
Qed.
Lemma odd_343 : Rabs (1048 / 1000 - coef0 3 4 3) <= 1 / 1000 /\ Rabs (534 / 1000 - coef1 3 4 3) <= 1 / 1000.
Proof.
  assert (K : kern 3 4 0 <> 0) by (rewrite (k0_3 3 eq_refl); first [apply Rgt_not_eq; interval|apply Rlt_not_eq; interval]).
  destruct (coef_scale 3 4 3 ltac:(lia) K) as [-> ->]. pose proof c340_1536 as H0. pose proof c341_1536 as H1. unfold encl in H0, H1.
  replace (0 / 512) with 0 in H0, H1 by field. replace (1536 / 512) with (INR 3) in H0, H1 by (cbn [INR]; field).
  split; (eapply near_coef; [eassumption|rewrite (k0_3 3 eq_refl); interval|rewrite (k0_3 3 eq_refl); interval|rewrite (k0_3 3 eq_refl); interval]).
Qed.
Lemma odd_222 : Rabs (840 / 1000 - coef0 2 2 2) <= 1 / 1000 /\ Rabs (345 / 1000 - coef1 2 2 2) <= 1 / 1000.
Proof.
  assert (K : kern 2 2 0 <> 0) by (rewrite k0_22; first [apply Rgt_not_eq; interval|apply Rlt_not_eq; interval]).
  destruct (coef_scale 2 2 2 ltac:(lia) K) as [-> ->]. pose proof c220_1024 as H0. pose proof c221_1024 as H1. unfold encl in H0, H1.
  replace (0 / 512) with 0 in H0, H1 by field. replace (1024 / 512) with (INR 2) in H0, H1 by (cbn [INR]; field).
  split; (eapply near_coef; [eassumption|rewrite k0_22; interval|rewrite k0_22; interval|rewrite k0_22; interval]).
Qed.
Lemma odd_223 : Rabs (852 / 1000 - coef0 2 2 3) <= 1 / 1000 /\ Rabs (375 / 1000 - coef1 2 2 3) <= 1 / 1000.
Proof.
  assert (K : kern 2 2 0 <> 0) by (rewrite k0_22; first [apply Rgt_not_eq; interval|apply Rlt_not_eq; interval]).
  destruct (coef_scale 2 2 3 ltac:(lia) K) as [-> ->]. pose proof c220_1536 as H0. pose proof c221_1536 as H1. unfold encl in H0, H1.
  replace (0 / 512) with 0 in H0, H1 by field. replace (1536 / 512) with (INR 3) in H0, H1 by (cbn [INR]; field).
  split; (eapply near_coef; [eassumption|rewrite k0_22; interval|rewrite k0_22; interval|rewrite k0_22; interval]).
Qed.
