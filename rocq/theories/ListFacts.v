(** * Facts about the list primitives of NpList.v. *)
From Coq Require Import List ZArith Bool Arith Lia Sorted.
From Verif Require Import Base Num NpList.
Import ListNotations.

(** Tabulated lists: the normal form used in all proofs. *)
Definition tab {A} (n : nat) (f : nat -> A) : list A := map f (seq 0 n).

Lemma tab_length {A} n (f : nat -> A) : length (tab n f) = n.
Proof. unfold tab. now rewrite map_length, seq_length. Qed.

Lemma tab_ext {A} n (f g : nat -> A) : (forall i, i < n -> f i = g i) -> tab n f = tab n g.
Proof. intros H. apply map_ext_in. intros i Hi. apply in_seq in Hi. apply H. lia. Qed.

Lemma tab_S {A} n (f : nat -> A) : tab (S n) f = f 0 :: tab n (fun i => f (S i)).
Proof. unfold tab. cbn [seq map]. now rewrite <- seq_shift, map_map. Qed.

Lemma tab_snoc {A} n (f : nat -> A) : tab (S n) f = tab n f ++ [f n].
Proof. unfold tab. rewrite seq_S, map_app. reflexivity. Qed.

Lemma tab_0 {A} (f : nat -> A) : tab 0 f = [].
Proof. reflexivity. Qed.

Lemma nth_tab {A} n (f : nat -> A) i d : i < n -> nth i (tab n f) d = f i.
Proof.
  revert f i. induction n as [|n IH]; intros f i Hi; [lia|].
  rewrite tab_S. destruct i as [|i]; cbn; [reflexivity|]. rewrite IH by lia. reflexivity.
Qed.

Lemma nth_error_tab {A} n (f : nat -> A) i : i < n -> nth_error (tab n f) i = Some (f i).
Proof.
  revert f i. induction n as [|n IH]; intros f i Hi; [lia|].
  rewrite tab_S. destruct i as [|i]; cbn; [reflexivity|]. rewrite IH by lia. reflexivity.
Qed.

Lemma list_tab {A} (l : list A) d : l = tab (length l) (fun i => nth i l d).
Proof.
  induction l as [|x t IH]; [reflexivity|].
  cbn [length]. rewrite tab_S. cbn [nth]. now rewrite <- IH.
Qed.

Lemma tab_eq_nth {A} (l : list A) n f d :
  length l = n -> (forall i, i < n -> nth i l d = f i) -> l = tab n f.
Proof. intros Hl H. rewrite (list_tab l d), Hl. apply tab_ext. exact H. Qed.

Lemma map_tab {A B} (g : A -> B) n f : map g (tab n f) = tab n (fun i => g (f i)).
Proof. unfold tab. now rewrite map_map. Qed.

Lemma map2_tab {A B C} (g : A -> B -> C) n f1 f2 :
  map2 g (tab n f1) (tab n f2) = tab n (fun i => g (f1 i) (f2 i)).
Proof.
  revert f1 f2. induction n as [|n IH]; intros f1 f2; [reflexivity|].
  rewrite !tab_S. cbn. now rewrite IH.
Qed.

Lemma map2_length {A B C} (g : A -> B -> C) a b :
  length (map2 g a b) = Nat.min (length a) (length b).
Proof. revert b. induction a as [|x a IH]; intros [|y b]; cbn; auto. Qed.

Lemma bmap2_tab {A B C} (g : A -> B -> C) n f1 f2 :
  bmap2 g (tab n f1) (tab n f2) = Ok (tab n (fun i => g (f1 i) (f2 i))).
Proof. unfold bmap2. rewrite !tab_length, Nat.eqb_refl. now rewrite map2_tab. Qed.

Lemma bmap2_eqlen {A B C} (g : A -> B -> C) a b :
  length a = length b -> bmap2 g a b = Ok (map2 g a b).
Proof. intros H. unfold bmap2. now rewrite H, Nat.eqb_refl. Qed.

Lemma firstn_tab {A} k n (f : nat -> A) : firstn k (tab n f) = tab (Nat.min k n) f.
Proof.
  revert n f. induction k as [|k IH]; intros n f; [reflexivity|].
  destruct n as [|n]; [reflexivity|]. cbn [Nat.min]. rewrite !tab_S. cbn. now rewrite IH.
Qed.

Lemma skipn_tab {A} k n (f : nat -> A) : skipn k (tab n f) = tab (n - k) (fun i => f (k + i)).
Proof.
  revert n f. induction k as [|k IH]; intros n f.
  - cbn. now rewrite Nat.sub_0_r.
  - destruct n as [|n]; [reflexivity|]. rewrite tab_S. cbn [skipn].
    rewrite IH. cbn [Nat.sub]. apply tab_ext. intros; f_equal; lia.
Qed.

Lemma rev_tab {A} n (f : nat -> A) : rev (tab n f) = tab n (fun i => f (n - 1 - i)).
Proof.
  induction n as [|n IH]; [reflexivity|].
  rewrite tab_snoc, rev_app_distr. cbn [rev app]. rewrite IH, (tab_S n).
  f_equal; [f_equal; lia|]. apply tab_ext. intros. f_equal; lia.
Qed.

Lemma app_tab {A} n m (f g : nat -> A) :
  tab n f ++ tab m g = tab (n + m) (fun i => if i <? n then f i else g (i - n)).
Proof.
  revert f. induction n as [|n IH]; intros f.
  - cbn. apply tab_ext. intros. f_equal; lia.
  - cbn [Nat.add]. rewrite !tab_S. cbn [app]. rewrite IH. f_equal.
Qed.

Lemma repeat_tab {A} n (a : A) : repeat a n = tab n (fun _ => a).
Proof. induction n as [|n IH]; [reflexivity|]. rewrite tab_S. cbn. now rewrite IH. Qed.

Lemma tl_tab {A} n (f : nat -> A) : tl (tab n f) = tab (n - 1) (fun i => f (S i)).
Proof. destruct n as [|n]; [reflexivity|]. rewrite tab_S. cbn [tl]. replace (S n - 1) with n by lia. reflexivity. Qed.

Lemma removelast_tab {A} n (f : nat -> A) : removelast (tab n f) = tab (n - 1) f.
Proof.
  destruct n as [|n]; [reflexivity|]. rewrite tab_snoc, removelast_last. replace (S n - 1) with n by lia. reflexivity.
Qed.

Lemma pyinner_tab {A} n (f : nat -> A) : pyinner (tab n f) = tab (n - 2) (fun i => f (S i)).
Proof. unfold pyinner. rewrite tl_tab, removelast_tab. replace (n - 1 - 1) with (n - 2) by lia. reflexivity. Qed.

Lemma everyk_tab_aux {A} k c n (f : nat -> A) :
  everyk k c (tab n f) = tab ((n - c + k) / S k) (fun i => f (c + i * S k)).
Proof.
  revert c f. induction n as [|n IH]; intros c f.
  - rewrite (Nat.div_small (0 - c + k)) by lia. reflexivity.
  - rewrite tab_S. destruct c as [|c].
    + cbn [everyk]. rewrite IH.
      replace (S n - 0 + k) with (n + 1 * S k) by lia.
      rewrite Nat.div_add by lia. rewrite Nat.add_1_r, tab_S. f_equal.
      destruct (le_lt_dec k n) as [Hk|Hk].
      * replace (n - k + k) with n by lia. apply tab_ext. intros; f_equal; lia.
      * rewrite (Nat.div_small n) by lia. rewrite Nat.div_small by lia. reflexivity.
    + cbn [everyk]. rewrite IH. cbn [Nat.sub].
      apply tab_ext. intros; f_equal; lia.
Qed.

(** Number of elements of l[a::s]. *)
Definition stride_count (n a s : nat) : nat := (n - a + (s - 1)) / s.

Lemma pystride_tab {A} a s n (f : nat -> A) :
  1 <= s -> pystride a s (tab n f) = Ok (tab (stride_count n a s) (fun i => f (a + i * s))).
Proof.
  intros Hs. destruct s as [|k]; [lia|]. unfold pystride, stride_count.
  rewrite skipn_tab, everyk_tab_aux. f_equal.
  replace (n - a - 0 + k) with (n - a + (S k - 1)) by lia. reflexivity.
Qed.

Lemma stride_count_1 n a : stride_count n a 1 = n - a.
Proof. unfold stride_count. rewrite Nat.div_1_r. lia. Qed.

(** the i-th strided element exists iff a + i*s < n *)
Lemma stride_count_lt n a s i : 1 <= s -> (i < stride_count n a s <-> a + i * s < n).
Proof.
  intros Hs. unfold stride_count. split; intros H.
  - destruct (le_lt_dec n (a + i * s)) as [Hc|Hc]; [|exact Hc]. exfalso.
    assert ((n - a + (s - 1)) / s <= i); [|lia].
    enough ((n - a + (s - 1)) / s < S i) by lia.
    apply Nat.div_lt_upper_bound; nia.
  - apply Nat.div_le_lower_bound; [lia|nia].
Qed.

Lemma pyslice_tab {A} a b n (f : nat -> A) :
  pyslice a b (tab n f) = tab (Nat.min (b - a) (n - a)) (fun i => f (a + i)).
Proof. unfold pyslice. now rewrite skipn_tab, firstn_tab. Qed.

Lemma pyget_tab {A} n (f : nat -> A) (i : Z) :
  (0 <= i < Z.of_nat n)%Z -> pyget (tab n f) i = Ok (f (Z.to_nat i)).
Proof.
  intros Hi. unfold pyget.
  destruct (Z.ltb_spec i 0); [lia|]. destruct (Z.ltb_spec i 0); [lia|].
  rewrite nth_error_tab by lia. reflexivity.
Qed.

Lemma pyget_tab_last {A} n (f : nat -> A) :
  1 <= n -> pyget (tab n f) (-1) = Ok (f (n - 1)).
Proof.
  intros Hn. unfold pyget. rewrite tab_length. cbn [Z.ltb Z.compare].
  destruct (Z.ltb_spec (Z.of_nat n + -1) 0); [lia|].
  rewrite nth_error_tab by lia. f_equal. f_equal. lia.
Qed.

Lemma pyfrom_tab {A} n (f : nat -> A) (a : Z) :
  (0 <= a)%Z -> pyfrom a (tab n f) = tab (n - Z.to_nat a) (fun i => f (Z.to_nat a + i)).
Proof.
  intros Ha. unfold pyfrom. destruct (Z.ltb_spec a 0); [lia|]. apply skipn_tab.
Qed.

Lemma mapM_Ok {A B} (f : A -> res B) (g : A -> B) l :
  (forall x, In x l -> f x = Ok (g x)) -> mapM f l = Ok (map g l).
Proof.
  induction l as [|x t IH]; intros H; [reflexivity|].
  cbn. rewrite (H x (or_introl eq_refl)). cbn. rewrite IH; [reflexivity|].
  intros y Hy. apply H. now right.
Qed.

Lemma mapM_ext_in {A B} (f g : A -> res B) l :
  (forall x, In x l -> f x = g x) -> mapM f l = mapM g l.
Proof.
  induction l as [|x t IH]; intros H; [reflexivity|].
  cbn. rewrite (H x (or_introl eq_refl)). rewrite IH; [reflexivity|].
  intros y Hy. apply H. now right.
Qed.

Lemma foldM_ext_in {S A} (f g : S -> A -> res S) l s :
  (forall x s, In x l -> f s x = g s x) -> foldM f l s = foldM g l s.
Proof.
  revert s. induction l as [|x t IH]; intros s H; [reflexivity|].
  cbn. rewrite (H x s (or_introl eq_refl)). destruct (g s x); cbn; [|reflexivity].
  apply IH. intros; apply H; now right.
Qed.

Lemma foldM_Ok {S A} (f : S -> A -> res S) (g : S -> A -> S) l s :
  (forall x s, In x l -> f s x = Ok (g s x)) -> foldM f l s = Ok (fold_left g l s).
Proof.
  revert s. induction l as [|x t IH]; intros s H; [reflexivity|].
  cbn. rewrite (H x s (or_introl eq_refl)). cbn.
  apply IH. intros; apply H; now right.
Qed.

(** ** np.unique *)
Lemma uinsert_In z l y : In y (uinsert z l) <-> y = z \/ In y l.
Proof.
  induction l as [|x t IH]; cbn.
  - intuition.
  - destruct (Z.ltb_spec z x) as [H|H]; cbn; [intuition|].
    destruct (Z.eqb_spec z x) as [E|E]; cbn; [subst; intuition|].
    rewrite IH. intuition.
Qed.

Lemma unique_In l y : In y (unique l) <-> In y l.
Proof.
  induction l as [|x t IH]; cbn; [reflexivity|].
  rewrite uinsert_In, IH. intuition.
Qed.

Lemma uinsert_sorted z l : StronglySorted Z.lt l -> StronglySorted Z.lt (uinsert z l).
Proof.
  induction 1 as [|x t Hs IH Hf]; cbn.
  - repeat constructor.
  - destruct (Z.ltb_spec z x) as [H|H].
    + constructor; [constructor; assumption|]. constructor; [exact H|].
      eapply Forall_impl; [|exact Hf]. cbn. intros; lia.
    + destruct (Z.eqb_spec z x) as [E|E]; [constructor; assumption|].
      constructor; [exact IH|]. apply Forall_forall. intros y Hy.
      apply uinsert_In in Hy. destruct Hy as [->|Hy]; [lia|].
      rewrite Forall_forall in Hf. now apply Hf.
Qed.

Lemma unique_sorted l : StronglySorted Z.lt (unique l).
Proof. induction l as [|x t IH]; cbn; [constructor|]. now apply uinsert_sorted. Qed.

(** Strictly sorted lists are determined by their elements. *)
Lemma sorted_ext {A} (R : A -> A -> Prop) (Rirr : forall x, ~ R x x)
  (Rtr : forall x y z, R x y -> R y z -> R x z) (l1 l2 : list A) :
  StronglySorted R l1 -> StronglySorted R l2 -> (forall x, In x l1 <-> In x l2) -> l1 = l2.
Proof.
  intros H1. revert l2. induction H1 as [|x t Hs IH Hf]; intros l2 H2 HI.
  - destruct l2 as [|y l2]; [reflexivity|]. destruct (proj2 (HI y) (or_introl eq_refl)).
  - destruct l2 as [|y l2]; [destruct (proj1 (HI x) (or_introl eq_refl))|].
    inversion H2 as [|? ? Hs2 Hf2]; subst.
    rewrite Forall_forall in Hf, Hf2.
    assert (x = y) as ->.
    { destruct (proj1 (HI x) (or_introl eq_refl)) as [E|Hx]; [easy|].
      destruct (proj2 (HI y) (or_introl eq_refl)) as [E|Hy]; [easy|].
      exfalso. apply (Rirr x). eapply Rtr; [apply Hf, Hy|apply Hf2, Hx]. }
    f_equal. apply IH; [exact Hs2|]. intros z. split; intros Hz.
    + destruct (proj1 (HI z) (or_intror Hz)) as [E|Hz']; [|exact Hz'].
      subst z. destruct (Rirr y). now apply Hf.
    + destruct (proj2 (HI z) (or_intror Hz)) as [E|Hz']; [|exact Hz'].
      subst z. destruct (Rirr y). now apply Hf2.
Qed.

Lemma unique_ext l1 l2 : (forall z, In z l1 <-> In z l2) -> unique l1 = unique l2.
Proof.
  intros H. apply (sorted_ext Z.lt); try apply unique_sorted.
  - intros x; lia.
  - intros x y z; lia.
  - intros x. rewrite !unique_In. apply H.
Qed.

(** ** masks *)
Lemma mask_zip_map {A B} (p : A -> bool) (g : A -> B) l :
  mask_zip (map p l) (map g l) = map g (filter p l).
Proof. induction l as [|x t IH]; [reflexivity|]. cbn. destruct (p x); cbn; now rewrite IH. Qed.

Lemma mask_select_map {A B} (p : A -> bool) (g : A -> B) l :
  mask_select (map p l) (map g l) = Ok (map g (filter p l)).
Proof. unfold mask_select. now rewrite !map_length, Nat.eqb_refl, mask_zip_map. Qed.

Lemma filter_StronglySorted {A} (R : A -> A -> Prop) p l :
  StronglySorted R l -> StronglySorted R (filter p l).
Proof.
  induction 1 as [|x t Hs IH Hf]; cbn; [constructor|].
  destruct (p x); [|exact IH]. constructor; [exact IH|].
  apply Forall_forall. intros y Hy. apply filter_In in Hy.
  rewrite Forall_forall in Hf. now apply Hf.
Qed.

Lemma map_StronglySorted {A B} (R : A -> A -> Prop) (S : B -> B -> Prop) (f : A -> B) l :
  (forall x y, In x l -> In y l -> R x y -> S (f x) (f y)) ->
  StronglySorted R l -> StronglySorted S (map f l).
Proof.
  intros H HS. induction HS as [|x t Hs IH Hf]; cbn; [constructor|].
  constructor.
  - apply IH. intros; apply H; cbn; auto.
  - apply Forall_forall. intros y Hy. apply in_map_iff in Hy as (z & <- & Hz).
    rewrite Forall_forall in Hf. apply H; cbn; auto.
Qed.
