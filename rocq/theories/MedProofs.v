(** Order statistics and the binomial distribution. *)
From Coq Require Import List ZArith Lia Reals Lra Bool Sorting.Permutation Sorting.Sorted.
From Verif Require Import Base Vec Sum MedModel.
Import ListNotations.
Local Open Scope R_scope.

Lemma insert_perm : forall a l, Permutation (insert a l) (a :: l).
Proof. induction l as [|b l IH]; cbn [insert]; [reflexivity|]. destruct (Rle_dec a b); [reflexivity|]. rewrite IH. apply perm_swap. Qed.
Lemma sort_perm : forall l, Permutation (sort l) l.
Proof. induction l as [|a l IH]; cbn [sort]; [reflexivity|]. rewrite insert_perm. now constructor. Qed.
Lemma sort_length : forall l, length (sort l) = length l.
Proof. intros. apply Permutation_length, sort_perm. Qed.
Lemma insert_sorted : forall a l, StronglySorted Rle l -> StronglySorted Rle (insert a l).
Proof.
  induction l as [|b l IH]; intros H; cbn [insert]; [repeat constructor|]. inversion H; subst. destruct (Rle_dec a b).
  - constructor; auto. constructor; auto. eapply Forall_impl; [|exact H3]. intros; cbn in *; lra.
  - constructor; auto. apply Forall_forall. intros c Hc. apply (Permutation_in _ (insert_perm a l)) in Hc. destruct Hc as [<-|Hc]; [lra|]. rewrite Forall_forall in H3. auto.
Qed.
Lemma sort_sorted : forall l, StronglySorted Rle (sort l).
Proof. induction l; cbn [sort]; [constructor|]. now apply insert_sorted. Qed.
Lemma sorted_le : forall l i j, StronglySorted Rle l -> (i <= j < length l)%nat -> nth i l 0 <= nth j l 0.
Proof.
  induction l as [|a l IH]; intros i j H Hij; cbn [length] in Hij; [lia|]. inversion H; subst. destruct i as [|i], j as [|j]; cbn [nth]; try lia; try lra.
  - rewrite Forall_forall in H3. apply H3, nth_In. lia.
  - apply IH; auto. lia.
Qed.
Lemma sorted_unique : forall l l', StronglySorted Rle l -> StronglySorted Rle l' -> Permutation l l' -> l = l'.
Proof.
  induction l as [|a l IH]; intros l' H H' P; [now apply Permutation_nil in P|]. destruct l' as [|b l']; [symmetry in P; now apply Permutation_nil in P|].
  assert (a = b). { inversion H; inversion H'; subst. rewrite Forall_forall in H3, H7. assert (Ia : In a (b :: l')) by (eapply Permutation_in; [exact P|now left]). assert (Ib : In b (a :: l)) by (eapply Permutation_in; [symmetry; exact P|now left]). destruct Ia as [|Ia]; [auto|]. destruct Ib as [|Ib]; [auto|]. apply Rle_antisym; auto. }
  subst b. f_equal. apply IH; [now inversion H|now inversion H'|]. eapply Permutation_cons_inv; eauto.
Qed.
Lemma sort_of : forall l s, StronglySorted Rle s -> Permutation s l -> sort l = s.
Proof. intros l s H P. apply sorted_unique; auto using sort_sorted. rewrite sort_perm. now symmetry. Qed.
Lemma sort_same : forall l l', Permutation l l' -> sort l = sort l'.
Proof. intros. apply sort_of; [apply sort_sorted|]. rewrite sort_perm. now symmetry. Qed.

(** How many values of [x] are beyond [c]. *)
Definition above (c : R) (x : list R) : nat := length (filter (fun v => if Rlt_dec c v then true else false) x).
Definition below (c : R) (x : list R) : nat := length (filter (fun v => if Rlt_dec v c then true else false) x).
Lemma filter_perm : forall {A} (f : A -> bool) l l', Permutation l l' -> length (filter f l) = length (filter f l').
Proof. intros A f l l' P. induction P; cbn [filter]; auto; [destruct (f x); cbn; auto|destruct (f x), (f y); cbn; auto|congruence]. Qed.
Lemma filter_app_len : forall {A} (f : A -> bool) l l', length (filter f (l ++ l')) = (length (filter f l) + length (filter f l'))%nat.
Proof. intros. now rewrite filter_app, app_length. Qed.
Lemma filter_le : forall {A} (f : A -> bool) l, (length (filter f l) <= length l)%nat.
Proof. intros A f. induction l as [|a l IH]; cbn; auto. destruct (f a); cbn; lia. Qed.
Lemma filter_all : forall {A} (f : A -> bool) l, (forall a, In a l -> f a = true) -> length (filter f l) = length l.
Proof. intros A f. induction l as [|a l IH]; cbn; intros H; auto. rewrite H by auto. cbn. now rewrite IH by auto. Qed.
Lemma filter_none : forall {A} (f : A -> bool) l, (forall a, In a l -> f a = false) -> length (filter f l) = 0%nat.
Proof. intros A f. induction l as [|a l IH]; cbn; intros H; auto. rewrite H by auto. auto. Qed.

Lemma in_skipn : forall (l : list R) n c, In c (skipn n l) -> exists i, (n <= i < length l)%nat /\ nth i l 0 = c.
Proof. induction l as [|a l IH]; intros [|n] c H; cbn [skipn] in H; try easy. - destruct (In_nth _ _ 0 H) as (i & Hi & E). exists i. split; [lia|auto]. - destruct (IH n c H) as (i & Hi & E). exists (S i). cbn. split; [lia|auto]. Qed.
Lemma in_firstn : forall (l : list R) n c, In c (firstn n l) -> exists i, (i < n)%nat /\ (i < length l)%nat /\ nth i l 0 = c.
Proof. induction l as [|a l IH]; intros [|n] c H; cbn [firstn] in H; try easy. destruct H as [<-|H]; [exists 0%nat; cbn; repeat split; lia|]. destruct (IH n c H) as (i & Hi & Hl & E). exists (S i). cbn. repeat split; auto; lia. Qed.
Section Order.
Variables (x : list R) (c : R).
Let s := sort x.
Lemma above_sort : above c x = above c s.
Proof. apply filter_perm. symmetry. apply sort_perm. Qed.
Lemma below_sort : below c x = below c s.
Proof. apply filter_perm. symmetry. apply sort_perm. Qed.
Lemma order_le : forall j, (j < length x)%nat -> (nth j s 0 <= c <-> (above c x + j < length x)%nat).
Proof.
  intros j Hj. pose proof (sort_sorted x) as S. pose proof (sort_length x) as L. fold s in S, L. rewrite above_sort. unfold above. split; intros H.
  - rewrite <- (firstn_skipn (Datatypes.S j) s), filter_app_len. rewrite (filter_none _ (firstn (Datatypes.S j) s)). 2:{ intros a Ha. destruct (in_firstn _ _ _ Ha) as (i & H1 & H2 & <-). destruct (Rlt_dec c (nth i s 0)); auto. pose proof (sorted_le s i j S ltac:(lia)). lra. }
    pose proof (filter_le (fun v => if Rlt_dec c v then true else false) (skipn (Datatypes.S j) s)). rewrite skipn_length in H0. lia.
  - apply Rnot_lt_le. intros Hc. rewrite <- (firstn_skipn j s), filter_app_len in H. rewrite (filter_all _ (skipn j s)) in H. 2:{ intros a Ha. destruct (in_skipn _ _ _ Ha) as (i & H1 & <-). destruct (Rlt_dec c (nth i s 0)); auto. pose proof (sorted_le s j i S ltac:(lia)). lra. }
    rewrite skipn_length in H. lia.
Qed.
Lemma order_ge : forall j, (j < length x)%nat -> (c <= nth j s 0 <-> (below c x <= j)%nat).
Proof.
  intros j Hj. pose proof (sort_sorted x) as S. pose proof (sort_length x) as L. fold s in S, L. rewrite below_sort. unfold below. split; intros H.
  - rewrite <- (firstn_skipn j s), filter_app_len. rewrite (filter_none _ (skipn j s)). 2:{ intros a Ha. destruct (in_skipn _ _ _ Ha) as (i & H1 & <-). destruct (Rlt_dec (nth i s 0) c); auto. pose proof (sorted_le s j i S ltac:(lia)). lra. }
    pose proof (filter_le (fun v => if Rlt_dec v c then true else false) (firstn j s)). rewrite firstn_length in H0. lia.
  - apply Rnot_lt_le. intros Hc. rewrite <- (firstn_skipn (Datatypes.S j) s), filter_app_len in H. rewrite (filter_all _ (firstn (Datatypes.S j) s)) in H. 2:{ intros a Ha. destruct (in_firstn _ _ _ Ha) as (i & H1 & H2 & <-). destruct (Rlt_dec (nth i s 0) c); auto. pose proof (sorted_le s i j S ltac:(lia)). lra. }
    rewrite firstn_length in H. lia.
Qed.
End Order.

(** The median has at most half of the values on each side. *)
Lemma median_inv : forall x m, median x = Some m -> (0 < length x)%nat /\ m = if Nat.odd (length x) then nth (length x / 2) (sort x) 0 else 1 / 2 * (nth (length x / 2 - 1) (sort x) 0 + nth (length x / 2) (sort x) 0).
Proof. intros x m H. unfold median in H. destruct (Nat.eqb_spec (length x) 0); [discriminate|]. split; [lia|congruence]. Qed.
Lemma halves : forall n, (0 < n)%nat -> if Nat.odd n then (n = 2 * (n / 2) + 1)%nat else (n = 2 * (n / 2) /\ 1 <= n / 2)%nat.
Proof. intros n H. pose proof (Nat.div2_odd n) as D. rewrite Nat.div2_div in D. destruct (Nat.odd n); cbn [Nat.b2n] in D; lia. Qed.
Lemma median_between : forall x m, median x = Some m -> let n := length x in let s := sort x in
  if Nat.odd n then m = nth (n / 2) s 0 else nth (n / 2 - 1) s 0 <= m <= nth (n / 2) s 0.
Proof.
  intros x m H n s. destruct (median_inv x m H) as [H0 E]. fold n s in H0, E. pose proof (halves n H0). destruct (Nat.odd n); auto. assert (nth (n / 2 - 1) s 0 <= nth (n / 2) s 0) by (apply sorted_le; [apply sort_sorted|]; unfold s; rewrite sort_length; fold n; lia). lra.
Qed.
Lemma median_halves : forall x m, median x = Some m -> (2 * above m x <= length x /\ 2 * below m x <= length x)%nat.
Proof.
  intros x m H. pose proof (median_between x m H) as B. destruct (median_inv x m H) as [H0 _]. pose proof (halves _ H0) as D. cbv zeta in B. set (n := length x) in *. set (s := sort x) in *. destruct (Nat.odd n).
  - pose proof (proj1 (order_le x m (n / 2) ltac:(fold n; lia)) ltac:(fold s; lra)). pose proof (proj1 (order_ge x m (n / 2) ltac:(fold n; lia)) ltac:(fold s; lra)). fold n in H1. lia.
  - pose proof (proj1 (order_le x m (n / 2 - 1) ltac:(fold n; lia)) ltac:(fold s; lra)). pose proof (proj1 (order_ge x m (n / 2) ltac:(fold n; lia)) ltac:(fold s; lra)). fold n in H1. lia.
Qed.

(** Binomial distribution: probability of at least [i] successes in [n] trials. *)
Fixpoint tail (n : nat) (p : R) (i : nat) : R := match i, n with O, _ => 1 | S _, O => 0 | S i', S n' => p * tail n' p i' + (1 - p) * tail n' p i end.
Lemma tail_0 : forall n p, tail n p 0 = 1.
Proof. destruct n; reflexivity. Qed.
Lemma tail_dec : forall n p i, 0 <= p <= 1 -> tail n p (S i) <= tail n p i.
Proof.
  induction n as [|n IH]; intros p i Hp; [destruct i; cbn; lra|]. destruct i as [|i].
  - cbn [tail]. rewrite tail_0. pose proof (IH p 0%nat Hp) as A. rewrite tail_0 in A. nra.
  - cbn [tail]. pose proof (IH p i Hp). pose proof (IH p (S i) Hp). apply Rplus_le_compat; apply Rmult_le_compat_l; lra.
Qed.
Lemma tail_mono : forall n p q i, 0 <= p <= q -> q <= 1 -> tail n p i <= tail n q i.
Proof.
  induction n as [|n IH]; intros p q i Hp Hq; destruct i as [|i]; cbn [tail]; try lra. pose proof (IH p q i Hp Hq). pose proof (IH p q (S i) Hp Hq). pose proof (tail_dec n q i ltac:(lra)).
  apply Rle_trans with (p * tail n q i + (1 - p) * tail n q (S i)); [apply Rplus_le_compat; apply Rmult_le_compat_l; lra|]. nra.
Qed.
Lemma binomial_0 : forall n, binomial n 0 = 1%nat.
Proof. destruct n; reflexivity. Qed.
Lemma binomial_gt : forall n k, (n < k)%nat -> binomial n k = 0%nat.
Proof. induction n as [|n IH]; intros [|k] H; try lia; cbn [binomial]; auto. rewrite !IH by lia. reflexivity. Qed.
(** Sum of the first [i] binomial coefficients over [2^n]: less than [i] successes. *)
Definition low (n i : nat) : R := bsum i (fun k => INR (binomial n k)) / 2 ^ n.
Lemma pow2 : forall n, 0 < 2 ^ n.
Proof. intros. apply pow_lt. lra. Qed.
Lemma low_0 : forall n, low n 0 = 0.
Proof. intros. unfold low. cbn. unfold Rdiv. ring. Qed.
Lemma low_rec : forall n i, low (S n) (S i) = 1 / 2 * low n i + 1 / 2 * low n (S i).
Proof.
  intros n i. unfold low. pose proof (pow2 n). cbn [pow]. assert (E : bsum (S i) (fun k => INR (binomial (S n) k)) = bsum i (fun k => INR (binomial n k)) + bsum (S i) (fun k => INR (binomial n k))); [|rewrite E; field; lra].
  induction i as [|i IH]; [cbn [bsum]; rewrite !binomial_0; cbn; ring|]. cbn [bsum] in *. rewrite IH. cbn [binomial]. rewrite plus_INR. ring.
Qed.
Lemma low_tail : forall n i, low n i = 1 - tail n (1 / 2) i.
Proof.
  induction n as [|n IH]; intros [|i].
  - rewrite low_0. cbn. lra.
  - unfold low. assert (E : bsum (S i) (fun k => INR (binomial 0 k)) = 1); [|rewrite E; cbn; field]. induction i as [|i IH]; [cbn; lra|]. cbn [bsum] in *. rewrite IH. cbn. lra.
  - rewrite low_0, tail_0. lra.
  - rewrite low_rec, !IH. cbn [tail]. lra.
Qed.
Lemma tail_gt : forall n p i, (n < i)%nat -> tail n p i = 0.
Proof. induction n as [|n IH]; intros p [|i] H; try lia; cbn [tail]; auto. rewrite !IH by lia. ring. Qed.
Lemma tail_low : forall n j, (j <= n)%nat -> tail n (1 / 2) (n - j) = low n (S j).
Proof.
  induction n as [|n IH]; intros j H.
  - assert (j = 0%nat) by lia. subst. cbn. unfold low. cbn. field.
  - destruct j as [|j].
    + rewrite Nat.sub_0_r. cbn [tail]. rewrite tail_gt with (i := S n) by lia. pose proof (IH 0%nat ltac:(lia)) as E. rewrite Nat.sub_0_r in E. rewrite E, low_rec, low_0. lra.
    + rewrite low_rec. destruct (Nat.eq_dec j n) as [->|Hj].
      * rewrite Nat.sub_diag, tail_0. rewrite !low_tail. rewrite !tail_gt with (i := S (S n)) by lia. pose proof (IH n ltac:(lia)) as E. rewrite Nat.sub_diag, tail_0, low_tail in E. lra.
      * replace (S n - S j)%nat with (S (n - S j)) by lia. cbn [tail]. rewrite (IH (S j)) by lia. replace (S (n - S j))%nat with (n - j)%nat by lia. rewrite (IH j) by lia. lra.
Qed.
Lemma low_S : forall n i, low n (S i) = low n i + INR (binomial n i) / 2 ^ n.
Proof. intros. unfold low. cbn [bsum]. field. apply Rgt_not_eq, pow2. Qed.
Lemma low_mono : forall n i j, (i <= j)%nat -> low n i <= low n j.
Proof.
  intros n i j H. induction H; [lra|]. rewrite low_S. assert (0 <= INR (binomial n m) / 2 ^ n) by (apply Rmult_le_pos; [apply pos_INR|apply Rlt_le, Rinv_0_lt_compat, pow2]). lra.
Qed.
Lemma low_full : forall n i, (n < i)%nat -> low n i = 1.
Proof. intros. rewrite low_tail, tail_gt by auto. lra. Qed.
Lemma low_sym : forall n j, (j <= n)%nat -> low n (n - j) + low n (S j) = 1.
Proof. intros n j H. rewrite <- tail_low by auto. rewrite low_tail. lra. Qed.
Lemma bcdf_low : forall n k, bcdf n k = low n (Z.to_nat (k + 1)).
Proof. reflexivity. Qed.
Lemma bcdf_nat : forall n k, bcdf n (Z.of_nat k) = low n (S k).
Proof. intros. rewrite bcdf_low. f_equal. lia. Qed.

(** Quantiles. *)
Lemma find_first : forall (f : nat -> bool) n i k, find f (seq i n) = Some k -> f k = true /\ (i <= k < i + n)%nat /\ forall l, (i <= l < k)%nat -> f l = false.
Proof.
  intros f n. induction n as [|n IH]; intros i k H; cbn [seq find] in H; [discriminate|]. destruct (f i) eqn:E; [assert (k = i) by congruence; subst; repeat split; auto; try lia; intros; lia|]. destruct (IH _ _ H) as (A & B & C). repeat split; auto; try lia. intros l Hl. destruct (Nat.eq_dec l i) as [->|]; auto. apply C. lia.
Qed.
Lemma find_last : forall (f : nat -> bool) n i, f (i + n)%nat = true -> exists k, find f (seq i (S n)) = Some k.
Proof.
  intros f n. induction n as [|n IH]; intros i H; cbn [seq find].
  - rewrite Nat.add_0_r in H. rewrite H. eauto.
  - destruct (f i); eauto. apply IH. rewrite <- H. f_equal. lia.
Qed.
Lemma ppf_spec : forall n q, 0 < q <= 1 -> exists k, ppf n q = Some (Z.of_nat k) /\ (k <= n)%nat /\ q <= low n (S k) /\ forall i, (i <= k)%nat -> low n i < q.
Proof.
  intros n q Hq. unfold ppf. destruct (Rlt_dec q 0); [lra|]. destruct (Rlt_dec 1 q); [lra|]. destruct (Req_EM_T q 0); [lra|].
  destruct (find_last (fun k => if Rle_dec q (bcdf n (Z.of_nat k)) then true else false) n 0) as [k E]. { cbn beta. rewrite bcdf_nat. cbn [Nat.add]. rewrite low_full by lia. destruct (Rle_dec q 1); auto; lra. }
  rewrite E. exists k. split; [reflexivity|]. destruct (find_first _ _ _ _ E) as (A & B & C). split; [lia|]. rewrite bcdf_nat in A. destruct (Rle_dec q (low n (S k))) as [A'|]; [|discriminate]. split; [exact A'|]. intros [|i] Hi; [rewrite low_0; lra|]. specialize (C i ltac:(lia)). cbn beta in C. rewrite bcdf_nat in C. destruct (Rle_dec q (low n (S i))); [discriminate|lra].
Qed.
