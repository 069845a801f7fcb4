(** Lemmas about the vocabulary of [Base]. *)
From Coq Require Import List ZArith Lia Reals Lra.
From Verif Require Import Base.
Import ListNotations.

Lemma in_crange : forall lo hi x, In x (crange lo hi) <-> (lo <= x <= hi)%Z.
Proof.
  intros lo hi x. unfold crange. rewrite in_map_iff. split.
  - intros [k [E H]]. apply in_seq in H. lia.
  - intros H. exists (Z.to_nat (x - lo)). split; [lia|]. apply in_seq. lia.
Qed.

Lemma length_crange : forall lo hi, length (crange lo hi) = Z.to_nat (hi - lo + 1).
Proof. intros. unfold crange. now rewrite map_length, seq_length. Qed.

Lemma NoDup_map_inj : forall {A B} (f : A -> B) l,
  (forall x y, In x l -> In y l -> f x = f y -> x = y) -> NoDup l -> NoDup (map f l).
Proof.
  intros A B f l Hf H. induction H as [|a l Ha Hl IH]; simpl; constructor.
  - rewrite in_map_iff. intros [x [E Hx]]. apply Ha.
    rewrite <- (Hf x a); auto; simpl; auto.
  - apply IH. intros x y Hx Hy. apply Hf; simpl; auto.
Qed.

Lemma NoDup_crange : forall lo hi, NoDup (crange lo hi).
Proof.
  intros. unfold crange. apply NoDup_map_inj; [intros; lia|apply seq_NoDup].
Qed.

Lemma NoDup_app_intro : forall {A} (l1 l2 : list A),
  NoDup l1 -> NoDup l2 -> (forall x, In x l1 -> In x l2 -> False) -> NoDup (l1 ++ l2).
Proof.
  intros A l1 l2 H1 H2 Hd. induction H1 as [|a l Ha Hl IH]; simpl; auto.
  constructor.
  - rewrite in_app_iff. intros [?|?]; [auto|]. apply (Hd a); simpl; auto.
  - apply IH. intros x Hx. apply Hd; simpl; auto.
Qed.

Lemma NoDup_flat_map : forall {A B} (f : A -> list B) l,
  NoDup l -> (forall a, In a l -> NoDup (f a)) ->
  (forall a b x, In a l -> In b l -> In x (f a) -> In x (f b) -> a = b) ->
  NoDup (flat_map f l).
Proof.
  intros A B f l H. induction H as [|a l Ha Hl IH]; simpl; intros Hf Hd; [constructor|].
  apply NoDup_app_intro.
  - apply Hf; simpl; auto.
  - apply IH; [intros; apply Hf; simpl; auto|].
    intros; eapply Hd; simpl; eauto.
  - intros x Hx Hx'. apply in_flat_map in Hx'. destruct Hx' as [b [Hb Hxb]].
    apply Ha. rewrite (Hd a b x); simpl; auto.
Qed.

Lemma store_Some : forall {A} (l : list A) i v,
  i < length l -> exists l', store l i v = Some l' /\ length l' = length l /\
    forall j, nth_error l' j = if Nat.eqb j i then Some v else nth_error l j.
Proof.
  induction l as [|h t IH]; simpl; intros i v Hi; [lia|].
  destruct i as [|i].
  - exists (v :: t). repeat split; auto. intros [|j]; simpl; auto.
  - destruct (IH i v) as [l' [E [L N]]]; [lia|]. rewrite E.
    exists (h :: l'). simpl. repeat split; auto. intros [|j]; simpl; auto.
Qed.

Lemma store_None : forall {A} (l : list A) i v, length l <= i -> store l i v = None.
Proof.
  induction l as [|h t IH]; simpl; intros i v Hi; auto.
  destruct i; [lia|]. rewrite IH; auto; lia.
Qed.

Lemma mapM_Some : forall {A B} (f : A -> option B) l,
  (forall a, In a l -> exists b, f a = Some b) ->
  exists l', mapM f l = Some l' /\ Forall2 (fun a b => f a = Some b) l l'.
Proof.
  induction l as [|a t IH]; simpl; intros H.
  - exists []; auto.
  - destruct (H a) as [b Hb]; auto. destruct IH as [t' [E F]]; auto.
    rewrite Hb; simpl. rewrite E; simpl. exists (b :: t'). auto.
Qed.

Lemma mapM_total : forall {A B} (f : A -> B) l, mapM (fun a => Some (f a)) l = Some (map f l).
Proof. induction l as [|a t IH]; simpl; auto. now rewrite IH. Qed.

Lemma mapM_ext_in : forall {A B} (f g : A -> option B) l,
  (forall a, In a l -> f a = g a) -> mapM f l = mapM g l.
Proof.
  induction l as [|a t IH]; simpl; intros H; auto.
  rewrite H by auto. rewrite IH by auto. reflexivity.
Qed.

Lemma mapM_length : forall {A B} (f : A -> option B) l l',
  mapM f l = Some l' -> length l' = length l.
Proof.
  induction l as [|a t IH]; simpl; intros l' H; [inversion H; auto|].
  destruct (f a); simpl in H; [|discriminate].
  destruct (mapM f t); simpl in H; [|discriminate]. inversion H; simpl. f_equal; auto.
Qed.

Lemma Rsum_app : forall l1 l2, Rsum (l1 ++ l2) = (Rsum l1 + Rsum l2)%R.
Proof. induction l1 as [|a l IH]; simpl; intros; [lra|]. rewrite IH. lra. Qed.

Lemma Rprod_app : forall l1 l2, Rprod (l1 ++ l2) = (Rprod l1 * Rprod l2)%R.
Proof. induction l1 as [|a l IH]; simpl; intros; [lra|]. rewrite IH. lra. Qed.

Lemma Rsum_map_plus : forall {A} (f g : A -> R) l,
  Rsum (map (fun a => (f a + g a)%R) l) = (Rsum (map f l) + Rsum (map g l))%R.
Proof. induction l as [|a l IH]; simpl; [lra|]. rewrite IH. lra. Qed.

Lemma Rsum_map_scal : forall {A} (c : R) (f : A -> R) l,
  Rsum (map (fun a => (c * f a)%R) l) = (c * Rsum (map f l))%R.
Proof. induction l as [|a l IH]; simpl; [lra|]. rewrite IH. lra. Qed.

Lemma Rsum_map_ext : forall {A} (f g : A -> R) l,
  (forall a, In a l -> f a = g a) -> Rsum (map f l) = Rsum (map g l).
Proof.
  induction l as [|a l IH]; simpl; intros H; auto. rewrite H, IH; auto.
Qed.

Lemma Rsum_map_zero : forall {A} (f : A -> R) l,
  (forall a, In a l -> f a = 0%R) -> Rsum (map f l) = 0%R.
Proof.
  induction l as [|a l IH]; simpl; intros H; auto. rewrite H, IH; auto. lra.
Qed.

Lemma nth_map_seq : forall {A} (f : nat -> A) d D dflt,
  d < D -> nth d (map f (seq 0 D)) dflt = f d.
Proof.
  intros A f d D dflt H.
  rewrite (nth_indep _ dflt (f 0)) by (rewrite map_length, seq_length; auto).
  rewrite map_nth, seq_nth; auto.
Qed.

Lemma nat_above : forall x : R, exists m : nat, (x < INR m)%R.
Proof.
  intros x. destruct (archimed x) as [H _]. exists (Z.to_nat (up x)).
  destruct (Z_lt_le_dec (up x) 0) as [N|N].
  - apply IZR_lt in N. pose proof (pos_INR (Z.to_nat (up x))). lra.
  - rewrite INR_IZR_INZ, Z2Nat.id by auto. lra.
Qed.
Lemma mapM_inv : forall {A B} (f : A -> option B) l l', mapM f l = Some l' -> Forall2 (fun a b => f a = Some b) l l'.
Proof.
  induction l as [|a l IH]; intros l' H; cbn in H; [injection H as <-; constructor|].
  destruct (f a) as [b|] eqn:E; cbn in H; [|discriminate]. destruct (mapM f l) as [t|] eqn:E2; cbn in H; [|discriminate].
  injection H as <-. constructor; auto.
Qed.
