(** Finite sums of reals indexed by natural numbers, and small matrix algebra with them. *)
From Coq Require Import List ZArith Lia Reals Lra Bool.
From Verif Require Import Base Vec BaseProofs.
Import ListNotations.
Local Open Scope R_scope.

Fixpoint bsum (n : nat) (f : nat -> R) : R := match n with O => 0 | S m => bsum m f + f m end.

Lemma bsum_ext : forall n f g, (forall i, (i < n)%nat -> f i = g i) -> bsum n f = bsum n g.
Proof. induction n as [|n IH]; intros f g H; cbn; [reflexivity|]. rewrite (IH f g), H; auto. Qed.
Lemma bsum_plus : forall n f g, bsum n (fun i => f i + g i) = bsum n f + bsum n g.
Proof. induction n as [|n IH]; intros; cbn; [ring|]. rewrite IH. ring. Qed.
Lemma bsum_minus : forall n f g, bsum n (fun i => f i - g i) = bsum n f - bsum n g.
Proof. induction n as [|n IH]; intros; cbn; [ring|]. rewrite IH. ring. Qed.
Lemma bsum_opp : forall n f, bsum n (fun i => - f i) = - bsum n f.
Proof. induction n as [|n IH]; intros; cbn; [ring|]. rewrite IH. ring. Qed.
Lemma bsum_scal : forall n k f, bsum n (fun i => k * f i) = k * bsum n f.
Proof. induction n as [|n IH]; intros; cbn; [ring|]. rewrite IH. ring. Qed.
Lemma bsum_scal_r : forall n k f, bsum n (fun i => f i * k) = bsum n f * k.
Proof. induction n as [|n IH]; intros; cbn; [ring|]. rewrite IH. ring. Qed.
Lemma bsum_zero : forall n, bsum n (fun _ => 0) = 0.
Proof. induction n as [|n IH]; cbn; [ring|]. rewrite IH. ring. Qed.
Lemma bsum_zero_ext : forall n f, (forall i, (i < n)%nat -> f i = 0) -> bsum n f = 0.
Proof. intros. rewrite (bsum_ext n f (fun _ => 0)); auto. apply bsum_zero. Qed.
Lemma bsum_const : forall n k, bsum n (fun _ => k) = INR n * k.
Proof. induction n as [|n IH]; intros; [cbn; ring|]. rewrite S_INR. cbn. rewrite IH. ring. Qed.
Lemma bsum_swap : forall n m f, bsum n (fun i => bsum m (fun j => f i j)) = bsum m (fun j => bsum n (fun i => f i j)).
Proof.
  induction n as [|n IH]; intros m f; cbn; [now rewrite bsum_zero|]. rewrite IH, <- bsum_plus. reflexivity.
Qed.
Lemma bsum_nonneg : forall n f, (forall i, (i < n)%nat -> 0 <= f i) -> 0 <= bsum n f.
Proof. induction n as [|n IH]; intros f H; cbn; [lra|]. specialize (IH f). pose proof (H n). assert (0 <= bsum n f) by (apply IH; auto). assert (0 <= f n) by auto. lra. Qed.
Lemma bsum_le : forall n f g, (forall i, (i < n)%nat -> f i <= g i) -> bsum n f <= bsum n g.
Proof. induction n as [|n IH]; intros f g H; cbn; [lra|]. assert (bsum n f <= bsum n g) by auto. assert (f n <= g n) by auto. lra. Qed.
Lemma bsum_split : forall n m f, bsum (n + m) f = bsum n f + bsum m (fun i => f (n + i)%nat).
Proof.
  intros n. induction m as [|m IH]; intros f; [rewrite Nat.add_0_r; cbn; ring|].
  rewrite Nat.add_succ_r. cbn. rewrite IH. ring.
Qed.
Lemma bsum_shift : forall n f, bsum (S n) f = f 0%nat + bsum n (fun i => f (S i)).
Proof. intros. change (S n) with (1 + n)%nat. rewrite bsum_split. cbn. ring. Qed.
Lemma bsum_rev : forall n f, bsum n f = bsum n (fun i => f (n - 1 - i)%nat).
Proof.
  induction n as [|n IH]; intros f; [reflexivity|]. rewrite bsum_shift. cbn. rewrite (IH (fun i => f (S i))). rewrite Rplus_comm. f_equal.
  - apply bsum_ext. intros i Hi. f_equal. lia.
  - f_equal. lia.
Qed.
Lemma bsum_delta : forall n k f, (k < n)%nat -> (forall i, (i < n)%nat -> i <> k -> f i = 0) -> bsum n f = f k.
Proof.
  induction n as [|n IH]; intros k f Hk H; [lia|]. cbn. destruct (Nat.eq_dec k n) as [->|N].
  - rewrite (bsum_zero_ext n) by (intros; apply H; lia). ring.
  - rewrite (IH k f) by (try lia; intros; apply H; lia). rewrite (H n) by lia. ring.
Qed.
Lemma bsum_Rsum : forall n f, bsum n f = Rsum (map f (seq 0 n)).
Proof. induction n as [|n IH]; intros f; [reflexivity|]. rewrite seq_S, map_app, Rsum_app. cbn. rewrite IH. ring. Qed.
Lemma bsum_mul : forall n m f g, bsum n f * bsum m g = bsum n (fun i => bsum m (fun j => f i * g j)).
Proof. intros. rewrite <- bsum_scal_r. apply bsum_ext. intros. now rewrite bsum_scal. Qed.
Lemma bsum_perm : forall n f g (s t : nat -> nat), (forall i, (i < n)%nat -> (s i < n)%nat /\ t (s i) = i) -> (forall i, (i < n)%nat -> (t i < n)%nat /\ s (t i) = i) ->
  (forall i, (i < n)%nat -> f i = g (s i)) -> bsum n f = bsum n g.
Proof.
  intros n f g s t Hs Ht H.
  rewrite (bsum_ext n f (fun i => bsum n (fun j => if Nat.eqb j (s i) then g j else 0))).
  - rewrite bsum_swap. apply bsum_ext. intros j Hj. rewrite (bsum_delta n (t j)).
    + destruct (Ht j Hj) as (_ & ->). now rewrite Nat.eqb_refl.
    + apply Ht, Hj.
    + intros i Hi Ne. destruct (Nat.eqb_spec j (s i)) as [->|]; auto. exfalso. apply Ne. symmetry. now apply Hs.
  - intros i Hi. rewrite (bsum_delta n (s i)).
    + rewrite Nat.eqb_refl. auto.
    + now apply Hs.
    + intros j Hj Ne. destruct (Nat.eqb_spec j (s i)); congruence.
Qed.
(** Rotating the index of a sum over a full period. *)
Lemma bsum_mod : forall n k f, (0 < n)%nat -> bsum n (fun i => f ((i + k) mod n)%nat) = bsum n f.
Proof.
  intros n k f Hn. apply (bsum_perm n _ _ (fun i => ((i + k) mod n)%nat) (fun i => ((i + (n - k mod n)) mod n)%nat)); auto.
  - intros i Hi. split; [apply Nat.mod_upper_bound; lia|]. pose proof (Nat.mod_upper_bound k n ltac:(lia)).
    rewrite Nat.add_mod_idemp_l by lia. pose proof (Nat.div_mod k n ltac:(lia)) as D.
    replace (i + k + (n - k mod n))%nat with (i + (k / n + 1) * n)%nat by nia. rewrite Nat.mod_add by lia. now apply Nat.mod_small.
  - intros i Hi. split; [apply Nat.mod_upper_bound; lia|]. pose proof (Nat.mod_upper_bound k n ltac:(lia)).
    rewrite Nat.add_mod_idemp_l by lia. pose proof (Nat.div_mod k n ltac:(lia)) as D.
    replace (i + (n - k mod n) + k)%nat with (i + (k / n + 1) * n)%nat by nia. rewrite Nat.mod_add by lia. now apply Nat.mod_small.
Qed.

Lemma dot_bsum : forall n a b, length a = n -> length b = n -> dot a b = bsum n (fun i => nth i a 0 * nth i b 0).
Proof.
  intros n a. revert n. induction a as [|x a IH]; intros n b Ha Hb.
  - cbn in Ha. subst n. reflexivity.
  - destruct b as [|y b]; [cbn in *; lia|]. destruct n; [cbn in *; lia|]. rewrite bsum_shift. cbn [nth]. rewrite <- (IH n b) by (cbn in *; lia). reflexivity.
Qed.

(** ** Vectors and matrices as functions of indices below [n]. *)
Definition mv (n : nat) (M : nat -> nat -> R) (v : nat -> R) (i : nat) : R := bsum n (fun j => M i j * v j).
Definition ip (n : nat) (u v : nat -> R) : R := bsum n (fun i => u i * v i).
Definition quadratic (n : nat) (M : nat -> nat -> R) (v : nat -> R) : R := ip n v (mv n M v).
Definition sym (n : nat) (M : nat -> nat -> R) : Prop := forall i j, (i < n)%nat -> (j < n)%nat -> M i j = M j i.
Definition kron (i j : nat) : R := if Nat.eqb i j then 1 else 0.
Lemma ip_comm : forall n u v, ip n u v = ip n v u.
Proof. intros. apply bsum_ext. intros. ring. Qed.
Lemma ip_ext : forall n u v u' v', (forall i, (i < n)%nat -> u i = u' i) -> (forall i, (i < n)%nat -> v i = v' i) -> ip n u v = ip n u' v'.
Proof. intros. apply bsum_ext. intros. rewrite H, H0; auto. Qed.
Lemma mv_ext : forall n M v v' i, (forall j, (j < n)%nat -> v j = v' j) -> mv n M v i = mv n M v' i.
Proof. intros. apply bsum_ext. intros. rewrite H; auto. Qed.
Lemma mv_plus : forall n M u v i, mv n M (fun j => u j + v j) i = mv n M u i + mv n M v i.
Proof. intros. unfold mv. rewrite <- bsum_plus. apply bsum_ext. intros. ring. Qed.
Lemma mv_minus : forall n M u v i, mv n M (fun j => u j - v j) i = mv n M u i - mv n M v i.
Proof. intros. unfold mv. rewrite <- bsum_minus. apply bsum_ext. intros. ring. Qed.
Lemma mv_scal : forall n M k v i, mv n M (fun j => k * v j) i = k * mv n M v i.
Proof. intros. unfold mv. rewrite <- bsum_scal. apply bsum_ext. intros. ring. Qed.
Lemma ip_plus_r : forall n u v w, ip n u (fun i => v i + w i) = ip n u v + ip n u w.
Proof. intros. unfold ip. rewrite <- bsum_plus. apply bsum_ext. intros. ring. Qed.
Lemma ip_minus_r : forall n u v w, ip n u (fun i => v i - w i) = ip n u v - ip n u w.
Proof. intros. unfold ip. rewrite <- bsum_minus. apply bsum_ext. intros. ring. Qed.
Lemma ip_scal_r : forall n k u v, ip n u (fun i => k * v i) = k * ip n u v.
Proof. intros. unfold ip. rewrite <- bsum_scal. apply bsum_ext. intros. ring. Qed.
Lemma ip_mv_sym : forall n M u v, sym n M -> ip n u (mv n M v) = ip n (mv n M u) v.
Proof.
  intros n M u v S. unfold ip, mv.
  rewrite (bsum_ext n _ (fun i => bsum n (fun j => u i * (M i j * v j)))) by (intros; now rewrite bsum_scal).
  rewrite bsum_swap. apply bsum_ext. intros j Hj. rewrite <- bsum_scal_r. apply bsum_ext. intros i Hi. rewrite (S i j) by auto. ring.
Qed.
Lemma mv_mv : forall n A B v i, mv n A (mv n B v) i = mv n (fun i j => bsum n (fun k => A i k * B k j)) v i.
Proof.
  intros. unfold mv. rewrite (bsum_ext n _ (fun k => bsum n (fun j => A i k * (B k j * v j)))) by (intros; now rewrite bsum_scal).
  rewrite bsum_swap. apply bsum_ext. intros j Hj. rewrite <- bsum_scal_r. apply bsum_ext. intros. ring.
Qed.
Lemma mv_kron : forall n v i, (i < n)%nat -> mv n kron v i = v i.
Proof.
  intros n v i Hi. unfold mv. rewrite (bsum_delta n i); auto.
  - unfold kron. rewrite Nat.eqb_refl. ring.
  - intros j Hj Ne. unfold kron. destruct (Nat.eqb_spec i j); [congruence|ring].
Qed.
