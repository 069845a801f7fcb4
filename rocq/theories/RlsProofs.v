(** Proofs about recursive least squares. *)
From Coq Require Import List ZArith Lia Reals Lra Bool.
From Verif Require Import Base Vec BaseProofs BufferModel BufferProofs LmsSpec LmsProofs Sum RlsModel RlsSpec.
Import ListNotations.
Local Open Scope R_scope.

(** ** Updating an inverse by [L] rows (matrix inversion lemma) *)
Section Woodbury.
Variables n L : nat.
Variables P F : nat -> nat -> R.
Variable X : nat -> nat -> R.
Variable dd : nat -> R.
Variable g : nat -> nat -> R.
Variable c : R.
Hypothesis Psym : sym n P.
Hypothesis Fsym : sym n F.
Hypothesis PF : forall v i, (i < n)%nat -> mv n P (mv n F v) i = v i.
Hypothesis dd_nz : forall l, (l < L)%nat -> dd l <> 0.
Hypothesis c_nz : c <> 0.

Definition Xv (v : nat -> R) (l : nat) : R := bsum n (fun i => X l i * v i).
Definition XT (a : nat -> R) (i : nat) : R := bsum L (fun l => X l i * a l).
Definition pi_ (i l : nat) : R := bsum n (fun k => P i k * X l k).
Definition M_ (l m : nat) : R := dd l * kron l m + bsum n (fun k => X l k * pi_ k m).
Hypothesis gM : forall i l, (i < n)%nat -> (l < L)%nat -> bsum L (fun m => g i m * M_ m l) = pi_ i l.
Definition P' (i j : nat) : R := c * (P i j - bsum L (fun l => g i l * pi_ j l)).
Definition F' (i j : nat) : R := (F i j + bsum L (fun l => X l i * X l j / dd l)) / c.

Lemma pi_mv : forall a i, (i < n)%nat -> bsum L (fun l => pi_ i l * a l) = mv n P (XT a) i.
Proof.
  intros a i Hi. unfold pi_, mv, XT.
  rewrite (bsum_ext L _ (fun l => bsum n (fun k => P i k * X l k * a l))) by (intros; now rewrite bsum_scal_r).
  rewrite bsum_swap. apply bsum_ext. intros k Hk. rewrite <- bsum_scal. apply bsum_ext. intros. ring.
Qed.
Lemma piT_mv : forall y l, bsum n (fun j => pi_ j l * y j) = Xv (mv n P y) l.
Proof.
  intros y l. unfold pi_, Xv, mv.
  rewrite (bsum_ext n _ (fun j => bsum n (fun k => P j k * X l k * y j))) by (intros; now rewrite bsum_scal_r).
  rewrite bsum_swap. apply bsum_ext. intros k Hk. rewrite <- bsum_scal. apply bsum_ext. intros j Hj. rewrite (Psym k j) by auto. ring.
Qed.
Lemma M_mv : forall b l, (l < L)%nat -> bsum L (fun m => M_ l m * b m) = dd l * b l + Xv (mv n P (XT b)) l.
Proof.
  intros b l Hl. unfold M_. rewrite (bsum_ext L _ (fun m => dd l * kron l m * b m + bsum n (fun k => X l k * (pi_ k m * b m)))).
  - rewrite bsum_plus. f_equal.
    + rewrite (bsum_delta L l); auto; unfold kron; [rewrite Nat.eqb_refl; ring|].
      intros m Hm Ne. destruct (Nat.eqb_spec l m); [congruence|ring].
    + rewrite bsum_swap. apply bsum_ext. intros k Hk. rewrite bsum_scal, pi_mv by auto. reflexivity.
  - intros m Hm. rewrite Rmult_plus_distr_r. f_equal. rewrite <- bsum_scal_r. apply bsum_ext. intros; ring.
Qed.
Lemma M_sym : sym L M_.
Proof.
  intros l m Hl Hm. unfold M_. f_equal.
  - unfold kron. destruct (Nat.eqb_spec l m) as [->|N]; [now rewrite Nat.eqb_refl|]. destruct (Nat.eqb_spec m l); [congruence|ring].
  - unfold pi_. rewrite (bsum_ext n _ (fun k => bsum n (fun q => X l k * (P k q * X m q)))) by (intros; now rewrite bsum_scal).
    rewrite bsum_swap. apply bsum_ext. intros q Hq. rewrite <- bsum_scal. apply bsum_ext. intros k Hk. rewrite (Psym k q) by auto. ring.
Qed.
Lemma gM_mv : forall b i, (i < n)%nat -> bsum L (fun m => g i m * bsum L (fun l => M_ m l * b l)) = bsum L (fun l => pi_ i l * b l).
Proof.
  intros b i Hi. rewrite (bsum_ext L _ (fun m => bsum L (fun l => g i m * (M_ m l * b l)))) by (intros; now rewrite bsum_scal).
  rewrite bsum_swap. apply bsum_ext. intros l Hl. rewrite <- gM by auto. rewrite <- bsum_scal_r. apply bsum_ext. intros; ring.
Qed.
(** c^-1 P' y = P y - g X P y *)
Lemma P'_mv : forall y i, mv n P' y i = c * (mv n P y i - bsum L (fun l => g i l * Xv (mv n P y) l)).
Proof.
  intros y i. unfold mv at 1, P'.
  rewrite (bsum_ext n _ (fun j => c * (P i j * y j - bsum L (fun l => g i l * (pi_ j l * y j))))).
  - rewrite bsum_scal, bsum_minus. f_equal. f_equal. rewrite bsum_swap. apply bsum_ext. intros l Hl. rewrite bsum_scal, piT_mv. reflexivity.
  - intros j Hj. rewrite Rmult_assoc. f_equal. rewrite Rmult_minus_distr_r. f_equal. rewrite <- bsum_scal_r. apply bsum_ext. intros; ring.
Qed.
Lemma F'_mv : forall v i, (i < n)%nat -> mv n F' v i = (mv n F v i + XT (fun l => Xv v l / dd l) i) / c.
Proof.
  intros v i Hi. unfold mv at 1, F'.
  rewrite (bsum_ext n _ (fun j => / c * (F i j * v j + bsum L (fun l => X l i * (X l j * v j) / dd l)))).
  - rewrite bsum_scal, bsum_plus. rewrite (Rmult_comm (/ c)). apply Rmult_eq_compat_r. apply Rplus_eq_compat_l. rewrite bsum_swap. apply bsum_ext. intros l Hl.
    unfold Xv, Rdiv. rewrite (bsum_ext n _ (fun i0 => X l i * / dd l * (X l i0 * v i0))) by (intros; ring). rewrite bsum_scal. ring.
  - intros j Hj. unfold Rdiv at 1. rewrite (Rmult_comm _ (/ c)), Rmult_assoc. f_equal. rewrite Rmult_plus_distr_r. f_equal. rewrite <- bsum_scal_r. apply bsum_ext. intros. unfold Rdiv. ring.
Qed.
Lemma FP : forall v i, (i < n)%nat -> mv n F (mv n P v) i = v i.
Proof.
  intros v i Hi.
  assert (E : ip n (fun j => kron i j) (mv n F (mv n P v)) = ip n (fun j => kron i j) v).
  { rewrite ip_mv_sym by auto. rewrite ip_mv_sym by auto. apply ip_ext; auto. }
  unfold ip in E. rewrite (bsum_delta n i) in E; auto.
  - rewrite (bsum_delta n i) in E; auto.
    + unfold kron in E. rewrite Nat.eqb_refl in E. lra.
    + intros j Hj Ne. unfold kron. destruct (Nat.eqb_spec i j); [congruence|ring].
  - intros j Hj Ne. unfold kron. destruct (Nat.eqb_spec i j); [congruence|ring].
Qed.
Lemma PF' : forall v i, (i < n)%nat -> mv n P' (mv n F' v) i = v i.
Proof.
  intros v i Hi. rewrite P'_mv. set (b := fun l => Xv v l / dd l).
  assert (Py : forall k, (k < n)%nat -> mv n P (mv n F' v) k = (v k + bsum L (fun l => pi_ k l * b l)) / c).
  { intros k Hk. rewrite (mv_ext n P _ (fun j => / c * (mv n F v j + XT b j))).
    - rewrite mv_scal, mv_plus, PF, pi_mv by auto. unfold Rdiv. ring.
    - intros j Hj. rewrite F'_mv by auto. fold b. unfold Rdiv. ring. }
  rewrite Py by auto.
  assert (XPy : forall l, (l < L)%nat -> Xv (mv n P (mv n F' v)) l = bsum L (fun m => M_ l m * b m) / c).
  { intros l Hl. rewrite M_mv by auto. unfold Xv at 1. rewrite (bsum_ext n _ (fun k => / c * (X l k * v k + X l k * mv n P (XT b) k))).
    - rewrite bsum_scal, bsum_plus. fold (Xv v l). fold (Xv (mv n P (XT b)) l). unfold b at 2. unfold Rdiv. field. split; auto.
    - intros k Hk. rewrite Py by auto. rewrite pi_mv by auto. unfold Rdiv. ring. }
  rewrite (bsum_ext L (fun l => g i l * Xv (mv n P (mv n F' v)) l) (fun l => / c * (g i l * bsum L (fun m => M_ l m * b m)))) by (intros; rewrite XPy by auto; unfold Rdiv; ring).
  rewrite bsum_scal, gM_mv by auto. field. auto.
Qed.
Lemma P'_sym : sym n P'.
Proof.
  intros i j Hi Hj. unfold P'. f_equal. rewrite (Psym i j) by auto. f_equal.
  rewrite (bsum_ext L _ (fun l => bsum L (fun m => g i l * (g j m * M_ m l)))) by (intros; rewrite <- gM by auto; now rewrite bsum_scal).
  rewrite (bsum_ext L (fun l => g j l * pi_ i l) (fun l => bsum L (fun m => g j l * (g i m * M_ m l)))) by (intros; rewrite <- gM by auto; now rewrite bsum_scal).
  rewrite bsum_swap. apply bsum_ext. intros l Hl. apply bsum_ext. intros m Hm. rewrite (M_sym m l) by auto. ring.
Qed.
Lemma F'_sym : sym n F'.
Proof.
  intros i j Hi Hj. unfold F'. f_equal. rewrite (Fsym i j) by auto. f_equal. apply bsum_ext. intros. unfold Rdiv. ring.
Qed.
Lemma normal_eq' : forall w z d, (forall i, (i < n)%nat -> mv n F w i = z i) ->
  let alpha := fun l => d l - Xv w l in
  forall i, (i < n)%nat -> mv n F' (fun j => w j + bsum L (fun l => g j l * alpha l)) i = (z i + bsum L (fun l => X l i * d l / dd l)) / c.
Proof.
  intros w z d Fw alpha. set (b := fun l => alpha l / dd l). set (t := XT b).
  assert (Gt : forall i, (i < n)%nat -> bsum L (fun l => g i l * alpha l) = / c * mv n P' t i).
  { intros i Hi. rewrite P'_mv. unfold t at 1. rewrite <- pi_mv by auto. rewrite <- gM_mv by auto.
    rewrite <- Rmult_assoc, Rinv_l, Rmult_1_l by auto. rewrite <- bsum_minus. apply bsum_ext. intros l Hl. rewrite M_mv by auto. fold t. unfold b. field. auto. }
  intros i Hi. rewrite mv_plus. rewrite F'_mv by auto. rewrite (mv_ext n F' _ (fun j => / c * mv n P' t j)) by auto. rewrite mv_scal.
  assert (Ft : mv n F' (mv n P' t) i = t i).
  { assert (E : ip n (fun j => kron i j) (mv n F' (mv n P' t)) = ip n (fun j => kron i j) t).
    { rewrite ip_mv_sym by apply F'_sym. rewrite ip_mv_sym by apply P'_sym. apply ip_ext; auto. intros. now apply PF'. }
    unfold ip in E. rewrite (bsum_delta n i) in E; auto.
    - rewrite (bsum_delta n i) in E; auto.
      + unfold kron in E. rewrite Nat.eqb_refl in E. lra.
      + intros j Hj Ne. unfold kron. destruct (Nat.eqb_spec i j); [congruence|ring].
    - intros j Hj Ne. unfold kron. destruct (Nat.eqb_spec i j); [congruence|ring]. }
  rewrite Ft, Fw by auto. unfold t, XT.
  replace (bsum L (fun l => X l i * d l / dd l)) with (bsum L (fun l => X l i * (Xv w l / dd l)) + bsum L (fun l => X l i * b l)).
  - unfold Rdiv. ring.
  - rewrite <- bsum_plus. apply bsum_ext. intros. unfold b, alpha, Rdiv. ring.
Qed.
(** [M_] has no kernel when the [dd] are positive and [F] is positive semidefinite. *)
Lemma P_psd : (forall v, 0 <= quadratic n F v) -> forall v, 0 <= quadratic n P v.
Proof.
  intros H v. unfold quadratic. specialize (H (mv n P v)). unfold quadratic in H.
  rewrite (ip_ext n (mv n P v) (mv n F (mv n P v)) (mv n P v) v) in H; auto.
  - rewrite ip_comm in H. exact H.
  - intros; now apply FP.
Qed.
Lemma M_pos : (forall v, 0 <= quadratic n F v) -> forall b, bsum L (fun l => dd l * (b l * b l)) <= quadratic L M_ b.
Proof.
  intros H b. unfold quadratic, ip.
  rewrite (bsum_ext L (fun i => b i * mv L M_ b i) (fun l => dd l * (b l * b l) + b l * Xv (mv n P (XT b)) l)).
  - rewrite bsum_plus. assert (E : bsum L (fun i => b i * Xv (mv n P (XT b)) i) = quadratic n P (XT b)).
    { unfold quadratic, ip, Xv. rewrite (bsum_ext L _ (fun l => bsum n (fun k => b l * (X l k * mv n P (XT b) k)))) by (intros; now rewrite bsum_scal).
      rewrite bsum_swap. apply bsum_ext. intros k Hk. unfold XT at 2. rewrite <- bsum_scal_r. apply bsum_ext. intros. ring. }
    rewrite E. pose proof (P_psd H (XT b)). lra.
  - intros l Hl. unfold mv at 1. rewrite M_mv by auto. ring.
Qed.
End Woodbury.

(** ** The spec *)
Lemma past_window_app : forall len ss blk k, past_window len (ss ++ blk) (length blk + k) = past_window len ss k.
Proof.
  intros. unfold past_window, newest_first. rewrite map_app, rev_app_distr, skipn_app.
  rewrite skipn_all2 by (rewrite rev_length, map_length; lia). rewrite rev_length, map_length. replace (length blk + k - length blk)%nat with k by lia. reflexivity.
Qed.
Lemma past_ref_app : forall ss blk k, past_ref (ss ++ blk) (length blk + k) = past_ref ss k.
Proof.
  intros. unfold past_ref, newest_refs. rewrite map_app, rev_app_distr. rewrite app_nth2 by (rewrite rev_length, map_length; lia).
  rewrite rev_length, map_length. f_equal. lia.
Qed.
Lemma Phi_bsum : forall len lmbd delta ss i j, Phi len lmbd delta ss i j = delta * lmbd ^ length ss * kron i j +
  bsum (length ss) (fun k => lmbd ^ k * (nth i (past_window len ss k) 0 * nth j (past_window len ss k) 0)).
Proof. intros. unfold Phi. now rewrite bsum_Rsum. Qed.
Lemma Phi_app : forall len lmbd delta ss blk i j,
  Phi len lmbd delta (ss ++ blk) i j = lmbd ^ length blk * Phi len lmbd delta ss i j +
    bsum (length blk) (fun l => lmbd ^ l * (nth i (past_window len (ss ++ blk) l) 0 * nth j (past_window len (ss ++ blk) l) 0)).
Proof.
  intros. rewrite !Phi_bsum, app_length. rewrite (Nat.add_comm (length ss)), bsum_split, pow_add.
  rewrite (bsum_ext (length ss) (fun i0 => lmbd ^ (length blk + i0) * _) (fun k => lmbd ^ length blk * (lmbd ^ k * (nth i (past_window len ss k) 0 * nth j (past_window len ss k) 0)))).
  - rewrite bsum_scal. ring.
  - intros k Hk. rewrite past_window_app, pow_add. ring.
Qed.
Lemma zeta_app : forall len lmbd ss blk i,
  zeta len lmbd (ss ++ blk) i = lmbd ^ length blk * zeta len lmbd ss i +
    bsum (length blk) (fun l => lmbd ^ l * (past_ref (ss ++ blk) l * nth i (past_window len (ss ++ blk) l) 0)).
Proof.
  intros. unfold zeta. rewrite <- !bsum_Rsum, app_length. rewrite (Nat.add_comm (length ss)), bsum_split.
  rewrite (bsum_ext (length ss) (fun i0 => lmbd ^ (length blk + i0) * _) (fun k => lmbd ^ length blk * (lmbd ^ k * (past_ref ss k * nth i (past_window len ss k) 0)))).
  - rewrite bsum_scal. ring.
  - intros k Hk. rewrite past_window_app, past_ref_app, pow_add. ring.
Qed.
Lemma Phi_sym : forall len lmbd delta ss n, sym n (Phi len lmbd delta ss).
Proof.
  intros len lmbd delta ss n i j _ _. rewrite !Phi_bsum. f_equal.
  - unfold kron. destruct (Nat.eqb_spec i j) as [->|]; [now rewrite Nat.eqb_refl|]. destruct (Nat.eqb_spec j i); [congruence|reflexivity].
  - apply bsum_ext. intros. ring.
Qed.
Lemma Phi_quadratic : forall len lmbd delta ss v,
  quadratic len (Phi len lmbd delta ss) v = delta * lmbd ^ length ss * ip len v v +
    bsum (length ss) (fun k => let e := ip len (fun i => nth i (past_window len ss k) 0) v in lmbd ^ k * (e * e)).
Proof.
  intros. unfold quadratic, ip at 1, mv.
  rewrite (bsum_ext len _ (fun i => delta * lmbd ^ length ss * (v i * v i) +
     bsum (length ss) (fun k => lmbd ^ k * (ip len (fun i => nth i (past_window len ss k) 0) v) * (nth i (past_window len ss k) 0 * v i)))).
  - rewrite bsum_plus, bsum_scal. f_equal. rewrite bsum_swap. apply bsum_ext. intros k Hk. rewrite bsum_scal. fold (ip len (fun i => nth i (past_window len ss k) 0) v). ring.
  - intros i Hi. rewrite (bsum_ext len _ (fun j => delta * lmbd ^ length ss * (kron i j * v j) + bsum (length ss) (fun k => lmbd ^ k * nth i (past_window len ss k) 0 * (nth j (past_window len ss k) 0 * v j)))).
    + rewrite bsum_plus, bsum_scal. fold (mv len kron v i). rewrite mv_kron by auto. rewrite bsum_swap, Rmult_plus_distr_l. f_equal; [ring|]. rewrite <- bsum_scal. apply bsum_ext.
      intros k Hk. rewrite bsum_scal. fold (ip len (fun i => nth i (past_window len ss k) 0) v). ring.
    + intros j Hj. rewrite Phi_bsum, Rmult_plus_distr_r. f_equal; [ring|]. rewrite <- bsum_scal_r. apply bsum_ext. intros; ring.
Qed.
Lemma Phi_psd : forall len lmbd delta ss v, 0 < lmbd -> 0 < delta -> 0 <= quadratic len (Phi len lmbd delta ss) v.
Proof.
  intros. rewrite Phi_quadratic. assert (0 < lmbd ^ length ss) by now apply pow_lt.
  apply Rplus_le_le_0_compat.
  - apply Rmult_le_pos; [nra|]. apply bsum_nonneg. intros; nra.
  - apply bsum_nonneg. intros k Hk. cbv zeta. apply Rmult_le_pos; [left; now apply pow_lt|nra].
Qed.
Lemma Phi_nil : forall len lmbd delta i j, Phi len lmbd delta [] i j = delta * kron i j.
Proof. intros. rewrite Phi_bsum. cbn. ring. Qed.

(** ** Entries of the matrices *)
Lemma entry_mk : forall r c f i j, (i < r)%nat -> (j < c)%nat -> entry (mk r c f) i j = f i j.
Proof.
  intros. unfold entry, mk. rewrite nth_indep with (d' := map (f 0%nat) (seq 0 c)) by now rewrite map_length, seq_length.
  rewrite (map_nth (fun i => map (f i) (seq 0 c))). rewrite seq_nth by auto. rewrite nth_map_seq by auto. reflexivity.
Qed.
Lemma nth_mat_vec : forall r c M v i, (i < r)%nat -> nth i (mat_vec r c M v) 0 = bsum c (fun j => entry M i j * nth j v 0).
Proof. intros. unfold mat_vec. rewrite nth_map_seq by auto. now rewrite bsum_Rsum. Qed.
Lemma mat_vec_length : forall r c M v, length (mat_vec r c M v) = r.
Proof. intros. unfold mat_vec. now rewrite map_length, seq_length. Qed.

(** ** The input buffer holds the recent samples *)
Definition BI (len : nat) (ss : list (R * R)) (b : buffer R) : Prop :=
  exists l, I b l /\ (len - 1 <= length l)%nat /\ forall i, (i < length l)%nat -> nth i l 0 = nth i (newest_first ss) 0.
Lemma push_zeros_ok : forall k b l, I b l -> exists b', push_zeros k b = Some b' /\ I b' (repeat 0 k ++ l).
Proof.
  induction k as [|k IH]; intros b l H; cbn [push_zeros]; [exists b; auto|].
  destruct (I_push 0 0 b l H) as (b1 & -> & H1). cbn [bind]. destruct (IH b1 _ H1) as (b2 & -> & H2). exists b2. split; [reflexivity|].
  replace (repeat 0 (S k) ++ l) with (repeat 0 k ++ 0 :: l); auto. clear. induction k; cbn; [reflexivity|]. now rewrite IHk.
Qed.
Lemma BI_init : forall len n, (0 < n)%nat -> exists b, push_zeros (len - 1) (new_buffer 0 n) = Some b /\ I b (repeat 0 (len - 1)).
Proof.
  intros len n Hn. destruct (push_zeros_ok (len - 1) _ _ (I_new 0 n Hn)) as (b & E & H). exists b. rewrite app_nil_r in H. auto.
Qed.
Lemma BI_push : forall len ss b s, BI len ss b -> exists b', push 0 (fst s) b = Some b' /\
  exists l, I b' l /\ (len <= length l)%nat /\ (forall i, (i < length l)%nat -> nth i l 0 = nth i (newest_first (ss ++ [s])) 0).
Proof.
  intros len ss b s (l & H & Hl & N). destruct (I_push 0 (fst s) b l H) as (b' & E & H'). exists b'. split; [exact E|].
  exists (fst s :: l). split; [exact H'|]. split; [cbn; lia|]. intros i Hi. rewrite newest_snoc. destruct i; [reflexivity|]. cbn in *. apply N. lia.
Qed.
Lemma nth_firstn' : forall {A} k i (l : list A) d, (i < k)%nat -> nth i (firstn k l) d = nth i l d.
Proof.
  intros A k. induction k as [|k IH]; intros i l d H; [lia|]. destruct l; [reflexivity|]. destruct i; [reflexivity|]. cbn. apply IH. lia.
Qed.
Lemma top_window : forall len b l h, I b l -> (len <= length l)%nat -> (forall i, (i < length l)%nat -> nth i l 0 = nth i h 0) -> top len b = window len h.
Proof.
  intros len b l h H Hl N. rewrite (I_top len b l H). apply nth_ext with 0 0.
  - rewrite firstn_length, window_length. lia.
  - intros i Hi. rewrite firstn_length in Hi. rewrite nth_window by lia. rewrite <- N by lia. apply nth_firstn'. lia.
Qed.

(** ** RLS *)
Record RI (len : nat) (lmbd delta : R) (ss : list (R * R)) (w : vec) (P : list vec) : Prop := {
  RI_w : length w = len;
  RI_sym : sym len (entry P);
  RI_inv : forall v i, (i < len)%nat -> mv len (entry P) (mv len (Phi len lmbd delta ss) v) i = v i;
  RI_eq : forall i, (i < len)%nat -> mv len (Phi len lmbd delta ss) (fun j => nth j w 0) i = zeta len lmbd ss i }.
Lemma mv_extM : forall n A B v v' i, (forall j, (j < n)%nat -> A i j = B i j) -> (forall j, (j < n)%nat -> v j = v' j) -> mv n A v i = mv n B v' i.
Proof. intros. unfold mv. apply bsum_ext. intros. now rewrite H, H0. Qed.
Lemma RI_init : forall len lmbd delta, delta > 0 -> RI len lmbd delta [] (repeat 0 len) (eye len (1 / delta)).
Proof.
  intros len lmbd delta Hd. split.
  - apply repeat_length.
  - intros i j Hi Hj. unfold eye. rewrite !entry_mk by auto. destruct (Nat.eqb_spec i j) as [-> | N]; [now rewrite Nat.eqb_refl|]. destruct (Nat.eqb_spec j i); [congruence|reflexivity].
  - intros v i Hi. rewrite (mv_extM len _ (fun i j => 1 / delta * kron i j) _ (fun j => delta * v j)).
    + unfold mv. rewrite (bsum_delta len i); auto; unfold kron; [rewrite Nat.eqb_refl; field; lra|]. intros j Hj Ne. destruct (Nat.eqb_spec i j); [congruence|ring].
    + intros j Hj. unfold eye, kron. rewrite entry_mk by auto. destruct (Nat.eqb i j); ring.
    + intros j Hj. unfold mv. rewrite (bsum_delta len j); auto; rewrite ?Phi_nil; unfold kron; [rewrite Nat.eqb_refl; ring|]. intros k Hk Ne. rewrite Phi_nil. unfold kron. destruct (Nat.eqb_spec j k); [congruence|ring].
  - intros i Hi. unfold zeta. cbn. unfold mv. apply bsum_zero_ext. intros j Hj. replace (nth j (repeat 0 len) 0) with 0; [ring|]. symmetry. apply nth_repeat.
Qed.
(** One block of any size, with the gain matrix [g] and the rows of [X] the windows. *)
Lemma RI_block : forall len lmbd delta ss blk w P (g : nat -> nat -> R) w' P',
  0 < lmbd -> 0 < delta -> RI len lmbd delta ss w P ->
  let L := length blk in
  let X := fun l i => nth i (past_window len (ss ++ blk) l) 0 in
  let dd := fun l => lmbd ^ (L - l) in
  (forall i l, (i < len)%nat -> (l < L)%nat -> bsum L (fun m => g i m * M_ len (entry P) X dd m l) = pi_ len (entry P) X i l) ->
  length w' = len ->
  (forall j, (j < len)%nat -> nth j w' 0 = nth j w 0 + bsum L (fun l => g j l * (past_ref (ss ++ blk) l - bsum len (fun i => X l i * nth i w 0)))) ->
  (forall i j, (i < len)%nat -> (j < len)%nat -> entry P' i j = (1 / lmbd) ^ L * (entry P i j - bsum L (fun l => g i l * pi_ len (entry P) X j l))) ->
  RI len lmbd delta (ss ++ blk) w' P'.
Proof.
  intros len lmbd delta ss blk w P g w' P2 Hl Hd [Hw Hs Hi He] L X dd Hg Lw' Ew EP.
  set (c := (1 / lmbd) ^ L).
  assert (Ec : c = / lmbd ^ L) by (unfold c; rewrite <- pow_inv by lra; f_equal; unfold Rdiv; ring).
  assert (Pl : forall k, 0 < lmbd ^ k) by (intros; now apply pow_lt).
  assert (c_nz : c <> 0) by (rewrite Ec; apply Rinv_neq_0_compat; specialize (Pl L); lra).
  assert (dd_nz : forall l, (l < L)%nat -> dd l <> 0) by (intros l _; unfold dd; specialize (Pl (L - l)%nat); lra).
  set (F := Phi len lmbd delta ss) in *.
  assert (Fs : sym len F) by apply Phi_sym.
  assert (Dv : forall l a b, (l < L)%nat -> a * b / dd l / c = lmbd ^ l * (a * b)).
  { intros l a b Hl'. rewrite Ec. unfold dd. replace (lmbd ^ L) with (lmbd ^ l * lmbd ^ (L - l)) by (rewrite <- pow_add; f_equal; lia). field. pose proof (Pl l). pose proof (Pl (L - l)%nat). lra. }
  assert (EF : forall i j, (i < len)%nat -> (j < len)%nat -> Phi len lmbd delta (ss ++ blk) i j = F' L F X dd c i j).
  { intros i j Hi' Hj. rewrite Phi_app. unfold F'. fold F L. unfold Rdiv at 1. rewrite Rmult_plus_distr_r. f_equal.
    - rewrite Ec. field. specialize (Pl L). lra.
    - rewrite <- bsum_scal_r. apply bsum_ext. intros l Hl'. fold (X l i) (X l j). rewrite <- (Dv l) by auto. reflexivity. }
  split.
  - exact Lw'.
  - intros i j Hi' Hj. rewrite !EP by auto. exact (P'_sym len L (entry P) X dd g c Hs Hg i j Hi' Hj).
  - intros v i Hi'. rewrite (mv_extM len _ (P' len L (entry P) X g c) _ (mv len (F' L F X dd c) v)).
    + apply (PF' len L (entry P) F X dd g c Hs Hi dd_nz c_nz Hg v i Hi').
    + intros j Hj. rewrite EP by auto. reflexivity.
    + intros j Hj. apply mv_extM; auto.
  - intros i Hi'. pose proof (normal_eq' len L (entry P) F X dd g c Hs Fs Hi dd_nz c_nz Hg (fun j => nth j w 0) (zeta len lmbd ss) (past_ref (ss ++ blk)) He i Hi') as Q.
    cbv zeta in Q. rewrite (mv_extM len _ (F' L F X dd c) _ (fun j => nth j w 0 + bsum L (fun l => g j l * (past_ref (ss ++ blk) l - Xv len X (fun j => nth j w 0) l)))).
    + rewrite Q. rewrite zeta_app. fold L. unfold Rdiv at 1. rewrite Rmult_plus_distr_r. f_equal.
      * rewrite Ec. field. specialize (Pl L). lra.
      * rewrite <- bsum_scal_r. apply bsum_ext. intros l Hl'. fold (X l i). rewrite <- (Dv l) by auto. unfold Rdiv. ring.
    + intros j Hj. auto.
    + intros j Hj. rewrite Ew by auto. reflexivity.
Qed.
Lemma RI_kernel : forall len lmbd delta ss w P X (dd : nat -> R) L, 0 < lmbd -> 0 < delta -> RI len lmbd delta ss w P ->
  forall b, bsum L (fun l => dd l * (b l * b l)) <= quadratic L (M_ len (entry P) X dd) b.
Proof.
  intros len lmbd delta ss w P X dd L Hl Hd [Hw Hs Hi He] b. apply (M_pos len L (entry P) (Phi len lmbd delta ss) X dd Hs); auto.
  - apply Phi_sym.
  - intros. now apply Phi_psd.
Qed.

Lemma dot_window : forall len a b, length a = len -> length b = len -> dot a b = bsum len (fun i => nth i a 0 * nth i b 0).
Proof. intros. now apply dot_bsum. Qed.
Lemma rls_update_ok : forall len lmbd delta ss st s, (0 < len)%nat -> 0 < lmbd -> 0 < delta ->
  r_n st = length ss -> BI len ss (r_x st) -> RI len lmbd delta ss (r_w st) (r_P st) ->
  exists st', rls_update len lmbd st s = Some st' /\ r_n st' = length (ss ++ [s]) /\ BI len (ss ++ [s]) (r_x st') /\ RI len lmbd delta (ss ++ [s]) (r_w st') (r_P st').
Proof.
  intros len lmbd delta ss st s H0 Hl Hd Hn HB HR. unfold rls_update. cbv zeta.
  destruct (BI_push len ss (r_x st) s HB) as (x & -> & l & HI & Hlen & HN). cbn [bind].
  rewrite (top_window len x l _ HI Hlen HN). change (window len (newest_first (ss ++ [s]))) with (past_window len (ss ++ [s]) 0). set (xv := past_window len (ss ++ [s]) 0).
  assert (Lx : length xv = len) by apply window_length.
  assert (Lw : length (r_w st) = len) by apply HR.
  set (P := r_P st) in *. set (X := fun l i => nth i (past_window len (ss ++ [s]) l) 0). set (dd := fun l => lmbd ^ (1 - l)).
  set (p := pi_ len (entry P) X). set (q := bsum len (fun k => nth k xv 0 * p k 0%nat)).
  assert (Q : 0 < lmbd + q).
  { pose proof (RI_kernel len lmbd delta ss (r_w st) P X dd 1 Hl Hd HR (fun _ => 1)) as K. unfold quadratic, ip, mv in K. cbn [bsum] in K.
    unfold M_ in K. unfold dd, kron in K. cbn [Nat.eqb Nat.sub pow] in K. fold p in K. change (bsum len (fun k : nat => X 0%nat k * p k 0%nat)) with q in K. lra. }
  set (g0 := mat_vec len len P (vscal (1 / lmbd) xv)).
  assert (G0 : forall i, (i < len)%nat -> nth i g0 0 = 1 / lmbd * p i 0%nat).
  { intros i Hi. unfold g0. rewrite nth_mat_vec by auto. unfold p, pi_. rewrite <- bsum_scal. apply bsum_ext. intros k Hk. rewrite nth_vscal. change (X 0%nat k) with (nth k xv 0). ring. }
  assert (Lg0 : length g0 = len) by apply mat_vec_length.
  assert (D : 1 + dot xv g0 = (lmbd + q) / lmbd).
  { rewrite (dot_window len) by auto. rewrite (bsum_ext len _ (fun k => 1 / lmbd * (nth k xv 0 * p k 0%nat))) by (intros; rewrite G0 by auto; ring).
    rewrite bsum_scal. fold q. field. lra. }
  assert (Dp : 0 < (lmbd + q) / lmbd) by (apply Rdiv_lt_0_compat; lra).
  destruct (Req_EM_T _ _) as [E|_]; [rewrite D in E; rewrite E in Dp; lra|]. rewrite D.
  set (gv := map (fun q0 => q0 / ((lmbd + q) / lmbd)) g0).
  assert (GV : forall i, (i < len)%nat -> nth i gv 0 = p i 0%nat / (lmbd + q)).
  { intros i Hi. unfold gv. rewrite (nth_map_lt (fun q0 => q0 / ((lmbd + q) / lmbd))) by lia. rewrite G0 by auto. field. lra. }
  assert (Lg : length gv = len) by (unfold gv; now rewrite map_length).
  set (w' := vadd (r_w st) _). set (P2 := mk len len _).
  assert (RI2 : RI len lmbd delta (ss ++ [s]) w' P2).
  { apply (RI_block len lmbd delta ss [s] (r_w st) P (fun i _ => nth i gv 0)); auto.
    - intros i l0 Hi Hl0. cbn [length] in *. replace l0 with 0%nat by lia. cbn [bsum]. rewrite GV by auto.
      unfold M_, kron. cbn [Nat.eqb Nat.sub pow]. change (fun (l1 i0 : nat) => nth i0 (past_window len (ss ++ [s]) l1) 0) with X. fold p. change (past_window len (ss ++ [s]) 0) with xv. fold q. field. lra.
    - unfold w'. rewrite vadd_length; rewrite ?vscal_length; lia.
    - intros j Hj. unfold w'. rewrite nth_vadd by (rewrite ?vscal_length; lia).
      rewrite nth_vscal. cbn [length bsum]. change (fun i => nth i (past_window len (ss ++ [s]) 0) 0 * nth i (r_w st) 0) with (fun i => nth i xv 0 * nth i (r_w st) 0).
      rewrite <- (dot_window len) by auto. unfold past_ref. rewrite refs_snoc. cbn [nth]. ring.
    - intros i j Hi Hj. unfold P2. rewrite !entry_mk by auto. cbn [length bsum pow]. rewrite nth_mat_vec by auto. unfold pi_.
      change (past_window len (ss ++ [s]) 0) with xv. ring. }
  assert (HB' : exists x', (if Nat.eqb (S (r_n st) mod (10 * len)) 0 then flush (size x - len + 1) x else Some x) = Some x' /\ BI len (ss ++ [s]) x').
  { destruct (Nat.eqb _ 0).
    - rewrite (I_size x l HI). destruct (I_flush (length l - len + 1) x l HI ltac:(lia)) as (x' & E & HI'). exists x'. split; [exact E|].
      exists (firstn (length l - (length l - len + 1)) l). split; [exact HI'|]. rewrite firstn_length. split; [lia|]. intros i Hi. rewrite nth_firstn' by lia. apply HN. lia.
    - exists x. split; [reflexivity|]. exists l. split; [exact HI|]. split; [lia|exact HN]. }
  destruct HB' as (x' & -> & HB'). cbn [bind]. eexists. split; [reflexivity|]. cbn [r_n r_x r_w r_P]. split; [rewrite app_length; cbn; lia|]. split; [exact HB'|exact RI2].
Qed.
Lemma BI_zeros : forall len b, I b (repeat 0 (len - 1)) -> BI len [] b.
Proof.
  intros len b H. exists (repeat 0 (len - 1)). split; [exact H|]. rewrite repeat_length. split; [lia|]. intros i Hi. rewrite nth_repeat. now destruct i.
Qed.
Lemma rls_run_ok : forall len lmbd delta ss, (0 < len)%nat -> 0 < lmbd -> 0 < delta ->
  exists st, rls_run len lmbd delta ss = Some st /\ r_n st = length ss /\ BI len ss (r_x st) /\ RI len lmbd delta ss (r_w st) (r_P st).
Proof.
  intros len lmbd delta ss H0 Hl Hd. induction ss as [|s ss IH] using rev_ind.
  - unfold rls_run, rls_init. destruct (Req_EM_T lmbd 0); [lra|]. destruct (Rle_dec delta 0); [lra|].
    destruct (BI_init len (10 * len) ltac:(lia)) as (x & -> & HI). cbn [bind foldM]. eexists. split; [reflexivity|]. cbn [r_n r_x r_w r_P]. split; [reflexivity|]. split; [now apply BI_zeros|now apply RI_init].
  - destruct IH as (st & E & Hn & HB & HR). unfold rls_run in *. destruct (rls_init len lmbd delta) as [s0|]; [|discriminate]. cbn [bind] in *.
    rewrite foldM_app, E. cbn [bind foldM]. destruct (rls_update_ok len lmbd delta ss st s H0 Hl Hd Hn HB HR) as (st' & -> & Q). cbn [bind]. exists st'. auto.
Qed.

(** ** Optimality *)
Lemma RI_optimal : forall len lmbd delta ss w P, RI len lmbd delta ss w P -> forall v, length v = len ->
  cost len lmbd delta ss v = cost len lmbd delta ss w + quadratic len (Phi len lmbd delta ss) (fun i => nth i v 0 - nth i w 0).
Proof.
  intros len lmbd delta ss w P [Lw Hs Hi He] v Lv.
  set (wf := fun i => nth i w 0). set (df := fun i => nth i v 0 - nth i w 0).
  assert (C : forall u, length u = len -> cost len lmbd delta ss u = quadratic len (Phi len lmbd delta ss) (fun i => nth i u 0) - 2 * ip len (zeta len lmbd ss) (fun i => nth i u 0) + bsum (length ss) (fun k => lmbd ^ k * (past_ref ss k * past_ref ss k))).
  { intros u Lu. unfold cost. rewrite Phi_quadratic. rewrite <- bsum_Rsum. unfold vsq. rewrite (dot_window len u u) by auto. fold (ip len (fun i => nth i u 0) (fun i => nth i u 0)).
    assert (Z : ip len (zeta len lmbd ss) (fun i => nth i u 0) = bsum (length ss) (fun k => lmbd ^ k * (past_ref ss k * ip len (fun i => nth i (past_window len ss k) 0) (fun i => nth i u 0)))).
    { unfold ip at 1, zeta. rewrite (bsum_ext len _ (fun i => bsum (length ss) (fun k => lmbd ^ k * past_ref ss k * (nth i (past_window len ss k) 0 * nth i u 0)))).
      - rewrite bsum_swap. apply bsum_ext. intros k Hk. rewrite bsum_scal. unfold ip. ring.
      - intros i Hi'. rewrite <- bsum_Rsum, <- bsum_scal_r. apply bsum_ext. intros; ring. }
    rewrite Z. rewrite <- (bsum_scal _ 2).
    match goal with |- ?a + ?s1 = ?a + ?s2 - ?s3 + ?s4 => enough (s1 = s2 - s3 + s4) by lra end.
    rewrite <- bsum_minus, <- bsum_plus. apply bsum_ext. intros k Hk.
    cbv zeta. rewrite (dot_window len) by (auto; apply window_length). fold (ip len (fun i => nth i (past_window len ss k) 0) (fun i => nth i u 0)). ring. }
  rewrite (C v Lv), (C w Lw).
  assert (Z : forall u, ip len (zeta len lmbd ss) u = ip len wf (mv len (Phi len lmbd delta ss) u)).
  { intros u. rewrite ip_mv_sym by apply Phi_sym. apply ip_ext; auto. intros. symmetry. now apply He. }
  rewrite !Z. unfold quadratic. fold df.
  rewrite (ip_ext len (fun i => nth i v 0) (mv len (Phi len lmbd delta ss) (fun i => nth i v 0)) (fun i => wf i + df i) (fun i => mv len (Phi len lmbd delta ss) wf i + mv len (Phi len lmbd delta ss) df i)).
  2:{ intros. unfold wf, df. ring. }
  2:{ intros. rewrite <- mv_plus. apply mv_ext. intros. unfold wf, df. ring. }
  rewrite (ip_ext len wf (mv len (Phi len lmbd delta ss) (fun i => nth i v 0)) wf (fun i => mv len (Phi len lmbd delta ss) wf i + mv len (Phi len lmbd delta ss) df i)).
  2:{ auto. }
  2:{ intros. rewrite <- mv_plus. apply mv_ext. intros. unfold wf, df. ring. }
  rewrite !ip_plus_r. rewrite !(ip_comm len (fun i => wf i + df i)), !ip_plus_r.
  rewrite (ip_comm len _ df), (ip_mv_sym len _ df wf) by apply Phi_sym. rewrite !(ip_comm len _ wf). change (fun i => nth i w 0) with wf. rewrite (ip_comm len (mv len _ df) df). ring.
Qed.

(** ** BlockRLS *)
Lemma powers_block : forall a L, (0 < L)%nat -> exists t, powers_get a (PSliceBack L 0) (new_powers a (2 * L)) = Some (t, map (fun l => a ^ (L - l)) (seq 0 L)).
Proof.
  intros a L H. unfold powers_get, new_powers. eexists. apply f_equal. apply f_equal2; [reflexivity|].
  unfold extend. rewrite map_length, seq_length. destruct (Nat.ltb_spec (2 * L) 0); [lia|]. rewrite slice_map, slice_seq by lia.
  rewrite <- map_rev. replace (0 + (0 + 1))%nat with 1%nat by lia. replace (L + 1 - (0 + 1))%nat with L by lia.
  apply nth_ext with 0 0; [now rewrite !map_length, rev_length, !seq_length|]. intros i Hi. rewrite map_length, rev_length, seq_length in Hi.
  rewrite nth_map_seq by auto. rewrite nth_indep with (d' := a ^ 0) by (now rewrite map_length, rev_length, seq_length). rewrite (map_nth (pow a)).
  rewrite rev_nth by now rewrite seq_length. rewrite seq_length, seq_nth by lia. f_equal. lia.
Qed.
Lemma powers_one : forall a L, (0 < L)%nat -> exists t, powers_get a (PInt L) (new_powers a (2 * L)) = Some (t, [a ^ L]).
Proof.
  intros a L H. unfold powers_get. assert (IP : is_powers a (new_powers a (2 * L))) by apply is_powers_map.
  destruct (extend_spec a (L + 1) _ IP) as (H1 & H2). eexists. rewrite (powers_nth a _ L H1) by lia. reflexivity.
Qed.
Lemma len_newest : forall ss, length (newest_first ss) = length ss.
Proof. intros. unfold newest_first. now rewrite rev_length, map_length. Qed.

Record QI (len L : nat) (lmbd delta : R) (ss : list (R * R)) (st : block_rls) : Prop := {
  QI_n : q_n st = length ss;
  QI_x : exists l, I (q_x st) l /\ length l = (len - 1 + length ss mod L)%nat /\ forall i, (i < length l)%nat -> nth i l 0 = nth i (newest_first ss) 0;
  QI_d : I (q_d st) (newest_refs ss);
  QI_R : RI len lmbd delta (whole_blocks L ss) (q_w st) (q_P st) }.
Section BlockProofs.
Variable solve : list vec -> list vec -> option (list vec).
Lemma block_rls_update_ok : forall len L lmbd delta ss st s, (0 < len)%nat -> (0 < L)%nat -> 0 < lmbd -> 0 < delta -> solves L solve ->
  QI len L lmbd delta ss st -> exists st', block_rls_update solve len L lmbd st s = Some st' /\ QI len L lmbd delta (ss ++ [s]) st'.
Proof.
  intros len L lmbd delta ss st s H0 HL Hl Hd Sv [Hn (l & HI & Hlen & HN) HD HR]. unfold block_rls_update. cbv zeta.
  destruct (I_push 0 (fst s) _ _ HI) as (x & -> & HIx). cbn [bind]. destruct (I_push 0 (snd s) _ _ HD) as (d & -> & HId). cbn [bind].
  rewrite <- refs_snoc in HId.
  assert (HN' : forall i, (i < length (fst s :: l))%nat -> nth i (fst s :: l) 0 = nth i (newest_first (ss ++ [s])) 0).
  { intros i Hi. rewrite newest_snoc. destruct i; [reflexivity|]. cbn in *. apply HN. lia. }
  assert (La : length (ss ++ [s]) = S (length ss)) by (rewrite app_length; cbn; lia).
  pose proof (Nat.div_mod (length ss) L ltac:(lia)) as E1. pose proof (Nat.mod_upper_bound (length ss) L ltac:(lia)) as E2.
  destruct (Nat.eqb_spec L 0); [lia|]. rewrite Hn.
  destruct (Nat.eqb_spec (S (length ss) mod L) 0) as [E|E]; cbn [negb].
  2:{ assert (Dv : (S (length ss) / L = length ss / L)%nat /\ (S (length ss) mod L = S (length ss mod L))%nat).
      { destruct (Nat.eq_dec (S (length ss mod L)) L) as [Q|Q].
        - exfalso. apply E. replace (S (length ss)) with ((length ss / L + 1) * L)%nat by nia. apply Nat.mod_mul. lia.
        - assert (S (length ss) = L * (length ss / L) + S (length ss mod L))%nat by lia. split.
          + symmetry. apply Nat.div_unique with (S (length ss mod L)); [lia|auto].
          + symmetry. apply Nat.mod_unique with (length ss / L)%nat; [lia|auto]. }
      destruct Dv as (Dv & Md).
      eexists. split; [reflexivity|]. split; cbn [q_n q_x q_d q_w q_P].
      - lia.
      - exists (fst s :: l). rewrite La, Md. split; [exact HIx|]. split; [cbn; lia|exact HN'].
      - exact HId.
      - unfold whole_blocks in *. rewrite La, Dv. rewrite firstn_app. replace (L * (length ss / L) - length ss)%nat with 0%nat by lia. cbn [firstn]. rewrite app_nil_r. exact HR. }
  assert (Q : S (length ss mod L) = L).
  { destruct (Nat.eq_dec (S (length ss mod L)) L) as [Q|Q]; [exact Q|]. exfalso.
    assert (S (length ss) = L * (length ss / L) + S (length ss mod L))%nat by lia.
    assert (S (length ss) mod L = S (length ss mod L))%nat by (symmetry; apply Nat.mod_unique with (length ss / L)%nat; [lia|auto]). lia. }
  assert (Dv : (S (length ss) / L = length ss / L + 1)%nat) by (symmetry; apply Nat.div_unique with 0%nat; [lia|lia]).
  unfold whole_blocks in *. set (ss0 := firstn (L * (length ss / L)) ss) in *. set (blk := skipn (L * (length ss / L)) (ss ++ [s])).
  assert (Sp : ss ++ [s] = ss0 ++ blk).
  { unfold ss0, blk. rewrite <- (firstn_skipn (L * (length ss / L)) (ss ++ [s])) at 1. f_equal. rewrite firstn_app. replace (L * (length ss / L) - length ss)%nat with 0%nat by lia. cbn [firstn]. now rewrite app_nil_r. }
  assert (Lb : length blk = L) by (unfold blk; rewrite skipn_length, La; lia).
  assert (Lxl : length (fst s :: l) = (L + len - 1)%nat) by (cbn; lia).
  set (xl := fst s :: l) in *.
  assert (Tx : top (L + len - 1) x = xl) by (rewrite (I_top _ _ _ HIx); apply firstn_all2; lia). rewrite Tx.
  assert (LD : length (newest_refs (ss ++ [s])) = S (length ss)) by (unfold newest_refs; rewrite rev_length, map_length; lia).
  assert (Td : top L d = firstn L (newest_refs (ss ++ [s]))) by apply (I_top _ _ _ HId). rewrite Td.
  unfold hankel_strides. destruct (Nat.eqb_spec (length xl) (L + len - 1)); [|lia]. cbn [bind].
  set (X := mk L len _). set (Xf := fun l i => nth i (past_window len (ss ++ [s]) l) 0).
  assert (EX : forall a i, (a < L)%nat -> (i < len)%nat -> entry X a i = Xf a i).
  { intros a i Ha Hi. unfold X. rewrite entry_mk by auto. unfold Xf, past_window. rewrite nth_window by auto. rewrite nth_skipn'. apply HN'. lia. }
  destruct (powers_block lmbd L HL) as (t1 & ->). cbn [bind snd].
  set (P := q_P st) in *. set (pi := mat_mul len len L P (mat_T L len X)). set (dd := fun l => lmbd ^ (L - l)).
  assert (Epi : forall i a, (i < len)%nat -> (a < L)%nat -> entry pi i a = pi_ len (entry P) Xf i a).
  { intros i a Hi Ha. unfold pi, mat_mul. rewrite entry_mk by auto. rewrite <- bsum_Rsum. apply bsum_ext. intros k Hk. unfold mat_T. rewrite entry_mk by auto. now rewrite EX by auto. }
  set (Mm := mat_add L L _ _).
  assert (EM : forall a b, (a < L)%nat -> (b < L)%nat -> entry Mm a b = M_ len (entry P) Xf dd a b).
  { intros a b Ha Hb. unfold Mm, mat_add. rewrite entry_mk by auto. unfold M_. f_equal.
    - unfold diag. rewrite map_length, seq_length. rewrite entry_mk by auto. unfold kron. destruct (Nat.eqb a b); [|ring]. rewrite nth_map_seq by auto. unfold dd. cbn [Nat.add]. ring.
    - unfold mat_mul. rewrite entry_mk by auto. rewrite <- bsum_Rsum. apply bsum_ext. intros k Hk. now rewrite EX, Epi by auto. }
  assert (Pd : forall a, 0 < dd a) by (intros; unfold dd; now apply pow_lt).
  destruct (Sv len (fun i j => entry Mm j i) (fun i j => entry pi j i)) as (Y & EY & HY).
  { intros b Hb i Hi. pose proof (RI_kernel len lmbd delta ss0 (q_w st) P Xf dd L Hl Hd HR b) as K.
    assert (Z : quadratic L (M_ len (entry P) Xf dd) b = 0).
    { unfold quadratic, ip. apply bsum_zero_ext. intros a Ha. unfold mv.
      rewrite (bsum_ext L _ (fun j => entry (mk L L (fun i j => entry Mm j i)) a j * b j)); [rewrite Hb by auto; ring|].
      intros j Hj. rewrite entry_mk by auto. rewrite EM by auto. f_equal. apply (M_sym len L (entry P) Xf dd); auto. apply HR. }
    rewrite Z in K. assert (N : forall a, (a < L)%nat -> 0 <= dd a * (b a * b a)) by (intros a _; specialize (Pd a); nra).
    assert (0 <= dd i * (b i * b i) <= 0).
    { split; [auto|]. apply Rle_trans with (bsum L (fun l => dd l * (b l * b l))); [|exact K].
      replace (dd i * (b i * b i)) with (bsum L (fun a => if Nat.eqb a i then dd a * (b a * b a) else 0)).
      - apply bsum_le. intros a Ha. destruct (Nat.eqb a i); [lra|auto].
      - rewrite (bsum_delta L i); auto; [now rewrite Nat.eqb_refl|]. intros a Ha Ne. destruct (Nat.eqb_spec a i); [congruence|reflexivity]. }
    specialize (Pd i). assert (b i * b i = 0) by nra. nra. }
  unfold mat_T at 1 2. rewrite EY. cbn [bind].
  destruct (powers_one (1 / lmbd) L HL) as (t2 & ->). cbn [bind snd nth].
  destruct (I_flush L x xl HIx ltac:(lia)) as (x' & -> & HIx'). cbn [bind].
  eexists. split; [reflexivity|]. split; cbn [q_n q_x q_d q_w q_P].
  - lia.
  - eexists. split; [exact HIx'|]. rewrite firstn_length, La, E, Lxl. split; [lia|]. intros i Hi. rewrite nth_firstn' by lia. apply HN'. lia.
  - exact HId.
  - unfold whole_blocks. rewrite La, Dv. rewrite firstn_all2 by lia. rewrite Sp.
    assert (G : forall i a, (i < len)%nat -> (a < L)%nat -> entry (mat_T L len Y) i a = entry Y a i) by (intros; unfold mat_T; now rewrite entry_mk by auto).
    apply (RI_block len lmbd delta ss0 blk (q_w st) P (entry (mat_T L len Y))); auto; rewrite ?Lb, <- ?Sp; fold Xf; fold dd.
    + intros i a Hi Ha. rewrite <- Epi by auto. specialize (HY a i Ha Hi). rewrite entry_mk in HY by auto. rewrite <- HY. apply bsum_ext. intros m Hm.
      rewrite G by auto. rewrite entry_mk by auto. rewrite EM by auto. ring.
    + rewrite vadd_length; rewrite ?mat_vec_length; apply HR.
    + intros j Hj. rewrite nth_vadd by (rewrite mat_vec_length; apply HR). f_equal. rewrite nth_mat_vec by auto. apply bsum_ext. intros a Ha. f_equal.
      rewrite nth_vminus by (rewrite mat_vec_length, firstn_length; lia). f_equal.
      * unfold past_ref. apply nth_firstn'. lia.
      * rewrite nth_mat_vec by auto. apply bsum_ext. intros i Hi. now rewrite EX by auto.
    + intros i j Hi Hj. unfold mat_scal, mat_sub. rewrite !entry_mk by auto. rewrite Rmult_comm. f_equal. f_equal. unfold mat_mul. rewrite entry_mk by auto. rewrite <- bsum_Rsum. apply bsum_ext. intros a Ha. f_equal. unfold mat_T. rewrite entry_mk by auto. now apply Epi.
Qed.
Lemma block_rls_run_ok : forall len L lmbd delta ss, (0 < len)%nat -> (0 < L)%nat -> 0 < lmbd -> 0 < delta -> solves L solve ->
  exists st, block_rls_run solve len L lmbd delta ss = Some st /\ QI len L lmbd delta ss st.
Proof.
  intros len L lmbd delta ss H0 HL Hl Hd Sv. induction ss as [|s ss IH] using rev_ind.
  - unfold block_rls_run, block_rls_init. destruct (Req_EM_T lmbd 0); [lra|]. destruct (Rle_dec delta 0); [lra|].
    destruct (BI_init len (len + L - 1) ltac:(lia)) as (x & -> & HI). cbn [bind foldM]. eexists. split; [reflexivity|]. split; cbn [q_n q_x q_d q_w q_P].
    + reflexivity.
    + exists (repeat 0 (len - 1)). rewrite repeat_length. cbn [length]. rewrite Nat.mod_0_l by lia. split; [exact HI|]. split; [lia|]. intros i Hi. rewrite nth_repeat. now destruct i.
    + apply I_new. lia.
    + unfold whole_blocks. rewrite firstn_nil. now apply RI_init.
  - destruct IH as (st & E & HQ). unfold block_rls_run in *. destruct (block_rls_init len L lmbd delta) as [s0|]; [|discriminate]. cbn [bind] in *.
    rewrite foldM_app, E. cbn [bind foldM]. destruct (block_rls_update_ok len L lmbd delta ss st s H0 HL Hl Hd Sv HQ) as (st' & -> & Q). cbn [bind]. exists st'. auto.
Qed.
End BlockProofs.

(** ** What the invariant means *)
Lemma RI_inverse : forall len lmbd delta ss w P, RI len lmbd delta ss w P -> forall i j, (i < len)%nat -> (j < len)%nat ->
  Rsum (map (fun k => entry P i k * Phi len lmbd delta ss k j) (seq 0 len)) = if Nat.eqb i j then 1 else 0.
Proof.
  intros len lmbd delta ss w P [_ _ Hi _] i j Hi' Hj. rewrite <- bsum_Rsum. specialize (Hi (fun k => kron k j) i Hi').
  unfold kron in Hi at 2. rewrite <- Hi. unfold mv. apply bsum_ext. intros k Hk. f_equal. rewrite (bsum_delta len j); auto; unfold kron; [now rewrite Nat.eqb_refl, Rmult_1_r|].
  intros q Hq Ne. destruct (Nat.eqb_spec q j); [congruence|ring].
Qed.
Lemma RI_normal : forall len lmbd delta ss w P, RI len lmbd delta ss w P -> forall i, (i < len)%nat ->
  Rsum (map (fun k => Phi len lmbd delta ss i k * nth k w 0) (seq 0 len)) = zeta len lmbd ss i.
Proof. intros len lmbd delta ss w P [_ _ _ He] i Hi'. rewrite <- bsum_Rsum. now apply He. Qed.
Lemma RI_unique : forall len lmbd delta ss w P, 0 < lmbd -> 0 < delta -> RI len lmbd delta ss w P -> forall v, length v = len -> v <> w ->
  cost len lmbd delta ss w < cost len lmbd delta ss v.
Proof.
  intros len lmbd delta ss w P Hl Hd H v Lv Ne. rewrite (RI_optimal len lmbd delta ss w P H v Lv). rewrite Phi_quadratic.
  assert (N : exists i, (i < len)%nat /\ nth i v 0 <> nth i w 0).
  { destruct (Forall_dec (fun i => nth i v 0 = nth i w 0) (fun i => Req_EM_T _ _) (seq 0 len)) as [F|F].
    - exfalso. apply Ne. apply nth_ext with 0 0; [rewrite Lv; symmetry; apply H|]. intros i Hi. rewrite Forall_forall in F. apply F. apply in_seq. lia.
    - apply neg_Forall_Exists_neg in F; [|intros; apply Req_EM_T]. apply Exists_exists in F. destruct F as (i & Hi & Q). apply in_seq in Hi. exists i. split; [lia|exact Q]. }
  destruct N as (i & Hi & Q). set (df := fun i => nth i v 0 - nth i w 0). assert (Pp : 0 < lmbd ^ length ss) by now apply pow_lt.
  assert (0 < ip len df df).
  { unfold ip. apply Rlt_le_trans with (df i * df i).
    - assert (df i <> 0) by (unfold df; lra). fold (Rsqr (df i)). now apply Rsqr_pos_lt.
    - replace (df i * df i) with (bsum len (fun a => if Nat.eqb a i then df a * df a else 0)).
      + apply bsum_le. intros a Ha. destruct (Nat.eqb a i); nra.
      + rewrite (bsum_delta len i); auto; [now rewrite Nat.eqb_refl|]. intros a Ha Na. destruct (Nat.eqb_spec a i); [congruence|reflexivity]. }
  assert (0 < delta * lmbd ^ length ss * ip len df df) by (apply Rmult_lt_0_compat; [nra|auto]).
  enough (0 <= bsum (length ss) (fun k => let e := ip len (fun i => nth i (past_window len ss k) 0) df in lmbd ^ k * (e * e))) by (fold df; lra).
  apply bsum_nonneg. intros k Hk. cbv zeta. apply Rmult_le_pos; [left; now apply pow_lt|nra].
Qed.
