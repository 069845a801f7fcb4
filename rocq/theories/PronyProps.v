(** C129: pole-zero models of signals. *)
From Coq Require Import List ZArith Lia Reals Lra Bool.
From Verif Require Import Base BaseProofs Vec Sum UtilModel LocModel LocProofs PronyModel.
From Verif Require UtilProps StftProofs WienerProofs LpcProps.
Import ListNotations.
Local Open Scope R_scope.

(** Sample [n] of the convolution of two causal signals. *)
Definition cv (a x : nat -> R) (n : nat) : R := bsum (S n) (fun k => a k * x (n - k)%nat).
(** A finite signal, continued by zeros. *)
Definition sig (v : vec) (n : nat) : R := nth n v 0.

Lemma cv_ext : forall a a' x x' n, (forall i, (i <= n)%nat -> a i = a' i) -> (forall i, (i <= n)%nat -> x i = x' i) -> cv a x n = cv a' x' n.
Proof. intros a a' x x' n H1 H2. apply bsum_ext. intros k Hk. rewrite H1, H2 by lia. reflexivity. Qed.
Lemma cv_comm : forall a x n, cv a x n = cv x a n.
Proof. intros a x n. unfold cv. rewrite bsum_rev. apply bsum_ext. intros k Hk. replace (S n - 1 - k)%nat with (n - k)%nat by lia. replace (n - (n - k))%nat with k by lia. ring. Qed.
Lemma cv_assoc : forall f g h n, cv (cv f g) h n = cv f (cv g h) n.
Proof.
  intros f g h n. unfold cv at 1 3.
  rewrite (bsum_ext _ _ (fun k => bsum (S n) (fun i => if (i <=? k)%nat then f i * g (k - i)%nat * h (n - k)%nat else 0))).
  2: { intros k Hk. unfold cv. rewrite <- bsum_scal_r. rewrite (UtilProps.bsum_trunc (S k) (S n)); [|lia|intros i Hi; destruct (Nat.leb_spec i k); [lia|reflexivity]]. apply bsum_ext. intros i Hi. destruct (Nat.leb_spec i k); [reflexivity|lia]. }
  rewrite bsum_swap. apply bsum_ext. intros i Hi. unfold cv. rewrite <- bsum_scal. replace (S n) with (i + S (n - i))%nat by lia. rewrite bsum_split. rewrite bsum_zero_ext; [|intros k Hk; destruct (Nat.leb_spec i k); [lia|reflexivity]]. rewrite Rplus_0_l. apply bsum_ext. intros j Hj. destruct (Nat.leb_spec i (i + j)); [|lia]. replace (i + j - i)%nat with j by lia. replace (n - (i + j))%nat with (n - i - j)%nat by lia. ring.
Qed.
Lemma cv_delta : forall x n, cv (fun k => if Nat.eqb k 0 then 1 else 0) x n = x n.
Proof. intros x n. unfold cv. rewrite bsum_shift. rewrite bsum_zero_ext; [|intros i Hi; cbn [Nat.eqb]; ring]. cbn [Nat.eqb]. rewrite Nat.sub_0_r. ring. Qed.

(** Vectors, sums and slices. *)
Lemma dot_bsum : forall l r, dot l r = bsum (length r) (fun i => nth i l 0 * nth i r 0).
Proof.
  induction l as [|u l IH]; intros [|v r]; try reflexivity.
  - cbn [length]. rewrite bsum_zero_ext; [reflexivity|]. intros i Hi. destruct i; cbn; ring.
  - rewrite dot_cons, IH. cbn [length]. now rewrite bsum_shift.
Qed.
Lemma slice_length : forall {A} a b (l : list A), (b <= length l)%nat -> length (slice a b l) = (b - a)%nat.
Proof. intros A a b l H. unfold slice. rewrite firstn_length, skipn_length. lia. Qed.
Lemma slice_nth : forall {A} (d : A) a b l i, (i < b - a)%nat -> nth i (slice a b l) d = nth (a + i) l d.
Proof. intros A d a b l i H. unfold slice. rewrite StftProofs.nth_firstn by auto. apply StftProofs.nth_skipn. Qed.
(** Row [n] of the convolution matrix times a vector. *)
Lemma convmtx_rows : forall x v k X, (1 <= k)%nat -> convmtx x k = Some X -> length X = (length x + k - 1)%nat /\
  (forall n, (n < length X)%nat -> length (nth n X []) = k /\ nth 0 (nth n X []) 0 = sig x n) /\
  forall n, (n < length X)%nat -> dot v (nth n X []) = bsum k (fun j => sig v j * (if (j <=? n)%nat then sig x (n - j) else 0)).
Proof.
  intros x v k X Hk E. unfold convmtx in E. destruct (Nat.eqb_spec k 0) as [Zk|Zk]; [lia|]. apply WienerProofs.some_inj in E. subst X.
  set (c := x ++ repeat 0 (k - 1)). assert (Lc : length c = (length x + k - 1)%nat) by (unfold c; rewrite app_length, repeat_length; lia). unfold toeplitz_cr. rewrite Lc, repeat_length, map_length, seq_length.
  assert (Ec : forall j, nth j c 0 = nth j x 0). { intros j. unfold c. destruct (Nat.lt_ge_cases j (length x)); [now rewrite app_nth1|]. rewrite app_nth2 by auto. rewrite nth_repeat. now rewrite nth_overflow. }
  split; [reflexivity|]. split.
  - intros n Hn. rewrite (UtilProps.nth_map_in _ _ _ 0%nat) by (rewrite seq_length; auto). rewrite seq_nth by auto. split; [now rewrite map_length, seq_length|]. rewrite nth_map_seq by lia. cbn [Nat.leb]. rewrite Ec. unfold sig. f_equal. lia.
  - intros n Hn. rewrite (UtilProps.nth_map_in _ _ _ 0%nat) by (rewrite seq_length; auto). rewrite seq_nth by auto. rewrite dot_bsum, map_length, seq_length. apply bsum_ext. intros j Hj. rewrite nth_map_seq by auto. rewrite Ec, nth_repeat. reflexivity.
Qed.
Lemma rows_cv : forall x v k n, (length v <= k)%nat -> bsum k (fun j => sig v j * (if (j <=? n)%nat then sig x (n - j) else 0)) = cv (sig v) (sig x) n.
Proof.
  intros x v k n H. unfold cv. destruct (Nat.le_gt_cases k (S n)) as [L|L].
  - rewrite (UtilProps.bsum_trunc k (S n)) by (auto; intros j Hj; unfold sig at 1; rewrite nth_overflow by lia; ring). apply bsum_ext. intros j Hj. destruct (Nat.leb_spec j n); [reflexivity|lia].
  - rewrite (UtilProps.bsum_trunc (S n) k); [|lia|intros j Hj; destruct (Nat.leb_spec j n); [lia|ring]]. apply bsum_ext. intros j Hj. destruct (Nat.leb_spec j n); [reflexivity|lia].
Qed.

(** Least squares: the error is orthogonal to the columns. *)
Lemma quad : forall G Q, (forall s, 0 <= 2 * s * G + s ^ 2 * Q) -> G = 0.
Proof.
  intros G Q H. destruct (Rle_lt_dec Q 0) as [L|L].
  - pose proof (H 1) as A. pose proof (H (-1)) as B. nra.
  - pose proof (H (- G / Q)) as A. replace (2 * (- G / Q) * G + (- G / Q) ^ 2 * Q) with (- (G * G) / Q) in A by (field; lra). assert (0 <= G * G) by nra. assert (G * G <= 0). { apply Rmult_le_reg_r with (/ Q); [apply Rinv_0_lt_compat; lra|]. rewrite Rmult_0_l. unfold Rdiv in A. lra. } nra.
Qed.
Lemma resid_bsum : forall A t x m, length A = m -> length t = m -> resid A t x = bsum m (fun i => (dot (nth i A []) x - nth i t 0) ^ 2).
Proof.
  induction A as [|a A IH]; intros t x m HA Ht; destruct m as [|m]; cbn in HA; try lia; [reflexivity|]. destruct t as [|u t]; cbn in Ht; [lia|]. rewrite bsum_shift. cbn [nth]. unfold resid in *. cbn [combine map Rsum fold_right fst snd]. f_equal. apply (IH t x m); lia.
Qed.
Lemma lstsq_orthogonal : forall k A t x m d, is_lstsq k A t x -> length A = m -> length t = m -> length d = k ->
  bsum m (fun i => (dot (nth i A []) x - nth i t 0) * dot (nth i A []) d) = 0.
Proof.
  intros k A t x m d (Lx & H) HA Ht Ld. apply quad with (bsum m (fun i => dot (nth i A []) d ^ 2)). intros s.
  destruct (H (vadd x (vscal s d))) as (M & _); [rewrite vadd_length; [lia|rewrite vscal_length; lia]|]. rewrite !(resid_bsum A t _ m) in M by auto.
  rewrite <- !bsum_scal, <- bsum_plus. apply Rplus_le_reg_l with (bsum m (fun i => (dot (nth i A []) x - nth i t 0) ^ 2)). rewrite Rplus_0_r. rewrite <- bsum_plus. eapply Rle_trans; [exact M|]. apply Req_le, bsum_ext. intros i Hi. rewrite dot_vadd_r by (rewrite vscal_length; lia). rewrite dot_vscal_r. ring.
Qed.

(** ** Prony *)
(** What a monic denominator leaves after sample [q]: the part of [a * x] a numerator of order [q] cannot hold. *)
Definition tail_error (q n : nat) (a x : vec) : R := bsum (n - (q + 1)) (fun i => cv (sig a) (sig x) (q + 1 + i) ^ 2).
Lemma monic_cv : forall c x n, cv (sig (1 :: map Ropp c)) (sig x) (S n) = sig x (S n) - bsum (length c) (fun j => sig c j * (if (j <=? n)%nat then sig x (n - j) else 0)).
Proof.
  intros c x n. rewrite rows_cv by lia. unfold cv. rewrite bsum_shift. cbn [sig nth]. rewrite Nat.sub_0_r. unfold sig at 1. cbn [nth]. rewrite Rmult_1_l. unfold Rminus. f_equal. rewrite <- bsum_opp. apply bsum_ext. intros k Hk. unfold sig at 1. cbn [nth]. rewrite <- Ropp_0 at 1. rewrite map_nth. unfold sig. cbn [Nat.sub]. ring.
Qed.
Section Prony.
Variables (x : vec) (p q : nat) (X : list vec) (c : vec).
Let nx := length x.
Hypothesis Ho : (p + q < nx)%nat.
Hypothesis HX : convmtx x (p + 1) = Some X.
Let A := map (firstn p) (slice q (nx + p - 1) X).
Let t := map (fun r => nth 0 r 0) (slice (q + 1) (nx + p) X).
Let m := (nx + p - (q + 1))%nat.
Lemma prony_shape : length A = m /\ length t = m /\ length X = (nx + p)%nat /\
  (forall i, (i < m)%nat -> nth i t 0 = sig x (q + 1 + i)) /\
  (forall d i, (i < m)%nat -> length d = p -> dot (nth i A []) d = bsum p (fun j => sig d j * (if (j <=? q + i)%nat then sig x (q + i - j) else 0))) /\
  (forall n a, (n < nx + p)%nat -> length a = (p + 1)%nat -> dot (firstn (p + 1) (nth n X [])) a = cv (sig a) (sig x) n).
Proof.
  destruct (convmtx_rows x [] (p + 1) X ltac:(lia) HX) as (LX & RX & _). fold nx in LX. replace (nx + (p + 1) - 1)%nat with (nx + p)%nat in LX by lia.
  assert (LA : length A = m) by (unfold A; rewrite map_length, slice_length by lia; unfold m; lia).
  assert (Lt : length t = m) by (unfold t; rewrite map_length, slice_length by lia; unfold m; lia).
  split; [exact LA|]. split; [exact Lt|]. split; [exact LX|]. split; [|split].
  - intros i Hi. unfold t. rewrite (UtilProps.nth_map_in _ _ _ []) by (rewrite slice_length by lia; unfold m in Hi; lia). rewrite slice_nth by (unfold m in Hi; lia). apply RX. unfold m in Hi. lia.
  - intros d i Hi Ld. unfold A. rewrite (UtilProps.nth_map_in _ _ _ []) by (rewrite slice_length by lia; unfold m in Hi; lia). rewrite slice_nth by (unfold m in Hi; lia).
    destruct (convmtx_rows x d (p + 1) X ltac:(lia) HX) as (_ & _ & D). assert (Hn : (q + i < length X)%nat) by (unfold m in Hi; lia). specialize (D _ Hn). destruct (RX _ Hn) as (Lr & _).
    rewrite dot_comm. rewrite (UtilProps.dot_sum d) by (rewrite firstn_length; lia). rewrite dot_bsum, Lr in D. rewrite Ld.
    rewrite (UtilProps.bsum_trunc p (p + 1)) in D; [|lia|intros j Hj; rewrite (nth_overflow d) by lia; ring]. rewrite (UtilProps.bsum_trunc p (p + 1)) in D; [|lia|intros j Hj; unfold sig at 1; rewrite (nth_overflow d) by lia; ring]. rewrite <- D. apply bsum_ext. intros j Hj. rewrite StftProofs.nth_firstn by auto. reflexivity.
  - intros n a Hn La. destruct (convmtx_rows x a (p + 1) X ltac:(lia) HX) as (_ & _ & D). rewrite <- LX in Hn. destruct (RX _ Hn) as (Lr & _). rewrite firstn_all2 by lia. rewrite dot_comm, D by auto. apply rows_cv. lia.
Qed.
Lemma resid_tail : forall d, length d = p -> resid A t d = tail_error q (nx + p) (1 :: map Ropp d) x.
Proof.
  intros d Ld. destruct prony_shape as (LA & Lt & _ & Et & Ed & _). rewrite (resid_bsum A t d m) by auto. unfold tail_error. fold m. apply bsum_ext. intros i Hi. rewrite Et, Ed by auto. replace (q + 1 + i)%nat with (S (q + i)) by lia. rewrite monic_cv, Ld. ring.
Qed.
End Prony.
Lemma monic_list : forall a n, length a = S n -> nth 0 a 0 = 1 -> exists d, length d = n /\ a = 1 :: map Ropp d.
Proof.
  intros [|u a] n L H; cbn in L, H; [lia|]. exists (map Ropp a). split; [rewrite map_length; lia|]. subst u. f_equal. rewrite map_map. rewrite <- (map_id a) at 1. apply map_ext. intros. ring.
Qed.
(** The denominator [a] (documented as numerator) is monic and leaves the least energy after sample [q], the
    numerator [b] matches the first samples exactly, and [err] is that least energy. *)
Theorem C129_prony : forall x p q a b err, prony x p q a b err ->
  length a = S p /\ nth 0 a 0 = 1 /\ length b = S q /\ (forall n, (n <= q)%nat -> cv (sig a) (sig x) n = sig b n) /\
  (forall n, (length x + p <= n)%nat -> cv (sig a) (sig x) n = 0) /\
  err = tail_error q (length x + p) a x /\
  forall a', length a' = S p -> nth 0 a' 0 = 1 -> err <= tail_error q (length x + p) a' x.
Proof.
  intros x p q a b err (Ho & X & c & HX & Hls & -> & -> & ->). set (nx := length x) in *. pose proof Hls as (Lc & Hmin).
  destruct (prony_shape x p q X Ho HX) as (LA & Lt & LX & Et & Ed & Er). fold nx in LA, Lt, LX, Et, Ed, Er. set (m := (nx + p - (q + 1))%nat) in *.
  assert (La : length (1 :: map Ropp c) = (p + 1)%nat) by (cbn; rewrite map_length; lia). set (a := 1 :: map Ropp c) in *.
  assert (Lsl : forall u v, (v <= nx + p)%nat -> length (slice u v X) = (v - u)%nat) by (intros; apply slice_length; lia).
  assert (Err : dot (slice (q + 1) nx x) (map (fun r => dot (firstn (p + 1) r) a) (slice (q + 1) nx X)) = tail_error q (nx + p) a x).
  { rewrite dot_bsum, map_length, Lsl by lia.
    transitivity (bsum m (fun i => sig x (q + 1 + i) * cv (sig a) (sig x) (q + 1 + i))).
    - rewrite (UtilProps.bsum_trunc (nx - (q + 1)) m); [|unfold m; lia|intros i Hi; unfold sig at 1; rewrite nth_overflow by (fold nx; lia); ring]. apply bsum_ext. intros i Hi. rewrite slice_nth by auto. rewrite (UtilProps.nth_map_in _ _ _ []) by (rewrite Lsl; lia). rewrite slice_nth by auto. rewrite Er by lia. reflexivity.
    - unfold tail_error. fold m. pose proof (lstsq_orthogonal p _ _ c m c Hls LA Lt Lc) as O. apply Rminus_diag_uniq. rewrite <- bsum_minus. rewrite <- Ropp_0, <- O, <- bsum_opp. apply bsum_ext. intros i Hi. rewrite Et, Ed by auto. replace (q + 1 + i)%nat with (S (q + i)) by lia. unfold a. rewrite monic_cv, Lc. ring. }
  split; [lia|]. split; [reflexivity|]. split; [rewrite map_length, Lsl by lia; lia|]. split; [|split; [|split]].
  - intros n Hn. unfold sig at 3. rewrite (UtilProps.nth_map_in _ _ _ []) by (rewrite Lsl; lia). rewrite slice_nth by lia. rewrite Er by lia. reflexivity.
  - intros n Hn. apply bsum_zero_ext. intros k Hk. destruct (Nat.lt_ge_cases k (p + 1)) as [K|K]; [unfold sig at 2; rewrite (nth_overflow x) by (fold nx; lia); ring|unfold sig at 1; rewrite (nth_overflow a) by lia; ring].
  - exact Err.
  - intros a' La' Ha'. destruct (monic_list a' p La' Ha') as (d & Ld & ->). rewrite Err. pose proof (resid_tail x p q X Ho HX c Lc) as Rc. pose proof (resid_tail x p q X Ho HX d Ld) as Rd. fold nx in Rc, Rd. unfold a. rewrite <- Rc, <- Rd. apply Hmin. exact Ld.
Qed.
Print Assumptions C129_prony.

(** A signal that some denominator of order [p] ends after sample [q] is modelled without error. *)
Theorem C129_prony_exact : forall x p q a b err a', prony x p q a b err -> length a' = S p -> nth 0 a' 0 = 1 -> (forall n, (q < n)%nat -> cv (sig a') (sig x) n = 0) ->
  err = 0 /\ forall n, cv (sig a) (sig x) n = sig b n.
Proof.
  intros x p q a b err a' H La Ha Hz. destruct (C129_prony _ _ _ _ _ _ H) as (L1 & L2 & L3 & Eb & Et & Ee & Hm). specialize (Hm a' La Ha).
  assert (Z : tail_error q (length x + p) a' x = 0) by (apply bsum_zero_ext; intros i Hi; rewrite Hz by lia; ring). rewrite Z in Hm. assert (N : 0 <= err) by (rewrite Ee; apply bsum_nonneg; intros; apply pow2_ge_0). assert (E0 : err = 0) by lra. split; [exact E0|].
  intros n. destruct (Nat.le_gt_cases n q) as [Q|Q]; [now apply Eb|]. unfold sig at 3. rewrite nth_overflow by lia. destruct (Nat.le_gt_cases (length x + p) n) as [Q2|Q2]; [now apply Et|].
  rewrite E0 in Ee. unfold tail_error in Ee. pose proof (LpcProps.bsum_ge_term (length x + p - (q + 1)) (fun i => cv (sig a) (sig x) (q + 1 + i) ^ 2) (n - (q + 1)) ltac:(lia) ltac:(intros; apply pow2_ge_0)) as G. cbv beta in G. replace (q + 1 + (n - (q + 1)))%nat with n in G by lia. rewrite <- Ee in G. pose proof (pow2_ge_0 (cv (sig a) (sig x) n)). apply Rsqr_0_uniq. unfold Rsqr. nra.
Qed.
Print Assumptions C129_prony_exact.

(** ** Shanks *)
Section Ar.
Variable a : vec.
Definition gf (n : nat) : R := hd 0 (ar_rev a (S n)).
Lemma ar_length : forall n, length (ar_rev a n) = n.
Proof. induction n; cbn; auto. Qed.
Lemma ar_nth : forall n k, (k < n)%nat -> nth k (ar_rev a n) 0 = gf (n - 1 - k).
Proof.
  induction n as [|n IH]; intros k Hk; [lia|]. destruct k as [|k].
  - replace (S n - 1 - 0)%nat with n by lia. reflexivity.
  - cbn [ar_rev nth]. rewrite IH by lia. f_equal. lia.
Qed.
Lemma gf_rec : forall n, gf n = (if Nat.eqb n 0 then 1 else 0) - bsum n (fun k => sig a (S k) * gf (n - 1 - k)).
Proof.
  intros n. unfold gf at 1. cbn [ar_rev hd]. f_equal. rewrite dot_bsum, ar_length. apply bsum_ext. intros k Hk. rewrite ar_nth by auto. f_equal. unfold sig. destruct a; [destruct k; reflexivity|reflexivity].
Qed.
Lemma gf_delta : nth 0 a 0 = 1 -> forall n, cv (sig a) gf n = if Nat.eqb n 0 then 1 else 0.
Proof.
  intros H n. unfold cv. rewrite bsum_shift. unfold sig at 1. rewrite H, Nat.sub_0_r, gf_rec. rewrite (bsum_ext n (fun i => sig a (S i) * gf (n - S i)) (fun k => sig a (S k) * gf (n - 1 - k))); [ring|]. intros k Hk. do 2 f_equal. lia.
Qed.
Lemma gf_sig : forall nx n, (n < nx)%nat -> sig (rev (ar_rev a nx)) n = gf n.
Proof. intros nx n H. unfold sig. rewrite rev_nth by (rewrite ar_length; lia). rewrite ar_length, ar_nth by lia. f_equal. lia. Qed.
End Ar.
(** [h] is the output of the filter b / a for a unit impulse, up to sample [N]. *)
Definition response (a b : vec) (h : nat -> R) (N : nat) : Prop := forall n, (n < N)%nat -> cv (sig a) h n = sig b n.
(** With the denominator of Prony, [b] gives the impulse response closest to [x], and [err] is its distance; in
    particular it is never worse than that of Prony. *)
Theorem C129_shanks : forall x p q a b err, shanks x p q a b err ->
  (exists b0 err0, prony x p q a b0 err0) /\ length b = S q /\
  (exists h, response a b h (length x) /\ err = bsum (length x) (fun n => (sig x n - h n) ^ 2)) /\
  forall b' h', length b' = S q -> response a b' h' (length x) -> err <= bsum (length x) (fun n => (sig x n - h' n) ^ 2).
Proof.
  intros x p q a b err (Ho & b0 & err0 & G & Hp & HG & Hls & ->). set (nx := length x) in *. pose proof (C129_prony _ _ _ _ _ _ Hp) as (La & Ha & _). pose proof Hls as (Lb & Hmin).
  destruct (convmtx_rows (rev (ar_rev a nx)) [] (q + 1) G ltac:(lia) HG) as (LG & RG & _). rewrite rev_length, ar_length in LG. replace (nx + (q + 1) - 1)%nat with (nx + q)%nat in LG by lia.
  assert (Ls : length (slice 0 nx G) = nx) by (rewrite slice_length by lia; lia).
  assert (Row : forall d n, (n < nx)%nat -> length d = (q + 1)%nat -> dot (nth n (slice 0 nx G) []) d = cv (sig d) (gf a) n).
  { intros d n Hn Ld. rewrite slice_nth by lia. cbn [Nat.add]. destruct (convmtx_rows (rev (ar_rev a nx)) d (q + 1) G ltac:(lia) HG) as (_ & _ & D). rewrite dot_comm, D by lia. rewrite rows_cv by lia. apply cv_ext; [reflexivity|]. intros i Hi. apply gf_sig. lia. }
  assert (Res : forall d, length d = (q + 1)%nat -> resid (slice 0 nx G) x d = bsum nx (fun n => (sig x n - cv (sig d) (gf a) n) ^ 2)).
  { intros d Ld. rewrite (resid_bsum _ _ d nx) by auto. apply bsum_ext. intros n Hn. rewrite Row by auto. unfold sig. ring. }
  assert (Err : dot x x - dot x (map (fun r => dot (firstn (q + 1) r) b) (slice 0 nx G)) = bsum nx (fun n => (sig x n - cv (sig b) (gf a) n) ^ 2)).
  { rewrite !dot_bsum, map_length, Ls. fold nx. rewrite <- bsum_minus. apply Rminus_diag_uniq. rewrite <- bsum_minus. pose proof (lstsq_orthogonal (q + 1) _ _ b nx b Hls Ls eq_refl Lb) as O. transitivity (- bsum nx (fun i => (dot (nth i (slice 0 nx G) []) b - nth i x 0) * dot (nth i (slice 0 nx G) []) b)); [|rewrite O; ring]. rewrite <- bsum_opp. apply bsum_ext. intros n Hn. rewrite Row by auto. rewrite (UtilProps.nth_map_in _ _ _ []) by (rewrite Ls; auto). rewrite firstn_all2; [|rewrite slice_nth by lia; cbn [Nat.add]; apply Nat.eq_le_incl; apply RG; lia]. rewrite Row by auto. unfold sig. ring. }
  split; [eauto|]. split; [lia|]. split.
  - exists (cv (sig b) (gf a)). split; [|exact Err]. intros n Hn. rewrite cv_comm, cv_assoc. rewrite (cv_ext _ (sig b) _ (fun k => if Nat.eqb k 0 then 1 else 0)); [|reflexivity|intros i Hi; rewrite cv_comm; now apply gf_delta]. rewrite cv_comm. apply cv_delta.
  - intros b' h' Lb' Hr. rewrite Err. rewrite <- Res by lia. destruct (Hmin b' ltac:(lia)) as (M & _). eapply Rle_trans; [exact M|]. rewrite Res by lia. apply Req_le, bsum_ext. intros n Hn. do 2 f_equal.
    rewrite (cv_ext (sig b') (cv (sig a) h') (gf a) (gf a)); [|intros i Hi; symmetry; apply Hr; lia|reflexivity]. rewrite (cv_ext (cv (sig a) h') (cv h' (sig a)) (gf a) (gf a)); [|intros i Hi; apply cv_comm|reflexivity]. rewrite cv_assoc. rewrite (cv_ext h' h' (cv (sig a) (gf a)) (fun k => if Nat.eqb k 0 then 1 else 0)); [|reflexivity|intros i Hi; now apply gf_delta]. rewrite cv_comm. apply cv_delta.
Qed.
Print Assumptions C129_shanks.

(** Prony on [1, 1/2], the beginning of the response of 1 / (1 - z^-1 / 2): the zeros after the end count as
    data, so that the pole found is 0.4 instead of 0.5. *)
Lemma prony_half : prony [1; 1 / 2] 1 0 [1; - (2 / 5)] [1] (1 / 5 * (1 / 4)).
Proof.
  split; [cbn; lia|]. exists [[1; 0]; [1 / 2; 1]; [0; 1 / 2]], [2 / 5]. split; [reflexivity|]. split; [|split; [reflexivity|split]].
  - split; [reflexivity|]. intros y Ly. destruct y as [|y [|]]; try discriminate. cbn. unfold resid, dot, vsq. cbn. pose proof (pow2_ge_0 (y - 2 / 5)) as Y. cbn in Y. split; [nra|]. intros E. unfold dot. cbn. assert (Q : (y - 2 / 5) * (y - 2 / 5) = 0) by nra. assert (y = 2 / 5) by nra. subst y. lra.
  - unfold slice, dot. cbn. f_equal. lra.
  - unfold slice, dot. cbn. lra.
Qed.
(** Finding: the zeros after the end of x count as data. The samples 1, 1/2 of the decay of the pole 1/2 give the pole 2/5, whose prediction misses the second sample. *)
Theorem C129_truncated_refuted : exists x p q a b err a', prony x p q a b err /\ length a' = S p /\ nth 0 a' 0 = 1 /\
  (forall n, (q < n < length x)%nat -> cv (sig a') (sig x) n = 0) /\ a <> a' /\ exists n, (n < length x)%nat /\ (q < n)%nat /\ cv (sig a) (sig x) n <> 0.
Proof.
  exists [1; 1 / 2], 1%nat, 0%nat, [1; - (2 / 5)], [1], (1 / 5 * (1 / 4)), [1; - (1 / 2)]. split; [exact prony_half|]. split; [reflexivity|]. split; [reflexivity|]. split.
  - intros n Hn. cbn [length] in Hn. replace n with 1%nat by lia. unfold cv, sig. cbn. lra.
  - split; [intros E; injection E; lra|]. exists 1%nat. cbn [length]. split; [lia|]. split; [lia|]. unfold cv, sig. cbn. lra.
Qed.
Print Assumptions C129_truncated_refuted.
Example C129_shanks_case : shanks [1; 1 / 2] 1 0 [1; - (2 / 5)] [30 / 29] (1 / 116).
Proof.
  split; [cbn; lia|]. exists [1], (1 / 5 * (1 / 4)), [[1]; [2 / 5]]. split; [exact prony_half|]. split; [unfold convmtx, toeplitz_cr, dot; cbn; do 2 f_equal; [f_equal; lra|do 2 f_equal; lra]|]. split.
  - split; [reflexivity|]. intros y Ly. destruct y as [|y [|]]; try discriminate. unfold slice, resid, dot, vsq. cbn. pose proof (pow2_ge_0 (y - 30 / 29)) as Y. cbn in Y. split; [nra|]. intros E. unfold dot. cbn. assert (Q : (y - 30 / 29) * (y - 30 / 29) = 0) by nra. assert (y = 30 / 29) by nra. subst y. lra.
  - unfold slice, dot. cbn. lra.
Qed.
Lemma prony_short : prony [1; 0; 0] 1 0 [1; - 0] [1] 0.
Proof.
  split; [cbn; lia|]. exists [[1; 0]; [0; 1]; [0; 0]; [0; 0]], [0]. split; [reflexivity|]. split; [|split; [reflexivity|split]].
  - split; [reflexivity|]. intros y Ly. destruct y as [|y [|]]; try discriminate. unfold slice, resid, dot, vsq. cbn. split; [nra|]. intros E. unfold dot. cbn. nra.
  - unfold slice, dot. cbn. f_equal. lra.
  - unfold slice, dot. cbn. lra.
Qed.
Example C129_exact_case : prony [1; 0; 0] 1 0 [1; - 0] [1] 0 /\ forall n, (0 < n)%nat -> cv (sig [1; 0]) (sig [1; 0; 0]) n = 0.
Proof.
  split; [exact prony_short|]. intros n Hn. apply bsum_zero_ext. intros k Hk. unfold sig. destruct k as [|k].
  - replace (n - 0)%nat with (S (n - 1)) by lia. cbn. destruct (n - 1)%nat as [|[|[|]]]; ring.
  - cbn. destruct k as [|[|]]; ring.
Qed.
