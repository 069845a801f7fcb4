(** C47, C48. *)
From Coq Require Import List ZArith Lia Reals Lra Bool.
From Verif Require Import Base BaseProofs Vec Sum RlsModel ToepModel ToepSpec ToepProofs.
Import ListNotations.
Local Open Scope R_scope.

(** C47: the fast products are the products with the full matrices. *)
Theorem C47_toeplitz : forall p c r A, (0 < length c)%nat -> (0 < length r)%nat -> length A = length r ->
  exists y, toeplitz_multiplication p c r A = Some y /\ length y = length c /\
    (forall i, (i < length c)%nat -> length (nth i y []) = p) /\
    forall i q, (i < length c)%nat -> (q < p)%nat -> entry y i q = bsum (length r) (fun j => toeplitz c r i j * entry A j q).
Proof. exact toeplitz_ok. Qed.
Print Assumptions C47_toeplitz.
Theorem C47_toeplitz_rejects : forall p c r A, length A <> length r -> toeplitz_multiplication p c r A = None.
Proof. intros p c r A H. unfold toeplitz_multiplication. destruct (Nat.eqb_spec (length A) (length r)); [contradiction|reflexivity]. Qed.
Print Assumptions C47_toeplitz_rejects.
(** Rows of [A] beyond the width of the Hankel matrix are ignored. *)
Theorem C47_hankel : forall p c r A, (0 < length c)%nat -> (0 < length r)%nat -> (length r <= length A)%nat ->
  exists y, hankel_multiplication p c r A = Some y /\ length y = length c /\
    forall i q, (i < length c)%nat -> (q < p)%nat -> entry y i q = bsum (length r) (fun j => hankel_mat c r i j * entry A j q).
Proof. exact hankel_ok. Qed.
Print Assumptions C47_hankel.
(** adaptive.util.autocorr: lag products divided by the number of samples minus one. *)
Theorem C47_autocorr : forall x, (1 < length x)%nat -> exists y, fast_autocorr x = Some y /\ length y = length x /\
  forall l, (l < length x)%nat -> nth l y 0 = bsum (length x - l) (fun i => nth i x 0 * nth (i + l) x 0) / INR (length x - 1).
Proof. exact autocorr_ok. Qed.
Print Assumptions C47_autocorr.
Example C47_example : exists y, toeplitz_multiplication 1 [1; 2; 3] [1; 5] [[10]; [100]] = Some y /\ entry y 0 0 = 510 /\ entry y 2 0 = 230.
Proof.
  destruct (toeplitz_ok 1 [1; 2; 3] [1; 5] [[10]; [100]]) as (y & E & _ & _ & H); cbn; try lia. exists y. split; [exact E|].
  rewrite !H by (cbn; lia). unfold toeplitz, entry. cbn. split; lra.
Qed.
Example C47_hankel_example : exists y, hankel_multiplication 1 [1; 2; 3] [3; 5] [[10]; [100]; [7]] = Some y /\ entry y 0 0 = 210 /\ entry y 2 0 = 530.
Proof.
  destruct (hankel_ok 1 [1; 2; 3] [3; 5] [[10]; [100]; [7]]) as (y & E & _ & H); cbn; try lia. exists y. split; [exact E|].
  rewrite !H by (cbn; lia). unfold hankel_mat, entry. cbn. split; lra.
Qed.

(** C48: the optimal approximation is the circulant matrix nearest to the Toeplitz matrix, and
    the only one. *)
Theorem C48_optimal : forall r M, let n := length r in (0 < n)%nat -> is_circulant n M ->
  is_circulant n (circulant (opt_circ r)) /\
  frob2 n (circulant (opt_circ r)) (toeplitz r r) <= frob2 n M (toeplitz r r) /\
  (frob2 n M (toeplitz r r) <= frob2 n (circulant (opt_circ r)) (toeplitz r r) ->
   forall i j, (i < n)%nat -> (j < n)%nat -> M i j = circulant (opt_circ r) i j).
Proof.
  intros r M n Hn HM. pose proof (opt_best r M Hn HM) as E. fold n in E. pose proof (frob_pos n M (circulant (opt_circ r))) as P. split; [|split].
  - destruct (opt_ok r) as (L & _). fold n in L. rewrite <- L. apply circulant_is.
  - lra.
  - intros H i j Hi Hj. assert (Z : frob2 n M (circulant (opt_circ r)) = 0) by lra. unfold frob2 in Z.
    assert (NN : forall a b, 0 <= (M a b - circulant (opt_circ r) a b) * (M a b - circulant (opt_circ r) a b)) by (intros; apply Rle_0_sqr).
    assert (B : forall m f k, (forall a, (a < m)%nat -> 0 <= f a) -> (k < m)%nat -> bsum m f = 0 -> f k = 0).
    { clear. intros m f k. revert k. induction m as [|m IH]; intros k H Hk E; [lia|]. cbn [bsum] in E.
      assert (0 <= bsum m f) by (apply bsum_nonneg; auto). assert (0 <= f m) by auto. destruct (Nat.eq_dec k m) as [-> | Q]; [lra|]. apply IH; auto; [lia|lra]. }
    assert (Z1 := B _ _ i (fun a Ha => bsum_nonneg n _ (fun b Hb => NN a b)) Hi Z). cbv beta in Z1.
    assert (Z2 := B _ _ j (fun b Hb => NN i b) Hj Z1). cbv beta in Z2. nra.
Qed.
Print Assumptions C48_optimal.
(** Both approximations are symmetric matrices; Strang's keeps the central diagonals. *)
Theorem C48_optimal_symmetric : forall r i j, let n := length r in (i < n)%nat -> (j < n)%nat -> circulant (opt_circ r) i j = circulant (opt_circ r) j i.
Proof.
  intros r i j n Hi Hj. destruct (opt_ok r) as (L & E). fold n in L, E. unfold circulant. rewrite L.
  destruct (Nat.lt_total i j) as [Q|[-> | Q]]; [|reflexivity|].
  - replace ((i + (n - j)) mod n)%nat with (n - (j - i))%nat by (apply Nat.mod_unique with 0%nat; lia). replace ((j + (n - i)) mod n)%nat with (j - i)%nat by (apply Nat.mod_unique with 1%nat; lia).
    rewrite !E by lia. replace (n - (n - (j - i)))%nat with (j - i)%nat by lia. f_equal. ring.
  - replace ((j + (n - i)) mod n)%nat with (n - (i - j))%nat by (apply Nat.mod_unique with 0%nat; lia). replace ((i + (n - j)) mod n)%nat with (i - j)%nat by (apply Nat.mod_unique with 1%nat; lia).
    rewrite !E by lia. replace (n - (n - (i - j)))%nat with (i - j)%nat by lia. f_equal. ring.
Qed.
Print Assumptions C48_optimal_symmetric.
Theorem C48_strang : forall r, (1 < length r)%nat -> exists c, strang_circ r = Some c /\ length c = length r /\
  (forall i j, (i < length r)%nat -> (j < length r)%nat -> circulant c i j = circulant c j i) /\
  (forall i j, (i < length r)%nat -> (j < length r)%nat -> (2 * (i - j) <= length r)%nat -> (2 * (j - i) <= length r)%nat -> circulant c i j = toeplitz r r i j).
Proof.
  intros r Hr. destruct (strang_ok r Hr) as (c & E & L & H). exists c. split; [exact E|]. split; [exact L|]. set (n := length r) in *.
  assert (W : forall i j, (j < i < n)%nat -> ((i + (n - j)) mod n = i - j)%nat /\ ((j + (n - i)) mod n = n - (i - j))%nat).
  { intros i j Hij. split; symmetry; [apply Nat.mod_unique with 1%nat; lia|apply Nat.mod_unique with 0%nat; lia]. }
  assert (K : forall k, (0 < k < n)%nat -> nth (n - k) c 0 = nth k c 0).
  { intros k Hk. rewrite !H by lia. f_equal. destruct (Nat.leb_spec (2 * (n - k)) n); destruct (Nat.leb_spec (2 * k) n); lia. }
  split.
  - intros i j Hi Hj. unfold circulant. rewrite L. destruct (Nat.lt_total i j) as [Q|[-> | Q]]; [|reflexivity|].
    + destruct (W j i ltac:(lia)) as (-> & ->). apply K. lia.
    + destruct (W i j ltac:(lia)) as (-> & ->). symmetry. apply K. lia.
  - intros i j Hi Hj B1 B2. unfold circulant, toeplitz. rewrite L. destruct (Nat.lt_total i j) as [Q|[-> | Q]].
    + destruct (W j i ltac:(lia)) as (_ & ->). rewrite K by lia. rewrite H by lia. destruct (Nat.leb_spec j i); [lia|]. destruct (Nat.leb_spec (2 * (j - i)) n); [reflexivity|lia].
    + replace ((j + (n - j)) mod n)%nat with 0%nat by (apply Nat.mod_unique with 1%nat; lia). rewrite H by lia. destruct (Nat.leb_spec j j); [|lia]. rewrite Nat.sub_diag. reflexivity.
    + destruct (W i j ltac:(lia)) as (-> & _). rewrite H by lia. destruct (Nat.leb_spec j i); [|lia]. destruct (Nat.leb_spec (2 * (i - j)) n); [reflexivity|lia].
Qed.
Print Assumptions C48_strang.
(** A one by one matrix is rejected by Strang's approximation (slice [-0:]). *)
Theorem C48_strang_one_refuted : exists r, length r = 1%nat /\ strang_circ r = None.
Proof. exists [1]. split; reflexivity. Qed.
Print Assumptions C48_strang_one_refuted.
Example C48_example : opt_circ [4; 1; 0] = [4; 2 / 3; 2 / 3] /\ strang_circ [4; 1; 0] = Some [4; 1; 1].
Proof. split; [|reflexivity]. unfold opt_circ. cbn. repeat (f_equal; try lra). Qed.
