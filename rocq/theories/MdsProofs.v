(** Distance matrices and their eigenvalues. *)
From Coq Require Import List ZArith Lia Reals Lra Bool Permutation.
From Verif Require Import Base Vec Sum Cpx BaseProofs GridModel MusicProps SubspaceProofs WienerProofs SyncModel PcModel PcProofs MdsModel.
Import ListNotations.
Local Open Scope R_scope.

Definition kron (i j : nat) : R := if Nat.eqb i j then 1 else 0.
Lemma bsum_kron : forall n i f, (i < n)%nat -> bsum n (fun j => kron i j * f j) = f i.
Proof. intros n i f Hi. rewrite (bsum_delta n i); auto; unfold kron; [rewrite Nat.eqb_refl; ring|]. intros j Hj Hn. destruct (Nat.eqb_spec i j); [lia|ring]. Qed.
(** What is asked of the eigenvalue decomposition of a diagonalisable matrix: unit eigenvectors that form a basis. *)
Definition is_eig (n : nat) (A : matrix) (s : nat -> R) (U : matrix) : Prop :=
  (forall i j, (i < n)%nat -> (j < n)%nat -> bsum n (fun k => A i k * U k j) = s j * U i j) /\
  (forall j, (j < n)%nat -> bsum n (fun k => U k j * U k j) = 1) /\
  exists V : matrix, (forall i j, (i < n)%nat -> (j < n)%nat -> bsum n (fun k => V i k * U k j) = kron i j) /\ (forall i j, (i < n)%nat -> (j < n)%nat -> bsum n (fun k => U i k * V k j) = kron i j).
(** Real linear dependence *)
Lemma dependent_real : forall K n (c : nat -> nat -> R), (K < n)%nat -> exists x : nat -> R, (exists j, (j < n)%nat /\ x j <> 0) /\ forall r, (r < K)%nat -> bsum n (fun j => x j * c j r) = 0.
Proof.
  intros K n c H. destruct (dependent K n (fun j r => RtoC (c j r)) H) as (x & (j & Hj & Nz) & E).
  assert (ER : forall r, (r < K)%nat -> bsum n (fun j => fst (x j) * c j r) = 0 /\ bsum n (fun j => snd (x j) * c j r) = 0).
  { intros r Hr. specialize (E r Hr). assert (EC : forall m, csum m (fun j => Cmul (x j) (RtoC (c j r))) = (bsum m (fun j => fst (x j) * c j r), bsum m (fun j => snd (x j) * c j r))).
    { intros m. unfold csum. f_equal; apply bsum_ext; intros a _; unfold Cmul, RtoC; cbn [fst snd]; ring. }
    rewrite EC in E. unfold C0 in E. apply pair_equal_spec in E. exact E. }
  destruct (Req_dec (fst (x j)) 0) as [E0|N0].
  - exists (fun j => snd (x j)). split; [exists j; split; auto; intros E1; apply Nz; rewrite (surjective_pairing (x j)), E0, E1; reflexivity|]. intros r Hr. apply ER; auto.
  - exists (fun j => fst (x j)). split; [exists j; auto|]. intros r Hr. apply ER; auto.
Qed.
(** A matrix that factors through [K] dimensions has at most [K] eigenvalues other than zero. *)
Lemma few_eigenvalues : forall n A s U K (P Q : matrix) (ix : nat -> nat), is_eig n A s U -> (forall i j, (i < n)%nat -> (j < n)%nat -> A i j = bsum K (fun r => P i r * Q r j)) ->
  (forall a, (a < S K)%nat -> (ix a < n)%nat /\ s (ix a) <> 0) -> (forall a b, (a < S K)%nat -> (b < S K)%nat -> ix a = ix b -> a = b) -> False.
Proof.
  intros n A s U K P Q ix (HE & _ & V & HV & _) HA Hix Hinj.
  destruct (dependent_real K (S K) (fun a r => bsum n (fun k => Q r k * U k (ix a)))) as (x & (a0 & Ha0 & Nz) & Hx); [lia|].
  assert (H1 : forall i, (i < n)%nat -> bsum (S K) (fun a => x a * s (ix a) * U i (ix a)) = 0).
  { intros i Hi. transitivity (bsum (S K) (fun a => bsum K (fun r => P i r * (x a * bsum n (fun k => Q r k * U k (ix a)))))).
    - apply bsum_ext. intros a Ha. destruct (Hix a Ha) as [L _]. rewrite Rmult_assoc, <- HE by auto. rewrite <- bsum_scal.
      transitivity (bsum n (fun k => bsum K (fun r => P i r * (x a * (Q r k * U k (ix a)))))).
      + apply bsum_ext. intros k Hk. rewrite HA by auto. transitivity (bsum K (fun r => P i r * Q r k) * (x a * U k (ix a))); [ring|]. rewrite <- bsum_scal_r. apply bsum_ext. intros r _. ring.
      + rewrite bsum_swap. apply bsum_ext. intros r _. rewrite <- !bsum_scal. reflexivity.
    - rewrite bsum_swap. apply bsum_zero_ext. intros r Hr. rewrite (bsum_scal (S K) (P i r) (fun a => x a * bsum n (fun k => Q r k * U k (ix a)))), Hx by auto. ring. }
  destruct (Hix a0 Ha0) as [L0 S0]. assert (H2 : bsum n (fun i => V (ix a0) i * bsum (S K) (fun a => x a * s (ix a) * U i (ix a))) = 0) by (apply bsum_zero_ext; intros i Hi; rewrite H1 by auto; ring).
  assert (H3 : bsum n (fun i => V (ix a0) i * bsum (S K) (fun a => x a * s (ix a) * U i (ix a))) = x a0 * s (ix a0)).
  { transitivity (bsum n (fun i => bsum (S K) (fun a => x a * s (ix a) * (V (ix a0) i * U i (ix a))))); [apply bsum_ext; intros i _; rewrite <- bsum_scal; apply bsum_ext; intros a _; ring|].
    rewrite bsum_swap. rewrite (bsum_delta (S K) a0); [| |].
    - rewrite (bsum_scal n (x a0 * s (ix a0)) (fun i => V (ix a0) i * U i (ix a0))), HV by auto. unfold kron. rewrite Nat.eqb_refl. ring.
    - exact Ha0.
    - intros a Ha Hn. destruct (Hix a Ha) as [L _]. rewrite (bsum_scal n (x a * s (ix a)) (fun i => V (ix a0) i * U i (ix a))), HV by auto. unfold kron. destruct (Nat.eqb_spec (ix a0) (ix a)) as [E|]; [|ring]. exfalso. apply Hn. symmetry. now apply Hinj. }
  rewrite H2 in H3. symmetry in H3. apply Rmult_integral in H3. tauto.
Qed.
(** double centering of squared distances *)
Lemma dot_centering : forall n M i j, (0 < n)%nat -> (i < n)%nat -> mdot n (centering n) M i j = M i j - bsum n (fun k => M k j) / INR n.
Proof.
  intros n M i j Hn Hi. unfold mdot, centering. transitivity (bsum n (fun k => kron i k * M k j) - bsum n (fun k => / INR n * M k j)).
  - rewrite <- bsum_minus. apply bsum_ext. intros k _. unfold kron. unfold Rdiv. ring.
  - rewrite bsum_scal, (bsum_kron n i (fun k => M k j)) by auto. unfold Rdiv. ring.
Qed.
Lemma dot_centering_r : forall n M i j, (0 < n)%nat -> (j < n)%nat -> mdot n M (centering n) i j = M i j - bsum n (fun k => M i k) / INR n.
Proof.
  intros n M i j Hn Hj. unfold mdot, centering. transitivity (bsum n (fun k => kron j k * M i k) - bsum n (fun k => / INR n * M i k)).
  - rewrite <- bsum_minus. apply bsum_ext. intros k _. unfold kron. rewrite (Nat.eqb_sym j k). unfold Rdiv. ring.
  - rewrite bsum_scal, (bsum_kron n j (fun k => M i k)) by auto. unfold Rdiv. rewrite (Rmult_comm (/ INR n)). reflexivity.
Qed.
Lemma gram_eq : forall n d (q : nat -> nat -> R) D, (0 < n)%nat -> (forall r, (r < d)%nat -> bsum n (fun k => q r k) = 0) ->
  (forall i j, (i < n)%nat -> (j < n)%nat -> D i j = bsum d (fun r => (q r i - q r j) * (q r i - q r j))) -> forall i j, (i < n)%nat -> (j < n)%nat -> gram n D i j = bsum d (fun r => q r i * q r j).
Proof.
  intros n d q D Hn Hq HD i j Hi Hj. unfold gram. rewrite dot_centering by auto. set (f := fun i => bsum d (fun r => q r i * q r i)). set (g := fun i j => bsum d (fun r => q r i * q r j)).
  assert (HD2 : forall i j, (i < n)%nat -> (j < n)%nat -> D i j = f i + f j - 2 * g i j). { intros a b Ha Hb. rewrite HD by auto. unfold f, g. rewrite <- bsum_scal, <- bsum_plus, <- bsum_minus. apply bsum_ext. intros r _. ring. }
  assert (Hg : forall i, bsum n (fun k => g i k) = 0). { intros a. unfold g. rewrite bsum_swap. apply bsum_zero_ext. intros r Hr. rewrite (bsum_scal n (q r a) (fun k => q r k)), Hq by auto. ring. }
  assert (Hg2 : forall j, bsum n (fun k => g k j) = 0). { intros a. rewrite <- (Hg a). apply bsum_ext. intros k _. unfold g. apply bsum_ext. intros r _. ring. }
  assert (HNn : INR n <> 0) by (apply not_0_INR; lia). set (F := bsum n f).
  assert (E : forall i j, (i < n)%nat -> (j < n)%nat -> mdot n D (centering n) i j = f j - 2 * g i j - F / INR n).
  { intros a b Ha Hb. rewrite dot_centering_r by auto. rewrite HD2 by auto. rewrite (bsum_ext n (fun k => D a k) (fun k => (f a + f k) - 2 * g a k)) by (intros k Hk; apply HD2; auto). rewrite bsum_minus, bsum_plus, bsum_const, bsum_scal, Hg. fold F. field. exact HNn. }
  rewrite E by auto. rewrite (bsum_ext n (fun k => mdot n D (centering n) k j) (fun k => (f j - F / INR n) - 2 * g k j)) by (intros k Hk; rewrite E by auto; ring). rewrite bsum_minus, bsum_const, bsum_scal, Hg2. unfold g. field. exact HNn.
Qed.
(** A symmetric matrix is the sum of its eigenvalues times the products of the eigenvectors, if these are orthogonal. *)
Lemma spectral : forall n G s U, is_eig n G s U -> (forall i j, (i < n)%nat -> (j < n)%nat -> G i j = G j i) ->
  (forall i j, (i < n)%nat -> (j < n)%nat -> i <> j -> s i = s j -> s i <> 0 -> bsum n (fun k => U k i * U k j) = 0) ->
  forall i j, (i < n)%nat -> (j < n)%nat -> bsum n (fun a => s a * (U i a * U j a)) = G i j.
Proof.
  intros n G s U (HE & HU & V & HV & HV2) HS HO i j Hi Hj.
  assert (Horth : forall a b, (a < n)%nat -> (b < n)%nat -> s a * bsum n (fun k => U k a * U k b) = s b * bsum n (fun k => U k a * U k b)).
  { intros a b Ha Hb. transitivity (bsum n (fun k => bsum n (fun l => G k l * U l a) * U k b)).
    - rewrite <- bsum_scal. apply bsum_ext. intros k Hk. rewrite HE by auto. ring.
    - transitivity (bsum n (fun l => U l a * bsum n (fun k => G l k * U k b))).
      + transitivity (bsum n (fun k => bsum n (fun l => G k l * U l a * U k b))); [apply bsum_ext; intros k _; now rewrite bsum_scal_r|]. rewrite bsum_swap. apply bsum_ext. intros l Hl. rewrite <- bsum_scal. apply bsum_ext. intros k Hk. rewrite (HS k l) by auto. ring.
      + rewrite <- bsum_scal. apply bsum_ext. intros l Hl. rewrite HE by auto. ring. }
  assert (Hz : forall a b, (a < n)%nat -> (b < n)%nat -> s a * bsum n (fun k => U k a * U k b) = kron b a * s b).
  { intros a b Ha Hb. unfold kron. destruct (Nat.eqb_spec b a) as [->|Hn]; [rewrite HU by auto; ring|]. destruct (Req_dec (s a) (s b)) as [E|E].
    - destruct (Req_dec (s a) 0) as [E0|E0]; [rewrite E0; ring|]. rewrite HO by auto. ring.
    - specialize (Horth a b Ha Hb). assert (bsum n (fun k => U k a * U k b) = 0) by (apply (Rmult_eq_reg_l (s a - s b)); [lra|lra]). rewrite H. ring. }
  set (H := fun i j => bsum n (fun a => s a * (U i a * U j a))).
  assert (HH : forall i b, (i < n)%nat -> (b < n)%nat -> bsum n (fun k => H i k * U k b) = bsum n (fun k => G i k * U k b)).
  { intros x b Hx Hb. rewrite HE by auto. unfold H. transitivity (bsum n (fun a => U x a * (s a * bsum n (fun k => U k a * U k b)))).
    - transitivity (bsum n (fun k => bsum n (fun a => s a * (U x a * U k a) * U k b))); [apply bsum_ext; intros k _; now rewrite bsum_scal_r|]. rewrite bsum_swap. apply bsum_ext. intros a _. rewrite <- !bsum_scal. apply bsum_ext. intros k _. ring.
    - rewrite (bsum_ext n _ (fun a => kron b a * (s b * U x a))) by (intros a Ha; rewrite Hz by auto; ring). now rewrite (bsum_kron n b (fun a => s b * U x a)). }
  assert (HF : forall M : matrix, bsum n (fun b => bsum n (fun k => M i k * U k b) * V b j) = M i j).
  { intros M. transitivity (bsum n (fun k => M i k * bsum n (fun b => U k b * V b j))).
    - transitivity (bsum n (fun b => bsum n (fun k => M i k * (U k b * V b j)))); [apply bsum_ext; intros b _; rewrite <- bsum_scal_r; apply bsum_ext; intros; ring|]. rewrite bsum_swap. apply bsum_ext. intros k _. now rewrite bsum_scal.
    - rewrite (bsum_ext n _ (fun k => kron j k * M i k)) by (intros k Hk; rewrite HV2 by auto; unfold kron; rewrite (Nat.eqb_sym k j); ring). now rewrite (bsum_kron n j (fun k => M i k)). }
  transitivity (H i j); [reflexivity|]. rewrite <- (HF H), <- (HF G). apply bsum_ext. intros b Hb. now rewrite HH.
Qed.
(** coordinates *)
Lemma dot_bsum : forall a b d, length a = d -> length b = d -> dot a b = bsum d (fun r => nth r a 0 * nth r b 0).
Proof.
  intros a b d <-. revert b. induction a as [|x a IH]; intros [|y b] H; try discriminate; [reflexivity|]. rewrite dot_cons, (IH b) by (cbn in H; lia). cbn [length]. rewrite bsum_shift. reflexivity.
Qed.
Lemma vsq_bsum : forall a b d, length a = d -> length b = d -> vsq (vminus a b) = bsum d (fun r => (nth r a 0 - nth r b 0) * (nth r a 0 - nth r b 0)).
Proof. intros a b d Ha Hb. unfold vsq. rewrite (dot_bsum _ _ d) by (rewrite vminus_length; congruence). apply bsum_ext. intros r _. rewrite nth_vminus by congruence. reflexivity. Qed.

Section Order.
Variables (argsort : list R -> list nat) (n : nat) (s : nat -> R).
Hypothesis Hsort : is_argsort argsort.
Let o := rev (argsort (map s (seq 0 n))).
Lemma order_perm : Permutation o (seq 0 n).
Proof. unfold o. destruct (Hsort (map s (seq 0 n))) as [P _]. rewrite map_length, seq_length in P. etransitivity; [symmetry; apply Permutation_rev|exact P]. Qed.
Lemma order_desc : forall i j, (i <= j)%nat -> (j < n)%nat -> s (nth j o 0%nat) <= s (nth i o 0%nat).
Proof.
  intros i j Hij Hj. destruct (Nat.eq_dec i j) as [->|Hne]; [lra|]. unfold o. destruct (Hsort (map s (seq 0 n))) as [P Q]. rewrite map_length, seq_length in P, Q. pose proof (Permutation_length P) as L. rewrite seq_length in L. rewrite !rev_nth by lia. rewrite L.
  specialize (Q (n - S j)%nat (n - S i)%nat ltac:(lia)). set (a := nth (n - S j) _ 0%nat) in *. set (b := nth (n - S i) _ 0%nat) in *.
  assert (Ha : (a < n)%nat) by (apply order_lt; [exact P|lia]). assert (Hb : (b < n)%nat) by (apply order_lt; [exact P|lia]). rewrite !nth_map_seq in Q by auto. exact Q.
Qed.
End Order.
