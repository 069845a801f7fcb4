From Coq Require Import List ZArith Lia Reals Lra Bool.
From Verif Require Import Base Vec Sum Cpx AuxivaModel AuxivaSpec BaseProofs.
Import ListNotations.
Local Open Scope R_scope.

Lemma det_ext : forall n A B, (forall i j, (i < n)%nat -> (j < n)%nat -> A i j = B i j) -> det n A = det n B.
Proof.
  induction n as [|n IH]; intros A B H; [reflexivity|]. cbn [det]. apply csum_ext. intros i Hi. rewrite (H i 0%nat) by lia. f_equal.
  apply IH. intros a b Ha Hb. unfold minor. destruct (Nat.ltb_spec a i); apply H; lia.
Qed.
Lemma set_row_in : forall A s u j, set_row A s u s j = u j.
Proof. intros. unfold set_row. now rewrite Nat.eqb_refl. Qed.
Lemma set_row_out : forall A s u i j, i <> s -> set_row A s u i j = A i j.
Proof. intros. unfold set_row. destruct (Nat.eqb_spec i s); [contradiction|auto]. Qed.
Lemma minor_same : forall A s u i j, minor (set_row A s u) s i j = minor A s i j.
Proof. intros. unfold minor. destruct (Nat.ltb_spec i s); apply set_row_out; lia. Qed.
Lemma minor_above : forall A s u i r c, (i < s)%nat -> minor (set_row A s u) i r c = set_row (minor A i) (s - 1) (fun j => u (S j)) r c.
Proof. intros. unfold minor, set_row. destruct (Nat.ltb_spec r i); destruct (Nat.eqb_spec r (s - 1)); try lia; destruct (Nat.eqb_spec r s); destruct (Nat.eqb_spec (S r) s); auto; lia. Qed.
Lemma minor_below : forall A s u i r c, (s < i)%nat -> minor (set_row A s u) i r c = set_row (minor A i) s (fun j => u (S j)) r c.
Proof. intros. unfold minor, set_row. destruct (Nat.ltb_spec r i); destruct (Nat.eqb_spec r s); auto; destruct (Nat.eqb_spec (S r) s); auto; lia. Qed.

Lemma det_same : forall n A s u, det n (minor (set_row A s u) s) = det n (minor A s).
Proof. intros. apply det_ext. intros. apply minor_same. Qed.
Lemma det_above : forall n A s u i, (i < s)%nat -> det n (minor (set_row A s u) i) = det n (set_row (minor A i) (s - 1) (fun j => u (S j))).
Proof. intros. apply det_ext. intros. now apply minor_above. Qed.
Lemma det_below : forall n A s u i, (s < i)%nat -> det n (minor (set_row A s u) i) = det n (set_row (minor A i) s (fun j => u (S j))).
Proof. intros. apply det_ext. intros. now apply minor_below. Qed.
Lemma det_add : forall n A s u v, (s < n)%nat -> det n (set_row A s (fun j => u j + v j)%C) = (det n (set_row A s u) + det n (set_row A s v))%C.
Proof.
  induction n as [|n IH]; intros A s u v Hs; [lia|]. cbn [det]. rewrite <- csum_add. apply csum_ext. intros i Hi.
  set (g := if Nat.even i then C1 else Copp C1). destruct (Nat.lt_trichotomy i s) as [H|[->|H]].
  - rewrite !(set_row_out A s) by lia. rewrite !det_above by lia. rewrite IH by lia. ring.
  - rewrite !set_row_in. rewrite !det_same. ring.
  - rewrite !(set_row_out A s) by lia. rewrite !det_below by lia. rewrite IH by lia. ring.
Qed.
Lemma det_scal : forall n A s k u, (s < n)%nat -> det n (set_row A s (fun j => k * u j)%C) = (k * det n (set_row A s u))%C.
Proof.
  induction n as [|n IH]; intros A s k u Hs; [lia|]. cbn [det]. rewrite <- csum_scal. apply csum_ext. intros i Hi.
  set (g := if Nat.even i then C1 else Copp C1). destruct (Nat.lt_trichotomy i s) as [H|[->|H]].
  - rewrite !(set_row_out A s) by lia. rewrite !det_above by lia. rewrite IH by lia. ring.
  - rewrite !set_row_in. rewrite !det_same. ring.
  - rewrite !(set_row_out A s) by lia. rewrite !det_below by lia. rewrite IH by lia. ring.
Qed.
Lemma csum_pair : forall n s f, (S s < n)%nat -> (forall i, (i < n)%nat -> i <> s -> i <> S s -> f i = C0) -> (f s + f (S s))%C = C0 -> csum n f = C0.
Proof.
  intros n s f Hs H E. rewrite (csum_ext n f (fun i => ((if Nat.eqb i s then f s else C0) + (if Nat.eqb i (S s) then f (S s) else C0))%C)).
  - rewrite csum_add. rewrite (csum_delta n s) by (auto; try lia; intros i _ Ne; destruct (Nat.eqb_spec i s); congruence).
    rewrite (csum_delta n (S s) (fun i => if Nat.eqb i (S s) then f (S s) else C0)) by (auto; intros i _ Ne; destruct (Nat.eqb_spec i (S s)); congruence).
    now rewrite !Nat.eqb_refl.
  - intros i Hi. destruct (Nat.eqb_spec i s) as [N1|N1]; destruct (Nat.eqb_spec i (S s)) as [N2|N2]; try (exfalso; lia).
    + rewrite N1. ring.
    + rewrite N2. ring.
    + rewrite H by auto. ring.
Qed.
Lemma det_adjacent : forall n A s, (S s < n)%nat -> (forall j, (j < n)%nat -> A s j = A (S s) j) -> det n A = C0.
Proof.
  induction n as [|n IH]; intros A s Hs E; [lia|]. cbn [det]. apply (csum_pair (S n) s); [auto| |].
  - intros i Hi N1 N2. assert (Z : det n (minor A i) = C0).
    { destruct (Nat.lt_ge_cases i s).
      - apply (IH _ (s - 1)%nat); [lia|]. intros j Hj. unfold minor. destruct (Nat.ltb_spec (s - 1) i); [lia|]. destruct (Nat.ltb_spec (S (s - 1)) i); [lia|]. replace (S (s - 1)) with s by lia. apply E. lia.
      - apply (IH _ s); [lia|]. intros j Hj. unfold minor. destruct (Nat.ltb_spec s i); [|lia]. destruct (Nat.ltb_spec (S s) i); [|lia]. apply E. lia. }
    rewrite Z. ring.
  - rewrite (E 0%nat) by lia. rewrite (det_ext n (minor A s) (minor A (S s))).
    + rewrite Nat.even_succ, <- Nat.negb_even. destruct (Nat.even s); cbn [negb]; ring.
    + intros a b Ha Hb. unfold minor. destruct (Nat.ltb_spec a s); destruct (Nat.ltb_spec a (S s)); auto; try lia. assert (a = s) as -> by lia. symmetry. apply E. lia.
Qed.
(** Exchanging adjacent rows. *)
Lemma det_swap : forall n A s u v, (S s < n)%nat ->
  det n (set_row (set_row A s u) (S s) v) = Copp (det n (set_row (set_row A s v) (S s) u)).
Proof.
  intros n A s u v Hs. set (B a b := det n (set_row (set_row A s a) (S s) b)).
  assert (Com : forall a b, B a b = det n (set_row (set_row A (S s) b) s a)).
  { intros a b. apply det_ext. intros i j _ _. unfold set_row. destruct (Nat.eqb_spec i (S s)); destruct (Nat.eqb_spec i s); auto; lia. }
  assert (Z : forall a, B a a = C0).
  { intros a. apply (det_adjacent n _ s Hs). intros j Hj. rewrite set_row_in, set_row_out, set_row_in by lia. reflexivity. }
  set (uv := fun j => (u j + v j)%C).
  assert (E : B uv uv = (B u u + B u v + (B v u + B v v))%C).
  { assert (E1 : forall b, B uv b = (B u b + B v b)%C) by (intros b; rewrite !Com; apply det_add; lia).
    assert (E2 : forall a, B a uv = (B a u + B a v)%C) by (intros a; apply det_add; lia). rewrite E1, !E2. reflexivity. }
  rewrite !Z in E. fold (B u v). fold (B v u). assert (Q : (B u v + B v u)%C = C0) by (transitivity (C0 + B u v + (B v u + C0))%C; [ring|auto]).
  transitivity ((B u v + B v u) - B v u)%C; [ring|]. rewrite Q. ring.
Qed.
Lemma det_equal_rows : forall n d s A, (s + S d < n)%nat -> (forall j, (j < n)%nat -> A s j = A (s + S d)%nat j) -> det n A = C0.
Proof.
  intros n d. induction d as [|d IH]; intros s A Hs E.
  - apply (det_adjacent n A s); [lia|]. intros j Hj. rewrite E by auto. f_equal. lia.
  - set (k := (s + S d)%nat). assert (Hk : (s + S (S d))%nat = S k) by (unfold k; lia). rewrite Hk in *.
    rewrite (det_ext n A (set_row (set_row A k (A k)) (S k) (A (S k)))).
    2:{ intros i j _ _. unfold set_row. destruct (Nat.eqb_spec i (S k)) as [->|]; auto. destruct (Nat.eqb_spec i k) as [->|]; auto. }
    rewrite det_swap by lia. rewrite (IH s); [ring|lia|]. intros j Hj. fold k. rewrite (set_row_out _ (S k)), (set_row_out _ k) by (unfold k; lia). rewrite set_row_out, set_row_in by lia. apply E. auto.
Qed.
Lemma det_alternating : forall n, alternating n (det n).
Proof.
  intros n. split.
  - apply det_ext.
  - intros. now apply det_add.
  - intros. now apply det_scal.
  - intros A s k Hs Hk Ne. destruct (Nat.lt_ge_cases s k).
    + apply (det_equal_rows n (k - s - 1) s); [lia|]. intros j Hj. replace (s + S (k - s - 1))%nat with k by lia. rewrite set_row_in, set_row_out by lia. reflexivity.
    + apply (det_equal_rows n (s - k - 1) k); [lia|]. intros j Hj. replace (k + S (s - k - 1))%nat with s by lia. rewrite set_row_in, set_row_out by lia. reflexivity.
Qed.
Lemma det_one : forall n, det n unit_vec = C1.
Proof.
  induction n as [|n IH]; [reflexivity|]. cbn [det]. rewrite (csum_delta (S n) 0); [|lia|].
  - cbn [Nat.even unit_vec Nat.eqb]. rewrite (det_ext n (minor unit_vec 0) unit_vec); [rewrite IH; unfold unit_vec; cbn [Nat.eqb]; ring|]. intros. unfold minor. cbn. reflexivity.
  - intros i Hi Ne. unfold unit_vec at 1. destruct (Nat.eqb_spec 0 i); [congruence|]. ring.
Qed.
