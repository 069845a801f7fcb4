(* Complex matrices given as functions: Hermitian and positive definite
   matrices, the Penrose conditions, and what they give. *)
From Coq Require Import Reals List ZArith Lia Lra Setoid Morphisms.
From Verif Require Import Base BaseProofs Vec Sum Cpx BeamModel.
Import ListNotations.
Local Open Scope C_scope.

Definition hermitian_mat (n : nat) (K : nat -> nat -> C) : Prop :=
  forall i j, (i < n)%nat -> (j < n)%nat -> K i j = Conj (K j i).
Definition nonzero (n : nat) (v : nat -> C) : Prop := exists i, (i < n)%nat /\ v i <> C0.
(* The real number v^H K v. *)
Definition power (n : nat) (K : nat -> nat -> C) (v : nat -> C) : R := fst (cdot n v (cmv n K v)).
Definition positive (n : nat) (K : nat -> nat -> C) : Prop := forall v, nonzero n v -> (0 < power n K v)%R.

(* The Penrose conditions: P is the pseudo-inverse of K. *)
Definition meq (n : nat) (A B : nat -> nat -> C) : Prop := forall i j, (i < n)%nat -> (j < n)%nat -> A i j = B i j.
Definition penrose (n : nat) (K P : nat -> nat -> C) : Prop :=
  meq n (cmm n (cmm n K P) K) K /\ meq n (cmm n (cmm n P K) P) P /\
  meq n (herm (cmm n K P)) (cmm n K P) /\ meq n (herm (cmm n P K)) (cmm n P K).

Lemma C_inv_l : forall g, g <> C0 -> Cinv g * g = C1.
Proof.
  intros [x y] H. unfold Cinv, Cabs2, Conj, Cscal, Cmul, C1. cbn [fst snd].
  assert (Hne : (x * x + y * y <> 0)%R).
  { intros E. apply H. assert (x = 0)%R by nra. assert (y = 0)%R by nra. subst. reflexivity. }
  f_equal; field; exact Hne.
Qed.
Lemma cmv_ext : forall n A u v i, (forall j, (j < n)%nat -> u j = v j) -> cmv n A u i = cmv n A v i.
Proof. intros. unfold cmv. apply csum_ext. intros j Hj. now rewrite H. Qed.
Lemma cdot_ext : forall n u v u' v', (forall j, (j < n)%nat -> u j = u' j) -> (forall j, (j < n)%nat -> v j = v' j) -> cdot n u v = cdot n u' v'.
Proof. intros. unfold cdot. apply csum_ext. intros j Hj. now rewrite H, H0. Qed.
Lemma cdot_conj : forall n u v, Conj (cdot n u v) = cdot n v u.
Proof. intros. unfold cdot. rewrite csum_conj. apply csum_ext. intros. rewrite Conj_mul, Conj_conj. ring. Qed.
Lemma cdot_add_r : forall n u v w, cdot n u (fun i => v i + w i) = cdot n u v + cdot n u w.
Proof. intros. unfold cdot. rewrite <- csum_add. apply csum_ext. intros. ring. Qed.
Lemma cdot_sub_r : forall n u v w, cdot n u (fun i => v i - w i) = cdot n u v - cdot n u w.
Proof. intros. unfold cdot. rewrite <- csum_sub. apply csum_ext. intros. ring. Qed.
Lemma cdot_add_l : forall n u v w, cdot n (fun i => u i + v i) w = cdot n u w + cdot n v w.
Proof. intros. unfold cdot. rewrite <- csum_add. apply csum_ext. intros. rewrite Conj_add. ring. Qed.
Lemma cdot_scal_r : forall n u v k, cdot n u (fun i => v i * k) = cdot n u v * k.
Proof. intros. unfold cdot. rewrite <- csum_scal_r. apply csum_ext. intros. ring. Qed.
Lemma cmv_scal : forall n A v k i, cmv n A (fun j => v j * k) i = cmv n A v i * k.
Proof. intros. unfold cmv. rewrite <- csum_scal_r. apply csum_ext. intros. ring. Qed.
Lemma cmv_add : forall n A u v i, cmv n A (fun j => u j + v j) i = cmv n A u i + cmv n A v i.
Proof. intros. unfold cmv. rewrite <- csum_add. apply csum_ext. intros. ring. Qed.
Lemma cmv_sub : forall n A u v i, cmv n A (fun j => u j - v j) i = cmv n A u i - cmv n A v i.
Proof. intros. unfold cmv. rewrite <- csum_sub. apply csum_ext. intros. ring. Qed.
Lemma cmv_cmv : forall m n A B v i, cmv m A (cmv n B v) i = cmv n (cmm m A B) v i.
Proof.
  intros. unfold cmv, cmm. transitivity (csum m (fun j => csum n (fun k => A i j * B j k * v k))).
  - apply csum_ext. intros j _. rewrite <- csum_scal. apply csum_ext. intros. ring.
  - rewrite csum_swap. apply csum_ext. intros k _. now rewrite csum_scal_r.
Qed.
(* <u, A v> = <A^H u, v> for a rectangular A with m rows and n columns *)
Lemma cdot_adj : forall m n A u v, cdot m u (cmv n A v) = cdot n (cmv m (herm A) u) v.
Proof.
  intros. unfold cdot, cmv, herm. transitivity (csum m (fun i => csum n (fun j => Conj (u i) * A i j * v j))).
  - apply csum_ext. intros i _. rewrite <- csum_scal. apply csum_ext. intros. ring.
  - rewrite csum_swap. apply csum_ext. intros j _. rewrite csum_conj, <- csum_scal_r. apply csum_ext. intros i _.
    rewrite Conj_mul, Conj_conj. ring.
Qed.
Lemma cmm_assoc : forall m n A B D i j, cmm n (cmm m A B) D i j = cmm m A (cmm n B D) i j.
Proof.
  intros. unfold cmm. transitivity (csum n (fun k => csum m (fun l => A i l * B l k * D k j))).
  - apply csum_ext. intros k _. now rewrite csum_scal_r.
  - rewrite csum_swap. apply csum_ext. intros l _. rewrite <- csum_scal. apply csum_ext. intros. ring.
Qed.
Lemma herm_mm : forall n A B i j, herm (cmm n A B) i j = cmm n (herm B) (herm A) i j.
Proof. intros. unfold herm, cmm. rewrite csum_conj. apply csum_ext. intros. rewrite Conj_mul. ring. Qed.
Lemma herm_herm : forall A i j, herm (herm A) i j = A i j.
Proof. intros. unfold herm. apply Conj_conj. Qed.
Lemma cmv_meq : forall n A B v i, meq n A B -> (i < n)%nat -> cmv n A v i = cmv n B v i.
Proof. intros n A B v i H Hi. unfold cmv. apply csum_ext. intros j Hj. now rewrite H. Qed.

#[export] Instance meq_equiv : forall n, Equivalence (meq n).
Proof. intros n. split; [intros A i j _ _; reflexivity|intros A B H i j Hi Hj; now rewrite H|intros A B D H1 H2 i j Hi Hj; now rewrite H1, H2]. Qed.
#[export] Instance cmm_proper : forall n, Proper (meq n ==> meq n ==> meq n) (cmm n).
Proof. intros n A A' HA B B' HB i j Hi Hj. unfold cmm. apply csum_ext. intros k Hk. now rewrite HA, HB. Qed.
#[export] Instance herm_proper : forall n, Proper (meq n ==> meq n) herm.
Proof. intros n A A' HA i j Hi Hj. unfold herm. now rewrite HA. Qed.
Lemma assoc : forall n A B D, meq n (cmm n (cmm n A B) D) (cmm n A (cmm n B D)).
Proof. intros n A B D i j _ _. apply cmm_assoc. Qed.
Lemma herm_cmm : forall n A B, meq n (herm (cmm n A B)) (cmm n (herm B) (herm A)).
Proof. intros n A B i j _ _. apply herm_mm. Qed.

(* A matrix has at most one pseudo-inverse. *)
Lemma penrose_unique : forall n K P Q, penrose n K P -> penrose n K Q -> meq n P Q.
Proof.
  intros n K P Q [P1 [P2 [P3 P4]]] [Q1 [Q2 [Q3 Q4]]].
  assert (HL : meq n (cmm n K P) (cmm n K Q)).
  { assert (E : meq n (cmm n (cmm n K Q) (cmm n K P)) (cmm n K P)) by (rewrite <- assoc, Q1; reflexivity).
    assert (F : meq n (cmm n (cmm n K P) (cmm n K Q)) (cmm n K Q)) by (rewrite <- assoc, P1; reflexivity).
    rewrite <- Q3 in F. rewrite <- P3 in F. rewrite <- herm_cmm in F. rewrite E, P3, Q3 in F. exact F. }
  assert (HR : meq n (cmm n P K) (cmm n Q K)).
  { assert (E : meq n (cmm n (cmm n P K) (cmm n Q K)) (cmm n P K)) by (rewrite (assoc n P K), <- (assoc n K Q), Q1; reflexivity).
    assert (F : meq n (cmm n (cmm n Q K) (cmm n P K)) (cmm n Q K)) by (rewrite (assoc n Q K), <- (assoc n K P), P1; reflexivity).
    rewrite <- P4 in F. rewrite <- Q4 in F. rewrite <- herm_cmm in F. rewrite E, P4, Q4 in F. exact F. }
  rewrite <- P2, <- Q2, (assoc n P K P), HL, <- (assoc n P K Q), HR. reflexivity.
Qed.
(* The pseudo-inverse of a Hermitian matrix is Hermitian. *)
Lemma penrose_hermitian : forall n K P, hermitian_mat n K -> penrose n K P -> hermitian_mat n P.
Proof.
  intros n K P HK HP. assert (EK : meq n (herm K) K) by (intros i j Hi Hj; symmetry; now apply HK).
  assert (HQ : penrose n K (herm P)).
  { destruct HP as [P1 [P2 [P3 P4]]].
    assert (E1 : meq n (cmm n K (herm P)) (herm (cmm n P K))) by (rewrite herm_cmm, EK; reflexivity).
    assert (E2 : meq n (cmm n (herm P) K) (herm (cmm n K P))) by (rewrite herm_cmm, EK; reflexivity).
    split; [|split; [|split]].
    - rewrite E1. rewrite <- EK at 2. rewrite <- herm_cmm, <- assoc, P1. exact EK.
    - rewrite E2, <- herm_cmm, <- assoc, P2. reflexivity.
    - rewrite E1, P4, P4. reflexivity.
    - rewrite E2, P3, P3. reflexivity. }
  pose proof (penrose_unique n K P (herm P) HP HQ) as E. intros i j Hi Hj. exact (E i j Hi Hj).
Qed.
Lemma herm_dot : forall n K u v, hermitian_mat n K -> cdot n u (cmv n K v) = cdot n (cmv n K u) v.
Proof.
  intros n K u v HK. rewrite cdot_adj. apply cdot_ext; [|reflexivity]. intros j Hj. unfold cmv, herm. apply csum_ext.
  intros i Hi. now rewrite <- HK.
Qed.
(* For a Hermitian positive definite matrix it is the inverse. *)
Lemma penrose_inverse : forall n K P v i, hermitian_mat n K -> positive n K -> penrose n K P -> (i < n)%nat ->
  cmv n K (cmv n P v) i = v i.
Proof.
  intros n K P v i HK Hpos [P1 [P2 [P3 P4]]] Hi.
  set (r := fun j => cmv n K (cmv n P v) j - v j).
  assert (Hr : cdot n r (cmv n K r) = C0).
  { rewrite (herm_dot n K r r HK). subst r. rewrite cdot_sub_r.
    match goal with |- cdot n ?u _ - _ = _ => set (y := u) end.
    enough (E : cdot n y (cmv n K (cmv n P v)) = cdot n y v) by (rewrite E; ring).
    transitivity (cdot n y (cmv n (cmm n K P) v)); [apply cdot_ext; [reflexivity|]; intros; apply cmv_cmv|].
    rewrite cdot_adj. apply cdot_ext; [|reflexivity]. intros j Hj.
    rewrite (cmv_meq n _ (cmm n K P)) by (exact P3 || exact Hj). subst y. cbv beta.
    rewrite cmv_cmv. apply cmv_meq; [|exact Hj]. exact P1. }
  destruct (C_eq_dec (r i) C0) as [E|E].
  - subst r. cbv beta in E. replace (cmv n K (cmv n P v) i) with (cmv n K (cmv n P v) i - v i + v i) by ring. rewrite E. ring.
  - exfalso. specialize (Hpos r (ex_intro _ i (conj Hi E))). unfold power in Hpos. rewrite Hr in Hpos. cbn in Hpos. lra.
Qed.
Lemma penrose_positive : forall n K P, hermitian_mat n K -> positive n K -> penrose n K P -> positive n P.
Proof.
  intros n K P HK Hpos HP v [i [Hi Hv]].
  set (z := cmv n P v).
  assert (Hz : forall j, (j < n)%nat -> cmv n K z j = v j) by (intros j Hj; apply penrose_inverse; assumption).
  unfold power. fold z.
  assert (E : cdot n v z = cdot n z (cmv n K z)).
  { rewrite (herm_dot n K z z HK). apply cdot_ext; [|reflexivity]. intros j Hj. now rewrite Hz. }
  rewrite E. apply Hpos.
  assert (D : forall m, (forall j, (j < m)%nat -> z j = C0) \/ exists j, (j < m)%nat /\ z j <> C0).
  { induction m as [|m [IH|[j [Hj Hj']]]]; [left; intros; lia| |right; exists j; split; [lia|exact Hj']].
    destruct (C_eq_dec (z m) C0) as [E0|E0]; [left|right; exists m; split; [lia|exact E0]].
    intros j Hj. destruct (Nat.eq_dec j m) as [->|]; [exact E0|apply IH; lia]. }
  destruct (D n) as [H0|H0]; [|exact H0].
  exfalso. apply Hv. rewrite <- Hz by exact Hi. unfold cmv. apply csum_zero_ext. intros j Hj. rewrite H0 by exact Hj. ring.
Qed.
