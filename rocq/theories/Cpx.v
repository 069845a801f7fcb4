(** Complex numbers as pairs of reals, finite sums of them, and roots of unity. *)
From Coq Require Import List ZArith Lia Reals Lra Ring Bool.
From Verif Require Import Base Sum.
Import ListNotations.
Local Open Scope R_scope.

Definition C : Type := (R * R)%type.
Declare Scope C_scope.
Delimit Scope C_scope with C.
Definition Cadd (a b : C) : C := (fst a + fst b, snd a + snd b).
Definition Copp (a : C) : C := (- fst a, - snd a).
Definition Csub (a b : C) : C := (fst a - fst b, snd a - snd b).
Definition Cmul (a b : C) : C := (fst a * fst b - snd a * snd b, fst a * snd b + snd a * fst b).
Definition RtoC (x : R) : C := (x, 0).
Definition C0 : C := (0, 0).
Definition C1 : C := (1, 0).
Definition Conj (a : C) : C := (fst a, - snd a).
Definition Cscal (k : R) (a : C) : C := (k * fst a, k * snd a).
Definition Cabs2 (a : C) : R := fst a * fst a + snd a * snd a.
Infix "+" := Cadd : C_scope.
Infix "-" := Csub : C_scope.
Infix "*" := Cmul : C_scope.
Notation "- x" := (Copp x) : C_scope.
Bind Scope C_scope with C.

Lemma C_eq : forall a b : C, fst a = fst b -> snd a = snd b -> a = b.
Proof. intros [a1 a2] [b1 b2]; cbn; intros; subst; reflexivity. Qed.
Ltac cring := apply C_eq; cbn [fst snd Cadd Copp Csub Cmul RtoC C0 C1 Conj Cscal]; ring.
Lemma C_ring : ring_theory C0 C1 Cadd Cmul Csub Copp (@eq C).
Proof. constructor; intros; cring. Qed.
Add Ring C_ring : C_ring.
Lemma C_eq_dec : forall a b : C, {a = b} + {a <> b}.
Proof. intros [a1 a2] [b1 b2]. destruct (Req_EM_T a1 b1); [destruct (Req_EM_T a2 b2)|]; [left|right|right]; congruence. Qed.

Local Open Scope C_scope.
Lemma Conj_mul : forall a b, Conj (a * b) = Conj a * Conj b.
Proof. intros; cring. Qed.
Lemma Conj_add : forall a b, Conj (a + b) = Conj a + Conj b.
Proof. intros; cring. Qed.
Lemma Conj_conj : forall a, Conj (Conj a) = a.
Proof. intros; cring. Qed.
Lemma Conj_RtoC : forall x, Conj (RtoC x) = RtoC x.
Proof. intros; cring. Qed.
Lemma Cscal_RtoC : forall k a, Cscal k a = RtoC k * a.
Proof. intros; cring. Qed.
Lemma RtoC_add : forall a b, RtoC (a + b)%R = RtoC a + RtoC b.
Proof. intros; cring. Qed.
Lemma RtoC_mul : forall a b, RtoC (a * b)%R = RtoC a * RtoC b.
Proof. intros; cring. Qed.
Lemma Cabs2_mul : forall a b, Cabs2 (a * b) = (Cabs2 a * Cabs2 b)%R.
Proof. intros; unfold Cabs2; cbn; ring. Qed.
Lemma Cmul_conj : forall a, a * Conj a = RtoC (Cabs2 a).
Proof. intros; unfold Cabs2; cring. Qed.
Lemma Cabs2_nonneg : forall a, (0 <= Cabs2 a)%R.
Proof. intros. unfold Cabs2. nra. Qed.
Lemma Cabs2_zero : forall a, Cabs2 a = 0%R -> a = C0.
Proof. intros [x y]; unfold Cabs2; cbn; intros. apply C_eq; cbn; nra. Qed.
Lemma C_integral : forall a b, a * b = C0 -> a <> C0 -> b = C0.
Proof.
  intros a b H Na. apply Cabs2_zero. assert (Cabs2 (a * b) = 0%R) by (rewrite H; unfold Cabs2; cbn; ring).
  rewrite Cabs2_mul in H0. apply Rmult_integral in H0. destruct H0 as [Q|Q]; auto. now apply Cabs2_zero in Q.
Qed.

(** ** Sums *)
Definition csum (n : nat) (f : nat -> C) : C := (bsum n (fun i => fst (f i)), bsum n (fun i => snd (f i))).
Lemma csum_0 : forall f, csum 0 f = C0.
Proof. reflexivity. Qed.
Lemma csum_S : forall n f, csum (S n) f = csum n f + f n.
Proof. reflexivity. Qed.
Lemma csum_ext : forall n f g, (forall i, (i < n)%nat -> f i = g i) -> csum n f = csum n g.
Proof. intros. unfold csum. f_equal; apply bsum_ext; intros; now rewrite H. Qed.
Lemma csum_add : forall n f g, csum n (fun i => f i + g i) = csum n f + csum n g.
Proof. intros. apply C_eq; cbn; now rewrite bsum_plus. Qed.
Lemma csum_sub : forall n f g, csum n (fun i => f i - g i) = csum n f - csum n g.
Proof. intros. apply C_eq; cbn; now rewrite bsum_minus. Qed.
Lemma csum_scal : forall n k f, csum n (fun i => k * f i) = k * csum n f.
Proof. induction n; intros; rewrite ?csum_0, ?csum_S; [ring|]. rewrite IHn. ring. Qed.
Lemma csum_scal_r : forall n k f, csum n (fun i => f i * k) = csum n f * k.
Proof. intros. rewrite (csum_ext n _ (fun i => k * f i)) by (intros; ring). rewrite csum_scal. ring. Qed.
Lemma csum_zero : forall n, csum n (fun _ => C0) = C0.
Proof. induction n; [reflexivity|]. rewrite csum_S, IHn. ring. Qed.
Lemma csum_zero_ext : forall n f, (forall i, (i < n)%nat -> f i = C0) -> csum n f = C0.
Proof. intros. rewrite (csum_ext n f (fun _ => C0)) by auto. apply csum_zero. Qed.
Lemma csum_swap : forall n m f, csum n (fun i => csum m (fun j => f i j)) = csum m (fun j => csum n (fun i => f i j)).
Proof. intros. apply C_eq; cbn; apply bsum_swap. Qed.
Lemma csum_delta : forall n k f, (k < n)%nat -> (forall i, (i < n)%nat -> i <> k -> f i = C0) -> csum n f = f k.
Proof. intros. apply C_eq; cbn; apply (bsum_delta n k (fun i => _ (f i))); auto; intros; now rewrite H0. Qed.
Lemma csum_const : forall n k, csum n (fun _ => k) = RtoC (INR n) * k.
Proof. intros. apply C_eq; cbn; rewrite bsum_const; ring. Qed.
Lemma csum_split : forall n m f, csum (n + m) f = csum n f + csum m (fun i => f (n + i)%nat).
Proof. intros. apply C_eq; cbn; apply bsum_split. Qed.
Lemma csum_shift : forall n f, csum (S n) f = f 0%nat + csum n (fun i => f (S i)).
Proof. intros. apply C_eq; cbn [fst snd Cadd csum]; rewrite bsum_shift; reflexivity. Qed.
Lemma csum_rev : forall n f, csum n f = csum n (fun i => f (n - 1 - i)%nat).
Proof. intros. apply C_eq; cbn [fst snd csum]; apply bsum_rev. Qed.
Lemma csum_perm : forall n f g (s t : nat -> nat), (forall i, (i < n)%nat -> (s i < n)%nat /\ t (s i) = i) -> (forall i, (i < n)%nat -> (t i < n)%nat /\ s (t i) = i) ->
  (forall i, (i < n)%nat -> f i = g (s i)) -> csum n f = csum n g.
Proof. intros n f g s t H1 H2 H3. apply C_eq; cbn [fst snd csum]; apply (bsum_perm n _ _ s t); auto; intros; now rewrite H3. Qed.
Lemma csum_mod : forall n k f, (0 < n)%nat -> csum n (fun i => f ((i + k) mod n)%nat) = csum n f.
Proof. intros. apply C_eq; cbn [fst snd csum]; [apply (bsum_mod n k (fun i => fst (f i)))|apply (bsum_mod n k (fun i => snd (f i)))]; auto. Qed.
Lemma csum_conj : forall n f, Conj (csum n f) = csum n (fun i => Conj (f i)).
Proof. intros. apply C_eq; cbn; [reflexivity|]. now rewrite bsum_opp. Qed.
Lemma csum_RtoC : forall n f, csum n (fun i => RtoC (f i)) = RtoC (bsum n f).
Proof. intros. apply C_eq; cbn; [reflexivity|]. apply bsum_zero. Qed.
Lemma fst_csum : forall n f, fst (csum n f) = bsum n (fun i => fst (f i)).
Proof. reflexivity. Qed.
Lemma fst_RtoC_mul : forall a b, fst (RtoC a * b) = (a * fst b)%R.
Proof. intros; cbn; ring. Qed.

(** ** Unit complex numbers *)
Definition cis (t : R) : C := (cos t, sin t).
Lemma cis_add : forall a b, cis (a + b) = cis a * cis b.
Proof. intros. unfold cis. apply C_eq; cbn; [apply cos_plus|rewrite sin_plus; ring]. Qed.
Lemma cis_0 : cis 0 = C1.
Proof. unfold cis, C1. now rewrite cos_0, sin_0. Qed.
Lemma cis_opp : forall a, cis (- a) = Conj (cis a).
Proof. intros. unfold cis, Conj. cbn. now rewrite cos_neg, sin_neg. Qed.
Lemma cis_abs2 : forall a, Cabs2 (cis a) = 1%R.
Proof. intros. unfold Cabs2, cis. cbn. pose proof (sin2_cos2 a) as H. unfold Rsqr in H. lra. Qed.
Lemma cis_period : forall a k, cis (a + 2 * IZR k * PI) = cis a.
Proof.
  intros a k. unfold cis. destruct (Z_le_gt_dec 0 k) as [H|H].
  { rewrite <- (Z2Nat.id k) by lia; rewrite <- INR_IZR_INZ; now rewrite cos_period, sin_period. }
  replace k with (- Z.of_nat (Z.to_nat (- k)))%Z by (rewrite Z2Nat.id; lia).
  rewrite opp_IZR, <- INR_IZR_INZ. set (m := Z.to_nat (- k)). rewrite <- (cos_period (a + 2 * - INR m * PI) m), <- (sin_period (a + 2 * - INR m * PI) m).
  now replace (a + 2 * - INR m * PI + 2 * INR m * PI)%R with a by ring.
Qed.
(** The [n]-th roots of unity. *)
Definition omega (n : nat) (k : Z) : C := cis (2 * PI * IZR k / INR n).
Lemma omega_0 : forall n, omega n 0 = C1.
Proof. intros. unfold omega. rewrite <- cis_0. f_equal. unfold Rdiv. ring. Qed.
Lemma omega_add : forall n a b, omega n (a + b) = omega n a * omega n b.
Proof. intros. unfold omega. rewrite <- cis_add, plus_IZR. f_equal. unfold Rdiv. ring. Qed.
Lemma omega_opp : forall n a, omega n (- a) = Conj (omega n a).
Proof. intros. unfold omega. rewrite <- cis_opp, opp_IZR. f_equal. unfold Rdiv. ring. Qed.
Lemma omega_cycle : forall n a k, (0 < n)%nat -> omega n (a + Z.of_nat n * k) = omega n a.
Proof.
  intros n a k H. unfold omega. rewrite <- (cis_period (2 * PI * IZR a / INR n) k). f_equal. rewrite plus_IZR, mult_IZR, <- INR_IZR_INZ. field. apply not_0_INR. lia.
Qed.
Lemma omega_mod : forall n a, (0 < n)%nat -> omega n (a mod Z.of_nat n) = omega n a.
Proof. intros. rewrite (Z.div_mod a (Z.of_nat n)) at 2 by lia. rewrite Z.add_comm, omega_cycle; auto. Qed.
Lemma omega_abs2 : forall n k, Cabs2 (omega n k) = 1%R.
Proof. intros. apply cis_abs2. Qed.
Lemma omega_conj : forall n k, omega n k * Conj (omega n k) = C1.
Proof. intros. rewrite Cmul_conj, omega_abs2. reflexivity. Qed.
Lemma omega_ne_1 : forall n m, (0 < m < Z.of_nat n)%Z -> omega n m <> C1.
Proof.
  intros n m H E. unfold omega, cis, C1 in E. assert (Ec : cos (2 * PI * IZR m / INR n) = 1%R) by congruence.
  set (t := (PI * IZR m / INR n)%R). replace (2 * PI * IZR m / INR n)%R with (2 * t)%R in Ec by (unfold t, Rdiv; ring). rewrite cos_2a_sin in Ec.
  assert (Hn : (0 < INR n)%R) by (apply lt_0_INR; lia). assert (H1 : (0 < IZR m)%R) by (apply IZR_lt; lia). assert (H2 : (IZR m < INR n)%R) by (rewrite INR_IZR_INZ; apply IZR_lt; lia).
  assert (0 < sin t)%R.
  { pose proof PI_RGT_0. apply sin_gt_0.
    - unfold t. apply Rdiv_lt_0_compat; [|auto]. now apply Rmult_lt_0_compat.
    - unfold t. apply Rmult_lt_reg_r with (INR n); [auto|]. unfold Rdiv. rewrite Rmult_assoc, Rinv_l by lra. rewrite Rmult_1_r. apply Rmult_lt_compat_l; auto. }
  nra.
Qed.
Lemma omega_sum : forall n m, (0 < n)%nat -> csum n (fun k => omega n (m * Z.of_nat k)) = if (m mod Z.of_nat n =? 0)%Z then RtoC (INR n) else C0.
Proof.
  intros n m Hn. destruct (Z.eqb_spec (m mod Z.of_nat n) 0) as [E|E].
  - rewrite (csum_ext n _ (fun _ => C1)).
    + rewrite csum_const. ring.
    + intros k Hk. rewrite <- omega_mod by auto. rewrite Z.mul_mod, E, Z.mul_0_l, Z.mod_0_l by lia. apply omega_0.
  - set (z := omega n m).
    assert (Nz : z - C1 <> C0).
    { intro Q. unfold z in Q. rewrite <- omega_mod in Q by auto. apply (omega_ne_1 n (m mod Z.of_nat n)).
      - pose proof (Z.mod_pos_bound m (Z.of_nat n)). lia.
      - replace (omega n (m mod Z.of_nat n)) with (omega n (m mod Z.of_nat n) - C1 + C1) by ring. rewrite Q. ring. }
    apply (C_integral (z - C1)); [|exact Nz].
    assert (G : forall j, (z - C1) * csum j (fun k => omega n (m * Z.of_nat k)) = omega n (m * Z.of_nat j) - C1).
    { induction j as [|j IH].
      - rewrite csum_0. replace (m * Z.of_nat 0)%Z with 0%Z by lia. rewrite omega_0. ring.
      - rewrite csum_S. replace (m * Z.of_nat (S j))%Z with (m + m * Z.of_nat j)%Z by lia. rewrite omega_add. fold z.
        replace ((z - C1) * (csum j (fun k => omega n (m * Z.of_nat k)) + omega n (m * Z.of_nat j))) with ((z - C1) * csum j (fun k => omega n (m * Z.of_nat k)) + (z - C1) * omega n (m * Z.of_nat j)) by ring.
        rewrite IH. ring. }
    rewrite G. rewrite <- (Z.add_0_l (m * Z.of_nat n)), (Z.mul_comm m), omega_cycle, omega_0 by auto. ring.
Qed.
