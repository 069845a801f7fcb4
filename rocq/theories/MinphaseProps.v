(** C130: filters of minimum phase from magnitudes. *)
From Coq Require Import List ZArith Lia Reals Lra Bool.
From Verif Require Import Base BaseProofs Vec Sum Cpx DftModel DftProofs BeamTdProps BackModel MinphaseModel.
Import ListNotations.
Local Open Scope R_scope.

(** ** Specification *)
(** The magnitude asked for at bin [k]: that of [m], zero above, and never less than [eps]. *)
Definition target (m : vec) (eps : R) (k : nat) : R := Rmax (nth k m 0) eps.
Definition Cexp (z : C) : C := Cscal (exp (fst z)) (cis (snd z)).
(** The polynomial a_0 + a_1 / z + ... + a_K / z^K at the point z = e^(2 pi i k / N). *)
Definition causal (K : nat) (a : nat -> R) (N k : nat) : C := csum (S K) (fun j => (RtoC (a j) * omega N (- Z.of_nat (j * k)))%C).
(** On the circle of [N] points the response is the exponential of a polynomial in 1 / z with real
    coefficients.  This exponential has neither zeros nor poles for z <> 0: it is the response of a causal and
    stable system with causal and stable inverse. *)
Definition minimum_phase_at (N : nat) (H : nat -> C) (bins : nat -> Prop) : Prop :=
  exists K a, (2 * K < N)%nat /\ forall k, bins k -> H k = Cexp (causal K a N k).
(** The response of a filter of [n] taps. *)
Definition response (n : nat) (h : vec) (k : nat) : C := dft n (fun j => RtoC (nth j h 0)) k.

(** ** rfft of irfft *)
Definition real_ends (n : nat) (X : list C) (k : nat) : C := if Nat.eqb k 0 || Nat.eqb (2 * k) n then RtoC (fst (nth k X C0)) else nth k X C0.
Lemma half_even n : Nat.even n = true -> (n = 2 * (n / 2))%nat.
Proof. intros He. apply Nat.even_spec in He as [q ->]. rewrite (Nat.mul_comm 2 q), Nat.div_mul by lia. lia. Qed.
Lemma half_odd n : Nat.even n = false -> (n = 2 * (n / 2) + 1)%nat.
Proof. intros He. assert (O : Nat.odd n = true) by (unfold Nat.odd; now rewrite He). apply Nat.odd_spec in O as [q ->]. replace ((2 * q + 1) / 2)%nat with q; [lia|]. apply Nat.div_unique with 1%nat; lia. Qed.
Lemma half_facts n : (2 * (n / 2) <= n < 2 * (n / 2) + 2)%nat.
Proof. pose proof (Nat.div_mod n 2 ltac:(lia)). pose proof (Nat.mod_upper_bound n 2 ltac:(lia)). lia. Qed.
Lemma rfft_irfft_any n X k : (0 < n)%nat -> (k <= n / 2)%nat -> response n (irfft n X) k = real_ends n X k.
Proof.
  intros Hn Hk. pose proof (half_facts n) as HF. set (h := (n / 2)%nat) in *.
  set (H := fun k => if (k <=? h)%nat then real_ends n X k else Conj (real_ends n X (n - k)%nat)).
  assert (Hh : hermitian n H).
  { intros m Hm. unfold H. destruct (Nat.leb_spec (n - m) h), (Nat.leb_spec m h).
    - assert (m = h) by lia. subst m. replace (n - h)%nat with h by lia. unfold real_ends. replace (Nat.eqb (2 * h) n) with true by (symmetry; apply Nat.eqb_eq; lia). rewrite orb_true_r. now rewrite Conj_RtoC.
    - now rewrite Conj_conj.
    - replace (n - (n - m))%nat with m by lia. reflexivity.
    - lia. }
  assert (EI : forall j, (j < n)%nat -> nth j (irfft n X) 0 = fst (idft n H j)).
  { intros j Hj. transitivity (nth j (irfft n (map (real_ends n X) (seq 0 (h + 1)))) 0).
    - rewrite !nth_irfft by auto. f_equal.
      assert (E0 : forall i, (i <= h)%nat -> nth i (map (real_ends n X) (seq 0 (h + 1))) C0 = real_ends n X i).
      { intros i Hi. rewrite nth_map_seq by lia. reflexivity. }
      f_equal; [f_equal|].
      + rewrite E0 by lia. reflexivity.
      + apply bsum_ext. intros i Hi. assert (Hi2 : (2 * (i + 1) < n)%nat). { pose proof (half_facts (n - 1)). lia. }
        rewrite E0 by lia. unfold real_ends. destruct (Nat.eqb_spec (i + 1) 0) as [Z|Z]; [lia|]. destruct (Nat.eqb_spec (2 * (i + 1)) n) as [Z'|Z']; [lia|]. reflexivity.
      + destruct (Nat.even n) eqn:Ee; [|reflexivity]. fold h. rewrite E0 by lia. unfold real_ends. pose proof (half_even n Ee) as Q. fold h in Q. replace (Nat.eqb (2 * h) n) with true by (symmetry; apply Nat.eqb_eq; lia). rewrite orb_true_r. reflexivity.
    - apply irfft_idft; auto. intros i Hi. fold h in Hi. rewrite nth_map_seq by lia. unfold H. now rewrite (proj2 (Nat.leb_le i h)) by lia. }
  unfold response. transitivity (dft n (idft n H) k).
  - apply dft_ext. intros j Hj. rewrite EI by auto. assert (Es : snd (idft n H j) = 0) by (apply BeamTdProps.idft_real; auto).
    unfold RtoC. destruct (idft n H j) as [a b]. cbn in *. now subst b.
  - rewrite BeamTdProps.dft_idft by lia. unfold H. now rewrite (proj2 (Nat.leb_le k h)) by lia.
Qed.

(** ** The analytic signal of an even sequence of odd length *)
Section Even.
Variables (K : nat) (x : nat -> R).
Let N := (2 * K + 1)%nat.
Hypothesis even_x : forall t, (0 < t < N)%nat -> x (N - t)%nat = x t.
Let X := dft N (fun t => RtoC (x t)).
Lemma refl_perm (f : nat -> C) : csum N f = csum N (fun t => f ((N - t) mod N)%nat).
Proof.
  set (s := fun k => ((N - k) mod N)%nat).
  assert (Hs : forall i, (i < N)%nat -> (s i < N)%nat /\ s (s i) = i).
  { intros i Hi. unfold s. split; [apply Nat.mod_upper_bound; lia|]. destruct (Nat.eq_dec i 0) as [->|Hi0].
    - rewrite Nat.sub_0_r, Nat.mod_same, Nat.sub_0_r, Nat.mod_same by lia. reflexivity.
    - rewrite (Nat.mod_small (N - i)) by lia. replace (N - (N - i))%nat with i by lia. apply Nat.mod_small. lia. }
  symmetry. apply (csum_perm N _ _ s s Hs Hs). intros i Hi. reflexivity.
Qed.
Lemma X_real k : snd (X k) = 0.
Proof.
  assert (E : Conj (X k) = X k).
  { unfold X, dft. rewrite csum_conj. rewrite (refl_perm (fun j => (RtoC (x j) * omega N (- Z.of_nat (j * k)))%C)). apply csum_ext. intros t Ht. rewrite Conj_mul, Conj_RtoC, <- omega_opp.
    destruct (Nat.eq_dec t 0) as [->|Ht0].
    - rewrite Nat.sub_0_r, Nat.mod_same by lia. reflexivity.
    - rewrite Nat.mod_small by lia. rewrite even_x by lia. f_equal. replace (- Z.of_nat ((N - t) * k))%Z with (- - Z.of_nat (t * k) + Z.of_nat N * (- Z.of_nat k))%Z by nia. symmetry. apply omega_cycle. lia. }
  apply (f_equal snd) in E. unfold Conj in E. cbn [snd] in E. lra.
Qed.
Lemma X_mirror k : (0 < k < N)%nat -> X (N - k)%nat = X k.
Proof. intros Hk. unfold X. rewrite dft_hermitian by auto. fold X. pose proof (X_real k) as R0. destruct (X k) as [a b]. unfold Conj. cbn in *. subst b. now rewrite Ropp_0. Qed.
Let z k := idft N (fun k => Cscal (analytic_weight N k) (X k)) k.
(** half of the spectrum *)
Definition cep (j : nat) : R := / INR N * (if Nat.eqb j 0 then 1 else 2) * fst (X j).
Lemma NK : ((N + 1) / 2 = K + 1)%nat.
Proof. unfold N. replace (2 * K + 1 + 1)%nat with ((K + 1) * 2)%nat by lia. apply Nat.div_mul. lia. Qed.
Lemma N_odd : Nat.even N = false.
Proof. unfold N. rewrite Nat.even_add, Nat.even_mul. reflexivity. Qed.
Lemma weight j : analytic_weight N j = if Nat.eqb j 0 then 1 else if (j <=? K)%nat then 2 else 0.
Proof. unfold analytic_weight. rewrite N_odd, NK. destruct (Nat.eqb_spec j 0); [reflexivity|]. destruct (Nat.ltb_spec j (K + 1)), (Nat.leb_spec j K); try lia; reflexivity. Qed.
Lemma conj_z k : Conj (z k) = causal K cep N k.
Proof.
  unfold z, idft, causal. rewrite Cscal_RtoC, Conj_mul, Conj_RtoC, csum_conj. replace N with (S K + K)%nat at 2 by (unfold N; lia). rewrite csum_split.
  rewrite (csum_zero_ext K). 2:{ intros i Hi. rewrite weight. destruct (Nat.eqb_spec (S K + i) 0) as [Z|Z]; [lia|]. destruct (Nat.leb_spec (S K + i) K) as [Z'|Z']; [lia|]. rewrite Cscal_RtoC. cring. }
  transitivity (RtoC (/ INR N) * csum (S K) (fun i => Conj (Cscal (analytic_weight N i) (X i) * omega N (Z.of_nat (k * i)))))%C; [ring|]. rewrite <- csum_scal. apply csum_ext. intros j Hj.
  rewrite Conj_mul, <- omega_opp, (Nat.mul_comm k j). assert (E : (RtoC (/ INR N) * Conj (Cscal (analytic_weight N j) (X j)))%C = RtoC (cep j)).
  { unfold cep. rewrite weight. destruct (Nat.leb_spec j K) as [Z|Z]; [|lia]. pose proof (X_real j) as R0. destruct (X j) as [a b]. cbn [fst snd] in *. subst b. destruct (Nat.eqb j 0); cring. }
  rewrite <- E. ring.
Qed.
Lemma bsum_parts f : bsum N f = f 0%nat + (bsum K (fun i => f (1 + i)%nat) + bsum K (fun i => f (1 + (K + i))%nat)).
Proof. replace N with (1 + (K + K))%nat by (unfold N; lia). rewrite bsum_split, (bsum_split K K). cbn [bsum]. ring. Qed.
Lemma fst_z k : (k < N)%nat -> fst (z k) = x k.
Proof.
  intros Hk. assert (E : x k = fst (idft N X k)) by (unfold X; now rewrite idft_dft). rewrite E. unfold z, idft. cbn [fst Cscal]. f_equal.
  cbn [fst csum]. rewrite !bsum_parts. f_equal; [rewrite weight; cbn [Nat.eqb]; rewrite Cscal_RtoC; f_equal; change (RtoC 1) with C1; ring|].
  rewrite (bsum_zero_ext K (fun i => fst (Cscal (analytic_weight N (1 + (K + i))) _ * _)%C)).
  2:{ intros i Hi. rewrite weight. destruct (Nat.eqb_spec (1 + (K + i)) 0) as [Z|Z]; [lia|]. destruct (Nat.leb_spec (1 + (K + i)) K) as [Z'|Z']; [lia|]. cbn. ring. }
  rewrite (bsum_rev K (fun i => fst (X (1 + (K + i))%nat * _)%C)). rewrite Rplus_0_r, <- bsum_plus. apply bsum_ext. intros i Hi.
  rewrite weight. destruct (Nat.eqb_spec (1 + i) 0) as [Z|Z]; [lia|]. destruct (Nat.leb_spec (1 + i) K) as [Z'|Z']; [|lia].
  replace (1 + (K + (K - 1 - i)))%nat with (N - (1 + i))%nat by (unfold N; lia). rewrite X_mirror by lia.
  replace (omega N (Z.of_nat (k * (N - (1 + i))))) with (Conj (omega N (Z.of_nat (k * (1 + i))))).
  - pose proof (X_real (1 + i)) as R0. cbn [fst snd Cmul Cscal Conj]. rewrite R0. ring.
  - rewrite <- omega_opp. rewrite <- (omega_cycle N (- Z.of_nat (k * (1 + i))) (Z.of_nat k)) by lia. f_equal. nia.
Qed.
End Even.

Lemma the_value {A} (x y : A) : Some x = Some y -> x = y.
Proof. congruence. Qed.
(** ** The call *)
Section Call.
Variables (m : vec) (n : nat) (eps : R) (full : vec).
Hypotheses (Hm : m <> []) (EF : full_response m n = Some full).
Let L := length m.
Let K := (n / 2)%nat.
Let N := (2 * K + 1)%nat.
Lemma L_pos : (1 <= L)%nat.
Proof. clear -Hm. unfold L. destruct m; [easy|cbn; lia]. Qed.
Lemma parity : (if Nat.even n then 0 else 1)%nat = (n - 2 * K)%nat.
Proof. clear. unfold K. destruct (Nat.even n) eqn:E; [pose proof (half_even n E)|pose proof (half_odd n E)]; lia. Qed.
Lemma full_eq : (L <= K + 1)%nat /\ full = m ++ repeat 0 (N - (2 * L - 1)) ++ rev (tl m).
Proof.
  pose proof L_pos. pose proof (half_facts n) as HF. fold K in HF. unfold full_response in EF. rewrite parity in EF. fold L in EF. cbv zeta in EF. destruct (Nat.ltb_spec n (2 * (L - 1) + (n - 2 * K))) as [Z|Z]; [discriminate|].
  split; [lia|]. apply (f_equal (fun o => match o with Some v => v | None => [] end)) in EF. rewrite <- EF. replace (n - (2 * (L - 1) + (n - 2 * K)))%nat with (N - (2 * L - 1))%nat by (unfold N; lia). reflexivity.
Qed.
Lemma full_length : length full = N.
Proof. destruct full_eq as [H ->]. pose proof L_pos. rewrite !app_length, rev_length, repeat_length. destruct m as [|c m']; [easy|]. cbn [tl]. unfold L in *. cbn [length] in *. unfold N. lia. Qed.
Lemma full_low t : (t < N - (L - 1))%nat -> nth t full 0 = nth t m 0.
Proof.
  intros Ht. destruct full_eq as [H ->]. pose proof L_pos. destruct (Nat.lt_ge_cases t L) as [C|C]; [now rewrite app_nth1|].
  rewrite app_nth2 by auto. fold L. rewrite app_nth1 by (rewrite repeat_length; lia). rewrite nth_repeat. now rewrite (nth_overflow m) by auto.
Qed.
Lemma full_high t : (N - (L - 1) <= t < N)%nat -> nth t full 0 = nth (N - t) m 0.
Proof.
  intros Ht. destruct full_eq as [H ->]. pose proof L_pos. rewrite app_nth2 by (fold L; unfold N in *; lia). fold L. rewrite app_nth2 by (rewrite repeat_length; unfold N in *; lia). rewrite repeat_length.
  assert (LT : length (tl m) = (L - 1)%nat) by (unfold L; destruct m; [easy|cbn; lia]).
  rewrite rev_nth by (rewrite LT; unfold N in *; lia). rewrite LT. replace (nth (N - t) m 0) with (nth (N - t - 1) (tl m) 0). 2:{ destruct m as [|c m']; [easy|]. cbn [tl]. replace (N - t)%nat with (S (N - t - 1)) at 2 by lia. reflexivity. }
  f_equal. unfold N in *. lia.
Qed.
Lemma full_even t : (0 < t < N)%nat -> nth (N - t) full 0 = nth t full 0.
Proof.
  intros Ht. destruct full_eq as [H _]. pose proof L_pos. assert (C : forall t, (0 < t <= K)%nat -> nth (N - t) full 0 = nth t full 0).
  { intros u Hu. rewrite (full_low u) by (unfold N; lia). destruct (Nat.lt_ge_cases (N - u) (N - (L - 1))) as [C|C].
    - rewrite full_low by auto. rewrite !nth_overflow; auto; fold L; unfold N in *; lia.
    - rewrite full_high by lia. f_equal. lia. }
  destruct (Nat.le_gt_cases t K) as [C1|C1]; [apply C; lia|]. rewrite <- (C (N - t)%nat) by (unfold N in *; lia). f_equal. lia.
Qed.
Let fr := map (fun r => Rmax r eps) full.
Lemma fr_nth t : (t < N)%nat -> nth t fr 0 = Rmax (nth t full 0) eps.
Proof. intros Ht. unfold fr. rewrite (nth_indep _ 0 (Rmax 0 eps)) by (rewrite map_length, full_length; auto). apply (map_nth (fun r => Rmax r eps)). Qed.
Lemma fr_target k : (k <= K)%nat -> nth k fr 0 = target m eps k.
Proof. intros Hk. destruct full_eq as [H _]. pose proof L_pos. rewrite fr_nth by (unfold N; lia). unfold target. now rewrite full_low by (unfold N; lia). Qed.
Lemma fr_length : length fr = N.
Proof. unfold fr. now rewrite map_length, full_length. Qed.
Let x t := ln (nth t fr 0).
Lemma x_even t : (0 < t < N)%nat -> x (N - t)%nat = x t.
Proof. intros Ht. unfold x. rewrite !fr_nth by lia. now rewrite full_even. Qed.
Lemma positive_iff : existsb (fun r => if Rle_dec r 0 then true else false) fr = false <-> forall k, (k <= K)%nat -> 0 < target m eps k.
Proof.
  split.
  - intros H k Hk. rewrite <- fr_target by auto. apply Rnot_le_lt. intros C. assert (Hb : existsb (fun r => if Rle_dec r 0 then true else false) fr = true); [|congruence].
    apply existsb_exists. exists (nth k fr 0). split; [apply nth_In; rewrite fr_length; unfold N; lia|]. destruct (Rle_dec (nth k fr 0) 0); [reflexivity|contradiction].
  - intros H. destruct (existsb _ fr) eqn:E; [|reflexivity]. exfalso. apply existsb_exists in E as (r & Hr & E). destruct (Rle_dec r 0) as [C|]; [|discriminate].
    destruct (In_nth _ _ 0 Hr) as (t & Ht & <-). rewrite fr_length in Ht. destruct (Nat.le_gt_cases t K) as [D|D].
    + rewrite fr_target in C by auto. specialize (H t D). lra.
    + assert (E2 : nth t fr 0 = nth (N - t) fr 0). { rewrite !fr_nth by lia. now rewrite <- (full_even t) by lia. } rewrite E2, fr_target in C by (unfold N in *; lia). specialize (H (N - t)%nat ltac:(unfold N in *; lia)). lra.
Qed.
Hypothesis Hpos : forall k, (k <= K)%nat -> 0 < target m eps k.
Let a := cep K x.
Lemma fst_z_N k : (k <= K)%nat -> fst (idft N (fun j => Cscal (analytic_weight N j) (dft N (fun t => RtoC (x t)) j)) k) = x k.
Proof. intros Hk. apply (fst_z K x x_even k). lia. Qed.
Lemma H_nth k : (k <= K)%nat ->
  nth k (map (fun k => Cscal (nth k fr 0) (cis (nth k (map (fun z => snd (- z)%C) (hilbert (map ln fr))) 0))) (seq 0 (Nat.min (K + 1) (length fr)))) C0 = Cexp (causal K a N k).
Proof.
  intros Hk. rewrite fr_length. rewrite nth_map_seq by (unfold N; lia). replace (causal K a N k) with (Conj (idft N (fun j => Cscal (analytic_weight N j) (dft N (fun t => RtoC (x t)) j)) k)) by apply (conj_z K x x_even k).
  assert (EH : nth k (map (fun z => snd (- z)%C) (hilbert (map ln fr))) 0 = - snd (idft N (fun j => Cscal (analytic_weight N j) (dft N (fun t => RtoC (x t)) j)) k)).
  { rewrite (nth_indep _ 0 (snd (- C0)%C)) by (rewrite map_length; unfold hilbert; rewrite map_length, seq_length, map_length, fr_length; unfold N; lia).
    rewrite (map_nth (fun z => snd (- z)%C)). unfold hilbert. rewrite map_length, fr_length. rewrite nth_map_seq by (unfold N; lia). unfold Copp. cbn [snd]. f_equal. f_equal.
    apply idft_ext. intros j _. f_equal. apply dft_ext. intros t Ht. f_equal. unfold x. rewrite (nth_indep _ 0 (ln 0)) by (rewrite map_length, fr_length; auto). apply map_nth. }
  rewrite EH. unfold Cexp, Conj. cbn [fst snd]. f_equal. rewrite (fst_z_N k) by auto. unfold x. symmetry. apply exp_ln. rewrite fr_target by auto. now apply Hpos.
Qed.
Lemma modulus k : (k <= K)%nat -> Cabs (Cexp (causal K a N k)) = target m eps k.
Proof.
  intros Hk. replace (causal K a N k) with (Conj (idft N (fun j => Cscal (analytic_weight N j) (dft N (fun t => RtoC (x t)) j)) k)) by apply (conj_z K x x_even k). unfold Cexp, Conj. cbn [fst snd]. rewrite (fst_z_N k) by auto. unfold x. rewrite exp_ln by (rewrite fr_target by auto; now apply Hpos). rewrite fr_target by auto.
  unfold Cabs. replace (Cabs2 (Cscal _ _)) with (target m eps k * target m eps k * Cabs2 (cis (- snd (idft N (fun j => Cscal (analytic_weight N j) (dft N (fun t => RtoC (ln (nth t fr 0))) j)) k)))). 2:{ unfold Cabs2, Cscal. cbn [fst snd]. ring. }
  rewrite cis_abs2, Rmult_1_r. apply sqrt_square. apply Rlt_le, Hpos. auto.
Qed.
End Call.
Lemma causal_0 K a N : snd (causal K a N 0) = 0.
Proof. unfold causal. cbn [snd csum]. apply bsum_zero_ext. intros j _. rewrite Nat.mul_0_r. cbn [Z.of_nat Z.opp]. rewrite omega_0. cbn. ring. Qed.
Lemma Cexp_real z : snd z = 0 -> snd (Cexp z) = 0.
Proof. intros H. unfold Cexp, Cscal, cis. cbn [snd fst]. rewrite H, sin_0. ring. Qed.
Lemma Cexp_conj z : Cexp (Conj z) = Conj (Cexp z).
Proof. unfold Cexp, Conj. cbn [fst snd]. fold (Conj z). rewrite cis_opp. apply C_eq; cbn; ring. Qed.
Lemma causal_mirror K a N k : (0 < k < N)%nat -> causal K a N (N - k) = Conj (causal K a N k).
Proof.
  intros Hk. unfold causal. rewrite csum_conj. apply csum_ext. intros j _. rewrite Conj_mul, Conj_RtoC. f_equal. rewrite <- omega_opp.
  replace (- Z.of_nat (j * (N - k)))%Z with (- - Z.of_nat (j * k) + Z.of_nat N * (- Z.of_nat j))%Z by nia. apply omega_cycle. lia.
Qed.
(** What a call gives: the response at every bin. *)
Lemma call m n eps h : m <> [] -> minimum_phase m n eps = Some h -> length h = n /\ exists a, let N := (2 * (n / 2) + 1)%nat in
  forall k, (k <= n / 2)%nat -> Cabs (Cexp (causal (n / 2) a N k)) = target m eps k /\
    response n h k = if Nat.eqb (2 * k) n then RtoC (fst (Cexp (causal (n / 2) a N k))) else Cexp (causal (n / 2) a N k).
Proof.
  intros Hm H. unfold minimum_phase in H. destruct (full_response m n) as [full|] eqn:EF; [|discriminate]. cbn [bind] in H. cbv zeta in H.
  destruct (existsb _ _) eqn:EX; [discriminate|]. pose proof (proj1 (positive_iff m n eps full Hm EF) EX) as HP. destruct (Nat.eqb_spec n 0) as [Z|Z]; [discriminate|]. apply the_value in H. subst h.
  split; [apply irfft_length|]. eexists. intros N k Hk. split; [apply (modulus m n eps full Hm EF HP k Hk)|]. rewrite rfft_irfft_any by lia. unfold real_ends.
  rewrite (H_nth m n eps full Hm EF HP k Hk). fold N. set (A := causal _ _ N k). destruct (Nat.eqb_spec k 0) as [Z0|Z0]; cbn [orb]; [|reflexivity].
  replace (RtoC (fst (Cexp A))) with (Cexp A); [now destruct (Nat.eqb (2 * k) n)|]. unfold A. subst k. apply C_eq; [reflexivity|]. cbn [snd RtoC]. apply Cexp_real, causal_0.
Qed.

(** The filter has [n] taps, at every frequency below half the rate the magnitude asked for (zeros, and
    the bins that are not given, become [eps]), and the taps sum to the first magnitude. *)
Theorem C130_magnitude : forall m n eps h, m <> [] -> minimum_phase m n eps = Some h ->
  length h = n /\ (forall k, (2 * k < n)%nat -> Cabs (response n h k) = target m eps k) /\ bsum n (fun t => nth t h 0) = target m eps 0.
Proof.
  intros m n eps h Hm H. destruct (call m n eps h Hm H) as (Lh & a & HA). split; auto. pose proof (half_facts n) as HF. split.
  - intros k Hk. destruct (HA k ltac:(lia)) as [H1 H2]. rewrite H2. destruct (Nat.eqb_spec (2 * k) n) as [Z|Z]; [lia|]. exact H1.
  - assert (Hn : n <> 0%nat). { intros ->. unfold minimum_phase in H. destruct (full_response m 0); [|discriminate]. cbn [bind] in H. cbv zeta in H. destruct (existsb _ _); discriminate. } destruct (HA 0%nat ltac:(lia)) as [H1 H2]. destruct (Nat.eqb_spec (2 * 0) n) as [Z|Z]; [lia|]. assert (E : response n h 0 = RtoC (bsum n (fun t => nth t h 0))).
    { unfold response, dft. rewrite <- csum_RtoC. apply csum_ext. intros i _. rewrite Nat.mul_0_r. cbn [Z.of_nat Z.opp]. rewrite omega_0. ring. }
    assert (E2 : bsum n (fun t => nth t h 0) = fst (Cexp (causal (n / 2) a (2 * (n / 2) + 1) 0))) by (rewrite <- H2, E; reflexivity).
    rewrite E2, <- H1. set (A := causal _ _ _ _). assert (S0 : snd (Cexp A) = 0) by apply Cexp_real, causal_0. unfold Cabs, Cabs2. rewrite S0, Rmult_0_r, Rplus_0_r. symmetry. apply sqrt_square.
    unfold Cexp, Cscal. cbn [fst]. unfold A. rewrite causal_0. unfold cis. cbn [fst]. rewrite cos_0. pose proof (exp_pos (fst A)). unfold A in *. lra.
Qed.
Print Assumptions C130_magnitude.

(** For odd [n] the filter is of minimum phase. *)
Theorem C130_minimum_phase : forall m n eps h, m <> [] -> Nat.odd n = true -> minimum_phase m n eps = Some h -> minimum_phase_at n (response n h) (fun k => (k < n)%nat).
Proof.
  intros m n eps h Hm Ho H. destruct (call m n eps h Hm H) as (Lh & a & HA). cbv zeta in HA. pose proof (half_odd n ltac:(unfold Nat.odd in Ho; now destruct (Nat.even n))) as Hn. rewrite <- Hn in HA.
  exists (n / 2)%nat, a. split; [lia|]. assert (HB : forall k, (k <= n / 2)%nat -> response n h k = Cexp (causal (n / 2) a n k)).
  { intros k Hk. destruct (HA k Hk) as [_ ->]. destruct (Nat.eqb_spec (2 * k) n) as [Z|Z]; [lia|]. reflexivity. }
  intros k Hk. destruct (Nat.le_gt_cases k (n / 2)) as [D|D]; [auto|].
  replace k with (n - (n - k))%nat by lia. rewrite causal_mirror, Cexp_conj by lia. rewrite <- HB by lia. unfold response. apply (dft_hermitian n (fun j => nth j h 0)). lia.
Qed.
Print Assumptions C130_minimum_phase.

(** For even [n] the phases are those of minimum phase on a circle with one point more, and the bin at
    half the rate keeps only the real part of what it should be. *)
Theorem C130_even : forall m n eps h, m <> [] -> Nat.even n = true -> minimum_phase m n eps = Some h ->
  minimum_phase_at (n + 1) (response n h) (fun k => (2 * k < n)%nat) /\ snd (response n h (n / 2)) = 0 /\ Rabs (fst (response n h (n / 2))) <= target m eps (n / 2).
Proof.
  intros m n eps h Hm He H. destruct (call m n eps h Hm H) as (Lh & a & HA). cbv zeta in HA. pose proof (half_even n He) as Hn. replace (2 * (n / 2) + 1)%nat with (n + 1)%nat in HA by lia. split.
  - exists (n / 2)%nat, a. split; [lia|]. intros k Hk. destruct (HA k ltac:(lia)) as [_ ->]. destruct (Nat.eqb_spec (2 * k) n) as [Z|Z]; [lia|]. reflexivity.
  - destruct (HA (n / 2)%nat ltac:(lia)) as [H1 H2]. rewrite H2, <- H1. replace (Nat.eqb (2 * (n / 2)) n) with true by (symmetry; apply Nat.eqb_eq; lia). split; [reflexivity|]. cbn [RtoC fst]. set (w := Cexp _). unfold Cabs. rewrite <- sqrt_Rsqr_abs. apply sqrt_le_1_alt. unfold Rsqr, Cabs2. nra.
Qed.
Print Assumptions C130_even.

(** There is a result exactly when the magnitudes fit into [n] points and none of them, after the floor [eps], is zero. *)
Theorem C130_defined : forall m n eps, m <> [] ->
  (minimum_phase m n eps <> None <-> (1 <= n)%nat /\ (length m <= n / 2 + 1)%nat /\ forall k, (k <= n / 2)%nat -> 0 < target m eps k).
Proof.
  intros m n eps Hm. unfold minimum_phase. assert (L1 : (1 <= length m)%nat) by (destruct m; [easy|cbn; lia]). destruct (full_response m n) as [full|] eqn:EF.
  - cbn [bind]. cbv zeta. destruct (full_eq m n full Hm EF) as [HL _]. pose proof (positive_iff m n eps full Hm EF) as HP. destruct (existsb _ _) eqn:EX.
    + split; [easy|]. intros (_ & _ & G). apply HP in G. congruence.
    + destruct (Nat.eqb_spec n 0) as [Z|Z]; split; try easy; [lia|]. intros _. split; [lia|]. split; [auto|]. now apply HP.
  - cbn [bind]. split; [easy|]. intros (Hn & HL & _). exfalso. unfold full_response in EF. rewrite parity in EF. cbv zeta in EF. pose proof (half_facts n). destruct (Nat.ltb_spec n (2 * (length m - 1) + (n - 2 * (n / 2)))) as [Z|Z]; [lia|discriminate].
Qed.
Print Assumptions C130_defined.

(** ** Two taps *)
Lemma Cabs_exp z : Cabs (Cexp z) = exp (fst z).
Proof. unfold Cabs, Cexp. replace (Cabs2 _) with (exp (fst z) * exp (fst z) * Cabs2 (cis (snd z))) by (unfold Cabs2, Cscal; cbn [fst snd]; ring). rewrite cis_abs2, Rmult_1_r. apply sqrt_square, Rlt_le, exp_pos. Qed.
Lemma two_taps q eps : 0 < q -> 0 < eps <= q -> eps <= 1 -> exists h, minimum_phase [1; q] 2 eps = Some h /\ nth 0 h 0 + nth 1 h 0 = 1 /\ nth 0 h 0 - nth 1 h 0 = q * cos (ln q / sqrt 3).
Proof.
  intros Hq He He1. destruct (minimum_phase [1; q] 2 eps) as [h|] eqn:E.
  2:{ exfalso. assert (D : minimum_phase [1; q] 2 eps <> None); [|congruence]. apply C130_defined; [discriminate|]. split; [lia|]. split; [cbn; lia|]. intros k _. unfold target. eapply Rlt_le_trans; [apply He|apply Rmax_r]. }
  exists h. split; auto. assert (NE : [1; q] <> []) by discriminate. pose proof (C130_magnitude _ _ _ _ NE E) as (_ & _ & S1). destruct (call _ _ _ _ NE E) as (_ & a & HA). cbv zeta in HA. change (2 / 2)%nat with 1%nat in HA. change (2 * 1 + 1)%nat with 3%nat in HA.
  unfold target in *. cbn [nth] in S1. rewrite Rmax_left in S1 by lra. cbn [bsum] in S1. split; [lra|].
  destruct (HA 0%nat ltac:(lia)) as [M0 _]. destruct (HA 1%nat ltac:(lia)) as [M1 R1]. cbn [nth] in M0, M1. rewrite Rmax_left in M0, M1 by lra. rewrite Cabs_exp in M0, M1. change (Nat.eqb (2 * 1) 2) with true in R1. cbv iota in R1.
  set (P := causal 1 a 3 0) in M0. set (Q := causal 1 a 3 1) in M1, R1.
  assert (C3 : omega 3 (- Z.of_nat (1 * 1)) = (- (1 / 2), - (sqrt 3 / 2))).
  { unfold omega, cis. replace (2 * PI * IZR (- Z.of_nat (1 * 1)) / INR 3) with (- (2 * (PI / 3))) by (cbn; field). rewrite cos_neg, sin_neg. replace (2 * (PI / 3)) with (PI - PI / 3) by field. rewrite Rtrigo_facts.cos_pi_minus, Rtrigo_facts.sin_pi_minus, cos_PI3, sin_PI3. reflexivity. }
  assert (EP : fst P = a 0%nat + a 1%nat). { unfold P, causal. cbn [fst csum bsum]. rewrite !Nat.mul_0_r. cbn [Z.of_nat Z.opp]. rewrite omega_0. cbn. ring. }
  assert (EQ : Q = (a 0%nat - a 1%nat / 2, - (a 1%nat * (sqrt 3 / 2)))). { unfold Q, causal. apply C_eq; cbn [fst snd csum bsum]; rewrite C3; rewrite Nat.mul_0_l; cbn [Z.of_nat Z.opp]; rewrite omega_0; cbn; field. }
  rewrite EQ in M1. cbn [fst] in M1. rewrite EP in M0.
  assert (A0 : a 0%nat + a 1%nat = 0) by (apply exp_inv; now rewrite exp_0). assert (A1 : a 0%nat - a 1%nat / 2 = ln q) by (apply exp_inv; now rewrite exp_ln).
  assert (A2 : a 1%nat = - (2 / 3) * ln q) by lra. assert (S3 : sqrt 3 * sqrt 3 = 3) by (apply sqrt_sqrt; lra). assert (P3 : 0 < sqrt 3) by (apply sqrt_lt_R0; lra).
  assert (ER : fst (response 2 h 1) = nth 0 h 0 - nth 1 h 0).
  { unfold response, dft. cbn [fst csum bsum]. rewrite Nat.mul_0_l. cbn [Z.of_nat Z.opp]. rewrite omega_0. unfold omega, cis. replace (2 * PI * IZR (- Z.of_nat (1 * 1)) / INR 2) with (- PI) by (cbn; field). rewrite cos_neg, cos_PI. cbn. ring. }
  rewrite <- ER, R1, EQ. unfold Cexp. cbn [fst snd Cscal RtoC cis]. rewrite A1, exp_ln by auto. f_equal. f_equal. rewrite A2. apply (Rmult_eq_reg_r (sqrt 3)); [|lra]. transitivity (ln q * (sqrt 3 * sqrt 3) / 3); [field|]. rewrite S3. field. lra.
Qed.
Definition eps0 : R := 1 / 100000.
Lemma exp_floor t : 0 <= t <= 7 -> eps0 <= exp (- t) <= 1.
Proof.
  intros Ht. split; [|rewrite <- exp_0; destruct (Req_dec t 0) as [->|]; [rewrite Ropp_0; lra|left; apply exp_increasing; lra]].
  assert (E7 : exp 7 <= 2187). { replace 7 with (1 + (1 + (1 + (1 + (1 + (1 + 1)))))) by lra. rewrite !exp_plus. pose proof exp_le_3 as E3. pose proof (exp_pos 1) as P. set (e := exp 1) in *. assert (H1 : e * e <= 9) by nra. assert (H2 : e * e * (e * e) <= 81) by nra. assert (H3 : e * e * (e * e) * (e * e) <= 729) by nra. assert (H4 : e * e * (e * e) * (e * e) * e <= 2187) by nra. lra. }
  apply Rle_trans with (exp (Ropp 7)). all: change (exp (Ropp 7)) with (exp (- (7))).
  - rewrite (exp_Ropp 7). unfold eps0. apply Rle_trans with (/ 2187); [lra|]. apply Rinv_le_contravar; [apply exp_pos|auto].
  - destruct (Req_dec t 7) as [->|]; [lra|]. left. apply exp_increasing. lra.
Qed.
Lemma sqrt3 : 0 < sqrt 3 <= 7 / 4.
Proof. split; [apply sqrt_lt_R0; lra|]. rewrite <- (sqrt_square (7 / 4)) by lra. apply sqrt_le_1_alt. lra. Qed.
(** Finding: with even [n] the filter can have its zero outside the unit circle, here that of two taps with the
    magnitudes 1 and about 0.004 asked for. *)
Theorem C130_even_refuted : exists m n h, minimum_phase m n eps0 = Some h /\ (forall k, (k <= n / 2)%nat -> target m eps0 k = nth k m 0) /\ exists z, 1 < Rabs z /\ bsum n (fun t => nth t h 0 / z ^ t) = 0.
Proof.
  pose proof sqrt3 as S3. pose proof PI_RGT_0. pose proof PI_4. set (q := exp (- (sqrt 3 * PI))). assert (Q : eps0 <= q <= 1) by (apply exp_floor; nra). assert (E0 : 0 < eps0 < 1 / 1000) by (unfold eps0; lra).
  assert (Q1 : q < 1). { unfold q. rewrite <- exp_0. apply exp_increasing. nra. } destruct (two_taps q eps0) as (h & E & S1 & D1); try lra.
  assert (C : cos (ln q / sqrt 3) = - 1). { unfold q. rewrite ln_exp. replace (- (sqrt 3 * PI) / sqrt 3) with (- PI) by (field; lra). rewrite cos_neg. apply cos_PI. } rewrite C in D1.
  exists [1; q], 2%nat, h. split; auto. split.
  - intros k Hk. change (2 / 2)%nat with 1%nat in Hk. unfold target. destruct k as [|[|]]; [| |lia]; cbn [nth]; apply Rmax_left; lra.
  - exists (- (nth 1 h 0 / nth 0 h 0)). assert (T0 : nth 0 h 0 = (1 - q) / 2) by lra. assert (T1 : nth 1 h 0 = (1 + q) / 2) by lra. split.
    + rewrite Rabs_Ropp, Rabs_pos_eq. 2:{ apply Rlt_le, Rdiv_lt_0_compat; lra. } apply (Rmult_lt_reg_r (nth 0 h 0)); [lra|]. unfold Rdiv. rewrite Rmult_assoc, Rinv_l by lra. lra.
    + cbn [bsum pow]. field. lra.
Qed.
Print Assumptions C130_even_refuted.
(** Finding: with even [n] the magnitude at half the rate can be lost: here it is zero instead of about 0.066. *)
Theorem C130_nyquist_refuted : exists m n h, minimum_phase m n eps0 = Some h /\ eps0 < nth (n / 2) m 0 /\ response n h (n / 2) = C0.
Proof.
  pose proof sqrt3 as S3. pose proof PI_RGT_0. pose proof PI_4. set (q := exp (- (sqrt 3 * PI / 2))). assert (Q : eps0 <= q <= 1) by (apply exp_floor; nra). assert (E0 : 0 < eps0 < 1 / 1000) by (unfold eps0; lra).
  assert (Q0 : eps0 < q). { apply Rle_lt_trans with (exp (- (sqrt 3 * PI))); [apply exp_floor; nra|]. apply exp_increasing. nra. } destruct (two_taps q eps0) as (h & E & S1 & D1); try lra.
  assert (C : cos (ln q / sqrt 3) = 0). { unfold q. rewrite ln_exp. replace (- (sqrt 3 * PI / 2) / sqrt 3) with (- (PI / 2)) by (field; lra). rewrite cos_neg. apply cos_PI2. } rewrite C in D1.
  exists [1; q], 2%nat, h. split; auto. split; [exact Q0|]. destruct (C130_even [1; q] 2 eps0 h ltac:(discriminate) eq_refl E) as (_ & S0 & _). change (2 / 2)%nat with 1%nat in *. apply C_eq; [|exact S0].
  unfold response, dft. cbn [fst csum bsum C0]. rewrite Nat.mul_0_l. cbn [Z.of_nat Z.opp]. rewrite omega_0. unfold omega, cis. replace (2 * PI * IZR (- Z.of_nat (1 * 1)) / INR 2) with (- PI) by (cbn; field). rewrite cos_neg, cos_PI. cbn. lra.
Qed.
Print Assumptions C130_nyquist_refuted.
Example C130_case : exists h, minimum_phase [1; 1 / 2; 0] 5 eps0 = Some h.
Proof.
  destruct (minimum_phase [1; 1 / 2; 0] 5 eps0) as [h|] eqn:E; [eauto|]. exfalso. assert (D : minimum_phase [1; 1 / 2; 0] 5 eps0 <> None); [|congruence]. apply C130_defined; [discriminate|].
  split; [lia|]. split; [cbn; lia|]. intros k _. unfold target, eps0. eapply Rlt_le_trans; [|apply Rmax_r]. lra.
Qed.
