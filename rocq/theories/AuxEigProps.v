(** C157: independent vector analysis started from principal eigenvectors. *)
From Coq Require Import List ZArith Lia Reals Lra Bool Permutation.
From Verif Require Import Base Vec Sum Cpx BackModel MusicProps AuxivaModel AuxivaSpec AuxivaProofs AuxivaProps AuxEigModel.
Import ListNotations.
Local Open Scope R_scope.

(** ** Specification *)
Definition sorts (argsort : list R -> list nat) : Prop := forall l, Permutation (argsort l) (seq 0 (length l)) /\
  forall i j, (i <= j)%nat -> (j < length l)%nat -> nth (nth i (argsort l) 0%nat) l 0 <= nth (nth j (argsort l) 0%nat) l 0.
(** orthonormal columns *)
Definition orthonormal (M : nat) (E : mat) : Prop := forall p q, (p < M)%nat -> (q < M)%nat -> csum M (fun i => (Conj (E i p) * E i q)%C) = delta p q.
(** mean product of two outputs *)
Definition correlation (T : nat) (Y : nat -> nat -> nat -> C) (f s r : nat) : C := Cscal (/ INR T) (csum T (fun t => (Y t f s * Conj (Y t f r))%C)).

(** ** Proofs *)
Lemma sorts_length argsort l : sorts argsort -> length (argsort l) = length l.
Proof. intros H. rewrite (Permutation_length (proj1 (H l))). apply seq_length. Qed.

(** C157.  Fewer sources than microphones cannot be started from eigenvectors: an exception, whatever the input (the transpose is
    missing and the shapes disagree). *)
Theorem C157_fewer : forall solve eig argsort F M S T model eps X n_iter proj_back, (0 < F)%nat -> (0 < S < M)%nat ->
  auxiva_eig solve eig argsort F M S T model eps X n_iter proj_back = None.
Proof.
  intros solve eig argsort F M S T model eps X n_iter pb HF HS. unfold auxiva_eig. destruct (Nat.ltb_spec M S); [lia|]. unfold for_all_f. destruct F as [|F]; [lia|]. cbn [seq mapM]. unfold principal at 1.
  destruct (Nat.eqb_spec M S); [lia|]. destruct (Nat.eqb_spec M 1); [lia|]. reflexivity.
Qed.
Print Assumptions C157_fewer.

Lemma eig_start solve eig argsort F M T model eps X n_iter pb : sorts argsort -> (0 < M)%nat ->
  exists W0, (forall f s c, (f < F)%nat -> (s < M)%nat -> (c < M)%nat -> W0 f s c = Conj (snd (eig M (covariance T X f)) s (nth c (argsort (map (fst (eig M (covariance T X f))) (seq 0 M))) 0%nat))) /\
    auxiva_eig solve eig argsort F M M T model eps X n_iter pb = auxiva solve F M M T model eps X n_iter (Some W0) pb.
Proof.
  intros Hs HM. unfold auxiva_eig. rewrite Nat.ltb_irrefl.
  assert (PR : forall e, exists W, principal argsort M M e = Some W /\ forall s c, (s < M)%nat -> (c < M)%nat -> W s c = Conj (snd e s (nth c (argsort (map (fst e) (seq 0 M))) 0%nat))).
  { intros e. assert (CH : chosen argsort M M (fst e) = argsort (map (fst e) (seq 0 M))). { unfold chosen. destruct (Nat.eqb_spec M 0); [lia|]. rewrite sorts_length, map_length, seq_length, Nat.sub_diag by exact Hs. reflexivity. }
    assert (LE : length (argsort (map (fst e) (seq 0 M))) = M) by (rewrite sorts_length, map_length, seq_length by exact Hs; reflexivity).
    unfold principal. rewrite CH, LE, Nat.eqb_refl. cbn [orb andb]. eexists. split; [reflexivity|]. intros s c Hsm Hc. destruct (Nat.eqb_spec M 1) as [E1|]; [|reflexivity]. now replace s with 0%nat by lia; replace c with 0%nat by lia. }
  assert (AL : forall a n, exists l, mapM (fun f => principal argsort M M (eig M (covariance T X f))) (seq a n) = Some l /\ length l = n /\
     forall f s c, (f < n)%nat -> (s < M)%nat -> (c < M)%nat -> nth f l (fun _ _ => C0) s c = Conj (snd (eig M (covariance T X (a + f))) s (nth c (argsort (map (fst (eig M (covariance T X (a + f)))) (seq 0 M))) 0%nat))).
  { intros a n. revert a. induction n as [|n IH]; intros a; [exists []; repeat split; intros; lia|]. cbn [seq mapM]. destruct (PR (eig M (covariance T X a))) as (W & EW & HW). rewrite EW. cbn [bind]. destruct (IH (Datatypes.S a)) as (l & El & Ll & Hl). rewrite El. cbn [bind]. exists (W :: l). split; [reflexivity|]. split; [cbn; lia|].
    intros [|f] s c Hf Hsm Hc; cbn [nth]; [rewrite Nat.add_0_r; now apply HW|]. rewrite Hl by lia. now rewrite Nat.add_succ_comm. }
  destruct (AL 0%nat F) as (l & El & Ll & Hl). unfold for_all_f. rewrite El. cbn [bind]. exists (fun f => nth f l (fun _ _ => C0)). split; [|reflexivity]. intros f s c Hf Hsm Hc. now rewrite Hl.
Qed.

(** the output without iterations and without projection *)
Lemma no_iteration solve F M T model eps X W0 : exists Y W, auxiva solve F M M T model eps X 0 (Some W0) false = Some (Y, W) /\
  forall t f s, (s < M)%nat -> Y t f s = csum M (fun c => (W0 f s c * X f c t)%C).
Proof.
  unfold auxiva, init. rewrite Nat.ltb_irrefl. cbn [bind epochs]. eexists. eexists. split; [reflexivity|]. intros t f s Hs. unfold demix. apply csum_ext. intros c _. destruct (Nat.ltb_spec s M); [reflexivity|lia].
Qed.

(** C157.  As many sources as microphones: the start keeps the power of every frame at every frequency. *)
Theorem C157_power : forall solve eig argsort F M T model eps X, sorts argsort -> (0 < M)%nat -> (forall f, (f < F)%nat -> orthonormal M (snd (eig M (covariance T X f)))) ->
  exists Y W, auxiva_eig solve eig argsort F M M T model eps X 0 false = Some (Y, W) /\
    forall f t, (f < F)%nat -> bsum M (fun s => Cabs2 (Y t f s)) = bsum M (fun c => Cabs2 (X f c t)).
Proof.
  intros solve eig argsort F M T model eps X Hs HM HO. destruct (eig_start solve eig argsort F M T model eps X 0 false Hs HM) as (W0 & HW & ->). destruct (no_iteration solve F M T model eps X W0) as (Y & W & E & HY). exists Y, W. split; [exact E|]. intros f t Hf.
  specialize (HO f Hf). set (e := eig M (covariance T X f)) in *. set (ind := argsort (map (fst e) (seq 0 M))).
  destruct (Hs (map (fst e) (seq 0 M))) as [PM _]. fold ind in PM. rewrite map_length, seq_length in PM.
  assert (LI : length ind = M) by (rewrite (Permutation_length PM); apply seq_length).
  assert (IR : forall c, (c < M)%nat -> (nth c ind 0 < M)%nat). { intros c Hc. assert (I : In (nth c ind 0%nat) (seq 0 M)) by (apply (Permutation_in _ PM), nth_In; lia). apply in_seq in I. lia. }
  assert (II : forall c d, (c < M)%nat -> (d < M)%nat -> nth c ind 0%nat = nth d ind 0%nat -> c = d). { intros c d Hc Hd Q. apply (proj1 (NoDup_nth ind 0%nat)); [|lia|lia|exact Q]. apply (Permutation_NoDup (Permutation_sym PM)), seq_NoDup. }
  assert (Q : RtoC (bsum M (fun s => Cabs2 (Y t f s))) = RtoC (bsum M (fun c => Cabs2 (X f c t)))); [|exact (f_equal fst Q)].
  rewrite <- !csum_RtoC.
  transitivity (csum M (fun s => csum M (fun c => csum M (fun d => (X f c t * Conj (X f d t) * (Conj (snd e s (nth c ind 0%nat)) * snd e s (nth d ind 0%nat)))%C)))).
  - apply csum_ext. intros s Hsm. rewrite HY by exact Hsm. rewrite <- Cmul_conj, csum_conj, <- csum_scal_r. apply csum_ext. intros c Hc. rewrite <- csum_scal. apply csum_ext. intros d Hd. rewrite (HW f s c), (HW f s d) by assumption. fold e. change (argsort (map (fst e) (seq 0 M))) with ind. rewrite Conj_mul, Conj_conj. assert (G : forall a b x y : C, (a * x * (b * y) = x * y * (a * b))%C) by (intros; ring). apply G.
  - rewrite csum_swap. apply csum_ext. intros c Hc. rewrite csum_swap. rewrite (csum_delta M c); [|exact Hc|].
    + rewrite csum_scal, HO by (apply IR; assumption). unfold delta. rewrite Nat.eqb_refl. rewrite Cmul_conj. ring.
    + intros d Hd N. rewrite csum_scal, HO by (apply IR; assumption). unfold delta. destruct (Nat.eqb_spec (nth c ind 0%nat) (nth d ind 0%nat)) as [Z|_]; [apply II in Z; try assumption; congruence|ring].
Qed.
Print Assumptions C157_power.

(** C157.  What the eigenvectors are good for: given as W0, one conjugate eigenvector in every row, they make uncorrelated outputs
    with the eigenvalues as powers. *)
Theorem C157_rows : forall solve F M T model eps X w E, (forall f, (f < F)%nat -> is_eigh M (covariance T X f) (w f) (E f)) ->
  exists Y W, auxiva solve F M M T model eps X 0 (Some (fun f s c => Conj (E f c s))) false = Some (Y, W) /\
    forall f s r, (f < F)%nat -> (s < M)%nat -> (r < M)%nat -> correlation T Y f s r = if Nat.eqb s r then RtoC (w f s) else C0.
Proof.
  intros solve F M T model eps X w E HE. destruct (no_iteration solve F M T model eps X (fun f s c => Conj (E f c s))) as (Y & W & H & HY). exists Y, W. split; [exact H|]. intros f s r Hf Hs Hr. destruct (HE f Hf) as (On & _ & Ev & _). unfold correlation.
  transitivity (csum M (fun c => (Conj (E f c s) * csum M (fun d => (covariance T X f c d * E f d r)%C))%C)).
  - transitivity (csum M (fun c => csum M (fun d => (Conj (E f c s) * E f d r * covariance T X f c d)%C))).
    + unfold covariance. rewrite Cscal_RtoC, <- csum_scal. transitivity (csum T (fun t => csum M (fun c => csum M (fun d => (RtoC (/ INR T) * ((Conj (E f c s) * E f d r) * (X f c t * Conj (X f d t))))%C)))).
      * apply csum_ext. intros t _. rewrite !HY by assumption. rewrite csum_conj, <- csum_scal_r, <- csum_scal. apply csum_ext. intros c _. rewrite <- csum_scal, <- csum_scal. apply csum_ext. intros d _. rewrite Conj_mul, Conj_conj. ring.
      * rewrite csum_swap. apply csum_ext. intros c _. rewrite csum_swap. apply csum_ext. intros d _. rewrite csum_scal, csum_scal, Cscal_RtoC. ring.
    + apply csum_ext. intros c _. rewrite <- csum_scal. apply csum_ext. intros d _. ring.
  - rewrite (csum_ext M _ (fun c => (RtoC (w f r) * (Conj (E f c s) * E f c r))%C)) by (intros c Hc; rewrite Ev by assumption; ring). rewrite csum_scal. specialize (On s r Hs Hr). unfold cip in On. rewrite On. unfold delta. destruct (Nat.eqb_spec s r) as [->|]; ring.
Qed.
Print Assumptions C157_rows.

(** One frame with the values -1 and 2: the eigenvectors are (2, 1) and (-1, 2), the eigenvalues 0 and 5. *)
Definition ex_X (_ c _ : nat) : C := match c with 0%nat => (-1, 0) | _ => (2, 0) end.
Definition ex_q : R := / sqrt 5.
Definition ex_E : mat := fun i q => match i, q with 0%nat, 0%nat | 1%nat, 1%nat => (2 * ex_q, 0) | 1%nat, 0%nat => (ex_q, 0) | _, _ => (- ex_q, 0) end.
Definition ex_w (q : nat) : R := match q with 0%nat => 0 | _ => 5 end.
Lemma ex_q2 : ex_q * ex_q = 1 / 5.
Proof. unfold ex_q. rewrite <- Rinv_mult, sqrt_sqrt by lra. lra. Qed.
Lemma ex_cov c d : covariance 1 ex_X 0 c d = (ex_X 0 c 0 * Conj (ex_X 0 d 0))%C.
Proof. unfold covariance. rewrite csum_S, csum_0. cbn [INR]. apply C_eq; cbn; field. Qed.
Example ex_eigen : is_eigh 2 (covariance 1 ex_X 0) ex_w ex_E.
Proof.
  pose proof ex_q2 as Q. unfold is_eigh, cip, delta. repeat split.
  - intros [|[|p]] [|[|q]] Hp Hq; try lia; cbn [Nat.eqb]; rewrite !csum_S, csum_0; apply C_eq; cbn; nra.
  - intros [|[|p]] [|[|q]] Hp Hq; try lia; cbn [Nat.eqb]; rewrite !csum_S, csum_0; apply C_eq; cbn; nra.
  - intros [|[|p]] [|[|q]] Hp Hq; try lia; rewrite !csum_S, csum_0, !ex_cov; apply C_eq; cbn; ring.
  - intros [|[|p]] [|[|q]] Hp Hq; try lia; cbn; lra.
Qed.
(** insertion sort of the indices *)
Fixpoint ins (l : list R) (i : nat) (s : list nat) : list nat := match s with [] => [i] | j :: s' => if Rle_dec (nth i l 0) (nth j l 0) then i :: j :: s' else j :: ins l i s' end.
Definition ex_argsort (l : list R) : list nat := fold_right (ins l) [] (seq 0 (length l)).
Definition asc (l : list R) (s : list nat) : Prop := forall i j, (i <= j)%nat -> (j < length s)%nat -> nth (nth i s 0%nat) l 0 <= nth (nth j s 0%nat) l 0.
Lemma ins_perm l i s : Permutation (ins l i s) (i :: s).
Proof. induction s as [|j s IH]; cbn; [reflexivity|]. destruct (Rle_dec _ _); [reflexivity|]. rewrite IH. apply perm_swap. Qed.
Lemma asc_cons l i s : (forall j, In j s -> nth i l 0 <= nth j l 0) -> asc l s -> asc l (i :: s).
Proof. intros H A [|a] [|b] Hab Hb; cbn [length] in Hb; cbn [nth]; [lra| |lia|apply A; lia]. apply H, nth_In. lia. Qed.
Lemma asc_inv l i s : asc l (i :: s) -> (forall j, In j s -> nth i l 0 <= nth j l 0) /\ asc l s.
Proof.
  intros A. split.
  - intros j Hj. apply In_nth with (d := 0%nat) in Hj as (k & Hk & <-). apply (A 0%nat (Datatypes.S k)); cbn; lia.
  - intros a b Hab Hb. apply (A (Datatypes.S a) (Datatypes.S b)); cbn; lia.
Qed.
Lemma ins_asc l i s : asc l s -> asc l (ins l i s).
Proof.
  induction s as [|j s IH]; intros A; cbn; [apply asc_cons; [intros ? []|exact A]|]. destruct (asc_inv _ _ _ A) as [A1 A2]. destruct (Rle_dec _ _) as [L|L].
  - apply asc_cons; [|exact A]. intros k [<-|Hk]; [exact L|]. specialize (A1 k Hk). lra.
  - apply asc_cons; [|now apply IH]. intros k Hk. apply (Permutation_in _ (ins_perm l i s)) in Hk as [<-|Hk]; [lra|now apply A1].
Qed.
Lemma ex_sorts : sorts ex_argsort.
Proof.
  intros l. unfold ex_argsort. assert (P : forall r, Permutation (fold_right (ins l) [] r) r /\ asc l (fold_right (ins l) [] r)).
  { induction r as [|i r [IP IA]]; cbn; [split; [reflexivity|]; intros i j _ Hj; cbn in Hj; lia|]. split; [|now apply ins_asc]. rewrite ins_perm. now constructor. }
  destruct (P (seq 0 (length l))) as [PP PA]. split; [exact PP|]. intros i j Hij Hj. apply PA; [exact Hij|]. rewrite (Permutation_length PP), seq_length. exact Hj.
Qed.
Lemma ex_order : ex_argsort (map ex_w (seq 0 2)) = [0; 1]%nat.
Proof. unfold ex_argsort. cbn. destruct (Rle_dec 0 5); [reflexivity|lra]. Qed.

(** The eigenvectors end up in the columns instead of the rows: with the correct eigenvectors (and the signs LAPACK gives them, a positive
    largest component) the outputs at the start are correlated. *)
Theorem C157_correlated_refuted : exists eig argsort X, sorts argsort /\ is_eigh 2 (covariance 1 X 0) (fst (eig 2%nat (covariance 1 X 0))) (snd (eig 2%nat (covariance 1 X 0))) /\
  forall solve model eps, exists Y W, auxiva_eig solve eig argsort 1 2 2 1 model eps X 0 false = Some (Y, W) /\ correlation 1 Y 0 0 1 <> C0.
Proof.
  exists (fun _ _ => (ex_w, ex_E)), ex_argsort, ex_X. split; [exact ex_sorts|]. split; [exact ex_eigen|]. intros solve model eps.
  destruct (eig_start solve (fun _ _ => (ex_w, ex_E)) ex_argsort 1 2 1 model eps ex_X 0 false ex_sorts ltac:(lia)) as (W0 & HW & ->). destruct (no_iteration solve 1 2 1 model eps ex_X W0) as (Y & W & E & HY). exists Y, W. split; [exact E|].
  cbn [fst snd] in HW. rewrite ex_order in HW. unfold correlation. rewrite csum_S, csum_0, !HY by lia. rewrite !csum_S, !csum_0, !HW by lia. cbn [nth]. intros Z. apply (f_equal fst) in Z. cbn in Z. pose proof ex_q2. replace (/ 1) with 1 in Z by lra. nra.
Qed.
Print Assumptions C157_correlated_refuted.
(** ... while the rows of C157_rows do what is meant for it *)
Example rows_example : forall solve model eps, exists Y W, auxiva solve 1 2 2 1 model eps ex_X 0 (Some (fun _ s c => Conj (ex_E c s))) false = Some (Y, W) /\ correlation 1 Y 0 0 1 = C0 /\ correlation 1 Y 0 1 1 = RtoC 5.
Proof.
  intros solve model eps. destruct (C157_rows solve 1 2 1 model eps ex_X (fun _ => ex_w) (fun _ => ex_E)) as (Y & W & E & H); [intros f Hf; replace f with 0%nat by lia; exact ex_eigen|]. exists Y, W. split; [exact E|]. now rewrite !H by lia.
Qed.
Example power_example : forall f, (f < 1)%nat -> orthonormal 2 ex_E.
Proof. intros f _. exact (proj1 ex_eigen). Qed.
