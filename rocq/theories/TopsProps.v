(** C147: the test of orthogonality of projected subspaces (TOPS). *)
From Coq Require Import List ZArith Lia Reals Lra Bool.
From Verif Require AuxivaProofs.
From Verif Require Import Base Sum Cpx DoaModel MusicProps CssmModel CssmProps TopsModel BaseProofs.
Import ListNotations.
Local Open Scope R_scope.

(** ** Specification *)
(** the smallest singular value of a matrix with at least as many columns as rows is zero when the rows are dependent *)
Definition smallest_ok (rows cols : nat) (D : cmat) (s : R) : Prop :=
  s = 0 <-> exists x : nat -> C, (exists p, (p < rows)%nat /\ x p <> C0) /\ forall col, (col < cols)%nat -> csum rows (fun p => Cmul (x p) (D p col)) = C0.
(** [v] is a combination of the steering vectors of [ds] *)
Definition in_span (M : nat) (mode : nat -> nat -> nat -> C) (k : nat) (ds : list nat) (v : nat -> C) : Prop :=
  exists y : nat -> C, forall i, (i < M)%nat -> v i = csum (length ds) (fun p => Cmul (y p) (steer mode k ds i p)).
(** at bin [k] the signals are those of sources in the directions [ds], with independent steering vectors, in white noise *)
Definition sources (M S : nat) (mode X : nat -> nat -> nat -> C) (ds : list nat) (k : nat) : Prop :=
  (exists sigma2, from_sources M S mode X ds k sigma2) /\ independent M (length ds) (steer mode k ds).

Lemma vector_zero_dec M (v : nat -> C) : (exists i, (i < M)%nat /\ v i <> C0) \/ forall i, (i < M)%nat -> v i = C0.
Proof.
  induction M as [|M IH]; [right; intros; lia|]. destruct IH as [(i & Hi & H)|IH]; [left; exists i; split; [lia|exact H]|]. destruct (C_eq_dec (v M) C0) as [Z|Z]; [|left; exists M; split; [lia|exact Z]]. right. intros i Hi. destruct (Nat.eq_dec i M) as [->|]; [exact Z|apply IH; lia].
Qed.

Section Run.
Variables (fs c : R) (nfft dim : nat) (L G : nat -> nat -> R).
Variables (M S N : nat) (bins : list nat) (X : nat -> nat -> nat -> C) (argmax : list R -> nat) (eigh : cmat -> (nat -> R) * cmat) (smallest : nat -> nat -> cmat -> R) (ds : list nat).
Let K := length ds.
Let mode := far_mode fs c nfft dim L G.
Let J := ((M - K) * (length bins - 1))%nat.
Let jm := tops_max M S bins X argmax.
Hypothesis HJ : (K <= J)%nat.
Hypothesis Hbin : forall k, In k bins -> sources M S mode X ds k.
Hypothesis Heig : forall j, (j < length bins)%nat -> is_eigh M (C_hat S bins X j) (fst (eigh (C_hat S bins X j))) (snd (eigh (C_hat S bins X j))).
Let e j := snd (eigh (C_hat S bins X j)).
Let w j := fst (eigh (C_hat S bins X j)).

Lemma noise_span j v : (1 <= K < M)%nat -> (j < length bins)%nat -> (forall q, (q < M - K)%nat -> cip M (fun i => e j i q) v = C0) <-> in_span M mode (nth j bins 0%nat) ds v.
Proof.
  intros HK Hj. destruct (Hbin (nth j bins 0%nat) (nth_In bins 0%nat Hj)) as [(s2 & P & Hc & Hp) Ind]. fold K in Hc, Hp, Ind. specialize (Heig j Hj). split.
  - intros H. exact (orthogonal_combination M K _ _ P s2 _ _ Hc Hp Heig Ind v H).
  - intros [y Hy]. exact (combination_orthogonal M K _ _ P s2 _ _ Hc Hp Heig v y Hy).
Qed.
Lemma cip_zero_conj (a b : nat -> C) : cip M a b = C0 -> cip M b a = C0.
Proof. intros H. rewrite <- (cip_conj M a b), H. apply C_eq; cbn; ring. Qed.
Lemma block j q f0 n (x : nat -> C) (v : nat -> C) : (q < M - K)%nat -> (forall i, (i < M)%nat -> v i = csum K (fun p => Cmul (x p) (signal_space M S K bins X eigh jm i p))) ->
  csum K (fun p => Cmul (Conj (x p)) (tops_matrix fs c nfft dim L G M S K bins X argmax eigh f0 n p (j * (M - K) + q)%nat)) = cip M (fun i => Cmul (phi fs c nfft dim L G f0 j i n) (v i)) (fun i => e j i q).
Proof.
  intros Hq Hv. unfold tops_matrix. cbv zeta. rewrite Nat.div_add_l by lia. rewrite Nat.div_small by exact Hq. rewrite Nat.add_0_r. rewrite (Nat.add_comm (j * (M - K))), Nat.mod_add by lia. rewrite Nat.mod_small by exact Hq. fold jm.
  transitivity (csum M (fun m => csum K (fun p => Cmul (Conj (x p)) (Cmul (Conj (Cmul (phi fs c nfft dim L G f0 j m n) (signal_space M S K bins X eigh jm m p))) (noise_space S bins X eigh j m q))))).
  - rewrite csum_swap. apply csum_ext. intros p _. now rewrite csum_scal.
  - unfold cip. apply csum_ext. intros m Hm. rewrite Hv by exact Hm. unfold noise_space. fold (e j). rewrite Conj_mul, csum_conj.
    transitivity (Cmul (csum K (fun p => Conj (Cmul (x p) (signal_space M S K bins X eigh jm m p)))) (Cmul (Conj (phi fs c nfft dim L G f0 j m n)) (e j m q))); [|ring]. rewrite <- csum_scal_r. apply csum_ext. intros p _. rewrite !Conj_mul. ring.
Qed.
Lemma column col : (1 <= K < M)%nat -> (col < J)%nat -> exists j q, (j < length bins - 1)%nat /\ (q < M - K)%nat /\ col = (j * (M - K) + q)%nat.
Proof.
  intros HK Hc. exists (col / (M - K))%nat, (col mod (M - K))%nat. pose proof (Nat.mod_upper_bound col (M - K) ltac:(lia)). pose proof (Nat.div_mod col (M - K) ltac:(lia)). split; [|split; [assumption|lia]]. apply Nat.div_lt_upper_bound; [lia|exact Hc].
Qed.
Hypothesis Hs : forall f0 n, (n < N)%nat -> smallest_ok K J (tops_matrix fs c nfft dim L G M S K bins X argmax eigh f0 n) (smallest K J (tops_matrix fs c nfft dim L G M S K bins X argmax eigh f0 n)).
Lemma tops_exact vs : tops fs c nfft dim L G M S N K bins X argmax eigh smallest = Some vs -> exists f0, nth_error bins jm = Some f0 /\ length vs = N /\ forall n, (n < N)%nat ->
  (nth n vs (Some 0) = None <-> exists v : nat -> C, (exists i, (i < M)%nat /\ v i <> C0) /\ in_span M mode f0 ds v /\
    forall j, (j < length bins - 1)%nat -> in_span M mode (nth j bins 0%nat) ds (fun i => Cmul (phi fs c nfft dim L G f0 j i n) (v i))).
Proof.
  intros H. unfold tops in H. destruct (Nat.ltb_spec (length bins) 2) as [|Hb]; [discriminate|]. destruct (Nat.eqb_spec K 0) as [|K0]; [discriminate|]. cbn [orb] in H. destruct (Nat.leb_spec M K) as [|KM]; [discriminate|]. fold jm in H. destruct (nth_error bins jm) as [f0|] eqn:EF; [|discriminate]. cbn [bind] in H.
  match type of H with Some ?x = Some _ => assert (EV : vs = x) by congruence end. clear H. exists f0. split; [reflexivity|]. subst vs. split; [now rewrite map_length, seq_length|]. intros n Hn. rewrite nth_map_seq by exact Hn. cbv zeta. fold J.
  assert (Hjm : (jm < length bins)%nat) by (apply nth_error_Some; congruence). assert (Ef : nth jm bins 0%nat = f0) by (now apply nth_error_nth). assert (HK : (1 <= K < M)%nat) by lia. pose proof (Heig jm Hjm) as (On & Cp & _ & _). fold (e jm) in On, Cp.
  match goal with |- context [Req_EM_T ?s0 0] => set (s := s0) end. assert (E : (if Req_EM_T s 0 then None else Some (/ s)) = None <-> s = 0) by (destruct (Req_EM_T s 0); split; intros; congruence). rewrite E. clear E. pose proof (Hs f0 n Hn : s = 0 <-> _) as Q. rewrite Q. clear Q s. split.
  - intros (x & (p & Hp & Np) & Hx). set (v := fun i => csum K (fun r => Cmul (Conj (x r)) (signal_space M S K bins X eigh jm i r))).
    assert (Vp : forall q, (q < M)%nat -> cip M (fun i => e jm i q) v = if (q <? M - K)%nat then C0 else Conj (x (q - (M - K))%nat)).
    { intros q Hq. unfold cip, v. transitivity (csum K (fun r => Cmul (Conj (x r)) (cip M (fun i => e jm i q) (fun i => e jm i (M - K + r)%nat)))).
      - unfold cip. rewrite (csum_ext M _ (fun i => csum K (fun r => Cmul (Conj (x r)) (Cmul (Conj (e jm i q)) (e jm i (M - K + r)%nat))))).
        + rewrite csum_swap. apply csum_ext. intros r _. now rewrite csum_scal.
        + intros i _. rewrite <- csum_scal. apply csum_ext. intros r _. unfold signal_space. fold (e jm). ring.
      - destruct (Nat.ltb_spec q (M - K)) as [Q|Q].
        + apply csum_zero_ext. intros r Hr. rewrite On by lia. unfold delta. destruct (Nat.eqb_spec q (M - K + r)); [lia|ring].
        + rewrite (csum_delta K (q - (M - K))%nat); [|lia|].
          * rewrite On by lia. unfold delta. destruct (Nat.eqb_spec q (M - K + (q - (M - K)))); [ring|lia].
          * intros r Hr Hne. rewrite On by lia. unfold delta. destruct (Nat.eqb_spec q (M - K + r)); [lia|ring]. }
    exists v. split; [|split].
    + destruct (vector_zero_dec M v) as [|Z]; [assumption|]. exfalso. apply Np. specialize (Vp (M - K + p)%nat ltac:(lia)). destruct (Nat.ltb_spec (M - K + p) (M - K)); [lia|]. replace (M - K + p - (M - K))%nat with p in Vp by lia.
      unfold cip in Vp. rewrite csum_zero_ext in Vp by (intros i Hi; rewrite Z by exact Hi; ring). apply (f_equal Conj) in Vp. rewrite Conj_conj in Vp. rewrite <- Vp. apply C_eq; cbn; ring.
    + rewrite <- Ef. apply noise_span; [exact HK|exact Hjm|]. intros q Hq. rewrite Vp by lia. destruct (Nat.ltb_spec q (M - K)); [reflexivity|lia].
    + intros j Hj. apply noise_span; [exact HK|lia|]. intros q Hq. apply cip_zero_conj. rewrite <- (block j q f0 n (fun r => Conj (x r)) v Hq (fun i _ => eq_refl)). rewrite (csum_ext K _ (fun r => Cmul (x r) (tops_matrix fs c nfft dim L G M S K bins X argmax eigh f0 n r (j * (M - K) + q)%nat))) by (intros; now rewrite Conj_conj).
      apply Hx. unfold J. destruct (length bins - 1)%nat; nia.
  - intros (v & Nz & HF & HP). rewrite <- Ef in HF. pose proof (proj2 (noise_span jm v HK Hjm) HF) as HN.
    set (x := fun p => cip M (fun i => e jm i (M - K + p)%nat) v).
    assert (Hv : forall i, (i < M)%nat -> v i = csum K (fun p => Cmul (x p) (signal_space M S K bins X eigh jm i p))).
    { intros i Hi. etransitivity; [symmetry; exact (expand M (e jm) v i Cp Hi)|]. transitivity (csum (M - K + K) (fun q => Cmul (e jm i q) (cip M (fun j => e jm j q) v))); [f_equal; lia|]. rewrite csum_split. rewrite csum_zero_ext by (intros q Hq; rewrite HN by exact Hq; ring). transitivity (csum K (fun p => Cmul (e jm i (M - K + p)%nat) (cip M (fun j => e jm j (M - K + p)%nat) v))); [ring|]. apply csum_ext. intros p _. unfold x, signal_space. fold (e jm). ring. }
    exists (fun p => Conj (x p)). split.
    + destruct (vector_zero_dec K x) as [(p & Hp & Np)|Z].
      * exists p. split; [exact Hp|]. intros Q. apply Np. apply (f_equal Conj) in Q. rewrite Conj_conj in Q. rewrite Q. apply C_eq; cbn; ring.
      * exfalso. destruct Nz as (i & Hi & Ni). apply Ni. rewrite Hv by exact Hi. apply csum_zero_ext. intros p Hp. rewrite Z by exact Hp. ring.
    + intros col Hc. destruct (column col HK Hc) as (j & q & Hj & Hq & ->). rewrite (block j q f0 n x v Hq Hv). apply cip_zero_conj. apply (proj2 (noise_span j _ HK ltac:(lia)) (HP j Hj) q Hq).
Qed.
End Run.

(** The test that is made: the value of a direction is infinite exactly when some combination of the steering vectors of the sources at the reference
    bin is turned, by the phases of the direction at bin number [j], into a combination of those at the [j]-th selected bin, for all but
    the last of the selected bins. *)
Theorem C147_exact : forall fs c nfft dim L G M S N bins X argmax eigh smallest ds vs, let K := length ds in let J := ((M - K) * (length bins - 1))%nat in let mode := far_mode fs c nfft dim L G in
  (K <= J)%nat -> (forall k, In k bins -> sources M S mode X ds k) ->
  (forall j, (j < length bins)%nat -> is_eigh M (C_hat S bins X j) (fst (eigh (C_hat S bins X j))) (snd (eigh (C_hat S bins X j)))) ->
  (forall D, smallest_ok K J D (smallest K J D)) -> tops fs c nfft dim L G M S N K bins X argmax eigh smallest = Some vs ->
  exists f0, nth_error bins (tops_max M S bins X argmax) = Some f0 /\ length vs = N /\ forall n, (n < N)%nat ->
  (nth n vs (Some 0) = None <-> exists v : nat -> C, (exists i, (i < M)%nat /\ v i <> C0) /\ in_span M mode f0 ds v /\
    forall j, (j < length bins - 1)%nat -> in_span M mode (nth j bins 0%nat) ds (fun i => Cmul (phi fs c nfft dim L G f0 j i n) (v i))).
Proof. intros fs c nfft dim L G M S N bins X argmax eigh smallest ds vs K J mode HJ Hb He Hs H. exact (tops_exact fs c nfft dim L G M S N bins X argmax eigh smallest ds HJ Hb He (fun f0 n _ => Hs _) vs H). Qed.
(** When the selected bins are the first bins of the transform, in order, the value is infinite at every source. *)
Theorem C147_sources : forall fs c nfft dim L G M S N bins X argmax eigh smallest ds vs, let K := length ds in let J := ((M - K) * (length bins - 1))%nat in let mode := far_mode fs c nfft dim L G in
  (K <= J)%nat -> (forall k, In k bins -> sources M S mode X ds k) -> bins = seq 0 (length bins) -> (forall d, In d ds -> (d < N)%nat) ->
  (forall j, (j < length bins)%nat -> is_eigh M (C_hat S bins X j) (fst (eigh (C_hat S bins X j))) (snd (eigh (C_hat S bins X j)))) ->
  (forall D, smallest_ok K J D (smallest K J D)) -> tops fs c nfft dim L G M S N K bins X argmax eigh smallest = Some vs ->
  forall d, In d ds -> nth d vs (Some 0) = None.
Proof.
  intros fs c nfft dim L G M S N bins X argmax eigh smallest ds vs K J mode HJ Hb Hseq HN He Hs H d Hd. assert (HM : (1 <= M)%nat). { unfold tops in H. destruct (length bins <? 2)%nat; [discriminate|]. destruct (Nat.eqb_spec K 0); [discriminate|]. cbn [orb] in H. destruct (Nat.leb_spec M K); [discriminate|lia]. }
  destruct (C147_exact fs c nfft dim L G M S N bins X argmax eigh smallest ds vs HJ Hb He Hs H) as (f0 & _ & _ & Q). apply Q; [now apply HN|]. fold mode. destruct (In_nth ds d 0%nat Hd) as (p & Hp & Ep).
  assert (Sp : forall k, in_span M mode k ds (fun i => mode k i d)).
  { intros k. exists (fun q => delta p q). intros i _. rewrite (csum_delta (length ds) p); [unfold delta, steer; rewrite Nat.eqb_refl, Ep; ring|exact Hp|]. intros r _ Hr. unfold delta. destruct (Nat.eqb_spec p r); [congruence|ring]. }
  exists (fun i => mode f0 i d). split; [|split; [apply Sp|]].
  - exists 0%nat. split; [lia|]. intros Z. pose proof (cis_abs2 (2 * PI * fs * INR f0 / INR nfft * (proj dim L G 0 d / c))) as A. change (cis (2 * PI * fs * INR f0 / INR nfft * (proj dim L G 0 d / c))) with (mode f0 0%nat d) in A. rewrite Z in A. unfold Cabs2 in A. cbn in A. lra.
  - intros j Hj. rewrite Hseq, seq_nth by lia. cbn [plus]. destruct (Sp j) as [y Hy]. exists y. intros i Hi. rewrite <- Hy by exact Hi. unfold mode, far_mode, phi. rewrite <- cis_add. f_equal. unfold Rdiv. ring.
Qed.
Print Assumptions C147_exact.
Print Assumptions C147_sources.

(** ** Two microphones a quarter of a wavelength apart at the first bin, one source along the array *)
Definition duo_L (m t : nat) : R := if (m =? 1)%nat && (t =? 0)%nat then 1 else 0.
Definition duo_G (n t : nat) : R := if (n =? t)%nat then 1 else 0.
Definition duo_mode := far_mode 1 1 4 2 duo_L duo_G.
Definition duo_X (i k s : nat) : C := duo_mode k i 0.
Definition row_norm (rows cols : nat) (D : cmat) : R := bsum cols (fun c => Cabs2 (D 0%nat c)).
Lemma duo_proj m n : (m < 2)%nat -> (n < 2)%nat -> proj 2 duo_L duo_G m n = if (m =? 1)%nat && (n =? 0)%nat then 1 else 0.
Proof. intros Hm Hn. unfold proj, duo_L, duo_G. cbn [bsum]. destruct m as [|[|m]]; [| |lia]; (destruct n as [|[|n]]; [| |lia]); cbn; ring. Qed.
Lemma duo_first k n : (n < 2)%nat -> duo_mode k 0 n = C1.
Proof. intros Hn. unfold duo_mode, far_mode. rewrite duo_proj by lia. cbn [Nat.eqb andb]. rewrite <- cis_0. f_equal. unfold Rdiv. ring. Qed.
Lemma duo_front k m : (m < 2)%nat -> duo_mode k m 1 = C1.
Proof. intros Hm. unfold duo_mode, far_mode. rewrite duo_proj by lia. cbn [Nat.eqb]. rewrite andb_false_r. rewrite <- cis_0. f_equal. unfold Rdiv. ring. Qed.
Lemma duo_late k : duo_mode k 1 0 = cis (INR k * (PI / 2)).
Proof. unfold duo_mode, far_mode. rewrite duo_proj by lia. cbn [Nat.eqb andb]. f_equal. cbn [INR]. field. Qed.
Lemma duo_cov k i l : covariance 1 duo_X k i l = Cmul (duo_mode k i 0) (Conj (duo_mode k l 0)).
Proof. unfold covariance, duo_X. rewrite csum_S, csum_0. unfold Cscal. cbn [INR]. rewrite Rinv_1. apply C_eq; cbn; ring. Qed.
Lemma duo_sources k : sources 2 1 duo_mode duo_X [0%nat] k.
Proof.
  split.
  - exists 0, (fun _ _ => C1). split.
    + intros i l Hi Hl. rewrite duo_cov. cbn [length]. rewrite !csum_S, !csum_0. unfold steer. cbn [nth]. unfold Cscal. destruct (duo_mode k i 0), (duo_mode k l 0). apply C_eq; cbn; ring.
    + intros x (p & Hp & Np). cbn in Hp. assert (p = 0%nat) by lia. subst p. cbn [length]. rewrite !csum_S, !csum_0. assert (0 < Cabs2 (x 0%nat)).
      { destruct (Req_EM_T (Cabs2 (x 0%nat)) 0) as [Z|Z]; [now apply Cabs2_zero in Z|]. pose proof (Cabs2_nonneg (x 0%nat)). lra. }
      unfold Cabs2 in H. destruct (x 0%nat) as [a b]. cbn in *. nra.
  - intros x H p Hp. cbn in Hp. assert (p = 0%nat) by lia. subst p. specialize (H 0%nat ltac:(lia)). cbn [length] in H. rewrite csum_S, csum_0 in H. unfold steer in H. cbn [nth] in H. rewrite duo_first in H by lia. rewrite <- H. ring.
Qed.
Lemma duo_eigh bins j : is_eigh 2 (C_hat 1 bins duo_X j) (fst (pair_eigh (C_hat 1 bins duo_X j))) (snd (pair_eigh (C_hat 1 bins duo_X j))).
Proof.
  unfold C_hat. set (k := nth j bins 0%nat). pose proof (cis_abs2 (INR k * (PI / 2))) as PL. rewrite <- duo_late in PL. pose proof PL as PL'. unfold Cabs2 in PL. apply (rank_one_eigh _ 1 (duo_mode k 1 0)); [lra|exact PL'| | | |]; rewrite duo_cov, ?duo_first by lia; unfold Cscal; destruct (duo_mode k 1 0) as [x y]; cbn in PL; apply C_eq; cbn; nra.
Qed.
Lemma row_norm_ok cols D : smallest_ok 1 cols D (row_norm 1 cols D).
Proof.
  unfold smallest_ok, row_norm. split.
  - intros H. exists (fun _ => C1). split; [exists 0%nat; split; [lia|intros Q; injection Q; lra]|]. intros col Hc. rewrite csum_S, csum_0. assert (Z : D 0%nat col = C0) by (apply Cabs2_zero; exact (AuxivaProofs.bsum_zero_each cols (fun c => Cabs2 (D 0%nat c)) (fun _ => Cabs2_nonneg _) H col Hc)). rewrite Z. ring.
  - intros (x & (p & Hp & Np) & H). assert (p = 0%nat) by lia. subst p. apply bsum_zero_ext. intros c Hc. specialize (H c Hc). rewrite csum_S, csum_0 in H. assert (Q : Cmul (x 0%nat) (D 0%nat c) = C0) by (rewrite <- H; ring). apply C_integral in Q; [|exact Np]. rewrite Q. unfold Cabs2. cbn. ring.
Qed.
Example C147_sources_case : exists vs, tops 1 1 4 2 duo_L duo_G 2 1 2 1 [0; 1]%nat duo_X (fun _ => 1%nat) pair_eigh row_norm = Some vs /\ nth 0 vs (Some 0) = None.
Proof.
  eexists. split; [unfold tops; reflexivity|]. refine (C147_sources 1 1 4 2 duo_L duo_G 2 1 2 [0; 1]%nat duo_X (fun _ => 1%nat) pair_eigh row_norm [0%nat] _ _ (fun k _ => duo_sources k) eq_refl _ (fun j _ => duo_eigh _ j) (fun D => row_norm_ok _ D) eq_refl 0%nat (or_introl eq_refl)); [cbn; lia|]. intros d [<-|[]]. lia.
Qed.
(** With other bins the phases do not belong to the bins: with bins 1 and 2 a source without noise is missed, and the only infinite value is at a
    direction without a source. *)
Theorem C147_bins_refuted : exists fs c nfft dim L G M S N bins X argmax eigh smallest ds vs n, let K := length ds in let J := ((M - K) * (length bins - 1))%nat in
  (K <= J)%nat /\ (forall k, In k bins -> sources M S (far_mode fs c nfft dim L G) X ds k) /\
  (forall j, (j < length bins)%nat -> is_eigh M (C_hat S bins X j) (fst (eigh (C_hat S bins X j))) (snd (eigh (C_hat S bins X j)))) /\
  (forall D, smallest_ok K J D (smallest K J D)) /\ bins = seq 1 (length bins) /\ tops fs c nfft dim L G M S N K bins X argmax eigh smallest = Some vs /\ (n < N)%nat /\
  (forall d, In d ds -> (d < N)%nat /\ nth d vs (Some 0) <> None) /\ ~ In n ds /\ nth n vs (Some 0) = None.
Proof.
  exists 1, 1, 4%nat, 2%nat, duo_L, duo_G, 2%nat, 1%nat, 2%nat, [1; 2]%nat, duo_X, (fun _ => 0%nat), pair_eigh, row_norm, [0%nat]. eexists. exists 1%nat. cbv zeta.
  split; [cbn; lia|]. split; [intros k _; apply duo_sources|]. split; [intros j _; apply duo_eigh|]. split; [intros D; apply row_norm_ok|]. split; [reflexivity|]. split; [unfold tops; reflexivity|]. split; [lia|].
  match goal with |- context [nth 1 ?l _] => set (vs := l) end.
  destruct (C147_exact 1 1 4 2 duo_L duo_G 2 1 2 [1; 2]%nat duo_X (fun _ => 0%nat) pair_eigh row_norm [0%nat] vs ltac:(cbn; lia) (fun k _ => duo_sources k) (fun j _ => duo_eigh _ j) (fun D => row_norm_ok _ D) eq_refl) as (f0 & Ef & _ & Q). unfold tops_max in Ef. cbn [nth_error] in Ef. assert (f0 = 1%nat) by congruence. subst f0. clear Ef.
  split; [|split; [intros [|[]]; discriminate|]].
  - intros d [<-|[]]. split; [lia|]. rewrite (Q 0%nat ltac:(lia)). intros (v & (i & Hi & Ni) & [x Hx] & HP). destruct (HP 0%nat ltac:(cbn; lia)) as [y Hy]. cbn [nth length] in *.
    pose proof (Hx 0%nat ltac:(lia)) as X0. pose proof (Hx 1%nat ltac:(lia)) as X1. pose proof (Hy 0%nat ltac:(lia)) as Y0. pose proof (Hy 1%nat ltac:(lia)) as Y1. rewrite csum_S, csum_0 in X0, X1, Y0, Y1. unfold steer in X0, X1, Y0, Y1. cbn [nth] in X0, X1, Y0, Y1. fold duo_mode in X0, X1, Y0, Y1.
    rewrite duo_first in X0, Y0 by lia. rewrite duo_late in X1, Y1. unfold phi in Y0, Y1. rewrite duo_proj in Y0, Y1 by lia. cbn [Nat.eqb andb] in Y0, Y1. rewrite Rmult_0_r, cis_0 in Y0.
    replace (1 / INR 4 / 1 * 2 * PI * 1 * (INR 0 - INR 1) * 1) with (- (PI / 2)) in Y1 by (cbn [INR]; field). replace (INR 1 * (PI / 2)) with (PI / 2) in X1, Y1 by (cbn [INR]; ring).
    rewrite cis_opp in Y1. assert (CI : cis (PI / 2) = (0, 1)) by (unfold cis; now rewrite cos_PI2, sin_PI2). rewrite CI in X1, Y1. rewrite X1 in Y1. rewrite X0 in Y0. destruct (x 0%nat) as [a b] eqn:Ex, (y 0%nat) as [a' b'].
    assert (a = 0 /\ b = 0) as [-> ->]. { pose proof (f_equal fst Y0) as A1. pose proof (f_equal snd Y0) as A2. pose proof (f_equal fst Y1) as A3. pose proof (f_equal snd Y1) as A4. cbn in A1, A2, A3, A4. split; lra. }
    apply Ni. destruct i as [|[|i]]; [rewrite X0|rewrite X1|lia]; apply C_eq; cbn; ring.
  - rewrite (Q 1%nat ltac:(lia)). exists (fun i => duo_mode 1 i 0). split; [exists 0%nat; split; [lia|rewrite duo_first by lia; intros W; injection W; lra]|].
    assert (Sp : in_span 2 duo_mode 1 [0%nat] (fun i => duo_mode 1 i 0)) by (exists (fun _ => C1); intros i Hi; cbn [length]; rewrite csum_S, csum_0; unfold steer; cbn [nth]; ring).
    split; [exact Sp|]. intros j Hj. cbn in Hj. assert (j = 0%nat) by lia. subst j. cbn [nth]. destruct Sp as [y Hy]. exists y. intros i Hi. rewrite <- Hy by exact Hi. unfold phi. rewrite duo_proj by lia. cbn [Nat.eqb]. rewrite andb_false_r, Rmult_0_r, cis_0. ring.
Qed.
Print Assumptions C147_bins_refuted.
