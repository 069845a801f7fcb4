(** Property C122. *)
From Coq Require Import List ZArith Lia Reals Lra Bool Permutation Sorting.Sorted.
From Verif Require Import Base Vec Sum Cpx BaseProofs GridModel GridProps SubspaceProofs WienerProofs SyncModel SyncProps PcModel PcProofs PcProps MdsModel MdsProofs.
Import ListNotations.
Local Open Scope R_scope.

Lemma mean_zero : forall P d r, P <> [] -> (r < d)%nat -> bsum (length P) (fun k => nth r (nth k P []) 0 - nth r (vmean d P) 0) = 0.
Proof.
  intros P d r HP Hr. rewrite bsum_minus, bsum_const. unfold vmean. rewrite nth_map_seq by auto. assert (HN : INR (length P) <> 0) by (apply not_0_INR; destruct P; cbn; [congruence|lia]).
  assert (E : bsum (length P) (fun k => nth r (nth k P []) 0) = Rsum (map (fun v => nth r v 0) P)).
  { rewrite bsum_Rsum. f_equal. apply nth_ext with (d := 0) (d' := 0); [now rewrite !map_length, seq_length|]. intros k Hk. rewrite map_length, seq_length in Hk. rewrite nth_map_seq by auto. rewrite (nth_indep (map _ P) 0 (nth r ([] : vec) 0)) by (now rewrite map_length). now rewrite (map_nth (fun v : vec => nth r v 0)). }
  rewrite E. field. exact HN.
Qed.
Section Mds.
Variables (eig : nat -> matrix -> (nat -> R) * matrix) (argsort : list R -> list nat) (d : nat) (D : matrix) (n : nat).
Hypothesis Hsort : is_argsort argsort.
Let s := fst (eig n (gram n D)).
Let U := snd (eig n (gram n D)).
Let o := rev (argsort (map s (seq 0 n))).
Lemma mds_defined : (0 < n)%nat -> (forall j, (j < n)%nat -> 0 <= s j) ->
  classical_mds eig argsort d n D = Some (map (fun i => map (fun j => sqrt (s (nth j o 0%nat)) * U i (nth j o 0%nat)) (seq 0 (Nat.min d n))) (seq 0 n)).
Proof.
  intros Hn Hs. unfold classical_mds. destruct (Nat.eqb_spec n 0) as [|_]; [lia|]. rewrite (surjective_pairing (eig n (gram n D))). fold s. fold U. fold o.
  destruct (existsb _ _) eqn:E; [|reflexivity]. apply existsb_exists in E. destruct E as (j & Hj & E). apply in_seq in Hj. change ((if Rlt_dec (s (nth j o 0%nat)) 0 then true else false) = true) in E.
  assert (Hl : s (nth j o 0%nat) < 0) by (destruct (Rlt_dec (s (nth j o 0%nat)) 0); [assumption|discriminate E]). exfalso. specialize (Hs (nth j o 0%nat)). assert (nth j o 0 < n)%nat by (apply order_lt; [apply order_perm; exact Hsort|lia]). lra || (specialize (Hs H); lra).
Qed.
Lemma mds_dot : forall X i j, (forall k, (k < n)%nat -> 0 <= s k) -> classical_mds eig argsort d n D = Some X -> (i < n)%nat -> (j < n)%nat ->
  length X = n /\ length (nth i X []) = Nat.min d n /\ dot (nth i X []) (nth j X []) = bsum (Nat.min d n) (fun a => s (nth a o 0%nat) * (U i (nth a o 0%nat) * U j (nth a o 0%nat))).
Proof.
  intros X i j Hs H Hi Hj. rewrite mds_defined in H by (auto; lia). apply some_inj in H. subst X. split; [now rewrite map_length, seq_length|]. set (row := fun i => map (fun j => sqrt (s (nth j o 0%nat)) * U i (nth j o 0%nat)) (seq 0 (Nat.min d n))).
  assert (EN : forall a, (a < n)%nat -> nth a (map row (seq 0 n)) [] = row a). { intros a Ha. rewrite (nth_indep _ [] (row 0%nat)) by (now rewrite map_length, seq_length). now rewrite (map_nth row), seq_nth. }
  rewrite !EN by auto. split; [unfold row; now rewrite map_length, seq_length|]. rewrite (dot_bsum _ _ (Nat.min d n)) by (unfold row; now rewrite map_length, seq_length). apply bsum_ext. intros a Ha. unfold row. rewrite !nth_map_seq by auto.
  assert (Hp : 0 <= s (nth a o 0%nat)) by (apply Hs; apply order_lt; [apply order_perm; exact Hsort|lia]). rewrite <- (sqrt_def _ Hp) at 3. ring.
Qed.
End Mds.
(** Multidimensional scaling finds points with the given distances, if eigenvectors of the same nonzero
    eigenvalue are orthogonal: in particular if the nonzero eigenvalues are all different. *)
Theorem C122_mds : forall eig argsort d P D, is_argsort argsort -> P <> [] -> Forall (fun p => length p = d) P ->
  (forall i j, (i < length P)%nat -> (j < length P)%nat -> D i j = vdist (nth i P []) (nth j P []) * vdist (nth i P []) (nth j P [])) ->
  let n := length P in let s := fst (eig n (gram n D)) in let U := snd (eig n (gram n D)) in
  is_eig n (gram n D) s U ->
  (forall i j, (i < n)%nat -> (j < n)%nat -> i <> j -> s i = s j -> s i <> 0 -> bsum n (fun k => U k i * U k j) = 0) ->
  exists X, from_edm eig argsort d n n D Mds = Some X /\ length X = n /\ Forall (fun x => length x = Nat.min d n) X /\
    forall i j, (i < n)%nat -> (j < n)%nat -> vdist (nth i X []) (nth j X []) = vdist (nth i P []) (nth j P []).
Proof.
  intros eig argsort d P D Hsort HP HL HD n s U HE HO. assert (Hn : (0 < n)%nat) by (unfold n; destruct P; cbn; [congruence|lia]).
  rewrite Forall_forall in HL. assert (LP : forall i, (i < n)%nat -> length (nth i P []) = d) by (intros i Hi; apply HL; now apply nth_In).
  set (q := fun r i => nth r (nth i P []) 0 - nth r (vmean d P) 0). assert (Hq : forall r, (r < d)%nat -> bsum n (fun k => q r k) = 0) by (intros r Hr; now apply mean_zero).
  assert (HDq : forall i j, (i < n)%nat -> (j < n)%nat -> D i j = bsum d (fun r => (q r i - q r j) * (q r i - q r j))). { intros i j Hi Hj. rewrite HD by auto. rewrite vdist_sq. rewrite (vsq_bsum _ _ d) by auto. apply bsum_ext. intros r _. unfold q. ring. }
  pose proof (gram_eq n d q D Hn Hq HDq) as HG. pose proof HE as (HE1 & HE2 & V & HV1 & HV2).
  assert (Hpos : forall j, (j < n)%nat -> 0 <= s j).
  { intros j Hj. assert (E : s j = bsum d (fun r => bsum n (fun i => q r i * U i j) * bsum n (fun i => q r i * U i j))).
    - rewrite <- (Rmult_1_r (s j)), <- (HE2 j Hj), <- bsum_scal. transitivity (bsum n (fun i => bsum d (fun r => bsum n (fun k => q r i * U i j * (q r k * U k j))))).
      + apply bsum_ext. intros i Hi. rewrite <- Rmult_assoc, <- HE1 by auto. rewrite <- bsum_scal_r. rewrite bsum_swap. apply bsum_ext. intros k Hk. rewrite HG by auto. rewrite <- !bsum_scal_r. apply bsum_ext. intros r _. ring.
      + rewrite bsum_swap. apply bsum_ext. intros r _. rewrite bsum_mul. reflexivity.
    - rewrite E. apply bsum_nonneg. intros r _. nra. }
  set (o := rev (argsort (map s (seq 0 n)))). assert (Po : Permutation o (seq 0 n)) by (apply order_perm; exact Hsort).
  assert (Hzero : forall a, (d <= a)%nat -> (a < n)%nat -> s (nth a o 0%nat) = 0).
  { intros a Hda Ha. destruct (Req_dec (s (nth a o 0%nat)) 0) as [|Hne]; [auto|]. exfalso.
    apply (few_eigenvalues n (gram n D) s U d (fun i r => q r i) q (fun b => nth b o 0%nat) HE).
    - intros i j Hi Hj. now apply HG.
    - intros b Hb. assert (Hb2 : (b < n)%nat) by lia. split; [apply order_lt; auto|]. pose proof (order_desc argsort n s Hsort b a ltac:(lia) Ha) as Q. fold o in Q. pose proof (Hpos (nth a o 0%nat) ltac:(apply order_lt; auto)). lra.
    - intros b c Hb Hc E. pose proof (order_inj n o b c Po ltac:(lia) ltac:(lia)) as Q. rewrite E, Nat.eqb_refl in Q. symmetry in Q. now apply Nat.eqb_eq in Q. }
  assert (HS : forall i j, (i < n)%nat -> (j < n)%nat -> gram n D i j = gram n D j i) by (intros i j Hi Hj; rewrite !HG by auto; apply bsum_ext; intros; ring).
  eexists. split; [unfold from_edm; rewrite Nat.eqb_refl; cbn [negb]; apply mds_defined; auto|]. fold s U o.
  set (X := map _ (seq 0 n)). assert (EX : classical_mds eig argsort d n D = Some X) by (apply mds_defined; auto).
  assert (LX : length X = n) by (unfold X; now rewrite map_length, seq_length). split; [exact LX|].
  assert (LXi : forall i, (i < n)%nat -> length (nth i X []) = Nat.min d n) by (intros i Hi; apply (mds_dot eig argsort d D n Hsort X i i); auto).
  split; [apply Forall_forall; intros x Hx; apply (In_nth _ _ []) in Hx; destruct Hx as (i & Hi & <-); apply LXi; lia|].
  assert (HX : forall i j, (i < n)%nat -> (j < n)%nat -> dot (nth i X []) (nth j X []) = gram n D i j).
  { intros i j Hi Hj. destruct (mds_dot eig argsort d D n Hsort X i j Hpos EX Hi Hj) as (_ & _ & ->). fold s U o. rewrite <- (spectral n (gram n D) s U HE HS HO i j Hi Hj). rewrite <- (bsum_order n o (fun a => s a * (U i a * U j a)) Po).
    transitivity (bsum (Nat.min d n + (n - Nat.min d n)) (fun k => s (nth k o 0%nat) * (U i (nth k o 0%nat) * U j (nth k o 0%nat)))); [|replace (Nat.min d n + (n - Nat.min d n))%nat with n by lia; reflexivity]. rewrite bsum_split. rewrite (bsum_zero_ext (n - Nat.min d n)); [rewrite Rplus_0_r; reflexivity|]. intros a Ha. rewrite Hzero by lia. ring. }
  intros i j Hi Hj. unfold vdist, vnorm. f_equal. rewrite <- (vdist_sq (nth i P [])), <- HD by auto. rewrite vsq_vminus by (rewrite !LXi; auto). unfold vsq. rewrite !HX by auto. rewrite !HG by auto. rewrite HDq by auto. rewrite <- bsum_scal, <- bsum_minus, <- bsum_plus. apply bsum_ext. intros r _. ring.
Qed.

(** An equilateral triangle *)
Definition tri_D : matrix := fun i j => if Nat.eqb i j then 0 else 2.
Definition tri_s (j : nat) : R := match j with 0%nat | 1%nat => 1 | _ => 0 end.
Definition tri_U : matrix := fun i j => match j, i with
  | 0%nat, 0%nat => sqrt (/ 2) | 0%nat, 1%nat => - sqrt (/ 2) | 0%nat, _ => 0
  | 1%nat, 0%nat => sqrt (/ 2) | 1%nat, 1%nat => 0 | 1%nat, _ => - sqrt (/ 2)
  | _, _ => sqrt (/ 3) end.
Definition tri_V : matrix := fun i j => match i, j with
  | 0%nat, 1%nat => - (2 / 3) / sqrt (/ 2) | 0%nat, _ => (1 / 3) / sqrt (/ 2)
  | 1%nat, 2%nat => - (2 / 3) / sqrt (/ 2) | 1%nat, _ => (1 / 3) / sqrt (/ 2)
  | _, _ => (1 / 3) / sqrt (/ 3) end.
Definition tri_P : list vec := [[1; 0; 0]; [0; 1; 0]; [0; 0; 1]].
Lemma below3 : forall i, (i < 3)%nat -> i = 0%nat \/ i = 1%nat \/ i = 2%nat.
Proof. lia. Qed.
Lemma tri_dist : forall i j, (i < 3)%nat -> (j < 3)%nat -> tri_D i j = vdist (nth i tri_P []) (nth j tri_P []) * vdist (nth i tri_P []) (nth j tri_P []).
Proof. intros i j Hi Hj. rewrite vdist_sq. destruct (below3 i Hi) as [->|[->| ->]]; destruct (below3 j Hj) as [->|[->| ->]]; unfold tri_D, tri_P, vsq, dot, Rsum; cbn; ring. Qed.
Lemma tri_gram : forall i j, (i < 3)%nat -> (j < 3)%nat -> gram 3 tri_D i j = kron i j - / 3.
Proof. intros i j Hi Hj. unfold gram. rewrite dot_centering by lia. cbn [bsum]. rewrite !dot_centering_r by lia. cbn [bsum]. destruct (below3 i Hi) as [->|[->| ->]]; destruct (below3 j Hj) as [->|[->| ->]]; unfold tri_D, kron; cbn; field. Qed.
Lemma tri_eig : is_eig 3 (gram 3 tri_D) tri_s tri_U.
Proof.
  assert (Q2 : sqrt (/ 2) * sqrt (/ 2) = / 2) by (apply sqrt_def; lra). assert (Q3 : sqrt (/ 3) * sqrt (/ 3) = / 3) by (apply sqrt_def; lra). assert (P2 : 0 < sqrt (/ 2)) by (apply sqrt_lt_R0; lra). assert (P3 : 0 < sqrt (/ 3)) by (apply sqrt_lt_R0; lra).
  split; [|split].
  - intros i j Hi Hj. cbn [bsum]. rewrite !tri_gram by lia. destruct (below3 i Hi) as [->|[->| ->]]; destruct (below3 j Hj) as [->|[->| ->]]; unfold tri_s, tri_U, kron; cbn [Nat.eqb]; lra.
  - intros j Hj. cbn [bsum]. destruct (below3 j Hj) as [->|[->| ->]]; unfold tri_U; lra.
  - exists tri_V. split; intros i j Hi Hj; cbn [bsum]; destruct (below3 i Hi) as [->|[->| ->]]; destruct (below3 j Hj) as [->|[->| ->]]; unfold tri_U, tri_V, kron; cbn [Nat.eqb]; field; lra.
Qed.
(** Unit eigenvectors of a repeated eigenvalue that are not orthogonal: the distances of an equilateral triangle come out wrong. *)
Theorem C122_mds_repeated_refuted : exists eig argsort P D, is_argsort argsort /\ Forall (fun p => length p = 3%nat) P /\
  (forall i j, (i < length P)%nat -> (j < length P)%nat -> D i j = vdist (nth i P []) (nth j P []) * vdist (nth i P []) (nth j P [])) /\
  is_eig (length P) (gram (length P) D) (fst (eig (length P) (gram (length P) D))) (snd (eig (length P) (gram (length P) D))) /\
  exists X, from_edm eig argsort 3 (length P) (length P) D Mds = Some X /\ vdist (nth 0 X []) (nth 1 X []) <> vdist (nth 0 P []) (nth 1 P []).
Proof.
  exists (fun _ _ => (tri_s, tri_U)), some_argsort, tri_P, tri_D. split; [apply some_argsort_ok|]. split; [repeat constructor|]. split; [exact tri_dist|]. split; [exact tri_eig|].
  assert (Hs : forall k, (k < 3)%nat -> 0 <= tri_s k) by (intros k Hk; destruct (below3 k Hk) as [->|[->| ->]]; cbn; lra). change (length tri_P) with 3%nat.
  set (eig := fun (_ : nat) (_ : matrix) => (tri_s, tri_U)). eexists. split; [unfold from_edm; rewrite Nat.eqb_refl; cbn [negb]; apply (mds_defined eig some_argsort 3 tri_D 3 some_argsort_ok); [lia|exact Hs]|].
  set (X := map _ (seq 0 3)). assert (EX : classical_mds eig some_argsort 3 3 tri_D = Some X) by (apply (mds_defined eig some_argsort 3 tri_D 3 some_argsort_ok); [lia|exact Hs]).
  assert (HX : forall i j, (i < 3)%nat -> (j < 3)%nat -> length (nth i X []) = 3%nat /\ dot (nth i X []) (nth j X []) = bsum 3 (fun a => tri_s a * (tri_U i a * tri_U j a))).
  { intros i j Hi Hj. destruct (mds_dot eig some_argsort 3 tri_D 3 some_argsort_ok X i j Hs EX Hi Hj) as (_ & L & E). split; [exact L|]. rewrite E. change (Nat.min 3 3) with 3%nat. exact (bsum_order 3 _ (fun a => tri_s a * (tri_U i a * tri_U j a)) (order_perm some_argsort 3 tri_s some_argsort_ok)). }
  intros E. assert (E2 : vdist (nth 0 X []) (nth 1 X []) * vdist (nth 0 X []) (nth 1 X []) = 2) by (rewrite E; rewrite <- (tri_dist 0 1) by lia; reflexivity). rewrite vdist_sq in E2. assert (LX : forall i, (i < 3)%nat -> length (nth i X []) = 3%nat) by (intros i Hi; exact (proj1 (HX i i Hi Hi))). assert (DX : forall i j, (i < 3)%nat -> (j < 3)%nat -> dot (nth i X []) (nth j X []) = bsum 3 (fun a => tri_s a * (tri_U i a * tri_U j a))) by (intros i j Hi Hj; exact (proj2 (HX i j Hi Hj))). rewrite vsq_vminus in E2 by (rewrite !LX by lia; reflexivity). unfold vsq in E2.
  rewrite !DX in E2 by lia. cbn [bsum] in E2. unfold tri_s, tri_U in E2. assert (Q2 : sqrt (/ 2) * sqrt (/ 2) = / 2) by (apply sqrt_def; lra). lra.
Qed.
(** Two points: eigenvalues d^2/2 and 0. *)
Definition two_U : matrix := fun i j => match j, i with 0%nat, 0%nat => sqrt (/ 2) | 0%nat, _ => - sqrt (/ 2) | _, _ => sqrt (/ 2) end.
Example ex_mds : exists X, from_edm (fun _ _ => (fun j => match j with 0%nat => 25 / 2 | _ => 0 end, two_U)) some_argsort 3 2 2 (fun i j => if Nat.eqb i j then 0 else 25) Mds = Some X /\ vdist (nth 0 X []) (nth 1 X []) = 5.
Proof.
  assert (Q2 : sqrt (/ 2) * sqrt (/ 2) = / 2) by (apply sqrt_def; lra).
  assert (HD : forall i j, (i < 2)%nat -> (j < 2)%nat -> (fun i j => if Nat.eqb i j then 0 else 25) i j = vdist (nth i [[1; 2; 3]; [4; 6; 3]] []) (nth j [[1; 2; 3]; [4; 6; 3]] []) * vdist (nth i [[1; 2; 3]; [4; 6; 3]] []) (nth j [[1; 2; 3]; [4; 6; 3]] [])).
  { intros i j Hi Hj. rewrite vdist_sq. assert (i = 0 \/ i = 1)%nat as [->| ->] by lia; assert (j = 0 \/ j = 1)%nat as [->| ->] by lia; unfold vsq, dot, Rsum; cbn; ring. }
  assert (HG : forall i j, (i < 2)%nat -> (j < 2)%nat -> gram 2 (fun i j => if Nat.eqb i j then 0 else 25) i j = if Nat.eqb i j then 25 / 4 else - (25 / 4)).
  { intros i j Hi Hj. unfold gram. rewrite dot_centering by lia. cbn [bsum]. rewrite !dot_centering_r by lia. cbn [bsum]. assert (i = 0 \/ i = 1)%nat as [->| ->] by lia; assert (j = 0 \/ j = 1)%nat as [->| ->] by lia; cbn; field. }
  destruct (C122_mds (fun _ _ => (fun j => match j with 0%nat => 25 / 2 | _ => 0 end, two_U)) some_argsort 3 [[1; 2; 3]; [4; 6; 3]] _ some_argsort_ok ltac:(discriminate) ltac:(repeat constructor) HD) as (X & E & _ & _ & HX).
  - cbn [length fst snd]. split; [|split].
    + intros i j Hi Hj. cbn [bsum]. rewrite !HG by lia. assert (i = 0 \/ i = 1)%nat as [->| ->] by lia; assert (j = 0 \/ j = 1)%nat as [->| ->] by lia; unfold two_U; cbn [Nat.eqb]; lra.
    + intros j Hj. cbn [bsum]. assert (j = 0 \/ j = 1)%nat as [->| ->] by lia; unfold two_U; lra.
    + exists (fun i j => two_U j i). split; intros i j Hi Hj; cbn [bsum]; assert (i = 0 \/ i = 1)%nat as [->| ->] by lia; assert (j = 0 \/ j = 1)%nat as [->| ->] by lia; unfold two_U, kron; cbn [Nat.eqb]; lra.
  - cbn [length fst snd]. intros i j Hi Hj Hn E0 Hz. exfalso. assert (i = 0 \/ i = 1)%nat as [->| ->] by lia; assert (j = 0 \/ j = 1)%nat as [->| ->] by lia; try lia; lra.
  - exists X. split; [exact E|]. rewrite HX by (cbn; lia). apply Rsqr_inj; [apply vdist_nonneg|lra|]. unfold Rsqr. rewrite <- (HD 0%nat 1%nat) by lia. cbn. ring.
Qed.
(** A matrix that is not square is refused. *)
Theorem C122_square : forall eig argsort dim rows cols D m, rows <> cols -> from_edm eig argsort dim rows cols D m = None.
Proof. intros. unfold from_edm. destruct (Nat.eqb_spec rows cols); [contradiction|reflexivity]. Qed.
(** `fromEDM(D, method='tri')` raises for every matrix (undefined name). *)
Theorem C122_tri_refuted : exists D P, Forall (fun p => length p = 2%nat) P /\ length P = 3%nat /\ (forall i j, (i < 3)%nat -> (j < 3)%nat -> D i j = vdist (nth i P []) (nth j P []) * vdist (nth i P []) (nth j P [])) /\
  forall eig argsort, from_edm eig argsort 2 3 3 D Tri = None.
Proof.
  exists (fun i j => match i, j with 0%nat, 1%nat | 1%nat, 0%nat => 1 | 0%nat, 2%nat | 2%nat, 0%nat => 1 | 1%nat, 2%nat | 2%nat, 1%nat => 2 | _, _ => 0 end), [[0; 0]; [0; 1]; [1; 0]].
  split; [repeat constructor|]. split; [reflexivity|]. split; [|reflexivity]. intros i j Hi Hj. rewrite vdist_sq. destruct (below3 i Hi) as [->|[->| ->]]; destruct (below3 j Hj) as [->|[->| ->]]; unfold vsq, dot, Rsum; cbn; ring.
Qed.
(** The point on the right of the line from the origin to (0, c) with the given distances to both. *)
Theorem C122_single_point : forall a b c, c <> 0 -> 0 <= a -> trilateration_single_point c (sqrt (a * a + b * b)) (sqrt (a * a + (b - c) * (b - c))) = Some (a, b).
Proof.
  intros a b c Hc Ha. unfold trilateration_single_point. destruct (Req_EM_T c 0); [contradiction|]. cbv zeta. assert (Q1 : sqrt (a * a + b * b) * sqrt (a * a + b * b) = a * a + b * b) by (apply sqrt_def; apply Rplus_le_le_0_compat; apply Rle_0_sqr). assert (Q2 : sqrt (a * a + (b - c) * (b - c)) * sqrt (a * a + (b - c) * (b - c)) = a * a + (b - c) * (b - c)) by (apply sqrt_def; apply Rplus_le_le_0_compat; apply Rle_0_sqr). rewrite Q1, Q2.
  assert (E : (c * c - (a * a + (b - c) * (b - c) - (a * a + b * b))) / (2 * c) = b) by (field; exact Hc). rewrite E. replace (a * a + b * b - b * b) with (a * a) by ring. destruct (Rlt_dec (a * a) 0); [nra|]. now rewrite sqrt_square.
Qed.
Example ex_single_point : trilateration_single_point 2 (sqrt (3 * 3 + 1 * 1)) (sqrt (3 * 3 + (1 - 2) * (1 - 2))) = Some (3, 1).
Proof. apply C122_single_point; lra. Qed.

(** edm_line_search *)
Lemma insert_perm : forall a l, Permutation (insert a l) (a :: l).
Proof. intros a. induction l as [|b l IH]; cbn; [reflexivity|]. destruct (Rle_dec a b); [reflexivity|]. rewrite IH. apply perm_swap. Qed.
Lemma sort_perm : forall l, Permutation (sort l) l.
Proof. induction l as [|a l IH]; cbn; [reflexivity|]. rewrite insert_perm. now constructor. Qed.
Lemma insert_sorted : forall a l, StronglySorted Rle l -> StronglySorted Rle (insert a l).
Proof.
  intros a l H. induction H as [|b l H IH F]; cbn; [repeat constructor|]. destruct (Rle_dec a b) as [Hl|Hl].
  - constructor; [now constructor|]. constructor; [exact Hl|]. eapply Forall_impl; [|exact F]. intros x Hx. cbn in Hx. lra.
  - constructor; [exact IH|]. eapply Permutation_Forall; [symmetry; apply insert_perm|]. constructor; [lra|exact F].
Qed.
Lemma sort_sorted : forall l, StronglySorted Rle (sort l).
Proof. induction l as [|a l IH]; cbn; [constructor|]. now apply insert_sorted. Qed.
(** all but the K last of a sorted list vanish if at most K do not *)
Lemma tail_only : forall K l, StronglySorted Rle l -> Forall (fun x => 0 <= x) l -> (length (filter positive l) <= K)%nat -> Rsum (firstn (length l - K) l) = 0.
Proof.
  intros K l H. induction H as [|a l H IH F]; intros HF HK; [rewrite firstn_nil; reflexivity|]. apply Forall_cons_iff in HF. destruct HF as [Ha HF]. cbn [filter] in HK. unfold positive at 1 in HK. destruct (Rlt_dec 0 a) as [Hp|Hp].
  - assert (E : filter positive l = l). { clear - F Hp. induction F as [|b l Hb F IH]; [reflexivity|]. cbn. unfold positive at 1. destruct (Rlt_dec 0 b); [now rewrite IH|lra]. }
    rewrite E in HK. cbn [length] in *. replace (S (length l) - K)%nat with 0%nat by lia. reflexivity.
  - cbn [length]. destruct (Nat.le_gt_cases (S (length l)) K) as [L|L]; [replace (S (length l) - K)%nat with 0%nat by lia; reflexivity|]. replace (S (length l) - K)%nat with (S (length l - K))%nat by lia. cbn [firstn]. unfold Rsum in *. cbn [fold_right]. rewrite IH by auto. lra.
Qed.
Definition is_eigvals (n : nat) (A : matrix) (w : vec) : Prop := length w = n /\ exists U, is_eig n A (fun j => nth j w 0) U.
Lemma count_nonzero : forall n A w K P Q, is_eigvals n A w -> (forall i j, (i < n)%nat -> (j < n)%nat -> A i j = bsum K (fun r => P i r * Q r j)) -> (length (filter positive (map Rabs w)) <= K)%nat.
Proof.
  intros n A w K P Q (Lw & U & HE) HA. destruct (Nat.le_gt_cases (length (filter positive (map Rabs w))) K) as [|Hgt]; [auto|exfalso].
  set (f := fun j => positive (Rabs (nth j w 0))). set (l := filter f (seq 0 n)).
  assert (Ll : length l = length (filter positive (map Rabs w))).
  { assert (Em : map Rabs w = map (fun j => Rabs (nth j w 0)) (seq 0 n)). { rewrite <- Lw. apply nth_ext with (d := Rabs 0) (d' := Rabs 0); [now rewrite !map_length, seq_length|]. intros i Hi. rewrite map_length in Hi. rewrite map_nth. rewrite (nth_indep _ (Rabs 0) 0) by (now rewrite map_length, seq_length). now rewrite nth_map_seq. }
    rewrite Em. unfold l. clear. induction (seq 0 n) as [|a t IH]; [reflexivity|]. cbn [map filter]. unfold f at 1. destruct (positive (Rabs (nth a w 0))); cbn [length]; congruence. }
  assert (ND : NoDup l) by (apply NoDup_filter, seq_NoDup).
  apply (few_eigenvalues n A (fun j => nth j w 0) U K P Q (fun a => nth a l 0%nat) HE HA).
  - intros a Ha. assert (Hin : In (nth a l 0%nat) l) by (apply nth_In; lia). unfold l in Hin at 2. apply filter_In in Hin. destruct Hin as [Hin Hp]. apply in_seq in Hin. split; [lia|]. unfold f, positive in Hp. destruct (Rlt_dec 0 (Rabs (nth (nth a l 0%nat) w 0))) as [Hl|]; [|discriminate]. intros E. rewrite E, Rabs_R0 in Hl. lra.
  - intros a b Ha Hb E. eapply NoDup_nth; eauto; lia.
Qed.
Lemma Rsum_nonneg_list : forall l, Forall (fun x => 0 <= x) l -> 0 <= Rsum l.
Proof. intros l H. induction H as [|a l Ha H IH]; unfold Rsum in *; cbn; lra. Qed.
Lemma firstn_Forall : forall {A} (P : A -> Prop) k l, Forall P l -> Forall P (firstn k l).
Proof. intros A P k l H. revert k. induction H; intros [|k]; cbn; constructor; auto. Qed.
Lemma abs_nonneg : forall w, Forall (fun x => 0 <= x) (sort (map Rabs w)).
Proof. intros w. eapply Permutation_Forall; [symmetry; apply sort_perm|]. apply Forall_map. apply Forall_forall. intros x _. apply Rabs_pos. Qed.
Lemma rmin_spec : forall l, l <> [] -> In (rmin l) l /\ forall x, In x l -> rmin l <= x.
Proof.
  intros l Hl. unfold rmin. assert (G : forall a t, (In (fold_right Rmin a t) (a :: t)) /\ forall x, In x (a :: t) -> fold_right Rmin a t <= x).
  { intros a t. induction t as [|b t [I1 I2]]; cbn [fold_right]; [split; [now left|intros x [->|[]]; lra]|]. split.
    - unfold Rmin at 1. destruct (Rle_dec b _) as [Hb|Hb]; [right; now left|]. destruct I1 as [I1|I1]; [left; exact I1|right; right; exact I1].
    - intros x Hx. pose proof (Rmin_l b (fold_right Rmin a t)). pose proof (Rmin_r b (fold_right Rmin a t)). destruct Hx as [->|[->|Hx]]; [pose proof (I2 x (or_introl eq_refl)); lra|lra|pose proof (I2 x (or_intror Hx)); lra]. }
  destruct l as [|b l]; [congruence|]. cbn [hd]. destruct (G b (b :: l)) as [G1 G2]. split; [destruct G1 as [G1|G1]; [left; exact G1|exact G1]|]. intros x Hx. apply G2. now right.
Qed.
(** The matrix of the squared distances between [n] points in dimension [d] factors through [d + 2] dimensions. *)
Lemma edm_rank : forall (y : nat -> vec) d n A, (forall i, (i < n)%nat -> length (y i) = d) -> (forall i j, (i < n)%nat -> (j < n)%nat -> A i j = vsq (vminus (y i) (y j))) ->
  exists P Q, forall i j, (i < n)%nat -> (j < n)%nat -> A i j = bsum (S (S d)) (fun r => P i r * Q r j).
Proof.
  intros y d n A HL HA. exists (fun i r => match r with 0%nat => vsq (y i) | 1%nat => 1 | S (S r) => -2 * nth r (y i) 0 end), (fun r j => match r with 0%nat => 1 | 1%nat => vsq (y j) | S (S r) => nth r (y j) 0 end).
  intros i j Hi Hj. rewrite HA by auto. rewrite vsq_vminus by (rewrite !HL; auto). rewrite !bsum_shift. cbv beta iota.
  assert (E : bsum d (fun r => -2 * nth r (y i) 0 * nth r (y j) 0) = -2 * dot (y i) (y j)) by (rewrite (dot_bsum _ _ d) by auto; rewrite <- bsum_scal; apply bsum_ext; intros r _; ring). rewrite E. ring.
Qed.
(** The grid *)
Theorem C122_grid : forall b0 b1 steps i, (i < steps)%nat -> length (lin_space b0 b1 steps) = steps /\ ((2 <= steps)%nat -> nth i (lin_space b0 b1 steps) 0 = b0 + INR i * ((b1 - b0) / (INR steps - 1))) /\ nth 0 (lin_space b0 b1 steps) 0 = b0 /\ ((2 <= steps)%nat -> nth (steps - 1) (lin_space b0 b1 steps) 0 = b1).
Proof.
  intros b0 b1 steps i Hi. unfold lin_space. split; [now rewrite map_length, seq_length|]. split; [|split].
  - intros H2. rewrite nth_map_seq by auto. destruct (Nat.eqb_spec steps 1); [lia|reflexivity].
  - rewrite nth_map_seq by lia. destruct (Nat.eqb_spec steps 1); [reflexivity|]. cbn [INR]. ring.
  - intros H2. rewrite nth_map_seq by lia. destruct (Nat.eqb_spec steps 1); [lia|]. rewrite minus_INR by lia. cbn [INR]. assert (INR steps <> 1) by (apply not_1_INR; lia). field. lra.
Qed.
(** With the offset for which the time differences (as lengths) become the distances to a source, the cost is
    zero; it is nowhere negative. *)
Theorem C122_line_search : forall eigh pc x delta b0 b1 steps, shaped pc -> (c_dim pc <= 3)%nat -> (4 <= length (c_pts pc))%nat -> length x = c_dim pc ->
  (forall A, (forall i j, (i <= length (c_pts pc))%nat -> (j <= length (c_pts pc))%nat -> A i j = vdist (nth i (c_pts pc ++ [x]) []) (nth j (c_pts pc ++ [x]) []) * vdist (nth i (c_pts pc ++ [x]) []) (nth j (c_pts pc ++ [x]) [])) ->
    is_eigvals (S (length (c_pts pc))) A (eigh (S (length (c_pts pc))) A)) ->
  exists cost, edm_line_search eigh pc (map (fun p => vdist x p + delta) (c_pts pc)) b0 b1 steps = Some (cost, lin_space b0 b1 steps) /\ length cost = steps /\
    forall i, (i < steps)%nat -> 0 <= nth i cost 0 /\
      (forall m, In m (map (vdist x) (c_pts pc)) -> (forall p, In p (c_pts pc) -> m <= vdist x p) -> nth i (lin_space b0 b1 steps) 0 = m -> nth i cost 0 = 0).
Proof.
  intros eigh pc x delta b0 b1 steps Hs Hd Hn Hx HE. unfold edm_line_search. rewrite map_length. set (n := length (c_pts pc)) in *. destruct (Nat.eqb_spec n 0) as [|_]; [lia|]. rewrite Nat.eqb_refl. cbn [negb andb]. destruct (Nat.eqb_spec n 1) as [|_]; [lia|].
  eexists. split; [reflexivity|]. split; [unfold lin_space; rewrite !map_length, seq_length; reflexivity|]. intros i Hi. set (td := map (fun p => vdist x p + delta) (c_pts pc)) in *.
  set (cst := fun di => Rsum (upto (Z.of_nat (S n) - 5) (sort (map Rabs (eigh (S n) (bordered n (pc_edm pc) (map (fun y => y + di) (map (fun t => t - rmin td) td)))))))).
  assert (Lg : length (lin_space b0 b1 steps) = steps) by (unfold lin_space; now rewrite map_length, seq_length).
  assert (EN : forall l : vec, (i < length l)%nat -> nth i (map (fun di => let w := sort (map Rabs (eigh (S n) (bordered n (pc_edm pc) (map (fun y => y + di) (map (fun t => t - rmin td) td))))) in Rsum (upto (Z.of_nat (S n) - 5) w)) l) 0 = cst (nth i l 0)).
  { intros l Hl. rewrite (nth_indep _ 0 (cst 0)) by (now rewrite map_length). exact (map_nth cst l 0 i). }
  rewrite EN by (rewrite Lg; exact Hi). split.
  - apply Rsum_nonneg_list. unfold upto. apply firstn_Forall. apply abs_nonneg.
  - intros m Hm Hmin Eg. rewrite Eg. unfold cst. set (dd := map (fun y => y + m) _).
    assert (Ltd : length td = n) by (unfold td; now rewrite map_length). assert (Htd : td <> []) by (intros E; rewrite E in Ltd; cbn in Ltd; lia).
    assert (Emin : rmin td = m + delta).
    { destruct (rmin_spec td Htd) as [R1 R2]. apply Rle_antisym.
      - apply R2. unfold td. apply in_map_iff in Hm. destruct Hm as (p & <- & Hp). apply in_map_iff. exists p. auto.
      - unfold td in R1 at 2. apply in_map_iff in R1. destruct R1 as (p & <- & Hp). specialize (Hmin p Hp). lra. }
    assert (Edd : forall a, (a < n)%nat -> nth a dd 0 = vdist x (nth a (c_pts pc) [])).
    { intros a Ha. unfold dd. rewrite map_map. unfold td at 2. rewrite map_map. rewrite Emin. set (g := fun p : vec => vdist x p + delta - (m + delta) + m). rewrite (nth_indep _ 0 (g [])) by (now rewrite map_length). rewrite (map_nth g). unfold g. ring. }
    set (y := fun a => nth a (c_pts pc ++ [x]) []). assert (Y1 : forall a, (a < n)%nat -> y a = nth a (c_pts pc) []) by (intros a Ha; unfold y; now rewrite app_nth1). assert (Y2 : y n = x) by (unfold y, n; rewrite app_nth2, Nat.sub_diag by lia; reflexivity).
    assert (Ly : forall a, (a < S n)%nat -> length (y a) = c_dim pc). { intros a Ha. destruct (Nat.eq_dec a n) as [->|Hne]; [now rewrite Y2|]. rewrite Y1 by lia. unfold shaped in Hs. rewrite Forall_forall in Hs. apply Hs. apply nth_In. fold n. lia. }
    assert (HB : forall a b, (a < S n)%nat -> (b < S n)%nat -> bordered n (pc_edm pc) dd a b = vsq (vminus (y a) (y b))).
    { intros a b Ha Hb. unfold bordered. destruct (Nat.ltb_spec a n) as [La|La]; destruct (Nat.ltb_spec b n) as [Lb|Lb].
      - rewrite C121_edm by auto. rewrite !Y1 by auto. apply vdist_sq.
      - rewrite Edd by auto. replace b with n by lia. rewrite Y2, Y1 by auto. rewrite vdist_comm; [apply vdist_sq|]. rewrite <- Y1 by auto. rewrite Ly by auto. exact Hx.
      - rewrite Edd by auto. replace a with n by lia. rewrite Y2, Y1 by auto. apply vdist_sq.
      - replace a with n by lia. replace b with n by lia. rewrite <- vdist_sq, vdist_refl. ring. }
    destruct (edm_rank y (c_dim pc) (S n) _ Ly HB) as (P & Q & HPQ).
    assert (He : is_eigvals (S n) (bordered n (pc_edm pc) dd) (eigh (S n) (bordered n (pc_edm pc) dd))) by (apply HE; intros a b Ha Hb; rewrite HB by lia; symmetry; apply vdist_sq).
    pose proof (count_nonzero _ _ _ _ _ _ He HPQ) as HC. destruct He as [Lw _]. set (w := eigh (S n) (bordered n (pc_edm pc) dd)) in *.
    assert (Lsw : length (sort (map Rabs w)) = S n) by (rewrite (Permutation_length (sort_perm _)), map_length; exact Lw).
    unfold upto. destruct (Z.ltb_spec (Z.of_nat (S n) - 5) 0) as [|_]; [lia|]. replace (Z.to_nat (Z.of_nat (S n) - 5)) with (length (sort (map Rabs w)) - 5)%nat by lia.
    apply tail_only; [apply sort_sorted|apply abs_nonneg|]. rewrite (Permutation_length (filter_perm positive _ _ (sort_perm (map Rabs w)))). lia.
Qed.

Definition few_pts : list vec := [[1; 0; 0]; [0; 1; 0]; [0; 0; 1]].
Definition had : matrix := fun i j => / 2 * match i, j with
  | 0%nat, _ | _, 0%nat => 1 | 1%nat, 1%nat | 2%nat, 2%nat | 3%nat, 3%nat => 1 | _, _ => -1 end.
Lemma below4 : forall i, (i < 4)%nat -> i = 0%nat \/ i = 1%nat \/ i = 2%nat \/ i = 3%nat.
Proof. lia. Qed.
(** With three points the cost at the true offset is not zero. *)
Theorem C122_few_points_refuted : exists eigh pc x, shaped pc /\ c_dim pc = 3%nat /\ length x = 3%nat /\
  (forall A, (forall i j, (i <= length (c_pts pc))%nat -> (j <= length (c_pts pc))%nat -> A i j = vdist (nth i (c_pts pc ++ [x]) []) (nth j (c_pts pc ++ [x]) []) * vdist (nth i (c_pts pc ++ [x]) []) (nth j (c_pts pc ++ [x]) [])) ->
    is_eigvals (S (length (c_pts pc))) A (eigh (S (length (c_pts pc))) A)) /\
  (forall p, In p (c_pts pc) -> vdist x p = sqrt 2) /\
  exists cost, edm_line_search eigh pc (map (vdist x) (c_pts pc)) (sqrt 2) (sqrt 2) 1 = Some (cost, [sqrt 2]) /\ nth 0 cost 0 = 6.
Proof.
  exists (fun _ _ => [6; -2; -2; -2]), {| c_dim := 3; c_pts := few_pts; c_labels := [] |}, [1; 1; 1]. cbn [c_dim c_pts]. split; [repeat constructor|]. split; [reflexivity|]. split; [reflexivity|]. split; [|split].
  - intros A HA. change (S (length few_pts)) with 4%nat. split; [reflexivity|]. assert (HA2 : forall i j, (i < 4)%nat -> (j < 4)%nat -> A i j = if Nat.eqb i j then 0 else 2).
    { intros i j Hi Hj. rewrite HA by (cbn; lia). rewrite vdist_sq. destruct (below4 i Hi) as [->|[->|[->| ->]]]; destruct (below4 j Hj) as [->|[->|[->| ->]]]; unfold vsq, dot, Rsum; cbn; ring. }
    exists had. split; [|split].
    + intros i j Hi Hj. cbn [bsum]. rewrite !HA2 by lia. destruct (below4 i Hi) as [->|[->|[->| ->]]]; destruct (below4 j Hj) as [->|[->|[->| ->]]]; unfold had; cbn [Nat.eqb nth]; lra.
    + intros j Hj. cbn [bsum]. destruct (below4 j Hj) as [->|[->|[->| ->]]]; unfold had; lra.
    + exists had. split; intros i j Hi Hj; cbn [bsum]; destruct (below4 i Hi) as [->|[->|[->| ->]]]; destruct (below4 j Hj) as [->|[->|[->| ->]]]; unfold had, kron; cbn [Nat.eqb]; lra.
  - intros p Hp. unfold vdist, vnorm. f_equal. destruct Hp as [<-|[<-|[<-|[]]]]; unfold vsq, dot, Rsum; cbn; ring.
  - eexists. split; [reflexivity|]. cbn [nth map]. unfold upto. cbn [map sort fold_right]. assert (R6 : Rabs 6 = 6) by (apply Rabs_right; lra). assert (R2 : Rabs (-2) = 2) by (rewrite Rabs_left; lra). rewrite R6, R2. cbn [insert]. 
    destruct (Rle_dec 2 2); [|lra]. cbn [insert]. destruct (Rle_dec 2 2); [|lra]. cbn [insert]. destruct (Rle_dec 6 2); [lra|]. cbn [insert].
    change (Rsum [2; 2; 2] = 6). unfold Rsum. cbn. lra.
Qed.
(** An octahedron: five of its corners, the source at the sixth. *)
Definition oct_pc : cloud := {| c_dim := 3; c_pts := [[1; 0; 0]; [-1; 0; 0]; [0; 1; 0]; [0; -1; 0]; [0; 0; 1]]; c_labels := [] |}.
Definition oct_U : matrix := fun i j => match j with
  | 0%nat => sqrt (/ 6)
  | 1%nat => match i with 0%nat => sqrt (/ 2) | 1%nat => - sqrt (/ 2) | _ => 0 end
  | 2%nat => match i with 2%nat => sqrt (/ 2) | 3%nat => - sqrt (/ 2) | _ => 0 end
  | 3%nat => match i with 4%nat => sqrt (/ 2) | 5%nat => - sqrt (/ 2) | _ => 0 end
  | 4%nat => match i with 0%nat | 1%nat => / 2 | 2%nat | 3%nat => - / 2 | _ => 0 end
  | _ => match i with 4%nat | 5%nat => - (2 * sqrt (/ 12)) | _ => sqrt (/ 12) end end.
Lemma below6 : forall i, (i < 6)%nat -> i = 0%nat \/ i = 1%nat \/ i = 2%nat \/ i = 3%nat \/ i = 4%nat \/ i = 5%nat.
Proof. lia. Qed.
Lemma oct_eig : forall A, (forall i j, (i <= 5)%nat -> (j <= 5)%nat -> A i j = vdist (nth i (c_pts oct_pc ++ [[0; 0; -1]]) []) (nth j (c_pts oct_pc ++ [[0; 0; -1]]) []) * vdist (nth i (c_pts oct_pc ++ [[0; 0; -1]]) []) (nth j (c_pts oct_pc ++ [[0; 0; -1]]) [])) -> is_eigvals 6 A [12; -4; -4; -4; 0; 0].
Proof.
  intros A HA. split; [reflexivity|]. assert (HA2 : forall i j, (i < 6)%nat -> (j < 6)%nat -> A i j = if Nat.eqb i j then 0 else if Nat.eqb (i / 2) (j / 2) then 4 else 2).
  { intros i j Hi Hj. rewrite HA by lia. rewrite vdist_sq. destruct (below6 i Hi) as [->|[->|[->|[->|[->| ->]]]]]; destruct (below6 j Hj) as [->|[->|[->|[->|[->| ->]]]]]; unfold vsq, dot, Rsum; cbn; ring. }
  assert (Q2 : sqrt (/ 2) * sqrt (/ 2) = / 2) by (apply sqrt_def; lra). assert (Q6 : sqrt (/ 6) * sqrt (/ 6) = / 6) by (apply sqrt_def; lra). assert (Q12 : sqrt (/ 12) * sqrt (/ 12) = / 12) by (apply sqrt_def; lra).
  exists oct_U. split; [|split].
  - intros i j Hi Hj. cbn [bsum]. rewrite !HA2 by lia. destruct (below6 i Hi) as [->|[->|[->|[->|[->| ->]]]]]; destruct (below6 j Hj) as [->|[->|[->|[->|[->| ->]]]]]; unfold oct_U; cbn; lra.
  - intros j Hj. cbn [bsum]. destruct (below6 j Hj) as [->|[->|[->|[->|[->| ->]]]]]; unfold oct_U; lra.
  - exists (fun i j => oct_U j i). split; intros i j Hi Hj; cbn [bsum]; destruct (below6 i Hi) as [->|[->|[->|[->|[->| ->]]]]]; destruct (below6 j Hj) as [->|[->|[->|[->|[->| ->]]]]]; unfold oct_U, kron; cbn [Nat.eqb]; lra.
Qed.
Example ex_line_search : exists cost, edm_line_search (fun _ _ => [12; -4; -4; -4; 0; 0]) oct_pc (map (fun p => vdist [0; 0; -1] p + 7) (c_pts oct_pc)) (sqrt 2) 5 10 = Some (cost, lin_space (sqrt 2) 5 10) /\ nth 0 cost 0 = 0.
Proof.
  destruct (C122_line_search (fun _ _ => [12; -4; -4; -4; 0; 0]) oct_pc [0; 0; -1] 7 (sqrt 2) 5 10) as (cost & E & _ & H); [repeat constructor|cbn; lia|cbn; lia|reflexivity|exact oct_eig|].
  exists cost. split; [exact E|]. assert (S2 : forall p, In p (c_pts oct_pc) -> sqrt 2 <= vdist [0; 0; -1] p) by (intros p Hp; unfold vdist, vnorm; apply sqrt_le_1_alt; destruct Hp as [<-|[<-|[<-|[<-|[<-|[]]]]]]; unfold vsq, dot, Rsum; cbn; lra).
  apply (proj2 (H 0%nat ltac:(lia)) (sqrt 2)); [left; unfold vdist, vnorm; f_equal; unfold vsq, dot, Rsum; cbn; ring|exact S2|]. apply (C122_grid (sqrt 2) 5 10 0). lia.
Qed.

Print Assumptions C122_mds.
Print Assumptions C122_mds_repeated_refuted.
Print Assumptions C122_square.
Print Assumptions C122_tri_refuted.
Print Assumptions C122_single_point.
Print Assumptions C122_grid.
Print Assumptions C122_line_search.
Print Assumptions C122_few_points_refuted.
