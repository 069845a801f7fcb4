(* C73 (time-domain designs) and C89 (the Beamformer object: conversions between
   weights and filters, processing, settings). *)
From Coq Require Import Reals List ZArith Lia Lra Bool.
From Verif Require Import Base BaseProofs Vec Sum Cpx DftModel DftProofs SimulateModel SimulateProofs ArrayModel BeamModel BeamMat.
Import ListNotations.
Local Open Scope R_scope.

(* ------------------------------------------------------------------ *)
(* Time-domain designs. *)
Definition psd (n : nat) (K : nat -> nat -> R) : Prop := forall v, 0 <= quadratic n K v.
(* Tap j of the overall response: the inner product of the filters with column
   j of the channel matrix. *)
Definition response_tap (n : nat) (Hc : nat -> nat -> R) (g : nat -> R) (j : nat) : R := bsum n (fun i => Hc i j * g i).

Lemma quadratic_split : forall n K g e, sym n K -> ip n e (mv n K g) = 0 ->
  quadratic n K (fun i => g i + e i) = quadratic n K g + quadratic n K e.
Proof.
  intros n K g e Hs H0. unfold quadratic.
  transitivity (ip n (fun i => g i + e i) (fun i => mv n K g i + mv n K e i)).
  { apply ip_ext; [reflexivity|]. intros. apply mv_plus. }
  rewrite ip_plus_r, !(ip_comm n (fun i => g i + e i)), !ip_plus_r.
  rewrite (ip_comm n (mv n K g) e), H0, (ip_comm n (mv n K e) g).
  rewrite (ip_mv_sym n K g e Hs), (ip_comm n (mv n K g) e), H0, (ip_comm n (mv n K g) g), (ip_comm n (mv n K e) e). ring.
Qed.
Lemma quadratic_ext : forall n K u v, (forall i, (i < n)%nat -> u i = v i) -> quadratic n K u = quadratic n K v.
Proof. intros. unfold quadratic. apply ip_ext; [exact H|]. intros. apply mv_ext. exact H. Qed.

(* MVDR: the response at the chosen tap is one and, among the filters for which
   it is, these have the least output power g^T K g. *)
Theorem C73_mvdr : forall solve n Hc kappa K g,
  (forall i, (i < n)%nat -> mv n K (solve n K (fun r => Hc r kappa)) i = Hc i kappa) -> sym n K -> psd n K ->
  mvdr_filters solve n (fun r => Hc r kappa) K = Some g ->
  response_tap n Hc g kappa = 1 /\
  forall g', response_tap n Hc g' kappa = 1 -> quadratic n K g <= quadratic n K g'.
Proof.
  intros solve n Hc kappa K g Hsol Hs Hp H. unfold mvdr_filters in H. set (h := fun r => Hc r kappa) in *. set (g0 := solve n K h) in *.
  destruct (Req_EM_T (ip n h g0) 0) as [E|E]; [discriminate|]. injection H as <-.
  assert (H1 : ip n h (fun i => g0 i / ip n h g0) = 1).
  { transitivity (ip n h (fun i => / ip n h g0 * g0 i)); [apply ip_ext; [reflexivity|]; intros; unfold Rdiv; ring|].
    rewrite ip_scal_r. now apply Rinv_l. }
  split; [exact H1|]. intros g' Hg'.
  set (g := fun i => g0 i / ip n h g0) in *. set (e := fun i => g' i - g i).
  apply Rle_trans with (quadratic n K (fun i => g i + e i)); [|right; apply quadratic_ext; intros; subst e; cbv beta; ring].
  rewrite quadratic_split; [pose proof (Hp e); lra|exact Hs|].
  transitivity (ip n e (fun i => / ip n h g0 * h i)).
  { apply ip_ext; [reflexivity|]. intros i Hi. transitivity (mv n K (fun j => / ip n h g0 * g0 j) i).
    - apply mv_ext. intros. subst g. cbv beta. unfold Rdiv. ring.
    - rewrite mv_scal. f_equal. apply Hsol. exact Hi. }
  rewrite ip_scal_r, (ip_comm n e).
  assert (E0 : ip n h e = 0); [|rewrite E0; ring].
  transitivity (ip n h g' - ip n h g); [subst e; apply ip_minus_r|]. unfold response_tap in Hg'. fold (ip n h g') in Hg'.
  change (bsum n (fun i => Hc i kappa * g' i)) with (ip n h g') in Hg'. rewrite Hg', H1. ring.
Qed.

Lemma perceptual_nth : forall ncol tau kappa p, (p < length (perceptual_cols ncol tau kappa))%nat -> (tau < ncol)%nat ->
  nth p (perceptual_cols ncol tau kappa) 0%nat = if (p <=? tau)%nat then p else (p - (tau + 1) + (tau + kappa))%nat.
Proof.
  intros ncol tau kappa p Hp Ht. unfold perceptual_cols in *. rewrite app_length, firstn_length, skipn_length, seq_length in Hp.
  destruct (Nat.leb_spec p tau) as [H|H].
  - rewrite app_nth1 by (rewrite firstn_length, seq_length; lia).
    rewrite <- (firstn_skipn (tau + 1) (seq 0 ncol)) at 1 || idtac.
    assert (E : nth p (firstn (tau + 1) (seq 0 ncol)) 0%nat = nth p (seq 0 ncol) 0%nat).
    { rewrite <- (firstn_skipn (tau + 1) (seq 0 ncol)) at 2. rewrite app_nth1; [reflexivity|]. rewrite firstn_length, seq_length. lia. }
    rewrite ?firstn_skipn in *. rewrite E, seq_nth by lia. reflexivity.
  - rewrite app_nth2; rewrite firstn_length, seq_length; [|lia].
    assert (E : forall k, nth k (skipn (tau + kappa) (seq 0 ncol)) 0%nat = nth (k + (tau + kappa)) (seq 0 ncol) 0%nat).
    { intros k. rewrite <- (firstn_skipn (tau + kappa) (seq 0 ncol)) at 2.
      destruct (Nat.le_gt_cases ncol (tau + kappa)) as [Hk|Hk].
      - rewrite skipn_all2 by (rewrite seq_length; lia). rewrite app_nil_r, firstn_all2 by (rewrite seq_length; lia).
        rewrite !nth_overflow; [reflexivity|rewrite seq_length; lia|cbn; lia].
      - rewrite app_nth2; rewrite firstn_length, seq_length; [|lia]. f_equal. lia. }
    rewrite E. rewrite Nat.min_l in * by lia. rewrite seq_nth by lia. lia.
Qed.

(* The perceptually motivated filters: the response is exactly zero at every tap
   before the delay tau, one at tau, free during the kappa - 1 taps that follow,
   and zero from tau + kappa on (over all columns of the channel matrix); among
   the filters with this response they minimise g^T K g. *)
Definition perceptual_ok (n ncol tau kappa : nat) (Hc : nat -> nat -> R) (g : nat -> R) : Prop :=
  forall j, (j < ncol)%nat -> (j <= tau \/ tau + kappa <= j)%nat ->
    response_tap n Hc g j = if Nat.eq_dec j tau then 1 else 0.
Theorem C73_perceptual : forall solve n ncol tau kappa Hc K g, (0 < kappa)%nat -> (tau < ncol)%nat ->
  (forall m A b i, (i < m)%nat -> (exists x, forall r, (r < m)%nat -> mv m A x r = b r) -> mv m A (solve m A b) i = b i) ->
  (let cols := perceptual_cols ncol tau kappa in let na := length cols in
   let A := fun i j => Hc i (nth j cols 0%nat) in let B := fun i j => solve n K (fun r => A r j) i in
   (forall j, (j < na)%nat -> exists x, forall r, (r < n)%nat -> mv n K x r = A r j) /\
   (exists x, forall r, (r < na)%nat -> mv na (fun i j => bsum n (fun r => A r i * B r j)) x r = kron tau r)) ->
  sym n K -> psd n K ->
  perceptual_filters solve n ncol tau kappa Hc K = Some g ->
  perceptual_ok n ncol tau kappa Hc g /\
  forall g', perceptual_ok n ncol tau kappa Hc g' -> quadratic n K g <= quadratic n K g'.
Proof.
  intros solve n ncol tau kappa Hc K g Hk Ht Hsol Hex Hs Hp H. cbv zeta in Hex. destruct Hex as [Hex1 Hex2].
  unfold perceptual_filters in H. set (cols := perceptual_cols ncol tau kappa) in *. set (na := length cols) in *.
  destruct (Nat.leb_spec na tau) as [Hna|Hna]; [discriminate|].
  set (A := fun i j => Hc i (nth j cols 0%nat)) in *. set (B := fun i j => solve n K (fun r => A r j) i) in *.
  set (D := fun i j => bsum n (fun r => A r i * B r j)) in *. set (x := solve na D (kron tau)) in *.
  apply (f_equal (fun o => match o with Some d => d | None => g end)) in H. cbv iota beta in H.
  assert (Hg0 : (fun i => bsum na (fun j => B i j * x j)) = g) by exact H. clear H.
  assert (Hcols : forall p, (p < na)%nat -> nth p cols 0%nat = if (p <=? tau)%nat then p else (p - (tau + 1) + (tau + kappa))%nat).
  { intros p Hpn. apply perceptual_nth; assumption. }
  assert (Hlen : na = (tau + 1 + (ncol - (tau + kappa)))%nat).
  { subst na cols. unfold perceptual_cols. rewrite app_length, firstn_length, skipn_length, seq_length. lia. }
  assert (Hg : forall p, (p < na)%nat -> bsum n (fun i => A i p * g i) = kron tau p).
  { intros p Hpn. subst g. transitivity (mv na D x p).
    - unfold mv, D. transitivity (bsum n (fun i => bsum na (fun j => A i p * B i j * x j))).
      + apply bsum_ext. intros i _. rewrite <- bsum_scal. apply bsum_ext. intros.
   ring.
      + rewrite bsum_swap. apply bsum_ext. intros j _. now rewrite bsum_scal_r.
    - subst x. apply Hsol; assumption. }
  assert (Hok : forall g1, perceptual_ok n ncol tau kappa Hc g1 <-> forall p, (p < na)%nat -> bsum n (fun i => A i p * g1 i) = kron tau p).
  { intros g1. split.
    - intros Hg1 p Hpn. specialize (Hg1 (nth p cols 0%nat)). unfold response_tap in Hg1. unfold A. rewrite Hg1; rewrite (Hcols p Hpn);
        destruct (Nat.leb_spec p tau); try lia.
      + unfold kron. destruct (Nat.eq_dec p tau) as [->|]; [now rewrite Nat.eqb_refl|]. rewrite (proj2 (Nat.eqb_neq tau p)) by lia. reflexivity.
      + destruct (Nat.eq_dec (p - (tau + 1) + (tau + kappa)) tau) as [e|_]; [exfalso; clear - e Hk H; lia|]. unfold kron. rewrite (proj2 (Nat.eqb_neq tau p)) by lia. reflexivity.
    - intros Hg1 j Hj Hjr. set (p := if (j <=? tau)%nat then j else (j - (tau + kappa) + (tau + 1))%nat).
      assert (Hpn : (p < na)%nat) by (subst p; destruct (Nat.leb_spec j tau); lia).
      assert (Ep : nth p cols 0%nat = j).
      { rewrite (Hcols p Hpn). subst p. destruct (Nat.leb_spec j tau); [rewrite (proj2 (Nat.leb_le j tau)) by lia; reflexivity|].
        rewrite (proj2 (Nat.leb_gt _ tau)) by lia. lia. }
      specialize (Hg1 p Hpn). unfold A in Hg1. rewrite Ep in Hg1. unfold response_tap. rewrite Hg1. unfold kron. subst p.
      destruct (Nat.leb_spec j tau); destruct (Nat.eq_dec j tau) as [->|]; try lia.
      + now rewrite Nat.eqb_refl.
      + rewrite (proj2 (Nat.eqb_neq tau j)) by lia. reflexivity.
      + rewrite (proj2 (Nat.eqb_neq tau _)) by lia. reflexivity. }
  split; [exact (proj2 (Hok g) Hg)|]. intros g' Hg1'. pose proof (proj1 (Hok g') Hg1') as Hg'.
  set (e := fun i => g' i - g i).
  apply Rle_trans with (quadratic n K (fun i => g i + e i)); [|right; apply quadratic_ext; intros; subst e; cbv beta; ring].
  rewrite quadratic_split; [pose proof (Hp e); lra|exact Hs|].
  assert (HKg : forall i, (i < n)%nat -> mv n K g i = bsum na (fun j => A i j * x j)).
  { intros i Hi. subst g. unfold mv. transitivity (bsum na (fun j => bsum n (fun r => K i r * B r j * x j))).
    - rewrite bsum_swap. apply bsum_ext. intros r _. rewrite <- bsum_scal. apply bsum_ext. intros. ring.
    - apply bsum_ext. intros j Hj. rewrite bsum_scal_r. f_equal.
      exact (Hsol n K (fun r => A r j) i Hi (Hex1 j Hj)). }
  transitivity (ip n e (fun i => bsum na (fun j => A i j * x j))); [apply ip_ext; [reflexivity|exact HKg]|].
  unfold ip. transitivity (bsum na (fun j => bsum n (fun i => A i j * e i) * x j)).
  - transitivity (bsum n (fun i => bsum na (fun j => e i * (A i j * x j)))); [apply bsum_ext; intros; now rewrite bsum_scal|].
    rewrite bsum_swap. apply bsum_ext. intros j _. rewrite <- bsum_scal_r. apply bsum_ext. intros. ring.
  - apply bsum_zero_ext. intros j Hj.
    assert (E0 : bsum n (fun i => A i j * e i) = 0); [|rewrite E0; ring].
    transitivity (bsum n (fun i => A i j * g' i) - bsum n (fun i => A i j * g i)).
    + rewrite <- bsum_minus. apply bsum_ext. intros. subst e. cbv beta. ring.
    + rewrite Hg, Hg' by exact Hj. ring.
Qed.

(* A concrete case for the two designs: one microphone, three taps, identity
   covariance; the channel matrix is the identity. *)
Definition copy_solve (m : nat) (A : nat -> nat -> R) (b : nat -> R) : nat -> R := b.
Example mvdr_case : exists g, mvdr_filters copy_solve 3 (fun r => kron r 1) kron = Some g /\ g 1%nat = 1 /\ g 0%nat = 0.
Proof.
  unfold mvdr_filters, copy_solve. destruct (Req_EM_T _ 0) as [E|E].
  - exfalso. unfold ip, kron in E. cbn in E. lra.
  - eexists. split; [reflexivity|]. unfold ip, kron. cbn. split; field; lra.
Qed.
Example perceptual_case : exists g, perceptual_filters copy_solve 3 3 0 2 kron kron = Some g /\ perceptual_ok 3 3 0 2 kron g.
Proof.
  unfold perceptual_filters, copy_solve. cbn [perceptual_cols app firstn skipn seq Nat.add length Nat.leb]. eexists. split; [reflexivity|].
  intros j Hj Hr. unfold response_tap, kron.
  destruct j as [|[|[|]]]; cbn in *; lra || lia.
Qed.

(* ------------------------------------------------------------------ *)
(* C89 *)
Local Open Scope C_scope.
Lemma dft_conj : forall n x k, dft n x k = Conj (csum n (fun j => Conj (x j) * omega n (Z.of_nat (j * k)))).
Proof.
  intros. unfold dft. rewrite csum_conj. apply csum_ext. intros j _. rewrite Conj_mul, Conj_conj, <- omega_opp. reflexivity.
Qed.
Lemma dft_scal : forall n r x k, dft n (fun j => Cscal r (x j)) k = Cscal r (dft n x k).
Proof. intros. unfold dft. rewrite Cscal_RtoC, <- csum_scal. apply csum_ext. intros. rewrite Cscal_RtoC. ring. Qed.
Lemma dft_idft : forall n X k, (k < n)%nat -> dft n (idft n X) k = X k.
Proof.
  intros n X k Hk. assert (Hn : (INR n <> 0)%R) by (apply not_0_INR; lia).
  rewrite dft_conj.
  transitivity (Conj (Cscal (INR n) (idft n (fun j => Cscal (/ INR n) (dft n (fun m => Conj (X m)) j)) k))).
  - f_equal. unfold idft at 2.
    transitivity (csum n (fun j => Cscal (/ INR n) (dft n (fun m => Conj (X m)) j) * omega n (Z.of_nat (k * j)))).
    + apply csum_ext. intros j _. f_equal; [|now rewrite Nat.mul_comm]. unfold idft. rewrite !Cscal_RtoC, Conj_mul, Conj_RtoC. f_equal.
      rewrite dft_conj. f_equal. apply csum_ext. intros m _. rewrite Conj_conj, Nat.mul_comm. reflexivity.
    + rewrite !Cscal_RtoC. rewrite <- (Rinv_r (INR n)) || idtac.
      match goal with |- ?a = _ => set (S0 := a) end.
      transitivity (RtoC (INR n * / INR n) * S0); [|rewrite RtoC_mul; ring].
      rewrite Rinv_r by exact Hn. change (RtoC 1) with C1. ring.
  - assert (E : idft n (fun j => Cscal (/ INR n) (dft n (fun m => Conj (X m)) j)) k = Cscal (/ INR n) (Conj (X k))).
    { transitivity (idft n (dft n (fun m => Cscal (/ INR n) (Conj (X m)))) k).
      - apply idft_ext. intros i _. now rewrite dft_scal.
      - now rewrite idft_dft. }
    rewrite E, !Cscal_RtoC, !Conj_mul, !Conj_RtoC, Conj_conj.
    transitivity (RtoC (INR n * / INR n) * X k); [rewrite RtoC_mul; ring|]. rewrite Rinv_r by exact Hn. change (RtoC 1) with C1. ring.
Qed.
Lemma idft_real : forall n H j, hermitian n H -> snd (H 0%nat) = 0%R -> (j < n)%nat -> snd (idft n H j) = 0%R.
Proof.
  intros n H j Hh H0 Hj.
  assert (E : Conj (idft n H j) = idft n H j).
  { unfold idft. rewrite !Cscal_RtoC, Conj_mul, Conj_RtoC. f_equal. rewrite csum_conj.
    set (s := fun k => ((n - k) mod n)%nat).
    assert (Hs : forall i, (i < n)%nat -> (s i < n)%nat /\ s (s i) = i).
    { intros i Hi. unfold s. split; [apply Nat.mod_upper_bound; lia|]. destruct (Nat.eq_dec i 0) as [->|Hi0].
      - rewrite Nat.sub_0_r, Nat.mod_same, Nat.sub_0_r, Nat.mod_same by lia. reflexivity.
      - rewrite (Nat.mod_small (n - i)) by lia. replace (n - (n - i))%nat with i by lia. apply Nat.mod_small. lia. }
    apply (csum_perm n _ _ s s Hs Hs). intros k Hk. unfold s. rewrite Conj_mul, <- omega_opp. destruct (Nat.eq_dec k 0) as [->|Hk0].
    - rewrite Nat.sub_0_r, Nat.mod_same by lia. rewrite Nat.mul_0_r. cbn [Z.of_nat Z.opp]. f_equal.
      unfold Conj. destruct (H 0%nat) as [a b]. cbn in *. subst b. now rewrite Ropp_0.
    - rewrite (Nat.mod_small (n - k)) by lia. rewrite (Hh k) by lia. f_equal.
      replace (Z.of_nat (j * (n - k))) with (- Z.of_nat (j * k) + Z.of_nat n * Z.of_nat j)%Z by nia. symmetry. apply omega_cycle. lia. }
  apply (f_equal snd) in E. unfold Conj in E. cbn [snd] in E. lra.
Qed.
Lemma rfft_irfft : forall n X k, (k <= n / 2)%nat -> (0 < n)%nat -> Nat.even n = true -> snd (nth 0 X C0) = 0%R -> snd (nth (n / 2) X C0) = 0%R ->
  dft n (fun j => RtoC (nth j (irfft n X) 0%R)) k = nth k X C0.
Proof.
  intros n X k Hk Hn He H0 Hl.
  assert (Hh2 : n = (n / 2 + n / 2)%nat).
  { apply Nat.even_spec in He as [m ->]. replace (2 * m / 2)%nat with m by (rewrite Nat.mul_comm, Nat.div_mul; lia). lia. }
  set (h := (n / 2)%nat) in *.
  set (H := fun k => if (k <=? h)%nat then nth k X C0 else Conj (nth (n - k) X C0)).
  assert (Hh : hermitian n H).
  { intros m Hm. unfold H. destruct (Nat.leb_spec (n - m) h), (Nat.leb_spec m h).
    - assert (m = h) by lia. subst m. replace (n - h)%nat with h by lia. unfold Conj. destruct (nth h X C0) as [a b]. cbn in *. subst b. now rewrite Ropp_0.
    - now rewrite Conj_conj.
    - replace (n - (n - m))%nat with m by lia. reflexivity.
    - lia. }
  transitivity (dft n (idft n H) k).
  - apply dft_ext. intros j Hj.
    rewrite (irfft_idft n X H j Hj Hh) by (intros m Hm; unfold H; fold h in Hm; rewrite (proj2 (Nat.leb_le m h)) by lia; reflexivity).
    assert (Es : snd (idft n H j) = 0%R) by (apply idft_real; [exact Hh|exact H0|exact Hj]).
    unfold RtoC. destruct (idft n H j) as [a b]. cbn in *. now subst b.
  - rewrite dft_idft by lia. unfold H. now rewrite (proj2 (Nat.leb_le k h)) by lia.
Qed.
Lemma filter_nth : forall N Lg w j, (N <= Lg)%nat -> Nat.even N = true -> (0 < N)%nat ->
  nth j (filter_of_weights N Lg w) 0%R = if (j <? N)%nat then nth ((j + N / 2) mod N) (irfft N (map Conj w)) 0%R else 0%R.
Proof.
  intros N Lg w j HL He HN. unfold filter_of_weights. set (tw := irfft N (map Conj w)).
  assert (Ht : length tw = N) by apply irfft_length.
  assert (Hh2 : N = (N / 2 + N / 2)%nat).
  { apply Nat.even_spec in He as [m ->]. replace (2 * m / 2)%nat with m by (rewrite Nat.mul_comm, Nat.div_mul; lia). lia. }
  set (h := (N / 2)%nat) in *.
  assert (Hl : length (skipn h tw ++ firstn h tw) = N) by (rewrite app_length, skipn_length, firstn_length; lia).
  destruct (Nat.ltb_spec j N) as [Hj|Hj].
  - rewrite app_nth1 by lia. destruct (Nat.lt_ge_cases j h) as [Hjh|Hjh].
    + rewrite app_nth1 by (rewrite skipn_length; lia). rewrite Nat.mod_small by lia.
      rewrite <- (firstn_skipn h tw) at 2. rewrite app_nth2; rewrite firstn_length; [|lia]. f_equal. lia.
    + rewrite app_nth2 by (rewrite skipn_length; lia). rewrite skipn_length, Ht.
      replace ((j + h) mod N)%nat with (j - h)%nat.
      * rewrite <- (firstn_skipn h tw) at 2. rewrite app_nth1; [f_equal; lia|]. rewrite firstn_length. lia.
      * rewrite <- (Nat.mod_small (j - h) N) by lia. replace (j + h)%nat with (j - h + 1 * N)%nat by lia. now rewrite Nat.mod_add by lia.
  - rewrite app_nth2 by lia. rewrite Hl. destruct (Nat.lt_ge_cases (j - N) (Lg - N)).
    + now rewrite nth_repeat.
    + apply nth_overflow. rewrite repeat_length. lia.
Qed.

(* filters_from_weights (filters at least as long as the transform): the filter
   has Lg taps, those from N on are zero, and its frequency response at every
   bin is the conjugated weight delayed by half a block. *)
Definition freq_response (N : nat) (g : list R) (k : nat) : C :=
  csum (length g) (fun j => RtoC (nth j g 0%R) * omega N (- Z.of_nat (j * k))).
Theorem C89_filters : forall N Lg w, (0 < N)%nat -> Nat.even N = true -> (N <= Lg)%nat ->
  snd (nth 0 w C0) = 0%R -> snd (nth (N / 2) w C0) = 0%R -> length w = (N / 2 + 1)%nat ->
  let g := filter_of_weights N Lg w in
  length g = Lg /\ (forall j, (N <= j)%nat -> nth j g 0%R = 0%R) /\
  forall k, (k <= N / 2)%nat -> freq_response N g k = omega N (- Z.of_nat (N / 2 * k)) * Conj (nth k w C0).
Proof.
  intros N Lg w HN He HL H0 Hl Hw g.
  assert (Hh2 : N = (N / 2 + N / 2)%nat).
  { apply Nat.even_spec in He as [m ->]. replace (2 * m / 2)%nat with m by (rewrite Nat.mul_comm, Nat.div_mul; lia). lia. }
  assert (Hlen : length g = Lg).
  { subst g. unfold filter_of_weights. rewrite !app_length, repeat_length, skipn_length, firstn_length, irfft_length. lia. }
  split; [exact Hlen|]. split.
  - intros j Hj. subst g. rewrite filter_nth by assumption. now rewrite (proj2 (Nat.ltb_ge j N)) by lia.
  - intros k Hk. unfold freq_response. rewrite Hlen. replace Lg with (N + (Lg - N))%nat by lia. rewrite csum_split.
    assert (Ez : csum (Lg - N) (fun i => RtoC (nth (N + i) g 0%R) * omega N (- Z.of_nat ((N + i) * k))) = C0).
    { apply csum_zero_ext. intros i _. subst g. rewrite filter_nth by assumption. rewrite (proj2 (Nat.ltb_ge _ N)) by lia. change (RtoC 0) with C0. ring. }
    rewrite Ez. set (h := (N / 2)%nat) in *. set (X := map Conj w).
    transitivity (omega N (Z.of_nat (h * k)) * csum N (fun j => RtoC (nth ((j + h) mod N) (irfft N X) 0%R) * omega N (- Z.of_nat ((j + h) mod N * k)))).
    { rewrite <- csum_scal. match goal with |- ?a + C0 = _ => transitivity a; [ring|] end.
      apply csum_ext. intros j Hj. subst g. rewrite filter_nth by assumption. rewrite (proj2 (Nat.ltb_lt j N)) by lia. fold h X.
      assert (Eo : omega N (- Z.of_nat (j * k)) = omega N (Z.of_nat (h * k)) * omega N (- Z.of_nat ((j + h) mod N * k))).
      { rewrite <- omega_add. pose proof (Nat.div_mod (j + h) N ltac:(lia)) as Ed. set (q := ((j + h) / N)%nat) in *. set (r := ((j + h) mod N)%nat) in *.
        replace (Z.of_nat (h * k) + - Z.of_nat (r * k))%Z with (- Z.of_nat (j * k) + Z.of_nat N * Z.of_nat (q * k))%Z by nia.
        symmetry. apply omega_cycle. lia. }
      rewrite Eo. ring. }
    rewrite (csum_mod N h (fun i => RtoC (nth i (irfft N X) 0%R) * omega N (- Z.of_nat (i * k)))) by lia.
    change (csum N (fun i => RtoC (nth i (irfft N X) 0%R) * omega N (- Z.of_nat (i * k)))) with (dft N (fun i => RtoC (nth i (irfft N X) 0%R)) k).
    assert (HX : forall i, (i <= h)%nat -> nth i X C0 = Conj (nth i w C0)).
    { intros i Hi. subst X. rewrite nth_indep with (d' := Conj C0) by (rewrite map_length; lia). apply map_nth. }
    rewrite rfft_irfft; [| | | | |]; auto.
    + rewrite HX by lia. f_equal.
      transitivity (omega N (- Z.of_nat (h * k) + Z.of_nat N * Z.of_nat k)); [f_equal; nia|]. apply omega_cycle. lia.
    + rewrite HX by lia. unfold Conj. cbn [snd]. rewrite H0. ring.
    + fold h. rewrite HX by lia. unfold Conj. cbn [snd]. rewrite Hl. ring.
Qed.

(* weights_from_filters: the weights are the conjugated frequency response of
   the filter (cut to the transform length). *)
Theorem C89_weights : forall N g k, (k <= N / 2)%nat ->
  nth k (weights_of_filter N g) C0 = Conj (freq_response N (firstn N g) k) /\ length (weights_of_filter N g) = (N / 2 + 1)%nat.
Proof.
  intros N g k Hk. unfold weights_of_filter. split; [|rewrite map_length; apply rfft_length].
  rewrite nth_indep with (d' := Conj C0) by (rewrite map_length, rfft_length; lia). rewrite map_nth, nth_rfft by exact Hk. f_equal.
  unfold freq_response, dft. rewrite firstn_length.
  replace N with (Nat.min N (length g) + (N - Nat.min N (length g)))%nat at 1 by lia. rewrite csum_split.
  rewrite (csum_zero_ext (N - Nat.min N (length g))).
  - match goal with |- ?a + C0 = _ => transitivity a; [ring|] end. apply csum_ext. intros j Hj. do 2 f_equal.
    rewrite <- (firstn_skipn N g) at 1. rewrite app_nth1; [reflexivity|]. rewrite firstn_length. lia.
  - intros i Hi. rewrite nth_overflow by lia. change (RtoC 0) with C0. ring.
Qed.
(* There and back: the weights come back up to the sign (-1)^k of the half
   block delay. *)
Theorem C89_round_trip : forall N Lg w k, (0 < N)%nat -> Nat.even N = true -> (N <= Lg)%nat ->
  snd (nth 0 w C0) = 0%R -> snd (nth (N / 2) w C0) = 0%R -> length w = (N / 2 + 1)%nat -> (k <= N / 2)%nat ->
  nth k (weights_of_filter N (filter_of_weights N Lg w)) C0 = if Nat.even k then nth k w C0 else - nth k w C0.
Proof.
  intros N Lg w k HN He HL H0 Hl Hw Hk.
  assert (Hh2 : N = (N / 2 + N / 2)%nat).
  { apply Nat.even_spec in He as [m ->]. replace (2 * m / 2)%nat with m by (rewrite Nat.mul_comm, Nat.div_mul; lia). lia. }
  destruct (C89_filters N Lg w HN He HL H0 Hl Hw) as [Hlen [Hz Hf]]. destruct (C89_weights N (filter_of_weights N Lg w) k Hk) as [E _]. rewrite E.
  set (g := filter_of_weights N Lg w) in *.
  assert (Ef : freq_response N (firstn N g) k = freq_response N g k).
  { unfold freq_response. rewrite firstn_length, Hlen, Nat.min_l by lia. replace Lg with (N + (Lg - N))%nat by lia. rewrite csum_split.
    rewrite (csum_zero_ext (Lg - N)) by (intros i _; rewrite Hz by lia; change (RtoC 0) with C0; ring).
    match goal with |- _ = ?a + C0 => transitivity a; [|ring] end. apply csum_ext. intros j Hj. do 2 f_equal.
    rewrite <- (firstn_skipn N g) at 2. rewrite app_nth1; [reflexivity|]. rewrite firstn_length. lia. }
  rewrite Ef, Hf by exact Hk. rewrite Conj_mul, Conj_conj, omega_opp, Conj_conj.
  assert (Hom : omega N (Z.of_nat (N / 2 * k)) = if Nat.even k then C1 else - C1).
  { assert (Hk2 : exists m, k = (2 * m)%nat \/ k = (2 * m + 1)%nat) by (exists (k / 2)%nat; pose proof (Nat.div_mod k 2 ltac:(lia)); pose proof (Nat.mod_upper_bound k 2 ltac:(lia)); lia).
    destruct Hk2 as [m [-> | ->]].
    - rewrite Nat.even_mul. cbn [Nat.even orb].
      replace (Z.of_nat (N / 2 * (2 * m))) with (0 + Z.of_nat N * Z.of_nat m)%Z by nia. rewrite omega_cycle by lia. apply omega_0.
    - rewrite Nat.even_add, Nat.even_mul. cbn [Nat.even orb xorb Bool.eqb].
      replace (Z.of_nat (N / 2 * (2 * m + 1))) with (Z.of_nat (N / 2) + Z.of_nat N * Z.of_nat m)%Z by nia. rewrite omega_cycle by lia.
      unfold omega. replace (2 * PI * IZR (Z.of_nat (N / 2)) / INR N)%R with PI.
      + unfold cis. rewrite cos_PI, sin_PI. unfold C1, Copp. cbn. f_equal; ring.
      + rewrite <- INR_IZR_INZ. rewrite Hh2 at 2. rewrite plus_INR. field.
        assert (0 < INR (N / 2))%R by (apply lt_0_INR; lia). lra. }
  rewrite Hom. destruct (Nat.even k); ring.
Qed.

(* The imaginary part of the last weight (and of the first) is lost. *)
Theorem C89_nyquist_refuted : exists N Lg w k, Nat.even N = true /\ (0 < N <= Lg)%nat /\ length w = (N / 2 + 1)%nat /\ (k <= N / 2)%nat /\
  nth k w C0 <> C0 /\ nth k (weights_of_filter N (filter_of_weights N Lg w)) C0 = C0.
Proof.
  exists 2%nat, 2%nat, [C1; (0, 1)%R], 1%nat. split; [reflexivity|]. split; [lia|]. split; [reflexivity|]. split; [cbn; lia|]. split.
  { cbn. intros E. injection E as E. lra. }
  assert (Ef : filter_of_weights 2 2 [C1; (0, 1)%R] = filter_of_weights 2 2 [C1; C0]).
  { unfold filter_of_weights. cbn [map]. do 2 f_equal; f_equal; unfold irfft; apply map_ext; intros j; cbn [nth Nat.div Nat.divmod fst Nat.even Nat.sub bsum Conj C0]; reflexivity. }
  rewrite Ef. rewrite C89_round_trip; [|lia|reflexivity|lia|reflexivity|reflexivity|reflexivity|cbn; lia]. cbn. unfold Copp, C0. cbn. f_equal; ring.
Qed.

(* ------------------------------------------------------------------ *)
Local Open Scope R_scope.
(* Time-domain processing: the sum over the channels of the filtered signals. *)
Theorem C89_process : forall gs ss Lg L, gs <> [] -> length gs = length ss -> (0 < Lg)%nat -> (0 < L)%nat ->
  (forall g, In g gs -> length g = Lg) -> (forall s, In s ss -> length s = L) ->
  exists out, process_td gs ss = Some out /\ length out = (Lg + L - 1)%nat /\
    forall n, nth n out 0 = bsum (length gs) (fun m => bsum Lg (fun k => nth k (nth m gs []) 0 * SimulateSpec.at_time (nth m ss []) (Z.of_nat n - Z.of_nat k))).
Proof.
  intros gs ss Lg L Hne Hlen HLg HL Hg Hs. destruct gs as [|g0 gr]; [congruence|]. destruct ss as [|s0 sr]; [discriminate|].
  unfold process_td. cbn [length] in Hlen. rewrite (proj2 (Nat.ltb_ge _ _)) by lia.
  assert (Hc : forall g s, length g = Lg -> length s = L -> length (conv g s) = (Lg + L - 1)%nat /\
     forall n, nth n (conv g s) 0 = bsum Lg (fun k => nth k g 0 * SimulateSpec.at_time s (Z.of_nat n - Z.of_nat k))).
  { intros g s H1 H2. assert (g <> []) by (intros ->; cbn in H1; lia). assert (s <> []) by (intros ->; cbn in H2; lia).
    split; [rewrite conv_length by assumption; lia|]. intros n. rewrite conv_nth by assumption. rewrite bsum_Rsum, H1. reflexivity. }
  assert (Hfold : forall gr sr acc, length gr = length sr -> (forall g, In g gr -> length g = Lg) -> (forall s, In s sr -> length s = L) -> length acc = (Lg + L - 1)%nat ->
     exists out, foldM (fun acc p => add_same acc (conv (fst p) (snd p))) (combine gr sr) acc = Some out /\ length out = (Lg + L - 1)%nat /\
       forall n, nth n out 0 = nth n acc 0 + bsum (length gr) (fun m => nth n (conv (nth m gr []) (nth m sr [])) 0)).
  { clear - Hc. induction gr as [|g gr IH]; intros sr acc Hl Hg Hs Ha.
    - cbn. exists acc. split; [reflexivity|]. split; [exact Ha|]. intros. ring.
    - destruct sr as [|s sr]; [discriminate|]. cbn [combine foldM fst snd].
      destruct (Hc g s (Hg g (or_introl eq_refl)) (Hs s (or_introl eq_refl))) as [Hcl Hcn].
      unfold add_same. rewrite Ha, Hcl, Nat.eqb_refl. cbn [bind].
      destruct (IH sr (vadd acc (conv g s))) as [out [Ho [Hol Hon]]].
      + cbn in Hl. lia.
      + intros; apply Hg; now right.
      + intros; apply Hs; now right.
      + rewrite vadd_length; lia.
      + exists out. split; [exact Ho|]. split; [exact Hol|]. intros n. rewrite Hon. cbn [length]. rewrite bsum_shift. cbn [nth].
        rewrite nth_vadd by lia. ring. }
  destruct (Hc g0 s0 (Hg g0 (or_introl eq_refl)) (Hs s0 (or_introl eq_refl))) as [Hcl Hcn].
  destruct (Hfold gr sr (conv g0 s0)) as [out [Ho [Hol Hon]]]; [lia|intros; apply Hg; now right|intros; apply Hs; now right|exact Hcl|].
  exists out. split; [exact Ho|]. split; [exact Hol|]. intros n. rewrite Hon. cbn [length]. rewrite bsum_shift. cbn [nth]. rewrite Hcn. f_equal.
  apply bsum_ext. intros m Hm. apply Hc; [apply Hg; right; apply nth_In; exact Hm|apply Hs; right; apply nth_In; lia].
Qed.

(* Which design is used.  As long as only weights are designed, the frequency
   response and frequency-domain processing use the latest ones, whatever was
   done in between; likewise for filters and time-domain processing. *)
Definition last_weights (l : list call) (w0 : option (list (list C))) : option (list (list C)) :=
  fold_left (fun a o => match o with DesignWeights w => Some w | _ => a end) l w0.
Definition last_filters (l : list call) (g0 : option (list (list R))) : option (list (list R)) :=
  fold_left (fun a o => match o with DesignFilters g => Some g | _ => a end) l g0.
Theorem C89_latest : forall s l,
  ((forall g, ~ In (DesignFilters g) l) -> option_map snd (use_weights s (design_run s l)) = last_weights l None) /\
  ((forall w, ~ In (DesignWeights w) l) -> option_map snd (use_filters s (design_run s l)) = last_filters l None).
Proof.
  intros s l. split; intros H.
  - assert (Hgen : forall d, (d_weights d = None -> d_filters d = None) -> option_map snd (use_weights s (fold_left (design_step s) l d)) = last_weights l (d_weights d)).
    { unfold last_weights. induction l as [|o l IH]; intros [[w|] [g|]] Hd; cbn in Hd; try (discriminate Hd; reflexivity); try reflexivity;
        cbn [fold_left]; (rewrite IH; [|intros g' Hg; apply (H g'); now right|]); destruct o as [w'|g'| |]; cbn; try reflexivity; try discriminate; try (exfalso; apply (H g'); now left). }
    apply Hgen. reflexivity.
  - assert (Hgen : forall d, (d_filters d = None -> d_weights d = None) -> option_map snd (use_filters s (fold_left (design_step s) l d)) = last_filters l (d_filters d)).
    { unfold last_filters. induction l as [|o l IH]; intros [[w|] [g|]] Hd; cbn in Hd; try (discriminate Hd; reflexivity); try reflexivity;
        cbn [fold_left]; (rewrite IH; [|intros g' Hg; apply (H g'); now right|]); destruct o as [w'|g'| |]; cbn; try reflexivity; try discriminate; try (exfalso; apply (H w'); now left). }
    apply Hgen. reflexivity.
Qed.

(* But a design is never invalidated by a later one: after processing once, new
   weights have no effect on time-domain processing. *)
Theorem C89_stale_refuted : exists s w1 w2,
  filter_of_weights (b_N s) (b_Lg s) w2 <> filter_of_weights (b_N s) (b_Lg s) w1 /\
  option_map snd (use_filters s (design_run s [DesignWeights [w1]; ProcessTD; DesignWeights [w2]]))
  = Some [filter_of_weights (b_N s) (b_Lg s) w1].
Proof.
  exists (make_settings 2 None None 0 0), [C1; C1], [C0; C0]. split; [|reflexivity].
  cbn [make_settings b_N b_Lg Nat.odd negb Nat.even]. intros E.
  assert (H1 : nth 1 (weights_of_filter 2 (filter_of_weights 2 2 [C1; C1])) C0 = Copp C1).
  { rewrite C89_round_trip; [|lia|reflexivity|lia|reflexivity|reflexivity|reflexivity|cbn; lia]. reflexivity. }
  assert (H2 : nth 1 (weights_of_filter 2 (filter_of_weights 2 2 [C0; C0])) C0 = Copp C0).
  { rewrite C89_round_trip; [|lia|reflexivity|lia|reflexivity|reflexivity|reflexivity|cbn; lia]. reflexivity. }
  rewrite E in H2. rewrite H1 in H2. apply (f_equal fst) in H2. cbn in H2. lra.
Qed.

(* Concatenating two beamformers keeps the settings when the filters are as long
   as the transform, and otherwise exchanges the two lengths. *)
Theorem C89_add : forall N hop zpf zpb, add_settings (make_settings N None hop zpf zpb) = make_settings N None hop zpf zpb.
Proof.
  intros N hop zpf zpb. unfold add_settings, make_settings. cbn [b_N b_Lg b_hop b_zpf b_zpb].
  destruct (Nat.odd N) eqn:E.
  - assert (E2 : Nat.odd (N + 1) = false) by (rewrite Nat.odd_add, E; reflexivity). rewrite E2. reflexivity.
  - rewrite E. reflexivity.
Qed.
Theorem C89_add_refuted : exists s, s = make_settings 1024 (Some 2048%nat) None 0 0 /\
  b_N (add_settings s) = b_Lg s /\ b_Lg (add_settings s) = b_N s /\ b_N s <> b_Lg s.
Proof. eexists. split; [reflexivity|]. unfold add_settings, make_settings. cbn [b_N b_Lg].
  replace (Nat.odd 1024) with false by (vm_compute; reflexivity). cbn [b_N b_Lg].
  replace (Nat.odd 2048) with false by (vm_compute; reflexivity). split; [reflexivity|]. split; [reflexivity|]. lia. Qed.

Print Assumptions C73_mvdr.
Print Assumptions C73_perceptual.
Print Assumptions C89_filters.
Print Assumptions C89_weights.
Print Assumptions C89_round_trip.
Print Assumptions C89_nyquist_refuted.
Print Assumptions C89_process.
Print Assumptions C89_latest.
Print Assumptions C89_stale_refuted.
Print Assumptions C89_add.
Print Assumptions C89_add_refuted.

Example filter_case : exists w, (length w = 4 / 2 + 1)%nat /\ snd (nth 0 w C0) = 0 /\ snd (nth 2 w C0) = 0 /\
  nth 1 (weights_of_filter 4 (filter_of_weights 4 6 w)) C0 = (-2, -3).
Proof.
  exists [C1; (2, 3); C1]. split; [reflexivity|]. split; [reflexivity|]. split; [reflexivity|].
  rewrite C89_round_trip; [|lia|reflexivity|lia|reflexivity|reflexivity|reflexivity|cbn; lia]. cbn. unfold Copp. cbn. f_equal; ring.
Qed.
Example process_case : exists out, process_td [[1; 0]; [0; 1]] [[1; 2; 3]; [4; 5; 6]] = Some out /\ nth 1 out 0 = 6.
Proof.
  destruct (C89_process [[1; 0]; [0; 1]] [[1; 2; 3]; [4; 5; 6]] 2 3) as [out [Ho [_ Hn]]]; try discriminate; try reflexivity; try lia.
  - intros g [<-|[<-|[]]]; reflexivity.
  - intros g [<-|[<-|[]]]; reflexivity.
  - exists out. split; [exact Ho|]. rewrite Hn. unfold SimulateSpec.at_time. cbn. unfold Pos.to_nat. cbn. lra.
Qed.
Example latest_case : forall s w1 w2, option_map snd (use_weights s (design_run s [DesignWeights w1; ProcessTD; DesignWeights w2; Response])) = Some w2.
Proof. intros. rewrite (proj1 (C89_latest s _)); [reflexivity|]. intros g H. cbn in H. intuition discriminate. Qed.
