(** C158: amplitudes of FRIDA and the update of its mapping. *)
From Coq Require Import List ZArith Lia Reals Lra Bool.
From Verif Require Import Base BaseProofs Sum Cpx SphereModel FridaModel FridaProofs FridaProps FridaImgProps FridaAmpModel.
Import ListNotations.
Local Open Scope R_scope.

(** ** Specification *)
Definition sq_dist (rows n : nat) (A : mat) (b x : vect) : R := bsum rows (fun i => (b i - bsum n (fun j => A i j * x j)) ^ 2).
(** scipy.optimize.nnls returns x: no non-negative vector is closer *)
Definition is_nnls (n : nat) (A : mat) (b x : vect) : Prop := (forall k, (k < n)%nat -> 0 <= x k) /\
  forall y, (forall k, (k < n)%nat -> 0 <= y k) -> sq_dist n n A b x <= sq_dist n n A b y.
(** scipy.linalg.lstsq with the identity returns the pseudo inverse P *)
Definition is_pinv (L K : nat) (F P : mat) : Prop :=
  (forall i k, (i < L)%nat -> (k < K)%nat -> mm K F (mm L P F) i k = F i k) /\
  (forall k j, (k < K)%nat -> (j < L)%nat -> mm L P (mm K F P) k j = P k j) /\
  (forall i j, (i < L)%nat -> (j < L)%nat -> mm K F P i j = mm K F P j i).
(** scipy.linalg.solve returns X, when the matrix is regular *)
Definition is_solution (K L : nat) (A B X : mat) : Prop :=
  (forall y, (forall k, (k < K)%nat -> bsum K (fun l => A k l * y l) = 0) -> forall k, (k < K)%nat -> y k = 0) ->
  forall k j, (k < K)%nat -> (j < L)%nat -> mm K A X k j = B k j.
(** no two sources can be exchanged for others with the same visibilities *)
Definition told_apart (K rows : nat) (A : mat) : Prop := forall y, (forall r, (r < rows)%nat -> bsum K (fun k => A r k * y k) = 0) -> forall k, (k < K)%nat -> y k = 0.

(** ** Amplitudes *)
Lemma sq_dist_nonneg rows n A b x : 0 <= sq_dist rows n A b x.
Proof. apply bsum_nonneg. intros i _. apply pow2_ge_0. Qed.
Lemma sq_dist_zero rows n A b x : sq_dist rows n A b x <= 0 -> forall i, (i < rows)%nat -> bsum n (fun j => A i j * x j) = b i.
Proof.
  intros H i Hi. pose proof (sq_dist_nonneg rows n A b x) as N. assert (Z : sq_dist rows n A b x = 0) by lra. unfold sq_dist in Z. pose proof (bsum_all_zero rows _ (fun i _ => pow2_ge_0 _) Z i Hi) as Q. cbv beta in Q. nra.
Qed.
Lemma gram_zero rows K A y : (forall k, (k < K)%nat -> bsum K (fun l => mm rows (transpose A) A k l * y l) = 0) -> forall r, (r < rows)%nat -> bsum K (fun k => A r k * y k) = 0.
Proof.
  intros H r Hr. assert (Z : bsum rows (fun r => bsum K (fun k => A r k * y k) ^ 2) = 0).
  { transitivity (bsum K (fun k => y k * bsum K (fun l => mm rows (transpose A) A k l * y l))); [|apply bsum_zero_ext; intros k Hk; rewrite H by exact Hk; ring].
    transitivity (bsum rows (fun r => bsum K (fun k => bsum K (fun l => y k * (A r k * A r l * y l))))).
    - apply bsum_ext. intros r' _. cbn [pow]. rewrite Rmult_1_r, <- bsum_scal_r. apply bsum_ext. intros k _. rewrite <- bsum_scal. apply bsum_ext. intros l _. ring.
    - rewrite bsum_swap. apply bsum_ext. intros k _. rewrite bsum_swap, <- bsum_scal. apply bsum_ext. intros l _. unfold mm, transpose. rewrite <- bsum_scal_r, <- bsum_scal. reflexivity. }
  pose proof (bsum_all_zero rows _ (fun i _ => pow2_ge_0 _) Z r Hr) as Q. cbv beta in Q. nra.
Qed.
Lemma a_ri_exact K n px py phi (power : vect) (a : nat -> C) b r :
  (forall i, (i < n * (n - 1))%nat -> a i = csum K (fun k => Cmul (RtoC (power k)) (build_mtx_amp (phi k) (px b) (py b) (nth i (pairs n) (0, 0)%nat)))) ->
  (r < 2 * (n * (n - 1)))%nat -> a_ri (n * (n - 1)) a r = bsum K (fun k => build_mtx_amp_ri n px py b phi r k * power k).
Proof.
  intros H Hr. unfold a_ri, build_mtx_amp_ri. assert (F1 : forall f, fst (csum K f) = bsum K (fun k => fst (f k))) by (intros; reflexivity). assert (F2 : forall f, snd (csum K f) = bsum K (fun k => snd (f k))) by (intros; reflexivity).
  destruct (Nat.ltb_spec r (n * (n - 1))).
  - rewrite H by assumption. rewrite F1. apply bsum_ext. intros k _. unfold Cmul, RtoC. cbn [fst snd]. ring.
  - rewrite H by lia. rewrite F2. apply bsum_ext. intros k _. unfold Cmul, RtoC. cbn [fst snd]. ring.
Qed.

(** the call of nnls for one band *)
Definition nnls_called (nnls : nat -> mat -> vect -> vect) (K n_mics : nat) (px py : nat -> vect) (a : nat -> nat -> C) (phi : vect) (b : nat) : Prop :=
  let nv := (n_mics * (n_mics - 1))%nat in let A := build_mtx_amp_ri n_mics px py b phi in
  let N := fun k l => bsum (2 * nv) (fun r => A r k * A r l) in let c := fun k => bsum (2 * nv) (fun r => A r k * a_ri nv (a b) r) in
  is_nnls K N c (nnls K N c).
(** C158.  For exact visibilities of sources at the azimuths found, the amplitudes are the powers of the sources and the error is zero,
    when the array tells the sources apart. *)
Theorem C158_amplitudes : forall nnls K n_mics px py a phi power b, nnls_called nnls K n_mics px py a phi b -> (forall k, (k < K)%nat -> 0 <= power k) ->
  told_apart K (2 * (n_mics * (n_mics - 1))) (build_mtx_amp_ri n_mics px py b phi) ->
  (forall i, (i < n_mics * (n_mics - 1))%nat -> a b i = csum K (fun k => Cmul (RtoC (power k)) (build_mtx_amp (phi k) (px b) (py b) (nth i (pairs n_mics) (0, 0)%nat)))) ->
  (forall k, (k < K)%nat -> amplitude_band nnls K n_mics px py a phi b k = power k) /\ error_band nnls K n_mics px py a phi b = 0.
Proof.
  intros nnls K n px py a phi power b HN HP HT Ha. set (rows := (2 * (n * (n - 1)))%nat) in *. set (A := build_mtx_amp_ri n px py b phi) in *.
  assert (EA : forall r, (r < rows)%nat -> a_ri (n * (n - 1)) (a b) r = bsum K (fun k => A r k * power k)) by (intros r Hr; now apply a_ri_exact).
  set (rhs := mv rows (transpose A) (a_ri (n * (n - 1)) (a b))).
  assert (RP : forall k, (k < K)%nat -> bsum K (fun l => mm rows (transpose A) A k l * power l) = rhs k).
  { intros k Hk. unfold rhs, mv, mm, transpose. rewrite (bsum_ext rows _ (fun r => bsum K (fun l => A r k * A r l * power l))) by (intros r Hr; rewrite EA by exact Hr; rewrite <- bsum_scal; apply bsum_ext; intros; ring).
    rewrite bsum_swap. apply bsum_ext. intros l _. now rewrite <- bsum_scal_r. }
  set (x := amplitude_band nnls K n px py a phi b). assert (X : x = nnls K (mm rows (transpose A) A) rhs) by reflexivity.
  destruct HN as [_ Opt]. cbv zeta in Opt. fold rows A in Opt. change (fun k l => bsum rows (fun r => A r k * A r l)) with (mm rows (transpose A) A) in Opt. change (fun k => bsum rows (fun r => A r k * a_ri (n * (n - 1)) (a b) r)) with rhs in Opt. rewrite <- X in Opt. specialize (Opt power HP).
  assert (Z0 : sq_dist K K (mm rows (transpose A) A) rhs power = 0) by (apply bsum_zero_ext; intros k Hk; rewrite RP by exact Hk; ring).
  rewrite Z0 in Opt. pose proof (sq_dist_zero _ _ _ _ _ Opt) as RX.
  assert (E : forall k, (k < K)%nat -> x k = power k).
  { intros k Hk. assert (D : x k - power k = 0); [|lra]. apply (HT (fun k => x k - power k)); [|exact Hk]. apply gram_zero. intros l Hl. rewrite (bsum_ext K _ (fun j => mm rows (transpose A) A l j * x j - mm rows (transpose A) A l j * power j)) by (intros; ring). rewrite bsum_sub, RX, RP by exact Hl. ring. }
  split; [exact E|]. unfold error_band. fold x. fold A. rewrite bsum_zero_ext; [apply sqrt_0|]. intros r Hr. rewrite EA by exact Hr. unfold mv. rewrite (bsum_ext K (fun j => A r j * x j) (fun j => A r j * power j)) by (intros k Hk; now rewrite E). ring.
Qed.
Print Assumptions C158_amplitudes.

(** ** The update of the mapping *)
Section Update.
Variables (L K : nat) (F P Q G0 A : mat).
Hypothesis F1 : forall i k, (i < L)%nat -> (k < K)%nat -> mm K F (mm L P F) i k = F i k.
Hypothesis F2 : forall k j, (k < K)%nat -> (j < L)%nat -> mm L P (mm K F P) k j = P k j.
Hypothesis F3 : forall i j, (i < L)%nat -> (j < L)%nat -> mm K F P i j = mm K F P j i.
Hypothesis HQ : forall k j, (k < K)%nat -> (j < L)%nat -> mm K (mm L P (transpose P)) Q k j = P k j.
Hypothesis Find : told_apart K L F.
Definition act (n : nat) (B : mat) (x : vect) : vect := fun i => bsum n (fun j => B i j * x j).
Lemma act_mm n m B B' x i : bsum m (fun j => mm n B B' i j * x j) = bsum n (fun k => B i k * act m B' x k).
Proof. unfold mm, act. rewrite (bsum_ext m _ (fun j => bsum n (fun k => B i k * (B' k j * x j)))) by (intros j _; rewrite <- bsum_scal_r; apply bsum_ext; intros; ring). rewrite bsum_swap. apply bsum_ext. intros k _. now rewrite <- bsum_scal. Qed.
Lemma left_inv x k : (k < K)%nat -> act L P (act K F x) k = x k.
Proof.
  intros Hk. assert (D : act L P (act K F x) k - x k = 0); [|lra]. apply (Find (fun k => act L P (act K F x) k - x k)); [|exact Hk]. intros r Hr.
  rewrite (bsum_ext K _ (fun k => F r k * act L P (act K F x) k - F r k * x k)) by (intros; ring). rewrite bsum_sub.
  assert (E : bsum K (fun k => F r k * act L P (act K F x) k) = bsum K (fun k => mm K F (mm L P F) r k * x k)).
  { rewrite act_mm. apply bsum_ext. intros j _. f_equal. unfold act at 1 3. rewrite act_mm. reflexivity. }
  rewrite E. rewrite (bsum_ext K (fun k => mm K F (mm L P F) r k * x k) (fun k => F r k * x k)) by (intros l Hl; now rewrite F1). ring.
Qed.
(** P^T = F P P^T *)
Lemma Pt i k : (i < L)%nat -> (k < K)%nat -> P k i = bsum K (fun l => F i l * mm L P (transpose P) l k).
Proof.
  intros Hi Hk. rewrite <- (F2 k i Hk Hi). unfold mm at 1. rewrite (bsum_ext L _ (fun j => mm K F P i j * P k j)) by (intros j Hj; rewrite (F3 j i) by assumption; ring).
  rewrite (act_mm K L F P (fun j => P k j) i). reflexivity.
Qed.
Lemma low_acts c i : (i < L)%nat -> bsum K (fun k => P k i * act L Q c k) = bsum K (fun l => F i l * act L P c l).
Proof.
  intros Hi. rewrite (bsum_ext K _ (fun k => bsum K (fun l => F i l * (mm L P (transpose P) l k * act L Q c k)))) by (intros k Hk; rewrite Pt by assumption; rewrite <- bsum_scal_r; apply bsum_ext; intros; ring).
  rewrite bsum_swap. apply bsum_ext. intros l Hl. rewrite bsum_scal. f_equal. unfold act at 2. rewrite (bsum_ext L (fun j => P l j * c j) (fun j => mm K (mm L P (transpose P)) Q l j * c j)) by (intros j Hj; now rewrite HQ). symmetry. exact (act_mm K L (mm L P (transpose P)) Q c l).
Qed.
Definition G1 : mat := fun i j => mm K A P i j + G0 i j - mm K (mm L G0 (transpose P)) Q i j.
Lemma G1_acts c i : bsum L (fun j => G1 i j * c j) = bsum K (fun k => A i k * act L P c k) + bsum L (fun j => G0 i j * (c j - bsum K (fun l => F j l * act L P c l))).
Proof.
  unfold G1. rewrite (bsum_ext L _ (fun j => (mm K A P i j * c j + G0 i j * c j) - mm K (mm L G0 (transpose P)) Q i j * c j)) by (intros; ring). rewrite bsum_sub, bsum_plus, (act_mm K L A P c i), (act_mm K L (mm L G0 (transpose P)) Q c i).
  rewrite (bsum_ext L (fun j => G0 i j * (c j - _)) (fun j => G0 i j * c j - G0 i j * bsum K (fun l => F j l * act L P c l))) by (intros; ring). rewrite bsum_sub.
  assert (E : bsum K (fun k => mm L G0 (transpose P) i k * act L Q c k) = bsum L (fun j => G0 i j * bsum K (fun l => F j l * act L P c l))).
  { rewrite act_mm. apply bsum_ext. intros j Hj. unfold act at 1, transpose. now rewrite low_acts. }
  rewrite E. ring.
Qed.
Lemma G1_series x i : bsum L (fun j => G1 i j * act K F x j) = bsum K (fun k => A i k * x k).
Proof.
  rewrite G1_acts. rewrite (bsum_ext K (fun k => A i k * act L P (act K F x) k) (fun k => A i k * x k)) by (intros k Hk; now rewrite left_inv).
  rewrite (bsum_zero_ext L); [ring|]. intros j Hj. rewrite (bsum_ext K (fun l => F j l * act L P (act K F x) l) (fun l => F j l * x l)) by (intros l Hl; now rewrite left_inv). unfold act. ring.
Qed.
Lemma G1_rest c i : (forall k, (k < K)%nat -> bsum L (fun j => F j k * c j) = 0) -> bsum L (fun j => G1 i j * c j) = bsum L (fun j => G0 i j * c j).
Proof.
  intros H. assert (Z : forall k, (k < K)%nat -> act L P c k = 0).
  { intros k Hk. unfold act. rewrite (bsum_ext L _ (fun j => bsum L (fun i => P k i * (mm K F P j i * c j)))).
    - rewrite bsum_swap. apply bsum_zero_ext. intros i' Hi'. rewrite bsum_scal. unfold mm. rewrite (bsum_ext L _ (fun j => bsum K (fun l => P l i' * (F j l * c j)))) by (intros j _; rewrite <- bsum_scal_r; apply bsum_ext; intros; ring).
      rewrite bsum_swap. rewrite bsum_zero_ext; [ring|]. intros l Hl. rewrite bsum_scal, H by exact Hl. ring.
    - intros j Hj. rewrite <- (F2 k j Hk Hj) at 1. unfold mm at 1. rewrite <- bsum_scal_r. apply bsum_ext. intros i' Hi'. rewrite (F3 i' j) by assumption. ring. }
  rewrite G1_acts. rewrite (bsum_zero_ext K) by (intros k Hk; rewrite Z by exact Hk; ring). rewrite Rplus_0_l. apply bsum_ext. intros j _. rewrite (bsum_zero_ext K) by (intros l Hl; rewrite Z by exact Hl; ring). ring.
Qed.
Lemma gram_regular y : (forall k, (k < K)%nat -> bsum K (fun l => mm L P (transpose P) k l * y l) = 0) -> forall k, (k < K)%nat -> y k = 0.
Proof.
  intros H k Hk. assert (Z : forall j, (j < L)%nat -> bsum K (fun k => P k j * y k) = 0).
  { intros j Hj. apply (gram_zero L K (transpose P) y); [|exact Hj]. exact H. }
  transitivity (bsum K (fun l => act L P (act K F (fun m => if Nat.eqb m k then 1 else 0)) l * y l)).
  - rewrite (bsum_ext K _ (fun l => (if Nat.eqb l k then 1 else 0) * y l)) by (intros l Hl; now rewrite left_inv). rewrite (bsum_delta K k); [rewrite Nat.eqb_refl; ring|exact Hk|]. intros l _ N. destruct (Nat.eqb_spec l k); [contradiction|ring].
  - set (f := act K F _). unfold act. rewrite (bsum_ext K _ (fun l => bsum L (fun j => f j * (P l j * y l)))) by (intros l _; rewrite <- bsum_scal_r; apply bsum_ext; intros; ring). rewrite bsum_swap. apply bsum_zero_ext. intros j Hj. rewrite bsum_scal, Z by exact Hj. ring.
Qed.
End Update.

(** distinct azimuths can be told apart from their Fourier coefficients *)
Lemma series_apart M K phi : (K <= M + 1)%nat -> (forall k l, (k < K)%nat -> (l < K)%nat -> cis (phi k) = cis (phi l) -> k = l) -> told_apart K (2 * M + 1) (amp2freq_ri M phi).
Proof.
  intros HK HD y H k Hk. assert (Z : RtoC (y k) = C0); [|exact (f_equal fst Z)].
  apply (vandermonde K (fun k => RtoC (y k)) (fun k => cis (phi k)) HD); [|exact Hk]. intros n Hn.
  assert (CP : forall l, cpow (cis (phi l)) n = cis (INR n * phi l)). { intros l. clear. induction n as [|n IH]; [cbn; rewrite Rmult_0_l; symmetry; apply cis_0|]. cbn [cpow]. rewrite IH, S_INR, <- cis_add. f_equal. ring. }
  rewrite (csum_ext K _ (fun l => Cmul (RtoC (y l)) (cis (INR n * phi l)))) by (intros l _; now rewrite CP).
  assert (E : forall l, cis (- ((INR (M - n) - INR M) * phi l)) = cis (INR n * phi l)) by (intros l; f_equal; rewrite minus_INR by lia; ring).
  apply C_eq.
  - change (bsum K (fun l => fst (Cmul (RtoC (y l)) (cis (INR n * phi l)))) = 0). rewrite <- (H (M - n)%nat) by lia. apply bsum_ext. intros l _. unfold amp2freq_ri. destruct (Nat.ltb_spec (M - n) (M + 1)); [|lia]. rewrite E. unfold Cmul, RtoC. cbn [fst snd]. ring.
  - change (bsum K (fun l => snd (Cmul (RtoC (y l)) (cis (INR n * phi l)))) = 0). destruct (Nat.eq_dec n 0) as [->|N0].
    + apply bsum_zero_ext. intros l _. cbn [INR]. rewrite Rmult_0_l, cis_0. cbn. ring.
    + rewrite <- (H (M + 1 + (M - n))%nat) by lia. apply bsum_ext. intros l _. unfold amp2freq_ri. destruct (Nat.ltb_spec (M + 1 + (M - n)) (M + 1)); [lia|]. replace (M + 1 + (M - n) - (M + 1))%nat with (M - n)%nat by lia. rewrite E. unfold Cmul, RtoC. cbn [fst snd]. ring.
Qed.

(** C158.  The updated mapping takes the Fourier coefficients of sources at the azimuths found exactly to their visibilities, however
    short the series, and is the old mapping on everything orthogonal to those coefficients. *)
Theorem C158_update : forall lstsq solve K M n_mics px py phi b G0, let P := lstsq (2 * M + 1)%nat K (amp2freq_ri M phi) in is_pinv (2 * M + 1) K (amp2freq_ri M phi) P ->
  is_solution K (2 * M + 1) (mm (2 * M + 1) P (transpose P)) P (solve K (2 * M + 1)%nat (mm (2 * M + 1) P (transpose P)) P) -> (K <= M + 1)%nat ->
  (forall k l, (k < K)%nat -> (l < K)%nat -> cis (phi k) = cis (phi l) -> k = l) ->
  let G := updated_G lstsq solve K M n_mics px py phi b G0 in
  (forall alpha i, bsum (2 * M + 1) (fun j => G i j * bsum K (fun k => amp2freq_ri M phi j k * alpha k)) = bsum K (fun k => build_mtx_amp_ri n_mics px py b phi i k * alpha k)) /\
  (forall c i, (forall k, (k < K)%nat -> bsum (2 * M + 1) (fun j => amp2freq_ri M phi j k * c j) = 0) -> bsum (2 * M + 1) (fun j => G i j * c j) = bsum (2 * M + 1) (fun j => G0 i j * c j)).
Proof.
  intros lstsq solve K M n px py phi b G0 P HL HS HK HD G. set (L := (2 * M + 1)%nat) in *. set (F := amp2freq_ri M phi) in *. destruct HL as (F1 & F2 & F3).
  assert (Find : told_apart K L F) by (apply series_apart; [lia|exact HD]).
  set (Q := solve K L (mm L P (transpose P)) P). assert (HQ : forall k j, (k < K)%nat -> (j < L)%nat -> mm K (mm L P (transpose P)) Q k j = P k j) by (apply HS; now apply (gram_regular L K F P F1)).
  set (A := build_mtx_amp_ri n px py b phi). change G with (G1 L K P Q G0 A). split.
  - intros alpha i. exact (G1_series L K F P Q G0 A F1 F2 F3 HQ Find alpha i).
  - intros c i H. exact (G1_rest L K F P Q G0 A F2 F3 HQ c i H).
Qed.
Print Assumptions C158_update.

(** ** The passes *)
(** C158.  The result of several passes is that of the pass whose visibilities fit best, the first of them: no pass found azimuths with a
    smaller error, and the mapping of every pass is the last one updated with the best azimuths so far.  Without updates there is one pass. *)
Theorem C158_best : forall nnls lstsq solve K M n_mics n_bands px py a recon n G, let err := fun phi => bsum n_bands (fun b => error_band nnls K n_mics px py a phi b) in
  exists (Gs : nat -> nat -> mat) (w : nat -> nat),
    Gs 0%nat = G /\
    (forall i, Gs (S i) = fun b => updated_G lstsq solve K M n_mics px py (recon (Gs (w i))) b (Gs i b)) /\
    (forall i, (w i <= i)%nat /\ (forall j, (j <= i)%nat -> err (recon (Gs (w i))) <= err (recon (Gs j))) /\ (forall j, (j < w i)%nat -> err (recon (Gs (w i))) < err (recon (Gs j)))) /\
    recon_multiband nnls lstsq solve K M n_mics n_bands px py a recon (Some (S n)) G =
      Some (fun k => mod_2pi (recon (Gs (w n)) k - PI), fun k b => amplitude_band nnls K n_mics px py a (recon (Gs (w n))) b k) /\
    recon_multiband nnls lstsq solve K M n_mics n_bands px py a recon None G = recon_multiband nnls lstsq solve K M n_mics n_bands px py a recon (Some 1%nat) G.
Proof.
  intros nnls lstsq solve K M n_mics n_bands px py a recon n G err.
  set (ps := fun i => passes nnls lstsq solve K M n_mics n_bands px py a recon i G). set (Gs := fun i => fst (ps i)).
  assert (ST : forall i, ps (S i) = pass nnls lstsq solve K M n_mics n_bands px py a recon (ps i)) by reflexivity.
  set (bst := fun i => (err (recon (Gs i)), recon (Gs i), (fun k b => amplitude_band nnls K n_mics px py a (recon (Gs i)) b k) : mat) : best).
  set (w := fix w i := match i with O => 0%nat | S i' => if Rlt_dec (err (recon (Gs (S i')))) (err (recon (Gs (w i')))) then S i' else w i' end).
  assert (W : forall i, snd (ps (S i)) = Some (bst (w i))).
  { induction i as [|i IH].
    - reflexivity.
    - rewrite ST. destruct (ps (S i)) as [Gi o] eqn:E. cbn [snd] in IH. rewrite IH. unfold pass. cbn [snd]. assert (EG : Gi = Gs (S i)) by (unfold Gs; now rewrite E). rewrite EG. cbn [w]. fold w. unfold bst at 2. cbn [fst]. unfold err. destruct (Rlt_dec _ _); reflexivity. }
  exists Gs, w. split; [reflexivity|]. split; [|split; [|split; [|reflexivity]]].
  - intros i. unfold Gs at 1. rewrite ST. pose proof (W i) as Wi. rewrite ST in Wi. destruct (ps i) as [Gi o] eqn:E. assert (EG : Gs i = Gi) by (unfold Gs; now rewrite E). unfold pass in *. cbn [fst snd] in *. injection Wi as Wi. rewrite Wi, EG. reflexivity.
  - induction i as [|i (IL & IM & IF)].
    + change (w 0%nat) with 0%nat. split; [lia|]. split; [intros j Hj; replace j with 0%nat by lia; apply Rle_refl|intros j Hj; lia].
    + change (w (S i)) with (if Rlt_dec (err (recon (Gs (S i)))) (err (recon (Gs (w i)))) then S i else w i). destruct (Rlt_dec _ _) as [D|D].
      * split; [lia|]. split; [intros j Hj; destruct (Nat.eq_dec j (S i)) as [->|]; [lra|]; specialize (IM j ltac:(lia)); lra|intros j Hj; specialize (IM j ltac:(lia)); lra].
      * split; [lia|]. split; [intros j Hj; destruct (Nat.eq_dec j (S i)) as [->|]; [lra|apply IM; lia]|exact IF].
  - unfold recon_multiband. change (passes nnls lstsq solve K M n_mics n_bands px py a recon (S n) G) with (ps (S n)). rewrite W. reflexivity.
Qed.
Print Assumptions C158_best.

(** ** Noisy visibilities *)
(** two microphones, and sources whose phase differences are 0 and PI/3 *)
Definition two_x : nat -> vect := fun _ m => match m with O => 0 | _ => PI / 3 end.
Definition two_y : nat -> vect := fun _ _ => 0.
Definition two_phi : vect := fun k => match k with O => PI / 2 | _ => 0 end.
Definition two_A : mat := fun r k => match k with
  | O => match r with 0%nat | 1%nat => 1 | _ => 0 end
  | _ => match r with 0%nat | 1%nat => 1 / 2 | 2%nat => sqrt 3 / 2 | _ => - (sqrt 3 / 2) end end.
Lemma two_mtx r k : (r < 4)%nat -> (k < 2)%nat -> build_mtx_amp_ri 2 two_x two_y 0 two_phi r k = two_A r k.
Proof.
  intros Hr Hk. unfold build_mtx_amp_ri, build_mtx_amp, baseline, two_x, two_y, two_phi.
  do 2 (destruct k as [|k]; [do 4 (destruct r as [|r]; [cbn -[PI cos sin sqrt Rdiv]; rewrite ?cos_PI2, ?sin_PI2, ?cos_0, ?sin_0;
    match goal with
    | |- cos ?e = 1 => replace e with 0 by ring; apply cos_0
    | |- sin ?e = 0 => replace e with 0 by ring; apply sin_0
    | |- cos ?e = 1 / 2 => first [replace e with (PI / 3) by field; apply cos_PI3 | replace e with (- (PI / 3)) by field; rewrite cos_neg; apply cos_PI3]
    | |- sin ?e = sqrt 3 / 2 => replace e with (PI / 3) by field; apply sin_PI3
    | |- sin ?e = - (sqrt 3 / 2) => replace e with (- (PI / 3)) by field; rewrite sin_neg, sin_PI3; reflexivity
    end|]); lia|]). lia.
Qed.
Lemma two_apart : told_apart 2 4 (build_mtx_amp_ri 2 two_x two_y 0 two_phi).
Proof.
  intros y H. assert (P3 : 0 < sqrt 3) by (apply sqrt_lt_R0; lra). pose proof (H 0%nat ltac:(lia)) as H0. pose proof (H 2%nat ltac:(lia)) as H2. cbn [bsum] in H0, H2. rewrite !two_mtx in H0, H2 by lia. cbn [two_A] in H0, H2.
  assert (Y1 : y 1%nat = 0) by nra. rewrite Y1 in H0. intros k Hk. destruct k as [|[|k]]; [lra|exact Y1|lia].
Qed.

(** C158.  With noise the amplitudes are not the non-negative ones that fit the visibilities best: non-negative least squares is applied to
    the normal equations instead of the equations. *)
Theorem C158_noise_refuted : exists n px py a phi y, (forall k, (k < 2)%nat -> 0 <= y k) /\ told_apart 2 (2 * (n * (n - 1))) (build_mtx_amp_ri n px py 0 phi) /\
  forall nnls, nnls_called nnls 2 n px py a phi 0 ->
    sqrt (sq_dist (2 * (n * (n - 1))) 2 (build_mtx_amp_ri n px py 0 phi) (a_ri (n * (n - 1)) (a 0%nat)) y) < error_band nnls 2 n px py a phi 0.
Proof.
  set (a := fun (_ i : nat) => match i with O => (1, -1) | _ => (1, 1) end : C).
  exists 2%nat, two_x, two_y, a, two_phi, (fun k => match k with O => 1 | _ => 0 end). split; [intros k _; destruct k; lra|]. split; [exact two_apart|].
  intros nnls H. unfold nnls_called in H. cbv zeta in H. unfold error_band, amplitude_band. change (2 * (2 * (2 - 1)))%nat with 4%nat in *. change (2 * (2 - 1))%nat with 2%nat in *.
  set (A := build_mtx_amp_ri 2 two_x two_y 0 two_phi) in *. change (fun k l => bsum 4 (fun r => A r k * A r l)) with (mm 4 (transpose A) A) in H. change (fun k => bsum 4 (fun r => A r k * a_ri 2 (a 0%nat) r)) with (mv 4 (transpose A) (a_ri 2 (a 0%nat))) in H.
  set (x := nnls 2%nat _ _) in *. destruct H as [Hx Opt]. pose proof (Hx 0%nat ltac:(lia)) as X0. pose proof (Hx 1%nat ltac:(lia)) as X1. clear Hx.
  assert (S3 : sqrt 3 * sqrt 3 = 3) by (apply sqrt_sqrt; lra). assert (P3 : 0 < sqrt 3) by (apply sqrt_lt_R0; lra). set (s := sqrt 3) in *. assert (B3 : s < 2) by nra.
  specialize (Opt (fun k => match k with O => (5 - s) / 5 | _ => 0 end)). cbv beta in Opt.
  assert (Opt' : sq_dist 2 2 (mm 4 (transpose A) A) (mv 4 (transpose A) (a_ri 2 (a 0%nat))) x <= sq_dist 2 2 (mm 4 (transpose A) A) (mv 4 (transpose A) (a_ri 2 (a 0%nat))) (fun k => match k with O => (5 - s) / 5 | _ => 0 end)) by (apply Opt; intros k _; destruct k; lra).
  clear Opt. set (c := mv 4 (transpose A) (a_ri 2 (a 0%nat))) in *.
  assert (N00 : mm 4 (transpose A) A 0%nat 0%nat = 2) by (unfold mm, transpose, A; cbn [bsum]; rewrite !two_mtx by lia; cbn [two_A]; ring).
  assert (N01 : mm 4 (transpose A) A 0%nat 1%nat = 1) by (unfold mm, transpose, A; cbn [bsum]; rewrite !two_mtx by lia; cbn [two_A]; field).
  assert (N10 : mm 4 (transpose A) A 1%nat 0%nat = 1) by (unfold mm, transpose, A; cbn [bsum]; rewrite !two_mtx by lia; cbn [two_A]; field).
  assert (N11 : mm 4 (transpose A) A 1%nat 1%nat = 2) by (unfold mm, transpose, A; cbn [bsum]; rewrite !two_mtx by lia; cbn [two_A]; fold s; lra).
  assert (C0' : c 0%nat = 2) by (unfold c, mv, transpose, A, a_ri, a; cbn [bsum]; rewrite !two_mtx by lia; cbn [two_A Nat.ltb Nat.leb Nat.sub fst snd]; ring).
  assert (C1' : c 1%nat = 1 - s) by (unfold c, mv, transpose, A, a_ri, a; cbn [bsum]; rewrite !two_mtx by lia; cbn [two_A Nat.ltb Nat.leb Nat.sub fst snd]; fold s; field).
  unfold sq_dist in Opt'. cbn [bsum] in Opt'. rewrite N00, N01, N10, N11, C0', C1' in Opt'.
  set (u := x 0%nat - (5 - s) / 5). assert (EX : x 0%nat = u + (5 - s) / 5) by (unfold u; ring). rewrite EX in Opt'. set (v := x 1%nat) in *. clearbody u.
  assert (I : 2 * (6 * s / 5) * v + (2 * u + v) ^ 2 + (u + 2 * v) ^ 2 <= 0) by (ring_simplify in Opt'; ring_simplify; lra).
  pose proof (pow2_ge_0 (2 * u + v)) as I1. pose proof (pow2_ge_0 (u + 2 * v)) as I2. assert (SV : 0 <= s * v) by (apply Rmult_le_pos; lra).
  assert (SV0 : s * v = 0) by lra. assert (V : v = 0) by (apply Rmult_integral in SV0; destruct SV0; lra). rewrite V in I1, I. assert (U : u = 0) by nra.
  apply sqrt_lt_1.
  - apply sq_dist_nonneg.
  - apply bsum_nonneg. intros. apply pow2_ge_0.
  - unfold sq_dist, mv. cbn [bsum]. unfold A. rewrite !two_mtx by lia. cbn [two_A a_ri a Nat.ltb Nat.leb Nat.sub fst snd]. fold s. fold v. rewrite EX, V, U. nra.
Qed.
Print Assumptions C158_noise_refuted.

(** ** Examples *)
Lemma exact_nnls n A b x : (forall k, (k < n)%nat -> 0 <= x k) -> (forall i, (i < n)%nat -> bsum n (fun j => A i j * x j) = b i) -> is_nnls n A b x.
Proof. intros P E. split; [exact P|]. intros y _. unfold sq_dist at 1. rewrite (bsum_zero_ext n); [apply sq_dist_nonneg|]. intros i Hi. rewrite E by exact Hi. ring. Qed.
(** two sources of powers 3 and 5 *)
Definition ex_power : vect := fun k => match k with O => 3 | _ => 5 end.
Definition ex_a : nat -> nat -> C := fun b i => csum 2 (fun k => Cmul (RtoC (ex_power k)) (build_mtx_amp (two_phi k) (two_x b) (two_y b) (nth i (pairs 2) (0, 0)%nat))).
Example C158_amplitudes_ex : amplitude_band (fun _ _ _ => ex_power) 2 2 two_x two_y ex_a two_phi 0 1%nat = 5.
Proof.
  assert (HP : forall k, (k < 2)%nat -> 0 <= ex_power k) by (intros k _; destruct k; cbn; lra).
  destruct (C158_amplitudes (fun _ _ _ => ex_power) 2 2 two_x two_y ex_a two_phi ex_power 0) as [E _].
  - apply exact_nnls; [exact HP|]. intros k Hk. set (A := build_mtx_amp_ri 2 two_x two_y 0 two_phi).
    rewrite (bsum_ext _ (fun r => A r k * a_ri (2 * (2 - 1)) (ex_a 0) r) (fun r => bsum 2 (fun l => A r k * A r l * ex_power l))).
    + rewrite bsum_swap. apply bsum_ext. intros l _. now rewrite <- bsum_scal_r.
    + intros r Hr. rewrite (a_ri_exact 2 2 two_x two_y two_phi ex_power (ex_a 0%nat) 0%nat r) by (intros; reflexivity || exact Hr). fold A. rewrite <- bsum_scal. apply bsum_ext. intros. ring.
  - exact HP.
  - exact two_apart.
  - intros i _. reflexivity.
  - rewrite E by lia. reflexivity.
Qed.
(** one source at azimuth 0, series of order 1: the coefficients are (1, 1, 0) and the pseudo inverse is half of them *)
Definition one_P : mat := fun _ j => match j with 0%nat | 1%nat => 1 / 2 | _ => 0 end.
Definition one_Q : mat := fun _ j => match j with 0%nat | 1%nat => 1 | _ => 0 end.
Lemma one_F j k : (j < 3)%nat -> amp2freq_ri 1 (fun _ => 0) j k = one_Q k j.
Proof. intros Hj. unfold amp2freq_ri. do 3 (destruct j as [|j]; [cbn; rewrite ?Rmult_0_r, ?Ropp_0, ?cos_0, ?sin_0; reflexivity|]). lia. Qed.
Example C158_update_ex : forall G0 x, let G := updated_G (fun _ _ _ => one_P) (fun _ _ _ _ => one_Q) 1 1 2 two_x two_y (fun _ => 0) 0 G0 in
  x * (G 0%nat 0%nat + G 0%nat 1%nat) = x / 2 /\ G 0%nat 0%nat - G 0%nat 1%nat = G0 0%nat 0%nat - G0 0%nat 1%nat /\ G 0%nat 2%nat = G0 0%nat 2%nat.
Proof.
  intros G0 x G. destruct (C158_update (fun _ _ _ => one_P) (fun _ _ _ _ => one_Q) 1 1 2 two_x two_y (fun _ => 0) 0 G0) as [E1 E2].
  - split; [|split].
    + intros i k Hi Hk. unfold mm. cbn [bsum Nat.mul Nat.add]. rewrite !one_F by lia. destruct i as [|[|[|i]]]; cbn; (lia || field).
    + intros k j Hk Hj. unfold mm. cbn [bsum Nat.mul Nat.add]. rewrite !one_F by lia. destruct j as [|[|[|j]]]; cbn; lra || lia.
    + intros i j Hi Hj. unfold mm. cbn [bsum Nat.mul Nat.add]. rewrite !one_F by lia. destruct i as [|[|[|i]]], j as [|[|[|j]]]; cbn; lra || lia.
  - intros _ k j Hk Hj. unfold mm, transpose. cbn [bsum Nat.mul Nat.add]. destruct j as [|[|[|j]]]; cbn; lra || lia.
  - lia.
  - intros k l Hk Hl _. lia.
  - fold G in E1, E2. split; [|split].
    + specialize (E1 (fun _ => x) 0%nat). cbn [bsum Nat.mul Nat.add] in E1. rewrite !one_F in E1 by lia. cbn [one_Q] in E1.
      assert (EA : build_mtx_amp_ri 2 two_x two_y 0 (fun _ => 0) 0%nat 0%nat = 1 / 2) by (exact (two_mtx 0 1 ltac:(lia) ltac:(lia))). rewrite EA in E1. lra.
    + specialize (E2 (fun j => match j with 0%nat => 1 | 1%nat => -1 | _ => 0 end) 0%nat). cbn [bsum Nat.mul Nat.add] in E2. assert (H : G 0%nat 0%nat * 1 + G 0%nat 1%nat * -1 = G0 0%nat 0%nat * 1 + G0 0%nat 1%nat * -1); [|lra]. cut (0 + G 0%nat 0%nat * 1 + G 0%nat 1%nat * -1 + G 0%nat 2%nat * 0 = 0 + G0 0%nat 0%nat * 1 + G0 0%nat 1%nat * -1 + G0 0%nat 2%nat * 0); [lra|]. apply E2. intros k _. rewrite !one_F by lia. cbn. ring.
    + specialize (E2 (fun j => match j with 2%nat => 1 | _ => 0 end) 0%nat). cbn [bsum Nat.mul Nat.add] in E2. cut (0 + G 0%nat 0%nat * 0 + G 0%nat 1%nat * 0 + G 0%nat 2%nat * 1 = 0 + G0 0%nat 0%nat * 0 + G0 0%nat 1%nat * 0 + G0 0%nat 2%nat * 1); [lra|]. apply E2. intros k _. rewrite !one_F by lia. cbn. ring.
Qed.
