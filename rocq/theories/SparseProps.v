(** C140: sparse AuxIVA and the completion of relative transfer functions. *)
From Coq Require Import List ZArith Lia Reals Lra Bool FunctionalExtensionality.
From Verif Require Import Base Vec Sum Cpx DftModel DftProofs BackModel BackProps AuxivaModel AuxivaSpec AuxivaProofs AuxivaProps SparseModel BaseProofs.
Import ListNotations.
Local Open Scope R_scope.

(** ** Specification of sparir *)
Section spec.
Variables (n : nat) (Sel : list nat) (G : nat -> C).
(** multiplicity of a bin of the transform of a real response in the bins up to n/2 *)
Definition mult (f : nat) : R := if Nat.eqb f 0 || Nat.eqb (2 * f) n then 1 else 2.
(** half the misfit to [G] in the bins of [Sel] up to n/2 *)
Definition misfit (g : nat -> R) : R := / 2 * bsum (n / 2 + 1) (fun f => if inside f Sel then mult f * Cabs2 (dft n (fun j => RtoC (g j)) f - G f)%C else 0).
(** its gradient *)
Definition slope (g : nat -> R) (k : nat) : R := bsum (n / 2 + 1) (fun f => if inside f Sel then mult f * fst ((dft n (fun j => RtoC (g j)) f - G f) * omega n (Z.of_nat (k * f)))%C else 0).
End spec.
Lemma dft_add n g d f : dft n (fun j => RtoC (g j + d j)) f = (dft n (fun j => RtoC (g j)) f + dft n (fun j => RtoC (d j)) f)%C.
Proof. unfold dft. rewrite <- csum_add. apply csum_ext. intros i _. rewrite RtoC_add. ring. Qed.
(** [slope] is the gradient of [misfit]: what is left is quadratic. *)
Theorem C140_gradient : forall n Sel G g d, misfit n Sel G (fun i => g i + d i) = misfit n Sel G g + bsum n (fun k => slope n Sel G g k * d k) + misfit n Sel (fun _ => C0) d.
Proof.
  intros n Sel G g d. unfold misfit. rewrite <- !bsum_scal. assert (E : bsum n (fun k => slope n Sel G g k * d k) = bsum (n / 2 + 1) (fun f => bsum n (fun k => (if inside f Sel then mult n f * fst ((dft n (fun j => RtoC (g j)) f - G f) * omega n (Z.of_nat (k * f)))%C else 0) * d k))).
  { rewrite bsum_swap. apply bsum_ext. intros k _. unfold slope. now rewrite bsum_scal_r. }
  rewrite E, <- !bsum_plus. apply bsum_ext. intros f _. destruct (inside f Sel); [|rewrite bsum_zero_ext; [ring|intros; ring]]. rewrite dft_add. set (r := (dft n (fun j => RtoC (g j)) f - G f)%C).
  assert (E2 : bsum n (fun k => mult n f * fst (r * omega n (Z.of_nat (k * f)))%C * d k) = mult n f * fst (r * Conj (dft n (fun j => RtoC (d j)) f))%C).
  { unfold dft. rewrite csum_conj, <- csum_scal, fst_csum, <- bsum_scal. apply bsum_ext. intros k _. rewrite Conj_mul, Conj_RtoC, <- omega_opp, Z.opp_involutive. unfold RtoC, Cmul; cbn. ring. }
  rewrite E2. set (h := dft n (fun j => RtoC (d j)) f). replace (dft n (fun j => RtoC (g j)) f + h - G f)%C with (r + h)%C by (unfold r; ring). unfold Cabs2, Cmul, Conj, Cadd, Csub, C0; cbn. field.
Qed.
Print Assumptions C140_gradient.
Lemma inside_in f Sel : inside f Sel = true <-> In f Sel.
Proof. unfold inside. rewrite existsb_exists. split; [intros (x & Hx & E); apply Nat.eqb_eq in E; now subst|intros H; exists f; split; [auto|apply Nat.eqb_refl]]. Qed.
Lemma gradq_slope n Sel G g r k : (0 < n)%nat -> (k < n)%nat -> (forall f, In f Sel -> r f = (dft n (fun j => RtoC (g j)) f - G f)%C) -> gradq n Sel r k = slope n Sel G g k.
Proof.
  intros Hn Hk Hr. unfold gradq. rewrite nth_irfft by auto. rewrite <- Rmult_assoc, Rinv_r, Rmult_1_l by (apply not_0_INR; lia).
  set (a := aux Sel r). assert (NA : forall i, (i < n)%nat -> nth i (map a (seq 0 n)) C0 = a i) by (intros i Hi; rewrite nth_map_seq by lia; reflexivity).
  unfold slope. assert (EA : forall f, (if inside f Sel then mult n f * fst ((dft n (fun j => RtoC (g j)) f - G f) * omega n (Z.of_nat (k * f)))%C else 0) = mult n f * fst (a f * omega n (Z.of_nat (k * f)))%C).
  { intros f. unfold a, aux. destruct (inside f Sel) eqn:I; [rewrite Hr by (now apply inside_in); reflexivity|unfold C0, Cmul; cbn; ring]. }
  erewrite (bsum_ext (n / 2 + 1)) by (intros f _; apply EA).
  rewrite Nat.add_1_r, bsum_shift. rewrite NA by lia. replace (mult n 0 * fst (a 0%nat * omega n (Z.of_nat (k * 0)))%C) with (fst (a 0%nat)) by (rewrite Nat.mul_0_r; cbn [Z.of_nat]; rewrite omega_0; unfold mult, Cmul, C1; cbn; ring).
  rewrite Rplus_assoc. f_equal. assert (LO : forall f, (f < (n - 1) / 2)%nat -> (S f < n)%nat /\ mult n (S f) = 2).
  { intros f Hf. assert (2 * ((n - 1) / 2) <= n - 1)%nat by (apply Nat.mul_div_le; lia). split; [lia|]. unfold mult. destruct (Nat.eqb_spec (2 * S f) n); [lia|reflexivity]. }
  destruct (Nat.even n) eqn:EV.
  - apply Nat.even_spec in EV. destruct EV as [m Em]. assert (D1 : (n / 2 = m)%nat) by (subst n; rewrite Nat.mul_comm; apply Nat.div_mul; lia). assert (D2 : ((n - 1) / 2 = m - 1)%nat) by (symmetry; apply (Nat.div_unique (n - 1) 2 (m - 1) 1); lia). rewrite D1, D2 in *. destruct m as [|m]; [lia|]. cbn [Nat.sub] in *. rewrite Nat.sub_0_r in *. cbn [bsum]. f_equal.
    + apply bsum_ext. intros f Hf. destruct (LO f Hf) as [A B]. rewrite Nat.add_1_r, NA by lia. rewrite B. reflexivity.
    + rewrite NA by lia. unfold mult. replace (2 * S m =? n)%nat with true by (symmetry; apply Nat.eqb_eq; lia). rewrite orb_true_r, Rmult_1_l. assert (Z1 : snd (omega n (Z.of_nat (k * S m))) = 0) by (rewrite <- D1; apply omega_half; [lia|apply Nat.even_spec; now exists (S m)]). unfold Cmul. cbn [fst]. rewrite Z1. ring.
  - assert (O : Nat.odd n = true) by (unfold Nat.odd; now rewrite EV). apply Nat.odd_spec in O. destruct O as [m Em]. assert (D1 : (n / 2 = m)%nat) by (symmetry; apply (Nat.div_unique n 2 m 1); lia). assert (D2 : ((n - 1) / 2 = m)%nat) by (symmetry; apply (Nat.div_unique (n - 1) 2 m 0); lia). rewrite D1, D2 in *. rewrite Rplus_0_r. apply bsum_ext. intros f Hf. destruct (LO f Hf) as [A B]. rewrite Nat.add_1_r, NA by lia. rewrite B. reflexivity.
Qed.

(** ** The iterations of sparir *)
(** the shrinking: with a threshold the values are scaled by u / (u + T), where u is how far the largest exceeds its threshold *)
Definition shrinks (n : nat) (x T y : nat -> R) : Prop :=
  ((forall i, (i < n)%nat -> T i = 0) /\ forall i, (i < n)%nat -> y i = x i) \/
  exists u, (exists j, (j < n)%nat /\ u = Rabs (x j) - T j) /\ (forall j, (j < n)%nat -> Rabs (x j) - T j <= u) /\ forall i, (i < n)%nat -> u + T i <> 0 /\ y i = u / (u + T i) * x i.
Lemma fold_max_ge l a : a <= fold_left Rmax l a.
Proof. revert a; induction l as [|b l IH]; intros a; cbn; [lra|]. apply Rle_trans with (Rmax a b); [apply Rmax_l|apply IH]. Qed.
Lemma fold_max_in l a : fold_left Rmax l a = a \/ In (fold_left Rmax l a) l.
Proof. revert a; induction l as [|b l IH]; intros a; cbn; [now left|]. destruct (IH (Rmax a b)) as [E|E]; [rewrite E|right; now right]. unfold Rmax. destruct (Rle_dec a b); [right; now left|now left]. Qed.
Lemma fold_max_le l a b : In b l -> b <= fold_left Rmax l a.
Proof. revert a; induction l as [|c l IH]; intros a; cbn; [easy|]. intros [E|H]; [subst c; apply Rle_trans with (Rmax a b); [apply Rmax_r|apply fold_max_ge]|now apply IH]. Qed.
Lemma max_of_spec n f : (0 < n)%nat -> (exists j, (j < n)%nat /\ max_of n f = f j) /\ forall j, (j < n)%nat -> f j <= max_of n f.
Proof.
  intros Hn. unfold max_of. split.
  - destruct (fold_max_in (map f (seq 1 (n - 1))) (f 0%nat)) as [E|E]; [exists 0%nat; split; [lia|exact E]|]. apply in_map_iff in E. destruct E as (j & E & Hj). apply in_seq in Hj. exists j. split; [lia|now symmetry].
  - intros [|j] Hj; [apply fold_max_ge|]. apply fold_max_le, in_map, in_seq. lia.
Qed.
Lemma soft_shrinks n x T y : (0 < n)%nat -> soft n x T = Some y -> shrinks n x T y.
Proof.
  intros Hn. unfold soft. destruct (Req_EM_T _ _) as [E|E].
  - intros H. inversion H; subst. left. split; [|reflexivity]. intros i Hi. assert (A : Rabs (T i) <= bsum n (fun i => Rabs (T i))).
    { apply Rle_trans with (bsum n (fun j => if Nat.eqb j i then Rabs (T i) else 0)); [rewrite (bsum_delta n i); [rewrite Nat.eqb_refl; lra|auto|intros j _ N; now destruct (Nat.eqb_spec j i)]|]. apply bsum_le. intros j _. destruct (Nat.eqb_spec j i); [subst; lra|apply Rabs_pos]. }
    rewrite E in A. pose proof (Rabs_pos (T i)). destruct (Req_dec (T i) 0) as [|N]; [auto|]. pose proof (Rabs_pos_lt _ N). lra.
  - destruct (existsb _ _) eqn:EX; [discriminate|]. intros H. injection H as H. right. exists (max_of n (fun i => Rabs (x i) - T i)). destruct (max_of_spec n (fun i => Rabs (x i) - T i) Hn) as [A B]. split; [exact A|]. split; [exact B|]. intros i Hi. split; [|now rewrite <- H]. intros Z. assert (existsb (fun i => if Req_EM_T (max_of n (fun i => Rabs (x i) - T i) + T i) 0 then true else false) (seq 0 n) = true); [|congruence]. apply existsb_exists. exists i. split; [apply in_seq; lia|]. destruct (Req_EM_T _ _); [reflexivity|contradiction].
Qed.
Section trace.
Variables (n : nat) (Sel : list nat) (G : nat -> C) (weights : option R) (tol amax amin : R).
(** how far [g] is from a minimum of the misfit plus the weighted sum of magnitudes *)
Definition violation (first : bool) (g : nat -> R) : R :=
  bsum n (fun i => if Req_EM_T (g i) 0 then (if first then 0 else if Rlt_dec tol (Rabs (slope n Sel G g i) - tau n Sel G weights i) then 1 else 0)
    else (tau n Sel G weights i * (g i / Rabs (g i)) + slope n Sel G g i) ^ 2).
Lemma sign_div x : x <> 0 -> sign x = x / Rabs x.
Proof. intros H. unfold sign. destruct (Rlt_dec 0 x); [rewrite Rabs_right by lra; now field|]. destruct (Rlt_dec x 0); [rewrite Rabs_left by lra; now field|lra]. Qed.
Lemma crit_violation first g r : (0 < n)%nat -> (forall f, In f Sel -> r f = (dft n (fun j => RtoC (g j)) f - G f)%C) -> crit n Sel G weights tol first g (gradq n Sel r) = violation first g.
Proof.
  intros Hn Hr. unfold crit, violation. assert (Q := fun i Hi => gradq_slope n Sel G g r i Hn Hi Hr). destruct first.
  - rewrite Rplus_0_r. apply bsum_ext. intros i Hi. rewrite (Q i Hi). destruct (Req_EM_T (g i) 0); [reflexivity|]. rewrite sign_div by auto. ring.
  - rewrite <- bsum_plus. apply bsum_ext. intros i Hi. rewrite (Q i Hi). destruct (Req_EM_T (g i) 0); [ring|]. rewrite sign_div by auto. ring.
Qed.
Lemma loop_trace : (0 < n)%nat -> forall left first g r alpha g', (forall f, In f Sel -> r f = (dft n (fun j => RtoC (g j)) f - G f)%C) -> loop n Sel G weights tol amax amin left first g r alpha = Some g' ->
  exists k gs al, (k <= left)%nat /\ gs 0%nat = g /\ al 0%nat = alpha /\ gs k = g' /\
  (forall j, (j < k)%nat -> tol < violation (if Nat.eqb j 0 then first else false) (gs j) /\ shrinks n (fun i => gs j i - slope n Sel G (gs j) i / al j) (fun i => tau n Sel G weights i / al j) (gs (S j)) /\
     al (S j) = Rmin amax (Rmax amin (Rsum (map (fun f => Cabs2 (dft n (fun i => RtoC (gs (S j) i - gs j i)) f)) Sel) / (/ 8388608 + bsum n (fun i => (gs (S j) i - gs j i) ^ 2))))) /\
  (k = left \/ violation (if Nat.eqb k 0 then first else false) (gs k) <= tol).
Proof.
  intros Hn. induction left as [|left IH]; intros first g r alpha g' Hr H; cbn [loop] in H; rewrite (crit_violation first g r Hn Hr) in H; destruct (Rlt_dec _ _) as [C|C].
  - inversion H; subst. exists 0%nat, (fun _ => g'), (fun _ => alpha). repeat split; auto; lia.
  - inversion H; subst. exists 0%nat, (fun _ => g'), (fun _ => alpha). repeat split; auto; lia.
  - destruct (soft _ _ _) as [g1|] eqn:ES; [|discriminate]. cbn [bind] in H. apply IH in H.
    + destruct H as (k & gs & al & Hk & E0 & A0 & EK & ST & FIN). exists (S k), (fun j => match j with O => g | S j' => gs j' end), (fun j => match j with O => alpha | S j' => al j' end). split; [lia|]. split; [reflexivity|]. split; [reflexivity|]. split; [exact EK|]. split.
      * intros [|j] Hj.
        -- split; [exact C|]. rewrite E0, A0. split.
           ++ apply soft_shrinks in ES; [|auto]. destruct ES as [[T0 Y]|(u & (j0 & J1 & J2) & J3 & Y)].
              ** left. split; [exact T0|]. intros i Hi. rewrite (Y i Hi), (gradq_slope n Sel G g r i Hn Hi Hr). unfold Rdiv. ring.
              ** right. exists u. split; [exists j0; split; [auto|]; rewrite J2, (gradq_slope n Sel G g r j0 Hn J1 Hr); unfold Rdiv; f_equal; f_equal; ring|]. split; [intros j1 H1; specialize (J3 j1 H1); rewrite (gradq_slope n Sel G g r j1 Hn H1 Hr) in J3; unfold Rdiv in *; rewrite Rmult_1_l in J3; exact J3|]. intros i Hi. destruct (Y i Hi) as [N Y']. split; [exact N|]. rewrite Y', (gradq_slope n Sel G g r i Hn Hi Hr). unfold Rdiv. ring.
           ++ unfold next_alpha, spectrum, eps32. do 4 f_equal. apply bsum_ext. intros; ring.
        -- destruct (ST j ltac:(lia)) as (V & R1 & R2). split; [|split; [exact R1|exact R2]]. destruct j; exact V.
      * destruct FIN as [F|F]; [left; lia|right]. destruct k; exact F.
    + intros f Hf. rewrite (Hr f Hf). unfold spectrum. assert (E : dft n (fun j => RtoC (g1 j)) f = (dft n (fun j => RtoC (g j)) f + dft n (fun j => RtoC (g1 j - g j)) f)%C) by (rewrite <- dft_add; apply dft_ext; intros; f_equal; ring). rewrite E. ring.
  - inversion H; subst. exists 0%nat, (fun _ => g'), (fun _ => alpha). split; [lia|]. split; [auto|]. split; [auto|]. split; [auto|]. split; [lia|]. right. cbn. lra.
Qed.
End trace.
(** sparir walks along the gradient of the misfit at the true residual: [k] steps of length 1 / al, each shrunk, with the step
    sizes of Barzilai and Borwein between the bounds; it starts from a unit impulse, goes on while the optimality conditions are
    violated by more than [tol], and stops after at most [maxiter] - 1 steps. *)
Theorem C140_sparir : forall n Sel G weights tol amax amin maxiter alpha g, sparir n Sel G weights tol amax amin maxiter alpha = Some g ->
  exists k gs al, (k <= maxiter - 1)%nat /\ (forall i, gs 0%nat i = if Nat.eqb i 0 then 1 else 0) /\ al 0%nat = alpha /\ gs k = g /\
  (forall j, (j < k)%nat -> tol < violation n Sel G weights tol (Nat.eqb j 0) (gs j) /\ shrinks n (fun i => gs j i - slope n Sel G (gs j) i / al j) (fun i => tau n Sel G weights i / al j) (gs (S j)) /\
     al (S j) = Rmin amax (Rmax amin (Rsum (map (fun f => Cabs2 (dft n (fun i => RtoC (gs (S j) i - gs j i)) f)) Sel) / (/ 8388608 + bsum n (fun i => (gs (S j) i - gs j i) ^ 2))))) /\
  (k = (maxiter - 1)%nat \/ violation n Sel G weights tol (Nat.eqb k 0) (gs k) <= tol).
Proof.
  intros n Sel G weights tol amax amin maxiter alpha g H. unfold sparir in H. destruct (Nat.eqb_spec n 0); [discriminate|]. cbn [orb] in H. destruct (negb _); [discriminate|]. destruct (match weights with None => _ | Some _ => _ end); [discriminate|]. destruct (Nat.eqb maxiter 0); [discriminate|].
  apply loop_trace in H; [|lia|reflexivity]. destruct H as (k & gs & al & A & B & D & E & F & I). exists k, gs, al. split; [exact A|]. split; [intros i; now rewrite B|]. split; [exact D|]. split; [exact E|]. split.
  - intros j Hj. specialize (F j Hj). replace (if Nat.eqb j 0 then true else false) with (Nat.eqb j 0) in F by (destruct (Nat.eqb j 0); reflexivity). exact F.
  - replace (if Nat.eqb k 0 then true else false) with (Nat.eqb k 0) in I by (destruct (Nat.eqb k 0); reflexivity). exact I.
Qed.
Print Assumptions C140_sparir.
(** Finding: the misfit leaves out the bins above n/2 and counts those below twice (179): with only an upper bin given the gradient
    vanishes although the response does not fit. *)
Theorem C140_gradient_refuted : exists n Sel G g g', (forall k, (k < n)%nat -> gradq n Sel (fun f => (spectrum n g f - G f)%C) k = 0) /\
  Rsum (map (fun f => Cabs2 (spectrum n g' f - G f)%C) Sel) < Rsum (map (fun f => Cabs2 (spectrum n g f - G f)%C) Sel).
Proof.
  exists 3%nat, [2%nat], (fun _ => C0), delta0, (fun _ => 0). split.
  - intros k Hk. rewrite (gradq_slope 3 [2%nat] (fun _ => C0) delta0) by (auto; lia). unfold slope. apply bsum_zero_ext. intros f Hf. destruct (inside f [2%nat]) eqn:I; [apply inside_in in I; destruct I as [I|[]]; cbn in Hf; lia|reflexivity].
  - cbn [map Rsum fold_right]. assert (A : spectrum 3 (fun _ => 0) 2 = C0) by (unfold spectrum, dft; apply csum_zero_ext; intros; unfold RtoC, Cmul, C0; cbn; f_equal; ring). assert (B : spectrum 3 delta0 2 = C1).
    { unfold spectrum, dft. rewrite (csum_delta 3 0); [|lia|]. - cbn. rewrite omega_0. unfold RtoC, C1, Cmul. cbn. f_equal; ring. - intros i Hi N. unfold delta0. destruct (Nat.eqb_spec i 0); [contradiction|]. unfold RtoC, Cmul, C0. cbn. f_equal; ring. }
    rewrite A, B. unfold Cabs2, C0, C1. cbn. lra.
Qed.
Print Assumptions C140_gradient_refuted.
(** Finding: soft does not threshold (170): values below the threshold are kept, so the response is not made sparse. *)
Theorem C140_soft_refuted : exists n x T y i, (forall j, 0 < T j) /\ soft n x T = Some y /\ (i < n)%nat /\ Rabs (x i) < T i /\ y i <> 0.
Proof.
  exists 2%nat, (fun i => if Nat.eqb i 0 then 3 else 1), (fun _ => 2). assert (M : max_of 2 (fun i => Rabs (if Nat.eqb i 0 then 3 else 1) - 2) = 1).
  { unfold max_of. cbn. rewrite !Rabs_right by lra. rewrite Rmax_left by lra. lra. }
  eexists. exists 1%nat. split; [intros; lra|]. split.
  - unfold soft. destruct (Req_EM_T _ _) as [E|E]; [exfalso; unfold bsum in E; cbn in E; rewrite Rabs_right in E by lra; lra|]. rewrite M. cbn [seq existsb]. destruct (Req_EM_T (1 + 2) 0); [lra|]. reflexivity.
  - split; [lia|]. cbn. rewrite Rabs_right by lra. split; lra.
Qed.
Print Assumptions C140_soft_refuted.

(** ** Sparse AuxIVA *)
Lemma in_firstn_seq k : forall a m f, In f (firstn k (seq a m)) <-> (a <= f < a + Nat.min k m)%nat.
Proof. induction k as [|k IH]; intros a m f; [cbn; lia|]. destruct m as [|m]; [cbn; lia|]. cbn [seq firstn In]. rewrite IH. lia. Qed.
(** The filters of sparse AuxIVA are [h_s, -1] with the transforms of real responses, and the outputs of the first bins, as many as
    there are active ones, are those filters applied to the input; with back-projection they are scaled to come closest to the first
    microphone. *)
Theorem C140_output : forall solve F T model eps X Sel n W0 Y W, sparseauxiva solve F T model eps X Sel n W0 false = Some (Y, W) ->
  let k := match Sel with None => F | Some l => length l end in
  (forall s, (s < 2)%nat -> exists g, forall f, W f s 0%nat = dft F (fun j => RtoC (g j)) f /\ W f s 1%nat = Copp C1) /\
  (forall t f s, (f < F)%nat -> (f < k)%nat -> Y t f s = (W f s 0%nat * X f 0%nat t - X f 1%nat t)%C) /\
  exists Y', sparseauxiva solve F T model eps X Sel n W0 true = Some (Y', W) /\ forall f s, exists z : C,
    (forall t, Y' t f s = (z * Y t f s)%C) /\
    forall h, bsum T (fun t => Cabs2 (Y' t f s - X f 0%nat t)%C) <= bsum T (fun t => Cabs2 (h * Y t f s - X f 0%nat t)%C).
Proof.
  intros solve F T model eps X Sel n W0 Y W H k. unfold sparseauxiva in *. set (Sl := match Sel with None => seq 0 F | Some l => l end) in *. assert (Hk : length Sl = k) by (unfold Sl, k; destruct Sel; [reflexivity|apply seq_length]).
  destruct (negb _); [discriminate|]. destruct (sparse_epochs _ _ _ _ _ _ _ _ _ _ _) as [[Ye We]|]; [|discriminate]. cbn [bind fst snd] in *. destruct (complete F Sl We 0) as [h0|] eqn:E0; [|discriminate]. cbn [bind] in *. destruct (complete F Sl We 1) as [h1|] eqn:E1; [|discriminate]. cbn [bind] in *.
  assert (CG : forall i h, complete F Sl We i = Some h -> exists g, forall f, h f = dft F (fun j => RtoC (g j)) f).
  { intros i h. unfold complete. destruct (relative _ _ _) as [G|]; [|discriminate]. cbn [bind]. destruct (sparir _ _ _ _ _ _ _ _ _) as [g|]; [|discriminate]. cbn [bind]. intros Q. inversion Q. exists g. reflexivity. }
  apply CG in E0. apply CG in E1. destruct E0 as [g0 E0]. destruct E1 as [g1 E1].
  set (W1 := fun f s c => if Nat.eqb c 0 then if Nat.eqb s 0 then h0 f else h1 f else Copp C1) in *. set (Yd := demixsparse X (length Sl) (seq 0 F) Ye W1) in *. injection H as HY HW. subst W. split; [|split].
  - intros s Hs. destruct s as [|[|s]]; [exists g0; intros f; split; [apply E0|reflexivity]|exists g1; intros f; split; [apply E1|reflexivity]|lia].
  - intros t f s Hf Hfk. rewrite <- HY. unfold Yd, demixsparse. replace (inside f (firstn (length Sl) (seq 0 F))) with true.
    + unfold csum, W1. cbn. unfold Cmul, Csub, Copp, C1. cbn. f_equal; ring.
    + symmetry. apply inside_in. rewrite Hk. apply in_firstn_seq. lia.
  - eexists. split; [reflexivity|]. intros f s. rewrite <- HY. set (Y0 := fun t f s => Yd f s t). set (z := projection_back T Y0 (fun t f => X f 0%nat t) None None f s).
    exists (Conj z). split; [intros t; change (Yd f s t) with (Y0 t f s); ring|]. intros h.
    pose proof (C109_minimal T Y0 (fun t f => X f 0%nat t) f s (Conj h)) as Q. fold z in Q. unfold distance2 in Q. rewrite Conj_conj in Q.
    match goal with |- ?a <= ?b => match type of Q with ?c <= ?d => assert (Q1 : a = c); [|assert (Q2 : b = d); [|rewrite Q1, Q2; exact Q]] end end.
    + apply bsum_ext. intros t _. change (Yd f s t) with (Y0 t f s). unfold Cabs2. cbn. ring.
    + apply bsum_ext. intros t _. change (Yd f s t) with (Y0 t f s). unfold Cabs2. cbn. ring.
Qed.
Print Assumptions C140_output.
(** Finding, proved for all inputs: because the response of as many samples as there are bins is real, the filters of the bins f and
    F - f are complex conjugates of each other, whatever the signals; the bins of a half spectrum have no such symmetry. *)
Theorem C140_conjugate : forall solve F T model eps X Sel n W0 b Y W f s, sparseauxiva solve F T model eps X Sel n W0 b = Some (Y, W) -> (0 < f < F)%nat -> (s < 2)%nat ->
  W (F - f)%nat s 0%nat = Conj (W f s 0%nat).
Proof.
  intros solve F T model eps X Sel n W0 b Y W f s H Hf Hs. assert (H0 : exists Y0, sparseauxiva solve F T model eps X Sel n W0 false = Some (Y0, W)).
  { unfold sparseauxiva in *. destruct (negb _); [discriminate|]. destruct (sparse_epochs _ _ _ _ _ _ _ _ _ _ _) as [[Ye We]|]; [|discriminate]. cbn [bind fst snd] in *. destruct (complete _ _ We 0) as [h0|]; [|discriminate]. cbn [bind] in *. destruct (complete _ _ We 1) as [h1|]; [|discriminate]. cbn [bind] in *. injection H as HY HW. eexists. rewrite <- HW. reflexivity. }
  destruct H0 as [Y0 H0]. destruct (C140_output _ _ _ _ _ _ _ _ _ _ _ H0) as (A & _). destruct (A s Hs) as [g Hg]. rewrite !(proj1 (Hg _)). now apply dft_hermitian.
Qed.
Print Assumptions C140_conjugate.
(** ** The updates are those of AuxIVA on the active bins *)
Lemma bsum_selected F h : forall Sel, NoDup Sel -> (forall f, In f Sel -> (f < F)%nat) -> bsum F (fun f => if inside f Sel then h f else 0) = bsum (length Sel) (fun j => h (nth j Sel 0%nat)).
Proof.
  induction Sel as [|a l IH]; intros ND HF; [cbn; apply bsum_zero|]. inversion ND as [|x y NI ND']; subst. cbn [length]. rewrite bsum_shift. cbn [nth]. rewrite <- IH by (auto; intros f Hf; apply HF; now right). assert (E : h a = bsum F (fun f => if Nat.eqb f a then h f else 0)).
  { rewrite (bsum_delta F a); [now rewrite Nat.eqb_refl|apply HF; now left|]. intros i _ N. now destruct (Nat.eqb_spec i a). }
  rewrite E, <- bsum_plus. apply bsum_ext. intros f Hf. unfold inside. cbn [existsb]. destruct (Nat.eqb_spec f a) as [Q|Q]; cbn [orb].
  - destruct (existsb (Nat.eqb f) l) eqn:X; [|ring]. exfalso. apply NI. rewrite <- Q. now apply inside_in.
  - destruct (existsb (Nat.eqb f) l); ring.
Qed.
Lemma new_filter_row solve T X rho f W s : (forall t, 0 <= rho t) -> new_filter solve W (weighted T X rho f) s = new_row solve 2 W (weighted T X rho f) s.
Proof.
  intros Hr. unfold new_filter, new_row. destruct (solve 2%nat _ (unit_vec s)) as [x|]; [|reflexivity]. cbn [bind]. f_equal. extensionality d.
  set (V := weighted T X rho f). set (w := fun d => Conj (x d)).
  assert (D1 : csum 2 (fun d => (csum 2 (fun c => w c * V c d) * Conj (w d))%C) = RtoC (q 2 T rho (X f) w)) by (exact (form_q 2 T rho (X f) w)).
  assert (D2 : csum 2 (fun c => (Conj (x c) * csum 2 (fun d => V c d * x d))%C) = csum 2 (fun d => (csum 2 (fun c => w c * V c d) * Conj (w d))%C)).
  { unfold w. rewrite (csum_ext 2 _ (fun c => csum 2 (fun d => (Conj (x c) * V c d * x d)%C))); [|intros c _; rewrite <- csum_scal; apply csum_ext; intros; ring]. rewrite csum_swap. apply csum_ext. intros e _. rewrite Conj_conj, <- csum_scal_r. reflexivity. }
  fold V. rewrite D2. change (csum 2 (fun d0 => (csum 2 (fun c => Conj (x c) * V c d0) * Conj (Conj (x d0)))%C)) with (csum 2 (fun d => (csum 2 (fun c => w c * V c d) * Conj (w d))%C)). rewrite D1. rewrite csqrt_real by now apply q_nonneg. unfold Cdiv, Cscal, Cmul, Conj, RtoC, Cabs2. cbn. f_equal; ring.
Qed.
Lemma for_all_f_total F g : (forall f, (f < F)%nat -> exists m, g f = Some m) -> exists W, for_all_f F g = Some W.
Proof. intros H. unfold for_all_f. destruct (mapM_Some g (seq 0 F)) as (l & E & _); [intros a Ha; apply in_seq in Ha; apply H; lia|]. rewrite E. eexists. reflexivity. Qed.
Section restricted.
Variable solve : nat -> mat -> (nat -> C) -> option (nat -> C).
Variables (F T : nat) (model : source_model) (eps : R) (X : nat -> nat -> nat -> C) (Sel : list nat).
Hypotheses (He : 0 < eps) (ND : NoDup Sel) (HF : forall f, In f Sel -> (f < F)%nat) (HM : model = Laplace \/ length Sel = F).
Let k := length Sel.
Let Xr : nat -> nat -> nat -> C := fun j => X (nth j Sel 0%nat).
Lemma weight_restricted Y Yr s : (forall f s t, ~ In f Sel -> Y f s t = C0) -> (forall j s t, (j < k)%nat -> Yr j s t = Y (nth j Sel 0%nat) s t) -> weight F model eps Y s = weight k model eps Yr s.
Proof.
  intros HY HR. extensionality t. unfold weight. assert (E : bsum F (fun f => Cabs2 (Y f s t)) = bsum k (fun f => Cabs2 (Yr f s t))).
  { rewrite (bsum_ext F _ (fun f => if inside f Sel then Cabs2 (Y f s t) else 0)).
    - rewrite (bsum_selected F (fun f => Cabs2 (Y f s t)) Sel ND HF). apply bsum_ext. intros j Hj. now rewrite HR.
    - intros f Hf. destruct (inside f Sel) eqn:I; [reflexivity|]. rewrite HY; [unfold Cabs2, C0; cbn; ring|]. intros Q. apply inside_in in Q. congruence. }
  rewrite E. destruct HM as [->|HL]; [reflexivity|]. unfold k in *. now rewrite HL.
Qed.
Lemma source_restricted Y Yr W Wr s W' : weight F model eps Y s = weight k model eps Yr s -> (forall j, (j < k)%nat -> Wr j = W (nth j Sel 0%nat)) -> sparse_source solve F T model eps X Y W s = Some W' ->
  exists Wr', update_source solve k 2 2 T model eps Xr Yr Wr s = Some Wr' /\ forall j, (j < k)%nat -> Wr' j = W' (nth j Sel 0%nat).
Proof.
  intros HWt HW H. unfold sparse_source in H. unfold update_source. cbn [Nat.ltb Nat.leb]. assert (IN : forall j, (j < k)%nat -> (nth j Sel 0 < F)%nat) by (intros j Hj; apply HF, nth_In; exact Hj).
  assert (STEP : forall j, (j < k)%nat -> (let* row := new_row solve 2 (Wr j) (weighted T Xr (weight k model eps Yr s) j) s in Some (set_row (Wr j) s row)) = Some (W' (nth j Sel 0%nat))).
  { intros j Hj. pose proof (for_all_f_Some _ _ _ H _ (IN j Hj)) as Q. cbv beta in Q. rewrite new_filter_row in Q by (intros t; apply weight_nonneg; auto). rewrite HW by auto. rewrite <- HWt. exact Q. }
  destruct (for_all_f_total k (fun f => let* row := new_row solve 2 (Wr f) (weighted T Xr (weight k model eps Yr s) f) s in Some (set_row (Wr f) s row))) as [Wr' E]; [intros j Hj; eexists; now apply STEP|]. rewrite E. cbn [bind]. exists Wr'. split; [reflexivity|]. intros j Hj. pose proof (for_all_f_Some _ _ _ E j Hj) as Q. cbv beta in Q. rewrite STEP in Q by auto. now inversion Q.
Qed.
Lemma epochs_restricted n : forall Y W Wr Y' W', (forall f s t, ~ In f Sel -> Y f s t = C0) -> (forall j, (j < k)%nat -> Wr j = W (nth j Sel 0%nat)) -> sparse_epochs solve F T model eps X n k Sel Y W = Some (Y', W') ->
  (forall f s t, ~ In f Sel -> Y' f s t = C0) /\ exists Wr', epochs solve k 2 2 T model eps Xr n Wr = Some Wr' /\ forall j, (j < k)%nat -> Wr' j = W' (nth j Sel 0%nat).
Proof.
  induction n as [|n IH]; intros Y W Wr Y' W' HY HW H; cbn [sparse_epochs epochs] in *; [injection H as <- <-; split; [auto|]; exists Wr; auto|].
  set (Y1 := demixsparse X k Sel Y W) in *. assert (K : firstn k Sel = Sel) by apply firstn_all. assert (HY1 : forall f s t, ~ In f Sel -> Y1 f s t = C0).
  { intros f s t N. unfold Y1, demixsparse. rewrite K. destruct (inside f Sel) eqn:I; [apply inside_in in I; contradiction|now apply HY]. }
  assert (R1 : forall j s t, (j < k)%nat -> demix 2 Xr Wr j s t = Y1 (nth j Sel 0%nat) s t).
  { intros j s t Hj. unfold Y1, demixsparse, demix. rewrite K. replace (inside (nth j Sel 0%nat) Sel) with true by (symmetry; apply inside_in, nth_In; exact Hj). rewrite HW by auto. apply csum_ext. intros c _. unfold Xr. ring. }
  cbn [seq foldM] in H. destruct (sparse_source _ _ _ _ _ _ Y1 W 0) as [W1|] eqn:E1; [|discriminate]. cbn [bind] in H. destruct (sparse_source _ _ _ _ _ _ Y1 W1 1) as [W2|] eqn:E2; [|discriminate]. cbn [bind] in H.
  destruct (source_restricted Y1 (demix 2 Xr Wr) W Wr 0 W1) as (Wr1 & F1 & G1); [now apply weight_restricted|auto|auto|]. destruct (source_restricted Y1 (demix 2 Xr Wr) W1 Wr1 1 W2) as (Wr2 & F2 & G2); [now apply weight_restricted|auto|auto|].
  destruct (IH Y1 W2 Wr2 Y' W' HY1 G2 H) as (HY' & Wr' & E & HW'). split; [exact HY'|]. exists Wr'. split; [|exact HW']. unfold epoch. cbn [seq foldM]. rewrite F1. cbn [bind]. rewrite F2. cbn [bind]. exact E.
Qed.
End restricted.
(** The relative transfer functions that are completed are those AuxIVA finds on the active bins alone: sparseauxiva on X equals
    auxiva on the selected bins, then sparir for each source. *)
Theorem C140_auxiva : forall solve F T model eps X Sel n W0 b Y W, 0 < eps -> NoDup Sel -> (model = Laplace \/ length Sel = F) -> sparseauxiva solve F T model eps X (Some Sel) n W0 b = Some (Y, W) ->
  exists Ya Wa, auxiva solve (length Sel) 2 2 T model eps (fun j => X (nth j Sel 0%nat)) n (option_map (fun w j => w (nth j Sel 0%nat)) W0) false = Some (Ya, Wa) /\
  forall s, (s < 2)%nat -> exists G g, (forall j, (j < length Sel)%nat -> (G (nth j Sel 0%nat) * Wa j s 1%nat)%C = Copp (Wa j s 0%nat)) /\ sparir F Sel G None 10 100000 (/ 10000000) 50 10 = Some g /\ forall f, W f s 0%nat = dft F (fun i => RtoC (g i)) f.
Proof.
  intros solve F T model eps X Sel n W0 b Y W He ND HM H. unfold sparseauxiva in H. destruct (forallb _ Sel) eqn:FB; [|discriminate]. cbn [negb] in H. rewrite forallb_forall in FB. assert (HF : forall f, In f Sel -> (f < F)%nat) by (intros f Hf; apply Nat.ltb_lt; now apply FB).
  destruct (sparse_epochs _ _ _ _ _ _ _ _ _ _ _) as [[Ye We]|] eqn:ES; [|discriminate]. cbn [bind fst snd] in H. destruct (complete F Sel We 0) as [h0|] eqn:E0; [|discriminate]. cbn [bind] in H. destruct (complete F Sel We 1) as [h1|] eqn:E1; [|discriminate]. cbn [bind] in H. injection H as _ HW.
  match type of ES with sparse_epochs _ _ _ _ _ _ _ _ _ _ ?w = _ => set (Wi := w) in ES end. set (Wr := fun j => Wi (nth j Sel 0%nat)).
  destruct (epochs_restricted solve F T model eps X Sel He ND HF HM n (fun _ _ _ => C0) Wi Wr Ye We) as (_ & Wa & EA & HA); [reflexivity|reflexivity|exact ES|].
  unfold auxiva. cbn [Nat.ltb Nat.leb]. unfold init. cbn [Nat.ltb Nat.leb bind]. match goal with |- context [epochs _ _ _ _ _ _ _ _ _ ?w] => replace w with Wr end.
  - rewrite EA. cbn [bind]. eexists. exists Wa. split; [reflexivity|].
    assert (CG : forall i h, complete F Sel We i = Some h -> exists G g, (forall j, (j < length Sel)%nat -> (G (nth j Sel 0%nat) * Wa j i 1%nat)%C = Copp (Wa j i 0%nat)) /\ sparir F Sel G None 10 100000 (/ 10000000) 50 10 = Some g /\ forall f, h f = dft F (fun i => RtoC (g i)) f).
    { intros i h. unfold complete. destruct (relative Sel We i) as [G|] eqn:ER; [|discriminate]. cbn [bind]. destruct (sparir _ _ _ _ _ _ _ _ _) as [g|] eqn:EG; [|discriminate]. cbn [bind]. intros Q. inversion Q. exists G, g. split; [|split; [exact EG|reflexivity]]. intros j Hj. rewrite HA by auto. set (f := nth j Sel 0%nat). assert (If : In f Sel) by (now apply nth_In). unfold relative in ER. destruct (existsb _ Sel) eqn:EX; [discriminate|]. injection ER as <-. rewrite (proj2 (inside_in f Sel) If). assert (NZ : We f i 1%nat <> C0).
      { intros Z. assert (existsb (fun f => if C_eq_dec (We f i 1%nat) C0 then true else false) Sel = true); [|congruence]. apply existsb_exists. exists f. split; [auto|]. destruct (C_eq_dec _ _); [reflexivity|contradiction]. }
      set (a := We f i 0%nat). set (d := We f i 1%nat) in *. assert (NZ2 : Cabs2 d <> 0) by (intros Z; now apply NZ, Cabs2_zero). unfold Cdiv, Copp, Cscal, Cmul, Conj. unfold Cabs2 in *. destruct a as [a1 a2]. destruct d as [d1 d2]. cbn in *. f_equal; field; auto. }
    intros s Hs. rewrite <- HW. destruct s as [|[|s]]; [apply (CG 0%nat h0 E0)|apply (CG 1%nat h1 E1)|lia].
  - unfold Wr, Wi. extensionality j. extensionality s. extensionality c. destruct W0; reflexivity.
Qed.
Print Assumptions C140_auxiva.

(** ** Cases *)
Lemma dft_delta0 n f : (0 < n)%nat -> dft n (fun j => RtoC (delta0 j)) f = C1.
Proof.
  intros Hn. unfold dft. rewrite (csum_delta n 0); [|lia|].
  - cbn. rewrite omega_0. unfold RtoC, C1, Cmul. cbn. f_equal; ring.
  - intros i Hi N. unfold delta0. destruct (Nat.eqb_spec i 0); [contradiction|]. unfold RtoC, Cmul, C0. cbn. f_equal; ring.
Qed.
Lemma sparir_stops n Sel G amax amin maxiter alpha : (0 < n)%nat -> (0 < maxiter)%nat -> (forall f, In f Sel -> (f < n)%nat) -> yy Sel G <> 0 -> -3 <= tau n Sel G None 0 + slope n Sel G delta0 0 <= 3 -> sparir n Sel G None 10 amax amin maxiter alpha = Some delta0.
Proof.
  intros Hn Hm HS HY HT. unfold sparir. destruct (Nat.eqb_spec n 0); [lia|]. cbn [orb]. replace (forallb (fun f => (f <? n)%nat) Sel) with true by (symmetry; apply forallb_forall; intros f Hf; apply Nat.ltb_lt; auto). cbn [negb]. destruct (Req_EM_T (yy Sel G) 0); [contradiction|]. destruct (Nat.eqb_spec maxiter 0); [lia|].
  assert (V : violation n Sel G None 10 true delta0 <= 10).
  { unfold violation. rewrite (bsum_delta n 0); [|lia|].
    - cbn [delta0 Nat.eqb]. destruct (Req_EM_T 1 0); [lra|]. rewrite Rabs_right by lra. replace (tau n Sel G None 0 * (1 / 1) + slope n Sel G delta0 0) with (tau n Sel G None 0 + slope n Sel G delta0 0) by field. nra.
    - intros i Hi N. assert (Z : delta0 i = 0) by (unfold delta0; destruct (Nat.eqb_spec i 0); [contradiction|reflexivity]). destruct (Req_EM_T (delta0 i) 0); [reflexivity|contradiction]. }
  destruct (maxiter - 1)%nat; cbn [loop]; rewrite (crit_violation n Sel G None 10 true delta0) by (auto; reflexivity); destruct (Rlt_dec _ _); try reflexivity; lra.
Qed.
Lemma exp_bound : 0 < exp (11 / 100 * Rpower (INR (0 + 1)) (3 / 10)) <= 3.
Proof.
  split; [apply exp_pos|]. replace (Rpower (INR (0 + 1)) (3 / 10)) with 1; [apply Rle_trans with (exp 1); [left; apply exp_increasing; lra|apply exp_le_3]|]. cbn. unfold Rpower. rewrite ln_1, Rmult_0_r, exp_0. reflexivity.
Qed.
(** one active bin of two *)
Definition one_bin_W0 : nat -> mat := fun f s c => if Nat.eqb c 0 then RtoC (if Nat.eqb s 0 then -2 else -3) else C1.
Lemma one_bin_complete (s : nat) : complete 2 [0%nat] one_bin_W0 s = Some (spectrum 2 delta0).
Proof.
  unfold complete. set (a := if Nat.eqb s 0 then 2 else 3). assert (ER : relative [0%nat] one_bin_W0 s = Some (fun f => if inside f [0%nat] then RtoC a else C0)).
  { unfold relative. cbn [existsb one_bin_W0 Nat.eqb orb]. destruct (C_eq_dec C1 C0) as [E|_]; [apply (f_equal fst) in E; cbn in E; lra|]. cbn [orb]. f_equal. extensionality f. destruct (inside f [0%nat]); [|reflexivity]. unfold Cdiv, Copp, Cscal, Cmul, Conj, RtoC, C1, Cabs2, one_bin_W0, a. destruct (Nat.eqb s 0); cbn; f_equal; field. }
  rewrite ER. cbn [bind]. assert (A : a = 2 \/ a = 3) by (unfold a; destruct (Nat.eqb s 0); auto).
  assert (YY : yy [0%nat] (fun f => if inside f [0%nat] then RtoC a else C0) = a * a) by (unfold yy, Cabs2, RtoC; cbn; ring).
  rewrite sparir_stops; [reflexivity|lia|lia|intros f [<-|[]]; lia|rewrite YY; destruct A as [-> | ->]; lra|].
  unfold tau. rewrite YY. unfold slope. replace (2 / 2 + 1)%nat with 2%nat by reflexivity. cbn [bsum inside existsb Nat.eqb orb]. rewrite dft_delta0 by lia. rewrite Nat.mul_0_l. cbn [Z.of_nat]. rewrite omega_0. pose proof exp_bound as EB. set (e := exp _) in *. pose proof (sqrt_lt_R0 (INR 2) ltac:(cbn; lra)) as SP. assert (SB : sqrt (INR 2) <= 3 / 2) by (rewrite <- (sqrt_pow2 (3 / 2)) by lra; apply sqrt_le_1; cbn; lra). set (q2 := sqrt (INR 2)) in *. unfold mult, Cmul, Csub, C1, RtoC. cbn. assert (TB : 0 < q2 * e <= 9 / 2) by (split; [apply Rmult_lt_0_compat; lra|nra]). replace (q2 / (a * a) * e) with (q2 * e / (a * a)) by (unfold Rdiv; ring). destruct A as [-> | ->]; lra.
Qed.
(** Finding: the final demixing is applied to as many bins as are active, not to all (114, 179): an inactive bin above that number is
    silent whatever the input. *)
Theorem C140_silent_refuted : exists solve F T eps X Sel W0 Y W f, sparseauxiva solve F T Laplace eps X (Some Sel) 0 (Some W0) true = Some (Y, W) /\ (f < F)%nat /\
  (forall t s, Y t f s = C0) /\ forall t, (W f 0%nat 0%nat * X f 0%nat t + W f 0%nat 1%nat * X f 1%nat t)%C <> C0.
Proof.
  exists (fun _ _ _ => None), 2%nat, 1%nat, 1, (fun f c t => RtoC (INR (c + 1))), [0%nat], one_bin_W0. eexists. eexists. exists 1%nat. split.
  - unfold sparseauxiva. cbn [forallb Nat.ltb Nat.leb andb negb sparse_epochs bind fst snd].
    assert (CE : forall s, (s < 2)%nat -> complete 2 [0%nat] (fun f s c => if (s <=? 1)%nat then one_bin_W0 f s c else C0) s = Some (spectrum 2 delta0)).
    { intros s Hs. rewrite <- (one_bin_complete s). unfold complete, relative. replace (s <=? 1)%nat with true by (symmetry; apply Nat.leb_le; lia). reflexivity. }
    rewrite (CE 0%nat), (CE 1%nat) by lia. cbn [bind]. reflexivity.
  - split; [lia|]. split.
    + intros t s. unfold demixsparse at 1. cbn. unfold C0, Cmul, Conj. cbn. f_equal; ring.
    + intros t. cbn [Nat.eqb]. unfold spectrum. rewrite dft_delta0 by lia. unfold Cmul, Cadd, Copp, C1, RtoC, C0. cbn. intros E. injection E as E1 E2. lra.
Qed.
Print Assumptions C140_silent_refuted.
(** Beside C140_output and C140_conjugate: the case above succeeds. *)
Example C140_case : exists Y W, sparseauxiva (fun _ _ _ => None) 2 1 Laplace 1 (fun f c t => RtoC (INR (c + 1))) (Some [0%nat]) 0 (Some one_bin_W0) false = Some (Y, W) /\ W 0%nat 1%nat 0%nat = C1 /\ Y 0%nat 0%nat 1%nat = Copp C1.
Proof.
  eexists. eexists. split.
  - unfold sparseauxiva. cbn [forallb Nat.ltb Nat.leb andb negb sparse_epochs bind fst snd].
    assert (CE : forall s, (s < 2)%nat -> complete 2 [0%nat] (fun f s c => if (s <=? 1)%nat then one_bin_W0 f s c else C0) s = Some (spectrum 2 delta0)).
    { intros s Hs. rewrite <- (one_bin_complete s). unfold complete, relative. replace (s <=? 1)%nat with true by (symmetry; apply Nat.leb_le; lia). reflexivity. }
    rewrite (CE 0%nat), (CE 1%nat) by lia. cbn [bind]. reflexivity.
  - split; [cbn; unfold spectrum; apply dft_delta0; lia|]. unfold demixsparse. cbn. unfold spectrum. rewrite dft_delta0 by lia. unfold csum, Cmul, Copp, C1, RtoC. cbn. f_equal; ring.
Qed.
