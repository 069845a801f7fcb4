From Coq Require Import List ZArith Lia Reals Lra Bool.
From Verif Require Import Base Cpx ModeModel BaseProofs.
Import ListNotations.
Local Open Scope R_scope.

Definition with_table (b : bool) (v : mode_vector) : mode_vector := {| mv_precompute := b; mv_tau := mv_tau v; mv_omega := mv_omega v; mv_points := mv_points v |}.
Definition is_list (i : idx) : bool := match i with Lst _ => true | _ => false end.

Lemma mapM_some : forall {A B} (f : A -> option B) (g : A -> B) l, (forall x, In x l -> f x = Some (g x)) -> mapM f l = Some (map g l).
Proof. intros A B f g. induction l as [|x l IH]; intros H; cbn; [reflexivity|]. rewrite (H x) by now left. cbn. rewrite IH by (intros; apply H; now right). reflexivity. Qed.
Lemma zip_one_left : forall {A B D} (f : A -> B -> D) d x m, zip f (S d) (Arr [x]) (Arr m) = let* r := mapM (zip f d x) m in Some (Arr r).
Proof. reflexivity. Qed.
Lemma zip_one_right : forall {A B D} (f : A -> B -> D) d l y, zip f (S d) (Arr l) (Arr [y]) = let* r := mapM (fun x => zip f d x y) l in Some (Arr r).
Proof. intros. destruct l as [|x [|x' l]]; reflexivity. Qed.
Lemma common_one : forall n, common (Some n) (Some 1%nat) = Some n.
Proof. intros n. unfold common. destruct (Nat.eqb_spec n 1); subst; reflexivity. Qed.
Lemma pick_map : forall {A} (g : nat -> A) ks, map (fun p => g (pick ks p)) (seq 0 (length ks)) = map g ks.
Proof.
  intros A g ks. unfold pick. destruct (Nat.eqb_spec (length ks) 1) as [E|_].
  - destruct ks as [|k [|k' ks]]; cbn in *; try lia. reflexivity.
  - induction ks as [|k ks IH]; cbn; [reflexivity|]. f_equal. rewrite <- seq_shift, map_map. exact IH.
Qed.
Lemma pick_build : forall {A} (f : env -> A) ds ks (s : nat -> env -> env) e,
  Arr (map (fun t => build f ds (t e)) (map (fun p e => s (pick ks p) e) (seq 0 (length ks)))) = Arr (map (fun k => build f ds (s k e)) ks).
Proof. intros. f_equal. rewrite map_map. exact (pick_map (fun k => build f ds (s k e)) ks). Qed.

Lemma zip_map_one : forall {A B D X} (f : A -> B -> D) d (g : X -> tensor A) h l y, (forall x, zip f d (g x) y = Some (h x)) ->
  zip f (S d) (Arr (map g l)) (Arr [y]) = Some (Arr (map h l)).
Proof. intros A B D X f d g h l y H. rewrite zip_one_right. replace (mapM (fun x => zip f d x y) (map g l)) with (Some (map h l)); [reflexivity|]. induction l as [|x l IH]; cbn; [reflexivity|]. rewrite H. cbn. rewrite <- IH. reflexivity. Qed.
Lemma one_zip_map : forall {A B D X} (f : A -> B -> D) d x (g : X -> tensor B) h m, (forall y, zip f d x (g y) = Some (h y)) ->
  zip f (S d) (Arr [x]) (Arr (map g m)) = Some (Arr (map h m)).
Proof. intros A B D X f d x g h m H. rewrite zip_one_left. replace (mapM (zip f d x) (map g m)) with (Some (map h m)); [reflexivity|]. induction m as [|y m IH]; cbn; [reflexivity|]. rewrite H. cbn. rewrite <- IH. reflexivity. Qed.
Lemma bop_eq : forall {A B D} (f : A -> B -> D) a b r, fst r = Nat.max (fst a) (fst b) ->
  zip f (fst r) (pad (fst r - fst a) (snd a)) (pad (fst r - fst b) (snd b)) = Some (snd r) -> bop f a b = Some r.
Proof. intros A B D f a b [d t] E H. unfold bop. cbn [fst snd] in *. rewrite <- E, H. reflexivity. Qed.

Definition r_int (a : rdx) : bool := match a with RInt _ => true | _ => false end.
Definition r_list (a : rdx) : bool := match a with RLst _ => true | _ => false end.
Lemma resolve_kind : forall n r a, resolve n r = Some a -> r_int a = is_int r /\ r_list a = is_list r.
Proof. intros n [k|s e|l] a H; unfold resolve in H; [destruct (k <? n)%nat| |destruct (forallb _ l)]; try discriminate; inversion H; auto. Qed.

Lemma core : forall (om : nat -> R) (ta : env -> R) a0 a1 a2, (forall k k' m n, ta (k, m, n) = ta (k', m, n)) -> (Nat.b2n (r_list a0) + Nat.b2n (r_list a1) + Nat.b2n (r_list a2) <= 1)%nat ->
  (let j := if r_int a1 && r_int a2 then 0%nat else if r_int a1 || r_int a2 then 1%nat else 2%nat in
   let* t := gather ta (if r_int a0 then RInt 0 else RSlc [0%nat]) a1 a2 in
   bop (fun w t => cis (w * t)) match a0 with RInt k => (j, pad j (Scal (om k))) | RSlc ks | RLst ks => (S j, Arr (map (fun k => pad j (Scal (om k))) ks)) end t)
  = gather (fun e => let '(k, m, n) := e in cis (om k * ta (0%nat, m, n))) a0 a1 a2.
Proof.
  intros om ta a0 a1 a2 Hta H. destruct a0 as [k0|l0|l0], a1 as [k1|l1|l1], a2 as [k2|l2|l2]; cbn in H; try lia; clear H; cbv zeta; cbn [r_int andb orb]; unfold gather;
  cbn [flat_map map snd app fold_right fst]; try rewrite common_one; cbn [bind];
  cbn [set_int set_lst slc_dims flat_map app is_slc negb andb];
  try rewrite (pick_map (set_ax 0)); try rewrite (pick_map (set_ax 1)); try rewrite (pick_map (set_ax 2)); cbn [set_ax length build bind].
  all: apply bop_eq; cbn [fst snd Nat.max Nat.sub]; [reflexivity|].
  all: cbn [pad Nat.iter nat_rect].
  all: repeat (cbn [map]; rewrite ?map_map; cbn [map]; (apply one_zip_map || apply zip_map_one); intro); cbn [zip set_ax]; reflexivity.
Qed.
(** Without the table the same entries are computed, for any three indices of which at most one is a list. *)
Theorem C100_table : forall v r0 r1 r2, (Nat.b2n (is_list r0) + Nat.b2n (is_list r1) + Nat.b2n (is_list r2) <= 1)%nat ->
  getitem (with_table false v) [r0; r1; r2] = getitem (with_table true v) [r0; r1; r2].
Proof.
  intros v r0 r1 r2 H. unfold getitem. cbn [mv_precompute with_table mv_tau mv_omega mv_points length Nat.ltb Nat.leb missing nth].
  unfold omega_index, missing. cbn [with_table mv_omega nth].
  destruct (resolve (length (mv_omega v)) r0) as [a0|] eqn:R0; [|reflexivity].
  replace (resolve 1 (if is_int r0 then Int 0 else Slc 0 1)) with (Some (if is_int r0 then RInt 0 else RSlc [0%nat])) by (destruct (is_int r0); reflexivity).
  cbn [bind]. destruct (resolve (length (mv_tau v)) r1) as [a1|] eqn:R1; [|reflexivity]. destruct (resolve (mv_points v) r2) as [a2|] eqn:R2; [|reflexivity]. cbn [bind].
  destruct (resolve_kind _ _ _ R0) as [I0 L0], (resolve_kind _ _ _ R1) as [I1 L1], (resolve_kind _ _ _ R2) as [I2 L2].
  rewrite <- I0, <- I1, <- I2. rewrite <- L0, <- L1, <- L2 in H.
  exact (core (omega_at v) (tau_at v) a0 a1 a2 (fun _ _ _ _ => eq_refl) H).
Qed.

(** * What the entries are *)
Definition dist3 (a b : R * R * R) : R := let '(x, y, z) := a in let '(u, v, w) := b in sqrt ((x - u) ^ 2 + (y - v) ^ 2 + (z - w) ^ 2).
Definition inner3 (a b : R * R * R) : R := let '(x, y, z) := a in let '(u, v, w) := b in x * u + y * v + z * w.
Definition scale3 (d : R) (a : R * R * R) : R * R * R := let '(x, y, z) := a in (d * x, d * y, d * z).
Definition origin3 : R * R * R := (0, 0, 0).
(** position of a microphone given in two or three dimensions *)
Definition place (r : list R) : R * R * R := match r with [x; y] => (x, y, 0) | x :: y :: z :: _ => (x, y, z) | _ => origin3 end.

Lemma make_inv : forall rows L fs nfft c grid mode b v, make_mode_vector rows L fs nfft c grid mode b = Some v ->
  Nat.Even nfft /\ mv_precompute v = b /\ mv_points v = length grid /\ length (mv_tau v) = length L /\ length (mv_omega v) = S (nfft / 2) /\
  (forall k, (k <= nfft / 2)%nat -> omega_at v k = 2 * PI * fs * INR k / INR nfft) /\
  (forall k m n, (m < length L)%nat -> (n < length grid)%nat -> exists d, mode_dist mode (nth n grid origin3) (mic_xyz rows (nth m L [])) = Some d /\ tau_at v (k, m, n) = d / c).
Proof.
  intros rows L fs nfft c grid mode b v H. unfold make_mode_vector in H. destruct (Nat.eqb_spec (nfft mod 2) 1) as [|E]; [discriminate|].
  destruct (mapM _ L) as [dist|] eqn:D; [|discriminate]. cbn [bind] in H. apply (f_equal (fun o => match o with Some x => x | None => v end)) in H. cbv beta iota in H. subst v. unfold omega_at, tau_at. cbn [mv_precompute mv_points mv_tau mv_omega].
  split; [apply Nat.even_spec; rewrite <- Nat.negb_odd; destruct (Nat.odd nfft) eqn:O; [|reflexivity]; exfalso; apply E; apply Nat.odd_spec in O; destruct O as [q ->]; rewrite Nat.add_comm, Nat.mul_comm, Nat.mod_add by discriminate; reflexivity|]. split; [reflexivity|]. split; [reflexivity|].
  pose proof (mapM_length _ _ _ D) as LD. split; [rewrite map_length; lia|]. split; [rewrite map_length, seq_length; apply Nat.add_1_r|]. split.
  - intros k Hk. rewrite (nth_indep _ 0 ((fun k => 2 * PI * fs * INR k / INR nfft) 0%nat)) by (rewrite map_length, seq_length; lia). rewrite (map_nth (fun k => 2 * PI * fs * INR k / INR nfft)), seq_nth by lia. reflexivity.
  - intros k m n Hm Hn. change [] with (map (fun d => d / c) []). rewrite (map_nth (map (fun d => d / c))).
    assert (Q : mapM (fun p => mode_dist mode p (mic_xyz rows (nth m L []))) grid = Some (nth m dist [])).
    { clear -D Hm. revert dist m D Hm. induction L as [|r L IH]; intros dist m D Hm; cbn in *; [lia|]. destruct (mapM (fun p => mode_dist mode p (mic_xyz rows r)) grid) eqn:Q; [|discriminate]. cbn in D. destruct (mapM _ L) as [ds|] eqn:DS; [|discriminate]. cbn in D. inversion D; subst dist. destruct m; cbn; [exact Q|]. apply IH; auto. lia. }
    pose proof (mapM_length _ _ _ Q) as LQ. set (row := nth m dist []) in *. clearbody row. clear -Q Hn LQ.
    revert row n Q Hn LQ. induction grid as [|p grid IH]; intros row n Q Hn LQ; cbn in *; [lia|]. destruct (mode_dist mode p _) as [d|] eqn:M; [|discriminate]. cbn in Q. destruct (mapM _ grid) as [ds|] eqn:DS; [|discriminate]. cbn in Q. inversion Q; subst row. destruct n; cbn; [eauto|]. apply IH; cbn in *; auto; lia.
Qed.
Lemma entry : forall v k m n, (k < length (mv_omega v))%nat -> (m < length (mv_tau v))%nat -> (n < mv_points v)%nat ->
  getitem v [Int k; Int m; Int n] = Some (0%nat, Scal (cis (omega_at v k * tau_at v (0%nat, m, n)))).
Proof.
  intros v k m n Hk Hm Hn. replace v with (with_table (mv_precompute v) v) by (destruct v; reflexivity).
  assert (Q : getitem (with_table true v) [Int k; Int m; Int n] = Some (0%nat, Scal (cis (omega_at v k * tau_at v (0%nat, m, n))))).
  { unfold getitem, missing. cbn [mv_precompute with_table mv_tau mv_omega mv_points length Nat.ltb Nat.leb nth]. unfold resolve. rewrite (proj2 (Nat.ltb_lt _ _) Hk), (proj2 (Nat.ltb_lt _ _) Hm), (proj2 (Nat.ltb_lt _ _) Hn). reflexivity. }
  destruct (mv_precompute v); [exact Q|]. rewrite C100_table by (cbn; lia). exact Q.
Qed.
Lemma place_xyz : forall rows r, length r = rows -> rows = 2%nat \/ rows = 3%nat -> mic_xyz rows r = place r.
Proof. intros rows r <- [H|H]; destruct r as [|a [|b [|c [|d r]]]]; cbn in H; try lia; reflexivity. Qed.
Lemma sum3 : forall a b c : R, 0 <= a ^ 2 + b ^ 2 + c ^ 2.
Proof. intros. pose proof (pow2_ge_0 a). pose proof (pow2_ge_0 b). pose proof (pow2_ge_0 c). lra. Qed.
Lemma far_bound : forall p r D, dist3 p origin3 = 1 -> dist3 r origin3 < D ->
  0 <= dist3 (scale3 D p) r - (D - inner3 p r) <= (dist3 r origin3) ^ 2 / (2 * (D - dist3 r origin3)).
Proof.
  intros [[px py] pz] [[x y] z] D Hp HD. unfold dist3, origin3, scale3, inner3 in *.
  assert (P : px * px + py * py + pz * pz = 1).
  { assert (Q : 0 <= (px - 0) ^ 2 + (py - 0) ^ 2 + (pz - 0) ^ 2) by apply sum3. pose proof (sqrt_sqrt _ Q) as E. rewrite Hp in E. lra. }
  set (q := sqrt ((x - 0) ^ 2 + (y - 0) ^ 2 + (z - 0) ^ 2)) in *. assert (q0 : 0 <= q) by apply sqrt_pos.
  assert (Q2 : q * q = x * x + y * y + z * z). { unfold q. rewrite sqrt_sqrt by apply sum3. ring. }
  set (d := sqrt ((D * px - x) ^ 2 + (D * py - y) ^ 2 + (D * pz - z) ^ 2)). assert (d0 : 0 <= d) by apply sqrt_pos.
  set (s := px * x + py * y + pz * z).
  assert (d2 : d * d = D * D - 2 * D * s + q * q). { unfold d. rewrite sqrt_sqrt by apply sum3. rewrite Q2. unfold s. replace (D * D) with (D * D * (px * px + py * py + pz * pz)) by (rewrite P; ring). ring. }
  assert (CS : s * s <= q * q).
  { rewrite Q2. unfold s. assert (L : (x * x + y * y + z * z) * (px * px + py * py + pz * pz) - (px * x + py * y + pz * z) * (px * x + py * y + pz * z) = (px * y - py * x) ^ 2 + (px * z - pz * x) ^ 2 + (py * z - pz * y) ^ 2) by ring. rewrite P in L. pose proof (pow2_ge_0 (px * y - py * x)). pose proof (pow2_ge_0 (px * z - pz * x)). pose proof (pow2_ge_0 (py * z - pz * y)). lra. }
  assert (S1 : s <= q) by nra. assert (S2 : - q <= s) by nra.
  assert (Dd : D - q <= d). { destruct (Rle_lt_dec (D - q) d) as [|N]; [assumption|]. exfalso. assert (d * d < (D - q) * (D - q)) by nra. nra. }
  assert (K : (d - (D - s)) * (d + (D - s)) = q * q - s * s) by nra.
  assert (W : 2 * (D - q) <= d + (D - s)) by lra. assert (G : 0 <= d - (D - s)) by nra.
  split; [exact G|]. apply (Rmult_le_reg_r (2 * (D - q))); [lra|]. unfold Rdiv. rewrite Rmult_assoc, Rinv_l by lra. nra.
Qed.

(** For a grid point in direction [p] (a unit vector) the entry is the phase at frequency k fs / nfft of a delay [tau],
    and [tau] is the time by which a wave from a source at any distance D in that direction arrives at the
    microphone before it arrives at the origin, up to |r|^2 / (2 c (D - |r|)). *)
Theorem C100_far : forall rows L fs nfft c grid b v k m n, make_mode_vector rows L fs nfft c grid Far b = Some v ->
  rows = 2%nat \/ rows = 3%nat -> (forall r, In r L -> length r = rows) -> 0 < c ->
  (k <= nfft / 2)%nat -> (m < length L)%nat -> (n < length grid)%nat ->
  let p := nth n grid origin3 in let r := place (nth m L []) in dist3 p origin3 = 1 ->
  exists tau, getitem v [Int k; Int m; Int n] = Some (0%nat, Scal (cis (2 * PI * (INR k * fs / INR nfft) * tau))) /\
  forall D, dist3 r origin3 < D -> Rabs (tau - (D - dist3 (scale3 D p) r) / c) <= dist3 r origin3 ^ 2 / (2 * c * (D - dist3 r origin3)).
Proof.
  intros rows L fs nfft c grid b v k m n H Hr HL Hc Hk Hm Hn p r Hp.
  destruct (make_inv _ _ _ _ _ _ _ _ _ H) as (_ & _ & EN & EM & EF & Hom & Htau). destruct (Htau 0%nat m n Hm Hn) as (d & Ed & Et).
  rewrite (place_xyz rows) in Ed by (auto using nth_In). fold p r in Ed.
  exists (d / c). split.
  - rewrite entry by lia. rewrite Hom, Et by assumption. do 4 f_equal. unfold Rdiv. ring.
  - intros D HD. assert (d = inner3 p r) as ->. { destruct p as [[? ?] ?], r as [[? ?] ?]. cbn in Ed. injection Ed as <-. reflexivity. }
    pose proof (far_bound p r D Hp HD) as [B1 B2].
    replace (inner3 p r / c - (D - dist3 (scale3 D p) r) / c) with ((dist3 (scale3 D p) r - (D - inner3 p r)) / c) by (unfold Rdiv; ring).
    rewrite Rabs_pos_eq by (apply Rmult_le_pos; [exact B1|left; now apply Rinv_0_lt_compat]).
    replace (dist3 r origin3 ^ 2 / (2 * c * (D - dist3 r origin3))) with (dist3 r origin3 ^ 2 / (2 * (D - dist3 r origin3)) / c) by (field; lra).
    apply Rmult_le_compat_r; [left; now apply Rinv_0_lt_compat|exact B2].
Qed.
Print Assumptions C100_far.
(** The constructor refuses an odd FFT length (and modes other than "near" and "far"), and nothing else. *)
Theorem C100_odd : forall rows L fs nfft c grid mode b, mode <> OtherMode ->
  (make_mode_vector rows L fs nfft c grid mode b = None <-> Nat.Odd nfft).
Proof.
  intros rows L fs nfft c grid mode b Hm. unfold make_mode_vector. destruct (Nat.eqb_spec (nfft mod 2) 1) as [E|E].
  - split; [|reflexivity]. intros _. exists (nfft / 2)%nat. pose proof (Nat.div_mod nfft 2). lia.
  - split.
    + destruct (mapM _ L) eqn:Q; [discriminate|]. intros _. exfalso.
      rewrite (mapM_some _ (fun r => map (fun p => match mode_dist mode p (mic_xyz rows r) with Some d => d | None => 0 end) grid)) in Q; [discriminate|].
      intros r _. apply mapM_some. intros [[px py] pz] _. unfold mode_dist. destruct (mic_xyz rows r) as [[? ?] ?]. destruct mode; congruence.
    + intros [q ->]. exfalso. apply E. rewrite Nat.add_comm, Nat.mul_comm, Nat.mod_add by discriminate. reflexivity.
Qed.
Definition ex_mv : mode_vector := {| mv_precompute := true; mv_tau := [[0; 1]; [2; 3]]; mv_omega := [1; 2]; mv_points := 2 |}.
(** Two lists of indices: with the table they are read in parallel, without it they are not. *)
Theorem C100_lists_refuted : exists v r a b, getitem (with_table true v) r = Some a /\ getitem (with_table false v) r = Some b /\ fst a <> fst b.
Proof. exists ex_mv, [Lst [0; 1]; Lst [0; 1]; Int 0]%nat. eexists. eexists. split; [reflexivity|]. split; [reflexivity|]. cbn. discriminate. Qed.
(** Fewer than three indices work only with the table. *)
Theorem C100_fewer_refuted : exists v r a, getitem (with_table true v) r = Some a /\ getitem (with_table false v) r = None.
Proof. exists ex_mv, [Int 1; Int 0]%nat. eexists. split; reflexivity. Qed.
(** In the near field mode the phases have the wrong sign: they are not, up to a common factor, the phases of a
    wave from the grid point (delayed by distance over c). *)
Theorem C100_near_refuted : exists L fs nfft c p v k, make_mode_vector 2 L fs nfft c [p] Near false = Some v /\
  ~ exists a, forall m, (m < length L)%nat ->
    getitem v [Int k; Int m; Int 0%nat] = Some (0%nat, Scal (Cmul a (cis (- (2 * PI * (INR k * fs / INR nfft) * (dist3 p (place (nth m L [])) / c)))))).
Proof.
  exists [[0; 0]; [1; 0]], 1, 4%nat, 1, (2, 0, 0). eexists. exists 1%nat. split; [reflexivity|]. intros [a H].
  pose proof (H 0%nat ltac:(cbn; lia)) as H0. pose proof (H 1%nat ltac:(cbn; lia)) as H1. clear H.
  rewrite entry in H0 by (cbn; lia). rewrite entry in H1 by (cbn; lia). unfold omega_at, tau_at in *. cbn [mv_omega mv_tau nth map seq place mic_xyz dist3 Nat.eqb] in *.
  assert (Q0 : sqrt ((2 - 0) ^ 2 + (0 - 0) ^ 2 + (0 - 0) ^ 2) = 2). { replace ((2 - 0) ^ 2 + (0 - 0) ^ 2 + (0 - 0) ^ 2) with (2 * 2) by ring. apply sqrt_square. lra. }
  assert (Q1 : sqrt ((2 - 1) ^ 2 + (0 - 0) ^ 2 + (0 - 0) ^ 2) = 1). { replace ((2 - 1) ^ 2 + (0 - 0) ^ 2 + (0 - 0) ^ 2) with (1 * 1) by ring. apply sqrt_square. lra. }
  rewrite Q0 in H0. rewrite Q1 in H1. injection H0 as E1 E2. injection H1 as E3 E4.
  replace (1 + 1 + 1 + 1) with 4 in * by ring.
  replace (2 * PI * 1 * 1 / 4 * (2 / 1)) with PI in * by field. replace (2 * PI * (1 * 1 / 4) * (2 / 1)) with PI in * by field.
  replace (2 * PI * 1 * 1 / 4 * (1 / 1)) with (PI / 2) in * by field. replace (2 * PI * (1 * 1 / 4) * (1 / 1)) with (PI / 2) in * by field.
  rewrite ?cos_neg, ?sin_neg, ?cos_PI, ?sin_PI, ?cos_PI2, ?sin_PI2 in *. lra.
Qed.
(** a concrete table *)
Example C100_ex : exists v, make_mode_vector 3 [[0; 0; 0]; [1; 2; 2]] 16000 512 343 [(1, 0, 0); (0, 1, 0)] Far false = Some v /\
  getitem v [Int 3; Int 1; Int 0]%nat = Some (0%nat, Scal (cis (2 * PI * 16000 * INR 3 / INR 512 * (1 / 343)))) /\
  dist3 (1, 0, 0) origin3 = 1 /\ dist3 (place [1; 2; 2]) origin3 < 4.
Proof.
  eexists. split; [reflexivity|]. split; [|split].
  - rewrite entry; [|apply Nat.ltb_lt; reflexivity..]. unfold omega_at, tau_at. cbn [mv_omega mv_tau]. replace (nth 3 (map _ _) 0) with (2 * PI * 16000 * INR 3 / INR 512) by reflexivity. cbn [nth map mic_xyz Nat.eqb]. replace (1 * 1 + 0 * 2 + 0 * 2) with 1 by ring. reflexivity.
  - cbn. replace ((1 - 0) * ((1 - 0) * 1) + (0 - 0) * ((0 - 0) * 1) + (0 - 0) * ((0 - 0) * 1)) with (1 * 1) by ring. apply sqrt_square. lra.
  - cbn. replace ((1 - 0) * ((1 - 0) * 1) + (2 - 0) * ((2 - 0) * 1) + (2 - 0) * ((2 - 0) * 1)) with (3 * 3) by ring. rewrite sqrt_square by lra. lra.
Qed.
