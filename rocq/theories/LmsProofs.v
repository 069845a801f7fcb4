(** Proofs about the LMS filters. *)
From Coq Require Import List ZArith Lia Reals Lra Bool.
From Verif Require Import Base Vec BaseProofs BufferModel BufferProofs LmsModel LmsSpec.
Import ListNotations.
Local Open Scope R_scope.

Lemma window_length : forall len h, length (window len h) = len.
Proof. intros. unfold window. now rewrite map_length, seq_length. Qed.
Lemma window_cons : forall len x h, (0 < len)%nat -> x :: removelast (window len h) = window len (x :: h).
Proof.
  intros [|len] x h H; [lia|]. unfold window. rewrite (seq_S len 0) at 1. rewrite map_app. cbn [map]. rewrite removelast_last.
  change (seq 0 (S len)) with (0%nat :: seq 1 len). cbn [map nth]. f_equal. rewrite <- seq_shift, map_map. apply map_ext. reflexivity.
Qed.
Lemma window_nil : forall len, window len [] = repeat 0 len.
Proof.
  intros. unfold window. generalize 0%nat. induction len; intros s; cbn [seq map repeat]; [reflexivity|]. f_equal; [now destruct s|apply IHlen].
Qed.
Lemma nth_window : forall len h i, (i < len)%nat -> nth i (window len h) 0 = nth i h 0.
Proof. intros. unfold window. now rewrite nth_map_seq. Qed.

Lemma foldM_app : forall {A S} (f : S -> A -> option S) l1 l2 s, foldM f (l1 ++ l2) s = let* t := foldM f l1 s in foldM f l2 t.
Proof. induction l1 as [|a l1 IH]; intros; cbn; [reflexivity|]. destruct (f s a); cbn; auto. Qed.

(** ** NLMS *)
Lemma nlms_state : forall mu len ss st, (0 < len)%nat -> nlms_run mu len ss = Some st ->
  n_x st = window len (newest_first ss) /\ length (n_w st) = len /\ n_n st = length ss.
Proof.
  intros mu len ss. induction ss as [|s ss IH] using rev_ind; intros st Hl H.
  - injection H as <-. cbn. rewrite window_nil, repeat_length. auto.
  - unfold nlms_run in H. rewrite foldM_app in H. destruct (foldM (nlms_update mu) ss (nlms_reset len)) as [t|] eqn:E; [|discriminate].
    cbn in H. destruct (nlms_update mu t s) as [u|] eqn:U; [|discriminate]. injection H as <-.
    destruct (IH t Hl E) as (I1 & I2 & I3). unfold nlms_update in U.
    assert (Lx : length (n_x t) = len) by (rewrite I1; apply window_length).
    destruct (n_x t) as [|x0 xt] eqn:Ex; [cbn in Lx; lia|]. rewrite <- Ex in *. destruct (Req_EM_T _ 0); [discriminate|]. injection U as <-. cbn [n_x n_w n_n].
    assert (Ew : fst s :: removelast (n_x t) = window len (newest_first (ss ++ [s]))).
    { rewrite I1. unfold newest_first. rewrite map_app, rev_app_distr. cbn. now apply window_cons. }
    split; [|split].
    + exact Ew.
    + apply (f_equal (@length R)) in Ew. rewrite window_length in Ew. cbn [length] in Ew. rewrite vadd_length; auto. cbn [length]. rewrite map_length. lia.
    + rewrite app_length. cbn. lia.
Qed.
Lemma nlms_step : forall mu len ss st s, (0 < len)%nat -> nlms_run mu len ss = Some st ->
  let x := window len (newest_first (ss ++ [s])) in
  (dot x x = 0 -> nlms_run mu len (ss ++ [s]) = None) /\
  (dot x x <> 0 -> exists st', nlms_run mu len (ss ++ [s]) = Some st' /\ n_w st' = vadd (n_w st) (vscal (mu * (snd s - dot x (n_w st)) / dot x x) x)).
Proof.
  intros mu len ss st s Hl H x. destruct (nlms_state mu len ss st Hl H) as (I1 & I2 & I3).
  unfold nlms_run in *. rewrite foldM_app, H. cbn [bind foldM]. unfold nlms_update.
  assert (Lx : length (n_x st) = len) by (rewrite I1; apply window_length).
  destruct (n_x st) as [|x0 xt] eqn:Ex; [cbn in Lx; lia|]. rewrite <- Ex in *.
  assert (Ew : fst s :: removelast (n_x st) = x).
  { rewrite I1. unfold x, newest_first. rewrite map_app, rev_app_distr. cbn. now apply window_cons. }
  rewrite Ew. split; intros He; destruct (Req_EM_T (dot x x) 0); try contradiction; try reflexivity.
  eexists. cbn [bind]. split; [reflexivity|]. cbn [n_w]. f_equal. unfold vscal. apply map_ext. intros. field. auto.
Qed.

(** ** The geometry of one update *)
Lemma nlms_geometry : forall mu (w w0 x : vec), length w = length x -> length w0 = length x -> dot x x <> 0 ->
  let e := dot w0 x - dot x w in
  let w' := vadd w (vscal (mu * e / dot x x) x) in
  vsq (vminus w' w0) = vsq (vminus w w0) - mu * (2 - mu) * (e * e / dot x x) /\
  dot w0 x - dot x w' = (1 - mu) * e.
Proof.
  intros mu w w0 x L1 L2 He e w'.
  assert (K : forall k, vsq (vminus (vadd w (vscal k x)) w0) = vsq (vminus w w0) + 2 * k * (dot x w - dot w0 x) + k * k * dot x x).
  { intros k. clear w' e He. unfold vsq, dot, vminus, vadd, vscal, Rsum. revert w w0 L1 L2. induction x as [|xi x IH]; intros [|a w] [|b w0] L1 L2; try discriminate; cbn in *; [ring|].
    rewrite IH by lia. ring. }
  assert (Kd : forall k, dot x (vadd w (vscal k x)) = dot x w + k * dot x x).
  { intros k. clear w' e He K L2. unfold dot, vadd, vscal, Rsum. revert w L1. induction x as [|xi x IH]; intros [|a w] L1; try discriminate; cbn in *; [ring|].
    rewrite IH by lia. ring. }
  split.
  - unfold w'. rewrite K. unfold e. field. auto.
  - unfold w'. rewrite Kd. unfold e. field. auto.
Qed.

(** ** Block LMS *)
Lemma store_nth' : forall (l : list R) i v, (i < length l)%nat -> exists l', store l i v = Some l' /\ length l' = length l /\
  forall j, nth j l' 0 = if Nat.eqb j i then v else nth j l 0.
Proof.
  intros l i v H. destruct (store_Some l i v H) as (l' & E & L & N). exists l'. split; [exact E|]. split; [exact L|]. intros j.
  specialize (N j). destruct (Nat.eqb_spec j i).
  - exact (nth_error_nth _ _ _ N).
  - destruct (nth_error l j) eqn:Q.
    + rewrite (nth_error_nth _ _ _ N), (nth_error_nth _ _ _ Q). reflexivity.
    + rewrite !nth_overflow; auto; [now apply nth_error_None in Q|now apply nth_error_None in N].
Qed.
Lemma nth_skipn' : forall {A} k i (l : list A) d, nth i (skipn k l) d = nth (k + i) l d.
Proof. induction k as [|k IH]; intros i l d; [reflexivity|]. destruct l; cbn; [now destruct i|]. apply IH. Qed.
Lemma hankel_shape : forall c r, length (hankel c r) = length c.
Proof. intros. unfold hankel. now rewrite map_length, seq_length. Qed.
Lemma hankel_x : forall L len x, (0 < L)%nat -> length x = (L + len - 1)%nat -> (0 < len)%nat ->
  hankel (slice 0 L x) (skipn (L - 1) x) = map (fun i => window len (skipn i x)) (seq 0 L).
Proof.
  intros L len x HL Hx Hlen. unfold hankel. rewrite slice_length by lia. rewrite skipn_length.
  assert (E : slice 0 L x ++ tl (skipn (L - 1) x) = x).
  { unfold slice. cbn [skipn]. replace (tl (skipn (L - 1) x)) with (skipn L x).
    - rewrite Nat.sub_0_r. apply firstn_skipn.
    - replace L with (L - 1 + 1)%nat at 1 by lia. rewrite <- skipn_skipn'. destruct (skipn (L - 1) x); reflexivity. }
  rewrite E. replace (length x - (L - 1))%nat with len by lia. rewrite Nat.sub_0_r. apply map_ext. intros i. unfold window. apply map_ext. intros j.
  rewrite nth_skipn'. reflexivity.
Qed.

Record KI (L len : nat) (ss : list (R * R)) (st : block_lms) (r : nat) : Prop := {
  ki_n : k_n st = length ss;
  ki_w : length (k_w st) = len;
  ki_lx : length (k_x st) = (L + len - 1)%nat;
  ki_ld : length (k_d st) = L;
  ki_x : forall i, (i < r)%nat -> nth (L - r + i) (k_x st) 0 = nth i (newest_first ss) 0;
  ki_d : forall i, (i < r)%nat -> nth (L - r + i) (k_d st) 0 = nth i (newest_refs ss) 0;
  ki_o : forall j, (j < len - 1)%nat -> nth (L + j) (k_x st) 0 = nth (r + j) (newest_first ss) 0 }.

Lemma KI_reset : forall L len, (0 < L)%nat -> (0 < len)%nat -> KI L len [] (block_reset L len) 0.
Proof.
  intros L len HL Hl. constructor; cbn; rewrite ?repeat_length; auto; try lia.
  intros j Hj. rewrite nth_repeat. now destruct j.
Qed.

Lemma combine_maps : forall {A B C} (f : A -> B) (g : A -> C) l, combine (map f l) (map g l) = map (fun i => (f i, g i)) l.
Proof. induction l; cbn; [reflexivity|]. now f_equal. Qed.
Lemma map2_maps : forall {A B C D} (h : B -> C -> D) (f : A -> B) (g : A -> C) l, map2 h (map f l) (map g l) = map (fun i => h (f i) (g i)) l.
Proof. induction l; cbn; [reflexivity|]. now f_equal. Qed.
Lemma list_as_map : forall (l : list R) n, length l = n -> l = map (fun i => nth i l 0) (seq 0 n).
Proof.
  intros l n <-. apply nth_ext with 0 0; [now rewrite map_length, seq_length|]. intros i Hi. now rewrite nth_map_seq.
Qed.
Lemma nth_map_lt : forall (f : R -> R) l j, (j < length l)%nat -> nth j (map f l) 0 = f (nth j l 0).
Proof. intros f l j H. rewrite (nth_indep _ 0 (f 0)) by now rewrite map_length. apply map_nth. Qed.
Lemma vnorm_sq : forall v, vnorm v * vnorm v = vsq v.
Proof.
  intros v. unfold vnorm. apply sqrt_sqrt. unfold vsq, dot, Rsum. induction v; cbn; [lra|]. nra.
Qed.

Lemma newest_snoc : forall ss s, newest_first (ss ++ [s]) = fst s :: newest_first ss.
Proof. intros. unfold newest_first. rewrite map_app, rev_app_distr. reflexivity. Qed.
Lemma refs_snoc : forall ss s, newest_refs (ss ++ [s]) = snd s :: newest_refs ss.
Proof. intros. unfold newest_refs. rewrite map_app, rev_app_distr. reflexivity. Qed.

Definition energies_ok (normalize : bool) (L len : nat) (ss : list (R * R)) : Prop :=
  normalize = true -> forall i, (i < L)%nat -> vsq (window len (skipn i (newest_first ss))) <> 0.

Lemma block_update_ok : forall mu L len normalize ss st s r, (0 < L)%nat -> (1 < len)%nat ->
  KI L len ss st r -> (r < L)%nat -> (length ss mod L = r)%nat ->
  ((r + 1 < L)%nat -> exists st', block_update mu L len normalize st s = Some st' /\ KI L len (ss ++ [s]) st' (r + 1) /\ k_w st' = k_w st) /\
  ((r + 1)%nat = L -> energies_ok normalize L len (ss ++ [s]) ->
     exists st', block_update mu L len normalize st s = Some st' /\ KI L len (ss ++ [s]) st' 0 /\ k_w st' = block_step mu L len normalize (k_w st) (ss ++ [s])).
Proof.
  intros mu L len normalize ss st s r HL Hlen [Kn Kw Klx Kld Kx Kd Ko] Hr Hm.
  unfold block_update. destruct (Nat.eqb_spec L 0); [lia|].
  assert (Es : (L - (S (k_n st) - 1) mod L - 1 = L - r - 1)%nat) by (rewrite Kn; replace (S (length ss) - 1)%nat with (length ss) by lia; lia).
  rewrite Es.
  destruct (store_nth' (k_x st) (L - r - 1) (fst s)) as (x & Ex & Lx & Nx); [lia|].
  destruct (store_nth' (k_d st) (L - r - 1) (snd s)) as (d & Ed & Ld & Nd); [lia|].
  rewrite Ex, Ed. cbn [bind].
  assert (Px : forall i, (i < r + 1)%nat -> nth (L - (r + 1) + i) x 0 = nth i (newest_first (ss ++ [s])) 0).
  { intros i Hi. rewrite Nx, newest_snoc. destruct (Nat.eqb_spec (L - (r + 1) + i) (L - r - 1)) as [E|E].
    - replace i with 0%nat by lia. reflexivity.
    - destruct i; [lia|]. cbn. rewrite <- Kx by lia. f_equal. lia. }
  assert (Pd : forall i, (i < r + 1)%nat -> nth (L - (r + 1) + i) d 0 = nth i (newest_refs (ss ++ [s])) 0).
  { intros i Hi. rewrite Nd, refs_snoc. destruct (Nat.eqb_spec (L - (r + 1) + i) (L - r - 1)) as [E|E].
    - replace i with 0%nat by lia. reflexivity.
    - destruct i; [lia|]. cbn. rewrite <- Kd by lia. f_equal. lia. }
  assert (Po : forall j, (j < len - 1)%nat -> nth (L + j) x 0 = nth (r + 1 + j) (newest_first (ss ++ [s])) 0).
  { intros j Hj. rewrite Nx, newest_snoc. destruct (Nat.eqb_spec (L + j) (L - r - 1)) as [E|E]; [lia|].
    replace (r + 1 + j)%nat with (S (r + j)) by lia. cbn. apply Ko. auto. }
  assert (Mod : (S (k_n st) mod L = if Nat.eqb (r + 1) L then 0 else r + 1)%nat).
  { rewrite Kn. pose proof (Nat.div_mod (length ss) L ltac:(lia)) as DM. rewrite Hm in DM.
    destruct (Nat.eqb_spec (r + 1) L) as [E|E].
    - replace (S (length ss)) with (0 + (length ss / L + 1) * L)%nat by nia. rewrite Nat.mod_add by lia. now apply Nat.mod_small.
    - replace (S (length ss)) with (r + 1 + (length ss / L) * L)%nat by nia. rewrite Nat.mod_add by lia. apply Nat.mod_small. lia. }
  rewrite Mod. split.
  - intros Hr1. destruct (Nat.eqb_spec (r + 1) L); [lia|]. destruct (Nat.eqb_spec (r + 1) 0); [lia|]. cbn [negb].
    eexists. split; [reflexivity|]. split; [|reflexivity]. constructor; cbn [k_n k_w k_x k_d]; auto; try lia.
    rewrite app_length. cbn. lia.
  - intros Hr1 HE. rewrite Hr1, Nat.eqb_refl. cbn [Nat.eqb negb].
    rewrite (hankel_x L len x) by lia.
    assert (Full : forall i, (i < L + len - 1)%nat -> nth i x 0 = nth i (newest_first (ss ++ [s])) 0).
    { intros i Hi. destruct (Nat.lt_ge_cases i L) as [Q|Q].
      - specialize (Px i ltac:(lia)). rewrite Hr1, Nat.sub_diag in Px. exact Px.
      - specialize (Po (i - L)%nat ltac:(lia)). replace (L + (i - L))%nat with i in Po by lia. rewrite Po. f_equal. lia. }
    set (rows := map (fun i => window len (skipn i x)) (seq 0 L)).
    assert (Er : rows = map (fun i => window len (skipn i (newest_first (ss ++ [s])))) (seq 0 L)).
    { unfold rows. apply map_ext_in. intros i Hi. apply in_seq in Hi. unfold window. apply map_ext_in. intros j Hj. apply in_seq in Hj.
      rewrite !nth_skipn'. apply Full. lia. }
    rewrite Er. clear rows Er.
    set (rows := fun i => window len (skipn i (newest_first (ss ++ [s])))).
    fold rows. change (map (fun i => window len (skipn i (newest_first (ss ++ [s])))) (seq 0 L)) with (map rows (seq 0 L)).
    assert (Ee : vminus d (matvec (map rows (seq 0 L)) (k_w st)) = map (fun i => nth i (newest_refs (ss ++ [s])) 0 - dot (rows i) (k_w st)) (seq 0 L)).
    { unfold matvec. rewrite map_map. rewrite (list_as_map d L) by lia. unfold vminus. rewrite map2_maps. apply map_ext_in. intros i Hi. apply in_seq in Hi.
      f_equal. specialize (Pd i ltac:(lia)). rewrite Hr1, Nat.sub_diag in Pd. exact Pd. }
    rewrite Ee.
    assert (Nz : normalize && existsb (fun q => if Req_EM_T q 0 then true else false) (map (fun row => vnorm row * vnorm row) (map rows (seq 0 L))) = false).
    { destruct normalize; auto. cbn [andb]. apply not_true_is_false. intros Q. apply existsb_exists in Q as (q & Hq & Z).
      rewrite map_map in Hq. apply in_map_iff in Hq as (i & <- & Hi). apply in_seq in Hi. destruct (Req_EM_T (vnorm (rows i) * vnorm (rows i)) 0) as [Z0|]; [|discriminate].
      rewrite vnorm_sq in Z0. exact (HE eq_refl i ltac:(lia) Z0). }
    rewrite Nz. destruct (Nat.eqb_spec len 1); [lia|]. eexists. split; [reflexivity|]. split.
    + constructor; cbn [k_n k_w k_x k_d]; try lia.
      * rewrite app_length. cbn. lia.
      * rewrite vadd_length; auto. unfold vscal, tmatvec. now rewrite !map_length, seq_length.
      * rewrite app_length, firstn_length, slice_length by lia. lia.
      * intros j Hj. rewrite app_nth2 by (rewrite firstn_length; lia). rewrite firstn_length. unfold slice. cbn [skipn].
        replace (L + j - Nat.min (length x - (len - 1)) (length x))%nat with j by lia.
        rewrite Nat.sub_0_r. rewrite <- (firstn_skipn (len - 1) x) in Full. specialize (Full j ltac:(lia)).
        rewrite app_nth1 in Full by (rewrite firstn_length; lia). exact Full.
    + cbn [k_w]. unfold block_step, vadd. rewrite (list_as_map (k_w st) len Kw) at 1.
      set (XX := if normalize then _ else _). unfold vscal, tmatvec. rewrite map_map, map2_maps. apply map_ext_in. intros j Hj. apply in_seq in Hj. f_equal. f_equal. f_equal.
      assert (EX : XX = map (fun i => map (fun xi => if normalize then xi / vsq (rows i) else xi) (rows i)) (seq 0 L)).
      { unfold XX. destruct normalize.
        - rewrite map_map, combine_maps, map_map. cbn [fst snd]. apply map_ext. intros i. now rewrite vnorm_sq.
        - apply map_ext. intros. symmetry. apply map_id. }
      rewrite EX, combine_maps, map_map. cbn [fst snd]. apply map_ext. intros i. unfold correction. fold (rows i).
      assert (Lr : length (rows i) = len) by apply window_length.
      unfold vscal.
      destruct normalize.
      * rewrite !nth_map_lt by lia. unfold Rdiv. ring.
      * rewrite map_id, nth_map_lt by lia. ring.
Qed.

Lemma block_weights_snoc : forall mu L len nz ss s, (0 < L)%nat ->
  block_weights mu L len nz (ss ++ [s]) = if Nat.eqb (length (ss ++ [s]) mod L) 0 then block_step mu L len nz (block_weights mu L len nz ss) (ss ++ [s]) else block_weights mu L len nz ss.
Proof.
  intros mu L len nz ss s HL. unfold block_weights. rewrite app_length. cbn [length]. set (m := length ss).
  pose proof (Nat.div_mod m L ltac:(lia)) as DM. pose proof (Nat.mod_upper_bound m L ltac:(lia)) as UB.
  assert (Pre : forall w, fold_left (fun w b => block_step mu L len nz w (firstn (b * L) (ss ++ [s]))) (seq 1 (m / L)) w =
                          fold_left (fun w b => block_step mu L len nz w (firstn (b * L) ss)) (seq 1 (m / L)) w).
  { intros w. assert (G : forall bs w, (forall b, In b bs -> (b * L <= m)%nat) -> fold_left (fun w b => block_step mu L len nz w (firstn (b * L) (ss ++ [s]))) bs w = fold_left (fun w b => block_step mu L len nz w (firstn (b * L) ss)) bs w).
    { induction bs as [|b bs IH]; intros w1 Hb; [reflexivity|]. cbn. rewrite IH by (intros; apply Hb; now right).
      rewrite firstn_app. replace (b * L - length ss)%nat with 0%nat by (specialize (Hb b (or_introl eq_refl)); unfold m in Hb; lia). cbn [firstn]. now rewrite app_nil_r. }
    apply G. intros b Hb. apply in_seq in Hb. nia. }
  destruct (Nat.eq_dec (m mod L + 1) L) as [E|E].
  - assert (D : ((m + 1) / L = S (m / L))%nat) by (symmetry; apply Nat.div_unique with 0%nat; nia).
    assert (M0 : ((m + 1) mod L = 0)%nat) by (symmetry; apply Nat.mod_unique with (S (m / L)); nia).
    rewrite M0. cbn [Nat.eqb]. rewrite D, seq_S, fold_left_app. cbn [fold_left]. rewrite Pre. f_equal.
    apply firstn_all2. rewrite app_length. cbn. fold m. nia.
  - assert (D : ((m + 1) / L = m / L)%nat) by (symmetry; apply Nat.div_unique with (m mod L + 1)%nat; nia).
    assert (M0 : ((m + 1) mod L = m mod L + 1)%nat) by (symmetry; apply Nat.mod_unique with (m / L)%nat; nia).
    rewrite M0. destruct (Nat.eqb_spec (m mod L + 1) 0); [lia|]. rewrite D. apply Pre.
Qed.

Lemma block_run_ok : forall mu L len nz ss, (0 < L)%nat -> (1 < len)%nat ->
  (forall b, (1 <= b)%nat -> (b * L <= length ss)%nat -> energies_ok nz L len (firstn (b * L) ss)) ->
  exists st, block_run mu L len nz ss = Some st /\ KI L len ss st (length ss mod L) /\ k_w st = block_weights mu L len nz ss.
Proof.
  intros mu L len nz ss HL Hlen. induction ss as [|s ss IH] using rev_ind; intros HE.
  - exists (block_reset L len). split; [reflexivity|]. cbn [length]. rewrite Nat.mod_0_l by lia. split; [apply KI_reset; lia|].
    unfold block_weights. cbn [length]. rewrite Nat.div_0_l by lia. reflexivity.
  - destruct IH as (st & E & K & W).
    { intros b Hb Hbl. specialize (HE b Hb). rewrite app_length in HE. specialize (HE ltac:(lia)).
      rewrite firstn_app in HE. replace (b * L - length ss)%nat with 0%nat in HE by lia. cbn [firstn] in HE. now rewrite app_nil_r in HE. }
    unfold block_run in *. rewrite foldM_app, E. cbn [bind foldM].
    pose proof (Nat.mod_upper_bound (length ss) L ltac:(lia)) as UB. pose proof (Nat.div_mod (length ss) L ltac:(lia)) as DM.
    destruct (block_update_ok mu L len nz ss st s _ HL Hlen K UB eq_refl) as (P1 & P2).
    rewrite block_weights_snoc, app_length by auto. cbn [length].
    destruct (Nat.eq_dec (length ss mod L + 1) L) as [Q|Q].
    + assert (M0 : ((length ss + 1) mod L = 0)%nat) by (symmetry; apply Nat.mod_unique with (S (length ss / L)); nia).
      destruct (P2 Q) as (st' & E' & K' & W').
      { specialize (HE (S (length ss / L)) ltac:(lia)). rewrite app_length in HE. cbn [length] in HE. specialize (HE ltac:(nia)).
        rewrite firstn_all2 in HE by (rewrite app_length; cbn [length]; nia). exact HE. }
      rewrite E'. exists st'. split; [reflexivity|]. rewrite M0. cbn [Nat.eqb]. split; [exact K'|]. now rewrite W', W.
    + assert (M0 : ((length ss + 1) mod L = length ss mod L + 1)%nat) by (symmetry; apply Nat.mod_unique with (length ss / L)%nat; nia).
      destruct (P1 ltac:(lia)) as (st' & E' & K' & W'). rewrite E'. exists st'. split; [reflexivity|]. rewrite M0.
      destruct (Nat.eqb_spec (length ss mod L + 1) 0); [lia|]. split; [exact K'|]. now rewrite W', W.
Qed.
