(** LMS filters: NLMS approaches the true system; block LMS adds up the corrections of a block. *)
From Coq Require Import List ZArith Lia Reals Lra Bool.
From Verif Require Import Base Vec BaseProofs BufferModel BufferProofs LmsModel LmsSpec LmsProofs.
Import ListNotations.
Local Open Scope R_scope.

(** C44, one update.  After any past (any references, noisy or not), a sample whose reference
    is what the system [w0] outputs for the last [len] inputs changes the squared distance to
    [w0] by -mu (2 - mu) e^2 / energy, and the error left after the update is (1 - mu) e. *)
Theorem C44_nlms_update : forall mu len w0 past st x, (0 < len)%nat -> length w0 = len ->
  nlms_run mu len past = Some st ->
  let win := window len (newest_first (past ++ [(x, 0)])) in
  let d := dot w0 win in
  vsq win <> 0 ->
  exists st', nlms_run mu len (past ++ [(x, d)]) = Some st' /\
    let e := d - dot win (n_w st) in
    vsq (vminus (n_w st') w0) = vsq (vminus (n_w st) w0) - mu * (2 - mu) * (e * e / vsq win) /\
    d - dot win (n_w st') = (1 - mu) * e /\
    (0 <= mu <= 2 -> vsq (vminus (n_w st') w0) <= vsq (vminus (n_w st) w0)) /\
    (0 < mu < 2 -> e <> 0 -> vsq (vminus (n_w st') w0) < vsq (vminus (n_w st) w0)).
Proof.
  intros mu len w0 past st x Hl Hw H win d He.
  destruct (nlms_state mu len past st Hl H) as (_ & Lw & _).
  assert (Ew : window len (newest_first (past ++ [(x, d)])) = win) by (unfold win; now rewrite !newest_snoc).
  destruct (nlms_step mu len past st (x, d) Hl H) as (_ & K). rewrite Ew in K. destruct (K He) as (st' & E & W).
  exists st'. split; [exact E|]. cbn [snd] in W.
  assert (Lx : length win = len) by apply window_length.
  destruct (nlms_geometry mu (n_w st) w0 win) as (G1 & G2); [lia|lia|exact He|].
  fold d in G1, G2. rewrite <- W in G1, G2. cbv zeta. fold (vsq win) in G1.
  assert (P : 0 < vsq win).
  { assert (0 <= vsq win) by (unfold vsq, dot, Rsum; clear; induction win; cbn; [lra|nra]). lra. }
  split; [exact G1|]. split; [exact G2|]. set (e := d - dot win (n_w st)) in *.
  assert (Q : 0 <= e * e / vsq win) by (apply Rmult_le_pos; [nra|left; now apply Rinv_0_lt_compat]).
  split.
  - intros Hm. assert (0 <= mu * (2 - mu) * (e * e / vsq win)) by (apply Rmult_le_pos; [nra|exact Q]). lra.
  - intros Hm Hne.
    assert (Q2 : 0 < e * e / vsq win) by (apply Rmult_lt_0_compat; [destruct (Rdichotomy _ _ Hne); nra|now apply Rinv_0_lt_compat]).
    assert (0 < mu * (2 - mu) * (e * e / vsq win)) by (apply Rmult_lt_0_compat; [nra|exact Q2]). lra.
Qed.

(** C44, whole runs.  The stream of a noise-free system: reference = output of [w0]. *)
Fixpoint noise_free (len : nat) (w0 : vec) (past : list (R * R)) (xs : list R) : list (R * R) :=
  match xs with
  | [] => past
  | x :: xs => noise_free len w0 (past ++ [(x, dot w0 (window len (x :: newest_first past)))]) xs
  end.
Fixpoint windows (len : nat) (h : list R) (xs : list R) : list vec :=
  match xs with [] => [] | x :: xs => window len (x :: h) :: windows len (x :: h) xs end.
(** For 0 < mu < 2 the run never fails while the windows are non-zero, never moves away from
    [w0], and the normalised squared errors made along the way add up to at most
    |w0|^2 / (mu (2 - mu)). *)
Theorem C44_nlms_run : forall mu len w0 xs, (0 < len)%nat -> length w0 = len -> 0 < mu < 2 ->
  (forall win, In win (windows len [] xs) -> vsq win <> 0) ->
  exists st errs, nlms_run mu len (noise_free len w0 [] xs) = Some st /\ length errs = length xs /\
    (forall q, In q errs -> 0 <= q) /\
    vsq (vminus (n_w st) w0) + mu * (2 - mu) * Rsum errs = vsq w0 /\ Rsum errs <= vsq w0 / (mu * (2 - mu)).
Proof.
  intros mu len w0 xs Hl Hw Hmu Hwin.
  assert (Pos : forall v, 0 <= vsq v) by (intros v; unfold vsq, dot, Rsum; induction v; cbn; [lra|nra]).
  assert (G : forall xs past st, nlms_run mu len past = Some st -> (forall win, In win (windows len (newest_first past) xs) -> vsq win <> 0) ->
     exists st' errs, nlms_run mu len (noise_free len w0 past xs) = Some st' /\ length errs = length xs /\ (forall q, In q errs -> 0 <= q) /\
       vsq (vminus (n_w st') w0) + mu * (2 - mu) * Rsum errs = vsq (vminus (n_w st) w0)).
  { clear xs Hwin. induction xs as [|x xs IH]; intros past st H Hwin.
    - exists st, []. cbn. split; [exact H|]. split; [reflexivity|]. split; [tauto|lra].
    - cbn [noise_free windows] in *. set (win := window len (x :: newest_first past)) in *.
      assert (Ewin : window len (newest_first (past ++ [(x, 0)])) = win) by (rewrite newest_snoc; reflexivity).
      assert (Hz : vsq win <> 0) by (apply Hwin; now left).
      destruct (C44_nlms_update mu len w0 past st x Hl Hw H) as (st1 & E1 & D1 & _); [now rewrite Ewin|]. rewrite Ewin in *.
      destruct (IH (past ++ [(x, dot w0 win)]) st1 E1) as (st' & errs & E' & L' & P' & S').
      { rewrite newest_snoc. cbn [fst]. intros v Hv. apply Hwin. now right. }
      set (e := dot w0 win - dot win (n_w st)) in *. exists st', (e * e / vsq win :: errs). split; [exact E'|]. split; [cbn; lia|]. split.
      + intros q [<-|Hq]; auto. pose proof (Pos win). apply Rmult_le_pos; [nra|]. left. apply Rinv_0_lt_compat. lra.
      + unfold Rsum in *. cbn. rewrite D1 in S'. lra. }
  destruct (G xs [] (nlms_reset len) eq_refl Hwin) as (st & errs & E & L & P & Q).
  exists st, errs. split; [exact E|]. split; [exact L|]. split; [exact P|].
  assert (Z : vsq (vminus (n_w (nlms_reset len)) w0) = vsq w0).
  { cbn. subst len. unfold vsq, dot, vminus, Rsum. clear. induction w0; cbn; [reflexivity|]. rewrite IHw0. ring. }
  rewrite Z in Q. split; [exact Q|]. pose proof (Pos (vminus (n_w st) w0)).
  apply Rmult_le_reg_l with (mu * (2 - mu)); [nra|]. replace (mu * (2 - mu) * (vsq w0 / (mu * (2 - mu)))) with (vsq w0) by (field; nra). lra.
Qed.
Example C44_ex : (forall win, In win (windows 2 [] [1; -2; 0]) -> vsq win <> 0) /\
  nlms_run (1/2) 2 (noise_free 2 [3; 1] [] [1]) <> None.
Proof.
  assert (H : forall win, In win (windows 2 [] [1; -2; 0]) -> vsq win <> 0).
  { cbn. intros win [<-|[<-|[<-|[]]]]; unfold vsq, dot, Rsum; cbn; lra. }
  split; [exact H|]. destruct (C44_nlms_run (1/2) 2 [3; 1] [1]) as (st & errs & E & _); try lia; try lra; auto.
  - intros win [<-|[]]. apply H. now left.
  - congruence.
Qed.

(** If the last [len] inputs are all zero the update divides zero by zero: from then on the
    weights are NaN, whatever follows. *)
Theorem C44_silence_ruins_the_weights : forall mu len past x d future, (0 < len)%nat ->
  vsq (window len (newest_first (past ++ [(x, d)]))) = 0 -> nlms_run mu len (past ++ (x, d) :: future) = None.
Proof.
  intros mu len past x d future Hl He. change ((x, d) :: future) with ([(x, d)] ++ future). rewrite app_assoc. unfold nlms_run. rewrite foldM_app.
  destruct (nlms_run mu len past) as [st|] eqn:E.
  - destruct (nlms_step mu len past st (x, d) Hl E) as (K & _). unfold nlms_run in K. now rewrite (K He).
  - unfold nlms_run in E. now rewrite foldM_app, E.
Qed.
Theorem C44_silence_refuted : exists past, nlms_run (1/2) 3 past = None /\ past = [(0, 0); (1, 1)].
Proof.
  exists [(0, 0); (1, 1)]. split; [|reflexivity]. apply (C44_silence_ruins_the_weights (1/2) 3 [] 0 0 [(1, 1)]); [lia|]. unfold vsq, dot, Rsum. cbn. ring.
Qed.

(** C45.  Block LMS, any block size and any length from 2: after any stream the weights are
    those of the definition - for each complete block, the corrections of its windows,
    computed with the weights before the block, are added.  With normalisation no window
    of a complete block may be zero. *)
Theorem C45_block_lms : forall mu L len normalize ss, (0 < L)%nat -> (1 < len)%nat ->
  (normalize = true -> forall b i, (1 <= b)%nat -> (b * L <= length ss)%nat -> (i < L)%nat ->
     vsq (window len (skipn i (newest_first (firstn (b * L) ss)))) <> 0) ->
  exists st, block_run mu L len normalize ss = Some st /\ k_w st = block_weights mu L len normalize ss.
Proof.
  intros mu L len nz ss HL Hlen HE. destruct (block_run_ok mu L len nz ss HL Hlen) as (st & E & _ & W).
  - intros b Hb Hbl Hn i Hi. now apply HE.
  - eauto.
Qed.

(** C45.  With block size one and normalisation the weights are those of NLMS, for every
    stream. *)
Theorem C45_block_one_is_nlms : forall mu len ss, (1 < len)%nat ->
  option_map k_w (block_run mu 1 len true ss) = option_map n_w (nlms_run mu len ss).
Proof.
  intros mu len ss Hlen. induction ss as [|s ss IH] using rev_ind; [reflexivity|].
  destruct (nlms_run mu len ss) as [st|] eqn:E.
  2:{ unfold nlms_run, block_run in *. rewrite !foldM_app, E. cbn. destruct (foldM (block_update mu 1 len true) ss (block_reset 1 len)); [discriminate|reflexivity]. }
  destruct (block_run mu 1 len true ss) as [kt|] eqn:Ek; [|discriminate]. cbn in IH. injection IH as IH.
  destruct (nlms_step mu len ss st s ltac:(lia) E) as (N0 & N1).
  destruct (nlms_state mu len ss st ltac:(lia) E) as (_ & Lw & _).
  assert (KK : KI 1 len ss kt 0).
  { clear - Ek Hlen. revert kt Ek. induction ss as [|s ss IH] using rev_ind; intros kt Ek.
    - injection Ek as <-. apply KI_reset; lia.
    - unfold block_run in Ek. rewrite foldM_app in Ek. destruct (foldM (block_update mu 1 len true) ss (block_reset 1 len)) as [k0|] eqn:E0; [|discriminate].
      cbn [bind foldM] in Ek. destruct (block_update mu 1 len true k0 s) as [k1|] eqn:E1; [|discriminate]. injection Ek as <-.
      specialize (IH k0 E0). destruct (block_update_ok mu 1 len true ss k0 s 0 ltac:(lia) Hlen IH ltac:(lia) (Nat.mod_1_r _)) as (_ & P).
      destruct (P eq_refl) as (st' & E' & K' & _); [|rewrite E1 in E'; injection E' as <-; exact K'].
      intros _ i Hi. replace i with 0%nat by lia. cbn [skipn]. intros Z. clear P.
      (* a zero window makes the update fail *)
      unfold block_update in E1. cbn [Nat.eqb] in E1. destruct IH as [Kn Kw Klx Kld Kx Kd Ko]. cbn [Nat.modulo Nat.divmod fst snd Nat.sub] in E1.
      destruct (store_nth' (k_x k0) 0 (fst s)) as (x & Ex & Lx & Nx); [lia|]. rewrite Ex in E1. cbn [bind] in E1.
      destruct (store (k_d k0) 0 (snd s)) as [d|]; [|discriminate]. cbn [bind negb Nat.eqb] in E1.
      pose proof (hankel_x 1 len x ltac:(lia) ltac:(lia) ltac:(lia)) as HX. cbn [Nat.sub] in HX. rewrite HX in E1. cbn [seq map existsb andb skipn] in E1.
      destruct (Req_EM_T (vnorm (window len x) * vnorm (window len x)) 0) as [Z0|Z0]; [discriminate|]. apply Z0. rewrite vnorm_sq, <- Z. f_equal.
      unfold window. apply map_ext_in. intros j Hj. apply in_seq in Hj. rewrite newest_snoc, Nx. destruct j; [reflexivity|]. cbn [Nat.eqb nth].
      specialize (Ko j ltac:(lia)). cbn [Nat.add] in Ko. exact Ko. }
  destruct (Req_EM_T (dot (window len (newest_first (ss ++ [s]))) (window len (newest_first (ss ++ [s])))) 0) as [Z|Z].
  - rewrite (N0 Z). cbn. destruct (block_run mu 1 len true (ss ++ [s])) as [k1|] eqn:E1; [exfalso|reflexivity].
    unfold block_run in E1, Ek. rewrite foldM_app, Ek in E1. cbn [bind foldM] in E1.
    destruct (block_update mu 1 len true kt s) as [k2|] eqn:E2; [|discriminate]. clear E1. unfold block_update in E2. destruct KK as [Kn Kw Klx Kld Kx Kd Ko].
    cbn [Nat.eqb Nat.modulo Nat.divmod fst snd Nat.sub] in E2.
    destruct (store_nth' (k_x kt) 0 (fst s)) as (x & Ex & Lx & Nx); [lia|]. rewrite Ex in E2. cbn [bind] in E2.
    destruct (store (k_d kt) 0 (snd s)) as [d|]; [|discriminate]. cbn [bind negb Nat.eqb] in E2.
    pose proof (hankel_x 1 len x ltac:(lia) ltac:(lia) ltac:(lia)) as HX. cbn [Nat.sub] in HX. rewrite HX in E2. cbn [seq map existsb andb skipn] in E2.
    destruct (Req_EM_T (vnorm (window len x) * vnorm (window len x)) 0) as [Z0|Z0]; [discriminate|]. apply Z0. rewrite vnorm_sq. unfold vsq. rewrite <- Z. 
    assert (Q : window len x = window len (newest_first (ss ++ [s]))); [|now rewrite Q].
    unfold window. apply map_ext_in. intros j Hj. apply in_seq in Hj. rewrite newest_snoc, Nx. destruct j; [reflexivity|]. cbn [Nat.eqb nth].
    specialize (Ko j ltac:(lia)). cbn [Nat.add] in Ko. exact Ko.
  - destruct (N1 Z) as (st' & E' & W'). rewrite E'. cbn [option_map].
    destruct (block_update_ok mu 1 len true ss kt s 0 ltac:(lia) Hlen KK ltac:(lia) (Nat.mod_1_r _)) as (_ & P).
    destruct (P eq_refl) as (kt' & Ek' & _ & Wk).
    { intros _ i Hi. replace i with 0%nat by lia. exact Z. }
    unfold block_run in *. rewrite foldM_app, Ek. cbn [bind foldM]. rewrite Ek'. cbn [option_map bind]. f_equal.
    rewrite Wk, W', IH. unfold block_step, vadd, correction. cbn [seq map skipn nth]. rewrite refs_snoc. cbn [nth].
    set (win := window len (newest_first (ss ++ [s]))) in *. assert (Lx : length win = len) by apply window_length.
    fold (vadd (n_w st) (vscal (mu * (snd s - dot win (n_w st)) / dot win win) win)).
    rewrite (list_as_map (vadd (n_w st) (vscal (mu * (snd s - dot win (n_w st)) / dot win win) win)) len) by (rewrite vadd_length; auto; rewrite vscal_length; lia).
    apply map_ext_in. intros j Hj. apply in_seq in Hj. rewrite nth_vadd by (rewrite vscal_length; lia). f_equal. unfold vscal. rewrite !nth_map_lt by lia.
    unfold Rsum. cbn [fold_right]. unfold vsq. field. exact Z.
Qed.
Example C45_ex : exists st, block_run (1/2) 2 2 true [(1, 1); (2, 0); (1, 1)] = Some st.
Proof.
  destruct (C45_block_lms (1/2) 2 2 true [(1, 1); (2, 0); (1, 1)]) as (st & E & _); try lia; eauto.
  intros _ b i Hb Hbl Hi. cbn in Hbl. replace b with 1%nat by lia. assert (i = 0 \/ i = 1)%nat as [-> | ->] by lia; unfold vsq, dot, Rsum; cbn; lra.
Qed.

(** A block LMS filter of length 1 fails at its first complete block. *)
Theorem C45_length_one_refuted : block_run (1/2) 1 1 false [(1, 1)] = None.
Proof. reflexivity. Qed.

Print Assumptions C44_nlms_update.
Print Assumptions C44_nlms_run.
Print Assumptions C44_silence_ruins_the_weights.
Print Assumptions C44_silence_refuted.
Print Assumptions C45_block_lms.
Print Assumptions C45_block_one_is_nlms.
Print Assumptions C45_length_one_refuted.
