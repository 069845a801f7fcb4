(** C46: recursive least squares keeps the inverse correlation matrix and solves the least
    squares problem. *)
From Coq Require Import List ZArith Lia Reals Lra Bool.
From Verif Require Import Base Vec BaseProofs LmsSpec Sum RlsModel RlsSpec RlsProofs.
Import ListNotations.
Local Open Scope R_scope.

(** After any stream the weights are the only minimiser of the weighted, regularised squared
    error. *)
Theorem C46_rls_least_squares : forall len lmbd delta ss, (0 < len)%nat -> 0 < lmbd -> 0 < delta ->
  exists st, rls_run len lmbd delta ss = Some st /\ length (r_w st) = len /\
    forall v, length v = len -> v <> r_w st -> cost len lmbd delta ss (r_w st) < cost len lmbd delta ss v.
Proof.
  intros len lmbd delta ss H0 Hl Hd. destruct (rls_run_ok len lmbd delta ss H0 Hl Hd) as (st & E & _ & _ & HR). exists st. split; [exact E|]. split; [apply HR|]. now apply (RI_unique _ _ _ _ _ (r_P st)).
Qed.
Print Assumptions C46_rls_least_squares.
(** [P] is the inverse of the correlation matrix and the weights solve the normal equations. *)
Theorem C46_rls_inverse : forall len lmbd delta ss, (0 < len)%nat -> 0 < lmbd -> 0 < delta ->
  exists st, rls_run len lmbd delta ss = Some st /\
    (forall i j, (i < len)%nat -> (j < len)%nat ->
      Rsum (map (fun k => entry (r_P st) i k * Phi len lmbd delta ss k j) (seq 0 len)) = if Nat.eqb i j then 1 else 0) /\
    (forall i, (i < len)%nat -> Rsum (map (fun k => Phi len lmbd delta ss i k * nth k (r_w st) 0) (seq 0 len)) = zeta len lmbd ss i).
Proof.
  intros len lmbd delta ss H0 Hl Hd. destruct (rls_run_ok len lmbd delta ss H0 Hl Hd) as (st & E & _ & _ & HR). exists st. split; [exact E|]. split.
  - now apply RI_inverse with (w := r_w st).
  - now apply RI_normal with (P := r_P st).
Qed.
Print Assumptions C46_rls_inverse.
(** The block version does the same at the end of each block, and keeps that state until the
    next block is complete. *)
Theorem C46_block_rls : forall solve len L lmbd delta ss, (0 < len)%nat -> (0 < L)%nat -> 0 < lmbd -> 0 < delta -> solves L solve ->
  let seen := whole_blocks L ss in
  exists st, block_rls_run solve len L lmbd delta ss = Some st /\ length (q_w st) = len /\
    (forall v, length v = len -> v <> q_w st -> cost len lmbd delta seen (q_w st) < cost len lmbd delta seen v) /\
    (forall i j, (i < len)%nat -> (j < len)%nat ->
      Rsum (map (fun k => entry (q_P st) i k * Phi len lmbd delta seen k j) (seq 0 len)) = if Nat.eqb i j then 1 else 0).
Proof.
  intros solve len L lmbd delta ss H0 HL Hl Hd Sv seen. destruct (block_rls_run_ok solve len L lmbd delta ss H0 HL Hl Hd Sv) as (st & E & [_ _ _ HR]). exists st.
  split; [exact E|]. split; [apply HR|]. split.
  - now apply (RI_unique _ _ _ _ _ (q_P st)).
  - now apply RI_inverse with (w := q_w st).
Qed.
Print Assumptions C46_block_rls.
(** Both therefore agree whenever the stream ends with a block. *)
Theorem C46_block_equals_samplewise : forall solve len L lmbd delta ss, (0 < len)%nat -> (0 < L)%nat -> 0 < lmbd -> 0 < delta -> solves L solve ->
  (length ss mod L = 0)%nat ->
  exists st qt, rls_run len lmbd delta ss = Some st /\ block_rls_run solve len L lmbd delta ss = Some qt /\ q_w qt = r_w st.
Proof.
  intros solve len L lmbd delta ss H0 HL Hl Hd Sv Md. destruct (rls_run_ok len lmbd delta ss H0 Hl Hd) as (st & E & _ & _ & HR).
  destruct (block_rls_run_ok solve len L lmbd delta ss H0 HL Hl Hd Sv) as (qt & E2 & [_ _ _ HQ]). exists st, qt. split; [exact E|]. split; [exact E2|].
  unfold whole_blocks in HQ. pose proof (Nat.div_mod (length ss) L ltac:(lia)). rewrite firstn_all2 in HQ by lia.
  destruct (list_eq_dec Req_EM_T (q_w qt) (r_w st)) as [Q|Q]; [exact Q|exfalso].
  pose proof (RI_unique _ _ _ _ _ _ Hl Hd HR (q_w qt) (RI_w _ _ _ _ _ _ HQ) Q).
  pose proof (RI_unique _ _ _ _ _ _ Hl Hd HQ (r_w st) (RI_w _ _ _ _ _ _ HR) (not_eq_sym Q)). lra.
Qed.
Print Assumptions C46_block_equals_samplewise.

(** A one-tap filter that has seen one sample (1, 2): Phi = 10/2 + 1 with lmbd = 1/2, delta = 10;
    zeta = 2, so w = 1/3, P = 1/6. *)
Example C46_example : exists st, rls_run 1 (1 / 2) 10 [(1, 2)] = Some st /\ r_w st = [1 / 3] /\ entry (r_P st) 0 0 = 1 / 6.
Proof.
  destruct (rls_run_ok 1 (1 / 2) 10 [(1, 2)] ltac:(lia) ltac:(lra) ltac:(lra)) as (st & E & _ & _ & HR). exists st. split; [exact E|].
  pose proof (RI_w _ _ _ _ _ _ HR) as Lw. pose proof (RI_inverse _ _ _ _ _ _ HR 0 0 ltac:(lia) ltac:(lia)) as Hi. pose proof (RI_normal _ _ _ _ _ _ HR 0 ltac:(lia)) as He.
  destruct (r_w st) as [|w [|]]; try discriminate. unfold Phi, zeta, past_ref, past_window, newest_first, newest_refs, window, Rsum in Hi, He. cbn in Hi, He. split; [f_equal|]; lra.
Qed.
(** A solver for one by one systems meets the hypothesis on numpy's solve. *)
Definition solve1 (A B : list vec) : option (list vec) :=
  if Req_EM_T (entry A 0 0) 0 then None else Some (map (map (fun b => b / entry A 0 0)) B).
Example C46_solve1 : solves 1 solve1.
Proof.
  intros k A B K. unfold solve1. destruct (Req_EM_T _ 0) as [E|E].
  - exfalso. specialize (K (fun _ => 1)). cbn [bsum] in K. assert (1 = 0); [|lra]. apply (K ltac:(intros i Hi; replace i with 0%nat by lia; rewrite E; ring) 0%nat ltac:(lia)).
  - eexists. split; [reflexivity|]. intros i j Hi Hj. replace i with 0%nat by lia. cbn [bsum].
    set (a := entry (mk 1 1 A) 0 0) in *. rewrite entry_mk by auto.
    replace (entry (map (map (fun b => b / a)) (mk 1 k B)) 0 j) with (B 0%nat j / a); [field; exact E|].
    unfold entry, mk. cbn [seq map nth]. rewrite map_map. now rewrite nth_map_seq by auto.
Qed.
