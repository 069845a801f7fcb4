(** The thread pool: property C26. *)
From Coq Require Import List Arith Lia Bool Permutation.
From Verif Require Import Base BaseProofs PoolModel PoolSpec PoolProofs.
Import ListNotations.

(** C26, FIFO and at most once.  In every reachable state the tasks that were started, in
    the order in which they were started, followed by the queue, are exactly the accepted
    tasks in the order of acceptance; and the started tasks are those that have returned
    and those that are running, each once. *)
Theorem C26_fifo_exactly_once : forall threads p, reachable threads p ->
  accepted p = started p ++ q p /\ Permutation (started p) (done p ++ running p).
Proof. intros threads p R. destruct (inv_reach threads p R). auto. Qed.
Print Assumptions C26_fifo_exactly_once.

(** C26, after the destructor.  When the destructor has returned (of a pool with at least
    one worker) every accepted task was started, in order, and has returned, exactly once;
    and no step can be made any more. *)
Theorem C26_destructor_drains : forall threads p, 0 < threads -> reachable threads p -> ds p = Returned ->
  started p = accepted p /\ Permutation (done p) (accepted p) /\ (forall w, In w (ws p) -> w = Exited) /\
  forall i p', ~ step (Worker i) p p'.
Proof.
  intros threads p T R D. destruct (inv_reach threads p R) as [vl vf vr vs ve vsl vret vw].
  specialize (vret D). assert (Hq : q p = []).
  { apply ve. destruct (ws p) as [|w l]; [simpl in vl; lia|]. rewrite (vret w) by (left; auto). left; auto. }
  assert (Hr : running p = []).
  { unfold running. clear - vret. induction (ws p) as [|w l IH]; simpl in *; auto.
    rewrite IH by auto. rewrite (vret w) by auto. reflexivity. }
  rewrite Hq, app_nil_r in vf. rewrite Hr, app_nil_r in vr.
  split; [auto|]. split; [rewrite vf; now apply Permutation_sym|]. split; [exact vret|].
  intros i p' St. inversion St; subst;
    match goal with H : nth_error _ _ = Some _ |- _ => apply nth_error_In in H; apply vret in H; discriminate end.
Qed.
Print Assumptions C26_destructor_drains.

(** C26, shutdown ends.  Once stop has been requested and signalled no worker sleeps, the
    workers can take only a bounded number of further steps whatever the schedule, as long
    as one has not exited that very worker has a step, and a state in which all have
    exited (so that join returns) is reachable by worker steps alone. *)
Theorem C26_shutdown_terminates : forall threads p, reachable threads p -> ds p = Notified ->
  ~ In Asleep (ws p) /\
  (forall k p', worker_steps k p p' -> k <= 3 * length (q p) + 2 * threads) /\
  (forall k p', worker_steps k p p' -> forall i w, nth_error (ws p') i = Some w -> w <> Exited -> exists p'', step (Worker i) p' p'') /\
  (exists k p', worker_steps k p p' /\ forall w, In w (ws p') -> w = Exited).
Proof.
  intros threads p R D. pose proof (inv_reach threads p R) as I.
  assert (Hs : stop p = true) by (apply (v_stop _ _ I); congruence).
  split; [|split; [|split]].
  - intros H. destruct (v_sleep _ _ I H); congruence.
  - intros k p' W. destruct (worker_steps_bounded k p p' W Hs) as [L _].
    assert (B : weights (ws p) <= 2 * threads).
    { rewrite <- (v_len _ _ I). clear. induction (ws p) as [|w l IH]; [unfold weights; simpl; lia|].
      unfold weights in *. simpl. destruct w; simpl; lia. }
    unfold measure in L. lia.
  - intros k p' W i w H N. now apply (worker_can_step p' i w).
  - now apply (drains threads).
Qed.
Print Assumptions C26_shutdown_terminates.

(** C26, no lost wake-up.  While the pool is alive (at least one worker), tasks in the queue
    are never left with every worker asleep and no notification on its way: either a
    notification is pending, or a worker is awake and can make a step, or the shutdown is
    about to notify all. *)
Theorem C26_no_lost_wakeup : forall threads p, 0 < threads -> reachable threads p -> q p <> [] ->
  pending p > 0 \/ ds p = StopSet \/
  exists i w p', nth_error (ws p) i = Some w /\ w <> Asleep /\ w <> Exited /\ step (Worker i) p p'.
Proof.
  intros threads p T R Nq. pose proof (inv_reach threads p R) as I.
  destruct (v_wake _ _ I ltac:(lia) Nq) as [A|[(w & Hw & B)|A]]; auto. right. right.
  apply In_nth_error in Hw as (i & Hi). destruct (worker_can_step_awake p i w Hi B) as (p' & St & _).
  exists i, w, p'. destruct w; simpl in B; try tauto; repeat split; auto; discriminate.
Qed.
Print Assumptions C26_no_lost_wakeup.

(** After stop an enqueue is refused. *)
Theorem C26_no_task_accepted_after_stop : forall threads p p' a, reachable threads p -> ds p <> NotStarted -> step a p p' ->
  accepted p' = accepted p.
Proof.
  intros threads p p' a R D St. pose proof (inv_reach threads p R) as I.
  assert (Hs : stop p = true) by (now apply (v_stop _ _ I)).
  destruct St; simpl; auto. congruence.
Qed.
Print Assumptions C26_no_task_accepted_after_stop.

(** One worker, two tasks: a complete life of a pool. *)
Example C26_ex : exists p, reachable 1 p /\ ds p = Returned /\ accepted p = [7; 8] /\ done p = [7; 8] /\ rejected p = [9].
Proof.
  assert (F : forall a p p' p'', step a p p' -> steps p' p'' -> steps p p'').
  { intros a p p' p'' H1 H2. revert H1. induction H2 as [|x y z b P IH Q]; intros H1.
    - eapply s_step; [apply s_refl|exact H1].
    - eapply s_step; [apply IH, H1|exact Q]. }
  eexists. split.
  - unfold reachable, new_pool. cbn [repeat].
    eapply F; [eapply (sleep _ 0); reflexivity|]. cbn.
    eapply F; [eapply (enq _ 7); [reflexivity|discriminate]|]. cbn.
    eapply F; [eapply (notify_one _ 0 0); reflexivity|]. cbn.
    eapply F; [eapply (enq _ 8); [reflexivity|discriminate]|]. cbn.
    eapply F; [eapply (take _ 0); reflexivity|]. cbn.
    eapply F; [eapply (finish _ 0); reflexivity|]. cbn.
    eapply F; [apply set_stop; reflexivity|]. cbn.
    eapply F; [apply notify_all; reflexivity|]. cbn.
    eapply F; [eapply (enq_throw _ 9); [reflexivity|discriminate]|]. cbn.
    eapply F; [eapply (take _ 0); reflexivity|]. cbn.
    eapply F; [eapply (finish _ 0); reflexivity|]. cbn.
    eapply F; [eapply (leave _ 0); reflexivity|]. cbn.
    eapply F; [apply joined; [reflexivity|]|].
    + cbn. intros w [<-|[]]. reflexivity.
    + apply s_refl.
  - repeat split.
Qed.
