(** Proofs about the thread pool. *)
From Coq Require Import List Arith Lia Bool Permutation.
From Verif Require Import Base BaseProofs PoolModel PoolSpec.
Import ListNotations.

Lemma store_split : forall {A} (l : list A) i v l', store l i v = Some l' ->
  exists a b x, l = a ++ x :: b /\ length a = i /\ l' = a ++ v :: b.
Proof.
  induction l as [|x l IH]; intros i v l' H; destruct i; simpl in H; try discriminate.
  - injection H as <-. exists [], l, x. auto.
  - destruct (store l i v) as [l1|] eqn:E; [|discriminate]. injection H as <-.
    destruct (IH i v l1 E) as (a & b & y & -> & L & ->). exists (x :: a), b, y. simpl. auto.
Qed.

Lemma store_split' : forall {A} (l : list A) i v l' x, nth_error l i = Some x -> store l i v = Some l' ->
  exists a b, l = a ++ x :: b /\ l' = a ++ v :: b.
Proof.
  intros A l i v l' x Hn Hs. destruct (store_split l i v l' Hs) as (a & b & y & -> & L & ->).
  rewrite nth_error_app2 in Hn by lia. rewrite L, Nat.sub_diag in Hn. simpl in Hn. injection Hn as ->. eauto.
Qed.

Lemma in_app_swap : forall {A} (a b : list A) x y z, In z (a ++ x :: b) -> z = x \/ In z (a ++ y :: b).
Proof. intros A a b x y z H. apply in_app_or in H as [H|[H|H]]; auto; right; apply in_or_app; simpl; auto. Qed.

Definition busy (w : worker) : Prop := match w with Ready | Running _ => True | _ => False end.

Record inv (n : nat) (p : pool) : Prop := {
  v_len : length (ws p) = n;
  v_fifo : accepted p = started p ++ q p;
  v_run : Permutation (started p) (done p ++ running p);
  v_stop : stop p = true <-> ds p <> NotStarted;
  v_exit : In Exited (ws p) -> stop p = true /\ q p = [];
  v_sleep : In Asleep (ws p) -> ds p = NotStarted \/ ds p = StopSet;
  v_ret : ds p = Returned -> forall w, In w (ws p) -> w = Exited;
  v_wake : n <> 0 -> q p <> [] -> pending p > 0 \/ (exists w, In w (ws p) /\ busy w) \/ ds p = StopSet;
}.

Lemma inv_new : forall n, inv n (new_pool n).
Proof.
  intros n. constructor; simpl; auto.
  - apply repeat_length.
  - assert (E : running (new_pool n) = []). { unfold running. simpl. induction n; simpl; auto. } rewrite E. constructor.
  - split; [discriminate|congruence].
  - intros H. apply repeat_spec in H. discriminate.
  - intros H. discriminate.
  - congruence.
Qed.

Lemma running_app : forall a b, flat_map (fun w => match w with Running id => [id] | _ => [] end) (a ++ b) =
  flat_map (fun w => match w with Running id => [id] | _ => [] end) a ++ flat_map (fun w => match w with Running id => [id] | _ => [] end) b.
Proof. intros. apply flat_map_app. Qed.

Lemma running_wake : forall l, flat_map (fun w => match w with Running id => [id] | _ => [] end) (map wake l) =
  flat_map (fun w => match w with Running id => [id] | _ => [] end) l.
Proof. induction l as [|w l IH]; simpl; auto. rewrite IH. destruct w; auto. Qed.

Lemma length_swap : forall {A} (a b : list A) x y, length (a ++ x :: b) = length (a ++ y :: b).
Proof. intros. rewrite !app_length. reflexivity. Qed.

Lemma inv_step : forall n a p p', inv n p -> step a p p' -> inv n p'.
Proof.
  intros n a p p' I St. destruct I as [vl vf vr vs ve vsl vret vw]. unfold running in *.
  destruct St as [p id Hs Hd|p id Hs Hd|p m i ws' Hp Hi Hst|p m Hp Hn|p i id rest ws' Hi Hq Hst|p i ws' Hi Hq Hs Hst|p i ws' Hi Hq Hs Hst|p i ws' Hi Hst|p i id ws' Hi Hst|p Hd|p Hd|p Hd Hall];
  try (destruct (store_split' _ _ _ _ _ Hi Hst) as (x & y & Ex & ->); rewrite Ex in * );
  constructor; cbn [q stop ws pending ds accepted rejected started done]; unfold running; cbn [q stop ws pending ds accepted rejected started done];
  try (rewrite running_app in *; cbn [flat_map app] in * );
  try assumption; try (rewrite <- vl; apply length_swap).
  - rewrite vf, <- app_assoc. reflexivity.
  - intros H. destruct (ve H). congruence.
  - intros _ _. left. lia.
  - intros H. apply (in_app_swap _ _ _ Asleep) in H as [H|H]; [discriminate|auto].
  - intros H. apply (in_app_swap _ _ _ Asleep) in H as [H|H]; [discriminate|]. auto.
  - intros H w Hw. exfalso. specialize (vret H Asleep). rewrite in_app_iff in vret. simpl in vret. assert (Asleep = Exited) by auto. discriminate.
  - intros _ _. right. left. exists Ready. rewrite in_app_iff. simpl. auto.
  - intros N0 Nq. destruct vw as [A|[A|A]]; auto. destruct n; [lia|].
    right. left. destruct (ws p) as [|w l] eqn:E; [simpl in vl; lia|]. exists w. split; [left; auto|]. destruct w; simpl; auto.
    + exfalso. apply Hn. left. auto.
    + destruct ve as [_ Q]; [left; auto|congruence].
  - rewrite vf, Hq, <- app_assoc. reflexivity.
  - rewrite (app_assoc (done p)). rewrite (app_assoc (done p)) in vr.
    eapply Permutation_trans; [apply Permutation_app_tail, vr|].
    rewrite <- !app_assoc. apply Permutation_app_head. apply Permutation_app_head.
    apply Permutation_sym, Permutation_cons_append.
  - intros H. apply (in_app_swap _ _ _ Ready) in H as [H|H]; [discriminate|]. destruct (ve H). congruence.
  - intros H. apply (in_app_swap _ _ _ Ready) in H as [H|H]; [discriminate|auto].
  - intros H w Hw. exfalso. specialize (vret H Ready). rewrite in_app_iff in vret. simpl in vret. assert (Ready = Exited) by auto. discriminate.
  - intros _ _. right. left. exists (Running id). rewrite in_app_iff. simpl. auto.
  - intros _. auto.
  - intros H. apply (in_app_swap _ _ _ Ready) in H as [H|H]; [discriminate|auto].
  - intros H w Hw. exfalso. specialize (vret H Ready). rewrite in_app_iff in vret. simpl in vret. assert (Ready = Exited) by auto. discriminate.
  - intros _ Nq. congruence.
  - intros H. apply (in_app_swap _ _ _ Ready) in H as [H|H]; [discriminate|auto].
  - intros _. left. destruct (ds p); auto; exfalso; assert (stop p = true) by (apply vs; discriminate); congruence.
  - intros H w Hw. exfalso. specialize (vret H Ready). rewrite in_app_iff in vret. simpl in vret. assert (Ready = Exited) by auto. discriminate.
  - intros _ Nq. congruence.
  - intros H. apply (in_app_swap _ _ _ Asleep) in H as [H|H]; [discriminate|auto].
  - intros H. apply (in_app_swap _ _ _ Asleep) in H as [H|H]; [discriminate|auto].
  - intros H w Hw. exfalso. specialize (vret H Asleep). rewrite in_app_iff in vret. simpl in vret. assert (Asleep = Exited) by auto. discriminate.
  - intros _ _. right. left. exists Ready. rewrite in_app_iff. simpl. auto.
  - eapply Permutation_trans; [exact vr|]. rewrite <- app_assoc. apply Permutation_app_head. simpl.
    apply Permutation_sym, Permutation_middle.
  - intros H. apply (in_app_swap _ _ _ (Running id)) in H as [H|H]; [discriminate|auto].
  - intros H. apply (in_app_swap _ _ _ (Running id)) in H as [H|H]; [discriminate|auto].
  - intros H w Hw. exfalso. specialize (vret H (Running id)). rewrite in_app_iff in vret. simpl in vret. assert (Running id = Exited) by auto. discriminate.
  - intros _ _. right. left. exists Ready. rewrite in_app_iff. simpl. auto.
  - split; [discriminate|auto].
  - intros H. split; auto. apply ve in H. apply H.
  - intros _. auto.
  - discriminate.
  - intros _ _. auto.
  - rewrite map_length. auto.
  - rewrite running_wake. auto.
  - split; [discriminate|]. intros _. apply vs. congruence.
  - intros H. apply in_map_iff in H as (w & E & H). apply ve. destruct w; try discriminate; auto.
  - intros H. exfalso. apply in_map_iff in H as (w & E & H). destruct w; discriminate.
  - discriminate.
  - intros N0 Nq. right. left. destruct n; [lia|]. destruct (ws p) as [|w l] eqn:E; [simpl in vl; lia|].
    exists (wake w). split; [left; auto|]. destruct w; simpl; auto. destruct ve as [_ Q]; [left; auto|congruence].
  - split; [discriminate|]. intros _. apply vs. congruence.
  - intros H. apply Hall in H. discriminate.
  - auto.
  - intros N0 Nq. exfalso. destruct n; [lia|]. destruct (ws p) as [|w l] eqn:E; [simpl in vl; lia|].
    assert (w = Exited) by (apply Hall; left; auto). subst w. destruct ve as [_ Q]; [left; auto|congruence].
Qed.

Lemma inv_reach : forall n p, reachable n p -> inv n p.
Proof.
  intros n p H. unfold reachable in H. remember (new_pool n) as p0 eqn:E. revert E.
  induction H as [p|p p' p'' a H IH St]; intros E.
  - subst. apply inv_new.
  - eapply inv_step; eauto.
Qed.

(** ** Shutdown terminates *)
Definition weight (w : worker) : nat := match w with Exited => 0 | Ready => 1 | Asleep | Running _ => 2 end.
Definition weights (l : list worker) : nat := list_sum (map weight l).
Definition measure (p : pool) : nat := 3 * length (q p) + weights (ws p).

Lemma weights_swap : forall a b x y, weights (a ++ x :: b) + weight y = weights (a ++ y :: b) + weight x.
Proof. intros. unfold weights. rewrite !map_app, !list_sum_app. simpl. lia. Qed.

Lemma worker_step_decreases : forall i p p', stop p = true -> step (Worker i) p p' -> stop p' = true /\ measure p' < measure p.
Proof.
  intros i p p' Hs St. inversion St as [| | | |p0 i0 id rest ws' Hi Hq Hst E1|p0 i0 ws' Hi Hq Hs' Hst E1|p0 i0 ws' Hi Hq Hs' Hst E1|p0 i0 ws' Hi Hst E1|p0 i0 id ws' Hi Hst E1| | |]; subst;
    destruct (store_split' _ _ _ _ _ Hi Hst) as (x & y & Ex & ->); unfold measure; cbn [q stop ws]; rewrite Ex; split; auto.
  - pose proof (weights_swap x y Ready (Running id)). rewrite Hq. simpl in *. lia.
  - pose proof (weights_swap x y Ready Exited). simpl in *. lia.
  - congruence.
  - pose proof (weights_swap x y Asleep Ready). simpl in *. lia.
  - pose proof (weights_swap x y (Running id) Ready). simpl in *. lia.
Qed.

Lemma worker_steps_bounded : forall k p p', worker_steps k p p' -> stop p = true -> k + measure p' <= measure p /\ stop p' = true.
Proof.
  intros k p p' H. induction H as [p|k p p' p'' i St H IH]; intros Hs; [split; [lia|auto]|].
  destruct (worker_step_decreases i p p' Hs St) as [A B]. destruct (IH A). split; auto. lia.
Qed.

Lemma store_some : forall {A} (l : list A) i v x, nth_error l i = Some x -> exists l', store l i v = Some l'.
Proof.
  intros A l i v x H. assert (i < length l) by (apply nth_error_Some; congruence).
  destruct (store_Some l i v H0) as (l' & E & _). eauto.
Qed.

Lemma worker_can_step : forall p i w, nth_error (ws p) i = Some w -> w <> Exited -> exists p', step (Worker i) p p'.
Proof.
  intros p i w H N. destruct w as [| |id|]; try congruence.
  - destruct (q p) as [|id rest] eqn:Eq.
    + destruct (stop p) eqn:Es.
      * destruct (store_some (ws p) i Exited _ H) as (l & E). eexists. eapply leave; eauto.
      * destruct (store_some (ws p) i Asleep _ H) as (l & E). eexists. eapply sleep; eauto.
    + destruct (store_some (ws p) i (Running id) _ H) as (l & E). eexists. eapply take; eauto.
  - destruct (store_some (ws p) i Ready _ H) as (l & E). eexists. eapply spurious; eauto.
  - destruct (store_some (ws p) i Ready _ H) as (l & E). eexists. eapply finish; eauto.
Qed.

(** A step of worker [i] that is not a spurious wakeup. *)
Lemma worker_can_step_awake : forall p i w, nth_error (ws p) i = Some w -> busy w ->
  exists p', step (Worker i) p p' /\ ws p <> ws p'.
Proof.
  intros p i w H N. destruct w as [| |id|]; simpl in N; try tauto.
  - destruct (q p) as [|id rest] eqn:Eq; [destruct (stop p) eqn:Es|].
    + destruct (store_some (ws p) i Exited _ H) as (l & E). eexists. split; [eapply leave; eauto|]. simpl.
      destruct (store_split' _ _ _ _ _ H E) as (a & b & -> & ->). intros Q. apply app_inv_head in Q. discriminate.
    + destruct (store_some (ws p) i Asleep _ H) as (l & E). eexists. split; [eapply sleep; eauto|]. simpl.
      destruct (store_split' _ _ _ _ _ H E) as (a & b & -> & ->). intros Q. apply app_inv_head in Q. discriminate.
    + destruct (store_some (ws p) i (Running id) _ H) as (l & E). eexists. split; [eapply take; eauto|]. simpl.
      destruct (store_split' _ _ _ _ _ H E) as (a & b & -> & ->). intros Q. apply app_inv_head in Q. discriminate.
  - destruct (store_some (ws p) i Ready _ H) as (l & E). eexists. split; [eapply finish; eauto|]. simpl.
    destruct (store_split' _ _ _ _ _ H E) as (a & b & -> & ->). intros Q. apply app_inv_head in Q. discriminate.
Qed.

Lemma drains : forall n p, reachable n p -> ds p = Notified ->
  exists k p', worker_steps k p p' /\ forall w, In w (ws p') -> w = Exited.
Proof.
  intros n p R D. assert (Hs : stop p = true) by (apply (v_stop _ _ (inv_reach n p R)); congruence). clear R D.
  remember (measure p) as m eqn:Em. revert p Em Hs. induction m as [m IH] using lt_wf_ind. intros p -> Hs.
  assert (C : (forall w, In w (ws p) -> w = Exited) \/ exists i w, nth_error (ws p) i = Some w /\ w <> Exited).
  { induction (ws p) as [|w l IHl]; [left; intros w []|].
    destruct w; try (right; exists 0; eexists; split; [reflexivity|discriminate]).
    destruct IHl as [H|(i & w & H & N)].
    - left. intros w [<-|Hw]; auto.
    - right. exists (S i), w. auto. }
  destruct C as [C|(i & w & H & N)].
  - exists 0, p. split; auto. constructor.
  - destruct (worker_can_step p i w H N) as (p1 & St). destruct (worker_step_decreases i p p1 Hs St) as [S1 L].
    destruct (IH (measure p1) L p1 eq_refl S1) as (k & p2 & W & F). exists (S k), p2. split; auto. econstructor; eauto.
Qed.
