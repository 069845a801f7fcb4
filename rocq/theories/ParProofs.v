(** Proofs about concurrent tasks on a shared array. *)
From Coq Require Import List ZArith Lia Reals Lra.
From Verif Require Import Base BaseProofs ParModel.
Import ListNotations.
Local Open Scope R_scope.

(** ** Sums of accesses *)
Definition added (i : nat) (a : act) : R := match a with Add j d => if Nat.eqb j i then d else 0 | Put _ _ => 0 end.
Definition added_by (i : nat) (p : list act) : R := Rsum (map (added i) p).
Definition total (i : nat) (ps : list (list act)) : R := Rsum (map (added_by i) ps).

Definition disjoint_tasks (ps : list (list act)) : Prop :=
  forall t u p q a b, t <> u -> nth_error ps t = Some p -> nth_error ps u = Some q ->
    In a p -> In b q -> cell a <> cell b.
Definition all_adds (ps : list (list act)) : Prop := forall p a, In p ps -> In a p -> exists i d, a = Add i d.
Definition inside (n : nat) (ps : list (list act)) : Prop := forall p a, In p ps -> In a p -> (cell a < n)%nat.

Lemma store_nth : forall {A} (l : list A) i v l', store l i v = Some l' ->
  (i < length l)%nat /\ length l' = length l /\ forall j, nth_error l' j = if Nat.eqb j i then Some v else nth_error l j.
Proof.
  intros A l i v l' H. destruct (Nat.lt_ge_cases i (length l)) as [L|L].
  - destruct (store_Some l i v L) as (l1 & E & A1 & A2). rewrite H in E. injection E as <-. auto.
  - rewrite (store_None l i v L) in H. discriminate.
Qed.

Lemma Rsum_store : forall (f : task -> R) ts t a ts' b, nth_error ts t = Some b -> store ts t a = Some ts' ->
  Rsum (map f ts') = Rsum (map f ts) - f b + f a.
Proof.
  intros f. induction ts as [|x ts IH]; intros t a ts' b Hn Hs; [destruct t; discriminate|].
  destruct t as [|t]; simpl in *.
  - injection Hn as ->. injection Hs as <-. simpl. lra.
  - destruct (store ts t a) as [ts1|] eqn:E; [|discriminate]. injection Hs as <-. simpl.
    rewrite (IH t a ts1 b Hn E). lra.
Qed.

Definition todos (s : shared) : list (list act) := map t_todo (s_tasks s).

Record inv (buf0 : list R) (ps : list (list act)) (s : shared) : Prop := {
  i_len : length (s_buf s) = length buf0;
  i_num : length (s_tasks s) = length ps;
  i_suffix : forall t p x, nth_error ps t = Some p -> nth_error (s_tasks s) t = Some x -> exists done, p = done ++ t_todo x;
  i_reg : forall t x v, nth_error (s_tasks s) t = Some x -> t_reg x = Some v ->
     exists i d rest, t_todo x = Add i d :: rest /\ nth_error (s_buf s) i = Some v;
  i_sum : forall i, (i < length buf0)%nat ->
     nth i (s_buf s) 0 + Rsum (map (fun x => added_by i (t_todo x)) (s_tasks s)) = nth i buf0 0 + total i ps;
}.

Lemma inv_init : forall buf0 ps, inv buf0 ps {| s_buf := buf0; s_tasks := map start ps |}.
Proof.
  intros. constructor; simpl; auto.
  - apply map_length.
  - intros t p x H1 H2. rewrite nth_error_map, H1 in H2. simpl in H2. injection H2 as <-. exists []. reflexivity.
  - intros t x v H1 H2. rewrite nth_error_map in H1. destruct (nth_error ps t); [|discriminate].
    injection H1 as <-. discriminate.
  - intros i Hi. unfold total. rewrite map_map. reflexivity.
Qed.

Lemma nth_nth_error : forall (l : list R) i v, nth_error l i = Some v -> nth i l 0 = v.
Proof. intros. now apply nth_error_nth. Qed.

Lemma nth_store : forall (l : list R) i v l' j, store l i v = Some l' -> nth j l' 0 = if Nat.eqb j i then v else nth j l 0.
Proof.
  intros l i v l' j H. destruct (store_nth _ _ _ _ H) as (A & B & C).
  destruct (Nat.lt_ge_cases j (length l)) as [L|L].
  - specialize (C j). destruct (Nat.eqb_spec j i) as [->|Ne].
    + now apply nth_nth_error.
    + rewrite (nth_error_nth' l 0 L) in C. now apply nth_nth_error in C.
  - rewrite nth_overflow by lia. destruct (Nat.eqb_spec j i); [lia|]. now rewrite nth_overflow.
Qed.

Lemma Forall_nth_error : forall {A} (l : list A) k a, nth_error l k = Some a -> In a l.
Proof. intros. eapply nth_error_In; eauto. Qed.

Lemma in_todo_in : forall buf0 ps s t p x a, inv buf0 ps s -> nth_error ps t = Some p -> nth_error (s_tasks s) t = Some x ->
  In a (t_todo x) -> In a p.
Proof. intros. destruct (i_suffix _ _ _ H t p x H0 H1) as (done & ->). apply in_or_app. auto. Qed.

Lemma task_prog : forall buf0 ps s t x, inv buf0 ps s -> nth_error (s_tasks s) t = Some x -> exists p, nth_error ps t = Some p.
Proof.
  intros buf0 ps s t x I H. destruct (nth_error ps t) eqn:E; eauto. apply nth_error_None in E.
  rewrite <- (i_num _ _ _ I) in E. apply nth_error_None in E. congruence.
Qed.

Lemma suffix_store : forall buf0 ps s t x x' ts', inv buf0 ps s -> nth_error (s_tasks s) t = Some x ->
  store (s_tasks s) t x' = Some ts' -> (exists d, t_todo x = d ++ t_todo x') ->
  forall t' p y, nth_error ps t' = Some p -> nth_error ts' t' = Some y -> exists done, p = done ++ t_todo y.
Proof.
  intros buf0 ps s t x x' ts' I Hx Hs (d & Hd) t' p y Hp Hy.
  destruct (store_nth _ _ _ _ Hs) as (A & B & C). rewrite C in Hy.
  destruct (Nat.eqb_spec t' t) as [->|Ne].
  - injection Hy as <-. destruct (i_suffix _ _ _ I t p x Hp Hx) as (done & ->).
    exists (done ++ d). now rewrite <- app_assoc, <- Hd.
  - apply (i_suffix _ _ _ I t' p y Hp Hy).
Qed.

Lemma inv_step : forall buf0 ps s s', disjoint_tasks ps -> all_adds ps -> inv buf0 ps s -> pstep s s' -> inv buf0 ps s'.
Proof.
  intros buf0 ps s s' Dj Aa I St. destruct St as [buf ts t i d rest v ts' Ht Hv Hs | buf ts t i d rest v buf' ts' Ht Hb Hs | buf ts t i v rest buf' ts' Ht Hb Hs].
  - destruct (store_nth _ _ _ _ Hs) as (A & B & C). constructor; simpl.
    + apply (i_len _ _ _ I).
    + rewrite B. apply (i_num _ _ _ I).
    + apply (suffix_store _ _ _ _ _ _ _ I Ht Hs). exists []. reflexivity.
    + intros t' x w Hx Hw. rewrite C in Hx. destruct (Nat.eqb_spec t' t) as [->|Ne].
      * injection Hx as <-. simpl in Hw. injection Hw as <-. simpl. eauto.
      * apply (i_reg _ _ _ I t' x w Hx Hw).
    + intros j Hj. rewrite (Rsum_store _ _ _ _ _ _ Ht Hs). simpl. pose proof (i_sum _ _ _ I j Hj) as E. simpl in E. lra.
  - destruct (store_nth _ _ _ _ Hs) as (A & B & C). destruct (store_nth _ _ _ _ Hb) as (A' & B' & C').
    destruct (i_reg _ _ _ I t _ v Ht eq_refl) as (i' & d' & r' & E1 & E2). simpl in E1, E2. injection E1 as <- <- <-.
    destruct (task_prog _ _ _ _ _ I Ht) as (p & Hp).
    constructor; simpl.
    + rewrite B'. apply (i_len _ _ _ I).
    + rewrite B. apply (i_num _ _ _ I).
    + apply (suffix_store _ _ _ _ _ _ _ I Ht Hs). exists [Add i d]. reflexivity.
    + intros t' x w Hx Hw. rewrite C in Hx. destruct (Nat.eqb_spec t' t) as [->|Ne].
      * injection Hx as <-. discriminate.
      * destruct (i_reg _ _ _ I t' x w Hx Hw) as (j & e & r & F1 & F2). exists j, e, r. split; auto. simpl in F2.
        rewrite C'. destruct (Nat.eqb_spec j i) as [->|]; auto. exfalso.
        destruct (task_prog _ _ _ _ _ I Hx) as (q & Hq).
        refine (Dj t' t q p (Add i e) (Add i d) Ne Hq Hp _ _ eq_refl).
        -- apply (in_todo_in _ _ _ _ _ _ _ I Hq Hx). rewrite F1. left; auto.
        -- apply (in_todo_in _ _ _ _ _ _ _ I Hp Ht). left; auto.
    + intros j Hj. rewrite (Rsum_store _ _ _ _ _ _ Ht Hs). pose proof (i_sum _ _ _ I j Hj) as E. simpl in *.
      rewrite (nth_store _ _ _ _ j Hb). apply nth_nth_error in E2.
      unfold added_by in *. simpl. rewrite (Nat.eqb_sym i j). destruct (Nat.eqb_spec j i) as [->|]; lra.
  - exfalso. destruct (task_prog _ _ _ _ _ I Ht) as (p & Hp).
    destruct (Aa p (Put i v)) as (? & ? & ?); [eapply nth_error_In; eauto| |discriminate].
    apply (in_todo_in _ _ _ _ _ _ _ I Hp Ht). left; auto.
Qed.

Lemma inv_steps : forall buf0 ps s, disjoint_tasks ps -> all_adds ps -> reaches buf0 ps s -> inv buf0 ps s.
Proof.
  intros buf0 ps s Dj Aa H. unfold reaches in H.
  remember {| s_buf := buf0; s_tasks := map start ps |} as s0 eqn:E. induction H as [s|s s' s'' H IH St].
  - subst. apply inv_init.
  - eapply inv_step; eauto.
Qed.

(** Whatever the schedule, a finished execution has added every contribution once. *)
Lemma executes_adds : forall buf0 ps buf', disjoint_tasks ps -> all_adds ps -> executes buf0 ps buf' ->
  length buf' = length buf0 /\ forall i, (i < length buf0)%nat -> nth i buf' 0 = nth i buf0 0 + total i ps.
Proof.
  intros buf0 ps buf' Dj Aa (s & H & F & <-). pose proof (inv_steps _ _ _ Dj Aa H) as I. split; [apply (i_len _ _ _ I)|].
  intros i Hi. rewrite <- (i_sum _ _ _ I i Hi).
  assert (Z : Rsum (map (fun x => added_by i (t_todo x)) (s_tasks s)) = 0).
  { clear - F. unfold finished in F. induction (s_tasks s) as [|x l IH]; simpl in *; auto.
    rewrite IH by auto. rewrite (F x) by auto. unfold added_by. simpl. lra. }
  lra.
Qed.

(** No access is ever out of bounds: as long as a task is unfinished there is a step, for
    that very task. *)
Lemma store_ex : forall {A} (l : list A) i v, (i < length l)%nat -> exists l', store l i v = Some l'.
Proof. intros. destruct (store_Some l i v H) as (l' & E & _). eauto. Qed.

Lemma no_fault : forall buf0 ps s, disjoint_tasks ps -> all_adds ps -> inside (length buf0) ps -> reaches buf0 ps s ->
  forall t x, nth_error (s_tasks s) t = Some x -> t_todo x <> [] ->
  exists s', pstep s s' /\ (forall u, u <> t -> nth_error (s_tasks s') u = nth_error (s_tasks s) u) /\
             nth_error (s_tasks s') t <> nth_error (s_tasks s) t.
Proof.
  intros buf0 ps s Dj Aa In0 H t x Hx Hn. pose proof (inv_steps _ _ _ Dj Aa H) as I.
  destruct (task_prog _ _ _ _ _ I Hx) as (p & Hp).
  destruct s as [buf ts]. simpl in *.
  destruct x as [todo reg]. simpl in Hn. destruct todo as [|a rest]; [congruence|].
  assert (Ha : In a p) by (apply (in_todo_in _ _ _ _ _ _ _ I Hp Hx); left; auto).
  destruct (Aa p a) as (i & d & ->); [eapply nth_error_In; eauto|auto|].
  assert (Hi : (i < length buf)%nat).
  { pose proof (i_len _ _ _ I) as E. simpl in E. rewrite E. apply (In0 p (Add i d)); auto. eapply nth_error_In; eauto. }
  assert (Ht : (t < length ts)%nat) by (apply nth_error_Some; congruence).
  destruct reg as [v|].
  - destruct (store_ex buf i (v + d) Hi) as (buf' & Eb).
    destruct (store_ex ts t {| t_todo := rest; t_reg := None |} Ht) as (ts' & Et).
    exists {| s_buf := buf'; s_tasks := ts' |}. split; [eapply p_store; eauto|]. simpl.
    destruct (store_nth _ _ _ _ Et) as (_ & _ & C). split.
    + intros u Hu. rewrite C. destruct (Nat.eqb_spec u t); congruence.
    + rewrite C, Nat.eqb_refl, Hx. intros E. injection E. intros _ E1. 
      assert (L : length rest = length (Add i d :: rest)) by congruence. simpl in L. lia.
  - destruct (nth_error buf i) as [v|] eqn:Ev; [|apply nth_error_None in Ev; lia].
    destruct (store_ex ts t {| t_todo := Add i d :: rest; t_reg := Some v |} Ht) as (ts' & Et).
    exists {| s_buf := buf; s_tasks := ts' |}. split; [eapply p_load; eauto|]. simpl.
    destruct (store_nth _ _ _ _ Et) as (_ & _ & C). split.
    + intros u Hu. rewrite C. destruct (Nat.eqb_spec u t); congruence.
    + rewrite C, Nat.eqb_refl, Hx. intros E. discriminate.
Qed.

(** ** Termination: every schedule is finite *)
Definition weight (x : task) : nat := (2 * length (t_todo x) - match t_reg x with Some _ => 1 | None => 0 end)%nat.
Fixpoint weights (l : list task) : nat := match l with [] => 0%nat | x :: l' => (weight x + weights l')%nat end.
Lemma weights_store : forall ts t a ts' b, nth_error ts t = Some b -> store ts t a = Some ts' ->
  (weights ts' + weight b = weights ts + weight a)%nat.
Proof.
  induction ts as [|x ts IH]; intros t a ts' b Hn Hs; [destruct t; discriminate|].
  destruct t as [|t]; simpl in *.
  - injection Hn as ->. injection Hs as <-. simpl. lia.
  - destruct (store ts t a) as [ts1|] eqn:E; [|discriminate]. injection Hs as <-. simpl.
    pose proof (IH t a ts1 b Hn E). lia.
Qed.
Lemma pstep_weight : forall s s', pstep s s' -> (weights (s_tasks s') < weights (s_tasks s))%nat.
Proof.
  intros s s' H. destruct H as [buf ts t i d rest v ts' Ht Hv Hs | buf ts t i d rest v buf' ts' Ht Hb Hs | buf ts t i v rest buf' ts' Ht Hb Hs];
    pose proof (weights_store _ _ _ _ _ Ht Hs) as E; unfold weight in E; simpl in *; lia.
Qed.

Lemma psteps_trans : forall a b c, psteps a b -> psteps b c -> psteps a c.
Proof. intros a b c H1 H2. revert H1. induction H2 as [|x y z P IH Q]; intros H1; auto. exact (ps_step _ _ _ (IH H1) Q). Qed.

(** Every reachable state can be completed. *)
Lemma completes : forall buf0 ps, disjoint_tasks ps -> all_adds ps -> inside (length buf0) ps ->
  forall s, reaches buf0 ps s -> exists s', psteps s s' /\ finished s'.
Proof.
  intros buf0 ps Dj Aa In0 s. remember (weights (s_tasks s)) as n eqn:E. revert s E.
  induction n as [n IH] using lt_wf_ind. intros s -> H.
  assert (D : finished s \/ exists t x, nth_error (s_tasks s) t = Some x /\ t_todo x <> []).
  { unfold finished. clear. induction (s_tasks s) as [|x l IHl].
    - left. intros t [].
    - destruct (t_todo x) eqn:Ex.
      + destruct IHl as [IHl|(t & y & Hy & Ny)].
        * left. intros t [<-|Ht]; auto.
        * right. exists (S t), y. auto.
      + right. exists 0%nat, x. split; auto. congruence. }
  destruct D as [D|(t & x & Hx & Nx)].
  - exists s. split; auto. constructor.
  - destruct (no_fault buf0 ps s Dj Aa In0 H t x Hx Nx) as (s1 & St & _).
    destruct (IH (weights (s_tasks s1)) (pstep_weight _ _ St) s1 eq_refl) as (s2 & P & F).
    + eapply ps_step; eauto.
    + exists s2. split; auto. eapply psteps_trans; [|exact P]. eapply ps_step; [constructor|auto].
Qed.

(** ** Tasks that only overwrite cells, each cell at most once *)
Definition all_puts (ps : list (list act)) : Prop := forall p a, In p ps -> In a p -> exists i v, a = Put i v.
Definition once (ps : list (list act)) : Prop := forall p, In p ps -> NoDup (map cell p).

Record pinv (buf0 : list R) (ps : list (list act)) (s : shared) : Prop := {
  pi_len : length (s_buf s) = length buf0;
  pi_num : length (s_tasks s) = length ps;
  pi_suffix : forall t p x, nth_error ps t = Some p -> nth_error (s_tasks s) t = Some x ->
     t_reg x = None /\ exists done, p = done ++ t_todo x /\ forall i v, In (Put i v) done -> nth_error (s_buf s) i = Some v;
  pi_rest : forall i, ~ In i (map cell (concat ps)) -> nth_error (s_buf s) i = nth_error buf0 i
}.

Lemma pinv_init : forall buf0 ps, pinv buf0 ps {| s_buf := buf0; s_tasks := map start ps |}.
Proof.
  intros. constructor; simpl; auto.
  - apply map_length.
  - intros t p x H1 H2. rewrite nth_error_map, H1 in H2. simpl in H2. injection H2 as <-. split; auto.
    exists []. split; auto. intros i v [].
Qed.

Lemma ptask_prog : forall buf0 ps s t x, pinv buf0 ps s -> nth_error (s_tasks s) t = Some x -> exists p, nth_error ps t = Some p.
Proof.
  intros buf0 ps s t x I H. destruct (nth_error ps t) eqn:E; eauto. apply nth_error_None in E.
  rewrite <- (pi_num _ _ _ I) in E. apply nth_error_None in E. congruence.
Qed.

Lemma pinv_step : forall buf0 ps s s', disjoint_tasks ps -> all_puts ps -> once ps -> pinv buf0 ps s -> pstep s s' -> pinv buf0 ps s'.
Proof.
  intros buf0 ps s s' Dj Ap On I St. destruct St as [buf ts t i d rest v ts' Ht Hv Hs | buf ts t i d rest v buf' ts' Ht Hb Hs | buf ts t i v rest buf' ts' Ht Hb Hs].
  - exfalso. destruct (ptask_prog _ _ _ _ _ I Ht) as (p & Hp). destruct (pi_suffix _ _ _ I t p _ Hp Ht) as (_ & done & E & _).
    destruct (Ap p (Add i d)) as (? & ? & ?); [eapply nth_error_In; eauto| |discriminate]. rewrite E. apply in_or_app. right. left. auto.
  - exfalso. destruct (ptask_prog _ _ _ _ _ I Ht) as (p & Hp). destruct (pi_suffix _ _ _ I t p _ Hp Ht) as (N & _). discriminate.
  - destruct (store_nth _ _ _ _ Hs) as (A & B & C). destruct (store_nth _ _ _ _ Hb) as (A' & B' & C').
    destruct (ptask_prog _ _ _ _ _ I Ht) as (p & Hp). destruct (pi_suffix _ _ _ I t p _ Hp Ht) as (_ & done & E & D). simpl in E, D.
    constructor; simpl.
    + rewrite B'. apply (pi_len _ _ _ I).
    + rewrite B. apply (pi_num _ _ _ I).
    + intros t' p' x Hp' Hx. rewrite C in Hx. destruct (Nat.eqb_spec t' t) as [->|Ne].
      * injection Hx as <-. rewrite Hp in Hp'. injection Hp' as <-. split; auto. exists (done ++ [Put i v]). split.
        { rewrite E, <- app_assoc. reflexivity. }
        intros j w Hj. rewrite C'. apply in_app_or in Hj as [Hj|[Hj|[]]].
        -- destruct (Nat.eqb_spec j i) as [->|]; [|now apply D]. exfalso.
           assert (N : NoDup (map cell p)) by (apply On; eapply nth_error_In; eauto).
           rewrite E, map_app in N. cbn [map cell] in N. apply NoDup_remove_2 in N. apply N. apply in_or_app. left.
           apply (in_map cell) in Hj. exact Hj.
        -- injection Hj as <- <-. now rewrite Nat.eqb_refl.
      * destruct (pi_suffix _ _ _ I t' p' x Hp' Hx) as (R & done' & E' & D'). split; auto. exists done'. split; auto.
        intros j w Hj. rewrite C'. destruct (Nat.eqb_spec j i) as [->|]; [|now apply D']. exfalso.
        refine (Dj t' t p' p (Put i w) (Put i v) Ne Hp' Hp _ _ eq_refl).
        -- rewrite E'. apply in_or_app. auto.
        -- rewrite E. apply in_or_app. right. left. auto.
    + intros j Hj. rewrite C'. destruct (Nat.eqb_spec j i) as [->|]; [|now apply (pi_rest _ _ _ I)].
      exfalso. apply Hj. apply in_map_iff. exists (Put i v). split; auto. apply in_concat. exists p. split; [eapply nth_error_In; eauto|].
      rewrite E. apply in_or_app. right. left. auto.
Qed.

Lemma pinv_steps : forall buf0 ps s, disjoint_tasks ps -> all_puts ps -> once ps -> reaches buf0 ps s -> pinv buf0 ps s.
Proof.
  intros buf0 ps s Dj Aa On H. unfold reaches in H.
  remember {| s_buf := buf0; s_tasks := map start ps |} as s0 eqn:E. induction H as [s|s s' s'' H IH St].
  - subst. apply pinv_init.
  - eapply pinv_step; eauto.
Qed.

Lemma executes_puts : forall buf0 ps buf', disjoint_tasks ps -> all_puts ps -> once ps -> executes buf0 ps buf' ->
  length buf' = length buf0 /\
  (forall i v, In (Put i v) (concat ps) -> nth_error buf' i = Some v) /\
  (forall i, ~ In i (map cell (concat ps)) -> nth_error buf' i = nth_error buf0 i).
Proof.
  intros buf0 ps buf' Dj Ap On (s & H & F & <-). pose proof (pinv_steps _ _ _ Dj Ap On H) as I. split; [apply (pi_len _ _ _ I)|].
  split; [|apply (pi_rest _ _ _ I)]. intros i v Hi. apply in_concat in Hi as (p & Hp & Hi). apply In_nth_error in Hp as (t & Hp).
  assert (Ht : (t < length (s_tasks s))%nat) by (rewrite (pi_num _ _ _ I); apply nth_error_Some; congruence).
  destruct (nth_error (s_tasks s) t) as [x|] eqn:Hx; [|apply nth_error_None in Hx; lia].
  destruct (pi_suffix _ _ _ I t p x Hp Hx) as (_ & done & E & D).
  rewrite (F x) in E by (eapply nth_error_In; eauto). rewrite app_nil_r in E. subst done. now apply D.
Qed.

Lemma no_fault_puts : forall buf0 ps s, disjoint_tasks ps -> all_puts ps -> once ps -> inside (length buf0) ps -> reaches buf0 ps s ->
  forall t x, nth_error (s_tasks s) t = Some x -> t_todo x <> [] ->
  exists s', pstep s s' /\ (forall u, u <> t -> nth_error (s_tasks s') u = nth_error (s_tasks s) u) /\
             nth_error (s_tasks s') t <> nth_error (s_tasks s) t.
Proof.
  intros buf0 ps s Dj Ap On In0 H t x Hx Hn. pose proof (pinv_steps _ _ _ Dj Ap On H) as I.
  destruct (ptask_prog _ _ _ _ _ I Hx) as (p & Hp). destruct (pi_suffix _ _ _ I t p x Hp Hx) as (Rn & done & E & _).
  destruct s as [buf ts]. simpl in *. destruct x as [todo reg]. simpl in Hn, Rn, E. subst reg. destruct todo as [|a rest]; [congruence|].
  assert (Ha : In a p) by (rewrite E; apply in_or_app; right; left; auto).
  destruct (Ap p a) as (i & v & ->); [eapply nth_error_In; eauto|auto|].
  assert (Hi : (i < length buf)%nat).
  { pose proof (pi_len _ _ _ I) as L. simpl in L. rewrite L. apply (In0 p (Put i v)); auto. eapply nth_error_In; eauto. }
  assert (Ht : (t < length ts)%nat) by (apply nth_error_Some; congruence).
  destruct (store_ex buf i v Hi) as (buf' & Eb).
  destruct (store_ex ts t {| t_todo := rest; t_reg := None |} Ht) as (ts' & Et).
  exists {| s_buf := buf'; s_tasks := ts' |}. split; [eapply p_put; eauto|]. simpl.
  destruct (store_nth _ _ _ _ Et) as (_ & _ & C). split.
  + intros u Hu. rewrite C. destruct (Nat.eqb_spec u t); congruence.
  + rewrite C, Nat.eqb_refl, Hx. intros Q. injection Q. intros E1.
    assert (L : length rest = length (Put i v :: rest)) by congruence. simpl in L. lia.
Qed.

Lemma completes_of : forall buf0 ps,
  (forall s, reaches buf0 ps s -> forall t x, nth_error (s_tasks s) t = Some x -> t_todo x <> [] -> exists s', pstep s s') ->
  forall s, reaches buf0 ps s -> exists s', psteps s s' /\ finished s'.
Proof.
  intros buf0 ps NF s. remember (weights (s_tasks s)) as n eqn:E. revert s E.
  induction n as [n IH] using lt_wf_ind. intros s -> H.
  assert (D : finished s \/ exists t x, nth_error (s_tasks s) t = Some x /\ t_todo x <> []).
  { unfold finished. clear. induction (s_tasks s) as [|x l IHl].
    - left. intros t [].
    - destruct (t_todo x) eqn:Ex.
      + destruct IHl as [IHl|(t & y & Hy & Ny)].
        * left. intros t [<-|Ht]; auto.
        * right. exists (S t), y. auto.
      + right. exists 0%nat, x. split; auto. congruence. }
  destruct D as [D|(t & x & Hx & Nx)].
  - exists s. split; auto. constructor.
  - destruct (NF s H t x Hx Nx) as (s1 & St).
    destruct (IH (weights (s_tasks s1)) (pstep_weight _ _ St) s1 eq_refl) as (s2 & P & F).
    + eapply ps_step; eauto.
    + exists s2. split; auto. eapply psteps_trans; [|exact P]. eapply ps_step; [constructor|auto].
Qed.
