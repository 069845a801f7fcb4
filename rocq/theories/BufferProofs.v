(** Proofs about the buffer, the table of powers and the coin flipper. *)
From Coq Require Import List ZArith Lia Reals Lra Bool Permutation.
From Verif Require Import Base BaseProofs BufferModel BufferSpec.
Import ListNotations.

Lemma slice_length : forall {A} a b (l : list A), (b <= length l)%nat -> length (slice a b l) = (b - a)%nat.
Proof. intros. unfold slice. rewrite firstn_length, skipn_length. lia. Qed.
Lemma skipn_skipn' : forall {A} a b (l : list A), skipn a (skipn b l) = skipn (b + a) l.
Proof. intros A a b. induction b as [|b IH]; intros l; [reflexivity|]. destruct l; cbn; [now destruct a|]. apply IH. Qed.
Lemma store_at : forall {A} (l1 : list A) x l2 v, store (l1 ++ x :: l2) (length l1) v = Some (l1 ++ v :: l2).
Proof. induction l1 as [|y l1 IH]; intros; simpl; [reflexivity|]. now rewrite IH. Qed.

Section B.
Context {A : Type}.
Variable zero : A.
Definition I (b : buffer A) (l : list A) : Prop :=
  length (b_buf b) = b_len b /\ (b_head b <= b_len b)%nat /\ (0 < b_len b)%nat /\ skipn (b_head b) (b_buf b) = l.

Lemma I_new : forall n, (0 < n)%nat -> I (new_buffer zero n) [].
Proof.
  intros n H. unfold I, new_buffer. cbn. rewrite repeat_length. repeat (split; [lia|]).
  rewrite <- (repeat_length zero n) at 1. apply skipn_all.
Qed.
Lemma I_size : forall b l, I b l -> size b = length l.
Proof. intros b l (H1 & H2 & H3 & <-). unfold size. rewrite skipn_length. lia. Qed.
Lemma I_push : forall v b l, I b l -> exists b', push zero v b = Some b' /\ I b' (v :: l).
Proof.
  intros v b l (H1 & H2 & H3 & <-). unfold push.
  set (b1 := if Nat.eqb (b_head b) 0 then _ else b).
  assert (K : length (b_buf b1) = b_len b1 /\ (0 < b_head b1 <= b_len b1)%nat /\ skipn (b_head b1) (b_buf b1) = skipn (b_head b) (b_buf b)).
  { unfold b1. destruct (Nat.eqb_spec (b_head b) 0) as [E|E]; cbn [b_buf b_len b_head].
    - rewrite app_length, repeat_length, E. cbn [Nat.add]. split; [lia|]. split; [lia|].
      rewrite skipn_app, repeat_length, Nat.sub_diag. rewrite skipn_all2 by now rewrite repeat_length. reflexivity.
    - repeat split; auto; lia. }
  destruct K as (K1 & K2 & K3). destruct (b_head b1) as [|h] eqn:Eh; [lia|].
  destruct (skipn h (b_buf b1)) as [|x t] eqn:Es.
  { apply (f_equal (@length A)) in Es. rewrite skipn_length in Es. cbn in Es. lia. }
  assert (Eb : b_buf b1 = firstn h (b_buf b1) ++ x :: t) by (rewrite <- Es; symmetry; apply firstn_skipn).
  assert (Lh : length (firstn h (b_buf b1)) = h) by (rewrite firstn_length; lia).
  assert (Et : t = skipn (S h) (b_buf b1)).
  { rewrite Eb, skipn_app, Lh. rewrite skipn_all2 by lia. replace (S h - h)%nat with 1%nat by lia. reflexivity. }
  assert (St : store (b_buf b1) h v = Some (firstn h (b_buf b1) ++ v :: t)).
  { pose proof (store_at (firstn h (b_buf b1)) x t v) as Q. now rewrite <- Eb, Lh in Q. }
  rewrite St. cbn [bind]. eexists. split; [reflexivity|].
  unfold I. cbn [b_buf b_len b_head]. split; [rewrite <- K1; rewrite Eb at 2; rewrite !app_length; reflexivity|]. split; [lia|]. split; [lia|].
  rewrite skipn_app, Lh, Nat.sub_diag, skipn_all2 by lia. cbn. f_equal. now rewrite Et.
Qed.
Lemma I_flush : forall n b l, I b l -> (n <> 0 \/ l = [])%nat -> exists b', flush n b = Some b' /\ I b' (firstn (length l - n) l).
Proof.
  intros n b l (H1 & H2 & H3 & El) Hn. unfold flush.
  assert (Ll : length l = (b_len b - b_head b)%nat) by (rewrite <- El, skipn_length; lia).
  set (k := if (b_len b - b_head b <? n)%nat then _ else n).
  assert (Kk : (k = Nat.min n (b_len b - b_head b))%nat) by (unfold k; destruct (Nat.ltb_spec (b_len b - b_head b) n); lia).
  assert (E : slice (b_head b) (if Nat.eqb k 0 then 0 else length (b_buf b) - k)%nat (b_buf b) = firstn (length l - n) l).
  { unfold slice. rewrite El. destruct (Nat.eqb_spec k 0) as [E0|E0].
    - assert (l = []) by (destruct Hn as [Hn|]; auto; destruct l; auto; cbn in Ll; lia). subst l. now rewrite H, !firstn_nil.
    - f_equal. lia. }
  rewrite E. unfold assign_tail. rewrite firstn_length.
  replace (Nat.eqb (Nat.min (length l - n) (length l)) (length (b_buf b) - (b_head b + k))) with true by (symmetry; apply Nat.eqb_eq; lia).
  cbn [bind]. eexists. split; [reflexivity|]. unfold I. cbn [b_buf b_len b_head].
  split; [rewrite app_length, !firstn_length; lia|]. split; [lia|]. split; [lia|].
  rewrite skipn_app, skipn_all2 by (rewrite firstn_length; lia). rewrite firstn_length.
  replace (b_head b + k - Nat.min (b_head b + k) (length (b_buf b)))%nat with 0%nat by lia. reflexivity.
Qed.
Lemma I_top : forall n b l, I b l -> top n b = firstn n l.
Proof. intros n b l (_ & _ & _ & <-). unfold top, slice. f_equal. lia. Qed.
Lemma I_get : forall r b l, I b l -> get r b = if (r <? 0)%Z then nth_error (rev l) (Z.to_nat (- r - 1)) else nth_error l (Z.to_nat r).
Proof.
  intros r b l (_ & _ & _ & E). unfold get. rewrite E. clear E. destruct (Z.ltb_spec r 0) as [Hr|Hr].
  - destruct (Z.ltb_spec (r + Z.of_nat (length l)) 0) as [Q|Q].
    + symmetry. apply nth_error_None. rewrite rev_length. lia.
    + destruct l as [|x0 l0] eqn:El; [cbn in Q; lia|]. rewrite <- El in *. clear El.
      rewrite (nth_error_nth' _ x0) by lia. rewrite (nth_error_nth' (rev l) x0) by (rewrite rev_length; lia). f_equal. rewrite rev_nth by lia. f_equal. lia.
  - destruct (Z.ltb_spec r 0); [lia|]. reflexivity.
Qed.

Definition flush_ok (o : bop A) : Prop := match o with Flush n => n <> 0%nat | _ => True end.
Lemma buffer_run_stack : forall ops b l, I b l -> (forall o, In o ops -> flush_ok o) -> buffer_run zero b ops = Some (stack_run l ops).
Proof.
  induction ops as [|o ops IH]; intros b l Hb Ho; [reflexivity|]. cbn [buffer_run stack_run].
  assert (Hr : forall o', In o' ops -> flush_ok o') by (intros; apply Ho; now right).
  assert (Ho1 : flush_ok o) by (apply Ho; now left). destruct o as [v|n|n| |r]; cbn [buffer_step stack_step fst snd bind].
  - destruct (I_push v b l Hb) as (b' & -> & Hb'). cbn [bind fst snd]. rewrite (IH b' (v :: l) Hb' Hr). reflexivity.
  - destruct (I_flush n b l Hb (or_introl Ho1)) as (b' & -> & Hb'). cbn [bind fst snd]. rewrite (IH b' _ Hb' Hr). reflexivity.
  - rewrite (I_top n b l Hb), (IH b l Hb Hr). reflexivity.
  - rewrite (I_size b l Hb), (IH b l Hb Hr). reflexivity.
  - rewrite (I_get r b l Hb), (IH b l Hb Hr). reflexivity.
Qed.
End B.

(** ** Powers *)
Local Open Scope R_scope.
Definition is_powers (a : R) (pwr : list R) : Prop := pwr = map (pow a) (seq 0 (length pwr)).
Lemma is_powers_map : forall a n, is_powers a (map (pow a) (seq 0 n)).
Proof. intros. unfold is_powers. now rewrite map_length, seq_length. Qed.
Lemma extend_spec : forall a h pwr, is_powers a pwr -> is_powers a (extend a h pwr) /\ length (extend a h pwr) = Nat.max (length pwr) h.
Proof.
  intros a h pwr H. unfold extend. destruct (Nat.ltb_spec (length pwr) h) as [L|L]; [|split; [auto|lia]]. split.
  - unfold is_powers. rewrite H at 1. rewrite app_length, map_length, seq_length, <- map_app. f_equal.
    rewrite (seq_app (length pwr)). reflexivity.
  - rewrite app_length, map_length, seq_length. lia.
Qed.
Lemma powers_nth : forall a pwr k, is_powers a pwr -> (k < length pwr)%nat -> nth_error pwr k = Some (a ^ k).
Proof.
  intros a pwr k H L. rewrite H, nth_error_map, nth_error_nth' with (d := 0%nat) by now rewrite seq_length. rewrite seq_nth by auto. reflexivity.
Qed.
Lemma slice_seq : forall a b s n, (b <= n)%nat -> slice a b (seq s n) = seq (s + a) (b - a).
Proof.
  intros a b s n H. unfold slice. destruct (Nat.le_gt_cases a b) as [L|L].
  2:{ replace (b - a)%nat with 0%nat by lia. reflexivity. }
  replace n with (a + ((b - a) + (n - b)))%nat at 1 by lia. rewrite seq_app, skipn_app, seq_length, Nat.sub_diag.
  rewrite skipn_all2 by now rewrite seq_length. cbn [app skipn]. rewrite seq_app, firstn_app, seq_length, Nat.sub_diag. cbn [firstn]. rewrite app_nil_r.
  apply firstn_all2. rewrite seq_length. lia.
Qed.
Lemma slice_map : forall {A B} (f : A -> B) a b l, slice a b (map f l) = map f (slice a b l).
Proof. intros. unfold slice. now rewrite <- firstn_map, <- skipn_map. Qed.
Close Scope R_scope.

(** ** Coin flipper: the coins not handed out yet are distinct and not among those handed out *)
Definition J (f : flipper) (out : list nat) : Prop :=
  length (f_buffer f) = f_length f /\ (f_dirty f <= f_length f)%nat /\
  NoDup (out ++ skipn (f_dirty f) (f_buffer f)) /\ (forall k, In k (out ++ f_buffer f) -> (k < f_drawn f)%nat).
Lemma J_new : forall n, J (new_flipper n) [].
Proof.
  intros n. unfold J, new_flipper. cbn. rewrite seq_length. repeat (split; [auto; lia|]). split; [apply seq_NoDup|].
  intros k Hk. apply in_seq in Hk. lia.
Qed.
Lemma NoDup_app_fresh : forall (l : list nat) s n, NoDup l -> (forall k, In k l -> (k < s)%nat) -> NoDup (l ++ seq s n).
Proof.
  induction l as [|x l IH]; intros s n H Hl; [apply seq_NoDup|]. inversion H; subst. cbn. constructor.
  - rewrite in_app_iff. intros [Q|Q]; [contradiction|]. apply in_seq in Q. specialize (Hl x (or_introl eq_refl)). lia.
  - apply IH; auto. intros; apply Hl; now right.
Qed.
Lemma J_grow : forall f out n, J f out -> (f_length f < n)%nat ->
  J {| f_buffer := firstn (f_length f) (f_buffer f) ++ fresh_flips (2 * n - f_length f) f;
       f_length := 2 * n; f_dirty := f_dirty f; f_drawn := f_drawn f + (2 * n - f_length f) |} out.
Proof.
  intros f out n (H1 & H2 & H3 & H4) L. unfold J. cbn [f_buffer f_length f_dirty f_drawn]. unfold fresh_flips.
  rewrite <- H1, firstn_all. rewrite app_length, seq_length. split; [lia|]. split; [lia|].
  rewrite skipn_app. replace (f_dirty f - length (f_buffer f))%nat with 0%nat by lia. cbn [skipn]. split.
  - rewrite app_assoc. apply NoDup_app_fresh; auto. intros k Hk. apply H4. rewrite in_app_iff in *. destruct Hk; auto. right.
    rewrite <- (firstn_skipn (f_dirty f) (f_buffer f)). apply in_or_app. now right.
  - intros k Hk. rewrite !in_app_iff in Hk. destruct Hk as [Hk|[Hk|Hk]].
    + specialize (H4 k ltac:(apply in_or_app; auto)). lia.
    + specialize (H4 k ltac:(apply in_or_app; auto)). lia.
    + apply in_seq in Hk. lia.
Qed.
Lemma J_all : forall f out, J f out -> exists f', flip_all f = Some f' /\ J f' out /\ f_dirty f' = 0%nat /\ f_length f' = f_length f.
Proof.
  intros f out (H1 & H2 & H3 & H4). unfold flip_all. unfold fresh_flips at 1. rewrite slice_length, seq_length by lia. rewrite Nat.sub_0_r, Nat.eqb_refl. cbn [negb].
  eexists. split; [reflexivity|]. cbn [f_dirty f_length]. split; [|auto]. unfold J. cbn [f_buffer f_length f_dirty f_drawn skipn]. unfold fresh_flips.
  rewrite app_length, seq_length, skipn_length. split; [lia|]. split; [lia|]. split.
  - assert (P : NoDup ((out ++ skipn (f_dirty f) (f_buffer f)) ++ seq (f_drawn f) (f_dirty f))).
    { apply NoDup_app_fresh; auto. intros k Hk. apply H4. rewrite in_app_iff in *. destruct Hk; auto. right.
      rewrite <- (firstn_skipn (f_dirty f) (f_buffer f)). apply in_or_app. now right. }
    rewrite <- app_assoc in P. eapply Permutation_NoDup; [|exact P]. apply Permutation_app_head, Permutation_app_comm.
  - intros k Hk. rewrite !in_app_iff in Hk. destruct Hk as [Hk|[Hk|Hk]].
    + specialize (H4 k ltac:(apply in_or_app; auto)). lia.
    + apply in_seq in Hk. lia.
    + assert (In k (f_buffer f)) by (rewrite <- (firstn_skipn (f_dirty f) (f_buffer f)); apply in_or_app; now right).
      specialize (H4 k ltac:(apply in_or_app; auto)). lia.
Qed.
Lemma J_flip : forall n f out, J f out -> exists f' r, flip n f = Some (f', r) /\ length r = n /\ J f' (out ++ r).
Proof.
  intros n f out H. unfold flip. set (g := if (f_length f <? n)%nat then _ else f).
  assert (G : J g out /\ (n <= f_length g)%nat).
  { unfold g. destruct (Nat.ltb_spec (f_length f) n) as [L|L]; [|split; [auto|lia]]. split; [now apply J_grow|]. cbn. lia. }
  destruct G as (Jg & Ln). clearbody g.
  assert (K : exists h, (if (f_length g - f_dirty g <? n)%nat then flip_all g else Some g) = Some h /\ J h out /\ (f_dirty h + n <= f_length h)%nat).
  { destruct (Nat.ltb_spec (f_length g - f_dirty g) n) as [L|L].
    - destruct (J_all g out Jg) as (h & E & Jh & D & Lh). exists h. split; [exact E|]. split; [exact Jh|lia].
    - exists g. split; [reflexivity|]. split; [exact Jg|]. destruct Jg as (? & ? & _). lia. }
  destruct K as (h & -> & (H1 & H2 & H3 & H4) & Lh). cbn [bind]. eexists _, _. split; [reflexivity|].
  split; [rewrite slice_length by lia; lia|]. unfold J. cbn [f_buffer f_length f_dirty f_drawn]. split; [auto|]. split; [lia|].
  assert (E : skipn (f_dirty h) (f_buffer h) = slice (f_dirty h) (f_dirty h + n) (f_buffer h) ++ skipn (f_dirty h + n) (f_buffer h)).
  { unfold slice. replace (f_dirty h + n - f_dirty h)%nat with n by lia. rewrite <- (firstn_skipn n (skipn (f_dirty h) (f_buffer h))) at 1. f_equal.
    now rewrite skipn_skipn'. }
  split; [now rewrite <- app_assoc, <- E|].
  intros k Hk. apply H4. rewrite !in_app_iff in *. destruct Hk as [[Hk|Hk]|Hk]; auto. right.
  rewrite <- (firstn_skipn (f_dirty h) (f_buffer h)). apply in_or_app. right. rewrite E. apply in_or_app. now left.
Qed.
Lemma J_run : forall ns f out, J f out -> exists f' rs, flip_run f ns = Some (f', rs) /\ map (@length nat) rs = ns /\ J f' (out ++ concat rs).
Proof.
  induction ns as [|n ns IH]; intros f out H; cbn [flip_run].
  - exists f, []. split; [reflexivity|]. split; [reflexivity|]. cbn. now rewrite app_nil_r.
  - destruct (J_flip n f out H) as (f1 & r & E & Lr & H1). rewrite E. cbn [bind fst snd].
    destruct (IH f1 _ H1) as (f2 & rs & E2 & L2 & H2). rewrite E2. cbn [bind fst snd]. exists f2, (r :: rs). split; [reflexivity|].
    split; [cbn; now rewrite Lr, L2|]. cbn. now rewrite app_assoc.
Qed.
