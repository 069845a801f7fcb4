(** The helper structures of the adaptive filters: buffer, powers, coin flips. *)
From Coq Require Import List ZArith Lia Reals Lra Bool.
From Verif Require Import Base BaseProofs BufferModel BufferSpec BufferProofs.
Import ListNotations.

(** C41.  Any sequence of pushes, flushes of at least one element, and queries, on a buffer
    created with any positive length, gives the answers of a stack that forgets its oldest
    elements: no error, and no trace of how the array grows. *)
Theorem C41_buffer_is_a_stack : forall {A} (zero : A) length ops, (0 < length)%nat ->
  (forall n, In (Flush n) ops -> n <> 0%nat) ->
  buffer_run zero (new_buffer zero length) ops = Some (stack_run [] ops).
Proof.
  intros A zero length ops Hl Hf. apply buffer_run_stack; [now apply I_new|].
  intros [v|n|n| |r] Ho; cbn; auto.
Qed.
Example C41_ex : stack_run [] [Push 1; Push 2; Push 3; Flush 1; Push 4; Top 2; Size; Get (-1)%Z; Flush 7; Size] =
  [ANone; ANone; ANone; ANone; ANone; AList [4; 3]; ASize 3; AElt (Some 2); ANone; ASize 0].
Proof. reflexivity. Qed.

(** flush(0) fails as soon as the buffer holds something; a buffer of length 0 cannot be
    pushed to. *)
Theorem C41_flush_zero_refuted : exists ops, buffer_run 0 (new_buffer 0 20) ops = None /\ ops = [Push 1; Flush 0].
Proof. exists [Push 1; Flush 0]. split; reflexivity. Qed.
Theorem C41_flush_zero_fails : forall {A} (zero : A) length ops v, (0 < length)%nat -> (forall n, In (Flush n) ops -> n <> 0%nat) ->
  buffer_run zero (new_buffer zero length) (ops ++ [Push v; Flush 0]) = None.
Proof.
  intros A zero len ops v Hl Hf.
  assert (G : forall b l, I b l -> buffer_run zero b (ops ++ [Push v; Flush 0]) = None).
  { clear Hl. induction ops as [|o ops IH]; intros b l Hb.
    - cbn. destruct (I_push zero v b l Hb) as (b' & -> & (H1 & H2 & H3 & H4)). cbn [bind fst]. unfold flush. cbn.
      replace (b_len b' - b_head b' <? 0)%nat with false by (symmetry; apply Nat.ltb_ge; lia). cbn.
      assert (L : (length (b_buf b') - (b_head b' + 0) = S (length l))%nat).
      { apply (f_equal (@length A)) in H4. rewrite skipn_length in H4. cbn in H4. lia. }
      unfold assign_tail. rewrite L. replace (slice (b_head b') 0 (b_buf b')) with (@nil A) by (unfold slice; reflexivity). reflexivity.
    - cbn. assert (Hr : forall n, In (Flush n) ops -> n <> 0%nat) by (intros; apply Hf; now right). specialize (IH Hr).
      destruct o as [w|n|n| |r]; cbn [buffer_step].
      + destruct (I_push zero w b l Hb) as (b' & -> & Hb'). cbn. now rewrite (IH b' _ Hb').
      + assert (Hn : n <> 0%nat) by (apply Hf; now left). destruct (I_flush n b l Hb (or_introl Hn)) as (b' & -> & Hb'). cbn. now rewrite (IH b' _ Hb').
      + cbn. now rewrite (IH b _ Hb).
      + cbn. now rewrite (IH b _ Hb).
      + cbn. now rewrite (IH b _ Hb). }
  eapply G, I_new, Hl.
Qed.
Theorem C41_empty_buffer_refuted : forall {A} (zero v : A), push zero v (new_buffer zero 0) = None.
Proof. reflexivity. Qed.

(** C42.  After any history of requests - single exponents, ranges, non-empty lists - every
    answer consists of the powers of [a] asked for. *)
Local Open Scope R_scope.
Definition wanted (a : R) (r : pindex) : list R :=
  match r with
  | PInt k => [a ^ k]
  | PSlice start stop => map (pow a) (seq start (stop - start))
  | PSliceBack start stop => rev (map (pow a) (seq (stop + 1) (start - stop)))
  | PList ks => map (pow a) ks
  end.
(** [limit] is the initial size of the table; descending ranges are answered from the table as it
    is, so they are only right when they start below it. *)
Definition request_ok (limit : nat) (r : pindex) : Prop :=
  match r with PList ks => ks <> [] | PSliceBack start _ => (start < limit)%nat | _ => True end.
Theorem C42_powers : forall a length rs, (forall r, In r rs -> request_ok length r) ->
  powers_run a (new_powers a length) rs = Some (map (wanted a) rs).
Proof.
  intros a len rs.
  assert (G : forall rs pwr, is_powers a pwr -> (len <= length pwr)%nat -> (forall r, In r rs -> request_ok len r) -> powers_run a pwr rs = Some (map (wanted a) rs)).
  { clear. induction rs as [|r rs IH]; intros pwr Hp Hlen Hr; [reflexivity|]. cbn [powers_run map].
    assert (Hrs : forall r, In r rs -> request_ok len r) by (intros; apply Hr; now right).
    assert (Hr1 : request_ok len r) by (apply Hr; now left).
    destruct r as [k|s t|s t|ks]; cbn [powers_get wanted].
    - destruct (extend_spec a (k + 1) pwr Hp) as (H1 & H2). rewrite (powers_nth a _ k H1) by lia. cbn [bind fst snd]. rewrite IH; auto. lia.
    - destruct (extend_spec a t pwr Hp) as (H1 & H2). cbn [bind fst snd]. rewrite IH; auto; [|lia]. cbn. do 2 f_equal.
      rewrite H1, slice_map, slice_seq by lia. reflexivity.
    - destruct (extend_spec a t pwr Hp) as (H1 & H2). cbn [bind fst snd]. rewrite IH; auto; [|lia]. cbn. do 2 f_equal.
      cbn in Hr1. rewrite H1, slice_map, slice_seq by lia. f_equal. f_equal. f_equal. lia.
    - destruct ks as [|k0 ks0] eqn:E; [now destruct Hr1|]. rewrite <- E in *. 
      destruct (extend_spec a (list_max ks + 1) pwr Hp) as (H1 & H2).
      assert (M : mapM (nth_error (extend a (list_max ks + 1) pwr)) ks = Some (map (pow a) ks)).
      { rewrite (mapM_ext_in _ (fun k => Some (a ^ k))); [apply mapM_total|]. intros k Hk. apply powers_nth; auto.
        assert (k <= list_max ks)%nat; [|lia]. assert (Q : Forall (fun k => (k <= list_max ks)%nat) ks) by (apply list_max_le; lia).
        rewrite Forall_forall in Q. auto. }
      rewrite E in *. rewrite M. cbn [bind fst snd]. rewrite IH; auto. lia. }
  intros Hr. apply G; auto.
  - apply is_powers_map.
  - unfold new_powers. rewrite map_length, seq_length. lia.
Qed.
Example C42_ex : forall r, In r [PInt 30; PSlice 2 5; PSliceBack 4 0; PList [7; 25]%nat] -> request_ok 20 r.
Proof. intros r [<-|[<-|[<-|[<-|[]]]]]; cbn; auto; try lia. discriminate. Qed.

(** A descending range that starts beyond the table is silently cut short. *)
Theorem C42_descending_range_refuted : exists rs xs, powers_run 2 (new_powers 2 3) rs = Some [xs] /\ rs = [PSliceBack 5 0] /\ length xs <> 5%nat.
Proof. exists [PSliceBack 5 0], [2 ^ 2; 2 ^ 1]. split; [reflexivity|]. split; [reflexivity|]. cbn. lia. Qed.
Close Scope R_scope.

(** C43.  Over any sequence of requests, each request of [n] flips gives [n] of them, all of
    them drawn from the random stream, and no draw is handed out twice. *)
Theorem C43_flips_are_never_reused : forall length ns, exists f rs, flip_run (new_flipper length) ns = Some (f, rs) /\
  map (@List.length nat) rs = ns /\ NoDup (concat rs) /\ (forall k, In k (concat rs) -> k < f_drawn f).
Proof.
  intros len ns. destruct (J_run ns (new_flipper len) [] (J_new len)) as (f & rs & E & L & (_ & _ & H3 & H4)).
  exists f, rs. split; [exact E|]. split; [exact L|]. cbn in *. split.
  - clear - H3. revert H3. generalize (skipn (f_dirty f) (f_buffer f)). generalize (concat rs). induction l as [|x l IH]; intros m H; [constructor|].
    inversion H; subst. constructor; [|eauto]. intros Q. apply H2. apply in_or_app. now left.
  - intros k Hk. apply H4. apply in_or_app. now left.
Qed.
Example C43_ex : flip_run (new_flipper 4) [3; 2; 5] <> None /\
  option_map snd (flip_run (new_flipper 4) [3; 2; 5]) = Some [[0; 1; 2]; [4; 5]; [6; 3; 7; 8; 9]].
Proof. split; [discriminate|reflexivity]. Qed.

(** The array returned is a window on the buffer: a later request changes it.  Here the first
    two flips of a buffer of four, looked at again after a request of three. *)
Theorem C43_returned_flips_change_refuted : exists f1 r1 f2 r2,
  flip 2 (new_flipper 4) = Some (f1, r1) /\ flip 3 f1 = Some (f2, r2) /\ f_length f2 = f_length f1 /\
  slice 0 2 (f_buffer f1) = r1 /\ slice 0 2 (f_buffer f2) <> r1.
Proof. eexists _, _, _, _. repeat split; try reflexivity. discriminate. Qed.

Print Assumptions C41_buffer_is_a_stack.
Print Assumptions C41_flush_zero_fails.
Print Assumptions C41_flush_zero_refuted.
Print Assumptions C41_empty_buffer_refuted.
Print Assumptions C42_powers.
Print Assumptions C42_descending_range_refuted.
Print Assumptions C43_flips_are_never_reused.
Print Assumptions C43_returned_flips_change_refuted.
