(** Lemmas about the subspace method. *)
From Coq Require Import List ZArith Lia Reals Lra Bool Permutation Sorted.
From Verif Require Import Base Vec Sum StftModel StftSpec StftProofs DenoiseModel DenoiseSpec UtilModel WienerProofs SubspaceModel SubspaceSpec BaseProofs.
Import ListNotations.
Local Open Scope R_scope.

(** ** Sliding windows *)
Definition window {A} (L : nat) (z : A) (l : list A) : list A := skipn (length l) (repeat z L ++ l).
Lemma window_length : forall {A} L (z : A) l, length (window L z l) = L.
Proof. intros. unfold window. rewrite skipn_length, app_length, repeat_length. lia. Qed.
Lemma window_snoc : forall {A} L (z : A) l a, (1 <= L)%nat -> window L z (l ++ [a]) = tl (window L z l) ++ [a].
Proof.
  intros A L z l a HL. unfold window. rewrite app_length. cbn [length]. rewrite app_assoc, skipn_app, app_length, repeat_length. replace (length l + 1 - (L + length l))%nat with 0%nat by lia. cbn [skipn]. f_equal.
  rewrite Nat.add_1_r. generalize (repeat z L ++ l). intros m. generalize (length l). intros n. revert m. induction n as [|n IH]; intros m; [destruct m; reflexivity|]. destruct m as [|b m]; [reflexivity|]. change (skipn (S (S n)) (b :: m)) with (skipn (S n) m). change (skipn (S n) (b :: m)) with (skipn n m). apply IH.
Qed.
Lemma nth_window : forall {A} L (z : A) l i d, (i < L)%nat -> nth i (window L z l) d = if (i + length l <? L)%nat then z else nth (i + length l - L) l d.
Proof.
  intros A L z l i d Hi. unfold window. rewrite nth_skipn. destruct (Nat.ltb_spec (i + length l) L).
  - rewrite app_nth1 by (rewrite repeat_length; lia). rewrite (nth_indep _ d z) by (rewrite repeat_length; lia). apply nth_repeat.
  - rewrite app_nth2 by (rewrite repeat_length; lia). rewrite repeat_length. f_equal. lia.
Qed.
Lemma Rsum_bsum : forall l, Rsum l = bsum (length l) (fun i => nth i l 0).
Proof. intros l. rewrite bsum_Rsum. f_equal. apply nth_ext with (d := 0) (d' := 0); [now rewrite map_length, seq_length|]. intros n Hn. now rewrite nth_map_seq. Qed.
Lemma window_sum : forall {A} L (z : A) (f : nat -> A) (g : A -> R) t, Rsum (map g (window L z (map f (seq 0 (t + 1))))) = bsum L (fun l => if (l <=? t)%nat then g (f (t - l)%nat) else g z).
Proof.
  intros A L z f g t. rewrite Rsum_bsum, map_length, window_length, bsum_rev. apply bsum_ext. intros l Hl. rewrite (nth_indep _ 0 (g z)) by (rewrite map_length, window_length; lia). rewrite map_nth, nth_window by lia. rewrite map_length, seq_length.
  destruct (Nat.ltb_spec (L - 1 - l + (t + 1)) L), (Nat.leb_spec l t); try lia; [reflexivity|]. rewrite (nth_indep _ z (f 0%nat)) by (rewrite map_length, seq_length; lia). rewrite map_nth, seq_nth by lia. do 2 f_equal. lia.
Qed.

(** ** Sums of outer products *)
Definition psum (fs : list vec) : mat := fold_left (fun m f => madd m (outer f)) fs mzero.
Lemma psum_products : forall fs p q, psum fs p q = products fs p q.
Proof.
  intros fs p q. unfold psum. assert (G : forall fs m, fold_left (fun m f => madd m (outer f)) fs m p q = m p q + products fs p q).
  { clear fs. induction fs as [|f fs IH]; intros m; cbn [fold_left]; [unfold products; cbn; ring|]. rewrite IH. unfold products. cbn [length]. rewrite bsum_shift. cbn [nth]. unfold madd, outer. ring. }
  rewrite G. unfold mzero. ring.
Qed.
Lemma products_psd : forall n fs v, 0 <= quad n (products fs) v.
Proof.
  intros n fs v. unfold quad, products.
  replace (bsum n _) with (bsum (length fs) (fun k => bsum n (fun i => v i * nth i (nth k fs []) 0) * bsum n (fun j => v j * nth j (nth k fs []) 0))).
  - apply bsum_nonneg. intros k _. apply Rle_0_sqr.
  - rewrite (bsum_ext _ _ (fun k => bsum n (fun i => bsum n (fun j => v i * (nth i (nth k fs []) 0 * nth j (nth k fs []) 0) * v j)))).
    + rewrite bsum_swap. apply bsum_ext. intros i _. rewrite bsum_swap. apply bsum_ext. intros j _. rewrite <- bsum_scal, <- bsum_scal_r. apply bsum_ext. intros k _. ring.
    + intros k _. rewrite bsum_mul. apply bsum_ext. intros i _. apply bsum_ext. intros j _. ring.
Qed.

(** ** The state after a number of blocks *)
Section Stream.
Variables h L skip : nat.
Variable thresh : R.
Hypothesis Hh : (1 <= h)%nat.
Hypothesis HL : (1 <= L)%nat.
Hypothesis Hskip : (1 <= skip)%nat.

Lemma steps_lt : forall k, (k < (h + skip - 1) / skip)%nat -> (k * skip < h)%nat.
Proof.
  intros k Hk. pose proof (Nat.mul_div_le (h + skip - 1) skip ltac:(lia)) as D. assert ((k + 1) * skip <= h + skip - 1)%nat by nia. nia.
Qed.
Lemma steps_pos : (0 < (h + skip - 1) / skip)%nat.
Proof. apply Nat.div_str_pos. lia. Qed.
Lemma past_frame_app : forall x b t, (t + 2 * h <= 2 * h + length x)%nat -> past_frame h (x ++ b) t = past_frame h x t.
Proof.
  intros x b t Ht. unfold past_frame. apply map_ext_in. intros j Hj. apply in_seq in Hj. unfold delayed. rewrite app_assoc. rewrite app_nth1; [reflexivity|]. rewrite app_length, repeat_length. lia.
Qed.
Lemma block_frames_app : forall x b u T, length x = (T * h)%nat -> (u < T)%nat -> block_frames h skip (x ++ b) u = block_frames h skip x u.
Proof.
  intros x b u T Hx Hu. unfold block_frames. apply map_ext_in. intros k Hk. apply in_seq in Hk. pose proof (steps_lt k ltac:(lia)). apply past_frame_app. rewrite Hx. nia.
Qed.
Definition last_of (n : nat) (x : vec) : vec := skipn (length x) (repeat 0 n ++ x).
Lemma last_of_app : forall n x b, (length b <= n)%nat -> last_of n (x ++ b) = skipn (length b) (last_of n x) ++ b.
Proof.
  intros n x b Hb. unfold last_of. rewrite app_length, app_assoc, skipn_app, app_length, repeat_length. replace (length x + length b - (n + length x))%nat with 0%nat by lia. cbn [skipn]. f_equal.
  rewrite Nat.add_comm. generalize (repeat 0 n ++ x) (length b) (length x). clear. intros m a c. revert m a. induction c as [|c IH]; intros m a; [now rewrite Nat.add_0_r|]. destruct m as [|v m]; [now rewrite !skipn_nil|]. rewrite Nat.add_succ_r. cbn [skipn]. apply IH.
Qed.
Lemma slice_past : forall T x k, length x = ((T + 1) * h)%nat -> (k < (h + skip - 1) / skip)%nat ->
  slice (h * L + 2 * h - h - 2 * h + k * skip) (2 * h) (last_of (h * L + 2 * h) x) = past_frame h x (T * h + k * skip).
Proof.
  intros T x k Hx Hk. pose proof (steps_lt k Hk) as Hs. assert (h <= h * L)%nat by nia. unfold slice, last_of, past_frame. apply nth_ext with (d := 0) (d' := 0).
  - rewrite firstn_length, !skipn_length, app_length, repeat_length, map_length, seq_length. lia.
  - rewrite firstn_length, !skipn_length, app_length, repeat_length. intros i Hi. assert (Hi2 : (i < 2 * h)%nat) by lia. rewrite nth_map_seq by lia. rewrite nth_firstn by lia. rewrite !nth_skipn. unfold delayed.
    destruct (Nat.lt_ge_cases (T * h + k * skip + i) (2 * h)) as [Hlt|Hge].
    + rewrite (app_nth1 (repeat 0 (2 * h))) by (rewrite repeat_length; lia). rewrite app_nth1 by (rewrite repeat_length; nia). now rewrite !nth_repeat.
    + rewrite (app_nth2 (repeat 0 (2 * h))) by (rewrite repeat_length; lia). rewrite app_nth2 by (rewrite repeat_length; nia). rewrite !repeat_length. f_equal. nia.
Qed.
Lemma past_frame_length : forall x t, length (past_frame h x t) = (2 * h)%nat.
Proof. intros. unfold past_frame. now rewrite map_length, seq_length. Qed.
Lemma is_noise_energy : forall f, length f = (2 * h)%nat -> is_noise thresh f = if Rlt_dec (energy f) thresh then true else false.
Proof.
  intros f Hf. unfold is_noise. destruct (frame_energy f) as [e|] eqn:E; [now destruct (energy_facts _ _ E) as (_ & _ & -> & _)|]. unfold frame_energy in E. destruct (Nat.eqb_spec (length f) 0); [lia|discriminate].
Qed.

Definition ok (x : vec) (T : nat) (s : subspace) : Prop :=
  length x = (T * h)%nat /\ sb_len s = (2 * h)%nat /\ sb_hop s = h /\ sb_nsamples s = (h * L + 2 * h)%nat /\ sb_skip s = skip /\ sb_nframes s = (L * (h / skip))%nat /\ sb_thresh s = thresh /\
  sb_input s = last_of (h * L + 2 * h) x /\
  sb_hist_sn s = window L mzero (map (fun u => psum (block_frames h skip x u)) (seq 0 T)) /\
  (forall p q, INR (sb_nframes s) * sb_cov_sn s p q = Rsum (map (fun M => M p q) (sb_hist_sn s))) /\
  exists E S c, noise_estimates h skip L thresh x T E S c /\ (forall p q, sb_cov_n s p q = E T p q) /\
    sb_hist_n s = window L mzero (map S (seq 0 T)) /\ sb_nnoise s = window L (h / skip)%nat (map c (seq 0 T)) /\
    (forall p q, INR (list_sum (sb_nnoise s)) * sb_cov_n s p q = Rsum (map (fun M => M p q) (sb_hist_n s))).

Lemma INR_list_sum : forall l, INR (list_sum l) = Rsum (map INR l).
Proof. induction l as [|a l IH]; [reflexivity|]. change (list_sum (a :: l)) with (a + list_sum l)%nat. cbn [map]. rewrite plus_INR, IH. reflexivity. Qed.
Lemma update_ok : forall x T s b, ok x T s -> length b = h -> (0 < h / skip)%nat ->
  exists s', update_cov_matrices s b = Some s' /\ ok (x ++ b) (T + 1) s' /\ sb_mu s' = sb_mu s /\ sb_prev s' = sb_prev s /\ sb_prev_out s' = sb_prev_out s /\ sb_out s' = sb_out s /\ sb_win s' = sb_win s.
Proof.
  intros x T s b (Lx & O1 & O2 & O3 & O4 & O5 & O6 & O7 & O8 & O9 & E & S & c & N & ON & OH & OC & OS) Hb Hd.
  pose proof (window_length L mzero (map (fun u => psum (block_frames h skip x u)) (seq 0 T))) as W1. rewrite <- O8 in W1. pose proof (window_length L mzero (map S (seq 0 T))) as W2. rewrite <- OH in W2. pose proof (window_length L (h / skip)%nat (map c (seq 0 T))) as W3. rewrite <- OC in W3.
  unfold update_cov_matrices. destruct (sb_hist_sn s) as [|old_sn hist_sn] eqn:H1; [cbn in W1; lia|]. destruct (sb_hist_n s) as [|old_n hist_n] eqn:H2; [cbn in W2; lia|]. destruct (sb_nnoise s) as [|old_c nnoise] eqn:H3; [cbn in W3; lia|].
  rewrite O1, O2, O3, O4, O5, O6, O7. assert (LX : length (x ++ b) = ((T + 1) * h)%nat) by (rewrite app_length; lia).
  replace (skipn h (last_of (h * L + 2 * h) x) ++ b) with (last_of (h * L + 2 * h) (x ++ b)) by (rewrite last_of_app by nia; now rewrite Hb).
  set (frames := map _ (seq 0 ((h + skip - 1) / skip))). assert (EF : frames = block_frames h skip (x ++ b) T). { unfold frames, block_frames. apply map_ext_in. intros k Hk. apply in_seq in Hk. apply slice_past; [exact LX|lia]. } clearbody frames. subst frames.
  assert (EN : filter (is_noise thresh) (block_frames h skip (x ++ b) T) = noise_frames h skip thresh (x ++ b) T). { unfold noise_frames. apply filter_ext_in. intros f Hf. apply is_noise_energy. unfold block_frames in Hf. apply in_map_iff in Hf. destruct Hf as (k & <- & _). apply past_frame_length. }
  rewrite EN. set (noise := noise_frames h skip thresh (x ++ b) T) in *. fold (psum (block_frames h skip (x ++ b) T)) (psum noise).
  set (nc := if Nat.eqb (length noise) 0 then (sb_cov_n s, 1%nat) else (psum noise, length noise)). destruct nc as [new_n count] eqn:Enc. destruct (Nat.eqb_spec (L * (h / skip)) 0) as [Z|NZ]; [nia|].
  eexists. split; [reflexivity|]. cbn [sb_mu sb_prev sb_prev_out sb_out sb_win]. split; [|repeat split].
  assert (Cp : (1 <= count)%nat). { subst nc. destruct (Nat.eqb_spec (length noise) 0); injection Enc as <- <-; lia. }
  unfold ok. cbn [sb_len sb_hop sb_nsamples sb_skip sb_nframes sb_thresh sb_input sb_hist_sn sb_cov_sn sb_cov_n sb_hist_n sb_nnoise].
  assert (Pf : 0 < INR (L * (h / skip))) by (apply lt_0_INR; lia).
  assert (Bl : map (fun u => psum (block_frames h skip (x ++ b) u)) (seq 0 T) = map (fun u => psum (block_frames h skip x u)) (seq 0 T)). { apply map_ext_in. intros u Hu. apply in_seq in Hu. now rewrite (block_frames_app x b u T) by (auto; lia). }
  split; [exact LX|]. do 7 (split; [first [reflexivity|assumption]|]). split.
  { rewrite Nat.add_1_r, seq_S, map_app. cbn [map Nat.add]. rewrite window_snoc by auto. rewrite Bl, <- O8. reflexivity. }
  split.
  { intros p q. rewrite map_app, Rsum_app. cbn [map Rsum fold_right]. specialize (O9 p q). rewrite O5 in O9. cbn [map Rsum fold_right] in O9. unfold mscal, madd, msub. rewrite O9. unfold Rsum, mat in *. field. lra. }
  set (c' := fun u => if (u <? T)%nat then c u else count). set (S' := fun u => if (u <? T)%nat then S u else new_n).
  set (nn := nnoise ++ [count]). set (En := mscal (/ INR (list_sum nn)) (madd (msub (mscal (INR (list_sum (old_c :: nnoise))) (sb_cov_n s)) old_n) new_n)).
  set (E' := fun t => if (t <=? T)%nat then E t else En). exists E', S', c'.
  assert (M1 : map S' (seq 0 T) = map S (seq 0 T)). { apply map_ext_in. intros u Hu. apply in_seq in Hu. unfold S'. destruct (Nat.ltb_spec u T); [reflexivity|lia]. }
  assert (M2 : map c' (seq 0 T) = map c (seq 0 T)). { apply map_ext_in. intros u Hu. apply in_seq in Hu. unfold c'. destruct (Nat.ltb_spec u T); [reflexivity|lia]. }
  assert (ST : S' T = new_n) by (unfold S'; destruct (Nat.ltb_spec T T); [lia|reflexivity]). assert (CT : c' T = count) by (unfold c'; destruct (Nat.ltb_spec T T); [lia|reflexivity]).
  assert (Hn' : hist_n ++ [new_n] = window L mzero (map S' (seq 0 (T + 1)))). { rewrite Nat.add_1_r, seq_S, map_app. cbn [map Nat.add]. rewrite window_snoc by auto. rewrite M1, ST, <- OH. reflexivity. }
  assert (Hc' : nn = window L (h / skip)%nat (map c' (seq 0 (T + 1)))). { rewrite Nat.add_1_r, seq_S, map_app. cbn [map Nat.add]. rewrite window_snoc by auto. rewrite M2, CT, <- OC. reflexivity. }
  assert (Tp : 0 < INR (list_sum nn)). { apply lt_0_INR. unfold nn. rewrite list_sum_app. cbn. lia. }
  assert (TE : forall p q, INR (list_sum nn) * En p q = Rsum (map (fun M => M p q) (hist_n ++ [new_n]))). { intros p q. unfold En, mscal, madd, msub. rewrite map_app, Rsum_app. cbn [map Rsum fold_right]. specialize (OS p q). cbn [map Rsum fold_right] in OS. rewrite OS. unfold Rsum, mat in *. field. lra. }
  assert (ET : E' (T + 1)%nat = En) by (unfold E'; destruct (Nat.leb_spec (T + 1) T); [lia|reflexivity]).
  split; [|split; [intros p q; now rewrite ET|split; [exact Hn'|split; [exact Hc'|exact TE]]]].
  destruct N as (N1 & N2 & N3). split; [intros p q; unfold E'; cbn [Nat.leb]; apply N1|]. split.
  - intros u Hu. cbv zeta. destruct (Nat.eq_dec u T) as [->|Hne].
    + fold noise. rewrite ST, CT. assert (ETT : E' T = E T) by (unfold E'; destruct (Nat.leb_spec T T); [reflexivity|lia]). rewrite ETT. subst nc. split; intros Hf.
      * rewrite Hf in Enc. cbn [length Nat.eqb] in Enc. injection Enc as <- <-. split; [reflexivity|]. intros p q. apply ON.
      * destruct (Nat.eqb_spec (length noise) 0) as [Hz|]; [apply length_zero_iff_nil in Hz; contradiction|]. injection Enc as <- <-. split; [reflexivity|]. intros p q. apply psum_products.
    + assert (Hu' : (u < T)%nat) by lia. destruct (N2 u Hu') as [A B]. assert (Enf : noise_frames h skip thresh (x ++ b) u = noise_frames h skip thresh x u) by (unfold noise_frames; now rewrite (block_frames_app x b u T)). rewrite Enf. unfold c', S', E'. destruct (Nat.ltb_spec u T); [|lia]. destruct (Nat.leb_spec u T); [|lia]. split; assumption.
  - intros t Ht p q. cbv zeta.
    assert (SumC : bsum L (fun l => if (l <=? t)%nat then INR (c' (t - l)%nat) else INR (h / skip)) = Rsum (map INR (window L (h / skip)%nat (map c' (seq 0 (t + 1)))))) by (symmetry; apply window_sum).
    assert (SumS : bsum L (fun l => if (l <=? t)%nat then S' (t - l)%nat p q else 0) = Rsum (map (fun M => M p q) (window L mzero (map S' (seq 0 (t + 1)))))) by (symmetry; apply (window_sum L mzero S' (fun M => M p q))).
    destruct (Nat.eq_dec t T) as [->|Hne].
    + rewrite SumC, SumS, <- Hc', <- Hn', ET, <- INR_list_sum, <- TE. split; [exact Tp|]. field. lra.
    + assert (Ht' : (t < T)%nat) by lia. specialize (N3 t Ht' p q). cbv zeta in N3. 
      rewrite (bsum_ext L _ (fun l => if (l <=? t)%nat then INR (c (t - l)%nat) else INR (h / skip))). 2: { intros l _. destruct (Nat.leb_spec l t); [|reflexivity]. unfold c'. destruct (Nat.ltb_spec (t - l) T); [reflexivity|lia]. }
      rewrite (bsum_ext L (fun l => if (l <=? t)%nat then S' (t - l)%nat p q else 0) (fun l => if (l <=? t)%nat then S (t - l)%nat p q else 0)). 2: { intros l _. destruct (Nat.leb_spec l t); [|reflexivity]. unfold S'. destruct (Nat.ltb_spec (t - l) T); [reflexivity|lia]. }
      unfold E'. destruct (Nat.leb_spec (t + 1) T); [|lia]. exact N3.
Qed.
End Stream.

(** ** The projection *)
Lemma ss_snoc : forall {A} (P : A -> A -> Prop) l a, StronglySorted P l -> (forall b, In b l -> P b a) -> StronglySorted P (l ++ [a]).
Proof.
  intros A P l a H K. induction H as [|b l H IH F]; [repeat constructor|]. cbn. constructor; [apply IH; intros c Hc; apply K; now right|]. apply Forall_app. split; [exact F|]. constructor; [apply K; now left|constructor].
Qed.
Lemma ss_rev : forall {A} (P : A -> A -> Prop) l, StronglySorted P l -> StronglySorted (fun a b => P b a) (rev l).
Proof. intros A P l H. induction H as [|a l H IH F]; [constructor|]. cbn [rev]. apply ss_snoc; [exact IH|]. intros b Hb. apply in_rev in Hb. rewrite Forall_forall in F. now apply F. Qed.
Lemma ss_map : forall {A B} (f : A -> B) (P : B -> B -> Prop) l, StronglySorted (fun a b => P (f a) (f b)) l -> StronglySorted P (map f l).
Proof. intros A B f P l H. induction H as [|a l H IH F]; [constructor|]. cbn [map]. constructor; [exact IH|]. apply Forall_forall. intros y Hy. apply in_map_iff in Hy. destruct Hy as (b & <- & Hb). rewrite Forall_forall in F. now apply F. Qed.
Definition positive (l : R) : bool := if Rlt_dec 0 l then true else false.
Lemma desc_pos : forall vals, StronglySorted (fun a b => b <= a) vals -> forall a, (a < length vals)%nat -> ((a < length (filter positive vals))%nat <-> 0 < nth a vals 0).
Proof.
  intros vals H. induction H as [|v vals H IH F]; intros a Ha; [cbn in Ha; lia|]. rewrite Forall_forall in F. cbn [filter]. unfold positive at 1. destruct (Rlt_dec 0 v) as [Hv|Hv].
  - destruct a as [|a]; cbn [nth length]; [split; [auto|lia]|]. cbn in Ha. rewrite <- IH by lia. lia.
  - assert (E : filter positive vals = []). { destruct (filter positive vals) as [|z zs] eqn:E; [reflexivity|]. assert (Hin : In z (filter positive vals)) by (rewrite E; now left). apply filter_In in Hin. destruct Hin as [H1 H2]. unfold positive in H2. destruct (Rlt_dec 0 z); [|discriminate]. specialize (F z H1). lra. }
    rewrite E. cbn [length]. split; [lia|]. intros K. exfalso. destruct a as [|a]; cbn [nth] in K; [lra|]. cbn in Ha. assert (Hin : In (nth a vals 0) vals) by (apply nth_In; lia). specialize (F _ Hin). lra.
Qed.
Lemma filter_perm : forall {A} (f : A -> bool) l l', Permutation l l' -> Permutation (filter f l) (filter f l').
Proof.
  intros A f l l' H. induction H as [|a l l' H IH|a b l|l l' l'' H1 IH1 H2 IH2]; cbn [filter]; [constructor|destruct (f a); auto|destruct (f a), (f b); auto; apply perm_swap|etransitivity; eauto].
Qed.
Lemma Rsum_perm : forall l l', Permutation l l' -> Rsum l = Rsum l'.
Proof. intros l l' H. induction H as [|a l l' H IH|a b l|l l' l'' H1 IH1 H2 IH2]; cbn in *; unfold Rsum in *; lra. Qed.
Lemma bsum_order : forall n order f, Permutation order (seq 0 n) -> bsum n (fun k => f (nth k order 0%nat)) = bsum n f.
Proof.
  intros n order f H. pose proof (Permutation_length H) as Lo. rewrite seq_length in Lo. rewrite !bsum_Rsum. rewrite <- (Rsum_perm _ _ (Permutation_map f H)). f_equal. apply nth_ext with (d := 0) (d' := 0); rewrite !map_length, seq_length; [auto|]. intros i Hi. rewrite nth_map_seq by auto. rewrite (nth_indep _ 0 (f 0%nat)) by (rewrite map_length; lia). now rewrite map_nth.
Qed.
Lemma order_lt : forall n order i, Permutation order (seq 0 n) -> (i < n)%nat -> (nth i order 0%nat < n)%nat.
Proof. intros n order i H Hi. pose proof (Permutation_length H) as Lo. rewrite seq_length in Lo. assert (Hin : In (nth i order 0%nat) (seq 0 n)) by (eapply Permutation_in; [exact H|apply nth_In; lia]). apply in_seq in Hin. lia. Qed.
Lemma order_inj : forall n order i j, Permutation order (seq 0 n) -> (i < n)%nat -> (j < n)%nat -> Nat.eqb (nth i order 0%nat) (nth j order 0%nat) = Nat.eqb i j.
Proof.
  intros n order i j H Hi Hj. pose proof (Permutation_length H) as Lo. rewrite seq_length in Lo. assert (ND : NoDup order) by (eapply Permutation_NoDup; [symmetry; exact H|apply seq_NoDup]). destruct (Nat.eqb_spec i j) as [->|Hne]; [apply Nat.eqb_refl|]. apply Nat.eqb_neq. intros E. apply Hne. eapply NoDup_nth; eauto; lia.
Qed.
Lemma order_onto : forall n order j, Permutation order (seq 0 n) -> (j < n)%nat -> exists a, (a < n)%nat /\ nth a order 0%nat = j.
Proof.
  intros n order j H Hj. pose proof (Permutation_length H) as Lo. rewrite seq_length in Lo. assert (Hin : In j order) by (eapply Permutation_in; [symmetry; exact H|apply in_seq; lia]). apply (In_nth _ _ 0%nat) in Hin. destruct Hin as (a & Ha & E). exists a. split; [lia|exact E].
Qed.

Section Projection.
Variable lstsq : nat -> mat -> mat -> mat.
Variable eig : nat -> mat -> option (vec * mat).
Variable argsort : vec -> list nat.
Variable pinv : nat -> mat -> mat.
Hypothesis eig_ok : forall n A l V, eig n A = Some (l, V) -> eigenpairs n A l V.
Hypothesis argsort_ok : sorts argsort.

Lemma projection_spec : forall s H, compute_signal_projection lstsq eig argsort pinv s = Some H ->
  exists l V, eigenpairs (sb_len s) (msub (lstsq (sb_len s) (sb_cov_n s) (sb_cov_sn s)) eye) l V /\
    (inverts (sb_len s) (pinv (sb_len s)) -> regular (sb_len s) V -> forall j k, (j < sb_len s)%nat -> (k < sb_len s)%nat -> bsum (sb_len s) (fun i => H i k * V i j) = subspace_gain (sb_mu s) (nth j l 0) * V k j) /\
    ((forall j, (j < sb_len s)%nat -> nth j l 0 <= 0) -> forall i k, H i k = 0).
Proof.
  intros s H E. unfold compute_signal_projection in E. set (n := sb_len s) in *. destruct (eig n _) as [[l V]|] eqn:Ee; [|discriminate]. cbn [bind fst snd] in E. pose proof (eig_ok _ _ _ _ Ee) as HE. destruct HE as [Ll HE].
  set (order := rev (argsort l)) in *. destruct (argsort_ok l) as [P0 S0]. rewrite Ll in P0. assert (PO : Permutation order (seq 0 n)) by (unfold order; etransitivity; [symmetry; apply Permutation_rev|exact P0]). pose proof (Permutation_length PO) as Lo. rewrite seq_length in Lo.
  set (np := length (filter (fun l => if Rlt_dec 0 l then true else false) l)) in *. destruct (mapM _ (firstn np order)) as [q|] eqn:Eq; [|discriminate]. cbn [bind] in E. injection E as <-. exists l, V. split; [split; assumption|].
  assert (Np : forall a, (a < n)%nat -> ((a < np)%nat <-> 0 < nth (nth a order 0%nat) l 0)).
  { intros a Ha. set (vals := map (fun i => nth i l 0) order). assert (SV : StronglySorted (fun a b => b <= a) vals). { unfold vals. apply ss_map. unfold order. apply (ss_rev (fun a b => nth a l 0 <= nth b l 0)). exact S0. }
    assert (PV : Permutation vals l). { unfold vals. etransitivity; [apply Permutation_map; exact PO|]. replace (map (fun i => nth i l 0) (seq 0 n)) with l; [reflexivity|]. apply nth_ext with (d := 0) (d' := 0); rewrite ?map_length, ?seq_length; [auto|]. intros i Hi. rewrite nth_map_seq by lia. reflexivity. }
    assert (EN : np = length (filter positive vals)). { unfold np. symmetry. apply Permutation_length. apply filter_perm. exact PV. }
    rewrite EN. rewrite desc_pos by (auto; unfold vals; rewrite map_length; lia). unfold vals. rewrite (nth_indep _ 0 ((fun i => nth i l 0) 0%nat)) by (rewrite map_length; lia). now rewrite (map_nth (fun i => nth i l 0)). }
  assert (Lnp : (np <= n)%nat). { unfold np. rewrite <- Ll. clear. induction l as [|a l IH]; cbn [filter length]; [lia|]. destruct (Rlt_dec 0 a); cbn [length]; lia. }
  assert (Lq : length q = np). { rewrite (mapM_length _ _ _ Eq), firstn_length. lia. }
  assert (Q : forall a, (a < n)%nat -> nth a q 0 = subspace_gain (sb_mu s) (nth (nth a order 0%nat) l 0)).
  { intros a Ha. unfold subspace_gain. destruct (Rlt_dec 0 (nth (nth a order 0%nat) l 0)) as [Hp|Hp].
    - apply Np in Hp; [|exact Ha]. apply mapM_inv in Eq. assert (G : forall (l1 : list nat) l2, Forall2 (fun i b => rdiv (nth i l 0) (nth i l 0 + sb_mu s) = Some b) l1 l2 -> forall a, (a < length l1)%nat -> nth a l2 0 = nth (nth a l1 0%nat) l 0 / (nth (nth a l1 0%nat) l 0 + sb_mu s)).
      { clear. intros l1 l2 F. induction F as [|i b l1 l2 H F IH]; intros a Ha; [cbn in Ha; lia|]. destruct a as [|a]; cbn [nth]; [|apply IH; cbn in Ha; lia]. unfold rdiv in H. destruct (Req_EM_T _ 0); [discriminate|]. now injection H as <-. }
      rewrite (G _ _ Eq a) by (rewrite firstn_length; lia). rewrite (nth_firstn 0%nat) by auto. reflexivity.
    - apply nth_overflow. rewrite Lq. destruct (Nat.lt_ge_cases a np) as [K|K]; [apply Np in K; [lra|exact Ha]|exact K]. }
  set (T := fun i j => - V j (nth i order 0%nat)). set (q1 := fun i j => if Nat.eqb i j then nth i q 0 else 0). fold T. 
  assert (X : forall a k, (a < n)%nat -> mmul n q1 T a k = nth a q 0 * T a k). { intros a k Ha. unfold mmul. rewrite (bsum_delta n a); auto; [unfold q1; now rewrite Nat.eqb_refl|]. intros i _ Hi. unfold q1. destruct (Nat.eqb_spec a i); [congruence|ring]. }
  split.
  - intros pinv_ok [W HW] j k Hj Hk. assert (RT : regular n T). { exists (fun i j => - W (nth j order 0%nat) i). intros i i' Hi Hi'. split.
      - unfold T. rewrite (bsum_ext _ _ (fun k => W (nth i' order 0%nat) k * V k (nth i order 0%nat))) by (intros; ring). rewrite (proj2 (HW _ _ (order_lt n order i' PO Hi') (order_lt n order i PO Hi))). rewrite (order_inj n order i' i PO Hi' Hi). rewrite Nat.eqb_sym. reflexivity.
      - unfold T. rewrite (bsum_ext _ _ (fun k => (fun m => V i' m * W m i) (nth k order 0%nat))) by (intros; ring). rewrite (bsum_order n order (fun m => V i' m * W m i) PO). rewrite (proj1 (HW i' i Hi' Hi)). rewrite Nat.eqb_sym. reflexivity. }
    pose proof (pinv_ok T RT) as HP. destruct (order_onto n order j PO Hj) as (a & Ha & Ea).
    transitivity (- bsum n (fun b => bsum n (fun i => T a i * pinv n T i b) * mmul n q1 T b k)).
    + rewrite <- bsum_opp. unfold mmul at 1. rewrite (bsum_ext _ _ (fun i => bsum n (fun b => - (T a i * pinv n T i b * mmul n q1 T b k)))).
      * rewrite bsum_swap. apply bsum_ext. intros b _. rewrite <- bsum_scal_r, <- bsum_opp. apply bsum_ext. intros; ring.
      * intros i _. rewrite <- bsum_scal_r. apply bsum_ext. intros b _. unfold T at 3. rewrite Ea. ring.
    + rewrite (bsum_delta n a); auto. { rewrite (proj1 (HP a a Ha Ha)), Nat.eqb_refl, X by auto. rewrite Q by auto. rewrite Ea. unfold T. rewrite Ea. ring. }
      intros b Hb Hne. rewrite (proj1 (HP a b Ha Hb)). destruct (Nat.eqb_spec a b); [congruence|ring].
  - intros HN i k. unfold mmul at 1. apply bsum_zero_ext. intros b Hb. rewrite X, Q by auto. unfold subspace_gain. specialize (HN _ (order_lt n order b PO Hb)). destruct (Rlt_dec 0 _); [lra|ring].
Qed.
End Projection.
