(** Impulse responses from arrivals: properties C24, C25, C27, C28, C81. *)
From Coq Require Import List ZArith Lia Reals Lra Bool.
From Verif Require Import Base BaseProofs Vec WallModel ParModel RirModel RirSpec RirProofs.
Import ListNotations.
Local Open Scope R_scope.

(** C24.  When the inputs are accepted, every read of the lookup table, the window and
    the input arrays succeeds ([build_tasks] is [Some]), and no access of any task to the
    per-thread buffers or to the result is out of bounds, under any schedule. *)
Theorem C24_rir_builder_in_bounds : forall rir time alpha fs fdl gran threads,
  (0 < gran)%nat -> (0 < threads)%nat -> (0 <= fs)%Z ->
  rir_accepts (length rir) time alpha fs fdl = true ->
  exists ps, build_tasks (length rir) time alpha fs fdl gran threads = Some ps /\
    never_out_of_bounds (repeat 0 (threads * length rir)) ps /\
    (exists out, executes (repeat 0 (threads * length rir)) ps out) /\
    forall out, executes (repeat 0 (threads * length rir)) ps out ->
      exists qs, sum_tasks threads (length rir) out = Some qs /\ never_out_of_bounds rir qs.
Proof.
  intros rir time alpha fs fdl gran threads Hg HT Hfs Hacc.
  destruct (build_all rir time alpha fs fdl gran threads Hg HT Hfs Hacc) as (ps & A & B & C & D).
  exists ps. split; [exact A|]. split; [exact B|]. split; [exact C|].
  intros out Ho. destruct (D out Ho) as (qs & Q & N & _). eauto.
Qed.
Print Assumptions C24_rir_builder_in_bounds.

(** A room impulse response with arrivals at samples 1.5 and 2.25 (fs = 1, fdl = 3). *)
Example C24_ex : rir_accepts 6 [3/2; 9/4] [1; 1/2] 1 3 = true.
Proof.
  unfold rir_accepts, list_max, list_min. simpl.
  replace (Rmax (3/2) (9/4)) with (9/4) by (unfold Rmax; destruct (Rle_dec (3/2) (9/4)); lra).
  replace (Rmin (3/2) (9/4)) with (3/2) by (unfold Rmin; destruct (Rle_dec (3/2) (9/4)); lra).
  rewrite (Zceil_unique _ 3) by lra. rewrite (Zfloor_unique _ 1) by lra. reflexivity.
Qed.

(** C25.  Whatever the number of threads and whatever the interleaving of the workers'
    loads and stores, the result is the initial content plus one pulse per arrival; and
    some execution does finish. *)
Theorem C25_rir_builder_thread_independent : forall rir time alpha fs fdl gran threads,
  (0 < gran)%nat -> (0 < threads)%nat -> (0 <= fs)%Z ->
  rir_accepts (length rir) time alpha fs fdl = true ->
  (exists result, rir_builder rir time alpha fs fdl gran threads result) /\
  forall result, rir_builder rir time alpha fs fdl gran threads result ->
    length result = length rir /\
    forall i, (i < length rir)%nat -> nth i result 0 = nth i rir 0 + arrivals_sum fs fdl gran time alpha i.
Proof.
  intros rir time alpha fs fdl gran threads Hg HT Hfs Hacc.
  destruct (build_all rir time alpha fs fdl gran threads Hg HT Hfs Hacc) as (ps & A & _ & (out & C) & D). split.
  - destruct (D out C) as (qs & Q & _ & (r & E) & _). exists r. split; auto. exists ps, out, qs. auto.
  - intros result (_ & ps' & out' & qs' & A' & C' & Q' & E'). rewrite A in A'. injection A' as <-.
    destruct (D out' C') as (qs & Q & _ & _ & F). rewrite Q' in Q. injection Q as <-. now apply F.
Qed.
Print Assumptions C25_rir_builder_thread_independent.

Theorem C25_any_two_executions_agree : forall rir time alpha fs fdl gran threads1 threads2 r1 r2,
  (0 < gran)%nat -> (0 < threads1)%nat -> (0 < threads2)%nat -> (0 <= fs)%Z ->
  rir_builder rir time alpha fs fdl gran threads1 r1 -> rir_builder rir time alpha fs fdl gran threads2 r2 -> r1 = r2.
Proof.
  intros rir time alpha fs fdl gran T1 T2 r1 r2 Hg H1 H2 Hfs R1 R2. pose proof (proj1 R1) as Hacc.
  destruct (C25_rir_builder_thread_independent rir time alpha fs fdl gran T1 Hg H1 Hfs Hacc) as [_ A].
  destruct (C25_rir_builder_thread_independent rir time alpha fs fdl gran T2 Hg H2 Hfs Hacc) as [_ B].
  destruct (A r1 R1) as [L1 V1], (B r2 R2) as [L2 V2]. apply nth_ext with (d := 0) (d' := 0); [congruence|].
  intros i Hi. rewrite V1, V2 by lia. reflexivity.
Qed.
Print Assumptions C25_any_two_executions_agree.

Example C25_ex : exists r, rir_builder (repeat 0 6) [3/2; 9/4] [1; 1/2] 1 3 20 4 r.
Proof. apply C25_rir_builder_thread_independent; try lia. rewrite repeat_length. apply C24_ex. Qed.

(** C27.  delay_sum: in bounds and equal to the overlap-add, for any number of threads
    and any schedule. *)
Theorem C27_delay_sum_is_overlap_add : forall irs n_taps delays output threads,
  (0 < threads)%nat -> (forall row, In row irs -> length row = n_taps) ->
  ds_accepts irs n_taps delays (length output) = true ->
  (exists ps, ds_tasks irs n_taps delays (length output) threads = Some ps /\
     never_out_of_bounds (repeat 0 (threads * length output)) ps /\
     forall out, executes (repeat 0 (threads * length output)) ps out ->
       exists qs, sum_tasks threads (length output) out = Some qs /\ never_out_of_bounds output qs) /\
  (exists result, delay_sum irs n_taps delays output threads result) /\
  forall result, delay_sum irs n_taps delays output threads result ->
    length result = length output /\
    forall i, (i < length output)%nat -> nth i result 0 = nth i output 0 + delayed_sum irs n_taps delays i.
Proof.
  intros irs n_taps delays output threads HT Hr Hacc.
  destruct (ds_all irs n_taps delays output threads HT Hr Hacc) as (ps & A & B & (out & C) & D). split; [|split].
  - exists ps. split; [exact A|]. split; [exact B|]. intros o Ho. destruct (D o Ho) as (qs & Q & N & _). eauto.
  - destruct (D out C) as (qs & Q & _ & (r & E) & _). exists r. split; auto. exists ps, out, qs. auto.
  - intros result (_ & ps' & out' & qs' & A' & C' & Q' & E'). rewrite A in A'. injection A' as <-.
    destruct (D out' C') as (qs & Q & _ & _ & F). rewrite Q' in Q. injection Q as <-. now apply F.
Qed.
Print Assumptions C27_delay_sum_is_overlap_add.

Example C27_ex : ds_accepts [[1; 2]; [3; 4]] 2 [1; 2]%Z 5 = true /\ delayed_sum [[1; 2]; [3; 4]] 2 [1; 2]%Z 2 = 5.
Proof. split; [reflexivity|]. unfold delayed_sum. simpl. lra. Qed.

(** C28.  The times and the length computed by the image source stage are always accepted
    by the builder, and every pulse lies inside the response. *)
Theorem C28_ism_sizes_are_accepted : forall dist alpha c fs fdl,
  dist <> [] -> (forall d, In d dist -> 0 <= d) -> 0 < c -> (0 < fs)%Z -> (fdl mod 2 = 1)%nat -> length alpha = length dist ->
  let time := ism_times dist c (IZR fs) fdl in
  let N := ism_length time (IZR fs) fdl in
  rir_accepts (Z.to_nat N) time alpha fs fdl = true /\
  forall gran t i, In t time -> pulse fdl gran (IZR fs * t) i <> 0 -> (0 <= i < N)%Z.
Proof.
  intros dist alpha c fs fdl Hne Hd Hc Hfs Ho La time N.
  assert (Hacc : rir_accepts (Z.to_nat N) time alpha fs fdl = true) by (apply sized_accepts; auto).
  split; [exact Hacc|]. intros gran t i Ht Hp.
  apply In_nth with (d := 0) in Ht as (j & Hj & <-).
  pose proof (arrival_range (repeat 0 (Z.to_nat N)) time alpha fs fdl 1 1 ltac:(lia) ltac:(lia)) as AR.
  rewrite repeat_length in AR. specialize (AR ltac:(lia) Hacc j Hj). destruct AR as [A B].
  assert (HN : (0 <= N)%Z) by (apply size_nonneg; auto). rewrite Z2Nat.id in B by exact HN.
  pose proof (odd_halves fdl Ho) as [_ Hh].
  unfold pulse in Hp. cbv zeta in Hp.
  destruct (Z.leb_spec 0 (i - Zfloor (IZR fs * nth j time 0) + Z.of_nat ((fdl - 1) / 2))); [|simpl in Hp; lra].
  destruct (Z.ltb_spec (i - Zfloor (IZR fs * nth j time 0) + Z.of_nat ((fdl - 1) / 2)) (Z.of_nat fdl)); [|simpl in Hp; lra].
  lia.
Qed.
Print Assumptions C28_ism_sizes_are_accepted.

Example C28_ex : exists dist, dist <> [] /\ (forall d, In d dist -> 0 <= d) /\ (81 mod 2 = 1)%nat /\ length dist = 3%nat.
Proof. exists [0; 1; 34]. repeat split; simpl; auto; try discriminate. intros d [<-|[<-|[<-|[]]]]; lra. Qed.

(** C28, whole stage.  compute_ism_rir (no directivity) does not fail, and its result is
    the sum over bands of the filtered sums of one attenuated pulse per visible image. *)
Theorem C28_ism_response : forall filt images damping visible mic air c fs fdl gran threads,
  length visible = length images ->
  (forall att, In att damping -> length att = length images) -> damping <> [] ->
  match air with Some a => a <> [] | None => True end -> bands_compatible damping air ->
  (forall b x, length (filt b x) = length x) ->
  (0 < gran)%nat -> (0 < threads)%nat -> (0 < fs)%Z -> (fdl mod 2 = 1)%nat -> 0 < c ->
  (exists j, (j < length images)%nat /\ nth j visible false = true) ->
  (exists result, compute_ism_rir filt images damping visible mic air c fs fdl gran threads result) /\
  exists N,
  (forall j i, (j < length images)%nat -> nth j visible false = true ->
     pulse fdl gran (IZR fs * vdist (nth j images []) mic / c + INR ((fdl - 1) / 2)) i <> 0 -> (0 <= i < Z.of_nat N)%Z) /\
  forall result, compute_ism_rir filt images damping visible mic air c fs fdl gran threads result ->
    length result = N /\
    forall i, (i < N)%nat ->
      let bands := n_bands_of damping air in
      let band b := map (ism_band images damping visible mic air c fs fdl gran b) (seq 0 N) in
      nth i result 0 = Rsum (map (fun b => nth i (if (1 <? bands)%nat then filt b (band b) else band b) 0) (seq 0 bands)).
Proof.
  intros filt images damping visible mic air c fs fdl gran T H1 H2 H3 H4 H5 H6 H7 H8 H9 H10 H11 H12.
  destruct (ism_rir_all images damping visible mic air c fs fdl gran H1 H2 H3 H4 H5 filt T H6 H7 H8 H9 H10 H11 H12) as [A B].
  split; [exact A|]. eexists. split; [|exact B].
  intros j i Hj Vj Hp. set (dist := map (fun im => vdist im mic) (select visible images)) in *.
  assert (Hin : In (vdist (nth j images []) mic) dist).
  { unfold dist. rewrite (dist_J images visible mic H1). apply in_map_iff. exists j. split; auto.
    apply filter_In. split; [apply in_seq; lia|auto]. }
  assert (Dne : dist <> []) by (intros E; rewrite E in Hin; destruct Hin).
  assert (Dpos : forall d, In d dist -> 0 <= d) by (intros d H; unfold dist in H; apply in_map_iff in H as (? & <- & _); apply vdist_nonneg).
  destruct (C28_ism_sizes_are_accepted dist dist c fs fdl Dne Dpos H11 H9 H10 eq_refl) as [_ P].
  specialize (P gran (vdist (nth j images []) mic / c + INR (fdl / 2) / IZR fs) i).
  rewrite Z2Nat.id by (apply size_nonneg; auto). apply P.
  - unfold ism_times. apply in_map_iff. eauto.
  - rewrite (time_tau c fs fdl) by auto. exact Hp.
Qed.
Print Assumptions C28_ism_response.

(** Two images, one hidden, one band, no air absorption. *)
Example C28_response_ex : exists (images damping : list (list R)) visible,
  length visible = length images /\ (forall att, In att damping -> length att = length images) /\ damping <> [] /\
  bands_compatible damping (Some [1/100; 2/100]) /\ n_bands_of damping (Some [1/100; 2/100]) = 2%nat /\
  exists j, (j < length images)%nat /\ nth j visible false = true.
Proof.
  exists [[0;0;1]; [1;2;3]], [[1; 1/2]], [false; true]. repeat split; try discriminate.
  - intros att [<-|[]]; reflexivity.
  - simpl. auto.
  - exists 1%nat. simpl. auto.
Qed.

(** C81.  fractional_delay on fractions in [0,1]: reads and writes in bounds, every row
    receives the windowed sinc delayed by its fraction, the last column of an even number
    of columns is left alone; for any number of threads and any schedule. *)
Theorem C81_fractional_delay_rows : forall time cols gran threads out,
  (0 < gran)%nat -> (0 < threads)%nat -> (0 < cols)%nat -> length out = (length time * cols)%nat ->
  (forall t, In t time -> 0 <= t <= 1) ->
  (exists ps, mapM (fd_task time cols gran threads) (seq 0 threads) = Some ps /\ never_out_of_bounds out ps) /\
  (exists result, fractional_delay time cols gran threads out result) /\
  forall result, fractional_delay time cols gran threads out result -> length result = length out /\
    forall idx k, (idx < length time)%nat -> (k < cols)%nat ->
      let taps := (if Nat.even cols then cols - 1 else cols)%nat in
      nth (idx * cols + k) result 0 = if (k <? taps)%nat then fd_tap taps gran (nth idx time 0) k else nth (idx * cols + k) out 0.
Proof.
  intros time cols gran T out Hg HT Hc Ho Ht.
  destruct (fd_all time cols gran T out Hg HT Hc Ho Ht) as (ps & A & B & (r & C) & D). split; [eauto|]. split.
  - exists r. split; auto. exists ps. auto.
  - intros result (_ & ps' & A' & C'). rewrite A in A'. injection A' as <-. destruct (D result C') as [L V]. split; [exact L|].
    intros idx k Hi Hk taps. replace taps with (fd_odd cols); [now apply V|].
    unfold taps, fd_odd. destruct (Nat.even cols) eqn:E.
    + apply Nat.even_spec in E as (m & ->). rewrite Nat.mul_comm, Nat.mod_mul by lia. reflexivity.
    + destruct (Nat.eqb_spec (cols mod 2) 0) as [Z|]; auto. exfalso.
      assert (Nat.even cols = true); [|congruence]. apply Nat.even_spec. exists (cols / 2)%nat.
      pose proof (Nat.div_mod cols 2 ltac:(lia)). lia.
Qed.
Print Assumptions C81_fractional_delay_rows.

Example C81_ex : exists r, fractional_delay [0; 1/3; 1] 4 20 3 (repeat 7 12) r.
Proof.
  apply C81_fractional_delay_rows; try lia; [reflexivity|].
  intros t [<-|[<-|[<-|[]]]]; lra.
Qed.

(** The fractions are not checked: a delay of 5 samples reads outside the lookup table. *)
Theorem C81_unchecked_delay_refuted : exists time cols gran threads,
  (0 < gran)%nat /\ (0 < threads)%nat /\ (0 < cols)%nat /\ length time = 1%nat /\
  mapM (fd_task time cols gran threads) (seq 0 threads) = None.
Proof.
  exists [5], 1%nat, 1%nat, 1%nat. repeat split; auto. simpl. unfold fd_task. simpl. unfold fd_row. simpl.
  rewrite (Zfloor_unique _ (-4)) by lra. reflexivity.
Qed.
Print Assumptions C81_unchecked_delay_refuted.
