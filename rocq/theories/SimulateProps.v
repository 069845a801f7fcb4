(** Room.simulate: the microphone signals. *)
From Coq Require Import List ZArith Lia Reals Lra Bool.
From Verif Require Import Base BaseProofs RirModel RirProofs SimulateModel SimulateSpec SimulateProofs.
Import ListNotations.
Local Open Scope R_scope.

(** C29.  If every source has a signal, starting at a non-negative delay, and every pair
    has a response, then simulate succeeds; every microphone signal has the least even
    length that holds longest response + latest end of a source - 1 samples; its sample i
    is the sum over the sources of the convolution of the delayed signal with the response
    of the pair, plus the noise that was asked for; and nothing would be heard past the
    end.  The premix signals are the terms of the sum. *)
Theorem C29_simulate_sums_convolutions : forall gauss rir M fs sources sigma2,
  ready rir M fs sources ->
  exists premix signals hmax emax n,
    simulate gauss rir M fs sources sigma2 Plain = Some (premix, signals, sigma2) /\
    longest_response rir M (length sources) hmax /\ latest_end fs sources emax /\
    least_even_from (hmax + emax - 1) (Z.of_nat n) /\
    length signals = M /\ length premix = length sources /\
    (forall m, (m < M)%nat -> length (nth m signals []) = n /\
       forall i, (i < n)%nat -> sample signals m i =
         total (length sources) (fun s => contribution rir fs sources m s i) +
         match sigma2 with Some v => sqrt v * gauss m i | None => 0 end) /\
    (forall m s, (m < M)%nat -> (s < length sources)%nat -> length (nth m (nth s premix []) []) = n /\
       (forall i, sample (nth s premix []) m i = contribution rir fs sources m s i) /\
       (forall i, (n <= i)%nat -> contribution rir fs sources m s i = 0)).
Proof.
  intros gauss rir M fs sources sigma2 H.
  exists (pm rir M fs sources), (add_noise gauss sigma2 (sum_sources (L rir M fs sources) M (pm rir M fs sources))),
    (Zlist_max (lens rir M sources)), (Zlist_max (ends fs sources)), (L rir M fs sources).
  rewrite (simulate_prefix _ _ _ _ H). split; [reflexivity|]. split; [eapply longest_lens; eauto|]. split; [eapply latest_ends; eauto|].
  split; [apply Ln_least; auto|]. pose proof (r_M _ _ _ _ H) as HM.
  split; [apply (noisy gauss rir M fs sources sigma2 (pm rir M fs sources) 0 HM)|]. split; [apply PM_len|]. split.
  - intros m Hm. destruct (noisy gauss rir M fs sources sigma2 (pm rir M fs sources) m Hm) as (_ & A & B). split; auto.
    intros i Hi. rewrite B by auto. f_equal. rewrite sum_PM; auto; [|apply PM_len]. unfold total. apply Rsum_map_ext.
    intros s Hs. apply in_seq in Hs. apply PM_nth; auto. lia.
  - intros m s Hm Hs. split; [apply PM_row; auto|]. split; intros.
    + apply PM_nth; auto.
    + eapply contribution_end; eauto.
Qed.
Print Assumptions C29_simulate_sums_convolutions.

(** A mixing callback gets exactly the separate contributions, and its result is what the
    microphones record, with no noise added. *)
Theorem C29_callback_sees_contributions : forall gauss rir M fs sources sigma2 f,
  ready rir M fs sources ->
  exists premix, simulate gauss rir M fs sources sigma2 (Callback f) = Some (premix, f premix, None) /\
    length premix = length sources /\
    forall m s i, (m < M)%nat -> (s < length sources)%nat -> sample (nth s premix []) m i = contribution rir fs sources m s i.
Proof.
  intros gauss rir M fs sources sigma2 f H. exists (pm rir M fs sources). rewrite (simulate_prefix _ _ _ _ H).
  split; [reflexivity|]. split; [apply PM_len|]. intros. apply PM_nth; auto.
Qed.
Print Assumptions C29_callback_sees_contributions.

(** C82.  With a requested SNR, every source is scaled by one positive gain (the same at all
    microphones) such that it has unit variance at the reference microphone, and white noise
    of variance sigma^2 is added such that the ratio of the total power of the sources to
    sigma^2 is the requested SNR in dB. *)
Theorem C82_snr_is_honoured : forall gauss rir M fs sources sigma2 snr ref pm0 signals0 z,
  ready rir M fs sources -> (ref < M)%nat ->
  simulate gauss rir M fs sources sigma2 Plain = Some (pm0, signals0, z) ->
  (* no source is constant at the reference microphone *)
  (forall s, (s < length sources)%nat -> let x := nth ref (nth s pm0 []) [] in
     exists i j, (i < length x)%nat /\ (j < length x)%nat /\ nth i x 0 <> nth j x 0) ->
  exists premix signals v gain,
    simulate gauss rir M fs sources sigma2 (Snr snr ref) = Some (premix, signals, Some v) /\
    0 < v /\ db (INR (length sources) / v) = snr /\
    (forall s, (s < length sources)%nat -> 0 < gain s /\ population_variance (nth ref (nth s premix []) []) = 1 /\
       forall m i, (m < M)%nat -> sample (nth s premix []) m i = contribution rir fs sources m s i / gain s) /\
    length signals = M /\
    (forall m i, (m < M)%nat -> (i < length (nth m signals []))%nat -> sample signals m i =
       total (length sources) (fun s => contribution rir fs sources m s i / gain s) + sqrt v * gauss m i) /\
    (forall m, (m < M)%nat -> length (nth m signals []) = length (nth m signals0 [])).
Proof.
  intros gauss rir M fs sources sigma2 snr ref pm0 signals0 z H Href E0 Hc.
  rewrite (simulate_prefix _ _ _ _ H) in E0. injection E0 as <- <- _.
  set (v := Rpower 10 (- snr / 10) * INR (length sources)).
  assert (Hn : 0 < INR (length sources)). { apply lt_0_INR. pose proof (r_ne _ _ _ _ H). destruct sources; [congruence|simpl; lia]. }
  assert (Hv : 0 < v). { unfold v. apply Rmult_lt_0_compat; auto. unfold Rpower. apply exp_pos. }
  set (P := PMn rir M fs sources ref).
  exists P, (add_noise gauss (Some v) (sum_sources (L rir M fs sources) M P)), v, (fun s => nth s (gains rir M fs sources ref) 0).
  pose proof (r_M _ _ _ _ H) as HM.
  split. { rewrite (simulate_prefix _ _ _ _ H). rewrite denom_eq by auto. cbn [bind]. rewrite PMn_eq. reflexivity. }
  split; auto. split; [apply db_sigma; auto|]. split; [|split; [|split]].
  - intros s Hs. assert (G : nth s (gains rir M fs sources ref) 0 = std (nth ref (nth s (pm rir M fs sources) []) [])).
    { unfold gains. now rewrite nth_map_seq. }
    specialize (Hc s Hs). cbv zeta in Hc. destruct Hc as (i & j & Hi & Hj & N).
    pose proof (std_nonconstant _ i j Hi Hj N) as Hg. split; [rewrite G; auto|]. split.
    + unfold P. rewrite PMn_row by auto. rewrite G, <- variance_population. apply variance_normalised. lra.
    + intros m i' Hm. apply PMn_nth; auto.
  - apply (noisy gauss rir M fs sources (Some v) P 0 HM).
  - intros m i Hm Hi. destruct (noisy gauss rir M fs sources (Some v) P m Hm) as (_ & A & B). rewrite A in Hi.
    rewrite B by auto. f_equal. rewrite sum_PM; auto; [|apply PMn_len]. unfold total. apply Rsum_map_ext.
    intros s Hs. apply in_seq in Hs. apply PMn_nth; auto. lia.
  - intros m Hm. destruct (noisy gauss rir M fs sources (Some v) P m Hm) as (_ & A & _).
    destruct (noisy gauss rir M fs sources sigma2 (pm rir M fs sources) m Hm) as (_ & B & _). congruence.
Qed.
Print Assumptions C82_snr_is_honoured.

(** ** Concrete cases *)
Definition ex_s1 : source := {| so_signal := Some [1; 2]; so_delay := 0 |}.
Definition ex_s2 : source := {| so_signal := Some [5]; so_delay := 1 |}.
Definition ex_rir : list (list (list R)) := [[[1; 0; 3]; [2]]].

Example ex_ready : ready ex_rir 1 1 [ex_s1; ex_s2].
Proof.
  unfold ready. split; [discriminate|]. split; [lia|]. split; [lra|]. split; [reflexivity|]. split.
  - intros row [<-|[]]. split; [reflexivity|]. intros h [<-|[<-|[]]]; discriminate.
  - intros s [<-|[<-|[]]]; (split; [discriminate|simpl; lra]).
Qed.
(** Sample 1 is 2 (first source) + 10 (second source, one sample late). *)
Example ex_sample : total 2 (fun s => contribution ex_rir 1 [ex_s1; ex_s2] 0 s 1) = 12.
Proof.
  unfold total, contribution, heard, response, ex_rir. cbn [seq map nth length].
  cbn [ex_s1 ex_s2 so_delay signal_of so_signal].
  rewrite (Zfloor_unique (0 * 1) 0) by lra. rewrite (Zfloor_unique (1 * 1) 1) by (simpl; lra).
  unfold at_time, Rsum. cbn -[IZR Z.to_nat]. repeat change (Z.to_nat 1) with 1%nat. repeat change (Z.to_nat 0) with 0%nat. cbn -[IZR]. lra.
Qed.
(** The reference microphone hears both sources vary, so the SNR theorem applies. *)
Example ex_snr : forall gauss, exists pm0 s0 z, simulate gauss ex_rir 1 1 [ex_s1; ex_s2] None Plain = Some (pm0, s0, z) /\
  forall s, (s < 2)%nat -> let x := nth 0 (nth s pm0 []) [] in
     exists i j, (i < length x)%nat /\ (j < length x)%nat /\ nth i x 0 <> nth j x 0.
Proof.
  intros gauss. destruct (C29_simulate_sums_convolutions gauss ex_rir 1 1 [ex_s1; ex_s2] None ex_ready)
    as (pm0 & sg & hm & em & n & E & (_ & Hh) & (_ & He) & (_ & Hn & _) & _ & _ & _ & Hp).
  exists pm0, sg, None. split; auto.
  assert (H3 : (3 <= hm)%Z). { apply Hh. exists 0%nat, 0%nat. repeat split; simpl; lia. }
  assert (H2 : (2 <= em)%Z).
  { apply He. exists ex_s1. split; [left; auto|]. cbn [ex_s1 so_delay signal_of so_signal length]. rewrite (Zfloor_unique (0 * 1) 0) by lra. reflexivity. }
  intros s Hs x. destruct (Hp 0%nat s ltac:(lia) Hs) as (A & B & _). exists 0%nat, 1%nat. unfold x. rewrite A. repeat split; try lia.
  pose proof (B 0%nat) as B0. pose proof (B 1%nat) as B1. unfold sample in B0, B1. rewrite B0, B1.
  unfold contribution, heard, response, ex_rir.
  destruct s as [|[|s]]; [| |lia]; cbn [nth map seq length ex_s1 ex_s2 so_delay signal_of so_signal].
  - rewrite (Zfloor_unique (0 * 1) 0) by lra. unfold at_time, Rsum. cbn -[IZR Z.to_nat]. repeat change (Z.to_nat 1) with 1%nat. repeat change (Z.to_nat 0) with 0%nat. cbn -[IZR]. lra.
  - rewrite (Zfloor_unique (1 * 1) 1) by (simpl; lra). unfold at_time, Rsum. cbn -[IZR Z.to_nat]. repeat change (Z.to_nat 1) with 1%nat. repeat change (Z.to_nat 0) with 0%nat. cbn -[IZR]. lra.
Qed.

(** ** What the hypotheses exclude *)

(** The loop has a branch that skips sources without a signal (room.py:2447-2448), but the
    sizing code before it (room.py:2434-2437) raises first. *)
Theorem C29_source_without_signal_refuted : exists gauss rir M fs s1 s2,
  (* everything [ready] asks for, except that the second source has no signal *)
  ready rir M fs [s1; s1] /\ so_signal s2 = None /\ so_delay s2 = 0 /\
  simulate gauss rir M fs [s1; s2] None Plain = None.
Proof.
  exists (fun _ _ => 0), [[[1]; [1]]], 1%nat, 1, ex_s1, {| so_signal := None; so_delay := 0 |}.
  split; [|repeat split; reflexivity]. unfold ready. split; [discriminate|]. split; [lia|]. split; [lra|]. split; [reflexivity|]. split.
  - intros row [<-|[]]. split; [reflexivity|]. intros h [<-|[<-|[]]]; discriminate.
  - intros s [<-|[<-|[]]]; (split; [discriminate|simpl; lra]).
Qed.
Print Assumptions C29_source_without_signal_refuted.

(** A negative delay is not rejected: the slice wraps around, and the samples that lie before
    time zero show up later in the recording. *)
Definition ex_neg : source := {| so_signal := Some [1; 1]; so_delay := -3 |}.
Definition ex_pos : source := {| so_signal := Some [0; 0; 0; 0]; so_delay := 0 |}.
Theorem C29_negative_delay_refuted : exists gauss rir M fs sources pm signals z,
  simulate gauss rir M fs sources None Plain = Some (pm, signals, z) /\
  exists i, (i < length (nth 0 signals []))%nat /\
    sample signals 0 i <> total (length sources) (fun s => contribution rir fs sources 0 s i).
Proof.
  exists (fun _ _ => 0), [[[1]; [1]]], 1%nat, 1, [ex_pos; ex_neg].
  unfold simulate. cbn [length Nat.eqb]. 
  assert (F0 : Zfloor (so_delay ex_pos * 1) = 0%Z) by (apply Zfloor_unique; simpl; lra).
  assert (F1 : Zfloor (so_delay ex_neg * 1) = (-3)%Z) by (apply Zfloor_unique; simpl; lra).
  assert (B : buffer_length [[[1]; [1]]] 1 1 [ex_pos; ex_neg] = Some 4%Z).
  { unfold buffer_length, signal_end. cbn [mapM bind ex_pos ex_neg so_signal]. fold ex_pos ex_neg. rewrite F0, F1. reflexivity. }
  rewrite B. cbn [bind]. change (pos 4) with (Some 4%nat). cbn [bind].
  assert (P : exists p0 p1, premix [[[1]; [1]]] 1 1 [ex_pos; ex_neg] 4 = Some [[p0]; [p1]] /\ nth 1 p0 0 = 0 /\ nth 1 p1 0 = 1).
  { unfold premix. cbn [length seq mapM nth_error bind]. unfold premix_one. rewrite F0, F1. cbn. do 2 eexists. split; [reflexivity|]. split; simpl; lra. }
  destruct P as (p0 & p1 & -> & E0 & E1). cbn [bind]. do 3 eexists. split; [reflexivity|]. exists 1%nat. split; [cbn; lia|].
  unfold sample, add_noise, sum_sources. cbn [seq map nth]. unfold Rsum. cbn [fold_right]. rewrite E0, E1.
  unfold total, contribution, heard. cbn [seq map nth length response]. rewrite F0, F1. unfold Rsum. unfold at_time, response. simpl. lra.
Qed.
Print Assumptions C29_negative_delay_refuted.
