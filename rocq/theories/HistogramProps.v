(** Properties C20 and C21: energy histograms. *)
From Coq Require Import List ZArith Lia Reals Lra Bool.
From Verif Require Import Base BaseProofs Vec HistogramModel HistogramSpec HistogramProofs.
Import ListNotations.
Local Open Scope R_scope.

(** C21.  From a positive size the loop ends (enough iterations exist, more change
    nothing), the result is the size doubled some times, exceeds the index and is at most
    twice the index unless no growth was needed. *)
Theorem C21_growth_terminates_and_covers : forall val cur, (0 < cur)%nat ->
  exists m, (forall fuel, (val < fuel)%nat -> get_new_size fuel val cur = Some m) /\
    (val < m)%nat /\ (exists k, m = (cur * 2 ^ k)%nat) /\ ((val < cur)%nat -> m = cur) /\ (m = cur \/ (m <= 2 * val)%nat).
Proof.
  intros val cur Hc. destruct (gns_enough (S val) val cur) as (m & E); try lia.
  exists m. destruct (gns_some _ _ _ _ E) as (A & B & C).
  split; [intros fuel Hf; apply (gns_mono (S val)); auto; lia|]. split; auto. split; auto. split; auto.
  intros L. rewrite (gns_idle val val cur L) in E. congruence.
Qed.
Print Assumptions C21_growth_terminates_and_covers.
Example C21_ex : get_new_size 8 7 3 = Some 12%nat. Proof. reflexivity. Qed.

(** From size zero no number of iterations is enough. *)
Theorem C21_zero_size_diverges : forall fuel val, get_new_size fuel val 0 = None.
Proof. exact gns_zero. Qed.
Print Assumptions C21_zero_size_diverges.

(** C20.  Whatever the calls, the growth and the contents of fresh memory: a cell is the
    sum of what was logged to it since the last reset, its counter their number, and
    nothing was logged to cells the table does not have. *)
Theorem C20_histogram_is_the_log : forall gs g0 rows cols ops h,
  run gs 0 (init g0 rows cols) ops = Some h ->
  m_rows (hs_counts h) = m_rows (hs_array h) /\ m_cols (hs_counts h) = m_cols (hs_array h) /\
  forall i j,
    ((i < m_rows (hs_array h))%nat /\ (j < m_cols (hs_array h))%nat ->
       m_at (hs_array h) i j = Rsum (logged i j ops []) /\
       m_at (hs_counts h) i j = Z.of_nat (length (logged i j ops [])) /\
       bin h i j = match logged i j ops [] with
                   | [] => 0 | l => Rsum l / INR (length l) end) /\
    (~ ((i < m_rows (hs_array h))%nat /\ (j < m_cols (hs_array h))%nat) -> logged i j ops [] = []).
Proof.
  intros gs g0 rows cols ops h H.
  destruct (represents_run _ _ _ _ _ _ (represents_init g0 rows cols) H) as ((S1 & S2) & V & O).
  split; auto. split; auto. intros i j. split; [|apply O].
  intros B. destruct (V i j B) as [V1 V2]. split; auto. split; auto.
  unfold bin. rewrite V2, V1. destruct (logged i j ops []) as [|x l]; [reflexivity|].
  replace (Z.of_nat (length (x :: l)) =? 0)%Z with false by (symmetry; apply Z.eqb_neq; simpl; lia).
  simpl negb. cbv iota. now rewrite INR_IZR_INZ.
Qed.
Print Assumptions C20_histogram_is_the_log.

(** The calls made by the library (column logs of the right height) and cell logs never
    fail on a non-empty table. *)
Theorem C20_logging_succeeds : forall gs k h ops,
  (0 < m_rows (hs_array h))%nat -> (0 < m_cols (hs_array h))%nat ->
  (Forall (fun o => exists c vs, o = LogCol c vs /\ length vs = m_rows (hs_array h)) ops \/
   Forall (fun o => (exists r c v, o = LogCell r c v) \/ o = Reset) ops) ->
  exists h', run gs k h ops = Some h'.
Proof.
  intros gs k h ops Hr Hc [F|F].
  - revert k h Hr Hc F. induction ops as [|o ops IH]; intros k h Hr Hc F; simpl; eauto.
    inversion F as [|? ? (c & vs & -> & Lv) F']; subst. simpl.
    destruct (log_col_some (gs k) h c vs Hc Lv) as (h1 & E & C1 & W1). rewrite E. cbn [bind].
    apply IH; [lia|auto|]. rewrite W1. auto.
  - revert k h Hr Hc F. induction ops as [|o ops IH]; intros k h Hr Hc F; simpl; eauto.
    inversion F as [|? ? [(r & c & v & ->)| ->] F']; subst; simpl.
    + destruct (log_some (gs k) h r c v Hr Hc) as (h1 & E & A & B). rewrite E. cbn [bind]. apply IH; auto.
    + apply IH; simpl; auto.
Qed.
Print Assumptions C20_logging_succeeds.

(** A row with one value per column is rejected by Eigen as soon as there are two
    columns. *)
Theorem C20_row_log_refuted : forall gs g0, exists rows cols vs,
  length vs = cols /\ (0 < rows)%nat /\ run gs 0 (init g0 rows cols) [LogRow 0 vs] = None.
Proof. intros. exists 2%nat, 2%nat, [1; 2]. repeat split; simpl; auto; lia. Qed.
Print Assumptions C20_row_log_refuted.

Example C20_ex : forall gs g0, exists h,
  run gs 0 (init g0 2 1) [LogCol 0 [1; 2]; LogCell 1 5 3; LogCol 5 [4; 4]; LogCell 3 0 7] = Some h /\
  m_at (hs_array h) 1 5 = 7 /\ m_cols (hs_array h) = 8%nat.
Proof.
  intros. eexists. split; [reflexivity|]. split; [|reflexivity]. simpl. lra.
Qed.

(** C20, microphones.  After a reset and any list of arrivals the cell of direction d,
    band b, bin k holds the energy of exactly the arrivals in that sector whose distance
    is in [k res, (k+1) res). *)
Theorem C20_microphone_collects_arrivals : forall gs g query m bands es,
  0 < mi_res m -> (0 < mi_init m)%nat ->
  let m0 := mic_reset g m bands in
  (forall d e o, In (d, e, o) es -> 0 <= d /\ length e = bands /\ (get_dir_bin query m0 o < mi_dirs m)%nat) ->
  exists m', log_all gs 0 query m0 es = Some m' /\ length (mi_hists m') = mi_dirs m /\
    forall d b k h, nth_error (mi_hists m') d = Some h -> (b < bands)%nat ->
      let l := arrivals (get_dir_bin query m0) (mi_res m) d b k es in
      ((k < m_cols (hs_array h))%nat -> m_at (hs_array h) b k = Rsum l /\ m_at (hs_counts h) b k = Z.of_nat (length l)) /\
      ((m_cols (hs_array h) <= k)%nat -> l = []).
Proof. intros gs g query m bands es H1 H2 m0 H3. now apply log_all_cells. Qed.
Print Assumptions C20_microphone_collects_arrivals.

Example C20_mic_ex : forall g, let m := make_mic g [0;0;0] 1 2 10 in
  (0 < mi_init m)%nat /\ 0 < mi_res m /\ length (mi_hists m) = 1%nat /\
  arrivals (get_dir_bin (fun _ => 0%nat) m) (mi_res m) 0 0 1 [(3, [5], [3;0;0]); (5, [7], [5;0;0])] = [5].
Proof.
  intros g. cbv zeta. split; [simpl; lia|]. split; [simpl; lra|]. split; [reflexivity|].
  unfold arrivals. simpl. unfold get_dir_bin. simpl.
  repeat (destruct (Rle_dec _ _); try lra; simpl); repeat (destruct (Rlt_dec _ _); try lra; simpl); auto.
Qed.
