(** Proofs about [HistogramModel]. *)
From Coq Require Import List ZArith Lia Reals Lra Bool.
From Verif Require Import Base BaseProofs Vec HistogramModel HistogramSpec.
Import ListNotations.
Local Open Scope R_scope.

(** ** get_new_size *)
Lemma gns_some : forall fuel val n m, get_new_size fuel val n = Some m ->
  (val < m)%nat /\ (exists k, m = (n * 2 ^ k)%nat) /\ (m = n \/ (m <= 2 * val)%nat).
Proof.
  induction fuel as [|f IH]; intros val n m H; simpl in H; [discriminate|].
  destruct (Nat.leb_spec n val) as [L|L].
  - destruct (IH _ _ _ H) as (A & (k & B) & C). split; auto. split.
    + exists (S k). rewrite B. simpl. lia.
    + right. destruct C as [->|C]; [lia|lia].
  - injection H as <-. split; auto. split; [exists 0%nat; simpl; lia|auto].
Qed.

Lemma gns_mono : forall f1 f2 val n m, (f1 <= f2)%nat -> get_new_size f1 val n = Some m -> get_new_size f2 val n = Some m.
Proof.
  induction f1 as [|f1 IH]; intros [|f2] val n m L H; simpl in *; try discriminate; try lia.
  destruct (Nat.leb n val); auto. apply IH; auto. lia.
Qed.

Lemma gns_enough : forall fuel val n, (0 < n)%nat -> (val + 1 < n + fuel)%nat -> (0 < fuel)%nat ->
  exists m, get_new_size fuel val n = Some m.
Proof.
  induction fuel as [|f IH]; intros val n Hn Hv Hf; [lia|]. simpl.
  destruct (Nat.leb_spec n val) as [L|L]; eauto.
  destruct f as [|f]; [lia|]. apply IH; lia.
Qed.

Lemma gns_zero : forall fuel val, get_new_size fuel val 0 = None.
Proof. induction fuel; intros; simpl; auto. Qed.

Lemma gns_idle : forall fuel val n, (val < n)%nat -> get_new_size (S fuel) val n = Some n.
Proof. intros. simpl. destruct (Nat.leb_spec n val); auto. lia. Qed.

(** ** The log invariant *)
Definition in_bounds (h : hist) (i j : nat) : Prop := (i < m_rows (hs_array h))%nat /\ (j < m_cols (hs_array h))%nat.
Definition same_shape (h : hist) : Prop :=
  m_rows (hs_counts h) = m_rows (hs_array h) /\ m_cols (hs_counts h) = m_cols (hs_array h).

(** [h] represents the log [L : cell -> values]. *)
Definition represents (h : hist) (L : nat -> nat -> list R) : Prop :=
  same_shape h /\
  (forall i j, in_bounds h i j -> m_at (hs_array h) i j = Rsum (L i j) /\
                                  m_at (hs_counts h) i j = Z.of_nat (length (L i j))) /\
  (forall i j, ~ in_bounds h i j -> L i j = []).

Lemma represents_init : forall g r c, represents (init g r c) (fun _ _ => []).
Proof. intros. repeat split; auto. Qed.

Lemma represents_reset : forall h L, represents h L -> represents (reset h) (fun _ _ => []).
Proof. intros h L (S1 & _ & _). repeat split; auto; apply S1. Qed.

Lemma represents_grow_rows : forall g h L row h', represents h L -> grow_rows g h row = Some h' ->
  represents h' L /\ (row < m_rows (hs_array h'))%nat /\ m_cols (hs_array h') = m_cols (hs_array h).
Proof.
  intros g h L row h' (S1 & V & O) H. unfold grow_rows in H.
  destruct (Nat.leb_spec (m_rows (hs_array h)) row) as [Hr|Hr].
  2:{ injection H as <-. repeat split; auto; try apply S1; apply V; auto. }
  destruct (get_new_size (S row) row (m_rows (hs_array h))) as [n|] eqn:E; [|discriminate].
  injection H as <-. destruct (gns_some _ _ _ _ E) as (A & _ & _).
  unfold resize_rows. replace (Nat.ltb (m_rows (hs_array h)) n) with true by (symmetry; apply Nat.ltb_lt; lia).
  destruct S1 as [S1 S2].
  split; [|split; [exact A|reflexivity]].
  split; [split; [reflexivity|exact S2]|]. split.
  - intros i j [Bi Bj]. simpl in *. rewrite S1, S2.
    replace (n - (n - m_rows (hs_array h)))%nat with (m_rows (hs_array h)) by lia.
    destruct (Nat.leb_spec (m_rows (hs_array h)) i) as [Li|Li].
    + rewrite (O i j) by (intros [C _]; lia). split; reflexivity.
    + replace (Nat.ltb i (m_rows (hs_array h)) && Nat.ltb j (m_cols (hs_array h))) with true
        by (symmetry; apply andb_true_iff; split; apply Nat.ltb_lt; auto).
      apply V. split; auto.
  - intros i j B. apply O. intros [Bi Bj]. apply B. split; simpl; lia.
Qed.

Lemma represents_grow_cols : forall g h L col h', represents h L -> grow_cols g h col = Some h' ->
  represents h' L /\ (col < m_cols (hs_array h'))%nat /\ m_rows (hs_array h') = m_rows (hs_array h).
Proof.
  intros g h L col h' (S1 & V & O) H. unfold grow_cols in H.
  destruct (Nat.leb_spec (m_cols (hs_array h)) col) as [Hr|Hr].
  2:{ injection H as <-. repeat split; auto; try apply S1; apply V; auto. }
  destruct (get_new_size (S col) col (m_cols (hs_array h))) as [n|] eqn:E; [|discriminate].
  injection H as <-. destruct (gns_some _ _ _ _ E) as (A & _ & _).
  unfold resize_cols. replace (Nat.ltb (m_cols (hs_array h)) n) with true by (symmetry; apply Nat.ltb_lt; lia).
  destruct S1 as [S1 S2].
  split; [|split; [exact A|reflexivity]].
  split; [split; [exact S1|reflexivity]|]. split.
  - intros i j [Bi Bj]. simpl in *. rewrite S1, S2.
    replace (n - (n - m_cols (hs_array h)))%nat with (m_cols (hs_array h)) by lia.
    destruct (Nat.leb_spec (m_cols (hs_array h)) j) as [Li|Li].
    + rewrite (O i j) by (intros [_ C]; lia). split; reflexivity.
    + replace (Nat.ltb i (m_rows (hs_array h)) && Nat.ltb j (m_cols (hs_array h))) with true
        by (symmetry; apply andb_true_iff; split; apply Nat.ltb_lt; auto).
      apply V. split; auto.
  - intros i j B. apply O. intros [Bi Bj]. apply B. split; simpl; lia.
Qed.

Lemma Rsum_app : forall l m, Rsum (l ++ m) = Rsum l + Rsum m.
Proof. induction l as [|x l IH]; intros; simpl; [lra|]. rewrite IH. lra. Qed.

Lemma firstn_skipn_nth : forall (vs : list R) i, (i < length vs)%nat -> firstn 1 (skipn i vs) = [nth i vs 0].
Proof. induction vs as [|v vs IH]; intros [|i] H; simpl in *; try lia; auto. apply IH. lia. Qed.
Lemma firstn_skipn_out : forall (vs : list R) i, (length vs <= i)%nat -> firstn 1 (skipn i vs) = [].
Proof. intros. rewrite skipn_all2 by auto. reflexivity. Qed.

Lemma represents_step : forall g h L o h', represents h L -> o <> Reset -> step g h o = Some h' ->
  represents h' (fun i j => L i j ++ logged1 i j o).
Proof.
  intros g h L [r c v|c vs|r vs|] h' R0 No H; [| | |congruence]; simpl in H.
  - unfold log in H. destruct (grow_rows g h r) as [h1|] eqn:E1; [|discriminate]. cbn [bind] in H.
    destruct (grow_cols g h1 c) as [h2|] eqn:E2; [|discriminate]. cbn [bind] in H. injection H as <-.
    destruct (represents_grow_rows _ _ _ _ _ R0 E1) as (R1 & B1 & C1).
    destruct (represents_grow_cols _ _ _ _ _ R1 E2) as (((S1 & S2) & V & O) & B2 & C2).
    split; [split; [exact S1|exact S2]|]. split.
    + intros i j B. destruct (V i j B) as [V1 V2]. simpl.
      destruct (Nat.eqb_spec i r) as [->|]; [destruct (Nat.eqb_spec j c) as [->|]|]; simpl.
      * rewrite Rsum_app, app_length, V1, V2. simpl. split; [lra|lia].
      * rewrite app_nil_r. auto.
      * rewrite app_nil_r. auto.
    + intros i j B. rewrite (O i j B). simpl.
      destruct (Nat.eqb_spec i r) as [->|]; [destruct (Nat.eqb_spec j c) as [->|]|]; auto.
      exfalso. apply B. split; simpl; lia.
  - unfold log_col in H. destruct (grow_cols g h c) as [h2|] eqn:E2; [|discriminate]. cbn [bind] in H.
    destruct (Nat.eqb_spec (length vs) (m_rows (hs_array h2))) as [Lv|]; [|discriminate]. injection H as <-.
    destruct (represents_grow_cols _ _ _ _ _ R0 E2) as (((S1 & S2) & V & O) & B2 & C2).
    split; [split; [exact S1|exact S2]|]. split.
    + intros i j B. destruct (V i j B) as [V1 V2]. cbn [logged1 update hs_array hs_counts m_at].
      destruct (Nat.eqb_spec j c) as [->|].
      * destruct B as [Bi _]. rewrite firstn_skipn_nth by (simpl in Bi; lia).
        rewrite Rsum_app, app_length, V1, V2. simpl. split; [lra|lia].
      * rewrite app_nil_r. auto.
    + intros i j B. rewrite (O i j B). cbn [app logged1]. destruct (Nat.eqb_spec j c) as [->|]; auto.
      apply firstn_skipn_out. rewrite Lv. apply Nat.nlt_ge. intros C. apply B. split; simpl; lia.
  - unfold log_row in H. destruct (grow_rows g h r) as [h2|] eqn:E2; [|discriminate]. cbn [bind] in H.
    destruct (Nat.eqb_spec (length vs) 1) as [Lv|]; [|discriminate].
    destruct (Nat.eqb_spec (m_cols (hs_array h2)) 1) as [Lc|]; [|discriminate]. cbn in H. injection H as <-.
    destruct (represents_grow_rows _ _ _ _ _ R0 E2) as (((S1 & S2) & V & O) & B2 & C2).
    split; [split; [exact S1|exact S2]|]. split.
    + intros i j B. destruct (V i j B) as [V1 V2]. cbn [logged1 update hs_array hs_counts m_at].
      destruct (Nat.eqb_spec i r) as [->|].
      * destruct B as [_ Bj]. rewrite firstn_skipn_nth by (simpl in Bj; lia).
        rewrite Rsum_app, app_length, V1, V2. simpl. split; [lra|lia].
      * rewrite app_nil_r. auto.
    + intros i j B. rewrite (O i j B). cbn [app logged1]. destruct (Nat.eqb_spec i r) as [->|]; auto.
      apply firstn_skipn_out. rewrite Lv. apply Nat.nlt_ge. intros C. apply B. split; simpl; lia.
Qed.

Lemma logged_cons : forall i j o ops acc, o <> Reset -> logged i j (o :: ops) acc = logged i j ops (acc ++ logged1 i j o).
Proof. intros i j [] ops acc H; reflexivity || congruence. Qed.

Lemma represents_run : forall gs ops k h L h', represents h L -> run gs k h ops = Some h' ->
  represents h' (fun i j => logged i j ops (L i j)).
Proof.
  intros gs. induction ops as [|o ops IH]; intros k h L h' R0 H; simpl in H.
  - injection H as <-. exact R0.
  - destruct (step (gs k) h o) as [h1|] eqn:E; [|discriminate]. cbn [bind] in H.
    assert (D : o = Reset \/ o <> Reset) by (destruct o; auto; right; discriminate).
    destruct D as [->|No].
    + simpl in E. injection E as <-. apply (IH _ _ _ _ (represents_reset h L R0) H).
    + pose proof (IH _ _ _ _ (represents_step _ _ _ _ _ R0 No E) H) as (A & B & C).
      split; auto. split; intros i j Hb; rewrite logged_cons by auto; auto.
Qed.

(** ** Columns always succeed *)
Lemma grow_cols_some : forall g h col, (0 < m_cols (hs_array h))%nat -> exists h', grow_cols g h col = Some h' /\
  (0 < m_cols (hs_array h'))%nat /\ m_rows (hs_array h') = m_rows (hs_array h).
Proof.
  intros g h col Hc. unfold grow_cols. destruct (Nat.leb_spec (m_cols (hs_array h)) col); eauto.
  destruct (gns_enough (S col) col (m_cols (hs_array h))) as (n & E); try lia. rewrite E. cbn [bind].
  destruct (gns_some _ _ _ _ E) as (A & _). eexists. split; [reflexivity|].
  unfold resize_cols. destruct (Nat.ltb _ _); simpl; split; auto; lia.
Qed.

Lemma grow_rows_some : forall g h row, (0 < m_rows (hs_array h))%nat -> exists h', grow_rows g h row = Some h' /\
  (0 < m_rows (hs_array h'))%nat /\ m_cols (hs_array h') = m_cols (hs_array h) /\
  (m_rows (hs_array h) <= m_rows (hs_array h'))%nat.
Proof.
  intros g h col Hc. unfold grow_rows. destruct (Nat.leb_spec (m_rows (hs_array h)) col); eauto.
  destruct (gns_enough (S col) col (m_rows (hs_array h))) as (n & E); try lia. rewrite E. cbn [bind].
  destruct (gns_some _ _ _ _ E) as (A & _). eexists. split; [reflexivity|].
  unfold resize_rows. destruct (Nat.ltb _ _); simpl; repeat split; auto; lia.
Qed.

Lemma log_col_some : forall g h col vs, (0 < m_cols (hs_array h))%nat -> length vs = m_rows (hs_array h) ->
  exists h', log_col g h col vs = Some h' /\ (0 < m_cols (hs_array h'))%nat /\ m_rows (hs_array h') = m_rows (hs_array h).
Proof.
  intros g h col vs Hc Hv. unfold log_col. destruct (grow_cols_some g h col Hc) as (h1 & E & A & B).
  rewrite E. cbn [bind]. rewrite B, Hv, Nat.eqb_refl. simpl. eauto.
Qed.

Lemma log_some : forall g h r c v, (0 < m_rows (hs_array h))%nat -> (0 < m_cols (hs_array h))%nat ->
  exists h', log g h r c v = Some h' /\ (0 < m_rows (hs_array h'))%nat /\ (0 < m_cols (hs_array h'))%nat.
Proof.
  intros g h r c v Hr Hc. unfold log. destruct (grow_rows_some g h r Hr) as (h1 & E1 & A1 & B1 & _).
  rewrite E1. cbn [bind]. destruct (grow_cols_some g h1 c) as (h2 & E2 & A2 & B2); [lia|].
  rewrite E2. cbn [bind]. eexists. split; [reflexivity|]. simpl. split; lia.
Qed.

(** ** Microphones *)
Lemma trunc_spec : forall x k, 0 <= x -> (trunc x = k <-> INR k <= x < INR (S k)).
Proof.
  intros x k Hx. unfold trunc. destruct (base_Int_part x) as [A B].
  assert (P : (0 <= Int_part x)%Z).
  { assert (-1 < IZR (Int_part x)) by lra. apply lt_IZR in H. lia. }
  split.
  - intros <-. rewrite S_INR, INR_IZR_INZ, Z2Nat.id by auto. lra.
  - intros [C D]. rewrite S_INR, INR_IZR_INZ in D. rewrite INR_IZR_INZ in C.
    assert (E1 : (Z.of_nat k < Int_part x + 1)%Z) by (apply lt_IZR; rewrite plus_IZR; lra).
    assert (E2 : (Int_part x < Z.of_nat k + 1)%Z) by (apply lt_IZR; rewrite plus_IZR; lra).
    lia.
Qed.

Lemma trunc_div : forall d res k, 0 < res -> 0 <= d -> (trunc (d / res) = k <-> INR k * res <= d < INR (S k) * res).
Proof.
  intros d res k Hr Hd. rewrite trunc_spec.
  - split; intros [A B]; split.
    + apply Rmult_le_compat_r with (r := res) in A; [|lra]. unfold Rdiv in A. rewrite Rmult_assoc, Rinv_l in A; lra.
    + apply Rmult_lt_compat_r with (r := res) in B; [|lra]. unfold Rdiv in B. rewrite Rmult_assoc, Rinv_l in B; lra.
    + apply Rmult_le_reg_r with res; [lra|]. unfold Rdiv. rewrite Rmult_assoc, Rinv_l; lra.
    + apply Rmult_lt_reg_r with res; [lra|]. unfold Rdiv. rewrite Rmult_assoc, Rinv_l; lra.
  - apply Rmult_le_pos; auto. left. now apply Rinv_0_lt_compat.
Qed.

Definition mic_ok (m : microphone) (L : nat -> nat -> nat -> list R) : Prop :=
  length (mi_hists m) = mi_dirs m /\
  forall d h, nth_error (mi_hists m) d = Some h ->
    represents h (L d) /\ (0 < m_cols (hs_array h))%nat /\ m_rows (hs_array h) = mi_bands m.

Lemma mic_reset_ok : forall g m bands, (0 < mi_init m)%nat -> mic_ok (mic_reset g m bands) (fun _ _ _ => []).
Proof.
  intros g m bands Hi. split; [simpl; apply repeat_length|]. simpl. intros d h H.
  apply nth_error_In in H. apply repeat_spec in H. subst h.
  split; [apply represents_init|]. simpl. auto.
Qed.

Lemma represents_ext : forall h L L', (forall i j, L i j = L' i j) -> represents h L -> represents h L'.
Proof.
  intros h L L' E (S1 & V & O). split; auto. split; intros i j B; rewrite <- E; auto.
Qed.

Lemma log_histogram_ok : forall g query m L d e o, mic_ok m L -> 0 < mi_res m -> 0 <= d ->
  length e = mi_bands m -> (get_dir_bin query m o < mi_dirs m)%nat ->
  exists m', log_histogram g query m d e o = Some m' /\
    mi_loc m' = mi_loc m /\ mi_dirs m' = mi_dirs m /\ mi_bands m' = mi_bands m /\ mi_res m' = mi_res m /\
    mic_ok m' (fun dir i j => L dir i j ++
       if Nat.eqb (get_dir_bin query m o) dir then logged1 i j (LogCol (trunc (d / mi_res m)) e) else []).
Proof.
  intros g query m L d e o (Lh & Hh) Hr Hd Le Hb. unfold log_histogram.
  destruct (nth_error (mi_hists m) (get_dir_bin query m o)) as [h|] eqn:E.
  2:{ apply nth_error_None in E. lia. }
  destruct (Hh _ _ E) as (R0 & C0 & W0). cbn [bind].
  destruct (log_col_some g h (trunc (d / mi_res m)) e C0) as (h' & E' & C' & W'); [congruence|].
  rewrite E'. cbn [bind].
  destruct (store_Some (mi_hists m) (get_dir_bin query m o) h') as (hs & Es & Ls & Ns); [lia|].
  rewrite Es. cbn [bind]. eexists. split; [reflexivity|]. simpl. repeat (split; [reflexivity|]).
  split; [simpl; congruence|]. simpl. intros dir h1 H1. rewrite Ns in H1.
  destruct (Nat.eqb_spec dir (get_dir_bin query m o)) as [->|Ne].
  - injection H1 as <-. rewrite Nat.eqb_refl. split; [|split; [auto|congruence]].
    apply (represents_step g h (L (get_dir_bin query m o)) (LogCol (trunc (d / mi_res m)) e) h' R0); [discriminate|exact E'].
  - destruct (Hh _ _ H1) as (R1 & C1 & W1).
    destruct (Nat.eqb_spec (get_dir_bin query m o) dir) as [E2|]; [congruence|].
    split; auto. apply (represents_ext _ (L dir)); auto. intros. now rewrite app_nil_r.
Qed.

Lemma log_all_ok : forall gs query es k m L, mic_ok m L -> 0 < mi_res m ->
  (forall d e o, In (d, e, o) es -> 0 <= d /\ length e = mi_bands m /\ (get_dir_bin query m o < mi_dirs m)%nat) ->
  exists m', log_all gs k query m es = Some m' /\ mi_bands m' = mi_bands m /\ mi_dirs m' = mi_dirs m /\
    mic_ok m' (fun dir i j => L dir i j ++ flat_map (fun x => let '(d, e, o) := x in
       if Nat.eqb (get_dir_bin query m o) dir then logged1 i j (LogCol (trunc (d / mi_res m)) e) else []) es).
Proof.
  intros gs query. induction es as [|[[d e] o] es IH]; intros k m L Ok Hr He; simpl.
  - exists m. split; auto. split; auto. split; auto. destruct Ok as (A & B). split; auto. intros dir h H.
    destruct (B _ _ H) as (R1 & C1 & W1). split; auto.
    apply (represents_ext _ (L dir)); auto. intros. now rewrite app_nil_r.
  - destruct (He d e o) as (Hd & Hl & Hb); [left; auto|].
    destruct (log_histogram_ok (gs k) query m L d e o Ok Hr Hd Hl Hb) as (m1 & E1 & P1 & P2 & P3 & P4 & Ok1).
    rewrite E1. cbn [bind].
    assert (Gd : forall o', get_dir_bin query m1 o' = get_dir_bin query m o') by (intros; unfold get_dir_bin; now rewrite P1, P2).
    destruct (IH (S k) m1 _ Ok1) as (m2 & E2 & Q1 & Q2 & Ok2).
    + congruence.
    + intros d' e' o' Hin. rewrite Gd, P2, P3. apply He. right; auto.
    + exists m2. split; auto. split; [congruence|]. split; [congruence|].
      destruct Ok2 as (A & B). split; auto. intros dir h H. destruct (B _ _ H) as (R1 & C1 & W1).
      split; auto. eapply represents_ext; [|exact R1]. intros i j. cbv beta. rewrite <- app_assoc. f_equal. f_equal.
      apply flat_map_ext. intros [[d' e'] o']. now rewrite Gd, P4.
Qed.

Lemma flat_map_ext_in' : forall {A B} (f g : A -> list B) l, (forall a, In a l -> f a = g a) -> flat_map f l = flat_map g l.
Proof. induction l as [|a l IH]; simpl; intros H; auto. rewrite H, IH; auto. Qed.

Lemma log_all_cells : forall gs query es m g bands, let m0 := mic_reset g m bands in
  0 < mi_res m -> (0 < mi_init m)%nat ->
  (forall d e o, In (d, e, o) es -> 0 <= d /\ length e = bands /\ (get_dir_bin query m0 o < mi_dirs m)%nat) ->
  exists m', log_all gs 0 query m0 es = Some m' /\ length (mi_hists m') = mi_dirs m /\
    forall d b k h, nth_error (mi_hists m') d = Some h -> (b < bands)%nat ->
      let l := arrivals (get_dir_bin query m0) (mi_res m) d b k es in
      ((k < m_cols (hs_array h))%nat -> m_at (hs_array h) b k = Rsum l /\ m_at (hs_counts h) b k = Z.of_nat (length l)) /\
      ((m_cols (hs_array h) <= k)%nat -> l = []).
Proof.
  intros gs query es m g bands m0 Hr Hi He.
  destruct (log_all_ok gs query es 0%nat m0 (fun _ _ _ => []) (mic_reset_ok g m bands Hi) Hr) as (m' & E & Q1 & Q2 & (A & B)).
  { intros d e o H. apply (He d e o H). }
  exists m'. split; auto. split; [now rewrite A, Q2|]. intros d b k h Hh Hb. cbv zeta.
  destruct (B _ _ Hh) as ((S1 & V & O) & C1 & W1).
  rewrite Q1 in W1. simpl in W1.
  assert (El : arrivals (get_dir_bin query m0) (mi_res m) d b k es =
    flat_map (fun x => let '(dd, e, o) := x in
       if Nat.eqb (get_dir_bin query m0 o) d then logged1 b k (LogCol (trunc (dd / mi_res m0)) e) else []) es).
  { unfold arrivals. apply flat_map_ext_in'. intros [[dd e] o] Hin. destruct (He _ _ _ Hin) as (Hd & Hl & _).
    destruct (Nat.eqb (get_dir_bin query m0 o) d); simpl; auto.
    pose proof (trunc_div dd (mi_res m) k Hr Hd) as T. change (mi_res m0) with (mi_res m).
    destruct (Nat.eqb_spec k (trunc (dd / mi_res m))) as [E1|N1].
    - symmetry in E1. apply T in E1. destruct E1 as [E1 E2].
      destruct (Rle_dec _ _); [|contradiction]. destruct (Rlt_dec dd _) as [|N]; [|contradiction].
      symmetry. apply firstn_skipn_nth. lia.
    - destruct (Rle_dec (INR k * mi_res m) dd) as [Ha|]; auto.
      destruct (Rlt_dec dd _) as [Hb2|]; auto. exfalso. apply N1. symmetry. apply T. auto. }
  rewrite El. split.
  - intros Hk. apply V. split; lia.
  - intros Hk. apply O. intros [_ C]. lia.
Qed.
