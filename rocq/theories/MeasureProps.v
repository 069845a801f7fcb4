(** Measured reverberation times (C106, C107). *)
From Coq Require Import List ZArith Lia Reals Lra Psatz Bool.
From Verif Require Import Base GeometryModel WallModel GeometryProofs MeasureModel MeasureSpec MeasureProofs.
From Verif Require Import RirProofs BaseProofs.
Import ListNotations.
Local Open Scope R_scope.

(** ** Invariance *)
Lemma energy_scale : forall c h i, energy_after (map (fun x => c * x) h) i = c * c * energy_after h i.
Proof.
  intros c h i. unfold energy_after. rewrite skipn_map, map_map. rewrite <- Rsum_map_scal. apply Rsum_map_ext. intros; ring.
Qed.
Lemma eff_scale : forall c h th i, eff (map (fun x => c * x) h) th i = c * c * eff h th i.
Proof.
  intros c h th i. unfold eff. rewrite !energy_scale. destruct (Rltb th 1); [|reflexivity].
  replace (c * c * energy_after h i - c * c * energy_after h 0 * (1 - th)) with (c * c * (energy_after h i - energy_after h 0 * (1 - th))) by ring.
  unfold Rmax. destruct (Rle_dec _ 0) as [A|A], (Rle_dec (energy_after h i - _) 0) as [B|B]; try ring; pose proof (Rle_0_sqr c) as S; unfold Rsqr in S.
  - apply Rnot_le_lt in B. assert (c * c * (energy_after h i - energy_after h 0 * (1 - th)) = 0) by nra. lra.
  - apply Rnot_le_lt in A. nra.
Qed.
Lemma lv_scale : forall h h' th g i, 0 < g -> eff h' th i = g * eff h th i -> eff h' th 0 = g * eff h th 0 -> 0 < eff h th i -> 0 < eff h th 0 -> lv h' th i = lv h th i.
Proof. intros h h' th g i Hg E1 E2 P1 P2. unfold lv, log10. rewrite E1, E2, !ln_mult by assumption. unfold Rdiv. ring. Qed.
Lemma same_result : forall ls cf h h' fs decay th lin g, 0 < g -> h <> [] -> h' <> [] -> (forall i, eff h' th i = g * eff h th i) ->
  measure_rt60 ls cf h' fs decay th lin = measure_rt60 ls cf h fs decay th lin.
Proof.
  intros ls cf h h' fs decay th lin g Hg Hn Hn' He.
  assert (Ok : th_ok h' th <-> th_ok h th) by (unfold th_ok; tauto).
  destruct (split h th) as [H|[(H1 & H2 & H3)|(H1 & H2 & H3 & k & H4 & H5)]].
  - rewrite !measure_raises; tauto.
  - rewrite !measure_zero; tauto || (rewrite He, H3; ring) || auto.
  - rewrite (measure_char ls cf h fs decay th lin k), (measure_char ls cf h' fs decay th lin k); auto; [|tauto|rewrite He; nra|intros j Hj; rewrite He, H5 by exact Hj; ring].
    destruct (Nat.eqb k 0); [reflexivity|]. f_equal. apply map_ext_in. intros i Hi. apply in_seq in Hi. apply (lv_scale _ _ _ g); auto.
    pose proof (eff_desc h th i k ltac:(lia)). lra.
Qed.
(** C106.  The estimate does not depend on the gain of the response; *)
Theorem C106_gain : forall ls cf c h fs decay th lin, c <> 0 ->
  measure_rt60 ls cf (map (fun x => c * x) h) fs decay th lin = measure_rt60 ls cf h fs decay th lin.
Proof.
  intros ls cf c h fs decay th lin Hc. destruct h as [|x h]; [reflexivity|].
  apply (same_result _ _ _ _ _ _ _ _ (c * c)); [nra|discriminate|discriminate|]. intros i. apply eff_scale.
Qed.
(** nor on zeros appended to it; *)
Lemma energy_app : forall h n i, energy_after (h ++ repeat 0 n) i = energy_after h i.
Proof.
  assert (Z : forall n i, energy_after (repeat 0 n) i = 0).
  { induction n as [|n IH]; intros i; [unfold energy_after; now rewrite skipn_nil|]. cbn [repeat]. destruct i as [|i]; [|apply (IH i)].
    specialize (IH 0%nat). unfold energy_after in *. cbn [skipn map] in *. rewrite rcons, IH. ring. }
  induction h as [|x h IH]; intros n i; [cbn [app]; rewrite Z; unfold energy_after; now rewrite skipn_nil|]. cbn [app]. destruct i as [|i]; [|apply (IH n i)].
  specialize (IH n 0%nat). unfold energy_after in *. cbn [skipn map] in *. now rewrite !rcons, IH.
Qed.
Theorem C106_zeros_after : forall ls cf n h fs decay th lin, h <> [] ->
  measure_rt60 ls cf (h ++ repeat 0 n) fs decay th lin = measure_rt60 ls cf h fs decay th lin.
Proof.
  intros ls cf n h fs decay th lin Hn. apply (same_result _ _ _ _ _ _ _ _ 1); [lra|exact Hn|destruct h; [congruence|discriminate]|].
  intros i. unfold eff. rewrite !energy_app. ring.
Qed.
(** nor on the delay before it (the moment of the loudest sound), unless it raises. *)
Lemma energy_zero_cons : forall h i, energy_after (0 :: h) i = energy_after h (i - 1).
Proof.
  intros h [|i]; [|cbn [Nat.sub]; rewrite Nat.sub_0_r; reflexivity]. unfold energy_after. cbn [Nat.sub skipn map]. rewrite rcons. ring.
Qed.
Lemma list_min_zero : forall db, nth 0 db 1 = 0 -> list_min (0 :: db) = list_min db.
Proof. intros [|x db] H; cbn [nth] in H; [lra|]. subst x. unfold list_min. cbn [tl hd fold_left]. f_equal. unfold Rmin. destruct (Rle_dec 0 0); reflexivity. Qed.
Lemma min_le0 : forall db, nth 0 db 1 = 0 -> list_min db <= 0.
Proof. intros [|x db] H; cbn [nth] in H; [lra|]. subst x. apply RirProofs.list_min_le. now left. Qed.
Lemma first_below_cons : forall x l v, v <= x -> first_below (x :: l) v = option_map S (first_below l v).
Proof.
  intros x l v H. destruct (first_below_spec l v) as [[E G]|[i (E & G1 & G2 & G3)]]; rewrite E; cbn [option_map].
  - apply first_below_none. intros [|i] Hi; cbn [nth]; [lra|]. apply G. cbn in Hi. lia.
  - apply first_below_unique; [cbn; lia|exact G2|]. intros [|j] Hj; cbn [nth]; [lra|]. apply G3. lia.
Qed.
Lemma rest_cons : forall ls cf db fs decay lin, nth 0 db 1 = 0 -> 0 <= decay -> rest ls cf (0 :: db) fs decay lin = rest ls cf db fs decay lin.
Proof.
  intros ls cf db fs decay lin H0 Hd. unfold rest. rewrite (list_min_zero db H0). pose proof (min_le0 db H0) as Hm.
  set (dd := if Rltb (- list_min db - 5) decay then - list_min db else decay).
  assert (Hdd : 0 <= dd) by (unfold dd; destruct (Rltb _ decay); lra).
  rewrite first_below_cons by lra. destruct (first_below_spec db (-5)) as [[E G]|[i (E & G1 & G2 & G3)]]; rewrite E; cbn [option_map]; [reflexivity|].
  cbn [nth]. rewrite first_below_cons by lra. destruct (first_below db (nth i db 0 - dd)); cbn [option_map length firstn skipn]; reflexivity.
Qed.
Theorem C106_zeros_before : forall ls cf n h fs decay th lin, 0 <= decay -> measure_rt60 ls cf h fs decay th lin <> Raises ->
  measure_rt60 ls cf (repeat 0 n ++ h) fs decay th lin = measure_rt60 ls cf h fs decay th lin.
Proof.
  intros ls cf n h fs decay th lin Hd Hr. induction n as [|n IH]; [reflexivity|]. cbn [repeat app]. rewrite <- IH. rewrite <- IH in Hr. clear IH. set (g := repeat 0 n ++ h) in *. clearbody g. clear h.
  assert (He : forall i, eff (0 :: g) th i = eff g th (i - 1)) by (intros i; unfold eff; rewrite !energy_zero_cons; reflexivity).
  destruct (split g th) as [H|[(H1 & H2 & H3)|(H1 & H2 & H3 & k & H4 & H5)]].
  - exfalso. apply Hr. now apply measure_raises.
  - rewrite !measure_zero; auto; [|discriminate|rewrite He; exact H3]. unfold th_ok in *. destruct H1 as [|[? _]]; [tauto|right; split; [tauto|discriminate]].
  - rewrite (measure_char ls cf g fs decay th lin k) in *; auto. rewrite (measure_char ls cf (0 :: g) fs decay th lin (S k)).
    + cbn [Nat.eqb]. destruct k as [|k]; [cbn [Nat.eqb] in Hr; congruence|]. cbn [Nat.eqb].
      assert (El : map (lv (0 :: g) th) (seq 0 (S (S k))) = 0 :: map (lv g th) (seq 0 (S k))).
      { change (seq 0 (S (S k))) with (0%nat :: seq 1 (S k)). rewrite <- (seq_shift (S k) 0). change (map (lv (0 :: g) th) (0%nat :: map S (seq 0 (S k)))) with (lv (0 :: g) th 0 :: map (lv (0 :: g) th) (map S (seq 0 (S k)))).
        rewrite map_map. f_equal; [unfold lv; lra|]. apply map_ext. intros i. unfold lv. rewrite !He. cbn [Nat.sub]. now rewrite Nat.sub_0_r. }
      rewrite El. apply rest_cons; [|exact Hd]. cbn [seq map nth]. unfold lv. lra.
    + unfold th_ok in *. destruct H1 as [|[? _]]; [tauto|right; split; [tauto|discriminate]].
    + rewrite He. cbn [Nat.sub]. now rewrite Nat.sub_0_r.
    + intros j Hj. rewrite He. apply H5. lia.
Qed.
(** ** Sampling rate *)
Definition rescale (c : R) (o : outcome) : outcome := match o with Est t => Est (t / c) | o => o end.
Lemma times_scale : forall n c fs, c <> 0 -> fs <> 0 -> times n (c * fs) = map (fun x => / c * x) (times n fs).
Proof. intros n c fs Hc Hf. unfold times. rewrite map_map. apply map_ext. intros i. field. auto. Qed.
Lemma cov_tscale : forall u l, cov (map (fun p => (u * fst p, snd p)) l) = u * cov l.
Proof.
  intros u l. unfold cov. rewrite map_length, !map_map. cbn [fst snd]. rewrite (Rsum_map_ext (fun x => u * fst x * snd x) (fun x => u * (fst x * snd x))) by (intros; ring).
  rewrite !Rsum_map_scal. change (map (fun x : R * R => snd x) l) with (map snd l). change (map (fun a : R * R => fst a) l) with (map fst l). ring.
Qed.
Lemma combine_mapl : forall (f : R -> R) (t d : list R), combine (map f t) d = map (fun p => (f (fst p), snd p)) (combine t d).
Proof. intros f. induction t as [|x t IH]; intros [|y d]; try reflexivity. cbn [map combine]. rewrite IH. reflexivity. Qed.
Lemma fit_rate : forall ls cf ds c fs, is_lstsq ls -> 0 < c -> 0 < fs -> fit_exp ls cf ds (c * fs) (-60) false = rescale c (fit_exp ls cf ds fs (-60) false).
Proof.
  intros ls cf ds c fs Hls Hc Hf. destruct ds as [|d [|e ds]].
  - reflexivity.
  - rewrite !fit_exp_log by discriminate. cbv zeta. unfold times, from0. cbn [length seq map nth]. rewrite Rminus_diag_eq by reflexivity. rewrite !fit_one by exact Hls.
    destruct (Req_EM_T 0 0); [reflexivity|congruence].
  - set (l := d :: e :: ds). rewrite !fit_exp_log by discriminate. cbv zeta.
    pose proof (slope ls (times (length l) fs) (from0 l) Hls ltac:(now rewrite times_length, from0_length)) as S1.
    pose proof (slope ls (times (length l) (c * fs)) (from0 l) Hls ltac:(now rewrite times_length, from0_length)) as S2.
    pose proof (var_pos l fs Hf ltac:(cbn; lia)) as V. rewrite times_scale in S2 |- * by lra. rewrite combine_mapl in S2.
    set (q := fst (ls (map _ _) _)) in *. set (p := fst (ls (times (length l) fs) (from0 l))) in *. set (pts := combine (times (length l) fs) (from0 l)) in *.
    rewrite map_map in S2. cbn [fst snd] in S2. rewrite (cov_tscale (/ c) pts) in S2.
    assert (E : cov (map (fun x => (/ c * fst x, / c * fst x)) pts) = / c * / c * cov (map (fun p => (fst p, fst p)) pts)).
    { replace (map (fun x => (/ c * fst x, / c * fst x)) pts) with (map (fun p => (fst p, / c * snd p + 0 * fst p)) (map (fun p => (/ c * fst p, fst p)) pts)) by (rewrite map_map; apply map_ext; intros; cbn; f_equal; ring).
      rewrite cov_lin. replace (map (fun p => (/ c * fst p, fst p)) pts) with (map (fun p => (/ c * fst p, snd p)) (map (fun p => (fst p, fst p)) pts)) by (rewrite map_map; reflexivity). rewrite cov_tscale. ring. }
    rewrite E, <- S1 in S2. set (v := cov _) in *.
    assert (Q : q = c * p).
    { apply (Rmult_eq_reg_r (/ c * / c * v)); [rewrite S2; field; lra|]. apply Rmult_integral_contrapositive. split; [|lra]. apply Rmult_integral_contrapositive. split; apply Rinv_neq_0_compat; lra. }
    rewrite Q. destruct (Req_EM_T p 0) as [P|P].
    + destruct (Req_EM_T (c * p) 0) as [|N]; [reflexivity|]. exfalso. apply N. rewrite P. ring.
    + destruct (Req_EM_T (c * p) 0) as [N|_]; [apply Rmult_integral in N; destruct N; lra|]. cbn [rescale]. f_equal. field. lra.
Qed.
(** C106.  The same samples at a rate c times higher give a time c times shorter. *)
Theorem C106_rate : forall ls cf h c fs decay th, is_lstsq ls -> 0 < c -> 0 < fs ->
  measure_rt60 ls cf h (c * fs) decay th false = rescale c (measure_rt60 ls cf h fs decay th false).
Proof.
  intros ls cf h c fs decay th Hls Hc Hf.
  assert (Z : Est 0 = rescale c (Est 0)) by (cbn; f_equal; unfold Rdiv; ring).
  destruct (split h th) as [H|[(H1 & H2 & H3)|(H1 & H2 & H3 & k & H4 & H5)]].
  - now rewrite !measure_raises.
  - rewrite !measure_zero; auto.
  - rewrite !(measure_char ls cf h _ decay th false k); auto. destruct (Nat.eqb k 0); [reflexivity|]. unfold rest. destruct (first_below _ (-5)); [|exact Z]. now apply fit_rate.
Qed.

(** ** Accuracy *)
Lemma lv_level : forall h th i, 1 <= th -> 0 < energy_after h i -> lv h th i = level h i.
Proof.
  intros h th i Ht Hi. pose proof (energy_desc h 0 i ltac:(lia)). unfold lv, level, log10, eff. rewrite (proj2 (Rltb_false th 1)) by exact Ht.
  unfold Rdiv at 4. rewrite ln_mult, ln_Rinv by (try apply Rinv_0_lt_compat; lra). unfold Rdiv. ring.
Qed.
Lemma lv_desc : forall h th i j, (i <= j)%nat -> 0 < eff h th j -> lv h th j <= lv h th i.
Proof.
  intros h th i j H P. pose proof (eff_desc h th i j H) as D. unfold lv, log10. pose proof ln10_p. 
  assert (ln (eff h th j) <= ln (eff h th i)) by (destruct D as [D|D]; [left; now apply ln_increasing|right; now rewrite D]).
  assert (ln (eff h th j) / ln 10 <= ln (eff h th i) / ln 10) by (unfold Rdiv; apply Rmult_le_compat_r; [left; now apply Rinv_0_lt_compat|assumption]). lra.
Qed.
(** what the result is made of *)
Lemma rest_est : forall ls cf db fs decay lo hi T, is_lstsq ls -> 0 < fs -> 0 <= lo ->
  (forall i j, (i <= j < length db)%nat -> nth j db 0 <= nth i db 0) ->
  (forall i, (S i < length db)%nat -> nth i db 0 < -5 -> lo <= nth i db 0 - nth (S i) db 0 <= hi) ->
  rest ls cf db fs decay false = Est T ->
  (T = 0 /\ forall i, (i < length db)%nat -> -5 <= nth i db 0) \/ exists s, lo * fs <= s <= hi * fs /\ 0 < s /\ T = 60 / s.
Proof.
  intros ls cf db fs decay lo hi T Hls Hf Hlo Hd Hs. unfold rest. cbv zeta. destruct (first_below_spec db (-5)) as [[E G]|[i (E & G1 & G2 & G3)]]; rewrite E.
  - intros H. injection H as <-. left. auto.
  - set (j := match _ with Some _ => _ | None => _ end). set (seg := skipn i (firstn j db)). intros H. right.
    assert (Hj : (j <= length db)%nat). { unfold j. destruct (first_below_spec db (nth i db 0 - (if Rltb (- list_min db - 5) decay then - list_min db else decay))) as [[-> _]|[k (-> & Hk & _)]]; lia. }
    assert (L : length seg = (j - i)%nat) by (unfold seg; rewrite skipn_length, firstn_length; lia).
    assert (N : forall n, (n < length seg)%nat -> nth n seg 0 = nth (i + n) db 0) by (intros n Hn; unfold seg; rewrite nth_skipn, nth_firstn by lia; reflexivity).
    destruct seg as [|d [|e ds]] eqn:Es.
    + discriminate H.
    + rewrite fit_exp_log in H by discriminate. cbv zeta in H. unfold times, from0 in H. cbn [length seq map nth] in H. rewrite Rminus_diag_eq in H by reflexivity. rewrite fit_one in H by exact Hls.
      destruct (Req_EM_T 0 0); [discriminate|congruence].
    + rewrite <- Es in *. rewrite fit_exp_log in H by (rewrite Es; discriminate). cbv zeta in H.
      pose proof (fit_bounds ls seg fs lo hi Hls Hf ltac:(rewrite Es; cbn; lia)) as B.
      set (p := fst (ls (times (length seg) fs) (from0 seg))) in *. destruct (Req_EM_T p 0) as [|P]; [discriminate|]. injection H as <-.
      assert (B' : lo * fs <= - p <= hi * fs).
      { apply B. intros n Hn. rewrite !N by lia. replace (i + S n)%nat with (S (i + n)) by lia. apply Hs; [lia|]. specialize (Hd i (i + n)%nat ltac:(lia)). lra. }
      exists (- p). split; [exact B'|]. assert (0 <= lo * fs) by (apply Rmult_le_pos; lra). split; [lra|]. field. lra.
Qed.
Lemma lv_seq : forall h th k i, (i < k)%nat -> nth i (map (lv h th) (seq 0 k)) 0 = lv h th i.
Proof. intros. now rewrite (nth_map_seq (lv h th)). Qed.
Lemma lv_seq_desc : forall h th k, 0 < eff h th k -> forall i j, (i <= j < length (map (lv h th) (seq 0 k)))%nat -> nth j (map (lv h th) (seq 0 k)) 0 <= nth i (map (lv h th) (seq 0 k)) 0.
Proof.
  intros h th k P i j Hij. rewrite map_length, seq_length in Hij. rewrite !lv_seq by lia. apply lv_desc; [lia|]. pose proof (eff_desc h th j k ltac:(lia)). lra.
Qed.
(** C107.  If, from 5 dB below the start on, the energy falls by lo to hi decibels from sample to sample
    (the last sample with energy left out), the estimate is between the times that 60 dB take at
    the two rates; *)
Theorem C107_between : forall ls cf h fs decay th lo hi T, is_lstsq ls -> 0 < fs -> 1 <= th -> 0 < lo ->
  (forall i, 0 < energy_after h (S (S i)) -> level h i < -5 -> lo <= level h i - level h (S i) <= hi) ->
  measure_rt60 ls cf h fs decay th false = Est T ->
  (T = 0 /\ forall i, 0 < energy_after h (S i) -> -5 <= level h i) \/ 60 / (hi * fs) <= T <= 60 / (lo * fs).
Proof.
  intros ls cf h fs decay th lo hi T Hls Hf Ht Hlo Hh H.
  assert (Ef : forall i, eff h th i = energy_after h i) by (intros i; unfold eff; rewrite (proj2 (Rltb_false th 1)) by exact Ht; reflexivity).
  destruct (split h th) as [Hr|[(H1 & H2 & H3)|(H1 & H2 & H3 & k & H4 & H5)]].
  - rewrite measure_raises in H by exact Hr. discriminate.
  - rewrite measure_zero in H by assumption. injection H as <-. left. split; [reflexivity|]. intros i Hi. rewrite Ef in H3. pose proof (energy_desc h 0 (S i) ltac:(lia)). lra.
  - rewrite (measure_char ls cf h fs decay th false k) in H by assumption. destruct k as [|k]; [discriminate|]. cbn [Nat.eqb] in H.
    assert (Pos : forall i, (i <= S k)%nat -> 0 < energy_after h i) by (intros i Hi; rewrite <- Ef; pose proof (eff_desc h th i (S k) Hi); lra).
    apply (rest_est ls cf _ fs decay lo hi T Hls Hf ltac:(lra)) in H; [|apply lv_seq_desc; exact H4|].
    + rewrite map_length, seq_length in H. destruct H as [[-> H]|[s (B & P & ->)]].
      * left. split; [reflexivity|]. intros i Hi. assert (Hik : (i < S k)%nat) by (destruct (Nat.lt_ge_cases i (S k)) as [|G]; [assumption|]; specialize (H5 (S i) ltac:(lia)); rewrite Ef in H5; lra).
        specialize (H i Hik). rewrite lv_seq in H by exact Hik. rewrite lv_level in H; auto. apply Pos. lia.
      * right. assert (0 < lo * fs) by (apply Rmult_lt_0_compat; lra). unfold Rdiv. split; apply Rmult_le_compat_l; try lra; apply Rinv_le_contravar; lra.
    + rewrite map_length, seq_length. intros i Hi. rewrite !lv_seq by lia. rewrite !lv_level by (auto; apply Pos; lia). apply Hh. apply Pos. lia.
Qed.
(** it is never negative, and zero only if the energy does not fall by 5 dB before the last sample; *)
Theorem C107_nonneg : forall ls cf h fs decay th T, is_lstsq ls -> 0 < fs -> measure_rt60 ls cf h fs decay th false = Est T ->
  0 <= T /\ (1 <= th -> T = 0 -> forall i, 0 < energy_after h (S i) -> -5 <= level h i).
Proof.
  intros ls cf h fs decay th T Hls Hf H.
  destruct (split h th) as [Hr|[(H1 & H2 & H3)|(H1 & H2 & H3 & k & H4 & H5)]].
  - rewrite measure_raises in H by exact Hr. discriminate.
  - rewrite measure_zero in H by assumption. injection H as <-. split; [lra|]. intros Ht _ i Hi. unfold eff in H3. rewrite (proj2 (Rltb_false th 1)) in H3 by exact Ht. pose proof (energy_desc h 0 (S i) ltac:(lia)). lra.
  - rewrite (measure_char ls cf h fs decay th false k) in H by assumption. destruct k as [|k]; [discriminate|]. cbn [Nat.eqb] in H.
    set (db := map (lv h th) (seq 0 (S k))) in *.
    apply (rest_est ls cf _ fs decay 0 (- list_min db) T Hls Hf ltac:(lra)) in H; [|apply lv_seq_desc; exact H4|].
    + destruct H as [[-> H]|[s (B & P & ->)]].
      * split; [lra|]. intros Ht _ i Hi.
        assert (Ef : forall i, eff h th i = energy_after h i) by (intros n; unfold eff; rewrite (proj2 (Rltb_false th 1)) by exact Ht; reflexivity).
        assert (Hik : (i < S k)%nat) by (destruct (Nat.lt_ge_cases i (S k)) as [|G]; [assumption|]; specialize (H5 (S i) ltac:(lia)); rewrite Ef in H5; lra).
        unfold db in H. rewrite map_length, seq_length in H. specialize (H i Hik). rewrite lv_seq in H by exact Hik. rewrite lv_level in H; auto. rewrite <- Ef. pose proof (eff_desc h th i (S k) ltac:(lia)). lra.
      * split; [left; apply Rdiv_lt_0_compat; lra|]. intros _ Z. exfalso. assert (0 < 60 / s) by (apply Rdiv_lt_0_compat; lra). lra.
    + intros i Hi _. assert (D : nth (S i) db 0 <= nth i db 0) by (apply lv_seq_desc; [exact H4|]; fold db; lia).
      assert (M : list_min db <= nth (S i) db 0) by (apply list_min_le, nth_In; exact Hi).
      assert (U : nth i db 0 <= nth 0 db 0) by (apply lv_seq_desc; [exact H4|]; fold db; lia).
      assert (Z0 : nth 0 db 0 = 0) by (unfold db; cbn [seq map nth]; unfold lv; lra). lra.
Qed.
(** ** Exponential decays *)
(** the geometric response A r^n, its last sample holding the energy of all that would follow *)
Definition geometric (A r : R) (n : nat) : list R := map (fun i => A * r ^ i) (seq 0 n) ++ [A * r ^ n / sqrt (1 - r * r)].
Lemma geometric_cons : forall A r n, geometric A r (S n) = A :: geometric (A * r) r n.
Proof.
  intros A r n. unfold geometric. cbn [seq map app]. f_equal; [cbn; ring|]. f_equal.
  - rewrite <- seq_shift, map_map. apply map_ext. intros i. cbn. ring.
  - f_equal. cbn [pow]. unfold Rdiv. ring.
Qed.
Lemma geometric_energy : forall A r n i, 0 < r < 1 -> (i <= n)%nat -> energy_after (geometric A r n) i = A * A * (r ^ i * r ^ i) / (1 - r * r).
Proof.
  intros A r n i Hr. assert (Hs : 0 < 1 - r * r) by nra. revert A i. induction n as [|n IH]; intros A i Hi.
  - assert (i = 0)%nat by lia. subst i. unfold geometric, energy_after. cbn [seq map app skipn]. rewrite rcons, rnil. cbn [pow]. unfold Rdiv.
    replace (A * 1 * / sqrt (1 - r * r) * (A * 1 * / sqrt (1 - r * r))) with (A * A * / (sqrt (1 - r * r) * sqrt (1 - r * r))) by (field; apply Rgt_not_eq, sqrt_lt_R0; exact Hs).
    rewrite sqrt_sqrt by lra. ring.
  - rewrite geometric_cons. destruct i as [|i].
    + specialize (IH (A * r) 0%nat ltac:(lia)). unfold energy_after in *. cbn [skipn map] in *. rewrite rcons, IH. cbn [pow]. field. lra.
    + change (energy_after (A :: geometric (A * r) r n) (S i)) with (energy_after (geometric (A * r) r n) i). rewrite IH by lia. cbn [pow]. field. lra.
Qed.
Lemma geometric_out : forall A r n i, (n < i)%nat -> energy_after (geometric A r n) i = 0.
Proof. intros A r n i H. apply energy_out. unfold geometric. rewrite app_length, map_length, seq_length. cbn. lia. Qed.
(** the drop per sample in dB *)
Definition drop (r : R) : R := - 20 * (ln r / ln 10).
Lemma geometric_lv : forall A r n i, A <> 0 -> 0 < r < 1 -> (i <= n)%nat -> lv (geometric A r n) 1 i = - drop r * INR i.
Proof.
  intros A r n i HA Hr Hi. assert (Hs : 0 < 1 - r * r) by nra. assert (0 < A * A) by nra.
  unfold lv, eff, log10, drop. rewrite (proj2 (Rltb_false 1 1)) by lra. rewrite !geometric_energy by (auto; lia). cbn [pow].
  assert (Pp : forall m, 0 < r ^ m) by (intros m; apply pow_lt; lra).
  assert (Q : forall x, 0 < x -> ln (A * A * (x * x) / (1 - r * r)) = ln (A * A) + 2 * ln x - ln (1 - r * r)).
  { intros x Hx. assert (0 < x * x) by nra. unfold Rdiv. rewrite (ln_mult (A * A * (x * x))); [|now apply Rmult_lt_0_compat|now apply Rinv_0_lt_compat].
    rewrite (ln_mult (A * A)), (ln_mult x), ln_Rinv by assumption. ring. }
  rewrite !Q by (auto; lra). rewrite ln_pow by lra. rewrite ln_1. unfold Rdiv. ring.
Qed.
(** a fit in the linear domain to an exact exponential *)
Lemma fit_linear : forall ls cf ds fs d, is_fit cf -> 0 < fs -> 0 < d -> (2 <= length ds)%nat -> (forall i, (i < length ds)%nat -> nth i ds 0 = nth 0 ds 0 - d * INR i) ->
  fit_exp ls cf ds fs (-60) true = Est (60 / (d * fs)).
Proof.
  intros ls cf ds fs d Hcf Hf Hd Hn H. destruct ds as [|d0 ds]; [cbn in Hn; lia|]. set (l := d0 :: ds) in *.
  set (y := map (fun x => Rpower 10 (x / 10)) (from0 l)).
  assert (E : fit_exp ls cf l fs (-60) true = let p := cf (times (length l) fs) y (fst (ls (times (length l) fs) (from0 l)) / (10 * log10 (exp 1))) (Rpower 10 (snd (ls (times (length l) fs) (from0 l)) / 10)) in
     if Req_EM_T (fst p) 0 then Infinite else Est (-60 / 10 * ln 10 / fst p)) by (unfold fit_exp, l, y, times, from0; rewrite !map_length; reflexivity).
  rewrite E. clear E. cbv zeta. set (a0 := _ / (10 * log10 (exp 1))). set (b0 := Rpower 10 _). pose proof ln10_p as L10.
  set (al := - (d * fs * ln 10 / 10)).
  assert (Yl : length y = length l) by (unfold y; now rewrite map_length, from0_length).
  assert (Yn : forall i, (i < length l)%nat -> nth i (combine (times (length l) fs) y) (0, 0) = (INR i / fs, exp (al * (INR i / fs)))).
  { intros i Hi. rewrite combine_nth by (now rewrite times_length). f_equal; [unfold times; now rewrite (nth_map_seq (fun j => INR j / fs)) by exact Hi|].
    unfold y. rewrite (nth_indep _ 0 (Rpower 10 (0 / 10))) by (now rewrite map_length, from0_length). rewrite (map_nth (fun x => Rpower 10 (x / 10))). unfold from0.
    rewrite (nth_indep _ 0 (0 - nth 0 l 0)) by (now rewrite map_length). rewrite (map_nth (fun x => x - nth 0 l 0)). rewrite H by exact Hi. unfold Rpower. f_equal. unfold al. field. lra. }
  pose proof (Hcf (times (length l) fs) y a0 b0) as W. cbv zeta in W. set (p := cf _ y a0 b0) in *.
  assert (Z : exists a b, through (times (length l) fs) y a b).
  { exists al, 1. intros q Hq. destruct (In_nth _ _ (0, 0) Hq) as [i [Hi <-]]. rewrite combine_length, times_length, Yl in Hi. rewrite Yn by lia. cbn [fst snd]. ring. }
  specialize (W Z). unfold through in W.
  assert (W' : forall i, (i < length l)%nat -> snd p * exp (fst p * (INR i / fs)) = exp (al * (INR i / fs))).
  { intros i Hi. specialize (W (nth i (combine (times (length l) fs) y) (0, 0))). rewrite Yn in W by exact Hi. cbn [fst snd] in W.
    assert (In (INR i / fs, exp (al * (INR i / fs))) (combine (times (length l) fs) y)) by (rewrite <- (Yn i Hi); apply nth_In; rewrite combine_length, times_length, Yl; lia). specialize (W H0). lra. }
  pose proof (W' 0%nat ltac:(lia)) as W0. pose proof (W' 1%nat ltac:(lia)) as W1. cbn [INR] in W0, W1.
  replace (fst p * (0 / fs)) with 0 in W0 by (field; lra). replace (al * (0 / fs)) with 0 in W0 by (field; lra). rewrite exp_0 in W0.
  assert (Sp : snd p = 1) by lra. rewrite Sp, Rmult_1_l in W1. apply exp_inv in W1.
  assert (Fp : fst p = al) by (apply (Rmult_eq_reg_r (1 / fs)); [exact W1|apply Rgt_not_eq, Rdiv_lt_0_compat; lra]).
  rewrite Fp. assert (al < 0) by (unfold al; assert (0 < d * fs * ln 10 / 10) by (apply Rdiv_lt_0_compat; [repeat apply Rmult_lt_0_compat; lra|lra]); lra).
  destruct (Req_EM_T al 0); [lra|]. f_equal. unfold al. field. repeat split; lra.
Qed.
(** C107.  For a geometric decay, in either domain, it is exactly the time that 60 dB take, if two
    samples are below -5 dB and the decay asked for is at least that of one sample. *)
Theorem C107_exact : forall ls cf A r n fs decay lin, is_lstsq ls -> (lin = true -> is_fit cf) -> 0 < fs -> A <> 0 -> 0 < r < 1 ->
  5 < drop r * (INR n - 2) -> drop r <= decay ->
  measure_rt60 ls cf (geometric A r n) fs decay 1 lin = Est (60 / (drop r * fs)).
Proof.
  intros ls cf A r n fs decay lin Hls Hcf Hf HA Hr Hn Hdec. set (d := drop r) in *. pose proof ln10_p as L10.
  assert (Hd : 0 < d). { unfold d, drop. assert (ln r < 0) by (rewrite <- ln_1; apply ln_increasing; lra). assert (0 < - ln r / ln 10) by (apply Rdiv_lt_0_compat; lra). unfold Rdiv in *. lra. }
  assert (Hn2 : (2 < n)%nat). { apply INR_lt. cbn [INR]. nra. }
  assert (Hs : 0 < 1 - r * r) by nra. assert (0 < A * A) by nra. assert (Pp : forall m, 0 < r ^ m) by (intros m; apply pow_lt; lra).
  assert (Ef : forall i, eff (geometric A r n) 1 i = energy_after (geometric A r n) i) by (intros i; unfold eff; rewrite (proj2 (Rltb_false 1 1)) by lra; reflexivity).
  rewrite (measure_char ls cf _ fs decay 1 lin n); [|left; lra|rewrite Ef, geometric_energy by (auto; lia); apply Rdiv_lt_0_compat; [|lra]; apply Rmult_lt_0_compat; [assumption|apply Rmult_lt_0_compat; auto]|intros j Hj; rewrite Ef; now apply geometric_out].
  destruct (Nat.eqb_spec n 0); [lia|].
  set (db := map _ _). assert (Ld : length db = n) by (unfold db; now rewrite map_length, seq_length).
  assert (Nd : forall i, (i < n)%nat -> nth i db 0 = - d * INR i) by (intros i Hi; unfold db; rewrite lv_seq by exact Hi; apply geometric_lv; auto; lia).
  unfold rest. cbv zeta. set (m := - list_min db).
  assert (Hm : d <= m).
  { unfold m. assert (list_min db <= nth 1 db 0) by (apply list_min_le, nth_In; lia). rewrite Nd in H0 by lia. cbn [INR] in H0. lra. }
  destruct (first_below_spec db (-5)) as [[_ G]|[i (E & G1 & G2 & G3)]].
  { specialize (G (n - 2)%nat ltac:(lia)). rewrite Nd in G by lia. rewrite minus_INR in G by lia. cbn [INR] in G. lra. }
  rewrite E. set (dd := if Rltb (m - 5) decay then m else decay). assert (Hdd : d <= dd) by (unfold dd; destruct (Rltb _ _); lra).
  assert (Hi : (i + 2 <= n)%nat).
  { destruct (Nat.le_gt_cases (i + 2) n) as [|G]; [assumption|]. specialize (G3 (n - 2)%nat ltac:(lia)). rewrite Nd in G3 by lia. rewrite minus_INR in G3 by lia. cbn [INR] in G3. lra. }
  set (j := match first_below db (nth i db 0 - dd) with Some j => j | None => length db end).
  assert (Hj : (i + 2 <= j <= n)%nat).
  { unfold j. destruct (first_below_spec db (nth i db 0 - dd)) as [[-> _]|[k (-> & K1 & K2 & K3)]]; [lia|]. rewrite Ld in K1. split; [|lia].
    rewrite !Nd in K2 by lia. apply INR_le. rewrite plus_INR. cbn [INR].
    assert (INR i + 1 < INR k) by nra. assert (Q : INR (i + 1) < INR k) by (rewrite plus_INR; cbn [INR]; lra). apply INR_lt in Q. assert (Q2 : (i + 2 <= k)%nat) by lia. apply le_INR in Q2. rewrite plus_INR in Q2. cbn [INR] in Q2. lra. }
  set (seg := skipn i (firstn j db)). assert (L : length seg = (j - i)%nat) by (unfold seg; rewrite skipn_length, firstn_length; lia).
  assert (N : forall q, (q < length seg)%nat -> nth q seg 0 = - d * INR (i + q)) by (intros q Hq; unfold seg; rewrite nth_skipn, nth_firstn by lia; apply Nd; lia).
  destruct lin.
  - apply fit_linear; auto; [lia|]. intros q Hq. rewrite !N by lia. rewrite !plus_INR. cbn [INR]. ring.
  - rewrite fit_exp_log by (intros Z; rewrite Z in L; cbn in L; lia). cbv zeta.
    pose proof (fit_bounds ls seg fs d d Hls Hf ltac:(lia)) as B. set (p := fst _) in *.
    assert (P : p = - (d * fs)). { assert (d * fs <= - p <= d * fs); [|lra]. apply B. intros q Hq. rewrite !N by lia. rewrite !plus_INR, S_INR. lra. }
    rewrite P. assert (0 < d * fs) by (apply Rmult_lt_0_compat; lra). destruct (Req_EM_T (- (d * fs)) 0); [lra|]. f_equal. field. split; lra.
Qed.

(** The assumption on the regression can be met: with its formula. *)
Definition line (t d : list R) : R * R :=
  let l := combine t d in let v := cov (map (fun p => (fst p, fst p)) l) in let n := INR (length l) in let m := Rsum (map snd l) in
  if Req_EM_T v 0 then
    if Req_EM_T n 0 then (0, 0) else let u := Rsum (map fst l) / n in (m / n * u / (u * u + 1), m / n / (u * u + 1))
  else (cov l / v, (m - cov l / v * Rsum (map fst l)) / n).
Lemma residual_split : forall l a b a' b', Rsum (map (fun p => (a' * fst p + b' - snd p) * (a' * fst p + b' - snd p)) l) =
  Rsum (map (fun p => (a * fst p + b - snd p) * (a * fst p + b - snd p)) l) + Rsum (map (fun p => ((a' - a) * fst p + (b' - b)) * ((a' - a) * fst p + (b' - b))) l) +
  2 * (a' - a) * Rsum (map (fun p : R * R => (a * fst p + b - snd p) * fst p) l) + 2 * (b' - b) * Rsum (map (fun p : R * R => a * fst p + b - snd p) l).
Proof. intros l a b a' b'. induction l as [|x l IH]; cbn [map]; [rewrite !rnil; ring|]. rewrite !rcons, IH. ring. Qed.
Lemma var_zero : forall l : list (R * R), cov (map (fun p => (fst p, fst p)) l) = 0 -> forall x y, In x l -> In y l -> fst x = fst y.
Proof.
  assert (P : forall l : list (R * R), 0 <= cov (map (fun p => (fst p, fst p)) l)).
  { induction l as [|x l IH]; [unfold cov; cbn; lra|]. cbn [map]. rewrite cov_cons, map_map. cbn [fst snd]. pose proof (sum_sq (fun y : R * R => fst y - fst x) l). lra. }
  assert (Z : forall (f : R * R -> R) l, Rsum (map (fun y => f y * f y) l) = 0 -> forall y, In y l -> f y = 0).
  { intros f. induction l as [|z l IH]; intros H y Hy; [destruct Hy|]. cbn [map] in H. rewrite rcons in H. pose proof (sum_sq f l). pose proof (Rle_0_sqr (f z)) as Q. unfold Rsqr in Q.
    destruct Hy as [<-|Hy]; [nra|]. apply IH; [lra|exact Hy]. }
  intros l. induction l as [|z l IH]; intros H x y Hx Hy; [destruct Hx|]. cbn [map] in H. rewrite cov_cons, map_map in H. cbn [fst snd] in H.
  pose proof (sum_sq (fun y : R * R => fst y - fst z) l) as S. pose proof (P l) as Pl. specialize (IH ltac:(lra)).
  assert (Q : forall w, In w l -> fst w = fst z). { intros w Hw. pose proof (Z (fun y => fst y - fst z) l ltac:(lra) w Hw). cbn beta in H0. lra. }
  destruct Hx as [<-|Hx], Hy as [<-|Hy]; try reflexivity; try (symmetry; now apply Q); try (now apply Q); now apply IH.
Qed.
Lemma sum_expand : forall x y (l : list (R * R)), Rsum (map (fun p => (x * fst p + y) * (x * fst p + y)) l) = x * x * Rsum (map (fun p => fst p * fst p) l) + 2 * x * y * Rsum (map fst l) + y * y * INR (length l).
Proof. intros x y l. induction l as [|z l IH]; cbn [map length]; [rewrite !rnil; cbn; ring|]. rewrite !rcons, S_INR, IH. ring. Qed.
Lemma some_lstsq : is_lstsq line.
Proof.
  intros t d Hl a b. unfold residual. set (l := combine t d). set (A := fst (line t d)). set (B := snd (line t d)).
  assert (E1 : forall a b, Rsum (map (fun p => (a * fst p + b - snd p) * fst p) l) = a * Rsum (map (fun p => fst p * fst p) l) + b * Rsum (map fst l) - Rsum (map (fun p => fst p * snd p) l)).
  { intros. clear. induction l as [|x l IH]; cbn [map]; [rewrite !rnil; ring|]. rewrite !rcons, IH. ring. }
  assert (E2 : forall a b, Rsum (map (fun p => a * fst p + b - snd p) l) = a * Rsum (map fst l) + b * INR (length l) - Rsum (map snd l)).
  { intros. clear. induction l as [|x l IH]; cbn [map length]; [rewrite !rnil; cbn; ring|]. rewrite !rcons, IH, S_INR. ring. }
  rewrite (residual_split l A B a b), E1, E2. pose proof (sum_sq (fun p : R * R => (a - A) * fst p + (b - B)) l) as Sq.
  assert (V : cov (map (fun p => (fst p, fst p)) l) = INR (length l) * Rsum (map (fun p => fst p * fst p) l) - Rsum (map fst l) * Rsum (map fst l)).
  { unfold cov. rewrite map_length, !map_map. reflexivity. }
  assert (C : cov l = INR (length l) * Rsum (map (fun p => fst p * snd p) l) - Rsum (map fst l) * Rsum (map snd l)) by reflexivity.
  unfold line in A, B. fold l in A, B. cbv zeta in A, B. set (v := cov (map (fun p => (fst p, fst p)) l)) in *.
  set (n := INR (length l)) in *. set (T := Rsum (map fst l)) in *. set (D := Rsum (map snd l)) in *.
  set (TT := Rsum (map (fun p => fst p * fst p) l)) in *. set (TD := Rsum (map (fun p => fst p * snd p) l)) in *.
  destruct (Req_EM_T v 0) as [Zv|Zv].
  - assert (Cs : l = [] \/ exists x, In x l) by (destruct l as [|x l']; [now left|right; exists x; now left]). destruct Cs as [El|[x Hx]].
    + assert (Zn : n = 0) by (unfold n; now rewrite El). destruct (Req_EM_T n 0); [|congruence]. cbn [fst snd] in A, B.
      assert (T = 0) by (unfold T; now rewrite El). assert (D = 0) by (unfold D; now rewrite El). assert (TT = 0) by (unfold TT; now rewrite El). assert (TD = 0) by (unfold TD; now rewrite El).
      unfold A, B in *. rewrite H, H0, H1, H2, Zn in *. split; [nra|]. intros _. nra.
    + assert (Pn : 0 < n) by (unfold n; apply lt_0_INR; destruct l; [destruct Hx|cbn; lia]). destruct (Req_EM_T n 0); [lra|]. cbn [fst snd] in A, B.
      set (u := fst x). assert (Ux : forall y, In y l -> fst y = u) by (intros y Hy; apply (var_zero l Zv); assumption).
      assert (Kc : forall (f : R) (k : list (R * R)), Rsum (map (fun _ => f) k) = INR (length k) * f) by (intros f k; induction k as [|z k IH]; [cbn; ring|]; cbn [map length]; rewrite rcons, IH, S_INR; ring).
      assert (ET : T = n * u) by (unfold T, n; rewrite (Rsum_map_ext fst (fun _ => u)) by (intros; now apply Ux); apply Kc).
      assert (ETT : TT = n * (u * u)) by (unfold TT, n; rewrite (Rsum_map_ext _ (fun _ => u * u)) by (intros y Hy; now rewrite (Ux y Hy)); apply Kc).
      assert (ETD : TD = u * D) by (unfold TD, D; rewrite (Rsum_map_ext _ (fun p => u * snd p)) by (intros y Hy; now rewrite (Ux y Hy)); apply Rsum_map_scal).
      assert (Eu : T / n = u) by (rewrite ET; field; lra). unfold A, B in *. rewrite Eu in *.
      assert (Pu : 0 < u * u + 1) by nra. set (m := D / n) in *. assert (ED : D = n * m) by (unfold m; field; lra).
      set (k := m / (u * u + 1)). replace (m * u / (u * u + 1)) with (k * u) in * by (unfold k; field; lra). fold k in Sq |- *. assert (Em : m = k * (u * u + 1)) by (unfold k; field; lra).
      assert (ES : Rsum (map (fun p => ((a - k * u) * fst p + (b - k)) * ((a - k * u) * fst p + (b - k))) l) = n * ((a * u + b - m) * (a * u + b - m))).
      { rewrite (Rsum_map_ext _ (fun _ => (a * u + b - m) * (a * u + b - m))) by (intros y Hy; rewrite (Ux y Hy), Em; ring). unfold n. apply Kc. }
      replace (k * u * TT + k * T - TD) with 0 by (rewrite ETT, ET, ETD, ED, Em; ring). replace (k * u * T + k * n - D) with 0 by (rewrite ET, ED, Em; ring).
      split; [lra|]. intros Q. assert (Q0 : n * ((a * u + b - m) * (a * u + b - m)) = 0) by (rewrite <- ES; lra).
      assert (Q1 : a * u + b = m) by (assert ((a * u + b - m) * (a * u + b - m) = 0) by nra; nra).
      assert (0 <= (a - k * u) * (a - k * u) + (b - k) * (b - k)) by (apply Rplus_le_le_0_compat; apply Rle_0_sqr).
      assert (Q2 : k * u * (a - k * u) + k * (b - k) = 0) by (replace (k * u * (a - k * u) + k * (b - k)) with (k * ((a * u + b) - k * (u * u + 1))) by ring; rewrite Q1, Em; ring). nra.
  - cbn [fst snd] in A, B. assert (Zn : n <> 0) by (intros Zn; apply Zv; rewrite V, Zn; unfold T; destruct l; [cbn; ring|exfalso; unfold n in Zn; cbn [length] in Zn; pose proof (pos_INR (length l)); rewrite S_INR in Zn; lra]).
    assert (N2 : A * T + B * n - D = 0) by (unfold A, B; field; split; assumption).
    assert (N1 : A * TT + B * T - TD = 0).
    { apply (Rmult_eq_reg_l n); [|exact Zn]. rewrite Rmult_0_r. replace (n * (A * TT + B * T - TD)) with (A * (n * TT - T * T) - (n * TD - T * D) + T * (A * T + B * n - D)) by ring. rewrite <- V, <- C, N2. unfold A. field. exact Zv. }
    rewrite N1, N2. split; [lra|]. intros Q. assert (Q0 : Rsum (map (fun p => ((a - A) * fst p + (b - B)) * ((a - A) * fst p + (b - B))) l) = 0) by lra.
    assert (Q1 : (a - A) * (a - A) * TT + 2 * (a - A) * (b - B) * T + (b - B) * (b - B) * n = 0).
    { rewrite <- Q0. unfold TT, T, n. symmetry. apply sum_expand. }
    assert (Pn : 0 < n) by (unfold n in *; pose proof (pos_INR (length l)); lra).
    assert (Pv : 0 < v). { assert (0 <= v); [|lra]. unfold v. clear. induction l as [|x l IH]; [unfold cov; cbn; lra|]. cbn [map]. rewrite cov_cons, map_map. cbn [fst snd]. pose proof (sum_sq (fun y : R * R => fst y - fst x) l). lra. }
    assert (Q2 : (a - A) * (a - A) * v + (n * (b - B) + T * (a - A)) * (n * (b - B) + T * (a - A)) = 0) by (rewrite V; replace 0 with (n * 0) by ring; rewrite <- Q1; ring).
    assert (a - A = 0) by (pose proof (Rle_0_sqr (n * (b - B) + T * (a - A))) as S1; unfold Rsqr in S1; assert (S2 : 0 <= (a - A) * (a - A)) by apply Rle_0_sqr; assert ((a - A) * (a - A) = 0) by nra; nra).
    assert (b - B = 0). { rewrite H in Q1. assert ((b - B) * (b - B) * n = 0) by lra. assert ((b - B) * (b - B) = 0) by nra. nra. }
    right. replace a with A by lra. replace b with B by lra. reflexivity.
Qed.

(** ** Findings and an example *)
(** A response with a single sample at the start raises. *)
Theorem C107_impulse_refuted : exists h, h <> [] /\ 0 < energy_after h 0 /\ forall ls cf fs decay th lin, 1 <= th -> measure_rt60 ls cf h fs decay th lin = Raises.
Proof.
  exists [1]. split; [discriminate|]. split; [unfold energy_after; cbn; lra|]. intros ls cf fs decay th lin Ht.
  rewrite (measure_char ls cf [1] fs decay th lin 0); [reflexivity|now left| |]; unfold eff; rewrite ?(proj2 (Rltb_false th 1)) by exact Ht; [unfold energy_after; cbn; lra|]. intros j Hj. apply energy_out. cbn. lia.
Qed.
(** The last sample with energy is always left out: a response that falls by 10 dB is given the time 0, *)
Theorem C107_last_refuted : exists h, level h 1 < -5 /\ forall ls cf fs decay th lin, 1 <= th -> measure_rt60 ls cf h fs decay th lin = Est 0.
Proof.
  exists [3; 1]. pose proof ln10_p as L10. split.
  { unfold level, energy_after. cbn [skipn map]. rewrite !rcons, !rnil. replace ((1 * 1 + 0) / (3 * 3 + (1 * 1 + 0))) with (/ 10) by field. rewrite ln_Rinv by lra. replace (- ln 10 / ln 10) with (-1) by (field; lra). lra. }
  intros ls cf fs decay th lin Ht. assert (Ef : forall i, eff [3; 1] th i = energy_after [3; 1] i) by (intros i; unfold eff; rewrite (proj2 (Rltb_false th 1)) by exact Ht; reflexivity).
  rewrite (measure_char ls cf [3; 1] fs decay th lin 1); [|now left|rewrite Ef; unfold energy_after; cbn; lra|intros j Hj; rewrite Ef; apply energy_out; cbn; lia].
  cbn [Nat.eqb seq map]. unfold rest. rewrite first_below_none; [reflexivity|]. intros i Hi. cbn [length] in Hi. assert (i = 0)%nat by lia. subst i. cbn [nth]. unfold lv. lra.
Qed.
(** and for one that falls by 20 dB and then by 10 dB more the code divides by zero. *)
Theorem C107_infinite_refuted : exists h, level h 1 < -5 /\ level h 2 < level h 1 /\ forall ls cf fs decay th, is_lstsq ls -> 0 < decay -> 1 <= th -> measure_rt60 ls cf h fs decay th false = Infinite.
Proof.
  exists [3 * 10; 3; 1]. pose proof ln10_p as L10.
  assert (E0 : energy_after [3 * 10; 3; 1] 0 = 910) by (unfold energy_after; cbn [skipn map]; rewrite !rcons, !rnil; ring).
  assert (E1 : energy_after [3 * 10; 3; 1] 1 = 10) by (unfold energy_after; cbn [skipn map]; rewrite !rcons, !rnil; ring).
  assert (E2 : energy_after [3 * 10; 3; 1] 2 = 1) by (unfold energy_after; cbn [skipn map]; rewrite !rcons, !rnil; ring).
  assert (L1 : level [3 * 10; 3; 1] 1 < -5).
  { unfold level. rewrite E0, E1. replace (10 / 910) with (/ 91) by field. rewrite ln_Rinv by lra. assert (ln 10 < ln 91) by (apply ln_increasing; lra). assert (1 < ln 91 / ln 10) by (apply (Rmult_lt_reg_r (ln 10)); [lra|]; unfold Rdiv; rewrite Rmult_assoc, Rinv_l by lra; lra). unfold Rdiv in *. lra. }
  split; [exact L1|]. split.
  { unfold level. rewrite E0, E1, E2. apply Rmult_lt_compat_l; [lra|]. unfold Rdiv. apply Rmult_lt_compat_r; [now apply Rinv_0_lt_compat|]. apply ln_increasing; lra. }
  intros ls cf fs decay th Hls Hdec Ht. assert (Ef : forall i, eff [3 * 10; 3; 1] th i = energy_after [3 * 10; 3; 1] i) by (intros i; unfold eff; rewrite (proj2 (Rltb_false th 1)) by exact Ht; reflexivity).
  rewrite (measure_char ls cf [3 * 10; 3; 1] fs decay th false 2); [|now left|rewrite Ef, E2; lra|intros j Hj; rewrite Ef; apply energy_out; cbn; lia].
  cbn [Nat.eqb]. assert (Hl1 : lv [3 * 10; 3; 1] th 1 < -5) by (rewrite lv_level; auto; rewrite E1; lra).
  assert (Hl0 : lv [3 * 10; 3; 1] th 0 = 0) by (unfold lv; lra).
  cbn [seq map]. rewrite Hl0. set (x := lv [3 * 10; 3; 1] th 1) in *. unfold rest. cbv zeta.
  assert (M : list_min [0; x] = x) by (unfold list_min; cbn; unfold Rmin; destruct (Rle_dec 0 x); lra). rewrite M.
  rewrite (first_below_unique [0; x] (-5) 1); [|cbn; lia|exact Hl1|intros j Hj; assert (j = 0)%nat by lia; subst j; cbn; lra]. cbn [nth].
  rewrite first_below_none; [|intros [|[|i]] Hi; cbn [nth length] in *; try lia; destruct (Rltb (- x - 5) decay); lra].
  cbn [length firstn skipn]. rewrite fit_exp_log by discriminate. cbv zeta. unfold times, from0. cbn [length seq map nth]. rewrite Rminus_diag_eq by reflexivity. rewrite fit_one by exact Hls. destruct (Req_EM_T 0 0); [reflexivity|congruence].
Qed.
(** A response that falls by 20 dB per sample takes three samples for 60 dB. *)
Example C107_ex : forall cf, measure_rt60 line cf (geometric 1 (/ 10) 4) 16000 60 1 false = Est (3 / 16000).
Proof.
  intros cf. pose proof ln10_p as L10. pose proof some_lstsq. assert (D : drop (/ 10) = 20) by (unfold drop; rewrite ln_Rinv by lra; field; lra).
  rewrite C107_exact; rewrite ?D; auto; try discriminate; try lra; [f_equal; field|]. cbn [INR]. lra.
Qed.
Print Assumptions C106_zeros_before.
Print Assumptions C107_exact.
