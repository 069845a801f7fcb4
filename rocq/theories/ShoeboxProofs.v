(** Proofs about the shoebox image source model. *)
From Coq Require Import List ZArith Lia Reals Lra Psatz Bool.
From Verif Require Import Base BaseProofs ShoeboxModel ShoeboxSpec.
Import ListNotations.

(** * The loop enumerates the L1 ball *)

Lemma in_loop_points : forall D n p, (0 <= n)%Z -> D = 2 \/ D = 3 ->
  In p (loop_points D n) <->
  (Z.abs (px p) + Z.abs (py p) + Z.abs (pz p) <= n)%Z /\ (D = 2 -> pz p = 0%Z).
Proof.
  intros D n p Hn HD. unfold loop_points. rewrite in_flat_map. split.
  - intros [z [Hz H]]. apply in_crange in Hz. apply in_flat_map in H.
    destruct H as [y [Hy H]]. apply in_crange in Hy. apply in_map_iff in H.
    destruct H as [x [E Hx]]. apply in_crange in Hx. subst p; simpl.
    destruct (Z.ltb_spec (n - Z.abs z - Z.abs y) 0);
    destruct HD; subst D; simpl in *; lia.
  - intros [H H2]. exists (pz p). split.
    + apply in_crange. destruct HD; subst D; simpl; [|lia].
      rewrite H2; [lia|reflexivity].
    + apply in_flat_map. exists (py p). split; [apply in_crange; lia|].
      apply in_map_iff. exists (px p). split; [destruct p; reflexivity|].
      apply in_crange. destruct (Z.ltb_spec (n - Z.abs (pz p) - Z.abs (py p)) 0); lia.
Qed.

Lemma NoDup_loop_points : forall D n, NoDup (loop_points D n).
Proof.
  intros D n. unfold loop_points. apply NoDup_flat_map.
  - apply NoDup_crange.
  - intros z _. apply NoDup_flat_map.
    + apply NoDup_crange.
    + intros y _. apply NoDup_map_inj; [|apply NoDup_crange].
      intros x x' _ _ E. now inversion E.
    + intros a b x _ _ H1 H2. apply in_map_iff in H1, H2.
      destruct H1 as [? [<- _]], H2 as [? [E _]]. now inversion E.
  - intros a b x _ _ H1 H2. apply in_flat_map in H1, H2.
    destruct H1 as [? [_ H1]], H2 as [? [_ H2]]. apply in_map_iff in H1, H2.
    destruct H1 as [? [<- _]], H2 as [? [E _]]. now inversion E.
Qed.

(** * Counting *)

Definition Zsum (l : list Z) : Z := fold_right Z.add 0%Z l.

Lemma Zsum_app : forall a b, Zsum (a ++ b) = (Zsum a + Zsum b)%Z.
Proof. induction a; simpl; intros; auto. rewrite IHa. lia. Qed.

Lemma Zsum_ext : forall {A} (f g : A -> Z) l,
  (forall a, In a l -> f a = g a) -> Zsum (map f l) = Zsum (map g l).
Proof. induction l; simpl; intros; auto. rewrite H, IHl; auto. Qed.

Lemma length_flat_map : forall {A B} (f : A -> list B) l,
  Z.of_nat (length (flat_map f l)) = Zsum (map (fun a => Z.of_nat (length (f a))) l).
Proof.
  induction l; simpl; auto. rewrite app_length, Nat2Z.inj_add, IHl. reflexivity.
Qed.

Lemma crange_snoc : forall lo hi, (lo <= hi)%Z -> crange lo hi = crange lo (hi - 1) ++ [hi].
Proof.
  intros lo hi H. unfold crange.
  replace (Z.to_nat (hi - lo + 1)) with (S (Z.to_nat (hi - 1 - lo + 1))) by lia.
  rewrite seq_S, map_app. simpl. repeat f_equal. lia.
Qed.

Lemma crange_cons : forall lo hi, (lo <= hi)%Z -> crange lo hi = lo :: crange (lo + 1) hi.
Proof.
  intros lo hi H. unfold crange.
  replace (Z.to_nat (hi - lo + 1)) with (S (Z.to_nat (hi - (lo + 1) + 1))) by lia.
  simpl. f_equal; [lia|]. rewrite <- seq_shift, map_map.
  apply map_ext. intros; lia.
Qed.

(** Sum over a symmetric range of a function of the height below the top. *)
Lemma Zsum_pyramid : forall (f : Z -> Z) (F : Z -> Z),
  F 0%Z = 0%Z -> (forall m, (0 <= m)%Z -> F (m + 1) = F m + f m)%Z ->
  forall n, (0 <= n)%Z ->
  Zsum (map (fun z => f (n - Z.abs z)%Z) (crange (- n) n)) = (2 * F n + f n)%Z.
Proof.
  intros f F F0 FS n Hn.
  assert (Hgen : forall k, (0 <= k <= n)%Z ->
     Zsum (map (fun z => f (n - Z.abs z)%Z) (crange (- k) k))
     = (2 * (F n - F (n - k)) + f n)%Z).
  { intros k [Hk Hkn]. revert Hkn. pattern k. revert k Hk.
    apply Zlt_0_ind. intros k IH Hk0' Hkn. destruct (Z.eq_dec k 0) as [->|Hk0].
      + change (crange (- 0) 0) with [0%Z]. cbn [map Zsum fold_right].
        change (Z.abs 0) with 0%Z. rewrite !Z.sub_0_r. lia.
      + rewrite crange_snoc by lia. rewrite crange_cons by lia.
        replace (- k + 1)%Z with (- (k - 1))%Z by lia.
        rewrite map_app. cbn [map app Zsum fold_right].
        fold (Zsum (map (fun z => f (n - Z.abs z)%Z) (crange (- (k - 1)) (k - 1)) ++ [f (n - Z.abs k)%Z])).
        rewrite Zsum_app. rewrite IH by lia. cbn [Zsum fold_right].
        replace (n - (k - 1))%Z with (n - k + 1)%Z by lia.
        rewrite FS by lia.
        replace (n - Z.abs (- k))%Z with (n - k)%Z by lia.
        replace (n - Z.abs k)%Z with (n - k)%Z by lia. lia. }
  rewrite Hgen by lia. replace (n - n)%Z with 0%Z by lia. lia.
Qed.

Lemma slice_count : forall m, (0 <= m)%Z -> forall z,
  Z.of_nat (length (flat_map (fun y =>
      let x_max := (m - Z.abs y)%Z in
      let x_max := if (x_max <? 0)%Z then 0%Z else x_max in
      map (fun x => mkpt x y z) (crange (- x_max) x_max))
    (crange (- m) m))) = (1 + 2 * m * (m + 1))%Z.
Proof.
  intros m Hm z. rewrite length_flat_map.
  rewrite (Zsum_ext _ (fun y => (fun h => 2 * h + 1) (m - Z.abs y))%Z).
  - rewrite (Zsum_pyramid (fun h => 2 * h + 1)%Z (fun h => h * h)%Z); lia.
  - intros y Hy. apply in_crange in Hy. cbv zeta.
    rewrite map_length, length_crange.
    destruct (Z.ltb_spec (m - Z.abs y) 0); lia.
Qed.

Lemma sum_squares : forall n, exists F : Z -> Z, F 0%Z = 0%Z /\
  (forall m, (0 <= m)%Z -> F (m + 1) = F m + (1 + 2 * m * (m + 1)))%Z /\
  (0 <= n -> 3 * (2 * F n + (1 + 2 * n * (n + 1)))
             = 3 + 2 * n * (2 * (n * n) + 3 * n + 4))%Z.
Proof.
  intros n.
  (* F m = sum_{k<m} (1+2k(k+1)) = (2 m^3 + m)/3 *)
  exists (fun m => ((2 * (m * m * m) + m) / 3)%Z).
  assert (Hdiv : forall m, exists q, (2 * (m * m * m) + m = 3 * q)%Z).
  { intros m. destruct (Z.eq_dec (m mod 3) 0);
    [|destruct (Z.eq_dec (m mod 3) 1)];
    pose proof (Z.div_mod m 3 ltac:(lia)) as E;
    pose proof (Z.mod_pos_bound m 3 ltac:(lia)) as B;
    set (q := (m / 3)%Z) in *.
    - rewrite e, Z.add_0_r in E. rewrite E.
      exists (18 * (q * q * q) + q)%Z. ring.
    - rewrite e in E. rewrite E.
      exists (18 * (q * q * q) + 18 * (q * q) + 7 * q + 1)%Z. ring.
    - assert (m mod 3 = 2)%Z by lia. rewrite H in E. rewrite E.
      exists (18 * (q * q * q) + 36 * (q * q) + 25 * q + 6)%Z. ring. }
  repeat split.
  - intros m Hm. destruct (Hdiv m) as [q Hq], (Hdiv (m + 1)%Z) as [q' Hq'].
    rewrite Hq, Hq'. rewrite !(Z.mul_comm 3), !Z.div_mul by lia.
    assert (3 * q' = 3 * (q + (1 + 2 * m * (m + 1))))%Z by (rewrite <- Hq'; lia). lia.
  - intros Hn. destruct (Hdiv n) as [q Hq]. rewrite Hq.
    rewrite (Z.mul_comm 3 q), Z.div_mul by lia. lia.
Qed.

Lemma loop_count : forall D n, (0 <= n)%Z -> D = 2 \/ D = 3 ->
  Z.of_nat (length (loop_points D n)) = n_image_sources D n.
Proof.
  intros D n Hn HD. unfold loop_points, n_image_sources. rewrite length_flat_map.
  destruct HD; subst D; cbv [Nat.eqb].
  - change (crange (- 0) 0) with [0%Z]. cbn [map Zsum fold_right].
    change (Z.abs 0) with 0%Z. rewrite slice_count by lia.
    unfold number_image_sources_2. lia.
  - rewrite (Zsum_ext _ (fun z => (fun m => 1 + 2 * m * (m + 1)) (n - Z.abs z))%Z).
    2:{ intros z Hz. apply in_crange in Hz. apply slice_count. lia. }
    destruct (sum_squares n) as [F [F0 [FS FT]]].
    rewrite (Zsum_pyramid (fun m => 1 + 2 * m * (m + 1))%Z F F0 FS n Hn).
    specialize (FT Hn). unfold number_image_sources_3. cbv zeta.
    set (T := (2 * n * (2 * (n * n) + 3 * n + 4))%Z) in *.
    assert (HT : T = ((2 * F n + (1 + 2 * n * (n + 1)) - 1) * 3)%Z) by lia.
    rewrite HT, Z.div_mul by lia. lia.
Qed.

Lemma number3_exact : forall n, (0 <= n)%Z ->
  (3 * (number_image_sources_3 n - 1) = 2 * n * (2 * n * n + 3 * n + 4))%Z.
Proof.
  intros n Hn. destruct (sum_squares n) as [F [F0 [FS FT]]]. specialize (FT Hn).
  unfold number_image_sources_3; cbv zeta.
  set (T := (2 * n * (2 * (n * n) + 3 * n + 4))%Z) in *.
  assert (HT : T = ((2 * F n + (1 + 2 * n * (n + 1)) - 1) * 3)%Z) by lia.
  replace (2 * n * (2 * n * n + 3 * n + 4))%Z with T by (unfold T; ring).
  rewrite HT at 1. rewrite Z.div_mul by lia. lia.
Qed.

(** * Words and exponents *)

Definition countw (w : wallside) (l : list wallside) : nat :=
  length (filter (fun v => match v, w with Near, Near | Far, Far => true | _, _ => false end) l).

Lemma countw_app : forall w a b, countw w (a ++ b) = countw w a + countw w b.
Proof. intros. unfold countw. now rewrite filter_app, app_length. Qed.

Lemma other_other : forall w, other (other w) = w.
Proof. destruct w; reflexivity. Qed.

Lemma alt_word_length : forall n w, length (alt_word n w) = n.
Proof.
  induction n; simpl; intros; auto. rewrite app_length, IHn. simpl. lia.
Qed.

Lemma countw_alt : forall n w,
  countw w (alt_word n w) = Nat.div2 (S n) /\ countw (other w) (alt_word n w) = Nat.div2 n.
Proof.
  induction n as [|n IH]; intros w; [split; reflexivity|].
  cbn [alt_word]. rewrite !countw_app.
  destruct (IH (other w)) as [H1 H2]. rewrite other_other in H2.
  split.
  - rewrite H2. destruct w; unfold countw at 1; simpl; lia.
  - rewrite H1. destruct w; unfold countw at 1; simpl; lia.
Qed.

Lemma div2_Z : forall n, Z.of_nat (Nat.div2 n) = (Z.of_nat n / 2)%Z.
Proof. intros n. rewrite Nat.div2_div, Nat2Z.inj_div. reflexivity. Qed.

Lemma axis_p1_count : forall i, axis_p1 i = Z.of_nat (countw Near (axis_word i)).
Proof.
  intros i. unfold axis_p1, axis_word.
  destruct (Z.ltb_spec 0 i) as [H|H].
  - destruct (Z.leb_spec 0 i); [|lia].
    destruct (countw_alt (Z.abs_nat i) Far) as [_ E]. simpl other in E. rewrite E, div2_Z.
    rewrite Zabs2Nat.id_abs, Z.abs_eq by lia. apply Z.quot_div_nonneg; lia.
  - destruct (Z.ltb_spec i 0) as [H'|H'].
    + destruct (Z.leb_spec 0 i); [lia|].
      destruct (countw_alt (Z.abs_nat i) Near) as [E _]. rewrite E, div2_Z.
      rewrite Nat2Z.inj_succ, Zabs2Nat.id_abs.
      replace (i - 1)%Z with (- (Z.succ (Z.abs i)))%Z by lia.
      rewrite Z.quot_opp_l by lia. rewrite Z.abs_opp.
      rewrite Z.quot_div_nonneg by lia. apply Z.abs_eq.
      apply Z.div_pos; lia.
    + assert (i = 0%Z) by lia. subst. reflexivity.
Qed.

Lemma axis_p2_count : forall i, axis_p2 i = Z.of_nat (countw Far (axis_word i)).
Proof.
  intros i. unfold axis_p2, axis_word.
  destruct (Z.ltb_spec 0 i) as [H|H].
  - destruct (Z.leb_spec 0 i); [|lia].
    destruct (countw_alt (Z.abs_nat i) Far) as [E _]. rewrite E, div2_Z.
    rewrite Nat2Z.inj_succ, Zabs2Nat.id_abs, Z.abs_eq by lia.
    rewrite Z.quot_div_nonneg by lia. reflexivity.
  - destruct (Z.ltb_spec i 0) as [H'|H'].
    + destruct (Z.leb_spec 0 i); [lia|].
      destruct (countw_alt (Z.abs_nat i) Near) as [_ E]. simpl other in E. rewrite E, div2_Z.
      rewrite Zabs2Nat.id_abs.
      replace i with (- (Z.abs i))%Z at 1 by lia.
      rewrite Z.quot_opp_l by lia. rewrite Z.abs_opp.
      rewrite Z.quot_div_nonneg by lia. apply Z.abs_eq.
      apply Z.div_pos; lia.
    + assert (i = 0%Z) by lia. subst. reflexivity.
Qed.

Lemma countw_total : forall l, countw Near l + countw Far l = length l.
Proof. induction l as [|[] l IH]; unfold countw in *; simpl; lia. Qed.

Lemma p1_p2_sum : forall i, (axis_p1 i + axis_p2 i = Z.abs i)%Z.
Proof.
  intros. rewrite axis_p1_count, axis_p2_count, <- Nat2Z.inj_add, countw_total.
  unfold axis_word. rewrite alt_word_length. lia.
Qed.

(** * Positions *)

Lemma mirrors_app : forall L a b x, mirrors L (a ++ b) x = mirrors L b (mirrors L a x).
Proof. intros. unfold mirrors. apply fold_left_app. Qed.

Lemma mirrors_alt : forall L x n w,
  mirrors L (alt_word n w) x =
  (let k := match w with Far => Z.of_nat n | Near => (- Z.of_nat n)%Z end in
   IZR k * L + (if Z.odd (Z.of_nat n) then L - x else x))%R.
Proof.
  intros L x. induction n as [|n IH]; intros w.
  - simpl. destruct w; simpl; lra.
  - cbn [alt_word]. rewrite mirrors_app, IH.
    rewrite Nat2Z.inj_succ, Z.odd_succ, <- Z.negb_odd.
    unfold mirrors; simpl fold_left. cbv zeta.
    destruct w; simpl other; cbv iota; unfold mirror;
      rewrite ?opp_IZR, ?succ_IZR, ?opp_IZR, ?succ_IZR;
      destruct (Z.odd (Z.of_nat n)); simpl negb; cbv iota; try lra.
    all: rewrite <- ?opp_IZR; rewrite ?opp_IZR, ?succ_IZR; lra.
Qed.

Lemma abs_odd : forall i, (Z.abs i mod 2 =? 1)%Z = Z.odd (Z.of_nat (Z.abs_nat i)).
Proof.
  intros i. rewrite Zabs2Nat.id_abs. rewrite Zmod_odd.
  destruct (Z.odd (Z.abs i)); reflexivity.
Qed.

Lemma axis_loc_word : forall L s i, axis_loc L s i = mirrors L (axis_word i) s.
Proof.
  intros L s i. unfold axis_loc, axis_word. rewrite mirrors_alt, abs_odd. cbv zeta.
  rewrite !Zabs2Nat.id_abs.
  replace (match (if (0 <=? i)%Z then Far else Near) with
           | Near => (- Z.abs i)%Z | Far => Z.abs i end) with i; [reflexivity|].
  destruct (Z.leb_spec 0 i); lia.
Qed.

(** * Direction: mirroring the microphone back *)

Lemma mirror_invol : forall L w x, mirror L w (mirror L w x) = x.
Proof. destruct w; simpl; intros; lra. Qed.

Lemma mirrors_rev : forall L word x, mirrors L (rev word) (mirrors L word x) = x.
Proof.
  intros L word. induction word as [|w l IH]; intros x; [reflexivity|].
  simpl rev. rewrite mirrors_app. unfold mirrors at 3. simpl fold_left.
  fold (mirrors L l (mirror L w x)). rewrite IH. simpl. apply mirror_invol.
Qed.

(** Words act as [x -> sign * x + shift]. *)
Lemma mirrors_diff : forall L word x y,
  (mirrors L word x - mirrors L word y =
   (if Nat.odd (length word) then -1 else 1) * (x - y))%R.
Proof.
  intros L word. induction word as [|w l IH]; intros x y; [simpl; lra|].
  unfold mirrors in *. simpl fold_left. rewrite IH.
  cbn [length]. rewrite Nat.odd_succ, <- Nat.negb_odd.
  destruct (Nat.odd (length l)), w; simpl; lra.
Qed.

Lemma nat_odd_Z : forall n, Z.odd (Z.of_nat n) = Nat.odd n.
Proof.
  induction n as [|n IH]; [reflexivity|].
  rewrite Nat2Z.inj_succ, Z.odd_succ, Nat.odd_succ, <- Z.negb_odd, <- Nat.negb_odd, IH.
  reflexivity.
Qed.

Lemma axis_dir_word : forall L s m i,
  (axis_dir L s m i = mirrors L (rev (axis_word i)) m - s)%R.
Proof.
  intros L s m i. unfold axis_dir.
  pose proof (mirrors_rev L (axis_word i) s) as E.
  rewrite <- axis_loc_word in E. rewrite <- E at 3. rewrite mirrors_diff, rev_length.
  rewrite abs_odd, nat_odd_Z.
  assert (HL : length (axis_word i) = Z.abs_nat i)
    by (unfold axis_word; apply alt_word_length).
  rewrite HL. destruct (Nat.odd (Z.abs_nat i)); lra.
Qed.

(** * Attenuation *)

Lemma pwr_entry_pow : forall r k b c, pwr_entry r k b c = (transmission1 r b c ^ k)%R.
Proof.
  intros r k b c. induction k as [|[|k] IH]; [reflexivity|simpl; lra|].
  change (pwr_entry r (S (S k)) b c) with (pwr_entry r (S k) b c * transmission1 r b c)%R.
  rewrite IH. simpl. lra.
Qed.

Lemma nth_error_pwr : forall r n k, (0 <= k <= n)%Z ->
  nth_error (transmission_pwr r n) (Z.to_nat k) = Some (pwr_entry r (Z.to_nat k)).
Proof.
  intros r n k H. unfold transmission_pwr. rewrite nth_error_map.
  rewrite (nth_error_nth' _ 0) by (rewrite seq_length; lia).
  rewrite seq_nth by lia. reflexivity.
Qed.

Lemma word_gain_pow : forall t d word,
  word_gain t d word =
  (t (2 * d)%nat ^ countw Near word * t (2 * d + 1)%nat ^ countw Far word)%R.
Proof.
  intros t d word. unfold word_gain.
  induction word as [|w l IH]; [simpl; lra|].
  simpl map. cbn [Rprod fold_right]. fold (Rprod (map (fun w => t (wall_column d w)) l)).
  rewrite IH. destruct w; unfold countw; simpl; lra.
Qed.

Lemma map_combine_seq : forall (f : nat -> R) (g : nat -> R -> R) n s,
  map (fun ba => g (fst ba) (snd ba)) (combine (seq s n) (map f (seq s n)))
  = map (fun b => g b (f b)) (seq s n).
Proof. induction n; simpl; intros; auto. now rewrite IHn. Qed.

Lemma att_step_Some : forall r n p f d, (0 <= n)%Z ->
  (Z.abs (coord p d) <= n)%Z ->
  att_step (transmission_pwr r n) p (map f (seq 0 (sb_bands r))) d =
  Some (map (fun b => f b * word_gain (transmission1 r b) d (axis_word (coord p d)))%R
            (seq 0 (sb_bands r))).
Proof.
  intros r n p f d Hn Hd. unfold att_step.
  pose proof (p1_p2_sum (coord p d)) as S.
  pose proof (axis_p1_count (coord p d)) as P1.
  pose proof (axis_p2_count (coord p d)) as P2.
  rewrite !nth_error_pwr by lia. cbn [bind]. f_equal.
  rewrite map_length, seq_length.
  rewrite (map_combine_seq f (fun b a => a * pwr_entry r (Z.to_nat (axis_p1 (coord p d))) b (2 * d)%nat *
      pwr_entry r (Z.to_nat (axis_p2 (coord p d))) b (2 * d + 1)%nat)%R).
  apply map_ext. intros b. rewrite !pwr_entry_pow, word_gain_pow.
  rewrite P1, P2, !Nat2Z.id. lra.
Qed.

Lemma foldM_att : forall r n p D0 s f, (0 <= n)%Z ->
  (forall d, s <= d < s + D0 -> (Z.abs (coord p d) <= n)%Z) ->
  foldM (att_step (transmission_pwr r n) p) (seq s D0) (map f (seq 0 (sb_bands r))) =
  Some (map (fun b => f b * Rprod (map (fun d => word_gain (transmission1 r b) d (axis_word (coord p d))) (seq s D0)))%R
            (seq 0 (sb_bands r))).
Proof.
  intros r n p. induction D0 as [|k IH]; intros s f Hn H.
  - simpl. f_equal. apply map_ext. intros; lra.
  - cbn [seq foldM]. rewrite att_step_Some by (auto; apply H; lia). cbn [bind].
    rewrite IH by (auto; intros; apply H; lia). f_equal. apply map_ext. intros b.
    simpl. lra.
Qed.

Lemma map_const_repeat : forall {A} (a : A) n s, map (fun _ => a) (seq s n) = repeat a n.
Proof. induction n; simpl; intros; auto. now rewrite IHn. Qed.

(** The image the model makes for a loop point inside the ball. *)
Definition expected_image (r : shoebox) (src : list R) (p : point3) : image :=
  let D := sb_dim r in {|
  im_loc := map (fun d => axis_loc (nth d (sb_size r) 0%R) (nth d src 0%R) (coord p d)) (seq 0 D);
  im_order := fold_left (fun o d => o + Z.abs (coord p d))%Z (seq 0 D) 0%Z;
  im_order_xyz := map (coord p) (seq 0 D);
  im_att := map (fun b => Rprod (map (fun d => word_gain (transmission1 r b) d (axis_word (coord p d))) (seq 0 D)))
                (seq 0 (sb_bands r));
  im_dirs := map (fun mic => normalized (map (fun d =>
      axis_dir (nth d (sb_size r) 0%R) (nth d src 0%R) (nth d mic 0%R) (coord p d)) (seq 0 D)))
    (sb_mics r) |}.

Lemma make_image_Some : forall r src n p, (0 <= n)%Z ->
  (forall d, (Z.abs (coord p d) <= n)%Z) ->
  make_image r src (transmission_pwr r n) p = Some (expected_image r src p).
Proof.
  intros r src n p Hn H. unfold make_image. cbv zeta.
  rewrite <- (map_const_repeat 1%R (sb_bands r) 0).
  rewrite foldM_att by (auto; intros; apply H). cbn [bind].
  unfold expected_image. f_equal. f_equal.
  apply map_ext. intros; lra.
Qed.

Lemma store_at_end : forall {A} (done : list (option A)) v k,
  store (done ++ repeat None (S k)) (length done) v = Some ((done ++ [v]) ++ repeat None k).
Proof.
  induction done as [|h t IH]; intros v k; [reflexivity|].
  cbn [app length store]. rewrite IH. reflexivity.
Qed.

Lemma foldM_write : forall r src tab f pts done,
  (forall p, In p pts -> make_image r src tab p = Some (f p)) ->
  foldM (write_image r src tab) pts
    (map Some done ++ repeat None (length pts), length done)
  = Some (map Some (done ++ map f pts), length done + length pts).
Proof.
  intros r src tab f. induction pts as [|p t IH]; intros done H.
  - simpl. rewrite !app_nil_r, Nat.add_0_r. reflexivity.
  - cbn [foldM length]. unfold write_image at 1. rewrite H by (simpl; auto). cbn [bind fst snd].
    rewrite <- (map_length Some done) at 1. rewrite store_at_end. cbn [bind fst snd].
    replace (map Some done ++ [Some (f p)]) with (map Some (done ++ [f p]))
      by (rewrite map_app; reflexivity).
    replace (S (length done)) with (length (done ++ [f p]))
      by (rewrite app_length; simpl; lia).
    rewrite IH by (intros; apply H; simpl; auto).
    rewrite <- app_assoc. simpl. rewrite app_length. simpl.
    replace (length done + 1 + length t) with (length done + S (length t)) by lia.
    reflexivity.
Qed.

Lemma shoebox_result : forall r src n, (0 <= n)%Z -> sb_dim r = 2 \/ sb_dim r = 3 ->
  image_source_shoebox r src n =
  Some (map Some (map (expected_image r src) (loop_points (sb_dim r) n))).
Proof.
  intros r src n Hn HD. unfold image_source_shoebox.
  rewrite <- loop_count by auto. rewrite Nat2Z.id.
  change (repeat None (length (loop_points (sb_dim r) n)), 0)
    with (map Some (@nil image) ++ repeat None (length (loop_points (sb_dim r) n)), length (@nil image)).
  rewrite (foldM_write r src _ (expected_image r src)).
  - reflexivity.
  - intros p Hp. apply make_image_Some; auto. intros d.
    apply in_loop_points in Hp; auto. destruct d as [|[|d]]; simpl; lia.
Qed.

Lemma l1_coord : forall p D, D = 2 \/ D = 3 -> (D = 2 -> pz p = 0%Z) ->
  l1 (map (coord p) (seq 0 D)) = (Z.abs (px p) + Z.abs (py p) + Z.abs (pz p))%Z.
Proof.
  intros p D [->| ->] H; cbn; [rewrite H by reflexivity|]; lia.
Qed.

Lemma order_l1 : forall p D, D = 2 \/ D = 3 ->
  fold_left (fun o d => o + Z.abs (coord p d))%Z (seq 0 D) 0%Z = l1 (map (coord p) (seq 0 D)).
Proof. intros p D [->| ->]; cbn; lia. Qed.

(** * The property statements *)

Lemma shoebox_count_lemma : forall r src n, (0 <= n)%Z ->
  sb_dim r = 2 \/ sb_dim r = 3 ->
  exists ims, image_source_shoebox r src n = Some (map Some ims) /\
    (sb_dim r = 2 -> (Z.of_nat (length ims) = 1 + 2 * n * (n + 1))%Z) /\
    (sb_dim r = 3 ->
     (3 * (Z.of_nat (length ims) - 1) = 2 * n * (2 * n * n + 3 * n + 4))%Z).
Proof.
  intros r src n Hn HD. eexists. rewrite shoebox_result by auto. split; [reflexivity|].
  rewrite map_length, loop_count by auto. unfold n_image_sources. split; intros ->; simpl.
  - reflexivity.
  - now apply number3_exact.
Qed.

Lemma shoebox_lattice_lemma : forall r src n, (0 <= n)%Z ->
  sb_dim r = 2 \/ sb_dim r = 3 ->
  exists ims, image_source_shoebox r src n = Some (map Some ims) /\
    NoDup (map im_order_xyz ims) /\
    (forall p, In p (map im_order_xyz ims) <-> length p = sb_dim r /\ (l1 p <= n)%Z) /\
    (forall im, In im ims -> im_order im = l1 (im_order_xyz im)).
Proof.
  intros r src n Hn HD. eexists. rewrite shoebox_result by auto. split; [reflexivity|].
  rewrite map_map. cbn [expected_image im_order_xyz]. split; [|split].
  - apply NoDup_map_inj; [|apply NoDup_loop_points].
    intros p q Hp Hq E. apply in_loop_points in Hp, Hq; auto.
    destruct p as [x y z], q as [x' y' z'], HD as [HD|HD]; rewrite HD in *; cbn in *;
      inversion E; subst; [|reflexivity].
    destruct Hp as [_ Hp], Hq as [_ Hq]. rewrite Hp, Hq by reflexivity. reflexivity.
  - intros p. rewrite in_map_iff. split.
    + intros [q [<- Hq]]. rewrite map_length, seq_length. split; auto.
      apply in_loop_points in Hq; auto. rewrite l1_coord; tauto.
    + intros [HL Hl]. destruct HD as [HD|HD]; rewrite HD in *.
      * destruct p as [|x [|y [|? ?]]]; simpl in HL; try lia.
        exists (mkpt x y 0). split; [reflexivity|]. apply in_loop_points; auto.
        cbn in *. lia.
      * destruct p as [|x [|y [|z [|? ?]]]]; simpl in HL; try lia.
        exists (mkpt x y z). split; [reflexivity|]. apply in_loop_points; auto.
        cbn in *. split; [lia|]. discriminate.
  - intros im Him. apply in_map_iff in Him. destruct Him as [p [<- Hp]].
    cbn [expected_image im_order im_order_xyz]. apply order_l1; auto.
Qed.

Lemma shoebox_positions_lemma : forall r src n ims im, (0 <= n)%Z ->
  sb_dim r = 2 \/ sb_dim r = 3 -> length src = sb_dim r ->
  image_source_shoebox r src n = Some (map Some ims) -> In im ims ->
  length (im_loc im) = sb_dim r /\
  forall d, d < sb_dim r ->
    nth d (im_loc im) 0%R =
    mirrors (nth d (sb_size r) 0%R) (axis_word (nth d (im_order_xyz im) 0%Z)) (nth d src 0%R).
Proof.
  intros r src n ims im Hn HD _ E Him. rewrite shoebox_result in E by auto.
  assert (ims = map (expected_image r src) (loop_points (sb_dim r) n)).
  { inversion E as [E']. clear -E'. revert E'. generalize (loop_points (sb_dim r) n).
    intros l. revert ims. induction l; destruct ims; simpl; intros H; try discriminate; auto.
    inversion H. f_equal; auto. }
  subst ims. apply in_map_iff in Him. destruct Him as [p [<- Hp]].
  cbn [expected_image im_loc im_order_xyz]. split; [now rewrite map_length, seq_length|].
  intros d Hd. rewrite !nth_map_seq by auto. apply axis_loc_word.
Qed.

Lemma any_positive_spec : forall bands cols m,
  any_positive bands cols m = true <-> exists b c, b < bands /\ c < cols /\ (0 < m b c)%R.
Proof.
  intros. unfold any_positive. rewrite existsb_exists. split.
  - intros [b [Hb H]]. apply existsb_exists in H. destruct H as [c [Hc H]].
    apply in_seq in Hb, Hc. destruct (Rlt_dec 0 (m b c)); [|discriminate].
    exists b, c. repeat split; auto; lia.
  - intros [b [c [Hb [Hc H]]]]. exists b. split; [apply in_seq; lia|].
    apply existsb_exists. exists c. split; [apply in_seq; lia|].
    destruct (Rlt_dec 0 (m b c)); auto.
Qed.

Lemma Some_map_inj : forall {A} (l m : list A), map Some l = map Some m -> l = m.
Proof.
  induction l; destruct m; simpl; intros H; try discriminate; auto.
  inversion H. f_equal; auto.
Qed.

Lemma result_inv : forall r src n ims, (0 <= n)%Z -> sb_dim r = 2 \/ sb_dim r = 3 ->
  image_source_shoebox r src n = Some (map Some ims) ->
  ims = map (expected_image r src) (loop_points (sb_dim r) n).
Proof.
  intros r src n ims Hn HD E. rewrite shoebox_result in E by auto.
  inversion E. symmetry. now apply Some_map_inj.
Qed.

Lemma Rprod_words : forall t (c : nat -> Z) D s,
  Rprod (map (fun d => word_gain t d (axis_word (c d))) (seq s D)) =
  Rprod (map (fun dp => word_gain t (fst dp) (axis_word (snd dp)))
     (combine (seq s (length (map c (seq s D)))) (map c (seq s D)))).
Proof.
  intros t c. induction D; intros s; simpl; auto. f_equal. rewrite IHD.
  rewrite map_length, seq_length. reflexivity.
Qed.

Lemma shoebox_attenuation_lemma : forall r src n ims im (t : nat -> nat -> R), (0 <= n)%Z ->
  sb_dim r = 2 \/ sb_dim r = 3 ->
  image_source_shoebox r src n = Some (map Some ims) -> In im ims ->
  ((sb_hybrid r = true /\
    exists b c, b < sb_bands r /\ c < 2 * sb_dim r /\ (0 < sb_scat r b c)%R) ->
   forall b c, t b c = (sqrt (1 - sb_abs r b c) * sqrt (1 - sb_scat r b c))%R) ->
  (~ (sb_hybrid r = true /\
    exists b c, b < sb_bands r /\ c < 2 * sb_dim r /\ (0 < sb_scat r b c)%R) ->
   forall b c, t b c = sqrt (1 - sb_abs r b c)%R) ->
  im_att im = map (fun b => path_gain (t b) (im_order_xyz im)) (seq 0 (sb_bands r)).
Proof.
  intros r src n ims im t Hn HD E Him H1 H2.
  apply result_inv in E; auto. subst ims. apply in_map_iff in Him.
  destruct Him as [p [<- Hp]]. cbn [expected_image im_att im_order_xyz].
  apply map_ext. intros b. unfold path_gain. rewrite <- Rprod_words.
  assert (Ht : forall c, transmission1 r b c = t b c).
  { intros c. unfold transmission1.
    destruct (any_positive (sb_bands r) (2 * sb_dim r) (sb_scat r)) eqn:A;
    destruct (sb_hybrid r) eqn:Hh; simpl andb; cbv iota zeta.
    - rewrite H1; auto. split; auto. now apply any_positive_spec.
    - rewrite H2; auto. intros [? _]; discriminate.
    - rewrite H2; auto. intros [_ A']. apply any_positive_spec in A'. congruence.
    - rewrite H2; auto. intros [? _]; discriminate. }
  f_equal. apply map_ext. intros d. unfold word_gain. f_equal. apply map_ext.
  intros w. apply Ht.
Qed.

Lemma sqnorm_nonneg : forall v, (0 <= sqnorm v)%R.
Proof.
  unfold sqnorm. induction v; simpl; [lra|]. nra.
Qed.

Lemma normalized_direction : forall v, is_direction_of (normalized v) v.
Proof.
  intros v. unfold is_direction_of, normalized. fold (sqnorm v).
  pose proof (sqnorm_nonneg v) as P.
  destruct (Rlt_dec 0 (sqnorm v)) as [H|H].
  - right. split; [lra|]. assert (Hn : (0 < norm v)%R) by (apply sqrt_lt_R0; exact H).
    split.
    + unfold sqnorm. rewrite map_map.
      rewrite (map_ext _ (fun x => (/ (norm v * norm v)) * (x * x))%R)
        by (intros; field; lra).
      rewrite Rsum_map_scal. fold (sqnorm v). unfold norm. fold (sqnorm v).
      rewrite sqrt_sqrt by lra. field. lra.
    + exists (norm v). split; auto. rewrite map_map.
      rewrite <- (map_id v) at 1. apply map_ext. intros; field; lra.
  - left. split; [lra|reflexivity].
Qed.

Lemma vsub_map_seq : forall (f : nat -> R) D s (l : list R), length l = D ->
  vsub (map f (seq s D)) l = map (fun d => (f d - nth (d - s) l 0)%R) (seq s D).
Proof.
  induction D; intros s l H; destruct l; simpl in H; try discriminate; auto.
  unfold vsub. cbn [seq map combine]. rewrite Nat.sub_diag. cbn [nth fst snd]. f_equal.
  fold (vsub (map f (seq (S s) D)) l). rewrite IHD by lia. apply map_ext_in.
  intros d Hd. apply in_seq in Hd. replace (d - s) with (S (d - S s)) by lia. reflexivity.
Qed.

Lemma shoebox_directions_lemma : forall r src n ims im, (0 <= n)%Z ->
  sb_dim r = 2 \/ sb_dim r = 3 -> length src = sb_dim r ->
  image_source_shoebox r src n = Some (map Some ims) -> In im ims ->
  Forall2 (fun u mic =>
    is_direction_of u
      (vsub (map (fun d => mirrors (nth d (sb_size r) 0%R)
                     (rev (axis_word (nth d (im_order_xyz im) 0%Z))) (nth d mic 0%R))
                 (seq 0 (sb_dim r))) src))
    (im_dirs im) (sb_mics r).
Proof.
  intros r src n ims im Hn HD HS E Him.
  apply result_inv in E; auto. subst ims. apply in_map_iff in Him.
  destruct Him as [p [<- Hp]]. cbn [expected_image im_dirs im_order_xyz].
  induction (sb_mics r) as [|mic ms IH]; simpl; constructor; auto.
  rewrite vsub_map_seq by auto.
  match goal with |- is_direction_of (normalized ?v) ?w =>
    replace w with v; [apply normalized_direction|] end.
  apply map_ext_in. intros d Hd. apply in_seq in Hd. rewrite nth_map_seq by lia.
  rewrite Nat.sub_0_r. now rewrite axis_dir_word.
Qed.

(** Passivity and monotonicity. *)
Lemma transmission1_range : forall r b c,
  (0 <= sb_abs r b c <= 1)%R -> (0 <= sb_scat r b c <= 1)%R ->
  (0 <= transmission1 r b c <= 1)%R.
Proof.
  intros r b c Ha Hs. unfold transmission1.
  assert (A : (0 <= sqrt (1 - sb_abs r b c) <= 1)%R).
  { split; [apply sqrt_pos|]. rewrite <- sqrt_1 at 2. apply sqrt_le_1_alt. lra. }
  assert (S : (0 <= sqrt (1 - sb_scat r b c) <= 1)%R).
  { split; [apply sqrt_pos|]. rewrite <- sqrt_1 at 2. apply sqrt_le_1_alt. lra. }
  destruct (_ && _)%bool; nra.
Qed.

Lemma Rprod_range : forall l, Forall (fun x => 0 <= x <= 1)%R l -> (0 <= Rprod l <= 1)%R.
Proof.
  induction 1; simpl; [lra|]. nra.
Qed.

Lemma Rprod_mono : forall l m, Forall2 (fun x y => 0 <= x <= y)%R l m ->
  (0 <= Rprod l <= Rprod m)%R.
Proof. induction 1; simpl; [lra|]. nra. Qed.

Lemma wall_column_lt : forall d w D, d < D -> wall_column d w < 2 * D.
Proof. intros d [] D H; simpl; lia. Qed.

Lemma shoebox_passive_lemma : forall r src n ims im, (0 <= n)%Z ->
  sb_dim r = 2 \/ sb_dim r = 3 ->
  (forall b c, b < sb_bands r -> c < 2 * sb_dim r ->
     (0 <= sb_abs r b c <= 1)%R /\ (0 <= sb_scat r b c <= 1)%R) ->
  image_source_shoebox r src n = Some (map Some ims) -> In im ims ->
  Forall (fun a => 0 <= a <= 1)%R (im_att im).
Proof.
  intros r src n ims im Hn HD H E Him.
  apply result_inv in E; auto. subst ims. apply in_map_iff in Him.
  destruct Him as [p [<- Hp]]. cbn [expected_image im_att].
  apply Forall_map, Forall_forall. intros b Hb. apply in_seq in Hb.
  apply Rprod_range, Forall_map, Forall_forall. intros d Hd. apply in_seq in Hd.
  apply Rprod_range, Forall_map, Forall_forall. intros w _.
  pose proof (wall_column_lt d w (sb_dim r) ltac:(lia)).
  apply transmission1_range; apply H; lia.
Qed.

Lemma transmission1_mono : forall r r' b c,
  sb_scat r = sb_scat r' -> sb_hybrid r = sb_hybrid r' ->
  sb_bands r = sb_bands r' -> sb_dim r = sb_dim r' ->
  (sb_abs r b c <= sb_abs r' b c)%R ->
  (0 <= transmission1 r' b c <= transmission1 r b c)%R.
Proof.
  intros r r' b c E1 E2 E3 E4 H. unfold transmission1. rewrite <- E1, <- E2, <- E3, <- E4.
  assert (A : (0 <= sqrt (1 - sb_abs r' b c) <= sqrt (1 - sb_abs r b c))%R).
  { split; [apply sqrt_pos|]. apply sqrt_le_1_alt. lra. }
  pose proof (sqrt_pos (1 - sb_scat r b c)).
  destruct (_ && _)%bool; nra.
Qed.

Lemma Forall2_map_same : forall {A B C} (P : B -> C -> Prop) (f : A -> B) (g : A -> C) l,
  (forall a, In a l -> P (f a) (g a)) -> Forall2 P (map f l) (map g l).
Proof. induction l; simpl; intros; constructor; auto. Qed.

Lemma shoebox_monotone_lemma : forall r r' src n ims ims', (0 <= n)%Z ->
  sb_dim r = 2 \/ sb_dim r = 3 ->
  sb_size r = sb_size r' -> sb_scat r = sb_scat r' -> sb_hybrid r = sb_hybrid r' ->
  sb_bands r = sb_bands r' ->
  (forall b c, b < sb_bands r -> c < 2 * sb_dim r -> (sb_abs r b c <= sb_abs r' b c)%R) ->
  image_source_shoebox r src n = Some (map Some ims) ->
  image_source_shoebox r' src n = Some (map Some ims') ->
  Forall2 (fun im im' => im_order_xyz im = im_order_xyz im' /\ im_loc im = im_loc im' /\
     Forall2 (fun a a' => 0 <= a' <= a)%R (im_att im) (im_att im')) ims ims'.
Proof.
  intros r r' src n ims ims' Hn HD ES ESc EH EB Ha E E'.
  assert (Edim : sb_dim r = sb_dim r') by (unfold sb_dim; now rewrite ES).
  apply result_inv in E; auto. apply result_inv in E'; [|auto|rewrite <- Edim; auto].
  subst ims ims'. rewrite <- Edim. apply Forall2_map_same. intros p Hp.
  unfold expected_image. cbn [im_order_xyz im_loc im_att]. rewrite <- Edim, <- ES, <- EB.
  split; [reflexivity|]. split; [reflexivity|].
  apply Forall2_map_same. intros b Hb. apply in_seq in Hb.
  apply Rprod_mono, Forall2_map_same. intros d Hd. apply in_seq in Hd.
  apply Rprod_mono, Forall2_map_same. intros w _.
  pose proof (wall_column_lt d w (sb_dim r) ltac:(lia)).
  apply transmission1_mono; auto. apply Ha; lia.
Qed.

Lemma shoebox_nested_lemma : forall r src n m ims ims', (0 <= n)%Z -> (n <= m)%Z ->
  sb_dim r = 2 \/ sb_dim r = 3 ->
  image_source_shoebox r src n = Some (map Some ims) ->
  image_source_shoebox r src m = Some (map Some ims') ->
  incl ims ims' /\
  forall im, In im ims' -> (im_order im <= n)%Z -> In im ims.
Proof.
  intros r src n m ims ims' Hn Hm HD E E'.
  apply result_inv in E; auto. apply result_inv in E'; [|lia|auto].
  subst ims ims'. split.
  - intros im H. apply in_map_iff in H. destruct H as [p [<- Hp]].
    apply in_map. apply in_loop_points in Hp; auto. apply in_loop_points; auto; [lia|].
    intuition lia.
  - intros im H Ho. apply in_map_iff in H. destruct H as [p [<- Hp]].
    apply in_map. apply in_loop_points in Hp; [|lia|auto]. apply in_loop_points; auto.
    cbn [expected_image im_order] in Ho. rewrite order_l1 in Ho by auto.
    rewrite l1_coord in Ho; tauto.
Qed.

(** * Unfolded picture: exponents count plane crossings *)

Lemma axis_loc_cell : forall L s i, (0 < s < L)%R ->
  (IZR i * L < axis_loc L s i < IZR i * L + L)%R.
Proof. intros L s i H. unfold axis_loc. destruct (_ =? _)%Z; lra. Qed.

Lemma IZR_lt_scale : forall a b L, (0 < L)%R -> (IZR a * L < IZR b * L)%R -> (a < b)%Z.
Proof. intros a b L HL H. apply lt_IZR. apply Rmult_lt_reg_r with L; auto. Qed.

Definition crossed (i : Z) : list Z :=
  if (0 <=? i)%Z then crange 1 i else crange (i + 1) 0.

Lemma crossed_spec : forall L m s i k, (0 < m < L)%R -> (0 < s < L)%R ->
  In k (crossed i) <-> crosses L m (axis_loc L s i) k.
Proof.
  intros L m s i k Hm Hs. pose proof (axis_loc_cell L s i Hs) as C.
  assert (HL : (0 < L)%R) by lra.
  set (x := axis_loc L s i) in *. unfold crossed, crosses.
  assert (Hm0 : (IZR 0 * L < m)%R) by (simpl; lra).
  assert (Hm1 : (m < IZR 1 * L)%R) by (simpl; lra).
  assert (Hi1 : (IZR (i + 1) * L = IZR i * L + L)%R) by (rewrite plus_IZR; lra).
  assert (Hle : forall a b, (a <= b)%Z -> (IZR a * L <= IZR b * L)%R).
  { intros a b H. apply Rmult_le_compat_r; [lra|]. now apply IZR_le. }
  destruct (Z.leb_spec 0 i) as [Hi|Hi]; rewrite in_crange; split.
  - intros [H1 H2]. left. apply Hle in H1, H2. lra.
  - intros [H|H].
    + assert (0 < k)%Z by (apply IZR_lt_scale with L; lra).
      assert (k < i + 1)%Z by (apply IZR_lt_scale with L; lra). lia.
    + assert (k < 1)%Z by (apply IZR_lt_scale with L; lra).
      assert (i < k)%Z by (apply IZR_lt_scale with L; lra). lia.
  - intros [H1 H2]. right. apply Hle in H1, H2. lra.
  - intros [H|H].
    + assert (0 < k)%Z by (apply IZR_lt_scale with L; lra).
      assert (k < i + 1)%Z by (apply IZR_lt_scale with L; lra). lia.
    + assert (k < 1)%Z by (apply IZR_lt_scale with L; lra).
      assert (i < k)%Z by (apply IZR_lt_scale with L; lra). lia.
Qed.

Lemma count_odd_pos : forall n,
  length (filter Z.odd (crange 1 (Z.of_nat n))) = Nat.div2 (S n) /\
  length (filter Z.even (crange 1 (Z.of_nat n))) = Nat.div2 n.
Proof.
  induction n as [|n [IH1 IH2]]; [split; reflexivity|].
  rewrite crange_snoc by lia. rewrite !filter_app, !app_length.
  replace (Z.of_nat (S n) - 1)%Z with (Z.of_nat n) by lia. rewrite IH1, IH2.
  cbn [filter]. rewrite <- Z.negb_odd, nat_odd_Z.
  destruct (Nat.odd (S n)) eqn:E; cbn [negb length].
  - apply Nat.odd_spec in E. destruct E as [q E]. assert (n = 2 * q) by lia. subst n.
    replace (S (S (2 * q))) with (2 * S q) by lia.
    rewrite !Nat.div2_succ_double, !Nat.div2_double. lia.
  - rewrite <- Nat.negb_even in E. apply Bool.negb_false_iff, Nat.even_spec in E.
    destruct E as [q E]. assert (n = S (2 * (q - 1))) by lia. rewrite H.
    replace (S (S (2 * (q - 1)))) with (2 * q) by lia.
    replace (S (2 * q)) with (S (2 * q)) by lia.
    rewrite !Nat.div2_succ_double, !Nat.div2_double. lia.
Qed.

Lemma count_odd_neg : forall n,
  length (filter Z.odd (crange (- Z.of_nat n + 1) 0)) = Nat.div2 n /\
  length (filter Z.even (crange (- Z.of_nat n + 1) 0)) = Nat.div2 (S n).
Proof.
  induction n as [|n [IH1 IH2]]; [split; reflexivity|].
  rewrite crange_cons by lia.
  replace (- Z.of_nat (S n) + 1 + 1)%Z with (- Z.of_nat n + 1)%Z by lia.
  replace (- Z.of_nat (S n) + 1)%Z with (- Z.of_nat n)%Z by lia.
  cbn [filter]. rewrite <- Z.negb_odd, Z.odd_opp, nat_odd_Z.
  destruct (Nat.odd n) eqn:E; cbn [negb length]; rewrite IH1, IH2.
  - apply Nat.odd_spec in E. destruct E as [q E]. subst n.
    replace (2 * q + 1) with (S (2 * q)) by lia.
    replace (S (S (2 * q))) with (2 * S q) by lia.
    rewrite !Nat.div2_succ_double, !Nat.div2_double. lia.
  - rewrite <- Nat.negb_even in E. apply Bool.negb_false_iff, Nat.even_spec in E.
    destruct E as [q E]. subst n.
    replace (S (S (2 * q))) with (2 * S q) by lia.
    rewrite !Nat.div2_succ_double, !Nat.div2_double. lia.
Qed.

Lemma crossings_count : forall L m s i, (0 < m < L)%R -> (0 < s < L)%R ->
  exists ks, NoDup ks /\ (forall k, In k ks <-> crosses L m (axis_loc L s i) k) /\
    axis_p2 i = Z.of_nat (length (filter Z.odd ks)) /\
    axis_p1 i = Z.of_nat (length (filter Z.even ks)).
Proof.
  intros L m s i Hm Hs. exists (crossed i). split; [|split].
  - unfold crossed. destruct (0 <=? i)%Z; apply NoDup_crange.
  - intros k. now apply crossed_spec.
  - rewrite axis_p1_count, axis_p2_count. unfold axis_word, crossed.
    destruct (Z.leb_spec 0 i) as [Hi|Hi].
    + destruct (countw_alt (Z.abs_nat i) Far) as [E1 E2]. simpl other in E2.
      rewrite E1, E2. replace i with (Z.of_nat (Z.abs_nat i)) at 2 4 by lia.
      destruct (count_odd_pos (Z.abs_nat i)) as [-> ->]. auto.
    + destruct (countw_alt (Z.abs_nat i) Near) as [E1 E2]. simpl other in E2.
      rewrite E1, E2. replace i with (- Z.of_nat (Z.abs_nat i))%Z at 2 4 by lia.
      destruct (count_odd_neg (Z.abs_nat i)) as [-> ->]. auto.
Qed.

(** Restated for the words of the specification. *)
Lemma word_crossings_lemma : forall L m s i, (0 < m < L)%R -> (0 < s < L)%R ->
  exists ks, NoDup ks /\
    (forall k, In k ks <-> crosses L m (mirrors L (axis_word i) s) k) /\
    length (filter Z.odd ks) = length (filter (fun w => match w with Far => true | Near => false end) (axis_word i)) /\
    length (filter Z.even ks) = length (filter (fun w => match w with Far => false | Near => true end) (axis_word i)).
Proof.
  intros L m s i Hm Hs. destruct (crossings_count L m s i Hm Hs) as [ks [H1 [H2 [H3 H4]]]].
  exists ks. rewrite axis_loc_word in H2. split; auto. split; auto.
  rewrite axis_p2_count in H3. rewrite axis_p1_count in H4. unfold countw in *.
  split; symmetry; apply Nat2Z.inj; [rewrite <- H3|rewrite <- H4];
    f_equal; f_equal; apply filter_ext; intros []; reflexivity.
Qed.
