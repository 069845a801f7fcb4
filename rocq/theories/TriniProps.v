(** C139: TRINICON. *)
From Coq Require Import Reals List ZArith Lia Lra Bool FunctionalExtensionality.
From Verif Require Import Base Sum TriniModel.
Import ListNotations.
Local Open Scope R_scope.

(** ** Specification *)
(** the signals, with zeros before the start and after the end, filtered by [w] *)
Definition at_time (s : nat -> R) (samples : nat) (t : Z) : R := if (0 <=? t)%Z && (t <? Z.of_nat samples)%Z then s (Z.to_nat t) else 0.
Definition filtered (P L samples : nat) (s : sigs) (w : filt) (q : nat) (t : Z) : R := bsum P (fun p => bsum L (fun l => w p q l * at_time (s p) samples (t - Z.of_nat l))).
(** correlation of two blocks of length [N] *)
Definition corr (N : nat) (a b : nat -> R) (lag : Z) : R := bsum N (fun n => bsum N (fun k => if (Z.of_nat n - Z.of_nat k =? lag)%Z then a n * b k else 0)).
(** the outputs exchanged *)
Definition swap (w : filt) : filt := fun p q l => w p (1 - q)%nat l.

(** ** Lemmas *)
Section lemmas.
Variables (P L K N j_max : nat) (delta_max sigma2_0 mu lambd_a : R).
Notation y_c := (y_c P L). Notation y_block := (y_block P L). Notation r_cross := (r_cross P L N). Notation sigma2 := (sigma2 P L N). Notation delta := (delta P L N delta_max sigma2_0).
Notation delta_w := (delta_w P L K N delta_max sigma2_0). Notation offline := (offline P L K N delta_max sigma2_0 mu). Notation offline_loop := (offline_loop P L K N delta_max sigma2_0 mu). Notation chunk := (chunk L K N).
Notation online_w := (online_w P L K N j_max delta_max sigma2_0 mu lambd_a). Notation online_y := (online_y P L K N). Notation online := (online P L K N j_max delta_max sigma2_0 mu lambd_a).
Lemma full_corr a b k : (L <= N)%nat -> (k < 2 * L - 1)%nat -> full N a (fun n => b (N - 1 - n)%nat) (N - L + k)%nat = corr N a b (Z.of_nat k - (Z.of_nat L - 1)).
Proof.
  intros HL Hk. unfold full, corr. apply bsum_ext. intros n Hn. destruct (Nat.leb_spec n (N - L + k)) as [A|A]; cbn [andb].
  - destruct (Nat.ltb_spec (N - L + k - n) N) as [B|B].
    + rewrite (bsum_delta N (N - 1 - (N - L + k - n))%nat); [|lia|].
      * match goal with |- context [Z.eqb ?u ?v] => destruct (Z.eqb_spec u v) as [_|E]; [reflexivity|exfalso; apply E; lia] end.
      * intros i Hi NE. match goal with |- context [Z.eqb ?u ?v] => destruct (Z.eqb_spec u v) as [E|_]; [exfalso; apply NE; lia|reflexivity] end.
    + symmetry. apply bsum_zero_ext. intros i Hi. match goal with |- context [Z.eqb ?u ?v] => destruct (Z.eqb_spec u v) as [E|_]; [exfalso; lia|reflexivity] end.
  - symmetry. apply bsum_zero_ext. intros i Hi. match goal with |- context [Z.eqb ?u ?v] => destruct (Z.eqb_spec u v) as [E|_]; [exfalso; lia|reflexivity] end.
Qed.
Lemma corr_sym a b lag : corr N a b lag = corr N b a (- lag).
Proof.
  unfold corr. rewrite bsum_swap. apply bsum_ext. intros n _. apply bsum_ext. intros k _. destruct (Z.eqb_spec (Z.of_nat k - Z.of_nat n) lag), (Z.eqb_spec (Z.of_nat n - Z.of_nat k) (- lag)); try lia; ring.
Qed.
Lemma cross_corr x w q i k : (L <= N)%nat -> (k < 2 * L - 1)%nat -> r_cross x w q i k = if Nat.eqb q 0 then corr N (y_block x w 1 i) (y_block x w 0 i) (Z.of_nat k - (Z.of_nat L - 1)) else corr N (y_block x w 0 i) (y_block x w 1 i) (Z.of_nat k - (Z.of_nat L - 1)).
Proof.
  intros HL Hk. unfold TriniModel.r_cross. destruct (Nat.eqb q 0).
  - now apply full_corr.
  - rewrite full_corr by lia. rewrite corr_sym. f_equal. lia.
Qed.
Lemma swap_block x w q i : y_block x (swap w) q i = y_block x w (1 - q) i.
Proof. reflexivity. Qed.
Lemma swap_cross x w q i k : (L <= N)%nat -> (k < 2 * L - 1)%nat -> r_cross x (swap w) q i k = r_cross x w (1 - q) i k.
Proof. intros HL Hk. rewrite !cross_corr by auto. rewrite !swap_block. destruct q as [|q]; cbn [Nat.eqb Nat.sub]; [reflexivity|]. destruct q; reflexivity. Qed.
Lemma swap_delta x w : (L <= N)%nat -> delta_w x (swap w) = swap (delta_w x w).
Proof.
  intros HL. extensionality p. extensionality q. extensionality l. change (swap (delta_w x w) p q l) with (delta_w x w p (1 - q)%nat l). unfold TriniModel.delta_w. f_equal. apply bsum_ext. intros i Hi. unfold valid. apply bsum_ext. intros t Ht. rewrite swap_cross by lia. reflexivity.
Qed.
Lemma swap_offline x w j : (L <= N)%nat -> offline_loop x j (swap w) = swap (offline_loop x j w).
Proof. intros HL. revert w. induction j as [|j IH]; intros w; [reflexivity|]. cbn [TriniModel.offline_loop]. rewrite <- IH. f_equal. unfold TriniModel.offline. rewrite swap_delta by auto. reflexivity. Qed.
Lemma swap_online hop s c : (L <= N)%nat -> forall m w y y', (forall q n, y' q n = y (1 - q)%nat n) ->
  (forall q n, fst (online hop s c m (swap w) y') q n = fst (online hop s c m w y) (1 - q)%nat n) /\ snd (online hop s c m (swap w) y') = swap (snd (online hop s c m w y)).
Proof.
  intros HL. induction c as [|c IH]; intros m w y y' HY; [split; [exact HY|reflexivity]|]. cbn [TriniModel.online]. assert (E : online_w hop s (swap w) m = swap (online_w hop s w m)) by (unfold TriniModel.online_w; rewrite swap_offline by auto; reflexivity). rewrite E. apply IH. intros q n. unfold TriniModel.online_y. rewrite HY. reflexivity.
Qed.
(** the chunk is a window of the signals *)
Variable samples : nat.
Variable s0 : sigs.
Notation s := (fun p n => if (n <? samples)%nat then s0 p n else 0).
Lemma chunk_time hop m p i : chunk hop s m p i = at_time (s0 p) samples (Z.of_nat (m * hop) - Z.of_nat (K * L + N) + Z.of_nat i).
Proof.
  unfold TriniModel.chunk, at_time. destruct (Nat.leb_spec (K * L + N) (m * hop)) as [A|A].
  - destruct (Z.leb_spec 0 (Z.of_nat (m * hop) - Z.of_nat (K * L + N) + Z.of_nat i)); [|lia]. cbn [andb]. destruct (Nat.ltb_spec (m * hop - (K * L + N) + i) samples), (Z.ltb_spec (Z.of_nat (m * hop) - Z.of_nat (K * L + N) + Z.of_nat i) (Z.of_nat samples)); try lia; [|reflexivity]. f_equal. lia.
  - destruct (Nat.ltb_spec i (K * L + N - m * hop)) as [B|B].
    + destruct (Z.leb_spec 0 (Z.of_nat (m * hop) - Z.of_nat (K * L + N) + Z.of_nat i)); [lia|reflexivity].
    + destruct (Z.leb_spec 0 (Z.of_nat (m * hop) - Z.of_nat (K * L + N) + Z.of_nat i)); [|lia]. cbn [andb]. destruct (Nat.ltb_spec (i - (K * L + N - m * hop)) samples), (Z.ltb_spec (Z.of_nat (m * hop) - Z.of_nat (K * L + N) + Z.of_nat i) (Z.of_nat samples)); try lia; [|reflexivity]. f_equal. lia.
Qed.
Lemma block_time hop m w q i n : y_block (chunk hop s m) w q i n = filtered P L samples s0 w q (Z.of_nat (m * hop) - Z.of_nat (K * L + N) + Z.of_nat (L + i * L + n)).
Proof.
  unfold TriniModel.y_block, TriniModel.y_c, filtered, valid. apply bsum_ext. intros p _. apply bsum_ext. intros l Hl. rewrite chunk_time. f_equal. f_equal. lia.
Qed.
Lemma output_time hop y w m q n : (1 <= m)%nat -> (hop + L - 1 <= K * L + N)%nat -> online_y hop s y w m q n = if ((m - 1) * hop <=? n)%nat && (n <? m * hop)%nat then y q n + filtered P L samples s0 w q (Z.of_nat n) else y q n.
Proof.
  intros Hm HH. unfold TriniModel.online_y. destruct (Nat.leb_spec ((m - 1) * hop) n) as [A|A]; cbn [andb]; [|reflexivity]. destruct (Nat.ltb_spec n (m * hop)) as [B|B]; [|reflexivity]. f_equal. unfold filtered, valid. apply bsum_ext. intros p _. apply bsum_ext. intros l Hl. rewrite chunk_time. f_equal. f_equal. destruct m as [|m]; [lia|]. cbn [Nat.sub] in *. rewrite Nat.sub_0_r in *. nia.
Qed.
Lemma online_spec hop : (0 < hop)%nat -> (hop + L - 1 <= K * L + N)%nat -> forall c m w y, (1 <= m)%nat -> exists ws, ws 0%nat = w /\ snd (online hop s c m w y) = ws c /\ (forall i, (i < c)%nat -> ws (S i) = online_w hop s (ws i) (m + i)) /\
  forall q n, fst (online hop s c m w y) q n = if ((m - 1) * hop <=? n)%nat && (n <? (m - 1 + c) * hop)%nat then y q n + filtered P L samples s0 (ws (S (n / hop - (m - 1)))%nat) q (Z.of_nat n) else y q n.
Proof.
  intros Hh HH. induction c as [|c IH]; intros m w y Hm.
  - exists (fun _ => w). split; [reflexivity|]. split; [reflexivity|]. split; [lia|]. intros q n. cbn [TriniModel.online fst]. destruct (Nat.leb_spec ((m - 1) * hop) n), (Nat.ltb_spec n ((m - 1 + 0) * hop)); cbn [andb]; try reflexivity. lia.
  - cbn [TriniModel.online]. set (w' := online_w hop s w m). destruct (IH (S m) w' (online_y hop s y w' m) ltac:(lia)) as (ws & E0 & E1 & E2 & E3). exists (fun i => match i with O => w | S i' => ws i' end). split; [reflexivity|]. split; [exact E1|]. split.
    + intros [|i] Hi; [rewrite Nat.add_0_r; exact E0|]. rewrite (E2 i) by lia. f_equal. lia.
    + intros q n. rewrite E3. rewrite output_time by auto. cbn [Nat.sub]. rewrite Nat.sub_0_r. destruct m as [|m]; [lia|]. cbn [Nat.sub]. rewrite Nat.sub_0_r.
      destruct (Nat.leb_spec (S m * hop) n) as [A|A]; cbn [andb].
      * destruct (Nat.leb_spec (m * hop) n); [|lia]. destruct (Nat.ltb_spec n (S m * hop)); [lia|]. replace (S m + c)%nat with (m + S c)%nat by lia. cbn [andb]. destruct (Nat.ltb_spec n ((m + S c) * hop)); [|reflexivity]. f_equal. f_equal. assert (D : (S m <= n / hop)%nat) by (apply Nat.div_le_lower_bound; lia). replace (n / hop - m)%nat with (S (n / hop - S m)) by lia. reflexivity.
      * destruct (Nat.leb_spec (m * hop) n) as [B|B]; cbn [andb]; [|reflexivity]. destruct (Nat.ltb_spec n (S m * hop)); [|lia]. destruct (Nat.ltb_spec n ((m + S c) * hop)) as [D|D]; [|nia]. f_equal. f_equal. assert (n / hop = m)%nat by (symmetry; apply (Nat.div_unique n hop m (n - m * hop)); lia). rewrite H0, Nat.sub_diag. now rewrite E0.
Qed.
End lemmas.
Section results.
Variables (P L K N j_max alpha_on samples : nat) (delta_max sigma2_0 mu lambd_a : R) (s0 : sigs).
Notation run := (trinicon P L K N j_max delta_max sigma2_0 mu lambd_a alpha_on samples s0).
Notation hop := (K * L / alpha_on)%nat.
Notation s := (fun p n => if (n <? samples)%nat then s0 p n else 0).
Notation total := (if Nat.eqb (samples mod hop) 0 then samples else (samples + (hop - P mod hop))%nat).
Notation online_w := (online_w P L K N j_max delta_max sigma2_0 mu lambd_a).
Definition start (w0 : option filt) : filt := match w0 with None => initial P L | Some w => w end.
Lemma run_spec w0 y n_out w : run w0 = Some (y, n_out, w) -> (0 < hop)%nat /\ (L <= N)%nat /\ n_out = total /\ exists ws, ws 0%nat = start w0 /\ ws (n_out / hop)%nat = w /\ (forall i, (i < n_out / hop)%nat -> ws (S i) = online_w hop s (ws i) (S i)) /\
  forall q n, y q n = if (n <? n_out / hop * hop)%nat then filtered P L samples s0 (ws (S (n / hop))) q (Z.of_nat n) else 0.
Proof.
  unfold trinicon. fold (start w0). intros H. destruct (Nat.eqb alpha_on 0); [discriminate|]. destruct (Nat.eqb_spec hop 0) as [|Hh]; [discriminate|]. destruct (Nat.ltb_spec N L); [discriminate|]. cbn [orb] in H. destruct (Nat.ltb_spec (K * L + N) (hop + L - 1)); [discriminate|].
  assert (E := f_equal (fun o => match o with Some x => x | None => (y, n_out, w) end) H). cbn in E. apply pair_equal_spec in E. destruct E as [E Ew]. apply pair_equal_spec in E. destruct E as [Ey En]. split; [lia|]. split; [auto|]. split; [auto|]. rewrite En in Ey, Ew.
  destruct (online_spec P L K N j_max delta_max sigma2_0 mu lambd_a samples s0 hop ltac:(lia) ltac:(lia) (n_out / hop) 1 (start w0) (fun _ _ => 0) ltac:(lia)) as (ws & A & B & D & F). exists ws. split; [exact A|]. split; [rewrite <- B; exact Ew|]. split; [exact D|]. intros q n. rewrite <- Ey. rewrite F. cbn [Nat.sub Nat.mul Nat.leb andb Nat.add]. rewrite Nat.sub_0_r. destruct (n <? n_out / hop * hop)%nat; [ring|reflexivity].
Qed.
End results.
(** the update of the filters at time [m * hop]: the outputs are decorrelated, [q] with the past and the future of the other one *)
Section update.
Variables (P L K N samples : nat) (delta_max sigma2_0 mu : R) (s : sigs) (hop m : nat).
Definition block_out (w : filt) (i q n : nat) : R := filtered P L samples s w q (Z.of_nat (m * hop) - Z.of_nat (K * L + N) + Z.of_nat (L + i * L + n)).
Definition energy (w : filt) (i q : nat) : R := bsum N (fun n => block_out w i q n ^ 2).
Definition gradient (w : filt) (p q l : nat) : R := bsum K (fun i => bsum L (fun t =>
  w p (1 - q)%nat t * (corr N (block_out w i (1 - q)) (block_out w i q) (Z.of_nat t - Z.of_nat l) / (energy w i q + delta_max * exp (- (energy w i q / sigma2_0)))))) / INR K.
Fixpoint descend (j : nat) (w : filt) : filt := match j with O => w | S j' => descend j' (fun p q l => w p q l - mu * gradient w p q l) end.
End update.
Lemma filtered_ext P L samples s w w' q t : (forall p l, (l < L)%nat -> w p q l = w' p q l) -> filtered P L samples s w q t = filtered P L samples s w' q t.
Proof. intros E. unfold filtered. apply bsum_ext. intros p _. apply bsum_ext. intros l Hl. now rewrite E. Qed.
Definition agree (L : nat) (w w' : filt) := forall p q l, (q < 2)%nat -> (l < L)%nat -> w p q l = w' p q l.
Lemma gradient_ext P L K N samples dm s20 s hop m w w' : agree L w w' -> agree L (gradient P L K N samples dm s20 s hop m w) (gradient P L K N samples dm s20 s hop m w').
Proof.
  intros E p q l Hq Hl. unfold gradient. f_equal. apply bsum_ext. intros i _. apply bsum_ext. intros t Ht. assert (B : forall q', (q' < 2)%nat -> block_out P L K N samples s hop m w i q' = block_out P L K N samples s hop m w' i q') by (intros q' Hq'; extensionality n; apply filtered_ext; intros; apply E; auto).
  unfold energy. rewrite !B by lia. rewrite E by lia. reflexivity.
Qed.
Lemma descend_ext P L K N samples dm s20 mu s hop m j : forall w w', agree L w w' -> agree L (descend P L K N samples dm s20 mu s hop m j w) (descend P L K N samples dm s20 mu s hop m j w').
Proof. induction j as [|j IH]; intros w w' E; [exact E|]. cbn. apply IH. intros p q l Hq Hl. rewrite (E p q l) by auto. rewrite (gradient_ext P L K N samples dm s20 s hop m w w' E p q l) by auto. reflexivity. Qed.
Lemma delta_gradient P L K N samples dm s20 s hop m w : (L <= N)%nat -> agree L (delta_w P L K N dm s20 (chunk L K N hop (fun p n => if (n <? samples)%nat then s p n else 0) m) w) (gradient P L K N samples dm s20 s hop m w).
Proof.
  intros HL p q l Hq Hl. unfold delta_w, gradient. f_equal. apply bsum_ext. intros i _. unfold valid. rewrite bsum_rev. apply bsum_ext. intros t Ht. set (x := chunk _ _ _ _ _ _).
  assert (B : forall q', y_block P L x w q' i = block_out P L K N samples s hop m w i q') by (intros q'; extensionality n; unfold x; rewrite block_time; reflexivity).
  replace (L - 1 - (L - 1 - t))%nat with t by lia. f_equal. f_equal.
  - rewrite cross_corr by lia. rewrite !B. replace (Z.of_nat (L - 1 - l + t) - (Z.of_nat L - 1))%Z with (Z.of_nat t - Z.of_nat l)%Z by lia. destruct q as [|[|q]]; [reflexivity|reflexivity|lia].
  - assert (G : sigma2 P L N x w q i = energy P L K N samples s hop m w i q) by (unfold sigma2, energy; apply bsum_ext; intros n _; rewrite !B; ring). unfold delta. rewrite G. reflexivity.
Qed.
Lemma offline_descend P L K N samples dm s20 mu s hop m j : (L <= N)%nat -> forall w, agree L (offline_loop P L K N dm s20 mu (chunk L K N hop (fun p n => if (n <? samples)%nat then s p n else 0) m) j w) (descend P L K N samples dm s20 mu s hop m j w).
Proof.
  intros HL. induction j as [|j IH]; intros w; [intros p q l _ _; reflexivity|]. cbn [offline_loop descend]. intros p q l Hq Hl. rewrite IH by auto. apply descend_ext; auto. intros p' q' l' Hq' Hl'. unfold offline. rewrite (delta_gradient P L K N samples dm s20 s hop m w HL p' q' l') by auto. reflexivity.
Qed.
(** In every block of [hop] samples the outputs are the microphone signals filtered by the filters of the block, without any
    seam between the blocks; the filters of a block are those of the block before, moved by [j_max] steps along the gradient and
    smoothed with [lambd_a]; the filters returned are those of the last block. *)
Theorem C139_output : forall P L K N j_max alpha_on samples delta_max sigma2_0 mu lambd_a s w0 y n_out w, trinicon P L K N j_max delta_max sigma2_0 mu lambd_a alpha_on samples s w0 = Some (y, n_out, w) ->
  let hop := (K * L / alpha_on)%nat in exists ws, ws 0%nat = start P L w0 /\ ws (n_out / hop)%nat = w /\
  (forall i p q l, (i < n_out / hop)%nat -> (q < 2)%nat -> (l < L)%nat -> ws (S i) p q l = lambd_a * ws i p q l + (1 - lambd_a) * descend P L K N samples delta_max sigma2_0 mu s hop (S i) j_max (ws i) p q l) /\
  forall q n, (n < n_out / hop * hop)%nat -> y q n = filtered P L samples s (ws (S (n / hop))) q (Z.of_nat n).
Proof.
  intros P L K N j_max alpha_on samples dm s20 mu la s w0 y n_out w H hop. destruct (run_spec P L K N j_max alpha_on samples dm s20 mu la s w0 y n_out w H) as (_ & HL & _ & ws & A & B & W & D). fold hop in B, W, D. exists ws. split; [exact A|]. split; [exact B|]. split.
  - intros i p q l Hi Hq Hl. rewrite W by auto. unfold online_w. rewrite (offline_descend P L K N samples dm s20 mu s hop (S i) j_max HL (ws i) p q l) by auto. reflexivity.
  - intros q n Hn. rewrite D. destruct (Nat.ltb_spec n (n_out / hop * hop)); [reflexivity|lia].
Qed.
Print Assumptions C139_output.
(** Separated signals stay separated: if in all blocks the outputs of the initial filters are uncorrelated at all lags up to the
    length of the filters, the filters do not change. *)
Theorem C139_stationary : forall P L K N j_max alpha_on samples delta_max sigma2_0 mu lambd_a s w0 y n_out w, trinicon P L K N j_max delta_max sigma2_0 mu lambd_a alpha_on samples s w0 = Some (y, n_out, w) ->
  let hop := (K * L / alpha_on)%nat in let out q t := filtered P L samples s (start P L w0) q t in
  (forall m i lag, (1 <= m <= n_out / hop)%nat -> (i < K)%nat -> (- Z.of_nat L < lag < Z.of_nat L)%Z -> let t0 := (Z.of_nat (m * hop) - Z.of_nat (K * L + N) + Z.of_nat (L + i * L))%Z in
     corr N (fun n => out 1%nat (t0 + Z.of_nat n)%Z) (fun n => out 0%nat (t0 + Z.of_nat n)%Z) lag = 0) ->
  (forall p q l, (l < L)%nat -> w p q l = start P L w0 p q l) /\ forall q n, (n < n_out / hop * hop)%nat -> y q n = out q (Z.of_nat n).
Proof.
  intros P L K N j_max alpha_on samples dm s20 mu la s w0 y n_out w H hop out HU. destruct (run_spec P L K N j_max alpha_on samples dm s20 mu la s w0 y n_out w H) as (Hh & HL & _ & ws & A & B & W & D). fold hop in Hh, B, W, D. set (w1 := start P L w0) in *.
  assert (ST : forall i, (i <= n_out / hop)%nat -> ws i = w1).
  { induction i as [|i IH]; intros Hi; [exact A|]. rewrite W by lia. rewrite IH by lia. unfold online_w. set (x := chunk L K N hop _ (S i)). assert (Z0 : delta_w P L K N dm s20 x w1 = fun _ _ _ => 0).
    { extensionality p. extensionality q. extensionality l. unfold delta_w. rewrite bsum_zero_ext; [unfold Rdiv; ring|]. intros b Hb. unfold valid. apply bsum_zero_ext. intros t Ht. assert (C0 : r_cross P L N x w1 q b (L - 1 - l + (L - 1 - t)) = 0).
      { rewrite cross_corr by lia. assert (EB : forall q', y_block P L x w1 q' b = fun n => out q' (Z.of_nat (S i * hop) - Z.of_nat (K * L + N) + Z.of_nat (L + b * L) + Z.of_nat n)%Z) by (intros q'; extensionality n; unfold x; rewrite block_time; unfold out; f_equal; lia). rewrite !EB.
        destruct (Nat.eqb q 0); [|rewrite corr_sym]; apply (HU (S i) b); lia. }
      rewrite C0. unfold Rdiv. ring. }
    assert (OF : forall j, offline_loop P L K N dm s20 mu x j w1 = w1). { induction j as [|j IHj]; [reflexivity|]. cbn. replace (offline P L K N dm s20 mu x w1) with w1; [exact IHj|]. unfold offline. rewrite Z0. extensionality p. extensionality q. extensionality l. ring. }
    rewrite OF. extensionality p. extensionality q. extensionality l. ring. }
  split; [intros p q l _; rewrite <- B, ST by lia; reflexivity|]. intros q n Hn. rewrite D. destruct (Nat.ltb_spec n (n_out / hop * hop)); [|lia]. rewrite ST; [reflexivity|]. assert (n / hop < n_out / hop)%nat; [|lia]. apply Nat.div_lt_upper_bound; lia.
Qed.
Print Assumptions C139_stationary.
(** The outputs have no preferred order: exchanged initial filters give exchanged outputs and filters. *)
Theorem C139_swap : forall P L K N j_max alpha_on samples delta_max sigma2_0 mu lambd_a s w0 y n_out w, trinicon P L K N j_max delta_max sigma2_0 mu lambd_a alpha_on samples s (Some w0) = Some (y, n_out, w) ->
  exists y', trinicon P L K N j_max delta_max sigma2_0 mu lambd_a alpha_on samples s (Some (swap w0)) = Some (y', n_out, swap w) /\ forall n, y' 0%nat n = y 1%nat n /\ y' 1%nat n = y 0%nat n.
Proof.
  intros P L K N j_max alpha_on samples dm s20 mu la s w0 y n_out w H. pose proof (run_spec P L K N j_max alpha_on samples dm s20 mu la s (Some w0) y n_out w H) as (_ & HL & _). unfold trinicon in *. destruct (Nat.eqb alpha_on 0); [discriminate|]. set (hop := (K * L / alpha_on)%nat) in *. destruct (Nat.eqb hop 0); [discriminate|]. destruct (_ || _); [discriminate|]. set (total := if Nat.eqb (samples mod hop) 0 then _ else _) in *. set (sg := fun p n => if (n <? samples)%nat then s p n else 0) in *.
  assert (E := f_equal (fun o => match o with Some x => x | None => (y, n_out, w) end) H). cbn in E. apply pair_equal_spec in E. destruct E as [E Ew]. apply pair_equal_spec in E. destruct E as [Ey En].
  destruct (swap_online P L K N j_max dm s20 mu la hop sg (total / hop) HL 1 w0 (fun _ _ => 0) (fun _ _ => 0)) as [S1 S2]; [reflexivity|]. rewrite <- Ey, <- Ew, <- En. eexists. split; [cbv zeta; rewrite S2; reflexivity|]. intros n. split; apply S1.
Qed.
Print Assumptions C139_swap.

(** Beside the theorems. *)
(** default filters of four microphones: the first output is the first two delayed by half the filters, the second the others *)
Lemma default_filters : forall s t, filtered 4 4 20 s (initial 4 4) 0 t = at_time (s 0%nat) 20 (t - 2) + at_time (s 1%nat) 20 (t - 2) /\ filtered 4 4 20 s (initial 4 4) 1 t = at_time (s 2%nat) 20 (t - 2) + at_time (s 3%nat) 20 (t - 2).
Proof. intros s t. unfold filtered, initial, bsum. cbn -[at_time]. split; ring. Qed.
(** one microphone silent: the outputs are uncorrelated, and the run keeps the default filters *)
Definition one_mic : sigs := fun p n => if Nat.eqb p 0 then INR (n + 1) else 0.
Example C139_stationary_case : exists y n_out w, trinicon 2 4 2 8 10 (1 / 10000) (1 / 10000) (1 / 1000) (1 / 5) 2 12 one_mic None = Some (y, n_out, w) /\ n_out = 12%nat /\ y 0%nat 5%nat = 4 /\ y 1%nat 5%nat = 0 /\ w 0%nat 0%nat 2%nat = 1.
Proof.
  assert (E : exists r, trinicon 2 4 2 8 10 (1 / 10000) (1 / 10000) (1 / 1000) (1 / 5) 2 12 one_mic None = Some r /\ snd (fst r) = 12%nat) by (eexists; split; reflexivity). destruct E as ([[y n_out] w] & E & En). cbn in En. subst n_out. exists y, 12%nat, w. split; [exact E|]. split; [reflexivity|].
  assert (Q1 : forall t, filtered 2 4 12 one_mic (start 2 4 None) 1 t = 0) by (intros t; unfold filtered, initial, bsum; cbn -[at_time INR]; assert (Z1 : forall t', at_time (one_mic 1%nat) 12 t' = 0) by (intros t'; unfold at_time, one_mic; destruct (_ && _); reflexivity); rewrite !Z1; ring).
  destruct (C139_stationary _ _ _ _ _ _ _ _ _ _ _ _ _ _ _ _ E) as [W Y].
  { intros m i lag _ _ _ t0. unfold corr. apply bsum_zero_ext. intros n _. apply bsum_zero_ext. intros k _. rewrite Q1. destruct (_ =? _)%Z; ring. }
  rewrite !Y by (vm_compute; lia). rewrite W by lia. rewrite Q1. split; [|split; reflexivity]. unfold filtered, initial, bsum. cbn -[at_time INR]. unfold at_time, one_mic. cbn -[INR]. change (Pos.to_nat 3 + 1)%nat with 4%nat. replace (INR 4) with 4 by (simpl; ring). ring.
Qed.
(** Finding: the padding is computed from the number of microphones (92-95), so that the end of the signals is lost: of five
    samples four are processed, and the output has seven samples. *)
Theorem C139_padding_refuted : exists s y n_out w, trinicon 2 4 1 8 0 (1 / 10000) (1 / 10000) (1 / 1000) (1 / 5) 1 5 s None = Some (y, n_out, w) /\ n_out = 7%nat /\ (n_out / 4 * 4 = 4)%nat /\ filtered 2 4 5 s w 0 4 = 3 /\ y 0%nat 4%nat = 0.
Proof.
  exists one_mic. assert (E : exists r, trinicon 2 4 1 8 0 (1 / 10000) (1 / 10000) (1 / 1000) (1 / 5) 1 5 one_mic None = Some r) by (eexists; reflexivity). destruct E as ([[y n_out] w] & E). exists y, n_out, w. split; [exact E|].
  destruct (run_spec _ _ _ _ _ _ _ _ _ _ _ _ _ _ _ _ E) as (_ & _ & En & ws & W0 & W1 & W2 & Y). replace (_ mod _)%nat with 1%nat in En by reflexivity. cbn in En. subst n_out. split; [reflexivity|]. split; [reflexivity|]. split; [|rewrite Y; reflexivity].
  replace w with (ws 1%nat) by exact W1. rewrite (W2 0%nat) by (cbn; lia). rewrite W0. unfold online_w. cbn [offline_loop]. unfold filtered, start, initial, bsum. cbn -[at_time INR]. unfold at_time, one_mic. cbn -[INR]. change (Pos.to_nat 2 + 1)%nat with 3%nat. replace (INR 3) with 3 by (simpl; ring). lra.
Qed.
Print Assumptions C139_padding_refuted.
