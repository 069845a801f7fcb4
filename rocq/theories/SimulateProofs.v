(** Proofs about Room.simulate. *)
From Coq Require Import List ZArith Lia Reals Lra Bool.
From Verif Require Import Base BaseProofs Vec RirModel RirProofs SimulateModel SimulateSpec.
Import ListNotations.
Local Open Scope R_scope.

Lemma Zlist_max_in : forall l, l <> [] -> In (Zlist_max l) l.
Proof.
  intros [|a l] H; [congruence|]. unfold Zlist_max. simpl. clear H. revert a.
  induction l as [|b l IH]; intros a; simpl; auto. destruct (IH (Z.max a b)) as [E|E]; [|auto].
  rewrite <- E. destruct (Z.max_spec a b) as [[_ ->]|[_ ->]]; auto.
Qed.
Lemma maxZ_ne : forall l, l <> [] -> maxZ l = Some (Zlist_max l).
Proof. intros [|a l] H; [congruence|reflexivity]. Qed.

Lemma conv_length : forall h x, h <> [] -> x <> [] -> length (conv h x) = (length h + length x - 1)%nat.
Proof. intros [|a h] [|b x] H1 H2; try congruence. unfold conv. now rewrite map_length, seq_length. Qed.
Lemma conv_nth : forall h x n, h <> [] -> x <> [] -> nth n (conv h x) 0 =
  Rsum (map (fun k => nth k h 0 * at_time x (Z.of_nat n - Z.of_nat k)) (seq 0 (length h))).
Proof.
  intros h x n H1 H2. destruct (Nat.lt_ge_cases n (length h + length x - 1)) as [L|L].
  - destruct h as [|a h]; [congruence|]. destruct x as [|b x]; [congruence|]. unfold conv. rewrite nth_map_seq by auto.
    apply Rsum_map_ext. intros k Hk. unfold at_time. destruct (Nat.leb_spec k n).
    + destruct (Z.ltb_spec (Z.of_nat n - Z.of_nat k) 0); [lia|]. do 2 f_equal. lia.
    + destruct (Z.ltb_spec (Z.of_nat n - Z.of_nat k) 0); [lra|lia].
  - rewrite nth_overflow by (rewrite conv_length; auto). symmetry. apply Rsum_map_zero. intros k Hk. apply in_seq in Hk.
    unfold at_time. destruct (Z.ltb_spec (Z.of_nat n - Z.of_nat k) 0); [lra|]. rewrite (nth_overflow x); [lra|lia].
Qed.
Lemma heard_conv : forall fs h s (i : nat), h <> [] -> signal_of s <> [] -> (0 <= Zfloor (so_delay s * fs))%Z ->
  heard fs h s (Z.of_nat i) = if (Zfloor (so_delay s * fs) <=? Z.of_nat i)%Z then nth (i - Z.to_nat (Zfloor (so_delay s * fs))) (conv h (signal_of s)) 0 else 0.
Proof.
  intros fs h s i H1 H2 Hd. unfold heard. set (d := Zfloor (so_delay s * fs)) in *. destruct (Z.leb_spec d (Z.of_nat i)).
  - rewrite conv_nth by auto. apply Rsum_map_ext. intros k Hk. do 2 f_equal. lia.
  - apply Rsum_map_zero. intros k _. unfold at_time. destruct (Z.ltb_spec (Z.of_nat i - d - Z.of_nat k) 0); [lra|lia].
Qed.

Section Ready.
Variables (rir : list (list (list R))) (M : nat) (fs : R) (sources : list source).
Hypothesis Hr : ready rir M fs sources.

Lemma r_ne : sources <> []. Proof. apply Hr. Qed.
Lemma r_M : (0 < M)%nat. Proof. apply Hr. Qed.
Lemma r_row : forall m, (m < M)%nat -> length (nth m rir []) = length sources.
Proof. intros m H. destruct Hr as (_ & _ & _ & L & R & _). apply R. apply nth_In. lia. Qed.
Lemma r_at : forall m s, (m < M)%nat -> (s < length sources)%nat -> rir_at rir m s = Some (response rir m s).
Proof.
  intros m s Hm Hs. unfold rir_at, response. destruct Hr as (_ & _ & _ & L & _). rewrite (nth_error_nth' rir []) by lia. cbn [bind].
  apply nth_error_nth'. rewrite r_row; auto.
Qed.
Lemma r_resp : forall m s, (m < M)%nat -> (s < length sources)%nat -> response rir m s <> [].
Proof.
  intros m s Hm Hs. unfold response. destruct Hr as (_ & _ & _ & L & R & _). apply (R (nth m rir [])); [apply nth_In; lia|].
  apply nth_In. rewrite r_row; auto.
Qed.
Lemma r_src : forall s, In s sources -> exists x, so_signal s = Some x /\ x <> [] /\ signal_of s = x /\ (0 <= Zfloor (so_delay s * fs))%Z.
Proof.
  intros s H. destruct Hr as (_ & _ & F & _ & _ & R). destruct (R s H) as [A B]. unfold signal_of in *.
  destruct (so_signal s) as [x|]; [|congruence]. exists x. repeat split; auto.
  rewrite <- (Zfloor_unique 0 0) by lra. apply Zfloor_le. now apply Rmult_le_pos.
Qed.

Definition ends : list Z := map (fun s => Z.of_nat (length (signal_of s)) + Zfloor (so_delay s * fs))%Z sources.
Definition lens : list Z := map (fun ij => Z.of_nat (length (response rir (fst ij) (snd ij)))) (list_prod (seq 0 M) (seq 0 (length sources))).
Definition need : Z := (Zlist_max lens + Zlist_max ends - 1)%Z.
Definition LZ : Z := if (need mod 2 =? 1)%Z then (need + 1)%Z else need.

Lemma ends_ne : ends <> []. Proof. unfold ends. pose proof r_ne. destruct sources; simpl; congruence. Qed.
Lemma lens_ne : lens <> [].
Proof. unfold lens. pose proof r_ne. pose proof r_M. destruct M; [lia|]. destruct sources; [congruence|]. simpl. discriminate. Qed.

Lemma buffer_length_eq : buffer_length rir M fs sources = Some LZ.
Proof.
  unfold buffer_length.
  rewrite (mapM_ext_in _ (fun ij => Some (Z.of_nat (length (response rir (fst ij) (snd ij)))))).
  2:{ intros [m s] H. apply in_prod_iff in H as [H1 H2]. apply in_seq in H1, H2. cbn [fst snd]. rewrite r_at by lia. reflexivity. }
  rewrite mapM_total. cbn [bind]. fold lens. rewrite (maxZ_ne _ lens_ne). cbn [bind].
  rewrite (mapM_ext_in _ (fun s => Some (Z.of_nat (length (signal_of s)) + Zfloor (so_delay s * fs))%Z)).
  2:{ intros s H. destruct (r_src s H) as (x & E & _ & E2 & _). unfold signal_end. rewrite E, E2. reflexivity. }
  rewrite mapM_total. cbn [bind]. fold ends. rewrite (maxZ_ne _ ends_ne). reflexivity.
Qed.

Lemma end_le : forall m s src, (m < M)%nat -> nth_error sources s = Some src ->
  (Zfloor (so_delay src * fs) + Z.of_nat (length (signal_of src)) + Z.of_nat (length (response rir m s)) - 1 <= need)%Z.
Proof.
  intros m s src Hm Hs. assert (Hlt : (s < length sources)%nat) by (apply nth_error_Some; congruence).
  unfold need. pose proof (Zlist_max_ge lens (Z.of_nat (length (response rir m s)))) as A.
  pose proof (Zlist_max_ge ends (Z.of_nat (length (signal_of src)) + Zfloor (so_delay src * fs))%Z) as B.
  assert (In (Z.of_nat (length (response rir m s))) lens).
  { unfold lens. apply in_map_iff. exists (m, s). split; auto. apply in_prod; apply in_seq; lia. }
  assert (In (Z.of_nat (length (signal_of src)) + Zfloor (so_delay src * fs))%Z ends).
  { unfold ends. apply in_map_iff. exists src. split; auto. eapply nth_error_In; eauto. }
  specialize (A H). specialize (B H0). lia.
Qed.
Lemma need_le_LZ : (need <= LZ)%Z. Proof. unfold LZ. destruct (need mod 2 =? 1)%Z; lia. Qed.
Lemma LZ_nonneg : (0 <= LZ)%Z.
Proof.
  pose proof need_le_LZ. pose proof r_M. pose proof r_ne.
  assert (exists src, nth_error sources 0 = Some src) as (src & E) by (destruct sources; [congruence|simpl; eauto]).
  pose proof (end_le 0 0 src H0 E). destruct (r_src src) as (x & _ & Nx & Ex & Hd); [eapply nth_error_In; eauto|].
  rewrite Ex in H2. destruct x; [congruence|]. simpl length in H2. lia.
Qed.
Lemma LZ_least : least_even_from need LZ.
Proof.
  unfold least_even_from, LZ. pose proof (Z.div_mod need 2 ltac:(lia)). pose proof (Z.mod_pos_bound need 2 ltac:(lia)).
  destruct (Z.eqb_spec (need mod 2) 1) as [E|E].
  - assert (Z.odd need = true) by (apply Z.odd_spec; exists (need / 2)%Z; lia). split; [|split].
    + rewrite Z.even_add. rewrite <- Z.negb_odd, H1. reflexivity.
    + lia.
    + intros k Hk Hle. destruct (Z.eq_dec k need) as [->|]; [|lia]. rewrite <- Z.negb_odd, H1 in Hk. discriminate.
  - split; [|split; intros; lia]. apply Z.even_spec. exists (need / 2)%Z. lia.
Qed.

Definition L : nat := Z.to_nat LZ.

Lemma slice_bound_pos : forall n z, (0 <= z <= Z.of_nat n)%Z -> slice_bound n z = Z.to_nat z.
Proof. intros n z H. unfold slice_bound. destruct (Z.ltb_spec z 0); lia. Qed.

Lemma premix_one_eq : forall m s src, (m < M)%nat -> nth_error sources s = Some src ->
  premix_one rir fs L m s src = Some (map (fun i => heard fs (response rir m s) src (Z.of_nat i)) (seq 0 L)).
Proof.
  intros m s src Hm Hs. assert (Hlt : (s < length sources)%nat) by (apply nth_error_Some; congruence).
  destruct (r_src src) as (x & E & Nx & Ex & Hd); [eapply nth_error_In; eauto|].
  pose proof (r_resp m s Hm Hlt) as Nh. pose proof (end_le m s src Hm Hs) as El. pose proof need_le_LZ. pose proof LZ_nonneg.
  unfold premix_one. rewrite E, r_at by auto. cbn [bind]. rewrite Ex in El. set (d := Zfloor (so_delay src * fs)) in *. set (h := response rir m s) in *.
  assert (Px : (0 < length x)%nat) by (destruct x; [congruence|simpl; lia]).
  assert (Ph : (0 < length h)%nat) by (destruct h; [congruence|simpl; lia]).
  unfold slice_add. cbv zeta. rewrite repeat_length.
  rewrite !slice_bound_pos by (unfold L; lia).
  rewrite conv_length by auto.
  destruct (Nat.eqb_spec (length h + length x - 1) (Z.to_nat (d + Z.of_nat (length x) + Z.of_nat (length h) - 1) - Z.to_nat d)) as [Q|Q]; [|lia].
  f_equal. apply map_ext_in. intros i Hi. apply in_seq in Hi. rewrite nth_repeat. fold h.
  rewrite heard_conv; [|auto|rewrite Ex; auto|auto]. rewrite Ex. fold d.
  destruct (Nat.leb_spec (Z.to_nat d) i), (Z.leb_spec d (Z.of_nat i)); try lia; cbn [andb]; [|lra].
  destruct (Nat.ltb_spec i (Z.to_nat (d + Z.of_nat (length x) + Z.of_nat (length h) - 1))).
  - lra.
  - rewrite nth_overflow; [lra|]. rewrite conv_length by auto. lia.
Qed.

(** Nothing is heard after the end of the buffer. *)
Lemma heard_end : forall m s src i, (m < M)%nat -> nth_error sources s = Some src -> (L <= i)%nat ->
  heard fs (response rir m s) src (Z.of_nat i) = 0.
Proof.
  intros m s src i Hm Hs Hi. assert (Hlt : (s < length sources)%nat) by (apply nth_error_Some; congruence).
  destruct (r_src src) as (x & E & Nx & Ex & Hd); [eapply nth_error_In; eauto|].
  pose proof (end_le m s src Hm Hs) as El. pose proof need_le_LZ. pose proof LZ_nonneg.
  rewrite heard_conv; [|apply r_resp; auto|rewrite Ex; auto|auto].
  destruct (Z.leb_spec (Zfloor (so_delay src * fs)) (Z.of_nat i)); auto.
  apply nth_overflow. rewrite conv_length; [|apply r_resp; auto|rewrite Ex; auto]. unfold L in Hi. lia.
Qed.

Definition pm_row (s m : nat) : list R := map (fun i => heard fs (response rir m s) (nth s sources {| so_signal := None; so_delay := 0 |}) (Z.of_nat i)) (seq 0 L).
Definition pm : list (list (list R)) := map (fun s => map (pm_row s) (seq 0 M)) (seq 0 (length sources)).

Lemma premix_eq : premix rir M fs sources L = Some pm.
Proof.
  unfold premix, pm. rewrite (mapM_ext_in _ (fun s => Some (map (pm_row s) (seq 0 M)))); [apply mapM_total|].
  intros s Hs. apply in_seq in Hs. rewrite (nth_error_nth' sources {| so_signal := None; so_delay := 0 |}) by lia. cbn [bind].
  rewrite (mapM_ext_in _ (fun m => Some (pm_row s m))); [apply mapM_total|].
  intros m Hm. apply in_seq in Hm. apply premix_one_eq; [lia|]. apply nth_error_nth'. lia.
Qed.

Lemma pm_nth : forall s m i, (s < length sources)%nat -> (m < M)%nat ->
  nth i (nth m (nth s pm []) []) 0 = heard fs (response rir m s) (nth s sources {| so_signal := None; so_delay := 0 |}) (Z.of_nat i).
Proof.
  intros s m i Hs Hm. unfold pm. rewrite nth_map_seq by auto. rewrite nth_map_seq by auto. unfold pm_row.
  destruct (Nat.lt_ge_cases i L) as [H|H].
  - now rewrite nth_map_seq.
  - rewrite nth_overflow by (rewrite map_length, seq_length; auto). symmetry. apply heard_end; auto. apply nth_error_nth'. auto.
Qed.

Lemma simulate_prefix : forall gauss sigma2 how, simulate gauss rir M fs sources sigma2 how =
  match how with
  | Callback f => Some (pm, f pm, None)
  | Snr snr ref =>
      let* denom := mapM (fun p => let* x := nth_error p ref in Some (std x)) pm in
      let pm' := map (fun pd => map (map (fun v => v / snd pd)) (fst pd)) (combine pm denom) in
      let sigma2' := Some (Rpower 10 (- snr / 10) * INR (length sources)) in
      Some (pm', add_noise gauss sigma2' (sum_sources L M pm'), sigma2')
  | Plain => Some (pm, add_noise gauss sigma2 (sum_sources L M pm), sigma2)
  end.
Proof.
  intros. unfold simulate. destruct (Nat.eqb_spec (length sources) 0) as [E|_].
  { exfalso. apply r_ne. now apply length_zero_iff_nil. }
  rewrite buffer_length_eq. cbn [bind]. unfold pos. pose proof LZ_nonneg. destruct (Z.ltb_spec LZ 0); [lia|]. cbn [bind]. fold L.
  rewrite premix_eq. reflexivity.
Qed.

Lemma sum_sources_nth : forall p m i, (m < M)%nat -> (i < L)%nat -> nth i (nth m (sum_sources L M p) []) 0 =
  Rsum (map (fun x => nth i (nth m x []) 0) p).
Proof. intros. unfold sum_sources. rewrite nth_map_seq by auto. now rewrite nth_map_seq. Qed.
Lemma sum_sources_len : forall p, length (sum_sources L M p) = M /\ forall m, (m < M)%nat -> length (nth m (sum_sources L M p) []) = L.
Proof.
  intros. unfold sum_sources. rewrite map_length, seq_length. split; auto. intros m Hm.
  rewrite nth_map_seq by auto. now rewrite map_length, seq_length.
Qed.

Lemma add_noise_len : forall g v l, length (add_noise g v l) = length l /\ forall m, (m < length l)%nat -> length (nth m (add_noise g v l) []) = length (nth m l []).
Proof.
  intros g [v|] l; simpl; auto. rewrite map_length, seq_length. split; auto. intros m Hm.
  rewrite nth_map_seq by auto. now rewrite map_length, seq_length.
Qed.
Lemma add_noise_nth : forall g v l m i, (m < length l)%nat -> (i < length (nth m l []))%nat ->
  nth i (nth m (add_noise g (Some v) l) []) 0 = nth i (nth m l []) 0 + sqrt v * g m i.
Proof. intros. simpl. rewrite nth_map_seq by auto. now rewrite nth_map_seq. Qed.
End Ready.

(** ** Normalisation *)
Lemma Rsum_map_div : forall x d, Rsum (map (fun v => v / d) x) = Rsum x / d.
Proof.
  intros x d. rewrite (Rsum_map_ext _ (fun v => / d * v)) by (intros; unfold Rdiv; ring).
  rewrite (Rsum_map_scal (/ d) (fun v => v)), map_id. unfold Rdiv. ring.
Qed.
Lemma variance_scaled : forall x d, d <> 0 -> variance (map (fun v => v / d) x) = variance x / (d * d).
Proof.
  intros x d Hd. unfold variance. unfold mean at 1 3. rewrite !map_length.
  assert (E : mean (map (fun v => v / d) x) = mean x / d).
  { unfold mean. rewrite Rsum_map_div, map_length. unfold Rdiv. ring. }
  rewrite E, map_map.
  rewrite (Rsum_map_ext (fun v => (v / d - mean x / d) ^ 2) (fun v => / (d * d) * (v - mean x) ^ 2)).
  - rewrite (Rsum_map_scal (/ (d * d)) (fun v => (v - mean x) ^ 2)). unfold Rdiv. ring.
  - intros v _. field. auto.
Qed.
Lemma variance_nonneg : forall x, 0 <= variance x.
Proof.
  intros x. unfold variance, mean at 1. rewrite map_length.
  assert (H : 0 <= Rsum (map (fun v => (v - mean x) ^ 2) x)).
  { generalize (mean x) as mu. intros mu. induction x as [|a x IH]; unfold Rsum in *; cbn [map fold_right]; [lra|].
    apply Rplus_le_le_0_compat; auto. apply pow2_ge_0. }
  destruct x as [|a x].
  - simpl. unfold Rdiv. rewrite Rmult_0_l. lra.
  - apply Rmult_le_pos; auto. left. apply Rinv_0_lt_compat. apply lt_0_INR. simpl. lia.
Qed.
Lemma variance_normalised : forall x, std x <> 0 -> variance (map (fun v => v / std x) x) = 1.
Proof.
  intros x H. rewrite variance_scaled by auto. unfold std in *. rewrite sqrt_sqrt by apply variance_nonneg.
  field. intros E. apply H. rewrite E. apply sqrt_0.
Qed.

Lemma variance_population : forall x, variance x = population_variance x.
Proof.
  intros x. unfold variance, population_variance, mean at 1. rewrite map_length. cbv zeta. f_equal.
  apply Rsum_map_ext. intros v _. unfold mean. ring.
Qed.
Lemma Rsum_sq_zero : forall (f : R -> R) x, Rsum (map (fun v => f v ^ 2) x) = 0 -> forall v, In v x -> f v = 0.
Proof.
  intros f x. assert (P : forall y, 0 <= Rsum (map (fun v => f v ^ 2) y)).
  { induction y as [|a y IH]; unfold Rsum in *; cbn [map fold_right]; [lra|]. apply Rplus_le_le_0_compat; auto. apply pow2_ge_0. }
  induction x as [|a x IH]; intros E v; [easy|]. unfold Rsum in *. cbn [map fold_right] in E. specialize (P x). unfold Rsum in P.
  pose proof (pow2_ge_0 (f a)). intros [<-|H1].
  - assert (F : f a ^ 2 = 0) by lra. simpl in F. rewrite Rmult_1_r in F. now apply Rmult_integral in F as [F|F].
  - apply IH; auto. lra.
Qed.
Lemma std_nonconstant : forall x i j, (i < length x)%nat -> (j < length x)%nat -> nth i x 0 <> nth j x 0 -> 0 < std x.
Proof.
  intros x i j Hi Hj N. unfold std. apply sqrt_lt_R0. destruct (Rle_lt_or_eq_dec 0 (variance x) (variance_nonneg x)) as [P|E]; auto.
  exfalso. apply N. assert (Pn : INR (length x) <> 0) by (apply not_0_INR; lia).
  unfold variance, mean at 1 in E. rewrite map_length in E. symmetry in E. apply Rmult_integral in E as [E|E].
  - assert (Z : forall v, In v x -> v - mean x = 0) by (apply Rsum_sq_zero; auto).
    pose proof (Z _ (nth_In x 0 Hi)). pose proof (Z _ (nth_In x 0 Hj)). lra.
  - exfalso. revert E. now apply Rinv_neq_0_compat.
Qed.

Section Results.
Variables (gauss : nat -> nat -> R) (rir : list (list (list R))) (M : nat) (fs : R) (sources : list source).
Hypothesis Hr : ready rir M fs sources.
Let Ln := L rir M fs sources.
Let PM := pm rir M fs sources.

Lemma longest_lens : longest_response rir M (length sources) (Zlist_max (lens rir M sources)).
Proof.
  split.
  - pose proof (Zlist_max_in _ (lens_ne _ _ _ _ Hr)) as H. apply in_map_iff in H as ((m & s) & E & H). cbn [fst snd] in E.
    apply in_prod_iff in H as [A B]. apply in_seq in A, B. exists m, s. repeat split; try lia; auto.
  - intros k (m & s & Hm & Hs & ->). apply Zlist_max_ge. apply in_map_iff. exists (m, s). split; auto. apply in_prod; apply in_seq; lia.
Qed.
Lemma latest_ends : latest_end fs sources (Zlist_max (ends fs sources)).
Proof.
  split.
  - pose proof (Zlist_max_in _ (ends_ne _ _ _ _ Hr)) as H. apply in_map_iff in H as (s & E & H). eauto.
  - intros k (s & Hs & ->). apply Zlist_max_ge. apply in_map_iff. eauto.
Qed.
Lemma Ln_least : least_even_from (Zlist_max (lens rir M sources) + Zlist_max (ends fs sources) - 1) (Z.of_nat Ln).
Proof.
  unfold Ln, L. rewrite Z2Nat.id by (eapply LZ_nonneg; eauto). apply LZ_least.
Qed.
Lemma PM_len : length PM = length sources. Proof. unfold PM, pm. now rewrite map_length, seq_length. Qed.
Lemma PM_row : forall s m, (s < length sources)%nat -> (m < M)%nat -> length (nth m (nth s PM []) []) = Ln.
Proof. intros. unfold PM, pm. rewrite !nth_map_seq by auto. unfold pm_row. now rewrite map_length, seq_length. Qed.
Lemma PM_rows : forall s, (s < length sources)%nat -> length (nth s PM []) = M.
Proof. intros. unfold PM, pm. rewrite nth_map_seq by auto. now rewrite map_length, seq_length. Qed.
Lemma PM_nth : forall s m i, (s < length sources)%nat -> (m < M)%nat -> sample (nth s PM []) m i = contribution rir fs sources m s i.
Proof. intros. unfold sample, PM. now rewrite (pm_nth _ _ _ _ Hr). Qed.
Lemma contribution_end : forall s m i, (s < length sources)%nat -> (m < M)%nat -> (Ln <= i)%nat -> contribution rir fs sources m s i = 0.
Proof. intros. unfold contribution. apply (heard_end _ _ _ _ Hr); auto. now apply nth_error_nth'. Qed.

Lemma Rsum_list_seq : forall {A} (d : A) (f : A -> R) l, Rsum (map f l) = Rsum (map (fun s => f (nth s l d)) (seq 0 (length l))).
Proof.
  intros A d f l. f_equal. induction l as [|a l IH]; auto. simpl. f_equal. rewrite IH, <- seq_shift, map_map. reflexivity.
Qed.
Lemma sum_PM : forall p m i, length p = length sources -> (m < M)%nat -> (i < Ln)%nat ->
  sample (sum_sources Ln M p) m i = total (length sources) (fun s => sample (nth s p []) m i).
Proof.
  intros p m i Hp Hm Hi. unfold sample. unfold Ln. rewrite sum_sources_nth by auto. unfold total. rewrite (Rsum_list_seq []). now rewrite Hp.
Qed.

Lemma noisy : forall v p m, (m < M)%nat -> length (add_noise gauss v (sum_sources Ln M p)) = M /\
  length (nth m (add_noise gauss v (sum_sources Ln M p)) []) = Ln /\
  forall i, (i < Ln)%nat -> sample (add_noise gauss v (sum_sources Ln M p)) m i =
    sample (sum_sources Ln M p) m i + match v with Some v => sqrt v * gauss m i | None => 0 end.
Proof.
  intros v p m Hm. destruct (sum_sources_len rir M fs sources p) as [A B]. destruct (add_noise_len gauss v (sum_sources Ln M p)) as [C D].
  fold Ln in A, B. rewrite C, D by lia. rewrite A, B by auto. split; [|split]; auto. intros i Hi.
  destruct v as [v|]; [|simpl; ring]. unfold sample. rewrite add_noise_nth; auto; [lia|]. rewrite B; auto.
Qed.

(** The normalised premix. *)
Definition gains (ref : nat) : list R := map (fun s => std (nth ref (nth s PM []) [])) (seq 0 (length sources)).
Definition PMn (ref : nat) : list (list (list R)) := map (fun s => map (map (fun v => v / nth s (gains ref) 0)) (nth s PM [])) (seq 0 (length sources)).
Lemma denom_eq : forall ref, (ref < M)%nat -> mapM (fun p => let* x := nth_error p ref in Some (std x)) PM = Some (gains ref).
Proof.
  intros ref H. unfold gains. unfold PM at 1, pm.
  rewrite (mapM_ext_in _ (fun p => Some (std (nth ref p [])))).
  - rewrite mapM_total. f_equal. rewrite map_map. apply map_ext_in. intros s Hs. apply in_seq in Hs. f_equal.
    unfold PM, pm. now rewrite (nth_map_seq _ s) by lia.
  - intros p Hp. apply in_map_iff in Hp as (s & <- & Hs). rewrite (nth_error_nth' _ []) by (rewrite map_length, seq_length; auto). reflexivity.
Qed.
Lemma gains_len : forall ref, length (gains ref) = length sources. Proof. intros. unfold gains. now rewrite map_length, seq_length. Qed.
Lemma combine_seq : forall {A B} (a : A) (b : B) l m, length l = length m -> combine l m = map (fun i => (nth i l a, nth i m b)) (seq 0 (length l)).
Proof.
  intros A B a b l. induction l as [|x l IH]; intros [|y m] E; simpl in *; auto; try discriminate. f_equal.
  rewrite (IH m) by lia. rewrite <- seq_shift, map_map. reflexivity.
Qed.
Lemma PMn_eq : forall ref, map (fun pd => map (map (fun v => v / snd pd)) (fst pd)) (combine PM (gains ref)) = PMn ref.
Proof.
  intros ref. rewrite (combine_seq [] 0) by (rewrite gains_len; apply PM_len). rewrite map_map, PM_len. reflexivity.
Qed.
Lemma PMn_row : forall ref s m, (s < length sources)%nat -> (m < M)%nat ->
  nth m (nth s (PMn ref) []) [] = map (fun v => v / nth s (gains ref) 0) (nth m (nth s PM []) []).
Proof.
  intros ref s m Hs Hm. unfold PMn. rewrite nth_map_seq by auto. 
  rewrite (nth_indep _ [] (map (fun v => v / nth s (gains ref) 0) [])) by (rewrite map_length, PM_rows; auto).
  now rewrite map_nth.
Qed.
Lemma PMn_nth : forall ref s m i, (s < length sources)%nat -> (m < M)%nat ->
  sample (nth s (PMn ref) []) m i = contribution rir fs sources m s i / nth s (gains ref) 0.
Proof.
  intros ref s m i Hs Hm. unfold sample. rewrite PMn_row by auto. rewrite <- PM_nth by auto. unfold sample.
  destruct (Nat.lt_ge_cases i (length (nth m (nth s PM []) []))) as [H|H].
  - rewrite (nth_indep _ 0 (0 / nth s (gains ref) 0)) by (rewrite map_length; auto). now rewrite (map_nth (fun v => v / nth s (gains ref) 0)).
  - rewrite (nth_overflow (map _ _)) by (rewrite map_length; auto). rewrite nth_overflow by auto. unfold Rdiv; ring.
Qed.
Lemma PMn_len : forall ref, length (PMn ref) = length sources. Proof. intros. unfold PMn. now rewrite map_length, seq_length. Qed.
End Results.

Lemma db_sigma : forall snr n, 0 < n -> db (n / (Rpower 10 (- snr / 10) * n)) = snr.
Proof.
  intros snr n Hn. unfold db. assert (0 < Rpower 10 (- snr / 10)) by (unfold Rpower; apply exp_pos).
  replace (n / (Rpower 10 (- snr / 10) * n)) with (/ Rpower 10 (- snr / 10)) by (field; lra).
  rewrite <- Rpower_Ropp. unfold Rpower. rewrite ln_exp. field. 
  assert (ln 1 < ln 10) by (apply ln_increasing; lra). rewrite ln_1 in H0. lra.
Qed.
