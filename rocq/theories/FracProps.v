(** C62: the fractional delay filter bank. *)
From Coq Require Import List ZArith Lia Reals Lra Bool R_Ifp.
From Verif Require Import Base BaseProofs Vec Sum RirModel RirProofs SyncModel UtilModel UtilProps BandsProps.
Import ListNotations.
Local Open Scope R_scope.

(** What a filter for a delay of [d] >= 0 samples is: a sinc centred at d + (L-1)/2 under a Hann window
    starting at the whole part of the delay. *)
Definition delayed_sinc (L : nat) (d : R) (k : nat) : R :=
  if ((Zfloor d <=? Z.of_nat k) && (Z.of_nat k <? Zfloor d + Z.of_nat L))%Z
  then (if Nat.eqb L 1 then 1 else / 2 - / 2 * cos (2 * PI * (INR k - IZR (Zfloor d)) / INR (L - 1))) * sinc (INR k - d - (INR L - 1) / 2)
  else 0.

Definition put (bank : vec) (iv : Z * R) : option vec := let* i := pos (fst iv) in store bank i (snd iv).
Lemma foldM_flat_map : forall {A B X} (f : X -> B -> option X) (g : A -> list B) l s, foldM f (flat_map g l) s = foldM (fun s a => foldM f (g a) s) l s.
Proof.
  assert (App : forall {B X} (f : X -> B -> option X) l1 l2 s, foldM f (l1 ++ l2) s = bind (foldM f l1 s) (foldM f l2)).
  { intros B X f. induction l1 as [|a l1 IH]; intros l2 s; cbn; auto. destruct (f s a); cbn; auto. }
  intros A B X f g. induction l as [|a l IH]; intros s; cbn; auto. rewrite App. destruct (foldM f (g a) s); cbn; auto.
Qed.
Lemma put_one : forall bank i v, (0 <= i < Z.of_nat (length bank))%Z -> exists bank', put bank (i, v) = Some bank' /\ length bank' = length bank /\
  forall p, nth p bank' 0 = if Nat.eqb p (Z.to_nat i) then v else nth p bank 0.
Proof.
  intros bank i v H. unfold put, pos. cbn [fst snd]. destruct (Z.ltb_spec i 0); [lia|]. cbn [bind]. destruct (store_Some bank (Z.to_nat i) v) as (b & E & Lb & Hb); [lia|]. exists b. repeat split; auto. intros p. specialize (Hb p). destruct (Nat.eqb_spec p (Z.to_nat i)); [now apply nth_error_nth|]. destruct (nth_error bank p) eqn:Ep. - apply (nth_error_nth _ _ 0) in Ep. apply (nth_error_nth _ _ 0) in Hb. congruence. - apply nth_error_None in Ep. apply nth_error_None in Hb. now rewrite !nth_overflow.
Qed.
(** A run of consecutive stores. *)
Lemma put_run : forall n (base : Z) (val : nat -> R) a bank, (0 <= base)%Z -> (base + Z.of_nat (a + n) <= Z.of_nat (length bank))%Z ->
  exists bank', foldM put (map (fun t => ((Z.of_nat t + base)%Z, val t)) (seq a n)) bank = Some bank' /\ length bank' = length bank /\
  forall p, nth p bank' 0 = if ((base + Z.of_nat a <=? Z.of_nat p) && (Z.of_nat p <? base + Z.of_nat (a + n)))%Z then val (Z.to_nat (Z.of_nat p - base)) else nth p bank 0.
Proof.
  induction n as [|n IH]; intros base val a bank Hb Hl.
  - exists bank. repeat split; auto. intros p. destruct (Z.leb_spec (base + Z.of_nat a) (Z.of_nat p)), (Z.ltb_spec (Z.of_nat p) (base + Z.of_nat (a + 0))); cbn; auto. lia.
  - cbn [seq map foldM]. destruct (put_one bank (Z.of_nat a + base) (val a)) as (b1 & E1 & L1 & N1); [lia|]. rewrite E1. cbn [bind]. destruct (IH base val (S a) b1 Hb) as (b2 & E2 & L2 & N2); [lia|]. exists b2. split; auto. split; [lia|]. intros p. rewrite N2, N1.
    destruct (Z.leb_spec (base + Z.of_nat (S a)) (Z.of_nat p)), (Z.ltb_spec (Z.of_nat p) (base + Z.of_nat (S a + n))), (Z.leb_spec (base + Z.of_nat a) (Z.of_nat p)), (Z.ltb_spec (Z.of_nat p) (base + Z.of_nat (a + S n))); cbn [andb]; try lia; auto; destruct (Nat.eqb_spec p (Z.to_nat (Z.of_nat a + base))); auto; try lia. f_equal. lia.
Qed.
Lemma rmin_le : forall l v, In v l -> rmin l <= v.
Proof.
  intros [|a l] v H; [easy|]. cbn [rmin]. assert (G : forall l, fold_right Rmin a l <= a /\ forall v, In v l -> fold_right Rmin a l <= v).
  { induction l0 as [|b l0 [I1 I2]]; cbn; [split; [lra|easy]|]. split; [eapply Rle_trans; [apply Rmin_r|auto]|]. intros u [->|Hu]; [apply Rmin_l|eapply Rle_trans; [apply Rmin_r|auto]]. }
  destruct H as [<-|H]; [apply (proj1 (G l))|apply (proj2 (G l)); auto].
Qed.
Lemma rmin_in : forall l, l <> [] -> In (rmin l) l.
Proof.
  intros [|a l] H; [congruence|]. cbn [rmin]. clear H. induction l as [|b l IH]; [now left|]. cbn [fold_right]. destruct (Rle_dec b (fold_right Rmin a l)); [rewrite Rmin_left by auto; cbn; auto|]. rewrite Rmin_right by lra. destruct IH as [IH|IH]; [left|right; right]; auto.
Qed.
Lemma zmax_ge : forall l v, In v l -> (v <= zmax l)%Z.
Proof.
  intros [|a l] v H; [easy|]. cbn [zmax]. assert (G : forall l, (a <= fold_right Z.max a l)%Z /\ forall v, In v l -> (v <= fold_right Z.max a l)%Z).
  { induction l0 as [|b l0 [I1 I2]]; cbn; [split; [lia|easy]|]. split; [lia|]. intros u [->|Hu]; [lia|]. specialize (I2 u Hu). lia. }
  destruct H as [<-|H]; [apply (proj1 (G l))|apply (proj2 (G l)); auto].
Qed.
Lemma zmax_in : forall l, l <> [] -> In (zmax l) l.
Proof.
  intros [|a l] H; [congruence|]. cbn [zmax]. clear H. induction l as [|b l IH]; [now left|]. cbn [fold_right]. destruct (Z.max_spec b (fold_right Z.max a l)) as [[_ ->]|[_ ->]]; [|cbn; auto]. destruct IH as [IH|IH]; [left|right; right]; auto.
Qed.
(** Rows of stores: after the first [n] rows. *)
Lemma put_rows : forall (F : nat) (L N : nat) (di : nat -> Z) (val : nat -> nat -> R), (forall i, (i < N)%nat -> (0 <= di i)%Z /\ (di i + Z.of_nat L <= Z.of_nat F)%Z) ->
  forall n, (n <= N)%nat -> exists bank, foldM (fun s i => foldM put (map (fun t => ((Z.of_nat t + (di i + Z.of_nat F * Z.of_nat i))%Z, val i t)) (seq 0 L)) s) (seq 0 n) (repeat 0 (N * F)) = Some bank /\
  length bank = (N * F)%nat /\ forall i k, (i < N)%nat -> (k < F)%nat -> nth (i * F + k) bank 0 =
    if (i <? n)%nat && ((di i <=? Z.of_nat k) && (Z.of_nat k <? di i + Z.of_nat L))%Z then val i (Z.to_nat (Z.of_nat k - di i)) else 0.
Proof.
  intros F L N di val Hd. assert (App : forall {B X} (f : X -> B -> option X) l1 l2 s, foldM f (l1 ++ l2) s = bind (foldM f l1 s) (foldM f l2)).
  { intros B X f. induction l1 as [|a l1 IH]; intros l2 s; cbn; auto. destruct (f s a); cbn; auto. }
  induction n as [|n IH]; intros Hn.
  - exists (repeat 0 (N * F)). split; [reflexivity|]. split; [apply repeat_length|]. intros i k Hi Hk. rewrite nth_repeat. reflexivity.
  - destruct IH as (b & E & Lb & Nb); [lia|]. rewrite seq_S, App, E. cbn [bind foldM Nat.add]. destruct (Hd n ltac:(lia)) as [D1 D2].
    destruct (put_run L (di n + Z.of_nat F * Z.of_nat n) (val n) 0 b) as (b' & E' & L' & N'); [nia|rewrite Lb; nia|]. rewrite E'. cbn [bind]. exists b'. split; auto. split; [lia|]. intros i k Hi Hk. rewrite N', Nb by auto. rewrite Nat2Z.inj_add, Nat2Z.inj_mul.
    destruct (Nat.eq_dec i n) as [->|Hin].
    + rewrite (proj2 (Nat.ltb_ge n n)) by lia. rewrite (proj2 (Nat.ltb_lt n (S n))) by lia. cbn [andb Nat.add].
      assert (Q1 : (di n + Z.of_nat F * Z.of_nat n + Z.of_nat 0 <=? Z.of_nat n * Z.of_nat F + Z.of_nat k)%Z = (di n <=? Z.of_nat k)%Z). { apply eq_true_iff_eq. rewrite !Z.leb_le. lia. }
      assert (Q2 : (Z.of_nat n * Z.of_nat F + Z.of_nat k <? di n + Z.of_nat F * Z.of_nat n + Z.of_nat L)%Z = (Z.of_nat k <? di n + Z.of_nat L)%Z). { apply eq_true_iff_eq. rewrite !Z.ltb_lt. lia. }
      rewrite Q1, Q2. destruct ((di n <=? Z.of_nat k) && (Z.of_nat k <? di n + Z.of_nat L))%Z; auto. f_equal. lia.
    + assert (Q : ((di n + Z.of_nat F * Z.of_nat n + Z.of_nat 0 <=? Z.of_nat i * Z.of_nat F + Z.of_nat k) && (Z.of_nat i * Z.of_nat F + Z.of_nat k <? di n + Z.of_nat F * Z.of_nat n + Z.of_nat (0 + L)))%Z = false).
      { apply andb_false_iff. destruct (Nat.lt_ge_cases i n). - left. apply Z.leb_gt. assert (Z.of_nat i + 1 <= Z.of_nat n)%Z by lia. nia. - right. apply Z.ltb_ge. assert (Z.of_nat n + 1 <= Z.of_nat i)%Z by lia. nia. }
      rewrite Q. replace (i <? S n)%nat with (i <? n)%nat; auto. apply eq_true_iff_eq. rewrite !Nat.ltb_lt. lia.
Qed.
(** For every non-empty array of delays and every filter length the bank is defined (every store falls
    inside the table), has one row per delay, all rows as long as the longest needs, and each row is the
    windowed sinc at that delay counted from the smallest one. *)
Theorem C62_bank : forall L delays, delays <> [] -> exists bank F, fractional_delay_filter_bank L delays = Some bank /\ length bank = length delays /\
  (exists d, In d delays /\ Z.of_nat F = (Z.of_nat L + Zceil (d - rmin delays))%Z) /\ (forall d, In d delays -> (Z.of_nat L + Zceil (d - rmin delays) <= Z.of_nat F)%Z) /\
  forall i, (i < length delays)%nat -> length (nth i bank []) = F /\ forall k, (k < F)%nat -> nth k (nth i bank []) 0 = delayed_sinc L (nth i delays 0 - rmin delays) k.
Proof.
  intros L delays Hne. set (m := rmin delays). set (d := map (fun x => x - m) delays). set (Fz := (Z.of_nat L + zmax (map Zceil d))%Z).
  assert (D0 : forall v, In v delays -> (0 <= Zfloor (v - m))%Z). { intros v Hv. pose proof (rmin_le _ _ Hv). fold m in H. pose proof (Zfloor_le 0 (v - m) ltac:(lra)). rewrite (Zfloor_unique 0 0) in H0 by (cbn; lra). lia. }
  assert (D1 : forall v, In v delays -> (Zceil (v - m) <= zmax (map Zceil d))%Z). { intros v Hv. apply zmax_ge. apply in_map. unfold d. now apply (in_map (fun x => x - m)). }
  assert (Hf : (0 <= Fz)%Z). { destruct delays as [|v0 l] eqn:E; [congruence|]. rewrite <- E in *. assert (Hv : In v0 delays) by (rewrite E; now left). specialize (D0 _ Hv). specialize (D1 _ Hv). pose proof (Zfloor_le_ceil (v0 - m)). unfold Fz. lia. }
  set (F := Z.to_nat Fz). assert (HF : Z.of_nat F = Fz) by (unfold F; lia).
  assert (Nd : forall i, (i < length delays)%nat -> nth i d 0 = nth i delays 0 - m) by (intros i Hi; unfold d; rewrite (nth_map_in _ _ i 0) by auto; reflexivity).
  set (di i := Zfloor (nth i d 0)). set (val i t := nth t (hanning L) 0 * sinc (INR t - (nth i d 0 - IZR (di i)) - (INR L - 1) / 2)).
  destruct (put_rows F L (length delays) di val) with (n := length delays) as (b & E & Lb & Nb); auto.
  { intros i Hi. unfold di. rewrite Nd by auto. assert (Hv : In (nth i delays 0) delays) by (now apply nth_In). specialize (D0 _ Hv). specialize (D1 _ Hv). pose proof (Zfloor_le_ceil (nth i delays 0 - m)). rewrite HF. unfold Fz. lia. }
  exists (map (fun i => firstn F (skipn (i * F) b)) (seq 0 (length delays))), F. split; [|split; [|split; [|split]]].
  - unfold fractional_delay_filter_bank. match goal with |- match delays with nil => None | cons _ _ => ?X end = _ => transitivity X; [destruct delays; [congruence|reflexivity]|] end. fold m. fold d. assert (Ld : length d = length delays) by (unfold d; now rewrite map_length). rewrite Ld. fold Fz. rewrite foldM_flat_map. fold F.
    replace (Z.to_nat (Z.of_nat (length delays) * Fz)) with (length delays * F)%nat by (unfold F; lia). rewrite HF in E. fold put. change (fun bank iv => let* i := pos (fst iv) in store bank i (snd iv)) with put. unfold val, di in E. rewrite E. reflexivity.
  - now rewrite map_length, seq_length.
  - assert (Hz : In (zmax (map Zceil d)) (map Zceil d)). { apply zmax_in. unfold d. destruct delays; [congruence|discriminate]. } apply in_map_iff in Hz. destruct Hz as (u & Eu & Hu). unfold d in Hu. apply in_map_iff in Hu. destruct Hu as (v & <- & Hv). exists v. split; auto. rewrite HF. unfold Fz. fold m. now rewrite Eu.
  - intros v Hv. rewrite HF. unfold Fz. specialize (D1 v Hv). fold m. lia.
  - intros i Hi. rewrite (nth_map_seq _ i) by auto. assert (Hil : (i * F + F <= length b)%nat) by (rewrite Lb; nia). split; [rewrite firstn_length, skipn_length; lia|]. intros k Hk. rewrite StftProofs.nth_firstn by auto. rewrite StftProofs.nth_skipn. rewrite Nb by auto. rewrite (proj2 (Nat.ltb_lt i _)) by auto. cbn [andb]. unfold delayed_sinc. fold m. rewrite <- Nd by auto. fold (di i).
    destruct ((di i <=? Z.of_nat k) && (Z.of_nat k <? di i + Z.of_nat L))%Z eqn:Ek; auto. apply andb_true_iff in Ek. destruct Ek as [K1 K2]. apply Z.leb_le in K1. apply Z.ltb_lt in K2. unfold val, hanning. rewrite nth_map_seq by lia. assert (It : INR (Z.to_nat (Z.of_nat k - di i)) = INR k - IZR (di i)) by (rewrite !INR_IZR_INZ, Z2Nat.id, minus_IZR by lia; reflexivity). rewrite It. do 2 f_equal. ring.
Qed.
Print Assumptions C62_bank.
(** Delay differences are preserved: a delay longer by a whole number of samples gives the same filter that
    much later. *)
Theorem C62_shift : forall L delays bank i j (s : nat), fractional_delay_filter_bank L delays = Some bank -> (i < length delays)%nat -> (j < length delays)%nat ->
  nth j delays 0 = nth i delays 0 + INR s -> forall k, (k + s < length (nth j bank []))%nat -> nth (k + s) (nth j bank []) 0 = nth k (nth i bank []) 0.
Proof.
  intros L delays bank i j s E Hi Hj Hs k Hk. destruct (C62_bank L delays) as (b & F & E' & _ & _ & _ & N); [destruct delays; [cbn in Hi; lia|congruence]|]. rewrite E in E'. apply Some_inj in E'. subst b. destruct (N i Hi) as [Li Ni]. destruct (N j Hj) as [Lj Nj]. rewrite Nj, Ni by lia. unfold delayed_sinc. rewrite Hs. replace (nth i delays 0 + INR s - rmin delays) with (nth i delays 0 - rmin delays + IZR (Z.of_nat s)) by (rewrite <- INR_IZR_INZ; ring). set (u := nth i delays 0 - rmin delays). rewrite Zfloor_add, plus_INR, plus_IZR, <- INR_IZR_INZ.
  replace (Zfloor u + Z.of_nat s <=? Z.of_nat (k + s))%Z with (Zfloor u <=? Z.of_nat k)%Z by (apply eq_true_iff_eq; rewrite !Z.leb_le; lia). replace (Z.of_nat (k + s) <? Zfloor u + Z.of_nat s + Z.of_nat L)%Z with (Z.of_nat k <? Zfloor u + Z.of_nat L)%Z by (apply eq_true_iff_eq; rewrite !Z.ltb_lt; lia).
  replace (INR k + INR s - (IZR (Zfloor u) + INR s)) with (INR k - IZR (Zfloor u)) by ring. replace (INR k + INR s - (u + INR s)) with (INR k - u) by ring. reflexivity.
Qed.
Print Assumptions C62_shift.
Example C62_case : exists bank, fractional_delay_filter_bank 3 [2; 5 / 2; 4] = Some bank /\ nth 3 (nth 2 bank []) 0 = 1 /\ nth 1 (nth 0 bank []) 0 = 1.
Proof.
  destruct (C62_bank 3 [2; 5 / 2; 4]) as (bank & F & E & _ & _ & HF & N); [congruence|]. exists bank. split; auto.
  assert (M : rmin [2; 5 / 2; 4] = 2). { unfold rmin. cbn. rewrite (Rmin_right 4 2), (Rmin_right (5 / 2) 2) by lra. reflexivity. } rewrite M in *.
  assert (HF5 : (5 <= F)%nat). { specialize (HF 4 ltac:(cbn; auto)). rewrite (Zceil_unique (4 - 2) 2) in HF by (cbn; lra). lia. }
  split.
  - destruct (N 2%nat) as [_ N2]; [cbn; lia|]. rewrite N2 by lia. unfold delayed_sinc. cbn [nth]. rewrite (Zfloor_unique (4 - 2) 2) by (cbn; lra). cbn -[cos sinc INR PI]. replace (INR 3 - (4 - 2) - (INR 3 - 1) / 2) with 0 by (cbn; lra). replace (2 * PI * (INR 3 - 2) / INR 2) with PI by (cbn; lra). rewrite cos_PI. unfold sinc. destruct (Req_EM_T 0 0); lra.
  - destruct (N 0%nat) as [_ N2]; [cbn; lia|]. rewrite N2 by lia. unfold delayed_sinc. cbn [nth]. rewrite (Zfloor_unique (2 - 2) 0) by (cbn; lra). cbn -[cos sinc INR PI]. replace (INR 1 - (2 - 2) - (INR 3 - 1) / 2) with 0 by (cbn; lra). replace (2 * PI * (INR 1 - 0) / INR 2) with PI by (cbn; lra). rewrite cos_PI. unfold sinc. destruct (Req_EM_T 0 0); lra.
Qed.
