(** C127 (mel filter bank), C128 (critical bands and bins). *)
From Coq Require Import List ZArith Lia Reals Lra Bool R_Ifp.
From Verif Require StftProofs.
From Verif Require Import Base BaseProofs Vec Sum ReverbModel ReverbProps UtilProps WienerProofs MelModel.
Import ListNotations.
Local Open Scope R_scope.

(** ** C127 *)
(** [f] cuts the range from [fl] to [fh] (fractions of the sampling rate), counted in bins, into [M + 1] pieces
    of the same length on the mel scale. *)
Definition mel_spaced (M N : nat) (fs fl fh : R) (f : nat -> R) : Prop :=
  f 0%nat = fl * INR N /\ f (M + 1)%nat = fh * INR N /\
  forall i, f i < f (i + 1)%nat /\ melscale (f (i + 1)%nat * fs / INR N) - melscale (f i * fs / INR N) = (melscale (fh * fs) - melscale (fl * fs)) / INR (M + 1).
(** A triangle over the interval from [a] to [c] with its top, of height 2 / (c - a), at [b]. *)
Definition triangle (a b c x w : R) : Prop :=
  0 <= w <= 2 / (c - a) /\ (0 < w <-> a < x < c) /\ (w = 2 / (c - a) <-> x = b).

Lemma inv_mel : forall f, - 700 < f -> invmelscale (melscale f) = f.
Proof. intros f H. apply (C49_mel_inverse f 0 H). Qed.
Lemma mel_inv : forall b, melscale (invmelscale b) = b.
Proof. intros b. apply (C49_mel_inverse 0 b). lra. Qed.
Lemma centre_spaced : forall M N fs fl fh, 0 < fs -> 0 <= fl -> fl < fh -> (1 <= N)%nat -> mel_spaced M N fs fl fh (centre M N fs fl fh).
Proof.
  intros M N fs fl fh Hs Hl Hh HN. unfold mel_spaced, centre. assert (PN : 0 < INR N) by (apply lt_0_INR; lia). assert (PM : 0 < INR (M + 1)) by (apply lt_0_INR; lia).
  assert (Pl : 0 <= fl * fs) by (apply Rmult_le_pos; lra). assert (Ph : fl * fs < fh * fs) by (apply Rmult_lt_compat_r; lra).
  assert (Md : melscale (fl * fs) < melscale (fh * fs)) by (apply C49_mel_increasing; lra).
  split; [|split].
  - replace (INR 0 * (melscale (fh * fs) - melscale (fl * fs)) / INR (M + 1)) with 0 by (cbn [INR]; field; lra). rewrite Rplus_0_r. rewrite inv_mel by lra. field. lra.
  - replace (melscale (fl * fs) + INR (M + 1) * (melscale (fh * fs) - melscale (fl * fs)) / INR (M + 1)) with (melscale (fh * fs)) by (field; lra). rewrite inv_mel by lra. field. lra.
  - intros i. split.
    + apply Rmult_lt_compat_l; [apply Rmult_lt_0_compat; [lra|apply Rinv_0_lt_compat; lra]|]. apply C49_invmel_increasing. apply Rplus_lt_compat_l. apply Rmult_lt_compat_r; [apply Rinv_0_lt_compat; lra|]. apply Rmult_lt_compat_r; [lra|]. apply lt_INR. lia.
    + assert (Q : forall z, INR N / fs * z * fs / INR N = z) by (intros z; field; lra). rewrite !Q. rewrite !mel_inv. rewrite plus_INR. change (INR 1) with 1. field. lra.
Qed.
Section Triangle.
Variables (f : nat -> R) (m k : nat).
Hypothesis Hm : (1 <= m)%nat.
Hypothesis H1 : f (m - 1)%nat < f m.
Hypothesis H2 : f m < f (m + 1)%nat.
Let a := f (m - 1)%nat. Let b := f m. Let c := f (m + 1)%nat. Let x := INR k.
Lemma weight_cases : (x <= a /\ mel_weight f m k = 0) \/ (a < x < b /\ mel_weight f m k = 2 / (c - a) * ((x - a) / (b - a))) \/ (b <= x < c /\ mel_weight f m k = 2 / (c - a) * ((c - x) / (c - b))) \/ (c <= x /\ mel_weight f m k = 0).
Proof.
  unfold mel_weight. fold a b c x. assert (a < b) by exact H1. assert (b < c) by exact H2. destruct (Rle_dec b x).
  - destruct (Rlt_dec x c); [right; right; left; split; [lra|field; lra]|right; right; right; split; [lra|reflexivity]].
  - destruct (Rlt_dec a x); [right; left; split; [lra|field; lra]|left; split; [lra|reflexivity]].
Qed.
Lemma weight_triangle : triangle a b c x (mel_weight f m k).
Proof.
  assert (Hab : a < b) by exact H1. assert (Hbc : b < c) by exact H2. assert (P : 0 < 2 / (c - a)) by (apply Rmult_lt_0_compat; [lra|apply Rinv_0_lt_compat; lra]).
  assert (G : forall t, 0 < t <= 1 -> 0 < 2 / (c - a) * t <= 2 / (c - a)) by (intros t Ht; split; [apply Rmult_lt_0_compat; lra|rewrite <- (Rmult_1_r (2 / (c - a))) at 2; apply Rmult_le_compat_l; lra]).
  assert (G1 : forall t, t < 1 -> 2 / (c - a) * t < 2 / (c - a)) by (intros t Ht; rewrite <- (Rmult_1_r (2 / (c - a))) at 2; apply Rmult_lt_compat_l; lra).
  unfold triangle. destruct weight_cases as [(C & ->)|[(C & ->)|[(C & ->)|(C & ->)]]].
  - repeat split; intros; try lra.
  - assert (T : 0 < (x - a) / (b - a) < 1).
    { split; [apply Rmult_lt_0_compat; [lra|apply Rinv_0_lt_compat; lra]|]. apply Rmult_lt_reg_r with (b - a); [lra|]. unfold Rdiv. rewrite Rmult_assoc, Rinv_l by lra. lra. }
    pose proof (G _ (conj (proj1 T) (Rlt_le _ _ (proj2 T)))). pose proof (G1 _ (proj2 T)). repeat split; intros; try lra.
  - assert (T : 0 < (c - x) / (c - b) <= 1).
    { split; [apply Rmult_lt_0_compat; [lra|apply Rinv_0_lt_compat; lra]|]. apply Rmult_le_reg_r with (c - b); [lra|]. unfold Rdiv. rewrite Rmult_assoc, Rinv_l by lra. lra. }
    pose proof (G _ T). repeat split; intros; try lra.
    + destruct (Req_dec x b) as [E|E]; [exact E|exfalso]. assert (T1 : (c - x) / (c - b) < 1) by (apply Rmult_lt_reg_r with (c - b); [lra|]; unfold Rdiv; rewrite Rmult_assoc, Rinv_l by lra; lra). pose proof (G1 _ T1). lra.
    + replace x with b. replace ((c - b) / (c - b)) with 1 by (field; lra). ring.
  - repeat split; intros; try lra.
Qed.
End Triangle.
(** The ramp from [f i] to [f (i + 1)]. *)
Definition ramp (f : nat -> R) (x : R) (i : nat) : R :=
  if Rle_dec x (f i) then 0 else if Rle_dec (f (i + 1)%nat) x then 1 else (x - f i) / (f (i + 1)%nat - f i).
Lemma weight_ramp : forall f m k, (1 <= m)%nat -> f (m - 1)%nat < f m -> f m < f (m + 1)%nat ->
  mel_weight f m k * ((f (m + 1)%nat - f (m - 1)%nat) / 2) = ramp f (INR k) (m - 1) - ramp f (INR k) m.
Proof.
  intros f m k Hm H1 H2. unfold ramp. replace (m - 1 + 1)%nat with m by lia.
  destruct (weight_cases f m k H1 H2) as [(C & ->)|[(C & ->)|[(C & ->)|(C & ->)]]]; repeat (match goal with |- context [Rle_dec ?u ?v] => destruct (Rle_dec u v) end); try lra; try (field; lra).
  all: assert (E : INR k = f m) by lra; rewrite E; field; lra.
Qed.
Lemma telescope : forall (g : nat -> R) M, Rsum (map (fun m => g m - g (S m)) (seq 0 M)) = g 0%nat - g M.
Proof.
  intros g M. induction M as [|M IH]; [cbn; ring|]. rewrite seq_S, map_app, Rsum_app, IH. cbn. ring.
Qed.
(** The filters are triangles whose corners are equally spaced on the mel scale, each starting at the top of the
    one before.  Scaled to height one they add to one between the first and the last top; at most two, and
    neighbours, respond to a bin. *)
Theorem C127_melfilterbank : forall M N fs fl fh, 0 < fs -> 0 <= fl -> fl < fh -> (1 <= N)%nat ->
  exists H f, melfilterbank M N fs fl fh = Some H /\ mel_spaced M N fs fl fh f /\ length H = M /\
    let w m k := nth k (nth m H []) 0 in
    (forall m, (m < M)%nat -> length (nth m H []) = (N / 2 + 1)%nat) /\
    (forall m k, (m < M)%nat -> (k <= N / 2)%nat -> triangle (f m) (f (m + 1)%nat) (f (m + 2)%nat) (INR k) (w m k)) /\
    (forall k, (k <= N / 2)%nat -> f 1%nat <= INR k <= f M -> Rsum (map (fun m => w m k * ((f (m + 2)%nat - f m) / 2)) (seq 0 M)) = 1) /\
    (forall k m m', (k <= N / 2)%nat -> (m < m')%nat -> (m' < M)%nat -> 0 < w m k -> 0 < w m' k -> m' = S m).
Proof.
  intros M N fs fl fh Hs Hl Hh HN. pose proof (centre_spaced M N fs fl fh Hs Hl Hh HN) as Sp. set (f := centre M N fs fl fh) in *. destruct Sp as (F0 & F1 & Fi).
  assert (Pl : 0 <= fl * fs) by (apply Rmult_le_pos; lra). assert (Ph : fl * fs < fh * fs) by (apply Rmult_lt_compat_r; lra).
  exists (map (fun m => map (mel_weight f m) (seq 0 (N / 2 + 1))) (seq 1 M)), f. split.
  { unfold melfilterbank. fold f. destruct (Req_EM_T fs 0); [lra|]. destruct (Rle_dec (1 + fl * fs / 700) 0); [exfalso; lra|]. destruct (Rle_dec (1 + fh * fs / 700) 0); [exfalso; lra|]. reflexivity. }
  split; [exact (conj F0 (conj F1 Fi))|]. split; [now rewrite map_length, seq_length|]. cbv zeta.
  assert (W : forall m k, (m < M)%nat -> (k <= N / 2)%nat -> nth k (nth m (map (fun m => map (mel_weight f m) (seq 0 (N / 2 + 1))) (seq 1 M)) []) 0 = mel_weight f (S m) k).
  { intros m k Hm Hk. rewrite (nth_map_in _ _ _ 0%nat) by (rewrite seq_length; auto). rewrite seq_nth by auto. rewrite nth_map_seq by lia. reflexivity. }
  assert (Fl : forall i j, (i < j)%nat -> f i < f j).
  { intros i j Hj. induction Hj as [|j Hj IH]; [replace (S i) with (i + 1)%nat by lia; apply Fi|]. apply Rlt_trans with (f j); [exact IH|]. replace (S j) with (j + 1)%nat by lia. apply Fi. }
  assert (T : forall m k, (m < M)%nat -> (k <= N / 2)%nat -> triangle (f m) (f (m + 1)%nat) (f (m + 2)%nat) (INR k) (mel_weight f (S m) k)).
  { intros m k Hm Hk. pose proof (weight_triangle f (S m) k) as Q. replace (S m - 1)%nat with m in Q by lia. replace (S m + 1)%nat with (m + 2)%nat in Q by lia. replace (m + 1)%nat with (S m) by lia. apply Q; apply Fl; lia. }
  split; [|split; [|split]].
  - intros m Hm. rewrite (nth_map_in _ _ _ 0%nat) by (rewrite seq_length; auto). now rewrite map_length, seq_length.
  - intros m k Hm Hk. rewrite W by auto. now apply T.
  - intros k Hk (K1 & K2). assert (Fle : forall i j, (i <= j)%nat -> f i <= f j) by (intros i j Hj; destruct (Nat.eq_dec i j) as [->|]; [lra|apply Rlt_le, Fl; lia]).
    assert (HM : (1 <= M)%nat) by (destruct M; [pose proof (Fl 0%nat 1%nat ltac:(lia)); lra|lia]).
    rewrite (Rsum_map_ext _ (fun m => ramp f (INR k) m - ramp f (INR k) (S m))).
    + rewrite telescope. unfold ramp. destruct (Rle_dec (INR k) (f 0%nat)); [pose proof (Fl 0%nat 1%nat ltac:(lia)); lra|]. destruct (Rle_dec (f (0 + 1)%nat) (INR k)); [|cbn [Nat.add] in *; lra]. destruct (Rle_dec (INR k) (f M)); lra.
    + intros m Hm. apply in_seq in Hm. rewrite W by lia. pose proof (weight_ramp f (S m) k ltac:(lia)) as Q. replace (S m - 1)%nat with m in Q by lia. replace (S m + 1)%nat with (m + 2)%nat in Q by lia. apply Q; apply Fl; lia.
  - intros k m m' Hk Hm Hm' P1 P2. rewrite W in P1, P2 by lia. destruct (T m k ltac:(lia) Hk) as (_ & A & _). destruct (T m' k ltac:(lia) Hk) as (_ & B & _). apply A in P1. apply B in P2. destruct (Nat.eq_dec m' (S m)); auto. exfalso. assert (f (m + 2)%nat <= f m') by (destruct (Nat.eq_dec m' (m + 2)) as [->|]; [lra|apply Rlt_le, Fl; lia]). lra.
Qed.
Print Assumptions C127_melfilterbank.
(** Hypotheses: 14 filters on 128 bins at 8 kHz. *)
Example C127_case : exists H f, melfilterbank 14 128 8000 0 (1 / 2) = Some H /\ mel_spaced 14 128 8000 0 (1 / 2) f /\ length H = 14%nat.
Proof. destruct (C127_melfilterbank 14 128 8000 0 (1 / 2)) as (H & f & A & B & D & _); try lra; try lia. exists H, f. auto. Qed.
(** Filters at low frequencies that are narrower than a bin are zero: 40 filters on 64 bins at 16 kHz. *)
Theorem C127_empty_refuted : exists M N fs H, melfilterbank M N fs 0 (1 / 2) = Some H /\ (1 <= M)%nat /\ forall k, nth k (nth 0 H []) 0 = 0.
Proof.
  destruct (C127_melfilterbank 40 64 16000 0 (1 / 2)) as (H & f & E & (F0 & _ & Fi) & Lh & Lr & T & _); try lra; try lia. exists 40%nat, 64%nat, 16000, H. split; [exact E|]. split; [lia|]. intros k.
  destruct (le_lt_dec (length (nth 0 H [])) k) as [K|K]; [now apply nth_overflow|]. rewrite Lr in K by lia. destruct (T 0%nat k ltac:(lia) ltac:(lia)) as ((P & _) & Q & _). destruct (Req_dec (nth k (nth 0 H []) 0) 0) as [Z|Z]; [exact Z|exfalso].
  assert (K1 : f (0)%nat < INR k < f (0 + 2)%nat) by (apply Q; lra). rewrite F0, Rmult_0_l in K1. assert (K2 : 1 <= INR k) by (destruct k; [cbn in K1; lra|rewrite S_INR; pose proof (pos_INR k); lra]).
  assert (F2 : f 2%nat < 1); [|cbn [Nat.add] in K1; lra].
  pose proof (proj2 (Fi 0%nat)) as A1. pose proof (proj2 (Fi 1%nat)) as A2. cbn [Nat.add] in A1, A2. rewrite F0 in A1.
  replace (0 * INR 64 * 16000 / INR 64) with 0 in A1 by (field; apply not_0_INR; lia). replace (0 * 16000) with 0 in A1, A2 by ring. assert (M0 : melscale 0 = 0) by (unfold melscale; replace (1 + 0 / 700) with 1 by field; rewrite ln_1; ring). rewrite M0 in A1, A2.
  set (z := f 2%nat * 16000 / INR 64) in *. assert (Ez : melscale z = 2 * (melscale (1 / 2 * 16000) / INR 41)) by lra.
  assert (N64 : INR 64 = 64) by (rewrite INR_IZR_INZ; reflexivity). assert (N41 : INR 41 = 41) by (rewrite INR_IZR_INZ; reflexivity).
  destruct (Rlt_dec (f 2%nat) 1) as [L|L]; [exact L|exfalso]. assert (Z1 : 250 <= z) by (unfold z; rewrite N64; lra).
  assert (Mz : melscale 250 <= melscale z) by (destruct (Req_dec 250 z) as [<-|]; [lra|apply Rlt_le, C49_mel_increasing; lra]).
  rewrite Ez, N41 in Mz. unfold melscale in Mz. assert (B : ln (1 + 1 / 2 * 16000 / 700) < 20 * ln (1 + 250 / 700)).
  { replace 20 with (INR 20) by (rewrite INR_IZR_INZ; reflexivity). rewrite <- ln_pow by lra. apply ln_increasing; [lra|]. cbn [pow]. lra. }
  assert (0 < ln (1 + 250 / 700)) by (rewrite <- ln_1; apply ln_increasing; lra). lra.
Qed.
Print Assumptions C127_empty_refuted.

(** ** C128 *)
Lemma around_spec : forall x, Rabs (IZR (around x) - x) <= / 2.
Proof.
  intros x. unfold around. destruct (base_Int_part x) as [A B]. set (z := Int_part x) in *. destruct (Rlt_dec (x - IZR z) (/ 2)) as [H|H]; [apply Rabs_le; lra|].
  destruct (Rlt_dec (/ 2) (x - IZR z)); [rewrite plus_IZR; apply Rabs_le; lra|]. destruct (Z.even z); [|rewrite plus_IZR]; apply Rabs_le; lra.
Qed.
Lemma around_Z : forall z, around (IZR z) = z.
Proof.
  intros z. pose proof (around_spec (IZR z)) as H. rewrite <- minus_IZR, <- abs_IZR in H. assert (Q : (Z.abs (around (IZR z) - z) < 1)%Z) by (apply lt_IZR; lra). lia.
Qed.
Lemma around_mono : forall x y, x <= y -> (around x <= around y)%Z.
Proof.
  intros x y H. unfold around. destruct (base_Int_part x) as [A B]. destruct (base_Int_part y) as [A' B']. set (z := Int_part x) in *. set (w := Int_part y) in *.
  assert (Hzw : (z < w + 1)%Z) by (apply lt_IZR; rewrite plus_IZR; lra).
  destruct (Z.eq_dec z w) as [E|E].
  - rewrite <- E in *. repeat (match goal with |- context [Rlt_dec ?u ?v] => destruct (Rlt_dec u v) end); try lia; try lra; destruct (Z.even z); lia || lra.
  - assert ((if Rlt_dec (x - IZR z) (/ 2) then z else if Rlt_dec (/ 2) (x - IZR z) then (z + 1)%Z else if Z.even z then z else (z + 1)%Z) <= z + 1)%Z by (repeat (match goal with |- context [Rlt_dec ?u ?v] => destruct (Rlt_dec u v) end); try destruct (Z.even z); lia).
    assert (w <= (if Rlt_dec (y - IZR w) (/ 2) then w else if Rlt_dec (/ 2) (y - IZR w) then (w + 1)%Z else if Z.even w then w else (w + 1)%Z))%Z by (repeat (match goal with |- context [Rlt_dec ?u ?v] => destruct (Rlt_dec u v) end); try destruct (Z.even w); lia).
    lia.
Qed.
(** Bands one after the other, without gaps. *)
Fixpoint contiguous (l : list (R * R)) : Prop :=
  match l with a :: (b :: _) as l' => fst a < snd a /\ snd a = fst b /\ contiguous l' | [a] => fst a < snd a | [] => True end.
Definition holds (b : Z * Z) (k : Z) : Prop := (fst b <= k < snd b)%Z.
(** The table of Zwicker and Fastl: 24 bands from 0 to 15.5 kHz, each around its centre. *)
Theorem C128_critical : let '(bands, centres) := critical_bands in
  contiguous bands /\ length bands = 24%nat /\ fst (nth 0 bands (0, 0)) = 0 /\ snd (nth 23 bands (0, 0)) = 15500 /\
  length centres = 24%nat /\ forall i, (i < 24)%nat -> fst (nth i bands (0, 0)) < nth i centres 0 < snd (nth i bands (0, 0)).
Proof.
  unfold critical_bands, fb_table, fc_table. cbn [length Nat.sub seq map nth Nat.add contiguous fst snd]. repeat split; try lra; try reflexivity.
  all: do 24 (destruct i as [|i]; [cbn; lra|]); lia.
Qed.

(** Consecutive bands of bins from [s] to [e]; all but the last hold a bin. *)
Fixpoint tiles (s : Z) (l : list (Z * Z)) (e : Z) : Prop :=
  match l with [] => False | [b] => fst b = s /\ snd b = e | b :: l' => fst b = s /\ (s < snd b)%Z /\ tiles (snd b) l' e end.
Lemma tiles_start : forall l s e, tiles s l e -> fst (hd (0, 0)%Z l) = s.
Proof. intros [|b [|c l]] s e H; cbn in *; tauto. Qed.
Lemma tiles_le : forall l s e b, tiles s l e -> In b l -> (s <= fst b)%Z.
Proof.
  induction l as [|a l IH]; intros s e b H I; [destruct I|]. destruct l as [|c l].
  - destruct I as [<-|[]]. cbn in H. lia.
  - destruct H as (H1 & H2 & H3). destruct I as [<-|I]; [lia|]. specialize (IH _ _ _ H3 I). lia.
Qed.
Lemma tiles_unique : forall l s e k, tiles s l e -> (s <= k < e)%Z -> exists! i, (i < length l)%nat /\ holds (nth i l (0, 0)%Z) k.
Proof.
  induction l as [|a l IH]; intros s e k H K; [destruct H|]. destruct l as [|c l].
  - cbn in H. exists 0%nat. split; [cbn [length nth]; split; [lia|unfold holds; lia]|]. intros j (Hj & _). cbn in Hj. lia.
  - destruct H as (H1 & H2 & H3). destruct (Z.lt_ge_cases k (snd a)) as [L|L].
    + exists 0%nat. split; [split; [cbn; lia|unfold holds; cbn [nth]; lia]|]. intros [|j] (Hj & Hh); auto. exfalso. change (nth (S j) (a :: c :: l) (0, 0)%Z) with (nth j (c :: l) (0, 0)%Z) in Hh. pose proof (tiles_le _ _ _ (nth j (c :: l) (0, 0)%Z) H3 ltac:(apply nth_In; cbn [length] in *; lia)) as Q. unfold holds in Hh. lia.
    + destruct (IH _ _ k H3 ltac:(lia)) as (i & (Hi & Hh) & U). exists (S i). split; [split; [cbn [length] in *; lia|exact Hh]|]. intros [|j] (Hj & Hj2); [unfold holds in Hj2; cbn [nth] in Hj2; lia|]. f_equal. apply U. split; [cbn [length] in *; lia|exact Hj2].
Qed.
(** Weakly ordered tiles become tiles once the repeated starts are removed. *)
Fixpoint weak (s : Z) (l : list (Z * Z)) (e : Z) : Prop :=
  match l with [] => False | [b] => fst b = s /\ snd b = e | b :: l' => fst b = s /\ (s <= snd b)%Z /\ weak (snd b) l' e end.
Lemma weak_start : forall l s e, weak s l e -> fst (hd (0, 0)%Z l) = s.
Proof. intros [|b [|c l]] s e H; cbn in *; tauto. Qed.
Lemma drop_cons : forall a b l, drop_duplicates (a :: b :: l) = if Z.eqb (fst a) (fst b) then drop_duplicates (b :: l) else a :: drop_duplicates (b :: l).
Proof. reflexivity. Qed.
Lemma end_cons : forall e a b l, end_last e (a :: b :: l) = a :: end_last e (b :: l).
Proof. reflexivity. Qed.
Lemma drop_tiles : forall l s e, weak s l e -> tiles s (drop_duplicates l) e.
Proof.
  induction l as [|a l IH]; intros s e H; [destruct H|]. destruct l as [|b l]; [exact H|]. destruct H as (H1 & H2 & H3). pose proof (weak_start _ _ _ H3) as Q. cbn [hd] in Q. rewrite drop_cons.
  destruct (Z.eqb_spec (fst a) (fst b)) as [E|E].
  - apply IH. replace s with (snd a) by lia. exact H3.
  - specialize (IH _ _ H3). destruct (drop_duplicates (b :: l)) as [|c l'] eqn:D; [destruct IH|]. split; [exact H1|]. split; [lia|exact IH].
Qed.
Lemma drop_in : forall l b, In b (drop_duplicates l) -> In b l.
Proof.
  induction l as [|a l IH]; intros b H; [exact H|]. destruct l as [|c l]; [exact H|]. rewrite drop_cons in H. destruct (Z.eqb (fst a) (fst c)); [right; auto|]. destruct H as [H|H]; [left; auto|right; auto].
Qed.
Lemma last_drop : forall l d, last (drop_duplicates l) d = last l d.
Proof.
  induction l as [|a l IH]; intros d; [reflexivity|]. destruct l as [|c l]; [reflexivity|]. rewrite drop_cons.
  assert (N : drop_duplicates (c :: l) <> []).
  { clear. revert c. induction l as [|b l IH]; intros c; [discriminate|]. rewrite drop_cons. destruct (Z.eqb _ _); [apply IH|discriminate]. }
  destruct (Z.eqb (fst a) (fst c)); [apply IH|]. change (last (a :: c :: l) d) with (last (c :: l) d). rewrite <- IH. destruct (drop_duplicates (c :: l)); [congruence|reflexivity].
Qed.
Lemma last_end : forall e l d, l <> [] -> last (end_last e l) d = (fst (last l d), e).
Proof.
  induction l as [|a l IH]; intros d H; [congruence|]. destruct l as [|b l]; [reflexivity|]. rewrite end_cons. change (last (a :: b :: l) d) with (last (b :: l) d). rewrite <- IH by discriminate. destruct l; reflexivity.
Qed.
Definition to_bins (B : R) (b : R * R) : Z * Z := (around (fst b / B), around (snd b / B)).
Lemma rounded_weak : forall B e l a, 0 < B -> contiguous (a :: l) -> weak (fst (to_bins B a)) (end_last e (map (to_bins B) (a :: l))) e.
Proof.
  intros B e l. induction l as [|b l IH]; intros a HB H; [cbn; auto|]. destruct H as (H1 & H2 & H3). specialize (IH b HB H3). cbn [map] in *. rewrite end_cons.
  set (t := end_last e (to_bins B b :: map (to_bins B) l)) in *. cbn [weak]. destruct t as [|t0 t1] eqn:T; [destruct IH|]. split; [reflexivity|]. split.
  - unfold to_bins. cbn [fst snd]. apply around_mono. apply Rmult_le_compat_r; [apply Rlt_le, Rinv_0_lt_compat; lra|lra].
  - replace (snd (to_bins B a)) with (fst (to_bins B b)); [exact IH|]. unfold to_bins. cbn [fst snd]. now rewrite H2.
Qed.
Definition below (limit : R) (l : list (R * R)) := filter (fun b : R * R => if Rle_dec (fst b) limit then true else false) l.
Lemma contiguous_tail : forall a l, contiguous (a :: l) -> contiguous l.
Proof. intros a [|b l] H; [exact I|]. now destruct H as (_ & _ & H). Qed.
Lemma contiguous_later : forall l a b, contiguous (a :: l) -> In b l -> fst a < fst b.
Proof.
  induction l as [|c l IH]; intros a b H I; [destruct I|]. destruct H as (H1 & H2 & H3). destruct I as [<-|I]; [lra|]. specialize (IH c b H3 I). lra.
Qed.
Lemma below_contiguous : forall limit l, contiguous l -> contiguous (below limit l).
Proof.
  intros limit l. induction l as [|a l IH]; intros H; [exact I|]. specialize (IH (contiguous_tail _ _ H)). unfold below in *. cbn [filter]. destruct (Rle_dec (fst a) limit) as [L|L]; [|exact IH].
  destruct l as [|b l]; [exact H|]. destruct H as (H1 & H2 & H3). cbn [filter] in *. destruct (Rle_dec (fst b) limit); [|].
  - cbn [contiguous]. auto.
  - assert (E : filter (fun b : R * R => if Rle_dec (fst b) limit then true else false) l = []).
    { clear IH. assert (Q : forall c, In c l -> fst b < fst c) by (intros c; now apply contiguous_later). clear H3. induction l as [|c l IHl]; [reflexivity|]. cbn [filter]. destruct (Rle_dec (fst c) limit); [pose proof (Q c ltac:(left; auto)); lra|]. apply IHl. intros d Hd. apply Q. right. auto. }
    rewrite E. exact H1.
Qed.
Lemma end_in : forall e l b, In b (end_last e l) -> exists c, In c l /\ fst b = fst c /\ (b = c \/ snd b = e).
Proof.
  induction l as [|a l IH]; intros b H; [destruct H|]. destruct l as [|c l].
  - destruct H as [<-|[]]. exists a. cbn. auto.
  - destruct H as [<-|H]; [exists a; cbn; auto|]. destruct (IH b H) as (d & Hd & Q). exists d. split; [right; exact Hd|exact Q].
Qed.
Lemma contiguous_last : forall l d, contiguous l -> l <> [] -> fst (hd d l) < snd (last l d).
Proof.
  induction l as [|a l IH]; intros d H N; [congruence|]. destruct l as [|b l]; [exact H|]. destruct H as (H1 & H2 & H3). specialize (IH d H3 ltac:(discriminate)). change (last (a :: b :: l) d) with (last (b :: l) d). cbn [hd] in *. lra.
Qed.
(** Contiguous bands from 0 Hz up, for a transform of N samples with bins of width [B = Fs / N]: every bin below
    N / 2 is in exactly one band, and a band starts and ends within half a bin of a band given, except that the
    last one ends at N / 2.  Bands too narrow for a bin are left out. *)
Theorem C128_bins : forall bands Fs N, contiguous bands -> bands <> [] -> fst (hd (0, 0) bands) = 0 -> 0 < Fs -> (1 <= N)%nat ->
  let B := Fs / INR N in
  exists out, bands_hz2s bands Fs N false = Some out /\
    (forall k, (0 <= k < Z.of_nat N / 2)%Z -> exists! i, (i < length out)%nat /\ holds (nth i out (0, 0)%Z) k) /\
    (forall i, (i + 1 < length out)%nat -> (fst (nth i out (0, 0)%Z) < snd (nth i out (0, 0)%Z))%Z /\ snd (nth i out (0, 0)%Z) = fst (nth (i + 1) out (0, 0)%Z)) /\
    snd (last out (0, 0)%Z) = (Z.of_nat N / 2)%Z /\
    (forall b, In b out -> exists c, In c bands /\ fst c <= Fs / 2 /\ Rabs (IZR (fst b) * B - fst c) <= B / 2 /\ (Rabs (IZR (snd b) * B - snd c) <= B / 2 \/ snd b = (Z.of_nat N / 2)%Z)).
Proof.
  intros bands Fs N C NE Z0 HF HN B. assert (PN : 0 < INR N) by (apply lt_0_INR; lia). assert (PB : 0 < B) by (apply Rmult_lt_0_compat; [lra|apply Rinv_0_lt_compat; lra]).
  destruct bands as [|b0 bands]; [congruence|]. cbn [hd] in Z0. unfold bands_hz2s. destruct (Nat.eqb_spec N 0); [lia|]. destruct (Req_EM_T Fs 0); [lra|]. fold B.
  set (limit := Rmin (Fs / 2) (snd (last (b0 :: bands) b0))). pose proof (contiguous_last (b0 :: bands) b0 C ltac:(discriminate)) as CL. cbn [hd] in CL.
  assert (PL : 0 < limit) by (unfold limit; apply Rmin_glb_lt; lra). change (filter _ (b0 :: bands)) with (below limit (b0 :: bands)). change (fun b => (around (fst b / B), around (snd b / B))) with (to_bins B).
  assert (E : exists t, below limit (b0 :: bands) = b0 :: t) by (unfold below; cbn [filter]; destruct (Rle_dec (fst b0) limit); [eauto|lra]). destruct E as (t & E). pose proof (below_contiguous limit _ C) as Cb. rewrite E in *. cbn [map]. change (to_bins B b0 :: map (to_bins B) t) with (map (to_bins B) (b0 :: t)).
  set (e := (Z.of_nat N / 2)%Z). set (l := end_last e (map (to_bins B) (b0 :: t))). exists (drop_duplicates l). split; [reflexivity|].
  assert (S0 : fst (to_bins B b0) = 0%Z) by (unfold to_bins; cbn [fst]; rewrite Z0; unfold Rdiv; rewrite Rmult_0_l; exact (around_Z 0)).
  pose proof (rounded_weak B e t b0 PB Cb) as W. fold l in W. rewrite S0 in W. pose proof (drop_tiles _ _ _ W) as T. split; [|split; [|split]].
  - intros k K. now apply tiles_unique with (s := 0%Z) (e := e).
  - clear - T. revert T. generalize 0%Z at 1. intros s. revert s. generalize (drop_duplicates l). intros o. clear. induction o as [|a o IH]; intros s T i Hi; [cbn in Hi; lia|]. destruct o as [|b o]; [cbn in Hi; lia|]. destruct T as (T1 & T2 & T3). destruct i as [|i].
    + cbn [nth Nat.add]. pose proof (tiles_start _ _ _ T3) as Q. cbn [hd] in Q. lia.
    + cbn [Nat.add]. specialize (IH _ T3 i ltac:(cbn [length] in *; lia)). exact IH.
  - rewrite last_drop. unfold l. rewrite last_end by discriminate. reflexivity.
  - intros b Hb. apply drop_in in Hb. apply end_in in Hb. destruct Hb as (c & Hc & F & G). apply in_map_iff in Hc. destruct Hc as (d & <- & Hd). exists d. rewrite <- E in Hd. unfold below in Hd. apply filter_In in Hd. destruct Hd as (Hd & Hl).
    assert (R : forall x, Rabs (IZR (around (x / B)) * B - x) <= B / 2).
    { intros x. replace (IZR (around (x / B)) * B - x) with ((IZR (around (x / B)) - x / B) * B) by (field; lra). rewrite Rabs_mult, (Rabs_pos_eq B) by lra. pose proof (around_spec (x / B)). replace (B / 2) with (/ 2 * B) by field. apply Rmult_le_compat_r; lra. }
    split; [exact Hd|]. split; [destruct (Rle_dec (fst d) limit) as [L|]; [|discriminate]; unfold limit in L; pose proof (Rmin_l (Fs / 2) (snd (last (b0 :: bands) b0))); lra|]. split; [rewrite F; apply R|]. destruct G as [->|G]; [left; apply R|right; exact G].
Qed.
Print Assumptions C128_bins.
Example C128_bins_case : exists out, bands_hz2s (fst critical_bands) 16000 512 false = Some out /\ snd (last out (0, 0)%Z) = 256%Z.
Proof.
  destruct (C128_bins (fst critical_bands) 16000 512) as (out & E & _ & _ & L & _); try lra; try lia; [exact (proj1 C128_critical)|discriminate|reflexivity|]. exists out. split; [exact E|]. rewrite L. reflexivity.
Qed.
(** For a DCT the last band ends before it starts: it should end at N. *)
Theorem C128_dct_refuted : exists bands Fs N out, contiguous bands /\ fst (hd (0, 0) bands) = 0 /\ bands_hz2s bands Fs N true = Some out /\ (snd (last out (0, 0)%Z) < fst (last out (0, 0)%Z))%Z.
Proof.
  exists [(0, 150); (150, 200)], 400, 4%nat. eexists. split; [cbn; lra|]. split; [reflexivity|]. unfold bands_hz2s. cbn [Nat.eqb]. destruct (Req_EM_T 400 0); [lra|]. cbn [last fst snd].
  assert (L : Rmin (400 / 2) 200 = 200) by (rewrite Rmin_left; lra). rewrite L. cbn [filter fst]. destruct (Rle_dec 0 200); [|lra]. destruct (Rle_dec 150 200); [|lra]. cbn [map]. split; [reflexivity|]. rewrite last_drop, last_end by discriminate. cbn [last fst snd]. replace (150 / (400 / 2 / INR 4)) with (IZR 3) by (cbn; field). rewrite around_Z. reflexivity.
Qed.
(** A band that starts at half the sampling rate is kept, and empty: the critical bands at 24 kHz. *)
Theorem C128_empty_refuted : exists Fs, forall n, (1 <= n)%nat -> exists out, bands_hz2s (fst critical_bands) Fs (2 * n) false = Some out /\
  last out (0, 0)%Z = (Z.of_nat n, Z.of_nat n) /\ forall row, binning row (map (fun b => (Z.to_nat (fst b), Z.to_nat (snd b))) out) = None.
Proof.
  exists 24000. intros n Hn. set (N := (2 * n)%nat). assert (PN : 0 < INR n) by (apply lt_0_INR; lia).
  unfold critical_bands. cbn [fst]. set (bands := map _ _). assert (Eb : exists h t, bands = h :: t /\ bands = map (fun j => (nth j fb_table 0, nth (j + 1) fb_table 0)) (seq 0 23) ++ [(12000, 15500)]) by (unfold bands; cbn; eauto).
  destruct Eb as (h & t & Eb & El). clearbody bands. unfold bands_hz2s. destruct bands as [|h' t']; [discriminate|]. replace h' with h by (injection Eb; auto). set (bands := h :: t') in *. replace (h' :: t') with bands in El by (unfold bands; f_equal; injection Eb; auto). destruct (Nat.eqb_spec N 0); [unfold N in *; lia|]. destruct (Req_EM_T 24000 0); [lra|].
  assert (Lm : Rmin (24000 / 2) (snd (last bands h)) = 12000) by (rewrite El, last_last; cbn [snd]; rewrite Rmin_left; lra). rewrite Lm, El, filter_app. cbn [filter fst]. destruct (Rle_dec 12000 12000); [|lra].
  rewrite map_app. cbn [map fst snd]. replace (12000 / (24000 / INR N)) with (IZR (Z.of_nat n)) by (rewrite <- INR_IZR_INZ; unfold N; rewrite mult_INR; cbn [INR]; field; lra). rewrite around_Z.
  set (p := map _ (filter _ _)). set (q := (Z.of_nat n, _)). assert (Np : p ++ [q] <> []) by (destruct p; discriminate). destruct (p ++ [q]) as [|q0 q1] eqn:Q; [congruence|]. rewrite <- Q.
  eexists. split; [reflexivity|]. assert (LL : last (drop_duplicates (end_last (Z.of_nat N / 2) (p ++ [q]))) (0, 0)%Z = (Z.of_nat n, Z.of_nat n)).
  { rewrite last_drop, last_end by (rewrite Q; discriminate). rewrite last_last. unfold q. cbn [fst]. f_equal. unfold N. rewrite Nat2Z.inj_mul. change (Z.of_nat 2) with 2%Z. rewrite Z.mul_comm. apply Z.div_mul. lia. }
  split; [exact LL|]. intros row. set (out := drop_duplicates _) in *. assert (IL : In (Z.of_nat n, Z.of_nat n) out).
  { rewrite <- LL. destruct out as [|o0 o1]; [cbn in LL; injection LL; intros; lia|]. clear. revert o0. induction o1 as [|a o IH]; intros o0; [left; reflexivity|]. right. apply IH. }
  unfold binning. clear - IL. induction out as [|o out IH]; [destruct IL|]. cbn [map mapM bind]. destruct IL as [->|I].
  - cbn [fst snd]. rewrite Nat.sub_diag. cbn [firstn length Nat.eqb]. reflexivity.
  - rewrite IH by auto. match goal with |- context [if ?b then _ else _] => destruct b end; reflexivity.
Qed.
(** binning averages the bins of each band ... *)
Theorem C128_binning : forall row bands, (forall b, In b bands -> (fst b < snd b <= length row)%nat) ->
  exists out, binning row bands = Some out /\ length out = length bands /\
    forall i, (i < length bands)%nat -> let '(a, e) := nth i bands (0, 0)%nat in
      nth i out 0 * INR (e - a) = Rsum (map (fun k => nth k row 0) (seq a (e - a))).
Proof.
  intros row bands H. unfold binning. induction bands as [|(a, e) bands IH].
  - exists []. repeat split; auto. intros i Hi. cbn in Hi. lia.
  - destruct IH as (out & E & L & V); [intros b Hb; apply H; right; auto|]. destruct (H (a, e) ltac:(left; auto)) as (H1 & H2). cbn [fst snd] in H1, H2. cbn [mapM bind fst snd].
    assert (LL : length (firstn (e - a) (skipn a row)) = (e - a)%nat) by (rewrite firstn_length, skipn_length; lia). rewrite LL. destruct (Nat.eqb_spec (e - a) 0); [lia|]. cbn [bind]. rewrite E. cbn [bind]. eexists. split; [reflexivity|]. split; [cbn; lia|]. intros [|i] Hi.
    + cbn [nth]. assert (0 < INR (e - a)) by (apply lt_0_INR; lia). replace (Rsum (firstn (e - a) (skipn a row)) / INR (e - a) * INR (e - a)) with (Rsum (firstn (e - a) (skipn a row))) by (field; lra). f_equal. apply nth_ext with 0 0; [now rewrite LL, map_length, seq_length|]. rewrite LL. intros k Hk. rewrite (nth_map_in _ _ _ 0%nat) by (rewrite seq_length; auto). rewrite seq_nth by auto.
      rewrite StftProofs.nth_firstn by auto. now rewrite StftProofs.nth_skipn.
    + cbn [nth]. apply V. cbn in Hi. lia.
Qed.
(** ... and does not add them, as documented. *)
Theorem C128_sum_refuted : exists row bands out, binning row bands = Some [out] /\ bands = [(0, length row)]%nat /\ out <> Rsum row.
Proof. exists [1; 1], [(0, 2)]%nat, ((1 + (1 + 0)) / INR 2). split; [reflexivity|]. split; [reflexivity|]. cbn. lra. Qed.
Print Assumptions C128_critical. Print Assumptions C128_dct_refuted. Print Assumptions C128_empty_refuted. Print Assumptions C128_binning. Print Assumptions C128_sum_refuted.
