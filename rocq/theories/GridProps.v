(** C66 (peaks of circular and spherical grids), C87 (peak detection), C70 (number of sources). *)
From Coq Require Import List ZArith Lia Reals Lra Bool Permutation Sorted.
From Verif Require Import Base GeometryModel GeometryProofs GridModel BaseProofs UtilProps BandsProps.
From Verif Require StftProofs.
Import ListNotations.
Local Open Scope R_scope.

(** Any sorting gives an argsort: the hypothesis on np.argsort can be met. *)
Fixpoint ins_by (v : nat -> R) (a : nat) (l : list nat) : list nat :=
  match l with [] => [a] | b :: l' => if Rleb (v a) (v b) then a :: l else b :: ins_by v a l' end.
Definition isort_by (v : nat -> R) (l : list nat) : list nat := fold_right (ins_by v) [] l.
Lemma ins_by_perm : forall v a l, Permutation (ins_by v a l) (a :: l).
Proof. intros v a l. induction l as [|b l IH]; cbn; auto. destruct (Rleb _ _); auto. rewrite IH. apply perm_swap. Qed.
Lemma isort_by_perm : forall v l, Permutation (isort_by v l) l.
Proof. intros v l. induction l as [|a l IH]; cbn; auto. rewrite ins_by_perm. auto. Qed.
Lemma ins_by_sorted : forall v a l, StronglySorted (fun i j => v i <= v j) l -> StronglySorted (fun i j => v i <= v j) (ins_by v a l).
Proof.
  intros v a l H. induction H as [|b l Hs IH Hf]; cbn; [repeat constructor|]. destruct (Rleb (v a) (v b)) eqn:E.
  - apply Rleb_true in E. constructor; [now constructor|]. constructor; [exact E|]. eapply Forall_impl; [|exact Hf]. intros; cbn in *; lra.
  - apply Rleb_false in E. constructor; auto. apply Forall_forall. intros c Hc. apply (Permutation_in _ (ins_by_perm v a l)) in Hc. destruct Hc as [<-|Hc]; [lra|]. rewrite Forall_forall in Hf. auto.
Qed.
Lemma isort_by_sorted : forall v l, StronglySorted (fun i j => v i <= v j) (isort_by v l).
Proof. intros v l. induction l; cbn; [constructor|]. now apply ins_by_sorted. Qed.
Lemma ssorted_nth : forall {A} (P : A -> A -> Prop) l d, StronglySorted P l -> forall i j, (i < j < length l)%nat -> P (nth i l d) (nth j l d).
Proof.
  intros A P l d H. induction H as [|a l Hs IH Hf]; cbn; intros i j Hij; [lia|]. destruct j as [|j]; [lia|]. destruct i as [|i].
  - rewrite Forall_forall in Hf. apply Hf, nth_In. lia.
  - apply IH. lia.
Qed.
Lemma nth_ssorted : forall {A} (P : A -> A -> Prop) l d, (forall i j, (i < j < length l)%nat -> P (nth i l d) (nth j l d)) -> StronglySorted P l.
Proof.
  intros A P l d. induction l as [|a l IH]; intros H; constructor.
  - apply IH. intros i j Hij. apply (H (S i) (S j)). cbn. lia.
  - apply Forall_forall. intros b Hb. apply In_nth with (d := d) in Hb. destruct Hb as (j & Hj & <-). apply (H 0%nat (S j)). cbn. lia.
Qed.
Definition some_argsort (l : list R) : list nat := isort_by (fun i => nth i l 0) (seq 0 (length l)).
Lemma some_argsort_ok : is_argsort some_argsort.
Proof.
  intros l. split; [apply isort_by_perm|]. intros i j Hij. unfold some_argsort. apply (ssorted_nth (fun i j => nth i l 0 <= nth j l 0)); [apply isort_by_sorted|].
  rewrite (Permutation_length (isort_by_perm _ _)), seq_length. auto.
Qed.

Lemma insert_nat_perm : forall a l, Permutation (insert_nat a l) (a :: l).
Proof. intros a l. induction l as [|b l IH]; cbn; auto. destruct (a <=? b)%nat; auto. rewrite IH. apply perm_swap. Qed.
Lemma sort_nat_perm : forall l, Permutation (sort_nat l) l.
Proof. intros l. induction l as [|a l IH]; cbn; auto. rewrite insert_nat_perm. auto. Qed.
Lemma insert_nat_sorted : forall a l, StronglySorted le l -> StronglySorted le (insert_nat a l).
Proof.
  intros a l H. induction H as [|b l Hs IH Hf]; cbn; [repeat constructor|]. destruct (Nat.leb_spec a b).
  - constructor; [now constructor|]. constructor; [auto|]. eapply Forall_impl; [|exact Hf]. intros; cbn in *; lia.
  - constructor; auto. apply Forall_forall. intros c Hc. apply (Permutation_in _ (insert_nat_perm a l)) in Hc. destruct Hc as [<-|Hc]; [lia|]. rewrite Forall_forall in Hf. auto.
Qed.
Lemma sort_nat_sorted : forall l, StronglySorted le (sort_nat l).
Proof. intros l. induction l; cbn; [constructor|]. now apply insert_nat_sorted. Qed.
Lemma sort_nat_strict : forall l, NoDup l -> StronglySorted lt (sort_nat l).
Proof.
  intros l Hl. assert (N : NoDup (sort_nat l)) by (eapply Permutation_NoDup; [symmetry; apply sort_nat_perm|auto]). pose proof (sort_nat_sorted l) as H. revert N H. generalize (sort_nat l). clear. induction l as [|a l IH]; intros N H; constructor; inversion N; inversion H; subst; auto.
  apply Forall_forall. intros b Hb. rewrite Forall_forall in *. specialize (H7 b Hb). destruct (Nat.eq_dec a b); [congruence|lia].
Qed.
Lemma unique_in : forall l i, In i (unique_nat l) <-> In i l.
Proof. intros l i. unfold unique_nat. rewrite nodup_In. split; apply Permutation_in; [|symmetry]; apply sort_nat_perm. Qed.
Lemma unique_NoDup : forall l, NoDup (unique_nat l).
Proof. intros. apply NoDup_nodup. Qed.

(** The [k] largest of the candidates. *)
Section Largest.
Variable argsort : list R -> list nat.
Hypothesis Ha : is_argsort argsort.
Definition val (values : list R) (i : nat) : R := nth i values 0.
Definition by_height (values : list R) (c : list nat) : list nat := map (fun j => nth j c 0%nat) (argsort (map (fun i => nth i values 0) c)).
Lemma by_height_perm : forall values c, Permutation (by_height values c) c.
Proof.
  intros v c. unfold by_height. destruct (Ha (map (fun i => nth i v 0) c)) as [P _]. rewrite map_length in P. apply (Permutation_map (fun j => nth j c 0%nat)) in P. rewrite P. clear. replace (map _ _) with c; auto. apply nth_ext with 0%nat 0%nat; rewrite ?map_length, ?seq_length; auto. intros i Hi. rewrite (nth_map_in _ _ _ 0%nat), seq_nth by (rewrite ?seq_length; auto). reflexivity.
Qed.
Lemma by_height_length : forall values c, length (by_height values c) = length c.
Proof. intros. apply Permutation_length, by_height_perm. Qed.
Lemma by_height_sorted : forall values c, StronglySorted (fun i j => val values i <= val values j) (by_height values c).
Proof.
  intros v c. apply nth_ssorted with (d := 0%nat). intros i j Hij. rewrite by_height_length in Hij. unfold by_height. destruct (Ha (map (fun i => nth i v 0) c)) as [P Q]. rewrite map_length in P, Q. specialize (Q i j Hij). set (as_ := argsort _) in *.
  assert (L : length as_ = length c) by (rewrite (Permutation_length P); apply seq_length). assert (R : forall k, (k < length c)%nat -> (nth k as_ 0 < length c)%nat) by (intros k Hk; assert (I : In (nth k as_ 0%nat) as_) by (apply nth_In; lia); apply (Permutation_in _ P) in I; apply in_seq in I; lia).
  rewrite !(nth_map_in _ _ _ 0%nat) by lia. rewrite !(nth_map_in (fun i => nth i v 0) c _ 0%nat) in Q by (apply R; lia). exact Q.
Qed.
Lemma k_largest_eq : forall values c k, k_largest argsort values c k = last_k k (by_height values c).
Proof. intros. unfold k_largest, last_k, by_height. destruct (k =? 0)%nat; auto. rewrite map_length. symmetry. apply skipn_map. Qed.

(** [r] are the [k] largest of [c], in ascending order. *)
Definition largest_of (values : list R) (c : list nat) (k : nat) (r : list nat) : Prop :=
  NoDup r /\ incl r c /\ length r = Nat.min k (length c) /\ StronglySorted (fun i j => val values i <= val values j) r /\
  forall i j, In i r -> In j c -> ~ In j r -> val values j <= val values i.
Lemma ssorted_app_inv : forall {A} (P : A -> A -> Prop) l1 l2, StronglySorted P (l1 ++ l2) -> StronglySorted P l2 /\ forall a b, In a l1 -> In b l2 -> P a b.
Proof.
  intros A P l1 l2. induction l1 as [|a l1 IH]; cbn; intros H; [split; [auto|intros a b []]|]. inversion H; subst. destruct (IH H2) as [S2 C]. split; auto. intros x b [<-|Hx] Hb; auto. rewrite Forall_forall in H3. apply H3, in_or_app. auto.
Qed.
Lemma NoDup_app_r : forall {A} (l1 l2 : list A), NoDup (l1 ++ l2) -> NoDup l2.
Proof. intros A l1 l2. induction l1; cbn; intros H; [auto|]. inversion H; auto. Qed.
Lemma k_largest_spec : forall values c k, NoDup c -> (1 <= k)%nat -> largest_of values c k (k_largest argsort values c k).
Proof.
  intros v c k Nc Hk. rewrite k_largest_eq. unfold last_k. destruct (Nat.eqb_spec k 0); [lia|]. pose proof (by_height_perm v c) as P. pose proof (by_height_sorted v c) as Q. set (p := by_height v c) in *. assert (Np : NoDup p) by (eapply Permutation_NoDup; [symmetry|]; eauto). rewrite <- (firstn_skipn (length p - k) p) in P, Q, Np.
  assert (Lp : length p = length c) by apply by_height_length. destruct (ssorted_app_inv _ _ _ Q) as [Q2 C]. split; [eapply NoDup_app_r; eauto|]. split; [intros i Hi; eapply Permutation_in; [exact P|]; apply in_or_app; auto|]. split; [rewrite skipn_length; lia|]. split; auto.
  intros i j Hi Hj Hn. apply C; auto. apply (Permutation_in _ (Permutation_sym P)) in Hj. apply in_app_or in Hj. tauto.
Qed.
(** If a candidate is a global maximum the last one returned is one. *)
Lemma largest_last : forall values c k r m, largest_of values c k r -> (1 <= k)%nat -> In m c -> (forall i, (i < length values)%nat -> val values i <= val values m) ->
  exists r' i, r = r' ++ [i] /\ In i c /\ forall j, (j < length values)%nat -> val values j <= val values i.
Proof.
  intros v c k r m (Nr & Ir & Lr & Sr & Cr) Hk Hm Hmax. assert (Hr : r <> []) by (intros ->; destruct c; [destruct Hm|cbn in Lr; lia]). destruct (exists_last Hr) as (r' & i & ->). exists r', i. split; auto. split; [apply Ir, in_or_app; right; left; auto|]. intros j Hj. apply Rle_trans with (val v m); auto.
  destruct (in_dec Nat.eq_dec m (r' ++ [i])) as [Hin|Hin].
  - apply in_app_or in Hin. destruct Hin as [Hin|[->|[]]]; [|lra]. destruct (ssorted_app_inv _ _ _ Sr) as [_ C]. apply C; [auto|left; auto].
  - apply Cr; auto. apply in_or_app. right. left. auto.
Qed.
End Largest.

(** Maxima of non-empty lists. *)
Lemma has_max : forall v : list R, v <> [] -> exists m, (m < length v)%nat /\ forall i, (i < length v)%nat -> val v i <= val v m.
Proof.
  intros v. induction v as [|a v IH]; [congruence|]. intros _. destruct v as [|b v].
  - exists 0%nat. cbn. split; [lia|]. intros i Hi. destruct i; [apply Rle_refl|lia].
  - destruct IH as (m & Hm & H); [congruence|]. revert Hm H. generalize (b :: v). intros w Hm H. destruct (Rle_dec a (val w m)).
    + exists (S m). split; [cbn; lia|]. intros [|i] Hi; [auto|]. apply H. cbn in Hi. lia.
    + exists 0%nat. split; [cbn; lia|]. intros [|i] Hi; [apply Rle_refl|]. cbn in Hi. unfold val in *. cbn [nth]. specialize (H i ltac:(lia)). lra.
Qed.

(** ** C87: peak detection *)
(** An interior sample above its left and not below its right neighbour (rising edges; the other kinds alike). *)
Definition is_peak (x : list R) (e : edge_kind) (i : nat) : Prop :=
  (0 < i)%nat /\ (S i < length x)%nat /\
  let l := nth (i - 1) x 0 in let c := nth i x 0 in let r := nth (S i) x 0 in
  match e with edge_none => l < c /\ r < c | edge_rising => l < c /\ r <= c | edge_falling => l <= c /\ r < c | edge_both => (l < c /\ r <= c) \/ (l <= c /\ r < c) end.
Definition acceptable (x : list R) (mph : option R) (threshold : R) (i : nat) : Prop :=
  (forall h, mph = Some h -> h <= nth i x 0) /\
  (0 < threshold -> nth (i - 1) x 0 + threshold <= nth i x 0 /\ nth (S i) x 0 + threshold <= nth i x 0).
Lemma at_edge_spec : forall x e i, (0 < i)%nat -> (S i < length x)%nat -> at_edge x e i = true <-> is_peak x e i.
Proof.
  intros x e i H1 H2. unfold at_edge, is_peak, step_after, step_before. destruct (Nat.ltb_spec (S i) (length x)); [|lia]. destruct (Nat.ltb_spec 0 i); [|lia]. set (l := nth (i - 1) x 0). set (c := nth i x 0). set (r := nth (S i) x 0).
  destruct e; rewrite ?orb_true_iff, ?andb_true_iff, ?Rltb_true, ?Rleb_true; split; intros; repeat split; auto; try tauto; try lra; intuition lra.
Qed.
Lemma drop_first_none : forall n l, (forall a, In a l -> a <> n) -> drop_first_if n l = l.
Proof. intros n [|a l] H; auto. cbn. destruct (Nat.eqb_spec a n); auto. elim (H a); auto. left; auto. Qed.
Lemma drop_last_none : forall n l, (forall a, In a l -> a <> n) -> drop_last_if n l = l.
Proof. intros n l H. unfold drop_last_if. destruct l as [|b l]; auto. destruct (Nat.eqb_spec (last (b :: l) 0%nat) n); auto. elim (H (last (b :: l) 0%nat)); auto. assert (Hb : b :: l <> []) by congruence. pose proof (app_removelast_last 0%nat Hb) as E. rewrite E at 2. apply in_or_app. right. left. auto. Qed.
Lemma drop_last_one : forall n l, drop_last_if n (l ++ [n]) = l.
Proof. intros n l. unfold drop_last_if. destruct (l ++ [n]) eqn:E; [destruct l; discriminate|]. rewrite <- E, last_last, Nat.eqb_refl. apply removelast_last. Qed.
Lemma interior : forall P n, (3 <= n)%nat -> drop_last_if (n - 1) (drop_first_if 0 (filter P (seq 0 n))) = filter P (seq 1 (n - 2)).
Proof.
  intros P n Hn. replace (seq 0 n) with (0%nat :: seq 1 (n - 2) ++ [(n - 1)%nat]) by (change (0%nat :: seq 1 (n - 2) ++ [(n - 1)%nat]) with ([0%nat] ++ seq 1 (n - 2) ++ [(n - 1)%nat]); change [0%nat] with (seq 0 1); change [(n - 1)%nat] with (seq (n - 1) 1); replace (n - 1)%nat with (1 + (n - 2))%nat at 1 by lia; rewrite <- seq_app; change 1%nat with (0 + 1)%nat at 2; rewrite <- seq_app; f_equal; lia).
  assert (D : drop_first_if 0 (filter P (0%nat :: seq 1 (n - 2) ++ [(n - 1)%nat])) = filter P (seq 1 (n - 2) ++ [(n - 1)%nat])).
  { cbn [filter]. destruct (P 0%nat); [cbn; auto|]. apply drop_first_none. intros a Ha. apply filter_In in Ha. destruct Ha as [Ha _]. apply in_app_or in Ha. destruct Ha as [Ha|[<-|[]]]; [apply in_seq in Ha; lia|lia]. }
  rewrite D, filter_app. cbn [filter]. destruct (P (n - 1)%nat); [apply drop_last_one|]. rewrite app_nil_r. apply drop_last_none. intros a Ha. apply filter_In in Ha. destruct Ha as [Ha _]. apply in_seq in Ha. lia.
Qed.
Lemma filter_sorted : forall {A} (P : A -> A -> Prop) f l, StronglySorted P l -> StronglySorted P (filter f l).
Proof. intros A P f l H. induction H as [|a l Hs IH Hf]; cbn; [constructor|]. destruct (f a); auto. constructor; auto. apply Forall_forall. intros b Hb. apply filter_In in Hb. rewrite Forall_forall in Hf. apply Hf. tauto. Qed.
Lemma seq_sorted : forall n a, StronglySorted lt (seq a n).
Proof. intros n. induction n as [|n IH]; intros a; cbn; constructor; auto. apply Forall_forall. intros b Hb. apply in_seq in Hb. lia. Qed.

Section Detect.
Variable argsort : list R -> list nat.
Hypothesis Ha : is_argsort argsort.
Definition shown (valley : bool) (x : list R) : list R := if valley then map Ropp x else x.
Lemma shown_length : forall b x, length (shown b x) = length x.
Proof. intros [|] x; cbn; auto. apply map_length. Qed.
Lemma detect_plain : forall x mph mpd thr e kpsh valley, (mpd <= 1)%Z -> StronglySorted lt (detect_peaks argsort x mph mpd thr e kpsh valley) /\
  forall i, In i (detect_peaks argsort x mph mpd thr e kpsh valley) <-> is_peak (shown valley x) e i /\ acceptable (shown valley x) mph thr i.
Proof.
  intros x mph mpd thr e kpsh valley Hm. unfold detect_peaks. fold (shown valley x). set (y := shown valley x). assert (Ly : length y = length x) by apply shown_length. destruct (Nat.ltb_spec (length x) 3) as [H3|H3].
  - split; [constructor|]. intros i. split; [intros []|]. intros [(P1 & P2 & _) _]. lia.
  - destruct (Z.ltb_spec 1 mpd); [lia|]. rewrite interior by lia. split.
    + destruct mph; [|]; destruct (Rltb 0 thr); repeat apply filter_sorted; apply seq_sorted.
    + intros i. assert (B : In i (filter (at_edge y e) (seq 1 (length y - 2))) <-> is_peak y e i).
      { rewrite filter_In, in_seq. split.
        - intros [H1 H2]. apply at_edge_spec; auto; lia.
        - intros H1. pose proof H1 as (P1 & P2 & _). split; [lia|]. apply at_edge_spec; auto. }
      set (l0 := filter (at_edge y e) (seq 1 (length y - 2))) in *.
      assert (M : In i (match mph with None => l0 | Some h => filter (fun i => Rleb h (nth i y 0)) l0 end) <-> is_peak y e i /\ forall h, mph = Some h -> h <= nth i y 0).
      { destruct mph as [h|].
        - rewrite filter_In, Rleb_true, B. split; intros [H1 H2]; split; auto. intros h' [= <-]. auto.
        - rewrite B. split; [intros H1; split; [auto|discriminate]|tauto]. }
      set (l1 := match mph with None => l0 | Some h => filter (fun i => Rleb h (nth i y 0)) l0 end) in *. unfold acceptable. destruct (Rltb 0 thr) eqn:T.
      * rewrite filter_In, M, negb_true_iff, Rltb_false. apply Rltb_true in T. replace (i + 1)%nat with (S i) by lia.
        assert (E : forall a b, thr <= Rmin a b <-> thr <= a /\ thr <= b) by (intros a b; unfold Rmin; destruct (Rle_dec a b); split; intros; lra). rewrite E. split.
        -- intros ((H1 & H2) & H4 & H5). split; [auto|]. split; [auto|]. intros _. lra.
        -- intros (H1 & H2 & H4). specialize (H4 T). split; [auto|]. lra.
      * rewrite M. apply Rltb_false in T. split; [intros [H1 H2]; split; [auto|]; split; [auto|]; intros; lra|tauto].
Qed.

(** The suppression of close peaks. *)
Section Suppress.
Variables (x : list R) (mpd : Z) (kpsh : bool) (ind : list nat).
Hypothesis Hs : StronglySorted (fun i j => val x j <= val x i) ind.
Let n := length ind.
Let p i := nth i ind 0%nat.
Definition close (a b : nat) : Prop := (Z.abs (Z.of_nat a - Z.of_nat b) <= mpd)%Z.
Lemma near_close : forall a b, near mpd a b = true <-> close a b.
Proof. intros. unfold near, close. rewrite andb_true_iff, !Z.leb_le. lia. Qed.
Definition inv (t : nat) (d : list bool) : Prop := length d = n /\
  (forall i j, (i < t)%nat -> (i < n)%nat -> (j < n)%nat -> j <> i -> nth i d false = false -> close (p j) (p i) -> (kpsh = true -> val x (p j) < val x (p i)) -> nth j d false = true) /\
  (forall j, (j < n)%nat -> nth j d false = true -> exists i, (i < t)%nat /\ (i < j)%nat /\ nth i d false = false /\ close (p j) (p i) /\ (kpsh = true -> val x (p j) < val x (p i))).
Lemma inv_step : forall t d, (t < n)%nat -> inv t d -> inv (S t) (suppress_one x mpd kpsh ind d t).
Proof.
  intros t d Ht (L & A & B). unfold suppress_one. destruct (nth t d false) eqn:Et.
  - split; [auto|]. split.
    + intros i j Hi Hin Hj Hne Hf. destruct (Nat.eq_dec i t) as [->|]; [congruence|]. apply A; auto. lia.
    + intros j Hj Hd. destruct (B j Hj Hd) as (i & H1 & H2). exists i. split; [lia|tauto].
  - set (d' := map _ _). assert (N : forall j, (j < n)%nat -> nth j d' false = if (j =? t)%nat then false else nth j d false || (near mpd (p j) (p t) && (if kpsh then Rltb (val x (p j)) (val x (p t)) else true))) by (intros j Hj; unfold d'; rewrite nth_map_seq by (fold n; lia); reflexivity).
    assert (C : forall j, (j < n)%nat -> near mpd (p j) (p t) && (if kpsh then Rltb (val x (p j)) (val x (p t)) else true) = true <-> close (p j) (p t) /\ (kpsh = true -> val x (p j) < val x (p t))).
    { intros j Hj. rewrite andb_true_iff, near_close. destruct kpsh; [rewrite Rltb_true|]; split; intros [H1 H2]; split; auto; try discriminate. }
    assert (Old : forall j, (j < t)%nat -> nth j d' false = nth j d false).
    { intros j Hj. rewrite N by lia. destruct (Nat.eqb_spec j t); [lia|]. destruct (nth j d false) eqn:Ej; [reflexivity|]. cbn [orb]. destruct (near _ _ _ && _) eqn:Q; auto. apply C in Q; [|lia]. destruct Q as [Q1 Q2]. exfalso. destruct kpsh eqn:K.
      - specialize (Q2 eq_refl). pose proof (ssorted_nth _ ind 0%nat Hs j t) as S1. fold n p in S1. unfold p in *. cbn in S1. specialize (S1 ltac:(fold n; lia)). lra.
      - assert (nth t d false = true); [|congruence]. apply (A j t); auto; try lia; try congruence. unfold close in *. lia. }
    assert (Keep : forall j, (j < n)%nat -> nth j d false = true -> nth j d' false = true).
    { intros j Hj E. rewrite N by lia. destruct (Nat.eqb_spec j t); [congruence|]. now rewrite E. }
    split; [unfold d'; now rewrite map_length, seq_length|]. split.
    + intros i j Hi Hin Hj Hne Hf Hc Hk. destruct (Nat.eq_dec i t) as [->|].
      * rewrite N by auto. destruct (Nat.eqb_spec j t); [lia|]. apply orb_true_iff. right. apply C; auto.
      * apply Keep; auto. apply (A i j); auto; try lia. rewrite <- Old by lia. auto.
    + intros j Hj Hd. rewrite N in Hd by auto. destruct (Nat.eqb_spec j t); [discriminate|]. apply orb_true_iff in Hd. destruct Hd as [Hd|Hd].
      * destruct (B j Hj Hd) as (i & H1 & H2 & H3 & H4). exists i. rewrite Old by lia. split; [lia|tauto].
      * destruct (Nat.lt_ge_cases j t) as [Hlt|Hge].
        -- assert (E : nth j d' false = true) by (rewrite N by auto; destruct (Nat.eqb_spec j t); [lia|]; rewrite Hd; apply orb_true_r). rewrite Old in E by auto. destruct (B j Hj E) as (i & H1 & H2 & H3 & H4). exists i. rewrite Old by lia. split; [lia|tauto].
        -- apply C in Hd; auto. exists t. split; [lia|]. split; [lia|]. split; [rewrite N by auto; now rewrite Nat.eqb_refl|auto].
Qed.
Lemma suppress_inv : inv n (suppress x mpd kpsh ind).
Proof.
  unfold suppress. fold n. assert (G : forall t, (t <= n)%nat -> inv t (fold_left (suppress_one x mpd kpsh ind) (seq 0 t) (repeat false n))).
  { induction t as [|t IH]; intros Ht.
    - cbn. split; [apply repeat_length|]. split; [intros; lia|]. intros j Hj E. rewrite nth_repeat in E. discriminate.
    - rewrite seq_S, fold_left_app. cbn. apply inv_step; [lia|]. apply IH. lia. }
  apply G. lia.
Qed.
End Suppress.

End Detect.

Lemma rev_sorted : forall {A} (P : A -> A -> Prop) l, StronglySorted P l -> StronglySorted (fun a b => P b a) (rev l).
Proof.
  intros A P [|d l] H; [constructor|]. apply nth_ssorted with (d := d). intros i j Hij. rewrite rev_length in Hij. rewrite !rev_nth by lia. apply ssorted_nth; auto. cbn [length] in *. lia.
Qed.
Lemma NoDup_map_nth : forall (l js : list nat), NoDup l -> NoDup js -> (forall j, In j js -> (j < length l)%nat) -> NoDup (map (fun j => nth j l 0%nat) js).
Proof.
  intros l js Nl. induction 1 as [|j js Hj Nj IH]; cbn; intros Hb; constructor; auto. intros Hin. apply in_map_iff in Hin. destruct Hin as (j' & E & Hj'). apply Hj. replace j with j'; auto. apply (proj1 (NoDup_nth l 0%nat) Nl); auto.
Qed.
(** Without a minimum distance exactly the acceptable peaks are returned, in ascending order. *)
Theorem C87_peaks : forall argsort x mph mpd thr e kpsh valley, (mpd <= 1)%Z ->
  let y := shown valley x in let r := detect_peaks argsort x mph mpd thr e kpsh valley in
  StronglySorted lt r /\ forall i, In i r <-> is_peak y e i /\ acceptable y mph thr i.
Proof. intros. now apply detect_plain. Qed.
Example C87_case : In 3%nat (detect_peaks some_argsort [0; 1; 0; 2; 2; 0] None 1 0 edge_rising false false) /\ ~ In 4%nat (detect_peaks some_argsort [0; 1; 0; 2; 2; 0] None 1 0 edge_rising false false).
Proof.
  split; [|intros H; revert H]; rewrite (proj2 (C87_peaks some_argsort [0; 1; 0; 2; 2; 0] None 1 0 edge_rising false false ltac:(lia))); unfold is_peak, acceptable, shown; cbn.
  - repeat split; try lia; try lra; try discriminate.
  - lra.
Qed.
(** With a minimum distance: a subset of these in which two peaks are further apart than the distance (with kpsh: or
    equally high), and every peak left out is within the distance of one returned that is at least as high (kpsh: higher). *)
Theorem C87_distance : forall argsort x mph mpd thr e kpsh valley, is_argsort argsort -> (1 < mpd)%Z ->
  let y := shown valley x in let r := detect_peaks argsort x mph mpd thr e kpsh valley in
  StronglySorted lt r /\ (forall i, In i r -> is_peak y e i /\ acceptable y mph thr i) /\
  (forall i j, In i r -> In j r -> i <> j -> close mpd i j -> kpsh = true /\ nth i y 0 = nth j y 0) /\
  (forall i, is_peak y e i -> acceptable y mph thr i -> ~ In i r -> exists j, In j r /\ close mpd i j /\ nth i y 0 <= nth j y 0 /\ (kpsh = true -> nth i y 0 < nth j y 0)).
Proof.
  intros argsort x mph mpd thr e kpsh valley Ha Hm. destruct (C87_peaks argsort x mph 1 thr e kpsh valley ltac:(lia)) as [PS PI]. cbv zeta. set (y := shown valley x) in *.
  set (c := detect_peaks argsort x mph 1 thr e kpsh valley) in *. set (ind := rev (by_height argsort y c)).
  assert (E : detect_peaks argsort x mph mpd thr e kpsh valley = sort_nat (map (fun j => nth j ind 0%nat) (filter (fun j => negb (nth j (suppress y mpd kpsh ind) false)) (seq 0 (length ind))))).
  { unfold ind, c, by_height. unfold detect_peaks. fold (shown valley x). fold y. change (1 <? 1)%Z with false. cbn iota. destruct (Z.ltb_spec 1 mpd); [|lia]. destruct (Nat.ltb_spec (length x) 3); [|reflexivity]. destruct (Ha []) as [P _]. cbn in P. cbn [map]. apply Permutation_sym, Permutation_nil in P. rewrite P. reflexivity. }
  rewrite E. clear E. assert (Pi : Permutation ind c) by (unfold ind; rewrite <- Permutation_rev; now apply by_height_perm).
  assert (Nc : NoDup c) by (clear - PS; induction PS; constructor; auto; intros Hin; rewrite Forall_forall in H; specialize (H _ Hin); lia). assert (Ni : NoDup ind) by (eapply Permutation_NoDup; [symmetry|]; eauto).
  assert (Si : StronglySorted (fun i j => val y j <= val y i) ind) by (apply (rev_sorted (fun i j => val y i <= val y j)); now apply by_height_sorted).
  destruct (suppress_inv y mpd kpsh ind Si) as (L & A & B). set (d := suppress y mpd kpsh ind) in *. set (n := length ind) in *.
  set (ks := filter (fun j => negb (nth j d false)) (seq 0 n)). set (r0 := map (fun j => nth j ind 0%nat) ks).
  assert (Ik : forall i, In i (sort_nat r0) <-> exists j, (j < n)%nat /\ nth j d false = false /\ i = nth j ind 0%nat).
  { intros i. split.
    - intros H. apply (Permutation_in _ (sort_nat_perm r0)) in H. apply in_map_iff in H. destruct H as (j & <- & Hj). apply filter_In in Hj. destruct Hj as [Hj1 Hj2]. apply in_seq in Hj1. exists j. split; [lia|]. split; auto. now destruct (nth j d false).
    - intros (j & Hj & Hd & ->). apply (Permutation_in _ (Permutation_sym (sort_nat_perm r0))). unfold r0. apply in_map_iff. exists j. split; auto. apply filter_In. rewrite Hd. split; [apply in_seq; lia|auto]. }
  assert (Nr : NoDup r0) by (apply NoDup_map_nth; auto; [apply NoDup_filter, seq_NoDup|intros j Hj; apply filter_In in Hj; destruct Hj as [Hj _]; apply in_seq in Hj; unfold n in *; lia]).
  split; [now apply sort_nat_strict|]. split.
  { intros i Hi. apply Ik in Hi. destruct Hi as (j & Hj & _ & ->). apply PI, (Permutation_in _ Pi), nth_In. exact Hj. }
  split.
  - assert (W : forall a b, (a < b < n)%nat -> nth a d false = false -> nth b d false = false -> close mpd (nth b ind 0%nat) (nth a ind 0%nat) -> kpsh = true /\ val y (nth b ind 0%nat) = val y (nth a ind 0%nat)).
    { intros a b Hab Da Db Hc. pose proof (ssorted_nth _ ind 0%nat Si a b ltac:(unfold n in *; lia)) as Q. cbn in Q. destruct kpsh eqn:K.
      - split; auto. destruct (Rlt_dec (val y (nth b ind 0%nat)) (val y (nth a ind 0%nat))) as [Hlt|Hge]; [|lra]. enough (nth b d false = true) by congruence. apply (A a b); auto; lia.
      - enough (nth b d false = true) by congruence. apply (A a b); auto; try lia; discriminate. }
    intros i j Hi Hj Hne Hc. apply Ik in Hi, Hj. destruct Hi as (a & Ha1 & Ha2 & ->), Hj as (b & Hb1 & Hb2 & ->). destruct (Nat.lt_trichotomy a b) as [Hab|[->|Hab]].
    + assert (Hc' : close mpd (nth b ind 0%nat) (nth a ind 0%nat)) by (unfold close in *; lia). destruct (W a b ltac:(lia) Ha2 Hb2 Hc') as [K V]. split; auto.
    + congruence.
    + destruct (W b a ltac:(lia) Hb2 Ha2 Hc) as [K V]. auto.
  - intros i Hp Hacc Hn. assert (Hi : In i c) by (apply PI; auto). apply (Permutation_in _ (Permutation_sym Pi)) in Hi. apply In_nth with (d := 0%nat) in Hi. destruct Hi as (b & Hb & <-). fold n in Hb. destruct (nth b d false) eqn:Db.
    + destruct (B b Hb Db) as (a & H1 & H2 & H3 & H4 & H5). exists (nth a ind 0%nat). split; [apply Ik; exists a; auto|]. split; auto. split; [|exact H5]. apply (ssorted_nth _ ind 0%nat Si a b). unfold n in *. lia.
    + elim Hn. apply Ik. exists b. auto.
Qed.
Example C87_distance_case : let r := detect_peaks some_argsort [0; 1; 0; 2; 0; 1; 0] None 2 0 edge_rising false false in In 3%nat r /\ ~ In 1%nat r.
Proof.
  cbv zeta. destruct (C87_distance some_argsort [0; 1; 0; 2; 0; 1; 0] None 2 0 edge_rising false false some_argsort_ok ltac:(lia)) as (_ & Hp & Hd & Hc). set (r := detect_peaks _ _ _ _ _ _ _ _) in *. cbv zeta in *. unfold shown in *.
  assert (H3 : In 3%nat r).
  { destruct (in_dec Nat.eq_dec 3%nat r) as [|Hn]; auto. destruct (Hc 3%nat) as (j & Hj & _ & Hv & _); auto.
    - unfold is_peak. cbn. repeat split; try lia; lra.
    - unfold acceptable. split; [discriminate|]. cbn. lra.
    - destruct (Hp j Hj) as [(P1 & P2 & _) _]. cbn in P2. do 7 (destruct j as [|j]; [try lia; try exact Hj; cbn in Hv; lra|]). lia. }
  split; auto. intros H1. destruct (Hd 1%nat 3%nat); auto; [unfold close; lia|discriminate].
Qed.

(** ** C66 *)
(** Circular neighbours; a (rising) local maximum of the circular sequence. *)
Definition circ_peak (v : list R) (i : nat) : Prop := let n := length v in
  (i < n)%nat /\ nth ((i + n - 1) mod n) v 0 < nth i v 0 /\ nth ((i + 1) mod n) v 0 <= nth i v 0.
Lemma val_ext_nth : forall v j, (j < length v + Nat.min 10 (length v))%nat -> nth j (v ++ firstn 10 v) 0 = nth (j mod length v) v 0.
Proof.
  intros v j Hj. destruct (Nat.lt_ge_cases j (length v)) as [H|H].
  - rewrite app_nth1 by auto. now rewrite Nat.mod_small.
  - rewrite app_nth2 by auto. rewrite StftProofs.nth_firstn by lia. f_equal. rewrite <- (Nat.mod_small (j - length v) (length v)) by lia. replace j with (j - length v + 1 * length v)%nat at 2 by lia. now rewrite Nat.mod_add by lia.
Qed.
Lemma circle_candidates : forall argsort v, (2 <= length v)%nat ->
  let c := unique_nat (map (fun i => (i mod length v)%nat) (detect_peaks argsort (v ++ firstn 10 v) None 1 0 edge_rising false false)) in forall i, In i c <-> circ_peak v i.
Proof.
  intros argsort v Hn c i. unfold c. rewrite unique_in, in_map_iff. destruct (C87_peaks argsort (v ++ firstn 10 v) None 1 0 edge_rising false false ltac:(lia)) as [_ D]. unfold shown in D. set (n := length v) in *. assert (Lx : length (v ++ firstn 10 v) = (n + Nat.min 10 n)%nat) by (rewrite app_length, firstn_length; auto).
  assert (G : forall j, is_peak (v ++ firstn 10 v) edge_rising j <-> ((0 < j)%nat /\ (S j < n + Nat.min 10 n)%nat /\ circ_peak v (j mod n))).
  { intros j. unfold is_peak. rewrite Lx. split.
    - intros (H1 & H2 & H3). cbv zeta in H3. rewrite !val_ext_nth in H3 by (fold n; lia). fold n in H3. repeat split; auto; fold n.
      + apply Nat.mod_upper_bound. lia.
      + replace ((j mod n + n - 1) mod n)%nat with ((j - 1) mod n)%nat; [tauto|]. rewrite <- Nat.add_sub_assoc, Nat.add_mod_idemp_l by lia. replace (j + (n - 1))%nat with (j - 1 + 1 * n)%nat by lia. now rewrite Nat.mod_add by lia.
      + rewrite Nat.add_mod_idemp_l by lia. replace (j + 1)%nat with (S j) by lia. tauto.
    - intros (H1 & H2 & H3 & H4 & H5). fold n in H3, H4, H5. split; auto. split; auto. cbv zeta. rewrite !val_ext_nth by (fold n; lia). fold n. split.
      + replace ((j - 1) mod n)%nat with ((j mod n + n - 1) mod n)%nat; [tauto|]. rewrite <- Nat.add_sub_assoc, Nat.add_mod_idemp_l by lia. replace (j + (n - 1))%nat with (j - 1 + 1 * n)%nat by lia. now rewrite Nat.mod_add by lia.
      + rewrite Nat.add_mod_idemp_l in H5 by lia. replace (j + 1)%nat with (S j) in H5 by lia. tauto. }
  split.
  - intros (j & <- & Hj). apply D in Hj. destruct Hj as [Hj _]. apply G in Hj. tauto.
  - intros Hc. pose proof Hc as [Hi _]. fold n in Hi. destruct i as [|i].
    + exists n. split; [apply Nat.mod_same; lia|]. apply D. split; [|split; [discriminate|intros; lra]]. apply G. rewrite Nat.mod_same by lia. split; [lia|]. split; [lia|auto].
    + exists (S i). split; [now apply Nat.mod_small|]. apply D. split; [|split; [discriminate|intros; lra]]. apply G. rewrite Nat.mod_small by auto. split; [lia|]. split; [lia|auto].
Qed.
(** The peaks returned are the [k] largest circular local maxima (all if there are fewer), in ascending order, none twice. *)
Theorem C66_circle : forall argsort v k, is_argsort argsort -> (1 <= k)%nat -> exists c, NoDup c /\ (forall i, In i c <-> circ_peak v i) /\ largest_of v c k (circle_find_peaks argsort v k).
Proof.
  intros argsort v k Ha Hk. destruct (Nat.lt_ge_cases (length v) 2) as [Hn|Hn].
  - exists []. split; [constructor|]. assert (E : circle_find_peaks argsort v k = []).
    { unfold circle_find_peaks, detect_peaks. destruct (Nat.ltb_spec (length (v ++ firstn 10 v)) 3) as [_|H]; [|rewrite app_length, firstn_length in H; lia]. cbn. unfold k_largest. cbn. destruct (Ha []) as [P _]. cbn in P. apply Permutation_sym, Permutation_nil in P. rewrite P. unfold last_k. destruct (k =? 0)%nat; reflexivity. }
    rewrite E. split.
    + intros i. split; [intros []|]. unfold circ_peak. intros (H1 & H2 & _). assert (i = 0%nat) as -> by lia. destruct v as [|a [|b v]]; cbn in *; lra || lia.
    + split; [apply NoDup_nil|]. split; [intros i []|]. split; [cbn; lia|]. split; [apply SSorted_nil|intros i j []].
  - eexists. split; [apply unique_NoDup|]. split; [now apply circle_candidates|]. unfold circle_find_peaks. apply k_largest_spec; auto. apply unique_NoDup.
Qed.
(** A non-constant circular sequence: the last peak returned is a global maximum. *)
Lemma rising_max : forall v, (exists i j, (i < length v)%nat /\ (j < length v)%nat /\ nth i v 0 <> nth j v 0) -> exists m, circ_peak v m /\ forall i, (i < length v)%nat -> nth i v 0 <= nth m v 0.
Proof.
  intros v (i0 & j0 & Hi0 & Hj0 & Hne). set (n := length v) in *. destruct (has_max v) as (m & Hm & Hmax); [destruct v; [cbn in *; lia|congruence]|]. unfold val in Hmax. fold n in Hm, Hmax.
  set (M := nth m v 0) in *. assert (Pred0 : ((0 + n - 1) mod n = n - 1)%nat) by (apply Nat.mod_small; lia). assert (PredS : forall i, (S i < n)%nat -> ((S i + n - 1) mod n = i)%nat) by (intros i Hi; replace (S i + n - 1)%nat with (i + 1 * n)%nat by lia; rewrite Nat.mod_add by lia; apply Nat.mod_small; lia).
  destruct (find (fun i => Rleb M (nth i v 0) && Rltb (nth ((i + n - 1) mod n) v 0) M) (seq 0 n)) as [p|] eqn:F.
  - apply find_some in F. destruct F as [F1 F2]. apply in_seq in F1. apply andb_true_iff in F2. rewrite Rleb_true, Rltb_true in F2. exists p. split; [|intros i Hi; specialize (Hmax i Hi); lra]. split; [fold n; lia|]. fold n. split; [lra|]. assert (H := Hmax ((p + 1) mod n)%nat ltac:(apply Nat.mod_upper_bound; lia)). lra.
  - exfalso. apply Hne. assert (St : forall i, (i < n)%nat -> nth i v 0 = M -> nth ((i + n - 1) mod n) v 0 = M).
    { intros i Hi E. pose proof (find_none _ _ F i) as Q. rewrite in_seq in Q. specialize (Q ltac:(lia)). assert (H := Hmax ((i + n - 1) mod n)%nat ltac:(apply Nat.mod_upper_bound; lia)). apply andb_false_iff in Q. rewrite Rleb_false, Rltb_false in Q. lra. }
    assert (Down : forall k t, (k < n)%nat -> nth k v 0 = M -> (t <= k)%nat -> nth (k - t) v 0 = M).
    { intros k t Hk E. induction t as [|t IH]; intros Ht; [now rewrite Nat.sub_0_r|]. specialize (IH ltac:(lia)). apply St in IH; [|lia]. replace (k - t)%nat with (S (k - S t)) in IH by lia. now rewrite PredS in IH by lia. }
    assert (E0 : nth 0 v 0 = M) by (replace 0%nat with (m - m)%nat by lia; apply Down; auto). apply St in E0; [|lia]. rewrite Pred0 in E0.
    assert (G : forall i, (i < n)%nat -> nth i v 0 = M) by (intros i Hi; replace i with (n - 1 - (n - 1 - i))%nat by lia; apply Down; auto; lia). now rewrite !G.
Qed.
Theorem C66_global : forall argsort v k, is_argsort argsort -> (1 <= k)%nat -> (exists i j, (i < length v)%nat /\ (j < length v)%nat /\ nth i v 0 <> nth j v 0) ->
  exists r i, circle_find_peaks argsort v k = r ++ [i] /\ (length r < k)%nat /\ (i < length v)%nat /\ forall j, (j < length v)%nat -> nth j v 0 <= nth i v 0.
Proof.
  intros argsort v k Ha Hk Hne. destruct (C66_circle argsort v k Ha Hk) as (c & Nc & Ic & Lg). destruct (rising_max v Hne) as (m & Hm & Hmax). destruct (largest_last v c k _ m Lg Hk) as (r & i & E & Hi & Hg); auto; [now apply Ic|]. exists r, i. split; [auto|]. split; [|split; [apply Ic in Hi; apply Hi|exact Hg]]. destruct Lg as (_ & _ & Lr & _). rewrite E, app_length in Lr. cbn in Lr. lia.
Qed.
Example C66_case : circle_find_peaks some_argsort [3; 1; 2; 1; 3] 1 = [4%nat].
Proof.
  destruct (C66_global some_argsort [3; 1; 2; 1; 3] 1 some_argsort_ok (le_n 1)) as (r & i & E & Lr & Hi & Hg); [exists 0%nat, 1%nat; cbn; repeat split; try lia; lra|]. destruct r; [|cbn in Lr; lia]. cbn [app] in E. rewrite E. f_equal.
  destruct (C66_circle some_argsort [3; 1; 2; 1; 3] 1 some_argsort_ok (le_n 1)) as (c & _ & Ic & Lg). rewrite E in Lg. destruct Lg as (_ & I & _). specialize (I i ltac:(left; auto)). apply Ic in I. destruct I as (_ & I1 & I2). cbn in Hi. specialize (Hg 0%nat ltac:(cbn; lia)). do 4 (destruct i as [|i]; [cbn in *; lra|]). destruct i; [reflexivity|lia].
Qed.
(** A constant spectrum has no peak; asking for zero peaks returns all of them. *)
Theorem C66_constant_refuted : exists v, v <> [] /\ forall argsort, is_argsort argsort -> circle_find_peaks argsort v 1 = [].
Proof.
  exists [1; 1; 1]. split; [congruence|]. intros argsort Ha. destruct (C66_circle argsort [1; 1; 1] 1 Ha (le_n 1)) as (c & _ & Ic & (_ & I & _)). destruct (circle_find_peaks argsort [1; 1; 1] 1) as [|i r]; auto. specialize (I i ltac:(left; auto)). apply Ic in I. destruct I as (I0 & I1 & _). cbn in I0. do 3 (destruct i as [|i]; [cbn in *; lra|]). lia.
Qed.
Theorem C66_zero_refuted : exists v, forall argsort, is_argsort argsort -> circle_find_peaks argsort v 0 <> [].
Proof.
  exists [0; 1; 0]. intros argsort Ha E. pose proof (circle_candidates argsort [0; 1; 0] ltac:(cbn; lia) 1%nat) as Hc. cbv zeta in Hc. unfold circle_find_peaks in E. rewrite k_largest_eq in E. unfold last_k in E. cbn [Nat.eqb] in E. set (c := unique_nat _) in *. pose proof (by_height_perm argsort Ha [0; 1; 0] c) as P. rewrite E in P. apply Permutation_nil in P. rewrite P in Hc. destruct Hc as [_ Hc]. apply Hc. unfold circ_peak. cbn. repeat split; try lia; lra.
Qed.
(** On the sphere, with any adjacency: the [k] largest of the points none of whose neighbours is higher; the last one
    is a global maximum. *)
Theorem C66_sphere : forall argsort nb v k, is_argsort argsort -> (1 <= k)%nat -> v <> [] -> (forall i u, In u (nb i) -> (u < length v)%nat) -> exists c, NoDup c /\
  (forall i, In i c <-> (i < length v)%nat /\ forall u, In u (nb i) -> nth u v 0 <= nth i v 0) /\ largest_of v c k (sphere_find_peaks argsort nb v k) /\
  exists r i, sphere_find_peaks argsort nb v k = r ++ [i] /\ (i < length v)%nat /\ forall j, (j < length v)%nat -> nth j v 0 <= nth i v 0.
Proof.
  intros argsort nb v k Ha Hk Hv Hnb. unfold sphere_find_peaks. set (c := filter _ _). assert (Nc : NoDup c) by apply NoDup_filter, seq_NoDup. assert (Ic : forall i, In i c <-> (i < length v)%nat /\ forall u, In u (nb i) -> nth u v 0 <= nth i v 0).
  { intros i. unfold c. rewrite filter_In, in_seq, negb_true_iff. split.
    - intros [H1 H2]. split; [lia|]. intros u Hu. destruct (Rltb (nth i v 0) (nth u v 0)) eqn:Q; [|now apply Rltb_false]. exfalso. assert (existsb (fun u => Rltb (nth i v 0) (nth u v 0)) (nb i) = true) by (apply existsb_exists; eauto). congruence.
    - intros [H1 H2]. split; [lia|]. destruct (existsb _ _) eqn:Q; auto. apply existsb_exists in Q. destruct Q as (u & Hu & Q). apply Rltb_true in Q. specialize (H2 u Hu). lra. }
  pose proof (k_largest_spec argsort Ha v c k Nc Hk) as Lg. exists c. split; auto. split; auto. split; auto. destruct (has_max v Hv) as (m & Hm & Hmax). destruct (largest_last v c k _ m Lg Hk) as (r & i & E & Hi & Hg); auto.
  - apply Ic. split; auto. intros u Hu. apply Hmax. eauto.
  - exists r, i. split; auto. split; [apply Ic; auto|exact Hg].
Qed.
Example C66_sphere_case : sphere_find_peaks some_argsort (fun i => match i with 0%nat => [1%nat] | 1%nat => [0%nat; 2%nat] | _ => [1%nat] end) [2; 1; 5] 1 = [2%nat].
Proof.
  destruct (C66_sphere some_argsort (fun i => match i with 0%nat => [1%nat] | 1%nat => [0%nat; 2%nat] | _ => [1%nat] end) [2; 1; 5] 1 some_argsort_ok (le_n 1)) as (c & Nc & Ic & Lg & r & i & E & Hi & Hg); [congruence|intros [|[|i]] u; cbn; lia|]. destruct Lg as (_ & _ & Lr & _). rewrite E in *. rewrite app_length in Lr. cbn [length] in Lr. destruct r; [|cbn [length] in Lr; lia]. specialize (Hg 2%nat ltac:(cbn; lia)). cbn in Hi. do 3 (destruct i as [|i]; [cbn in *; try lra; auto|]). lia.
Qed.

(** ** C70 *)
(** A history of calls of locate_sources without a source count; [specs] are the peak searches on the spectra. *)
Definition history (num_src : nat) (specs : list (nat -> list nat)) : nat * list (list nat) :=
  fold_left (fun st find => let '(n, out) := locate_sources find (fst st) None in (n, snd st ++ [out])) specs (num_src, []).
(** A peak search that returns [k] peaks if there are that many. *)
Definition finds (find : nat -> list nat) (total : nat) : Prop := forall k, (1 <= k)%nat -> length (find k) = Nat.min k total.
(** If every spectrum has at least as many peaks as sources were asked for, each call returns that many. *)
Theorem C70_count : forall num_src specs, (1 <= num_src)%nat -> (forall f, In f specs -> exists total, finds f total /\ (num_src <= total)%nat) ->
  fst (history num_src specs) = num_src /\ snd (history num_src specs) = map (fun f => f num_src) specs /\ Forall (fun out => length out = num_src) (snd (history num_src specs)).
Proof.
  intros n specs Hn. assert (G : forall acc, (forall f, In f specs -> exists total, finds f total /\ (n <= total)%nat) -> fold_left (fun st find => let '(m, out) := locate_sources find (fst st) None in (m, snd st ++ [out])) specs (n, acc) = (n, acc ++ map (fun f => f n) specs)).
  { induction specs as [|f specs IH]; intros acc H; cbn; [now rewrite app_nil_r|]. destruct (H f) as (total & F & T); [left; auto|]. rewrite F by auto. rewrite Nat.min_l by auto. rewrite IH; [|intros g Hg; apply H; right; auto]. f_equal. now rewrite <- app_assoc. }
  intros H. unfold history. rewrite G by auto. cbn. split; auto. split; auto. apply Forall_forall. intros out Ho. apply in_map_iff in Ho. destruct Ho as (f & <- & Hf). destruct (H f Hf) as (total & F & T). rewrite F by auto. lia.
Qed.
(** An explicit count of at least one is the number of sources searched for, any other searches for one; the
    count of the constructor is only used when none is given. *)
Theorem C70_explicit : forall find total num_src, finds find total -> (1 <= num_src)%nat ->
  (forall n, (1 <= n)%Z -> snd (locate_sources find num_src (Some n)) = find (Z.to_nat n)) /\
  (forall n, (n < 1)%Z -> snd (locate_sources find num_src (Some n)) = find 1%nat) /\
  (forall arg, length (snd (locate_sources find num_src arg)) = fst (locate_sources find num_src arg) /\ ((1 <= total)%nat -> (1 <= fst (locate_sources find num_src arg))%nat)).
Proof.
  intros find total num_src F H. split; [|split].
  - intros n Hn. unfold locate_sources, check_num_src. cbn [snd]. destruct (Z.eqb_spec n (Z.of_nat num_src)); [f_equal; lia|]. destruct (Z.ltb_spec n 1); [lia|reflexivity].
  - intros n Hn. unfold locate_sources, check_num_src. cbn [snd]. destruct (Z.eqb_spec n (Z.of_nat num_src)); [lia|]. destruct (Z.ltb_spec n 1); [reflexivity|lia].
  - intros arg. split; [reflexivity|]. intros T. unfold locate_sources. cbn [fst]. rewrite F.
    + apply Nat.min_glb; auto. destruct arg as [n|]; auto. destruct (Z.eqb_spec n (Z.of_nat num_src)); auto. unfold check_num_src. destruct (Z.ltb_spec n 1); lia.
    + destruct arg as [n|]; auto. destruct (Z.eqb_spec n (Z.of_nat num_src)); auto. unfold check_num_src. destruct (Z.ltb_spec n 1); lia.
Qed.
(** This applies to the circular grid. *)
Lemma circle_finds : forall argsort v, is_argsort argsort -> exists total, finds (circle_find_peaks argsort v) total /\ exists c, length c = total /\ NoDup c /\ forall i, In i c <-> circ_peak v i.
Proof.
  intros argsort v Ha. destruct (C66_circle argsort v 1 Ha (le_n 1)) as (c & Nc & Ic & _). exists (length c). split; [|eauto]. intros k Hk. destruct (C66_circle argsort v k Ha Hk) as (c' & Nc' & Ic' & _ & _ & Lr & _). rewrite Lr. f_equal. apply Permutation_length, NoDup_Permutation; auto. intros i. now rewrite Ic, Ic'.
Qed.
(** One spectrum with fewer peaks and later calls search for fewer sources (after a constant spectrum: for all peaks). *)
Theorem C70_forgets_refuted : exists num_src v1 v2, forall argsort, is_argsort argsort ->
  let h := history num_src [circle_find_peaks argsort v1; circle_find_peaks argsort v2] in
  length (circle_find_peaks argsort v2 num_src) = num_src /\ exists out1 out2, snd h = [out1; out2] /\ length out2 <> num_src.
Proof.
  exists 2%nat, [0; 1; 0; 0], [0; 1; 0; 1]. intros argsort Ha. cbv zeta. unfold history. cbn [fold_left fst snd locate_sources app].
  assert (C1 : forall c, NoDup c -> (forall i, In i c <-> circ_peak [0; 1; 0; 0] i) -> length c = 1%nat).
  { intros c Nc Ic. change 1%nat with (length [1%nat]). apply Permutation_length, NoDup_Permutation; auto; [repeat constructor; cbn; tauto|]. intros i. rewrite Ic. unfold circ_peak. cbn [length]. split.
    - intros (H0 & H1 & H2). do 4 (destruct i as [|i]; [cbn in *; auto; lra|]). lia.
    - intros [<-|[]]. cbn. repeat split; try lia; lra. }
  assert (C2 : forall c, NoDup c -> (forall i, In i c <-> circ_peak [0; 1; 0; 1] i) -> length c = 2%nat).
  { intros c Nc Ic. change 2%nat with (length [1%nat; 3%nat]). apply Permutation_length, NoDup_Permutation; auto; [repeat constructor; cbn; lia|]. intros i. rewrite Ic. unfold circ_peak. cbn [length]. split.
    - intros (H0 & H1 & H2). do 4 (destruct i as [|i]; [cbn in *; auto; lra|]). lia.
    - intros [<-|[<-|[]]]; cbn; repeat split; try lia; lra. }
  destruct (C66_circle argsort [0; 1; 0; 0] 2 Ha ltac:(lia)) as (c1 & Nc1 & Ic1 & _ & _ & L1 & _). rewrite (C1 c1) in L1 by auto. change (Nat.min 2 1) with 1%nat in L1.
  destruct (circle_finds argsort [0; 1; 0; 1] Ha) as (total & F & c2 & <- & Nc2 & Ic2). rewrite (C2 c2) in F by auto. split; [rewrite F by lia; reflexivity|]. do 2 eexists. split; [reflexivity|]. rewrite L1, F by lia. cbn [Nat.min]. lia.
Qed.
Example C70_case : finds (fun k => firstn k [4; 7; 9]%nat) 3 /\ history 2 [fun k => firstn k [4; 7; 9]%nat; fun k => firstn k [4; 7; 9]%nat] = (2%nat, [[4; 7]; [4; 7]]%nat).
Proof. split; [intros k Hk; apply firstn_length|reflexivity]. Qed.
Print Assumptions C66_circle. Print Assumptions C66_global. Print Assumptions C66_sphere. Print Assumptions C87_peaks. Print Assumptions C87_distance. Print Assumptions C70_count.
Print Assumptions C70_explicit.
