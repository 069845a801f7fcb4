(** Proofs about the impulse response builder. *)
From Coq Require Import List ZArith Lia Reals Lra Bool.
From Verif Require Import Vec GeometryModel GeometryProofs WallModel RayProofs Base BaseProofs ParModel ParProofs RirModel RirSpec.
Import ListNotations.
Local Open Scope R_scope.

(** ** floor and ceil *)
Lemma Zfloor_bounds : forall x, IZR (Zfloor x) <= x < IZR (Zfloor x) + 1.
Proof. intros x. unfold Zfloor. destruct (base_Int_part x). lra. Qed.
Lemma Zceil_bounds : forall x, IZR (Zceil x) - 1 < x <= IZR (Zceil x).
Proof. intros x. unfold Zceil. destruct (base_Int_part (-x)). rewrite opp_IZR. lra. Qed.
Lemma Zfloor_unique : forall x n, IZR n <= x < IZR n + 1 -> Zfloor x = n.
Proof.
  intros x n [A B]. pose proof (Zfloor_bounds x) as [C D]. apply Z.le_antisymm.
  - apply Z.lt_succ_r. apply lt_IZR. rewrite succ_IZR. lra.
  - apply Z.lt_succ_r. apply lt_IZR. rewrite succ_IZR. lra.
Qed.
Lemma Zceil_unique : forall x n, IZR n - 1 < x <= IZR n -> Zceil x = n.
Proof.
  intros x n [A B]. pose proof (Zceil_bounds x) as [C D]. apply Z.le_antisymm.
  - apply Z.lt_succ_r. apply lt_IZR. rewrite succ_IZR. lra.
  - apply Z.lt_succ_r. apply lt_IZR. rewrite succ_IZR. lra.
Qed.
Lemma Zfloor_le : forall x y, x <= y -> (Zfloor x <= Zfloor y)%Z.
Proof. intros. pose proof (Zfloor_bounds x). pose proof (Zfloor_bounds y). apply Z.lt_succ_r. apply lt_IZR. rewrite succ_IZR. lra. Qed.
Lemma Zceil_le : forall x y, x <= y -> (Zceil x <= Zceil y)%Z.
Proof. intros. pose proof (Zceil_bounds x). pose proof (Zceil_bounds y). apply Z.lt_succ_r. apply lt_IZR. rewrite succ_IZR. lra. Qed.
Lemma Zfloor_le_ceil : forall x, (Zfloor x <= Zceil x)%Z.
Proof. intros. pose proof (Zfloor_bounds x). pose proof (Zceil_bounds x). apply le_IZR. lra. Qed.
Lemma Zfloor_add : forall x n, Zfloor (x + IZR n) = (Zfloor x + n)%Z.
Proof. intros. apply Zfloor_unique. rewrite plus_IZR. pose proof (Zfloor_bounds x). lra. Qed.
Lemma Zceil_add : forall x n, Zceil (x + IZR n) = (Zceil x + n)%Z.
Proof. intros. apply Zceil_unique. rewrite plus_IZR. pose proof (Zceil_bounds x). lra. Qed.

(** ** The partition into blocks *)
Lemma block_size_ge : forall n T, (0 < T)%nat -> (n <= T * block_size n T)%nat.
Proof. intros n T HT. unfold block_size. pose proof (Nat.div_mod (n + T - 1) T ltac:(lia)). pose proof (Nat.mod_upper_bound (n+T-1) T ltac:(lia)). lia. Qed.

Lemma in_block : forall n T t i, In i (block n T t) <-> (t * block_size n T <= i < t * block_size n T + block_size n T /\ i < n)%nat.
Proof. intros. unfold block. rewrite in_seq. lia. Qed.

Lemma block_disjoint : forall n T t u i, In i (block n T t) -> In i (block n T u) -> t = u.
Proof.
  intros n T t u i H1 H2. apply in_block in H1, H2. destruct H1 as [H1 _], H2 as [H2 _]. 
  set (b := block_size n T) in *. destruct (lt_eq_lt_dec t u) as [[L|E]|L]; auto; exfalso; nia.
Qed.

Lemma concat_blocks : forall n b T, concat (map (fun t => seq (t * b) (Nat.min (t * b + b) n - t * b)) (seq 0 T)) = seq 0 (Nat.min (T * b) n).
Proof.
  intros n b. induction T as [|T IH]; [reflexivity|].
  rewrite seq_S, map_app, concat_app, IH. cbn [map concat]. rewrite app_nil_r, Nat.add_0_l.
  destruct (Nat.le_gt_cases n (T * b)) as [L|L].
  - replace (Nat.min (T * b + b) n - T * b)%nat with 0%nat by lia. cbn [seq]. rewrite app_nil_r. f_equal. lia.
  - replace (Nat.min (T * b) n) with (T * b)%nat by lia.
    rewrite <- (Nat.add_0_l (T * b)) at 2. rewrite <- seq_app. f_equal. lia.
Qed.

Lemma blocks_cover : forall n T, (0 < T)%nat -> concat (map (block n T) (seq 0 T)) = seq 0 n.
Proof.
  intros n T HT. unfold block. rewrite (concat_blocks n (block_size n T) T). f_equal.
  pose proof (block_size_ge n T HT). lia.
Qed.

Lemma Rsum_concat : forall (ls : list (list R)), Rsum (concat ls) = Rsum (map Rsum ls).
Proof. induction ls as [|l ls IH]; simpl; auto. now rewrite Rsum_app, IH. Qed.

Lemma Rsum_blocks : forall (g : nat -> R) n T, (0 < T)%nat ->
  Rsum (map (fun t => Rsum (map g (block n T t))) (seq 0 T)) = Rsum (map g (seq 0 n)).
Proof.
  intros g n T HT. rewrite <- (blocks_cover n T HT). rewrite concat_map, Rsum_concat, !map_map. reflexivity.
Qed.

(** ** Sums with one term *)
Lemma Rsum_single : forall (v : nat -> R) k0 m n, Rsum (map (fun k => if Nat.eqb k k0 then v k else 0) (seq m n)) =
  if (m <=? k0)%nat && (k0 <? m + n)%nat then v k0 else 0.
Proof.
  intros v k0 m n. revert m. induction n as [|n IH]; intros m; simpl.
  - destruct (m <=? k0)%nat eqn:E1; simpl; auto. destruct (Nat.ltb_spec k0 (m + 0)); auto. apply Nat.leb_le in E1. lia.
  - rewrite IH. destruct (Nat.eqb_spec m k0) as [->|Ne].
    + rewrite Nat.leb_refl. destruct (Nat.ltb_spec k0 (k0 + S n)); [|lia].
      destruct (Nat.leb_spec (S k0) k0); [lia|]. simpl. lra.
    + destruct (Nat.leb_spec (S m) k0); destruct (Nat.leb_spec m k0); try lia; simpl; try lra.
      destruct (Nat.ltb_spec k0 (S (m + n))); destruct (Nat.ltb_spec k0 (m + S n)); try lia; lra.
Qed.

Lemma added_by_app : forall i p q, added_by i (p ++ q) = added_by i p + added_by i q.
Proof. intros. unfold added_by. now rewrite map_app, Rsum_app. Qed.
Lemma added_by_concat : forall i ls, added_by i (concat ls) = Rsum (map (added_by i) ls).
Proof. intros. induction ls as [|l ls IH]; simpl; auto. now rewrite added_by_app, IH. Qed.

(** ** The two phases: partial buffers, then their sum *)
Definition slice_task (len t : nat) (p : list act) : Prop :=
  forall a, In a p -> (exists i d, a = Add i d) /\ (t * len <= cell a < t * len + len)%nat.

Section TwoPhase.
Variables (T len : nat) (ps : list (list act)).
Hypothesis HT : (0 < T)%nat.
Hypothesis Hn : length ps = T.
Hypothesis Hs : forall t p, nth_error ps t = Some p -> slice_task len t p.

Lemma slices_disjoint : disjoint_tasks ps.
Proof.
  intros t u p q a b Ne Hp Hq Ha Hb E. destruct (Hs t p Hp a Ha) as [_ A], (Hs u q Hq b Hb) as [_ B].
  rewrite E in A. apply Ne. destruct (lt_eq_lt_dec t u) as [[L|Eq]|L]; auto; exfalso; nia.
Qed.
Lemma slices_adds : all_adds ps.
Proof. intros p a Hp Ha. apply In_nth_error in Hp as (t & Hp). apply (Hs t p Hp a Ha). Qed.
Lemma slices_inside : inside (T * len) ps.
Proof.
  intros p a Hp Ha. apply In_nth_error in Hp as (t & Hp). destruct (Hs t p Hp a Ha) as [_ A].
  assert (t < T)%nat by (rewrite <- Hn; apply nth_error_Some; congruence). nia.
Qed.

Lemma total_slice : forall t i, (i < len)%nat -> (t < T)%nat -> total (t * len + i) ps = added_by (t * len + i) (nth t ps []).
Proof.
  intros t i Hi Ht. unfold total.
  assert (G : forall m l, (forall u p, nth_error l u = Some p -> nth_error ps (m + u) = Some p) -> (m <= t < m + length l)%nat ->
      Rsum (map (added_by (t * len + i)) l) = added_by (t * len + i) (nth (t - m) l []) ).
  { intros m l. revert m. induction l as [|x l IH]; intros m Hl Ht'; simpl in Ht'; [lia|].
    change (added_by (t * len + i) x + Rsum (map (added_by (t * len + i)) l) = added_by (t * len + i) (nth (t - m) (x :: l) [])).
    assert (Z : forall u p, nth_error ps u = Some p -> u <> t -> added_by (t * len + i) p = 0).
    { intros u p Hp Ne. unfold added_by. apply Rsum_map_zero. intros a Ha.
      destruct (Hs u p Hp a Ha) as [(j & d & ->) B]. simpl in *. destruct (Nat.eqb_spec j (t * len + i)) as [->|]; auto.
      exfalso. apply Ne. destruct (lt_eq_lt_dec t u) as [[L|Eq]|L]; auto; exfalso; nia. }
    destruct (Nat.eq_dec m t) as [->|Ne].
    - rewrite Nat.sub_diag. cbn [nth]. 
      assert (Rsum (map (added_by (t * len + i)) l) = 0) as ->; [|lra].
      apply Rsum_map_zero. intros p Hp. apply In_nth_error in Hp as (u & Hu).
      apply (Z (t + S u)%nat p). { apply (Hl (S u)). exact Hu. } lia.
    - rewrite (Z m x); [|specialize (Hl 0%nat x eq_refl); now rewrite Nat.add_0_r in Hl|lia].
      replace (t - m)%nat with (S (t - S m)) by lia. cbn [nth]. rewrite (IH (S m)); [lra| |lia].
      intros u p Hu. specialize (Hl (S u) p Hu). now rewrite Nat.add_succ_r in Hl. }
  rewrite (G 0%nat ps); [|auto|rewrite Hn; lia]. now rewrite Nat.sub_0_r.
Qed.

Lemma phase_one : forall out, executes (repeat 0 (T * len)) ps out -> length out = (T * len)%nat /\
  forall t i, (i < len)%nat -> (t < T)%nat -> nth (t * len + i) out 0 = added_by (t * len + i) (nth t ps []).
Proof.
  intros out H. destruct (executes_adds _ _ _ slices_disjoint slices_adds H) as [L E].
  rewrite repeat_length in L, E. split; auto. intros t i Hi Ht. rewrite E by nia.
  rewrite total_slice by auto. rewrite nth_repeat. lra.
Qed.

Variable rir : list R.
Hypothesis Hlen : length rir = len.
Variable out : list R.
Hypothesis Hout : length out = (T * len)%nat.

Definition sum_prog (t : nat) : list act :=
  concat (map (fun idx => map (fun u => Add idx (nth (u * len + idx) out 0)) (seq 0 T)) (block len T t)).

Lemma sum_task_prog : forall t, sum_task T len out t = Some (sum_prog t).
Proof. clear - Hout HT.
  intros t. unfold sum_task, sum_prog.
  rewrite (mapM_ext_in _ (fun idx => Some (map (fun u => Add idx (nth (u * len + idx) out 0)) (seq 0 T)))).
  - now rewrite mapM_total.
  - intros idx Hi. apply in_block in Hi.
    rewrite (mapM_ext_in _ (fun u => Some (Add idx (nth (u * len + idx) out 0)))).
    + now rewrite mapM_total.
    + intros u Hu. apply in_seq in Hu. rewrite (nth_error_nth' out 0); [reflexivity|]. nia.
Qed.
Lemma sum_tasks_progs : sum_tasks T len out = Some (map sum_prog (seq 0 T)).
Proof. clear - Hout HT. unfold sum_tasks. rewrite (mapM_ext_in _ (fun t => Some (sum_prog t))); [apply mapM_total|]. intros t _. apply sum_task_prog. Qed.

Lemma in_sum_prog : forall t a, In a (sum_prog t) -> exists idx d, a = Add idx d /\ In idx (block len T t).
Proof. clear.
  intros t a H. unfold sum_prog in H. apply in_concat in H as (l & H1 & H2). apply in_map_iff in H1 as (idx & <- & Hi).
  apply in_map_iff in H2 as (u & <- & Hu). eauto.
Qed.

Lemma nth_progs : forall t p, nth_error (map sum_prog (seq 0 T)) t = Some p -> p = sum_prog t.
Proof. clear.
  intros t p H. assert (t < T)%nat. { assert (nth_error (map sum_prog (seq 0 T)) t <> None) as N by congruence. apply nth_error_Some in N. rewrite map_length, seq_length in N. auto. }
  rewrite nth_error_map, (nth_error_nth' _ 0%nat) in H by (rewrite seq_length; auto). rewrite seq_nth in H by auto.
  simpl in H. congruence.
Qed.
Lemma sum_disjoint : disjoint_tasks (map sum_prog (seq 0 T)).
Proof. clear.
  intros t u p q a b Ne Hp Hq Ha Hb E. apply nth_progs in Hp, Hq. subst p q.
  apply in_sum_prog in Ha as (i & d & -> & Hi), Hb as (j & e & -> & Hj). simpl in E. subst j.
  apply Ne. eapply block_disjoint; eauto.
Qed.
Lemma sum_adds : all_adds (map sum_prog (seq 0 T)).
Proof. clear. intros p a Hp Ha. apply in_map_iff in Hp as (t & <- & _). apply in_sum_prog in Ha as (i & d & -> & _). eauto. Qed.
Lemma sum_inside : inside len (map sum_prog (seq 0 T)).
Proof. clear. intros p a Hp Ha. apply in_map_iff in Hp as (t & <- & _). apply in_sum_prog in Ha as (i & d & -> & Hi). apply in_block in Hi. simpl. lia. Qed.

Lemma total_sum : forall i, (i < len)%nat -> total i (map sum_prog (seq 0 T)) = Rsum (map (fun u => nth (u * len + i) out 0) (seq 0 T)).
Proof.
  intros i Hi. unfold total. rewrite map_map.
  assert (E : forall t, In t (seq 0 T) -> added_by i (sum_prog t) =
     Rsum (map (fun idx => if Nat.eqb idx i then Rsum (map (fun u => nth (u * len + i) out 0) (seq 0 T)) else 0) (block len T t))).
  { intros t Ht. unfold sum_prog. rewrite added_by_concat, map_map. apply Rsum_map_ext. intros idx Hx.
    unfold added_by. rewrite map_map. destruct (Nat.eqb_spec idx i) as [->|Ne].
    + apply Rsum_map_ext. intros u _. simpl. now rewrite Nat.eqb_refl.
    + apply Rsum_map_zero. intros u _. simpl. destruct (Nat.eqb_spec idx i); congruence. }
  rewrite (Rsum_map_ext _ _ _ E).
  rewrite (Rsum_blocks (fun idx => if Nat.eqb idx i then Rsum (map (fun u => nth (u * len + i) out 0) (seq 0 T)) else 0) len T HT).
  rewrite (Rsum_single (fun _ => Rsum (map (fun u => nth (u * len + i) out 0) (seq 0 T)))). cbn [Nat.leb andb]. destruct (Nat.ltb_spec i (0 + len)); [reflexivity|lia].
Qed.

Lemma phase_two : forall result, executes rir (map sum_prog (seq 0 T)) result -> length result = len /\
  forall i, (i < len)%nat -> nth i result 0 = nth i rir 0 + Rsum (map (fun u => nth (u * len + i) out 0) (seq 0 T)).
Proof.
  intros result H. destruct (executes_adds _ _ _ sum_disjoint sum_adds H) as [L E]. rewrite Hlen in *. split; auto.
  intros i Hi. rewrite E, total_sum; auto.
Qed.
End TwoPhase.

Lemma executes_exists : forall buf0 ps, disjoint_tasks ps -> all_adds ps -> inside (length buf0) ps -> exists b, executes buf0 ps b.
Proof.
  intros buf0 ps A B C. destruct (completes buf0 ps A B C {| s_buf := buf0; s_tasks := map start ps |}) as (s & P & F); [constructor|].
  exists (s_buf s), s. auto.
Qed.

Lemma never_oob_of : forall buf0 ps, disjoint_tasks ps -> all_adds ps -> inside (length buf0) ps -> never_out_of_bounds buf0 ps.
Proof. intros buf0 ps A B C s R t x. apply (no_fault buf0 ps s A B C R). Qed.

(** Both phases together. *)
Lemma two_phases : forall T rir ps, (0 < T)%nat -> length ps = T ->
  (forall t p, nth_error ps t = Some p -> slice_task (length rir) t p) ->
  never_out_of_bounds (repeat 0 (T * length rir)) ps /\
  (exists out, executes (repeat 0 (T * length rir)) ps out) /\
  (forall out, executes (repeat 0 (T * length rir)) ps out ->
     exists qs, sum_tasks T (length rir) out = Some qs /\ never_out_of_bounds rir qs /\ (exists result, executes rir qs result) /\
     forall result, executes rir qs result -> length result = length rir /\
       forall i, (i < length rir)%nat -> nth i result 0 = nth i rir 0 +
          Rsum (map (fun t => added_by (t * length rir + i) (nth t ps [])) (seq 0 T))).
Proof.
  intros T rir ps HT Hn Hs. set (len := length rir) in *.
  assert (A : disjoint_tasks ps) by (eapply slices_disjoint; eauto). assert (B : all_adds ps) by (eapply slices_adds; eauto).
  assert (C : inside (T * len) ps) by (eapply slices_inside; eauto).
  assert (C' : inside (length (repeat 0 (T * len))) ps) by (rewrite repeat_length; exact C).
  split; [|split].
  - apply never_oob_of; auto.
  - apply executes_exists; auto.
  - intros out Hx. destruct (phase_one T len ps HT Hn Hs out Hx) as [Lo Eo].
    exists (map (sum_prog T len out) (seq 0 T)).
    assert (A2 : disjoint_tasks (map (sum_prog T len out) (seq 0 T))) by (eapply sum_disjoint; eauto).
    assert (B2 : all_adds (map (sum_prog T len out) (seq 0 T))) by (eapply sum_adds; eauto).
    assert (C2 : inside len (map (sum_prog T len out) (seq 0 T))) by (eapply sum_inside; eauto).
    split; [apply sum_tasks_progs; auto|]. split; [apply never_oob_of; auto|]. split; [apply executes_exists; auto|].
    intros result Hr. assert (G : length result = len /\ forall i, (i < len)%nat -> nth i result 0 = nth i rir 0 + Rsum (map (fun u => nth (u * len + i) out 0) (seq 0 T))).
    { eapply phase_two; eauto. } destruct G as [L E]. split; auto.
    intros i Hi. rewrite E by auto. f_equal. apply Rsum_map_ext. intros t Ht. apply in_seq in Ht. apply Eo; auto; lia.
Qed.

(** ** The accesses of one arrival *)
Lemma list_min_le : forall l x, In x l -> list_min l <= x.
Proof.
  intros l x H. unfold list_min. destruct l as [|a l]; [destruct H|]. simpl in *.
  assert (G : forall l a, fold_left Rmin l a <= a /\ forall y, In y l -> fold_left Rmin l a <= y).
  { clear. induction l as [|b l IH]; simpl; intros a; [split; [lra|tauto]|].
    destruct (IH (Rmin a b)) as [I1 I2]. pose proof (Rmin_l a b). pose proof (Rmin_r a b). split; [lra|].
    intros y [<-|Hy]; [lra|auto]. }
  destruct (G l a). destruct H as [<-|H]; auto.
Qed.

Lemma getZ_some : forall {A} (l : list A) (d : A) i, (0 <= i < Z.of_nat (length l))%Z -> getZ l i = Some (nth (Z.to_nat i) l d).
Proof.
  intros A l d i H. unfold getZ. destruct (Z.ltb_spec i 0); [lia|]. apply nth_error_nth'. lia.
Qed.

Lemma sinc_lut_length : forall fdl gran, length (sinc_lut fdl gran) = ((fdl + 2) * gran)%nat.
Proof. intros. unfold sinc_lut. now rewrite map_length, seq_length. Qed.
Lemma hann_length : forall fdl, length (hann fdl) = fdl.
Proof. intros. unfold hann. now rewrite map_length, seq_length. Qed.

Lemma nth_sinc_lut : forall fdl gran i, (i < (fdl + 2) * gran)%nat ->
  nth i (sinc_lut fdl gran) 0 = sinc (- INR ((fdl - 1) / 2) - 1 + INR i * (1 / INR gran)).
Proof. intros fdl gran i H. unfold sinc_lut. cbv zeta. rewrite nth_map_seq; auto. Qed.
Lemma nth_hann : forall fdl k, (k < fdl)%nat -> nth k (hann fdl) 0 = hann_at fdl (Z.of_nat k).
Proof.
  intros. unfold hann, hann_at. rewrite nth_map_seq; auto. rewrite <- INR_IZR_INZ, mult_INR. cbn [INR].
  f_equal. f_equal. f_equal. unfold Rdiv. ring.
Qed.

Section Arrival.
Variables (fs : Z) (fdl gran offset : nat) (tim alp : R).
Hypothesis Hg : (0 < gran)%nat.
Let fdl2 := ((fdl - 1) / 2)%nat.
Let tau := IZR fs * tim.
Let ip := Zfloor tau.
Hypothesis Hlo : (0 <= ip - Z.of_nat fdl2)%Z.

Definition arrival_prog : list act :=
  map (fun k => Add (offset + Z.to_nat (ip - Z.of_nat fdl2) + k)
    (alp * pulse fdl gran tau (ip - Z.of_nat fdl2 + Z.of_nat k))) (seq 0 fdl).

Lemma lgo_bounds : (0 <= Zfloor ((1 - (tau - IZR ip)) * INR gran) <= Z.of_nat gran)%Z.
Proof.
  pose proof (Zfloor_bounds tau) as [A B]. fold ip in A, B. assert (G : 1 <= INR gran) by (apply (le_INR 1); lia).
  split.
  - rewrite <- (Zfloor_unique 0 0) by lra. apply Zfloor_le. apply Rmult_le_pos; lra.
  - rewrite <- (Zfloor_unique (INR gran) (Z.of_nat gran)) by (rewrite <- INR_IZR_INZ; lra). apply Zfloor_le. nra.
Qed.

Lemma arrival_acts_prog : arrival_acts fs fdl gran offset (sinc_lut fdl gran) (hann fdl) tim alp = Some arrival_prog.
Proof.
  unfold arrival_acts. cbv zeta. fold fdl2 tau ip. unfold arrival_prog.
  pose proof lgo_bounds as Lg. set (lgo := Zfloor ((1 - (tau - IZR ip)) * INR gran)) in *.
  match goal with |- mapM _ _ = Some (map ?f _) => rewrite (mapM_ext_in _ (fun k => Some (f k))); [apply mapM_total|] end.
  intros k Hk. apply in_seq in Hk.
  assert (P0 : (0 <= lgo + Z.of_nat (k * gran))%Z) by lia.
  assert (P1 : (Z.to_nat (lgo + Z.of_nat (k * gran)) + 1 < (fdl + 2) * gran)%nat) by nia.
  rewrite !(getZ_some _ 0) by (rewrite sinc_lut_length; lia). cbn [bind].
  rewrite (nth_error_nth' (hann fdl) 0) by (rewrite hann_length; lia). cbn [bind].
  unfold pos. destruct (Z.ltb_spec (Z.of_nat offset + (ip - Z.of_nat fdl2 + Z.of_nat k)) 0); [lia|]. cbn [bind].
  f_equal. f_equal; [lia|].
  unfold pulse. cbv zeta. fold ip. fold fdl2.
  replace (ip - Z.of_nat fdl2 + Z.of_nat k - ip + Z.of_nat fdl2)%Z with (Z.of_nat k) by lia.
  destruct (Z.leb_spec 0 (Z.of_nat k)); [|lia]. destruct (Z.ltb_spec (Z.of_nat k) (Z.of_nat fdl)); [|lia]. cbn [andb].
  rewrite nth_hann by lia. rewrite Rmult_assoc. f_equal. f_equal.
  assert (G : 0 < INR gran) by (apply lt_0_INR; lia).
  unfold lerp_grid. cbv zeta.
  assert (E : (IZR (ip - Z.of_nat fdl2 + Z.of_nat k) - tau) * INR gran =
     (1 - (tau - IZR ip)) * INR gran + IZR ((Z.of_nat k - Z.of_nat fdl2 - 1) * Z.of_nat gran)).
  { rewrite mult_IZR, !minus_IZR, plus_IZR, minus_IZR, <- !INR_IZR_INZ. ring. }
  rewrite E, Zfloor_add. fold lgo.
  rewrite !nth_sinc_lut by lia. fold fdl2.
  assert (E1 : forall m, (0 <= m)%Z -> - INR fdl2 - 1 + INR (Z.to_nat (m + Z.of_nat (k * gran))) * (1 / INR gran) =
     IZR (m + (Z.of_nat k - Z.of_nat fdl2 - 1) * Z.of_nat gran) / INR gran).
  { intros m Hm. rewrite (INR_IZR_INZ (Z.to_nat _)), Z2Nat.id by lia. rewrite !plus_IZR, mult_IZR, !minus_IZR, <- !INR_IZR_INZ, mult_INR.
    field. lra. }
  replace (lgo + Z.of_nat (k * gran) + 1)%Z with ((lgo + 1) + Z.of_nat (k * gran))%Z by lia.
  rewrite !E1 by lia.
  replace (lgo + (Z.of_nat k - Z.of_nat fdl2 - 1) * Z.of_nat gran + 1)%Z with (lgo + 1 + (Z.of_nat k - Z.of_nat fdl2 - 1) * Z.of_nat gran)%Z by lia.
  f_equal. f_equal. rewrite (plus_IZR lgo). ring.
Qed.

Lemma arrival_added : forall i, added_by (offset + i) arrival_prog = alp * pulse fdl gran tau (Z.of_nat i).
Proof.
  intros i. unfold added_by, arrival_prog. rewrite map_map. cbn [added].
  set (f0 := Z.to_nat (ip - Z.of_nat fdl2)).
  destruct (Nat.lt_ge_cases i f0) as [L|L].
  - rewrite Rsum_map_zero.
    + unfold pulse. cbv zeta. fold ip fdl2. destruct (Z.leb_spec 0 (Z.of_nat i - ip + Z.of_nat fdl2)); [lia|]. cbn [andb]. lra.
    + intros k _. destruct (Nat.eqb_spec (offset + f0 + k) (offset + i)); [lia|auto].
  - rewrite (Rsum_map_ext _ (fun k => if Nat.eqb k (i - f0) then alp * pulse fdl gran tau (ip - Z.of_nat fdl2 + Z.of_nat k) else 0)).
    + rewrite Rsum_single. cbn [Nat.leb andb]. rewrite Nat.add_0_l.
      replace (ip - Z.of_nat fdl2 + Z.of_nat (i - f0))%Z with (Z.of_nat i) by lia.
      destruct (Nat.ltb_spec (i - f0) fdl); auto.
      unfold pulse. cbv zeta. fold ip fdl2. destruct (Z.leb_spec 0 (Z.of_nat i - ip + Z.of_nat fdl2)); [|lia].
      destruct (Z.ltb_spec (Z.of_nat i - ip + Z.of_nat fdl2) (Z.of_nat fdl)); [lia|]. cbn [andb]. lra.
    + intros k _. destruct (Nat.eqb_spec (offset + f0 + k) (offset + i)), (Nat.eqb_spec k (i - f0)); try lia; auto.
Qed.
End Arrival.

Lemma accepts_inv : forall n time alpha fs fdl, rir_accepts n time alpha fs fdl = true ->
  length time = length alpha /\ (fdl mod 2 = 1)%nat /\ time <> [] /\
  (0 <= Zfloor (IZR fs * list_min time) - Z.of_nat ((fdl - 1) / 2))%Z /\
  (Zceil (IZR fs * list_max time) + Z.of_nat ((fdl - 1) / 2) < Z.of_nat n)%Z.
Proof.
  intros n time alpha fs fdl H. unfold rir_accepts in H. cbv zeta in H.
  destruct (Nat.eqb_spec (length time) (length alpha)); cbn [negb] in H; [|discriminate].
  destruct (Nat.eqb_spec (fdl mod 2) 1); cbn [negb] in H; [|discriminate].
  destruct time as [|t time]; [discriminate|].
  destruct (Z.ltb_spec (Zfloor (IZR fs * list_min (t :: time)) - Z.of_nat ((fdl - 1) / 2)) 0); [discriminate|].
  destruct (Z.leb_spec (Z.of_nat n) (Zceil (IZR fs * list_max (t :: time)) + Z.of_nat ((fdl - 1) / 2))); [discriminate|].
  repeat split; auto; discriminate.
Qed.

Section Build.
Variables (rir time alpha : list R) (fs : Z) (fdl gran T : nat).
Hypothesis Hg : (0 < gran)%nat.
Hypothesis HT : (0 < T)%nat.
Hypothesis Hfs : (0 <= fs)%Z.
Hypothesis Hacc : rir_accepts (length rir) time alpha fs fdl = true.
Let fdl2 := ((fdl - 1) / 2)%nat.

Lemma arrival_range : forall j, (j < length time)%nat ->
  (0 <= Zfloor (IZR fs * nth j time 0%R) - Z.of_nat fdl2)%Z /\ (Zfloor (IZR fs * nth j time 0%R) + Z.of_nat fdl2 < Z.of_nat (length rir))%Z.
Proof.
  intros j Hj. destruct (accepts_inv _ _ _ _ _ Hacc) as (_ & _ & _ & A & B). fold fdl2 in A, B.
  assert (P : 0 <= IZR fs) by (apply (IZR_le 0); auto).
  pose proof (list_min_le time _ (nth_In time 0 Hj)). pose proof (list_max_ge time _ (nth_In time 0 Hj)).
  pose proof (Zfloor_le (IZR fs * list_min time) (IZR fs * nth j time 0) ltac:(now apply Rmult_le_compat_l)).
  pose proof (Zceil_le (IZR fs * nth j time 0) (IZR fs * list_max time) ltac:(now apply Rmult_le_compat_l)).
  pose proof (Zfloor_le_ceil (IZR fs * nth j time 0)). lia.
Qed.

Definition build_prog (t : nat) : list act :=
  concat (map (fun j => arrival_prog fs fdl gran (t * length rir) (nth j time 0) (nth j alpha 0)) (block (length time) T t)).

Lemma build_tasks_progs : build_tasks (length rir) time alpha fs fdl gran T = Some (map build_prog (seq 0 T)).
Proof.
  unfold build_tasks. rewrite (mapM_ext_in _ (fun t => Some (build_prog t))); [apply mapM_total|].
  intros t _. unfold build_task, build_prog.
  rewrite (mapM_ext_in _ (fun j => Some (arrival_prog fs fdl gran (t * length rir) (nth j time 0) (nth j alpha 0)))).
  { now rewrite mapM_total. }
  intros j Hj. apply in_block in Hj. destruct (accepts_inv _ _ _ _ _ Hacc) as (L & _).
  rewrite (nth_error_nth' time 0), (nth_error_nth' alpha 0) by lia. cbn [bind].
  apply arrival_acts_prog; auto. apply arrival_range. lia.
Qed.

Lemma odd_half : (2 * fdl2 + 1 = fdl)%nat.
Proof. destruct (accepts_inv _ _ _ _ _ Hacc) as (_ & O & _). unfold fdl2. pose proof (Nat.div_mod fdl 2 ltac:(lia)).
  replace (fdl - 1)%nat with ((fdl / 2) * 2)%nat by lia. rewrite Nat.div_mul by lia. lia. Qed.

Lemma build_slices : forall t p, nth_error (map build_prog (seq 0 T)) t = Some p -> slice_task (length rir) t p.
Proof.
  intros t p H a Ha. assert (E : p = build_prog t).
  { assert (t < T)%nat. { assert (nth_error (map build_prog (seq 0 T)) t <> None) as N by congruence. apply nth_error_Some in N. rewrite map_length, seq_length in N. auto. }
    rewrite nth_error_map, (nth_error_nth' _ 0%nat) in H by (rewrite seq_length; auto). rewrite seq_nth in H by auto. simpl in H. congruence. }
  subst p. unfold build_prog in Ha. apply in_concat in Ha as (l & H1 & H2). apply in_map_iff in H1 as (j & <- & Hj).
  apply in_block in Hj. unfold arrival_prog in H2. apply in_map_iff in H2 as (k & <- & Hk). apply in_seq in Hk.
  split; eauto. cbn [cell]. destruct (arrival_range j ltac:(lia)). pose proof odd_half. unfold fdl2 in *. lia.
Qed.

Lemma build_total : forall i, (i < length rir)%nat ->
  Rsum (map (fun t => added_by (t * length rir + i) (nth t (map build_prog (seq 0 T)) [])) (seq 0 T)) = arrivals_sum fs fdl gran time alpha i.
Proof.
  intros i Hi. unfold arrivals_sum. rewrite <- (Rsum_blocks _ (length time) T HT). apply Rsum_map_ext.
  intros t Ht. apply in_seq in Ht. rewrite nth_map_seq by lia. unfold build_prog. rewrite added_by_concat, map_map. apply Rsum_map_ext.
  intros j Hj. apply in_block in Hj. apply arrival_added; [exact Hg|]. apply arrival_range. lia.
Qed.

Lemma build_all : exists ps, build_tasks (length rir) time alpha fs fdl gran T = Some ps /\
  never_out_of_bounds (repeat 0 (T * length rir)) ps /\
  (exists out, executes (repeat 0 (T * length rir)) ps out) /\
  (forall out, executes (repeat 0 (T * length rir)) ps out ->
     exists qs, sum_tasks T (length rir) out = Some qs /\ never_out_of_bounds rir qs /\ (exists result, executes rir qs result) /\
     forall result, executes rir qs result -> length result = length rir /\
       forall i, (i < length rir)%nat -> nth i result 0 = nth i rir 0 + arrivals_sum fs fdl gran time alpha i).
Proof.
  exists (map build_prog (seq 0 T)). split; [apply build_tasks_progs|].
  destruct (two_phases T rir (map build_prog (seq 0 T)) HT ltac:(now rewrite map_length, seq_length) build_slices) as (A & B & C).
  split; auto. split; auto. intros out Ho. destruct (C out Ho) as (qs & Q1 & Q2 & Q3 & Q4). exists qs. repeat (split; auto).
  - apply (Q4 _ H).
  - intros i Hi. destruct (Q4 _ H) as [_ E]. rewrite E by auto. now rewrite build_total.
Qed.
End Build.

(** ** delay_sum *)
Lemma Zlist_max_ge : forall l x, In x l -> (x <= Zlist_max l)%Z.
Proof.
  intros l x H. unfold Zlist_max. destruct l as [|a l]; [destruct H|]. simpl in *.
  assert (G : forall l a, (a <= fold_left Z.max l a)%Z /\ forall y, In y l -> (y <= fold_left Z.max l a)%Z).
  { clear. induction l as [|b l IH]; simpl; intros a; [split; [lia|tauto]|].
    destruct (IH (Z.max a b)) as [I1 I2]. split; [lia|]. intros y [<-|Hy]; [lia|auto]. }
  destruct (G l a). destruct H as [<-|H]; auto.
Qed.
Lemma Zlist_min_le : forall l x, In x l -> (Zlist_min l <= x)%Z.
Proof.
  intros l x H. unfold Zlist_min. destruct l as [|a l]; [destruct H|]. simpl in *.
  assert (G : forall l a, (fold_left Z.min l a <= a)%Z /\ forall y, In y l -> (fold_left Z.min l a <= y)%Z).
  { clear. induction l as [|b l IH]; simpl; intros a; [split; [lia|tauto]|].
    destruct (IH (Z.min a b)) as [I1 I2]. split; [lia|]. intros y [<-|Hy]; [lia|auto]. }
  destruct (G l a). destruct H as [<-|H]; auto.
Qed.

Section DelaySum.
Variables (irs : list (list R)) (n_taps : nat) (delays : list Z) (output : list R) (T : nat).
Hypothesis HT : (0 < T)%nat.
Hypothesis Hrows : forall row, In row irs -> length row = n_taps.
Hypothesis Hacc : ds_accepts irs n_taps delays (length output) = true.

Lemma ds_inv : length irs = length delays /\ forall j, (j < length irs)%nat ->
  (0 <= nth j delays 0 /\ nth j delays 0 + Z.of_nat n_taps <= Z.of_nat (length output))%Z.
Proof.
  unfold ds_accepts in Hacc. destruct (Nat.eqb_spec (length irs) (length delays)) as [E|]; cbn [negb] in Hacc; [|discriminate].
  split; auto. intros j Hj. assert (D : In (nth j delays 0%Z) delays) by (apply nth_In; lia).
  pose proof (Zlist_max_ge _ _ D). pose proof (Zlist_min_le _ _ D).
  destruct delays as [|d ds]; [discriminate|].
  destruct (Z.ltb_spec (Zlist_min (d :: ds)) 0); [discriminate|].
  destruct (Z.ltb_spec (Z.of_nat (length output)) (Zlist_max (d :: ds) + Z.of_nat n_taps)); [discriminate|]. lia.
Qed.

Definition filter_prog (t j : nat) : list act :=
  map (fun k => Add (t * length output + Z.to_nat (nth j delays 0%Z) + k) (nth k (nth j irs []) 0)) (seq 0 n_taps).
Definition ds_prog (t : nat) : list act := concat (map (filter_prog t) (block (length irs) T t)).

Lemma ds_tasks_progs : ds_tasks irs n_taps delays (length output) T = Some (map ds_prog (seq 0 T)).
Proof.
  unfold ds_tasks. rewrite (mapM_ext_in _ (fun t => Some (ds_prog t))); [apply mapM_total|].
  intros t _. unfold ds_task, ds_prog. rewrite (mapM_ext_in _ (fun j => Some (filter_prog t j))).
  { now rewrite mapM_total. }
  intros j Hj. apply in_block in Hj. unfold filter_prog. destruct ds_inv as [L D].
  match goal with |- mapM _ _ = Some (map ?f _) => rewrite (mapM_ext_in _ (fun k => Some (f k))); [apply mapM_total|] end.
  intros k Hk. apply in_seq in Hk. rewrite (nth_error_nth' irs []) by lia. cbn [bind].
  rewrite (nth_error_nth' (nth j irs []) 0) by (rewrite Hrows; [lia|apply nth_In; lia]). cbn [bind].
  rewrite (nth_error_nth' delays 0%Z) by lia. cbn [bind]. specialize (D j ltac:(lia)).
  unfold pos. destruct (Z.ltb_spec (Z.of_nat (t * length output) + nth j delays 0 + Z.of_nat k)%Z 0%Z); [lia|]. cbn [bind].
  do 2 f_equal. lia.
Qed.

Lemma ds_slices : forall t p, nth_error (map ds_prog (seq 0 T)) t = Some p -> slice_task (length output) t p.
Proof.
  intros t p H a Ha. assert (E : p = ds_prog t).
  { assert (t < T)%nat. { assert (nth_error (map ds_prog (seq 0 T)) t <> None) as N by congruence. apply nth_error_Some in N. rewrite map_length, seq_length in N. auto. }
    rewrite nth_error_map, (nth_error_nth' _ 0%nat) in H by (rewrite seq_length; auto). rewrite seq_nth in H by auto. simpl in H. congruence. }
  subst p. unfold ds_prog in Ha. apply in_concat in Ha as (l & H1 & H2). apply in_map_iff in H1 as (j & <- & Hj).
  apply in_block in Hj. unfold filter_prog in H2. apply in_map_iff in H2 as (k & <- & Hk). apply in_seq in Hk.
  split; eauto. cbn [cell]. destruct ds_inv as [_ D]. specialize (D j ltac:(lia)). lia.
Qed.

Lemma filter_added : forall t j i, (j < length irs)%nat -> added_by (t * length output + i) (filter_prog t j) =
  let k := (Z.of_nat i - nth j delays 0)%Z in
  if (0 <=? k)%Z && (k <? Z.of_nat n_taps)%Z then nth (Z.to_nat k) (nth j irs []) 0 else 0.
Proof.
  intros t j i Hj. cbv zeta. unfold added_by, filter_prog. rewrite map_map. cbn [added].
  destruct ds_inv as [_ D]. specialize (D j Hj). set (d := nth j delays 0%Z) in *.
  destruct (Nat.lt_ge_cases i (Z.to_nat d)) as [L|L].
  - rewrite Rsum_map_zero.
    + destruct (Z.leb_spec 0 (Z.of_nat i - d)); [lia|]. reflexivity.
    + intros k _. destruct (Nat.eqb_spec (t * length output + Z.to_nat d + k) (t * length output + i)); [lia|auto].
  - rewrite (Rsum_map_ext _ (fun k => if Nat.eqb k (i - Z.to_nat d) then nth k (nth j irs []) 0 else 0)).
    + rewrite Rsum_single. cbn [Nat.leb andb]. rewrite Nat.add_0_l.
      destruct (Z.leb_spec 0 (Z.of_nat i - d)); [|lia]. cbn [andb].
      destruct (Nat.ltb_spec (i - Z.to_nat d) n_taps), (Z.ltb_spec (Z.of_nat i - d) (Z.of_nat n_taps)); try lia; auto.
      f_equal. lia.
    + intros k _. destruct (Nat.eqb_spec (t * length output + Z.to_nat d + k) (t * length output + i)), (Nat.eqb_spec k (i - Z.to_nat d)); try lia; auto.
Qed.

Lemma ds_total : forall i, (i < length output)%nat ->
  Rsum (map (fun t => added_by (t * length output + i) (nth t (map ds_prog (seq 0 T)) [])) (seq 0 T)) = delayed_sum irs n_taps delays i.
Proof.
  intros i Hi. unfold delayed_sum. rewrite <- (Rsum_blocks _ (length irs) T HT). apply Rsum_map_ext.
  intros t Ht. apply in_seq in Ht. rewrite nth_map_seq by lia. unfold ds_prog. rewrite added_by_concat, map_map. apply Rsum_map_ext.
  intros j Hj. apply in_block in Hj. apply filter_added. lia.
Qed.

Lemma ds_all : exists ps, ds_tasks irs n_taps delays (length output) T = Some ps /\
  never_out_of_bounds (repeat 0 (T * length output)) ps /\
  (exists out, executes (repeat 0 (T * length output)) ps out) /\
  (forall out, executes (repeat 0 (T * length output)) ps out ->
     exists qs, sum_tasks T (length output) out = Some qs /\ never_out_of_bounds output qs /\ (exists result, executes output qs result) /\
     forall result, executes output qs result -> length result = length output /\
       forall i, (i < length output)%nat -> nth i result 0 = nth i output 0 + delayed_sum irs n_taps delays i).
Proof.
  exists (map ds_prog (seq 0 T)). split; [apply ds_tasks_progs|].
  destruct (two_phases T output (map ds_prog (seq 0 T)) HT ltac:(now rewrite map_length, seq_length) ds_slices) as (A & B & C).
  split; auto. split; auto. intros out Ho. destruct (C out Ho) as (qs & Q1 & Q2 & Q3 & Q4). exists qs. repeat (split; auto).
  - apply (Q4 _ H).
  - intros i Hi. destruct (Q4 _ H) as [_ E]. rewrite E by auto. now rewrite ds_total.
Qed.
End DelaySum.

(** ** Sizing *)
Lemma list_max_in : forall l, l <> [] -> In (list_max l) l.
Proof.
  intros [|a l] H; [congruence|]. unfold list_max. simpl. clear H. revert a.
  induction l as [|b l IH]; intros a; simpl; auto. destruct (IH (Rmax a b)) as [E|E]; [|auto].
  rewrite <- E. unfold Rmax. destruct (Rle_dec a b); auto.
Qed.
Lemma list_min_in : forall l, l <> [] -> In (list_min l) l.
Proof.
  intros [|a l] H; [congruence|]. unfold list_min. simpl. clear H. revert a.
  induction l as [|b l IH]; intros a; simpl; auto. destruct (IH (Rmin a b)) as [E|E]; [|auto].
  rewrite <- E. unfold Rmin. destruct (Rle_dec a b); auto.
Qed.

Lemma odd_halves : forall fdl, (fdl mod 2 = 1)%nat -> (fdl / 2 = (fdl - 1) / 2)%nat /\ (2 * ((fdl - 1) / 2) + 1 = fdl)%nat.
Proof.
  intros fdl O. pose proof (Nat.div_mod fdl 2 ltac:(lia)).
  replace (fdl - 1)%nat with ((fdl / 2) * 2)%nat by lia. rewrite Nat.div_mul by lia. lia.
Qed.

Section Sizing.
Variables (dist : list R) (c : R) (fs : Z) (fdl : nat).
Hypothesis Hne : dist <> [].
Hypothesis Hd : forall d, In d dist -> 0 <= d.
Hypothesis Hc : 0 < c.
Hypothesis Hfs : (0 < fs)%Z.
Hypothesis Hodd : (fdl mod 2 = 1)%nat.
Let time := ism_times dist c (IZR fs) fdl.
Let fdl2 := ((fdl - 1) / 2)%nat.

Lemma time_tau : forall d, IZR fs * (d / c + INR (fdl / 2) / IZR fs) = IZR fs * d / c + INR fdl2.
Proof. intros d. destruct (odd_halves fdl Hodd) as [-> _]. fold fdl2. assert (0 < IZR fs) by (apply (IZR_lt 0); auto). field. lra. Qed.

Lemma time_length : length time = length dist.
Proof. unfold time, ism_times. apply map_length. Qed.
Lemma time_ne : time <> [].
Proof. intros E. apply Hne. apply length_zero_iff_nil. rewrite <- time_length, E. reflexivity. Qed.
Lemma time_ge : forall t, In t time -> INR fdl2 <= IZR fs * t.
Proof.
  intros t H. unfold time, ism_times in H. apply in_map_iff in H as (d & <- & H). rewrite time_tau.
  assert (0 < IZR fs) by (apply (IZR_lt 0); auto). specialize (Hd d H).
  assert (0 <= IZR fs * d / c). { apply Rmult_le_pos; [nra|]. left. now apply Rinv_0_lt_compat. } lra.
Qed.

Lemma size_nonneg : (0 <= ism_length time (IZR fs) fdl)%Z.
Proof.
  unfold ism_length. pose proof (Zceil_bounds (list_max time * IZR fs + INR (fdl / 2) + 1)) as [A B].
  pose proof (time_ge _ (list_max_in _ time_ne)). pose proof (pos_INR fdl2). pose proof (pos_INR (fdl/2)).
  assert (0 < IZR (Zceil (list_max time * IZR fs + INR (fdl / 2) + 1))) by lra. apply lt_IZR in H2. lia.
Qed.

Lemma sized_accepts : forall alpha, length alpha = length dist ->
  rir_accepts (Z.to_nat (ism_length time (IZR fs) fdl)) time alpha fs fdl = true.
Proof.
  intros alpha La. pose proof time_length as Lt. pose proof time_ne as Nt. unfold rir_accepts. cbv zeta. fold fdl2.
  rewrite Lt, La, Nat.eqb_refl. cbn [negb]. rewrite Hodd, Nat.eqb_refl. cbn [negb].
  rewrite Z2Nat.id by apply size_nonneg.
  assert (Emin : (Zfloor (IZR fs * list_min time) - Z.of_nat fdl2 <? 0)%Z = false).
  { apply Z.ltb_ge. pose proof (time_ge _ (list_min_in _ Nt)) as G. apply Zfloor_le in G.
    rewrite (Zfloor_unique (INR fdl2) (Z.of_nat fdl2)) in G by (rewrite <- INR_IZR_INZ; lra). lia. }
  assert (Emax : (ism_length time (IZR fs) fdl <=? Zceil (IZR fs * list_max time) + Z.of_nat fdl2)%Z = false).
  { apply Z.leb_gt. unfold ism_length. destruct (odd_halves fdl Hodd) as [-> _]. fold fdl2.
    replace (list_max time * IZR fs + INR fdl2 + 1) with (IZR fs * list_max time + IZR (Z.of_nat fdl2 + 1)).
    - rewrite Zceil_add. lia.
    - rewrite plus_IZR, <- INR_IZR_INZ. ring. }
  destruct time as [|t l] eqn:E; [congruence|]. rewrite Emin, Emax. reflexivity.
Qed.
End Sizing.

Lemma vadd_nth : forall (x y : list R) i, length x = length y -> nth i (vadd x y) 0 = nth i x 0 + nth i y 0.
Proof. intros. apply nth_vadd; auto. Qed.

Section Bands.
Variables (filt : nat -> list R -> list R) (n_bands N : nat) (time : list R) (fs : Z) (fdl gran T : nat).
Hypothesis Hfilt : forall b x, length (filt b x) = length x.
Hypothesis Hg : (0 < gran)%nat.
Hypothesis HT : (0 < T)%nat.
Hypothesis Hfs : (0 <= fs)%Z.
Definition band_ir (alpha : list R) : list R := map (arrivals_sum fs fdl gran time alpha) (seq 0 N).

Lemma build_unique : forall alpha ir, rir_builder (repeat 0 N) time alpha fs fdl gran T ir -> ir = band_ir alpha.
Proof.
  intros alpha ir (Hacc & ps & out & qs & B & E1 & Q & E2).
  destruct (build_all (repeat 0 N) time alpha fs fdl gran T Hg HT Hfs Hacc) as (ps' & B' & _ & _ & C).
  rewrite B in B'. injection B' as <-. destruct (C out E1) as (qs' & Q' & _ & _ & D). rewrite Q in Q'. injection Q' as <-.
  destruct (D ir E2) as [L V]. rewrite repeat_length in L, V.
  unfold band_ir. apply nth_ext with (d := 0) (d' := 0); [rewrite map_length, seq_length; auto|].
  intros i Hi. rewrite L in Hi. rewrite V by auto. rewrite nth_map_seq by auto. rewrite nth_repeat. lra.
Qed.
Lemma build_exists : forall alpha, rir_accepts N time alpha fs fdl = true -> rir_builder (repeat 0 N) time alpha fs fdl gran T (band_ir alpha).
Proof.
  intros alpha Hacc0. assert (Hacc : rir_accepts (length (repeat 0 N)) time alpha fs fdl = true) by (rewrite repeat_length; auto).
  destruct (build_all (repeat 0 N) time alpha fs fdl gran T Hg HT Hfs Hacc) as (ps & B & _ & (out & E1) & C).
  destruct (C out E1) as (qs & Q & _ & (ir & E2) & D).
  assert (R : rir_builder (repeat 0 N) time alpha fs fdl gran T ir) by (split; auto; exists ps, out, qs; auto).
  now rewrite <- (build_unique _ _ R).
Qed.

Lemma bands_loop_spec : forall amps b acc, length acc = N ->
  (forall alpha, In alpha amps -> rir_accepts N time alpha fs fdl = true) ->
  forall result, bands_loop filt n_bands N time amps fs fdl gran T b acc result <->
    (length result = N /\ forall i, (i < N)%nat -> nth i result 0 = nth i acc 0 +
      Rsum (map (fun k => nth i (band_result filt n_bands (b + k) (band_ir (nth k amps []))) 0) (seq 0 (length amps)))).
Proof.
  induction amps as [|alpha rest IH]; intros b acc La Hacc result; cbn [bands_loop length seq map Rsum fold_right].
  - split.
    + intros ->. split; auto. intros; unfold Rsum; simpl; lra.
    + intros [L E]. apply nth_ext with (d := 0) (d' := 0); [congruence|]. intros i Hi. rewrite E by lia. unfold Rsum; simpl; lra.
  - set (br := band_result filt n_bands b (band_ir alpha)).
    assert (Lb : length br = N).
    { unfold br, band_result, band_ir. destruct (1 <? n_bands)%nat; [rewrite Hfilt|]; now rewrite map_length, seq_length. }
    assert (Lv : length (vadd acc br) = N) by (unfold vadd; rewrite map2_length; lia).
    specialize (IH (S b) (vadd acc br) Lv (fun a H => Hacc a (or_intror H)) result).
    assert (G : (exists ir, rir_builder (repeat 0 N) time alpha fs fdl gran T ir /\
       bands_loop filt n_bands N time rest fs fdl gran T (S b) (vadd acc (band_result filt n_bands b ir)) result) <->
       bands_loop filt n_bands N time rest fs fdl gran T (S b) (vadd acc br) result).
    { split.
      - intros (ir & R & L). apply build_unique in R. subst ir. exact L.
      - intros L. exists (band_ir alpha). split; auto. apply build_exists. apply Hacc. left; auto. }
    rewrite G, IH. apply and_iff_compat_l.
    assert (S1 : forall i, Rsum (map (fun k => nth i (band_result filt n_bands (b + k) (band_ir (nth k (alpha :: rest) []))) 0) (0%nat :: seq 1 (length rest))) =
       nth i br 0 + Rsum (map (fun k => nth i (band_result filt n_bands (S b + k) (band_ir (nth k rest []))) 0) (seq 0 (length rest)))).
    { intros i. cbn [map]. unfold Rsum at 1. cbn [fold_right]. rewrite Nat.add_0_r. fold br. f_equal.
      rewrite <- seq_shift, map_map. change (fold_right Rplus 0) with Rsum. f_equal. apply map_ext. intros k. cbn [nth].
      now rewrite Nat.add_succ_r. }
    split; intros H i Hi; specialize (H i Hi); specialize (S1 i); unfold Rsum in S1 at 1; cbn [map fold_right] in S1;
      rewrite vadd_nth in * by congruence; unfold Rsum in *; lra.
Qed.
End Bands.

(** ** Selecting visible images *)
Lemma filter_map_S : forall (p : nat -> bool) s, filter p (map S s) = map S (filter (fun j => p (S j)) s).
Proof. intros p. induction s as [|x s IH]; simpl; auto. destruct (p (S x)); simpl; now rewrite IH. Qed.
Lemma select_map_seq : forall {A} (d : A) mask l, length mask = length l ->
  select mask l = map (fun j => nth j l d) (filter (fun j => nth j mask false) (seq 0 (length l))).
Proof.
  intros A d. induction mask as [|b mask IH]; intros l L; destruct l as [|a l]; simpl in L; try discriminate; auto.
  cbn [length seq]. rewrite <- seq_shift.
  assert (E : filter (fun j => nth j (b :: mask) false) (map S (seq 0 (length l))) = map S (filter (fun j => nth j mask false) (seq 0 (length l)))).
  { rewrite filter_map_S. reflexivity. }
  cbn [filter]. rewrite E. change (nth 0 (b :: mask) false) with b. destruct b; cbn [select map nth]; rewrite (IH l) by lia; rewrite map_map; reflexivity.
Qed.

Lemma Rsum_filter : forall (f : nat -> R) (p : nat -> bool) l, Rsum (map f (filter p l)) = Rsum (map (fun j => if p j then f j else 0) l).
Proof.
  intros f p. induction l as [|x l IH]; simpl; auto. destruct (p x); simpl; unfold Rsum in *; rewrite <- IH; simpl; lra.
Qed.
Lemma Rsum_seq_nth : forall (l : list nat) (f : nat -> R), Rsum (map f l) = Rsum (map (fun k => f (nth k l 0%nat)) (seq 0 (length l))).
Proof.
  intros l f. f_equal. rewrite <- (map_map (fun k => nth k l 0%nat) f). f_equal.
  apply nth_ext with (d := 0%nat) (d' := 0%nat); [now rewrite map_length, seq_length|].
  intros i Hi. now rewrite nth_map_seq.
Qed.

Lemma nth_combine_map : forall {A B C} (f : A * B -> C) (l : list A) (m : list B) k da db dc, length l = length m -> (k < length l)%nat ->
  nth k (map f (combine l m)) dc = f (nth k l da, nth k m db).
Proof.
  intros. rewrite (nth_indep _ dc (f (da, db))) by (rewrite map_length, combine_length; lia).
  rewrite map_nth. rewrite combine_nth; auto.
Qed.

Section IsmRir.
Variables (images damping : list (list R)) (visible : list bool) (mic : list R) (air : option (list R)) (c : R) (fs : Z) (fdl gran : nat).
Hypothesis Hvis : length visible = length images.
Hypothesis Hdamp : forall att, In att damping -> length att = length images.
Let J := filter (fun j => nth j visible false) (seq 0 (length images)).
Let dist := map (fun im => vdist im mic) (select visible images).
Let att := map (select visible) damping.

Lemma J_lt : forall j, In j J -> (j < length images)%nat.
Proof. intros j H. unfold J in H. apply filter_In in H as [H _]. apply in_seq in H. lia. Qed.
Lemma dist_J : dist = map (fun j => vdist (nth j images []) mic) J.
Proof. unfold dist. rewrite (select_map_seq [] visible images Hvis), map_map. reflexivity. Qed.
Lemma att_J : forall a, In a damping -> select visible a = map (fun j => nth j a 0) J.
Proof. intros a H. rewrite (select_map_seq 0) by (rewrite Hvis, Hdamp; auto). now rewrite Hdamp by auto. Qed.
Lemma dist_length : length dist = length J.
Proof. rewrite dist_J. apply map_length. Qed.

Lemma spread_J : forall a, In a damping -> spread dist (select visible a) = map (fun j => nth j a 0 / vdist (nth j images []) mic) J.
Proof.
  intros a H. rewrite att_J by auto. rewrite dist_J. unfold spread. clear. induction J as [|j l IH]; simpl; f_equal; auto.
Qed.
Lemma absorbed_J : forall (f : nat -> R) m, absorbed dist (map f J, m) = map (fun j => f j * exp (- (1/2) * m * vdist (nth j images []) mic)) J.
Proof. intros f m. rewrite dist_J. unfold absorbed. cbn [fst snd]. clear. induction J as [|j l IH]; simpl; f_equal; auto. Qed.

Hypothesis Hne : damping <> [].
Hypothesis Hair : match air with Some a => a <> [] | None => True end.
Hypothesis Hcomp : bands_compatible damping air.

Lemma in_row : forall b, (b < n_bands_of damping air)%nat -> In (row [] damping b) damping.
Proof.
  intros b Hb. unfold n_bands_of in Hb. destruct damping as [|x [|y l]]; [congruence| |]; cbn [row].
  - left; auto.
  - apply nth_In. destruct air; auto.
Qed.

Lemma amplitudes_J : amplitudes att dist air =
  Some (map (fun b => map (fun j => image_amplitude damping air b j (vdist (nth j images []) mic)) J) (seq 0 (n_bands_of damping air))).
Proof.
  assert (Hrow : forall b, (b < n_bands_of damping air)%nat -> spread dist (select visible (row [] damping b)) =
     map (fun j => nth j (row [] damping b) 0 / vdist (nth j images []) mic) J).
  { intros b Hb. apply spread_J. now apply in_row. }
  assert (Hex : forall m x, - (1/2) * m * x = - (m * x) / 2) by (intros; field).
  unfold amplitudes. cbv zeta. unfold att. rewrite map_map. destruct air as [a|].
  - simpl in Hcomp. unfold n_bands_of in *.
    assert (Bc : broadcast (map (fun x => spread dist (select visible x)) damping) a =
      Some (map (fun b => (spread dist (select visible (row [] damping b)), row 0 a b))
                (seq 0 (if (length damping =? 1)%nat then length a else length damping)))).
    { unfold broadcast. rewrite map_length. destruct (Nat.eqb_spec (length damping) (length a)) as [E|Ne].
      - f_equal. destruct (Nat.eqb_spec (length damping) 1) as [E1|N1].
        + destruct damping as [|x [|? ?]]; try discriminate. destruct a as [|y [|? ?]]; try discriminate. reflexivity.
        + apply nth_ext with (d := (spread dist (select visible []), 0)) (d' := (spread dist (select visible []), 0)).
          * rewrite combine_length, !map_length, seq_length. lia.
          * intros k Hk. rewrite combine_length, map_length in Hk. rewrite combine_nth by (rewrite map_length; auto).
            rewrite nth_map_seq by lia. rewrite (map_nth (fun x => spread dist (select visible x))).
            f_equal; [f_equal; f_equal|].
            -- destruct damping as [|x [|? ?]]; try reflexivity. simpl in N1. lia.
            -- destruct a as [|x [|? ?]]; try reflexivity. simpl in *. lia.
      - destruct (Nat.eqb_spec (length damping) 1) as [E1|N1].
        + destruct damping as [|x [|? ?]]; try discriminate. cbn [map]. f_equal.
          apply nth_ext with (d := (spread dist (select visible x), 0)) (d' := (spread dist (select visible x), 0)).
          * rewrite !map_length, seq_length. auto.
          * intros k Hk. rewrite map_length in Hk. rewrite nth_map_seq by lia.
            rewrite (map_nth (fun y => (spread dist (select visible x), y))). cbn [row]. f_equal.
            destruct a as [|y [|? ?]]; try reflexivity. simpl in *. lia.
        + destruct Hcomp as [Hx|[Hx|Hx]]; try lia. destruct a as [|y [|? ?]]; try discriminate.
          destruct damping as [|x [|x' l]] eqn:Ed; [congruence| |].
          * simpl in N1. lia.
          * rewrite <- Ed. rewrite <- Ed in *. 
            assert (Em : map (fun x0 => (x0, y)) (map (fun x0 => spread dist (select visible x0)) damping) =
              map (fun b => (spread dist (select visible (row [] damping b)), row 0 [y] b)) (seq 0 (length damping))).
            { rewrite map_map. apply nth_ext with (d := (spread dist (select visible []), y)) (d' := (spread dist (select visible []), y)).
              - rewrite !map_length, seq_length. auto.
              - intros k Hk. rewrite map_length in Hk. rewrite nth_map_seq by lia.
                rewrite (map_nth (fun x0 => (spread dist (select visible x0), y))). cbn [row]. f_equal.
                rewrite Ed. reflexivity. }
            rewrite <- Em. rewrite Ed. reflexivity. }
    rewrite Bc. cbn [bind]. rewrite map_map. f_equal. apply map_ext_in. intros b Hb. apply in_seq in Hb.
    rewrite Hrow by lia. rewrite absorbed_J. apply map_ext. intros j. unfold image_amplitude. now rewrite Hex.
  - f_equal. unfold n_bands_of in *. apply nth_ext with (d := spread dist (select visible [])) (d' := spread dist (select visible [])).
    + now rewrite !map_length, seq_length.
    + intros k Hk. rewrite map_length in Hk. rewrite nth_map_seq by lia. rewrite (map_nth (fun x => spread dist (select visible x))).
      transitivity (spread dist (select visible (row [] damping k))).
      * do 2 f_equal. destruct damping as [|x [|? ?]]; try reflexivity. simpl in Hk. destruct k; [reflexivity|lia].
      * rewrite Hrow by lia. apply map_ext. intros j. unfold image_amplitude. ring.
Qed.

Lemma band_J : (0 < fs)%Z -> (fdl mod 2 = 1)%nat -> 0 < c -> forall b i,
  arrivals_sum fs fdl gran (ism_times dist c (IZR fs) fdl) (map (fun j => image_amplitude damping air b j (vdist (nth j images []) mic)) J) i =
  ism_band images damping visible mic air c fs fdl gran b i.
Proof.
  intros Hfs Hodd Hc b i. unfold arrivals_sum, ism_band, ism_times. rewrite map_length, dist_length.
  rewrite <- (Rsum_filter (fun j => image_amplitude damping air b j (vdist (nth j images []) mic) *
     pulse fdl gran (IZR fs * vdist (nth j images []) mic / c + INR ((fdl - 1) / 2)) (Z.of_nat i))). fold J.
  rewrite (Rsum_seq_nth J). apply Rsum_map_ext. intros k Hk. apply in_seq in Hk.
  rewrite (nth_indep _ 0 (image_amplitude damping air b 0 (vdist (nth 0 images []) mic))) by (rewrite map_length; lia).
  rewrite (map_nth (fun j => image_amplitude damping air b j (vdist (nth j images []) mic))). f_equal.
  rewrite dist_J, map_map.
  rewrite (nth_indep _ 0 (vdist (nth 0 images []) mic / c + INR (fdl / 2) / IZR fs)) by (rewrite map_length; lia).
  rewrite (map_nth (fun j => vdist (nth j images []) mic / c + INR (fdl / 2) / IZR fs)).
  now rewrite (time_tau c fs fdl).
Qed.

Lemma ism_rir_all : forall filt T,
  (forall b x, length (filt b x) = length x) -> (0 < gran)%nat -> (0 < T)%nat -> (0 < fs)%Z -> (fdl mod 2 = 1)%nat -> 0 < c ->
  (exists j, (j < length images)%nat /\ nth j visible false = true) ->
  let N := Z.to_nat (ism_length (ism_times dist c (IZR fs) fdl) (IZR fs) fdl) in
  (exists result, compute_ism_rir filt images damping visible mic air c fs fdl gran T result) /\
  (forall result, compute_ism_rir filt images damping visible mic air c fs fdl gran T result -> length result = N /\
     forall i, (i < N)%nat -> nth i result 0 = Rsum (map (fun b => nth i (band_result filt (n_bands_of damping air) b
        (map (ism_band images damping visible mic air c fs fdl gran b) (seq 0 N))) 0) (seq 0 (n_bands_of damping air)))).
Proof.
  intros filt T Hf Hg HT Hfs Hodd Hc (j0 & Hj & Vj) N.
  assert (Dne : dist <> []).
  { intros E. pose proof dist_length as L. rewrite E in L. simpl in L. symmetry in L. apply length_zero_iff_nil in L.
    assert (In j0 J) by (apply filter_In; split; [apply in_seq; lia|auto]). rewrite L in H. destruct H. }
  assert (Dpos : forall d, In d dist -> 0 <= d) by (intros d H; unfold dist in H; apply in_map_iff in H as (? & <- & _); apply vdist_nonneg).
  set (amps := map (fun b => map (fun j => image_amplitude damping air b j (vdist (nth j images []) mic)) J) (seq 0 (n_bands_of damping air))).
  assert (Acc : forall alpha, In alpha amps -> rir_accepts N (ism_times dist c (IZR fs) fdl) alpha fs fdl = true).
  { intros alpha H. apply sized_accepts; auto. unfold amps in H. apply in_map_iff in H as (b & <- & _). now rewrite map_length, dist_length. }
  assert (La : length amps = n_bands_of damping air) by (unfold amps; now rewrite map_length, seq_length).
  pose proof (fun r => bands_loop_spec filt (n_bands_of damping air) N (ism_times dist c (IZR fs) fdl) fs fdl gran T Hf Hg HT ltac:(lia) amps 0 (repeat 0 N) (repeat_length 0 N) Acc r) as BL.
  assert (V : forall i, (i < N)%nat -> nth i (repeat 0 N) 0 + Rsum (map (fun k => nth i (band_result filt (n_bands_of damping air) (0 + k)
      (band_ir N (ism_times dist c (IZR fs) fdl) fs fdl gran (nth k amps []))) 0) (seq 0 (length amps))) =
    Rsum (map (fun b => nth i (band_result filt (n_bands_of damping air) b
        (map (ism_band images damping visible mic air c fs fdl gran b) (seq 0 N))) 0) (seq 0 (n_bands_of damping air)))).
  { intros i Hi. rewrite nth_repeat, La, Rplus_0_l. apply Rsum_map_ext. intros b Hb. apply in_seq in Hb. cbn [Nat.add].
    f_equal. f_equal. unfold band_ir. apply map_ext. intros k. unfold amps. rewrite nth_map_seq by lia. now apply band_J. }
  split.
  - set (res := map (fun i => Rsum (map (fun b => nth i (band_result filt (n_bands_of damping air) b
        (map (ism_band images damping visible mic air c fs fdl gran b) (seq 0 N))) 0) (seq 0 (n_bands_of damping air)))) (seq 0 N)).
    exists res. split; [exact Dne|]. exists amps. split; [apply amplitudes_J|]. rewrite La. apply BL. split.
    + unfold res. now rewrite map_length, seq_length.
    + intros i Hi. rewrite V by auto. unfold res. now rewrite nth_map_seq.
  - intros result (_ & amps' & A & L). fold dist att in A. rewrite amplitudes_J in A. injection A as <-. fold amps in L. rewrite La in L.
    fold dist N in L. apply BL in L as [L1 L2]. split; auto. intros i Hi. rewrite L2 by auto. now apply V.
Qed.
End IsmRir.

(** ** fractional_delay *)
Section FracDelay.
Variables (time : list R) (cols gran T : nat) (out : list R).
Hypothesis Hg : (0 < gran)%nat.
Hypothesis HT : (0 < T)%nat.
Hypothesis Hc : (0 < cols)%nat.
Hypothesis Hout : length out = (length time * cols)%nat.
Hypothesis Htime : forall t, In t time -> 0 <= t <= 1.
Let fdl := fd_odd cols.

Definition fd_prog_row (idx : nat) : list act :=
  map (fun k => Put (idx * cols + k) (fd_tap fdl gran (nth idx time 0) k)) (seq 0 fdl).
Definition fd_prog (t : nat) : list act := concat (map fd_prog_row (block (length time) T t)).

Lemma fdl_le : (fdl <= cols)%nat.
Proof. unfold fdl, fd_odd. destruct (Nat.eqb_spec (cols mod 2) 0); lia. Qed.

Lemma fd_row_prog : forall idx, (idx < length time)%nat ->
  fd_row cols gran idx (sinc_lut fdl gran) (hann fdl) (nth idx time 0) = Some (fd_prog_row idx).
Proof.
  intros idx Hidx. unfold fd_row, fd_prog_row. cbv zeta. fold fdl. specialize (Htime _ (nth_In time 0 Hidx)). set (tim := nth idx time 0) in *.
  set (fdl2 := ((fdl - 1) / 2)%nat). assert (G : 1 <= INR gran) by (apply (le_INR 1); lia).
  set (lgo := Zfloor ((1 - tim) * INR gran)).
  assert (Lg : (0 <= lgo <= Z.of_nat gran)%Z).
  { split.
    - rewrite <- (Zfloor_unique 0 0) by lra. apply Zfloor_le. apply Rmult_le_pos; lra.
    - rewrite <- (Zfloor_unique (INR gran) (Z.of_nat gran)) by (rewrite <- INR_IZR_INZ; lra). apply Zfloor_le. nra. }
  match goal with |- mapM _ _ = Some (map ?f _) => rewrite (mapM_ext_in _ (fun k => Some (f k))); [apply mapM_total|] end.
  intros k Hk. apply in_seq in Hk.
  assert (P0 : (0 <= lgo + Z.of_nat (k * gran))%Z) by lia.
  assert (P1 : (Z.to_nat (lgo + Z.of_nat (k * gran)) + 1 < (fdl + 2) * gran)%nat) by nia.
  rewrite !(getZ_some _ 0) by (rewrite sinc_lut_length; lia). cbn [bind].
  rewrite (nth_error_nth' (hann fdl) 0) by (rewrite hann_length; lia). cbn [bind].
  f_equal. f_equal. unfold fd_tap. rewrite nth_hann by lia. f_equal. fold fdl2.
  unfold lerp_grid. cbv zeta.
  assert (E : (INR k - INR fdl2 - tim) * INR gran = (1 - tim) * INR gran + IZR ((Z.of_nat k - Z.of_nat fdl2 - 1) * Z.of_nat gran)).
  { rewrite mult_IZR, !minus_IZR, <- !INR_IZR_INZ. ring. }
  rewrite E, Zfloor_add. fold lgo.
  rewrite !nth_sinc_lut by lia. fold fdl2.
  assert (E1 : forall m, (0 <= m)%Z -> - INR fdl2 - 1 + INR (Z.to_nat (m + Z.of_nat (k * gran))) * (1 / INR gran) =
     IZR (m + (Z.of_nat k - Z.of_nat fdl2 - 1) * Z.of_nat gran) / INR gran).
  { intros m Hm. rewrite (INR_IZR_INZ (Z.to_nat _)), Z2Nat.id by lia. rewrite !plus_IZR, mult_IZR, !minus_IZR, <- !INR_IZR_INZ, mult_INR.
    field. lra. }
  replace (lgo + Z.of_nat (k * gran) + 1)%Z with ((lgo + 1) + Z.of_nat (k * gran))%Z by lia.
  rewrite !E1 by lia.
  replace (lgo + (Z.of_nat k - Z.of_nat fdl2 - 1) * Z.of_nat gran + 1)%Z with (lgo + 1 + (Z.of_nat k - Z.of_nat fdl2 - 1) * Z.of_nat gran)%Z by lia.
  f_equal. f_equal. rewrite (plus_IZR lgo). ring.
Qed.

Lemma fd_tasks_progs : mapM (fd_task time cols gran T) (seq 0 T) = Some (map fd_prog (seq 0 T)).
Proof.
  rewrite (mapM_ext_in _ (fun t => Some (fd_prog t))); [apply mapM_total|]. intros t _. unfold fd_task, fd_prog. fold fdl.
  rewrite (mapM_ext_in _ (fun j => Some (fd_prog_row j))); [now rewrite mapM_total|].
  intros j Hj. apply in_block in Hj. rewrite (nth_error_nth' time 0) by lia. cbn [bind]. apply fd_row_prog. lia.
Qed.

Lemma in_fd_prog : forall t a, In a (fd_prog t) <-> exists idx k, In idx (block (length time) T t) /\ (k < fdl)%nat /\
  a = Put (idx * cols + k) (fd_tap fdl gran (nth idx time 0) k).
Proof.
  intros t a. unfold fd_prog. rewrite in_concat. split.
  - intros (l & H1 & H2). apply in_map_iff in H1 as (idx & <- & Hi). unfold fd_prog_row in H2. apply in_map_iff in H2 as (k & <- & Hk).
    apply in_seq in Hk. exists idx, k. repeat split; auto; lia.
  - intros (idx & k & Hi & Hk & ->). exists (fd_prog_row idx). split; [now apply in_map|]. unfold fd_prog_row.
    apply in_map_iff. exists k. split; auto. apply in_seq. lia.
Qed.
Lemma nth_fd_progs : forall t p, nth_error (map fd_prog (seq 0 T)) t = Some p -> p = fd_prog t.
Proof.
  intros t p H. assert (t < T)%nat. { assert (nth_error (map fd_prog (seq 0 T)) t <> None) as N by congruence. apply nth_error_Some in N. rewrite map_length, seq_length in N. auto. }
  rewrite nth_error_map, (nth_error_nth' _ 0%nat) in H by (rewrite seq_length; auto). rewrite seq_nth in H by auto.
  simpl in H. congruence.
Qed.
Lemma fd_cell_inj : forall i k i' k', (k < fdl)%nat -> (k' < fdl)%nat -> (i * cols + k = i' * cols + k')%nat -> i = i' /\ k = k'.
Proof. intros i k i' k' H1 H2 E. pose proof fdl_le. assert (i = i'); [|split; auto; nia]. destruct (lt_eq_lt_dec i i') as [[L|Eq]|L]; auto; exfalso; nia. Qed.
Lemma fd_disjoint : disjoint_tasks (map fd_prog (seq 0 T)).
Proof.
  intros t u p q a b Ne Hp Hq Ha Hb E. apply nth_fd_progs in Hp, Hq. subst p q.
  apply in_fd_prog in Ha as (i & k & Hi & Hk & ->), Hb as (j & l & Hj & Hl & ->). cbn [cell] in E.
  destruct (fd_cell_inj i k j l Hk Hl E) as [-> _]. apply Ne. eapply block_disjoint; eauto.
Qed.
Lemma fd_puts : all_puts (map fd_prog (seq 0 T)).
Proof. intros p a Hp Ha. apply in_map_iff in Hp as (t & <- & _). apply in_fd_prog in Ha as (i & k & _ & _ & ->). eauto. Qed.
Lemma fd_inside : inside (length out) (map fd_prog (seq 0 T)).
Proof.
  intros p a Hp Ha. apply in_map_iff in Hp as (t & <- & _). apply in_fd_prog in Ha as (i & k & Hi & Hk & ->).
  apply in_block in Hi. cbn [cell]. rewrite Hout. pose proof fdl_le. nia.
Qed.
Lemma fd_once : once (map fd_prog (seq 0 T)).
Proof.
  intros p Hp. apply in_map_iff in Hp as (t & <- & _). unfold fd_prog. rewrite concat_map, map_map, <- flat_map_concat_map.
  apply NoDup_flat_map.
  - apply seq_NoDup.
  - intros i Hi. unfold fd_prog_row. rewrite map_map. cbn [cell]. apply NoDup_map_inj; [|apply seq_NoDup]. intros; lia.
  - intros i j b Hi Hj H1 H2. unfold fd_prog_row in H1, H2. rewrite map_map in H1, H2. cbn [cell] in H1, H2.
    apply in_map_iff in H1 as (k & <- & Hk), H2 as (l & E & Hl). apply in_seq in Hk, Hl. symmetry in E.
    destruct (fd_cell_inj i k j l ltac:(lia) ltac:(lia) E). auto.
Qed.

Lemma fd_all : exists ps, mapM (fd_task time cols gran T) (seq 0 T) = Some ps /\ never_out_of_bounds out ps /\
  (exists result, executes out ps result) /\
  forall result, executes out ps result -> length result = length out /\
    forall idx k, (idx < length time)%nat -> (k < cols)%nat ->
      nth (idx * cols + k) result 0 = if (k <? fdl)%nat then fd_tap fdl gran (nth idx time 0) k else nth (idx * cols + k) out 0.
Proof.
  exists (map fd_prog (seq 0 T)). split; [apply fd_tasks_progs|].
  assert (NF : never_out_of_bounds out (map fd_prog (seq 0 T))).
  { intros s R. apply (no_fault_puts out _ s fd_disjoint fd_puts fd_once fd_inside R). }
  split; [exact NF|]. split.
  - destruct (completes_of out (map fd_prog (seq 0 T))) with (s := {| s_buf := out; s_tasks := map start (map fd_prog (seq 0 T)) |}) as (s & P & F).
    + intros s R t x Hx Nx. destruct (NF s R t x Hx Nx) as (s' & St & _). eauto.
    + constructor.
    + exists (s_buf s), s. auto.
  - intros result Hr. destruct (executes_puts _ _ _ fd_disjoint fd_puts fd_once Hr) as (L & P & Q). split; auto.
    intros idx k Hi Hk. destruct (Nat.ltb_spec k fdl) as [Lk|Lk].
    + apply nth_error_nth. apply P. assert (Hb : In idx (concat (map (block (length time) T) (seq 0 T)))) by (rewrite blocks_cover by auto; apply in_seq; lia).
      apply in_concat in Hb as (b & Hb1 & Hb2). apply in_map_iff in Hb1 as (t & <- & Ht).
      apply in_concat. exists (fd_prog t). split; [now apply in_map|]. apply in_fd_prog. exists idx, k. auto.
    + assert (Nc : ~ In (idx * cols + k)%nat (map cell (concat (map fd_prog (seq 0 T))))).
      { intros H. apply in_map_iff in H as (a & E & H). apply in_concat in H as (p & H1 & H2). apply in_map_iff in H1 as (t & <- & _).
        apply in_fd_prog in H2 as (i & l & _ & Hl & ->). cbn [cell] in E. pose proof fdl_le.
        assert (i = idx) by (destruct (lt_eq_lt_dec i idx) as [[X|X]|X]; auto; exfalso; nia). subst i. lia. }
      assert (Hlt : (idx * cols + k < length out)%nat) by (rewrite Hout; nia).
      apply Q in Nc. rewrite (nth_error_nth' out 0 Hlt) in Nc. now apply nth_error_nth.
Qed.
End FracDelay.
