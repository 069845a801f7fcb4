From Coq Require Import List ZArith Lia Reals Lra String Sorted Permutation.
From Verif Require Import Base BaseProofs Vec ParamModel.
Import ListNotations.
Local Open Scope R_scope.

(** ** Nodes *)
Definition below (p q : R * R) : Prop := fst p < fst q.
Lemma log2_pos_den : 0 < ln 2.
Proof. rewrite <- ln_1. apply ln_increasing; lra. Qed.
Lemma log2_lt : forall x y, 0 < x -> x < y -> log2 x < log2 y.
Proof. intros x y Hx H. unfold log2. apply Rmult_lt_compat_r; [apply Rinv_0_lt_compat, log2_pos_den|]. now apply ln_increasing. Qed.
Lemma log2_inj : forall x y, 0 < x -> 0 < y -> log2 x = log2 y -> x = y.
Proof. intros x y Hx Hy H. destruct (Rtotal_order x y) as [G|[G|G]]; auto; apply log2_lt in G; auto; lra. Qed.
Lemma log2_le : forall x y, 0 < x -> x <= y -> log2 x <= log2 y.
Proof. intros x y Hx [H | ->]; [left; now apply log2_lt|lra]. Qed.

Lemma insert_perm : forall p l, Permutation (insert p l) (p :: l).
Proof. induction l as [|q t IH]; cbn; auto. destruct (Rlt_dec _ _); auto. rewrite IH. apply perm_swap. Qed.
Lemma sort_perm : forall l, Permutation (sort_nodes l) l.
Proof. induction l as [|p t IH]; cbn; auto. rewrite insert_perm. now rewrite IH. Qed.
Lemma insert_sorted : forall p l, StronglySorted below l -> ~ In (fst p) (map fst l) -> StronglySorted below (insert p l).
Proof.
  induction l as [|q t IH]; intros Hs Hn; cbn; [repeat constructor|]. inversion Hs as [|? ? Hs' Hf]; subst. destruct (Rlt_dec (fst q) (fst p)) as [L|L].
  - constructor; [apply IH; auto; intros G; apply Hn; now right|]. rewrite (insert_perm p t). constructor; auto.
  - assert (Lq : fst p < fst q). { apply Rnot_lt_le in L. destruct L as [L|L]; auto. exfalso. apply Hn. left. auto. }
    constructor; auto. constructor; auto. eapply Forall_impl; [|exact Hf]. unfold below. cbn. intros r Hr. lra.
Qed.
Lemma sort_sorted : forall l, NoDup (map fst l) -> StronglySorted below (sort_nodes l).
Proof.
  induction l as [|p t IH]; intros H; cbn; [constructor|]. inversion H; subst. apply insert_sorted; auto.
  intros G. apply H2. eapply Permutation_in; [|exact G]. apply Permutation_map, sort_perm.
Qed.
Lemma sorted_nth : forall l i j d, StronglySorted below l -> (i < j < List.length l)%nat -> fst (nth i l d) < fst (nth j l d).
Proof.
  induction l as [|p t IH]; intros i j d Hs H; [cbn in H; lia|]. inversion Hs as [|? ? Hs' Hf]; subst. cbn in H.
  destruct i, j; cbn; try lia; [|apply IH; auto; lia]. rewrite Forall_forall in Hf. apply (Hf (nth j t d)). apply nth_In. lia.
Qed.
Lemma sort_of_sorted : forall l, StronglySorted below l -> sort_nodes l = l.
Proof.
  induction l as [|p t IH]; intros H; auto. inversion H as [|? ? Hs Hf]; subst. change (sort_nodes (p :: t)) with (insert p (sort_nodes t)). rewrite IH by auto. destruct t as [|q u]; cbn; auto.
  apply Forall_inv in Hf. unfold below in Hf. destruct (Rlt_dec _ _); auto; lra.
Qed.

Definition isbelow (v : R) (q : R * R) : bool := if Rlt_dec (fst q) v then true else false.
Lemma count_below : forall l v k d, StronglySorted below l -> (k <= List.length l)%nat ->
  (forall j, (j < k)%nat -> fst (nth j l d) < v) -> (forall j, (k <= j < List.length l)%nat -> v <= fst (nth j l d)) ->
  List.length (filter (isbelow v) l) = k.
Proof.
  induction l as [|p t IH]; intros v k d Hs Hk H1 H2; [cbn in *; lia|]. inversion Hs as [|? ? Hs' Hf]; subst. cbn [filter].
  destruct k as [|k].
  - pose proof (H2 0%nat ltac:(cbn; lia)) as G. cbn in G. unfold isbelow at 1. destruct (Rlt_dec _ _); [lra|]. apply (IH v 0%nat d); auto; [lia|lia|].
    intros j Hj. apply (H2 (S j)). cbn. lia.
  - pose proof (H1 0%nat ltac:(lia)) as G. cbn in G. unfold isbelow at 1. destruct (Rlt_dec _ _); [|lra]. cbn. f_equal. apply (IH v k d); auto; [cbn in Hk; lia| |].
    + intros j Hj. apply (H1 (S j)). lia. + intros j Hj. apply (H2 (S j)). cbn. lia.
Qed.
(** At a node the value of the node. *)
Lemma interp_node : forall l k d, StronglySorted below l -> (2 <= List.length l)%nat -> (k < List.length l)%nat ->
  interp_at l (fst (nth k l d)) = Some (snd (nth k l d)).
Proof.
  intros l k d Hs Hl Hk. rewrite (nth_indep l d (0,0)) by auto. unfold interp_at. fold (isbelow (fst (nth k l (0,0)))).
  rewrite (count_below l _ k (0,0)); auto; [|lia| |].
  2: intros j Hj; apply sorted_nth; auto; lia. 2: intros j Hj; destruct (Nat.eq_dec j k) as [->|]; [lra|]; left; apply sorted_nth; auto; lia.
  destruct k as [|k].
  - replace (Nat.max 1 (Nat.min _ 0)) with 1%nat by lia. cbn [Nat.sub]. pose proof (sorted_nth l 0 1 (0,0) Hs ltac:(lia)). destruct (Req_EM_T _ _); [lra|]. f_equal. ring.
  - replace (Nat.max 1 (Nat.min _ (S k))) with (S k) by lia. replace (S k - 1)%nat with k by lia. pose proof (sorted_nth l k (S k) (0,0) Hs ltac:(lia)).
    destruct (Req_EM_T _ _); [lra|]. f_equal. field. lra.
Qed.
Lemma interp_defined : forall l v, StronglySorted below l -> (2 <= List.length l)%nat -> exists y, interp_at l v = Some y.
Proof.
  intros l v Hs Hl. unfold interp_at. set (i := Nat.max 1 _). assert (Hi : (1 <= i < List.length l)%nat) by (unfold i; lia).
  pose proof (sorted_nth l (i - 1) i (0,0) Hs ltac:(lia)). destruct (Req_EM_T _ _); [lra|]. eauto.
Qed.
Lemma count_spec : forall l v d, StronglySorted below l -> let k := List.length (filter (isbelow v) l) in
  (k <= List.length l)%nat /\ (forall j, (j < k)%nat -> fst (nth j l d) < v) /\ (forall j, (k <= j < List.length l)%nat -> v <= fst (nth j l d)).
Proof.
  induction l as [|p t IH]; intros v d Hs; [cbn; split; [lia|split; intros; lia]|]. cbn [filter]. inversion Hs as [|? ? Hs' Hf]; subst. destruct (IH v d Hs') as (I1 & I2 & I3).
  assert (E : isbelow v p = if Rlt_dec (fst p) v then true else false) by reflexivity. rewrite E.
  destruct (Rlt_dec (fst p) v) as [L|L]; cbn [List.length]; (split; [lia|]); split.
  - intros [|j] Hj; cbn; auto. apply I2. lia. - intros [|j] Hj; [lia|]. cbn [nth]. apply I3. cbn in Hj. lia.
  - intros j Hj. exfalso. rewrite Forall_forall in Hf. destruct t as [|q u]; [cbn in Hj; lia|]. specialize (I2 0%nat ltac:(lia)). cbn [nth] in I2. specialize (Hf q (or_introl eq_refl)). unfold below in Hf. lra.
  - intros [|j] Hj; cbn; [lra|]. rewrite Forall_forall in Hf. specialize (Hf (nth j t d) ltac:(apply nth_In; cbn in Hj; lia)). unfold below in Hf. lra.
Qed.
(** Between the first and the last node the value stays within the range of the values. *)
Lemma interp_between : forall l v y a b, StronglySorted below l -> (2 <= List.length l)%nat ->
  Forall (fun q => a <= snd q <= b) l -> fst (nth 0 l (0,0)) <= v <= fst (nth (List.length l - 1) l (0,0)) -> interp_at l v = Some y -> a <= y <= b.
Proof.
  intros l v y a b Hs Hl Hf Hv H. unfold interp_at in H. fold (isbelow v) in H. destruct (count_spec l v (0,0) Hs) as (C1 & C2 & C3). set (k := List.length (filter (isbelow v) l)) in *.
  set (i := Nat.max 1 (Nat.min (List.length l - 1) k)) in *. assert (Hi : (1 <= i < List.length l)%nat) by (unfold i; lia).
  pose proof (sorted_nth l (i - 1) i (0,0) Hs ltac:(lia)) as Hlt. rewrite Forall_forall in Hf.
  pose proof (Hf (nth (i - 1) l (0,0)) ltac:(apply nth_In; lia)) as Fa. pose proof (Hf (nth i l (0,0)) ltac:(apply nth_In; lia)) as Fb.
  assert (La : fst (nth (i - 1) l (0,0)) <= v). { destruct k as [|k']. - replace (i - 1)%nat with 0%nat by (unfold i; lia). lra. - left. apply C2. unfold i. lia. }
  assert (Lb : v <= fst (nth i l (0,0))). { destruct (Nat.le_gt_cases (List.length l) k) as [G|G]. - replace i with (List.length l - 1)%nat by (unfold i; lia). lra. - apply C3. unfold i. lia. }
  destruct (Req_EM_T _ _); [discriminate|]. injection H as <-.
  set (x0 := fst (nth (i - 1) l (0,0))) in *. set (x1 := fst (nth i l (0,0))) in *. set (y0 := snd (nth (i - 1) l (0,0))) in *. set (y1 := snd (nth i l (0,0))) in *. clearbody x0 x1 y0 y1. clear - Hlt Fa Fb La Lb.
  set (t := (v - x0) / (x1 - x0)). assert (Ht : 0 <= t <= 1). { unfold t. split; [apply Rmult_le_pos; [lra|left; apply Rinv_0_lt_compat; lra]|]. apply Rmult_le_reg_r with (x1 - x0); [lra|]. unfold Rdiv. rewrite Rmult_assoc, Rinv_l by lra. lra. }
  replace ((y1 - y0) / (x1 - x0) * (v - x0) + y0) with ((1 - t) * y0 + t * y1) by (unfold t; field; lra). clearbody t. split; nra.
Qed.

(** ** The bank *)
Definition good_centers (cs : vec) : Prop := cs <> [] /\ Forall (fun c => 0 < c) cs /\ StronglySorted Rlt cs.
Definition in01 (x : R) : Prop := 0 <= x <= 1.
Lemma clip01_id : forall x, in01 x -> clip01 x = x.
Proof. intros x [H1 H2]. unfold clip01. destruct (Rlt_dec _ _); [lra|]. destruct (Rlt_dec _ _); [lra|]. auto. Qed.
Lemma clip01_in : forall x, in01 (clip01 x).
Proof. intros x. unfold clip01, in01. destruct (Rlt_dec _ _); [lra|]. destruct (Rlt_dec _ _); lra. Qed.
Lemma bank_length : forall cs b y, bank_call cs b = Some y -> List.length y = List.length cs.
Proof.
  intros cs b y H. unfold bank_call in H. destruct (coeffs b) as [|a [|a' t]]; [discriminate|injection H as <-; apply repeat_length|].
  destruct (negb _); [discriminate|]. destruct (existsb _ _); [discriminate|]. now apply mapM_length in H.
Qed.
Lemma existsb_pos : forall l, Forall (fun c => 0 < c) l -> existsb (fun x => if Rle_dec x 0 then true else false) l = false.
Proof. induction 1; cbn; auto. destruct (Rle_dec _ _); [lra|]. auto. Qed.
Lemma map_fst_combine : forall (a b : vec), List.length a = List.length b -> map fst (combine a b) = a.
Proof. induction a; intros [|y b] H; cbn in *; try lia; auto. f_equal. apply IHa. lia. Qed.
Lemma combine_sorted : forall cs ys, Forall (fun c => 0 < c) cs -> StronglySorted Rlt cs -> List.length ys = List.length cs -> StronglySorted below (combine (map log2 cs) ys).
Proof.
  induction cs as [|c t IH]; intros [|y ys] Hp Hs H; cbn in *; try lia; [constructor|]. inversion Hs as [|? ? Hs' Hf]; subst. inversion Hp; subst. constructor; [apply IH; auto|].
  rewrite Forall_forall. intros [u v] Hin. apply in_combine_l in Hin. apply in_map_iff in Hin. destruct Hin as (c' & <- & Hc'). unfold below. cbn. apply log2_lt; auto. rewrite Forall_forall in Hf. auto.
Qed.
(** Resampling values already at the centres changes nothing. *)
Lemma bank_fixed : forall cs ys, good_centers cs -> List.length ys = List.length cs -> Forall in01 ys -> bank_call cs {| coeffs := ys; cfreqs := Some cs |} = Some ys.
Proof.
  intros cs ys (Hn & Hp & Hs) Hl H01. unfold bank_call. cbn [coeffs cfreqs]. destruct ys as [|a [|a' t]] eqn:Ey.
  - destruct cs; [congruence|discriminate]. - cbn in Hl. now rewrite <- Hl.
  - rewrite <- Ey in *. rewrite Hl, Nat.eqb_refl. cbn [negb]. rewrite existsb_pos by (apply Forall_app; auto).
    pose proof (combine_sorted cs ys Hp Hs Hl) as Hc. rewrite sort_of_sorted by auto.
    set (L := combine (map log2 cs) ys) in *. assert (HL : List.length L = List.length cs) by (unfold L; rewrite combine_length, map_length; lia).
    assert (H2 : (2 <= List.length cs)%nat) by (rewrite <- Hl, Ey; cbn; lia).
    assert (Hg : forall k, (k < List.length cs)%nat -> nth k L (0, 0) = (log2 (nth k cs 0), nth k ys 0)).
    { intros k Hk. unfold L. rewrite (nth_indep _ (0,0) (log2 0, 0)) by (fold L; lia). rewrite combine_nth by (rewrite map_length; lia). now rewrite map_nth. }
    transitivity (mapM (fun k => Some (nth k ys 0)) (seq 0 (List.length cs))).
    + clear Ey. transitivity (mapM (fun k => let* y := interp_at L (log2 (nth k cs 0)) in Some (clip01 y)) (seq 0 (List.length cs))).
      * clear. clearbody L. induction cs as [|c t IH] using rev_ind; auto. rewrite app_length. cbn [List.length]. rewrite seq_app. cbn [seq]. rewrite (Nat.add_0_l).
        assert (A : forall (f : R -> option R) l, mapM f (l ++ [c]) = let* u := mapM f l in let* v := f c in Some (u ++ [v])).
        { intros f l. induction l as [|z l IHl]; cbn; [destruct (f c); auto|]. destruct (f z); cbn; auto. rewrite IHl. destruct (mapM f l); cbn; auto. destruct (f c); auto. }
        assert (B : forall (f : nat -> option R) l n, mapM f (l ++ [n]) = let* u := mapM f l in let* v := f n in Some (u ++ [v])).
        { intros f l n. induction l as [|z l IHl]; cbn; [destruct (f n); auto|]. destruct (f z); cbn; auto. rewrite IHl. destruct (mapM f l); cbn; auto. destruct (f n); auto. }
        rewrite A, B, IH. rewrite (app_nth2 t [c]) by lia. rewrite Nat.sub_diag. cbn [nth]. f_equal. apply mapM_ext_in. intros k Hk. apply in_seq in Hk. now rewrite app_nth1 by lia.
      * apply mapM_ext_in. intros k Hk. apply in_seq in Hk. pose proof (interp_node L k (0,0) Hc ltac:(lia) ltac:(lia)) as Hi. rewrite Hg in Hi by lia. cbn [fst snd] in Hi. rewrite Hi. cbn.
        rewrite clip01_id; auto. rewrite Forall_forall in H01. apply H01, nth_In. lia.
    + rewrite mapM_total. f_equal. rewrite <- Hl. clear. induction ys as [|y t IH]; auto. cbn [List.length seq map nth]. f_equal. now rewrite <- seq_shift, map_map.
Qed.
Lemma mapM_Forall : forall {A B} (f : A -> option B) (P : B -> Prop) l l', (forall a b, f a = Some b -> P b) -> mapM f l = Some l' -> Forall P l'.
Proof. intros A B f P l l' Hf H. apply mapM_inv in H. induction H; constructor; eauto. Qed.
Lemma bank_in01 : forall cs b y, (forall a, coeffs b = [a] -> in01 a) -> bank_call cs b = Some y -> Forall in01 y.
Proof.
  intros cs b y Ha H. unfold bank_call in H. destruct (coeffs b) as [|a [|a' t]] eqn:E; [discriminate| |].
  - injection H as <-. apply Forall_forall. intros x Hx. apply repeat_spec in Hx. subst. now apply Ha.
  - destruct (negb _); [discriminate|]. destruct (existsb _ _); [discriminate|]. eapply mapM_Forall; [|exact H]. intros c z Hz. cbn in Hz. destruct (interp_at _ _); [|discriminate]. injection Hz as <-. apply clip01_in.
Qed.
Definition tame (m : bands * bands) : Prop := (forall a, coeffs (fst m) = [a] -> in01 a) /\ (forall a, coeffs (snd m) = [a] -> in01 a).
Lemma resample_idem : forall cs m m', good_centers cs -> tame m -> resample cs m = Some m' -> resample cs m' = Some m'.
Proof.
  intros cs m m' Hg [Ta Ts] H. unfold resample in H. destruct (bank_call cs (fst m)) as [a|] eqn:Ea; [|discriminate]. cbn in H. destruct (bank_call cs (snd m)) as [s|] eqn:Es; [|discriminate]. cbn in H. injection H as <-.
  unfold resample. cbn [fst snd]. rewrite (bank_fixed cs a), (bank_fixed cs s); auto; eauto using bank_length, bank_in01.
Qed.
(** When everything is given at positive, distinct frequencies, resampling succeeds. *)
Definition wf_bands (b : bands) : Prop := coeffs b <> [] /\
  ((1 < List.length (coeffs b))%nat -> exists cf, cfreqs b = Some cf /\ List.length cf = List.length (coeffs b) /\ Forall (fun f => 0 < f) cf /\ NoDup cf).
Lemma nodes_sorted : forall cf ys, List.length cf = List.length ys -> Forall (fun f => 0 < f) cf -> NoDup cf -> StronglySorted below (sort_nodes (combine (map log2 cf) ys)).
Proof.
  intros cf ys Hl Hp Hn. apply sort_sorted. rewrite map_fst_combine by (rewrite map_length; auto). clear - Hp Hn. induction Hn as [|c t Hc Hn IH]; cbn; constructor; inversion Hp; subst; auto.
  intros H. apply in_map_iff in H. destruct H as (c' & E & Hi). apply log2_inj in E; auto; [now subst|]. rewrite Forall_forall in H2. auto.
Qed.
Lemma bank_defined : forall cs b, Forall (fun c => 0 < c) cs -> wf_bands b -> exists y, bank_call cs b = Some y.
Proof.
  intros cs b Hp [Hn Hw]. unfold bank_call. destruct (coeffs b) as [|a [|a' t]] eqn:E; [congruence|eauto|]. destruct Hw as (cf & Ec & El & Hf & Hd); [cbn; lia|]. rewrite Ec, El, Nat.eqb_refl. cbn [negb].
  rewrite existsb_pos by (apply Forall_app; auto). assert (Hs := nodes_sorted cf (a :: a' :: t) El Hf Hd). set (L := sort_nodes _) in *.
  assert (HL : (2 <= List.length L)%nat). { unfold L. rewrite (Permutation_length (sort_perm _)), combine_length, map_length, El. cbn. lia. }
  destruct (mapM_Some (fun c => let* y := interp_at L (log2 c) in Some (clip01 y)) cs) as (y & Hy & _); [|eauto].
  intros c _. destruct (interp_defined L (log2 c) Hs HL) as (y & ->). cbn. eauto.
Qed.
Lemma nth_error_Some_lt : forall {A} (l : list A) i x, nth_error l i = Some x -> (i < List.length l)%nat.
Proof. intros A l i x H. apply nth_error_Some. congruence. Qed.
