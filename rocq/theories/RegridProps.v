(** C132: regular grids on the sphere and the weights of their points. *)
From Coq Require Import Reals List ZArith Lia Lra Bool Permutation Sorted.
From Verif Require Import Base BaseProofs RegridModel.
Import ListNotations.
Local Open Scope R_scope.

(** ** Sorting *)
Notation ssorted := (StronglySorted Rlt).
Lemma insert_u_in x l z : In z (insert_u x l) <-> z = x \/ In z l.
Proof.
  induction l as [|y l IH]; cbn [insert_u]; [cbn; intuition|]. destruct (Rlt_dec x y); [cbn; intuition|]. destruct (Req_EM_T x y) as [->|]; [cbn; intuition|]. cbn [In]. rewrite IH. intuition.
Qed.
Lemma insert_u_sorted x l : ssorted l -> ssorted (insert_u x l).
Proof.
  induction 1 as [|y l HS IH HF]; cbn [insert_u]; [repeat constructor|]. destruct (Rlt_dec x y) as [Hx|Hx].
  - constructor; [constructor; auto|]. constructor; auto. eapply Forall_impl; [|exact HF]. intros; lra.
  - destruct (Req_EM_T x y); [constructor; auto|]. constructor; auto. rewrite Forall_forall in *. intros z Hz. apply insert_u_in in Hz as [->|Hz]; [lra|auto].
Qed.
Lemma unique_in l z : In z (unique l) <-> In z l.
Proof. unfold unique. induction l as [|x l IH]; cbn [fold_right]; [reflexivity|]. rewrite insert_u_in, IH. cbn. intuition. Qed.
Lemma unique_sorted l : ssorted (unique l).
Proof. unfold unique. induction l; cbn [fold_right]; [constructor|now apply insert_u_sorted]. Qed.
Lemma ssorted_ext l l' : ssorted l -> ssorted l' -> (forall z, In z l <-> In z l') -> l = l'.
Proof.
  intros H. revert l'. induction H as [|x l HS IH HF]; intros l' H' E.
  - destruct l' as [|y l']; auto. exfalso. apply (E y). now left.
  - destruct l' as [|y l']; [exfalso; apply (E x); now left|]. inversion H' as [|? ? HS' HF']; subst. rewrite Forall_forall in HF, HF'.
    assert (x = y). { destruct (proj1 (E x) (or_introl eq_refl)) as [<-|Hx]; auto. destruct (proj2 (E y) (or_introl eq_refl)) as [->|Hy]; auto. specialize (HF _ Hy). specialize (HF' _ Hx). lra. }
    subst y. f_equal. apply IH; auto. intros z. specialize (E z). cbn [In] in E. split; intros Hz.
    + destruct (proj1 E (or_intror Hz)) as [->|]; auto. specialize (HF _ Hz). lra.
    + destruct (proj2 E (or_intror Hz)) as [->|]; auto. specialize (HF' _ Hz). lra.
Qed.
Lemma ssorted_nodup l : ssorted l -> NoDup l.
Proof. induction 1 as [|x l HS IH HF]; constructor; auto. intros Hx. rewrite Forall_forall in HF. specialize (HF _ Hx). lra. Qed.

Definition rle (p q : R * R) : Prop := snd p < snd q \/ snd p = snd q /\ fst p <= fst q.
Lemma row_le_spec p q : row_le p q = true <-> rle p q.
Proof. unfold row_le, rle. destruct (Rlt_dec (snd p) (snd q)); [intuition|]. destruct (Req_EM_T (snd p) (snd q)); [|intuition; discriminate || lra]. destruct (Rle_dec (fst p) (fst q)); intuition; try discriminate; try lra. Qed.
Lemma rle_total p q : row_le p q = false -> rle q p.
Proof. unfold row_le, rle. destruct (Rlt_dec (snd p) (snd q)); [discriminate|]. destruct (Req_EM_T (snd p) (snd q)); [|intros _; left; lra]. destruct (Rle_dec (fst p) (fst q)); [discriminate|]. intros _. right. split; lra. Qed.
Lemma rle_trans p q r : rle p q -> rle q r -> rle p r.
Proof. unfold rle. intros [H|[H1 H2]] [H'|[H1' H2']]; [left|left|left|right]; try lra; split; lra. Qed.
Lemma rle_antisym p q : rle p q -> rle q p -> p = q.
Proof. unfold rle. destruct p as [a c], q as [b d]. cbn [fst snd]. intros [H|[H1 H2]] [H'|[H1' H2']]; try lra. f_equal; lra. Qed.
Lemma insert_row_perm p l : Permutation (insert_row p l) (p :: l).
Proof. induction l as [|q l IH]; cbn [insert_row]; auto. destruct (row_le p q); auto. rewrite IH. apply perm_swap. Qed.
Lemma lexsorted_perm l : Permutation (lexsorted l) l.
Proof. unfold lexsorted. induction l; cbn [fold_right]; auto. rewrite insert_row_perm. now constructor. Qed.
Lemma insert_row_sorted p l : StronglySorted rle l -> StronglySorted rle (insert_row p l).
Proof.
  induction 1 as [|q l HS IH HF]; cbn [insert_row]; [repeat constructor|]. destruct (row_le p q) eqn:E.
  - apply row_le_spec in E. constructor; [constructor; auto|]. constructor; auto. eapply Forall_impl; [|exact HF]. intros r Hr. eapply rle_trans; eauto.
  - apply rle_total in E. constructor; auto. rewrite Forall_forall in *. intros r Hr. apply (Permutation_in _ (insert_row_perm p l)) in Hr as [<-|Hr]; auto.
Qed.
Lemma lexsorted_sorted l : StronglySorted rle (lexsorted l).
Proof. unfold lexsorted. induction l; cbn [fold_right]; [constructor|now apply insert_row_sorted]. Qed.
Lemma rsorted_ext l l' : StronglySorted rle l -> StronglySorted rle l' -> Permutation l l' -> l = l'.
Proof.
  intros H. revert l'. induction H as [|x l HS IH HF]; intros l' H' E; [now apply Permutation_nil in E|].
  destruct l' as [|y l']; [symmetry in E; now apply Permutation_nil in E|]. inversion H' as [|? ? HS' HF']; subst. rewrite Forall_forall in HF, HF'.
  assert (x = y). { destruct (Permutation_in x E (or_introl eq_refl)) as [<-|Hx]; auto. symmetry in E. destruct (Permutation_in y E (or_introl eq_refl)) as [->|Hy]; auto. apply rle_antisym; auto. }
  subst y. f_equal. apply IH; auto. now apply Permutation_cons_inv in E.
Qed.
Lemma meshgrid_in A C p : In p (meshgrid A C) <-> In (fst p) A /\ In (snd p) C.
Proof.
  unfold meshgrid. rewrite in_flat_map. split.
  - intros (c & Hc & Hp). apply in_map_iff in Hp as (a & <- & Ha). auto.
  - intros [Ha Hc]. exists (snd p). split; auto. apply in_map_iff. exists (fst p). split; auto. now destruct p.
Qed.
Lemma ssorted_app {T} (Rel : T -> T -> Prop) l l' : StronglySorted Rel l -> StronglySorted Rel l' -> (forall x y, In x l -> In y l' -> Rel x y) -> StronglySorted Rel (l ++ l').
Proof. induction 1 as [|x l HS IH HF]; intros H' E; cbn [app]; auto. constructor; [apply IH; auto; intros; apply E; [now right|auto]|]. apply Forall_app. split; auto. rewrite Forall_forall. intros y Hy. apply E; auto. now left. Qed.
Lemma row_sorted A c : ssorted A -> StronglySorted rle (map (fun a => (a, c)) A).
Proof. induction 1 as [|a A HA' IHA HFA]; cbn [map]; constructor; auto. rewrite Forall_forall in *. intros p Hp. apply in_map_iff in Hp as (b & <- & Hb). right. cbn. split; auto. specialize (HFA _ Hb). lra. Qed.
Lemma meshgrid_sorted A C : ssorted A -> ssorted C -> StronglySorted rle (meshgrid A C).
Proof.
  intros HA. induction 1 as [|c C HS IH HF]; cbn [meshgrid flat_map]; [constructor|]. apply ssorted_app; [|exact IH|].
  - now apply row_sorted.
  - intros x y Hx Hy. apply in_map_iff in Hx as (a & <- & _). change (flat_map _ C) with (meshgrid A C) in Hy. apply meshgrid_in in Hy as [_ Hy]. rewrite Forall_forall in HF. left. cbn. auto.
Qed.
Lemma lexsorted_mesh A C : ssorted A -> ssorted C -> lexsorted (meshgrid A C) = meshgrid A C.
Proof. intros HA HC. apply rsorted_ext; [apply lexsorted_sorted|now apply meshgrid_sorted|apply lexsorted_perm]. Qed.
Lemma meshgrid_length A C : length (meshgrid A C) = (length A * length C)%nat.
Proof. induction C as [|c C IH]; cbn [meshgrid flat_map length]; [lia|]. rewrite app_length, map_length. change (length (flat_map _ C)) with (length (meshgrid A C)). rewrite IH. lia. Qed.
Lemma close_refl x : close x x = true.
Proof. unfold close. destruct (Rle_dec _ _) as [|N]; auto. exfalso. apply N. rewrite Rminus_diag_eq by auto. rewrite Rabs_R0. pose proof (Rabs_pos x). lra. Qed.
Lemma all_close_refl l : all_close l l = true.
Proof. induction l; cbn; auto. now rewrite !close_refl, IHl. Qed.

(** ** What is recognised *)
(** evenly spread around the circle *)
Definition evenly_spread (A : list R) : Prop := exists a0, A = map (fun k => a0 + INR k * (2 * PI / INR (length A))) (seq 0 (length A)).
Lemma diffs_arith a d s n : diffs (map (fun k => a + INR k * d) (seq s n)) = repeat d (n - 1).
Proof.
  revert s. induction n as [|n IH]; intros s; [reflexivity|]. destruct n as [|n]; [reflexivity|]. specialize (IH (S s)). cbn [seq map diffs Nat.sub repeat] in *. rewrite Nat.sub_0_r in IH. rewrite IH. f_equal. rewrite S_INR. ring.
Qed.
Lemma fst_combine (az col : list R) : length az = length col -> map fst (combine az col) = az.
Proof. revert col. induction az as [|a az IH]; intros [|c col] H; try discriminate; auto. cbn. f_equal. apply IH. now injection H. Qed.
Lemma snd_combine (az col : list R) : length az = length col -> map snd (combine az col) = col.
Proof. revert col. induction az as [|a az IH]; intros [|c col] H; try discriminate; auto. cbn. f_equal. apply IH. now injection H. Qed.
Lemma unique_mesh_fst A C l : ssorted A -> C <> [] -> Permutation l (meshgrid A C) -> unique (map fst l) = A.
Proof.
  intros HA HC HP. apply ssorted_ext; auto; [apply unique_sorted|]. intros z. rewrite unique_in, in_map_iff. split.
  - intros (p & <- & Hp). apply (Permutation_in _ HP), meshgrid_in in Hp. tauto.
  - intros Hz. destruct C as [|c C]; [easy|]. exists (z, c). split; auto. symmetry in HP. apply (Permutation_in _ HP). apply meshgrid_in. cbn. auto.
Qed.
Lemma unique_mesh_snd A C l : ssorted C -> A <> [] -> Permutation l (meshgrid A C) -> unique (map snd l) = C.
Proof.
  intros HA HC HP. apply ssorted_ext; auto; [apply unique_sorted|]. intros z. rewrite unique_in, in_map_iff. split.
  - intros (p & <- & Hp). apply (Permutation_in _ HP), meshgrid_in in Hp. tauto.
  - intros Hz. destruct A as [|c A]; [easy|]. exists (c, z). split; auto. symmetry in HP. apply (Permutation_in _ HP). apply meshgrid_in. cbn. auto.
Qed.
(** The points of a grid - evenly spread azimuths, any colatitudes, in any order - are recognised, and the distinct
    azimuths and colatitudes returned in increasing order. *)
Theorem C132_complete : forall az col A C, length az = length col -> A <> [] -> C <> [] -> ssorted A -> ssorted C -> evenly_spread A -> Permutation (combine az col) (meshgrid A C) ->
  detect_regular_grid az col = Some (Some (A, C)).
Proof.
  intros az col A C HL NA NC HA HC [a0 HE] HP. pose proof (unique_mesh_fst A C _ HA NC HP) as E1. rewrite fst_combine in E1 by auto. pose proof (unique_mesh_snd A C _ HC NA HP) as E2. rewrite snd_combine in E2 by auto.
  unfold detect_regular_grid. rewrite HL, Nat.eqb_refl. cbn [negb]. cbv zeta. rewrite E1, E2. assert (EL : (length A * length C = length col)%nat). { rewrite <- meshgrid_length, <- (Permutation_length HP), combine_length. lia. }
  rewrite EL, Nat.eqb_refl. cbn [negb]. assert (HA0 : exists b A', A = b :: A') by (destruct A as [|b A']; [easy|eauto]). destruct HA0 as (b & A' & EA). rewrite EA at 1.
  assert (Eb : b = a0). { pose proof HE as HE'. rewrite EA in HE'. cbn [length seq map] in HE'. injection HE' as Hb _. cbn [INR] in Hb. lra. } subst b.
  set (n := length A) in *. assert (Hn : (0 < n)%nat) by (unfold n; rewrite EA; cbn; lia).
  assert (ED : diffs (A ++ [a0 + 2 * PI]) = repeat (2 * PI / INR n) n).
  { replace (A ++ [a0 + 2 * PI]) with (map (fun k => a0 + INR k * (2 * PI / INR n)) (seq 0 (n + 1))); [rewrite diffs_arith; f_equal; lia|]. rewrite seq_app, map_app. f_equal; [symmetry; exact HE|]. cbn [seq map Nat.add]. f_equal. field. apply not_0_INR. lia. }
  rewrite ED. replace (forallb _ (repeat (2 * PI / INR n) n)) with true; [|symmetry; apply forallb_forall; intros x Hx; apply repeat_spec in Hx as ->; apply close_refl]. cbn [negb].
  replace (lexsorted (combine az col)) with (lexsorted (meshgrid A C)); [now rewrite all_close_refl|]. apply rsorted_ext; try apply lexsorted_sorted. rewrite !lexsorted_perm. now symmetry.
Qed.
Print Assumptions C132_complete.

(** ** Only grids are recognised *)
Lemma close_spec a b : close a b = true <-> Rabs (a - b) <= / 100000000 + / 100000 * Rabs b.
Proof. unfold close. destruct (Rle_dec _ _); split; intros; auto; try discriminate; contradiction. Qed.
Lemma gaps_sorted g l : 0 <= g -> Forall (fun d => g <= d) (diffs l) -> StronglySorted (fun x y => x + g <= y) l.
Proof.
  intros Hg. induction l as [|a l IH]; intros H; [constructor|]. destruct l as [|b l]; [repeat constructor|]. cbn [diffs] in H. inversion H as [|? ? H1 H2]; subst. specialize (IH H2). constructor; auto. constructor; [lra|].
  inversion IH as [|? ? HS HF]; subst. eapply Forall_impl; [|exact HF]. cbn. intros; lra.
Qed.
Lemma diffs_app l x : incl (diffs l) (diffs (l ++ [x])).
Proof. induction l as [|a l IH]; [easy|]. destruct l as [|b l]; [easy|]. cbn [app diffs] in *. intros z [<-|Hz]; [now left|right; now apply IH]. Qed.
Lemma spread_apart g l : StronglySorted (fun x y => x + g <= y) l -> forall x y, In x l -> In y l -> x <> y -> g <= Rabs (x - y).
Proof.
  induction 1 as [|a l HS IH HF]; [easy|]; intros x y [<-|Hx] [<-|Hy] N; try contradiction; auto; rewrite Forall_forall in HF.
  - specialize (HF _ Hy). cbn in HF. rewrite Rabs_minus_sym. pose proof (Rle_abs (y - a)). lra.
  - specialize (HF _ Hx). cbn in HF. pose proof (Rle_abs (x - a)). lra.
Qed.
Definition blocks (A : list R) (m : nat) : list R := flat_map (fun _ => A) (seq 0 m).
Lemma blocks_S A m : blocks A (S m) = A ++ blocks A m.
Proof. unfold blocks. cbn [seq flat_map]. f_equal. rewrite <- seq_shift, flat_map_concat_map, map_map, <- flat_map_concat_map. reflexivity. Qed.
Lemma mesh_fst A C : map fst (meshgrid A C) = blocks A (length C).
Proof. induction C as [|c C IH]; [reflexivity|]. cbn [meshgrid flat_map length]. rewrite map_app, map_map. cbn [fst]. rewrite map_id, blocks_S. f_equal. exact IH. Qed.
Lemma ssorted_app_inv {T} (Rel : T -> T -> Prop) l l' : StronglySorted Rel (l ++ l') -> StronglySorted Rel l /\ StronglySorted Rel l' /\ (forall x y, In x l -> In y l' -> Rel x y).
Proof.
  induction l as [|a l IH]; cbn [app]; intros H; [split; [constructor|split; [auto|easy]]|]. inversion H as [|? ? HS HF]; subst. destruct (IH HS) as (H1 & H2 & H3). apply Forall_app in HF as [F1 F2]. split; [now constructor|]. split; auto. intros x y [<-|Hx] Hy; auto. rewrite Forall_forall in F2. auto.
Qed.
(** sorted rows whose azimuths run through A again and again, with as many rounds as colatitudes *)
Lemma rows_grid a b A C L : ssorted (a :: A) -> In b A -> ssorted C -> StronglySorted rle L -> map fst L = blocks (a :: A) (length C) -> (forall p, In p L -> In (snd p) C) -> L = meshgrid (a :: A) C.
Proof.
  intros HA HB. assert (Hab : a < b) by (inversion HA as [|? ? ? HF]; subst; rewrite Forall_forall in HF; auto). intros HC. revert L. induction HC as [|c C HS IH HF]; intros L HL HFst HIn; [destruct L; [reflexivity|discriminate]|].
  cbn [length] in HFst. rewrite blocks_S in HFst. set (n := length (a :: A)) in *. rewrite <- (firstn_skipn n L) in *. set (L1 := firstn n L) in *. set (L2 := skipn n L) in *.
  rewrite map_app in HFst. assert (LN : (n <= length L)%nat). { pose proof (f_equal (@length R) HFst) as E. rewrite !app_length, !map_length in E. unfold L1, L2 in E. rewrite firstn_length, skipn_length in E. fold n in E. lia. }
  assert (F12 : map fst L1 = a :: A /\ map fst L2 = blocks (a :: A) (length C)); [|destruct F12 as [F1 F2]].
  - assert (LL : length (map fst L1) = n) by (rewrite map_length; unfold L1; rewrite firstn_length; lia). clear - HFst LL. revert HFst LL. generalize (map fst L1) (map fst L2) (blocks (a :: A) (length C)). unfold n. generalize (a :: A). clear. intros l. induction l as [|x l IHl]; intros [|y l1] l2 l3 H LL; try discriminate; auto. cbn [app] in H. injection H as -> H. injection LL as LL. destruct (IHl _ _ _ H LL) as [-> ->]. auto.
  - destruct (ssorted_app_inv _ _ _ HL) as (S1 & S2 & S12). rewrite Forall_forall in HF.
    assert (Hb : exists pb, In pb L1 /\ fst pb = b). { assert (H : In b (map fst L1)) by (rewrite F1; now right). apply in_map_iff in H as (pb & E & H). eauto. } destruct Hb as (pb & Ib & Fb).
    assert (G1 : forall p, In p L1 -> c <= snd p). { intros p Hp. destruct (HIn p) as [->|H]; [apply in_app_iff; auto|lra|specialize (HF _ H); lra]. }
    assert (R2 : forall p, In p L2 -> c < snd p).
    { destruct L2 as [|q L2]; [easy|]. assert (Fq : fst q = a). { destruct C as [|c' C]; [discriminate|]. cbn [length] in F2. rewrite blocks_S in F2. now injection F2. }
      assert (Hq : snd pb < snd q). { destruct (S12 pb q Ib (or_introl eq_refl)) as [|[_ H]]; auto. rewrite Fb, Fq in H. lra. }
      pose proof (G1 pb Ib). intros p [<-|Hp]; [lra|]. inversion S2 as [|? ? _ HFq]; subst. rewrite Forall_forall in HFq. destruct (HFq _ Hp) as [|[]]; lra. }
    assert (E2 : L2 = meshgrid (a :: A) C). { apply IH; auto. intros p Hp. destruct (HIn p) as [E|]; auto; [apply in_app_iff; auto|]. specialize (R2 p Hp). lra. }
    assert (E1 : forall p, In p L1 -> snd p = c).
    { intros p Hp. destruct C as [|c' C].
      - destruct (HIn p) as [|[]]; auto. apply in_app_iff; auto.
      - assert (Iq : In (a, c') L2) by (rewrite E2; apply meshgrid_in; cbn; auto). assert (Hb : snd pb < c'). { destruct (S12 pb (a, c') Ib Iq) as [H|[_ H]]; auto. cbn in H. lra. }
        assert (Hpb : forall p, In p L1 -> snd p < c' -> snd p = c). { intros r Hr Lr. destruct (HIn r) as [|[E|H]]; auto; [apply in_app_iff; auto|lra|]. inversion HS as [|? ? _ HF']; subst. rewrite Forall_forall in HF'. specialize (HF' _ H). lra. }
        apply Hpb; auto. destruct (S12 p (a, c') Hp Iq) as [H|[H1 H2]]; auto. exfalso. cbn [fst snd] in H1, H2.
        (* p has azimuth a, hence comes before pb *)
        assert (Fa : In (fst p) (a :: A)) by (rewrite <- F1; now apply in_map). assert (Ep : fst p = a). { destruct Fa as [|Fa]; auto. inversion HA as [|? ? _ HFA]; subst. rewrite Forall_forall in HFA. specialize (HFA _ Fa). lra. }
        destruct L1 as [|p0 L1']; [easy|]. cbn [map] in F1. injection F1 as F0 F1. assert (p = p0). { destruct Hp as [|Hp]; auto. exfalso. assert (In (fst p) A) by (rewrite <- F1; now apply in_map). inversion HA as [|? ? _ HFA]; subst. rewrite Forall_forall in HFA. specialize (HFA _ H). lra. }
        subst p0. destruct Ib as [->|Ib]; [lra|]. inversion S1 as [|? ? _ HFp]; subst. rewrite Forall_forall in HFp. destruct (HFp _ Ib) as [|[]]; lra. }
    cbn [meshgrid flat_map]. f_equal; [|exact E2]. rewrite <- F1, map_map. rewrite <- (map_id L1) at 1. apply map_ext_in. intros p Hp. rewrite <- (E1 p Hp). now destruct p.
Qed.
Lemma all_close_fst A : (forall x y, In x A -> In y A -> close x y = true -> x = y) -> forall l l', all_close l l' = true -> (forall p, In p l -> In (fst p) A) -> (forall p, In p l' -> In (fst p) A) -> map fst l' = map fst l.
Proof.
  intros HA. induction l as [|p l IH]; intros [|q l'] H H1 H2; try discriminate; auto. cbn [all_close] in H. apply andb_prop in H as [H H3]. apply andb_prop in H as [H _]. cbn [map]. f_equal; [|apply IH; auto; intros; [apply H1|apply H2]; now right]. symmetry. apply HA; auto; [apply H1|apply H2]; now left.
Qed.
(** Whatever is recognised as a regular grid is one exactly: every pair of an azimuth and a colatitude is there once. *)
Theorem C132_sound : forall az col A C, detect_regular_grid az col = Some (Some (A, C)) -> (forall a, In a az -> 0 <= a < 2 * PI) -> (Z.of_nat (length A) <= 50000)%Z ->
  ssorted A /\ ssorted C /\ A <> [] /\ C <> [] /\ Permutation (combine az col) (meshgrid A C) /\ length az = length col /\
  (forall d, In d (diffs (A ++ [hd 0 A + 2 * PI])) -> Rabs (d - 2 * PI / INR (length A)) <= / 100000000 + / 100000 * (2 * PI / INR (length A))).
Proof.
  intros az col A C H HR HN. unfold detect_regular_grid in H. destruct (Nat.eqb_spec (length az) (length col)) as [HL|]; [|discriminate]. cbn [negb] in H. cbv zeta in H. destruct (Nat.eqb_spec (length (unique az) * length (unique col)) (length az)) as [HM|]; [|discriminate]. cbn [negb] in H.
  pose proof (unique_sorted az) as SA. pose proof (unique_sorted col) as SC. assert (IA := unique_in az). assert (IC := unique_in col). destruct (unique az) as [|a0 A0] eqn:EA; [discriminate|]. set (A1 := a0 :: A0) in *. set (C1 := unique col) in *.
  destruct (forallb _ (diffs (A1 ++ [a0 + 2 * PI]))) eqn:EF; [|discriminate]. cbn [negb] in H. destruct (all_close _ _) eqn:EC; [|discriminate]. injection H as <- <-.
  set (n := length A1) in *. assert (Hn : (0 < n)%nat) by (unfold n, A1; cbn; lia). pose proof PI_RGT_0 as HPI. pose proof PI_4 as HPI4. assert (Pn : 0 < INR n) by now apply lt_0_INR. set (w := 2 * PI / INR n) in *. assert (Pw : 0 < w) by (unfold w; apply Rdiv_lt_0_compat; lra).
  assert (EF' : forall d, In d (diffs (A1 ++ [a0 + 2 * PI])) -> Rabs (d - w) <= / 100000000 + / 100000 * w). { intros d Hd. rewrite forallb_forall in EF. specialize (EF d Hd). apply close_spec in EF. now rewrite (Rabs_right w) in EF by lra. }
  assert (NC : C1 <> []). { intros E. rewrite E in HM. cbn in HM. rewrite Nat.mul_0_r in HM. destruct az as [|a az]; [|discriminate]. cbn in EA. discriminate. }
  split; [exact SA|]. split; [exact SC|]. split; [discriminate|]. split; [exact NC|]. split; [|split; [exact HL|exact EF']].
  rewrite lexsorted_mesh in EC by auto. rewrite <- (lexsorted_perm (combine az col)). set (L := lexsorted (combine az col)) in *.
  assert (IL : forall p, In p L -> In (fst p) A1 /\ In (snd p) C1). { intros p Hp. apply (Permutation_in _ (lexsorted_perm _)) in Hp. destruct p as [x y]. split; [apply IA; eapply in_combine_l; eauto|apply IC; eapply in_combine_r; eauto]. }
  destruct A0 as [|b A0].
  - (* one azimuth: as many points as colatitudes *)
    assert (ND : NoDup (map snd L)).
    { apply (NoDup_incl_NoDup (l := C1)); [now apply ssorted_nodup| |].
      - rewrite map_length. unfold L. rewrite (Permutation_length (lexsorted_perm _)), combine_length. unfold n, A1 in HM. cbn [length] in HM. lia.
      - intros c Hc. apply IC in Hc. rewrite <- (snd_combine az col HL) in Hc. apply in_map_iff in Hc as (p & <- & Hp). apply in_map. now apply (Permutation_in _ (Permutation_sym (lexsorted_perm _))). }
    apply NoDup_Permutation; [now apply NoDup_map_inv in ND| |].
    + assert (NDC := ssorted_nodup _ SC). clear - NDC. unfold A1. induction NDC as [|c C Hc ND IH]; [constructor|]. cbn [meshgrid flat_map map app]. constructor; [|exact IH]. intros H. change (flat_map _ C) with (meshgrid [a0] C) in H. apply meshgrid_in in H as [_ H]. contradiction.
    + intros p. rewrite meshgrid_in. split; [apply IL|]. intros [H1 H2]. apply IC in H2. rewrite <- (snd_combine az col HL) in H2. apply in_map_iff in H2 as (q & E & Hq). apply (Permutation_in _ (Permutation_sym (lexsorted_perm _))) in Hq. fold L in Hq. replace p with q; auto. destruct (IL q Hq) as [H1' _]. destruct p, q. cbn in *. destruct H1 as [<-|[]], H1' as [<-|[]]. now subst.
  - assert (Hn2 : w <= 2 * PI). { unfold w. apply (Rmult_le_reg_r (INR n)); auto. unfold Rdiv. rewrite Rmult_assoc, Rinv_l by lra. assert (1 <= INR n) by (apply (le_INR 1); lia). nra. }
    assert (Hw : 2 * PI / 50000 <= w). { unfold w, Rdiv. apply Rmult_le_compat_l; [lra|]. apply Rinv_le_contravar; auto. rewrite INR_IZR_INZ. now apply IZR_le. }
    assert (PI3 : 3 < PI) by (pose proof PI2_3_2; unfold PI2 in *; lra).
    set (g := w - (/ 100000000 + / 100000 * w)). assert (Hg : / 100000000 + / 100000 * (2 * PI) < g) by (unfold g; lra).
    assert (SP : StronglySorted (fun x y => x + g <= y) A1).
    { apply gaps_sorted; [lra|]. rewrite Forall_forall. intros d Hd. apply (diffs_app A1 (a0 + 2 * PI)) in Hd. specialize (EF' d Hd). unfold g. apply Rabs_le_inv in EF' || idtac. revert EF'. unfold Rabs. destruct (Rcase_abs (d - w)); intros; lra. }
    assert (AP : forall x y, In x A1 -> In y A1 -> close x y = true -> x = y).
    { intros x y Hx Hy HC. apply close_spec in HC. destruct (Req_EM_T x y); auto. exfalso. pose proof (spread_apart g A1 SP x y Hx Hy n0) as Hge. assert (Ry : 0 <= y < 2 * PI) by (apply HR, IA; exact Hy). rewrite (Rabs_right y) in HC by lra. lra. }
    assert (EL : map fst L = blocks A1 (length C1)). { rewrite (all_close_fst A1 AP (meshgrid A1 C1) L EC); [apply mesh_fst|intros p Hp; now apply meshgrid_in in Hp|intros p Hp; now apply IL]. }
    rewrite (rows_grid a0 b (b :: A0) C1 L SA (or_introl eq_refl) SC (lexsorted_sorted _) EL); [reflexivity|]. intros p Hp. now apply IL.
Qed.
Print Assumptions C132_sound.

(** ** Weights *)
Lemma diffs_length l : length (diffs l) = (length l - 1)%nat.
Proof. induction l as [|a l IH]; [reflexivity|]. destruct l as [|b l]; [reflexivity|]. cbn [diffs length] in *. lia. Qed.
Lemma diffs_nth l i : (S i < length l)%nat -> nth i (diffs l) 0 = nth (S i) l 0 - nth i l 0.
Proof. revert i. induction l as [|a l IH]; intros i H; [cbn in H; lia|]. destruct l as [|b l]; [cbn in H; lia|]. destruct i as [|i]; [reflexivity|]. cbn [diffs]. cbn [nth]. rewrite IH by (cbn [length] in *; lia). reflexivity. Qed.
Lemma mid_length l : length (midpoints l) = (length l - 1)%nat.
Proof. induction l as [|a l IH]; [reflexivity|]. destruct l as [|b l]; [reflexivity|]. cbn [midpoints length] in *. lia. Qed.
Lemma mid_nth l i : (S i < length l)%nat -> nth i (midpoints l) 0 = (nth i l 0 + nth (S i) l 0) / 2.
Proof. revert i. induction l as [|a l IH]; intros i H; [cbn in H; lia|]. destruct l as [|b l]; [cbn in H; lia|]. destruct i as [|i]; [reflexivity|]. cbn [midpoints]. cbn [nth]. rewrite IH by (cbn [length] in *; lia). reflexivity. Qed.
Lemma diffs_sum l : Rsum (diffs l) = last l 0 - hd 0 l.
Proof.
  induction l as [|a l IH]; [cbn; ring|]. destruct l as [|b l]; [cbn; ring|]. change (Rsum (diffs (a :: b :: l))) with ((b - a) + Rsum (diffs (b :: l))). rewrite IH. change (last (a :: b :: l) 0) with (last (b :: l) 0). cbn [hd]. ring.
Qed.
Lemma ssorted_nth l i j : ssorted l -> (i < j < length l)%nat -> nth i l 0 < nth j l 0.
Proof.
  intros H. revert i j. induction H as [|a l HS IH HF]; intros i j Hij; [cbn in Hij; lia|]. destruct j as [|j]; [lia|]. cbn [length] in Hij. destruct i as [|i]; cbn [nth]; [|apply IH; lia]. rewrite Forall_forall in HF. apply HF, nth_In. lia.
Qed.
Definition lo (C : list R) (i : nat) : R := nth i (borders C) 0.
Definition hi (C : list R) (i : nat) : R := nth (S i) (borders C) 0.
Lemma borders_length C : C <> [] -> length (borders C) = S (length C).
Proof. intros H. unfold borders. cbn [length]. rewrite app_length, mid_length. cbn [length]. destruct C; [easy|cbn [length]; lia]. Qed.
Lemma lo_val C i : (i < length C)%nat -> lo C i = match i with O => 0 | S k => (nth k C 0 + nth i C 0) / 2 end.
Proof. intros Hi. unfold lo, borders. destruct i as [|k]; [reflexivity|]. cbn [nth]. rewrite app_nth1 by (rewrite mid_length; lia). now apply mid_nth. Qed.
Lemma hi_val C i : (i < length C)%nat -> hi C i = if Nat.eqb (S i) (length C) then PI else (nth i C 0 + nth (S i) C 0) / 2.
Proof.
  intros Hi. unfold hi, borders. cbn [nth]. destruct (Nat.eqb_spec (S i) (length C)) as [E|E].
  - rewrite app_nth2 by (rewrite mid_length; lia). rewrite mid_length. replace (i - (length C - 1))%nat with 0%nat by lia. reflexivity.
  - rewrite app_nth1 by (rewrite mid_length; lia). apply mid_nth. lia.
Qed.
Section Cells.
Variable C : list R.
Hypotheses (SC : ssorted C) (RC : forall c, In c C -> 0 <= c <= PI).
Lemma rng i : (i < length C)%nat -> 0 <= nth i C 0 <= PI.
Proof. intros H. now apply RC, nth_In. Qed.
Lemma cell_in i : (i < length C)%nat -> lo C i <= nth i C 0 <= hi C i /\ lo C i < hi C i /\ 0 <= lo C i /\ hi C i <= PI.
Proof.
  intros Hi. rewrite lo_val, hi_val by auto. pose proof (rng i Hi). pose proof PI_RGT_0.
  assert (L : match i with O => 0 | S k => (nth k C 0 + nth i C 0) / 2 end <= nth i C 0 /\ 0 <= match i with O => 0 | S k => (nth k C 0 + nth i C 0) / 2 end /\ (i <> 0%nat -> match i with O => 0 | S k => (nth k C 0 + nth i C 0) / 2 end < nth i C 0)).
  { destruct i as [|k]; [repeat split; try lra; lia|]. pose proof (ssorted_nth C k (S k) SC ltac:(lia)). pose proof (rng k ltac:(lia)). repeat split; try intros _; lra. }
  destruct (Nat.eqb_spec (S i) (length C)) as [E|E].
  - destruct i as [|k]; [repeat split; lra|]. destruct L as (L1 & L2 & L3). specialize (L3 ltac:(lia)). repeat split; lra.
  - pose proof (ssorted_nth C i (S i) SC ltac:(lia)). pose proof (rng (S i) ltac:(lia)). destruct L as (L1 & L2 & L3). repeat split; lra.
Qed.
Lemma cell_nearest i th : (i < length C)%nat -> 0 <= th <= PI -> (lo C i <= th <= hi C i <-> forall c, In c C -> Rabs (th - nth i C 0) <= Rabs (th - c)).
Proof.
  intros Hi Ht. rewrite lo_val, hi_val by auto. split.
  - intros [H1 H2] c Hc. apply (In_nth _ _ 0) in Hc as (j & Hj & <-). destruct (lt_eq_lt_dec j i) as [[Hji| ->]|Hji]; [|lra|].
    + destruct i as [|k]; [lia|]. pose proof (ssorted_nth C k (S k) SC ltac:(lia)). assert (nth j C 0 <= nth k C 0) by (destruct (Nat.eq_dec j k) as [->|]; [lra|apply Rlt_le, ssorted_nth; auto; lia]). unfold Rabs. destruct (Rcase_abs _), (Rcase_abs _); lra.
    + destruct (Nat.eqb_spec (S i) (length C)); [lia|]. pose proof (ssorted_nth C i (S i) SC ltac:(lia)). assert (nth (S i) C 0 <= nth j C 0) by (destruct (Nat.eq_dec j (S i)) as [->|]; [lra|apply Rlt_le, ssorted_nth; auto; lia]). unfold Rabs. destruct (Rcase_abs _), (Rcase_abs _); lra.
  - intros H. split.
    + destruct i as [|k]; [lra|]. pose proof (ssorted_nth C k (S k) SC ltac:(lia)). specialize (H (nth k C 0) ltac:(apply nth_In; lia)). revert H. unfold Rabs. destruct (Rcase_abs _), (Rcase_abs _); lra.
    + destruct (Nat.eqb_spec (S i) (length C)); [lra|]. pose proof (ssorted_nth C i (S i) SC ltac:(lia)). specialize (H (nth (S i) C 0) ltac:(apply nth_In; lia)). revert H. unfold Rabs. destruct (Rcase_abs _), (Rcase_abs _); lra.
Qed.
End Cells.
Lemma nth_map_lt (f : R -> R) l i : (i < length l)%nat -> nth i (map f l) 0 = f (nth i l 0).
Proof. intros H. rewrite (nth_indep _ 0 (f 0)) by now rewrite map_length. apply map_nth. Qed.
Lemma areas_length C n : C <> [] -> length (band_areas C n) = length C.
Proof. intros H. unfold band_areas. rewrite map_length, diffs_length, map_length, borders_length by auto. lia. Qed.
Lemma areas_nth C n i : (i < length C)%nat -> nth i (band_areas C n) 0 = (cos (lo C i) - cos (hi C i)) * (2 * PI / INR n).
Proof.
  intros Hi. assert (N : C <> []) by (intros ->; cbn in Hi; lia). unfold band_areas. rewrite nth_map_lt by (rewrite diffs_length, map_length, borders_length; auto; lia).
  rewrite diffs_nth by (rewrite map_length, borders_length; auto; lia). rewrite !nth_map_lt by (rewrite borders_length; auto; lia). unfold lo, hi. ring.
Qed.
Lemma last_map_cos l x : last (map cos (l ++ [x])) 0 = cos x.
Proof. rewrite map_app. cbn [map]. now rewrite last_last. Qed.
Lemma Rsum_scal k l : Rsum (map (fun d => d * k) l) = Rsum l * k.
Proof. unfold Rsum. induction l as [|a l IH]; cbn [map fold_right]; [ring|]. rewrite IH. ring. Qed.
Lemma Rsum_perm l l' : Permutation l l' -> Rsum l = Rsum l'.
Proof. unfold Rsum. induction 1; cbn [fold_right]; lra. Qed.
Lemma areas_sum C n : C <> [] -> (0 < n)%nat -> Rsum (band_areas C n) = 4 * PI / INR n.
Proof.
  intros HC Hn. unfold band_areas. rewrite (map_ext _ (fun d => d * (- (2 * PI / INR n)))) by (intros; ring). rewrite Rsum_scal, diffs_sum. unfold borders. change (0 :: midpoints C ++ [PI]) with ((0 :: midpoints C) ++ [PI]). rewrite last_map_cos. cbn [app map hd]. rewrite cos_0, cos_PI. field. apply not_0_INR. lia.
Qed.
Lemma Rsum_const {T} (l : list T) k : Rsum (map (fun _ => k) l) = INR (length l) * k.
Proof. unfold Rsum. induction l as [|a l IH]; [cbn; ring|]. cbn [map fold_right length]. rewrite S_INR, IH. ring. Qed.
Lemma lookup_nth : forall ks ws i, NoDup ks -> length ks = length ws -> (i < length ks)%nat -> lookup (nth i ks 0) (combine ks ws) = Some (nth i ws 0).
Proof.
  induction ks as [|k ks IH]; intros [|w ws] i ND HL Hi; cbn [length] in *; try lia. inversion ND as [|? ? N1 N2]; subst. destruct i as [|i]; cbn [nth combine lookup]; [destruct (Req_EM_T k k); [reflexivity|contradiction]|].
  destruct (Req_EM_T (nth i ks 0) k) as [E|_]; [exfalso; apply N1; rewrite <- E; apply nth_In; lia|]. apply IH; auto; lia.
Qed.
(** The weights of the points of a regular grid are positive and sum to one.  That of a point is the share of the sphere
    whose colatitude is nearest to that of the point, divided among the azimuths. *)
Theorem C132_weights : forall az col A C, detect_regular_grid az col = Some (Some (A, C)) -> (forall a, In a az -> 0 <= a < 2 * PI) -> (Z.of_nat (length A) <= 50000)%Z -> (forall c, In c col -> 0 <= c <= PI) ->
  exists w, grid_weights col C (length A) = Some w /\ length w = length col /\ Rsum w = 1 /\
    forall i, (i < length col)%nat -> 0 < nth i w 0 /\ exists l h, 0 <= l < h /\ h <= PI /\ nth i w 0 = (cos l - cos h) / 2 / INR (length A) /\
      forall th, 0 <= th <= PI -> (l <= th <= h <-> forall c, In c col -> Rabs (th - nth i col 0) <= Rabs (th - c)).
Proof.
  intros az col A C HD HR HN HC. destruct (C132_sound az col A C HD HR HN) as (SA & SC & NA & NC & HP & HL & _). pose proof PI_RGT_0 as HPI.
  assert (Hn : (0 < length A)%nat) by (destruct A; [easy|cbn; lia]). assert (Pn : 0 < INR (length A)) by now apply lt_0_INR. set (n := length A) in *. assert (HPc : Permutation col (map snd (meshgrid A C))) by (rewrite <- (snd_combine az col HL); now apply Permutation_map).
  assert (IC : forall c, In c C <-> In c col). { intros c. split; intros H. - destruct A as [|a A]; [easy|]. symmetry in HPc. apply (Permutation_in _ HPc). apply in_map_iff. exists (a, c). split; auto. apply meshgrid_in. cbn. auto. - apply (Permutation_in _ HPc) in H. apply in_map_iff in H as (p & <- & H). now apply meshgrid_in in H. }
  assert (RC : forall c, In c C -> 0 <= c <= PI) by (intros; apply HC, IC; auto).
  set (F := fun c => match lookup c (combine C (band_areas C n)) with Some w => w / (4 * PI) | None => 0 end).
  assert (EF : forall i, (i < length C)%nat -> lookup (nth i C 0) (combine C (band_areas C n)) = Some (nth i (band_areas C n) 0)). { intros i Hi. apply lookup_nth; auto; [now apply ssorted_nodup|now rewrite areas_length]. }
  assert (EW : grid_weights col C n = Some (map F col)).
  { unfold grid_weights. rewrite <- mapM_total. apply mapM_ext_in. intros c Hc. apply IC, (In_nth _ _ 0) in Hc as (i & Hi & <-). unfold F. rewrite EF by auto. reflexivity. }
  exists (map F col). split; [exact EW|]. split; [apply map_length|]. split.
  - rewrite (Rsum_perm _ (map F (map snd (meshgrid A C)))) by now apply Permutation_map. assert (E1 : forall D, Rsum (map F (map snd (meshgrid A D))) = INR n * Rsum (map F D)).
    { induction D as [|c D IH]; [unfold Rsum; cbn; ring|]. cbn [meshgrid flat_map]. rewrite !map_app, Rsum_app. change (flat_map _ D) with (meshgrid A D). rewrite IH. rewrite !map_map. cbn [snd]. rewrite Rsum_const. fold n. unfold Rsum. cbn [map fold_right]. ring. }
    rewrite E1. replace (map F C) with (map (fun d => d * / (4 * PI)) (band_areas C n)); [rewrite Rsum_scal, areas_sum by auto; field; split; lra|].
    apply (nth_ext _ _ 0 0); [rewrite !map_length; now apply areas_length|]. intros i Hi. rewrite map_length, areas_length in Hi by auto. rewrite !nth_map_lt by (rewrite ?areas_length; auto). unfold F. rewrite EF by auto. reflexivity.
  - intros i Hi. assert (Hc : In (nth i col 0) C) by (apply IC, nth_In; auto). apply (In_nth _ _ 0) in Hc as (j & Hj & Ej).
    assert (EWi : nth i (map F col) 0 = (cos (lo C j) - cos (hi C j)) / 2 / INR n). { rewrite nth_map_lt by auto. rewrite <- Ej. unfold F. rewrite EF, areas_nth by auto. field. split; lra. }
    destruct (cell_in C SC RC j Hj) as (I1 & I2 & I3 & I4). split.
    + rewrite EWi. pose proof (cos_decreasing_1 (lo C j) (hi C j) I3 ltac:(lra) ltac:(lra) I4 I2). apply Rdiv_lt_0_compat; [lra|auto].
    + exists (lo C j), (hi C j). split; [lra|]. split; [lra|]. split; [exact EWi|]. intros th Ht. rewrite (cell_nearest C SC j th Hj Ht). rewrite Ej. split; intros H c Hc; apply H, IC; auto.
Qed.
Print Assumptions C132_weights.
(** Without points the function raises instead of answering that there is no grid. *)
Theorem C132_empty_refuted : exists az col, length az = length col /\ detect_regular_grid az col = None.
Proof. exists [], []. split; reflexivity. Qed.
Print Assumptions C132_empty_refuted.

(** Four points, two azimuths on two colatitudes, not in order *)
Example four_points : detect_regular_grid [PI; 0; PI; 0] [1; 1; 2; 2] = Some (Some ([0; PI], [1; 2])).
Proof.
  pose proof PI_RGT_0. apply C132_complete; try discriminate; auto.
  - repeat constructor; lra.
  - repeat constructor; lra.
  - exists 0. cbn [length seq map]. f_equal; [cbn [INR]; field|]. f_equal. cbn [INR]. field.
  - cbn [combine meshgrid flat_map map app]. etransitivity; [apply perm_swap|]. apply perm_skip, perm_skip. apply perm_swap.
Qed.
Example four_weights : exists w, grid_weights [1; 1; 2; 2] [1; 2] 2 = Some w /\ Rsum w = 1.
Proof.
  pose proof PI_RGT_0. pose proof PI2_3_2 as P3. unfold PI2 in P3. destruct (C132_weights _ _ _ _ four_points) as (w & H1 & _ & H2 & _); [| | |eauto].
  - intros a [<-|[<-|[<-|[<-|[]]]]]; lra.
  - cbn. lia.
  - intros a [<-|[<-|[<-|[<-|[]]]]]; lra.
Qed.
(** Three of the four are not a grid *)
Example three_points : detect_regular_grid [PI; 0; PI] [1; 1; 2] = Some None.
Proof.
  pose proof PI_RGT_0. unfold detect_regular_grid. cbn [length Nat.eqb negb]. cbv zeta. unfold unique. cbn [fold_right insert_u].
  repeat (destruct (Rlt_dec _ _); try lra; cbn [insert_u]; try (destruct (Req_EM_T _ _); try lra; cbn [insert_u])). all: reflexivity.
Qed.
