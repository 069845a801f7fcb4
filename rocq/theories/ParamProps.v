(** Package constants, air (C55, C56) and materials (C57). *)
From Coq Require Import List ZArith Lia Reals Lra String Sorted Permutation.
From Verif Require Import Base BaseProofs Vec ParamModel ParamProofs.
Import ListNotations.
Local Open Scope R_scope.

(** ** C55: physics from a speed *)
Theorem C55_from_speed : forall c0 c, exists p, from_speed c0 c = Some p /\ get_sound_speed p = c.
Proof.
  intros c0 c. unfold from_speed, physics_init. destruct (Rlt_dec _ _); [lra|]. destruct (Rlt_dec _ _); [lra|].
  eexists; split; [reflexivity|]. unfold get_sound_speed, calculate_speed_of_sound, calculate_temperature. cbn [ph_T ph_H]. lra.
Qed.
Print Assumptions C55_from_speed.
(** Without a temperature, the speed is the package constant, whatever the humidity; a humidity is
    accepted exactly between 0 and 100. *)
Theorem C55_default_temperature : forall c h, (0 <= h <= 100 -> exists p, physics_init c None (Some h) = Some p /\ get_sound_speed p = c /\ ph_H p = h) /\
  (forall t, physics_init c t (Some h) = None <-> ~ (0 <= h <= 100)) /\ (exists p, physics_init c None None = Some p /\ get_sound_speed p = c).
Proof.
  intros c h. unfold physics_init. split; [|split].
  - intros H. destruct (Rlt_dec _ _); [lra|]. destruct (Rlt_dec _ _); [lra|]. eexists; split; [reflexivity|]. split; auto. unfold get_sound_speed, calculate_speed_of_sound, calculate_temperature. cbn [ph_T ph_H]. lra.
  - intros t. destruct (Rlt_dec _ _); [split; auto; intros; lra|]. destruct (Rlt_dec _ _); [split; auto; intros; lra|]. split; [discriminate|]. intros G. exfalso. apply G. lra.
  - destruct (Rlt_dec _ _); [lra|]. destruct (Rlt_dec _ _); [lra|]. eexists; split; [reflexivity|]. unfold get_sound_speed, calculate_speed_of_sound, calculate_temperature. cbn [ph_T ph_H]. lra.
Qed.
Print Assumptions C55_default_temperature.
(** The last value set for a constant is the one read, other constants keep theirs. *)
Theorem C55_constants : forall {V} (user defaults : list (string * V)) name v,
  constants_get (constants_set user name v) defaults name = Some v /\
  (forall other, other <> name -> constants_get (constants_set user name v) defaults other = constants_get user defaults other).
Proof.
  intros V user defaults name v. unfold constants_get, constants_set. cbn. rewrite String.eqb_refl. split; auto.
  intros other Hn. destruct (String.eqb_spec name other); [congruence|auto].
Qed.
Print Assumptions C55_constants.
Example C55_case : exists p, from_speed 343 340 = Some p /\ get_sound_speed p = 340.
Proof. apply C55_from_speed. Qed.

(** ** C56: air absorption *)
Theorem C56_found : forall p, exists co cf, get_air_absorption p = Some (co, cf) /\ List.length co = 7%nat /\ List.length cf = 7%nat /\
  Forall (fun a => 0 < a) co /\ StronglySorted Rle co /\ StronglySorted Rlt cf /\ Forall (fun f => 0 < f) cf.
Proof.
  intros [T H]. unfold get_air_absorption, air_key. cbn [ph_T ph_H].
  destruct (Rlt_dec T 15), (Rlt_dec H 50), (Rlt_dec H 70); cbn; do 2 eexists; (split; [reflexivity|]); repeat split; repeat (constructor; try lra).
Qed.
Print Assumptions C56_found.
(** The entry found is the one whose heading covers the temperature (nearest of 10 and 20 degrees) and
    the humidity. *)
Definition heading (T H : R) : string -> Prop := fun s =>
  ((T < 15 /\ H < 50 /\ s = "10C_30-50%") \/ (T < 15 /\ 50 <= H < 70 /\ s = "10C_50-70%") \/ (T < 15 /\ 70 <= H /\ s = "10C_70-90%") \/
   (15 <= T /\ H < 50 /\ s = "20C_30-50%") \/ (15 <= T /\ 50 <= H < 70 /\ s = "20C_50-70%") \/ (15 <= T /\ 70 <= H /\ s = "20C_70-90%"))%string.
Theorem C56_heading : forall p s, heading (ph_T p) (ph_H p) s -> exists co cf, lookup s air_absorption_table = Some co /\ get_air_absorption p = Some (co, cf).
Proof.
  intros [T H] s Hs. unfold get_air_absorption, air_key. cbn [ph_T ph_H] in *. unfold heading in Hs.
  destruct Hs as [(A & B & ->)|[(A & B & ->)|[(A & B & ->)|[(A & B & ->)|[(A & B & ->)|(A & B & ->)]]]]];
  destruct (Rlt_dec T 15); try lra; destruct (Rlt_dec H 50); try lra; destruct (Rlt_dec H 70); try lra; do 2 eexists; split; reflexivity.
Qed.
Print Assumptions C56_heading.
Example C56_case : exists co cf, get_air_absorption {| ph_T := -40; ph_H := 0 |} = Some (co, cf).
Proof. destruct (C56_found {| ph_T := -40; ph_H := 0 |}) as (co & cf & H & _). eauto. Qed.

(** ** C57: materials *)
Definition shape (n : nat) (m : bands * bands) : Prop := List.length (coeffs (fst m)) = n /\ List.length (coeffs (snd m)) = n.
Definition cstep (cs : vec) (st : list (bands * bands)) (i : nat) : option (list (bands * bands)) :=
  let* m := nth_error st i in let* m' := resample cs m in store st i m'.
Lemma resample_shape : forall cs m m', resample cs m = Some m' -> shape (List.length cs) m'.
Proof.
  intros cs m m' H. unfold resample in H. destruct (bank_call cs (fst m)) as [a|] eqn:Ea; [|discriminate]. cbn in H. destruct (bank_call cs (snd m)) as [s|] eqn:Es; [|discriminate]. cbn in H. injection H as <-.
  split; cbn; eapply bank_length; eauto.
Qed.
Lemma cstep_inv : forall cs st i st', cstep cs st i = Some st' -> exists m m', nth_error st i = Some m /\ resample cs m = Some m' /\
  forall j, nth_error st' j = if Nat.eqb j i then Some m' else nth_error st j.
Proof.
  intros cs st i st' H. unfold cstep in H. destruct (nth_error st i) as [m|] eqn:E; [|discriminate]. cbn in H. destruct (resample cs m) as [m'|] eqn:Er; [|discriminate]. cbn in H.
  destruct (store_Some st i m' (nth_error_Some_lt _ _ _ E)) as (l & Hl & _ & Hn). rewrite H in Hl. injection Hl as <-. eauto.
Qed.
Lemma loop_inv : forall cs (P : nat -> bands * bands -> Prop) refs st st',
  (forall i m m', P i m -> resample cs m = Some m' -> P i m') ->
  (forall i m, nth_error st i = Some m -> P i m) ->
  foldM (cstep cs) refs st = Some st' -> forall i m, nth_error st' i = Some m -> P i m.
Proof.
  intros cs P refs. induction refs as [|r refs IH]; intros st st' Hp H0 H i m Hm; cbn in H; [injection H as <-; auto|].
  destruct (cstep cs st r) as [st1|] eqn:E; [|discriminate]. cbn in H. apply (IH st1 st'); auto. intros j mj Hj.
  destruct (cstep_inv _ _ _ _ E) as (a & b & Ha & Hb & Hn). rewrite Hn in Hj. destruct (Nat.eqb_spec j r) as [->|]; [injection Hj as <-; eauto|auto].
Qed.
Lemma loop_done : forall cs refs st st' i, foldM (cstep cs) refs st = Some st' ->
  (In i refs \/ (exists m, nth_error st i = Some m /\ shape (List.length cs) m)) -> exists m, nth_error st' i = Some m /\ shape (List.length cs) m.
Proof.
  intros cs refs. induction refs as [|r refs IH]; intros st st' i H Hi; cbn in H; [injection H as <-; destruct Hi as [[]|]; auto|].
  destruct (cstep cs st r) as [st1|] eqn:E; [|discriminate]. cbn in H. apply (IH st1 st'); auto.
  destruct (cstep_inv _ _ _ _ E) as (a & b & Ha & Hb & Hn). specialize (Hn i). destruct (Nat.eqb_spec i r) as [->|Hne].
  - right. exists b. split; auto. eapply resample_shape; eauto.
  - destruct Hi as [[Hi|Hi]|(m & Hm & Hs)]; [congruence|now left|]. right. exists m. split; auto. now rewrite Hn.
Qed.
Lemma all_flat_shape : forall st refs ms i, mapM (nth_error st) refs = Some ms -> all_flat ms = true -> In i refs -> exists m, nth_error st i = Some m /\ shape 1 m.
Proof.
  intros st refs ms i Hm Hf Hi. apply mapM_inv in Hm. induction Hm as [|r m refs ms Hr Hm IH]; [destruct Hi|]. cbn in Hf. apply andb_prop in Hf. destruct Hf as [H1 H2].
  destruct Hi as [-> | Hi]; auto. exists m. split; auto. unfold is_freq_flat in H1. apply andb_prop in H1. destruct H1 as [A B]. apply Nat.eqb_eq in A, B. now split.
Qed.
(** After making the materials of a room compatible, every wall has the same number of absorption and
    of scattering coefficients, however objects are shared between walls. *)
Theorem C57_rectangular : forall cs st refs st', make_compatible cs st refs = Some st' ->
  exists n, (n = 1%nat \/ n = List.length cs) /\ forall i, In i refs -> exists m, nth_error st' i = Some m /\ shape n m.
Proof.
  intros cs st refs st' H. unfold make_compatible in H. destruct (mapM (nth_error st) refs) as [ms|] eqn:E; [|discriminate]. cbn [bind] in H. destruct (all_flat ms) eqn:Ef.
  - injection H as <-. exists 1%nat. split; auto. intros i Hi. eapply all_flat_shape; eauto.
  - exists (List.length cs). split; auto. intros i Hi. eapply loop_done; eauto.
Qed.
Print Assumptions C57_rectangular.

Lemma loop_once : forall cs refs st st', good_centers cs -> Forall tame st -> foldM (cstep cs) refs st = Some st' ->
  forall i, nth_error st' i = if existsb (Nat.eqb i) refs then let* m := nth_error st i in resample cs m else nth_error st i.
Proof.
  intros cs refs. induction refs as [|r refs IH]; intros st st' Hg Ht H i; cbn in H; [injection H as <-; auto|].
  destruct (cstep cs st r) as [st1|] eqn:E; [|discriminate]. cbn in H. destruct (cstep_inv _ _ _ _ E) as (a & b & Ha & Hb & Hn).
  assert (Hta : tame a) by (rewrite Forall_forall in Ht; apply Ht; eapply nth_error_In; eauto).
  assert (Htb : tame b). { unfold resample in Hb. destruct (bank_call cs (fst a)) as [x|] eqn:Ex; [|discriminate]. cbn in Hb. destruct (bank_call cs (snd a)) as [y|] eqn:Ey; [|discriminate]. cbn in Hb. injection Hb as <-. destruct Hta as [T1 T2].
    pose proof (bank_in01 _ _ _ T1 Ex) as F1. pose proof (bank_in01 _ _ _ T2 Ey) as F2. split; cbn; intros z ->; [now apply Forall_inv in F1|now apply Forall_inv in F2]. }
  assert (Ht1 : Forall tame st1). { rewrite Forall_forall. intros m Hm. apply In_nth_error in Hm. destruct Hm as (j & Hj). rewrite Hn in Hj. destruct (Nat.eqb_spec j r); [injection Hj as <-; auto|]. rewrite Forall_forall in Ht. apply Ht. eapply nth_error_In; eauto. }
  rewrite (IH st1 st' Hg Ht1 H i), Hn. cbn [existsb]. destruct (Nat.eqb_spec i r) as [->|]; cbn [orb bind]; auto.
  rewrite Ha. cbn [bind]. rewrite Hb. destruct (existsb _ _); auto. now apply (resample_idem cs a b).
Qed.
(** One object used for several walls is treated as if it were resampled once. *)
Theorem C57_shared : forall cs st refs st' i m, good_centers cs -> Forall tame st -> make_compatible cs st refs = Some st' -> nth_error st i = Some m ->
  if existsb (Nat.eqb i) refs then (nth_error st' i = resample cs m \/ (nth_error st' i = Some m /\ forall j, In j refs -> exists mj, nth_error st' j = Some mj /\ shape 1 mj))
  else nth_error st' i = Some m.
Proof.
  intros cs st refs st' i m Hg Ht H Hm. unfold make_compatible in H. destruct (mapM (nth_error st) refs) as [ms|] eqn:E; [|discriminate]. cbn [bind] in H. destruct (all_flat ms) eqn:Ef.
  - injection H as <-. destruct (existsb _ _); auto. right. split; auto. intros j Hj. eapply all_flat_shape; eauto.
  - rewrite (loop_once cs refs st st' Hg Ht H i), Hm. destruct (existsb _ _); auto.
Qed.
Print Assumptions C57_shared.
(** A frequency-flat absorption (or scattering) keeps its value in every band. *)
Theorem C57_flat_value : forall cs st refs st' i m m' a, good_centers cs -> Forall tame st -> make_compatible cs st refs = Some st' -> In i refs ->
  nth_error st i = Some m -> nth_error st' i = Some m' ->
  (coeffs (fst m) = [a] -> forall x, In x (coeffs (fst m')) -> x = a) /\ (coeffs (snd m) = [a] -> forall x, In x (coeffs (snd m')) -> x = a).
Proof.
  intros cs st refs st' i m m' a Hg Ht H Hi Hm Hm'. pose proof (C57_shared cs st refs st' i m Hg Ht H Hm) as Hs.
  replace (existsb (Nat.eqb i) refs) with true in Hs by (symmetry; apply existsb_exists; exists i; split; auto; apply Nat.eqb_refl).
  destruct Hs as [Hr|[Hr _]]; rewrite Hm' in Hr.
  - symmetry in Hr. unfold resample in Hr. destruct (bank_call cs (fst m)) as [x|] eqn:Ex; [|discriminate]. cbn in Hr. destruct (bank_call cs (snd m)) as [y|] eqn:Ey; [|discriminate]. cbn in Hr. injection Hr as <-. cbn.
    split; intros Ec z Hz; [unfold bank_call in Ex; rewrite Ec in Ex; injection Ex as <-|unfold bank_call in Ey; rewrite Ec in Ey; injection Ey as <-]; now apply repeat_spec in Hz.
  - injection Hr as ->. split; intros -> z [Hz|[]]; auto.
Qed.
Print Assumptions C57_flat_value.
Lemma foldM_fixed : forall cs refs st, (forall i, In i refs -> exists m, nth_error st i = Some m /\ resample cs m = Some m) -> foldM (cstep cs) refs st = Some st.
Proof.
  intros cs refs. induction refs as [|r refs IH]; intros st H; auto. cbn. destruct (H r (or_introl eq_refl)) as (m & Hm & Hr).
  assert (E : cstep cs st r = Some st). { unfold cstep. rewrite Hm. cbn. rewrite Hr. cbn. clear - Hm. revert r Hm. induction st as [|x t IH]; intros [|r] H; cbn in *; try discriminate; [now injection H as ->|]. now rewrite IH. }
  rewrite E. cbn. apply IH. intros i Hi. apply H. now right.
Qed.
(** Repeating the operation changes nothing. *)
Theorem C57_repeat : forall cs st refs st', good_centers cs -> Forall tame st -> make_compatible cs st refs = Some st' -> make_compatible cs st' refs = Some st'.
Proof.
  intros cs st refs st' Hg Ht H. unfold make_compatible in H. destruct (mapM (nth_error st) refs) as [ms|] eqn:E; [|discriminate]. cbn [bind] in H. destruct (all_flat ms) eqn:Ef.
  - injection H as <-. unfold make_compatible. rewrite E. cbn [bind]. now rewrite Ef.
  - pose proof (loop_once cs refs st st' Hg Ht H) as Hl.
    assert (G : forall i, In i refs -> exists m, nth_error st' i = Some m /\ resample cs m = Some m).
    { intros i Hi. destruct (loop_done cs refs st st' i H (or_introl Hi)) as (m & Hm & _). exists m. split; auto. rewrite Hl in Hm.
      replace (existsb (Nat.eqb i) refs) with true in Hm by (symmetry; apply existsb_exists; exists i; split; auto; apply Nat.eqb_refl).
      destruct (nth_error st i) as [m0|] eqn:E0; [|discriminate]. cbn in Hm. apply (resample_idem cs m0 m); auto. rewrite Forall_forall in Ht. apply Ht. eapply nth_error_In; eauto. }
    unfold make_compatible. destruct (mapM_Some (nth_error st') refs) as (ms' & Hms & _); [intros i Hi; destruct (G i Hi) as (m & Hm & _); eauto|]. rewrite Hms. cbn [bind].
    destruct (all_flat ms'); auto. change (foldM (cstep cs) refs st' = Some st'). now apply foldM_fixed.
Qed.
Print Assumptions C57_repeat.
(** It succeeds whenever all coefficients come with as many positive, distinct frequencies. *)
Theorem C57_defined : forall cs st refs, good_centers cs -> Forall (fun m => wf_bands (fst m) /\ wf_bands (snd m)) st -> (forall i, In i refs -> (i < List.length st)%nat) ->
  exists st', make_compatible cs st refs = Some st'.
Proof.
  intros cs st refs Hg Hw Hr. unfold make_compatible. destruct (mapM_Some (nth_error st) refs) as (ms & Hms & _).
  { intros i Hi. destruct (nth_error st i) eqn:E; eauto. apply nth_error_None in E. specialize (Hr i Hi). lia. }
  rewrite Hms. cbn [bind]. destruct (all_flat ms); eauto. clear Hms ms. change (exists st', foldM (cstep cs) refs st = Some st'). revert st Hw Hr. induction refs as [|r refs IH]; intros st Hw Hr; [cbn; eauto|]. cbn.
  destruct (nth_error st r) as [m|] eqn:E. 2: { apply nth_error_None in E. specialize (Hr r (or_introl eq_refl)). lia. }
  pose proof Hw as Hw'. rewrite Forall_forall in Hw'. destruct (Hw' m (nth_error_In _ _ E)) as [W1 W2]. destruct Hg as (G0 & Gp & Gs).
  destruct (bank_defined cs (fst m) Gp W1) as (a & Ha). destruct (bank_defined cs (snd m) Gp W2) as (s & Hs).
  unfold cstep at 1. rewrite E. cbn [bind]. unfold resample at 1. rewrite Ha. cbn [bind]. rewrite Hs. cbn [bind].
  set (m' := ({| coeffs := a; cfreqs := Some cs |}, {| coeffs := s; cfreqs := Some cs |})). destruct (store_Some st r m' (nth_error_Some_lt _ _ _ E)) as (st1 & Hst & Hl & Hn). rewrite Hst. cbn [bind]. apply IH.
  - rewrite Forall_forall. intros x Hx. apply In_nth_error in Hx. destruct Hx as (j & Hj). rewrite Hn in Hj. destruct (Nat.eqb_spec j r); [injection Hj as <-|apply Hw'; eapply nth_error_In; eauto].
    assert (Hd : NoDup cs). { clear - Gs. induction Gs as [|c t Hs IH Hf]; constructor; auto. intros Hc. rewrite Forall_forall in Hf. specialize (Hf c Hc). lra. }
    assert (Wx : forall y, List.length y = List.length cs -> wf_bands {| coeffs := y; cfreqs := Some cs |}). { intros y Hy. split; cbn; [destruct y; [destruct cs; cbn in Hy; congruence|congruence]|]. intros _. exists cs. auto. }
    split; apply Wx; eapply bank_length; eauto.
  - intros i Hi. rewrite Hl. apply Hr. now right.
Qed.
Print Assumptions C57_defined.
(** Values of the bands: always between 0 and 1 when there are several coefficients; the given value
    where a band centre is one of the given frequencies; and never outside the range of the given
    values between the lowest and the highest given frequency. *)
Theorem C57_range : forall cs b y, (1 < List.length (coeffs b))%nat -> bank_call cs b = Some y -> Forall (fun v => 0 <= v <= 1) y.
Proof. intros cs b y Hl H. apply (bank_in01 cs b y); auto. intros a E. rewrite E in Hl. cbn in Hl. lia. Qed.
Print Assumptions C57_range.
Lemma bank_nth : forall cs b y k, bank_call cs b = Some y -> (1 < List.length (coeffs b))%nat -> (k < List.length cs)%nat ->
  let cf := match cfreqs b with None => firstn (List.length (coeffs b)) cs | Some cf => cf end in
  exists v, interp_at (sort_nodes (combine (map log2 cf) (coeffs b))) (log2 (nth k cs 0)) = Some v /\ nth k y 0 = clip01 v.
Proof.
  intros cs b y k H Hl Hk cf. unfold bank_call in H. fold cf in H. clearbody cf. destruct (coeffs b) as [|a [|a' t]] eqn:E; [cbn in Hl; lia|cbn in Hl; lia|]. destruct (negb _); [discriminate|]. destruct (existsb _ _); [discriminate|].
  apply mapM_inv in H. revert k Hk. induction H as [|c v cs' y' Hc _ IH]; intros k Hk; [cbn in Hk; lia|]. destruct k; [|apply IH; cbn in Hk; lia]. cbn [nth]. destruct (interp_at _ (log2 c)) as [z|]; [|discriminate]. cbn in Hc. injection Hc as <-. eauto.
Qed.
Theorem C57_node : forall cs cf ys y j k, NoDup cf -> Forall (fun f => 0 < f) cf -> List.length cf = List.length ys -> (1 < List.length ys)%nat -> (j < List.length cf)%nat -> (k < List.length cs)%nat ->
  bank_call cs {| coeffs := ys; cfreqs := Some cf |} = Some y -> nth k cs 0 = nth j cf 0 -> 0 <= nth j ys 0 <= 1 -> nth k y 0 = nth j ys 0.
Proof.
  intros cs cf ys y j k Hn Hp Hl H1 Hj Hk H E H01. destruct (bank_nth cs _ y k H H1 Hk) as (v & Hv & ->). cbn [coeffs cfreqs] in Hv. rewrite E in Hv.
  assert (Hs := nodes_sorted cf ys Hl Hp Hn). set (L0 := combine (map log2 cf) ys) in *. set (L := sort_nodes L0) in *.
  assert (HL : List.length L = List.length ys) by (unfold L, L0; rewrite (Permutation_length (sort_perm _)), combine_length, map_length; lia).
  assert (Hin : In (log2 (nth j cf 0), nth j ys 0) L). { unfold L. eapply Permutation_in; [apply Permutation_sym, sort_perm|]. unfold L0. replace (log2 (nth j cf 0), nth j ys 0) with (nth j (combine (map log2 cf) ys) (log2 0, 0)) by (rewrite combine_nth by (rewrite map_length; lia); now rewrite map_nth). apply nth_In. rewrite combine_length, map_length. lia. }
  apply (In_nth L _ (0, 0)) in Hin. destruct Hin as (i & Hi & Ei). pose proof (interp_node L i (0,0) Hs ltac:(lia) Hi) as Hv'. rewrite Ei in Hv'. cbn [fst snd] in Hv'. rewrite Hv' in Hv. injection Hv as <-. now apply clip01_id.
Qed.
Print Assumptions C57_node.
Theorem C57_between : forall cs cf ys y k a b, NoDup cf -> Forall (fun f => 0 < f) cf -> List.length cf = List.length ys -> (1 < List.length ys)%nat -> (k < List.length cs)%nat ->
  bank_call cs {| coeffs := ys; cfreqs := Some cf |} = Some y -> Forall (fun v => a <= v <= b) ys -> 0 <= a -> b <= 1 ->
  (exists lo, In lo cf /\ lo <= nth k cs 0) -> (exists hi, In hi cf /\ nth k cs 0 <= hi) -> a <= nth k y 0 <= b.
Proof.
  intros cs cf ys y k a b Hn Hp Hl H1 Hk H Hf Ha Hb (lo & Ilo & Llo) (hi & Ihi & Lhi). destruct (bank_nth cs _ y k H H1 Hk) as (v & Hv & ->). cbn [coeffs cfreqs] in Hv.
  assert (Hs := nodes_sorted cf ys Hl Hp Hn). set (L0 := combine (map log2 cf) ys) in *. set (L := sort_nodes L0) in *.
  assert (HL : List.length L = List.length ys) by (unfold L, L0; rewrite (Permutation_length (sort_perm _)), combine_length, map_length; lia).
  assert (P : forall f, In f cf -> exists i, (i < List.length L)%nat /\ fst (nth i L (0, 0)) = log2 f).
  { intros f Hi. assert (G : In (log2 f) (map fst L)). { eapply Permutation_in; [apply Permutation_map, Permutation_sym, sort_perm|]. unfold L0. rewrite map_fst_combine by (rewrite map_length; auto). now apply in_map. }
    apply in_map_iff in G. destruct G as (q & Eq & Hq). apply (In_nth L _ (0,0)) in Hq. destruct Hq as (i & Hi' & Ei). exists i. split; auto. now rewrite Ei. }
  assert (Hpos : forall f, In f cf -> 0 < f) by (rewrite Forall_forall in Hp; auto).
  assert (Hv01 : a <= v <= b).
  { apply (interp_between L (log2 (nth k cs 0)) v a b Hs ltac:(lia)); auto.
    - rewrite Forall_forall. intros q Hq. rewrite Forall_forall in Hf. apply Hf. unfold L in Hq. apply (Permutation_in _ (sort_perm L0)) in Hq. unfold L0 in Hq. destruct q as [u w]. apply in_combine_r in Hq. auto.
    - destruct (P lo Ilo) as (i & Hi & Ei). destruct (P hi Ihi) as (i' & Hi' & Ei'). pose proof (Hpos lo Ilo). split.
      + apply Rle_trans with (log2 lo); [|apply log2_le; auto]. rewrite <- Ei. destruct i; [lra|]. left. apply sorted_nth; auto. lia.
      + apply Rle_trans with (log2 hi); [apply log2_le; auto; lra|]. rewrite <- Ei'. destruct (Nat.eq_dec i' (List.length L - 1)) as [->|]; [lra|]. left. apply sorted_nth; auto. lia. }
  rewrite clip01_id; auto. unfold in01. lra.
Qed.
Print Assumptions C57_between.
(** What the constructor guarantees: frequencies come with several coefficients, and a flat
    description gives a flat material. *)
Theorem C57_init : forall ta ts ea sc a s, material_init ta ts ea sc = Some (a, s) ->
  ((1 < List.length (coeffs a))%nat -> exists cf, cfreqs a = Some cf /\ List.length cf = List.length (coeffs a)) /\
  ((1 < List.length (coeffs s))%nat -> exists cf, cfreqs s = Some cf /\ List.length cf = List.length (coeffs s)) /\
  ((1 < List.length (coeffs s))%nat -> List.length (coeffs a) <> 1%nat).
Proof.
  intros ta ts ea sc a s H. unfold material_init in H.
  match type of H with bind ?x _ = _ => destruct x as [e|]; [|discriminate] end. cbn [bind] in H. match type of H with bind ?x _ = _ => destruct x as [c|]; [|discriminate] end. cbn [bind] in H.
  match type of H with bind ?x _ = _ => destruct x as [e'|] eqn:Ee; [|discriminate] end. cbn [bind] in H. destruct (check_bands e' && check_bands c)%bool eqn:Ec; [|discriminate]. injection H as <- <-. apply andb_prop in Ec. destruct Ec as [C1 C2].
  assert (K : forall b, check_bands b = true -> (1 < List.length (coeffs b))%nat -> exists cf, cfreqs b = Some cf /\ List.length cf = List.length (coeffs b)).
  { intros b Hb Hl. unfold check_bands, nonempty_tail in Hb. apply Nat.ltb_lt in Hl. rewrite Hl in Hb. destruct (cfreqs b); [|discriminate]. apply Nat.eqb_eq in Hb. eauto. }
  split; [auto|split; [auto|]]. intros Hl He. unfold nonempty_tail in Ee. apply Nat.ltb_lt in Hl. rewrite Hl in Ee. cbn [andb] in Ee. destruct (Nat.eqb_spec (List.length (coeffs e)) 1) as [E1|E1].
  - destruct (cfreqs c); [|discriminate]. cbn in Ee. injection Ee as <-. cbn in He. rewrite repeat_length in He. rewrite He in Hl. discriminate.
  - injection Ee as <-. congruence.
Qed.
Print Assumptions C57_init.
(** The dictionary the caller passes may come back changed, so that using it again gives another
    material than the first time. *)
Theorem C57_caller_dict_refuted : exists d sc d', caller_dict [] [] d (Some sc) = Some d' /\ d' <> d /\
  (exists m, material_init [] [] (Dict d) None = Some m /\ is_freq_flat m = true) /\ (exists m, material_init [] [] (Dict d') None = Some m /\ is_freq_flat m = false).
Proof.
  exists {| coeffs := [0.5]; cfreqs := None |}, (Dict {| coeffs := [0.1; 0.2]; cfreqs := Some [125; 250] |}). eexists. split; [reflexivity|]. split; [discriminate|]. split; eexists; split; reflexivity.
Qed.
Print Assumptions C57_caller_dict_refuted.
(** Coefficients are not checked: a flat coefficient outside 0..1 is clipped by the second resampling
    but not by the first. *)
Theorem C57_unchecked_refuted : exists cs m m' m'', good_centers cs /\ resample cs m = Some m' /\ resample cs m' = Some m'' /\ m' <> m''.
Proof.
  assert (Hg : good_centers [125; 250]). { split; [discriminate|]. split; repeat constructor; lra. }
  set (b := {| coeffs := [2]; cfreqs := None |}). exists [125; 250], (b, b), ({| coeffs := [2; 2]; cfreqs := Some [125; 250] |}, {| coeffs := [2; 2]; cfreqs := Some [125; 250] |}).
  destruct (bank_defined [125; 250] {| coeffs := [2; 2]; cfreqs := Some [125; 250] |}) as (y & Hy); [apply Hg| |].
  { split; [discriminate|]. intros _. exists [125; 250]. repeat split; auto; [apply Hg|]. repeat constructor; cbn; intuition lra. }
  exists ({| coeffs := y; cfreqs := Some [125; 250] |}, {| coeffs := y; cfreqs := Some [125; 250] |}). split; auto. split; [reflexivity|]. unfold resample. cbn [fst snd]. rewrite Hy. cbn [bind]. split; auto.
  intros E. injection E as Ey _. apply C57_range in Hy; [|cbn; lia]. rename Hy into Hf. rewrite <- Ey in Hf. apply Forall_inv in Hf. lra.
Qed.
Print Assumptions C57_unchecked_refuted.
Example C57_case : exists st', make_compatible [125; 250; 500] [({| coeffs := [0.3]; cfreqs := None |}, {| coeffs := [0]; cfreqs := None |}); ({| coeffs := [0.1; 0.5]; cfreqs := Some [250; 125] |}, {| coeffs := [0]; cfreqs := None |})] [0; 0; 1; 0]%nat = Some st'.
Proof.
  apply C57_defined.
  - split; [discriminate|]. split; repeat constructor; lra.
  - repeat constructor; cbn; try discriminate; try lia; intros _; exists [250; 125]. repeat split; repeat constructor; cbn; intuition lra.
  - intros i Hi. cbn in *. lia.
Qed.
