(** Proofs about the room bookkeeping. *)
From Coq Require Import List ZArith Lia Reals Bool.
From Verif Require Import Base BaseProofs RoomModel RoomSpec.
Import ListNotations.
Local Open Scope R_scope.

Lemma nth_error_combine_seq : forall {A} (l : list A) k, nth_error (combine (seq 0 (length l)) l) k = option_map (fun x => (k, x)) (nth_error l k).
Proof.
  intros A l k. enough (forall b, nth_error (combine (seq b (length l)) l) k = option_map (fun x => ((b + k)%nat, x)) (nth_error l k)) as H by apply H.
  revert k. induction l as [|a l IH]; intros k b; simpl; [now destruct k|]. destruct k; simpl; [now rewrite Nat.add_0_r|].
  rewrite IH. now replace (S b + k)%nat with (b + S k)%nat by lia.
Qed.
Lemma combine_seq_map : forall {A} (l : list A), map snd (combine (seq 0 (length l)) l) = l.
Proof. intros A l. generalize 0%nat. induction l; intros n; simpl; auto. f_equal. auto. Qed.
Lemma combine_seq_length : forall {A} (l : list A), length (combine (seq 0 (length l)) l) = length l.
Proof. intros. rewrite combine_length, seq_length. lia. Qed.
Lemma mapM_nth : forall {A B} (f : A -> option B) l r, mapM f l = Some r -> forall k a, nth_error l k = Some a -> exists b, f a = Some b /\ nth_error r k = Some b.
Proof.
  intros A B f. induction l as [|x l IH]; intros r H k a Hk; [destruct k; discriminate|]. simpl in H.
  destruct (f x) as [y|] eqn:E; [|discriminate]. cbn in H. destruct (mapM f l) as [t|] eqn:E2; [|discriminate]. cbn in H. injection H as <-.
  destruct k; simpl in *; [injection Hk as <-; eauto|eauto].
Qed.
Lemma mapM_all : forall {A B} (f : A -> option B) l, (forall a, In a l -> exists b, f a = Some b) -> exists r, mapM f l = Some r.
Proof.
  intros A B f. induction l as [|x l IH]; intros H; simpl; [eauto|]. destruct (H x (or_introl eq_refl)) as (b & ->).
  destruct IH as (r & ->); [intros; apply H; now right|]. cbn. eauto.
Qed.
Lemma filter_mask_map : forall {A B} (f : A -> B) (p : A -> bool) l, filter_mask (map f l) (map p l) = Some (map f (filter p l)).
Proof. intros A B f p. induction l as [|a l IH]; simpl; auto. rewrite IH. cbn. now destruct (p a). Qed.

Section P.
Context {pos air rtopt image hist : Type}.
Variable bin_size : rtopt -> R.
Variable inside : pos -> bool.
Variable engine_ism : list pos -> pos -> list (image * list bool).
Variable trace : pos -> pos -> R -> rtopt -> R -> bool -> hist.
Variable direct : pos -> image.
Variable ism_ir : list image -> pos -> R -> option air -> list R.
Variable rt_ir : hist -> pos -> pos -> R -> R -> option air -> list R.
Variable post : list R -> list R.

Notation room := (@room pos air rtopt image hist).
Notation config := (@config pos air rtopt).
Notation op := (@op pos air rtopt).
Notation step := (step bin_size inside engine_ism trace direct ism_ir rt_ir post).
Notation run := (run bin_size inside engine_ism trace direct ism_ir rt_ir post).
Notation compute := (compute_rir bin_size inside engine_ism trace ism_ir rt_ir post).
Notation expected := (expected bin_size engine_ism trace ism_ir rt_ir post).
Notation responses := (responses bin_size engine_ism trace ism_ir rt_ir post).
Notation computable := (computable inside engine_ism).
Notation ism_source := (ism_source inside engine_ism).

Definition fresh (p : pos) : @src pos image := {| s_pos := p; s_images := [direct p]; s_dirs := None |}.

(** The engine agrees with the room. *)
Definition engine_ok (st : room) : Prop :=
  e_c (eng st) = c st /\ e_rt (eng st) = rt_args st /\ e_hybrid (eng st) = ism_needed st && rt_needed st /\
  map fst (e_mics (eng st)) = match mic_array st with Some l => l | None => [] end.
(** The room is configured as [g] says (except, perhaps, for air absorption). *)
Definition conf_ok (g : config) (st : room) : Prop :=
  c st = g_c g /\ ism_needed st = g_ism g /\
  (g_rt g = if rt_needed st then Some (rt_args st) else None) /\ map s_pos (sources st) = g_sources g /\
  (match mic_array st with Some l => l | None => [] end) = g_mics g.
Definition air_ok (g : config) (st : room) : Prop := air_absorption st = g_air g.

Lemma run_app : forall a b st, run (a ++ b) st = bind (run a st) (run b).
Proof. intros a. induction a as [|o a IH]; intros b st; simpl; auto. unfold RoomModel.run in *. simpl. destruct (step o st); simpl; auto. Qed.

Lemma compute_shape : forall st st', compute st = Some st' ->
  c st' = c st /\ air_absorption st' = air_absorption st /\ ism_needed st' = ism_needed st /\ rt_needed st' = rt_needed st /\
  air_abs_needed st' = air_abs_needed st /\ rt_args st' = rt_args st /\ mic_array st' = mic_array st /\ eng st' = eng st /\
  map s_pos (sources st') = map s_pos (sources st) /\ rir_done st' = true /\ rir st' <> None.
Proof.
  intros st st' H. unfold compute_rir in H.
  destruct (if ism_needed st && negb (ism_done st) then _ else Some st) as [st1|] eqn:E1; [|discriminate]. cbn [bind] in H.
  destruct (if rt_needed st1 && negb (rt_done st1) then _ else Some st1) as [st2|] eqn:E2; [|discriminate]. cbn [bind] in H.
  destruct (mic_array st2) as [mics|] eqn:E3; [|discriminate]. cbn [bind] in H.
  match type of H with bind ?x _ = _ => destruct x as [r|]; [|discriminate] end. cbn [bind] in H. injection H as <-.
  assert (A1 : c st1 = c st /\ air_absorption st1 = air_absorption st /\ ism_needed st1 = ism_needed st /\ rt_needed st1 = rt_needed st /\
    air_abs_needed st1 = air_abs_needed st /\ rt_args st1 = rt_args st /\ mic_array st1 = mic_array st /\ eng st1 = eng st /\
    map s_pos (sources st1) = map s_pos (sources st)).
  { destruct (ism_needed st && negb (ism_done st)); [|injection E1 as <-; repeat split; auto].
    unfold image_source_model in E1. destruct (match mic_array st, sources st with | Some l, _ => Some l | None, [] => Some [] | None, _ :: _ => None end) as [ms|]; [|discriminate].
    cbn [bind] in E1. injection E1 as <-. cbn. repeat split; auto. rewrite !map_map. apply map_ext. intros s.
    unfold RoomModel.ism_source. now destruct (engine_ism _ _). }
  assert (A2 : c st2 = c st1 /\ air_absorption st2 = air_absorption st1 /\ ism_needed st2 = ism_needed st1 /\ rt_needed st2 = rt_needed st1 /\
    air_abs_needed st2 = air_abs_needed st1 /\ rt_args st2 = rt_args st1 /\ mic_array st2 = mic_array st1 /\ eng st2 = eng st1 /\
    sources st2 = sources st1).
  { destruct (rt_needed st1 && negb (rt_done st1)); [|injection E2 as <-; repeat split; auto].
    unfold ray_tracing in E2. destruct (mic_array st1) as [ms|] eqn:Em; [|discriminate]. cbn [bind] in E2.
    match type of E2 with bind ?x _ = _ => destruct x as [hs|]; [|discriminate] end. cbn [bind] in E2. injection E2 as <-. cbn. repeat split; auto. }
  destruct A1 as (? & ? & ? & ? & ? & ? & ? & ? & ?). destruct A2 as (? & ? & ? & ? & ? & ? & ? & ? & ?). cbn.
  repeat split; try congruence. 
Qed.

Lemma step_engine : forall o st st', o <> Extrude -> engine_ok st -> step o st = Some st' -> engine_ok st'.
Proof.
  intros o st st' No (A & B & C & D) H. destruct o; cbn [RoomModel.step] in H; try congruence;
    try (injection H as <-; unfold engine_ok; cbn; repeat split; auto; fail).
  - unfold add_source in H. destruct (negb (inside p)); [discriminate|]. injection H as <-. unfold engine_ok; cbn; auto.
  - injection H as <-. unfold engine_ok; cbn. rewrite map_app, map_map, D. cbn. rewrite map_id. repeat split; auto. now destruct (mic_array st).
  - apply compute_shape in H as (H1 & _ & H2 & H3 & _ & H4 & H5 & H6 & _). unfold engine_ok.
    rewrite H1, H2, H3, H4, H5, H6. auto.
Qed.
Lemma step_conf : forall g o st st', conf_ok g st -> step o st = Some st' -> conf_ok (configure g o) st'.
Proof.
  intros g o st st' (A & B & C & D & E) H. destruct o; cbn [RoomModel.step configure] in *;
    try (injection H as <-; unfold conf_ok; cbn; repeat split; auto; fail).
  - unfold add_source in H. destruct (negb (inside p)); [discriminate|]. injection H as <-. unfold conf_ok; cbn. rewrite map_app, D. auto.
  - injection H as <-. unfold conf_ok; cbn. repeat split; auto. rewrite <- E. now destruct (mic_array st).
  - apply compute_shape in H as (H1 & _ & H2 & H3 & _ & H4 & H5 & H6 & H7 & _). unfold conf_ok.
    rewrite H1, H2, H3, H4, H5, H7. auto.
Qed.
Lemma step_air : forall g o st st', o <> UnsetAir -> air_ok g st -> step o st = Some st' -> air_ok (configure g o) st'.
Proof.
  intros g o st st' No A H. unfold air_ok in *. destruct o; cbn [RoomModel.step configure] in *; try congruence;
    try (injection H as <-; cbn; auto; fail).
  - unfold add_source in H. destruct (negb (inside p)); [discriminate|]. injection H as <-. auto.
  - apply compute_shape in H as (? & ? & ? & ? & ? & ? & ? & ? & ? & ?). congruence.
Qed.
Lemma step_flag : forall g o st st', (air_abs_needed st = true <-> g_air g <> None) -> step o st = Some st' ->
  (air_abs_needed st' = true <-> g_air (configure g o) <> None).
Proof.
  intros g o st st' A H. destruct o; cbn [RoomModel.step configure] in *;
    try (injection H as <-; cbn; auto; fail).
  - unfold add_source in H. destruct (negb (inside p)); [discriminate|]. injection H as <-. auto.
  - injection H as <-. cbn. split; auto; discriminate.
  - injection H as <-. cbn. split; congruence.
  - apply compute_shape in H as (? & ? & ? & ? & ? & ? & ? & ? & ? & ?). rewrite H3. auto.
Qed.
Lemma step_rir : forall o st st', (rir_done st = true <-> rir st <> None) -> step o st = Some st' ->
  (rir_done st' = true <-> rir st' <> None).
Proof.
  intros o st st' A H. destruct o; cbn [RoomModel.step] in *; try (injection H as <-; cbn; auto; fail).
  - unfold add_source in H. destruct (negb (inside p)); [discriminate|]. injection H as <-. auto.
  - apply compute_shape in H as (? & ? & ? & ? & ? & ? & ? & ? & ? & ? & ?). tauto.
Qed.

Lemma run_inv : forall (P : config -> room -> Prop) ops g st st',
  (forall g o st st', In o ops -> P g st -> step o st = Some st' -> P (configure g o) st') ->
  P g st -> run ops st = Some st' -> P (config_after g ops) st'.
Proof.
  intros P. induction ops as [|o ops IH]; intros g st st' Hs Hp H.
  - injection H as <-. auto.
  - unfold RoomModel.run in H. simpl in H. destruct (step o st) as [s1|] eqn:E; [|discriminate]. cbn [bind] in H.
    change (config_after g (o :: ops)) with (config_after (configure g o) ops). eapply IH; eauto.
    + intros. eapply Hs; eauto. now right.
    + eapply Hs; eauto. now left.
Qed.

Lemma init_ok : forall ism c0 air0 rt0 use_rt, let st := init ism c0 air0 rt0 use_rt in
  engine_ok st /\ conf_ok (config0 ism c0 air0 rt0 use_rt) st /\ air_ok (config0 ism c0 air0 rt0 use_rt) st.
Proof. intros. unfold engine_ok, conf_ok, air_ok. cbn. repeat split; auto. Qed.

(** ** Caches *)
Definition mics_of (st : room) : list pos := match mic_array st with Some l => l | None => [] end.
Definition ism_cache (g : config) (st : room) : Prop :=
  if ism_done st
  then let res := map (ism_source (g_mics g) (eng st)) (map fresh (g_sources g)) in
       sources st = map fst res /\ visibility st = Some (map snd res)
  else sources st = map fresh (g_sources g).
Definition hists_for (g : config) (o : rtopt) : list (list hist) :=
  map (fun mic => map (fun p => trace p mic (bin_size o * g_c g) o (g_c g) (g_ism g)) (g_sources g)) (g_mics g).
Definition res_ok (st : room) : Prop := forall em, In em (e_mics (eng st)) -> snd em = bin_size (rt_args st) * c st.
Definition rt_cache (g : config) (st : room) : Prop :=
  rt_needed st = true -> res_ok st /\ (rt_done st = true -> rt_histograms st = Some (hists_for g (rt_args st))).
Definition J (g : config) (st : room) : Prop := engine_ok st /\ conf_ok g st /\ air_ok g st /\ ism_cache g st /\ rt_cache g st.

Lemma ism_source_eng : forall mics (e e' : @engine pos rtopt) (s : @src pos image), map fst (e_mics e) = map fst (e_mics e') -> ism_source mics e s = ism_source mics e' s.
Proof. intros mics e e' s H. unfold RoomModel.ism_source. now rewrite H. Qed.

Lemma sources_len : forall g st, conf_ok g st -> length (sources st) = length (g_sources g).
Proof. intros g st (_ & _ & _ & D & _). rewrite <- D. now rewrite map_length. Qed.

(** The image source part, once the cache is filled. *)
Lemma ism_part_ok : forall g st m mic s p, J g st -> ism_done st = true -> g_ism g = true -> computable g ->
  nth_error (g_mics g) m = Some mic -> nth_error (g_sources g) s = Some p ->
  exists source, nth_error (sources st) s = Some source /\ s_pos source = p /\
    ism_part ism_ir st m mic s source = Some (expected_ism engine_ism ism_ir g m mic p).
Proof.
  intros g st m mic s p (He & Hc & Ha & Hi & _) Hd Hg (_ & _ & Hcomp) Hm Hs. destruct (Hcomp Hg) as [Hin Hseen].
  unfold ism_cache in Hi. rewrite Hd in Hi. cbv zeta in Hi. destruct Hi as [Es Ev].
  assert (Lm : (m < length (g_mics g))%nat) by (apply nth_error_Some; congruence).
  set (is := ism_source (g_mics g) (eng st) (fresh p)).
  assert (E1 : nth_error (sources st) s = Some (fst is)).
  { rewrite Es, !map_map. rewrite nth_error_map, Hs. reflexivity. }
  assert (E2 : forall vs, visibility st = Some vs -> nth_error vs s = Some (snd is)).
  { intros vs E. rewrite Ev in E. injection E as <-. rewrite !map_map, nth_error_map, Hs. reflexivity. }
  assert (Em : map fst (e_mics (eng st)) = g_mics g). { destruct He as (_ & _ & _ & ->). destruct Hc as (_ & _ & _ & _ & ->). auto. }
  exists (fst is). split; auto. 
  assert (Hne : engine_ism (g_mics g) p <> []).
  { intros E. apply (Hseen m p Lm). { eapply nth_error_In; eauto. } unfold seen. now rewrite E. }
  unfold is, RoomModel.ism_source in *. rewrite Em in *. change (s_pos (fresh p)) with p in *.
  destruct (engine_ism (g_mics g) p) as [|i0 il] eqn:Eimg; [congruence|]. rewrite <- Eimg in *. cbn [fst snd s_pos] in *. split; auto.
  unfold ism_part. cbn [s_dirs bind]. destruct (Nat.ltb_spec m (length (g_mics g))); [|lia]. cbn [negb].
  rewrite Ev. cbn [bind]. rewrite (E2 _ Ev). cbn [bind select s_images]. rewrite nth_error_map, nth_error_combine_seq, Hm. cbn [option_map bind fst snd].
  assert (Es2 : filter_mask (map fst (engine_ism (g_mics g) p)) (map (fun iv : image * list bool => nth m (snd iv) false && inside mic) (engine_ism (g_mics g) p)) = Some (seen engine_ism g p m)).
  { rewrite filter_mask_map. unfold seen. do 2 f_equal. apply filter_ext. intros iv. rewrite (Hin mic); [apply andb_true_r|]. eapply nth_error_In; eauto. }
  rewrite Es2. cbn [bind]. pose proof (Hseen m p Lm ltac:(eapply nth_error_In; eauto)) as Hs3.
  destruct (seen engine_ism g p m) as [|x l] eqn:E3; [congruence|]. rewrite <- E3. unfold expected_ism.
  destruct Hc as (-> & _). rewrite Ha. reflexivity.
Qed.
Lemma rt_part_ok : forall g st o m mic s p, J g st -> rt_done st = true -> g_rt g = Some o ->
  nth_error (g_mics g) m = Some mic -> nth_error (g_sources g) s = Some p ->
  forall source, s_pos source = p -> rt_part bin_size rt_ir st m mic s source = Some (expected_rt bin_size trace rt_ir g o mic p).
Proof.
  intros g st o m mic s p (He & Hc & Ha & _ & Hr) Hd Ho Hm Hs source Ep. destruct Hc as (Ec & Ei & Eo & _ & _).
  rewrite Ho in Eo. destruct (rt_needed st) eqn:En; [|discriminate]. injection Eo as ->. destruct (Hr En) as [_ Hh]. specialize (Hh Hd).
  unfold rt_part. rewrite Hh. cbn [bind]. unfold hists_for. rewrite nth_error_map, Hm. cbn [option_map bind].
  rewrite nth_error_map, Hs. cbn [option_map bind]. unfold expected_rt. now rewrite Ep, Ec, Ha.
Qed.

Lemma source_pos : forall g st s p, conf_ok g st -> nth_error (g_sources g) s = Some p -> exists source, nth_error (sources st) s = Some source /\ s_pos source = p.
Proof.
  intros g st s p (_ & _ & _ & D & _) H. rewrite <- D, nth_error_map in H. destruct (nth_error (sources st) s) as [x|]; [|discriminate].
  injection H as H. eauto.
Qed.

(** State after the caches have been filled. *)
Lemma ism_filled : forall g st, J g st -> g_mics g <> [] -> exists st1, (if ism_needed st && negb (ism_done st) then image_source_model inside engine_ism st else Some st) = Some st1 /\
  J g st1 /\ (ism_needed st = true -> ism_done st1 = true) /\ rt_needed st1 = rt_needed st.
Proof.
  intros g st (He & Hc & Ha & Hi & Hr) Hm. destruct (ism_needed st) eqn:E1; destruct (ism_done st) eqn:E2; cbn [andb negb];
    try (exists st; split; [reflexivity|]; split; [exact (conj He (conj Hc (conj Ha (conj Hi Hr))))|]; split; intros; congruence).
  unfold image_source_model. destruct (mic_array st) as [ms|] eqn:Em; [|destruct Hc as (_ & _ & _ & _ & Hc); rewrite Em in Hc; congruence].
  cbn [bind]. eexists. split; [reflexivity|]. split; [|split; reflexivity]. unfold ism_cache in Hi. rewrite E2 in Hi.
  pose proof Hc as (A & B & C & D & E). rewrite Em in E.
  split; [|split; [|split; [|split]]].
  - unfold engine_ok in *. cbn. destruct He as (? & ? & ? & ?). rewrite Em in *. auto.
  - unfold conf_ok. cbn. try rewrite Em. repeat split; auto. rewrite <- D, !map_map. apply map_ext. intros x.
    unfold RoomModel.ism_source. now destruct (engine_ism _ _).
  - exact Ha.
  - unfold ism_cache. cbn. rewrite Hi, E. auto.
  - unfold rt_cache in *. cbn. intros Hn. specialize (Hr Hn). exact Hr.
Qed.
Lemma rt_filled : forall g st, J g st -> g_mics g <> [] -> exists st1, (if rt_needed st && negb (rt_done st) then ray_tracing trace st else Some st) = Some st1 /\
  J g st1 /\ (rt_needed st = true -> rt_done st1 = true) /\ ism_done st1 = ism_done st.
Proof.
  intros g st (He & Hc & Ha & Hi & Hr) Hm. destruct (rt_needed st) eqn:E1; destruct (rt_done st) eqn:E2; cbn [andb negb];
    try (exists st; split; [reflexivity|]; split; [exact (conj He (conj Hc (conj Ha (conj Hi Hr))))|]; split; intros; congruence).
  unfold ray_tracing. destruct (mic_array st) as [ms|] eqn:Em; [|destruct Hc as (_ & _ & _ & _ & Hc); rewrite Em in Hc; congruence].
  cbn [bind]. pose proof Hc as (A & B & C & D & E). rewrite Em in E. pose proof He as (F & G & H & I). rewrite Em in I.
  destruct (Hr E1) as [Hres _].
  assert (Q : mapM (fun r => let* em := nth_error (e_mics (eng st)) r in
      Some (map (fun s => trace (s_pos s) (fst em) (snd em) (e_rt (eng st)) (e_c (eng st)) (e_hybrid (eng st))) (sources st))) (seq 0 (length ms)) = Some (hists_for g (rt_args st))).
  { rewrite (mapM_ext_in _ (fun r => Some (nth r (hists_for g (rt_args st)) []))).
    - rewrite mapM_total. f_equal. assert (L : length ms = length (hists_for g (rt_args st))) by (unfold hists_for; rewrite map_length; congruence).
      rewrite L. apply nth_ext with [] []; [now rewrite map_length, seq_length|]. intros k Hk. rewrite map_length, seq_length in Hk. now rewrite nth_map_seq.
    - intros r Hk. apply in_seq in Hk. assert (Lr : (r < length (e_mics (eng st)))%nat). { rewrite <- (map_length fst), I. lia. }
      destruct (nth_error (e_mics (eng st)) r) as [em|] eqn:Er; [|apply nth_error_None in Er; lia]. cbn [bind]. f_equal.
      assert (Mr : nth_error (g_mics g) r = Some (fst em)). { rewrite <- E, <- I, nth_error_map, Er. reflexivity. }
      unfold hists_for. rewrite (nth_error_nth (map _ _) r (x := map (fun p => trace p (fst em) (bin_size (rt_args st) * g_c g) (rt_args st) (g_c g) (g_ism g)) (g_sources g)) []).
      2:{ rewrite nth_error_map, Mr. reflexivity. }
      rewrite <- D, map_map. apply map_ext. intros s. rewrite (Hres em) by (eapply nth_error_In; eauto).
      rewrite G, F, H, A, E1, B, andb_true_r. reflexivity. }
  rewrite Q. cbn [bind]. eexists. split; [reflexivity|]. split; [|split; reflexivity].
  split; [|split; [|split; [|split]]].
  - unfold engine_ok in *. cbn. try rewrite Em in *. auto.
  - unfold conf_ok. cbn. try rewrite Em. repeat split; auto.
  - exact Ha.
  - unfold ism_cache in *. cbn. exact Hi.
  - unfold rt_cache in *. cbn. auto.
Qed.

Theorem J_compute : forall g st, J g st -> computable g -> exists st' r, compute st = Some st' /\ J g st' /\ rir st' = Some r /\ responses g r.
Proof.
  intros g st HJ Hcomp. pose proof Hcomp as (Hm & Hany & _).
  destruct (ism_filled g st HJ Hm) as (st1 & E1 & J1 & D1 & R1).
  destruct (rt_filled g st1 J1 Hm) as (st2 & E2 & J2 & D2 & R2).
  assert (N : ism_needed st2 = ism_needed st /\ rt_needed st2 = rt_needed st1).
  { pose proof J2 as (_ & (_ & B2 & C2 & _) & _). pose proof J1 as (_ & (_ & B1 & C1 & _) & _). pose proof HJ as (_ & (_ & B & _) & _).
    split; [congruence|]. rewrite C1 in C2. destruct (rt_needed st1), (rt_needed st2); congruence. }
  destruct N as [N1 N2].
  pose proof J2 as (He & Hc & Ha & Hi & Hr). pose proof Hc as (Ec & Ei & Eo & Esrc & Emic).
  destruct (mic_array st2) as [ms|] eqn:Em; [|congruence]. rewrite <- Emic in Hm.
  assert (PR : forall m mic s source, nth_error ms m = Some mic -> nth_error (sources st2) s = Some source ->
    pair_rir bin_size ism_ir rt_ir post st2 m mic s source = Some (expected g m mic (s_pos source))).
  { intros m mic s source H1 H2. rewrite Emic in H1.
    assert (H3 : nth_error (g_sources g) s = Some (s_pos source)). { rewrite <- Esrc, nth_error_map, H2. reflexivity. }
    unfold pair_rir, RoomSpec.expected. rewrite Ei.
    assert (Pi : g_ism g = true -> ism_part ism_ir st2 m mic s source = Some (expected_ism engine_ism ism_ir g m mic (s_pos source))).
    { intros Hg. assert (Dn : ism_done st2 = true) by (rewrite R2; apply D1; congruence).
      destruct (ism_part_ok g st2 m mic s (s_pos source) J2 Dn Hg Hcomp H1 H3) as (x & X1 & X2 & X3). rewrite H2 in X1. injection X1 as <-. auto. }
    assert (Pr : forall o, g_rt g = Some o -> rt_part bin_size rt_ir st2 m mic s source = Some (expected_rt bin_size trace rt_ir g o mic (s_pos source))).
    { intros o Ho. eapply rt_part_ok; eauto. apply D2. rewrite <- N2. rewrite Ho in Eo. destruct (rt_needed st2); [auto|discriminate]. }
    destruct (g_rt g) as [o|] eqn:Eg; destruct (rt_needed st2) eqn:En; try discriminate; destruct (g_ism g) eqn:Egi.
    - rewrite (Pi eq_refl). cbn [bind]. rewrite (Pr _ eq_refl). reflexivity.
    - rewrite (Pr _ eq_refl). reflexivity.
    - rewrite (Pi eq_refl). reflexivity.
    - exfalso. destruct Hany; congruence. }
  set (body := fun mm : nat * pos => mapM (fun ss => pair_rir bin_size ism_ir rt_ir post st2 (fst mm) (snd mm) (fst ss) (snd ss))
        (combine (seq 0 (length (sources st2))) (sources st2))).
  assert (EX : exists r, mapM body (combine (seq 0 (length ms)) ms) = Some r).
  { apply mapM_all. intros (m & mic) Hin. apply mapM_all. intros (s & source) Hin2. apply In_nth_error in Hin as (k & Hk), Hin2 as (k2 & Hk2).
    rewrite nth_error_combine_seq in Hk. rewrite nth_error_combine_seq in Hk2. destruct (nth_error ms k) as [x|] eqn:Ek; [|discriminate]. destruct (nth_error (sources st2) k2) as [y|] eqn:Ek2; [|discriminate].
    injection Hk as <- <-. injection Hk2 as <- <-. cbn [fst snd]. eauto. }
  destruct EX as (r & Er).
  unfold compute_rir. rewrite E1. cbn [bind]. rewrite E2. cbn [bind]. rewrite Em. cbn [bind]. fold body. rewrite Er. cbn [bind].
  eexists. exists r. split; [reflexivity|]. split; [|split; [reflexivity|]].
  - split; [|split; [|split; [|split]]].
    + unfold engine_ok in *. cbn. try rewrite Em in *. auto.
    + unfold conf_ok. cbn. try rewrite Em. repeat split; auto.
    + exact Ha.
    + unfold ism_cache in *. cbn. exact Hi.
    + unfold rt_cache in *. cbn. exact Hr.
  - split. { apply mapM_length in Er. rewrite Er, combine_seq_length. congruence. }
    intros m mic Hmm. rewrite <- Emic in Hmm. destruct (mapM_nth _ _ _ Er m (m, mic)) as (row & B1 & B2). { rewrite nth_error_combine_seq, Hmm. reflexivity. }
    exists row. split; auto. unfold body in B1. split. { apply mapM_length in B1. rewrite B1, combine_seq_length. now apply sources_len. }
    intros s p Hs. destruct (source_pos g st2 s p Hc Hs) as (source & S1 & S2).
    destruct (mapM_nth _ _ _ B1 s (s, source)) as (b & C1 & C2). { rewrite nth_error_combine_seq, S1. reflexivity. }
    cbn [fst snd] in C1. rewrite (PR m mic s source Hmm S1) in C1. injection C1 as <-. rewrite S2 in C2. exact C2.
Qed.

(** ** Which calls keep the caches valid *)
Lemma J_set_air : forall g st a, J g st -> exists st', step (SetAir a) st = Some st' /\ J (configure g (SetAir a)) st'.
Proof.
  intros g st a (He & Hc & Ha & Hi & Hr). eexists. split; [reflexivity|]. split; [exact He|]. split; [exact Hc|]. split; [reflexivity|]. split; [exact Hi|exact Hr].
Qed.
Lemma J_unset_rt : forall g st, J g st -> exists st', step UnsetRT st = Some st' /\ J (configure g UnsetRT) st'.
Proof.
  intros g st ((A & B & C & D) & (E & F & G & H & I) & Ha & Hi & Hr). eexists. split; [reflexivity|]. split; [|split; [|split; [|split]]].
  - unfold engine_ok. cbn. auto.
  - unfold conf_ok. cbn. auto.
  - exact Ha.
  - unfold ism_cache in *. cbn. exact Hi.
  - intros X. discriminate.
Qed.
Lemma J_set_speed : forall g st x, J g st -> rt_needed st = false -> exists st', step (SetSpeed x) st = Some st' /\ J (configure g (SetSpeed x)) st'.
Proof.
  intros g st x ((A & B & C & D) & (E & F & G & H & I) & Ha & Hi & Hr) Hn. eexists. split; [reflexivity|]. split; [|split; [|split; [|split]]].
  - unfold engine_ok. cbn. auto.
  - unfold conf_ok. cbn. auto.
  - exact Ha.
  - unfold ism_cache in *. cbn. exact Hi.
  - intros X. cbn in X. congruence.
Qed.
(** Before the first computation. *)
Definition unused (st : room) : Prop := ism_done st = false /\ rt_done st = false.
Lemma J_add_source : forall g st p, J g st -> unused st -> inside p = true -> exists st', step (AddSource p) st = Some st' /\ J (configure g (AddSource p)) st' /\ unused st'.
Proof.
  intros g st p ((A & B & C & D) & (E & F & G & H & I) & Ha & Hi & Hr) [U1 U2] Hp. cbn [RoomModel.step]. unfold add_source. rewrite Hp. cbn [negb].
  eexists. split; [reflexivity|]. split; [|split; auto]. split; [|split; [|split; [|split]]].
  - unfold engine_ok. cbn. auto.
  - unfold conf_ok. cbn. rewrite map_app, H. auto.
  - exact Ha.
  - unfold ism_cache in *. rewrite U1 in Hi. cbn. rewrite U1, map_app, Hi. reflexivity.
  - intros X. cbn in *. destruct (Hr X) as [Q _]. split; [exact Q|]. cbn. congruence.
Qed.
Lemma J_add_mics : forall g st ps, J g st -> unused st -> exists st', step (AddMics ps) st = Some st' /\ J (configure g (AddMics ps)) st' /\ unused st'.
Proof.
  intros g st ps ((A & B & C & D) & (E & F & G & H & I) & Ha & Hi & Hr) [U1 U2].
  eexists. split; [reflexivity|]. split; [|split; auto]. split; [|split; [|split; [|split]]].
  - unfold engine_ok. cbn. rewrite map_app, map_map, D. cbn. rewrite map_id. repeat split; auto. now destruct (mic_array st).
  - unfold conf_ok. cbn. repeat split; auto. rewrite <- I. now destruct (mic_array st).
  - exact Ha.
  - unfold ism_cache in *. rewrite U1 in Hi. cbn. rewrite U1. exact Hi.
  - intros X. cbn in *. destruct (Hr X) as [Q _]. split; [|cbn; congruence].
    intros em Hin. cbn in *. apply in_app_or in Hin as [Hin|Hin]; [now apply Q|]. apply in_map_iff in Hin as (p & <- & _). cbn. now rewrite A, B.
Qed.
(** Before any microphone is placed, or when ray tracing will stay off, everything may change. *)
Lemma J_any_setup : forall g st o, J g st -> unused st -> e_mics (eng st) = [] ->
  match o with SetRT _ | SetSpeed _ => True | _ => False end -> exists st', step o st = Some st' /\ J (configure g o) st' /\ unused st' /\ e_mics (eng st') = [].
Proof.
  intros g st o ((A & B & C & D) & (E & F & G & H & I) & Ha & Hi & Hr) [U1 U2] Hm Ho. destruct o; try contradiction.
  - eexists. split; [reflexivity|]. split; [|repeat split; auto]. split; [|split; [|split; [|split]]].
    + unfold engine_ok. cbn. auto.
    + unfold conf_ok. cbn. auto.
    + exact Ha.
    + unfold ism_cache in *. cbn. exact Hi.
    + intros _. split; [|cbn; congruence]. unfold res_ok. cbn. rewrite Hm. intros em [].
  - eexists. split; [reflexivity|]. split; [|repeat split; auto]. split; [|split; [|split; [|split]]].
    + unfold engine_ok. cbn. auto.
    + unfold conf_ok. cbn. auto.
    + exact Ha.
    + unfold ism_cache in *. cbn. exact Hi.
    + intros _. split; [|cbn; congruence]. unfold res_ok. cbn. rewrite Hm. intros em [].
Qed.
Lemma J_init : forall ism c0 air0 rt0 use_rt, let st := init ism c0 air0 rt0 use_rt in J (config0 ism c0 air0 rt0 use_rt) st /\ unused st /\ e_mics (eng st) = [].
Proof.
  intros. destruct (init_ok ism c0 air0 rt0 use_rt) as (A & B & C). split; [|repeat split; auto].
  split; [|split; [|split; [|split]]]; auto.
  - reflexivity.
  - intros _. split; [intros em []|cbn; discriminate].
Qed.

Lemma run_cons : forall o ops st st1, step o st = Some st1 -> run (o :: ops) st = run ops st1.
Proof. intros o ops st st1 H. unfold RoomModel.run. simpl. now rewrite H. Qed.

Lemma run_setup : forall ops g st, J g st -> unused st -> e_mics (eng st) = [] ->
  (forall o, In o ops -> match o with SetRT _ | SetSpeed _ | SetAir _ | UnsetRT => True | AddSource p => inside p = true | _ => False end) ->
  exists st', run ops st = Some st' /\ J (config_after g ops) st' /\ unused st'.
Proof.
  induction ops as [|o ops IH]; intros g st HJ U Hm H; [eexists; split; [reflexivity|auto]|].
  pose proof (H o (or_introl eq_refl)) as Ho.
  assert (X : exists st1, step o st = Some st1 /\ J (configure g o) st1 /\ unused st1 /\ e_mics (eng st1) = []).
  { destruct o; try contradiction.
    - destruct (J_add_source g st p HJ U Ho) as (s1 & A & B & C). exists s1. split; [exact A|]. split; [exact B|]. split; [exact C|].
      cbn in A. unfold add_source in A. rewrite Ho in A. injection A as <-. exact Hm.
    - apply J_any_setup; auto.
    - destruct (J_unset_rt g st HJ) as (s1 & A & B). exists s1. split; [exact A|]. split; [exact B|]. injection A as <-. split; [exact U|auto].
    - destruct (J_set_air g st a HJ) as (s1 & A & B). exists s1. split; [exact A|]. split; [exact B|]. injection A as <-. split; [exact U|auto].
    - apply J_any_setup; auto. }
  destruct X as (s1 & A & B & C & D). rewrite (run_cons _ _ _ _ A).
  change (config_after g (o :: ops)) with (config_after (configure g o) ops). apply IH; auto. intros; apply H; now right.
Qed.
Lemma run_placing : forall ops g st, J g st -> unused st ->
  (forall o, In o ops -> match o with AddMics _ | SetAir _ | UnsetRT => True | AddSource p => inside p = true | _ => False end) ->
  exists st', run ops st = Some st' /\ J (config_after g ops) st' /\ unused st'.
Proof.
  induction ops as [|o ops IH]; intros g st HJ U H; [eexists; split; [reflexivity|auto]|].
  pose proof (H o (or_introl eq_refl)) as Ho.
  assert (X : exists st1, step o st = Some st1 /\ J (configure g o) st1 /\ unused st1).
  { destruct o; try contradiction.
    - apply J_add_source; auto.
    - apply J_add_mics; auto.
    - destruct (J_unset_rt g st HJ) as (s1 & A & B). exists s1. split; [exact A|]. split; [exact B|]. injection A as <-. exact U.
    - destruct (J_set_air g st a HJ) as (s1 & A & B). exists s1. split; [exact A|]. split; [exact B|]. injection A as <-. exact U. }
  destruct X as (s1 & A & B & C). rewrite (run_cons _ _ _ _ A).
  change (config_after g (o :: ops)) with (config_after (configure g o) ops). apply IH; auto. intros; apply H; now right.
Qed.
(** Image source only: everything but adding may happen later. *)
Lemma run_placing_ism : forall ops g st, J g st -> unused st -> rt_needed st = false ->
  (forall o, In o ops -> match o with AddMics _ | SetAir _ | UnsetRT | SetSpeed _ => True | AddSource p => inside p = true | _ => False end) ->
  exists st', run ops st = Some st' /\ J (config_after g ops) st' /\ unused st' /\ rt_needed st' = false.
Proof.
  induction ops as [|o ops IH]; intros g st HJ U Hn H; [eexists; split; [reflexivity|auto]|].
  pose proof (H o (or_introl eq_refl)) as Ho.
  assert (X : exists st1, step o st = Some st1 /\ J (configure g o) st1 /\ unused st1 /\ rt_needed st1 = false).
  { destruct o; try contradiction.
    - destruct (J_add_source g st p HJ U Ho) as (s1 & A & B & C). exists s1. split; [exact A|]. split; [exact B|]. split; [exact C|].
      cbn in A. unfold add_source in A. rewrite Ho in A. injection A as <-. exact Hn.
    - destruct (J_add_mics g st ps HJ U) as (s1 & A & B & C). exists s1. split; [exact A|]. split; [exact B|]. split; [exact C|]. injection A as <-. exact Hn.
    - destruct (J_unset_rt g st HJ) as (s1 & A & B). exists s1. split; [exact A|]. split; [exact B|]. injection A as <-. split; [exact U|auto].
    - destruct (J_set_air g st a HJ) as (s1 & A & B). exists s1. split; [exact A|]. split; [exact B|]. injection A as <-. split; [exact U|auto].
    - destruct (J_set_speed g st x HJ Hn) as (s1 & A & B). exists s1. split; [exact A|]. split; [exact B|]. injection A as <-. split; [exact U|auto]. }
  destruct X as (s1 & A & B & C & D). rewrite (run_cons _ _ _ _ A).
  change (config_after g (o :: ops)) with (config_after (configure g o) ops). apply IH; auto. intros; apply H; now right.
Qed.

Definition same_scene (g g' : config) : Prop := g_mics g = g_mics g' /\ g_sources g = g_sources g' /\ g_ism g = g_ism g'.
Lemma computable_scene : forall g g', same_scene g g' -> (g_rt g' <> None \/ g_ism g' = true) -> computable g -> computable g'.
Proof.
  intros g g' (A & B & C) Hr (D & E & F). unfold RoomSpec.computable, seen in *. rewrite <- A, <- B, <- C in *. repeat split; auto.
  - destruct Hr; auto.
  - apply F. auto.
  - apply F. auto.
Qed.

Lemma run_late : forall ops g st, J g st -> computable g ->
  (g_ism g = true \/ forall o, In o ops -> o <> UnsetRT) ->
  (forall o, In o ops -> match o with SetAir _ | UnsetRT | Compute => True | SetSpeed _ => rt_needed st = false | _ => False end) ->
  exists st', run ops st = Some st' /\ J (config_after g ops) st' /\ computable (config_after g ops).
Proof.
  induction ops as [|o ops IH]; intros g st HJ Hc Hr H; [eexists; split; [reflexivity|auto]|].
  pose proof (H o (or_introl eq_refl)) as Ho.
  assert (X : exists st1, step o st = Some st1 /\ J (configure g o) st1 /\ computable (configure g o) /\ (rt_needed st = false -> rt_needed st1 = false)).
  { destruct o; try contradiction.
    - destruct (J_unset_rt g st HJ) as (s1 & A & B). exists s1. split; auto. split; auto. injection A as <-. split; auto.
      apply computable_scene with g; auto; [repeat split; auto|]. right. cbn. destruct Hr as [Hr|Hr]; auto. exfalso. apply (Hr UnsetRT); [now left|auto].
    - destruct (J_set_air g st a HJ) as (s1 & A & B). exists s1. split; auto. split; auto. injection A as <-. split; auto.
    - destruct (J_set_speed g st x HJ Ho) as (s1 & A & B). exists s1. split; auto. split; auto. injection A as <-. split; auto.
    - destruct (J_compute g st HJ Hc) as (s1 & r & A & B & _). exists s1. split; auto. split; auto. split; auto.
      apply compute_shape in A as (_ & _ & _ & A & _). congruence. }
  destruct X as (s1 & A & B & C & D). rewrite (run_cons _ _ _ _ A).
  change (config_after g (o :: ops)) with (config_after (configure g o) ops). apply IH; auto.
  - destruct Hr as [Hr|Hr]; [left; now destruct o|right]. intros; apply Hr; now right.
  - intros o' Ho'. specialize (H o' (or_intror Ho')). destruct o'; auto.
Qed.
End P.
