(** Room: responses follow the configuration; engine and room agree. *)
From Coq Require Import List ZArith Lia Reals Lra Bool.
From Verif Require Import Base BaseProofs RoomModel RoomSpec RoomProofs.
Import ListNotations.
Local Open Scope R_scope.

Section Props.
Context {pos air rtopt image hist : Type}.
Variable bin_size : rtopt -> R.
Variable inside : pos -> bool.
Variable engine_ism : list pos -> pos -> list (image * list bool).
Variable trace : pos -> pos -> R -> rtopt -> R -> bool -> hist.
Variable direct : pos -> image.
Variable ism_ir : list image -> pos -> R -> option air -> list R.
Variable rt_ir : hist -> pos -> pos -> R -> R -> option air -> list R.
Variable post : list R -> list R.
Notation room := (@room pos air rtopt image hist).
Notation run := (run bin_size inside engine_ism trace direct ism_ir rt_ir post).
Notation responses := (responses bin_size engine_ism trace ism_ir rt_ir post).
Notation computable := (computable inside engine_ism).

(** C30, image source rooms.  Set up a room without ray tracing by any sequence of calls that
    place sources (inside) and microphones, set air absorption and set the speed of sound;
    then, in any order, change air absorption or the speed of sound, or compute.  The next
    computation succeeds and gives one response per microphone and source, for the
    configuration at that time. *)
Theorem C30_image_source_room_is_current : forall c0 air0 rt0 early late,
  (forall o, In o early -> match o with AddMics _ | SetAir _ | UnsetRT | SetSpeed _ => True | AddSource p => inside p = true | _ => False end) ->
  (forall o, In o late -> match o with SetAir _ | UnsetRT | SetSpeed _ | Compute => True | _ => False end) ->
  let g0 := config0 true c0 air0 rt0 false in
  computable (config_after g0 early) ->
  exists (st : room) r, run (early ++ late ++ [Compute]) (init true c0 air0 rt0 false) = Some st /\
    rir st = Some r /\ responses (config_after g0 (early ++ late)) r.
Proof.
  intros c0 air0 rt0 early late He Hl g0 Hc.
  destruct (J_init bin_size inside engine_ism trace direct true c0 air0 rt0 false) as (J0 & U0 & _). fold g0 in J0.
  destruct (run_placing_ism bin_size inside engine_ism trace direct ism_ir rt_ir post early g0 _ J0 U0 eq_refl He) as (s1 & R1 & J1 & _ & N1).
  assert (Gi : forall l g, g_ism (config_after g l) = @g_ism pos air rtopt g).
  { clear. induction l as [|o l IH]; intros g; [reflexivity|]. change (config_after g (o :: l)) with (config_after (configure g o) l). rewrite IH. now destruct o. }
  destruct (run_late bin_size inside engine_ism trace direct ism_ir rt_ir post late _ s1 J1 Hc) as (s2 & R2 & J2 & C2).
  { left. now rewrite Gi. }
  { intros o Ho. specialize (Hl o Ho). destruct o; auto. }
  destruct (J_compute bin_size inside engine_ism trace direct ism_ir rt_ir post _ s2 J2 C2) as (s3 & r & R3 & _ & Er & Hr).
  exists s3, r. split; [|split; auto].
  - rewrite run_app, R1. cbn [bind]. rewrite run_app, R2. cbn [bind]. unfold RoomModel.run. cbn. now rewrite R3.
  - unfold config_after in *. rewrite fold_left_app. exact Hr.
Qed.

(** C30, rooms with ray tracing.  First set the ray tracing options, speed of sound and
    sources; then place microphones and further sources; then, in any order, change the air
    absorption, switch ray tracing off, or compute. *)
Theorem C30_ray_tracing_room_is_current : forall ism c0 air0 rt0 use_rt setup placing late,
  (forall o, In o setup -> match o with SetRT _ | SetSpeed _ | SetAir _ | UnsetRT => True | AddSource p => inside p = true | _ => False end) ->
  (forall o, In o placing -> match o with AddMics _ | SetAir _ | UnsetRT => True | AddSource p => inside p = true | _ => False end) ->
  (forall o, In o late -> match o with SetAir _ | Compute => True | UnsetRT => ism = true | _ => False end) ->
  let g0 := config0 ism c0 air0 rt0 use_rt in
  computable (config_after g0 (setup ++ placing)) ->
  exists (st : room) r, run (setup ++ placing ++ late ++ [Compute]) (init ism c0 air0 rt0 use_rt) = Some st /\
    rir st = Some r /\ responses (config_after g0 (setup ++ placing ++ late)) r.
Proof.
  intros ism c0 air0 rt0 use_rt setup placing late Hs Hp Hl g0 Hc.
  destruct (J_init bin_size inside engine_ism trace direct ism c0 air0 rt0 use_rt) as (J0 & U0 & M0). fold g0 in J0.
  destruct (run_setup bin_size inside engine_ism trace direct ism_ir rt_ir post setup g0 _ J0 U0 M0 Hs) as (s0 & R0 & J0' & U0').
  destruct (run_placing bin_size inside engine_ism trace direct ism_ir rt_ir post placing _ s0 J0' U0' Hp) as (s1 & R1 & J1 & _).
  assert (Gi : forall l g, g_ism (config_after g l) = @g_ism pos air rtopt g).
  { clear. induction l as [|o l IH]; intros g; [reflexivity|]. change (config_after g (o :: l)) with (config_after (configure g o) l). rewrite IH. now destruct o. }
  assert (E1 : config_after (config_after g0 setup) placing = config_after g0 (setup ++ placing)) by (unfold config_after; now rewrite fold_left_app).
  rewrite E1 in J1.
  destruct (run_late bin_size inside engine_ism trace direct ism_ir rt_ir post late _ s1 J1 Hc) as (s2 & R2 & J2 & C2).
  { rewrite Gi. unfold g0. cbn. destruct ism; [left; auto|right]. intros o Ho E. specialize (Hl o Ho). subst o. discriminate. }
  { intros o Ho. specialize (Hl o Ho). destruct o; auto; contradiction. }
  destruct (J_compute bin_size inside engine_ism trace direct ism_ir rt_ir post _ s2 J2 C2) as (s3 & r & R3 & _ & Er & Hr).
  exists s3, r. split; [|split; auto].
  - rewrite run_app, R0. cbn [bind]. rewrite run_app, R1. cbn [bind]. rewrite run_app, R2. cbn [bind]. unfold RoomModel.run. cbn. now rewrite R3.
  - unfold config_after in *. rewrite app_assoc, fold_left_app. exact Hr.
Qed.

(** C31.  After any sequence of calls that does not extrude the room, the engine's speed of
    sound, ray tracing options, hybrid flag and microphone positions are those of the room;
    the room's settings are those asked for; and responses are marked done exactly when
    they exist. *)
Theorem C31_engine_and_room_agree : forall ism c0 air0 rt0 use_rt ops (st : room),
  (forall o, In o ops -> o <> Extrude) ->
  run ops (init ism c0 air0 rt0 use_rt) = Some st ->
  let g := config_after (config0 ism c0 air0 rt0 use_rt) ops in
  e_c (eng st) = g_c g /\ c st = g_c g /\
  e_rt (eng st) = rt_args st /\ (g_rt g = if rt_needed st then Some (rt_args st) else None) /\
  e_hybrid (eng st) = ism && rt_needed st /\ ism_needed st = ism /\
  map fst (e_mics (eng st)) = g_mics g /\ (match mic_array st with Some l => l | None => [] end) = g_mics g /\
  map s_pos (sources st) = g_sources g /\
  (air_abs_needed st = true <-> g_air g <> None) /\
  (rir_done st = true <-> rir st <> None).
Proof.
  intros ism c0 air0 rt0 use_rt ops st No R g.
  destruct (init_ok (pos := pos) (image := image) (hist := hist) ism c0 air0 rt0 use_rt) as (E0 & C0 & _).
  assert (E : engine_ok st).
  { apply (run_inv bin_size inside engine_ism trace direct ism_ir rt_ir post (fun _ => engine_ok) ops (config0 ism c0 air0 rt0 use_rt) _ st) in R; auto.
    intros. eapply step_engine; eauto. }
  assert (C : conf_ok g st).
  { eapply (run_inv bin_size inside engine_ism trace direct ism_ir rt_ir post conf_ok); [|exact C0|exact R]. intros. eapply step_conf; eauto. }
  assert (F : air_abs_needed st = true <-> g_air g <> None).
  { eapply (run_inv bin_size inside engine_ism trace direct ism_ir rt_ir post (fun g st => air_abs_needed st = true <-> g_air g <> None)); [| |exact R].
    - intros. eapply step_flag; eauto.
    - cbn. destruct air0; split; congruence. }
  assert (D : rir_done st = true <-> rir st <> None).
  { apply (run_inv bin_size inside engine_ism trace direct ism_ir rt_ir post (fun _ st => rir_done st = true <-> rir st <> None) ops (config0 ism c0 air0 rt0 use_rt) _ st) in R; auto.
    - intros. eapply step_rir; eauto.
    - cbn. split; congruence. }
  assert (G : g_ism g = ism).
  { unfold g. clear. generalize (eq_refl (g_ism (config0 ism c0 air0 rt0 use_rt : @config pos air rtopt))).
    change (g_ism (config0 ism c0 air0 rt0 use_rt : @config pos air rtopt)) with ism at 2. generalize (config0 ism c0 air0 rt0 use_rt : @config pos air rtopt).
    induction ops as [|o l IH]; intros g H; [auto|]. change (config_after g (o :: l)) with (config_after (configure g o) l). apply IH. now destruct o. }
  destruct E as (E1 & E2 & E3 & E4). destruct C as (C1 & C2 & C3 & C4 & C5).
  rewrite C2, G in E3. repeat split; try congruence; try tauto.
Qed.
End Props.
Print Assumptions C30_image_source_room_is_current.
Print Assumptions C30_ray_tracing_room_is_current.
Print Assumptions C31_engine_and_room_agree.

(** ** A concrete room, to meet the hypotheses and for the failures *)
Definition x_ism (mics : list Z) (p : Z) : list (Z * list bool) :=
  [(p, repeat true (length mics)); ((- p)%Z, map (fun m => (m <? p)%Z) mics)].
Definition x_trace (p mic : Z) (res : R) (o c : R) (h : bool) : list R := [res; o].
Definition x_ism_ir (l : list Z) (mic : Z) (c : R) (a : option R) : list R :=
  map (fun p => IZR (p - mic) / c + match a with Some v => v | None => 0 end) l.
Definition x_rt_ir (h : list R) (p mic : Z) (b c : R) (a : option R) : list R := h.
Definition x_run := run (fun o : R => o) (fun _ : Z => true) x_ism x_trace (fun p => p) x_ism_ir x_rt_ir (fun x => x).
Definition x_responses := responses (fun o : R => o) x_ism x_trace x_ism_ir x_rt_ir (fun x => x).
Definition x_computable := computable (air := R) (rtopt := R) (fun _ : Z => true) x_ism.

Example ex_computable_ism : x_computable (config_after (config0 true 1 None 1 false) [AddSource 3%Z; AddMics [1%Z; 5%Z]; SetSpeed 2; AddSource 4%Z]).
Proof.
  split; [discriminate|]. split; [left; reflexivity|]. intros _. split; [auto|]. intros m p Hm _. cbn in Hm.
  destruct m as [|[|m]]; [discriminate|discriminate|lia].
Qed.
Example ex_computable_rt : x_computable (config_after (config0 true 1 None 1 false) ([SetRT 3] ++ [AddMics [1%Z; 5%Z]; AddSource 4%Z])).
Proof.
  split; [discriminate|]. split; [left; reflexivity|]. intros _. split; [auto|]. intros m p Hm _. cbn in Hm.
  destruct m as [|[|m]]; [discriminate|discriminate|lia].
Qed.

(** Air absorption cannot be switched off again: the coefficients stay in use. *)
Theorem C30_unset_air_absorption_refuted : exists ops st r,
  x_computable (config_after (config0 true 1 None 1 false) ops) /\
  x_run (ops ++ [Compute]) (init true 1 None 1 false) = Some st /\ rir st = Some r /\
  ~ x_responses (config_after (config0 true 1 None 1 false) ops) r.
Proof.
  exists [AddSource 3%Z; AddMics [5%Z]; SetAir 7; UnsetAir]. do 2 eexists. split.
  { split; [discriminate|]. split; [left; reflexivity|]. intros _. split; [auto|]. intros m p Hm _. cbn in Hm. destruct m; [discriminate|lia]. }
  split; [cbv -[Rmult Rplus Rdiv IZR]; reflexivity|]. split; [reflexivity|]. intros [_ H]. destruct (H 0%nat 5%Z eq_refl) as (row & E & _ & F).
  specialize (F 0%nat 3%Z eq_refl). cbn in E. injection E as <-. cbn in F. injection F as F. lra.
Qed.
Print Assumptions C30_unset_air_absorption_refuted.

(** A source added after a computation makes the next one fail: the image cache is considered
    valid. *)
Theorem C30_source_added_after_compute_refuted : exists ops st,
  x_computable (config_after (config0 true 1 None 1 false) ops) /\
  x_run ops (init true 1 None 1 false) = Some st /\ x_run (ops ++ [Compute]) (init true 1 None 1 false) = None.
Proof.
  exists [AddSource 3%Z; AddMics [5%Z]; Compute; AddSource 4%Z]. eexists. split.
  { split; [discriminate|]. split; [left; reflexivity|]. intros _. split; [auto|]. intros m p Hm _. cbn in Hm. destruct m; [discriminate|lia]. }
  split; cbv -[Rmult Rplus Rdiv IZR]; reflexivity.
Qed.
Print Assumptions C30_source_added_after_compute_refuted.

(** New ray tracing options after a computation are ignored: the histograms are not redone. *)
Theorem C30_stale_histograms_refuted : exists ops st r,
  x_computable (config_after (config0 true 1 None 1 true) ops) /\
  x_run (ops ++ [Compute]) (init true 1 None 1 true) = Some st /\ rir st = Some r /\
  (* the microphone has the current bin width: only the cache is stale *)
  (forall em, In em (e_mics (eng st)) -> snd em = rt_args st * c st) /\
  ~ x_responses (config_after (config0 true 1 None 1 true) ops) r.
Proof.
  exists [AddSource 3%Z; AddMics [5%Z]; Compute; SetSpeed (1 / 2); SetRT 2]. do 2 eexists. split.
  { split; [discriminate|]. split; [left; reflexivity|]. intros _. split; [auto|]. intros m p Hm _. cbn in Hm. destruct m; [discriminate|lia]. }
  split; [cbv -[Rmult Rplus Rdiv IZR]; reflexivity|]. split; [reflexivity|]. split; [intros em [<-|[]]; cbn; lra|]. intros [_ H]. destruct (H 0%nat 5%Z eq_refl) as (row & E & _ & F).
  specialize (F 0%nat 3%Z eq_refl). cbn in E. injection E as <-. cbn in F. unfold add_parts, expected_ism, expected_rt, x_rt_ir, x_trace in F. cbn in F. injection F as F1 F2. lra.
Qed.
Print Assumptions C30_stale_histograms_refuted.

(** Microphones placed before set_ray_tracing keep the bin width of the default options, but
    their histograms are read with the new one. *)
Theorem C30_old_bin_width_refuted : exists ops st r,
  x_computable (config_after (config0 true 1 None 1 false) ops) /\
  x_run (ops ++ [Compute]) (init true 1 None 1 false) = Some st /\ rir st = Some r /\ ~ In Compute ops /\
  ~ x_responses (config_after (config0 true 1 None 1 false) ops) r.
Proof.
  exists [AddSource 3%Z; AddMics [5%Z]; SetRT 2]. do 2 eexists. split.
  { split; [discriminate|]. split; [left; reflexivity|]. intros _. split; [auto|]. intros m p Hm _. cbn in Hm. destruct m; [discriminate|lia]. }
  split; [cbv -[Rmult Rplus Rdiv IZR]; reflexivity|]. split; [reflexivity|]. split; [intros [X|[X|[X|[]]]]; discriminate|]. intros [_ H]. destruct (H 0%nat 5%Z eq_refl) as (row & E & _ & F).
  specialize (F 0%nat 3%Z eq_refl). cbn in E. injection E as <-. cbn in F. unfold add_parts, expected_ism, expected_rt, x_rt_ir, x_trace in F. cbn in F. injection F as F1. lra.
Qed.
Print Assumptions C30_old_bin_width_refuted.

(** A source that no microphone can see (the image source search returns nothing) is rendered
    with its direct sound: the integer zeros used as visibility select image 0. *)
Theorem C30_occluded_source_refuted : forall (direct : Z -> Z) ism_ir (c0 : R) p mic, exists st : @room Z R R Z (list R),
  run (fun o => o) (fun _ => true) (fun _ _ => []) x_trace direct ism_ir x_rt_ir (fun x => x)
    [AddSource p; AddMics [mic]; Compute] (init true c0 None 1 false) = Some st /\
  rir st = Some [[ism_ir [direct p] mic c0 None]].
Proof. intros. eexists. split; [cbv -[Rmult Rplus Rdiv IZR]; reflexivity|reflexivity]. Qed.
Print Assumptions C30_occluded_source_refuted.

(** A microphone that sees none of the images another microphone sees makes the computation fail. *)
Theorem C30_occluded_microphone_refuted : forall (direct : Z -> Z) ism_ir (c0 : R) p mic1 mic2,
  run (fun o => o) (fun _ => true) (fun _ p => [(p, [true; false])]) x_trace direct ism_ir x_rt_ir (fun x => x)
    [AddSource p; AddMics [mic1; mic2]; Compute] (init (air := R) true c0 None 1 false) = None.
Proof. intros. cbv -[Rmult Rplus Rdiv IZR]. reflexivity. Qed.
Print Assumptions C30_occluded_microphone_refuted.

(** Extruding a room replaces the engine, and with it the microphones it knew. *)
Theorem C31_extrude_loses_microphones_refuted : exists ops st,
  x_run ops (init true 1 None 1 false) = Some st /\ mic_array st = Some [5%Z] /\ e_mics (eng st) = [].
Proof. exists [AddMics [5%Z]; Extrude]. eexists. split; [cbv -[Rmult Rplus Rdiv IZR]; reflexivity|split; reflexivity]. Qed.
Print Assumptions C31_extrude_loses_microphones_refuted.
