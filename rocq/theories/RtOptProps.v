(** C145: the options of the ray tracer. *)
From Coq Require Import Reals ZArith Lia Lra Bool List.
From Verif Require Import Base SphereModel RtOptModel.
Import ListNotations.
Local Open Scope R_scope.

(** ** Specification *)
(** mean number of hits of one ray, per bin, in a sphere of radius [r] in a room of volume [v] *)
Definition hits (c v r bin : R) : R := PI * r ^ 2 * c * bin / v.
(** calls that change the options *)
Inductive call :=
| Set_rt (n_rays : option Z) (radius energy_thres time_thres bin : R) (directions : Z)
| Unset_rt
| Set_c (c : R).
Definition do (r : rt_room) (k : call) : option rt_room :=
  match k with
  | Set_rt n radius e t bin d => set_ray_tracing r n radius e t bin d
  | Unset_rt => unset_ray_tracing r
  | Set_c c => set_sound_speed r c
  end.
Inductive reachable : rt_room -> Prop :=
| Made fs c volume order rt r : make_room fs c volume order rt = Some r -> reachable r
| Done r k r' : reachable r -> do r k = Some r' -> reachable r'.
(** The engine has the parameters of the room. *)
Definition consistent (r : rt_room) : Prop := exists o g, r_args r = Some o /\ r_engine r = Some g /\
  g_c g = r_c r /\ g_max_order g = r_max_order r /\ g_energy_thres g = o_energy_thres o /\ g_time_thres g = o_time_thres o /\ g_receiver_radius g = o_receiver_radius o /\ g_hist_bin_size g = o_hist_bin_size o /\
  g_hybrid g = (r_ism_needed r && r_rt_needed r)%bool /\ o_hist_bin_size o * r_fs r = IZR (o_hist_bin_size_samples o).

Lemma floor_spec x : IZR (Int_part x) <= x < IZR (Int_part x) + 1.
Proof. destruct (base_Int_part x). lra. Qed.
Lemma floor_unique z x : IZR z <= x < IZR z + 1 -> Int_part x = z.
Proof. intros H. pose proof (floor_spec x). assert (IZR z < IZR (Int_part x + 1)) by (rewrite plus_IZR; lra). assert (IZR (Int_part x) < IZR (z + 1)) by (rewrite plus_IZR; lra). apply lt_IZR in H1, H2. lia. Qed.
Lemma set_inv r use n radius e t bin d r' : set_options r use n radius e t bin d = Some r' -> exists o, r_args r' = Some o /\ r_fs r <> 0 /\ o_hist_bin_size_samples o = Int_part (r_fs r * bin) /\ o_hist_bin_size o = IZR (Int_part (r_fs r * bin)) / r_fs r /\
  o_energy_thres o = e /\ o_time_thres o = t /\ o_receiver_radius o = radius /\ o_n_directions o = d /\ r_fs r' = r_fs r /\ r_c r' = r_c r /\ r_volume r' = r_volume r /\ r_rt_needed r' = use /\
  (match n with Some n => o_n_rays o = n | None => let den := PI * radius ^ 2 * r_c r * o_hist_bin_size o in den <> 0 /\ o_n_rays o = trunc (20 * (r_volume r / den)) end).
Proof.
  unfold set_options. destruct (Req_EM_T (r_fs r) 0) as [|F]; [discriminate|]. cbn [bind]. intros H.
  assert (G : forall m, update_engine {| r_fs := r_fs r; r_c := r_c r; r_volume := r_volume r; r_max_order := r_max_order r; r_ism_needed := r_ism_needed r; r_rt_needed := use;
    r_args := Some {| o_energy_thres := e; o_time_thres := t; o_receiver_radius := radius; o_hist_bin_size := IZR (Int_part (r_fs r * bin)) / r_fs r; o_hist_bin_size_samples := Int_part (r_fs r * bin); o_n_rays := m; o_n_directions := d |}; r_engine := r_engine r |} = Some r' ->
    r_args r' = Some {| o_energy_thres := e; o_time_thres := t; o_receiver_radius := radius; o_hist_bin_size := IZR (Int_part (r_fs r * bin)) / r_fs r; o_hist_bin_size_samples := Int_part (r_fs r * bin); o_n_rays := m; o_n_directions := d |} /\ r_fs r' = r_fs r /\ r_c r' = r_c r /\ r_volume r' = r_volume r /\ r_rt_needed r' = use).
  { intros m K. unfold update_engine in K. cbn [r_engine r_args] in K. destruct (r_engine r); cbn [bind] in K; (match type of K with Some ?x = Some _ => assert (EE : r' = x) by congruence end; subst r'; cbn; auto 6). }
  destruct n as [n|]; cbn [bind] in H.
  - destruct (G n H) as (A & B). eexists. split; [exact A|]. cbn. tauto.
  - destruct (Req_EM_T _ 0) as [|D] in H; [discriminate|]. cbn [bind] in H. destruct (G _ H) as (A & B). eexists. split; [exact A|]. cbn. tauto.
Qed.
(** The bins of the histograms are a whole number of samples: the largest that is not longer than asked for, so less than one sample is
    lost, and whole numbers of samples are kept. *)
Theorem C145_bins : forall r n radius e t bin d r', 0 < r_fs r -> 0 <= bin -> set_ray_tracing r n radius e t bin d = Some r' ->
  exists o, r_args r' = Some o /\ (0 <= o_hist_bin_size_samples o)%Z /\ o_hist_bin_size o * r_fs r = IZR (o_hist_bin_size_samples o) /\
    o_hist_bin_size o <= bin < o_hist_bin_size o + 1 / r_fs r /\ (forall m, bin * r_fs r = IZR m -> o_hist_bin_size o = bin /\ o_hist_bin_size_samples o = m).
Proof.
  intros r n radius e t bin d r' Hf Hb H. apply set_inv in H. destruct H as (o & A & F & S1 & S2 & _). exists o. split; [exact A|]. rewrite S1, S2. pose proof (floor_spec (r_fs r * bin)) as Q. set (m := Int_part (r_fs r * bin)) in *. assert (0 <= r_fs r * bin) by (apply Rmult_le_pos; lra). split; [|split; [|split]].
  - assert (IZR (-1) < IZR m) by lra. apply lt_IZR in H0. lia.
  - field. lra.
  - split; [apply Rmult_le_reg_r with (r_fs r); auto; unfold Rdiv; rewrite Rmult_assoc, Rinv_l by lra; lra|]. apply Rmult_lt_reg_r with (r_fs r); auto. replace ((IZR m / r_fs r + 1 / r_fs r) * r_fs r) with (IZR m + 1) by (field; lra). lra.
  - intros z Hz. assert (m = z) by (apply floor_unique; lra). rewrite H0. split; [|reflexivity]. rewrite <- Hz. field. lra.
Qed.
Print Assumptions C145_bins.
(** The default number of rays is the largest with at most 20 hits per bin, on average, in the receiver; a number that is given is kept. *)
Theorem C145_rays : forall r radius e t bin d r', 0 < r_fs r -> 0 < r_c r -> 0 < r_volume r ->
  (set_ray_tracing r None radius e t bin d = Some r' -> 0 <= bin -> exists o, r_args r' = Some o /\ let p := hits (r_c r) (r_volume r) radius (o_hist_bin_size o) in 0 < p /\ IZR (o_n_rays o) * p <= 20 < (IZR (o_n_rays o) + 1) * p) /\
  (forall n, set_ray_tracing r (Some n) radius e t bin d = Some r' -> exists o, r_args r' = Some o /\ o_n_rays o = n).
Proof.
  intros r radius e t bin d r' Hf Hc Hv. split.
  - intros H Hb. destruct (C145_bins r None radius e t bin d r' Hf Hb H) as (o' & A' & S0 & S3 & _). apply set_inv in H. destruct H as (o & A & F & S1 & S2 & _ & _ & _ & _ & _ & _ & _ & _ & D & N). assert (o' = o) by congruence. subst o'. exists o. split; [exact A|]. cbv zeta in D, N.
    assert (B0 : 0 <= o_hist_bin_size o) by (rewrite S2; apply Rmult_le_pos; [rewrite <- S1; now apply IZR_le|left; now apply Rinv_0_lt_compat]).
    set (den := PI * radius ^ 2 * r_c r * o_hist_bin_size o) in *. assert (P0 : 0 < den). { assert (0 <= den); [|lra]. unfold den. pose proof PI_RGT_0. apply Rmult_le_pos; [|exact B0]. apply Rmult_le_pos; [|lra]. apply Rmult_le_pos; [lra|apply pow2_ge_0]. }
    cbv zeta. unfold hits. fold den. assert (PP : 0 < den / r_volume r) by (apply Rmult_lt_0_compat; [auto|now apply Rinv_0_lt_compat]). split; [exact PP|]. set (p := den / r_volume r) in *. assert (E : r_volume r / den = / p) by (unfold p; field; lra). rewrite E in N. assert (IP : 0 < / p) by now apply Rinv_0_lt_compat. unfold trunc in N. destruct (Rle_dec 0 (20 * / p)) as [_|L]; [|lra]. pose proof (floor_spec (20 * / p)) as Q. rewrite <- N in Q. split.
    + apply Rle_trans with (20 * / p * p); [apply Rmult_le_compat_r; lra|]. rewrite Rmult_assoc, Rinv_l by lra. lra.
    + apply Rle_lt_trans with (20 * / p * p); [rewrite Rmult_assoc, Rinv_l by lra; lra|]. apply Rmult_lt_compat_r; lra.
  - intros n H. apply set_inv in H. destruct H as (o & A & K). exists o. split; [exact A|]. tauto.
Qed.
Print Assumptions C145_rays.
(** After any calls, the engine has the parameters of the room, and a bin is a whole number of samples. *)
Theorem C145_engine : forall r, reachable r -> consistent r.
Proof.
  assert (U : forall r r', (exists o, r_args r = Some o /\ o_hist_bin_size o * r_fs r = IZR (o_hist_bin_size_samples o)) -> r_engine r <> None -> update_engine r = Some r' -> consistent r').
  { intros r r' (o & A & B) E H. unfold update_engine in H. destruct (r_engine r); [|contradiction]. rewrite A in H. cbn [bind] in H. match type of H with Some ?x = Some _ => assert (r' = x) by congruence end. subst r'. unfold consistent. cbn. exists o. eexists. split; [reflexivity|]. split; [reflexivity|]. cbn. auto 10. }
  induction 1 as [fs c volume order rt r H|r k r' R IH H].
  - unfold make_room in H. match type of H with bind ?x _ = _ => destruct x as [r0|] eqn:E; [|discriminate] end. cbn [bind] in H. apply set_inv in E. destruct E as (o & A & F & S1 & S2 & _ & _ & _ & _ & FS & _). unfold init_engine in H. rewrite A in H. cbn [bind] in H. match type of H with Some ?x = Some _ => assert (r = x) by congruence end. subst r. unfold consistent. cbn. exists o. eexists. split; [reflexivity|]. split; [reflexivity|]. cbn. cbn in F, FS, S1, S2. repeat (split; [reflexivity|]). rewrite S1, S2, FS. field. exact F.
  - destruct IH as (o & g & A & G & _ & _ & _ & _ & _ & _ & _ & B). destruct k; cbn [do] in H.
    + pose proof H as K. apply set_inv in K. destruct K as (o' & A' & F & S1 & S2 & _). unfold set_ray_tracing, set_options in H. destruct (Req_EM_T (r_fs r) 0); [discriminate|]. cbn [bind] in H.
      destruct (match n_rays with Some n => _ | None => _ end) as [m|] in H; [|discriminate]. cbn [bind] in H. apply U in H; [exact H| |cbn; congruence]. eexists. split; [reflexivity|]. cbn. field. exact F.
    + apply U in H; [exact H| |cbn; congruence]. exists o. auto.
    + apply U in H; [exact H| |cbn; congruence]. exists o. auto.
Qed.
Print Assumptions C145_engine.
(** What each call changes: ray tracing is on after [set_ray_tracing], with the options given, and off after [unset_ray_tracing], with the
    options kept; [set_sound_speed] changes the speed and nothing else; a new room traces rays when asked to. *)
Theorem C145_calls : forall r r',
  (forall n radius e t bin d, do r (Set_rt n radius e t bin d) = Some r' -> r_rt_needed r' = true /\ r_c r' = r_c r /\ r_ism_needed r' = r_ism_needed r /\
     exists o, r_args r' = Some o /\ o_energy_thres o = e /\ o_time_thres o = t /\ o_receiver_radius o = radius /\ o_n_directions o = d) /\
  (do r Unset_rt = Some r' -> r_rt_needed r' = false /\ r_c r' = r_c r /\ r_args r' = r_args r /\ r_ism_needed r' = r_ism_needed r) /\
  (forall c, do r (Set_c c) = Some r' -> r_c r' = c /\ r_rt_needed r' = r_rt_needed r /\ r_args r' = r_args r /\ r_ism_needed r' = r_ism_needed r) /\
  (forall fs c volume order rt, make_room fs c volume order rt = Some r' -> r_rt_needed r' = rt /\ r_c r' = c /\ (r_ism_needed r' = true <-> (0 <= order)%Z)).
Proof.
  assert (U : forall q q', update_engine q = Some q' -> r_rt_needed q' = r_rt_needed q /\ r_c q' = r_c q /\ r_args q' = r_args q /\ r_ism_needed q' = r_ism_needed q).
  { intros q q' H. unfold update_engine in H. destruct (r_engine q); [destruct (r_args q) eqn:A; [|discriminate]|]; cbn [bind] in H; (match type of H with Some ?x = Some _ => assert (q' = x) by congruence end); subst q'; cbn; auto. }
  assert (V : forall q use n radius e t bin d q', set_options q use n radius e t bin d = Some q' -> r_ism_needed q' = r_ism_needed q).
  { intros q use n radius e t bin d q' H. unfold set_options in H. destruct (Req_EM_T (r_fs q) 0); [discriminate|]. cbn [bind] in H. destruct (match n with Some n => _ | None => _ end) in H; [|discriminate]. cbn [bind] in H. now apply U in H. }
  intros r r'. repeat split.
  1-4: cbn [do] in H; unfold set_ray_tracing in H; pose proof (V _ _ _ _ _ _ _ _ _ H) as Q; apply set_inv in H; destruct H as (o & A & K).
  - tauto.
  - tauto.
  - exact Q.
  - exists o. split; [exact A|]. tauto.
  - apply U in H. cbn in H. tauto.
  - apply U in H. cbn in H. tauto.
  - apply U in H. cbn in H. tauto.
  - apply U in H. cbn in H. tauto.
  - apply U in H. cbn in H. tauto.
  - apply U in H. cbn in H. tauto.
  - apply U in H. cbn in H. tauto.
  - apply U in H. cbn in H. tauto.
  - unfold make_room in H. match type of H with bind ?x _ = _ => destruct x as [r0|] eqn:E; [|discriminate] end. cbn [bind] in H. apply set_inv in E. destruct E as (o & A & K). unfold init_engine in H. rewrite A in H. cbn [bind] in H. match type of H with Some ?x = Some _ => assert (r' = x) by congruence end. subst r'. cbn. tauto.
  - unfold make_room in H. match type of H with bind ?x _ = _ => destruct x as [r0|] eqn:E; [|discriminate] end. cbn [bind] in H. apply set_inv in E. destruct E as (o & A & K). unfold init_engine in H. rewrite A in H. cbn [bind] in H. match type of H with Some ?x = Some _ => assert (r' = x) by congruence end. subst r'. cbn in *. tauto.
  - unfold make_room in H. match type of H with bind ?x _ = _ => destruct x as [r0|] eqn:E; [|discriminate] end. cbn [bind] in H. pose proof (V _ _ _ _ _ _ _ _ _ E) as W. cbn in W. unfold init_engine in H. destruct (r_args r0); [|discriminate]. cbn [bind] in H. match type of H with Some ?x = Some _ => assert (r' = x) by congruence end. subst r'. cbn [r_ism_needed] in *. intros T. apply Z.leb_le. congruence.
  - unfold make_room in H. match type of H with bind ?x _ = _ => destruct x as [r0|] eqn:E; [|discriminate] end. cbn [bind] in H. pose proof (V _ _ _ _ _ _ _ _ _ E) as W. cbn in W. unfold init_engine in H. destruct (r_args r0); [|discriminate]. cbn [bind] in H. match type of H with Some ?x = Some _ => assert (r' = x) by congruence end. subst r'. cbn [r_ism_needed] in *. intros T. apply Z.leb_le in T. congruence.
Qed.
Print Assumptions C145_calls.
Lemma floor_0 x : 0 <= x < 1 -> Int_part x = 0%Z.
Proof. intros H. apply floor_unique. cbn. lra. Qed.
Definition ex_room (v : R) : rt_room := {| r_fs := 16000; r_c := 343; r_volume := v; r_max_order := 3; r_ism_needed := true; r_rt_needed := false; r_args := None; r_engine := None |}.
(** A bin that is positive but shorter than a sample becomes zero: with the default number of rays this raises, with a given number the
    histograms get bins of width zero. *)
Theorem C145_short_bin_refuted : exists r bin, 0 < bin /\ (forall radius e t d, set_ray_tracing r None radius e t bin d = None) /\
  forall n radius e t d, exists r' o, set_ray_tracing r (Some n) radius e t bin d = Some r' /\ r_args r' = Some o /\ o_hist_bin_size o = 0.
Proof.
  exists (ex_room 100), (1 / 20000). split; [lra|]. assert (Z : Int_part (16000 * (1 / 20000)) = 0%Z) by (apply floor_0; lra). split; intros.
  - unfold set_ray_tracing, set_options. cbn [ex_room r_fs r_c]. rewrite Z. destruct (Req_EM_T 16000 0); [lra|]. cbn [bind]. destruct (Req_EM_T _ 0) as [|N]; [reflexivity|]. exfalso. apply N. field.
  - unfold set_ray_tracing, set_options. cbn [ex_room r_fs r_c]. rewrite Z. destruct (Req_EM_T 16000 0); [lra|]. cbn [bind update_engine r_engine]. do 2 eexists. split; [reflexivity|]. split; [reflexivity|]. cbn. field.
Qed.
Print Assumptions C145_short_bin_refuted.
(** A room of 36 litres, with the default options: the default is not a single ray, and sampling the directions of zero rays raises. *)
Theorem C145_small_room_refuted : exists v r', 0 < v /\ set_ray_tracing (ex_room v) None (1 / 2) (1 / 10000000) 10 (4 / 1000) 720 = Some r' /\
  exists o, r_args r' = Some o /\ o_n_rays o = 0%Z /\ fibonacci_spherical_sampling (Z.to_nat (o_n_rays o)) = None.
Proof.
  exists (36 / 1000). eexists. split; [lra|]. assert (Z : Int_part (16000 * (4 / 1000)) = 64%Z) by (apply floor_unique; cbn; lra). assert (P3 : 3 < PI) by (pose proof PI2_3_2; lra). split.
  - unfold set_ray_tracing, set_options. cbn [ex_room r_fs r_c r_volume]. rewrite Z. destruct (Req_EM_T 16000 0); [lra|]. cbn [bind]. destruct (Req_EM_T _ 0) as [N|N]; [exfalso; lra|]. cbn [bind update_engine r_engine]. reflexivity.
  - cbn. eexists. split; [reflexivity|]. cbn. match goal with |- trunc ?x = _ /\ _ => assert (T : trunc x = 0%Z) end; [|rewrite T; split; reflexivity]. set (den := PI * _ * _ * _). assert (D : 9/10 < den) by (unfold den; lra). assert (ID : 0 < / den < 10 / 9). { split; [apply Rinv_0_lt_compat; lra|]. rewrite <- (Rinv_inv (10 / 9)). apply Rinv_lt_contravar; [|lra]. apply Rmult_lt_0_compat; [|lra]. lra. } unfold trunc, Rdiv in *. destruct (Rle_dec 0 _) as [|L]; [apply floor_0; lra|exfalso; lra].
Qed.
Print Assumptions C145_small_room_refuted.
(** A room of 100 cubic metres at 44.1 kHz: bins of 176 samples. *)
Example C145_bins_case : exists r o, make_room 44100 343 100 3 true = Some r /\ r_args r = Some o /\ o_hist_bin_size_samples o = 176%Z /\ consistent r.
Proof.
  assert (Z : Int_part (44100 * (4 / 1000)) = 176%Z) by (apply floor_unique; cbn; lra). pose proof PI_RGT_0.
  assert (M : exists r o, make_room 44100 343 100 3 true = Some r /\ r_args r = Some o /\ o_hist_bin_size_samples o = 176%Z).
  { unfold make_room, set_options. cbn [r_fs r_c r_volume]. rewrite Z. destruct (Req_EM_T 44100 0); [lra|]. cbn [bind]. destruct (Req_EM_T _ 0) as [N|N]; [exfalso; lra|]. cbn [bind update_engine r_engine init_engine r_args]. do 2 eexists. split; [reflexivity|]. split; reflexivity. }
  destruct M as (r & o & A & B & C). exists r, o. repeat split; auto. apply C145_engine. econstructor. exact A.
Qed.
