(** C149: sources, microphones and ray tracing of a room. *)
From Coq Require Import List ZArith Lia Reals Lra Bool.
From Verif Require Import Base Vec HistogramModel HistogramSpec HistogramProps RtOptModel RtOptProps RtRoomModel.
Import ListNotations.
Local Open Scope R_scope.

(** ** Specification *)
(** Energies in band [b] of the hits from sector [d] that arrive during the k-th bin. *)
Definition arrived (c bin : R) (sector : vec -> nat) (d b k : nat) (es : list (R * list R * list R)) : list R :=
  flat_map (fun e => let '(dist, energy, origin) := e in
    if Nat.eqb (sector origin) d && (if Rle_dec (INR k * bin) (dist / c) then if Rlt_dec (dist / c) (INR (S k) * bin) then true else false else false)
    then [nth b energy 0] else []) es.
Definition nearest_ok (nearest : list vec -> vec -> nat) : Prop :=
  forall pts q, pts <> [] -> (nearest pts q < length pts)%nat /\ forall j, (j < length pts)%nat -> vdist q (nth (nearest pts q) pts []) <= vdist q (nth j pts []).
(** the directions a directivity tells apart: those of its measurements, or Fibonacci points *)
Definition told_apart (fib : Z -> list vec) (n_dirs : Z) (d : directivity) : list vec := match d_class d with Measured => d_grid d | _ => fib n_dirs end.
(** the [n] sectors of a microphone: one without directivity, otherwise the directions, with [sector o] the closest to o seen from it *)
Definition sectors (fib : Z -> list vec) (n_dirs : Z) (mic : vec * option directivity) (n : nat) (sector : vec -> nat) : Prop :=
  match snd mic with
  | None => n = 1%nat /\ forall o, sector o = 0%nat
  | Some d => let ds := told_apart fib n_dirs d in n = length ds /\ forall o, (sector o < n)%nat /\
      forall j, (j < n)%nat -> n <> 1%nat -> vdist (vnormalized (vminus o (fst mic))) (nth (sector o) ds []) <= vdist (vnormalized (vminus o (fst mic))) (nth j ds [])
  end.
(** the rays of a source: in the Fibonacci directions with energy one, or those of its directivity, the energies repeated *)
Definition rays (fib : Z -> list vec) (bands : nat) (n : Z) (s : source) (dirs : list vec) (en : list (list R)) : Prop :=
  length en = Z.to_nat n /\ Forall (fun row => length row = bands) en /\
  match so_dir s with
  | None => dirs = fib n /\ forall i j, (i < Z.to_nat n)%nat -> (j < bands)%nat -> nth j (nth i en []) 0 = 1
  | Some d => exists e, d_rays d n = Some (dirs, e) /\ forall i j, (i < Z.to_nat n)%nat -> (j < bands)%nat ->
      let row := nth (if Nat.eqb (length e) (Z.to_nat n) then i else 0%nat) e [] in
      nth j (nth i en []) 0 = nth (if Nat.eqb (length row) bands then j else 0%nat) row 0
  end.
(** calls of the room *)
Inductive call :=
| Source (pos : vec) (dir : option directivity)
| Sound (s : source) (dir : option directivity)
| Mic (loc : vec) (dir : option directivity)
| Array (locs : list vec) (ds : directivities)
| Option_ (k : RtOptProps.call).
Definition do (inside : vec -> bool) (g : garbage) (st : room) (k : call) : option room :=
  match k with
  | Source p d => add_source inside st p d
  | Sound s d => add_soundsource inside st s d
  | Mic l d => add_microphone g st l d
  | Array ls ds => add_microphone_array g st ls ds
  | Option_ k => let* o := RtOptProps.do (q_opts st) k in Some (set_opts st o)
  end.
Definition new_room (o : rt_room) (dim bands : nat) : room := {| q_opts := o; q_dim := dim; q_bands := bands; q_sources := []; q_mics := []; q_engine := [] |}.
Inductive reachable (inside : vec -> bool) (g : garbage) : room -> Prop :=
| Made fs c volume order rt o dim bands : make_room fs c volume order rt = Some o -> reachable inside g (new_room o dim bands)
| Done st k st' : reachable inside g st -> do inside g st k = Some st' -> reachable inside g st'.
(** the width of the bins and the speed of sound *)
Definition timing (st : room) : R * option R := (r_c (q_opts st), option_map o_hist_bin_size (r_args (q_opts st))).
(** rooms that get microphones only after the last change of the width of the bins or of the speed of sound *)
Inductive settled (inside : vec -> bool) (g : garbage) : room -> Prop :=
| S_made fs c volume order rt o dim bands : make_room fs c volume order rt = Some o -> settled inside g (new_room o dim bands)
| S_done st k st' : settled inside g st -> do inside g st k = Some st' -> (q_mics st = [] \/ timing st' = timing st) -> settled inside g st'.

(** ** Reachable rooms *)
Lemma mapM_length {A B} (f : A -> option B) l r : mapM f l = Some r -> length r = length l.
Proof. revert r. induction l as [|a l IH]; intros r H; cbn [mapM] in H; [injection H as <-; reflexivity|]. destruct (f a); [|discriminate]. cbn [bind] in H. destruct (mapM f l) eqn:E; [|discriminate]. cbn [bind] in H. injection H as <-. cbn. f_equal. now apply IH. Qed.
Lemma mapM_nth {A B} (f : A -> option B) l r i a : mapM f l = Some r -> nth_error l i = Some a -> exists b, f a = Some b /\ nth_error r i = Some b.
Proof.
  revert r i. induction l as [|x l IH]; intros r i H E; [destruct i; discriminate|]. cbn [mapM] in H. destruct (f x) as [y|] eqn:F; [|discriminate]. cbn [bind] in H. destruct (mapM f l) as [r'|]; [|discriminate]. cbn [bind] in H.
  injection H as <-. destruct i as [|i]; cbn in E |- *; [injection E as <-; eauto|]. eapply IH; eauto.
Qed.
(** what an engine's microphone knows *)
Definition fits (st : room) (e : microphone) : Prop := mi_bands e = q_bands st /\ (0 < mi_init e)%nat.
Lemma add_mics_inv g st ms st' : add_mics g st ms = Some st' -> q_opts st' = q_opts st /\ q_dim st' = q_dim st /\ q_bands st' = q_bands st /\ q_sources st' = q_sources st /\ q_mics st' = q_mics st ++ ms /\
  Forall (fun m => length (fst m) = q_dim st) ms /\ exists es, q_engine st' = q_engine st ++ es /\ mapM (fun m => engine_mic g st (fst m)) ms = Some es.
Proof.
  unfold add_mics. destruct (forallb _ ms) eqn:F; [|discriminate]. cbn [negb]. destruct (mapM _ ms) as [es|] eqn:E; [|discriminate]. cbn [bind]. intro H. injection H as <-. cbn. repeat (split; [reflexivity|]). split; [|eauto].
  rewrite forallb_forall in F. apply Forall_forall. intros m Hm. apply Nat.eqb_eq. auto.
Qed.
Lemma add_src_inv inside st s st' : add_src inside st s = Some st' -> inside (so_pos s) = true /\ length (so_pos s) = q_dim st /\
  st' = {| q_opts := q_opts st; q_dim := q_dim st; q_bands := q_bands st; q_sources := q_sources st ++ [s]; q_mics := q_mics st; q_engine := q_engine st |}.
Proof. unfold add_src. destruct (Nat.eqb_spec (length (so_pos s)) (q_dim st)); [|discriminate]. destruct (inside (so_pos s)); [|discriminate]. cbn [negb]. intro H. injection H as <-. auto. Qed.
Lemma mic_made g st (ms : list (vec * option directivity)) es : mapM (fun m => engine_mic g st (fst m)) ms = Some es -> map mi_loc es = map fst ms /\ Forall (fits st) es /\
  (ms = [] \/ exists e, r_engine (q_opts st) = Some e /\ Forall (fun x => mi_res x = g_hist_bin_size e * g_c e) es).
Proof.
  revert es. induction ms as [|m ms IH]; intros es H; cbn [mapM] in H; [injection H as <-; auto|].
  unfold engine_mic at 1 in H. destruct (r_engine (q_opts st)) as [e|] eqn:E; [|discriminate]. cbn [bind] in H. destruct (mapM _ ms) as [r|] eqn:Em; [|discriminate]. cbn [bind] in H.
  match type of H with Some ?x = Some _ => assert (EE : es = x) by congruence end. subst es. destruct (IH r eq_refl) as (A & B & D). cbn [map make_mic mic_reset mi_loc]. split; [cbn; congruence|]. split.
  - constructor; [|exact B]. unfold fits. cbn [make_mic mic_reset mi_bands mi_init]. split; [reflexivity|lia].
  - right. exists e. split; [reflexivity|]. constructor; [reflexivity|]. destruct D as [->|(e' & E' & D)]; [cbn in Em; injection Em as <-; constructor|]. assert (e' = e) by congruence. now subst.
Qed.
(** The effect of one call on the microphones. *)
Lemma do_mics inside g st k st' : do inside g st k = Some st' -> q_bands st' = q_bands st /\ q_dim st' = q_dim st /\
  exists (ms : list (vec * option directivity)) es, q_mics st' = q_mics st ++ ms /\ q_engine st' = q_engine st ++ es /\ mapM (fun m => engine_mic g st (fst m)) ms = Some es /\ ((ms = []) \/ q_opts st' = q_opts st).
Proof.
  assert (N : forall st', st' = st -> q_bands st' = q_bands st /\ q_dim st' = q_dim st /\ exists ms es, q_mics st' = q_mics st ++ ms /\ q_engine st' = q_engine st ++ es /\ mapM (fun m => engine_mic g st (fst m)) ms = Some es /\ ((ms = []) \/ q_opts st' = q_opts st)).
  { intros ? ->. repeat split. exists [], []. rewrite !app_nil_r. cbn. auto. }
  assert (A : forall s st', add_src inside st s = Some st' -> q_bands st' = q_bands st /\ q_dim st' = q_dim st /\ exists ms es, q_mics st' = q_mics st ++ ms /\ q_engine st' = q_engine st ++ es /\ mapM (fun m => engine_mic g st (fst m)) ms = Some es /\ ((ms = []) \/ q_opts st' = q_opts st)).
  { intros s x H. apply add_src_inv in H. destruct H as (_ & _ & ->). cbn. repeat split. exists [], []. rewrite !app_nil_r. cbn. auto. }
  assert (B : forall ms st', add_mics g st ms = Some st' -> q_bands st' = q_bands st /\ q_dim st' = q_dim st /\ exists ms es, q_mics st' = q_mics st ++ ms /\ q_engine st' = q_engine st ++ es /\ mapM (fun m => engine_mic g st (fst m)) ms = Some es /\ ((ms = []) \/ q_opts st' = q_opts st)).
  { intros ms x H. apply add_mics_inv in H. destruct H as (H1 & H2 & H3 & _ & H4 & _ & es & H5 & H6). split; [exact H3|]. split; [exact H2|]. exists ms, es. auto. }
  destruct k; cbn [do]; intro H.
  - unfold add_source in H. destruct (negb _ && _)%bool; [discriminate|]. destruct dir as [d|]; [|now apply A in H]. destruct (d_class d); [now apply A in H|now apply A in H|]. injection H as <-. now apply N.
  - unfold add_soundsource in H. now apply A in H.
  - unfold add_microphone in H. destruct (negb _ && _)%bool; [discriminate|]. now apply B in H.
  - unfold add_microphone_array in H. destruct (_ && _)%bool; [discriminate|]. destruct (negb _ && _)%bool; [discriminate|]. destruct (spread _ _); [|discriminate]. cbn [bind] in H. now apply B in H.
  - destruct (RtOptProps.do (q_opts st) k) as [o|]; [|discriminate]. cbn [bind] in H. injection H as <-. cbn. repeat split. exists [], []. rewrite !app_nil_r. cbn. auto.
Qed.
Lemma do_opts inside g st k st' : do inside g st k = Some st' -> q_opts st' = q_opts st \/ exists k', RtOptProps.do (q_opts st) k' = Some (q_opts st').
Proof.
  assert (A : forall s, add_src inside st s = Some st' -> q_opts st' = q_opts st) by (intros s H; apply add_src_inv in H; destruct H as (_ & _ & ->); reflexivity).
  assert (B : forall ms, add_mics g st ms = Some st' -> q_opts st' = q_opts st) by (intros ms H; apply add_mics_inv in H; tauto).
  destruct k; cbn [do]; intro H.
  - left. unfold add_source in H. destruct (negb _ && _)%bool; [discriminate|]. destruct dir as [d|]; [|eauto]. destruct (d_class d); eauto. injection H as <-. reflexivity.
  - left. unfold add_soundsource in H. eauto.
  - left. unfold add_microphone in H. destruct (negb _ && _)%bool; [discriminate|]. eauto.
  - left. unfold add_microphone_array in H. destruct (_ && _)%bool; [discriminate|]. destruct (negb _ && _)%bool; [discriminate|]. destruct (spread _ _); [|discriminate]. cbn [bind] in H. eauto.
  - right. exists k. destruct (RtOptProps.do (q_opts st) k) as [o|]; [|discriminate]. cbn [bind] in H. injection H as <-. reflexivity.
Qed.
Lemma reachable_opts inside g st : reachable inside g st -> RtOptProps.reachable (q_opts st).
Proof.
  induction 1 as [fs c volume order rt o dim bands H|st k st' R IH H]; [econstructor; exact H|].
  destruct (do_opts _ _ _ _ _ H) as [->|[k' K]]; [exact IH|]. econstructor 2; eauto.
Qed.
Lemma settled_reachable inside g st : settled inside g st -> reachable inside g st.
Proof. induction 1; [econstructor; eauto|econstructor 2; eauto]. Qed.
(** The engine has the microphones of the array, in order, whatever the calls. *)
Theorem C149_engine : forall inside g st, reachable inside g st ->
  length (q_engine st) = length (q_mics st) /\ forall m, (m < length (q_mics st))%nat -> exists e mic, nth_error (q_engine st) m = Some e /\ nth_error (q_mics st) m = Some mic /\ mi_loc e = fst mic /\ mi_bands e = q_bands st /\ (0 < mi_init e)%nat.
Proof.
  intros inside g st H.
  assert (X : map mi_loc (q_engine st) = map fst (q_mics st) /\ Forall (fits st) (q_engine st)).
  { induction H as [fs c volume order rt o dim bands H|st k st' R IH H]; [split; [reflexivity|constructor]|].
    destruct (do_mics _ _ _ _ _ H) as (E1 & _ & ms & es & E3 & E4 & E5 & _). destruct (mic_made _ _ _ _ E5) as (A & B & _). destruct IH as [I1 I2]. rewrite E3, E4, !map_app. split; [congruence|]. unfold fits in *. rewrite E1. apply Forall_app. auto. }
  destruct X as [X1 X2]. assert (L : length (q_engine st) = length (q_mics st)) by (rewrite <- (map_length mi_loc), X1, map_length; reflexivity). split; [exact L|]. intros m Hm.
  destruct (nth_error (q_engine st) m) as [e|] eqn:E; [|apply nth_error_None in E; lia]. destruct (nth_error (q_mics st) m) as [mic|] eqn:F; [|apply nth_error_None in F; lia]. exists e, mic. repeat (split; [reflexivity|]).
  rewrite Forall_forall in X2. destruct (X2 e) as [Y1 Y2]; [eapply nth_error_In; eauto|]. split; [|auto].
  apply (map_nth_error mi_loc) in E. apply (map_nth_error fst) in F. rewrite X1 in E. congruence.
Qed.
Print Assumptions C149_engine.
Lemma settled_res inside g st : settled inside g st -> forall o, r_args (q_opts st) = Some o -> Forall (fun e => mi_res e = o_hist_bin_size o * r_c (q_opts st)) (q_engine st).
Proof.
  intro H. induction H as [fs c volume order rt o dim bands H|st k st' R IH H T]; [constructor|]. intros o' A'.
  destruct (do_mics _ _ _ _ _ H) as (_ & _ & ms & es & E3 & E4 & E5 & E6). destruct (mic_made _ _ _ _ E5) as (_ & _ & D).
  pose proof (C145_engine _ (reachable_opts _ _ _ (settled_reachable _ _ _ R))) as (o & e & A & G & G1 & _ & _ & _ & _ & G2 & _).
  pose proof (C149_engine _ _ _ (settled_reachable _ _ _ R)) as [L _].
  rewrite E4. apply Forall_app. split.
  - destruct T as [T|T]; [rewrite T in L; destruct (q_engine st); [constructor|discriminate]|].
    unfold timing in T. rewrite A, A' in T. cbn in T. injection T as T1 T2. rewrite T1, T2. apply IH. exact A.
  - destruct E6 as [->|E6]; [cbn in E5; injection E5 as <-; constructor|]. destruct D as [->|(e' & E' & D)]; [cbn in E5; injection E5 as <-; constructor|].
    assert (e' = e) by congruence. subst e'. rewrite E6 in A' |- *. assert (o' = o) by congruence. subst o'. rewrite <- G1, <- G2. exact D.
Qed.

(** ** Ray tracing *)
Section Trace.
Variable g : garbage.
Variable fib : Z -> list vec.
Variable nearest : list vec -> vec -> nat.
Variable hits : nat -> list vec -> list (list R) -> vec -> nat -> list (R * list R * list R).
Variable gs : nat -> garbage.
Lemma log_all_fields q es : forall k m m', log_all gs k q m es = Some m' -> mi_bands m' = mi_bands m /\ mic_reset g m' (mi_bands m') = mic_reset g m (mi_bands m).
Proof.
  induction es as [|[[d e] o] es IH]; intros k m m' H; cbn [log_all] in H; [injection H as <-; auto|].
  destruct (log_histogram (gs k) q m d e o) as [m1|] eqn:E; [|discriminate]. cbn [bind] in H. apply IH in H. unfold log_histogram in E.
  destruct (nth_error (mi_hists m) _); [|discriminate]. cbn [bind] in E. destruct (log_col _ _ _ _); [|discriminate]. cbn [bind] in E. destruct (store _ _ _); [|discriminate]. cbn [bind] in E.
  match type of E with Some ?x = Some _ => assert (EE : m1 = x) by congruence end. subst m1. unfold mic_reset in H |- *. cbn in H. destruct H as [H1 H2]. split; [exact H1|]. rewrite H2. reflexivity.
Qed.
Definition fresh_mics (ms : list (microphone * (vec -> nat) * response)) : Prop := Forall (fun x => mic_reset g (fst (fst x)) (mi_bands (fst (fst x))) = fst (fst x)) ms.
Lemma fresh_reset ms : fresh_mics ms -> reset_mics g ms = ms.
Proof. unfold fresh_mics, reset_mics. induction 1 as [|[[m q] r] ms F Fs IH]; [reflexivity|]. cbn [map]. cbn in F. now rewrite F, IH. Qed.
(** the microphones after a trace, reset, are those before it *)
Lemma trace_reset st n i s ms ms' : fresh_mics ms -> trace fib hits gs st n i s ms = Some ms' -> reset_mics g ms' = ms.
Proof.
  intros F H. unfold trace in H. destruct (rays_of fib st n s) as [re|]; [|discriminate]. cbn [bind] in H. destruct (_ && _)%bool in H; [discriminate|]. destruct (_ && _)%bool in H; [discriminate|].
  match type of H with mapM ?f _ = _ => set (F0 := f) in H end. revert ms' H. generalize 0%nat. induction F as [|[[m q] r] ms F Fs IH]; intros k ms' H; cbn [length seq combine mapM] in H; [injection H as <-; reflexivity|].
  unfold F0 at 1 in H. cbn [snd fst] in H. match type of H with context [log_all gs 0 q m ?x] => destruct (log_all gs 0 q m x) as [m'|] eqn:E; [|discriminate] end. cbn [bind] in H. match type of H with bind ?x _ = _ => destruct x as [rest|] eqn:Em; [|discriminate] end. cbn [bind] in H.
  match type of H with Some ?x = Some _ => assert (EE : ms' = x) by congruence end. subst ms'. cbn [reset_mics map]. apply log_all_fields in E. destruct E as [_ E]. cbn in F. rewrite E, F. f_equal. exact (IH _ _ Em).
Qed.
Lemma trace_all_nth st n ss : forall i ms hs, fresh_mics ms -> trace_all g fib hits gs st n i ss ms = Some hs ->
  length hs = length ss /\ forall s src, nth_error ss s = Some src -> exists ms', trace fib hits gs st n (i + s) src ms = Some ms' /\ nth_error hs s = Some (map (fun x => mi_hists (fst (fst x))) ms').
Proof.
  induction ss as [|src ss IH]; intros i ms hs F H; cbn [trace_all] in H; [injection H as <-; split; [reflexivity|]; intros [|s] ? ?; discriminate|].
  destruct (trace fib hits gs st n i src ms) as [ms'|] eqn:E; [|discriminate]. cbn [bind] in H. rewrite (trace_reset _ _ _ _ _ _ F E) in H. destruct (trace_all g fib hits gs st n (S i) ss ms) as [rest|] eqn:Er; [|discriminate]. cbn [bind] in H.
  match type of H with Some ?x = Some _ => assert (EE : hs = x) by congruence end. subst hs. destruct (IH _ _ _ F Er) as [L N]. split; [cbn; lia|]. intros [|s] x Hx; cbn in Hx |- *.
  - injection Hx as <-. rewrite Nat.add_0_r. eauto.
  - destruct (N s x Hx) as (ms1 & T & Q). exists ms1. replace (i + S s)%nat with (S i + s)%nat by lia. auto.
Qed.
Lemma trace_all_runs st n ss : forall i ms, fresh_mics ms -> (forall s src, nth_error ss s = Some src -> exists ms', trace fib hits gs st n (i + s) src ms = Some ms') -> exists hs, trace_all g fib hits gs st n i ss ms = Some hs.
Proof.
  induction ss as [|src ss IH]; intros i ms F H; cbn [trace_all]; [eauto|].
  destruct (H 0%nat src eq_refl) as [ms' E]. rewrite Nat.add_0_r in E. rewrite E. cbn [bind]. rewrite (trace_reset _ _ _ _ _ _ F E).
  destruct (IH (S i) ms F) as [hs E2]; [|rewrite E2; cbn [bind]; eauto]. intros s x Hx. destruct (H (S s) x Hx) as [y Hy]. exists y. now replace (S i + s)%nat with (i + S s)%nat by lia.
Qed.
End Trace.
Lemma mapM_some {A B} (f : A -> option B) l : (forall a, In a l -> exists b, f a = Some b) -> exists r, mapM f l = Some r.
Proof. induction l as [|a l IH]; intro H; cbn [mapM]; [eauto|]. destruct (H a (or_introl eq_refl)) as [b ->]. cbn [bind]. destruct IH as [r ->]; [intros; apply H; now right|]. cbn [bind]. eauto. Qed.
Lemma nth_combine {A B} (l : list A) (r : list B) i a b : nth_error l i = Some a -> nth_error r i = Some b -> nth_error (combine l r) i = Some (a, b).
Proof. revert r i. induction l as [|x l IH]; intros [|y r] [|i] H1 H2; cbn in *; try discriminate; [congruence|eauto]. Qed.
Lemma nth_seq_error s n i : (i < n)%nat -> nth_error (seq s n) i = Some (s + i)%nat.
Proof. revert s i. induction n as [|n IH]; intros s i H; [lia|]. destruct i as [|i]; cbn; [f_equal; lia|]. rewrite IH by lia. f_equal. lia. Qed.
Lemma broadcast_spec n b e r : broadcast n b e = Some r -> length r = n /\ Forall (fun row => length row = b) r /\ forall i j, (i < n)%nat -> (j < b)%nat ->
  let row := nth (if Nat.eqb (length e) n then i else 0%nat) e [] in nth j (nth i r []) 0 = nth (if Nat.eqb (length row) b then j else 0%nat) row 0.
Proof.
  unfold broadcast. set (f := fun row : list R => _). intro H. destruct (mapM f e) as [rows|] eqn:E; [|discriminate]. cbn [bind] in H. pose proof (mapM_length _ _ _ E) as L.
  assert (FS : forall row x, f row = Some x -> length x = b /\ forall j, (j < b)%nat -> nth j x 0 = nth (if Nat.eqb (length row) b then j else 0%nat) row 0).
  { intros row x F. unfold f in F. destruct (Nat.eqb_spec (length row) b) as [Q|Q]; [injection F as <-; auto|]. destruct row as [|a [|? ?]]; try discriminate. injection F as <-. split; [apply repeat_length|]. intros j Hj. cbn [nth]. now rewrite (nth_indep _ 0 a), nth_repeat by (rewrite repeat_length; lia). }
  assert (RS : forall i, (i < length e)%nat -> length (nth i rows []) = b /\ forall j, (j < b)%nat -> nth j (nth i rows []) 0 = nth (if Nat.eqb (length (nth i e [])) b then j else 0%nat) (nth i e []) 0).
  { intros i Hi. destruct (nth_error e i) as [row|] eqn:N; [|apply nth_error_None in N; lia]. destruct (mapM_nth _ _ _ _ _ E N) as (x & F & N2). rewrite (nth_error_nth _ _ _ N), (nth_error_nth _ _ _ N2). auto. }
  rewrite <- L. destruct (Nat.eqb_spec (length rows) n) as [Q|Q].
  - injection H as <-. split; [exact Q|]. split; [|intros i j Hi Hj; apply RS; [lia|exact Hj]]. apply Forall_forall. intros x Hx. destruct (In_nth _ _ [] Hx) as (i & Hi & <-). apply RS. lia.
  - destruct rows as [|r0 [|? ?]]; try discriminate. injection H as <-. split; [apply repeat_length|]. cbn in L. destruct (RS 0%nat ltac:(lia)) as [R1 R2]. cbn [nth] in R1, R2. split; [apply Forall_forall; intros x Hx; apply repeat_spec in Hx; now subst x|].
    intros i j Hi Hj. rewrite (nth_indep _ [] r0), nth_repeat by (rewrite repeat_length; lia). apply R2. exact Hj.
Qed.
Lemma rays_of_spec fib st n s re : rays_of fib st n s = Some re -> rays fib (q_bands st) n s (fst re) (snd re).
Proof.
  unfold rays_of, rays. destruct (so_dir s) as [d|].
  - destruct (d_rays d n) as [[dirs e]|]; [|discriminate]. cbn [bind fst snd]. destruct (broadcast _ _ e) as [en|] eqn:B; [|discriminate]. cbn [bind]. intro H. injection H as <-. cbn [fst snd]. destruct (broadcast_spec _ _ _ _ B) as (A1 & A2 & A3). eauto 6.
  - intro H. injection H as <-. cbn [fst snd]. split; [apply repeat_length|]. split; [apply Forall_forall; intros x Hx; apply repeat_spec in Hx; subst x; apply repeat_length|]. split; [reflexivity|]. intros i j Hi Hj.
    rewrite (nth_indep _ [] (repeat 1 (q_bands st))), nth_repeat by (rewrite repeat_length; lia). now rewrite (nth_indep _ 0 1), nth_repeat by (rewrite repeat_length; lia).
Qed.
(** what the histograms of one microphone and one source hold *)
Definition holds (bands n : nat) (inbin : nat -> nat -> nat -> list R) (hs : list hist) : Prop :=
  length hs = n /\ forall d b k h, nth_error hs d = Some h -> (b < bands)%nat ->
    ((k < m_cols (hs_array h))%nat -> m_at (hs_array h) b k = Rsum (inbin d b k) /\ m_at (hs_counts h) b k = Z.of_nat (length (inbin d b k))) /\
    ((m_cols (hs_array h) <= k)%nat -> inbin d b k = []).
Section Traced.
Variable inside : vec -> bool.
Variable g : garbage.
Variable fib : Z -> list vec.
Variable nearest : list vec -> vec -> nat.
Variable hits : nat -> list vec -> list (list R) -> vec -> nat -> list (R * list R * list R).
Variable gs : nat -> garbage.
Variable st : room.
Variable o : rt_options.
Hypothesis Hr : reachable inside g st.
Hypothesis Ho : r_args (q_opts st) = Some o.
Hypothesis Hn : nearest_ok nearest.
Hypothesis Hh : forall i dirs en pos m d e x, In (d, e, x) (hits i dirs en pos m) -> 0 <= d /\ length e = q_bands st.
Hypothesis Hd : forall loc d, In (loc, Some d) (q_mics st) -> directions fib (o_n_directions o) d <> [].
Hypothesis Hres : Forall (fun e => 0 < mi_res e) (q_engine st).
Let ms := map (fun md => prepare g fib nearest (o_n_directions o) (fst md) (snd (snd md))) (combine (q_engine st) (q_mics st)).
Lemma ms_nth m e mic : nth_error (q_engine st) m = Some e -> nth_error (q_mics st) m = Some mic -> nth_error ms m = Some (prepare g fib nearest (o_n_directions o) e (snd mic)).
Proof. intros E F. unfold ms. erewrite map_nth_error; [|eapply nth_combine; eauto]. reflexivity. Qed.
Lemma ms_length : length ms = length (q_mics st).
Proof. unfold ms. rewrite map_length, combine_length. destruct (C149_engine _ _ _ Hr) as [L _]. lia. Qed.
Lemma ms_fresh : fresh_mics g ms.
Proof. unfold fresh_mics, ms. apply Forall_map, Forall_forall. intros [e mic] _. cbn [fst snd]. unfold prepare. destruct (snd mic); reflexivity. Qed.
Lemma mic_log e mic es : (exists m, nth_error (q_engine st) m = Some e /\ nth_error (q_mics st) m = Some mic) -> (forall d en x, In (d, en, x) es -> 0 <= d /\ length en = q_bands st) ->
  let '(m0, q, _) := prepare g fib nearest (o_n_directions o) e (snd mic) in
  exists m' n sector, log_all gs 0 q m0 es = Some m' /\ sectors fib (o_n_directions o) mic n sector /\ holds (q_bands st) n (fun d b k => arrivals sector (mi_res e) d b k es) (mi_hists m').
Proof.
  intros (m & E & F) He. destruct (C149_engine _ _ _ Hr) as [L G]. destruct (G m) as (e' & mic' & E' & F' & G1 & G2 & G3); [apply nth_error_Some; congruence|]. assert (e' = e) by congruence. assert (mic' = mic) by congruence. subst e' mic'.
  assert (P : 0 < mi_res e) by (rewrite Forall_forall in Hres; apply Hres; eapply nth_error_In; eauto).
  unfold prepare. destruct mic as [loc [d|]]; cbn [snd fst] in *.
  - set (ds := directions fib (o_n_directions o) d). assert (NE : ds <> []) by (apply (Hd loc); eapply nth_error_In; eauto).
    assert (B : forall x, (get_dir_bin (nearest ds) (set_directions g e (length ds)) x < length ds)%nat).
    { intro x. unfold get_dir_bin, set_directions, mic_reset. cbn [mi_dirs mi_loc]. destruct (Nat.eqb_spec (length ds) 1) as [Q|Q]; [lia|]. now apply Hn. }
    destruct (C20_microphone_collects_arrivals gs g (nearest ds) {| mi_loc := mi_loc e; mi_dirs := length ds; mi_bands := mi_bands e; mi_res := mi_res e; mi_init := mi_init e; mi_hists := mi_hists e |} (q_bands st) es P G3) as (m' & L1 & L2 & L3).
    { intros d0 en x I. destruct (He _ _ _ I). split; [assumption|]. split; [assumption|]. rewrite <- G2. apply B. }
    exists m', (length ds), (get_dir_bin (nearest ds) (set_directions g e (length ds))). split; [unfold set_directions; rewrite G2 in *; exact L1|]. split.
    + unfold sectors. cbn [snd fst]. change (told_apart fib (o_n_directions o) d) with ds. split; [reflexivity|]. intro x. split; [apply B|]. intros j Hj N1. unfold get_dir_bin, set_directions, mic_reset. cbn [mi_dirs mi_loc]. destruct (Nat.eqb_spec (length ds) 1) as [Q|Q]; [lia|]. rewrite G1. now apply Hn.
    + split; [exact L2|]. intros d0 b k h I Hb. unfold set_directions. rewrite G2. exact (L3 d0 b k h I Hb).
  - destruct (C20_microphone_collects_arrivals gs g (fun _ => 0%nat) {| mi_loc := mi_loc e; mi_dirs := 1; mi_bands := mi_bands e; mi_res := mi_res e; mi_init := mi_init e; mi_hists := mi_hists e |} (q_bands st) es P G3) as (m' & L1 & L2 & L3).
    { intros d0 en x I. destruct (He _ _ _ I). split; [assumption|]. split; [assumption|]. cbn. lia. }
    exists m', 1%nat, (get_dir_bin (fun _ => 0%nat) (set_directions g e 1)). split; [unfold set_directions; rewrite G2 in *; exact L1|]. split.
    + unfold sectors. cbn [snd]. split; reflexivity.
    + split; [exact L2|]. intros d0 b k h I Hb. unfold set_directions. rewrite G2. exact (L3 d0 b k h I Hb).
Qed.
(** when the rays of a source can be traced *)
Definition traceable (s : source) : Prop := exists dirs en, rays_of fib st (o_n_rays o) s = Some (dirs, en) /\ if Nat.eqb (q_dim st) 3 then length dirs = length en else omni st = true.
Lemma trace_ok i s : traceable s <-> exists ms', trace fib hits gs st (o_n_rays o) i s ms = Some ms'.
Proof.
  unfold traceable, trace. split.
  - intros (dirs & en & E & T). rewrite E. cbn [bind fst snd].
    assert (C1 : (Nat.eqb (q_dim st) 3 && negb (Nat.eqb (length dirs) (length en)))%bool = false) by (destruct (Nat.eqb (q_dim st) 3); [rewrite T, Nat.eqb_refl; reflexivity|reflexivity]).
    assert (C2 : (negb (Nat.eqb (q_dim st) 3) && negb (omni st))%bool = false) by (destruct (Nat.eqb (q_dim st) 3); [reflexivity|rewrite T; reflexivity]). rewrite C1, C2.
    apply mapM_some. intros [k x] I. apply In_nth_error in I. destruct I as [m I]. assert (Hm : (m < length ms)%nat) by (apply nth_error_Some; intro Q; assert (N : nth_error (combine (seq 0 (length ms)) ms) m = None) by (apply nth_error_None; rewrite combine_length, seq_length; apply nth_error_None in Q; lia); congruence).
    pose proof Hm as Hm'. rewrite ms_length in Hm'. destruct (C149_engine _ _ _ Hr) as [L G]. destruct (G m Hm') as (e & mic & E1 & E2 & _). pose proof (ms_nth m e mic E1 E2) as E3.
    rewrite (nth_combine _ _ _ _ _ (nth_seq_error 0 _ m Hm) E3) in I. cbn [plus] in I. injection I as <- <-. cbn [fst snd].
    pose proof (mic_log e mic (hits i dirs en (so_pos s) m) (ex_intro _ m (conj E1 E2)) (fun d0 en0 x0 J => Hh _ _ _ _ _ _ _ _ J)) as Q. destruct (prepare _ _ _ _ _ _) as [[m0 q] r]. destruct Q as (m' & n & sector & -> & _). cbn [bind]. eauto.
  - intros (ms' & H). destruct (rays_of fib st (o_n_rays o) s) as [[dirs en]|]; [|discriminate]. cbn [bind fst snd] in H. exists dirs, en. split; [reflexivity|]. destruct (Nat.eqb (q_dim st) 3); cbn [negb andb] in H.
    + destruct (Nat.eqb_spec (length dirs) (length en)); [assumption|discriminate].
    + destruct (omni st); [reflexivity|discriminate].
Qed.
Lemma trace_value i s ms' m e mic : trace fib hits gs st (o_n_rays o) i s ms = Some ms' -> nth_error (q_engine st) m = Some e -> nth_error (q_mics st) m = Some mic ->
  exists dirs en x n sector, rays fib (q_bands st) (o_n_rays o) s dirs en /\ nth_error ms' m = Some x /\ sectors fib (o_n_directions o) mic n sector /\ holds (q_bands st) n (fun d b k => arrivals sector (mi_res e) d b k (hits i dirs en (so_pos s) m)) (mi_hists (fst (fst x))).
Proof.
  intros T E F. unfold trace in T. destruct (rays_of fib st (o_n_rays o) s) as [[dirs en]|] eqn:Er; [|discriminate]. cbn [bind fst snd] in T. destruct (_ && _)%bool in T; [discriminate|]. destruct (_ && _)%bool in T; [discriminate|].
  assert (Hm : (m < length ms)%nat) by (rewrite ms_length; apply nth_error_Some; congruence).
  destruct (mapM_nth _ _ _ _ _ T (nth_combine _ _ _ _ _ (nth_seq_error 0 _ m Hm) (ms_nth m e mic E F))) as (x & X & Y). cbn [fst snd plus] in X.
  pose proof (mic_log e mic (hits i dirs en (so_pos s) m) (ex_intro _ m (conj E F)) (fun d0 en0 x0 J => Hh _ _ _ _ _ _ _ _ J)) as Q. destruct (prepare _ _ _ _ _ _) as [[m0 q] r]. destruct Q as (m' & n & sector & L & Q1 & Q2).
  rewrite L in X. cbn [bind] in X. injection X as <-. exists dirs, en, (m', q, r), n, sector. split; [exact (rays_of_spec _ _ _ _ _ Er)|]. auto.
Qed.
Lemma tracing : q_mics st <> [] -> ((exists out, ray_tracing g fib nearest hits gs st = Some out) <-> Forall traceable (q_sources st)) /\
  forall hs ps, ray_tracing g fib nearest hits gs st = Some (hs, ps) -> length hs = length (q_mics st) /\ length ps = length (q_mics st) /\
    forall m e mic, nth_error (q_engine st) m = Some e -> nth_error (q_mics st) m = Some mic -> exists hm, nth_error hs m = Some hm /\ length hm = length (q_sources st) /\
      nth_error ps m = Some (snd (prepare g fib nearest (o_n_directions o) e (snd mic))) /\
      forall s src, nth_error (q_sources st) s = Some src -> exists dirs en h n sector, rays fib (q_bands st) (o_n_rays o) src dirs en /\ nth_error hm s = Some h /\ sectors fib (o_n_directions o) mic n sector /\
        holds (q_bands st) n (fun d b k => arrivals sector (mi_res e) d b k (hits s dirs en (so_pos src) m)) h.
Proof.
  intro NE. destruct (C149_engine _ _ _ Hr) as [L G]. unfold ray_tracing. rewrite Ho. cbn [bind]. rewrite L, Nat.eqb_refl. cbn [negb]. destruct (Nat.eqb_spec (length (q_mics st)) 0) as [Q|_]; [destruct (q_mics st); [contradiction|discriminate]|]. fold ms. split; [split|].
  - intros [out H]. destruct (trace_all _ _ _ _ _ _ _ _ ms) as [bs|] eqn:T; [|discriminate]. destruct (trace_all_nth _ _ _ _ _ _ _ _ _ _ ms_fresh T) as [_ N]. apply Forall_forall. intros s I. apply In_nth_error in I. destruct I as [k I]. destruct (N k s I) as (ms' & E & _). apply (trace_ok (0 + k)). eauto.
  - intro F. destruct (trace_all_runs g fib hits gs st (o_n_rays o) (q_sources st) 0 ms ms_fresh) as [bs ->]; [|cbn [bind]; eauto]. intros s src I. apply trace_ok. rewrite Forall_forall in F. apply F. eapply nth_error_In; eauto.
  - intros hs ps H. destruct (trace_all _ _ _ _ _ _ _ _ ms) as [bs|] eqn:T; [|discriminate]. cbn [bind] in H. destruct (trace_all_nth _ _ _ _ _ _ _ _ _ _ ms_fresh T) as [LB N].
    match type of H with Some (?a, ?b) = Some _ => assert (E1 : hs = a) by congruence; assert (E2 : ps = b) by congruence end. rewrite E1, E2. rewrite !map_length, seq_length, ms_length. split; [reflexivity|]. split; [reflexivity|].
    intros m e mic Em Fm. assert (Hm : (m < length (q_mics st))%nat) by (apply nth_error_Some; congruence). eexists. split; [apply map_nth_error, nth_seq_error; exact Hm|]. rewrite map_length. split; [exact LB|]. split; [apply map_nth_error; now apply ms_nth|].
    intros s src Is. destruct (N s src Is) as (ms' & T1 & T2). destruct (trace_value _ _ _ m e mic T1 Em Fm) as (dirs & en & x & n & sector & V1 & V2 & V3 & V4). exists dirs, en. eexists. exists n, sector. split; [exact V1|]. split; [apply map_nth_error; exact T2|]. split; [exact V3|].
    cbn [plus] in V4 |- *. rewrite (nth_error_nth _ _ _ (map_nth_error (fun y => mi_hists (fst (fst y))) m ms' V2)). exact V4.
Qed.
End Traced.

(** ** Theorems *)
Lemma arrivals_time c bin sector d b k es : 0 < c -> arrivals sector (bin * c) d b k es = arrived c bin sector d b k es.
Proof.
  intro Hc. unfold arrivals, arrived. f_equal. apply FunctionalExtensionality.functional_extensionality. intros [[dist en] x].
  assert (S1 : forall n, INR n * (bin * c) <= dist <-> INR n * bin <= dist / c).
  { intro n. split; intro H; [apply Rmult_le_reg_r with c; auto; unfold Rdiv; rewrite (Rmult_assoc dist), Rinv_l by lra; lra|]. apply Rmult_le_compat_r with (r := c) in H; [|lra]. unfold Rdiv in H. rewrite (Rmult_assoc dist), Rinv_l in H by lra. lra. }
  pose proof (S1 k) as A. pose proof (S1 (S k)) as B. destruct (Nat.eqb (sector x) d); [|reflexivity]. cbn [andb].
  destruct (Rle_dec (INR k * (bin * c)) dist), (Rle_dec (INR k * bin) (dist / c)); try tauto.
  destruct (Rlt_dec dist (INR (S k) * (bin * c))), (Rlt_dec (dist / c) (INR (S k) * bin)); try tauto; exfalso; [apply n, Rnot_le_lt|apply n, Rnot_le_lt]; intro Q; apply B in Q; lra.
Qed.
(** The histograms, when the microphones were added after the last change of bins or speed: for every microphone and source, one
    histogram for each direction told apart; it holds, for each band, the energies of the hits of that source at that microphone
    from that direction that arrive during the bin, and nothing of other sources or former calls.  The rays can be traced exactly
    when those of each source can. *)
Theorem C149_histograms : forall inside g fib nearest hits gs st o, settled inside g st -> r_args (q_opts st) = Some o -> 0 < o_hist_bin_size o -> 0 < r_c (q_opts st) -> nearest_ok nearest -> q_mics st <> [] ->
  (forall i dirs en pos m d e x, In (d, e, x) (hits i dirs en pos m) -> 0 <= d /\ length e = q_bands st) ->
  (forall loc d, In (loc, Some d) (q_mics st) -> told_apart fib (o_n_directions o) d <> []) ->
  ((exists out, ray_tracing g fib nearest hits gs st = Some out) <-> Forall (traceable fib st o) (q_sources st)) /\
  forall hs ps, ray_tracing g fib nearest hits gs st = Some (hs, ps) -> length hs = length (q_mics st) /\ length ps = length (q_mics st) /\
    forall m mic, nth_error (q_mics st) m = Some mic -> exists hm p, nth_error hs m = Some hm /\ length hm = length (q_sources st) /\ nth_error ps m = Some p /\
      (match snd mic with None => p_response p = [[1]] /\ p_impulse p = false | Some d => p_response p = map (d_resp d) (told_apart fib (o_n_directions o) d) /\ p_impulse p = d_impulse d end) /\
      forall s src, nth_error (q_sources st) s = Some src -> exists dirs en h n sector, rays fib (q_bands st) (o_n_rays o) src dirs en /\ nth_error hm s = Some h /\ sectors fib (o_n_directions o) mic n sector /\
        holds (q_bands st) n (fun d b k => arrived (r_c (q_opts st)) (o_hist_bin_size o) sector d b k (hits s dirs en (so_pos src) m)) h.
Proof.
  intros inside g fib nearest hits gs st o S0 Ho Pb Pc Hn NE Hh Hd. pose proof (settled_reachable _ _ _ S0) as Hr. pose proof (settled_res _ _ _ S0 o Ho) as R.
  assert (Hres : Forall (fun e => 0 < mi_res e) (q_engine st)). { apply Forall_forall. intros e I. rewrite Forall_forall in R. rewrite (R e I). now apply Rmult_lt_0_compat. }
  destruct (tracing inside g fib nearest hits gs st o Hr Ho Hn Hh Hd Hres NE) as [A B]. split; [exact A|]. intros hs ps H. destruct (B hs ps H) as (B1 & B2 & B3). split; [exact B1|]. split; [exact B2|].
  intros m mic Hm. destruct (C149_engine _ _ _ Hr) as [L G]. destruct (G m) as (e & mic' & E & F & _); [apply nth_error_Some; congruence|]. assert (mic' = mic) by congruence. subst mic'.
  destruct (B3 m e mic E F) as (hm & C1 & C2 & C3 & C4). exists hm. eexists. split; [exact C1|]. split; [exact C2|]. split; [exact C3|]. split; [unfold prepare; destruct (snd mic); split; reflexivity|].
  intros s src Is. destruct (C4 s src Is) as (dirs & en & h & n & sector & D1 & D2 & D3 & D4). exists dirs, en, h, n, sector. split; [exact D1|]. split; [exact D2|]. split; [exact D3|].
  assert (RE : mi_res e = o_hist_bin_size o * r_c (q_opts st)) by (rewrite Forall_forall in R; apply R; eapply nth_error_In; eauto).
  rewrite RE in D4. destruct D4 as [K1 K2]. split; [exact K1|]. intros d b k h0 I Hb. specialize (K2 d b k h0 I Hb). rewrite arrivals_time in K2 by exact Pc. exact K2.
Qed.
Print Assumptions C149_histograms.

Lemma add_parts2 e l : exists r, add_parts [e; l] = Some r /\ length r = Nat.max (length e) (length l) /\ forall i, nth i r 0 = nth i e 0 + nth i l 0.
Proof.
  unfold add_parts. eexists. split; [reflexivity|]. cbn [map fold_right fold_left]. rewrite Nat.max_0_r. set (n := Nat.max (length e) (length l)). unfold pad_add. split; [now rewrite map_length, seq_length|].
  intro i. destruct (Nat.lt_ge_cases i n) as [Hi|Hi].
  - set (F := fun j => nth j (map (fun j0 => nth j0 (repeat 0 n) 0 + nth j0 e 0) (seq 0 n)) 0 + nth j l 0). rewrite (nth_indep _ 0 (F 0%nat)) by (rewrite map_length, seq_length; lia). rewrite map_nth, seq_nth by lia. unfold F. cbn [plus].
    set (F2 := fun j0 => nth j0 (repeat 0 n) 0 + nth j0 e 0). rewrite (nth_indep _ 0 (F2 0%nat)) by (rewrite map_length, seq_length; lia). rewrite map_nth, seq_nth by lia. unfold F2. cbn [plus]. rewrite nth_repeat. ring.
  - rewrite !nth_overflow; try (rewrite ?map_length, ?seq_length; unfold n in *; lia). ring.
Qed.
(** Every response is the sum of the part of the images and the part of the rays, the shorter one padded with zeros, or the only part
    there is; the part of the rays is made from the histograms of the pair, the responses of the microphone, the time of flight and
    the current bins.  Without both parts there is no result. *)
Theorem C149_rir : forall g fib nearest hits gs ism rt hpf st rirs, compute_rir g fib nearest hits gs ism rt hpf st = Some rirs ->
  length rirs = length (q_mics st) /\ forall m mic, nth_error (q_mics st) m = Some mic -> exists row, nth_error rirs m = Some row /\ length row = length (q_sources st) /\
    forall s src, nth_error (q_sources st) s = Some src -> exists r, nth_error row s = Some (match hpf with Some f => f r | None => r end) /\
      let late l := exists o hs ps hm h p, r_args (q_opts st) = Some o /\ ray_tracing g fib nearest hits gs st = Some (hs, ps) /\ nth_error hs m = Some hm /\ nth_error hm s = Some h /\ nth_error ps m = Some p /\
        rt (vdist (so_pos src) (fst mic) / r_c (q_opts st)) h p (o_hist_bin_size o) (o_hist_bin_size_samples o) = Some l in
      match r_ism_needed (q_opts st), r_rt_needed (q_opts st) with
      | true, true => exists e l, ism m s = Some e /\ late l /\ length r = Nat.max (length e) (length l) /\ forall i, nth i r 0 = nth i e 0 + nth i l 0
      | true, false => ism m s = Some r
      | false, true => late r
      | false, false => False
      end.
Proof.
  intros g fib nearest hits gs ism rt hpf st rirs H. unfold compute_rir in H. match type of H with bind ?x _ = _ => destruct x as [[hs ps]|] eqn:T; [|discriminate] end. cbn [bind] in H.
  pose proof (mapM_length _ _ _ H) as L. rewrite seq_length in L. split; [exact L|]. intros m mic Hm. assert (Lm : (m < length (q_mics st))%nat) by (apply nth_error_Some; congruence).
  destruct (mapM_nth _ _ _ _ _ H (nth_seq_error 0 _ m Lm)) as (row & R1 & R2). exists row. split; [exact R2|]. pose proof (mapM_length _ _ _ R1) as L2. rewrite seq_length in L2. split; [exact L2|].
  intros s src Hs. assert (Ls : (s < length (q_sources st))%nat) by (apply nth_error_Some; congruence). destruct (mapM_nth _ _ _ _ _ R1 (nth_seq_error 0 _ s Ls)) as (x & X1 & X2). cbn [plus] in X1, X2.
  unfold pair_rir in X1. rewrite Hm, Hs in X1. cbn [bind fst snd] in X1.
  destruct (r_ism_needed (q_opts st)), (r_rt_needed (q_opts st)).
  - destruct (ism m s) as [e|]; [|discriminate]. cbn [bind] in X1. destruct (r_args (q_opts st)) as [o|]; [|discriminate]. cbn [bind] in X1. destruct (nth_error hs m) as [hm|] eqn:N1; [|discriminate]. cbn [bind] in X1. destruct (nth_error hm s) as [h|] eqn:N2; [|discriminate]. cbn [bind] in X1.
    destruct (nth_error ps m) as [p|] eqn:N3; [|discriminate]. cbn [bind] in X1. destruct (rt _ h p _ _) as [l|] eqn:RT; [|discriminate]. cbn [bind app] in X1. destruct (add_parts2 e l) as (r & AP & A2 & A3). rewrite AP in X1. cbn [bind] in X1. injection X1 as <-. exists r. split; [exact X2|]. exists e, l. split; [reflexivity|]. split; [|auto]. exists o, hs, ps, hm, h, p. repeat (split; [first [reflexivity|assumption]|]). exact RT.
  - destruct (ism m s) as [e|]; [|discriminate]. cbn [bind app add_parts] in X1. injection X1 as <-. exists e. split; [exact X2|]. reflexivity.
  - cbn [bind] in X1. destruct (r_args (q_opts st)) as [o|]; [|discriminate]. cbn [bind] in X1. destruct (nth_error hs m) as [hm|] eqn:N1; [|discriminate]. cbn [bind] in X1. destruct (nth_error hm s) as [h|] eqn:N2; [|discriminate]. cbn [bind] in X1.
    destruct (nth_error ps m) as [p|] eqn:N3; [|discriminate]. cbn [bind] in X1. destruct (rt _ h p _ _) as [l|] eqn:RT; [|discriminate]. cbn [bind app add_parts] in X1. injection X1 as <-. exists l. split; [exact X2|]. exists o, hs, ps, hm, h, p. repeat (split; [first [reflexivity|assumption]|]). exact RT.
  - cbn [bind app add_parts] in X1. discriminate.
Qed.
Print Assumptions C149_rir.

(** Adding: a source inside the room and of its dimension becomes the last source, a microphone the last of the array and of the
    engine; nothing else changes. *)
Theorem C149_add : forall inside g st st',
  (forall pos dir, length pos = q_dim st -> inside pos = true -> (dir = None \/ q_dim st = 3%nat /\ exists d, dir = Some d /\ d_class d <> Other) ->
     exists x, do inside g st (Source pos dir) = Some x /\ q_sources x = q_sources st ++ [{| so_pos := pos; so_dir := dir |}] /\ q_mics x = q_mics st /\ q_opts x = q_opts st) /\
  (forall pos dir, do inside g st (Source pos dir) = Some st' -> q_sources st' <> q_sources st -> inside pos = true /\ length pos = q_dim st) /\
  (forall loc dir, do inside g st (Mic loc dir) = Some st' -> q_mics st' = q_mics st ++ [(loc, dir)] /\ q_sources st' = q_sources st /\ q_opts st' = q_opts st /\ length loc = q_dim st) /\
  (forall locs ds, do inside g st (Array locs ds) = Some st' -> q_sources st' = q_sources st /\ q_opts st' = q_opts st /\ exists ms, q_mics st' = q_mics st ++ ms /\ map fst ms = locs /\
     forall i, (i < length locs)%nat -> option_map snd (nth_error ms i) = match ds with DNone => Some None | DOne d => Some (Some d) | DList l => nth_error l i end) /\
  (forall s dir, length (so_pos s) = q_dim st -> inside (so_pos s) = true ->
     exists x, do inside g st (Sound s dir) = Some x /\ q_sources x = q_sources st ++ [{| so_pos := so_pos s; so_dir := match dir with Some d => Some d | None => so_dir s end |}] /\ q_mics x = q_mics st /\ q_opts x = q_opts st).
Proof.
  intros inside g st st'. split; [|split; [|split; [|split]]]; [| | | |intros s dir L I; cbn [do]; unfold add_soundsource, add_src; destruct dir as [d|]; cbn [so_pos]; rewrite L, Nat.eqb_refl, I; cbn [negb]; eexists; (split; [reflexivity|]); cbn; destruct s; auto]; repeat split.
  - intros pos dir L I D. cbn [do]. unfold add_source. assert (A : forall s, so_pos s = pos -> exists x, add_src inside st s = Some x /\ q_sources x = q_sources st ++ [s] /\ q_mics x = q_mics st /\ q_opts x = q_opts st).
    { intros s E. unfold add_src. rewrite E, L, Nat.eqb_refl, I. cbn [negb]. eexists. split; [reflexivity|]. cbn. auto. }
    destruct D as [->|(D3 & d & -> & D)]; [cbn [is_some]; rewrite andb_false_r; now apply A|]. rewrite D3. cbn [Nat.eqb negb andb]. destruct (d_class d); [now apply A|now apply A|contradiction].
  - cbn [do] in H. unfold add_source in H. destruct (negb _ && _)%bool; [discriminate|]. destruct dir as [d|]; [|now apply add_src_inv in H]. destruct (d_class d); [now apply add_src_inv in H|now apply add_src_inv in H|]. injection H as <-. contradiction.
  - cbn [do] in H. unfold add_source in H. destruct (negb _ && _)%bool; [discriminate|]. destruct dir as [d|]; [|now apply add_src_inv in H]. destruct (d_class d); [now apply add_src_inv in H|now apply add_src_inv in H|]. injection H as <-. contradiction.
  - cbn [do] in H. unfold add_microphone in H. destruct (negb _ && _)%bool; [discriminate|]. apply add_mics_inv in H. tauto.
  - cbn [do] in H. unfold add_microphone in H. destruct (negb _ && _)%bool; [discriminate|]. apply add_mics_inv in H. tauto.
  - cbn [do] in H. unfold add_microphone in H. destruct (negb _ && _)%bool; [discriminate|]. apply add_mics_inv in H. tauto.
  - cbn [do] in H. unfold add_microphone in H. destruct (negb _ && _)%bool; [discriminate|]. apply add_mics_inv in H. destruct H as (_ & _ & _ & _ & _ & F & _). now inversion F.
  - cbn [do] in H. unfold add_microphone_array in H. destruct (_ && _)%bool; [discriminate|]. destruct (negb _ && _)%bool; [discriminate|]. destruct (spread _ _) as [l|]; [|discriminate]. cbn [bind] in H. apply add_mics_inv in H. tauto.
  - cbn [do] in H. unfold add_microphone_array in H. destruct (_ && _)%bool; [discriminate|]. destruct (negb _ && _)%bool; [discriminate|]. destruct (spread _ _) as [l|]; [|discriminate]. cbn [bind] in H. apply add_mics_inv in H. tauto.
  - cbn [do] in H. unfold add_microphone_array in H. destruct (_ && _)%bool; [discriminate|]. destruct (negb _ && _)%bool; [discriminate|]. destruct (spread _ _) as [l|] eqn:SP; [|discriminate]. cbn [bind] in H. apply add_mics_inv in H. destruct H as (_ & _ & _ & _ & E & _). exists (combine locs l). split; [exact E|].
    assert (LL : length l = length locs) by (unfold spread in SP; destruct ds; [injection SP as <-; apply repeat_length|injection SP as <-; apply repeat_length|destruct (Nat.eqb_spec (length ds) (length locs)); [injection SP as <-; assumption|discriminate]]).
    split; [clear -LL; revert l LL; induction locs as [|a locs IH]; intros [|b l] LL; cbn in *; try lia; [reflexivity|]; f_equal; apply IH; lia|].
    intros i Hi. destruct (nth_error locs i) as [a|] eqn:Na; [|apply nth_error_None in Na; lia]. destruct (nth_error l i) as [b|] eqn:Nb; [|apply nth_error_None in Nb; lia]. rewrite (nth_combine _ _ _ _ _ Na Nb). cbn [option_map snd].
    unfold spread in SP. destruct ds; [injection SP as <-; apply nth_error_In, repeat_spec in Nb; congruence|injection SP as <-; apply nth_error_In, repeat_spec in Nb; congruence|destruct (Nat.eqb_spec (length ds) (length locs)); [injection SP as <-; now symmetry|discriminate]].
Qed.
Print Assumptions C149_add.

(** ** Examples *)
Fixpoint near (pts : list vec) (q : vec) : nat :=
  match pts with
  | [] => 0%nat
  | p :: ps => match ps with [] => 0%nat | _ => if Rle_dec (vdist q p) (vdist q (nth (near ps q) ps [])) then 0%nat else S (near ps q) end
  end.
Lemma near_ok : nearest_ok near.
Proof.
  intros pts q. induction pts as [|p ps IH]; [contradiction|]. intros _. destruct ps as [|p2 ps]; [cbn; split; [lia|]; intros [|j] Hj; [apply Rle_refl|lia]|].
  destruct IH as [I1 I2]; [discriminate|]. remember (p2 :: ps) as l eqn:El. assert (N : near (p :: l) q = if Rle_dec (vdist q p) (vdist q (nth (near l q) l [])) then 0%nat else S (near l q)) by (subst l; reflexivity). rewrite N. destruct (Rle_dec _ _) as [L|L]; cbn [length nth].
  - split; [lia|]. intros [|j] Hj; [apply Rle_refl|]. apply Rle_trans with (1 := L). apply I2. lia.
  - split; [lia|]. intros [|j] Hj; [lra|]. apply I2. lia.
Qed.
Definition g0 : garbage := {| g_array := fun _ _ => 0; g_counts := fun _ _ => 0%Z |}.
Definition fib0 (n : Z) : list vec := repeat [1; 0; 0] (Z.to_nat n).
(** a hit after 9 ms *)
Definition hits0 (_ : nat) (_ : list vec) (_ : list (list R)) (_ : vec) (_ : nat) : list (R * list R * list R) := [(343 * (9 / 1000), [1], [0; 0; 0])].
Lemma floor_z z : Int_part (IZR z) = z.
Proof. apply floor_unique. lra. Qed.
Lemma set_some r use n radius e t bin d m : r_fs r <> 0 -> r_fs r * bin = IZR m -> n <> None \/ radius <> 0 /\ r_c r <> 0 /\ (m <> 0)%Z -> exists r', set_options r use n radius e t bin d = Some r' /\ r_rt_needed r' = use /\ exists o, r_args r' = Some o /\ o_hist_bin_size o = bin.
Proof.
  intros F B D. assert (S1 : exists r', set_options r use n radius e t bin d = Some r').
  { unfold set_options. destruct (Req_EM_T (r_fs r) 0); [contradiction|]. cbn [bind]. destruct n as [n|]; cbn [bind].
    - unfold update_engine. cbn [r_engine r_args]. destruct (r_engine r); cbn [bind]; eauto.
    - rewrite B, floor_z. destruct D as [D|(D1 & D2 & D3)]; [contradiction|]. destruct (Req_EM_T _ 0) as [Q|Q]; [exfalso|cbn [bind]; unfold update_engine; cbn [r_engine r_args]; destruct (r_engine r); cbn [bind]; eauto].
      pose proof PI_RGT_0. apply (not_0_IZR m) in D3. revert Q. assert (radius ^ 2 <> 0) by now apply pow_nonzero. assert (/ r_fs r <> 0) by now apply Rinv_neq_0_compat. assert (PI <> 0) by lra. unfold Rdiv. repeat first [assumption | apply Rmult_integral_contrapositive_currified]. }
  destruct S1 as [r' H]. exists r'. split; [exact H|]. apply set_inv in H. destruct H as (o & A & _ & _ & S2 & _ & _ & _ & _ & _ & _ & _ & U & _). split; [exact U|]. exists o. split; [exact A|]. rewrite S2, B, floor_z, <- B. field. exact F.
Qed.
Lemma made0 : exists o, make_room 16000 343 100 3 true = Some o /\ r_fs o = 16000 /\ r_c o = 343 /\ r_rt_needed o = true /\ exists a, r_args o = Some a /\ o_hist_bin_size a = 4 / 1000.
Proof.
  unfold make_room. set (r0 := {| r_fs := 16000; r_c := 343; r_volume := 100; r_max_order := 3; r_ism_needed := (0 <=? 3)%Z; r_rt_needed := true; r_args := None; r_engine := None |}).
  destruct (set_some r0 true None (1 / 2) (1 / 10000000) 10 (4 / 1000) 720 64) as (r' & E & U & o & A & B); [cbn; lra|cbn; lra|right; cbn; repeat split; try lra; lia|].
  rewrite E. cbn [bind]. unfold init_engine. rewrite A. cbn [bind]. eexists. split; [reflexivity|]. cbn [r_fs r_c r_rt_needed r_args]. apply set_inv in E. destruct E as (_ & _ & _ & _ & _ & _ & _ & _ & _ & F & C1 & _). split; [rewrite F; reflexivity|]. split; [rewrite C1; reflexivity|]. split; [exact U|]. exists o. auto.
Qed.
(** the room: one source and one microphone; then the calls [ks] *)
Definition room0 (o : rt_room) (e : microphone) : room := {| q_opts := o; q_dim := 3; q_bands := 1; q_sources := [{| so_pos := [1; 1; 1]; so_dir := None |}]; q_mics := [([2; 2; 2], None)]; q_engine := [e] |}.
Lemma room0_settled : exists o e, settled (fun _ => true) g0 (room0 o e) /\ r_fs o = 16000 /\ r_c o = 343 /\ r_rt_needed o = true /\ mi_res e = 4 / 1000 * 343 /\ exists a, r_args o = Some a /\ o_hist_bin_size a = 4 / 1000.
Proof.
  destruct made0 as (o & M & F & C1 & U & a & A & B). pose proof (C145_engine o (RtOptProps.Made _ _ _ _ _ _ M)) as (o' & e & A' & G & G1 & _ & _ & _ & _ & G2 & _).
  assert (o' = a) by congruence. subst o'.
  set (mic := make_mic g0 [2; 2; 2] 1 (g_hist_bin_size e * g_c e) (g_time_thres e * g_c e)). exists o, mic. split; [|repeat split; try assumption; [cbn; rewrite G1, G2, B, C1; ring|eauto]].
  apply (S_done _ _ (set_opts {| q_opts := o; q_dim := 3; q_bands := 1; q_sources := [{| so_pos := [1; 1; 1]; so_dir := None |}]; q_mics := []; q_engine := [] |} o) (Mic [2; 2; 2] None)); [|cbn [do]; unfold add_microphone, add_mics, engine_mic, set_opts; cbn [q_dim is_some negb andb forallb fst length Nat.eqb mapM q_opts q_bands]; rewrite G; reflexivity|now left].
  apply (S_done _ _ (new_room o 3 1) (Source [1; 1; 1] None)); [econstructor; exact M|reflexivity|now left].
Qed.
(** The bins are those at the time a microphone was added: after [set_ray_tracing] with bins of 10 ms (or, likewise, [set_sound_speed]) on
    a room that has its microphone, the histograms still have bins of 4 ms, but are read as bins of 10 ms: a hit after 9 ms is in bin 2. *)
Theorem C149_bins_refuted : exists inside g fib nearest hits gs st o hs ps h, reachable inside g st /\ r_args (q_opts st) = Some o /\ o_hist_bin_size o = 10 / 1000 /\ r_c (q_opts st) = 343 /\ nearest_ok nearest /\
  (forall i dirs en pos m, hits i dirs en pos m = [(343 * (9 / 1000), [1], [0; 0; 0])]) /\ ray_tracing g fib nearest hits gs st = Some (hs, ps) /\ nth_error hs 0 = Some [[h]] /\ m_at (hs_array h) 0 2 = 1 /\
  arrived 343 (o_hist_bin_size o) (fun _ => 0%nat) 0 0 2 (hits 0%nat [] [] [] 0%nat) = [].
Proof.
  destruct room0_settled as (o & e & S0 & F & C1 & U & Re & a & A & B). apply settled_reachable in S0.
  destruct (set_some o true (Some 100%Z) (1 / 2) (1 / 10000000) 10 (10 / 1000) 720 160) as (o2 & E2 & _ & a2 & A2 & B2); [rewrite F; lra|rewrite F; lra|left; discriminate|].
  set (st := room0 o2 e).
  assert (Hr : reachable (fun _ => true) g0 st).
  { apply (Done _ _ (room0 o e) (Option_ (Set_rt (Some 100%Z) (1 / 2) (1 / 10000000) 10 (10 / 1000) 720)) st S0). cbn [do RtOptProps.do q_opts room0]. unfold set_ray_tracing. rewrite E2. reflexivity. }
  assert (N2 : r_c o2 = 343 /\ o_n_rays a2 = 100%Z). { apply set_inv in E2. destruct E2 as (a3 & A3 & _ & _ & _ & _ & _ & _ & _ & _ & C3 & _ & _ & N3). assert (a3 = a2) by congruence. subst a3. split; [congruence|exact N3]. }
  destruct N2 as [C2 N2].
  assert (Hres : Forall (fun x => 0 < mi_res x) (q_engine st)) by (constructor; [rewrite Re; lra|constructor]).
  destruct (tracing (fun _ => true) g0 fib0 near hits0 (fun _ => g0) st a2 Hr A2 near_ok) as [T1 T2]; [|intros loc d [I|[]]; discriminate|exact Hres|discriminate|].
  { intros i dirs en pos m d en' x [I|[]]. injection I as <- <- <-. split; [lra|reflexivity]. }
  destruct T1 as [_ T1]. destruct T1 as [[hs ps] T].
  { constructor; [|constructor]. unfold traceable, rays_of. cbn [so_dir st room0 q_sources]. eexists. eexists. split; [reflexivity|]. cbn [Nat.eqb q_dim st room0]. unfold fib0. now rewrite !repeat_length. }
  destruct (T2 hs ps T) as (L1 & _ & H1). destruct (H1 0%nat e ([2; 2; 2], None) eq_refl eq_refl) as (hm & M1 & M2 & _ & M3). destruct (M3 0%nat _ eq_refl) as (dirs & en & h & n & sector & _ & K1 & K2 & K3 & K4). cbn in K2. destruct K2 as [-> K2].
  cbn in M2. destruct hm as [|h1 [|? ?]]; try discriminate. cbn in K1. injection K1 as <-. destruct h1 as [|h0 [|? ?]]; try discriminate.
  exists (fun _ => true), g0, fib0, near, hits0, (fun _ => g0), st, a2, hs, ps, h0. split; [exact Hr|]. split; [exact A2|]. split; [exact B2|]. split; [exact C2|]. split; [exact near_ok|]. split; [reflexivity|]. split; [exact T|]. split; [exact M1|].
  assert (AR : arrivals sector (mi_res e) 0 0 2 (hits0 0%nat dirs en [1; 1; 1] 0%nat) = [1]).
  { unfold arrivals, hits0. cbn [flat_map app]. rewrite K2, Re. cbn [Nat.eqb andb INR]. destruct (Rle_dec _ _) as [_|Q]; [|exfalso; apply Q; lra]. destruct (Rlt_dec _ _) as [_|Q]; [reflexivity|exfalso; apply Q; lra]. }
  split.
  - destruct (K4 0%nat 0%nat 2%nat h0 eq_refl ltac:(cbn; lia)) as [Q1 Q2]. destruct (Nat.lt_ge_cases 2 (m_cols (hs_array h0))) as [Q|Q].
    + destruct (Q1 Q) as [-> _]. cbn [so_pos]. rewrite AR. cbn. ring.
    + specialize (Q2 Q). cbn [so_pos] in Q2. rewrite AR in Q2. discriminate.
  - rewrite B2. unfold arrived, hits0. cbn [flat_map app Nat.eqb andb INR]. destruct (Rle_dec _ _) as [Q|_]; [exfalso; lra|reflexivity].
Qed.
Print Assumptions C149_bins_refuted.
(** A source with a directivity that is neither a cardioid nor measured (spherical harmonics, say) is not added, and there is no error. *)
Theorem C149_source_refuted : exists inside g st pos dir st', reachable inside g st /\ q_dim st = 3%nat /\ length pos = 3%nat /\ inside pos = true /\ do inside g st (Source pos (Some dir)) = Some st' /\ q_sources st' = q_sources st.
Proof.
  destruct made0 as (o & M & _). exists (fun _ => true), g0, (new_room o 3 1), [1; 1; 1], {| d_class := Other; d_grid := []; d_resp := fun _ => []; d_impulse := false; d_rays := fun _ => None |}, (new_room o 3 1).
  split; [econstructor; exact M|]. repeat split.
Qed.
Print Assumptions C149_source_refuted.
(** With ray tracing on, microphones with a directivity can be added one by one but not as an array. *)
Theorem C149_array_refuted : exists inside g st locs d, reachable inside g st /\ do inside g st (Array locs (DOne d)) = None /\ exists st', foldM (fun st l => do inside g st (Mic l (Some d))) locs st = Some st' /\ map fst (q_mics st') = locs.
Proof.
  destruct made0 as (o & M & _ & _ & U & _). pose proof (C145_engine o (RtOptProps.Made _ _ _ _ _ _ M)) as (_ & e & _ & G & _).
  exists (fun _ => true), g0, (new_room o 3 1), [[1; 1; 1]; [2; 1; 1]], {| d_class := Cardioid; d_grid := []; d_resp := fun _ => []; d_impulse := false; d_rays := fun _ => None |}.
  split; [econstructor; exact M|]. split; [cbn [do]; unfold add_microphone_array; cbn [q_opts new_room]; rewrite U; reflexivity|].
  eexists. split; [cbn [foldM do]; unfold add_microphone, add_mics, engine_mic, new_room; cbn [q_dim is_some negb andb forallb fst length Nat.eqb mapM q_opts q_bands q_sources q_mics q_engine app bind]; rewrite !G; cbn [bind q_dim q_opts q_bands q_sources q_mics q_engine forallb fst length Nat.eqb andb negb mapM app]; rewrite !G; reflexivity|reflexivity].
Qed.
Print Assumptions C149_array_refuted.
(** the room of [room0] meets the hypotheses of [C149_histograms] *)
Example histograms_example : exists st o, settled (fun _ => true) g0 st /\ r_args (q_opts st) = Some o /\ 0 < o_hist_bin_size o /\ 0 < r_c (q_opts st) /\ q_mics st <> [] /\ Forall (traceable fib0 st o) (q_sources st) /\ q_sources st <> [] /\
  arrived 343 (o_hist_bin_size o) (fun _ => 0%nat) 0 0 2 (hits0 0%nat [] [] [] 0%nat) = [1].
Proof.
  destruct room0_settled as (o & e & S0 & F & C1 & U & Re & a & A & B). exists (room0 o e), a. split; [exact S0|]. split; [exact A|]. split; [rewrite B; lra|]. split; [cbn; rewrite C1; lra|]. split; [discriminate|]. split; [|split; [discriminate|]].
  - constructor; [|constructor]. unfold traceable, rays_of. cbn [so_dir room0 q_sources]. eexists. eexists. split; [reflexivity|]. cbn [Nat.eqb q_dim room0]. unfold fib0. now rewrite !repeat_length.
  - rewrite B. unfold arrived, hits0. cbn [flat_map app Nat.eqb andb INR]. destruct (Rle_dec _ _) as [_|Q]; [|exfalso; apply Q; lra]. destruct (Rlt_dec _ _) as [_|Q]; [reflexivity|exfalso; apply Q; lra].
Qed.

(** ** The kd-trees *)
Definition owns (ms : list (option nat)) (i a : nat) : Prop := nth_error ms i = Some (Some a).
Definition tidy (h : heap) : Prop := (forall i j a, owns (k_mics h) i a -> owns (k_mics h) j a -> i = j) /\ (forall a, In a (k_live h) <-> exists i, owns (k_mics h) i a) /\ (forall a, In a (k_live h) -> (a < k_next h)%nat).
Lemma delete_ok p live : (forall a, p = Some a -> In a live) -> exists l, delete p live = Some l /\ forall b, In b l <-> In b live /\ p <> Some b.
Proof.
  intro H. unfold delete. destruct p as [a|]; [|exists live; split; [reflexivity|]; intro b; split; [intro I; split; [exact I|discriminate]|tauto]].
  assert (E : existsb (Nat.eqb a) live = true) by (apply existsb_exists; exists a; split; [auto|apply Nat.eqb_refl]). rewrite E. eexists. split; [reflexivity|]. intro b. rewrite filter_In. destruct (Nat.eqb_spec a b); cbn; split; intros [I J]; split; auto; congruence.
Qed.
Lemma set_tree_ok d i h : tidy h -> (i < length (k_mics h))%nat -> exists h', set_tree d i h = Some h' /\ tidy h' /\ length (k_mics h') = length (k_mics h).
Proof.
  intros (T1 & T2 & T3) Hi. unfold set_tree. destruct (nth_error (k_mics h) i) as [p|] eqn:P; [|apply nth_error_None in P; lia]. cbn [bind].
  destruct (delete_ok p (k_live h)) as (l & -> & L). { intros a ->. apply T2. exists i. exact P. } cbn [bind]. destruct d.
  - destruct (BaseProofs.store_Some (k_mics h) i (Some (k_next h)) Hi) as (ms & -> & L2 & N). cbn [bind]. eexists. split; [reflexivity|]. split; [|exact L2]. unfold tidy, owns. cbn [k_mics k_live k_next]. split; [|split].
    + intros j k a. rewrite !N. destruct (Nat.eqb_spec j i), (Nat.eqb_spec k i); intros A B; try congruence; [|assert (X : a = k_next h) by congruence|exact (T1 j k a A B)].
      * assert (X : a = k_next h) by congruence. assert (In a (k_live h)) by (apply T2; exists k; exact B). apply T3 in H. lia.
      * assert (In a (k_live h)) by (apply T2; exists j; exact A). apply T3 in H. lia.
    + intro a. cbn [In]. rewrite L, T2. split.
      * intros [<-|[[j J] Q]]; [exists i; rewrite N, Nat.eqb_refl; reflexivity|]. exists j. rewrite N. destruct (Nat.eqb_spec j i) as [W|]; [unfold owns in J; rewrite W in J; congruence|exact J].
      * intros [j J]. rewrite N in J. destruct (Nat.eqb_spec j i) as [Q|Q]; [left; congruence|]. right. split; [exists j; exact J|]. intros ->. apply Q. exact (T1 j i a J P).
    + intro a. cbn [In]. rewrite L. intros [<-|[I _]]; [lia|]. apply T3 in I. lia.
  - destruct (BaseProofs.store_Some (k_mics h) i None Hi) as (ms & -> & L2 & N). cbn [bind]. eexists. split; [reflexivity|]. split; [|exact L2]. unfold tidy, owns. cbn [k_mics k_live k_next]. split; [|split].
    + intros j k a. rewrite !N. destruct (Nat.eqb_spec j i), (Nat.eqb_spec k i); intros A B; try congruence. exact (T1 j k a A B).
    + intro a. rewrite L, T2. split.
      * intros [[j J] Q]. exists j. rewrite N. destruct (Nat.eqb_spec j i) as [W|]; [unfold owns in J; rewrite W in J; congruence|exact J].
      * intros [j J]. rewrite N in J. destruct (Nat.eqb_spec j i) as [Q|Q]; [discriminate|]. split; [exists j; exact J|]. intros ->. apply Q. exact (T1 j i a J P).
    + intro a. rewrite L. intros [I _]. apply T3 in I. lia.
Qed.
Lemma search_ok i h : tidy h -> (i < length (k_mics h))%nat -> search_tree i h = Some h.
Proof.
  intros (T1 & T2 & T3) Hi. unfold search_tree. destruct (nth_error (k_mics h) i) as [[a|]|] eqn:P; [|reflexivity|apply nth_error_None in P; lia]. cbn [bind].
  assert (E : existsb (Nat.eqb a) (k_live h) = true) by (apply existsb_exists; exists a; split; [apply T2; exists i; exact P|apply Nat.eqb_refl]). now rewrite E.
Qed.
Lemma trace_trees_ok ds h : tidy h -> length ds = length (k_mics h) -> exists h', trace_trees ds h = Some h' /\ tidy h' /\ length (k_mics h') = length (k_mics h).
Proof.
  intros T L. unfold trace_trees.
  assert (A : forall l h, tidy h -> (forall x, In x l -> (fst x < length (k_mics h))%nat) -> exists h', foldM (fun h (kd : nat * bool) => set_tree (snd kd) (fst kd) h) l h = Some h' /\ tidy h' /\ length (k_mics h') = length (k_mics h)).
  { induction l as [|x l IH]; intros h0 T0 B; cbn [foldM]; [eauto|]. destruct (set_tree_ok (snd x) (fst x) h0 T0 (B x (or_introl eq_refl))) as (h1 & -> & T1 & L1). cbn [bind]. destruct (IH h1 T1) as (h2 & E & T2 & L2); [intros y I; rewrite L1; apply B; now right|]. exists h2. split; [exact E|]. split; [exact T2|congruence]. }
  destruct (A (combine (seq 0 (length ds)) ds) h T) as (h1 & -> & T1 & L1). { intros [k d] I. apply in_combine_l, in_seq in I. cbn. lia. } cbn [bind].
  assert (B : forall l, (forall i, In i l -> (i < length (k_mics h1))%nat) -> foldM (fun h i => search_tree i h) l h1 = Some h1).
  { induction l as [|i l IH]; intro Hi; [reflexivity|]. cbn [foldM]. rewrite (search_ok i h1 T1) by (apply Hi; now left). cbn [bind]. apply IH. intros; apply Hi; now right. }
  rewrite B by (intros i I; apply in_seq in I; lia). eauto.
Qed.
Lemma destroy_ok ms : forall live, (forall i j a, owns ms i a -> owns ms j a -> i = j) -> (forall i a, owns ms i a -> In a live) -> exists l, foldM (fun l p => delete p l) ms live = Some l /\ forall b, In b l <-> In b live /\ ~ exists i, owns ms i b.
Proof.
  induction ms as [|p ms IH]; intros live D I; cbn [foldM]; [exists live; split; [reflexivity|]; intro b; split; [intro J; split; [exact J|intros [[|i] K]; discriminate]|tauto]|].
  destruct (delete_ok p live) as (l1 & -> & L1); [intros a ->; apply (I 0%nat); reflexivity|]. cbn [bind]. destruct (IH l1) as (l & E & L).
  - intros i j a A B. specialize (D (S i) (S j) a A B). lia.
  - intros i a A. apply L1. split; [exact (I (S i) a A)|]. intros ->. specialize (D 0%nat (S i) a eq_refl A). discriminate.
  - exists l. split; [exact E|]. intro b. rewrite L, L1. split.
    + intros [[A B] C]. split; [exact A|]. intros [[|i] K]; [unfold owns in K; cbn in K; congruence|apply C; exists i; exact K].
    + intros [A B]. split; [split; [exact A|]|]; [intros ->; apply B; exists 0%nat; reflexivity|]. intros [i K]. apply B. exists (S i). exact K.
Qed.
(** When every microphone is there before the first ray tracing, no tree is used or deleted that is not alive, in any number of ray
    tracings with any directivities, and in the end no tree is left. *)
Theorem C149_trees : forall grow n (runs : list (list bool)), (forall k, (k < grow k)%nat) -> Forall (fun ds => length ds = n) runs ->
  exists h h', foldM (fun h (_ : nat) => push_mic grow h) (seq 0 n) no_mics = Some h /\ length (k_mics h) = n /\ foldM (fun h ds => trace_trees ds h) runs h = Some h' /\ destroy h' = Some [].
Proof.
  intros grow n runs G F.
  assert (A : forall k l h, k_mics h = repeat None k -> k_live h = [] -> exists h', foldM (fun h (_ : nat) => push_mic grow h) l h = Some h' /\ k_mics h' = repeat None (k + length l) /\ k_live h' = []).
  { intros k l. revert k. induction l as [|x l IH]; intros k h M L; cbn [foldM length]; [exists h; rewrite Nat.add_0_r; auto|].
    assert (P : exists h1, push_mic grow h = Some h1 /\ k_mics h1 = repeat None (S k) /\ k_live h1 = []).
    { unfold push_mic. assert (R : k_mics h ++ [None] = repeat None (S k)) by (rewrite M; clear; induction k as [|k IH]; [reflexivity|]; cbn [repeat app]; f_equal; exact IH).
      destruct (Nat.ltb _ _); [eexists; split; [reflexivity|]; cbn; auto|]. assert (E : foldM (fun l p => delete p l) (k_mics h) (k_live h) = Some []) by (rewrite M, L; clear; induction k as [|k IH]; [reflexivity|exact IH]). rewrite E. cbn [bind]. eexists. split; [reflexivity|]. cbn. auto. }
    destruct P as (h1 & -> & M1 & L1). cbn [bind]. destruct (IH (S k) h1 M1 L1) as (h2 & E & M2 & L2). exists h2. split; [exact E|]. split; [rewrite M2; f_equal; lia|exact L2]. }
  destruct (A 0%nat (seq 0 n) no_mics eq_refl eq_refl) as (h & E & M & L). rewrite seq_length in M. cbn [plus] in M. exists h.
  assert (Len : length (k_mics h) = n) by (rewrite M; apply repeat_length).
  assert (T : tidy h). { unfold tidy, owns. rewrite M, L. split; [intros i j a I _; apply nth_error_In, repeat_spec in I; discriminate|]. split; [|intros a []]. intro a. split; [intros []|]. intros [i I]. apply nth_error_In, repeat_spec in I. discriminate. }
  assert (B : exists h', foldM (fun h ds => trace_trees ds h) runs h = Some h' /\ tidy h').
  { clear A E M L. revert h Len T. induction F as [|ds runs D F IH]; intros h Len T; cbn [foldM]; [eauto|]. destruct (trace_trees_ok ds h T ltac:(congruence)) as (h1 & -> & T1 & L1). cbn [bind]. apply IH; congruence. }
  destruct B as (h' & E' & (T1 & T2 & T3)). exists h'. split; [exact E|]. split; [exact Len|]. split; [exact E'|]. unfold destroy. destruct (destroy_ok (k_mics h') (k_live h') T1) as (l & -> & Q); [intros i a I; apply T2; eauto|].
  destruct l as [|b l]; [reflexivity|]. destruct (Q b) as [Q1 _]. destruct (Q1 (or_introl eq_refl)) as [Q2 Q3]. apply T2 in Q2. contradiction.
Qed.
Print Assumptions C149_trees.
(** A microphone added after a ray tracing with a directive microphone: the vector of microphones is reallocated, which deletes the tree
    that the copy still points to, and the next ray tracing deletes it again. *)
Theorem C149_trees_refuted : exists grow h1 h2 h3, (forall k, (k < grow k)%nat) /\ push_mic grow no_mics = Some h1 /\ trace_trees [true] h1 = Some h2 /\ push_mic grow h2 = Some h3 /\ trace_trees [true; true] h3 = None /\ destroy h3 = None.
Proof. exists (fun k => if Nat.eqb k 0 then 1%nat else (2 * k)%nat). do 3 eexists. split; [intros [|k]; cbn; lia|]. repeat split. Qed.
Print Assumptions C149_trees_refuted.
(** three microphones, traced twice with different directivities, capacity doubling *)
Example trees_example : exists h, foldM (fun h (_ : nat) => push_mic (fun k => S (2 * k)) h) (seq 0 3) no_mics = Some h /\ exists h', foldM (fun h ds => trace_trees ds h) [[true; false; true]; [true; true; false]] h = Some h' /\ k_mics h' = [Some 2; Some 3; None]%nat /\ k_live h' = [3; 2]%nat /\ destroy h' = Some [].
Proof. eexists. split; [vm_compute; reflexivity|]. eexists. split; [vm_compute; reflexivity|]. vm_compute. auto. Qed.
