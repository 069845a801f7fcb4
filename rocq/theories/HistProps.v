(** C138: histograms on the sphere and neighbours on its grids. *)
From Coq Require Import Reals List ZArith Lia Lra Bool.
From Verif Require Import Base Vec Sum SphereModel SphereProps GridModel GridProps MedModel BaseProofs HistModel.
Import ListNotations.
Local Open Scope R_scope.

(** ** Specification *)
(** what a user may do with a histogram *)
Inductive op := Push (points : list vec) | Read.
Definition apply_op (nearest : list vec -> vec -> nat) (h : hist) (o : op) : option hist := match o with Push p => push nearest h p | Read => Some (snd (histogram h)) end.
Definition run (nearest : list vec -> vec -> nat) (h : hist) (l : list op) : option hist := foldM (apply_op nearest) l h.
Definition pushed (l : list op) : list vec := flat_map (fun o => match o with Push p => p | Read => [] end) l.
(** the number of points in the cell [i] *)
Definition hits (cell : vec -> nat) (points : list vec) (i : nat) : nat := length (filter (fun p => Nat.eqb (cell p) i) points).
(** [v] and [u] are different corners of the triangle *)
Definition corners (t : nat * nat * nat) (v u : nat) : Prop := let '(a, b, c) := t in v = a /\ (u = b \/ u = c) \/ v = b /\ (u = a \/ u = c) \/ v = c /\ (u = a \/ u = b).

(** ** Counting *)
Lemma hits_app c p q i : hits c (p ++ q) i = (hits c p i + hits c q i)%nat.
Proof. unfold hits. now rewrite filter_app, app_length. Qed.
Lemma count_hits c p i : count_occ Nat.eq_dec (map c p) i = hits c p i.
Proof. unfold hits. induction p as [|x p IH]; [reflexivity|]. cbn. destruct (Nat.eq_dec (c x) i) as [->|N]; [rewrite Nat.eqb_refl; cbn; now rewrite IH|]. destruct (Nat.eqb_spec (c x) i); [contradiction|auto]. Qed.
Lemma nth_error_nth_eq {A} (l l' : list A) d j : nth_error l j = nth_error l' j -> nth j l d = nth j l' d.
Proof. intros H. destruct (nth_error l j) as [x|] eqn:E. - rewrite (nth_error_nth _ _ d E). symmetry in H. now rewrite (nth_error_nth _ _ d H). - symmetry in H. apply nth_error_None in E. apply nth_error_None in H. now rewrite !nth_overflow by auto. Qed.
Lemma store_nth {A} (l : list A) i v d : (i < length l)%nat -> exists l', store l i v = Some l' /\ length l' = length l /\ forall j, nth j l' d = if Nat.eqb j i then v else nth j l d.
Proof. intros Hi. destruct (store_Some l i v Hi) as (l' & E & L & N). exists l'. split; [exact E|]. split; [exact L|]. intros j. specialize (N j). destruct (Nat.eqb_spec j i); [now rewrite (nth_error_nth _ _ d N)|now apply nth_error_nth_eq]. Qed.
Lemma add_counts_spec : forall ic bins, NoDup (map fst ic) -> (forall p, In p ic -> (fst p < length bins)%nat) ->
  exists b, add_counts bins ic = Some b /\ length b = length bins /\ (forall p, In p ic -> nth (fst p) b 0%nat = (nth (fst p) bins 0 + snd p)%nat) /\ (forall i, ~ In i (map fst ic) -> nth i b 0%nat = nth i bins 0%nat).
Proof.
  unfold add_counts. induction ic as [|[i c] ic IH]; intros bins ND HI; [exists bins; cbn; repeat split; auto; intros p []|]. cbn [foldM map fst snd] in *. apply NoDup_cons_iff in ND. destruct ND as [NI ND].
  destruct (store_nth bins i (nth i bins 0 + c)%nat 0%nat) as (b1 & E1 & L1 & N1); [apply (HI (i, c)); now left|]. rewrite E1. cbn [bind]. destruct (IH b1 ND) as (b & E & L & A & B); [intros p Hp; rewrite L1; apply HI; now right|]. exists b. split; [exact E|]. split; [congruence|]. split.
  - intros p [<-|Hp]; cbn [fst snd]. + rewrite (B i NI), N1, Nat.eqb_refl. reflexivity. + rewrite (A p Hp), N1. destruct (Nat.eqb_spec (fst p) i) as [E2|]; [|reflexivity]. exfalso. apply NI. rewrite <- E2. now apply in_map.
  - intros j Hj. rewrite B by (intros K; apply Hj; now right). rewrite N1. destruct (Nat.eqb_spec j i) as [->|]; [exfalso; apply Hj; now left|reflexivity].
Qed.
Lemma push_spec nearest h pts : (forall p, In p pts -> (nearest (h_grid h) p < length (h_bins h))%nat) ->
  exists b, push nearest h pts = Some {| h_grid := h_grid h; h_areas := h_areas h; h_bins := b; h_total := h_total h + length pts; h_dirty := true; h_cache := h_cache h |} /\ length b = length (h_bins h) /\
  forall i, nth i b 0%nat = (nth i (h_bins h) 0 + hits (nearest (h_grid h)) pts i)%nat.
Proof.
  intros HI. set (m := map (nearest (h_grid h)) pts). assert (EM : map fst (unique_counts m) = unique_nat m) by (unfold unique_counts; rewrite map_map; cbn; apply map_id).
  assert (HR : forall p, In p (unique_counts m) -> (fst p < length (h_bins h))%nat). { intros p Hp. assert (In (fst p) (unique_nat m)) by (rewrite <- EM; now apply in_map). apply (proj1 (unique_in _ _)) in H. unfold m in H. apply in_map_iff in H. destruct H as (x & <- & Hx). auto. }
  destruct (add_counts_spec (unique_counts m) (h_bins h)) as (b & E & L & A & B); [rewrite EM; apply unique_NoDup|exact HR|].
  exists b. split; [unfold push; fold m; rewrite E; reflexivity|]. split; [exact L|]. intros i. destruct (in_dec Nat.eq_dec i (unique_nat m)) as [Y|N].
  - specialize (A (i, count_occ Nat.eq_dec m i)). cbn [fst snd] in A. rewrite A by (unfold unique_counts; apply in_map_iff; eauto). unfold m. now rewrite count_hits.
  - rewrite B by (now rewrite EM). rewrite <- count_hits. fold m. replace (count_occ Nat.eq_dec m i) with 0%nat; [lia|]. symmetry. apply count_occ_not_In. intros K. apply N. now apply unique_in.
Qed.
Lemma histogram_same h : h_grid (snd (histogram h)) = h_grid h /\ h_areas (snd (histogram h)) = h_areas h /\ h_bins (snd (histogram h)) = h_bins h /\ h_total (snd (histogram h)) = h_total h.
Proof. unfold histogram. destruct (h_dirty h); auto. Qed.
(** what is kept by all operations: [p] are the points pushed so far, [any] whether there was a push *)
Definition inv (nearest : list vec -> vec -> nat) (grid : list vec) (areas : list R) (p : list vec) (any : bool) (h : hist) : Prop :=
  h_grid h = grid /\ h_areas h = areas /\ length (h_bins h) = length grid /\ h_total h = length p /\ (forall i, nth i (h_bins h) 0%nat = hits (nearest grid) p i) /\
  fst (histogram h) = if any then fst (histogram {| h_grid := grid; h_areas := areas; h_bins := h_bins h; h_total := h_total h; h_dirty := true; h_cache := [] |}) else repeat (Some 0) (length grid).
Definition has_push (l : list op) : bool := existsb (fun o => match o with Push _ => true | Read => false end) l.
Lemma run_inv nearest grid areas : (forall p, (nearest grid p < length grid)%nat) -> forall l p any h, inv nearest grid areas p any h -> exists h', run nearest h l = Some h' /\ inv nearest grid areas (p ++ pushed l) (any || has_push l) h'.
Proof.
  intros HN. unfold run. induction l as [|o l IH]; intros p any h HI; [exists h; cbn; rewrite app_nil_r, orb_false_r; auto|]. destruct HI as (E1 & E2 & E3 & E4 & E5 & E6). destruct o as [q|]; cbn [foldM apply_op].
  - destruct (push_spec nearest h q) as (b & EP & L & NB); [intros x _; rewrite E1, E3; apply HN|]. rewrite EP. cbn [bind]. match goal with |- context [foldM _ l ?x] => set (h1 := x) end. destruct (IH (p ++ q) true h1) as (h' & ER & HI').
    + unfold inv, h1. cbn [h_grid h_areas h_bins h_total]. repeat split; auto; try congruence. * rewrite app_length. lia. * intros i. rewrite NB, E5, hits_app, E1. reflexivity. * unfold histogram. cbn. rewrite E2. reflexivity.
    + exists h'. split; [exact ER|]. cbn [pushed flat_map has_push existsb]. rewrite app_assoc, orb_true_r. exact HI'.
  - cbn [bind]. destruct (histogram_same h) as (F1 & F2 & F3 & F4). destruct (IH p any (snd (histogram h))) as (h' & ER & HI').
    + unfold inv. rewrite F1, F2, F3, F4. repeat split; auto. rewrite <- E6. unfold histogram. destruct (h_dirty h) eqn:ED; cbn; [reflexivity|]. now rewrite ED.
    + exists h'. split; [exact ER|]. exact HI'.
Qed.
Lemma start_inv nearest grid areas dim : inv nearest grid areas [] false (make_hist grid areas dim).
Proof. unfold inv, make_hist. cbn. rewrite repeat_length. repeat split; auto. intros i. unfold hits. cbn. apply nth_repeat. Qed.
Lemma hits_total nearest n p : (forall x, In x p -> (nearest x < n)%nat) -> bsum n (fun i => INR (hits nearest p i)) = INR (length p).
Proof.
  intros H. induction p as [|x p IH]; [apply bsum_zero_ext; reflexivity|]. rewrite (bsum_ext _ _ (fun i => (if Nat.eqb (nearest x) i then 1 else 0) + INR (hits nearest p i))).
  - rewrite bsum_plus, IH by (intros; apply H; now right). cbn [length]. rewrite S_INR, Rplus_comm. f_equal. rewrite (bsum_delta n (nearest x)); [now rewrite Nat.eqb_refl|apply H; now left|]. intros i _ N. destruct (Nat.eqb_spec (nearest x) i); congruence.
  - intros i _. unfold hits. cbn. destruct (Nat.eqb_spec (nearest x) i); cbn [length]; [rewrite S_INR|]; lra.
Qed.
(** Whatever was pushed and read before, the histogram is proportional to the numbers of points nearest to the points of the
    grid and integrates to one. *)
Theorem C138_histogram : forall nearest grid areas dim l, (forall p, (nearest grid p < length grid)%nat) -> (forall i, (i < length grid)%nat -> 0 < nth i areas 0) ->
  exists h, run nearest (make_hist grid areas dim) l = Some h /\ h_total h = length (pushed l) /\ (forall i, nth i (h_bins h) 0%nat = hits (nearest grid) (pushed l) i) /\
  (pushed l <> [] -> exists v, fst (histogram h) = map (fun i => Some (v i)) (seq 0 (length grid)) /\ bsum (length grid) (fun i => nth i areas 0 * v i) = 1 /\ (forall i, 0 <= v i) /\
     forall i j, v i * INR (hits (nearest grid) (pushed l) j) = v j * INR (hits (nearest grid) (pushed l) i)) /\
  (has_push l = false -> fst (histogram h) = map (fun _ => Some 0) grid).
Proof.
  intros nearest grid areas dim l HN HA. destruct (run_inv nearest grid areas HN l [] false _ (start_inv nearest grid areas dim)) as (h & ER & E1 & E2 & E3 & E4 & E5 & E6). cbn [app orb] in *. exists h. split; [exact ER|]. split; [exact E4|]. split; [exact E5|]. set (p := pushed l) in *. split.
  - intros NE. assert (HP : has_push l = true). { destruct (has_push l) eqn:H0; [reflexivity|]. exfalso. apply NE. unfold p. clear - H0. unfold has_push in H0. induction l as [|[q|] l IH]; cbn in *; [reflexivity|discriminate|auto]. }
    rewrite HP in E6. unfold histogram at 2 in E6. cbn [h_dirty h_bins h_areas fst] in E6. rewrite E3 in E6. set (z := bsum _ _) in E6. set (cnt := fun i => hits (nearest grid) p i).
    assert (Ez : z = bsum (length grid) (fun i => nth i areas 0 * INR (cnt i))) by (unfold z; apply bsum_ext; intros i Hi; now rewrite E5).
    assert (TOT : bsum (length grid) (fun i => INR (cnt i)) = INR (length p)) by (apply (hits_total (nearest grid)); auto).
    assert (PL : 0 < INR (length p)) by (apply lt_0_INR; destruct p; [contradiction|cbn; lia]).
    assert (EX : exists k, (k < length grid)%nat /\ 0 < INR (cnt k)).
    { destruct p as [|x p'] eqn:Ep; [contradiction|]. exists (nearest grid x). split; [apply HN|]. apply lt_0_INR. unfold cnt, hits. cbn. rewrite Nat.eqb_refl. cbn. lia. }
    assert (PZ : 0 < z). { destruct EX as (k & Hk & Pk). rewrite Ez. assert (NN : forall i, (i < length grid)%nat -> 0 <= nth i areas 0 * INR (cnt i)) by (intros i Hi; specialize (HA i Hi); pose proof (pos_INR (cnt i)); nra). apply Rlt_le_trans with (nth k areas 0 * INR (cnt k)); [specialize (HA k Hk); nra|].
      assert (ED : bsum (length grid) (fun i => if Nat.eqb i k then nth i areas 0 * INR (cnt i) else 0) = nth k areas 0 * INR (cnt k)) by (rewrite (bsum_delta (length grid) k); [now rewrite Nat.eqb_refl|exact Hk|]; intros i _ N; destruct (Nat.eqb_spec i k); congruence).
      rewrite <- ED. apply bsum_le. intros i Hi. destruct (Nat.eqb i k); [lra|auto]. }
    exists (fun i => INR (cnt i) / z). split; [|split; [|split]].
    + rewrite E6. transitivity (map (fun b => Some (INR b / z)) (h_bins h)); [apply map_ext; intros; destruct (Req_EM_T z 0); [lra|reflexivity]|]. apply nth_ext with (d := None) (d' := None); [rewrite !map_length, seq_length; auto|]. intros i Hi. rewrite map_length, E3 in Hi. rewrite (nth_indep _ None (Some (INR 0 / z))) by (rewrite map_length; lia). rewrite (map_nth (fun b => Some (INR b / z))). rewrite nth_map_seq by lia. now rewrite E5.
    + rewrite (bsum_ext _ _ (fun i => nth i areas 0 * INR (cnt i) * / z)) by (intros; unfold Rdiv; ring). rewrite bsum_scal_r, <- Ez. field. lra.
    + intros i. apply Rmult_le_pos; [apply pos_INR|left; now apply Rinv_0_lt_compat].
    + intros i j. unfold cnt. field. lra.
  - intros HP. rewrite HP in E6. rewrite E6. clear. induction grid; cbn; congruence.
Qed.
Print Assumptions C138_histogram.
(** With cells of equal areas the integral over a cell is the fraction of the points in it. *)
Theorem C138_equal : forall nearest grid areas dim l a h, (forall p, (nearest grid p < length grid)%nat) -> 0 < a -> (forall i, (i < length grid)%nat -> nth i areas 0 = a) -> pushed l <> [] -> run nearest (make_hist grid areas dim) l = Some h ->
  forall i, (i < length grid)%nat -> exists v, nth_error (fst (histogram h)) i = Some (Some v) /\ a * v = INR (hits (nearest grid) (pushed l) i) / INR (h_total h).
Proof.
  intros nearest grid areas dim l a h HN Ha HA NE HR i Hi. destruct (C138_histogram nearest grid areas dim l HN) as (h' & ER & ET & _ & EV & _); [intros j Hj; rewrite HA by auto; exact Ha|]. assert (h' = h) by congruence. subst h'. destruct (EV NE) as (v & E & S1 & _ & PR). exists (v i). split.
  - rewrite E. rewrite nth_error_map. rewrite (nth_error_nth' _ 0%nat) by (rewrite seq_length; lia). cbn. now rewrite seq_nth by lia.
  - rewrite ET. assert (PL : 0 < INR (length (pushed l))) by (apply lt_0_INR; destruct (pushed l); [contradiction|cbn; lia]). rewrite (bsum_ext _ _ (fun j => a * v j)) in S1 by (intros j Hj; now rewrite HA). rewrite bsum_scal in S1.
    assert (v i * INR (length (pushed l)) = bsum (length grid) v * INR (hits (nearest grid) (pushed l) i)). { rewrite <- (hits_total (nearest grid) (length grid)) by auto. rewrite <- bsum_scal, <- bsum_scal_r. apply bsum_ext. intros j _. apply PR. }
    apply Rmult_eq_reg_r with (INR (length (pushed l))); [|lra]. unfold Rdiv. rewrite Rmult_assoc, H. rewrite !Rmult_assoc, Rinv_l by lra. rewrite <- Rmult_assoc, S1. ring.
Qed.
Print Assumptions C138_equal.
Definition two : list vec := [[1; 0; 0]; [-1; 0; 0]].
(** With cells of different areas it is not, though the histogram integrates to one: one point in a cell of area one and one
    in a cell of area three give 1/4 and 3/4. *)
Theorem C138_mass_refuted : exists nearest grid areas l h v, (forall p, (nearest grid p < length grid)%nat) /\ (forall i, (i < length grid)%nat -> 0 < nth i areas 0) /\ run nearest (make_hist grid areas 3) l = Some h /\
  hits (nearest grid) (pushed l) 0 = 1%nat /\ h_total h = 2%nat /\ nth_error (fst (histogram h)) 0 = Some (Some v) /\ nth 0 areas 0 * v = 1 / 4.
Proof.
  set (near := fun (_ : list vec) (p : vec) => if Rlt_dec 0 (nth 0 p 0) then 0%nat else 1%nat). exists near, two, [1; 3], [Push two]. assert (N : forall p, (near two p < 2)%nat) by (intros p; unfold near; destruct (Rlt_dec _ _); lia). assert (A : forall i, (i < 2)%nat -> 0 < nth i [1; 3] 0) by (intros [|[|]] Hi; cbn; try lra; lia).
  destruct (C138_histogram near two [1; 3] 3 [Push two] N A) as (h & ER & ET & EB & EV & _). destruct EV as (v & E & S1 & _ & PR); [discriminate|]. exists h, (v 0%nat).
  assert (H0 : hits (near two) (pushed [Push two]) 0 = 1%nat) by (unfold hits, near; cbn; destruct (Rlt_dec 0 1); [|lra]; destruct (Rlt_dec 0 (-1)); [lra|]; reflexivity).
  assert (H1 : hits (near two) (pushed [Push two]) 1 = 1%nat) by (unfold hits, near; cbn; destruct (Rlt_dec 0 1); [|lra]; destruct (Rlt_dec 0 (-1)); [lra|]; reflexivity).
  split; [exact N|]. split; [exact A|]. split; [exact ER|]. split; [exact H0|]. split; [exact ET|]. split; [now rewrite E|]. specialize (PR 0%nat 1%nat). rewrite H0, H1 in PR. cbn in S1, PR |- *. lra.
Qed.
Print Assumptions C138_mass_refuted.
(** Pushing no points into an empty histogram turns it from zeros to NaN. *)
Theorem C138_empty_refuted : exists nearest grid areas h h', run nearest (make_hist grid areas 3) [] = Some h /\ fst (histogram h) = [Some 0] /\ run nearest (make_hist grid areas 3) [Push []] = Some h' /\ fst (histogram h') = [None].
Proof.
  exists (fun _ _ => 0%nat), [[1; 0; 0]], [4 * PI]. do 2 eexists. split; [reflexivity|]. split; [reflexivity|]. split; [reflexivity|]. unfold histogram. cbn [h_dirty h_bins h_areas fst length bsum nth map]. destruct (Req_EM_T _ 0) as [_|N]; [reflexivity|]. exfalso. apply N. cbn. ring.
Qed.
Print Assumptions C138_empty_refuted.

(** ** Neighbours *)
Lemma set_add_in u l x : In x (set_add u l) <-> x = u \/ In x l.
Proof. unfold set_add. destruct (existsb (Nat.eqb u) l) eqn:E; [|cbn; intuition]. apply existsb_exists in E. destruct E as (y & Hy & Ey). apply Nat.eqb_eq in Ey. subst y. intuition. now subst. Qed.
Lemma set_add_nodup u l : NoDup l -> NoDup (set_add u l).
Proof. intros H. unfold set_add. destruct (existsb (Nat.eqb u) l) eqn:E; [exact H|]. constructor; [|exact H]. intros K. assert (existsb (Nat.eqb u) l = true) by (apply existsb_exists; exists u; split; [exact K|apply Nat.eqb_refl]). congruence. Qed.
Lemma add_edges_spec : forall es adj, (forall e, In e es -> (fst e < length adj)%nat) -> Forall (@NoDup nat) adj ->
  exists adj', foldM (fun adj e => add_edge adj (fst e) (snd e)) es adj = Some adj' /\ length adj' = length adj /\ Forall (@NoDup nat) adj' /\ forall v u, In u (nth v adj' []) <-> In u (nth v adj []) \/ In (v, u) es.
Proof.
  induction es as [|[v0 u0] es IH]; intros adj HI ND; [exists adj; cbn; repeat split; auto; tauto|]. cbn [foldM fst snd]. unfold add_edge at 1. assert (H0 : (v0 < length adj)%nat) by (apply (HI (v0, u0)); now left).
  destruct (store_nth adj v0 (set_add u0 (nth v0 adj [])) []) as (a1 & E1 & L1 & N1); [exact H0|]. rewrite E1. cbn [bind]. assert (ND1 : Forall (@NoDup nat) a1).
  { apply Forall_forall. intros l Hl. destruct (In_nth _ _ [] Hl) as (j & Hj & <-). rewrite N1. rewrite Forall_forall in ND. destruct (Nat.eqb j v0); [apply set_add_nodup|]; apply ND, nth_In; lia. }
  destruct (IH a1) as (a' & E & L & ND' & S0); [intros e He; rewrite L1; apply HI; now right|exact ND1|]. exists a'. split; [exact E|]. split; [congruence|]. split; [exact ND'|]. intros v u. rewrite S0, N1. destruct (Nat.eqb_spec v v0) as [->|NE].
  - rewrite set_add_in. cbn. split; [intros [[->|K]|K]; auto|intros [K|[K|K]]; auto]. left. left. congruence.
  - cbn. split; [intros [K|K]; auto|intros [K|[K|K]]; auto]. congruence.
Qed.
Lemma corners_edges a b c v u : In (v, u) [(a, b); (a, c); (b, a); (b, c); (c, a); (c, b)] <-> corners (a, b, c) v u.
Proof. cbn. split; [intros H; decompose [or] H; clear H; try contradiction; match goal with K : (_, _) = (_, _) |- _ => apply pair_equal_spec in K; destruct K; subst end; intuition|]. intros H. decompose [or and] H; subst; tauto. Qed.
(** The neighbours of a point are, each once, the other corners of the triangles it is a corner of, so that being a neighbour
    is symmetric. *)
Theorem C138_neighbors : forall n simplices, (forall a b c, In (a, b, c) simplices -> (a < n /\ b < n /\ c < n)%nat) ->
  exists adj, compute_neighbors n simplices = Some adj /\ length adj = n /\ Forall (@NoDup nat) adj /\
  (forall v u, In u (nth v adj []) <-> exists t, In t simplices /\ corners t v u) /\ (forall v u, In u (nth v adj []) <-> In v (nth u adj [])).
Proof.
  intros n simplices HS. assert (G : forall ts adj, (forall a b c, In (a, b, c) ts -> (a < length adj /\ b < length adj /\ c < length adj)%nat) -> Forall (@NoDup nat) adj ->
    exists adj', foldM add_triangle ts adj = Some adj' /\ length adj' = length adj /\ Forall (@NoDup nat) adj' /\ forall v u, In u (nth v adj' []) <-> In u (nth v adj []) \/ exists t, In t ts /\ corners t v u).
  { induction ts as [|[[a b] c] ts IH]; intros adj HI ND; [exists adj; cbn; repeat split; auto; intros [K|(t & [] & _)]; auto|]. cbn [foldM]. unfold add_triangle at 1. destruct (HI a b c ltac:(now left)) as (Ha & Hb & Hc).
    destruct (add_edges_spec [(a, b); (a, c); (b, a); (b, c); (c, a); (c, b)] adj) as (a1 & E1 & L1 & ND1 & S1); [|exact ND|].
    { intros e He. cbn in He. decompose [or] He; subst; cbn; auto; contradiction. }
    rewrite E1. cbn [bind]. destruct (IH a1) as (a' & E & L & ND' & S0); [intros x y z Hx; rewrite L1; apply HI; now right|exact ND1|]. exists a'. split; [exact E|]. split; [congruence|]. split; [exact ND'|]. intros v u. rewrite S0, S1, corners_edges. split.
    - intros [[K|K]|(t & Ht & K)]; [auto|right; exists (a, b, c); split; [now left|exact K]|right; exists t; split; [now right|exact K]].
    - intros [K|(t & [<-|Ht] & K)]; [auto|auto|right; eauto]. }
  destruct (G simplices (repeat [] n)) as (adj & E & L & ND & S0); [now rewrite repeat_length|apply Forall_forall; intros l Hl; apply repeat_spec in Hl; subst; constructor|]. rewrite repeat_length in L. assert (S1 : forall v u, In u (nth v adj []) <-> exists t, In t simplices /\ corners t v u).
  { intros v u. rewrite S0. split; [|auto]. intros [K|K]; [|exact K]. exfalso. rewrite nth_repeat in K. destruct K. }
  exists adj. split; [exact E|]. split; [exact L|]. split; [exact ND|]. split; [exact S1|]. intros v u. rewrite !S1. assert (SY : forall t v u, corners t v u -> corners t u v) by (intros [[a b] c] x y K; cbn in *; tauto). split; intros (t & Ht & K); exists t; auto.
Qed.
Print Assumptions C138_neighbors.
Lemma min_spec l : forall m, match fold_left min_of l m with None => l = [] /\ m = None | Some r => (forall d, In d l -> r <= d) /\ (forall x, m = Some x -> r <= x) /\ (In r l \/ m = Some r) end.
Proof.
  induction l as [|d l IH]; intros m; cbn [fold_left]. - destruct m as [x|]; [|auto]. split; [intros d []|]. split; [|auto]. intros y E. assert (x = y) by congruence. lra.
  - specialize (IH (min_of m d)). destruct (fold_left min_of l (min_of m d)) as [r|]; [|destruct IH as [_ K]; exfalso; destruct m as [x|]; cbn in K; [destruct (Rlt_dec d x)|]; discriminate]. destruct IH as (A & B & D). assert (M : exists y, min_of m d = Some y /\ y <= d /\ (forall x, m = Some x -> y <= x) /\ (y = d \/ m = Some y)).
    { destruct m as [x|]; cbn; [destruct (Rlt_dec d x)|]; eexists; (split; [reflexivity|]); (split; [lra|]); (split; [intros z E; try discriminate; assert (x = z) by congruence; lra|auto]). }
    destruct M as (y & Ey & Y1 & Y2 & Y3). specialize (B y Ey). split; [intros e [<-|He]; [lra|auto]|]. split; [intros x Ex; specialize (Y2 x Ex); lra|]. destruct D as [D|D]; [left; now right|]. assert (y = r) by congruence. subst y. destruct Y3 as [->|Y3]; [left; now left|auto].
Qed.
Lemma max_spec l : forall m, m <= fold_left max_of l m /\ (forall d, In d l -> d <= fold_left max_of l m) /\ (In (fold_left max_of l m) l \/ fold_left max_of l m = m).
Proof.
  induction l as [|d l IH]; intros m; cbn [fold_left]; [split; [lra|]; split; [intros d []|auto]|]. destruct (IH (max_of m d)) as (A & B & D). set (r := fold_left max_of l (max_of m d)) in *. assert (M : m <= max_of m d /\ d <= max_of m d /\ (max_of m d = m \/ max_of m d = d)) by (unfold max_of; destruct (Rlt_dec m d); split; try lra; split; try lra; auto). destruct M as (M1 & M2 & M3).
  split; [lra|]. split; [intros e [<-|He]; [lra|auto]|]. destruct D as [D|D]; [left; now right|]. destruct M3 as [M3|M3]; [right; congruence|left; left; congruence].
Qed.
Lemma edge_in azimuth colatitude neighbors d : In d (edge_distances azimuth colatitude neighbors) <-> exists u v, (u < length azimuth)%nat /\ In v (nth u neighbors []) /\ d = acos (dot (direction (nth u azimuth 0) (nth u colatitude 0)) (direction (nth v azimuth 0) (nth v colatitude 0))).
Proof.
  unfold edge_distances. rewrite in_flat_map. split.
  - intros (u & Hu & Hd). apply in_seq in Hu. apply in_map_iff in Hd. destruct Hd as (v & <- & Hv). exists u, v. split; [lia|]. split; [exact Hv|]. apply gc_unit.
  - intros (u & v & Hu & Hv & ->). exists u. split; [apply in_seq; lia|]. apply in_map_iff. exists v. split; [apply gc_unit|exact Hv].
Qed.
Lemma Rsum_bounds l a b : (forall d, In d l -> a <= d <= b) -> a * INR (length l) <= Rsum l <= b * INR (length l).
Proof. induction l as [|d l IH]; intros H; [cbn; lra|]. cbn [length Rsum fold_right]. rewrite S_INR. specialize (IH ltac:(intros; apply H; now right)). pose proof (H d ltac:(now left)). fold (Rsum l). lra. Qed.
(** The first two values are the smallest and the largest angle between neighbours, and the mean lies between them. *)
Theorem C138_distances : forall azimuth colatitude neighbors, (exists u v, (u < length azimuth)%nat /\ In v (nth u neighbors [])) ->
  let angle u v := acos (dot (direction (nth u azimuth 0) (nth u colatitude 0)) (direction (nth v azimuth 0) (nth v colatitude 0))) in
  let edge u v := (u < length azimuth)%nat /\ In v (nth u neighbors []) in
  exists smallest largest mean med, min_max_distance azimuth colatitude neighbors = Some (Some smallest, largest, mean, med) /\
  (forall u v, edge u v -> smallest <= angle u v <= largest) /\ (exists u v, edge u v /\ angle u v = smallest) /\ (exists u v, edge u v /\ angle u v = largest) /\ smallest <= mean <= largest.
Proof.
  intros azimuth colatitude neighbors (u0 & v0 & Hu0 & Hv0) angle edge. set (l := edge_distances azimuth colatitude neighbors). assert (I0 : In (angle u0 v0) l) by (apply edge_in; exists u0, v0; auto). assert (PL : (0 < length l)%nat) by (destruct l; [destruct I0|cbn; lia]).
  unfold min_max_distance. fold l. destruct (Nat.eqb_spec (length l) 0) as [K|_]; [lia|]. unfold median. destruct (Nat.eqb_spec (length l) 0) as [K|_]; [lia|]. cbn [bind].
  pose proof (min_spec l None) as MN. destruct (fold_left min_of l None) as [r|]; [|destruct MN as [K _]; rewrite K in PL; cbn in PL; lia]. destruct MN as (A & _ & D). destruct (max_spec l 0) as (_ & B & E). set (s := fold_left max_of l 0) in *. do 4 eexists. split; [reflexivity|].
  assert (ED : forall u v, edge u v -> In (angle u v) l) by (intros u v [Hu Hv]; apply edge_in; exists u, v; auto). split; [intros u v He; split; [apply A|apply B]; auto|]. split; [|split].
  - destruct D as [D|D]; [|discriminate]. apply edge_in in D. destruct D as (u & v & Hu & Hv & ->). exists u, v. split; [split; auto|reflexivity].
  - assert (Is : In s l). { destruct E as [E|E]; [exact E|]. assert (angle u0 v0 = s); [|congruence]. specialize (B _ I0). pose proof (acos_bound (dot (direction (nth u0 azimuth 0) (nth u0 colatitude 0)) (direction (nth v0 azimuth 0) (nth v0 colatitude 0)))). unfold angle in *. lra. }
    apply edge_in in Is. destruct Is as (u & v & Hu & Hv & Es). exists u, v. split; [split; auto|now rewrite Es].
  - destruct (Rsum_bounds l r s) as [S1 S2]; [intros d Hd; auto|]. assert (0 < INR (length l)) by (apply lt_0_INR; lia). split; (apply Rmult_le_reg_r with (INR (length l)); [auto|]); unfold Rdiv; rewrite Rmult_assoc, Rinv_l by lra; lra.
Qed.
Print Assumptions C138_distances.

(** ** Cases *)
(** Three points pushed in two batches, read in between: two in the first of three cells and one in the last. *)
Definition case_near (_ : list vec) (p : vec) : nat := if Rlt_dec 0 (nth 0 p 0) then 0%nat else 2%nat.
Definition case_ops : list op := [Push [[1; 0; 0]]; Read; Push [[2; 0; 0]; [-1; 0; 0]]].
Lemma case_hits : hits (case_near two) (pushed case_ops) 0 = 2%nat /\ hits (case_near two) (pushed case_ops) 1 = 0%nat /\ hits (case_near two) (pushed case_ops) 2 = 1%nat.
Proof. unfold hits, case_near. cbn. destruct (Rlt_dec 0 1); [|lra]. destruct (Rlt_dec 0 2); [|lra]. destruct (Rlt_dec 0 (-1)); [lra|]. auto. Qed.
Example C138_case : exists h, run case_near (make_hist [[1; 0; 0]; [0; 1; 0]; [0; 0; 1]] [1; 1; 1] 3) case_ops = Some h /\ h_total h = 3%nat /\ exists v, nth_error (fst (histogram h)) 0 = Some (Some v) /\ 1 * v = INR 2 / INR 3.
Proof.
  set (g := [[1; 0; 0]; [0; 1; 0]; [0; 0; 1]]). assert (N : forall p, (case_near g p < length g)%nat) by (intros p; unfold case_near, g; cbn [length]; destruct (Rlt_dec _ _); lia). assert (A : forall i, (i < length g)%nat -> nth i [1; 1; 1] 0 = 1) by (intros [|[|[|]]] Hi; cbn in *; try reflexivity; lia).
  destruct (C138_histogram case_near g [1; 1; 1] 3 case_ops N) as (h & ER & ET & _); [intros i Hi; rewrite A by auto; lra|]. exists h. split; [exact ER|]. split; [exact ET|]. destruct (C138_equal case_near g [1; 1; 1] 3 case_ops 1 h N ltac:(lra) A ltac:(discriminate) ER 0%nat) as (v & Ev & Hv); [unfold g; cbn; lia|]. exists v. split; [exact Ev|]. rewrite Hv, ET. change (hits (case_near g) (pushed case_ops) 0) with (hits (case_near two) (pushed case_ops) 0). now rewrite (proj1 case_hits).
Qed.
(** A tetrahedron: every point is a neighbour of the three others. *)
Example C138_tetrahedron : exists adj, compute_neighbors 4 [(0, 1, 2); (0, 1, 3); (0, 2, 3); (1, 2, 3)]%nat = Some adj /\ map (@length nat) adj = [3; 3; 3; 3]%nat /\ In 3%nat (nth 0 adj []) /\ ~ In 0%nat (nth 0 adj []).
Proof. exists [[3; 2; 1]; [3; 2; 0]; [3; 1; 0]; [2; 1; 0]]%nat. split; [vm_compute; reflexivity|]. split; [reflexivity|]. cbn. split; [tauto|]. intros H. decompose [or] H; discriminate || contradiction. Qed.
Example C138_distances_case : exists smallest largest mean med, min_max_distance [0; PI / 2] [PI / 2; PI / 2] [[1]; [0]]%nat = Some (Some smallest, largest, mean, med) /\ smallest <= mean <= largest.
Proof. destruct (C138_distances [0; PI / 2] [PI / 2; PI / 2] [[1]; [0]]%nat) as (s & l & m & d & E & _ & _ & _ & B); [exists 0%nat, 1%nat; cbn; auto|]. exists s, l, m, d. auto. Qed.
