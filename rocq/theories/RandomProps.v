(* C76 rejection sampling, C77 power-spherical sampling, C90 seeding. *)
From Coq Require Import Reals List ZArith Bool Lia Lra.
From Verif Require Import Base Vec GeometryModel DirectModel CardioidProps RandomModel.
From Verif Require Import BaseProofs.
Import ListNotations.
Local Open Scope R_scope.

(* ------------------------------------------------------------------ *)
Section Rejection.
Context {P G : Type} (desired density : P -> R) (propose : nat -> G -> list P * G) (uniform : nat -> G -> list R * G).
Hypothesis propose_length : forall n g, length (fst (propose n g)) = n.
Hypothesis uniform_length : forall n g, length (fst (uniform n g)) = n.

(* What the generator yields when asked, round after round, for as many
   proposals and uniform numbers as samples are missing. *)
Inductive drawn (scale : R) : nat -> G -> list (P * R) -> G -> Prop :=
| drawn_done : forall g, drawn scale 0 g [] g
| drawn_round : forall n p u g g1 g2 rest g3, (0 < n)%nat -> propose n g = (p, g1) -> uniform n g1 = (u, g2) ->
    drawn scale (n - length (filter (fun pu => if Rlt_dec (snd pu * density (fst pu) * scale) (desired (fst pu)) then true else false) (combine p u))) g2 rest g3 ->
    drawn scale n g (combine p u ++ rest) g3.
(* The acceptance rule: the proposal x with uniform number u is kept. *)
Definition kept (scale : R) (pu : P * R) : bool := if Rlt_dec (snd pu * density (fst pu) * scale) (desired (fst pu)) then true else false.

Lemma kept_accepted : forall scale pu, accepted desired density scale pu = kept scale pu.
Proof. intros. unfold accepted, kept, Rltb. destruct (Rlt_dec _ _); reflexivity. Qed.
Lemma filter_length_le : forall (f : P * R -> bool) l, (length (filter f l) <= length l)%nat.
Proof. intros f l. induction l as [|a l IH]; cbn; [lia|]. destruct (f a); cbn; lia. Qed.
Lemma loop_spec : forall fuel scale n g x0 np na x np' na' g', loop desired density propose uniform fuel scale n g x0 np na = Some (x, np', na', g') ->
  exists pairs, drawn scale n g pairs g' /\ x = x0 ++ map fst (filter (kept scale) pairs) /\
    length (filter (kept scale) pairs) = n /\ np' = (np + length pairs)%nat /\ na' = (na + n)%nat.
Proof.
  induction fuel as [|fuel IH]; intros scale n g x0 np na x np' na' g' H.
  - destruct n; [|discriminate]. cbn in H. injection H as <- <- <- <-. exists []. split; [constructor|]. cbn. rewrite app_nil_r. repeat split; lia.
  - destruct n as [|n]; [cbn in H; injection H as <- <- <- <-; exists []; split; [constructor|]; cbn; rewrite app_nil_r; repeat split; lia|].
    cbn [loop] in H. unfold round in H. destruct (propose (S n) g) as [p g1] eqn:Ep. destruct (uniform (S n) g1) as [u g2] eqn:Eu.
    assert (Lp : length p = S n) by (rewrite <- (propose_length (S n) g), Ep; reflexivity).
    assert (Lu : length u = S n) by (rewrite <- (uniform_length (S n) g1), Eu; reflexivity).
    rewrite (filter_ext _ _ (kept_accepted scale)) in H. rewrite map_length in H.
    set (k := length (filter (kept scale) (combine p u))) in *.
    assert (Hk : (k <= S n)%nat) by (subst k; pose proof (filter_length_le (kept scale) (combine p u)); rewrite combine_length in *; lia).
    destruct (IH _ _ _ _ _ _ _ _ _ _ H) as [pairs [D [Ex [El [Enp Ena]]]]].
    exists (combine p u ++ pairs). split; [|split; [|split; [|split]]].
    + eapply drawn_round; [lia|exact Ep|exact Eu|exact D].
    + rewrite Ex, filter_app, map_app, app_assoc. reflexivity.
    + rewrite filter_app, app_length, El. fold k. lia.
    + rewrite app_length, combine_length. lia.
    + lia.
Qed.

(* Exactly the requested number of samples, which are the proposals that passed
   the test, in the order drawn; shape as requested; the counters grow by the
   numbers of proposals and of samples. *)
Theorem C76_samples : forall fuel s sz rng x sh s' g', sample desired density propose uniform fuel s sz rng = Some (x, sh, s', g') ->
  let n := fold_right Nat.mul 1%nat sh in
  length x = n /\
  (match sz with SNone => sh = [1%nat] | SInt k => (0 < k)%nat -> sh = [k] | STuple l => l <> [] -> sh = l end) /\
  exists pairs, drawn (s_scale s) n (match rng with Some g => g | None => s_rng s end) pairs g' /\
    x = map fst (filter (kept (s_scale s)) pairs) /\
    s_proposed s' = (s_proposed s + length pairs)%nat /\ s_accepted s' = (s_accepted s + length x)%nat /\ s_scale s' = s_scale s /\
    (* the next call goes on where this one stopped, unless another generator was given *)
    s_rng s' = match rng with Some _ => s_rng s | None => g' end.
Proof.
  intros fuel s sz rng x sh s' g' H. unfold sample in H.
  destruct (loop _ _ _ _ _ _ _ _ _ _) as [[[[x1 np] na] g1]|] eqn:E; [|discriminate]. injection H as <- <- <- <-.
  destruct (loop_spec _ _ _ _ _ _ _ _ _ _ _ E) as [pairs [D [Ex [El [Enp Ena]]]]]. cbn [app] in Ex.
  assert (En : flat (norm_size sz) = fold_right Nat.mul 1%nat (lead (norm_size sz))).
  { destruct (norm_size sz); cbn; lia. }
  cbv zeta. rewrite <- En. split; [|split].
  - rewrite Ex, map_length. exact El.
  - destruct sz as [|[|k]|[|a l]]; cbn; try reflexivity; try (intros; lia); try (intros; congruence); auto.
  - exists pairs. split; [exact D|]. split; [exact Ex|]. cbn [s_proposed s_accepted s_scale]. rewrite Ex, map_length, El. auto.
Qed.

(* Over any history of calls the efficiency is accepted over proposed: the
   number of samples returned over the number of proposals drawn; it lies in (0, 1]. *)
Theorem C76_efficiency : forall scale rng l s' n, sample_run desired density propose uniform (make_sampler scale rng) l = Some (s', n) ->
  s_accepted s' = n /\ (s_accepted s' <= s_proposed s')%nat /\ 0 <= efficiency s' <= 1 /\
  ((0 < s_proposed s')%nat -> efficiency s' * INR (s_proposed s') = INR n).
Proof.
  intros scale rng l s' n H.
  assert (G0 : forall l s s' n, (s_accepted s <= s_proposed s)%nat -> sample_run desired density propose uniform s l = Some (s', n) ->
     s_accepted s' = (s_accepted s + n)%nat /\ (s_accepted s' <= s_proposed s')%nat).
  { clear - propose_length uniform_length. induction l as [|[fuel [sz rng]] l IH]; intros s s' n Hs H; cbn in H.
    - injection H as <- <-. lia.
    - destruct (sample _ _ _ _ fuel s sz rng) as [[[[x sh] s1] g1]|] eqn:E; [|discriminate].
      destruct (sample_run _ _ _ _ s1 l) as [[s2 m]|] eqn:E2; [|discriminate]. injection H as <- <-.
      destruct (C76_samples _ _ _ _ _ _ _ _ E) as [Lx [_ [pairs [D [Ex [E3 [E4 _]]]]]]].
      assert (Hp : (length x <= length pairs)%nat) by (rewrite Ex, map_length; apply filter_length_le).
      destruct (IH s1 s2 m) as [I1 I2]; [lia|exact E2|]. lia. }
  destruct (G0 l (make_sampler scale rng) s' n (le_n 0) H) as [A1 A2]. cbn [make_sampler s_accepted] in A1. cbn in A1. split; [exact A1|]. split; [exact A2|].
  unfold efficiency. destruct (Nat.eqb_spec (s_proposed s') 0) as [E|E]; [split; [lra|lia]|].
  assert (Pp : 0 < INR (s_proposed s')) by (apply lt_0_INR; lia). assert (Pa : 0 <= INR (s_accepted s')) by apply pos_INR.
  apply le_INR in A2. split; [split|].
  - apply Rmult_le_pos; [exact Pa|]. left. now apply Rinv_0_lt_compat.
  - apply Rmult_le_reg_r with (INR (s_proposed s')); [exact Pp|]. unfold Rdiv. rewrite Rmult_assoc, Rinv_l by lra. lra.
  - intros _. rewrite <- A1. field. lra.
Qed.

(* Termination: as soon as every round keeps something. *)
Theorem C76_terminates : forall s sz rng, (forall n g, (0 < n)%nat -> fst (round desired density propose uniform (s_scale s) n g) <> []) ->
  exists r, sample desired density propose uniform (flat (norm_size sz)) s sz rng = Some r.
Proof.
  intros s sz rng H. unfold sample.
  assert (L : forall fuel n g x np na, (n <= fuel)%nat -> exists r, loop desired density propose uniform fuel (s_scale s) n g x np na = Some r).
  { induction fuel as [|fuel IH]; intros n g x np na Hn.
    - assert (n = 0)%nat by lia. subst. cbn. eauto.
    - destruct n as [|n]; [cbn; eauto|]. cbn [loop]. specialize (H (S n) g ltac:(lia)).
      destruct (round desired density propose uniform (s_scale s) (S n) g) as [acc g']. cbn in H. apply IH.
      destruct acc; [congruence|cbn; lia]. }
  destruct (L (flat (norm_size sz)) (flat (norm_size sz)) (match rng with Some g => g | None => s_rng s end) [] (s_proposed s) (s_accepted s) (le_n _)) as [[[[x np] na] g'] E].
  rewrite E. eauto.
Qed.

(* The uniform numbers for which x is kept form the interval from 0 to
   desired / (density scale): when this ratio is at most one (the envelope), it
   is the probability of keeping x. *)
Theorem C76_envelope : forall scale x u, 0 < density x * scale -> 0 <= u < 1 ->
  (kept scale (x, u) = true <-> u < desired x / (density x * scale)).
Proof.
  intros scale x u Hp Hu. unfold kept. cbn [fst snd].
  assert (E : u * density x * scale < desired x <-> u < desired x / (density x * scale)).
  { split; intros H.
    - apply Rmult_lt_reg_r with (density x * scale); [exact Hp|]. unfold Rdiv. rewrite Rmult_assoc, Rinv_l by lra. lra.
    - apply Rmult_lt_compat_r with (r := density x * scale) in H; [|exact Hp]. unfold Rdiv in H. rewrite Rmult_assoc, Rinv_l in H by lra. lra. }
  rewrite <- E. destruct (Rlt_dec _ _) as [e|e]; [tauto|]. split; [discriminate|contradiction].
Qed.
End Rejection.

(* With a density that vanishes the loop never ends. *)
Theorem C76_silent_refuted : exists (desired density : list R -> R) (propose : nat -> unit -> list (list R) * unit) (uniform : nat -> unit -> list R * unit) s sz,
  (forall n g, length (fst (propose n g)) = n) /\ (forall n g, length (fst (uniform n g)) = n) /\
  forall fuel, sample desired density propose uniform fuel s sz None = None.
Proof.
  exists (fun _ => 0), (fun _ => 1), (fun n g => (repeat [1; 0; 0] n, g)), (fun n g => (repeat (1 / 2) n, g)), (make_sampler None tt), SNone.
  split; [intros; apply repeat_length|]. split; [intros; apply repeat_length|]. intros fuel. unfold sample. cbn [norm_size flat make_sampler s_scale].
  match goal with |- match loop _ _ _ _ _ _ _ ?g ?x ?np ?na with _ => _ end = None => generalize g; generalize x; generalize np; generalize na end.
  induction fuel as [|fuel IH]; intros na np x g; [reflexivity|]. cbn [loop round repeat combine filter accepted fst snd].
  unfold accepted. cbn [fst snd]. unfold Rltb. destruct (Rlt_dec _ _) as [e|e]; [exfalso; lra|]. cbn [map length Nat.sub]. rewrite app_nil_r. apply IH.
Qed.
(* Asking for no samples gives one. *)
Theorem C76_zero_refuted : exists (desired density : list R -> R) (propose : nat -> unit -> list (list R) * unit) (uniform : nat -> unit -> list R * unit) fuel s x sh s' g',
  sample desired density propose uniform fuel s (SInt 0) None = Some (x, sh, s', g') /\ length x = 1%nat.
Proof.
  exists (fun _ => 1), (fun _ => 1), (fun n g => (repeat [1; 0; 0] n, g)), (fun n g => (repeat (1 / 2) n, g)), 1%nat, (make_sampler None tt).
  unfold sample. cbn [norm_size flat make_sampler s_scale loop round repeat combine filter fst snd]. unfold accepted. cbn [fst snd]. unfold Rltb.
  destruct (Rlt_dec _ _) as [e|e]; [|exfalso; apply e; lra]. cbn. do 4 eexists. split; reflexivity.
Qed.

(* The rays of a cardioid (DirectModel): density 1, scale 1.  With gain at most
   one the probability of keeping x is the squared response, hence proportional
   to the density advertised; *)
Theorem C76_cardioid : forall c x u, 0 <= c_p c <= 1 -> Rabs (c_gain c) <= 1 -> List.length (c_loc c) = List.length x -> vnorm (c_loc c) = 1 -> vnorm x = 1 -> 0 <= u < 1 ->
  (kept (unnormalized_pdf c) (fun _ => 1) 1 (x, u) = true <-> u < pdf c x * cardioid_energy (c_p c) (c_gain c)) /\
  (c_gain c <> 0 -> 0 <= pdf c x * cardioid_energy (c_p c) (c_gain c) <= 1).
Proof.
  intros c x u Hp Hg Hl Nl Nx Hu.
  assert (Hf : 0 <= unnormalized_pdf c x <= 1).
  { rewrite pdf_formula by exact Hp. pose proof (cos_range (c_loc c) x Hl ltac:(lra) ltac:(lra)) as Hc. unfold cos_angle in Hc. rewrite Nl, Nx in Hc.
    replace (dot (c_loc c) x / (1 * 1)) with (dot (c_loc c) x) in Hc by field. set (k := dot (c_loc c) x) in *.
    split; [cbn [pow]; rewrite Rmult_1_r; apply Rle_0_sqr|].
    assert (Ha : Rabs (c_gain c * (c_p c + (1 - c_p c) * k)) <= 1).
    { rewrite Rabs_mult. assert (Rabs (c_p c + (1 - c_p c) * k) <= 1) by (apply Rabs_le; nra).
      pose proof (Rabs_pos (c_gain c)). pose proof (Rabs_pos (c_p c + (1 - c_p c) * k)). nra. }
    rewrite <- pow2_abs. pose proof (Rabs_pos (c_gain c * (c_p c + (1 - c_p c) * k))). cbn [pow]. rewrite Rmult_1_r. nra. }
  split.
  - rewrite C76_envelope by (auto; lra). rewrite Rmult_1_r. unfold Rdiv. rewrite Rinv_1, Rmult_1_r.
    destruct (Req_EM_T (c_gain c) 0) as [E|E].
    + assert (Z : unnormalized_pdf c x = 0) by (rewrite pdf_formula by exact Hp; rewrite E; ring). unfold pdf. rewrite Z. unfold Rdiv. rewrite !Rmult_0_l. tauto.
    + pose proof (energy_pos (c_p c) (c_gain c) E). unfold pdf. replace (unnormalized_pdf c x / cardioid_energy (c_p c) (c_gain c) * cardioid_energy (c_p c) (c_gain c)) with (unnormalized_pdf c x) by (field; lra). tauto.
  - intros E. pose proof (energy_pos (c_p c) (c_gain c) E). unfold pdf. replace (unnormalized_pdf c x / cardioid_energy (c_p c) (c_gain c) * cardioid_energy (c_p c) (c_gain c)) with (unnormalized_pdf c x) by (field; lra). exact Hf.
Qed.
(* with a larger gain it is not: here two directions of different density are
   both always kept. *)
Theorem C76_gain_refuted : exists c x y, vnorm (c_loc c) = 1 /\ vnorm x = 1 /\ vnorm y = 1 /\ pdf c x <> pdf c y /\
  forall u, 0 <= u < 1 -> kept (unnormalized_pdf c) (fun _ => 1) 1 (x, u) = true /\ kept (unnormalized_pdf c) (fun _ => 1) 1 (y, u) = true.
Proof.
  set (c := {| c_dir := [1; 0; 0]; c_p := 1 / 2; c_gain := 2; c_loc := [1; 0; 0] |}).
  assert (N1 : vnorm [1; 0; 0] = 1). { unfold vnorm, vsq, dot, map2. cbn. replace (1 * 1 + (0 * 0 + (0 * 0 + 0))) with 1 by ring. apply sqrt_1. }
  assert (N2 : vnorm [0; 1; 0] = 1). { unfold vnorm, vsq, dot, map2. cbn. replace (0 * 0 + (1 * 1 + (0 * 0 + 0))) with 1 by ring. apply sqrt_1. }
  assert (D1 : unnormalized_pdf c [1; 0; 0] = 4).
  { rewrite pdf_formula by (cbn; lra). cbn [c_gain c_p c_loc c]. assert (E : dot [1; 0; 0] [1; 0; 0] = 1) by (unfold dot, map2; cbn; ring). rewrite E. field. }
  assert (D2 : unnormalized_pdf c [0; 1; 0] = 1).
  { rewrite pdf_formula by (cbn; lra). cbn [c_gain c_p c_loc c]. assert (E : dot [1; 0; 0] [0; 1; 0] = 0) by (unfold dot, map2; cbn; ring). rewrite E. field. }
  exists c, [1; 0; 0], [0; 1; 0]. split; [exact N1|]. split; [exact N1|]. split; [exact N2|]. split.
  - unfold pdf. rewrite D1, D2. intros E. pose proof (energy_pos (c_p c) (c_gain c) ltac:(cbn; lra)) as P.
    apply (f_equal (fun z => z * cardioid_energy (c_p c) (c_gain c))) in E. unfold Rdiv in E. rewrite !Rmult_assoc, Rinv_l in E by lra. lra.
  - intros u Hu. rewrite !C76_envelope by (auto; lra). rewrite D1, D2. lra.
Qed.
(* A run: two samples wanted, proposals 1, 2, 3, 4, ... with uniform number 1/2
   and desired density 1 for even numbers only: 2 and 4 are kept, four proposals
   were drawn in three rounds. *)
Definition ex_desired (k : nat) : R := if Nat.even k then 1 else 0.
Definition ex_propose (n : nat) (g : nat) : list nat * nat := (seq g n, (g + n)%nat).
Definition ex_uniform (n : nat) (g : nat) : list R * nat := (repeat (1 / 2) n, g).
Example C76_case : exists s' g', sample ex_desired (fun _ => 1) ex_propose ex_uniform 5 (make_sampler None 1%nat) (SInt 2) None
  = Some ([2%nat; 4%nat], [2%nat], s', g') /\ efficiency s' = 1 / 2.
Proof.
  assert (A : forall k, accepted ex_desired (fun _ => 1) 1 (k, 1 / 2) = Nat.even k).
  { intros k. unfold accepted, ex_desired, Rltb. cbn [fst snd]. destruct (Nat.even k); destruct (Rlt_dec _ _) as [e|e]; try reflexivity; exfalso; lra. }
  unfold sample. cbn [norm_size flat make_sampler s_scale s_rng s_proposed s_accepted]. cbn [loop]. unfold round at 1. unfold ex_propose, ex_uniform.
  cbn [seq repeat combine filter]. rewrite !A. cbn [Nat.even map fst length Nat.sub app Nat.add loop]. unfold round at 1. cbn [seq repeat combine filter]. rewrite !A. cbn [Nat.even map fst length Nat.sub app Nat.add loop].
  unfold round at 1. cbn [seq repeat combine filter]. rewrite !A. cbn [Nat.even map fst length Nat.sub app Nat.add loop].
  do 2 eexists. split; [reflexivity|]. unfold efficiency. cbn. field.
Qed.

(* ------------------------------------------------------------------ *)
(* C77 *)
Lemma cons_length : forall (t : R) v, length (t :: v) = S (length v).
Proof. reflexivity. Qed.
Lemma vsq_cons : forall t v, vsq (t :: v) = t * t + vsq v.
Proof. intros. unfold vsq. apply dot_cons. Qed.
Lemma e1_length : forall n, length (e1 n) = n.
Proof. intros [|n]; [reflexivity|]. cbn. now rewrite repeat_length. Qed.
Lemma dot_e1 : forall v, dot (e1 (length v)) v = nth 0 v 0.
Proof.
  intros [|t v]; [reflexivity|]. cbn [length e1 nth]. rewrite dot_cons. rewrite Rmult_1_l.
  assert (E : dot (repeat 0 (length v)) v = 0) by (induction v as [|a v IH]; cbn [length repeat]; [reflexivity|rewrite dot_cons, IH; ring]). lra.
Qed.
Lemma vsq_e1 : forall n, (0 < n)%nat -> vsq (e1 n) = 1.
Proof. intros n Hn. unfold vsq. pose proof (dot_e1 (e1 n)) as H. rewrite e1_length in H. rewrite H. destruct n; [lia|reflexivity]. Qed.

Theorem C77_uniform : forall g, vnorm g <> 0 -> exists v, uniform_spherical g = Some v /\ vnorm v = 1 /\ length v = length g /\ vscal (vnorm g) v = g.
Proof.
  intros g H. unfold uniform_spherical. destruct (Req_EM_T (vnorm g) 0); [contradiction|]. eexists. split; [reflexivity|].
  split; [now apply unit_scaled|]. split; [apply vscal_length|]. apply vec_ext; [now rewrite !vscal_length|]. intros i. rewrite !nth_vscal. field. exact H.
Qed.

(* For a unit location and a beta number z in [0, 1] the sample is, up to the
   guard 1e-7 in the division, a unit vector whose cosine with the location is
   2 z - 1: it is within 4e-7 / |e1 - loc| of one, exactly one when loc = e1, and
   never longer than one. *)
Theorem C77_power : forall loc z g, (2 <= length loc)%nat -> vnorm loc = 1 -> 0 <= z <= 1 -> length g = (length loc - 1)%nat -> vnorm g <> 0 ->
  exists out w, power_spherical loc z g = Some out /\ length out = length loc /\ length w = length loc /\
    vnorm w = 1 /\ dot w loc = 2 * z - 1 /\ vnorm out <= 1 /\
    vdist out w * vdist (e1 (length loc)) loc <= 4 * eps_spherical /\ (loc = e1 (length loc) -> out = w).
Proof.
  intros loc z g Hl Nl Hz Lg Ng. destruct (C77_uniform g Ng) as [v [Ev [Nv [Lv _]]]]. unfold power_spherical. rewrite Ev. cbn [bind].
  set (t := 2 * z - 1). set (y := t :: vscal (sqrt (1 - t * t)) v). set (uh := vminus (e1 (length loc)) loc). set (n := vnorm uh).
  assert (He : 0 < eps_spherical) by (unfold eps_spherical; lra). set (ep := eps_spherical) in *.
  assert (Hn : 0 <= n) by apply vnorm_nonneg.
  assert (Luh : length uh = length loc) by (subst uh; rewrite vminus_length by apply e1_length; apply e1_length).
  assert (Ly : length y = length loc) by (subst y; rewrite cons_length, vscal_length, Lv, Lg; lia).
  assert (Ht : 0 <= 1 - t * t) by (subst t; nra).
  assert (Sy : vsq y = 1).
  { subst y. rewrite vsq_cons, vsq_vscal, sqrt_sqrt by exact Ht. rewrite (vsq_unit v Nv). ring. }
  assert (Huu : vsq uh = n * n) by (symmetry; apply vnorm_sq).
  assert (Sl : vsq loc = 1) by now apply vsq_unit.
  assert (Dle : dot (e1 (length loc)) y = t) by (rewrite <- Ly, dot_e1; reflexivity).
  assert (Huu2 : vsq uh = 2 - 2 * dot (e1 (length loc)) loc).
  { subst uh. rewrite vsq_vminus by apply e1_length. rewrite vsq_e1, Sl by lia. ring. }
  assert (Dul : dot uh loc = dot (e1 (length loc)) loc - 1) by (subst uh; rewrite dot_vminus_l by apply e1_length; unfold vsq in Sl; rewrite Sl; reflexivity).
  assert (Duy : dot uh y = t - dot loc y) by (subst uh; rewrite dot_vminus_l by apply e1_length; rewrite Dle; reflexivity).
  set (c := / (n + ep)).
  assert (Hc : 0 < c) by (apply Rinv_0_lt_compat; lra).
  assert (Hcn : c * (n + ep) = 1) by (apply Rinv_l; lra).
  assert (Eout : vminus y (vscal (2 * dot (vscal c uh) y) (vscal c uh)) = vminus y (vscal (2 * c * c * dot uh y) uh)).
  { f_equal. apply vec_ext; [now rewrite !vscal_length|]. intros i. rewrite !nth_vscal, dot_vscal_l. ring. }
  rewrite Eout. set (out := vminus y (vscal (2 * c * c * dot uh y) uh)).
  assert (Lout : length out = length loc) by (subst out; rewrite vminus_length; rewrite ?vscal_length; congruence).
  set (A := dot uh y) in *.
  assert (CS : A * A <= n * n).
  { pose proof (cauchy_schwarz uh y ltac:(congruence)) as H. fold A in H. rewrite Huu, Sy in H. lra. }
  assert (Sout : vsq out = 1 - 4 * (c * c) * (1 - c * c * (n * n)) * (A * A)).
  { subst out. rewrite vsq_vminus by (rewrite vscal_length; congruence). rewrite vsq_vscal, dot_vscal_r, (dot_comm y uh). fold A. rewrite Sy, Huu. ring. }
  assert (Hcn1 : 0 <= c * n <= 1) by (split; [apply Rmult_le_pos; lra|nra]).
  assert (Hout1 : vnorm out <= 1).
  { assert (vsq out <= 1).
    { rewrite Sout. assert (0 <= 4 * (c * c) * (1 - c * c * (n * n)) * (A * A)); [|lra].
      apply Rmult_le_pos; [|apply Rle_0_sqr]. apply Rmult_le_pos; [|nra]. apply Rmult_le_pos; [lra|apply Rle_0_sqr]. }
    rewrite <- sqrt_1. unfold vnorm. apply sqrt_le_1_alt. exact H. }
  destruct (Req_EM_T n 0) as [En|En].
  - (* loc = e1 *)
    assert (Hloc : loc = e1 (length loc)).
    { assert (Z : vsq uh = 0) by (rewrite Huu, En; ring). apply vsq_zero in Z. apply vec_ext; [now rewrite e1_length|]. intros i.
      assert (Zi : nth i uh 0 = 0).
      { destruct (Nat.lt_ge_cases i (length uh)) as [Hi|Hi]; [|now apply nth_overflow]. rewrite Forall_forall in Z. apply Z. now apply nth_In. }
      subst uh. rewrite nth_vminus in Zi by apply e1_length. lra. }
    assert (HA : A = 0) by nra.
    assert (Eo : out = y).
    { subst out. rewrite HA. apply vec_ext; [congruence|]. intros i. rewrite nth_vminus by (rewrite vscal_length; congruence). rewrite nth_vscal. ring. }
    exists out, y. split; [reflexivity|]. split; [exact Lout|]. split; [exact Ly|]. split; [unfold vnorm; rewrite Sy; apply sqrt_1|].
    split; [rewrite dot_comm, Hloc, <- Dle; f_equal; now rewrite e1_length|]. split; [exact Hout1|]. split; [|auto].
    rewrite Eo, vdist_refl. lra.
  - assert (Pn : 0 < n) by lra.
    set (w := vminus y (vscal (2 * / (n * n) * A) uh)).
    assert (Lw : length w = length loc) by (subst w; rewrite vminus_length; rewrite ?vscal_length; congruence).
    assert (Sw : vsq w = 1).
    { subst w. rewrite vsq_vminus by (rewrite vscal_length; congruence). rewrite vsq_vscal, dot_vscal_r, (dot_comm y uh). fold A. rewrite Sy, Huu. field. exact En. }
    exists out, w. split; [reflexivity|]. split; [exact Lout|]. split; [exact Lw|]. split; [unfold vnorm; rewrite Sw; apply sqrt_1|].
    split; [|split; [exact Hout1|split]].
    + subst w. rewrite dot_vminus_l by (rewrite vscal_length; congruence). rewrite dot_vscal_l, Dul, (dot_comm y loc).
      replace (dot (e1 (length loc)) loc - 1) with (- (n * n) / 2) by lra. rewrite Duy. field. exact En.
    + assert (Ed : vminus out w = vscal (2 * A * (/ (n * n) - c * c)) uh).
      { apply vec_ext; [rewrite vscal_length, vminus_length; congruence|]. intros i. rewrite nth_vminus by congruence. subst out w.
        rewrite !nth_vminus by (rewrite vscal_length; congruence). rewrite !nth_vscal. ring. }
      change (vdist (e1 (length loc)) loc) with n. unfold vdist. rewrite Ed, vnorm_vscal. fold n.
      assert (Hd : / (n * n) - c * c = ep * (2 * n + ep) / (n * n) * (c * c)).
      { assert (Ec : c = / (n + ep)) by reflexivity. rewrite Ec. field. lra. }
      assert (Hd0 : 0 <= / (n * n) - c * c).
      { rewrite Hd. apply Rmult_le_pos; [|apply Rle_0_sqr]. apply Rmult_le_pos; [nra|]. left. apply Rinv_0_lt_compat. nra. }
      rewrite !Rabs_mult, (Rabs_right 2), (Rabs_right (/ (n * n) - c * c)) by lra.
      assert (HA : Rabs A <= n) by (apply Rsqr_incr_0_var; [rewrite <- Rsqr_abs; exact CS|lra]).
      apply Rle_trans with (2 * n * (/ (n * n) - c * c) * n * n).
      * apply Rmult_le_compat_r; [lra|]. apply Rmult_le_compat_r; [lra|]. apply Rmult_le_compat_r; [exact Hd0|]. lra.
      * rewrite Hd. replace (2 * n * (ep * (2 * n + ep) / (n * n) * (c * c)) * n * n) with (2 * ep * ((n * c) * (c * (2 * n + ep)))) by (field; lra).
        assert (n * c * (c * (2 * n + ep)) <= 2); [|nra].
        assert (0 <= c * (2 * n + ep) <= 2) by (split; [apply Rmult_le_pos; lra|nra]). nra.
    + intros E. exfalso. apply En. subst n uh. rewrite <- E. rewrite vminus_self. unfold vnorm. replace (vsq (map (fun _ => 0) loc)) with 0; [apply sqrt_0|].
      symmetry. clear. induction loc as [|a l IH]; [reflexivity|]. cbn [map]. rewrite vsq_cons, IH. ring.
Qed.

(* The guard is not harmless near e1: the sample can even be the zero vector. *)
Theorem C77_unit_refuted : exists loc z g out, vnorm loc = 1 /\ 0 <= z <= 1 /\ vnorm g <> 0 /\
  power_spherical loc z g = Some out /\ vnorm out = 0.
Proof.
  set (d := eps_spherical * (1 + sqrt 2)).
  assert (H2 : sqrt 2 * sqrt 2 = 2) by (apply sqrt_sqrt; lra). assert (P2 : 0 < sqrt 2) by (apply sqrt_lt_R0; lra).
  assert (L2 : sqrt 2 < 2) by nra.
  assert (Hd : 0 < d < 1) by (subst d; unfold eps_spherical; split; nra).
  set (s := d / 2). set (k := sqrt (1 - s * s)). assert (Hs : 0 < s < 1 / 2) by (subst s; lra).
  assert (Hk : k * k = 1 - s * s) by (apply sqrt_sqrt; nra).
  assert (Hk0 : 0 < k) by (apply sqrt_lt_R0; nra).
  (* loc = (cos a, sin a) with sin (a/2) = s *)
  set (loc := [1 - 2 * (s * s); 2 * (s * k)]).
  assert (Nl : vnorm loc = 1).
  { unfold vnorm, vsq, loc, dot, map2. cbn. transitivity (sqrt 1); [f_equal|apply sqrt_1].
    transitivity ((1 - 2 * (s * s)) ^ 2 + 4 * (s * s) * (k * k)); [ring|]. rewrite Hk. ring. }
  assert (Ng : vnorm [-1] = 1).
  { unfold vnorm, vsq, dot, map2. cbn. replace (-1 * -1 + 0) with 1 by ring. apply sqrt_1. }
  exists loc, ((1 + s) / 2), [-1]. unfold power_spherical, uniform_spherical. rewrite Ng. destruct (Req_EM_T 1 0); [lra|]. cbn [bind].
  eexists. split; [exact Nl|]. split; [lra|]. split; [lra|]. split; [reflexivity|].
  replace (2 * ((1 + s) / 2) - 1) with s by field. fold k.
  assert (Ev : vscal (/ 1) [-1] = [-1]) by (unfold vscal; cbn; f_equal; field). rewrite Ev.
  assert (Ey : s :: vscal k [-1] = [s; - k]) by (unfold vscal; cbn; do 2 f_equal; ring). rewrite Ey.
  assert (Eu : vminus (e1 (length loc)) loc = [2 * s * s; 2 * s * - k]).
  { unfold vminus, map2, loc. cbn. f_equal; [ring|]. f_equal. ring. }
  rewrite Eu.
  assert (Nu : vnorm [2 * s * s; 2 * s * - k] = d).
  { unfold vnorm, vsq, dot, map2. cbn. transitivity (sqrt (d * d)); [f_equal|apply sqrt_square; lra].
    transitivity (4 * (s * s) * (s * s + k * k)); [ring|]. rewrite Hk. subst s. field. }
  rewrite Nu.
  set (c := / (d + eps_spherical)).
  assert (Hcd : 2 * (c * d) * (c * d) = 1).
  { subst c d. assert (eps_spherical <> 0) by (unfold eps_spherical; lra). set (e := eps_spherical) in *. clearbody e.
    replace (e * (1 + sqrt 2) + e) with (e * (2 + sqrt 2)) by ring.
    replace (2 * (/ (e * (2 + sqrt 2)) * (e * (1 + sqrt 2))) * (/ (e * (2 + sqrt 2)) * (e * (1 + sqrt 2)))) with (2 * ((1 + sqrt 2) * (1 + sqrt 2)) / ((2 + sqrt 2) * (2 + sqrt 2))).
    - apply (Rmult_eq_reg_r ((2 + sqrt 2) * (2 + sqrt 2))); [|nra]. unfold Rdiv. rewrite Rmult_assoc, Rinv_l by nra. nra.
    - field. split; [nra|assumption]. }
  assert (Hcs : 2 * (c * (2 * s)) * (c * (2 * s)) = 1) by (rewrite <- Hcd; subst s; field).
  assert (Edot : dot (vscal c [2 * s * s; 2 * s * - k]) [s; - k] = c * (2 * s)).
  { unfold dot, vscal, map2. cbn. transitivity (c * (2 * s) * (s * s + k * k)); [ring|]. rewrite Hk. ring. }
  rewrite Edot.
  assert (Eo : vminus [s; - k] (vscal (2 * (c * (2 * s))) (vscal c [2 * s * s; 2 * s * - k])) = [0; 0]).
  { unfold vminus, vscal, map2. cbn. f_equal; [|f_equal].
    - transitivity (s * (1 - 2 * (c * (2 * s)) * (c * (2 * s)))); [ring|]. rewrite Hcs. ring.
    - transitivity (- k * (1 - 2 * (c * (2 * s)) * (c * (2 * s)))); [ring|]. rewrite Hcs. ring. }
  rewrite Eo. unfold vnorm, vsq, dot, map2. cbn. replace (0 * 0 + (0 * 0 + 0)) with 0 by ring. apply sqrt_0.
Qed.

(* The sample is not determined by the generator given: the package's own
   generator is used for the direction. *)
Theorem C77_generator_refuted : exists (beta : R -> R * R) (normals : nat -> R -> list R * R) loc rng package1 package2,
  vnorm loc = 1 /\ fst (fst (power_spherical_call beta normals loc rng package1)) <> fst (fst (power_spherical_call beta normals loc rng package2)) /\
  fst (fst (power_spherical_call beta normals loc rng package1)) <> None /\ fst (fst (power_spherical_call beta normals loc rng package2)) <> None.
Proof.
  exists (fun r => (1 / 2, r)), (fun _ r => ([r], r)), [1; 0], 0, 1, (-1).
  assert (N0 : vnorm [1; 0] = 1). { unfold vnorm, vsq, dot, map2. cbn. replace (1 * 1 + (0 * 0 + 0)) with 1 by ring. apply sqrt_1. }
  assert (N1 : vnorm [1] = 1). { unfold vnorm, vsq, dot, map2. cbn. replace (1 * 1 + 0) with 1 by ring. apply sqrt_1. }
  assert (N2 : vnorm [-1] = 1). { unfold vnorm, vsq, dot, map2. cbn. replace (-1 * -1 + 0) with 1 by ring. apply sqrt_1. }
  split; [exact N0|]. unfold power_spherical_call, power_spherical, uniform_spherical. cbn [length Nat.sub fst snd].
  rewrite N1, N2. destruct (Req_EM_T 1 0); [lra|]. cbn [bind]. split; [|split; discriminate].
  assert (E : vminus (e1 2) [1; 0] = [0; 0]) by (unfold vminus, map2; cbn; f_equal; [ring|f_equal; ring]). rewrite E.
  unfold vscal, vminus, dot, map2. cbn. intros H. apply (f_equal (fun o => match o with Some (_ :: x :: _) => x | _ => 0 end)) in H. cbn in H.
  replace (2 * (1 / 2) - 1) with 0 in H by field. replace (1 - 0 * 0) with 1 in H by ring. rewrite sqrt_1 in H. lra.
Qed.
Example C77_case : exists out w, power_spherical [0; 1; 0] 1 [3; 4] = Some out /\ vnorm w = 1 /\ dot w [0; 1; 0] = 1 /\
  vdist out w * vdist [1; 0; 0] [0; 1; 0] <= 4 / 10000000.
Proof.
  assert (N0 : vnorm [0; 1; 0] = 1). { unfold vnorm, vsq, dot, map2. cbn. replace (0 * 0 + (1 * 1 + (0 * 0 + 0))) with 1 by ring. apply sqrt_1. }
  assert (N1 : vnorm [3; 4] = 5). { unfold vnorm, vsq, dot, map2. cbn. replace (3 * 3 + (4 * 4 + 0)) with (5 * 5) by ring. apply sqrt_square. lra. }
  destruct (C77_power [0; 1; 0] 1 [3; 4] ltac:(cbn; lia) N0 ltac:(lra) eq_refl ltac:(lra)) as [out [w [H1 [_ [_ [H2 [H3 [_ [H4 _]]]]]]]]].
  exists out, w. split; [exact H1|]. split; [exact H2|]. split; [lra|]. cbn [length e1 repeat] in H4. unfold eps_spherical in H4. lra.
Qed.

(* ------------------------------------------------------------------ *)
(* C90: after seeding with a given number, what a program observes does not
   depend on what happened before nor on the system's entropy, as long as it
   seeds only with given numbers. *)
Section Seeding.
Context {K G A : Type} (default_rng : K -> G) (integers : G -> Z * G).
Definition given (a : @act K G A) : Prop := match a with Seed None _ => False | _ => True end.
Lemma run_same : forall l st e1 e2, (forall a, In a l -> given a) -> (exists r, g_rng st = Some r) ->
  act_run default_rng integers e1 st l = act_run default_rng integers e2 st l.
Proof.
  induction l as [|a l IH]; intros st e1 e2 Hl [r Hr]; [reflexivity|]. cbn [act_run].
  assert (Hst : act_step default_rng integers (e1 0%nat) st a = act_step default_rng integers (e2 0%nat) st a /\ exists r', g_rng (snd (act_step default_rng integers (e1 0%nat) st a)) = Some r').
  { pose proof (Hl a (or_introl eq_refl)) as Ha. destruct a as [f|f|[k|] lb]; cbn in *.
    - unfold get_rng. rewrite Hr. cbn. rewrite Hr. destruct (f r) as [x r']. cbn. eauto.
    - destruct (f (g_libroom st)) as [x z]. cbn. eauto.
    - unfold seed, set_libroom_seed. cbn. destruct lb as [z|]; cbn; [eauto|]. destruct (integers (default_rng k)). cbn. eauto.
    - destruct Ha. }
  destruct Hst as [E [r' Hr']]. rewrite <- E. destruct (act_step default_rng integers (e1 0%nat) st a) as [x st']. f_equal. apply IH; [intros; apply Hl; now right|]. cbn in Hr'. eauto.
Qed.
Theorem C90_reproducible : forall k libroom l st1 st2 e1 e2, (forall a, In a l -> given a) ->
  act_run default_rng integers e1 st1 (Seed (Some k) libroom :: l) = act_run default_rng integers e2 st2 (Seed (Some k) libroom :: l).
Proof.
  intros k libroom l st1 st2 e1 e2 Hl. cbn [act_run act_step app].
  assert (E : forall st e, seed default_rng integers e st (Some k) libroom = seed default_rng integers (e2 0%nat) st2 (Some k) libroom).
  { intros st e. unfold seed, set_libroom_seed. cbn. destruct libroom; reflexivity. }
  rewrite (E st1 (e1 0%nat)). apply run_same; [exact Hl|]. unfold seed, set_libroom_seed. cbn. destruct libroom; cbn; [eauto|]. destruct (integers (default_rng k)). cbn. eauto.
Qed.
(* Given both seeds, the draws depend on the first only and the simulations on
   the second only. *)
Theorem C90_separate : forall l st e k k' z z',
  ((forall a, In a l -> exists f, a = Draw f) ->
   act_run default_rng integers e st (Seed (Some k) (Some z) :: l) = act_run default_rng integers e st (Seed (Some k) (Some z') :: l)) /\
  ((forall a, In a l -> exists f, a = Lib f) ->
   act_run (A := A) default_rng integers e st (Seed (Some k) (Some z) :: l) = act_run default_rng integers e st (Seed (Some k') (Some z) :: l)).
Proof.
  intros l st e k k' z z'. cbn [act_run act_step app seed set_libroom_seed g_rng]. unfold seed, set_libroom_seed. cbn [g_rng]. split; intros H.
  - generalize (default_rng k) as r. generalize (fun i => e (S i)) as e'. revert z z'. induction l as [|a l IH]; intros z z' e' r; [reflexivity|].
    destruct (H a (or_introl eq_refl)) as [f ->]. cbn. destruct (f r) as [x r']. cbn. f_equal. apply IH. intros; apply H; now right.
  - generalize (default_rng k) as r. generalize (default_rng k') as r'. generalize (fun i => e (S i)) as e'. revert z. induction l as [|a l IH]; intros z e' r r'; [reflexivity|].
    destruct (H a (or_introl eq_refl)) as [f ->]. cbn. destruct (f z) as [x y]. cbn. f_equal. apply IH. intros; apply H; now right.
Qed.
End Seeding.
(* Seeding libroom alone throws the seed of the numpy generator away. *)
Theorem C90_libroom_refuted : exists (default_rng : nat -> nat) (integers : nat -> Z * nat) k z e1 e2,
  let draw := Draw (fun r : nat => (r, r)) in
  act_run default_rng integers e1 {| g_rng := None; g_libroom := 0 |} [Seed (Some k) None; Seed None (Some z); draw]
  <> act_run default_rng integers e2 {| g_rng := None; g_libroom := 0 |} [Seed (Some k) None; Seed None (Some z); draw].
Proof.
  exists (fun k => k), (fun r => (0%Z, S r)), 42%nat, 7%Z, (fun _ => 1%nat), (fun _ => 2%nat). cbn. discriminate.
Qed.
Example C90_case : forall st e, act_run (fun k : nat => k) (fun r => (Z.of_nat r, S r)) e st [Seed (Some 42%nat) None; Draw (fun r => (Z.of_nat r, r)); Lib (fun z => (z, z))] = [43%Z; 42%Z].
Proof. reflexivity. Qed.

Print Assumptions C76_samples.
Print Assumptions C76_efficiency.
Print Assumptions C76_terminates.
Print Assumptions C76_envelope.
Print Assumptions C76_silent_refuted.
Print Assumptions C76_zero_refuted.
Print Assumptions C76_cardioid.
Print Assumptions C76_gain_refuted.
Print Assumptions C77_uniform.
Print Assumptions C77_power.
Print Assumptions C77_unit_refuted.
Print Assumptions C77_generator_refuted.
Print Assumptions C90_reproducible.
Print Assumptions C90_separate.
Print Assumptions C90_libroom_refuted.
