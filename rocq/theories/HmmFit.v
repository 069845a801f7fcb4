(** Success of the recursions, Gaussian emissions, training. *)
From Coq Require Import List ZArith Lia Reals Lra Bool.
From Verif Require Import Base Vec Sum StftProofs DenoiseModel WienerProofs HmmModel HmmSpec BaseProofs HmmProofs HmmEm.
Import ListNotations.
Local Open Scope R_scope.

(** ** The forward recursion succeeds exactly on possible observations *)
Lemma vat_nonneg : forall K A ps v, (forall i j, (i < K)%nat -> (j < K)%nat -> 0 <= A i j) -> nonneg_all K ps -> (forall k, (k < K)%nat -> 0 <= v k) -> forall n k, (k < K)%nat -> 0 <= vat K A v ps n k.
Proof.
  intros K A ps. induction ps as [|p ps IH]; intros v HA Hp Hv n k Hk; [unfold vat; rewrite firstn_nil; now apply Hv|]. destruct n as [|n]; [now apply Hv|]. rewrite vat_S. destruct (nonneg_cons _ _ _ Hp) as [P0 P1]. apply IH; auto.
  intros j Hj. unfold stepv. apply Rmult_le_pos; [auto|]. apply bsum_nonneg. intros i Hi. apply Rmult_le_pos; auto.
Qed.
Lemma vat_zero : forall K A ps v, (forall k, (k < K)%nat -> v k = 0) -> forall n k, (k < K)%nat -> vat K A v ps n k = 0.
Proof.
  intros K A ps. induction ps as [|p ps IH]; intros v Hv n k Hk; [unfold vat; rewrite firstn_nil; now apply Hv|]. destruct n as [|n]; [now apply Hv|]. rewrite vat_S. apply IH; auto. intros j Hj. unfold stepv. rewrite bsum_zero_ext; [ring|]. intros i Hi. rewrite Hv by auto. ring.
Qed.
Lemma nonneg_zero : forall K v, (forall k, (k < K)%nat -> 0 <= v k) -> bsum K v = 0 -> forall k, (k < K)%nat -> v k = 0.
Proof. intros K v Hv Hz k Hk. pose proof (bsum_term K v k Hv Hk). specialize (Hv k Hk). lra. Qed.
Lemma forward_from_some : forall K A ps v, (forall i j, (i < K)%nat -> (j < K)%nat -> 0 <= A i j) -> nonneg_all K ps -> (forall k, (k < K)%nat -> 0 <= v k) -> bsum K (vat K A v ps (length ps)) <> 0 ->
  forall a, (forall k, (k < K)%nat -> a k = v k / bsum K v) -> exists r, forward_from K A a ps = Some r.
Proof.
  intros K A ps. induction ps as [|p ps IH]; intros v HA Hp Hv Hz a Ha; [eexists; reflexivity|]. destruct (nonneg_cons _ _ _ Hp) as [P0 P1]. cbn [forward_from]. assert (Hs : forall j, (j < K)%nat -> 0 <= stepv K A v p j). { intros j Hj. unfold stepv. apply Rmult_le_pos; [auto|]. apply bsum_nonneg. intros i Hi. apply Rmult_le_pos; auto. }
  cbn [length] in Hz. rewrite vat_S in Hz. assert (Sz : bsum K (stepv K A v p) <> 0). { intros Z. apply Hz. apply bsum_zero_ext. apply vat_zero. now apply nonneg_zero. } assert (Vz : bsum K v <> 0). { intros Z. apply Sz. apply bsum_zero_ext. intros j Hj. pose proof (nonneg_zero K v Hv Z) as VZ. unfold stepv. rewrite bsum_zero_ext; [ring|]. intros i Hi. rewrite VZ by auto. ring. }
  assert (Q : forall j, p j * bsum K (fun i => A i j * a i) = stepv K A v p j / bsum K v). { intros j. unfold stepv, Rdiv. rewrite Rmult_assoc, <- bsum_scal_r. f_equal. apply bsum_ext. intros i Hi. rewrite Ha by auto. unfold Rdiv. ring. }
  assert (Q' : bsum K (fun j => p j * bsum K (fun i => A i j * a i)) = bsum K (stepv K A v p) / bsum K v). { rewrite (bsum_ext K _ (fun j => stepv K A v p j * / bsum K v)) by (intros; apply Q). apply bsum_scal_r. }
  unfold scaled. rewrite Q'. destruct (Req_EM_T (bsum K (stepv K A v p) / bsum K v) 0) as [Z|Z]; [exfalso; apply Sz; replace (bsum K (stepv K A v p)) with (bsum K (stepv K A v p) / bsum K v * bsum K v) by (field; auto); rewrite Z; ring|]. cbn [bind fst snd].
  destruct (IH (stepv K A v p) HA P1 Hs Hz (fun k => p k * bsum K (fun i => A i k * a i) / (bsum K (stepv K A v p) / bsum K v))) as [r ->]; [intros k Hk; cbv beta; rewrite Q; field; auto|]. cbn [bind]. eexists. reflexivity.
Qed.
Lemma forward_some : forall m ps, nonneg_hmm m -> nonneg_all (hm_K m) ps -> ps <> [] -> evidence (hm_K m) (hm_A m) (hm_pi m) ps <> 0 -> exists r, forward m ps = Some r.
Proof.
  intros m ps [HA HP] Hp Hne Hev. destruct ps as [|p ps]; [congruence|]. rewrite evidence_Sc in Hev. destruct (nonneg_cons _ _ _ Hp) as [P0 P1]. unfold Sc in Hev. assert (Hv : forall k, (k < hm_K m)%nat -> 0 <= v0 m p k) by (intros k Hk; apply Rmult_le_pos; auto).
  assert (Vz : bsum (hm_K m) (v0 m p) <> 0). { intros Z. apply Hev. apply bsum_zero_ext. apply vat_zero. now apply nonneg_zero. }
  cbn [forward]. unfold scaled. fold (v0 m p). destruct (Req_EM_T (bsum (hm_K m) (v0 m p)) 0); [contradiction|]. cbn [bind fst snd]. destruct (forward_from_some (hm_K m) (hm_A m) ps (v0 m p) HA P1 Hv Hev (fun k => p k * hm_pi m k / bsum (hm_K m) (v0 m p)) ltac:(reflexivity)) as [r ->]. cbn [bind]. eexists. reflexivity.
Qed.
Lemma forward_none : forall m ps, nonneg_hmm m -> nonneg_all (hm_K m) ps -> (forward m ps = None <-> ps = [] \/ evidence (hm_K m) (hm_A m) (hm_pi m) ps = 0).
Proof.
  intros m ps HA Hp. split.
  - intros F. destruct ps as [|p ps]; [now left|]. right. destruct (Req_dec (evidence (hm_K m) (hm_A m) (hm_pi m) (p :: ps)) 0) as [|Hne]; [assumption|]. destruct (forward_some m (p :: ps) HA Hp ltac:(discriminate) Hne) as [r E]. congruence.
  - intros [->|Hz]; [reflexivity|]. destruct ps as [|p ps]; [reflexivity|]. destruct (forward m (p :: ps)) as [[al cs]|] eqn:F; [|reflexivity]. destruct (forward_spec _ _ _ _ _ F) as (_ & _ & _ & _ & H). destruct (H (length ps) (le_n _)) as [Hn _]. rewrite evidence_Sc in Hz. contradiction.
Qed.
Lemma Rsum_bsum0 : forall l, Rsum l = bsum (length l) (fun i => nth i l 0).
Proof. intros l. rewrite <- (map_id l) at 1. apply (Rsum_nth (fun x => x) l 0). Qed.
Lemma forward_ll : forall m ps al cs, nonneg_hmm m -> nonneg_all (hm_K m) ps -> forward m ps = Some (al, cs) -> 0 < evidence (hm_K m) (hm_A m) (hm_pi m) ps /\ Rsum (map ln cs) = ln (evidence (hm_K m) (hm_A m) (hm_pi m) ps) /\ (forall c, In c cs -> 0 < c).
Proof.
  intros m ps al cs [HA HP] Hp F. destruct ps as [|p ps]; [discriminate|]. destruct (nonneg_cons _ _ _ Hp) as [P0 P1]. destruct (forward_spec _ _ _ _ _ F) as (_ & L2 & C0 & C1 & H). rewrite evidence_Sc.
  assert (Sp : forall n, (n <= length ps)%nat -> 0 < Sc m p ps n). { intros n Hn. destruct (H n Hn) as [Hz _]. assert (0 <= Sc m p ps n). { unfold Sc. apply bsum_nonneg. apply vat_nonneg; auto. intros k Hk. apply Rmult_le_pos; auto. } lra. }
  split; [now apply Sp|]. split.
  - rewrite (Rsum_nth ln cs 0), L2, bsum_shift, C0. rewrite (bsum_ext _ _ (fun n => ln (Sc m p ps (S n)) - ln (Sc m p ps n))).
    2: { intros n Hn. rewrite C1 by auto. unfold Rdiv. rewrite ln_mult, ln_Rinv by (try apply Rinv_0_lt_compat; apply Sp; lia). ring. }
    clear. generalize (length ps). intros T. induction T as [|T IH]; cbn [bsum]; [ring|]. rewrite <- Rplus_assoc, IH. ring.
  - intros c Hc. apply In_nth with (d := 0) in Hc. destruct Hc as (n & Hn & <-). rewrite L2 in Hn. destruct n as [|n]; [rewrite C0; apply Sp; lia|]. rewrite C1 by lia. apply Rdiv_lt_0_compat; apply Sp; lia.
Qed.

(** ** Gaussian densities *)
Definition lnN (mu sig x : R) : R := - ln (2 * PI * sig) / 2 - (x - mu) ^ 2 / (2 * sig).
Lemma two_pi_pos : forall s, 0 < s -> 0 < 2 * PI * s.
Proof. intros s Hs. pose proof PI_RGT_0 as P. set (q := PI) in *. clearbody q. apply Rmult_lt_0_compat; lra. Qed.
Lemma ln_sqrt_half : forall y, 0 < y -> ln (sqrt y) = ln y / 2.
Proof. intros y Hy. pose proof (sqrt_lt_R0 y Hy) as S. rewrite <- (sqrt_sqrt y) at 2 by lra. rewrite ln_mult by auto. field. Qed.
Lemma normal_pdf_pos : forall O mu sig x, (forall d, (d < O)%nat -> 0 < sig d) -> 0 < normal_pdf O mu sig x /\ ln (normal_pdf O mu sig x) = bsum O (fun d => lnN (mu d) (sig d) (nth d x 0)).
Proof.
  intros O mu sig x Hs. unfold normal_pdf. assert (G : forall l, (forall d, In d l -> 0 < sig d) -> 0 < Rprod (map (fun d => / sqrt (2 * PI * sig d) * exp (- ((nth d x 0 - mu d) ^ 2) / (2 * sig d))) l) /\
    ln (Rprod (map (fun d => / sqrt (2 * PI * sig d) * exp (- ((nth d x 0 - mu d) ^ 2) / (2 * sig d))) l)) = Rsum (map (fun d => lnN (mu d) (sig d) (nth d x 0)) l)).
  { induction l as [|d l IH]; intros Hl; [split; [cbn; lra|cbn; apply ln_1]|]. destruct (IH ltac:(intros; apply Hl; now right)) as [I1 I2]. specialize (Hl d (or_introl eq_refl)). cbn [map]. unfold Rprod, Rsum in *. cbn [fold_right]. pose proof (two_pi_pos _ Hl) as P. pose proof (sqrt_lt_R0 _ P) as S. pose proof (Rinv_0_lt_compat _ S) as S'. assert (Q : 0 < / sqrt (2 * PI * sig d) * exp (- ((nth d x 0 - mu d) ^ 2) / (2 * sig d))) by (apply Rmult_lt_0_compat; [exact S'|apply exp_pos]).
    split; [apply Rmult_lt_0_compat; assumption|]. rewrite ln_mult, I2 by assumption. f_equal. rewrite ln_mult, ln_exp, ln_Rinv, ln_sqrt_half by (auto; apply exp_pos). unfold lnN. field. lra. }
  rewrite bsum_Rsum. apply G. intros d Hd. apply in_seq in Hd. apply Hs. lia.
Qed.
Lemma gauss1 : forall N (x g : nat -> R) mu sig, (forall u, (u < N)%nat -> 0 <= g u) -> let Z := bsum N g in Z <> 0 -> let mu' := bsum N (fun u => x u * g u) / Z in let sig' := bsum N (fun u => (x u - mu') ^ 2 * g u) / Z in
  0 < sig -> 0 < sig' -> 0 <= bsum N (fun u => g u * (lnN mu' sig' (x u) - lnN mu sig (x u))).
Proof.
  intros N x g mu sig Hg Z Hz mu' sig' Hs Hs'. assert (Zp : 0 < Z) by (pose proof (bsum_nonneg N g Hg) as HZ; fold Z in HZ; lra).
  assert (E1 : bsum N (fun u => x u * g u) = mu' * Z) by (unfold mu'; field; lra). assert (E2 : bsum N (fun u => (x u - mu') ^ 2 * g u) = sig' * Z) by (unfold sig'; field; lra).
  assert (E3 : bsum N (fun u => (x u - mu) ^ 2 * g u) = sig' * Z + (mu' - mu) ^ 2 * Z).
  { rewrite <- E2. rewrite (bsum_ext N _ (fun u => (x u - mu') ^ 2 * g u + (2 * (mu' - mu) * (x u * g u) + ((mu' - mu) ^ 2 - 2 * (mu' - mu) * mu') * g u))) by (intros; ring). rewrite !bsum_plus, !bsum_scal, E1. fold Z. ring. }
  clearbody mu' sig'. rewrite (bsum_ext N _ (fun u => (ln (2 * PI * sig) / 2 - ln (2 * PI * sig') / 2) * g u + (- / (2 * sig') * ((x u - mu') ^ 2 * g u) + / (2 * sig) * ((x u - mu) ^ 2 * g u)))) by (intros; unfold lnN; field; lra).
  rewrite !bsum_plus, !bsum_scal, E2, E3. fold Z. pose proof (ln_le_sub1 (sig' / sig) ltac:(apply Rdiv_lt_0_compat; auto)) as I. assert (EL : ln (sig' / sig) = ln (2 * PI * sig') - ln (2 * PI * sig)).
  { pose proof (two_pi_pos sig Hs) as T1. pose proof (two_pi_pos sig' Hs') as T2. replace (sig' / sig) with ((2 * PI * sig') * / (2 * PI * sig)) by (field; split; [lra|apply PI_neq0]). rewrite ln_mult, ln_Rinv by (auto using Rinv_0_lt_compat). ring. }
  rewrite EL in I. replace (_ * Z + _) with (Z / 2 * ((sig' / sig - 1) - (ln (2 * PI * sig') - ln (2 * PI * sig)) + (mu' - mu) ^ 2 / sig)) by (field; lra).
  apply Rmult_le_pos; [lra|]. assert (0 <= (mu' - mu) ^ 2 / sig) by (apply Rmult_le_pos; [apply pow2_ge_0|left; now apply Rinv_0_lt_compat]). lra.
Qed.
(** sums over the frames of all examples *)
Lemma flat2 : forall {P Q} (F : P -> Q -> R) a0 b0 X g, length X = length g -> (forall t, (t < length X)%nat -> length (nth t X []) = length (nth t g [])) ->
  Rsum (map2 F (concat X) (concat g)) = bsum (length X) (fun t => bsum (length (nth t X [])) (fun n => F (nth n (nth t X []) a0) (nth n (nth t g []) b0))).
Proof.
  intros P Q F a0 b0 X. induction X as [|x X IH]; intros g L H; [destruct g; [reflexivity|discriminate]|]. destruct g as [|y g]; [discriminate|]. cbn [length concat]. rewrite bsum_shift. cbn [nth]. rewrite <- (IH g) by (try (cbn in L; lia); intros t Ht; apply (H (S t)); cbn; lia). pose proof (H 0%nat ltac:(cbn; lia)) as L0. cbn [nth] in L0.
  clear IH H L. revert y L0. induction x as [|a x IHx]; intros y L0; destruct y as [|b y]; try discriminate; [cbn [app length bsum]; ring|]. cbn [length app map2]. rewrite bsum_shift. cbn [nth]. specialize (IHx y ltac:(cbn in L0; lia)). unfold Rsum in *. cbn [fold_right]. rewrite IHx. ring.
Qed.
Lemma map2_bsum : forall {P Q} (F : P -> Q -> R) a0 b0 X g, length X = length g -> Rsum (map2 F X g) = bsum (length X) (fun u => F (nth u X a0) (nth u g b0)).
Proof.
  intros P Q F a0 b0 X. induction X as [|a X IH]; intros g L; destruct g as [|b g]; try discriminate; [reflexivity|]. cbn [length map2]. rewrite bsum_shift. cbn [nth]. unfold Rsum in *. cbn [fold_right]. rewrite (IH g) by (cbn in L; lia). reflexivity.
Qed.

(** ** One training iteration *)
Lemma prob_spec : forall e examples pss, prob_x_given_state e examples = Some pss -> proper e /\ (forall X x, In X examples -> In x X -> length x = em_O e) /\ pss = map (densities e) examples.
Proof.
  intros e examples pss H. unfold prob_x_given_state in H. destruct (forallb _ (seq 0 (em_K e))) eqn:F1; [|discriminate]. destruct (forallb _ examples) eqn:F2; [|discriminate]. apply some_inj in H. subst pss. split; [|split; [|reflexivity]].
  - intros k d Hk Hd. rewrite forallb_forall in F1. specialize (F1 k ltac:(apply in_seq; lia)). rewrite forallb_forall in F1. specialize (F1 d ltac:(apply in_seq; lia)). destruct (Rlt_dec 0 (em_sig e k d)); [assumption|discriminate].
  - intros X x HX Hx. rewrite forallb_forall in F2. specialize (F2 X HX). rewrite forallb_forall in F2. specialize (F2 x Hx). now apply Nat.eqb_eq.
Qed.
Lemma prob_some : forall e examples, proper e -> (forall X x, In X examples -> In x X -> length x = em_O e) -> prob_x_given_state e examples = Some (map (densities e) examples).
Proof.
  intros e examples P L. unfold prob_x_given_state. replace (forallb _ (seq 0 (em_K e))) with true.
  - replace (forallb _ examples) with true; [reflexivity|]. symmetry. apply forallb_forall. intros X HX. apply forallb_forall. intros x Hx. apply Nat.eqb_eq. now apply (L X).
  - symmetry. apply forallb_forall. intros k Hk. apply forallb_forall. intros d Hd. apply in_seq in Hk, Hd. destruct (Rlt_dec 0 (em_sig e k d)) as [|N]; [reflexivity|]. exfalso. apply N, P; lia.
Qed.
Lemma densities_nth : forall e X n k, (n < length X)%nat -> nth n (densities e X) (fun _ => 0) k = normal_pdf (em_O e) (em_mu e k) (em_sig e k) (nth n X []).
Proof. intros e X n k Hn. unfold densities. rewrite (nth_indep _ (fun _ => 0) ((fun x k => normal_pdf (em_O e) (em_mu e k) (em_sig e k) x) [])) by (rewrite map_length; auto). now rewrite (map_nth (fun x k => normal_pdf (em_O e) (em_mu e k) (em_sig e k) x)). Qed.
Lemma densities_pos : forall e X K, proper e -> em_K e = K -> forall n k, (n < length X)%nat -> (k < K)%nat -> 0 < nth n (densities e X) (fun _ => 0) k.
Proof. intros e X K P HK n k Hn Hk. rewrite densities_nth by auto. apply normal_pdf_pos. intros d Hd. apply P; lia. Qed.
Lemma densities_nonneg : forall e X K, proper e -> em_K e = K -> nonneg_all K (densities e X).
Proof. intros e X K P HK n k Hn Hk. unfold densities in Hn. rewrite map_length in Hn. left. now apply (densities_pos e X K P HK). Qed.
Lemma densities_length : forall e X, length (densities e X) = length X.
Proof. intros. unfold densities. apply map_length. Qed.
Lemma nth_densities : forall e examples t, nth t (map (densities e) examples) [] = densities e (nth t examples []).
Proof. intros e examples t. change (@nil (nat -> R)) with (densities e []) at 1. apply map_nth. Qed.

Section Step.
Variables m m' : hmm.
Variables e e' : circular.
Variable examples : list (list vec).
Variable es : list posterior.
Notation K := (hm_K m).
Hypothesis HK : em_K e = K.
Hypothesis SP : subprobs K (hm_A m) (hm_pi m).
Hypothesis PE : proper e.
Hypothesis ES : mapM (e_step m) (map (densities e) examples) = Some es.
Hypothesis UE : update_emission e examples (map po_gamma es) = Some e'.
Hypothesis PE' : proper e'.
Notation M := (length examples).

Lemma LM : length (map (densities e) examples) = M.
Proof. apply map_length. Qed.
Lemma g_len : forall t, (t < M)%nat -> length (po_gamma (nth t es no_post)) = length (nth t examples []).
Proof. intros t Ht. pose proof (es_nth m _ es ES t ltac:(rewrite LM; exact Ht)) as E. destruct (e_step_spec _ _ _ E) as (_ & _ & L & _). rewrite L, nth_densities. apply densities_length. Qed.
Lemma es_M : length es = M.
Proof. rewrite (es_len m _ es ES). apply LM. Qed.
Lemma gam_nth : forall t, nth t (map po_gamma es) [] = po_gamma (nth t es no_post).
Proof. intros t. change (@nil (nat -> R)) with (po_gamma no_post) at 1. apply map_nth. Qed.
Lemma same_len : M = length (map po_gamma es) /\ forall t, (t < M)%nat -> length (nth t examples []) = length (nth t (map po_gamma es) []).
Proof. split; [now rewrite map_length, es_M|]. intros t Ht. rewrite gam_nth. symmetry. now apply g_len. Qed.
Lemma concat_len : length (concat examples) = length (concat (map po_gamma es)).
Proof.
  destruct same_len as [L H]. clear - L H. revert H L. generalize (map po_gamma es). induction examples as [|x X IH]; intros g H L; destruct g as [|y g]; try discriminate; [reflexivity|]. cbn [concat]. rewrite !app_length. f_equal; [apply (H 0%nat); cbn; lia|]. apply IH; [intros t Ht; apply (H (S t)); cbn; lia|cbn in L; lia].
Qed.
Definition gx (u k : nat) : R := nth u (concat (map po_gamma es)) (fun _ => 0) k.
Definition xx (u d : nat) : R := nth d (nth u (concat examples) []) 0.
Notation NN := (length (concat examples)).
Lemma flat_sum : forall F : vec -> (nat -> R) -> R, bsum M (fun t => bsum (length (nth t examples [])) (fun n => F (nth n (nth t examples []) []) (nth n (po_gamma (nth t es no_post)) (fun _ => 0)))) = bsum NN (fun u => F (nth u (concat examples) []) (nth u (concat (map po_gamma es)) (fun _ => 0))).
Proof.
  intros F. destruct same_len as [L H]. rewrite <- (map2_bsum F [] (fun _ => 0) (concat examples) _ concat_len). rewrite (flat2 F [] (fun _ => 0) examples (map po_gamma es) L H). apply bsum_ext. intros t Ht. apply bsum_ext. intros n Hn. now rewrite gam_nth.
Qed.
Lemma gx_nonneg : forall u k, (u < NN)%nat -> (k < K)%nat -> 0 <= gx u k.
Proof.
  intros u k Hu Hk. unfold gx. rewrite concat_len in Hu. pose proof (nth_In (concat (map po_gamma es)) (fun _ => 0) Hu) as I. apply in_concat in I. destruct I as (l & Hl & Hx). apply in_map_iff in Hl. destruct Hl as (p & <- & Hp). apply In_nth with (d := no_post) in Hp. destruct Hp as (t & Ht & <-). rewrite es_M in Ht. apply In_nth with (d := fun _ => 0) in Hx. destruct Hx as (n & Hn & <-). rewrite g_len in Hn by auto.
  apply (g_pos m (map (densities e) examples) es SP ES) with (t := t) (n := n); auto; rewrite ?LM, ?nth_densities, ?densities_length; auto.
  intros q Hq. rewrite nth_densities. now apply densities_nonneg.
Qed.
Lemma emission_gain : 0 <= bsum M (fun t => bsum (length (nth t examples [])) (fun n => bsum K (fun k => g_at (nth t es no_post) n k * (ln (nth n (densities e' (nth t examples [])) (fun _ => 0) k) - ln (nth n (densities e (nth t examples [])) (fun _ => 0) k))))).
Proof.
  unfold update_emission in UE. destruct (Nat.eqb_spec (length examples) 0) as [|Nz]; [discriminate|]. destruct (forallb _ (seq 0 (em_K e))) eqn:FZ; [|discriminate]. apply some_inj in UE. set (mu' := fun k d => Rsum (map2 (fun x r => nth d x 0 * r k) (concat examples) (concat (map po_gamma es))) / Rsum (map (fun r => r k) (concat (map po_gamma es)))) in UE.
  assert (EZ : forall k, Rsum (map (fun r => r k) (concat (map po_gamma es))) = bsum NN (fun u => gx u k)) by (intros k; rewrite (Rsum_nth _ _ (fun _ => 0)), <- concat_len; reflexivity).
  assert (Em : forall k d, em_mu e' k d = bsum NN (fun u => xx u d * gx u k) / bsum NN (fun u => gx u k)). { intros k d. rewrite <- UE. cbn [em_mu]. unfold mu'. rewrite EZ. f_equal. apply (map2_bsum (fun x r => nth d x 0 * r k) [] (fun _ => 0)). apply concat_len. }
  assert (Emu : forall k d, em_mu e' k d = mu' k d) by (intros; rewrite <- UE; reflexivity).
  assert (Es : forall k d, em_sig e' k d = bsum NN (fun u => (xx u d - em_mu e' k d) ^ 2 * gx u k) / bsum NN (fun u => gx u k)). { intros k d. transitivity (Rsum (map2 (fun x r => (nth d x 0 - mu' k d) ^ 2 * r k) (concat examples) (concat (map po_gamma es))) / Rsum (map (fun r => r k) (concat (map po_gamma es)))); [rewrite <- UE; reflexivity|]. rewrite Emu, EZ. f_equal. apply (map2_bsum (fun x r => (nth d x 0 - mu' k d) ^ 2 * r k) [] (fun _ => 0)). apply concat_len. }
  assert (EK : em_K e' = em_K e) by (rewrite <- UE; reflexivity). assert (EO : em_O e' = em_O e) by (rewrite <- UE; reflexivity).
  assert (Zn : forall k, (k < K)%nat -> bsum NN (fun u => gx u k) <> 0). { intros k Hk. rewrite forallb_forall in FZ. specialize (FZ k ltac:(apply in_seq; lia)). rewrite EZ in FZ. destruct (Req_EM_T _ 0); [discriminate|assumption]. }
  clear UE FZ. rewrite (bsum_ext M _ (fun t => bsum (length (nth t examples [])) (fun n => (fun x (r : nat -> R) => bsum K (fun k => r k * (ln (normal_pdf (em_O e') (em_mu e' k) (em_sig e' k) x) - ln (normal_pdf (em_O e) (em_mu e k) (em_sig e k) x)))) (nth n (nth t examples []) []) (nth n (po_gamma (nth t es no_post)) (fun _ => 0))))).
  2: { intros t _. apply bsum_ext. intros n Hn. apply bsum_ext. intros k _. rewrite !densities_nth by auto. reflexivity. }
  rewrite (flat_sum (fun x r => bsum K (fun k => r k * (ln (normal_pdf (em_O e') (em_mu e' k) (em_sig e' k) x) - ln (normal_pdf (em_O e) (em_mu e k) (em_sig e k) x))))). rewrite bsum_swap. apply bsum_nonneg. intros k Hk.
  rewrite (bsum_ext NN _ (fun u => bsum (em_O e) (fun d => gx u k * (lnN (em_mu e' k d) (em_sig e' k d) (xx u d) - lnN (em_mu e k d) (em_sig e k d) (xx u d))))).
  2: { intros u _. rewrite (proj2 (normal_pdf_pos (em_O e') (em_mu e' k) (em_sig e' k) _ ltac:(intros d Hd; apply PE'; lia))). rewrite (proj2 (normal_pdf_pos (em_O e) (em_mu e k) (em_sig e k) _ ltac:(intros d Hd; apply PE; lia))). rewrite EO, <- bsum_minus, <- bsum_scal. reflexivity. }
  rewrite bsum_swap. apply bsum_nonneg. intros d Hd. pose proof (gauss1 NN (fun u => xx u d) (fun u => gx u k) (em_mu e k d) (em_sig e k d) ltac:(intros u Hu; now apply gx_nonneg) (Zn k Hk) ltac:(apply PE; lia)) as G1. cbv beta zeta in G1. rewrite <- Em, <- Es in G1. apply G1. apply PE'; lia.
Qed.
Lemma visits_Xs : forall i, (i < K)%nat -> bsum K (Xs es i) = Rsum (map (fun X => visits K (hm_A m) (hm_pi m) (densities e X) i) examples).
Proof.
  intros i Hi. rewrite (Rsum_nth _ examples []). unfold Xs. rewrite es_M, bsum_swap. apply bsum_ext. intros t Ht. rewrite bsum_swap. pose proof (es_nth m _ es ES t ltac:(rewrite LM; exact Ht)) as E. rewrite nth_densities in E. destruct (e_step_spec _ _ _ E) as (_ & Hev & _ & LX & _ & X & _). unfold visits. replace (length (po_xi (nth t es no_post))) with (length (densities e (nth t examples [])) - 1)%nat by lia. apply bsum_ext. intros n Hn.
  rewrite (bsum_ext K _ (fun j => evidence_and K (hm_A m) (hm_pi m) (densities e (nth t examples [])) (fun z => at_time n i z && at_time (n + 1) j z) * / evidence K (hm_A m) (hm_pi m) (densities e (nth t examples [])))) by (intros j Hj; unfold x_at; apply X; auto; lia). rewrite bsum_scal_r. unfold Rdiv. f_equal. rewrite evidence_and_ssum.
  rewrite (bsum_ext K _ (fun j => ssum K (length (densities e (nth t examples []))) (fun z => joint (hm_A m) (hm_pi m) (densities e (nth t examples [])) z * ind (at_time n i z && at_time (n + 1) j z)))) by (intros; apply evidence_and_ssum). rewrite <- ssum_bsum. apply ssum_ext. intros z Lz Fz. rewrite bsum_scal. f_equal.
  transitivity (bsum K (fun j => ind (at_time (n + 1) j z) * ind (at_time n i z))); [apply bsum_ext; intros j _; destruct (at_time n i z), (at_time (n + 1) j z); cbn [andb ind]; ring|]. exact (eq_sym (at_value K (n + 1) z (fun _ => ind (at_time n i z)) ltac:(lia) Fz)).
Qed.
Hypothesis UC : update_chain m es = Some m'.
Hypothesis NT : forall i, (i < K)%nat -> let v := Rsum (map (fun X => visits K (hm_A m) (hm_pi m) (densities e X) i) examples) in v = 0 \/ tiny <= v.
Lemma step_gain : bsum M (fun t => ln (evidence K (hm_A m) (hm_pi m) (densities e (nth t examples [])))) <= bsum M (fun t => ln (evidence K (hm_A m') (hm_pi m') (densities e' (nth t examples [])))) /\
  forall t, (t < M)%nat -> 0 < evidence K (hm_A m') (hm_pi m') (densities e' (nth t examples [])).
Proof.
  assert (EK : em_K e' = em_K e) by (unfold update_emission in UE; destruct (Nat.eqb _ 0); [discriminate|]; destruct (forallb _ _); [|discriminate]; apply some_inj in UE; rewrite <- UE; reflexivity).
  pose proof (total_gain m m' (map (densities e) examples) (map (densities e') examples) es SP ES UC) as T. rewrite !map_length in T.
  assert (T' : bsum M (fun t => ln (evidence K (hm_A m) (hm_pi m) (nth t (map (densities e) examples) []))) <= bsum M (fun t => ln (evidence K (hm_A m') (hm_pi m') (nth t (map (densities e') examples) []))) /\ forall t, (t < M)%nat -> 0 < evidence K (hm_A m') (hm_pi m') (nth t (map (densities e') examples) [])).
  { apply T; clear T; [reflexivity| | | | | |].
    - intros t Ht. rewrite !nth_densities, !densities_length. reflexivity.
    - intros t Ht. rewrite nth_densities. now apply densities_nonneg.
    - intros t Ht. rewrite nth_densities. apply densities_nonneg; auto; lia.
    - intros i Hi. rewrite visits_Xs by auto. now apply NT.
    - intros t n k Ht Hn Hk _. rewrite nth_densities in *. rewrite densities_length in Hn. apply (densities_pos e' _ K); auto; lia.
    - rewrite (bsum_ext M _ (fun t => bsum (length (nth t examples [])) (fun n => bsum K (fun k => g_at (nth t es no_post) n k * (ln (nth n (densities e' (nth t examples [])) (fun _ => 0) k) - ln (nth n (densities e (nth t examples [])) (fun _ => 0) k)))))) by (intros t _; rewrite !nth_densities, densities_length; reflexivity). apply emission_gain. }
  rewrite (bsum_ext M (fun t => ln (evidence K (hm_A m) (hm_pi m) (nth t (map (densities e) examples) []))) (fun t => ln (evidence K (hm_A m) (hm_pi m) (densities e (nth t examples []))))) in T' by (intros; now rewrite nth_densities). rewrite (bsum_ext M (fun t => ln (evidence K (hm_A m') (hm_pi m') (nth t (map (densities e') examples) []))) (fun t => ln (evidence K (hm_A m') (hm_pi m') (densities e' (nth t examples []))))) in T' by (intros; now rewrite nth_densities).
  split; [apply T'|]. intros t Ht. rewrite <- nth_densities. now apply T'.
Qed.
End Step.
