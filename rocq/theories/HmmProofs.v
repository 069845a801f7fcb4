(** Lemmas about hidden Markov models. *)
From Coq Require Import List ZArith Lia Reals Lra Bool.
From Verif Require Import Base Vec Sum StftProofs DenoiseModel WienerProofs HmmModel HmmSpec BaseProofs.
Import ListNotations.
Local Open Scope R_scope.

(** ** Sums over state sequences *)
Definition ssum (K n : nat) (f : list nat -> R) : R := Rsum (map f (seqs K n)).
Lemma Rsum_map_ext_in : forall {A} (f g : A -> R) l, (forall a, In a l -> f a = g a) -> Rsum (map f l) = Rsum (map g l).
Proof. intros A f g l H. f_equal. apply map_ext_in. exact H. Qed.
Lemma ssum_0 : forall K f, ssum K 0 f = f [].
Proof. intros. unfold ssum. cbn [seqs map Rsum fold_right]. ring. Qed.
Lemma ssum_S : forall K n f, ssum K (S n) f = bsum K (fun k => ssum K n (fun z => f (k :: z))).
Proof.
  intros K n f. unfold ssum. cbn [seqs]. rewrite bsum_Rsum. generalize (seq 0 K). intros l. induction l as [|k l IH]; [reflexivity|]. cbn [flat_map]. rewrite map_app, Rsum_app, IH. cbn [map Rsum fold_right]. unfold Rsum. f_equal. now rewrite map_map.
Qed.
Lemma in_seqs : forall K n z, In z (seqs K n) <-> length z = n /\ Forall (fun k => (k < K)%nat) z.
Proof.
  intros K n. induction n as [|n IH]; intros z; cbn [seqs].
  - split; [intros [<-|[]]; split; [reflexivity|constructor]|intros [H _]; left; destruct z; [reflexivity|discriminate]].
  - rewrite in_flat_map. split.
    + intros (k & Hk & Hz). apply in_seq in Hk. apply in_map_iff in Hz. destruct Hz as (z' & <- & Hz). apply IH in Hz. destruct Hz as [L F]. split; [cbn; lia|constructor; [lia|exact F]].
    + intros [L F]. destruct z as [|k z]; [discriminate|]. inversion F; subst. exists k. split; [apply in_seq; lia|]. apply in_map, IH. split; [cbn in L; lia|assumption].
Qed.
Lemma ssum_ext : forall K n f g, (forall z, length z = n -> Forall (fun k => (k < K)%nat) z -> f z = g z) -> ssum K n f = ssum K n g.
Proof. intros K n f g H. apply Rsum_map_ext_in. intros z Hz. apply in_seqs in Hz. now apply H. Qed.
Lemma ssum_scal : forall K n c f, ssum K n (fun z => c * f z) = c * ssum K n f.
Proof. intros. unfold ssum. apply Rsum_map_scal. Qed.
Lemma ssum_plus : forall K n f g, ssum K n (fun z => f z + g z) = ssum K n f + ssum K n g.
Proof. intros. unfold ssum. apply Rsum_map_plus. Qed.
Lemma ssum_zero : forall K n, ssum K n (fun _ => 0) = 0.
Proof. intros. unfold ssum. induction (seqs K n) as [|a l IH]; [reflexivity|]. cbn [map Rsum fold_right]. unfold Rsum in IH. rewrite IH. ring. Qed.
Lemma ssum_bsum : forall K n M (f : nat -> list nat -> R), ssum K n (fun z => bsum M (fun i => f i z)) = bsum M (fun i => ssum K n (f i)).
Proof. intros K n M f. induction M as [|M IH]; cbn [bsum]; [apply ssum_zero|]. now rewrite ssum_plus, IH. Qed.
Lemma ssum_nonneg : forall K n f, (forall z, length z = n -> Forall (fun k => (k < K)%nat) z -> 0 <= f z) -> 0 <= ssum K n f.
Proof.
  intros K n f H. unfold ssum. assert (G : forall z, In z (seqs K n) -> 0 <= f z) by (intros z Hz; apply in_seqs in Hz; now apply H). revert G. generalize (seqs K n). induction l as [|a l IH]; intros G; [cbn; lra|]. cbn [map Rsum fold_right]. unfold Rsum in IH. specialize (IH ltac:(intros; apply G; now right)). specialize (G a (or_introl eq_refl)). lra.
Qed.
Lemma ssum_le : forall K n f g, (forall z, length z = n -> Forall (fun k => (k < K)%nat) z -> f z <= g z) -> ssum K n f <= ssum K n g.
Proof.
  intros K n f g H. assert (G : 0 <= ssum K n (fun z => g z + -1 * f z)) by (apply ssum_nonneg; intros z Hl Hz; specialize (H z Hl Hz); lra). rewrite ssum_plus, ssum_scal in G. lra.
Qed.
Definition ind (b : bool) : R := if b then 1 else 0.
Lemma filter_sum : forall {A} (f : A -> R) e l, Rsum (map f (filter e l)) = Rsum (map (fun z => f z * ind (e z)) l).
Proof. intros A f e l. induction l as [|a l IH]; [reflexivity|]. cbn [filter map]. destruct (e a); cbn [map]; unfold Rsum, ind in *; cbn [fold_right]; rewrite IH; ring. Qed.

Section Chain.
Variable K : nat.
Variable A : nat -> nat -> R.

Definition jv (v : nat -> R) (ps : list (nat -> R)) (z : list nat) : R := match z with [] => 0 | k :: z => v k * chain A k ps z end.
Definition stepv (v p : nat -> R) : nat -> R := fun j => p j * bsum K (fun i => A i j * v i).
Definition vat (v : nat -> R) (ps : list (nat -> R)) (n : nat) : nat -> R := fold_left stepv (firstn n ps) v.
Definition Bw (ps : list (nat -> R)) (k : nat) : R := ssum K (length ps) (chain A k ps).
Lemma Bw_nil : forall k, Bw [] k = 1.
Proof. intros. unfold Bw. apply ssum_0. Qed.
Lemma Bw_cons : forall p ps k, Bw (p :: ps) k = bsum K (fun j => A k j * p j * Bw ps j).
Proof. intros p ps k. unfold Bw. cbn [length]. rewrite ssum_S. apply bsum_ext. intros j _. rewrite <- ssum_scal. reflexivity. Qed.
Lemma shift_sum : forall v p ps f, ssum K (S (S (length ps))) (fun z => jv v (p :: ps) z * f (tl z)) = ssum K (S (length ps)) (fun z => jv (stepv v p) ps z * f z).
Proof.
  intros v p ps f. rewrite ssum_S. rewrite (bsum_ext K _ (fun i => bsum K (fun j => ssum K (length ps) (fun z => v i * (A i j * p j * chain A j ps z) * f (j :: z))))) by (intros i _; now rewrite ssum_S).
  rewrite bsum_swap, ssum_S. apply bsum_ext. intros j _. rewrite <- ssum_bsum. apply ssum_ext. intros z _ _. cbn [jv]. unfold stepv. rewrite (bsum_ext K _ (fun i => (A i j * v i) * (p j * chain A j ps z * f (j :: z)))) by (intros; ring). rewrite bsum_scal_r. ring.
Qed.
Lemma vat_S : forall v p ps n, vat v (p :: ps) (S n) = vat (stepv v p) ps n.
Proof. reflexivity. Qed.
Lemma at0_sum : forall v ps k, (k < K)%nat -> ssum K (S (length ps)) (fun z => jv v ps z * ind (at_time 0 k z)) = v k * Bw ps k.
Proof.
  intros v ps k Hk. rewrite ssum_S, (bsum_delta K k); [|exact Hk|].
  - unfold Bw. rewrite <- ssum_scal. apply ssum_ext. intros z _ _. cbn [jv at_time nth_error]. unfold at_time. cbn [nth_error]. rewrite Nat.eqb_refl. cbn [ind]. ring.
  - intros i _ Hne. rewrite <- (ssum_zero K (length ps)). apply ssum_ext. intros z _ _. unfold at_time. cbn [nth_error]. destruct (Nat.eqb_spec i k); [contradiction|]. cbn [ind]. ring.
Qed.
Lemma at_tl : forall n k z, at_time (S n) k z = at_time n k (tl z).
Proof. intros n k [|a z]; [unfold at_time; cbn [tl]; destruct n; reflexivity|reflexivity]. Qed.
Lemma at_sum : forall n v ps k, (k < K)%nat -> (n <= length ps)%nat -> ssum K (S (length ps)) (fun z => jv v ps z * ind (at_time n k z)) = vat v ps n k * Bw (skipn n ps) k.
Proof.
  induction n as [|n IH]; intros v ps k Hk Hn; [apply at0_sum; auto|]. destruct ps as [|p ps]; [cbn in Hn; lia|]. cbn [length]. rewrite (ssum_ext K _ _ (fun z => jv v (p :: ps) z * (fun z => ind (at_time n k z)) (tl z))) by (intros z _ _; now rewrite at_tl). rewrite (shift_sum v p ps (fun z => ind (at_time n k z))), IH by (auto; cbn in Hn; lia). reflexivity.
Qed.
Lemma all_sum : forall ps v, ssum K (S (length ps)) (jv v ps) = bsum K (vat v ps (length ps)).
Proof.
  induction ps as [|p ps IH]; intros v.
  - cbn [length]. rewrite ssum_S. apply bsum_ext. intros k _. rewrite ssum_0. cbn. ring.
  - cbn [length]. rewrite vat_S, <- IH, (ssum_ext K _ _ (fun z => jv v (p :: ps) z * (fun _ => 1) (tl z))) by (intros; ring). rewrite (shift_sum v p ps (fun _ => 1)). apply ssum_ext. intros; ring.
Qed.
Lemma pair_sum : forall n v ps i j, (i < K)%nat -> (j < K)%nat -> (n < length ps)%nat ->
  ssum K (S (length ps)) (fun z => jv v ps z * ind (at_time n i z && at_time (S n) j z)) = vat v ps n i * A i j * nth n ps (fun _ => 0) j * Bw (skipn (S n) ps) j.
Proof.
  induction n as [|n IH]; intros v ps i j Hi Hj Hn; (destruct ps as [|p ps]; [cbn in Hn; lia|]).
  - cbn [length nth skipn]. unfold vat. cbn [firstn fold_left]. rewrite ssum_S, (bsum_delta K i); [|exact Hi|].
    + rewrite ssum_S, (bsum_delta K j); [|exact Hj|].
      * unfold Bw. rewrite <- ssum_scal. apply ssum_ext. intros z _ _. unfold at_time. cbn [nth_error jv chain]. rewrite !Nat.eqb_refl. cbn [andb ind]. ring.
      * intros l _ Hne. rewrite <- (ssum_zero K (length ps)). apply ssum_ext. intros z _ _. unfold at_time. cbn [nth_error]. destruct (Nat.eqb_spec l j); [contradiction|]. rewrite andb_false_r. cbn [ind]. ring.
    + intros l _ Hne. rewrite <- (ssum_zero K (S (length ps))). apply ssum_ext. intros z _ _. unfold at_time. cbn [nth_error]. destruct (Nat.eqb_spec l i); [contradiction|]. cbn [andb ind]. ring.
  - cbn [length]. rewrite (ssum_ext K _ _ (fun z => jv v (p :: ps) z * (fun z => ind (at_time n i z && at_time (S n) j z)) (tl z))) by (intros z _ _; now rewrite (at_tl n), (at_tl (S n))). rewrite (shift_sum v p ps (fun z => ind (at_time n i z && at_time (S n) j z))), IH by (auto; cbn in Hn; lia). reflexivity.
Qed.

Lemma scaled_spec : forall a r, scaled K a = Some r -> bsum K a <> 0 /\ r = (fun k => a k / bsum K a, bsum K a).
Proof. intros a r E. unfold scaled in E. destruct (Req_EM_T (bsum K a) 0); [discriminate|]. apply some_inj in E. subst r. auto. Qed.
Lemma forward_from_spec : forall ps a v al cs, bsum K v <> 0 -> (forall k, (k < K)%nat -> a k = v k / bsum K v) -> forward_from K A a ps = Some (al, cs) ->
  length al = length ps /\ length cs = length ps /\ forall n, (n < length ps)%nat -> bsum K (vat v ps (S n)) <> 0 /\
    nth n cs 0 = bsum K (vat v ps (S n)) / bsum K (vat v ps n) /\ forall k, nth n al (fun _ => 0) k = vat v ps (S n) k / bsum K (vat v ps (S n)).
Proof.
  induction ps as [|p ps IH]; intros a v al cs Hv Ha E.
  - cbn [forward_from] in E. apply some_inj in E. apply pair_equal_spec in E. destruct E as [<- <-]. repeat split; cbn in *; lia.
  - cbn [forward_from] in E. destruct (scaled K _) as [r|] eqn:Sc; [|discriminate]. cbn [bind] in E. apply scaled_spec in Sc. destruct Sc as [Hc ->]. cbn [fst snd] in E.
    assert (Q : forall j, p j * bsum K (fun i => A i j * a i) = stepv v p j / bsum K v). { intros j. unfold stepv, Rdiv. rewrite Rmult_assoc, <- bsum_scal_r. f_equal. apply bsum_ext. intros i Hi. rewrite Ha by auto. unfold Rdiv. ring. }
    assert (Q' : bsum K (fun j => p j * bsum K (fun i => A i j * a i)) = bsum K (stepv v p) / bsum K v). { rewrite (bsum_ext K _ (fun j => stepv v p j * / bsum K v)) by (intros; apply Q). apply bsum_scal_r. }
    rewrite Q' in Hc, E. assert (Hs : bsum K (stepv v p) <> 0) by (intros Z; apply Hc; rewrite Z; unfold Rdiv; ring).
    destruct (forward_from K A _ ps) as [[al' cs']|] eqn:F; [|discriminate]. cbn [bind fst snd] in E. apply some_inj in E. apply pair_equal_spec in E. destruct E as [<- <-].
    destruct (IH (fun k => p k * bsum K (fun i => A i k * a i) / (bsum K (stepv v p) / bsum K v)) (stepv v p) al' cs' Hs ltac:(intros k Hk; cbv beta; rewrite Q; field; auto) F) as (L1 & L2 & IH'). cbn [length]. split; [lia|]. split; [lia|].
    intros [|n] Hn; [|cbn [nth]; rewrite !vat_S; apply IH'; lia]. cbn [nth]. rewrite vat_S. change (vat (stepv v p) ps 0) with (stepv v p). change (vat v (p :: ps) 0) with v. split; [exact Hs|]. split; [reflexivity|]. intros k. rewrite Q. field. auto.
Qed.
End Chain.

(** Normalising constants of prefixes. *)
Definition v0 (m : hmm) (p : nat -> R) : nat -> R := fun k => p k * hm_pi m k.
Definition Sc (m : hmm) (p : nat -> R) (ps : list (nat -> R)) (n : nat) : R := bsum (hm_K m) (vat (hm_K m) (hm_A m) (v0 m p) ps n).
Lemma forward_spec : forall m p ps al cs, forward m (p :: ps) = Some (al, cs) ->
  length al = S (length ps) /\ length cs = S (length ps) /\ nth 0 cs 0 = Sc m p ps 0 /\ (forall n, (n < length ps)%nat -> nth (S n) cs 0 = Sc m p ps (S n) / Sc m p ps n) /\
  forall n, (n <= length ps)%nat -> Sc m p ps n <> 0 /\ forall k, nth n al (fun _ => 0) k = vat (hm_K m) (hm_A m) (v0 m p) ps n k / Sc m p ps n.
Proof.
  intros m p ps al cs E. cbn [forward] in E. destruct (scaled (hm_K m) _) as [r|] eqn:Sd; [|discriminate]. cbn [bind] in E. apply scaled_spec in Sd. destruct Sd as [Hc ->]. cbn [fst snd] in E. fold (v0 m p) in Hc, E.
  destruct (forward_from _ _ _ ps) as [[al' cs']|] eqn:F; [|discriminate]. cbn [bind fst snd] in E. apply some_inj in E. apply pair_equal_spec in E. destruct E as [<- <-].
  destruct (forward_from_spec (hm_K m) (hm_A m) ps _ (v0 m p) al' cs' Hc ltac:(intros; reflexivity) F) as (L1 & L2 & H). cbn [length]. split; [lia|]. split; [lia|]. split; [reflexivity|]. split; [intros n Hn; apply (H n Hn)|].
  intros [|n] Hn; [split; [exact Hc|reflexivity]|]. destruct (H n ltac:(lia)) as (H1 & _ & H2). split; [exact H1|exact H2].
Qed.
Lemma backward_spec : forall m ps p cs (Sf : nat -> R), length cs = S (length ps) -> (forall n, (n <= length ps)%nat -> Sf n <> 0) -> (forall n, (n < length ps)%nat -> nth (S n) cs 0 = Sf (S n) / Sf n) ->
  length (backward m (p :: ps) cs) = S (length ps) /\ forall n k, (n <= length ps)%nat -> nth n (backward m (p :: ps) cs) (fun _ => 0) k = Bw (hm_K m) (hm_A m) (skipn n ps) k * Sf n / Sf (length ps).
Proof.
  intros m ps. induction ps as [|p1 ps IH]; intros p cs Sf L Hn Hc.
  - cbn [backward]. split; [reflexivity|]. intros n k Hk. assert (n = 0%nat) by (cbn in Hk; lia). subst n. cbn [nth skipn length]. rewrite Bw_nil. field. apply (Hn 0%nat). cbn; lia.
  - destruct cs as [|c0 [|c1 cs]]; try discriminate. destruct (IH p1 (c1 :: cs) (fun n => Sf (S n)) ltac:(cbn in *; lia) ltac:(intros n Hn'; apply Hn; cbn; lia) ltac:(intros n Hn'; apply (Hc (S n)); cbn; lia)) as [L' H']. clear IH.
    change (backward m (p :: p1 :: ps) (c0 :: c1 :: cs)) with ((fun k => bsum (hm_K m) (fun j => hm_A m k j * (p1 j * hd (fun _ => 0) (backward m (p1 :: ps) (c1 :: cs)) j)) / c1) :: backward m (p1 :: ps) (c1 :: cs)).
    set (bs := backward m (p1 :: ps) (c1 :: cs)) in *. split; [cbn [length]; lia|]. intros [|n] k Hk; [|cbn [nth skipn]; apply (H' n k); cbn in Hk; lia]. cbn [nth skipn].
    replace (hd (fun _ => 0) bs) with (nth 0 bs (fun _ => 0)) by (destruct bs; reflexivity). rewrite Bw_cons. pose proof (Hc 0%nat ltac:(cbn; lia)) as E1. cbn [nth] in E1. rewrite E1. pose proof (Hn 0%nat ltac:(cbn; lia)). pose proof (Hn 1%nat ltac:(cbn; lia)). pose proof (Hn (length (p1 :: ps)) ltac:(lia)).
    rewrite (bsum_ext (hm_K m) _ (fun j => hm_A m k j * p1 j * Bw (hm_K m) (hm_A m) ps j * (Sf 1%nat / Sf (length (p1 :: ps))))). 2: { intros j _. rewrite (H' 0%nat j) by lia. cbn [skipn length]. unfold Rdiv. ring. }
    rewrite bsum_scal_r. field. auto.
Qed.
Lemma evidence_Sc : forall m p ps, evidence (hm_K m) (hm_A m) (hm_pi m) (p :: ps) = Sc m p ps (length ps).
Proof.
  intros m p ps. unfold evidence. cbn [length]. fold (ssum (hm_K m) (S (length ps)) (joint (hm_A m) (hm_pi m) (p :: ps))). unfold Sc. rewrite <- all_sum. apply ssum_ext. intros [|k z] L _; [discriminate|]. cbn [joint jv]. unfold v0. ring.
Qed.
Lemma evidence_and_jv : forall m p ps e, evidence_and (hm_K m) (hm_A m) (hm_pi m) (p :: ps) e = ssum (hm_K m) (S (length ps)) (fun z => jv (hm_A m) (v0 m p) ps z * ind (e z)).
Proof. intros m p ps e. unfold evidence_and. rewrite filter_sum. apply ssum_ext. intros [|k z] L _; [discriminate|]. cbn [joint jv]. unfold v0. ring. Qed.
Lemma nth_gammas : forall al be n k, length al = length be -> (n < length al)%nat -> nth n (gammas al be) (fun _ => 0) k = nth n al (fun _ => 0) k * nth n be (fun _ => 0) k.
Proof. intros al be n k L Hn. unfold gammas. now rewrite (nth_map2 _ _ _ _ (fun _ => 0) (fun _ => 0)) by auto. Qed.
Lemma xis_spec : forall A al be ps c T, length al = S T -> length be = S T -> length ps = S T -> length c = S T ->
  length (xis A al be ps c) = T /\ forall n i j, (n < T)%nat -> nth n (xis A al be ps c) (fun _ _ => 0) i j = nth n al (fun _ => 0) i * (nth (S n) be (fun _ => 0) j * nth (S n) ps (fun _ => 0) j) * A i j / nth (S n) c 0.
Proof.
  intros A al be ps c T. revert al be ps c. induction T as [|T IH]; intros al be ps c L1 L2 L3 L4.
  - destruct al as [|a [|]], be as [|b [|]], ps as [|p [|]], c as [|c [|]]; try discriminate. split; [reflexivity|intros; lia].
  - destruct al as [|a [|a1 al]], be as [|b [|b1 be]], ps as [|p [|p1 ps]], c as [|c [|c1 cs]]; try discriminate. destruct (IH (a1 :: al) (b1 :: be) (p1 :: ps) (c1 :: cs)) as [L H]; try (cbn in *; lia).
    change (xis A (a :: a1 :: al) (b :: b1 :: be) (p :: p1 :: ps) (c :: c1 :: cs)) with ((fun i j => a i * (b1 j * p1 j) * A i j / c1) :: xis A (a1 :: al) (b1 :: be) (p1 :: ps) (c1 :: cs)). split; [cbn [length]; lia|]. intros [|n] i j Hn; [reflexivity|]. cbn [nth]. apply (H n i j). lia.
Qed.

(** ** The expectation step *)
Lemma e_step_spec : forall m ps e, e_step m ps = Some e -> ps <> [] /\ evidence (hm_K m) (hm_A m) (hm_pi m) ps <> 0 /\
  length (po_gamma e) = length ps /\ (length (po_xi e) + 1 = length ps)%nat /\
  (forall n k, (n < length ps)%nat -> (k < hm_K m)%nat -> nth n (po_gamma e) (fun _ => 0) k = evidence_and (hm_K m) (hm_A m) (hm_pi m) ps (at_time n k) / evidence (hm_K m) (hm_A m) (hm_pi m) ps) /\
  (forall n i j, (n + 1 < length ps)%nat -> (i < hm_K m)%nat -> (j < hm_K m)%nat ->
     nth n (po_xi e) (fun _ _ => 0) i j = evidence_and (hm_K m) (hm_A m) (hm_pi m) ps (fun z => at_time n i z && at_time (n + 1) j z) / evidence (hm_K m) (hm_A m) (hm_pi m) ps) /\
  exists al cs, forward m ps = Some (al, cs) /\ po_ll e = Rsum (map ln cs).
Proof.
  intros m ps e E. unfold e_step in E. destruct (forward m ps) as [[al cs]|] eqn:F; [|discriminate]. cbn [bind fst snd] in E. apply some_inj in E. subst e. cbn [po_gamma po_xi po_ll]. destruct ps as [|p ps]; [discriminate|]. split; [discriminate|].
  destruct (forward_spec _ _ _ _ _ F) as (L1 & L2 & C0 & C1 & H). destruct (backward_spec m ps p cs (Sc m p ps) L2 (fun n Hn => proj1 (H n Hn)) C1) as [LB HB]. rewrite evidence_Sc. destruct (H (length ps) (le_n _)) as [HS _].
  destruct (xis_spec (hm_A m) al (backward m (p :: ps) cs) (p :: ps) cs (length ps) L1 LB eq_refl L2) as [LX HX]. split; [exact HS|]. cbn [length]. split; [unfold gammas; rewrite map2_length by lia; lia|]. split; [rewrite LX; lia|]. split; [|split].
  - intros n k Hn Hk. rewrite nth_gammas by lia. rewrite HB by lia. destruct (H n ltac:(lia)) as [Hn' ->]. rewrite evidence_and_jv, at_sum by (auto; lia). field. auto.
  - intros n i j Hn Hi Hj. rewrite HX by lia. rewrite HB by lia. destruct (H n ltac:(lia)) as [Hn' ->]. rewrite C1 by lia. destruct (H (S n) ltac:(lia)) as [Hn1 _]. rewrite evidence_and_jv. rewrite (ssum_ext _ _ _ (fun z => jv (hm_A m) (v0 m p) ps z * ind (at_time n i z && at_time (S n) j z))) by (intros; now rewrite Nat.add_1_r).
    rewrite pair_sum by (auto; lia). cbn [nth]. field. auto.
  - exists al, cs. auto.
Qed.
