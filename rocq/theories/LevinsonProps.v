(** C59: the Levinson recursion. *)
From Coq Require Import List ZArith Lia Reals Lra Bool.
From Verif Require Import Base BaseProofs Vec Sum Cpx SimulateModel SyncModel UtilModel UtilProps BandsProps.
Import ListNotations.
Local Open Scope R_scope.

(** The Hermitian Toeplitz matrix with first column [c]. *)
Definition toep (c : list C) (i k : nat) : C := if (k <=? i)%nat then nth (i - k) c C0 else Conj (nth (k - i) c C0).
(** [x] solves the leading [n] by [n] system with right-hand side [b]. *)
Definition solves (n : nat) (T : nat -> nat -> C) (x b : list C) : Prop := forall i, (i < n)%nat -> csum n (fun k => (T i k * nth k x C0)%C) = nth i b C0.
(** No leading principal block of T up to size [n] is singular. *)
Definition regular (n : nat) (T : nat -> nat -> C) : Prop := forall m v, (1 <= m <= n)%nat -> length v = m -> (forall i, (i < m)%nat -> csum m (fun k => (T i k * nth k v C0)%C) = C0) -> forall i, nth i v C0 = C0.

(** The same matrix, conjugated, in the form the recursion uses. *)
Definition T (r : list C) (i k : nat) : C := toep (map Conj r) i k.
Lemma T_eq : forall r i k, T r i k = if (k <=? i)%nat then Conj (nth (i - k) r C0) else nth (k - i) r C0.
Proof.
  intros r i k. unfold T, toep. assert (E : forall n, nth n (map Conj r) C0 = Conj (nth n r C0)). { intros n. replace C0 with (Conj C0) at 1 by (apply C_eq; cbn; ring). apply map_nth. } rewrite !E, Conj_conj. reflexivity.
Qed.
Lemma T_conj : forall r, Conj (nth 0 r C0) = nth 0 r C0 -> forall i k, Conj (T r i k) = T r k i.
Proof. intros r H i k. rewrite !T_eq. destruct (Nat.leb_spec k i), (Nat.leb_spec i k); rewrite ?Conj_conj; auto; try lia. replace i with k by lia. now rewrite Nat.sub_diag. Qed.
Lemma T_shift : forall r i k, T r (S i) (S k) = T r i k.
Proof. intros. rewrite !T_eq. reflexivity. Qed.
Lemma T_flip : forall r j i k, (i <= j)%nat -> (k <= j)%nat -> T r (j - i) (j - k) = T r k i.
Proof. intros r j i k Hi Hk. rewrite !T_eq. destruct (Nat.leb_spec (j - k) (j - i)), (Nat.leb_spec i k); try lia; [f_equal|]; f_equal; lia. Qed.

Lemma Csum_csum : forall l, Csum l = csum (length l) (fun i => nth i l C0).
Proof. induction l as [|a l IH]; [now rewrite csum_0|]. cbn [Csum fold_right length]. fold (Csum l). rewrite csum_shift, IH. reflexivity. Qed.
Lemma map2_len : forall {A B D} (f : A -> B -> D) l1 l2, length l1 = length l2 -> length (map2 f l1 l2) = length l1.
Proof. induction l1 as [|a l1 IH]; intros [|b l2] H; cbn in *; try discriminate; auto. Qed.
Lemma map2_nth : forall {A B D} (f : A -> B -> D) l1 l2 i a b d, length l1 = length l2 -> (i < length l1)%nat -> nth i (map2 f l1 l2) d = f (nth i l1 a) (nth i l2 b).
Proof. induction l1 as [|u l1 IH]; intros [|v l2] i a b d H Hi; cbn in *; try discriminate; try lia. destruct i; auto. apply IH; lia. Qed.
Lemma nth_app_last : forall (l : list C) k, nth k (l ++ [C0]) C0 = nth k l C0.
Proof. intros l k. destruct (Nat.lt_ge_cases k (length l)); [now rewrite app_nth1|]. rewrite app_nth2 by auto. rewrite (nth_overflow l) by auto. destruct (k - length l)%nat as [|[|?]]; reflexivity. Qed.
Lemma nth_map_conj : forall l n, nth n (map Conj l) C0 = Conj (nth n l C0).
Proof. intros. replace C0 with (Conj C0) at 1 by (apply C_eq; cbn; ring). apply map_nth. Qed.
Lemma nth_map_cmul : forall q l n, nth n (map (Cmul q) l) C0 = (q * nth n l C0)%C.
Proof. intros. replace C0 with (q * C0)%C at 1 by (apply C_eq; cbn; ring). apply (map_nth (Cmul q)). Qed.
Lemma Cdiv_mul : forall a b, b <> C0 -> (Cdiv a b * b)%C = a.
Proof.
  intros a b H. unfold Cdiv. rewrite Cscal_RtoC. assert (Hb : Cabs2 b <> 0) by (intros E; apply H; now apply Cabs2_zero). transitivity (RtoC (/ Cabs2 b) * (a * (b * Conj b)))%C; [ring|]. rewrite Cmul_conj. transitivity (a * (RtoC (/ Cabs2 b) * RtoC (Cabs2 b)))%C; [ring|]. rewrite <- RtoC_mul, Rinv_l by auto. change (RtoC 1) with C1. ring.
Qed.

Section Rec.
Variable r b : list C.
Hypothesis Hr : Conj (nth 0 r C0) = nth 0 r C0.
Definition inv (j : nat) (st : lev) : Prop :=
  length (lv_a st) = j /\ length (lv_x st) = j /\ nth 0 (lv_a st) C0 = C1 /\ Conj (lv_eps st) = lv_eps st /\
  (forall i, (i < j)%nat -> csum j (fun k => (T r i k * nth k (lv_a st) C0)%C) = if Nat.eqb i 0 then lv_eps st else C0) /\ solves j (T r) (lv_x st) b.
(** reversed and conjugated: the last unit vector *)
Lemma rev_conj : forall j a e, length a = S j -> Conj e = e -> (forall i, (i < S j)%nat -> csum (S j) (fun k => (T r i k * nth k a C0)%C) = if Nat.eqb i 0 then e else C0) ->
  forall i, (i < S j)%nat -> csum (S j) (fun k => (T r i k * nth k (map Conj (rev a)) C0)%C) = if Nat.eqb i j then e else C0.
Proof.
  intros j a e La He Ha i Hi. rewrite csum_rev. rewrite (csum_ext _ _ (fun k => Conj (T r (j - i) k * nth k a C0))%C).
  - rewrite <- csum_conj, Ha by lia. destruct (Nat.eqb_spec (j - i) 0), (Nat.eqb_spec i j); try lia; auto. apply C_eq; cbn; ring.
  - intros k Hk. rewrite Conj_mul, nth_map_conj, rev_nth by lia. rewrite T_conj by auto. replace (S j - 1 - k)%nat with (j - k)%nat by lia. f_equal.
    + replace k with (j - (j - k))%nat at 2 by lia. rewrite T_flip by lia. reflexivity.
    + do 2 f_equal. lia.
Qed.
Lemma sum_rj : forall j v, length v = j -> (j < length r)%nat -> Csum (map2 (fun ri vi => (Conj ri * vi)%C) (firstn j (skipn 1 r)) (rev v)) = csum j (fun k => (T r j k * nth k v C0)%C).
Proof.
  intros j v Hv Hl. assert (L1 : length (firstn j (skipn 1 r)) = j) by (rewrite firstn_length, skipn_length; lia). rewrite Csum_csum, map2_len by (rewrite rev_length; lia). rewrite L1, csum_rev. apply csum_ext. intros k Hk. rewrite (map2_nth _ _ _ _ C0 C0) by (rewrite ?rev_length; lia). rewrite rev_nth by lia. rewrite T_eq. destruct (Nat.leb_spec k j); [|lia]. f_equal; [f_equal|f_equal; lia].
  rewrite StftProofs.nth_firstn by lia. rewrite StftProofs.nth_skipn. f_equal. lia.
Qed.
Lemma step_sound : forall j st, (1 <= j)%nat -> inv j st -> forall st', lev_step r b st j = Some st' -> inv (S j) st'.
Proof.
  intros j st Hj (La & Lx & A0 & He & Ha & Hx) st' E. unfold lev_step in E. destruct (Nat.eqb_spec (length (firstn j (skipn 1 r))) (length (lv_a st))) as [El|]; cbn [negb] in E; [|discriminate].
  assert (Hl : (j < length r)%nat) by (rewrite firstn_length, skipn_length in El; lia).
  rewrite (sum_rj j (lv_a st)), (sum_rj j (lv_x st)) in E by auto. set (g := csum j (fun k => (T r j k * nth k (lv_a st) C0)%C)) in *. destruct (C_eq_dec (lv_eps st) C0) as [|Hne]; [discriminate|]. set (gamma := Copp (Cdiv g (lv_eps st))) in *. set (a' := map2 Cadd _ _) in *. set (eps' := (lv_eps st * RtoC (1 - Cabs2 gamma))%C) in *. destruct (C_eq_dec eps' C0) as [|Hne']; [discriminate|]. set (q := Cdiv _ eps') in E. apply Some_inj in E. subst st'.
  assert (Hg : (gamma * lv_eps st)%C = Copp g). { unfold gamma. transitivity (Copp (Cdiv g (lv_eps st) * lv_eps st))%C; [ring|]. now rewrite Cdiv_mul. }
  assert (Hcg : (gamma * Conj g)%C = Copp (lv_eps st * RtoC (Cabs2 gamma))%C). { rewrite <- Cmul_conj. transitivity (Copp (gamma * Conj (gamma * lv_eps st)))%C; [rewrite Hg; apply C_eq; cbn; ring|]. rewrite Conj_mul, He. ring. }
  assert (He' : Conj eps' = eps') by (unfold eps'; now rewrite Conj_mul, Conj_RtoC, He).
  assert (La' : length a' = S j). { unfold a'. rewrite map2_len; rewrite ?app_length, ?map_length; cbn [length]; rewrite ?map_length, ?rev_length; lia. }
  assert (Na' : forall k, (k < S j)%nat -> nth k a' C0 = (nth k (lv_a st) C0 + gamma * nth k (C0 :: map Conj (rev (lv_a st))) C0)%C).
  { intros k Hk. unfold a'. rewrite (map2_nth _ _ _ _ C0 C0); [|rewrite app_length, map_length; cbn [length]; rewrite map_length, rev_length; lia|rewrite app_length; cbn; lia]. now rewrite nth_app_last, nth_map_cmul. }
  (* the forward part *)
  assert (S1 : forall i, csum (S j) (fun k => (T r i k * nth k (lv_a st) C0)%C) = csum j (fun k => (T r i k * nth k (lv_a st) C0)%C)).
  { intros i. rewrite csum_S. rewrite (nth_overflow (lv_a st)) by lia. ring. }
  destruct j as [|j0]; [lia|]. pose proof (rev_conj j0 (lv_a st) (lv_eps st) La He Ha) as Hrev.
  assert (Ha' : forall i, (i < S (S j0))%nat -> csum (S (S j0)) (fun k => (T r i k * nth k a' C0)%C) = if Nat.eqb i 0 then eps' else C0).
  { intros i Hi. rewrite (csum_ext _ _ (fun k => T r i k * nth k (lv_a st) C0 + gamma * (T r i k * nth k (C0 :: map Conj (rev (lv_a st))) C0))%C) by (intros k Hk; rewrite Na' by auto; ring). rewrite csum_add, csum_scal, S1.
    rewrite (csum_shift (S j0) (fun k => (T r i k * nth k (C0 :: map Conj (rev (lv_a st))) C0)%C)). cbn [nth].
    destruct i as [|i].
    - rewrite Ha by lia. cbn [Nat.eqb]. unfold eps'. assert (Q : csum (S j0) (fun k => (T r 0 (S k) * nth k (map Conj (rev (lv_a st))) C0)%C) = Conj g).
      { unfold g. rewrite csum_conj, csum_rev. apply csum_ext. intros k Hk. rewrite nth_map_conj, rev_nth by lia. rewrite Conj_mul, T_conj by auto. f_equal. - transitivity (T r (S j0 - S j0) (S j0 - k)); [f_equal; lia|now rewrite T_flip by lia]. - do 2 f_equal. lia. }
      rewrite Q. transitivity (lv_eps st + gamma * Conj g)%C; [ring|]. rewrite Hcg. transitivity (lv_eps st * (C1 - RtoC (Cabs2 gamma)))%C; [ring|]. f_equal. apply C_eq; cbn; ring.
    - cbn [Nat.eqb]. rewrite (csum_ext _ (fun k => (T r (S i) (S k) * nth k (map Conj (rev (lv_a st))) C0)%C) (fun k => (T r i k * nth k (map Conj (rev (lv_a st))) C0)%C)) by (intros k Hk; now rewrite T_shift). rewrite Hrev by lia. destruct (Nat.eqb_spec i j0) as [->|Hij].
      + fold g. transitivity (g + gamma * lv_eps st)%C; [ring|]. rewrite Hg. ring.
      + rewrite Ha by lia. cbn [Nat.eqb]. ring. }
  pose proof (rev_conj (S j0) a' eps' La' He' Ha') as Hrev'. set (j := S j0) in *.
  assert (Lx' : length (map2 Cadd (lv_x st ++ [C0]) (map (Cmul q) (map Conj (rev a')))) = S j). { rewrite map2_len; rewrite ?app_length, ?map_length; cbn [length]; rewrite ?map_length, ?rev_length; lia. }
  unfold inv. cbn [lv_a lv_x lv_eps]. repeat split; auto.
  - rewrite Na' by lia. cbn [nth]. rewrite A0. ring.
  - intros i Hi. rewrite (csum_ext _ _ (fun k => T r i k * nth k (lv_x st) C0 + q * (T r i k * nth k (map Conj (rev a')) C0))%C).
    + rewrite csum_add, csum_scal, Hrev' by auto. rewrite csum_S, (nth_overflow (lv_x st)) by lia. destruct (Nat.eqb_spec i j) as [->|Hij].
      * unfold q. rewrite Cdiv_mul by auto. ring.
      * rewrite Hx by lia. ring.
    + intros k Hk. rewrite (map2_nth _ _ _ _ C0 C0); [|rewrite app_length, map_length, map_length, rev_length; cbn [length]; lia|rewrite app_length; cbn; lia]. rewrite nth_app_last, nth_map_cmul. ring.
Qed.
(** The recursion only stops on a singular leading block. *)
Lemma step_defined : forall n j st, (1 <= j)%nat -> (j < n)%nat -> (n <= length r)%nat -> inv j st -> regular n (T r) -> exists st', lev_step r b st j = Some st'.
Proof.
  intros n j st Hj Hjn Hn (La & Lx & A0 & He & Ha & Hx) Hreg.
  assert (Reg : forall m a e, (1 <= m <= n)%nat -> length a = m -> nth 0 a C0 = C1 -> (forall i, (i < m)%nat -> csum m (fun k => (T r i k * nth k a C0)%C) = if Nat.eqb i 0 then e else C0) -> e <> C0).
  { intros m a e Hm Lm E0 Hs ->. assert (C1 = C0); [rewrite <- E0; apply (Hreg m a Hm Lm); intros i Hi; rewrite Hs by auto; destruct (Nat.eqb i 0); auto|]. assert (fst C1 = fst C0) by congruence. cbn in *. lra. }
  unfold lev_step. assert (El : length (firstn j (skipn 1 r)) = length (lv_a st)) by (rewrite firstn_length, skipn_length; lia). rewrite El, Nat.eqb_refl. cbn [negb]. rewrite (sum_rj j (lv_a st)), (sum_rj j (lv_x st)) by (auto; lia).
  destruct (C_eq_dec (lv_eps st) C0) as [E|Hne]; [exfalso; apply (Reg j (lv_a st) (lv_eps st)); auto; lia|]. destruct (C_eq_dec _ C0) as [E'|Hne']; [|eauto]. exfalso.
  (* run the step with a right-hand side for which the quotient is irrelevant *)
  set (g := csum j (fun k => (T r j k * nth k (lv_a st) C0)%C)) in *. set (gamma := Copp (Cdiv g (lv_eps st))) in *.
  set (a' := map2 Cadd (lv_a st ++ [C0]) (map (Cmul gamma) (C0 :: map Conj (rev (lv_a st))))).
  assert (Hg : (gamma * lv_eps st)%C = Copp g). { unfold gamma. transitivity (Copp (Cdiv g (lv_eps st) * lv_eps st))%C; [ring|]. now rewrite Cdiv_mul. }
  assert (Hcg : (gamma * Conj g)%C = Copp (lv_eps st * RtoC (Cabs2 gamma))%C). { rewrite <- Cmul_conj. transitivity (Copp (gamma * Conj (gamma * lv_eps st)))%C; [rewrite Hg; apply C_eq; cbn; ring|]. rewrite Conj_mul, He. ring. }
  assert (La' : length a' = S j). { unfold a'. rewrite map2_len; rewrite ?app_length, ?map_length; cbn [length]; rewrite ?map_length, ?rev_length; lia. }
  assert (Na' : forall k, (k < S j)%nat -> nth k a' C0 = (nth k (lv_a st) C0 + gamma * nth k (C0 :: map Conj (rev (lv_a st))) C0)%C).
  { intros k Hk. unfold a'. rewrite (map2_nth _ _ _ _ C0 C0); [|rewrite app_length, map_length; cbn [length]; rewrite map_length, rev_length; lia|rewrite app_length; cbn; lia]. now rewrite nth_app_last, nth_map_cmul. }
  assert (S1 : forall i, csum (S j) (fun k => (T r i k * nth k (lv_a st) C0)%C) = csum j (fun k => (T r i k * nth k (lv_a st) C0)%C)).
  { intros i. rewrite csum_S. rewrite (nth_overflow (lv_a st)) by lia. ring. }
  destruct j as [|j0]; [lia|]. pose proof (rev_conj j0 (lv_a st) (lv_eps st) La He Ha) as Hrev.
  apply (Reg (S (S j0)) a' (lv_eps st * RtoC (1 - Cabs2 gamma))%C); [lia|exact La'|rewrite Na' by lia; cbn [nth]; rewrite A0; ring| |exact E'].
  intros i Hi. rewrite (csum_ext _ _ (fun k => T r i k * nth k (lv_a st) C0 + gamma * (T r i k * nth k (C0 :: map Conj (rev (lv_a st))) C0))%C) by (intros k Hk; rewrite Na' by auto; ring). rewrite csum_add, csum_scal, S1.
  rewrite (csum_shift (S j0) (fun k => (T r i k * nth k (C0 :: map Conj (rev (lv_a st))) C0)%C)). cbn [nth].
  destruct i as [|i].
  - rewrite Ha by lia. cbn [Nat.eqb]. assert (Q : csum (S j0) (fun k => (T r 0 (S k) * nth k (map Conj (rev (lv_a st))) C0)%C) = Conj g).
    { unfold g. rewrite csum_conj, csum_rev. apply csum_ext. intros k Hk. rewrite nth_map_conj, rev_nth by lia. rewrite Conj_mul, T_conj by auto. f_equal. - transitivity (T r (S j0 - S j0) (S j0 - k)); [f_equal; lia|now rewrite T_flip by lia]. - do 2 f_equal. lia. }
    rewrite Q. transitivity (lv_eps st + gamma * Conj g)%C; [ring|]. rewrite Hcg. transitivity (lv_eps st * (C1 - RtoC (Cabs2 gamma)))%C; [ring|]. f_equal. apply C_eq; cbn; ring.
  - cbn [Nat.eqb]. rewrite (csum_ext _ (fun k => (T r (S i) (S k) * nth k (map Conj (rev (lv_a st))) C0)%C) (fun k => (T r i k * nth k (map Conj (rev (lv_a st))) C0)%C)) by (intros k Hk; now rewrite T_shift). rewrite Hrev by lia. destruct (Nat.eqb_spec i j0) as [->|Hij].
    + fold g. transitivity (g + gamma * lv_eps st)%C; [ring|]. rewrite Hg. ring.
    + rewrite Ha by lia. cbn [Nat.eqb]. ring.
Qed.
Lemma inv_1 : nth 0 r C0 <> C0 -> inv 1 {| lv_a := [C1]; lv_x := [Cdiv (nth 0 b C0) (nth 0 r C0)]; lv_eps := nth 0 r C0 |}.
Proof.
  intros H. unfold inv. cbn [lv_a lv_x lv_eps length nth]. repeat split; auto.
  - intros i Hi. replace i with 0%nat by lia. rewrite csum_S, csum_0. cbn [nth Nat.eqb]. rewrite T_eq. cbn [Nat.leb Nat.sub]. rewrite Hr. ring.
  - intros i Hi. replace i with 0%nat by lia. rewrite csum_S, csum_0. cbn [nth]. rewrite T_eq. cbn [Nat.leb Nat.sub]. rewrite Hr. transitivity (Cdiv (nth 0 b C0) (nth 0 r C0) * nth 0 r C0)%C; [ring|]. now apply Cdiv_mul.
Qed.
Lemma run_sound : forall m j st st', (1 <= j)%nat -> inv j st -> foldM (lev_step r b) (seq j m) st = Some st' -> inv (j + m) st'.
Proof.
  induction m as [|m IH]; intros j st st' Hj Hi E; cbn in E. - apply Some_inj in E. subst. now rewrite Nat.add_0_r. - destruct (lev_step r b st j) as [s1|] eqn:E1; [|discriminate]. cbn in E. replace (j + S m)%nat with (S j + m)%nat by lia. eapply IH; eauto. eapply step_sound; eauto.
Qed.
Lemma run_defined : forall n m j st, (1 <= j)%nat -> (j + m <= n)%nat -> (n <= length r)%nat -> inv j st -> regular n (T r) -> exists st', foldM (lev_step r b) (seq j m) st = Some st'.
Proof.
  intros n. induction m as [|m IH]; intros j st Hj Hn Hl Hi Hreg; cbn; [eauto|]. destruct (step_defined n j st) as (s1 & E1); auto; [lia|]. rewrite E1. cbn. apply IH; auto; try lia. eapply step_sound; eauto.
Qed.
End Rec.

(** Whatever the recursion returns solves the system whose matrix is the conjugate of the Hermitian Toeplitz
    matrix with first column r. *)
Theorem C59_sound : forall r b x, Conj (nth 0 r C0) = nth 0 r C0 -> levinson r b = Some x -> length x = length b /\ solves (length b) (toep (map Conj r)) x b.
Proof.
  intros r b x Hr E. unfold levinson in E. destruct r as [|r0 r'] eqn:Er; [discriminate|]. destruct b as [|b0 b'] eqn:Eb; [discriminate|]. rewrite <- Er, <- Eb in *. destruct (C_eq_dec r0 C0) as [|Hne]; [discriminate|].
  assert (N0 : nth 0 r C0 = r0) by (now rewrite Er). assert (B0 : nth 0 b C0 = b0) by (now rewrite Eb). destruct (foldM _ _ _) as [st|] eqn:E1; [|discriminate]. cbn in E. apply Some_inj in E. subst x.
  rewrite <- N0, <- B0 in E1. apply run_sound in E1; auto; [|apply inv_1; auto; congruence]. replace (1 + (length b - 1))%nat with (length b) in E1 by (rewrite Eb; cbn; lia). destruct E1 as (_ & Lx & _ & _ & _ & Hs). split; auto.
Qed.
Print Assumptions C59_sound.
(** It returns whenever no leading principal block is singular. *)
Theorem C59_defined : forall r b, Conj (nth 0 r C0) = nth 0 r C0 -> b <> [] -> (length b <= length r)%nat -> regular (length b) (toep (map Conj r)) -> exists x, levinson r b = Some x.
Proof.
  intros r b Hr Hb Hl Hreg. assert (Lb : (1 <= length b)%nat) by (destruct b; [congruence|cbn; lia]).
  assert (N0 : nth 0 r C0 <> C0). { intros E. assert (Z : nth 0 [C1] C0 = C0). { apply (Hreg 1%nat [C1]); auto. intros i Hi. replace i with 0%nat by lia. rewrite csum_S, csum_0. fold (T r 0 0). rewrite T_eq. cbn [Nat.leb Nat.sub nth]. rewrite E. apply C_eq; cbn; ring. } cbn in Z. assert (fst C1 = fst C0) by congruence. cbn in *. lra. }
  unfold levinson. destruct r as [|r0 r'] eqn:Er; [cbn in Hl; lia|]. destruct b as [|b0 b'] eqn:Eb; [congruence|]. rewrite <- Er, <- Eb in *. assert (M0 : nth 0 r C0 = r0) by (now rewrite Er). assert (B0 : nth 0 b C0 = b0) by (now rewrite Eb). rewrite M0 in N0. destruct (C_eq_dec r0 C0) as [|_]; [congruence|].
  rewrite <- M0, <- B0. rewrite <- M0 in N0. destruct (run_defined r b Hr (length b) (length b - 1) 1 {| lv_a := [C1]; lv_x := [Cdiv (nth 0 b C0) (nth 0 r C0)]; lv_eps := nth 0 r C0 |}) as (st & E); auto; [lia|now apply inv_1|]. rewrite E. cbn. eauto.
Qed.
Print Assumptions C59_defined.

(** ** Real symmetric systems *)
Definition rtoep (r : vec) (i k : nat) : R := nth (if (k <=? i)%nat then i - k else k - i) r 0.
Definition isr (z : C) : Prop := snd z = 0.
Lemma isr_add : forall a b, isr a -> isr b -> isr (a + b)%C. Proof. unfold isr. intros a b Ha Hb. cbn. rewrite Ha, Hb. ring. Qed.
Lemma isr_mul : forall a b, isr a -> isr b -> isr (a * b)%C. Proof. unfold isr. intros a b Ha Hb. cbn. rewrite Ha, Hb. ring. Qed.
Lemma isr_sub : forall a b, isr a -> isr b -> isr (a - b)%C. Proof. unfold isr. intros a b Ha Hb. cbn. rewrite Ha, Hb. ring. Qed.
Lemma isr_opp : forall a, isr a -> isr (- a)%C. Proof. unfold isr. intros a Ha. cbn. rewrite Ha. ring. Qed.
Lemma isr_conj : forall a, isr a -> isr (Conj a). Proof. unfold isr. intros a Ha. cbn. rewrite Ha. ring. Qed.
Lemma isr_div : forall a b, isr a -> isr b -> isr (Cdiv a b). Proof. unfold isr. intros a b Ha Hb. cbn. rewrite Ha, Hb. ring. Qed.
Lemma isr_0 : isr C0. Proof. reflexivity. Qed.
Lemma isr_Csum : forall l, Forall isr l -> isr (Csum l). Proof. induction 1; [reflexivity|]. now apply isr_add. Qed.
Lemma Forall_map2 : forall {A B D} (f : A -> B -> D) (P : A -> Prop) (Q : B -> Prop) (W : D -> Prop), (forall a b, P a -> Q b -> W (f a b)) -> forall l1 l2, Forall P l1 -> Forall Q l2 -> Forall W (map2 f l1 l2).
Proof. intros A B D f P Q W H. induction l1 as [|a l1 IH]; intros [|b l2] H1 H2; cbn; auto. inversion H1; inversion H2; subst. constructor; auto. Qed.
Lemma Forall_rev' : forall {A} (P : A -> Prop) l, Forall P l -> Forall P (rev l).
Proof. intros A P l H. apply Forall_forall. intros x Hx. rewrite Forall_forall in H. apply H. now apply in_rev. Qed.
Lemma Forall_map' : forall {A B} (f : A -> B) (P : A -> Prop) (Q : B -> Prop) l, (forall a, P a -> Q (f a)) -> Forall P l -> Forall Q (map f l).
Proof. intros A B f P Q l H. induction 1; cbn; auto. Qed.
Lemma step_real : forall r b st j st', Forall isr r -> Forall isr b -> Forall isr (lv_a st) -> Forall isr (lv_x st) -> isr (lv_eps st) -> lev_step r b st j = Some st' ->
  Forall isr (lv_a st') /\ Forall isr (lv_x st') /\ isr (lv_eps st').
Proof.
  intros r b st j st' Hr Hb Ha Hx He E. unfold lev_step in E. destruct (negb _); [discriminate|]. set (rj := firstn j (skipn 1 r)) in *. assert (Hrj : Forall isr rj). { unfold rj. apply Forall_forall. intros z Hz. rewrite Forall_forall in Hr. apply Hr. rewrite <- (firstn_skipn 1 r). apply in_or_app. right. rewrite <- (firstn_skipn j (skipn 1 r)). apply in_or_app. now left. }
  set (g := Csum (map2 _ rj (rev (lv_a st)))) in *. assert (Hg : isr g). { apply isr_Csum. eapply Forall_map2; [|exact Hrj|apply Forall_rev'; exact Ha]. intros u v Hu Hv. apply isr_mul; auto. now apply isr_conj. }
  destruct (C_eq_dec _ _); [discriminate|]. set (gamma := Copp (Cdiv g (lv_eps st))) in *. assert (Hga : isr gamma) by (now apply isr_opp, isr_div).
  set (a' := map2 Cadd _ _) in *. assert (Ha' : Forall isr a'). { eapply Forall_map2; [apply isr_add| |]. - apply Forall_app. split; auto using isr_0. - apply Forall_map' with isr; [intros; now apply isr_mul|]. constructor; [reflexivity|]. apply Forall_map' with isr; [apply isr_conj|]. now apply Forall_rev'. }
  set (e' := (lv_eps st * RtoC _)%C) in *. assert (He' : isr e') by (apply isr_mul; auto; reflexivity). set (delta := Csum (map2 _ rj (rev (lv_x st)))) in *. assert (Hd : isr delta). { apply isr_Csum. eapply Forall_map2; [|exact Hrj|apply Forall_rev'; exact Hx]. intros u v Hu Hv. apply isr_mul; auto. now apply isr_conj. }
  destruct (C_eq_dec _ _); [discriminate|]. set (q := Cdiv _ e') in *. assert (Hq : isr q). { apply isr_div; auto. apply isr_sub; auto. destruct (Nat.lt_ge_cases j (length b)); [|rewrite nth_overflow by auto; reflexivity]. rewrite Forall_forall in Hb. apply Hb. now apply nth_In. }
  apply Some_inj in E. subst st'. cbn [lv_a lv_x lv_eps]. repeat split; auto. eapply Forall_map2; [apply isr_add| |]. - apply Forall_app. split; auto using isr_0. - apply Forall_map' with isr; [intros; now apply isr_mul|]. apply Forall_map' with isr; [apply isr_conj|]. now apply Forall_rev'.
Qed.
Lemma run_real : forall r b, Forall isr r -> Forall isr b -> forall js st st', Forall isr (lv_a st) -> Forall isr (lv_x st) -> isr (lv_eps st) -> foldM (lev_step r b) js st = Some st' -> Forall isr (lv_x st').
Proof.
  intros r b Hr Hb. induction js as [|j js IH]; intros st st' Ha Hx He E; cbn in E. - apply Some_inj in E. now subst. - destruct (lev_step r b st j) as [s1|] eqn:E1; [|discriminate]. cbn in E. destruct (step_real r b st j s1) as (A & B & D); auto. eapply IH; eauto.
Qed.
Lemma lev_real : forall r b x, levinson (map RtoC r) (map RtoC b) = Some x -> Forall isr x.
Proof.
  assert (R : forall l, Forall isr (map RtoC l)). { induction l; constructor; auto. reflexivity. }
  intros r b x E. unfold levinson in E. pose proof (R r) as Hr. pose proof (R b) as Hb. destruct (map RtoC r) as [|r0 r'] eqn:Er; [discriminate|]. destruct (map RtoC b) as [|b0 b'] eqn:Eb; [discriminate|]. destruct (C_eq_dec r0 C0); [discriminate|]. destruct (foldM _ _ _) as [st|] eqn:E1; [|discriminate]. cbn in E. apply Some_inj in E. subst x. eapply run_real; [| | | | |exact E1]; auto; cbn [lv_a lv_x lv_eps].
  - constructor; [reflexivity|constructor].
  - constructor; [|constructor]. apply isr_div; [now inversion Hb|now inversion Hr].
  - now inversion Hr.
Qed.
Lemma nth_RtoC : forall l i, nth i (map RtoC l) C0 = RtoC (nth i l 0).
Proof. intros. change C0 with (RtoC 0). apply map_nth. Qed.
Lemma T_real : forall r i k, toep (map Conj (map RtoC r)) i k = RtoC (rtoep r i k).
Proof. intros r i k. fold (T (map RtoC r) i k). rewrite T_eq, !nth_RtoC, Conj_RtoC. unfold rtoep. destruct (k <=? i)%nat; reflexivity. Qed.
Theorem C59_real : forall r b x, levinson (map RtoC r) (map RtoC b) = Some x -> exists y, x = map RtoC y /\ length y = length b /\
  forall i, (i < length b)%nat -> bsum (length b) (fun k => rtoep r i k * nth k y 0) = nth i b 0.
Proof.
  intros r b x E. assert (Hx : Forall isr x) by (eapply lev_real; eauto). assert (Ex : x = map RtoC (map fst x)). { clear E. induction Hx as [|z l Hz _ IH]; auto. cbn [map]. rewrite <- IH. f_equal. apply C_eq; auto. } exists (map fst x). split; auto.
  apply C59_sound in E; [|now rewrite nth_RtoC, Conj_RtoC]. rewrite map_length in E. destruct E as [Lx Hs]. split; [rewrite map_length; auto|]. intros i Hi. specialize (Hs i Hi). rewrite Ex in Hs. rewrite nth_RtoC in Hs. rewrite (csum_ext _ _ (fun k => RtoC (rtoep r i k * nth k (map fst x) 0))) in Hs by (intros k Hk; now rewrite nth_RtoC, T_real, RtoC_mul). rewrite csum_RtoC in Hs. now inversion Hs.
Qed.
Print Assumptions C59_real.
(** Positive definite systems are always solved. *)
Definition posdef (n : nat) (r : vec) : Prop := forall v : nat -> R, (exists i, (i < n)%nat /\ v i <> 0) -> 0 < bsum n (fun i => v i * bsum n (fun k => rtoep r i k * v k)).
Lemma posdef_regular : forall n r, posdef n r -> regular n (toep (map Conj (map RtoC r))).
Proof.
  intros n r P m v Hm Lv Hz. assert (G : forall f : C -> R, (forall a z, f (RtoC a * z)%C = a * f z) -> (forall k g, f (csum k g) = bsum k (fun i => f (g i))) -> f C0 = 0 -> forall i, f (nth i v C0) = 0).
  { intros f F1 F2 F3. assert (Z : forall i, (i < m)%nat -> bsum m (fun k => rtoep r i k * f (nth k v C0)) = 0). { intros i Hi. specialize (Hz i Hi). apply (f_equal f) in Hz. rewrite F2, F3 in Hz. rewrite <- Hz. apply bsum_ext. intros k Hk. now rewrite T_real, F1. }
    intros i. destruct (Nat.lt_ge_cases i m) as [Hi|Hi]; [|rewrite nth_overflow by lia; auto]. destruct (Req_dec (f (nth i v C0)) 0) as [|Hne]; auto. exfalso.
    assert (Q := P (fun i => f (nth i v C0)) (ex_intro _ i (conj (Nat.lt_le_trans _ _ _ Hi (proj2 Hm)) Hne))). cbv beta in Q.
    rewrite bsum_trunc with (n := m) in Q; [|lia|intros j Hj; rewrite (nth_overflow v) by lia; rewrite F3; ring]. rewrite (bsum_zero_ext m) in Q; [lra|]. intros j Hj. rewrite bsum_trunc with (n := m); [|lia|intros k Hk; rewrite (nth_overflow v) by lia; rewrite F3; ring]. rewrite Z by auto. ring. }
  intros i. apply C_eq; [apply (G fst)|apply (G snd)]; try reflexivity; intros; cbn; ring.
Qed.
Theorem C59_posdef : forall r b, b <> [] -> (length b <= length r)%nat -> posdef (length b) r -> exists y, levinson (map RtoC r) (map RtoC b) = Some (map RtoC y) /\ length y = length b /\
  forall i, (i < length b)%nat -> bsum (length b) (fun k => rtoep r i k * nth k y 0) = nth i b 0.
Proof.
  intros r b Hb Hl P. destruct (C59_defined (map RtoC r) (map RtoC b)) as (x & E); [now rewrite nth_RtoC, Conj_RtoC|destruct b; [congruence|discriminate]|now rewrite !map_length|rewrite map_length; now apply posdef_regular|]. destruct (C59_real r b x E) as (y & -> & Ly & Hy). eauto.
Qed.
Print Assumptions C59_posdef.
(** With a complex first column the documented system is not the one solved. *)
Theorem C59_complex_refuted : exists r b x, Conj (nth 0 r C0) = nth 0 r C0 /\ levinson r b = Some x /\ ~ solves (length b) (toep r) x b.
Proof.
  exists [RtoC 2; (0, 1)%R], [C1; C0]. assert (D : exists x, levinson [RtoC 2; (0, 1)%R] [C1; C0] = Some x).
  { apply C59_defined; [apply C_eq; cbn; ring|congruence|cbn; lia|]. intros m v Hm Lv Hz. assert (m = 1 \/ m = 2)%nat as [->| ->] by (cbn in Hm; lia).
    - destruct v as [|v0 [|]]; try discriminate. specialize (Hz 0%nat ltac:(lia)). rewrite csum_S, csum_0 in Hz. unfold toep in Hz. cbn in Hz. injection Hz as H1 H2. intros [|[|i]]; auto. cbn. apply C_eq; cbn; lra.
    - destruct v as [|[a0 b0] [|[a1 b1] [|]]]; try discriminate. pose proof (Hz 0%nat ltac:(lia)) as H0. pose proof (Hz 1%nat ltac:(lia)) as H1. rewrite !csum_S, csum_0 in H0, H1. unfold toep in H0, H1. cbn in H0, H1. injection H0 as A1 A2. injection H1 as A3 A4. intros [|[|[|i]]]; auto; cbn; apply C_eq; cbn; lra. }
  destruct D as (x & E). exists x. split; [apply C_eq; cbn; ring|]. split; auto. intros Hs. destruct (C59_sound [RtoC 2; (0, 1)%R] [C1; C0] x ltac:(apply C_eq; cbn; ring) E) as [Lx Hs']. cbn [length] in *. destruct x as [|[a0 b0] [|[a1 b1] [|]]]; try discriminate.
  pose proof (Hs 0%nat ltac:(lia)) as H0. pose proof (Hs 1%nat ltac:(lia)) as H1. pose proof (Hs' 0%nat ltac:(lia)) as H2. pose proof (Hs' 1%nat ltac:(lia)) as H3. rewrite !csum_S, csum_0 in H0, H1, H2, H3. unfold toep in H0, H1, H2, H3. cbn in H0, H1, H2, H3. injection H0 as A1 A2. injection H1 as A3 A4. injection H2 as A5 A6. injection H3 as A7 A8. lra.
Qed.
Print Assumptions C59_complex_refuted.
Example C59_case : exists y, levinson (map RtoC [2; 1]) (map RtoC [4; 5]) = Some (map RtoC y) /\ y = [1; 2].
Proof.
  destruct (C59_posdef [2; 1] [4; 5]) as (y & E & Ly & Hy); [congruence|cbn; lia| |].
  - intros v (i & Hi & Hne). cbn [length bsum]. unfold rtoep. cbn -[Rmult Rplus]. assert (0 < v i * v i) by nra. assert (i = 0 \/ i = 1)%nat as [->| ->] by (cbn in Hi; lia); nra.
  - exists y. split; auto. destruct y as [|u [|w [|]]]; try discriminate. pose proof (Hy 0%nat ltac:(cbn; lia)) as H0. pose proof (Hy 1%nat ltac:(cbn; lia)) as H1. cbn [length bsum] in H0, H1. unfold rtoep in H0, H1. cbn in H0, H1. f_equal; [lra|f_equal; lra].
Qed.
