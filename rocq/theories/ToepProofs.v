From Coq Require Import List ZArith Lia Reals Lra Bool.
From Verif Require Import Base BaseProofs Vec Sum Cpx DftModel DftProofs RlsModel RlsProofs ToepModel ToepSpec.
Import ListNotations.
Local Open Scope R_scope.

Lemma fft_length_ge : forall k, (1 <= k)%nat -> (k <= fft_length k)%nat.
Proof.
  intros k H. unfold fft_length. destruct (Nat.eq_dec k 1) as [-> | N]; [cbn; lia|]. apply Nat.log2_up_spec. lia.
Qed.
Lemma nth_tl : forall (r : vec) i, nth i (tl r) 0 = nth (S i) r 0.
Proof. intros [|] i; [now destruct i|reflexivity]. Qed.
Lemma tl_length : forall (r : vec), length (tl r) = (length r - 1)%nat.
Proof. intros [|]; cbn; lia. Qed.
Lemma nth_column : forall n A q i, (i < n)%nat -> nth i (column n A q) 0 = entry A i q.
Proof. intros. unfold column. now rewrite nth_map_seq. Qed.
Lemma column_length : forall n A q, length (column n A q) = n.
Proof. intros. unfold column. now rewrite map_length, seq_length. Qed.
(** The wrapped vector holds the Toeplitz entries. *)
Lemma wrapped_entry : forall (c r : vec) N i j, let m := length c in let n := length r in
  (m + n - 1 <= N)%nat -> (i < m)%nat -> (j < n)%nat ->
  nth ((i + (N - j)) mod N) (c ++ repeat 0 (N + 1 - m - n) ++ rev (tl r)) 0 = toeplitz c r i j.
Proof.
  intros c r N i j m n HN Hi Hj. unfold toeplitz. destruct (Nat.leb_spec j i) as [L|L].
  - replace ((i + (N - j)) mod N)%nat with (i - j)%nat.
    + rewrite app_nth1 by (fold m; lia). reflexivity.
    + apply Nat.mod_unique with 1%nat; lia.
  - replace ((i + (N - j)) mod N)%nat with (N - (j - i))%nat.
    + rewrite app_nth2 by (fold m; lia). rewrite app_nth2 by (rewrite repeat_length; fold m; lia).
      rewrite repeat_length. fold m. rewrite rev_nth by (rewrite tl_length; fold n; lia). rewrite tl_length, nth_tl. fold n. f_equal. lia.
    + apply Nat.mod_unique with 0%nat; lia.
Qed.
Lemma toeplitz_ok : forall p c r A, (0 < length c)%nat -> (0 < length r)%nat -> length A = length r ->
  exists y, toeplitz_multiplication p c r A = Some y /\ length y = length c /\
    (forall i, (i < length c)%nat -> length (nth i y []) = p) /\
    forall i q, (i < length c)%nat -> (q < p)%nat -> entry y i q = bsum (length r) (fun j => toeplitz c r i j * entry A j q).
Proof.
  intros p c r A Hc Hr HA. unfold toeplitz_multiplication. rewrite HA, Nat.eqb_refl. cbn [negb]. cbv zeta.
  eexists. split; [reflexivity|]. split; [unfold mk; now rewrite map_length, seq_length|].
  set (m := length c). set (n := length r). set (N := fft_length (m + n - 1)).
  assert (HN : (m + n - 1 <= N)%nat) by (apply fft_length_ge; unfold m, n; lia). split.
  { intros i Hi. unfold mk. set (f := fun i0 => map _ (seq 0 p)). rewrite nth_indep with (d' := f 0%nat) by now rewrite map_length, seq_length.
    rewrite (map_nth f). unfold f. now rewrite map_length, seq_length. }
  intros i q Hi Hq.
  rewrite entry_mk by auto.
  rewrite !map_map.
  match goal with |- nth i (nth q (map ?f (seq 0 p)) []) 0 = _ => rewrite nth_indep with (d' := f 0%nat) by (now rewrite map_length, seq_length); rewrite (map_nth f), seq_nth by auto end.
  rewrite (irfft_product N (column n A q) (c ++ repeat 0 (N + 1 - m - n) ++ rev (tl r))).
  - replace N with (n + (N - n))%nat at 1 by lia. rewrite bsum_split. rewrite (bsum_zero_ext (N - n)).
    + rewrite Rplus_0_r. apply bsum_ext. intros j Hj. rewrite nth_column by auto. unfold m, n. rewrite wrapped_entry by (unfold m, n in *; lia). ring.
    + intros j Hj. rewrite nth_overflow by (rewrite column_length; lia). ring.
  - lia.
  - intros k Hk. match goal with |- nth k (map ?f (seq 0 ?t)) C0 = _ => rewrite nth_indep with (d' := f 0%nat) by (rewrite map_length, seq_length; lia); rewrite (map_nth f), seq_nth by lia end. reflexivity.
Qed.
Lemma hankel_ok : forall p c r A, (0 < length c)%nat -> (0 < length r)%nat -> (length r <= length A)%nat ->
  exists y, hankel_multiplication p c r A = Some y /\ length y = length c /\
    forall i q, (i < length c)%nat -> (q < p)%nat -> entry y i q = bsum (length r) (fun j => hankel_mat c r i j * entry A j q).
Proof.
  intros p c r A Hc Hr HA. unfold hankel_multiplication. cbv zeta.
  destruct (toeplitz_ok p (rev c) r (firstn (length r) A)) as (y & -> & Ly & _ & Ey).
  - now rewrite rev_length.
  - auto.
  - rewrite firstn_length. lia.
  - cbn [bind]. rewrite rev_length in *. eexists. split; [reflexivity|]. split; [now rewrite rev_length|].
    intros i q Hi Hq. unfold entry at 1. rewrite rev_nth by lia. rewrite Ly. fold (entry y (length c - S i) q). rewrite Ey by lia.
    apply bsum_ext. intros j Hj. f_equal.
    + unfold toeplitz, hankel_mat. destruct (Nat.leb_spec j (length c - S i)); destruct (Nat.ltb_spec (i + j) (length c)); try lia.
      * rewrite rev_nth by lia. f_equal. lia.
      * f_equal. lia.
    + unfold entry. f_equal. now rewrite nth_firstn'.
Qed.
Lemma autocorr_ok : forall x, (1 < length x)%nat -> exists y, fast_autocorr x = Some y /\ length y = length x /\
  forall l, (l < length x)%nat -> nth l y 0 = bsum (length x - l) (fun i => nth i x 0 * nth (i + l) x 0) / INR (length x - 1).
Proof.
  intros x Hx. unfold fast_autocorr. set (n := length x) in *. destruct (Nat.eqb_spec n 0); [lia|]. cbv zeta. destruct (Nat.eqb_spec n 1); [lia|].
  eexists. split; [reflexivity|]. split; [rewrite map_length, firstn_length, irfft_length; lia|]. intros l Hl.
  set (N := (2 * n)%nat). rewrite nth_indep with (d' := (fun v => v / INR (n - 1)) 0) by (rewrite map_length, firstn_length, irfft_length; lia).
  rewrite (map_nth (fun v => v / INR (n - 1))). rewrite nth_firstn' by auto. f_equal.
  (* the reversed signal has the conjugate spectrum *)
  set (f := fun j => RtoC (nth j x 0)). set (g := fun j => RtoC (nth ((N - j) mod N) x 0)).
  assert (G : forall k, dft N g k = Conj (dft N f k)).
  { intros k. unfold dft. rewrite csum_conj.
    assert (HN : (0 < N)%nat) by (unfold N; lia).
    apply (csum_perm N _ _ (fun j => ((N - j) mod N)%nat) (fun j => ((N - j) mod N)%nat)).
    - intros i Hi. split; [apply Nat.mod_upper_bound; lia|]. destruct (Nat.eq_dec i 0) as [-> | Q].
      + rewrite Nat.sub_0_r, Nat.mod_same, Nat.sub_0_r, Nat.mod_same by lia. reflexivity.
      + rewrite (Nat.mod_small (N - i)) by lia. replace (N - (N - i))%nat with i by lia. apply Nat.mod_small. lia.
    - intros i Hi. split; [apply Nat.mod_upper_bound; lia|]. destruct (Nat.eq_dec i 0) as [-> | Q].
      + rewrite Nat.sub_0_r, Nat.mod_same, Nat.sub_0_r, Nat.mod_same by lia. reflexivity.
      + rewrite (Nat.mod_small (N - i)) by lia. replace (N - (N - i))%nat with i by lia. apply Nat.mod_small. lia.
    - intros i Hi. unfold g, f. rewrite Conj_mul, Conj_RtoC. f_equal. rewrite <- omega_opp. rewrite <- omega_mod by lia. rewrite <- (omega_mod N (- - _)) by lia. f_equal.
      destruct (Nat.eq_dec i 0) as [-> | Q].
      + rewrite Nat.sub_0_r, Nat.mod_same by lia. reflexivity.
      + rewrite Nat.mod_small by lia. replace (- - Z.of_nat ((N - i) * k))%Z with (- Z.of_nat (i * k) + Z.of_nat k * Z.of_nat N)%Z by nia. now rewrite Z.mod_add by lia. }
  rewrite (irfft_idft N _ (fun k => (dft N f k * dft N g k)%C)).
  - rewrite idft_conv by (unfold N; lia). rewrite fst_csum. replace N with (l + ((n - l) + n))%nat at 1 by (unfold N; lia).
    rewrite bsum_split, bsum_split. rewrite (bsum_zero_ext l), (bsum_zero_ext n).
    + rewrite Rplus_0_r, Rplus_0_l. apply bsum_ext. intros i Hi. unfold f, g. cbn [fst snd RtoC Cmul].
      assert (E : ((N - (l + (N - (l + i))) mod N) mod N = i)%nat).
      { replace (l + (N - (l + i)))%nat with (N - i)%nat by (unfold N in *; lia). destruct (Nat.eq_dec i 0) as [-> | Q].
        - rewrite Nat.sub_0_r, Nat.mod_same, Nat.sub_0_r, Nat.mod_same by (unfold N; lia). reflexivity.
        - rewrite (Nat.mod_small (N - i)) by (unfold N in *; lia). replace (N - (N - i))%nat with i by (unfold N in *; lia). apply Nat.mod_small. unfold N; lia. }
      rewrite E. rewrite (Nat.add_comm l i). cbn [fst snd RtoC]; ring.
    + intros i Hi. unfold f. rewrite nth_overflow by (fold n; lia). cbn [fst snd RtoC Cmul]. ring.
    + intros i Hi. unfold f, g.
      assert (E : ((N - (l + (N - i)) mod N) mod N = N - (l - i))%nat).
      { replace ((l + (N - i)) mod N)%nat with (l - i)%nat by (apply Nat.mod_unique with 1%nat; unfold N; lia). apply Nat.mod_small. unfold N; lia. }
      rewrite E. rewrite (nth_overflow x 0 (n := N - (l - i))) by (fold n; unfold N; lia). cbn [fst snd RtoC Cmul]. ring.
  - unfold N; lia.
  - apply hermitian_mul; [apply (dft_hermitian N (fun j => nth j x 0))|apply (dft_hermitian N (fun j => nth ((N - j) mod N) x 0))].
  - intros k Hk. rewrite nth_indep with (d' := (fun z => RtoC (Cabs2 z)) C0) by (rewrite map_length, rfft_length; fold N; lia).
    rewrite (map_nth (fun z => RtoC (Cabs2 z))). rewrite nth_rfft by auto. fold f. rewrite G, Cmul_conj. reflexivity.
Qed.

(** ** Circulant approximations *)
Lemma circulant_is : forall c, is_circulant (length c) (circulant c).
Proof. intros c. exists (fun k => nth k c 0). intros. reflexivity. Qed.
Lemma strang_ok : forall r, (1 < length r)%nat -> exists c, strang_circ r = Some c /\ length c = length r /\
  forall k, (k < length r)%nat -> nth k c 0 = nth (if (2 * k <=? length r)%nat then k else (length r - k)%nat) r 0.
Proof.
  intros r Hr. unfold strang_circ, assign_tail. set (n := length r) in *. cbv zeta.
  set (m := if Nat.eqb (n mod 2) 0 then (n / 2)%nat else ((n - 1) / 2)%nat).
  assert (Hm : (2 * m = n \/ 2 * m + 1 = n)%nat).
  { unfold m. pose proof (Nat.div_mod n 2 ltac:(lia)). destruct (Nat.eqb_spec (n mod 2) 0) as [E|E]; [left; lia|right].
    assert (n mod 2 = 1)%nat by (pose proof (Nat.mod_upper_bound n 2); lia).
    replace ((n - 1) / 2)%nat with (n / 2)%nat; [lia|]. apply Nat.div_unique with 0%nat; lia. }
  assert (Lv : length (rev (firstn m (tl r))) = m) by (rewrite rev_length, firstn_length, tl_length; fold n; lia).
  destruct (Nat.eqb_spec m 0); [lia|]. rewrite Lv, Nat.eqb_refl. eexists. split; [reflexivity|].
  assert (Lf : length (firstn (n - m) r) = (n - m)%nat) by (rewrite firstn_length; fold n; lia).
  split; [rewrite app_length, Lf, Lv; lia|]. intros k Hk. destruct (Nat.lt_ge_cases k (n - m)) as [L|L].
  - rewrite app_nth1 by lia. rewrite nth_firstn' by auto. destruct (Nat.leb_spec (2 * k) n); [reflexivity|lia].
  - rewrite app_nth2 by lia. rewrite Lf. rewrite rev_nth by (rewrite rev_length in Lv; lia). rewrite rev_length in Lv. rewrite Lv. rewrite nth_firstn' by lia. rewrite nth_tl.
    replace (S (m - S (k - (n - m))))%nat with (n - k)%nat by lia. destruct (Nat.leb_spec (2 * k) n); [|reflexivity]. f_equal. lia.
Qed.
Lemma strang_one : forall a, strang_circ [a] = None.
Proof. reflexivity. Qed.

Lemma opt_ok : forall r, let n := length r in length (opt_circ r) = n /\
  forall k, (k < n)%nat -> nth k (opt_circ r) 0 = ((INR (n - k)) * nth k r 0 + INR k * nth (n - k) r 0) / INR n.
Proof.
  intros r n. unfold opt_circ. cbv zeta. fold n. set (c := map _ (seq 0 n)).
  assert (Lc : length c = n) by (unfold c; now rewrite map_length, seq_length).
  assert (Ec : forall k, (k < n)%nat -> nth k c 0 = (INR (n - k) * nth k r 0 + INR k * nth (n - k) r 0) / INR n).
  { intros k Hk. unfold c. rewrite nth_map_seq by auto. f_equal. rewrite Rplus_comm. f_equal.
    destruct k as [|k]; [cbn [nth INR]; ring|]. cbn [nth]. rewrite rev_nth by (rewrite tl_length; fold n; lia). rewrite tl_length, nth_tl. fold n. f_equal. f_equal. lia. }
  split.
  - destruct c as [|c0 c']; [exact Lc|]. cbn [length tl] in *. now rewrite rev_length.
  - intros k Hk. destruct c as [|c0 c'] eqn:Q; [cbn in Lc; lia|]. rewrite <- Q in *. destruct k as [|k].
    + cbn [nth]. specialize (Ec 0%nat Hk). rewrite Q in Ec. cbn [nth] in Ec. exact Ec.
    + cbn [nth]. assert (length (tl c) = (n - 1)%nat) by (rewrite tl_length; lia). rewrite rev_nth by lia. rewrite nth_tl. rewrite H. replace (S (n - 1 - S k))%nat with (n - S k)%nat by lia.
      rewrite Ec by lia. replace (n - (n - S k))%nat with (S k) by lia. f_equal. ring.
Qed.
(** Frobenius distance, diagonal by diagonal. *)
Lemma frob_diagonals : forall n (M T : nat -> nat -> R) d, (0 < n)%nat -> (forall i j, (i < n)%nat -> (j < n)%nat -> M i j = d ((i + (n - j)) mod n)%nat) ->
  frob2 n M T = bsum n (fun k => bsum n (fun j => (d k - T ((k + j) mod n)%nat j) * (d k - T ((k + j) mod n)%nat j))).
Proof.
  intros n M T d Hn HM. unfold frob2. rewrite bsum_swap. symmetry. rewrite bsum_swap. symmetry. apply bsum_ext. intros j Hj.
  rewrite <- (bsum_mod n j) by auto. apply bsum_ext. intros k Hk. cbv beta.
  assert (Q : ((k + j) mod n < n)%nat) by (apply Nat.mod_upper_bound; lia). rewrite HM by auto.
  replace (((k + j) mod n + (n - j)) mod n)%nat with k; [reflexivity|].
  rewrite Nat.add_mod_idemp_l by lia. replace (k + j + (n - j))%nat with (k + 1 * n)%nat by lia. rewrite Nat.mod_add by lia. symmetry. now apply Nat.mod_small.
Qed.
Lemma opt_best : forall r M, let n := length r in (0 < n)%nat -> is_circulant n M ->
  frob2 n M (toeplitz r r) = frob2 n (circulant (opt_circ r)) (toeplitz r r) + frob2 n M (circulant (opt_circ r)).
Proof.
  intros r M n Hn (d & Hd). set (c := opt_circ r). destruct (opt_ok r) as (Lc & Ec). fold n c in Lc, Ec.
  rewrite (frob_diagonals n M _ d Hn Hd), (frob_diagonals n M _ d Hn Hd).
  rewrite (frob_diagonals n (circulant c) _ (fun k => nth k c 0) Hn) by (intros; unfold circulant; now rewrite Lc).
  rewrite <- bsum_plus. apply bsum_ext. intros k Hk. rewrite <- bsum_plus.
  assert (Cc : forall j, (j < n)%nat -> circulant c ((k + j) mod n) j = nth k c 0).
  { intros j Hj. unfold circulant. rewrite Lc. f_equal. rewrite Nat.add_mod_idemp_l by lia. replace (k + j + (n - j))%nat with (k + 1 * n)%nat by lia. rewrite Nat.mod_add by lia. now apply Nat.mod_small. }
  set (t := fun j => toeplitz r r ((k + j) mod n) j).
  assert (St : bsum n t = INR n * nth k c 0).
  { rewrite Ec by auto. replace n with ((n - k) + k)%nat at 1 by lia. rewrite bsum_split.
    rewrite (bsum_ext (n - k) t (fun _ => nth k r 0)), (bsum_ext k _ (fun _ => nth (n - k) r 0)).
    - rewrite !bsum_const. field. apply not_0_INR. lia.
    - intros j Hj. unfold t, toeplitz. replace ((k + (n - k + j)) mod n)%nat with j by (apply Nat.mod_unique with 1%nat; lia). destruct (Nat.leb_spec (n - k + j) j); [lia|]. f_equal. lia.
    - intros j Hj. unfold t, toeplitz. rewrite Nat.mod_small by lia. destruct (Nat.leb_spec j (k + j)); [|lia]. f_equal. lia. }
  rewrite (bsum_ext n (fun j => (d k - toeplitz r r ((k + j) mod n) j) * (d k - toeplitz r r ((k + j) mod n) j)) (fun j => (d k * d k - 2 * d k * t j) + t j * t j)) by (intros; unfold t; ring).
  symmetry. erewrite (bsum_ext n _ (fun j => (nth k c 0 * nth k c 0 + (d k - nth k c 0) * (d k - nth k c 0) - 2 * nth k c 0 * t j) + t j * t j)).
  2:{ intros j Hj. cbv beta. rewrite Cc by auto. unfold t. ring. }
  rewrite !bsum_plus. f_equal. rewrite !bsum_minus, !bsum_scal, !bsum_const, St. ring.
Qed.
Lemma frob_pos : forall n A B, 0 <= frob2 n A B.
Proof. intros. unfold frob2. apply bsum_nonneg. intros. apply bsum_nonneg. intros. apply Rle_0_sqr. Qed.
