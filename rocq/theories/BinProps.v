From Coq Require Import List ZArith Lia Reals Lra Bool Sorting.Sorted.
From Verif Require Import Base Sum Cpx ModeModel BandsModel DoaModel AntoniProofs BaseProofs.
Import ListNotations.
Local Open Scope R_scope.

(** the frequency of a bin *)
Definition bin_hz (fs : R) (nfft k : nat) : R := INR k * fs / INR nfft.

(** Bins given by the user: those from 0 to nfft/2, in the given sequence. *)
Theorem C103_given : forall fs nfft n_mics shape range l hz bins, select_bins fs nfft n_mics shape range (Some l) hz = Some bins ->
  shape = (n_mics, (nfft / 2 + 1)%nat) /\ bins = map Z.to_nat (filter (fun k => (0 <=? k) && (k <=? Z.of_nat (nfft / 2)))%Z l).
Proof.
  intros fs nfft n_mics [a b] range l hz bins H. unfold select_bins in H. cbn [fst snd] in H. destruct (Nat.eqb_spec a n_mics) as [->|]; [|discriminate]. destruct (Nat.eqb_spec b (nfft / 2 + 1)) as [->|]; [|discriminate]. cbn [negb bind] in H. split; [reflexivity|].
  apply (f_equal (fun o => match o with Some x => x | None => bins end)) in H. cbv beta iota in H. subst bins. f_equal. clear. set (h := (nfft / 2)%nat). clearbody h.
  induction l as [|k l IH]; [reflexivity|]. cbn [filter]. destruct (Z.ltb_spec k (Z.of_nat (h + 1))), (Z.leb_spec k (Z.of_nat h)); try lia; cbn [filter]; destruct (Z.leb_spec 0 k); cbn [andb]; try lia; now rewrite ?IH.
Qed.
(** A frequency range [f0, f1]: every bin whose frequency lies inside the range by more than half a bin is used, no bin is
    used twice, and the bins used lie at most half a bin outside. *)
Theorem C103_range : forall fs nfft n_mics shape f0 f1 bins, 0 < fs -> (0 < nfft)%nat -> select_bins fs nfft n_mics shape (f0, f1) None None = Some bins ->
  shape = (n_mics, (nfft / 2 + 1)%nat) /\ StronglySorted lt bins /\
  let half := fs / INR nfft / 2 in forall k,
  (In k bins -> (k <= nfft / 2)%nat /\ f0 - half <= bin_hz fs nfft k <= f1 - half) /\
  ((k <= nfft / 2)%nat -> f0 + half <= bin_hz fs nfft k < f1 - half -> In k bins).
Proof.
  intros fs nfft n_mics [a b] f0 f1 bins Hfs Hn H. unfold select_bins in H. cbn [fst snd] in H. destruct (Nat.eqb_spec a n_mics) as [->|]; [|discriminate]. destruct (Nat.eqb_spec b (nfft / 2 + 1)) as [->|]; [|discriminate]. cbn [negb bind] in H. split; [reflexivity|].
  apply (f_equal (fun o => match o with Some x => x | None => bins end)) in H. cbv beta iota zeta in H.
  set (h := (nfft / 2)%nat) in *. set (lo := rint (f0 / fs * INR nfft)) in *. set (hi := rint (f1 / fs * INR nfft)) in *.
  assert (HI : forall k, In k bins <-> (k <= h)%nat /\ (lo <= Z.of_nat k < hi)%Z).
  { intros k. rewrite <- H, in_map_iff. split.
    - intros (z & <- & I). apply filter_In in I. destruct I as [I I0]. apply filter_In in I. destruct I as [I I1]. apply in_map_iff in I. destruct I as (i & <- & I). apply in_seq in I. apply Z.leb_le in I0. apply Z.ltb_lt in I1. lia.
    - intros [K1 K2]. exists (Z.of_nat k). split; [apply Nat2Z.id|]. apply filter_In. split; [|apply Z.leb_le; lia]. apply filter_In. split; [|apply Z.ltb_lt; lia]. apply in_map_iff. exists (Z.to_nat (Z.of_nat k - lo)). split; [lia|]. apply in_seq. lia. }
  split.
  - rewrite <- H. clear. set (n := Z.to_nat (hi - lo)). clearbody n.
    assert (G : forall n i0, StronglySorted lt (map Z.to_nat (filter (fun k => (0 <=? k)%Z) (filter (fun k => (k <? Z.of_nat (h + 1))%Z) (map (fun i => (lo + Z.of_nat i)%Z) (seq i0 n))))) /\
      Forall (fun k => (lo + Z.of_nat i0 <= Z.of_nat k)%Z) (map Z.to_nat (filter (fun k => (0 <=? k)%Z) (filter (fun k => (k <? Z.of_nat (h + 1))%Z) (map (fun i => (lo + Z.of_nat i)%Z) (seq i0 n)))))).
    { clear n. induction n as [|n IH]; intros i0; [split; constructor|]. cbn [seq map filter]. destruct (IH (S i0)) as [I1 I2].
      assert (I3 : Forall (fun k => (lo + Z.of_nat i0 <= Z.of_nat k)%Z) (map Z.to_nat (filter (fun k => (0 <=? k)%Z) (filter (fun k => (k <? Z.of_nat (h + 1))%Z) (map (fun i => (lo + Z.of_nat i)%Z) (seq (S i0) n)))))) by (eapply Forall_impl; [|exact I2]; intros k Hk; cbv beta in *; lia).
      destruct (_ <? _)%Z; [|auto]. cbn [filter]. destruct (Z.leb_spec 0 (lo + Z.of_nat i0)) as [L|L]; [|auto]. cbn [map]. split; [|constructor; [lia|exact I3]].
      constructor; [exact I1|]. eapply Forall_impl; [|exact I2]. intros k Hk. cbv beta in *. lia. }
    apply G.
  - intros half k. rewrite HI. assert (PN : 0 < INR nfft) by now apply lt_0_INR.
    pose proof (rint_err (f0 / fs * INR nfft)) as R0. pose proof (rint_err (f1 / fs * INR nfft)) as R1. fold lo in R0. fold hi in R1.
    assert (S : forall x y, x <= y -> x * (fs / INR nfft) <= y * (fs / INR nfft)) by (intros; apply Rmult_le_compat_r; [left; now apply Rdiv_lt_0_compat|assumption]).
    assert (E0 : f0 / fs * INR nfft * (fs / INR nfft) = f0) by (field; split; lra). assert (E1 : f1 / fs * INR nfft * (fs / INR nfft) = f1) by (field; split; lra).
    assert (Ek : bin_hz fs nfft k = INR k * (fs / INR nfft)) by (unfold bin_hz, Rdiv; ring).
    split.
    + intros [K1 [K2 K3]]. split; [assumption|]. apply IZR_le in K2. assert (K4 : IZR (Z.of_nat k) + 1 <= IZR hi) by (rewrite <- plus_IZR; apply IZR_le; lia). rewrite <- INR_IZR_INZ in *. rewrite Ek. split.
      * assert (Q : f0 / fs * INR nfft - / 2 <= INR k) by lra. apply S in Q. rewrite Rmult_minus_distr_r, E0 in Q. unfold half. lra.
      * assert (Q : INR k <= f1 / fs * INR nfft - / 2) by lra. apply S in Q. rewrite Rmult_minus_distr_r, E1 in Q. unfold half. lra.
    + intros K1 [K2 K3]. split; [assumption|]. rewrite Ek in *. split.
      * apply le_IZR. rewrite <- INR_IZR_INZ. destruct (Rle_lt_dec (IZR lo) (INR k)) as [|N]; [assumption|]. exfalso. assert (Q : INR k < f0 / fs * INR nfft + / 2) by lra.
        apply (Rmult_lt_compat_r (fs / INR nfft)) in Q; [|now apply Rdiv_lt_0_compat]. rewrite Rmult_plus_distr_r, E0 in Q. unfold half in K2. lra.
      * apply lt_IZR. rewrite <- INR_IZR_INZ. destruct (Rlt_le_dec (INR k) (IZR hi)) as [|N]; [assumption|]. exfalso. assert (Q : f1 / fs * INR nfft - / 2 <= INR k) by lra. apply S in Q. rewrite Rmult_minus_distr_r, E1 in Q. unfold half in K3. lra.
Qed.
(** Frequencies in Hz cannot be given. *)
Theorem C103_hz_refuted : exists hz, hz <> [] /\ forall fs nfft n_mics shape range, select_bins fs nfft n_mics shape range None (Some hz) = None.
Proof. exists [1000]. split; [discriminate|]. intros. unfold select_bins. destruct (negb _); [reflexivity|]. destruct (negb _); reflexivity. Qed.
Example C103_ex : select_bins 16000 8 2 (2%nat, 5%nat) (500, 4000) (Some [3; -1; 9; 0]%Z) None = Some [3; 0]%nat /\
  exists bins, select_bins 16000 8 2 (2%nat, 5%nat) (500, 7000) None None = Some bins /\ In 1%nat bins.
Proof.
  split; [reflexivity|]. unfold select_bins. cbn [fst snd]. eexists. split; [reflexivity|].
  destruct (C103_range 16000 8 2 (2%nat, 5%nat) 500 7000 _ ltac:(lra) ltac:(lia) eq_refl) as (_ & _ & Q). apply (Q 1%nat); [apply Nat.leb_le; reflexivity|]. unfold bin_hz. replace (INR 8) with 8 by (cbn; ring). replace (INR 1) with 1 by reflexivity. lra.
Qed.
