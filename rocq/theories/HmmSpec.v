(** State sequences and their probabilities. *)
From Coq Require Import List ZArith Lia Reals Bool.
From Verif Require Import Base Vec Sum HmmModel.
Import ListNotations.
Local Open Scope R_scope.
(** All sequences of [n] states out of [K]. *)
Fixpoint seqs (K n : nat) : list (list nat) := match n with O => [[]] | S n => flat_map (fun k => map (cons k) (seqs K n)) (seq 0 K) end.
(** Probability of the states [z] and of the observations, given by their densities in each state:
    transitions out of state [i], then the whole chain. *)
Fixpoint chain (A : nat -> nat -> R) (i : nat) (ps : list (nat -> R)) (z : list nat) : R :=
  match ps, z with
  | p :: ps, j :: z => A i j * p j * chain A j ps z
  | [], [] => 1
  | _, _ => 0
  end.
Definition joint (A : nat -> nat -> R) (pi : nat -> R) (ps : list (nat -> R)) (z : list nat) : R :=
  match ps, z with p :: ps, k :: z => pi k * p k * chain A k ps z | _, _ => 0 end.
(** Density of the observations together with an event on the states; density of the observations. *)
Definition evidence_and (K : nat) (A : nat -> nat -> R) (pi : nat -> R) (ps : list (nat -> R)) (event : list nat -> bool) : R :=
  Rsum (map (joint A pi ps) (filter event (seqs K (length ps)))).
Definition evidence (K : nat) (A : nat -> nat -> R) (pi : nat -> R) (ps : list (nat -> R)) : R := Rsum (map (joint A pi ps) (seqs K (length ps))).
(** State [n] is [k]. *)
Definition at_time (n k : nat) (z : list nat) : bool := match nth_error z n with Some j => Nat.eqb j k | None => false end.
(** Expected number of times state [i] is left, given the observations. *)
Definition visits (K : nat) (A : nat -> nat -> R) (pi : nat -> R) (ps : list (nat -> R)) (i : nat) : R :=
  bsum (length ps - 1) (fun n => evidence_and K A pi ps (at_time n i) / evidence K A pi ps).
(** Probabilities that sum to at most one. *)
Definition subprob (K : nat) (p : nat -> R) : Prop := (forall k, (k < K)%nat -> 0 <= p k) /\ bsum K p <= 1.
Definition subprobs (K : nat) (A : nat -> nat -> R) (pi : nat -> R) : Prop := subprob K pi /\ forall i, (i < K)%nat -> subprob K (A i).
(** Non-negative densities. *)
Definition nonneg_all (K : nat) (ps : list (nat -> R)) : Prop := forall n k, (n < length ps)%nat -> (k < K)%nat -> 0 <= nth n ps (fun _ => 0) k.
(** Non-negative chain parameters. *)
Definition nonneg_hmm (m : hmm) : Prop := (forall i j, (i < hm_K m)%nat -> (j < hm_K m)%nat -> 0 <= hm_A m i j) /\ forall k, (k < hm_K m)%nat -> 0 <= hm_pi m k.
(** Densities of the observations [X] in each state; positive variances; frames of the right size. *)
Definition densities (e : circular) (X : list vec) : list (nat -> R) := map (fun x k => normal_pdf (em_O e) (em_mu e k) (em_sig e k) x) X.
Definition proper (e : circular) : Prop := forall k d, (k < em_K e)%nat -> (d < em_O e)%nat -> 0 < em_sig e k d.
(** Log-likelihood of a training set. *)
Definition total_ll (m : hmm) (e : circular) (examples : list (list vec)) : option R := let* ls := mapM (loglikelihood m e) examples in Some (Rsum ls).
Definition shaped (e : circular) (X : list vec) : Prop := forall x, In x X -> length x = em_O e.
(** Same number of states, and what was impossible stays impossible. *)
Definition refines (m m' : hmm) : Prop := hm_K m' = hm_K m /\ (forall i j, (i < hm_K m)%nat -> (j < hm_K m)%nat -> hm_A m i j = 0 -> hm_A m' i j = 0) /\ forall k, (k < hm_K m)%nat -> hm_pi m k = 0 -> hm_pi m' k = 0.
(** No state is left less than 1e-15 times (unless never). *)
Definition not_rare (m : hmm) (e : circular) (examples : list (list vec)) : Prop := forall i, (i < hm_K m)%nat -> let v := Rsum (map (fun X => visits (hm_K m) (hm_A m) (hm_pi m) (densities e X) i) examples) in v = 0 \/ tiny <= v.
(** [n] training iterations. *)
Fixpoint train (n : nat) (m : hmm) (e : circular) (examples : list (list vec)) : option (hmm * circular) :=
  match n with O => Some (m, e) | S n => let* r := train n m e examples in let* s := fit_step (fst r) (snd r) examples in Some (fst s) end.
