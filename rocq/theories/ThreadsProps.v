(** C159: the number of threads of the package. *)
From Coq Require Import List ZArith Lia Bool String.
From Verif Require Import Base ParamModel ThreadsModel.
Import ListNotations.
Local Open Scope string_scope.

(** ** Specification *)
(** the settings made with constants.set, in order of time *)
Definition user_after (sets : list (string * Z)) : list (string * Z) := fold_left (fun u s => constants_set u (fst s) (snd s)) sets [].

Lemma user_after_rev sets : user_after sets = rev sets.
Proof.
  unfold user_after. assert (G : forall u, fold_left (fun u s => constants_set u (fst s) (snd s)) sets u = (rev sets ++ u)%list); [|rewrite G; apply app_nil_r].
  induction sets as [|[n v] t IH]; intros u; [reflexivity|]. cbn [fold_left rev]. rewrite IH, <- app_assoc. reflexivity.
Qed.
Lemma lookup_skip {V} key (a b : list (string * V)) : (forall s, In s a -> fst s <> key) -> lookup key (a ++ b) = lookup key b.
Proof.
  induction a as [|[k v] t IH]; intros H; [reflexivity|]. cbn [app lookup]. destruct (String.eqb_spec k key) as [E|E]; [exfalso; apply (H (k, v)); [now left|exact E]|]. apply IH. intros s Hs. apply H. now right.
Qed.

(** C159.  The last constants.set("num_threads", v) decides; without any the number found when the package was imported is used. *)
Theorem C159_set : forall to_int env cpu_count d sets, get_num_threads to_int env cpu_count = Some d ->
  (forall before v after, sets = (before ++ ("num_threads", v) :: after)%list -> (forall s, In s after -> fst s <> "num_threads") -> num_threads to_int env cpu_count (user_after sets) = Some v) /\
  ((forall s, In s sets -> fst s <> "num_threads") -> num_threads to_int env cpu_count (user_after sets) = Some d).
Proof.
  intros to_int env cpu d sets Hd. unfold num_threads. rewrite Hd. cbn [bind]. unfold constants_get. rewrite user_after_rev. split.
  - intros before v after -> H. rewrite rev_app_distr. cbn [rev]. rewrite <- app_assoc. cbn [app]. rewrite lookup_skip; [reflexivity|]. intros s Hs. apply H. now apply in_rev.
  - intros H. rewrite <- (app_nil_r (rev sets)), lookup_skip; [reflexivity|]. intros s Hs. apply H. now apply in_rev.
Qed.
Print Assumptions C159_set.

(** C159.  PRA_NUM_THREADS decides when the package is imported, and raises when it is not a number; without it the number of processors
    is used, and the import raises when that is not known. *)
Theorem C159_variable : forall to_int env cpu_count, NoDup (map fst env) ->
  (forall s, In ("PRA_NUM_THREADS", s) env -> get_num_threads to_int env cpu_count = to_int s) /\
  (~ In "PRA_NUM_THREADS" (map fst env) -> get_num_threads to_int env cpu_count = cpu_count).
Proof.
  intros to_int env cpu ND. unfold get_num_threads, lookup_env. split.
  - intros s Hs. assert (F : find (fun p => String.eqb (fst p) "PRA_NUM_THREADS") env = Some ("PRA_NUM_THREADS", s)); [|rewrite F; reflexivity].
    induction env as [|[k v] t IH]; [destruct Hs|]. cbn [find fst map] in *. inversion ND as [|? ? Hn Nt]; subst. destruct Hs as [E|Hs].
    + injection E as -> ->. now rewrite String.eqb_refl.
    + destruct (String.eqb_spec k "PRA_NUM_THREADS") as [->|_]; [exfalso; apply Hn; exact (in_map fst _ _ Hs)|]. now apply IH.
  - intros H. assert (F : find (fun p => String.eqb (fst p) "PRA_NUM_THREADS") env = None).
    { destruct (find _ env) as [p|] eqn:E; [|reflexivity]. apply find_some in E. destruct E as [I E]. apply String.eqb_eq in E. exfalso. apply H. rewrite <- E. exact (in_map fst _ _ I). }
    rewrite F. cbn. destruct cpu as [n|]; [|reflexivity]. cbn. now rewrite Z.min_id.
Qed.
Print Assumptions C159_variable.

(** C159.  OMP_NUM_THREADS and MKL_NUM_THREADS, which the documentation lists, have no effect: they are looked up as attributes of
    os.environ instead of as its entries. *)
Theorem C159_openmp_refuted : exists env, In ("OMP_NUM_THREADS", "1") env /\ In ("MKL_NUM_THREADS", "1") env /\
  forall to_int, to_int "1" = Some 1%Z -> get_num_threads to_int env (Some 64%Z) = Some 64%Z.
Proof. exists [("OMP_NUM_THREADS", "1"); ("MKL_NUM_THREADS", "1")]. split; [now left|]. split; [right; now left|]. reflexivity. Qed.
Print Assumptions C159_openmp_refuted.

(** C159.  The number is not checked: PRA_NUM_THREADS = 0 gives zero threads, with which impulse responses are never computed. *)
Theorem C159_zero_refuted : exists env, forall to_int cpu_count, to_int "0" = Some 0%Z -> num_threads to_int env cpu_count [] = Some 0%Z.
Proof. exists [("PRA_NUM_THREADS", "0")]. intros to_int cpu E. unfold num_threads, get_num_threads. cbn. rewrite E. reflexivity. Qed.
Print Assumptions C159_zero_refuted.

(** ** Examples *)
Definition ex_int (s : string) : option Z := if String.eqb s "4" then Some 4%Z else None.
Definition ex_env : environ := [("HOME", "/root"); ("OMP_NUM_THREADS", "2"); ("PRA_NUM_THREADS", "4")].
Example C159_variable_ex : get_num_threads ex_int ex_env (Some 16%Z) = Some 4%Z /\ get_num_threads ex_int (firstn 2 ex_env) (Some 16%Z) = Some 16%Z.
Proof.
  assert (ND : NoDup (map fst ex_env)) by (cbn; repeat (constructor; [cbn; intuition discriminate|]); constructor). split.
  - rewrite (proj1 (C159_variable ex_int ex_env (Some 16%Z) ND) "4"); [reflexivity|]. right. right. now left.
  - apply C159_variable; [cbn; repeat (constructor; [cbn; intuition discriminate|]); constructor|cbn; intuition discriminate].
Qed.
Example C159_set_ex : num_threads ex_int ex_env None (user_after [("num_threads", 2%Z); ("num_threads", 3%Z); ("c", 340%Z)]) = Some 3%Z.
Proof.
  apply (proj1 (C159_set ex_int ex_env None 4%Z [("num_threads", 2%Z); ("num_threads", 3%Z); ("c", 340%Z)] eq_refl) [("num_threads", 2%Z)] 3%Z [("c", 340%Z)]); [reflexivity|].
  intros s [<-|[]]. discriminate.
Qed.
