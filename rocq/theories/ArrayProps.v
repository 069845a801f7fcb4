(* C71 and C72: microphone arrays and array geometries. *)
From Coq Require Import Reals List ZArith Lia Lra.
From Verif Require Import Base BaseProofs Vec Sum RirModel SphereModel ArrayModel.
Import ListNotations.
Local Open Scope R_scope.

(* ------------------------------------------------------------------ *)
(* C71 *)

(* A rectangular block: [n] columns (or rows) of common length [d]. *)
Definition block (d : nat) (l : list (list R)) : Prop := forall p, In p l -> length p = d.

(* What a user expects of an array at any time. *)
Definition consistent {D} (s : mics D) : Prop :=
  (dim s = 2%nat \/ dim s = 3%nat) /\
  block (dim s) (pos s) /\
  length (directivity s) = length (pos s) /\
  match recorded s with
  | None => True
  | Some g => length (sig_rows g) = length (pos s) /\ block (sig_len g) (sig_rows g)
  end.

(* The arguments are genuine rectangular arrays, and what is appended is a
   numpy array or another consistent microphone array. *)
Definition sane_backend (b : backend) : Prop :=
  forall n f g row, length row = n -> length (resample_row b f g row) = out_len b n f g.
Definition sane {D} (o : op D) : Prop :=
  match o with
  | Append (Mics m) => consistent m
  | Append (Array rows cols) => block rows cols
  | Append (Nested _ _) => False
  | SetDirectivity _ => True
  | Record_ b _ g _ => sane_backend b /\ block (sig_len g) (sig_rows g)
  end.

Lemma block_app : forall d a b, block d a -> block d b -> block d (a ++ b).
Proof. intros d a b Ha Hb p Hp. apply in_app_or in Hp as [?|?]; auto. Qed.
Lemma block_repeat : forall n x, block n (repeat (repeat x n) 0) /\ forall k, block n (repeat (repeat x n) k).
Proof. intros n x. split; [intros p []|]. intros k p Hp. apply repeat_spec in Hp. subst. apply repeat_length. Qed.
Lemma fill_rows_length : forall n l, length (fst (fill_rows n l)) = length l.
Proof.
  intros n l. induction l as [|r rest IH]; [reflexivity|].
  cbn [fill_rows]. destruct (fill_row n r) as [v|]; [|cbn [fst]; now rewrite map_length].
  destruct (fill_rows n rest) as [done raised] eqn:E. cbn [fst] in *. cbn [length]. now rewrite IH.
Qed.
Lemma fill_rows_block : forall n l, block n (fst (fill_rows n l)).
Proof.
  intros n l. induction l as [|r rest IH]; [intros p []|].
  cbn [fill_rows]. destruct (fill_row n r) as [v|] eqn:Ev.
  - destruct (fill_rows n rest) as [done raised]. cbn [fst] in *. intros p [<-|Hp]; [|auto].
    unfold fill_row in Ev. destruct (Nat.eqb (length r) n) eqn:E.
    + injection Ev as <-. now apply Nat.eqb_eq.
    + destruct r as [|x [|? ?]]; try discriminate. injection Ev as <-. apply repeat_length.
  - cbn [fst]. intros p Hp. apply in_map_iff in Hp as [q [<- _]]. apply repeat_length.
Qed.
Lemma set_directivity_consistent : forall D (s : mics D) x, consistent s -> consistent (fst (set_directivity s x)).
Proof.
  intros D s x [Hd [Hb [Hl Hr]]]. unfold set_directivity. destruct x as [x|l].
  - destruct (item_value x) as [d|]; cbn [fst]; [|repeat split; auto].
    split; [exact Hd|split; [exact Hb|split; [|exact Hr]]]. cbn. unfold nmic. apply repeat_length.
  - destruct (mapM item_value l) as [v|] eqn:Ev; [|repeat split; auto].
    destruct (Nat.eqb (length l) (nmic s)) eqn:E; cbn [fst]; [|repeat split; auto].
    split; [exact Hd|split; [exact Hb|split; [|exact Hr]]]. cbn. apply Nat.eqb_eq in E.
    rewrite (mapM_length _ _ _ Ev). exact E.
Qed.
Lemma pad_consistent : forall D (s : mics D) n, consistent s ->
  match pad s n with
  | None => True
  | Some g => length (sig_rows g) = (length (pos s) + n)%nat /\ block (sig_len g) (sig_rows g)
  end.
Proof.
  intros D s n [Hd [Hb [Hl Hr]]]. unfold pad. destruct (recorded s) as [g|]; [|exact I].
  cbn [sig_rows sig_len]. destruct Hr as [Hr1 Hr2]. rewrite app_length, repeat_length. split; [lia|].
  apply block_app; [exact Hr2|]. apply block_repeat.
Qed.
Lemma with_signals_consistent : forall D (s : mics D) g, consistent s ->
  length (sig_rows g) = length (pos s) -> block (sig_len g) (sig_rows g) -> consistent (with_signals s g).
Proof. intros D s g [Hd [Hb [Hl Hr]]] H1 H2. repeat split; auto. Qed.
Lemma step_consistent : forall D (s : mics D) o, consistent s -> sane o -> consistent (fst (step s o)).
Proof.
  intros D s o Hs Ho. destruct o as [l|x|b ndim g fs]; cbn [step].
  - destruct l as [m|rows cols|rows cols]; cbn [sane] in Ho; [| |destruct Ho]; cbn [append].
    + destruct (Nat.eqb (dim m) (dim s)) eqn:E; [|exact Hs]. apply Nat.eqb_eq in E. cbn [fst].
      pose proof (pad_consistent D s (nmic m) Hs) as Hp.
      destruct Hs as [Hd [Hb [Hl Hr]]], Ho as [Hd' [Hb' [Hl' Hr']]].
      split; [exact Hd|split; [|split]]; cbn [pos dim directivity recorded].
      * apply block_app; [exact Hb|]. now rewrite <- E.
      * rewrite !app_length. lia.
      * destruct (pad s (nmic m)); [|exact I]. destruct Hp as [Hp1 Hp2]. rewrite app_length. split; [exact Hp1|exact Hp2].
    + destruct (Nat.eqb rows (dim s)) eqn:E; [|exact Hs]. apply Nat.eqb_eq in E. cbn [fst].
      pose proof (pad_consistent D s (length cols) Hs) as Hp.
      destruct Hs as [Hd [Hb [Hl Hr]]].
      split; [exact Hd|split; [|split]]; cbn [pos dim directivity recorded].
      * apply block_app; [exact Hb|]. now rewrite <- E.
      * rewrite !app_length, repeat_length. lia.
      * destruct (pad s (length cols)); [|exact I]. destruct Hp as [Hp1 Hp2]. rewrite app_length. split; [exact Hp1|exact Hp2].
  - apply set_directivity_consistent. exact Hs.
  - destruct Ho as [Hbk Hg]. unfold record.
    destruct (Nat.eqb (length (sig_rows g)) (nmic s)) eqn:E; cbn [negb]; [|exact Hs]. apply Nat.eqb_eq in E.
    destruct (Nat.eqb ndim 2); cbn [negb]; [|exact Hs].
    destruct (Req_EM_T fs (mic_fs s)); [cbn [fst]; apply with_signals_consistent; auto|].
    assert (H1 : consistent (with_signals s {| sig_len := out_len b (sig_len g) fs (mic_fs s);
                                               sig_rows := map (resample_row b fs (mic_fs s)) (sig_rows g) |})).
    { apply with_signals_consistent; [exact Hs|cbn; now rewrite map_length|].
      intros p Hp. cbn in Hp. apply in_map_iff in Hp as [q [<- Hq]]. cbn. apply Hbk. now apply Hg. }
    destruct (samplerate b) as [sr|]; [|exact H1].
    destruct (Z.ltb _ 0); [exact H1|].
    match goal with |- context [fill_rows ?n ?l] => destruct (fill_rows n l) as [rows raised] eqn:Ef;
      pose proof (fill_rows_length n l) as Hlen; pose proof (fill_rows_block n l) as Hblk end.
    rewrite Ef in Hlen, Hblk. cbn [fst] in *. rewrite map_length in Hlen.
    apply with_signals_consistent; [exact Hs|cbn; unfold nmic in E; lia|exact Hblk].
Qed.

(* Construction followed by any sequence of calls - including calls that raise -
   leaves the array consistent. *)
Theorem C71_consistent : forall D rows cols fs x (s : mics D) ops,
  block rows cols -> make_mics rows cols fs x = Some s -> (forall o, In o ops -> sane o) ->
  consistent (run s ops).
Proof.
  intros D rows cols fs x s ops Hb Hm Hops.
  assert (Hs : consistent s).
  { unfold make_mics in Hm. destruct (orb (Nat.eqb rows 2) (Nat.eqb rows 3)) eqn:Er; [|discriminate].
    match type of Hm with context [set_directivity ?s0 x] => set (s0' := s0) in Hm end.
    destruct (set_directivity s0' x) as [s' raised] eqn:Es. destruct raised; [discriminate|]. injection Hm as <-.
    assert (Hd : rows = 2%nat \/ rows = 3%nat).
    { apply Bool.orb_true_iff in Er as [E|E]; apply Nat.eqb_eq in E; auto. }
    unfold set_directivity in Es. destruct x as [x|l].
    - destruct (item_value x) as [d|]; [|discriminate]. injection Es as <-.
      repeat split; auto. cbn. apply repeat_length.
    - destruct (mapM item_value l) as [v|] eqn:Ev; [|discriminate].
      destruct (Nat.eqb (length l) (nmic s0')) eqn:E; [|discriminate]. injection Es as <-.
      repeat split; auto. cbn. rewrite (mapM_length _ _ _ Ev). now apply Nat.eqb_eq in E. }
  clear Hm. revert s Hs. induction ops as [|o ops IH]; intros s Hs; [exact Hs|].
  cbn. apply IH; [intros o' Ho'; apply Hops; now right|]. apply step_consistent; [exact Hs|]. apply Hops. now left.
Qed.

(* The positions appended by a call that does not raise. *)
Definition appended {D} (s : mics D) (o : op D) : list (list R) :=
  match o with
  | Append (Mics m) => if Nat.eq_dec (dim m) (dim s) then pos m else []
  | Append (Array rows cols) => if Nat.eq_dec rows (dim s) then cols else []
  | _ => []
  end.

(* Nothing ever moves or removes a microphone: after any sequence of calls the
   positions are the original ones followed by those appended, in order; the
   dimension and the sampling rate do not change. *)
Theorem C71_history : forall D (s : mics D) ops, (forall o, In o ops -> sane o) ->
  pos (run s ops) = pos s ++ concat (map (appended s) ops) /\ dim (run s ops) = dim s /\ mic_fs (run s ops) = mic_fs s.
Proof.
  intros D s ops Hops.
  assert (Hstep : forall (t : mics D) o, sane o -> dim t = dim s ->
            pos (fst (step t o)) = pos t ++ appended s o /\ dim (fst (step t o)) = dim s /\ mic_fs (fst (step t o)) = mic_fs t).
  { intros t o Ho Ht. destruct o as [[m|rows cols|rows cols]|x|b ndim g fs]; cbn [step appended].
    - cbn [append]. rewrite Ht. destruct (Nat.eq_dec (dim m) (dim s)) as [E|E].
      + rewrite (proj2 (Nat.eqb_eq _ _) E). cbn. auto.
      + rewrite (proj2 (Nat.eqb_neq _ _) E). cbn. now rewrite app_nil_r.
    - cbn [append]. rewrite Ht. destruct (Nat.eq_dec rows (dim s)) as [E|E].
      + rewrite (proj2 (Nat.eqb_eq _ _) E). cbn. auto.
      + rewrite (proj2 (Nat.eqb_neq _ _) E). cbn. now rewrite app_nil_r.
    - destruct Ho.
    - rewrite app_nil_r. unfold set_directivity. destruct x as [x|l].
      + destruct (item_value x); cbn; auto.
      + destruct (mapM item_value l); [|cbn; auto]. destruct (Nat.eqb _ _); cbn; auto.
    - rewrite app_nil_r. unfold record. destruct (negb _); [cbn; auto|]. destruct (negb _); [cbn; auto|].
      destruct (Req_EM_T _ _); [cbn; auto|]. destruct (samplerate b); [|cbn; auto]. destruct (Z.ltb _ 0); [cbn; auto|].
      destruct (fill_rows _ _). cbn. auto. }
  assert (H : forall t : mics D, dim t = dim s -> pos (run t ops) = pos t ++ concat (map (appended s) ops) /\ dim (run t ops) = dim s /\ mic_fs (run t ops) = mic_fs t).
  { clear - Hstep Hops. induction ops as [|o ops IH]; intros t Ht; [cbn; rewrite app_nil_r; auto|].
    destruct (Hstep t o (Hops o (or_introl eq_refl)) Ht) as [H1 [H2 H3]].
    destruct (IH (fun o' Ho' => Hops o' (or_intror Ho')) _ H2) as [I1 [I2 I3]].
    cbn [run fold_left map concat]. unfold run in I1, I2, I3. rewrite I1, I2, I3, H1, H3, app_assoc. auto. }
  apply H. reflexivity.
Qed.

(* What a single call does.  A successful append leaves the microphones already
   there with their directivity and signal, gives the new ones theirs (None for
   plain positions) and a silent signal as long as the others; a call that
   raises for a bad argument changes nothing. *)
Theorem C71_append : forall D (s : mics D),
  (forall rows cols, rows = dim s ->
     append s (Array rows cols) =
       ({| dim := dim s; pos := pos s ++ cols; mic_fs := mic_fs s;
           directivity := directivity s ++ map (fun _ => None) cols;
           recorded := option_map (fun g => {| sig_len := sig_len g;
                          sig_rows := sig_rows g ++ map (fun _ => repeat 0 (sig_len g)) cols |}) (recorded s);
           center := center s |}, false)) /\
  (forall o, dim o = dim s ->
     append s (Mics o) =
       ({| dim := dim s; pos := pos s ++ pos o; mic_fs := mic_fs s;
           directivity := directivity s ++ directivity o;
           recorded := option_map (fun g => {| sig_len := sig_len g;
                          sig_rows := sig_rows g ++ map (fun _ => repeat 0 (sig_len g)) (pos o) |}) (recorded s);
           center := center s |}, false)) /\
  (forall rows cols, rows <> dim s -> append s (Array rows cols) = (s, true)) /\
  (forall o, dim o <> dim s -> append s (Mics o) = (s, true)).
Proof.
  intros D s.
  assert (Hrep : forall A B (x : A) (l : list B), repeat x (length l) = map (fun _ => x) l).
  { intros A B x l. induction l as [|y l IH]; [reflexivity|]. cbn. now rewrite IH. }
  split; [|split; [|split]].
  - intros rows cols ->. cbn [append]. rewrite Nat.eqb_refl. unfold pad. rewrite Hrep.
    destruct (recorded s); cbn [option_map]; rewrite ?Hrep; reflexivity.
  - intros o E. cbn [append]. rewrite (proj2 (Nat.eqb_eq _ _) E). unfold pad, nmic.
    destruct (recorded s); cbn [option_map]; rewrite ?Hrep; reflexivity.
  - intros rows cols E. cbn [append]. now rewrite (proj2 (Nat.eqb_neq _ _) E).
  - intros o E. cbn [append]. now rewrite (proj2 (Nat.eqb_neq _ _) E).
Qed.

(* set_directivity: one object for all, or one per microphone; anything else
   raises and changes nothing.  It never touches anything but the directivities. *)
Theorem C71_directivity : forall D (s : mics D),
  (forall d, let s' := fst (set_directivity s (One (Dir d))) in
     snd (set_directivity s (One (Dir d))) = false /\
     directivity s' = map (fun _ => Some d) (pos s) /\ pos s' = pos s /\ recorded s' = recorded s) /\
  (forall l, length l = length (pos s) ->
     let arg := map (fun x => match x with Some d => Dir d | None => NoDir end) l in
     let s' := fst (set_directivity s (Many arg)) in
     snd (set_directivity s (Many arg)) = false /\ directivity s' = l /\ pos s' = pos s /\ recorded s' = recorded s) /\
  (forall l, length l <> length (pos s) -> set_directivity s (Many l) = (s, true)) /\
  (forall l, In Junk l -> set_directivity s (Many l) = (s, true)) /\ set_directivity s (One Junk) = (s, true).
Proof.
  intros D s. split; [|split; [|split; [|split]]].
  - intros d. cbn. repeat split. unfold nmic. induction (pos s) as [|p l IH]; [reflexivity|]. cbn. now rewrite IH.
  - intros l Hl arg.
    assert (E : mapM item_value arg = Some l).
    { subst arg. clear Hl. induction l as [|x l IH]; [reflexivity|]. cbn [map mapM]. rewrite IH. destruct x; reflexivity. }
    unfold set_directivity. rewrite E.
    assert (El : Nat.eqb (length arg) (nmic s) = true) by (apply Nat.eqb_eq; subst arg; rewrite map_length; exact Hl).
    rewrite El. cbn. auto.
  - intros l Hl. unfold set_directivity. destruct (mapM item_value l); [|reflexivity].
    assert (El : Nat.eqb (length l) (nmic s) = false) by (apply Nat.eqb_neq; exact Hl). now rewrite El.
  - intros l Hl. unfold set_directivity. assert (E : mapM (@item_value D) l = None); [|now rewrite E].
    induction l as [|x l IH]; [destruct Hl|]. destruct Hl as [->|Hl]; [reflexivity|]. cbn. rewrite (IH Hl).
    destruct (item_value x); reflexivity.
  - reflexivity.
Qed.

(* record at the array's own rate stores exactly what it was given, when there
   is one row per microphone, and otherwise raises and changes nothing. *)
Theorem C71_record : forall D (s : mics D) b g,
  (length (sig_rows g) = length (pos s) ->
     let s' := fst (record b s 2 g (mic_fs s)) in
     snd (record b s 2 g (mic_fs s)) = false /\ recorded s' = Some g /\
     pos s' = pos s /\ directivity s' = directivity s) /\
  (forall ndim fs, length (sig_rows g) <> length (pos s) -> record b s ndim g fs = (s, true)).
Proof.
  intros D s b g. split.
  - intros Hl. unfold record. assert (E : Nat.eqb (length (sig_rows g)) (nmic s) = true) by now apply Nat.eqb_eq.
    rewrite E. cbn [negb Nat.eqb]. destruct (Req_EM_T (mic_fs s) (mic_fs s)); [|congruence]. cbn. auto.
  - intros ndim fs Hl. unfold record. assert (E : Nat.eqb (length (sig_rows g)) (nmic s) = false) by now apply Nat.eqb_neq.
    rewrite E. reflexivity.
Qed.

(* A concrete array used below. *)
Definition two_mics : mics unit :=
  {| dim := 2; pos := [[0; 0]; [2; 0]]; mic_fs := 16000; directivity := [None; Some tt];
     recorded := Some {| sig_len := 1; sig_rows := [[1]; [2]] |}; center := Some [1; 0] |}.
Example two_mics_consistent : consistent two_mics.
Proof.
  split; [now left|split; [|split; [reflexivity|split; [reflexivity|]]]]; intros p [<-|[<-|[]]]; reflexivity.
Qed.
Example two_mics_appended : recorded (run two_mics [Append (Array 2 [[5; 5]])]) = Some {| sig_len := 1; sig_rows := [[1]; [2]; [0]] |}
  /\ directivity (run two_mics [Append (Array 2 [[5; 5]])]) = [None; Some tt; None].
Proof. split; reflexivity. Qed.

(* Findings.  The centre is computed once, at construction. *)
Theorem C71_center_refuted : exists (s : mics unit) (cols : list (list R)),
  consistent s /\ block (dim s) cols /\ center s = column_mean (dim s) (pos s) /\
  snd (append s (Array (dim s) cols)) = false /\
  center (fst (append s (Array (dim s) cols))) <> column_mean (dim s) (pos (fst (append s (Array (dim s) cols)))).
Proof.
  exists two_mics, [[7; 0]]. split; [apply two_mics_consistent|]. split; [intros p [<-|[]]; reflexivity|]. split.
  { unfold column_mean, two_mics. cbn [center pos dim map seq nth length Rsum fold_right INR]. apply f_equal. apply f_equal2; [lra|]. apply f_equal2; [lra|reflexivity]. }
  split; [reflexivity|]. cbn. intros H. injection H as H _. lra.
Qed.

(* A nested list is concatenated to the positions and only then rejected: the
   array is left with more microphones than directivities. *)
Theorem C71_list_refuted : exists (s : mics unit) cols,
  consistent s /\ block (dim s) cols /\ snd (append s (Nested (dim s) cols)) = true /\
  length (directivity (fst (append s (Nested (dim s) cols)))) <> length (pos (fst (append s (Nested (dim s) cols)))).
Proof.
  exists two_mics, [[7; 0]]. split; [apply two_mics_consistent|]. split; [intros p [<-|[]]; reflexivity|].
  split; [reflexivity|]. cbn. lia.
Qed.

(* Without the samplerate package a recording at another rate raises although
   the resampled signal has already been computed and stored. *)
Theorem C71_resample_refuted : exists (s : mics unit) b g fs,
  consistent s /\ sane (Record_ b 2 g fs : op unit) /\ length (sig_rows g) = length (pos s) /\
  snd (record b s 2 g fs) = true /\ recorded (fst (record b s 2 g fs)) <> recorded s.
Proof.
  exists two_mics, {| out_len := fun n _ _ => (2 * n)%nat; resample_row := fun _ _ r => r ++ r; samplerate := None |},
    {| sig_len := 1; sig_rows := [[1]; [2]] |}, 8000.
  split; [apply two_mics_consistent|]. split.
  { split; [intros n f g row <-; cbn; rewrite app_length; lia|]. intros p [<-|[<-|[]]]; reflexivity. }
  split; [reflexivity|]. unfold record. cbn [sig_rows length nmic two_mics pos Nat.eqb negb mic_fs].
  destruct (Req_EM_T 8000 16000); [lra|]. cbn. split; [reflexivity|]. intros H. discriminate.
Qed.

Print Assumptions C71_consistent.
Print Assumptions C71_history.
Print Assumptions C71_append.
Print Assumptions C71_directivity.
Print Assumptions C71_record.
Print Assumptions C71_center_refuted.
Print Assumptions C71_list_refuted.
Print Assumptions C71_resample_refuted.
