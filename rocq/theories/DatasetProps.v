(* C78: the info table of a dataset counts exactly; filtering is exact. *)
From Coq Require Import List String Bool Arith Lia.
From Verif Require Import Base DatasetModel.
Import ListNotations.

Section Props.
Context {V D : Type} (Veq : forall a b : V, {a = b} + {a <> b}).
Notation sample := (@sample V D).
Notation dataset := (@dataset V D).
Notation value := (@value V).
Notation criterion := (@criterion V).

(* What the table should say. *)
Definition has (k : string) (v : V) (s : sample) : bool :=
  match lookup k (s_meta s) with Some (Hash w) => if Veq w v then true else false | _ => false end.
Definition occurrences (k : string) (v : V) (l : list sample) : nat := List.length (filter (has k v) l).
(* What it says: the count under info[k][v]; a missing entry counts as none. *)
Fixpoint find (v : V) (t : list (V * nat)) : option nat :=
  match t with [] => None | (w, n) :: r => if Veq v w then Some n else find v r end.
Definition table (k : string) (v : V) (d : dataset) : option nat :=
  match lookup k (d_info d) with Some t => find v t | None => None end.
Definition exact (d : dataset) : Prop := forall k v,
  table k v d = (if Nat.eqb (occurrences k v (d_samples d)) 0 then None else Some (occurrences k v (d_samples d))).
Definition hashable (s : sample) : Prop := forall k v, In (k, v) (s_meta s) -> exists w, v = Hash w.
Definition proper (s : sample) : Prop := NoDup (map fst (s_meta s)).

Lemma find_up : forall v w t, find v (count_up Veq w t) = if Veq v w then Some (match find v t with Some n => S n | None => 1 end) else find v t.
Proof.
  intros v w t. induction t as [|[x n] t IH]; cbn.
  - destruct (Veq v w); reflexivity.
  - destruct (Veq w x) as [->|Hw]; cbn.
    + destruct (Veq v x); reflexivity.
    + rewrite IH. destruct (Veq v x) as [->|]; [|reflexivity]. destruct (Veq x w); [congruence|reflexivity].
Qed.
Definition get (k : string) (v : V) (i : list (string * list (V * nat))) : option nat :=
  match lookup k i with Some t => find v t | None => None end.
Lemma get_up : forall k v k' v' i, get k v (info_up Veq k' v' i) =
  if string_dec k k' then (if Veq v v' then Some (match get k v i with Some n => S n | None => 1 end) else get k v i) else get k v i.
Proof.
  intros k v k' v' i. unfold get. induction i as [|[x t] i IH]; cbn.
  - destruct (string_dec k k'); [|reflexivity]. cbn. destruct (Veq v v'); reflexivity.
  - destruct (string_dec k' x) as [->|Hx]; cbn.
    + destruct (string_dec k x); [|reflexivity]. rewrite find_up. reflexivity.
    + destruct (string_dec k x) as [->|]; [|exact IH]. destruct (string_dec x k'); [congruence|reflexivity].
Qed.
Lemma lookup_notin : forall A k (m : list (string * A)), ~ In k (map fst m) -> lookup k m = None.
Proof. intros A k m. induction m as [|[x a] m IH]; cbn; intros H; [reflexivity|]. destruct (string_dec k x); [subst; tauto|]. apply IH. tauto. Qed.
Lemma add_info_get : forall (m : list (string * value)) i, NoDup (map fst m) -> (forall k v, In (k, v) m -> exists w, v = Hash w) ->
  exists i', add_info Veq m i = (true, i') /\
  forall k v, get k v i' = match lookup k m with
     | Some (Hash w) => if Veq w v then Some (match get k v i with Some n => S n | None => 1 end) else get k v i
     | _ => get k v i end.
Proof.
  induction m as [|[k0 v0] m IH]; intros i Hnd Hh; cbn.
  - eexists. split; [reflexivity|]. reflexivity.
  - inversion Hnd as [|? ? Hni Hnd']; subst. destruct (Hh k0 v0 (or_introl eq_refl)) as [w ->].
    destruct (IH (info_up Veq k0 w i) Hnd') as [i' [Hi' Hg]]; [intros; apply (Hh k v); now right|].
    exists i'. split; [exact Hi'|]. intros k v. rewrite Hg. rewrite get_up.
    destruct (string_dec k k0) as [->|Hk].
    + rewrite (lookup_notin _ k0 m Hni). destruct (Veq v w) as [->|Hv].
      * destruct (Veq w w); [reflexivity|congruence].
      * destruct (Veq w v); [congruence|reflexivity].
    + reflexivity.
Qed.

(* One addition. *)
Lemma add_exact : forall d s, proper s -> hashable s -> exact d ->
  exists d', add_sample Veq d s = (true, d') /\ d_samples d' = d_samples d ++ [s] /\ exact d'.
Proof.
  intros d s Hp Hh He. unfold add_sample. destruct (add_info_get (s_meta s) (d_info d) Hp Hh) as [i' [-> Hg]].
  eexists. split; [reflexivity|]. split; [reflexivity|]. intros k v.
  change (table k v {| d_samples := d_samples d ++ [s]; d_info := i' |}) with (get k v i'). rewrite Hg.
  specialize (He k v). change (table k v d) with (get k v (d_info d)) in He. rewrite He. cbn [d_samples].
  unfold occurrences. rewrite filter_app, app_length. cbn [filter]. replace (has k v s) with (match lookup k (s_meta s) with Some (Hash w) => if Veq w v then true else false | _ => false end) by reflexivity.
  destruct (lookup k (s_meta s)) as [[w|u]|]; cbn; rewrite ?Nat.add_0_r; try reflexivity.
  destruct (Veq w v); cbn; rewrite ?Nat.add_0_r; [|reflexivity].
  destruct (List.length (filter (has k v) (d_samples d))) as [|n]; cbn; [reflexivity|]. now rewrite Nat.add_1_r.
Qed.

(* The documented meaning of the matching rules, and the names it needs. *)
Definition selected (kw : list (string * criterion)) (s : sample) : bool :=
  forallb (fun kc => match lookup (fst kc) (s_meta s) with Some a => accepts Veq (snd kc) a | None => false end) kw.
Definition named (kw : list (string * criterion)) (s : sample) : Prop := forall k c, In (k, c) kw -> lookup k (s_meta s) <> None.
Lemma matches_named : forall kw s, named kw s -> matches Veq (s_meta s) kw = Some (selected kw s).
Proof.
  induction kw as [|[k c] kw IH]; intros s H; [reflexivity|]. cbn. destruct (lookup k (s_meta s)) as [a|] eqn:E.
  - cbn. destruct (accepts Veq c a); [|reflexivity]. cbn. apply IH. intros k' c' H'. apply (H k' c'). now right.
  - exfalso. apply (H k c); [now left|exact E].
Qed.
(* Whatever the result, it is right: a match that answers true means that every
   keyword is satisfied, false that one is not. *)
Theorem C78_match : forall s kw,
  (matches Veq (s_meta s) kw = Some true -> forall k c, In (k, c) kw -> exists a, lookup k (s_meta s) = Some a /\ accepts Veq c a = true) /\
  (matches Veq (s_meta s) kw = Some false -> exists k c a, In (k, c) kw /\ lookup k (s_meta s) = Some a /\ accepts Veq c a = false) /\
  (matches Veq (s_meta s) kw = None -> exists k c, In (k, c) kw /\ lookup k (s_meta s) = None) /\
  (named kw s -> matches Veq (s_meta s) kw = Some (selected kw s)).
Proof.
  intros s kw. split; [|split; [|split; [|apply matches_named]]].
  - induction kw as [|[k c] kw IH]; intros H k' c' Hin; [destruct Hin|]. cbn in H.
    destruct (lookup k (s_meta s)) as [a|] eqn:E; [|discriminate]. cbn in H. destruct (accepts Veq c a) eqn:Ea; [|discriminate].
    destruct Hin as [Hin|Hin]; [injection Hin as <- <-; eauto|]. apply IH; assumption.
  - induction kw as [|[k c] kw IH]; intros H; [discriminate|]. cbn in H.
    destruct (lookup k (s_meta s)) as [a|] eqn:E; [|discriminate]. cbn in H. destruct (accepts Veq c a) eqn:Ea.
    + destruct (IH H) as [k' [c' [a' [H1 H2]]]]. exists k', c', a'. split; [now right|exact H2].
    + exists k, c, a. split; [now left|]. auto.
  - induction kw as [|[k c] kw IH]; intros H; [discriminate|]. cbn in H.
    destruct (lookup k (s_meta s)) as [a|] eqn:E; [|exists k, c; split; [now left|exact E]]. cbn in H. destruct (accepts Veq c a) eqn:Ea; [|discriminate].
    destruct (IH H) as [k' [c' [H1 H2]]]. exists k', c'. split; [now right|exact H2].
Qed.

(* After any history of additions of samples with hashable metadata: the samples
   are those added, in order, and the table is exact.  Calls that raise because a
   keyword has no attribute change nothing. *)
Definition op_sample (o : @op V D) : sample := match o with Add s => s | AddMatching s _ => s end.
Definition added (o : @op V D) : list sample :=
  match o with
  | Add s => [s]
  | AddMatching s kw => match matches Veq (s_meta s) kw with Some true => [s] | _ => [] end
  end.
Theorem C78_counts : forall l, (forall o, In o l -> proper (op_sample o) /\ hashable (op_sample o)) ->
  d_samples (run Veq l) = flat_map added l /\ exact (run Veq l).
Proof.
  intros l H. unfold run.
  assert (G : forall d, exact d -> d_samples (fold_left (step Veq) l d) = d_samples d ++ flat_map added l /\ exact (fold_left (step Veq) l d)).
  { induction l as [|o l IH]; intros d He.
    - cbn. rewrite app_nil_r. auto.
    - cbn [fold_left flat_map].
      assert (Hs : d_samples (step Veq d o) = d_samples d ++ added o /\ exact (step Veq d o)).
      { destruct (H o (or_introl eq_refl)) as [Hp Hh]. destruct o as [s|s kw]; cbn in *.
        - destruct (add_exact d s Hp Hh He) as [d' [-> Hd']]. exact Hd'.
        - unfold add_sample_matching. destruct (matches Veq (s_meta s) kw) as [[|]|].
          + destruct (add_exact d s Hp Hh He) as [d' [-> Hd']]. exact Hd'.
          + cbn. rewrite app_nil_r. auto.
          + cbn. rewrite app_nil_r. auto. }
      destruct Hs as [Hs1 Hs2]. destruct (IH (fun o' Ho => H o' (or_intror Ho)) _ Hs2) as [I1 I2]. split; [|exact I2].
      rewrite I1, Hs1, <- app_assoc. reflexivity. }
  destruct (G empty_dataset) as [G1 G2]; [intros k v; reflexivity|]. auto.
Qed.

(* filter: exactly the selected samples, in order, with exact counts of their
   own; the filtered dataset is unchanged.  It raises only when some sample lacks
   one of the names. *)
Theorem C78_filter : forall d kw, (forall s, In s (d_samples d) -> proper s /\ hashable s) ->
  (forall d', filter_dataset Veq d kw = Some d' -> d_samples d' = filter (selected kw) (d_samples d) /\ exact d') /\
  ((forall s, In s (d_samples d) -> named kw s) -> exists d', filter_dataset Veq d kw = Some d').
Proof.
  intros d kw H. unfold filter_dataset.
  assert (Gn : forall l, fold_left (filter_step Veq kw) l None = @None dataset) by (induction l; cbn; auto).
  assert (G : forall l a, (forall s, In s l -> proper s /\ hashable s) -> exact a ->
    (forall d', fold_left (filter_step Veq kw) l (Some a) = Some d' -> d_samples d' = d_samples a ++ filter (selected kw) l /\ exact d') /\
    ((forall s, In s l -> named kw s) -> exists d', fold_left (filter_step Veq kw) l (Some a) = Some d')).
  { induction l as [|s l IH]; intros a Hl Ha.
    - split; [intros d' E; injection E as <-; cbn; rewrite app_nil_r; auto|]. intros _. cbn. eauto.
    - destruct (Hl s (or_introl eq_refl)) as [Hp Hh]. cbn [fold_left filter]. unfold filter_step at 2 4. cbn [bind]. unfold add_sample_matching.
      assert (Hr : forall s', In s' l -> proper s' /\ hashable s') by (intros; apply Hl; now right).
      destruct (C78_match s kw) as [Mt [Mf [Mn Md]]].
      destruct (matches Veq (s_meta s) kw) as [[|]|] eqn:E.
      + destruct (add_exact a s Hp Hh Ha) as [a' [-> [Ha1 Ha2]]].
        assert (Es : selected kw s = true).
        { unfold selected. apply forallb_forall. intros [k c] Hk. destruct (Mt eq_refl k c Hk) as [v [Hv Hc]]. cbn. now rewrite Hv. }
        rewrite Es. destruct (IH a' Hr Ha2) as [I1 I2]. split.
        * intros d' Hd'. destruct (I1 d' Hd') as [J1 J2]. split; [|exact J2]. rewrite J1, Ha1, <- app_assoc. reflexivity.
        * intros Hn. apply I2. intros; apply Hn; now right.
      + assert (Es : selected kw s = false).
        { destruct (selected kw s) eqn:Es; [|reflexivity]. exfalso. destruct (Mf eq_refl) as [k [c [v [Hk [Hv Hc]]]]].
          unfold selected in Es. rewrite forallb_forall in Es. specialize (Es (k, c) Hk). cbn in Es. rewrite Hv in Es. congruence. }
        rewrite Es. destruct (IH a Hr Ha) as [I1 I2]. split; [exact I1|]. intros Hn. apply I2. intros; apply Hn; now right.
      + split; [rewrite Gn; discriminate|]. intros Hn. exfalso. destruct (Mn eq_refl) as [k [c [Hk Hv]]].
        exact (Hn s (or_introl eq_refl) k c Hk Hv). }
  apply (G (d_samples d) empty_dataset H). intros k v. reflexivity.
Qed.
End Props.

(* A sample with an unhashable attribute raises after the attributes before it
   were counted: the table then counts samples that are not there. *)
Theorem C78_unhashable_refuted : exists (l : list (@op nat unit)), 
  (forall o, In o l -> proper (op_sample o)) /\ ~ exact Nat.eq_dec (run Nat.eq_dec l).
Proof.
  exists [Add {| s_data := tt; s_meta := [("speaker"%string, Hash 7); ("segments"%string, Unhashable 0)] |}]. split.
  - intros o [<-|[]]. cbn. repeat constructor; cbn; intuition discriminate.
  - intros H. specialize (H "speaker"%string 7). cbv in H. discriminate.
Qed.

(* A concrete history: three samples, one rejected by its keyword, then a filter. *)
Definition bird (k n : nat) : @sample nat unit := {| s_data := tt; s_meta := [("kind"%string, Hash k); ("age"%string, Hash n)] |}.
Example C78_case :
  let l := [Add (bird 1 5); AddMatching (bird 2 5) [("kind"%string, OneOf [Hash 1; Hash 3])]; Add (bird 1 6); Add (bird 2 5)] in
  (forall o, In o l -> proper (op_sample o) /\ hashable (op_sample o)) /\
  table Nat.eq_dec "kind"%string 1 (run Nat.eq_dec l) = Some 2 /\ table Nat.eq_dec "age"%string 5 (run Nat.eq_dec l) = Some 2 /\
  option_map d_samples (filter_dataset Nat.eq_dec (run Nat.eq_dec l) [("age"%string, Equal (Hash 5))]) = Some [bird 1 5; bird 2 5] /\
  filter_dataset Nat.eq_dec (run Nat.eq_dec l) [("sex"%string, Equal (Hash 5))] = None.
Proof.
  split; [|split; [|split; [|split]]]; try reflexivity.
  intros o Ho. split.
  - cbn in Ho. destruct Ho as [<-|[<-|[<-|[<-|[]]]]]; cbn; repeat constructor; cbn; intuition discriminate.
  - cbn in Ho. intros k v. destruct Ho as [<-|[<-|[<-|[<-|[]]]]]; cbn; intros [E|[E|[]]]; injection E as _ <-; eauto.
Qed.

Print Assumptions C78_match.
Print Assumptions C78_counts.
Print Assumptions C78_filter.
Print Assumptions C78_unhashable_refuted.
