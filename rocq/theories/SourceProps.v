(** Properties of SoundSource (SourceModel): subsets by order and by distance, getters. *)
From Coq Require Import List ZArith Lia Reals Lra Bool Permutation.
From Verif Require Import Base Vec SimulateModel RirModel UtilModel GridModel SourceModel StftProofs BaseProofs.
Import ListNotations.
Local Open Scope R_scope.

(** All arrays have one entry per image. *)
Definition lined_up (s : sound_source) : Prop :=
  let n := length (images s) in
  length (damping s) = n /\ length (generators s) = n /\ length (walls s) = n /\ length (orders s) = n.

(** [r] is made of the entries of [l] number [idx], in this order. *)
Definition entries {A} (l : list A) (idx : list nat) (r : list A) : Prop := Forall2 (fun k x => nth_error l k = Some x) idx r.

(** [t] is the same source as [s] with the images number [idx] only, and all that belongs to them. *)
Definition picks (s t : sound_source) (idx : list nat) : Prop :=
  position t = position s /\ signal t = signal s /\ delay t = delay s /\
  entries (images s) idx (images t) /\ entries (damping s) idx (damping t) /\
  entries (generators s) idx (generators t) /\ entries (walls s) idx (walls t) /\ entries (orders s) idx (orders t).

(** The largest order is known. *)
Definition top_order (s : sound_source) : Prop := In (max_order s) (orders s) /\ Forall (fun o => (o <= max_order s)%Z) (orders s).

(** ** Selections *)
Lemma entries_length : forall A (l : list A) idx r, entries l idx r -> length r = length idx.
Proof. intros A l idx r H. induction H; cbn; congruence. Qed.

Lemma entries_fun : forall A (l : list A) idx r r', entries l idx r -> entries l idx r' -> r = r'.
Proof.
  intros A l idx. induction idx as [|k idx IH]; intros r r' H H'; inversion H; inversion H'; subst; [reflexivity|]. f_equal; [congruence|]. now apply IH.
Qed.

Lemma entries_all : forall A (l : list A), entries l (seq 0 (length l)) l.
Proof.
  assert (G : forall A (l : list A) k pre, length pre = k -> Forall2 (fun k0 x => nth_error (pre ++ l) k0 = Some x) (seq k (length l)) l).
  { intros A l. induction l as [|x l IH]; intros k pre Hk; cbn [length seq]; constructor.
    - rewrite nth_error_app2 by lia. replace (k - length pre)%nat with 0%nat by lia. reflexivity.
    - replace (pre ++ x :: l) with ((pre ++ [x]) ++ l) by (now rewrite <- app_assoc). apply IH. rewrite app_length. cbn. lia. }
  intros A l. exact (G A l 0%nat [] eq_refl).
Qed.

Lemma filter_map_comm : forall A B (f : A -> B) (p : B -> bool) l, filter p (map f l) = map f (filter (fun x => p (f x)) l).
Proof. intros A B f p l. induction l as [|x l IH]; [reflexivity|]. cbn. destruct (p (f x)); cbn; now rewrite IH. Qed.

Lemma mask_entries : forall A (l : list A) mask, length l = length mask ->
  entries l (filter (fun k => nth k mask false) (seq 0 (length l))) (map fst (filter snd (combine l mask))).
Proof.
  intros A l. induction l as [|x l IH]; intros [|b mask] H; try discriminate; [constructor|].
  cbn [length] in H. injection H as H. specialize (IH mask H). cbn [length seq]. rewrite <- seq_shift.
  cbn [filter nth combine]. rewrite filter_map_comm. cbn [nth snd].
  assert (T : entries (x :: l) (map S (filter (fun k => nth k mask false) (seq 0 (length l)))) (map fst (filter snd (combine l mask)))).
  { clear H. induction IH; constructor; assumption. }
  destruct b; cbn [snd filter map fst]; [constructor; [reflexivity|exact T]|exact T].
Qed.

Lemma take_mask_entries : forall A (l : list A) (ords : list Z) f, length l = length ords ->
  exists r, take_mask l (map f ords) = Some r /\ entries l (filter (fun k => f (nth k ords 0%Z)) (seq 0 (length l))) r.
Proof.
  intros A l ords f H. unfold take_mask. rewrite map_length, H, Nat.eqb_refl. eexists. split; [reflexivity|].
  assert (E : filter (fun k => f (nth k ords 0%Z)) (seq 0 (length l)) = filter (fun k => nth k (map f ords) false) (seq 0 (length l))).
  { apply filter_ext_in. intros k Hk. apply in_seq in Hk. rewrite (nth_indep _ false (f 0%Z)) by (rewrite map_length; lia). now rewrite map_nth. }
  rewrite <- H, E. apply mask_entries. now rewrite map_length.
Qed.

Lemma take_at_entries : forall A (l : list A) idx, Forall (fun k => (k < length l)%nat) idx ->
  exists r, take_at l idx = Some r /\ entries l idx r.
Proof.
  intros A l idx H. induction H as [|k idx Hk H IH]; [exists []; split; [reflexivity|constructor]|].
  destruct IH as (r & E & F). destruct (nth_error l k) as [x|] eqn:Ex; [|apply nth_error_None in Ex; lia].
  exists (x :: r). unfold take_at in *. cbn [mapM]. rewrite Ex, E. split; [reflexivity|now constructor].
Qed.

Lemma zmax_spec : forall l, l <> [] -> exists m, zmax l = Some m /\ In m l /\ Forall (fun o => (o <= m)%Z) l.
Proof.
  intros [|x l] H; [congruence|]. clear H. cbn [zmax]. revert x. induction l as [|y l IH]; intro x; cbn [fold_left].
  - exists x. repeat split; [now left|]. repeat constructor. lia.
  - destruct (IH (Z.max x y)) as (m & E & Hin & Hall). exists m. split; [exact E|]. inversion Hall as [|? ? M R]; subst. split.
    + destruct Hin as [Q|Q]; [|now right; right]. destruct (Z.max_spec x y) as [[_ W]|[_ W]]; rewrite W in Q; [right; now left|now left].
    + constructor; [lia|]. constructor; [lia|exact R].
Qed.

Lemma subset_ok : forall s idx (sl : forall A : Type, list A -> option (list A)), lined_up s -> idx <> [] ->
  (length (position s) = 2 \/ length (position s) = 3)%nat ->
  (forall A (l : list A), length l = length (images s) -> exists r, sl A l = Some r /\ entries l idx r) ->
  exists t, subset s sl = Some t /\ picks s t idx /\ lined_up t /\ top_order t /\ ordering t = Order /\ directivity t = None.
Proof.
  intros s idx sl (L1 & L2 & L3 & L4) Hne Hp H. unfold subset.
  destruct (H _ (images s) eq_refl) as (im & E1 & F1). rewrite E1. cbn [bind].
  destruct (H _ (damping s) L1) as (d & E2 & F2). rewrite E2. cbn [bind].
  destruct (H _ (orders s) L4) as (o & E3 & F3). rewrite E3. cbn [bind].
  destruct (H _ (generators s) L2) as (g & E4 & F4). rewrite E4. cbn [bind].
  destruct (H _ (walls s) L3) as (w & E5 & F5). rewrite E5. cbn [bind].
  pose proof (entries_length _ _ _ _ F1) as M1. pose proof (entries_length _ _ _ _ F2) as M2. pose proof (entries_length _ _ _ _ F3) as M3.
  pose proof (entries_length _ _ _ _ F4) as M4. pose proof (entries_length _ _ _ _ F5) as M5.
  unfold make_source. replace (Nat.eqb (length (position s)) 2 || Nat.eqb (length (position s)) 3)%bool with true
    by (destruct Hp as [-> | ->]; reflexivity).
  cbn [negb]. rewrite M1, M2, Nat.eqb_refl. cbn [negb given]. rewrite M4, Nat.eqb_refl. cbn [bind]. rewrite M5, Nat.eqb_refl. cbn [bind].
  rewrite M3, Nat.eqb_refl. cbn [bind].
  destruct (zmax_spec o) as (m & Em & Hm & HM). { intro Q. subst o. destruct idx; [congruence|discriminate]. }
  rewrite Em. cbn [bind]. eexists. split; [reflexivity|]. unfold picks, lined_up, top_order. cbn. repeat split; auto; congruence.
Qed.

Lemma subset_none : forall s (sl : forall A : Type, list A -> option (list A)), 
  sl Z (orders s) = Some [] -> subset s sl = None.
Proof.
  intros s sl H. unfold subset. destruct (sl _ (images s)) as [im|]; [|reflexivity]. destruct (sl _ (damping s)) as [d|]; [|reflexivity]. cbn [bind].
  rewrite H. cbn [bind]. destruct (sl _ (generators s)) as [g|]; [|reflexivity]. destruct (sl _ (walls s)) as [w|]; [|reflexivity]. cbn [bind].
  unfold make_source. destruct (negb _); [reflexivity|]. destruct (negb _); [reflexivity|]. cbn [given].
  destruct (Nat.eqb (length g) _); [|reflexivity]. destruct (Nat.eqb (length w) _); [|reflexivity]. cbn [bind].
  destruct (Nat.eqb (length (@nil Z)) _); reflexivity.
Qed.

(** ** C96: slices by order *)
(** A bound of a slice; a negative one counts back from the end, [n]. *)
Definition bound (n : Z) (default : Z) (z : option Z) : Z :=
  match z with None => default | Some z => if (z <? 0)%Z then (n + z)%Z else z end.

Lemma in_slice : forall A a b (l : list A) (d x : A), 
  In x (slice a b l) <-> exists k, (k < length l)%nat /\ nth k l d = x /\
    (bound (Z.of_nat (length l)) 0 a <= Z.of_nat k < bound (Z.of_nat (length l)) (Z.of_nat (length l)) b)%Z.
Proof.
  intros A a b l d x. unfold slice. set (n := length l).
  set (lo := match a with None => 0%nat | Some z => slice_bound n z end). set (hi := match b with None => n | Some z => slice_bound n z end).
  assert (LO : forall k, (k < n)%nat -> ((lo <= k)%nat <-> (bound (Z.of_nat n) 0 a <= Z.of_nat k)%Z)).
  { intros k Hk. unfold lo, bound, slice_bound. destruct a as [z|]; [|lia]. destruct (Z.ltb_spec z 0); lia. }
  assert (HI : forall k, (k < n)%nat -> ((k < hi)%nat <-> (Z.of_nat k < bound (Z.of_nat n) (Z.of_nat n) b)%Z)).
  { intros k Hk. unfold hi, bound, slice_bound. destruct b as [z|]; [|lia]. destruct (Z.ltb_spec z 0); lia. }
  split.
  - intro H. apply (In_nth _ _ d) in H. destruct H as (j & Hj & E). rewrite firstn_length, skipn_length in Hj.
    exists (lo + j)%nat. fold n in Hj. assert (K : (lo + j < n)%nat) by lia. split; [exact K|]. split.
    + rewrite <- E. rewrite nth_firstn by lia. now rewrite nth_skipn.
    + rewrite <- LO, <- HI by exact K. lia.
  - intros (k & Hk & E & Hb). rewrite <- LO, <- HI in Hb by exact Hk. rewrite <- E.
    replace (nth k l d) with (nth (k - lo) (firstn (hi - lo) (skipn lo l)) d).
    + apply nth_In. rewrite firstn_length, skipn_length. fold n. lia.
    + rewrite nth_firstn by lia. rewrite nth_skipn. f_equal. lia.
Qed.

(** In the natural ordering a slice [a:b] keeps exactly the images with an order in the slice, in their
    natural order, with all that belongs to them; it raises if there are none. *)
Theorem C96_slice : forall s a b, lined_up s -> ordering s = Order ->
  (length (position s) = 2 \/ length (position s) = 3)%nat ->
  top_order s -> Forall (fun o => (0 <= o)%Z) (orders s) ->
  let top := (max_order s + 1)%Z in
  let idx := filter (fun k => (bound top 0 a <=? nth k (orders s) 0)%Z && (nth k (orders s) 0 <? bound top top b)%Z) (seq 0 (length (images s))) in
  (idx <> [] -> exists t, getitem s (Slice a b) = Some t /\ picks s t idx /\ lined_up t /\ top_order t /\ ordering t = Order) /\
  (idx = [] -> getitem s (Slice a b) = None).
Proof.
  intros s a b HL Ho Hp [Hi Ht] H0 top idx. pose proof HL as (L1 & L2 & L3 & L4). cbn [getitem]. rewrite Ho.
  set (P := slice a b (map Z.of_nat (seq 0 (Z.to_nat (max_order s + 1))))).
  set (f := fun o => existsb (Z.eqb o) P).
  assert (Hm : (0 <= max_order s)%Z) by (rewrite Forall_forall in H0; now apply H0).
  assert (EF : filter (fun k => f (nth k (orders s) 0%Z)) (seq 0 (length (images s))) = idx).
  { apply filter_ext_in. intros k Hk. apply in_seq in Hk.
    assert (B : (0 <= nth k (orders s) 0 <= max_order s)%Z).
    { rewrite Forall_forall in H0, Ht. assert (In (nth k (orders s) 0%Z) (orders s)) by (apply nth_In; lia). split; auto. }
    set (o := nth k (orders s) 0%Z) in *.
    assert (Q : f o = true <-> (bound top 0 a <= o < bound top top b)%Z).
    { unfold f. rewrite existsb_exists. split.
      - intros (x & Hx & Ex). apply Z.eqb_eq in Ex. subst x. unfold P in Hx. rewrite (in_slice _ _ _ _ 0%Z) in Hx.
        destruct Hx as (j & Hj & Ej & Hb). rewrite map_length, seq_length in *. rewrite nth_map_seq in Ej by exact Hj.
        rewrite Z2Nat.id in Hb by lia. fold top in Hb. lia.
      - intro Hb. exists o. split; [|apply Z.eqb_refl]. unfold P. rewrite (in_slice _ _ _ _ 0%Z). exists (Z.to_nat o).
        rewrite map_length, seq_length. split; [lia|]. split; [rewrite nth_map_seq by lia; lia|]. rewrite !Z2Nat.id by lia. fold top. exact Hb. }
    destruct (f o) eqn:E; symmetry.
    - apply andb_true_iff. rewrite Z.leb_le, Z.ltb_lt. now apply Q.
    - apply andb_false_iff. rewrite Z.leb_gt, Z.ltb_ge. destruct (Z_lt_le_dec o (bound top 0 a)); [left; lia|right].
      destruct (Z_lt_le_dec o (bound top top b)); [|lia]. assert (false = true) by (apply Q; lia). discriminate. }
  assert (HS : forall A (l : list A), length l = length (images s) -> exists r, take_mask l (map f (orders s)) = Some r /\ entries l idx r).
  { intros A l Hl. rewrite <- EF. destruct (take_mask_entries A l (orders s) f ltac:(lia)) as (r & E1 & E2). rewrite Hl in E2. now exists r. }
  split.
  - intro Hne. destruct (subset_ok s idx (fun A l => take_mask l (map f (orders s))) HL Hne Hp HS) as (t & E & P1 & P2 & P3 & P4 & _).
    exists t. tauto.
  - intro Hnil. apply subset_none. destruct (HS Z (orders s) L4) as (r & E1 & E2). rewrite E1, Hnil in *. now inversion E2.
Qed.

(** A list of integers picks the images at these places, the negative ones counted from the end; it
    raises if one is out of range or the list is empty. *)
Theorem C96_items : forall s l, lined_up s -> (length (position s) = 2 \/ length (position s) = 3)%nat ->
  let n := Z.of_nat (length (images s)) in
  (l <> [] -> Forall (fun i => (- n <= i < n)%Z) l ->
     exists t, getitem s (Items l) = Some t /\ picks s t (map (fun i => Z.to_nat (if (i <? 0)%Z then n + i else i)) l) /\ lined_up t /\ top_order t /\ ordering t = Order) /\
  (l = [] \/ (exists i, In i l /\ ~ (- n <= i < n)%Z) -> getitem s (Items l) = None).
Proof.
  intros s l HL Hp n. pose proof HL as (L1 & L2 & L3 & L4). cbn [getitem]. split.
  - intros Hne HF. set (idx := map (fun i => Z.to_nat (if (i <? 0)%Z then n + i else i)) l).
    assert (HB : Forall (fun k => (k < length (images s))%nat) idx).
    { unfold idx. rewrite Forall_map. eapply Forall_impl; [|exact HF]. intros i Hi. cbv beta in Hi |- *. destruct (Z.ltb_spec i 0); lia. }
    assert (HM : mapM (wrap (length (images s))) l = Some idx).
    { clear - HF. unfold idx. induction HF as [|i l Hi HF IH]; [reflexivity|]. cbn [mapM map]. rewrite IH. unfold wrap. fold n. cbv zeta.
      assert (E : ((0 <=? (if (i <? 0)%Z then n + i else i)) && ((if (i <? 0)%Z then n + i else i) <? n))%Z = true). { apply andb_true_iff. rewrite Z.leb_le, Z.ltb_lt. destruct (Z.ltb_spec i 0); lia. }
      rewrite E. reflexivity. }
    destruct (subset_ok s idx (fun A c => let* idx := mapM (wrap (length c)) l in take_at c idx) HL) as (t & E & P1 & P2 & P3 & P4 & _); auto.
    + unfold idx. destruct l; [congruence|discriminate].
    + intros A c Hc. rewrite Hc, HM. cbn [bind]. apply take_at_entries. now rewrite Hc.
    + exists t. tauto.
  - intros [-> | (i & Hi & Ho)]; [apply subset_none; reflexivity|]. unfold subset.
    assert (E : mapM (wrap (length (images s))) l = None).
    { clear - Hi Ho. induction l as [|j l IH]; [destruct Hi|]. cbn [mapM]. destruct Hi as [-> | Hi].
      - unfold wrap. fold n. cbv zeta. assert (E : ((0 <=? (if (i <? 0)%Z then n + i else i)) && ((if (i <? 0)%Z then n + i else i) <? n))%Z = false). { apply andb_false_iff. rewrite Z.leb_gt, Z.ltb_ge. destruct (Z.ltb_spec i 0); lia. } now rewrite E.
      - destruct (wrap _ j); [|reflexivity]. cbn [bind]. now rewrite IH. }
    rewrite E. reflexivity.
Qed.
Print Assumptions C96_items.

(** A new source has one image, itself; with images given the arrays must all be there and lined up. *)
Theorem C96_make : forall pos sig dly dir, (length pos = 2 \/ length pos = 3)%nat ->
  (exists s, make_source pos None None None None None sig dly dir = Some s /\ images s = [pos] /\ damping s = [[1]] /\ orders s = [0%Z] /\
     lined_up s /\ top_order s /\ ordering s = Order /\ directivity s = dir) /\
  (forall im d g w o s, make_source pos (Some im) d g w o sig dly dir = Some s ->
     lined_up s /\ top_order s /\ ordering s = Order /\ images s = im /\ g = Some (generators s) /\ w = Some (walls s) /\ o = Some (orders s) /\
     damping s = match d with Some d' => d' | None => map (fun _ => [1]) im end).
Proof.
  intros pos sig dly dir Hp.
  assert (Hb : (Nat.eqb (length pos) 2 || Nat.eqb (length pos) 3)%bool = true) by (destruct Hp as [-> | ->]; reflexivity).
  split.
  - unfold make_source. rewrite Hb. cbn [negb]. eexists. split; [reflexivity|]. unfold lined_up, top_order. cbn. repeat split; auto. repeat constructor; lia.
  - intros im d g w o s H. unfold make_source in H. rewrite Hb in H. cbn [negb] in H.
    destruct (Nat.eqb_spec (length match d with Some d0 => d0 | None => repeat [1] (length im) end) (length im)) as [Ld|]; [|discriminate].
    destruct g as [g|]; [|discriminate]. cbn [given negb] in H. destruct (Nat.eqb_spec (length g) (length im)) as [Lg|]; [|discriminate].
    destruct w as [w|]; [|discriminate]. cbn [given bind] in H. destruct (Nat.eqb_spec (length w) (length im)) as [Lw|]; [|discriminate].
    destruct o as [o|]; [|discriminate]. cbn [given bind] in H. destruct (Nat.eqb_spec (length o) (length im)) as [Lo|]; [|discriminate].
    cbn [bind] in H. destruct o as [|x o]; [discriminate|]. destruct (zmax_spec (x :: o)) as (m & Em & Hm & HM); [discriminate|].
    rewrite Em in H. cbn [bind] in H. injection H as <-. unfold lined_up, top_order. cbn [images damping generators walls orders ordering max_order].
    repeat split; auto. destruct d as [d|]; [reflexivity|]. clear. induction im as [|a im IH]; [reflexivity|]. cbn. now rewrite IH.
Qed.

(** A source at the origin of the plane with its image at (4, 0) through wall 1. *)
Definition ex_source : sound_source :=
  {| position := [0; 0]; images := [[0; 0]; [4; 0]]; damping := [[1]; [/ 2]]; generators := [-1; 0]%Z; walls := [-1; 1]%Z; orders := [0; 1]%Z;
     index_I := [0; 1]%nat; ordering := Order; signal := Some [1; 2]; delay := 0; max_order := 1; directivity := Some 7%nat |}.

Example C96_ex : exists t, getitem ex_source (Slice (Some 1%Z) None) = Some t /\ images t = [[4; 0]] /\ damping t = [[/ 2]] /\ walls t = [1%Z].
Proof. eexists. split; [reflexivity|]. repeat split. Qed.
Example C96_items_ex : exists t, getitem ex_source (Items [(-1)%Z; 0%Z]) = Some t /\ images t = [nth 1 (images ex_source) []; nth 0 (images ex_source) []].
Proof. eexists. split; reflexivity. Qed.
Example C96_ex_hyp : lined_up ex_source /\ top_order ex_source /\ Forall (fun o => (0 <= o)%Z) (orders ex_source).
Proof. unfold lined_up, top_order. cbn. repeat split; auto; repeat constructor; lia. Qed.

(** The directivity is lost. *)
Theorem C96_directivity_refuted : exists s t a b, lined_up s /\ directivity s <> None /\ getitem s (Slice a b) = Some t /\ directivity t = None.
Proof. exists ex_source. eexists. exists None, None. split; [apply C96_ex_hyp|]. split; [discriminate|]. split; reflexivity. Qed.

(** The generators are not renumbered: the image of the subset has a generator that is not in it. *)
Theorem C96_generators_refuted : exists s t a b, lined_up s /\
  (forall k, (k < length (images s))%nat -> (nth k (generators s) 0 < Z.of_nat (length (images s)))%Z) /\
  getitem s (Slice a b) = Some t /\ exists k, (k < length (images t))%nat /\ (Z.of_nat k <= nth k (generators t) 0)%Z.
Proof.
  exists ex_source. eexists. exists (Some 1%Z), None. split; [apply C96_ex_hyp|]. split.
  - intros [|[|k]] H; [reflexivity|reflexivity|]. cbn in H. lia.
  - split; [reflexivity|]. exists 0%nat. split; [exact Nat.lt_0_1|]. discriminate.
Qed.

(** An integer between the brackets always raises. *)
Theorem C96_integer_refuted : exists s, lined_up s /\ images s <> [] /\ forall i, getitem s (Int i) = None.
Proof. exists ex_source. split; [apply C96_ex_hyp|]. split; [discriminate|]. reflexivity. Qed.

(** After the simulation has stored its images in a new source, slices see order 0 only: [src[:]] and
    [src[0:2]] do not contain the first order images. *)
Theorem C96_engine_refuted : exists pos s imgs damp wls ords t, make_source pos None None None None None None 0 None = Some s /\
  lined_up (fill s imgs damp wls ords) /\ getitem (fill s imgs damp wls ords) (Slice None None) = Some t /\
  In [4; 0] imgs /\ ~ In [4; 0] (images t).
Proof.
  exists [0; 0]. eexists. exists [[0; 0]; [4; 0]], [[1]; [/ 2]], [-1; 1]%Z, [0; 1]%Z. eexists. split; [reflexivity|]. split; [repeat split|].
  split; [reflexivity|]. split; [right; left; reflexivity|]. cbn. intros [Q|[]]. injection Q as Q. lra.
Qed.

(** Images cannot be given without generators, walls and orders, though they are optional. *)
Theorem C96_optional_refuted : exists pos im, (length pos = 2)%nat /\ Forall (fun i => length i = 2%nat) im /\ im <> [] /\
  make_source pos (Some im) None None None None None 0 None = None.
Proof. exists [0; 0], [[4; 0]]. repeat split; try discriminate. repeat constructor. Qed.

(** ** C97: nearest ordering *)
(** The images [idx] are different, sorted by distance to [p], and none of the others is nearer. *)
Definition nearest (s : sound_source) (p : vec) (idx : list nat) : Prop :=
  let d k := vdist (nth k (images s) []) p in
  NoDup idx /\ (forall i j, (i < j < length idx)%nat -> d (nth i idx 0%nat) <= d (nth j idx 0%nat)) /\
  (forall i k, In i idx -> (k < length (images s))%nat -> ~ In k idx -> d i <= d k).

Lemma nth_firstn_nat : forall (l : list nat) k a, (k < a)%nat -> nth k (firstn a l) 0%nat = nth k l 0%nat.
Proof. intros l k a H. exact (nth_firstn 0%nat a l k H). Qed.

Lemma argsort_first : forall argsort d n, is_argsort argsort ->
  let idx := firstn n (argsort d) in
  NoDup idx /\ length idx = Nat.min n (length d) /\ Forall (fun k => (k < length d)%nat) idx /\
  (forall i j, (i < j < length idx)%nat -> nth (nth i idx 0%nat) d 0 <= nth (nth j idx 0%nat) d 0) /\
  (forall i k, In i idx -> (k < length d)%nat -> ~ In k idx -> nth i d 0 <= nth k d 0).
Proof.
  intros argsort d n Ha idx. destruct (Ha d) as [Hp Hs]. pose proof (Permutation_length Hp) as Hl. rewrite seq_length in Hl.
  assert (HN : NoDup (argsort d)) by (apply (Permutation_NoDup (Permutation_sym Hp)), seq_NoDup).
  assert (Li : length idx = Nat.min n (length d)) by (unfold idx; rewrite firstn_length; lia).
  assert (Hsub : forall k, In k idx -> In k (argsort d)) by (intros k Hk; rewrite <- (firstn_skipn n); apply in_or_app; now left).
  split; [|split; [exact Li|split; [|split]]].
  - unfold idx. rewrite <- (firstn_skipn n) in HN. clear - HN. induction (firstn n (argsort d)) as [|x l IH]; [constructor|].
    cbn in HN. inversion HN; subst. constructor; [|now apply IH]. intro Q. apply H1. apply in_or_app. now left.
  - apply Forall_forall. intros k Hk. apply Hsub in Hk. apply (Permutation_in _ Hp) in Hk. apply in_seq in Hk. lia.
  - intros i j Hij. unfold idx. rewrite !nth_firstn_nat by lia. apply Hs. lia.
  - intros i k Hi Hk Hn. apply (In_nth _ _ 0%nat) in Hi. destruct Hi as (a & La & Ea).
    assert (Hka : In k (argsort d)) by (apply (Permutation_in _ (Permutation_sym Hp)), in_seq; lia).
    apply (In_nth _ _ 0%nat) in Hka. destruct Hka as (b & Lb & Eb).
    assert (Hab : (a < b)%nat).
    { destruct (Nat.lt_ge_cases b (length idx)) as [Q|Q]; [|lia]. exfalso. apply Hn. rewrite <- Eb. 
      replace (nth b (argsort d) 0%nat) with (nth b idx 0%nat) by (unfold idx; apply nth_firstn_nat; lia). now apply nth_In. }
    rewrite <- Ea, <- Eb. unfold idx. rewrite nth_firstn_nat by lia. apply Hs. lia.
Qed.

Lemma distances_nth : forall s p d k, distances s p = Some d -> length d = length (images s) /\
  ((k < length (images s))%nat -> nth k d 0 = vdist (nth k (images s) []) p).
Proof.
  intros s p d k H. unfold distances in H. destruct (forallb _ _); [|discriminate]. assert (d = map (fun im => vdist im p) (images s)) as -> by congruence.
  split; [apply map_length|]. intro Hk. rewrite (nth_indep _ 0 (vdist [] p)) by (now rewrite map_length). now rewrite (map_nth (fun im => vdist im p)).
Qed.

(** After [set_ordering('nearest', p)], [s[:n]] has the [n] nearest images, nearest first. *)
Theorem C97_nearest : forall argsort s p n, is_argsort argsort -> lined_up s -> (length (position s) = 2 \/ length (position s) = 3)%nat ->
  images s <> [] -> Forall (fun im => length im = length p) (images s) -> (0 < n)%nat ->
  exists s', set_ordering argsort s Nearest (Some p) = (s', false) /\ images s' = images s /\
    exists t idx, getitem s' (Slice None (Some (Z.of_nat n))) = Some t /\ picks s t idx /\
      length idx = Nat.min n (length (images s)) /\ nearest s p idx.
Proof.
  intros argsort s p n Ha HL Hp Hne Hd Hn.
  assert (Ed : distances s p = Some (map (fun im => vdist im p) (images s))).
  { unfold distances. replace (forallb _ _) with true; [reflexivity|]. symmetry. apply forallb_forall. intros im Hi. rewrite Forall_forall in Hd. now apply Nat.eqb_eq, Hd. }
  unfold set_ordering. rewrite Ed. set (d := map (fun im => vdist im p) (images s)) in *.
  eexists. split; [reflexivity|]. split; [reflexivity|].
  destruct (distances_nth s p d 0 Ed) as [Ld _].
  assert (Dn : forall k, (k < length (images s))%nat -> nth k d 0 = vdist (nth k (images s) []) p) by (intro k; apply (distances_nth s p d k Ed)).
  destruct (argsort_first argsort d n Ha) as (A1 & A2 & A3 & A4 & A5). set (idx := firstn n (argsort d)) in *. rewrite Ld in *.
  assert (Hin : idx <> []). { intro Q. rewrite Q in A2. cbn in A2. destruct (images s); [congruence|cbn in A2; lia]. }
  set (s' := with_ordering s Nearest (argsort d)).
  assert (Es : slice None (Some (Z.of_nat n)) (index_I s') = idx).
  { unfold slice, s', idx. cbn [with_ordering index_I skipn]. rewrite Nat.sub_0_r. unfold slice_bound. destruct (Z.ltb_spec (Z.of_nat n) 0); [lia|].
    rewrite Nat2Z.id. destruct (Nat.le_ge_cases n (length (argsort d))) as [Q|Q]; [now rewrite Nat.min_l by exact Q|].
    rewrite Nat.min_r by exact Q. rewrite firstn_all. symmetry. now apply firstn_all2. }
  destruct (subset_ok s' idx (fun A l => take_at l idx) HL Hin Hp) as (t & E & P & _).
  { intros A l Hl. apply take_at_entries. rewrite Hl. exact A3. }
  exists t, idx. cbn [getitem]. change (ordering s') with Nearest. cbv iota. rewrite Es. split; [exact E|]. split; [exact P|]. split; [exact A2|].
  assert (Hlt : forall i, In i idx -> (i < length (images s))%nat) by (rewrite Forall_forall in A3; exact A3).
  split; [exact A1|]. split.
  - intros i j Hij. rewrite <- !Dn; [now apply A4| |]; apply Hlt, nth_In; lia.
  - intros i k Hi Hk Hnk. rewrite <- !Dn; auto.
Qed.

(** 'strongest' is refused for every source, and yet changes the ordering of the object. *)
Theorem C97_strongest_refuted : exists s p, lined_up s /\ Forall (fun im => length im = length p) (images s) /\
  forall argsort, snd (set_ordering argsort s Strongest (Some p)) = true /\ ordering (fst (set_ordering argsort s Strongest (Some p))) = Strongest.
Proof. exists ex_source, [1; 1]. split; [apply C96_ex_hyp|]. split; [repeat constructor|]. intro. split; reflexivity. Qed.

(** A refused call changes what later slices mean: [s[1:2]] was the images of order one and becomes the
    second image. *)
Definition ex_source3 : sound_source :=
  {| position := [0; 0]; images := [[0; 0]; [4; 0]; [0; 6]]; damping := [[1]; [/ 2]; [/ 2]]; generators := [-1; 0; 0]%Z; walls := [-1; 1; 2]%Z;
     orders := [0; 1; 1]%Z; index_I := [0; 1; 2]%nat; ordering := Order; signal := None; delay := 0; max_order := 1; directivity := None |}.
Theorem C97_failed_refuted : exists s k t t', lined_up s /\
  getitem s (Slice (Some 1) (Some 2))%Z = Some t /\ length (images t) = 2%nat /\
  forall argsort, exists s', set_ordering argsort s k None = (s', true) /\
  getitem s' (Slice (Some 1) (Some 2))%Z = Some t' /\ length (images t') = 1%nat.
Proof.
  exists ex_source3, Nearest. eexists. eexists. split; [repeat split|]. split; [reflexivity|]. split; [reflexivity|]. intro.
  eexists. split; [reflexivity|]. split; reflexivity.
Qed.

(** The order is that of the images at the time of the call: the images that a simulation adds afterwards
    are left out. *)
Theorem C97_stale_refuted : exists s imgs damp wls ords p, lined_up s /\ lined_up (fill s imgs damp wls ords) /\ length imgs = 2%nat /\
  forall argsort, is_argsort argsort -> exists s' t, set_ordering argsort s Nearest (Some p) = (s', false) /\
    getitem (fill s' imgs damp wls ords) (Slice None None) = Some t /\ length (images t) = 1%nat.
Proof.
  exists {| position := [0; 0]; images := [[0; 0]]; damping := [[1]]; generators := [-1]%Z; walls := [-1]%Z; orders := [0]%Z;
     index_I := [0]%nat; ordering := Order; signal := None; delay := 0; max_order := 0; directivity := None |}.
  exists [[0; 0]; [4; 0]], [[1]; [/ 2]], [-1; 1]%Z, [0; 1]%Z, [1; 1].
  split; [repeat split|]. split; [repeat split|]. split; [reflexivity|]. intros argsort Ha. cbn [set_ordering distances images forallb length Nat.eqb andb map].
  set (d := [vdist [0; 0] [1; 1]]).
  assert (E : argsort d = [0%nat]) by (destruct (Ha d) as [P _]; apply Permutation_sym, Permutation_length_1_inv in P; exact P).
  eexists. eexists. split; [reflexivity|]. rewrite E. split; reflexivity.
Qed.

(** A list of positions does not follow the ordering, unlike a slice. *)
Theorem C97_list_refuted : exists s p, lined_up s /\ forall argsort, is_argsort argsort ->
  exists s' t t', set_ordering argsort s Nearest (Some p) = (s', false) /\ getitem s' (Slice (Some 0) (Some 1))%Z = Some t /\ getitem s' (Items [0%Z]) = Some t' /\
    images t = [[4; 0]] /\ images t' = [[0; 0]].
Proof.
  exists ex_source, [4; 0]. split; [apply C96_ex_hyp|]. intros argsort Ha. cbn [set_ordering distances images ex_source forallb length Nat.eqb andb map].
  set (d := [vdist [0; 0] [4; 0]; vdist [4; 0] [4; 0]]).
  assert (D0 : vdist [4; 0] [4; 0] = 0). { unfold vdist, vnorm. replace (vsq _) with 0; [apply sqrt_0|]. unfold vsq, dot, vminus, Rsum. cbn. ring. }
  assert (D1 : 0 < vdist [0; 0] [4; 0]). { unfold vdist, vnorm. apply sqrt_lt_R0. unfold vsq, dot, vminus, Rsum. cbn. lra. }
  assert (E : argsort d = [1; 0]%nat).
  { destruct (Ha d) as [P Q]. specialize (Q 0%nat 1%nat ltac:(cbn; lia)). cbn [length seq d] in P. fold d in P. apply Permutation_sym, Permutation_length_2_inv in P.
    destruct P as [P|P]; [|exact P]. rewrite P in Q. unfold d in Q. cbn [nth] in Q. rewrite D0 in Q. lra. }
  eexists. eexists. eexists. split; [reflexivity|]. rewrite E. repeat split.
Qed.

(** ** C98: getters *)
(** [get_images(max_order)] and [get_damping(max_order)] return the images up to this order, and their
    damping, in natural order. *)
Theorem C98_up_to_order : forall argsort s m, lined_up s ->
  let idx := filter (fun k => (nth k (orders s) 0 <=? m)%Z) (seq 0 (length (images s))) in
  exists im d, get_images argsort s (Some m) None None = Some im /\ get_damping s (Some m) = Some d /\
    entries (images s) idx im /\ entries (damping s) idx d.
Proof.
  intros argsort s m (L1 & L2 & L3 & L4) idx. unfold get_images, get_damping. cbn [bind].
  destruct (take_mask_entries _ (images s) (orders s) (fun o => (o <=? m)%Z) ltac:(lia)) as (im & E1 & F1).
  destruct (take_mask_entries _ (damping s) (orders s) (fun o => (o <=? m)%Z) ltac:(lia)) as (d & E2 & F2).
  rewrite E1, E2. cbn [bind]. exists im, d. rewrite L1 in F2. repeat split; assumption.
Qed.

(** Without a maximum order all images are returned. *)
Theorem C98_all : forall argsort s, lined_up s -> images s <> [] -> get_images argsort s None None None = Some (images s).
Proof.
  intros argsort s HL Hne. pose proof HL as (L1 & L2 & L3 & L4).
  destruct (zmax_spec (orders s)) as (m & Em & Hm & HM). { intro Q. rewrite Q in L4. destruct (images s); [congruence|discriminate]. }
  unfold get_images. rewrite Em. cbn [bind].
  destruct (take_mask_entries _ (images s) (orders s) (fun o => (o <=? m)%Z) ltac:(lia)) as (im & E1 & F1). rewrite E1. cbn [bind]. f_equal.
  assert (EF : filter (fun k => (nth k (orders s) 0 <=? m)%Z) (seq 0 (length (images s))) = seq 0 (length (images s))).
  { rewrite (filter_ext_in _ (fun _ => true)). - clear. induction (seq 0 (length (images s))); cbn; congruence.
    - intros k Hk. apply in_seq in Hk. apply Z.leb_le. rewrite Forall_forall in HM. apply HM, nth_In. lia. }
  rewrite EF in F1. exact (entries_fun _ _ _ _ _ F1 (entries_all _ _)).
Qed.

(** With [n_nearest] and a reference point given as a column: the [n] nearest of all images. *)
Theorem C98_nearest : forall argsort s p n, is_argsort argsort -> lined_up s -> images s <> [] ->
  Forall (fun im => length im = length p) (images s) ->
  exists im idx, get_images argsort s None (Some n) (Some (Column p)) = Some im /\ entries (images s) idx im /\
    length idx = Nat.min n (length (images s)) /\ nearest s p idx.
Proof.
  intros argsort s p n Ha HL Hne Hd. pose proof (C98_all argsort s HL Hne) as H. unfold get_images in *. destruct (zmax (orders s)) as [m|]; [|discriminate].
  cbn [bind] in *. destruct (take_mask _ _) as [img|]; [|discriminate]. cbn [bind] in *. assert (img = images s) as -> by congruence. clear H.
  cbn [sq_distances]. replace (forallb _ _) with true by (symmetry; apply forallb_forall; intros im Hi; rewrite Forall_forall in Hd; now apply Nat.eqb_eq, Hd).
  cbn [bind]. set (d := map (fun im => vsq (vminus im p)) (images s)).
  assert (Ld : length d = length (images s)) by apply map_length.
  destruct (argsort_first argsort d n Ha) as (A1 & A2 & A3 & A4 & A5). set (idx := firstn n (argsort d)) in *. rewrite Ld in *.
  destruct (take_at_entries _ (images s) idx A3) as (im & E & F). exists im, idx. split; [exact E|]. split; [exact F|]. split; [exact A2|].
  assert (Dn : forall k, (k < length (images s))%nat -> vdist (nth k (images s) []) p = sqrt (nth k d 0)).
  { intros k Hk. unfold d. rewrite (nth_indep _ 0 (vsq (vminus [] p))) by (now rewrite map_length). rewrite (map_nth (fun im => vsq (vminus im p))). reflexivity. }
  assert (Hlt : forall i, In i idx -> (i < length (images s))%nat) by (rewrite Forall_forall in A3; exact A3).
  split; [exact A1|]. split.
  - intros i j Hij. rewrite !Dn by (apply Hlt, nth_In; lia). apply sqrt_le_1_alt. now apply A4.
  - intros i k Hi Hk Hnk. rewrite !Dn by auto. apply sqrt_le_1_alt. now apply A5.
Qed.

(** A reference point given flat is used wrongly when there are as many images as dimensions: the nearest
    image is not returned. *)
Theorem C98_flat_refuted : exists s p im, lined_up s /\ Forall (fun i => length i = length p) (images s) /\
  (forall argsort, is_argsort argsort -> get_images argsort s None (Some 1%nat) (Some (Flat p)) = Some [im]) /\
  exists k, (k < length (images s))%nat /\ vdist (nth k (images s) []) p < vdist im p.
Proof.
  set (s := {| position := [0; 0]; images := [[0; 0]; [0; 5]]; damping := [[1]; [1]]; generators := [-1; 0]%Z; walls := [-1; 0]%Z; orders := [0; 1]%Z;
     index_I := [0; 1]%nat; ordering := Order; signal := None; delay := 0; max_order := 1; directivity := None |}).
  exists s, [0; 5], [0; 0]. split; [repeat split|]. split; [repeat constructor|]. split.
  - intros argsort Ha. unfold get_images, s. cbn [orders images zmax fold_left Z.max bind map].
    change (take_mask [[0; 0]; [0; 5]] _) with (Some [[0; 0]; [0; 5]]). cbn [bind sq_distances length Nat.eqb].
    set (d := map2 _ _ _).
    assert (Ed : d = [0; 25]) by (unfold d, Rsum; cbn [map2 map fold_right]; repeat f_equal; ring).
    destruct (Ha d) as [P Q]. assert (Ld : length d = 2%nat) by (now rewrite Ed). rewrite Ld in *. specialize (Q 0%nat 1%nat ltac:(lia)).
    apply Permutation_sym, Permutation_length_2_inv in P. destruct P as [P|P]; rewrite P in *; [reflexivity|].
    rewrite Ed in Q. cbn [nth] in Q. lra.
  - exists 1%nat. split; [cbn; lia|]. cbn [s images nth]. unfold vdist, vnorm. apply sqrt_lt_1_alt. unfold vsq, dot, vminus, Rsum. cbn. lra.
Qed.

(** [get_damping()] always raises. *)
Theorem C98_damping_refuted : exists s, lined_up s /\ images s <> [] /\ get_damping s None = None.
Proof. exists ex_source. split; [apply C96_ex_hyp|]. split; [discriminate|reflexivity]. Qed.

(** [wall_sequence] never returns: it runs for ever or raises. *)
Theorem C98_wall_sequence_refuted : exists s, lined_up s /\ images s <> [] /\ forall fuel i, wall_sequence fuel s i = None.
Proof.
  exists ex_source. split; [apply C96_ex_hyp|]. split; [discriminate|]. intros fuel i. unfold wall_sequence.
  assert (L : forall fuel s p w, wall_loop fuel s p w = None).
  { clear. induction fuel as [|n IH]; intros s p w; [reflexivity|]. cbn [wall_loop].
    destruct (wrap _ _); [|reflexivity]. destruct (wrap _ _); [|reflexivity]. cbn [bind]. destruct (nth_error _ _); [|reflexivity].
    destruct (nth_error _ _); [|reflexivity]. cbn [bind]. apply IH. }
  unfold bind at 1 2 3 4. repeat match goal with |- match ?e with Some _ => _ | None => None end = None => destruct e; [|reflexivity] end. apply L.
Qed.

Print Assumptions C96_slice.
Print Assumptions C97_nearest.
Print Assumptions C98_nearest.
