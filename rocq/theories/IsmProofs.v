(** Proofs about [IsmModel]. *)
From Coq Require Import List ZArith Lia Reals Lra Psatz Bool Sorting.Sorted.
From Verif Require Import Base BaseProofs Vec GeometryModel GeometrySpec GeometryProofs
  WallModel WallSpec WallProofs RayModel RaySpec RayProofs IsmModel IsmSpec.
Import ListNotations.
Local Open Scope R_scope.

Lemma last_change : forall {A} (l : list A) x d, last (x :: l) d = last l x.
Proof.
  induction l as [|y l IH]; intros x d; [reflexivity|].
  change (last (x :: y :: l) d) with (last (y :: l) d). now rewrite !IH.
Qed.

(** ** Words and chains *)
Section Words.
  Variables (r : room) (eps : R) (src : vec).
  Hypothesis He : 0 <= eps.
  Hypothesis Fit : room_fit r.
  Hypothesis Lsrc : length src = r_dim r.

  Fixpoint loc_of (word : list nat) : vec :=
    match word with [] => src | i :: w => snd (reflect eps (get_wall r i) (loc_of w)) end.
  Definition gen_of (word : list nat) : Z := match word with [] => (-1)%Z | i :: _ => Z.of_nat i end.
  Fixpoint chain_of (word : list nat) : list node :=
    (loc_of word, gen_of word) :: match word with [] => [] | _ :: w => chain_of w end.
  Fixpoint adm (word : list nat) : bool :=
    match word with
    | [] => true
    | i :: w => Nat.ltb i (length (r_walls r)) && (0 <? fst (reflect eps (get_wall r i) (loc_of w)))%Z && adm w
    end.

  Lemma get_wall_nth : forall i w, nth_error (r_walls r) i = Some w -> get_wall r i = w.
  Proof. intros. unfold get_wall. now apply nth_error_nth. Qed.
  Lemma nth_get_wall : forall i, (i < length (r_walls r))%nat -> nth_error (r_walls r) i = Some (get_wall r i).
  Proof. intros. unfold get_wall. now apply nth_error_nth'. Qed.

  Lemma fit_wall : forall i, (i < length (r_walls r))%nat -> wall_fit (r_dim r) (get_wall r i).
  Proof. intros i H. destruct Fit as [_ F]. apply F. now apply get_wall_In. Qed.

  Lemma loc_length : forall word, adm word = true -> length (loc_of word) = r_dim r.
  Proof.
    induction word as [|i w IH]; simpl; intros H; auto.
    apply andb_true_iff in H. destruct H as [H1 H2]. apply andb_true_iff in H1. destruct H1 as [H1 _].
    apply Nat.ltb_lt in H1. destruct (fit_wall i H1) as (A & B & C & _).
    specialize (IH H2). fold (loc_of w). vlen.
  Qed.

  Lemma code_pos : forall w p, length (w_origin w) = length (w_normal w) -> length p = length (w_normal w) ->
    ((0 < fst (reflect eps w p))%Z <-> height (w_origin w) (w_normal w) p < - eps).
  Proof.
    intros w p L1 L2. unfold reflect; simpl. unfold height.
    assert (E : dot (w_normal w) (vminus p (w_origin w)) = - dot (w_normal w) (vminus (w_origin w) p)) by (vexp; ring).
    rewrite E. rdec; split; intros; try lia; lra.
  Qed.

  Lemma image_of_iff : forall word q, image_of r eps src word q <-> adm word = true /\ q = loc_of word.
  Proof.
    induction word as [|i w IH]; intros q.
    - split; [intros H; inversion H; auto|]. intros [_ ->]. constructor.
    - split.
      + intros H. inversion H as [|word p i' wl q' H1 H2 H3 H4]; subst.
        apply IH in H1. destruct H1 as [A ->].
        assert (Hi : (i < length (r_walls r))%nat) by (apply nth_error_Some; congruence).
        pose proof (get_wall_nth i wl H2) as G. destruct (fit_wall i Hi) as (L1 & L2 & L3 & _).
        pose proof (loc_length w A) as Lw. rewrite G in *.
        assert (Ap : (0 < fst (reflect eps wl (loc_of w)))%Z) by (apply code_pos; congruence).
        split.
        * cbn [adm]. rewrite G, A, (proj2 (Nat.ltb_lt i _) Hi), (proj2 (Z.ltb_lt 0 _) Ap). reflexivity.
        * cbn [loc_of]. rewrite G.
          apply (is_mirror_unique (w_origin wl) (w_normal wl) (loc_of w)); try congruence.
          apply reflect_is_mirror; congruence.
      + intros [A ->]. cbn [adm] in A.
        apply andb_true_iff in A. destruct A as [A A3]. apply andb_true_iff in A. destruct A as [A1 A2].
        apply Nat.ltb_lt in A1. apply Z.ltb_lt in A2. destruct (fit_wall i A1) as (L1 & L2 & L3 & _).
        pose proof (loc_length w A3) as Lw.
        apply (image_refl r eps src w (loc_of w) i (get_wall r i)).
        * apply IH. auto.
        * now apply nth_get_wall.
        * apply code_pos in A2; congruence.
        * cbn [loc_of]. apply reflect_is_mirror; congruence.
  Qed.

  (** ** Visibility *)
  Lemma blocks_iff : forall word p i, adm word = true -> 
    (blocks r eps p (loc_of word) (gen_of word) (match word with [] => false | _ => true end) i = true
     <-> hides r eps word (loc_of word) p i).
  Proof.
    intros word p i A. unfold blocks, hides. fold (get_wall r i).
    destruct word as [|g w]; cbn [gen_of].
    - destruct (Z.eqb_spec (Z.of_nat i) (-1)) as [E|_]; [lia|].
      destruct (wall_intersection (r_dim r) eps (get_wall r i) (loc_of []) p) as [c [x|]].
      + destruct (Z.eqb_spec c 0) as [->|N0]; [|destruct (Z.eqb_spec c 2) as [->|N2]]; cbn [orb].
        * split; auto. intros _. split; [discriminate|]. exists 0%Z, x. split; auto. split; auto. discriminate.
        * split; auto. intros _. split; [discriminate|]. exists 2%Z, x. split; auto. split; auto. discriminate.
        * split; [discriminate|]. intros (_ & c' & x' & E & [->| ->] & _); injection E as -> _; contradiction.
      + split; [discriminate|]. intros (_ & c' & x' & E & _); discriminate.
    - destruct (Z.eqb_spec (Z.of_nat i) (Z.of_nat g)) as [E|Ne].
      { split; [discriminate|]. intros (H & _). exfalso. apply (H g w eq_refl). lia. }
      rewrite Nat2Z.id.
      assert (Hne : forall g' ws, g :: w = g' :: ws -> i <> g').
      { intros g' ws [= <- _] ->. lia. }
      destruct (wall_intersection (r_dim r) eps (get_wall r i) (loc_of (g :: w)) p) as [c [x|]].
      + assert (K : negb (side eps (get_wall r g) (loc_of (g :: w)) =? side eps (get_wall r g) x)%Z
                    && negb (side eps (get_wall r g) x =? 0)%Z = true <->
                    forall g' ws, g :: w = g' :: ws ->
                      side eps (get_wall r g') x <> side eps (get_wall r g') (loc_of (g :: w)) /\
                      side eps (get_wall r g') x <> 0%Z).
        { rewrite andb_true_iff, !negb_true_iff, !Z.eqb_neq. split.
          - intros [H1 H2] g' ws [= <- _]. split; auto.
          - intros H. destruct (H g w eq_refl). split; auto. }
        destruct (Z.eqb_spec c 0) as [->|N0]; [|destruct (Z.eqb_spec c 2) as [->|N2]]; cbn [orb].
        * rewrite K. split.
          -- intros H. split; auto. exists 0%Z, x. auto.
          -- intros (_ & c' & x' & E & _ & H). injection E as _ <-. exact H.
        * rewrite K. split.
          -- intros H. split; auto. exists 2%Z, x. auto.
          -- intros (_ & c' & x' & E & _ & H). injection E as _ <-. exact H.
        * split; [discriminate|]. intros (_ & c' & x' & E & [->| ->] & _); injection E as -> _; contradiction.
      + split; [discriminate|]. intros (_ & c' & x' & E & _); discriminate.
  Qed.

  Lemma obstructed_iff : forall word p, adm word = true ->
    (is_obstructed r eps p (loc_of word) (gen_of word) (match word with [] => false | _ => true end) = false
     <-> forall i, In i (r_obs r) -> ~ hides r eps word (loc_of word) p i).
  Proof.
    intros word p A. unfold is_obstructed. split.
    - intros H i Hi Hh. apply (blocks_iff word p i A) in Hh.
      rewrite <- not_true_iff_false in H. apply H. apply existsb_exists. exists i. auto.
    - intros H. apply not_true_iff_false. intros E. apply existsb_exists in E. destruct E as (i & Hi & E).
      apply (blocks_iff word p i A) in E. exact (H i Hi E).
  Qed.

  Lemma chain_of_cons : forall i w, chain_of (i :: w) = (loc_of (i :: w), Z.of_nat i) :: chain_of w.
  Proof. reflexivity. Qed.
  Lemma chain_of_nonempty : forall w, exists n c, chain_of w = n :: c.
  Proof. destruct w; simpl; eauto. Qed.

  Lemma adm_tail : forall i w, adm (i :: w) = true -> adm w = true /\ (i < length (r_walls r))%nat.
  Proof.
    intros i w A. cbn [adm] in A. apply andb_true_iff in A. destruct A as [A A3].
    apply andb_true_iff in A. destruct A as [A1 A2]. apply Nat.ltb_lt in A1. auto.
  Qed.

  Lemma is_visible_iff : forall word p d, adm word = true ->
    (is_visible r eps p (chain_of word) = Some d <->
     exists xs, sees r eps src word p xs /\ d = vnormalized (vminus (first_leg p xs) src)).
  Proof.
    induction word as [|g w IH]; intros p d A.
    - pose proof (obstructed_iff [] p A) as O. cbn in O. cbn [chain_of loc_of gen_of is_visible].
      destruct (is_obstructed r eps p src (-1) false) eqn:E.
      + split; [discriminate|]. intros (xs & S & _). inversion S as [p' H|]; subst.
        apply O in H. discriminate.
      + split.
        * intros [= <-]. exists []. split; auto. constructor. apply O. auto.
        * intros (xs & S & ->). inversion S; subst. reflexivity.
    - pose proof (obstructed_iff (g :: w) p A) as O. cbn [gen_of] in O.
      rewrite chain_of_cons. destruct (adm_tail g w A) as [Aw Hg].
      cbn [is_visible]. destruct (chain_of_nonempty w) as (nd & c & E). rewrite E. cbv iota. rewrite <- E.
      rewrite Nat2Z.id.
      destruct (is_obstructed r eps p (loc_of (g :: w)) (Z.of_nat g) true) eqn:Ob.
      + split; [discriminate|]. intros (xs & S & _).
        inversion S as [|g' w' p' loc c' x xs' I H]; subst.
        apply image_of_iff in I. destruct I as [_ ->]. apply O in H. discriminate.
      + destruct (wall_intersection (r_dim r) eps (get_wall r g) p (loc_of (g :: w))) as [ret [x|]] eqn:W.
        * destruct (Z.leb_spec 0 ret) as [Hr|Hr].
          -- rewrite (IH x d Aw). split.
             ++ intros (xs & S & ->). exists (x :: xs). split.
                ** apply (sees_refl r eps src g w p (loc_of (g :: w)) ret x xs); auto.
                   --- apply image_of_iff. auto.
                   --- apply O. auto.
                ** unfold first_leg. now rewrite last_change.
             ++ intros (xs & S & ->). inversion S as [|g' w' p' loc c' x' xs' I H Wi Hc S']; subst.
                apply image_of_iff in I. destruct I as [_ ->]. fold (get_wall r g) in Wi. rewrite W in Wi.
                injection Wi as <- <-. exists xs'. split; auto. unfold first_leg. now rewrite last_change.
          -- split; [discriminate|]. intros (xs & S & _). inversion S as [|g' w' p' loc c' x' xs' I H Wi Hc S']; subst.
             apply image_of_iff in I. destruct I as [_ ->]. fold (get_wall r g) in Wi. rewrite W in Wi.
             injection Wi as <- <-. lia.
        * split; [discriminate|]. intros (xs & S & _). inversion S as [|g' w' p' loc c' x' xs' I H Wi Hc S']; subst.
          apply image_of_iff in I. destruct I as [_ ->]. fold (get_wall r g) in Wi. rewrite W in Wi. discriminate.
  Qed.

  (** ** The search *)
  Definition kids (word : list nat) : list nat :=
    filter (fun i => adm (i :: word)) (seq 0 (length (r_walls r))).
  Fixpoint words (n : nat) (word : list nat) : list (list nat) :=
    word :: match n with O => [] | S n' => flat_map (fun i => words n' (i :: word)) (kids word) end.
  Definition any_visible (word : list nat) : bool :=
    existsb (fun mic => is_some (is_visible r eps mic (chain_of word))) (r_mics r).
  Fixpoint att_of (word : list nat) : list R :=
    match word with [] => repeat 1 (n_bands r) | i :: w => reflect_att r (get_wall r i) (att_of w) end.

  Definition img_ok (word : list nat) (im : image) : Prop :=
    i_loc im = loc_of word /\ i_att im = att_of word /\ i_order im = Z.of_nat (length word) /\
    i_gen im = gen_of word /\
    i_vis im = map (fun mic => is_some (is_visible r eps mic (chain_of word))) (r_mics r) /\
    length (i_dirs im) = length (r_mics r) /\
    forall m mic d, nth_error (r_mics r) m = Some mic -> is_visible r eps mic (chain_of word) = Some d ->
      nth_error (i_dirs im) m = Some (Some d).

  Lemma nth_error_map2 : forall {A B C} (f : A -> B -> C) l m k a b,
    nth_error l k = Some a -> nth_error m k = Some b -> nth_error (map2 f l m) k = Some (f a b).
  Proof.
    induction l as [|x l IH]; destruct m as [|y m]; intros [|k] a b H1 H2; simpl in *; try discriminate.
    - injection H1 as ->. injection H2 as ->. reflexivity.
    - now apply IH.
  Qed.

  Lemma existsb_map : forall {A B} (f : A -> B) (g : B -> bool) l, existsb g (map f l) = existsb (fun a => g (f a)) l.
  Proof. induction l as [|a l IH]; simpl; congruence. Qed.

  Lemma dfs_ok : forall n word dirs, adm word = true -> length dirs = length (r_mics r) ->
    let res := dfs r eps n (chain_of word) (att_of word) (Z.of_nat (length word)) dirs in
    Forall2 img_ok (filter any_visible (words n word)) (fst res) /\ length (snd res) = length (r_mics r).
  Proof.
    induction n as [|n IH]; intros word dirs A L; cbv zeta.
    - assert (E : chain_of word = (loc_of word, gen_of word) :: match word with [] => [] | _ :: w => chain_of w end)
        by (destruct word; reflexivity).
      cbn [dfs]. rewrite E. cbv iota. rewrite <- E.
      set (vis := map (fun mic => is_visible r eps mic (chain_of word)) (r_mics r)).
      set (dirs' := map2 _ vis dirs).
      assert (Lv : length vis = length (r_mics r)) by (unfold vis; apply map_length).
      assert (Ld : length dirs' = length (r_mics r)) by (unfold dirs'; rewrite map2_length; congruence).
      cbn [fst snd]. split; [|exact Ld].
      rewrite existsb_map. unfold vis at 1. rewrite existsb_map.
      cbn [words filter]. fold (any_visible word).
      change (existsb (fun a : list R => is_some (is_visible r eps a (chain_of word))) (r_mics r)) with (any_visible word).
      destruct (any_visible word); constructor; [|constructor].
      repeat split; auto.
      + cbn. unfold vis. now rewrite map_map.
      + cbn. intros m mic d Hm Hv. unfold dirs'.
        assert (Dm : exists x, nth_error dirs m = Some x).
        { destruct (nth_error dirs m) eqn:E'; eauto. apply nth_error_None in E'.
          assert (m < length (r_mics r))%nat by (apply nth_error_Some; congruence). lia. }
        destruct Dm as (x & Dm).
        rewrite (nth_error_map2 _ vis dirs m (Some d) x); auto.
        unfold vis. erewrite map_nth_error; eauto. now rewrite Hv.
    - assert (E : chain_of word = (loc_of word, gen_of word) :: match word with [] => [] | _ :: w => chain_of w end)
        by (destruct word; reflexivity).
      cbn [dfs]. rewrite E. cbv iota. rewrite <- E.
      set (vis := map (fun mic => is_visible r eps mic (chain_of word)) (r_mics r)).
      set (dirs' := map2 _ vis dirs).
      assert (Lv : length vis = length (r_mics r)) by (unfold vis; apply map_length).
      assert (Ld : length dirs' = length (r_mics r)) by (unfold dirs'; rewrite map2_length; congruence).
      cbn [fst snd]. split; [|exact Ld].
      rewrite existsb_map. unfold vis at 1. rewrite existsb_map.
      cbn [words filter]. 
      change (existsb (fun a : list R => is_some (is_visible r eps a (chain_of word))) (r_mics r)) with (any_visible word).
      assert (Kids : forall ws k st, (forall j, nth_error ws j = nth_error (r_walls r) (k + j)) ->
         length (snd st) = length (r_mics r) ->
         let step st iw :=
          let w := snd iw in
          let '(dir, q) := reflect eps w (loc_of word) in
          if (dir <=? 0)%Z then st else
          let '(imgs, d) := dfs r eps n ((q, Z.of_nat (fst iw)) :: chain_of word)
                                (reflect_att r w (att_of word)) (Z.of_nat (length word) + 1) (snd st) in
          (fst st ++ imgs, d) in
         let st' := fold_left step (combine (seq k (length ws)) ws) st in
         exists imgs, fst st' = fst st ++ imgs /\ length (snd st') = length (r_mics r) /\
           Forall2 img_ok (filter any_visible (flat_map (fun i => words n (i :: word))
                             (filter (fun i => adm (i :: word)) (seq k (length ws))))) imgs).
      { clear dirs dirs' vis Lv Ld L.
        induction ws as [|w ws IHw]; intros k st Hk Ls; cbv zeta.
        - exists []. cbn. rewrite app_nil_r. repeat split; auto.
        - cbn [length seq combine fold_left]. cbv beta. cbn [fst snd].
          assert (Hw : nth_error (r_walls r) k = Some w).
          { specialize (Hk 0%nat). rewrite Nat.add_0_r in Hk. now rewrite <- Hk. }
          assert (Hk' : forall j, nth_error ws j = nth_error (r_walls r) (S k + j)).
          { intros j. specialize (Hk (S j)). cbn in Hk. rewrite Hk. f_equal. lia. }
          assert (Hlt : (k < length (r_walls r))%nat) by (apply nth_error_Some; congruence).
          pose proof (get_wall_nth k w Hw) as G.
          destruct (reflect eps w (loc_of word)) as [dir q] eqn:Rf.
          destruct (Z.leb_spec dir 0) as [Hd|Hd].
          + destruct (IHw (S k) st Hk' Ls) as (imgs & I1 & I2 & I3).
            exists imgs. split; [exact I1|]. split; [exact I2|].
            cbn [filter]. assert (N : adm (k :: word) = false).
            { cbn [adm]. rewrite G, Rf. cbn [fst]. replace (0 <? dir)%Z with false by (symmetry; apply Z.ltb_ge; lia).
              now rewrite andb_false_r. }
            rewrite N. exact I3.
          + assert (Ak : adm (k :: word) = true).
            { cbn [adm]. rewrite G, Rf, A. cbn [fst]. replace (0 <? dir)%Z with true by (symmetry; apply Z.ltb_lt; lia).
              rewrite (proj2 (Nat.ltb_lt k _) Hlt). reflexivity. }
            destruct (IH (k :: word) (snd st) Ak Ls) as [J1 J2].
            assert (Ec : chain_of (k :: word) = (q, Z.of_nat k) :: chain_of word).
            { rewrite chain_of_cons. cbn [loc_of]. now rewrite G, Rf. }
            assert (Ea : att_of (k :: word) = reflect_att r w (att_of word)) by (cbn [att_of]; now rewrite G).
            assert (Eo : Z.of_nat (length (k :: word)) = (Z.of_nat (length word) + 1)%Z) by (cbn [length]; lia).
            rewrite Ec, Ea, Eo in J1, J2.
            destruct (dfs r eps n ((q, Z.of_nat k) :: chain_of word) (reflect_att r w (att_of word))
                        (Z.of_nat (length word) + 1) (snd st)) as [im1 d1] eqn:Df.
            cbn [fst snd] in J1, J2.
            destruct (IHw (S k) (fst st ++ im1, d1) Hk' J2) as (imgs & I1 & I2 & I3). cbn [fst] in I1.
            exists (im1 ++ imgs). split; [rewrite app_assoc; exact I1|]. split; [exact I2|].
            cbn [filter]. rewrite Ak. cbn [flat_map]. rewrite filter_app. apply Forall2_app; auto. }
      destruct (Kids (r_walls r) 0%nat ([], repeat None (length (r_mics r))) (fun j => eq_refl))
        as (imgs & K1 & K2 & K3); [cbn; apply repeat_length|].
      cbn [fst app] in K1.
      fold (kids word) in K3.
      assert (Fin : forall im, (any_visible word = true -> img_ok word im) ->
        Forall2 img_ok (if any_visible word then word :: filter any_visible (flat_map (fun i => words n (i :: word)) (kids word))
                        else filter any_visible (flat_map (fun i => words n (i :: word)) (kids word)))
          ((if any_visible word then [im] else []) ++ imgs)).
      { intros im Him. destruct (any_visible word); cbn [app]; auto. }
      rewrite K1. apply Fin. intros _.
      repeat split; auto.
      + cbn. unfold vis. now rewrite map_map.
      + cbn. intros m mic d Hm Hv. unfold dirs'.
        assert (Dm : exists x, nth_error dirs m = Some x).
        { destruct (nth_error dirs m) eqn:E'; eauto. apply nth_error_None in E'.
          assert (m < length (r_mics r))%nat by (apply nth_error_Some; congruence). lia. }
        destruct Dm as (x & Dm).
        rewrite (nth_error_map2 _ vis dirs m (Some d) x); auto.
        unfold vis. erewrite map_nth_error; eauto. now rewrite Hv.
  Qed.

  (** ** The set of words *)
  Lemma adm_app : forall v w, adm (v ++ w) = true -> adm w = true.
  Proof. induction v as [|i v IH]; simpl app; auto. intros w H. apply adm_tail in H. now apply IH. Qed.

  Lemma words_In : forall n word u, adm word = true ->
    (In u (words n word) <-> adm u = true /\ exists v, u = v ++ word /\ (length v <= n)%nat).
  Proof.
    induction n as [|n IH]; intros word u A; cbn [words].
    - split.
      + intros [<-|[]]. split; auto. exists []. auto.
      + intros (Au & v & -> & Lv). destruct v; [left; auto|cbn in Lv; lia].
    - cbn [In]. rewrite in_flat_map. split.
      + intros [<-|(i & Hi & Hu)]; [split; auto; exists []; split; auto; cbn; lia|].
        unfold kids in Hi. apply filter_In in Hi. destruct Hi as [_ Hi].
        apply IH in Hu; auto. destruct Hu as (Au & v & -> & Lv). split; auto.
        exists (v ++ [i]). rewrite <- app_assoc. split; auto. rewrite app_length. cbn. lia.
      + intros (Au & v & -> & Lv). destruct v as [|i0 v0] eqn:Ev; [left; auto|].
        right. destruct (@exists_last _ v) as (v' & i & E); [congruence|]. rewrite <- Ev in *.
        clear Ev i0 v0. subst v. rewrite <- app_assoc in *. cbn [app] in *.
        exists i. pose proof (adm_app _ _ Au) as Ai. split.
        * unfold kids. apply filter_In. split; auto. apply in_seq. apply adm_tail in Ai. lia.
        * apply IH; auto. split; auto. exists v'. split; auto. rewrite app_length in Lv. cbn in Lv. lia.
  Qed.

  Lemma before_app : forall p u v, before u v -> before (p ++ u) (p ++ v).
  Proof. induction p; simpl; auto. intros. now apply before_eq, IHp. Qed.
  Lemma before_irrefl : forall u, ~ before u u.
  Proof. induction u as [|i u IH]; intros H; inversion H; subst; try lia. now apply IH. Qed.

  Lemma SS_app : forall {A} (P : A -> A -> Prop) l m, StronglySorted P l -> StronglySorted P m ->
    (forall a b, In a l -> In b m -> P a b) -> StronglySorted P (l ++ m).
  Proof.
    induction l as [|x l IH]; intros m H1 H2 H3; simpl; auto.
    inversion H1; subst. constructor.
    - apply IH; auto. intros. apply H3; simpl; auto.
    - apply Forall_app. split; auto. apply Forall_forall. intros. apply H3; simpl; auto.
  Qed.
  Lemma SS_filter : forall {A} (P : A -> A -> Prop) f l, StronglySorted P l -> StronglySorted P (filter f l).
  Proof.
    induction l as [|x l IH]; intros H; simpl; auto. inversion H; subst.
    destruct (f x); auto. constructor; auto. rewrite Forall_forall in *. intros y Hy.
    apply filter_In in Hy. now apply H3.
  Qed.
  Lemma SS_NoDup : forall {A} (P : A -> A -> Prop) l, (forall a, ~ P a a) -> StronglySorted P l -> NoDup l.
  Proof.
    induction l as [|x l IH]; intros Hi H; constructor; inversion H; subst; auto.
    intros Hx. rewrite Forall_forall in H3. now apply (Hi x), H3.
  Qed.

  Definition explored (u v : list nat) : Prop := before (rev u) (rev v).

  Lemma words_sorted : forall n word, adm word = true -> StronglySorted explored (words n word).
  Proof.
    induction n as [|n IH]; intros word A; cbn [words].
    - repeat constructor.
    - constructor.
      + assert (G : forall k m, StronglySorted explored
            (flat_map (fun i => words n (i :: word)) (filter (fun i => adm (i :: word)) (seq k m)))).
        { intros k m. revert k. induction m as [|m IHm]; intros k; cbn [seq filter flat_map]; [constructor|].
          destruct (adm (k :: word)) eqn:Ak; [|apply IHm]. cbn [flat_map].
          apply SS_app; auto.
          intros a b Ha Hb. apply in_flat_map in Hb. destruct Hb as (j & Hj & Hb).
          apply filter_In in Hj. destruct Hj as [Hj Aj]. apply in_seq in Hj.
          apply words_In in Ha; auto. apply words_In in Hb; auto.
          destruct Ha as (_ & va & -> & _), Hb as (_ & vb & -> & _).
          unfold explored. rewrite !rev_app_distr. cbn [rev]. rewrite <- !app_assoc.
          apply before_app. cbn [app]. apply before_lt. lia. }
        apply G.
      + apply Forall_forall. intros u Hu. apply in_flat_map in Hu. destruct Hu as (i & Hi & Hu).
        unfold kids in Hi. apply filter_In in Hi. destruct Hi as [_ Ai].
        apply words_In in Hu; auto. destruct Hu as (_ & v & -> & _).
        unfold explored. rewrite rev_app_distr. cbn [rev]. rewrite <- app_assoc.
        replace (rev word) with (rev word ++ []) at 1 by apply app_nil_r.
        apply before_app. cbn [app]. constructor.
  Qed.

  (** ** Attenuation *)
  Definition bands_fit : Prop := forall w, In w (r_walls r) ->
    length (w_abs w) = n_bands r /\ length (w_scat w) = n_bands r /\
    forall s, In s (w_scat w) -> 0 <= s.

  Lemma list_max_le0 : forall l, (forall s, In s l -> 0 <= s) -> Rltb 0 (list_max l) = false ->
    forall s, In s l -> s = 0.
  Proof.
    intros l H E s Hs. apply Rltb_false in E. pose proof (list_max_ge l s Hs). specialize (H s Hs). lra.
  Qed.

  Lemma nth_map2_lt : forall {A B C} (f : A -> B -> C) l m k a b c, (k < length l)%nat -> (k < length m)%nat ->
    nth k (map2 f l m) c = f (nth k l a) (nth k m b).
  Proof.
    induction l as [|x l IH]; destruct m as [|y m]; intros [|k] a b c H1 H2; simpl in *; try lia; auto.
    apply IH; lia.
  Qed.

  Lemma map2_len : forall {A B C} (f : A -> B -> C) l m n, length l = n -> length m = n -> length (map2 f l m) = n.
  Proof. intros A B C f l m n H1 H2. rewrite map2_length; congruence. Qed.

  Lemma att_length : bands_fit -> forall word, adm word = true -> length (att_of word) = n_bands r.
  Proof.
    intros BF. induction word as [|i w IH]; intros A; cbn [att_of]; [apply repeat_length|].
    apply adm_tail in A. destruct A as [A Hi]. specialize (IH A).
    destruct (BF (get_wall r i) (get_wall_In r i Hi)) as (B1 & B2 & _).
    unfold reflect_att, transmission, energy_reflection. destruct (_ && _); repeat (apply map2_len; rewrite ?map_length; auto).
  Qed.

  Lemma att_amplitude : bands_fit -> forall word b, adm word = true -> (b < n_bands r)%nat ->
    nth b (att_of word) 0 = amplitude r word b.
  Proof.
    intros BF. induction word as [|i w IH]; intros b A Hb.
    - cbn [att_of]. unfold amplitude. cbn. clear - Hb. revert b Hb.
      induction (n_bands r) as [|n IHn]; intros [|b] Hb; simpl; try lia; auto. apply IHn. lia.
    - apply adm_tail in A. destruct A as [A Hi]. specialize (IH b A Hb).
      pose proof (att_length BF w A) as La.
      destruct (BF (get_wall r i) (get_wall_In r i Hi)) as (B1 & B2 & B3).
      assert (Hs : 0 <= nth b (w_scat (get_wall r i)) 0) by (apply B3, nth_In; lia).
      assert (Am : amplitude r (i :: w) b = wall_factor r b i * amplitude r w b) by reflexivity.
      rewrite Am, <- IH. cbn [att_of]. unfold wall_factor. fold (get_wall r i). unfold reflect_att.
      assert (T : nth b (map2 Rmult (att_of w) (transmission (get_wall r i))) 0 =
                  nth b (att_of w) 0 * sqrt (1 - nth b (w_abs (get_wall r i)) 0)).
      { rewrite (nth_map2_lt Rmult _ _ b 0 0 0); [|lia|unfold transmission, energy_reflection; rewrite !map_length; lia].
        f_equal. unfold transmission.
        rewrite (nth_indep _ 0 (sqrt 0)) by (unfold energy_reflection; rewrite !map_length; lia).
        rewrite (map_nth sqrt). now rewrite nth_energy_reflection by lia. }
      destruct (Rltb 0 (list_max (w_scat (get_wall r i)))) eqn:Em; cbn [andb].
      + destruct (r_hybrid r).
        * rewrite (nth_map2_lt Rmult _ _ b 0 0 0); 
            [|rewrite (map2_len Rmult _ _ (n_bands r)); auto; unfold transmission, energy_reflection; rewrite ?map_length; lia|rewrite map_length; lia].
          rewrite T.
          assert (Es : nth b (map (fun s => sqrt (1 - s)) (w_scat (get_wall r i))) 0
                       = sqrt (1 - nth b (w_scat (get_wall r i)) 0)).
          { rewrite (nth_indep _ 0 ((fun s => sqrt (1 - s)) 0)) by (rewrite map_length; lia).
            now rewrite (map_nth (fun s => sqrt (1 - s))). }
          rewrite Es. ring.
        * rewrite T. ring.
      + rewrite T. destruct (r_hybrid r); [|ring].
        rewrite (list_max_le0 _ B3 Em (nth b (w_scat (get_wall r i)) 0)) by (apply nth_In; lia).
        rewrite Rminus_0_r, sqrt_1. ring.
  Qed.

  (** ** Paths *)
  Hypothesis Hpos : 0 < eps.

  Lemma seg_at_vec : forall a b t, of2 (seg_at a b t) = vadd (of2 a) (vscal t (vminus (of2 b) (of2 a))).
  Proof. intros [a1 a2] [b1 b2] t. unfold of2, seg_at, vadd, vscal, vminus; simpl. repeat f_equal; ring. Qed.
  Lemma of2_to2 : forall v, length v = 2%nat -> of2 (to2 v) = v.
  Proof. intros [|a [|b [|]]] H; try discriminate. reflexivity. Qed.

  Lemma hop : forall w p q c x, wall_fit (r_dim r) w -> length p = r_dim r -> length q = r_dim r ->
    wall_intersection (r_dim r) eps w p q = (c, Some x) ->
    exists s, x = vadd p (vscal s (vminus q p)) /\ height (w_origin w) (w_normal w) x = 0 /\ length x = r_dim r /\
      (r_dim r = 3%nat -> - eps <= s <= 1 + eps).
  Proof.
    intros w p q c x (L1 & L2 & N & C2) Lp Lq H.
    assert (Lx : length x = r_dim r) by (apply (wall_intersection_length _ _ _ _ _ _ _ (proj1 Fit) Lp Lq H)).
    destruct (proj1 Fit) as [D|D]; unfold wall_intersection in H; rewrite D in *; cbn [Nat.eqb] in H.
    - destruct (C2 eq_refl) as (c1 & E & L3 & Ne & Hc). rewrite E in H. cbn [nth] in H.
      destruct (intersection_2d eps (to2 p) (to2 q) (to2 (w_origin w)) (to2 c1)) as [k [y|]] eqn:I; [|discriminate].
      injection H as <- <-.
      destruct (intersection_2d_sound_proof _ _ _ _ _ _ _ Hpos I) as (_ & _ & (s & t & _ & _ & E1 & E2) & _).
      exists s. rewrite E1 at 1. rewrite seg_at_vec, !of2_to2 by auto. split; auto. split; [|split; [auto|discriminate]].
      rewrite E2, seg_at_vec, !of2_to2 by auto. unfold height in *.
      vexp. vexp_in Hc. nra.
    - destruct (intersection_seg_plane eps p q (w_origin w) (w_normal w)) as [k [y|]] eqn:I; [|discriminate].
      assert (x = y) by (destruct (_ <? 0)%Z; [discriminate|destruct (_ =? 1)%Z; injection H; congruence]). subst y.
      destruct (seg_plane_sound_proof eps p q (w_origin w) (w_normal w) k x ltac:(congruence) ltac:(congruence)
                  ltac:(congruence) Hpos I) as (s & Hs & E & Hh & _).
      exists s. split; [rewrite E; vring|].
      auto.
  Qed.

  Lemma seg_dist : forall p q s, length p = length q ->
    vdist p (vadd p (vscal s (vminus q p))) = Rabs s * vdist p q /\
    vdist (vadd p (vscal s (vminus q p))) q = Rabs (1 - s) * vdist p q.
  Proof.
    intros p q s L.
    assert (D1 : vdist p q = vnorm (vminus q p)) by (rewrite vdist_comm by congruence; reflexivity).
    split.
    - rewrite vdist_comm by vlen. unfold vdist at 1. rewrite D1, <- vnorm_vscal. f_equal.
      vring.
    - rewrite vdist_comm by vlen. unfold vdist at 1. rewrite D1, <- vnorm_vscal. f_equal.
      vring.
  Qed.

  Lemma sees_hop : forall g w p xs, length p = r_dim r -> sees r eps src (g :: w) p xs ->
    exists x xs' s, xs = x :: xs' /\ sees r eps src w x xs' /\ length x = r_dim r /\
      adm (g :: w) = true /\ (g < length (r_walls r))%nat /\
      length (loc_of (g :: w)) = r_dim r /\ length (loc_of w) = r_dim r /\
      x = vadd p (vscal s (vminus (loc_of (g :: w)) p)) /\
      height (w_origin (get_wall r g)) (w_normal (get_wall r g)) x = 0 /\
      eps < height (w_origin (get_wall r g)) (w_normal (get_wall r g)) (loc_of (g :: w)) /\
      vdist x (loc_of (g :: w)) = vdist x (loc_of w) /\
      (r_dim r = 3%nat -> - eps <= s <= 1 + eps) /\
      (height (w_origin (get_wall r g)) (w_normal (get_wall r g)) p <= 0 -> 0 <= s <= 1).
  Proof.
    intros g w p xs Lp S. inversion S as [|g' w' p' loc c x xs' I H Wi Hc S']; subst.
    apply image_of_iff in I. destruct I as [A ->]. destruct (adm_tail g w A) as [Aw Hg].
    pose proof (loc_length _ A) as L1. pose proof (loc_length _ Aw) as L2.
    pose proof (fit_wall g Hg) as F. fold (get_wall r g) in Wi.
    destruct (hop (get_wall r g) p (loc_of (g :: w)) c x F Lp L1 Wi) as (s & E & Hh & Lx & Hs).
    destruct F as (F1 & F2 & F3 & _).
    exists x, xs', s. repeat split; auto.
    - assert (Hp : (0 < fst (reflect eps (get_wall r g) (loc_of w)))%Z).
      { cbn [adm] in A. apply andb_true_iff in A. destruct A as [A _]. apply andb_true_iff in A.
        now apply Z.ltb_lt. }
      apply code_pos in Hp; try congruence. cbn [loc_of].
      rewrite reflect_height by congruence. lra.
    - cbn [loc_of]. apply mirror_equidistant; congruence.
    - apply Hs. auto.
    - apply Hs. auto.
    - assert (Hp : eps < height (w_origin (get_wall r g)) (w_normal (get_wall r g)) (loc_of (g :: w))).
      { assert (Hp : (0 < fst (reflect eps (get_wall r g) (loc_of w)))%Z).
        { cbn [adm] in A. apply andb_true_iff in A. destruct A as [A _]. apply andb_true_iff in A.
          now apply Z.ltb_lt. }
        apply code_pos in Hp; try congruence. cbn [loc_of].
        rewrite reflect_height by congruence. lra. }
      assert (E2 : (1 - s) * height (w_origin (get_wall r g)) (w_normal (get_wall r g)) p +
                   s * height (w_origin (get_wall r g)) (w_normal (get_wall r g)) (loc_of (g :: w)) = 0).
      { rewrite <- Hh, E. unfold height. vexp. ring. }
      nra.
    - assert (Hp : eps < height (w_origin (get_wall r g)) (w_normal (get_wall r g)) (loc_of (g :: w))).
      { assert (Hp : (0 < fst (reflect eps (get_wall r g) (loc_of w)))%Z).
        { cbn [adm] in A. apply andb_true_iff in A. destruct A as [A _]. apply andb_true_iff in A.
          now apply Z.ltb_lt. }
        apply code_pos in Hp; try congruence. cbn [loc_of].
        rewrite reflect_height by congruence. lra. }
      assert (E2 : (1 - s) * height (w_origin (get_wall r g)) (w_normal (get_wall r g)) p +
                   s * height (w_origin (get_wall r g)) (w_normal (get_wall r g)) (loc_of (g :: w)) = 0).
      { rewrite <- Hh, E. unfold height. vexp. ring. }
      nra.
  Qed.

  Lemma path_exact : forall word p xs, length p = r_dim r -> sees r eps src word p xs ->
    stays_inside r word p xs -> path_length p xs src = vdist p (loc_of word).
  Proof.
    induction word as [|g w IH]; intros p xs Lp S St.
    - inversion S; subst. reflexivity.
    - destruct (sees_hop g w p xs Lp S) as (x & xs' & s & -> & S' & Lx & A & Hg & L1 & L2 & E & Hh & _ & De & _ & Hs).
      cbn [stays_inside] in St. fold (get_wall r g) in St. destruct St as [Hp St]. specialize (Hs Hp).
      cbn [path_length]. rewrite (IH x xs' Lx S' St), <- De.
      destruct (seg_dist p (loc_of (g :: w)) s) as [D1 D2]; [congruence|]. rewrite <- E in D1, D2.
      rewrite D1, D2, !Rabs_right by lra. ring.
  Qed.

  Lemma path_bounds : forall word p xs, length p = r_dim r -> sees r eps src word p xs ->
    vdist p (loc_of word) <= path_length p xs src /\
    (r_dim r = 3%nat -> path_length p xs src <= (1 + 2 * eps) ^ length word * vdist p (loc_of word)).
  Proof.
    induction word as [|g w IH]; intros p xs Lp S.
    - inversion S; subst. simpl. split; [lra|intros; lra].
    - destruct (sees_hop g w p xs Lp S) as (x & xs' & s & -> & S' & Lx & A & Hg & L1 & L2 & E & Hh & _ & De & Hs & _).
      cbn [path_length]. destruct (IH x xs' Lx S') as [I1 I2].
      destruct (seg_dist p (loc_of (g :: w)) s) as [D1 D2]; [congruence|]. rewrite <- E in D1, D2.
      pose proof (vdist_nonneg p (loc_of (g :: w))) as P0.
      split.
      + apply Rle_trans with (vdist p x + vdist x (loc_of (g :: w))); [apply vdist_triangle; congruence|lra].
      + intros D. specialize (Hs D). specialize (I2 D).
        apply Rle_trans with (vdist p x + (1 + 2 * eps) ^ length w * vdist x (loc_of w)); [lra|].
        rewrite <- De, D1, D2. cbn [length pow].
        assert (P1 : 1 <= (1 + 2 * eps) ^ length w) by (apply pow_R1_Rle; lra).
        assert (P2 : Rabs s + Rabs (1 - s) <= 1 + 2 * eps) by (unfold Rabs; destruct (Rcase_abs _), (Rcase_abs _); lra).
        pose proof (Rabs_pos s). pose proof (Rabs_pos (1 - s)).
        set (P := (1 + 2 * eps) ^ length w) in *. set (L := vdist p (loc_of (g :: w))) in *.
        apply Rle_trans with (P * (Rabs s + Rabs (1 - s)) * L).
        * assert (0 <= Rabs s * L) by (apply Rmult_le_pos; auto).
          assert (1 * (Rabs s * L) <= P * (Rabs s * L)) by (apply Rmult_le_compat_r; auto). lra.
        * apply Rmult_le_compat_r; auto. nra.
  Qed.

  Lemma next_point : forall word x xs, length x = r_dim r -> sees r eps src word x xs -> stays_inside r word x xs ->
    exists s, 0 <= s /\ hd src xs = vadd x (vscal s (vminus (loc_of word) x)) /\ length (loc_of word) = r_dim r.
  Proof.
    intros [|g w] x xs Lx S St.
    - inversion S; subst. exists 1. split; [lra|]. split; auto. cbn [hd loc_of].
      vring.
    - destruct (sees_hop g w x xs Lx S) as (y & xs' & s & -> & S' & Ly & A & Hg & L1 & L2 & E & Hh & _ & De & _ & Hs).
      cbn [stays_inside] in St. destruct St as [Hp St]. exists s. split; [apply Hs; exact Hp|]. cbn. auto.
  Qed.

  Lemma path_mirror : forall word p xs, length p = r_dim r -> sees r eps src word p xs ->
    stays_inside r word p xs -> obeys_mirror_law r word p xs src.
  Proof.
    induction word as [|g w IH]; intros p xs Lp S St.
    - inversion S; subst. exact I.
    - destruct (sees_hop g w p xs Lp S) as (x & xs' & s & -> & S' & Lx & A & Hg & L1 & L2 & E & Hh & _ & De & _ & Hs).
      cbn [stays_inside] in St. fold (get_wall r g) in St. destruct St as [Hp St]. specialize (Hs Hp).
      cbn [obeys_mirror_law]. fold (get_wall r g). split; [|apply IH; auto].
      destruct (next_point w x xs' Lx S' St) as (s' & Hs' & -> & _).
      destruct (fit_wall g Hg) as (F1 & F2 & F3 & _).
      assert (M : is_mirror (w_origin (get_wall r g)) (w_normal (get_wall r g)) (loc_of w) (loc_of (g :: w)))
        by (cbn [loc_of]; apply reflect_is_mirror; congruence).
      set (W := get_wall r g) in *. set (n := w_normal W) in *. set (o := w_origin W) in *.
      set (q := loc_of (g :: w)) in *. set (a := loc_of w) in *.
      destruct (seg_dist p q s) as [D1 D2]; [congruence|]. rewrite <- E in D1, D2.
      destruct (seg_dist x a s') as [D3 _]; [congruence|].
      destruct M as (_ & (k & Ek) & M). clearbody q a.
      assert (Lxa : length a = length x) by congruence.
      assert (Lxv : length (vadd x (vscal s' (vminus a x))) = length x) by vlen.
      assert (D4 : vdist (vadd x (vscal s' (vminus a x))) x = s' * ((1 - s) * vdist p q)).
      { rewrite vdist_comm by auto. rewrite D3, <- De, D2, !Rabs_right by lra. ring. }
      rewrite Rabs_right in D1 by lra.
      assert (Lq : length q = length p) by congruence. assert (La : length a = length p) by congruence.
      assert (Ln : length n = length p) by congruence. assert (Lo : length o = length p) by congruence.
      assert (NA : dot n (vminus p x) = - (s * dot n (vminus q p))) by (rewrite E; vexp; ring).
      assert (NQ : dot n (vminus q x) = (1 - s) * dot n (vminus q p)) by (rewrite E; vexp; ring).
      assert (NP : dot n (vminus a x) = - dot n (vminus q x)).
      { unfold height in Hh. vexp_in M. vexp_in Hh. vexp. lra. }
      assert (NB : dot n (vminus (vadd x (vscal s' (vminus a x))) x) = s' * dot n (vminus a x)) by (vexp; ring).
      split.
      + rewrite D4, NA, NB, NP, NQ, D1. ring.
      + intros t Lt Ht. 
        assert (TA : dot t (vminus p x) = - (s * dot t (vminus q p))) by (rewrite E; vexp; ring).
        assert (TQ : dot t (vminus q x) = (1 - s) * dot t (vminus q p)) by (rewrite E; vexp; ring).
        assert (TP : dot t (vminus a x) = dot t (vminus q x)).
        { rewrite Ek. rewrite dot_comm in Ht. vexp. rewrite Ht. ring. }
        assert (TB : dot t (vminus (vadd x (vscal s' (vminus a x))) x) = s' * dot t (vminus a x)) by (vexp; ring).
        rewrite D4, TA, TB, TP, TQ, D1. ring.
  Qed.
End Words.

(** ** Filling the arrays *)
Lemma store_mid : forall {A} (l suf : list A) k v, length l = S k -> store (l ++ suf) k v = Some (firstn k l ++ v :: suf).
Proof.
  induction l as [|h l IH]; intros suf [|k] v H; simpl in *; try lia.
  - destruct l; [reflexivity|simpl in H; lia].
  - rewrite IH by lia. reflexivity.
Qed.

Lemma store_all_mid : forall {A} (vs pre mid suf : list A), length mid = length vs ->
  store_all (pre ++ mid ++ suf) (length pre) vs = Some (pre ++ vs ++ suf).
Proof.
  induction vs as [|v vs IH]; intros pre mid suf H; cbn [store_all].
  - destruct mid; [reflexivity|discriminate].
  - destruct mid as [|m mid]; [discriminate|]. injection H as H. cbn [app].
    assert (E : store (pre ++ m :: mid ++ suf) (length pre) v = Some (pre ++ v :: mid ++ suf)).
    { clear. induction pre as [|h pre IH]; simpl; auto. now rewrite IH. }
    rewrite E. cbn [bind].
    replace (pre ++ v :: mid ++ suf) with ((pre ++ [v]) ++ mid ++ suf) by (rewrite <- app_assoc; reflexivity).
    replace (S (length pre)) with (length (pre ++ [v])) by (rewrite app_length; simpl; lia).
    rewrite IH by auto. rewrite <- app_assoc. reflexivity.
Qed.

Lemma firstn_repeat : forall {A} (x : A) k n, (k <= n)%nat -> firstn k (repeat x n) = repeat x k.
Proof. induction k; intros [|n] H; simpl; try lia; auto. rewrite IHk by lia. reflexivity. Qed.

Lemma fill_loop_ok : forall n_mics stack S1 S2 S3 S4 S5 S6,
  (forall im, In im stack -> length (i_dirs im) = n_mics) ->
  fill_loop n_mics {| a_sources := repeat [] (length stack) ++ S1; a_orders := repeat 0%Z (length stack) ++ S2;
                      a_gens := repeat 0%Z (length stack) ++ S3; a_atts := repeat [] (length stack) ++ S4;
                      a_vis := repeat [] (length stack) ++ S5;
                      a_dirs := repeat None (length stack * n_mics) ++ S6 |} stack
  = Some {| a_sources := map i_loc (rev stack) ++ S1; a_orders := map i_order (rev stack) ++ S2;
            a_gens := map i_gen (rev stack) ++ S3; a_atts := map i_att (rev stack) ++ S4;
            a_vis := map i_vis (rev stack) ++ S5; a_dirs := concat (map i_dirs (rev stack)) ++ S6 |}.
Proof.
  intros n_mics. induction stack as [|top rest IH]; intros S1 S2 S3 S4 S5 S6 H; [reflexivity|].
  cbn [fill_loop]. unfold fill_col. cbn [a_sources a_orders a_gens a_atts a_vis a_dirs].
  assert (Lt : length (i_dirs top) = n_mics) by (apply H; left; auto).
  change (length (top :: rest)) with (S (length rest)).
  rewrite !store_mid by apply repeat_length. cbn [bind].
  rewrite !firstn_repeat by lia.
  assert (E : store_all (repeat None (S (length rest) * n_mics) ++ S6) (length rest * n_mics) (firstn n_mics (i_dirs top))
            = Some (repeat None (length rest * n_mics) ++ i_dirs top ++ S6)).
  { rewrite firstn_all2 by lia.
    replace (repeat None (S (length rest) * n_mics) ++ S6) with
      (repeat None (length rest * n_mics) ++ repeat (@None (list R)) n_mics ++ S6).
    2:{ rewrite app_assoc, <- repeat_app. do 2 f_equal. lia. }
    replace (length rest * n_mics)%nat with (length (repeat (@None (list R)) (length rest * n_mics))) at 2 by apply repeat_length.
    apply store_all_mid. now rewrite repeat_length. }
  rewrite E. cbn [bind].
  rewrite IH by (intros; apply H; right; auto).
  cbn [rev]. rewrite !map_app, concat_app, <- !app_assoc. cbn [map concat app]. rewrite app_nil_r. reflexivity.
Qed.

Lemma fill_sources_ok : forall n_mics old imgs, imgs <> [] -> (forall im, In im imgs -> length (i_dirs im) = n_mics) ->
  fill_sources n_mics old (rev imgs) = Some (length imgs,
   {| a_sources := map i_loc imgs; a_orders := map i_order imgs; a_gens := map i_gen imgs;
      a_atts := map i_att imgs; a_vis := map i_vis imgs; a_dirs := concat (map i_dirs imgs) |}).
Proof.
  intros n_mics old imgs Hn H. unfold fill_sources.
  destruct (rev imgs) as [|t rest] eqn:E.
  - exfalso. apply Hn. rewrite <- (rev_involutive imgs), E. reflexivity.
  - rewrite <- E. pose proof (fill_loop_ok n_mics (rev imgs) [] [] [] [] [] []) as F.
    rewrite !app_nil_r in F. rewrite F by (intros im Hi; apply H; now apply in_rev).
    cbn [bind]. rewrite rev_involutive, rev_length. reflexivity.
Qed.

(** ** Summary *)
Lemma nth_error_concat : forall {A} (ls : list (list A)) n i m l x, (forall l, In l ls -> length l = n) ->
  nth_error ls i = Some l -> nth_error l m = Some x -> nth_error (concat ls) (i * n + m) = Some x.
Proof.
  induction ls as [|l0 ls IH]; intros n [|i] m l x H Hi Hm; simpl in *; try discriminate.
  - injection Hi as ->. rewrite nth_error_app1; auto. apply nth_error_Some. congruence.
  - rewrite nth_error_app2 by (rewrite (H l0) by auto; lia).
    rewrite (H l0) by auto. replace (n + i * n + m - n)%nat with (i * n + m)%nat by lia. eapply IH; eauto.
Qed.

Lemma Forall2_nth : forall {A B} (P : A -> B -> Prop) l m i a, Forall2 P l m -> nth_error l i = Some a ->
  exists b, nth_error m i = Some b /\ P a b.
Proof.
  intros A B P l m i a H. revert i. induction H; intros [|i] E; simpl in *; try discriminate; eauto.
  injection E as <-. eauto.
Qed.

Lemma Forall2_len : forall {A B} (P : A -> B -> Prop) l m, Forall2 P l m -> length l = length m.
Proof. induction 1; simpl; auto. Qed.

Definition found (r : room) (eps : R) (src : vec) : list (list nat) :=
  filter (any_visible r eps src) (words r eps src (Z.to_nat (r_ism_order r)) []).

Lemma found_ok : forall r eps src, 0 <= eps -> room_fit r -> length src = r_dim r ->
  Forall2 (img_ok r eps src) (found r eps src) (ism_images r eps src).
Proof.
  intros r eps src He Fit L. eapply (dfs_ok r eps src) with (n := Z.to_nat (r_ism_order r)) (word := []); auto.
  apply repeat_length.
Qed.

Lemma found_In : forall r eps src word, 0 <= eps -> room_fit r -> length src = r_dim r -> (0 <= r_ism_order r)%Z ->
  (In word (found r eps src) <->
   (Z.of_nat (length word) <= r_ism_order r)%Z /\ (exists q, image_of r eps src word q) /\
   exists mic xs, In mic (r_mics r) /\ sees r eps src word mic xs).
Proof.
  intros r eps src word He Fit L HN. unfold found. rewrite filter_In, words_In by (try reflexivity; auto).
  assert (V : adm r eps src word = true ->
     (any_visible r eps src word = true <-> exists mic xs, In mic (r_mics r) /\ sees r eps src word mic xs)).
  { intros A. unfold any_visible. rewrite existsb_exists. split.
    - intros (mic & Hm & E). destruct (is_visible r eps mic (chain_of r eps src word)) as [d|] eqn:Ev; [|discriminate].
      apply is_visible_iff in Ev; auto. destruct Ev as (xs & Hs & _). eauto.
    - intros (mic & xs & Hm & Hs). exists mic. split; auto.
      destruct (is_visible r eps mic (chain_of r eps src word)) as [d|] eqn:Ev; auto.
      assert (C : is_visible r eps mic (chain_of r eps src word) = Some (vnormalized (vminus (first_leg mic xs) src)))
        by (apply is_visible_iff; eauto). congruence. }
  split.
  - intros ((A & v & E & Lv) & Hv). rewrite app_nil_r in E. subst v. split; [lia|]. split.
    + exists (loc_of r eps src word). apply image_of_iff; auto.
    + now apply V.
  - intros (Ln & (q & I) & Hv). apply image_of_iff in I; auto. destruct I as [A _]. split.
    + split; auto. exists word. rewrite app_nil_r. split; auto. lia.
    + now apply V.
Qed.

Lemma found_sorted : forall r eps src, length src = r_dim r -> StronglySorted (fun u v => before (rev u) (rev v)) (found r eps src).
Proof. intros r eps src L. apply SS_filter. apply (words_sorted r eps src); try reflexivity; auto. Qed.
Lemma found_NoDup : forall r eps src, length src = r_dim r -> NoDup (found r eps src).
Proof.
  intros. eapply SS_NoDup; [|now apply found_sorted]. intros a Ha. revert Ha. eapply before_irrefl; eauto.
Qed.

Lemma img_visible : forall r eps src word im m mic, 0 <= eps -> room_fit r -> length src = r_dim r ->
  adm r eps src word = true -> img_ok r eps src word im -> nth_error (r_mics r) m = Some mic ->
  exists b, nth_error (i_vis im) m = Some b /\
    (b = true <-> exists xs, sees r eps src word mic xs) /\
    (forall xs, sees r eps src word mic xs -> nth_error (i_dirs im) m = Some (Some (vnormalized (vminus (first_leg mic xs) src)))).
Proof.
  intros r eps src word im m mic He Fit L A (_ & _ & _ & _ & Ev & _ & Ed) Hm.
  exists (is_some (is_visible r eps mic (chain_of r eps src word))).
  rewrite Ev. split; [now apply (map_nth_error (fun mic => is_some (is_visible r eps mic (chain_of r eps src word))))|].
  assert (Sv : forall xs, sees r eps src word mic xs ->
    is_visible r eps mic (chain_of r eps src word) = Some (vnormalized (vminus (first_leg mic xs) src)))
    by (intros xs Hs; apply is_visible_iff; eauto).
  split; [split|].
  - destruct (is_visible r eps mic (chain_of r eps src word)) as [d|] eqn:E; [|discriminate].
    apply is_visible_iff in E; auto. destruct E as (xs & Hs & _). eauto.
  - intros (xs & Hs). now rewrite (Sv xs Hs).
  - intros xs Hs. apply (Ed m mic _ Hm (Sv xs Hs)).
Qed.

Lemma adm_of_found : forall r eps src word, length src = r_dim r -> In word (found r eps src) -> adm r eps src word = true.
Proof.
  intros r eps src word L H. unfold found in H. apply filter_In in H. destruct H as [H _].
  apply words_In in H; [tauto| |]; try reflexivity; auto.
Qed.
