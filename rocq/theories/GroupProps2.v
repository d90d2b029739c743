(* GroupMap: properties C54-C56.  Vocabulary as in GroupProps.v. *)
From Coq Require Import List NArith Lia Bool Permutation PeanoNat.
From Verif Require Import Closures Prelude RawTable GroupMap ListFacts TableFacts GroupSpec GroupHistory
  IterFacts GroupProofs GroupProofs2 GroupProofs3 GroupProofs4 GroupProofs5 GroupProofs6
  GroupHistoryProofs Concrete GroupProps.
Import ListNotations.
Open Scope N_scope.

(* [comes next len it l]: calls of next yield the elements of l, then None forever, and at any
   point len is the number of elements still to come *)
Definition comes {I A} (next : I -> outcome (option A * I)) (len : I -> outcome nat) (it : I)
    (l : list A) : Prop :=
  forall n, exists it',
    nexts next n it = Done (firstn n (map Some l) ++ repeat None (n - length l), it') /\
    len it' = Done (length l - n)%nat.

Lemma comes_as : forall {I A} (next : I -> outcome (option A * I)) V len it l, steps_as next V ->
  (forall it l, V it l -> len it = Done (length l)) -> V it l -> comes next len it l.
Proof.
  intros I A next V len it l ST HL HV n. destruct (nexts_as next V ST n it l HV) as (it' & E & V').
  exists it'. split; auto. rewrite (HL _ _ V'), skipn_length. auto.
Qed.

Section Props2.
  Context {L R S : Type} (E : env L R S) (OK : lawful E).
  Notation "a =L b" := (eqL E a b = true) (at level 70).
  Notation "a =R b" := (eqR E a b = true) (at level 70).
  Notation Repr := (Repr E).
  Notation isl l := (fun p => eqL E l (fst p)).
  Notation isr r := (fun p => eqR E r (snd p)).
  Notation notl l := (fun p => negb (eqL E l (fst p))).
  Notation notr r := (fun p => negb (eqR E r (snd p))).
  Let EL := eqL_equiv _ OK.
  Let ER := eqR_equiv _ OK.

  Ltac start H :=
    let s := fresh "s" in let lc := fresh "lc" in let rc := fresh "rc" in let G := fresh "G" in
    let H' := fresh "H" in let B1 := fresh "B1" in let B2 := fresh "B2" in
    let rs := fresh "rs" in let ps := fresh "ps" in let V := fresh "V" in
    apply (reachable_repr E OK) in H as (s & lc & rc & G & H' & B1 & B2);
    apply (view E OK) in H' as (rs & ps & V & _ & _ & H); clear G.

  Lemma come_left : forall b s lc rc m G, Repr b s lc rc m G ->
    exists l, comes (@left_next L) (fun it => Done (length it)) (iter_left m) l /\
      Permutation l (map fst (g_pairs G)).
  Proof.
    intros b s lc rc m G (A & D & B & H & -> & _). destruct (order_l E _ _ _ _ _ _ _ H) as (Y & P & Q).
    exists (map z_l Y). split.
    - eapply comes_as; [apply (left_steps E s)| |exists Y; split; [exact Q|auto]].
      intros it l (W & -> & ->). rewrite !map_length. auto.
    - simpl. rewrite map_map. simpl. symmetry. apply (Permutation_map z_l P).
  Qed.
  Lemma come_right : forall b s lc rc m G l, Repr b s lc rc m G -> right_rest (iter_right m) = Done l ->
    comes (@right_next R) (fun it => Done (length it)) (iter_right m) l.
  Proof.
    intros b s lc rc m G l (A & D & B & H & -> & _) HR. destruct (order_r E _ _ _ _ _ _ _ H) as (Y & P & Q).
    assert (HV : exists Y', iter_right m = map (slotR E s) Y' /\ map y_r Y = map y_r Y') by (exists Y; auto).
    unfold right_rest in HR. rewrite (collect_as _ _ (right_steps E s) (map y_r Y)) in HR.
    - inversion HR; subst l. eapply comes_as; [apply (right_steps E s)| |exact HV].
      intros it l (W & -> & ->). rewrite !map_length. auto.
    - exact HV.
    - unfold iter_right. rewrite Q, !map_length. auto.
  Qed.
  Lemma come_paired : forall d s lc rc m G l, Repr (d, true) s lc rc m G ->
    paired_rest E m (iter_paired m) = Done l ->
    comes (paired_next E m) (paired_len E m) (iter_paired m) l /\
    forall n xs it, nexts (paired_next E m) n (iter_paired m) = Done (xs, it) ->
      paired_size_hint it = ((length l - n)%nat, Some (length l - n)%nat).
  Proof.
    intros d s lc rc m G l HH HR. assert (LK := tame_all_linked E OK _ _ _ _ _ _ HH).
    destruct HH as (A & D & B & H & -> & _).
    assert (RZ := linked_rids E OK _ _ _ _ _ _ _ H LK).
    assert (ST := paired_steps E OK _ _ _ _ _ _ _ H RZ).
    destruct (order_l E _ _ _ _ _ _ _ H) as (Y & P & Q).
    assert (HV : exists Y', incl Y' A /\ iter_paired m = map (slotL E s) Y' /\ map z_pair Y = map z_pair Y').
    { exists Y. split; auto. intros z Hz. eapply Permutation_in; [symmetry; eauto|auto]. }
    unfold paired_rest in HR. rewrite (collect_as _ _ ST (map z_pair Y)) in HR;
      [|exact HV|unfold iter_paired; rewrite Q, !map_length; auto].
    inversion HR; subst l. clear HR. split.
    - eapply comes_as; [exact ST| |exact HV].
      intros it l VI. unfold paired_len, paired_rest. rewrite (collect_as _ _ ST l); auto.
      destruct VI as (W & _ & -> & ->). rewrite !map_length. auto.
    - intros n xs it HN. destruct (nexts_as _ _ ST n _ _ HV) as (it' & E1 & (W & _ & -> & HW)).
      rewrite E1 in HN. inversion HN; subst it. unfold paired_size_hint. rewrite map_length.
      apply (f_equal (@length _)) in HW. rewrite skipn_length, !map_length in HW. rewrite map_length.
      rewrite HW. auto.
  Qed.
  Lemma come_unpaired : forall d s lc rc m G, Repr (true, d) s lc rc m G ->
    exists l, comes (@unpaired_next R) (@unpaired_len R) (iter_unpaired m) l /\
      Permutation l (s_unpaired (eqR E) G) /\
      forall n xs it, nexts (@unpaired_next R) n (iter_unpaired m) = Done (xs, it) ->
        (length l - n <= length it)%nat.
  Proof.
    intros d s lc rc m G HH. assert (CL := tame_all_clean E OK _ _ _ _ _ _ HH).
    destruct HH as (A & D & B & H & -> & _).
    assert (CZ := clean_cleans E OK _ _ _ _ _ _ _ H CL).
    assert (ST := unpaired_steps E _ _ _ _ _ _ _ H CZ).
    destruct (order_r E _ _ _ _ _ _ _ H) as (Y & P & Q).
    exists (map y_r (filter (bare A) Y)).
    assert (HV : exists Y', incl Y' B /\ iter_unpaired m = map (slotR E s) Y' /\
      map y_r (filter (bare A) Y) = map y_r (filter (bare A) Y')).
    { exists Y. split; auto. intros z Hz. eapply Permutation_in; [symmetry; eauto|auto]. }
    split; [|split].
    - eapply comes_as; [exact ST| |exact HV].
      intros it l VI. unfold unpaired_len, unpaired_rest. rewrite (collect_as _ _ ST l); auto.
      destruct VI as (W & _ & -> & ->). rewrite !map_length. apply filter_le.
    - rewrite (unpaired_view E OK _ _ _ _ _ _ _ H). apply Permutation_map, filter_perm. symmetry; auto.
    - intros n xs it HN. destruct (nexts_as _ _ ST n _ _ HV) as (it' & E1 & (W & _ & -> & HW)).
      rewrite E1 in HN. inversion HN; subst it.
      apply (f_equal (@length _)) in HW. rewrite skipn_length in HW.
      rewrite HW, !map_length. apply filter_le.
  Qed.
  Lemma come_pair : forall d s lc rc m G r it, Repr (true, d) s lc rc m G ->
    get_left_iter E m r = Some it ->
    exists l, comes (pair_next E m) (fun it => Done (pair_len it)) it l /\
      Permutation l (group (eqR E) G r).
  Proof.
    intros d s lc rc m G r it HH GI. assert (CL := tame_all_clean E OK _ _ _ _ _ _ HH r).
    destruct HH as (A & D & B & H & -> & _).
    assert (ST := pair_steps E OK _ _ _ _ _ _ _ H).
    destruct (split_r E OK _ _ _ _ _ _ _ r H) as [(y & B' & P & H' & Q & HQ & N)|N].
    - assert (CZ := clean_z E OK _ _ _ _ _ _ _ _ _ H' Q N CL).
      destruct (get_left_iter_z E OK _ _ _ _ _ _ _ _ r H' Q N CZ) as (zs & GI' & PZ).
      rewrite GI in GI'. inversion GI'; subst it. exists (map z_l zs). split.
      + eapply comes_as; [exact ST| |].
        * intros it l (W & _ & -> & ->). unfold pair_len. rewrite !map_length. auto.
        * exists zs. split; auto. intros z Hz. apply (Permutation_in _ PZ) in Hz.
          apply filter_In in Hz. tauto.
      + rewrite (group_z E OK _ _ _ _ _ _ _ y r H); auto.
        * apply Permutation_map; auto.
        * eapply Permutation_in; [symmetry; exact P|left; auto].
    - unfold get_left_iter, get_left_iter_q in GI.
      change (t_get (lo E) (right_set m) (hashR E (hash_builder m) r) (equivalent_key_right (eqR E) r))
        with (find_right E m r) in GI.
      rewrite (find_right_none E OK _ _ _ _ _ _ _ _ H N) in GI. discriminate.
  Qed.

  (* Iter: what is to come at any point of the iteration, and from a clone *)
  Lemma come_iter : forall s lc rc m G, Repr (true, true) s lc rc m G ->
    exists l, Permutation l (s_items (eqR E) G) /\
    forall n, exists it,
      nexts (iter_next E m) n (iter m) = Done (firstn n (map Some l) ++ repeat None (n - length l), it) /\
      iter_rest E m it = Done (skipn n l) /\ (length (right_iter it) <= length l - n)%nat /\
      exists k, iter_rest E m (iter_clone it) = Done (skipn k (skipn n l)) /\
        (left_iter it = None \/ left_iter it = Some [] -> k = 0%nat).
  Proof.
    intros s lc rc m G HH. assert (CL := tame_all_clean E OK _ _ _ _ _ _ HH).
    assert (LK := tame_all_linked E OK _ _ _ _ _ _ HH).
    destruct HH as (A & D & B & H & -> & _).
    assert (RZ := linked_rids E OK _ _ _ _ _ _ _ H LK).
    assert (CZ := clean_cleans E OK _ _ _ _ _ _ _ H CL).
    assert (ST := iter_steps E OK _ _ _ _ _ _ _ H RZ).
    set (V := fun it l => exists zs gs, incl zs A /\ (forall g, In g gs -> good E A s g) /\
         (left_iter it = Some (map (pkey E s) zs) \/ left_iter it = None /\ zs = []) /\
         right_iter it = map (slotR E s) (map fst gs) /\
         l = map (fun z => (Some (z_l z), z_r z)) zs ++ flat_map gitems gs) in *.
    assert (BD : forall it l, V it l -> (length l <= iter_bound it)%nat /\ (length (right_iter it) <= length l)%nat).
    { intros it l (zs & gs & _ & HG & HL & HR & ->). unfold iter_bound. rewrite HR.
      rewrite app_length, map_length. split.
      - apply Nat.add_le_mono.
        + destruct HL as [->|[-> ->]]; simpl; auto. rewrite map_length. auto.
        + clear HL HR. induction gs as [|g gs IH]; auto. cbn [map flat_map fold_right].
          rewrite app_length. apply Nat.add_le_mono.
          * destruct (HG g (or_introl eq_refl)) as (Q1 & _ & _). cbn [slotR snd r_pairs].
            unfold gitems. apply (f_equal (@length _)) in Q1. unfold hs_elems in Q1.
            rewrite !map_length in Q1. unfold t_len. cbn [snd GroupProofs.slotR r_pairs].
            destruct (snd g); simpl in *; [lia|]. rewrite map_length. lia.
          * apply IH. intros g' Hg. apply HG; right; auto.
      - rewrite !map_length. clear HL HR. transitivity (length (flat_map (@gitems L R) gs)); [|lia].
        induction gs as [|g gs IH]; auto. cbn [flat_map]. rewrite app_length.
        assert (1 <= length (gitems g))%nat by (unfold gitems; destruct (snd g); simpl; lia).
        simpl. assert (X := IH (fun g' Hg => HG g' (or_intror Hg))). lia. }
    destruct (order_r E _ _ _ _ _ _ _ H) as (Y & P & Q).
    destruct (groups_exist E _ _ _ _ _ _ _ H CZ Y) as (gs & GY & GG).
    { intros z Hz. eapply Permutation_in; [symmetry; eauto|auto]. }
    assert (HV : V (iter m) (flat_map gitems gs)).
    { exists [], gs. split; [intros z []|]. split; auto. split; auto. split; auto.
      unfold iter. simpl. rewrite GY. auto. }
    exists (flat_map gitems gs). split.
    { destruct (iter_z E OK _ _ _ _ _ _ _ H RZ CZ) as (l & _ & R1 & _ & R2).
      unfold iter_rest in R1. rewrite (collect_as _ _ ST _ _ _ HV) in R1; [|apply (BD _ _ HV)].
      inversion R1; subst. auto. }
    intros n. destruct (nexts_as _ _ ST n _ _ HV) as (it & E1 & VI). exists it. split; auto.
    destruct (BD _ _ VI) as [B1 B2]. split; [unfold iter_rest; apply (collect_as _ _ ST); auto|].
    rewrite skipn_length in B2. split; auto.
    destruct VI as (zs & gs' & I1 & I2 & I3 & I4 & I5). exists (length zs).
    assert (VC : V (iter_clone it) (flat_map gitems gs')).
    { exists [], gs'. split; [intros z []|]. split; auto. }
    split.
    - unfold iter_rest. rewrite (collect_as _ _ ST _ _ _ VC); [|apply (BD _ _ VC)].
      f_equal. rewrite I5. clear. induction zs; auto.
    - intros [X|X]; destruct I3 as [X'|[X' ->]]; auto; rewrite X in X'; inversion X'.
      destruct zs; auto. discriminate.
  Qed.

  (* ---- C54 ---- *)
  Definition all_items_of (rs : list R) (ps : list (L * R)) : list (option L * R) :=
    map (fun p => (Some (fst p), snd p)) ps ++ map (fun r => (None, r)) (lonely E rs ps).
  Definition yields {I A} (next : I -> outcome (option A * I)) (it : I) (l : list A) : Prop :=
    forall n, exists it',
      nexts next n it = Done (firstn n (map Some l) ++ repeat None (n - length l), it').

  Theorem C54_iterators : forall room m, reachable E room m ->
    exists rs ps, holds E m rs ps /\
      (exists l, yields (iter_next E m) (iter m) l /\ Permutation l (all_items_of rs ps)) /\
      yields (paired_next E m) (iter_paired m) ps /\
      (exists l, yields (@unpaired_next R) (iter_unpaired m) l /\ Permutation l (lonely E rs ps)) /\
      (exists l, yields (@left_next L) (iter_left m) l /\ Permutation l (map fst ps)) /\
      yields (@right_next R) (iter_right m) rs /\
      (forall r, match get_left_iter E m r with
                 | Some it => (exists b, In b rs /\ r =R b) /\
                              exists l, yields (pair_next E m) it l /\ Permutation l (lefts_of E ps r)
                 | None => forall b, In b rs -> eqR E r b = false
                 end).
  Proof.
    intros room m H. start H. exists rs, ps. split; [auto|].
    assert (W : forall I A next len (it : I) (l : list A), comes next len it l -> yields next it l).
    { intros I A next len it l C n. destruct (C n) as (it' & X & _). eauto. }
    refine (conj _ (conj _ (conj _ (conj _ (conj _ _))))).
    - destruct (come_iter _ _ _ _ _ H) as (l & P & C). exists l. split.
      + intros n. destruct (C n) as (it & X & _). eauto.
      + rewrite P. unfold s_items, all_items_of. rewrite lonely_unpaired. auto.
    - eapply W. apply (come_paired _ _ _ _ _ _ _ H). apply V.
    - destruct (come_unpaired _ _ _ _ _ _ H) as (l & C & P & _). exists l. split; [eapply W; eauto|].
      rewrite P, lonely_unpaired. auto.
    - destruct (come_left _ _ _ _ _ _ H) as (l & C & P). exists l. split; [eapply W; eauto|auto].
    - eapply W. eapply come_right; [exact H|apply V].
    - intros r. assert (A := an_get_left_iter _ _ _ _ (answers_repr E OK _ _ _ _ _ _ _ H) r).
      destruct (get_left_iter E m r) as [it|] eqn:GI; auto. split; [apply A|].
      destruct (come_pair _ _ _ _ _ _ _ _ H GI) as (l & C & P). exists l. split; [eapply W; eauto|auto].
  Qed.

  (* ---- C55 ---- *)
  (* All iterators but iter(): clones are copies, len() is exact at every point.  size_hint of
     iter_paired, iter_left, iter_right and get_left_iter is exact, that of iter_unpaired is
     only an upper bound. *)
  Theorem C55_len : forall room m, reachable E room m ->
    exists rs ps, holds E m rs ps /\
      comes (paired_next E m) (paired_len E m) (iter_paired m) ps /\
      (forall n xs it, nexts (paired_next E m) n (iter_paired m) = Done (xs, it) ->
         paired_size_hint it = ((length ps - n)%nat, Some (length ps - n)%nat)) /\
      (exists l, comes (@unpaired_next R) (@unpaired_len R) (iter_unpaired m) l /\
         Permutation l (lonely E rs ps) /\
         forall n xs it, nexts (@unpaired_next R) n (iter_unpaired m) = Done (xs, it) ->
           exists up, snd (unpaired_size_hint it) = Some up /\ (length l - n <= up)%nat) /\
      (exists l, comes (@left_next L) (fun it => Done (length it)) (iter_left m) l /\
         Permutation l (map fst ps)) /\
      comes (@right_next R) (fun it => Done (length it)) (iter_right m) rs /\
      (forall r it, get_left_iter E m r = Some it ->
         exists l, comes (pair_next E m) (fun it => Done (pair_len it)) it l /\
           Permutation l (lefts_of E ps r)).
  Proof.
    intros room m H. start H. exists rs, ps. split; [auto|].
    destruct (come_paired _ _ _ _ _ _ _ H (proj2 V)) as [P1 P2].
    refine (conj P1 (conj P2 (conj _ (conj _ (conj _ _))))).
    - destruct (come_unpaired _ _ _ _ _ _ H) as (l & C & P & U). exists l. split; [auto|].
      split; [rewrite P, lonely_unpaired; auto|]. intros n xs it HN. eexists. split; [reflexivity|]. eauto.
    - exact (come_left _ _ _ _ _ _ H).
    - eapply come_right; [exact H|apply V].
    - intros r it GI. exact (come_pair _ _ _ _ _ _ _ _ H GI).
  Qed.
  (* iter(): a clone taken inside a group forgets the rest of that group
     ([C55_iter_clone_refuted]); taken elsewhere it is exact, and so is len() (the number of
     items of a clone).  The lower bound of size_hint is always right. *)
  Theorem C55_iter_partial : forall room m, reachable E room m ->
    exists rs ps l, holds E m rs ps /\ Permutation l (all_items_of rs ps) /\
    forall n, exists it,
      nexts (iter_next E m) n (iter m) = Done (firstn n (map Some l) ++ repeat None (n - length l), it) /\
      iter_rest E m it = Done (skipn n l) /\
      (fst (iter_size_hint it) <= length l - n)%nat /\
      (* never panics, at most too few items *)
      (exists k, iter_rest E m (iter_clone it) = Done (skipn k (skipn n l)) /\
                 iter_len E m it = Done (length l - n - k)%nat) /\
      (left_iter it = None \/ left_iter it = Some [] ->
         iter_rest E m (iter_clone it) = Done (skipn n l) /\ iter_len E m it = Done (length l - n)%nat).
  Proof.
    intros room m H. start H. destruct (come_iter _ _ _ _ _ H) as (l & P & C).
    exists rs, ps, l. split; [auto|]. split.
    { rewrite P. unfold s_items, all_items_of. rewrite lonely_unpaired. auto. }
    intros n. destruct (C n) as (it & E1 & E2 & E3 & k & E4 & E5). exists it.
    split; [auto|]. split; [auto|]. split; [exact E3|]. split.
    - exists k. split; auto. unfold iter_len. rewrite E4. cbn [omap]. rewrite !skipn_length. auto.
    - intros X. rewrite (E5 X) in E4. split; auto. unfold iter_len. rewrite E4. cbn [omap].
      rewrite !skipn_length. f_equal. lia.
  Qed.

  (* ---- C56 ---- *)
  (* retain_paired drops what the closure answers TRUE to ([C56_retain_paired_refuted]).  The
     dropped left items are gone, the other pairs and all right items stay; but the groups of
     the dropped items keep dangling entries, so is_right_paired and get_left_iter are only
     right for the other groups (and for all if nothing was dropped).  A panic of the closure
     changes nothing. *)
  Theorem C56_retain_paired_partial : forall {X} (f : X -> L * R -> X * verdict) x room m,
    reachable E room m ->
    exists rs ps, holds E m rs ps /\
      match s_filter f x ps with
      | (x', _, _, true) => retain_paired E f (m, x) = Panic (m, x')
      | (x', yes, others, false) => exists m' rs' ps',
          retain_paired E f (m, x) = Ret (m', x') tt /\
          holds E m' rs' ps' /\ Permutation rs' rs /\ Permutation ps' others /\
          (forall l r, are_paired E m' l r = true <-> exists a b, In (a, b) others /\ l =L a /\ r =R b) /\
          (forall l, contains_left E m' l = true <-> exists a b, In (a, b) others /\ l =L a) /\
          (forall r, contains_right E m' r = contains_right E m r) /\
          follows E m' others /\ len_left m' = length others /\ len_right m' = length rs /\
          (forall r, (forall p, In p yes -> eqR E r (snd p) = false) ->
             (is_right_paired E m' r = is_right_paired E m r) /\
             forall it, get_left_iter E m' r = Some it ->
               exists Q, pair_rest E m' it = Done Q /\ Permutation Q (lefts_of E others r)) /\
          (yes = [] -> answers E m' rs others)
      end.
  Proof.
    intros X f x room m H. start H. assert (LK := tame_all_linked E OK _ _ _ _ _ _ H).
    assert (CL := tame_all_clean E OK _ _ _ _ _ _ H).
    destruct (retain_paired_ok E OK _ _ _ _ _ _ f x H LK) as (P & _ & PR & W).
    destruct V as [V1 V2]. rewrite V2 in PR. inversion PR; subst P. clear PR.
    exists rs, ps. split; [split; auto|].
    destruct (s_filter f x ps) as [[[x' yes] others] [|]] eqn:F; auto.
    destruct W as (m' & RT & H' & KC). cbn [fst snd g_rights andb] in H'.
    destruct (view E OK _ _ _ _ _ _ H') as (rs' & ps' & V' & P1 & P2 & _). cbn [g_rights g_pairs] in P1, P2.
    exists m', rs', ps'. refine (conj RT (conj V' (conj P1 (conj P2 _)))).
    refine (conj _ (conj _ (conj _ (conj _ (conj _ (conj _ (conj _ _))))))).
    - intros l r. rewrite (are_paired_ok E OK _ _ _ _ _ _ l r H'). unfold s_are_paired, is_l, is_r. simpl.
      rewrite existsb_exists. split.
      + intros ([a b] & HI & Y). apply andb_true_iff in Y as [Y Z]. exists a, b. auto.
      + intros (a & b & HI & Y & Z). exists (a, b). simpl. rewrite Y, Z. auto.
    - intros l. rewrite (contains_left_ok E OK _ _ _ _ _ _ l H'). unfold s_contains_left, is_l. simpl.
      rewrite existsb_exists. split.
      + intros ([a b] & HI & Y). exists a, b. auto.
      + intros (a & b & HI & Y). exists (a, b). auto.
    - intros r. rewrite (contains_right_ok E OK _ _ _ _ _ _ r H'), (contains_right_ok E OK _ _ _ _ _ _ r H).
      reflexivity.
    - eapply (follows_repr E OK); exact H'.
    - apply (len_left_ok E _ _ _ _ _ _ H').
    - apply (len_right_ok E _ _ _ _ _ _ H').
    - intros r NY. assert (C' := KC r (CL r) NY). split.
      + rewrite (is_right_paired_ok E OK _ _ _ _ _ _ r H' C'), (is_right_paired_ok E OK _ _ _ _ _ _ r H (CL r)).
        unfold s_is_right_paired. cbn [g_pairs]. apply s_filter_perm in F.
        rewrite (existsb_perm _ _ _ F), existsb_app.
        replace (existsb (is_r (eqR E) r) yes) with false; auto.
        symmetry. apply existsb_false. intros p Hp. apply NY; auto.
      + intros it GI. destruct (get_left_iter_steps E OK _ _ _ _ _ _ r it H' C' GI) as (l & _ & A & _ & B).
        exists l. auto.
    - intros ->. rewrite andb_true_r in H' || idtac. eapply (answers_repr E OK). exact H'.
  Qed.
  (* retain_unpaired drops what the closure answers TRUE to ([C56_retain_unpaired_refuted]),
     and nothing else; the map stays consistent. *)
  Theorem C56_retain_unpaired_partial : forall {X} (f : X -> R -> X * verdict) x room m,
    reachable E room m ->
    exists rs ps U, holds E m rs ps /\ unpaired_rest (iter_unpaired m) = Done U /\
      Permutation U (lonely E rs ps) /\
      match s_filter f x U with
      | (x', _, _, true) => retain_unpaired E f (m, x) = Panic (m, x')
      | (x', yes, _, false) => exists m' rs' ps',
          retain_unpaired E f (m, x) = Ret (m', x') tt /\
          holds E m' rs' ps' /\ Permutation rs (yes ++ rs') /\ Permutation ps' ps /\
          answers E m' rs' ps' /\ follows E m' ps'
      end.
  Proof.
    intros X f x room m H. start H. assert (CL := tame_all_clean E OK _ _ _ _ _ _ H).
    destruct (retain_unpaired_ok E OK _ _ _ _ _ _ f x H CL) as (U & PU & HU & W).
    exists rs, ps, U. split; [auto|]. split; [auto|]. split; [rewrite PU, lonely_unpaired; auto|].
    destruct (s_filter f x U) as [[[x' yes] others] [|]] eqn:F; auto.
    destruct W as (m' & rights & RT & PR & H'). cbn [g_rights g_pairs] in *.
    destruct (view E OK _ _ _ _ _ _ H') as (rs' & ps' & V' & P1 & P2 & H2). cbn [g_rights g_pairs] in P1, P2.
    exists m', rs', ps'. refine (conj RT (conj V' (conj _ (conj P2 (conj _ _))))).
    - rewrite PR. apply Permutation_app_head. symmetry; auto.
    - eapply (answers_repr E OK); eauto.
    - eapply (follows_repr E OK); eauto.
  Qed.
End Props2.

(* ---- concrete cases: gmc is reachable ([gm1_reachable]) ---- *)
Definition iter_at (n : nat) : outcome (list (option item * item) * outcome (list (option item * item))
    * outcome nat * (nat * option nat)) :=
  match nexts (iter_next env_collide gmc) n (iter gmc) with
  | Done (_, it) => match iter_rest env_collide gmc it with
                    | Done l => Done (l, iter_rest env_collide gmc (iter_clone it),
                                      iter_len env_collide gmc it, iter_size_hint it)
                    | Panicked => Panicked
                    end
  | Panicked => Panicked
  end.
Example C54_case : reachable env_collide 1 gmc /\
  iter_rest env_collide gmc (iter gmc) =
    Done [(None, it 40); (Some (it 7), it 10); (Some (it 1), it 10); (Some (it 8), it 10);
          (Some (it 6), it 30); (Some (it 5), it 30); (Some (it 2), it 30); (None, it 70); (None, it 90)] /\
  unpaired_rest (iter_unpaired gmc) = Done [it 40; it 70; it 90] /\
  left_rest (iter_left gmc) = Done [it 7; it 5; it 1; it 2; it 6; it 8] /\
  nexts (@unpaired_next item) 5 (iter_unpaired gmc) =
    Done ([Some (it 40); Some (it 70); Some (it 90); None; None], []).
Proof.
  split; [apply gm1_reachable; [simpl; auto|reflexivity]|].
  repeat (split; [vm_compute; reflexivity|]). vm_compute; reflexivity.
Qed.
(* a clone at the end of a group *)
Example C55_case : exists l,
  iter_at 4 = Done (l, Done l, Done 5%nat, (3%nat, Some 3%nat)) /\ length l = 5%nat /\
  (exists xs i, nexts (@unpaired_next item) 1 (iter_unpaired gmc) = Done (xs, i) /\
     unpaired_len i = Done 2%nat /\ unpaired_size_hint i = (4%nat, Some 4%nat)).
Proof.
  eexists. split; [vm_compute; reflexivity|]. split; [vm_compute; reflexivity|].
  do 2 eexists. vm_compute. auto.
Qed.
(* C55 as stated is false: after one item of the group of 10, a clone misses the other two;
   len() says 5 although 7 items are to come. *)
Theorem C55_iter_clone_refuted : exists (E : env item item N) m n xs i l,
  lawful E /\ reachable E 1 m /\
  nexts (iter_next E m) n (iter m) = Done (xs, i) /\ iter_rest E m i = Done l /\
  length l = 7%nat /\ iter_len E m i = Done 5%nat /\
  iter_rest E m (iter_clone i) = Done (skipn 2 l).
Proof.
  exists env_collide, gmc, 2%nat. do 3 eexists.
  split; [exact env_collide_ok|]. split; [apply gm1_reachable; [simpl; auto|reflexivity]|].
  repeat (split; [vm_compute; reflexivity|]). vm_compute; reflexivity.
Qed.
(* size_hint of iter() says at most 5, 9 items come; size_hint of iter_unpaired() says at
   least 5, 3 items come *)
Theorem C55_size_hint_refuted : exists (E : env item item N) m l u,
  lawful E /\ reachable E 1 m /\
  iter_rest E m (iter m) = Done l /\ length l = 9%nat /\ snd (iter_size_hint (iter m)) = Some 5%nat /\
  unpaired_rest (iter_unpaired m) = Done u /\ length u = 3%nat /\
  fst (unpaired_size_hint (iter_unpaired m)) = 5%nat.
Proof.
  exists env_collide, gmc. do 2 eexists.
  split; [exact env_collide_ok|]. split; [apply gm1_reachable; [simpl; auto|reflexivity]|].
  repeat (split; [vm_compute; reflexivity|]). vm_compute; reflexivity.
Qed.

(* a closure that counts its calls and answers true to the pairs of 30 *)
Definition f30 (x : N) (p : item * item) : N * verdict := (x + 1, Some (fst (snd p) =? 30)).
Definition f70 (x : N) (r : item) : N * verdict := (x + 1, Some (fst r =? 70)).
Definition f_fails (x : N) (p : item * item) : N * verdict :=
  (x + 1, if x =? 3 then None else Some true).
Example C56_case :
  match retain_paired env_collide f30 (gmc, 0) with
  | Ret (m, x) _ => x = 6 /\
      paired_rest env_collide m (iter_paired m) = Done [(it 7, it 10); (it 1, it 10); (it 8, it 10)] /\
      is_right_paired env_collide m (it 10) = true
  | Panic _ => False
  end /\
  retain_paired env_collide f_fails (gmc, 0) = Panic (gmc, 4) /\
  match retain_unpaired env_collide f70 (gmc, 0) with
  | Ret (m, x) _ => x = 3 /\ right_rest (iter_right m) = Done [it 40; it 10; it 30; it 90] /\
      unpaired_rest (iter_unpaired m) = Done [it 40; it 90]
  | Panic _ => False
  end.
Proof. vm_compute. auto 8. Qed.
(* C56 as stated is false: the pairs of 30 are answered true to, and dropped; the others are
   answered false to, and kept.  Afterwards 30 counts as paired, walking its group panics, and
   so does iterating the map. *)
Theorem C56_retain_paired_refuted : exists (E : env item item N) m (f : N -> item * item -> N * verdict) m' it',
  lawful E /\ reachable E 1 m /\ retain_paired E f (m, 0) = Ret (m', 6) tt /\
  (forall x, snd (f x (it 2, it 30)) = Some true) /\ (forall x, snd (f x (it 1, it 10)) = Some false) /\
  are_paired E m (it 2) (it 30) = true /\ are_paired E m (it 1) (it 10) = true /\
  are_paired E m' (it 2) (it 30) = false /\ are_paired E m' (it 1) (it 10) = true /\
  is_right_paired E m' (it 30) = true /\
  get_left_iter E m' (it 30) = Some it' /\ pair_rest E m' it' = Panicked /\
  iter_rest E m' (iter m') = Panicked /\ unpaired_rest (iter_unpaired m') = Done [it 40; it 70; it 90].
Proof.
  exists env_collide, gmc, f30. do 2 eexists.
  split; [exact env_collide_ok|]. split; [apply gm1_reachable; [simpl; auto|reflexivity]|].
  split; [vm_compute; reflexivity|]. do 2 (split; [intros x; reflexivity|]).
  repeat (split; [vm_compute; reflexivity|]). vm_compute; reflexivity.
Qed.
Theorem C56_retain_unpaired_refuted : exists (E : env item item N) m (f : N -> item -> N * verdict) m',
  lawful E /\ reachable E 1 m /\ retain_unpaired E f (m, 0) = Ret (m', 3) tt /\
  (forall x, snd (f x (it 70)) = Some true) /\ (forall x, snd (f x (it 40)) = Some false) /\
  contains_right E m (it 70) = true /\ contains_right E m' (it 70) = false /\
  contains_right E m' (it 40) = true.
Proof.
  exists env_collide, gmc, f70. eexists.
  split; [exact env_collide_ok|]. split; [apply gm1_reachable; [simpl; auto|reflexivity]|].
  split; [vm_compute; reflexivity|]. do 2 (split; [intros x; reflexivity|]).
  repeat (split; [vm_compute; reflexivity|]). vm_compute; reflexivity.
Qed.

Print Assumptions C54_iterators.
Print Assumptions C55_len.
Print Assumptions C55_iter_partial.
Print Assumptions C55_iter_clone_refuted.
Print Assumptions C55_size_hint_refuted.
Print Assumptions C56_retain_paired_partial.
Print Assumptions C56_retain_unpaired_partial.
Print Assumptions C56_retain_paired_refuted.
Print Assumptions C56_retain_unpaired_refuted.
