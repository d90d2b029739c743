(* GroupLax along every history, part 4: remove, iterators, retain, extend. *)
From Coq Require Import List NArith Lia Bool Permutation PeanoNat.
From Verif Require Import Closures Prelude RawTable GroupMap ListFacts TableFacts IterFacts GroupSpec GroupHistory
  GroupProofs GroupProofs2 GroupLax GroupLaxProofs GroupLaxProofs2 GroupLaxProofs3.
From Verif Require CycleMapLaxProofs CycleMapLaxProofs2.
Import ListNotations.
Open Scope N_scope.

Section LaxProofs4.
  Context {L R S : Type} (E : env L R S) (OK : lax E).
  Notation gm := (gmap L R S).
  Notation wl := (wleft L R).
  Notation zr := (zright R).
  Let LO := CycleMapLax.lax_lo _ OK.
  Let BO := bare_ok E LO.
  Notation eL := (eqL E).
  Notation eR := (eqR E).
  Notation slotR := (slotR E).
  Notation wslot := (wslot E).
  Notation wkey := (wkey E).
  Notation WRep := (WRep E).
  Notation WTabs := (WTabs E).
  Notation WCore := (WCore E).
  Notation find_l m q := (t_get_mut E (left_set m) (hashL E (hash_builder m) q) (equivalent_key_left eL q)).
  Notation find_r m q := (t_get_mut E (right_set m) (hashR E (hash_builder m) q) (equivalent_key_right eR q)).
  Notation lax_step := (lax_step eL eR).

  Lemma remove_w : forall s lc rc m A B l r, WRep s lc rc m A B ->
    exists m' A' B' w, remove E l r m = Ret m' w /\ WRep s lc rc m' A' B' /\
      lax_step (tview A B) (Remove l r) (tview A' B') (OGroup w).
  Proof.
    intros s lc rc m A B l r W. unfold remove. unfold getst, bind. cbv beta iota.
    rewrite (are_paired_c E OK _ _ _ _ _ _ _ _ W).
    assert (X := find_l_w E OK _ _ _ _ _ _ l W). assert (Y := find_r_w E OK _ _ _ _ _ _ r W).
    assert (STAY : forall a q, picks (on eL l) (map v_key A) a -> picks (on eR r) (map y_key B) q ->
      match a, q with Some p, Some q => fst p =? fst q | _, _ => false end = false ->
      exists m' A' B' w, ret None m = Ret m' w /\ WRep s lc rc m' A' B' /\
        lax_step (tview A B) (Remove l r) (tview A' B') (OGroup w)).
    { intros a q Pa Pq F. exists m, A, B, None. split; auto. split; auto. exists a, q.
      split; [auto|]. split; [auto|]. destruct a, q; try rewrite F; split; auto; apply like_refl. }
    destruct (find_l m l) as [[i e]|].
    2:{ destruct (find_r m r) as [[j f]|]; [destruct Y as (y & _ & _ & Y)|]; eapply STAY; eauto. }
    destruct X as (z & Hz & -> & PZ).
    destruct (find_r m r) as [[j f]|] eqn:F; [|eapply STAY; eauto].
    destruct Y as (y & Hy & -> & PY). simpl.
    destruct (v_g z =? y_id y) eqn:Q; [|eapply STAY; eauto].
    assert (W0 := W). destruct W0 as (T & H & C1 & C2).
    destruct (remove_right_c E OK _ _ _ _ _ _ r T H) as (m' & A' & B' & o & w & RUN & FO & TK & G & T' & H1 & C1' & C2').
    rewrite F in FO. destruct o as [y'|]; [|discriminate]. simpl in FO. injection FO as V1 V2 V3.
    exists m', A', B', w. split; auto. split; [split; [|split; [|split]]; congruence || auto|].
    exists (Some (v_key z)), (Some (y_key y')). split; [auto|]. split.
    - exists (map y_key B'). apply (CycleMapLaxProofs.takes_map y_key (on eR r) (fun y => eR (y_r y) r) B (Some y') B'); auto.
    - assert (Q' : (fst (v_key z) =? fst (y_key y')) = true) by (simpl; rewrite <- V3; auto).
      rewrite Q'. exists w. split; auto.
      apply (remove_group_view E A B (Some y') A' B' w _ TK G).
  Qed.

  (* ---- queries ---- *)
  Lemma queries_w : forall s lc rc m A B, WRep s lc rc m A B ->
    (forall l r, lax_step (tview A B) (ArePaired l r) (tview A B) (OBool (are_paired E m l r))) /\
    (forall r, lax_step (tview A B) (IsRightPaired r) (tview A B) (OBool (is_right_paired E m r))) /\
    (forall l, lax_step (tview A B) (ContainsLeft l) (tview A B) (OBool (contains_left E m l))) /\
    (forall r, lax_step (tview A B) (ContainsRight r) (tview A B) (OBool (contains_right E m r))) /\
    (forall l, lax_step (tview A B) (GetRight l) (tview A B) (OR (get_right E m l))).
  Proof.
    intros s lc rc m A B W. assert (W0 := W). destruct W0 as (T & H & _).
    split; [|split; [|split; [|split]]].
    - intros l r. split; [apply like_refl|].
      destruct (are_paired_w E OK _ _ _ _ _ _ l r W) as (a & q & Pa & Pq & Q). exists a, q.
      split; [auto|]. split; [auto|]. rewrite Q. auto.
    - intros r. split; [apply like_refl|]. unfold is_right_paired. rewrite (find_right_mut E).
      assert (Y := find_r_w E OK _ _ _ _ _ _ r W). destruct (find_r m r) as [[j f]|]; simpl.
      + destruct Y as (y & Hy & -> & PY). exists (Some (y_key y)). split; auto.
        simpl. rewrite (empty_tab E _ _ _ _ _ _ H Hy), (members_view A B). f_equal.
        destruct (filter (belongs (y_id y)) A); auto.
      + exists None. auto.
    - intros l. split; [apply like_refl|]. unfold contains_left. rewrite (find_left_mut E).
      assert (X := find_l_w E OK _ _ _ _ _ _ l W). destruct (find_l m l) as [[j f]|]; simpl.
      + destruct X as (z & Hz & -> & PZ). exists (Some (v_key z)). auto.
      + exists None. auto.
    - intros r. split; [apply like_refl|]. unfold contains_right. rewrite (find_right_mut E).
      assert (Y := find_r_w E OK _ _ _ _ _ _ r W). destruct (find_r m r) as [[j f]|]; simpl.
      + destruct Y as (y & Hy & -> & PY). exists (Some (y_key y)). auto.
      + exists None. auto.
    - intros l. split; [apply like_refl|]. unfold get_right, get_right_q.
      change (t_get (lo E) (left_set m) (hashL E (hash_builder m) l) (equivalent_key_left eL l))
        with (find_left E m l). rewrite (find_left_mut E).
      assert (X := find_l_w E OK _ _ _ _ _ _ l W). destruct (find_l m l) as [[j f]|]; simpl.
      + destruct X as (z & Hz & -> & PZ). exists (Some (v_key z)). split; auto. simpl.
        destruct (c_link _ _ _ _ _ _ H z Hz) as (y & Hy & Q1 & Q2).
        rewrite <- Q1, <- Q2. erewrite (get_right_id E OK); [|exact T|apply (c_rids _ _ _ _ _ _ H)|auto].
        simpl. exists (y_r y). split; auto. rewrite Q1, Q2. apply in_map_iff. exists y. unfold y_key. rewrite Q1, Q2. auto.
      + exists None. auto.
  Qed.

  (* ---- iterators ---- *)
  Lemma order_l : forall s m A B, WTabs s m A B ->
    exists Y, Permutation A Y /\ slots (left_set m) = map (wslot s) Y.
  Proof.
    intros s m A B T. assert (P := t_l _ _ _ _ _ T).
    apply Permutation_map_inv in P as (Y & Q & P). eauto.
  Qed.
  Lemma order_r : forall s m A B, WTabs s m A B ->
    exists Y, Permutation B Y /\ slots (right_set m) = map (slotR s) Y.
  Proof.
    intros s m A B T. assert (P := t_r _ _ _ _ _ T).
    apply Permutation_map_inv in P as (Y & Q & P). eauto.
  Qed.
  Definition v_pair (z : wl) : L * R := (v_l z, v_r z).

  Lemma pair_rest_w : forall s lc rc m A B zs, WTabs s m A B -> WCore s lc rc A B -> incl zs A ->
    pair_rest E m (map (wkey s) zs) = Done (map v_l zs).
  Proof.
    intros s lc rc m A B zs T H I. unfold pair_rest. rewrite map_length.
    induction zs as [|z zs IH]; auto. cbn [length map collect]. cbn [pair_next GroupLaxProofs.wkey].
    erewrite (get_left_id E OK); [|exact T|apply (c_lids _ _ _ _ _ _ H)|apply I; left; auto].
    simpl. rewrite IH by (intros x Hx; apply I; right; auto). auto.
  Qed.
  Lemma get_left_iter_w : forall s lc rc m A B r, WRep s lc rc m A B ->
    exists w, step E m (GetLeftIter r) = (m, w) /\ lax_step (tview A B) (GetLeftIter r) (tview A B) w.
  Proof.
    intros s lc rc m A B r W. assert (W0 := W). destruct W0 as (T & H & _). cbn [step].
    unfold get_left_iter, get_left_iter_q.
    change (t_get (lo E) (right_set m) (hashR E (hash_builder m) r) (equivalent_key_right eR r))
      with (find_right E m r). rewrite (find_right_mut E).
    assert (Y := find_r_w E OK _ _ _ _ _ _ r W). destruct (find_r m r) as [[j f]|]; cbn [option_map].
    - destruct Y as (y & Hy & -> & PY). cbn [snd GroupProofs.slotR r_pairs].
      destruct (tab_elems E _ _ _ _ _ _ H Hy) as (zs & -> & PZ).
      erewrite pair_rest_w; eauto.
      2:{ intros z Hz. apply (Permutation_in _ PZ) in Hz. apply filter_In in Hz; tauto. }
      eexists; split; [reflexivity|]. split; [apply like_refl|]. exists (Some (y_key y)). split; auto.
      simpl. exists (map v_l zs). split; auto. rewrite members_view. apply Permutation_map; auto.
    - eexists; split; [reflexivity|]. split; [apply like_refl|]. exists None. auto.
  Qed.

  Lemma paired_steps_w : forall s lc rc m A B, WTabs s m A B -> WCore s lc rc A B ->
    steps_as (paired_next E m) (fun it l => exists Y : list wl, incl Y A /\ it = map (wslot s) Y /\ l = map v_pair Y).
  Proof.
    intros s lc rc m A B T H it l (Y & I & -> & ->). destruct Y as [|z Y]; cbn [map].
    - exists []. split; auto. exists []; auto.
    - exists (map (wslot s) Y). split.
      + cbn [paired_next GroupLaxProofs.wslot l_hash l_rid l_value].
        destruct (c_link _ _ _ _ _ _ H z (I z (or_introl eq_refl))) as (y & Hy & Q1 & Q2).
        rewrite <- Q1, <- Q2. erewrite (get_right_id E OK); [|exact T|apply (c_rids _ _ _ _ _ _ H)|auto].
        unfold v_pair. rewrite <- Q2. auto.
      + exists Y. split; auto. intros x Hx. apply I; right; auto.
  Qed.
  (* the left items, right item by right item *)
  Lemma regroup : forall (B : list zr) (A : list wl), NoDup (map y_id B) ->
    (forall z, In z A -> exists y, In y B /\ y_id y = v_g z) ->
    Permutation (flat_map (fun y => filter (belongs (y_id y)) A) B) A.
  Proof.
    induction B as [|y B IH]; intros A ND LK; simpl.
    - destruct A as [|z A]; auto. destruct (LK z (or_introl eq_refl)) as (y & [] & _).
    - inversion ND; subst.
      etransitivity; [|symmetry; apply (split_group (y_id y))]. apply Permutation_app_head.
      etransitivity; [|apply IH; auto].
      + assert (X : forall B', incl B' B ->
          flat_map (fun y0 => filter (belongs (y_id y0)) A) B'
          = flat_map (fun y0 => filter (belongs (y_id y0)) (filter (fun z => negb (belongs (y_id y) z)) A)) B').
        { induction B' as [|x B' IH']; intros I; simpl; auto.
          rewrite IH' by (intros ? ?; apply I; right; auto). f_equal. rewrite filter_filter.
          apply filter_ext_in. intros z Hz. unfold belongs.
          destruct (v_g z =? y_id x) eqn:Q; rewrite ?andb_false_r, ?andb_true_r; auto.
          apply N.eqb_eq in Q. symmetry. apply negb_true_iff, N.eqb_neq. intro Q'. apply H1.
          rewrite <- Q', Q. apply in_map, I. left; auto. }
        rewrite <- X; auto. apply incl_refl.
      + intros z Hz. apply filter_In in Hz as [Hz G]. destruct (LK z Hz) as (x & [<-|Hx] & Q).
        * unfold belongs in G. rewrite Q, N.eqb_refl in G. discriminate.
        * eauto.
  Qed.
  Lemma flat_map_map : forall {T U V} (f : T -> U) (g : U -> list V) l,
    flat_map g (map f l) = flat_map (fun x => g (f x)) l.
  Proof. induction l; simpl; auto. f_equal; auto. Qed.
  Lemma map_flat_map : forall {T U V} (f : U -> V) (g : T -> list U) l,
    map f (flat_map g l) = flat_map (fun x => map f (g x)) l.
  Proof. induction l; simpl; auto. rewrite map_app. f_equal; auto. Qed.
  Lemma flat_map_same : forall {T U} (f g : T -> list U) l, (forall x, In x l -> f x = g x) ->
    flat_map f l = flat_map g l.
  Proof. induction l; simpl; intros H; auto. rewrite H, IHl; auto. Qed.

  Lemma pairs_view : forall s lc rc A B, WCore s lc rc A B ->
    Permutation (s_pairs (tview A B)) (map v_pair A).
  Proof.
    intros s lc rc A B H. unfold s_pairs. cbn [rights tview]. rewrite flat_map_map.
    etransitivity; [|apply Permutation_map; apply (regroup B A)].
    - rewrite map_flat_map. erewrite flat_map_same; [reflexivity|]. intros y Hy. cbn [fst snd y_key].
      fold (tview A B). rewrite members_view, map_map. apply map_ext_in. intros z Hz.
      apply filter_In in Hz as [Hz G]. apply N.eqb_eq in G. unfold v_pair.
      f_equal. symmetry. eapply owner_r; eauto.
    - apply (c_rids _ _ _ _ _ _ H).
    - intros z Hz. destruct (c_link _ _ _ _ _ _ H z Hz) as (y & Hy & Q & _). eauto.
  Qed.
  Definition lone (A : list wl) (y : zr) : bool :=
    match filter (belongs (y_id y)) A with [] => true | _ => false end.
  Lemma alone_view : forall (A : list wl) (B : list zr), s_alone (tview A B) = map y_r (filter (lone A) B).
  Proof.
    intros A B. unfold s_alone. cbn [rights tview]. rewrite flat_map_map.
    assert (X : forall B', flat_map (fun y => match members (tview A B) (fst (y_key y)) with
        [] => [snd (y_key y)] | _ => [] end) B' = map y_r (filter (lone A) B')).
    { induction B' as [|y B' IH]; auto. cbn [flat_map filter]. rewrite IH. unfold lone at 2.
      cbn [y_key fst snd]. rewrite members_view. destruct (filter (belongs (y_id y)) A); auto. }
    apply X.
  Qed.

  Lemma iter_paired_w : forall s lc rc m A B, WRep s lc rc m A B ->
    exists Y, Permutation A Y /\ paired_rest E m (iter_paired m) = Done (map v_pair Y) /\
      iter_paired m = map (wslot s) Y /\ Permutation (map v_pair Y) (s_pairs (tview A B)).
  Proof.
    intros s lc rc m A B (T & H & _). destruct (order_l _ _ _ _ T) as (Y & P & Q).
    exists Y. split; auto. split; [|split; auto].
    - eapply collect_as; [apply (paired_steps_w _ _ _ _ _ _ T H)| |].
      + exists Y. split; [|split; auto]. intros x; apply Permutation_in. symmetry; auto.
      + unfold iter_paired. rewrite Q, !map_length. auto.
    - symmetry. etransitivity; [eapply pairs_view; eauto|]. apply Permutation_map; auto.
  Qed.

  Lemma unpaired_steps_w : forall s lc rc A B, WCore s lc rc A B ->
    steps_as (@unpaired_next R) (fun it l => exists Y, incl Y B /\ it = map (slotR s) Y /\ l = map y_r (filter (lone A) Y)).
  Proof.
    intros s lc rc A B H it l (Y & I & -> & ->). induction Y as [|y Y IH].
    - exists []. split; auto. exists []; auto.
    - cbn [map unpaired_next GroupProofs.slotR r_pairs r_value filter].
      rewrite (empty_tab E _ _ _ _ _ y H) by (apply I; left; auto). fold (lone A y).
      destruct (lone A y).
      + cbn [map]. exists (map (slotR s) Y). split; auto. exists Y. split; auto.
        intros x Hx; apply I; right; auto.
      + apply IH. intros x Hx; apply I; right; auto.
  Qed.
  Lemma filter_le : forall {T} (p : T -> bool) l, (length (filter p l) <= length l)%nat.
  Proof. induction l; simpl; auto. destruct (p a); simpl; lia. Qed.
  Lemma iter_unpaired_w : forall s lc rc m A B, WRep s lc rc m A B ->
    exists Y, Permutation B Y /\ unpaired_rest (iter_unpaired m) = Done (map y_r (filter (lone A) Y)) /\
      iter_unpaired m = map (slotR s) Y /\ Permutation (map y_r (filter (lone A) Y)) (s_alone (tview A B)).
  Proof.
    intros s lc rc m A B (T & H & _). destruct (order_r _ _ _ _ T) as (Y & P & Q).
    exists Y. split; auto. split; [|split; auto].
    - eapply collect_as; [apply (unpaired_steps_w s _ _ _ _ H)| |].
      + exists Y. split; [|split; auto]. intros x; apply Permutation_in. symmetry; auto.
      + unfold iter_unpaired. rewrite Q, !map_length. apply filter_le.
    - rewrite alone_view. apply Permutation_map, filter_perm. symmetry; auto.
  Qed.

  (* iter: right items, each with its left items in the order of its set *)
  Definition gitems (g : zr * list wl) : list (option L * R) :=
    match snd g with
    | [] => [(None, y_r (fst g))]
    | zs => map (fun z => (Some (v_l z), v_r z)) zs
    end.
  Definition good (A : list wl) (s : S) (g : zr * list wl) : Prop :=
    hs_elems (y_tab (fst g)) = map (wkey s) (snd g) /\
    Permutation (snd g) (filter (belongs (y_id (fst g))) A) /\
    forall z, In z (snd g) -> v_r z = y_r (fst g).
  Lemma iter_steps_w : forall s lc rc m A B, WTabs s m A B -> WCore s lc rc A B ->
    steps_as (iter_next E m)
      (fun it l => exists zs gs, incl zs A /\ (forall g, In g gs -> good A s g) /\
         (left_iter it = Some (map (wkey s) zs) \/ left_iter it = None /\ zs = []) /\
         right_iter it = map (slotR s) (map fst gs) /\
         l = map (fun z => (Some (v_l z), v_r z)) zs ++ flat_map gitems gs).
  Proof.
    intros s lc rc m A B T H it l (zs & gs & I & GG & HL & HR & ->).
    assert (GL : forall z, In z A -> t_get (lo E) (left_set m) (hashL E s (v_l z)) (left_with_left_id (v_id z))
                  = Some (snd (wslot s z))).
    { intros z Hz. eapply (get_left_id E OK); [exact T|apply (c_lids _ _ _ _ _ _ H)|auto]. }
    destruct zs as [|z zs]; cbn [map app].
    - assert (NX : iter_next E m it = iter_next_right E m (left_iter it) (right_iter it)).
      { unfold iter_next. destruct HL as [->|[-> _]]; auto. }
      rewrite NX, HR. destruct gs as [|g gs]; cbn [map flat_map].
      + eexists; split; [reflexivity|]. exists [], []. refine (conj _ (conj _ (conj _ (conj _ _)))); auto; intros ? [].
      + destruct (GG g (or_introl eq_refl)) as (Q1 & Q2 & Q3).
        destruct g as [y [|z zs]]; cbn [fst snd gitems app map] in *.
        * simpl. rewrite Q1. eexists; split; [reflexivity|]. exists [], gs. simpl.
          refine (conj _ (conj _ (conj _ (conj _ _)))); auto. intros g Hg. apply GG. right; auto.
        * simpl. rewrite Q1. cbn [map GroupLaxProofs.wkey].
          assert (IZ : incl (z :: zs) A).
          { intros x Hx. apply (Permutation_in _ Q2) in Hx. apply filter_In in Hx; tauto. }
          rewrite GL by (apply IZ; left; auto). simpl.
          rewrite <- (Q3 z (or_introl eq_refl)).
          eexists; split; [reflexivity|]. exists zs, gs. simpl. refine (conj _ (conj _ (conj _ (conj _ _)))); auto.
          { intros x Hx. apply IZ; right; auto. }
          { intros g Hg. apply GG. right; auto. }
    - destruct HL as [HL|[_ HL]]; [|discriminate].
      exists (Iter (right_iter it) (Some (map (wkey s) zs))). split.
      + unfold iter_next. rewrite HL. cbn [map GroupLaxProofs.wkey].
        rewrite GL by (apply I; left; auto). cbn [GroupLaxProofs.wslot snd l_hash l_rid l_value].
        destruct (c_link _ _ _ _ _ _ H z (I z (or_introl eq_refl))) as (y & Hy & Q1 & Q2).
        rewrite <- Q1, <- Q2. erewrite (get_right_id E OK); [|exact T|apply (c_rids _ _ _ _ _ _ H)|auto].
        simpl. auto.
      + exists zs, gs. simpl. refine (conj _ (conj _ (conj _ (conj _ _)))); auto. intros x Hx; apply I; right; auto.
  Qed.
  Lemma groups_exist : forall s lc rc A B, WCore s lc rc A B ->
    forall Y, incl Y B -> exists gs, map fst gs = Y /\ forall g, In g gs -> good A s g.
  Proof.
    intros s lc rc A B H. induction Y as [|y Y IH]; intros I.
    - exists []. split; auto. intros g [].
    - destruct IH as (gs & Q & GG); [intros x Hx; apply I; right; auto|].
      assert (Hy : In y B) by (apply I; left; auto).
      destruct (tab_elems E _ _ _ _ _ y H Hy) as (zs & Q1 & Q2).
      exists ((y, zs) :: gs). split; [simpl; f_equal; auto|].
      intros g [<-|Hg]; auto. split; [|split]; auto. simpl. intros z Hz.
      apply (Permutation_in _ Q2) in Hz. apply filter_In in Hz as [Hz G]. apply N.eqb_eq in G.
      eapply owner_r; eauto.
  Qed.
  Lemma gitems_perm : forall A s (gs : list (zr * list wl)), (forall g, In g gs -> good A s g) ->
    Permutation (flat_map gitems gs)
      (map (fun z => (Some (v_l z), v_r z)) (flat_map (fun g => filter (belongs (y_id (fst g))) A) gs) ++
       map (fun r => (None, r)) (map y_r (filter (lone A) (map fst gs)))).
  Proof.
    intros A s. induction gs as [|[y zs] gs IH]; intros GG; simpl; auto.
    destruct (GG _ (or_introl eq_refl)) as (_ & P & _). simpl in P.
    assert (IH' := IH (fun g Hg => GG g (or_intror Hg))). unfold lone at 1.
    destruct zs as [|z zs]; unfold gitems at 1; cbn [snd fst].
    - apply Permutation_nil in P. rewrite P. cbn [app map].
      etransitivity; [constructor; exact IH'|]. apply Permutation_middle.
    - destruct (filter (belongs (y_id y)) A) as [|z0 t] eqn:F.
      + symmetry in P. apply Permutation_nil in P. discriminate.
      + rewrite map_app, <- app_assoc. apply Permutation_app; auto. apply Permutation_map; auto.
  Qed.
  Lemma iter_w : forall s lc rc m A B, WRep s lc rc m A B ->
    exists Q, iter_rest E m (iter m) = Done Q /\ Permutation Q (s_all (tview A B)).
  Proof.
    intros s lc rc m A B (T & H & _). destruct (order_r _ _ _ _ T) as (Y & P & Q).
    assert (I : incl Y B) by (intros x; apply Permutation_in; symmetry; auto).
    destruct (groups_exist _ _ _ _ _ H Y I) as (gs & QY & GG).
    exists (flat_map gitems gs). split.
    - eapply collect_as; [apply (iter_steps_w _ _ _ _ _ _ T H)| |].
      + exists [], gs. refine (conj _ (conj _ (conj _ (conj _ _)))); auto.
        * intros x [].
        * simpl. rewrite Q, QY. auto.
      + unfold iter_bound. simpl. rewrite Q, <- QY. clear -GG.
        induction gs as [|g gs IH]; simpl; auto. rewrite app_length.
        assert (X := IH (fun g Hg => GG g (or_intror Hg))).
        destruct (GG g (or_introl eq_refl)) as (Q1 & _ & _).
        assert (X2 : (length (gitems g) <= Datatypes.S (t_len (y_tab (fst g))))%nat).
        { assert (X3 : t_len (y_tab (fst g)) = length (snd g)).
          { rewrite <- (map_length (wkey s)), <- Q1. unfold t_len, hs_elems. rewrite map_length. auto. }
          rewrite X3. unfold gitems. destruct (snd g); simpl; try rewrite map_length; lia. }
        lia.
    - etransitivity; [apply (gitems_perm A s gs GG)|]. unfold s_all. apply Permutation_app.
      + etransitivity; [|apply Permutation_map; symmetry; eapply pairs_view; eauto].
        rewrite map_map. unfold v_pair. cbn [fst snd]. apply Permutation_map.
        rewrite <- (flat_map_map fst (fun y => filter (belongs (y_id y)) A)), QY.
        apply regroup.
        * eapply NoDup_perm; [apply Permutation_map; exact P|apply (c_rids _ _ _ _ _ _ H)].
        * intros z Hz. destruct (c_link _ _ _ _ _ _ H z Hz) as (y & Hy & Q1 & _). exists y.
          split; auto. eapply Permutation_in; eauto.
      + rewrite alone_view, QY. apply Permutation_map, Permutation_map, filter_perm. symmetry; auto.
  Qed.
  Lemma left_right_w : forall s lc rc m A B, WRep s lc rc m A B ->
    (exists Q, left_rest (iter_left m) = Done Q /\ Permutation Q (map snd (lefts (tview A B)))) /\
    (exists Q, right_rest (iter_right m) = Done Q /\ Permutation Q (map snd (rights (tview A B)))).
  Proof.
    intros s lc rc m A B (T & H & _). split.
    - destruct (order_l _ _ _ _ T) as (Y & P & Q). exists (map v_l Y). split.
      + unfold left_rest, iter_left. rewrite Q, map_length. clear. induction Y; simpl; auto. rewrite IHY; auto.
      + simpl. rewrite map_map. apply Permutation_map. symmetry; auto.
    - destruct (order_r _ _ _ _ T) as (Y & P & Q). exists (map y_r Y). split.
      + unfold right_rest, iter_right. rewrite Q, map_length. clear. induction Y; simpl; auto. rewrite IHY; auto.
      + simpl. rewrite map_map. apply Permutation_map. symmetry; auto.
  Qed.

  (* ---- retain ---- *)
  Lemma scan_w : forall {X A I} (f : X -> A -> X * verdict) (next : I -> outcome (option A * I))
      (V : I -> list A -> Prop) (key : A -> option (N * N)), steps_as next V ->
    forall Q fuel it x, V it Q -> (length Q <= fuel)%nat ->
    let '(_, yes, _, pn) := s_filter f x Q in
      (exists x1, retain_scan f next key fuel it x = Panic x1 /\
         (pn = true \/ exists a, In a yes /\ key a = None)) \/
      (pn = false /\ exists x1 ts, retain_scan f next key fuel it x = Ret x1 ts /\
         Forall2 (fun a t => key a = Some t) yes ts).
  Proof.
    intros X A I f next V key ST. induction Q as [|a Q IH]; intros fuel it x HV HF; assert (N := ST _ _ HV).
    - destruct N as (it' & E1 & _). right. split; auto. exists x, [].
      destruct fuel; cbn [retain_scan]; rewrite E1; auto.
    - destruct N as (it' & E1 & V1). destruct fuel as [|fuel]; [simpl in HF; lia|].
      cbn [retain_scan s_filter]. rewrite E1.
      destruct (f x a) as [x1 [b|]]; [|left; eauto].
      assert (K := IH fuel it' x1 V1 ltac:(simpl in HF; lia)).
      destruct (s_filter f x1 Q) as [[[x2 yes] others] pn].
      destruct b.
      + destruct (key a) as [t|] eqn:KA.
        * destruct K as [(x3 & E3 & K)|(-> & x3 & ts & E3 & K)]; rewrite E3.
          -- left. eexists; split; [reflexivity|]. destruct K as [|(a' & Ha & K)]; auto.
             right. exists a'. split; [right|]; auto.
          -- right. split; auto. exists x3, (t :: ts). split; auto.
        * left. eexists; split; [reflexivity|]. right. exists a. split; [left|]; auto.
      + destruct K as [(x3 & E3 & K)|(-> & x3 & ts & E3 & K)]; rewrite E3.
        * left. eexists; split; [reflexivity|]. auto.
        * right. split; auto. exists x3, ts. auto.
  Qed.
  Lemma filter_none : forall {X T} (f : X -> T -> X * verdict) Q x,
    (forall y p, In p Q -> snd (f y p) <> Some true) ->
    let '(_, yes, _, _) := s_filter f x Q in yes = [].
  Proof.
    intros X T f. induction Q as [|a Q IH]; intros x H; simpl; auto.
    destruct (f x a) as [x1 [b|]] eqn:F; auto.
    assert (K := IH x1 (fun y p Hp => H y p (or_intror Hp))).
    destruct (s_filter f x1 Q) as [[[x2 yes] others] pn]. destruct b; auto.
    exfalso. apply (H x a (or_introl eq_refl)). rewrite F. auto.
  Qed.
  Lemma retain_paired_w : forall {X} (f : X -> L * R -> X * verdict) x s lc rc m A B, WRep s lc rc m A B ->
    (forall Q y p, paired_rest E m (iter_paired m) = Done Q -> In p Q -> snd (f y p) <> Some true) ->
    exists w, via_closure (retain_paired E f (m, x)) = (m, w) /\
      lax_step (tview A B) (RetainPaired X f x) (tview A B) w.
  Proof.
    intros X f x s lc rc m A B W GD. assert (W0 := W). destruct W0 as (T & H & _).
    destruct (iter_paired_w _ _ _ _ _ _ W) as (Y & P & RUN & IT & PV).
    assert (SC := scan_w f (paired_next E m) _ (retain_paired_key E m) (paired_steps_w _ _ _ _ _ _ T H)
      (map v_pair Y) (length (iter_paired m)) (iter_paired m) x).
    assert (FN := filter_none f (map v_pair Y) x (fun y p Hp => GD _ y p RUN Hp)).
    unfold retain_paired, retain_with. cbn [fst].
    destruct (s_filter f x (map v_pair Y)) as [[[x2 yes] others] pn] eqn:SF.
    assert (SP : forall w, w = (if pn then OPanic else OUnit) ->
      lax_step (tview A B) (RetainPaired X f x) (tview A B) w).
    { intros w ->. split; [apply like_refl|]. exists (map v_pair Y). split; auto. rewrite SF. auto. }
    subst yes. destruct SC as [(x1 & -> & K)|(-> & x1 & ts & -> & K)].
    - exists Y. split; auto. intros z; apply Permutation_in. symmetry; auto.
    - rewrite IT, !map_length. auto.
    - destruct K as [->|(a & [] & _)]. exists OPanic. split; auto.
    - inversion K; subst. exists OUnit. split; auto.
  Qed.

  Definition rkey (s : S) (y : zr) : N * N := (hashR E s (y_r y), y_id y).
  Definition kept_l (ids : list N) (z : wl) : bool := negb (existsb (N.eqb (v_g z)) ids).
  Definition kept_r (ids : list N) (y : zr) : bool := negb (existsb (N.eqb (y_id y)) ids).
  Lemma drop_rights_w : forall ys s lc rc m A B, WTabs s m A B -> WCore s lc rc A B ->
    (forall y x, In y ys -> In x B -> y_id x = y_id y -> x = y) ->
    exists m' B', drop_rights E (map (rkey s) ys) m = Ret m' tt /\
      Permutation B' (filter (kept_r (map y_id ys)) B) /\
      WTabs s m' (filter (kept_l (map y_id ys)) A) B' /\
      WCore s lc rc (filter (kept_l (map y_id ys)) A) B' /\ same_counters m m'.
  Proof.
    induction ys as [|y ys IH]; intros s lc rc m A B T H SM.
    - exists m, B. simpl. unfold kept_l, kept_r; simpl.
      rewrite !filter_all_true by auto. split; auto. split; auto. split; auto. split; auto. split; auto.
    - cbn [map drop_rights rkey]. unfold remove_via_hash_and_id, right_remove_entry. mrun.
      assert (STEP : exists m1 B1, 
         (match t_remove_entry (lo E) (right_set m) (hashR E s (y_r y)) (right_with_right_id (y_id y)) with
          | Some (e, t) => match remove_pairs E (hs_elems (r_pairs e)) (set_right t m) with
                           | Ret m' _ => Some m' | Panic _ => None end
          | None => Some m end) = Some m1 /\
         Permutation B1 (filter (fun x => negb (y_id x =? y_id y)) B) /\
         WTabs s m1 (filter (fun z => negb (belongs (y_id y) z)) A) B1 /\
         WCore s lc rc (filter (fun z => negb (belongs (y_id y) z)) A) B1 /\ same_counters m m1).
      { destruct (in_dec N.eq_dec (y_id y) (map y_id B)) as [I|NI].
        - apply in_map_iff in I as (x & Q & Hx).
          assert (x = y) by (apply SM; auto; left; auto). subst x.
          destruct (perm_in_cons _ _ Hx) as (B1 & PB).
          assert (T1 : WTabs s m A (y :: B1)) by (eapply tabs_perm; [reflexivity|exact PB|exact T]).
          assert (H1 : WCore s lc rc A (y :: B1)) by (eapply core_perm; [reflexivity|exact PB|exact H]).
          assert (ND := c_rids _ _ _ _ _ _ H1). simpl in ND. inversion ND; subst.
          destruct (by_id_r E OK _ _ _ _ _ T1) as (j & F & AT); auto.
          rewrite (remove_as_mut E), F. cbn [option_map snd fst GroupProofs.slotR r_pairs].
          destruct (remove_group_run E OK _ _ _ _ _ _ _ T1 H1 _ (at_remove E _ _ _ _ _ AT))
            as (m' & zs & -> & PZ & T' & H' & C').
          exists m', B1. split; auto. split; auto.
          etransitivity; [|apply filter_perm; symmetry; exact PB]. simpl. rewrite N.eqb_refl. simpl.
          rewrite filter_all_true; auto. intros x Hx'. apply negb_true_iff, N.eqb_neq. intro Q'.
          apply H3. rewrite <- Q'. apply in_map; auto.
        - rewrite (remove_as_mut E), get_mut_absent.
          2:{ intros x Hx. apply (Permutation_in _ (t_r _ _ _ _ _ T)) in Hx. eapply (id_r_other E); eauto. }
          exists m, B. split; auto.
          assert (FA : filter (fun z => negb (belongs (y_id y) z)) A = A).
          { apply filter_all_true. intros z Hz. apply negb_true_iff, N.eqb_neq. intro Q. apply NI.
            destruct (c_link _ _ _ _ _ _ H z Hz) as (x & Hx & Q1 & _). rewrite <- Q, <- Q1. apply in_map; auto. }
          rewrite FA. split; [|split; [auto|split; [auto|split; auto]]].
          rewrite filter_all_true; auto. intros x Hx. apply negb_true_iff, N.eqb_neq. intro Q. apply NI.
          rewrite <- Q. apply in_map; auto. }
      destruct STEP as (m1 & B1 & Q & PB & T1 & H1 & C1 & C2).
      destruct (IH s lc rc m1 _ B1 T1 H1) as (m' & B' & RUN & PB' & T' & H' & C1' & C2').
      { intros x w Hx Hw. apply SM; [right; auto|]. apply (Permutation_in _ PB) in Hw.
        apply filter_In in Hw; tauto. }
      exists m', B'. split; [|split; [|]].
      + destruct (t_remove_entry _ _ _ _) as [[e t]|].
        * destruct (remove_pairs _ _ _); [|discriminate]. injection Q as ->. exact RUN.
        * injection Q as ->. exact RUN.
      + etransitivity; [exact PB'|]. etransitivity; [apply filter_perm; exact PB|].
        rewrite filter_filter. erewrite filter_ext; [reflexivity|]. intros x. unfold kept_r; simpl.
        rewrite negb_orb. auto.
      + assert (FA : filter (kept_l (map y_id ys)) (filter (fun z => negb (belongs (y_id y) z)) A)
                = filter (kept_l (y_id y :: map y_id ys)) A).
        { rewrite filter_filter. apply filter_ext. intros x. unfold kept_l, belongs; simpl.
          rewrite negb_orb. auto. }
        rewrite <- FA. split; [auto|]. split; [auto|]. split; congruence.
  Qed.
  Lemma retain_unpaired_w : forall {X} (f : X -> R -> X * verdict) x s lc rc m A B, WRep s lc rc m A B ->
    exists m' A' B' w, via_closure (retain_unpaired E f (m, x)) = (m', w) /\ WRep s lc rc m' A' B' /\
      lax_step (tview A B) (RetainUnpaired X f x) (tview A' B') w.
  Proof.
    intros X f x s lc rc m A B W. assert (W0 := W). destruct W0 as (T & H & C1 & C2).
    destruct (iter_unpaired_w _ _ _ _ _ _ W) as (Y & P & RUN & IT & PV).
    assert (SC := scan_w f (@unpaired_next R) _ (retain_unpaired_key E m) (unpaired_steps_w s _ _ _ _ H)
      (map y_r (filter (lone A) Y)) (length (iter_unpaired m)) (iter_unpaired m) x).
    assert (KEY : forall r, match retain_unpaired_key E m r with
      | Some t => exists y, In y B /\ eR (y_r y) r = true /\ t = rkey s y
      | None => forall y, In y B -> eR (y_r y) r = false end).
    { intros r. unfold retain_unpaired_key. rewrite (find_right_mut E).
      assert (Z := look_r E OK _ _ _ _ r T). destruct (find_r m r) as [[j e]|]; cbn [option_map]; auto.
      destruct Z as (y & B' & PB & QR & HR & -> & _). exists y.
      split; [eapply Permutation_in; [symmetry; exact PB|left; auto]|]. split; auto.
      rewrite (t_hb _ _ _ _ _ T), HR. auto. }
    unfold retain_unpaired, retain_with. cbn [fst].
    destruct (s_filter f x (map y_r (filter (lone A) Y))) as [[[x2 yes] others] pn] eqn:SF.
    destruct SC as [(x1 & -> & K)|(-> & x1 & ts & -> & K)].
    - exists Y. split; auto. intros z; apply Permutation_in. symmetry; auto.
    - rewrite IT, !map_length. apply filter_le.
    - exists m, A, B, OPanic. split; auto. split; auto. exists (map y_r (filter (lone A) Y)). split; auto.
      rewrite SF. left. split; auto. split; [apply like_refl|]. destruct K as [|(r & Hr & K)]; auto.
      right. exists r. split; auto. specialize (KEY r). rewrite K in KEY.
      intros q Hq. apply in_map_iff in Hq as (y & <- & Hy). apply KEY; auto.
    - assert (ZS : exists ys, ts = map (rkey s) ys /\ incl ys B /\
        Forall2 (fun r t => exists q, In q (map y_key B) /\ on eR r q = true /\ t = fst q) yes (map y_id ys)).
      { clear - K KEY. induction K as [|r t yes ts KA K IH].
        - exists []. split; auto. split; [intros ? []|]. constructor.
        - specialize (KEY r). rewrite KA in KEY. destruct KEY as (y & Hy & Q & ->).
          destruct IH as (ys & -> & I & F). exists (y :: ys). split; auto.
          split; [intros z [<-|Hz]; auto|]. constructor; auto. exists (y_key y).
          split; [apply in_map; auto|]. auto. }
      destruct ZS as (ys & -> & I & F).
      destruct (drop_rights_w ys s lc rc m A B T H) as (m' & B' & -> & PB & T' & H' & D1 & D2).
      { intros y z Hy Hz Q. eapply (same_rid E); eauto. }
      eexists m', _, B', OUnit. split; [reflexivity|].
      split; [split; [exact T'|split; [auto|split; congruence]]|].
      exists (map y_r (filter (lone A) Y)). split; auto. rewrite SF. right. split; auto. split; auto.
      exists (map y_id ys). split; [auto|]. split; simpl.
      + etransitivity; [apply Permutation_map; exact PB|]. rewrite filter_map_comm. reflexivity.
      + rewrite filter_map_comm. reflexivity.
  Qed.

  (* ---- extend ---- *)
  Lemma extend_w : forall xs s lc rc m A B, WRep s lc rc m A B ->
    lc + N.of_nat (length xs) < two64 -> rc + N.of_nat (length xs) < two64 ->
    guarded E (lax_calm1 E) m (map item_op xs) ->
    exists m' A' B' lc' rc', extend E xs m = Ret m' tt /\ WRep s lc' rc' m' A' B' /\
      lc <= lc' <= lc + N.of_nat (length xs) /\ rc <= rc' <= rc + N.of_nat (length xs) /\
      lax_extend eL eR (tview A B) xs (tview A' B').
  Proof.
    induction xs as [|[[l|] r] xs IH]; intros s lc rc m A B W BL BR GD.
    - exists m, A, B, lc, rc. split; auto. split; auto. split; [simpl; lia|]. split; [simpl; lia|].
      constructor. apply like_refl.
    - cbn [map guarded item_op fst snd] in GD. destruct GD as [G1 GD].
      cbn [length] in BL, BR.
      destruct (insert_w E OK _ _ _ _ _ _ l r W) as (m1 & A1 & B1 & lc1 & rc1 & RUN & W1 & L1 & L2 & SP);
        [lia|lia|exact G1|].
      cbn [step] in GD. rewrite RUN in GD. cbn [via fst] in GD.
      destruct (IH _ _ _ _ _ _ W1) as (m2 & A2 & B2 & lc2 & rc2 & RUN2 & W2 & L3 & L4 & SP2); auto; try lia.
      cbn [extend]. unfold bind. rewrite RUN, RUN2.
      exists m2, A2, B2, lc2, rc2. split; auto. split; auto. cbn [length].
      split; [lia|split; [lia|]]. econstructor; eauto.
    - cbn [map guarded item_op fst snd] in GD. destruct GD as [G1 GD].
      cbn [length] in BL, BR.
      destruct (insert_right_w E OK _ _ _ _ _ _ r W) as (m1 & A1 & B1 & w & RUN & W1 & SP); [lia|].
      cbn [step] in GD. rewrite RUN in GD. cbn [via fst] in GD.
      destruct (IH _ _ _ _ _ _ W1) as (m2 & A2 & B2 & lc2 & rc2 & RUN2 & W2 & L3 & L4 & SP2); auto; try lia.
      cbn [extend]. unfold bind. rewrite RUN, RUN2.
      exists m2, A2, B2, lc2, rc2. split; auto. split; auto. cbn [length].
      split; [lia|split; [lia|]]. econstructor; eauto.
  Qed.
  Lemma extend_pairs_as : forall xs m,
    extend_pairs E xs m = extend E (map (fun p => (Some (fst p), snd p)) xs) m.
  Proof.
    induction xs as [|[l r] xs IH]; intros m; simpl; auto. unfold bind.
    destruct (insert E l r m); auto.
  Qed.
End LaxProofs4.
