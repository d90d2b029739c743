(* GroupMap: what size_hint() says at every position of iter() and iter_unpaired() (property C55). *)
From Coq Require Import List NArith Lia Bool Permutation PeanoNat.
From Verif Require Import Hints Closures Prelude RawTable GroupMap ListFacts TableFacts GroupSpec GroupHistory
  IterFacts GroupProofs GroupProofs2 GroupProofs3 GroupProofs4 GroupProofs5 GroupProofs6
  GroupHistoryProofs GroupProps GroupProps2 Concrete.
Import ListNotations.
Open Scope nat_scope.

Lemma unpaired_next_behind : forall {R} (it : @iter_r R) o it', unpaired_next it = Done (o, it') ->
  it' = behind (fun x => set_is_empty (r_pairs (snd x))) 1 it.
Proof.
  intros R it. induction it as [|[h r] it IH]; intros o it' H; cbn [unpaired_next behind snd] in *; [congruence|].
  destruct (set_is_empty (r_pairs r)); [|eauto]. inversion H; subst. symmetry. apply behind_0.
Qed.
Lemma unpaired_nexts_behind : forall {R} n (it : @iter_r R) o it', nexts unpaired_next n it = Done (o, it') ->
  it' = behind (fun x => set_is_empty (r_pairs (snd x))) n it.
Proof.
  intros R. induction n as [|n IH]; intros it o it' H; cbn [nexts] in H; [inversion H; rewrite behind_0; auto|].
  destruct (unpaired_next it) as [[a i]|] eqn:X; [|discriminate]. apply unpaired_next_behind in X.
  destruct (nexts _ n i) as [[b j]|] eqn:Y; [|discriminate]. apply IH in Y. inversion H; subst.
  symmetry. apply behind_S.
Qed.

Section Hints.
  Context {L R S : Type} (E : env L R S) (OK : lawful E).
  Notation Rep := (Rep E).
  Notation slotR := (slotR E).
  Notation pkey := (pkey E).
  Notation zl := (zleft L R).
  Notation zr := (zright R).
  Let ER := eqR_equiv _ OK.
  Let LO := lo_ok _ OK.
  Notation items zs := (map (fun z : zl => (Some (z_l z), z_r z)) zs).

  (* [done]: the items yielded so far; [st]: the groups begun; [zs]: the rest of the last of them *)
  Definition place (A : list zl) (s : S) (GS : list (zr * list zl)) (done : list (option L * R))
      (it : iter_t) (l : list (option L * R)) : Prop :=
    exists zs st gs, GS = st ++ gs /\ incl zs A /\
      (left_iter it = Some (map (pkey s) zs) \/ left_iter it = None /\ zs = []) /\
      right_iter it = map (slotR s) (map fst gs) /\
      done ++ items zs = flat_map gitems st /\ l = items zs ++ flat_map gitems gs /\
      forall g, In g st -> exists p, In p done /\ snd p = y_r (fst g).

  Lemma place_step : forall s lc rc m A D B GS, Rep s lc rc m A D B -> ridsZ A ->
    (forall g, In g GS -> good E A s g) ->
    forall done it l, place A s GS done it l ->
    match l with
    | [] => exists it', iter_next E m it = Done (None, it') /\ place A s GS done it' []
    | a :: t => exists it', iter_next E m it = Done (Some a, it') /\ place A s GS (done ++ [a]) it' t
    end.
  Proof.
    intros s lc rc m A D B GS H RZ GG done it l (zs & st & gs & -> & I & HL & HR & HD & -> & HS).
    assert (MORE : forall a g, In g st -> exists p, In p (done ++ [a]) /\ snd p = y_r (fst g)).
    { intros a g Hg. destruct (HS g Hg) as (p & P1 & P2). exists p. split; auto. apply in_or_app; auto. }
    destruct zs as [|z zs]; cbn [map app] in *.
    - assert (NX : iter_next E m it = iter_next_right E m (left_iter it) (right_iter it)).
      { unfold iter_next. destruct HL as [->|[-> _]]; auto. }
      rewrite app_nil_r in HD. rewrite NX, HR. destruct gs as [|g gs]; cbn [map flat_map].
      + eexists; split; [reflexivity|]. exists [], st, []. rewrite app_nil_r.
        refine (conj _ (conj _ (conj _ (conj _ (conj _ (conj _ _)))))); cbn [map flat_map left_iter right_iter]; auto;
          try (rewrite app_nil_r; auto).
      + assert (Gg : good E A s g) by (apply GG; apply in_or_app; right; left; auto).
        destruct Gg as (Q1 & Q2 & Q3).
        assert (FIRST : forall a, snd a = y_r (fst g) ->
                  forall g', In g' (st ++ [g]) -> exists p, In p (done ++ [a]) /\ snd p = y_r (fst g')).
        { intros a Ha g' Hg. apply in_app_or in Hg as [Hg|[<-|[]]]; auto.
          exists a. split; auto. apply in_or_app; right; left; auto. }
        destruct g as [y [|z zs]]; cbn [fst snd gitems app map] in *.
        * simpl. rewrite Q1. eexists; split; [reflexivity|]. exists [], (st ++ [(y, [])]), gs. simpl.
          rewrite <- app_assoc. cbn [app].
          refine (conj _ (conj _ (conj _ (conj _ (conj _ (conj _ _)))))); auto.
          { rewrite app_nil_r, flat_map_app, HD. auto. }
        * simpl. rewrite Q1. cbn [map GroupProofs.pkey].
          assert (IZ : incl (z :: zs) A).
          { intros x Hx. apply (Permutation_in _ Q2) in Hx. apply filter_In in Hx; tauto. }
          erewrite (get_left_id E OK) by (eauto; apply IZ; left; auto). simpl.
          rewrite <- (Q3 z (or_introl eq_refl)).
          eexists; split; [reflexivity|]. exists zs, (st ++ [(y, z :: zs)]), gs. simpl.
          rewrite <- app_assoc. cbn [app].
          refine (conj _ (conj _ (conj _ (conj _ (conj _ (conj _ _)))))); auto.
          { intros x Hx. apply IZ; right; auto. }
          { rewrite flat_map_app, HD, <- app_assoc. cbn [flat_map gitems snd map app]. rewrite app_nil_r. auto. }
          { apply FIRST. apply Q3. left; auto. }
    - destruct HL as [HL|[_ HL]]; [|discriminate].
      exists (Iter (right_iter it) (Some (map (pkey s) zs))). split.
      + unfold iter_next. rewrite HL. cbn [map GroupProofs.pkey].
        erewrite (get_left_id E OK) by (eauto; apply I; left; auto). cbn [GroupProofs.slotL snd l_hash l_rid l_value].
        destruct (rid_right E OK _ _ _ _ _ _ _ z H RZ) as (y & G & Q); [apply I; left; auto|].
        rewrite G. simpl. rewrite Q. auto.
      + exists zs, st, gs. simpl. refine (conj _ (conj _ (conj _ (conj _ (conj _ (conj _ _)))))); auto.
        { intros x Hx; apply I; right; auto. }
        { rewrite <- app_assoc. auto. }
  Qed.
  Lemma place_nexts : forall s lc rc m A D B GS, Rep s lc rc m A D B -> ridsZ A ->
    (forall g, In g GS -> good E A s g) ->
    forall n done it l, place A s GS done it l ->
    exists it', nexts (iter_next E m) n it = Done (firstn n (map Some l) ++ repeat None (n - length l), it') /\
      place A s GS (done ++ firstn n l) it' (skipn n l).
  Proof.
    intros s lc rc m A D B GS H RZ GG. induction n as [|n IH]; intros done it l HV.
    - exists it. split; [reflexivity|]. cbn [firstn skipn]. rewrite app_nil_r. auto.
    - assert (Q := place_step _ _ _ _ _ _ _ _ H RZ GG _ _ _ HV). destruct l as [|a t].
      + destruct Q as (it1 & E1 & V1). destruct (IH _ _ _ V1) as (it2 & E2 & V2).
        exists it2. rewrite skipn_nil, firstn_nil in *. cbn [nexts firstn skipn]. rewrite E1, E2. split; auto.
        destruct n; auto.
      + destruct Q as (it1 & E1 & V1). destruct (IH _ _ _ V1) as (it2 & E2 & V2).
        exists it2. cbn [nexts]. rewrite E1, E2. split; auto. cbn [skipn firstn].
        rewrite <- app_assoc in V2. auto.
  Qed.
  Lemma place_rest : forall s lc rc m A D B GS, Rep s lc rc m A D B -> ridsZ A ->
    (forall g, In g GS -> good E A s g) ->
    forall done it l, place A s GS done it l -> iter_rest E m it = Done l.
  Proof.
    intros s lc rc m A D B GS H RZ HG done it l HV. unfold iter_rest.
    assert (BD : length l <= iter_bound it).
    { destruct HV as (zs & st & gs & -> & _ & HL & HR & _ & -> & _). unfold iter_bound. rewrite HR.
      rewrite app_length, map_length. apply Nat.add_le_mono.
      - destruct HL as [->|[-> ->]]; simpl; auto. rewrite map_length. auto.
      - assert (HG' : forall g, In g gs -> good E A s g) by (intros g Hg; apply HG, in_or_app; auto).
        clear HG HL HR. induction gs as [|g gs IH]; auto. cbn [map flat_map fold_right].
        rewrite app_length. apply Nat.add_le_mono.
        + destruct (HG' g (or_introl eq_refl)) as (Q1 & _ & _). cbn [snd].
          unfold gitems. apply (f_equal (@length _)) in Q1. unfold hs_elems in Q1.
          rewrite !map_length in Q1. unfold t_len. cbn [snd GroupProofs.slotR r_pairs].
          destruct (snd g); simpl in *; [lia|]. rewrite map_length. lia.
        + apply IH. intros g' Hg. apply HG'; right; auto. }
    revert BD. generalize (iter_bound it) as fuel. intros fuel. revert done it l HV.
    induction fuel as [|fuel IH]; intros done it l HV LE; assert (Q := place_step _ _ _ _ _ _ _ _ H RZ HG _ _ _ HV).
    - destruct l; [|simpl in LE; lia]. destruct Q as (it' & Q & _). simpl. rewrite Q. auto.
    - destruct l as [|a l]; destruct Q as (it' & Q & V2); cbn [collect]; rewrite Q; auto.
      rewrite (IH _ _ _ V2); auto. simpl in LE. lia.
  Qed.

  (* ---- C55 (false in general, see C55_size_hint_refuted) ----
     iter() counts the right items it has not come to yet instead of the items to come;
     iter_unpaired() counts all right items behind the last one it yielded, also those with
     left items. *)
  Theorem C55_hints_partial : forall room m, reachable E room m ->
    exists rs ps l, holds E m rs ps /\ Permutation l (all_items_of E rs ps) /\
    forall n,
      (exists it,
         nexts (iter_next E m) n (iter m) = Done (firstn n (map Some l) ++ repeat None (n - length l), it) /\
         iter_rest E m it = Done (skipn n l) /\
         iter_size_hint it = exactly (length (filter
           (fun r => negb (existsb (fun x => eqR E (snd x) r) (firstn n l))) rs))) /\
      (exists out it rest, nexts (@unpaired_next R) n (iter_unpaired m) = Done (out, it) /\
         unpaired_rest it = Done rest /\ length rest = length (lonely E rs ps) - n /\
         unpaired_size_hint it = exactly (length (behind (fun r => negb (is_right_paired E m r)) n rs))).
  Proof.
    intros room m HR. assert (H := HR). apply (reachable_repr E OK) in H as (s & lc & rc & G & H & B1 & B2).
    apply (GroupProps.view E OK) in H as (rs & ps & V & _ & _ & HH).
    assert (CU := come_unpaired E OK _ _ _ _ _ _ HH). assert (CI := come_iter E OK _ _ _ _ _ HH).
    assert (CL := tame_all_clean E OK _ _ _ _ _ _ HH).
    assert (LK := tame_all_linked E OK _ _ _ _ _ _ HH).
    destruct HH as (A & D & B & H & EG & _).
    assert (RZ := linked_rids E OK _ _ _ _ _ _ _ H LK).
    assert (CZ := clean_cleans E OK _ _ _ _ _ _ _ H CL).
    destruct (order_r E _ _ _ _ _ _ _ H) as (Y & P & Q).
    assert (YB : incl Y B) by (intros z Hz; eapply Permutation_in; [symmetry; eauto|auto]).
    destruct (groups_exist E _ _ _ _ _ _ _ H CZ Y YB) as (gs & GY & GG).
    assert (DS : distinct (eqR E) (map y_r Y)).
    { eapply distinct_perm; [exact ER|apply Permutation_map; exact P|apply (rep_eqr _ _ _ _ _ _ _ _ H)]. }
    assert (RS : rs = map y_r Y).
    { destruct V as [V _]. unfold right_rest in V.
      rewrite (collect_as _ _ (right_steps E s) (map y_r Y)) in V; [congruence|exists Y; auto|].
      unfold iter_right. rewrite Q, !map_length. auto. }
    assert (HV : place A s gs [] (iter m) (flat_map gitems gs)).
    { exists [], [], gs. refine (conj _ (conj _ (conj _ (conj _ (conj _ (conj _ _)))))); auto;
        try (intros ? []). unfold iter; simpl. rewrite GY. auto. }
    exists rs, ps, (flat_map gitems gs). split; auto. split.
    { destruct CI as (l0 & P0 & C0). destruct (C0 0) as (it & N1 & N2 & _). inversion N1; subst it.
      rewrite (place_rest _ _ _ _ _ _ _ _ H RZ GG _ _ _ HV) in N2. cbn [skipn] in N2.
      assert (flat_map gitems gs = l0) as -> by congruence. rewrite P0. unfold s_items, all_items_of. rewrite (lonely_unpaired E). auto. }
    intros n. split.
    - destruct (place_nexts _ _ _ _ _ _ _ _ H RZ GG n _ _ _ HV) as (it & N1 & N2). exists it. split; auto.
      split; [eapply place_rest; eauto|]. cbn [app] in N2.
      destruct N2 as (zs & st & gs' & EQ & _ & _ & HI & HD & _ & HS).
      unfold iter_size_hint, exactly. rewrite HI, !map_length, RS, <- GY, EQ.
      assert (X : length gs' = length (filter (fun r => negb (existsb (fun x => eqR E (snd x) r)
                    (firstn n (flat_map gitems gs)))) (map y_r (map fst (st ++ gs'))))); [|rewrite EQ in X; congruence].
      rewrite !map_app, filter_app, filter_all_false, filter_all_true.
      + cbn [app]. rewrite !map_length. auto.
      + intros r Hr. apply in_map_iff in Hr as (y & <- & Hy). apply in_map_iff in Hy as (g & <- & Hg).
        apply negb_true_iff. apply not_true_is_false. intros X. apply existsb_exists in X as (p & Hp & Ep).
        assert (Hp' : In p (flat_map gitems st)) by (rewrite <- HD; apply in_or_app; auto).
        apply in_flat_map in Hp' as (g0 & Hg0 & Hp').
        assert (snd p = y_r (fst g0)) as K.
        { destruct (GG g0) as (_ & _ & Q3); [rewrite EQ; apply in_or_app; auto|].
          unfold gitems in Hp'. destruct (snd g0) as [|z1 zs1].
          * destruct Hp' as [<-|[]]. auto.
          * apply in_map_iff in Hp' as (z & <- & Hz). apply Q3; auto. }
        rewrite K in Ep. rewrite <- GY, EQ, !map_app in DS.
        apply distinct_app in DS as (_ & _ & DS). rewrite DS in Ep; [discriminate| |]; apply in_map, in_map; auto.
      + intros r Hr. apply in_map_iff in Hr as (y & <- & Hy). apply in_map_iff in Hy as (g & <- & Hg).
        destruct (HS g Hg) as (p & P1 & P2). apply negb_false_iff. apply existsb_exists. exists p. split; auto.
        rewrite P2. apply (equiv_refl _ ER).
    - destruct CU as (lu & CM & PU & _). destruct (CM n) as (it & N1 & N2).
      unfold unpaired_len in N2. destruct (unpaired_rest it) as [rest|] eqn:ER'; [|discriminate].
      eexists _, it, rest. split; [exact N1|]. split; auto. inversion N2 as [N3]. split.
      + rewrite N3, (Permutation_length PU). rewrite (lonely_unpaired E). auto.
      + apply unpaired_nexts_behind in N1. unfold unpaired_size_hint, exactly.
        assert (X : length it = length (behind (fun r => negb (is_right_paired E m r)) n rs)); [|congruence].
        rewrite N1. unfold iter_unpaired. rewrite Q, RS.
        rewrite (behind_map (fun y => set_is_empty (y_tab y)) _ (slotR s)) by auto.
        rewrite (behind_map (fun y => set_is_empty (y_tab y)) _ y_r).
        * rewrite !map_length. auto.
        * intros y Hy. apply YB in Hy. apply perm_in_cons in Hy as [B' PB].
          assert (H' := rep_perm E OK _ _ _ _ _ _ _ _ _ (Permutation_refl A) PB H).
          unfold is_right_paired. rewrite (find_right_some E OK _ _ _ _ _ _ _ _ (y_r y) H').
          -- cbn [GroupProofs.slotR snd r_pairs]. apply negb_involutive.
          -- apply (equiv_refl _ ER).
          -- assert (K := rep_eqr _ _ _ _ _ _ _ _ H'). cbn [map] in K. apply distinct_cons in K as [K _].
             intros x Hx. apply K. apply in_map; auto.
  Qed.
End Hints.

(* gmc holds three right items without left items and two with three each; after two calls of
   next() seven items of iter() are to come, but 3 are promised *)
Example C55_hints_case : reachable env_collide 1 gmc /\
  map (fun n => match nexts (iter_next env_collide gmc) n (iter gmc) with
                | Done (_, it) => (iter_size_hint it, match iter_rest env_collide gmc it with
                                                      | Done l => length l | Panicked => 99 end)
                | Panicked => (exactly 99, 99) end) [0; 1; 2; 4; 9]
    = [(exactly 5, 9); (exactly 4, 8); (exactly 3, 7); (exactly 3, 5); (exactly 0, 0)] /\
  map (fun n => match nexts unpaired_next n (iter_unpaired gmc) with
                | Done (_, it) => (unpaired_size_hint it, match unpaired_rest it with
                                                          | Done l => length l | Panicked => 99 end)
                | Panicked => (exactly 99, 99) end) [0; 1; 2; 3; 4]
    = [(exactly 5, 3); (exactly 4, 2); (exactly 1, 1); (exactly 0, 0); (exactly 0, 0)].
Proof.
  split; [apply gm1_reachable; [simpl; auto|reflexivity]|].
  split; vm_compute; reflexivity.
Qed.

Print Assumptions C55_hints_partial.
