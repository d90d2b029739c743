(* The GroupMap model refines the spec along every guarded history. *)
From Coq Require Import List NArith Lia Bool Permutation PeanoNat.
From Verif Require Import Closures Prelude RawTable GroupMap ListFacts TableFacts GroupSpec
  GroupHistory IterFacts GroupProofs GroupProofs2 GroupProofs3 GroupProofs4 GroupProofs5
  GroupProofs6.
Import ListNotations.
Open Scope N_scope.

Section HistoryProofs.
  Context {L R S : Type}.
  Variable E : env L R S.
  Hypothesis OK : lawful E.
  Notation Repr := (Repr E).
  Notation s_step := (s_step (eqL E) (eqR E)).
  Notation s_run := (s_run (eqL E) (eqR E)).
  Notation contents := (contents L R).

  Lemma extend_ok : forall xs b s lc rc m (G : contents), Repr b s lc rc m G ->
    lc + N.of_nat (length xs) < two64 -> rc + N.of_nat (length xs) < two64 ->
    guarded E (loose1 E) m (map item_op xs) ->
    exists m' lc' rc', extend E xs m = Ret m' tt /\
      Repr b s lc' rc' m' (fold_left (s_insert_item (eqL E) (eqR E)) xs G) /\
      m' = fst (run E m (map item_op xs)) /\
      lc' <= lc + N.of_nat (length xs) /\ rc' <= rc + N.of_nat (length xs).
  Proof.
    induction xs as [|[[l|] r] xs IH]; intros b s lc rc m G H B1 B2 GD.
    - exists m, lc, rc. cbn in *. repeat split; auto; lia.
    - cbn [map item_op guarded fst snd loose1] in GD. destruct GD as [[AP LK] GD].
      cbn [length] in *. rewrite Nat2N.inj_succ in *.
      destruct (insert_ok E OK _ _ _ _ _ _ l r H) as (m1 & lc1 & rc1 & Q & H1 & C1 & C2); auto; try lia.
      cbn [step] in GD. rewrite Q in GD. cbn [via fst] in GD.
      destruct (IH _ _ _ _ _ _ H1) as (m2 & lc2 & rc2 & Q2 & H2 & R2 & C3 & C4); auto; try lia.
      exists m2, lc2, rc2. cbn [extend fold_left map item_op fst snd run step]. mrun.
      rewrite Q, Q2. cbn [via]. repeat split; auto; try lia.
      rewrite R2. destruct (run E m1 (map item_op xs)); auto.
    - cbn [map item_op guarded fst snd loose1] in GD. destruct GD as [CL GD].
      cbn [length] in *. rewrite Nat2N.inj_succ in *.
      destruct (insert_right_ok E OK _ _ _ _ _ _ r H) as (m1 & w & Q & _ & H1); auto; try lia.
      cbn [step] in GD. rewrite Q in GD. cbn [via fst] in GD.
      destruct (IH _ _ _ _ _ _ H1) as (m2 & lc2 & rc2 & Q2 & H2 & R2 & C3 & C4); auto; try lia.
      exists m2, lc2, rc2. cbn [extend fold_left map item_op fst snd run step]. mrun.
      rewrite Q, Q2. cbn [via]. repeat split; auto; try lia.
      rewrite R2. destruct (run E m1 (map item_op xs)); auto.
  Qed.
  Lemma extend_pairs_extend : forall xs (m : gmap L R S),
    extend_pairs E xs m = extend E (map (fun p => (Some (fst p), snd p)) xs) m.
  Proof.
    induction xs as [|[l r] xs IH]; intros m; auto.
    cbn [extend_pairs extend map fst snd]. mrun. destruct (insert E l r m); auto.
  Qed.
  Lemma extend_pairs_ok : forall xs b s lc rc m (G : contents), Repr b s lc rc m G ->
    lc + N.of_nat (length xs) < two64 -> rc + N.of_nat (length xs) < two64 ->
    guarded E (loose1 E) m (map pair_op xs) ->
    exists m' lc' rc', extend_pairs E xs m = Ret m' tt /\
      Repr b s lc' rc' m' (fold_left (fun G x => s_insert (eqL E) (eqR E) G (fst x) (snd x)) xs G) /\
      m' = fst (run E m (map pair_op xs)) /\
      lc' <= lc + N.of_nat (length xs) /\ rc' <= rc + N.of_nat (length xs).
  Proof.
    intros xs b s lc rc m G H B1 B2 GD. rewrite extend_pairs_extend.
    assert (Q1 : map pair_op xs = map item_op (map (fun p : L * R => (Some (fst p), snd p)) xs))
      by (rewrite map_map; auto).
    rewrite Q1 in *.
    assert (Q2 : forall xs (G : contents), fold_left (fun G x => s_insert (eqL E) (eqR E) G (fst x) (snd x)) xs G
      = fold_left (s_insert_item (eqL E) (eqR E)) (map (fun p : L * R => (Some (fst p), snd p)) xs) G).
    { clear. induction xs; intros G; cbn [fold_left map]; auto. }
    rewrite Q2. rewrite <- (map_length (fun p : L * R => (Some (fst p), snd p))) in B1, B2.
    rewrite <- (map_length (fun p : L * R => (Some (fst p), snd p)) xs). apply extend_ok; auto.
  Qed.

  (* calm calls on a tame map are loose *)
  Lemma calm1_loose1 : forall s lc rc m G o, Repr (true, true) s lc rc m G -> calm1 E m o -> loose1 E m o.
  Proof.
    intros s lc rc m G o H C.
    assert (LK := tame_all_linked E OK _ _ _ _ _ _ H). assert (CL := tame_all_clean E OK _ _ _ _ _ _ H).
    destruct o; cbn [loose1 calm1] in *; auto; try exact (CL _); try exact (LK _);
      try (intros _; exact (CL _)); try (intros _; exact (LK _)); try (split; auto; exact (LK _)).
    - destruct (contains_right E m old); [|apply CL]. split; [apply CL|]. apply C; auto.
    - destruct (contains_right E m old); [|apply CL]. split; [apply CL|]. apply C; auto.
  Qed.
  Lemma calm_loose_items : forall xs s lc rc m (G : contents), Repr (true, true) s lc rc m G ->
    lc + N.of_nat (length xs) < two64 -> rc + N.of_nat (length xs) < two64 ->
    guarded E (calm1 E) m (map item_op xs) -> guarded E (loose1 E) m (map item_op xs).
  Proof.
    induction xs as [|[[l|] r] xs IH]; intros s lc rc m G H B1 B2 GD; cbn [map guarded] in *; auto;
      destruct GD as [G1 GD]; assert (L1 := calm1_loose1 _ _ _ _ _ _ H G1); split; auto;
      cbn [length] in *; rewrite Nat2N.inj_succ in *; cbn [item_op fst snd step loose1] in *.
    - destruct L1 as [AP LK].
      destruct (insert_ok E OK _ _ _ _ _ _ l r H) as (m1 & lc1 & rc1 & Q & H1 & C1 & C2); auto; try lia.
      rewrite Q in *. cbn [via fst] in *. eapply IH; eauto; lia.
    - destruct (insert_right_ok E OK _ _ _ _ _ _ r H) as (m1 & w & Q & _ & H1); auto; try lia.
      rewrite Q in *. cbn [via fst] in *. eapply IH; eauto; lia.
  Qed.
  Lemma calm_loose : forall s lc rc m G o, Repr (true, true) s lc rc m G -> lc + ids o < two64 ->
    rc + ids o < two64 -> calm E m o -> loose E m o.
  Proof.
    intros s lc rc m G o H B1 B2 C.
    destruct o; try (exact (calm1_loose1 _ _ _ _ _ _ H C)); cbn [calm with_extend loose ids] in *.
    - assert (Q1 : map pair_op xs = map item_op (map (fun p : L * R => (Some (fst p), snd p)) xs))
        by (rewrite map_map; auto).
      unfold calm, loose in *; cbn [with_extend] in *. rewrite Q1 in *.
      rewrite <- (map_length (fun p : L * R => (Some (fst p), snd p)) xs) in B1, B2.
      eapply calm_loose_items; eauto.
    - eapply calm_loose_items; eauto.
  Qed.

  Lemma s_filter_no_true : forall {T X} (f : X -> T -> X * verdict) l x x' yes no pn,
    (forall y a, In a l -> snd (f y a) <> Some true) -> s_filter f x l = (x', yes, no, pn) -> yes = [].
  Proof.
    induction l as [|a l IH]; cbn [s_filter]; intros x x' yes no pn H Q.
    - congruence.
    - assert (HA := H x a (or_introl eq_refl)). destruct (f x a) as [x1 [b|]]; [|congruence].
      destruct (s_filter f x1 l) as [[[x2 y] n] p] eqn:F.
      apply IH in F; [|intros; apply H; right; auto]. subst y.
      destruct b; [exfalso; apply HA; auto|congruence].
  Qed.
  Lemma absent_unpaired : forall b s lc rc m G q, Repr b s lc rc m G ->
    s_contains_right (eqR E) G q = false -> s_is_right_paired (eqR E) G q = false.
  Proof.
    intros b s lc rc m G q H C. apply (repr_grouping E) in H as (_ & _ & LK).
    unfold s_contains_right, s_is_right_paired in *. rewrite existsb_false in C. apply existsb_false.
    intros p Hp. apply C. auto.
  Qed.

  Ltac fin := try eassumption; try lia; auto.
  Ltac done1 := do 4 eexists; split; [split; reflexivity|]; split; [eassumption|]; repeat split; auto; lia.
  Ltac same_map G b lc rc :=
    exists b, G, lc, rc; repeat split; auto; try lia.

  Theorem step_ok : forall b s lc rc m G o, Repr b s lc rc m G -> lc + ids o < two64 ->
    rc + ids o < two64 -> loose E m o ->
    exists b' G' lc' rc', s_step G o G' (snd (step E m o)) /\ Repr b' s lc' rc' (fst (step E m o)) G' /\
      (fst b = true -> tidy E m o -> fst b' = true) /\
      (snd b = true -> steady E m o -> snd b' = true) /\ lc' <= lc + ids o /\ rc' <= rc + ids o.
  Proof.
    intros b s lc rc m G o H B1 B2 GD.
    destruct o; unfold loose in *; cbn [step ids GroupHistory.s_step with_extend loose1 tidy steady] in *.
    - destruct GD as [AP LK].
      destruct (insert_ok E OK _ _ _ _ _ _ l r H) as (m' & lc' & rc' & -> & H' & C1 & C2); fin. cbn. done1.
    - destruct (insert_remove_ok E OK _ _ _ _ _ _ l r H) as (m' & w & -> & SG & H'); fin.
      cbn. exists b. do 3 eexists. split; [split; [reflexivity|]|split; [eassumption|]].
      + exists w. auto.
      + repeat split; auto; lia.
    - destruct (insert_left_ok E OK _ _ _ _ _ _ l r H) as (m' & lc' & -> & H' & C1); fin. cbn. done1.
    - destruct (insert_right_ok E OK _ _ _ _ _ _ r H) as (m' & w & -> & SG & H'); fin.
      cbn. exists b. do 3 eexists. split; [split; [reflexivity|]|split; [eassumption|]].
      + exists w. auto.
      + repeat split; auto; lia.
    - destruct (swap_right_ok E OK _ _ _ _ _ _ old new H) as (m' & -> & H' & _); fin.
      cbn. do 4 eexists. split; [split; reflexivity|split; [eassumption|]].
      repeat split; auto; try lia. intros Hb CA. unfold still. simpl. rewrite Hb. apply negb_true_iff.
      destruct (s_contains_right (eqR E) G old) eqn:C.
      + rewrite <- (contains_right_ok E OK _ _ _ _ _ _ old H) in C. rewrite C in GD.
        rewrite <- (is_right_paired_ok E OK _ _ _ _ _ _ old H); [|apply GD]. apply CA; auto.
      + eapply absent_unpaired; eauto.
    - destruct (swap_right_remove_ok E OK _ _ _ _ _ _ old new H) as (m' & -> & H' & _); fin.
      cbn. do 4 eexists. split; [split; reflexivity|split; [eassumption|]].
      repeat split; auto; try lia. intros Hb CA. unfold still. simpl. rewrite Hb. apply negb_true_iff.
      destruct (s_contains_right (eqR E) G old) eqn:C.
      + rewrite <- (contains_right_ok E OK _ _ _ _ _ _ old H) in C. rewrite C in GD.
        rewrite <- (is_right_paired_ok E OK _ _ _ _ _ _ old H); [|apply GD]. apply CA; auto.
      + eapply absent_unpaired; eauto.
    - destruct (pair_ok E OK _ _ _ _ _ _ l r H) as (m' & -> & H'); fin. cbn. done1.
    - destruct (remove_ok E OK _ _ _ _ _ _ l r H) as (m' & w & -> & SG & H'); fin.
      cbn. exists b. do 3 eexists. split; [split; [reflexivity|]|split; [eassumption|]].
      + exists w. auto.
      + repeat split; auto; lia.
    - destruct (remove_left_ok E OK _ _ _ _ _ _ l H) as (m' & -> & H'); fin. cbn. done1.
    - destruct (remove_right_ok E OK _ _ _ _ _ _ r H) as (m' & w & -> & SG & H'); fin.
      cbn. exists b. do 3 eexists. split; [split; [reflexivity|]|split; [eassumption|]].
      + exists w. auto.
      + repeat split; auto; lia.
    - same_map G b lc rc. cbn. rewrite (is_right_paired_ok E OK _ _ _ _ _ _ r H); auto.
    - same_map G b lc rc. cbn. rewrite (are_paired_ok E OK _ _ _ _ _ _ l r H); auto.
    - same_map G b lc rc. cbn. rewrite (contains_left_ok E OK _ _ _ _ _ _ l H); auto.
    - same_map G b lc rc. cbn. rewrite (contains_right_ok E OK _ _ _ _ _ _ r H); auto.
    - same_map G b lc rc. cbn. rewrite (get_right_ok E OK _ _ _ _ _ _ l H); auto.
    - assert (W := get_left_iter_ok E OK _ _ _ _ _ _ r H GD).
      destruct (get_left_iter E m r) as [it|].
      + destruct W as (ls & g & -> & _ & Q & P). cbn. same_map G b lc rc. rewrite Q. exists ls. auto.
      + cbn. same_map G b lc rc. rewrite W. auto.
    - destruct GD as [LK CL].
      destruct (iter_ok E OK _ _ _ _ _ _ H LK CL) as (Q & _ & -> & _ & P). cbn. same_map G b lc rc. exists Q; auto.
    - destruct (iter_paired_ok E OK _ _ _ _ _ _ H GD) as (Q & _ & -> & _ & P). cbn. same_map G b lc rc. exists Q; auto.
    - destruct (iter_unpaired_ok E OK _ _ _ _ _ _ H GD) as (Q & _ & -> & P). cbn. same_map G b lc rc. exists Q; auto.
    - destruct (iter_left_ok E _ _ _ _ _ _ H) as (Q & _ & -> & _ & P). cbn. same_map G b lc rc. exists Q; auto.
    - destruct (iter_right_ok E _ _ _ _ _ _ H) as (Q & _ & -> & _ & P). cbn. same_map G b lc rc. exists Q; auto.
    - destruct (retain_paired_ok E OK _ _ _ _ _ _ f x H GD) as (Q & P & PR & W).
      destruct (s_filter f x Q) as [[[x' yes] others] [|]] eqn:F.
      + rewrite W. cbn. same_map G b lc rc. exists Q. rewrite F. auto.
      + destruct W as (m' & -> & H' & _). cbn. do 4 eexists. split; [|split; [exact H'|]].
        * exists Q. rewrite F. auto.
        * repeat split; auto; try lia. intros TB CA.
          apply s_filter_no_true in F; [subst; simpl; rewrite TB; auto|]. intros y a Ha. eapply CA; eauto.
    - destruct (retain_unpaired_ok E OK _ _ _ _ _ _ f x H GD) as (Q & P & PR & W).
      destruct (s_filter f x Q) as [[[x' yes] others] [|]] eqn:F.
      + rewrite W. cbn. same_map G b lc rc. exists Q. rewrite F. auto.
      + destruct W as (m' & rights & -> & PY & H'). cbn. do 4 eexists. split; [|split; [exact H'|]].
        * exists Q. rewrite F. auto.
        * repeat split; auto; lia.
    - destruct (extend_pairs_ok xs _ _ _ _ _ _ H) as (m' & lc' & rc' & -> & H' & _ & C1 & C2); fin. cbn. done1.
    - destruct (extend_ok xs _ _ _ _ _ _ H) as (m' & lc' & rc' & -> & H' & _ & C1 & C2); fin. cbn. done1.
    - destruct (clear_ok E _ _ _ _ _ _ H) as (m' & -> & H'). cbn. done1.
    - rewrite clone_same. cbn. same_map G b lc rc.
    - same_map G b lc rc. cbn. rewrite (len_left_ok E _ _ _ _ _ _ H); auto.
    - same_map G b lc rc. cbn. rewrite (len_right_ok E _ _ _ _ _ _ H); auto.
    - same_map G b lc rc. cbn. unfold is_empty.
      rewrite (len_left_ok E _ _ _ _ _ _ H), (len_right_ok E _ _ _ _ _ _ H).
      apply (repr_grouping E) in H as (_ & _ & LK). destruct (g_rights G) as [|r rs]; simpl.
      + destruct (g_pairs G) as [|p ps]; auto. destruct (LK p). left; auto.
      + rewrite Nat.add_succ_r. auto.
  Qed.

  Theorem run_ok : forall ops b s lc rc m G, Repr b s lc rc m G -> lc + budget ops < two64 ->
    rc + budget ops < two64 -> guarded E (loose E) m ops ->
    exists b' G' lc' rc', s_run G ops G' (snd (run E m ops)) /\ Repr b' s lc' rc' (fst (run E m ops)) G' /\
      (fst b = true -> guarded E (tidy E) m ops -> fst b' = true) /\
      (snd b = true -> guarded E (steady E) m ops -> snd b' = true) /\
      lc' <= lc + budget ops /\ rc' <= rc + budget ops.
  Proof.
    induction ops as [|o ops IH]; intros b s lc rc m G H B1 B2 GD; cbn [budget run guarded] in *.
    - exists b, G, lc, rc. cbn. repeat split; auto; [constructor|lia|lia].
    - destruct GD as [G1 G2].
      destruct (step_ok b s lc rc m G o H) as (b1 & P1 & lc1 & rc1 & S1 & H1 & T1 & U1 & C1 & C2); auto; try lia.
      destruct (step E m o) as [m1 w]. cbn [fst snd] in *.
      destruct (IH b1 s lc1 rc1 m1 P1 H1) as (b2 & P2 & lc2 & rc2 & S2 & H2 & T2 & U2 & C3 & C4); auto; try lia.
      destruct (run E m1 ops) as [m2 ws]. cbn [fst snd] in *.
      exists b2, P2, lc2, rc2. repeat split; auto; try lia; [econstructor; eauto| |]; intros TB [CA CB]; auto.
  Qed.
  Lemma calm_tidy_steady : forall m o, calm E m o -> tidy E m o /\ steady E m o.
  Proof.
    intros m o C. destruct o; cbn in *; auto; unfold calm in C; cbn in C.
    - split; auto. intros X. apply C; auto.
    - split; auto. intros X. apply C; auto.
  Qed.
  Lemma guarded_calm_loose : forall ops s lc rc m G, Repr (true, true) s lc rc m G -> lc + budget ops < two64 ->
    rc + budget ops < two64 -> guarded E (calm E) m ops -> guarded E (loose E) m ops.
  Proof.
    induction ops as [|o ops IH]; intros s lc rc m G H B1 B2 GD; cbn [budget guarded] in *; auto.
    destruct GD as [G1 G2].
    assert (L1 : loose E m o) by (eapply calm_loose; eauto; lia). split; auto.
    destruct (step_ok (true, true) s lc rc m G o H) as (b1 & P1 & lc1 & rc1 & S1 & H1 & T1 & U1 & C1 & C2); auto; try lia.
    destruct (calm_tidy_steady _ _ G1) as [Y1 Y2].
    destruct b1 as [x y]. simpl in T1, U1. rewrite T1, U1 in H1 by auto. eapply IH; eauto; lia.
  Qed.
  Lemma guarded_calm_tidy_steady : forall ops m, guarded E (calm E) m ops ->
    guarded E (tidy E) m ops /\ guarded E (steady E) m ops.
  Proof.
    induction ops as [|o ops IH]; intros m GD; cbn [guarded] in *; auto.
    destruct GD as [G1 G2]. apply calm_tidy_steady in G1. apply IH in G2. tauto.
  Qed.
  (* calm histories *)
  Theorem run_calm : forall ops s lc rc m G, Repr (true, true) s lc rc m G -> lc + budget ops < two64 ->
    rc + budget ops < two64 -> guarded E (calm E) m ops ->
    exists G' lc' rc', s_run G ops G' (snd (run E m ops)) /\ Repr (true, true) s lc' rc' (fst (run E m ops)) G' /\
      lc' <= lc + budget ops /\ rc' <= rc + budget ops.
  Proof.
    intros ops s lc rc m G H B1 B2 GD.
    destruct (run_ok ops (true, true) s lc rc m G H) as (b & G' & lc' & rc' & S1 & H1 & T & U & C1 & C2); auto.
    { eapply guarded_calm_loose; eauto. }
    apply guarded_calm_tidy_steady in GD as [Y1 Y2].
    destruct b as [x y]. simpl in T, U. rewrite T, U in H1 by auto. eauto 8.
  Qed.

  Lemma reachable_repr : forall room m, reachable E room m ->
    exists s lc rc G, Repr (true, true) s lc rc m G /\ lc + room < two64 /\ rc + room < two64.
  Proof.
    intros room m (s & ll & lr & ops & B & GD & ->).
    destruct (run_calm ops s 0 0 (with_hasher s ll lr) (GC [] [])) as (G & lc & rc & _ & H & C1 & C2);
      [apply new_ok|lia|lia|auto|].
    exists s, lc, rc, G. repeat split; auto; lia.
  Qed.
  Lemma loosely_reachable_repr : forall room m, loosely_reachable E room m ->
    exists b s lc rc G, Repr b s lc rc m G /\ lc + room < two64 /\ rc + room < two64.
  Proof.
    intros room m (s & ll & lr & ops & B & GD & ->).
    destruct (run_ok ops (true, true) s 0 0 (with_hasher s ll lr) (GC [] [])) as (b & G & lc & rc & _ & H & _ & _ & C1 & C2);
      [apply new_ok|lia|lia|auto|].
    exists b, s, lc, rc, G. repeat split; auto; lia.
  Qed.
  Lemma reachable_loosely : forall room m, reachable E room m -> loosely_reachable E room m.
  Proof.
    intros room m (s & ll & lr & ops & B & GD & ->).
    exists s, ll, lr, ops. repeat split; auto.
    eapply guarded_calm_loose; eauto; [apply new_ok|lia|lia].
  Qed.
End HistoryProofs.
