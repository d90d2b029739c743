(* GroupMap: collect() of items that do not get in each other's way (C155). *)
From Coq Require Import List NArith Lia Bool Permutation PeanoNat.
From Verif Require Import Closures Prelude RawTable GroupMap ListFacts GroupSpec GroupHistory GroupProofs GroupProofs2
  GroupProofs3 GroupProofs4 GroupProofs5 GroupProofs6 GroupHistoryProofs Concrete GroupProps GroupProps2 GroupProps3 GroupCollect.
Import ListNotations.
Open Scope N_scope.

Section Distinct.
  Context {L R S : Type} (E : env L R S) (OK : lawful E).
  Notation map := (gmap L R S).
  Notation "a =L b" := (eqL E a b = true) (at level 70).
  Notation "a =R b" := (eqR E a b = true) (at level 70).
  Let EL := eqL_equiv _ OK.
  Let ER := eqR_equiv _ OK.
  Implicit Types (x y : option L * R) (xs : list (option L * R)).

  (* Two items get in each other's way if they give the same left item a group, or if one of
     them asks for the right item of the other without left items. *)
  Definition clash x y : bool :=
    match fst x, fst y with Some a, Some b => eqL E a b | _, _ => eqR E (snd x) (snd y) end.
  Definition free xs : Prop := ForallOrdPairs (fun x y => clash x y = false) xs.
  (* an item gives l a group, and the group r *)
  Definition gives_left l x : Prop := exists a, fst x = Some a /\ a =L l.
  Definition gives_right (r : R) x : Prop := snd x =R r.
  (* how many items give a left item *)
  Definition lefts xs : list L := flat_map (fun x => match fst x with Some a => [a] | None => [] end) xs.

  Lemma clash_sym : forall x y, clash x y = clash y x.
  Proof.
    intros [[a|] r] [[b|] q]; unfold clash; cbn [fst snd]; solve [apply (eqb_sym _ EL)|apply (eqb_sym _ ER)].
  Qed.
  Lemma free_cons : forall x xs, free (x :: xs) <-> (forall y, In y xs -> clash x y = false) /\ free xs.
  Proof.
    intros x xs. split.
    - intros H. inversion H; subst. split; auto. apply Forall_forall. auto.
    - intros [A B]. constructor; auto. apply Forall_forall. auto.
  Qed.
  Lemma free_app : forall xs ys, free (xs ++ ys) <->
    free xs /\ free ys /\ forall x y, In x xs -> In y ys -> clash x y = false.
  Proof.
    induction xs as [|x xs IH]; intros ys; cbn [app].
    - split; [intros H; split; [constructor|split; auto; intros ? ? []]|intros (_ & H & _); auto].
    - rewrite !free_cons, IH. split.
      + intros (A & B & C & D). split; [split; auto|split; auto].
        * intros y Hy. apply A, in_or_app. auto.
        * intros z y [<-|Hz] Hy; auto. apply A, in_or_app. auto.
      + intros ((A & B) & C & D). split; [|split; auto; split; auto].
        * intros y Hy. apply in_app_or in Hy as [Hy|Hy]; auto. apply D; auto. left. auto.
        * intros z y Hz Hy. apply D; auto. right. auto.
  Qed.
  Lemma free_perm : forall xs xs', Permutation xs xs' -> free xs -> free xs'.
  Proof.
    induction 1 as [|x l l' P IH|x y l|l1 l2 l3 P1 IH1 P2 IH2]; intros D; auto.
    - rewrite free_cons in *. destruct D as [A B]. split; auto.
      intros y Hy. apply A. exact (Permutation_in _ (Permutation_sym P) Hy).
    - rewrite !free_cons in *. destruct D as (A & B & C). split; [|split; auto].
      + intros z [<-|Hz]; [rewrite clash_sym; apply A; left; auto|auto].
      + intros z Hz. apply A. right. auto.
  Qed.
  Lemma free_snoc : forall xs x, free (xs ++ [x]) -> free xs /\ forall y, In y xs -> clash y x = false.
  Proof. intros xs x D. apply free_app in D as (A & _ & C). split; auto. intros y Hy. apply C; auto. left. auto. Qed.
  Lemma free_lefts : forall xs, free xs -> distinct (eqL E) (lefts xs).
  Proof.
    induction xs as [|[[a|] r] xs IH]; intros D; [apply distinct_nil| |]; apply free_cons in D as [A B]; cbn; auto.
    apply distinct_cons. split; [|exact (IH B)].
    intros b Hb. apply in_flat_map in Hb as ([[c|] q] & H1 & H2); cbn in H2; [|destruct H2].
    destruct H2 as [->|[]]. exact (A _ H1).
  Qed.
  Lemma in_lefts : forall xs a, In a (lefts xs) <-> exists x, In x xs /\ fst x = Some a.
  Proof.
    intros xs a. unfold lefts. rewrite in_flat_map. split; intros ([[b|] r] & H1 & H2); cbn in *.
    - destruct H2 as [->|[]]. eauto.
    - destruct H2.
    - injection H2 as ->. exists (Some a, r). cbn. auto.
    - discriminate.
  Qed.

  Lemma guarded_snoc : forall g ops o (m : map), guarded E g m ops -> g (fst (run E m ops)) o ->
    guarded E g m (ops ++ [o]).
  Proof.
    induction ops as [|a ops IH]; intros o m G H; cbn [app guarded run fst] in *; auto.
    destruct G as [G1 G2]. split; auto. apply IH; auto.
    destruct (step E m a) as [m1 w]. cbn [fst] in *. destruct (run E m1 ops). auto.
  Qed.
  Lemma new_reachable : forall room s ll lr, room < two64 -> reachable E room (with_hasher s ll lr).
  Proof. intros room s ll lr B. exists s, ll, lr, []. cbn [budget run fst]. split; [lia|]. split; [exact I|reflexivity]. Qed.

  (* the last word is the only word *)
  Lemma word_free : forall l r xs, free xs ->
    fold_left (last_word E l r) xs false = true <-> exists x, In x xs /\ gives_left l x /\ gives_right r x.
  Proof.
    intros l r. induction xs as [|x xs IH] using rev_ind; intros D.
    - cbn. split; [discriminate|]. intros (x & [] & _).
    - destruct (free_snoc _ _ D) as [D1 D2]. specialize (IH D1). rewrite fold_left_app. cbn [fold_left].
      unfold last_word at 1. destruct x as [[a|] q]; cbn [fst snd].
      + destruct (eqL E a l) eqn:Q.
        * split.
          -- intros H. exists (Some a, q). split; [apply in_or_app; right; left; auto|].
             split; [exists a; auto|exact H].
          -- intros (y & Hy & (b & F & Q1) & Q2). apply in_app_or in Hy as [Hy|[<-|[]]]; auto.
             assert (Z := D2 y Hy). unfold clash in Z. rewrite F in Z. cbn [fst] in Z.
             rewrite (equiv_trans _ EL _ _ _ Q1 (equiv_sym _ EL _ _ Q)) in Z. discriminate.
        * rewrite IH. split.
          -- intros (y & Hy & H). exists y. split; [apply in_or_app; auto|auto].
          -- intros (y & Hy & (b & F & Q1) & Q2). apply in_app_or in Hy as [Hy|[<-|[]]]; [|cbn in F; congruence].
             exists y. split; auto. split; auto. exists b. auto.
      + destruct (eqR E q r) eqn:Q.
        * split; [discriminate|].
          intros (y & Hy & (b & F & Q1) & Q2). apply in_app_or in Hy as [Hy|[<-|[]]]; [|discriminate F].
          assert (Z := D2 y Hy). unfold clash in Z. rewrite F in Z. cbn [fst snd] in Z.
          rewrite (equiv_trans _ ER _ _ _ Q2 (equiv_sym _ ER _ _ Q)) in Z. discriminate.
        * rewrite IH. split.
          -- intros (y & Hy & H). exists y. split; [apply in_or_app; auto|auto].
          -- intros (y & Hy & (b & F & Q1) & Q2). apply in_app_or in Hy as [Hy|[<-|[]]]; [|discriminate F].
             exists y. split; auto. split; auto. exists b. auto.
  Qed.

  (* no insert finds its pair present *)
  Lemma free_calm : forall s ll lr xs, N.of_nat (length xs) < two64 -> free xs ->
    guarded E (calm1 E) (with_hasher s ll lr) (List.map item_op xs).
  Proof.
    intros s ll lr. induction xs as [|x xs IH] using rev_ind; intros B D; [exact I|].
    rewrite app_length in B. cbn [length] in B. destruct (free_snoc _ _ D) as [D1 D2].
    assert (G := IH ltac:(lia) D1). rewrite map_app. cbn [List.map]. apply guarded_snoc; auto.
    destruct x as [[a|] q]; [|exact I]. cbn [item_op fst snd calm1].
    destruct (C58_extend_partial E OK xs 0 (with_hasher s ll lr)) as (m & ws & X & RN & _ & A & _); auto.
    { apply new_reachable. lia. }
    rewrite RN. cbn [fst]. rewrite A.
    rewrite (are_paired_ok E OK _ _ _ _ _ _ _ _ (new_ok E s ll lr)).
    destruct (fold_left (last_word E a q) xs _) eqn:W; auto.
    apply (word_free a q xs D1) in W as (y & Hy & (b & F & Q1) & _). assert (Z := D2 y Hy).
    unfold clash in Z. rewrite F in Z. cbn [fst] in Z. congruence.
  Qed.

  (* collecting items of which no two clash succeeds and gives exactly what they say *)
  Theorem C155_collect : forall s ll lr xs, N.of_nat (length xs) < two64 -> free xs ->
    exists m, from_iter E s ll lr xs = Ret m tt /\ reachable E 0 m /\
      (forall l r, are_paired E m l r = true <-> exists x, In x xs /\ gives_left l x /\ gives_right r x) /\
      (forall l, contains_left E m l = true <-> exists x, In x xs /\ gives_left l x) /\
      (forall r, contains_right E m r = true <-> exists x, In x xs /\ gives_right r x) /\
      (forall r, is_right_paired E m r = true <-> exists x, In x xs /\ fst x <> None /\ gives_right r x) /\
      len_left m = length (lefts xs).
  Proof.
    intros s ll lr xs B D. assert (G := free_calm s ll lr xs B D).
    destruct (C58_collect_partial E OK s ll lr xs B G) as (m & rs & ps & X & A & C & V & AN & FO).
    assert (A' : forall l r, are_paired E m l r = true <-> exists x, In x xs /\ gives_left l x /\ gives_right r x).
    { intros l r. rewrite A. apply word_free; auto. }
    assert (PA : forall a b, In (a, b) ps -> are_paired E m a b = true).
    { intros a b H. rewrite (an_are_paired _ _ _ _ AN). exists a, b.
      split; auto. split; [apply (equiv_refl _ EL)|apply (equiv_refl _ ER)]. }
    assert (PX : forall x a l, In x xs -> fst x = Some a -> a =L l -> are_paired E m l (snd x) = true).
    { intros x a l H1 H2 H3. apply A'. exists x. split; auto. split; [exists a; auto|apply (equiv_refl _ ER)]. }
    assert (CL : forall l, contains_left E m l = true <-> exists x, In x xs /\ gives_left l x).
    { intros l. rewrite (an_contains_left _ _ _ _ AN). split.
      - intros (a & b & H1 & H2). apply PA in H1. apply A' in H1 as (x & I1 & (c & F & Q1) & _).
        exists x. split; auto. exists c. split; auto. exact (equiv_trans _ EL _ _ _ Q1 (equiv_sym _ EL _ _ H2)).
      - intros (x & I1 & a & F & Q1). assert (P := PX x a l I1 F Q1).
        rewrite (an_are_paired _ _ _ _ AN) in P. destruct P as (a' & b' & I2 & Q2 & _). eauto. }
    assert (RE : reachable E 0 m).
    { exists s, ll, lr, [Extend xs]. cbn [budget ids]. split; [lia|]. split.
      - cbn [guarded]. split; [exact G|exact I].
      - cbn [run step fst]. change (from_iter E s ll lr xs) with (extend E xs (with_hasher s ll lr)) in X.
        rewrite X. reflexivity. }
    exists m. split; [exact X|]. split; [exact RE|]. split; [exact A'|]. split; [exact CL|].
    split.
    { intros r. rewrite C, existsb_exists. split; intros (x & I1 & Q1); exists x; split; auto; apply (equiv_sym _ ER); auto. }
    split.
    { intros r. rewrite (an_is_right_paired _ _ _ _ AN). split.
      - intros (a & b & H1 & H2). apply PA in H1. apply A' in H1 as (x & I1 & (c & F & Q1) & Q2).
        exists x. split; auto. split; [congruence|]. exact (equiv_trans _ ER _ _ _ Q2 (equiv_sym _ ER _ _ H2)).
      - intros (x & I1 & F & Q1). destruct (fst x) as [a|] eqn:FX; [|congruence].
        assert (P := PX x a a I1 FX (equiv_refl _ EL a)).
        rewrite (an_are_paired _ _ _ _ AN) in P. destruct P as (a' & b' & I2 & _ & Q2). exists a', b'. split; auto.
        exact (equiv_trans _ ER _ _ _ (equiv_sym _ ER _ _ Q1) Q2). }
    rewrite (an_len_left _ _ _ _ AN).
    assert (DP : distinct (eqL E) (List.map fst ps)).
    { destruct (reachable_repr E OK _ _ RE) as (s1 & lc & rc & G1 & H1 & _).
      destruct (view E OK _ _ _ _ _ _ H1) as (rs' & ps' & V' & _ & _ & H2).
      destruct V as [_ V], V' as [_ V']. rewrite V in V'. injection V' as <-.
      apply (repr_grouping E _ _ _ _ _ _ H2). }
    rewrite <- (map_length fst ps). apply Nat.le_antisymm;
      apply (distinct_embed_length (eqL E) EL); auto; [|apply free_lefts; auto|]; intros a H.
    - apply in_map_iff in H as ((a' & b) & <- & H). cbn [fst].
      assert (P : contains_left E m a' = true).
      { apply (an_contains_left _ _ _ _ AN). exists a', b. split; auto. apply (equiv_refl _ EL). }
      apply CL in P as (x & I1 & c & F & Q1). exists c. split; [apply in_lefts; eauto|apply (equiv_sym _ EL); auto].
    - apply in_lefts in H as (x & I1 & F). assert (P : contains_left E m a = true).
      { apply CL. exists x. split; auto. exists a. split; auto. apply (equiv_refl _ EL). }
      apply (an_contains_left _ _ _ _ AN) in P as (a' & b' & I2 & Q1). exists a'. split; auto.
      apply in_map_iff. exists (a', b'). auto.
  Qed.

  (* the two maps cannot be told apart by ==, by lookups or by their lengths *)
  Definition twins (m m' : map) : Prop :=
    map_eq E m m' = Done true /\ map_eq E m' m = Done true /\
    (forall l r, are_paired E m l r = are_paired E m' l r) /\
    (forall l, contains_left E m l = contains_left E m' l) /\
    (forall r, contains_right E m r = contains_right E m' r) /\
    len_left m = len_left m' /\ len_right m = len_right m'.
  Lemma twins_intro : forall room room' (m m' : map), reachable E room m -> reachable E room' m' ->
    (forall l r, are_paired E m l r = are_paired E m' l r) ->
    (forall l, contains_left E m l = contains_left E m' l) ->
    (forall r, contains_right E m r = contains_right E m' r) -> twins m m'.
  Proof.
    intros room room' m m' RE RE' QA QL QR.
    destruct (C57_equality_partial E OK room room' m m' RE RE') as (_ & _ & b & _ & Z & _ & Y & _).
    destruct (C57_equality_partial E OK room' room m' m RE' RE) as (_ & _ & b' & _ & Z' & _ & Y' & _).
    rewrite Y in Z by (split; auto). rewrite Y' in Z' by (split; auto).
    assert (LE : forall room room' (m m' : map), reachable E room m -> reachable E room' m' ->
      (forall l, contains_left E m l = contains_left E m' l) ->
      (forall r, contains_right E m r = contains_right E m' r) ->
      (len_left m <= len_left m')%nat /\ (len_right m <= len_right m')%nat).
    { clear - OK EL ER. intros room room' m m' RE RE' QL QR.
      destruct (reachable_repr E OK _ _ RE) as (s1 & lc & rc & G1 & H1 & _).
      destruct (view E OK _ _ _ _ _ _ H1) as (rs & ps & _ & _ & _ & H2).
      destruct (reachable_repr E OK _ _ RE') as (s1' & lc' & rc' & G1' & H1' & _).
      destruct (view E OK _ _ _ _ _ _ H1') as (rs' & ps' & _ & _ & _ & H2').
      assert (AN := answers_repr E OK _ _ _ _ _ _ _ H2). assert (AN' := answers_repr E OK _ _ _ _ _ _ _ H2').
      destruct (repr_grouping E _ _ _ _ _ _ H2) as (D1 & D2 & _). cbn [g_pairs g_rights] in *.
      rewrite (an_len_left _ _ _ _ AN), (an_len_left _ _ _ _ AN'), (an_len_right _ _ _ _ AN), (an_len_right _ _ _ _ AN').
      split.
      - rewrite <- (map_length fst ps), <- (map_length fst ps'). apply (distinct_embed_length (eqL E) EL); auto.
        intros a H. apply in_map_iff in H as ((a' & b) & <- & H). cbn [fst].
        assert (P : contains_left E m' a' = true).
        { rewrite <- QL. apply (an_contains_left _ _ _ _ AN). exists a', b. split; auto. apply (equiv_refl _ EL). }
        apply (an_contains_left _ _ _ _ AN') in P as (c & d & I2 & Q1). exists c. split; auto.
        apply in_map_iff. exists (c, d). auto.
      - apply (distinct_embed_length (eqR E) ER); auto. intros b H. apply (an_contains_right _ _ _ _ AN').
        rewrite <- QR. apply (an_contains_right _ _ _ _ AN). exists b. split; auto. apply (equiv_refl _ ER). }
    destruct (LE _ _ m m' RE RE' QL QR) as [L1 L2].
    destruct (LE _ _ m' m RE' RE (fun l => eq_sym (QL l)) (fun r => eq_sym (QR r))) as [L3 L4].
    repeat (split; [assumption|]). split; apply Nat.le_antisymm; auto.
  Qed.

  (* their order, the hasher and the layouts do not matter *)
  Theorem C155_order : forall s ll lr s' ll' lr' xs xs', N.of_nat (length xs) < two64 ->
    free xs -> Permutation xs xs' ->
    exists m m', from_iter E s ll lr xs = Ret m tt /\ from_iter E s' ll' lr' xs' = Ret m' tt /\ twins m m'.
  Proof.
    intros s ll lr s' ll' lr' xs xs' B D P.
    destruct (C155_collect s ll lr xs B D) as (m & X & RE & A & CL & CR & _).
    assert (B' : N.of_nat (length xs') < two64) by (rewrite <- (Permutation_length P); auto).
    destruct (C155_collect s' ll' lr' xs' B' (free_perm _ _ P D)) as (m' & X' & RE' & A' & CL' & CR' & _).
    assert (SW : forall Q : option L * R -> Prop, (exists x, In x xs /\ Q x) <-> (exists x, In x xs' /\ Q x)).
    { intros Q. split; intros (x & I1 & H); exists x; split; auto;
        [apply (Permutation_in _ P)|apply (Permutation_in _ (Permutation_sym P))]; auto. }
    exists m, m'. split; auto. split; auto. apply (twins_intro 0 0); auto; intros; apply eq_true_iff_eq.
    - rewrite A, A'. apply SW.
    - rewrite CL, CL'. apply SW.
    - rewrite CR, CR'. apply SW.
  Qed.

  (* collecting what iter() lists, in any order, gives the map again *)
  Theorem C155_rebuild : forall room m xs xs' s ll lr, reachable E room m ->
    iter_rest E m (iter m) = Done xs -> Permutation xs xs' -> N.of_nat (length xs) < two64 ->
    exists m', from_iter E s ll lr xs' = Ret m' tt /\ twins m m'.
  Proof.
    intros room m xs xs' s ll lr RE IT P B.
    destruct (reachable_repr E OK _ _ RE) as (s1 & lc & rc & G1 & H1 & _).
    destruct (view E OK _ _ _ _ _ _ H1) as (rs & ps & _ & _ & _ & H).
    assert (AN := answers_repr E OK _ _ _ _ _ _ _ H).
    destruct (repr_grouping E _ _ _ _ _ _ H) as (D1 & D2 & D3). cbn [g_pairs g_rights] in *.
    destruct (iter_ok E OK _ _ _ _ _ _ H (tame_all_linked E OK _ _ _ _ _ _ H) (tame_all_clean E OK _ _ _ _ _ _ H))
      as (l & _ & IT' & _ & PL). rewrite IT in IT'. injection IT' as <-.
    unfold s_items in PL. rewrite lonely_unpaired in PL. cbn [g_pairs] in PL.
    change (Permutation xs (all_items_of E rs ps)) in PL.
    assert (LO : forall b p, In b (lonely E rs ps) -> In p ps -> eqR E b (snd p) = false).
    { intros b p Hb Hp. apply filter_In in Hb as [_ Hb]. destruct (eqR E b (snd p)) eqn:Q; auto.
      unfold lefts_of in Hb. destruct (filter (fun p => eqR E b (snd p)) ps) eqn:F; [|discriminate].
      assert (K : In p []) by (rewrite <- F; apply filter_In; auto). destruct K. }
    assert (FR : free (all_items_of E rs ps)).
    { unfold all_items_of. apply free_app. split; [|split].
      - clear - D1. induction ps as [|p t IH]; [constructor|]. cbn [List.map] in *. apply distinct_cons in D1 as [A1 A2].
        apply free_cons. split; auto. intros y Hy. apply in_map_iff in Hy as (q & <- & Hq).
        unfold clash. cbn [fst]. apply A1, in_map. auto.
      - assert (DL : distinct (eqR E) (lonely E rs ps)) by (apply distinct_filter; auto).
        clear - DL. induction (lonely E rs ps) as [|b t IH]; [constructor|]. cbn [List.map].
        apply distinct_cons in DL as [A1 A2]. apply free_cons. split; auto. intros y Hy.
        apply in_map_iff in Hy as (q & <- & Hq). unfold clash. cbn [fst snd]. auto.
      - intros x y Hx Hy. apply in_map_iff in Hx as (p & <- & Hp). apply in_map_iff in Hy as (b & <- & Hb).
        unfold clash. cbn [fst snd]. rewrite (eqb_sym _ ER). auto. }
    assert (P' : Permutation (all_items_of E rs ps) xs') by (rewrite <- PL; auto).
    destruct (C155_collect s ll lr xs') as (m' & X & RE' & A & CL & CR & _).
    { rewrite <- (Permutation_length P). auto. }
    { apply (free_perm _ _ P' FR). }
    exists m'. split; auto.
    assert (SW : forall Q : option L * R -> Prop, (exists x, In x xs' /\ Q x) <->
      (exists p, In p ps /\ Q (Some (fst p), snd p)) \/ (exists b, In b (lonely E rs ps) /\ Q (None, b))).
    { intros Q. split.
      - intros (x & I1 & QX). apply (Permutation_in _ (Permutation_sym P')) in I1. apply in_app_or in I1 as [I1|I1];
          apply in_map_iff in I1 as (z & <- & I1); eauto.
      - intros [(p & I1 & QX)|(b & I1 & QX)]; eexists; (split; [apply (Permutation_in _ P'), in_or_app|exact QX]);
          [left|right]; apply in_map_iff; eauto. }
    apply (twins_intro room 0); auto; intros; apply eq_true_iff_eq.
    - rewrite A, SW, (an_are_paired _ _ _ _ AN). split.
      + intros (a & b & I1 & Q1 & Q2). left. exists (a, b). split; auto. split; [exists a; split; auto; apply (equiv_sym _ EL); auto|].
        apply (equiv_sym _ ER). auto.
      + intros [((a, b) & I1 & (c & F & Q1) & Q2)|(b & _ & (c & F & _) & _)]; [|discriminate F].
        injection F as <-. exists a, b. split; auto. split; [apply (equiv_sym _ EL); auto|apply (equiv_sym _ ER); auto].
    - rewrite CL, SW, (an_contains_left _ _ _ _ AN). split.
      + intros (a & b & I1 & Q1). left. exists (a, b). split; auto. exists a. split; auto. apply (equiv_sym _ EL); auto.
      + intros [((a, b) & I1 & c & F & Q1)|(b & _ & c & F & _)]; [|discriminate F].
        injection F as <-. exists a, b. split; auto. apply (equiv_sym _ EL); auto.
    - rewrite CR, SW, (an_contains_right _ _ _ _ AN). split.
      + intros (b & I1 & Q1). destruct (lefts_of E ps b) as [|a t] eqn:F.
        * right. exists b. split; [apply filter_In; rewrite F; auto|]. apply (equiv_sym _ ER); auto.
        * left. assert (K : In a (lefts_of E ps b)) by (rewrite F; left; auto).
          apply in_map_iff in K as (p & _ & K). apply filter_In in K as [K1 K2]. exists p. split; auto.
          exact (equiv_trans _ ER _ _ _ (equiv_sym _ ER _ _ K2) (equiv_sym _ ER _ _ Q1)).
      + intros [(p & I1 & Q1)|(b & I1 & Q1)].
        * exists (snd p). split; auto. apply (equiv_sym _ ER). exact Q1.
        * exists b. apply filter_In in I1 as [I1 _]. split; auto. apply (equiv_sym _ ER). exact Q1.
  Qed.
End Distinct.

(* six left items in three groups and a right item without left items *)
Definition xs155 : list (option item * item) :=
  [(Some (it 1), it 20); (Some (it 4), it 10); (None, it 30); (Some (it 2), it' 10); (Some (it 5), it 50);
   (Some (it 3), it' 20); (Some (it 6), it 10)].
Example C155_case : free env_collide xs155 /\ Permutation xs155 (rev xs155) /\
  match from_iter env_collide 7 0 0 xs155, from_iter env_collide 8 3 1 (rev xs155) with
  | Ret m _, Ret m' _ => map_eq env_collide m m' = Done true /\ len_left m = 6%nat /\ len_right m = 4%nat /\
      are_paired env_collide m' (it 2) (it 10) = true /\ is_right_paired env_collide m (it 30) = false /\
      exists xs, iter_rest env_collide m (iter m) = Done xs /\ length xs = 7%nat
  | _, _ => False
  end.
Proof.
  split; [|split; [apply Permutation_rev|vm_compute; repeat split; eexists; split; reflexivity]].
  unfold xs155. repeat (apply free_cons; split;
    [intros y Hy; repeat (destruct Hy as [<-|Hy]; [vm_compute; reflexivity|]); destruct Hy|]). constructor.
Qed.
(* with a clash the order matters: the last group of a left item wins, insert_right empties a group *)
Example C155_clash_case :
  clash env_collide (Some (it 1), it 10) (Some (it 1), it 20) = true /\
  clash env_collide (Some (it 1), it 10) (None, it 10) = true /\
  match from_iter env_collide 7 0 0 [(Some (it 1), it 10); (None, it 10)],
        from_iter env_collide 7 0 0 [(None, it 10); (Some (it 1), it 10)] with
  | Ret m _, Ret m' _ => contains_left env_collide m (it 1) = false /\ contains_left env_collide m' (it 1) = true
  | _, _ => False
  end.
Proof. vm_compute. repeat split. Qed.

Print Assumptions C155_collect.
Print Assumptions C155_order.
Print Assumptions C155_rebuild.
