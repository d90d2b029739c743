(* PartialCycleMap: properties C27-C36.

   Vocabulary used by the statements:
   - [lawful E]: Eq is an equivalence, Hash respects it, hashbrown keeps its contract.
     Nothing is assumed about how well hashes separate items.
   - [reachable E room m]: m results from some constructor and some history of public calls
     (PartialHistory.v), with at least [room] ids left in the u64 counter.  Histories avoid
     the two calls that break the map: unpair with colliding hashes (C32) and drain_filter
     with a closure accepting half of a pair (C40).
   - [contents E m P]: for loops over m.iter_paired() and m.iter_unpaired() yield together the
     entries P: SomeBoth l r for a pair, SomeLeft l / SomeRight r for an unpaired item.
   - [has_l eL l x]: the entry x holds a left item equal to l; [has_r] likewise. *)
From Coq Require Import List NArith Lia Bool Permutation PeanoNat.
From Verif Require Import Closures Prelude RawTable Optionals PartialCycleMap ListFacts TableFacts
  PartialSpec PartialHistory IterFacts PartialProofs PartialProofs2 PartialProofs3 PartialProofs4
  PartialProofs5 PartialProofs6 PartialProofs7 PartialProofs8 PartialHistoryProofs Concrete.
Import ListNotations.
Open Scope N_scope.

Definition contents {L R S} (E : env L R S) (m : pmap L R S) (P : list (optional_pair L R)) : Prop :=
  exists Q U, paired_rest E m (iter_paired m) = Done Q /\
              unpaired_rest (iter_unpaired m) = Done U /\
              P = map (fun p => SomeBoth (fst p) (snd p)) Q ++ U.

Section Facts.
  Context {L R : Type} (eL : L -> L -> bool) (eR : R -> R -> bool).
  Context (EL : equivalence eL) (ER : equivalence eR).
  Notation entry := (optional_pair L R).
  Notation pb := (partial_bijection eL eR).

  Lemma pb_permute : forall P P' : list entry, Permutation P P' -> pb P -> pb P'.
  Proof.
    intros P P' H (A & B & C). split; [|split].
    - eapply distinct_perm; [exact EL|apply lefts_perm; exact H|auto].
    - eapply distinct_perm; [exact ER|apply rights_perm; exact H|auto].
    - intros X. apply C. eapply Permutation_in; [symmetry; exact H|auto].
  Qed.
  Lemma lefts_filter_incl : forall p (P : list entry) a, In a (lefts (filter p P)) -> In a (lefts P).
  Proof.
    intros p P a H. apply in_lefts in H as (x & Hx & G). apply filter_In in Hx as [Hx _].
    apply in_lefts; eauto.
  Qed.
  Lemma rights_filter_incl : forall p (P : list entry) a, In a (rights (filter p P)) -> In a (rights P).
  Proof.
    intros p P a H. apply in_rights in H as (x & Hx & G). apply filter_In in Hx as [Hx _].
    apply in_rights; eauto.
  Qed.
  Lemma pb_filter : forall p (P : list entry), pb P -> pb (filter p P).
  Proof.
    intros p P (A & B & C). split; [|split].
    - clear B C. induction P as [|x P IH]; auto. cbn [filter].
      change (x :: P) with ([x] ++ P) in A. rewrite lefts_app in A.
      apply distinct_app in A as (A1 & A2 & A3). destruct (p x); auto.
      change (x :: filter p P) with ([x] ++ filter p P). rewrite lefts_app.
      apply distinct_app_intro; auto. intros a b Ha Hb. apply A3; auto.
      eapply lefts_filter_incl; eauto.
    - clear A C. induction P as [|x P IH]; auto. cbn [filter].
      change (x :: P) with ([x] ++ P) in B. rewrite rights_app in B.
      apply distinct_app in B as (A1 & A2 & A3). destruct (p x); auto.
      change (x :: filter p P) with ([x] ++ filter p P). rewrite rights_app.
      apply distinct_app_intro; auto. intros a b Ha Hb. apply A3; auto.
      eapply rights_filter_incl; eauto.
    - intros X. apply filter_In in X as [X _]. auto.
  Qed.

  (* the entry of l and the others *)
  Lemma take_l : forall (P : list entry) l x, pb P -> find (has_l eL l) P = Some x ->
    has_l eL l x = true /\ Permutation P (x :: del_l eL P l).
  Proof.
    intros P l x H F. apply find_some in F as [F1 F2]. split; auto.
    apply perm_in_cons in F1 as [P' PP]. rewrite PP at 1. constructor.
    unfold del_l. rewrite (filter_perm _ _ _ PP). cbn [filter]. rewrite F2. cbn [negb].
    rewrite filter_all_true; auto. intros y Hy. apply negb_true_iff.
    apply has_l_true in F2 as (a & G & Q).
    apply (pb_permute _ _ PP) in H. destruct H as (H & _).
    apply (has_l_apart eL EL [x] P' l a); auto. apply in_lefts. exists x. split; simpl; auto.
  Qed.
  Lemma take_r : forall (P : list entry) r x, pb P -> find (has_r eR r) P = Some x ->
    has_r eR r x = true /\ Permutation P (x :: del_r eR P r).
  Proof.
    intros P l x H F. apply find_some in F as [F1 F2]. split; auto.
    apply perm_in_cons in F1 as [P' PP]. rewrite PP at 1. constructor.
    unfold del_r. rewrite (filter_perm _ _ _ PP). cbn [filter]. rewrite F2. cbn [negb].
    rewrite filter_all_true; auto. intros y Hy. apply negb_true_iff.
    apply has_r_true in F2 as (a & G & Q).
    apply (pb_permute _ _ PP) in H. destruct H as (_ & H & _).
    apply (has_r_apart eR ER [x] P' l a); auto. apply in_rights. exists x. split; simpl; auto.
  Qed.
  Lemma unique_l : forall (P : list entry) l x y, pb P -> In x P -> In y P ->
    has_l eL l x = true -> has_l eL l y = true -> x = y.
  Proof.
    intros P l x y H Hx Hy A B. apply perm_in_cons in Hx as [P' PP].
    apply (Permutation_in y PP) in Hy. destruct Hy as [Hy|Hy]; auto.
    apply (pb_permute _ _ PP) in H. destruct H as (H & _).
    apply has_l_true in A as (a & G & Q).
    rewrite (has_l_apart eL EL [x] P' l a) in B; auto; [discriminate|].
    apply in_lefts. exists x. split; simpl; auto.
  Qed.
  Lemma unique_r : forall (P : list entry) l x y, pb P -> In x P -> In y P ->
    has_r eR l x = true -> has_r eR l y = true -> x = y.
  Proof.
    intros P l x y H Hx Hy A B. apply perm_in_cons in Hx as [P' PP].
    apply (Permutation_in y PP) in Hy. destruct Hy as [Hy|Hy]; auto.
    apply (pb_permute _ _ PP) in H. destruct H as (_ & H & _).
    apply has_r_true in A as (a & G & Q).
    rewrite (has_r_apart eR ER [x] P' l a) in B; auto; [discriminate|].
    apply in_rights. exists x. split; simpl; auto.
  Qed.
  Lemma find_l_in : forall (P : list entry) l x, pb P -> In x P -> has_l eL l x = true ->
    find (has_l eL l) P = Some x.
  Proof.
    intros P l x H Hx A. destruct (find (has_l eL l) P) as [y|] eqn:F.
    - apply find_some in F as [F1 F2]. f_equal. eapply unique_l; eauto.
    - eapply find_none in F; [|eauto]. congruence.
  Qed.
  Lemma find_r_in : forall (P : list entry) l x, pb P -> In x P -> has_r eR l x = true ->
    find (has_r eR l) P = Some x.
  Proof.
    intros P l x H Hx A. destruct (find (has_r eR l) P) as [y|] eqn:F.
    - apply find_some in F as [F1 F2]. f_equal. eapply unique_r; eauto.
    - eapply find_none in F; [|eauto]. congruence.
  Qed.

  (* two different entries, of l and of r, and the others *)
  Lemma take_both : forall (P : list entry) l r x y, pb P ->
    find (has_l eL l) P = Some x -> find (has_r eR r) P = Some y -> has_r eR r x = false ->
    has_l eL l x = true /\ has_r eR r y = true /\
    Permutation P (x :: y :: del_r eR (del_l eL P l) r).
  Proof.
    intros P l r x y H F G N. assert (G' := G). apply find_some in G' as [G1 G2].
    destruct (take_l P l x H F) as [A PP]. split; auto. split; auto.
    rewrite PP at 1. constructor. apply take_r; [apply pb_filter; auto|].
    apply find_r_in; auto; [apply pb_filter; auto|].
    apply filter_In. split; auto. apply negb_true_iff.
    destruct (has_l eL l y) eqn:B; auto.
    assert (x = y) by (apply find_some in F as [? ?]; eapply unique_l; eauto). congruence.
  Qed.

  Lemma get_r_iff : forall (P : list entry) l r, pb P ->
    (s_get_right eL P l = Some r <-> exists a, In (SomeBoth a r) P /\ eL l a = true).
  Proof.
    intros P l r H. unfold s_get_right, find_l. split.
    - destruct (find (has_l eL l) P) as [x|] eqn:F; simpl; [|discriminate].
      apply find_some in F as [F1 F2]. intros G.
      destruct x; unfold has_l in F2; simpl in *; try discriminate. inversion G; subst. eauto.
    - intros (a & HI & Q). rewrite (find_l_in P l _ H HI); auto.
  Qed.
  Lemma get_l_iff : forall (P : list entry) l r, pb P ->
    (s_get_left eR P r = Some l <-> exists b, In (SomeBoth l b) P /\ eR r b = true).
  Proof.
    intros P l r H. unfold s_get_left, find_r. split.
    - destruct (find (has_r eR r) P) as [x|] eqn:F; simpl; [|discriminate].
      apply find_some in F as [F1 F2]. intros G.
      destruct x; unfold has_r in F2; simpl in *; try discriminate. inversion G; subst. eauto.
    - intros (b & HI & Q). rewrite (find_r_in P r _ H HI); auto.
  Qed.
  Lemma paired_iff : forall (P : list entry) l r,
    s_are_paired eL eR P l r = true <->
    exists a b, In (SomeBoth a b) P /\ eL l a = true /\ eR r b = true.
  Proof.
    intros P l r. unfold s_are_paired. rewrite existsb_exists. split.
    - intros (x & HI & X). apply andb_true_iff in X as [X Y].
      destruct x; unfold has_l, has_r in *; simpl in *; try discriminate. eauto.
    - intros (a & b & HI & X & Y). exists (SomeBoth a b). unfold has_l, has_r. simpl.
      rewrite X, Y. auto.
  Qed.
  Lemma contains_l_iff : forall (P : list entry) l,
    s_contains_left eL P l = true <-> exists x, In x P /\ has_l eL l x = true.
  Proof. intros. unfold s_contains_left. apply existsb_exists. Qed.
  Lemma contains_r_iff : forall (P : list entry) r,
    s_contains_right eR P r = true <-> exists x, In x P /\ has_r eR r x = true.
  Proof. intros. unfold s_contains_right. apply existsb_exists. Qed.

  Lemma split_pairs : forall P : list entry,
    Permutation (map (fun p => SomeBoth (fst p) (snd p)) (s_pairs P) ++ s_unpaired P) P.
  Proof.
    induction P as [|x P IH]; auto.
    destruct x; unfold s_pairs, s_unpaired in *; cbn; try (constructor; exact IH);
      rewrite <- Permutation_middle; constructor; auto.
  Qed.
End Facts.

Section Props.
  Context {L R S : Type}.
  Variable E : env L R S.
  Hypothesis OK : lawful E.
  Notation entry := (optional_pair L R).
  Implicit Types (m : pmap L R S) (l : L) (r : R) (P : list entry).

  Notation "a =L b" := (eqL E a b = true) (at level 70).
  Notation "a =R b" := (eqR E a b = true) (at level 70).
  Notation hasl := (has_l (eqL E)).
  Notation hasr := (has_r (eqR E)).

  Lemma view : forall s c m P, Repr E s c m P -> exists P', contents E m P' /\ Permutation P' P.
  Proof.
    intros s c m P H.
    destruct (paired_all_ok E OK _ _ _ _ H) as (Q & HQ & PQ).
    destruct (unpaired_all_ok E _ _ _ _ H) as (QL & QR & HU & _ & _ & PU).
    exists (map (fun p => SomeBoth (fst p) (snd p)) Q ++ QL ++ QR). split.
    - exists Q, (QL ++ QR). auto.
    - rewrite PU, PQ. apply split_pairs.
  Qed.
  Lemma reachable_view : forall room m, reachable E room m ->
    exists s c P, contents E m P /\ Repr E s c m P /\ c + room < two64.
  Proof.
    intros room m H. apply (reachable_repr E OK) in H as (s & c & P & H & B).
    destruct (view _ _ _ _ H) as (P' & V & PP). exists s, c, P'. repeat split; auto.
    eapply (repr_perm E OK); [symmetry; exact PP|auto].
  Qed.
  Ltac start H :=
    let s := fresh "s" in let c := fresh "c" in let P := fresh "P" in
    apply reachable_view in H as (s & c & P & ?V & H & ?B).

  (* ---- C27 ---- *)
  Theorem C27_partial_bijection : forall room m, reachable E room m ->
    (* lookups are mutually inverse *)
    (forall l r, (exists r', get_right E m l = Some r' /\ r =R r') <->
                 (exists l', get_left E m r = Some l' /\ l =L l')) /\
    (forall l r l', get_right E m l = Some r -> get_left E m r = Some l' ->
                    l =L l' /\ get_right E m l' = Some r) /\
    (* is_*_paired hold exactly for items with a partner, which are contained *)
    (forall l, is_left_paired E m l = true <-> exists r, get_right E m l = Some r) /\
    (forall l, is_left_paired E m l = true <-> exists r, are_paired E m l r = true) /\
    (forall r, is_right_paired E m r = true <-> exists l, get_left E m r = Some l) /\
    (forall r, is_right_paired E m r = true <-> exists l, are_paired E m l r = true) /\
    (forall l r, are_paired E m l r = true ->
                 contains_left E m l = true /\ contains_right E m r = true) /\
    (* are_paired agrees with the lookups *)
    (forall l r, are_paired E m l r = true <-> exists r', get_right E m l = Some r' /\ r =R r') /\
    (* nobody has two partners *)
    (forall l r r', are_paired E m l r = true -> are_paired E m l r' = true -> r =R r') /\
    (forall l l' r, are_paired E m l r = true -> are_paired E m l' r = true -> l =L l').
  Proof.
    intros room m H. start H.
    assert (D := repr_bij E _ _ _ _ H).
    assert (EL := eqL_equiv _ OK). assert (ER := eqR_equiv _ OK).
    assert (GR : forall l r, get_right E m l = Some r <-> exists a, In (SomeBoth a r) P /\ l =L a).
    { intros. rewrite (get_right_spec E OK _ _ _ _ _ H). apply (get_r_iff _ _ EL ER); auto. }
    assert (GL : forall l r, get_left E m r = Some l <-> exists b, In (SomeBoth l b) P /\ r =R b).
    { intros. rewrite (get_left_spec E OK _ _ _ _ _ H). apply (get_l_iff _ _ EL ER); auto. }
    assert (AP : forall l r, are_paired E m l r = true <->
                             exists a b, In (SomeBoth a b) P /\ l =L a /\ r =R b).
    { intros. rewrite (are_paired_spec E OK _ _ _ _ _ _ H). apply paired_iff. }
    assert (LP : forall l, is_left_paired E m l = true <-> exists a b, In (SomeBoth a b) P /\ l =L a).
    { intros. rewrite (is_left_paired_spec E OK _ _ _ _ _ H). unfold s_is_left_paired.
      rewrite existsb_exists. split.
      - intros (x & HI & X). apply andb_true_iff in X as [X Y].
        destruct x; unfold has_l in *; simpl in *; try discriminate. eauto.
      - intros (a & b & HI & X). exists (SomeBoth a b). unfold has_l. simpl. rewrite X. auto. }
    assert (RP : forall r, is_right_paired E m r = true <-> exists a b, In (SomeBoth a b) P /\ r =R b).
    { intros. rewrite (is_right_paired_spec E OK _ _ _ _ _ H). unfold s_is_right_paired.
      rewrite existsb_exists. split.
      - intros (x & HI & X). apply andb_true_iff in X as [X Y].
        destruct x; unfold has_r in *; simpl in *; try discriminate. eauto.
      - intros (a & b & HI & X). exists (SomeBoth a b). unfold has_r. simpl. rewrite X. auto. }
    assert (U : forall a b l' b', In (SomeBoth a b) P -> In (SomeBoth l' b') P -> b =R b' -> a = l' /\ b = b').
    { intros a b l' b' H1 H2 Q.
      assert (X : SomeBoth a b = SomeBoth l' b').
      { apply (unique_r _ _ EL ER P b); auto; unfold has_r; simpl; auto.
        apply (equiv_refl _ ER). }
      inversion X; auto. }
    assert (U' : forall a b l' b', In (SomeBoth a b) P -> In (SomeBoth l' b') P -> a =L l' -> a = l' /\ b = b').
    { intros a b l' b' H1 H2 Q.
      assert (X : SomeBoth a b = SomeBoth l' b').
      { apply (unique_l _ _ EL ER P a); auto; unfold has_l; simpl; auto.
        apply (equiv_refl _ EL). }
      inversion X; auto. }
    repeat split.
    - intros (r' & G & X). apply GR in G as (a & HI & Y). exists a. split; auto. apply GL. eauto.
    - intros (l' & G & X). apply GL in G as (b & HI & Y). exists b. split; auto. apply GR. eauto.
    - apply GR in H0 as (a & HI & X). apply GL in H1 as (b & HI' & Y).
      destruct (U _ _ _ _ HI HI' Y) as [-> ->]. auto.
    - apply GR in H0 as (a & HI & X). apply GL in H1 as (b & HI' & Y).
      destruct (U _ _ _ _ HI HI' Y) as [-> ->]. apply GR. exists l'. split; auto.
      apply (equiv_refl _ EL).
    - intros X. apply LP in X as (a & b & HI & X). exists b. apply GR. eauto.
    - intros (r & G). apply GR in G as (a & HI & X). apply LP. eauto.
    - intros X. apply LP in X as (a & b & HI & X). exists b. apply AP. exists a, b.
      repeat split; auto. apply (equiv_refl _ ER).
    - intros (r & G). apply AP in G as (a & b & HI & X & _). apply LP. eauto.
    - intros X. apply RP in X as (a & b & HI & X). exists a. apply GL. eauto.
    - intros (r' & G). apply GL in G as (a & HI & X). apply RP. eauto.
    - intros X. apply RP in X as (a & b & HI & X). exists a. apply AP. exists a, b.
      repeat split; auto. apply (equiv_refl _ EL).
    - intros (l & G). apply AP in G as (a & b & HI & X & Y). apply RP. eauto.
    - apply AP in H0 as (a & b & HI & X & Y). rewrite (contains_left_spec E OK _ _ _ _ _ H).
      apply contains_l_iff. eexists. split; [exact HI|auto].
    - apply AP in H0 as (a & b & HI & X & Y). rewrite (contains_right_spec E OK _ _ _ _ _ H).
      apply contains_r_iff. eexists. split; [exact HI|auto].
    - intros A. apply AP in A as (a & b & HI & X & Y). exists b. split; auto. apply GR. eauto.
    - intros (r' & G & X). apply GR in G as (a & HI & Y). apply AP. eauto.
    - intros l r r' A1 A2. apply AP in A1 as (a & b & HI & X & Y), A2 as (a' & b' & HI' & X' & Y').
      destruct (U' _ _ _ _ HI HI') as [-> ->].
      { rewrite <- (eqb_replace_l _ EL _ _ _ X). auto. }
      eapply (equiv_trans _ ER); [eauto|]. apply (equiv_sym _ ER); auto.
    - intros l l' r A1 A2. apply AP in A1 as (a & b & HI & X & Y), A2 as (a' & b' & HI' & X' & Y').
      destruct (U _ _ _ _ HI HI') as [-> ->].
      { rewrite <- (eqb_replace_l _ ER _ _ _ Y). auto. }
      eapply (equiv_trans _ EL); [eauto|]. apply (equiv_sym _ EL); auto.
  Qed.

  (* no two Eq items on a side; the lookups answer about the contents *)
  Theorem C27_single_copy : forall room m, reachable E room m ->
    exists P, contents E m P /\
      distinct (eqL E) (lefts P) /\ distinct (eqR E) (rights P) /\ ~ In Neither P /\
      (forall l, contains_left E m l = true <-> exists a, In a (lefts P) /\ l =L a) /\
      (forall r, contains_right E m r = true <-> exists b, In b (rights P) /\ r =R b) /\
      (forall l r, get_right E m l = Some r <-> exists a, In (SomeBoth a r) P /\ l =L a) /\
      (forall l r, get_left E m r = Some l <-> exists b, In (SomeBoth l b) P /\ r =R b).
  Proof.
    intros room m H. start H. exists P. destruct (repr_bij E _ _ _ _ H) as (D1 & D2 & D3).
    assert (EL := eqL_equiv _ OK). assert (ER := eqR_equiv _ OK).
    split; [auto|]. split; [auto|]. split; [auto|]. split; [auto|]. split; [|split; [|split]].
    - intros l. rewrite (contains_left_spec E OK _ _ _ _ _ H), contains_l_iff. split.
      + intros (x & HI & X). apply has_l_true in X as (a & G & X). exists a. split; auto.
        apply in_lefts; eauto.
      + intros (a & HI & X). apply in_lefts in HI as (x & HI & G). exists x. split; auto.
        unfold has_l. rewrite G. auto.
    - intros r. rewrite (contains_right_spec E OK _ _ _ _ _ H), contains_r_iff. split.
      + intros (x & HI & X). apply has_r_true in X as (a & G & X). exists a. split; auto.
        apply in_rights; eauto.
      + intros (a & HI & X). apply in_rights in HI as (x & HI & G). exists x. split; auto.
        unfold has_r. rewrite G. auto.
    - intros l r. rewrite (get_right_spec E OK _ _ _ _ _ H). apply (get_r_iff _ _ EL ER); repeat split; auto.
    - intros l r. rewrite (get_left_spec E OK _ _ _ _ _ H). apply (get_l_iff _ _ EL ER); repeat split; auto.
  Qed.

  (* ---- C28 ---- [or_neither]: Neither if there is no such entry *)
  Theorem C28_insert : forall m l r, reachable E 1 m ->
    exists P m' P', contents E m P /\
      insert E l r m =
        Ret m' (or_neither (find (hasl l) P),
                or_neither (find (fun x => negb (hasl l x) && hasr r x) P)) /\
      contents E m' P' /\
      Permutation P' (SomeBoth l r :: filter (fun x => negb (hasl l x) && negb (hasr r x)) P).
  Proof.
    intros m l r H. start H.
    destruct (insert_ok E OK _ _ _ _ l r H) as (m' & HI & H'); [lia|].
    apply view in H' as (P' & V' & PP). exists P, m', P'. repeat split; auto.
    - rewrite HI. unfold s_insert_out, find_l, find_r, del_l. rewrite find_of_filter. auto.
    - rewrite PP. unfold s_insert, del_l, del_r. rewrite filter_filter. auto.
  Qed.
  Theorem C28_insert_one : forall m, reachable E 1 m ->
    exists P, contents E m P /\
    (forall l, exists m' P', insert_left E l m = Ret m' (or_neither (find (hasl l) P)) /\
       contents E m' P' /\ Permutation P' (SomeLeft l :: filter (fun x => negb (hasl l x)) P)) /\
    (forall r, exists m' P', insert_right E r m = Ret m' (or_neither (find (hasr r) P)) /\
       contents E m' P' /\ Permutation P' (SomeRight r :: filter (fun x => negb (hasr r x)) P)).
  Proof.
    intros m H. start H. exists P. split; [auto|]. split; [intros l|intros r].
    - destruct (insert_left_ok E OK _ _ _ _ l H) as (m' & HI & H'); [lia|].
      apply view in H' as (P' & V' & PP). exists m', P'. auto.
    - destruct (insert_right_ok E OK _ _ _ _ r H) as (m' & HI & H'); [lia|].
      apply view in H' as (P' & V' & PP). exists m', P'. auto.
  Qed.

  (* ---- C29 ---- *)
  Theorem C29_pair : forall room m l r, reachable E room m ->
    exists P m' ok P', contents E m P /\ pair E l r m = Ret m' ok /\ contents E m' P' /\
      ((* two unpaired items: joined *)
       (exists a b rest, Permutation P (SomeLeft a :: SomeRight b :: rest) /\ l =L a /\ r =R b /\
          ok = true /\ Permutation P' (SomeBoth a b :: rest)) \/
       (* anything else: nothing happens *)
       ((forall a b, In (SomeLeft a) P -> In (SomeRight b) P -> ~ (l =L a /\ r =R b)) /\
        ok = false /\ Permutation P' P)).
  Proof.
    intros room m l r H. start H.
    assert (D := repr_bij E _ _ _ _ H).
    assert (EL := eqL_equiv _ OK). assert (ER := eqR_equiv _ OK).
    destruct (pair_ok E OK _ _ _ _ l r H) as (m' & HI & H').
    apply view in H' as (P' & V' & PP). do 4 eexists. split; [exact V|]. split; [exact HI|].
    split; [exact V'|]. unfold s_pair, s_pair_out, find_l, find_r in *.
    assert (F : forall a b, In (SomeLeft a) P -> In (SomeRight b) P -> l =L a /\ r =R b ->
      find (hasl l) P = Some (SomeLeft a) /\ find (hasr r) P = Some (SomeRight b)).
    { intros a b Ha Hb [X Y]. split; [apply (find_l_in _ _ EL ER)|apply (find_r_in _ _ EL ER)]; auto. }
    destruct (find (hasl l) P) as [x|] eqn:F1; [destruct (find (hasr r) P) as [y|] eqn:F2|].
    - assert (N : (exists a b, x = SomeLeft a /\ y = SomeRight b) \/
                  ~ (exists a b, x = SomeLeft a /\ y = SomeRight b)).
      { destruct x; try (right; intros (a0 & b0 & ? & ?); discriminate).
        destruct y; try (right; intros (a0 & b0 & ? & ?); discriminate). left; eauto. }
      destruct N as [(a & b & -> & ->)|N].
      + left. destruct (take_both _ _ EL ER P l r _ _ D F1 F2 eq_refl) as (A & B' & X).
        exists a, b, (del_r (eqR E) (del_l (eqL E) P l) r). auto.
      + right. split.
        * intros a b Ha Hb X. destruct (F a b Ha Hb X) as [G1 G2]. apply N.
          inversion G1; inversion G2; subst. eauto.
        * destruct x; destruct y; auto. exfalso. apply N; eauto.
    - right. split; [|destruct x; auto]. intros a b Ha Hb X. destruct (F a b Ha Hb X); discriminate.
    - right. split; auto. intros a b Ha Hb X. destruct (F a b Ha Hb X); discriminate.
  Qed.

  (* pair returns true iff both items are present and unpaired, in terms of the lookups *)
  Theorem C29_pair_iff : forall room m l r m' ok, reachable E room m -> pair E l r m = Ret m' ok ->
    (ok = true <-> contains_left E m l = true /\ is_left_paired E m l = false /\
                   contains_right E m r = true /\ is_right_paired E m r = false).
  Proof.
    intros room m l r m' ok H HP. start H.
    assert (D := repr_bij E _ _ _ _ H).
    assert (EL := eqL_equiv _ OK). assert (ER := eqR_equiv _ OK).
    destruct (pair_ok E OK _ _ _ _ l r H) as (m1 & HI & _).
    rewrite HP in HI. inversion HI; subst m1 ok. clear HI.
    rewrite (contains_left_spec E OK _ _ _ _ _ H), (contains_right_spec E OK _ _ _ _ _ H),
      (is_left_paired_spec E OK _ _ _ _ _ H), (is_right_paired_spec E OK _ _ _ _ _ H).
    assert (CL : s_is_left_paired (eqL E) P l
                 = match find (hasl l) P with Some x => is_both x | None => false end).
    { unfold s_is_left_paired. destruct (find (hasl l) P) as [x|] eqn:F.
      - destruct (existsb _ P) eqn:X.
        + apply existsb_exists in X as (y & HI & X). apply andb_true_iff in X as [X Y].
          apply find_some in F as [F1 F2]. rewrite (unique_l _ _ EL ER P l x y); auto.
        + apply find_some in F as [F1 F2]. rewrite existsb_false in X.
          specialize (X x F1). rewrite F2 in X. auto.
      - apply existsb_false. intros x Hx. rewrite (find_none _ _ F x Hx). auto. }
    assert (CR : s_is_right_paired (eqR E) P r
                 = match find (hasr r) P with Some x => is_both x | None => false end).
    { unfold s_is_right_paired. destruct (find (hasr r) P) as [x|] eqn:F.
      - destruct (existsb _ P) eqn:X.
        + apply existsb_exists in X as (y & HI & X). apply andb_true_iff in X as [X Y].
          apply find_some in F as [F1 F2]. rewrite (unique_r _ _ EL ER P r x y); auto.
        + apply find_some in F as [F1 F2]. rewrite existsb_false in X.
          specialize (X x F1). rewrite F2 in X. auto.
      - apply existsb_false. intros x Hx. rewrite (find_none _ _ F x Hx). auto. }
    rewrite CL, CR, (contains_find_l E), (contains_find_r E). unfold s_pair_out, find_l, find_r.
    destruct (find (hasl l) P) as [x|] eqn:F1; [|simpl; intuition discriminate].
    destruct (find (hasr r) P) as [y|] eqn:F2; [|simpl; destruct x; intuition discriminate].
    apply find_some in F1 as [_ F1]. apply find_some in F2 as [_ F2].
    destruct x, y; unfold has_l, has_r in *; simpl in *; intuition discriminate.
  Qed.

  Lemma neither_cases : forall P l r, partial_bijection (eqL E) (eqR E) P ->
    (exists x y, find (hasl l) P = Some x /\ find (hasr r) P = Some y /\ hasr r x = false) \/
    (s_are_paired (eqL E) (eqR E) P l r = true /\
       exists x y, find (hasl l) P = Some x /\ find (hasr r) P = Some y /\ hasr r x = true) \/
    (s_contains_left (eqL E) P l = false /\ find (hasl l) P = None) \/
    (s_contains_right (eqR E) P r = false /\ find (hasr r) P = None).
  Proof.
    intros P l r D. rewrite (contains_find_l E), (contains_find_r E). unfold find_l, find_r.
    destruct (find (hasl l) P) as [x|] eqn:F1; [|auto].
    destruct (find (hasr r) P) as [y|] eqn:F2; [|auto].
    destruct (hasr r x) eqn:X; [right; left|left; eauto]. split; [|eauto].
    apply find_some in F1 as [F1 F1']. unfold s_are_paired. apply existsb_exists. exists x.
    rewrite F1', X. auto.
  Qed.

  (* ---- C30 ---- [without_left x]: what is left of x without its left item: nothing, or the
     right item, now unpaired; likewise [without_right]. *)
  Theorem C30_pair_forced : forall m l r, reachable E 1 m ->
    exists P m' o P', contents E m P /\ pair_forced E l r m = Ret m' o /\ contents E m' P' /\
      ((* l in entry x, r in another entry y: joined, the partners released and reported *)
       (exists x y rest a b, Permutation P (x :: y :: rest) /\
          op_get_left x = Some a /\ l =L a /\ op_get_right y = Some b /\ r =R b /\
          o = op_from_pair (op_get_left y, op_get_right x) /\
          Permutation P' (SomeBoth a b :: without_left x ++ without_right y ++ rest)) \/
       (* missing, or already paired together: nothing happens *)
       ((contains_left E m l = false \/ contains_right E m r = false \/ are_paired E m l r = true) /\
        o = Neither /\ Permutation P' P)).
  Proof.
    intros m l r H. start H.
    assert (D := repr_bij E _ _ _ _ H).
    assert (EL := eqL_equiv _ OK). assert (ER := eqR_equiv _ OK).
    destruct (pair_forced_ok E OK _ _ _ _ l r H) as (m' & c' & HI & _ & _ & H'); [lia|].
    apply view in H' as (P' & V' & PP). do 4 eexists. split; [exact V|]. split; [exact HI|].
    split; [exact V'|]. unfold s_pair_forced, s_pair_forced_out, find_l, find_r in *.
    rewrite (contains_left_spec E OK _ _ _ _ _ H), (contains_right_spec E OK _ _ _ _ _ H),
      (are_paired_spec E OK _ _ _ _ _ _ H).
    destruct (neither_cases P l r D) as [(x & y & F1 & F2 & X)|[(A & x & y & F1 & F2 & X)|[[A F1]|[A F2]]]].
    - left. rewrite F1, F2, X in *.
      destruct (take_both _ _ EL ER P l r _ _ D F1 F2 X) as (A & B' & Y).
      apply has_l_true in A as (a & G & A). apply has_r_true in B' as (b & G' & B').
      exists x, y, (del_r (eqR E) (del_l (eqL E) P l) r), a, b. repeat split; auto.
      rewrite PP. unfold join. rewrite G, G'. auto.
    - right. rewrite F1, F2, X in *. auto.
    - right. rewrite F1 in *. auto.
    - right. rewrite F2 in *. destruct (find (hasl l) P); auto.
  Qed.

  (* ---- C31 ---- *)
  Theorem C31_pair_forced_remove : forall m l r, reachable E 1 m ->
    exists P m' o P', contents E m P /\ pair_forced_remove E l r m = Ret m' o /\ contents E m' P' /\
      ((* l in entry x, r in another entry y: joined, the partners removed and returned *)
       (exists x y rest a b, Permutation P (x :: y :: rest) /\
          op_get_left x = Some a /\ l =L a /\ op_get_right y = Some b /\ r =R b /\
          o = op_from_pair (op_get_left y, op_get_right x) /\
          Permutation P' (SomeBoth a b :: rest)) \/
       ((contains_left E m l = false \/ contains_right E m r = false \/ are_paired E m l r = true) /\
        o = Neither /\ Permutation P' P)).
  Proof.
    intros m l r H. start H.
    assert (D := repr_bij E _ _ _ _ H).
    assert (EL := eqL_equiv _ OK). assert (ER := eqR_equiv _ OK).
    destruct (pair_forced_remove_ok E OK _ _ _ _ l r H) as (m' & c' & HI & _ & _ & H'); [lia|].
    apply view in H' as (P' & V' & PP). do 4 eexists. split; [exact V|]. split; [exact HI|].
    split; [exact V'|]. unfold s_pair_forced_remove, s_pair_forced_out, find_l, find_r in *.
    rewrite (contains_left_spec E OK _ _ _ _ _ H), (contains_right_spec E OK _ _ _ _ _ H),
      (are_paired_spec E OK _ _ _ _ _ _ H).
    destruct (neither_cases P l r D) as [(x & y & F1 & F2 & X)|[(A & x & y & F1 & F2 & X)|[[A F1]|[A F2]]]].
    - left. rewrite F1, F2, X in *.
      destruct (take_both _ _ EL ER P l r _ _ D F1 F2 X) as (A & B' & Y).
      apply has_l_true in A as (a & G & A). apply has_r_true in B' as (b & G' & B').
      exists x, y, (del_r (eqR E) (del_l (eqL E) P l) r), a, b. repeat split; auto.
      rewrite PP. unfold join. rewrite G, G'. auto.
    - right. rewrite F1, F2, X in *. auto.
    - right. rewrite F1 in *. auto.
    - right. rewrite F2 in *. destruct (find (hasl l) P); auto.
  Qed.

  (* ---- C32 (false in general, see C32_unpair_refuted) ----
     What holds: unpair is exact unless l and r are paired, but not with each other, and the
     hashes of their partners equal the hashes of l and r.  Missing: that case. *)
  Theorem C32_unpair_partial : forall m l r, reachable E 1 m ->
    (forall a' b', get_right E m l = Some b' -> get_left E m r = Some a' ->
       are_paired E m l r = false ->
       hashL E (hash_builder m) a' <> hashL E (hash_builder m) l \/
       hashR E (hash_builder m) b' <> hashR E (hash_builder m) r) ->
    exists P m' ok P', contents E m P /\ unpair E l r m = Ret m' ok /\ contents E m' P' /\
      ((exists a b rest, Permutation P (SomeBoth a b :: rest) /\ l =L a /\ r =R b /\
          ok = true /\ Permutation P' (SomeLeft a :: SomeRight b :: rest)) \/
       ((forall a b, In (SomeBoth a b) P -> ~ (l =L a /\ r =R b)) /\
        ok = false /\ Permutation P' P)).
  Proof.
    intros m l r H SAFE. start H.
    assert (D := repr_bij E _ _ _ _ H).
    assert (EL := eqL_equiv _ OK). assert (ER := eqR_equiv _ OK).
    destruct (unpair_ok E OK _ _ _ _ l r H) as (m' & c' & HI & _ & _ & H'); [lia| |].
    { assert (HS : hash_builder m = s) by (destruct H as (Z & H & _); apply H).
      rewrite HS in SAFE. clear HS.
      intros a b a' b' F1 F2 Q1 Q2. rewrite <- (are_paired_spec E OK _ _ _ _ _ _ H).
      destruct (are_paired E m l r) eqn:A; auto. exfalso.
      destruct (SAFE a' b'); auto.
      - rewrite (get_right_spec E OK _ _ _ _ _ H). unfold s_get_right. rewrite F1. auto.
      - rewrite (get_left_spec E OK _ _ _ _ _ H). unfold s_get_left. rewrite F2. auto. }
    apply view in H' as (P' & V' & PP). do 4 eexists. split; [exact V|]. split; [exact HI|].
    split; [exact V'|]. unfold s_unpair, find_l in *.
    destruct (s_are_paired (eqL E) (eqR E) P l r) eqn:A.
    - left. apply paired_iff in A as (a & b & HIn & X & Y).
      assert (F : find (hasl l) P = Some (SomeBoth a b)) by (apply (find_l_in _ _ EL ER); auto).
      rewrite F in PP. destruct (take_l _ _ EL ER P l _ D F) as [_ PD].
      exists a, b, (del_l (eqL E) P l). repeat split; auto.
      unfold has_r in PP. simpl in PP. rewrite Y in PP. auto.
    - right. split; [|split; auto].
      + intros a b HIn [X Y]. assert (s_are_paired (eqL E) (eqR E) P l r = true); [|congruence].
        apply paired_iff; eauto.
      + destruct (find (hasl l) P) as [x|] eqn:F; auto. destruct (hasr r x) eqn:X; auto.
        assert (s_are_paired (eqL E) (eqR E) P l r = true); [|congruence].
        apply find_some in F as [F1 F2]. apply existsb_exists. exists x. rewrite F2, X. auto.
  Qed.

  (* ---- C33 ---- *)
  Theorem C33_remove : forall room m l r, reachable E room m ->
    exists P m' o P', contents E m P /\ remove E l r m = Ret m' o /\ contents E m' P' /\
      ((exists a b, Permutation P (SomeBoth a b :: P') /\ l =L a /\ r =R b /\ o = Some (a, b)) \/
       ((forall a b, In (SomeBoth a b) P -> ~ (l =L a /\ r =R b)) /\ o = None /\ Permutation P P')).
  Proof.
    intros room m l r H. start H.
    assert (D := repr_bij E _ _ _ _ H).
    assert (EL := eqL_equiv _ OK). assert (ER := eqR_equiv _ OK).
    destruct (remove_ok E OK _ _ _ _ l r H) as (m' & HI & H').
    apply view in H' as (P' & V' & PP). do 4 eexists. split; [exact V|]. split; [exact HI|].
    split; [exact V'|]. unfold s_remove, s_remove_out, find_l in *.
    destruct (s_are_paired (eqL E) (eqR E) P l r) eqn:A.
    - left. apply paired_iff in A as (a & b & HIn & X & Y).
      assert (F : find (hasl l) P = Some (SomeBoth a b)) by (apply (find_l_in _ _ EL ER); auto).
      rewrite F. destruct (take_l _ _ EL ER P l _ D F) as [_ PD].
      exists a, b. repeat split; auto. rewrite PP. auto.
    - right. split; [|split; auto; symmetry; auto].
      intros a b HIn [X Y]. assert (s_are_paired (eqL E) (eqR E) P l r = true); [|congruence].
      apply paired_iff; eauto.
  Qed.

  Theorem C33_remove_side : forall room m, reachable E room m ->
    exists P, contents E m P /\
    (* remove_left / remove_right: the partner stays, unpaired *)
    (forall l, exists m' o P', remove_left E l m = Ret m' o /\ contents E m' P' /\
       ((exists x a rest, Permutation P (x :: rest) /\ op_get_left x = Some a /\ l =L a /\
           o = Some a /\ Permutation P' (without_left x ++ rest)) \/
        (contains_left E m l = false /\ o = None /\ Permutation P' P))) /\
    (forall r, exists m' o P', remove_right E r m = Ret m' o /\ contents E m' P' /\
       ((exists x b rest, Permutation P (x :: rest) /\ op_get_right x = Some b /\ r =R b /\
           o = Some b /\ Permutation P' (without_right x ++ rest)) \/
        (contains_right E m r = false /\ o = None /\ Permutation P' P))) /\
    (* remove_via_left / remove_via_right: the whole entry goes *)
    (forall l, exists m' o P', remove_via_left E l m = Ret m' o /\ contents E m' P' /\
       ((exists x, Permutation P (x :: P') /\ hasl l x = true /\ o = x) \/
        (contains_left E m l = false /\ o = Neither /\ Permutation P' P))) /\
    (forall r, exists m' o P', remove_via_right E r m = Ret m' o /\ contents E m' P' /\
       ((exists x, Permutation P (x :: P') /\ hasr r x = true /\ o = x) \/
        (contains_right E m r = false /\ o = Neither /\ Permutation P' P))).
  Proof.
    intros room m H. start H.
    assert (D := repr_bij E _ _ _ _ H).
    assert (EL := eqL_equiv _ OK). assert (ER := eqR_equiv _ OK).
    exists P. split; [auto|]. split; [|split; [|split]].
    - intros l. destruct (remove_left_ok E OK _ _ _ _ l H) as (m' & HI & H').
      apply view in H' as (P' & V' & PP). do 3 eexists. split; [exact HI|]. split; [exact V'|].
      rewrite (contains_left_spec E OK _ _ _ _ _ H), (contains_find_l E).
      unfold s_remove_left, s_remove_left_out, find_l in *.
      destruct (find (hasl l) P) as [x|] eqn:F; auto.
      left. destruct (take_l _ _ EL ER P l _ D F) as [A PD]. apply has_l_true in A as (a & G & A).
      exists x, a, (del_l (eqL E) P l). simpl. auto.
    - intros r. destruct (remove_right_ok E OK _ _ _ _ r H) as (m' & HI & H').
      apply view in H' as (P' & V' & PP). do 3 eexists. split; [exact HI|]. split; [exact V'|].
      rewrite (contains_right_spec E OK _ _ _ _ _ H), (contains_find_r E).
      unfold s_remove_right, s_remove_right_out, find_r in *.
      destruct (find (hasr r) P) as [x|] eqn:F; auto.
      left. destruct (take_r _ _ EL ER P r _ D F) as [A PD]. apply has_r_true in A as (a & G & A).
      exists x, a, (del_r (eqR E) P r). simpl. auto.
    - intros l. destruct (remove_via_left_ok E OK _ _ _ _ l H) as (m' & HI & H').
      apply view in H' as (P' & V' & PP). do 3 eexists. split; [exact HI|]. split; [exact V'|].
      rewrite (contains_left_spec E OK _ _ _ _ _ H), (contains_find_l E).
      unfold find_l in *.
      destruct (find (hasl l) P) as [x|] eqn:F.
      + left. destruct (take_l _ _ EL ER P l _ D F) as [A PD]. exists x. rewrite PP. auto.
      + right. repeat split; auto. rewrite PP, (del_l_none E P l F). auto.
    - intros r. destruct (remove_via_right_ok E OK _ _ _ _ r H) as (m' & HI & H').
      apply view in H' as (P' & V' & PP). do 3 eexists. split; [exact HI|]. split; [exact V'|].
      rewrite (contains_right_spec E OK _ _ _ _ _ H), (contains_find_r E).
      unfold find_r in *.
      destruct (find (hasr r) P) as [x|] eqn:F.
      + left. destruct (take_r _ _ EL ER P r _ D F) as [A PD]. exists x. rewrite PP. auto.
      + right. repeat split; auto. rewrite PP, (del_r_none E P r F). auto.
  Qed.

  (* ---- C34 ---- [set_l new x]: the entry x with its left item replaced by new. *)
  Theorem C34_swap_present : forall room m, reachable E room m ->
    exists P, contents E m P /\
    (forall old new x, find (hasl old) P = Some x ->
      exists m' P' a, op_get_left x = Some a /\ old =L a /\
        swap_left E old new m =
          Ret m' (match (if eqL E new old then None else find (hasl new) P) with
                  | None => SomeLeft a
                  | Some evicted => SomeBoth a evicted
                  end) /\
        contents E m' P' /\
        Permutation P' (set_l new x :: filter (fun y => negb (hasl new y) && negb (hasl old y)) P)) /\
    (forall old new x, find (hasr old) P = Some x ->
      exists m' P' b, op_get_right x = Some b /\ old =R b /\
        swap_right E old new m =
          Ret m' (match (if eqR E new old then None else find (hasr new) P) with
                  | None => SomeLeft b
                  | Some evicted => SomeBoth b evicted
                  end) /\
        contents E m' P' /\
        Permutation P' (set_r new x :: filter (fun y => negb (hasr new y) && negb (hasr old y)) P)).
  Proof.
    intros room m H. start H.
    assert (EL := eqL_equiv _ OK). assert (ER := eqR_equiv _ OK).
    exists P. split; [auto|]. split; intros old new x F.
    - destruct (swap_left_ok E OK _ _ _ _ old new H) as (m' & HI & H').
      apply view in H' as (P' & V' & PP). assert (F' := F). apply find_some in F' as [_ A].
      apply has_l_true in A as (a & G & A).
      exists m', P', a. repeat split; auto.
      + rewrite HI. unfold s_swap_left_out, find_l. rewrite F, G.
        destruct (eqL E new old); auto.
      + rewrite PP. unfold s_swap_left, s_swap_left_base, del_l, find_l. rewrite F.
        constructor. destruct (eqL E new old) eqn:Q.
        * erewrite filter_ext; [reflexivity|]. intros y. simpl. unfold has_l.
          destruct (op_get_left y) as [b|]; auto.
          rewrite (eqb_replace_l _ EL _ _ b Q). destruct (eqL E old b); auto.
        * rewrite filter_filter. auto.
    - destruct (swap_right_ok E OK _ _ _ _ old new H) as (m' & HI & H').
      apply view in H' as (P' & V' & PP). assert (F' := F). apply find_some in F' as [_ A].
      apply has_r_true in A as (a & G & A).
      exists m', P', a. repeat split; auto.
      + rewrite HI. unfold s_swap_right_out, find_r. rewrite F, G.
        destruct (eqR E new old); auto.
      + rewrite PP. unfold s_swap_right, s_swap_right_base, del_r, find_r. rewrite F.
        constructor. destruct (eqR E new old) eqn:Q.
        * erewrite filter_ext; [reflexivity|]. intros y. simpl. unfold has_r.
          destruct (op_get_right y) as [b|]; auto.
          rewrite (eqb_replace_l _ ER _ _ b Q). destruct (eqR E old b); auto.
        * rewrite filter_filter. auto.
  Qed.

  (* ---- C35 (false in general, see C35_swap_absent_refuted) ----
     What holds: with old absent, Neither is returned, and what disappears is exactly the
     entry of new, if new is present.  Missing: "the map is unchanged" when new is present. *)
  Theorem C35_swap_absent_partial : forall room m, reachable E room m ->
    exists P, contents E m P /\
    (forall old new, contains_left E m old = false ->
      exists m' P', swap_left E old new m = Ret m' Neither /\ contents E m' P' /\
                    Permutation P' (filter (fun x => negb (hasl new x)) P) /\
                    (contains_left E m new = false -> Permutation P' P)) /\
    (forall old new, contains_right E m old = false ->
      exists m' P', swap_right E old new m = Ret m' Neither /\ contents E m' P' /\
                    Permutation P' (filter (fun x => negb (hasr new x)) P) /\
                    (contains_right E m new = false -> Permutation P' P)).
  Proof.
    intros room m H. start H.
    assert (EL := eqL_equiv _ OK). assert (ER := eqR_equiv _ OK).
    exists P. split; [auto|]. split; intros old new A.
    - destruct (swap_left_ok E OK _ _ _ _ old new H) as (m' & HI & H').
      apply view in H' as (P' & V' & PP). exists m', P'.
      rewrite (contains_left_spec E OK _ _ _ _ _ H), (contains_find_l E) in A.
      unfold s_swap_left, s_swap_left_out, s_swap_left_base in *.
      destruct (find_l (eqL E) P old) as [?|] eqn:F; [discriminate|].
      assert (X : Permutation P' (del_l (eqL E) P new)).
      { rewrite PP. destruct (eqL E new old) eqn:Q; auto.
        rewrite (del_l_none E P new); auto. apply find_all_false. intros x Hx.
        apply (find_none _ _ F) in Hx. unfold has_l in *. destruct (op_get_left x); auto.
        rewrite (eqb_replace_l _ EL _ _ _ Q). auto. }
      repeat split; auto. intros B'.
      rewrite (contains_left_spec E OK _ _ _ _ _ H), (contains_find_l E) in B'.
      rewrite X, (del_l_none E P new); auto. destruct (find_l (eqL E) P new); auto; discriminate.
    - destruct (swap_right_ok E OK _ _ _ _ old new H) as (m' & HI & H').
      apply view in H' as (P' & V' & PP). exists m', P'.
      rewrite (contains_right_spec E OK _ _ _ _ _ H), (contains_find_r E) in A.
      unfold s_swap_right, s_swap_right_out, s_swap_right_base in *.
      destruct (find_r (eqR E) P old) as [?|] eqn:F; [discriminate|].
      assert (X : Permutation P' (del_r (eqR E) P new)).
      { rewrite PP. destruct (eqR E new old) eqn:Q; auto.
        rewrite (del_r_none E P new); auto. apply find_all_false. intros x Hx.
        apply (find_none _ _ F) in Hx. unfold has_r in *. destruct (op_get_right x); auto.
        rewrite (eqb_replace_l _ ER _ _ _ Q). auto. }
      repeat split; auto. intros B'.
      rewrite (contains_right_spec E OK _ _ _ _ _ H), (contains_find_r E) in B'.
      rewrite X, (del_r_none E P new); auto. destruct (find_r (eqR E) P new); auto; discriminate.
  Qed.

  (* ---- C36 ---- s_swap_left etc. are the effects spelled out in C34 and C35. *)
  Theorem C36_swap_checked : forall room m, reachable E room m ->
    exists P, contents E m P /\
    (forall old expected new, exists m' d P',
        swap_left_checked E old expected new m = Ret m' d /\ contents E m' P' /\
        (are_paired E m old expected = true ->
           d = s_swap_left_out (eqL E) P old new /\
           Permutation P' (s_swap_left (eqL E) P old new)) /\
        (are_paired E m old expected = false -> d = Neither /\ Permutation P' P)) /\
    (forall old expected new, exists m' d P',
        swap_right_checked E old expected new m = Ret m' d /\ contents E m' P' /\
        (are_paired E m expected old = true ->
           d = s_swap_right_out (eqR E) P old new /\
           Permutation P' (s_swap_right (eqR E) P old new)) /\
        (are_paired E m expected old = false -> d = Neither /\ Permutation P' P)).
  Proof.
    intros room m H. start H. exists P. split; [auto|]. split; intros old ex new.
    - destruct (swap_left_checked_ok E OK _ _ _ _ old ex new H) as (m' & HI & H').
      apply view in H' as (P' & V' & PP). do 3 eexists. split; [exact HI|]. split; [exact V'|].
      rewrite (are_paired_spec E OK _ _ _ _ _ _ H).
      destruct (s_are_paired (eqL E) (eqR E) P old ex); split; intros X; auto; discriminate.
    - destruct (swap_right_checked_ok E OK _ _ _ _ old ex new H) as (m' & HI & H').
      apply view in H' as (P' & V' & PP). do 3 eexists. split; [exact HI|]. split; [exact V'|].
      rewrite (are_paired_spec E OK _ _ _ _ _ _ H).
      destruct (s_are_paired (eqL E) (eqR E) P ex old); split; intros X; auto; discriminate.
  Qed.

  (* swap_*_or_insert (false in general, see C36_swap_or_insert_refuted).  What holds: the
     effect on the map is the specified one, but after the insertion the call panics if an
     item equal to new was present (swap_right_or_insert: in an entry other than the one of
     the left item to insert).  Missing: normal return in that case. *)
  Theorem C36_swap_left_or_insert_partial : forall m old new to_insert, reachable E 1 m ->
    exists P m' P', contents E m P /\ contents E m' P' /\
      (contains_left E m old = true ->
         swap_left_or_insert E old new to_insert m = Ret m' (s_swap_left_out (eqL E) P old new) /\
         Permutation P' (s_swap_left (eqL E) P old new)) /\
      (contains_left E m old = false ->
         Permutation P' (SomeBoth new to_insert ::
           filter (fun x => negb (hasl new x) && negb (hasr to_insert x)) P) /\
         swap_left_or_insert E old new to_insert m =
           if contains_left E m new then Panic m'
           else Ret m' (op_from_pair (None, find (hasr to_insert) P))).
  Proof.
    intros m old new ti H. start H.
    assert (W := swap_left_or_insert_ok E OK _ _ _ _ old new ti H).
    rewrite !(contains_left_spec E OK _ _ _ _ _ H).
    destruct (s_contains_left (eqL E) P old).
    - destruct W as (m' & HI & H'); [lia|]. apply view in H' as (P' & V' & PP).
      exists P, m', P'. repeat split; auto; discriminate.
    - destruct W as (m' & H' & HI); [lia|]. apply view in H' as (P' & V' & PP).
      exists P, m', P'. repeat split; auto; try discriminate.
      rewrite PP. unfold s_insert, del_l, del_r. rewrite filter_filter. auto.
  Qed.
  Theorem C36_swap_right_or_insert_partial : forall m old new to_insert, reachable E 1 m ->
    exists P m' P', contents E m P /\ contents E m' P' /\
      (contains_right E m old = true ->
         swap_right_or_insert E old new to_insert m = Ret m' (s_swap_right_out (eqR E) P old new) /\
         Permutation P' (s_swap_right (eqR E) P old new)) /\
      (contains_right E m old = false ->
         Permutation P' (SomeBoth to_insert new ::
           filter (fun x => negb (hasl to_insert x) && negb (hasr new x)) P) /\
         swap_right_or_insert E old new to_insert m =
           if contains_right E m new && negb (are_paired E m to_insert new) then Panic m'
           else Ret m' (op_from_pair (None, find (hasl to_insert) P))).
  Proof.
    intros m old new ti H. start H.
    assert (D := repr_bij E _ _ _ _ H).
    assert (EL := eqL_equiv _ OK). assert (ER := eqR_equiv _ OK).
    assert (W := swap_right_or_insert_ok E OK _ _ _ _ old new ti H).
    rewrite !(contains_right_spec E OK _ _ _ _ _ H), (are_paired_spec E OK _ _ _ _ _ _ H).
    destruct (s_contains_right (eqR E) P old).
    - destruct W as (m' & HI & H'); [lia|]. apply view in H' as (P' & V' & PP).
      exists P, m', P'. repeat split; auto; discriminate.
    - destruct W as (m' & H' & HI); [lia|]. apply view in H' as (P' & V' & PP).
      exists P, m', P'. repeat split; auto; try discriminate.
      + rewrite PP. unfold s_insert, del_l, del_r. rewrite filter_filter. auto.
      + rewrite HI.
        assert (X : s_contains_right (eqR E) (del_l (eqL E) P ti) new
                  = s_contains_right (eqR E) P new && negb (s_are_paired (eqL E) (eqR E) P ti new)).
        { destruct (s_contains_right (eqR E) P new) eqn:C.
          - apply contains_r_iff in C as (x & HIn & X). cbn [andb].
            assert (XA : s_are_paired (eqL E) (eqR E) P ti new = hasl ti x).
            { destruct (hasl ti x) eqn:Y.
              - apply existsb_exists. exists x. rewrite X, Y. auto.
              - apply existsb_false. intros y Hy. apply andb_false_iff.
                destruct (hasr new y) eqn:Z; auto. left.
                rewrite <- (unique_r _ _ EL ER P new x y); auto. }
            rewrite XA. destruct (hasl ti x) eqn:Y.
            + apply existsb_false. intros y Hy. apply filter_In in Hy as [Hy Z].
              destruct (hasr new y) eqn:Q; auto.
              rewrite <- (unique_r _ _ EL ER P new x y) in Z; auto. rewrite Y in Z. discriminate.
            + apply existsb_exists. exists x. split; auto. apply filter_In. rewrite Y. auto.
          - apply existsb_false. intros y Hy. apply filter_In in Hy as [Hy _].
            unfold s_contains_right in C. rewrite existsb_false in C. auto. }
        rewrite X. auto.
  Qed.
End Props.

(* ---- concrete cases and counterexamples ---- *)
(* All hashes collide.  Pairs made by insert, pair and pair_forced, a pair undone, a caught
   panic in a retain closure, an unpaired item taken by drain_filter. *)
Definition p_hist1 : list (op item item) :=
  [Insert (it 1) (it 10); Insert (it 2) (it 20); InsertLeft (it 3); InsertRight (it 30);
   Insert (it 4) (it 40); Pair (it 3) (it 30); PairForced (it 1) (it 20); Unpair (it 4) (it 40);
   Insert (it 5) (it 50); InsertLeft (it 6); InsertRight (it 60);
   Retain unit (fun _ _ => (tt, None)) tt;
   DrainFilter unit (fun _ e => (tt, Some (match e with SomeLeft l => fst l =? 6 | _ => false end)))
     tt 1 false].
Definition pm1 : pmap item item N := fst (run env_collide (with_hasher 7 0 0) p_hist1).
Definition pm1_entries : list (optional_pair item item) :=
  [SomeBoth (it 5) (it 50); SomeBoth (it 3) (it 30); SomeBoth (it 1) (it 20);
   SomeLeft (it 2); SomeLeft (it 4); SomeRight (it 10); SomeRight (it 40); SomeRight (it 60)].

Lemma p_hist1_guarded : guarded env_collide (with_hasher 7 0 0) p_hist1.
Proof.
  unfold p_hist1. cbn [guarded guard].
  repeat match goal with |- True /\ _ => split; [exact I|] end.
  split; [intros; vm_compute; reflexivity|].
  repeat match goal with |- True /\ _ => split; [exact I|] end.
  split; [intros; discriminate|]. exact I.
Qed.
Lemma pm1_reachable : forall room, room < 1000 -> reachable env_collide room pm1.
Proof.
  intros room B. exists 7, 0, 0, p_hist1. split; [|split; [exact p_hist1_guarded|reflexivity]].
  assert (X : budget p_hist1 = 10) by reflexivity. rewrite X. unfold two64. lia.
Qed.
Example pm1_contents : contents env_collide pm1 pm1_entries.
Proof.
  exists [(it 5, it 50); (it 3, it 30); (it 1, it 20)],
    [SomeLeft (it 2); SomeLeft (it 4); SomeRight (it 10); SomeRight (it 40); SomeRight (it 60)].
  repeat split; vm_compute; reflexivity.
Qed.
Example C27_case : reachable env_collide 1 pm1 /\
  get_right env_collide pm1 (it' 1) = Some (it 20) /\
  get_left env_collide pm1 (it' 20) = Some (it 1) /\
  is_left_paired env_collide pm1 (it 2) = false /\ contains_left env_collide pm1 (it' 2) = true /\
  are_paired env_collide pm1 (it 3) (it 30) = true /\ are_paired env_collide pm1 (it 3) (it 20) = false.
Proof. split; [apply pm1_reachable; reflexivity|vm_compute; repeat split; auto]. Qed.
(* insert evicting two pairs / an unpaired item and a pair *)
Example C28_case :
  res_value (insert env_collide (it' 5) (it' 30) pm1)
    = Some (SomeBoth (it 5) (it 50), SomeBoth (it 3) (it 30)) /\
  res_value (insert env_collide (it' 2) (it' 30) pm1)
    = Some (SomeLeft (it 2), SomeBoth (it 3) (it 30)) /\
  res_value (insert env_collide (it' 3) (it' 30) pm1) = Some (SomeBoth (it 3) (it 30), Neither) /\
  res_value (insert_left env_collide (it' 3) pm1) = Some (SomeBoth (it 3) (it 30)) /\
  res_value (insert_right env_collide (it' 60) pm1) = Some (SomeRight (it 60)).
Proof. vm_compute. auto. Qed.
Example C29_case :
  res_value (pair env_collide (it' 2) (it' 60) pm1) = Some true /\
  res_value (pair env_collide (it' 2) (it' 30) pm1) = Some false.
Proof. vm_compute. auto. Qed.
(* the four ways of being paired or not *)
Example C30_case :
  res_value (pair_forced env_collide (it' 5) (it' 30) pm1) = Some (SomeBoth (it 3) (it 50)) /\
  res_value (pair_forced env_collide (it' 2) (it' 30) pm1) = Some (SomeLeft (it 3)) /\
  res_value (pair_forced env_collide (it' 5) (it' 10) pm1) = Some (SomeRight (it 50)) /\
  res_value (pair_forced env_collide (it' 2) (it' 10) pm1) = Some Neither /\
  res_value (pair_forced env_collide (it' 3) (it' 30) pm1) = Some Neither.
Proof. vm_compute. auto. Qed.
Example C31_case :
  res_value (pair_forced_remove env_collide (it' 5) (it' 30) pm1) = Some (SomeBoth (it 3) (it 50)) /\
  res_value (pair_forced_remove env_collide (it' 2) (it' 30) pm1) = Some (SomeLeft (it 3)).
Proof. vm_compute. auto. Qed.
(* the hypothesis of C32_unpair_partial holds for a pair, whatever the hashes *)
Example C32_case : are_paired env_collide pm1 (it' 5) (it' 50) = true /\
  res_value (unpair env_collide (it' 5) (it' 50) pm1) = Some true /\
  res_value (unpair env_collide (it' 5) (it' 10) pm1) = Some false.
Proof. vm_compute. auto. Qed.
Example C33_case :
  res_value (remove env_collide (it' 5) (it' 50) pm1) = Some (Some (it 5, it 50)) /\
  res_value (remove env_collide (it' 5) (it' 30) pm1) = Some None /\
  res_value (remove_left env_collide (it' 5) pm1) = Some (Some (it 5)) /\
  res_value (remove_right env_collide (it' 10) pm1) = Some (Some (it 10)) /\
  res_value (remove_via_left env_collide (it' 5) pm1) = Some (SomeBoth (it 5) (it 50)) /\
  res_value (remove_via_right env_collide (it' 60) pm1) = Some (SomeRight (it 60)).
Proof. vm_compute. repeat split; auto. Qed.
Example C34_case :
  find (has_l (eqL env_collide) (it' 5)) pm1_entries = Some (SomeBoth (it 5) (it 50)) /\
  res_value (swap_left env_collide (it' 5) (it 3) pm1)
    = Some (SomeBoth (it 5) (SomeBoth (it 3) (it 30))) /\
  res_value (swap_left env_collide (it' 2) (it 4) pm1) = Some (SomeBoth (it 2) (SomeLeft (it 4))) /\
  res_value (swap_right env_collide (it' 50) (it 99) pm1) = Some (SomeLeft (it 50)).
Proof. vm_compute. auto. Qed.
Example C35_case :
  contains_left env_collide pm1 (it 9) = false /\ contains_left env_collide pm1 (it 8) = false /\
  contains_left env_collide pm1 (it' 5) = true /\ contains_right env_collide pm1 (it 77) = false /\
  match swap_left env_collide (it 9) (it 8) pm1 with
  | Ret m' r => r = Neither /\ len_left m' = len_left pm1 /\ len_right m' = len_right pm1
  | Panic _ => False
  end /\
  match swap_left env_collide (it 9) (it' 5) pm1 with
  | Ret m' r => r = Neither /\ contains_left env_collide m' (it 5) = false /\
                contains_right env_collide m' (it 50) = false /\
                get_right env_collide m' (it 3) = Some (it 30)
  | Panic _ => False
  end /\
  match swap_right env_collide (it 77) (it 30) pm1 with
  | Ret m' r => r = Neither /\ contains_left env_collide m' (it 3) = false /\
                get_right env_collide m' (it 5) = Some (it 50)
  | Panic _ => False
  end.
Proof. vm_compute. repeat split. Qed.
Example C36_case :
  res_value (swap_left_checked env_collide (it 5) (it 50) (it 6) pm1) = Some (SomeLeft (it 5)) /\
  res_value (swap_left_checked env_collide (it 5) (it 20) (it 6) pm1) = Some Neither /\
  res_value (swap_right_checked env_collide (it 50) (it 5) (it 99) pm1) = Some (SomeLeft (it 50)) /\
  res_value (swap_left_or_insert env_collide (it 9) (it 8) (it 20) pm1)
    = Some (SomeRight (SomeBoth (it 1) (it 20))) /\
  res_value (swap_right_or_insert env_collide (it 90) (it 80) (it 2) pm1)
    = Some (SomeRight (SomeLeft (it 2))).
Proof. vm_compute. repeat split; auto. Qed.

(* C32 as stated is false: 5-50 and 3-30 are pairs, unpair(5,30) answers true, and afterwards
   50 counts as paired although it has no partner, and removing it panics. *)
Theorem C32_unpair_refuted : exists (E : env item item N) m l r m',
  lawful E /\ reachable E 1 m /\ are_paired E m l r = false /\
  unpair E l r m = Ret m' true /\
  get_right E m l = Some (it 50) /\ get_right E m' l = None /\
  is_right_paired E m' (it 50) = true /\ get_left E m' (it 50) = None /\
  (exists m'', remove_via_right E (it 50) m' = Panic m'').
Proof.
  exists env_collide, pm1, (it 5), (it 30). eexists. split; [exact env_collide_ok|].
  split; [apply pm1_reachable; reflexivity|]. split; [vm_compute; reflexivity|].
  split; [vm_compute; reflexivity|]. repeat split; try (vm_compute; reflexivity).
  eexists. vm_compute. reflexivity.
Qed.

(* C35 as stated is false: old absent, new present: the entry of new is lost silently. *)
Theorem C35_swap_absent_refuted : exists (E : env item item N) m old new,
  lawful E /\ reachable E 1 m /\ contains_left E m old = false /\
  are_paired E m new (it 50) = true /\
  (exists m', swap_left E old new m = Ret m' Neither /\
              contains_left E m' new = false /\ contains_right E m' (it 50) = false).
Proof.
  exists env_collide, pm1, (it 9), (it 5). split; [exact env_collide_ok|].
  split; [apply pm1_reachable; reflexivity|]. repeat split; try (vm_compute; reflexivity).
  eexists. split; [vm_compute; reflexivity|]. split; vm_compute; reflexivity.
Qed.
Theorem C35_swap_absent_right_refuted : exists (E : env item item N) m old new,
  lawful E /\ reachable E 1 m /\ contains_right E m old = false /\
  are_paired E m (it 5) new = true /\
  (exists m', swap_right E old new m = Ret m' Neither /\
              contains_right E m' new = false /\ contains_left E m' (it 5) = false).
Proof.
  exists env_collide, pm1, (it 99), (it 50). split; [exact env_collide_ok|].
  split; [apply pm1_reachable; reflexivity|]. repeat split; try (vm_compute; reflexivity).
  eexists. split; [vm_compute; reflexivity|]. split; vm_compute; reflexivity.
Qed.

(* C36 as stated is false: the panic, and the insertion has already happened. *)
Theorem C36_swap_left_or_insert_refuted : exists (E : env item item N) m old new to_insert m',
  lawful E /\ reachable E 1 m /\ contains_left E m old = false /\
  swap_left_or_insert E old new to_insert m = Panic m' /\ are_paired E m' new to_insert = true.
Proof.
  exists env_collide, pm1, (it 9), (it 2), (it 99). eexists. split; [exact env_collide_ok|].
  split; [apply pm1_reachable; reflexivity|]. split; [vm_compute; reflexivity|].
  split; [vm_compute; reflexivity|]. vm_compute; reflexivity.
Qed.
Theorem C36_swap_right_or_insert_refuted : exists (E : env item item N) m old new to_insert m',
  lawful E /\ reachable E 1 m /\ contains_right E m old = false /\
  swap_right_or_insert E old new to_insert m = Panic m' /\ are_paired E m' to_insert new = true.
Proof.
  exists env_collide, pm1, (it 99), (it 10), (it 9). eexists. split; [exact env_collide_ok|].
  split; [apply pm1_reachable; reflexivity|]. split; [vm_compute; reflexivity|].
  split; [vm_compute; reflexivity|]. vm_compute; reflexivity.
Qed.

Print Assumptions C27_partial_bijection.
Print Assumptions C27_single_copy.
Print Assumptions C28_insert.
Print Assumptions C28_insert_one.
Print Assumptions C29_pair.
Print Assumptions C29_pair_iff.
Print Assumptions C30_pair_forced.
Print Assumptions C31_pair_forced_remove.
Print Assumptions C32_unpair_partial.
Print Assumptions C32_unpair_refuted.
Print Assumptions C33_remove.
Print Assumptions C33_remove_side.
Print Assumptions C34_swap_present.
Print Assumptions C35_swap_absent_partial.
Print Assumptions C35_swap_absent_refuted.
Print Assumptions C35_swap_absent_right_refuted.
Print Assumptions C36_swap_checked.
Print Assumptions C36_swap_left_or_insert_partial.
Print Assumptions C36_swap_left_or_insert_refuted.
Print Assumptions C36_swap_right_or_insert_partial.
Print Assumptions C36_swap_right_or_insert_refuted.
