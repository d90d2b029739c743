(* CycleMap: the properties C01-C26 of properties.jsonl (C24 is in SerdeProps.v, C06 in
   CycleMapHashFree.v).

   Vocabulary used by the statements:
   - [lawful E]: Eq is an equivalence, Hash respects it, hashbrown keeps its contract.
     Nothing is assumed about how well hashes separate items.
   - [reachable E room m]: m results from some constructor and some history of public calls,
     with at least [room] ids left in the u64 counter.
   - [contents E m P]: a for loop over m.iter() yields the pairs P in this order. *)
From Coq Require Import List NArith Lia Bool Permutation PeanoNat.
From Verif Require Import Closures Prelude RawTable Optionals CycleMap ListFacts TableFacts CycleMapSpec
  CycleMapHistory CycleMapProofs CycleMapProofs2 CycleMapProofs3 CycleMapHistoryProofs Concrete.
Import ListNotations.
Open Scope N_scope.

Definition contents {L R S} (E : env L R S) (m : cmap L R S) (P : list (L * R)) : Prop :=
  iter_all E m = Done P.

Section Props.
  Context {L R S : Type}.
  Variable E : env L R S.
  Hypothesis OK : lawful E.
  Implicit Types (m : cmap L R S) (l : L) (r : R) (P : list (L * R)).

  Notation "a =L b" := (eqL E a b = true) (at level 70).
  Notation "a =R b" := (eqR E a b = true) (at level 70).

  Lemma view : forall s c m P, Repr E s c m P -> exists P', contents E m P' /\ Permutation P' P.
  Proof. intros. eapply iter_all_ok; eauto. Qed.

  Ltac start H :=
    let s := fresh "s" in let c := fresh "c" in let P := fresh "P" in
    apply (reachable_view E OK) in H as (s & c & P & ?V & H & ?B).

  Lemma s_get_right_In : forall P l r, s_get_right (eqL E) P l = Some r ->
    exists l', In (l', r) P /\ l =L l'.
  Proof.
    unfold s_get_right, find_l. intros P l r H.
    destruct (find _ P) as [[a b]|] eqn:F; simpl in H; [|discriminate].
    injection H as ->. apply find_some in F as [F1 F2]. eauto.
  Qed.
  Lemma s_get_left_In : forall P l r, s_get_left (eqR E) P r = Some l ->
    exists r', In (l, r') P /\ r =R r'.
  Proof.
    unfold s_get_left, find_r. intros P l r H.
    destruct (find _ P) as [[a b]|] eqn:F; simpl in H; [|discriminate].
    injection H as ->. apply find_some in F as [F1 F2]. eauto.
  Qed.
  Lemma distinct_pairs_l : forall P (p q : L * R), bijective (eqL E) (eqR E) P ->
    In p P -> In q P -> fst p =L fst q -> p = q.
  Proof.
    intros P p q [D _] Hp Hq Heq.
    induction P as [|a P IH]; simpl in *; [easy|].
    apply distinct_cons in D as [A D].
    destruct Hp as [<-|Hp], Hq as [<-|Hq]; auto.
    - rewrite A in Heq; [discriminate|]. apply in_map; auto.
    - apply (equiv_sym _ (eqL_equiv _ OK)) in Heq. rewrite A in Heq; [discriminate|].
      apply in_map; auto.
  Qed.
  Lemma distinct_pairs_r : forall P (p q : L * R), bijective (eqL E) (eqR E) P ->
    In p P -> In q P -> snd p =R snd q -> p = q.
  Proof.
    intros P p q [_ D] Hp Hq Heq.
    induction P as [|a P IH]; simpl in *; [easy|].
    apply distinct_cons in D as [A D].
    destruct Hp as [<-|Hp], Hq as [<-|Hq]; auto.
    - rewrite A in Heq; [discriminate|]. apply in_map; auto.
    - apply (equiv_sym _ (eqR_equiv _ OK)) in Heq. rewrite A in Heq; [discriminate|].
      apply in_map; auto.
  Qed.
  Lemma s_get_right_iff : forall P l r, bijective (eqL E) (eqR E) P ->
    (s_get_right (eqL E) P l = Some r <-> exists l', In (l', r) P /\ l =L l').
  Proof.
    intros P l r D; split; [apply s_get_right_In|].
    intros (l' & HI & He). unfold s_get_right, find_l.
    destruct (find _ P) as [[a b]|] eqn:F.
    - apply find_some in F as [F1 F2]. simpl in *.
      assert (X : (a, b) = (l', r)).
      { eapply distinct_pairs_l; eauto. simpl.
        eapply (equiv_trans _ (eqL_equiv _ OK)); [|eauto].
        apply (equiv_sym _ (eqL_equiv _ OK)); auto. }
      injection X as -> ->. auto.
    - eapply find_none in F; [|eauto]. simpl in F. congruence.
  Qed.
  Lemma s_get_left_iff : forall P l r, bijective (eqL E) (eqR E) P ->
    (s_get_left (eqR E) P r = Some l <-> exists r', In (l, r') P /\ r =R r').
  Proof.
    intros P l r D; split; [apply s_get_left_In|].
    intros (r' & HI & He). unfold s_get_left, find_r.
    destruct (find _ P) as [[a b]|] eqn:F.
    - apply find_some in F as [F1 F2]. simpl in *.
      assert (X : (a, b) = (l, r')).
      { eapply distinct_pairs_r; eauto. simpl.
        eapply (equiv_trans _ (eqR_equiv _ OK)); [|eauto].
        apply (equiv_sym _ (eqR_equiv _ OK)); auto. }
      injection X as -> ->. auto.
    - eapply find_none in F; [|eauto]. simpl in F. congruence.
  Qed.

  (* ---- C01 ---- *)
  Theorem C01_bijection : forall room m, reachable E room m ->
    (* lookups are mutually inverse *)
    (forall l r, (exists r', get_right E m l = Some r' /\ r =R r') <->
                 (exists l', get_left E m r = Some l' /\ l =L l')) /\
    (forall l r l', get_right E m l = Some r -> get_left E m r = Some l' ->
                    l =L l' /\ get_right E m l' = Some r) /\
    (* contains_* hold exactly for items with a partner *)
    (forall l, contains_left E m l = true <-> exists r, get_right E m l = Some r) /\
    (forall r, contains_right E m r = true <-> exists l, get_left E m r = Some l) /\
    (* are_paired agrees with the lookups *)
    (forall l r, are_paired E m l r = true <-> exists r', get_right E m l = Some r' /\ r =R r') /\
    (* nobody has two partners *)
    (forall l r r', are_paired E m l r = true -> are_paired E m l r' = true -> r =R r') /\
    (forall l l' r, are_paired E m l r = true -> are_paired E m l' r = true -> l =L l').
  Proof.
    intros room m H. start H.
    assert (D := repr_bij E _ _ _ _ H).
    assert (GR : forall l r, get_right E m l = Some r <-> exists l', In (l', r) P /\ l =L l').
    { intros. rewrite (get_right_spec E OK _ _ _ _ _ H). apply s_get_right_iff; auto. }
    assert (GL : forall l r, get_left E m r = Some l <-> exists r', In (l, r') P /\ r =R r').
    { intros. rewrite (get_left_spec E OK _ _ _ _ _ H). apply s_get_left_iff; auto. }
    assert (AP : forall l r, are_paired E m l r = true <->
                             exists l' r', In (l', r') P /\ l =L l' /\ r =R r').
    { intros. rewrite (are_paired_spec E OK _ _ _ _ _ _ H). unfold s_are_paired.
      rewrite existsb_exists. split.
      - intros ([a b] & HI & X). apply andb_true_iff in X as [X Y]. eauto.
      - intros (a & b & HI & X & Y). exists (a, b). simpl. rewrite X, Y. auto. }
    assert (EL := eqL_equiv _ OK). assert (ER := eqR_equiv _ OK).
    repeat split.
    - intros (r' & G & X). apply GR in G as (l' & HI & Y). exists l'. split; auto.
      apply GL. eauto.
    - intros (l' & G & X). apply GL in G as (r' & HI & Y). exists r'. split; auto.
      apply GR. eauto.
    - apply GR in H0 as (a & HI & X). apply GL in H1 as (b & HI' & Y).
      assert (X' := distinct_pairs_r P (a, r) (l', b) D HI HI' Y). injection X' as -> ->. auto.
    - apply GR in H0 as (a & HI & X). apply GL in H1 as (b & HI' & Y).
      assert (X' := distinct_pairs_r P (a, r) (l', b) D HI HI' Y). injection X' as -> ->.
      apply GR. exists l'. split; auto. apply (equiv_refl _ EL).
    - rewrite (contains_left_spec E OK _ _ _ _ _ H). unfold s_contains_left.
      rewrite existsb_exists. intros ([a b] & HI & X). exists b. apply GR. eauto.
    - intros (r & G). apply GR in G as (a & HI & X).
      rewrite (contains_left_spec E OK _ _ _ _ _ H). apply existsb_exists. exists (a, r); auto.
    - rewrite (contains_right_spec E OK _ _ _ _ _ H). unfold s_contains_right.
      rewrite existsb_exists. intros ([a b] & HI & X). exists a. apply GL. eauto.
    - intros (l & G). apply GL in G as (a & HI & X).
      rewrite (contains_right_spec E OK _ _ _ _ _ H). apply existsb_exists. exists (l, a); auto.
    - intros A. apply AP in A as (a & b & HI & X & Y). exists b. split; auto. apply GR. eauto.
    - intros (r' & G & X). apply GR in G as (a & HI & Y). apply AP. eauto.
    - intros l r r' A1 A2. apply AP in A1 as (a & b & HI & X & Y), A2 as (a' & b' & HI' & X' & Y').
      assert (Z := distinct_pairs_l P (a, b) (a', b') D HI HI'). simpl in Z.
      rewrite <- (eqb_replace_l _ EL _ _ _ X), X' in Z. injection (Z eq_refl) as -> ->.
      eapply (equiv_trans _ ER); [eauto|]. apply (equiv_sym _ ER); auto.
    - intros l l' r A1 A2. apply AP in A1 as (a & b & HI & X & Y), A2 as (a' & b' & HI' & X' & Y').
      assert (Z := distinct_pairs_r P (a, b) (a', b') D HI HI'). simpl in Z.
      rewrite <- (eqb_replace_l _ ER _ _ _ Y), Y' in Z. injection (Z eq_refl) as -> ->.
      eapply (equiv_trans _ EL); [eauto|]. apply (equiv_sym _ EL); auto.
  Qed.

  (* ---- C02 ---- *)
  Theorem C02_single_copy_len : forall room m, reachable E room m ->
    exists P, contents E m P /\
      distinct (eqL E) (map fst P) /\ distinct (eqR E) (map snd P) /\
      len m = length P /\
      (is_empty m = true <-> P = []) /\
      (exists ls, collect single_next (single_len (iter_left m)) (iter_left m) = Done ls /\
                  Permutation ls (map fst P)) /\
      (exists rs, collect single_next (single_len (iter_right m)) (iter_right m) = Done rs /\
                  Permutation rs (map snd P)).
  Proof.
    intros room m H. start H. exists P. destruct (repr_bij E _ _ _ _ H) as [D1 D2].
    assert (LN := len_ok E _ _ _ _ H).
    repeat split; auto.
    - unfold is_empty. rewrite LN. intros X. apply Nat.eqb_eq in X. destruct P; auto; discriminate.
    - intros ->. unfold is_empty. rewrite LN. auto.
    - unfold single_len. rewrite collect_single. eexists. split; eauto. eapply iter_left_ok; eauto.
    - unfold single_len. rewrite collect_single. eexists. split; eauto. eapply iter_right_ok; eauto.
  Qed.

  (* ---- C03 ---- *)
  Theorem C03_insert : forall m l r, reachable E 1 m ->
    exists P m' P',
      contents E m P /\
      insert E l r m =
        Ret m' (op_from_pair (find (fun p => eqL E l (fst p)) P,
                              find (fun p => negb (eqL E l (fst p)) && eqR E r (snd p)) P)) /\
      contents E m' P' /\
      Permutation P' ((l, r) :: filter (fun p => negb (eqL E l (fst p)) && negb (eqR E r (snd p))) P).
  Proof.
    intros m l r H. start H.
    destruct (insert_ok E OK _ _ _ _ l r H) as (m' & HI & H'); [lia|].
    apply view in H' as (P' & V' & PP). exists P, m', P'. repeat split; auto.
    - rewrite HI. unfold s_insert_out, find_l, find_r, del_l. rewrite find_of_filter. auto.
    - rewrite PP. unfold s_insert, del_l, del_r. rewrite filter_filter. auto.
  Qed.

  (* ---- C04 ---- *)
  Theorem C04_remove_via : forall room m, reachable E room m ->
    exists P, contents E m P /\
    (forall l, exists m' P',
        remove_via_left E l m = Ret m' (find (fun p => eqL E l (fst p)) P) /\
        contents E m' P' /\ Permutation P' (filter (fun p => negb (eqL E l (fst p))) P)) /\
    (forall r, exists m' P',
        remove_via_right E r m = Ret m' (find (fun p => eqR E r (snd p)) P) /\
        contents E m' P' /\ Permutation P' (filter (fun p => negb (eqR E r (snd p))) P)).
  Proof.
    intros room m H. start H. exists P. split; [auto|]. split; intros.
    - destruct (remove_via_left_ok E OK _ _ _ _ l H) as (m' & HI & H').
      apply view in H' as (P' & V' & PP). eauto.
    - destruct (remove_via_right_ok E OK _ _ _ _ r H) as (m' & HI & H').
      apply view in H' as (P' & V' & PP). eauto.
  Qed.
  (* exactly one pair goes, or none *)
  Theorem C04_one_pair : forall room m, reachable E room m ->
    exists P, contents E m P /\
    (forall l, (exists p, find (fun p => eqL E l (fst p)) P = Some p /\
                          Permutation P (p :: filter (fun p => negb (eqL E l (fst p))) P)) \/
               (find (fun p => eqL E l (fst p)) P = None /\
                filter (fun p => negb (eqL E l (fst p))) P = P)) /\
    (forall r, (exists p, find (fun p => eqR E r (snd p)) P = Some p /\
                          Permutation P (p :: filter (fun p => negb (eqR E r (snd p))) P)) \/
               (find (fun p => eqR E r (snd p)) P = None /\
                filter (fun p => negb (eqR E r (snd p))) P = P)).
  Proof.
    intros room m H. start H. exists P. split; [auto|].
    destruct (repr_bij E _ _ _ _ H) as [D1 D2]. split.
    - intros l. destruct (split_key (eqL E) (eqL_equiv _ OK) fst P l D1) as [(z & Z & PZ & X & Y)|N].
      + left. exists z. split.
        * eapply find_perm_unique; eauto.
        * rewrite PZ at 1. constructor. rewrite (filter_perm _ _ _ PZ). simpl. rewrite X. simpl.
          rewrite filter_all_true; auto. intros; rewrite Y; auto.
      + right. split; [apply find_all_false; auto|apply filter_all_true; intros; rewrite N; auto].
    - intros l. destruct (split_key (eqR E) (eqR_equiv _ OK) snd P l D2) as [(z & Z & PZ & X & Y)|N].
      + left. exists z. split.
        * eapply find_perm_unique; eauto.
        * rewrite PZ at 1. constructor. rewrite (filter_perm _ _ _ PZ). simpl. rewrite X. simpl.
          rewrite filter_all_true; auto. intros; rewrite Y; auto.
      + right. split; [apply find_all_false; auto|apply filter_all_true; intros; rewrite N; auto].
  Qed.

  (* ---- C05 ---- *)
  Theorem C05_remove : forall room m l r, reachable E room m ->
    exists P m' o P', contents E m P /\ remove E l r m = Ret m' o /\ contents E m' P' /\
      (* paired together: exactly that pair goes and is returned *)
      ((exists p, In p P /\ l =L fst p /\ r =R snd p /\ o = Some p /\ Permutation P (p :: P')) \/
      (* not paired together: nothing happens *)
       ((forall p, In p P -> ~ (l =L fst p /\ r =R snd p)) /\ o = None /\ Permutation P P')).
  Proof.
    intros room m l r H. start H.
    destruct (remove_ok E OK _ _ _ _ l r H) as (m' & HI & H').
    apply view in H' as (P' & V' & PP). exists P, m', (s_remove_out (eqL E) (eqR E) P l r), P'.
    repeat split; auto.
    unfold s_remove_out, s_remove in *.
    destruct (s_are_paired (eqL E) (eqR E) P l r) eqn:A.
    - left. apply existsb_exists in A as (p & Hp & A). apply andb_true_iff in A as [A1 A2].
      exists p. repeat split; auto.
      + destruct (repr_bij E _ _ _ _ H) as [D1 D2].
        destruct (split_key (eqL E) (eqL_equiv _ OK) fst P l D1) as [(z & Z & PZ & X & Y)|N].
        * unfold find_l. rewrite (find_perm_unique _ _ _ _ PZ X Y). f_equal.
          eapply Permutation_in in Hp; [|exact PZ]. destruct Hp as [Hp|Hp]; auto.
          rewrite Y in A1; [discriminate|auto].
        * rewrite N in A1; [discriminate|auto].
      + destruct (repr_bij E _ _ _ _ H) as [D1 D2].
        destruct (split_key (eqL E) (eqL_equiv _ OK) fst P l D1) as [(z & Z & PZ & X & Y)|N].
        * rewrite PP. unfold del_l. rewrite (filter_perm _ _ _ PZ). simpl. rewrite X. simpl.
          rewrite filter_all_true by (intros; rewrite Y; auto).
          assert (p = z) as ->; auto.
          eapply Permutation_in in Hp; [|exact PZ]. destruct Hp as [Hp|Hp]; auto.
          rewrite Y in A1; [discriminate|auto].
        * rewrite N in A1; [discriminate|auto].
    - right. repeat split; auto; [|symmetry; auto].
      intros p Hp [A1 A2]. assert (s_are_paired (eqL E) (eqR E) P l r = true); [|congruence].
      apply existsb_exists. exists p. rewrite A1, A2. auto.
  Qed.

  (* ---- C07 ---- *)
  Theorem C07_swap_present : forall room m, reachable E room m ->
    exists P, contents E m P /\
    (forall old new l r, find (fun p => eqL E old (fst p)) P = Some (l, r) ->
      exists m' P',
        swap_left E old new m =
          Ret m' (match (if eqL E new old then None
                         else find (fun p => eqL E new (fst p)) P) with
                  | None => SomeLeft l
                  | Some evicted => SomeBoth l evicted
                  end) /\
        contents E m' P' /\
        Permutation P' ((new, r) :: filter (fun p => negb (eqL E new (fst p)) &&
                                                     negb (eqL E old (fst p))) P)) /\
    (forall old new l r, find (fun p => eqR E old (snd p)) P = Some (l, r) ->
      exists m' P',
        swap_right E old new m =
          Ret m' (match (if eqR E new old then None
                         else find (fun p => eqR E new (snd p)) P) with
                  | None => SomeLeft r
                  | Some evicted => SomeBoth r evicted
                  end) /\
        contents E m' P' /\
        Permutation P' ((l, new) :: filter (fun p => negb (eqR E new (snd p)) &&
                                                     negb (eqR E old (snd p))) P)).
  Proof.
    intros room m H. start H. exists P. split; [auto|]. split; intros old new l r F.
    - destruct (swap_left_ok E OK _ _ _ _ old new H) as (m' & HI & H').
      apply view in H' as (P' & V' & PP). exists m', P'. repeat split; auto.
      + rewrite HI. unfold s_swap_left_out, s_swap_left_evict, find_l. rewrite F.
        destruct (eqL E new old); auto.
      + rewrite PP. unfold s_swap_left, s_swap_left_base, del_l. unfold find_l. rewrite F.
        constructor. destruct (eqL E new old) eqn:Q.
        * erewrite filter_ext; [reflexivity|]. intros p. simpl.
          rewrite (eqb_replace_l _ (eqL_equiv _ OK) _ _ (fst p) Q).
          destruct (eqL E old (fst p)); auto.
        * rewrite filter_filter. auto.
    - destruct (swap_right_ok E OK _ _ _ _ old new H) as (m' & HI & H').
      apply view in H' as (P' & V' & PP). exists m', P'. repeat split; auto.
      + rewrite HI. unfold s_swap_right_out, s_swap_right_evict, find_r. rewrite F.
        destruct (eqR E new old); auto.
      + rewrite PP. unfold s_swap_right, s_swap_right_base, del_r. unfold find_r. rewrite F.
        constructor. destruct (eqR E new old) eqn:Q.
        * erewrite filter_ext; [reflexivity|]. intros p. simpl.
          rewrite (eqb_replace_l _ (eqR_equiv _ OK) _ _ (snd p) Q).
          destruct (eqR E old (snd p)); auto.
        * rewrite filter_filter. auto.
  Qed.

  (* ---- C08 (false in general, see C08_swap_absent_refuted) ----
     What holds: with old absent, Neither is returned, and what disappears is exactly the
     pair of new, if new is present.  Missing: "the map is unchanged" when new is present. *)
  Theorem C08_swap_absent_partial : forall room m, reachable E room m ->
    exists P, contents E m P /\
    (forall old new, contains_left E m old = false ->
      exists m' P', swap_left E old new m = Ret m' Neither /\ contents E m' P' /\
                    Permutation P' (filter (fun p => negb (eqL E new (fst p))) P) /\
                    (contains_left E m new = false -> Permutation P' P)) /\
    (forall old new, contains_right E m old = false ->
      exists m' P', swap_right E old new m = Ret m' Neither /\ contents E m' P' /\
                    Permutation P' (filter (fun p => negb (eqR E new (snd p))) P) /\
                    (contains_right E m new = false -> Permutation P' P)).
  Proof.
    intros room m H. start H. exists P. split; [auto|]. split; intros old new A.
    - destruct (swap_left_ok E OK _ _ _ _ old new H) as (m' & HI & H').
      apply view in H' as (P' & V' & PP). exists m', P'.
      rewrite (contains_left_spec E OK _ _ _ _ _ H) in A.
      assert (F : find_l (eqL E) P old = None).
      { apply find_all_false. intros p Hp. destruct (eqL E old (fst p)) eqn:Q; auto.
        assert (s_contains_left (eqL E) P old = true); [|congruence].
        apply existsb_exists; eauto. }
      assert (X : Permutation P' (filter (fun p => negb (eqL E new (fst p))) P)).
      { rewrite PP. unfold s_swap_left, s_swap_left_base. rewrite F.
        destruct (eqL E new old) eqn:Q; auto.
        rewrite filter_all_true; auto. intros p Hp.
        rewrite (eqb_replace_l _ (eqL_equiv _ OK) _ _ (fst p) Q).
        eapply find_none in F; [|eauto]. simpl in F. rewrite F. auto. }
      repeat split; auto.
      + rewrite HI. unfold s_swap_left_out. rewrite F. auto.
      + intros B'. rewrite X. rewrite filter_all_true; auto.
        rewrite (contains_left_spec E OK _ _ _ _ _ H) in B'.
        intros p Hp. destruct (eqL E new (fst p)) eqn:Q; auto.
        assert (s_contains_left (eqL E) P new = true); [|congruence].
        apply existsb_exists; eauto.
    - destruct (swap_right_ok E OK _ _ _ _ old new H) as (m' & HI & H').
      apply view in H' as (P' & V' & PP). exists m', P'.
      rewrite (contains_right_spec E OK _ _ _ _ _ H) in A.
      assert (F : find_r (eqR E) P old = None).
      { apply find_all_false. intros p Hp. destruct (eqR E old (snd p)) eqn:Q; auto.
        assert (s_contains_right (eqR E) P old = true); [|congruence].
        apply existsb_exists; eauto. }
      assert (X : Permutation P' (filter (fun p => negb (eqR E new (snd p))) P)).
      { rewrite PP. unfold s_swap_right, s_swap_right_base. rewrite F.
        destruct (eqR E new old) eqn:Q; auto.
        rewrite filter_all_true; auto. intros p Hp.
        rewrite (eqb_replace_l _ (eqR_equiv _ OK) _ _ (snd p) Q).
        eapply find_none in F; [|eauto]. simpl in F. rewrite F. auto. }
      repeat split; auto.
      + rewrite HI. unfold s_swap_right_out. rewrite F. auto.
      + intros B'. rewrite X. rewrite filter_all_true; auto.
        rewrite (contains_right_spec E OK _ _ _ _ _ H) in B'.
        intros p Hp. destruct (eqR E new (snd p)) eqn:Q; auto.
        assert (s_contains_right (eqR E) P new = true); [|congruence].
        apply existsb_exists; eauto.
  Qed.

  Lemma paired_dec : forall P l r,
    (exists p, In p P /\ l =L fst p /\ r =R snd p) <-> s_are_paired (eqL E) (eqR E) P l r = true.
  Proof.
    intros. unfold s_are_paired. rewrite existsb_exists. split.
    - intros (p & Hp & X & Y). exists p. rewrite X, Y. auto.
    - intros (p & Hp & X). apply andb_true_iff in X as [X Y]. eauto.
  Qed.

  (* ---- C09 ---- s_swap_left etc. are the effects spelled out in C07. *)
  Theorem C09_swap_checked : forall room m, reachable E room m ->
    exists P, contents E m P /\
    (forall old expected new, exists m' d P',
        swap_left_checked E old expected new m = Ret m' d /\ contents E m' P' /\
        ((exists p, In p P /\ old =L fst p /\ expected =R snd p) ->
           d = s_swap_left_out (eqL E) P old new /\
           Permutation P' (s_swap_left (eqL E) P old new)) /\
        (~ (exists p, In p P /\ old =L fst p /\ expected =R snd p) ->
           d = Neither /\ Permutation P' P)) /\
    (forall old expected new, exists m' d P',
        swap_right_checked E old expected new m = Ret m' d /\ contents E m' P' /\
        ((exists p, In p P /\ expected =L fst p /\ old =R snd p) ->
           d = s_swap_right_out (eqR E) P old new /\
           Permutation P' (s_swap_right (eqR E) P old new)) /\
        (~ (exists p, In p P /\ expected =L fst p /\ old =R snd p) ->
           d = Neither /\ Permutation P' P)).
  Proof.
    intros room m H. start H. exists P. split; [auto|]. split; intros old ex new.
    - destruct (swap_left_checked_ok E OK _ _ _ _ old ex new H) as (m' & HI & H').
      apply view in H' as (P' & V' & PP). do 3 eexists. split; [exact HI|]. split; [exact V'|].
      rewrite paired_dec. destruct (s_are_paired (eqL E) (eqR E) P old ex); split; intros X; auto.
      + destruct X; auto.
      + discriminate.
    - destruct (swap_right_checked_ok E OK _ _ _ _ old ex new H) as (m' & HI & H').
      apply view in H' as (P' & V' & PP). do 3 eexists. split; [exact HI|]. split; [exact V'|].
      rewrite paired_dec. destruct (s_are_paired (eqL E) (eqR E) P ex old); split; intros X; auto.
      + destruct X; auto.
      + discriminate.
  Qed.

  (* ---- C10 ---- *)
  Theorem C10_swap_left_or_insert : forall m old new to_insert, reachable E 1 m ->
    exists P m' d P', contents E m P /\
      swap_left_or_insert E old new to_insert m = Ret m' d /\ contents E m' P' /\
      ((exists p, In p P /\ old =L fst p) ->
         d = s_swap_left_out (eqL E) P old new /\
         Permutation P' (s_swap_left (eqL E) P old new)) /\
      (~ (exists p, In p P /\ old =L fst p) ->
         (* the evicted left item, the evicted right pair *)
         d = op_from_pair (option_map fst (find (fun p => eqL E new (fst p)) P),
                           find (fun p => negb (eqL E new (fst p)) && eqR E to_insert (snd p)) P) /\
         Permutation P' ((new, to_insert) ::
           filter (fun p => negb (eqL E new (fst p)) && negb (eqR E to_insert (snd p))) P)).
  Proof.
    intros m old new ti H. start H.
    destruct (swap_left_or_insert_ok E OK _ _ _ _ old new ti H) as (c' & m' & HC & HI & H'); [lia|].
    apply view in H' as (P' & V' & PP). do 4 eexists. split; [exact V|].
    split; [exact HI|]. split; [exact V'|].
    assert (X : s_contains_left (eqL E) P old = true <-> exists p, In p P /\ old =L fst p).
    { unfold s_contains_left. apply existsb_exists. }
    rewrite <- X. destruct (s_contains_left (eqL E) P old); split; intros Y; auto.
    - destruct Y; auto.
    - discriminate.
    - split.
      + unfold s_insert_out, find_l, find_r, del_l. rewrite find_of_filter.
        destruct (find _ P), (find _ P); auto.
      + rewrite PP. unfold s_insert, del_l, del_r. rewrite filter_filter. auto.
  Qed.

  (* ---- C11 (false in general, see C11_swap_right_or_insert_refuted) ----
     What holds: it behaves as specified, except that it panics, after having done the
     insertion, exactly when old is absent and the left item to insert is present.
     Missing: normal return in that case. *)
  Theorem C11_swap_right_or_insert_partial : forall m old new to_insert, reachable E 1 m ->
    exists P m' P', contents E m P /\ contents E m' P' /\
      ((exists p, In p P /\ old =R snd p) ->
         swap_right_or_insert E old new to_insert m = Ret m' (s_swap_right_out (eqR E) P old new) /\
         Permutation P' (s_swap_right (eqR E) P old new)) /\
      (~ (exists p, In p P /\ old =R snd p) ->
         Permutation P' ((to_insert, new) ::
           filter (fun p => negb (eqL E to_insert (fst p)) && negb (eqR E new (snd p))) P) /\
         ((exists p, In p P /\ to_insert =L fst p) ->
            swap_right_or_insert E old new to_insert m = Panic m') /\
         (~ (exists p, In p P /\ to_insert =L fst p) ->
            swap_right_or_insert E old new to_insert m =
              Ret m' (op_from_pair (None, find (fun p => eqR E new (snd p)) P)))).
  Proof.
    intros m old new ti H. start H.
    destruct (swap_right_or_insert_ok E OK _ _ _ _ old new ti H) as (c' & m' & HC & HI & H'); [lia|].
    apply view in H' as (P' & V' & PP). exists P, m', P'. split; [exact V|]. split; [exact V'|].
    assert (X : s_contains_right (eqR E) P old = true <-> exists p, In p P /\ old =R snd p).
    { unfold s_contains_right. apply existsb_exists. }
    assert (Y : s_contains_left (eqL E) P ti = true <-> exists p, In p P /\ ti =L fst p).
    { unfold s_contains_left. apply existsb_exists. }
    rewrite <- X, <- Y.
    destruct (s_contains_right (eqR E) P old); split; intros Z; auto.
    - destruct Z; auto.
    - discriminate.
    - split; [rewrite PP; unfold s_insert, del_l, del_r; rewrite filter_filter; auto|].
      destruct (s_contains_left (eqL E) P ti); split; intros W; auto.
      + destruct W; auto.
      + discriminate.
  Qed.

  (* ---- C12 ---- A call made on a reachable map with enough ids panics only if its own
     closure panics, or in the case of C11. *)
  Definition closure_panics (o : op L R) : Prop :=
    match o with
    | Retain X f _ | DrainFilter X f _ _ _ => exists x l r, snd (f x l r) = None
    | _ => False
    end.
  Definition panicked (w : out L R) : Prop :=
    match w with OPanic | OItems _ true => True | _ => False end.

  Theorem C12_no_internal_panic : forall m o, reachable E (ids o) m ->
    panicked (snd (step E m o)) ->
    closure_panics o \/
    (exists old new to_insert, o = SwapRightOrInsert old new to_insert /\
       contains_right E m old = false /\ contains_left E m to_insert = true).
  Proof.
    intros m o H PN. start H.
    destruct (step_ok E OK _ _ _ _ o H B) as (P' & c' & ST & H' & _).
    clear H'. destruct (step E m o) as [m1 w]. cbn [fst snd] in *.
    destruct o; simpl in ST; try (destruct ST as [_ ST]; rewrite ST in PN; destruct PN).
    - destruct (s_are_paired (eqL E) (eqR E) P old expected); destruct ST as [_ ST];
        rewrite ST in PN; destruct PN.
    - destruct (s_contains_left (eqL E) P old); destruct ST as [_ ST];
        rewrite ST in PN; destruct PN.
    - destruct (s_are_paired (eqL E) (eqR E) P expected old); destruct ST as [_ ST];
        rewrite ST in PN; destruct PN.
    - right. exists old, new, to_insert. split; auto.
      rewrite (contains_right_spec E OK _ _ _ _ _ H), (contains_left_spec E OK _ _ _ _ _ H).
      destruct (s_contains_right (eqR E) P old); destruct ST as [_ ST]; rewrite ST in PN.
      + destruct PN.
      + destruct (s_contains_left (eqL E) P to_insert); auto.
    - destruct ST as (_ & Q & _ & ST). rewrite ST in PN; destruct PN.
    - destruct ST as (_ & Q & _ & ST). rewrite ST in PN; destruct PN.
    - destruct ST as (_ & Q & _ & ST). rewrite ST in PN; destruct PN.
    - left. destruct ST as (Q & _ & ST). simpl.
      assert (F := s_filter_panics (uncurried f) Q x).
      destruct (s_filter (uncurried f) x Q) as [[[x' yes] no] [|]].
      + destruct F as (y & a & F); auto. unfold uncurried in F. eauto.
      + destruct ST as [_ ST]. rewrite ST in PN; destruct PN.
    - destruct ST as (_ & Q & _ & ST). rewrite ST in PN; destruct PN.
    - left. destruct ST as (Q & _ & ST). simpl.
      assert (F := s_filter_panics (uncurried f) Q x).
      destruct (s_filter (uncurried f) x Q) as [[[x' yes] no] [|]].
      + destruct F as (y & a & F); auto. unfold uncurried in F. eauto.
      + simpl in ST. destruct leak; destruct ST as [_ ST]; rewrite ST in PN; destruct PN.
    - destruct ST as (_ & b & ST). rewrite ST in PN; destruct PN.
  Qed.
End Props.

(* ---- concrete cases and counterexamples ---- *)

(* A map with a history: all hashes collide, two pairs evicted, one swap, one caught panic
   inside a retain closure. *)
Definition hist1 : list (op item item) :=
  [Insert (it 1) (it 10); Insert (it 2) (it 20); Insert (it 3) (it 30); Insert (it 1) (it 20);
   SwapLeft (it 3) (it 4); Retain unit (fun _ _ _ => (tt, None)) tt; Insert (it 5) (it 50)].
Definition m1 : cmap item item N := fst (run env_collide (with_hasher 7 0 0) hist1).

Lemma m1_reachable : reachable env_collide 5 m1.
Proof. exists 7, 0, 0, hist1. split; [vm_compute; reflexivity|reflexivity]. Qed.
Example m1_contents : contents env_collide m1 [(it 4, it 30); (it 1, it 20); (it 5, it 50)].
Proof. vm_compute. reflexivity. Qed.
Example C01_case : reachable env_collide 5 m1 /\
  get_right env_collide m1 (it' 4) = Some (it 30) /\
  get_left env_collide m1 (it' 30) = Some (it 4) /\
  are_paired env_collide m1 (it 4) (it 30) = true /\ contains_left env_collide m1 (it 3) = false.
Proof. split; [exact m1_reachable|vm_compute; auto]. Qed.
Example C02_case : len m1 = 3%nat /\ is_empty m1 = false.
Proof. vm_compute. auto. Qed.
(* insert evicting two different pairs, reporting both *)
Example C03_case : reachable env_collide 1 m1 /\
  res_value (insert env_collide (it' 4) (it' 50) m1) =
    Some (SomeBoth (it 4, it 30) (it 5, it 50)).
Proof. split; [|vm_compute; auto]. exists 7, 0, 0, hist1. split; vm_compute; reflexivity. Qed.
(* re-inserting an existing pair reports it once *)
Example C03_case_same : res_value (insert env_collide (it' 4) (it' 30) m1) =
  Some (SomeLeft (it 4, it 30)).
Proof. vm_compute. auto. Qed.
Example C04_case : res_value (remove_via_right env_collide (it' 50) m1) = Some (Some (it 5, it 50))
  /\ res_value (remove_via_left env_collide (it 9) m1) = Some None.
Proof. vm_compute. auto. Qed.
Example C05_case : res_value (remove env_collide (it' 5) (it' 50) m1) = Some (Some (it 5, it 50))
  /\ res_value (remove env_collide (it 5) (it 30) m1) = Some None.
Proof. vm_compute. auto. Qed.
Example C07_case :
  find (fun p => eqL env_collide (it' 5) (fst p)) [(it 4, it 30); (it 1, it 20); (it 5, it 50)]
    = Some (it 5, it 50) /\
  res_value (swap_left env_collide (it' 5) (it 1) m1) = Some (SomeBoth (it 5) (it 1, it 20)) /\
  res_value (swap_left env_collide (it 5) (it' 5) m1) = Some (SomeLeft (it 5)) /\
  res_value (swap_right env_collide (it 50) (it 20) m1) = Some (SomeBoth (it 50) (it 1, it 20)).
Proof. vm_compute. auto. Qed.
Example C08_case :
  contains_left env_collide m1 (it 9) = false /\ contains_left env_collide m1 (it 8) = false /\
  contains_left env_collide m1 (it' 5) = true /\ contains_right env_collide m1 (it 99) = false /\
  match swap_left env_collide (it 9) (it 8) m1 with
  | Ret m' r => r = Neither /\ len m' = len m1
  | Panic _ => False
  end /\
  match swap_left env_collide (it 9) (it' 5) m1 with
  | Ret m' r => r = Neither /\ contains_right env_collide m' (it 50) = false /\
                get_right env_collide m' (it 1) = Some (it 20)
  | Panic _ => False
  end /\
  match swap_right env_collide (it 99) (it 20) m1 with
  | Ret m' r => r = Neither /\ contains_left env_collide m' (it 1) = false /\
                get_right env_collide m' (it 5) = Some (it 50)
  | Panic _ => False
  end.
Proof. vm_compute. repeat split. Qed.
Example C09_case :
  res_value (swap_left_checked env_collide (it 5) (it 50) (it 6) m1) = Some (SomeLeft (it 5)) /\
  res_value (swap_left_checked env_collide (it 5) (it 20) (it 6) m1) = Some Neither /\
  res_value (swap_right_checked env_collide (it 50) (it 5) (it 60) m1) = Some (SomeLeft (it 50)).
Proof. vm_compute. auto. Qed.
Example C10_case :
  res_value (swap_left_or_insert env_collide (it 9) (it 5) (it 20) m1) =
    Some (SomeBoth (it 5) (it 1, it 20)) /\
  res_value (swap_left_or_insert env_collide (it 5) (it 1) (it 99) m1) =
    Some (SomeBoth (it 5) (it 1, it 20)).
Proof. vm_compute. auto. Qed.
Example C11_case :
  res_value (swap_right_or_insert env_collide (it 99) (it 50) (it 9) m1) =
    Some (SomeRight (it 5, it 50)).
Proof. vm_compute. auto. Qed.
Example C12_case : panicked (snd (step env_collide m1 (Retain unit (fun _ _ _ => (tt, None)) tt)))
  /\ ~ panicked (snd (step env_collide m1 (Retain unit (fun _ _ _ => (tt, Some false)) tt))).
Proof. vm_compute. auto. Qed.

(* C08 as stated is false: old absent, new present: the pair of new is lost silently. *)
Theorem C08_swap_absent_refuted : exists (E : env item item N) m old new P P',
  lawful E /\ reachable E 1 m /\ contains_left E m old = false /\
  contents E m P /\ In (new, it 50) P /\
  (exists m', swap_left E old new m = Ret m' Neither /\ contents E m' P' /\
              contains_left E m' new = false /\ contains_right E m' (it 50) = false /\
              ~ Permutation P' P).
Proof.
  exists env_collide, m1, (it 9), (it 5), [(it 4, it 30); (it 1, it 20); (it 5, it 50)],
    [(it 4, it 30); (it 1, it 20)].
  split; [exact env_collide_ok|].
  split; [exists 7, 0, 0, hist1; split; vm_compute; reflexivity|].
  split; [vm_compute; auto|]. split; [exact m1_contents|]. split; [simpl; auto|].
  eexists. split; [vm_compute; reflexivity|]. repeat split; try (vm_compute; reflexivity).
  intros P. apply Permutation_length in P. discriminate.
Qed.
Theorem C08_swap_absent_right_refuted : exists (E : env item item N) m old new,
  lawful E /\ reachable E 1 m /\ contains_right E m old = false /\
  contains_right E m new = true /\ contains_left E m (it 5) = true /\
  (exists m', swap_right E old new m = Ret m' Neither /\
              contains_right E m' new = false /\ contains_left E m' (it 5) = false).
Proof.
  exists env_collide, m1, (it 99), (it 50). split; [exact env_collide_ok|].
  split; [exists 7, 0, 0, hist1; split; vm_compute; reflexivity|].
  repeat split; try (vm_compute; reflexivity).
  eexists. split; [vm_compute; reflexivity|]. split; vm_compute; reflexivity.
Qed.

(* C11 as stated is false: the panic, and the insertion has already happened. *)
Theorem C11_swap_right_or_insert_refuted : exists (E : env item item N) m old new to_insert m',
  lawful E /\ reachable E 1 m /\ contains_right E m old = false /\
  swap_right_or_insert E old new to_insert m = Panic m' /\
  are_paired E m to_insert (it 50) = true /\ are_paired E m' to_insert new = true.
Proof.
  exists env_collide, m1, (it 99), (it 88), (it 5). eexists. split; [exact env_collide_ok|].
  split; [exists 7, 0, 0, hist1; split; vm_compute; reflexivity|].
  split; [vm_compute; reflexivity|]. split; [vm_compute; reflexivity|].
  split; vm_compute; reflexivity.
Qed.

Print Assumptions C01_bijection.
Print Assumptions C02_single_copy_len.
Print Assumptions C03_insert.
Print Assumptions C04_remove_via.
Print Assumptions C04_one_pair.
Print Assumptions C05_remove.
Print Assumptions C07_swap_present.
Print Assumptions C08_swap_absent_partial.
Print Assumptions C08_swap_absent_refuted.
Print Assumptions C08_swap_absent_right_refuted.
Print Assumptions C09_swap_checked.
Print Assumptions C10_swap_left_or_insert.
Print Assumptions C11_swap_right_or_insert_partial.
Print Assumptions C11_swap_right_or_insert_refuted.
Print Assumptions C12_no_internal_panic.
