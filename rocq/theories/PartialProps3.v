(* PartialCycleMap: properties C41-C44, C46, C66 (ids), C67 (borrowed keys).
   Vocabulary as in PartialProps.v and PartialProps2.v. *)
From Coq Require Import List NArith Lia Bool Permutation PeanoNat.
From Verif Require CycleMapSpec CycleMapProps CycleMapProps3.
From Verif Require Import Closures Prelude RawTable Optionals PartialCycleMap ListFacts TableFacts
  PartialSpec PartialHistory IterFacts PartialProofs PartialProofs2 PartialProofs3 PartialProofs4
  PartialProofs5 PartialProofs6 PartialProofs7 PartialProofs8 PartialHistoryProofs Concrete
  PartialProps PartialProps2.
Import ListNotations.
Open Scope N_scope.

Section Props3.
  Context {L R S : Type}.
  Variable E : env L R S.
  Hypothesis OK : lawful E.
  Notation entry := (optional_pair L R).
  Implicit Types (m : pmap L R S) (l : L) (r : R) (P : list entry).
  Notation both := (fun p : L * R => SomeBoth (fst p) (snd p)).
  Notation no_left := (fun e : entry => negb (has_left_item e)).
  Let EL := eqL_equiv _ OK.
  Let ER := eqR_equiv _ OK.

  Ltac start H :=
    let s := fresh "s" in let c := fresh "c" in let P := fresh "P" in
    apply (reachable_view E OK) in H as (s & c & P & ?V & H & ?B).

  (* ---- C41 (false, see C41_retain_refuted) ----
     What the code does: the answer is inverted.  retain visits the entries with a left item
     and drops those answered TRUE; the unpaired right items are not visited and stay.
     A panicking closure leaves the map as it was.
     Missing: keeping (instead of dropping) what the closure accepts; visiting unpaired
     right items. *)
  Theorem C41_retain_partial : forall {X} (f : X -> entry -> X * verdict) x room m,
    reachable E room m ->
    exists P Q, contents E m P /\ Permutation Q (filter has_left_item P) /\
      (forall x' yes no, s_filter f x Q = (x', yes, no, false) ->
         exists m', retain E f (m, x) = Ret (m', x') tt /\
                    behaves_as E room m' (no ++ filter no_left P)) /\
      (forall x' yes no, s_filter f x Q = (x', yes, no, true) ->
         retain E f (m, x) = Panic (m, x')).
  Proof.
    intros X f x room m H. start H. destruct (retain_ok E OK f s c m P x H) as (Q & _ & PQ & W).
    exists P, Q. repeat split; auto; intros x' yes no F; rewrite F in W; auto.
    destruct W as (m' & W & H'). exists m'. split; auto. eapply (repr_behaves E OK); eauto.
  Qed.
  Theorem C41_retain_paired_partial : forall {X} (f : X -> L * R -> X * verdict) x room m,
    reachable E room m ->
    exists P Q, contents E m P /\ Permutation (map both Q) (filter is_both P) /\
      (forall x' yes no, s_filter f x Q = (x', yes, no, false) ->
         exists m', retain_paired E f (m, x) = Ret (m', x') tt /\
                    behaves_as E room m' (map both no ++ filter (fun e => negb (is_both e)) P)) /\
      (forall x' yes no, s_filter f x Q = (x', yes, no, true) ->
         retain_paired E f (m, x) = Panic (m, x')).
  Proof.
    intros X f x room m H. start H. destruct (retain_paired_ok E OK f s c m P x H) as (Q & _ & PQ & W).
    exists P, Q. split; auto. split.
    { rewrite PQ. clear. unfold s_pairs. induction P as [|e P IH]; auto. destruct e; simpl; auto. }
    split; intros x' yes no F; rewrite F in W; auto.
    destruct W as (m' & W & H'). exists m'. split; auto. eapply (repr_behaves E OK); eauto.
  Qed.
  Theorem C41_retain_unpaired_partial : forall {X} (f : X -> entry -> X * verdict) x room m,
    reachable E room m ->
    exists P Q, contents E m P /\ Permutation Q (filter (fun e => negb (is_both e)) P) /\
      (forall x' yes no, s_filter f x Q = (x', yes, no, false) ->
         exists m', retain_unpaired E f (m, x) = Ret (m', x') tt /\
                    behaves_as E room m' (no ++ filter is_both P)) /\
      (forall x' yes no, s_filter f x Q = (x', yes, no, true) ->
         retain_unpaired E f (m, x) = Panic (m, x')).
  Proof.
    intros X f x room m H. start H.
    destruct (retain_unpaired_ok E OK f s c m P x H) as (Q & _ & PQ & W).
    exists P, Q. split; auto. split; auto.
    split; intros x' yes no F; rewrite F in W; auto.
    destruct W as (m' & W & H'). exists m'. split; auto. eapply (repr_behaves E OK); eauto.
  Qed.
  (* with plain predicates: what p accepts is dropped *)
  Theorem C41_retain_pred_partial : forall (p : entry -> bool) room m, reachable E room m ->
    exists P m', contents E m P /\
      retain E (fun (_ : unit) e => (tt, Some (p e))) (m, tt) = Ret (m', tt) tt /\
      behaves_as E room m' (filter (fun e => negb (has_left_item e && p e)) P).
  Proof.
    intros p room m H. set (f := fun (_ : unit) e => (tt, Some (p e))).
    start H. destruct (retain_ok E OK f s c m P tt H) as (Q & _ & PQ & W).
    destruct (s_filter_total f p (fun _ _ => eq_refl) Q tt) as ([] & F). rewrite F in W.
    destruct W as (m' & W & H'). exists P, m'. split; auto. split; auto.
    eapply (repr_behaves E OK); [|exact B]. eapply (repr_perm E OK); [|exact H'].
    rewrite (filter_perm _ _ _ PQ). clear.
    induction P as [|e P IH]; auto. cbn [filter]. destruct (has_left_item e) eqn:HL; cbn [negb andb].
    - cbn [filter]. destruct (p e); cbn [negb app]; auto.
    - rewrite <- Permutation_middle. constructor. auto.
  Qed.

  (* ---- C42 (false, see C42_equality_refuted) ----
     Exactly what == computes, plus: equal contents compare equal; equality is exact on maps
     without unpaired items. *)
  Lemma op_eqb_split : forall x y : entry, entry_eq (eqL E) (eqR E) x y = true ->
    match x, y with
    | SomeLeft a, SomeLeft b => eqL E a b = true
    | SomeRight a, SomeRight b => eqR E a b = true
    | SomeBoth a b, SomeBoth a' b' => eqL E a a' = true /\ eqR E b b' = true
    | Neither, Neither => True
    | _, _ => False
    end.
  Proof.
    intros x y. destruct x, y; simpl; auto; try discriminate.
    intros H. apply andb_true_iff in H. auto.
  Qed.
  Lemma same_lefts_le : forall P P', partial_bijection (eqL E) (eqR E) P ->
    (forall x, In x P -> exists y, In y P' /\ entry_eq (eqL E) (eqR E) x y = true) ->
    (length (lefts P) <= length (lefts P'))%nat.
  Proof.
    intros P P' (D & _ & _) M. apply (distinct_embed_length _ EL); auto.
    intros a Ha. apply in_lefts in Ha as (x & Hx & G). destruct (M x Hx) as (y & Hy & Q).
    apply op_eqb_split in Q.
    destruct x, y; simpl in *; try discriminate; try contradiction; inversion G; subst.
    - exists l0. split; auto. apply in_lefts. eexists; split; [exact Hy|auto].
    - exists l0. destruct Q. split; auto. apply in_lefts. eexists; split; [exact Hy|auto].
  Qed.
  Lemma entry_eq_sym : forall x y, entry_eq (eqL E) (eqR E) x y = true ->
    entry_eq (eqL E) (eqR E) y x = true.
  Proof.
    intros x y H. apply op_eqb_split in H. destruct x, y; try contradiction; simpl; auto.
    - apply (equiv_sym _ EL); auto.
    - apply (equiv_sym _ ER); auto.
    - destruct H. rewrite (equiv_sym _ EL), (equiv_sym _ ER); auto.
  Qed.
  Lemma all_both : forall P, (forall e, In e P -> is_both e = true) -> P = map both (s_pairs P).
  Proof.
    unfold s_pairs. induction P as [|e P IH]; intros H; auto.
    assert (X := H e (or_introl eq_refl)). destruct e; try discriminate. simpl. f_equal.
    apply IH. intros; apply H; right; auto.
  Qed.
  Lemma lefts_both : forall Q : list (L * R), lefts (map both Q) = map fst Q.
  Proof. unfold lefts. induction Q; simpl; auto. f_equal; auto. Qed.
  Lemma rights_both : forall Q : list (L * R), rights (map both Q) = map snd Q.
  Proof. unfold rights. induction Q; simpl; auto. f_equal; auto. Qed.

  Theorem C42_equality_partial : forall room room' m m',
    reachable E room m -> reachable E room' m' ->
    exists P P' b, contents E m P /\ contents E m' P' /\ map_eq E m m' = Done b /\
      (b = true <->
         (len_left m = len_left m' \/ len_right m = len_right m') /\
         (forall l r, In (SomeBoth l r) P -> are_paired E m' l r = true) /\
         (forall l, In (SomeLeft l) P -> get_right E m' l = None)) /\
      (same_entries (eqL E) (eqR E) P P' -> b = true) /\
      ((forall e, In e P \/ In e P' -> is_both e = true) ->
         (b = true <-> same_entries (eqL E) (eqR E) P P')).
  Proof.
    intros room room' m m' H H'. start H. start H'. rename P0 into P', s0 into s', c0 into c'.
    assert (D := repr_bij E _ _ _ _ H). assert (D' := repr_bij E _ _ _ _ H').
    assert (CH : s_eq E P P' = true <->
         (len_left m = len_left m' \/ len_right m = len_right m') /\
         (forall l r, In (SomeBoth l r) P -> are_paired E m' l r = true) /\
         (forall l, In (SomeLeft l) P -> get_right E m' l = None)).
    { unfold s_eq. rewrite (len_left_ok E _ _ _ _ H), (len_left_ok E _ _ _ _ H'),
        (len_right_ok E _ _ _ _ H), (len_right_ok E _ _ _ _ H').
      rewrite andb_true_iff, forallb_forall, negb_true_iff, andb_false_iff, !negb_false_iff, !Nat.eqb_eq.
      split; intros [A A']; (split; [exact A|]).
      - split.
        + intros l r I. rewrite (are_paired_spec E OK _ _ _ _ _ _ H'). apply (A' _ I).
        + intros l I. rewrite (get_right_spec E OK _ _ _ _ _ H'). specialize (A' _ I). simpl in A'.
          destruct (s_get_right (eqL E) P' l); auto. discriminate.
      - destruct A' as [A1 A2]. intros e He. destruct e; simpl; auto.
        + rewrite <- (get_right_spec E OK _ _ _ _ _ H'). rewrite A2; auto.
        + rewrite <- (are_paired_spec E OK _ _ _ _ _ _ H'). auto. }
    exists P, P', (s_eq E P P'). split; auto. split; auto.
    split; [eapply map_eq_ok; eauto|]. split; [exact CH|].
    assert (SM : same_entries (eqL E) (eqR E) P P' -> s_eq E P P' = true).
    { intros [A A']. apply CH.
      rewrite (len_left_ok E _ _ _ _ H), (len_left_ok E _ _ _ _ H').
      split; [left|split].
      - assert (X := same_lefts_le P P' D A). apply Nat.le_antisymm; auto.
        apply same_lefts_le; auto. intros y Hy. destruct (A' y Hy) as (x & Hx & Q). exists x.
        split; auto. apply entry_eq_sym; auto.
      - intros l r I. rewrite (are_paired_spec E OK _ _ _ _ _ _ H'). apply paired_iff.
        destruct (A _ I) as (y & Hy & Q). apply op_eqb_split in Q.
        destruct y; try contradiction. destruct Q. eauto.
      - intros l I. rewrite (get_right_spec E OK _ _ _ _ _ H').
        destruct (s_get_right (eqL E) P' l) as [r|] eqn:G; auto. exfalso.
        apply (get_r_iff _ _ EL ER) in G as (a & Ia & Q); auto.
        destruct (A _ I) as (y & Hy & Q'). apply op_eqb_split in Q'.
        destruct y; try contradiction.
        assert (SomeLeft l0 = SomeBoth a r); [|discriminate].
        eapply (unique_l _ _ EL ER P' l); eauto. }
    split; auto. intros AB. split; auto. intros SE.
    assert (EP : P = map both (s_pairs P)) by (apply all_both; auto).
    assert (EP' : P' = map both (s_pairs P')) by (apply all_both; auto).
    revert EP EP'. generalize (s_pairs P) as Q, (s_pairs P') as Q'. intros Q Q' EP EP'.
    assert (BQ : CycleMapSpec.bijective (eqL E) (eqR E) Q).
    { destruct D as (D1 & D2 & _). rewrite EP, lefts_both in D1. rewrite EP, rights_both in D2.
      split; auto. }
    assert (BQ' : CycleMapSpec.bijective (eqL E) (eqR E) Q').
    { destruct D' as (D1 & D2 & _). rewrite EP', lefts_both in D1. rewrite EP', rights_both in D2.
      split; auto. }
    assert (SP : CycleMapSpec.same_pairs (eqL E) (eqR E) Q Q').
    { apply (CycleMapProps3.eq_spec E OK Q Q' BQ BQ').
      apply CH in SE as (LN & A & _). rewrite andb_true_iff, Nat.eqb_eq, forallb_forall. split.
      - rewrite (len_left_ok E _ _ _ _ H), (len_left_ok E _ _ _ _ H'),
          (len_right_ok E _ _ _ _ H), (len_right_ok E _ _ _ _ H') in LN.
        rewrite EP, EP', !lefts_both, !rights_both, !map_length in LN. destruct LN; auto.
      - intros [a b] I. apply CycleMapProps.paired_dec.
        assert (AP : are_paired E m' a b = true).
        { apply A. rewrite EP. apply in_map_iff. exists (a, b). auto. }
        rewrite (are_paired_spec E OK _ _ _ _ _ _ H') in AP. apply paired_iff in AP.
        destruct AP as (a' & b' & I' & Q1 & Q2). exists (a', b'). split; auto.
        rewrite EP' in I'. apply in_map_iff in I' as ([u v] & EQ & I'). inversion EQ; subst. auto. }
    destruct SP as [S1 S2]. rewrite EP, EP'. split; intros e I; apply in_map_iff in I as ([u v] & <- & I).
    - destruct (S1 _ I) as ([u' v'] & I' & Q1 & Q2). exists (SomeBoth u' v'). split.
      + apply in_map_iff. exists (u', v'). auto.
      + simpl in *. rewrite Q1, Q2. auto.
    - destruct (S2 _ I) as ([u' v'] & I' & Q1 & Q2). exists (SomeBoth u' v'). split.
      + apply in_map_iff. exists (u', v'). auto.
      + simpl in *. rewrite Q1, Q2. auto.
  Qed.
  Theorem C42_reflexive : forall room m, reachable E room m -> map_eq E m m = Done true.
  Proof.
    intros room m H. assert (H0 := H).
    destruct (C42_equality_partial room room m m H H0) as (P & P' & b & V & V' & -> & _ & SM & _).
    f_equal. apply SM. destruct V as (A & B & V1 & V2 & ->), V' as (A' & B' & V1' & V2' & ->).
    assert (A' = A) by congruence. assert (B' = B) by congruence. subst.
    assert (RF : forall x : entry, entry_eq (eqL E) (eqR E) x x = true).
    { intros x. destruct x; simpl; auto; rewrite ?(equiv_refl _ EL), ?(equiv_refl _ ER); auto. }
    split; intros x Hx; exists x; auto.
  Qed.

  (* ---- C43 (false in general, see the C43_*_refuted theorems) ----
     iter(): size_hint is exact at every point.  iter_paired(): the upper bound holds.
     drain(): the lower bound holds and at most one item more comes.  drain_filter(): the
     lower bound is 0.
     Missing: lower bound of iter_paired, both bounds of iter_unpaired, upper bounds of
     drain and drain_filter. *)
  Theorem C43_size_hint_partial : forall room m n, reachable E room m ->
    (exists out it rest, nexts (iter_next E m) n (iter m) = Done (out, it) /\
       collect (iter_next E m) (length it) it = Done rest /\
       iter_size_hint it = (length rest, Some (length rest))) /\
    (exists out it rest, nexts (paired_next E m) n (iter_paired m) = Done (out, it) /\
       paired_rest E m it = Done rest /\
       exists k, paired_size_hint it = (k, Some k) /\ (length rest <= k)%nat) /\
    (exists Q w d, drain_nexts E n (drain m)
         = Ret d (firstn n (map Some (Q ++ w)) ++ repeat None (n - length (Q ++ w))) /\
       (length w <= 1)%nat /\
       drain_size_hint d = (length Q - n, Some (length Q - n))%nat).
  Proof.
    intros room m n H. apply (reachable_repr E OK) in H as (s & c & P & H & B).
    split; [|split].
    - destruct H as (Z & H & ->). destruct (rep_order_l _ _ _ _ _ H) as (Y & PY & SL).
      destruct (nexts_as _ _ (iter_steps E OK s c m Z H) n (iter m) (filter has_left_item (map snd Y)))
        as (it & EQ & VI).
      { exists Y. split; [|split; auto]. intros y Hy. eapply Permutation_in; [symmetry; eauto|auto]. }
      assert (LN : length (skipn n (filter has_left_item (map snd Y))) = length it).
      { destruct VI as (W & _ & -> & ->). rewrite filter_left_length, (lefts_length E s). auto. }
      exists (firstn n (map Some (filter has_left_item (map snd Y))) ++
              repeat None (n - length (filter has_left_item (map snd Y)))), it,
             (skipn n (filter has_left_item (map snd Y))).
      split; [exact EQ|]. split.
      + eapply collect_as; [apply (iter_steps E OK s c m Z H)|exact VI|lia].
      + unfold iter_size_hint. rewrite LN. auto.
    - destruct H as (Z & H & ->). destruct (rep_order_l _ _ _ _ _ H) as (Y & PY & SL).
      destruct (nexts_as _ _ (paired_steps E OK s c m Z H) n (iter_paired m) (s_pairs (map snd Y)))
        as (it & EQ & VI).
      { exists Y. split; [|split; auto]. intros y Hy. eapply Permutation_in; [symmetry; eauto|auto]. }
      assert (LN : (length (skipn n (s_pairs (map snd Y))) <= length it)%nat).
      { destruct VI as (W & _ & -> & ->). rewrite (lefts_length E s). apply s_pairs_length. }
      do 3 eexists. split; [exact EQ|]. split.
      + eapply collect_as; [apply (paired_steps E OK s c m Z H)|exact VI|lia].
      + exists (length it). split; auto.
    - destruct (drain_ok E OK s c m P n H) as (Q & w & d & d' & EA & PQ & _ & _ & LW & EN & _).
      exists Q, w, d. split; [exact EN|]. split; [rewrite LW; apply Nat.le_min_l|].
      assert (LD : forall k d0 d1 o, drain_nexts E k d0 = Ret d1 o ->
                length (di_left d1) = (length (di_left d0) - k)%nat).
      { clear. induction k as [|k IH]; intros d0 d1 o F; cbn [drain_nexts] in F.
        - inversion F; subst. lia.
        - assert (ST : forall a d2, drain_next E d0 = Ret d2 a ->
                    length (di_left d2) = (length (di_left d0) - 1)%nat).
          { intros a d2 G. unfold drain_next in G.
            destruct (di_left d0) as [|[h lp] rest].
            - destruct (slots (di_right d0)) as [|[h rp] t]; inversion G; auto.
            - destruct (phash lp) as [h'|].
              + destruct (t_remove_entry _ _ _ _) as [[rp t]|]; inversion G; subst; simpl; lia.
              + inversion G; subst; simpl; lia. }
          destruct (drain_next E d0) as [d2 a|d2] eqn:G; [|discriminate].
          destruct (drain_nexts E k d2) as [d3 o3|d3] eqn:F'; [|discriminate].
          inversion F; subst. apply IH in F'. rewrite F', (ST _ _ eq_refl). lia. }
      unfold drain_size_hint. rewrite (LD _ _ _ _ EN).
      assert (X := len_left_ok E _ _ _ _ H). unfold len_left, t_len in X.
      unfold drain. cbn [di_left]. rewrite X.
      rewrite <- filter_left_length, <- (Permutation_length PQ). auto.
  Qed.

  (* ---- C44 ---- *)
  Definition entry_ops (x : entry) : list (op L R) :=
    match x with
    | Neither => [] | SomeLeft l => [InsertLeft l] | SomeRight r => [InsertRight r]
    | SomeBoth l r => [Insert l r]
    end.
  Theorem C44_extend : forall xs m, reachable E (N.of_nat (length xs)) m ->
    exists P m', contents E m P /\ extend E xs m = Ret m' tt /\
      behaves_as E 0 m' (fold_left (s_insert_entry (eqL E) (eqR E)) xs P) /\
      (* the same map as inserting one by one *)
      m' = fst (run E m (flat_map entry_ops xs)).
  Proof.
    intros xs m H. start H.
    destruct (extend_ok E OK xs s c m P H B) as (m' & c' & X & C & H').
    exists P, m'. split; auto. split; auto. split; [eapply (repr_behaves E OK); [exact H'|lia]|].
    clear H' V C c'. revert c m P m' H B X.
    induction xs as [|x xs IH]; intros c m P m' H B X.
    - simpl in *. injection X as ->. auto.
    - cbn [length] in B. assert (B1 : c + 1 < two64) by lia.
      destruct x; cbn [flat_map entry_ops app run step extend via] in *; unfold bind in X.
      + eapply (IH c); eauto; lia.
      + destruct (insert_left_ok E OK s c m P l H) as (m1 & HI & H1); [lia|].
        rewrite HI in *. cbn [via fst]. eapply (IH (c + 1)) in X; [|exact H1|lia].
        rewrite X. destruct (run E m1 _); auto.
      + destruct (insert_right_ok E OK s c m P r H) as (m1 & HI & H1); [lia|].
        rewrite HI in *. cbn [via fst]. eapply (IH (c + 1)) in X; [|exact H1|lia].
        rewrite X. destruct (run E m1 _); auto.
      + destruct (insert_ok E OK s c m P l r H) as (m1 & HI & H1); [lia|].
        rewrite HI in *. cbn [via fst]. eapply (IH (c + 1)) in X; [|exact H1|lia].
        rewrite X. destruct (run E m1 _); auto.
  Qed.
  Theorem C44_extend_pairs : forall xs m, reachable E (N.of_nat (length xs)) m ->
    exists P m', contents E m P /\ extend_pairs E xs m = Ret m' tt /\
      behaves_as E 0 m' (fold_left (fun P x => s_insert (eqL E) (eqR E) P (fst x) (snd x)) xs P) /\
      m' = fst (run E m (map (fun x => Insert (fst x) (snd x)) xs)) /\
      extend E (map both xs) m = Ret m' tt.
  Proof.
    intros xs m H. start H.
    destruct (extend_pairs_ok E OK xs s c m P H B) as (m' & X & H').
    exists P, m'. split; auto. split; auto. split; [eapply (repr_behaves E OK); [exact H'|lia]|].
    clear H' V. revert c m P m' H B X.
    induction xs as [|[a b] xs IH]; intros c m P m' H B X.
    - simpl in *. injection X as ->. auto.
    - cbn [length] in B. cbn [map fst snd run step extend extend_pairs] in *. unfold bind in *.
      destruct (insert_ok E OK s c m P a b H) as (m1 & HI & H1); [lia|].
      rewrite HI in *. cbn [via fst]. eapply (IH (c + 1)) in X; [|exact H1|lia].
      destruct X as [X Y]. split; auto. rewrite X. destruct (run E m1 _); auto.
  Qed.
  (* FromIterator: the last pair given for an item wins *)
  Theorem C44_last_wins : forall s ll lr xs l r, N.of_nat (length xs) + 1 < two64 ->
    exists m, from_iter E s ll lr (xs ++ [SomeBoth l r]) = Ret m tt /\ are_paired E m l r = true /\
              get_right E m l = Some r /\ get_left E m r = Some l.
  Proof.
    intros s ll lr xs l r B.
    destruct (extend_ok E OK (xs ++ [SomeBoth l r]) s 0 (with_hasher s ll lr) [] (new_ok E s ll lr))
      as (m' & c' & X & _ & H').
    { rewrite app_length; simpl. lia. }
    exists m'. split; auto. unfold s_extend in H'. rewrite fold_left_app in H'.
    cbn -[s_insert] in H'.
    rewrite (are_paired_spec E OK _ _ _ _ _ _ H'), (get_right_spec E OK _ _ _ _ _ H'),
      (get_left_spec E OK _ _ _ _ _ H').
    unfold s_are_paired, s_get_right, s_get_left, find_l, find_r, s_insert. cbn.
    unfold has_l at 1 2, has_r at 1 2. cbn. rewrite (equiv_refl _ EL), (equiv_refl _ ER). auto.
  Qed.

  (* ---- C46 ---- *)
  Theorem C46_clone : forall room m, reachable E room m ->
    map_eq E m (clone m) = Done true /\ map_eq E (clone m) m = Done true /\
    (forall ops, snd (run E (clone m) ops) = snd (run E m ops)) /\
    reachable E room (clone m).
  Proof.
    intros room m H. assert (X : clone m = m) by (destruct m; auto). rewrite X.
    assert (RF := C42_reflexive room m H). auto.
  Qed.
  Theorem C46_clear : forall room m, reachable E room m ->
    exists m', clear E m = Ret m' tt /\ len_left m' = 0%nat /\ len_right m' = 0%nat /\
      is_empty m' = true /\
      (forall l, contains_left E m' l = false /\ get_right E m' l = None) /\
      (forall r, contains_right E m' r = false /\ get_left E m' r = None) /\
      behaves_as E room m' [].
  Proof.
    intros room m H. start H. destruct (clear_ok E s c m P H) as (m' & X & H').
    exists m'. split; auto. rewrite (len_left_ok E _ _ _ _ H'), (len_right_ok E _ _ _ _ H'),
      (is_empty_ok E _ _ _ _ H'). do 3 (split; [reflexivity|]).
    split; [|split].
    - intros l. rewrite (contains_left_spec E OK _ _ _ _ _ H'), (get_right_spec E OK _ _ _ _ _ H'); auto.
    - intros r. rewrite (contains_right_spec E OK _ _ _ _ _ H'), (get_left_spec E OK _ _ _ _ _ H'); auto.
    - eapply (repr_behaves E OK); eauto.
  Qed.
  Definition capacity_op (o : op L R) : bool :=
    match o with
    | ShrinkToLeft _ | ShrinkToRight _ | ShrinkToFit | ReserveLeft _ | ReserveRight _
    | TryReserveLeft _ | TryReserveRight _ => true
    | _ => false
    end.
  Theorem C46_capacity : forall o room m, capacity_op o = true -> reachable E room m ->
    let m' := fst (step E m o) in
    snd (step E m o) <> OPanic /\
    (exists P P', contents E m P /\ contents E m' P' /\ Permutation P' P) /\
    (forall l, get_right E m' l = get_right E m l /\ contains_left E m' l = contains_left E m l) /\
    (forall r, get_left E m' r = get_left E m r /\ contains_right E m' r = contains_right E m r) /\
    (forall l r, are_paired E m' l r = are_paired E m l r) /\
    len_left m' = len_left m /\ len_right m' = len_right m.
  Proof.
    intros o room m CO H. start H.
    destruct (step_ok E OK s c m P o H) as (P' & c' & ST & H' & _).
    { destruct o; try discriminate; cbn [ids]; lia. }
    { destruct o; try discriminate; exact I. }
    cbv zeta. destruct (step E m o) as [m' w]. cbn [fst snd] in *.
    assert (P' = P /\ w <> OPanic) as [-> NP].
    { destruct o; try discriminate; simpl in ST; destruct ST as [-> ST]; split; auto;
        try (subst w; discriminate); destruct ST as [b ->]; discriminate. }
    split; auto.
    destruct (view E OK _ _ _ _ H') as (P' & V' & PP).
    split; [exists P, P'; auto|].
    rewrite (len_left_ok E _ _ _ _ H'), (len_left_ok E _ _ _ _ H),
      (len_right_ok E _ _ _ _ H'), (len_right_ok E _ _ _ _ H).
    repeat split; intros.
    - rewrite (get_right_spec E OK _ _ _ _ _ H'), (get_right_spec E OK _ _ _ _ _ H); auto.
    - rewrite (contains_left_spec E OK _ _ _ _ _ H'), (contains_left_spec E OK _ _ _ _ _ H); auto.
    - rewrite (get_left_spec E OK _ _ _ _ _ H'), (get_left_spec E OK _ _ _ _ _ H); auto.
    - rewrite (contains_right_spec E OK _ _ _ _ _ H'), (contains_right_spec E OK _ _ _ _ _ H); auto.
    - rewrite (are_paired_spec E OK _ _ _ _ _ _ H'), (are_paired_spec E OK _ _ _ _ _ _ H); auto.
  Qed.
  Theorem C46_len : forall room m, reachable E room m ->
    exists P, contents E m P /\ len_left m = length (lefts P) /\ len_right m = length (rights P) /\
      (is_empty m = true <-> (forall l, contains_left E m l = false) /\
                             (forall r, contains_right E m r = false)).
  Proof.
    intros room m H. start H. exists P. split; auto.
    split; [eapply len_left_ok; eauto|]. split; [eapply len_right_ok; eauto|].
    destruct (repr_bij E _ _ _ _ H) as (_ & _ & NN).
    rewrite (is_empty_ok E _ _ _ _ H). split.
    - destruct P; [|discriminate]. intros _. split; intros k.
      + rewrite (contains_left_spec E OK _ _ _ _ _ H). auto.
      + rewrite (contains_right_spec E OK _ _ _ _ _ H). auto.
    - intros [A A']. destruct P as [|e P]; auto. exfalso.
      destruct e as [|a|b|a b]; [apply NN; left; auto| | |].
      + specialize (A a). rewrite (contains_left_spec E OK _ _ _ _ _ H) in A.
        unfold s_contains_left in A. cbn in A. unfold has_l in A at 1. cbn in A.
        rewrite (equiv_refl _ EL) in A. discriminate.
      + specialize (A' b). rewrite (contains_right_spec E OK _ _ _ _ _ H) in A'.
        unfold s_contains_right in A'. cbn in A'. unfold has_r in A' at 1. cbn in A'.
        rewrite (equiv_refl _ ER) in A'. discriminate.
      + specialize (A a). rewrite (contains_left_spec E OK _ _ _ _ _ H) in A.
        unfold s_contains_left in A. cbn in A. unfold has_l in A at 1. cbn in A.
        rewrite (equiv_refl _ EL) in A. discriminate.
  Qed.

  (* ---- C66 ---- ids of entries are unique and below the counter; the two halves of a pair
     carry the same id, unpaired items carry ids of nobody on the other side *)
  Theorem C66_ids : forall room m, reachable E room m ->
    NoDup (map (fun x => pid (snd x)) (slots (left_set m))) /\
    NoDup (map (fun x => pid (snd x)) (slots (right_set m))) /\
    (forall x, In x (slots (left_set m)) -> pid (snd x) < counter m) /\
    (forall x, In x (slots (right_set m)) -> pid (snd x) < counter m) /\
    (forall x y, In x (slots (left_set m)) -> In y (slots (right_set m)) ->
       (pid (snd x) = pid (snd y) <-> are_paired E m (value (snd x)) (value (snd y)) = true)).
  Proof.
    intros room m H. apply (reachable_repr E OK) in H as (s & c & P & (Z & H & ->) & B).
    assert (HR : Repr E s c m (map snd Z)) by (exists Z; auto).
    assert (PL := rep_l _ _ _ _ _ H). assert (PR := rep_r _ _ _ _ _ H).
    assert (ND := rep_ids _ _ _ _ _ H). assert (LT := rep_lt _ _ _ _ _ H).
    rewrite (rep_c _ _ _ _ _ H).
    assert (IL : forall x, In x (slots (left_set m)) ->
              exists z, In z Z /\ op_get_left (snd z) = Some (value (snd x)) /\ pid (snd x) = fst z).
    { intros x Hx. apply (Permutation_in _ PL) in Hx. apply in_flat_map in Hx as (z & Hz & Hx).
      exists z. unfold slotL in Hx. destruct (op_get_left (snd z)) eqn:G; [|destruct Hx].
      destruct Hx as [<-|[]]. auto. }
    assert (IR : forall x, In x (slots (right_set m)) ->
              exists z, In z Z /\ op_get_right (snd z) = Some (value (snd x)) /\ pid (snd x) = fst z).
    { intros x Hx. apply (Permutation_in _ PR) in Hx. apply in_flat_map in Hx as (z & Hz & Hx).
      exists z. unfold slotR in Hx. destruct (op_get_right (snd z)) eqn:G; [|destruct Hx].
      destruct Hx as [<-|[]]. auto. }
    assert (NDL : forall K : list (N * entry), NoDup (map fst K) ->
              NoDup (map (fun x => pid (snd x)) (flat_map (slotL E s) K)) /\
              NoDup (map (fun x => pid (snd x)) (flat_map (slotR E s) K))).
    { assert (SUB : forall K : list (N * entry),
         incl (map (fun x => pid (snd x)) (flat_map (slotL E s) K)) (map fst K) /\
         incl (map (fun x => pid (snd x)) (flat_map (slotR E s) K)) (map fst K)).
      { intros K. split; intros i Hi; apply in_map_iff in Hi as (x & <- & Hx);
          apply in_flat_map in Hx as (z & Hz & Hx); apply in_map_iff; exists z; split; auto.
        - unfold slotL in Hx. destruct (op_get_left (snd z)); [|destruct Hx]. destruct Hx as [<-|[]]. auto.
        - unfold slotR in Hx. destruct (op_get_right (snd z)); [|destruct Hx]. destruct Hx as [<-|[]]. auto. }
      induction K as [|z K IH]; intros N; [split; constructor|].
      cbn [map] in N. apply NoDup_cons_iff in N as [N1 N2]. destruct (IH N2) as [A A'].
      destruct (SUB K) as [S1 S2].
      cbn [flat_map]. unfold slotL at 1, slotR at 1.
      split; [destruct (op_get_left (snd z))|destruct (op_get_right (snd z))]; cbn; auto;
        constructor; auto. }
    destruct (NDL Z ND) as [N1 N2].
    split; [|split; [|split; [|split]]].
    - eapply Permutation_NoDup; [apply Permutation_map; symmetry; exact PL|auto].
    - eapply Permutation_NoDup; [apply Permutation_map; symmetry; exact PR|auto].
    - intros x Hx. destruct (IL x Hx) as (z & Hz & _ & ->). apply LT; auto.
    - intros x Hx. destruct (IR x Hx) as (z & Hz & _ & ->). apply LT; auto.
    - intros x y Hx Hy. destruct (IL x Hx) as (z & Hz & GL & ->). destruct (IR y Hy) as (z' & Hz' & GR & ->).
      rewrite (are_paired_spec E OK _ _ _ _ _ _ HR). rewrite paired_iff.
      assert (D := repr_bij E _ _ _ _ HR). split.
      + intros EQ. assert (z = z').
        { clear - ND Hz Hz' EQ. induction Z as [|w Z IH]; [destruct Hz|].
          cbn [map] in ND. apply NoDup_cons_iff in ND as [A A'].
          destruct Hz as [->|Hz], Hz' as [->|Hz']; auto; exfalso; apply A; apply in_map_iff.
          - exists z'. auto.
          - exists z. auto. }
        subst z'. destruct (snd z) eqn:SZ; simpl in GL, GR; try discriminate.
        inversion GL; inversion GR; subst. do 2 eexists. split; [apply in_map_iff; eauto|].
        split; [apply (equiv_refl _ EL)|apply (equiv_refl _ ER)].
      + intros (a & b & I & Q1 & Q2).
        assert (A1 : snd z = SomeBoth a b).
        { eapply (unique_l _ _ EL ER _ (value (snd x)) _ _ D); [apply in_map; exact Hz|exact I| |auto].
          unfold has_l. rewrite GL. apply (equiv_refl _ EL). }
        assert (A2 : snd z' = SomeBoth a b).
        { eapply (unique_r _ _ EL ER _ (value (snd y)) _ _ D); [apply in_map; exact Hz'|exact I| |auto].
          unfold has_r. rewrite GR. apply (equiv_refl _ ER). }
        destruct (N.eq_dec (fst z) (fst z')) as [|NE]; auto. exfalso.
        assert (DL := rep_bij _ _ _ _ _ H).
        apply in_split in Hz as (Z1 & Z2 & ->).
        assert (Hz2 : In z' (Z1 ++ Z2)).
        { apply in_app_iff. apply in_app_iff in Hz' as [|[->|]]; auto. congruence. }
        assert (PM : Permutation (map snd (Z1 ++ z :: Z2)) (snd z :: map snd (Z1 ++ Z2))).
        { rewrite !map_app. cbn [map]. symmetry. apply Permutation_middle. }
        apply (pb_permute _ _ EL ER _ _ PM) in DL. destruct DL as (DL & _ & _).
        rewrite A1 in DL. change (SomeBoth a b :: ?k) with ([SomeBoth a b] ++ k) in DL.
        rewrite lefts_app in DL. apply distinct_app in DL as (_ & _ & DL).
        specialize (DL a a). rewrite (equiv_refl _ EL) in DL. discriminate DL; auto.
        * left; auto.
        * apply in_lefts. exists (snd z'). split; [apply in_map; auto|]. rewrite A2. auto.
  Qed.

  (* ---- C67 ---- lookups by a borrowed form of the key; [borrow_ok] as in C26 *)
  Theorem C67_borrowed : forall room m, reachable E room m ->
    (forall Q (qhash : S -> Q -> N) (qeq : Q -> L -> bool),
       borrow_ok qhash qeq (hashL E) (eqL E) ->
       forall q k, (forall l, qeq q l = eqL E k l) -> get_right_q E qhash qeq m q = get_right E m k) /\
    (forall Q (qhash : S -> Q -> N) (qeq : Q -> L -> bool),
       borrow_ok qhash qeq (hashL E) (eqL E) ->
       forall q r, get_right_q E qhash qeq m q = Some r <->
                   exists l, qeq q l = true /\ get_right E m l = Some r) /\
    (forall Q (qhash : S -> Q -> N) (qeq : Q -> R -> bool),
       borrow_ok qhash qeq (hashR E) (eqR E) ->
       forall q k, (forall r, qeq q r = eqR E k r) -> get_left_q E qhash qeq m q = get_left E m k) /\
    (forall Q (qhash : S -> Q -> N) (qeq : Q -> R -> bool),
       borrow_ok qhash qeq (hashR E) (eqR E) ->
       forall q l, get_left_q E qhash qeq m q = Some l <->
                   exists r, qeq q r = true /\ get_left E m r = Some l).
  Proof.
    intros room m H. start H. assert (D := repr_bij E _ _ _ _ H). split; [|split; [|split]].
    - intros Q qhash qeq BO q k HK.
      rewrite (get_right_q_spec E OK qhash qeq _ _ _ _ q BO H), (get_right_spec E OK _ _ _ _ _ H).
      unfold s_get_right, find_l. f_equal. clear - HK. induction P as [|e P IH]; simpl; auto.
      unfold left_is at 1, has_l at 1. destruct (op_get_left e) as [a|]; auto.
      rewrite HK. destruct (eqL E k a); auto.
    - intros Q qhash qeq BO q r.
      rewrite (get_right_q_spec E OK qhash qeq _ _ _ _ q BO H). destruct BO as (_ & B2 & B3). split.
      + intros F. destruct (find (left_is qeq q) P) as [e|] eqn:FE; [|discriminate]. simpl in F.
        apply find_some in FE as [I F']. unfold left_is in F'.
        destruct e as [|a|b|a b]; simpl in *; try discriminate. inversion F; subst b.
        exists a. split; auto. rewrite (get_right_spec E OK _ _ _ _ _ H).
        apply (get_r_iff _ _ EL ER); auto. exists a. split; auto. apply (equiv_refl _ EL).
      + intros (l & QL & G). rewrite (get_right_spec E OK _ _ _ _ _ H) in G.
        apply (get_r_iff _ _ EL ER) in G as (a & I & LA); auto.
        assert (QA : qeq q a = true) by (rewrite <- (B2 q l a LA); auto).
        destruct (find (left_is qeq q) P) as [e|] eqn:FE.
        * apply find_some in FE as [I' F']. unfold left_is in F'.
          destruct (op_get_left e) as [a'|] eqn:GE; [|discriminate].
          assert (e = SomeBoth a r) as ->; auto.
          eapply (unique_l _ _ EL ER P a); eauto; unfold has_l.
          -- rewrite GE. apply (B3 q); auto.
          -- simpl. apply (equiv_refl _ EL).
        * eapply find_none in FE; [|exact I]. unfold left_is in FE. simpl in FE. congruence.
    - intros Q qhash qeq BO q k HK.
      rewrite (get_left_q_spec E OK qhash qeq _ _ _ _ q BO H), (get_left_spec E OK _ _ _ _ _ H).
      unfold s_get_left, find_r. f_equal. clear - HK. induction P as [|e P IH]; simpl; auto.
      unfold right_is at 1, has_r at 1. destruct (op_get_right e) as [a|]; auto.
      rewrite HK. destruct (eqR E k a); auto.
    - intros Q qhash qeq BO q l.
      rewrite (get_left_q_spec E OK qhash qeq _ _ _ _ q BO H). destruct BO as (_ & B2 & B3). split.
      + intros F. destruct (find (right_is qeq q) P) as [e|] eqn:FE; [|discriminate]. simpl in F.
        apply find_some in FE as [I F']. unfold right_is in F'.
        destruct e as [|a|b|a b]; simpl in *; try discriminate. inversion F; subst a.
        exists b. split; auto. rewrite (get_left_spec E OK _ _ _ _ _ H).
        apply (get_l_iff _ _ EL ER); auto. exists b. split; auto. apply (equiv_refl _ ER).
      + intros (r & QL & G). rewrite (get_left_spec E OK _ _ _ _ _ H) in G.
        apply (get_l_iff _ _ EL ER) in G as (a & I & LA); auto.
        assert (QA : qeq q a = true) by (rewrite <- (B2 q r a LA); auto).
        destruct (find (right_is qeq q) P) as [e|] eqn:FE.
        * apply find_some in FE as [I' F']. unfold right_is in F'.
          destruct (op_get_right e) as [a'|] eqn:GE; [|discriminate].
          assert (e = SomeBoth l a) as ->; auto.
          eapply (unique_r _ _ EL ER P a); eauto; unfold has_r.
          -- rewrite GE. apply (B3 q); auto.
          -- simpl. apply (equiv_refl _ ER).
        * eapply find_none in FE; [|exact I]. unfold right_is in FE. simpl in FE. congruence.
  Qed.
End Props3.

(* ---- concrete cases ---- *)
Definition made (ops : list (op item item)) : pmap item item N :=
  fst (run env_collide (with_hasher 7 0 0) ops).
Lemma made_reachable : forall ops room, budget ops + room < two64 ->
  guarded env_collide (with_hasher 7 0 0) ops -> reachable env_collide room (made ops).
Proof. intros ops room B G. exists 7, 0, 0, ops. auto. Qed.
Ltac made := apply made_reachable; [vm_compute; reflexivity|cbn; auto 10].

(* accepting the pair of 3 and the left 2 drops exactly these *)
Definition p_left (e : optional_pair item item) : bool :=
  match e with SomeBoth l _ => fst l =? 3 | SomeLeft l => fst l =? 2 | _ => true end.
Example C41_case : exists m',
  retain env_collide (fun (_ : unit) e => (tt, Some (p_left e))) (pm1, tt) = Ret (m', tt) tt /\
  contents env_collide m'
    [SomeBoth (it 5) (it 50); SomeBoth (it 1) (it 20); SomeLeft (it 4);
     SomeRight (it 10); SomeRight (it 40); SomeRight (it 60)].
Proof.
  eexists. split; [vm_compute; reflexivity|].
  exists [(it 5, it 50); (it 1, it 20)],
    [SomeLeft (it 4); SomeRight (it 10); SomeRight (it 40); SomeRight (it 60)].
  repeat (split; [vm_compute; reflexivity|]); vm_compute; reflexivity.
Qed.
(* C41 as stated is false: a closure accepting everything empties the map of its pairs and
   unpaired lefts, one refusing everything keeps them; no unpaired right is ever visited. *)
Theorem C41_retain_refuted : exists (E : env item item N) m m' m'' log,
  lawful E /\ reachable E 1 m /\ len_left m = 5%nat /\ contains_right E m (it 10) = true /\
  (* accept all: all lost *)
  retain E (fun (_ : unit) _ => (tt, Some true)) (m, tt) = Ret (m', tt) tt /\ len_left m' = 0%nat /\
  (* refuse all: all kept; the calls made are in log *)
  retain E (fun log e => (log ++ [e], Some false)) (m, []) = Ret (m'', log) tt /\
  len_left m'' = 5%nat /\ ~ In (SomeRight (it 10)) log /\ contains_right E m'' (it 10) = true.
Proof.
  exists env_collide, pm1. do 3 eexists. split; [exact env_collide_ok|].
  split; [apply pm1_reachable; reflexivity|]. do 2 (split; [vm_compute; reflexivity|]).
  split; [vm_compute; reflexivity|]. split; [vm_compute; reflexivity|].
  split; [vm_compute; reflexivity|]. split; [vm_compute; reflexivity|].
  split; [|vm_compute; reflexivity].
  simpl. intros H. repeat destruct H as [H|H]; try discriminate; auto.
Qed.
Theorem C41_retain_paired_refuted : exists (E : env item item N) m m',
  lawful E /\ reachable E 1 m /\ are_paired E m (it 3) (it 30) = true /\
  retain_paired E (fun (_ : unit) p => (tt, Some (fst (fst p) =? 3))) (m, tt) = Ret (m', tt) tt /\
  are_paired E m' (it 3) (it 30) = false /\ are_paired E m' (it 5) (it 50) = true.
Proof.
  exists env_collide, pm1. eexists. split; [exact env_collide_ok|].
  split; [apply pm1_reachable; reflexivity|]. split; [vm_compute; reflexivity|].
  split; [vm_compute; reflexivity|]. split; vm_compute; reflexivity.
Qed.
Theorem C41_retain_unpaired_refuted : exists (E : env item item N) m m',
  lawful E /\ reachable E 1 m /\ contains_left E m (it 2) = true /\
  retain_unpaired E (fun (_ : unit) e =>
      (tt, Some (match e with SomeLeft l => fst l =? 2 | _ => false end))) (m, tt) = Ret (m', tt) tt /\
  contains_left E m' (it 2) = false /\ contains_left E m' (it 4) = true.
Proof.
  exists env_collide, pm1. eexists. split; [exact env_collide_ok|].
  split; [apply pm1_reachable; reflexivity|]. split; [vm_compute; reflexivity|].
  split; [vm_compute; reflexivity|]. split; vm_compute; reflexivity.
Qed.

(* two maps without unpaired items, equal contents from different histories *)
Example C42_case :
  map_eq env_collide (made [Insert (it 1) (it 10); Insert (it 2) (it 20)])
    (made [Insert (it' 2) (it 20); Insert (it 1) (it 30); Insert (it 1) (it' 10)]) = Done true /\
  map_eq env_collide (made [Insert (it 1) (it 10); Insert (it 2) (it 20)])
    (made [Insert (it 1) (it 20); Insert (it 2) (it 10)]) = Done false.
Proof. vm_compute. auto. Qed.
(* C42 as stated is false: maps with different contents compare equal ... *)
Theorem C42_equality_refuted : exists (E : env item item N) m m',
  lawful E /\ reachable E 1 m /\ reachable E 1 m' /\
  is_empty m = true /\ contains_left E m' (it 1) = true /\
  map_eq E m m' = Done true /\ map_eq E m' m = Done true.
Proof.
  exists env_collide, (made []), (made [InsertLeft (it 1)]). split; [exact env_collide_ok|].
  split; [made|]. split; [made|]. repeat (split; [vm_compute; reflexivity|]); vm_compute; reflexivity.
Qed.
(* ... == is not symmetric ... *)
Theorem C42_symmetry_refuted : exists (E : env item item N) m m',
  lawful E /\ reachable E 1 m /\ reachable E 1 m' /\
  map_eq E m m' = Done true /\ map_eq E m' m = Done false.
Proof.
  exists env_collide, (made [InsertRight (it 10)]), (made [Insert (it 1) (it 10)]).
  split; [exact env_collide_ok|]. split; [made|]. split; [made|]. split; vm_compute; reflexivity.
Qed.
(* ... and not transitive *)
Theorem C42_transitivity_refuted : exists (E : env item item N) m m' m'',
  lawful E /\ reachable E 1 m /\ reachable E 1 m' /\ reachable E 1 m'' /\
  map_eq E m m' = Done true /\ map_eq E m' m'' = Done true /\ map_eq E m m'' = Done false.
Proof.
  exists env_collide, (made [InsertLeft (it 1)]), (made [InsertRight (it 10); InsertLeft (it 2)]),
    (made [Insert (it 1) (it 10)]).
  split; [exact env_collide_ok|]. split; [made|]. split; [made|]. split; [made|].
  repeat (split; [vm_compute; reflexivity|]); vm_compute; reflexivity.
Qed.

Example C43_case : exists o i d o',
  nexts (iter_next env_collide pm1) 2 (iter pm1) = Done (o, i) /\ iter_size_hint i = (3, Some 3)%nat /\
  drain_nexts env_collide 2 (drain pm1) = Ret d o' /\ drain_size_hint d = (3, Some 3)%nat.
Proof. do 4 eexists. vm_compute. repeat split; reflexivity. Qed.
(* C43 as stated is false: iter_paired promises 5 items and yields 3 *)
Theorem C43_paired_refuted : exists (E : env item item N) m l,
  lawful E /\ reachable E 1 m /\
  paired_size_hint (iter_paired m) = (5, Some 5)%nat /\
  paired_rest E m (iter_paired m) = Done l /\ length l = 3%nat.
Proof.
  exists env_collide, pm1. eexists. split; [exact env_collide_ok|].
  split; [apply pm1_reachable; reflexivity|]. repeat (split; [vm_compute; reflexivity|]); vm_compute; reflexivity.
Qed.
(* iter_unpaired promises at most 0 items and yields 1; or at least 1 and yields none *)
Theorem C43_unpaired_refuted : exists (E : env item item N) m m',
  lawful E /\ reachable E 1 m /\ reachable E 1 m' /\
  unpaired_size_hint (iter_unpaired m) = (0, Some 0)%nat /\
  unpaired_rest (iter_unpaired m) = Done [SomeRight (it 10)] /\
  unpaired_size_hint (iter_unpaired m') = (1, Some 1)%nat /\
  unpaired_rest (iter_unpaired m') = Done [].
Proof.
  exists env_collide, (made [InsertRight (it 10)]), (made [Insert (it 1) (it 10)]).
  split; [exact env_collide_ok|]. split; [made|]. split; [made|]. repeat (split; [vm_compute; reflexivity|]); vm_compute; reflexivity.
Qed.
(* drain and drain_filter promise at most 0 items and yield 1 *)
Theorem C43_drain_refuted : exists (E : env item item N) m d d',
  let f := fun (_ : unit) (_ : optional_pair item item) => (tt, Some true) in
  lawful E /\ reachable E 1 m /\
  drain_size_hint (drain m) = (0, Some 0)%nat /\
  drain_nexts E 1 (drain m) = Ret d [Some (SomeRight (it 10))] /\
  df_size_hint (drain_filter m) = (0, Some 0)%nat /\
  df_nexts E f 1 (drain_filter m, tt) = Ret (d', tt) [Some (SomeRight (it 10))].
Proof.
  exists env_collide, (made [InsertRight (it 10)]). do 2 eexists. cbv zeta.
  split; [exact env_collide_ok|]. split; [made|]. repeat (split; [vm_compute; reflexivity|]); vm_compute; reflexivity.
Qed.

Example C44_case : exists m,
  from_iter env_spread 3 0 0
    [SomeBoth (it 1) (it 10); SomeLeft (it 2); Neither; SomeRight (it 10); SomeBoth (it 2) (it 20)] = Ret m tt /\
  contents env_spread m [SomeBoth (it 2) (it 20); SomeRight (it 10)].
Proof.
  eexists. split; [vm_compute; reflexivity|].
  exists [(it 2, it 20)], [SomeRight (it 10)]. repeat (split; [vm_compute; reflexivity|]); vm_compute; reflexivity.
Qed.
Example C46_case :
  map_eq env_collide pm1 (clone pm1) = Done true /\
  len_left pm1 = 5%nat /\ len_right pm1 = 6%nat /\ is_empty pm1 = false /\
  capacity_op (@ShrinkToFit item item) = true /\
  snd (step env_collide pm1 ShrinkToFit) = OUnit /\
  exists m, clear env_collide pm1 = Ret m tt /\ len_right m = 0%nat.
Proof. repeat (split; [vm_compute; reflexivity|]); try (vm_compute; reflexivity). eexists. vm_compute. auto. Qed.
Example C66_case : counter pm1 = 10 /\
  map (fun x => (pid (snd x), fst (value (snd x)))) (slots (left_set pm1)) = [(7, 5); (2, 3); (5, 1); (1, 2); (4, 4)] /\
  map (fun x => (pid (snd x), fst (value (snd x)))) (slots (right_set pm1)) =
    [(7, 50); (2, 30); (0, 10); (5, 20); (6, 40); (9, 60)].
Proof. vm_compute. auto. Qed.
Definition key_eq (k : N) (a : item) : bool := k =? fst a.
Example C67_case : borrow_ok (fun s k => 0) key_eq (hashL env_collide) (eqL env_collide) /\
  get_right_q env_collide (fun _ _ => 0) key_eq pm1 5 = Some (it 50) /\
  get_right_q env_collide (fun _ _ => 0) key_eq pm1 2 = None.
Proof.
  split; [|vm_compute; auto]. unfold borrow_ok, key_eq. simpl. unfold item_eq.
  repeat split; auto.
  - intros q t t' H. apply N.eqb_eq in H. rewrite H. auto.
  - intros q t t' H H'. apply N.eqb_eq in H, H'. apply N.eqb_eq. congruence.
Qed.

Print Assumptions C41_retain_partial.
Print Assumptions C41_retain_paired_partial.
Print Assumptions C41_retain_unpaired_partial.
Print Assumptions C41_retain_pred_partial.
Print Assumptions C41_retain_refuted.
Print Assumptions C41_retain_paired_refuted.
Print Assumptions C41_retain_unpaired_refuted.
Print Assumptions C42_equality_partial.
Print Assumptions C42_reflexive.
Print Assumptions C42_equality_refuted.
Print Assumptions C42_symmetry_refuted.
Print Assumptions C42_transitivity_refuted.
Print Assumptions C43_size_hint_partial.
Print Assumptions C43_paired_refuted.
Print Assumptions C43_unpaired_refuted.
Print Assumptions C43_drain_refuted.
Print Assumptions C44_extend.
Print Assumptions C44_extend_pairs.
Print Assumptions C44_last_wins.
Print Assumptions C46_clone.
Print Assumptions C46_clear.
Print Assumptions C46_capacity.
Print Assumptions C46_len.
Print Assumptions C66_ids.
Print Assumptions C67_borrowed.
