(* Refinement of PartialCycleMap, part 4: pair_forced, pair_forced_remove, unpair. *)
From Coq Require Import List NArith Lia Bool Permutation.
From Verif Require Import Prelude RawTable Optionals PartialCycleMap PartialSpec ListFacts TableFacts
  PartialProofs PartialProofs2 PartialProofs3.
Import ListNotations.
Open Scope N_scope.

Section Proofs4.
  Context {L R S : Type} (E : env L R S) (OK : lawful E).
  Notation pm := (pmap L R S).
  Notation entry := (optional_pair L R).
  Notation zent := (N * entry)%type.
  Notation Rep := (Rep E).
  Notation Repr := (Repr E).
  Notation slotL := (slotL E).
  Notation slotR := (slotR E).
  Let EL := eqL_equiv _ OK.
  Let ER := eqR_equiv _ OK.
  Let LO := lo_ok _ OK.

  Lemma paired_same : forall Z i a b (W : list zent) l r, Permutation Z ((i, SomeBoth a b) :: W) ->
    eqL E l a = true -> eqR E r b = true ->
    s_are_paired (eqL E) (eqR E) (map snd Z) l r = true.
  Proof.
    intros Z i a b W l r P Hl Hr. unfold s_are_paired. apply existsb_exists.
    exists (SomeBoth a b). split.
    - apply (in_map snd Z (i, SomeBoth a b)). eapply Permutation_in; [symmetry; eauto|left; auto].
    - unfold has_l, has_r; simpl. rewrite Hl, Hr; auto.
  Qed.
  Lemma paired_diff : forall Z (z w : zent) W l r, Permutation Z (z :: w :: W) ->
    has_r (eqR E) r (snd z) = false -> has_l (eqL E) l (snd w) = false ->
    (forall x, In x W -> has_l (eqL E) l (snd x) = false) ->
    s_are_paired (eqL E) (eqR E) (map snd Z) l r = false.
  Proof.
    intros Z z w W l r P Hz Hw Hn. unfold s_are_paired. apply existsb_absent.
    intros x Hx. eapply Permutation_in in Hx; [|exact P].
    destruct Hx as [<-|[<-|Hx]]; [rewrite Hz; apply andb_false_r|rewrite Hw; auto|rewrite Hn; auto].
  Qed.
  Lemma paired_nowhere : forall Z l r, nowhere E Z l r ->
    s_are_paired (eqL E) (eqR E) (map snd Z) l r = false.
  Proof.
    intros Z l r [Hn|Hn]; unfold s_are_paired; apply existsb_absent; intros x Hx; rewrite Hn; auto.
    apply andb_false_r.
  Qed.

  Lemma just_id_refl : forall {T} (v : T) h i, just_id i (MP v h i) = true.
  Proof. intros. unfold just_id; simpl. apply N.eqb_refl. Qed.
  Lemma hid_refl : forall {T} (v : T) h i, hash_and_id h i (MP v (Some h) i) = true.
  Proof. intros. unfold hash_and_id; simpl. rewrite !N.eqb_refl. auto. Qed.
  Lemma just_id_neq : forall {T} (v : T) h i j, i <> j -> just_id i (MP v h j) = false.
  Proof. intros. unfold just_id; simpl. apply N.eqb_neq; auto. Qed.

  (* assignments through get_mut references, seen from outside *)
  Ltac assigns := cbn [set_left set_right set_counter left_set right_set counter hash_builder
                       fst snd value phash pid set_hash set_id] in *.

  Lemma pair_forced_ok : forall s c m P l r, Repr s c m P -> c + 1 < two64 ->
    exists m' c', pair_forced E l r m = Ret m' (s_pair_forced_out (eqL E) (eqR E) P l r) /\
      c <= c' /\ c' <= c + 1 /\ Repr s c' m' (s_pair_forced (eqL E) (eqR E) P l r).
  Proof.
    intros s c m P l r HP Hc. unfold pair_forced, s_pair_forced, s_pair_forced_out, left_assign,
      right_assign, incr_counter.
    mrun. rewrite (are_paired_spec E OK _ _ _ _ l r HP). destruct HP as (Z & H & ->).
    rewrite (rep_hb _ _ _ _ _ H), (rep_c _ _ _ _ _ H).
    destruct (place_ok E OK s c m Z l r H) as [Hn|Hn|i a b W PZ H2 Hl Hr Hhl Hhr Nl Nr
                                         |z w W a b PZ H2 Ha Hb Hl Hr Hhl Hhr Nzr Nwl Nl Nr].
    - rewrite paired_nowhere by (left; auto).
      rewrite (left_mut_absent E _ _ _ _ _ H Hn), find_l_no by auto.
      exists m, c. repeat split; auto using rep_repr; lia.
    - rewrite paired_nowhere by (right; auto).
      rewrite (right_mut_absent E _ _ _ _ _ H Hn), (find_r_no E Z r) by auto.
      exists m, c. split; [|split; [lia|split; [lia|]]].
      + destruct (t_get_mut E (left_set m) _ _) as [[? ?]|], (find_l _ _ _) as [[]|]; auto.
      + destruct (find_l _ _ _) as [[]|]; auto using rep_repr.
    - rewrite (paired_same Z i a b W) by auto.
      rewrite (find_l_same E Z i a b W), (find_r_same E Z i a b W) by auto.
      unfold has_r; simpl. rewrite Hr. exists m, c. repeat split; auto using rep_repr; lia.
    - rewrite (paired_diff Z z w W) by auto.
      destruct (left_mut_found E OK s c m z (w :: W) a l H2 Ha Hl) as (p & -> & Al).
      { intros x [<-|Hx]; auto. }
      destruct (right_mut_found E OK s c m w (z :: W) b r (rep_snoc E OK _ _ _ _ _ _ H2) Hb Hr)
        as (q & -> & Ar).
      { intros x [<-|Hx]; auto. }
      rewrite (find_l_diff E Z z w W l a), (find_r_diff E Z z w W r b), Nzr by auto.
      assert (PD := del_diff E Z z w W l r a b PZ Ha Hl Nwl Nl Hb Hr Nr).
      assert (IDS := rep_ids _ _ _ _ _ H2). apply nodup_two in IDS as (Izw & Iz & Iw).
      assert (LT := rep_lt _ _ _ _ _ H2).
      assert (ApL := rep_apart_l E OK _ _ _ _ _ H2). assert (ApR := rep_apart_r E OK _ _ _ _ _ H2).
      assert (PB := rep_bij _ _ _ _ _ H2). rewrite map_app in PB. apply pb_app_l in PB.
      assert (Lz := LT z (or_introl eq_refl)). assert (Lw := LT w (or_intror (or_introl eq_refl))).
      rewrite Hhl, Hhr in *.
      destruct z as [i x], w as [j y]; cbn [fst snd] in *.
      destruct x as [|a1|b1|a1 b1]; simpl in Ha; inversion Ha; subst a1; clear Ha;
      destruct y as [|a2|b2|a2 b2]; simpl in Hb; inversion Hb; subst b2; clear Hb;
        cbn [option_map op_get_left op_get_right phash pid] in *.
      + (* both unpaired *)
        apply (modify_at _ _ _ _ _ (set_hash (Some (hashR E s b)))) in Al as [_ Al].
        apply (modify_at _ _ _ _ _ (set_hash (Some (hashL E s a)))) in Ar.
        apply (modify_at _ _ _ _ _ (set_id i)) in Ar as [_ Ar].
        eexists _, c; split; [reflexivity|split; [lia|split; [lia|]]].
        eapply (repr_perm E OK); [simpl; constructor; symmetry; exact PD|].
        exists ((i, SomeBoth a b) :: W); split; auto.
        eapply (rep_rebuild E s c c m _ [_; _] [_]); [exact H2| | | | | | | | | |]; auto.
        * apply (rep_hb _ _ _ _ _ H).
        * apply (rep_c _ _ _ _ _ H).
        * lia.
        * constructor; auto; constructor.
        * intros k [<-|[]]. left; left; auto.
        * split; [|split]; simpl; try apply distinct_one. intros [|[]]; discriminate.
      + (* right paired *)
        apply (modify_at _ _ _ _ _ (set_hash (Some (hashR E s b)))) in Al as [_ Al].
        apply (modify_at _ _ _ _ _ (set_hash (Some (hashL E s a)))) in Ar.
        apply (modify_at _ _ _ _ _ (set_id i)) in Ar as [_ Ar].
        assigns. simpl flat_map in Al. unfold PartialProofs.slotL at 1 in Al. cbn in Al.
        assert (Al' : Permutation (slots (t_modify (left_set m) p (set_hash (Some (hashR E s b)))))
          ((hashL E s a2, MP a2 (Some (hashR E s b)) j) ::
           (hashL E s a, MP a (Some (hashR E s b)) i) :: flat_map (slotL s) W))
          by (etransitivity; [exact Al|constructor]).
        destruct (get_mut_unique E OK _ (hashL E s a2) (hash_and_id (hashR E s b) j) _ _ Al')
          as (p2 & Ep2 & A2).
        { apply hid_refl. }
        { intros x [<-|Hx]; apply hid_of_id; [apply just_id_neq; auto|eapply id_l_other; eauto]. }
        rewrite Ep2. assigns.
        apply (modify_at _ _ _ _ _ (set_hash None)) in A2 as [_ A2]. assigns.
        erewrite t_get_unique; [|auto|exact A2|apply just_id_refl|].
        2:{ intros x [<-|Hx]; [apply just_id_neq; auto|eapply id_l_other; eauto]. }
        eexists _, c; split; [reflexivity|split; [lia|split; [lia|]]].
        eapply (repr_perm E OK); [simpl; do 2 constructor; symmetry; exact PD|].
        exists ([(i, SomeBoth a b); (j, SomeLeft a2)] ++ W); split; auto.
        eapply (rep_rebuild E s c c m _ [_; _] [_; _]); [exact H2| | | | | | | | | |]; auto.
        * apply (rep_hb _ _ _ _ _ H).
        * apply (rep_c _ _ _ _ _ H).
        * lia.
        * assigns. etransitivity; [exact A2|]. constructor.
        * constructor; [|constructor; auto; constructor]. intros [|[]]; auto.
        * destruct PB as (DL & DR & _).
          split; [|split]; simpl; try apply distinct_one; auto. intros [|[|[]]]; discriminate.
      + (* left paired *)
        apply (modify_at _ _ _ _ _ (set_hash (Some (hashR E s b)))) in Al.
        apply (modify_at _ _ _ _ _ (set_id j)) in Al as [_ Al].
        apply (modify_at _ _ _ _ _ (set_hash (Some (hashL E s a)))) in Ar as [_ Ar].
        assigns. simpl flat_map in Ar. unfold PartialProofs.slotR at 1 in Ar. cbn in Ar.
        assert (Ar' : Permutation (slots (t_modify (right_set m) q (set_hash (Some (hashL E s a)))))
          ((hashR E s b1, MP b1 (Some (hashL E s a)) i) ::
           (hashR E s b, MP b (Some (hashL E s a)) j) :: flat_map (slotR s) W))
          by (etransitivity; [exact Ar|constructor]).
        destruct (get_mut_unique E OK _ (hashR E s b1) (hash_and_id (hashL E s a) i) _ _ Ar')
          as (p2 & Ep2 & A2).
        { apply hid_refl. }
        { intros x [<-|Hx]; apply hid_of_id; [apply just_id_neq; auto|eapply id_r_other; eauto]. }
        rewrite Ep2. assigns.
        apply (modify_at _ _ _ _ _ (set_hash None)) in A2 as [_ A2]. assigns.
        erewrite t_get_unique; [|auto|exact A2|apply just_id_refl|].
        2:{ intros x [<-|Hx]; [apply just_id_neq; auto|eapply id_r_other; eauto]. }
        eexists _, c; split; [reflexivity|split; [lia|split; [lia|]]].
        eapply (repr_perm E OK); [simpl; do 2 constructor; symmetry; exact PD|].
        exists ([(j, SomeBoth a b); (i, SomeRight b1)] ++ W); split; auto.
        eapply (rep_rebuild E s c c m _ [_; _] [_; _]); [exact H2| | | | | | | | | |]; auto.
        * apply (rep_hb _ _ _ _ _ H).
        * apply (rep_c _ _ _ _ _ H).
        * lia.
        * assigns. etransitivity; [exact A2|]. constructor.
        * constructor; [|constructor; auto; constructor]. intros [|[]]; auto.
        * intros k [<-|[<-|[]]]; left; simpl; auto.
        * destruct PB as (DL & DR & _).
          split; [|split]; simpl; try apply distinct_one; auto.
          -- apply (distinct_two_swap _ ER). auto.
          -- intros [|[|[]]]; discriminate.
        * intros k [<-|[<-|[]]]; apply ApR; simpl; auto.
      + (* both paired *)
        assigns. rewrite (rep_c _ _ _ _ _ H), u64_incr_ok by auto.
        apply (modify_at _ _ _ _ _ (set_hash (Some (hashR E s b)))) in Al.
        apply (modify_at _ _ _ _ _ (set_id c)) in Al as [_ Al].
        apply (modify_at _ _ _ _ _ (set_hash (Some (hashL E s a)))) in Ar.
        apply (modify_at _ _ _ _ _ (set_id c)) in Ar as [_ Ar].
        assigns. simpl flat_map in Ar, Al. unfold PartialProofs.slotR at 1 in Ar. cbn in Ar.
        unfold PartialProofs.slotL at 1 in Al. cbn in Al.
        set (tl := t_modify (t_modify (left_set m) p (set_hash (Some (hashR E s b)))) p (set_id c)) in *.
        set (tr := t_modify (t_modify (right_set m) q (set_hash (Some (hashL E s a)))) q (set_id c)) in *.
        assert (Al' : Permutation (slots tl)
          ((hashL E s a2, MP a2 (Some (hashR E s b)) j) ::
           (hashL E s a, MP a (Some (hashR E s b)) c) :: flat_map (slotL s) W))
          by (etransitivity; [exact Al|constructor]).
        assert (Ar' : Permutation (slots tr)
          ((hashR E s b1, MP b1 (Some (hashL E s a)) i) ::
           (hashR E s b, MP b (Some (hashL E s a)) c) :: flat_map (slotR s) W))
          by (etransitivity; [exact Ar|constructor]).
        destruct (get_mut_unique E OK _ (hashL E s a2) (hash_and_id (hashR E s b) j) _ _ Al')
          as (p2 & Ep2 & A2).
        { apply hid_refl. }
        { intros x [<-|Hx]; apply hid_of_id; [apply just_id_neq; lia|eapply id_l_other; eauto]. }
        rewrite Ep2. assigns.
        destruct (get_mut_unique E OK _ (hashR E s b1) (hash_and_id (hashL E s a) i) _ _ Ar')
          as (q2 & Eq2 & B2).
        { apply hid_refl. }
        { intros x [<-|Hx]; apply hid_of_id; [apply just_id_neq; lia|eapply id_r_other; eauto]. }
        rewrite Eq2. assigns.
        apply (modify_at _ _ _ _ _ (set_hash None)) in A2 as [_ A2]. assigns.
        apply (modify_at _ _ _ _ _ (set_hash None)) in B2 as [_ B2]. assigns.
        erewrite t_get_unique; [|auto|exact A2|apply just_id_refl|].
        2:{ intros x [<-|Hx]; [apply just_id_neq; lia|eapply id_l_other; eauto]. }
        erewrite t_get_unique; [|auto|exact B2|apply just_id_refl|].
        2:{ intros x [<-|Hx]; [apply just_id_neq; lia|eapply id_r_other; eauto]. }
        eexists _, (c + 1); split; [reflexivity|split; [lia|split; [lia|]]].
        eapply (repr_perm E OK); [simpl; do 3 constructor; symmetry; exact PD|].
        exists ([(c, SomeBoth a b); (i, SomeRight b1); (j, SomeLeft a2)] ++ W); split; auto.
        eapply (rep_rebuild E s c (c + 1) m _ [_; _] [_; _; _]); [exact H2| | | | | | | | | |]; auto.
        * apply (rep_hb _ _ _ _ _ H).
        * lia.
        * assigns. etransitivity; [exact A2|]. constructor.
        * assigns. etransitivity; [exact B2|]. constructor.
        * cbn. constructor; [|constructor; [|constructor; auto; constructor]].
          -- intros [|[|[]]]; lia.
          -- intros [|[]]; auto.
        * intros k [<-|[<-|[<-|[]]]]; simpl; auto. right; lia.
        * destruct PB as (DL & DR & _).
          split; [|split]; simpl; auto.
          -- apply (distinct_two_swap _ ER). auto.
          -- intros [|[|[|[]]]]; discriminate.
        * intros k [<-|[<-|[]]]; apply ApR; simpl; auto.
  Qed.

  Lemma pair_forced_remove_ok : forall s c m P l r, Repr s c m P -> c + 1 < two64 ->
    exists m' c', pair_forced_remove E l r m = Ret m' (s_pair_forced_out (eqL E) (eqR E) P l r) /\
      c <= c' /\ c' <= c + 1 /\ Repr s c' m' (s_pair_forced_remove (eqL E) (eqR E) P l r).
  Proof.
    intros s c m P l r HP Hc. unfold pair_forced_remove, s_pair_forced_remove, s_pair_forced_out,
      left_assign, right_assign, incr_counter, left_remove_entry, right_remove_entry.
    mrun. rewrite (are_paired_spec E OK _ _ _ _ l r HP). destruct HP as (Z & H & ->).
    rewrite (rep_hb _ _ _ _ _ H), (rep_c _ _ _ _ _ H).
    destruct (place_ok E OK s c m Z l r H) as [Hn|Hn|i a b W PZ H2 Hl Hr Hhl Hhr Nl Nr
                                         |z w W a b PZ H2 Ha Hb Hl Hr Hhl Hhr Nzr Nwl Nl Nr].
    - rewrite paired_nowhere by (left; auto).
      rewrite (left_mut_absent E _ _ _ _ _ H Hn), find_l_no by auto.
      exists m, c. repeat split; auto using rep_repr; lia.
    - rewrite paired_nowhere by (right; auto).
      rewrite (right_mut_absent E _ _ _ _ _ H Hn), (find_r_no E Z r) by auto.
      exists m, c. split; [|split; [lia|split; [lia|]]].
      + destruct (t_get_mut E (left_set m) _ _) as [[? ?]|], (find_l _ _ _) as [[]|]; auto.
      + destruct (find_l _ _ _) as [[]|]; auto using rep_repr.
    - rewrite (paired_same Z i a b W) by auto.
      rewrite (find_l_same E Z i a b W), (find_r_same E Z i a b W) by auto.
      unfold has_r; simpl. rewrite Hr. exists m, c. repeat split; auto using rep_repr; lia.
    - rewrite (paired_diff Z z w W) by auto.
      destruct (left_mut_found E OK s c m z (w :: W) a l H2 Ha Hl) as (p & -> & Al).
      { intros x [<-|Hx]; auto. }
      destruct (right_mut_found E OK s c m w (z :: W) b r (rep_snoc E OK _ _ _ _ _ _ H2) Hb Hr)
        as (q & -> & Ar).
      { intros x [<-|Hx]; auto. }
      rewrite (find_l_diff E Z z w W l a), (find_r_diff E Z z w W r b), Nzr by auto.
      assert (PD := del_diff E Z z w W l r a b PZ Ha Hl Nwl Nl Hb Hr Nr).
      assert (IDS := rep_ids _ _ _ _ _ H2). apply nodup_two in IDS as (Izw & Iz & Iw).
      assert (LT := rep_lt _ _ _ _ _ H2).
      assert (ApL := rep_apart_l E OK _ _ _ _ _ H2). assert (ApR := rep_apart_r E OK _ _ _ _ _ H2).
      assert (Lz := LT z (or_introl eq_refl)). assert (Lw := LT w (or_intror (or_introl eq_refl))).
      assert (Ea : In a (lefts (map snd [z; w]))).
      { apply in_lefts. exists (snd z). split; simpl; auto. }
      assert (Eb : In b (rights (map snd [z; w]))).
      { apply in_rights. exists (snd w). split; simpl; auto. }
      rewrite Hhl, Hhr in *.
      (* whatever the case, what is left is the new pair and the untouched entries *)
      assert (DONE : forall m' c' k, hash_builder m' = s -> counter m' = c' -> c <= c' ->
        (k = fst z \/ k = fst w \/ (c <= k /\ k < c')) ->
        Permutation (slots (left_set m'))
          ((hashL E s a, MP a (Some (hashR E s b)) k) :: flat_map (slotL s) W) ->
        Permutation (slots (right_set m'))
          ((hashR E s b, MP b (Some (hashL E s a)) k) :: flat_map (slotR s) W) ->
        Repr s c' m' (join (snd z) (snd w) ++ del_r (eqR E) (del_l (eqL E) (map snd Z) l) r)).
      { intros m' c' k Hs' Hc' Hle Hk Pl Pr. unfold join. rewrite Ha, Hb.
        eapply (repr_perm E OK); [simpl; constructor; symmetry; exact PD|].
        exists ([(k, SomeBoth a b)] ++ W); split; auto.
        eapply (rep_rebuild E s c c' m _ [_; _] [_]); [exact H2| | | | | | | | | |]; auto.
        - constructor; auto; constructor.
        - intros k' [<-|[]]. cbn. destruct Hk as [->|[->|Hk]]; auto.
        - split; [|split]; simpl; try apply distinct_one. intros [|[]]; discriminate.
        - intros x [<-|[]]. auto.
        - intros x [<-|[]]. auto. }
      assert (Hhb := rep_hb _ _ _ _ _ H). assert (Hct := rep_c _ _ _ _ _ H).
      destruct z as [i x], w as [j y]; cbn [fst snd] in *.
      destruct x as [|a1|b1|a1 b1]; simpl in Ha; inversion Ha; subst a1; clear Ha;
      destruct y as [|a2|b2|a2 b2]; simpl in Hb; inversion Hb; subst b2; clear Hb;
        cbn [option_map op_get_left op_get_right phash pid] in *.
      + (* both unpaired *)
        apply (modify_at _ _ _ _ _ (set_hash (Some (hashR E s b)))) in Al as [_ Al].
        apply (modify_at _ _ _ _ _ (set_hash (Some (hashL E s a)))) in Ar.
        apply (modify_at _ _ _ _ _ (set_id i)) in Ar as [_ Ar].
        eexists _, c; split; [reflexivity|split; [lia|split; [lia|]]].
        apply (DONE _ c i); auto. lia.
      + (* right paired *)
        apply (modify_at _ _ _ _ _ (set_hash (Some (hashR E s b)))) in Al as [_ Al].
        apply (modify_at _ _ _ _ _ (set_hash (Some (hashL E s a)))) in Ar.
        apply (modify_at _ _ _ _ _ (set_id i)) in Ar as [_ Ar].
        assigns.
        assert (Al' : Permutation (slots (t_modify (left_set m) p (set_hash (Some (hashR E s b)))))
          ((hashL E s a2, MP a2 (Some (hashR E s b)) j) ::
           (hashL E s a, MP a (Some (hashR E s b)) i) :: flat_map (slotL s) W))
          by (etransitivity; [exact Al|constructor]).
        destruct (t_remove_entry_unique (lo E) LO _ (hashL E s a2) (hash_and_id (hashR E s b) j)
          _ _ Al') as (t2 & -> & P2).
        { apply hid_refl. }
        { intros x [<-|Hx]; apply hid_of_id; [apply just_id_neq; auto|eapply id_l_other; eauto]. }
        eexists _, c; split; [reflexivity|split; [lia|split; [lia|]]].
        apply (DONE _ c i); auto. lia.
      + (* left paired *)
        apply (modify_at _ _ _ _ _ (set_hash (Some (hashR E s b)))) in Al.
        apply (modify_at _ _ _ _ _ (set_id j)) in Al as [_ Al].
        apply (modify_at _ _ _ _ _ (set_hash (Some (hashL E s a)))) in Ar as [_ Ar].
        assigns.
        assert (Ar' : Permutation (slots (t_modify (right_set m) q (set_hash (Some (hashL E s a)))))
          ((hashR E s b1, MP b1 (Some (hashL E s a)) i) ::
           (hashR E s b, MP b (Some (hashL E s a)) j) :: flat_map (slotR s) W))
          by (etransitivity; [exact Ar|constructor]).
        destruct (t_remove_entry_unique (lo E) LO _ (hashR E s b1) (just_id i) _ _ Ar')
          as (t2 & -> & P2).
        { apply just_id_refl. }
        { intros x [<-|Hx]; [apply just_id_neq; auto|eapply id_r_other; eauto]. }
        eexists _, c; split; [reflexivity|split; [lia|split; [lia|]]].
        apply (DONE _ c j); auto. lia.
      + (* both paired *)
        assigns. rewrite Hct, u64_incr_ok by auto.
        apply (modify_at _ _ _ _ _ (set_hash (Some (hashR E s b)))) in Al.
        apply (modify_at _ _ _ _ _ (set_id c)) in Al as [_ Al].
        apply (modify_at _ _ _ _ _ (set_hash (Some (hashL E s a)))) in Ar.
        apply (modify_at _ _ _ _ _ (set_id c)) in Ar as [_ Ar].
        assigns.
        set (tl := t_modify (t_modify (left_set m) p (set_hash (Some (hashR E s b)))) p (set_id c)) in *.
        set (tr := t_modify (t_modify (right_set m) q (set_hash (Some (hashL E s a)))) q (set_id c)) in *.
        assert (Al' : Permutation (slots tl)
          ((hashL E s a2, MP a2 (Some (hashR E s b)) j) ::
           (hashL E s a, MP a (Some (hashR E s b)) c) :: flat_map (slotL s) W))
          by (etransitivity; [exact Al|constructor]).
        assert (Ar' : Permutation (slots tr)
          ((hashR E s b1, MP b1 (Some (hashL E s a)) i) ::
           (hashR E s b, MP b (Some (hashL E s a)) c) :: flat_map (slotR s) W))
          by (etransitivity; [exact Ar|constructor]).
        destruct (t_remove_entry_unique (lo E) LO _ (hashL E s a2) (just_id j) _ _ Al')
          as (t1 & -> & P1).
        { apply just_id_refl. }
        { intros x [<-|Hx]; [apply just_id_neq; lia|eapply id_l_other; eauto]. }
        assigns.
        destruct (t_remove_entry_unique (lo E) LO _ (hashR E s b1) (just_id i) _ _ Ar')
          as (t2 & -> & P2).
        { apply just_id_refl. }
        { intros x [<-|Hx]; [apply just_id_neq; lia|eapply id_r_other; eauto]. }
        eexists _, (c + 1); split; [reflexivity|split; [lia|split; [lia|]]].
        apply (DONE _ (c + 1) c); auto; [lia|]. right; right; lia.
  Qed.

  (* unpair compares hashes only.  It is right unless l and r are paired with other items
     whose hashes both collide with those of l and r. *)
  Definition unpair_safe (s : S) (P : list entry) (l : L) (r : R) : Prop :=
    forall a b a' b', find_l (eqL E) P l = Some (SomeBoth a b') ->
      find_r (eqR E) P r = Some (SomeBoth a' b) ->
      hashL E s a' = hashL E s l -> hashR E s b' = hashR E s r ->
      s_are_paired (eqL E) (eqR E) P l r = true.

  Lemma unpair_ok : forall s c m P l r, Repr s c m P -> c + 1 < two64 -> unpair_safe s P l r ->
    exists m' c', unpair E l r m = Ret m' (s_are_paired (eqL E) (eqR E) P l r) /\
      c <= c' /\ c' <= c + 1 /\ Repr s c' m' (s_unpair (eqL E) (eqR E) P l r).
  Proof.
    intros s c m P l r HP Hc SAFE. unfold unpair, s_unpair, left_assign, right_assign, incr_counter.
    mrun. destruct HP as (Z & H & ->).
    rewrite (rep_hb _ _ _ _ _ H), (rep_c _ _ _ _ _ H).
    destruct (place_ok E OK s c m Z l r H) as [Hn|Hn|i a b W PZ H2 Hl Hr Hhl Hhr Nl Nr
                                         |z w W a b PZ H2 Ha Hb Hl Hr Hhl Hhr Nzr Nwl Nl Nr].
    - rewrite paired_nowhere by (left; auto).
      rewrite (left_mut_absent E _ _ _ _ _ H Hn), find_l_no by auto.
      exists m, c. repeat split; auto using rep_repr; lia.
    - rewrite paired_nowhere by (right; auto).
      rewrite (right_mut_absent E _ _ _ _ _ H Hn).
      exists m, c. split; [|split; [lia|split; [lia|]]].
      + destruct (t_get_mut E (left_set m) _ _) as [[? ?]|]; auto.
      + destruct (find_l (eqL E) (map snd Z) l) as [x|] eqn:F; auto using rep_repr.
        assert (has_r (eqR E) r x = false) as ->; auto using rep_repr.
        apply find_some in F as [F _]. apply in_map_iff in F as (y & <- & Hy). auto.
    - rewrite (paired_same Z i a b W) by auto.
      destruct (left_mut_found E OK _ _ _ _ _ _ l H2 eq_refl Hl Nl) as (p & -> & Al).
      destruct (right_mut_found E OK _ _ _ _ _ _ r H2 eq_refl Hr Nr) as (q & -> & Ar).
      rewrite (find_l_same E Z i a b W) by auto.
      cbn [option_map op_get_left op_get_right phash pid snd fst] in *.
      rewrite Hhl, Hhr, !N.eqb_refl. cbn [andb]. assigns.
      rewrite (rep_c _ _ _ _ _ H), u64_incr_ok by auto.
      unfold has_r. cbn [op_get_right]. rewrite Hr.
      apply (modify_at _ _ _ _ _ (set_hash None)) in Al as [_ Al].
      apply (modify_at _ _ _ _ _ (set_hash None)) in Ar.
      apply (modify_at _ _ _ _ _ (set_id c)) in Ar as [_ Ar].
      eexists _, (c + 1); split; [reflexivity|split; [lia|split; [lia|]]].
      eapply (repr_perm E OK).
      { simpl. do 2 constructor. symmetry. apply (filter_del (has_l (eqL E) l) Z _ W PZ); auto. }
      exists ([(i, SomeLeft a); (c, SomeRight b)] ++ W); split; auto.
      assert (Li := rep_lt _ _ _ _ _ H2 _ (or_introl eq_refl)). cbn in Li.
      eapply (rep_rebuild E s c (c + 1) m _ [_] [_; _]); [exact H2| | | | | | | | | |]; auto.
      + apply (rep_hb _ _ _ _ _ H).
      + lia.
      + cbn. constructor; [|constructor; auto; constructor]. intros [|[]]; lia.
      + intros k [<-|[<-|[]]]; cbn; auto. right; lia.
      + split; [|split]; simpl; try apply distinct_one. intros [|[|[]]]; discriminate.
      + intros k [<-|[]]. apply (rep_apart_l E OK _ _ _ [_] W H2). left; auto.
      + intros k [<-|[]]. apply (rep_apart_r E OK _ _ _ [_] W H2). left; auto.
    - rewrite (paired_diff Z z w W) by auto.
      destruct (left_mut_found E OK s c m z (w :: W) a l H2 Ha Hl) as (p & -> & _).
      { intros x [<-|Hx]; auto. }
      destruct (right_mut_found E OK s c m w (z :: W) b r (rep_snoc E OK _ _ _ _ _ _ H2) Hb Hr)
        as (q & -> & _).
      { intros x [<-|Hx]; auto. }
      assert (FL := find_l_diff E Z z w W l a PZ Ha Hl Nwl Nl).
      assert (FR := find_r_diff E Z z w W r b PZ Hb Hr Nzr Nr).
      assert (APF := paired_diff Z z w W l r PZ Nzr Nwl Nl).
      rewrite FL, Nzr. cbn [phash pid].
      exists m, c. split; [|split; [lia|split; [lia|auto using rep_repr]]].
      destruct z as [i x], w as [j y]; cbn [fst snd] in *.
      destruct x as [|a1|b1|a1 b1]; simpl in Ha; inversion Ha; subst a1; clear Ha;
      destruct y as [|a2|b2|a2 b2]; simpl in Hb; inversion Hb; subst b2; clear Hb;
        cbn [option_map op_get_left op_get_right] in *; auto.
      destruct ((hashL E s l =? hashL E s a2) && (hashR E s r =? hashR E s b1)) eqn:G; auto.
      apply andb_true_iff in G as [G1 G2]. apply N.eqb_eq in G1. apply N.eqb_eq in G2.
      rewrite (SAFE a b a2 b1) in APF; auto. discriminate.
  Qed.
End Proofs4.
