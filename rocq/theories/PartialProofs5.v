(* Refinement of PartialCycleMap, part 5: the swap functions. *)
From Coq Require Import List NArith Lia Bool Permutation.
From Verif Require Import Prelude RawTable Optionals PartialCycleMap PartialSpec ListFacts TableFacts
  PartialProofs PartialProofs2 PartialProofs3.
Import ListNotations.
Open Scope N_scope.

Section Proofs5.
  Context {L R S : Type} (E : env L R S) (OK : lawful E).
  Notation pm := (pmap L R S).
  Notation entry := (optional_pair L R).
  Notation zent := (N * entry)%type.
  Notation Rep := (Rep E).
  Notation Repr := (Repr E).
  Notation slotL := (slotL E).
  Notation slotR := (slotR E).
  Let EL := eqL_equiv _ OK.
  Let ER := eqR_equiv _ OK.
  Let LO := lo_ok _ OK.

  Lemma hashed_slotL : forall s t (Z : list zent), Permutation (slots t) (flat_map (slotL s) Z) ->
    hashed (make_hasher_l E s) (slots t).
  Proof.
    intros s t Z H. eapply hashed_perm; [symmetry; apply H|].
    intros x Hx. apply in_flat_map in Hx as (z & _ & Hz). unfold PartialProofs.slotL in Hz.
    destruct (op_get_left (snd z)); [destruct Hz as [<-|[]]; reflexivity|easy].
  Qed.
  Lemma hashed_slotR : forall s t (Z : list zent), Permutation (slots t) (flat_map (slotR s) Z) ->
    hashed (make_hasher_r E s) (slots t).
  Proof.
    intros s t Z H. eapply hashed_perm; [symmetry; apply H|].
    intros x Hx. apply in_flat_map in Hx as (z & _ & Hz). unfold PartialProofs.slotR in Hz.
    destruct (op_get_right (snd z)); [destruct Hz as [<-|[]]; reflexivity|easy].
  Qed.

  Lemma contains_find_l : forall P l, s_contains_left (eqL E) P l
      = is_some (find_l (L := L) (R := R) (eqL E) P l).
  Proof.
    unfold s_contains_left, find_l. induction P; simpl; intros; auto.
    destruct (has_l (eqL E) l a); simpl; auto.
  Qed.
  Lemma contains_find_r : forall P r, s_contains_right (eqR E) P r
      = is_some (find_r (L := L) (R := R) (eqR E) P r).
  Proof.
    unfold s_contains_right, find_r. induction P; simpl; intros; auto.
    destruct (has_r (eqR E) r a); simpl; auto.
  Qed.
  Lemma del_l_none : forall (P : list entry) l, find_l (eqL E) P l = None -> del_l (eqL E) P l = P.
  Proof.
    intros P l H. apply filter_all_true. intros x Hx.
    unfold find_l in H. eapply find_none in H; eauto. rewrite H; auto.
  Qed.
  Lemma del_r_none : forall (P : list entry) r, find_r (eqR E) P r = None -> del_r (eqR E) P r = P.
  Proof.
    intros P l H. apply filter_all_true. intros x Hx.
    unfold find_r in H. eapply find_none in H; eauto. rewrite H; auto.
  Qed.
  Lemma find_l_not_neither : forall (P : list entry) l, find_l (eqL E) P l <> Some Neither.
  Proof. intros P l H. unfold find_l in H. apply find_some in H as [_ H]. discriminate. Qed.
  Lemma find_r_not_neither : forall (P : list entry) r, find_r (eqR E) P r <> Some Neither.
  Proof. intros P l H. unfold find_r in H. apply find_some in H as [_ H]. discriminate. Qed.

  Lemma swap_left_eq_check_ok : forall s c m P old new, Repr s c m P ->
    exists m1, swap_left_eq_check E old new (hashL E s new) m
        = Ret m1 (if eqL E new old then Neither else or_neither (find_l (eqL E) P new)) /\
      Repr s c m1 (s_swap_left_base (eqL E) P old new).
  Proof.
    intros s c m P old new H. unfold swap_left_eq_check, s_swap_left_base. mrun.
    rewrite (left_get_bool E OK _ _ _ _ new H), contains_find_l.
    destruct (eqL E new old) eqn:X; simpl.
    - rewrite andb_false_r. eauto.
    - rewrite andb_true_r. destruct (find_l (eqL E) P new) eqn:F; simpl.
      + destruct (remove_via_left_ok E OK s c m P new H) as (m1 & E1 & H1).
        rewrite F in E1. eauto.
      + rewrite del_l_none by auto. eauto.
  Qed.
  Lemma swap_right_eq_check_ok : forall s c m P old new, Repr s c m P ->
    exists m1, swap_right_eq_check E old new (hashR E s new) m
        = Ret m1 (if eqR E new old then Neither else or_neither (find_r (eqR E) P new)) /\
      Repr s c m1 (s_swap_right_base (eqR E) P old new).
  Proof.
    intros s c m P old new H. unfold swap_right_eq_check, s_swap_right_base. mrun.
    rewrite (right_get_bool E OK _ _ _ _ new H), contains_find_r.
    destruct (eqR E new old) eqn:X; simpl.
    - rewrite andb_false_r. eauto.
    - rewrite andb_true_r. destruct (find_r (eqR E) P new) eqn:F; simpl.
      + destruct (remove_via_right_ok E OK s c m P new H) as (m1 & E1 & H1).
        rewrite F in E1. eauto.
      + rewrite del_r_none by auto. eauto.
  Qed.

  Lemma find_l_base : forall (P : list entry) old new,
    find_l (eqL E) (s_swap_left_base (eqL E) P old new) old = find_l (eqL E) P old.
  Proof.
    intros P old new. unfold s_swap_left_base. destruct (eqL E new old) eqn:X; auto.
    apply find_filter_imp. intros x Hx. apply negb_true_iff.
    apply has_l_true in Hx as (a & Ha & Hx). unfold has_l. rewrite Ha.
    rewrite <- (eqb_replace_r _ EL old a new); auto.
  Qed.
  Lemma find_r_base : forall (P : list entry) old new,
    find_r (eqR E) (s_swap_right_base (eqR E) P old new) old = find_r (eqR E) P old.
  Proof.
    intros P old new. unfold s_swap_right_base. destruct (eqR E new old) eqn:X; auto.
    apply find_filter_imp. intros x Hx. apply negb_true_iff.
    apply has_r_true in Hx as (a & Ha & Hx). unfold has_r. rewrite Ha.
    rewrite <- (eqb_replace_r _ ER old a new); auto.
  Qed.

  (* nothing but the entry of old can hold new *)
  Lemma base_no_new_l : forall (P : list entry) old new (Z : list zent) z Z',
    s_swap_left_base (eqL E) P old new = map snd Z -> Permutation Z (z :: Z') ->
    (forall x, In x Z' -> has_l (eqL E) old (snd x) = false) ->
    forall x, In x Z' -> has_l (eqL E) new (snd x) = false.
  Proof.
    intros P old new Z z Z' HB PZ Hn x Hx. unfold s_swap_left_base in HB.
    destruct (eqL E new old) eqn:X.
    - specialize (Hn x Hx). unfold has_l in *. destruct (op_get_left (snd x)); auto.
      rewrite (eqb_replace_l _ EL new old); auto.
    - eapply del_l_no; eauto. eapply Permutation_in; [symmetry; eauto|right; auto].
  Qed.
  Lemma base_no_new_r : forall (P : list entry) old new (Z : list zent) z Z',
    s_swap_right_base (eqR E) P old new = map snd Z -> Permutation Z (z :: Z') ->
    (forall x, In x Z' -> has_r (eqR E) old (snd x) = false) ->
    forall x, In x Z' -> has_r (eqR E) new (snd x) = false.
  Proof.
    intros P old new Z z Z' HB PZ Hn x Hx. unfold s_swap_right_base in HB.
    destruct (eqR E new old) eqn:X.
    - specialize (Hn x Hx). unfold has_r in *. destruct (op_get_right (snd x)); auto.
      rewrite (eqb_replace_l _ ER new old); auto.
    - eapply del_r_no; eauto. eapply Permutation_in; [symmetry; eauto|right; auto].
  Qed.

  Lemma swap_left_ok : forall s c m P old new, Repr s c m P ->
    exists m', swap_left E old new m = Ret m' (s_swap_left_out (eqL E) P old new) /\
               Repr s c m' (s_swap_left (eqL E) P old new).
  Proof.
    intros s c m P old new H. unfold swap_left, right_assign, left_remove_entry, left_insert.
    destruct (swap_left_eq_check_ok s c m P old new H) as (m1 & E1 & H1).
    mrun. destruct H as (Z0 & H & ->). rewrite (rep_hb _ _ _ _ _ H), E1.
    unfold s_swap_left, s_swap_left_out.
    rewrite <- (find_l_base (map snd Z0) old new).
    destruct H1 as (Z & H1 & HZ). rewrite HZ. rewrite (rep_hb _ _ _ _ _ H1).
    destruct (split_l E OK _ _ _ _ old H1) as [(z & Z' & a & PZ & H' & Ha & Hq & Hh & Hn)|Hn].
    - rewrite (left_get_found E OK _ _ _ _ _ _ _ H' Ha Hq Hn).
      assert (HL := has_l_some E old (snd z) a Ha Hq).
      assert (FO : find_l (eqL E) (map snd Z) old = Some (snd z))
        by exact (find_split _ Z z Z' PZ HL Hn). rewrite FO.
      assert (PD := filter_del _ Z z Z' PZ HL Hn).
      assert (NN := base_no_new_l _ _ _ Z z Z' HZ PZ Hn).
      assert (IDS := ids_other z Z' (rep_ids _ _ _ _ _ H')).
      assert (RC := rep_c _ _ _ _ _ H1). assert (RH := rep_hb _ _ _ _ _ H1).
      assert (OUT : forall b : L, match (if eqL E new old then Neither
          else or_neither (find_l (eqL E) (map snd Z0) new)) with
        | Neither => SomeLeft b
        | _ => SomeBoth b (if eqL E new old then Neither
                           else or_neither (find_l (eqL E) (map snd Z0) new)) end
        = op_from_pair (Some b, if eqL E new old then None else find_l (eqL E) (map snd Z0) new)).
      { intro b. destruct (eqL E new old); auto.
        destruct (find_l (eqL E) (map snd Z0) new) as [[]|] eqn:F; auto.
        exfalso; eapply find_l_not_neither; eauto. }
      destruct (t_remove_entry_unique (lo E) LO (left_set m1) _
          (equivalent_key (eqL E) old) _ _ (rep_l_cons E _ _ _ _ _ _ H' Ha) Hq) as (tl & EQ & Pl).
      { intros x Hx. eapply key_l_other; eauto. }
      destruct z as [i x]; cbn [fst snd phash pid] in *.
      destruct x as [|a'|b|a' b]; simpl in Ha; inversion Ha; subst a'; clear Ha;
        cbn [option_map op_get_right op_get_left] in *.
      + rewrite Hh, EQ. cbn -[t_insert op_from_pair op_get_left]. rewrite RH.
        eexists; split.
        { rewrite <- OUT. destruct (if eqL E new old then _ else _); reflexivity. }
        eapply (repr_perm E OK); [constructor; symmetry; exact PD|].
        exists ((i, SomeLeft new) :: Z'); split; auto.
        eapply (rep_rebuild E s c c m1 _ [_] [_]); [exact H'| | | | | | | | | |]; auto.
        * lia.
        * etransitivity; [apply t_insert_perm; auto; eapply hashed_slotL; eauto|].
          constructor; exact Pl.
        * apply (rep_r _ _ _ _ _ H').
        * constructor; auto; constructor.
        * split; [|split]; simpl; [apply distinct_one|apply distinct_nil|]. intros [|[]]; discriminate.
        * intros k [<-|[]]. exact NN.
        * intros k [].
      + destruct (get_mut_unique E OK (right_set m1) (hashR E s b) (hash_and_id (hashL E s a) i) _ _
          (rep_r_cons E _ _ _ _ _ _ H' eq_refl)) as (j & Er & AT).
        { unfold hash_and_id; simpl. rewrite !N.eqb_refl; auto. }
        { intros y Hy. apply hid_of_id. eapply id_r_other; eauto. }
        cbn [fst] in Er. rewrite Hh, Er. cbn -[t_insert op_from_pair op_get_left t_modify].
        rewrite EQ. cbn -[t_insert op_from_pair op_get_left t_modify]. rewrite RH.
        eexists; split.
        { rewrite <- OUT. destruct (if eqL E new old then _ else _); reflexivity. }
        eapply (repr_perm E OK); [constructor; symmetry; exact PD|].
        apply (modify_at _ _ _ _ _ (set_hash (Some (hashL E s new)))) in AT as [_ AT].
        exists ((i, SomeBoth new b) :: Z'); split; auto.
        eapply (rep_rebuild E s c c m1 _ [_] [_]); [exact H'| | | | | | | | | |]; auto.
        * lia.
        * etransitivity; [apply t_insert_perm; auto; eapply hashed_slotL; eauto|].
          constructor; exact Pl.
        * constructor; auto; constructor.
        * split; [|split]; simpl; try apply distinct_one. intros [|[]]; discriminate.
        * intros k [<-|[]]. exact NN.
        * intros k [<-|[]]. apply (rep_apart_r E OK _ _ _ [_] Z' H'). left; auto.
    - rewrite t_get_absent by (eapply left_absent; eauto).
      rewrite find_l_no by auto. exists m1; split; auto. exists Z; auto.
  Qed.

  Lemma swap_right_ok : forall s c m P old new, Repr s c m P ->
    exists m', swap_right E old new m = Ret m' (s_swap_right_out (eqR E) P old new) /\
               Repr s c m' (s_swap_right (eqR E) P old new).
  Proof.
    intros s c m P old new H. unfold swap_right, left_assign, right_remove_entry, right_insert.
    destruct (swap_right_eq_check_ok s c m P old new H) as (m1 & E1 & H1).
    mrun. destruct H as (Z0 & H & ->). rewrite (rep_hb _ _ _ _ _ H), E1.
    unfold s_swap_right, s_swap_right_out.
    rewrite <- (find_r_base (map snd Z0) old new).
    destruct H1 as (Z & H1 & HZ). rewrite HZ. rewrite (rep_hb _ _ _ _ _ H1).
    destruct (split_r E OK _ _ _ _ old H1) as [(z & Z' & a & PZ & H' & Ha & Hq & Hh & Hn)|Hn].
    - rewrite (right_get_found E OK _ _ _ _ _ _ _ H' Ha Hq Hn).
      assert (HL := has_r_some E old (snd z) a Ha Hq).
      assert (FO : find_r (eqR E) (map snd Z) old = Some (snd z))
        by exact (find_split _ Z z Z' PZ HL Hn). rewrite FO.
      assert (PD := filter_del _ Z z Z' PZ HL Hn).
      assert (NN := base_no_new_r _ _ _ Z z Z' HZ PZ Hn).
      assert (IDS := ids_other z Z' (rep_ids _ _ _ _ _ H')).
      assert (RC := rep_c _ _ _ _ _ H1). assert (RH := rep_hb _ _ _ _ _ H1).
      assert (OUT : forall b : R, match (if eqR E new old then Neither
          else or_neither (find_r (eqR E) (map snd Z0) new)) with
        | Neither => SomeLeft b
        | _ => SomeBoth b (if eqR E new old then Neither
                           else or_neither (find_r (eqR E) (map snd Z0) new)) end
        = op_from_pair (Some b, if eqR E new old then None else find_r (eqR E) (map snd Z0) new)).
      { intro b. destruct (eqR E new old); auto.
        destruct (find_r (eqR E) (map snd Z0) new) as [[]|] eqn:F; auto.
        exfalso; eapply find_r_not_neither; eauto. }
      destruct (t_remove_entry_unique (lo E) LO (right_set m1) _
          (equivalent_key (eqR E) old) _ _ (rep_r_cons E _ _ _ _ _ _ H' Ha) Hq) as (tl & EQ & Pl).
      { intros x Hx. eapply key_r_other; eauto. }
      destruct z as [i x]; cbn [fst snd phash pid] in *.
      destruct x as [|b|a'|b a']; simpl in Ha; inversion Ha; subst a'; clear Ha;
        cbn [option_map op_get_right op_get_left] in *.
      + rewrite Hh, EQ. cbn -[t_insert op_from_pair op_get_left]. rewrite RH.
        eexists; split.
        { rewrite <- OUT. destruct (if eqR E new old then _ else _); reflexivity. }
        eapply (repr_perm E OK); [constructor; symmetry; exact PD|].
        exists ((i, SomeRight new) :: Z'); split; auto.
        eapply (rep_rebuild E s c c m1 _ [_] [_]); [exact H'| | | | | | | | | |]; auto.
        * lia.
        * apply (rep_l _ _ _ _ _ H').
        * etransitivity; [apply t_insert_perm; auto; eapply hashed_slotR; eauto|].
          constructor; exact Pl.
        * constructor; auto; constructor.
        * split; [|split]; simpl; [apply distinct_nil|apply distinct_one|]. intros [|[]]; discriminate.
        * intros k [].
        * intros k [<-|[]]. exact NN.
      + destruct (get_mut_unique E OK (left_set m1) (hashL E s b) (hash_and_id (hashR E s a) i) _ _
          (rep_l_cons E _ _ _ _ _ _ H' eq_refl)) as (j & Er & AT).
        { unfold hash_and_id; simpl. rewrite !N.eqb_refl; auto. }
        { intros y Hy. apply hid_of_id. eapply id_l_other; eauto. }
        cbn [fst] in Er. rewrite Hh, Er. cbn -[t_insert op_from_pair op_get_left t_modify].
        rewrite EQ. cbn -[t_insert op_from_pair op_get_left t_modify]. rewrite RH.
        eexists; split.
        { rewrite <- OUT. destruct (if eqR E new old then _ else _); reflexivity. }
        eapply (repr_perm E OK); [constructor; symmetry; exact PD|].
        apply (modify_at _ _ _ _ _ (set_hash (Some (hashR E s new)))) in AT as [_ AT].
        exists ((i, SomeBoth b new) :: Z'); split; auto.
        eapply (rep_rebuild E s c c m1 _ [_] [_]); [exact H'| | | | | | | | | |]; auto.
        * lia.
        * etransitivity; [apply t_insert_perm; auto; eapply hashed_slotR; eauto|].
          constructor; exact Pl.
        * constructor; auto; constructor.
        * split; [|split]; simpl; try apply distinct_one. intros [|[]]; discriminate.
        * intros k [<-|[]]. apply (rep_apart_l E OK _ _ _ [_] Z' H'). left; auto.
        * intros k [<-|[]]. exact NN.
    - rewrite t_get_absent by (eapply right_absent; eauto).
      rewrite find_r_no by auto. exists m1; split; auto. exists Z; auto.
  Qed.

  Lemma swap_left_checked_ok : forall s c m P old r new, Repr s c m P ->
    exists m', swap_left_checked E old r new m
        = Ret m' (if s_are_paired (eqL E) (eqR E) P old r then s_swap_left_out (eqL E) P old new
                  else Neither) /\
      Repr s c m' (if s_are_paired (eqL E) (eqR E) P old r then s_swap_left (eqL E) P old new else P).
  Proof.
    intros s c m P old r new H. unfold swap_left_checked. mrun.
    rewrite (are_paired_spec E OK _ _ _ _ old r H).
    destruct (s_are_paired _ _ P old r); simpl; eauto.
    apply swap_left_ok; auto.
  Qed.
  Lemma swap_right_checked_ok : forall s c m P old l new, Repr s c m P ->
    exists m', swap_right_checked E old l new m
        = Ret m' (if s_are_paired (eqL E) (eqR E) P l old then s_swap_right_out (eqR E) P old new
                  else Neither) /\
      Repr s c m' (if s_are_paired (eqL E) (eqR E) P l old then s_swap_right (eqR E) P old new else P).
  Proof.
    intros s c m P old r new H. unfold swap_right_checked. mrun.
    rewrite (are_paired_spec E OK _ _ _ _ r old H).
    destruct (s_are_paired _ _ P r old); simpl; eauto.
    apply swap_right_ok; auto.
  Qed.

  (* the or_insert forms: with old absent they insert, and panic afterwards when new was
     already present *)
  Lemma swap_left_or_insert_ok : forall s c m P old new r, Repr s c m P -> c + 1 < two64 ->
    if s_contains_left (eqL E) P old then
      exists m', swap_left_or_insert E old new r m = Ret m' (s_swap_left_out (eqL E) P old new) /\
                 Repr s c m' (s_swap_left (eqL E) P old new)
    else
      exists m', Repr s (c + 1) m' (s_insert (eqL E) (eqR E) P new r) /\
        swap_left_or_insert E old new r m
        = if s_contains_left (eqL E) P new then Panic m'
          else Ret m' (op_from_pair (None, find_r (eqR E) P r)).
  Proof.
    intros s c m P old new r H Hc. unfold swap_left_or_insert.
    destruct (insert_ok E OK s c m P new r H Hc) as (m1 & E1 & H1).
    destruct (swap_left_ok s c m P old new H) as (m2 & E2 & H2).
    mrun. assert (hash_builder m = s) as -> by (destruct H as (Z & H & _); apply H).
    rewrite (left_get_bool E OK _ _ _ _ old H).
    destruct (s_contains_left (eqL E) P old); eauto.
    rewrite E1. exists m1; split; auto. unfold s_insert_out. rewrite contains_find_l.
    destruct (find_l (eqL E) P new) as [[]|] eqn:F; simpl; auto.
    - exfalso; eapply find_l_not_neither; eauto.
    - rewrite del_l_none by auto.
      destruct (find_r (eqR E) P r) as [[]|] eqn:G; simpl; auto.
      exfalso; eapply find_r_not_neither; eauto.
  Qed.
  Lemma swap_right_or_insert_ok : forall s c m P old new l, Repr s c m P -> c + 1 < two64 ->
    if s_contains_right (eqR E) P old then
      exists m', swap_right_or_insert E old new l m = Ret m' (s_swap_right_out (eqR E) P old new) /\
                 Repr s c m' (s_swap_right (eqR E) P old new)
    else
      exists m', Repr s (c + 1) m' (s_insert (eqL E) (eqR E) P l new) /\
        swap_right_or_insert E old new l m
        = if s_contains_right (eqR E) (del_l (eqL E) P l) new then Panic m'
          else Ret m' (op_from_pair (None, find_l (eqL E) P l)).
  Proof.
    intros s c m P old new l H Hc. unfold swap_right_or_insert.
    destruct (insert_ok E OK s c m P l new H Hc) as (m1 & E1 & H1).
    destruct (swap_right_ok s c m P old new H) as (m2 & E2 & H2).
    mrun. assert (hash_builder m = s) as -> by (destruct H as (Z & H & _); apply H).
    rewrite (right_get_bool E OK _ _ _ _ old H).
    destruct (s_contains_right (eqR E) P old); eauto.
    rewrite E1. exists m1; split; auto. unfold s_insert_out. rewrite contains_find_r.
    destruct (find_r (eqR E) (del_l (eqL E) P l) new) as [x|] eqn:G; cbn [or_neither is_some].
    - destruct x; try (destruct (or_neither (find_l (eqL E) P l)); auto; fail).
      exfalso; eapply find_r_not_neither; eauto.
    - destruct (find_l (eqL E) P l) as [[]|] eqn:F; simpl; auto.
      exfalso; eapply find_l_not_neither; eauto.
  Qed.
End Proofs5.
