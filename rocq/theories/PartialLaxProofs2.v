(* The model meets PartialLax, part 2: pairing, unpairing, removal of pairs, swaps, queries. *)
From Coq Require Import List NArith Lia Bool Permutation PeanoNat.
From Verif Require Import Closures Prelude RawTable Optionals PartialCycleMap ListFacts TableFacts
  PartialSpec PartialHistory PartialProofs PartialProofs2 PartialProofs3 PartialProofs4 PartialLax
  PartialLaxProofs.
Import ListNotations.
Open Scope N_scope.

Section LaxProofs2.
  Context {L R S : Type} (E : env L R S) (OK : lax E).
  Notation pm := (pmap L R S).
  Notation entry := (optional_pair L R).
  Notation zent := (N * entry)%type.
  Notation slotL := (slotL E).
  Notation slotR := (slotR E).
  Let LO := CycleMapLax.lax_lo _ OK.
  Notation eL := (eqL E).
  Notation eR := (eqR E).
  Notation WRep := (WRep E).
  Notation at_l := (at_l E).
  Notation at_r := (at_r E).

  Ltac assigns := cbn [set_left set_right set_counter left_set right_set counter hash_builder
                       fst snd value phash pid set_hash set_id option_map] in *.

  Notation mut_l m s l := (t_get_mut E (left_set m) (hashL E s l) (equivalent_key eL l)).
  Notation mut_r m s r := (t_get_mut E (right_set m) (hashR E s r) (equivalent_key eR r)).

  (* where the lookups of l and r end *)
  Inductive wplace (s : S) (m : pm) (Z : list zent) (l : L) (r : R) : Prop :=
  | WP_none :
      (mut_l m s l = None /\ (forall z, In z Z -> at_l l z = false)) \/
      (mut_r m s r = None /\ (forall z, In z Z -> at_r r z = false)) ->
      are_paired E m l r = false -> wplace s m Z l r
  | WP_same : forall i a b W p q, Permutation Z ((i, SomeBoth a b) :: W) ->
      eL l a = true -> eR r b = true -> hashL E s l = hashL E s a -> hashR E s r = hashR E s b ->
      mut_l m s l = Some (p, MP a (Some (hashR E s b)) i) ->
      mut_r m s r = Some (q, MP b (Some (hashL E s a)) i) ->
      at_slot (left_set m) p (hashL E s a) (MP a (Some (hashR E s b)) i) (flat_map (slotL s) W) ->
      at_slot (right_set m) q (hashR E s b) (MP b (Some (hashL E s a)) i) (flat_map (slotR s) W) ->
      are_paired E m l r = true -> wplace s m Z l r
  | WP_two : forall z w W a b p q, Permutation Z (z :: w :: W) ->
      op_get_left (snd z) = Some a -> op_get_right (snd w) = Some b ->
      eL l a = true -> eR r b = true -> hashL E s l = hashL E s a -> hashR E s r = hashR E s b ->
      mut_l m s l = Some (p, MP a (option_map (hashR E s) (op_get_right (snd z))) (fst z)) ->
      mut_r m s r = Some (q, MP b (option_map (hashL E s) (op_get_left (snd w))) (fst w)) ->
      at_slot (left_set m) p (hashL E s a)
        (MP a (option_map (hashR E s) (op_get_right (snd z))) (fst z)) (flat_map (slotL s) (w :: W)) ->
      at_slot (right_set m) q (hashR E s b)
        (MP b (option_map (hashL E s) (op_get_left (snd w))) (fst w)) (flat_map (slotR s) (z :: W)) ->
      are_paired E m l r = false -> wplace s m Z l r.

  Lemma same_id : forall s c m Z (z w : zent), WRep s c m Z -> In z Z -> In w Z ->
    fst z = fst w -> z = w.
  Proof.
    intros s c m Z z w H Hz Hw EQ. destruct (perm_in_cons _ _ Hz) as (Z' & P).
    apply (Permutation_in _ P) in Hw. destruct Hw as [|Hw]; auto. exfalso.
    eapply (ids_other z Z'); [|exact Hw|auto].
    eapply NoDup_perm; [apply Permutation_map, P|apply (w_ids _ _ _ _ _ H)].
  Qed.

  Lemma wplace_ok : forall s c m Z l r, WRep s c m Z -> wplace s m Z l r.
  Proof.
    intros s c m Z l r H. assert (AP : are_paired E m l r =
      match mut_l m s l, mut_r m s r with
      | Some (_, a), Some (_, b) => (pid a =? pid b) && opt_is (hashL E s l) (phash b)
                                    && opt_is (hashR E s r) (phash a)
      | _, _ => false
      end).
    { unfold are_paired. rewrite (w_hb _ _ _ _ _ H), !get_as_mut.
      destruct (mut_l m s l) as [[? ?]|]; auto. destruct (mut_r m s r) as [[? ?]|]; auto. }
    assert (KL := look_l E OK s c m Z l H). assert (KR := look_r E OK s c m Z r H).
    destruct (mut_l m s l) as [[p x]|] eqn:ML.
    2:{ apply WP_none; auto. }
    destruct (mut_r m s r) as [[q y]|] eqn:MR.
    2:{ apply WP_none; auto. }
    destruct KL as (z & Z1 & a & PZ & Ha & Hl & Hhl & -> & Al).
    destruct KR as (w & Z2 & b & PW & Hb & Hr & Hhr & -> & Ar). assigns.
    assert (Iz : In z Z) by (eapply Permutation_in; [symmetry; exact PZ|left; auto]).
    assert (Iw : In w Z) by (eapply Permutation_in; [symmetry; exact PW|left; auto]).
    destruct (N.eqb_spec (fst z) (fst w)) as [EQ|NE].
    - assert (z = w) as <- by (eapply same_id; eauto).
      destruct z as [i x]; cbn [fst snd] in *.
      destruct x as [|a'|b'|a' b']; simpl in Ha, Hb; try discriminate.
      injection Ha as ->. injection Hb as ->. assigns.
      assert (H0 : Permutation Z1 Z2).
      { apply Permutation_cons_inv with (a := (i, SomeBoth a b)). rewrite <- PZ. auto. }
      cbn [op_get_left op_get_right option_map] in *.
      apply (WP_same s m Z l r i a b Z1 p q); auto.
      + eapply at_perm; [|exact Ar]. apply Permutation_flat_map; auto using Permutation_sym.
      + rewrite AP. cbn. rewrite Hhl, Hhr, !N.eqb_refl. auto.
    - assert (Hw : In w Z1).
      { apply (Permutation_in _ PZ) in Iw. destruct Iw as [<-|]; auto. easy. }
      destruct (perm_in_cons _ _ Hw) as (W & PW1).
      eapply (WP_two s m Z l r z w W a b p q); eauto.
      + etransitivity; [exact PZ|]. constructor; auto.
      + eapply at_perm; [apply Permutation_flat_map; exact PW1|auto].
      + eapply at_perm; [apply Permutation_flat_map|exact Ar].
        apply Permutation_cons_inv with (a := w). rewrite <- PW, PZ, PW1. constructor.
  Qed.

  (* the spec side of a place *)
  Definition snds (f : found zent) : found entry :=
    match f with Same x => Same (snd x) | Two x y => Two (snd x) (snd y) | Missing => Missing end.
  Lemma ends_none : forall s (m : pm) Z l r,
    (mut_l m s l = None /\ (forall z, In z Z -> at_l l z = false)) \/
    (mut_r m s r = None /\ (forall z, In z Z -> at_r r z = false)) ->
    ends eL eR (map snd Z) l r Missing (map snd Z).
  Proof.
    intros s m Z l r H. split; auto.
    destruct H as [[_ H]|[_ H]]; [left|right]; intros z Hz; apply in_map_iff in Hz as (y & <- & Hy);
      apply (H y Hy).
  Qed.
  Lemma ends_same : forall (Z : list zent) i a b W l r, Permutation Z ((i, SomeBoth a b) :: W) ->
    eL l a = true -> eR r b = true ->
    ends eL eR (map snd Z) l r (Same (SomeBoth a b)) (map snd W).
  Proof.
    intros Z i a b W l r P Hl Hr. split; [|split; auto].
    apply (Permutation_map snd) in P. exact P.
  Qed.
  Lemma ends_two : forall (Z : list zent) z w W a b l r, Permutation Z (z :: w :: W) ->
    op_get_left (snd z) = Some a -> op_get_right (snd w) = Some b ->
    eL l a = true -> eR r b = true ->
    ends eL eR (map snd Z) l r (Two (snd z) (snd w)) (map snd W).
  Proof.
    intros Z z w W a b l r P Ha Hb Hl Hr. split; [|split].
    - apply (Permutation_map snd) in P. exact P.
    - unfold has_l. rewrite Ha; auto.
    - unfold has_r. rewrite Hb; auto.
  Qed.

  Lemma mut_none : forall {A} s (m : pm) (Z : list zent) l r
      (k : nat -> mapping_pair L -> nat -> mapping_pair R -> A) (d : A),
    (mut_l m s l = None /\ (forall z, In z Z -> at_l l z = false)) \/
    (mut_r m s r = None /\ (forall z, In z Z -> at_r r z = false)) ->
    match mut_l m s l, mut_r m s r with
    | Some (i, le), Some (j, re) => k i le j re
    | _, _ => d
    end = d.
  Proof.
    intros A s m Z l r k d [[-> _]|[-> _]]; auto. destruct (mut_l m s l) as [[? ?]|]; auto.
  Qed.

  Lemma remove_w : forall s c m Z l r, WRep s c m Z ->
    exists m' f Q Z', ends eL eR (map snd Z) l r f Q /\ WRep s c m' Z' /\
      match f with
      | Same x => remove E l r m = Ret m' (both_items x) /\ Permutation (map snd Z') Q
      | _ => remove E l r m = Ret m' None /\ Permutation (map snd Z') (map snd Z)
      end.
  Proof.
    intros s c m Z l r H. unfold remove. mrun.
    destruct (wplace_ok s c m Z l r H) as [N AP|i a b W p q P Hl Hr Hhl Hhr ML MR Al Ar AP
                                          |z w W a b p q P Ha Hb Hl Hr Hhl Hhr ML MR Al Ar AP].
    - rewrite AP. exists m, Missing, (map snd Z), Z. split; [eapply ends_none; eauto|auto].
    - rewrite AP. assert (H' := w_perm E _ _ _ _ _ P H).
      unfold remove_via_left, left_remove_entry, right_remove_entry. mrun.
      rewrite (w_hb _ _ _ _ _ H), remove_as_mut, ML. assigns. rewrite remove_as_mut, Hhl.
      destruct (partner_r E OK s c m (i, SomeBoth a b) W a b (hash_and_id (hashL E s a) i) H')
        as (j & -> & Atj); auto. { right; auto. }
      assigns. eexists _, (Same (SomeBoth a b)), (map snd W), W.
      split; [eapply ends_same; eauto|]. split; [|split; [reflexivity|auto]].
      eapply (w_tail E s c m _ [_]); [exact H'| | | |]; assigns; auto; eapply at_remove; eauto.
    - rewrite AP. exists m, (Two (snd z) (snd w)), (map snd W), Z.
      split; [eapply ends_two; eauto|auto].
  Qed.

  Lemma pair_w : forall s c m Z l r, WRep s c m Z ->
    exists m' f Q Z' v, ends eL eR (map snd Z) l r f Q /\ WRep s c m' Z' /\ pair E l r m = Ret m' v /\
      match f with
      | Two (SomeLeft a) (SomeRight b) => Permutation (map snd Z') (SomeBoth a b :: Q) /\ v = true
      | _ => Permutation (map snd Z') (map snd Z) /\ v = false
      end.
  Proof.
    intros s c m Z l r H. unfold pair, left_assign, right_assign. mrun.
    rewrite (w_hb _ _ _ _ _ H).
    destruct (wplace_ok s c m Z l r H) as [N AP|i a b W p q P Hl Hr Hhl Hhr ML MR Al Ar AP
                                          |z w W a b p q P Ha Hb Hl Hr Hhl Hhr ML MR Al Ar AP].
    - rewrite (mut_none s m Z l r) by auto.
      exists m, Missing, (map snd Z), Z, false. split; [eapply ends_none; eauto|auto].
    - rewrite ML, MR. assigns. exists m, (Same (SomeBoth a b)), (map snd W), Z, false.
      split; [eapply ends_same; eauto|auto].
    - assert (EN := ends_two Z z w W a b l r P Ha Hb Hl Hr).
      assert (H2 := w_perm E _ _ _ _ _ P H). rewrite ML, MR. assigns.
      destruct z as [i x], w as [j y]; cbn [fst snd] in *.
      destruct x as [|a1|b1|a1 b1]; simpl in Ha; inversion Ha; subst a1; clear Ha;
      destruct y as [|a2|b2|a2 b2]; simpl in Hb; inversion Hb; subst b2; clear Hb;
        cbn [option_map op_get_left op_get_right phash pid] in *;
        try (eexists m, _, _, Z, false; split; [exact EN|auto]; fail).
      rewrite Hhl, Hhr.
      apply (modify_at _ _ _ _ _ (set_hash (Some (hashR E s b)))) in Al as [_ Al].
      apply (modify_at _ _ _ _ _ (set_hash (Some (hashL E s a)))) in Ar.
      apply (modify_at _ _ _ _ _ (set_id i)) in Ar as [_ Ar].
      eexists _, _, _, ((i, SomeBoth a b) :: W), true. split; [exact EN|].
      split; [|split; [reflexivity|auto]].
      eapply (w_rebuild E s c c m _ [_; _] [_]); [exact H2| | | | | | | |]; auto.
      + apply (w_hb _ _ _ _ _ H).
      + apply (w_c _ _ _ _ _ H).
      + lia.
      + constructor; auto; constructor.
      + intros k [<-|[]]. left; left; auto.
      + intros [|[]]; discriminate.
  Qed.

  Lemma pair_forced_w : forall s c m Z l r, WRep s c m Z -> c + 1 < two64 ->
    exists m' c' f Q Z' v, ends eL eR (map snd Z) l r f Q /\ WRep s c' m' Z' /\ c <= c' /\ c' <= c + 1 /\
      pair_forced E l r m = Ret m' v /\
      match f with
      | Two x y => Permutation (map snd Z') (join x y ++ without_left x ++ without_right y ++ Q) /\
                   v = op_from_pair (op_get_left y, op_get_right x)
      | _ => Permutation (map snd Z') (map snd Z) /\ v = Neither
      end.
  Proof.
    intros s c m Z l r H Hc. unfold pair_forced, left_assign, right_assign, incr_counter. mrun.
    rewrite (w_hb _ _ _ _ _ H), (w_c _ _ _ _ _ H).
    destruct (wplace_ok s c m Z l r H) as [N AP|i a b W p q P Hl Hr Hhl Hhr ML MR Al Ar AP
                                          |z w W a b p q P Ha Hb Hl Hr Hhl Hhr ML MR Al Ar AP].
    - rewrite AP, (mut_none s m Z l r) by auto.
      exists m, c, Missing, (map snd Z), Z, Neither. split; [eapply ends_none; eauto|].
      split; [exact H|]. split; [lia|]. split; [lia|auto].
    - rewrite AP. exists m, c, (Same (SomeBoth a b)), (map snd W), Z, Neither.
      split; [eapply ends_same; eauto|]. split; [exact H|]. split; [lia|]. split; [lia|auto].
    - assert (EN := ends_two Z z w W a b l r P Ha Hb Hl Hr).
      assert (H2 := w_perm E _ _ _ _ _ P H). rewrite AP, ML, MR.
      assert (IDS := w_ids _ _ _ _ _ H2). apply nodup_two in IDS as (Izw & Iz & Iw).
      assert (LT := w_lt _ _ _ _ _ H2).
      assert (Lz := LT z (or_introl eq_refl)). assert (Lw := LT w (or_intror (or_introl eq_refl))).
      rewrite Hhl, Hhr in *. clear ML MR.
      destruct z as [i x], w as [j y]; cbn [fst snd] in *.
      destruct x as [|a1|b1|a1 b1]; simpl in Ha; inversion Ha; subst a1; clear Ha;
      destruct y as [|a2|b2|a2 b2]; simpl in Hb; inversion Hb; subst b2; clear Hb;
        cbn [option_map op_get_left op_get_right phash pid] in *.
      + (* both unpaired *)
        apply (modify_at _ _ _ _ _ (set_hash (Some (hashR E s b)))) in Al as [_ Al].
        apply (modify_at _ _ _ _ _ (set_hash (Some (hashL E s a)))) in Ar.
        apply (modify_at _ _ _ _ _ (set_id i)) in Ar as [_ Ar].
        eexists _, c, _, _, ([(i, SomeBoth a b)] ++ W), _. split; [exact EN|].
        split; [|split; [lia|split; [lia|split; [reflexivity|split; reflexivity]]]].
        eapply (w_rebuild E s c c m _ [_; _] [_]); [exact H2| | | | | | | |]; auto.
        * apply (w_hb _ _ _ _ _ H).
        * apply (w_c _ _ _ _ _ H).
        * lia.
        * constructor; auto; constructor.
        * intros k [<-|[]]. left; left; auto.
        * intros [|[]]; discriminate.
      + (* right paired *)
        apply (modify_at _ _ _ _ _ (set_hash (Some (hashR E s b)))) in Al as [_ Al].
        apply (modify_at _ _ _ _ _ (set_hash (Some (hashL E s a)))) in Ar.
        apply (modify_at _ _ _ _ _ (set_id i)) in Ar as [_ Ar].
        assigns. simpl flat_map in Al. unfold PartialProofs.slotL at 1 in Al. cbn in Al.
        assert (Al' : Permutation (slots (t_modify (left_set m) p (set_hash (Some (hashR E s b)))))
          ((hashL E s a2, MP a2 (Some (hashR E s b)) j) ::
           (hashL E s a, MP a (Some (hashR E s b)) i) :: flat_map (slotL s) W))
          by (etransitivity; [exact Al|constructor]).
        destruct (mut_unique E OK _ (hashL E s a2) (hash_and_id (hashR E s b) j) _ _ Al')
          as (p2 & Ep2 & A2).
        { apply hid_refl. }
        { intros x [<-|Hx]; apply hid_of_id; [apply just_id_neq; auto|eapply id_l_other; eauto]. }
        rewrite Ep2. assigns.
        apply (modify_at _ _ _ _ _ (set_hash None)) in A2 as [_ A2]. assigns.
        erewrite t_get_unique; [|auto|exact A2|apply just_id_refl|].
        2:{ intros x [<-|Hx]; [apply just_id_neq; auto|eapply id_l_other; eauto]. }
        eexists _, c, _, _, ([(i, SomeBoth a b); (j, SomeLeft a2)] ++ W), _. split; [exact EN|].
        split; [|split; [lia|split; [lia|split; [reflexivity|split; reflexivity]]]].
        eapply (w_rebuild E s c c m _ [_; _] [_; _]); [exact H2| | | | | | | |]; auto.
        * apply (w_hb _ _ _ _ _ H).
        * apply (w_c _ _ _ _ _ H).
        * lia.
        * assigns. etransitivity; [exact A2|]. constructor.
        * constructor; [|constructor; auto; constructor]. intros [|[]]; auto.
        * intros [|[|[]]]; discriminate.
      + (* left paired *)
        apply (modify_at _ _ _ _ _ (set_hash (Some (hashR E s b)))) in Al.
        apply (modify_at _ _ _ _ _ (set_id j)) in Al as [_ Al].
        apply (modify_at _ _ _ _ _ (set_hash (Some (hashL E s a)))) in Ar as [_ Ar].
        assigns. simpl flat_map in Ar. unfold PartialProofs.slotR at 1 in Ar. cbn in Ar.
        assert (Ar' : Permutation (slots (t_modify (right_set m) q (set_hash (Some (hashL E s a)))))
          ((hashR E s b1, MP b1 (Some (hashL E s a)) i) ::
           (hashR E s b, MP b (Some (hashL E s a)) j) :: flat_map (slotR s) W))
          by (etransitivity; [exact Ar|constructor]).
        destruct (mut_unique E OK _ (hashR E s b1) (hash_and_id (hashL E s a) i) _ _ Ar')
          as (p2 & Ep2 & A2).
        { apply hid_refl. }
        { intros x [<-|Hx]; apply hid_of_id; [apply just_id_neq; auto|eapply id_r_other; eauto]. }
        rewrite Ep2. assigns.
        apply (modify_at _ _ _ _ _ (set_hash None)) in A2 as [_ A2]. assigns.
        erewrite t_get_unique; [|auto|exact A2|apply just_id_refl|].
        2:{ intros x [<-|Hx]; [apply just_id_neq; auto|eapply id_r_other; eauto]. }
        eexists _, c, _, _, ([(j, SomeBoth a b); (i, SomeRight b1)] ++ W), _. split; [exact EN|].
        split; [|split; [lia|split; [lia|split; [reflexivity|split; reflexivity]]]].
        eapply (w_rebuild E s c c m _ [_; _] [_; _]); [exact H2| | | | | | | |]; auto.
        * apply (w_hb _ _ _ _ _ H).
        * apply (w_c _ _ _ _ _ H).
        * lia.
        * assigns. etransitivity; [exact A2|]. constructor.
        * constructor; [|constructor; auto; constructor]. intros [|[]]; auto.
        * intros k [<-|[<-|[]]]; left; simpl; auto.
        * intros [|[|[]]]; discriminate.
      + (* both paired *)
        assigns. rewrite (w_c _ _ _ _ _ H), u64_incr_ok by auto.
        apply (modify_at _ _ _ _ _ (set_hash (Some (hashR E s b)))) in Al.
        apply (modify_at _ _ _ _ _ (set_id c)) in Al as [_ Al].
        apply (modify_at _ _ _ _ _ (set_hash (Some (hashL E s a)))) in Ar.
        apply (modify_at _ _ _ _ _ (set_id c)) in Ar as [_ Ar].
        assigns. simpl flat_map in Ar, Al. unfold PartialProofs.slotR at 1 in Ar. cbn in Ar.
        unfold PartialProofs.slotL at 1 in Al. cbn in Al.
        set (tl := t_modify (t_modify (left_set m) p (set_hash (Some (hashR E s b)))) p (set_id c)) in *.
        set (tr := t_modify (t_modify (right_set m) q (set_hash (Some (hashL E s a)))) q (set_id c)) in *.
        assert (Al' : Permutation (slots tl)
          ((hashL E s a2, MP a2 (Some (hashR E s b)) j) ::
           (hashL E s a, MP a (Some (hashR E s b)) c) :: flat_map (slotL s) W))
          by (etransitivity; [exact Al|constructor]).
        assert (Ar' : Permutation (slots tr)
          ((hashR E s b1, MP b1 (Some (hashL E s a)) i) ::
           (hashR E s b, MP b (Some (hashL E s a)) c) :: flat_map (slotR s) W))
          by (etransitivity; [exact Ar|constructor]).
        destruct (mut_unique E OK _ (hashL E s a2) (hash_and_id (hashR E s b) j) _ _ Al')
          as (p2 & Ep2 & A2).
        { apply hid_refl. }
        { intros x [<-|Hx]; apply hid_of_id; [apply just_id_neq; lia|eapply id_l_other; eauto]. }
        rewrite Ep2. assigns.
        destruct (mut_unique E OK _ (hashR E s b1) (hash_and_id (hashL E s a) i) _ _ Ar')
          as (q2 & Eq2 & B2).
        { apply hid_refl. }
        { intros x [<-|Hx]; apply hid_of_id; [apply just_id_neq; lia|eapply id_r_other; eauto]. }
        rewrite Eq2. assigns.
        apply (modify_at _ _ _ _ _ (set_hash None)) in A2 as [_ A2]. assigns.
        apply (modify_at _ _ _ _ _ (set_hash None)) in B2 as [_ B2]. assigns.
        erewrite t_get_unique; [|auto|exact A2|apply just_id_refl|].
        2:{ intros x [<-|Hx]; [apply just_id_neq; lia|eapply id_l_other; eauto]. }
        erewrite t_get_unique; [|auto|exact B2|apply just_id_refl|].
        2:{ intros x [<-|Hx]; [apply just_id_neq; lia|eapply id_r_other; eauto]. }
        eexists _, (c + 1), _, _, ([(c, SomeBoth a b); (i, SomeRight b1); (j, SomeLeft a2)] ++ W), _.
        split; [exact EN|].
        split; [|split; [lia|split; [lia|split; [reflexivity|split; reflexivity]]]].
        eapply (w_rebuild E s c (c + 1) m _ [_; _] [_; _; _]); [exact H2| | | | | | | |]; auto.
        * apply (w_hb _ _ _ _ _ H).
        * lia.
        * assigns. etransitivity; [exact A2|]. constructor.
        * assigns. etransitivity; [exact B2|]. constructor.
        * cbn. constructor; [|constructor; [|constructor; auto; constructor]].
          -- intros [|[|[]]]; lia.
          -- intros [|[]]; auto.
        * intros k [<-|[<-|[<-|[]]]]; simpl; auto. right; lia.
        * intros [|[|[|[]]]]; discriminate.
  Qed.

  Lemma pair_forced_remove_w : forall s c m Z l r, WRep s c m Z -> c + 1 < two64 ->
    exists m' c' f Q Z' v, ends eL eR (map snd Z) l r f Q /\ WRep s c' m' Z' /\ c <= c' /\ c' <= c + 1 /\
      pair_forced_remove E l r m = Ret m' v /\
      match f with
      | Two x y => Permutation (map snd Z') (join x y ++ Q) /\
                   v = op_from_pair (op_get_left y, op_get_right x)
      | _ => Permutation (map snd Z') (map snd Z) /\ v = Neither
      end.
  Proof.
    intros s c m Z l r H Hc. unfold pair_forced_remove, left_assign, right_assign, incr_counter,
      left_remove_entry, right_remove_entry. mrun.
    rewrite (w_hb _ _ _ _ _ H), (w_c _ _ _ _ _ H).
    destruct (wplace_ok s c m Z l r H) as [N AP|i a b W p q P Hl Hr Hhl Hhr ML MR Al Ar AP
                                          |z w W a b p q P Ha Hb Hl Hr Hhl Hhr ML MR Al Ar AP].
    - rewrite AP, (mut_none s m Z l r) by auto.
      exists m, c, Missing, (map snd Z), Z, Neither. split; [eapply ends_none; eauto|].
      split; [exact H|]. split; [lia|]. split; [lia|auto].
    - rewrite AP. exists m, c, (Same (SomeBoth a b)), (map snd W), Z, Neither.
      split; [eapply ends_same; eauto|]. split; [exact H|]. split; [lia|]. split; [lia|auto].
    - assert (EN := ends_two Z z w W a b l r P Ha Hb Hl Hr).
      assert (H2 := w_perm E _ _ _ _ _ P H). rewrite AP, ML, MR.
      assert (IDS := w_ids _ _ _ _ _ H2). apply nodup_two in IDS as (Izw & Iz & Iw).
      assert (LT := w_lt _ _ _ _ _ H2).
      assert (Lz := LT z (or_introl eq_refl)). assert (Lw := LT w (or_intror (or_introl eq_refl))).
      rewrite Hhl, Hhr in *. clear ML MR.
      (* whatever the case, what is left is the new pair and the untouched entries *)
      assert (DONE : forall m' c' k, hash_builder m' = s -> counter m' = c' -> c <= c' ->
        (k = fst z \/ k = fst w \/ (c <= k /\ k < c')) ->
        Permutation (slots (left_set m'))
          ((hashL E s a, MP a (Some (hashR E s b)) k) :: flat_map (slotL s) W) ->
        Permutation (slots (right_set m'))
          ((hashR E s b, MP b (Some (hashL E s a)) k) :: flat_map (slotR s) W) ->
        WRep s c' m' ([(k, SomeBoth a b)] ++ W)).
      { intros m' c' k Hs' Hc' Hle Hk Pl Pr.
        eapply (w_rebuild E s c c' m _ [_; _] [_]); [exact H2| | | | | | | |]; auto.
        - constructor; auto; constructor.
        - intros k' [<-|[]]. cbn. destruct Hk as [->|[->|Hk]]; auto.
        - intros [|[]]; discriminate. }
      assert (Hhb := w_hb _ _ _ _ _ H). assert (Hct := w_c _ _ _ _ _ H).
      destruct z as [i x], w as [j y]; cbn [fst snd] in *.
      destruct x as [|a1|b1|a1 b1]; simpl in Ha; inversion Ha; subst a1; clear Ha;
      destruct y as [|a2|b2|a2 b2]; simpl in Hb; inversion Hb; subst b2; clear Hb;
        cbn [option_map op_get_left op_get_right phash pid] in *.
      + (* both unpaired *)
        apply (modify_at _ _ _ _ _ (set_hash (Some (hashR E s b)))) in Al as [_ Al].
        apply (modify_at _ _ _ _ _ (set_hash (Some (hashL E s a)))) in Ar.
        apply (modify_at _ _ _ _ _ (set_id i)) in Ar as [_ Ar].
        eexists _, c, _, _, ([(i, SomeBoth a b)] ++ W), _. split; [exact EN|].
        split; [|split; [lia|split; [lia|split; [reflexivity|split; reflexivity]]]].
        apply (DONE _ c i); auto. lia.
      + (* right paired *)
        apply (modify_at _ _ _ _ _ (set_hash (Some (hashR E s b)))) in Al as [_ Al].
        apply (modify_at _ _ _ _ _ (set_hash (Some (hashL E s a)))) in Ar.
        apply (modify_at _ _ _ _ _ (set_id i)) in Ar as [_ Ar].
        assigns.
        assert (Al' : Permutation (slots (t_modify (left_set m) p (set_hash (Some (hashR E s b)))))
          ((hashL E s a2, MP a2 (Some (hashR E s b)) j) ::
           (hashL E s a, MP a (Some (hashR E s b)) i) :: flat_map (slotL s) W))
          by (etransitivity; [exact Al|constructor]).
        destruct (t_remove_entry_unique (lo E) LO _ (hashL E s a2) (hash_and_id (hashR E s b) j)
          _ _ Al') as (t2 & -> & P2).
        { apply hid_refl. }
        { intros x [<-|Hx]; apply hid_of_id; [apply just_id_neq; auto|eapply id_l_other; eauto]. }
        eexists _, c, _, _, ([(i, SomeBoth a b)] ++ W), _. split; [exact EN|].
        split; [|split; [lia|split; [lia|split; [reflexivity|split; reflexivity]]]].
        apply (DONE _ c i); auto. lia.
      + (* left paired *)
        apply (modify_at _ _ _ _ _ (set_hash (Some (hashR E s b)))) in Al.
        apply (modify_at _ _ _ _ _ (set_id j)) in Al as [_ Al].
        apply (modify_at _ _ _ _ _ (set_hash (Some (hashL E s a)))) in Ar as [_ Ar].
        assigns.
        assert (Ar' : Permutation (slots (t_modify (right_set m) q (set_hash (Some (hashL E s a)))))
          ((hashR E s b1, MP b1 (Some (hashL E s a)) i) ::
           (hashR E s b, MP b (Some (hashL E s a)) j) :: flat_map (slotR s) W))
          by (etransitivity; [exact Ar|constructor]).
        destruct (t_remove_entry_unique (lo E) LO _ (hashR E s b1) (just_id i) _ _ Ar')
          as (t2 & -> & P2).
        { apply just_id_refl. }
        { intros x [<-|Hx]; [apply just_id_neq; auto|eapply id_r_other; eauto]. }
        eexists _, c, _, _, ([(j, SomeBoth a b)] ++ W), _. split; [exact EN|].
        split; [|split; [lia|split; [lia|split; [reflexivity|split; reflexivity]]]].
        apply (DONE _ c j); auto. lia.
      + (* both paired *)
        assigns. rewrite Hct, u64_incr_ok by auto.
        apply (modify_at _ _ _ _ _ (set_hash (Some (hashR E s b)))) in Al.
        apply (modify_at _ _ _ _ _ (set_id c)) in Al as [_ Al].
        apply (modify_at _ _ _ _ _ (set_hash (Some (hashL E s a)))) in Ar.
        apply (modify_at _ _ _ _ _ (set_id c)) in Ar as [_ Ar].
        assigns.
        set (tl := t_modify (t_modify (left_set m) p (set_hash (Some (hashR E s b)))) p (set_id c)) in *.
        set (tr := t_modify (t_modify (right_set m) q (set_hash (Some (hashL E s a)))) q (set_id c)) in *.
        assert (Al' : Permutation (slots tl)
          ((hashL E s a2, MP a2 (Some (hashR E s b)) j) ::
           (hashL E s a, MP a (Some (hashR E s b)) c) :: flat_map (slotL s) W))
          by (etransitivity; [exact Al|constructor]).
        assert (Ar' : Permutation (slots tr)
          ((hashR E s b1, MP b1 (Some (hashL E s a)) i) ::
           (hashR E s b, MP b (Some (hashL E s a)) c) :: flat_map (slotR s) W))
          by (etransitivity; [exact Ar|constructor]).
        destruct (t_remove_entry_unique (lo E) LO _ (hashL E s a2) (just_id j) _ _ Al')
          as (t1 & -> & P1).
        { apply just_id_refl. }
        { intros x [<-|Hx]; [apply just_id_neq; lia|eapply id_l_other; eauto]. }
        assigns.
        destruct (t_remove_entry_unique (lo E) LO _ (hashR E s b1) (just_id i) _ _ Ar')
          as (t2 & -> & P2).
        { apply just_id_refl. }
        { intros x [<-|Hx]; [apply just_id_neq; lia|eapply id_r_other; eauto]. }
        eexists _, (c + 1), _, _, ([(c, SomeBoth a b)] ++ W), _. split; [exact EN|].
        split; [|split; [lia|split; [lia|split; [reflexivity|split; reflexivity]]]].
        apply (DONE _ (c + 1) c); auto; [lia|]. right; right; lia.
  Qed.

  (* ---- queries ---- *)
  Lemma takes_snd : forall (p : entry -> bool) (Z : list zent) o Z',
    takes (fun z => p (snd z)) Z o Z' -> takes p (map snd Z) (option_map snd o) (map snd Z').
  Proof. intros. eapply CycleMapLaxProofs.takes_map; [|eassumption]. reflexivity. Qed.

  Lemma get_right_w : forall s c m Z l, WRep s c m Z ->
    exists o Z', takes (at_l l) Z o Z' /\ is_some (mut_l m s l) = is_some o /\
      get_right E m l = bind_opt (option_map snd o) op_get_right /\
      get_left_inner E m l = bind_opt o (fun z => option_map (fun a =>
        MP a (option_map (hashR E s) (op_get_right (snd z))) (fst z)) (op_get_left (snd z))) /\
      (forall z, o = Some z -> exists a, op_get_left (snd z) = Some a /\ hashL E s l = hashL E s a).
  Proof.
    intros s c m Z l H. unfold get_right, get_right_q, get_left_inner.
    rewrite (w_hb _ _ _ _ _ H), get_as_mut.
    assert (K := look_l E OK s c m Z l H). destruct (mut_l m s l) as [[i e]|] eqn:M.
    - destruct K as (z & Z' & a & P & Ha & Hq & Hh & -> & At). assigns.
      exists (Some z), Z'. split; [eapply hit_takes_l; eauto|]. split; auto.
      cbn [bind_opt option_map]. rewrite Ha. cbn [option_map]. split; [|split; auto].
      + destruct (op_get_right (snd z)) as [b|] eqn:Hb; cbn [option_map]; auto.
        rewrite get_as_mut, Hh.
        destruct (partner_r E OK s c m z Z' a b (hash_and_id (hashL E s a) (fst z))
          (w_perm E _ _ _ _ _ P H) Ha Hb) as (j & -> & _); [right|]; auto.
      + intros z0 [= <-]. eauto.
    - exists None, Z. split; [split; auto|]. repeat split; auto. discriminate.
  Qed.
  Lemma get_left_w : forall s c m Z r, WRep s c m Z ->
    exists o Z', takes (at_r r) Z o Z' /\ is_some (mut_r m s r) = is_some o /\
      get_left E m r = bind_opt (option_map snd o) op_get_left /\
      get_right_inner E m r = bind_opt o (fun z => option_map (fun a =>
        MP a (option_map (hashL E s) (op_get_left (snd z))) (fst z)) (op_get_right (snd z))) /\
      (forall z, o = Some z -> exists a, op_get_right (snd z) = Some a /\ hashR E s r = hashR E s a).
  Proof.
    intros s c m Z r H. unfold get_left, get_left_q, get_right_inner.
    rewrite (w_hb _ _ _ _ _ H), get_as_mut.
    assert (K := look_r E OK s c m Z r H). destruct (mut_r m s r) as [[i e]|] eqn:M.
    - destruct K as (z & Z' & a & P & Ha & Hq & Hh & -> & At). assigns.
      exists (Some z), Z'. split; [eapply hit_takes_r; eauto|]. split; auto.
      cbn [bind_opt option_map]. rewrite Ha. cbn [option_map]. split; [|split; auto].
      + destruct (op_get_left (snd z)) as [b|] eqn:Hb; cbn [option_map]; auto.
        rewrite get_as_mut, Hh.
        destruct (partner_l E OK s c m z Z' b a (hash_and_id (hashR E s a) (fst z))
          (w_perm E _ _ _ _ _ P H) Hb Ha) as (j & -> & _); [right|]; auto.
      + intros z0 [= <-]. eauto.
    - exists None, Z. split; [split; auto|]. repeat split; auto. discriminate.
  Qed.
  Lemma paired_inner_l : forall s c m Z l, WRep s c m Z ->
    is_left_paired E m l = match get_left_inner E m l with Some e => is_some (phash e) | None => false end.
  Proof. reflexivity. Qed.
  Lemma is_left_paired_w : forall s c m Z l, WRep s c m Z ->
    exists o Z', takes (at_l l) Z o Z' /\
      is_left_paired E m l = match o with Some z => is_both (snd z) | None => false end /\
      contains_left E m l = is_some o.
  Proof.
    intros s c m Z l H. destruct (get_right_w s c m Z l H) as (o & Z' & T & HS & _ & HI & HA).
    exists o, Z'. split; auto. split.
    - change (is_left_paired E m l) with
        (match get_left_inner E m l with Some e => is_some (phash e) | None => false end).
      rewrite HI. destruct o as [z|]; auto. destruct (HA z eq_refl) as (a & Ha & _).
      cbn [bind_opt]. rewrite Ha. cbn [option_map phash].
      destruct (snd z); simpl in *; auto; discriminate.
    - unfold contains_left. rewrite (w_hb _ _ _ _ _ H), get_as_mut, <- HS.
      destruct (mut_l m s l) as [[? ?]|]; auto.
  Qed.
  Lemma is_right_paired_w : forall s c m Z r, WRep s c m Z ->
    exists o Z', takes (at_r r) Z o Z' /\
      is_right_paired E m r = match o with Some z => is_both (snd z) | None => false end /\
      contains_right E m r = is_some o.
  Proof.
    intros s c m Z r H. destruct (get_left_w s c m Z r H) as (o & Z' & T & HS & _ & HI & HA).
    exists o, Z'. split; auto. split.
    - change (is_right_paired E m r) with
        (match get_right_inner E m r with Some e => is_some (phash e) | None => false end).
      rewrite HI. destruct o as [z|]; auto. destruct (HA z eq_refl) as (a & Ha & _).
      cbn [bind_opt]. rewrite Ha. cbn [option_map phash].
      destruct (snd z); simpl in *; auto; discriminate.
    - unfold contains_right. rewrite (w_hb _ _ _ _ _ H), get_as_mut, <- HS.
      destruct (mut_r m s r) as [[? ?]|]; auto.
  Qed.

  Lemma are_paired_w : forall s c m Z l r, WRep s c m Z ->
    exists f Q, ends eL eR (map snd Z) l r f Q /\ are_paired E m l r = is_same f.
  Proof.
    intros s c m Z l r H.
    destruct (wplace_ok s c m Z l r H) as [N AP|i a b W p q P Hl Hr Hhl Hhr ML MR Al Ar AP
                                          |z w W a b p q P Ha Hb Hl Hr Hhl Hhr ML MR Al Ar AP].
    - exists Missing, (map snd Z). split; auto. eapply ends_none; eauto.
    - exists (Same (SomeBoth a b)), (map snd W). split; auto. eapply ends_same; eauto.
    - exists (Two (snd z) (snd w)), (map snd W). split; auto. eapply ends_two; eauto.
  Qed.

  (* ---- unpair ---- *)
  Lemma unpair_w : forall s c m Z l r, WRep s c m Z -> c + 1 < two64 -> guard E m (Unpair l r) ->
    exists m' c' f Q Z' v, ends eL eR (map snd Z) l r f Q /\ WRep s c' m' Z' /\ c <= c' /\ c' <= c + 1 /\
      unpair E l r m = Ret m' v /\
      match f with
      | Same x => Permutation (map snd Z') (without_right x ++ without_left x ++ Q) /\ v = true
      | _ => Permutation (map snd Z') (map snd Z) /\ v = false
      end.
  Proof.
    intros s c m Z l r H Hc G. unfold unpair, left_assign, right_assign, incr_counter. mrun.
    assert (GR := get_right_w s c m Z l H). assert (GL := get_left_w s c m Z r H).
    cbn [guard] in G. rewrite (w_hb _ _ _ _ _ H), ?(w_c _ _ _ _ _ H) in *.
    destruct (wplace_ok s c m Z l r H) as [N AP|i a b W p q P Hl Hr Hhl Hhr ML MR Al Ar AP
                                          |z w W a b p q P Ha Hb Hl Hr Hhl Hhr ML MR Al Ar AP].
    - rewrite (mut_none s m Z l r) by auto.
      exists m, c, Missing, (map snd Z), Z, false. split; [eapply ends_none; eauto|].
      split; [exact H|]. split; [lia|]. split; [lia|auto].
    - assert (H2 := w_perm E _ _ _ _ _ P H).
      rewrite ML, MR. assigns. rewrite Hhl, Hhr, !N.eqb_refl. cbn [andb].
      rewrite (w_c _ _ _ _ _ H), u64_incr_ok by auto.
      apply (modify_at _ _ _ _ _ (set_hash None)) in Al as [_ Al].
      apply (modify_at _ _ _ _ _ (set_hash None)) in Ar.
      apply (modify_at _ _ _ _ _ (set_id c)) in Ar as [_ Ar]. assigns.
      eexists _, (c + 1), (Same (SomeBoth a b)), _, ([(i, SomeLeft a); (c, SomeRight b)] ++ W), true.
      split; [eapply ends_same; eauto|].
      split; [|split; [lia|split; [lia|split; [reflexivity|split; [reflexivity|auto]]]]].
      assert (Li := w_lt _ _ _ _ _ H2 _ (or_introl eq_refl)). cbn in Li.
      eapply (w_rebuild E s c (c + 1) m _ [_] [_; _]); [exact H2| | | | | | | |]; assigns; auto.
      + apply (w_hb _ _ _ _ _ H).
      + lia.
      + cbn. constructor; [|constructor; auto; constructor]. intros [|[]]; lia.
      + intros k [<-|[<-|[]]]; cbn; auto. right; lia.
      + intros [|[|[]]]; discriminate.
    - assert (H2 := w_perm E _ _ _ _ _ P H).
      rewrite ML, MR. assigns.
      exists m, c, (Two (snd z) (snd w)), (map snd W), Z, false.
      split; [eapply ends_two; eauto|].
      split; auto. split; [lia|split; [lia|split; [|auto]]].
      (* the partners *)
      assert (GRz : get_right E m l = op_get_right (snd z)).
      { unfold get_right, get_right_q. rewrite (w_hb _ _ _ _ _ H), get_as_mut, ML. assigns.
        destruct (op_get_right (snd z)) as [b'|] eqn:Hb'; cbn [option_map]; auto.
        rewrite get_as_mut, Hhl.
        destruct (partner_r E OK s c m z (w :: W) a b' (hash_and_id (hashL E s a) (fst z))
          H2 Ha Hb') as (j & -> & _); [right|]; auto. }
      assert (GLw : get_left E m r = op_get_left (snd w)).
      { unfold get_left, get_left_q. rewrite (w_hb _ _ _ _ _ H), get_as_mut, MR. assigns.
        destruct (op_get_left (snd w)) as [a'|] eqn:Ha'; cbn [option_map]; auto.
        rewrite get_as_mut, Hhr.
        assert (H3 : WRep s c m (w :: z :: W)).
        { eapply w_perm; [|exact H2]. constructor. }
        destruct (partner_l E OK s c m w (z :: W) a' b (hash_and_id (hashR E s b) (fst w))
          H3 Ha' Hb) as (j & -> & _); [right|]; auto. }
      rewrite GRz, GLw in G.
      destruct (op_get_right (snd z)) as [b'|]; cbn [option_map]; auto.
      destruct (op_get_left (snd w)) as [a'|]; cbn [option_map]; auto.
      destruct ((hashL E s l =? hashL E s a') && (hashR E s r =? hashR E s b')) eqn:Q; auto.
      apply andb_true_iff in Q as [Q1 Q2]. apply N.eqb_eq in Q1. apply N.eqb_eq in Q2.
      rewrite (G a' b') in AP by auto. discriminate.
  Qed.

  (* ---- swaps ---- *)
  Lemma swap_left_eq_check_w : forall s c m Z old new, WRep s c m Z ->
    exists m' o Z', swap_left_eq_check E old new (hashL E s new) m
        = Ret m' (or_neither (option_map snd o)) /\
      WRep s c m' Z' /\
      (if eL new old then o = None /\ Permutation Z Z' else takes (at_l new) Z o Z').
  Proof.
    intros s c m Z old new H. unfold swap_left_eq_check. mrun. rewrite get_as_mut.
    assert (K := look_l E OK s c m Z new H). destruct (mut_l m s new) as [[i e]|] eqn:F.
    - cbn [option_map is_some andb]. destruct (eL new old); simpl.
      + exists m, None, Z. auto.
      + apply (remove_via_left_w E OK); auto.
    - exists m, None, Z. split; [reflexivity|]. split; auto.
      destruct (eL new old); auto. split; auto.
  Qed.
  Lemma swap_right_eq_check_w : forall s c m Z old new, WRep s c m Z ->
    exists m' o Z', swap_right_eq_check E old new (hashR E s new) m
        = Ret m' (or_neither (option_map snd o)) /\
      WRep s c m' Z' /\
      (if eR new old then o = None /\ Permutation Z Z' else takes (at_r new) Z o Z').
  Proof.
    intros s c m Z old new H. unfold swap_right_eq_check. mrun. rewrite get_as_mut.
    assert (K := look_r E OK s c m Z new H). destruct (mut_r m s new) as [[i e]|] eqn:F.
    - cbn [option_map is_some andb]. destruct (eR new old); simpl.
      + exists m, None, Z. auto.
      + apply (remove_via_right_w E OK); auto.
    - exists m, None, Z. split; [reflexivity|]. split; auto.
      destruct (eR new old); auto. split; auto.
  Qed.

  Lemma swap_out : forall {T} (b : T) (o : option zent) (ck : bool) (p : entry -> bool) (Z Z' : list zent),
    p Neither = false ->
    (if ck then o = None /\ Permutation Z Z' else takes (fun z => p (snd z)) Z o Z') ->
    match or_neither (option_map snd o) with
    | Neither => SomeLeft b
    | e => SomeBoth b e
    end = op_from_pair (Some b, option_map snd o).
  Proof.
    intros T b o ck p Z Z' N H. destruct o as [[i x]|]; auto. cbn.
    destruct ck; [destruct H; discriminate|]. destruct H as [H _]. cbn in H.
    destruct x; auto. congruence.
  Qed.

  Lemma swap_left_w : forall s c m Z old new, WRep s c m Z ->
    exists m' a Z1 b Z2,
      (if eL new old then a = None /\ Permutation Z Z1 else takes (at_l new) Z a Z1) /\
      takes (at_l old) Z1 b Z2 /\
      match b with
      | Some z => swap_left E old new m
                    = Ret m' (op_from_pair (op_get_left (snd z), option_map snd a)) /\
                  WRep s c m' ((fst z, set_l new (snd z)) :: Z2)
      | None => swap_left E old new m = Ret m' Neither /\ WRep s c m' Z2
      end.
  Proof.
    intros s c m Z old new H.
    destruct (swap_left_eq_check_w s c m Z old new H) as (m1 & o & Z1 & E1 & H1 & T1).
    unfold swap_left, right_assign, left_remove_entry, left_insert. mrun.
    rewrite (w_hb _ _ _ _ _ H), E1, (w_hb _ _ _ _ _ H1). rewrite get_as_mut.
    assert (K := look_l E OK s c m1 Z1 old H1).
    assert (OUT := fun b : L => swap_out b o (eL new old) (has_l eL new) Z Z1 eq_refl T1).
    destruct (mut_l m1 s old) as [[i e]|] eqn:F.
    - destruct K as (z & Z2 & a & P & Ha & Hq & Hh & -> & Al). assigns.
      assert (H' := w_perm E _ _ _ _ _ P H1). assert (T2 := hit_takes_l E _ _ _ _ _ P Ha Hq).
      assert (Lz := w_lt _ _ _ _ _ H' z (or_introl eq_refl)).
      assert (Pl := at_remove E _ _ _ _ _ Al).
      destruct (op_get_right (snd z)) as [b|] eqn:Hb; cbn [option_map].
      + rewrite Hh. rewrite Hh in F.
        destruct (partner_r E OK s c m1 z Z2 a b (hash_and_id (hashL E s a) (fst z)) H' Ha Hb)
          as (j & -> & Ar); [right; auto|]. assigns.
        rewrite remove_as_mut, F. assigns.
        eexists _, o, Z1, (Some z), Z2. split; [exact T1|]. split; [exact T2|]. rewrite Ha.
        split.
        { rewrite <- OUT. destruct (or_neither _); reflexivity. }
        apply (modify_at _ _ _ _ _ (set_hash (Some (hashL E s new)))) in Ar as [_ Ar]. assigns.
        eapply (w_rebuild E s c c m1 _ [z] [_]); [exact H'| | | | | | | |]; assigns.
        * apply (w_hb _ _ _ _ _ H1).
        * apply (w_c _ _ _ _ _ H1).
        * lia.
        * rewrite (w_hb _ _ _ _ _ H1).
          etransitivity; [apply t_insert_perm; auto; eapply hash_slots_l; eauto|].
          destruct z as [k [| | |]]; simpl in Ha, Hb; inversion Ha; inversion Hb; subst.
          cbn. constructor. exact Pl.
        * destruct z as [k [| | |]]; simpl in Ha, Hb; inversion Ha; inversion Hb; subst.
          cbn. exact Ar.
        * constructor; auto; constructor.
        * intros k [<-|[]]. left; left; auto.
        * destruct z as [k [| | |]]; simpl in Ha, Hb; try discriminate. intros [|[]]; discriminate.
      + rewrite Hh. rewrite Hh in F. rewrite remove_as_mut, F. assigns.
        eexists _, o, Z1, (Some z), Z2. split; [exact T1|]. split; [exact T2|]. rewrite Ha.
        split.
        { rewrite <- OUT. destruct (or_neither _); reflexivity. }
        assert (Pr := w_r_skip E _ _ _ _ _ H' Hb).
        eapply (w_rebuild E s c c m1 _ [z] [_]); [exact H'| | | | | | | |]; assigns.
        * apply (w_hb _ _ _ _ _ H1).
        * apply (w_c _ _ _ _ _ H1).
        * lia.
        * rewrite (w_hb _ _ _ _ _ H1).
          etransitivity; [apply t_insert_perm; auto; eapply hash_slots_l; eauto|].
          destruct z as [k [| | |]]; simpl in Ha, Hb; inversion Ha; inversion Hb; subst.
          cbn. constructor. exact Pl.
        * destruct z as [k [| | |]]; simpl in Ha, Hb; inversion Ha; inversion Hb; subst.
          cbn. exact Pr.
        * constructor; auto; constructor.
        * intros k [<-|[]]. left; left; auto.
        * destruct z as [k [| | |]]; simpl in Ha, Hb; try discriminate. intros [|[]]; discriminate.
    - exists m1, o, Z1, None, Z1. split; [exact T1|]. split; [split; auto|]. auto.
  Qed.
  Lemma swap_right_w : forall s c m Z old new, WRep s c m Z ->
    exists m' a Z1 b Z2,
      (if eR new old then a = None /\ Permutation Z Z1 else takes (at_r new) Z a Z1) /\
      takes (at_r old) Z1 b Z2 /\
      match b with
      | Some z => swap_right E old new m
                    = Ret m' (op_from_pair (op_get_right (snd z), option_map snd a)) /\
                  WRep s c m' ((fst z, set_r new (snd z)) :: Z2)
      | None => swap_right E old new m = Ret m' Neither /\ WRep s c m' Z2
      end.
  Proof.
    intros s c m Z old new H.
    destruct (swap_right_eq_check_w s c m Z old new H) as (m1 & o & Z1 & E1 & H1 & T1).
    unfold swap_right, left_assign, right_remove_entry, right_insert. mrun.
    rewrite (w_hb _ _ _ _ _ H), E1, (w_hb _ _ _ _ _ H1). rewrite get_as_mut.
    assert (K := look_r E OK s c m1 Z1 old H1).
    assert (OUT := fun b : R => swap_out b o (eR new old) (has_r eR new) Z Z1 eq_refl T1).
    destruct (mut_r m1 s old) as [[i e]|] eqn:F.
    - destruct K as (z & Z2 & b & P & Hb & Hq & Hh & -> & Ar). assigns.
      assert (H' := w_perm E _ _ _ _ _ P H1). assert (T2 := hit_takes_r E _ _ _ _ _ P Hb Hq).
      assert (Lz := w_lt _ _ _ _ _ H' z (or_introl eq_refl)).
      assert (Pr := at_remove E _ _ _ _ _ Ar).
      destruct (op_get_left (snd z)) as [a|] eqn:Ha; cbn [option_map].
      + rewrite Hh. rewrite Hh in F.
        destruct (partner_l E OK s c m1 z Z2 a b (hash_and_id (hashR E s b) (fst z)) H' Ha Hb)
          as (j & -> & Al); [right; auto|]. assigns.
        rewrite remove_as_mut, F. assigns.
        eexists _, o, Z1, (Some z), Z2. split; [exact T1|]. split; [exact T2|]. rewrite Hb.
        split.
        { rewrite <- OUT. destruct (or_neither _); reflexivity. }
        apply (modify_at _ _ _ _ _ (set_hash (Some (hashR E s new)))) in Al as [_ Al]. assigns.
        eapply (w_rebuild E s c c m1 _ [z] [_]); [exact H'| | | | | | | |]; assigns.
        * apply (w_hb _ _ _ _ _ H1).
        * apply (w_c _ _ _ _ _ H1).
        * lia.
        * destruct z as [k [| | |]]; simpl in Ha, Hb; inversion Ha; inversion Hb; subst.
          cbn. exact Al.
        * rewrite (w_hb _ _ _ _ _ H1).
          etransitivity; [apply t_insert_perm; auto; eapply hash_slots_r; eauto|].
          destruct z as [k [| | |]]; simpl in Ha, Hb; inversion Ha; inversion Hb; subst.
          cbn. constructor. exact Pr.
        * constructor; auto; constructor.
        * intros k [<-|[]]. left; left; auto.
        * destruct z as [k [| | |]]; simpl in Ha, Hb; try discriminate. intros [|[]]; discriminate.
      + rewrite Hh. rewrite Hh in F. rewrite remove_as_mut, F. assigns.
        eexists _, o, Z1, (Some z), Z2. split; [exact T1|]. split; [exact T2|]. rewrite Hb.
        split.
        { rewrite <- OUT. destruct (or_neither _); reflexivity. }
        assert (Pl := w_l_skip E _ _ _ _ _ H' Ha).
        eapply (w_rebuild E s c c m1 _ [z] [_]); [exact H'| | | | | | | |]; assigns.
        * apply (w_hb _ _ _ _ _ H1).
        * apply (w_c _ _ _ _ _ H1).
        * lia.
        * destruct z as [k [| | |]]; simpl in Ha, Hb; inversion Ha; inversion Hb; subst.
          cbn. exact Pl.
        * rewrite (w_hb _ _ _ _ _ H1).
          etransitivity; [apply t_insert_perm; auto; eapply hash_slots_r; eauto|].
          destruct z as [k [| | |]]; simpl in Ha, Hb; inversion Ha; inversion Hb; subst.
          cbn. constructor. exact Pr.
        * constructor; auto; constructor.
        * intros k [<-|[]]. left; left; auto.
        * destruct z as [k [| | |]]; simpl in Ha, Hb; try discriminate. intros [|[]]; discriminate.
    - exists m1, o, Z1, None, Z1. split; [exact T1|]. split; [split; auto|]. auto.
  Qed.
End LaxProofs2.
