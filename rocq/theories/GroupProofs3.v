(* Refinement of GroupMap: insert, insert_remove, insert_left, insert_right, pair. *)
From Coq Require Import List NArith Lia Bool Permutation.
From Verif Require Import Prelude RawTable GroupMap GroupSpec ListFacts TableFacts GroupProofs
  GroupProofs2.
Import ListNotations.
Open Scope N_scope.

Section Inserts.
  Context {L R S : Type} (E : env L R S) (OK : lawful E).
  Notation gm := (gmap L R S).
  Notation zl := (zleft L R).
  Notation zr := (zright R).
  Notation Rep := (Rep E).
  Notation Core := (Core E).
  Notation Repr := (Repr E).
  Notation slotL := (slotL E).
  Notation slotR := (slotR E).
  Notation pslot := (pslot E).
  Notation pkey := (pkey E).
  Notation setins := (set_insert E).
  Notation setrem := (set_remove E).

  Let EL := eqL_equiv _ OK.
  Let ER := eqR_equiv _ OK.
  Let LO := lo_ok _ OK.

  Lemma set_new_hashed : forall i, set_hashed E i (set_new i).
  Proof. intros i x []. Qed.

  (* z joins the group of the first right item *)
  Lemma core_join : forall s lc rc A D y B z, Core s lc rc A D (y :: B) ->
    z_g z = y_id y -> z_r z = y_r y -> ~ In (z_id z) (map z_id (A ++ D)) -> z_id z < lc ->
    z_rid z < rc -> (forall x, In x A -> eqL E (z_l z) (z_l x) = false) ->
    Core s lc rc (z :: A) D (ZR (y_id y) (y_r y) (setins (y_id y) (y_tab y) (pkey s z)) :: B).
  Proof.
    intros s lc rc A D y B z H G GR F Z1 Z2 N. apply core_revive; auto.
    - eapply core_plan; eauto. eapply (tab_with E OK); eauto.
    - eexists. split; [left; reflexivity|]. simpl. auto.
  Qed.
  (* z leaves the group of the first right item *)
  Lemma core_leave : forall s lc rc z A D y B, Core s lc rc (z :: A) D (y :: B) ->
    z_g z = y_id y ->
    Core s lc rc A D (ZR (y_id y) (y_r y) (setrem (y_id y) (y_tab y) (pkey s z)) :: B) /\
    ~ In (z_id z) (map z_id (A ++ D)).
  Proof.
    intros s lc rc z A D y B H G. split.
    - apply (core_kill E _ _ _ [z]) in H. simpl in H. eapply core_forget; eauto.
      eapply (tab_without E OK); eauto.
    - assert (ND := c_lids _ _ _ _ _ _ _ H). simpl in ND. inversion ND; auto.
  Qed.

  Lemma distinct_head : forall {T} (f : T -> L) z A, distinct (eqL E) (map f (z :: A)) ->
    forall x, In x A -> eqL E (f z) (f x) = false.
  Proof.
    intros T f z A D x Hx. simpl in D. apply distinct_cons in D as [D _]. apply D, in_map; auto.
  Qed.

  (* both items new *)
  Lemma fresh_rep : forall s lc rc m A D B l r c1 c2, Rep s lc rc m A D B ->
    (forall x, In x A -> eqL E l (z_l x) = false) -> (forall x, In x B -> eqR E r (y_r x) = false) ->
    Rep s (lc + 1) (rc + 1)
      (GM s c1 c2
        (t_insert (lo E) (left_set m) (hashL E s l) (LI l (hashR E s r) rc lc) (make_hasher_l E s))
        (t_insert (lo E) (right_set m) (hashR E s r)
           (RI r (setins rc (set_new rc) (hashL E s l, lc)) rc) (make_hasher_r E s)))
      (ZL lc l rc r rc :: A) D (ZR rc r (setins rc (set_new rc) (hashL E s l, lc)) :: B).
  Proof.
    intros s lc rc m A D B l r c1 c2 H NL NR. apply core_rep; auto.
    - apply (core_join s (lc + 1) (rc + 1) A D (ZR rc r (set_new rc)) B (ZL lc l rc r rc));
        simpl; auto; try lia.
      + apply core_new_right; auto. eapply core_bounds; [eapply rep_core; eauto|lia|lia].
      + eapply (core_lid_fresh E). eapply rep_core; eauto.
    - cbn [left_set]. rewrite t_insert_perm; [|exact LO|eapply (rep_hashed_l E); eauto].
      simpl. constructor. apply (rep_l _ _ _ _ _ _ _ _ H).
    - cbn [right_set]. rewrite t_insert_perm; [|exact LO|eapply (rep_hashed_r E); eauto].
      simpl. constructor. apply (rep_r _ _ _ _ _ _ _ _ H).
  Qed.

  Lemma tame_cons : forall b (z : zl) A D, z_rid z = z_g z -> tame b A D -> tame b (z :: A) D.
  Proof. intros b z A D Z [T1 T2]. split; auto. intros Hb x [<-|Hx]; auto. Qed.
  Lemma tame_tail : forall b (z : zl) A D, tame b (z :: A) D -> tame b A D.
  Proof. intros b z A D [T1 T2]. split; auto. intros Hb x Hx; apply T2; [auto|right; auto]. Qed.

  Lemma insert_ok : forall b s lc rc m G l r, Repr b s lc rc m G ->
    lc + 1 < two64 -> rc + 1 < two64 -> are_paired E m l r = false -> linked E m l ->
    exists m' lc' rc', insert E l r m = Ret m' tt /\
      Repr b s lc' rc' m' (s_insert (eqL E) (eqR E) G l r) /\
      lc' <= lc + 1 /\ rc' <= rc + 1.
  Proof.
    intros b s lc rc m G l r (A & D & B & H & -> & T & CL & CR) BL BR NP LK.
    assert (HB := rep_hb _ _ _ _ _ _ _ _ H).
    unfold insert, left_assign, right_assign, left_insert, right_insert, incr_left, incr_right.
    mrun. rewrite HB.
    unfold s_insert, stored_l, stored_r. rewrite (contains_r_find E).
    destruct (split_l E OK _ _ _ _ _ _ _ l H) as [(z & A' & P & H1 & Q & HQ & N)|N];
      destruct (split_r E OK _ _ _ _ _ _ _ r H) as [(y & B' & PB & H2 & QR & HR & NR)|NR].
    - (* both present *)
      erewrite (find_l_some E), (find_r_some E) by eauto. cbn [is_some fst].
      assert (H3 := rep_perm E OK _ _ _ _ _ _ _ _ _ (Permutation_refl _) PB H1).
      assert (RZ := linked_z E OK _ _ _ _ _ _ _ _ _ H3 Q N LK).
      rewrite (are_paired_z E OK _ _ _ _ _ _ _ _ _ _ _ H3 Q N QR NR) in NP.
      destruct (rep_link _ _ _ _ _ _ _ _ H3 z (or_introl eq_refl)) as (y1 & Hy1 & I1 & R1).
      destruct Hy1 as [<-|Hy1]; [unfold in_group in NP; rewrite I1, N.eqb_refl in NP; discriminate|].
      apply perm_in_cons in Hy1 as [B2 PB2].
      assert (PB3 : Permutation (y :: B') (y1 :: y :: B2)).
      { rewrite PB2. apply perm_swap. }
      assert (H4 := rep_perm E OK _ _ _ _ _ _ _ _ _ (Permutation_refl _) PB3 H3).
      assert (C0 := rep_core E _ _ _ _ _ _ _ H4).
      destruct (core_leave _ _ _ _ _ _ _ _ C0 (eq_sym I1)) as [C1 F1].
      destruct (find_key_left E OK _ _ _ _ _ _ _ _ _ H3 Q N) as (i & FL & AL).
      destruct (find_key_right E OK _ _ _ _ _ _ _ _ _ H3 QR NR) as (j & FR & AR).
      rewrite FL, FR. cbn [snd GroupProofs.slotL GroupProofs.slotR l_id l_hash l_rid r_id right_set left_set
        set_right set_left fst hash_builder] in *.
      rewrite HQ. change (hashL E s (z_l z), z_id z) with (pkey s z).
      apply modify_at with (f := pairs_insert E (pkey s z)) in AR.
      set (rt1 := t_modify (right_set m) j (pairs_insert E (pkey s z))) in *.
      rewrite <- R1, RZ, <- I1.
      destruct (get_mut_unique E OK rt1 (hashR E s (y_r y1)) (right_with_right_id (y_id y1))
        (snd (slotR s y1))
        ((hashR E s (y_r y), pairs_insert E (pkey s z) (snd (slotR s y))) :: map (slotR s) B2))
        as (k & FK & AK).
      { destruct AR as [_ AR]. rewrite AR, (Permutation_map (slotR s) PB2). simpl. apply perm_swap. }
      { apply N.eqb_refl. }
      { assert (ND := rep_rids _ _ _ _ _ _ _ _ H4). simpl in ND. inversion ND; subst.
        intros x [<-|Hx].
        - apply N.eqb_neq. simpl. intro. apply H6. left; auto.
        - eapply (id_r_other E); [|exact Hx]. intro; apply H6; right; auto. }
      rewrite FK. cbn [fst snd].
      apply modify_at with (f := pairs_remove E (pkey s z)) in AK.
      apply modify_at with (f := set_l_hash (hashR E s r)) in AL.
      apply modify_at with (f := set_l_rid (y_id y)) in AL.
      exists (GM s lc rc
        (t_modify (t_modify (left_set m) i (set_l_hash (hashR E s r))) i (set_l_rid (y_id y)))
        (t_modify rt1 k (pairs_remove E (pkey s z)))), lc, rc.
      split; [unfold set_left, set_right; simpl; rewrite HB, CL, CR; reflexivity|].
      split; [|lia].
      set (z' := ZL (z_id z) (z_l z) (y_id y) (y_r y) (y_id y)).
      set (y' := ZR (y_id y) (y_r y) (setins (y_id y) (y_tab y) (pkey s z))).
      set (y1' := ZR (y_id y1) (y_r y1) (setrem (y_id y1) (y_tab y1) (pkey s z))).
      apply (repr_same E OK) with (G := view (z' :: A') (y' :: y1' :: B2)).
      + split; simpl.
        * rewrite (Permutation_map y_r PB). simpl. constructor.
          symmetry. exact (Permutation_map y_r PB2).
        * constructor. symmetry. eapply del_l_some; eauto.
      + exists (z' :: A'), D, (y' :: y1' :: B2). split; [|split; [auto|split; [|auto]]].
        * apply core_rep; auto.
          { apply (core_perm E OK s lc rc (z' :: A') D (y' :: y1' :: B2)); auto.
            apply (core_join s lc rc A' D y (y1' :: B2) z'); simpl; auto.
            - apply (core_perm E OK s lc rc A' D (y1' :: y :: B2)); auto. apply perm_swap.
            - apply (c_llt _ _ _ _ _ _ _ C0 z). simpl; auto.
            - apply (c_rlt _ _ _ _ _ _ _ C0 y). simpl; auto.
            - apply distinct_head. apply (c_eql _ _ _ _ _ _ _ C0). }
          { simpl. etransitivity; [apply AL|]. simpl. rewrite HR. reflexivity. }
          { simpl. etransitivity; [apply AK|]. apply perm_swap. }
        * apply tame_cons; auto. eapply tame_tail, tame_perm; [exact P|auto].
    - (* the left item present *)
      erewrite (find_l_some E), (find_r_none E) by eauto. cbn [is_some fst].
      destruct (rep_link _ _ _ _ _ _ _ _ H1 z (or_introl eq_refl)) as (y1 & Hy1 & I1 & R1).
      apply perm_in_cons in Hy1 as [B2 PB2].
      assert (H3 := rep_perm E OK _ _ _ _ _ _ _ _ _ (Permutation_refl _) PB2 H1).
      assert (C0 := rep_core E _ _ _ _ _ _ _ H3).
      destruct (core_leave _ _ _ _ _ _ _ _ C0 (eq_sym I1)) as [C1 F1].
      destruct (find_key_left E OK _ _ _ _ _ _ _ _ _ H3 Q N) as (i & FL & AL).
      rewrite FL, (find_key_right_none E OK _ _ _ _ _ _ _ _ H NR).
      cbn [snd GroupProofs.slotL GroupProofs.slotR l_id l_hash l_rid r_id right_set left_set
        set_right set_left fst hash_builder right_counter left_counter] in *.
      rewrite HQ. change (hashL E s (z_l z), z_id z) with (pkey s z).
      destruct (find_pair_right E OK _ _ _ _ _ _ z _ _ H3 (or_introl eq_refl) (eq_sym I1)) as (j & FR & AR).
      rewrite <- R1, FR. cbn [fst snd]. rewrite CR, HB, u64_incr_ok by auto.
      apply modify_at with (f := pairs_remove E (pkey s z)) in AR.
      apply modify_at with (f := set_l_hash (hashR E s r)) in AL.
      apply modify_at with (f := set_l_rid rc) in AL.
      eexists. exists lc, (rc + 1). split; [reflexivity|].
      split; [|lia].
      set (z' := ZL (z_id z) (z_l z) rc r rc).
      set (y' := ZR rc r (setins rc (set_new rc) (pkey s z))).
      set (y1' := ZR (y_id y1) (y_r y1) (setrem (y_id y1) (y_tab y1) (pkey s z))).
      apply (repr_same E OK) with (G := view (z' :: A') (y' :: y1' :: B2)).
      + split; simpl.
        * constructor. symmetry. exact (Permutation_map y_r PB2).
        * constructor. symmetry. eapply del_l_some; eauto.
      + exists (z' :: A'), D, (y' :: y1' :: B2). split; [|split; [auto|split; [|auto]]].
        * apply core_rep; auto.
          { apply (core_join s lc (rc + 1) A' D (ZR rc r (set_new rc)) (y1' :: B2) z'); simpl; auto.
            - apply core_new_right; auto. intros x Hx.
              assert (X : In (y_r x) (map y_r B)).
              { eapply Permutation_in; [symmetry; apply (Permutation_map y_r PB2)|].
                destruct Hx as [<-|Hx]; [left; auto|right; apply in_map; auto]. }
              apply in_map_iff in X as (w & <- & Hw). auto.
            - apply (c_llt _ _ _ _ _ _ _ C0 z). simpl; auto.
            - lia.
            - apply distinct_head. apply (c_eql _ _ _ _ _ _ _ C0). }
          { simpl. apply AL. }
          { cbn [right_set]. rewrite t_insert_perm; [|exact LO|].
            - simpl. constructor. apply AR.
            - intros x Hx. apply (Permutation_in _ (proj2 AR)) in Hx.
              destruct Hx as [<-|Hx]; auto. apply in_map_iff in Hx as (w & <- & _). auto. }
        * apply tame_cons; auto. eapply tame_tail, tame_perm; [exact P|auto].
    - (* the right item present *)
      erewrite (find_l_none E), (find_r_some E) by eauto. cbn [is_some fst].
      destruct (find_key_right E OK _ _ _ _ _ _ _ _ _ H2 QR NR) as (j & FR & AR).
      rewrite FR, (find_key_left_none E OK _ _ _ _ _ _ _ _ H N).
      cbn [snd GroupProofs.slotL GroupProofs.slotR l_id l_hash l_rid r_id right_set left_set
        set_right set_left fst hash_builder right_counter left_counter] in *.
      rewrite CL, HB, u64_incr_ok by auto.
      apply modify_at with (f := pairs_insert E (hashL E s l, lc)) in AR.
      eexists. exists (lc + 1), rc. split; [reflexivity|].
      split; [|lia].
      set (z' := ZL lc l (y_id y) (y_r y) (y_id y)).
      set (y' := ZR (y_id y) (y_r y) (setins (y_id y) (y_tab y) (pkey s z'))).
      apply (repr_same E OK) with (G := view (z' :: A) (y' :: B')).
      + split; simpl.
        * symmetry. exact (Permutation_map y_r PB).
        * rewrite del_l_none by auto. auto.
      + exists (z' :: A), D, (y' :: B'). split; [|split; [auto|split; [|auto]]].
        * apply core_rep; auto.
          { apply (core_join s (lc + 1) rc A D y B' z'); simpl; auto.
            - eapply core_bounds; [eapply rep_core; eauto|lia|lia].
            - eapply (core_lid_fresh E). eapply rep_core; eauto.
            - lia.
            - apply (rep_rlt _ _ _ _ _ _ _ _ H2). left; auto. }
          { cbn [left_set]. rewrite t_insert_perm; [|exact LO|eapply (rep_hashed_l E); eauto].
            simpl. rewrite HR. constructor. apply (rep_l _ _ _ _ _ _ _ _ H). }
          { simpl. apply AR. }
        * apply tame_cons; auto.
    - (* both new *)
      erewrite (find_l_none E), (find_r_none E) by eauto. cbn [is_some fst].
      rewrite (find_key_left_none E OK _ _ _ _ _ _ _ _ H N), (find_key_right_none E OK _ _ _ _ _ _ _ _ H NR).
      cbn [right_set left_set set_right set_left fst hash_builder right_counter left_counter].
      rewrite CL, CR, HB, !u64_incr_ok by auto.
      eexists. exists (lc + 1), (rc + 1). split; [reflexivity|].
      split; [|lia].
      apply (repr_same E OK) with (G := view (ZL lc l rc r rc :: A)
        (ZR rc r (setins rc (set_new rc) (hashL E s l, lc)) :: B)).
      + split; simpl; auto. rewrite del_l_none by auto. auto.
      + do 3 eexists. split; [|split; [reflexivity|split; [|auto]]].
        * apply fresh_rep; eauto.
        * apply tame_cons; auto.
  Qed.

  (* ---- clean is about the left-overs of the group only ---- *)
  Lemma clean_of_z : forall s lc rc m A D B r, Rep s lc rc m A D B ->
    (forall y, In y B -> eqR E r (y_r y) = true -> cleanZ D (y_id y)) -> clean E m r.
  Proof.
    intros s lc rc m A D B r H C it Hit.
    destruct (split_r E OK _ _ _ _ _ _ _ r H) as [(y & B' & P & H' & Q & _ & N)|N].
    - assert (Hy : In y B) by (eapply Permutation_in; [symmetry; exact P|left; auto]).
      destruct (get_left_iter_z E OK _ _ _ _ _ _ _ _ _ H' Q N (C y Hy Q)) as (zs & Q1 & P1).
      rewrite Q1 in Hit. inversion Hit; subst. eexists.
      eapply (pair_rest_ok E OK); [exact H|]. intros x Hx. apply (Permutation_in _ P1) in Hx.
      apply filter_In in Hx. tauto.
    - unfold get_left_iter, get_left_iter_q in Hit.
      change (t_get (lo E) (right_set m) (hashR E (hash_builder m) r) (equivalent_key_right (eqR E) r))
        with (find_right E m r) in Hit.
      erewrite (find_right_none E) in Hit by eauto. discriminate.
  Qed.
  Lemma z_of_clean : forall s lc rc m A D B r, Rep s lc rc m A D B -> clean E m r ->
    forall y, In y B -> eqR E r (y_r y) = true -> cleanZ D (y_id y).
  Proof.
    intros s lc rc m A D B r H C y Hy Q.
    destruct (split_r E OK _ _ _ _ _ _ _ r H) as [(y' & B' & P & H' & Q' & _ & N)|N].
    - apply (Permutation_in _ P) in Hy. destruct Hy as [<-|Hy].
      + eapply (clean_z E OK); eauto.
      + rewrite N in Q by auto. discriminate.
    - rewrite N in Q by auto. discriminate.
  Qed.

  (* remove_left leaves every group clean that was *)
  Lemma remove_left_clean : forall s lc rc m A D B q r m' w, Rep s lc rc m A D B -> clean E m r ->
    remove_left E q m = Ret m' w -> clean E m' r.
  Proof.
    intros s lc rc m A D B q r m' w H C X.
    destruct (split_l E OK _ _ _ _ _ _ _ q H) as [(z & A' & P & H1 & Q & _ & N)|N].
    - destruct (remove_left_some E OK _ _ _ _ _ _ _ _ _ H1 Q N) as (m2 & B' & X2 & H2 & PB & _).
      rewrite X in X2. inversion X2; subst. eapply clean_of_z; [exact H2|].
      intros y' Hy' Q'. destruct (y_keys_in _ _ _ (Permutation_sym PB) Hy') as (y & Hy & I & RR).
      rewrite <- I. eapply z_of_clean; [exact H|exact C|auto|congruence].
    - erewrite (remove_left_none E) in X by eauto. inversion X; subst; auto.
  Qed.

  Lemma view_l_absent : forall A (B : list zr) q, s_contains_left (eqL E) (view A B) q = false ->
    forall x, In x A -> eqL E q (z_l x) = false.
  Proof.
    intros A B q C x Hx. unfold s_contains_left in C. apply existsb_false with (x := z_pair x) in C; auto.
    simpl. apply in_map; auto.
  Qed.
  Lemma view_r_absent : forall (A : list zl) B q, s_contains_right (eqR E) (view A B) q = false ->
    forall x, In x B -> eqR E q (y_r x) = false.
  Proof.
    intros A B q C x Hx. unfold s_contains_right in C. apply existsb_false with (x := y_r x) in C; auto.
    simpl. apply in_map; auto.
  Qed.
  Lemma gone_left : forall (G : contents L R) q, s_contains_left (eqL E) (s_remove_left (eqL E) G q) q = false.
  Proof.
    intros [gr gp] q. unfold s_contains_left, s_remove_left, del_l; simpl.
    apply existsb_false. intros x Hx. apply filter_In in Hx as [_ Hx]. apply negb_true_iff; auto.
  Qed.
  Lemma gone_right : forall (G : contents L R) q,
    s_contains_right (eqR E) (s_remove_right (eqR E) G q) q = false.
  Proof.
    intros [gr gp] q. unfold s_contains_right, s_remove_right; simpl.
    apply existsb_false. intros x Hx. apply filter_In in Hx as [_ Hx]. apply negb_true_iff; auto.
  Qed.
  Lemma gone_left_right : forall (G : contents L R) q r, s_contains_left (eqL E) G q = false ->
    s_contains_left (eqL E) (s_remove_right (eqR E) G r) q = false.
  Proof.
    intros [gr gp] q r C. unfold s_contains_left, s_remove_right in *; simpl in *.
    apply existsb_false. intros x Hx. apply filter_In in Hx as [Hx _].
    revert x Hx. apply existsb_false; auto.
  Qed.

  Lemma insert_remove_ok : forall b s lc rc m G l r, Repr b s lc rc m G ->
    lc + 1 < two64 -> rc + 1 < two64 -> clean E m r ->
    exists m' w, insert_remove E l r m = Ret m' (s_remove_left_out (eqL E) G l, w) /\
      same_group w (snd (s_insert_remove_out (eqL E) (eqR E) G l r)) /\
      Repr b s (lc + 1) (rc + 1) m' (s_insert_remove (eqL E) (eqR E) G l r).
  Proof.
    intros b s lc rc m G l r H BL BR C. unfold insert_remove, left_insert, right_insert, incr_left, incr_right.
    mrun. destruct (remove_left_ok E OK _ _ _ _ _ _ l H) as (m1 & X1 & H1).
    assert (C1 : clean E m1 r).
    { destruct H as (A & D & B & H & _). eapply remove_left_clean; eauto. }
    rewrite X1. destruct (remove_right_ok E OK _ _ _ _ _ _ r H1 C1) as (m2 & w & X2 & W & H2).
    rewrite X2. cbn [snd s_insert_remove_out].
    destruct H2 as (A & D & B & H2 & V & T & CL & CR). assert (HB := rep_hb _ _ _ _ _ _ _ _ H2).
    cbn [right_set left_set set_right set_left fst hash_builder right_counter left_counter].
    rewrite CL, CR, HB, !u64_incr_ok by auto.
    cbn [right_set left_set set_right set_left fst hash_builder right_counter left_counter].
    rewrite ?CL, ?CR, ?HB.
    do 2 eexists. split; [reflexivity|]. split; [exact W|].
    apply (repr_same E OK) with (G := view (ZL lc l rc r rc :: A)
      (ZR rc r (setins rc (set_new rc) (hashL E s l, lc)) :: B)).
    - unfold s_insert_remove. cbv zeta. rewrite V. split; simpl; auto.
    - do 3 eexists. split; [|split; [reflexivity|split; [|auto]]].
      + apply fresh_rep; eauto.
        * eapply view_l_absent. rewrite <- V. apply gone_left_right, gone_left.
        * eapply view_r_absent. rewrite <- V. apply gone_right.
      + apply tame_cons; auto.
  Qed.

  Lemma insert_right_ok : forall b s lc rc m G r, Repr b s lc rc m G -> rc + 1 < two64 -> clean E m r ->
    exists m' w, insert_right E r m = Ret m' w /\ same_group w (s_remove_right_out (eqR E) G r) /\
      Repr b s lc (rc + 1) m' (s_insert_right (eqR E) G r).
  Proof.
    intros b s lc rc m G r H BR C. unfold insert_right, right_insert, incr_right.
    mrun. destruct (remove_right_ok E OK _ _ _ _ _ _ r H C) as (m2 & w & X2 & W & H2).
    rewrite X2. destruct H2 as (A & D & B & H2 & V & T & CL & CR).
    assert (HB := rep_hb _ _ _ _ _ _ _ _ H2).
    cbn [right_set left_set set_right set_left fst hash_builder right_counter left_counter].
    rewrite CR, HB, !u64_incr_ok by auto.
    cbn [right_set left_set set_right set_left fst hash_builder right_counter left_counter].
    do 2 eexists. split; [reflexivity|]. split; [exact W|].
    unfold s_insert_right. cbv zeta. rewrite V.
    exists A, D, (ZR rc r (set_new rc) :: B). split; [|split; [auto|split; [auto|auto]]].
    apply core_rep; auto.
    - apply core_new_right; auto; [eapply rep_core; eauto|].
      eapply view_r_absent. rewrite <- V. apply gone_right.
    - apply (rep_l _ _ _ _ _ _ _ _ H2).
    - cbn [right_set set_right]. rewrite t_insert_perm; [|exact LO|eapply (rep_hashed_r E); eauto].
      simpl. constructor. apply (rep_r _ _ _ _ _ _ _ _ H2).
  Qed.

  Lemma insert_left_ok : forall b s lc rc m G l r, Repr b s lc rc m G -> lc + 1 < two64 ->
    exists m' lc', insert_left E l r m = Ret m' (s_insert_left_out (eqL E) (eqR E) G l r) /\
      Repr b s lc' rc m' (s_insert_left (eqL E) (eqR E) G l r) /\ lc' <= lc + 1.
  Proof.
    intros b s lc rc m G l r (A & D & B & H & -> & T & CL & CR) BL.
    assert (HB := rep_hb _ _ _ _ _ _ _ _ H).
    unfold insert_left, left_insert, right_assign, incr_left. mrun. rewrite HB, CL.
    unfold s_insert_left, s_insert_left_out, s_remove_left_out.
    destruct (split_r E OK _ _ _ _ _ _ _ r H) as [(y & B' & PB & H2 & QR & HR & NR)|NR].
    2:{ rewrite (find_key_right_none E OK _ _ _ _ _ _ _ _ H NR), (find_r_none E) by auto.
        exists m, lc. split; auto. split; [|lia]. exists A, D, B. auto 6. }
    erewrite (find_r_some E) by eauto.
    destruct (find_key_right E OK _ _ _ _ _ _ _ _ _ H2 QR NR) as (j & FR & AR). rewrite FR.
    cbn [snd GroupProofs.slotR r_id] in *.
    apply modify_at with (f := pairs_insert E (hashL E s l, lc)) in AR.
    set (z := ZL lc l (y_id y) (y_r y) (y_id y)).
    set (y' := ZR (y_id y) (y_r y) (setins (y_id y) (y_tab y) (pkey s z))).
    set (m1 := set_right (t_modify (right_set m) j (pairs_insert E (hashL E s l, lc))) m).
    assert (C1 : Core s (lc + 1) rc A (z :: D) (y' :: B')).
    { assert (C0 : Core s (lc + 1) rc A D (y :: B')).
      { eapply core_bounds; [eapply rep_core; eauto|lia|lia]. }
      assert (F0 : ~ In (z_id z) (map z_id (A ++ D))).
      { simpl. eapply (core_lid_fresh E). eapply rep_core; eauto. }
      eapply core_plan; eauto; simpl; auto.
      - lia.
      - apply (rep_rlt _ _ _ _ _ _ _ _ H2). left; auto.
      - eapply (tab_with E OK s _ _ _ _ z); eauto. }
    assert (H3 : Rep s (lc + 1) rc m1 A (z :: D) (y' :: B')).
    { apply core_rep; auto.
      - apply (rep_l _ _ _ _ _ _ _ _ H).
      - simpl. apply AR. }
    (* the state after remove_left *)
    assert (X : exists m2 A2 B2, remove_left E l m1 = Ret m2 (option_map fst (find_l (eqL E) (view A B) l)) /\
      Rep s (lc + 1) rc m2 A2 (z :: D) B2 /\ Permutation (map y_key B2) (map y_key (y' :: B')) /\
      left_counter m2 = lc /\ right_counter m2 = rc /\ incl A2 A /\
      (forall x, In x A2 -> eqL E l (z_l x) = false) /\
      Permutation (map z_pair A2) (del_l (eqL E) (view A B) l)).
    { destruct (split_l E OK _ _ _ _ _ _ _ l H3) as [(x & A' & P & H4 & Q & _ & N)|N].
      - destruct (remove_left_some E OK _ _ _ _ _ _ _ _ _ H4 Q N) as (m2 & B2 & -> & H5 & PB2 & C2 & C3).
        exists m2, A', B2. erewrite (find_l_some E) by eauto. split; auto. split; auto. split; auto.
        split; [rewrite C2; auto|]. split; [rewrite C3; auto|]. split; [|split; auto].
        + intros w Hw. eapply Permutation_in; [symmetry; exact P|right; auto].
        + symmetry. eapply del_l_some; eauto.
      - exists m1, A, (y' :: B'). erewrite (remove_left_none E) by eauto.
        rewrite (find_l_none E) by auto. split; auto. split; auto. split; auto.
        split; [auto|]. split; [auto|]. split; [intros w Hw; auto|split; auto].
        rewrite del_l_none by auto. auto. }
    destruct X as (m2 & A2 & B2 & -> & H5 & PB2 & CL2 & CR2 & IN2 & N2 & P2).
    rewrite CL2, u64_incr_ok by auto.
    cbn [right_set left_set set_right set_left fst hash_builder right_counter left_counter].
    assert (HB2 := rep_hb _ _ _ _ _ _ _ _ H5). rewrite HB2.
    do 2 eexists. split; [reflexivity|]. split; [|apply N.le_refl].
    apply (repr_same E OK) with (G := view (z :: A2) B2).
    - split; simpl; auto. rewrite (y_keys_r _ _ PB2). simpl. symmetry.
      exact (Permutation_map y_r PB).
    - exists (z :: A2), D, B2. split; [|split; [auto|split; [|auto]]].
      + apply core_rep; auto.
        * apply core_revive; auto; [eapply rep_core; eauto|].
          destruct (y_keys_in _ _ y' PB2) as (w & Hw & Q1 & Q2); [left; auto|].
          exists w. auto.
        * cbn [left_set set_left]. rewrite t_insert_perm; [|exact LO|eapply (rep_hashed_l E); eauto].
          unfold z at 1; simpl. rewrite HR. constructor. apply (rep_l _ _ _ _ _ _ _ _ H5).
        * apply (rep_r _ _ _ _ _ _ _ _ H5).
      + apply tame_cons; auto. destruct T as [T1 T2]. split; auto.
  Qed.

  Lemma pair_ok : forall b s lc rc m G l r, Repr b s lc rc m G ->
    (contains_right E m r = true -> linked E m l) ->
    exists m', pair E l r m = Ret m' (s_pair_out (eqL E) (eqR E) G l r) /\
      Repr b s lc rc m' (s_pair (eqL E) (eqR E) G l r).
  Proof.
    intros b s lc rc m G l r (A & D & B & H & -> & T & CL & CR) LK.
    assert (HB := rep_hb _ _ _ _ _ _ _ _ H).
    unfold pair, left_assign, right_assign. mrun. rewrite HB.
    unfold s_pair, s_pair_out. rewrite (contains_l_find E), (contains_r_find E).
    destruct (split_l E OK _ _ _ _ _ _ _ l H) as [(z & A' & P & H1 & Q & HQ & N)|N].
    2:{ rewrite (find_key_left_none E OK _ _ _ _ _ _ _ _ H N), (find_l_none E) by auto.
        exists m. split; auto. exists A, D, B. auto 6. }
    destruct (find_key_left E OK _ _ _ _ _ _ _ _ _ H1 Q N) as (i & FL & AL). rewrite FL.
    erewrite (find_l_some E) by eauto.
    destruct (split_r E OK _ _ _ _ _ _ _ r H) as [(y & B' & PB & H2 & QR & HR & NR)|NR].
    2:{ rewrite (find_right_none E OK _ _ _ _ _ _ _ _ H NR), (find_r_none E) by auto.
        exists m. split; auto. exists A, D, B. auto 6. }
    assert (LKl : linked E m l).
    { apply LK. unfold contains_right. erewrite (find_right_some E OK) by eauto. auto. }
    erewrite (find_right_some E OK), (find_r_some E) by eauto. cbn [is_some andb fst].
    assert (H3 := rep_perm E OK _ _ _ _ _ _ _ _ _ (Permutation_refl _) PB H1).
    assert (RZ := linked_z E OK _ _ _ _ _ _ _ _ _ H3 Q N LKl).
    destruct (rep_link _ _ _ _ _ _ _ _ H3 z (or_introl eq_refl)) as (y1 & Hy1 & I1 & R1).
    cbn [snd GroupProofs.slotL GroupProofs.slotR l_id l_hash l_rid r_id right_set left_set
        set_right set_left fst hash_builder] in *.
    rewrite HQ, HR, RZ, <- R1, <- I1. change (hashL E s (z_l z), z_id z) with (pkey s z).
    apply modify_at with (f := set_l_hash (hashR E s (y_r y))) in AL.
    apply modify_at with (f := set_l_rid (y_id y)) in AL.
    set (z' := ZL (z_id z) (z_l z) (y_id y) (y_r y) (y_id y)).
    destruct Hy1 as [<-|Hy1].
    - (* already paired *)
      assert (C0 := rep_core E _ _ _ _ _ _ _ H3).
      destruct (core_leave _ _ _ _ _ _ _ _ C0 (eq_sym I1)) as [C1 F1].
      destruct (get_mut_unique E OK (right_set m) (hashR E s (y_r y)) (right_with_right_id (y_id y))
        (snd (slotR s y)) (map (slotR s) B')) as (k & FK & AK).
      { apply (rep_r _ _ _ _ _ _ _ _ H3). }
      { apply N.eqb_refl. }
      { assert (ND := rep_rids _ _ _ _ _ _ _ _ H3). simpl in ND. inversion ND; subst.
        intros x Hx. eapply (id_r_other E); eauto. }
      rewrite FK. cbn [fst snd].
      apply modify_at with (f := pairs_remove E (pkey s z)) in AK.
      set (rt1 := t_modify (right_set m) k (pairs_remove E (pkey s z))) in *.
      destruct (get_mut_unique E OK rt1 (hashR E s (y_r y)) (equivalent_key_right (eqR E) r)
        (pairs_remove E (pkey s z) (snd (slotR s y))) (map (slotR s) B')) as (k2 & FK2 & AK2).
      { apply AK. }
      { apply (equiv_sym _ ER), QR. }
      { intros x Hx. eapply (key_r_other E OK); eauto. }
      cbn [right_set left_set set_right set_left]. fold rt1. rewrite FK2. cbn [fst snd].
      apply modify_at with (f := pairs_insert E (pkey s z)) in AK2.
      eexists. split; [reflexivity|].
      set (y2 := ZR (y_id y) (y_r y) (setins (y_id y) (setrem (y_id y) (y_tab y) (pkey s z)) (pkey s z))).
      apply (repr_same E OK) with (G := view (z' :: A') (y2 :: B')).
      + split; simpl.
        * symmetry. exact (Permutation_map y_r PB).
        * constructor. symmetry. eapply del_l_some; eauto.
      + exists (z' :: A'), D, (y2 :: B'). split; [|split; [auto|split; [|auto]]].
        * apply core_rep; auto.
          { apply (core_join s lc rc A' D (ZR (y_id y) (y_r y) (setrem (y_id y) (y_tab y) (pkey s z)))
              B' z'); simpl; auto.
            - apply (c_llt _ _ _ _ _ _ _ C0 z). simpl; auto.
            - apply (c_rlt _ _ _ _ _ _ _ C0 y). simpl; auto.
            - apply distinct_head. apply (c_eql _ _ _ _ _ _ _ C0). }
          { simpl. apply AL. }
          { simpl. apply AK2. }
        * apply tame_cons; auto. eapply tame_tail, tame_perm; [exact P|auto].
    - apply perm_in_cons in Hy1 as [B2 PB2].
      assert (PB3 : Permutation (y :: B') (y1 :: y :: B2)).
      { rewrite PB2. apply perm_swap. }
      assert (H4 := rep_perm E OK _ _ _ _ _ _ _ _ _ (Permutation_refl _) PB3 H3).
      assert (C0 := rep_core E _ _ _ _ _ _ _ H4).
      destruct (core_leave _ _ _ _ _ _ _ _ C0 (eq_sym I1)) as [C1 F1].
      destruct (get_mut_unique E OK (right_set m) (hashR E s (y_r y1)) (right_with_right_id (y_id y1))
        (snd (slotR s y1)) (map (slotR s) (y :: B2))) as (k & FK & AK).
      { apply (rep_r _ _ _ _ _ _ _ _ H4). }
      { apply N.eqb_refl. }
      { assert (ND := rep_rids _ _ _ _ _ _ _ _ H4). simpl in ND. inversion ND; subst.
        intros x Hx. eapply (id_r_other E _ (y :: B2)); [|exact Hx]; simpl; auto. }
      rewrite FK. cbn [fst snd].
      apply modify_at with (f := pairs_remove E (pkey s z)) in AK.
      set (rt1 := t_modify (right_set m) k (pairs_remove E (pkey s z))) in *.
      set (y1' := ZR (y_id y1) (y_r y1) (setrem (y_id y1) (y_tab y1) (pkey s z))).
      destruct (get_mut_unique E OK rt1 (hashR E s (y_r y)) (equivalent_key_right (eqR E) r)
        (snd (slotR s y)) (map (slotR s) (y1' :: B2))) as (k2 & FK2 & AK2).
      { etransitivity; [apply AK|]. apply perm_swap. }
      { apply (equiv_sym _ ER), QR. }
      { intros x Hx. eapply (key_r_other E OK); [|exact Hx].
        intros w [<-|Hw]; simpl; apply NR; (eapply Permutation_in; [symmetry; exact PB2|]);
          [left; auto|right; auto]. }
      cbn [right_set left_set set_right set_left]. fold rt1. rewrite FK2. cbn [fst snd].
      apply modify_at with (f := pairs_insert E (pkey s z)) in AK2.
      eexists. split; [reflexivity|].
      set (y2 := ZR (y_id y) (y_r y) (setins (y_id y) (y_tab y) (pkey s z))).
      apply (repr_same E OK) with (G := view (z' :: A') (y2 :: y1' :: B2)).
      + split; simpl.
        * rewrite (Permutation_map y_r PB). simpl. constructor.
          symmetry. exact (Permutation_map y_r PB2).
        * constructor. symmetry. eapply del_l_some; eauto.
      + exists (z' :: A'), D, (y2 :: y1' :: B2). split; [|split; [auto|split; [|auto]]].
        * apply core_rep; auto.
          { apply (core_join s lc rc A' D y (y1' :: B2) z'); simpl; auto.
            - apply (core_perm E OK s lc rc A' D (y1' :: y :: B2)); auto. apply perm_swap.
            - apply (c_llt _ _ _ _ _ _ _ C0 z). simpl; auto.
            - apply (c_rlt _ _ _ _ _ _ _ C0 y). simpl; auto.
            - apply distinct_head. apply (c_eql _ _ _ _ _ _ _ C0). }
          { simpl. apply AL. }
          { simpl. apply AK2. }
        * apply tame_cons; auto. eapply tame_tail, tame_perm; [exact P|auto].
  Qed.
End Inserts.
