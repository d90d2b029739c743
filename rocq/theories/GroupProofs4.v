(* Refinement of GroupMap: swap_right, swap_right_remove. *)
From Coq Require Import List NArith Lia Bool Permutation.
From Verif Require Import Prelude RawTable GroupMap GroupSpec ListFacts TableFacts GroupProofs
  GroupProofs2 GroupProofs3.
Import ListNotations.
Open Scope N_scope.

Section Swaps.
  Context {L R S : Type} (E : env L R S) (OK : lawful E).
  Notation gm := (gmap L R S).
  Notation zl := (zleft L R).
  Notation zr := (zright R).
  Notation Rep := (Rep E).
  Notation Core := (Core E).
  Notation Repr := (Repr E).
  Notation slotL := (slotL E).
  Notation slotR := (slotR E).
  Notation pslot := (pslot E).
  Notation pkey := (pkey E).

  Let EL := eqL_equiv _ OK.
  Let ER := eqR_equiv _ OK.
  Let LO := lo_ok _ OK.

  (* z now belongs to right item r number i; its r_id field is not updated *)
  Definition moved (i : N) (r : R) (z : zl) : zl := ZL (z_id z) (z_l z) i r (z_rid z).

  Lemma core_add_right : forall s lc rc A D B y, Core s lc rc A D B -> slots (y_tab y) = [] ->
    y_id y < rc -> ~ In (y_id y) (map y_id B) -> (forall z, In z (A ++ D) -> z_g z <> y_id y) ->
    (forall x, In x B -> eqR E (y_r y) (y_r x) = false) -> Core s lc rc A D (y :: B).
  Proof.
    intros s lc rc A D B y H T I1 I2 I3 N. destruct H. constructor; auto.
    - intros x [<-|Hy]; auto. rewrite T.
      rewrite filter_all_false; auto. intros z Hz. apply N.eqb_neq. auto.
    - simpl. constructor; auto.
    - intros x [<-|Hx]; auto.
    - intros z Hz. destruct (c_link z Hz) as (x & Hx & Q). exists x; split; [right|]; auto.
    - simpl. apply distinct_cons. split; auto.
      intros x Hx. apply in_map_iff in Hx as (w & <- & Hw). auto.
  Qed.

  (* the whole group of y moves to a new right item, y itself is dropped *)
  Lemma core_regroup : forall s lc rc zs A D y B new t, Core s lc rc (zs ++ A) D (y :: B) ->
    (forall z, In z zs -> z_g z = y_id y) -> (forall z, In z A -> z_g z <> y_id y) ->
    (forall x, In x B -> eqR E new (y_r x) = false) ->
    Permutation (slots t) (map (pslot s rc) zs) ->
    Core s lc (rc + 1) (map (moved rc new) zs ++ A) D (ZR rc new t :: B).
  Proof.
    intros s lc rc zs A D y B new t H G NG NB P.
    assert (C := core_remove_group E _ _ _ _ _ _ _ _ H G NG).
    destruct H, C. constructor.
    - intros x [<-|Hx]; simpl.
      + rewrite P. rewrite !filter_app.
        rewrite (filter_all_true _ (map _ zs)).
        2:{ intros z Hz. apply in_map_iff in Hz as (w & <- & _). apply N.eqb_refl. }
        rewrite (filter_all_false _ A).
        2:{ intros z Hz. apply N.eqb_neq. assert (In z (A ++ D)) by (apply in_app_iff; auto).
            apply c_llt0 in H. lia. }
        rewrite (filter_all_false _ D).
        2:{ intros z Hz. apply N.eqb_neq. assert (In z (A ++ D)) by (apply in_app_iff; auto).
            apply c_llt0 in H. lia. }
        rewrite !app_nil_r, map_map. apply Permutation_refl'. apply map_ext. auto.
      + rewrite (c_tab0 x Hx). apply Permutation_map. rewrite <- app_assoc, (filter_app _ (map _ zs)).
        rewrite (filter_all_false _ (map _ zs)); auto.
        intros z Hz. apply in_map_iff in Hz as (w & <- & _). apply N.eqb_neq. simpl.
        apply c_rlt0 in Hx. lia.
    - rewrite <- app_assoc in *. rewrite map_app in *. rewrite map_map. simpl. auto.
    - simpl. constructor; auto. intro I. apply in_map_iff in I as (x & Q & I).
      apply c_rlt0 in I. lia.
    - intros z Hz. rewrite <- app_assoc in Hz. apply in_app_iff in Hz as [Hz|Hz].
      + apply in_map_iff in Hz as (w & <- & Hw). simpl.
        destruct (c_llt w) as (W1 & W2 & W3); [rewrite !in_app_iff; auto|]. lia.
      + apply c_llt0 in Hz. lia.
    - intros x [<-|Hx]; simpl; [lia|]. apply c_rlt0 in Hx. lia.
    - intros z Hz. apply in_app_iff in Hz as [Hz|Hz].
      + apply in_map_iff in Hz as (w & <- & Hw). eexists; split; [left; reflexivity|]. auto.
      + destruct (c_link0 z Hz) as (x & Hx & Q). exists x; split; [right|]; auto.
    - rewrite map_app in *. rewrite map_map. simpl. auto.
    - simpl. apply distinct_cons. split; auto.
      intros x Hx. apply in_map_iff in Hx as (w & <- & Hw). auto.
  Qed.

  Lemma rehash_pairs_run : forall s i new zs A m, hash_builder m = s ->
    Permutation (slots (left_set m)) (map (slotL s) (zs ++ A)) -> NoDup (map z_id (zs ++ A)) ->
    exists lt, rehash_pairs E (hashR E s new) (map (pkey s) zs) m = Ret (set_left lt m) tt /\
      Permutation (slots lt) (map (slotL s) (map (moved i new) zs ++ A)).
  Proof.
    intros s i new. induction zs as [|z t IH]; intros A m HB P ND; simpl.
    - exists (left_set m). split; auto. destruct m; auto.
    - unfold left_assign. mrun. simpl in ND. inversion ND; subst x l.
      destruct (get_mut_unique E OK (left_set m) (hashL E s (z_l z))
        (left_with_left_id (z_id z)) (snd (slotL s z)) (map (slotL s) (t ++ A)))
        as (k & -> & AK); auto.
      { apply N.eqb_refl. }
      { intros x Hx. eapply (id_l_other E); eauto. }
      cbn [fst]. apply modify_at with (f := set_l_hash (hashR E s new)) in AK.
      destruct (IH (A ++ [moved i new z]) (set_left (t_modify (left_set m) k (set_l_hash (hashR E s new))) m))
        as (lt' & RUN & PL'); auto.
      { simpl. etransitivity; [apply AK|]. rewrite app_assoc, (map_app _ (t ++ A)). simpl.
        apply Permutation_cons_append. }
      { rewrite app_assoc, (map_app _ (t ++ A)). simpl.
        eapply NoDup_perm; [apply Permutation_cons_append|]. constructor; auto. }
      rewrite RUN. exists lt'. split; auto. rewrite PL'. rewrite !map_app. simpl.
      rewrite app_assoc. symmetry. apply Permutation_cons_append.
  Qed.

  Lemma set_collect_keys : forall s i (zs : list zl), NoDup (map z_id zs) ->
    Permutation (slots (set_collect E i (map (pkey s) zs))) (map (pslot s i) zs).
  Proof.
    intros s i zs ND. rewrite (set_collect_perm E OK).
    - rewrite map_map. reflexivity.
    - clear -ND. induction zs as [|z t IH]; simpl; constructor; inversion ND; auto.
      intro I. apply H1. apply in_map_iff in I as (w & Q & I). inversion Q. apply in_map; auto.
  Qed.

  (* abstract effect of moving the group *)
  Lemma repaired_z : forall s lc rc m A D B y old new i zs, Rep s lc rc m A D B -> In y B ->
    eqR E old (y_r y) = true -> Permutation zs (filter (in_group (y_id y)) A) ->
    Permutation (repaired (eqR E) (view A B) old new)
      (map z_pair (map (moved i new) zs ++ filter (fun z => negb (in_group (y_id y) z)) A)).
  Proof.
    intros s lc rc m A D B y old new i zs H Hy Q P. unfold repaired. simpl.
    rewrite map_app, (Permutation_map z_pair (Permutation_map (moved i new) P)), <- map_app.
    assert (X : forall A', incl A' A ->
      Permutation (map (fun p => if is_r (eqR E) old p then (fst p, new) else p) (map z_pair A'))
        (map z_pair (map (moved i new) (filter (in_group (y_id y)) A')
                     ++ filter (fun z => negb (in_group (y_id y) z)) A'))).
    { induction A' as [|z t IH]; simpl; intros I; auto.
      rewrite (is_r_in_group E OK _ _ _ _ _ _ _ y old z H Hy Q) by (apply I; left; auto).
      assert (IH' : incl t A) by (intros x Hx; apply I; right; auto). apply IH in IH'.
      destruct (in_group (y_id y) z); simpl; [constructor; auto|].
      rewrite map_app. simpl. apply Permutation_cons_app. rewrite <- map_app. auto. }
    apply X. intros x Hx; auto.
  Qed.

  Lemma unpaired_nil : forall s lc rc m A D B y r zs, Rep s lc rc m A D B -> In y B ->
    eqR E r (y_r y) = true -> Permutation zs (filter (in_group (y_id y)) A) ->
    s_is_right_paired (eqR E) (view A B) r = false -> zs = [].
  Proof.
    intros s lc rc m A D B y r zs H Hy Q P U.
    destruct zs as [|z t]; auto. exfalso.
    assert (Hz : In z (filter (in_group (y_id y)) A)) by (eapply Permutation_in; [exact P|left; auto]).
    apply filter_In in Hz as [Hz G]. unfold s_is_right_paired in U. simpl in U.
    apply existsb_false with (x := z_pair z) in U; [|apply in_map; auto].
    rewrite (is_r_in_group E OK _ _ _ _ _ _ _ y r z H Hy Q Hz) in U. congruence.
  Qed.

  Definition still (b : bool * bool) (G : contents L R) (old : R) : bool * bool :=
    (fst b, snd b && negb (s_is_right_paired (eqR E) G old)).

  Lemma repr_weaken : forall b b' s lc rc m G, Repr b s lc rc m G -> (fst b' = true -> fst b = true) ->
    (snd b' = true -> snd b = true) -> Repr b' s lc rc m G.
  Proof.
    intros b b' s lc rc m G (A & D & B & H & V & [T1 T2] & C) I J. exists A, D, B.
    split; [auto|split; [auto|split; [split; auto|auto]]].
  Qed.
  Lemma still_b : forall b G old, snd (still b G old) = true -> snd b = true.
  Proof. intros b G old H. apply andb_true_iff in H. tauto. Qed.

  (* a left item outside the group of old keeps its stored right id *)
  Lemma kept_linked : forall s lc rc lc' rc' m m' A D B D' B' y zs old l, Rep s lc rc m A D B ->
    In y B -> eqR E old (y_r y) = true ->
    Rep s lc' rc' m' (zs ++ filter (fun z => negb (in_group (y_id y) z)) A) D' B' ->
    (forall z, In z zs -> exists w, In w A /\ in_group (y_id y) w = true /\ z_l z = z_l w) ->
    linked E m l -> are_paired E m l old = false -> linked E m' l.
  Proof.
    intros s lc rc lc' rc' m m' A D B D' B' y zs old l H Hy Q H' Z LK AP.
    destruct (split_l E OK _ _ _ _ _ _ _ l H) as [(z & A1 & P & H1 & Q1 & HQ & N)|N].
    - assert (RZ := linked_z E OK _ _ _ _ _ _ _ _ _ H1 Q1 N LK).
      assert (Hz : In z A) by (eapply Permutation_in; [symmetry; exact P|left; auto]).
      destruct (split_r E OK _ _ _ _ _ _ _ old H1) as [(y2 & B2 & PB & H2 & Q2 & _ & N2)|N2].
      2:{ rewrite N2 in Q by auto. discriminate. }
      assert (y2 = y).
      { eapply (same_right E OK); [exact H| | |].
        - eapply Permutation_in; [symmetry; exact PB|left; auto].
        - auto.
        - rewrite <- (eqb_replace_l _ ER _ _ _ Q2). auto. }
      subst y2. rewrite (are_paired_z E OK _ _ _ _ _ _ _ _ _ _ _ H2 Q1 N Q2 N2) in AP.
      assert (HA : In z (zs ++ filter (fun z => negb (in_group (y_id y) z)) A)).
      { apply in_or_app. right. apply filter_In. rewrite AP. auto. }
      apply perm_in_cons in HA as [A2 PA].
      assert (H3 := rep_perm E OK _ _ _ _ _ _ _ _ _ PA (Permutation_refl _) H').
      eapply (linked_of_z E OK); eauto.
      intros x Hx. assert (DL := rep_eql _ _ _ _ _ _ _ _ H3). simpl in DL.
      apply distinct_cons in DL as [DL _]. rewrite (eqb_replace_l _ EL _ _ _ Q1). apply DL, in_map; auto.
    - intros C. exfalso. unfold contains_left in C. rewrite (find_left_none E OK _ _ _ _ _ _ _ _ H') in C.
      + discriminate.
      + intros x Hx. apply in_app_or in Hx as [Hx|Hx].
        * destruct (Z x Hx) as (w & Hw & _ & ->). auto.
        * apply filter_In in Hx as [Hx _]. auto.
  Qed.

  (* once the right item y equal to old is found; no right item but y may equal new *)
  Lemma swap_right_remove_z : forall s lc rc m A D y B old new, Rep s lc rc m A D (y :: B) ->
    eqR E old (y_r y) = true -> (forall x, In x B -> eqR E old (y_r x) = false) -> cleanZ D (y_id y) ->
    rc + 1 < two64 -> left_counter m = lc -> right_counter m = rc ->
    (forall x, In x B -> eqR E new (y_r x) = false) ->
    exists m' zs tab, swap_right_remove E old new m = Ret m' (Some (y_r y)) /\
      Permutation zs (filter (in_group (y_id y)) A) /\
      Rep s lc (rc + 1) m' (map (moved rc new) zs ++ filter (fun z => negb (in_group (y_id y) z)) A) D
        (ZR rc new tab :: B) /\
      left_counter m' = lc /\ right_counter m' = rc + 1.
  Proof.
    intros s lc rc m A D y B' old new H' Q N CZ BR CL CR NN.
    assert (HB := rep_hb _ _ _ _ _ _ _ _ H').
    assert (HQ : hashR E s old = hashR E s (y_r y)) by (apply (hashR_ok _ OK); auto).
    unfold swap_right_remove, right_remove_entry, right_insert, incr_right. mrun.
    rewrite HB, HQ.
    destruct (t_remove_entry_unique _ LO (right_set m) (hashR E s (y_r y))
      (equivalent_key_right (eqR E) old) (snd (slotR s y)) (map (slotR s) B')) as (rt & -> & PR).
    { apply (rep_r _ _ _ _ _ _ _ _ H'). }
    { apply (equiv_sym _ (eqR_equiv E OK)), Q. }
    { intros x Hx. eapply (key_r_other E OK); eauto. }
    cbn [right_set left_set set_right set_left fst snd hash_builder right_counter left_counter
      GroupProofs.slotR r_pairs r_value].
    rewrite CR, HB, u64_incr_ok by auto.
    destruct (tab_elems E _ _ _ _ _ _ _ y H' (or_introl eq_refl)) as (zs & QE & PZ).
    rewrite clean_filter in PZ by auto. rewrite QE.
    set (A' := filter (fun z => negb (in_group (y_id y) z)) A).
    assert (PA : Permutation A (zs ++ A')).
    { rewrite PZ. apply split_group. }
    assert (H1 := rep_perm E OK _ _ _ _ _ _ _ _ _ PA (Permutation_refl _) H').
    assert (ND : NoDup (map z_id (zs ++ A'))).
    { eapply NoDup_app_left. rewrite <- map_app. apply (rep_lids _ _ _ _ _ _ _ _ H1). }
    assert (NDz : NoDup (map z_id zs)) by (rewrite map_app in ND; eapply NoDup_app_left; eauto).
    set (tab := set_collect E rc (map (pkey s) zs)).
    assert (PT := set_collect_keys s rc zs NDz). fold tab in PT.
    assert (PT2 := Permutation_map snd PT). rewrite map_map in PT2.
    change (fun x => snd (pslot s rc x)) with (pkey s) in PT2.
    destruct (Permutation_map_inv _ _ PT2) as (zs2 & Q2 & P2).
    change (map snd (slots tab)) with (hs_elems tab) in Q2. rewrite Q2.
    assert (PA2 : Permutation (zs ++ A') (zs2 ++ A')) by (apply Permutation_app_tail; auto).
    match goal with |- context [rehash_pairs E _ _ ?m1] =>
      destruct (rehash_pairs_run s rc new zs2 A' m1) as (lt & RUN & PL) end.
    { reflexivity. }
    { cbn [left_set set_right]. rewrite (rep_l _ _ _ _ _ _ _ _ H1). apply Permutation_map; auto. }
    { eapply NoDup_perm; [apply Permutation_map; exact PA2|auto]. }
    rewrite RUN. eexists. exists zs, tab. split; [reflexivity|]. split; [exact PZ|].
    split; [|split; [exact CL|reflexivity]].
    apply core_rep; auto.
    - eapply core_regroup; eauto.
      + eapply rep_core; eauto.
      + intros z Hz. apply (Permutation_in _ PZ) in Hz. apply filter_In in Hz as [_ Hz].
        apply N.eqb_eq; auto.
      + intros z Hz. apply filter_In in Hz as [_ Hz]. apply negb_true_iff, N.eqb_neq in Hz. auto.
    - simpl. rewrite PL, !map_app. apply Permutation_app_tail. rewrite !map_map.
      apply Permutation_map. symmetry; auto.
    - cbn [right_set set_right set_left]. rewrite t_insert_perm; [simpl; auto|exact LO|].
      intros x Hx. apply (Permutation_in _ PR) in Hx. apply in_map_iff in Hx as (w & <- & _). auto.
  Qed.

  Lemma swap_right_remove_ok : forall b s lc rc m G old new, Repr b s lc rc m G ->
    rc + 1 < two64 ->
    (if contains_right E m old then clean E m old /\ (contains_right E m new = false \/ eqR E old new = true)
     else clean E m new) ->
    exists m', swap_right_remove E old new m = Ret m' (find_r (eqR E) G old) /\
      Repr (still b G old) s lc (rc + 1) m' (s_swap_right_remove (eqR E) G old new) /\
      (contains_right E m old = true -> forall l, linked E m l -> are_paired E m l old = false -> linked E m' l).
  Proof.
    intros b s lc rc m G old new H0 BR GD.
    assert (CO := contains_right_ok E OK _ _ _ _ _ _ old H0). rewrite CO, (contains_right_ok E OK _ _ _ _ _ _ new H0) in GD.
    destruct H0 as (A & D & B & H & -> & T & CL & CR).
    unfold s_swap_right_remove.
    destruct (split_r E OK _ _ _ _ _ _ _ old H) as [(y & B' & P & H' & Q & HQ & N)|N].
    - rewrite (contains_r_find E), (find_r_some E y A B' B old P Q N) in *. cbn [is_some] in GD.
      destruct GD as [C GD]. assert (CZ := clean_z E OK _ _ _ _ _ _ _ _ _ H' Q N C).
      assert (Hy : In y B) by (eapply Permutation_in; [symmetry; exact P|left; auto]).
      assert (NN : forall x, In x B' -> eqR E new (y_r x) = false).
      { intros x Hx. destruct GD as [GD|GD].
        - eapply (view_r_absent E); [exact GD|]. eapply Permutation_in; [symmetry; exact P|right; auto].
        - rewrite <- (eqb_replace_l _ ER _ _ _ GD). auto. }
      destruct (swap_right_remove_z _ _ _ _ _ _ _ _ _ new H' Q N CZ BR CL CR NN)
        as (m' & zs & tab & RUN & PZ & HN & CL' & CR').
      set (A' := filter (fun z => negb (in_group (y_id y) z)) A) in *.
      exists m'. split; [exact RUN|]. split.
      2:{ intros _ l LK AP. eapply kept_linked; [exact H|exact Hy|exact Q|exact HN| |exact LK|exact AP].
          intros z Hz. apply in_map_iff in Hz as (w & <- & Hw). exists w.
          apply (Permutation_in _ PZ) in Hw. apply filter_In in Hw as [? ?]. auto. }
      apply (repr_same E OK) with (G := view (map (moved rc new) zs ++ A') (ZR rc new tab :: B')).
      + split.
        * simpl. constructor. symmetry. eapply (del_r_some E y A); eauto.
        * symmetry. eapply repaired_z; eauto.
      + exists (map (moved rc new) zs ++ A'), D, (ZR rc new tab :: B').
        split; [exact HN|split; [auto|split; [|auto]]].
        destruct T as [T1 T2]. split; auto.
          intros Hs z Hz. assert (Hb := still_b _ _ _ Hs). apply andb_true_iff in Hs as [_ Hs].
          apply negb_true_iff in Hs.
          rewrite (unpaired_nil _ _ _ _ _ _ _ _ _ _ H Hy Q PZ Hs) in Hz.
          apply T2; auto. apply filter_In in Hz. tauto.
    - assert (HB := rep_hb _ _ _ _ _ _ _ _ H).
      rewrite (contains_r_find E), (find_r_none E A B old N) in *. cbn [is_some] in GD.
      unfold swap_right_remove, right_remove_entry. mrun. rewrite HB.
      rewrite t_remove_entry_absent by (eapply (right_absent E OK); eauto).
      assert (HR : Repr b s lc rc m (view A B)) by (exists A, D, B; auto 6).
      destruct (insert_right_ok E OK _ _ _ _ _ _ new HR BR GD) as (m' & w & -> & _ & H').
      exists m'. split; auto. split; [eapply repr_weaken; [exact H'|auto|apply still_b]|].
      intros X. rewrite CO in X. discriminate.
  Qed.

  Lemma swap_right_z : forall s lc rc m A D y B old new, Rep s lc rc m A D (y :: B) ->
    eqR E old (y_r y) = true -> (forall x, In x B -> eqR E old (y_r x) = false) -> cleanZ D (y_id y) ->
    rc + 1 < two64 -> left_counter m = lc -> right_counter m = rc ->
    (forall x, In x (y :: B) -> eqR E new (y_r x) = false) ->
    exists m' zs tab t0, swap_right E old new m = Ret m' tt /\
      Permutation zs (filter (in_group (y_id y)) A) /\
      Rep s lc (rc + 1) m' (map (moved rc new) zs ++ filter (fun z => negb (in_group (y_id y) z)) A) D
        (ZR rc new tab :: ZR (y_id y) (y_r y) t0 :: B) /\
      left_counter m' = lc /\ right_counter m' = rc + 1.
  Proof.
    intros s lc rc m A D y B' old new H' Q N CZ BR CL CR NN.
    assert (HB := rep_hb _ _ _ _ _ _ _ _ H').
    unfold swap_right, right_assign, right_insert, incr_right. mrun. rewrite HB.
    destruct (find_key_right E OK _ _ _ _ _ _ _ _ _ H' Q N) as (j & FR & AR). rewrite FR.
    cbn [right_set left_set set_right set_left fst snd hash_builder right_counter left_counter
      GroupProofs.slotR r_pairs r_value].
    rewrite CR, HB, u64_incr_ok by auto.
    apply modify_at with (f := set_pairs (t_clear (lo E) (y_tab y))) in AR.
    destruct (tab_elems E _ _ _ _ _ _ _ y H' (or_introl eq_refl)) as (zs & QE & PZ).
    rewrite clean_filter in PZ by auto. rewrite QE.
    set (A' := filter (fun z => negb (in_group (y_id y) z)) A).
    assert (PA : Permutation A (zs ++ A')).
    { rewrite PZ. apply split_group. }
    assert (H1 := rep_perm E OK _ _ _ _ _ _ _ _ _ PA (Permutation_refl _) H').
    assert (ND : NoDup (map z_id (zs ++ A'))).
    { eapply NoDup_app_left. rewrite <- map_app. apply (rep_lids _ _ _ _ _ _ _ _ H1). }
    assert (NDz : NoDup (map z_id zs)) by (rewrite map_app in ND; eapply NoDup_app_left; eauto).
    set (tab := set_collect E rc (map (pkey s) zs)).
    assert (PT := set_collect_keys s rc zs NDz). fold tab in PT.
    assert (PT2 := Permutation_map snd PT). rewrite map_map in PT2.
    change (fun x => snd (pslot s rc x)) with (pkey s) in PT2.
    destruct (Permutation_map_inv _ _ PT2) as (zs2 & Q2 & P2).
    change (map snd (slots tab)) with (hs_elems tab) in Q2. rewrite Q2.
    assert (PA2 : Permutation (zs ++ A') (zs2 ++ A')) by (apply Permutation_app_tail; auto).
    match goal with |- context [rehash_pairs E _ _ ?m1] =>
      destruct (rehash_pairs_run s rc new zs2 A' m1) as (lt & RUN & PL) end.
    { reflexivity. }
    { cbn [left_set set_right]. rewrite (rep_l _ _ _ _ _ _ _ _ H1). apply Permutation_map; auto. }
    { eapply NoDup_perm; [apply Permutation_map; exact PA2|auto]. }
    rewrite RUN. eexists. exists zs, tab, (t_clear (lo E) (y_tab y)).
    split; [reflexivity|]. split; [exact PZ|]. split; [|split; [exact CL|reflexivity]].
    assert (GZ : forall z, In z zs -> z_g z = y_id y).
    { intros z Hz. apply (Permutation_in _ PZ) in Hz. apply filter_In in Hz as [_ Hz].
      apply N.eqb_eq; auto. }
    assert (GA : forall z, In z A' -> z_g z <> y_id y).
    { intros z Hz. apply filter_In in Hz as [_ Hz]. apply negb_true_iff, N.eqb_neq in Hz. auto. }
    assert (YL := rep_rlt _ _ _ _ _ _ _ _ H' y (or_introl eq_refl)).
    set (y0 := ZR (y_id y) (y_r y) (t_clear (lo E) (y_tab y))).
    apply core_rep; auto.
    - apply (core_perm E OK s lc (rc + 1) (map (moved rc new) zs ++ A') D (y0 :: ZR rc new tab :: B'));
        auto; [apply perm_swap|].
      apply core_add_right; simpl; auto.
      + eapply core_regroup; eauto.
        * eapply rep_core; eauto.
        * intros x Hx. apply NN; right; auto.
      + lia.
      + assert (NR := rep_rids _ _ _ _ _ _ _ _ H'). simpl in NR. inversion NR.
        intros [X|X]; auto. lia.
      + intros z Hz. rewrite <- app_assoc in Hz. rewrite !in_app_iff in Hz.
        destruct Hz as [Hz|[Hz|Hz]]; auto.
        apply in_map_iff in Hz as (w & <- & _). simpl. lia.
      + intros x [<-|Hx]; simpl.
        * apply (eqb_false_sym _ ER). apply NN; left; auto.
        * assert (DR := rep_eqr _ _ _ _ _ _ _ _ H'). simpl in DR.
          apply distinct_cons in DR as [DR _]. apply DR, in_map; auto.
    - simpl. rewrite PL, !map_app. apply Permutation_app_tail. rewrite !map_map.
      apply Permutation_map. symmetry; auto.
    - cbn [right_set set_right set_left]. rewrite t_insert_perm; [|exact LO|].
      + simpl. constructor. apply AR.
      + intros x Hx. apply (Permutation_in _ (proj2 AR)) in Hx.
        destruct Hx as [<-|Hx]; auto. apply in_map_iff in Hx as (w & <- & _). auto.
  Qed.

  Lemma swap_right_ok : forall b s lc rc m G old new, Repr b s lc rc m G ->
    rc + 1 < two64 ->
    (if contains_right E m old then clean E m old /\ contains_right E m new = false
     else clean E m new) ->
    exists m', swap_right E old new m = Ret m' tt /\
      Repr (still b G old) s lc (rc + 1) m' (s_swap_right (eqR E) G old new) /\
      (contains_right E m old = true -> forall l, linked E m l -> are_paired E m l old = false -> linked E m' l).
  Proof.
    intros b s lc rc m G old new H0 BR GD.
    assert (CO := contains_right_ok E OK _ _ _ _ _ _ old H0). rewrite CO, (contains_right_ok E OK _ _ _ _ _ _ new H0) in GD.
    destruct H0 as (A & D & B & H & -> & T & CL & CR).
    unfold s_swap_right.
    destruct (split_r E OK _ _ _ _ _ _ _ old H) as [(y & B' & P & H' & Q & HQ & N)|N].
    - rewrite (contains_r_find E), (find_r_some E y A B' B old P Q N) in *. cbn [is_some] in GD.
      destruct GD as [C GD]. assert (CZ := clean_z E OK _ _ _ _ _ _ _ _ _ H' Q N C).
      assert (Hy : In y B) by (eapply Permutation_in; [symmetry; exact P|left; auto]).
      assert (NN : forall x, In x (y :: B') -> eqR E new (y_r x) = false).
      { intros x Hx. eapply (view_r_absent E); [exact GD|]. eapply Permutation_in; [symmetry; exact P|auto]. }
      destruct (swap_right_z _ _ _ _ _ _ _ _ _ new H' Q N CZ BR CL CR NN)
        as (m' & zs & tab & t0 & RUN & PZ & HN & CL' & CR').
      set (A' := filter (fun z => negb (in_group (y_id y) z)) A) in *.
      set (y0 := ZR (y_id y) (y_r y) t0) in *.
      exists m'. split; [exact RUN|]. split.
      2:{ intros _ l LK AP. eapply kept_linked; [exact H|exact Hy|exact Q|exact HN| |exact LK|exact AP].
          intros z Hz. apply in_map_iff in Hz as (w & <- & Hw). exists w.
          apply (Permutation_in _ PZ) in Hw. apply filter_In in Hw as [? ?]. auto. }
      apply (repr_same E OK) with (G := view (map (moved rc new) zs ++ A') (ZR rc new tab :: y0 :: B')).
      + split.
        * simpl. constructor. symmetry. exact (Permutation_map y_r P).
        * symmetry. eapply repaired_z; eauto.
      + exists (map (moved rc new) zs ++ A'), D, (ZR rc new tab :: y0 :: B').
        split; [exact HN|split; [auto|split; [|auto]]].
        destruct T as [T1 T2]. split; auto.
          intros Hs z Hz. assert (Hb := still_b _ _ _ Hs). apply andb_true_iff in Hs as [_ Hs].
          apply negb_true_iff in Hs.
          rewrite (unpaired_nil _ _ _ _ _ _ _ _ _ _ H Hy Q PZ Hs) in Hz.
          apply T2; auto. apply filter_In in Hz. tauto.
    - assert (HB := rep_hb _ _ _ _ _ _ _ _ H).
      rewrite (contains_r_find E), (find_r_none E A B old N) in *. cbn [is_some] in GD.
      unfold swap_right. mrun. rewrite HB.
      rewrite (find_key_right_none E OK _ _ _ _ _ _ _ _ H N).
      assert (HR : Repr b s lc rc m (view A B)) by (exists A, D, B; auto 6).
      destruct (insert_right_ok E OK _ _ _ _ _ _ new HR BR GD) as (m' & w & -> & _ & H').
      exists m'. split; auto. split; [eapply repr_weaken; [exact H'|auto|apply still_b]|].
      intros X. rewrite CO in X. discriminate.
  Qed.
End Swaps.
