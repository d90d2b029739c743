(* The model meets PartialLax, part 3: iterators, extend, capacity, drain, retain. *)
From Coq Require Import List NArith Lia Bool Permutation PeanoNat.
From Verif Require Import Closures Prelude RawTable Optionals PartialCycleMap ListFacts TableFacts
  IterFacts PartialSpec PartialHistory PartialProofs PartialProofs2 PartialProofs3 PartialProofs4
  PartialProofs6 PartialProofs7 PartialLax PartialLaxProofs PartialLaxProofs2.
Import ListNotations.
Open Scope N_scope.

Section LaxProofs3.
  Context {L R S : Type} (E : env L R S) (OK : lax E).
  Notation pm := (pmap L R S).
  Notation entry := (optional_pair L R).
  Notation zent := (N * entry)%type.
  Notation slotL := (slotL E).
  Notation slotR := (slotR E).
  Let LO := CycleMapLax.lax_lo _ OK.
  Notation eL := (eqL E).
  Notation eR := (eqR E).
  Notation WRep := (WRep E).
  Notation at_l := (at_l E).
  Notation at_r := (at_r E).

  Lemma w_order_l : forall s c m Z, WRep s c m Z ->
    exists Y, Permutation Z Y /\ slots (left_set m) = flat_map (slotL s) Y.
  Proof. intros s c m Z H. apply flat_map_perm_inv; [apply slotL_le|apply (w_l _ _ _ _ _ H)]. Qed.
  Lemma w_order_r : forall s c m Z, WRep s c m Z ->
    exists Y, Permutation Z Y /\ slots (right_set m) = flat_map (slotR s) Y.
  Proof. intros s c m Z H. apply flat_map_perm_inv; [apply slotR_le|apply (w_r _ _ _ _ _ H)]. Qed.

  (* ---- iter ---- *)
  Definition show (m : pm) (x : N * mapping_pair L) : entry :=
    op_from_pair (Some (value (snd x)), get_right E m (value (snd x))).
  Lemma iter_steps_w : forall m, steps_as (iter_next E m) (fun it l => l = map (show m) it).
  Proof. intros m it l ->. destruct it as [|[h x] it]; simpl; eexists; split; eauto. Qed.

  Lemma show_w : forall s c m Z (Y : list zent), WRep s c m Z ->
    Forall2 (shown_as eL (map snd Z)) (filter has_left_item (map snd Y))
      (map (show m) (flat_map (slotL s) Y)).
  Proof.
    intros s c m Z Y H. induction Y as [|z Y IH]; cbn; [constructor|].
    rewrite map_app. unfold has_left_item at 1. unfold PartialProofs.slotL at 1.
    destruct (op_get_left (snd z)) as [a|] eqn:Ha; cbn; auto. constructor; auto.
    destruct (get_right_w E OK s c m Z a H) as (o & Z' & T & _ & G & _).
    exists a, (option_map snd o). split; auto. split.
    - exists (map snd Z'). apply takes_snd; auto.
    - unfold show. cbn. rewrite G. auto.
  Qed.

  Lemma iter_all_w : forall s c m Z, WRep s c m Z ->
    exists Q es, iter_all E m = Done es /\ Permutation Q (filter has_left_item (map snd Z)) /\
      Forall2 (shown_as eL (map snd Z)) Q es /\ es = map (show m) (iter m).
  Proof.
    intros s c m Z H. destruct (w_order_l _ _ _ _ H) as (Y & PY & SL).
    exists (filter has_left_item (map snd Y)), (map (show m) (iter m)). split; [|split; [|split]]; auto.
    - unfold iter_all. eapply collect_as; [apply (iter_steps_w m)|reflexivity|rewrite map_length; auto].
    - apply filter_perm, Permutation_map. symmetry; auto.
    - unfold iter. rewrite SL. eapply show_w; eauto.
  Qed.

  (* ---- iter_paired ---- *)
  Lemma get_both_w : forall s c m Z i a b, WRep s c m Z -> In (i, SomeBoth a b) Z ->
    get_via_hashes_and_id E m (hashL E s a) (hashR E s b) i = Done (Some (a, b)).
  Proof.
    intros s c m Z i a b H Hz. destruct (perm_in_cons _ Z Hz) as (Z' & P).
    assert (H' := w_perm E _ _ _ _ _ P H). unfold get_via_hashes_and_id. rewrite !get_as_mut.
    destruct (partner_l E OK s c m (i, SomeBoth a b) Z' a b (hash_and_id (hashR E s b) i) H'
      eq_refl eq_refl) as (j & -> & _); [right; auto|].
    destruct (partner_r E OK s c m (i, SomeBoth a b) Z' a b (hash_and_id (hashL E s a) i) H'
      eq_refl eq_refl) as (k & -> & _); [right; auto|]. reflexivity.
  Qed.
  Lemma paired_steps_w : forall s c m Z, WRep s c m Z ->
    steps_as (paired_next E m) (view_paired E s Z).
  Proof.
    intros s c m Z H it l (W & I & -> & ->). induction W as [|z W IH].
    - simpl. eexists; split; [reflexivity|]. exists []; auto using incl_refl.
    - assert (I' : incl W Z) by (intros y Hy; apply I; right; auto).
      specialize (IH I').
      destruct z as [i [|a|b|a b]]; simpl; try exact IH.
      exists (flat_map (slotL s) W). split; [|exists W; auto].
      rewrite (w_hb _ _ _ _ _ H), (get_both_w s c m Z i a b H); auto. apply I; left; auto.
  Qed.
  Lemma paired_all_w : forall s c m Z, WRep s c m Z ->
    exists Q, paired_rest E m (iter_paired m) = Done Q /\ Permutation Q (s_pairs (map snd Z)) /\
      view_paired E s Z (iter_paired m) Q /\ (length Q <= length (iter_paired m))%nat.
  Proof.
    intros s c m Z H. destruct (w_order_l _ _ _ _ H) as (Y & PY & SL).
    assert (V : view_paired E s Z (iter_paired m) (s_pairs (map snd Y))).
    { exists Y. split; [|split; auto]. intros y Hy. eapply Permutation_in; [symmetry; eauto|auto]. }
    assert (LE : (length (s_pairs (map snd Y)) <= length (iter_paired m))%nat).
    { unfold iter_paired. rewrite SL, (lefts_length E s). apply s_pairs_length. }
    exists (s_pairs (map snd Y)). split; [|split; [|split]]; auto.
    - unfold paired_rest. eapply collect_as; [apply (paired_steps_w s c m Z H)|exact V|exact LE].
    - apply Permutation_flat_map, Permutation_map. symmetry; auto.
  Qed.

  (* ---- iter_unpaired ---- *)
  Lemma unpaired_all_w : forall s c m Z, WRep s c m Z ->
    exists Q, unpaired_rest (iter_unpaired m) = Done Q /\ Permutation Q (s_unpaired (map snd Z)) /\
      view_unpaired E s (iter_unpaired m) Q /\
      (length Q <= length (fst (iter_unpaired m)) + length (snd (iter_unpaired m)))%nat.
  Proof.
    intros s c m Z H. destruct (w_order_l _ _ _ _ H) as (Y & PY & SL).
    destruct (w_order_r _ _ _ _ H) as (Y' & PY' & SR).
    assert (V : view_unpaired E s (iter_unpaired m)
      (filter is_sl (map snd Y) ++ filter is_sr (map snd Y'))).
    { exists Y, Y'. unfold iter_unpaired. rewrite SL, SR. auto. }
    assert (LE : (length (filter is_sl (map snd Y) ++ filter is_sr (map snd Y'))
      <= length (fst (iter_unpaired m)) + length (snd (iter_unpaired m)))%nat).
    { unfold iter_unpaired. cbn [fst snd]. rewrite SL, SR, app_length, (lefts_length E s), (rights_length E s).
      assert (U := is_sl_lefts (map snd Y)). assert (W := is_sr_rights (map snd Y')). lia. }
    eexists. split; [|split; [|split]]; [|  |exact V|exact LE].
    - unfold unpaired_rest. eapply collect_as; [apply (unpaired_steps E s)|exact V|exact LE].
    - rewrite unpaired_split by apply (w_nn _ _ _ _ _ H).
      apply Permutation_app; apply filter_perm, Permutation_map; symmetry; auto.
  Qed.

  (* ---- iter_left, iter_right, sizes ---- *)
  Lemma iter_left_w : forall s c m Z, WRep s c m Z ->
    exists Q, collect single_next (single_len (iter_left m)) (iter_left m) = Done Q /\
      Permutation Q (lefts (map snd Z)).
  Proof.
    intros s c m Z H. exists (map (fun x => value (snd x)) (iter_left m)). split.
    - eapply collect_as; [apply single_steps|reflexivity|rewrite map_length; auto].
    - unfold iter_left. rewrite (Permutation_map _ (w_l _ _ _ _ _ H)), slots_lefts. auto.
  Qed.
  Lemma iter_right_w : forall s c m Z, WRep s c m Z ->
    exists Q, collect single_next (single_len (iter_right m)) (iter_right m) = Done Q /\
      Permutation Q (rights (map snd Z)).
  Proof.
    intros s c m Z H. exists (map (fun x => value (snd x)) (iter_right m)). split.
    - eapply collect_as; [apply single_steps|reflexivity|rewrite map_length; auto].
    - unfold iter_right. rewrite (Permutation_map _ (w_r _ _ _ _ _ H)), slots_rights. auto.
  Qed.
  Lemma len_left_w : forall s c m Z, WRep s c m Z -> len_left m = length (lefts (map snd Z)).
  Proof.
    intros s c m Z H. unfold len_left, t_len.
    rewrite (Permutation_length (w_l _ _ _ _ _ H)). apply lefts_length.
  Qed.
  Lemma len_right_w : forall s c m Z, WRep s c m Z -> len_right m = length (rights (map snd Z)).
  Proof.
    intros s c m Z H. unfold len_right, t_len.
    rewrite (Permutation_length (w_r _ _ _ _ _ H)). apply rights_length.
  Qed.
  Lemma is_empty_w : forall s c m Z, WRep s c m Z ->
    is_empty m = match map snd Z with [] => true | _ => false end.
  Proof.
    intros s c m Z H. unfold is_empty. rewrite (len_left_w _ _ _ _ H), (len_right_w _ _ _ _ H).
    assert (NN := w_nn _ _ _ _ _ H). destruct (map snd Z) as [|x P]; auto. apply Nat.eqb_neq.
    unfold lefts, rights. simpl. rewrite !app_length.
    destruct x; simpl; try lia. exfalso; apply NN; left; auto.
  Qed.

  (* ---- clear, capacity ---- *)
  Lemma clear_w : forall s c m Z, WRep s c m Z ->
    exists m', clear E m = Ret m' tt /\ WRep s c m' [].
  Proof.
    intros s c m Z H. unfold clear. mrun. eexists; split; [reflexivity|].
    eapply (w_tail E s c m _ Z []); simpl; auto. rewrite app_nil_r; auto.
  Qed.
  Lemma w_tables : forall s c m m' Z, WRep s c m Z -> hash_builder m' = hash_builder m ->
    counter m' = counter m -> Permutation (slots (left_set m')) (slots (left_set m)) ->
    Permutation (slots (right_set m')) (slots (right_set m)) -> WRep s c m' Z.
  Proof.
    intros s c m m' Z H Hh Hc Pl Pr.
    destruct H. constructor; auto; try congruence; etransitivity; eauto.
  Qed.
  Lemma resize_left_w : forall s c m Z n, WRep s c m Z ->
    exists m', resize_left E n m = Ret m' tt /\ WRep s c m' Z.
  Proof.
    intros s c m Z n H. unfold resize_left. mrun. eexists; split; [reflexivity|].
    eapply (w_tables s c m); cbn -[t_resize]; auto.
    apply t_resize_perm; auto. rewrite (w_hb _ _ _ _ _ H). eapply w_hashed_l; eauto.
  Qed.
  Lemma resize_right_w : forall s c m Z n, WRep s c m Z ->
    exists m', resize_right E n m = Ret m' tt /\ WRep s c m' Z.
  Proof.
    intros s c m Z n H. unfold resize_right. mrun. eexists; split; [reflexivity|].
    eapply (w_tables s c m); cbn -[t_resize]; auto.
    apply t_resize_perm; auto. rewrite (w_hb _ _ _ _ _ H). eapply w_hashed_r; eauto.
  Qed.
  Lemma shrink_to_fit_w : forall s c m Z, WRep s c m Z ->
    exists m', shrink_to_fit E m = Ret m' tt /\ WRep s c m' Z.
  Proof.
    intros s c m Z H. unfold shrink_to_fit.
    destruct (resize_left_w s c m Z (Shrink (N.of_nat (len_left m))) H) as (m1 & E1 & H1).
    destruct (resize_right_w s c m1 Z (Shrink (N.of_nat (len_right m1))) H1) as (m2 & E2 & H2).
    exists m2. mrun. rewrite E1, E2. auto.
  Qed.
  Lemma try_reserve_left_w : forall s c m Z n, WRep s c m Z ->
    exists m' b, try_reserve_left E n m = Ret m' b /\ WRep s c m' Z.
  Proof.
    intros s c m Z n H. unfold try_reserve_left. mrun.
    assert (Q := t_try_resize_perm (lo E) LO (left_set m) n (make_hasher_l E (hash_builder m))).
    destruct (t_try_resize (lo E) (left_set m) n (make_hasher_l E (hash_builder m))) as [b t].
    exists (set_left t m), b. split; auto. eapply (w_tables s c m); auto.
    apply Q. rewrite (w_hb _ _ _ _ _ H). eapply w_hashed_l; eauto.
  Qed.
  Lemma try_reserve_right_w : forall s c m Z n, WRep s c m Z ->
    exists m' b, try_reserve_right E n m = Ret m' b /\ WRep s c m' Z.
  Proof.
    intros s c m Z n H. unfold try_reserve_right. mrun.
    assert (Q := t_try_resize_perm (lo E) LO (right_set m) n (make_hasher_r E (hash_builder m))).
    destruct (t_try_resize (lo E) (right_set m) n (make_hasher_r E (hash_builder m))) as [b t].
    exists (set_right t m), b. split; auto. eapply (w_tables s c m); auto.
    apply Q. rewrite (w_hb _ _ _ _ _ H). eapply w_hashed_r; eauto.
  Qed.

  (* ---- extend ---- *)
  Lemma ins_spec : forall s c m Z l r, WRep s c m Z -> c + 1 < two64 ->
    exists m' d Z', insert E l r m = Ret m' d /\ WRep s (c + 1) m' Z' /\
      lax_insert eL eR (map snd Z) l r (map snd Z') d.
  Proof.
    intros s c m Z l r H B. destruct (insert_w E OK s c m Z l r H B) as (m' & a & Z1 & b & Z2 & E1 & H1 & T1 & T2).
    eexists m', _, _. split; [exact E1|]. split; [exact H1|].
    exists (option_map snd a), (map snd Z1), (option_map snd b), (map snd Z2).
    split; [apply takes_snd; auto|]. split; [apply takes_snd; auto|]. split; reflexivity.
  Qed.
  Lemma ins_left_spec : forall s c m Z l, WRep s c m Z -> c + 1 < two64 ->
    exists m' d Z', insert_left E l m = Ret m' d /\ WRep s (c + 1) m' Z' /\
      lax_insert_left eL (map snd Z) l (map snd Z') d.
  Proof.
    intros s c m Z l H B. destruct (insert_left_w E OK s c m Z l H B) as (m' & a & Z1 & E1 & H1 & T1).
    eexists m', _, _. split; [exact E1|]. split; [exact H1|].
    exists (option_map snd a), (map snd Z1). split; [apply takes_snd; auto|]. split; reflexivity.
  Qed.
  Lemma ins_right_spec : forall s c m Z r, WRep s c m Z -> c + 1 < two64 ->
    exists m' d Z', insert_right E r m = Ret m' d /\ WRep s (c + 1) m' Z' /\
      lax_insert_right eR (map snd Z) r (map snd Z') d.
  Proof.
    intros s c m Z r H B. destruct (insert_right_w E OK s c m Z r H B) as (m' & a & Z1 & E1 & H1 & T1).
    eexists m', _, _. split; [exact E1|]. split; [exact H1|].
    exists (option_map snd a), (map snd Z1). split; [apply takes_snd; auto|]. split; reflexivity.
  Qed.
  Lemma extend_w : forall xs s c m Z, WRep s c m Z -> c + N.of_nat (length xs) < two64 ->
    exists m' c' Z', extend E xs m = Ret m' tt /\ c <= c' /\ c' <= c + N.of_nat (length xs) /\
      WRep s c' m' Z' /\ lax_extend eL eR (map snd Z) xs (map snd Z').
  Proof.
    induction xs as [|x xs IH]; intros s c m Z H B.
    - exists m, c, Z. simpl. split; auto. split; [lia|]. split; [lia|]. split; auto.
      constructor. auto.
    - cbn [length] in *. destruct x as [|a|b|a b].
      + destruct (IH s c m Z H) as (m2 & c2 & Z2 & E2 & C1 & C2 & H2 & K2); [lia|].
        exists m2, c2, Z2. split; auto. split; auto. split; [lia|]. split; auto. constructor; auto.
      + destruct (ins_left_spec s c m Z a H) as (m1 & d & Z1 & E1 & H1 & K1); [lia|].
        destruct (IH s (c + 1) m1 _ H1) as (m2 & c2 & Z2 & E2 & C1 & C2 & H2 & K2); [lia|].
        exists m2, c2, Z2. simpl. mrun. rewrite E1, E2. split; auto. split; [lia|]. split; [lia|].
        split; auto. econstructor; eauto.
      + destruct (ins_right_spec s c m Z b H) as (m1 & d & Z1 & E1 & H1 & K1); [lia|].
        destruct (IH s (c + 1) m1 _ H1) as (m2 & c2 & Z2 & E2 & C1 & C2 & H2 & K2); [lia|].
        exists m2, c2, Z2. simpl. mrun. rewrite E1, E2. split; auto. split; [lia|]. split; [lia|].
        split; auto. econstructor; eauto.
      + destruct (ins_spec s c m Z a b H) as (m1 & d & Z1 & E1 & H1 & K1); [lia|].
        destruct (IH s (c + 1) m1 _ H1) as (m2 & c2 & Z2 & E2 & C1 & C2 & H2 & K2); [lia|].
        exists m2, c2, Z2. simpl. mrun. rewrite E1, E2. split; auto. split; [lia|]. split; [lia|].
        split; auto. econstructor; eauto.
  Qed.
  Lemma extend_pairs_as : forall xs m,
    extend_pairs E xs m = extend E (map (fun p => SomeBoth (fst p) (snd p)) xs) m.
  Proof.
    induction xs as [|[a b] xs IH]; intros m; auto. cbn [map extend_pairs extend fst snd].
    unfold bind. destruct (insert E a b m); auto.
  Qed.

  (* ---- drain ---- *)
  Lemma drain_w : forall s c m Z n, WRep s c m Z ->
    exists Q w d d', Permutation Q (filter has_left_item (map snd Z)) /\
      incl w (filter (fun e => negb (has_left_item e)) (map snd Z)) /\
      length w = Nat.min 1 (length (filter (fun e => negb (has_left_item e)) (map snd Z))) /\
      drain_nexts E n (drain m)
        = Ret d (firstn n (map Some (Q ++ w)) ++ repeat None (n - length (Q ++ w))) /\
      drain_drop E d = Ret d' tt /\
      WRep s c (drain_end E m d') [].
  Proof.
    intros s c m Z n H. destruct (w_order_l _ _ _ _ H) as (Y & PY & SL).
    set (hz := fun z : zent => has_left_item (snd z)).
    assert (SF : forall Y0, flat_map (slotL s) Y0 = flat_map (slotL s) (filter hz Y0)).
    { induction Y0 as [|y Y0 IH]; auto. cbn [flat_map filter]. rewrite IH. unfold hz at 2, has_left_item.
      destruct (op_get_left (snd y)) as [a|] eqn:Q; cbn [is_some flat_map]; auto.
      rewrite (slotL_none E s y Q). auto. }
    assert (PZ : Permutation Z (filter hz Y ++ filter (fun z => negb (hz z)) Y)).
    { rewrite <- filter_split_perm. auto. }
    assert (H' := w_perm E _ _ _ _ _ PZ H).
    assert (ND := w_ids _ _ _ _ _ H').
    assert (NN : ~ In Neither (map snd Z)) by apply (w_nn _ _ _ _ _ H).
    assert (HY : forall z, In z (filter hz Y) -> op_get_left (snd z) <> None).
    { intros z Hz. apply filter_In in Hz as [_ Hz]. unfold hz, has_left_item in Hz.
      destruct (op_get_left (snd z)); easy. }
    assert (HW : forall z, In z (filter (fun z => negb (hz z)) Y) -> op_get_left (snd z) = None).
    { intros z Hz. apply filter_In in Hz as [_ Hz]. unfold hz, has_left_item in Hz.
      destruct (op_get_left (snd z)); easy. }
    assert (IZ : incl Y Z) by (intros y Hy; apply (Permutation_in y (Permutation_sym PY)); auto).
    destruct (drain_nexts_ok E LO s n (filter hz Y) (filter (fun z => negb (hz z)) Y) (drain m))
      as (d & w & W1 & W2 & E1 & H1 & H2 & H3); auto.
    { intros I. apply NN. apply in_map_iff in I as (z & <- & I). apply in_map, IZ.
      apply filter_In in I; tauto. }
    { unfold drain; cbn [di_left]. rewrite SL. apply SF. }
    { apply (w_r _ _ _ _ _ H'). }
    exists (map snd (filter hz Y)), w, d.
    assert (D : exists d', drain_drop E d = Ret d' tt /\ slots (di_right d') = []).
    { unfold drain_drop. rewrite H1. destruct (Nat.le_gt_cases n (length (filter hz Y))) as [C|C].
      - eapply (drain_drop_ok E LO s (skipn n (filter hz Y)) _ d); eauto.
        + rewrite <- (firstn_skipn n (filter hz Y)), <- app_assoc, map_app in ND.
          apply NoDup_app_r in ND. auto.
        + intros z Hz. apply HY. rewrite <- (firstn_skipn n (filter hz Y)). apply in_app_iff; auto.
        + assert (LL : forall Y0, (forall z, In z Y0 -> op_get_left (snd z) <> None) ->
                   length (flat_map (slotL s) Y0) = length Y0).
          { induction Y0 as [|y Y0 IH]; intros HH; auto. cbn [flat_map]. rewrite app_length, IH.
            2:{ intros; apply HH; right; auto. }
            destruct (op_get_left (snd y)) as [a|] eqn:Q; [|exfalso; eapply HH; [left; reflexivity|auto]].
            rewrite (slotL_some E s y a Q). auto. }
          rewrite LL; [lia|].
          intros z Hz. apply HY. rewrite <- (firstn_skipn n (filter hz Y)). apply in_app_iff; auto.
      - apply (drain_end_fuel E); [|lia]. rewrite H1, skipn_all2; auto. lia. }
    destruct D as (d' & E2 & H4). exists d'.
    assert (FP : Permutation (map snd (filter (fun z => negb (hz z)) Y))
      (filter (fun e => negb (has_left_item e)) (map snd Z))).
    { rewrite filter_map_comm. apply Permutation_map, filter_perm. symmetry; auto. }
    split; [|split; [|split; [|split; [|split]]]]; auto.
    - unfold hz. rewrite <- filter_map_comm. apply filter_perm, Permutation_map. symmetry; auto.
    - intros e He. apply W1 in He. eapply Permutation_in; [exact FP|auto].
    - rewrite W2. f_equal. rewrite <- (Permutation_length FP), map_length.
      assert (LR : forall Y0 : list zent, (forall z, In z Y0 -> op_get_left (snd z) = None /\ snd z <> Neither) ->
                   length (rights (map snd Y0)) = length Y0).
      { induction Y0 as [|y Y0 IH]; intros HH; auto. unfold rights in *. cbn [flat_map map length].
        rewrite app_length, IH. 2:{ intros; apply HH; right; auto. }
        destruct (HH y (or_introl eq_refl)) as [A B]. destruct (snd y); simpl in *; try easy. }
      apply LR. intros z Hz. split; [apply HW; auto|]. intros Q. apply NN. rewrite <- Q.
      apply in_map, IZ. apply filter_In in Hz; tauto.
    - split; auto.
      + apply (w_hb _ _ _ _ _ H).
      + apply (w_c _ _ _ _ _ H).
      + unfold drain_end; cbn [right_set]. rewrite H4. apply Permutation_refl.
      + constructor.
      + intros z [].
  Qed.

  (* ---- retain ---- *)
  Notation dropz := (dropz E).

  Lemma drop_here : forall s c m z Z, WRep s c m (z :: Z) ->
    exists m', drop_one E (dropz s z) m = Ret m' tt /\ WRep s c m' Z.
  Proof.
    intros s c m z Z H. assert (IO := ids_other z Z (w_ids _ _ _ _ _ H)).
    assert (NN := w_nn _ _ _ _ _ H).
    assert (Pl := w_l _ _ _ _ _ H). assert (Pr := w_r _ _ _ _ _ H).
    destruct z as [i x]. unfold PartialProofs7.dropz, drop_one, remove_via_hashes_and_id, left_remove_entry,
      right_remove_entry. mrun.
    destruct x as [|a|b|a b]; cbn [fst snd op_get_left op_get_right option_map] in *.
    - exfalso; apply NN; left; auto.
    - destruct (t_remove_entry_unique (lo E) LO (left_set m) (hashL E s a) (just_id i) _ _
        (w_l_cons E _ _ _ _ _ _ H eq_refl)) as (tl & -> & PL).
      { apply just_id_refl. }
      { intros x Hx. eapply id_l_other; eauto. }
      eexists; split; [reflexivity|]. eapply (w_tail E s c m _ [_]); eauto.
    - destruct (t_remove_entry_unique (lo E) LO (right_set m) (hashR E s b) (just_id i) _ _
        (w_r_cons E _ _ _ _ _ _ H eq_refl)) as (tr & -> & PR).
      { apply just_id_refl. }
      { intros x Hx. eapply id_r_other; eauto. }
      eexists; split; [reflexivity|]. eapply (w_tail E s c m _ [_]); eauto.
    - destruct (t_remove_entry_unique (lo E) LO (left_set m) (hashL E s a)
        (hash_and_id (hashR E s b) i) _ _
        (w_l_cons E _ _ _ _ _ _ H eq_refl)) as (tl & -> & PL).
      { apply hid_refl. }
      { intros x Hx. apply hid_of_id. eapply id_l_other; eauto. }
      cbn [right_set set_left].
      destruct (t_remove_entry_unique (lo E) LO (right_set m) (hashR E s b)
        (hash_and_id (hashL E s a) i) _ _
        (w_r_cons E _ _ _ _ _ _ H eq_refl)) as (tr & -> & PR).
      { apply hid_refl. }
      { intros x Hx. apply hid_of_id. eapply id_r_other; eauto. }
      eexists; split; [reflexivity|]. eapply (w_tail E s c m _ [_]); eauto.
  Qed.
  (* an entry that is gone already *)
  Lemma drop_gone : forall s c m z Z, WRep s c m Z -> snd z <> Neither ->
    (forall y, In y Z -> fst y <> fst z) -> drop_one E (dropz s z) m = Ret m tt.
  Proof.
    intros s c m z Z H NZ IO.
    assert (JL : forall x, In x (slots (left_set m)) -> just_id (fst z) (snd x) = false).
    { intros x Hx. apply (Permutation_in _ (w_l _ _ _ _ _ H)) in Hx. eapply id_l_other; eauto. }
    assert (JR : forall x, In x (slots (right_set m)) -> just_id (fst z) (snd x) = false).
    { intros x Hx. apply (Permutation_in _ (w_r _ _ _ _ _ H)) in Hx. eapply id_r_other; eauto. }
    destruct z as [i x]. unfold PartialProofs7.dropz, drop_one, remove_via_hashes_and_id, left_remove_entry,
      right_remove_entry. mrun.
    destruct x as [|a|b|a b]; cbn [fst snd op_get_left op_get_right option_map] in *.
    - easy.
    - rewrite t_remove_entry_absent; auto.
    - rewrite t_remove_entry_absent; auto.
    - rewrite (t_remove_entry_absent (lo E) (left_set m)).
      2:{ intros; apply hid_of_id; auto. }
      rewrite t_remove_entry_absent; auto. intros; apply hid_of_id; auto.
  Qed.

  Definition other_ids (is : list N) (z : zent) : bool := negb (existsb (N.eqb (fst z)) is).
  Lemma drop_one_w : forall s c m K z Z, WRep s c m K -> NoDup (map fst Z) -> incl K Z -> In z Z ->
    snd z <> Neither ->
    exists m', drop_one E (dropz s z) m = Ret m' tt /\ WRep s c m' (filter (other_ids [fst z]) K).
  Proof.
    intros s c m K z Z H ND I Hz NZ.
    assert (ONE : forall y, In y K -> fst y = fst z -> y = z).
    { intros y Hy EQ. destruct (perm_in_cons _ _ Hz) as (Z' & P). apply I in Hy.
      apply (Permutation_in _ P) in Hy. destruct Hy as [|Hy]; auto. exfalso.
      eapply (ids_other z Z'); [|exact Hy|auto].
      eapply NoDup_perm; [apply Permutation_map, P|auto]. }
    assert (DEC : (exists y, In y K /\ fst y = fst z) \/ forall y, In y K -> fst y <> fst z).
    { clear. induction K as [|y K IH]; [right; intros ? []|].
      destruct (N.eq_dec (fst y) (fst z)) as [EQ|NE]; [left; exists y; split; [left|]; auto|].
      destruct IH as [(x & A & B)|IH]; [left; exists x; split; [right|]; auto|].
      right. intros x [<-|Hx]; auto. }
    assert (FA : forall K0, (forall y, In y K0 -> fst y <> fst z) -> filter (other_ids [fst z]) K0 = K0).
    { induction K0 as [|y K0 IH]; intros HK; auto. cbn [filter]. unfold other_ids at 1. cbn [existsb].
      rewrite orb_false_r. destruct (N.eqb_spec (fst y) (fst z)) as [EQ|]; cbn [negb].
      - exfalso. eapply HK; [left; reflexivity|auto].
      - rewrite IH; auto. intros; apply HK; right; auto. }
    destruct DEC as [(y & Hy & EQ)|NO].
    - assert (y = z) as -> by auto. destruct (perm_in_cons _ _ Hy) as (K' & P).
      assert (H' := w_perm E _ _ _ _ _ P H).
      destruct (drop_here s c m z K' H') as (m' & E1 & H1). exists m'. split; auto.
      eapply w_perm; [|exact H1]. symmetry. etransitivity; [apply filter_perm; exact P|].
      cbn [filter]. unfold other_ids at 1. cbn [existsb]. rewrite N.eqb_refl. cbn [orb negb].
      rewrite FA; auto. apply (ids_other z K' (w_ids _ _ _ _ _ H')).
    - exists m. split; [eapply drop_gone; eauto|]. rewrite FA; auto.
  Qed.
  Lemma drop_all_w : forall zs s c m K Z, WRep s c m K -> NoDup (map fst Z) -> incl K Z -> incl zs Z ->
    ~ In Neither (map snd Z) ->
    exists m', drop_all E (map (dropz s) zs) m = Ret m' tt /\
      WRep s c m' (filter (other_ids (map fst zs)) K).
  Proof.
    induction zs as [|z zs IH]; intros s c m K Z H ND I IZ NN.
    - exists m. split; auto. assert (F : filter (other_ids []) K = K).
      { clear. induction K; cbn; auto. f_equal; auto. } cbn [map]. rewrite F. auto.
    - destruct (drop_one_w s c m K z Z H ND I) as (m1 & E1 & H1).
      { apply IZ; left; auto. }
      { intros Q. apply NN. rewrite <- Q. apply in_map, IZ; left; auto. }
      destruct (IH s c m1 _ Z H1 ND) as (m2 & E2 & H2); auto.
      { intros y Hy. apply I. apply filter_In in Hy; tauto. }
      { intros y Hy. apply IZ; right; auto. }
      exists m2. cbn [map drop_all]. mrun. rewrite E1. split; [exact E2|].
      assert (F : filter (other_ids (map fst (z :: zs))) K
                = filter (other_ids (map fst zs)) (filter (other_ids [fst z]) K)).
      { assert (FY : forall y, other_ids (map fst (z :: zs)) y
                             = other_ids [fst z] y && other_ids (map fst zs) y).
        { intros y. unfold other_ids. cbn [map existsb]. rewrite orb_false_r, negb_orb. auto. }
        clear - FY. induction K as [|y K IHK]; auto. cbn [filter]. rewrite FY.
        destruct (other_ids [fst z] y); cbn [andb filter]; auto.
        destruct (other_ids (map fst zs) y); auto. f_equal; auto. }
      cbn [map] in F. rewrite F. auto.
  Qed.

  (* positions instead of ids *)
  Lemma same_place : forall (Z : list zent) js zs i z, NoDup (map fst Z) ->
    Forall2 (fun j y => nth_error Z j = Some y) js zs -> nth_error Z i = Some z ->
    existsb (Nat.eqb i) js = existsb (N.eqb (fst z)) (map fst zs).
  Proof.
    intros Z js zs i z ND F Hi. induction F as [|j y js zs Hj F IH]; auto.
    cbn [existsb map]. rewrite IH. f_equal.
    destruct (Nat.eqb_spec i j) as [->|NE].
    - rewrite Hi in Hj. injection Hj as <-. symmetry; apply N.eqb_refl.
    - symmetry. apply N.eqb_neq. intros EQ. apply NE.
      apply (NoDup_nth_error (map fst Z)); auto.
      + rewrite map_length. apply nth_error_Some. congruence.
      + rewrite !nth_error_map, Hi, Hj. cbn. congruence.
  Qed.
  Lemma drop_at_ids : forall (Z : list zent) js zs, NoDup (map fst Z) ->
    Forall2 (fun j y => nth_error Z j = Some y) js zs ->
    drop_at 0 js (map snd Z) = map snd (filter (other_ids (map fst zs)) Z).
  Proof.
    intros Z js zs ND F.
    assert (G : forall post pre, Z = pre ++ post ->
      drop_at (length pre) js (map snd post) = map snd (filter (other_ids (map fst zs)) post)).
    { induction post as [|z post IH]; intros pre EQ; auto. cbn [map drop_at filter].
      rewrite (same_place Z js zs (length pre) z ND F).
      2:{ rewrite EQ, nth_error_app2 by auto. rewrite Nat.sub_diag. reflexivity. }
      assert (G := IH (pre ++ [z])). rewrite app_length in G. cbn [length] in G.
      rewrite Nat.add_1_r in G. rewrite <- app_assoc in G. specialize (G EQ). rewrite G.
      destruct (other_ids (map fst zs) z) eqn:O; unfold other_ids in O;
        [apply negb_true_iff in O|apply negb_false_iff in O]; rewrite O; auto. }
    apply (G Z []). auto.
  Qed.

  (* the scan *)
  Lemma scan_w : forall {X A I} (f : X -> A -> X * verdict) (next : I -> outcome (option A * I))
      (V : I -> list A -> Prop) (key : A -> option drop_tup), steps_as next V ->
    forall Q fuel it x, V it Q -> (length Q <= fuel)%nat ->
    let '(_, yes, _, pn) := s_filter f x Q in
      (exists x1, retain_scan f next key fuel it x = Panic x1 /\
         (pn = true \/ exists a, In a yes /\ key a = None)) \/
      (pn = false /\ exists x1 ts, retain_scan f next key fuel it x = Ret x1 ts /\
         Forall2 (fun a t => key a = Some t) yes ts).
  Proof.
    intros X A I f next V key ST. induction Q as [|a Q IH]; intros fuel it x HV HF; assert (N := ST _ _ HV).
    - destruct N as (it' & E1 & _). right. split; auto. exists x, [].
      destruct fuel; cbn [retain_scan]; rewrite E1; auto.
    - destruct N as (it' & E1 & V1). destruct fuel as [|fuel]; [simpl in HF; lia|].
      cbn [retain_scan s_filter]. rewrite E1.
      destruct (f x a) as [x1 [b|]]; [|left; eauto].
      assert (K := IH fuel it' x1 V1 ltac:(simpl in HF; lia)).
      destruct (s_filter f x1 Q) as [[[x2 yes] others] pn].
      destruct b.
      + destruct (key a) as [t|] eqn:KA.
        * destruct K as [(x3 & E3 & K)|(-> & x3 & ts & E3 & K)]; rewrite E3.
          -- left. eexists; split; [reflexivity|]. destruct K as [|(a' & Ha & K)]; auto.
             right. exists a'. split; [right|]; auto.
          -- right. split; auto. exists x3, (t :: ts). split; auto.
        * left. eexists; split; [reflexivity|]. right. exists a. split; [left|]; auto.
      + destruct K as [(x3 & E3 & K)|(-> & x3 & ts & E3 & K)]; rewrite E3.
        * left. eexists; split; [reflexivity|]. auto.
        * right. split; auto. exists x3, ts. auto.
  Qed.

  Lemma retain_with_w : forall {X A I} (f : X -> A -> X * verdict) (next : I -> outcome (option A * I))
      (V : I -> list A -> Prop) (key : A -> option drop_tup) (spec : A -> entry -> Prop)
      s c m Z, steps_as next V -> WRep s c m Z ->
    forall Q fuel it x, V it Q -> (length Q <= fuel)%nat ->
    (forall a, In a Q -> match key a with
                         | Some t => exists z, In z Z /\ t = dropz s z /\ spec a (snd z)
                         | None => forall z, In z (map snd Z) -> ~ spec a z
                         end) ->
    exists m' Z' w, via_closure (retain_with E f next key fuel it (m, x)) = (m', w) /\
      WRep s c m' Z' /\ lax_retain f x Q spec (map snd Z) (map snd Z') w.
  Proof.
    intros X A I f next V key spec s c m Z ST H Q fuel it x HV HF HK.
    assert (SC := scan_w f next V key ST Q fuel it x HV HF).
    unfold lax_retain, retain_with.
    destruct (s_filter f x Q) as [[[x' yes] others] pn] eqn:SF.
    assert (IY : incl yes Q).
    { apply s_filter_perm in SF. intros a Ha. eapply Permutation_in; [symmetry; exact SF|].
      apply in_app_iff; auto. }
    destruct SC as [(x1 & -> & K)|(-> & x1 & ts & -> & K)].
    - exists m, Z, OPanic. split; auto. split; auto. left. split; auto. split; auto.
      destruct K as [|(a & Ha & KN)]; auto. right. exists a. split; auto.
      specialize (HK a (IY a Ha)). rewrite KN in HK. auto.
    - assert (ZS : exists zs js, ts = map (dropz s) zs /\ incl zs Z /\
        Forall2 (fun j y => nth_error Z j = Some y) js zs /\
        Forall2 (fun a j => exists z, nth_error (map snd Z) j = Some z /\ spec a z) yes js).
      { clear - K HK IY. induction K as [|a t yes ts KA K IH].
        - exists [], []. split; auto. split; [intros ? []|]. auto.
        - assert (HKa := HK a (IY a (or_introl eq_refl))). rewrite KA in HKa.
          destruct HKa as (z & Hz & -> & HS).
          destruct IH as (zs & js & -> & IZ & F1 & F2); [intros y Hy; apply IY; right; auto|].
          destruct (In_nth_error _ _ Hz) as (j & Hj).
          exists (z :: zs), (j :: js). split; auto. split; [intros y [<-|Hy]; auto|].
          split; [constructor; auto|]. constructor; auto. exists (snd z). split; auto.
          rewrite nth_error_map, Hj. auto. }
      destruct ZS as (zs & js & -> & IZ & F1 & F2).
      destruct (drop_all_w zs s c m Z Z H (w_ids _ _ _ _ _ H) (incl_refl _) IZ (w_nn _ _ _ _ _ H))
        as (m' & -> & H1).
      eexists m', _, OUnit. split; [reflexivity|]. split; [exact H1|]. right. split; auto. split; auto.
      exists js. split; auto. rewrite (drop_at_ids Z js zs); auto. apply (w_ids _ _ _ _ _ H).
  Qed.

  (* the tuple of the entry found by a lookup *)
  Lemma inner_l : forall s c m Z l, WRep s c m Z ->
    match get_left_inner E m l with
    | Some e => exists z a, In z Z /\ op_get_left (snd z) = Some a /\ at_l l z = true /\
        hashL E s l = hashL E s a /\ pid e = fst z /\ get_right E m l = op_get_right (snd z) /\
        is_left_paired E m l = is_both (snd z) /\ contains_left E m l = true
    | None => (forall z, In z (map snd Z) -> has_l eL l z = false)
    end.
  Proof.
    intros s c m Z l H. destruct (get_right_w E OK s c m Z l H) as (o & Z' & T & HS & G & I & HA).
    change (is_left_paired E m l) with
      (match get_left_inner E m l with Some e => is_some (phash e) | None => false end).
    assert (C : contains_left E m l = is_some o).
    { unfold contains_left. rewrite (w_hb _ _ _ _ _ H), get_as_mut, <- HS.
      destruct (t_get_mut E (left_set m) _ _) as [[? ?]|]; auto. }
    rewrite I. destruct o as [z|]; cbn [bind_opt option_map] in *.
    - destruct (HA z eq_refl) as (a & Ha & Hh). rewrite Ha in *. cbn [option_map].
      destruct T as [T1 T2]. exists z, a. split.
      { eapply Permutation_in; [symmetry; exact T2|left; auto]. }
      cbn. repeat split; auto.
      destruct (snd z); simpl in *; auto; discriminate.
    - destruct T as [T1 T2]. intros z Hz. apply in_map_iff in Hz as (y & <- & Hy).
      apply (T1 y Hy).
  Qed.
  Lemma inner_r : forall s c m Z r, WRep s c m Z ->
    match get_right_inner E m r with
    | Some e => exists z a, In z Z /\ op_get_right (snd z) = Some a /\ at_r r z = true /\
        hashR E s r = hashR E s a /\ pid e = fst z /\
        is_right_paired E m r = is_both (snd z)
    | None => (forall z, In z (map snd Z) -> has_r eR r z = false)
    end.
  Proof.
    intros s c m Z r H. destruct (get_left_w E OK s c m Z r H) as (o & Z' & T & HS & G & I & HA).
    change (is_right_paired E m r) with
      (match get_right_inner E m r with Some e => is_some (phash e) | None => false end).
    rewrite I. destruct o as [z|]; cbn [bind_opt option_map] in *.
    - destruct (HA z eq_refl) as (a & Ha & Hh). rewrite Ha in *. cbn [option_map].
      destruct T as [T1 T2]. exists z, a. split.
      { eapply Permutation_in; [symmetry; exact T2|left; auto]. }
      cbn. repeat split; auto.
      destruct (snd z); simpl in *; auto; discriminate.
    - destruct T as [T1 T2]. intros z Hz. apply in_map_iff in Hz as (y & <- & Hy).
      apply (T1 y Hy).
  Qed.

  Lemma retain_w : forall {X} (f : X -> entry -> X * verdict) x s c m Z, WRep s c m Z ->
    exists m' Z' w, via_closure (retain E f (m, x)) = (m', w) /\ WRep s c m' Z' /\
      exists Q es, Permutation Q (filter has_left_item (map snd Z)) /\
        Forall2 (shown_as eL (map snd Z)) Q es /\
        lax_retain f x es
          (fun e z => exists l, op_get_left e = Some l /\ has_l eL l z = true /\
                                op_get_right e = op_get_right z) (map snd Z) (map snd Z') w.
  Proof.
    intros X f x s c m Z H. destruct (iter_all_w s c m Z H) as (Q & es & _ & PQ & F & EQ).
    destruct (retain_with_w f (iter_next E m) _ (retain_key E m)
      (fun e z => exists l, op_get_left e = Some l /\ has_l eL l z = true /\
                            op_get_right e = op_get_right z)
      s c m Z (iter_steps_w m) H es (length (iter m)) (iter m) x EQ)
      as (m' & Z' & w & E1 & H1 & LR).
    - rewrite EQ, map_length. auto.
    - intros e He. rewrite EQ in He. apply in_map_iff in He as (sl & <- & _).
      set (l := value (snd sl)).
      assert (K := inner_l s c m Z l H). unfold show. fold l.
      assert (KEY : retain_key E m (op_from_pair (Some l, get_right E m l)) =
        option_map (fun p => (Some (hashL E s l), option_map (hashR E s) (get_right E m l), pid p))
          (get_left_inner E m l)).
      { unfold retain_key. rewrite (w_hb _ _ _ _ _ H). destruct (get_right E m l); reflexivity. }
      rewrite KEY. destruct (get_left_inner E m l) as [e|]; cbn [option_map].
      + destruct K as (z & a & Hz & Ha & At & Hh & Hid & G & _).
        exists z. split; auto. split.
        * unfold PartialProofs7.dropz. rewrite Ha, Hid, G. cbn. rewrite Hh. auto.
        * exists l. rewrite G. split; [destruct (op_get_right (snd z)); auto|]. split; auto.
          destruct (op_get_right (snd z)); auto.
      + intros z Hz (l' & Hl & Hh & _). assert (l' = l).
        { destruct (get_right E m l); cbn in Hl; congruence. }
        subst l'. rewrite (K z Hz) in Hh. discriminate.
    - exists m', Z', w. split; [exact E1|]. split; auto. exists Q, es. auto.
  Qed.

  Lemma retain_paired_w : forall {X} (f : X -> L * R -> X * verdict) x s c m Z, WRep s c m Z ->
    (forall ps l r, paired_rest E m (iter_paired m) = Done ps -> In (l, r) ps ->
       contains_left E m l = true -> get_right E m l = Some r) ->
    exists m' Z' w, via_closure (retain_paired E f (m, x)) = (m', w) /\ WRep s c m' Z' /\
      exists ps, Permutation ps (s_pairs (map snd Z)) /\
        lax_retain f x ps
          (fun p z => has_l eL (fst p) z = true /\ op_get_right z = Some (snd p))
          (map snd Z) (map snd Z') w.
  Proof.
    intros X f x s c m Z H G. destruct (paired_all_w s c m Z H) as (ps & EP & PQ & V & LE).
    specialize (G ps).
    destruct (retain_with_w f (paired_next E m) _ (retain_paired_key E m)
      (fun p z => has_l eL (fst p) z = true /\ op_get_right z = Some (snd p))
      s c m Z (paired_steps_w s c m Z H) H ps _ (iter_paired m) x V LE)
      as (m' & Z' & w & E1 & H1 & LR).
    - intros [l r] Hp. specialize (G l r EP Hp). cbn [fst snd].
      assert (K := inner_l s c m Z l H). unfold retain_paired_key. rewrite (w_hb _ _ _ _ _ H).
      cbn [fst snd]. destruct (get_left_inner E m l) as [e|]; cbn [option_map].
      + destruct K as (z & a & Hz & Ha & At & Hh & Hid & GR & _ & C). specialize (G C).
        rewrite GR in G. exists z. split; auto. split; [|split; auto].
        unfold PartialProofs7.dropz. rewrite Ha, Hid, G. cbn. rewrite Hh. auto.
      + intros z Hz [Hh _]. rewrite (K z Hz) in Hh. discriminate.
    - exists m', Z', w. split; [exact E1|]. split; auto. exists ps. auto.
  Qed.

  Lemma retain_unpaired_w : forall {X} (f : X -> entry -> X * verdict) x s c m Z, WRep s c m Z ->
    (forall es, unpaired_rest (iter_unpaired m) = Done es ->
       (forall l, In (SomeLeft l) es -> is_left_paired E m l = false) /\
       (forall r, In (SomeRight r) es -> is_right_paired E m r = false)) ->
    exists m' Z' w, via_closure (retain_unpaired E f (m, x)) = (m', w) /\ WRep s c m' Z' /\
      exists es, Permutation es (s_unpaired (map snd Z)) /\
        lax_retain f x es
          (fun e z => is_both z = false /\
                      match e with
                      | SomeLeft l => has_l eL l z = true
                      | SomeRight r => has_r eR r z = true
                      | _ => False
                      end)
          (map snd Z) (map snd Z') w.
  Proof.
    intros X f x s c m Z H G. destruct (unpaired_all_w s c m Z H) as (es & EP & PQ & V & LE).
    destruct (G es EP) as [GL GR]. clear G.
    destruct (retain_with_w f (@unpaired_next L R) _ (retain_unpaired_key E m)
      (fun e z => is_both z = false /\
                      match e with
                      | SomeLeft l => has_l eL l z = true
                      | SomeRight r => has_r eR r z = true
                      | _ => False
                      end)
      s c m Z (unpaired_steps E s) H es _ (iter_unpaired m) x V LE)
      as (m' & Z' & w & E1 & H1 & LR).
    - intros e He. unfold retain_unpaired_key. rewrite (w_hb _ _ _ _ _ H).
      destruct e as [|l|r|l r]; try (intros z Hz [_ []]).
      + assert (K := inner_l s c m Z l H). specialize (GL l He).
        destruct (get_left_inner E m l) as [e|]; cbn [option_map].
        * destruct K as (z & a & Hz & Ha & At & Hh & Hid & _ & IP & _).
          rewrite GL in IP. exists z. split; auto. split; [|split; auto].
          unfold PartialProofs7.dropz. rewrite Ha, Hid. cbn. rewrite Hh.
          destruct (snd z); simpl in *; auto; discriminate.
        * intros z Hz [_ Hh]. rewrite (K z Hz) in Hh. discriminate.
      + assert (K := inner_r s c m Z r H). specialize (GR r He).
        destruct (get_right_inner E m r) as [e|]; cbn [option_map].
        * destruct K as (z & a & Hz & Ha & At & Hh & Hid & IP).
          rewrite GR in IP. exists z. split; auto. split; [|split; auto].
          unfold PartialProofs7.dropz. rewrite Ha, Hid. cbn. rewrite Hh.
          destruct (snd z); simpl in *; auto; discriminate.
        * intros z Hz [_ Hh]. rewrite (K z Hz) in Hh. discriminate.
    - exists m', Z', w. split; [exact E1|]. split; auto. exists es. auto.
  Qed.
End LaxProofs3.
