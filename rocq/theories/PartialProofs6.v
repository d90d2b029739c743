(* Refinement of PartialCycleMap, part 6: iterators, sizes, equality, extend, clear, capacity,
   retain, drain. *)
From Coq Require Import List NArith Lia Bool Permutation PeanoNat.
From Verif Require Import Prelude RawTable Optionals PartialCycleMap PartialSpec ListFacts TableFacts
  Closures IterFacts PartialProofs PartialProofs2 PartialProofs3.
Import ListNotations.
Open Scope N_scope.

Section Proofs6.
  Context {L R S : Type} (E : env L R S) (OK : lawful E).
  Notation pm := (pmap L R S).
  Notation entry := (optional_pair L R).
  Notation zent := (N * entry)%type.
  Notation Rep := (Rep E).
  Notation Repr := (Repr E).
  Notation slotL := (slotL E).
  Notation slotR := (slotR E).
  Let EL := eqL_equiv _ OK.
  Let ER := eqR_equiv _ OK.
  Let LO := lo_ok _ OK.

  Lemma slotL_le : forall s (z : zent), (length (slotL s z) <= 1)%nat.
  Proof. intros. unfold PartialProofs.slotL. destruct (op_get_left (snd z)); simpl; lia. Qed.
  Lemma slotR_le : forall s (z : zent), (length (slotR s z) <= 1)%nat.
  Proof. intros. unfold PartialProofs.slotR. destruct (op_get_right (snd z)); simpl; lia. Qed.

  Lemma slotL_some : forall s (z : zent) a, op_get_left (snd z) = Some a ->
    slotL s z = [(hashL E s a, MP a (option_map (hashR E s) (op_get_right (snd z))) (fst z))].
  Proof. intros s z a H. unfold PartialProofs.slotL. rewrite H. auto. Qed.
  Lemma slotR_some : forall s (z : zent) a, op_get_right (snd z) = Some a ->
    slotR s z = [(hashR E s a, MP a (option_map (hashL E s) (op_get_left (snd z))) (fst z))].
  Proof. intros s z a H. unfold PartialProofs.slotR. rewrite H. auto. Qed.
  Lemma slotL_none : forall s (z : zent), op_get_left (snd z) = None -> slotL s z = [].
  Proof. intros s z H. unfold PartialProofs.slotL. rewrite H. auto. Qed.
  Lemma slotR_none : forall s (z : zent), op_get_right (snd z) = None -> slotR s z = [].
  Proof. intros s z H. unfold PartialProofs.slotR. rewrite H. auto. Qed.

  (* the entries in the order of the left / right table *)
  Lemma rep_order_l : forall s c m Z, Rep s c m Z ->
    exists Y, Permutation Z Y /\ slots (left_set m) = flat_map (slotL s) Y.
  Proof. intros s c m Z H. apply flat_map_perm_inv; [apply slotL_le|apply (rep_l _ _ _ _ _ H)]. Qed.
  Lemma rep_order_r : forall s c m Z, Rep s c m Z ->
    exists Y, Permutation Z Y /\ slots (right_set m) = flat_map (slotR s) Y.
  Proof. intros s c m Z H. apply flat_map_perm_inv; [apply slotR_le|apply (rep_r _ _ _ _ _ H)]. Qed.

  (* ---- lookups of a stored item ---- *)
  Lemma rep_others_l : forall s c m z Z a, Rep s c m (z :: Z) -> op_get_left (snd z) = Some a ->
    forall x, In x Z -> has_l (eqL E) a (snd x) = false.
  Proof.
    intros s c m z Z a H Ha. apply (rep_apart_l E OK s c m [z] Z H).
    apply in_lefts. exists (snd z). split; [left|]; auto.
  Qed.
  Lemma rep_others_r : forall s c m z Z a, Rep s c m (z :: Z) -> op_get_right (snd z) = Some a ->
    forall x, In x Z -> has_r (eqR E) a (snd x) = false.
  Proof.
    intros s c m z Z a H Ha. apply (rep_apart_r E OK s c m [z] Z H).
    apply in_rights. exists (snd z). split; [left|]; auto.
  Qed.
  Lemma rep_get_right : forall s c m Z z a, Rep s c m Z -> In z Z -> op_get_left (snd z) = Some a ->
    get_right E m a = op_get_right (snd z).
  Proof.
    intros s c m Z z a H Hz Ha. destruct (perm_in_cons z Z Hz) as (Z' & P).
    rewrite (get_right_spec E OK s c m (map snd Z)) by (exists Z; auto).
    unfold s_get_right, find_l. rewrite (find_split _ Z z Z' P); auto.
    - eapply has_l_some; eauto. apply (equiv_refl _ EL).
    - eapply rep_others_l; eauto. eapply (rep_perm E OK); eauto.
  Qed.
  Lemma rep_get_left : forall s c m Z z a, Rep s c m Z -> In z Z -> op_get_right (snd z) = Some a ->
    get_left E m a = op_get_left (snd z).
  Proof.
    intros s c m Z z a H Hz Ha. destruct (perm_in_cons z Z Hz) as (Z' & P).
    rewrite (get_left_spec E OK s c m (map snd Z)) by (exists Z; auto).
    unfold s_get_left, find_r. rewrite (find_split _ Z z Z' P); auto.
    - eapply has_r_some; eauto. apply (equiv_refl _ ER).
    - eapply rep_others_r; eauto. eapply (rep_perm E OK); eauto.
  Qed.
  Lemma rep_left_inner : forall s c m Z z a, Rep s c m Z -> In z Z -> op_get_left (snd z) = Some a ->
    get_left_inner E m a = Some (MP a (option_map (hashR E s) (op_get_right (snd z))) (fst z)).
  Proof.
    intros s c m Z z a H Hz Ha. destruct (perm_in_cons z Z Hz) as (Z' & P).
    assert (H' := rep_perm E OK _ _ _ _ _ P H).
    unfold get_left_inner. rewrite (rep_hb _ _ _ _ _ H).
    eapply left_get_found; eauto.
    - apply (equiv_refl _ EL).
    - eapply rep_others_l; eauto.
  Qed.
  Lemma rep_right_inner : forall s c m Z z a, Rep s c m Z -> In z Z -> op_get_right (snd z) = Some a ->
    get_right_inner E m a = Some (MP a (option_map (hashL E s) (op_get_left (snd z))) (fst z)).
  Proof.
    intros s c m Z z a H Hz Ha. destruct (perm_in_cons z Z Hz) as (Z' & P).
    assert (H' := rep_perm E OK _ _ _ _ _ P H).
    unfold get_right_inner. rewrite (rep_hb _ _ _ _ _ H).
    eapply right_get_found; eauto.
    - apply (equiv_refl _ ER).
    - eapply rep_others_r; eauto.
  Qed.
  Lemma rep_get_both : forall s c m Z i a b, Rep s c m Z -> In (i, SomeBoth a b) Z ->
    get_via_hashes_and_id E m (hashL E s a) (hashR E s b) i = Done (Some (a, b)).
  Proof.
    intros s c m Z i a b H Hz. destruct (perm_in_cons _ Z Hz) as (Z' & P).
    assert (H' := rep_perm E OK _ _ _ _ _ P H).
    unfold get_via_hashes_and_id.
    assert (IO := ids_other (i, SomeBoth a b) Z' (rep_ids _ _ _ _ _ H')).
    erewrite t_get_unique; [|auto|apply (rep_l_cons E _ _ _ _ _ _ H' eq_refl)| |].
    - erewrite t_get_unique; [|auto|apply (rep_r_cons E _ _ _ _ _ _ H' eq_refl)| |].
      + reflexivity.
      + unfold hash_and_id; simpl. rewrite !N.eqb_refl; auto.
      + intros x Hx. apply hid_of_id. eapply id_r_other; eauto.
    - unfold hash_and_id; simpl. rewrite !N.eqb_refl; auto.
    - intros x Hx. apply hid_of_id. eapply id_l_other; eauto.
  Qed.

  (* ---- iterators ---- *)
  Definition view_iter (s : S) (Z : list zent) (it : iter_l) (l : list entry) : Prop :=
    exists W, incl W Z /\ it = flat_map (slotL s) W /\ l = filter has_left_item (map snd W).

  Lemma iter_steps : forall s c m Z, Rep s c m Z ->
    steps_as (iter_next E m) (view_iter s Z).
  Proof.
    intros s c m Z H it l (W & I & -> & ->). induction W as [|z W IH].
    - simpl. eexists; split; [reflexivity|]. exists []; auto using incl_refl.
    - cbn [map filter flat_map]. unfold has_left_item at 1.
      destruct (op_get_left (snd z)) as [a|] eqn:Ha.
      + exists (flat_map (slotL s) W). rewrite (slotL_some s z a Ha). cbn [app iter_next value]. split.
        * assert (G := rep_get_right s c m Z z a H (I z (or_introl eq_refl)) Ha).
          rewrite G. repeat f_equal. destruct (snd z); simpl in *; congruence.
        * exists W. split; auto. intros y Hy. apply I; right; auto.
      + rewrite (slotL_none s z Ha). apply IH. intros y Hy. apply I; right; auto.
  Qed.

  Definition view_paired (s : S) (Z : list zent) (it : iter_l) (l : list (L * R)) : Prop :=
    exists W, incl W Z /\ it = flat_map (slotL s) W /\ l = s_pairs (map snd W).

  Lemma paired_steps : forall s c m Z, Rep s c m Z ->
    steps_as (paired_next E m) (view_paired s Z).
  Proof.
    intros s c m Z H it l (W & I & -> & ->). induction W as [|z W IH].
    - simpl. eexists; split; [reflexivity|]. exists []; auto using incl_refl.
    - assert (I' : incl W Z) by (intros y Hy; apply I; right; auto).
      specialize (IH I').
      destruct z as [i [|a|b|a b]]; simpl; try exact IH.
      exists (flat_map (slotL s) W). split; [|exists W; auto].
      rewrite (rep_hb _ _ _ _ _ H).
      rewrite (rep_get_both s c m Z i a b H); auto. apply I; left; auto.
  Qed.

  Definition is_sl (x : entry) : bool := match x with SomeLeft _ => true | _ => false end.
  Definition is_sr (x : entry) : bool := match x with SomeRight _ => true | _ => false end.

  Definition view_unpaired (s : S) (it : iter_l * iter_r) (l : list entry) : Prop :=
    exists W W', it = (flat_map (slotL s) W, flat_map (slotR s) W') /\
      l = filter is_sl (map snd W) ++ filter is_sr (map snd W').

  Lemma unpaired_next_r_ok : forall s (W' : list zent),
    match filter is_sr (map snd W') with
    | [] => @unpaired_next_r L R (flat_map (slotR s) W') = (None, [])
    | a :: t => exists W2, unpaired_next_r (flat_map (slotR s) W') = (Some a, flat_map (slotR s) W2)
                  /\ t = filter is_sr (map snd W2)
    end.
  Proof.
    intros s W'. induction W' as [|z W IH].
    - reflexivity.
    - destruct z as [i [|a|b|a b]]; simpl; try exact IH.
      exists W; auto.
  Qed.

  Lemma unpaired_steps : forall s, steps_as (@unpaired_next L R) (view_unpaired s).
  Proof.
    intros s it l (W & W' & -> & ->). unfold unpaired_next. simpl fst; simpl snd.
    induction W as [|z W IH].
    - simpl. assert (Q := unpaired_next_r_ok s W'). destruct (filter is_sr (map snd W')) as [|a t].
      + exists ([], []). rewrite Q. split; auto. exists [], []; auto.
      + destruct Q as (W2 & Q1 & Q2). exists ([], flat_map (slotR s) W2). rewrite Q1.
        split; auto. exists [], W2. auto.
    - destruct z as [i [|a|b|a b]]; simpl; try exact IH.
      exists (flat_map (slotL s) W, flat_map (slotR s) W'). split; auto. exists W, W'; auto.
  Qed.

  Lemma single_steps : forall {T},
    steps_as (@single_next T) (fun it l => l = map (fun x => value (snd x)) it).
  Proof.
    intros T it l ->. destruct it as [|[h x] it]; simpl; eexists; split; eauto.
  Qed.

  Lemma slots_lefts : forall s (W : list zent),
    map (fun x => value (snd x)) (flat_map (slotL s) W) = lefts (map snd W).
  Proof.
    induction W as [|z W IH]; simpl; auto. rewrite map_app, IH. unfold PartialProofs.slotL.
    destruct (op_get_left (snd z)); auto.
  Qed.
  Lemma slots_rights : forall s (W : list zent),
    map (fun x => value (snd x)) (flat_map (slotR s) W) = rights (map snd W).
  Proof.
    induction W as [|z W IH]; simpl; auto. rewrite map_app, IH. unfold PartialProofs.slotR.
    destruct (op_get_right (snd z)); auto.
  Qed.
  Lemma iter_left_ok : forall s c m P, Repr s c m P ->
    Permutation (map (fun x => value (snd x)) (iter_left m)) (lefts P).
  Proof.
    intros s c m P (Z & H & ->). unfold iter_left.
    rewrite (Permutation_map _ (rep_l _ _ _ _ _ H)), slots_lefts. auto.
  Qed.
  Lemma iter_right_ok : forall s c m P, Repr s c m P ->
    Permutation (map (fun x => value (snd x)) (iter_right m)) (rights P).
  Proof.
    intros s c m P (Z & H & ->). unfold iter_right.
    rewrite (Permutation_map _ (rep_r _ _ _ _ _ H)), slots_rights. auto.
  Qed.

  Lemma lefts_length : forall s (W : list zent),
    length (flat_map (slotL s) W) = length (lefts (map snd W)).
  Proof. intros. rewrite <- (slots_lefts s), map_length. auto. Qed.
  Lemma rights_length : forall s (W : list zent),
    length (flat_map (slotR s) W) = length (rights (map snd W)).
  Proof. intros. rewrite <- (slots_rights s), map_length. auto. Qed.
  Lemma len_left_ok : forall s c m P, Repr s c m P -> len_left m = length (lefts P).
  Proof.
    intros s c m P (Z & H & ->). unfold len_left, t_len.
    rewrite (Permutation_length (rep_l _ _ _ _ _ H)). apply lefts_length.
  Qed.
  Lemma len_right_ok : forall s c m P, Repr s c m P -> len_right m = length (rights P).
  Proof.
    intros s c m P (Z & H & ->). unfold len_right, t_len.
    rewrite (Permutation_length (rep_r _ _ _ _ _ H)). apply rights_length.
  Qed.
  Lemma is_empty_ok : forall s c m P, Repr s c m P ->
    is_empty m = match P with [] => true | _ => false end.
  Proof.
    intros s c m P H. unfold is_empty. rewrite (len_left_ok _ _ _ _ H), (len_right_ok _ _ _ _ H).
    destruct (repr_bij E _ _ _ _ H) as (_ & _ & NN).
    destruct P as [|x P]; auto. apply Nat.eqb_neq.
    unfold lefts, rights. simpl. rewrite !app_length.
    destruct x; simpl; try lia. exfalso; apply NN; left; auto.
  Qed.

  Lemma filter_left_length : forall P : list entry,
    length (filter has_left_item P) = length (lefts P).
  Proof.
    unfold lefts. induction P as [|x P IH]; simpl; auto. rewrite app_length.
    unfold has_left_item at 1. destruct (op_get_left x); simpl; lia.
  Qed.
  Lemma s_pairs_length : forall P : list entry, (length (s_pairs P) <= length (lefts P))%nat.
  Proof.
    unfold s_pairs, lefts. induction P as [|x P IH]; simpl; auto. rewrite !app_length.
    destruct x; simpl; lia.
  Qed.

  (* everything about the iterators of one map, with the order they use *)
  Lemma iter_all_ok : forall s c m P, Repr s c m P ->
    exists Q, iter_all E m = Done Q /\ Permutation Q (filter has_left_item P).
  Proof.
    intros s c m P (Z & H & ->). destruct (rep_order_l _ _ _ _ H) as (Y & PY & SL).
    exists (filter has_left_item (map snd Y)). split.
    - unfold iter_all, iter. rewrite SL. eapply collect_as; [apply (iter_steps s c m Z H)| |].
      + exists Y. split; auto. intros y Hy. eapply Permutation_in; [symmetry; eauto|auto].
      + rewrite filter_left_length, <- (lefts_length s). auto.
    - apply filter_perm, Permutation_map. symmetry; auto.
  Qed.
  Lemma paired_all_ok : forall s c m P, Repr s c m P ->
    exists Q, paired_rest E m (iter_paired m) = Done Q /\ Permutation Q (s_pairs P).
  Proof.
    intros s c m P (Z & H & ->). destruct (rep_order_l _ _ _ _ H) as (Y & PY & SL).
    exists (s_pairs (map snd Y)). split.
    - unfold paired_rest, iter_paired. rewrite SL. eapply collect_as; [apply (paired_steps s c m Z H)| |].
      + exists Y. split; auto. intros y Hy. eapply Permutation_in; [symmetry; eauto|auto].
      + rewrite (lefts_length s). apply s_pairs_length.
    - apply Permutation_flat_map, Permutation_map. symmetry; auto.
  Qed.
  Lemma unpaired_split : forall P : list entry, ~ In Neither P ->
    Permutation (s_unpaired P) (filter is_sl P ++ filter is_sr P).
  Proof.
    unfold s_unpaired. induction P as [|x P IH]; simpl; intros H; auto.
    assert (H' : ~ In Neither P) by auto. specialize (IH H').
    destruct x; simpl; auto.
    - exfalso; auto.
    - etransitivity; [constructor; exact IH|]. apply Permutation_middle.
  Qed.
  Lemma is_sl_lefts : forall P : list entry, (length (filter is_sl P) <= length (lefts P))%nat.
  Proof.
    unfold lefts. induction P as [|x P IH]; simpl; auto. rewrite app_length. destruct x; simpl; lia.
  Qed.
  Lemma is_sr_rights : forall P : list entry, (length (filter is_sr P) <= length (rights P))%nat.
  Proof.
    unfold rights. induction P as [|x P IH]; simpl; auto. rewrite app_length. destruct x; simpl; lia.
  Qed.
  Lemma unpaired_all_ok : forall s c m P, Repr s c m P ->
    exists QL QR, unpaired_rest (iter_unpaired m) = Done (QL ++ QR) /\
      Permutation QL (filter is_sl P) /\ Permutation QR (filter is_sr P) /\
      Permutation (QL ++ QR) (s_unpaired P).
  Proof.
    intros s c m P (Z & H & ->). destruct (rep_order_l _ _ _ _ H) as (Y & PY & SL).
    destruct (rep_order_r _ _ _ _ H) as (Y' & PY' & SR).
    exists (filter is_sl (map snd Y)), (filter is_sr (map snd Y')).
    assert (A1 : Permutation (filter is_sl (map snd Y)) (filter is_sl (map snd Z)))
      by (apply filter_perm, Permutation_map; symmetry; auto).
    assert (A2 : Permutation (filter is_sr (map snd Y')) (filter is_sr (map snd Z)))
      by (apply filter_perm, Permutation_map; symmetry; auto).
    split; [|split; [auto|split; [auto|]]].
    - unfold unpaired_rest, iter_unpaired. cbn [fst snd]. rewrite SL, SR.
      eapply collect_as; [apply (unpaired_steps s)| |].
      + exists Y, Y'. auto.
      + rewrite app_length, (lefts_length s), (rights_length s).
        assert (U := is_sl_lefts (map snd Y)). assert (V := is_sr_rights (map snd Y')). lia.
    - rewrite A1, A2. symmetry. apply unpaired_split. apply (rep_bij _ _ _ _ _ H).
  Qed.

  (* ---- clear, clone, capacity ---- *)
  Lemma new_ok : forall s ll lr, Repr s 0 (with_hasher s ll lr) [].
  Proof.
    intros. exists []. split; auto. constructor; simpl; auto.
    - constructor.
    - intros z [].
    - apply pb_nil.
  Qed.
  Lemma clear_ok : forall s c m P, Repr s c m P ->
    exists m', clear E m = Ret m' tt /\ Repr s c m' [].
  Proof.
    intros s c m P (Z & H & ->). unfold clear. mrun. eexists; split; [reflexivity|].
    exists []; split; auto. eapply (rep_tail E s c m _ Z []); simpl; auto.
    rewrite app_nil_r; auto.
  Qed.
  Lemma repr_tables : forall s c m m' P, Repr s c m P -> hash_builder m' = hash_builder m ->
    counter m' = counter m -> Permutation (slots (left_set m')) (slots (left_set m)) ->
    Permutation (slots (right_set m')) (slots (right_set m)) -> Repr s c m' P.
  Proof.
    intros s c m m' P (Z & H & ->) Hh Hc Pl Pr. exists Z; split; auto.
    destruct H. constructor; auto; try congruence; etransitivity; eauto.
  Qed.
  Lemma resize_left_ok : forall s c m P n, Repr s c m P ->
    exists m', resize_left E n m = Ret m' tt /\ Repr s c m' P.
  Proof.
    intros s c m P n H. unfold resize_left. mrun. eexists; split; [reflexivity|].
    destruct H as (Z & H & ->).
    eapply (repr_tables s c m); [exists Z; auto| | | |]; cbn -[t_resize]; auto.
    apply t_resize_perm; auto. rewrite (rep_hb _ _ _ _ _ H). eapply rep_hashed_l; eauto.
  Qed.
  Lemma resize_right_ok : forall s c m P n, Repr s c m P ->
    exists m', resize_right E n m = Ret m' tt /\ Repr s c m' P.
  Proof.
    intros s c m P n H. unfold resize_right. mrun. eexists; split; [reflexivity|].
    destruct H as (Z & H & ->).
    eapply (repr_tables s c m); [exists Z; auto| | | |]; cbn -[t_resize]; auto.
    apply t_resize_perm; auto. rewrite (rep_hb _ _ _ _ _ H). eapply rep_hashed_r; eauto.
  Qed.
  Lemma shrink_to_fit_ok : forall s c m P, Repr s c m P ->
    exists m', shrink_to_fit E m = Ret m' tt /\ Repr s c m' P.
  Proof.
    intros s c m P H. unfold shrink_to_fit.
    destruct (resize_left_ok s c m P (Shrink (N.of_nat (len_left m))) H) as (m1 & E1 & H1).
    destruct (resize_right_ok s c m1 P (Shrink (N.of_nat (len_right m1))) H1) as (m2 & E2 & H2).
    exists m2. mrun. rewrite E1, E2. auto.
  Qed.
  Lemma try_reserve_left_ok : forall s c m P n, Repr s c m P ->
    exists m' b, try_reserve_left E n m = Ret m' b /\ Repr s c m' P.
  Proof.
    intros s c m P n H. unfold try_reserve_left. mrun. destruct H as (Z & H & ->).
    assert (Q := t_try_resize_perm (lo E) LO (left_set m) n (make_hasher_l E (hash_builder m))).
    destruct (t_try_resize (lo E) (left_set m) n (make_hasher_l E (hash_builder m))) as [b t].
    exists (set_left t m), b. split; auto.
    eapply (repr_tables s c m); [exists Z; auto| | | |]; auto.
    apply Q. rewrite (rep_hb _ _ _ _ _ H). eapply rep_hashed_l; eauto.
  Qed.
  Lemma try_reserve_right_ok : forall s c m P n, Repr s c m P ->
    exists m' b, try_reserve_right E n m = Ret m' b /\ Repr s c m' P.
  Proof.
    intros s c m P n H. unfold try_reserve_right. mrun. destruct H as (Z & H & ->).
    assert (Q := t_try_resize_perm (lo E) LO (right_set m) n (make_hasher_r E (hash_builder m))).
    destruct (t_try_resize (lo E) (right_set m) n (make_hasher_r E (hash_builder m))) as [b t].
    exists (set_right t m), b. split; auto.
    eapply (repr_tables s c m); [exists Z; auto| | | |]; auto.
    apply Q. rewrite (rep_hb _ _ _ _ _ H). eapply rep_hashed_r; eauto.
  Qed.

  (* ---- extend ---- *)
  Definition s_extend (P : list entry) (xs : list entry) : list entry :=
    fold_left (s_insert_entry (eqL E) (eqR E)) xs P.
  Definition s_extend_pairs (P : list entry) (xs : list (L * R)) : list entry :=
    fold_left (fun P x => s_insert (eqL E) (eqR E) P (fst x) (snd x)) xs P.

  Lemma extend_pairs_ok : forall xs s c m P, Repr s c m P -> c + N.of_nat (length xs) < two64 ->
    exists m', extend_pairs E xs m = Ret m' tt /\
               Repr s (c + N.of_nat (length xs)) m' (s_extend_pairs P xs).
  Proof.
    induction xs as [|[a b] xs IH]; intros s c m P H B.
    - exists m. split; auto. simpl. rewrite N.add_0_r. auto.
    - cbn [length] in *. destruct (insert_ok E OK s c m P a b H) as (m1 & E1 & H1); [lia|].
      destruct (IH s (c + 1) m1 _ H1) as (m2 & E2 & H2); [lia|].
      exists m2. simpl. mrun. rewrite E1, E2. split; auto.
      replace (c + N.pos (Pos.of_succ_nat (length xs))) with (c + 1 + N.of_nat (length xs)) by lia. auto.
  Qed.
  Lemma extend_ok : forall xs s c m P, Repr s c m P -> c + N.of_nat (length xs) < two64 ->
    exists m' c', extend E xs m = Ret m' tt /\ c' <= c + N.of_nat (length xs) /\
               Repr s c' m' (s_extend P xs).
  Proof.
    induction xs as [|x xs IH]; intros s c m P H B.
    - exists m, c. simpl. split; auto. split; auto. lia.
    - cbn [length] in *. destruct x as [|a|b|a b].
      + destruct (IH s c m P H) as (m2 & c2 & E2 & C2 & H2); [lia|].
        exists m2, c2. split; auto. split; auto. lia.
      + destruct (insert_left_ok E OK s c m P a H) as (m1 & E1 & H1); [lia|].
        destruct (IH s (c + 1) m1 _ H1) as (m2 & c2 & E2 & C2 & H2); [lia|].
        exists m2, c2. simpl. mrun. rewrite E1, E2. split; auto. split; auto. lia.
      + destruct (insert_right_ok E OK s c m P b H) as (m1 & E1 & H1); [lia|].
        destruct (IH s (c + 1) m1 _ H1) as (m2 & c2 & E2 & C2 & H2); [lia|].
        exists m2, c2. simpl. mrun. rewrite E1, E2. split; auto. split; auto. lia.
      + destruct (insert_ok E OK s c m P a b H) as (m1 & E1 & H1); [lia|].
        destruct (IH s (c + 1) m1 _ H1) as (m2 & c2 & E2 & C2 & H2); [lia|].
        exists m2, c2. simpl. mrun. rewrite E1, E2. split; auto. split; auto. lia.
  Qed.
End Proofs6.
