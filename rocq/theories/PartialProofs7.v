(* Refinement of PartialCycleMap, part 7: equality, retain, drain. *)
From Coq Require Import List NArith Lia Bool Permutation PeanoNat.
From Verif Require Import Prelude RawTable Optionals PartialCycleMap PartialSpec ListFacts TableFacts
  Closures IterFacts PartialProofs PartialProofs2 PartialProofs3 PartialProofs6.
Import ListNotations.
Open Scope N_scope.

Section Proofs7.
  Context {L R S : Type} (E : env L R S) (OK : lawful E).
  Notation pm := (pmap L R S).
  Notation entry := (optional_pair L R).
  Notation zent := (N * entry)%type.
  Notation Rep := (Rep E).
  Notation Repr := (Repr E).
  Notation slotL := (slotL E).
  Notation slotR := (slotR E).
  Let EL := eqL_equiv _ OK.
  Let ER := eqR_equiv _ OK.
  Let LO := lo_ok _ OK.

  (* ---- eq: what the code computes ---- *)
  Definition s_eq_item (P' : list entry) (x : entry) : bool :=
    match x with
    | SomeLeft l => negb (is_some (s_get_right (eqL E) P' l))
    | SomeBoth l r => s_are_paired (eqL E) (eqR E) P' l r
    | _ => true
    end.
  Definition s_eq (P P' : list entry) : bool :=
    negb (negb (Nat.eqb (length (lefts P)) (length (lefts P'))) &&
          negb (Nat.eqb (length (rights P)) (length (rights P'))))
    && forallb (s_eq_item P') P.

  Lemma all_items_ok : forall s c m P s' c' m' P', Repr s c m P -> Repr s' c' m' P' ->
    forall V l fuel it, steps_as (iter_next E m) V -> V it l -> (length l <= fuel)%nat ->
    (forall x, In x l -> has_left_item x = true) ->
    all_items E m m' fuel it = Done (forallb (s_eq_item P') l).
  Proof.
    intros s c m P s' c' m' P' H H' V. induction l as [|x l IH]; intros fuel it ST HV HF HL;
      assert (Q := ST _ _ HV); cbn iota in Q.
    - destruct Q as (it' & E1 & _). destruct fuel; simpl; rewrite E1; auto.
    - destruct Q as (it' & E1 & V1). destruct fuel as [|fuel]; [simpl in HF; lia|].
      cbn [all_items forallb]. rewrite E1.
      assert (EI : eq_item E m' x = Done (s_eq_item P' x)).
      { assert (HX := HL x (or_introl eq_refl)). unfold has_left_item in HX.
        destruct x as [|a|b|a b]; simpl in HX; try discriminate; unfold eq_item, s_eq_item.
        - rewrite (get_right_spec E OK s' c' m' P'); auto.
        - rewrite (are_paired_spec E OK s' c' m' P'); auto. }
      rewrite EI. destruct (s_eq_item P' x); simpl; auto.
      apply IH; auto; [simpl in HF; lia|]. intros y Hy. apply HL; right; auto.
  Qed.

  Lemma map_eq_ok : forall s c m P s' c' m' P', Repr s c m P -> Repr s' c' m' P' ->
    map_eq E m m' = Done (s_eq P P').
  Proof.
    intros s c m P s' c' m' P' H H'. unfold map_eq, s_eq.
    rewrite (len_left_ok E s c m P H), (len_left_ok E s' c' m' P' H').
    rewrite (len_right_ok E s c m P H), (len_right_ok E s' c' m' P' H').
    destruct (negb _ && negb _); simpl; auto.
    assert (HH := H). destruct H as (Z & HZ & ->).
    destruct (rep_order_l E _ _ _ _ HZ) as (Y & PY & SL).
    unfold iter. rewrite SL.
    rewrite (all_items_ok s c m (map snd Z) s' c' m' P' HH H' _
      (filter has_left_item (map snd Y)) _ _ (iter_steps E OK s c m Z HZ)).
    - f_equal. rewrite <- (forallb_perm _ (filter has_left_item (map snd Z))).
      2:{ apply filter_perm, Permutation_map; auto. }
      assert (NN : ~ In Neither (map snd Z)) by apply (rep_bij _ _ _ _ _ HZ).
      clear - NN. induction (map snd Z) as [|x l IH]; auto.
      cbn [filter forallb]. rewrite <- IH by (intro; apply NN; right; auto).
      destruct x; simpl; auto.
    - exists Y. split; auto. intros y Hy. eapply Permutation_in; [symmetry; eauto|auto].
    - rewrite filter_left_length, <- (lefts_length E s). auto.
    - intros x Hx. apply filter_In in Hx; tauto.
  Qed.

  (* ---- retain ---- *)
  Definition dropz (s : S) (z : zent) : drop_tup :=
    (option_map (hashL E s) (op_get_left (snd z)), option_map (hashR E s) (op_get_right (snd z)), fst z).

  Lemma drop_one_ok : forall s c m z Z, Rep s c m (z :: Z) ->
    exists m', drop_one E (dropz s z) m = Ret m' tt /\ Rep s c m' Z.
  Proof.
    intros s c m z Z H. assert (IO := ids_other z Z (rep_ids _ _ _ _ _ H)).
    assert (NN : ~ In Neither (map snd (z :: Z))) by apply (rep_bij _ _ _ _ _ H).
    assert (Pl := rep_l _ _ _ _ _ H). assert (Pr := rep_r _ _ _ _ _ H).
    destruct z as [i x]. unfold dropz, drop_one, remove_via_hashes_and_id, left_remove_entry,
      right_remove_entry. mrun.
    destruct x as [|a|b|a b]; cbn [fst snd op_get_left op_get_right option_map] in *.
    - exfalso; apply NN; left; auto.
    - destruct (t_remove_entry_unique (lo E) LO (left_set m) (hashL E s a) (just_id i) _ _
        (rep_l_cons E _ _ _ _ _ _ H eq_refl)) as (tl & -> & PL).
      { unfold just_id; simpl. apply N.eqb_refl. }
      { intros x Hx. eapply id_l_other; eauto. }
      eexists; split; [reflexivity|]. eapply (rep_tail E s c m _ [_]); eauto.
    - destruct (t_remove_entry_unique (lo E) LO (right_set m) (hashR E s b) (just_id i) _ _
        (rep_r_cons E _ _ _ _ _ _ H eq_refl)) as (tr & -> & PR).
      { unfold just_id; simpl. apply N.eqb_refl. }
      { intros x Hx. eapply id_r_other; eauto. }
      eexists; split; [reflexivity|]. eapply (rep_tail E s c m _ [_]); eauto.
    - destruct (t_remove_entry_unique (lo E) LO (left_set m) (hashL E s a)
        (hash_and_id (hashR E s b) i) _ _
        (rep_l_cons E _ _ _ _ _ _ H eq_refl)) as (tl & -> & PL).
      { unfold hash_and_id; simpl. rewrite !N.eqb_refl. auto. }
      { intros x Hx. apply hid_of_id. eapply id_l_other; eauto. }
      cbn [right_set set_left].
      destruct (t_remove_entry_unique (lo E) LO (right_set m) (hashR E s b)
        (hash_and_id (hashL E s a) i) _ _
        (rep_r_cons E _ _ _ _ _ _ H eq_refl)) as (tr & -> & PR).
      { unfold hash_and_id; simpl. rewrite !N.eqb_refl. auto. }
      { intros x Hx. apply hid_of_id. eapply id_r_other; eauto. }
      eexists; split; [reflexivity|]. eapply (rep_tail E s c m _ [_]); eauto.
  Qed.
  Lemma drop_all_ok : forall s c D K m, Rep s c m (D ++ K) ->
    exists m', drop_all E (map (dropz s) D) m = Ret m' tt /\ Rep s c m' K.
  Proof.
    induction D as [|d D IH]; intros K m H.
    - exists m; split; auto.
    - destruct (drop_one_ok s c m d (D ++ K) H) as (m1 & E1 & H1).
      destruct (IH K m1 H1) as (m2 & E2 & H2). exists m2; split; auto.
      cbn [map drop_all]. mrun. rewrite E1. exact E2.
  Qed.

  Section Retain.
    Context {X A I : Type} (f : X -> A -> X * verdict)
      (next : I -> outcome (option A * I)) (V : I -> list A -> Prop)
      (key : A -> option drop_tup) (ST : steps_as next V).
    Context {U : Type} (g : U -> A) (emb : U -> zent) (s : S).

    Lemma retain_scan_as : forall W fuel it x, V it (map g W) -> (length W <= fuel)%nat ->
      (forall u, In u W -> key (g u) = Some (dropz s (emb u))) ->
      retain_scan f next key fuel it x =
        match s_filter (fun x u => f x (g u)) x W with
        | (x', _, _, true) => Panic x'
        | (x', yes, _, false) => Ret x' (map (dropz s) (map emb yes))
        end.
    Proof.
      induction W as [|u W IH]; intros fuel it x HV HF HK; assert (Q := ST _ _ HV); cbn [map] in Q.
      - destruct Q as (it' & E1 & _). destruct fuel; simpl; rewrite E1; auto.
      - destruct Q as (it' & E1 & V1). destruct fuel as [|fuel]; [simpl in HF; lia|].
        cbn [retain_scan s_filter]. rewrite E1.
        destruct (f x (g u)) as [x1 [b|]]; auto.
        rewrite (HK u (or_introl eq_refl)).
        rewrite (IH fuel it' x1 V1); [|simpl in HF; lia|intros; apply HK; right; auto].
        destruct (s_filter _ x1 W) as [[[x2 yes] no] [|]]; destruct b; auto.
    Qed.

    Lemma retain_with_ok : forall c m W rest fuel it x, V it (map g W) -> (length W <= fuel)%nat ->
      (forall u, In u W -> key (g u) = Some (dropz s (emb u))) ->
      Rep s c m (map emb W ++ rest) ->
      match s_filter f x (map g W) with
      | (x', _, others, false) => exists m' K,
          retain_with E f next key fuel it (m, x) = Ret (m', x') tt /\ others = map g K /\
          Rep s c m' (map emb K ++ rest)
      | (x', _, _, true) => retain_with E f next key fuel it (m, x) = Panic (m, x')
      end.
    Proof.
      intros c m W rest fuel it x HV HF HK H. unfold retain_with.
      rewrite (retain_scan_as W fuel it x HV HF HK). rewrite s_filter_map.
      destruct (s_filter _ x W) as [[[x2 yes] no] [|]] eqn:F; auto.
      apply s_filter_perm in F.
      destruct (drop_all_ok s c (map emb yes) (map emb no ++ rest) m) as (m' & E1 & H1).
      { eapply (rep_perm E OK); [|exact H]. rewrite app_assoc. apply Permutation_app_tail.
        rewrite <- map_app. apply Permutation_map; auto. }
      rewrite E1. exists m', no. auto.
    Qed.
  End Retain.

  Lemma retain_ok : forall {X} (f : X -> entry -> X * verdict) s c m P x, Repr s c m P ->
    exists Q, iter_all E m = Done Q /\ Permutation Q (filter has_left_item P) /\
    match s_filter f x Q with
    | (x', _, others, false) => exists m', retain E f (m, x) = Ret (m', x') tt /\
        Repr s c m' (others ++ filter (fun y => negb (has_left_item y)) P)
    | (x', _, _, true) => retain E f (m, x) = Panic (m, x')
    end.
  Proof.
    intros X f s c m P x (Z & H & ->). destruct (rep_order_l E _ _ _ _ H) as (Y & PY & SL).
    assert (HI : incl Y Z) by (intros y Hy; eapply Permutation_in; [symmetry; eauto|auto]).
    set (hz := fun z : zent => has_left_item (snd z)).
    assert (VI : view_iter E s Z (iter m) (map snd (filter hz Y))).
    { exists Y. split; auto. split; [exact SL|]. unfold hz. rewrite filter_map_comm. auto. }
    assert (LE : (length (filter hz Y) <= length (iter m))%nat).
    { unfold iter. rewrite SL, (lefts_length E s), <- filter_left_length, filter_map_comm, map_length.
      auto. }
    exists (map snd (filter hz Y)). split; [|split].
    - unfold iter_all. eapply collect_as; [apply (iter_steps E OK s c m Z H)|exact VI|].
      rewrite map_length. auto.
    - unfold hz. rewrite <- filter_map_comm. apply filter_perm, Permutation_map. symmetry; auto.
    - assert (W := retain_with_ok f (iter_next E m) _ (retain_key E m) (iter_steps E OK s c m Z H)
        snd (fun z => z) s c m (filter hz Y) (filter (fun z => negb (hz z)) Y)
        (length (iter m)) (iter m) x VI LE).
      assert (HK : forall u, In u (filter hz Y) -> retain_key E m (snd u) = Some (dropz s u)).
      { intros u Hu. apply filter_In in Hu as [Hu Hl]. unfold hz, has_left_item in Hl.
        destruct (op_get_left (snd u)) as [a|] eqn:Ha; [|discriminate].
        assert (G := rep_left_inner E OK s c m Z u a H (HI u Hu) Ha).
        unfold retain_key, dropz. rewrite (rep_hb _ _ _ _ _ H).
        destruct (snd u) as [|a'|b|a' b]; simpl in Ha; try discriminate; inversion Ha; subst a';
          cbn [op_to_pair]; rewrite G; auto. }
      specialize (W HK). rewrite !map_id in W.
      assert (HR : Rep s c m (filter hz Y ++ filter (fun z => negb (hz z)) Y)).
      { eapply (rep_perm E OK); [|exact H]. rewrite <- filter_split_perm. auto. }
      specialize (W HR). unfold retain. cbn [fst].
      destruct (s_filter f x (map snd (filter hz Y))) as [[[x2 yes] others] [|]]; auto.
      destruct W as (m' & K & E1 & -> & HK'). exists m'. split; auto.
      eapply (repr_perm E OK); [|exists (K ++ filter (fun z => negb (hz z)) Y); split; [rewrite map_id in HK'; exact HK'|reflexivity]].
      rewrite map_app. apply Permutation_app_head. rewrite filter_map_comm.
      unfold hz. apply Permutation_map, filter_perm. symmetry; auto.
  Qed.

  Definition trips (Y : list zent) : list (N * (L * R)) :=
    flat_map (fun z => match both_items (snd z) with Some p => [(fst z, p)] | None => [] end) Y.
  Definition ztrip (t : N * (L * R)) : zent := (fst t, SomeBoth (fst (snd t)) (snd (snd t))).
  Lemma trips_pairs : forall Y, map snd (trips Y) = s_pairs (map snd Y).
  Proof.
    unfold trips, s_pairs. induction Y as [|z Y IH]; auto. cbn [map flat_map]. rewrite map_app, IH.
    destruct (both_items (snd z)); auto.
  Qed.
  Lemma trips_z : forall Y, map ztrip (trips Y) = filter (fun z => is_both (snd z)) Y.
  Proof.
    unfold trips. induction Y as [|z Y IH]; auto. cbn [flat_map filter]. rewrite map_app, IH.
    destruct z as [i [|a|b|a b]]; auto.
  Qed.

  Lemma retain_paired_ok : forall {X} (f : X -> L * R -> X * verdict) s c m P x, Repr s c m P ->
    exists Q, paired_rest E m (iter_paired m) = Done Q /\ Permutation Q (s_pairs P) /\
    match s_filter f x Q with
    | (x', _, others, false) => exists m', retain_paired E f (m, x) = Ret (m', x') tt /\
        Repr s c m' (map (fun p => SomeBoth (fst p) (snd p)) others ++ s_unpaired P)
    | (x', _, _, true) => retain_paired E f (m, x) = Panic (m, x')
    end.
  Proof.
    intros X f s c m P x (Z & H & ->). destruct (rep_order_l E _ _ _ _ H) as (Y & PY & SL).
    assert (HI : incl Y Z) by (intros y Hy; eapply Permutation_in; [symmetry; eauto|auto]).
    assert (VI : view_paired E s Z (iter_paired m) (map snd (trips Y))).
    { exists Y. split; auto. split; [exact SL|]. apply trips_pairs. }
    assert (LE : (length (trips Y) <= length (iter_paired m))%nat).
    { unfold iter_paired. rewrite SL, (lefts_length E s), <- (map_length snd (trips Y)), trips_pairs.
      apply s_pairs_length. }
    exists (map snd (trips Y)). split; [|split].
    - unfold paired_rest. eapply collect_as; [apply (paired_steps E OK s c m Z H)|exact VI|].
      rewrite map_length. auto.
    - rewrite trips_pairs. apply Permutation_flat_map, Permutation_map. symmetry; auto.
    - assert (W := retain_with_ok f (paired_next E m) _ (retain_paired_key E m)
        (paired_steps E OK s c m Z H)
        snd ztrip s c m (trips Y) (filter (fun z => negb (is_both (snd z))) Y)
        (length (iter_paired m)) (iter_paired m) x VI LE).
      assert (HK : forall u, In u (trips Y) -> retain_paired_key E m (snd u) = Some (dropz s (ztrip u))).
      { intros u Hu. apply (in_map ztrip) in Hu. rewrite trips_z in Hu.
        apply filter_In in Hu as [Hu _].
        assert (G := rep_left_inner E OK s c m Z (ztrip u) _ H (HI _ Hu) eq_refl).
        unfold retain_paired_key, dropz. rewrite (rep_hb _ _ _ _ _ H), G. auto. }
      specialize (W HK). rewrite trips_z in W.
      assert (HR : Rep s c m (filter (fun z => is_both (snd z)) Y
                              ++ filter (fun z => negb (is_both (snd z))) Y)).
      { eapply (rep_perm E OK); [|exact H]. rewrite <- (filter_split_perm (fun z => is_both (snd z))). auto. }
      specialize (W HR). unfold retain_paired. cbn [fst].
      destruct (s_filter f x (map snd (trips Y))) as [[[x2 yes] others] [|]]; auto.
      destruct W as (m' & K & E1 & -> & HK'). exists m'. split; auto.
      eapply (repr_perm E OK); [|exists (map ztrip K ++ filter (fun z => negb (is_both (snd z))) Y); split; [exact HK'|reflexivity]].
      rewrite map_app, !map_map. apply Permutation_app_head. unfold s_unpaired.
      rewrite filter_map_comm. apply Permutation_map, filter_perm. symmetry; auto.
  Qed.

  Lemma retain_unpaired_ok : forall {X} (f : X -> entry -> X * verdict) s c m P x, Repr s c m P ->
    exists Q, unpaired_rest (iter_unpaired m) = Done Q /\ Permutation Q (s_unpaired P) /\
    match s_filter f x Q with
    | (x', _, others, false) => exists m', retain_unpaired E f (m, x) = Ret (m', x') tt /\
        Repr s c m' (others ++ filter is_both P)
    | (x', _, _, true) => retain_unpaired E f (m, x) = Panic (m, x')
    end.
  Proof.
    intros X f s c m P x (Z & H & ->).
    destruct (rep_order_l E _ _ _ _ H) as (Y & PY & SL).
    destruct (rep_order_r E _ _ _ _ H) as (Y' & PY' & SR).
    set (W := filter (fun z => is_sl (snd z)) Y ++ filter (fun z => is_sr (snd z)) Y').
    assert (EQ : map snd W = filter is_sl (map snd Y) ++ filter is_sr (map snd Y')).
    { unfold W. rewrite map_app, !filter_map_comm. auto. }
    assert (HI : incl W Z).
    { intros y Hy. apply in_app_iff in Hy as [Hy|Hy]; apply filter_In in Hy as [Hy _].
      - apply (Permutation_in y (Permutation_sym PY)); auto.
      - apply (Permutation_in y (Permutation_sym PY')); auto. }
    assert (VI : view_unpaired E s (iter_unpaired m) (map snd W)).
    { exists Y, Y'. split; auto. unfold iter_unpaired. rewrite SL, SR. auto. }
    assert (LE : (length W <= length (fst (iter_unpaired m)) + length (snd (iter_unpaired m)))%nat).
    { unfold iter_unpaired. cbn [fst snd]. rewrite SL, SR, (lefts_length E s), (rights_length E s).
      rewrite <- (map_length snd W), EQ, app_length.
      assert (U := is_sl_lefts (map snd Y)). assert (U' := is_sr_rights (map snd Y')). lia. }
    assert (NN : ~ In Neither (map snd Z)) by apply (rep_bij _ _ _ _ _ H).
    assert (PW : Permutation Z (W ++ filter (fun z => is_both (snd z)) Z)).
    { unfold W. rewrite <- (filter_perm _ _ _ PY), <- (filter_perm _ _ _ PY').
      clear - NN. induction Z as [|z Z IH]; auto.
      assert (NN' : ~ In Neither (map snd Z)) by (intro; apply NN; right; auto).
      destruct z as [i [|a|b|a b]]; simpl in *.
      - tauto.
      - constructor; auto.
      - etransitivity; [constructor; apply IH; auto|]. rewrite <- !app_assoc. apply Permutation_middle.
      - etransitivity; [constructor; apply IH; auto|]. apply Permutation_middle. }
    exists (map snd W). split; [|split].
    - unfold unpaired_rest. eapply collect_as; [apply (unpaired_steps E s)|exact VI|].
      rewrite map_length. auto.
    - rewrite EQ, unpaired_split by auto. apply Permutation_app; apply filter_perm, Permutation_map;
        symmetry; auto.
    - assert (Q := retain_with_ok f (@unpaired_next L R) _ (retain_unpaired_key E m)
        (unpaired_steps E s)
        snd (fun z => z) s c m W (filter (fun z => is_both (snd z)) Z)
        _ (iter_unpaired m) x VI LE).
      assert (HK : forall u, In u W -> retain_unpaired_key E m (snd u) = Some (dropz s u)).
      { intros u Hu. assert (IZ := HI u Hu). unfold W in Hu.
        apply in_app_iff in Hu as [Hu|Hu]; apply filter_In in Hu as [_ Hl].
        - destruct u as [i [|a|b|a b]]; try discriminate.
          assert (G := rep_left_inner E OK s c m Z _ a H IZ eq_refl).
          unfold retain_unpaired_key, dropz. rewrite (rep_hb _ _ _ _ _ H). cbn [snd]. rewrite G. auto.
        - destruct u as [i [|a|b|a b]]; try discriminate.
          assert (G := rep_right_inner E OK s c m Z _ b H IZ eq_refl).
          unfold retain_unpaired_key, dropz. rewrite (rep_hb _ _ _ _ _ H). cbn [snd]. rewrite G. auto. }
      specialize (Q HK). rewrite map_id in Q.
      specialize (Q (rep_perm E OK _ _ _ _ _ PW H)).
      unfold retain_unpaired. cbn [fst].
      destruct (s_filter f x (map snd W)) as [[[x2 yes] others] [|]]; auto.
      destruct Q as (m' & K & E1 & -> & HK'). exists m'. split; auto.
      rewrite map_id in HK'. eexists. split; [exact HK'|].
      rewrite map_app, filter_map_comm. auto.
  Qed.

End Proofs7.

(* ---- drain: nothing is compared, so any Eq will do ---- *)
Section DrainFacts.
  Context {L R S : Type} (E : env L R S) (LO : layout_ok (lo E)).
  Notation entry := (optional_pair L R).
  Notation zent := (N * entry)%type.
  Notation slotL := (slotL E).
  Notation slotR := (slotR E).

  Lemma drain_nexts_ok : forall s n Y W d, NoDup (map fst (Y ++ W)) ->
    (forall z, In z W -> op_get_left (snd z) = None) -> ~ In Neither (map snd Y) ->
    (forall z, In z Y -> op_get_left (snd z) <> None) ->
    di_left d = flat_map (slotL s) Y ->
    Permutation (slots (di_right d)) (flat_map (slotR s) (Y ++ W)) ->
    exists d' w, incl w (map snd W) /\ length w = Nat.min 1 (length (rights (map snd W))) /\
      let l := map snd Y ++ w in
      drain_nexts E n d = Ret d' (firstn n (map Some l) ++ repeat None (n - length l)) /\
      di_left d' = flat_map (slotL s) (skipn n Y) /\
      ((n <= length Y)%nat -> Permutation (slots (di_right d')) (flat_map (slotR s) (skipn n Y ++ W))) /\
      ((length Y < n)%nat -> slots (di_right d') = []).
  Proof.
    induction n; intros Y W d ND HW HN HY HL HR.
    - assert (exists w : list entry, incl w (map snd W) /\ length w = Nat.min 1 (length (rights (map snd W))))
        as (w & W1 & W2).
      { destruct (rights (map snd W)) as [|r t] eqn:Q.
        - exists []. split; auto. intros ? [].
        - assert (I : In r (rights (map snd W))) by (rewrite Q; left; auto).
          apply in_rights in I as (y & Hy & _). exists [y]. split; auto. intros ? [<-|[]]; auto. }
      exists d, w. split; [auto|split; [auto|]]. cbn. split; [auto|split; [auto|split; [auto|]]]. lia.
    - cbn [drain_nexts]. destruct Y as [|y Y].
      + unfold drain_next. rewrite HL. cbn [flat_map]. cbn iota. simpl app in HR.
        set (d1 := Drain [] (t_clear (lo E) (di_right d))).
        (* further calls return None *)
        assert (NX : forall k, exists dk, drain_nexts E k d1 = Ret dk (repeat None k) /\
                     di_left dk = [] /\ slots (di_right dk) = []).
        { assert (GG : forall k dd, di_left dd = [] -> slots (di_right dd) = [] ->
             exists dk, drain_nexts E k dd = Ret dk (repeat None k) /\
                     di_left dk = [] /\ slots (di_right dk) = []).
          { induction k; intros dd A B; [exists dd; auto|].
            cbn [drain_nexts]. unfold drain_next. rewrite A, B.
            destruct (IHk (Drain [] (t_clear (lo E) (di_right dd)))) as (dk & E1 & A1 & B1); auto.
            rewrite E1. exists dk; auto. }
          intros k. apply GG; auto. }
        destruct (NX n) as (dk & E1 & A1 & B1).
        assert (HLEN : length (slots (di_right d)) = length (rights (map snd W))).
        { rewrite (Permutation_length HR). apply rights_length. }
        destruct (slots (di_right d)) as [|[h rp] t] eqn:SR.
        * exists dk, []. rewrite E1. split; [intros ? []|]. rewrite <- HLEN. split; auto.
          cbn. split; auto. split; auto. split; [lia|auto].
        * assert (IN : In (h, rp) (flat_map (slotR s) W))
            by (eapply Permutation_in; [exact HR|left; auto]).
          apply in_flat_map in IN as (z & Hz & Hs).
          unfold PartialProofs.slotR in Hs. assert (HWz := HW z Hz).
          destruct (op_get_right (snd z)) as [b|] eqn:Hb; [|easy]. destruct Hs as [Hs|[]].
          inversion Hs; subst h rp. cbn [value].
          exists dk, [SomeRight b]. rewrite E1. split.
          { intros ? [<-|[]]. apply in_map_iff. exists z. split; auto.
            destruct (snd z); simpl in *; congruence. }
          rewrite <- HLEN. split; [reflexivity|]. cbn. rewrite Nat.sub_0_r, firstn_nil. split; auto.
          split; auto. split; [lia|auto].
      + unfold drain_next. rewrite HL. cbn [flat_map].
        destruct (op_get_left (snd y)) as [a|] eqn:Ha; [|exfalso; eapply HY; [left; reflexivity|auto]].
        rewrite (slotL_some E s y a Ha). cbn [app phash pid value].
        assert (IO := ids_other y (Y ++ W) ND).
        assert (ND' : NoDup (map fst (Y ++ W))) by (inversion ND; auto).
        assert (HN' : ~ In Neither (map snd Y)) by (intro; apply HN; right; auto).
        assert (HY' : forall z, In z Y -> op_get_left (snd z) <> None) by (intros; apply HY; right; auto).
        destruct (op_get_right (snd y)) as [b|] eqn:Hb; cbn [option_map].
        * simpl app in HR. cbn [flat_map] in HR. rewrite (slotR_some E s y b Hb) in HR.
          destruct (t_remove_entry_unique (lo E) LO (di_right d) (hashR E s b)
            (just_id (fst y)) _ _ HR) as (t & -> & Pt).
          { unfold just_id; simpl. apply N.eqb_refl. }
          { intros x Hx. eapply id_r_other; eauto. }
          destruct (IHn Y W (Drain (flat_map (slotL s) Y) t)) as (d' & w & I1 & I2 & E1 & H1 & H2 & H3); auto.
          exists d', w. split; auto. split; auto. cbn zeta in *. rewrite E1.
          cbn [map app firstn length]. split.
          { replace (snd y) with (SomeBoth a b); auto. destruct (snd y); simpl in *; congruence. }
          split; [exact H1|]. split; intros; [apply H2|apply H3]; simpl in *; lia.
        * simpl app in HR. cbn [flat_map] in HR. rewrite (slotR_none E s y Hb) in HR.
          destruct (IHn Y W (Drain (flat_map (slotL s) Y) (di_right d))) as (d' & w & I1 & I2 & E1 & H1 & H2 & H3); auto.
          exists d', w. split; auto. split; auto. cbn zeta in *. rewrite E1.
          cbn [map app firstn length]. split.
          { replace (snd y) with (@SomeLeft L R a); auto. destruct (snd y); simpl in *; congruence. }
          split; [exact H1|]. split; intros; [apply H2|apply H3]; simpl in *; lia.
  Qed.

  Lemma drain_end_fuel : forall fuel d, di_left d = [] -> (1 <= fuel)%nat ->
    exists d', drain_drop_fuel E fuel d = Ret d' tt /\ slots (di_right d') = [].
  Proof.
    intros [|fuel] d A F; [lia|]. cbn [drain_drop_fuel]. unfold drain_next at 1. rewrite A.
    destruct (slots (di_right d)) as [|[h rp] t].
    - eexists; split; [reflexivity|auto].
    - destruct fuel; cbn [drain_drop_fuel]; unfold drain_next; cbn [di_left di_right t_clear slots];
        eexists; split; try reflexivity; auto.
  Qed.
  Lemma drain_drop_ok : forall s Y W d fuel, NoDup (map fst (Y ++ W)) ->
    (forall z, In z Y -> op_get_left (snd z) <> None) ->
    di_left d = flat_map (slotL s) Y ->
    Permutation (slots (di_right d)) (flat_map (slotR s) (Y ++ W)) ->
    (length Y < fuel)%nat ->
    exists d', drain_drop_fuel E fuel d = Ret d' tt /\ slots (di_right d') = [].
  Proof.
    induction Y as [|y Y IH]; intros W d fuel ND HY HL HR HF.
    - apply drain_end_fuel; auto.
    - destruct fuel as [|fuel]; [simpl in HF; lia|]. cbn [drain_drop_fuel]. unfold drain_next.
      rewrite HL. cbn [flat_map].
      destruct (op_get_left (snd y)) as [a|] eqn:Ha; [|exfalso; eapply HY; [left; reflexivity|auto]].
      rewrite (slotL_some E s y a Ha). cbn [app phash pid value].
      assert (IO := ids_other y (Y ++ W) ND).
      assert (ND' : NoDup (map fst (Y ++ W))) by (inversion ND; auto).
      assert (HY' : forall z, In z Y -> op_get_left (snd z) <> None) by (intros; apply HY; right; auto).
      simpl app in HR. cbn [flat_map] in HR.
      destruct (op_get_right (snd y)) as [b|] eqn:Hb; cbn [option_map].
      + rewrite (slotR_some E s y b Hb) in HR.
        destruct (t_remove_entry_unique (lo E) LO (di_right d) (hashR E s b)
          (just_id (fst y)) _ _ HR) as (t & -> & Pt).
        { unfold just_id; simpl. apply N.eqb_refl. }
        { intros x Hx. eapply id_r_other; eauto. }
        apply (IH W); auto. simpl in HF; lia.
      + rewrite (slotR_none E s y Hb) in HR. apply (IH W); auto. simpl in HF; lia.
  Qed.

End DrainFacts.

Section Proofs7Drain.
  Context {L R S : Type} (E : env L R S) (OK : lawful E).
  Notation pm := (pmap L R S).
  Notation entry := (optional_pair L R).
  Notation zent := (N * entry)%type.
  Notation Rep := (Rep E).
  Notation Repr := (Repr E).
  Notation slotL := (slotL E).
  Notation slotR := (slotR E).
  Let LO := lo_ok _ OK.

  (* n calls of next, then the iterator is dropped *)
  Lemma drain_ok : forall s c m P n, Repr s c m P ->
    exists Q w d d', iter_all E m = Done Q /\ Permutation Q (filter has_left_item P) /\
      incl w P /\ (forall e, In e w -> has_left_item e = false) /\
      length w = Nat.min 1 (length (rights (filter (fun e => negb (has_left_item e)) P))) /\
      drain_nexts E n (drain m)
        = Ret d (firstn n (map Some (Q ++ w)) ++ repeat None (n - length (Q ++ w))) /\
      drain_drop E d = Ret d' tt /\
      Repr s c (drain_end E m d') [].
  Proof.
    intros s c m P n (Z & H & ->). destruct (rep_order_l E _ _ _ _ H) as (Y & PY & SL).
    set (hz := fun z : zent => has_left_item (snd z)).
    assert (SF : forall Y0, flat_map (slotL s) Y0 = flat_map (slotL s) (filter hz Y0)).
    { induction Y0 as [|y Y0 IH]; auto. cbn [flat_map filter]. rewrite IH. unfold hz at 2, has_left_item.
      destruct (op_get_left (snd y)) as [a|] eqn:Q; cbn [is_some flat_map]; auto.
      rewrite (slotL_none E s y Q). auto. }
    assert (PZ : Permutation Z (filter hz Y ++ filter (fun z => negb (hz z)) Y)).
    { rewrite <- filter_split_perm. auto. }
    assert (H' := rep_perm E OK _ _ _ _ _ PZ H).
    assert (ND := rep_ids _ _ _ _ _ H').
    assert (NN : ~ In Neither (map snd Z)) by apply (rep_bij _ _ _ _ _ H).
    assert (HY : forall z, In z (filter hz Y) -> op_get_left (snd z) <> None).
    { intros z Hz. apply filter_In in Hz as [_ Hz]. unfold hz, has_left_item in Hz.
      destruct (op_get_left (snd z)); easy. }
    assert (HW : forall z, In z (filter (fun z => negb (hz z)) Y) -> op_get_left (snd z) = None).
    { intros z Hz. apply filter_In in Hz as [_ Hz]. unfold hz, has_left_item in Hz.
      destruct (op_get_left (snd z)); easy. }
    assert (IZ : incl Y Z) by (intros y Hy; apply (Permutation_in y (Permutation_sym PY)); auto).
    destruct (drain_nexts_ok E LO s n (filter hz Y) (filter (fun z => negb (hz z)) Y) (drain m))
      as (d & w & W1 & W2 & E1 & H1 & H2 & H3); auto.
    { intros I. apply NN. apply in_map_iff in I as (z & <- & I). apply in_map, IZ.
      apply filter_In in I; tauto. }
    { unfold drain; cbn [di_left]. rewrite SL. apply SF. }
    { apply (rep_r _ _ _ _ _ H'). }
    exists (map snd (filter hz Y)), w, d.
    assert (D : exists d', drain_drop E d = Ret d' tt /\ slots (di_right d') = []).
    { unfold drain_drop. rewrite H1. destruct (Nat.le_gt_cases n (length (filter hz Y))) as [C|C].
      - eapply (drain_drop_ok E LO s (skipn n (filter hz Y)) _ d); eauto.
        + rewrite <- (firstn_skipn n (filter hz Y)), <- app_assoc, map_app in ND.
          apply NoDup_app_r in ND. auto.
        + intros z Hz. apply HY. rewrite <- (firstn_skipn n (filter hz Y)). apply in_app_iff; auto.
        + assert (LL : forall Y0, (forall z, In z Y0 -> op_get_left (snd z) <> None) ->
                   length (flat_map (slotL s) Y0) = length Y0).
          { induction Y0 as [|y Y0 IH]; intros HH; auto. cbn [flat_map]. rewrite app_length, IH.
            2:{ intros; apply HH; right; auto. }
            destruct (op_get_left (snd y)) as [a|] eqn:Q; [|exfalso; eapply HH; [left; reflexivity|auto]].
            rewrite (slotL_some E s y a Q). auto. }
          rewrite LL; [lia|].
          intros z Hz. apply HY. rewrite <- (firstn_skipn n (filter hz Y)). apply in_app_iff; auto.
      - apply (drain_end_fuel E); [|lia]. rewrite H1, skipn_all2; auto. lia. }
    destruct D as (d' & E2 & H4). exists d'.
    split; [|split; [|split; [|split; [|split; [|split; [|split]]]]]]; auto.
    - unfold iter_all. eapply collect_as; [apply (iter_steps E OK s c m Z H)| |].
      + exists Y. split; auto. split; [exact SL|]. unfold hz. rewrite filter_map_comm. auto.
      + unfold iter. rewrite SL, (lefts_length E s), <- filter_left_length, filter_map_comm, !map_length.
        auto.
    - unfold hz. rewrite <- filter_map_comm. apply filter_perm, Permutation_map. symmetry; auto.
    - intros e He. apply W1 in He. apply in_map_iff in He as (z & <- & I). apply in_map, IZ.
      apply filter_In in I; tauto.
    - intros e He. apply W1 in He. apply in_map_iff in He as (z & <- & I).
      unfold has_left_item. rewrite (HW z I). auto.
    - rewrite W2. f_equal. rewrite filter_map_comm. apply Permutation_length.
      unfold rights. apply Permutation_flat_map, Permutation_map, filter_perm. symmetry; auto.
    - exists []. split; auto. split; auto.
      + apply (rep_hb _ _ _ _ _ H).
      + apply (rep_c _ _ _ _ _ H).
      + unfold drain_end; cbn [right_set]. rewrite H4. apply Permutation_refl.
      + constructor.
      + intros z [].
      + apply pb_nil.
  Qed.
End Proofs7Drain.
