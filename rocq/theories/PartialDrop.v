(* PartialCycleMap with items whose Drop runs user code and may panic (see Drops and
   CycleMapDrop).  Items that the caller receives are dropped by the caller, not here. *)
From Coq Require Import List NArith Lia Bool Permutation PeanoNat.
From Verif Require CycleMapDrop.
From Verif Require Import Closures Prelude RawTable Optionals PartialCycleMap ListFacts TableFacts
  PartialSpec PartialHistory IterFacts PartialProofs PartialProofs2 PartialProofs3 PartialProofs4
  PartialProofs5 PartialProofs6 PartialProofs7 PartialProofs8 PartialHistoryProofs Concrete
  PartialWidows PartialProps PartialProps2 PartialDefects PartialFaultProps2 Drops.
Import ListNotations.
Open Scope N_scope.

Section Model.
  Context {L R S X : Type}.
  Variable E : env L R S.
  Variable dtor : X -> L + R -> X * bool.
  Notation map := (pmap L R S).
  Notation entry := (optional_pair L R).
  Notation tb := (tomb (L + R) X).

  Definition held_l (m : map) : list (L + R) := List.map (fun x => inl (value (snd x))) (slots (left_set m)).
  Definition held_r (m : map) : list (L + R) := List.map (fun x => inr (value (snd x))) (slots (right_set m)).
  (* the items inside an OptionalPair *)
  Definition op_items (e : entry) : list (L + R) :=
    match e with
    | Neither => []
    | SomeLeft l => [inl l]
    | SomeRight r => [inr r]
    | SomeBoth l r => [inl l; inr r]
    end.

  (* src/partial_cycle_map.rs:1919-1922 *)
  Definition clear_d (m : map) (w : tb) : dres (map * tb) unit :=
    let m1 := set_left (t_clear (lo E) (left_set m)) m in
    match drop_elements dtor w (held_l m) with
    | (w1, false) => DPanic (m1, w1)
    | (w1, true) =>
        let m2 := set_right (t_clear (lo E) (right_set m1)) m1 in
        match drop_elements dtor w1 (held_r m1) with
        | (w2, false) => DPanic (m2, w2)
        | (w2, true) => DRet (m2, w2) tt
        end
    end.
  (* drop of the map: fields left_set, right_set (src/partial_cycle_map.rs:91-96) *)
  Definition map_drop (m : map) (w : tb) : tb * dropping :=
    let (w1, ok1) := drop_elements dtor w (held_l m) in
    let (w2, ok2) := drop_elements dtor w1 (held_r m) in
    (w2, if ok1 then if ok2 then Dropped else Unwinding else if ok2 then Unwinding else Aborting).

  (* src/partial_cycle_map.rs:1946-1961; what the insertion returns is dropped at the end of
     its statement.  (1932-1936 is the case of SomeBoth only) *)
  Definition insert_any (e : entry) : M map (list (L + R)) :=
    match e with
    | Neither => ret []
    | SomeLeft l => o <- insert_left E l ;; ret (op_items o)
    | SomeRight r => o <- insert_right E r ;; ret (op_items o)
    | SomeBoth l r => o <- insert E l r ;; ret (op_items (fst o) ++ op_items (snd o))
    end.
  Fixpoint extend_d (xs : list entry) (m : map) (w : tb) : dres (map * tb) unit :=
    match xs with
    | [] => DRet (m, w) tt
    | e :: xs' =>
        match insert_any e m with
        | Panic m' => DPanic (m', w)
        | Ret m' ts =>
            match glue dtor false w ts with
            | (w', Dropped) => extend_d xs' m' w'
            | (w', Unwinding) => DPanic (m', w')
            | (_, Aborting) => DAbort
            end
        end
    end.

  (* src/partial_cycle_map.rs:1453-1468, 1499-1501 and 1544-1556 with the removed items *)
  Definition drop_one_v (tup : drop_tup) : M map (list (L + R)) :=
    match tup with
    | (Some l, Some r, id) => o <- remove_via_hashes_and_id E l r id ;; ret (op_items o)
    | (Some l, None, id) =>
        o <- left_remove_entry E l (just_id id) ;;
        ret (match o with Some p => [inl (value p)] | None => [] end)
    | (None, Some r, id) =>
        o <- right_remove_entry E r (just_id id) ;;
        ret (match o with Some p => [inr (value p)] | None => [] end)
    | (None, None, _) => panic
    end.
  Fixpoint drop_all_d (l : list drop_tup) (m : map) (w : tb) : dres (map * tb) unit :=
    match l with
    | [] => DRet (m, w) tt
    | t :: l' =>
        match drop_one_v t m with
        | Panic m' => DPanic (m', w)
        | Ret m' ts =>
            match glue dtor false w ts with
            | (w', Dropped) => drop_all_d l' m' w'
            | (w', Unwinding) => DPanic (m', w')
            | (_, Aborting) => DAbort
            end
        end
    end.
  Section Retain.
    Context {Y A I : Type}.
    Variable f : Y -> A -> Y * verdict.
    Variable next : I -> outcome (option A * I).
    Variable key : A -> option drop_tup.
    Definition retain_with_d (fuel : nat) (it : I) (m : map) (y : Y) (w : tb) : dres (map * Y * tb) unit :=
      match retain_scan f next key fuel it y with
      | Panic y' => DPanic (m, y', w)
      | Ret y' to_drop =>
          match drop_all_d to_drop m w with
          | DRet (m', w') _ => DRet (m', y', w') tt
          | DPanic (m', w') => DPanic (m', y', w')
          | DAbort => DAbort
          end
      end.
  End Retain.
  (* src/partial_cycle_map.rs:1434-1469 *)
  Definition retain_d {Y} (f : Y -> entry -> Y * verdict) (m : map) :=
    retain_with_d f (iter_next E m) (retain_key E m) (length (iter m)) (iter m) m.
  (* src/partial_cycle_map.rs:1486-1502 *)
  Definition retain_paired_d {Y} (f : Y -> L * R -> Y * verdict) (m : map) :=
    retain_with_d f (paired_next E m) (retain_paired_key E m) (length (iter_paired m)) (iter_paired m) m.
  (* src/partial_cycle_map.rs:1519-1557 *)
  Definition retain_unpaired_d {Y} (f : Y -> entry -> Y * verdict) (m : map) :=
    retain_with_d f unpaired_next (retain_unpaired_key E m)
      (length (fst (iter_unpaired m)) + length (snd (iter_unpaired m))) (iter_unpaired m) m.

  (* src/partial_cycle_map.rs:2309-2329.  The temporary RawDrain of the right table drops what
     it has not yielded; if that panics the right table is a new one.  The value to be returned
     has been built before; whether it is dropped on the way out depends on the compiler
     ([leak]: it is not). *)
  Variable leak : bool.
  Definition drain_next_d (d : drain_t) (w : tb) : dres (drain_t * tb) (option entry) :=
    match di_left d with
    | _ :: _ =>
        match drain_next E d with
        | Ret d' o => DRet (d', w) o
        | Panic d' => DPanic (d', w)
        end
    | [] =>
        match slots (di_right d) with
        | [] => DRet (Drain [] (t_clear (lo E) (di_right d)), w) None
        | (_, rp) :: rest =>
            match drop_elements dtor w (List.map (fun x => inr (value (snd x))) rest) with
            | (w', true) => DRet (Drain [] (t_clear (lo E) (di_right d)), w') (Some (SomeRight (value rp)))
            | (w', false) =>
                match (if leak then (w', Unwinding) else glue dtor true w' [inr (value rp)]) with
                | (_, Aborting) => DAbort
                | (w'', _) => DPanic (Drain [] (t_with_capacity (lo E) 0), w'')
                end
            end
        end
    end.
  (* src/partial_cycle_map.rs:2285-2291 with the guard 2294-2300; see df_drop_d in CycleMapDrop *)
  Fixpoint drain_drop_d_fuel (fuel : nat) (unw : bool) (d : drain_t) (w : tb) : dres (drain_t * tb) unit :=
    match drain_next_d d w with
    | DAbort => DAbort
    | DPanic st => if unw then DAbort else DPanic st
    | DRet st None => if unw then DPanic st else DRet st tt
    | DRet (d', w') (Some e) =>
        match fuel with
        | O => DAbort                            (* out of fuel *)
        | Datatypes.S fuel' =>
            match glue dtor unw w' (op_items e) with
            | (w'', Dropped) => drain_drop_d_fuel fuel' false d' w''
            | (w'', Unwinding) => drain_drop_d_fuel fuel' true d' w''
            | (_, Aborting) => DAbort
            end
        end
    end.
  Definition drain_drop_d (unw : bool) (d : drain_t) (w : tb) : dres (drain_t * tb) unit :=
    drain_drop_d_fuel (Datatypes.S (length (di_left d))) unw d w.

  Section DrainFilter.
    Context {Y : Type}.
    Variable f : Y -> entry -> Y * verdict.
    (* src/partial_cycle_map.rs:2371-2377 with the guard 2294-2300 *)
    Fixpoint df_drop_d_fuel (fuel : nat) (unw : bool) (st : df_inner * Y) (w : tb)
        : dres (df_inner * Y * tb) unit :=
      match df_next E f st with
      | Panic st' => if unw then DAbort else DPanic (st', w)
      | Ret st' None => if unw then DPanic (st', w) else DRet (st', w) tt
      | Ret st' (Some e) =>
          match fuel with
          | O => DAbort                          (* out of fuel *)
          | Datatypes.S fuel' =>
              match glue dtor unw w (op_items e) with
              | (w', Dropped) => df_drop_d_fuel fuel' false st' w'
              | (w', Unwinding) => df_drop_d_fuel fuel' true st' w'
              | (_, Aborting) => DAbort
              end
          end
      end.
    Definition df_drop_d (unw : bool) (st : df_inner * Y) (w : tb) : dres (df_inner * Y * tb) unit :=
      df_drop_d_fuel (t_len (df_left (fst st)) + t_len (df_right (fst st))) unw st w.
  End DrainFilter.
End Model.

(* the items in an entry *)
Definition entry_of {L R} (e : optional_pair L R) : list (L + R) :=
  match e with
  | Neither => []
  | SomeLeft l => [inl l]
  | SomeRight r => [inr r]
  | SomeBoth l r => [inl l; inr r]
  end.

Section Proofs.
  Context {L R S X : Type} (E : env L R S) (OK : lawful E).
  Variable dtor : X -> L + R -> X * bool.
  Notation entry := (optional_pair L R).
  Notation zent := (N * entry)%type.
  Implicit Types (m : pmap L R S) (l : L) (r : R) (P : list entry) (w : tomb (L + R) X).
  Notation Rep := (Rep E).
  Notation Repr := (Repr E).
  Notation slotL := (slotL E).
  Notation slotR := (slotR E).
  Notation behaves_as := (behaves_as E).
  Let EL := eqL_equiv _ OK.
  Let ER := eqR_equiv _ OK.
  Let LO := lo_ok _ OK.

  (* how a loop of values being dropped ends *)
  Definition ended {A} (a : A) w st : dres (A * tomb (L + R) X) unit :=
    match st with
    | Dropped => DRet (a, w) tt
    | Unwinding => DPanic (a, w)
    | Aborting => DAbort
    end.

  (* ---- retain ---- *)
  Lemma drop_one_v_ok : forall s c m z Z, Rep s c m (z :: Z) ->
    exists m', drop_one_v E (dropz E s z) m = Ret m' (op_items (snd z)) /\ Rep s c m' Z.
  Proof.
    intros s c m z Z H. assert (IO := ids_other z Z (rep_ids _ _ _ _ _ H)).
    assert (NN : ~ In Neither (map snd (z :: Z))) by apply (rep_bij _ _ _ _ _ H).
    assert (Pl := rep_l _ _ _ _ _ H). assert (Pr := rep_r _ _ _ _ _ H).
    destruct z as [i x]. unfold dropz, drop_one_v, remove_via_hashes_and_id, left_remove_entry,
      right_remove_entry. mrun.
    destruct x as [|a|b|a b]; cbn [fst snd op_get_left op_get_right option_map] in *.
    - exfalso; apply NN; left; auto.
    - destruct (t_remove_entry_unique (lo E) LO (left_set m) (hashL E s a) (just_id i) _ _
        (rep_l_cons E _ _ _ _ _ _ H eq_refl)) as (tl & -> & PL).
      { unfold just_id; simpl. apply N.eqb_refl. }
      { intros x Hx. eapply id_l_other; eauto. }
      eexists; split; [reflexivity|]. eapply (rep_tail E s c m _ [_]); eauto.
    - destruct (t_remove_entry_unique (lo E) LO (right_set m) (hashR E s b) (just_id i) _ _
        (rep_r_cons E _ _ _ _ _ _ H eq_refl)) as (tr & -> & PR).
      { unfold just_id; simpl. apply N.eqb_refl. }
      { intros x Hx. eapply id_r_other; eauto. }
      eexists; split; [reflexivity|]. eapply (rep_tail E s c m _ [_]); eauto.
    - destruct (t_remove_entry_unique (lo E) LO (left_set m) (hashL E s a)
        (hash_and_id (hashR E s b) i) _ _
        (rep_l_cons E _ _ _ _ _ _ H eq_refl)) as (tl & -> & PL).
      { unfold hash_and_id; simpl. rewrite !N.eqb_refl. auto. }
      { intros x Hx. apply hid_of_id. eapply id_l_other; eauto. }
      cbn [right_set set_left].
      destruct (t_remove_entry_unique (lo E) LO (right_set m) (hashR E s b)
        (hash_and_id (hashL E s a) i) _ _
        (rep_r_cons E _ _ _ _ _ _ H eq_refl)) as (tr & -> & PR).
      { unfold hash_and_id; simpl. rewrite !N.eqb_refl. auto. }
      { intros x Hx. apply hid_of_id. eapply id_r_other; eauto. }
      eexists; split; [reflexivity|]. eapply (rep_tail E s c m _ [_]); eauto.
  Qed.
  Lemma drop_all_d_ok : forall s c D K m w, Rep s c m (D ++ K) ->
    let '(w', k, st) := drop_seq dtor w (map (fun z => op_items (snd z)) D) in
    exists m', drop_all_d E dtor (map (dropz E s) D) m w = ended m' w' st /\ Rep s c m' (skipn k D ++ K).
  Proof.
    induction D as [|d D IH]; intros K m w H.
    - exists m; split; auto.
    - destruct (drop_one_v_ok s c m d (D ++ K) H) as (m1 & E1 & H1).
      specialize (IH K m1). cbn [map drop_seq drop_all_d]. rewrite E1.
      destruct (glue dtor false w (op_items (snd d))) as [w1 [| |]].
      + specialize (IH w1 H1). destruct (drop_seq dtor w1 _) as [[w2 n] st].
        destruct IH as (m2 & E2 & H2). exists m2. split; auto.
      + exists m1. split; auto.
      + exists m1. split; auto.
  Qed.

  Section Retain.
    Context {Y A I : Type} (f : Y -> A -> Y * verdict)
      (next : I -> outcome (option A * I)) (V : I -> list A -> Prop)
      (key : A -> option drop_tup) (ST : steps_as next V).
    Context {U : Type} (g : U -> A) (emb : U -> zent) (its : A -> list (L + R)) (s : S).

    Lemma retain_with_d_ok : forall c m W rest fuel it y w, V it (map g W) -> (length W <= fuel)%nat ->
      (forall u, In u W -> key (g u) = Some (dropz E s (emb u))) ->
      (forall u, In u W -> op_items (snd (emb u)) = its (g u)) ->
      Rep s c m (map emb W ++ rest) ->
      forall y' yes no, s_filter f y (map g W) = (y', yes, no, false) ->
        let '(w', k, st) := drop_seq dtor w (map its yes) in
        exists m' D K, yes = map g D /\ no = map g K /\ incl D W /\
          retain_with_d E dtor f next key fuel it m y w = ended (m', y') w' st /\
          Rep s c m' (map emb (skipn k D) ++ map emb K ++ rest).
    Proof.
      intros c m W rest fuel it y w HV HF HK HI H y' yes no F. unfold retain_with_d.
      rewrite (retain_scan_as E f next V key ST g emb s W fuel it y HV HF HK).
      rewrite s_filter_map in F.
      destruct (s_filter _ y W) as [[[y2 D] K] pn] eqn:F2. inversion F; subst.
      apply s_filter_perm in F2.
      assert (ID : incl D W).
      { intros u Hu. eapply Permutation_in; [symmetry; exact F2|apply in_app_iff; auto]. }
      assert (EI : map its (map g D) = map (fun z => op_items (snd z)) (map emb D)).
      { rewrite !map_map. apply map_ext_in. intros u Hu. symmetry. auto. }
      assert (DD := drop_all_d_ok s c (map emb D) (map emb K ++ rest) m w).
      rewrite EI. destruct (drop_seq dtor w _) as [[w' k] st].
      destruct DD as (m' & E1 & H1).
      { eapply (rep_perm E OK); [|exact H]. rewrite app_assoc. apply Permutation_app_tail.
        rewrite <- map_app. apply Permutation_map; auto. }
      exists m', D, K. rewrite E1. split; [auto|]. split; [auto|]. split; [auto|].
      split; [destruct st; auto|]. rewrite skipn_map in H1. auto.
    Qed.
  End Retain.

  Lemma retain_d_ok : forall {Y} (f : Y -> entry -> Y * verdict) s c m P y w, Repr s c m P ->
    exists Q, iter_all E m = Done Q /\ Permutation Q (filter has_left_item P) /\
    forall y' yes no, s_filter f y Q = (y', yes, no, false) ->
      let '(w', k, st) := drop_seq dtor w (map op_items yes) in
      exists m', retain_d E dtor f m y w = ended (m', y') w' st /\
        Repr s c m' (skipn k yes ++ no ++ filter (fun e => negb (has_left_item e)) P).
  Proof.
    intros Y f s c m P y w (Z & H & ->). destruct (rep_order_l E _ _ _ _ H) as (O & PO & SL).
    assert (HI : incl O Z) by (intros x Hx; eapply Permutation_in; [symmetry; eauto|auto]).
    set (hz := fun z : zent => has_left_item (snd z)).
    assert (VI : view_iter E s Z (iter m) (map snd (filter hz O))).
    { exists O. split; auto. split; [exact SL|]. unfold hz. rewrite filter_map_comm. auto. }
    assert (LE : (length (filter hz O) <= length (iter m))%nat).
    { unfold iter. rewrite SL, (lefts_length E s), <- filter_left_length, filter_map_comm, map_length.
      auto. }
    exists (map snd (filter hz O)). split; [|split].
    - unfold iter_all. eapply collect_as; [apply (iter_steps E OK s c m Z H)|exact VI|].
      rewrite map_length. auto.
    - unfold hz. rewrite <- filter_map_comm. apply filter_perm, Permutation_map. symmetry; auto.
    - intros y' yes no F.
      assert (W := retain_with_d_ok f (iter_next E m) _ (retain_key E m) (iter_steps E OK s c m Z H)
        snd (fun z => z) op_items s c m (filter hz O) (filter (fun z => negb (hz z)) O)
        (length (iter m)) (iter m) y w VI LE).
      assert (HK : forall u, In u (filter hz O) -> retain_key E m (snd u) = Some (dropz E s u)).
      { intros u Hu. apply filter_In in Hu as [Hu Hl]. unfold hz, has_left_item in Hl.
        destruct (op_get_left (snd u)) as [a|] eqn:Ha; [|discriminate].
        assert (G := rep_left_inner E OK s c m Z u a H (HI u Hu) Ha).
        unfold retain_key, dropz. rewrite (rep_hb _ _ _ _ _ H).
        destruct (snd u) as [|a'|b|a' b]; simpl in Ha; try discriminate; inversion Ha; subst a';
          cbn [op_to_pair]; rewrite G; auto. }
      specialize (W HK (fun _ _ => eq_refl)). rewrite !map_id in W.
      assert (HR : Rep s c m (filter hz O ++ filter (fun z => negb (hz z)) O)).
      { eapply (rep_perm E OK); [|exact H]. rewrite <- filter_split_perm. auto. }
      specialize (W HR _ _ _ F). unfold retain_d.
      destruct (drop_seq dtor w (map op_items yes)) as [[w' k] st].
      destruct W as (m' & D & K & -> & -> & _ & E1 & HK'). exists m'. split; auto.
      rewrite !map_id in HK'.
      eapply (repr_perm E OK); [|eexists; split; [exact HK'|reflexivity]].
      rewrite !map_app, skipn_map. do 2 apply Permutation_app_head. rewrite filter_map_comm.
      unfold hz. apply Permutation_map, filter_perm. symmetry; auto.
  Qed.

  Definition pitems (p : L * R) : list (L + R) := [inl (fst p); inr (snd p)].
  Lemma retain_paired_d_ok : forall {Y} (f : Y -> L * R -> Y * verdict) s c m P y w, Repr s c m P ->
    exists Q, paired_rest E m (iter_paired m) = Done Q /\ Permutation Q (s_pairs P) /\
    forall y' yes no, s_filter f y Q = (y', yes, no, false) ->
      let '(w', k, st) := drop_seq dtor w (map pitems yes) in
      exists m', retain_paired_d E dtor f m y w = ended (m', y') w' st /\
        Repr s c m' (map (fun p => SomeBoth (fst p) (snd p)) (skipn k yes ++ no) ++ s_unpaired P).
  Proof.
    intros Y f s c m P y w (Z & H & ->). destruct (rep_order_l E _ _ _ _ H) as (O & PO & SL).
    assert (HI : incl O Z) by (intros x Hx; eapply Permutation_in; [symmetry; eauto|auto]).
    assert (VI : view_paired E s Z (iter_paired m) (map snd (trips O))).
    { exists O. split; auto. split; [exact SL|]. apply trips_pairs. }
    assert (LE : (length (trips O) <= length (iter_paired m))%nat).
    { unfold iter_paired. rewrite SL, (lefts_length E s), <- (map_length snd (trips O)), trips_pairs.
      apply s_pairs_length. }
    exists (map snd (trips O)). split; [|split].
    - unfold paired_rest. eapply collect_as; [apply (paired_steps E OK s c m Z H)|exact VI|].
      rewrite map_length. auto.
    - rewrite trips_pairs. apply Permutation_flat_map, Permutation_map. symmetry; auto.
    - intros y' yes no F.
      assert (W := retain_with_d_ok f (paired_next E m) _ (retain_paired_key E m)
        (paired_steps E OK s c m Z H)
        snd ztrip pitems s c m (trips O) (filter (fun z => negb (is_both (snd z))) O)
        (length (iter_paired m)) (iter_paired m) y w VI LE).
      assert (HK : forall u, In u (trips O) -> retain_paired_key E m (snd u) = Some (dropz E s (ztrip u))).
      { intros u Hu. apply (in_map ztrip) in Hu. rewrite trips_z in Hu.
        apply filter_In in Hu as [Hu _].
        assert (G := rep_left_inner E OK s c m Z (ztrip u) _ H (HI _ Hu) eq_refl).
        unfold retain_paired_key, dropz. rewrite (rep_hb _ _ _ _ _ H), G. auto. }
      specialize (W HK (fun _ _ => eq_refl)). rewrite trips_z in W.
      assert (HR : Rep s c m (filter (fun z => is_both (snd z)) O
                              ++ filter (fun z => negb (is_both (snd z))) O)).
      { eapply (rep_perm E OK); [|exact H]. rewrite <- (filter_split_perm (fun z => is_both (snd z))). auto. }
      specialize (W HR _ _ _ F). unfold retain_paired_d.
      destruct (drop_seq dtor w (map pitems yes)) as [[w' k] st].
      destruct W as (m' & D & K & -> & -> & _ & E1 & HK'). exists m'. split; auto.
      eapply (repr_perm E OK); [|eexists; split; [exact HK'|reflexivity]].
      rewrite !map_app, skipn_map, !map_map, <- app_assoc.
      do 2 apply Permutation_app_head. unfold s_unpaired.
      rewrite filter_map_comm. apply Permutation_map, filter_perm. symmetry; auto.
  Qed.

  Lemma retain_unpaired_d_ok : forall {Y} (f : Y -> entry -> Y * verdict) s c m P y w, Repr s c m P ->
    exists Q, unpaired_rest (iter_unpaired m) = Done Q /\ Permutation Q (s_unpaired P) /\
    forall y' yes no, s_filter f y Q = (y', yes, no, false) ->
      let '(w', k, st) := drop_seq dtor w (map op_items yes) in
      exists m', retain_unpaired_d E dtor f m y w = ended (m', y') w' st /\
        Repr s c m' (skipn k yes ++ no ++ filter is_both P).
  Proof.
    intros Y f s c m P y w (Z & H & ->).
    destruct (rep_order_l E _ _ _ _ H) as (O & PO & SL).
    destruct (rep_order_r E _ _ _ _ H) as (O' & PO' & SR).
    set (W := filter (fun z => is_sl (snd z)) O ++ filter (fun z => is_sr (snd z)) O').
    assert (EQ : map snd W = filter is_sl (map snd O) ++ filter is_sr (map snd O')).
    { unfold W. rewrite map_app, !filter_map_comm. auto. }
    assert (HI : incl W Z).
    { intros x Hx. apply in_app_iff in Hx as [Hx|Hx]; apply filter_In in Hx as [Hx _].
      - apply (Permutation_in x (Permutation_sym PO)); auto.
      - apply (Permutation_in x (Permutation_sym PO')); auto. }
    assert (VI : view_unpaired E s (iter_unpaired m) (map snd W)).
    { exists O, O'. split; auto. unfold iter_unpaired. rewrite SL, SR. auto. }
    assert (LE : (length W <= length (fst (iter_unpaired m)) + length (snd (iter_unpaired m)))%nat).
    { unfold iter_unpaired. cbn [fst snd]. rewrite SL, SR, (lefts_length E s), (rights_length E s).
      rewrite <- (map_length snd W), EQ, app_length.
      assert (U := is_sl_lefts (map snd O)). assert (U' := is_sr_rights (map snd O')). lia. }
    assert (NN : ~ In Neither (map snd Z)) by apply (rep_bij _ _ _ _ _ H).
    assert (PW : Permutation Z (W ++ filter (fun z => is_both (snd z)) Z)).
    { unfold W. rewrite <- (filter_perm _ _ _ PO), <- (filter_perm _ _ _ PO').
      clear - NN. induction Z as [|z Z IH]; auto.
      assert (NN' : ~ In Neither (map snd Z)) by (intro; apply NN; right; auto).
      destruct z as [i [|a|b|a b]]; simpl in *.
      - tauto.
      - constructor; auto.
      - etransitivity; [constructor; apply IH; auto|]. rewrite <- !app_assoc. apply Permutation_middle.
      - etransitivity; [constructor; apply IH; auto|]. apply Permutation_middle. }
    exists (map snd W). split; [|split].
    - unfold unpaired_rest. eapply collect_as; [apply (unpaired_steps E s)|exact VI|].
      rewrite map_length. auto.
    - rewrite EQ, unpaired_split by auto. apply Permutation_app; apply filter_perm, Permutation_map;
        symmetry; auto.
    - intros y' yes no F.
      assert (Q := retain_with_d_ok f (@unpaired_next L R) _ (retain_unpaired_key E m)
        (unpaired_steps E s)
        snd (fun z => z) op_items s c m W (filter (fun z => is_both (snd z)) Z)
        _ (iter_unpaired m) y w VI LE).
      assert (HK : forall u, In u W -> retain_unpaired_key E m (snd u) = Some (dropz E s u)).
      { intros u Hu. assert (IZ := HI u Hu). unfold W in Hu.
        apply in_app_iff in Hu as [Hu|Hu]; apply filter_In in Hu as [_ Hl].
        - destruct u as [i [|a|b|a b]]; try discriminate.
          assert (G := rep_left_inner E OK s c m Z _ a H IZ eq_refl).
          unfold retain_unpaired_key, dropz. rewrite (rep_hb _ _ _ _ _ H). cbn [snd]. rewrite G. auto.
        - destruct u as [i [|a|b|a b]]; try discriminate.
          assert (G := rep_right_inner E OK s c m Z _ b H IZ eq_refl).
          unfold retain_unpaired_key, dropz. rewrite (rep_hb _ _ _ _ _ H). cbn [snd]. rewrite G. auto. }
      specialize (Q HK (fun _ _ => eq_refl)). rewrite map_id in Q.
      specialize (Q (rep_perm E OK _ _ _ _ _ PW H) _ _ _ F).
      unfold retain_unpaired_d.
      destruct (drop_seq dtor w (map op_items yes)) as [[w' k] st].
      destruct Q as (m' & D & K & -> & -> & _ & E1 & HK'). exists m'. split; auto.
      rewrite !map_id in HK'. eexists. split; [exact HK'|].
      rewrite !map_app, skipn_map, filter_map_comm. auto.
  Qed.

  (* ---- extend ---- *)
  Definition s_insert_any P (e : entry) : list (L + R) :=
    match e with
    | Neither => []
    | SomeLeft l => entry_of (or_neither (find_l (eqL E) P l))
    | SomeRight r => entry_of (or_neither (find_r (eqR E) P r))
    | SomeBoth l r => let o := s_insert_out (eqL E) (eqR E) P l r in entry_of (fst o) ++ entry_of (snd o)
    end.
  (* the items displaced by inserting xs one after the other *)
  Fixpoint displaced P (xs : list entry) : list (list (L + R)) :=
    match xs with
    | [] => []
    | e :: xs' => s_insert_any P e :: displaced (s_insert_entry (eqL E) (eqR E) P e) xs'
    end.
  Lemma insert_any_ok : forall s c m P e, Repr s c m P -> c + 1 < two64 ->
    exists m' c', insert_any E e m = Ret m' (s_insert_any P e) /\ c' <= c + 1 /\
      Repr s c' m' (s_insert_entry (eqL E) (eqR E) P e).
  Proof.
    intros s c m P e H B. unfold insert_any, bind, ret. destruct e as [|l|r|l r]; cbn [s_insert_entry s_insert_any].
    - exists m, c. split; auto. split; [lia|]. exact H.
    - destruct (insert_left_ok E OK s c m P l H B) as (m' & -> & H'). exists m', (c + 1). split; auto. split; [lia|auto].
    - destruct (insert_right_ok E OK s c m P r H B) as (m' & -> & H'). exists m', (c + 1). split; auto. split; [lia|auto].
    - destruct (insert_ok E OK s c m P l r H B) as (m' & -> & H'). exists m', (c + 1). split; auto. split; [lia|auto].
  Qed.
  Lemma extend_d_ok : forall xs s c m P w, Repr s c m P -> c + N.of_nat (length xs) < two64 ->
    let '(w', k, st) := drop_seq dtor w (displaced P xs) in
    exists m' c', extend_d E dtor xs m w = ended m' w' st /\ c' <= c + N.of_nat (length xs) /\
      Repr s c' m' (fold_left (s_insert_entry (eqL E) (eqR E)) (firstn k xs) P).
  Proof.
    induction xs as [|e xs IH]; intros s c m P w H Hc.
    - simpl. exists m, c. split; auto. split; auto. lia.
    - cbn [length] in *. destruct (insert_any_ok s c m P e H) as (m1 & c1 & E1 & C1 & H1); [lia|].
      specialize (IH s c1 m1 (s_insert_entry (eqL E) (eqR E) P e)). cbn [displaced drop_seq extend_d]. rewrite E1.
      destruct (glue dtor false w (s_insert_any P e)) as [w1 [| |]].
      + specialize (IH w1 H1 ltac:(lia)). destruct (drop_seq dtor w1 _) as [[w2 n] st].
        destruct IH as (m2 & c2 & E2 & C2 & H2). exists m2, c2. split; [exact E2|]. split; [lia|]. exact H2.
      + exists m1, c1. split; [reflexivity|]. split; [lia|]. exact H1.
      + exists m1, c1. split; [reflexivity|]. split; [lia|]. exact H1.
  Qed.

  (* ---- drain_filter ---- *)
  Section DrainFilter.
    Context {Y : Type} (f : Y -> entry -> Y * verdict).
    Notation vf := (on_visit (eqR E) f).
    Definition vitems (v : visit entry) : list (L + R) := op_items (shown v).
    (* the result of the destructor: [st] from dropping items, [pn]: the closure panicked *)
    Definition df_ended (d : @df_inner L R) (y : Y) w st (pn : bool) : dres (df_inner * Y * tomb (L + R) X) unit :=
      match st, pn with
      | Dropped, false => DRet (d, y, w) tt
      | Dropped, true | Unwinding, false => DPanic (d, y, w)
      | _, _ => DAbort
      end.
    Lemma dfg_drop_d_fuel_ok : forall n s c m d tk gone kept rest x unw w,
      DFG E s c m d tk gone kept rest -> (mu d <= n)%nat ->
      let '(xt, yes, others, pn) := s_filter vf (x, tk) rest in
      let '(w', st) := glue dtor unw w (flat_map vitems yes) in
      exists d' kept' rest',
        df_drop_d_fuel E dtor f n unw (d, x) w = df_ended d' (fst xt) w' st pn /\
        DFG E s c m d' (snd xt) (gone ++ flat_map gone_of yes) kept' rest' /\
        kept' ++ rest' = kept ++ others.
    Proof.
      induction n; intros s c m d tk gone kept rest x unw w H Hn.
      - assert (Q := dfg_next E OK f s c m d tk gone kept rest x H).
        assert (W := s_next_filter vf rest (x, tk)).
        destruct (s_next vf (x, tk) rest) as [[[xt k] rest'] [p| |]].
        + destruct Q as (d' & _ & _ & M). lia.
        + destruct Q as (d' & Hd & E1). destruct W as [-> ->].
          cbn [df_drop_d_fuel flat_map glue]. rewrite E1. exists d', (kept ++ k), []. cbn [yielded] in *.
          rewrite (app_nil_r (kept ++ k)). destruct unw; auto.
        + destruct Q as (d' & Hd & E1). rewrite W.
          cbn [df_drop_d_fuel flat_map glue]. rewrite E1. exists d', (kept ++ k), rest'. cbn [yielded] in *.
          rewrite app_assoc. destruct unw; auto.
      - assert (Q := dfg_next E OK f s c m d tk gone kept rest x H).
        assert (W := s_next_filter vf rest (x, tk)).
        destruct (s_next vf (x, tk) rest) as [[[xt k] rest'] [p| |]].
        + destruct Q as (d' & Hd & E1 & M). destruct W as [-> WL].
          assert (IH := fun u v => IHn s c m d' _ _ _ _ (fst xt) u v Hd ltac:(lia)).
          cbn [df_drop_d_fuel]. rewrite E1. rewrite <- surjective_pairing in IH.
          destruct (s_filter vf xt rest') as [[[x2 y] no] pn].
          cbn [flat_map]. rewrite glue_app. fold (vitems p).
          destruct (glue dtor unw w (vitems p)) as [w1 [| |]].
          * specialize (IH false w1). destruct (glue dtor false w1 _) as [w' st].
            destruct IH as (d2 & k2 & r2 & E2 & H2 & A2). exists d2, k2, r2.
            cbn [flat_map]. rewrite A2, !app_assoc. auto.
          * specialize (IH true w1). destruct (glue dtor true w1 _) as [w' st].
            destruct IH as (d2 & k2 & r2 & E2 & H2 & A2). exists d2, k2, r2.
            cbn [flat_map]. rewrite A2, !app_assoc. auto.
          * specialize (IH false w1). destruct (glue dtor false w1 _) as [w' st].
            destruct IH as (d2 & k2 & r2 & E2 & H2 & A2). exists d2, k2, r2.
            cbn [flat_map]. rewrite A2, !app_assoc. auto.
        + destruct Q as (d' & Hd & E1). destruct W as [-> ->].
          cbn [df_drop_d_fuel flat_map glue]. rewrite E1. exists d', (kept ++ k), []. cbn [yielded] in *.
          rewrite (app_nil_r (kept ++ k)). destruct unw; auto.
        + destruct Q as (d' & Hd & E1). rewrite W.
          cbn [df_drop_d_fuel flat_map glue]. rewrite E1. exists d', (kept ++ k), rest'. cbn [yielded] in *.
          rewrite app_assoc. destruct unw; auto.
    Qed.
    Lemma dfg_drop_d_ok : forall s c m d tk gone kept rest x unw w,
      DFG E s c m d tk gone kept rest ->
      let '(xt, yes, others, pn) := s_filter vf (x, tk) rest in
      let '(w', st) := glue dtor unw w (flat_map vitems yes) in
      exists d' kept' rest',
        df_drop_d E dtor f unw (d, x) w = df_ended d' (fst xt) w' st pn /\
        DFG E s c m d' (snd xt) (gone ++ flat_map gone_of yes) kept' rest' /\
        kept' ++ rest' = kept ++ others.
    Proof. intros. unfold df_drop_d. apply dfg_drop_d_fuel_ok; auto. Qed.
  End DrainFilter.

  Ltac start H :=
    let s := fresh "s" in let c := fresh "c" in let P := fresh "P" in
    apply (reachable_view E OK) in H as (s & c & P & ?V & H & ?B).

  (* ---- C111 ---- drain_filter, any closure: n entries are taken by the caller, then the
     iterator is dropped.  Panic or not, the map is as in C40_any_closure_partial, and what the
     scan took has been dropped, once each. *)
  Theorem C111_drain_filter : forall {Y} (f : Y -> entry -> Y * verdict) y w room m n,
    reachable E room m ->
    exists P Q W, contents E m P /\ Permutation Q (filter has_left_item P) /\
      Permutation W (filter (fun e => is_some (op_get_right e)) P) /\
    forall y' taken others,
      s_filter (on_visit (eqR E) f) (y, []) (map VE Q ++ map VR W) = (y', taken, others, false) ->
      exists d y1 d' P' T w' st,
        df_nexts E f n (drain_filter m, y)
          = Ret (d, y1) (firstn n (map Some (map shown taken)) ++ repeat None (n - length taken)) /\
        glue dtor false w (flat_map (fun v => entry_of (shown v)) (skipn n taken)) = (w', st) /\
        df_drop_d E dtor f false (d, y1) w =
          match st with
          | Dropped => DRet (d', fst y', w') tt
          | Unwinding => DPanic (d', fst y', w')
          | Aborting => DAbort
          end /\
        (st <> Aborting -> snd w' = snd w ++ flat_map (fun v => entry_of (shown v)) (skipn n taken)) /\
        (* T: the pairs whose right item was taken alone *)
        T = filter has_left_item (flat_map (fun v => match v with VE _ => [] | VR e => [e] end) taken) /\
        (forall e, In e T -> exists a b, e = SomeBoth a b) /\
        Permutation (flat_map keep others) (P' ++ T) /\
        torn E (df_end m d') P' (lefts T) [] /\
        (T = [] -> behaves_as room (df_end m d') P').
  Proof.
    change (@entry_of L R) with (@op_items L R).
    intros Y f y w room m n H. start H.
    destruct (dfg_start E OK s c m P H) as (Q & W & _ & PQ & _ & PW & D).
    exists P, Q, W. split; auto. split; auto. split; auto. intros y' taken others F.
    assert (N1 := dfg_nexts_ok E OK f n s c m _ _ _ _ _ y D). rewrite F in N1.
    destruct N1 as (d & x1 & gone' & kept' & rest' & D' & _ & N1).
    assert (DR := dfg_drop_d_ok f s c m d _ gone' kept' rest' (fst x1) false w D').
    rewrite <- surjective_pairing in DR.
    destruct (s_filter (on_visit (eqR E) f) x1 rest') as [[[x2 t2] o2] pn2].
    destruct N1 as [N1 _]. destruct N1 as (N1 & EQ & EG); auto. injection EQ as -> -> EK ->.
    fold vitems. destruct (glue dtor false w _) as [w' st] eqn:G.
    destruct DR as (d' & k2 & r2 & DR & D2 & EK2).
    destruct (torn_end E OK _ _ _ _ _ _ _ _ D2) as (P' & PP & TB & TO & TR).
    assert (TE : gone' ++ flat_map gone_of (skipn n taken) = flat_map gone_of taken).
    { rewrite EG. simpl. rewrite <- flat_map_app, firstn_skipn. auto. }
    rewrite TE in *. rewrite EK2, EK in PP.
    exists d, (fst x1), d', P', (filter has_left_item (flat_map gone_of taken)), w', st.
    split; [auto|]. split; [reflexivity|]. split; [rewrite DR; destruct st; reflexivity|].
    split.
    { intros NA. apply glue_log in G as (us & vs & E1 & E2 & E3). rewrite E3, app_nil_r in E1 by auto. congruence. }
    repeat (split; [auto; fail|]). intros TN. eapply (repr_behaves E OK); [apply TR; auto|auto].
  Qed.

  (* the closure panics in an explicit call of next: the destructor runs while unwinding *)
  Theorem C111_closure_panics : forall {Y} (f : Y -> entry -> Y * verdict) y w room m n,
    reachable E room m ->
    exists P Q W, contents E m P /\ Permutation Q (filter has_left_item P) /\
      Permutation W (filter (fun e => is_some (op_get_right e)) P) /\
    forall y' taken others,
      s_filter (on_visit (eqR E) f) (y, []) (map VE Q ++ map VR W) = (y', taken, others, true) ->
      (length taken < n)%nat ->
      (* [rest]: what has not been shown to the closure yet; the destructor shows it *)
      exists d y1 before rest y2 taken' others' pn, others = before ++ rest /\
      s_filter (on_visit (eqR E) f) y' rest = (y2, taken', others', pn) /\
      df_nexts E f n (drain_filter m, y) = Panic (d, y1) /\
      match df_drop_d E dtor f true (d, y1) w with
      | DRet _ _ => False
      | DPanic (d', _, w') =>
          pn = false /\ panics_of dtor (fst w) (flat_map (fun v => entry_of (shown v)) taken') = 0%nat /\
          exists P' T,
            snd w' = snd w ++ flat_map (fun v => entry_of (shown v)) taken' /\
            Permutation (map VE Q ++ map VR W)
              (s_unwind (on_visit (eqR E) f) (y, []) (map VE Q ++ map VR W) ++ taken ++ taken') /\
            T = filter has_left_item
                  (flat_map (fun v => match v with VE _ => [] | VR e => [e] end) (taken ++ taken')) /\
            (forall e, In e T -> exists a b, e = SomeBoth a b) /\
            Permutation (flat_map keep (s_unwind (on_visit (eqR E) f) (y, []) (map VE Q ++ map VR W))) (P' ++ T) /\
            torn E (df_end m d') P' (lefts T) [] /\
            (T = [] -> behaves_as room (df_end m d') P')
      | DAbort => pn = true \/ (0 < panics_of dtor (fst w) (flat_map (fun v => entry_of (shown v)) taken'))%nat
      end.
  Proof.
    change (@entry_of L R) with (@op_items L R).
    intros Y f y w room m n H. start H.
    destruct (dfg_start E OK s c m P H) as (Q & W & _ & PQ & _ & PW & D).
    exists P, Q, W. split; auto. split; auto. split; auto. intros y' taken others F LT.
    assert (N1 := dfg_nexts_ok E OK f n s c m _ _ _ _ _ y D). rewrite F in N1.
    destruct N1 as (d & x1 & gone' & kept' & rest' & D' & _ & N1).
    assert (DR := dfg_drop_d_ok f s c m d _ gone' kept' rest' (fst x1) true w D').
    rewrite <- surjective_pairing in DR.
    destruct (s_filter (on_visit (eqR E) f) x1 rest') as [[[x2 t2] o2] pn2] eqn:F2.
    destruct N1 as [_ N2]. destruct N2 as (N2 & -> & EO & EU & EG); auto.
    assert (U := glue_unw dtor (flat_map vitems t2) w).
    destruct (glue dtor true w _) as [w' st] eqn:G.
    destruct DR as (d' & k2 & r2 & DR & D2 & EK2).
    destruct (torn_end E OK _ _ _ _ _ _ _ _ D2) as (P' & PP & TB & TO & TR). rewrite EK2 in PP.
    cbn [app] in *. subst gone' others.
    exists d, (fst y'), kept', rest', x2, t2, o2, pn2. split; [auto|]. split; [auto|]. split; [auto|]. rewrite DR.
    fold vitems. apply glue_fate in G as (us & vs & E1 & E2 & _ & GP & E3).
    destruct st; simpl in U; [destruct U| |]; (destruct pn2; cbn [df_ended]; auto).
    2: { right. rewrite E1, panics_app. destruct (panics_of dtor (fst w) us); [discriminate GP|lia]. }
    assert (vs = []) by (destruct vs as [|v vs]; [auto|exfalso; assert (ZQ := E3 ltac:(discriminate)); discriminate ZQ]).
    subst vs. rewrite app_nil_r in E1. rewrite <- E1 in *.
    split; [auto|]. split; [destruct (panics_of dtor _ _); [auto|discriminate GP]|].
    rewrite <- flat_map_app in *. rewrite EU in PP.
    exists P', (filter has_left_item (flat_map gone_of (taken ++ t2))).
    split; [auto|].
    split.
    { apply s_filter_perm in F. apply s_filter_perm in F2. rewrite <- EU.
      etransitivity; [exact F|]. etransitivity; [apply Permutation_app_head, Permutation_app_head; exact F2|].
      etransitivity; [apply Permutation_app_comm|]. rewrite <- !app_assoc. apply Permutation_app_head.
      rewrite (app_assoc o2). apply Permutation_app_comm. }
    split; [auto|]. split; [auto|]. split; [auto|]. split; [auto|].
    intros TN. eapply (repr_behaves E OK); [apply TR; auto|auto].
  Qed.

  (* retain: the entries answered true (see C41 about the others) are dropped one by one; [k] of them when a Drop
     panics; the others are still in the map *)
  Theorem C111_retain : forall {Y} (f : Y -> entry -> Y * verdict) y w room m, reachable E room m ->
    exists P Q, contents E m P /\ iter_all E m = Done Q /\ Permutation Q (filter has_left_item P) /\
    forall y' yes no, s_filter f y Q = (y', yes, no, false) ->
      exists m' w' k st,
        drop_seq dtor w (map entry_of yes) = (w', k, st) /\
        retain_d E dtor f m y w = ended (m', y') w' st /\
        behaves_as room m' (skipn k yes ++ no ++ filter (fun e => negb (has_left_item e)) P) /\
        (st = Dropped -> k = length yes) /\ (st <> Dropped -> (0 < k <= length yes)%nat) /\
        (st <> Aborting -> snd w' = snd w ++ flat_map entry_of (firstn k yes)).
  Proof.
    change (@entry_of L R) with (@op_items L R).
    intros Y f y w room m H. start H. destruct (retain_d_ok f s c m P y w H) as (Q & I & PQ & W).
    exists P, Q. split; [auto|]. split; [auto|]. split; [auto|]. intros y' yes no F. specialize (W _ _ _ F).
    destruct (drop_seq dtor w (map op_items yes)) as [[w' k] st] eqn:DS. destruct W as (m' & W & H').
    exists m', w', k, st. split; [auto|]. split; [auto|]. split; [eapply (repr_behaves E OK); eauto|].
    apply drop_seq_log in DS as (K1 & K2 & K3 & us & rest & E1 & E2 & E3).
    rewrite map_length in K1, K2. split; [auto|]. split; [auto|].
    intros NA. rewrite E3, app_nil_r in E1 by auto. rewrite E2, <- E1, flat_map_concat_map, firstn_map. auto.
  Qed.
  Theorem C111_retain_paired : forall {Y} (f : Y -> L * R -> Y * verdict) y w room m, reachable E room m ->
    exists P Q, contents E m P /\ paired_rest E m (iter_paired m) = Done Q /\ Permutation Q (s_pairs P) /\
    forall y' yes no, s_filter f y Q = (y', yes, no, false) ->
      exists m' w' k st,
        drop_seq dtor w (map (fun p => [inl (fst p); inr (snd p)]) yes) = (w', k, st) /\
        retain_paired_d E dtor f m y w = ended (m', y') w' st /\
        behaves_as room m' (map (fun p => SomeBoth (fst p) (snd p)) (skipn k yes ++ no) ++ s_unpaired P) /\
        (st = Dropped -> k = length yes) /\ (st <> Dropped -> (0 < k <= length yes)%nat) /\
        (st <> Aborting -> snd w' = snd w ++ flat_map (fun p => [inl (fst p); inr (snd p)]) (firstn k yes)).
  Proof.
    intros Y f y w room m H. start H. destruct (retain_paired_d_ok f s c m P y w H) as (Q & I & PQ & W).
    exists P, Q. split; [auto|]. split; [auto|]. split; [auto|]. intros y' yes no F. specialize (W _ _ _ F).
    fold pitems. destruct (drop_seq dtor w (map pitems yes)) as [[w' k] st] eqn:DS. destruct W as (m' & W & H').
    exists m', w', k, st. split; [auto|]. split; [auto|]. split; [eapply (repr_behaves E OK); eauto|].
    apply drop_seq_log in DS as (K1 & K2 & K3 & us & rest & E1 & E2 & E3).
    rewrite map_length in K1, K2. split; [auto|]. split; [auto|].
    intros NA. rewrite E3, app_nil_r in E1 by auto. rewrite E2, <- E1, flat_map_concat_map, firstn_map. auto.
  Qed.
  Theorem C111_retain_unpaired : forall {Y} (f : Y -> entry -> Y * verdict) y w room m, reachable E room m ->
    exists P Q, contents E m P /\ unpaired_rest (iter_unpaired m) = Done Q /\ Permutation Q (s_unpaired P) /\
    forall y' yes no, s_filter f y Q = (y', yes, no, false) ->
      exists m' w' k st,
        drop_seq dtor w (map entry_of yes) = (w', k, st) /\
        retain_unpaired_d E dtor f m y w = ended (m', y') w' st /\
        behaves_as room m' (skipn k yes ++ no ++ filter is_both P) /\
        (st = Dropped -> k = length yes) /\ (st <> Dropped -> (0 < k <= length yes)%nat) /\
        (st <> Aborting -> snd w' = snd w ++ flat_map entry_of (firstn k yes)).
  Proof.
    change (@entry_of L R) with (@op_items L R).
    intros Y f y w room m H. start H. destruct (retain_unpaired_d_ok f s c m P y w H) as (Q & I & PQ & W).
    exists P, Q. split; [auto|]. split; [auto|]. split; [auto|]. intros y' yes no F. specialize (W _ _ _ F).
    destruct (drop_seq dtor w (map op_items yes)) as [[w' k] st] eqn:DS. destruct W as (m' & W & H').
    exists m', w', k, st. split; [auto|]. split; [auto|]. split; [eapply (repr_behaves E OK); eauto|].
    apply drop_seq_log in DS as (K1 & K2 & K3 & us & rest & E1 & E2 & E3).
    rewrite map_length in K1, K2. split; [auto|]. split; [auto|].
    intros NA. rewrite E3, app_nil_r in E1 by auto. rewrite E2, <- E1, flat_map_concat_map, firstn_map. auto.
  Qed.

  (* extend: what an insertion returns is dropped before the next insertion *)
  Theorem C111_extend : forall xs w m, reachable E (N.of_nat (length xs)) m ->
    exists P m' w' k st, contents E m P /\
      drop_seq dtor w (displaced P xs) = (w', k, st) /\
      extend_d E dtor xs m w = ended m' w' st /\
      behaves_as 0 m' (fold_left (s_insert_entry (eqL E) (eqR E)) (firstn k xs) P) /\
      (st = Dropped -> k = length xs) /\ (st <> Dropped -> (0 < k <= length xs)%nat) /\
      (st <> Aborting -> snd w' = snd w ++ concat (displaced P (firstn k xs))).
  Proof.
    intros xs w m H. start H.
    assert (W := extend_d_ok xs s c m P w H B).
    destruct (drop_seq dtor w (displaced P xs)) as [[w' k] st] eqn:DS.
    destruct W as (m' & c' & W & C' & H').
    assert (LR : forall xs P, length (displaced P xs) = length xs).
    { clear. induction xs as [|e xs IH]; intros P; simpl; auto. }
    assert (FR : forall k xs P, displaced P (firstn k xs) = firstn k (displaced P xs)).
    { clear. induction k; intros [|e xs] P; simpl; auto. rewrite IHk. auto. }
    exists P, m', w', k, st. split; [auto|]. split; [auto|]. split; [auto|].
    split; [eapply (repr_behaves E OK); [exact H'|lia]|].
    apply drop_seq_log in DS as (K1 & K2 & K3 & us & rest & E1 & E2 & E3).
    rewrite LR in K1, K2. split; [auto|]. split; [auto|].
    intros NA. rewrite E3, app_nil_r in E1 by auto. rewrite E2, <- E1, FR. auto.
  Qed.

  (* ---- the items of a map ---- *)
  Lemma op_items_perm : forall (Z : list zent),
    Permutation (map inl (lefts (map snd Z)) ++ map inr (rights (map snd Z))) (flat_map op_items (map snd Z)).
  Proof.
    unfold lefts, rights. induction Z as [|[i e] Z IH]; auto. cbn [map snd flat_map].
    destruct e; cbn [op_get_left op_get_right opt_list app op_items map]; auto.
    - rewrite <- Permutation_middle. constructor; auto.
    - constructor. rewrite <- Permutation_middle. constructor; auto.
  Qed.
  Lemma held_perm : forall s c m Z, Rep s c m Z ->
    Permutation (held_l m) (map inl (lefts (map snd Z))) /\
    Permutation (held_r m) (map inr (rights (map snd Z))).
  Proof.
    intros s c m Z H. unfold held_l, held_r. split.
    - rewrite (Permutation_map _ (rep_l _ _ _ _ _ H)), <- (slots_lefts E s), map_map. auto.
    - rewrite (Permutation_map _ (rep_r _ _ _ _ _ H)), <- (slots_rights E s), map_map. auto.
  Qed.

  Theorem C111_map_drop : forall room m w, reachable E room m ->
    exists P w' ls lost rs lost', contents E m P /\
      map_drop dtor m w = (w', fate (panics_of dtor (fst w) (ls ++ rs))) /\
      snd w' = snd w ++ ls ++ rs /\
      Permutation (ls ++ lost) (map inl (lefts P)) /\ Permutation (rs ++ lost') (map inr (rights P)) /\
      (lost <> [] -> panics_of dtor (fst w) ls = 1%nat) /\
      (lost' <> [] -> panics_of dtor (fst w) (ls ++ rs) = (1 + panics_of dtor (fst w) ls)%nat).
  Proof.
    intros room m w H. start H. destruct H as (Z & H & ->). destruct (held_perm _ _ _ _ H) as [PL PR].
    unfold map_drop. destruct (drop_elements dtor w (held_l m)) as [w1 ok1] eqn:D1.
    destruct (drop_elements dtor w1 (held_r m)) as [w2 ok2] eqn:D2.
    destruct (two_tables dtor _ _ _ _ _ _ _ D1 D2) as (ls & lost & rs & lost' & E1 & E2 & E3 & E4 & E5 & E6).
    exists (map snd Z), w2, ls, lost, rs, lost'. rewrite E4, <- E1, <- E2. repeat split; auto.
  Qed.

  (* ---- drain ---- *)
  (* panics so far, the one that is unwinding included *)
  Definition cost (unw : bool) (x : X) (ts : list (L + R)) : nat := (if unw then 1 else 0) + panics_of dtor x ts.
  Lemma fate_0 : forall n, Dropped = fate n -> n = 0%nat.
  Proof. intros [|[|n]]; simpl; auto; discriminate. Qed.
  Lemma fate_1 : forall n, Unwinding = fate n -> n = 1%nat.
  Proof. intros [|[|n]]; simpl; auto; discriminate. Qed.
  Lemma fate_2 : forall n, Aborting = fate n -> (2 <= n)%nat.
  Proof. intros [|[|n]]; simpl; try discriminate. lia. Qed.

  Lemma drain_drop_d_ok : forall leak s Y W d fuel unw w, NoDup (map fst (Y ++ W)) ->
    (forall z, In z Y -> op_get_left (snd z) <> None) ->
    di_left d = flat_map (slotL s) Y ->
    Permutation (slots (di_right d)) (flat_map (slotR s) (Y ++ W)) ->
    (length Y < fuel)%nat ->
    let all := flat_map op_items (map snd Y) in
    let rs := map (@inr L R) (rights (map snd W)) in
    match drain_drop_d_fuel E dtor leak fuel unw d w with
    | DRet (d', w') _ => slots (di_right d') = [] /\
        exists ts, snd w' = snd w ++ ts /\ cost unw (fst w) ts = 0%nat /\ Permutation ts (all ++ rs)
    | DPanic (d', w') => slots (di_right d') = [] /\
        exists ts lost, snd w' = snd w ++ ts /\ cost unw (fst w) ts = 1%nat /\
          Permutation (ts ++ lost) (all ++ rs) /\ incl lost rs
    | DAbort => exists ts lost, Permutation (ts ++ lost) (all ++ rs) /\ (2 <= cost unw (fst w) ts)%nat
    end.
  Proof.
    intros leak s. induction Y as [|y Y IH]; intros W d fuel unw w ND HY HL HR HF all rs.
    - destruct fuel as [|fuel]; [lia|]. cbn [drain_drop_d_fuel]. unfold drain_next_d at 1. rewrite HL.
      cbn [flat_map]. cbn iota. simpl app in HR.
      assert (PR : Permutation (map (fun x => inr (value (snd x))) (slots (di_right d))) rs).
      { unfold rs. rewrite (Permutation_map _ HR), <- (slots_rights E s), map_map. auto. }
      assert (END : forall w1 u, drain_drop_d_fuel E dtor leak fuel u (Drain [] (t_clear (lo E) (di_right d))) w1
        = let st := (Drain [] (t_clear (lo E) (t_clear (lo E) (di_right d))), w1) in
          if u then DPanic st else DRet st tt).
      { intros w1 u. destruct fuel; reflexivity. }
      destruct (slots (di_right d)) as [|[h rp] rest].
      + cbn [map] in PR. apply Permutation_nil in PR. unfold all, rs in *. rewrite PR.
        destruct unw; (split; [reflexivity|]).
        * exists [], []. rewrite app_nil_r. repeat split; auto; try discriminate. apply incl_nil_l.
        * exists []. rewrite app_nil_r. auto.
      + cbn [map value snd] in PR.
        destruct (drop_elements dtor w (map (fun x => inr (value (snd x))) rest)) as [w1 ok] eqn:D.
        apply elements_fate in D as (us & lost & E1 & E2 & EA & EP & E3). unfold all. cbn [map flat_map app].
        destruct ok.
        * assert (lost = []) by (destruct lost as [|g lost]; [reflexivity|exfalso; assert (Q := E3 ltac:(discriminate)); discriminate Q]). subst lost.
          rewrite app_nil_r in E1. rewrite E1 in PR. cbn [op_items].
          destruct (glue dtor unw w1 [inr (value rp)]) as [w2 st] eqn:G.
          apply glue_fate in G as (gs & gl & G1 & G2 & GA & GP & G3).
          assert (CG : st = fate (cost unw (fst w) (us ++ gs))).
          { unfold cost. rewrite panics_app, EP, <- EA. exact GP. }
          assert (RES : st <> Aborting -> gs = [inr (value rp)] /\ snd w2 = snd w ++ us ++ [inr (value rp)] /\
                          Permutation (us ++ [inr (value rp)]) rs).
          { intros NA. assert (gl = []) by (destruct gl; auto; destruct NA; apply G3; discriminate). subst gl.
            rewrite app_nil_r in G1. subst gs. rewrite G2, E2, <- app_assoc. split; auto. split; auto.
            rewrite <- PR. symmetry. apply Permutation_cons_append. }
          destruct st; [rewrite END; cbn zeta iota; destruct RES as (-> & R1 & R2); try discriminate..|].
          -- split; [reflexivity|]. eexists; split; [exact R1|]. split; [apply fate_0; auto|auto].
          -- split; [reflexivity|]. eexists _, []. split; [exact R1|]. rewrite app_nil_r.
             split; [apply fate_1; auto|]. split; auto. apply incl_nil_l.
          -- exists (us ++ gs), gl. split; [|apply fate_2; auto].
             rewrite <- app_assoc, <- G1, <- PR. symmetry. apply Permutation_cons_append.
        * assert (LI : incl lost rs).
          { intros t Ht. apply (Permutation_in t PR). right. rewrite E1. apply in_app_iff; auto. }
          assert (HI : In (inr (value rp)) rs) by (apply (Permutation_in _ PR); left; auto).
          assert (PA : Permutation (us ++ inr (value rp) :: lost) rs).
          { rewrite <- PR, E1. symmetry. apply Permutation_middle. }
          assert (AB : (2 <= cost true (fst w) us)%nat) by (unfold cost; rewrite EP; lia).
          destruct leak.
          -- destruct unw; [exists us, (inr (value rp) :: lost); auto|].
             split; [reflexivity|]. exists us, (inr (value rp) :: lost).
             split; auto. split; auto. split; auto. intros t [<-|Ht]; auto.
          -- destruct (glue dtor true w1 [inr (value rp)]) as [w2 st] eqn:G.
             assert (U := glue_unw dtor [inr (value rp)] w1). rewrite G in U. simpl in U.
             apply glue_fate in G as (gs & gl & G1 & G2 & GA & GP & G3).
             destruct st; [destruct U| |].
             ++ assert (gl = []) by (destruct gl as [|g gl]; [reflexivity|exfalso; assert (Q := G3 ltac:(discriminate)); discriminate Q]). subst gl.
                rewrite app_nil_r in G1. subst gs.
                destruct unw; [exists us, (inr (value rp) :: lost); auto|].
                split; [reflexivity|]. exists (us ++ [inr (value rp)]), lost.
                rewrite G2, E2, <- app_assoc. split; auto.
                unfold cost. rewrite panics_app, EP, <- EA.
                split; [apply fate_1 in GP; simpl in GP |- *; lia|]. split; auto. rewrite <- app_assoc. auto.
             ++ destruct unw; [exists us, (inr (value rp) :: lost); auto|].
                exists (us ++ gs), (gl ++ lost). split.
                ** rewrite <- PA, <- app_assoc. apply Permutation_app_head. rewrite app_assoc, <- G1. auto.
                ** unfold cost. rewrite panics_app, EP, <- EA. apply fate_2 in GP. simpl in GP |- *. lia.
    - destruct fuel as [|fuel]; [simpl in HF; lia|]. cbn [drain_drop_d_fuel]. unfold drain_next_d at 1, drain_next at 1.
      rewrite HL. cbn [flat_map].
      destruct (op_get_left (snd y)) as [a|] eqn:Ha; [|exfalso; eapply HY; [left; reflexivity|auto]].
      rewrite (slotL_some E s y a Ha). cbn [app phash pid value].
      assert (IO := ids_other y (Y ++ W) ND).
      assert (ND' : NoDup (map fst (Y ++ W))) by (inversion ND; auto).
      assert (HY' : forall z, In z Y -> op_get_left (snd z) <> None) by (intros; apply HY; right; auto).
      simpl app in HR. cbn [flat_map] in HR.
      assert (STEP : forall d1, di_left d1 = flat_map (slotL s) Y ->
        Permutation (slots (di_right d1)) (flat_map (slotR s) (Y ++ W)) ->
        match
          match glue dtor unw w (op_items (snd y)) with
          | (w'', Dropped) => drain_drop_d_fuel E dtor leak fuel false d1 w''
          | (w'', Unwinding) => drain_drop_d_fuel E dtor leak fuel true d1 w''
          | (_, Aborting) => DAbort
          end with
        | DRet (d', w') _ => slots (di_right d') = [] /\
            exists ts, snd w' = snd w ++ ts /\ cost unw (fst w) ts = 0%nat /\ Permutation ts (all ++ rs)
        | DPanic (d', w') => slots (di_right d') = [] /\
            exists ts lost, snd w' = snd w ++ ts /\ cost unw (fst w) ts = 1%nat /\
              Permutation (ts ++ lost) (all ++ rs) /\ incl lost rs
        | DAbort => exists ts lost, Permutation (ts ++ lost) (all ++ rs) /\ (2 <= cost unw (fst w) ts)%nat
        end).
      { intros d1 L1 R1. destruct (glue dtor unw w (op_items (snd y))) as [w1 st] eqn:G.
        apply glue_fate in G as (gs & gl & G1 & G2 & GA & GP & G3).
        assert (EA : all = op_items (snd y) ++ flat_map op_items (map snd Y)) by reflexivity.
        assert (IH' := fun u => IH W d1 fuel u w1 ND' HY' L1 R1 ltac:(simpl in HF; lia)). cbn zeta in IH'.
        assert (GO : forall u : bool, st = (if u then Unwinding else Dropped) -> op_items (snd y) = gs /\
          forall ts, cost unw (fst w) (gs ++ ts) = cost u (fst w1) ts).
        { intros u Q. split.
          - destruct gl as [|g gl]; [rewrite app_nil_r in G1; auto|].
            rewrite (G3 ltac:(discriminate)) in Q. destruct u; discriminate.
          - intros ts. unfold cost in *. rewrite panics_app, <- GA. rewrite Q in GP. destruct u.
            + apply fate_1 in GP. lia.
            + apply fate_0 in GP. lia. }
        assert (K : forall u : bool, st = (if u then Unwinding else Dropped) ->
          match drain_drop_d_fuel E dtor leak fuel u d1 w1 with
          | DRet (d', w') _ => slots (di_right d') = [] /\
              exists ts, snd w' = snd w ++ ts /\ cost unw (fst w) ts = 0%nat /\ Permutation ts (all ++ rs)
          | DPanic (d', w') => slots (di_right d') = [] /\
              exists ts lost, snd w' = snd w ++ ts /\ cost unw (fst w) ts = 1%nat /\
                Permutation (ts ++ lost) (all ++ rs) /\ incl lost rs
          | DAbort => exists ts lost, Permutation (ts ++ lost) (all ++ rs) /\ (2 <= cost unw (fst w) ts)%nat
          end).
        { intros u Q. destruct (GO u Q) as [E1 C1]. specialize (IH' u).
          destruct (drain_drop_d_fuel E dtor leak fuel u d1 w1) as [[d' w'] x|[d' w']|].
          - destruct IH' as (Q1 & ts & Q2 & QC & Q3). split; auto. exists (gs ++ ts).
            rewrite C1, Q2, G2, EA, E1, <- !app_assoc. split; auto. split; auto. apply Permutation_app_head. auto.
          - destruct IH' as (Q1 & ts & lost & Q2 & QC & Q3 & Q4). split; auto. exists (gs ++ ts), lost.
            rewrite C1, Q2, G2, EA, E1, <- !app_assoc. split; auto. split; auto. split; auto. apply Permutation_app_head. auto.
          - destruct IH' as (ts & lost & Q3 & QC). exists (gs ++ ts), lost. rewrite C1, EA, E1, <- !app_assoc.
            split; auto. apply Permutation_app_head. auto. }
        destruct st; [apply (K false); auto|apply (K true); auto|].
        exists gs, (gl ++ flat_map op_items (map snd Y) ++ rs). rewrite EA, G1, <- !app_assoc. split; auto.
        apply fate_2; auto. }
      destruct (op_get_right (snd y)) as [b|] eqn:Hb; cbn [option_map].
      + rewrite (slotR_some E s y b Hb) in HR.
        destruct (t_remove_entry_unique (lo E) LO (di_right d) (hashR E s b)
          (just_id (fst y)) _ _ HR) as (t & -> & Pt).
        { unfold just_id; simpl. apply N.eqb_refl. }
        { intros x Hx. eapply id_r_other; eauto. }
        cbn [value].
        assert (EY : SomeBoth a b = snd y).
        { destruct (snd y); simpl in Ha, Hb; congruence. }
        rewrite EY. apply STEP; auto.
      + rewrite (slotR_none E s y Hb) in HR.
        assert (EY : SomeLeft a = snd y).
        { destruct (snd y); simpl in Ha, Hb; congruence. }
        rewrite EY. apply STEP; auto.
  Qed.

  Notation no_left := (fun e => negb (has_left_item e)).
  (* drain(): n entries with left items are taken by the caller, then the iterator is dropped.
     Unless the process is aborted the map is empty; if a Drop panics, unpaired right items may
     never be dropped. *)
  Theorem C111_drain : forall leak room m n w, reachable E room m ->
    exists P Q, contents E m P /\ iter_all E m = Done Q /\ Permutation Q (filter has_left_item P) /\
    ((n <= length Q)%nat -> exists d, drain_nexts E n (drain m) = Ret d (map Some (firstn n Q)) /\
      match drain_drop_d E dtor leak false d w with
      | DRet (d', w') _ => behaves_as room (drain_end E m d') [] /\
          exists ts, snd w' = snd w ++ ts /\ panics_of dtor (fst w) ts = 0%nat /\
            Permutation ts (flat_map entry_of (skipn n Q ++ filter no_left P))
      | DPanic (d', w') => behaves_as room (drain_end E m d') [] /\
          exists ts lost, snd w' = snd w ++ ts /\ panics_of dtor (fst w) ts = 1%nat /\
            Permutation (ts ++ lost) (flat_map entry_of (skipn n Q ++ filter no_left P)) /\
            incl lost (flat_map entry_of (filter no_left P))
      | DAbort => exists ts lost, (2 <= panics_of dtor (fst w) ts)%nat /\
            Permutation (ts ++ lost) (flat_map entry_of (skipn n Q ++ filter no_left P))
      end).
  Proof.
    change (@entry_of L R) with (@op_items L R).
    intros leak room m n w H. start H. destruct H as (Z & H & ->).
    destruct (rep_order_l E _ _ _ _ H) as (Y & PY & SL).
    set (hz := fun z : zent => has_left_item (snd z)).
    assert (SF : forall Y0, flat_map (slotL s) Y0 = flat_map (slotL s) (filter hz Y0)).
    { induction Y0 as [|y Y0 IH]; auto. cbn [flat_map filter]. rewrite IH. unfold hz at 2, has_left_item.
      destruct (op_get_left (snd y)) as [a|] eqn:Q; cbn [is_some flat_map]; auto.
      rewrite (slotL_none E s y Q). auto. }
    assert (PZ : Permutation Z (filter hz Y ++ filter (fun z => negb (hz z)) Y)).
    { rewrite <- filter_split_perm. auto. }
    assert (H' := rep_perm E OK _ _ _ _ _ PZ H).
    assert (ND := rep_ids _ _ _ _ _ H').
    assert (NN : ~ In Neither (map snd Z)) by apply (rep_bij _ _ _ _ _ H).
    assert (HY : forall z, In z (filter hz Y) -> op_get_left (snd z) <> None).
    { intros z Hz. apply filter_In in Hz as [_ Hz]. unfold hz, has_left_item in Hz.
      destruct (op_get_left (snd z)); easy. }
    assert (HW : forall z, In z (filter (fun z => negb (hz z)) Y) -> op_get_left (snd z) = None).
    { intros z Hz. apply filter_In in Hz as [_ Hz]. unfold hz, has_left_item in Hz.
      destruct (op_get_left (snd z)); easy. }
    assert (IZ : incl Y Z) by (intros y Hy; apply (Permutation_in y (Permutation_sym PY)); auto).
    destruct (drain_nexts_ok E (lo_ok _ OK) s n (filter hz Y) (filter (fun z => negb (hz z)) Y) (drain m))
      as (d & ws & W1 & W2 & E1 & H1 & H2 & H3); auto.
    { intros I. apply NN. apply in_map_iff in I as (z & <- & I). apply in_map, IZ.
      apply filter_In in I; tauto. }
    { unfold drain; cbn [di_left]. rewrite SL. apply SF. }
    { apply (rep_r _ _ _ _ _ H'). }
    exists (map snd Z), (map snd (filter hz Y)). split; [auto|]. split; [|split].
    { unfold iter_all. eapply collect_as; [apply (iter_steps E OK s c m Z H)| |].
      + exists Y. split; auto. split; [exact SL|]. unfold hz. rewrite filter_map_comm. auto.
      + unfold iter. rewrite SL, (lefts_length E s), <- filter_left_length, filter_map_comm, !map_length.
        auto. }
    { unfold hz. rewrite <- filter_map_comm. apply filter_perm, Permutation_map. symmetry; auto. }
    intros LE. rewrite map_length in LE. exists d. split.
    { rewrite E1, app_length, map_length.
      replace (n - _)%nat with 0%nat by lia. cbn [repeat]. rewrite app_nil_r.
      rewrite map_app, firstn_app, !map_length. replace (n - length (filter hz Y))%nat with 0%nat by lia.
      cbn [firstn]. rewrite app_nil_r, <- firstn_map. auto. }
    assert (DD := drain_drop_d_ok leak s (skipn n (filter hz Y)) (filter (fun z => negb (hz z)) Y) d
      (Datatypes.S (length (di_left d))) false w).
    unfold drain_drop_d.
    assert (EMPTY : forall d', slots (di_right d') = [] -> behaves_as room (drain_end E m d') []).
    { intros d' Q. eapply (repr_behaves E OK s c); eauto. exists []. split; auto. split; auto.
      + apply (rep_hb _ _ _ _ _ H).
      + apply (rep_c _ _ _ _ _ H).
      + unfold drain_end; cbn [right_set]. rewrite Q. auto.
      + constructor.
      + intros ? [].
      + split; [|split]; simpl; auto using distinct_nil. }
    assert (RS : Permutation (map (@inr L R) (rights (map snd (filter (fun z => negb (hz z)) Y))))
                   (flat_map op_items (filter no_left (map snd Z)))).
    { rewrite filter_map_comm. change (fun x : zent => negb (has_left_item (snd x))) with (fun z => negb (hz z)).
      etransitivity; [|apply Permutation_flat_map, Permutation_map, filter_perm; symmetry; exact PY].
      clear - HW. induction (filter (fun z => negb (hz z)) Y) as [|z W IH]; auto.
      unfold rights in *. cbn [map flat_map]. rewrite map_app. apply Permutation_app.
      - assert (Q := HW z (or_introl eq_refl)). destruct (snd z); simpl in Q |- *; try discriminate; auto.
      - apply IH. intros; apply HW; right; auto. }
    cbn zeta in DD. rewrite skipn_map.
    assert (ALL : Permutation (flat_map op_items (map snd (skipn n (filter hz Y))) ++
        map (@inr L R) (rights (map snd (filter (fun z => negb (hz z)) Y))))
      (flat_map op_items (map snd (skipn n (filter hz Y)) ++ filter no_left (map snd Z)))).
    { rewrite flat_map_app. apply Permutation_app_head. auto. }
    assert (DD' := DD ltac:(rewrite <- (firstn_skipn n (filter hz Y)), <- app_assoc, map_app in ND;
      apply NoDup_app_r in ND; exact ND)
      ltac:(intros z Hz; apply HY; rewrite <- (firstn_skipn n (filter hz Y)); apply in_app_iff; auto) H1 (H2 LE)).
    clear DD. rename DD' into DD.
    assert (LL : forall Y0, (forall z, In z Y0 -> op_get_left (snd z) <> None) ->
      length (flat_map (slotL s) Y0) = length Y0).
    { induction Y0 as [|y Y0 IH]; intros HH; auto. cbn [flat_map]. rewrite app_length, IH.
      2:{ intros; apply HH; right; auto. }
      destruct (op_get_left (snd y)) as [a|] eqn:Q; [|exfalso; eapply HH; [left; reflexivity|auto]].
      rewrite (slotL_some E s y a Q). auto. }
    rewrite H1, LL in DD.
    2:{ intros z Hz. apply HY. rewrite <- (firstn_skipn n (filter hz Y)). apply in_app_iff; auto. }
    rewrite H1, LL.
    2:{ intros z Hz. apply HY. rewrite <- (firstn_skipn n (filter hz Y)). apply in_app_iff; auto. }
    specialize (DD ltac:(lia)).
    destruct (drain_drop_d_fuel E dtor leak _ false d w) as [[d' w'] u|[d' w']|]; auto.
    - destruct DD as (Q1 & ts & Q2 & QC & Q3). split; auto. exists ts. split; auto. split; auto. rewrite Q3. auto.
    - destruct DD as (Q1 & ts & lost & Q2 & Q3 & Q4 & Q5). split; auto. exists ts, lost. split; auto.
      split; auto. split; [rewrite Q4; auto|]. intros t Ht. apply (Permutation_in t RS). auto.
    - destruct DD as (ts & lost & Q1 & Q2). exists ts, lost. split; auto. rewrite Q1. auto.
  Qed.

  (* ---- C112 ---- clear.  Missing from the full claim: see C112_clear_refuted. *)
  Theorem C112_clear_partial : forall room m w, reachable E room m ->
    exists P, contents E m P /\
    match clear_d E dtor m w with
    | DRet (m', w') _ =>
        behaves_as room m' [] /\
        exists ts, snd w' = snd w ++ ts /\ Permutation ts (flat_map entry_of P) /\ panics_of dtor (fst w) ts = 0%nat
    | DPanic (m', w') =>
        (exists ts lost, snd w' = snd w ++ ts /\
          ((* the Drop of a right item panicked: the map is empty *)
           ((exists r, blamed dtor (fst w) ts (inr r)) /\ behaves_as room m' [] /\ Permutation (ts ++ lost) (flat_map entry_of P)) \/
           (* of a left item: the unpaired right items stay, and the right items of the pairs
              count as paired although no left item is there *)
           ((exists l, blamed dtor (fst w) ts (inl l)) /\ Permutation (ts ++ lost) (map inl (lefts P)) /\
            wrecked_r E room m' (filter is_sr P) (rights (filter is_both P))))) /\
        (* clearing once more mends the map *)
        exists m'', clear E m' = Ret m'' tt /\ behaves_as room m'' []
    | DAbort => False
    end.
  Proof.
    change (@entry_of L R) with (@op_items L R).
    intros room m w H. start H. exists P. split; auto. destruct H as (Z & H & ->).
    assert (EMPTY : forall m', hash_builder m' = s -> counter m' = c -> slots (left_set m') = [] ->
      slots (right_set m') = [] -> behaves_as room m' []).
    { intros m' Q1 Q2 Q3 Q4. eapply (repr_behaves E OK s c); eauto. exists []. split; auto.
      split; auto.
      + rewrite Q3. auto.
      + rewrite Q4. auto.
      + constructor.
      + intros ? [].
      + split; [|split]; simpl; auto using distinct_nil. }
    assert (HC : counter m = c) by apply (rep_c _ _ _ _ _ H).
    assert (HS : hash_builder m = s) by apply (rep_hb _ _ _ _ _ H).
    destruct (held_perm _ _ _ _ H) as [HL HR].
    assert (HA : Permutation (held_l m ++ held_r m) (flat_map op_items (map snd Z))).
    { rewrite HL, HR. apply op_items_perm. }
    unfold clear_d. destruct (drop_elements dtor w (held_l m)) as [w1 ok1] eqn:D1.
    apply elements_blame in D1 as (u1 & r1 & E1 & L1 & A1 & T1 & F1).
    destruct ok1.
    - change (held_r (set_left (t_clear (lo E) (left_set m)) m)) with (held_r m).
      destruct (drop_elements dtor w1 (held_r m)) as [w2 ok2] eqn:D2.
      apply elements_blame in D2 as (u2 & r2 & E2 & L2 & A2 & T2 & F2).
      destruct T1 as [T1 N1]; auto. rewrite T1, app_nil_r in E1. rewrite <- E1 in L1, A1, N1.
      rewrite L1, <- app_assoc in L2. rewrite A1 in *.
      destruct ok2.
      + split; [apply EMPTY; auto|]. eexists. split; [exact L2|]. destruct T2 as [T2 N2]; auto.
        rewrite panics_app, N1, N2. rewrite T2, app_nil_r in E2. rewrite <- E2. auto.
      + split.
        * eexists. exists r2. split; [exact L2|]. left. split.
          { destruct F2 as (t & I & Q); auto. apply in_map_iff in I as (y & <- & _). exists (value (snd y)).
            apply blamed_app; auto. }
          split; [apply EMPTY; auto|]. rewrite <- app_assoc, <- E2. auto.
        * eexists. split; [reflexivity|]. apply EMPTY; auto.
    - split.
      + exists u1, r1. split; [auto|]. right. split.
        { destruct F1 as (t & I & Q); auto. apply in_map_iff in I as (y & <- & _). exists (value (snd y)). auto. }
        rewrite <- E1. split; [auto|].
        rewrite !filter_map_comm. apply (wc_wrecked_r E OK s c); auto.
        assert (NN : ~ In Neither (map snd Z)) by apply (rep_bij _ _ _ _ _ H).
        destruct (rep_bij _ _ _ _ _ H) as (B1 & B2 & _).
        assert (PR : Permutation (flat_map (slotR s) Z)
          (flat_map (slotR s) (filter (fun z => is_sr (snd z)) Z ++ filter (fun z => is_both (snd z)) Z))).
        { rewrite flat_map_app. clear. induction Z as [|z Z IH]; auto. cbn [flat_map filter].
          destruct (snd z) as [|a|b|a b] eqn:Q; cbn [is_sr is_both flat_map].
          - rewrite (slotR_none E s z) by (rewrite Q; auto). auto.
          - rewrite (slotR_none E s z) by (rewrite Q; auto). auto.
          - rewrite (slotR_some E s z b) by (rewrite Q; auto). simpl. constructor. auto.
          - rewrite (slotR_some E s z b) by (rewrite Q; auto). simpl.
            rewrite <- Permutation_middle. constructor. auto. }
        assert (ND := rep_ids _ _ _ _ _ H).
        assert (NDf : forall p, NoDup (map fst (filter p Z))).
        { intros p. clear - ND. induction Z as [|z Z IH]; simpl; [constructor|].
          inversion ND; subst. destruct (p z); simpl; auto. constructor; auto.
          intros I. apply in_map_iff in I as (x & Q & I). apply filter_In in I as [I _].
          apply H1. rewrite <- Q. apply in_map. auto. }
        split.
        * split; try (intros ? ? []; fail); try (intros ? []; fail); rewrite ?app_nil_r; simpl; auto.
          -- clear. induction Z as [|z Z IH]; auto. cbn [filter]. destruct (snd z) as [|a|b|a b] eqn:Q; auto.
             cbn [is_sr flat_map]. rewrite <- IH, (slotL_none E s z) by (rewrite Q; auto). auto.
          -- rewrite (rep_r _ _ _ _ _ H). exact PR.
          -- intros z v Hz Hv EQ. apply filter_In in Hz as [Hz Iz]. apply filter_In in Hv as [Hv Iv].
             assert (z = v).
             { clear - ND Hz Hv EQ. induction Z as [|x Z IH]; [easy|]. inversion ND as [|? ? N1 N2]; subst.
               destruct Hz as [->|Hz], Hv as [->|Hv]; auto.
               - exfalso. apply N1. rewrite EQ. apply in_map; auto.
               - exfalso. apply N1. rewrite <- EQ. apply in_map; auto. }
             subst v. destruct (snd z); simpl in *; discriminate.
          -- intros v Hv. apply filter_In in Hv as [Hv Iv]. destruct (snd v); simpl in *; try discriminate. eauto.
          -- assert (lefts (map snd (filter (fun z => is_sr (snd z)) Z)) = []) as ->; [|apply distinct_nil].
             clear. induction Z as [|z Z IH]; auto. cbn [filter]. destruct (snd z) eqn:Q; auto.
             cbn [is_sr map]. unfold lefts in *. cbn [flat_map]. rewrite Q, IH. auto.
          -- eapply (distinct_perm _ ER); [|exact B2]. rewrite <- !(slots_rights E s). apply Permutation_map. auto.
          -- intros I. apply NN. apply in_map_iff in I as (z & Q & I). apply filter_In in I as [I _].
             rewrite <- Q. apply in_map. auto.
        * auto.
        * intros z Hz. apply filter_In in Hz as [Hz _]. apply (rep_lt _ _ _ _ _ H). auto.
      + eexists. split; [reflexivity|]. apply EMPTY; auto.
  Qed.

  (* destructors that do not panic: the calls are those of PartialCycleMap.v *)
  Definition forget {A} (r : dres (A * tomb (L + R) X) unit) : option (res A unit) :=
    match r with
    | DRet (a, _) u => Some (Ret a u)
    | DPanic (a, _) => Some (Panic a)
    | DAbort => None
    end.
  Theorem C111_peaceful : peaceful dtor -> forall m w,
    forget (clear_d E dtor m w) = Some (clear E m) /\
    (forall xs, forget (extend_d E dtor xs m w) = Some (extend E xs m)) /\
    (forall xs, forget (extend_d E dtor (map (fun p => SomeBoth (fst p) (snd p)) xs) m w) = Some (extend_pairs E xs m)) /\
    (forall Y (f : Y -> entry -> Y * verdict) y,
       forget (retain_d E dtor f m y w) = Some (retain E f (m, y))) /\
    (forall Y (f : Y -> L * R -> Y * verdict) y,
       forget (retain_paired_d E dtor f m y w) = Some (retain_paired E f (m, y))) /\
    (forall Y (f : Y -> entry -> Y * verdict) y,
       forget (retain_unpaired_d E dtor f m y w) = Some (retain_unpaired E f (m, y))) /\
    (forall Y (f : Y -> entry -> Y * verdict) d y,
       match df_drop E f (d, y) with
       | Ret st u => forget (df_drop_d E dtor f false (d, y) w) = Some (Ret st u)
       | Panic st => forget (df_drop_d E dtor f false (d, y) w) = Some (Panic st) \/
                     df_drop_d E dtor f false (d, y) w = DAbort        (* out of fuel in both *)
       end) /\
    (forall leak d,
       match drain_drop E d with
       | Ret st u => forget (drain_drop_d E dtor leak false d w) = Some (Ret st u)
       | Panic st => forget (drain_drop_d E dtor leak false d w) = Some (Panic st) \/
                     drain_drop_d E dtor leak false d w = DAbort       (* out of fuel in both *)
       end) /\
    snd (map_drop dtor m w) = Dropped.
  Proof.
    intros PF m w.
    assert (DE : forall ts v, exists v', drop_elements dtor v ts = (v', true)).
    { intros ts v. assert (Q := peaceful_elements dtor PF ts v).
      destruct (drop_elements dtor v ts) as [v' ok]. simpl in Q. subst. eauto. }
    assert (GL : forall ts v, exists v', glue dtor false v ts = (v', Dropped)).
    { intros ts v. assert (Q := peaceful_glue dtor PF ts v).
      destruct (glue dtor false v ts) as [v' ok]. simpl in Q. subst. eauto. }
    assert (ONE : forall t, forall m, match drop_one_v E t m with
      | Ret m' _ => drop_one E t m = Ret m' tt | Panic m' => drop_one E t m = Panic m' end).
    { intros [[[a|] [b|]] i] m0; unfold drop_one_v, drop_one, bind, ret, panic; auto.
      - destruct (remove_via_hashes_and_id E a b i m0); auto.
      - destruct (left_remove_entry E a (just_id i) m0); auto.
      - destruct (right_remove_entry E b (just_id i) m0); auto. }
    assert (ALL : forall td m w, forget (drop_all_d E dtor td m w) = Some (drop_all E td m)).
    { induction td as [|t td IH]; intros m0 w0; auto. cbn [drop_all_d drop_all]. unfold bind.
      specialize (ONE t m0). destruct (drop_one_v E t m0) as [m1 ts|m1]; rewrite ONE; auto.
      destruct (GL ts w0) as [w1 ->]. auto. }
    assert (RET : forall Y A I (f : Y -> A -> Y * verdict) next key fuel (it : I) y,
      forget (retain_with_d E dtor f next key fuel it m y w) =
      Some (retain_with E f next key fuel it (m, y))).
    { intros. unfold retain_with_d, retain_with. cbn [fst snd].
      destruct (retain_scan f next key fuel it y) as [y' td|y']; auto.
      specialize (ALL td m w). destruct (drop_all_d E dtor td m w) as [[m1 w1] u|[m1 w1]|]; simpl in ALL; try discriminate;
        injection ALL as <-; try destruct u; auto. }
    assert (EXT : forall xs m w, forget (extend_d E dtor xs m w) = Some (extend E xs m)).
    { induction xs as [|e xs IH]; intros m0 w0; auto. cbn [extend_d extend]. unfold insert_any, bind, ret.
      destruct e as [|l|r|l r].
      - destruct (GL [] w0) as [w1 ->]. auto.
      - destruct (insert_left E l m0) as [m1 o|m1]; auto. destruct (GL (op_items o) w0) as [w1 ->]. auto.
      - destruct (insert_right E r m0) as [m1 o|m1]; auto. destruct (GL (op_items o) w0) as [w1 ->]. auto.
      - destruct (insert E l r m0) as [m1 o|m1]; auto.
        destruct (GL (op_items (fst o) ++ op_items (snd o)) w0) as [w1 ->]. auto. }
    split; [|split; [|split; [|split; [|split; [|split; [|split; [|split]]]]]]]; auto.
    - unfold clear_d. destruct (DE (held_l m) w) as [w1 ->].
      destruct (DE (held_r (set_left (t_clear (lo E) (left_set m)) m)) w1) as [w2 ->]. auto.
    - intros xs. rewrite EXT. f_equal. clear. revert m. induction xs as [|[l r] xs IH]; intros m; auto.
      cbn [map fst snd extend extend_pairs]. unfold bind. destruct (insert E l r m) as [m1 o|m1]; auto.
    - intros Y f y. apply RET.
    - intros Y f y. apply RET.
    - intros Y f y. apply RET.
    - intros Y f d y. unfold df_drop, df_drop_d. generalize (t_len (df_left (fst (d, y))) + t_len (df_right (fst (d, y))))%nat.
      intros n. generalize (d, y). clear d y RET. revert w. induction n; intros w st; cbn [df_drop_fuel df_drop_d_fuel].
      + destruct (df_next E f st) as [st' [p|]|st']; auto.
      + destruct (df_next E f st) as [st' [p|]|st']; auto.
        destruct (GL (op_items p) w) as [w1 ->]. apply IHn.
    - intros leak d. unfold drain_drop, drain_drop_d. generalize (Datatypes.S (length (di_left d))). intros n.
      assert (NX : forall d w, match drain_next E d with
        | Ret d' o => exists w', drain_next_d E dtor leak d w = DRet (d', w') o
        | Panic d' => exists w', drain_next_d E dtor leak d w = DPanic (d', w') end).
      { intros d0 v. unfold drain_next_d. destruct d0 as [[|x l] r]; cbn [di_left].
        - unfold drain_next. cbn [di_left di_right]. destruct (slots r) as [|[h rp] rest]; eauto.
          destruct (DE (map (fun x => inr (value (snd x))) rest) v) as [v' ->]. eauto.
        - destruct (drain_next E (Drain (x :: l) r)); eauto. }
      clear RET. revert w d. induction n; intros w d; cbn [drain_drop_fuel drain_drop_d_fuel]; specialize (NX d w);
        destruct (drain_next E d) as [d' [e|]|d']; destruct NX as [w' ->]; auto.
      destruct (GL (op_items e) w') as [w1 ->]. apply IHn.
    - unfold map_drop. destruct (DE (held_l m) w) as [w1 ->]. destruct (DE (held_r m) w1) as [w2 ->]. auto.
  Qed.
End Proofs.

(* ---- cases ---- [grumpy ks]: Drop panics for the items with these keys *)
Notation grumpy := CycleMapDrop.grumpy.
Notation w0 := CycleMapDrop.w0.
(* takes the pairs with left items up to 4 and the unpaired left items up to 2 *)
Definition lowkeys : unit -> optional_pair item item -> unit * verdict :=
  fun _ e => (tt, Some (match e with
                        | SomeBoth l r => fst l <=? 4
                        | SomeLeft l => fst l <=? 2
                        | SomeRight _ | Neither => false
                        end)).
Definition low_pairs : unit -> item * item -> unit * verdict := fun _ p => (tt, Some (fst (fst p) <=? 4)).
Ltac contents := do 2 eexists; split; [vm_compute; reflexivity|split; vm_compute; reflexivity].

Example C111_cases :
  reachable env_collide 20 pm1 /\ contents env_collide pm1 pm1_entries /\
  (* drain_filter: 30 panics, everything else is taken out and dropped all the same *)
  (exists d, df_drop_d env_collide (grumpy [30]) lowkeys false (drain_filter pm1, tt) w0 =
     DPanic (d, tt, (5%nat, [inl (it 3); inr (it 30); inl (it 1); inr (it 20); inl (it 2)])) /\
     contents env_collide (df_end pm1 d)
       [SomeBoth (it 5) (it 50); SomeLeft (it 4); SomeRight (it 10); SomeRight (it 40); SomeRight (it 60)]) /\
  df_drop_d env_collide (grumpy [30; 2]) lowkeys false (drain_filter pm1, tt) w0 = DAbort /\
  (* retain stops there; (1,20) and 2 are still in the map *)
  (exists m', retain_d env_collide (grumpy [30]) lowkeys pm1 tt w0 =
      DPanic (m', tt, (2%nat, [inl (it 3); inr (it 30)])) /\
     contents env_collide m' [SomeBoth (it 5) (it 50); SomeBoth (it 1) (it 20); SomeLeft (it 2); SomeLeft (it 4);
                              SomeRight (it 10); SomeRight (it 40); SomeRight (it 60)]) /\
  (exists m', retain_paired_d env_collide (grumpy [20]) low_pairs pm1 tt w0 =
      DPanic (m', tt, (4%nat, [inl (it 3); inr (it 30); inl (it 1); inr (it 20)])) /\
     contents env_collide m' [SomeBoth (it 5) (it 50); SomeLeft (it 2); SomeLeft (it 4);
                              SomeRight (it 10); SomeRight (it 40); SomeRight (it 60)]) /\
  (exists m', retain_unpaired_d env_collide (grumpy [2]) lowkeys pm1 tt w0 =
      DPanic (m', tt, (1%nat, [inl (it 2)])) /\
     contents env_collide m' [SomeBoth (it 5) (it 50); SomeBoth (it 3) (it 30); SomeBoth (it 1) (it 20);
       SomeLeft (it 4); SomeRight (it 10); SomeRight (it 40); SomeRight (it 60)]) /\
  (* extend: inserting (1,80) displaces (1,20), whose Drop panics *)
  (exists m', extend_d env_collide (grumpy [20]) [SomeLeft (it 7); SomeBoth (it 1) (it 80); SomeRight (it 90)] pm1 w0 =
      DPanic (m', (2%nat, [inl (it 1); inr (it 20)])) /\
     are_paired env_collide m' (it 1) (it 80) = true /\ contains_left env_collide m' (it 7) = true /\
     contains_right env_collide m' (it 90) = false) /\
  (* drain: 3 panics, everything is dropped; 40 panics: 60 never is, and 10 depends on [leak] *)
  (exists d, drain_drop_d env_collide (grumpy [3]) true false (drain pm1) w0 =
     DPanic (d, (11%nat, [inl (it 5); inr (it 50); inl (it 3); inr (it 30); inl (it 1); inr (it 20);
                          inl (it 2); inl (it 4); inr (it 40); inr (it 60); inr (it 10)]))) /\
  (exists d, drain_drop_d env_collide (grumpy [40]) true false (drain pm1) w0 =
     DPanic (d, (9%nat, [inl (it 5); inr (it 50); inl (it 3); inr (it 30); inl (it 1); inr (it 20);
                          inl (it 2); inl (it 4); inr (it 40)]))) /\
  (exists d, drain_drop_d env_collide (grumpy [40]) false false (drain pm1) w0 =
     DPanic (d, (10%nat, [inl (it 5); inr (it 50); inl (it 3); inr (it 30); inl (it 1); inr (it 20);
                          inl (it 2); inl (it 4); inr (it 40); inr (it 10)]))) /\
  drain_drop_d env_collide (grumpy [3; 40]) true false (drain pm1) w0 = DAbort /\
  snd (map_drop (grumpy [1]) pm1 w0) = Unwinding /\ snd (map_drop (grumpy [1; 20]) pm1 w0) = Aborting.
Proof.
  split; [apply pm1_reachable; reflexivity|]. split; [apply pm1_contents|].
  split; [eexists; split; [vm_compute; reflexivity|contents]|].
  split; [vm_compute; reflexivity|].
  split; [eexists; split; [vm_compute; reflexivity|contents]|].
  split; [eexists; split; [vm_compute; reflexivity|contents]|].
  split; [eexists; split; [vm_compute; reflexivity|contents]|].
  split; [eexists; split; [vm_compute; reflexivity|split; [|split]; vm_compute; reflexivity]|].
  do 3 (split; [eexists; vm_compute; reflexivity|]).
  split; [vm_compute; reflexivity|]. split; vm_compute; reflexivity.
Qed.
(* the closure panics in the third call; the destructor takes the rest it is answered true *)
Definition pairs_panic_third : nat -> optional_pair item item -> nat * verdict :=
  fun n e => (Datatypes.S n, if Nat.eqb n 2 then None else Some (match e with SomeLeft _ => true | _ => false end)).
Example C111_closure_panics_case : exists d y1 d' y2,
  df_nexts env_collide pairs_panic_third 1 (drain_filter pm1, 0%nat) = Panic (d, y1) /\
  df_drop_d env_collide (grumpy []) pairs_panic_third true (d, y1) w0 =
    DPanic (d', y2, (2%nat, [inl (it 2); inl (it 4)])) /\
  df_drop_d env_collide (grumpy [2]) pairs_panic_third true (d, y1) w0 = DAbort.
Proof. do 4 eexists. split; [vm_compute; reflexivity|]. split; vm_compute; reflexivity. Qed.

(* The full claim of C112 (after a clear() cut short by a panicking Drop the map is sound: a
   right item that counts as paired has a partner, removing it does not panic) is false. *)
Theorem C112_clear_refuted : exists m' w',
  reachable env_collide 2 pm1 /\
  clear_d env_collide (grumpy [3]) pm1 w0 = DPanic (m', w') /\
  len_left m' = 0%nat /\ is_right_paired env_collide m' (it 20) = true /\
  get_left env_collide m' (it 20) = None /\
  (exists m'', remove_via_right env_collide (it 20) m' = Panic m'') /\
  (exists m'', insert_right env_collide (it 20) m' = Panic m'').
Proof.
  do 2 eexists. split; [apply pm1_reachable; reflexivity|].
  split; [vm_compute; reflexivity|]. do 3 (split; [vm_compute; reflexivity|]).
  split; eexists; vm_compute; reflexivity.
Qed.
Example C112_cases :
  (exists m', clear_d env_collide (grumpy [3]) pm1 w0 = DPanic (m', (2%nat, [inl (it 5); inl (it 3)])) /\
    len_right m' = 6%nat) /\
  (exists m', clear_d env_collide (grumpy [30]) pm1 w0 =
     DPanic (m', (7%nat, [inl (it 5); inl (it 3); inl (it 1); inl (it 2); inl (it 4); inr (it 50); inr (it 30)])) /\
    len_left m' = 0%nat /\ len_right m' = 0%nat) /\
  (exists m' w', clear_d env_collide (grumpy []) pm1 w0 = DRet (m', w') tt /\ fst w' = 11%nat).
Proof.
  split; [eexists; split; vm_compute; reflexivity|].
  split; [eexists; split; [vm_compute; reflexivity|]; split; vm_compute; reflexivity|].
  do 2 eexists. split; vm_compute; reflexivity.
Qed.

Print Assumptions C111_drain_filter.
Print Assumptions C111_closure_panics.
Print Assumptions C111_retain.
Print Assumptions C111_retain_paired.
Print Assumptions C111_retain_unpaired.
Print Assumptions C111_extend.
Print Assumptions C111_map_drop.
Print Assumptions C111_drain.
Print Assumptions C111_peaceful.
Print Assumptions C112_clear_partial.
Print Assumptions C112_clear_refuted.
