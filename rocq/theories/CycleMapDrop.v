(* CycleMap with items whose Drop runs user code and may panic: the calls that drop items.

   [dtor] is Drop of the items (inl: left items, inr: right items), see Drops.  Items that the
   caller receives are dropped by the caller, not here.  Items dropped because insert itself
   panics are not recorded (insert does not panic on the maps considered, C12). *)
From Coq Require Import List NArith Lia Bool Permutation PeanoNat.
From Verif Require Import Closures Prelude RawTable Optionals CycleMap ListFacts TableFacts CycleMapSpec
  CycleMapHistory CycleMapProofs CycleMapProofs2 CycleMapProofs3 CycleMapHistoryProofs Concrete
  CycleMapProps CycleMapProps2 CycleMapDefects Drops.
Import ListNotations.
Open Scope N_scope.

Section Model.
  Context {L R S X : Type}.
  Variable E : env L R S.
  Variable dtor : X -> L + R -> X * bool.
  Notation map := (cmap L R S).
  Notation tb := (tomb (L + R) X).

  Definition lefts (m : map) : list (L + R) := List.map (fun x => inl (value (snd x))) (slots (left_set m)).
  Definition rights (m : map) : list (L + R) := List.map (fun x => inr (value (snd x))) (slots (right_set m)).
  Definition pair_items (p : L * R) : list (L + R) := [inl (fst p); inr (snd p)].
  (* the items inside the value insert returns *)
  Definition report_items (d : insert_optional L R) : list (L + R) :=
    match d with
    | Neither => []
    | SomeLeft p | SomeRight p => pair_items p
    | SomeBoth p q => pair_items p ++ pair_items q
    end.

  (* src/cycle_map.rs:1094-1097; RawTable::clear empties the table also when it panics *)
  Definition clear_d (m : map) (w : tb) : dres (map * tb) unit :=
    let m1 := set_left (t_clear (lo E) (left_set m)) m in
    match drop_elements dtor w (lefts m) with
    | (w1, false) => DPanic (m1, w1)
    | (w1, true) =>
        let m2 := set_right (t_clear (lo E) (right_set m1)) m1 in
        match drop_elements dtor w1 (rights m1) with
        | (w2, false) => DPanic (m2, w2)
        | (w2, true) => DRet (m2, w2) tt
        end
    end.

  (* drop of the map: fields left_set, right_set (src/cycle_map.rs:88-93) *)
  Definition map_drop (m : map) (w : tb) : tb * dropping :=
    let (w1, ok1) := drop_elements dtor w (lefts m) in
    let (w2, ok2) := drop_elements dtor w1 (rights m) in
    (w2, if ok1 then if ok2 then Dropped else Unwinding else if ok2 then Unwinding else Aborting).

  (* src/cycle_map.rs:1165-1169: what insert reports is dropped at the end of the statement *)
  Fixpoint extend_d (xs : list (L * R)) (m : map) (w : tb) : dres (map * tb) unit :=
    match xs with
    | [] => DRet (m, w) tt
    | (l, r) :: xs' =>
        match insert E l r m with
        | Panic m' => DPanic (m', w)
        | Ret m' d =>
            match glue dtor false w (report_items d) with
            | (w', Dropped) => extend_d xs' m' w'
            | (w', Unwinding) => DPanic (m', w')
            | (_, Aborting) => DAbort
            end
        end
    end.

  (* src/cycle_map.rs:874-876 *)
  Fixpoint drop_all_d (l : list (N * N * N)) (m : map) (w : tb) : dres (map * tb) unit :=
    match l with
    | [] => DRet (m, w) tt
    | (l_hash, r_hash, id) :: t =>
        match remove_via_hashes_and_id E l_hash r_hash id m with
        | Panic m' => DPanic (m', w)
        | Ret m' o =>
            match glue dtor false w (match o with Some p => pair_items p | None => [] end) with
            | (w', Dropped) => drop_all_d t m' w'
            | (w', Unwinding) => DPanic (m', w')
            | (_, Aborting) => DAbort
            end
        end
    end.

  Section Closure.
    Context {Y : Type}.
    Variable f : Y -> L -> R -> Y * verdict.

    (* src/cycle_map.rs:861-877 *)
    Definition retain_d (m : map) (y : Y) (w : tb) : dres (map * Y * tb) unit :=
      match retain_scan E f m (length (iter m)) (iter m) y with
      | Panic y' => DPanic (m, y', w)
      | Ret y' to_drop =>
          match drop_all_d to_drop m w with
          | DRet (m', w') _ => DRet (m', y', w') tt
          | DPanic (m', w') => DPanic (m', y', w')
          | DAbort => DAbort
          end
      end.

    (* src/cycle_map.rs:1368-1382: Drop of DrainFilterIter.  If dropping an item panics the
       guard (ConsumeAllOnDrop) goes on with the rest while unwinding.  [unw]: the thread is
       unwinding already. *)
    Fixpoint df_drop_d_fuel (fuel : nat) (unw : bool) (st : df_inner * Y) (w : tb)
        : dres (df_inner * Y * tb) unit :=
      match df_next E f st with
      | Panic st' => if unw then DAbort else DPanic (st', w)
      | Ret st' None => if unw then DPanic (st', w) else DRet (st', w) tt
      | Ret st' (Some p) =>
          match fuel with
          | O => DAbort                          (* out of fuel *)
          | Datatypes.S fuel' =>
              match glue dtor unw w (pair_items p) with
              | (w', Dropped) => df_drop_d_fuel fuel' false st' w'
              | (w', Unwinding) => df_drop_d_fuel fuel' true st' w'
              | (_, Aborting) => DAbort
              end
          end
      end.
    Definition df_drop_d (unw : bool) (st : df_inner * Y) (w : tb) : dres (df_inner * Y * tb) unit :=
      df_drop_d_fuel (df_remaining (fst st)) unw st w.
  End Closure.

  (* DrainIter goes out of scope: RawDrain drops the left items not yielded; if that panics
     its table is not put back, left_set is a new table *)
  Definition drain_drop_d (m : map) (d : drain_t) (w : tb) : dres (map * tb) unit :=
    match drop_elements dtor w (List.map (fun x => inl (value (snd x))) (di_left d)) with
    | (w', true) => DRet (drain_end E m d, w') tt
    | (w', false) => DPanic (CM (hash_builder m) 0 (t_with_capacity (lo E) 0) (di_right d), w')
    end.
End Model.

Section Proofs.
  Context {L R S X : Type} (E : env L R S) (OK : lawful E).
  Variable dtor : X -> L + R -> X * bool.
  Implicit Types (m : cmap L R S) (l : L) (r : R) (P : list (L * R)) (w : tomb (L + R) X).
  Notation Rep := (Rep E).
  Notation Repr := (Repr E).
  Notation behaves_as := (behaves_as E).
  Let EL := eqL_equiv _ OK.
  Let ER := eqR_equiv _ OK.
  Let LO := lo_ok _ OK.

  (* ---- drain_filter ---- *)
  Lemma df_drop_d_fuel_ok : forall {Y} (f : Y -> L -> R -> Y * verdict) n s c m d kept rest y unw w,
    DFA E s c m d kept rest -> (length rest <= n)%nat ->
    let '(y', taken, others, pn) := s_filter (on_pair f) y rest in
    let '(w', st) := glue dtor unw w (flat_map pair_items taken) in
    exists d', Repr s c (df_end m d') (kept ++ others) /\
      df_drop_d_fuel E dtor f n unw (d, y) w =
        match st, pn with
        | Dropped, false => DRet (d', y', w') tt
        | Dropped, true | Unwinding, false => DPanic (d', y', w')
        | _, _ => DAbort
        end.
  Proof.
    intros Y f. induction n; intros s c m d kept rest y unw w H Hn.
    - destruct rest; [|simpl in Hn; lia]. simpl.
      assert (Q := dfa_next E OK f s c m d kept [] y H). simpl in Q. destruct Q as (d' & Hd & E1).
      exists d'. rewrite E1. split; [eapply (dfa_repr E) in Hd; rewrite !app_nil_r in *; auto|].
      destruct unw; auto.
    - assert (Q := dfa_next E OK f s c m d kept rest y H).
      assert (W := s_next_filter (on_pair f) rest y).
      destruct (s_next (on_pair f) y rest) as [[[y' k] rest'] [p| |]].
      + destruct Q as (d' & Hd & E1). destruct W as [-> WL]. cbn [df_drop_d_fuel]. rewrite E1.
        assert (IH := fun u v => IHn s c m d' _ _ y' u v Hd ltac:(lia)).
        destruct (s_filter (on_pair f) y' rest') as [[[y2 taken] others] pn].
        cbn [flat_map]. rewrite glue_app.
        destruct (glue dtor unw w (pair_items p)) as [w1 [| |]].
        * specialize (IH false w1). destruct (glue dtor false w1 _) as [w' st].
          destruct IH as (d2 & H2 & E2). exists d2. rewrite app_assoc. auto.
        * specialize (IH true w1). destruct (glue dtor true w1 _) as [w' st].
          destruct IH as (d2 & H2 & E2). exists d2. rewrite app_assoc. auto.
        * specialize (IH false w1). destruct (glue dtor false w1 _) as [w' st].
          destruct IH as (d2 & H2 & E2). exists d2. rewrite app_assoc. auto.
      + destruct Q as (d' & Hd & E1). destruct W as [-> ->]. cbn [df_drop_d_fuel flat_map glue]. rewrite E1.
        exists d'. split; [eapply (dfa_repr E) in Hd; rewrite app_nil_r in Hd; auto|].
        destruct unw; auto.
      + destruct Q as (d' & Hd & E1). rewrite W. cbn [df_drop_d_fuel flat_map glue]. rewrite E1.
        exists d'. split; [eapply (dfa_repr E) in Hd; rewrite <- app_assoc in Hd; auto|].
        destruct unw; auto.
  Qed.
  Lemma df_drop_d_ok : forall {Y} (f : Y -> L -> R -> Y * verdict) s c m d kept rest y unw w,
    DFA E s c m d kept rest ->
    let '(y', taken, others, pn) := s_filter (on_pair f) y rest in
    let '(w', st) := glue dtor unw w (flat_map pair_items taken) in
    exists d', Repr s c (df_end m d') (kept ++ others) /\
      df_drop_d E dtor f unw (d, y) w =
        match st, pn with
        | Dropped, false => DRet (d', y', w') tt
        | Dropped, true | Unwinding, false => DPanic (d', y', w')
        | _, _ => DAbort
        end.
  Proof.
    intros. unfold df_drop_d. apply df_drop_d_fuel_ok; auto.
    destruct H as (K & T & H & -> & ->). simpl fst. erewrite (dfr_remaining E) by eauto.
    rewrite map_length; auto.
  Qed.

  (* ---- retain ---- *)
  Lemma drop_all_d_ok : forall s c D K m w, Rep s c m (D ++ K) ->
    let '(w', k, st) := drop_seq dtor w (map (fun z => pair_items (zpair z)) D) in
    exists m', Rep s c m' (skipn k D ++ K) /\
      drop_all_d E dtor (map (drop_key E s) D) m w =
        match st with
        | Dropped => DRet (m', w') tt
        | Unwinding => DPanic (m', w')
        | Aborting => DAbort
        end.
  Proof.
    induction D as [|d D IH]; intros K m w H.
    - exists m; split; auto.
    - simpl in H. destruct (remove_via_hashes_rep E OK s c m d (D ++ K) H) as (m1 & E1 & H1).
      specialize (IH K m1). cbn [map drop_seq drop_all_d drop_key]. rewrite E1.
      destruct (glue dtor false w (pair_items (zpair d))) as [w1 [| |]].
      + specialize (IH w1 H1). destruct (drop_seq dtor w1 _) as [[w2 n] st].
        destruct IH as (m2 & H2 & E2). exists m2. split; auto.
      + exists m1. split; auto.
      + exists m1. split; auto.
  Qed.

  Definition retain_result {Y} (m' : cmap L R S) (y : Y) w st : dres (cmap L R S * Y * tomb (L + R) X) unit :=
    match st with
    | Dropped => DRet (m', y, w) tt
    | Unwinding => DPanic (m', y, w)
    | Aborting => DAbort
    end.

  Lemma retain_d_ok : forall {Y} (f : Y -> L -> R -> Y * verdict) s c m P y w, Repr s c m P ->
    match s_filter (on_pair f) y (order_pairs E m (iter m)) with
    | (y', yes, no, false) =>
        let '(w', k, st) := drop_seq dtor w (map pair_items no) in
        exists m', retain_d E dtor f m y w = retain_result m' y' w' st /\ Repr s c m' (skipn k no ++ yes)
    | (y', _, _, true) => retain_d E dtor f m y w = DPanic (m, y', w)
    end.
  Proof.
    intros Y f s c m P y w H. destruct (repr_ordered E OK _ _ _ _ H) as (Z & HY & SL & OP & PY).
    rewrite OP, s_filter_map. unfold retain_d, iter. rewrite SL, map_length.
    rewrite (retain_scan_ok E OK f s c m Z Z _ y HY (incl_refl _)) by auto.
    change (fun (x : Y) (u : N * L * R) => on_pair f x (zpair u))
      with (fun (x : Y) (z : N * L * R) => f x (zl z) (zr z)).
    destruct (s_filter _ y Z) as [[[y2 yes] no] [|]] eqn:Q; auto.
    apply s_filter_perm in Q.
    assert (D := drop_all_d_ok s c no yes m w). rewrite map_map.
    destruct (drop_seq dtor w _) as [[w' k] st].
    destruct D as (m' & H1 & E1).
    { eapply (rep_perm E OK); [|exact HY]. etransitivity; [exact Q|]. apply Permutation_app_comm. }
    rewrite E1. exists m'; split; [destruct st; auto|]. exists (skipn k no ++ yes); split; auto.
    rewrite map_app, skipn_map. auto.
  Qed.

  (* ---- extend ---- *)
  (* what insert reports when the pairs xs are inserted one after the other *)
  Fixpoint reports P (xs : list (L * R)) : list (insert_optional L R) :=
    match xs with
    | [] => []
    | (l, r) :: xs' => s_insert_out (eqL E) (eqR E) P l r :: reports (s_insert (eqL E) (eqR E) P l r) xs'
    end.

  Lemma extend_d_ok : forall xs s c m P w, Repr s c m P -> c + N.of_nat (length xs) < two64 ->
    let '(w', k, st) := drop_seq dtor w (map report_items (reports P xs)) in
    exists m' c', Repr s c' m' (s_extend E P (firstn k xs)) /\ c' <= c + N.of_nat (length xs) /\
      extend_d E dtor xs m w =
        match st with
        | Dropped => DRet (m', w') tt
        | Unwinding => DPanic (m', w')
        | Aborting => DAbort
        end.
  Proof.
    induction xs as [|[l r] xs IH]; intros s c m P w H Hc.
    - simpl. exists m, c. split; auto. split; auto. lia.
    - cbn [length] in *. destruct (insert_ok E OK s c m P l r H) as (m1 & E1 & H1); [lia|].
      specialize (IH s (c + 1) m1 (s_insert (eqL E) (eqR E) P l r)). cbn [reports map drop_seq extend_d]. rewrite E1.
      destruct (glue dtor false w (report_items _)) as [w1 [| |]].
      + specialize (IH w1 H1 ltac:(lia)). destruct (drop_seq dtor w1 _) as [[w2 n] st].
        destruct IH as (m2 & c2 & H2 & C2 & E2). exists m2, c2. split; [exact H2|]. split; [lia|]. auto.
      + exists m1, (c + 1). split; [exact H1|]. split; [lia|]. auto.
      + exists m1, (c + 1). split; [exact H1|]. split; [lia|]. auto.
  Qed.

  (* the items of the pairs displaced by each of the insertions *)
  Fixpoint shed P (xs : list (L * R)) : list (list (L + R)) :=
    match xs with
    | [] => []
    | (l, r) :: xs' =>
        let one o := match o with Some p => both_of p | None => [] end in
        (one (find_l (eqL E) P l) ++ one (find_r (eqR E) (del_l (eqL E) P l) r))
          :: shed (s_insert (eqL E) (eqR E) P l r) xs'
    end.
  Lemma shed_reports : forall xs P, shed P xs = map report_items (reports P xs).
  Proof.
    induction xs as [|[l r] xs IH]; intros P; auto. cbn [shed reports map]. rewrite IH. f_equal.
    unfold s_insert_out. destruct (find_l _ _ _), (find_r _ _ _); reflexivity.
  Qed.

  Ltac start H :=
    let s := fresh "s" in let c := fresh "c" in let P := fresh "P" in
    apply (reachable_view E OK) in H as (s & c & P & ?V & H & ?B).

  (* ---- C109 ---- drain_filter: n items are taken by the caller, then the iterator is dropped.
     [glue dtor false w ts]: the items ts are dropped one after the other, once each, whether or
     not one of their destructors panics. *)
  Theorem C109_drain_filter : forall {Y} (f : Y -> L -> R -> Y * verdict) y w room m n,
    reachable E room m ->
    exists P, contents E m P /\
    forall y' taken others, s_filter (uncurried f) y P = (y', taken, others, false) ->
      exists d y1 d' w' st,
        df_nexts E f n (drain_filter m, y) =
          Ret (d, y1) (firstn n (map Some taken) ++ repeat None (n - length taken)) /\
        glue dtor false w (flat_map both_of (skipn n taken)) = (w', st) /\
        df_drop_d E dtor f false (d, y1) w =
          match st with
          | Dropped => DRet (d', y', w') tt
          | Unwinding => DPanic (d', y', w')
          | Aborting => DAbort
          end /\
        (* panic or not, the map afterwards holds the pairs refused by the closure *)
        behaves_as room (df_end m d') others /\
        (* and the pairs taken out have been dropped, once each *)
        (st <> Aborting -> snd w' = snd w ++ flat_map both_of (skipn n taken)).
  Proof.
    change (@both_of L R) with (@pair_items L R).
    intros Y f y w room m n H. start H. exists P. split; auto. intros y' taken others F.
    assert (D := dfa_start E OK s c m P H). rewrite (order_view E OK _ _ _ _ H V) in D.
    assert (W := df_nexts_ok E OK f n s c m _ _ _ y D).
    change (on_pair f) with (uncurried f) in W. rewrite F in W.
    destruct W as (d & y1 & kept' & rest' & D' & W).
    assert (V' := df_drop_d_ok f s c m d kept' rest' y1 false w D').
    change (on_pair f) with (uncurried f) in V'.
    destruct (s_filter (uncurried f) y1 rest') as [[[y2 t1] o1] pn1].
    destruct W as [W _]. destruct W as [W EQ]; auto. injection EQ as -> -> EK ->.
    destruct (glue dtor false w _) as [w' st] eqn:G. destruct V' as (d' & H' & V').
    exists d, y1, d', w', st. split; [auto|]. split; [auto|]. split; [destruct st; exact V'|].
    split; [rewrite EK in H'; simpl in H'; eapply (repr_behaves E OK); eauto|].
    intros NA. apply glue_log in G as (us & vs & E1 & E2 & E3). rewrite E3, app_nil_r in E1 by auto. congruence.
  Qed.

  (* the closure panics in an explicit call of next: the destructor of the iterator runs while
     unwinding, so that a panicking Drop ends the process; otherwise the map is as in C17 *)
  Theorem C109_closure_panics : forall {Y} (f : Y -> L -> R -> Y * verdict) y w room m n,
    reachable E room m ->
    exists P, contents E m P /\
    forall y' taken others, s_filter (uncurried f) y P = (y', taken, others, true) ->
      (length taken < n)%nat ->
      (* [rest]: the pairs not shown to the closure yet; the destructor shows them *)
      exists d y1 before rest y2 taken' others' pn, others = before ++ rest /\
        s_filter (uncurried f) y' rest = (y2, taken', others', pn) /\
        df_nexts E f n (drain_filter m, y) = Panic (d, y1) /\
        match df_drop_d E dtor f true (d, y1) w with
        | DRet _ _ => False
        | DPanic (d', _, w') => pn = false /\ panics_of dtor (fst w) (flat_map both_of taken') = 0%nat /\
            behaves_as room (df_end m d') (s_unwind (uncurried f) y P) /\
            (* what the destructor has taken out has been dropped, once each *)
            snd w' = snd w ++ flat_map both_of taken' /\
            Permutation P (taken ++ taken' ++ s_unwind (uncurried f) y P)
        | DAbort => pn = true \/ (0 < panics_of dtor (fst w) (flat_map both_of taken'))%nat
        end.
  Proof.
    change (@both_of L R) with (@pair_items L R).
    intros Y f y w room m n H. start H. exists P. split; auto. intros y' taken others F LT.
    assert (D := dfa_start E OK s c m P H). rewrite (order_view E OK _ _ _ _ H V) in D.
    assert (W := df_nexts_ok E OK f n s c m _ _ _ y D).
    change (on_pair f) with (uncurried f) in W. rewrite F in W.
    destruct W as (d & y1 & kept' & rest' & D' & W).
    assert (V' := df_drop_d_ok f s c m d kept' rest' y1 true w D').
    change (on_pair f) with (uncurried f) in V'.
    destruct (s_filter (uncurried f) y1 rest') as [[[y2 t1] o1] pn1] eqn:F1.
    destruct W as [_ W]. destruct W as (W & -> & EK & EU); auto.
    exists d, y', kept', rest', y2, t1, o1, pn1. split; [exact (eq_sym EK)|]. split; [auto|]. split; [auto|].
    assert (U := glue_unw dtor (flat_map pair_items t1) w).
    destruct (glue dtor true w _) as [w' st] eqn:G. destruct V' as (d' & H' & V'). rewrite V'.
    apply glue_fate in G as (us & vs & E1 & E2 & _ & GP & E3).
    destruct st; simpl in U; [destruct U| |]; (destruct pn1; auto).
    2: { right. rewrite E1, panics_app. destruct (panics_of dtor (fst w) us); [discriminate GP|lia]. }
    assert (vs = []) by (destruct vs as [|v vs]; [auto|exfalso; assert (Q := E3 ltac:(discriminate)); discriminate Q]).
    subst vs. rewrite app_nil_r in E1. rewrite <- E1 in *.
    split; [auto|]. split; [destruct (panics_of dtor _ _); [auto|discriminate GP]|].
    rewrite EU in H'. split; [eapply (repr_behaves E OK); eauto|]. split; [auto|].
    assert (P1 := s_filter_perm _ _ _ _ _ _ _ F). assert (P2 := s_filter_perm _ _ _ _ _ _ _ F1).
    simpl in EU, EK. etransitivity; [exact P1|]. apply Permutation_app_head. rewrite <- EK.
    rewrite <- EU.
    etransitivity; [apply Permutation_app_head; exact P2|].
    rewrite !app_assoc. apply Permutation_app_tail, Permutation_app_comm.
  Qed.

  (* retain: the pairs refused are taken out and dropped one by one; [k] of them when a Drop
     panics; the others are still in the map, as pairs *)
  Theorem C109_retain : forall {Y} (f : Y -> L -> R -> Y * verdict) y w room m, reachable E room m ->
    exists P, contents E m P /\
    forall y' yes no, s_filter (uncurried f) y P = (y', yes, no, false) ->
      exists m' w' k st,
        drop_seq dtor w (map both_of no) = (w', k, st) /\
        retain_d E dtor f m y w = retain_result m' y' w' st /\
        behaves_as room m' (skipn k no ++ yes) /\
        (st = Dropped -> k = length no) /\ (st <> Dropped -> (0 < k <= length no)%nat) /\
        (st <> Aborting -> snd w' = snd w ++ flat_map both_of (firstn k no)).
  Proof.
    change (@both_of L R) with (@pair_items L R).
    intros Y f y w room m H. start H. exists P. split; auto. intros y' yes no F.
    assert (W := retain_d_ok f s c m P y w H). rewrite (order_view E OK _ _ _ _ H V) in W.
    change (on_pair f) with (uncurried f) in W. rewrite F in W.
    destruct (drop_seq dtor w (map pair_items no)) as [[w' k] st] eqn:DS. destruct W as (m' & W & H').
    exists m', w', k, st. split; [auto|]. split; [auto|]. split; [eapply (repr_behaves E OK); eauto|].
    apply drop_seq_log in DS as (K1 & K2 & K3 & us & rest & E1 & E2 & E3).
    rewrite map_length in K1, K2. split; [auto|]. split; [auto|].
    intros NA. rewrite E3, app_nil_r in E1 by auto. rewrite E2, <- E1, flat_map_concat_map, firstn_map. auto.
  Qed.

  (* extend: what an insertion reports is dropped before the next insertion *)
  Theorem C109_extend : forall xs w m, reachable E (N.of_nat (length xs)) m ->
    exists P m' w' k st, contents E m P /\
      drop_seq dtor w (shed P xs) = (w', k, st) /\
      extend_d E dtor xs m w =
        match st with
        | Dropped => DRet (m', w') tt
        | Unwinding => DPanic (m', w')
        | Aborting => DAbort
        end /\
      behaves_as 0 m' (fold_left (fun P x => s_insert (eqL E) (eqR E) P (fst x) (snd x)) (firstn k xs) P) /\
      (st = Dropped -> k = length xs) /\ (st <> Dropped -> (0 < k <= length xs)%nat) /\
      (st <> Aborting -> snd w' = snd w ++ concat (shed P (firstn k xs))).
  Proof.
    intros xs w m H. start H.
    assert (W := extend_d_ok xs s c m P w H B). rewrite <- shed_reports in W.
    destruct (drop_seq dtor w (shed P xs)) as [[w' k] st] eqn:DS.
    destruct W as (m' & c' & H' & C' & W).
    assert (LR : forall xs P, length (shed P xs) = length xs).
    { clear. induction xs as [|[a b] xs IH]; intros P; simpl; auto. }
    assert (FR : forall xs P k, shed P (firstn k xs) = firstn k (shed P xs)).
    { clear. induction xs as [|[a b] xs IH]; intros P [|k]; simpl; auto. rewrite IH. auto. }
    exists P, m', w', k, st. split; [auto|]. split; [auto|]. split; [auto|].
    split; [eapply (repr_behaves E OK); [exact H'|]; lia|].
    apply drop_seq_log in DS as (K1 & K2 & K3 & us & rest & E1 & E2 & E3).
    rewrite LR in K1, K2. split; [auto|]. split; [auto|].
    intros NA. rewrite E3, app_nil_r in E1 by auto.
    rewrite E2, <- E1, FR. auto.
  Qed.

  (* dropping the map: every item is dropped once; after a panic of a left item's Drop the
     right items are dropped all the same *)
  Theorem C109_map_drop : forall room m w, reachable E room m ->
    exists P w' ls lost rs lost', contents E m P /\
      map_drop dtor m w = (w', fate (panics_of dtor (fst w) (ls ++ rs))) /\
      snd w' = snd w ++ ls ++ rs /\
      ls ++ lost = map inl (map fst P) /\ Permutation (rs ++ lost') (map inr (map snd P)) /\
      (lost <> [] -> panics_of dtor (fst w) ls = 1%nat) /\
      (lost' <> [] -> panics_of dtor (fst w) (ls ++ rs) = (1 + panics_of dtor (fst w) ls)%nat).
  Proof.
    intros room m w H. start H.
    destruct (repr_ordered E OK _ _ _ _ H) as (Z & HY & SL & OP & PY).
    rewrite (order_view E OK _ _ _ _ H V) in OP. subst P.
    assert (LL : lefts m = map inl (map fst (map zpair Z))).
    { unfold lefts. rewrite SL, !map_map. auto. }
    assert (RR : Permutation (rights m) (map inr (map snd (map zpair Z)))).
    { unfold rights. rewrite (Permutation_map (fun x => inr (value (snd x))) (rep_r _ _ _ _ _ HY)), !map_map. auto. }
    unfold map_drop. destruct (drop_elements dtor w (lefts m)) as [w1 ok1] eqn:D1.
    destruct (drop_elements dtor w1 (rights m)) as [w2 ok2] eqn:D2.
    destruct (two_tables dtor _ _ _ _ _ _ _ D1 D2) as (ls & lost & rs & lost' & E1 & E2 & E3 & E4 & E5 & E6).
    exists (map zpair Z), w2, ls, lost, rs, lost'. rewrite E4, <- E1, <- E2. repeat split; auto.
  Qed.

  (* ---- C110 ---- clear.  [lefts m]: the left items in the order in which they are dropped.
     Missing from the full claim: see C110_clear_refuted. *)
  Theorem C110_clear_partial : forall room m w, reachable E room m ->
    exists P, contents E m P /\
    match clear_d E dtor m w with
    | DRet (m', w') _ =>
        behaves_as room m' [] /\
        exists ts, snd w' = snd w ++ ts /\ Permutation ts (flat_map both_of P) /\ panics_of dtor (fst w) ts = 0%nat
    | DPanic (m', w') =>
        (* no left item remains; the Drop of some item panicked, and the items of that table
           not yet dropped never are *)
        len m' = 0%nat /\ contents E m' [] /\ (forall l, contains_left E m' l = false /\ get_right E m' l = None) /\
        (exists ts lost, snd w' = snd w ++ ts /\
           ((* a right item's: the map is empty and sound *)
            ((exists r, blamed dtor (fst w) ts (inr r)) /\ exists rs, ts = map inl (map fst P) ++ rs /\ behaves_as room m' [] /\
              Permutation (rs ++ lost) (map inr (map snd P))) \/
            (* a left item's: the right items stay, without partners *)
            ((exists l, blamed dtor (fst w) ts (inl l)) /\ map inl (map fst P) = ts ++ lost /\
              (forall r, contains_right E m' r = existsb (eqR E r) (map snd P)) /\
              (forall r, get_left E m' r = None) /\ (forall l r, are_paired E m' l r = false) /\
              (forall r, existsb (eqR E r) (map snd P) = true ->
                 exists m'', contains_right E m'' r = false /\
                   remove_via_right E r m' = Panic m'' /\ forall l, insert E l r m' = Panic m'')))) /\
        (* clearing once more mends the map *)
        exists m'', clear E m' = Ret m'' tt /\ behaves_as room m'' []
    | DAbort => False
    end.
  Proof.
    change (@both_of L R) with (@pair_items L R).
    intros room m w H. start H. exists P. split; auto.
    destruct (repr_ordered E OK _ _ _ _ H) as (Z & HY & SL & OP & PY).
    rewrite (order_view E OK _ _ _ _ H V) in OP. subst P.
    assert (LL : lefts m = map inl (map fst (map zpair Z))).
    { unfold lefts. rewrite SL, !map_map. auto. }
    assert (RR : Permutation (rights m) (map inr (map snd (map zpair Z)))).
    { unfold rights. rewrite (Permutation_map (fun x => inr (value (snd x))) (rep_r _ _ _ _ _ HY)), !map_map. auto. }
    assert (HC : counter m = c) by apply (rep_c _ _ _ _ _ HY).
    assert (HS : hash_builder m = s) by apply (rep_hb _ _ _ _ _ HY).
    assert (EMPTY : forall m', hash_builder m' = s -> counter m' = c -> slots (left_set m') = [] ->
      slots (right_set m') = [] -> behaves_as room m' []).
    { intros m' Q1 Q2 Q3 Q4. eapply (repr_behaves E OK s c); eauto. exists []. split; auto.
      constructor; simpl; auto using NoDup_nil, distinct_nil; rewrite ?Q3, ?Q4; auto. intros ? []. }
    assert (NOLEFT : forall m', slots (left_set m') = [] ->
      len m' = 0%nat /\ contents E m' [] /\ (forall l, contains_left E m' l = false /\ get_right E m' l = None)).
    { intros m' Q. assert (G : forall h p, t_get (lo E) (left_set m') h p = None).
      { intros. apply t_get_absent. rewrite Q. intros x []. }
      unfold len, t_len, contents, iter_all, iter. rewrite Q. split; auto. split; auto. intros l.
      unfold contains_left, get_right, get_right_q. rewrite !G. auto. }
    unfold clear_d. destruct (drop_elements dtor w (lefts m)) as [w1 ok1] eqn:D1.
    apply elements_blame in D1 as (u1 & r1 & E1 & L1 & A1 & T1 & F1).
    destruct ok1.
    - change (rights (set_left (t_clear (lo E) (left_set m)) m)) with (rights m).
      destruct (drop_elements dtor w1 (rights m)) as [w2 ok2] eqn:D2.
      apply elements_blame in D2 as (u2 & r2 & E2 & L2 & A2 & T2 & F2).
      destruct T1 as [T1 N1]; auto. rewrite T1, app_nil_r, LL in E1. subst u1. rewrite L1, <- app_assoc in L2.
      rewrite A1 in *.
      destruct ok2.
      + split; [apply EMPTY; auto|]. eexists. split; [exact L2|].
        destruct T2 as [T2 N2]; auto. rewrite panics_app, N1, N2. split; auto.
        rewrite T2, app_nil_r in E2. subst u2. rewrite RR.
        clear. induction Z as [|z Z IH]; simpl; auto.
        constructor. rewrite <- Permutation_middle. constructor. exact IH.
      + destruct (NOLEFT (set_right (t_clear (lo E) (right_set m)) (set_left (t_clear (lo E) (left_set m)) m)))
          as (M1 & M2 & M3); [reflexivity|].
        split; [exact M1|]. split; [exact M2|]. split; [exact M3|]. split.
        * eexists. exists r2. split; [exact L2|]. left. split.
          { destruct F2 as (t & I & Q); auto. apply in_map_iff in I as (y & <- & _). exists (value (snd y)).
            apply blamed_app; auto. }
          exists u2. split; auto. split; [apply EMPTY; auto|]. rewrite <- E2. auto.
        * eexists. split; [reflexivity|]. apply EMPTY; auto.
    - set (m1 := set_left (t_clear (lo E) (left_set m)) m).
      destruct (NOLEFT m1 eq_refl) as (N1 & N2 & N3).
      split; [exact N1|]. split; [exact N2|]. split; [exact N3|].
      assert (ST : stale E s m1 Z).
      { constructor; auto; simpl; apply HY. }
      split.
      + exists u1, r1. split; [auto|]. right. split.
        { destruct F1 as (t & I & Q); auto. apply in_map_iff in I as (y & <- & _). exists (value (snd y)). auto. }
        rewrite <- LL. split; [auto|].
        assert (EW : map snd (map zpair Z) = map zr Z) by (rewrite map_map; auto). rewrite EW.
        assert (SP := fun r => stale_split E OK s m1 Z r ST).
        assert (IN : forall r z Z', Permutation Z (z :: Z') -> eqR E r (zr z) = true ->
          existsb (eqR E r) (map zr Z) = true).
        { intros r z Z' PZ Q. apply existsb_exists. exists (zr z). split; auto. apply in_map.
          eapply Permutation_in; [symmetry; exact PZ|left; auto]. }
        assert (OUT : forall r, (forall z, In z Z -> eqR E r (zr z) = false) ->
          existsb (eqR E r) (map zr Z) = false).
        { intros r Q. destruct (existsb (eqR E r) (map zr Z)) eqn:XX; auto.
          apply existsb_exists in XX as (b & Hb & XX). apply in_map_iff in Hb as (z & <- & Hz).
          rewrite (Q z Hz) in XX. discriminate. }
        assert (CR : forall r, contains_right E m1 r = existsb (eqR E r) (map zr Z)).
        { intros r. unfold contains_right. rewrite (st_hb _ _ _ _ ST).
          destruct (SP r) as [(z & Z' & PZ & Q & NZ)|NZ].
          - rewrite (stale_get E OK _ _ _ _ _ _ ST PZ Q NZ), (IN _ _ _ PZ Q). auto.
          - rewrite (stale_absent E _ _ _ _ _ ST NZ), (OUT _ NZ). auto. }
        split; [exact CR|]. split; [|split].
        * intros r. unfold get_left, get_left_q. destruct (t_get _ (right_set m1) _ _) as [e|]; auto.
          rewrite (stale_left E _ _ _ _ _ ST). auto.
        * intros l r. unfold are_paired. rewrite (stale_left E _ _ _ _ _ ST). auto.
        * intros r Q. destruct (SP r) as [(z & Z' & PZ & QZ & NZ)|NZ]; [|rewrite (OUT _ NZ) in Q; discriminate].
          destruct (stale_remove E OK _ _ _ _ _ _ ST PZ QZ NZ) as (m'' & R1 & R2).
          exists m''. split; [|split; [auto|]].
          -- unfold contains_right. rewrite (stale_absent E _ _ _ _ _ R2 NZ). auto.
          -- intros l. unfold insert. unfold bind at 1. unfold remove_via_left, left_remove_entry. mrun.
             rewrite (stale_left_remove E _ _ _ _ _ ST). unfold bind. rewrite R1. auto.
      + eexists. split; [reflexivity|]. apply EMPTY; auto.
  Qed.

  (* drain(): dropped after n items.  As without panics (C15) the right items of the pairs not
     taken stay behind; the left items are gone. *)
  Theorem C110_drain_partial : forall room m n w, reachable E room m ->
    exists P d, contents E m P /\
      drain_nexts E n (drain m) = Ret d (firstn n (map Some P) ++ repeat None (n - length P)) /\
      match drain_drop_d E dtor m d w with
      | DRet (m', w') _ => m' = drain_end E m d /\ snd w' = snd w ++ map inl (map fst (skipn n P)) /\
          panics_of dtor (fst w) (map inl (map fst (skipn n P))) = 0%nat
      | DPanic (m', w') =>
          hash_builder m' = hash_builder m /\ counter m' = 0 /\ slots (left_set m') = [] /\
          capacity E m' = capacity E (with_capacity_and_hasher (R := R) E 0 (hash_builder m)) /\
          right_set m' = right_set (drain_end E m d) /\
          exists ts lost, (exists l, blamed dtor (fst w) ts (inl l)) /\ snd w' = snd w ++ ts /\ ts ++ lost = map inl (map fst (skipn n P))
      | DAbort => False
      end.
  Proof.
    intros room m n w H. start H.
    destruct (repr_ordered E OK _ _ _ _ H) as (Y & RY & EY & OY & PY).
    rewrite (order_view E OK _ _ _ _ H V) in OY.
    destruct (drain_nexts_ok E OK s n Y (drain m)) as (d & HD & DL & DR).
    { apply (rep_ids _ _ _ _ _ RY). }
    { exact EY. }
    { apply (rep_r _ _ _ _ _ RY). }
    exists P, d. split; [exact V|]. split; [rewrite HD, OY, map_length; auto|].
    unfold drain_drop_d. rewrite DL, map_map.
    assert (EM : map (fun x => inl (value (snd (slotL E s x)))) (skipn n Y) =
                 map (@inl L R) (map fst (skipn n P))).
    { rewrite OY, skipn_map, !map_map. auto. }
    rewrite EM. destruct (drop_elements dtor w _) as [w' ok] eqn:D.
    apply elements_blame in D as (us & rest & E1 & E2 & A & E3 & E4). destruct ok.
    - split; auto. destruct E3 as [E3 N3]; auto. rewrite E3, app_nil_r in E1. rewrite E1. auto.
    - split; auto. split; auto. split; auto. split; auto. split; auto. exists us, rest. split; [|auto].
      destruct E4 as (t & I & Q); auto. apply in_map_iff in I as (y & <- & _). eauto.
  Qed.

  (* destructors that do not panic: the calls are those of CycleMap.v *)
  Definition forget {A} (r : dres (A * tomb (L + R) X) unit) : option (res A unit) :=
    match r with
    | DRet (a, _) u => Some (Ret a u)
    | DPanic (a, _) => Some (Panic a)
    | DAbort => None
    end.
  Theorem C109_peaceful : peaceful dtor -> forall m w,
    forget (clear_d E dtor m w) = Some (clear E m) /\
    (forall xs, forget (extend_d E dtor xs m w) = Some (extend E xs m)) /\
    (forall Y (f : Y -> L -> R -> Y * verdict) y,
       forget (retain_d E dtor f m y w) = Some (retain E f (m, y))) /\
    (forall Y (f : Y -> L -> R -> Y * verdict) d y,
       match df_drop E f (d, y) with
       | Ret st u => forget (df_drop_d E dtor f false (d, y) w) = Some (Ret st u)
       | Panic st => forget (df_drop_d E dtor f false (d, y) w) = Some (Panic st) \/
                     df_drop_d E dtor f false (d, y) w = DAbort        (* out of fuel in both *)
       end) /\
    (forall d, forget (drain_drop_d E dtor m d w) = Some (Ret (drain_end E m d) tt)) /\
    snd (map_drop dtor m w) = Dropped.
  Proof.
    intros PF m w.
    assert (DE : forall ts v, exists v', drop_elements dtor v ts = (v', true)).
    { intros ts v. assert (Q := peaceful_elements dtor PF ts v).
      destruct (drop_elements dtor v ts) as [v' ok]. simpl in Q. subst. eauto. }
    assert (GL : forall ts v, exists v', glue dtor false v ts = (v', Dropped)).
    { intros ts v. assert (Q := peaceful_glue dtor PF ts v).
      destruct (glue dtor false v ts) as [v' ok]. simpl in Q. subst. eauto. }
    split; [|split; [|split; [|split; [|split]]]].
    - unfold clear_d. destruct (DE (lefts m) w) as [w1 ->].
      destruct (DE (rights (set_left (t_clear (lo E) (left_set m)) m)) w1) as [w2 ->]. auto.
    - intros xs. revert m w. induction xs as [|[l r] xs IH]; intros m w; auto.
      cbn [extend_d extend]. unfold bind. destruct (insert E l r m) as [m' d|m']; auto.
      destruct (GL (report_items d) w) as [w1 ->]. auto.
    - intros Y f y. unfold retain_d, retain. destruct (retain_scan E f m _ (iter m) y) as [y' td|y']; auto.
      assert (Q : forall td m w, forget (drop_all_d E dtor td m w) = Some (drop_all E td m)).
      { induction td0 as [|[[a b] c] td0 IH]; intros m0 w0; auto. cbn [drop_all_d drop_all]. unfold bind.
        destruct (remove_via_hashes_and_id E a b c m0) as [m1 o|m1]; auto.
        destruct (GL (match o with Some p => pair_items p | None => [] end) w0) as [w1 ->]. auto. }
      specialize (Q td m w). destruct (drop_all_d E dtor td m w) as [[m1 w1] u|[m1 w1]|]; simpl in Q; try discriminate;
        injection Q as <-; auto.
    - intros Y f d y. unfold df_drop, df_drop_d. generalize (df_remaining (fst (d, y))). intros n.
      generalize (d, y). clear d y. revert w. induction n; intros w st; cbn [df_drop_fuel df_drop_d_fuel].
      + destruct (df_next E f st) as [st' [p|]|st']; auto.
      + destruct (df_next E f st) as [st' [p|]|st']; auto.
        destruct (GL (pair_items p) w) as [w1 ->]. apply IHn.
    - intros d. unfold drain_drop_d. destruct (DE (map (fun x => inl (value (snd x))) (di_left d)) w) as [w1 ->]. auto.
    - unfold map_drop. destruct (DE (lefts m) w) as [w1 ->]. destruct (DE (rights m) w1) as [w2 ->]. auto.
  Qed.
End Proofs.

(* ---- cases ---- Drop panics for the items with the given keys; the state counts the runs *)
Definition grumpy (bad : list N) : nat -> item + item -> nat * bool :=
  fun n t => (Datatypes.S n, negb (existsb (N.eqb (match t with inl i | inr i => fst i end)) bad)).
Definition w0 : tomb (item + item) nat := (O, []).

Example C109_cases :
  reachable env_collide 2 m1 /\ contents env_collide m1 P1 /\
  (* drain_filter, dropped at once; the Drop of 4 panics, 5 and 50 are dropped all the same *)
  s_filter (uncurried alternate) true P1 = (false, [(it 4, it 30); (it 5, it 50)], [(it 1, it 20)], false) /\
  (exists d, df_drop_d env_collide (grumpy [4]) alternate false (drain_filter m1, true) w0 =
     DPanic (d, false, (4%nat, [inl (it 4); inr (it 30); inl (it 5); inr (it 50)])) /\
     contents env_collide (df_end m1 d) [(it 1, it 20)]) /\
  (* two panics *)
  df_drop_d env_collide (grumpy [4; 50]) alternate false (drain_filter m1, true) w0 = DAbort /\
  (* the closure panics at its second call, the destructor then takes out (5,50) *)
  (exists d y1 d' y2, df_nexts env_collide second_panics 2 (drain_filter m1, 0%nat) = Panic (d, y1) /\
     df_drop_d env_collide (grumpy []) second_panics true (d, y1) w0 =
       DPanic (d', y2, (2%nat, [inl (it 5); inr (it 50)])) /\
     df_drop_d env_collide (grumpy [5]) second_panics true (d, y1) w0 = DAbort) /\
  (* retain keeps (1,20) if it gets there *)
  (exists m', retain_d env_collide (grumpy [30]) (fun b l r => (negb b, Some (negb b))) m1 true w0 =
      DPanic (m', false, (2%nat, [inl (it 4); inr (it 30)])) /\
     contents env_collide m' [(it 1, it 20); (it 5, it 50)]) /\
  (* extend: the second pair displaces (1,20), whose Drop panics; the third is not inserted *)
  (exists m', extend_d env_collide (grumpy [20]) [(it 7, it 70); (it 1, it 80); (it 9, it 90)] m1 w0 =
      DPanic (m', (2%nat, [inl (it 1); inr (it 20)])) /\
     len m' = 4%nat /\ are_paired env_collide m' (it 1) (it 80) = true /\
     contains_left env_collide m' (it 9) = false) /\
  (* the map itself *)
  map_drop (grumpy [1]) m1 w0 =
    ((5%nat, [inl (it 4); inl (it 1); inr (it 20); inr (it 30); inr (it 50)]), Unwinding) /\
  snd (map_drop (grumpy [1; 20]) m1 w0) = Aborting /\
  peaceful (grumpy []).
Proof.
  split; [exists 7, 0, 0, hist1; split; vm_compute; reflexivity|].
  do 2 (split; [vm_compute; reflexivity|]).
  split; [eexists; split; vm_compute; reflexivity|].
  split; [vm_compute; reflexivity|].
  split; [do 4 eexists; split; [vm_compute; reflexivity|]; split; vm_compute; reflexivity|].
  split; [eexists; split; vm_compute; reflexivity|].
  split; [eexists; split; [vm_compute; reflexivity|]; repeat split; vm_compute; reflexivity|].
  split; [vm_compute; reflexivity|].
  split; [vm_compute; reflexivity|].
  intros x t. reflexivity.
Qed.

(* The full claim of C110 (a map whose clear() was cut short by a panicking Drop is a map like
   any other: right items have partners, inserting does not panic) is false: the map looks
   empty, still has the right items, and inserting one of them panics. *)
Theorem C110_clear_refuted : exists m' w',
  reachable env_collide 2 m1 /\
  clear_d env_collide (grumpy [1]) m1 w0 = DPanic (m', w') /\
  is_empty m' = true /\ contains_right env_collide m' (it 20) = true /\
  get_left env_collide m' (it 20) = None /\
  panics (insert env_collide (it 1) (it 20) m') = true /\
  panics (remove_via_right env_collide (it 20) m') = true.
Proof.
  do 2 eexists. split; [exists 7, 0, 0, hist1; split; vm_compute; reflexivity|].
  split; [vm_compute; reflexivity|]. run_all.
Qed.
Example C110_cases :
  (* 1 panics: 5 is never dropped, and the right items stay *)
  (exists m', clear_d env_collide (grumpy [1]) m1 w0 = DPanic (m', (2%nat, [inl (it 4); inl (it 1)])) /\
    len m' = 0%nat /\ length (slots (right_set m')) = 3%nat) /\
  (* 30 panics: 50 is never dropped, the map is empty *)
  (exists m', clear_d env_collide (grumpy [30]) m1 w0 =
      DPanic (m', (5%nat, [inl (it 4); inl (it 1); inl (it 5); inr (it 20); inr (it 30)])) /\
    slots (left_set m') = [] /\ slots (right_set m') = []) /\
  (* drain: (4,30) taken, then dropped; 1 panics, 5 is lost *)
  (exists d m', drain_nexts env_collide 1 (drain m1) = Ret d [Some (it 4, it 30)] /\
    drain_drop_d env_collide (grumpy [1]) m1 d w0 = DPanic (m', (1%nat, [inl (it 1)])) /\
    length (slots (right_set m')) = 2%nat).
Proof.
  split; [eexists; split; [vm_compute; reflexivity|]; split; vm_compute; reflexivity|].
  split; [eexists; split; [vm_compute; reflexivity|]; split; vm_compute; reflexivity|].
  do 2 eexists. split; [vm_compute; reflexivity|]. split; vm_compute; reflexivity.
Qed.

Print Assumptions C109_drain_filter.
Print Assumptions C109_closure_panics.
Print Assumptions C109_retain.
Print Assumptions C109_extend.
Print Assumptions C109_map_drop.
Print Assumptions C109_peaceful.
Print Assumptions C110_clear_partial.
Print Assumptions C110_drain_partial.
Print Assumptions C110_clear_refuted.
