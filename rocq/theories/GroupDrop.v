(* GroupMap with items whose Drop runs user code and may panic (see Drops and CycleMapDrop).
   Items that the caller receives are dropped by the caller, not here. *)
From Coq Require Import List NArith Lia Bool Permutation PeanoNat.
From Verif Require CycleMapDrop.
From Verif Require Import Closures Prelude RawTable GroupMap ListFacts TableFacts IterFacts SoundTables
  GroupSpec GroupHistory GroupProofs GroupProofs2 GroupProofs3 GroupProofs5 GroupProofs6
  GroupHistoryProofs Concrete GroupProps GroupProps2 GroupDefects GroupProps3 GroupWreck GroupMend
  GroupFaultProps GroupFaultProps2 Drops.
Import ListNotations.
Open Scope N_scope.

Section Model.
  Context {L R S X : Type}.
  Variable E : env L R S.
  Variable dtor : X -> L + R -> X * bool.
  (* the order in which a HashSet<L> drops its elements *)
  Variable ord : list L -> list L.
  Notation map := (gmap L R S).
  Notation tb := (tomb (L + R) X).

  Definition held_l (m : map) : list (L + R) := List.map (fun x => inl (l_value (snd x))) (slots (left_set m)).
  Definition held_r (m : map) : list (L + R) := List.map (fun x => inr (r_value (snd x))) (slots (right_set m)).

  (* src/group_map.rs:1244-1247; the sets of the right items hold no user items *)
  Definition clear_d (m : map) (w : tb) : dres (map * tb) unit :=
    let m1 := set_left (t_clear (lo E) (left_set m)) m in
    match drop_elements dtor w (held_l m) with
    | (w1, false) => DPanic (m1, w1)
    | (w1, true) =>
        let m2 := set_right (t_clear (lo E) (right_set m1)) m1 in
        match drop_elements dtor w1 (held_r m1) with
        | (w2, false) => DPanic (m2, w2)
        | (w2, true) => DRet (m2, w2) tt
        end
    end.
  (* drop of the map: fields left_set, right_set (src/group_map.rs:152-158) *)
  Definition map_drop (m : map) (w : tb) : tb * dropping :=
    let (w1, ok1) := drop_elements dtor w (held_l m) in
    let (w2, ok2) := drop_elements dtor w1 (held_r m) in
    (w2, if ok1 then if ok2 then Dropped else Unwinding else if ok2 then Unwinding else Aborting).

  (* drop of an Option<(HashSet<L>, R)>: first the set, an elements loop of hashbrown, then the
     right item, while unwinding if the set panicked *)
  Definition drop_digest (w : tb) (o : option (list L * R)) : tb * dropping :=
    match o with
    | None => (w, Dropped)
    | Some (ls, r) =>
        let (w1, ok) := drop_elements dtor w (List.map inl (ord ls)) in
        glue dtor (negb ok) w1 [inr r]
    end.
  Definition close {A} (a : A) (ws : tb * dropping) : dres (A * tb) unit :=
    match ws with
    | (w', Dropped) => DRet (a, w') tt
    | (w', Unwinding) => DPanic (a, w')
    | (_, Aborting) => DAbort
    end.
  (* src/group_map.rs:231-303: an argument that equals an item of the map is not stored but
     dropped when insert returns, the last parameter first *)
  Definition insert_spare (m : map) (left : L) (right : R) : list (L + R) :=
    match t_get_mut E (right_set m) (hashR E (hash_builder m) right) (equivalent_key_right (eqR E) right) with
    | Some _ => [inr right] | None => []
    end ++
    match t_get_mut E (left_set m) (hashL E (hash_builder m) left) (equivalent_key_left (eqL E) left) with
    | Some _ => [inl left] | None => []
    end.
  Definition insert_d (left : L) (right : R) (m : map) (w : tb) : dres (map * tb) unit :=
    match insert E left right m with
    | Panic m' => DPanic (m', w)
    | Ret m' _ => close m' (glue dtor false w (insert_spare m left right))
    end.
  (* an insert_right(right) whose result is not used *)
  Definition insert_right_d (right : R) (m : map) (w : tb) : dres (map * tb) unit :=
    match insert_right E right m with
    | Panic m' => DPanic (m', w)
    | Ret m' o => close m' (drop_digest w o)
    end.
  (* src/group_map.rs:1257-1265; 1275-1279 is the case without None *)
  Fixpoint extend_d (xs : list (option L * R)) (m : map) (w : tb) : dres (map * tb) unit :=
    match xs with
    | [] => DRet (m, w) tt
    | (o, r) :: xs' =>
        match (match o with Some l => insert_d l r m w | None => insert_right_d r m w end) with
        | DRet (m', w') _ => extend_d xs' m' w'
        | DPanic st => DPanic st
        | DAbort => DAbort
        end
    end.
  (* src/group_map.rs:472-497 and 515-545: only the case without [old] drops anything *)
  Definition swap_right_d (old new : R) (m : map) (w : tb) : dres (map * tb) unit :=
    match t_get_mut E (right_set m) (hashR E (hash_builder m) old) (equivalent_key_right (eqR E) old) with
    | None => insert_right_d new m w
    | Some _ =>
        match swap_right E old new m with
        | Ret m' u => DRet (m', w) u
        | Panic m' => DPanic (m', w)
        end
    end.
  Definition swap_right_remove_d (old new : R) (m : map) (w : tb) : dres (map * tb) (option R) :=
    match t_get_mut E (right_set m) (hashR E (hash_builder m) old) (equivalent_key_right (eqR E) old) with
    | None =>
        match insert_right_d new m w with
        | DRet st _ => DRet st None
        | DPanic st => DPanic st
        | DAbort => DAbort
        end
    | Some _ =>
        match swap_right_remove E old new m with
        | Ret m' o => DRet (m', w) o
        | Panic m' => DPanic (m', w)
        end
    end.

  (* src/group_map.rs:985-987 *)
  Fixpoint drop_lefts_d (l : list (N * N)) (m : map) (w : tb) : dres (map * tb) unit :=
    match l with
    | [] => DRet (m, w) tt
    | (h, id) :: t =>
        match left_remove_entry E h (left_with_left_id id) m with
        | Panic m' => DPanic (m', w)
        | Ret m' o =>
            match glue dtor false w (match o with Some e => [inl (l_value e)] | None => [] end) with
            | (w', Dropped) => drop_lefts_d t m' w'
            | (w', Unwinding) => DPanic (m', w')
            | (_, Aborting) => DAbort
            end
        end
    end.
  (* src/group_map.rs:1018-1020 *)
  Fixpoint drop_rights_d (l : list (N * N)) (m : map) (w : tb) : dres (map * tb) unit :=
    match l with
    | [] => DRet (m, w) tt
    | (h, id) :: t =>
        match remove_via_hash_and_id E h id m with
        | Panic m' => DPanic (m', w)
        | Ret m' o =>
            match drop_digest w o with
            | (w', Dropped) => drop_rights_d t m' w'
            | (w', Unwinding) => DPanic (m', w')
            | (_, Aborting) => DAbort
            end
        end
    end.
  Section Retain.
    Context {Y A I : Type}.
    Variable f : Y -> A -> Y * verdict.
    Variable next : I -> outcome (option A * I).
    Variable key : A -> option (N * N).
    Variable drop_all : list (N * N) -> map -> tb -> dres (map * tb) unit.
    Definition retain_with_d (fuel : nat) (it : I) (m : map) (y : Y) (w : tb) : dres (map * Y * tb) unit :=
      match retain_scan f next key fuel it y with
      | Panic y' => DPanic (m, y', w)
      | Ret y' to_drop =>
          match drop_all to_drop m w with
          | DRet (m', w') _ => DRet (m', y', w') tt
          | DPanic (m', w') => DPanic (m', y', w')
          | DAbort => DAbort
          end
      end.
  End Retain.
  (* src/group_map.rs:972-988 *)
  Definition retain_paired_d {Y} (f : Y -> L * R -> Y * verdict) (m : map) :=
    retain_with_d f (paired_next E m) (retain_paired_key E m) drop_lefts_d
      (length (iter_paired m)) (iter_paired m) m.
  (* src/group_map.rs:1005-1021 *)
  Definition retain_unpaired_d {Y} (f : Y -> R -> Y * verdict) (m : map) :=
    retain_with_d f (@unpaired_next R) (retain_unpaired_key E m) drop_rights_d
      (length (iter_unpaired m)) (iter_unpaired m) m.
End Model.

(* the closure that accepts what f accepts, but no more than the given number *)
Definition capped {Y A} (f : Y -> A -> Y * verdict) (yn : Y * nat) (a : A) : (Y * nat) * verdict :=
  let (y', v) := f (fst yn) a in
  match v, snd yn with
  | Some true, O => (y', O, Some false)
  | Some true, S n => (y', n, Some true)
  | _, n => (y', n, v)
  end.

Section Proofs.
  Context {L R S X : Type}.
  Variable E : env L R S.
  Hypothesis OK : lawful E.
  Variable dtor : X -> L + R -> X * bool.
  Variable ord : list L -> list L.
  Hypothesis ord_ok : forall ls, Permutation (ord ls) ls.
  Notation map' := (gmap L R S).
  Notation zl := (zleft L R).
  Notation zr := (zright R).
  Notation "a =L b" := (eqL E a b = true) (at level 70).
  Notation "a =R b" := (eqR E a b = true) (at level 70).
  Let LO := lo_ok _ OK.

  Definition ended {A} (a : A) (w : tomb (L + R) X) st : dres (A * tomb (L + R) X) unit :=
    match st with
    | Dropped => DRet (a, w) tt
    | Unwinding => DPanic (a, w)
    | Aborting => DAbort
    end.

  (* ---- closures that stop accepting ---- *)
  Lemma scan_capped : forall {Y A I} (f : Y -> A -> Y * verdict) (next : I -> outcome (option A * I)) key
      fuel it y y' td k, retain_scan f next key fuel it y = Ret y' td ->
    retain_scan (capped f) next key fuel it (y, k) = Ret (y', (k - length td)%nat) (firstn k td).
  Proof.
    intros Y A I f next key. induction fuel as [|fuel IH]; intros it y y' td k H; cbn [retain_scan] in *.
    - destruct (next it) as [[[a|] it']|]; try discriminate.
      + destruct (f y a) as [y1 [[|]|]]; try discriminate. destruct (key a); discriminate.
      + inversion H; subst. rewrite firstn_nil. simpl. rewrite Nat.sub_0_r. auto.
    - destruct (next it) as [[[a|] it']|]; try discriminate.
      + unfold capped at 1. cbn [fst snd]. destruct (f y a) as [y1 [[|]|]]; try discriminate.
        * destruct (key a) as [t|]; [|discriminate].
          destruct (retain_scan f next key fuel it' y1) as [y2 td2|] eqn:Q; [|discriminate].
          inversion H; subst. cbn [app]. destruct k as [|k].
          { rewrite (IH _ _ _ _ 0%nat Q). auto. }
          { rewrite (IH _ _ _ _ k Q). auto. }
        * destruct (retain_scan f next key fuel it' y1) as [y2 td2|] eqn:Q; [|discriminate].
          inversion H; subst. cbn [app]. rewrite (IH _ _ _ _ k Q). auto.
      + inversion H; subst. rewrite firstn_nil. simpl. rewrite Nat.sub_0_r. auto.
  Qed.
  Lemma filter_capped : forall {Y A} (f : Y -> A -> Y * verdict) l y y' yes no k,
    s_filter f y l = (y', yes, no, false) ->
    exists n no', s_filter (capped f) (y, k) l = (y', n, firstn k yes, no', false) /\
      Permutation no' (skipn k yes ++ no).
  Proof.
    intros Y A f. induction l as [|a l IH]; intros y y' yes no k H; cbn [s_filter] in *.
    - inversion H; subst. exists k, []. rewrite firstn_nil, skipn_nil. auto.
    - unfold capped at 1. cbn [fst snd]. destruct (f y a) as [y1 [[|]|]]; try discriminate.
      + destruct (s_filter f y1 l) as [[[y2 ys] ns] pn] eqn:Q. inversion H; subst. destruct k as [|k].
        * destruct (IH _ _ _ _ 0%nat Q) as (n & no' & -> & P). exists n, (a :: no'). split; auto.
          cbn [skipn app] in *. apply perm_skip. exact P.
        * destruct (IH _ _ _ _ k Q) as (n & no' & -> & P). exists n, no'. auto.
      + destruct (s_filter f y1 l) as [[[y2 ys] ns] pn] eqn:Q. inversion H; subst.
        destruct (IH _ _ _ _ k Q) as (n & no' & -> & P). exists n, (a :: no'). split; auto.
        rewrite P. apply Permutation_middle.
  Qed.

  (* ---- retain_paired ---- *)
  Lemma drop_lefts_d_ok : forall zs s lc rc m A D B w w' k st, Rep E s lc rc m (zs ++ A) D B ->
    drop_seq dtor w (map (fun z => [inl (z_l z)]) zs) = (w', k, st) ->
    exists m', drop_lefts_d E dtor (map (pkey E s) zs) m w = ended m' w' st /\
      drop_lefts E (firstn k (map (pkey E s) zs)) m = Ret m' tt.
  Proof.
    induction zs as [|z zs IH]; intros s lc rc m A D B w w' k st H DS; cbn [map drop_seq] in *.
    - inversion DS; subst. exists m. auto.
    - cbn [drop_lefts_d GroupProofs.pkey]. unfold left_remove_entry. mrun.
      destruct (t_remove_entry_unique _ LO (left_set m) (hashL E s (z_l z))
        (left_with_left_id (z_id z)) (snd (slotL E s z)) (map (slotL E s) (zs ++ A))) as (lt & TR & PL).
      { apply (rep_l _ _ _ _ _ _ _ _ H). }
      { apply N.eqb_refl. }
      { intros x Hx. eapply (id_l_other E); [|exact Hx].
        assert (ND := rep_lids _ _ _ _ _ _ _ _ H). simpl in ND. inversion ND; subst.
        intro Hz. apply H2. rewrite (map_app z_id (zs ++ A)). apply in_app_iff; auto. }
      rewrite TR. cbn iota beta. cbn [snd GroupProofs.slotL l_value].
      assert (H1 : Rep E s lc rc (set_left lt m) (zs ++ A) (z :: D) B).
      { apply core_rep; auto.
        - apply (core_kill E s lc rc [z]). eapply rep_core; exact H.
        - apply (rep_hb _ _ _ _ _ _ _ _ H).
        - apply (rep_r _ _ _ _ _ _ _ _ H). }
      assert (ONE : forall ks, drop_lefts E ((hashL E s (z_l z), z_id z) :: ks) m = drop_lefts E ks (set_left lt m)).
      { intros ks. cbn [drop_lefts]. unfold left_remove_entry. mrun. rewrite TR. auto. }
      destruct (glue dtor false w [inl (z_l z)]) as [w1 [| |]].
      + destruct (drop_seq dtor w1 (map (fun z => [inl (z_l z)]) zs)) as [[w2 n] s2] eqn:DS2.
        inversion DS; subst. destruct (IH _ _ _ _ _ _ _ _ _ _ _ H1 DS2) as (m' & Q1 & Q2).
        exists m'. split; auto. cbn [firstn]. rewrite ONE. auto.
      + inversion DS; subst. exists (set_left lt m). split; auto. cbn [firstn]. rewrite ONE. auto.
      + inversion DS; subst. exists (set_left lt m). split; auto. cbn [firstn]. rewrite ONE. auto.
  Qed.
  Lemma drop_rights_d_ok : forall ys s lc rc m A D B w w' k st, Rep E s lc rc m A D (ys ++ B) ->
    cleansZ D (ys ++ B) -> (forall y, In y ys -> GroupProofs5.bare A y = true) ->
    drop_seq dtor w (map (fun y => [inr (y_r y)]) ys) = (w', k, st) ->
    exists m', drop_rights_d E dtor ord (map (rkey E s) ys) m w = ended m' w' st /\
      drop_rights E (firstn k (map (rkey E s) ys)) m = Ret m' tt.
  Proof.
    induction ys as [|y ys IH]; intros s lc rc m A D B w w' k st H CL BA DS; cbn [map drop_seq] in *.
    - inversion DS; subst. exists m. auto.
    - cbn [drop_rights_d rkey].
      assert (ON : exists rt, remove_via_hash_and_id E (hashR E s (y_r y)) (y_id y) m =
        Ret (set_right rt m) (Some ([], y_r y)) /\ Rep E s lc rc (set_right rt m) A D (ys ++ B)).
      { unfold remove_via_hash_and_id, right_remove_entry. mrun.
        destruct (t_remove_entry_unique _ LO (right_set m) (hashR E s (y_r y))
          (right_with_right_id (y_id y)) (snd (slotR E s y)) (map (slotR E s) (ys ++ B))) as (rt & -> & PR).
        { apply (rep_r _ _ _ _ _ _ _ _ H). }
        { apply N.eqb_refl. }
        { intros x Hx. eapply (id_r_other E); [|exact Hx].
          assert (ND := rep_rids _ _ _ _ _ _ _ _ H). simpl in ND. inversion ND; auto. }
        cbn [snd GroupProofs.slotR r_pairs r_value].
        assert (Hy : In y ((y :: ys) ++ B)) by (left; auto).
        assert (NG : forall z, In z A -> z_g z <> y_id y).
        { intros z Hz Q. assert (BY := BA y (or_introl eq_refl)). unfold GroupProofs5.bare in BY.
          apply negb_true_iff in BY. rewrite existsb_false in BY.
          specialize (BY z Hz). apply N.eqb_neq in BY. auto. }
        assert (EM : hs_elems (y_tab y) = []).
        { destruct (tab_elems E _ _ _ _ _ _ _ y H Hy) as (zs & Q1 & Q2).
          rewrite clean_filter in Q2 by (apply CL; auto).
          rewrite filter_all_false in Q2 by (intros z Hz; apply N.eqb_neq; auto).
          apply Permutation_sym, Permutation_nil in Q2. rewrite Q1, Q2. auto. }
        rewrite EM. cbn [remove_pairs]. exists rt. split; auto.
        apply core_rep; auto.
        - eapply core_del_right; [eapply rep_core; exact H|exact NG].
        - apply (rep_hb _ _ _ _ _ _ _ _ H).
        - apply (rep_l _ _ _ _ _ _ _ _ H). }
      destruct ON as (rt & RV & H1). rewrite RV. cbn [drop_digest].
      assert (ord [] = []) as -> by (apply Permutation_nil; symmetry; apply ord_ok). cbn [map drop_elements negb].
      assert (ONE : forall ks, drop_rights E ((hashR E s (y_r y), y_id y) :: ks) m = drop_rights E ks (set_right rt m)).
      { intros ks. cbn [drop_rights]. unfold bind. rewrite RV. auto. }
      destruct (glue dtor false w [inr (y_r y)]) as [w1 [| |]].
      + destruct (drop_seq dtor w1 (map (fun y => [inr (y_r y)]) ys)) as [[w2 n] s2] eqn:DS2.
        inversion DS; subst. destruct (IH _ _ _ _ _ _ _ w1 w' n st H1) as (m' & Q1 & Q2); auto.
        { intros x Hx. apply CL. right; auto. }
        { intros x Hx. apply BA. right; auto. }
        exists m'. split; auto. cbn [firstn]. rewrite ONE. auto.
      + inversion DS; subst. exists (set_right rt m). split; auto. cbn [firstn]. rewrite ONE. auto.
      + inversion DS; subst. exists (set_right rt m). split; auto. cbn [firstn]. rewrite ONE. auto.
  Qed.

  Lemma seq_log : forall {A} (g : A -> list (L + R)) l w w' k st,
    drop_seq dtor w (map g l) = (w', k, st) ->
    (st = Dropped -> k = length l) /\ (st <> Dropped -> (0 < k <= length l)%nat) /\
    (st <> Aborting -> snd w' = snd w ++ flat_map g (firstn k l)).
  Proof.
    intros A g l w w' k st DS. apply drop_seq_log in DS as (K1 & K2 & K3 & us & rest & E1 & E2 & E3).
    rewrite map_length in K1, K2. split; [auto|]. split; [auto|].
    intros NA. rewrite E3, app_nil_r in E1 by auto. rewrite E2, <- E1, flat_map_concat_map, firstn_map. auto.
  Qed.

  Lemma flat_map_single : forall {A B C} (g : B -> C) (h : A -> B) l,
    flat_map (fun a => [g (h a)]) l = map g (map h l).
  Proof. intros A B C g h. induction l as [|a l IH]; simpl; [|rewrite IH]; auto. Qed.

  (* retain_paired with a panicking Drop: the map is the one retain_paired leaves if the closure
     accepts just the first k of the pairs it accepts, k counting the one whose Drop panicked *)
  Theorem C113_retain_paired : forall {Y} (f : Y -> L * R -> Y * verdict) y w room m, reachable E room m ->
    exists rs ps, holds E m rs ps /\
    forall y' yes no, s_filter f y ps = (y', yes, no, false) ->
    exists m' w' k st rs' ps',
      drop_seq dtor w (map (fun p => [inl (fst p)]) yes) = (w', k, st) /\
      retain_paired_d E dtor f m y w = ended (m', y') w' st /\
      (st = Dropped -> k = length yes) /\ (st <> Dropped -> (0 < k <= length yes)%nat) /\
      (st <> Aborting -> snd w' = snd w ++ map inl (map fst (firstn k yes))) /\
      (exists n, retain_paired E (capped f) (m, (y, k)) = Ret (m', (y', n)) tt) /\
      holds E m' rs' ps' /\ Permutation rs' rs /\ Permutation ps' (skipn k yes ++ no) /\
      follows E m' (skipn k yes ++ no) /\
      (forall r, (forall p, In p (firstn k yes) -> eqR E r (snd p) = false) ->
         is_right_paired E m' r = is_right_paired E m r /\
         forall it, get_left_iter E m' r = Some it ->
           exists Q, pair_rest E m' it = Done Q /\ Permutation Q (lefts_of E (skipn k yes ++ no) r)).
  Proof.
    intros Y f y w room m HR. assert (H := HR).
    apply (reachable_repr E OK) in H as (s & lc & rc & G & H & B1 & B2).
    apply (GroupProps.view E OK) in H as (rs & ps & V & _ & _ & HH).
    assert (LK := tame_all_linked E OK _ _ _ _ _ _ HH).
    destruct HH as (A & D & B & H & EG & _ & _ & _).
    assert (RZ := linked_rids E OK _ _ _ _ _ _ _ H LK).
    destruct (retain_paired_z E OK _ _ _ _ _ _ _ f y H RZ) as (Y' & P & Q & _).
    exists rs, ps. split; auto. intros y' yes no SF.
    assert (SC : exists zs, yes = map z_pair zs /\ (exists nz, Permutation A (zs ++ nz)) /\
      retain_scan f (paired_next E m) (retain_paired_key E m) (length (iter_paired m)) (iter_paired m) y =
        Ret y' (map (pkey E s) zs)).
    { clear P Q Y'. destruct (iter_paired_z E OK _ _ _ _ _ _ _ H RZ) as (W & P & Q & (VV & ST & HV) & CL).
      destruct V as [V1 V2]. 
      assert (EP : ps = map z_pair W).
      { destruct (retain_paired_z E OK _ _ _ _ _ _ _ f y H RZ) as (W' & _ & Q' & _). congruence. }
      subst ps. rewrite s_filter_map in SF.
      destruct (s_filter (fun x u => f x (z_pair u)) y W) as [[[y1 yz] nz] pn] eqn:SZ.
      inversion SF; subst y1 yes no pn. exists yz. split; auto. split.
      { exists nz. rewrite P. eapply s_filter_perm; eauto. }
      rewrite (retain_scan_as f (paired_next E m) (retain_paired_key E m) VV z_pair (pkey E s) ST W); auto.
      - rewrite SZ. auto.
      - rewrite Q, map_length. auto.
      - intros z Hz. assert (Hz' : In z A) by (eapply Permutation_in; [symmetry|]; eauto).
        unfold retain_paired_key. simpl. apply perm_in_cons in Hz' as [A' PA].
        assert (H' := rep_perm E OK _ _ _ _ _ _ _ _ _ PA (Permutation_refl B) H).
        assert (X2 : find_left E m (z_l z) = Some (snd (slotL E s z))).
        { eapply (find_left_some E OK); [exact H'|apply equiv_refl; exact (eqL_equiv _ OK)|].
          assert (Z := rep_eql _ _ _ _ _ _ _ _ H'). simpl in Z. apply distinct_cons in Z as [Z _].
          intros x0 Hx. apply Z. apply in_map; auto. }
        rewrite X2, (rep_hb _ _ _ _ _ _ _ _ H). auto. }
    destruct SC as (zs & -> & (nz & PZ) & SC).
    destruct (drop_seq dtor w (map (fun p => [inl (fst p)]) (map z_pair zs))) as [[w' k] st] eqn:DS.
    assert (LG := seq_log _ _ _ _ _ _ DS). destruct LG as (G1 & G2 & G3).
    rewrite map_map in DS. change (fun x => [inl (fst (z_pair x))]) with (fun x : zl => [@inl L R (z_l x)]) in DS.
    assert (H1 : Rep E s lc rc m (zs ++ nz) D B).
    { eapply (rep_perm E OK); [exact PZ|apply Permutation_refl|exact H]. }
    destruct (drop_lefts_d_ok _ _ _ _ _ _ _ _ _ _ _ _ H1 DS) as (m' & Q1 & Q2).
    assert (RC : retain_paired E (capped f) (m, (y, k)) = Ret (m', (y', (k - length (map (pkey E s) zs))%nat)) tt).
    { unfold retain_paired, retain_with. cbn [fst]. rewrite (scan_capped _ _ _ _ _ _ _ _ k SC), Q2. auto. }
    destruct (C56_retain_paired_partial E OK (capped f) (y, k) room m HR) as (rs0 & ps0 & V0 & W).
    assert (rs0 = rs /\ ps0 = ps) as [-> ->].
    { destruct V as [V1 V2], V0 as [V3 V4]. split; congruence. }
    destruct (filter_capped _ _ _ _ _ _ k SF) as (n & no' & SF' & PN). rewrite SF' in W.
    destruct W as (m2 & rs' & ps' & W1 & W2 & W3 & W4 & _ & _ & _ & W5 & _ & _ & W6 & _).
    assert (m2 = m') as -> by congruence.
    exists m', w', k, st, rs', ps'. split; [auto|]. split.
    { unfold retain_paired_d, retain_with_d. rewrite SC, Q1. destruct st; auto. }
    split; [auto|]. split; [auto|]. split.
    { intros NA. rewrite G3 by auto. f_equal. apply flat_map_single. }
    split; [eauto|]. split; [auto|]. split; [auto|]. split; [etransitivity; eauto|]. split.
    { intros l r. rewrite (W5 l r). split; intros (a & I & EQ); exists a; split; auto.
      - eapply Permutation_in; eauto.
      - eapply Permutation_in; [symmetry|]; eauto. }
    intros r NR. destruct (W6 r NR) as [W7 W8]. split; auto. intros it GI. destruct (W8 it GI) as (Z & Z1 & Z2).
    exists Z. split; auto. rewrite Z2. unfold lefts_of. apply Permutation_map, filter_perm. auto.
  Qed.

  (* retain_unpaired likewise; nothing else changes *)
  Theorem C113_retain_unpaired : forall {Y} (f : Y -> R -> Y * verdict) y w room m, reachable E room m ->
    exists rs ps U, holds E m rs ps /\ unpaired_rest (iter_unpaired m) = Done U /\
      Permutation U (lonely E rs ps) /\
    forall y' yes no, s_filter f y U = (y', yes, no, false) ->
    exists m' w' k st rs' ps',
      drop_seq dtor w (map (fun r => [inr r]) yes) = (w', k, st) /\
      retain_unpaired_d E dtor ord f m y w = ended (m', y') w' st /\
      (st = Dropped -> k = length yes) /\ (st <> Dropped -> (0 < k <= length yes)%nat) /\
      (st <> Aborting -> snd w' = snd w ++ map inr (firstn k yes)) /\
      (exists n, retain_unpaired E (capped f) (m, (y, k)) = Ret (m', (y', n)) tt) /\
      holds E m' rs' ps' /\ Permutation rs (firstn k yes ++ rs') /\ Permutation ps' ps /\
      answers E m' rs' ps' /\ follows E m' ps'.
  Proof.
    intros Y f y w room m HR. assert (H := HR).
    apply (reachable_repr E OK) in H as (s & lc & rc & G & H & B1 & B2).
    apply (GroupProps.view E OK) in H as (rs & ps & V & _ & _ & HH).
    assert (CLN := tame_all_clean E OK _ _ _ _ _ _ HH).
    destruct HH as (A & D & B & H & EG & _ & _ & _).
    assert (CZ := clean_cleans E OK _ _ _ _ _ _ _ H CLN).
    destruct (C56_retain_unpaired_partial E OK f y room m HR) as (rs0 & ps0 & U & V0 & HU & PU & _).
    assert (rs0 = rs /\ ps0 = ps) as [-> ->].
    { destruct V as [V1 V2], V0 as [V3 V4]. split; congruence. }
    exists rs, ps, U. split; [auto|]. split; [auto|]. split; [auto|]. intros y' yes no SF.
    assert (SC : exists ys nz, yes = map y_r ys /\ Permutation B (ys ++ nz) /\
      (forall y, In y ys -> GroupProofs5.bare A y = true) /\
      retain_scan f (@unpaired_next R) (retain_unpaired_key E m) (length (iter_unpaired m)) (iter_unpaired m) y =
        Ret y' (map (rkey E s) ys)).
    { destruct (iter_unpaired_z E _ _ _ _ _ _ _ H CZ) as (W & P & Q & (VV & ST & HV) & CO).
      assert (EU : U = map y_r (filter (GroupProofs5.bare A) W)) by congruence. subst U.
      rewrite s_filter_map in SF.
      destruct (s_filter (fun x u => f x (y_r u)) y (filter (GroupProofs5.bare A) W)) as [[[y1 yz] nz] pn] eqn:SZ.
      inversion SF; subst y1 yes no pn. exists yz, (nz ++ filter (fun y => negb (GroupProofs5.bare A y)) W).
      assert (SP := s_filter_perm _ _ _ _ _ _ _ SZ).
      split; auto. split; [rewrite P, app_assoc, <- SP; apply filter_split_perm|]. split.
      { intros u Hu. assert (IY : In u (filter (GroupProofs5.bare A) W)).
        { eapply Permutation_in; [symmetry; exact SP|apply in_app_iff; auto]. }
        apply filter_In in IY. tauto. }
      rewrite (retain_scan_as f (@unpaired_next R) (retain_unpaired_key E m) VV y_r (rkey E s) ST
        (filter (GroupProofs5.bare A) W)); auto.
      - rewrite SZ. auto.
      - rewrite Q, map_length. apply filter_le.
      - intros u Hu. apply filter_In in Hu as [Hu _].
        assert (Hy' : In u B) by (eapply Permutation_in; [symmetry|]; eauto).
        unfold retain_unpaired_key. apply perm_in_cons in Hy' as [B' PB].
        assert (H' := rep_perm E OK _ _ _ _ _ _ _ _ _ (Permutation_refl A) PB H).
        assert (X2 : find_right E m (y_r u) = Some (snd (slotR E s u))).
        { eapply (find_right_some E OK); [exact H'|apply equiv_refl; exact (eqR_equiv _ OK)|].
          assert (Z := rep_eqr _ _ _ _ _ _ _ _ H'). simpl in Z. apply distinct_cons in Z as [Z _].
          intros x0 Hx. apply Z. apply in_map; auto. }
        rewrite X2, (rep_hb _ _ _ _ _ _ _ _ H). auto. }
    destruct SC as (ys & nz & -> & PZ & BA & SC).
    destruct (drop_seq dtor w (map (fun r => [inr r]) (map y_r ys))) as [[w' k] st] eqn:DS.
    assert (LG := seq_log _ _ _ _ _ _ DS). destruct LG as (G1 & G2 & G3).
    rewrite map_map in DS.
    assert (H1 : Rep E s lc rc m A D (ys ++ nz)).
    { eapply (rep_perm E OK); [apply Permutation_refl|exact PZ|exact H]. }
    destruct (drop_rights_d_ok _ _ _ _ _ _ _ _ w w' k st H1) as (m' & Q1 & Q2); auto.
    { intros u Hu. apply CZ. eapply Permutation_in; [symmetry; exact PZ|auto]. }
    assert (RC : retain_unpaired E (capped f) (m, (y, k)) = Ret (m', (y', (k - length (map (rkey E s) ys))%nat)) tt).
    { unfold retain_unpaired, retain_with. cbn [fst]. rewrite (scan_capped _ _ _ _ _ _ _ _ k SC), Q2. auto. }
    destruct (C56_retain_unpaired_partial E OK (capped f) (y, k) room m HR) as (rs1 & ps1 & U1 & V1 & HU1 & _ & W).
    assert (rs1 = rs /\ ps1 = ps) as [-> ->].
    { destruct V as [V5 V6], V1 as [V3 V4]. split; congruence. }
    assert (U1 = U) as -> by congruence.
    destruct (filter_capped _ _ _ _ _ _ k SF) as (n & no' & SF' & PN). rewrite SF' in W.
    destruct W as (m2 & rs' & ps' & W1 & W2 & W3 & W4 & W5 & W6).
    assert (m2 = m') as -> by congruence.
    exists m', w', k, st, rs', ps'. split; [auto|]. split.
    { unfold retain_unpaired_d, retain_with_d. rewrite SC, Q1. destruct st; auto. }
    split; [auto|]. split; [auto|]. split.
    { intros NA. rewrite G3 by auto. auto. }
    split; [eauto|]. auto 10.
  Qed.

  (* ---- extend ---- *)
  (* the items that inserting xs gives up: arguments that are in the map already, and what
     insert_right removes *)
  Fixpoint spent (m : map') (xs : list (option L * R)) : list (L + R) :=
    match xs with
    | [] => []
    | (Some l, r) :: t =>
        match insert E l r m with
        | Ret m' _ =>
            ((if contains_right E m r then [inr r] else []) ++ (if contains_left E m l then [inl l] else [])) ++
            spent m' t
        | Panic _ => []
        end
    | (None, r) :: t =>
        match insert_right E r m with
        | Ret m' o => match o with Some (ls, r0) => map inl ls ++ [inr r0] | None => [] end ++ spent m' t
        | Panic _ => []
        end
    end.
  Lemma spare_contains : forall m l r, insert_spare E m l r =
    (if contains_right E m r then [inr r] else []) ++ (if contains_left E m l then [inl l] else []).
  Proof.
    intros m l r. unfold insert_spare, contains_right, contains_left, find_right, find_left.
    rewrite !(get_mut_get E). destruct (t_get_mut _ (right_set m) _ _), (t_get_mut _ (left_set m) _ _); auto.
  Qed.
  (* what dropping a value does: everything dropped once if there is no panic; after a panic some
     left items of the set may be leaked *)
  Lemma digest_log : forall w o w' st, drop_digest dtor ord w o = (w', st) ->
    exists us lost, snd w' = snd w ++ us /\ fst w' = after dtor (fst w) us /\
      Permutation (us ++ map inl lost) (match o with Some (ls, r0) => map inl ls ++ [inr r0] | None => [] end) /\
      (lost <> [] -> st <> Dropped) /\ st = fate (panics_of dtor (fst w) us) /\ (panics_of dtor (fst w) us <= 2)%nat.
  Proof.
    intros w [[ls r]|] w' st H; cbn [drop_digest] in H.
    - destruct (drop_elements dtor w (map inl (ord ls))) as [w1 ok] eqn:D1.
      apply elements_fate in D1 as (us & rest & E1 & E2 & E3 & E4 & E5).
      cbn [glue] in H. unfold drop1 in H. destruct (dtor (fst w1) (inr r)) as [x ok2] eqn:DT.
      assert (MI : forall (q : list (L + R)) vs p, map inl vs = q ++ p -> exists ls, p = map inl ls).
      { induction q as [|a q IH]; intros vs p QE; cbn [app] in QE; [eauto|].
        destruct vs as [|v vs]; inversion QE. eauto. }
      destruct (MI _ _ _ E1) as (lost & ->).
      assert (P : Permutation (map inl ls ++ [inr r]) ((us ++ [@inr L R r]) ++ map inl lost)).
      { transitivity (map inl (ord ls) ++ [@inr L R r]).
        - apply Permutation_app_tail, Permutation_map. symmetry. apply ord_ok.
        - rewrite E1, <- !app_assoc. apply Permutation_app_head, Permutation_app_comm. }
      assert (AF : after dtor (fst w) (us ++ [inr r]) = x).
      { clear - E3 DT. revert E3. generalize (fst w) as x0. induction us as [|u us IH]; simpl; intros x0 E3; auto.
        rewrite <- E3, DT. auto. }
      exists (us ++ [inr r]), lost. rewrite AF, panics_app, <- E3, E4. cbn [panics_of]. rewrite DT. cbn [fst snd].
      assert (W : snd w' = snd w ++ us ++ [inr r] /\ fst w' = x /\ st = fate ((if ok then 0 else 1) + ((if ok2 then 0 else 1) + 0))).
      { rewrite app_assoc, <- E2. destruct ok2, ok; inversion H; subst; auto. }
      destruct W as (W1 & W2 & W3). split; [auto|]. split; [auto|]. split; [symmetry; auto|].
      split; [|split; [auto|destruct ok, ok2; simpl; lia]].
      intros Q. rewrite E5 in W3 by (destruct lost; [destruct Q; auto|discriminate]).
      rewrite W3. destruct ok2; discriminate.
    - inversion H; subst. exists [], []. rewrite app_nil_r. repeat split; auto.
  Qed.
  Lemma spare_log : forall w ts w' st, glue dtor false w ts = (w', st) -> (length ts <= 2)%nat ->
    snd w' = snd w ++ ts /\ fst w' = after dtor (fst w) ts /\ st = fate (panics_of dtor (fst w) ts) /\
    (panics_of dtor (fst w) ts <= 2)%nat.
  Proof.
    assert (PL : forall us x, (panics_of dtor x us <= length us)%nat).
    { induction us as [|u us IH]; simpl; intros x; auto. specialize (IH (fst (dtor x u))). destruct (snd (dtor x u)); lia. }
    intros w ts w' st H LT. apply glue_fate in H as (us & vs & -> & E2 & E3 & E4 & E5). rewrite app_length in LT.
    assert (vs = []).
    { destruct vs as [|v vs]; auto. rewrite E5 in E4 by discriminate. simpl in LT. specialize (PL us (fst w)).
      destruct (panics_of dtor (fst w) us) as [|[|k]]; simpl in E4; try discriminate. lia. }
    subst vs. rewrite app_nil_r in *. specialize (PL us (fst w)). repeat split; auto. lia.
  Qed.

  Lemma after_app : forall us vs x, after dtor x (us ++ vs) = after dtor (after dtor x us) vs.
  Proof. induction us as [|u us IH]; simpl; intros vs x; auto. Qed.

  (* extend stops at the insertion whose left-overs panic, all insertions up to it are complete;
     every item given up is dropped once, except that left items of a set may be leaked.
     [panics_of dtor x ts]: how many destructors panic when ts are dropped. *)
  Theorem C113_extend : forall xs m w, exists k, (k <= length xs)%nat /\
    match extend_d E dtor ord xs m w with
    | DRet (m', w') _ => k = length xs /\ extend E xs m = Ret m' tt /\
        exists ts, snd w' = snd w ++ ts /\ fst w' = after dtor (fst w) ts /\
          Permutation ts (spent m xs) /\ panics_of dtor (fst w) ts = 0%nat
    | DPanic (m', w') => (0 < k)%nat /\
        exists ts lost, snd w' = snd w ++ ts /\ fst w' = after dtor (fst w) ts /\
        Permutation (ts ++ map inl lost) (spent m (firstn k xs)) /\
        ((panics_of dtor (fst w) ts = 0%nat /\ lost = [] /\ extend E (firstn k xs) m = Panic m') \/
         (panics_of dtor (fst w) ts = 1%nat /\ extend E (firstn k xs) m = Ret m' tt))
    | DAbort => (0 < k)%nat /\ (exists m', extend E (firstn k xs) m = Ret m' tt) /\
        exists ts lost, Permutation (ts ++ map inl lost) (spent m (firstn k xs)) /\
          panics_of dtor (fst w) ts = 2%nat
    end.
  Proof.
    induction xs as [|[o r] xs IH]; intros m w; cbn [extend_d].
    - exists 0%nat. split; auto. split; auto. split; auto. exists []. rewrite app_nil_r. auto.
    - (* one insertion *)
      assert (ONE : match (match o with Some l => insert_d E dtor l r m w | None => insert_right_d E dtor ord r m w end) with
        | DRet (m', w') _ => exists us, snd w' = snd w ++ us /\ fst w' = after dtor (fst w) us /\
            (forall t, extend E ((o, r) :: t) m = extend E t m') /\ panics_of dtor (fst w) us = 0%nat /\
            forall t, exists vs, spent m ((o, r) :: t) = vs ++ spent m' t /\ Permutation us vs
        | DPanic (m', w') => exists us lost, snd w' = snd w ++ us /\ fst w' = after dtor (fst w) us /\
            Permutation (us ++ map inl lost) (spent m [(o, r)]) /\
            ((panics_of dtor (fst w) us = 0%nat /\ lost = [] /\ extend E [(o, r)] m = Panic m') \/
             (panics_of dtor (fst w) us = 1%nat /\ extend E [(o, r)] m = Ret m' tt))
        | DAbort => (exists m', extend E [(o, r)] m = Ret m' tt) /\
            exists us lost, Permutation (us ++ map inl lost) (spent m [(o, r)]) /\ panics_of dtor (fst w) us = 2%nat
        end).
      { assert (FT : forall n, (n <= 2)%nat -> match fate n with Dropped => n = 0%nat | Unwinding => n = 1%nat | Aborting => n = 2%nat end).
        { intros [|[|[|n]]] LE; simpl; auto. lia. }
        destruct o as [l|].
        - unfold insert_d. cbn [extend spent]. unfold bind.
          destruct (insert E l r m) as [m' u|m'] eqn:I.
          + rewrite <- spare_contains. destruct (glue dtor false w (insert_spare E m l r)) as [w' st] eqn:G.
            apply spare_log in G as (L1 & L2 & L3 & L4);
              [|rewrite spare_contains; destruct (contains_right _ _ _), (contains_left _ _ _); simpl; lia].
            apply FT in L4. rewrite <- L3 in L4. destruct st; cbn [close].
            * exists (insert_spare E m l r). repeat (split; auto). eauto.
            * exists (insert_spare E m l r), []. cbn [map]. rewrite !app_nil_r. auto 10.
            * split; [exists m'; reflexivity|]. exists (insert_spare E m l r), []. cbn [map]. rewrite !app_nil_r. auto.
          + exists [], []. cbn [map]. rewrite app_nil_r. auto 10.
        - unfold insert_right_d. cbn [extend spent]. unfold bind.
          destruct (insert_right E r m) as [m' o|m'] eqn:I.
          + destruct (drop_digest dtor ord w o) as [w' st] eqn:G.
            apply digest_log in G as (us & lost & L1 & L2 & L3 & L4 & L5 & L6).
            apply FT in L6. rewrite <- L5 in L6. destruct st; cbn [close].
            * destruct lost as [|x lost]; [|exfalso; apply L4; [discriminate|auto]].
              cbn [map] in L3. rewrite app_nil_r in L3. exists us. do 4 (split; auto). intros t. eexists. split; eauto.
            * exists us, lost. rewrite app_nil_r. auto 10.
            * split; [exists m'; reflexivity|]. exists us, lost. rewrite app_nil_r. auto.
          + exists [], []. cbn [map]. rewrite app_nil_r. auto 10. }
      destruct (match o with Some l => insert_d E dtor l r m w | None => insert_right_d E dtor ord r m w end)
        as [[m1 w1] u|[m1 w1]|].
      + destruct ONE as (us & O1 & OA & O2 & OP & O3). destruct (IH m1 w1) as (k & K & W).
        exists (Datatypes.S k). split; [simpl; lia|].
        assert (PP : forall ts, panics_of dtor (fst w) (us ++ ts) = panics_of dtor (fst w1) ts).
        { intros ts. rewrite panics_app, OP, OA. auto. }
        assert (AA : forall ts, after dtor (fst w) (us ++ ts) = after dtor (fst w1) ts).
        { intros ts. rewrite after_app, OA. auto. }
        destruct (extend_d E dtor ord xs m1 w1) as [[m' w'] u'|[m' w']|].
        * destruct W as (W1 & W2 & ts & W3 & WA & W4 & W5). split; [simpl; lia|]. rewrite O2. split; auto.
          exists (us ++ ts). rewrite PP, AA, W3, O1, app_assoc. split; auto. split; auto. split; auto.
          destruct (O3 xs) as (vs & -> & P). apply Permutation_app; auto.
        * destruct W as (W1 & ts & lost & W3 & WA & W4 & W5). split; [lia|]. exists (us ++ ts), lost.
          rewrite PP, AA, W3, O1, app_assoc. split; auto. split; auto. cbn [firstn]. rewrite O2. split; auto.
          destruct (O3 (firstn k xs)) as (vs & -> & P). rewrite <- app_assoc. apply Permutation_app; auto.
        * destruct W as (W1 & (m' & W2) & ts & lost & W3 & W4). split; [lia|]. cbn [firstn].
          split; [exists m'; rewrite O2; auto|]. exists (us ++ ts), lost. rewrite PP. split; auto.
          destruct (O3 (firstn k xs)) as (vs & -> & P). rewrite <- app_assoc. apply Permutation_app; auto.
      + exists 1%nat. split; [simpl; lia|]. split; [lia|]. cbn [firstn]. auto.
      + exists 1%nat. split; [simpl; lia|]. split; [lia|]. cbn [firstn]. auto.
  Qed.

  (* ---- swap_right, swap_right_remove: only what a discarded insert_right removed is dropped ---- *)
  Definition swapped (m : map') (w : tomb (L + R) X) (old new : R) {A} (plain : res map' A) (d : dres (map' * tomb (L + R) X) A) : Prop :=
    match d with
    | DRet (m', w') a => plain = Ret m' a /\
        exists ts, snd w' = snd w ++ ts /\ panics_of dtor (fst w) ts = 0%nat /\
          Permutation ts (if contains_right E m old then [] else spent m [(None, new)])
    | DPanic (m', w') => (plain = Panic m' /\ w' = w) \/
        (contains_right E m old = false /\ exists a ts lost, plain = Ret m' a /\ snd w' = snd w ++ ts /\
           panics_of dtor (fst w) ts = 1%nat /\
           Permutation (ts ++ map inl lost) (spent m [(None, new)]))
    | DAbort => contains_right E m old = false /\ (exists m' a, plain = Ret m' a) /\
        exists ts lost, Permutation (ts ++ map inl lost) (spent m [(None, new)]) /\ panics_of dtor (fst w) ts = 2%nat
    end.
  Theorem C113_swap_right : forall old new m w,
    swapped m w old new (swap_right E old new m) (swap_right_d E dtor ord old new m w) /\
    swapped m w old new (swap_right_remove E old new m) (swap_right_remove_d E dtor ord old new m w).
  Proof.
    intros old new m w.
    assert (CR : contains_right E m old =
      match t_get_mut E (right_set m) (hashR E (hash_builder m) old) (equivalent_key_right (eqR E) old) with
      | Some _ => true | None => false end).
    { unfold contains_right, find_right. rewrite (get_mut_get E). destruct (t_get_mut _ _ _ _); auto. }
    assert (RN : t_get_mut E (right_set m) (hashR E (hash_builder m) old) (equivalent_key_right (eqR E) old) = None ->
      t_remove_entry (lo E) (right_set m) (hashR E (hash_builder m) old) (equivalent_key_right (eqR E) old) = None).
    { unfold t_get_mut, t_remove_entry. destruct (t_find _ _ _ _) as [i|]; auto.
      destruct (t_entry (right_set m) i) as [e|]; [discriminate|auto]. }
    unfold swapped, swap_right_d, swap_right_remove_d, swap_right, swap_right_remove, right_remove_entry. mrun.
    rewrite CR. destruct (t_get_mut E (right_set m) (hashR E (hash_builder m) old) _) as [[j r]|] eqn:G.
    - split.
      + match goal with |- context [match ?q with Ret _ _ => DRet _ _ | Panic _ => DPanic _ end] =>
          destruct q; auto; split; auto; exists []; rewrite app_nil_r; auto end.
      + match goal with |- context [match ?q with Ret _ _ => DRet _ _ | Panic _ => DPanic _ end] =>
          destruct q; auto; split; auto; exists []; rewrite app_nil_r; auto end.
    - rewrite (RN eq_refl). cbn iota beta.
      unfold insert_right_d. cbn [spent]. unfold bind, ret.
      destruct (insert_right E new m) as [m' o|m'] eqn:I; [|split; auto].
      destruct (drop_digest dtor ord w o) as [w' st] eqn:DG.
      apply digest_log in DG as (us & lost & L1 & L2 & L3 & L4 & L5 & L6). rewrite app_nil_r.
      assert (FT : match st with Dropped => panics_of dtor (fst w) us = 0%nat
                   | Unwinding => panics_of dtor (fst w) us = 1%nat | Aborting => panics_of dtor (fst w) us = 2%nat end).
      { rewrite L5. destruct (panics_of dtor (fst w) us) as [|[|[|n]]]; simpl; auto. lia. }
      destruct st; cbn [close].
      + destruct lost as [|x lost]; [|exfalso; apply L4; [discriminate|auto]].
        cbn [map] in L3. rewrite app_nil_r in L3. split; split; auto; exists us; auto.
      + split; right; split; auto; eexists; exists us, lost; split; [reflexivity| |reflexivity|]; auto.
      + split; split; auto; split; eauto.
  Qed.

  (* ---- drop of the map ---- *)
  Definition all_of (rs : list R) (ps : list (L * R)) : list (L + R) := map inl (map fst ps) ++ map inr rs.
  Lemma held_perm : forall s lc rc m A D B, Rep E s lc rc m A D B ->
    Permutation (held_l m) (map inl (map fst (map z_pair A))) /\ Permutation (held_r m) (map inr (map y_r B)).
  Proof.
    intros s lc rc m A D B H. unfold held_l, held_r. split.
    - rewrite (rep_l _ _ _ _ _ _ _ _ H), !map_map. auto.
    - rewrite (rep_r _ _ _ _ _ _ _ _ H), !map_map. auto.
  Qed.
  Theorem C113_map_drop : forall room m w, reachable E room m ->
    exists rs ps w' lg lost rg lost', holds E m rs ps /\
      map_drop dtor m w = (w', fate (panics_of dtor (fst w) (lg ++ rg))) /\
      snd w' = snd w ++ lg ++ rg /\
      Permutation (lg ++ lost) (map inl (map fst ps)) /\ Permutation (rg ++ lost') (map inr rs) /\
      (lost <> [] -> panics_of dtor (fst w) lg = 1%nat) /\
      (lost' <> [] -> panics_of dtor (fst w) (lg ++ rg) = (1 + panics_of dtor (fst w) lg)%nat).
  Proof.
    intros room m w H. apply (reachable_repr E OK) in H as (s & lc & rc & G & H & B1 & B2).
    apply (GroupProps.view E OK) in H as (rs & ps & V & _ & _ & HH).
    destruct HH as (A & D & B & H & EG & _). inversion EG; subst rs ps.
    destruct (held_perm _ _ _ _ _ _ _ H) as [PL PR].
    unfold map_drop. destruct (drop_elements dtor w (held_l m)) as [w1 ok1] eqn:D1.
    destruct (drop_elements dtor w1 (held_r m)) as [w2 ok2] eqn:D2.
    destruct (two_tables dtor _ _ _ _ _ _ _ D1 D2) as (lg & lost & rg & lost' & E1 & E2 & E3 & E4 & E5 & E6).
    exists (map y_r B), (map z_pair A), w2, lg, lost, rg, lost'. rewrite E4, <- E1, <- E2.
    split; [exact V|]. split; [reflexivity|]. auto 10.
  Qed.

  (* ---- clear ---- *)
  (* The full claim is false, see C114_clear_refuted. *)
  Theorem C114_clear_partial : forall room m w, reachable E room m ->
    exists rs ps, holds E m rs ps /\
    match clear_d E dtor m w with
    | DRet (m', w') _ =>
        behaves_as E room m' (GC [] []) /\
        exists ts, snd w' = snd w ++ ts /\ Permutation ts (all_of rs ps) /\ panics_of dtor (fst w) ts = 0%nat
    | DPanic (m', w') =>
        (exists ts lost, snd w' = snd w ++ ts /\
          ((* the Drop of a right item panicked: the map is empty *)
           ((exists r, blamed dtor (fst w) ts (inr r)) /\ behaves_as E room m' (GC [] []) /\ Permutation (ts ++ lost) (all_of rs ps)) \/
           (* of a left item: there is no left item any more; every right item is there, but counts
              as paired if it was paired before, and what it is used for panics *)
           ((exists l, blamed dtor (fst w) ts (inl l)) /\ Permutation (ts ++ lost) (map inl (map fst ps)) /\
            behaves_loosely E room m' (GC rs []) /\ seen_as E m' (GC rs []) [] /\
            (forall r, is_right_paired E m' r = is_right_paired E m r) /\
            unpaired_rest (iter_unpaired m') = unpaired_rest (iter_unpaired m) /\
            (forall l r q, In (l, r) ps -> q =R r ->
              (exists it, get_left_iter E m' q = Some it /\ pair_rest E m' it = Panicked) /\
              (exists m'', remove_right E q m' = Panic m'' /\ contains_right E m'' q = false) /\
              (exists m'', insert_right E q m' = Panic m'' /\ contains_right E m'' q = false) /\
              ((2 <= length (lefts_of E ps q))%nat -> iter_rest E m' (iter m') = Panicked))))) /\
        (* clearing once more mends the map *)
        exists m'', clear E m' = Ret m'' tt /\ behaves_as E room m'' (GC [] [])
    | DAbort => False
    end.
  Proof.
    intros room m w H. apply (reachable_repr E OK) in H as (s & lc & rc & G & H & B1 & B2).
    apply (GroupProps.view E OK) in H as (rs & ps & V & _ & _ & HH).
    destruct HH as (A & D & B & H & EG & [T1 T2] & C1 & C2). rewrite (T1 eq_refl) in *. clear D T1.
    inversion EG; subst rs ps. exists (map y_r B), (map z_pair A). split; auto.
    destruct (held_perm _ _ _ _ _ _ _ H) as [PL PR].
    assert (H1 : Repr E (false, true) s lc rc (set_left (t_clear (lo E) (left_set m)) m) (GC (map y_r B) []) /\
      Rep E s lc rc (set_left (t_clear (lo E) (left_set m)) m) [] A B).
    { assert (Z : Rep E s lc rc (set_left (t_clear (lo E) (left_set m)) m) [] A B).
      { apply core_rep; auto.
        - assert (K := core_kill E s lc rc A [] [] B). rewrite !app_nil_r in K. apply K.
          eapply rep_core; exact H.
        - apply (rep_hb _ _ _ _ _ _ _ _ H).
        - apply (rep_r _ _ _ _ _ _ _ _ H). }
      split; auto. exists [], A, B. split; auto. split; auto. split; auto.
      split; [discriminate|]. intros _ z []. }
    destruct H1 as [H1 H1'].
    assert (CLR : forall b m1 G1, Repr E b s lc rc m1 G1 ->
      exists m'', clear E m1 = Ret m'' tt /\ behaves_as E room m'' (GC [] [])).
    { intros b m1 G1 HQ. destruct (clear_ok E _ _ _ _ _ _ HQ) as (m'' & Q & H2). exists m''. split; auto.
      eapply (repr_behaves E OK); eauto. }
    assert (H0 : Repr E (true, true) s lc rc m (GC (map y_r B) (map z_pair A))).
    { exists A, [], B. split; auto. split; auto. split; [split; auto|auto]. }
    destruct (clear_ok E _ _ _ _ _ _ H0) as (m2 & Q2 & H2).
    assert (M2 : set_right (t_clear (lo E) (right_set (set_left (t_clear (lo E) (left_set m)) m)))
      (set_left (t_clear (lo E) (left_set m)) m) = m2).
    { unfold clear in Q2. unfold bind, getst, putst in Q2. inversion Q2. reflexivity. }
    unfold clear_d. cbv zeta. destruct (drop_elements dtor w (held_l m)) as [w1 ok1] eqn:D1.
    apply elements_blame in D1 as (u1 & r1 & E1 & L1 & A1 & T1 & F1).
    destruct ok1.
    - rewrite M2. change (held_r (set_left (t_clear (lo E) (left_set m)) m)) with (held_r m).
      destruct (drop_elements dtor w1 (held_r m)) as [w2 ok2] eqn:D2.
      apply elements_blame in D2 as (u2 & r2 & E2 & L2 & A2 & TT2 & FF2).
      destruct T1 as [T1 N1]; auto. rewrite T1, app_nil_r in E1. rewrite L1, <- app_assoc in L2. rewrite A1 in *.
      assert (P : Permutation ((u1 ++ u2) ++ r2) (all_of (map y_r B) (map z_pair A))).
      { rewrite <- app_assoc, <- E2, <- E1. apply Permutation_app; auto. }
      assert (BE : behaves_as E room m2 (GC [] [])) by (eapply (repr_behaves E OK); eauto).
      destruct ok2.
      + split; auto. exists (u1 ++ u2). destruct TT2 as [TT2 N2]; auto. rewrite TT2, app_nil_r in P.
        rewrite panics_app, N1, N2. auto.
      + split; [|eapply CLR; eauto]. exists (u1 ++ u2), r2. split; auto. left. split; [|auto].
        destruct FF2 as (t & I & Q); auto. apply in_map_iff in I as (y & <- & _). exists (r_value (snd y)).
        apply blamed_app; auto.
    - split; [|eapply CLR; exact H1]. exists u1, r1. split; auto. right. split.
      { destruct F1 as (t & I & Q); auto. apply in_map_iff in I as (y & <- & _). exists (l_value (snd y)). auto. }
      split; [rewrite <- E1; auto|]. split; [eapply (repr_behaves_loosely E OK); eauto|].
      split; [eapply wrepr_seen; eauto; apply repr_wrepr; eauto|].
      destruct (dropped_seen E OK _ _ _ _ _ _ _ _ _ _ H H1' (Permutation_refl A)) as (Q3 & Q4 & Q5); auto.
      { rewrite app_nil_r. auto. }
      split; auto. split; auto. intros l r q HI QR. destruct (Q5 l r q HI QR) as (X1 & X2 & X3 & _ & X5). auto.
  Qed.

  (* ---- destructors that do not panic change nothing ---- *)
  Definition forget {A B} (r : dres (A * tomb (L + R) X) B) : option (res A B) :=
    match r with
    | DRet (a, _) u => Some (Ret a u)
    | DPanic (a, _) => Some (Panic a)
    | DAbort => None
    end.
  Theorem C113_peaceful : peaceful dtor -> forall m w,
    forget (clear_d E dtor m w) = Some (clear E m) /\
    (forall l r, forget (insert_d E dtor l r m w) = Some (insert E l r m)) /\
    (forall xs, forget (extend_d E dtor ord xs m w) = Some (extend E xs m)) /\
    (forall xs, forget (extend_d E dtor ord (map (fun p => (Some (fst p), snd p)) xs) m w) = Some (extend_pairs E xs m)) /\
    (forall old new, forget (swap_right_d E dtor ord old new m w) = Some (swap_right E old new m)) /\
    (forall old new, forget (swap_right_remove_d E dtor ord old new m w) = Some (swap_right_remove E old new m)) /\
    (forall Y (f : Y -> L * R -> Y * verdict) y,
       forget (retain_paired_d E dtor f m y w) = Some (retain_paired E f (m, y))) /\
    (forall Y (f : Y -> R -> Y * verdict) y,
       forget (retain_unpaired_d E dtor ord f m y w) = Some (retain_unpaired E f (m, y))) /\
    snd (map_drop dtor m w) = Dropped.
  Proof.
    intros PF m w.
    assert (DE : forall ts v, exists v', drop_elements dtor v ts = (v', true)).
    { intros ts v. assert (Q := peaceful_elements dtor PF ts v).
      destruct (drop_elements dtor v ts) as [v' ok]. simpl in Q. subst. eauto. }
    assert (GL : forall ts v, exists v', glue dtor false v ts = (v', Dropped)).
    { intros ts v. assert (Q := peaceful_glue dtor PF ts v).
      destruct (glue dtor false v ts) as [v' ok]. simpl in Q. subst. eauto. }
    assert (DG : forall o v, exists v', drop_digest dtor ord v o = (v', Dropped)).
    { intros [[ls r]|] v; cbn [drop_digest]; eauto. destruct (DE (map inl (ord ls)) v) as [v1 ->].
      cbn [negb]. apply GL. }
    assert (INS : forall l r m w, forget (insert_d E dtor l r m w) = Some (insert E l r m)).
    { intros l r m0 w0. unfold insert_d. destruct (insert E l r m0) as [m1 []|m1]; auto.
      destruct (GL (insert_spare E m0 l r) w0) as [w1 ->]. auto. }
    assert (IR : forall r m w, match insert_right E r m with
      | Ret m' _ => exists w', insert_right_d E dtor ord r m w = DRet (m', w') tt
      | Panic m' => insert_right_d E dtor ord r m w = DPanic (m', w) end).
    { intros r m0 w0. unfold insert_right_d. destruct (insert_right E r m0) as [m1 o|m1]; auto.
      destruct (DG o w0) as [w1 ->]. cbn [close]. eauto. }
    assert (EXT : forall xs m w, forget (extend_d E dtor ord xs m w) = Some (extend E xs m)).
    { induction xs as [|[[l|] r] xs IH]; intros m0 w0; auto; cbn [extend_d extend]; unfold bind.
      - specialize (INS l r m0 w0). destruct (insert_d E dtor l r m0 w0) as [[m1 w1] u|[m1 w1]|];
          cbn [forget] in INS; try discriminate; injection INS as <-; auto.
      - specialize (IR r m0 w0). destruct (insert_right E r m0) as [m1 o|m1].
        + destruct IR as [w1 ->]. auto.
        + rewrite IR. auto. }
    assert (RET : forall Y A I (f : Y -> A -> Y * verdict) next key da da' fuel (it : I) y,
      (forall td, forget (da' td m w) = Some (da td m)) ->
      forget (retain_with_d f next key da' fuel it m y w) = Some (retain_with f next key da fuel it (m, y))).
    { intros Y A I f next key da da' fuel it y ALL. unfold retain_with_d, retain_with. cbn [fst snd].
      destruct (retain_scan f next key fuel it y) as [y' td|y']; auto.
      specialize (ALL td). destruct (da' td m w) as [[m1 w1] u|[m1 w1]|]; simpl in ALL; try discriminate;
        injection ALL as <-; try destruct u; auto. }
    assert (RO : forall old, t_get_mut E (right_set m) (hashR E (hash_builder m) old) (equivalent_key_right (eqR E) old) = None ->
      t_remove_entry (lo E) (right_set m) (hashR E (hash_builder m) old) (equivalent_key_right (eqR E) old) = None).
    { intros old. unfold t_get_mut, t_remove_entry. destruct (t_find _ _ _ _) as [i|]; auto.
      destruct (t_entry (right_set m) i) as [e|]; [discriminate|auto]. }
    split; [|split; [|split; [|split; [|split; [|split; [|split; [|split]]]]]]]; auto.
    - unfold clear_d. destruct (DE (held_l m) w) as [w1 ->].
      destruct (DE (held_r (set_left (t_clear (lo E) (left_set m)) m)) w1) as [w2 ->]. auto.
    - intros xs. rewrite EXT. f_equal. clear. revert m. induction xs as [|[l r] xs IH]; intros m; auto.
      cbn [map fst snd extend extend_pairs]. unfold bind. destruct (insert E l r m) as [m1 o|m1]; auto.
    - intros old new. unfold swap_right_d.
      destruct (t_get_mut E (right_set m) _ _) as [[j r0]|] eqn:G.
      + destruct (swap_right E old new m) as [m1 []|m1]; auto.
      + unfold swap_right. mrun. rewrite G. specialize (IR new m w).
        destruct (insert_right E new m) as [m1 o|m1]; [destruct IR as [w1 ->]|rewrite IR]; auto.
    - intros old new. unfold swap_right_remove_d.
      destruct (t_get_mut E (right_set m) _ _) as [[j r0]|] eqn:G.
      + destruct (swap_right_remove E old new m) as [m1 o|m1]; auto.
      + unfold swap_right_remove, right_remove_entry. mrun. rewrite (RO old G). specialize (IR new m w).
        destruct (insert_right E new m) as [m1 o|m1]; [destruct IR as [w1 ->]|rewrite IR]; auto.
    - intros Y f y. apply RET. intros td. clear RET RO. revert m w.
      induction td as [|[h i] td IH]; intros m w; auto. cbn [drop_lefts_d drop_lefts]. unfold bind.
      destruct (left_remove_entry E h (left_with_left_id i) m) as [m1 o|m1]; auto.
      destruct (GL (match o with Some e => [inl (l_value e)] | None => [] end) w) as [w1 ->]. auto.
    - intros Y f y. apply RET. intros td. clear RET RO. revert m w.
      induction td as [|[h i] td IH]; intros m w; auto. cbn [drop_rights_d drop_rights]. unfold bind.
      destruct (remove_via_hash_and_id E h i m) as [m1 o|m1]; auto.
      destruct (DG o w) as [w1 ->]. auto.
    - unfold map_drop. destruct (DE (held_l m) w) as [w1 ->]. destruct (DE (held_r m) w1) as [w2 ->]. auto.
  Qed.
End Proofs.

(* ---- cases ---- [grumpy ks]: Drop panics for the items with these keys *)
Notation grumpy := CycleMapDrop.grumpy.
Notation w0 := CycleMapDrop.w0.
Definition low_r (x : N) (r : item) : N * verdict := (x + 1, Some (fst r <=? 70)).
Definition rev_set (ls : list item) : list item := rev ls.

Example C113_cases :
  reachable env_collide 1 gmc /\ (forall ls, Permutation (rev_set ls) ls) /\
  (* the pairs of 30 go, in the order 5, 2, 6; the Drop of 2 panics: 6 stays *)
  (exists m', retain_paired_d env_collide (grumpy [2]) f30 gmc 0 w0 = DPanic (m', 6, (2%nat, [inl (it 5); inl (it 2)])) /\
     paired_rest env_collide m' (iter_paired m') = Done [(it 7, it 10); (it 1, it 10); (it 6, it 30); (it 8, it 10)] /\
     get_right env_collide m' (it 6) = Some (it 30)) /\
  (* 40 and 70 would go; the Drop of 40 panics: 70 stays *)
  (exists m', retain_unpaired_d env_collide (grumpy [40]) rev_set low_r gmc 0 w0 = DPanic (m', 3, (1%nat, [inr (it 40)])) /\
     right_rest (iter_right m') = Done [it 10; it 30; it 70; it 90]) /\
  (* 1 is known and dropped; 30 is replaced: its left items are dropped 2, 5, 6, the panic of 5
     leaks 6; (3, 50) is not inserted any more *)
  (exists m', extend_d env_collide (grumpy [5]) rev_set [(Some (it' 1), it 80); (None, it' 30); (Some (it 3), it 50)] gmc w0 =
     DPanic (m', (4%nat, [inl (it' 1); inl (it 2); inl (it 5); inr (it 30)])) /\
     get_right env_collide m' (it 1) = Some (it 80) /\ contains_left env_collide m' (it 6) = false /\
     is_right_paired env_collide m' (it 30) = false /\ contains_right env_collide m' (it 30) = true /\
     contains_left env_collide m' (it 3) = false) /\
  (* 2 and then 30 panic *)
  extend_d env_collide (grumpy [2; 30]) rev_set [(None, it' 30)] gmc w0 = DAbort /\
  swap_right_d env_collide (grumpy [2; 30]) rev_set (it 99) (it' 30) gmc w0 = DAbort /\
  (exists m', swap_right_d env_collide (grumpy [30]) rev_set (it 99) (it' 30) gmc w0 =
     DPanic (m', (4%nat, [inl (it 2); inl (it 5); inl (it 6); inr (it 30)])) /\
     is_right_paired env_collide m' (it 30) = false /\ contains_right env_collide m' (it 30) = true) /\
  map_drop (grumpy [1]) gmc w0 =
    ((8%nat, [inl (it 7); inl (it 5); inl (it 1); inr (it 40); inr (it 10); inr (it 30); inr (it 70); inr (it 90)]), Unwinding) /\
  snd (map_drop (grumpy [1; 70]) gmc w0) = Aborting.
Proof.
  split; [apply gm1_reachable; [simpl; auto|reflexivity]|].
  split; [intros ls; symmetry; apply Permutation_rev|].
  split; [eexists; split; [vm_compute; reflexivity|]; split; vm_compute; reflexivity|].
  split; [eexists; split; vm_compute; reflexivity|].
  split; [eexists; split; [vm_compute; reflexivity|]; repeat split; vm_compute; reflexivity|].
  split; [vm_compute; reflexivity|]. split; [vm_compute; reflexivity|].
  split; [eexists; split; [vm_compute; reflexivity|]; split; vm_compute; reflexivity|].
  split; vm_compute; reflexivity.
Qed.

(* The full claim of C114 (after a clear() cut short by a panicking Drop the map is sound: a right
   item that counts as paired has left items, using it does not panic) is false. *)
Theorem C114_clear_refuted : exists m' w' i,
  reachable env_collide 1 gmc /\
  clear_d env_collide (grumpy [1]) gmc w0 = DPanic (m', w') /\
  len_left m' = 0%nat /\ is_right_paired env_collide m' (it 10) = true /\
  get_left_iter env_collide m' (it 10) = Some i /\ pair_rest env_collide m' i = Panicked /\
  iter_rest env_collide m' (iter m') = Panicked /\
  (exists m'', remove_right env_collide (it 10) m' = Panic m'') /\
  (exists m'', insert_right env_collide (it 10) m' = Panic m'').
Proof.
  do 3 eexists. split; [apply gm1_reachable; [simpl; auto|reflexivity]|].
  do 6 (split; [vm_compute; reflexivity|]). split; eexists; vm_compute; reflexivity.
Qed.
Example C114_cases :
  (exists m', clear_d env_collide (grumpy [1]) gmc w0 = DPanic (m', (3%nat, [inl (it 7); inl (it 5); inl (it 1)])) /\
    len_right m' = 5%nat) /\
  (exists m' w', clear_d env_collide (grumpy [10]) gmc w0 = DPanic (m', w') /\ fst w' = 8%nat /\
    len_left m' = 0%nat /\ len_right m' = 0%nat) /\
  (exists m' w', clear_d env_collide (grumpy []) gmc w0 = DRet (m', w') tt /\ fst w' = 11%nat).
Proof.
  split; [eexists; split; vm_compute; reflexivity|].
  split; [do 2 eexists; split; [vm_compute; reflexivity|]; repeat split; vm_compute; reflexivity|].
  do 2 eexists. split; vm_compute; reflexivity.
Qed.

Print Assumptions C113_retain_paired.
Print Assumptions C113_retain_unpaired.
Print Assumptions C113_extend.
Print Assumptions C113_swap_right.
Print Assumptions C113_map_drop.
Print Assumptions C113_peaceful.
Print Assumptions C114_clear_partial.
Print Assumptions C114_clear_refuted.
