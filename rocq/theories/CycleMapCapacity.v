(* CycleMap: capacities.  Nothing here depends on Eq or Hash being lawful, or on how the map
   came about; what is assumed of hashbrown is [capacity_ok]. *)
From Coq Require Import List NArith Lia Bool Permutation PeanoNat.
From Verif Require Import Closures Prelude RawTable Optionals CycleMap ListFacts TableFacts
  CycleMapSpec CycleMapHistory CycleMapAny Capacity Concrete.
Import ListNotations.
Open Scope N_scope.

(* what a call does to the room in each of the two sets: items handed over to the map count, see
   Capacity.  [DrainN] stands here for an iterator that is dropped; a leaked one would take
   the memory of the left set with it. *)
Definition effect_l {L R} (o : xop L R) : effect :=
  match o with
  | Call (ShrinkTo _) | Call ShrinkToFit => Lost
  | Call (Reserve n) | Call (TryReserve n) => Needs n
  | _ => Adds (N.of_nat (length (given_l o)))
  end.
Definition effect_r {L R} (o : xop L R) : effect :=
  match o with
  | Call (ShrinkTo _) | Call ShrinkToFit => Lost
  | Call (Reserve n) | Call (TryReserve n) => Needs n
  | _ => Adds (N.of_nat (length (given_r o)))
  end.

Section Cap.
  Context {L R S : Type}.
  Variable E : env L R S.
  Hypothesis OK : layout_ok (lo E).
  Hypothesis CO : capacity_ok (lo E).
  Notation map := (cmap L R S).
  Notation costs := (costs (lo E) (@left_set L R S) (@right_set L R S)).
  Notation at_cost := (at_cost (lo E) (@left_set L R S) (@right_set L R S)).

  Lemma put_l : forall k m t, uses (lo E) k (left_set m) t -> costs k 0 m (set_left t m).
  Proof. intros k m t H. split; [exact H|apply uses_refl]. Qed.
  Lemma put_r : forall k m t, uses (lo E) k (right_set m) t -> costs 0 k m (set_right t m).
  Proof. intros k m t H. split; [apply uses_refl|exact H]. Qed.

  Lemma l_remove_cost : forall h p, at_cost 0 0 (left_remove_entry E h p).
  Proof.
    intros h p m. unfold left_remove_entry, bind, getst. destruct (t_remove_entry _ _ _ _) as [[e t]|] eqn:Q.
    - apply put_l. eapply remove_entry_uses; eauto.
    - apply costs_refl.
  Qed.
  Lemma r_remove_cost : forall h p, at_cost 0 0 (right_remove_entry E h p).
  Proof.
    intros h p m. unfold right_remove_entry, bind, getst. destruct (t_remove_entry _ _ _ _) as [[e t]|] eqn:Q.
    - apply put_r. eapply remove_entry_uses; eauto.
    - apply costs_refl.
  Qed.
  Lemma l_insert_cost : forall h e, at_cost 1 0 (left_insert E h e).
  Proof. intros h e m. apply put_l. apply insert_uses; auto. Qed.
  Lemma r_insert_cost : forall h e, at_cost 0 1 (right_insert E h e).
  Proof. intros h e m. apply put_r. apply insert_uses; auto. Qed.
  Lemma incr_cost : at_cost 0 0 (incr_counter E).
  Proof.
    intros m. unfold incr_counter. apply cost_getst, cost_unwrap. intros c _. split; apply uses_refl.
  Qed.
  Ltac free L := apply cost_free; [apply L|]; intros ? ? _.

  Lemma rvl_cost : forall k, at_cost 0 0 (remove_via_left E k).
  Proof.
    intros k m. unfold remove_via_left. apply cost_getst. free l_remove_cost.
    destruct x as [lp|]; [|apply cost_ret]. free r_remove_cost. apply cost_unwrap. intros. apply cost_ret.
  Qed.
  Lemma rvr_cost : forall k, at_cost 0 0 (remove_via_right E k).
  Proof.
    intros k m. unfold remove_via_right. apply cost_getst. free r_remove_cost.
    destruct x as [lp|]; [|apply cost_ret]. free l_remove_cost. apply cost_unwrap. intros. apply cost_ret.
  Qed.
  Lemma remove_cost : forall l r, at_cost 0 0 (remove E l r).
  Proof. intros l r m. unfold remove. apply cost_getst. destruct (are_paired _ _ _ _); [apply rvl_cost|apply cost_ret]. Qed.
  Lemma insert_cost : forall l r, at_cost 1 1 (insert E l r).
  Proof.
    intros l r m. unfold insert. free rvl_cost. free rvr_cost. apply cost_getst. free incr_cost.
    apply (cost_bind _ _ _ 1 0 0 1); [apply l_insert_cost|]. intros ? ? _.
    apply (cost_bind _ _ _ 0 1 0 0); [apply r_insert_cost|]. intros. apply cost_ret.
  Qed.
  Lemma eqcl_cost : forall old new h, at_cost 0 0 (swap_left_eq_check E old new h).
  Proof.
    intros old new h m. unfold swap_left_eq_check. apply cost_getst.
    destruct (t_get _ _ _ _); [|apply cost_ret]. destruct (negb _); [apply rvl_cost|apply cost_ret].
  Qed.
  Lemma eqcr_cost : forall old new h, at_cost 0 0 (swap_right_eq_check E old new h).
  Proof.
    intros old new h m. unfold swap_right_eq_check. apply cost_getst.
    destruct (t_get _ _ _ _); [|apply cost_ret]. destruct (negb _); [apply rvr_cost|apply cost_ret].
  Qed.
  Lemma swap_left_cost : forall old new, at_cost 1 0 (swap_left E old new).
  Proof.
    intros old new m. unfold swap_left. apply cost_getst. free eqcl_cost. apply cost_getst.
    destruct (t_get _ _ _ _) as [lp|]; [|apply cost_ret]. apply cost_unwrap. intros i _.
    apply cost_free; [apply put_r, modify_uses|]. intros ? ? _. free l_remove_cost.
    apply cost_unwrap. intros p _. apply (cost_bind _ _ _ 1 0 0 0); [apply l_insert_cost|]. intros. apply cost_ret.
  Qed.
  Lemma swap_right_cost : forall old new, at_cost 0 1 (swap_right E old new).
  Proof.
    intros old new m. unfold swap_right. apply cost_getst. free eqcr_cost. apply cost_getst.
    destruct (t_get _ _ _ _) as [lp|]; [|apply cost_ret]. apply cost_unwrap. intros i _.
    apply cost_free; [apply put_l, modify_uses|]. intros ? ? _. free r_remove_cost.
    apply cost_unwrap. intros p _. apply (cost_bind _ _ _ 0 1 0 0); [apply r_insert_cost|]. intros. apply cost_ret.
  Qed.
  Lemma swap_left_checked_cost : forall old ex new, at_cost 1 0 (swap_left_checked E old ex new).
  Proof.
    intros old ex new m. unfold swap_left_checked. apply cost_getst.
    destruct (negb _); [apply cost_ret|apply swap_left_cost].
  Qed.
  Lemma swap_right_checked_cost : forall old ex new, at_cost 0 1 (swap_right_checked E old ex new).
  Proof.
    intros old ex new m. unfold swap_right_checked. apply cost_getst.
    destruct (negb _); [apply cost_ret|apply swap_right_cost].
  Qed.
  Lemma swap_left_or_insert_cost : forall old new r, at_cost 1 1 (swap_left_or_insert E old new r).
  Proof.
    intros old new r m. unfold swap_left_or_insert. apply cost_getst.
    destruct (t_get _ _ _ _); [eapply costs_le; [apply swap_left_cost| |]; lia|].
    apply (cost_bind _ _ _ 1 1 0 0); [apply insert_cost|]. intros. apply cost_ret.
  Qed.
  Lemma swap_right_or_insert_cost : forall old new l, at_cost 1 1 (swap_right_or_insert E old new l).
  Proof.
    intros old new l m. unfold swap_right_or_insert. apply cost_getst.
    destruct (t_get _ _ _ _); [eapply costs_le; [apply swap_right_cost| |]; lia|].
    apply (cost_bind _ _ _ 1 1 0 0); [apply insert_cost|]. intros ? [| | |] _; apply costs_any.
  Qed.
  Lemma extend_cost : forall xs, at_cost (N.of_nat (length xs)) (N.of_nat (length xs)) (extend E xs).
  Proof.
    induction xs as [|[a b] xs IH]; intros m; [apply cost_ret|]. cbn [extend length].
    rewrite Nat2N.inj_succ, <- N.add_1_l.
    apply cost_bind; [apply insert_cost|]. intros; apply IH.
  Qed.
  Lemma drop_all_cost : forall xs, at_cost 0 0 (drop_all E xs).
  Proof.
    induction xs as [|[[a b] i] xs IH]; intros m; [apply cost_ret|]. cbn [drop_all].
    apply cost_free; [|intros; apply IH]. unfold remove_via_hashes_and_id. free l_remove_cost.
    destruct x as [lp|]; [|apply cost_ret]. free r_remove_cost. apply cost_unwrap. intros. apply cost_ret.
  Qed.
  Lemma retain_cost : forall {X} (f : X -> L -> R -> X * verdict) m x,
    match retain E f (m, x) with Ret (m', _) _ | Panic (m', _) => costs 0 0 m m' end.
  Proof.
    intros X f m x. unfold retain. destruct (retain_scan _ _ _ _ _ _) as [x' l|x']; [|apply costs_refl].
    assert (D := drop_all_cost l m). destruct (drop_all E l m); exact D.
  Qed.
  Lemma clear_cost : at_cost 0 0 (clear E).
  Proof. intros m. split; apply clear_uses; auto. Qed.
  Lemma drain_cost : forall n d,
    match drain_nexts E n d with Ret d' _ | Panic d' => uses (lo E) 0 (di_right d) (di_right d') end.
  Proof.
    induction n; intros d; simpl; [apply uses_refl|]. unfold drain_next.
    destruct (di_left d) as [|[h lp] rest].
    - specialize (IHn d). destruct (drain_nexts E n d); exact IHn.
    - destruct (t_remove_entry _ _ _ _) as [[rp t]|] eqn:Q; simpl; [|apply uses_refl].
      apply remove_entry_uses in Q; auto. specialize (IHn (Drain rest t)).
      destruct (drain_nexts E n _); apply (uses_trans _ 0 0 _ _ _ Q IHn).
  Qed.
  Section DF.
    Context {X : Type}.
    Variable f : X -> L -> R -> X * verdict.
    Definition dcost (st st' : df_inner (L:=L) (R:=R) * X) : Prop :=
      uses (lo E) 0 (df_left (fst st)) (df_left (fst st')) /\
      uses (lo E) 0 (df_right (fst st)) (df_right (fst st')).
    Lemma dcost_refl : forall st, dcost st st.
    Proof. split; apply uses_refl. Qed.
    Lemma dcost_trans : forall a b c, dcost a b -> dcost b c -> dcost a c.
    Proof. intros a b c [H1 H2] [H3 H4]. split; [apply (uses_trans _ 0 0 _ _ _ H1 H3)|apply (uses_trans _ 0 0 _ _ _ H2 H4)]. Qed.
    Lemma df_next_cost : forall fuel st,
      match df_next_fuel E f fuel st with Ret st' _ | Panic st' => dcost st st' end.
    Proof.
      induction fuel; intros [d x]; simpl;
        destruct (t_entry (df_left d) _) as [lp|] eqn:QL; try (split; apply uses_refl);
        destruct (t_find _ _ _ _) as [i|]; try (split; apply uses_refl);
        destruct (t_entry (df_right d) _) as [rp|] eqn:QR; try (split; apply uses_refl);
        destruct (f x _ _) as [x' [[]|]]; try (split; apply uses_refl);
        try (split; apply remove_at_uses; auto; eapply entry_lt; eauto).
      specialize (IHfuel (DF (df_left d) (Datatypes.S (df_pos d)) (df_right d), x')).
      destruct (df_next_fuel _ _ _ _); exact IHfuel.
    Qed.
    Lemma df_nexts_cost : forall n st,
      match df_nexts E f n st with Ret st' _ | Panic st' => dcost st st' end.
    Proof.
      induction n; simpl; intros st; [apply dcost_refl|]. unfold df_next.
      assert (X1 := df_next_cost (df_remaining (fst st)) st).
      destruct (df_next_fuel _ _ _ _) as [st' a|st']; auto.
      specialize (IHn st'). destruct (df_nexts E f n st'); eapply dcost_trans; eauto.
    Qed.
    Lemma df_drop_cost : forall fuel st,
      match df_drop_fuel E f fuel st with Ret st' _ | Panic st' => dcost st st' end.
    Proof.
      induction fuel; simpl; intros st; unfold df_next;
        assert (X1 := df_next_cost (df_remaining (fst st)) st);
        destruct (df_next_fuel _ _ _ _) as [st' [a|]|st']; auto.
      specialize (IHfuel st'). destruct (df_drop_fuel E f fuel st'); eapply dcost_trans; eauto.
    Qed.
  End DF.

  Lemma via_cost : forall {A} a b (k : A -> out L R) (c : M map A) m, at_cost a b c ->
    costs a b m (fst (via k (c m))).
  Proof. intros A a b k c m H. specialize (H m). destruct (c m); exact H. Qed.
  Lemma seen_same : forall {A} (k : A -> out L R) (m : map) o, fst (seen (A:=A) m k o) = m.
  Proof. intros A k m [a|]; auto. Qed.

  Definition resizes (o : xop L R) : bool :=
    match o with
    | Call (ShrinkTo _) | Call ShrinkToFit | Call (Reserve _) | Call (TryReserve _) => true
    | _ => false
    end.
  Lemma xstep_cost : forall o m, resizes o = false -> costs (N.of_nat (length (given_l o))) (N.of_nat (length (given_r o))) m (fst (xstep E m o)).
  Proof.
    intros [o|n] m Z.
    - destruct o; try discriminate Z; cbn [xstep step given_l given_r];
        try (rewrite seen_same; apply costs_any); try apply costs_any;
        try (apply via_cost;
             first [apply insert_cost|apply remove_cost|apply rvl_cost|apply rvr_cost|apply swap_left_cost
                   |apply swap_left_checked_cost|apply swap_left_or_insert_cost|apply swap_right_cost
                   |apply swap_right_checked_cost|apply swap_right_or_insert_cost|apply clear_cost
                   |idtac]).
      + rewrite !map_length. apply extend_cost.
      + assert (H := retain_cost f m x). destruct (retain E f (m, x)) as [[m' x'] u|[m' x']]; exact H.
      + assert (H := drain_cost (Datatypes.S (len m)) (drain m)).
        destruct (drain_nexts _ _ _); (split; [apply clear_uses; auto|exact H]).
      + assert (H := df_nexts_cost f n (drain_filter m, x)).
        destruct (df_nexts E f n (drain_filter m, x)) as [[d x'] items|[d x']].
        * destruct leak; [exact H|].
          assert (H2 := df_drop_cost f (df_remaining (fst (d, x'))) (d, x')).
          unfold df_drop. destruct (df_drop_fuel E f _ (d, x')) as [[d2 x2] u|[d2 x2]];
            exact (dcost_trans _ _ _ H H2).
        * assert (H2 := df_drop_cost f (df_remaining (fst (d, x'))) (d, x')).
          unfold df_drop. destruct (df_drop_fuel E f _ (d, x')) as [[d2 x2] u|[d2 x2]];
            exact (dcost_trans _ _ _ H H2).
      + split; apply uses_refl.
    - cbn [xstep]. assert (H := drain_cost n (drain m)).
      destruct (drain_nexts _ _ _); (split; [apply clear_uses; auto|exact H]).
  Qed.

  (* what try_reserve does: the left table grown or not, then perhaps the right one *)
  Lemma try_reserve_run : forall n m, exists ok, res_value (try_reserve E n m) = Some ok /\
    let m' := res_state (try_reserve E n m) in
    (fits (lo E) (left_set m) ->
     fits (lo E) (left_set m') /\ (if ok then n <= spare (lo E) (left_set m') else True) /\
     t_capacity (lo E) (left_set m) <= t_capacity (lo E) (left_set m') /\
     spare (lo E) (left_set m) <= spare (lo E) (left_set m') /\
     (n <= spare (lo E) (left_set m) -> full (lo E) (left_set m') = full (lo E) (left_set m))) /\
    (fits (lo E) (right_set m) ->
     fits (lo E) (right_set m') /\ (if ok then n <= spare (lo E) (right_set m') else True) /\
     t_capacity (lo E) (right_set m) <= t_capacity (lo E) (right_set m') /\
     spare (lo E) (right_set m) <= spare (lo E) (right_set m') /\
     (n <= spare (lo E) (right_set m) -> full (lo E) (right_set m') = full (lo E) (right_set m))).
  Proof.
    intros n m. unfold try_reserve. cbv [bind getst putst ret].
    destruct (t_try_resize _ (left_set m) _ _) as [ok1 t1] eqn:T1.
    assert (A1 := try_grow _ OK CO _ _ _ _ _ T1).
    destruct ok1.
    - destruct (t_try_resize _ (right_set _) _ _) as [ok2 t2] eqn:T2.
      assert (B1 := try_grow _ OK CO _ _ _ _ _ T2).
      exists ok2. split; [reflexivity|]. cbn zeta. cbn [res_state left_set right_set set_left set_right] in *.
      split; intros F; [specialize (A1 F)|specialize (B1 F)]; repeat split; try tauto; destruct ok2; tauto.
    - exists false. split; [reflexivity|]. cbn zeta. cbn [res_state left_set right_set set_left set_right] in *.
      split; intros F; [specialize (A1 F); tauto|]. repeat split; auto; apply N.le_refl.
  Qed.

  Definition xnext (m : map) (o : xop L R) : map := fst (xstep E m o).
  Lemma xrun_fold : forall ops m, fst (xrun E m ops) = fold_left xnext ops m.
  Proof.
    induction ops as [|o ops IH]; intros m; simpl; auto. unfold xnext at 2. destruct (xstep E m o) as [m' w].
    specialize (IH m'). destruct (xrun E m' ops). exact IH.
  Qed.
  Lemma xnext_l : forall m o, effect_ok (lo E) (effect_l o) (left_set m) (left_set (xnext m o)).
  Proof.
    intros m o. destruct (resizes o) eqn:Z.
    - destruct o as [[]|]; try discriminate Z; unfold xnext; cbn [xstep step effect_l].
      + apply shrink_effect; auto.
      + apply shrink_effect; auto.
      + apply grow_effect; auto.
      + destruct (try_reserve_run n m) as (ok & V & B & _). destruct (try_reserve E n m); [|discriminate V].
        cbn [via fst res_state] in *. intros F. specialize (B F). tauto.
    - assert (K := proj1 (xstep_cost o m Z)). apply uses_effect in K.
      destruct o as [[]|]; try discriminate Z; exact K.
  Qed.
  Lemma xnext_r : forall m o, effect_ok (lo E) (effect_r o) (right_set m) (right_set (xnext m o)).
  Proof.
    intros m o. destruct (resizes o) eqn:Z.
    - destruct o as [[]|]; try discriminate Z; unfold xnext; cbn [xstep step effect_r].
      + apply shrink_effect; auto.
      + apply shrink_effect; auto.
      + apply grow_effect; auto.
      + destruct (try_reserve_run n m) as (ok & V & _ & B). destruct (try_reserve E n m); [|discriminate V].
        cbn [via fst res_state] in *. intros F. specialize (B F). tauto.
    - assert (K := proj2 (xstep_cost o m Z)). apply uses_effect in K.
      destruct o as [[]|]; try discriminate Z; exact K.
  Qed.
  Lemma obtainable_fits : forall m, obtainable E m -> fits (lo E) (left_set m) /\ fits (lo E) (right_set m).
  Proof.
    intros m (s & ll & lr & ops & ->). rewrite xrun_fold. split.
    - apply (run_fits _ _ _ _ xnext_l). apply new_fits.
    - apply (run_fits _ _ _ _ xnext_r). apply new_fits.
  Qed.
  Lemma xrun_room_l : forall ops m r, fits (lo E) (left_set m) -> affordable effect_l r ops ->
    r <= spare (lo E) (left_set m) ->
    full (lo E) (left_set (fst (xrun E m ops))) = full (lo E) (left_set m).
  Proof. intros ops m r F A H. rewrite xrun_fold. eapply run_room; eauto. apply xnext_l. Qed.
  Lemma xrun_room_r : forall ops m r, fits (lo E) (right_set m) -> affordable effect_r r ops ->
    r <= spare (lo E) (right_set m) ->
    full (lo E) (right_set (fst (xrun E m ops))) = full (lo E) (right_set m).
  Proof. intros ops m r F A H. rewrite xrun_fold. eapply run_room; eauto. apply xnext_r. Qed.
End Cap.

(* ---- the properties ---- *)
Section Props.
  Context {L R S : Type}.
  Variable E : env L R S.
  Hypothesis OK : layout_ok (lo E).
  Hypothesis CO : capacity_ok (lo E).
  Notation map := (cmap L R S).

  (* what the allocator has handed out to the two sets: changes only when a set is
     reallocated *)
  Definition buckets (m : map) : N * N :=
    (hb_full (lo E) (lay (left_set m)), hb_full (lo E) (lay (right_set m))).
  Definition capacity_r (m : map) : N := t_capacity (lo E) (right_set m).

  (* capacity() is never below len(), after any history of calls; nor is the right set fuller
     than its own capacity *)
  Theorem C80_len_le_capacity : forall m, obtainable E m ->
    N.of_nat (len m) <= capacity E m /\ N.of_nat (t_len (right_set m)) <= capacity_r m.
  Proof. intros m H. exact (obtainable_fits E OK CO m H). Qed.

  (* with_capacity(n): capacity() at least n, and no call in a history that adds at most n
     items to each side reallocates *)
  Theorem C80_with_capacity : forall n s,
    let m := with_capacity_and_hasher E n s in
    n <= capacity E m /\ len m = 0%nat /\
    forall ops, affordable effect_l n ops -> affordable effect_r n ops -> buckets (fst (xrun E m ops)) = buckets m.
  Proof.
    intros n s m.
    destruct (with_capacity_fits (A := mapping_pair L) _ CO n) as (F1 & S1 & C1).
    destruct (with_capacity_fits (A := mapping_pair R) _ CO n) as (F2 & S2 & _).
    split; [exact C1|]. split; [reflexivity|]. intros ops A B.
    unfold buckets. f_equal; [eapply (xrun_room_l E OK CO)|eapply (xrun_room_r E OK CO)]; eauto.
  Qed.

  (* reserve(n): room for n more on both sides; capacity() does not go down; and nothing is
     reallocated if both sets had that room *)
  Theorem C80_reserve : forall m n, obtainable E m ->
    exists m', reserve E n m = Ret m' tt /\
    N.of_nat (len m) + n <= capacity E m' /\ capacity E m <= capacity E m' /\ len m' = len m /\
    (N.of_nat (len m) + n <= capacity E m -> N.of_nat (t_len (right_set m)) + n <= capacity_r m ->
     buckets m' = buckets m) /\
    forall ops, affordable effect_l n ops -> affordable effect_r n ops -> buckets (fst (xrun E m' ops)) = buckets m'.
  Proof.
    intros m n H. destruct (obtainable_fits E OK CO m H) as [F1 F2].
    eexists. split; [reflexivity|].
    destruct (grow_room _ OK CO _ n (make_hasher_l E (hash_builder m)) F1) as (B1 & B2 & B3 & B4 & B5 & B6).
    destruct (grow_room _ OK CO _ n (make_hasher_r E (hash_builder m)) F2) as (C1 & C2 & C3 & C4 & C5 & C6).
    assert (Z := resize_size _ OK (left_set m) (Grow n) (make_hasher_l E (hash_builder m))).
    split; [|split; [exact B3|split; [|split]]].
    - unfold fits, spare in *. rewrite Z in B1, B2.
      match goal with |- _ <= ?c =>
        change c with (t_capacity (lo E) (t_resize (lo E) (left_set m) (Grow n) (make_hasher_l E (hash_builder m))))
      end.
      change (N.of_nat (len m)) with (size (left_set m)). lia.
    - unfold size in Z. apply Nat2N.inj in Z. exact Z.
    - intros P1 P2. unfold buckets. f_equal; [apply B6|apply C6].
      + unfold spare, size. unfold capacity in P1. unfold len in P1. lia.
      + unfold spare, size. unfold capacity_r in P2. lia.
    - intros ops A B. unfold buckets.
      f_equal; [eapply (xrun_room_l E OK CO)|eapply (xrun_room_r E OK CO)]; eauto.
  Qed.

  (* try_reserve(n): the same if it returns Ok; never lowers the capacity and never panics *)
  Theorem C80_try_reserve : forall m n, obtainable E m ->
    exists m' ok, try_reserve E n m = Ret m' ok /\ capacity E m <= capacity E m' /\
    (N.of_nat (len m) + n <= capacity E m -> N.of_nat (t_len (right_set m)) + n <= capacity_r m ->
     buckets m' = buckets m) /\
    (ok = true ->
     N.of_nat (len m') + n <= capacity E m' /\
     forall ops, affordable effect_l n ops -> affordable effect_r n ops -> buckets (fst (xrun E m' ops)) = buckets m').
  Proof.
    intros m n H. destruct (obtainable_fits E OK CO m H) as [F1 F2].
    destruct (try_reserve_run E OK CO n m) as (ok & V & A1 & A2). specialize (A1 F1). specialize (A2 F2).
    destruct (try_reserve E n m) as [m' ok'|m'] eqn:T; [|discriminate V]. cbn [res_value res_state] in *.
    injection V as ->. exists m', ok. split; [reflexivity|]. split; [apply A1|]. split.
    { intros P1 P2. unfold buckets. f_equal; [apply A1|apply A2]; unfold spare, size.
      - unfold capacity, len in P1. lia.
      - unfold capacity_r in P2. lia. }
    intros ->. destruct A1 as (B1 & B2 & _). destruct A2 as (C1 & C2 & _). split.
    - unfold fits, spare, size in *. unfold capacity, len. lia.
    - intros ops A B. unfold buckets.
      f_equal; [eapply (xrun_room_l E OK CO)|eapply (xrun_room_r E OK CO)]; eauto.
  Qed.

  (* clear() and a dropped drain iterator keep the allocated memory for reuse; capacity() does
     not go down *)
  Theorem C80_clear : forall m m' u, clear E m = Ret m' u ->
    capacity E m <= capacity E m' /\ buckets m' = buckets m.
  Proof.
    intros m m' u H. inversion H; subst. split.
    - apply (clear_capacity _ CO).
    - unfold buckets. cbn. f_equal; apply (cap_clear _ CO).
  Qed.
  Theorem C80_drain : forall m n, obtainable E m ->
    let m' := fst (xstep E m (DrainN n)) in
    capacity E m <= capacity E m' /\ buckets m' = buckets m.
  Proof.
    intros m n H. destruct (obtainable_fits E OK CO m H) as [F1 F2].
    destruct (xnext_l E OK CO m (DrainN n) F1) as [_ K1]. destruct (xnext_r E OK CO m (DrainN n) F2) as [_ K2].
    destruct K1 as [_ K1]; [apply N.le_0_l|]. destruct K2 as [_ K2]; [apply N.le_0_l|]. cbn zeta. split.
    - cbn [xstep]. destruct (drain_nexts E n (drain m)); apply (clear_capacity _ CO).
    - unfold buckets. f_equal; assumption.
  Qed.

  (* shrink_to(n): at least n is left if there was that much, room for the pairs in any case;
     never allocates more; does nothing if n is not below what is allocated.
     shrink_to_fit(): the same with n = len() *)
  Theorem C80_shrink : forall m n, obtainable E m ->
    exists m', shrink_to E n m = Ret m' tt /\
    N.min (capacity E m) n <= capacity E m' /\ N.of_nat (len m) <= capacity E m' /\ len m' = len m /\
    fst (buckets m') <= fst (buckets m) /\ snd (buckets m') <= snd (buckets m) /\
    (fst (buckets m) <= n -> capacity E m' = capacity E m /\ fst (buckets m') = fst (buckets m)).
  Proof.
    intros m n H. destruct (obtainable_fits E OK CO m H) as [F1 F2].
    eexists. split; [reflexivity|].
    destruct (shrink_room _ OK CO _ n (make_hasher_l E (hash_builder m)) F1) as (B1 & B2 & B3 & B4).
    destruct (shrink_room _ OK CO _ n (make_hasher_r E (hash_builder m)) F2) as (C1 & C2 & C3 & C4).
    assert (Z := resize_size _ OK (left_set m) (Shrink n) (make_hasher_l E (hash_builder m))).
    unfold fits in B1. rewrite Z in B1. unfold size in Z. apply Nat2N.inj in Z.
    split; [|split; [exact B1|split; [exact Z|split; [exact B3|split; [exact C3|exact B4]]]]].
    unfold capacity. eapply N.le_trans; [|exact B2]. lia.
  Qed.
  Theorem C80_shrink_to_fit : forall m, obtainable E m ->
    exists m', shrink_to_fit E m = Ret m' tt /\
    N.of_nat (len m) <= capacity E m' /\ len m' = len m /\
    fst (buckets m') <= fst (buckets m) /\ snd (buckets m') <= snd (buckets m).
  Proof.
    intros m H. destruct (obtainable_fits E OK CO m H) as [F1 F2].
    assert (Z := resize_size _ OK (left_set m) (Shrink (N.of_nat (len m))) (make_hasher_l E (hash_builder m))).
    destruct (shrink_room _ OK CO _ (N.of_nat (len m)) (make_hasher_l E (hash_builder m)) F1) as (B1 & B2 & B3 & B4).
    unfold fits in B1. rewrite Z in B1. unfold size in Z. apply Nat2N.inj in Z.
    eexists. split; [reflexivity|].
    split; [exact B1|split; [exact Z|split; [exact B3|]]].
    apply shrink_room; auto.
  Qed.

  (* capacity() is exact for the left set: with capacity() - len() spare, that many left items
     go in without the left set being reallocated.  The right set has a capacity of its own,
     which no function of the API returns.
     Missing, and false (C81_same_capacity_refuted): the two are the same, so that capacity()
     tells what the whole map takes without reallocating. *)
  Theorem C81_capacity_partial : forall m ops, obtainable E m ->
    (affordable effect_l (capacity E m - N.of_nat (len m)) ops ->
     fst (buckets (fst (xrun E m ops))) = fst (buckets m)) /\
    (affordable effect_r (capacity_r m - N.of_nat (t_len (right_set m))) ops ->
     snd (buckets (fst (xrun E m ops))) = snd (buckets m)).
  Proof.
    intros m ops H. destruct (obtainable_fits E OK CO m H) as [F1 F2]. split; intros A.
    - exact (xrun_room_l E OK CO ops m _ F1 A (N.le_refl _)).
    - exact (xrun_room_r E OK CO ops m _ F2 A (N.le_refl _)).
  Qed.
End Props.

(* ---- concrete cases ---- *)
Definition c_ops : list (xop item item) :=
  [Call (Insert (it 1) (it 1)); Call (Insert (it 2) (it 2)); Call (Insert (it 3) (it 3))].
Definition c_map : cmap item item N := fst (xrun env_cap (with_capacity_and_hasher env_cap 4 0) c_ops).
Lemma c_map_obtainable : obtainable env_cap c_map.
Proof. exists 0, (hb_new lo_cap 4), (hb_new lo_cap 4), c_ops. reflexivity. Qed.

(* more goes in than capacity() - len() at the start: removals make room again *)
Definition c_more : list (xop item item) :=
  [Call (Insert (it 4) (it 4)); Call (RemoveViaLeft (it 1)); Call (SwapRight (it 2) (it 9));
   Call (Insert (it 5) (it 4)); Call (TryReserve 1); DrainN 2; Call (Extend [(it 6, it 6); (it 7, it 7)])].
Example C80_case :
  capacity env_cap c_map = 4 /\ len c_map = 3%nat /\
  (exists m', reserve env_cap 5 c_map = Ret m' tt /\ capacity env_cap m' = 8 /\
     affordable effect_l 5 c_more /\ affordable effect_r 5 c_more /\
     len (fst (xrun env_cap m' c_more)) = 2%nat /\
     buckets env_cap (fst (xrun env_cap m' c_more)) = (8, 8) /\
     (* one pair more than reserved: reallocated *)
     buckets env_cap (fst (xrun env_cap m' [Call (Extend (List.map (fun k => (it k, it k)) [11;12;13;14;15]))])) = (8, 8) /\
     buckets env_cap (fst (xrun env_cap m' [Call (Extend (List.map (fun k => (it k, it k)) [11;12;13;14;15;16]))])) <> (8, 8)) /\
  capacity env_cap (res_state (shrink_to env_cap 0 (res_state (reserve env_cap 5 c_map)))) = 3 /\
  capacity env_cap (res_state (clear env_cap c_map)) = 4.
Proof.
  split; [vm_compute; reflexivity|]. split; [vm_compute; reflexivity|]. split.
  - eexists. split; [vm_compute; reflexivity|]. repeat (split; [vm_compute; try reflexivity; repeat split; discriminate|]).
    vm_compute. discriminate.
  - split; vm_compute; reflexivity.
Qed.

(* room for one more: SwapRight takes room in the right set only, so the left set stays *)
Definition c81_more : list (xop item item) :=
  [Call (SwapRight (it 1) (it 8)); Call (RemoveViaLeft (it 2)); Call (Insert (it 6) (it 6))].
Example C81_case :
  obtainable env_cap c_map /\ capacity env_cap c_map - N.of_nat (len c_map) = 1 /\
  affordable effect_l 1 c81_more /\ ~ affordable effect_r 1 c81_more /\
  fst (buckets env_cap (fst (xrun env_cap c_map c81_more))) = fst (buckets env_cap c_map) /\
  fst (buckets env_cap (fst (xrun env_cap c_map [Call (Extend [(it 6, it 6); (it 7, it 7)])])))
    <> fst (buckets env_cap c_map).
Proof.
  split; [exact c_map_obtainable|]. split; [vm_compute; reflexivity|].
  split; [vm_compute; repeat split; discriminate|]. split; [vm_compute; intuition congruence|].
  split; [vm_compute; reflexivity|]. vm_compute. discriminate.
Qed.

(* The documentation of capacity(): "both sets always have the same capacity".  Not so: swaps
   reuse the buckets of one side only, and the buckets given free need not be usable (capacity
   6 and 5 here, with two pairs in the map). capacity() then promises room for 4 more pairs,
   and putting them in reallocates the right set. *)
Definition c81_ops : list (op item item) :=
  [Insert (it 1) (it 1); Insert (it 2) (it 2); SwapRight (it 1) (it 3)].
Theorem C81_same_capacity_refuted :
  exists m xs, lawful env_cap /\ capacity_ok (lo env_cap) /\ reachable env_cap 5 m /\
  capacity env_cap m <> capacity_r env_cap m /\
  N.of_nat (len m) + N.of_nat (length xs) = capacity env_cap m /\
  snd (buckets env_cap (fst (step env_cap m (Extend xs)))) <> snd (buckets env_cap m).
Proof.
  exists (fst (run env_cap (with_capacity_and_hasher env_cap 6 0) c81_ops)),
         (List.map (fun k => (it k, it k)) [4;5;6;7]).
  split; [exact env_cap_ok|]. split; [exact lo_cap_ok|]. split.
  { exists 0, (hb_new lo_cap 6), (hb_new lo_cap 6), c81_ops. split; [vm_compute; reflexivity|reflexivity]. }
  split; [vm_compute; discriminate|]. split; [vm_compute; reflexivity|]. vm_compute. discriminate.
Qed.
(* Nor need the right set have as much room as capacity() - len() because of the items that a
   drain iterator dropped early leaves in it: this map is empty with capacity 3, and its first
   insertion reallocates. *)
Theorem C81_drained_refuted :
  exists m, obtainable env_cap m /\ len m = 0%nat /\ capacity env_cap m = 3 /\
  snd (buckets env_cap (fst (step env_cap m (Insert (it 9) (it 9))))) <> snd (buckets env_cap m).
Proof.
  exists (fst (xrun env_cap (with_capacity_and_hasher env_cap 3 0) (c_ops ++ [DrainN 0]))).
  split. { exists 0, (hb_new lo_cap 3), (hb_new lo_cap 3), (c_ops ++ [DrainN 0]). reflexivity. }
  split; [vm_compute; reflexivity|]. split; [vm_compute; reflexivity|]. vm_compute. discriminate.
Qed.

Print Assumptions C80_len_le_capacity.
Print Assumptions C80_with_capacity.
Print Assumptions C80_reserve.
Print Assumptions C80_try_reserve.
Print Assumptions C80_clear.
Print Assumptions C80_drain.
Print Assumptions C80_shrink.
Print Assumptions C80_shrink_to_fit.
Print Assumptions C81_capacity_partial.
Print Assumptions C81_same_capacity_refuted.
Print Assumptions C81_drained_refuted.
