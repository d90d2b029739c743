(* PartialCycleMap: capacities.  Nothing here depends on Eq or Hash being lawful, or on how the
   map came about; what is assumed of hashbrown is [capacity_ok]. *)
From Coq Require Import List NArith Lia Bool Permutation PeanoNat.
From Verif Require Import Closures Prelude RawTable Optionals PartialCycleMap ListFacts TableFacts
  PartialSpec PartialHistory PartialAny Capacity Concrete.
Import ListNotations.
Open Scope N_scope.

(* what a call does to the room in each of the two sets: items handed over to the map count, see
   Capacity.  A leaked drain iterator takes the memory of the left set with it. *)
Definition effect_l {L R} (o : xop L R) : effect :=
  match o with
  | Call (ShrinkToLeft _) | Call ShrinkToFit | DrainLeak _ => Lost
  | Call (ReserveLeft n) | Call (TryReserveLeft n) => Needs n
  | _ => Adds (N.of_nat (length (given_l o)))
  end.
Definition effect_r {L R} (o : xop L R) : effect :=
  match o with
  | Call (ShrinkToRight _) | Call ShrinkToFit => Lost
  | Call (ReserveRight n) | Call (TryReserveRight n) => Needs n
  | _ => Adds (N.of_nat (length (given_r o)))
  end.

Section Cap.
  Context {L R S : Type}.
  Variable E : env L R S.
  Hypothesis OK : layout_ok (lo E).
  Hypothesis CO : capacity_ok (lo E).
  Notation map := (pmap L R S).
  Notation costs := (costs (lo E) (@left_set L R S) (@right_set L R S)).
  Notation at_cost := (at_cost (lo E) (@left_set L R S) (@right_set L R S)).

  Lemma put_l : forall k m t, uses (lo E) k (left_set m) t -> costs k 0 m (set_left t m).
  Proof. intros k m t H. split; [exact H|apply uses_refl]. Qed.
  Lemma put_r : forall k m t, uses (lo E) k (right_set m) t -> costs 0 k m (set_right t m).
  Proof. intros k m t H. split; [apply uses_refl|exact H]. Qed.

  Lemma l_remove_cost : forall h p, at_cost 0 0 (left_remove_entry E h p).
  Proof.
    intros h p m. unfold left_remove_entry, bind, getst. destruct (t_remove_entry _ _ _ _) as [[e t]|] eqn:Q.
    - apply put_l. eapply remove_entry_uses; eauto.
    - apply costs_refl.
  Qed.
  Lemma r_remove_cost : forall h p, at_cost 0 0 (right_remove_entry E h p).
  Proof.
    intros h p m. unfold right_remove_entry, bind, getst. destruct (t_remove_entry _ _ _ _) as [[e t]|] eqn:Q.
    - apply put_r. eapply remove_entry_uses; eauto.
    - apply costs_refl.
  Qed.
  Lemma l_insert_cost : forall h e, at_cost 1 0 (left_insert E h e).
  Proof. intros h e m. apply put_l. apply insert_uses; auto. Qed.
  Lemma r_insert_cost : forall h e, at_cost 0 1 (right_insert E h e).
  Proof. intros h e m. apply put_r. apply insert_uses; auto. Qed.
  Lemma l_assign_cost : forall i f, at_cost 0 0 (left_assign i f).
  Proof. intros i f m. apply put_l. apply modify_uses. Qed.
  Lemma r_assign_cost : forall i f, at_cost 0 0 (right_assign i f).
  Proof. intros i f m. apply put_r. apply modify_uses. Qed.
  Lemma incr_cost : at_cost 0 0 (incr_counter E).
  Proof.
    intros m. unfold incr_counter. apply cost_getst, cost_unwrap. intros c _. split; apply uses_refl.
  Qed.
  (* through a function as far as nothing is inserted *)
  Ltac free0 := first [apply l_remove_cost|apply r_remove_cost|apply l_assign_cost|apply r_assign_cost|apply incr_cost].
  Ltac through free := cbv zeta; repeat
    match goal with
    | |- context [res_state (bind getst _ _)] => apply cost_getst
    | |- context [res_state (bind (unwrap _) _ _)] => apply cost_unwrap; intros ? _
    | |- context [res_state (bind _ _ _)] => apply cost_free; [free|intros ? ? _]
    | |- context [res_state (ret _ _)] => apply cost_ret
    | |- context [res_state (panic _)] => apply cost_panic
    | |- context [res_state (match ?x with _ => _ end _)] => destruct x
    | |- _ => free
    end.

  Lemma rl_cost : forall k, at_cost 0 0 (remove_left E k).
  Proof. intros k m. unfold remove_left. through free0. Qed.
  Lemma rr_cost : forall k, at_cost 0 0 (remove_right E k).
  Proof. intros k m. unfold remove_right. through free0. Qed.
  Lemma rvl_cost : forall k, at_cost 0 0 (remove_via_left E k).
  Proof. intros k m. unfold remove_via_left. through free0. Qed.
  Lemma rvr_cost : forall k, at_cost 0 0 (remove_via_right E k).
  Proof. intros k m. unfold remove_via_right. through free0. Qed.
  Ltac free1 := first [free0|apply rvl_cost|apply rvr_cost].
  Ltac go := through free1.
  Ltac ins_l := apply (cost_bind _ _ _ 1 0 0 0); [apply l_insert_cost|intros ? ? _].
  Ltac ins_r := apply (cost_bind _ _ _ 0 1 0 0); [apply r_insert_cost|intros ? ? _].

  Lemma remove_cost : forall l r, at_cost 0 0 (remove E l r).
  Proof. intros l r m. unfold remove. go. Qed.
  Lemma rhi_cost : forall l r i, at_cost 0 0 (remove_via_hashes_and_id E l r i).
  Proof. intros l r i m. unfold remove_via_hashes_and_id. go. Qed.
  Lemma insert_cost : forall l r, at_cost 1 1 (insert E l r).
  Proof.
    intros l r m. unfold insert. go.
    apply (cost_bind _ _ _ 1 0 0 1); [apply l_insert_cost|]. intros ? ? _. ins_r. go.
  Qed.
  Lemma insert_left_cost : forall l, at_cost 1 0 (insert_left E l).
  Proof. intros l m. unfold insert_left. go. ins_l. go. Qed.
  Lemma insert_right_cost : forall r, at_cost 0 1 (insert_right E r).
  Proof. intros l m. unfold insert_right. go. ins_r. go. Qed.
  Lemma pair_cost : forall l r, at_cost 0 0 (pair E l r).
  Proof. intros l r m. unfold pair. go. Qed.
  Lemma pair_forced_cost : forall l r, at_cost 0 0 (pair_forced E l r).
  Proof. intros l r m. unfold pair_forced. go. Qed.
  Lemma pair_forced_remove_cost : forall l r, at_cost 0 0 (pair_forced_remove E l r).
  Proof. intros l r m. unfold pair_forced_remove. go. Qed.
  Lemma unpair_cost : forall l r, at_cost 0 0 (unpair E l r).
  Proof. intros l r m. unfold unpair. go. Qed.
  Lemma eqcl_cost : forall old new h, at_cost 0 0 (swap_left_eq_check E old new h).
  Proof. intros old new h m. unfold swap_left_eq_check. go. Qed.
  Lemma eqcr_cost : forall old new h, at_cost 0 0 (swap_right_eq_check E old new h).
  Proof. intros old new h m. unfold swap_right_eq_check. go. Qed.
  Lemma swap_left_cost : forall old new, at_cost 1 0 (swap_left E old new).
  Proof.
    intros old new m. unfold swap_left. cbv zeta. apply cost_getst. apply cost_free; [apply eqcl_cost|intros ? eo _].
    apply cost_getst. destruct (t_get _ _ _ _) as [lp|]; [|apply cost_ret].
    apply cost_free; [destruct (phash lp); go|intros ? ? _]. go. ins_l. destruct eo; apply cost_ret.
  Qed.
  Lemma swap_right_cost : forall old new, at_cost 0 1 (swap_right E old new).
  Proof.
    intros old new m. unfold swap_right. cbv zeta. apply cost_getst. apply cost_free; [apply eqcr_cost|intros ? eo _].
    apply cost_getst. destruct (t_get _ _ _ _) as [lp|]; [|apply cost_ret].
    apply cost_free; [destruct (phash lp); go|intros ? ? _]. go. ins_r. destruct eo; apply cost_ret.
  Qed.
  Lemma swap_left_checked_cost : forall old ex new, at_cost 1 0 (swap_left_checked E old ex new).
  Proof.
    intros old ex new m. unfold swap_left_checked. apply cost_getst.
    destruct (negb _); [apply cost_ret|apply swap_left_cost].
  Qed.
  Lemma swap_right_checked_cost : forall old ex new, at_cost 0 1 (swap_right_checked E old ex new).
  Proof.
    intros old ex new m. unfold swap_right_checked. apply cost_getst.
    destruct (negb _); [apply cost_ret|apply swap_right_cost].
  Qed.
  Lemma swap_left_or_insert_cost : forall old new r, at_cost 1 1 (swap_left_or_insert E old new r).
  Proof.
    intros old new r m. unfold swap_left_or_insert. apply cost_getst.
    destruct (is_some _); [eapply costs_le; [apply swap_left_cost| |]; lia|].
    apply (cost_bind _ _ _ 1 1 0 0); [apply insert_cost|]. intros ? [a b] _. destruct a, b; apply costs_any.
  Qed.
  Lemma swap_right_or_insert_cost : forall old new l, at_cost 1 1 (swap_right_or_insert E old new l).
  Proof.
    intros old new l m. unfold swap_right_or_insert. apply cost_getst.
    destruct (is_some _); [eapply costs_le; [apply swap_right_cost| |]; lia|].
    apply (cost_bind _ _ _ 1 1 0 0); [apply insert_cost|]. intros ? [a b] _. destruct a, b; apply costs_any.
  Qed.
  Lemma extend_pairs_cost : forall xs, at_cost (N.of_nat (length xs)) (N.of_nat (length xs)) (extend_pairs E xs).
  Proof.
    induction xs as [|[a b] xs IH]; intros m; [apply cost_ret|]. cbn [extend_pairs length].
    rewrite Nat2N.inj_succ, <- N.add_1_l.
    apply cost_bind; [apply insert_cost|]. intros; apply IH.
  Qed.
  Lemma extend_cost : forall xs,
    at_cost (N.of_nat (length (flat_map entry_l xs))) (N.of_nat (length (flat_map entry_r xs))) (extend E xs).
  Proof.
    induction xs as [|e xs IH]; intros m; [apply cost_ret|].
    destruct e as [|a|b|a b]; cbn [extend flat_map entry_l entry_r app length]; [apply IH| | |];
      rewrite ?Nat2N.inj_succ, <- ?N.add_1_l.
    - apply (cost_bind _ _ _ 1 0); [apply insert_left_cost|]. intros; apply IH.
    - apply (cost_bind _ _ _ 0 1); [apply insert_right_cost|]. intros; apply IH.
    - apply cost_bind; [apply insert_cost|]. intros; apply IH.
  Qed.
  Lemma drop_one_cost : forall t, at_cost 0 0 (drop_one E t).
  Proof. intros [[[a|] [b|]] i] m; unfold drop_one; through ltac:(first [free0|apply rhi_cost]). Qed.
  Lemma drop_all_cost : forall xs, at_cost 0 0 (drop_all E xs).
  Proof.
    induction xs as [|t xs IH]; intros m; [apply cost_ret|]. cbn [drop_all].
    apply cost_free; [apply drop_one_cost|]. intros; apply IH.
  Qed.
  Lemma retain_with_cost : forall {X A I} (f : X -> A -> X * verdict) next key fuel (it : I) m x,
    costs 0 0 m (fst (via_closure (L := L) (R := R) (retain_with E f next key fuel it (m, x)))).
  Proof.
    intros X A I f next key fuel it m x. unfold retain_with.
    destruct (retain_scan _ _ _ _ _ _) as [x' l|x']; [|apply costs_refl].
    assert (D := drop_all_cost l m). destruct (drop_all E l m); exact D.
  Qed.
  Lemma clear_cost : at_cost 0 0 (clear E).
  Proof. intros m. split; apply clear_uses; auto. Qed.
  Lemma drain_next_cost : forall d,
    match drain_next E d with Ret d' _ | Panic d' => uses (lo E) 0 (di_right d) (di_right d') end.
  Proof.
    intros d. unfold drain_next. destruct (di_left d) as [|[h lp] rest].
    - destruct (slots (di_right d)) as [|[]]; apply clear_uses; auto.
    - destruct (phash lp); [|apply uses_refl].
      destruct (t_remove_entry _ _ _ _) as [[rp t]|] eqn:Q; [|apply uses_refl].
      eapply remove_entry_uses; eauto.
  Qed.
  Lemma drain_cost : forall n d,
    match drain_nexts E n d with Ret d' _ | Panic d' => uses (lo E) 0 (di_right d) (di_right d') end.
  Proof.
    induction n; intros d; simpl; [apply uses_refl|]. assert (Q := drain_next_cost d).
    destruct (drain_next E d) as [d' a|d']; auto.
    specialize (IHn d'). destruct (drain_nexts E n d'); apply (uses_trans _ 0 0 _ _ _ Q IHn).
  Qed.
  Lemma drain_drop_cost : forall fuel d,
    match drain_drop_fuel E fuel d with Ret d' _ | Panic d' => uses (lo E) 0 (di_right d) (di_right d') end.
  Proof.
    induction fuel; intros d; simpl; assert (Q := drain_next_cost d);
      destruct (drain_next E d) as [d' [a|]|d']; auto.
    specialize (IHfuel d'). destruct (drain_drop_fuel E fuel d'); apply (uses_trans _ 0 0 _ _ _ Q IHfuel).
  Qed.
  Section DF.
    Context {X : Type}.
    Variable f : X -> optional_pair L R -> X * verdict.
    Definition dcost (st st' : df_inner (L:=L) (R:=R) * X) : Prop :=
      uses (lo E) 0 (df_left (fst st)) (df_left (fst st')) /\
      uses (lo E) 0 (df_right (fst st)) (df_right (fst st')).
    Lemma dcost_refl : forall st, dcost st st.
    Proof. split; apply uses_refl. Qed.
    Lemma dcost_trans : forall a b c, dcost a b -> dcost b c -> dcost a c.
    Proof. intros a b c [H1 H2] [H3 H4]. split; [apply (uses_trans _ 0 0 _ _ _ H1 H3)|apply (uses_trans _ 0 0 _ _ _ H2 H4)]. Qed.
    Lemma df_right_cost : forall fuel d x,
      match df_next_right E f fuel d x with Ret st' _ | Panic st' => dcost (d, x) st' end.
    Proof.
      induction fuel; intros d x; simpl;
        destruct (t_entry _ _) as [rp|] eqn:Q; try (split; apply uses_refl);
        destruct (f x _) as [x' [[]|]]; try (split; apply uses_refl);
        try (split; [apply uses_refl|apply remove_at_uses; auto; eapply entry_lt; eauto]).
      specialize (IHfuel (DF (df_left d) (df_lpos d) (df_right d) (Datatypes.S (df_rpos d)) (df_reset d)) x').
      destruct (df_next_right _ _ _ _ _); exact IHfuel.
    Qed.
    Lemma df_left_cost : forall fuel d x,
      match df_next_left E f fuel d x with Ret st' _ | Panic st' => dcost (d, x) st' end.
    Proof.
      assert (RT : forall d x,
        match df_next_right E f (t_len (df_right (df_enter_right d))) (df_enter_right d) x with
        | Ret st' _ | Panic st' => dcost (d, x) st' end).
      { intros d x. assert (H := df_right_cost (t_len (df_right (df_enter_right d))) (df_enter_right d) x).
        destruct (df_next_right _ _ _ _ _); unfold df_enter_right in *; destruct (df_reset d); exact H. }
      induction fuel; intros d x; cbn [df_next_left];
        (destruct (t_entry _ _) as [lp|] eqn:QL; [|apply RT]);
        (destruct (phash lp) as [hh|];
          [destruct (t_get_mut _ _ _) as [[j rp]|] eqn:QR; [|split; apply uses_refl]|]);
        destruct (f x _) as [x' [[]|]]; try (split; apply uses_refl);
        try (match goal with |- match df_next_left _ _ _ ?d' ?y with _ => _ end =>
               specialize (IHfuel d' y); destruct (df_next_left E f fuel d' y); exact IHfuel end);
        try (split; [apply remove_at_uses; auto; eapply entry_lt; eauto|apply uses_refl]);
        try (split; [apply remove_at_uses; auto; eapply entry_lt; eauto|];
             unfold t_get_mut in QR; destruct (t_find (lo E) (df_right d) hh _) as [j'|] eqn:TF; [|discriminate];
             destruct (t_entry (df_right d) j') eqn:TE; [|discriminate]; inversion QR; subst;
             apply remove_at_uses; auto; eapply entry_lt; eauto).
    Qed.
    Lemma df_nexts_cost : forall n st,
      match df_nexts E f n st with Ret st' _ | Panic st' => dcost st st' end.
    Proof.
      induction n; simpl; intros st; [apply dcost_refl|]. unfold df_next.
      assert (X1 := df_left_cost (t_len (df_left (fst st))) (fst st) (snd st)).
      destruct (df_next_left _ _ _ _ _) as [st' a|st']; [|destruct st; exact X1].
      specialize (IHn st'). destruct st. destruct (df_nexts E f n st'); eapply dcost_trans; eauto.
    Qed.
    Lemma df_drop_cost : forall fuel st,
      match df_drop_fuel E f fuel st with Ret st' _ | Panic st' => dcost st st' end.
    Proof.
      induction fuel; simpl; intros [d x]; unfold df_next;
        assert (X1 := df_left_cost (t_len (df_left d)) d x); cbn [fst snd];
        destruct (df_next_left _ _ _ _ _) as [st' [a|]|st']; auto.
      specialize (IHfuel st'). destruct (df_drop_fuel E f fuel st'); eapply dcost_trans; eauto.
    Qed.
  End DF.

  Lemma via_cost : forall {A} a b (k : A -> out L R) (c : M map A) m, at_cost a b c ->
    costs a b m (fst (via k (c m))).
  Proof. intros A a b k c m H. specialize (H m). destruct (c m); exact H. Qed.
  Lemma seen_same : forall {A} (k : A -> out L R) (m : map) o, fst (seen (A:=A) m k o) = m.
  Proof. intros A k m [a|]; auto. Qed.

  Definition resizes (o : xop L R) : bool :=
    match o with
    | Call (ShrinkToLeft _) | Call (ShrinkToRight _) | Call ShrinkToFit | Call (ReserveLeft _)
    | Call (ReserveRight _) | Call (TryReserveLeft _) | Call (TryReserveRight _) => true
    | _ => false
    end.
  Lemma xstep_cost : forall o m, resizes o = false ->
    costs (N.of_nat (length (given_l o))) (N.of_nat (length (given_r o))) m (fst (xstep E m o)).
  Proof.
    intros [o|n] m Z.
    - destruct o; try discriminate Z; cbn [xstep step given_l given_r];
        try (rewrite seen_same; apply costs_any); try apply costs_any;
        try (apply via_cost;
             first [apply insert_cost|apply insert_left_cost|apply insert_right_cost|apply pair_cost
                   |apply pair_forced_cost|apply pair_forced_remove_cost|apply unpair_cost|apply remove_cost
                   |apply rl_cost|apply rr_cost|apply rvl_cost|apply rvr_cost|apply swap_left_cost
                   |apply swap_left_checked_cost|apply swap_left_or_insert_cost|apply swap_right_cost
                   |apply swap_right_checked_cost|apply swap_right_or_insert_cost|apply clear_cost
                   |apply extend_cost|idtac]);
        try apply retain_with_cost.
      + rewrite !map_length. apply extend_pairs_cost.
      + assert (H := drain_cost n (drain m)).
        destruct (drain_nexts E n (drain m)) as [d items|d];
          assert (H2 := drain_drop_cost (Datatypes.S (length (di_left d))) d); unfold drain_drop;
          destruct (drain_drop_fuel _ _ _);
          (split; [apply clear_uses; auto|exact (uses_trans _ 0 0 _ _ _ H H2)]).
      + assert (H := df_nexts_cost f n (drain_filter m, x)).
        destruct (df_nexts E f n (drain_filter m, x)) as [[d x'] items|[d x']].
        * destruct leak; [exact H|].
          assert (H2 := df_drop_cost f (t_len (df_left d) + t_len (df_right d)) (d, x')).
          unfold df_drop. cbn [fst] in *. destruct (df_drop_fuel E f _ (d, x')) as [[d2 x2] u|[d2 x2]];
            exact (dcost_trans _ _ _ H H2).
        * assert (H2 := df_drop_cost f (t_len (df_left d) + t_len (df_right d)) (d, x')).
          unfold df_drop. cbn [fst] in *. destruct (df_drop_fuel E f _ (d, x')) as [[d2 x2] u|[d2 x2]];
            exact (dcost_trans _ _ _ H H2).
      + split; apply uses_refl.
    - cbn [xstep]. assert (H := drain_cost n (drain m)).
      destruct (drain_nexts _ _ _); (split; [apply clear_uses; auto|exact H]).
  Qed.

  Definition xnext (m : map) (o : xop L R) : map := fst (xstep E m o).
  Lemma xrun_fold : forall ops m, fst (xrun E m ops) = fold_left xnext ops m.
  Proof.
    induction ops as [|o ops IH]; intros m; simpl; auto. unfold xnext at 2. destruct (xstep E m o) as [m' w].
    specialize (IH m'). destruct (xrun E m' ops). exact IH.
  Qed.
  Lemma try_l : forall n m, exists ok, try_reserve_left E n m =
    Ret (set_left (snd (t_try_resize (lo E) (left_set m) n (make_hasher_l E (hash_builder m)))) m) ok /\
    ok = fst (t_try_resize (lo E) (left_set m) n (make_hasher_l E (hash_builder m))).
  Proof.
    intros n m. unfold try_reserve_left. cbv [bind getst putst ret].
    destruct (t_try_resize _ _ _ _) as [ok t]. exists ok. split; reflexivity.
  Qed.
  Lemma try_r : forall n m, exists ok, try_reserve_right E n m =
    Ret (set_right (snd (t_try_resize (lo E) (right_set m) n (make_hasher_r E (hash_builder m)))) m) ok /\
    ok = fst (t_try_resize (lo E) (right_set m) n (make_hasher_r E (hash_builder m))).
  Proof.
    intros n m. unfold try_reserve_right. cbv [bind getst putst ret].
    destruct (t_try_resize _ _ _ _) as [ok t]. exists ok. split; reflexivity.
  Qed.
  Lemma weaken_lost : forall {A} k (t t' : table A), effect_ok (lo E) (Adds k) t t' -> effect_ok (lo E) Lost t t'.
  Proof. intros A k t t' H F. destruct (H F). split; auto. Qed.
  Lemma xnext_l : forall m o, effect_ok (lo E) (effect_l o) (left_set m) (left_set (xnext m o)).
  Proof.
    intros m o. destruct (resizes o) eqn:Z.
    - destruct o as [[]|]; try discriminate Z; unfold xnext; cbn [xstep step effect_l];
        try apply none_effect; try (apply shrink_effect; auto; fail); try (apply grow_effect; auto; fail).
      + destruct (try_l n m) as (ok & -> & _). apply try_effect; auto.
      + destruct (try_r n m) as (ok & -> & _). apply none_effect.
    - assert (K := proj1 (xstep_cost o m Z)). apply uses_effect in K.
      destruct o as [[]|]; try discriminate Z; first [exact K|eapply weaken_lost; exact K].
  Qed.
  Lemma xnext_r : forall m o, effect_ok (lo E) (effect_r o) (right_set m) (right_set (xnext m o)).
  Proof.
    intros m o. destruct (resizes o) eqn:Z.
    - destruct o as [[]|]; try discriminate Z; unfold xnext; cbn [xstep step effect_r];
        try apply none_effect; try (apply shrink_effect; auto; fail); try (apply grow_effect; auto; fail).
      + destruct (try_l n m) as (ok & -> & _). apply none_effect.
      + destruct (try_r n m) as (ok & -> & _). apply try_effect; auto.
    - assert (K := proj2 (xstep_cost o m Z)). apply uses_effect in K.
      destruct o as [[]|]; try discriminate Z; exact K.
  Qed.
  Lemma obtainable_fits : forall m, obtainable E m -> fits (lo E) (left_set m) /\ fits (lo E) (right_set m).
  Proof.
    intros m (s & ll & lr & ops & ->). rewrite xrun_fold. split.
    - apply (run_fits _ _ _ _ xnext_l). apply new_fits.
    - apply (run_fits _ _ _ _ xnext_r). apply new_fits.
  Qed.
  Lemma xrun_room_l : forall ops m r, fits (lo E) (left_set m) -> affordable effect_l r ops ->
    r <= spare (lo E) (left_set m) ->
    full (lo E) (left_set (fst (xrun E m ops))) = full (lo E) (left_set m).
  Proof. intros ops m r F A H. rewrite xrun_fold. eapply run_room; eauto. apply xnext_l. Qed.
  Lemma xrun_room_r : forall ops m r, fits (lo E) (right_set m) -> affordable effect_r r ops ->
    r <= spare (lo E) (right_set m) ->
    full (lo E) (right_set (fst (xrun E m ops))) = full (lo E) (right_set m).
  Proof. intros ops m r F A H. rewrite xrun_fold. eapply run_room; eauto. apply xnext_r. Qed.
End Cap.

(* ---- the properties ---- *)
Section Props.
  Context {L R S : Type}.
  Variable E : env L R S.
  Hypothesis OK : layout_ok (lo E).
  Hypothesis CO : capacity_ok (lo E).
  Notation map := (pmap L R S).

  (* what the allocator has handed out to the two sets: changes only when a set is
     reallocated *)
  Definition buckets_l (m : map) : N := hb_full (lo E) (lay (left_set m)).
  Definition buckets_r (m : map) : N := hb_full (lo E) (lay (right_set m)).

  (* after any history of calls neither set is fuller than its capacity, and what is spare is
     room: that many left (right) items go in without the left (right) set being reallocated *)
  Theorem C82_capacity : forall m, obtainable E m ->
    N.of_nat (len_left m) <= capacity_left E m /\ N.of_nat (len_right m) <= capacity_right E m /\
    (forall ops, affordable effect_l (capacity_left E m - N.of_nat (len_left m)) ops ->
       buckets_l (fst (xrun E m ops)) = buckets_l m) /\
    (forall ops, affordable effect_r (capacity_right E m - N.of_nat (len_right m)) ops ->
       buckets_r (fst (xrun E m ops)) = buckets_r m).
  Proof.
    intros m H. destruct (obtainable_fits E OK CO m H) as [F1 F2].
    split; [exact F1|]. split; [exact F2|]. split; intros ops A.
    - exact (xrun_room_l E OK CO ops m _ F1 A (N.le_refl _)).
    - exact (xrun_room_r E OK CO ops m _ F2 A (N.le_refl _)).
  Qed.

  (* with_capacity(n) *)
  Theorem C82_with_capacity : forall n s,
    let m := with_capacity_and_hasher E n s in
    n <= capacity_left E m /\ n <= capacity_right E m /\ len_left m = 0%nat /\ len_right m = 0%nat /\
    (forall ops, affordable effect_l n ops -> buckets_l (fst (xrun E m ops)) = buckets_l m) /\
    (forall ops, affordable effect_r n ops -> buckets_r (fst (xrun E m ops)) = buckets_r m).
  Proof.
    intros n s m.
    destruct (with_capacity_fits (A := mapping_pair L) _ CO n) as (F1 & S1 & C1).
    destruct (with_capacity_fits (A := mapping_pair R) _ CO n) as (F2 & S2 & C2).
    split; [exact C1|]. split; [exact C2|]. split; [reflexivity|]. split; [reflexivity|].
    split; intros ops A; [eapply (xrun_room_l E OK CO)|eapply (xrun_room_r E OK CO)]; eauto.
  Qed.

  (* reserve_left(n): room for n more left items; the capacity does not go down; nothing is
     reallocated if there was that room; the other set is not touched.  reserve_right alike. *)
  Theorem C82_reserve_left : forall m n, obtainable E m ->
    exists m', reserve_left E n m = Ret m' tt /\
    N.of_nat (len_left m) + n <= capacity_left E m' /\ capacity_left E m <= capacity_left E m' /\
    len_left m' = len_left m /\ right_set m' = right_set m /\
    (N.of_nat (len_left m) + n <= capacity_left E m -> buckets_l m' = buckets_l m) /\
    forall ops, affordable effect_l n ops -> buckets_l (fst (xrun E m' ops)) = buckets_l m'.
  Proof.
    intros m n H. destruct (obtainable_fits E OK CO m H) as [F1 F2].
    eexists. split; [reflexivity|].
    destruct (grow_room _ OK CO _ n (make_hasher_l E (hash_builder m)) F1) as (B1 & B2 & B3 & B4 & B5 & B6).
    assert (Z := resize_size _ OK (left_set m) (Grow n) (make_hasher_l E (hash_builder m))).
    split; [|split; [exact B3|split; [|split; [reflexivity|split]]]].
    - unfold fits, spare in *. rewrite Z in B1, B2.
      match goal with |- _ <= ?c =>
        change c with (t_capacity (lo E) (t_resize (lo E) (left_set m) (Grow n) (make_hasher_l E (hash_builder m))))
      end.
      change (N.of_nat (len_left m)) with (size (left_set m)). lia.
    - unfold size in Z. apply Nat2N.inj in Z. exact Z.
    - intros P1. apply B6. unfold spare, size. unfold capacity_left, len_left in P1. lia.
    - intros ops A. eapply (xrun_room_l E OK CO); eauto.
  Qed.
  Theorem C82_reserve_right : forall m n, obtainable E m ->
    exists m', reserve_right E n m = Ret m' tt /\
    N.of_nat (len_right m) + n <= capacity_right E m' /\ capacity_right E m <= capacity_right E m' /\
    len_right m' = len_right m /\ left_set m' = left_set m /\
    (N.of_nat (len_right m) + n <= capacity_right E m -> buckets_r m' = buckets_r m) /\
    forall ops, affordable effect_r n ops -> buckets_r (fst (xrun E m' ops)) = buckets_r m'.
  Proof.
    intros m n H. destruct (obtainable_fits E OK CO m H) as [F1 F2].
    eexists. split; [reflexivity|].
    destruct (grow_room _ OK CO _ n (make_hasher_r E (hash_builder m)) F2) as (B1 & B2 & B3 & B4 & B5 & B6).
    assert (Z := resize_size _ OK (right_set m) (Grow n) (make_hasher_r E (hash_builder m))).
    split; [|split; [exact B3|split; [|split; [reflexivity|split]]]].
    - unfold fits, spare in *. rewrite Z in B1, B2.
      match goal with |- _ <= ?c =>
        change c with (t_capacity (lo E) (t_resize (lo E) (right_set m) (Grow n) (make_hasher_r E (hash_builder m))))
      end.
      change (N.of_nat (len_right m)) with (size (right_set m)). lia.
    - unfold size in Z. apply Nat2N.inj in Z. exact Z.
    - intros P1. apply B6. unfold spare, size. unfold capacity_right, len_right in P1. lia.
    - intros ops A. eapply (xrun_room_r E OK CO); eauto.
  Qed.

  (* try_reserve_left(n), try_reserve_right(n): the same if Ok is returned; the other set is not
     touched, no capacity goes down *)
  Theorem C82_try_reserve : forall m n, obtainable E m ->
    (exists m' ok, try_reserve_left E n m = Ret m' ok /\ right_set m' = right_set m /\
       len_left m' = len_left m /\ capacity_left E m <= capacity_left E m' /\
       (N.of_nat (len_left m) + n <= capacity_left E m -> buckets_l m' = buckets_l m) /\
       (ok = true -> N.of_nat (len_left m) + n <= capacity_left E m' /\
        forall ops, affordable effect_l n ops -> buckets_l (fst (xrun E m' ops)) = buckets_l m')) /\
    (exists m' ok, try_reserve_right E n m = Ret m' ok /\ left_set m' = left_set m /\
       len_right m' = len_right m /\ capacity_right E m <= capacity_right E m' /\
       (N.of_nat (len_right m) + n <= capacity_right E m -> buckets_r m' = buckets_r m) /\
       (ok = true -> N.of_nat (len_right m) + n <= capacity_right E m' /\
        forall ops, affordable effect_r n ops -> buckets_r (fst (xrun E m' ops)) = buckets_r m')).
  Proof.
    assert (G : forall {A} (t : table A) n hasher, fits (lo E) t ->
      let t' := snd (t_try_resize (lo E) t n hasher) in
      t_len t' = t_len t /\ t_capacity (lo E) t <= t_capacity (lo E) t' /\
      (N.of_nat (t_len t) + n <= t_capacity (lo E) t -> full (lo E) t' = full (lo E) t) /\
      (fst (t_try_resize (lo E) t n hasher) = true ->
       N.of_nat (t_len t) + n <= t_capacity (lo E) t' /\ fits (lo E) t' /\ n <= spare (lo E) t')).
    { intros A t n hasher F. assert (Z := resize_size _ OK t (Grow n) hasher).
      destruct (grow_room _ OK CO t n hasher F) as (B1 & B2 & B3 & B4 & B5 & B6).
      unfold t_try_resize. destruct (hb_try _ _); cbn [fst snd].
      - split; [unfold size in Z; apply Nat2N.inj in Z; exact Z|]. split; [exact B3|]. split.
        { intros P. apply B6. unfold spare, size. lia. }
        intros _. split; [|auto].
        unfold fits, spare in *. rewrite Z in B1, B2. change (N.of_nat (t_len t)) with (size t). lia.
      - split; [reflexivity|]. split; [lia|]. split; [reflexivity|discriminate]. }
    intros m n H. destruct (obtainable_fits E OK CO m H) as [F1 F2]. split.
    - destruct (try_l E n m) as (ok & T & V).
      destruct (G _ (left_set m) n (make_hasher_l E (hash_builder m)) F1) as (A1 & A2 & A3 & A4).
      rewrite <- V in A4. eexists; eexists. split; [exact T|]. split; [reflexivity|]. split; [exact A1|].
      split; [exact A2|]. split; [exact A3|]. intros X. destruct (A4 X) as (K1 & K2 & K3). split; [exact K1|].
      intros ops A. eapply (xrun_room_l E OK CO); eauto.
    - destruct (try_r E n m) as (ok & T & V).
      destruct (G _ (right_set m) n (make_hasher_r E (hash_builder m)) F2) as (A1 & A2 & A3 & A4).
      rewrite <- V in A4. eexists; eexists. split; [exact T|]. split; [reflexivity|]. split; [exact A1|].
      split; [exact A2|]. split; [exact A3|]. intros X. destruct (A4 X) as (K1 & K2 & K3). split; [exact K1|].
      intros ops A. eapply (xrun_room_r E OK CO); eauto.
  Qed.

  (* clear() and drain() (the iterator dropped, whenever) keep the allocated memory for reuse;
     clear() lowers no capacity, drain() not that of the left set *)
  Theorem C82_clear : forall m m' u, clear E m = Ret m' u ->
    capacity_left E m <= capacity_left E m' /\ capacity_right E m <= capacity_right E m' /\
    buckets_l m' = buckets_l m /\ buckets_r m' = buckets_r m.
  Proof.
    intros m m' u H. inversion H; subst.
    split; [apply (clear_capacity _ CO)|]. split; [apply (clear_capacity _ CO)|].
    split; apply (cap_clear _ CO).
  Qed.
  Theorem C82_drain : forall m n, obtainable E m ->
    let m' := fst (step E m (DrainN n)) in
    capacity_left E m <= capacity_left E m' /\ buckets_l m' = buckets_l m /\ buckets_r m' = buckets_r m.
  Proof.
    intros m n H. destruct (obtainable_fits E OK CO m H) as [F1 F2].
    destruct (xnext_l E OK CO m (Call (DrainN n)) F1) as [_ K1].
    destruct (xnext_r E OK CO m (Call (DrainN n)) F2) as [_ K2].
    destruct K1 as [_ K1]; [apply N.le_0_l|]. destruct K2 as [_ K2]; [apply N.le_0_l|]. cbn zeta. split.
    - cbn [step]. destruct (drain_nexts E n (drain m)) as [d is|d]; destruct (drain_drop E d);
        apply (clear_capacity _ CO).
    - split; assumption.
  Qed.

  (* shrink_to_left(n), shrink_to_right(n), shrink_to_fit() *)
  Theorem C82_shrink_left : forall m n, obtainable E m ->
    exists m', shrink_to_left E n m = Ret m' tt /\ right_set m' = right_set m /\ len_left m' = len_left m /\
    N.min (capacity_left E m) n <= capacity_left E m' /\ N.of_nat (len_left m) <= capacity_left E m' /\
    buckets_l m' <= buckets_l m /\
    (buckets_l m <= n -> capacity_left E m' = capacity_left E m /\ buckets_l m' = buckets_l m).
  Proof.
    intros m n H. destruct (obtainable_fits E OK CO m H) as [F1 F2].
    eexists. split; [reflexivity|]. split; [reflexivity|].
    destruct (shrink_room _ OK CO _ n (make_hasher_l E (hash_builder m)) F1) as (B1 & B2 & B3 & B4).
    assert (Z := resize_size _ OK (left_set m) (Shrink n) (make_hasher_l E (hash_builder m))).
    unfold fits in B1. rewrite Z in B1. unfold size in Z. apply Nat2N.inj in Z.
    split; [exact Z|split; [|split; [exact B1|split; [exact B3|exact B4]]]].
    unfold capacity_left. eapply N.le_trans; [|exact B2]. lia.
  Qed.
  Theorem C82_shrink_right : forall m n, obtainable E m ->
    exists m', shrink_to_right E n m = Ret m' tt /\ left_set m' = left_set m /\ len_right m' = len_right m /\
    N.min (capacity_right E m) n <= capacity_right E m' /\ N.of_nat (len_right m) <= capacity_right E m' /\
    buckets_r m' <= buckets_r m /\
    (buckets_r m <= n -> capacity_right E m' = capacity_right E m /\ buckets_r m' = buckets_r m).
  Proof.
    intros m n H. destruct (obtainable_fits E OK CO m H) as [F1 F2].
    eexists. split; [reflexivity|]. split; [reflexivity|].
    destruct (shrink_room _ OK CO _ n (make_hasher_r E (hash_builder m)) F2) as (B1 & B2 & B3 & B4).
    assert (Z := resize_size _ OK (right_set m) (Shrink n) (make_hasher_r E (hash_builder m))).
    unfold fits in B1. rewrite Z in B1. unfold size in Z. apply Nat2N.inj in Z.
    split; [exact Z|split; [|split; [exact B1|split; [exact B3|exact B4]]]].
    unfold capacity_right. eapply N.le_trans; [|exact B2]. lia.
  Qed.
  Theorem C82_shrink_to_fit : forall m, obtainable E m ->
    exists m', shrink_to_fit E m = Ret m' tt /\ len_left m' = len_left m /\ len_right m' = len_right m /\
    N.of_nat (len_left m) <= capacity_left E m' /\ N.of_nat (len_right m) <= capacity_right E m' /\
    buckets_l m' <= buckets_l m /\ buckets_r m' <= buckets_r m.
  Proof.
    intros m H. destruct (obtainable_fits E OK CO m H) as [F1 F2].
    eexists. split; [reflexivity|].
    destruct (shrink_room _ OK CO _ (N.of_nat (len_left m)) (make_hasher_l E (hash_builder m)) F1) as (B1 & B2 & B3 & B4).
    destruct (shrink_room _ OK CO _ (N.of_nat (len_right m)) (make_hasher_r E (hash_builder m)) F2) as (C1 & C2 & C3 & C4).
    assert (Z := resize_size _ OK (left_set m) (Shrink (N.of_nat (len_left m))) (make_hasher_l E (hash_builder m))).
    assert (Y := resize_size _ OK (right_set m) (Shrink (N.of_nat (len_right m))) (make_hasher_r E (hash_builder m))).
    unfold fits in B1, C1. rewrite Z in B1. rewrite Y in C1. unfold size in Z, Y. apply Nat2N.inj in Z, Y.
    split; [exact Z|]. split; [exact Y|]. split; [exact B1|]. split; [exact C1|]. split; [exact B3|exact C3].
  Qed.
End Props.

(* ---- a concrete case ---- *)
Definition p_ops : list (xop item item) :=
  [Call (Insert (it 1) (it 1)); Call (InsertLeft (it 2)); Call (InsertRight (it 3)); Call (InsertRight (it 4))].
Definition p_map : pmap item item N := fst (xrun env_cap (with_capacity_and_hasher env_cap 4 0) p_ops).
Lemma p_map_obtainable : obtainable env_cap p_map.
Proof. exists 0, (hb_new lo_cap 4), (hb_new lo_cap 4), p_ops. reflexivity. Qed.
Definition p_more : list (xop item item) :=
  [Call (PairForced (it 2) (it 1)); Call (RemoveViaRight (it 3)); Call (SwapLeft (it 1) (it 9));
   Call (Extend [SomeLeft (it 6); SomeRight (it 7)]); Call (ReserveLeft 3); Call (DrainN 1);
   Call (ExtendPairs [(it 1, it 1); (it 2, it 2); (it 3, it 3)])].
Example C82_case :
  (len_left p_map, len_right p_map, capacity_left env_cap p_map, capacity_right env_cap p_map) = (2%nat, 3%nat, 4, 4) /\
  (exists m', reserve_left env_cap 5 p_map = Ret m' tt /\ capacity_left env_cap m' = 7 /\
     capacity_right env_cap m' = 4 /\ affordable effect_l 5 p_more /\ ~ affordable effect_r 1 p_more /\
     buckets_l env_cap m' = 7 /\ buckets_l env_cap (fst (xrun env_cap m' p_more)) = 7 /\
     (* six more: reallocated *)
     buckets_l env_cap (fst (xrun env_cap m' [Call (Extend (List.map (fun k => SomeLeft (it k)) [11;12;13;14;15]))])) = 7 /\
     buckets_l env_cap (fst (xrun env_cap m' [Call (Extend (List.map (fun k => SomeLeft (it k)) [11;12;13;14;15;16]))])) = 16 /\
     (* a leaked drain iterator is not covered *)
     ~ affordable effect_l 5 [DrainLeak (L := item) (R := item) 1]) /\
  capacity_right env_cap (res_state (shrink_to_right env_cap 0 p_map)) = 3 /\
  capacity_right env_cap (res_state (clear env_cap p_map)) = 4.
Proof.
  split; [vm_compute; reflexivity|]. split.
  - eexists. split; [vm_compute; reflexivity|]. split; [vm_compute; reflexivity|]. split; [vm_compute; reflexivity|].
    split; [vm_compute; repeat split; discriminate|].
    split; [intros A; vm_compute in A; destruct A as (_ & _ & _ & _ & _ & _ & A & _); apply A; reflexivity|].
    split; [vm_compute; reflexivity|]. split; [vm_compute; reflexivity|]. split; [vm_compute; reflexivity|].
    split; [vm_compute; reflexivity|]. intros A. exact A.
  - split; vm_compute; reflexivity.
Qed.

Print Assumptions C82_capacity.
Print Assumptions C82_with_capacity.
Print Assumptions C82_reserve_left.
Print Assumptions C82_reserve_right.
Print Assumptions C82_try_reserve.
Print Assumptions C82_clear.
Print Assumptions C82_drain.
Print Assumptions C82_shrink_left.
Print Assumptions C82_shrink_right.
Print Assumptions C82_shrink_to_fit.
