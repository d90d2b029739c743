(* GroupMap: capacities.  Nothing here depends on Eq or Hash being lawful, or on how the map came
   about; what is assumed of hashbrown is [capacity_ok].  (GroupMap has no reserve, shrink or
   drain.) *)
From Coq Require Import List NArith Lia Bool Permutation PeanoNat.
From Verif Require Import Closures Prelude RawTable GroupMap ListFacts TableFacts
  GroupSpec GroupHistory GroupAny Capacity Concrete.
Import ListNotations.
Open Scope N_scope.

(* what a call does to the room in each of the two sets: items handed over to the map count, see
   Capacity *)
Definition effect_l {L R} (o : op L R) : effect := Adds (N.of_nat (length (given_l o))).
Definition effect_r {L R} (o : op L R) : effect := Adds (N.of_nat (length (given_r o))).

Section Cap.
  Context {L R S : Type}.
  Variable E : env L R S.
  Hypothesis OK : layout_ok (lo E).
  Hypothesis CO : capacity_ok (lo E).
  Notation map := (gmap L R S).
  Notation costs := (costs (lo E) (@left_set L R S) (@right_set L R S)).
  Notation at_cost := (at_cost (lo E) (@left_set L R S) (@right_set L R S)).

  Lemma put_l : forall k m t, uses (lo E) k (left_set m) t -> costs k 0 m (set_left t m).
  Proof. intros k m t H. split; [exact H|apply uses_refl]. Qed.
  Lemma put_r : forall k m t, uses (lo E) k (right_set m) t -> costs 0 k m (set_right t m).
  Proof. intros k m t H. split; [apply uses_refl|exact H]. Qed.

  Lemma l_remove_cost : forall h p, at_cost 0 0 (left_remove_entry E h p).
  Proof.
    intros h p m. unfold left_remove_entry, bind, getst. destruct (t_remove_entry _ _ _ _) as [[e t]|] eqn:Q.
    - apply put_l. eapply remove_entry_uses; eauto.
    - apply costs_refl.
  Qed.
  Lemma r_remove_cost : forall h p, at_cost 0 0 (right_remove_entry E h p).
  Proof.
    intros h p m. unfold right_remove_entry, bind, getst. destruct (t_remove_entry _ _ _ _) as [[e t]|] eqn:Q.
    - apply put_r. eapply remove_entry_uses; eauto.
    - apply costs_refl.
  Qed.
  Lemma l_insert_cost : forall h e, at_cost 1 0 (left_insert E h e).
  Proof. intros h e m. apply put_l. apply insert_uses; auto. Qed.
  Lemma r_insert_cost : forall h e, at_cost 0 1 (right_insert E h e).
  Proof. intros h e m. apply put_r. apply insert_uses; auto. Qed.
  Lemma l_assign_cost : forall i f, at_cost 0 0 (left_assign i f).
  Proof. intros i f m. apply put_l. apply modify_uses. Qed.
  Lemma r_assign_cost : forall i f, at_cost 0 0 (right_assign i f).
  Proof. intros i f m. apply put_r. apply modify_uses. Qed.
  Lemma incr_l_cost : at_cost 0 0 (incr_left E).
  Proof. intros m. unfold incr_left. apply cost_getst, cost_unwrap. intros c _. split; apply uses_refl. Qed.
  Lemma incr_r_cost : at_cost 0 0 (incr_right E).
  Proof. intros m. unfold incr_right. apply cost_getst, cost_unwrap. intros c _. split; apply uses_refl. Qed.
  (* through a function as far as nothing is inserted *)
  Ltac free0 := first [apply l_remove_cost|apply r_remove_cost|apply l_assign_cost|apply r_assign_cost
                      |apply incr_l_cost|apply incr_r_cost].
  Ltac through free := cbv zeta; repeat
    match goal with
    | |- context [res_state (bind getst _ _)] => apply cost_getst
    | |- context [res_state (bind (unwrap _) _ _)] => apply cost_unwrap; intros ? _
    | |- context [res_state (bind _ _ _)] => apply cost_free; [free|intros ? ? _]
    | |- context [res_state (ret _ _)] => apply cost_ret
    | |- context [res_state (panic _)] => apply cost_panic
    | |- context [res_state (match ?x with _ => _ end _)] => destruct x
    | |- _ => free
    end.
  Ltac ins_l a b := apply (cost_bind _ _ _ 1 0 a b); [apply l_insert_cost|intros ? ? _].
  Ltac ins_r a b := apply (cost_bind _ _ _ 0 1 a b); [apply r_insert_cost|intros ? ? _].

  Lemma rl_cost : forall k, at_cost 0 0 (remove_left E k).
  Proof. intros k m. unfold remove_left. through free0. Qed.
  Lemma pairs_cost : forall ps, at_cost 0 0 (remove_pairs E ps).
  Proof.
    induction ps as [|[h i] ps IH]; intros m; [apply cost_ret|]. cbn [remove_pairs].
    through ltac:(first [free0|apply IH]).
  Qed.
  Lemma rr_cost : forall k, at_cost 0 0 (remove_right E k).
  Proof. intros k m. unfold remove_right. through ltac:(first [free0|apply pairs_cost]). Qed.
  Lemma rhi_cost : forall h i, at_cost 0 0 (remove_via_hash_and_id E h i).
  Proof. intros h i m. unfold remove_via_hash_and_id. through ltac:(first [free0|apply pairs_cost]). Qed.
  Lemma rehash_cost : forall h ps, at_cost 0 0 (rehash_pairs E h ps).
  Proof.
    intros h. induction ps as [|[h' i] ps IH]; intros m; [apply cost_ret|]. cbn [rehash_pairs].
    through ltac:(first [free0|apply IH]).
  Qed.
  Ltac go := through ltac:(first [free0|apply rl_cost|apply rr_cost|apply rhi_cost|apply rehash_cost]).
  Lemma remove_cost : forall l r, at_cost 0 0 (remove E l r).
  Proof. intros l r m. unfold remove. go. Qed.
  (* the rest inserts nothing *)
  Ltac spare := apply (costs_le _ _ _ 0 0); [solve [go]|lia|lia].
  Lemma insert_cost : forall l r, at_cost 1 1 (insert E l r).
  Proof.
    intros l r m. unfold insert. go.
    - spare.
    - ins_r 1 0. spare.
    - ins_l 0 1. spare.
    - ins_l 0 1. ins_r 0 0. spare.
  Qed.
  Lemma insert_remove_cost : forall l r, at_cost 1 1 (insert_remove E l r).
  Proof. intros l r m. unfold insert_remove. go. ins_l 0 1. ins_r 0 0. spare. Qed.
  Lemma insert_left_cost : forall l r, at_cost 1 0 (insert_left E l r).
  Proof. intros l r m. unfold insert_left. go. ins_l 0 0. go. Qed.
  Lemma insert_right_cost : forall r, at_cost 0 1 (insert_right E r).
  Proof. intros r m. unfold insert_right. go. ins_r 0 0. go. Qed.
  Lemma swap_right_cost : forall old new, at_cost 0 1 (swap_right E old new).
  Proof.
    intros old new m. unfold swap_right. go.
    - ins_r 0 0. go.
    - apply (cost_bind _ _ _ 0 1 0 0); [apply insert_right_cost|intros; apply cost_ret].
  Qed.
  Lemma swap_right_remove_cost : forall old new, at_cost 0 1 (swap_right_remove E old new).
  Proof.
    intros old new m. unfold swap_right_remove. go.
    - ins_r 0 0. go.
    - apply (cost_bind _ _ _ 0 1 0 0); [apply insert_right_cost|intros; apply cost_ret].
  Qed.
  Lemma pair_cost : forall l r, at_cost 0 0 (pair E l r).
  Proof. intros l r m. unfold pair. go. Qed.
  Lemma clear_cost : at_cost 0 0 (clear E).
  Proof. intros m. split; apply clear_uses; auto. Qed.
  Lemma extend_pairs_cost : forall xs, at_cost (N.of_nat (length xs)) (N.of_nat (length xs)) (extend_pairs E xs).
  Proof.
    induction xs as [|[a b] xs IH]; intros m; [apply cost_ret|]. cbn [extend_pairs length].
    rewrite Nat2N.inj_succ, <- N.add_1_l.
    apply cost_bind; [apply insert_cost|]. intros; apply IH.
  Qed.
  Lemma extend_cost : forall xs,
    at_cost (N.of_nat (length (flat_map some_l xs))) (N.of_nat (length xs)) (extend E xs).
  Proof.
    induction xs as [|[[a|] b] xs IH]; intros m; [apply cost_ret| |];
      cbn [extend flat_map some_l fst app length]; rewrite ?Nat2N.inj_succ, <- ?N.add_1_l.
    - apply cost_bind; [apply insert_cost|]. intros; apply IH.
    - apply (cost_bind _ _ _ 0 1); [apply insert_right_cost|]. intros; apply IH.
  Qed.
  Lemma drop_lefts_cost : forall xs, at_cost 0 0 (drop_lefts E xs).
  Proof.
    induction xs as [|[h i] xs IH]; intros m; [apply cost_ret|]. cbn [drop_lefts].
    apply cost_free; [apply l_remove_cost|]. intros; apply IH.
  Qed.
  Lemma drop_rights_cost : forall xs, at_cost 0 0 (drop_rights E xs).
  Proof.
    induction xs as [|[h i] xs IH]; intros m; [apply cost_ret|]. cbn [drop_rights].
    apply cost_free; [apply rhi_cost|]. intros; apply IH.
  Qed.
  Lemma retain_with_cost : forall {X A I} (f : X -> A -> X * verdict) next key drop fuel (it : I) m x,
    (forall xs, at_cost 0 0 (drop xs)) ->
    costs 0 0 m (fst (via_closure (L := L) (R := R) (retain_with f next key drop fuel it (m, x)))).
  Proof.
    intros X A I f next key drop fuel it m x D. unfold retain_with.
    destruct (retain_scan _ _ _ _ _ _) as [x' l|x']; [|apply costs_refl].
    specialize (D l m). destruct (drop l m); exact D.
  Qed.

  Lemma via_cost : forall {A} a b (k : A -> out L R) (c : M map A) m, at_cost a b c ->
    costs a b m (fst (via k (c m))).
  Proof. intros A a b k c m H. specialize (H m). destruct (c m); exact H. Qed.
  Lemma seen_same : forall {A} (k : A -> out L R) (m : map) o, fst (seen (A:=A) m k o) = m.
  Proof. intros A k m [a|]; auto. Qed.
  Lemma step_cost : forall o m,
    costs (N.of_nat (length (given_l o))) (N.of_nat (length (given_r o))) m (fst (step E m o)).
  Proof.
    intros o m. destruct o; cbn [step given_l given_r];
      try (rewrite seen_same; apply costs_any); try apply costs_any;
      try (apply via_cost;
           first [apply insert_cost|apply insert_remove_cost|apply insert_left_cost|apply insert_right_cost
                 |apply swap_right_cost|apply swap_right_remove_cost|apply pair_cost|apply remove_cost
                 |apply rl_cost|apply rr_cost|apply clear_cost|idtac]).
    - destruct (get_left_iter E m r); [rewrite seen_same|]; apply costs_any.
    - apply retain_with_cost, drop_lefts_cost.
    - apply retain_with_cost, drop_rights_cost.
    - rewrite !map_length. apply extend_pairs_cost.
    - rewrite map_length. apply extend_cost.
    - split; apply uses_refl.
  Qed.

  Definition next (m : map) (o : op L R) : map := fst (step E m o).
  Lemma run_fold : forall ops m, fst (run E m ops) = fold_left next ops m.
  Proof.
    induction ops as [|o ops IH]; intros m; simpl; auto. unfold next at 2. destruct (step E m o) as [m' w].
    specialize (IH m'). destruct (run E m' ops). exact IH.
  Qed.
  Lemma next_l : forall m o, effect_ok (lo E) (effect_l o) (left_set m) (left_set (next m o)).
  Proof. intros m o. apply uses_effect, step_cost. Qed.
  Lemma next_r : forall m o, effect_ok (lo E) (effect_r o) (right_set m) (right_set (next m o)).
  Proof. intros m o. apply uses_effect, step_cost. Qed.
  Lemma obtainable_fits : forall m, obtainable E m -> fits (lo E) (left_set m) /\ fits (lo E) (right_set m).
  Proof.
    intros m (s & ll & lr & ops & ->). rewrite run_fold. split.
    - apply (run_fits _ _ _ _ next_l). apply new_fits.
    - apply (run_fits _ _ _ _ next_r). apply new_fits.
  Qed.
  Lemma run_room_l : forall ops m r, fits (lo E) (left_set m) -> affordable effect_l r ops ->
    r <= spare (lo E) (left_set m) ->
    full (lo E) (left_set (fst (run E m ops))) = full (lo E) (left_set m).
  Proof. intros ops m r F A H. rewrite run_fold. eapply run_room; eauto. apply next_l. Qed.
  Lemma run_room_r : forall ops m r, fits (lo E) (right_set m) -> affordable effect_r r ops ->
    r <= spare (lo E) (right_set m) ->
    full (lo E) (right_set (fst (run E m ops))) = full (lo E) (right_set m).
  Proof. intros ops m r F A H. rewrite run_fold. eapply run_room; eauto. apply next_r. Qed.
End Cap.

(* ---- the properties ---- *)
Section Props.
  Context {L R S : Type}.
  Variable E : env L R S.
  Hypothesis OK : layout_ok (lo E).
  Hypothesis CO : capacity_ok (lo E).
  Notation map := (gmap L R S).

  (* what the allocator has handed out to the two sets: changes only when a set is
     reallocated *)
  Definition buckets_l (m : map) : N := hb_full (lo E) (lay (left_set m)).
  Definition buckets_r (m : map) : N := hb_full (lo E) (lay (right_set m)).

  (* after any history of calls neither set is fuller than its capacity, and what is spare is
     room: that many left (right) items go in without the left (right) set being reallocated *)
  Theorem C83_capacity : forall m, obtainable E m ->
    N.of_nat (len_left m) <= capacity_left E m /\ N.of_nat (len_right m) <= capacity_right E m /\
    (forall ops, affordable effect_l (capacity_left E m - N.of_nat (len_left m)) ops ->
       buckets_l (fst (run E m ops)) = buckets_l m) /\
    (forall ops, affordable effect_r (capacity_right E m - N.of_nat (len_right m)) ops ->
       buckets_r (fst (run E m ops)) = buckets_r m).
  Proof.
    intros m H. destruct (obtainable_fits E OK CO m H) as [F1 F2].
    split; [exact F1|]. split; [exact F2|]. split; intros ops A.
    - exact (run_room_l E OK CO ops m _ F1 A (N.le_refl _)).
    - exact (run_room_r E OK CO ops m _ F2 A (N.le_refl _)).
  Qed.

  (* with_capacity(n) *)
  Theorem C83_with_capacity : forall n s,
    let m := with_capacity_and_hasher E n s in
    n <= capacity_left E m /\ n <= capacity_right E m /\ len_left m = 0%nat /\ len_right m = 0%nat /\
    (forall ops, affordable effect_l n ops -> buckets_l (fst (run E m ops)) = buckets_l m) /\
    (forall ops, affordable effect_r n ops -> buckets_r (fst (run E m ops)) = buckets_r m).
  Proof.
    intros n s m.
    destruct (with_capacity_fits (A := left_item L) _ CO n) as (F1 & S1 & C1).
    destruct (with_capacity_fits (A := right_item R) _ CO n) as (F2 & S2 & C2).
    split; [exact C1|]. split; [exact C2|]. split; [reflexivity|]. split; [reflexivity|].
    split; intros ops A; [eapply (run_room_l E OK CO)|eapply (run_room_r E OK CO)]; eauto.
  Qed.

  (* clear() keeps the allocated memory for reuse and lowers no capacity *)
  Theorem C83_clear : forall m m' u, clear E m = Ret m' u ->
    capacity_left E m <= capacity_left E m' /\ capacity_right E m <= capacity_right E m' /\
    buckets_l m' = buckets_l m /\ buckets_r m' = buckets_r m.
  Proof.
    intros m m' u H. inversion H; subst.
    split; [apply (clear_capacity _ CO)|]. split; [apply (clear_capacity _ CO)|].
    split; apply (cap_clear _ CO).
  Qed.
End Props.

(* ---- a concrete case ---- *)
Definition g_ops : list (op item item) :=
  [Insert (it 1) (it 1); InsertLeft (it 2) (it 1); InsertRight (it 3)].
Definition g_map : gmap item item N := fst (run env_cap (with_capacity_and_hasher env_cap 4 0) g_ops).
Lemma g_map_obtainable : obtainable env_cap g_map.
Proof. exists 0, (hb_new lo_cap 4), (hb_new lo_cap 4), g_ops. reflexivity. Qed.
(* two left items, one right item *)
Definition g_more : list (op item item) :=
  [Pair (it 2) (it 3); InsertLeft (it 4) (it 3); RemoveLeft (it 2); SwapRightRemove (it 1) (it 8);
   InsertLeft (it 5) (it 8); RemoveRight (it 3)].
Example C83_case :
  (len_left g_map, len_right g_map, capacity_left env_cap g_map, capacity_right env_cap g_map) = (2%nat, 2%nat, 4, 4) /\
  affordable effect_l 2 g_more /\ affordable effect_r 1 g_more /\
  (buckets_l env_cap (fst (run env_cap g_map g_more)), buckets_r env_cap (fst (run env_cap g_map g_more))) = (4, 4) /\
  (* three more on the left: reallocated *)
  buckets_l env_cap (fst (run env_cap g_map (List.map (fun k => InsertLeft (it k) (it 1)) [11; 12]))) = 4 /\
  buckets_l env_cap (fst (run env_cap g_map (List.map (fun k => InsertLeft (it k) (it 1)) [11; 12; 13]))) = 10 /\
  capacity_right env_cap (res_state (clear env_cap g_map)) = 4.
Proof.
  split; [vm_compute; reflexivity|]. split; [vm_compute; repeat split; discriminate|].
  split; [vm_compute; repeat split; discriminate|]. repeat split; vm_compute; reflexivity.
Qed.

Print Assumptions C83_capacity.
Print Assumptions C83_with_capacity.
Print Assumptions C83_clear.
