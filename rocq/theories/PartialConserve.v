(* PartialCycleMap with arbitrary Eq and Hash: no item is ever invented or duplicated.  Nothing
   is assumed of Eq and Hash (they need not agree, and may differ from call to call), nothing
   of where a search of the hash table looks, nothing of the ids. *)
From Coq Require Import List NArith Lia Bool Permutation.
From Verif Require Import Closures Prelude RawTable Optionals PartialCycleMap PartialHistory PartialAny
  TableFacts Conserve Concrete.
Import ListNotations.
Local Open Scope nat_scope.

(* The items that a call returns by value.  pair_forced, get_* and the iterators return
   references to items that stay in the map. *)
Definition sl_l {L R} (d : optional_pair L (optional_pair L R)) : list L :=
  match d with
  | Neither => [] | SomeLeft l => [l] | SomeRight e => entry_l e | SomeBoth l e => l :: entry_l e
  end.
Definition sl_r {L R} (d : optional_pair L (optional_pair L R)) : list R :=
  match d with SomeRight e | SomeBoth _ e => entry_r e | _ => [] end.
Definition sr_r {L R} (d : optional_pair R (optional_pair L R)) : list R :=
  match d with
  | Neither => [] | SomeLeft r => [r] | SomeRight e => entry_r e | SomeBoth r e => r :: entry_r e
  end.
Definition sr_l {L R} (d : optional_pair R (optional_pair L R)) : list L :=
  match d with SomeRight e | SomeBoth _ e => entry_l e | _ => [] end.
Definition item_l {L R} (o : option (optional_pair L R)) : list L :=
  match o with Some e => entry_l e | None => [] end.
Definition item_r {L R} (o : option (optional_pair L R)) : list R :=
  match o with Some e => entry_r e | None => [] end.
Definition handed_l {L R} (o : xop L R) (w : out L R) : list L :=
  match o, w with
  | Call (PairForced _ _), _ | Call (GetLeft _), _ => []
  | _, OPair (Some (l, _)) => [l]
  | _, OEntry e => entry_l e
  | _, OIns (e, e') => entry_l e ++ entry_l e'
  | _, OSwapL d => sl_l d
  | _, OSwapR d => sr_l d
  | _, OL (Some l) => [l]
  | _, OItems is _ => flat_map item_l is
  | _, _ => []
  end.
Definition handed_r {L R} (o : xop L R) (w : out L R) : list R :=
  match o, w with
  | Call (PairForced _ _), _ | Call (GetRight _), _ => []
  | _, OPair (Some (_, r)) => [r]
  | _, OEntry e => entry_r e
  | _, OIns (e, e') => entry_r e ++ entry_r e'
  | _, OSwapL d => sl_r d
  | _, OSwapR d => sr_r d
  | _, OR (Some r) => [r]
  | _, OItems is _ => flat_map item_r is
  | _, _ => []
  end.

(* a history in which every call has an environment of its own: the calls with what they
   return *)
Fixpoint xrun_with {L R S} (m : pmap L R S) (cs : list (env L R S * xop L R))
    : pmap L R S * list (xop L R * out L R) :=
  match cs with
  | [] => (m, [])
  | (E, o) :: t => let (m', w) := xstep E m o in
                   let (m'', ws) := xrun_with m' t in (m'', (o, w) :: ws)
  end.

Section Pays.
  Context {L R S : Type} (E : env L R S).
  Hypothesis OP : keeps_buckets (lo E).
  Variables (p : L -> bool) (q : R -> bool).
  Notation map := (pmap L R S).

  Definition vl : mapping_pair L -> bool := fun e => p (value e).
  Definition vr : mapping_pair R -> bool := fun e => q (value e).
  Definition wm (m : map) : nat := tw vl (left_set m) + tw vr (right_set m).
  Notation pays := (pays wm).
  Definition wp (z : L * R) : nat := one p (fst z) + one q (snd z).
  Definition we (e : optional_pair L R) : nat := cnt p (entry_l e) + cnt q (entry_r e).
  Definition wsl (d : optional_pair L (optional_pair L R)) : nat := cnt p (sl_l d) + cnt q (sl_r d).
  Definition wsr (d : optional_pair R (optional_pair L R)) : nat := cnt p (sr_l d) + cnt q (sr_r d).
  Definition we_l (e : mapping_pair L) : nat := one p (value e).
  Definition we_r (e : mapping_pair R) : nat := one q (value e).
  Definition wout (o : xop L R) (w : out L R) : nat := cnt p (handed_l o w) + cnt q (handed_r o w).

  Lemma one_vl : forall e, one vl e = we_l e.
  Proof. intros. unfold one, cnt, vl, we_l, one, cnt. simpl. destruct (p (value e)); auto. Qed.
  Lemma one_vr : forall e, one vr e = we_r e.
  Proof. intros. unfold one, cnt, vr, we_r, one, cnt. simpl. destruct (q (value e)); auto. Qed.

  Lemma left_remove_pays : forall h f, pays 0 (left_remove_entry E h f) (cnt_opt we_l).
  Proof.
    intros h f m. unfold left_remove_entry, bind, getst.
    destruct (t_remove_entry _ _ _ _) as [[e t]|] eqn:X; simpl; [|lia].
    apply (tw_remove_entry (lo E) vl) in X. rewrite one_vl in X. unfold wm. simpl. lia.
  Qed.
  Lemma right_remove_pays : forall h f, pays 0 (right_remove_entry E h f) (cnt_opt we_r).
  Proof.
    intros h f m. unfold right_remove_entry, bind, getst.
    destruct (t_remove_entry _ _ _ _) as [[e t]|] eqn:X; simpl; [|lia].
    apply (tw_remove_entry (lo E) vr) in X. rewrite one_vr in X. unfold wm. simpl. lia.
  Qed.
  Lemma left_insert_pays : forall h e, pays (we_l e) (left_insert E h e) (fun _ => 0).
  Proof.
    intros h e m. unfold left_insert, bind, getst, putst, wm. cbn [left_set right_set set_left set_right].
    rewrite (tw_insert (lo E) vl OP), one_vl. lia.
  Qed.
  Lemma right_insert_pays : forall h e, pays (we_r e) (right_insert E h e) (fun _ => 0).
  Proof.
    intros h e m. unfold right_insert, bind, getst, putst, wm. cbn [left_set right_set set_left set_right].
    rewrite (tw_insert (lo E) vr OP), one_vr. lia.
  Qed.
  Lemma incr_pays : pays 0 (incr_counter E) (fun _ => 0).
  Proof.
    intros m. unfold incr_counter, bind, getst. destruct (u64_incr _ _); unfold wm; simpl; lia.
  Qed.
  Lemma left_assign_pays : forall i f, (forall e, value (f e) = value e) -> pays 0 (left_assign i f) (fun _ => 0).
  Proof.
    intros i f H m. unfold left_assign, bind, getst, putst, wm. cbn [left_set right_set set_left].
    rewrite (tw_modify vl); [lia|]. intros e. unfold vl. rewrite H. auto.
  Qed.
  Lemma right_assign_pays : forall i f, (forall e, value (f e) = value e) -> pays 0 (right_assign i f) (fun _ => 0).
  Proof.
    intros i f H m. unfold right_assign, bind, getst, putst, wm. cbn [left_set right_set set_right].
    rewrite (tw_modify vr); [lia|]. intros e. unfold vr. rewrite H. auto.
  Qed.

  (* one step of a function body *)
  Ltac pay1 :=
    cbv beta zeta;
    match goal with
    | |- Conserve.pays _ _ (ret _) _ => apply pays_ret
    | |- Conserve.pays _ _ panic _ => apply pays_panic
    | |- Conserve.pays _ _ (bind getst _) _ => apply pays_get_any; intro
    | |- Conserve.pays _ _ (bind (incr_counter _) _) _ => apply pays_nothing; [apply incr_pays|intros []]
    | |- Conserve.pays _ _ (bind (left_assign _ _) _) _ =>
        apply pays_nothing; [apply left_assign_pays; reflexivity|intros []]
    | |- Conserve.pays _ _ (bind (right_assign _ _) _) _ =>
        apply pays_nothing; [apply right_assign_pays; reflexivity|intros []]
    | |- Conserve.pays _ _ (bind (unwrap ?o) _) _ => apply pays_unwrap_bind; intros ? ?; try subst o
    | |- Conserve.pays _ _ (bind (left_remove_entry _ _ _) _) _ =>
        eapply pays_then; [apply left_remove_pays|intro]
    | |- Conserve.pays _ _ (bind (right_remove_entry _ _ _) _) _ =>
        eapply pays_then; [apply right_remove_pays|intro]
    | |- Conserve.pays _ _ (bind (left_insert _ _ _) _) _ =>
        eapply pays_bind; [apply left_insert_pays| |intros []]
    | |- Conserve.pays _ _ (bind (right_insert _ _ _) _) _ =>
        eapply pays_bind; [apply right_insert_pays| |intros []]
    | |- Conserve.pays _ _ (if ?b then _ else _) _ => destruct b
    | |- Conserve.pays _ _ (match ?o with _ => _ end) _ => destruct o
    end.
  Lemma wfp : forall a b, we (op_from_pair (a, b)) = cnt_opt (one p) a + cnt_opt (one q) b.
  Proof. intros [a|] [b|]; unfold we, one; simpl; auto. Qed.
  Lemma we_N : we Neither = 0. Proof. reflexivity. Qed.
  Lemma we_L : forall l, we (SomeLeft l) = one p l. Proof. intros. unfold we. simpl. unfold one, cnt at 2. simpl. lia. Qed.
  Lemma we_R : forall r, we (SomeRight r) = one q r. Proof. reflexivity. Qed.
  Lemma we_B : forall l r, we (SomeBoth l r) = one p l + one q r. Proof. reflexivity. Qed.
  Ltac fin := repeat match goal with
    | H : Some _ = Some _ |- _ => injection H as <- | H : None = Some _ |- _ => discriminate H end; cbn [fst snd] in *; rewrite ?wfp, ?we_N, ?we_L, ?we_R, ?we_B in *; unfold we_l, we_r, wp in *;
    cbn [cnt_opt value fst snd option_map op_get_left op_get_right] in *; lia.
  Ltac pay := repeat pay1; try fin.

  Lemma remove_left_pays : forall l, pays 0 (remove_left E l) (cnt_opt (one p)).
  Proof. intros l. unfold remove_left. pay. Qed.
  Lemma remove_right_pays : forall l, pays 0 (remove_right E l) (cnt_opt (one q)).
  Proof. intros l. unfold remove_right. pay. Qed.
  Lemma remove_via_left_pays : forall l, pays 0 (remove_via_left E l) we.
  Proof. intros l. unfold remove_via_left. pay. Qed.
  Lemma remove_via_right_pays : forall l, pays 0 (remove_via_right E l) we.
  Proof. intros l. unfold remove_via_right. pay. Qed.
  Lemma remove_hashes_pays : forall a b i, pays 0 (remove_via_hashes_and_id E a b i) we.
  Proof.
    intros a b i. unfold remove_via_hashes_and_id. pay. rewrite wfp.
    destruct a0, a1; unfold we_l, we_r; simpl; lia.
  Qed.
  Lemma remove_pays : forall l r, pays 0 (remove E l r) (cnt_opt wp).
  Proof.
    intros l r. unfold remove. pay1. pay1; [|pay]. eapply pays_then; [apply remove_via_left_pays|]. intros d.
    destruct d; cbn [op_to_opt]; pay.
  Qed.
  Lemma insert_pays : forall l r, pays (one p l + one q r) (insert E l r) (fun d => we (fst d) + we (snd d)).
  Proof.
    intros l r. unfold insert. eapply pays_then; [apply remove_via_left_pays|]. intros a.
    eapply pays_then; [apply remove_via_right_pays|]. intros b. pay.
  Qed.
  Lemma insert_left_pays : forall l, pays (one p l) (insert_left E l) we.
  Proof. intros l. unfold insert_left. eapply pays_then; [apply remove_via_left_pays|]. intros a. pay. Qed.
  Lemma insert_right_pays : forall l, pays (one q l) (insert_right E l) we.
  Proof. intros l. unfold insert_right. eapply pays_then; [apply remove_via_right_pays|]. intros a. pay. Qed.
  Lemma pair_pays : forall l r, pays 0 (pair E l r) (fun _ => 0).
  Proof. intros. unfold pair. pay. Qed.
  Lemma unpair_pays : forall l r, pays 0 (unpair E l r) (fun _ => 0).
  Proof. intros. unfold unpair. pay. Qed.
  Lemma pair_forced_pays : forall l r, pays 0 (pair_forced E l r) (fun _ => 0).
  Proof. intros. unfold pair_forced. pay. Qed.
  Lemma pair_forced_remove_pays : forall l r, pays 0 (pair_forced_remove E l r) we.
  Proof. intros. unfold pair_forced_remove. pay. Qed.

  Lemma wsl_N : wsl Neither = 0. Proof. reflexivity. Qed.
  Lemma wsl_L : forall l, wsl (SomeLeft l) = one p l. Proof. exact we_L. Qed.
  Lemma wsl_R : forall e, wsl (SomeRight e) = we e. Proof. reflexivity. Qed.
  Lemma wsl_B : forall l e, wsl (SomeBoth l e) = one p l + we e.
  Proof. intros. unfold wsl, we. simpl. rewrite cnt_cons. lia. Qed.
  Lemma wsr_N : wsr Neither = 0. Proof. reflexivity. Qed.
  Lemma wsr_L : forall l, wsr (SomeLeft l) = one q l. Proof. reflexivity. Qed.
  Lemma wsr_R : forall e, wsr (SomeRight e) = we e. Proof. reflexivity. Qed.
  Lemma wsr_B : forall l e, wsr (SomeBoth l e) = one q l + we e.
  Proof. intros. unfold wsr, we. simpl. rewrite cnt_cons. lia. Qed.
  Ltac fin2 := cbn [fst snd] in *; rewrite ?wsl_N, ?wsl_L, ?wsl_R, ?wsl_B, ?wsr_N, ?wsr_L, ?wsr_R, ?wsr_B; fin.

  Lemma swap_left_check_pays : forall old new h, pays 0 (swap_left_eq_check E old new h) we.
  Proof. intros. unfold swap_left_eq_check. pay1. pay1; [apply remove_via_left_pays|pay]. Qed.
  Lemma swap_right_check_pays : forall old new h, pays 0 (swap_right_eq_check E old new h) we.
  Proof. intros. unfold swap_right_eq_check. pay1. pay1; [apply remove_via_right_pays|pay]. Qed.
  Lemma swap_left_pays : forall old new, pays (one p new) (swap_left E old new) wsl.
  Proof.
    intros old new. unfold swap_left. pay1. eapply pays_then; [apply swap_left_check_pays|]. intros a.
    pay1. cbv zeta. destruct (t_get _ _ _ _) as [lp|]; [|pay; fin2].
    apply pays_nothing; [|intros []; destruct a; pay; fin2].
    destruct (phash lp); [|pay].
    apply pays_unwrap_bind. intros b _. apply right_assign_pays. reflexivity.
  Qed.
  Lemma swap_right_pays : forall old new, pays (one q new) (swap_right E old new) wsr.
  Proof.
    intros old new. unfold swap_right. pay1. eapply pays_then; [apply swap_right_check_pays|]. intros a.
    pay1. cbv zeta. destruct (t_get _ _ _ _) as [lp|]; [|pay; fin2].
    apply pays_nothing; [|intros []; destruct a; pay; fin2].
    destruct (phash lp); [|pay].
    apply pays_unwrap_bind. intros b _. apply left_assign_pays. reflexivity.
  Qed.
  Lemma swap_left_checked_pays : forall old ex new, pays (one p new) (swap_left_checked E old ex new) wsl.
  Proof. intros. unfold swap_left_checked. pay1. pay1; [pay; fin2|apply swap_left_pays]. Qed.
  Lemma swap_right_checked_pays : forall old ex new, pays (one q new) (swap_right_checked E old ex new) wsr.
  Proof. intros. unfold swap_right_checked. pay1. pay1; [pay; fin2|apply swap_right_pays]. Qed.
  Lemma swap_left_or_insert_pays : forall old new ti,
    pays (one p new + one q ti) (swap_left_or_insert E old new ti) wsl.
  Proof.
    intros. unfold swap_left_or_insert. pay1. pay1.
    - eapply pays_weaken; [apply swap_left_pays|lia|auto].
    - eapply pays_bind; [apply insert_pays|lia|]. intros [a b]. destruct a, b; pay; fin2.
  Qed.
  Lemma swap_right_or_insert_pays : forall old new ti,
    pays (one p ti + one q new) (swap_right_or_insert E old new ti) wsr.
  Proof.
    intros. unfold swap_right_or_insert. pay1. pay1.
    - eapply pays_weaken; [apply swap_right_pays|lia|auto].
    - eapply pays_bind; [apply insert_pays|lia|]. intros [a b]. destruct a, b; pay; fin2.
  Qed.
  Lemma extend_pairs_pays : forall l, pays (cnt p (List.map fst l) + cnt q (List.map snd l)) (extend_pairs E l) (fun _ => 0).
  Proof.
    induction l as [|[a b] l IH]; simpl List.map; [apply pays_ret; lia|]. rewrite !cnt_cons.
    eapply pays_bind; [apply insert_pays|simpl; lia|]. intros d.
    eapply pays_weaken; [apply IH|simpl; lia|auto].
  Qed.
  Lemma extend_pays : forall l, pays (cnt p (flat_map entry_l l) + cnt q (flat_map entry_r l)) (extend E l) (fun _ => 0).
  Proof.
    induction l as [|[|a|b|a b] l IH]; cbn [flat_map entry_l entry_r app extend]; [apply pays_ret; lia|exact IH|..];
      rewrite ?cnt_cons.
    - eapply pays_bind; [apply insert_left_pays|lia|]. intros d. eapply pays_weaken; [apply IH|lia|auto].
    - eapply pays_bind; [apply insert_right_pays|lia|]. intros d. eapply pays_weaken; [apply IH|lia|auto].
    - eapply pays_bind; [apply insert_pays|lia|]. intros d. eapply pays_weaken; [apply IH|lia|auto].
  Qed.
  Lemma drop_one_pays : forall t, pays 0 (drop_one E t) (fun _ => 0).
  Proof.
    intros [[[a|] [b|]] i]; unfold drop_one; pay.
    eapply pays_then; [apply remove_hashes_pays|]. intros d. pay.
  Qed.
  Lemma drop_all_pays : forall l, pays 0 (drop_all E l) (fun _ => 0).
  Proof.
    induction l as [|t l IH]; [apply pays_ret; lia|].
    apply pays_nothing; [apply drop_one_pays|]. auto.
  Qed.
  Lemma clear_pays : pays 0 (clear E) (fun _ => 0).
  Proof. intros m. unfold clear, bind, getst, putst, wm. cbn. lia. Qed.
  Lemma resize_left_pays : forall z, pays 0 (resize_left E z) (fun _ => 0).
  Proof.
    intros z m. unfold resize_left, bind, getst, putst, wm. cbn [left_set right_set set_left set_right hash_builder].
    rewrite !(tw_resize _ _ OP). lia.
  Qed.
  Lemma resize_right_pays : forall z, pays 0 (resize_right E z) (fun _ => 0).
  Proof.
    intros z m. unfold resize_right, bind, getst, putst, wm. cbn [left_set right_set set_left set_right hash_builder].
    rewrite !(tw_resize _ _ OP). lia.
  Qed.
  Lemma shrink_to_fit_pays : pays 0 (shrink_to_fit E) (fun _ => 0).
  Proof.
    unfold shrink_to_fit. pay1. apply pays_nothing; [apply resize_left_pays|]. intros []. pay1. apply resize_right_pays.
  Qed.
  Lemma try_reserve_left_pays : forall n, pays 0 (try_reserve_left E n) (fun _ => 0).
  Proof.
    intros n m. unfold try_reserve_left, bind, getst, putst, wm.
    assert (X := tw_try_resize (lo E) vl OP (left_set m) n (make_hasher_l E (hash_builder m))).
    destruct (t_try_resize _ _ _ _) as [ok t]. cbn [snd] in X.
    cbn [left_set right_set set_left set_right hash_builder ret]. lia.
  Qed.
  Lemma try_reserve_right_pays : forall n, pays 0 (try_reserve_right E n) (fun _ => 0).
  Proof.
    intros n m. unfold try_reserve_right, bind, getst, putst, wm.
    assert (X := tw_try_resize (lo E) vr OP (right_set m) n (make_hasher_r E (hash_builder m))).
    destruct (t_try_resize _ _ _ _) as [ok t]. cbn [snd] in X.
    cbn [left_set right_set set_left set_right hash_builder ret]. lia.
  Qed.

  (* the entries an iterator has yielded *)
  Definition wis (l : list (option (optional_pair L R))) : nat := cnt p (flat_map item_l l) + cnt q (flat_map item_r l).
  Lemma wis_cons : forall a l, wis (a :: l) = cnt_opt we a + wis l.
  Proof.
    intros [e|] t; unfold wis; simpl; auto. unfold we. rewrite !cnt_app. lia.
  Qed.

  Definition wd (d : drain_t) : nat := cnt vl (List.map snd (di_left d)) + tw vr (di_right d).
  Lemma drain_next_pays : forall d, match drain_next E d with
    | Ret d' a => wd d' + cnt_opt we a <= wd d
    | Panic d' => wd d' <= wd d
    end.
  Proof.
    intros [l t]. unfold drain_next, wd. cbn [di_left di_right].
    destruct l as [|[h e] l].
    - destruct (slots t) as [|[h e] s] eqn:X; cbn [di_left di_right cnt_opt]; rewrite tw_clear; [lia|].
      unfold tw. rewrite X. cbn [List.map snd]. rewrite cnt_cons, one_vr, we_R. unfold we_r. lia.
    - cbn [List.map snd]. rewrite cnt_cons, one_vl. destruct (phash e).
      + destruct (t_remove_entry _ _ _ _) as [[e' t']|] eqn:X; cbn [di_left di_right cnt_opt]; [|lia].
        apply (tw_remove_entry (lo E) vr) in X. rewrite one_vr in X. rewrite we_B. unfold we_l, we_r in *. lia.
      + cbn [di_left di_right cnt_opt]. rewrite we_L. unfold we_l. lia.
  Qed.
  Lemma drain_nexts_pays : forall n d, match drain_nexts E n d with
    | Ret d' is => wd d' + wis is <= wd d
    | Panic d' => wd d' <= wd d
    end.
  Proof.
    induction n as [|n IH]; intros d; cbn [drain_nexts]; [change (wis []) with 0; lia|].
    assert (X := drain_next_pays d). destruct (drain_next E d) as [d1 a|d1]; auto.
    specialize (IH d1). destruct (drain_nexts E n d1) as [d2 is|d2]; [rewrite wis_cons|]; lia.
  Qed.
  Lemma drain_drop_pays : forall n d, match drain_drop_fuel E n d with
    | Ret d' _ | Panic d' => wd d' <= wd d
    end.
  Proof.
    induction n as [|n IH]; intros d; cbn [drain_drop_fuel]; assert (X := drain_next_pays d);
      destruct (drain_next E d) as [d1 [a|]|d1]; try lia.
    specialize (IH d1). destruct (drain_drop_fuel E n d1); lia.
  Qed.
  Lemma drain_end_pays : forall m d, wm (drain_end E m d) <= wd d.
  Proof. intros. unfold wm, wd, drain_end. cbn [left_set right_set]. rewrite tw_clear. lia. Qed.

  Definition wf (d : df_inner) : nat := tw vl (df_left d) + tw vr (df_right d).
  Lemma df_next_right_pays : forall {X} (f : X -> optional_pair L R -> X * verdict) n d x,
    match df_next_right E f n d x with
    | Ret st' a => wf (fst st') + cnt_opt we a <= wf d
    | Panic st' => wf (fst st') <= wf d
    end.
  Proof.
    intros X f. induction n as [|n IH]; intros d x; cbn [df_next_right].
    all: destruct (t_entry (df_right d) (df_rpos d)) as [e|] eqn:Y; [|cbn [fst cnt_opt]; lia].
    all: destruct (f x _) as [x' [[|]|]]; [| |unfold wf; cbn [fst df_left df_right]; lia].
    1,3: apply (tw_remove_at (lo E) vr) in Y; rewrite one_vr in Y; unfold wf, we_r in *;
         cbn [fst snd df_left df_right cnt_opt]; rewrite we_R; lia.
    - unfold wf; cbn [fst df_left df_right]; lia.
    - apply (IH (DF (df_left d) (df_lpos d) (df_right d) (Datatypes.S (df_rpos d)) (df_reset d)) x').
  Qed.
  Lemma df_next_left_pays : forall {X} (f : X -> optional_pair L R -> X * verdict) n d x,
    match df_next_left E f n d x with
    | Ret st' a => wf (fst st') + cnt_opt we a <= wf d
    | Panic st' => wf (fst st') <= wf d
    end.
  Proof.
    assert (ER : forall d, wf (df_enter_right d) = wf d).
    { intros d. unfold df_enter_right. destruct (df_reset d); reflexivity. }
    intros X f. induction n as [|n IH]; intros d x; cbn [df_next_left]; cbv zeta.
    all: destruct (t_entry (df_left d) (df_lpos d)) as [e|] eqn:Y;
      [|rewrite <- (ER d); apply df_next_right_pays].
    all: destruct (phash e).
    1,3: unfold t_get_mut; destruct (t_find _ _ _ _) as [i|]; [|unfold wf; cbn [fst df_left df_right]; lia];
      (destruct (t_entry (df_right d) i) as [e'|] eqn:Z; [|unfold wf; cbn [fst df_left df_right]; lia]).
    all: destruct (f x _) as [x' [[|]|]]; [| |unfold wf; cbn [fst df_left df_right]; lia].
    1,3: apply (tw_remove_at (lo E) vl) in Y; apply (tw_remove_at (lo E) vr) in Z;
         rewrite one_vl in Y; rewrite one_vr in Z; unfold wf, we_l, we_r in *;
         cbn [fst snd df_left df_right cnt_opt]; rewrite we_B; lia.
    1,2: try (unfold wf; cbn [fst df_left df_right]; lia);
         apply (IH (DF (df_left d) (Datatypes.S (df_lpos d)) (df_right d) (df_rpos d) (df_reset d)) x').
    1,3: apply (tw_remove_at (lo E) vl) in Y; rewrite one_vl in Y; unfold wf, we_l in *;
         cbn [fst snd df_left df_right cnt_opt]; rewrite we_L; lia.
    - unfold wf; cbn [fst df_left df_right]; lia.
    - apply (IH (DF (df_left d) (Datatypes.S (df_lpos d)) (df_right d) (df_rpos d) (df_reset d)) x').
  Qed.
  Lemma df_next_pays : forall {X} (f : X -> optional_pair L R -> X * verdict) st, match df_next E f st with
    | Ret st' a => wf (fst st') + cnt_opt we a <= wf (fst st)
    | Panic st' => wf (fst st') <= wf (fst st)
    end.
  Proof. intros. apply df_next_left_pays. Qed.
  Lemma df_nexts_pays : forall {X} (f : X -> optional_pair L R -> X * verdict) n st, match df_nexts E f n st with
    | Ret st' is => wf (fst st') + wis is <= wf (fst st)
    | Panic st' => wf (fst st') <= wf (fst st)
    end.
  Proof.
    intros X f. induction n as [|n IH]; intros st; cbn [df_nexts]; [change (wis []) with 0; lia|].
    assert (Y := df_next_pays f st). destruct (df_next _ _ _) as [d1 a|d1]; auto.
    specialize (IH d1). destruct (df_nexts E f n d1) as [d2 is|d2]; [rewrite wis_cons|]; lia.
  Qed.
  Lemma df_drop_pays : forall {X} (f : X -> optional_pair L R -> X * verdict) n st, match df_drop_fuel E f n st with
    | Ret st' _ | Panic st' => wf (fst st') <= wf (fst st)
    end.
  Proof.
    intros X f. induction n as [|n IH]; intros st; cbn [df_drop_fuel];
      assert (Y := df_next_pays f st); destruct (df_next _ _ _) as [d1 [a|]|d1]; try lia.
    specialize (IH d1). destruct (df_drop_fuel E f n d1); lia.
  Qed.
  Lemma wm_df_end : forall m d, wm (df_end m d) = wf d.
  Proof. reflexivity. Qed.

  (* the weight handed over, and handed back *)
  Definition wgiven (o : xop L R) : nat := cnt p (given_l o) + cnt q (given_r o).
  Lemma via_pays : forall {A} o (c : M map A) (k : A -> out L R) g h m, pays g c h ->
    (forall a, wout o (k a) <= h a) -> wout o OPanic = 0 ->
    wm (fst (via k (c m))) + wout o (snd (via k (c m))) <= wm m + g.
  Proof.
    intros A o c k g h m H W Z. specialize (H m). destruct (c m) as [m' a|m']; simpl.
    - specialize (W a). lia.
    - rewrite Z. lia.
  Qed.
  Lemma retain_pays : forall {X A I} (f : X -> A -> X * verdict) (next : I -> outcome (option A * I)) key n it m x o,
    wout o OUnit = 0 -> wout o OPanic = 0 ->
    let r := via_closure (retain_with E f next key n it (m, x)) in wm (fst r) + wout o (snd r) <= wm m + 0.
  Proof.
    intros X A I f next key n it m x o Z1 Z2. cbv zeta. unfold retain_with.
    destruct (retain_scan _ _ _ _ _ _) as [x' l|x']; cbn [via_closure fst snd]; [|lia].
    assert (H := drop_all_pays l m). destruct (drop_all E l m); cbn [via_closure fst snd]; lia.
  Qed.

  Lemma xstep_pays : forall o m,
    wm (fst (xstep E m o)) + wout o (snd (xstep E m o)) <= wm m + wgiven o.
  Proof.
    assert (Z : forall o w, handed_l o w = [] -> handed_r o w = [] -> wout o w = 0).
    { intros o w A B. unfold wout. rewrite A, B. reflexivity. }
    intros [o|n] m.
    - destruct o; cbn [xstep step]; unfold wgiven; cbn [given_l given_r]; change (cnt p []) with 0; change (cnt q []) with 0;
        try (cbn [fst snd]; rewrite Z by reflexivity; lia);
        try (apply retain_pays; reflexivity).
      + eapply via_pays; [apply insert_pays| |reflexivity].
        intros [a b]. unfold wout, we. cbn [handed_l handed_r fst snd]. rewrite !cnt_app. lia.
      + eapply via_pays; [eapply pays_weaken; [apply insert_left_pays|unfold one; lia|auto]|intros; apply le_n|reflexivity].
      + eapply via_pays; [apply insert_right_pays|intros; apply le_n|reflexivity].
      + eapply via_pays; [apply pair_pays|intros; rewrite Z; auto|reflexivity].
      + eapply via_pays; [apply pair_forced_pays|intros; rewrite Z; auto|reflexivity].
      + eapply via_pays; [apply pair_forced_remove_pays|intros; apply le_n|reflexivity].
      + eapply via_pays; [apply unpair_pays|intros; rewrite Z; auto|reflexivity].
      + eapply via_pays; [apply remove_pays|intros [[? ?]|]; apply le_n|reflexivity].
      + eapply via_pays; [apply remove_left_pays|intros [?|]; [|apply le_n]|reflexivity].
        unfold wout. cbn. unfold one. lia.
      + eapply via_pays; [apply remove_right_pays|intros [?|]; apply le_n|reflexivity].
      + eapply via_pays; [apply remove_via_left_pays|intros; apply le_n|reflexivity].
      + eapply via_pays; [apply remove_via_right_pays|intros; apply le_n|reflexivity].
      + eapply via_pays; [eapply pays_weaken; [apply swap_left_pays|unfold one; lia|auto]|intros; apply le_n|reflexivity].
      + eapply via_pays; [eapply pays_weaken; [apply swap_left_checked_pays|unfold one; lia|auto]|intros; apply le_n|reflexivity].
      + eapply via_pays; [apply swap_left_or_insert_pays|intros; apply le_n|reflexivity].
      + eapply via_pays; [apply swap_right_pays|intros; apply le_n|reflexivity].
      + eapply via_pays; [apply swap_right_checked_pays|intros; apply le_n|reflexivity].
      + eapply via_pays; [apply swap_right_or_insert_pays|intros; apply le_n|reflexivity].
      + destruct (iter_all E m); cbn [seen fst snd]; rewrite Z; auto; lia.
      + destruct (paired_rest _ _ _); cbn [seen fst snd]; rewrite Z; auto; lia.
      + destruct (unpaired_rest _); cbn [seen fst snd]; rewrite Z; auto; lia.
      + destruct (collect _ _ _); cbn [seen fst snd]; rewrite Z; auto; lia.
      + destruct (collect _ _ _); cbn [seen fst snd]; rewrite Z; auto; lia.
      + eapply via_pays; [apply extend_pairs_pays|intros; rewrite Z; auto|reflexivity].
      + eapply via_pays; [apply extend_pays|intros; rewrite Z; auto|reflexivity].
      + assert (HX := drain_nexts_pays n (drain m)). assert (Y := drain_end_pays m).
        change (wd (drain m)) with (wm m) in HX. unfold drain_drop.
        destruct (drain_nexts E _ _) as [d is|d].
        * assert (D := drain_drop_pays (Datatypes.S (length (di_left d))) d).
          destruct (drain_drop_fuel _ _ _) as [d' u|d']; cbn [fst snd]; specialize (Y d');
            [change (wout (Call (DrainN n)) (OItems is false)) with (wis is)
            |change (wout (Call (DrainN n)) (OItems is true)) with (wis is)]; lia.
        * assert (D := drain_drop_pays (Datatypes.S (length (di_left d))) d).
          destruct (drain_drop_fuel _ _ _) as [d' u|d']; cbn [fst snd]; specialize (Y d'); rewrite Z; auto; lia.
      + assert (HX := df_nexts_pays f n (drain_filter m, x)). change (wf (fst (drain_filter m, x))) with (wm m) in HX.
        destruct (df_nexts E f n _) as [[d x'] is|[d x']]; cbn [fst] in HX.
        * destruct leak; [cbn [fst snd]; match goal with |- context [wout ?o (OItems is false)] =>
             change (wout o (OItems is false)) with (wis is) end; rewrite wm_df_end; lia|].
          assert (Y := df_drop_pays f (t_len (df_left d) + t_len (df_right d)) (d, x')). unfold df_drop. cbn [fst].
          destruct (df_drop_fuel _ _ _ _) as [[d' x'']u|[d' x'']]; cbn [fst snd] in *; rewrite wm_df_end;
            match goal with |- context [wout ?o ?w] => change (wout o w) with (wis is) end; lia.
        * assert (Y := df_drop_pays f (t_len (df_left d) + t_len (df_right d)) (d, x')). unfold df_drop. cbn [fst].
          destruct (df_drop_fuel _ _ _ _) as [[d' x''] u|[d' x'']]; cbn [fst snd] in *; rewrite wm_df_end, Z; auto; lia.
      + eapply via_pays; [apply clear_pays|intros; rewrite Z; auto|reflexivity].
      + cbn [fst snd]. rewrite Z; auto.
      + eapply via_pays; [apply resize_left_pays|intros; rewrite Z; auto|reflexivity].
      + eapply via_pays; [apply resize_right_pays|intros; rewrite Z; auto|reflexivity].
      + eapply via_pays; [apply shrink_to_fit_pays|intros; rewrite Z; auto|reflexivity].
      + eapply via_pays; [apply resize_left_pays|intros; rewrite Z; auto|reflexivity].
      + eapply via_pays; [apply resize_right_pays|intros; rewrite Z; auto|reflexivity].
      + eapply via_pays; [apply try_reserve_left_pays|intros; rewrite Z; auto|reflexivity].
      + eapply via_pays; [apply try_reserve_right_pays|intros; rewrite Z; auto|reflexivity].
    - cbn [xstep]. unfold wgiven. cbn [given_l given_r]. change (cnt p []) with 0; change (cnt q []) with 0.
      assert (HX := drain_nexts_pays n (drain m)). assert (Y := drain_end_pays m).
      change (wd (drain m)) with (wm m) in HX.
      destruct (drain_nexts E _ _) as [d is|d]; cbn [fst snd]; specialize (Y d);
          [change (wout (DrainLeak n) (OItems is false)) with (wis is)|rewrite Z; auto]; lia.
  Qed.
End Pays.

Definition back_l {L R} (c : xop L R * out L R) : list L := handed_l (fst c) (snd c).
Definition back_r {L R} (c : xop L R * out L R) : list R := handed_r (fst c) (snd c).

Lemma xrun_pays : forall {L R S} p q (cs : list (env L R S * xop L R)) m,
  Forall (fun c => keeps_buckets (lo (fst c))) cs ->
  let (m', ws) := xrun_with m cs in
  wm p q m' + (cnt p (flat_map back_l ws) + cnt q (flat_map back_r ws)) <=
  wm p q m + (cnt p (flat_map given_l (map snd cs)) + cnt q (flat_map given_r (map snd cs))).
Proof.
  intros L R S p q. induction cs as [|[E o] cs IH]; intros m H; cbn [xrun_with].
  - simpl. lia.
  - assert (OP := Forall_inv H). apply Forall_inv_tail in H. simpl in OP.
    assert (X := xstep_pays E OP p q o m). destruct (xstep E m o) as [m1 w]. cbn [fst snd] in X.
    specialize (IH m1 H). destruct (xrun_with m1 cs) as [m2 ws]. cbn [flat_map map snd].
    rewrite !cnt_app. unfold back_l at 1, back_r at 1. cbn [fst snd]. unfold wout, wgiven in X. lia.
Qed.

Lemma cnt_false : forall {A} (l : list A), cnt (fun _ => false) l = 0.
Proof. induction l as [|a l IH]; auto. Qed.
Lemma tw_values : forall {A} (p : A -> bool) (t : table (mapping_pair A)),
  tw (fun e => p (value e)) t = cnt p (map value (map snd (slots t))).
Proof.
  intros. unfold tw, cnt. induction (slots t) as [|[h e] l IH]; simpl; auto. destruct (p (value e)); simpl; auto.
Qed.

(* ---- C120 ---- Whatever Eq and Hash do, whatever the call does (panics included): of the
   items of any kind p, those in the map and those handed back are no more than those handed
   over. *)
Theorem C120_no_item_invented : forall {L R S} (cs : list (env L R S * xop L R)) s ll lr,
  Forall (fun c => keeps_buckets (lo (fst c))) cs ->
  let (m, ws) := xrun_with (with_hasher s ll lr) cs in
  (forall p, length (filter p (map value (map snd (iter_left m)))) + length (filter p (flat_map back_l ws)) <=
             length (filter p (flat_map given_l (map snd cs)))) /\
  (forall q, length (filter q (map value (map snd (iter_right m)))) + length (filter q (flat_map back_r ws)) <=
             length (filter q (flat_map given_r (map snd cs)))).
Proof.
  intros L R S cs s ll lr H.
  assert (X := fun p q => xrun_pays p q cs (with_hasher s ll lr) H).
  destruct (xrun_with _ cs) as [m ws]. split; intro p.
  - specialize (X p (fun _ => false)). unfold wm in X.
    rewrite !(tw_values p : forall t, tw (vl p) t = _), !(tw_values (fun _ => false) : forall t, tw (vr _) t = _), !cnt_false in X.
    change (cnt p (map value (map snd (slots (left_set (with_hasher (L := L) (R := R) s ll lr)))))) with 0 in X.
    unfold cnt in X. unfold iter_left. lia.
  - specialize (X (fun _ => false) p). unfold wm in X.
    rewrite !(tw_values p : forall t, tw (vr p) t = _), !(tw_values (fun _ => false) : forall t, tw (vl _) t = _), !cnt_false in X.
    change (cnt p (map value (map snd (slots (right_set (with_hasher (L := L) (R := R) s ll lr)))))) with 0 in X.
    unfold cnt in X. unfold iter_right. lia.
Qed.

(* 2k and 2k+1 are equal, but have different hashes *)
Definition half_eq (a b : N) : bool := (a / 2 =? b / 2)%N.
Definition bad_env (lo : layout) : env N N N :=
  Env _ _ _ half_eq half_eq (fun s a => s + a)%N (fun s a => s + a)%N (fun _ _ => 0%N) lo true.
Definition bad_history : list (env N N N * xop N N) :=
  List.map (fun o => (bad_env lo_wild, o))
    [Call (Insert 2 10); Call (Insert 4 20); Call (RemoveViaLeft 3); Call (InsertLeft 6);
     Call (InsertRight 30); Call (PairForced 6 10); Call (SwapRight 21 12); Call (PairForced 4 30);
     Call (RemoveLeft 5); Call (Insert 8 40); DrainLeak 1; Call (Insert 8 41)]%N.
Example C120_case : Forall (fun c => keeps_buckets (lo (fst c))) bad_history /\
  let (m, ws) := xrun_with (with_hasher 0 0 0)%N bad_history in
  map value (map snd (iter_left m)) = [] /\ map value (map snd (iter_right m)) = [30; 20]%N /\
  map snd ws =
    [OIns (Neither, Neither); OIns (Neither, Neither); OPanic; OEntry Neither; OEntry Neither; OPanic; OPanic;
     OEntry (SomeRight 20); OL (Some 4); OIns (Neither, Neither); OItems [Some (SomeBoth 6 10)] false; OPanic]%N /\
  flat_map back_l ws = [4; 6]%N /\ flat_map back_r ws = [10]%N.
Proof.
  split; [|vm_compute; repeat split].
  repeat (apply Forall_cons; [apply keeps_buckets_ok, lo_wild_ok|]). apply Forall_nil.
Qed.

Print Assumptions C120_no_item_invented.
