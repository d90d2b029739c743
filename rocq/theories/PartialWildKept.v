(* PartialCycleMap with user code that does as it likes (Wild.v): a call that returns loses no
   item.  Which calls and answers are meant is said by [accounts_for] below. *)
From Coq Require Import List NArith Lia Bool Permutation.
From Verif Require Import Closures Prelude RawTable Optionals PartialCycleMap PartialHistory PartialAny
  TableFacts Conserve PartialConserve Faults Wild PartialWild PartialWildProps Settle Concrete.
Import ListNotations.
Local Open Scope nat_scope.

Section WildKept.
  Context {L R S W : Type} (E : wenv L R S W).
  Hypothesis TE : tame E.
  Variables (p : L -> bool) (q : R -> bool).
  Notation map := (pmap L R S).
  Notation B := (calm_env E).
  Notation wm := (wm p q).
  Notation wp := (wp p q).
  Notation we := (we p q).
  Notation settles := (settles (fun s : W * map => wm (snd s))).
  Notation settles_on := (settles_on (fun s : W * map => wm (snd s))).

  Lemma left_remove_settles : forall h f, Settle.settles wm 0 (left_remove_entry B h f) (cnt_opt (we_l p)).
  Proof.
    intros h f m m' o. unfold left_remove_entry, bind, getst, putst, ret.
    destruct (t_remove_entry _ _ _ _) as [[e t]|] eqn:X; intros Q _; injection Q as <- <-; cbn [cnt_opt]; [|lia].
    apply (tw_remove_entry (lo B) (vl p)) in X. rewrite one_vl in X. unfold PartialConserve.wm.
    cbn [left_set right_set set_left set_right cnt_opt]. lia.
  Qed.
  Lemma right_remove_settles : forall h f, Settle.settles wm 0 (right_remove_entry B h f) (cnt_opt (we_r q)).
  Proof.
    intros h f m m' o. unfold right_remove_entry, bind, getst, putst, ret.
    destruct (t_remove_entry _ _ _ _) as [[e t]|] eqn:X; intros Q _; injection Q as <- <-; cbn [cnt_opt]; [|lia].
    apply (tw_remove_entry (lo B) (vr q)) in X. rewrite one_vr in X. unfold PartialConserve.wm.
    cbn [left_set right_set set_left set_right cnt_opt]. lia.
  Qed.
  Lemma incr_settles : Settle.settles wm 0 (incr_counter B) (fun _ => 0).
  Proof.
    intros m m' a. unfold incr_counter, bind, getst, unwrap, panic, putst. destruct (u64_incr _ _); cbn; intros X _; [|discriminate].
    injection X as <- <-. unfold PartialConserve.wm. simpl. lia.
  Qed.
  Lemma w_left_remove_settles : forall h l, settles 0 (w_left_remove_entry E h l) (cnt_opt (we_l p)).
  Proof.
    intros h l [w m] s' o. unfold w_left_remove_entry, bind, w_look, w_calmly, w_with, getst, putst, ret. cbn [fst snd].
    destruct (w_remove_entry _ _ _ _ _) as [w' [[e t]|]|w'] eqn:X; cbn [fst snd]; intros Q _; try discriminate;
      injection Q as <- <-; cbn [fst snd cnt_opt]; try lia.
    apply (wtw_remove _ (vl p)) in X. rewrite one_vl in X. unfold PartialConserve.wm. cbn [fst snd left_set right_set set_left set_right cnt_opt]. lia.
  Qed.
  Lemma w_right_remove_settles : forall h l, settles 0 (w_right_remove_entry E h l) (cnt_opt (we_r q)).
  Proof.
    intros h l [w m] s' o. unfold w_right_remove_entry, bind, w_look, w_calmly, w_with, getst, putst, ret. cbn [fst snd].
    destruct (w_remove_entry _ _ _ _ _) as [w' [[e t]|]|w'] eqn:X; cbn [fst snd]; intros Q _; try discriminate;
      injection Q as <- <-; cbn [fst snd cnt_opt]; try lia.
    apply (wtw_remove _ (vr q)) in X. rewrite one_vr in X. unfold PartialConserve.wm. cbn [fst snd left_set right_set set_left set_right cnt_opt]. lia.
  Qed.
  Lemma w_left_insert_settles : forall h e, settles (we_l p e) (w_left_insert E h e) (fun _ => 0).
  Proof.
    intros h e [w m] s' []. unfold w_left_insert, on_left. cbn [fst snd].
    assert (X := fun hs => wtw_insert (W := W) _ _ (proj1 TE) (proj2 TE) (vl p) (left_set m) h e hs w).
    match goal with |- context [w_insert _ _ _ _ _ ?hs _] => specialize (X hs) end.
    destruct (w_insert _ _ _ _ _ _ _) as [[w' t'] []|[w' t']]; intros Q _; [|discriminate]. injection Q as <-.
    rewrite one_vl in X. unfold PartialConserve.wm. cbn [fst snd left_set right_set set_left set_right cnt_opt]. lia.
  Qed.
  Lemma w_right_insert_settles : forall h e, settles (we_r q e) (w_right_insert E h e) (fun _ => 0).
  Proof.
    intros h e [w m] s' []. unfold w_right_insert, on_right. cbn [fst snd].
    assert (X := fun hs => wtw_insert (W := W) _ _ (proj1 TE) (proj2 TE) (vr q) (right_set m) h e hs w).
    match goal with |- context [w_insert _ _ _ _ _ ?hs _] => specialize (X hs) end.
    destruct (w_insert _ _ _ _ _ _ _) as [[w' t'] []|[w' t']]; intros Q _; [|discriminate]. injection Q as <-.
    rewrite one_vr in X. unfold PartialConserve.wm. cbn [fst snd left_set right_set set_left set_right cnt_opt]. lia.
  Qed.

  Lemma left_assign_settles : forall i f, (forall e, value (f e) = value e) ->
    Settle.settles wm 0 (left_assign i f : M map unit) (fun _ => 0).
  Proof.
    intros i f H m m' a. unfold left_assign, bind, getst, putst. intros X _. injection X as <- <-.
    unfold PartialConserve.wm. cbn [left_set right_set set_left]. rewrite (tw_modify (vl p)); auto.
    intros e. unfold vl. rewrite H. auto.
  Qed.
  Lemma right_assign_settles : forall i f, (forall e, value (f e) = value e) ->
    Settle.settles wm 0 (right_assign i f : M map unit) (fun _ => 0).
  Proof.
    intros i f H m m' a. unfold right_assign, bind, getst, putst. intros X _. injection X as <- <-.
    unfold PartialConserve.wm. cbn [left_set right_set set_right]. rewrite (tw_modify (vr q)); auto.
    intros e. unfold vr. rewrite H. auto.
  Qed.
  Ltac pay1 :=
    cbv beta zeta; unfold Settle.settles;
    match goal with
    | |- Settle.settles_on _ _ _ (ret _) _ => apply settles_ret; intros ?
    | |- Settle.settles_on _ _ _ panic _ => apply settles_panic
    | |- Settle.settles_on _ _ _ (bind (w_look _) _) _ => apply settles_looked; intro
    | |- Settle.settles_on _ _ _ (bind (unwrap ?o) _) _ => apply settles_unwrap_bind; intros ? ?; try subst o
    | |- Settle.settles_on _ _ _ (bind (w_calmly (incr_counter _)) _) _ =>
        apply settles_nothing; [apply (settles_calmly wm), incr_settles|intros []]
    | |- Settle.settles_on _ _ _ (bind (w_calmly (left_remove_entry _ _ _)) _) _ =>
        eapply settles_then; [apply (settles_calmly wm), left_remove_settles|intro]
    | |- Settle.settles_on _ _ _ (bind (w_calmly (right_remove_entry _ _ _)) _) _ =>
        eapply settles_then; [apply (settles_calmly wm), right_remove_settles|intro]
    | |- Settle.settles_on _ _ _ (bind (w_left_remove_entry _ _ _) _) _ =>
        eapply settles_then; [apply w_left_remove_settles|intro]
    | |- Settle.settles_on _ _ _ (bind (w_right_remove_entry _ _ _) _) _ =>
        eapply settles_then; [apply w_right_remove_settles|intro]
    | |- Settle.settles_on _ _ _ (bind (w_left_insert _ _ _) _) _ =>
        eapply settles_bind; [apply w_left_insert_settles| |intros []]
    | |- Settle.settles_on _ _ _ (bind (w_right_insert _ _ _) _) _ =>
        eapply settles_bind; [apply w_right_insert_settles| |intros []]
    | |- Settle.settles_on _ _ _ (if ?b then _ else _) _ => destruct b
    | |- Settle.settles_on _ _ _ (match ?o with _ => _ end) _ => destruct o
    end.
  Ltac fin := repeat match goal with
    | H : Some _ = Some _ |- _ => injection H as <- | H : None = Some _ |- _ => discriminate H end; cbn [fst snd] in *;
    rewrite ?wfp, ?we_N, ?we_L, ?we_R, ?we_B in *; unfold we_l, we_r, PartialConserve.wp in *;
    cbn [cnt_opt value fst snd option_map op_get_left op_get_right] in *; lia.
  Ltac pay := repeat pay1; try fin.
  Ltac fin2 := cbn [fst snd] in *; rewrite ?wsl_N, ?wsl_L, ?wsl_R, ?wsl_B, ?wsr_N, ?wsr_L, ?wsr_R, ?wsr_B; fin.

  (* assignments to buckets, as in remove_left and the swaps *)
  Lemma assign_right_settles : forall (o : map -> option (nat * mapping_pair R)) f, (forall e, value (f e) = value e) ->
    settles 0 (w_calmly (m <- getst ;; b <- unwrap (o m) ;; right_assign (fst b) f)) (fun _ => 0).
  Proof.
    intros o f H. apply (settles_calmly wm). apply settles_get_any. intros m. apply settles_unwrap_bind. intros b _.
    apply right_assign_settles; auto.
  Qed.
  Lemma assign_left_settles : forall (o : map -> option (nat * mapping_pair L)) f, (forall e, value (f e) = value e) ->
    settles 0 (w_calmly (m <- getst ;; b <- unwrap (o m) ;; left_assign (fst b) f)) (fun _ => 0).
  Proof.
    intros o f H. apply (settles_calmly wm). apply settles_get_any. intros m. apply settles_unwrap_bind. intros b _.
    apply left_assign_settles; auto.
  Qed.
  Lemma w_remove_left_settles : forall l, settles 0 (w_remove_left E l) (cnt_opt (one p)).
  Proof.
    intros l. unfold w_remove_left. do 3 pay1; [|pay]. pay1; [|pay].
    apply settles_nothing; [apply (assign_right_settles (fun m => t_get_mut B (right_set m) _ _)); auto|]. intros. pay.
  Qed.
  Lemma w_remove_right_settles : forall l, settles 0 (w_remove_right E l) (cnt_opt (one q)).
  Proof.
    intros l. unfold w_remove_right. do 3 pay1; [|pay]. pay1; [|pay].
    apply settles_nothing; [apply (assign_left_settles (fun m => t_get_mut B (left_set m) _ _)); auto|]. intros. pay.
  Qed.
  Lemma w_remove_via_left_settles : forall l, settles 0 (w_remove_via_left E l) we.
  Proof. intros l. unfold w_remove_via_left. pay. Qed.
  Lemma w_remove_via_right_settles : forall l, settles 0 (w_remove_via_right E l) we.
  Proof. intros l. unfold w_remove_via_right. pay. Qed.
  Lemma w_remove_settles : forall l r, settles 0 (w_remove E l r) (cnt_opt wp).
  Proof.
    intros l r. unfold w_remove. pay1. pay1; [|pay]. eapply settles_then; [apply w_remove_via_left_settles|]. intros d.
    destruct d; cbn [op_to_opt]; pay.
  Qed.
  Lemma w_insert_settles : forall l r, settles (one p l + one q r) (w_insert_pair E l r) (fun d => we (fst d) + we (snd d)).
  Proof.
    intros l r. unfold w_insert_pair. eapply settles_then; [apply w_remove_via_left_settles|]. intros a.
    eapply settles_then; [apply w_remove_via_right_settles|]. intros b. pay.
  Qed.
  Lemma w_insert_left_settles : forall l, settles (one p l) (w_insert_left E l) we.
  Proof. intros l. unfold w_insert_left. eapply settles_then; [apply w_remove_via_left_settles|]. intros a. pay. Qed.
  Lemma w_insert_right_settles : forall l, settles (one q l) (w_insert_right E l) we.
  Proof. intros l. unfold w_insert_right. eapply settles_then; [apply w_remove_via_right_settles|]. intros a. pay. Qed.

  (* pair, pair_forced, pair_forced_remove, unpair, after the searches *)
  Ltac cpay1 :=
    cbv beta zeta; unfold Settle.settles;
    match goal with
    | |- Settle.settles_on _ _ _ (ret _) _ => apply settles_ret; intros ?
    | |- Settle.settles_on _ _ _ panic _ => apply settles_panic
    | |- Settle.settles_on _ _ _ (bind getst _) _ => apply settles_get_any; intro
    | |- Settle.settles_on _ _ _ (bind (incr_counter _) _) _ => apply settles_nothing; [apply incr_settles|intros []]
    | |- Settle.settles_on _ _ _ (bind (left_assign _ _) _) _ =>
        apply settles_nothing; [apply left_assign_settles; reflexivity|intros []]
    | |- Settle.settles_on _ _ _ (bind (right_assign _ _) _) _ =>
        apply settles_nothing; [apply right_assign_settles; reflexivity|intros []]
    | |- Settle.settles_on _ _ _ (bind (unwrap ?o) _) _ => apply settles_unwrap_bind; intros ? ?; try subst o
    | |- Settle.settles_on _ _ _ (bind (left_remove_entry _ _ _) _) _ =>
        eapply settles_then; [apply left_remove_settles|intro]
    | |- Settle.settles_on _ _ _ (bind (right_remove_entry _ _ _) _) _ =>
        eapply settles_then; [apply right_remove_settles|intro]
    | |- Settle.settles_on _ _ _ (if ?b then _ else _) _ => destruct b
    | |- Settle.settles_on _ _ _ (match ?o with _ => _ end) _ => destruct o
    end.
  Ltac cpay := repeat cpay1; try fin.
  Lemma pair_found_settles : forall a b x y, Settle.settles wm 0 (pair_found a b x y : M map bool) (fun _ => 0).
  Proof. intros. unfold pair_found. cpay. Qed.
  Lemma unpair_found_settles : forall a b x y, Settle.settles wm 0 (unpair_found E a b x y) (fun _ => 0).
  Proof. intros. unfold unpair_found. cpay. Qed.
  Lemma pair_forced_found_settles : forall a b x y, Settle.settles wm 0 (pair_forced_found E a b x y) (fun _ => 0).
  Proof. intros. unfold pair_forced_found. cpay. Qed.
  Lemma pair_forced_remove_found_settles : forall a b x y, Settle.settles wm 0 (pair_forced_remove_found E a b x y) we.
  Proof. intros. unfold pair_forced_remove_found. cpay. Qed.
  Lemma w_pair_settles : forall l r, settles 0 (w_pair E l r) (fun _ => 0).
  Proof. intros. apply settles_looked. intros [[[a b] x] y]. apply (settles_calmly wm), pair_found_settles. Qed.
  Lemma w_unpair_settles : forall l r, settles 0 (w_unpair E l r) (fun _ => 0).
  Proof. intros. apply settles_looked. intros [[[a b] x] y]. apply (settles_calmly wm), unpair_found_settles. Qed.
  Lemma w_pair_forced_settles : forall l r, settles 0 (w_pair_forced E l r) (fun _ => 0).
  Proof.
    intros. unfold w_pair_forced. pay1. pay1; [pay|]. apply settles_looked. intros [[[a b] x] y]. apply (settles_calmly wm), pair_forced_found_settles.
  Qed.
  Lemma w_pair_forced_remove_settles : forall l r, settles 0 (w_pair_forced_remove E l r) we.
  Proof.
    intros. unfold w_pair_forced_remove. pay1. pay1; [pay|]. apply settles_looked. intros [[[a b] x] y].
    apply (settles_calmly wm), pair_forced_remove_found_settles.
  Qed.

  Lemma w_swap_left_check_settles : forall old new h, settles 0 (w_swap_left_eq_check E old new h) we.
  Proof. intros. unfold w_swap_left_eq_check. pay1. pay1; [|pay]. pay1. pay1; [apply w_remove_via_left_settles|pay]. Qed.
  Lemma w_swap_right_check_settles : forall old new h, settles 0 (w_swap_right_eq_check E old new h) we.
  Proof. intros. unfold w_swap_right_eq_check. pay1. pay1; [|pay]. pay1. pay1; [apply w_remove_via_right_settles|pay]. Qed.
  Lemma w_swap_left_settles : forall old new, settles_on (fun d => d <> Neither) (one p new) (w_swap_left E old new) (wsl p q).
  Proof.
    intros old new. unfold w_swap_left. pay1. eapply settles_then; [apply w_swap_left_check_settles|]. intros dd.
    pay1. pay1. pay1; [|pay1; congruence].
    apply settles_nothing; [|intros ?; destruct dd; pay; fin2].
    destruct (phash _); [apply (assign_right_settles (fun m => t_get_mut B (right_set m) _ _)); auto|].
    apply (settles_calmly wm), settles_ret. auto.
  Qed.
  Lemma w_swap_right_settles : forall old new, settles_on (fun d => d <> Neither) (one q new) (w_swap_right E old new) (wsr p q).
  Proof.
    intros old new. unfold w_swap_right. pay1. eapply settles_then; [apply w_swap_right_check_settles|]. intros dd.
    pay1. pay1. pay1; [|pay1; congruence].
    apply settles_nothing; [|intros ?; destruct dd; pay; fin2].
    destruct (phash _); [apply (assign_left_settles (fun m => t_get_mut B (left_set m) _ _)); auto|].
    apply (settles_calmly wm), settles_ret. auto.
  Qed.
  Lemma w_swap_left_checked_settles : forall old ex new,
    settles_on (fun d => d <> Neither) (one p new) (w_swap_left_checked E old ex new) (wsl p q).
  Proof. intros. unfold w_swap_left_checked. pay1. pay1; [pay1; congruence|apply w_swap_left_settles]. Qed.
  Lemma w_swap_right_checked_settles : forall old ex new,
    settles_on (fun d => d <> Neither) (one q new) (w_swap_right_checked E old ex new) (wsr p q).
  Proof. intros. unfold w_swap_right_checked. pay1. pay1; [pay1; congruence|apply w_swap_right_settles]. Qed.
  Lemma w_on_left_settles : forall {A} (c : S -> table (mapping_pair L) -> W -> res (W * table (mapping_pair L)) A),
    (forall s t w w' t' a, c s t w = Ret (w', t') a -> tw (vl p) t' = tw (vl p) t) ->
    settles 0 (on_left c) (fun _ => 0).
  Proof.
    intros A c H [w m] s' a. unfold on_left. cbn [fst snd]. specialize (H (hash_builder m) (left_set m) w).
    destruct (c _ _ _) as [[w' t'] b|[w' t']]; intros Q _; [|discriminate]. injection Q as <- <-.
    specialize (H _ _ _ eq_refl). unfold PartialConserve.wm; cbn [fst snd left_set right_set set_left set_right cnt_opt]; lia.
  Qed.
  Lemma w_on_right_settles : forall {A} (c : S -> table (mapping_pair R) -> W -> res (W * table (mapping_pair R)) A),
    (forall s t w w' t' a, c s t w = Ret (w', t') a -> tw (vr q) t' = tw (vr q) t) ->
    settles 0 (on_right c) (fun _ => 0).
  Proof.
    intros A c H [w m] s' a. unfold on_right. cbn [fst snd]. specialize (H (hash_builder m) (right_set m) w).
    destruct (c _ _ _) as [[w' t'] b|[w' t']]; intros Q _; [|discriminate]. injection Q as <- <-.
    specialize (H _ _ _ eq_refl). unfold PartialConserve.wm; cbn [fst snd left_set right_set set_left set_right cnt_opt]; lia.
  Qed.
  Lemma w_resize_left_settles : forall z, settles 0 (w_resize_left E z) (fun _ => 0).
  Proof. intros z. apply w_on_left_settles; intros; eapply wtw_resize_kept; eauto; apply TE. Qed.
  Lemma w_resize_right_settles : forall z, settles 0 (w_resize_right E z) (fun _ => 0).
  Proof. intros z. apply w_on_right_settles; intros; eapply wtw_resize_kept; eauto; apply TE. Qed.
  Lemma w_shrink_to_fit_settles : settles 0 (w_shrink_to_fit E) (fun _ => 0).
  Proof.
    apply settles_looked; intro n.
    eapply settles_nothing; [apply w_resize_left_settles|intros _; apply settles_looked; intro; apply w_resize_right_settles].
  Qed.
  Lemma w_try_reserve_left_settles : forall n, settles 0 (w_try_reserve_left E n) (fun _ => 0).
  Proof. intros n. apply w_on_left_settles; intros; eapply wtw_try_resize_kept; eauto; apply TE. Qed.
  Lemma w_try_reserve_right_settles : forall n, settles 0 (w_try_reserve_right E n) (fun _ => 0).
  Proof. intros n. apply w_on_right_settles; intros; eapply wtw_try_resize_kept; eauto; apply TE. Qed.

End WildKept.

(* The answers after which nothing handed over, and nothing that was in the map, is gone: the
   insertions, pairings and removals and what only looks or resizes, whatever they return; the
   swaps unless they return Neither (then [new] is dropped, and what it displaced with it).  Left
   out: panics, the calls meant to drop (clear, retain*, extend, drain, drain_filter), the clone, and
   the _or_insert calls, which may drop to_insert. *)
Definition accounts_for {L R} (o : xop L R) (a : out L R) : Prop :=
  a <> OPanic /\
  match o with
  | Call (Insert _ _) | Call (InsertLeft _) | Call (InsertRight _)
  | Call (Pair _ _) | Call (PairForced _ _) | Call (PairForcedRemove _ _) | Call (Unpair _ _)
  | Call (Remove _ _) | Call (RemoveLeft _) | Call (RemoveRight _) | Call (RemoveViaLeft _) | Call (RemoveViaRight _)
  | Call (ArePaired _ _) | Call (IsLeftPaired _) | Call (IsRightPaired _)
  | Call (ContainsLeft _) | Call (ContainsRight _) | Call (GetLeft _) | Call (GetRight _)
  | Call LenLeft | Call LenRight | Call IsEmpty
  | Call IterAll | Call IterPairedAll | Call IterUnpairedAll | Call IterLeftAll | Call IterRightAll
  | Call (ShrinkToLeft _) | Call (ShrinkToRight _) | Call ShrinkToFit | Call (ReserveLeft _) | Call (ReserveRight _)
  | Call (TryReserveLeft _) | Call (TryReserveRight _) => True
  | Call (SwapLeft _ _) | Call (SwapLeftChecked _ _ _) => a <> OSwapL Neither
  | Call (SwapRight _ _) | Call (SwapRightChecked _ _ _) => a <> OSwapR Neither
  | _ => False
  end.

Section WildKeptStep.
  Context {L R S W : Type} (E : wenv L R S W).
  Hypothesis TE : tame E.
  Variables (p : L -> bool) (q : R -> bool).
  Notation map := (pmap L R S).
  Notation wm := (wm p q).
  Notation settles_on := (settles_on (fun s : W * map => wm (snd s))).

  Lemma w_via_settles : forall {A} o (c : M (W * map) A) (f : A -> out L R) k g h m w, settles_on k g c h ->
    snd (w_via f c m w) <> OPanic -> (forall a, snd (w_via f c m w) = f a -> k a) -> (forall a, wout p q o (f a) = h a) ->
    wm (fst (w_via f c m w)) + wout p q o (snd (w_via f c m w)) = wm m + g.
  Proof.
    intros A o c f k g h m w H N K X. specialize (H (w, m)). unfold w_via in *.
    destruct (c (w, m)) as [[w' m'] a|[w' m']]; cbn [fst snd] in *; [|congruence].
    rewrite X. exact (H _ _ eq_refl (K _ eq_refl)).
  Qed.
  Lemma w_look_settles : forall {A} o (f : map -> M W A) (k : A -> out L R) m w,
    snd (w_via k (w_look f) m w) <> OPanic -> (forall a, wout p q o (k a) = 0) ->
    wm (fst (w_via k (w_look f) m w)) + wout p q o (snd (w_via k (w_look f) m w)) = wm m + 0.
  Proof.
    intros A o f k m w N X. apply (w_via_settles o (w_look f) k (fun _ => True) 0 (fun _ => 0)); auto.
    apply (settles_look wm).
  Qed.

  (* the account of one call, on any map whatever *)
  Lemma w_xstep_settles : forall o m w, accounts_for o (snd (w_xstep E m o w)) ->
    wm (fst (w_xstep E m o w)) + wout p q o (snd (w_xstep E m o w)) = wm m + wgiven p q o.
  Proof.
    assert (Z : forall o w, handed_l o w = [] -> handed_r o w = [] -> wout p q o w = 0).
    { intros o w A A'. unfold wout. rewrite A, A'. reflexivity. }
    intros [o|n] m w [N K]; [|destruct K].
    destruct o; try (destruct K; fail); cbn [w_xstep w_step step] in *; unfold wgiven;
      cbn [given_l given_r]; change (cnt p []) with 0; change (cnt q []) with 0;
      try (apply w_look_settles; auto; fail);
      try (cbn [fst snd] in *; rewrite Z; auto; fail);
      try (destruct (collect _ _ _); cbn [fst snd] in *; [|destruct N; reflexivity]; rewrite Z; auto; fail).
    - eapply w_via_settles; [apply w_insert_settles|..]; auto.
      intros [a b]. unfold wout, we. cbn [handed_l handed_r fst snd]. rewrite !cnt_app. lia.
    - eapply w_via_settles; [eapply settles_given; [apply w_insert_left_settles|unfold one; lia]|..]; auto.
    - eapply w_via_settles; [apply w_insert_right_settles|..]; auto.
    - eapply w_via_settles; [apply w_pair_settles|..]; auto.
    - eapply w_via_settles; [apply w_pair_forced_settles|..]; auto.
    - eapply w_via_settles; [apply w_pair_forced_remove_settles|..]; auto.
    - eapply w_via_settles; [apply w_unpair_settles|..]; auto.
    - eapply w_via_settles; [apply w_remove_settles|..]; auto. intros [[? ?]|]; reflexivity.
    - eapply w_via_settles; [apply w_remove_left_settles|..]; auto. intros [?|]; [|reflexivity].
      unfold wout. cbn. unfold one. lia.
    - eapply w_via_settles; [apply w_remove_right_settles|..]; auto. intros [?|]; reflexivity.
    - eapply w_via_settles; [apply w_remove_via_left_settles|..]; auto.
    - eapply w_via_settles; [apply w_remove_via_right_settles|..]; auto.
    - eapply w_via_settles; [eapply settles_given; [apply w_swap_left_settles|unfold one; lia]|..]; auto.
      intros a H ->. congruence.
    - eapply w_via_settles; [eapply settles_given; [apply w_swap_left_checked_settles|unfold one; lia]|..]; auto.
      intros a H ->. congruence.
    - eapply w_via_settles; [apply w_swap_right_settles|..]; auto. intros a H ->. congruence.
    - eapply w_via_settles; [apply w_swap_right_checked_settles|..]; auto. intros a H ->. congruence.
    - destruct (unpaired_rest _); cbn [fst snd] in *; [|destruct N; reflexivity]. rewrite Z; auto.
    - eapply w_via_settles; [apply w_resize_left_settles|..]; auto.
    - eapply w_via_settles; [apply w_resize_right_settles|..]; auto.
    - eapply w_via_settles; [apply w_shrink_to_fit_settles|..]; auto.
    - eapply w_via_settles; [apply w_resize_left_settles|..]; auto.
    - eapply w_via_settles; [apply w_resize_right_settles|..]; auto.
    - eapply w_via_settles; [apply w_try_reserve_left_settles|..]; auto.
    - eapply w_via_settles; [apply w_try_reserve_right_settles|..]; auto.
  Qed.
End WildKeptStep.

Lemma w_xrun_settles : forall {L R S W} p q (cs : list (wenv L R S W * W * xop L R)) m,
  Forall (fun c => tame (fst (fst c))) cs ->
  let (m', ws) := w_xrun m cs in
  Forall (fun c => accounts_for (fst c) (snd c)) ws ->
  wm p q m' + (cnt p (flat_map back_l ws) + cnt q (flat_map back_r ws)) =
  wm p q m + (cnt p (flat_map given_l (ops_of cs)) + cnt q (flat_map given_r (ops_of cs))).
Proof.
  intros L R S W p q. induction cs as [|[[E w] o] cs IH]; intros m H; cbn [w_xrun].
  - simpl. lia.
  - assert (TE := Forall_inv H). apply Forall_inv_tail in H. simpl in TE.
    assert (X := w_xstep_settles E TE p q o m w). destruct (w_xstep E m o w) as [m1 a]. cbn [fst snd] in X.
    specialize (IH m1 H). destruct (w_xrun m1 cs) as [m2 ws]. intro F.
    specialize (X (Forall_inv F)). specialize (IH (Forall_inv_tail F)).
    cbn [flat_map ops_of map snd]. fold (ops_of cs).
    rewrite !cnt_app. unfold back_l at 1, back_r at 1. cbn [fst snd]. unfold wout, wgiven in X. lia.
Qed.

Definition stored_l {L R S} (m : pmap L R S) : list L := map value (map snd (iter_left m)).
Definition stored_r {L R S} (m : pmap L R S) : list R := map value (map snd (iter_right m)).

(* One call on any map whatever, with any user code: if its answer is one of those above, the items
   (of any kind p) that are stored or handed back afterwards are as many as those stored before
   and those handed over. *)
Theorem C139_call_loses_no_item : forall {L R S W} (E : wenv L R S W) m o w, tame E ->
  let (m', a) := w_xstep E m o w in accounts_for o a ->
  (forall p, length (filter p (stored_l m')) + length (filter p (handed_l o a)) =
             length (filter p (stored_l m)) + length (filter p (given_l o))) /\
  (forall q, length (filter q (stored_r m')) + length (filter q (handed_r o a)) =
             length (filter q (stored_r m)) + length (filter q (given_r o))).
Proof.
  intros L R S W E m o w TE. assert (X := fun p q => w_xstep_settles E TE p q o m w).
  destruct (w_xstep E m o w) as [m' a]. cbn [fst snd] in X. intro H. split; intro p.
  - specialize (X p (fun _ => false) H). unfold wm, wout, wgiven in X.
    rewrite !(tw_values p : forall t, tw (vl p) t = _), !(tw_values (fun _ => false) : forall t, tw (vr _) t = _), !cnt_false in X.
    unfold cnt in X. unfold stored_l, iter_left. lia.
  - specialize (X (fun _ => false) p H). unfold wm, wout, wgiven in X.
    rewrite !(tw_values p : forall t, tw (vr p) t = _), !(tw_values (fun _ => false) : forall t, tw (vl _) t = _), !cnt_false in X.
    unfold cnt in X. unfold stored_r, iter_right. lia.
Qed.
(* the same of a whole history *)
Theorem C139_history_loses_no_item : forall {L R S W} (cs : list (wenv L R S W * W * xop L R)) s ll lr,
  Forall (fun c => tame (fst (fst c))) cs ->
  let (m, ws) := w_xrun (with_hasher s ll lr) cs in
  Forall (fun c => accounts_for (fst c) (snd c)) ws ->
  (forall p, length (filter p (stored_l m)) + length (filter p (flat_map back_l ws)) =
             length (filter p (flat_map given_l (ops_of cs)))) /\
  (forall q, length (filter q (stored_r m)) + length (filter q (flat_map back_r ws)) =
             length (filter q (flat_map given_r (ops_of cs)))).
Proof.
  intros L R S W cs s ll lr H.
  assert (X := fun p q => w_xrun_settles p q cs (with_hasher s ll lr) H).
  destruct (w_xrun _ cs) as [m ws]. intro F. split; intro p.
  - specialize (X p (fun _ => false) F). unfold wm in X.
    rewrite !(tw_values p : forall t, tw (vl p) t = _), !(tw_values (fun _ => false) : forall t, tw (vr _) t = _), !cnt_false in X.
    change (cnt p (map value (map snd (slots (left_set (with_hasher (L := L) (R := R) s ll lr)))))) with 0 in X.
    unfold cnt in X. unfold stored_l, iter_left. lia.
  - specialize (X (fun _ => false) p F). unfold wm in X.
    rewrite !(tw_values p : forall t, tw (vr p) t = _), !(tw_values (fun _ => false) : forall t, tw (vl _) t = _), !cnt_false in X.
    change (cnt p (map value (map snd (slots (right_set (with_hasher (L := L) (R := R) s ll lr)))))) with 0 in X.
    unfold cnt in X. unfold stored_r, iter_right. lia.
Qed.

(* The exceptions are real, with the usual Eq and Hash: swap_right that finds no old item drops the
   new one and the pair it displaced; swap_right_or_insert that swaps drops to_insert. *)
Theorem C139_swap_refuted : exists (cs : list (wenv N N N (list (option bool)) * list (option bool) * xop N N)),
  Forall (fun c => tame (fst (fst c))) cs /\
  let (m, ws) := w_xrun (with_hasher 0 0 0)%N cs in
  ~ In OPanic (map snd ws) /\
  stored_l m = [] /\ stored_r m = [] /\ flat_map back_l ws = [] /\ flat_map back_r ws = [] /\
  flat_map given_l (ops_of cs) = [1]%N /\ flat_map given_r (ops_of cs) = [10; 10]%N.
Proof.
  exists (calls [([], Call (Insert 1 10)); ([], Call (SwapRight 70 10))]%N).
  split; [apply told_all|]. vm_compute. repeat split; auto. intros [H|[H|[]]]; discriminate.
Qed.
Theorem C139_or_insert_refuted : exists (cs : list (wenv N N N (list (option bool)) * list (option bool) * xop N N)),
  Forall (fun c => tame (fst (fst c))) cs /\
  let (m, ws) := w_xrun (with_hasher 0 0 0)%N cs in
  ~ In OPanic (map snd ws) /\
  stored_l m = [] /\ stored_r m = [20]%N /\ flat_map back_l ws = [] /\ flat_map back_r ws = [10]%N /\
  flat_map given_l (ops_of cs) = [1]%N /\ flat_map given_r (ops_of cs) = [10; 20]%N.
Proof.
  exists (calls [([], Call (InsertRight 10)); ([], Call (SwapRightOrInsert 10 20 1))]%N).
  split; [apply told_all|]. vm_compute. repeat split; auto. intros [H|[H|[]]]; discriminate.
Qed.

(* == changes its mind between the search and the removal of swap_left; pair_forced_remove hands back
   two former partners *)
Example C139_case :
  let cs := calls
    [([], Call (Insert 1 10)); ([], Call (Insert 3 20)); ([], Call (InsertLeft 5));
     (map Some [false; false; false; false; false; true; false; true], Call (SwapLeft 1 9));
     ([], Call (RemoveViaLeft 5)); ([], Call (Insert 7 70)); ([], Call (Insert 11 80)); ([], Call (PairForcedRemove 7 80)); ([], Call (ReserveLeft 100))]%N in
  Forall (fun c => tame (fst (fst c))) cs /\
  let (m, ws) := w_xrun (with_hasher 0 0 0)%N cs in
  Forall (fun c => accounts_for (fst c) (snd c)) ws /\ (stored_l m, stored_r m, map snd ws) =
    ([9; 3; 7], [10; 20; 80],
     [OIns (Neither, Neither); OIns (Neither, Neither); OEntry Neither; OSwapL (SomeLeft 1);
      OEntry (SomeLeft 5); OIns (Neither, Neither); OIns (Neither, Neither); OEntry (SomeBoth 11 70); OUnit])%N.
Proof. split; [apply told_all|]. vm_compute. split; [|reflexivity]. repeat apply Forall_cons; try apply Forall_nil; split; auto; discriminate. Qed.

Print Assumptions C139_call_loses_no_item.
Print Assumptions C139_history_loses_no_item.
Print Assumptions C139_swap_refuted.
Print Assumptions C139_or_insert_refuted.
