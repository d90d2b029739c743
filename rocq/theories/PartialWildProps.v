(* PartialCycleMap with user code that does as it likes (Wild.v): no item is invented or
   duplicated, and only stored items are shown. *)
From Coq Require Import List NArith Lia Bool Permutation.
From Verif Require Import Closures Prelude RawTable Optionals PartialCycleMap PartialHistory PartialAny
  TableFacts Conserve PartialConserve Faults Wild PartialWild Concrete.
Import ListNotations.
Local Open Scope nat_scope.

Section WildConserve.
  Context {L R S W : Type} (E : wenv L R S W).
  Hypothesis TE : tame E.
  Variables (p : L -> bool) (q : R -> bool).
  Notation map := (pmap L R S).
  Notation B := (calm_env E).
  Notation wm := (wm p q).
  Notation wp := (wp p q).
  Notation we := (we p q).
  Notation pays := (pays (fun s : W * map => wm (snd s))).
  Let OP : keeps_buckets (lo B) := proj1 TE.

  Lemma w_left_remove_pays : forall h l, pays 0 (w_left_remove_entry E h l) (cnt_opt (we_l p)).
  Proof.
    intros h l [w m]. unfold w_left_remove_entry, bind, w_look, w_calmly, w_with, getst, putst, ret. cbn [fst snd].
    destruct (w_remove_entry _ _ _ _ _) as [w' [[e t]|]|w'] eqn:X; cbn [fst snd cnt_opt]; try lia.
    apply (wtw_remove _ (vl p)) in X. rewrite one_vl in X. unfold PartialConserve.wm. cbn [fst snd left_set right_set set_left set_right cnt_opt]. lia.
  Qed.
  Lemma w_right_remove_pays : forall h r, pays 0 (w_right_remove_entry E h r) (cnt_opt (we_r q)).
  Proof.
    intros h l [w m]. unfold w_right_remove_entry, bind, w_look, w_calmly, w_with, getst, putst, ret. cbn [fst snd].
    destruct (w_remove_entry _ _ _ _ _) as [w' [[e t]|]|w'] eqn:X; cbn [fst snd cnt_opt]; try lia.
    apply (wtw_remove _ (vr q)) in X. rewrite one_vr in X. unfold PartialConserve.wm. cbn [fst snd left_set right_set set_left set_right cnt_opt]. lia.
  Qed.
  Lemma w_left_insert_pays : forall h e, pays (we_l p e) (w_left_insert E h e) (fun _ => 0).
  Proof.
    intros h e [w m]. unfold w_left_insert, on_left. cbn [fst snd].
    assert (X := fun hs => wtw_insert (W := W) _ _ (proj1 TE) (proj2 TE) (vl p) (left_set m) h e hs w).
    match goal with |- context [w_insert _ _ _ _ _ ?hs _] => specialize (X hs) end.
    destruct (w_insert _ _ _ _ _ _ _) as [[w' t'] []|[w' t']]; rewrite ?one_vl in X;
      unfold PartialConserve.wm; cbn [fst snd left_set right_set set_left set_right cnt_opt]; lia.
  Qed.
  Lemma w_right_insert_pays : forall h e, pays (we_r q e) (w_right_insert E h e) (fun _ => 0).
  Proof.
    intros h e [w m]. unfold w_right_insert, on_right. cbn [fst snd].
    assert (X := fun hs => wtw_insert (W := W) _ _ (proj1 TE) (proj2 TE) (vr q) (right_set m) h e hs w).
    match goal with |- context [w_insert _ _ _ _ _ ?hs _] => specialize (X hs) end.
    destruct (w_insert _ _ _ _ _ _ _) as [[w' t'] []|[w' t']]; rewrite ?one_vr in X;
      unfold PartialConserve.wm; cbn [fst snd left_set right_set set_left set_right cnt_opt]; lia.
  Qed.

  Ltac pay1 :=
    cbv beta zeta;
    match goal with
    | |- Conserve.pays _ _ (ret _) _ => apply pays_ret
    | |- Conserve.pays _ _ panic _ => apply pays_panic
    | |- Conserve.pays _ _ (bind (w_look _) _) _ => apply pays_looked; intro
    | |- Conserve.pays _ _ (bind (unwrap ?o) _) _ => apply pays_unwrap_bind; intros ? ?; try subst o
    | |- Conserve.pays _ _ (bind (w_calmly (incr_counter _)) _) _ =>
        apply pays_nothing; [apply (pays_calmly wm), incr_pays|intros []]
    | |- Conserve.pays _ _ (bind (w_calmly (left_remove_entry _ _ _)) _) _ =>
        eapply pays_then; [apply (pays_calmly wm), left_remove_pays|intro]
    | |- Conserve.pays _ _ (bind (w_calmly (right_remove_entry _ _ _)) _) _ =>
        eapply pays_then; [apply (pays_calmly wm), right_remove_pays|intro]
    | |- Conserve.pays _ _ (bind (w_left_remove_entry _ _ _) _) _ =>
        eapply pays_then; [apply w_left_remove_pays|intro]
    | |- Conserve.pays _ _ (bind (w_right_remove_entry _ _ _) _) _ =>
        eapply pays_then; [apply w_right_remove_pays|intro]
    | |- Conserve.pays _ _ (bind (w_left_insert _ _ _) _) _ =>
        eapply pays_bind; [apply w_left_insert_pays| |intros []]
    | |- Conserve.pays _ _ (bind (w_right_insert _ _ _) _) _ =>
        eapply pays_bind; [apply w_right_insert_pays| |intros []]
    | |- Conserve.pays _ _ (if ?b then _ else _) _ => destruct b
    | |- Conserve.pays _ _ (match ?o with _ => _ end) _ => destruct o
    end.
  Ltac fin := repeat match goal with
    | H : Some _ = Some _ |- _ => injection H as <- | H : None = Some _ |- _ => discriminate H end; cbn [fst snd] in *;
    rewrite ?wfp, ?we_N, ?we_L, ?we_R, ?we_B in *; unfold we_l, we_r, PartialConserve.wp in *;
    cbn [cnt_opt value fst snd option_map op_get_left op_get_right] in *; lia.
  Ltac pay := repeat pay1; try fin.
  Ltac fin2 := cbn [fst snd] in *; rewrite ?wsl_N, ?wsl_L, ?wsl_R, ?wsl_B, ?wsr_N, ?wsr_L, ?wsr_R, ?wsr_B; fin.

  (* assignments to buckets, as in remove_left and the swaps *)
  Lemma assign_right_pays : forall (o : map -> option (nat * mapping_pair R)) f, (forall e, value (f e) = value e) ->
    pays 0 (w_calmly (m <- getst ;; b <- unwrap (o m) ;; right_assign (fst b) f)) (fun _ => 0).
  Proof.
    intros o f H. apply (pays_calmly wm). apply pays_get_any. intros m. apply pays_unwrap_bind. intros b _.
    apply right_assign_pays; auto.
  Qed.
  Lemma assign_left_pays : forall (o : map -> option (nat * mapping_pair L)) f, (forall e, value (f e) = value e) ->
    pays 0 (w_calmly (m <- getst ;; b <- unwrap (o m) ;; left_assign (fst b) f)) (fun _ => 0).
  Proof.
    intros o f H. apply (pays_calmly wm). apply pays_get_any. intros m. apply pays_unwrap_bind. intros b _.
    apply left_assign_pays; auto.
  Qed.
  Lemma w_remove_left_pays : forall l, pays 0 (w_remove_left E l) (cnt_opt (one p)).
  Proof.
    intros l. unfold w_remove_left. do 3 pay1; [|pay]. pay1; [|pay].
    apply pays_nothing; [apply (assign_right_pays (fun m => t_get_mut B (right_set m) _ _)); auto|]. intros. pay.
  Qed.
  Lemma w_remove_right_pays : forall l, pays 0 (w_remove_right E l) (cnt_opt (one q)).
  Proof.
    intros l. unfold w_remove_right. do 3 pay1; [|pay]. pay1; [|pay].
    apply pays_nothing; [apply (assign_left_pays (fun m => t_get_mut B (left_set m) _ _)); auto|]. intros. pay.
  Qed.
  Lemma w_remove_via_left_pays : forall l, pays 0 (w_remove_via_left E l) we.
  Proof. intros l. unfold w_remove_via_left. pay. Qed.
  Lemma w_remove_via_right_pays : forall l, pays 0 (w_remove_via_right E l) we.
  Proof. intros l. unfold w_remove_via_right. pay. Qed.
  Lemma w_remove_pays : forall l r, pays 0 (w_remove E l r) (cnt_opt wp).
  Proof.
    intros l r. unfold w_remove. pay1. pay1; [|pay]. eapply pays_then; [apply w_remove_via_left_pays|]. intros d.
    destruct d; cbn [op_to_opt]; pay.
  Qed.
  Lemma w_insert_pays : forall l r, pays (one p l + one q r) (w_insert_pair E l r) (fun d => we (fst d) + we (snd d)).
  Proof.
    intros l r. unfold w_insert_pair. eapply pays_then; [apply w_remove_via_left_pays|]. intros a.
    eapply pays_then; [apply w_remove_via_right_pays|]. intros b. pay.
  Qed.
  Lemma w_insert_left_pays : forall l, pays (one p l) (w_insert_left E l) we.
  Proof. intros l. unfold w_insert_left. eapply pays_then; [apply w_remove_via_left_pays|]. intros a. pay. Qed.
  Lemma w_insert_right_pays : forall l, pays (one q l) (w_insert_right E l) we.
  Proof. intros l. unfold w_insert_right. eapply pays_then; [apply w_remove_via_right_pays|]. intros a. pay. Qed.

  (* pair, pair_forced, pair_forced_remove, unpair, after the searches *)
  Ltac cpay1 :=
    cbv beta zeta;
    match goal with
    | |- Conserve.pays _ _ (ret _) _ => apply pays_ret
    | |- Conserve.pays _ _ panic _ => apply pays_panic
    | |- Conserve.pays _ _ (bind getst _) _ => apply pays_get_any; intro
    | |- Conserve.pays _ _ (bind (incr_counter _) _) _ => apply pays_nothing; [apply incr_pays|intros []]
    | |- Conserve.pays _ _ (bind (left_assign _ _) _) _ =>
        apply pays_nothing; [apply left_assign_pays; reflexivity|intros []]
    | |- Conserve.pays _ _ (bind (right_assign _ _) _) _ =>
        apply pays_nothing; [apply right_assign_pays; reflexivity|intros []]
    | |- Conserve.pays _ _ (bind (unwrap ?o) _) _ => apply pays_unwrap_bind; intros ? ?; try subst o
    | |- Conserve.pays _ _ (bind (left_remove_entry _ _ _) _) _ =>
        eapply pays_then; [apply left_remove_pays|intro]
    | |- Conserve.pays _ _ (bind (right_remove_entry _ _ _) _) _ =>
        eapply pays_then; [apply right_remove_pays|intro]
    | |- Conserve.pays _ _ (if ?b then _ else _) _ => destruct b
    | |- Conserve.pays _ _ (match ?o with _ => _ end) _ => destruct o
    end.
  Ltac cpay := repeat cpay1; try fin.
  Lemma pair_found_pays : forall a b x y, Conserve.pays wm 0 (pair_found a b x y : M map bool) (fun _ => 0).
  Proof. intros. unfold pair_found. cpay. Qed.
  Lemma unpair_found_pays : forall a b x y, Conserve.pays wm 0 (unpair_found E a b x y) (fun _ => 0).
  Proof. intros. unfold unpair_found. cpay. Qed.
  Lemma pair_forced_found_pays : forall a b x y, Conserve.pays wm 0 (pair_forced_found E a b x y) (fun _ => 0).
  Proof. intros. unfold pair_forced_found. cpay. Qed.
  Lemma pair_forced_remove_found_pays : forall a b x y, Conserve.pays wm 0 (pair_forced_remove_found E a b x y) we.
  Proof. intros. unfold pair_forced_remove_found. cpay. Qed.
  Lemma w_pair_pays : forall l r, pays 0 (w_pair E l r) (fun _ => 0).
  Proof. intros. apply pays_looked. intros [[[a b] x] y]. apply (pays_calmly wm), pair_found_pays. Qed.
  Lemma w_unpair_pays : forall l r, pays 0 (w_unpair E l r) (fun _ => 0).
  Proof. intros. apply pays_looked. intros [[[a b] x] y]. apply (pays_calmly wm), unpair_found_pays. Qed.
  Lemma w_pair_forced_pays : forall l r, pays 0 (w_pair_forced E l r) (fun _ => 0).
  Proof.
    intros. unfold w_pair_forced. pay1. pay1; [pay|]. apply pays_looked. intros [[[a b] x] y]. apply (pays_calmly wm), pair_forced_found_pays.
  Qed.
  Lemma w_pair_forced_remove_pays : forall l r, pays 0 (w_pair_forced_remove E l r) we.
  Proof.
    intros. unfold w_pair_forced_remove. pay1. pay1; [pay|]. apply pays_looked. intros [[[a b] x] y].
    apply (pays_calmly wm), pair_forced_remove_found_pays.
  Qed.

  Lemma w_swap_left_check_pays : forall old new h, pays 0 (w_swap_left_eq_check E old new h) we.
  Proof. intros. unfold w_swap_left_eq_check. pay1. pay1; [|pay]. pay1. pay1; [apply w_remove_via_left_pays|pay]. Qed.
  Lemma w_swap_right_check_pays : forall old new h, pays 0 (w_swap_right_eq_check E old new h) we.
  Proof. intros. unfold w_swap_right_eq_check. pay1. pay1; [|pay]. pay1. pay1; [apply w_remove_via_right_pays|pay]. Qed.
  Lemma w_swap_left_pays : forall old new, pays (one p new) (w_swap_left E old new) (wsl p q).
  Proof.
    intros old new. unfold w_swap_left. pay1. eapply pays_then; [apply w_swap_left_check_pays|]. intros dd.
    pay1. pay1. pay1; [|pay; fin2].
    apply pays_nothing; [|intros ?; destruct dd; pay; fin2].
    destruct (phash _); [apply (assign_right_pays (fun m => t_get_mut B (right_set m) _ _)); auto|].
    apply (pays_calmly wm), pays_ret. auto.
  Qed.
  Lemma w_swap_right_pays : forall old new, pays (one q new) (w_swap_right E old new) (wsr p q).
  Proof.
    intros old new. unfold w_swap_right. pay1. eapply pays_then; [apply w_swap_right_check_pays|]. intros dd.
    pay1. pay1. pay1; [|pay; fin2].
    apply pays_nothing; [|intros ?; destruct dd; pay; fin2].
    destruct (phash _); [apply (assign_left_pays (fun m => t_get_mut B (left_set m) _ _)); auto|].
    apply (pays_calmly wm), pays_ret. auto.
  Qed.
  Lemma w_swap_left_checked_pays : forall old ex new, pays (one p new) (w_swap_left_checked E old ex new) (wsl p q).
  Proof. intros. unfold w_swap_left_checked. pay1. pay1; [pay; fin2|apply w_swap_left_pays]. Qed.
  Lemma w_swap_right_checked_pays : forall old ex new, pays (one q new) (w_swap_right_checked E old ex new) (wsr p q).
  Proof. intros. unfold w_swap_right_checked. pay1. pay1; [pay; fin2|apply w_swap_right_pays]. Qed.
  Lemma w_swap_left_or_insert_pays : forall old new ti,
    pays (one p new + one q ti) (w_swap_left_or_insert E old new ti) (wsl p q).
  Proof.
    intros. unfold w_swap_left_or_insert. do 3 pay1.
    - eapply pays_weaken; [apply w_swap_left_pays|lia|auto].
    - eapply pays_bind; [apply w_insert_pays|lia|]. intros [xx yy]. destruct xx, yy; pay; fin2.
  Qed.
  Lemma w_swap_right_or_insert_pays : forall old new ti,
    pays (one p ti + one q new) (w_swap_right_or_insert E old new ti) (wsr p q).
  Proof.
    intros. unfold w_swap_right_or_insert. do 3 pay1.
    - eapply pays_weaken; [apply w_swap_right_pays|lia|auto].
    - eapply pays_bind; [apply w_insert_pays|lia|]. intros [xx yy]. destruct xx, yy; pay; fin2.
  Qed.
  Lemma w_extend_pairs_pays : forall l, pays (cnt p (List.map fst l) + cnt q (List.map snd l)) (w_extend_pairs E l) (fun _ => 0).
  Proof.
    induction l as [|[a b] l IH]; simpl List.map; [apply pays_ret; lia|]. rewrite !cnt_cons.
    eapply pays_bind; [apply w_insert_pays|simpl; lia|]. intros d.
    eapply pays_weaken; [apply IH|simpl; lia|auto].
  Qed.
  Lemma w_extend_pays : forall l, pays (cnt p (flat_map entry_l l) + cnt q (flat_map entry_r l)) (w_extend E l) (fun _ => 0).
  Proof.
    induction l as [|[|a|b|a b] l IH]; cbn [flat_map entry_l entry_r app w_extend]; [apply pays_ret; lia|exact IH|..];
      rewrite ?cnt_cons.
    - eapply pays_bind; [apply w_insert_left_pays|lia|]. intros d. eapply pays_weaken; [apply IH|lia|auto].
    - eapply pays_bind; [apply w_insert_right_pays|lia|]. intros d. eapply pays_weaken; [apply IH|lia|auto].
    - eapply pays_bind; [apply w_insert_pays|lia|]. intros d. eapply pays_weaken; [apply IH|lia|auto].
  Qed.
  Lemma w_retain_with_pays : forall {X} (c : map -> M W (res X (list drop_tup))), pays 0 (w_retain_with E c) (fun _ => 0).
  Proof.
    intros. apply pays_looked; intros [x' l|x']; [|apply pays_panic].
    apply (pays_calmly wm), drop_all_pays.
  Qed.
  Lemma w_on_left_pays : forall {A} (c : S -> table (mapping_pair L) -> W -> res (W * table (mapping_pair L)) A),
    (forall s t w, match c s t w with Ret (_, t') _ | Panic (_, t') => tw (vl p) t' <= tw (vl p) t end) ->
    pays 0 (on_left c) (fun _ => 0).
  Proof.
    intros A c H [w m]. unfold on_left. cbn [fst snd]. specialize (H (hash_builder m) (left_set m) w).
    destruct (c _ _ _) as [[w' t'] a|[w' t']]; unfold PartialConserve.wm; cbn [fst snd left_set right_set set_left set_right cnt_opt]; lia.
  Qed.
  Lemma w_on_right_pays : forall {A} (c : S -> table (mapping_pair R) -> W -> res (W * table (mapping_pair R)) A),
    (forall s t w, match c s t w with Ret (_, t') _ | Panic (_, t') => tw (vr q) t' <= tw (vr q) t end) ->
    pays 0 (on_right c) (fun _ => 0).
  Proof.
    intros A c H [w m]. unfold on_right. cbn [fst snd]. specialize (H (hash_builder m) (right_set m) w).
    destruct (c _ _ _) as [[w' t'] a|[w' t']]; unfold PartialConserve.wm; cbn [fst snd left_set right_set set_left set_right cnt_opt]; lia.
  Qed.
  Lemma w_resize_left_pays : forall z, pays 0 (w_resize_left E z) (fun _ => 0).
  Proof. intros z. apply w_on_left_pays; intros; apply wtw_resize; apply TE. Qed.
  Lemma w_resize_right_pays : forall z, pays 0 (w_resize_right E z) (fun _ => 0).
  Proof. intros z. apply w_on_right_pays; intros; apply wtw_resize; apply TE. Qed.
  Lemma w_shrink_to_fit_pays : pays 0 (w_shrink_to_fit E) (fun _ => 0).
  Proof.
    apply pays_looked; intro n.
    eapply pays_nothing; [apply w_resize_left_pays|intros _; apply pays_looked; intro; apply w_resize_right_pays].
  Qed.
  Lemma w_try_reserve_left_pays : forall n, pays 0 (w_try_reserve_left E n) (fun _ => 0).
  Proof. intros n. apply w_on_left_pays; intros; apply wtw_try_resize; apply TE. Qed.
  Lemma w_try_reserve_right_pays : forall n, pays 0 (w_try_reserve_right E n) (fun _ => 0).
  Proof. intros n. apply w_on_right_pays; intros; apply wtw_try_resize; apply TE. Qed.

  Lemma w_via_pays : forall {A} o (c : M (W * map) A) (k : A -> out L R) g h m w, pays g c h ->
    (forall a, wout p q o (k a) <= h a) -> wout p q o OPanic = 0 ->
    wm (fst (w_via k c m w)) + wout p q o (snd (w_via k c m w)) <= wm m + g.
  Proof.
    intros A o c k g h m w H X Z. specialize (H (w, m)). unfold w_via.
    destruct (c (w, m)) as [[w' m'] a|[w' m']]; cbn [fst snd] in *.
    - specialize (X a). lia.
    - rewrite Z. lia.
  Qed.
  Lemma w_look_pays : forall {A} o (f : map -> M W A) (k : A -> out L R) m w,
    (forall a, wout p q o (k a) = 0) -> wout p q o OPanic = 0 ->
    wm (fst (w_via k (w_look f) m w)) + wout p q o (snd (w_via k (w_look f) m w)) <= wm m + 0.
  Proof. intros. eapply w_via_pays; [apply (pays_look wm)| |auto]. intro a. rewrite H. auto. Qed.

  Lemma w_xstep_pays : forall o m w,
    wm (fst (w_xstep E m o w)) + wout p q o (snd (w_xstep E m o w)) <= wm m + wgiven p q o.
  Proof.
    assert (Z : forall o w, handed_l o w = [] -> handed_r o w = [] -> wout p q o w = 0).
    { intros o w A A'. unfold wout. rewrite A, A'. reflexivity. }
    intros [o|n] m w; [|exact (xstep_pays B OP p q (DrainLeak n) m)].
    destruct o; match goal with |- context [w_xstep E m ?c w] => try exact (xstep_pays B OP p q c m) end; cbn [w_xstep w_step]; unfold wgiven;
      cbn [given_l given_r]; change (cnt p []) with 0; change (cnt q []) with 0;
      try (apply w_look_pays; reflexivity);
      try (eapply w_via_pays; [apply w_retain_with_pays|intros; rewrite Z; auto|reflexivity]).
    - eapply w_via_pays; [apply w_insert_pays| |reflexivity].
      intros [a b]. unfold wout, PartialConserve.we. cbn [handed_l handed_r fst snd]. rewrite !cnt_app. lia.
    - eapply w_via_pays; [eapply pays_weaken; [apply w_insert_left_pays|unfold one; lia|auto]|intros; apply le_n|reflexivity].
    - eapply w_via_pays; [apply w_insert_right_pays|intros; apply le_n|reflexivity].
    - eapply w_via_pays; [apply w_pair_pays|intros; rewrite Z; auto|reflexivity].
    - eapply w_via_pays; [apply w_pair_forced_pays|intros; rewrite Z; auto|reflexivity].
    - eapply w_via_pays; [apply w_pair_forced_remove_pays|intros; apply le_n|reflexivity].
    - eapply w_via_pays; [apply w_unpair_pays|intros; rewrite Z; auto|reflexivity].
    - eapply w_via_pays; [apply w_remove_pays|intros [[? ?]|]; apply le_n|reflexivity].
    - eapply w_via_pays; [apply w_remove_left_pays|intros [?|]; [|apply le_n]|reflexivity].
      unfold wout. cbn. unfold one. lia.
    - eapply w_via_pays; [apply w_remove_right_pays|intros [?|]; apply le_n|reflexivity].
    - eapply w_via_pays; [apply w_remove_via_left_pays|intros; apply le_n|reflexivity].
    - eapply w_via_pays; [apply w_remove_via_right_pays|intros; apply le_n|reflexivity].
    - eapply w_via_pays; [eapply pays_weaken; [apply w_swap_left_pays|unfold one; lia|auto]|intros; apply le_n|reflexivity].
    - eapply w_via_pays; [eapply pays_weaken; [apply w_swap_left_checked_pays|unfold one; lia|auto]|intros; apply le_n|reflexivity].
    - eapply w_via_pays; [apply w_swap_left_or_insert_pays|intros; apply le_n|reflexivity].
    - eapply w_via_pays; [apply w_swap_right_pays|intros; apply le_n|reflexivity].
    - eapply w_via_pays; [apply w_swap_right_checked_pays|intros; apply le_n|reflexivity].
    - eapply w_via_pays; [apply w_swap_right_or_insert_pays|intros; apply le_n|reflexivity].
    - eapply w_via_pays; [apply w_extend_pairs_pays|intros; rewrite Z; auto|reflexivity].
    - eapply w_via_pays; [apply w_extend_pays|intros; rewrite Z; auto|reflexivity].
    - eapply w_via_pays; [apply w_resize_left_pays|intros; rewrite Z; auto|reflexivity].
    - eapply w_via_pays; [apply w_resize_right_pays|intros; rewrite Z; auto|reflexivity].
    - eapply w_via_pays; [apply w_shrink_to_fit_pays|intros; rewrite Z; auto|reflexivity].
    - eapply w_via_pays; [apply w_resize_left_pays|intros; rewrite Z; auto|reflexivity].
    - eapply w_via_pays; [apply w_resize_right_pays|intros; rewrite Z; auto|reflexivity].
    - eapply w_via_pays; [apply w_try_reserve_left_pays|intros; rewrite Z; auto|reflexivity].
    - eapply w_via_pays; [apply w_try_reserve_right_pays|intros; rewrite Z; auto|reflexivity].
  Qed.
End WildConserve.

Definition ops_of {L R S W} (cs : list (wenv L R S W * W * xop L R)) : list (xop L R) := map snd cs.
Lemma w_xrun_pays : forall {L R S W} p q (cs : list (wenv L R S W * W * xop L R)) m,
  Forall (fun c => tame (fst (fst c))) cs ->
  let (m', ws) := w_xrun m cs in
  wm p q m' + (cnt p (flat_map back_l ws) + cnt q (flat_map back_r ws)) <=
  wm p q m + (cnt p (flat_map given_l (ops_of cs)) + cnt q (flat_map given_r (ops_of cs))).
Proof.
  intros L R S W p q. induction cs as [|[[E w] o] cs IH]; intros m H; cbn [w_xrun].
  - simpl. lia.
  - assert (TE := Forall_inv H). apply Forall_inv_tail in H. simpl in TE.
    assert (X := w_xstep_pays E TE p q o m w). destruct (w_xstep E m o w) as [m1 a]. cbn [fst snd] in X.
    specialize (IH m1 H). destruct (w_xrun m1 cs) as [m2 ws]. cbn [flat_map ops_of map snd]. fold (ops_of cs).
    rewrite !cnt_app. unfold back_l at 1, back_r at 1. cbn [fst snd]. unfold wout, wgiven in X. lia.
Qed.

(* Whatever user code does, in the middle of calls too, and whatever the call does (panics
   included): of the items of any kind p, those in the map and those handed back are no more
   than those handed over. *)
Theorem C136_no_item_invented : forall {L R S W} (cs : list (wenv L R S W * W * xop L R)) s ll lr,
  Forall (fun c => tame (fst (fst c))) cs ->
  let (m, ws) := w_xrun (with_hasher s ll lr) cs in
  (forall p, length (filter p (map value (map snd (iter_left m)))) + length (filter p (flat_map back_l ws)) <=
             length (filter p (flat_map given_l (ops_of cs)))) /\
  (forall q, length (filter q (map value (map snd (iter_right m)))) + length (filter q (flat_map back_r ws)) <=
             length (filter q (flat_map given_r (ops_of cs)))).
Proof.
  intros L R S W cs s ll lr H.
  assert (X := fun p q => w_xrun_pays p q cs (with_hasher s ll lr) H).
  destruct (w_xrun _ cs) as [m ws]. split; intro p.
  - specialize (X p (fun _ => false)). unfold wm in X.
    rewrite !(tw_values p : forall t, tw (vl p) t = _), !(tw_values (fun _ => false) : forall t, tw (vr _) t = _), !cnt_false in X.
    change (cnt p (map value (map snd (slots (left_set (with_hasher (L := L) (R := R) s ll lr)))))) with 0 in X.
    unfold cnt in X. unfold iter_left. lia.
  - specialize (X (fun _ => false) p). unfold wm in X.
    rewrite !(tw_values p : forall t, tw (vr p) t = _), !(tw_values (fun _ => false) : forall t, tw (vl _) t = _), !cnt_false in X.
    change (cnt p (map value (map snd (slots (right_set (with_hasher (L := L) (R := R) s ll lr)))))) with 0 in X.
    unfold cnt in X. unfold iter_right. lia.
Qed.

(* ---- references handed out ---- *)
(* what get_left, get_right, pair_forced and the iterators refer to *)
Definition shown_l {L R} (o : xop L R) (a : out L R) : list L :=
  match o, a with
  | Call (GetLeft _), OL (Some l) => [l]
  | Call (PairForced _ _), OEntry e => entry_l e
  | _, OEntries es => flat_map entry_l es
  | _, OPairs ps => map fst ps
  | _, OLs ls => ls
  | _, _ => []
  end.
Definition shown_r {L R} (o : xop L R) (a : out L R) : list R :=
  match o, a with
  | Call (GetRight _), OR (Some r) => [r]
  | Call (PairForced _ _), OEntry e => entry_r e
  | _, OEntries es => flat_map entry_r es
  | _, OPairs ps => map snd ps
  | _, ORs rs => rs
  | _, _ => []
  end.

Section Shown.
  Context {L R S W : Type} (E : wenv L R S W).
  Notation map := (pmap L R S).
  Notation lefts m := (List.map value (List.map snd (slots (left_set m)))).
  Notation rights m := (List.map value (List.map snd (slots (right_set m)))).

  Lemma tget_entry : forall {A} lo (t : table A) h q e, t_get lo t h q = Some e -> In e (List.map snd (slots t)).
  Proof.
    intros A lo t h q e H. unfold t_get, t_entry in H. destruct (t_find _ _ _ _) as [i|]; [|discriminate].
    destruct (nth_error (slots t) i) as [[h' x]|] eqn:X; [|discriminate]. injection H as <-.
    apply nth_error_In, (in_map snd) in X. exact X.
  Qed.
  Lemma get_left_shown : forall m r w w' l, w_get_left E m r w = Ret w' (Some l) -> In l (lefts m).
  Proof.
    intros m r w w' l H. unfold w_get_left, bind, ret in H. destruct (hash_r _ _ _ _) as [w1 h|]; [|discriminate].
    destruct (find_right _ _ _ _ _) as [w2 [e|]|]; try discriminate. destruct (phash e); [|discriminate].
    destruct (t_get _ _ _ _) as [e'|] eqn:X; [|discriminate]. injection H as _ <-. apply in_map, (tget_entry _ _ _ _ _ X).
  Qed.
  Lemma get_right_shown : forall m l w w' r, w_get_right E m l w = Ret w' (Some r) -> In r (rights m).
  Proof.
    intros m l w w' r H. unfold w_get_right, bind, ret in H. destruct (hash_l _ _ _ _) as [w1 h|]; [|discriminate].
    destruct (find_left _ _ _ _ _) as [w2 [e|]|]; try discriminate. destruct (phash e); [|discriminate].
    destruct (t_get _ _ _ _) as [e'|] eqn:X; [|discriminate]. injection H as _ <-. apply in_map, (tget_entry _ _ _ _ _ X).
  Qed.
  Lemma iter_shown : forall m n it w w' es, incl (List.map value (List.map snd it)) (lefts m) ->
    w_collect (w_iter_next E m) n it w = Ret w' es ->
    incl (flat_map entry_l es) (lefts m) /\ incl (flat_map entry_r es) (rights m).
  Proof.
    intros m. induction n as [|n IH]; intros [|[h e] it] w w' es I H; cbn in H; unfold bind, ret, panic in H.
    1,3: injection H as _ <-; split; intros ? [].
    - destruct (w_get_right _ _ _ _) as [w1 o|]; cbn in H; discriminate.
    - destruct (w_get_right E m (value e) w) as [w1 o|] eqn:G; [|discriminate].
      destruct (w_collect (w_iter_next E m) n it w1) as [w2 l|] eqn:X; [|discriminate]. injection H as _ <-.
      apply IH in X as [X1 X2]; [|intros x Hx; apply I; right; auto].
      assert (Hl : In (value e) (lefts m)) by (apply I; left; auto).
      destruct o as [r|]; cbn; (split; [intros x [<-|Hx]; auto|]); auto.
      intros x [<-|Hx]; auto. eapply get_right_shown; eauto.
  Qed.
  Lemma paired_next_shown : forall m it w w' x it', w_paired_next E m it w = Ret w' (x, it') ->
    incl (List.map value (List.map snd it)) (lefts m) ->
    incl (List.map value (List.map snd it')) (lefts m) /\
    match x with Some (l, r) => In l (lefts m) /\ In r (rights m) | None => True end.
  Proof.
    intros m. induction it as [|[h e] it IH]; intros w w' x it' H I; cbn in H.
    - injection H as _ <- <-. split; auto.
    - assert (I' : incl (List.map value (List.map snd it)) (lefts m)) by (intros y Hy; apply I; right; auto).
      destruct (phash e); [|eapply IH; eauto]. unfold bind, ret in H.
      destruct (hash_l E m (value e) w) as [w1 lh|]; [|discriminate]. unfold get_via_hashes_and_id in H.
      destruct (t_get _ (left_set m) _ _) as [x1|] eqn:X; [destruct (t_get _ (right_set m) _ _) as [y1|] eqn:Y|]; cbn in H;
        try discriminate; injection H as _ <- <-; split; auto.
      split; apply in_map; eapply tget_entry; eauto.
  Qed.
  Lemma paired_shown : forall m n it w w' ps, incl (List.map value (List.map snd it)) (lefts m) ->
    w_collect (w_paired_next E m) n it w = Ret w' ps ->
    incl (List.map fst ps) (lefts m) /\ incl (List.map snd ps) (rights m).
  Proof.
    intros m. induction n as [|n IH]; intros it w w' ps I H; cbn [w_collect] in H; unfold bind, ret, panic in H;
      destruct (w_paired_next E m it w) as [w1 [[[l r]|] it']|] eqn:G; try discriminate;
      try (injection H as _ <-; split; intros ? []; fail).
    destruct (w_collect (w_paired_next E m) n it' w1) as [w2 l'|] eqn:X; [|discriminate]. injection H as _ <-.
    apply paired_next_shown in G as (I' & Hl & Hr); auto. apply IH in X as [X1 X2]; auto.
    split; intros x [<-|Hx]; simpl; auto.
  Qed.
  Lemma collect_single : forall {A} n (it : list (N * mapping_pair A)) l,
    collect single_next n it = Done l -> incl l (List.map value (List.map snd it)).
  Proof.
    induction n as [|n IH]; intros [|[h e] it] l H; cbn in H; try discriminate;
      try (injection H as <-; intros ? []; fail).
    destruct (collect single_next n it) as [l'|] eqn:X; [|discriminate]. injection H as <-.
    intros x [<-|Hx]; [left; auto|right; eapply IH; eauto].
  Qed.

  Lemma unpaired_next_r_shown : forall it x it', unpaired_next_r (L := L) (R := R) it = (x, it') ->
    incl (List.map value (List.map snd it')) (List.map value (List.map snd it)) /\
    match x with Some e => entry_l e = [] /\ incl (entry_r e) (List.map value (List.map snd it)) | None => True end.
  Proof.
    induction it as [|[h e] it IH]; intros x it' H; cbn in H.
    - injection H as <- <-. split; auto. apply incl_refl.
    - destruct (phash e).
      + apply IH in H as [H1 H2]. split; [intros y Hy; right; auto|]. destruct x; auto. destruct H2. split; auto.
        intros y Hy; right; auto.
      + injection H as <- <-. split; [intros y Hy; right; auto|]. split; auto. intros y [<-|[]]; left; auto.
  Qed.
  Lemma unpaired_next_shown : forall it rt x it', unpaired_next_l (L := L) (R := R) it rt = Done (x, it') ->
    incl (List.map value (List.map snd (fst it'))) (List.map value (List.map snd it)) /\
    incl (List.map value (List.map snd (snd it'))) (List.map value (List.map snd rt)) /\
    match x with
    | Some e => incl (entry_l e) (List.map value (List.map snd it)) /\ incl (entry_r e) (List.map value (List.map snd rt))
    | None => True
    end.
  Proof.
    induction it as [|[h e] it IH]; intros rt x it' H; cbn in H.
    - destruct (unpaired_next_r rt) as [o rt'] eqn:X. injection H as <- <-. apply unpaired_next_r_shown in X as [X1 X2].
      split; [apply incl_refl|]. split; auto. destruct o; auto. destruct X2 as [-> ?]. split; auto. intros y [].
    - destruct (phash e).
      + apply IH in H as (H1 & H2 & H3). split; [intros y Hy; right; auto|]. split; auto. destruct x; auto.
        destruct H3. split; auto. intros y Hy; right; auto.
      + injection H as <- <-. split; [intros y Hy; right; auto|]. split; [apply incl_refl|]. split; [|intros y []].
        intros y [<-|[]]; left; auto.
  Qed.
  Lemma unpaired_collect : forall (m : map) n it es,
    incl (List.map value (List.map snd (fst it))) (lefts m) -> incl (List.map value (List.map snd (snd it))) (rights m) ->
    collect (unpaired_next (L := L) (R := R)) n it = Done es ->
    incl (flat_map entry_l es) (lefts m) /\ incl (flat_map entry_r es) (rights m).
  Proof.
    intros m. induction n as [|n IH]; intros it es I J H; cbn [collect] in H;
      destruct (unpaired_next it) as [[[e|] it']|] eqn:X; try discriminate;
      try (injection H as <-; split; intros ? []; fail).
    destruct (collect (unpaired_next (L := L) (R := R)) n it') as [l'|] eqn:Y; [|discriminate].
    injection H as <-. apply unpaired_next_shown in X as (X1 & X2 & X3 & X4).
    apply IH in Y as [Y1 Y2]; [|eapply incl_tran; eauto ..].
    split; cbn; apply incl_app; auto; eapply incl_tran; eauto.
  Qed.
  Lemma unpaired_shown : forall (m : map) es, unpaired_rest (iter_unpaired m) = Done es ->
    incl (flat_map entry_l es) (lefts m) /\ incl (flat_map entry_r es) (rights m).
  Proof. intros m es H. eapply unpaired_collect; [| |exact H]; apply incl_refl. Qed.

  (* what pair_forced refers to *)
  Definition shows (c : M map (optional_pair L R)) : Prop :=
    forall m m' e, c m = Ret m' e -> incl (entry_l e) (lefts m') /\ incl (entry_r e) (rights m').
  Lemma shows_bind : forall {A} (c : M map A) k, (forall a, shows (k a)) -> shows (bind c k).
  Proof. intros A c k H m m' e X. unfold bind in X. destruct (c m); [eapply H; eauto|discriminate]. Qed.
  Lemma shows_neither : shows (ret Neither).
  Proof. intros m m' e H. injection H as <- <-. split; intros ? []. Qed.
  Lemma shows_right : forall h q, shows (m <- getst ;; e <- unwrap (t_get (w_lo E) (right_set m) h q) ;; ret (SomeRight (value e))).
  Proof.
    intros h q m m' e H. unfold bind, getst, unwrap in H. destruct (t_get _ _ _ _) as [x|] eqn:X; [|discriminate].
    injection H as <- <-. split; [intros ? []|]. intros y [<-|[]]. apply in_map, (tget_entry _ _ _ _ _ X).
  Qed.
  Lemma shows_left : forall h q, shows (m <- getst ;; e <- unwrap (t_get (w_lo E) (left_set m) h q) ;; ret (SomeLeft (value e))).
  Proof.
    intros h q m m' e H. unfold bind, getst, unwrap in H. destruct (t_get _ _ _ _) as [x|] eqn:X; [|discriminate].
    injection H as <- <-. split; [|intros ? []]. intros y [<-|[]]. apply in_map, (tget_entry _ _ _ _ _ X).
  Qed.
  Lemma shows_both : forall h q h' q', shows (m <- getst ;; a <- unwrap (t_get (w_lo E) (left_set m) h q) ;;
    e <- unwrap (t_get (w_lo E) (right_set m) h' q') ;; ret (SomeBoth (value a) (value e))).
  Proof.
    intros h q h' q' m m' e H. unfold bind, getst, unwrap in H. destruct (t_get _ (left_set m) _ _) as [x|] eqn:X; [|discriminate].
    cbn in H. destruct (t_get _ (right_set m) _ _) as [y|] eqn:Y; [|discriminate].
    injection H as <- <-. split; intros z [<-|[]]; apply in_map; eapply tget_entry; eauto.
  Qed.
  Lemma pair_forced_found_shows : forall a b x y, shows (pair_forced_found E a b x y).
  Proof.
    intros a b x y. unfold pair_forced_found. apply shows_bind. intros m0.
    destruct x as [[i le]|]; [|apply shows_neither]. destruct y as [[j re]|]; [|apply shows_neither].
    destruct (phash le), (phash re); cbv beta zeta;
      repeat (first [apply shows_right|apply shows_left|apply shows_both|apply shows_neither|apply shows_bind; intros]).
  Qed.

  Lemma w_via_look : forall {A} (k : A -> out L R) (f : map -> M W A) m w (P : map -> out L R -> Prop), P m OPanic ->
    (forall w' a, f m w = Ret w' a -> P m (k a)) ->
    P (fst (w_via k (w_look f) m w)) (snd (w_via k (w_look f) m w)).
  Proof.
    intros A k f m w P H1 H2. unfold w_via, w_look. cbn [fst snd]. destruct (f m w) eqn:X; cbn; eauto.
  Qed.
  Lemma w_via_plain : forall {A} (k : A -> out L R) (c : M (W * map) A) m w (P : map -> out L R -> Prop),
    (forall m', P m' OPanic) -> (forall m' a, P m' (k a)) -> P (fst (w_via k c m w)) (snd (w_via k c m w)).
  Proof. intros A k c m w P H1 H2. unfold w_via. destruct (c _) as [[? ?] ?|[? ?]]; cbn; auto. Qed.

  (* the items to which a call of any map gives references are in the map the call leaves *)
  Theorem C136_shown_items_stored : forall m o w,
    let (m', a) := w_xstep E m o w in
    incl (shown_l o a) (lefts m') /\ incl (shown_r o a) (rights m').
  Proof.
    intros m o w.
    set (P := fun (m' : map) (a : out L R) => incl (shown_l o a) (lefts m') /\ incl (shown_r o a) (rights m')).
    enough (G : P (fst (w_xstep E m o w)) (snd (w_xstep E m o w))) by (destruct (w_xstep E m o w); exact G).
    assert (Z : forall m' a, shown_l o a = [] -> shown_r o a = [] -> P m' a).
    { intros m' a A A'. split; [rewrite A|rewrite A']; intros x []. }
    destruct o as [o|n]; cbn [w_xstep xstep]; [|destruct (drain_nexts _ _ _) as [[? ?]|]; apply Z; auto].
    destruct o; cbn [w_step step];
      try (apply w_via_plain; intros; apply Z; reflexivity);
      try (apply Z; reflexivity).
    - unfold w_via, w_pair_forced, bind, w_look. cbn [fst snd]. destruct (w_are_paired _ _ _ _ _) as [w1 [|]|w1]; cbn; [apply Z; auto| |apply Z; auto].
      destruct (w_find_both E m l r w1) as [w2 [[[a b] x] y]|w2]; cbn; [|apply Z; auto].
      unfold w_calmly, w_with. cbn [fst snd]. destruct (pair_forced_found _ _ _ _ _ _) eqn:X; cbn; [|apply Z; auto].
      exact (pair_forced_found_shows _ _ _ _ _ _ _ X).
    - apply w_via_look; [apply Z; auto|]. intros w' [x|] H; [|apply Z; auto].
      split; [|intros y []]. intros y [<-|[]]. eapply get_left_shown; eauto.
    - apply w_via_look; [apply Z; auto|]. intros w' [x|] H; [|apply Z; auto].
      split; [intros y []|]. intros y [<-|[]]. eapply get_right_shown; eauto.
    - apply w_via_look; [apply Z; auto|]. intros w' es H. apply iter_shown in H; [exact H|apply incl_refl].
    - apply w_via_look; [apply Z; auto|]. intros w' es H. apply paired_shown in H; [exact H|apply incl_refl].
    - unfold seen. destruct (unpaired_rest _) as [es|] eqn:X; [|apply Z; auto]. exact (unpaired_shown _ _ X).
    - unfold seen. destruct (collect _ _ _) eqn:X; [|apply Z; auto]. split; [|intros y []]. exact (collect_single _ _ _ X).
    - unfold seen. destruct (collect _ _ _) eqn:X; [|apply Z; auto]. split; [intros y []|]. exact (collect_single _ _ _ X).
    - destruct (drain_nexts _ _ _) as [d is|d]; destruct (drain_drop _ _); apply Z; auto.
    - destruct (df_nexts _ _ _ _) as [[d x'] is|[d x']]; [destruct leak; [apply Z; auto|]|];
        destruct (df_drop _ _ _) as [[? ?] ?|[? ?]]; apply Z; auto.
  Qed.
End Shown.

(* == changes its mind between the search and the removal of swap_left; hash panics while the
   right table grows, which loses its items; == panics in insert *)
Example C136_case :
  let cs := calls
    [([], Call (Insert 1 10)); ([], Call (Insert 3 20)); ([], Call (InsertLeft 5)); ([], Call (InsertRight 30));
     (map Some [false; false; true], Call (PairForced 3 30)); ([], Call IterAll); ([], Call IterUnpairedAll);
     (map Some [false; false; false; false; false; true; false; true], Call (SwapLeft 1 9)); ([], Call IterAll);
     ([None], Call (ReserveRight 100)); ([Some true; None], Call (Insert 4 40));
     ([], Call IterLeftAll); ([], Call IterRightAll); ([], Call IterAll)]%N in
  Forall (fun c => tame (fst (fst c))) cs /\
  map snd (snd (w_xrun (with_hasher 0 0 0)%N cs)) =
    [OIns (Neither, Neither); OIns (Neither, Neither); OEntry Neither; OEntry Neither;
     OEntry (SomeRight 20); OEntries [SomeBoth 3 30; SomeBoth 1 10; SomeLeft 5]; OEntries [SomeLeft 5; SomeRight 20];
     OSwapL (SomeLeft 1); OEntries [SomeLeft 5; SomeBoth 3 30; SomeBoth 9 30];
     OPanic; OPanic; OLs [5; 3]; ORs []; OEntries [SomeLeft 5; SomeLeft 3]]%N.
Proof. split; [apply told_all|vm_compute; reflexivity]. Qed.

Print Assumptions C136_no_item_invented.
Print Assumptions C136_shown_items_stored.
