(* CycleMap with user code that does as it likes (Wild.v): a call that returns loses no item.
   Which calls and answers are meant is said by [accounts_for] below. *)
From Coq Require Import List NArith Lia Bool Permutation.
From Verif Require Import Closures Prelude RawTable Optionals CycleMap CycleMapHistory CycleMapAny
  TableFacts Conserve CycleMapConserve Faults Wild CycleMapWild CycleMapWildProps Settle Concrete.
Import ListNotations.
Local Open Scope nat_scope.

Section WildKept.
  Context {L R S W : Type} (E : wenv L R S W).
  Hypothesis TE : tame E.
  Variables (p : L -> bool) (q : R -> bool).
  Notation map := (cmap L R S).
  Notation B := (calm_env E).
  Notation wm := (wm p q).
  Notation wp := (wp p q).
  Notation settles := (settles (fun s : W * map => wm (snd s))).
  Notation settles_on := (settles_on (fun s : W * map => wm (snd s))).

  Lemma left_remove_settles : forall h f, Settle.settles wm 0 (left_remove_entry B h f) (cnt_opt (we_l p)).
  Proof.
    intros h f m m' o. unfold left_remove_entry, bind, getst, putst, ret.
    destruct (t_remove_entry _ _ _ _) as [[e t]|] eqn:X; intros Q _; injection Q as <- <-; cbn [cnt_opt]; [|lia].
    apply (tw_remove_entry (lo B) (vl p)) in X. rewrite one_vl in X. unfold CycleMapConserve.wm.
    cbn [left_set right_set set_left set_right cnt_opt]. lia.
  Qed.
  Lemma right_remove_settles : forall h f, Settle.settles wm 0 (right_remove_entry B h f) (cnt_opt (we_r q)).
  Proof.
    intros h f m m' o. unfold right_remove_entry, bind, getst, putst, ret.
    destruct (t_remove_entry _ _ _ _) as [[e t]|] eqn:X; intros Q _; injection Q as <- <-; cbn [cnt_opt]; [|lia].
    apply (tw_remove_entry (lo B) (vr q)) in X. rewrite one_vr in X. unfold CycleMapConserve.wm.
    cbn [left_set right_set set_left set_right cnt_opt]. lia.
  Qed.
  Lemma incr_settles : Settle.settles wm 0 (incr_counter B) (fun _ => 0).
  Proof.
    intros m m' a. unfold incr_counter, bind, getst, unwrap, panic, putst. destruct (u64_incr _ _); cbn; intros X _; [|discriminate].
    injection X as <- <-. unfold CycleMapConserve.wm. simpl. lia.
  Qed.
  Lemma w_left_remove_settles : forall h l, settles 0 (w_left_remove_entry E h l) (cnt_opt (we_l p)).
  Proof.
    intros h l [w m] s' o. unfold w_left_remove_entry, bind, w_look, w_calmly, w_with, getst, putst, ret. cbn [fst snd].
    destruct (w_remove_entry _ _ _ _ _) as [w' [[e t]|]|w'] eqn:X; cbn [fst snd]; intros Q _; try discriminate;
      injection Q as <- <-; cbn [fst snd cnt_opt]; try lia.
    apply (wtw_remove _ (vl p)) in X. rewrite one_vl in X. unfold CycleMapConserve.wm. cbn [fst snd left_set right_set set_left set_right cnt_opt]. lia.
  Qed.
  Lemma w_right_remove_settles : forall h l, settles 0 (w_right_remove_entry E h l) (cnt_opt (we_r q)).
  Proof.
    intros h l [w m] s' o. unfold w_right_remove_entry, bind, w_look, w_calmly, w_with, getst, putst, ret. cbn [fst snd].
    destruct (w_remove_entry _ _ _ _ _) as [w' [[e t]|]|w'] eqn:X; cbn [fst snd]; intros Q _; try discriminate;
      injection Q as <- <-; cbn [fst snd cnt_opt]; try lia.
    apply (wtw_remove _ (vr q)) in X. rewrite one_vr in X. unfold CycleMapConserve.wm. cbn [fst snd left_set right_set set_left set_right cnt_opt]. lia.
  Qed.
  Lemma w_left_insert_settles : forall h e, settles (we_l p e) (w_left_insert E h e) (fun _ => 0).
  Proof.
    intros h e [w m] s' []. unfold w_left_insert, on_left. cbn [fst snd].
    assert (X := fun hs => wtw_insert (W := W) _ _ (proj1 TE) (proj2 TE) (vl p) (left_set m) h e hs w).
    match goal with |- context [w_insert _ _ _ _ _ ?hs _] => specialize (X hs) end.
    destruct (w_insert _ _ _ _ _ _ _) as [[w' t'] []|[w' t']]; intros Q _; [|discriminate]. injection Q as <-.
    rewrite one_vl in X. unfold CycleMapConserve.wm. cbn [fst snd left_set right_set set_left set_right cnt_opt]. lia.
  Qed.
  Lemma w_right_insert_settles : forall h e, settles (we_r q e) (w_right_insert E h e) (fun _ => 0).
  Proof.
    intros h e [w m] s' []. unfold w_right_insert, on_right. cbn [fst snd].
    assert (X := fun hs => wtw_insert (W := W) _ _ (proj1 TE) (proj2 TE) (vr q) (right_set m) h e hs w).
    match goal with |- context [w_insert _ _ _ _ _ ?hs _] => specialize (X hs) end.
    destruct (w_insert _ _ _ _ _ _ _) as [[w' t'] []|[w' t']]; intros Q _; [|discriminate]. injection Q as <-.
    rewrite one_vr in X. unfold CycleMapConserve.wm. cbn [fst snd left_set right_set set_left set_right cnt_opt]. lia.
  Qed.

  Lemma w_remove_via_left_settles : forall l, settles 0 (w_remove_via_left E l) (cnt_opt wp).
  Proof.
    intros l. apply settles_looked; intro h.
    eapply settles_bind; [apply w_left_remove_settles|lia|]. intros [e|]; [|apply settles_ret; simpl; lia].
    eapply settles_bind; [apply (settles_calmly wm), right_remove_settles|lia|]. intros o.
    apply settles_unwrap_bind. intros e' ->. apply settles_ret. unfold CycleMapConserve.wp, we_l, we_r. simpl. unfold we_l, we_r. lia.
  Qed.
  Lemma w_remove_via_right_settles : forall l, settles 0 (w_remove_via_right E l) (cnt_opt wp).
  Proof.
    intros l. apply settles_looked; intro h.
    eapply settles_bind; [apply w_right_remove_settles|lia|]. intros [e|]; [|apply settles_ret; simpl; lia].
    eapply settles_bind; [apply (settles_calmly wm), left_remove_settles|lia|]. intros o.
    apply settles_unwrap_bind. intros e' ->. apply settles_ret. unfold CycleMapConserve.wp, we_l, we_r. simpl. unfold we_l, we_r. lia.
  Qed.
  Lemma w_remove_settles : forall l r, settles 0 (w_remove E l r) (cnt_opt wp).
  Proof.
    intros l r. apply settles_looked; intros [|]; [apply w_remove_via_left_settles|apply settles_ret; auto].
  Qed.
  Lemma w_insert_settles : forall l r, settles (one p l + one q r) (w_insert_pair E l r) (wins p q).
  Proof.
    intros l r. eapply settles_bind; [apply w_remove_via_left_settles|lia|]. intros a.
    eapply settles_bind; [apply w_remove_via_right_settles|lia|]. intros b.
    do 3 (apply settles_looked; intro).
    eapply settles_bind; [apply (settles_calmly wm), incr_settles|lia|]. intros [].
    eapply settles_bind; [apply w_left_insert_settles|unfold we_l; simpl; lia|]. intros [].
    eapply settles_bind; [apply w_right_insert_settles|unfold we_l, we_r; simpl; lia|]. intros [].
    apply settles_ret. unfold we_l, we_r, wins. destruct a, b; simpl; lia.
  Qed.
  Lemma w_swap_left_check_settles : forall old new h, settles 0 (w_swap_left_eq_check E old new h) (cnt_opt wp).
  Proof.
    intros. apply settles_looked; intros [o|]; [|apply settles_ret; auto].
    apply settles_looked; intros [|]; [apply w_remove_via_left_settles|apply settles_ret; auto].
  Qed.
  Lemma w_swap_right_check_settles : forall old new h, settles 0 (w_swap_right_eq_check E old new h) (cnt_opt wp).
  Proof.
    intros. apply settles_looked; intros [o|]; [|apply settles_ret; auto].
    apply settles_looked; intros [|]; [apply w_remove_via_right_settles|apply settles_ret; auto].
  Qed.
  Lemma w_swap_left_settles : forall old new,
    settles_on (fun d => d <> Neither) (one p new) (w_swap_left E old new) (wsl p q).
  Proof.
    intros old new. apply settles_looked; intro h.
    eapply settles_bind; [apply w_swap_left_check_settles|lia|]. intros a.
    apply settles_looked; intro h'. apply settles_looked; intros [lp|]; [|apply settles_ret; congruence].
    eapply settles_nothing.
    { apply (settles_calmly wm). intros m m' []. unfold bind, getst, putst.
      destruct (t_find _ _ _ _) as [i|]; simpl unwrap; cbn [ret]; unfold panic; intros Q _; [|discriminate].
      injection Q as <-. match goal with |- context [set_right ?t m] => assert (X : wm (set_right t m) = wm m) end.
      { unfold CycleMapConserve.wm. cbn [left_set right_set set_right]. rewrite (tw_modify (vr q)); auto. }
      lia. }
    intros _. eapply settles_bind; [apply w_left_remove_settles|lia|]. intros o.
    apply settles_unwrap_bind. intros e ->.
    eapply settles_bind; [apply w_left_insert_settles|unfold we_l; simpl; lia|]. intros [].
    apply settles_ret. unfold we_l, wsl. destruct a; simpl; unfold we_l; lia.
  Qed.
  Lemma w_swap_right_settles : forall old new,
    settles_on (fun d => d <> Neither) (one q new) (w_swap_right E old new) (wsr p q).
  Proof.
    intros old new. apply settles_looked; intro h.
    eapply settles_bind; [apply w_swap_right_check_settles|lia|]. intros a.
    apply settles_looked; intro h'. apply settles_looked; intros [rp|]; [|apply settles_ret; congruence].
    eapply settles_nothing.
    { apply (settles_calmly wm). intros m m' i. unfold bind, getst.
      destruct (t_find _ _ _ _); cbn; unfold panic; intros Q _; [|discriminate]. injection Q as <- <-. lia. }
    intros i. apply settles_looked; intro h2.
    eapply settles_nothing.
    { apply (settles_calmly wm). intros m m' []. unfold bind, getst, putst. intros Q _. injection Q as <-.
      unfold CycleMapConserve.wm. cbn [left_set right_set set_left]. rewrite (tw_modify (vl p)); auto. }
    intros _. eapply settles_bind; [apply w_right_remove_settles|lia|]. intros o.
    apply settles_unwrap_bind. intros e ->.
    eapply settles_bind; [apply w_right_insert_settles|unfold we_r; simpl; lia|]. intros [].
    apply settles_ret. unfold we_r, wsr. destruct a; simpl; unfold we_r; lia.
  Qed.
  Lemma w_swap_left_checked_settles : forall old ex new,
    settles_on (fun d => d <> Neither) (one p new) (w_swap_left_checked E old ex new) (wsl p q).
  Proof.
    intros. apply settles_looked; intros [|]; [apply w_swap_left_settles|apply settles_ret; congruence].
  Qed.
  Lemma w_swap_right_checked_settles : forall old ex new,
    settles_on (fun d => d <> Neither) (one q new) (w_swap_right_checked E old ex new) (wsr p q).
  Proof.
    intros. apply settles_looked; intros [|]; [apply w_swap_right_settles|apply settles_ret; congruence].
  Qed.
  Lemma w_on_left_settles : forall {A} (c : S -> table (mapping_pair L) -> W -> res (W * table (mapping_pair L)) A),
    (forall s t w w' t' a, c s t w = Ret (w', t') a -> tw (vl p) t' = tw (vl p) t) ->
    settles 0 (on_left c) (fun _ => 0).
  Proof.
    intros A c H [w m] s' a. unfold on_left. cbn [fst snd]. specialize (H (hash_builder m) (left_set m) w).
    destruct (c _ _ _) as [[w' t'] b|[w' t']]; intros Q _; [|discriminate]. injection Q as <- <-.
    specialize (H _ _ _ eq_refl). unfold CycleMapConserve.wm; cbn [fst snd left_set right_set set_left set_right cnt_opt]; lia.
  Qed.
  Lemma w_on_right_settles : forall {A} (c : S -> table (mapping_pair R) -> W -> res (W * table (mapping_pair R)) A),
    (forall s t w w' t' a, c s t w = Ret (w', t') a -> tw (vr q) t' = tw (vr q) t) ->
    settles 0 (on_right c) (fun _ => 0).
  Proof.
    intros A c H [w m] s' a. unfold on_right. cbn [fst snd]. specialize (H (hash_builder m) (right_set m) w).
    destruct (c _ _ _) as [[w' t'] b|[w' t']]; intros Q _; [|discriminate]. injection Q as <- <-.
    specialize (H _ _ _ eq_refl). unfold CycleMapConserve.wm; cbn [fst snd left_set right_set set_left set_right cnt_opt]; lia.
  Qed.
  Lemma w_resize_settles : forall z, settles 0 (w_resize_both E z) (fun _ => 0).
  Proof.
    intros z. eapply settles_nothing; [apply w_on_left_settles|intros _; apply w_on_right_settles];
      intros; eapply wtw_resize_kept; eauto; apply TE.
  Qed.
  Lemma w_shrink_to_fit_settles : settles 0 (w_shrink_to_fit E) (fun _ => 0).
  Proof.
    apply settles_looked; intro n.
    eapply settles_nothing; [apply w_on_left_settles|intros _; apply settles_looked; intro; apply w_on_right_settles];
      intros; eapply wtw_resize_kept; eauto; apply TE.
  Qed.
  Lemma w_try_reserve_settles : forall n, settles 0 (w_try_reserve E n) (fun _ => 0).
  Proof.
    intros n. eapply settles_nothing; [apply w_on_left_settles|intros [|]; [apply w_on_right_settles|apply settles_ret; auto]];
      intros; eapply wtw_try_resize_kept; eauto; apply TE.
  Qed.
End WildKept.

(* The answers after which nothing handed over, and nothing that was in the map, is gone:
   insert, the removals and what only looks or resizes, whatever they return; the swaps unless
   they return Neither (then [new] is dropped, and a pair displaced by it with it).  Left out:
   panics, the calls meant to drop (clear, retain, extend, drains, drain_filter), the clone, and the
   _or_insert calls, which drop to_insert or a displaced partner. *)
Definition accounts_for {L R} (o : xop L R) (a : out L R) : Prop :=
  a <> OPanic /\
  match o with
  | Call (Insert _ _) | Call (Remove _ _) | Call (RemoveViaLeft _) | Call (RemoveViaRight _)
  | Call (ArePaired _ _) | Call (ContainsLeft _) | Call (ContainsRight _) | Call (GetLeft _) | Call (GetRight _)
  | Call IterAll | Call IterLeftAll | Call IterRightAll | Call Len | Call IsEmpty
  | Call (ShrinkTo _) | Call ShrinkToFit | Call (Reserve _) | Call (TryReserve _) => True
  | Call (SwapLeft _ _) | Call (SwapLeftChecked _ _ _) => a <> OSwapL Neither
  | Call (SwapRight _ _) | Call (SwapRightChecked _ _ _) => a <> OSwapR Neither
  | _ => False
  end.

Section WildKeptStep.
  Context {L R S W : Type} (E : wenv L R S W).
  Hypothesis TE : tame E.
  Variables (p : L -> bool) (q : R -> bool).
  Notation map := (cmap L R S).
  Notation wm := (wm p q).
  Notation settles_on := (settles_on (fun s : W * map => wm (snd s))).

  Lemma w_via_settles : forall {A} (c : M (W * map) A) (f : A -> out L R) k g h m w, settles_on k g c h ->
    snd (w_via f c m w) <> OPanic -> (forall a, snd (w_via f c m w) = f a -> k a) -> (forall a, wout p q (f a) = h a) ->
    wm (fst (w_via f c m w)) + wout p q (snd (w_via f c m w)) = wm m + g.
  Proof.
    intros A c f k g h m w H N K X. specialize (H (w, m)). unfold w_via in *.
    destruct (c (w, m)) as [[w' m'] a|[w' m']]; cbn [fst snd] in *; [|congruence].
    rewrite X. exact (H _ _ eq_refl (K _ eq_refl)).
  Qed.
  Lemma w_look_settles : forall {A} (f : map -> M W A) (k : A -> out L R) m w,
    snd (w_via k (w_look f) m w) <> OPanic -> (forall a, wout p q (k a) = 0) ->
    wm (fst (w_via k (w_look f) m w)) + wout p q (snd (w_via k (w_look f) m w)) = wm m + 0.
  Proof. intros A f k m w N X. apply (w_via_settles (w_look f) k (fun _ => True) 0 (fun _ => 0)); auto. apply (settles_look wm). Qed.

  (* the account of one call, on any map whatever *)
  Lemma w_xstep_settles : forall o m w, accounts_for o (snd (w_xstep E m o w)) ->
    wm (fst (w_xstep E m o w)) + wout p q (snd (w_xstep E m o w)) = wm m + wgiven p q o.
  Proof.
    assert (Z : forall w, handed_l w = [] -> handed_r w = [] -> wout p q w = 0).
    { intros w A A'. unfold wout. rewrite A, A'. reflexivity. }
    intros [o|n] m w [N K]; [|destruct K].
    destruct o; try (destruct K; fail); cbn [w_xstep w_step] in *; unfold wgiven;
      cbn [given_l given_r]; change (cnt p []) with 0; change (cnt q []) with 0.
    - eapply w_via_settles; [apply w_insert_settles|..]; auto. intros; apply wout_ins.
    - eapply w_via_settles; [apply w_remove_settles|..]; auto. intros; apply wout_pair.
    - eapply w_via_settles; [apply w_remove_via_left_settles|..]; auto. intros; apply wout_pair.
    - eapply w_via_settles; [apply w_remove_via_right_settles|..]; auto. intros; apply wout_pair.
    - eapply w_via_settles; [eapply settles_given; [apply w_swap_left_settles|unfold one; lia]|..]; auto.
      + intros a H ->. congruence.
      + intros; apply wout_sl.
    - eapply w_via_settles; [eapply settles_given; [apply w_swap_left_checked_settles|unfold one; lia]|..]; auto.
      + intros a H ->. congruence.
      + intros; apply wout_sl.
    - eapply w_via_settles; [eapply settles_given; [apply w_swap_right_settles|unfold one; lia]|..]; auto.
      + intros a H ->. congruence.
      + intros; apply wout_sr.
    - eapply w_via_settles; [eapply settles_given; [apply w_swap_right_checked_settles|unfold one; lia]|..]; auto.
      + intros a H ->. congruence.
      + intros; apply wout_sr.
    - apply w_look_settles; auto.
    - apply w_look_settles; auto.
    - apply w_look_settles; auto.
    - apply w_look_settles; auto.
    - apply w_look_settles; auto.
    - cbn. lia.
    - cbn. lia.
    - apply w_look_settles; auto.
    - cbn [step] in *. destruct (collect _ _ _); cbn [fst snd] in *; [|destruct N; reflexivity]. rewrite Z; auto.
    - cbn [step] in *. destruct (collect _ _ _); cbn [fst snd] in *; [|destruct N; reflexivity]. rewrite Z; auto.
    - eapply w_via_settles; [apply w_resize_settles|..]; auto.
    - eapply w_via_settles; [apply w_shrink_to_fit_settles|..]; auto.
    - eapply w_via_settles; [apply w_resize_settles|..]; auto.
    - eapply w_via_settles; [apply w_try_reserve_settles|..]; auto.
  Qed.
End WildKeptStep.

Lemma w_xrun_settles : forall {L R S W} p q (cs : list (wenv L R S W * W * xop L R)) m,
  Forall (fun c => tame (fst (fst c))) cs ->
  let (m', ws) := w_xrun m cs in
  Forall2 accounts_for (ops_of cs) ws ->
  wm p q m' + (cnt p (flat_map handed_l ws) + cnt q (flat_map handed_r ws)) =
  wm p q m + (cnt p (flat_map given_l (ops_of cs)) + cnt q (flat_map given_r (ops_of cs))).
Proof.
  intros L R S W p q. induction cs as [|[[E w] o] cs IH]; intros m H; cbn [w_xrun].
  - simpl. lia.
  - assert (TE := Forall_inv H). apply Forall_inv_tail in H. simpl in TE.
    assert (X := w_xstep_settles E TE p q o m w). destruct (w_xstep E m o w) as [m1 a]. cbn [fst snd] in X.
    specialize (IH m1 H). destruct (w_xrun m1 cs) as [m2 ws]. intro F. inversion F; subst.
    specialize (IH H5). specialize (X H3). simpl flat_map. rewrite !cnt_app. unfold wout, wgiven in X. lia.
Qed.

Definition stored_l {L R S} (m : cmap L R S) : list L := map value (map snd (iter_left m)).
Definition stored_r {L R S} (m : cmap L R S) : list R := map value (map snd (iter_right m)).

(* One call on any map whatever, with any user code: if its answer is one of those above, the items
   (of any kind p) that are stored or handed back afterwards are as many as those stored before
   and those handed over. *)
Theorem C138_call_loses_no_item : forall {L R S W} (E : wenv L R S W) m o w, tame E ->
  let (m', a) := w_xstep E m o w in accounts_for o a ->
  (forall p, length (filter p (stored_l m')) + length (filter p (handed_l a)) =
             length (filter p (stored_l m)) + length (filter p (given_l o))) /\
  (forall q, length (filter q (stored_r m')) + length (filter q (handed_r a)) =
             length (filter q (stored_r m)) + length (filter q (given_r o))).
Proof.
  intros L R S W E m o w TE. assert (X := fun p q => w_xstep_settles E TE p q o m w).
  destruct (w_xstep E m o w) as [m' a]. cbn [fst snd] in X. intro H. split; intro p.
  - specialize (X p (fun _ => false) H). unfold wm, wout, wgiven in X.
    rewrite !(tw_values p : forall t, tw (vl p) t = _), !(tw_values (fun _ => false) : forall t, tw (vr _) t = _), !cnt_false in X.
    unfold cnt in X. unfold stored_l, iter_left. lia.
  - specialize (X (fun _ => false) p H). unfold wm, wout, wgiven in X.
    rewrite !(tw_values p : forall t, tw (vr p) t = _), !(tw_values (fun _ => false) : forall t, tw (vl _) t = _), !cnt_false in X.
    unfold cnt in X. unfold stored_r, iter_right. lia.
Qed.
(* the same of a whole history *)
Theorem C138_history_loses_no_item : forall {L R S W} (cs : list (wenv L R S W * W * xop L R)) s ll lr,
  Forall (fun c => tame (fst (fst c))) cs ->
  let (m, ws) := w_xrun (with_hasher s ll lr) cs in
  Forall2 accounts_for (ops_of cs) ws ->
  (forall p, length (filter p (stored_l m)) + length (filter p (flat_map handed_l ws)) =
             length (filter p (flat_map given_l (ops_of cs)))) /\
  (forall q, length (filter q (stored_r m)) + length (filter q (flat_map handed_r ws)) =
             length (filter q (flat_map given_r (ops_of cs)))).
Proof.
  intros L R S W cs s ll lr H.
  assert (X := fun p q => w_xrun_settles p q cs (with_hasher s ll lr) H).
  destruct (w_xrun _ cs) as [m ws]. intro F. split; intro p.
  - specialize (X p (fun _ => false) F). unfold wm in X.
    rewrite !(tw_values p : forall t, tw (vl p) t = _), !(tw_values (fun _ => false) : forall t, tw (vr _) t = _), !cnt_false in X.
    change (cnt p (map value (map snd (slots (left_set (with_hasher (L := L) (R := R) s ll lr)))))) with 0 in X.
    unfold cnt in X. unfold stored_l, iter_left. lia.
  - specialize (X (fun _ => false) p F). unfold wm in X.
    rewrite !(tw_values p : forall t, tw (vr p) t = _), !(tw_values (fun _ => false) : forall t, tw (vl _) t = _), !cnt_false in X.
    change (cnt p (map value (map snd (slots (right_set (with_hasher (L := L) (R := R) s ll lr)))))) with 0 in X.
    unfold cnt in X. unfold stored_r, iter_right. lia.
Qed.

(* The exceptions are real, with the usual Eq and Hash: swap_left that finds no old item drops the new
   one and the pair it displaced; swap_left_or_insert drops to_insert, and the partner of a displaced item. *)
Theorem C138_swap_refuted : exists (cs : list (wenv N N N (list (option bool)) * list (option bool) * xop N N)),
  Forall (fun c => tame (fst (fst c))) cs /\
  ~ In OPanic (snd (w_xrun (with_hasher 0 0 0)%N cs)) /\
  let (m, ws) := w_xrun (with_hasher 0 0 0)%N cs in
  stored_l m = [] /\ stored_r m = [] /\ flat_map handed_l ws = [] /\ flat_map handed_r ws = [] /\
  flat_map given_l (ops_of cs) = [1; 1]%N /\ flat_map given_r (ops_of cs) = [10]%N.
Proof.
  exists (calls [([], Call (Insert 1 10)); ([], Call (SwapLeft 7 1))]%N).
  split; [apply told_all|]. vm_compute. repeat split; auto. intros [H|[H|[]]]; discriminate.
Qed.
Theorem C138_or_insert_refuted : exists (cs : list (wenv N N N (list (option bool)) * list (option bool) * xop N N)),
  Forall (fun c => tame (fst (fst c))) cs /\
  ~ In OPanic (snd (w_xrun (with_hasher 0 0 0)%N cs)) /\
  let (m, ws) := w_xrun (with_hasher 0 0 0)%N cs in
  stored_l m = [2]%N /\ stored_r m = [10]%N /\ flat_map handed_l ws = [1]%N /\ flat_map handed_r ws = [] /\
  flat_map given_l (ops_of cs) = [1; 2]%N /\ flat_map given_r (ops_of cs) = [10; 20]%N.
Proof.
  exists (calls [([], Call (Insert 1 10)); ([], Call (SwapLeftOrInsert 1 2 20))]%N).
  split; [apply told_all|]. vm_compute. repeat split; auto. intros [H|[H|[]]]; discriminate.
Qed.

(* == changes its mind between the search and the removal of swap_left; a swap that displaces a pair *)
Example C138_case :
  let cs := calls
    [([], Call (Insert 1 10)); ([], Call (Insert 3 20)); ([], Call (Insert 5 30));
     (map Some [false; false; false; false; false; true; false; true], Call (SwapLeft 1 9));
     ([], Call (SwapRight 20 30)); ([], Call (RemoveViaLeft 9)); ([], Call (Reserve 100))]%N in
  Forall (fun c => tame (fst (fst c))) cs /\
  let (m, ws) := w_xrun (with_hasher 0 0 0)%N cs in
  Forall2 accounts_for (ops_of cs) ws /\ (stored_l m, stored_r m, ws) =
    ([3], [10], [OIns Neither; OIns Neither; OIns Neither; OSwapL (SomeLeft 1);
                 OSwapR (SomeBoth 20 (5, 30)); OPair (Some (9, 30)); OUnit])%N.
Proof. split; [apply told_all|]. vm_compute. split; [|reflexivity]. repeat constructor; discriminate. Qed.

Print Assumptions C138_call_loses_no_item.
Print Assumptions C138_history_loses_no_item.
Print Assumptions C138_swap_refuted.
Print Assumptions C138_or_insert_refuted.
