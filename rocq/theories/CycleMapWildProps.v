(* CycleMap with user code that does as it likes (Wild.v): no item is invented or duplicated,
   only stored items are shown, and no two items are handed back as a pair that did not come
   in together. *)
From Coq Require Import List NArith Lia Bool Permutation.
From Verif Require Import Closures Prelude RawTable Optionals CycleMap CycleMapHistory CycleMapAny
  TableFacts Conserve CycleMapConserve Faults Wild CycleMapWild Concrete.
Import ListNotations.
Local Open Scope nat_scope.

Section Conserve.
  Context {L R S W : Type} (E : wenv L R S W).
  Hypothesis TE : tame E.
  Variables (p : L -> bool) (q : R -> bool).
  Notation map := (cmap L R S).
  Notation B := (calm_env E).
  Notation wm := (wm p q).
  Notation wp := (wp p q).
  Notation pays := (pays (fun s : W * map => wm (snd s))).
  Let OP : keeps_buckets (lo B) := proj1 TE.

  Lemma w_left_remove_pays : forall h l, pays 0 (w_left_remove_entry E h l) (cnt_opt (we_l p)).
  Proof.
    intros h l [w m]. unfold w_left_remove_entry, bind, w_look, w_calmly, w_with, getst, putst, ret. cbn [fst snd].
    destruct (w_remove_entry _ _ _ _ _) as [w' [[e t]|]|w'] eqn:X; cbn [fst snd cnt_opt]; try lia.
    apply (wtw_remove _ (vl p)) in X. rewrite one_vl in X. unfold CycleMapConserve.wm. cbn [fst snd left_set right_set set_left set_right cnt_opt]. lia.
  Qed.
  Lemma w_right_remove_pays : forall h r, pays 0 (w_right_remove_entry E h r) (cnt_opt (we_r q)).
  Proof.
    intros h l [w m]. unfold w_right_remove_entry, bind, w_look, w_calmly, w_with, getst, putst, ret. cbn [fst snd].
    destruct (w_remove_entry _ _ _ _ _) as [w' [[e t]|]|w'] eqn:X; cbn [fst snd cnt_opt]; try lia.
    apply (wtw_remove _ (vr q)) in X. rewrite one_vr in X. unfold CycleMapConserve.wm. cbn [fst snd left_set right_set set_left set_right cnt_opt]. lia.
  Qed.
  Lemma w_left_insert_pays : forall h e, pays (we_l p e) (w_left_insert E h e) (fun _ => 0).
  Proof.
    intros h e [w m]. unfold w_left_insert, on_left. cbn [fst snd].
    assert (X := fun hs => wtw_insert (W := W) _ _ (proj1 TE) (proj2 TE) (vl p) (left_set m) h e hs w).
    match goal with |- context [w_insert _ _ _ _ _ ?hs _] => specialize (X hs) end.
    destruct (w_insert _ _ _ _ _ _ _) as [[w' t'] []|[w' t']]; rewrite ?one_vl in X;
      unfold CycleMapConserve.wm; cbn [fst snd left_set right_set set_left set_right cnt_opt]; lia.
  Qed.
  Lemma w_right_insert_pays : forall h e, pays (we_r q e) (w_right_insert E h e) (fun _ => 0).
  Proof.
    intros h e [w m]. unfold w_right_insert, on_right. cbn [fst snd].
    assert (X := fun hs => wtw_insert (W := W) _ _ (proj1 TE) (proj2 TE) (vr q) (right_set m) h e hs w).
    match goal with |- context [w_insert _ _ _ _ _ ?hs _] => specialize (X hs) end.
    destruct (w_insert _ _ _ _ _ _ _) as [[w' t'] []|[w' t']]; rewrite ?one_vr in X;
      unfold CycleMapConserve.wm; cbn [fst snd left_set right_set set_left set_right cnt_opt]; lia.
  Qed.

  Lemma w_remove_via_left_pays : forall l, pays 0 (w_remove_via_left E l) (cnt_opt wp).
  Proof.
    intros l. apply pays_looked; intro h.
    eapply pays_bind; [apply w_left_remove_pays|lia|]. intros [e|]; [|apply pays_ret; simpl; lia].
    eapply pays_bind; [apply (pays_calmly wm), right_remove_pays|lia|]. intros o.
    eapply pays_bind with (u := cnt_opt (we_r q) o) (h1 := we_r q); [apply pays_unwrap; lia|lia|].
    intros e'. apply pays_ret. unfold CycleMapConserve.wp, we_l, we_r. simpl. unfold we_l, we_r. lia.
  Qed.
  Lemma w_remove_via_right_pays : forall r, pays 0 (w_remove_via_right E r) (cnt_opt wp).
  Proof.
    intros l. apply pays_looked; intro h.
    eapply pays_bind; [apply w_right_remove_pays|lia|]. intros [e|]; [|apply pays_ret; simpl; lia].
    eapply pays_bind; [apply (pays_calmly wm), left_remove_pays|lia|]. intros o.
    eapply pays_bind with (u := cnt_opt (we_l p) o) (h1 := we_l p); [apply pays_unwrap; lia|lia|].
    intros e'. apply pays_ret. unfold CycleMapConserve.wp, we_l, we_r. simpl. unfold we_l, we_r. lia.
  Qed.
  Lemma w_remove_pays : forall l r, pays 0 (w_remove E l r) (cnt_opt wp).
  Proof.
    intros l r. apply pays_looked; intros [|]; [apply w_remove_via_left_pays|apply pays_ret; simpl; lia].
  Qed.
  Lemma w_insert_pays : forall l r, pays (one p l + one q r) (w_insert_pair E l r) (wins p q).
  Proof.
    intros l r. eapply pays_bind; [apply w_remove_via_left_pays|lia|]. intros a.
    eapply pays_bind; [apply w_remove_via_right_pays|lia|]. intros b.
    do 3 (apply pays_looked; intro).
    eapply pays_bind; [apply (pays_calmly wm), incr_pays|lia|]. intros [].
    eapply pays_bind; [apply w_left_insert_pays|unfold we_l; simpl; lia|]. intros [].
    eapply pays_bind; [apply w_right_insert_pays|unfold we_l, we_r; simpl; lia|]. intros [].
    apply pays_ret. unfold we_l, we_r, wins. destruct a, b; simpl; lia.
  Qed.

  Lemma w_swap_left_check_pays : forall old new h, pays 0 (w_swap_left_eq_check E old new h) (cnt_opt wp).
  Proof.
    intros. apply pays_looked; intros [o|]; [|apply pays_ret; simpl; lia].
    apply pays_looked; intros [|]; [apply w_remove_via_left_pays|apply pays_ret; simpl; lia].
  Qed.
  Lemma w_swap_right_check_pays : forall old new h, pays 0 (w_swap_right_eq_check E old new h) (cnt_opt wp).
  Proof.
    intros. apply pays_looked; intros [o|]; [|apply pays_ret; simpl; lia].
    apply pays_looked; intros [|]; [apply w_remove_via_right_pays|apply pays_ret; simpl; lia].
  Qed.
  Lemma w_swap_left_pays : forall old new, pays (one p new) (w_swap_left E old new) (wsl p q).
  Proof.
    intros old new. apply pays_looked; intro h.
    eapply pays_bind; [apply w_swap_left_check_pays|lia|]. intros a.
    apply pays_looked; intro h'. apply pays_looked; intros [lp|]; [|apply pays_ret; unfold wsl; simpl; lia].
    eapply pays_nothing.
    { apply (pays_calmly wm). intros m. unfold bind, getst, putst. destruct (t_find _ _ _ _) as [i|]; simpl unwrap; cbn [ret]; [|unfold panic; lia].
      match goal with |- context [set_right ?t m] => assert (X : wm (set_right t m) = wm m) end.
      { unfold CycleMapConserve.wm. cbn [left_set right_set set_right]. rewrite (tw_modify (vr q)); auto. }
      lia. }
    intros _. eapply pays_bind; [apply w_left_remove_pays|lia|]. intros o.
    eapply pays_bind with (u := cnt_opt (we_l p) o) (h1 := we_l p); [apply pays_unwrap; lia|lia|]. intros e.
    eapply pays_bind; [apply w_left_insert_pays|unfold we_l; simpl; lia|]. intros [].
    apply pays_ret. unfold we_l, wsl. destruct a; simpl; lia.
  Qed.
  Lemma w_swap_right_pays : forall old new, pays (one q new) (w_swap_right E old new) (wsr p q).
  Proof.
    intros old new. apply pays_looked; intro h.
    eapply pays_bind; [apply w_swap_right_check_pays|lia|]. intros a.
    apply pays_looked; intro h'. apply pays_looked; intros [rp|]; [|apply pays_ret; unfold wsr; simpl; lia].
    eapply pays_nothing.
    { apply (pays_calmly wm). intros m. unfold bind, getst. destruct (t_find _ _ _ _); cbn; lia. }
    intros i. apply pays_looked; intro h2.
    eapply pays_nothing.
    { apply (pays_calmly wm). intros m. unfold bind, getst, putst.
      unfold CycleMapConserve.wm. cbn [left_set right_set set_left]. rewrite (tw_modify (vl p)); auto. }
    intros _. eapply pays_bind; [apply w_right_remove_pays|lia|]. intros o.
    eapply pays_bind with (u := cnt_opt (we_r q) o) (h1 := we_r q); [apply pays_unwrap; lia|lia|]. intros e.
    eapply pays_bind; [apply w_right_insert_pays|unfold we_r; simpl; lia|]. intros [].
    apply pays_ret. unfold we_r, wsr. destruct a; simpl; lia.
  Qed.
  Lemma w_swap_left_checked_pays : forall old ex new, pays (one p new) (w_swap_left_checked E old ex new) (wsl p q).
  Proof.
    intros. apply pays_looked; intros [|]; [apply w_swap_left_pays|apply pays_ret, PeanoNat.Nat.le_0_l].
  Qed.
  Lemma w_swap_right_checked_pays : forall old ex new, pays (one q new) (w_swap_right_checked E old ex new) (wsr p q).
  Proof.
    intros. apply pays_looked; intros [|]; [apply w_swap_right_pays|apply pays_ret, PeanoNat.Nat.le_0_l].
  Qed.
  Lemma w_swap_left_or_insert_pays : forall old new ti,
    pays (one p new + one q ti) (w_swap_left_or_insert E old new ti) (wsl p q).
  Proof.
    intros. apply pays_looked; intro h. apply pays_looked; intros [e|].
    - eapply pays_weaken; [apply w_swap_left_pays|lia|auto].
    - eapply pays_bind; [apply w_insert_pays|lia|]. intros d. apply pays_ret.
      unfold wsl, wins. destruct d as [|[? ?]|[? ?]|[? ?] [? ?]]; unfold CycleMapConserve.wp; simpl; lia.
  Qed.
  Lemma w_swap_right_or_insert_pays : forall old new ti,
    pays (one p ti + one q new) (w_swap_right_or_insert E old new ti) (wsr p q).
  Proof.
    intros. apply pays_looked; intro h. apply pays_looked; intros [e|].
    - eapply pays_weaken; [apply w_swap_right_pays|lia|auto].
    - eapply pays_bind; [apply w_insert_pays|lia|]. intros d. destruct d; try apply pays_panic;
      apply pays_ret; unfold wsr, wins; simpl; lia.
  Qed.
  Lemma w_extend_pays : forall l,
    pays (cnt p (List.map fst l) + cnt q (List.map snd l)) (w_extend E l) (fun _ => 0).
  Proof.
    induction l as [|[a b] l IH]; simpl List.map; [apply pays_ret; lia|]. rewrite !cnt_cons.
    eapply pays_bind; [apply w_insert_pays|simpl; lia|]. intros d.
    eapply pays_weaken; [apply IH|simpl; lia|auto].
  Qed.
  Lemma w_retain_pays : forall {X} (f : X -> L -> R -> X * verdict) x, pays 0 (w_retain E f x) (fun _ => 0).
  Proof.
    intros. apply pays_looked; intros [x' l|x']; [|apply pays_panic].
    apply (pays_calmly wm), drop_all_pays.
  Qed.
  Lemma w_on_left_pays : forall {A} (c : S -> table (mapping_pair L) -> W -> res (W * table (mapping_pair L)) A),
    (forall s t w, match c s t w with Ret (_, t') _ | Panic (_, t') => tw (vl p) t' <= tw (vl p) t end) ->
    pays 0 (on_left c) (fun _ => 0).
  Proof.
    intros A c H [w m]. unfold on_left. cbn [fst snd]. specialize (H (hash_builder m) (left_set m) w).
    destruct (c _ _ _) as [[w' t'] a|[w' t']]; unfold CycleMapConserve.wm; cbn [fst snd left_set right_set set_left set_right cnt_opt]; lia.
  Qed.
  Lemma w_on_right_pays : forall {A} (c : S -> table (mapping_pair R) -> W -> res (W * table (mapping_pair R)) A),
    (forall s t w, match c s t w with Ret (_, t') _ | Panic (_, t') => tw (vr q) t' <= tw (vr q) t end) ->
    pays 0 (on_right c) (fun _ => 0).
  Proof.
    intros A c H [w m]. unfold on_right. cbn [fst snd]. specialize (H (hash_builder m) (right_set m) w).
    destruct (c _ _ _) as [[w' t'] a|[w' t']]; unfold CycleMapConserve.wm; cbn [fst snd left_set right_set set_left set_right cnt_opt]; lia.
  Qed.
  Lemma w_resize_pays : forall z, pays 0 (w_resize_both E z) (fun _ => 0).
  Proof.
    intros z. eapply pays_nothing; [apply w_on_left_pays|intros _; apply w_on_right_pays];
      intros; apply wtw_resize; apply TE.
  Qed.
  Lemma w_shrink_to_fit_pays : pays 0 (w_shrink_to_fit E) (fun _ => 0).
  Proof.
    apply pays_looked; intro n.
    eapply pays_nothing; [apply w_on_left_pays|intros _; apply pays_looked; intro; apply w_on_right_pays];
      intros; apply wtw_resize; apply TE.
  Qed.
  Lemma w_try_reserve_pays : forall n, pays 0 (w_try_reserve E n) (fun _ => 0).
  Proof.
    intros n. eapply pays_nothing; [apply w_on_left_pays|intros [|]; [apply w_on_right_pays|apply pays_ret; lia]];
      intros; apply wtw_try_resize; apply TE.
  Qed.

  Lemma w_via_pays : forall {A} (c : M (W * map) A) (k : A -> out L R) g h m w, pays g c h ->
    (forall a, wout p q (k a) <= h a) ->
    wm (fst (w_via k c m w)) + wout p q (snd (w_via k c m w)) <= wm m + g.
  Proof.
    intros A c k g h m w H X. specialize (H (w, m)). unfold w_via.
    destruct (c (w, m)) as [[w' m'] a|[w' m']]; cbn [fst snd] in *.
    - specialize (X a). lia.
    - unfold wout. simpl. unfold cnt. simpl. lia.
  Qed.
  Lemma w_look_pays : forall {A} (f : map -> M W A) (k : A -> out L R) m w,
    (forall a, wout p q (k a) = 0) ->
    wm (fst (w_via k (w_look f) m w)) + wout p q (snd (w_via k (w_look f) m w)) <= wm m + 0.
  Proof. intros. eapply w_via_pays; [apply (pays_look wm)|]. intro a. rewrite H. auto. Qed.

  Lemma w_xstep_pays : forall o m w,
    wm (fst (w_xstep E m o w)) + wout p q (snd (w_xstep E m o w)) <= wm m + wgiven p q o.
  Proof.
    assert (Z : forall w, handed_l w = [] -> handed_r w = [] -> wout p q w = 0).
    { intros w A A'. unfold wout. rewrite A, A'. reflexivity. }
    intros [o|n] m w; [|exact (xstep_pays B OP p q (DrainN n) m)].
    destruct o; match goal with |- context [w_xstep E m ?c w] => try exact (xstep_pays B OP p q c m) end; cbn [w_xstep w_step]; unfold wgiven;
      cbn [given_l given_r]; change (cnt p []) with 0; change (cnt q []) with 0.
    - eapply w_via_pays; [apply w_insert_pays|]. intros; rewrite wout_ins; auto.
    - eapply w_via_pays; [apply w_remove_pays|]. intros; rewrite wout_pair; auto.
    - eapply w_via_pays; [apply w_remove_via_left_pays|]. intros; rewrite wout_pair; auto.
    - eapply w_via_pays; [apply w_remove_via_right_pays|]. intros; rewrite wout_pair; auto.
    - eapply w_via_pays; [eapply pays_weaken; [apply w_swap_left_pays|unfold one; lia|auto]|]. intros; rewrite wout_sl; auto.
    - eapply w_via_pays; [eapply pays_weaken; [apply w_swap_left_checked_pays|unfold one; lia|auto]|]. intros; rewrite wout_sl; auto.
    - eapply w_via_pays; [apply w_swap_left_or_insert_pays|]. intros; rewrite wout_sl; auto.
    - eapply w_via_pays; [eapply pays_weaken; [apply w_swap_right_pays|unfold one; lia|auto]|]. intros; rewrite wout_sr; auto.
    - eapply w_via_pays; [eapply pays_weaken; [apply w_swap_right_checked_pays|unfold one; lia|auto]|]. intros; rewrite wout_sr; auto.
    - eapply w_via_pays; [apply w_swap_right_or_insert_pays|]. intros; rewrite wout_sr; auto.
    - apply w_look_pays; auto.
    - apply w_look_pays; auto.
    - apply w_look_pays; auto.
    - apply w_look_pays; auto.
    - apply w_look_pays; auto.
    - apply w_look_pays; auto.
    - eapply w_via_pays; [apply w_extend_pays|]. intros; rewrite Z; auto.
    - eapply w_via_pays; [apply w_retain_pays|]. intros; rewrite Z; auto.
    - eapply w_via_pays; [apply w_resize_pays|]. intros; rewrite Z; auto.
    - eapply w_via_pays; [apply w_shrink_to_fit_pays|]. intros; rewrite Z; auto.
    - eapply w_via_pays; [apply w_resize_pays|]. intros; rewrite Z; auto.
    - eapply w_via_pays; [apply w_try_reserve_pays|]. intros; rewrite Z; auto.
  Qed.
End Conserve.

Definition ops_of {L R S W} (cs : list (wenv L R S W * W * xop L R)) : list (xop L R) := map snd cs.
Lemma w_xrun_pays : forall {L R S W} p q (cs : list (wenv L R S W * W * xop L R)) m,
  Forall (fun c => tame (fst (fst c))) cs ->
  let (m', ws) := w_xrun m cs in
  wm p q m' + (cnt p (flat_map handed_l ws) + cnt q (flat_map handed_r ws)) <=
  wm p q m + (cnt p (flat_map given_l (ops_of cs)) + cnt q (flat_map given_r (ops_of cs))).
Proof.
  intros L R S W p q. induction cs as [|[[E w] o] cs IH]; intros m H; cbn [w_xrun].
  - simpl. lia.
  - assert (TE := Forall_inv H). apply Forall_inv_tail in H. simpl in TE.
    assert (X := w_xstep_pays E TE p q o m w). destruct (w_xstep E m o w) as [m1 a]. cbn [fst snd] in X.
    specialize (IH m1 H). destruct (w_xrun m1 cs) as [m2 ws]. simpl flat_map. rewrite !cnt_app.
    unfold wout, wgiven in X. lia.
Qed.

(* Whatever user code does, in the middle of calls too, and whatever the call does (panics
   included): of the items of any kind p, those in the map and those handed back are no more
   than those handed over. *)
Theorem C134_no_item_invented : forall {L R S W} (cs : list (wenv L R S W * W * xop L R)) s ll lr,
  Forall (fun c => tame (fst (fst c))) cs ->
  let (m, ws) := w_xrun (with_hasher s ll lr) cs in
  (forall p, length (filter p (map value (map snd (iter_left m)))) + length (filter p (flat_map handed_l ws)) <=
             length (filter p (flat_map given_l (ops_of cs)))) /\
  (forall q, length (filter q (map value (map snd (iter_right m)))) + length (filter q (flat_map handed_r ws)) <=
             length (filter q (flat_map given_r (ops_of cs)))).
Proof.
  intros L R S W cs s ll lr H.
  assert (X := fun p q => w_xrun_pays p q cs (with_hasher s ll lr) H).
  destruct (w_xrun _ cs) as [m ws]. split; intro p.
  - specialize (X p (fun _ => false)). unfold wm in X.
    rewrite !(tw_values p : forall t, tw (vl p) t = _), !(tw_values (fun _ => false) : forall t, tw (vr _) t = _), !cnt_false in X.
    change (cnt p (map value (map snd (slots (left_set (with_hasher (L := L) (R := R) s ll lr)))))) with 0 in X.
    unfold cnt in X. unfold iter_left. lia.
  - specialize (X (fun _ => false) p). unfold wm in X.
    rewrite !(tw_values p : forall t, tw (vr p) t = _), !(tw_values (fun _ => false) : forall t, tw (vl _) t = _), !cnt_false in X.
    change (cnt p (map value (map snd (slots (right_set (with_hasher (L := L) (R := R) s ll lr)))))) with 0 in X.
    unfold cnt in X. unfold iter_right. lia.
Qed.

(* ---- references handed out ---- *)
Definition shown_l {L R} (a : out L R) : list L :=
  match a with OL (Some l) => [l] | OPairs ps => map fst ps | OLs ls => ls | _ => [] end.
Definition shown_r {L R} (a : out L R) : list R :=
  match a with OR (Some r) => [r] | OPairs ps => map snd ps | ORs rs => rs | _ => [] end.

Section Shown.
  Context {L R S W : Type} (E : wenv L R S W).
  Notation map := (cmap L R S).
  Notation lefts m := (List.map value (List.map snd (slots (left_set m)))).
  Notation rights m := (List.map value (List.map snd (slots (right_set m)))).

  Lemma tget_entry : forall {A} lo (t : table A) h q e, t_get lo t h q = Some e -> In e (List.map snd (slots t)).
  Proof.
    intros A lo t h q e H. unfold t_get, t_entry in H. destruct (t_find _ _ _ _) as [i|]; [|discriminate].
    destruct (nth_error (slots t) i) as [[h' x]|] eqn:X; [|discriminate]. injection H as <-.
    apply nth_error_In, (in_map snd) in X. exact X.
  Qed.
  Lemma get_left_shown : forall m r w w' l, w_get_left E m r w = Ret w' (Some l) -> In l (lefts m).
  Proof.
    intros m r w w' l H. unfold w_get_left, bind, ret in H. destruct (hash_r _ _ _ _) as [w1 h|]; [|discriminate].
    destruct (find_right _ _ _ _ _) as [w2 [e|]|]; try discriminate.
    destruct (t_get _ _ _ _) as [e'|] eqn:X; [|discriminate]. injection H as _ <-. apply in_map, (tget_entry _ _ _ _ _ X).
  Qed.
  Lemma get_right_shown : forall m l w w' r, w_get_right E m l w = Ret w' (Some r) -> In r (rights m).
  Proof.
    intros m l w w' r H. unfold w_get_right, bind, ret in H. destruct (hash_l _ _ _ _) as [w1 h|]; [|discriminate].
    destruct (find_left _ _ _ _ _) as [w2 [e|]|]; try discriminate.
    destruct (t_get _ _ _ _) as [e'|] eqn:X; [|discriminate]. injection H as _ <-. apply in_map, (tget_entry _ _ _ _ _ X).
  Qed.
  Lemma iter_shown : forall n m it w w' ps, w_iter_rest E m n it w = Ret w' ps ->
    incl (List.map fst ps) (List.map value (List.map snd it)) /\ incl (List.map snd ps) (rights m).
  Proof.
    induction n as [|n IH]; intros m [|[h e] it] w w' ps H; cbn in H.
    1,3: injection H as _ <-; split; intros ? [].
    - unfold bind, ret in H. destruct (w_get_right _ _ _ _) as [w1 [r|]|]; cbn in H; discriminate.
    - unfold bind, ret in H. destruct (w_get_right E m (value e) w) as [w1 [r|]|] eqn:G; cbn in H; try discriminate.
      unfold bind in H. destruct (w_iter_rest E m n it w1) as [w2 l|] eqn:X; [|discriminate]. injection H as _ <-.
      apply IH in X as [X1 X2]. apply get_right_shown in G. split; intros x [<-|Hx]; simpl; auto; right; apply X1; auto.
  Qed.
  Lemma collect_single : forall {A} n (it : list (N * mapping_pair A)) l,
    collect single_next n it = Done l -> incl l (List.map value (List.map snd it)).
  Proof.
    induction n as [|n IH]; intros [|[h e] it] l H; cbn in H; try discriminate;
      try (injection H as <-; intros ? []; fail).
    destruct (collect single_next n it) as [l'|] eqn:X; [|discriminate]. injection H as <-.
    intros x [<-|Hx]; [left; auto|right; eapply IH; eauto].
  Qed.
  Lemma w_via_shown : forall {A} (k : A -> out L R) (f : map -> M W A) m w P, P OPanic ->
    (forall w' a, f m w = Ret w' a -> P (k a)) -> P (snd (w_via k (w_look f) m w)).
  Proof.
    intros A k f m w P H1 H2. unfold w_via, w_look. cbn [fst snd]. destruct (f m w) eqn:X; cbn; eauto.
  Qed.
  Lemma w_via_plain : forall {A} (k : A -> out L R) (c : M (W * map) A) m w (P : out L R -> Prop), P OPanic -> (forall a, P (k a)) ->
    P (snd (w_via k c m w)).
  Proof. intros A k c m w P H1 H2. unfold w_via. destruct (c _) as [[? ?] ?|[? ?]]; cbn; auto. Qed.

  (* the items to which a call of any map gives references are in that map *)
  Theorem C134_shown_items_stored : forall m o w,
    let (m', a) := w_xstep E m o w in
    incl (shown_l a) (lefts m) /\ incl (shown_r a) (rights m).
  Proof.
    intros m o w. destruct (w_xstep E m o w) as [m' a] eqn:Q.
    change a with (snd (m', a)). rewrite <- Q. clear Q m' a.
    set (P := fun a : out L R => incl (shown_l a) (lefts m) /\ incl (shown_r a) (rights m)).
    change (P (snd (w_xstep E m o w))).
    assert (Z : forall a, shown_l a = [] -> shown_r a = [] -> P a).
    { intros a A A'. split; [rewrite A|rewrite A']; intros x []. }
    destruct o as [o|n]; cbn [w_xstep xstep]; [|destruct (drain_nexts _ _ _); apply Z; auto].
    destruct o; cbn [w_step step];
      try (apply w_via_plain; intros; apply Z; reflexivity);
      try (apply Z; reflexivity).
    - apply w_via_shown; [apply Z; auto|]. intros w' [l|] H; [|apply Z; auto].
      split; [|intros x []]. intros x [<-|[]]. eapply get_left_shown; eauto.
    - apply w_via_shown; [apply Z; auto|]. intros w' [r|] H; [|apply Z; auto].
      split; [intros x []|]. intros x [<-|[]]. eapply get_right_shown; eauto.
    - apply w_via_shown; [apply Z; auto|]. intros w' ps H. apply iter_shown in H. exact H.
    - destruct (collect _ _ _) eqn:X; [|apply Z; auto]. split; [|intros x []]. exact (collect_single _ _ _ X).
    - destruct (collect _ _ _) eqn:X; [|apply Z; auto]. split; [intros x []|]. exact (collect_single _ _ _ X).
    - destruct (drain_nexts _ _ _); apply Z; auto.
    - destruct (df_nexts _ _ _ _) as [[d x'] is|[d x']]; [destruct leak; [apply Z; auto|]|];
        destruct (df_drop _ _ _) as [[? ?] ?|[? ?]]; apply Z; auto.
  Qed.
End Shown.

(* == changes its mind between the search and the removal of swap_left, so that 3 keeps its place
   under the id of another; hash panics while the table grows; == panics in remove *)
Example C134_case :
  let cs := calls
    [([], Call (Insert 1 10)); ([], Call (Insert 3 20)); ([], Call (Insert 5 30));
     (map Some [false; false; false; false; false; true; false; true], Call (SwapLeft 1 9));
     ([], Call IterLeftAll); ([], Call IterRightAll); ([], Call (GetLeft 20));
     ([], Call (RemoveViaLeft 9)); ([], Call (RemoveViaLeft 3)); ([None], Call (Reserve 100));
     ([Some true; None], Call (Insert 4 40)); ([], Call IterLeftAll); ([], Call IterRightAll)]%N in
  Forall (fun c => tame (fst (fst c))) cs /\
  snd (w_xrun (with_hasher 0 0 0)%N cs) =
    [OIns Neither; OIns Neither; OIns Neither; OSwapL (SomeLeft 1); OLs [5; 3; 9]; ORs [20; 10; 30];
     OL (Some 9); OPair (Some (9, 20)); OPanic; OPanic; OPanic; OLs []; ORs [10]]%N.
Proof. split; [apply told_all|vm_compute; reflexivity]. Qed.

Print Assumptions C134_no_item_invented.
Print Assumptions C134_shown_items_stored.
