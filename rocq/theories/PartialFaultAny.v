(* PartialCycleMap: what holds after any history of calls in which any Hash, Eq or closure may
   have panicked, tables may have lost buckets, and drain iterators were leaked (C95). *)
From Coq Require Import List NArith Lia Bool Permutation PeanoNat.
From Verif Require Import Closures Prelude RawTable Optionals PartialCycleMap ListFacts TableFacts SoundTables
  PartialSpec PartialHistory PartialProofs PartialProofs2 PartialProofs3 PartialProofs4 PartialProofs5
  PartialProofs6 PartialHistoryProofs Concrete PartialProps PartialProps2 PartialAny
  Faults FaultTables PartialFault PartialFaultProofs PartialFaultProps.
Import ListNotations.
Open Scope N_scope.

Section FaultAny.
  Context {L R S : Type}.
  Variable E : env L R S.
  Hypothesis OK : lawful E.
  Variable F : fault.
  Hypothesis FO : fault_ok F.
  Notation map := (pmap L R S).
  Let EL := eqL_equiv _ OK.
  Let ER := eqR_equiv _ OK.

  Section Inv.
  Variable GL : L -> Prop.
  Variable GR : R -> Prop.
  Variable s : S.
  Notation Inv := (Inv E GL GR s).
  Notation ab := (ab E).

  Lemma lost_l_inv : forall c m m', Inv m -> lost_l E F c m m' -> Inv m'.
  Proof.
    intros c m m' (H1 & H2 & H3) (t & SP & ->). apply (spoilt_torn _ _ FO) in SP.
    split; [assumption|]. split; [|assumption]. eapply sound_torn; eauto.
  Qed.
  Lemma lost_r_inv : forall c m m', Inv m -> lost_r E F c m m' -> Inv m'.
  Proof.
    intros c m m' (H1 & H2 & H3) (t & SP & ->). apply (spoilt_torn _ _ FO) in SP.
    split; [assumption|]. split; [assumption|]. eapply sound_torn; eauto.
  Qed.
  Lemma by_hoare : forall {A} (c : M map A) P Q m m' a, SoundTables.hoare Inv P c Q -> Inv m -> P m ->
    c m = Ret m' a -> Inv m' /\ Q a m'.
  Proof. intros A c P Q m m' a H I1 P1 E1. specialize (H m I1 P1). rewrite E1 in H. auto. Qed.
  Lemma by_keeps : forall {A} (c : M map A) m m' a, SoundTables.keeps Inv c -> Inv m -> c m = Ret m' a -> Inv m'.
  Proof. intros A c m m' a H I1 E1. specialize (H m I1 I). rewrite E1 in H. apply H. Qed.

  Lemma insert_inv : forall l r m m', GL l -> GR r -> Inv m -> P_insert E F l r m m' -> Inv m'.
  Proof.
    intros l r m m' Gl Gr I0 [->|[(a & Q)|(m1 & a & m2 & b & Q1 & Q2 & K)]]; auto.
    - eapply (by_hoare _ _ _ _ _ _ (rvl E OK GL GR s l [] [])) in Q; eauto; [tauto|apply ab_nil].
    - eapply (by_hoare _ _ _ _ _ _ (rvl E OK GL GR s l [] [])) in Q1 as [I1 A1]; eauto; [|apply ab_nil].
      eapply (by_hoare _ _ _ _ _ _ (rvr E OK GL GR s r [l] [])) in Q2 as [I2 A2]; eauto.
      destruct K as [->|(m3 & Q3 & K)]; auto.
      eapply (by_hoare _ _ _ _ _ _ (incr_any E GL GR s [l] [r])) in Q3 as [I3 A3]; eauto.
      destruct K as [K|(m4 & Q4 & K)]; [eapply lost_l_inv; eauto|].
      rewrite (hb E GL GR s _ I2) in Q4.
      eapply (by_hoare _ _ _ _ _ _ (l_insert E OK GL GR s l _ _ [] [r] Gl)) in Q4 as [I4 A4]; eauto.
      eapply lost_r_inv; eauto.
  Qed.
  Lemma insert_left_inv : forall l m m', Inv m -> P_insert_left E F l m m' -> Inv m'.
  Proof.
    intros l m m' I0 [->|(m1 & a & Q1 & K)]; auto.
    eapply (by_hoare _ _ _ _ _ _ (rvl E OK GL GR s l [] [])) in Q1 as [I1 A1]; eauto; [|apply ab_nil].
    destruct K as [->|(m2 & Q2 & K)]; auto.
    eapply (by_hoare _ _ _ _ _ _ (incr_any E GL GR s [l] [])) in Q2 as [I2 A2]; eauto.
    eapply lost_l_inv; eauto.
  Qed.
  Lemma insert_right_inv : forall r m m', Inv m -> P_insert_right E F r m m' -> Inv m'.
  Proof.
    intros r m m' I0 [->|(m1 & a & Q1 & K)]; auto.
    eapply (by_hoare _ _ _ _ _ _ (rvr E OK GL GR s r [] [])) in Q1 as [I1 A1]; eauto; [|apply ab_nil].
    destruct K as [->|(m2 & Q2 & K)]; auto.
    eapply (by_hoare _ _ _ _ _ _ (incr_any E GL GR s [] [r])) in Q2 as [I2 A2]; eauto.
    eapply lost_r_inv; eauto.
  Qed.
  Lemma extend_pairs_inv : forall xs m m', Forall GL (List.map fst xs) -> Forall GR (List.map snd xs) ->
    Inv m -> P_extend_pairs E F xs m m' -> Inv m'.
  Proof.
    induction xs as [|[l r] xs IH]; simpl; intros m m' FL FR I0 K; [destruct K|].
    inversion FL; inversion FR; subst. destruct K as [K|(m1 & d & Q & K)]; [eapply insert_inv; eauto|].
    eapply (by_hoare _ _ _ _ _ _ (insert_any E OK GL GR s l r ltac:(auto) ltac:(auto))) in Q as [I1 _]; eauto; apply ab_nil.
  Qed.
  Lemma extend_inv : forall xs m m', Forall GL (flat_map entry_l xs) -> Forall GR (flat_map entry_r xs) ->
    Inv m -> P_extend E F xs m m' -> Inv m'.
  Proof.
    induction xs as [|[|l|r|l r] xs IH]; simpl; intros m m' FL FR I0 K; [destruct K|eauto| | |].
    - inversion FL; subst. destruct K as [K|(m1 & d & Q & K)]; [eapply insert_left_inv; eauto|].
      eapply (by_hoare _ _ _ _ _ _ (insert_left_any E OK GL GR s l ltac:(auto))) in Q as [I1 _]; eauto; apply ab_nil.
    - inversion FR; subst. destruct K as [K|(m1 & d & Q & K)]; [eapply insert_right_inv; eauto|].
      eapply (by_hoare _ _ _ _ _ _ (insert_right_any E OK GL GR s r ltac:(auto))) in Q as [I1 _]; eauto; apply ab_nil.
    - inversion FL; inversion FR; subst. destruct K as [K|(m1 & d & Q & K)]; [eapply insert_inv; eauto|].
      eapply (by_hoare _ _ _ _ _ _ (insert_any E OK GL GR s l r ltac:(auto) ltac:(auto))) in Q as [I1 _]; eauto; apply ab_nil.
  Qed.
  Lemma repoint_r_inv : forall h h' lp m m' a, Inv m -> repoint_r E h h' lp m = Ret m' a -> Inv m'.
  Proof.
    intros h h' lp m m' a I0. unfold repoint_r. destruct (phash lp) as [g|]; [|intros Q; inversion Q; subst; auto].
    unfold bind, getst, unwrap, right_assign, putst. destruct (t_get_mut _ _ _ _) as [[i x]|]; [|discriminate].
    intros Q; inversion Q; subst. apply inv_modify_r; auto.
  Qed.
  Lemma repoint_l_inv : forall h h' rp m m' a, Inv m -> repoint_l E h h' rp m = Ret m' a -> Inv m'.
  Proof.
    intros h h' lp m m' a I0. unfold repoint_l. destruct (phash lp) as [g|]; [|intros Q; inversion Q; subst; auto].
    unfold bind, getst, unwrap, left_assign, putst. destruct (t_get_mut _ _ _ _) as [[i x]|]; [|discriminate].
    intros Q; inversion Q; subst. apply inv_modify_l; auto.
  Qed.
  Lemma swap_left_inv : forall old new m m', Inv m -> P_swap_left E F old new m m' -> Inv m'.
  Proof.
    intros old new m m' I0 [->|(m1 & a & Q1 & K)]; auto. rewrite (hb E GL GR s _ I0) in Q1.
    eapply (by_hoare _ _ _ _ _ _ (eqc_l E OK GL GR s old new)) in Q1 as [I1 _]; eauto; [|apply ab_nil].
    destruct K as [->|(lp & m2 & G & Q2 & K)]; auto.
    eapply repoint_r_inv in Q2 as I2; eauto.
    destruct K as [->|(m3 & e & Q3 & K)]; auto.
    eapply (by_hoare _ _ _ _ _ _ (l_remove_any E GL GR s _ _ [] [])) in Q3 as [I3 _]; eauto; [|apply ab_nil].
    eapply lost_l_inv; eauto.
  Qed.
  Lemma swap_right_inv : forall old new m m', Inv m -> P_swap_right E F old new m m' -> Inv m'.
  Proof.
    intros old new m m' I0 [->|(m1 & a & Q1 & K)]; auto. rewrite (hb E GL GR s _ I0) in Q1.
    eapply (by_hoare _ _ _ _ _ _ (eqc_r E OK GL GR s old new)) in Q1 as [I1 _]; eauto; [|apply ab_nil].
    destruct K as [->|(rp & m2 & G & Q2 & K)]; auto.
    eapply repoint_l_inv in Q2 as I2; eauto.
    destruct K as [->|(m3 & e & Q3 & K)]; auto.
    eapply (by_hoare _ _ _ _ _ _ (r_remove_any E GL GR s _ _ [] [])) in Q3 as [I3 _]; eauto; [|apply ab_nil].
    eapply lost_r_inv; eauto.
  Qed.
  Lemma shrink_inv : forall m m', Inv m -> P_shrink_to_fit E F m m' -> Inv m'.
  Proof.
    intros m m' I0 [K|(m1 & Q & K)]; [eapply lost_l_inv; eauto|]. eapply lost_r_inv; [|exact K].
    eapply by_keeps; [apply (resize_left_any E OK GL GR s)| |exact Q]. auto.
  Qed.
  Lemma u_xstep_inv : forall o w m, Forall GL (given_l o) -> Forall GR (given_r o) -> Inv m ->
    Inv (fst (u_xstep E F m o w)).
  Proof.
    intros [o|n] w m FL FR I0; [|apply (xstep_any E OK); auto]. cbn [u_xstep].
    destruct (u_step_cases E F m o w) as [->|(N & m' & -> & K)].
    - exact (xstep_any E OK GL GR s (Call o) m FL FR I0).
    - cbn [fst]. destruct o; cbn [P_step given_l given_r] in *; subst; auto;
        repeat match goal with H : Forall _ [_] |- _ => inversion H; clear H; subst end;
        try (eapply insert_inv; eassumption); try (eapply insert_left_inv; eassumption);
        try (eapply insert_right_inv; eassumption);
        try (eapply swap_left_inv; eassumption); try (eapply swap_right_inv; eassumption);
        try (eapply lost_l_inv; eassumption); try (eapply lost_r_inv; eassumption);
        try (eapply extend_inv; eassumption); try (eapply extend_pairs_inv; eassumption);
        try (eapply shrink_inv; eassumption).
      + destruct K; [eapply swap_left_inv; eassumption|eapply insert_inv; eassumption].
      + destruct K; [eapply swap_right_inv; eassumption|eapply insert_inv; eassumption].
  Qed.
  Lemma u_xrun_inv : forall ops m, Forall GL (flat_map (fun x => given_l (fst x)) ops) ->
    Forall GR (flat_map (fun x => given_r (fst x)) ops) -> Inv m -> Inv (fst (u_xrun E F m ops)).
  Proof.
    induction ops as [|[o w] ops IH]; simpl; intros m FL FR I0; auto.
    apply Forall_app in FL as [FL1 FL2]. apply Forall_app in FR as [FR1 FR2].
    assert (X := u_xstep_inv o w m FL1 FR1 I0). destruct (u_xstep E F m o w) as [m1 a].
    specialize (IH m1 FL2 FR2 X). destruct (u_xrun E F m1 ops). auto.
  Qed.
  End Inv.

  (* ids taken *)
  Definition tk {A} (n : N) (c : M map A) : Prop := forall m, counter (res_state (c m)) <= counter m + n.
  Lemma tk_bind : forall {A B} n1 n2 (c : M map A) (k : A -> M map B), tk n1 c ->
    (forall a, tk n2 (k a)) -> tk (n1 + n2) (bind c k).
  Proof.
    intros A B n1 n2 c k H1 H2 m. specialize (H1 m). unfold bind in *. destruct (c m) as [m' a|m']; simpl in *; [|lia].
    specialize (H2 a m'). lia.
  Qed.
  Lemma tk_more : forall {A} n1 n2 (c : M map A), n1 <= n2 -> tk n1 c -> tk n2 c.
  Proof. intros A n1 n2 c H H1 m. specialize (H1 m). lia. Qed.
  Lemma tk_then : forall {A B} n (c : M map A) (k : A -> M map B), tk 0 c ->
    (forall a, tk n (k a)) -> tk n (bind c k).
  Proof. intros. apply (tk_bind 0 n); auto. Qed.
  Lemma tk_take : forall {A B} n (c : M map A) (k : A -> M map B), tk 1 c ->
    (forall a, tk n (k a)) -> tk (1 + n) (bind c k).
  Proof. intros. apply (tk_bind 1 n); auto. Qed.
  Lemma tk_getst : tk 0 (@getst map).
  Proof. intros m. simpl. lia. Qed.
  Lemma tk_ret : forall {A} (a : A) n, tk n (ret a).
  Proof. intros A a n m. simpl. lia. Qed.
  Lemma tk_panic : forall {A} n, tk n (@panic map A).
  Proof. intros A n m. simpl. lia. Qed.
  Lemma tk_unwrap : forall {A} (o : option A) n, tk n (unwrap o).
  Proof. intros A [a|] n m; simpl; lia. Qed.
  Lemma tk_lre : forall h p, tk 0 (left_remove_entry E h p).
  Proof.
    intros h p m. unfold left_remove_entry, bind, getst, putst, ret.
    destruct (t_remove_entry _ _ _ _) as [[? ?]|]; simpl; lia.
  Qed.
  Lemma tk_rre : forall h p, tk 0 (right_remove_entry E h p).
  Proof.
    intros h p m. unfold right_remove_entry, bind, getst, putst, ret.
    destruct (t_remove_entry _ _ _ _) as [[? ?]|]; simpl; lia.
  Qed.
  Lemma tk_la : forall i f, tk 0 (@left_assign L R S i f).
  Proof. intros i f m. unfold left_assign, bind, getst, putst; simpl. lia. Qed.
  Lemma tk_ra : forall i f, tk 0 (@right_assign L R S i f).
  Proof. intros i f m. unfold right_assign, bind, getst, putst; simpl. lia. Qed.
  Lemma tk_li : forall h e, tk 0 (left_insert E h e).
  Proof. intros h e m. unfold left_insert, bind, getst, putst; simpl. lia. Qed.
  Lemma tk_ri : forall h e, tk 0 (right_insert E h e).
  Proof. intros h e m. unfold right_insert, bind, getst, putst; simpl. lia. Qed.
  Lemma tk_incr : tk 1 (incr_counter E).
  Proof.
    intros m. unfold incr_counter, bind, getst, putst, u64_incr.
    destruct (counter m + 1 <? two64); simpl; [lia|]. destruct (ovf E); simpl; lia.
  Qed.
  Create HintDb tkdb.
  Hint Resolve tk_getst tk_unwrap tk_lre tk_rre tk_la tk_ra tk_li tk_ri : tkdb.
  Ltac tkgo :=
    repeat (cbv beta zeta; first
      [ apply tk_ret | apply tk_panic | apply tk_unwrap | solve [eauto with tkdb]
      | match goal with
        | |- tk ?n (bind (incr_counter _) _) => apply (tk_take 0); [apply tk_incr|intros]
        | |- tk ?n (bind _ _) => apply tk_then; [solve [eauto with tkdb]|intros]
        | |- tk _ (match ?x with _ => _ end) => destruct x
        end]).
  Lemma tk_rvl : forall l, tk 0 (remove_via_left E l).
  Proof. intros. unfold remove_via_left. tkgo. Qed.
  Lemma tk_rvr : forall r, tk 0 (remove_via_right E r).
  Proof. intros. unfold remove_via_right. tkgo. Qed.
  Hint Resolve tk_rvl tk_rvr : tkdb.
  Lemma tk_insert : forall l r, tk 1 (insert E l r).
  Proof. intros. unfold insert. tkgo. Qed.
  Lemma tk_insert_left : forall l, tk 1 (insert_left E l).
  Proof. intros. unfold insert_left. tkgo. Qed.
  Lemma tk_insert_right : forall r, tk 1 (insert_right E r).
  Proof. intros. unfold insert_right. tkgo. Qed.
  Lemma tk_pair : forall l r, tk 0 (pair E l r).
  Proof. intros. unfold pair. tkgo. Qed.
  Lemma tk_pair_forced : forall l r, tk 1 (pair_forced E l r).
  Proof. intros. unfold pair_forced. tkgo. Qed.
  Lemma tk_pair_forced_remove : forall l r, tk 1 (pair_forced_remove E l r).
  Proof. intros. unfold pair_forced_remove. tkgo. Qed.
  Lemma tk_unpair : forall l r, tk 1 (unpair E l r).
  Proof. intros. unfold unpair. tkgo. Qed.
  Lemma tk_remove : forall l r, tk 0 (remove E l r).
  Proof. intros. unfold remove. tkgo. Qed.
  Lemma tk_remove_left : forall l, tk 0 (remove_left E l).
  Proof. intros. unfold remove_left. tkgo. Qed.
  Lemma tk_remove_right : forall l, tk 0 (remove_right E l).
  Proof. intros. unfold remove_right. tkgo. Qed.
  Lemma tk_eqcl : forall old new h, tk 0 (swap_left_eq_check E old new h).
  Proof. intros. unfold swap_left_eq_check. tkgo. Qed.
  Lemma tk_eqcr : forall old new h, tk 0 (swap_right_eq_check E old new h).
  Proof. intros. unfold swap_right_eq_check. tkgo. Qed.
  Lemma tk_repoint_r : forall h h' p, tk 0 (repoint_r E h h' p).
  Proof. intros. unfold repoint_r. tkgo. Qed.
  Lemma tk_repoint_l : forall h h' p, tk 0 (repoint_l E h h' p).
  Proof. intros. unfold repoint_l. tkgo. Qed.
  Hint Resolve tk_eqcl tk_eqcr tk_repoint_r tk_repoint_l : tkdb.
  Lemma tk_swap_left : forall old new, tk 0 (swap_left E old new).
  Proof.
    intros. unfold swap_left. tkgo; (apply tk_then; [tkgo|intros; tkgo]).
  Qed.
  Lemma tk_swap_right : forall old new, tk 0 (swap_right E old new).
  Proof.
    intros. unfold swap_right. tkgo; (apply tk_then; [tkgo|intros; tkgo]).
  Qed.
  Hint Resolve tk_swap_left tk_swap_right : tkdb.
  Lemma tk_extend_pairs : forall xs, tk (N.of_nat (length xs)) (extend_pairs E xs).
  Proof.
    induction xs as [|[l r] xs IH]; [apply tk_ret|].
    replace (N.of_nat (length ((l, r) :: xs))) with (1 + N.of_nat (length xs)) by (simpl length; lia).
    cbn [extend_pairs]. apply tk_bind; [apply tk_insert|]. auto.
  Qed.
  Lemma tk_extend : forall xs, tk (N.of_nat (length xs)) (extend E xs).
  Proof.
    induction xs as [|e xs IH]; [apply tk_ret|].
    replace (N.of_nat (length (e :: xs))) with (1 + N.of_nat (length xs)) by (simpl length; lia).
    destruct e; cbn [extend]; [eapply tk_more; [|exact IH]; lia| | |]; (apply tk_bind; [|auto]);
      auto using tk_insert, tk_insert_left, tk_insert_right.
  Qed.
  Lemma tk_drop_all : forall xs, tk 0 (drop_all E xs).
  Proof.
    induction xs as [|x xs IH]; [apply tk_ret|]. cbn [drop_all]. apply tk_then; [|auto].
    unfold drop_one. destruct x as [[[a|] [b|]] c]; tkgo. apply tk_then; [|intros; tkgo].
    unfold remove_via_hashes_and_id. tkgo.
  Qed.
  Lemma tk_via : forall {A} n (k : A -> out L R) (c : M map A) m, tk n c ->
    counter (fst (via k (c m))) <= counter m + n.
  Proof. intros A n k c m H. specialize (H m). destruct (c m); auto. Qed.
  Lemma retain_ids : forall {X A I} (f : X -> A -> X * verdict) (next : I -> outcome (option A * I)) key fuel it m x,
    counter (fst (via_closure (retain_with E f next key fuel it (m, x)))) <= counter m + 0.
  Proof.
    intros. unfold retain_with. destruct (retain_scan _ _ _ _ _ _) as [x' l|x']; [|simpl; lia].
    assert (X1 := tk_drop_all l m). destruct (drop_all E l m); simpl in *; lia.
  Qed.
  Lemma step_ids : forall m o, counter (fst (step E m o)) <= counter m + ids o.
  Proof.
    intros m o. destruct o; cbn [step ids]; try (apply tk_via); try (apply retain_ids); try (simpl; lia);
      auto using tk_insert, tk_insert_left, tk_insert_right, tk_pair, tk_pair_forced, tk_pair_forced_remove, tk_unpair,
        tk_remove, tk_remove_left, tk_remove_right, tk_rvl, tk_rvr, tk_swap_left, tk_swap_right, tk_extend_pairs, tk_extend.
    - unfold swap_left_checked. tkgo.
    - unfold swap_left_or_insert. apply tk_then; [apply tk_getst|]. intros m'. destruct (is_some _).
      + eapply tk_more; [|apply tk_swap_left]. lia.
      + apply (tk_bind 1 0); [apply tk_insert|]. intros. tkgo.
    - unfold swap_right_checked. tkgo.
    - unfold swap_right_or_insert. apply tk_then; [apply tk_getst|]. intros m'. destruct (is_some _).
      + eapply tk_more; [|apply tk_swap_right]. lia.
      + apply (tk_bind 1 0); [apply tk_insert|]. intros. tkgo.
    - unfold seen. destruct (iter_all E m); simpl; lia.
    - unfold seen. destruct (paired_rest _ _ _); simpl; lia.
    - unfold seen. destruct (unpaired_rest _); simpl; lia.
    - unfold seen. destruct (collect _ _ _); simpl; lia.
    - unfold seen. destruct (collect _ _ _); simpl; lia.
    - destruct (drain_nexts _ _ _) as [d a|d]; unfold drain_drop; destruct (drain_drop_fuel _ _ _); simpl; lia.
    - destruct (df_nexts _ _ _ _) as [[d x'] a|[d x']].
      + destruct leak; [simpl; lia|]. destruct (df_drop _ _ _) as [[? ?] ?|[? ?]]; simpl; lia.
      + destruct (df_drop _ _ _) as [[? ?] ?|[? ?]]; simpl; lia.
    - intros m'. simpl. lia.
    - intros m'. simpl. lia.
    - intros m'. simpl. lia.
    - intros m'. simpl. lia.
    - intros m'. simpl. lia.
    - intros m'. simpl. lia.
    - intros m'. unfold try_reserve_left. cbv [bind getst putst ret].
      destruct (t_try_resize _ (left_set m') _ _) as [? t1]; simpl; lia.
    - intros m'. unfold try_reserve_right. cbv [bind getst putst ret].
      destruct (t_try_resize _ (right_set m') _ _) as [? t1]; simpl; lia.
  Qed.
  Lemma tk_at : forall {A} n (c : M map A) m m' a, tk n c -> c m = Ret m' a -> counter m' <= counter m + n.
  Proof. intros A n c m m' a H Q. specialize (H m). rewrite Q in H. exact H. Qed.
  Lemma insert_ids : forall l r m m', P_insert E F l r m m' -> counter m' <= counter m + 1.
  Proof.
    intros l r m m' [->|[(a & Q)|(m1 & a & m2 & b & Q1 & Q2 & K)]]; [lia| |].
    - apply (tk_at 0) in Q; [lia|apply tk_rvl].
    - apply (tk_at 0) in Q1; [|apply tk_rvl]. apply (tk_at 0) in Q2; [|apply tk_rvr].
      destruct K as [->|(m3 & Q3 & K)]; [lia|]. apply (tk_at 1) in Q3; [|apply tk_incr].
      destruct K as [(t & _ & ->)|(m4 & Q4 & t & _ & ->)]; simpl; [lia|]. apply (tk_at 0) in Q4; [lia|apply tk_li].
  Qed.
  Lemma insert_left_ids : forall l m m', P_insert_left E F l m m' -> counter m' <= counter m + 1.
  Proof.
    intros l m m' [->|(m1 & a & Q1 & K)]; [lia|]. apply (tk_at 0) in Q1; [|apply tk_rvl].
    destruct K as [->|(m3 & Q3 & t & _ & ->)]; simpl; [lia|]. apply (tk_at 1) in Q3; [lia|apply tk_incr].
  Qed.
  Lemma insert_right_ids : forall r m m', P_insert_right E F r m m' -> counter m' <= counter m + 1.
  Proof.
    intros r m m' [->|(m1 & a & Q1 & K)]; [lia|]. apply (tk_at 0) in Q1; [|apply tk_rvr].
    destruct K as [->|(m3 & Q3 & t & _ & ->)]; simpl; [lia|]. apply (tk_at 1) in Q3; [lia|apply tk_incr].
  Qed.
  Lemma extend_pairs_ids : forall xs m m', P_extend_pairs E F xs m m' -> counter m' <= counter m + N.of_nat (length xs).
  Proof.
    induction xs as [|[l r] xs IH]; cbn [P_extend_pairs]; intros m m' K; [destruct K|]. simpl length.
    destruct K as [K|(m1 & d & Q & K)]; [apply insert_ids in K; lia|].
    apply (tk_at 1) in Q; [|apply tk_insert]. apply IH in K. lia.
  Qed.
  Lemma extend_ids : forall xs m m', P_extend E F xs m m' -> counter m' <= counter m + N.of_nat (length xs).
  Proof.
    induction xs as [|[|l|r|l r] xs IH]; cbn [P_extend]; intros m m' K; simpl length;
      [destruct K|apply IH in K; lia| | |]; destruct K as [K|(m1 & d & Q & K)].
    - apply insert_left_ids in K; lia.
    - apply (tk_at 1) in Q; [|apply tk_insert_left]. apply IH in K. lia.
    - apply insert_right_ids in K; lia.
    - apply (tk_at 1) in Q; [|apply tk_insert_right]. apply IH in K. lia.
    - apply insert_ids in K; lia.
    - apply (tk_at 1) in Q; [|apply tk_insert]. apply IH in K. lia.
  Qed.
  Lemma swap_left_ids : forall old new m m', P_swap_left E F old new m m' -> counter m' <= counter m.
  Proof.
    intros old new m m' [->|(m1 & a & Q1 & K)]; [lia|]. apply (tk_at 0) in Q1; [|apply tk_eqcl].
    destruct K as [->|(lp & m2 & _ & Q2 & K)]; [lia|]. apply (tk_at 0) in Q2; [|apply tk_repoint_r].
    destruct K as [->|(m3 & e & Q3 & t & _ & ->)]; simpl; [lia|].
    apply (tk_at 0) in Q3; [|apply tk_lre]. lia.
  Qed.
  Lemma swap_right_ids : forall old new m m', P_swap_right E F old new m m' -> counter m' <= counter m.
  Proof.
    intros old new m m' [->|(m1 & a & Q1 & K)]; [lia|]. apply (tk_at 0) in Q1; [|apply tk_eqcr].
    destruct K as [->|(lp & m2 & _ & Q2 & K)]; [lia|]. apply (tk_at 0) in Q2; [|apply tk_repoint_l].
    destruct K as [->|(m3 & e & Q3 & t & _ & ->)]; simpl; [lia|].
    apply (tk_at 0) in Q3; [|apply tk_rre]. lia.
  Qed.
  Definition xids (o : xop L R) : N := match o with Call o => ids o | DrainLeak _ => 0 end.
  Definition xbudget (ops : list (xop L R * fuse)) : N := fold_right (fun x n => xids (fst x) + n) 0 ops.
  Lemma u_xstep_ids : forall m o w, counter (fst (u_xstep E F m o w)) <= counter m + xids o.
  Proof.
    intros m [o|n] w; cbn [u_xstep xids].
    - destruct (u_step_cases E F m o w) as [->|(N & m' & -> & K)]; [apply step_ids|].
      cbn [fst]. destruct o; cbn [P_step ids] in *; subst; try lia;
        try (apply swap_left_ids in K; lia); try (apply swap_right_ids in K; lia);
        try (apply insert_ids in K; lia); try (apply insert_left_ids in K; lia); try (apply insert_right_ids in K; lia);
        try (apply extend_ids in K; lia); try (apply extend_pairs_ids in K; lia);
        try (destruct K as (t & _ & ->); simpl; lia).
      + destruct K as [K|K]; [apply swap_left_ids in K|apply insert_ids in K]; lia.
      + destruct K as [K|K]; [apply swap_right_ids in K|apply insert_ids in K]; lia.
      + destruct K as [(t & _ & ->)|(m1 & Q & t & _ & ->)]; simpl; [lia|]. inversion Q; subst. simpl. lia.
    - simpl. destruct (drain_nexts _ _ _); simpl; lia.
  Qed.
  Lemma u_xrun_ids : forall ops m, counter (fst (u_xrun E F m ops)) <= counter m + xbudget ops.
  Proof.
    induction ops as [|[o w] ops IH]; intros m; simpl; [lia|].
    assert (X := u_xstep_ids m o w). destruct (u_xstep E F m o w) as [m1 a]. specialize (IH m1).
    destruct (u_xrun E F m1 ops). simpl in *. lia.
  Qed.

  (* any map a program can get hold of, panics of user code included *)
  Definition survives (m : map) (ops : list (xop L R * fuse)) : Prop :=
    exists s ll lr, m = fst (u_xrun E F (with_hasher s ll lr) ops).
  Notation "a =L b" := (eqL E a b = true) (at level 70).
  Notation "a =R b" := (eqR E a b = true) (at level 70).

  (* ---- C95 ---- the two sides are sets, and lookups agree with them; iter() returns *)
  Theorem C95_sides : forall m ops, survives m ops -> exists ls rs,
    lefts m ls /\ rights m rs /\ distinct (eqL E) ls /\ distinct (eqR E) rs /\
    len_left m = length ls /\ len_right m = length rs /\ (is_empty m = true <-> ls = [] /\ rs = []) /\
    (forall l, contains_left E m l = true <-> exists l', In l' ls /\ l =L l') /\
    (forall r, contains_right E m r = true <-> exists r', In r' rs /\ r =R r') /\
    (forall l r, get_right E m l = Some r -> is_left_paired E m l = true /\ In r rs) /\
    (forall l r, get_left E m r = Some l -> is_right_paired E m r = true /\ In l ls) /\
    (forall l r, are_paired E m l r = true -> is_left_paired E m l = true /\ is_right_paired E m r = true) /\
    (forall l, is_left_paired E m l = true -> contains_left E m l = true) /\
    (forall r, is_right_paired E m r = true -> contains_right E m r = true) /\
    (exists es, iter_all E m = Done es /\ flat_map entry_l es = ls).
  Proof.
    intros m ops (s & ll & lr & ->). eapply (inv_sides E OK s).
    apply (u_xrun_inv (fun _ => True) (fun _ => True)); try apply Forall_top. apply inv_new.
  Qed.
  (* of the items handed over, and of no others *)
  Theorem C95_given : forall m ops ls rs, survives m ops -> lefts m ls -> rights m rs ->
    incl ls (flat_map (fun x => given_l (fst x)) ops) /\ incl rs (flat_map (fun x => given_r (fst x)) ops).
  Proof.
    intros m ops ls rs (s & ll & lr & ->) HL HR. apply lefts_are in HL. apply rights_are in HR. subst.
    destruct (u_xrun_inv (fun l => In l (flat_map (fun x => given_l (fst x)) ops))
                (fun r => In r (flat_map (fun x => given_r (fst x)) ops)) s ops
                (with_hasher s ll lr)) as (_ & (_ & _ & F1) & (_ & _ & F2)).
    - apply Forall_forall; auto.
    - apply Forall_forall; auto.
    - apply inv_new.
    - rewrite Forall_forall in F1, F2. split; auto.
  Qed.
  (* clear() mends it all *)
  Theorem C95_clear : forall m ops k, survives m ops -> xbudget ops + k < two64 ->
    exists m', clear E m = Ret m' tt /\ behaves_as E k m' [].
  Proof.
    intros m ops k (s & ll & lr & ->) B. set (m := fst _). eexists. split; [reflexivity|].
    assert (I1 : Inv E (fun _ => True) (fun _ => True) s m)
      by (apply u_xrun_inv; try apply Forall_top; apply inv_new).
    assert (C1 : counter m <= 0 + xbudget ops) by apply (u_xrun_ids ops (with_hasher s ll lr)).
    eapply (repr_behaves E OK s (counter m)); [|lia]. exists []. split; auto.
    constructor; simpl; auto using NoDup_nil.
    - apply I1.
    - intros ? [].
    - split; [apply distinct_nil|]. split; [apply distinct_nil|]. intros [].
  Qed.
End FaultAny.

(* ---- a case: panics in an insert and a reserve that lose buckets, and in a swap; then
   clear() ---- *)
Definition wild_ops : list (xop item item * fuse) :=
  [(Call (ReserveLeft 2), None); (Call (ReserveRight 2), None); (Call (Insert (it 1) (it 1)), None);
   (Call (Insert (it 2) (it 2)), None); (Call (Insert (it 9) (it 9)), Some 11%nat); (Call (SwapLeft (it 2) (it 5)), Some 4%nat);
   (Call (ReserveLeft 7), Some 1%nat); (Call (InsertLeft (it 3)), None)].
Definition wild_map : pmap item item N := fst (u_xrun env_room f_in_place (with_hasher 0 0 0) wild_ops).
Example C95_case :
  survives env_room f_in_place wild_map wild_ops /\ xbudget wild_ops = 4 /\
  snd (u_xrun env_room f_in_place (with_hasher 0 0 0) wild_ops) =
    [OUnit; OUnit; OIns (Neither, Neither); OIns (Neither, Neither); OPanic; OPanic; OPanic; OEntry Neither] /\
  List.map (contains_left env_room wild_map) [it 1; it 2; it 3; it 5; it 9] = [false; false; true; false; true] /\
  List.map (contains_right env_room wild_map) [it 1; it 2; it 3; it 5; it 9] = [false; true; false; false; false] /\
  List.map (get_right env_room wild_map) [it 1; it 2; it 3; it 9] = [None; None; None; None] /\
  List.map (is_left_paired env_room wild_map) [it 1; it 2; it 3; it 9] = [false; false; false; true] /\
  iter_all env_room wild_map = Done [SomeLeft (it 3); SomeLeft (it 9)] /\
  paired_rest env_room wild_map (iter_paired wild_map) = Panicked /\
  snd (run env_room wild_map [Clear; IterAll; Insert (it 1) (it 2); IterAll])
    = [OUnit; OEntries []; OIns (Neither, Neither); OEntries [SomeBoth (it 1) (it 2)]].
Proof. split; [exists 0, 0, 0; reflexivity|]. run_all. Qed.

Print Assumptions C95_sides.
Print Assumptions C95_given.
Print Assumptions C95_clear.
