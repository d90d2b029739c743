(* CycleMap: what holds after any history of calls in which any Hash, Eq or closure may have
   panicked, tables may have lost buckets, and drain iterators were dropped early (C92). *)
From Coq Require Import List NArith Lia Bool Permutation PeanoNat.
From Verif Require Import Closures Prelude RawTable Optionals CycleMap ListFacts TableFacts SoundTables
  CycleMapSpec CycleMapHistory CycleMapProofs CycleMapProofs2 CycleMapProofs3 CycleMapHistoryProofs
  Concrete CycleMapProps CycleMapProps2 CycleMapAny
  Faults FaultTables CycleMapFault CycleMapFaultProofs CycleMapFaultProps.
Import ListNotations.
Open Scope N_scope.

Section FaultAny.
  Context {L R S : Type}.
  Variable E : env L R S.
  Hypothesis OK : lawful E.
  Variable F : fault.
  Hypothesis FO : fault_ok F.
  Notation map := (cmap L R S).
  Let EL := eqL_equiv _ OK.
  Let ER := eqR_equiv _ OK.

  Section Inv.
  Variable GL : L -> Prop.
  Variable GR : R -> Prop.
  Variable s : S.
  Notation Inv := (Inv E GL GR s).
  Notation ab := (ab E).

  Lemma lost_l_inv : forall c m m', Inv m -> lost_l E F c m m' -> Inv m'.
  Proof.
    intros c m m' (H1 & H2 & H3) (t & SP & ->). apply (spoilt_torn _ _ FO) in SP.
    split; [assumption|]. split; [|assumption]. eapply sound_torn; eauto.
  Qed.
  Lemma lost_r_inv : forall c m m', Inv m -> lost_r E F c m m' -> Inv m'.
  Proof.
    intros c m m' (H1 & H2 & H3) (t & SP & ->). apply (spoilt_torn _ _ FO) in SP.
    split; [assumption|]. split; [assumption|]. eapply sound_torn; eauto.
  Qed.
  Lemma by_hoare : forall {A} (c : M map A) P Q m m' a, SoundTables.hoare Inv P c Q -> Inv m -> P m ->
    c m = Ret m' a -> Inv m' /\ Q a m'.
  Proof. intros A c P Q m m' a H I1 P1 E1. specialize (H m I1 P1). rewrite E1 in H. auto. Qed.

  Lemma insert_inv : forall l r m m', GL l -> GR r -> Inv m -> P_insert E F l r m m' -> Inv m'.
  Proof.
    intros l r m m' Gl Gr I0 [->|[(a & Q)|(m1 & a & m2 & b & Q1 & Q2 & K)]]; auto.
    - eapply (by_hoare _ _ _ _ _ _ (rvl E OK GL GR s l [] [])) in Q; eauto; [tauto|apply ab_nil].
    - eapply (by_hoare _ _ _ _ _ _ (rvl E OK GL GR s l [] [])) in Q1 as [I1 A1]; eauto; [|apply ab_nil].
      eapply (by_hoare _ _ _ _ _ _ (rvr E OK GL GR s r [l] [])) in Q2 as [I2 A2]; eauto.
      destruct K as [->|(m3 & Q3 & K)]; auto.
      eapply (by_hoare _ _ _ _ _ _ (incr_any E GL GR s [l] [r])) in Q3 as [I3 A3]; eauto.
      destruct K as [K|(m4 & Q4 & K)]; [eapply lost_l_inv; eauto|].
      rewrite (hb E GL GR s _ I2) in Q4.
      eapply (by_hoare _ _ _ _ _ _ (l_insert E OK GL GR s l _ _ [] [r] Gl)) in Q4 as [I4 A4]; eauto.
      eapply lost_r_inv; eauto.
  Qed.
  Lemma extend_inv : forall xs m m', Forall GL (List.map fst xs) -> Forall GR (List.map snd xs) ->
    Inv m -> P_extend E F xs m m' -> Inv m'.
  Proof.
    induction xs as [|[l r] xs IH]; simpl; intros m m' FL FR I0 K; [destruct K|].
    inversion FL; inversion FR; subst. destruct K as [K|(m1 & d & Q & K)]; [eapply insert_inv; eauto|].
    eapply (by_hoare _ _ _ _ _ _ (insert_any E OK GL GR s l r ltac:(auto) ltac:(auto))) in Q as [I1 _]; eauto; apply ab_nil.
  Qed.
  Lemma swap_left_inv : forall old new m m', Inv m -> P_swap_left E F old new m m' -> Inv m'.
  Proof.
    intros old new m m' I0 [->|(m1 & a & Q1 & K)]; auto. rewrite (hb E GL GR s _ I0) in Q1.
    eapply (by_hoare _ _ _ _ _ _ (eqc_l E OK GL GR s old new)) in Q1 as [I1 _]; eauto; [|apply ab_nil].
    destruct K as [->|(lp & i & G & FI & K)]; auto.
    assert (I2 : Inv (repoint_r m1 lp i (hashL E (hash_builder m) new))) by (apply inv_modify_r; auto).
    destruct K as [->|(m3 & e & Q3 & K)]; auto.
    eapply (by_hoare _ _ _ _ _ _ (l_remove_any E GL GR s _ _ [] [])) in Q3 as [I3 _]; eauto; [|apply ab_nil].
    eapply lost_l_inv; eauto.
  Qed.
  Lemma swap_right_inv : forall old new m m', Inv m -> P_swap_right E F old new m m' -> Inv m'.
  Proof.
    intros old new m m' I0 [->|(m1 & a & Q1 & K)]; auto. rewrite (hb E GL GR s _ I0) in Q1.
    eapply (by_hoare _ _ _ _ _ _ (eqc_r E OK GL GR s old new)) in Q1 as [I1 _]; eauto; [|apply ab_nil].
    destruct K as [->|(rp & i & G & FI & K)]; auto.
    assert (I2 : Inv (repoint_l m1 rp i (hashR E (hash_builder m1) new))) by (apply inv_modify_l; auto).
    destruct K as [->|(m3 & e & Q3 & K)]; auto.
    eapply (by_hoare _ _ _ _ _ _ (r_remove_any E GL GR s _ _ [] [])) in Q3 as [I3 _]; eauto; [|apply ab_nil].
    eapply lost_r_inv; eauto.
  Qed.
  Lemma resize_inv : forall z m m', Inv m -> P_resize E F z m m' -> Inv m'.
  Proof.
    intros z m m' I0 [K|K]; [eapply lost_l_inv; eauto|]. eapply lost_r_inv; [|exact K].
    destruct I0 as (H1 & H2 & H3). split; [assumption|]. split; [|assumption]. simpl. rewrite H1.
    eapply sound_perm; [exact EL| |exact H2]. symmetry. apply (t_resize_perm _ (lo_ok E OK)). apply H2.
  Qed.
  Lemma u_xstep_inv : forall o w m, Forall GL (given_l o) -> Forall GR (given_r o) -> Inv m ->
    Inv (fst (u_xstep E F m o w)).
  Proof.
    intros [o|n] w m FL FR I0; [|apply (xstep_any E OK); auto]. cbn [u_xstep].
    destruct (u_step_cases E F (lo_ok E OK) m o w) as [->|(N & m' & -> & K)].
    - exact (xstep_any E OK GL GR s (Call o) m FL FR I0).
    - cbn [fst]. destruct o; cbn [P_step given_l given_r] in *; subst; auto;
        repeat match goal with H : Forall _ [_] |- _ => inversion H; clear H; subst end;
        try (eapply swap_left_inv; eassumption); try (eapply swap_right_inv; eassumption);
        try (eapply resize_inv; eassumption); try (eapply insert_inv; eassumption);
        try (eapply extend_inv; eassumption).
      + destruct K; [eapply swap_left_inv; eassumption|eapply insert_inv; eassumption].
      + destruct K; [eapply swap_right_inv; eassumption|eapply insert_inv; eassumption].
  Qed.
  Lemma u_xrun_inv : forall ops m, Forall GL (flat_map (fun x => given_l (fst x)) ops) ->
    Forall GR (flat_map (fun x => given_r (fst x)) ops) -> Inv m -> Inv (fst (u_xrun E F m ops)).
  Proof.
    induction ops as [|[o w] ops IH]; simpl; intros m FL FR I0; auto.
    apply Forall_app in FL as [FL1 FL2]. apply Forall_app in FR as [FR1 FR2].
    assert (X := u_xstep_inv o w m FL1 FR1 I0). destruct (u_xstep E F m o w) as [m1 a].
    specialize (IH m1 FL2 FR2 X). destruct (u_xrun E F m1 ops). auto.
  Qed.
  End Inv.

  (* ids taken *)
  Definition tk {A} (n : N) (c : M map A) (m : map) : Prop := counter (res_state (c m)) <= counter m + n.
  Lemma tk_bind : forall {A B} n1 n2 (c : M map A) (k : A -> M map B) m, tk n1 c m ->
    (forall m' a, c m = Ret m' a -> tk n2 (k a) m') -> tk (n1 + n2) (bind c k) m.
  Proof.
    intros A B n1 n2 c k m H1 H2. unfold tk, bind in *. destruct (c m) as [m' a|m']; simpl in *; [|lia].
    specialize (H2 m' a eq_refl). lia.
  Qed.
  Lemma tk_more : forall {A} n1 n2 (c : M map A) m, n1 <= n2 -> tk n1 c m -> tk n2 c m.
  Proof. unfold tk. intros. lia. Qed.
  Lemma tk_get : forall {B} n (k : map -> M map B) m, tk n (k m) m -> tk n (bind getst k) m.
  Proof. auto. Qed.
  Lemma tk_ret : forall {A} (a : A) m, tk 0 (ret a) m.
  Proof. intros. unfold tk. simpl. lia. Qed.
  Lemma tk_unwrap : forall {A} (o : option A) m, tk 0 (unwrap o) m.
  Proof. intros A [a|] m; unfold tk; simpl; lia. Qed.
  Lemma tk_then : forall {A B} n (c : M map A) (k : A -> M map B) m, tk 0 c m ->
    (forall m' a, tk n (k a) m') -> tk n (bind c k) m.
  Proof. intros. apply (tk_bind 0 n); auto. Qed.
  Lemma tk_lre : forall h p m, tk 0 (left_remove_entry E h p) m.
  Proof.
    intros. unfold tk, left_remove_entry, bind, getst, putst, ret.
    destruct (t_remove_entry _ _ _ _) as [[? ?]|]; simpl; lia.
  Qed.
  Lemma tk_rre : forall h p m, tk 0 (right_remove_entry E h p) m.
  Proof.
    intros. unfold tk, right_remove_entry, bind, getst, putst, ret.
    destruct (t_remove_entry _ _ _ _) as [[? ?]|]; simpl; lia.
  Qed.
  Lemma tk_rvl : forall l m, tk 0 (remove_via_left E l) m.
  Proof.
    intros. unfold remove_via_left. apply tk_get. apply tk_then; [apply tk_lre|]. intros m' [lp|]; [|apply tk_ret].
    apply tk_then; [apply tk_rre|]. intros. apply tk_then; [apply tk_unwrap|]. intros. apply tk_ret.
  Qed.
  Lemma tk_rvr : forall r m, tk 0 (remove_via_right E r) m.
  Proof.
    intros. unfold remove_via_right. apply tk_get. apply tk_then; [apply tk_rre|]. intros m' [lp|]; [|apply tk_ret].
    apply tk_then; [apply tk_lre|]. intros. apply tk_then; [apply tk_unwrap|]. intros. apply tk_ret.
  Qed.
  Lemma tk_incr : forall m, tk 1 (incr_counter E) m.
  Proof.
    intros. unfold incr_counter, tk, bind, getst, putst, u64_incr.
    destruct (counter m + 1 <? two64); simpl; [lia|]. destruct (ovf E); simpl; lia.
  Qed.
  Lemma tk_li : forall h e m, tk 0 (left_insert E h e) m.
  Proof. intros. unfold tk, left_insert, bind, getst, putst; simpl. lia. Qed.
  Lemma tk_ri : forall h e m, tk 0 (right_insert E h e) m.
  Proof. intros. unfold tk, right_insert, bind, getst, putst; simpl. lia. Qed.
  Lemma tk_insert : forall l r m, tk 1 (insert E l r) m.
  Proof.
    intros. unfold insert. apply tk_then; [apply tk_rvl|]. intros. apply tk_then; [apply tk_rvr|]. intros.
    apply tk_get. apply (tk_bind 1 0); [apply tk_incr|]. intros. apply tk_then; [apply tk_li|]. intros.
    apply tk_then; [apply tk_ri|]. intros. apply tk_ret.
  Qed.
  Lemma tk_eqcl : forall old new h m, tk 0 (swap_left_eq_check E old new h) m.
  Proof.
    intros. unfold swap_left_eq_check. apply tk_get. destruct (t_get _ _ _ _); [|apply tk_ret].
    destruct (negb _); [apply tk_rvl|apply tk_ret].
  Qed.
  Lemma tk_eqcr : forall old new h m, tk 0 (swap_right_eq_check E old new h) m.
  Proof.
    intros. unfold swap_right_eq_check. apply tk_get. destruct (t_get _ _ _ _); [|apply tk_ret].
    destruct (negb _); [apply tk_rvr|apply tk_ret].
  Qed.
  Lemma tk_swap_left : forall old new m, tk 0 (swap_left E old new) m.
  Proof.
    intros. unfold swap_left. apply tk_get. apply tk_then; [apply tk_eqcl|]. intros m1 a. apply tk_get.
    destruct (t_get _ _ _ _) as [lp|]; [|apply tk_ret]. destruct (t_find _ _ _ _) as [i|]; [|unfold tk; simpl; lia].
    match goal with |- tk 0 (bind (unwrap (Some i)) ?k) m1 => change (tk 0 (k i) m1) end. cbv beta.
    apply tk_then; [unfold tk; simpl; lia|]. intros. apply tk_then; [apply tk_lre|]. intros.
    apply tk_then; [apply tk_unwrap|]. intros. apply tk_then; [apply tk_li|]. intros. apply tk_ret.
  Qed.
  Lemma tk_swap_right : forall old new m, tk 0 (swap_right E old new) m.
  Proof.
    intros. unfold swap_right. apply tk_get. apply tk_then; [apply tk_eqcr|]. intros m1 a. apply tk_get.
    destruct (t_get _ _ _ _) as [lp|]; [|apply tk_ret]. destruct (t_find _ _ _ _) as [i|]; [|unfold tk; simpl; lia].
    match goal with |- tk 0 (bind (unwrap (Some i)) ?k) m1 => change (tk 0 (k i) m1) end. cbv beta zeta.
    apply tk_then; [unfold tk; simpl; lia|]. intros. apply tk_then; [apply tk_rre|]. intros.
    apply tk_then; [apply tk_unwrap|]. intros. apply tk_then; [apply tk_ri|]. intros. apply tk_ret.
  Qed.
  Lemma tk_extend : forall xs m, tk (N.of_nat (length xs)) (extend E xs) m.
  Proof.
    induction xs as [|[l r] xs IH]; intros m; [apply tk_ret|].
    replace (N.of_nat (length ((l, r) :: xs))) with (1 + N.of_nat (length xs)) by (simpl length; lia).
    cbn [extend]. apply tk_bind; [apply tk_insert|]. auto.
  Qed.
  Lemma tk_drop_all : forall xs m, tk 0 (drop_all E xs) m.
  Proof.
    induction xs as [|[[a b] c] xs IH]; intros m; [apply tk_ret|]. cbn [drop_all].
    apply tk_then; [|auto]. unfold remove_via_hashes_and_id. apply tk_then; [apply tk_lre|].
    intros m' [lp|]; [|apply tk_ret]. apply tk_then; [apply tk_rre|]. intros. apply tk_then; [apply tk_unwrap|].
    intros. apply tk_ret.
  Qed.
  Lemma tk_via : forall {A} n (k : A -> out L R) (c : M map A) m, tk n c m ->
    counter (fst (via k (c m))) <= counter m + n.
  Proof. unfold tk. intros A n k c m H. destruct (c m); auto. Qed.
  Lemma step_ids : forall m o, counter (fst (step E m o)) <= counter m + ids o.
  Proof.
    intros m o. destruct o; cbn [step ids]; try (apply tk_via); try (simpl; lia).
    - apply tk_insert.
    - unfold remove. apply tk_get. destruct (are_paired _ _ _ _); [apply tk_rvl|apply tk_ret].
    - apply tk_rvl.
    - apply tk_rvr.
    - apply tk_swap_left.
    - unfold swap_left_checked. apply tk_get. destruct (negb _); [apply tk_ret|apply tk_swap_left].
    - unfold swap_left_or_insert. apply tk_get. destruct (t_get _ _ _ _).
      + eapply tk_more; [|apply tk_swap_left]. lia.
      + apply (tk_bind 1 0); [apply tk_insert|]. intros. apply tk_ret.
    - apply tk_swap_right.
    - unfold swap_right_checked. apply tk_get. destruct (negb _); [apply tk_ret|apply tk_swap_right].
    - unfold swap_right_or_insert. apply tk_get. destruct (t_get _ _ _ _).
      + eapply tk_more; [|apply tk_swap_right]. lia.
      + apply (tk_bind 1 0); [apply tk_insert|]. intros m' [| | |] _; try apply tk_ret; unfold tk; simpl; lia.
    - unfold seen. destruct (iter_all E m); simpl; lia.
    - unfold seen. destruct (collect _ _ _); simpl; lia.
    - unfold seen. destruct (collect _ _ _); simpl; lia.
    - apply tk_extend.
    - unfold retain. destruct (retain_scan _ _ _ _ _ _) as [x' l|x']; [|simpl; lia].
      assert (XD := tk_drop_all l m). unfold tk in XD. destruct (drop_all E l m); simpl in *; lia.
    - destruct (drain_nexts _ _ _); simpl; lia.
    - destruct (df_nexts _ _ _ _) as [[d x'] a|[d x']].
      + destruct leak; [simpl; lia|]. destruct (df_drop _ _ _) as [[? ?] ?|[? ?]]; simpl; lia.
      + destruct (df_drop _ _ _) as [[? ?] ?|[? ?]]; simpl; lia.
    - unfold tk. simpl. lia.
    - unfold tk. simpl. lia.
    - unfold tk. simpl. lia.
    - unfold tk. simpl. lia.
    - unfold tk, try_reserve. cbv [bind getst putst ret].
      destruct (t_try_resize _ (left_set m) _ _) as [[|] t1]; simpl; [|lia].
      destruct (t_try_resize _ (right_set m) _ _) as [[|] t2]; simpl; lia.
  Qed.
  Lemma tk_at : forall {A} n (c : M map A) m m' a, tk n c m -> c m = Ret m' a -> counter m' <= counter m + n.
  Proof. unfold tk. intros A n c m m' a H Q. rewrite Q in H. exact H. Qed.
  Lemma insert_ids : forall l r m m', P_insert E F l r m m' -> counter m' <= counter m + 1.
  Proof.
    intros l r m m' [->|[(a & Q)|(m1 & a & m2 & b & Q1 & Q2 & K)]]; [lia| |].
    - apply (tk_at 0) in Q; [lia|apply tk_rvl].
    - apply (tk_at 0) in Q1; [|apply tk_rvl]. apply (tk_at 0) in Q2; [|apply tk_rvr].
      destruct K as [->|(m3 & Q3 & K)]; [lia|]. apply (tk_at 1) in Q3; [|apply tk_incr].
      destruct K as [(t & _ & ->)|(m4 & Q4 & t & _ & ->)]; simpl; [lia|]. apply (tk_at 0) in Q4; [lia|apply tk_li].
  Qed.
  Lemma extend_ids : forall xs m m', P_extend E F xs m m' -> counter m' <= counter m + N.of_nat (length xs).
  Proof.
    induction xs as [|[l r] xs IH]; cbn [P_extend]; intros m m' K; [destruct K|]. simpl length.
    destruct K as [K|(m1 & d & Q & K)]; [apply insert_ids in K; lia|].
    apply (tk_at 1) in Q; [|apply tk_insert]. apply IH in K. lia.
  Qed.
  Lemma swap_left_ids : forall old new m m', P_swap_left E F old new m m' -> counter m' <= counter m.
  Proof.
    intros old new m m' [->|(m1 & a & Q1 & K)]; [lia|]. apply (tk_at 0) in Q1; [|apply tk_eqcl].
    destruct K as [->|(lp & i & _ & _ & K)]; [lia|]. destruct K as [->|(m3 & e & Q3 & t & _ & ->)]; simpl; [lia|].
    apply (tk_at 0) in Q3; [|apply tk_lre]. simpl in Q3. lia.
  Qed.
  Lemma swap_right_ids : forall old new m m', P_swap_right E F old new m m' -> counter m' <= counter m.
  Proof.
    intros old new m m' [->|(m1 & a & Q1 & K)]; [lia|]. apply (tk_at 0) in Q1; [|apply tk_eqcr].
    destruct K as [->|(lp & i & _ & _ & K)]; [lia|]. destruct K as [->|(m3 & e & Q3 & t & _ & ->)]; simpl; [lia|].
    apply (tk_at 0) in Q3; [|apply tk_rre]. simpl in Q3. lia.
  Qed.
  Definition xids (o : xop L R) : N := match o with Call o => ids o | DrainN _ => 0 end.
  Definition xbudget (ops : list (xop L R * fuse)) : N := fold_right (fun x n => xids (fst x) + n) 0 ops.
  Lemma u_xstep_ids : forall m o w, counter (fst (u_xstep E F m o w)) <= counter m + xids o.
  Proof.
    intros m [o|n] w; cbn [u_xstep xids].
    - destruct (u_step_cases E F (lo_ok E OK) m o w) as [->|(N & m' & -> & K)]; [apply step_ids|].
      cbn [fst]. destruct o; cbn [P_step ids] in *; subst; try lia;
        try (apply swap_left_ids in K; lia); try (apply swap_right_ids in K; lia);
        try (apply insert_ids in K; lia); try (apply extend_ids in K; lia);
        try (destruct K as [(t & _ & ->)|(t & _ & ->)]; simpl; lia).
      + destruct K as [K|K]; [apply swap_left_ids in K|apply insert_ids in K]; lia.
      + destruct K as [K|K]; [apply swap_right_ids in K|apply insert_ids in K]; lia.
    - simpl. destruct (drain_nexts _ _ _); simpl; lia.
  Qed.
  Lemma u_xrun_ids : forall ops m, counter (fst (u_xrun E F m ops)) <= counter m + xbudget ops.
  Proof.
    induction ops as [|[o w] ops IH]; intros m; simpl; [lia|].
    assert (X := u_xstep_ids m o w). destruct (u_xstep E F m o w) as [m1 a]. specialize (IH m1).
    destruct (u_xrun E F m1 ops). simpl in *. lia.
  Qed.

  (* any map a program can get hold of, panics of user code included *)
  Definition survives (m : map) (ops : list (xop L R * fuse)) : Prop :=
    exists s ll lr, m = fst (u_xrun E F (with_hasher s ll lr) ops).
  Notation "a =L b" := (eqL E a b = true) (at level 70).
  Notation "a =R b" := (eqR E a b = true) (at level 70).

  (* ---- C92 ---- the two sides are sets, and lookups agree with them *)
  Theorem C92_sides : forall m ops, survives m ops -> exists ls rs,
    lefts m ls /\ rights m rs /\ distinct (eqL E) ls /\ distinct (eqR E) rs /\
    len m = length ls /\ (is_empty m = true <-> ls = []) /\
    (forall l, contains_left E m l = true <-> exists l', In l' ls /\ l =L l') /\
    (forall r, contains_right E m r = true <-> exists r', In r' rs /\ r =R r') /\
    (forall l r, get_right E m l = Some r -> contains_left E m l = true /\ In r rs) /\
    (forall l r, get_left E m r = Some l -> contains_right E m r = true /\ In l ls) /\
    (forall l r, are_paired E m l r = true -> contains_left E m l = true /\ contains_right E m r = true).
  Proof.
    intros m ops (s & ll & lr & ->). eapply (inv_sides E OK s).
    apply (u_xrun_inv (fun _ => True) (fun _ => True)); try apply Forall_top. apply inv_new.
  Qed.
  (* of the items handed over, and of no others *)
  Theorem C92_given : forall m ops ls rs, survives m ops -> lefts m ls -> rights m rs ->
    incl ls (flat_map (fun x => given_l (fst x)) ops) /\ incl rs (flat_map (fun x => given_r (fst x)) ops).
  Proof.
    intros m ops ls rs (s & ll & lr & ->) HL HR. apply lefts_are in HL. apply rights_are in HR. subst.
    destruct (u_xrun_inv (fun l => In l (flat_map (fun x => given_l (fst x)) ops))
                (fun r => In r (flat_map (fun x => given_r (fst x)) ops)) s ops
                (with_hasher s ll lr)) as (_ & (_ & _ & F1) & (_ & _ & F2)).
    - apply Forall_forall; auto.
    - apply Forall_forall; auto.
    - apply inv_new.
    - rewrite Forall_forall in F1, F2. split; auto.
  Qed.
  (* clear() mends it all *)
  Theorem C92_clear : forall m ops k, survives m ops -> xbudget ops + k < two64 ->
    exists m', clear E m = Ret m' tt /\ behaves_as E k m' [].
  Proof.
    intros m ops k (s & ll & lr & ->) B. set (m := fst _). eexists. split; [reflexivity|].
    assert (I1 : Inv E (fun _ => True) (fun _ => True) s m)
      by (apply u_xrun_inv; try apply Forall_top; apply inv_new).
    assert (C1 : counter m <= 0 + xbudget ops) by apply (u_xrun_ids ops (with_hasher s ll lr)).
    eapply (repr_behaves E OK s (counter m)); [|lia]. exists []. split; auto.
    constructor; simpl; auto using NoDup_nil.
    - apply I1.
    - intros ? [].
    - apply distinct_nil.
    - apply distinct_nil.
  Qed.
End FaultAny.

(* ---- a case: panics in an insert and a reserve that lose buckets, and in a swap; then
   clear() ---- *)
Definition wild_ops : list (xop item item * fuse) :=
  [(Call (Reserve 2), None); (Call (Insert (it 1) (it 1)), None); (Call (Insert (it 2) (it 2)), None);
   (Call (Insert (it 9) (it 9)), Some 11%nat); (Call (Reserve 7), Some 2%nat);
   (Call (SwapLeft (it 2) (it 5)), Some 4%nat); (Call (Insert (it 3) (it 3)), None)].
Definition wild_map : cmap item item N := fst (u_xrun env_room f_in_place (with_hasher 0 0 0) wild_ops).
Example C92_case :
  survives env_room f_in_place wild_map wild_ops /\ xbudget wild_ops = 4 /\
  List.map (contains_left env_room wild_map) [it 1; it 2; it 3; it 9] = [false; true; true; true] /\
  List.map (contains_right env_room wild_map) [it 1; it 2; it 3; it 9] = [false; true; true; false] /\
  List.map (get_right env_room wild_map) [it 1; it 2; it 3; it 9] = [None; Some (it 2); Some (it 3); None] /\
  iter_all env_room wild_map = Panicked /\
  snd (run env_room wild_map [Clear; IterAll; Insert (it 1) (it 2); IterAll])
    = [OUnit; OPairs []; OIns Neither; OPairs [(it 1, it 2)]].
Proof. split; [exists 0, 0, 0; reflexivity|]. run_all. Qed.

Print Assumptions C92_sides.
Print Assumptions C92_given.
Print Assumptions C92_clear.
