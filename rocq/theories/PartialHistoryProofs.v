(* The PartialCycleMap model refines the list spec along every guarded history. *)
From Coq Require Import List NArith Lia Bool Permutation PeanoNat.
From Verif Require Import Closures Prelude RawTable Optionals PartialCycleMap ListFacts TableFacts
  PartialSpec PartialHistory IterFacts PartialProofs PartialProofs2 PartialProofs3 PartialProofs4
  PartialProofs5 PartialProofs6 PartialProofs7 PartialProofs8.
Import ListNotations.
Open Scope N_scope.

Section HistoryProofs.
  Context {L R S : Type}.
  Variable E : env L R S.
  Hypothesis OK : lawful E.
  Notation Repr := (Repr E).
  Notation entry := (optional_pair L R).
  Notation s_step := (s_step (eqL E) (eqR E)).
  Notation s_run := (s_run (eqL E) (eqR E)).

  Lemma collect_single : forall {T} (it : list (N * mapping_pair T)),
    collect single_next (length it) it = Done (map (fun x => value (snd x)) it).
  Proof. induction it as [|[h x] it IH]; simpl; auto. rewrite IH. auto. Qed.

  Lemma keep_visits : forall P, ~ In Neither P ->
    Permutation (flat_map keep (map VE (filter has_left_item P)
                                ++ map VR (filter (fun e : entry => is_some (op_get_right e)) P))) P.
  Proof.
    intros P NN. rewrite flat_map_app.
    assert (KE : forall K : list entry, flat_map keep (map VE K) = K).
    { induction K; simpl; auto. f_equal; auto. }
    rewrite KE. symmetry. etransitivity; [apply (filter_split_perm has_left_item)|].
    apply Permutation_app_head.
    assert (Q : filter (fun x : entry => negb (has_left_item x)) P
            = flat_map keep (map VR (filter (fun e : entry => is_some (op_get_right e)) P))).
    { induction P as [|e P IH]; auto. assert (NN' : ~ In Neither P) by (intro; apply NN; right; auto).
      cbn [filter]. destruct e; simpl; rewrite IH; auto. exfalso; apply NN; left; auto. }
    rewrite Q. auto.
  Qed.

  (* what the closure takes in the right table is unpaired *)
  Lemma taken_kept : forall {X} (f : X -> entry -> X * verdict) vs xt x' yes no pn,
    (forall e, In (VR e) vs -> spares f e /\ op_get_right e <> None) ->
    s_filter (on_visit (eqR E) f) xt vs = (x', yes, no, pn) ->
    flat_map keep yes = map shown yes.
  Proof.
    induction vs as [|v vs IH]; intros xt x' yes no pn H F; cbn [s_filter] in F.
    - inversion F; auto.
    - assert (H' : forall e, In (VR e) vs -> spares f e /\ op_get_right e <> None)
        by (intros; apply H; right; auto).
      assert (HV := H). specialize (IH).
      destruct (on_visit (eqR E) f xt v) as [xt1 [b|]] eqn:Q; [|inversion F; auto].
      destruct (s_filter (on_visit (eqR E) f) xt1 vs) as [[[x2 y] n] p] eqn:G.
      apply IH in G; auto. destruct b; inversion F; subst; auto.
      cbn [flat_map map]. rewrite G.
      destruct v as [e|e]; auto. cbn [shown keep]. cbn [on_visit] in Q.
      destruct (H e (or_introl eq_refl)) as [SP NR].
      destruct (op_get_right e) as [r|] eqn:HR; [|easy].
      destruct (existsb _ _); [inversion Q|].
      assert (S1 := SP (fst xt) r). destruct (f (fst xt) (SomeRight r)) as [x1 b]. inversion Q; subst.
      cbn [snd] in S1. destruct (has_left_item e) eqn:HL; [exfalso; apply S1; auto|].
      unfold has_left_item in HL. destruct e; simpl in *; try discriminate. inversion HR; subst. auto.
  Qed.

  Ltac done1 := do 2 eexists; split; [split; reflexivity|]; split; [eassumption|lia].

  Theorem step_ok : forall s c m P o, Repr s c m P -> c + ids o < two64 -> guard E m o ->
    exists P' c', s_step P o P' (snd (step E m o)) /\ Repr s c' (fst (step E m o)) P' /\
                  c' <= c + ids o.
  Proof.
    intros s c m P o H B G.
    destruct o; cbn [step ids PartialHistory.s_step guard] in *.
    - destruct (insert_ok E OK s c m P l r H) as (m' & -> & H'); [lia|]. cbn. done1.
    - destruct (insert_left_ok E OK s c m P l H) as (m' & -> & H'); [lia|]. cbn. done1.
    - destruct (insert_right_ok E OK s c m P r H) as (m' & -> & H'); [lia|]. cbn. done1.
    - destruct (pair_ok E OK s c m P l r H) as (m' & -> & H'). cbn. done1.
    - destruct (pair_forced_ok E OK s c m P l r H) as (m' & c' & -> & _ & C & H'); [lia|]. cbn. done1.
    - destruct (pair_forced_remove_ok E OK s c m P l r H) as (m' & c' & -> & _ & C & H'); [lia|]. cbn. done1.
    - destruct (unpair_ok E OK s c m P l r H) as (m' & c' & -> & _ & C & H'); [lia| |cbn; done1].
      intros a b a' b' F1 F2 Q1 Q2.
      rewrite (get_right_spec E OK s c m P l H), (get_left_spec E OK s c m P r H),
        (are_paired_spec E OK s c m P l r H) in G.
      assert (HB : hash_builder m = s) by (destruct H as (Z & HZ & _); apply (rep_hb _ _ _ _ _ HZ)).
      rewrite HB in G. apply (G a' b'); auto.
      + unfold s_get_right. rewrite F1. auto.
      + unfold s_get_left. rewrite F2. auto.
    - destruct (remove_ok E OK s c m P l r H) as (m' & -> & H'). cbn. done1.
    - destruct (remove_left_ok E OK s c m P l H) as (m' & -> & H'). cbn. done1.
    - destruct (remove_right_ok E OK s c m P r H) as (m' & -> & H'). cbn. done1.
    - destruct (remove_via_left_ok E OK s c m P l H) as (m' & -> & H'). cbn. done1.
    - destruct (remove_via_right_ok E OK s c m P r H) as (m' & -> & H'). cbn. done1.
    - destruct (swap_left_ok E OK s c m P old new H) as (m' & -> & H'). cbn. done1.
    - destruct (swap_left_checked_ok E OK s c m P old expected new H) as (m' & -> & H').
      cbn. destruct (s_are_paired (eqL E) (eqR E) P old expected); done1.
    - assert (Q := swap_left_or_insert_ok E OK s c m P old new to_insert H).
      destruct (s_contains_left (eqL E) P old).
      + destruct Q as (m' & -> & H'); [lia|]. cbn. done1.
      + destruct Q as (m' & H' & ->); [lia|]. destruct (s_contains_left (eqL E) P new); cbn; done1.
    - destruct (swap_right_ok E OK s c m P old new H) as (m' & -> & H'). cbn. done1.
    - destruct (swap_right_checked_ok E OK s c m P old expected new H) as (m' & -> & H').
      cbn. destruct (s_are_paired (eqL E) (eqR E) P expected old); done1.
    - assert (Q := swap_right_or_insert_ok E OK s c m P old new to_insert H).
      destruct (s_contains_right (eqR E) P old).
      + destruct Q as (m' & -> & H'); [lia|]. cbn. done1.
      + destruct Q as (m' & H' & ->); [lia|].
        destruct (s_contains_right (eqR E) (del_l (eqL E) P to_insert) new); cbn; done1.
    - exists P, c. cbn. rewrite (are_paired_spec E OK s c m P); auto. repeat split; auto; lia.
    - exists P, c. cbn. rewrite (is_left_paired_spec E OK s c m P); auto. repeat split; auto; lia.
    - exists P, c. cbn. rewrite (is_right_paired_spec E OK s c m P); auto. repeat split; auto; lia.
    - exists P, c. cbn. rewrite (contains_left_spec E OK s c m P); auto. repeat split; auto; lia.
    - exists P, c. cbn. rewrite (contains_right_spec E OK s c m P); auto. repeat split; auto; lia.
    - exists P, c. cbn. rewrite (get_left_spec E OK s c m P); auto. repeat split; auto; lia.
    - exists P, c. cbn. rewrite (get_right_spec E OK s c m P); auto. repeat split; auto; lia.
    - exists P, c. cbn. rewrite (len_left_ok E s c m P); auto. repeat split; auto; lia.
    - exists P, c. cbn. rewrite (len_right_ok E s c m P); auto. repeat split; auto; lia.
    - exists P, c. cbn. rewrite (is_empty_ok E s c m P); auto. repeat split; auto; lia.
    - destruct (iter_all_ok E OK s c m P H) as (Q & -> & HQ).
      exists P, c. cbn. repeat split; auto; [|lia]. exists Q. auto.
    - destruct (paired_all_ok E OK s c m P H) as (Q & -> & HQ).
      exists P, c. cbn. repeat split; auto; [|lia]. exists Q. auto.
    - destruct (unpaired_all_ok E s c m P H) as (QL & QR & -> & HQ).
      exists P, c. cbn. repeat split; auto; [|lia]. exists (QL ++ QR). split; [|auto].
      apply HQ.
    - unfold single_len. rewrite collect_single. cbn. exists P, c. repeat split; auto; [|lia].
      eexists. split; [|reflexivity]. apply (iter_left_ok E s c m P H).
    - unfold single_len. rewrite collect_single. cbn. exists P, c. repeat split; auto; [|lia].
      eexists. split; [|reflexivity]. apply (iter_right_ok E s c m P H).
    - destruct (extend_pairs_ok E OK xs s c m P H) as (m' & -> & H'); [lia|]. cbn. done1.
    - destruct (extend_ok E OK xs s c m P H) as (m' & c' & -> & C & H'); [lia|]. cbn. done1.
    - destruct (retain_ok E OK f s c m P x H) as (Q & _ & PQ & W).
      destruct (s_filter f x Q) as [[[x' yes] others] [|]] eqn:F.
      + rewrite W. cbn. exists P, c. split; [|split; [auto|lia]]. exists Q. rewrite F. auto.
      + destruct W as (m' & -> & H'). cbn. eexists _, c. split; [|split; [exact H'|lia]].
        exists Q. rewrite F. auto.
    - destruct (retain_paired_ok E OK f s c m P x H) as (Q & _ & PQ & W).
      destruct (s_filter f x Q) as [[[x' yes] others] [|]] eqn:F.
      + rewrite W. cbn. exists P, c. split; [|split; [auto|lia]]. exists Q. rewrite F. auto.
      + destruct W as (m' & -> & H'). cbn. eexists _, c. split; [|split; [exact H'|lia]].
        exists Q. rewrite F. auto.
    - destruct (retain_unpaired_ok E OK f s c m P x H) as (Q & _ & PQ & W).
      destruct (s_filter f x Q) as [[[x' yes] others] [|]] eqn:F.
      + rewrite W. cbn. exists P, c. split; [|split; [auto|lia]]. exists Q. rewrite F. auto.
      + destruct W as (m' & -> & H'). cbn. eexists _, c. split; [|split; [exact H'|lia]].
        exists Q. rewrite F. auto.
    - destruct (drain_ok E OK s c m P n H) as (Q & y & d & d' & _ & PQ & IY & NY & LY & -> & -> & H').
      cbn [fst snd]. exists [], c. split; [|split; [auto|lia]]. split; auto.
      exists Q, y. split; auto. split; [|split; auto].
      + intros e He. apply filter_In. split; auto. rewrite NY; auto.
      + rewrite LY. f_equal.
        assert (NN : ~ In Neither P) by (destruct H as (Z & HZ & ->); apply (rep_bij _ _ _ _ _ HZ)).
        clear - NN. induction P as [|e P IH]; auto.
        assert (NN' : ~ In Neither P) by (intro; apply NN; right; auto).
        cbn [filter]. destruct e; simpl; auto. exfalso; apply NN; left; auto.
    - assert (NN : ~ In Neither P) by (destruct H as (Z & HZ & ->); apply (rep_bij _ _ _ _ _ HZ)).
      assert (SP : forall e, In e P -> spares f e).
      { intros e He y r HL HR. destruct (iter_all_ok E OK s c m P H) as (Q & HQ & PQ).
        destruct e as [|a|b|a b]; simpl in HL, HR; try discriminate. inversion HR; subst b.
        apply (G Q y a r HQ). eapply Permutation_in; [symmetry; exact PQ|].
        apply filter_In. auto. }
      destruct (dfa_start E OK f s c m P H SP) as (Q & W0 & _ & PQ & _ & PW & D).
      assert (W := df_nexts_ok E OK f n s c m _ _ _ _ x D).
      set (vs := map VE Q ++ map VR W0) in *.
      destruct (s_filter (on_visit (eqR E) f) (x, []) vs) as [[[x0 taken] others] pn] eqn:F.
      destruct W as (d' & x' & kept' & rest' & D' & W).
      assert (V := df_drop_ok E OK f s c m d' _ kept' rest' (fst x') D').
      rewrite <- surjective_pairing in V.
      destruct (s_filter (on_visit (eqR E) f) x' rest') as [[[x1 taken1] others1] pn1] eqn:F1.
      destruct V as (d2 & V & HV). destruct W as [W1 W2].
      destruct (pn && Nat.ltb (length taken) n) eqn:C.
      + apply andb_true_iff in C as [-> C]. apply Nat.ltb_lt in C.
        destruct W2 as (-> & -> & _ & EU); auto. cbn [fst snd].
        rewrite V. exists (flat_map keep (kept' ++ others1)), c.
        assert (XX : snd (match (if pn1 then Panic (d2, fst x1) else Ret (d2, fst x1) tt) with
                    | Ret (d'0, _) _ | Panic (d'0, _) => (df_end m d'0, OPanic) end) = @OPanic L R)
          by (destruct pn1; auto).
        assert (Y : fst (match (if pn1 then Panic (d2, fst x1) else Ret (d2, fst x1) tt) with
                    | Ret (d'0, _) _ | Panic (d'0, _) => (df_end m d'0, @OPanic L R) end) = df_end m d2)
          by (destruct pn1; auto).
        rewrite XX, Y. split; [|split; [auto|lia]].
        exists Q, W0. split; auto. split; auto. cbn zeta. fold vs. rewrite F. cbn [andb].
        apply Nat.ltb_lt in C. rewrite C. rewrite EU. auto.
      + destruct W1 as [-> W1].
        { destruct pn; auto. simpl in C. apply Nat.ltb_ge in C. auto. }
        injection W1 as -> -> EK ->.
        destruct leak.
        * cbn [fst snd]. exists (flat_map keep (kept' ++ rest')), c.
          split; [|split; [eapply (dfa_repr E); eauto|lia]].
          exists Q, W0. split; auto. split; auto. cbn zeta. fold vs. rewrite F, C. split; auto.
          assert (TK : flat_map keep taken = map shown taken).
          { eapply (taken_kept f vs); [|exact F]. intros e He. unfold vs in He.
            apply in_app_iff in He as [He|He]; apply in_map_iff in He as (e' & EQ & He); inversion EQ; subst e'.
            assert (I := Permutation_in _ PW He). apply filter_In in I as [I1 I2].
            split; [apply SP; auto|]. destruct (op_get_right e); easy. }
          rewrite <- TK. apply s_filter_perm in F. apply s_filter_perm in F1.
          assert (FK : forall k, firstn k (flat_map keep taken) = flat_map keep (firstn k taken)).
          { intros k. rewrite TK. rewrite firstn_map. rewrite <- (firstn_skipn k taken) in TK.
            rewrite flat_map_app, map_app in TK.
            assert (LK : forall l : list (visit entry), (length (flat_map keep l) <= length l)%nat).
            { induction l as [|v l IH]; simpl; auto. rewrite app_length.
              assert (length (keep v) <= 1)%nat by (destruct v as [e|e]; simpl; [|destruct (has_left_item e)]; simpl; lia). lia. }
            clear - TK LK.
            assert (LL := f_equal (@length _) TK). rewrite !app_length, !map_length in LL.
            assert (A := LK (firstn k taken)). assert (A' := LK (skipn k taken)).
            assert (X := f_equal (firstn (length (firstn k taken))) TK).
            rewrite !firstn_app, !firstn_all2 in X by (rewrite ?map_length; lia).
            rewrite map_length, Nat.sub_diag in X. replace (length (firstn k taken) - length (flat_map keep (firstn k taken)))%nat with 0%nat in X by lia.
            cbn [firstn] in X. rewrite !app_nil_r in X.
            rewrite X. symmetry. apply firstn_all2. rewrite map_length; auto. }
          rewrite FK, <- flat_map_app.
          transitivity (flat_map keep vs).
          2:{ transitivity (flat_map keep (map VE (filter has_left_item P)
                ++ map VR (filter (fun e : entry => is_some (op_get_right e)) P))).
              - apply Permutation_flat_map, Permutation_app; apply Permutation_map; auto.
              - apply keep_visits; auto. }
          apply Permutation_flat_map. rewrite F1, F. simpl in EK. rewrite <- EK.
          rewrite <- (firstn_skipn n taken) at 3.
          rewrite <- !app_assoc. apply Permutation_app_head.
          rewrite !app_assoc. apply Permutation_app_tail. apply Permutation_app_comm.
        * rewrite V. exists (flat_map keep (kept' ++ others1)), c.
          destruct pn; cbn [fst snd]; (split; [|split; [auto|lia]]);
            exists Q, W0; (split; [auto|]); (split; [auto|]); cbn zeta; fold vs; rewrite F, C;
            rewrite EK; split; auto.
    - destruct (clear_ok E s c m P H) as (m' & -> & H'). cbn. done1.
    - destruct m. cbn. exists P, c. repeat split; auto; lia.
    - destruct (resize_left_ok E OK s c m P (Shrink n) H) as (m' & EQ & H').
      unfold shrink_to_left. rewrite EQ. cbn. exists P, c. repeat split; auto; lia.
    - destruct (resize_right_ok E OK s c m P (Shrink n) H) as (m' & EQ & H').
      unfold shrink_to_right. rewrite EQ. cbn. exists P, c. repeat split; auto; lia.
    - destruct (shrink_to_fit_ok E OK s c m P H) as (m' & -> & H').
      cbn. exists P, c. repeat split; auto; lia.
    - destruct (resize_left_ok E OK s c m P (Grow n) H) as (m' & EQ & H').
      unfold reserve_left. rewrite EQ. cbn. exists P, c. repeat split; auto; lia.
    - destruct (resize_right_ok E OK s c m P (Grow n) H) as (m' & EQ & H').
      unfold reserve_right. rewrite EQ. cbn. exists P, c. repeat split; auto; lia.
    - destruct (try_reserve_left_ok E OK s c m P n H) as (m' & b & -> & H').
      cbn. exists P, c. repeat split; eauto; lia.
    - destruct (try_reserve_right_ok E OK s c m P n H) as (m' & b & -> & H').
      cbn. exists P, c. repeat split; eauto; lia.
  Qed.

  Theorem run_ok : forall ops s c m P, Repr s c m P -> c + budget ops < two64 -> guarded E m ops ->
    exists P' c', s_run P ops P' (snd (run E m ops)) /\ Repr s c' (fst (run E m ops)) P' /\
                  c' <= c + budget ops.
  Proof.
    induction ops as [|o ops IH]; intros s c m P H B G; cbn [budget run guarded] in *.
    - exists P, c. cbn. repeat split; auto; [constructor|lia].
    - destruct G as [G1 G2].
      destruct (step_ok s c m P o H) as (P1 & c1 & S1 & H1 & C1); [lia|auto|].
      destruct (step E m o) as [m1 w]. cbn [fst snd] in *.
      destruct (IH s c1 m1 P1 H1) as (P2 & c2 & S2 & H2 & C2); [lia|auto|].
      destruct (run E m1 ops) as [m2 ws]. cbn [fst snd] in *.
      exists P2, c2. repeat split; auto; [econstructor; eauto|lia].
  Qed.

  Lemma reachable_repr : forall room m, reachable E room m ->
    exists s c P, Repr s c m P /\ c + room < two64.
  Proof.
    intros room m (s & ll & lr & ops & B & G & ->).
    destruct (run_ok ops s 0 (with_hasher s ll lr) []) as (P & c & _ & H & C);
      [apply new_ok|lia|auto|].
    exists s, c, P. split; auto. lia.
  Qed.
End HistoryProofs.
