(* The model refines the list spec along every history. *)
From Coq Require Import List NArith Lia Bool Permutation PeanoNat.
From Verif Require Import Closures Prelude RawTable Optionals CycleMap ListFacts TableFacts CycleMapSpec
  CycleMapHistory CycleMapProofs CycleMapProofs2 CycleMapProofs3.
Import ListNotations.
Open Scope N_scope.

Lemma firstn_all_app : forall {A} (l : list A) n, (length l <= n)%nat -> firstn n l = l.
Proof. intros. apply firstn_all2; auto. Qed.

Section HistoryProofs.
  Context {L R S : Type}.
  Variable E : env L R S.
  Hypothesis OK : lawful E.
  Notation Repr := (Repr E).
  Notation s_step := (s_step (eqL E) (eqR E)).
  Notation s_run := (s_run (eqL E) (eqR E)).

  Lemma collect_single : forall {T} (it : list (N * mapping_pair T)),
    collect single_next (length it) it = Done (map (fun x => value (snd x)) it).
  Proof.
    induction it as [|[h x] it IH]; simpl; auto. rewrite IH. auto.
  Qed.

  Lemma perm_firsts : forall (P : list (L * R)) ls, Permutation ls (map fst P) ->
    exists Q, Permutation Q P /\ ls = map fst Q.
  Proof.
    intros P ls H. apply Permutation_map_inv in H as (Q & -> & H). exists Q; split; auto.
    symmetry; auto.
  Qed.
  Lemma perm_seconds : forall (P : list (L * R)) ls, Permutation ls (map snd P) ->
    exists Q, Permutation Q P /\ ls = map snd Q.
  Proof.
    intros P ls H. apply Permutation_map_inv in H as (Q & -> & H). exists Q; split; auto.
    symmetry; auto.
  Qed.

  Theorem step_ok : forall s c m P o, Repr s c m P -> c + ids o < two64 ->
    exists P' c', s_step P o P' (snd (step E m o)) /\ Repr s c' (fst (step E m o)) P' /\
                  c' <= c + ids o.
  Proof.
    intros s c m P o H B.
    destruct o; cbn [step ids CycleMapHistory.s_step] in *.
    - destruct (insert_ok E OK s c m P l r H) as (m' & -> & H'); [lia|].
      cbn. do 2 eexists. split; [split; reflexivity|]. split; [eassumption|lia].
    - destruct (remove_ok E OK s c m P l r H) as (m' & -> & H').
      cbn. do 2 eexists. split; [split; reflexivity|]. split; [eassumption|lia].
    - destruct (remove_via_left_ok E OK s c m P l H) as (m' & -> & H').
      cbn. do 2 eexists. split; [split; reflexivity|]. split; [eassumption|lia].
    - destruct (remove_via_right_ok E OK s c m P r H) as (m' & -> & H').
      cbn. do 2 eexists. split; [split; reflexivity|]. split; [eassumption|lia].
    - destruct (swap_left_ok E OK s c m P old new H) as (m' & -> & H').
      cbn. do 2 eexists. split; [split; reflexivity|]. split; [eassumption|lia].
    - destruct (swap_left_checked_ok E OK s c m P old expected new H) as (m' & -> & H').
      cbn. destruct (s_are_paired (eqL E) (eqR E) P old expected);
        do 2 eexists; (split; [split; reflexivity|]); (split; [eassumption|lia]).
    - destruct (swap_left_or_insert_ok E OK s c m P old new to_insert H)
        as (c' & m' & Hc & -> & H'); [lia|].
      cbn. destruct (s_contains_left (eqL E) P old);
        do 2 eexists; (split; [split; reflexivity|]); (split; [eassumption|lia]).
    - destruct (swap_right_ok E OK s c m P old new H) as (m' & -> & H').
      cbn. do 2 eexists. split; [split; reflexivity|]. split; [eassumption|lia].
    - destruct (swap_right_checked_ok E OK s c m P old expected new H) as (m' & -> & H').
      cbn. destruct (s_are_paired (eqL E) (eqR E) P expected old);
        do 2 eexists; (split; [split; reflexivity|]); (split; [eassumption|lia]).
    - destruct (swap_right_or_insert_ok E OK s c m P old new to_insert H)
        as (c' & m' & Hc & -> & H'); [lia|].
      destruct (s_contains_right (eqR E) P old); cbn;
        [|destruct (s_contains_left (eqL E) P to_insert)]; cbn;
        do 2 eexists; (split; [split; reflexivity|]); (split; [eassumption|lia]).
    - exists P, c. cbn. rewrite (are_paired_spec E OK s c m P); auto. repeat split; auto; lia.
    - exists P, c. cbn. rewrite (contains_left_spec E OK s c m P); auto. repeat split; auto; lia.
    - exists P, c. cbn. rewrite (contains_right_spec E OK s c m P); auto. repeat split; auto; lia.
    - exists P, c. cbn. rewrite (get_left_spec E OK s c m P); auto. repeat split; auto; lia.
    - exists P, c. cbn. rewrite (get_right_spec E OK s c m P); auto. repeat split; auto; lia.
    - exists P, c. cbn. rewrite (len_ok E s c m P); auto. repeat split; auto; lia.
    - exists P, c. cbn. unfold is_empty. rewrite (len_ok E s c m P); auto.
      destruct P; repeat split; auto; lia.
    - destruct (iter_all_ok E OK s c m P H) as (Q & -> & HQ).
      exists P, c. cbn. repeat split; auto; [|lia]. exists Q. auto.
    - unfold single_len. rewrite collect_single. cbn. exists P, c. repeat split; auto; [|lia].
      destruct (perm_firsts P _ (iter_left_ok E s c m P H)) as (Q & HQ & EQ).
      exists Q. rewrite EQ. auto.
    - unfold single_len. rewrite collect_single. cbn. exists P, c. repeat split; auto; [|lia].
      destruct (perm_seconds P _ (iter_right_ok E s c m P H)) as (Q & HQ & EQ).
      exists Q. rewrite EQ. auto.
    - destruct (extend_ok E OK xs s c m P H) as (m' & -> & H'); [lia|].
      cbn. do 2 eexists. split; [split; reflexivity|]. split; [eassumption|lia].
    - assert (W := retain_ok E OK f s c m P x H).
      assert (PP := order_pairs_perm E OK s c m P H).
      change (on_pair f) with (uncurried f) in W.
      destruct (s_filter (uncurried f) x (order_pairs E m (iter m))) as [[[x' yes] no] pn] eqn:F.
      destruct pn.
      + rewrite W. cbn. exists P, c. repeat split; auto; [|lia].
        exists (order_pairs E m (iter m)). rewrite F. auto.
      + destruct W as (m' & -> & H'). cbn. exists yes, c. repeat split; auto; [|lia].
        exists (order_pairs E m (iter m)). rewrite F. auto.
    - destruct (drain_ok E OK s c m P (Datatypes.S (len m)) H) as (d & -> & _ & HE).
      assert (PP := order_pairs_perm E OK s c m P H).
      assert (LL := len_ok E s c m P H).
      exists [], 0. cbn -[firstn Nat.sub]. split; [split; auto|split; [apply HE; lia|lia]].
      exists (order_pairs E m (iter m)). split; auto. f_equal. f_equal.
      + apply firstn_all2. rewrite map_length, (Permutation_length PP). lia.
      + replace (Datatypes.S (len m) - length P)%nat with 1%nat by lia. auto.
    - assert (D := dfa_start E OK s c m P H).
      assert (W := df_nexts_ok E OK f n s c m _ _ _ x D).
      assert (PP := order_pairs_perm E OK s c m P H).
      change (on_pair f) with (uncurried f) in W.
      set (Q := order_pairs E m (iter m)) in *.
      destruct (s_filter (uncurried f) x Q) as [[[x0 taken] others] pn] eqn:F.
      destruct W as (d' & x' & kept' & rest' & D' & W).
      assert (V := df_drop_ok E OK f s c m d' kept' rest' x' D').
      change (on_pair f) with (uncurried f) in V.
      destruct (s_filter (uncurried f) x' rest') as [[[x1 taken1] others1] pn1] eqn:F1.
      destruct V as (d2 & V & HV). destruct W as [W1 W2].
      destruct (pn && Nat.ltb (length taken) n) eqn:C.
      + apply andb_true_iff in C as [-> C]. apply Nat.ltb_lt in C.
        destruct W2 as (-> & -> & _ & EU); auto. cbn [fst snd].
        rewrite V. exists (kept' ++ others1), c.
        assert (XX : snd (match (if pn1 then Panic (d2, x1) else Ret (d2, x1) tt) with
                    | Ret (d'0, _) _ | Panic (d'0, _) => (df_end m d'0, OPanic) end) = @OPanic L R)
          by (destruct pn1; auto).
        assert (Y : fst (match (if pn1 then Panic (d2, x1) else Ret (d2, x1) tt) with
                    | Ret (d'0, _) _ | Panic (d'0, _) => (df_end m d'0, @OPanic L R) end) = df_end m d2)
          by (destruct pn1; auto).
        rewrite XX, Y. repeat split; auto; [|lia].
        exists Q. split; auto. rewrite F. cbn [andb]. apply Nat.ltb_lt in C. rewrite C. auto.
      + destruct W1 as [-> W1].
        { destruct pn; auto. simpl in C. apply Nat.ltb_ge in C. auto. }
        injection W1 as -> -> EK ->.
        destruct leak.
        * cbn [fst snd]. exists (kept' ++ rest'), c.
          split; [|split; [apply (dfa_repr E); auto|lia]].
          exists Q. split; auto. rewrite F, C. split; auto.
          apply s_filter_perm in F. apply s_filter_perm in F1.
          rewrite F1, <- PP, F. simpl in EK. rewrite <- EK.
          rewrite <- (firstn_skipn n taken) at 3.
          rewrite <- !app_assoc. apply Permutation_app_head.
          rewrite !app_assoc. apply Permutation_app_tail. apply Permutation_app_comm.
        * rewrite V. exists (kept' ++ others1), c.
          destruct pn; cbn [fst snd]; (split; [|split; [auto|lia]]);
            exists Q; (split; [auto|]); rewrite F, C; split; auto.
    - destruct (clear_ok E s c m P H) as (m' & -> & H').
      cbn. do 2 eexists. split; [split; reflexivity|]. split; [eassumption|lia].
    - destruct m. cbn. exists P, c. repeat split; auto; lia.
    - destruct (resize_both_ok E OK s c m P (Shrink n) H) as (m' & EQ & H').
      unfold shrink_to. rewrite EQ. cbn. exists P, c. repeat split; auto; lia.
    - destruct (shrink_to_fit_ok E OK s c m P H) as (m' & -> & H').
      cbn. exists P, c. repeat split; auto; lia.
    - destruct (resize_both_ok E OK s c m P (Grow n) H) as (m' & EQ & H').
      unfold reserve. rewrite EQ. cbn. exists P, c. repeat split; auto; lia.
    - destruct (try_reserve_ok E OK s c m P n H) as (m' & b & -> & H').
      cbn. exists P, c. repeat split; eauto; lia.
  Qed.

  Theorem run_ok : forall ops s c m P, Repr s c m P -> c + budget ops < two64 ->
    exists P' c', s_run P ops P' (snd (run E m ops)) /\ Repr s c' (fst (run E m ops)) P' /\
                  c' <= c + budget ops.
  Proof.
    induction ops as [|o ops IH]; intros s c m P H B; cbn [budget run] in *.
    - exists P, c. cbn. repeat split; auto; [constructor|lia].
    - destruct (step_ok s c m P o H) as (P1 & c1 & S1 & H1 & C1); [lia|].
      destruct (step E m o) as [m1 w]. cbn [fst snd] in *.
      destruct (IH s c1 m1 P1 H1) as (P2 & c2 & S2 & H2 & C2); [lia|].
      destruct (run E m1 ops) as [m2 ws]. cbn [fst snd] in *.
      exists P2, c2. repeat split; auto; [econstructor; eauto|lia].
  Qed.

  Lemma reachable_repr : forall room m, reachable E room m ->
    exists s c P, Repr s c m P /\ c + room < two64.
  Proof.
    intros room m (s & ll & lr & ops & B & ->).
    destruct (run_ok ops s 0 (with_hasher s ll lr) []) as (P & c & _ & H & C);
      [apply new_ok|lia|].
    exists s, c, P. split; auto. lia.
  Qed.

  (* contents as seen by a for loop over iter() *)
  Lemma reachable_view : forall room m, reachable E room m ->
    exists s c P, iter_all E m = Done P /\ Repr s c m P /\ c + room < two64.
  Proof.
    intros room m H. apply reachable_repr in H as (s & c & P & H & B).
    destruct (iter_all_ok E OK s c m P H) as (Q & HQ & PQ).
    exists s, c, Q. repeat split; auto. eapply repr_perm; [exact OK|symmetry; exact PQ|auto].
  Qed.

  Lemma view_of : forall s c m P, Repr s c m P -> exists P', iter_all E m = Done P' /\ Permutation P' P.
  Proof. intros. eapply iter_all_ok; eauto. Qed.
End HistoryProofs.
