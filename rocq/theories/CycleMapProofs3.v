(* Refinement of CycleMap, part 3: retain, drain, drain_filter. *)
From Coq Require Import List NArith Lia Bool Permutation.
From Verif Require Import Prelude RawTable Optionals CycleMap Closures CycleMapSpec ListFacts TableFacts
  CycleMapProofs CycleMapProofs2.
Import ListNotations.
Open Scope N_scope.

(* a closure over (left, right) as a closure over pairs *)
Definition on_pair {L R X} (f : X -> L -> R -> X * verdict) : X -> L * R -> X * option bool :=
  fun x p => f x (fst p) (snd p).

Section Proofs3.
  Context {L R S : Type} (E : env L R S) (OK : lawful E).
  Notation cm := (cmap L R S).
  Notation trip := (N * L * R)%type.
  Notation Rep := (Rep E).
  Notation Repr := (Repr E).
  Let EL := eqL_equiv _ OK.
  Let ER := eqR_equiv _ OK.
  Let LO := lo_ok _ OK.

  (* the triples listed in the order of the left table *)
  Lemma repr_ordered : forall s c m P, Repr s c m P ->
    exists Y, Rep s c m Y /\ slots (left_set m) = map (slotL E s) Y /\
      order_pairs E m (iter m) = map zpair Y /\ Permutation P (map zpair Y).
  Proof.
    intros s c m P (Z & H & ->). assert (Q := rep_l _ _ _ _ _ H).
    apply Permutation_map_inv in Q as (Y & EY & PY).
    assert (HY : Rep s c m Y) by (eapply (rep_perm E OK); eauto).
    exists Y. split; [auto|]. split; [auto|]. split.
    - unfold iter. rewrite EY. apply (order_pairs_slots E OK s c m Y); auto. apply incl_refl.
    - apply Permutation_map; auto.
  Qed.

  (* ---- retain ---- *)
  Section Retain.
    Context {X : Type} (f : X -> L -> R -> X * verdict).
    Definition drop_key (s : S) (z : trip) : N * N * N := (hashL E s (zl z), hashR E s (zr z), zid z).

    Lemma retain_scan_ok : forall s c m Z W n x, Rep s c m Z -> incl W Z -> (length W <= n)%nat ->
      retain_scan E f m n (map (slotL E s) W) x =
        match s_filter (fun x z => f x (zl z) (zr z)) x W with
        | (x', _, _, true) => Panic x'
        | (x', _, no, false) => Ret x' (map (drop_key s) no)
        end.
    Proof.
      intros s c m Z. induction W as [|z W IH]; intros n x H I Hn.
      - destruct n; reflexivity.
      - assert (G := rep_get_right E OK s c m Z z H (I z (or_introl eq_refl))).
        destruct n; [simpl in Hn; lia|]. cbn [retain_scan iter_next map slotL].
        change (value (MP (zl z) (hashR E s (zr z)) (zid z))) with (zl z).
        rewrite G. simpl s_filter.
        destruct (f x (zl z) (zr z)) as [x1 [b|]]; auto.
        assert (GI : get_left_inner E m (zl z) = Some (snd (slotL E s z))).
        { unfold get_left_inner. rewrite (rep_hb _ _ _ _ _ H).
          destruct (perm_in_cons z Z (I z (or_introl eq_refl))) as (Z' & PZ).
          apply left_get_found with (c := c) (Z := Z'); auto.
          - eapply (rep_perm E OK); eauto.
          - apply (equiv_refl _ EL).
          - assert (D := rep_dl _ _ _ _ _ H). apply (Permutation_map zl) in PZ.
            apply (distinct_perm _ EL _ _ PZ) in D. simpl in D. apply distinct_cons in D as [D _].
            intros y Hy. apply D, in_map; auto. }
        rewrite GI, (rep_hb _ _ _ _ _ H).
        assert (IH' := IH n x1 H (fun y Hy => I y (or_intror Hy))).
        rewrite IH' by (simpl in Hn; lia).
        destruct (s_filter _ x1 W) as [[[x2 y] no] [|]]; destruct b; simpl; auto.
    Qed.

    Lemma drop_all_ok : forall s c D K m, Rep s c m (D ++ K) ->
      exists m', drop_all E (map (drop_key s) D) m = Ret m' tt /\ Rep s c m' K.
    Proof.
      induction D as [|d D IH]; intros K m H.
      - exists m; split; auto.
      - simpl in H. destruct (remove_via_hashes_rep E OK s c m d (D ++ K) H) as (m1 & E1 & H1).
        destruct (IH K m1 H1) as (m2 & E2 & H2). exists m2; split; auto.
        simpl. mrun. rewrite E1. exact E2.
    Qed.

    Lemma retain_ok : forall s c m P x, Repr s c m P ->
      match s_filter (on_pair f) x (order_pairs E m (iter m)) with
      | (x', yes, _, false) =>
          exists m', retain E f (m, x) = Ret (m', x') tt /\ Repr s c m' yes
      | (x', _, _, true) => retain E f (m, x) = Panic (m, x')
      end.
    Proof.
      intros s c m P x H. destruct (repr_ordered _ _ _ _ H) as (Y & HY & SL & OP & PY).
      rewrite OP, s_filter_map. unfold retain, iter. rewrite SL, map_length.
      rewrite (retain_scan_ok s c m Y Y _ x HY (incl_refl _)) by auto.
      change (fun (x : X) (u : trip) => on_pair f x (zpair u))
        with (fun (x : X) (z : trip) => f x (zl z) (zr z)).
      destruct (s_filter _ x Y) as [[[x2 yes] no] [|]] eqn:Q; auto.
      apply s_filter_perm in Q.
      destruct (drop_all_ok s c no yes m) as (m' & E1 & H1).
      { eapply (rep_perm E OK); [|exact HY]. etransitivity; [exact Q|]. apply Permutation_app_comm. }
      rewrite E1. exists m'; split; auto. exists yes; split; auto.
    Qed.
  End Retain.

  (* ---- drain ---- *)
  Lemma drain_nexts_ok : forall s n Y d, NoDup (map zid Y) ->
    di_left d = map (slotL E s) Y -> Permutation (slots (di_right d)) (map (slotR E s) Y) ->
    exists d', drain_nexts E n d =
      Ret d' (firstn n (map Some (map zpair Y)) ++ repeat None (n - length Y)) /\
      di_left d' = map (slotL E s) (skipn n Y) /\
      Permutation (slots (di_right d')) (map (slotR E s) (skipn n Y)).
  Proof.
    induction n; intros Y d ND HL HR.
    - exists d; auto.
    - cbn [drain_nexts]. destruct Y as [|y Y].
      + unfold drain_next. rewrite HL. simpl map. cbn iota.
        destruct (IHn [] d) as (d' & E1 & H1 & H2); auto.
        rewrite E1. exists d'. rewrite !skipn_nil in *. repeat split; auto.
        simpl. destruct n; simpl; auto.
      + unfold drain_next. rewrite HL. simpl map. cbn iota.
        unfold slotL at 1. cbn [phash pid value].
        destruct (t_remove_entry_unique (lo E) LO (di_right d) (hashR E s (zr y))
          (just_id (zid y)) _ _ HR) as (t & -> & Pt).
        { unfold just_id; simpl. apply N.eqb_refl. }
        { intros x Hx. eapply id_r_other; eauto. }
        destruct (IHn Y (Drain (map (slotL E s) Y) t)) as (d' & E1 & H1 & H2); auto.
        { inversion ND; auto. }
        rewrite E1. exists d'. repeat split; auto.
  Qed.

  Lemma drain_ok : forall s c m P n, Repr s c m P ->
    exists d, drain_nexts E n (drain m) =
      Ret d (firstn n (map Some (order_pairs E m (iter m))) ++ repeat None (n - length P)) /\
      drain_len d = (length P - n)%nat /\
      ((length P <= n)%nat -> Repr s 0 (drain_end E m d) []).
  Proof.
    intros s c m P n H. destruct (repr_ordered _ _ _ _ H) as (Y & HY & SL & OP & PY).
    destruct (drain_nexts_ok s n Y (drain m)) as (d & E1 & H1 & H2).
    - apply (rep_ids _ _ _ _ _ HY).
    - exact SL.
    - apply (rep_r _ _ _ _ _ HY).
    - exists d. rewrite OP. assert (HLEN := Permutation_length PY). rewrite map_length in HLEN.
      split; [rewrite HLEN; auto|]. split.
      + unfold drain_len. rewrite H1, map_length, skipn_length. lia.
      + intros Hn. rewrite skipn_all2 in H2 by lia.
        exists []; split; auto. constructor; simpl; auto using NoDup_nil, distinct_nil.
        * apply (rep_hb _ _ _ _ _ HY).
        * intros ? [].
  Qed.

  (* ---- drain_filter ---- *)
  Section DrainFilter.
    Context {X : Type} (f : X -> L -> R -> X * verdict).
    Notation fz := (fun (x : X) (z : trip) => f x (zl z) (zr z)).

    (* [K]: visited and kept, [T]: not yet visited *)
    Record DFR (s : S) (c : N) (m : cm) (d : df_inner) (K T : list trip) : Prop := {
      dfr_rep : Rep s c (df_end m d) (K ++ T);
      dfr_left : slots (df_left d) = map (slotL E s) (K ++ T);
      dfr_pos : df_pos d = length K
    }.

    Lemma df_next_fuel_ok : forall s c m T n K d x, DFR s c m d K T -> (length T <= n)%nat ->
      let '(x', k, T', r) := s_next fz x T in
      exists d', DFR s c m d' (K ++ k) T' /\
        df_next_fuel E f n (d, x) =
          match r with
          | SYield z => Ret (d', x') (Some (zpair z))
          | SEnd => Ret (d', x') None
          | SPanic => Panic (d', x')
          end.
    Proof.
      intros s c m. induction T as [|z T IH]; intros n K d x H Hn.
      - simpl. exists d. rewrite app_nil_r. split; auto.
        assert (NE : t_entry (df_left d) (df_pos d) = None).
        { unfold t_entry. rewrite (dfr_left _ _ _ _ _ _ H), app_nil_r, (dfr_pos _ _ _ _ _ _ H).
          rewrite (proj2 (nth_error_None _ _)); auto. rewrite map_length; auto. }
        destruct n; cbn [df_next_fuel]; rewrite NE; auto.
      - assert (NE : t_entry (df_left d) (df_pos d) = Some (snd (slotL E s z))).
        { unfold t_entry. rewrite (dfr_left _ _ _ _ _ _ H), (dfr_pos _ _ _ _ _ _ H).
          rewrite nth_map_app. reflexivity. }
        assert (PM : Permutation (K ++ z :: T) (z :: K ++ T))
          by (symmetry; apply Permutation_middle).
        assert (HR := dfr_rep _ _ _ _ _ _ H).
        assert (HM : Rep s c (df_end m d) (z :: K ++ T)) by (eapply (rep_perm E OK); eauto).
        destruct (t_find_unique (lo E) LO (df_right d) (hashR E s (zr z)) (just_id (zid z)) _ _
                    (rep_r _ _ _ _ _ HM)) as (i & Fi & Ni).
        { unfold just_id; simpl. apply N.eqb_refl. }
        { intros y Hy. eapply id_r_other; eauto. apply (rep_ids _ _ _ _ _ HM). }
        assert (NR : t_entry (df_right d) i = Some (snd (slotR E s z)))
          by (unfold t_entry; simpl in Ni; rewrite Ni; auto).
        destruct n; [simpl in Hn; lia|]. cbn [df_next_fuel]. rewrite NE.
        cbn [snd slotL phash pid value]. rewrite Fi, NR. cbn [snd slotR phash pid value].
        simpl s_next.
        destruct (f x (zl z) (zr z)) as [x1 [[|]|]].
        + exists (DF (t_remove_at (lo E) (df_left d) (df_pos d)) (df_pos d)
                   (t_remove_at (lo E) (df_right d) i)). rewrite app_nil_r.
          split; [|auto].
          assert (SLT : slots (t_remove_at (lo E) (df_left d) (df_pos d)) = map (slotL E s) (K ++ T)).
          { simpl. rewrite (dfr_left _ _ _ _ _ _ H), (dfr_pos _ _ _ _ _ _ H), !map_app. simpl.
            rewrite <- (map_length (slotL E s) K). apply remove_nth_app. }
          constructor; auto.
          * unfold df_end; cbn [df_left df_right].
            apply (rep_tail E s c (df_end m d) z); auto.
            -- rewrite SLT. reflexivity.
            -- eapply t_remove_at_perm; [exact Ni|]. apply (rep_r _ _ _ _ _ HM).
          * simpl. apply (dfr_pos _ _ _ _ _ _ H).
        + assert (HA : DFR s c m (DF (df_left d) (Datatypes.S (df_pos d)) (df_right d)) (K ++ [z]) T).
          { constructor; rewrite <- ?app_assoc; simpl; auto.
            - apply (dfr_left _ _ _ _ _ _ H).
            - rewrite app_length, (dfr_pos _ _ _ _ _ _ H). simpl. lia. }
          specialize (IH n (K ++ [z]) _ x1 HA).
          destruct (s_next fz x1 T) as [[[x2 k] T'] r].
          destruct IH as (d' & Hd & E1); [simpl in Hn; lia|].
          exists d'. rewrite <- app_assoc in Hd. split; auto.
        + exists (DF (df_left d) (Datatypes.S (df_pos d)) (df_right d)). split; auto.
          constructor; rewrite <- ?app_assoc; simpl; auto.
          * apply (dfr_left _ _ _ _ _ _ H).
          * rewrite app_length, (dfr_pos _ _ _ _ _ _ H). simpl. lia.
    Qed.

    Lemma dfr_remaining : forall s c m d K T, DFR s c m d K T -> df_remaining d = length T.
    Proof.
      intros s c m d K T H. unfold df_remaining, t_len.
      rewrite (dfr_left _ _ _ _ _ _ H), (dfr_pos _ _ _ _ _ _ H), map_length, app_length. lia.
    Qed.

    Lemma df_next_ok : forall s c m T K d x, DFR s c m d K T ->
      let '(x', k, T', r) := s_next fz x T in
      exists d', DFR s c m d' (K ++ k) T' /\
        df_next E f (d, x) =
          match r with
          | SYield z => Ret (d', x') (Some (zpair z))
          | SEnd => Ret (d', x') None
          | SPanic => Panic (d', x')
          end.
    Proof.
      intros. unfold df_next. eapply df_next_fuel_ok; eauto. simpl fst.
      erewrite dfr_remaining; eauto.
    Qed.

    (* abstract state of a drain_filter session: P = kept ++ rest *)
    Definition DFA (s : S) (c : N) (m : cm) (d : df_inner) (kept rest : list (L * R)) : Prop :=
      exists K T, DFR s c m d K T /\ kept = map zpair K /\ rest = map zpair T.

    Lemma dfa_repr : forall s c m d kept rest, DFA s c m d kept rest ->
      Repr s c (df_end m d) (kept ++ rest).
    Proof.
      intros s c m d kept rest (K & T & H & -> & ->). exists (K ++ T).
      rewrite map_app. split; auto. apply H.
    Qed.

    Lemma dfa_start : forall s c m P, Repr s c m P ->
      DFA s c m (drain_filter m) [] (order_pairs E m (iter m)).
    Proof.
      intros s c m P H. destruct (repr_ordered _ _ _ _ H) as (Y & HY & SL & OP & PY).
      exists [], Y. repeat split; auto; simpl.
      - apply HY. - apply HY. - apply HY. - apply HY. - apply HY. - apply HY. - apply HY. - apply HY.
    Qed.

    Lemma dfa_next : forall s c m d kept rest x, DFA s c m d kept rest ->
      let '(x', k, rest', r) := s_next (on_pair f) x rest in
      exists d', DFA s c m d' (kept ++ k) rest' /\
        df_next E f (d, x) =
          match r with
          | SYield p => Ret (d', x') (Some p)
          | SEnd => Ret (d', x') None
          | SPanic => Panic (d', x')
          end.
    Proof.
      intros s c m d kept rest x (K & T & H & -> & ->).
      rewrite s_next_map.
      change (fun (x : X) (u : trip) => on_pair f x (zpair u)) with fz.
      assert (Q := df_next_ok s c m T K d x H).
      destruct (s_next fz x T) as [[[x' k] T'] r]. destruct Q as (d' & Hd & E1).
      exists d'. split.
      - exists (K ++ k), T'. rewrite map_app. auto.
      - rewrite E1. destruct r; auto.
    Qed.

    (* dropping the iterator: everything not yet visited is filtered *)
    Lemma df_drop_fuel_ok : forall n s c m d kept rest x, DFA s c m d kept rest ->
      (length rest <= n)%nat ->
      let '(x', _, others, pn) := s_filter (on_pair f) x rest in
      exists d' kept' rest',
        df_drop_fuel E f n (d, x) = (if pn then Panic (d', x') else Ret (d', x') tt) /\
        DFA s c m d' kept' rest' /\ kept' ++ rest' = kept ++ others.
    Proof.
      induction n; intros s c m d kept rest x H Hn.
      - destruct rest; [|simpl in Hn; lia]. simpl.
        assert (Q := dfa_next s c m d kept [] x H). simpl in Q. destruct Q as (d' & Hd & E1).
        exists d', (kept ++ []), []. rewrite E1, !app_nil_r in *. repeat split; auto.
      - assert (Q := dfa_next s c m d kept rest x H).
        assert (W := s_next_filter (on_pair f) rest x).
        destruct (s_next (on_pair f) x rest) as [[[x' k] rest'] [p| |]].
        + destruct Q as (d' & Hd & E1). destruct W as [-> WL].
          specialize (IHn s c m d' _ _ x' Hd).
          cbn [df_drop_fuel]. rewrite E1.
          destruct (s_filter (on_pair f) x' rest') as [[[x2 y] no] pn].
          destruct IHn as (d2 & k2 & r2 & E2 & H2 & A2); [lia|]. exists d2, k2, r2.
          rewrite A2, app_assoc. auto.
        + destruct Q as (d' & Hd & E1). destruct W as [-> ->].
          cbn [df_drop_fuel]. rewrite E1. exists d', (kept ++ k), []. rewrite app_nil_r. auto.
        + destruct Q as (d' & Hd & E1). rewrite W.
          cbn [df_drop_fuel]. rewrite E1. exists d', (kept ++ k), rest'. rewrite app_assoc. auto.
    Qed.

    Lemma df_drop_ok : forall s c m d kept rest x, DFA s c m d kept rest ->
      let '(x', _, others, pn) := s_filter (on_pair f) x rest in
      exists d', df_drop E f (d, x) = (if pn then Panic (d', x') else Ret (d', x') tt) /\
                 Repr s c (df_end m d') (kept ++ others).
    Proof.
      intros. unfold df_drop.
      assert (Q := df_drop_fuel_ok (df_remaining (fst (d, x))) s c m d kept rest x H).
      destruct (s_filter (on_pair f) x rest) as [[[x' y] others] pn].
      destruct Q as (d' & k' & r' & E1 & H1 & A1).
      - destruct H as (K & T & H & -> & ->). simpl fst. erewrite dfr_remaining by eauto.
        rewrite map_length; auto.
      - exists d'. split; auto. rewrite <- A1. apply dfa_repr; auto.
    Qed.

    (* n explicit calls of next *)
    Lemma df_nexts_ok : forall n s c m d kept rest x, DFA s c m d kept rest ->
      let '(x0, taken, others, pn) := s_filter (on_pair f) x rest in
      exists d' x' kept' rest',
        DFA s c m d' kept' rest' /\
        let '(x1, taken1, others1, pn1) := s_filter (on_pair f) x' rest' in
        ((n <= length taken)%nat \/ pn = false ->
           df_nexts E f n (d, x) =
             Ret (d', x') (firstn n (map Some taken) ++ repeat None (n - length taken)) /\
           (x1, taken1, kept' ++ others1, pn1) = (x0, skipn n taken, kept ++ others, pn)) /\
        ((length taken < n)%nat -> pn = true ->
           df_nexts E f n (d, x) = Panic (d', x0) /\ x' = x0 /\
           kept' ++ rest' = kept ++ others /\
           kept' ++ others1 = kept ++ s_unwind (on_pair f) x rest).
    Proof.
      induction n; intros s c m d kept rest x H.
      - destruct (s_filter (on_pair f) x rest) as [[[x0 taken] others] pn] eqn:Q.
        exists d, x, kept, rest. rewrite Q. split; [auto|]. split.
        + intros _. simpl. auto.
        + intros; lia.
      - assert (Q := dfa_next s c m d kept rest x H).
        assert (W := s_next_filter (on_pair f) rest x).
        assert (U := s_next_unwind (on_pair f) rest x).
        destruct (s_next (on_pair f) x rest) as [[[x' k] rest'] [p| |]].
        + destruct Q as (d' & Hd & E1). destruct W as [-> WL].
          specialize (IHn s c m d' _ _ x' Hd).
          destruct (s_filter (on_pair f) x' rest') as [[[x0 taken] others] pn].
          destruct IHn as (d2 & x2 & k2 & r2 & H2 & IH). exists d2, x2, k2, r2. split; [auto|].
          destruct (s_filter (on_pair f) x2 r2) as [[[x1 taken1] others1] pn1].
          destruct IH as [IH1 IH2]. cbn [df_nexts]. rewrite E1. split.
          * intros HH. destruct IH1 as [-> EQ].
            { destruct HH as [HH|HH]; auto. left. simpl in HH. lia. }
            split; auto. rewrite EQ. simpl. rewrite app_assoc. auto.
          * intros HH HP. destruct IH2 as (-> & EX & EQ & EU); auto.
            { simpl in HH; lia. }
            repeat split; auto; [rewrite EQ|rewrite EU, U]; rewrite app_assoc; auto.
        + destruct Q as (d' & Hd & E1). destruct W as [-> ->].
          specialize (IHn s c m d' _ _ x' Hd). simpl in IHn.
          destruct IHn as (d2 & x2 & k2 & r2 & H2 & IH). exists d2, x2, k2, r2. split; [auto|].
          destruct (s_filter (on_pair f) x2 r2) as [[[x1 taken1] others1] pn1].
          destruct IH as [IH1 IH2]. cbn [df_nexts]. rewrite E1. split.
          * intros _. destruct IH1 as [-> EQ]; auto. split.
            -- destruct n; auto.
            -- rewrite EQ. rewrite skipn_nil, app_nil_r. auto.
          * discriminate.
        + destruct Q as (d' & Hd & E1). rewrite W.
          exists d', x', (kept ++ k), rest'. split; [auto|].
          destruct (s_filter (on_pair f) x' rest') as [[[x1 taken1] others1] pn1].
          cbn [df_nexts]. rewrite E1. split.
          * intros [HH|HH]; [simpl in HH; lia|discriminate].
          * intros _ _. rewrite U, !app_assoc. auto.
    Qed.
  End DrainFilter.
End Proofs3.
