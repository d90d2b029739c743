(* CycleMap with an Eq that is not an equivalence: theorems. *)
From Coq Require Import List NArith Lia Bool Permutation PeanoNat.
From Verif Require Import Closures Prelude RawTable Optionals CycleMap ListFacts TableFacts CycleMapSpec
  CycleMapHistory CycleMapProofs CycleMapProofs2 CycleMapProofs3 CycleMapHistoryProofs CycleMapLax
  CycleMapLaxProofs CycleMapLaxProofs2 Concrete.
Import ListNotations.
Open Scope N_scope.

Section Step.
  Context {L R S : Type} (E : env L R S) (OK : lax E).
  Notation WRep := (WRep E).
  Notation eL := (eqL E).
  Notation eR := (eqR E).
  Notation lax_step := (lax_step eL eR).
  Let LO := lax_lo _ OK.

  Lemma takes_l : forall q Z o Z', takes (at_l E q) Z o Z' ->
    takes (@onl L R eL q) (map zpair Z) (option_map zpair o) (map zpair Z').
  Proof. intros. eapply takes_map; [|eauto]. reflexivity. Qed.
  Lemma takes_r : forall q Z o Z', takes (at_r E q) Z o Z' ->
    takes (@onr L R eR q) (map zpair Z) (option_map zpair o) (map zpair Z').
  Proof. intros. eapply takes_map; [|eauto]. reflexivity. Qed.

  Lemma insert_lax : forall s c m Z l r, WRep s c m Z -> c + 1 < two64 ->
    exists m' d Z', insert E l r m = Ret m' d /\ WRep s (c + 1) m' Z' /\
      lax_insert eL eR (map zpair Z) l r (map zpair Z') d.
  Proof.
    intros s c m Z l r H Hc.
    destruct (insert_w E OK s c m Z l r H Hc) as (m' & a & Z1 & b & Z2 & E1 & H1 & T1 & T2).
    exists m', (op_from_pair (option_map zpair a, option_map zpair b)), ((c, l, r) :: Z2).
    split; [exact E1|]. split; [exact H1|].
    exists (option_map zpair a), (map zpair Z1), (option_map zpair b), (map zpair Z2).
    split; [apply takes_l; auto|]. split; [apply takes_r; auto|]. split; auto.
  Qed.

  (* the pair removed is the one at which both lookups of are_paired end *)
  Lemma remove_lax : forall s c m Z l r, WRep s c m Z ->
    exists m' a Z', remove E l r m = Ret m' a /\ WRep s c m' Z' /\
      meets eL eR (map zpair Z) l r a /\
      Permutation (map zpair Z) (match a with Some z => z :: map zpair Z' | None => map zpair Z' end).
  Proof.
    intros s c m Z l r H. unfold remove. mrun.
    destruct (are_paired E m l r) eqn:AP.
    2: { destruct (are_paired_w E OK s c m Z l r H) as ([z|] & M0 & EA); rewrite AP in EA; [discriminate|].
         exists m, None, Z. split; [reflexivity|]. split; [exact H|]. split; auto. }
    unfold are_paired, t_get in AP. rewrite (w_hb _ _ _ _ _ H) in AP.
    assert (KL := look_l E OK s c m Z l H). assert (KR := look_r E OK s c m Z r H).
    destruct (t_find (lo E) (left_set m) _ _) as [i|] eqn:FL; [|discriminate].
    destruct KL as (z & Z' & P & A & Hh & Hn). rewrite (entry_slot _ _ _ Hn) in AP.
    destruct (t_find (lo E) (right_set m) _ _) as [j|] eqn:FR; [|discriminate].
    destruct KR as (y & Z2 & P2 & A2 & Hh2 & Hn2). rewrite (entry_slot _ _ _ Hn2) in AP.
    apply andb_true_iff in AP as [AP _]. apply andb_true_iff in AP as [AP _]. apply N.eqb_eq in AP.
    cbn in AP.
    assert (I1 : In z Z) by (eapply Permutation_in; [symmetry; exact P|left; auto]).
    assert (I2 : In y Z) by (eapply Permutation_in; [symmetry; exact P2|left; auto]).
    assert (z = y) by (apply (same_id Z); auto; apply (w_ids _ _ _ _ _ H)). subst y.
    assert (H' := w_perm E _ _ _ _ _ P H).
    unfold remove_via_left, left_remove_entry, right_remove_entry. mrun. unfold t_remove_entry.
    rewrite (w_hb _ _ _ _ _ H), FL, (entry_slot _ _ _ Hn). cbn [snd slotL phash pid value]. rewrite Hh.
    cbn [set_left right_set].
    destruct (partner_r E OK _ _ _ _ _ H') as (k & Fk & Nk). rewrite Fk, (entry_slot _ _ _ Nk).
    exists (set_right (t_remove_at (lo E) (right_set m) k) (set_left (t_remove_at (lo E) (left_set m) i) m)),
      (Some (zpair z)), Z'. split; [reflexivity|]. split; [|split].
    - apply (w_tail E s c m z); auto.
      + eapply (t_remove_at_perm (lo E)); [exact Hn|]. apply (w_l _ _ _ _ _ H').
      + eapply (t_remove_at_perm (lo E)); [exact Nk|]. apply (w_r _ _ _ _ _ H').
    - split; [apply in_map; auto|split; auto].
    - apply (Permutation_map zpair) in P. exact P.
  Qed.

  Lemma swap_left_lax : forall s c m Z old new, WRep s c m Z ->
    exists m' d Z', swap_left E old new m = Ret m' d /\ WRep s c m' Z' /\
      lax_swap_left eL (map zpair Z) old new (map zpair Z') d.
  Proof.
    intros s c m Z old new H.
    destruct (swap_left_w E OK s c m Z old new H) as (m' & a & Z1 & b & Z2 & T1 & T2 & W).
    assert (T1' : if eL new old then option_map zpair a = None /\ Permutation (map zpair Z) (map zpair Z1)
                  else takes (@onl L R eL new) (map zpair Z) (option_map zpair a) (map zpair Z1)).
    { destruct (eL new old); [|apply takes_l; auto]. destruct T1 as [-> P]. split; auto.
      apply Permutation_map; auto. }
    apply takes_l in T2.
    destruct b as [z|]; destruct W as [E1 H1]; do 3 eexists; (split; [exact E1|]); (split; [exact H1|]);
      do 4 eexists; (split; [exact T1'|]); (split; [exact T2|]); simpl; auto.
  Qed.
  Lemma swap_right_lax : forall s c m Z old new, WRep s c m Z ->
    exists m' d Z', swap_right E old new m = Ret m' d /\ WRep s c m' Z' /\
      lax_swap_right eR (map zpair Z) old new (map zpair Z') d.
  Proof.
    intros s c m Z old new H.
    destruct (swap_right_w E OK s c m Z old new H) as (m' & a & Z1 & b & Z2 & T1 & T2 & W).
    assert (T1' : if eR new old then option_map zpair a = None /\ Permutation (map zpair Z) (map zpair Z1)
                  else takes (@onr L R eR new) (map zpair Z) (option_map zpair a) (map zpair Z1)).
    { destruct (eR new old); [|apply takes_r; auto]. destruct T1 as [-> P]. split; auto.
      apply Permutation_map; auto. }
    apply takes_r in T2.
    destruct b as [z|]; destruct W as [E1 H1]; do 3 eexists; (split; [exact E1|]); (split; [exact H1|]);
      do 4 eexists; (split; [exact T1'|]); (split; [exact T2|]); simpl; auto.
  Qed.

  Lemma extend_lax : forall xs s c m Z, WRep s c m Z -> c + N.of_nat (length xs) < two64 ->
    exists m' Z', extend E xs m = Ret m' tt /\ WRep s (c + N.of_nat (length xs)) m' Z' /\
      lax_extend eL eR (map zpair Z) xs (map zpair Z').
  Proof.
    induction xs as [|[l r] xs IH]; intros s c m Z H Hc.
    - exists m, Z. split; [reflexivity|]. split; [|constructor; auto]. simpl. rewrite N.add_0_r. auto.
    - simpl length in *. destruct (insert_lax s c m Z l r H) as (m1 & d & Z1 & E1 & H1 & T1); [lia|].
      destruct (IH s (c + 1) m1 Z1 H1) as (m2 & Z2 & E2 & H2 & T2); [lia|].
      exists m2, Z2. split; [|split].
      + cbn [extend]. mrun. rewrite E1. exact E2.
      + replace (c + N.of_nat (Datatypes.S (length xs))) with (c + 1 + N.of_nat (length xs)) by lia.
        exact H2.
      + econstructor; eauto.
  Qed.

  Lemma w_tables : forall s c m Z tl tr, WRep s c m Z ->
    Permutation (slots tl) (slots (left_set m)) -> Permutation (slots tr) (slots (right_set m)) ->
    WRep s c (CM (hash_builder m) (counter m) tl tr) Z.
  Proof.
    intros s c m Z tl tr H Pl Pr. destruct H. constructor; auto; simpl.
    - etransitivity; eauto.
    - etransitivity; eauto.
  Qed.

  Lemma step_lax : forall s c m Z o, WRep s c m Z -> c + ids o < two64 ->
    exists Z' c', lax_step (map zpair Z) o (map zpair Z') (snd (step E m o)) /\
      WRep s c' (fst (step E m o)) Z' /\ c' <= c + ids o.
  Proof.
    intros s c m Z o H B.
    assert (HL := w_hashed_l E _ _ _ _ H). assert (HR := w_hashed_r E _ _ _ _ H).
    rewrite <- (w_hb _ _ _ _ _ H) in HL, HR.
    assert (LM : len m = length (map zpair Z)).
    { unfold len, t_len. rewrite (Permutation_length (w_l _ _ _ _ _ H)), !map_length. auto. }
    destruct o; cbn [step ids] in *.
    - destruct (insert_lax s c m Z l r H) as (m' & d & Z' & -> & H' & T); [lia|].
      exists Z', (c + 1). cbn. split; [eauto|]. split; [exact H'|lia].
    - destruct (remove_lax s c m Z l r H) as (m' & a & Z' & -> & H' & T & P).
      exists Z', c. cbn. split; [|split; [exact H'|lia]]. exists a. auto.
    - destruct (remove_via_left_w E OK s c m Z l H) as (m' & a & Z' & -> & H' & T).
      exists Z', c. cbn. split; [|split; [exact H'|lia]].
      exists (option_map zpair a). split; auto. apply takes_l; auto.
    - destruct (remove_via_right_w E OK s c m Z r H) as (m' & a & Z' & -> & H' & T).
      exists Z', c. cbn. split; [|split; [exact H'|lia]].
      exists (option_map zpair a). split; auto. apply takes_r; auto.
    - destruct (swap_left_lax s c m Z old new H) as (m' & d & Z' & -> & H' & T).
      exists Z', c. cbn. split; [eauto|split; [exact H'|lia]].
    - unfold swap_left_checked. mrun.
      destruct (are_paired_w E OK s c m Z old expected H) as (a & M0 & ->).
      destruct a as [z|]; cbn [negb].
      + destruct (swap_left_lax s c m Z old new H) as (m' & d & Z' & -> & H' & T).
        exists Z', c. cbn. split; [|split; [exact H'|lia]]. exists (Some z). eauto.
      + exists Z, c. cbn. split; [|split; [exact H|lia]]. exists None. auto.
    - unfold swap_left_or_insert. mrun. rewrite (w_hb _ _ _ _ _ H).
      assert (K := queries_l E OK s c m Z old H). unfold get_left_inner in K.
      rewrite (w_hb _ _ _ _ _ H) in K.
      destruct K as [(z & Z1 & P1 & A1 & _ & -> & _)|(A1 & -> & _)].
      + destruct (swap_left_lax s c m Z old new H) as (m' & d & Z' & -> & H' & T).
        exists Z', c. cbn. split; [|split; [exact H'|lia]]. exists (Some (zpair z)).
        split; [|eauto]. exists (map zpair Z1). apply (takes_l old Z (Some z) Z1). split; auto.
      + destruct (insert_lax s c m Z new to_insert H) as (m' & d & Z' & -> & H' & T); [lia|].
        exists Z', (c + 1). cbn. split; [|split; [exact H'|lia]]. exists None.
        split; [|eauto]. exists (map zpair Z). apply (takes_l old Z None Z). split; auto.
    - destruct (swap_right_lax s c m Z old new H) as (m' & d & Z' & -> & H' & T).
      exists Z', c. cbn. split; [eauto|split; [exact H'|lia]].
    - unfold swap_right_checked. mrun.
      destruct (are_paired_w E OK s c m Z expected old H) as (a & M0 & ->).
      destruct a as [z|]; cbn [negb].
      + destruct (swap_right_lax s c m Z old new H) as (m' & d & Z' & -> & H' & T).
        exists Z', c. cbn. split; [|split; [exact H'|lia]]. exists (Some z). eauto.
      + exists Z, c. cbn. split; [|split; [exact H|lia]]. exists None. auto.
    - unfold swap_right_or_insert. mrun. rewrite (w_hb _ _ _ _ _ H).
      destruct (queries_r E OK s c m Z old H) as [(z & Z1 & P1 & A1 & _ & -> & _)|(A1 & -> & _)].
      + destruct (swap_right_lax s c m Z old new H) as (m' & d & Z' & -> & H' & T).
        exists Z', c. cbn. split; [|split; [exact H'|lia]]. exists (Some (zpair z)).
        split; [|eauto]. exists (map zpair Z1). apply (takes_r old Z (Some z) Z1). split; auto.
      + destruct (insert_lax s c m Z to_insert new H) as (m' & d & Z' & -> & H' & T); [lia|].
        exists Z', (c + 1). 
        split; [|split; [destruct d; exact H'|lia]]. cbn. exists None.
        split; [exists (map zpair Z); apply (takes_r old Z None Z); split; auto|].
        exists d. split; auto. destruct d; auto.
    - exists Z, c. cbn. split; [|split; [exact H|lia]]. split; auto.
      destruct (are_paired_w E OK s c m Z l r H) as (a & M0 & ->). eauto.
    - exists Z, c. cbn. split; [|split; [exact H|lia]]. split; auto.
      destruct (queries_l E OK s c m Z l H) as [(z & Z1 & P1 & A1 & _ & _ & _ & ->)|(A1 & _ & _ & ->)].
      + exists (Some (zpair z)). split; auto. exists (map zpair Z1). apply (takes_l l Z (Some z) Z1). split; auto.
      + exists None. split; auto. exists (map zpair Z). apply (takes_l l Z None Z). split; auto.
    - exists Z, c. cbn. split; [|split; [exact H|lia]]. split; auto.
      destruct (queries_r E OK s c m Z r H) as [(z & Z1 & P1 & A1 & _ & _ & _ & ->)|(A1 & _ & _ & ->)].
      + exists (Some (zpair z)). split; auto. exists (map zpair Z1). apply (takes_r r Z (Some z) Z1). split; auto.
      + exists None. split; auto. exists (map zpair Z). apply (takes_r r Z None Z). split; auto.
    - exists Z, c. cbn. split; [|split; [exact H|lia]]. split; auto.
      destruct (queries_r E OK s c m Z r H) as [(z & Z1 & P1 & A1 & _ & _ & -> & _)|(A1 & _ & -> & _)].
      + exists (Some (zpair z)). split; auto. exists (map zpair Z1). apply (takes_r r Z (Some z) Z1). split; auto.
      + exists None. split; auto. exists (map zpair Z). apply (takes_r r Z None Z). split; auto.
    - exists Z, c. cbn. split; [|split; [exact H|lia]]. split; auto.
      destruct (queries_l E OK s c m Z l H) as [(z & Z1 & P1 & A1 & _ & _ & -> & _)|(A1 & _ & -> & _)].
      + exists (Some (zpair z)). split; auto. exists (map zpair Z1). apply (takes_l l Z (Some z) Z1). split; auto.
      + exists None. split; auto. exists (map zpair Z). apply (takes_l l Z None Z). split; auto.
    - exists Z, c. cbn. split; [|split; [exact H|lia]]. exists (map zpair Z). rewrite LM. auto.
    - exists Z, c. cbn. split; [|split; [exact H|lia]]. exists (map zpair Z).
      unfold is_empty. rewrite LM. destruct Z; auto.
    - destruct (ordered_w E s c m Z H) as (Y & HY & SL & PY). unfold iter_all, iter.
      rewrite SL, map_length.
      exists Z, c. split; [|split; [destruct (collect _ _ _); exact H|lia]].
      destruct (collect_w E OK s c m Z Y (length Y) H) as [[-> W]|(ps & -> & W)]; auto.
      + intros w Hw. eapply Permutation_in; [symmetry; exact PY|auto].
      + cbn. split; auto.
      + cbn. split; auto. right. exists (map zpair Y), ps. split; auto.
        apply Permutation_map. symmetry; auto.
    - unfold single_len. rewrite collect_single. cbn. exists Z, c. split; [|split; [exact H|lia]].
      exists (map zpair Z). split; auto. split; auto.
      assert (Q := w_l _ _ _ _ _ H). apply (Permutation_map (fun x => value (snd x))) in Q.
      rewrite map_map in Q. destruct (perm_firsts (map zpair Z) (map (fun x => value (snd x)) (iter_left m))) as (Q1 & PQ & EQ).
      { unfold iter_left. rewrite map_map. exact Q. }
      exists Q1. rewrite EQ. auto.
    - unfold single_len. rewrite collect_single. cbn. exists Z, c. split; [|split; [exact H|lia]].
      exists (map zpair Z). split; auto. split; auto.
      assert (Q := w_r _ _ _ _ _ H). apply (Permutation_map (fun x => value (snd x))) in Q.
      rewrite map_map in Q. destruct (perm_seconds (map zpair Z) (map (fun x => value (snd x)) (iter_right m))) as (Q1 & PQ & EQ).
      { unfold iter_right. rewrite map_map. exact Q. }
      exists Q1. rewrite EQ. auto.
    - destruct (extend_lax xs s c m Z H) as (m' & Z' & -> & H' & T); [lia|].
      exists Z', (c + N.of_nat (length xs)). cbn. split; [auto|split; [exact H'|lia]].
    - destruct (retain_w E OK f s c m Z x H) as [(x' & -> & W)|(m' & x' & K & D & -> & H' & P & W)].
      + exists Z, c. cbn. split; [|split; [exact H|lia]]. left. auto.
      + exists K, c. cbn. split; [|split; [exact H'|lia]]. right. split; auto.
        exists (map zpair D). split; [rewrite <- map_app; apply Permutation_map; auto|].
        intros z Hz. apply in_map_iff in Hz as (y & <- & Hy).
        destruct (W y Hy) as (_ & x1 & l1 & x2 & I1 & A1 & F1). exists x1, l1, x2.
        rewrite map_map. auto.
    - destruct (drain_w E OK s c m Z H) as (Y & d & PY & -> & H').
      exists [], 0. cbn. split; [|split; [exact H'|lia]]. exists []. split; auto. split; auto.
      exists (map zpair Y). split; auto. apply Permutation_map. symmetry; auto.
    - destruct (wdfa_start E s c m Z H) as (Y & PY & D).
      assert (W := df_nexts_w E OK f n s c m _ _ _ x D).
      assert (PP : Permutation (map zpair Y) (map zpair Z)) by (apply Permutation_map; symmetry; auto).
      change (on_pair f) with (uncurried f) in W.
      set (Q := map zpair Y) in *.
      destruct (s_filter (uncurried f) x Q) as [[[x0 taken] others] pn] eqn:F.
      destruct W as (d' & x' & kept' & rest' & D' & W).
      assert (V := df_drop_w E OK f s c m d' kept' rest' x' D').
      change (on_pair f) with (uncurried f) in V.
      destruct (s_filter (uncurried f) x' rest') as [[[x1 taken1] others1] pn1] eqn:F1.
      destruct V as (d2 & V & ZV & HV & EV). destruct W as [W1 W2].
      destruct (pn && Nat.ltb (length taken) n) eqn:C.
      + apply andb_true_iff in C as [-> C]. apply Nat.ltb_lt in C.
        destruct W2 as (-> & -> & _ & EU); auto. cbn [fst snd].
        rewrite V. exists ZV, c.
        assert (XX : snd (match (if pn1 then Panic (d2, x1) else Ret (d2, x1) tt) with
                    | Ret (d'0, _) _ | Panic (d'0, _) => (df_end m d'0, OPanic) end) = @OPanic L R)
          by (destruct pn1; auto).
        assert (YY : fst (match (if pn1 then Panic (d2, x1) else Ret (d2, x1) tt) with
                    | Ret (d'0, _) _ | Panic (d'0, _) => (df_end m d'0, @OPanic L R) end) = df_end m d2)
          by (destruct pn1; auto).
        rewrite XX, YY. split; [|split; [exact HV|lia]].
        cbn [CycleMapLax.lax_step CycleMapHistory.s_step]. exists (kept' ++ others1). split; [|rewrite EV; auto].
        exists Q. split; auto. rewrite F. cbn [andb]. apply Nat.ltb_lt in C. rewrite C. auto.
      + destruct W1 as [-> W1].
        { destruct pn; auto. simpl in C. apply Nat.ltb_ge in C. auto. }
        injection W1 as -> -> EK ->.
        destruct leak.
        * cbn [fst snd]. destruct (wdfa_repr E s c m d' kept' rest' D') as (Zr & Hr & Er).
          exists Zr, c.
          split; [|split; [exact Hr|lia]]. cbn [CycleMapLax.lax_step CycleMapHistory.s_step]. exists (kept' ++ rest'). split; [|rewrite Er; auto].
          exists Q. split; auto. rewrite F, C. split; auto.
          apply s_filter_perm in F. apply s_filter_perm in F1.
          rewrite F1, <- PP, F. simpl in EK. rewrite <- EK.
          rewrite <- (firstn_skipn n taken) at 3.
          rewrite <- !app_assoc. apply Permutation_app_head.
          rewrite !app_assoc. apply Permutation_app_tail. apply Permutation_app_comm.
        * rewrite V. exists ZV, c.
          destruct pn; cbn [fst snd]; (split; [|split; [exact HV|lia]]);
            cbn [CycleMapLax.lax_step CycleMapHistory.s_step]; exists (kept' ++ others1); (split; [|rewrite EV; auto]);
            exists Q; (split; [auto|]); rewrite F, C; split; auto.
    - exists [], c. cbn. split; [|split; [|lia]].
      + exists []. auto.
      + constructor; cbn; auto.
        * apply (w_hb _ _ _ _ _ H).
        * apply (w_c _ _ _ _ _ H).
        * constructor.
        * intros ? [].
    - destruct m. exists Z, c. cbn. split; [|split; [exact H|lia]]. exists (map zpair Z). auto.
    - exists Z, c. split; [|split; [|lia]].
      + cbn. exists (map zpair Z). auto.
      + unfold shrink_to, resize_both. mrun. unfold set_right, set_left; cbn -[t_resize].
        apply w_tables; auto using t_resize_perm.
    - exists Z, c. split; [|split; [|lia]].
      + cbn. exists (map zpair Z). auto.
      + unfold shrink_to_fit. mrun. unfold set_right, set_left; cbn -[t_resize len].
        apply w_tables; auto using t_resize_perm.
    - exists Z, c. split; [|split; [|lia]].
      + cbn. exists (map zpair Z). auto.
      + unfold reserve, resize_both. mrun. unfold set_right, set_left; cbn -[t_resize].
        apply w_tables; auto using t_resize_perm.
    - assert (Pl := t_try_resize_perm (lo E) LO _ n _ HL).
      assert (Pr := t_try_resize_perm (lo E) LO _ n _ HR).
      exists Z, c. unfold try_reserve. mrun.
      destruct (t_try_resize (lo E) (left_set m) n _) as [ok tl] eqn:T.
      destruct ok.
      + cbn -[t_try_resize]. destruct (t_try_resize (lo E) (right_set m) n _) as [ok tr] eqn:T2.
        cbn. split; [exists (map zpair Z); eauto|]. split; [|lia].
        apply (w_tables s c m); [exact H|exact Pl|exact Pr].
      + cbn. split; [exists (map zpair Z); eauto|]. split; [|lia].
        apply (w_tables s c m); [exact H|exact Pl|reflexivity].
  Qed.
End Step.

(* every call of a history has a hash-respecting Eq, and they agree on the hashes *)
Definition odd_calls {L R S} (hL : S -> L -> N) (hR : S -> R -> N) (cs : list (env L R S * op L R)) : Prop :=
  Forall (fun c => lax (fst c) /\ hashL (fst c) = hL /\ hashR (fst c) = hR) cs.

Lemma wrep_env : forall {L R S} (E E' : env L R S) s c m Z,
  hashL E = hashL E' -> hashR E = hashR E' -> WRep E s c m Z -> WRep E' s c m Z.
Proof.
  intros L R S E E' s c m Z HL HR H. destruct H. constructor; auto.
  - unfold slotL in *. rewrite <- HL, <- HR. auto.
  - unfold slotR in *. rewrite <- HL, <- HR. auto.
Qed.

Lemma run_lax : forall {L R S} hL hR (cs : list (env L R S * op L R)) (E : env L R S) s c m Z,
  odd_calls hL hR cs -> hashL E = hL -> hashR E = hR ->
  WRep E s c m Z -> c + budget (map snd cs) < two64 ->
  exists Z' c', lax_run (map zpair Z) cs (map zpair Z') (snd (run_with m cs)) /\
    WRep E s c' (fst (run_with m cs)) Z' /\ c' <= c + budget (map snd cs).
Proof.
  intros L R S hL hR. induction cs as [|[E1 o] cs IH]; intros E s c m Z HC HL HR H B.
  - exists Z, c. split; [constructor|]. split; [auto|simpl; lia].
  - inversion HC as [|? ? (OK & HL1 & HR1) HC']; subst. cbn [fst] in *. cbn [map snd budget] in B.
    destruct (step_lax E1 OK s c m Z o) as (Z1 & c1 & S1 & H1 & C1); [|lia|].
    { eapply wrep_env; [| |exact H]; congruence. }
    cbn [run_with]. destruct (step E1 m o) as [m1 w]. cbn [fst snd] in *.
    destruct (IH E s c1 m1 Z1) as (Z2 & c2 & S2 & H2 & C2); auto.
    { eapply wrep_env; [| |exact H1]; congruence. } { lia. }
    destruct (run_with m1 cs) as [m2 ws]. cbn [fst snd] in *.
    exists Z2, c2. split; [econstructor; eauto|]. split; [auto|]. cbn [map snd budget]. lia.
Qed.

(* ---- C117: the pairs survive any Eq ---- *)
Theorem C117_pairs_survive_any_eq : forall {L R S} hL hR (cs : list (env L R S * op L R)) s ll lr,
  odd_calls hL hR cs -> budget (map snd cs) < two64 ->
  let m := fst (run_with (with_hasher s ll lr) cs) in
  exists P, lax_run [] cs P (snd (run_with (with_hasher s ll lr) cs)) /\
    len m = length P /\
    Permutation (map (fun x => value (snd x)) (iter_left m)) (map fst P) /\
    Permutation (map (fun x => value (snd x)) (iter_right m)) (map snd P).
Proof.
  intros L R S hL hR cs s ll lr HC B m.
  destruct cs as [|[E o] cs].
  - exists []. repeat split; auto. constructor.
  - assert (H0 : WRep E s 0 (with_hasher s ll lr) []).
    { constructor; simpl; auto; [constructor|intros ? []]. }
    destruct (Forall_inv HC) as (OK & HL & HR). cbn [fst] in *.
    destruct (run_lax hL hR ((E, o) :: cs) E s 0 _ [] HC HL HR H0) as (Z & c & W & H & _); [lia|].
    exists (map zpair Z). split; [exact W|]. fold m in H.
    unfold len, t_len, iter_left, iter_right.
    rewrite (Permutation_length (w_l _ _ _ _ _ H)), !map_length. split; auto.
    rewrite !map_map. split.
    + etransitivity; [apply Permutation_map, (w_l _ _ _ _ _ H)|]. rewrite map_map. reflexivity.
    + etransitivity; [apply Permutation_map, (w_r _ _ _ _ _ H)|]. rewrite map_map. reflexivity.
Qed.

(* the calls that may panic at all *)
Definition touchy {L R} (o : op L R) : bool :=
  match o with
  | IterAll | Retain _ _ _ | DrainFilter _ _ _ _ _ | SwapRightOrInsert _ _ _ => true
  | _ => false
  end.
Lemma lax_no_panic : forall {L R} (eL : L -> L -> bool) (eR : R -> R -> bool) P o P' w,
  lax_step eL eR P o P' w -> touchy o = false -> w <> OPanic.
Proof.
  intros L R eL eR P o P' w H T. destruct o; try discriminate T; cbn in H;
    repeat match goal with
           | K : exists _, _ |- _ => destruct K
           | K : _ /\ _ |- _ => destruct K
           | a : option _ |- _ => destruct a
           end; subst; discriminate.
Qed.
Theorem C117_no_panic : forall {L R S} hL hR (cs : list (env L R S * op L R)) s ll lr,
  odd_calls hL hR cs -> budget (map snd cs) < two64 ->
  Forall2 (fun c w => touchy (snd c) = false -> w <> OPanic) cs
    (snd (run_with (with_hasher s ll lr) cs)).
Proof.
  intros L R S hL hR cs s ll lr HC B.
  destruct (C117_pairs_survive_any_eq hL hR cs s ll lr HC B) as (P & H & _).
  revert H. generalize (snd (run_with (with_hasher s ll lr) cs)) (@nil (L * R)). clear.
  intros ws P0 H. induction H; constructor; auto. cbn [snd]. eapply lax_no_panic; eauto.
Qed.

(* ---- C118: iteration ---- *)
(* every stored left item equals itself and no other stored left item *)
Definition told_apart {L R} (eL : L -> L -> bool) (P : list (L * R)) : Prop :=
  forall z z', In z P -> In z' P -> (eL (fst z) (fst z') = true <-> z = z').

Lemma shown_same : forall {L R} (eL : L -> L -> bool) (P Q ps : list (L * R)), told_apart eL P ->
  incl Q P -> Forall2 (shown eL P) Q ps -> ps = Q.
Proof.
  intros L R eL P Q ps TA I F. induction F as [|z p Q ps (A & z' & I1 & A1 & A2) F IH]; auto.
  assert (z = z') by (apply TA; auto; apply I; left; auto). subst z'.
  f_equal; [destruct z, p; simpl in *; congruence|]. apply IH. intros x Hx; apply I; right; auto.
Qed.

(* What iter() does in any case; it panics exactly if some left item is not found by a lookup
   of itself; and it lists the pairs if the left items can be told apart. *)
Lemma lax_iter : forall {L R} (eL : L -> L -> bool) (eR : R -> R -> bool) P P' w,
  lax_step eL eR P IterAll P' w ->
  Permutation P P' /\
  (w = OPanic <-> exists l, lost eL P l) /\
  (w = OPanic \/ exists Q ps, Permutation Q P /\ Forall2 (shown eL P) Q ps /\ w = OPairs ps) /\
  (told_apart eL P -> exists ps, w = OPairs ps /\ Permutation ps P).
Proof.
  intros L R eL eR P P' w (HP & W). split; auto. split; [|split].
  - split.
    + intros ->. destruct W as [[_ W]|(Q & ps & _ & _ & X)]; [auto|discriminate].
    + intros (l & I & N0). destruct W as [[W _]|(Q & ps & PQ & F & X)]; auto. exfalso.
      apply in_map_iff in I as (z & <- & I). apply (Permutation_in _ (Permutation_sym PQ)) in I.
      clear - I N0 F. induction F as [|y p Q ps (A & z' & I1 & A1 & A2) F IH]; [easy|].
      destruct I as [->|I]; auto. rewrite N0 in A1; auto. discriminate.
  - destruct W as [[W _]|W]; auto.
  - intros TA. destruct W as [[_ (l & I & N0)]|(Q & ps & PQ & F & X)].
    + apply in_map_iff in I as (z & <- & I). specialize (N0 z I).
      unfold onl in N0. rewrite (proj2 (TA z z I I) eq_refl) in N0. discriminate.
    + exists ps. split; auto. assert (ps = Q); [|subst; auto].
      apply (shown_same eL P); auto. intros y Hy. eapply Permutation_in; eauto.
Qed.

Theorem C118_iter_any_eq_partial : forall {L R S} hL hR (cs : list (env L R S * op L R)) (E : env L R S) s ll lr,
  odd_calls hL hR ((E, IterAll) :: cs) -> budget (map snd cs) < two64 ->
  let m := fst (run_with (with_hasher s ll lr) cs) in
  exists P, lax_run [] cs P (snd (run_with (with_hasher s ll lr) cs)) /\
    (iter_all E m = Panicked <-> exists l, lost (eqL E) P l) /\
    (forall ps, iter_all E m = Done ps -> exists Q, Permutation Q P /\ Forall2 (shown (eqL E) P) Q ps) /\
    (told_apart (eqL E) P -> exists ps, iter_all E m = Done ps /\ Permutation ps P).
Proof.
  intros L R S hL hR cs E s ll lr HC B m.
  assert (H0 : WRep E s 0 (with_hasher s ll lr) []).
  { constructor; simpl; auto; [constructor|intros ? []]. }
  destruct (Forall_inv HC) as (OK & HL & HR). cbn [fst] in *. apply Forall_inv_tail in HC.
  destruct (run_lax hL hR cs E s 0 _ [] HC HL HR H0) as (Z & c & W & H & CB); [lia|]. fold m in H.
  exists (map zpair Z). split; [exact W|].
  assert (X : exists P', lax_step (eqL E) (eqR E) (map zpair Z) IterAll P' (snd (step E m IterAll))).
  { destruct (step_lax E OK s c m Z IterAll H) as (Z' & c' & X & _); [|eauto].
    cbn [ids]. lia. }
  destruct X as (P' & X). apply lax_iter in X as (_ & A & C & D).
  cbn [step] in *. destruct (iter_all E m) as [ps|]; cbn [seen snd] in *.
  - split; [split; [discriminate|intros K; apply A in K; discriminate]|]. split.
    + intros ps' K. injection K as <-. destruct C as [C|(Q & ps1 & PQ & F & C)]; [discriminate|].
      injection C as <-. eauto.
    + intros T. destruct (D T) as (ps1 & K & PP). injection K as <-. eauto.
  - split; [split; auto; intros _; apply A; auto|]. split; [discriminate|].
    intros T. destruct (D T) as (ps1 & K & PP). discriminate.
Qed.

(* ---- cases ---- *)
(* 0 is not equal to itself (NaN) *)
Definition nan_eq (a b : N) : bool := negb (a =? 0) && (a =? b).
(* a equals b if a <= b, when both are even or both are odd: not symmetric *)
Definition le_eq (a b : N) : bool := (a mod 2 =? b mod 2) && (a <=? b).
Definition odd_env (e : N -> N -> bool) (lo : layout) : env N N N :=
  Env _ _ _ e e (fun s a => s + a mod 2) (fun s a => s + a mod 2) (fun _ _ => 0) lo true.
Lemma odd_env_lax : forall e lo, (forall a b, e a b = true -> a mod 2 = b mod 2) -> layout_ok lo ->
  lax (odd_env e lo).
Proof. intros e lo0 H OK. constructor; cbn [odd_env eqL eqR hashL hashR lo]; auto; intros s a b X; rewrite (H a b X); auto. Qed.
Lemma nan_eq_mod : forall a b, nan_eq a b = true -> a mod 2 = b mod 2.
Proof. intros a b H. apply andb_true_iff in H as [_ H]. apply N.eqb_eq in H. congruence. Qed.
Lemma le_eq_mod : forall a b, le_eq a b = true -> a mod 2 = b mod 2.
Proof. intros a b H. apply andb_true_iff in H as [H _]. apply N.eqb_eq in H. auto. Qed.
Lemma nan_lax : lax (odd_env nan_eq lo_wild).
Proof. apply odd_env_lax; auto using nan_eq_mod, lo_wild_ok. Qed.
Lemma le_lax : lax (odd_env le_eq lo_wild).
Proof. apply odd_env_lax; auto using le_eq_mod, lo_wild_ok. Qed.

(* two pairs with a NaN on the left, then calls under another Eq *)
Definition odd_history : list (env N N N * op N N) :=
  let e1 := odd_env nan_eq lo_wild in let e2 := odd_env le_eq lo_h7 in
  [(e1, Insert 0 10); (e1, Insert 0 20); (e1, Insert 3 21); (e1, RemoveViaLeft 0);
   (e2, SwapRight 10 0); (e2, GetRight 1); (e2, Insert 2 5); (e1, DrainAll)].
Example C117_case :
  odd_calls (fun s a => s + a mod 2) (fun s a => s + a mod 2) odd_history /\
  budget (map snd odd_history) < two64 /\
  snd (run_with (with_hasher 7 0 0) odd_history) =
    [OIns Neither; OIns Neither; OIns Neither; OPair None; OSwapR (SomeLeft 20);
     OR (Some 21); OIns (SomeRight (3, 21)); OItems [Some (2, 5); Some (0, 0); Some (0, 10); None] false].
Proof.
  split; [|vm_compute; auto].
  repeat (apply Forall_cons; [split; [apply odd_env_lax; auto using nan_eq_mod, le_eq_mod, lo_wild_ok, lo_h7_ok|auto]|]).
  apply Forall_nil.
Qed.

(* the first calls of that history leave the pairs (0, 10), (0, 0) and (3, 21): with the Eq of
   NaN both 0 are lost, with the other one the partner of one 0 is shown for both; without the 0
   the left items are told apart *)
Example C118_case :
  let e1 := odd_env nan_eq lo_wild in let e2 := odd_env le_eq lo_h7 in
  let cs := firstn 5 odd_history in let cs' := [(e1, Insert 3 21); (e1, Insert 5 20)] in
  odd_calls (fun s a => s + a mod 2) (fun s a => s + a mod 2) ((e1, IterAll) :: (e2, IterAll) :: cs ++ cs') /\
  budget (map snd cs) < two64 /\
  let m := fst (run_with (with_hasher 7 0 0) cs) in let m' := fst (run_with (with_hasher 7 0 0) cs') in
  len m = 3%nat /\ iter_all e1 m = Panicked /\ iter_all e2 m = Done [(0, 0); (0, 0); (3, 21)] /\
  told_apart nan_eq [(3, 21); (5, 20)] /\ iter_all e1 m' = Done [(3, 21); (5, 20)].
Proof.
  cbv zeta. split.
  - repeat (apply Forall_cons; [split; [apply odd_env_lax; auto using nan_eq_mod, le_eq_mod, lo_wild_ok, lo_h7_ok|auto]|]).
    apply Forall_nil.
  - do 4 (split; [vm_compute; reflexivity|]). split; [|vm_compute; reflexivity].
    intros p q Hp Hq. repeat destruct Hp as [<-|Hp]; repeat destruct Hq as [<-|Hq]; try contradiction;
      vm_compute; split; congruence.
Qed.

(* A NaN on the left: iterating panics, and so does comparing the map with itself.  An
   asymmetric Eq: iteration shows a pair that nobody inserted, and one right item twice. *)
Theorem C118_iter_any_eq_refuted : exists (E E' : env N N N) ops ops', lax E /\ lax E' /\
  let m := fst (run E (with_hasher 0 0 0) ops) in
  let m' := fst (run E' (with_hasher 0 0 0) ops') in
  len m = 1%nat /\ iter_all E m = Panicked /\ map_eq E m m = Panicked /\
  map value (map snd (iter_right m')) = [11; 20] /\
  ops' = [Insert 0 11; Insert 4 20] /\
  iter_all E' m' = Done [(0, 20); (4, 20)].
Proof.
  exists (odd_env nan_eq lo_wild), (odd_env le_eq lo_wild), [Insert 0 10],
    [Insert 0 11; Insert 4 20].
  split; [apply nan_lax|]. split; [apply le_lax|]. vm_compute. repeat split.
Qed.

Print Assumptions C117_pairs_survive_any_eq.
Print Assumptions C117_no_panic.
Print Assumptions C118_iter_any_eq_partial.
Print Assumptions C118_iter_any_eq_refuted.
