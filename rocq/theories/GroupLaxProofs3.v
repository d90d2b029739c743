(* GroupLax along every history, part 3: the other calls on single items. *)
From Coq Require Import List NArith Lia Bool Permutation PeanoNat.
From Verif Require Import Closures Prelude RawTable GroupMap ListFacts TableFacts IterFacts GroupSpec GroupHistory
  GroupProofs GroupProofs2 GroupLax GroupLaxProofs GroupLaxProofs2.
From Verif Require CycleMapLaxProofs CycleMapLaxProofs2.
Import ListNotations.
Open Scope N_scope.

Section LaxProofs3.
  Context {L R S : Type} (E : env L R S) (OK : lax E).
  Notation gm := (gmap L R S).
  Notation wl := (wleft L R).
  Notation zr := (zright R).
  Let LO := CycleMapLax.lax_lo _ OK.
  Let BO := bare_ok E LO.
  Notation eL := (eqL E).
  Notation eR := (eqR E).
  Notation slotR := (slotR E).
  Notation wslot := (wslot E).
  Notation wkey := (wkey E).
  Notation WRep := (WRep E).
  Notation WTabs := (WTabs E).
  Notation WCore := (WCore E).
  Notation find_l m q := (t_get_mut E (left_set m) (hashL E (hash_builder m) q) (equivalent_key_left eL q)).
  Notation find_r m q := (t_get_mut E (right_set m) (hashR E (hash_builder m) q) (equivalent_key_right eR q)).

  Lemma core_same_tab : forall s lc rc A y B t, WCore s lc rc A (y :: B) ->
    Permutation (slots t) (slots (y_tab y)) -> WCore s lc rc A (with_tab y t :: B).
  Proof.
    intros s lc rc A y B t H P. destruct H. constructor; auto.
    - intros y' [<-|Hy']; simpl.
      + etransitivity; [exact P|]. apply c_tab. left; auto.
      + apply c_tab. right; auto.
    - intros y' [<-|Hy']; [apply (c_rlt y)|apply c_rlt]; simpl; auto.
    - intros z Hz. destruct (c_link z Hz) as (y' & [<-|Hy'] & Q).
      + eexists; split; [left; reflexivity|auto].
      + exists y'. split; auto. right; auto.
  Qed.
  Lemma empty_tab : forall s lc rc A B y, WCore s lc rc A B -> In y B ->
    set_is_empty (y_tab y) = match filter (belongs (y_id y)) A with [] => true | _ => false end.
  Proof.
    intros s lc rc A B y H Hy. unfold set_is_empty, t_len.
    rewrite (Permutation_length (c_tab _ _ _ _ _ _ H y Hy)), map_length.
    destruct (filter _ A); auto.
  Qed.
  Lemma empty_slots : forall (t : table (N * N)), set_is_empty t = true -> slots t = [].
  Proof. intros t H. apply Nat.eqb_eq in H. apply length_zero_iff_nil; auto. Qed.

  (* ---- insert_right, insert_remove, insert_left ---- *)
  Lemma new_right_w : forall s lc rc m A B r, WRep s lc rc m A B -> rc + 1 < two64 ->
    exists m', (m <- getst ;; let rh := hashR E (hash_builder m) r in
                let rc := right_counter m in
                incr_right E ;;; right_insert E rh (RI r (set_new rc) rc)) m = Ret m' tt /\
      WRep s lc (rc + 1) m' A (ZR rc r (set_new rc) :: B).
  Proof.
    intros s lc rc m A B r (T & H & C1 & C2) BR. assert (HB := t_hb _ _ _ _ _ T).
    unfold incr_right, right_insert. mrun. rewrite C2, u64_incr_ok by auto. simpl. rewrite HB.
    eexists; split; [reflexivity|]. split; [|split; [|split; auto]].
    - constructor; [reflexivity|apply (t_l _ _ _ _ _ T)|].
      refine (add_r E OK s _ B (ZR rc r (set_new rc)) _). apply (t_r _ _ _ _ _ T).
    - apply (core_new_right E); auto.
  Qed.
  Lemma insert_right_w : forall s lc rc m A B r, WRep s lc rc m A B -> rc + 1 < two64 ->
    exists m' A' B' w, insert_right E r m = Ret m' w /\ WRep s lc (rc + 1) m' A' B' /\
      lax_insert_right eL eR (tview A B) r (tview A' B') w.
  Proof.
    intros s lc rc m A B r W BR. unfold insert_right.
    destruct (remove_right_w E OK _ _ _ _ _ _ r W) as (m1 & A1 & B1 & w & RUN & W1 & SP).
    unfold bind at 1. rewrite RUN.
    destruct (new_right_w _ _ _ _ _ _ r W1 BR) as (m2 & RUN2 & W2).
    exists m2, A1, (ZR rc r (set_new rc) :: B1), w. split; [|split; auto].
    - revert RUN2. unfold incr_right. mrun.
      rewrite (proj2 (proj2 (proj2 W1))), u64_incr_ok by auto.
      unfold right_insert. mrun. intro Q. inversion Q. reflexivity.
    - exists (tview A1 B1), rc. split; [auto|]. split; [eapply rc_fresh; apply W1|]. split; reflexivity.
  Qed.
  Lemma insert_remove_w : forall s lc rc m A B l r, WRep s lc rc m A B -> lc + 1 < two64 -> rc + 1 < two64 ->
    exists m' A' B' w, insert_remove E l r m = Ret m' w /\ WRep s (lc + 1) (rc + 1) m' A' B' /\
      lax_step eL eR (tview A B) (InsertRemove l r) (tview A' B') (OInsRem w).
  Proof.
    intros s lc rc m A B l r W BL BR. unfold insert_remove.
    destruct (remove_left_w E OK _ _ _ _ _ _ l W) as (m1 & A1 & B1 & a & RUN1 & W1 & SP1).
    unfold bind at 1. rewrite RUN1.
    destruct (remove_right_w E OK _ _ _ _ _ _ r W1) as (m2 & A2 & B2 & b & RUN2 & W2 & SP2).
    unfold bind at 1. rewrite RUN2.
    destruct W2 as (T & H & C1 & C2). assert (HB := t_hb _ _ _ _ _ T).
    unfold incr_left, incr_right, left_insert, right_insert. mrun.
    rewrite C1, u64_incr_ok by auto. simpl. rewrite C2, u64_incr_ok by auto. simpl. rewrite HB.
    set (z' := WL lc l rc r).
    set (y2 := with_tab (ZR rc r (set_new rc)) (set_insert E rc (set_new rc) (wkey s z'))).
    eexists; exists (z' :: A2), (y2 :: B2), (a, b). split; [reflexivity|]. split.
    - split; [|split; [|split; auto]].
      + constructor; [reflexivity| |].
        * refine (add_l E OK s _ A2 z' _). apply (t_l _ _ _ _ _ T).
        * refine (add_r E OK s _ B2 y2 _). apply (t_r _ _ _ _ _ T).
      + assert (K := core_new_right E _ _ _ _ _ r (set_new rc) H eq_refl).
        apply (core_bounds E _ _ _ (lc + 1) (rc + 1)) in K; try lia.
        refine (core_join E OK _ _ _ z' _ _ _ K (lc_fresh E _ _ _ _ _ H) _ eq_refl eq_refl). simpl; lia.
    - exists (tview A1 B1), (tview A2 B2), a, b, rc. split; [auto|]. split; [auto|].
      split; [eapply rc_fresh; eauto|]. split; [reflexivity|]. split; reflexivity.
  Qed.
  Lemma insert_left_w : forall s lc rc m A B l r, WRep s lc rc m A B -> lc + 1 < two64 ->
    exists m' A' B' lc' w, insert_left E l r m = Ret m' w /\ WRep s lc' rc m' A' B' /\
      lc <= lc' <= lc + 1 /\ lax_step eL eR (tview A B) (InsertLeft l r) (tview A' B') (OL w).
  Proof.
    intros s lc rc m A B l r (T & H & C1 & C2) BL. assert (HB := t_hb _ _ _ _ _ T).
    assert (Y := look_r E OK _ _ _ _ r T). unfold insert_left.
    unfold getst, bind at 1. cbv beta iota zeta.
    destruct (find_r m r) as [[j f]|]; [destruct Y as (y & B' & PB & QR & HR & -> & ATR)|].
    - set (z' := WL lc l (y_id y) (y_r y)).
      set (y2 := with_tab y (set_insert E (y_id y) (y_tab y) (wkey s z'))).
      unfold right_assign. unfold bind at 1 2 3. unfold getst, putst. simpl. rewrite HB, C1, HR.
      set (m1 := set_right (t_modify (right_set m) j (pairs_insert E (hashL E s l, lc))) m).
      assert (T1 : WTabs s m1 A (y2 :: B')).
      { constructor; [exact HB|apply (t_l _ _ _ _ _ T)|].
        apply (proj2 (modify_at _ _ _ _ _ (pairs_insert E (wkey s z')) ATR)). }
      assert (H1 : WCore s (lc + 1) rc (A ++ [z']) (y2 :: B')).
      { assert (K := core_perm E _ _ _ _ _ _ _ (Permutation_refl A) PB H).
        apply (core_bounds E _ _ _ (lc + 1) rc) in K; try lia.
        eapply core_perm; [apply Permutation_cons_append|reflexivity|].
        refine (core_join E OK _ _ _ z' _ _ _ K (lc_fresh E _ _ _ _ _ H) _ eq_refl eq_refl). simpl; lia. }
      destruct (remove_left_c E OK _ _ _ _ _ _ _ l T1 H1)
        as (m2 & A2 & B2 & o & RUN & TK & PK & T2 & H2 & C1' & C2').
      rewrite RUN. unfold incr_left, left_insert. mrun.
      replace (left_counter m2) with lc by (rewrite C1'; symmetry; exact C1). rewrite u64_incr_ok by auto.
      simpl. rewrite (t_hb _ _ _ _ _ T2).
      eexists; exists (z' :: A2), B2, (lc + 1), (option_map v_l o). split; [reflexivity|].
      split; [|split; [lia|]].
      + split; [|split; [|split; [reflexivity|]]].
        * constructor; [reflexivity| |apply (t_r _ _ _ _ _ T2)].
          refine (add_l E OK s _ A2 z' _). apply (t_l _ _ _ _ _ T2).
        * eapply core_perm; [symmetry; apply Permutation_cons_append|reflexivity|exact H2].
        * simpl. rewrite C2'. exact C2.
      + exists (Some (y_key y)). split; [eexists; apply pick_r; eauto|].
        exists (tview A2 B), (option_map v_l o). split; [|split; [|split; reflexivity]].
        * exists (option_map v_key o), (map v_key A2). split; [|split; [|split; reflexivity]].
          { apply (CycleMapLaxProofs.takes_map v_key (on eL l) (fun z => eL (v_l z) l)); auto. }
          { destruct o; auto. }
        * simpl. etransitivity; [exact PK|]. symmetry. apply (Permutation_map y_key) in PB. exact PB.
    - exists m, A, B, lc, None. split; auto. split; [split; auto|]. split; [lia|].
      exists None. split; [eexists; apply pick_r_none; eauto|]. split; [split; reflexivity|auto].
  Qed.

  (* ---- swap_right, swap_right_remove ---- *)
  Definition swap_ok (m : gm) old : Prop :=
    contains_right E m old = true -> is_right_paired E m old = false.
  Lemma swap_empty : forall s m (B : list zr) old j y, find_r m old = Some (j, snd (slotR s y)) ->
    swap_ok m old -> slots (y_tab y) = [].
  Proof.
    intros s m B old j y F GD. unfold swap_ok, contains_right, is_right_paired in GD.
    rewrite (find_right_mut E), F in GD. simpl in GD. apply empty_slots.
    specialize (GD eq_refl). apply negb_false_iff in GD. auto.
  Qed.
  Lemma swap_right_w : forall s lc rc m A B old new, WRep s lc rc m A B -> rc + 1 < two64 -> swap_ok m old ->
    exists m' A' B', swap_right E old new m = Ret m' tt /\ WRep s lc (rc + 1) m' A' B' /\
      lax_step eL eR (tview A B) (SwapRight old new) (tview A' B') OUnit.
  Proof.
    intros s lc rc m A B old new W BR GD. assert (W0 := W). destruct W as (T & H & C1 & C2).
    assert (HB := t_hb _ _ _ _ _ T).
    assert (Y := look_r E OK _ _ _ _ old T). assert (GE := swap_empty s m B old).
    unfold swap_right. unfold getst, bind at 1. cbv beta iota zeta.
    destruct (find_r m old) as [[j f]|].
    - destruct Y as (y & B' & PB & QR & HR & -> & ATR). specialize (GE j y eq_refl GD).
      cbn [snd GroupProofs.slotR r_pairs]. unfold hs_elems. rewrite GE. cbn [map set_collect fold_left].
      unfold right_assign, right_insert, incr_right. mrun. simpl. rewrite HB, C2, u64_incr_ok by auto.
      set (y' := with_tab y (t_clear (lo E) (y_tab y))).
      eexists; exists A, (ZR rc new (set_new rc) :: y' :: B'). split; [reflexivity|]. split.
      + split; [|split; [|split; [exact C1|reflexivity]]].
        * constructor; [reflexivity|apply (t_l _ _ _ _ _ T)|].
          refine (add_r E OK s _ (y' :: B') (ZR rc new (set_new rc)) _).
          apply (proj2 (modify_at _ _ _ _ _ (set_pairs (t_clear (lo E) (y_tab y))) ATR)).
        * apply (core_new_right E); auto. apply core_same_tab; [eapply core_perm; eauto|].
          rewrite GE. reflexivity.
      + split; auto. exists (Some (y_key y)). split; [eexists; apply pick_r; eauto|].
        exists rc. split; [eapply rc_fresh; eauto|]. split; [|reflexivity]. simpl. constructor.
        symmetry. apply (Permutation_map y_key) in PB. exact PB.
    - destruct (insert_right_w _ _ _ _ _ _ new W0 BR) as (m' & A' & B' & w & RUN & W' & SP).
      unfold bind. rewrite RUN. exists m', A', B'. split; auto. split; auto. split; auto.
      exists None. split; [eexists; apply pick_r_none; eauto|]. eauto.
  Qed.
  Lemma swap_right_remove_w : forall s lc rc m A B old new, WRep s lc rc m A B -> rc + 1 < two64 ->
    swap_ok m old ->
    exists m' A' B' w, swap_right_remove E old new m = Ret m' w /\ WRep s lc (rc + 1) m' A' B' /\
      lax_step eL eR (tview A B) (SwapRightRemove old new) (tview A' B') (OR w).
  Proof.
    intros s lc rc m A B old new W BR GD. assert (W0 := W). destruct W as (T & H & C1 & C2).
    assert (HB := t_hb _ _ _ _ _ T).
    assert (Y := look_r E OK _ _ _ _ old T). assert (GE := swap_empty s m B old).
    unfold swap_right_remove, right_remove_entry. mrun.
    rewrite (remove_as_mut E). destruct (find_r m old) as [[j f]|]; cbn [option_map].
    - destruct Y as (y & B' & PB & QR & HR & -> & ATR). specialize (GE j y eq_refl GD).
      cbn [fst snd].
      cbn [snd GroupProofs.slotR r_pairs]. unfold hs_elems. rewrite GE. cbn [map set_collect fold_left].
      unfold right_insert, incr_right. mrun. simpl. rewrite HB, C2, u64_incr_ok by auto.
      assert (H1 := core_perm E _ _ _ _ _ _ _ (Permutation_refl A) PB H).
      eexists; exists A, (ZR rc new (set_new rc) :: B'), (Some (y_r y)). split; [reflexivity|]. split.
      + split; [|split; [|split; [exact C1|reflexivity]]].
        * constructor; [reflexivity|apply (t_l _ _ _ _ _ T)|].
          refine (add_r E OK s _ B' (ZR rc new (set_new rc)) _). eapply at_remove; eauto.
        * apply (core_new_right E); auto. assert (K := core_del_group E _ _ _ _ _ _ H1).
          rewrite filter_all_true in K; auto. intros z Hz.
          assert (P := c_tab _ _ _ _ _ _ H1 y (or_introl eq_refl)). rewrite GE in P.
          apply Permutation_nil in P. apply map_eq_nil in P.
          destruct (belongs (y_id y) z) eqn:Q; auto.
          assert (I : In z (filter (belongs (y_id y)) A)) by (apply filter_In; auto).
          rewrite P in I. destruct I.
      + exists (Some (y_key y)), (map y_key B'). split; [apply pick_r; auto|]. split; [reflexivity|].
        exists rc. split; [eapply rc_fresh; eauto|]. split; reflexivity.
    - destruct (insert_right_w _ _ _ _ _ _ new W0 BR) as (m' & A' & B' & w & RUN & W' & SP).
      rewrite RUN. exists m', A', B', None. split; auto. split; auto.
      exists None, (map y_key B). split; [apply pick_r_none; auto|]. split; eauto.
  Qed.

  (* ---- pair ---- *)
  Lemma slot_index : forall s m A B, WTabs s m A B -> NoDup (map y_id B) -> forall i j x,
    nth_error (slots (right_set m)) i = Some x -> nth_error (slots (right_set m)) j = Some x -> i = j.
  Proof.
    intros s m A B T ND i j x Hi Hj.
    assert (N1 : NoDup (slots (right_set m))).
    { eapply NoDup_perm; [symmetry; apply (t_r _ _ _ _ _ T)|].
      apply (NoDup_map_inv (fun y => r_id (snd y))). rewrite map_map. auto. }
    eapply NoDup_nth_error; eauto; [|congruence]. apply nth_error_Some. congruence.
  Qed.
  Lemma pair_w : forall s lc rc m A B l r, WRep s lc rc m A B ->
    exists m' A' B' w, pair E l r m = Ret m' w /\ WRep s lc rc m' A' B' /\
      lax_step eL eR (tview A B) (Pair l r) (tview A' B') (OBool w).
  Proof.
    intros s lc rc m A B l r W. assert (W0 := W). destruct W as (T & H & C1 & C2).
    assert (HB := t_hb _ _ _ _ _ T).
    assert (X := look_l E OK _ _ _ _ l T). assert (Y := look_r E OK _ _ _ _ r T).
    unfold pair. unfold getst, bind at 1. cbv beta iota zeta. rewrite (find_right_mut E).
    destruct (find_l m l) as [[i e]|].
    2:{ exists m, A, B, false. split; auto. split; auto. exists None, (map v_key A).
        destruct (find_r m r) as [[j f]|].
        - destruct Y as (y & B' & PB & QR & HR & -> & ATR). exists (Some (y_key y)).
          split; [apply pick_l_none; auto|]. split; [eexists; apply pick_r; eauto|]. split; [split|]; reflexivity.
        - exists None. split; [apply pick_l_none; auto|]. split; [eexists; apply pick_r_none; eauto|].
          split; [split|]; reflexivity. }
    destruct X as (z & A' & PA & QL & HL & -> & ATL).
    destruct (find_r m r) as [[j f]|] eqn:FR; cbn [option_map].
    2:{ exists m, A, B, false. split; auto. split; auto. exists (Some (v_key z)), (map v_key A'), None.
        split; [apply pick_l; auto|]. split; [eexists; apply pick_r_none; eauto|]. split; [split|]; reflexivity. }
    destruct Y as (y & B' & PB & QR & HR & -> & ATR).
    assert (Hz : In z A) by (eapply Permutation_in; [symmetry; exact PA|left; auto]).
    assert (Hy : In y B) by (eapply Permutation_in; [symmetry; exact PB|left; auto]).
    destruct (c_link _ _ _ _ _ _ H z Hz) as (y1 & Hy1 & QI & QV).
    destruct (perm_in_cons _ _ Hy1) as (B1 & PB1).
    assert (T1 : WTabs s m A (y1 :: B1)) by (eapply tabs_perm; [reflexivity|exact PB1|exact T]).
    assert (H1 : WCore s lc rc (z :: A') (y1 :: B1)) by (eapply core_perm; eauto).
    assert (ND := c_rids _ _ _ _ _ _ H1). simpl in ND. inversion ND as [|? ? NI1 ND1]; subst x l0.
    destruct (by_id_r E OK _ _ _ _ _ T1 NI1) as (j1 & F1 & AT1).
    unfold left_assign, right_assign. mrun. simpl. rewrite QV, QI in F1. simpl in F1.
    rewrite HB in *. rewrite F1. simpl. rewrite mut_modify by auto. rewrite FR. simpl.
    rewrite HL. change (hashL E s (v_l z), v_id z) with (wkey s z).
    set (z' := WL (v_id z) (v_l z) (y_id y) (y_r y)).
    assert (NZ : ~ In (v_id z) (map v_id A')).
    { assert (NL := c_lids _ _ _ _ _ _ H1). simpl in NL. inversion NL; auto. }
    assert (K := core_leave E OK _ _ _ _ _ _ _ H1 (eq_sym QI)).
    set (y1' := with_tab y1 (set_remove E (y_id y1) (y_tab y1) (wkey s z))) in K.
    assert (AT1' := modify_at _ _ _ _ _ (pairs_remove E (wkey s z)) AT1).
    assert (PL : Permutation (slots (t_modify (t_modify (left_set m) i (set_l_hash (hashR E s r))) i
                                     (set_l_rid (y_id y)))) (map (wslot s) (z' :: A'))).
    { assert (KL := modify_at _ _ _ _ _ (set_l_rid (y_id y))
                     (modify_at _ _ _ _ _ (set_l_hash (hashR E s r)) ATL)).
      destruct KL as [_ KL]. etransitivity; [exact KL|]. simpl. rewrite HR. reflexivity. }
    assert (OUT : forall B'', Permutation (map y_key B'') (map y_key B) ->
       lax_step eL eR (tview A B) (Pair l r) (tview (z' :: A') B'') (OBool true)).
    { intros B'' PK. exists (Some (v_key z)), (map v_key A'), (Some (y_key y)).
      split; [apply pick_l; auto|]. split; [eexists; apply pick_r; eauto|].
      split; [exact PK|]. split; reflexivity. }
    destruct (N.eq_dec (y_id y1) (y_id y)) as [Q|Q].
    - (* l is already with r *)
      assert (y1 = y) by exact (same_rid E _ _ _ _ _ _ _ H Hy1 Hy Q). subst y1.
      assert (j1 = j).
      { eapply slot_index; [exact T|apply (c_rids _ _ _ _ _ _ H)|apply AT1|apply ATR]. }
      subst j1.
      set (y2 := with_tab y1' (set_insert E (y_id y1') (y_tab y1') (wkey s z'))).
      eexists; exists (z' :: A'), (y2 :: B1), true. split; [reflexivity|]. split.
      + split; [|split; [|split; assumption]].
        * constructor; [first [reflexivity|assumption]|exact PL|].
          apply (proj2 (modify_at _ _ _ _ _ (pairs_insert E (wkey s z)) AT1')).
        * refine (core_join E OK _ _ _ z' _ _ _ K NZ (c_llt _ _ _ _ _ _ H z Hz) eq_refl eq_refl).
      + refine (OUT (y2 :: B1) _). simpl. symmetry. apply (Permutation_map y_key) in PB1. exact PB1.
    - assert (IY : In y B1).
      { assert (I := Permutation_in _ PB1 Hy). destruct I as [X|I]; auto. exfalso. apply Q. rewrite X. auto. }
      destruct (perm_in_cons _ _ IY) as (W & PW).
      assert (NJ : j1 <> j).
      { intros ->. destruct AT1 as [N1 _], ATR as [N2 _]. rewrite N1 in N2. inversion N2. congruence. }
      assert (ATR' : at_slot (t_modify (right_set m) j1 (pairs_remove E (wkey s z))) j
                (hashR E s (y_r y)) (snd (slotR s y)) (map (slotR s) (y1' :: W))).
      { split.
        - simpl. rewrite nth_update_other by auto. apply ATR.
        - etransitivity; [apply (proj2 AT1')|]. rewrite (pairs_remove_slot E). fold y1'.
          apply (Permutation_map (slotR s)) in PW. simpl in *.
          etransitivity; [constructor; exact PW|]. apply perm_swap. }
      set (y2 := with_tab y (set_insert E (y_id y) (y_tab y) (wkey s z'))).
      eexists; exists (z' :: A'), (y2 :: y1' :: W), true. split; [reflexivity|]. split.
      + split; [|split; [|split; assumption]].
        * constructor; [first [reflexivity|assumption]|exact PL|].
          apply (proj2 (modify_at _ _ _ _ _ (pairs_insert E (wkey s z)) ATR')).
        * assert (K' : WCore s lc rc A' (y :: y1' :: W)).
          { eapply core_perm; [reflexivity| |exact K]. etransitivity; [constructor; exact PW|]. apply perm_swap. }
          refine (core_join E OK _ _ _ z' _ _ _ K' NZ (c_llt _ _ _ _ _ _ H z Hz) eq_refl eq_refl).
      + refine (OUT (y2 :: y1' :: W) _). apply (Permutation_map y_key) in PB1, PW. simpl in *.
        etransitivity; [apply perm_swap|]. symmetry. etransitivity; [exact PB1|]. constructor. exact PW.
  Qed.

  (* ---- queries, remove ---- *)
  Lemma find_l_w : forall s lc rc m A B l, WRep s lc rc m A B ->
    match find_l m l with
    | Some (_, e) => exists z, In z A /\ e = snd (wslot s z) /\ picks (on eL l) (map v_key A) (Some (v_key z))
    | None => picks (on eL l) (map v_key A) None
    end.
  Proof.
    intros s lc rc m A B l (T & _). assert (X := look_l E OK _ _ _ _ l T).
    destruct (find_l m l) as [[i e]|].
    - destruct X as (z & A' & PA & QL & HL & -> & ATL). exists z. split; [|split; auto].
      + eapply Permutation_in; [symmetry; exact PA|left; auto].
      + eexists; apply pick_l; eauto.
    - eexists; apply pick_l_none; auto.
  Qed.
  Lemma find_r_w : forall s lc rc m A B r, WRep s lc rc m A B ->
    match find_r m r with
    | Some (_, e) => exists y, In y B /\ e = snd (slotR s y) /\ picks (on eR r) (map y_key B) (Some (y_key y))
    | None => picks (on eR r) (map y_key B) None
    end.
  Proof.
    intros s lc rc m A B l (T & _). assert (X := look_r E OK _ _ _ _ l T).
    destruct (find_r m l) as [[i e]|].
    - destruct X as (z & A' & PA & QL & HL & -> & ATL). exists z. split; [|split; auto].
      + eapply Permutation_in; [symmetry; exact PA|left; auto].
      + eexists; apply pick_r; eauto.
    - eexists; apply pick_r_none; auto.
  Qed.
  Lemma like_refl : forall (G : tagged L R), like G G.
  Proof. split; reflexivity. Qed.

  Lemma are_paired_w : forall s lc rc m A B l r, WRep s lc rc m A B ->
    exists a q, picks (on eL l) (map v_key A) a /\ picks (on eR r) (map y_key B) q /\
      are_paired E m l r = match a, q with Some p, Some q => fst p =? fst q | _, _ => false end.
  Proof.
    intros s lc rc m A B l r W. rewrite (are_paired_c E OK _ _ _ _ _ _ _ _ W).
    assert (X := find_l_w _ _ _ _ _ _ l W). assert (Y := find_r_w _ _ _ _ _ _ r W).
    destruct (find_l m l) as [[i e]|].
    - destruct X as (z & Hz & -> & PZ). destruct (find_r m r) as [[j f]|].
      + destruct Y as (y & Hy & -> & PY). exists (Some (v_key z)), (Some (y_key y)). auto.
      + exists (Some (v_key z)), None. auto.
    - destruct (find_r m r) as [[j f]|].
      + destruct Y as (y & Hy & -> & PY). exists None, (Some (y_key y)). auto.
      + exists None, None. auto.
  Qed.
End LaxProofs3.
