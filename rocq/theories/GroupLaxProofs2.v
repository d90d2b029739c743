(* GroupLax along every history, part 2: inserting, pairing, swapping, queries. *)
From Coq Require Import List NArith Lia Bool Permutation PeanoNat.
From Verif Require Import Closures Prelude RawTable GroupMap ListFacts TableFacts IterFacts GroupSpec GroupHistory
  GroupProofs GroupProofs2 GroupLax GroupLaxProofs.
From Verif Require CycleMapLaxProofs CycleMapLaxProofs2.
Import ListNotations.
Open Scope N_scope.

Lemma nth_update_other : forall {T} (f : T -> T) (l : list T) i j, i <> j ->
  nth_error (update_nth i f l) j = nth_error l j.
Proof.
  induction l; destruct i, j; simpl; intros H; auto; try easy. all: try (apply IHl; congruence).
  all: destruct i; auto.
Qed.
Lemma update_fst : forall {T} (f : T -> T) (l : list (N * T)) i,
  map fst (update_nth i (fun s => (fst s, f (snd s))) l) = map fst l.
Proof. induction l; destruct i; simpl; intros; f_equal; auto. Qed.

Lemma find_ext : forall {T} (f g : T -> bool) l, (forall x, f x = g x) -> List.find f l = List.find g l.
Proof. induction l; simpl; intros; auto. rewrite H, IHl; auto. Qed.

Section LaxProofs2.
  Context {L R S : Type} (E : env L R S) (OK : lax E).
  Notation gm := (gmap L R S).
  Notation wl := (wleft L R).
  Notation zr := (zright R).
  Let LO := CycleMapLax.lax_lo _ OK.
  Let BO := bare_ok E LO.
  Notation eL := (eqL E).
  Notation eR := (eqR E).
  Notation slotR := (slotR E).
  Notation wslot := (wslot E).
  Notation wkey := (wkey E).
  Notation WRep := (WRep E).
  Notation WTabs := (WTabs E).
  Notation WCore := (WCore E).
  Notation find_l m q := (t_get_mut E (left_set m) (hashL E (hash_builder m) q) (equivalent_key_left eL q)).
  Notation find_r m q := (t_get_mut E (right_set m) (hashR E (hash_builder m) q) (equivalent_key_right eR q)).

  (* assignments do not change what a search by an item finds *)
  Lemma mut_modify : forall {T} (t : table T) i f h p, (forall e, p (f e) = p e) ->
    t_get_mut E (t_modify t i f) h p
    = match t_get_mut E t h p with
      | Some (j, e) => Some (j, if Nat.eqb j i then f e else e)
      | None => None
      end.
  Proof.
    intros T t i f h p HP. unfold t_get_mut, t_find, t_entry; simpl. rewrite update_fst.
    assert (X : forall j, match nth_error (update_nth i (fun s => (fst s, f (snd s))) (slots t)) j with
                          | Some (_, e) => p e | None => false end
                = match nth_error (slots t) j with Some (_, e) => p e | None => false end).
    { intros j. destruct (Nat.eq_dec i j) as [<-|N0].
      - destruct (nth_error (slots t) i) as [[a e]|] eqn:Q.
        + erewrite nth_update_nth by eauto. simpl. auto.
        + replace (nth_error (update_nth i (fun s => (fst s, f (snd s))) (slots t)) i) with (@None (N * T)); auto.
          symmetry. apply nth_error_None. apply nth_error_None in Q.
          erewrite <- (map_length fst), update_fst, map_length. auto.
      - rewrite nth_update_other; auto. }
    erewrite find_ext by (intros; apply X). clear X.
    destruct (List.find _ _) as [j|]; auto.
    destruct (Nat.eqb j i) eqn:Q.
    - apply Nat.eqb_eq in Q; subst j. destruct (nth_error (slots t) i) as [[a e]|] eqn:Q.
      + erewrite nth_update_nth by eauto. simpl. rewrite Nat.eqb_refl. auto.
      + replace (nth_error (update_nth i (fun s => (fst s, f (snd s))) (slots t)) i) with (@None (N * T)); auto.
        symmetry. apply nth_error_None. apply nth_error_None in Q.
        erewrite <- (map_length fst), update_fst, map_length. auto.
    - apply Nat.eqb_neq in Q. rewrite nth_update_other by auto.
      apply Nat.eqb_neq in Q. destruct (nth_error (slots t) j) as [[a e]|]; auto. rewrite Q. auto.
  Qed.

  Lemma hashed_l : forall s (t : table (left_item L)) A, Permutation (slots t) (map (wslot s) A) ->
    hashed (make_hasher_l E s) (slots t).
  Proof.
    intros s t A P x Hx. apply (Permutation_in _ P) in Hx.
    apply in_map_iff in Hx as (z & <- & _). auto.
  Qed.
  Lemma hashed_r : forall s (t : table (right_item R)) B, Permutation (slots t) (map (slotR s) B) ->
    hashed (make_hasher_r E s) (slots t).
  Proof.
    intros s t A P x Hx. apply (Permutation_in _ P) in Hx.
    apply in_map_iff in Hx as (z & <- & _). auto.
  Qed.
  Lemma add_l : forall s t A z, Permutation (slots t) (map (wslot s) A) ->
    Permutation (slots (t_insert (lo E) t (fst (wslot s z)) (snd (wslot s z)) (make_hasher_l E s)))
                (map (wslot s) (z :: A)).
  Proof.
    intros s t A z P. etransitivity; [apply (t_insert_perm _ LO); eapply hashed_l; eauto|].
    simpl. constructor. auto.
  Qed.
  Lemma add_r : forall s t B y, Permutation (slots t) (map (slotR s) B) ->
    Permutation (slots (t_insert (lo E) t (fst (slotR s y)) (snd (slotR s y)) (make_hasher_r E s)))
                (map (slotR s) (y :: B)).
  Proof.
    intros s t B y P. etransitivity; [apply (t_insert_perm _ LO); eapply hashed_r; eauto|].
    simpl. constructor. auto.
  Qed.
  Lemma lc_fresh : forall s lc rc A B, WCore s lc rc A B -> ~ In lc (map v_id A).
  Proof.
    intros s lc rc A B H I. apply in_map_iff in I as (z & Q & I).
    apply (c_llt _ _ _ _ _ _ H) in I. lia.
  Qed.
  Lemma rc_fresh : forall s lc rc A B, WCore s lc rc A B -> fresh (tview A B) rc.
  Proof.
    intros s lc rc A B H I. simpl in I. rewrite map_map in I. apply in_map_iff in I as (y & Q & I).
    apply (c_rlt _ _ _ _ _ _ H) in I. simpl in Q. lia.
  Qed.
  Lemma owner_r : forall s lc rc A B z y, WCore s lc rc A B -> In z A -> In y B -> v_g z = y_id y ->
    v_r z = y_r y.
  Proof.
    intros s lc rc A B z y H Hz Hy Q. destruct (c_link _ _ _ _ _ _ H z Hz) as (y' & Hy' & Q1 & Q2).
    assert (y' = y) by (eapply same_rid; eauto; congruence). congruence.
  Qed.
  Lemma pick_l : forall (A : list wl) q z A', Permutation A (z :: A') -> eL (v_l z) q = true ->
    takes (on eL q) (map v_key A) (Some (v_key z)) (map v_key A').
  Proof. intros A q z A' P Q. split; auto. apply (Permutation_map v_key) in P. auto. Qed.
  Lemma pick_l_none : forall (A : list wl) q, (forall z, In z A -> eL (v_l z) q = false) ->
    takes (on eL q) (map v_key A) None (map v_key A).
  Proof. intros A q H. split; auto. intros p Hp. apply in_map_iff in Hp as (z & <- & Hz). apply H; auto. Qed.
  Lemma pick_r : forall (B : list zr) q y B', Permutation B (y :: B') -> eR (y_r y) q = true ->
    takes (on eR q) (map y_key B) (Some (y_key y)) (map y_key B').
  Proof. intros A q z A' P Q. split; auto. apply (Permutation_map y_key) in P. auto. Qed.
  Lemma pick_r_none : forall (B : list zr) q, (forall y, In y B -> eR (y_r y) q = false) ->
    takes (on eR q) (map y_key B) None (map y_key B).
  Proof. intros A q H. split; auto. intros p Hp. apply in_map_iff in Hp as (z & <- & Hz). apply H; auto. Qed.

  (* ---- are_paired ---- *)
  Lemma find_left_mut : forall (m : gm) q, find_left E m q = option_map snd (find_l m q).
  Proof. intros. apply get_mut_get. Qed.
  Lemma find_right_mut : forall (m : gm) q, find_right E m q = option_map snd (find_r m q).
  Proof. intros. apply get_mut_get. Qed.
  Lemma are_paired_c : forall s lc rc m A B l r, WRep s lc rc m A B ->
    are_paired E m l r =
      match find_l m l, find_r m r with
      | Some (_, e), Some (_, f) => l_rid e =? r_id f
      | _, _ => false
      end.
  Proof.
    intros s lc rc m A B l r (T & H & _). unfold are_paired. rewrite find_left_mut, find_right_mut.
    assert (X := look_l E OK _ _ _ _ l T). assert (Y := look_r E OK _ _ _ _ r T).
    destruct (find_l m l) as [[i e]|]; simpl; auto.
    destruct (find_r m r) as [[j f]|]; simpl; auto.
    destruct X as (z & A' & PA & QL & HL & -> & _). destruct Y as (y & B' & PB & QR & HR & -> & _).
    assert (Hz : In z A) by (eapply Permutation_in; [symmetry; exact PA|left; auto]).
    assert (Hy : In y B) by (eapply Permutation_in; [symmetry; exact PB|left; auto]).
    rewrite (t_hb _ _ _ _ _ T). simpl. rewrite HL. fold (wkey s z).
    change (hashL E s (v_l z), v_id z) with (wkey s z).
    erewrite (tab_contains E OK) by eauto. unfold belongs.
    destruct (v_g z =? y_id y) eqn:Q; [|apply andb_false_r].
    apply N.eqb_eq in Q. erewrite (owner_r _ _ _ _ _ _ _ H Hz Hy Q), HR, N.eqb_refl. auto.
  Qed.

  (* ---- insert ---- *)
  Lemma insert_w : forall s lc rc m A B l r, WRep s lc rc m A B -> lc + 1 < two64 -> rc + 1 < two64 ->
    are_paired E m l r = false ->
    exists m' A' B' lc' rc', insert E l r m = Ret m' tt /\ WRep s lc' rc' m' A' B' /\
      lc <= lc' <= lc + 1 /\ rc <= rc' <= rc + 1 /\ lax_insert eL eR (tview A B) l r (tview A' B').
  Proof.
    intros s lc rc m A B l r W BL BR GD. rewrite (are_paired_c _ _ _ _ _ _ _ _ W) in GD.
    destruct W as (T & H & C1 & C2). assert (HB := t_hb _ _ _ _ _ T).
    assert (X := look_l E OK _ _ _ _ l T). assert (Y := look_r E OK _ _ _ _ r T).
    unfold insert. unfold getst, bind at 1. cbv beta iota zeta.
    destruct (find_l m l) as [[i e]|]; [destruct X as (z & A' & PA & QL & HL & -> & ATL)|];
      (destruct (find_r m r) as [[j f]|]; [destruct Y as (y & B' & PB & QR & HR & -> & ATR)|]).
    - (* both found *)
      simpl in GD. apply N.eqb_neq in GD.
      assert (Hz : In z A) by (eapply Permutation_in; [symmetry; exact PA|left; auto]).
      assert (Hy : In y B) by (eapply Permutation_in; [symmetry; exact PB|left; auto]).
      destruct (c_link _ _ _ _ _ _ H z Hz) as (y1 & Hy1 & QI & QV).
      assert (Hy1' : In y1 B').
      { apply (Permutation_in _ PB) in Hy1 as [<-|Hy1]; auto. congruence. }
      destruct (perm_in_cons _ _ Hy1') as (W & PW).
      unfold left_assign, right_assign. mrun. simpl.
      set (y2 := with_tab y (set_insert E (y_id y) (y_tab y) (wkey s z))).
      assert (T1 : WTabs s (set_right (t_modify (right_set m) j (pairs_insert E (wkey s z))) m) A (y1 :: y2 :: W)).
      { constructor; simpl; auto; [apply (t_l _ _ _ _ _ T)|].
        etransitivity; [apply (proj2 (modify_at _ _ _ _ _ (pairs_insert E (wkey s z)) ATR))|].
        rewrite (pairs_insert_slot E). fold y2.
        etransitivity; [|apply perm_swap]. constructor.
        apply (Permutation_map (slotR s)) in PW. exact PW. }
      assert (H1 : WCore s lc rc (z :: A') (y1 :: y :: W)).
      { eapply core_perm; [exact PA| |exact H]. etransitivity; [exact PB|].
        etransitivity; [|apply perm_swap]. constructor; auto. }
      assert (ND := c_rids _ _ _ _ _ _ H1). simpl in ND. inversion ND; subst.
      destruct (by_id_r E OK _ _ _ _ _ T1) as (j1 & F1 & AT1); [auto|].
      rewrite HL. change (hashL E (hash_builder m) (v_l z), v_id z) with (wkey (hash_builder m) z).
      simpl in F1. rewrite QV, QI in F1. rewrite F1. simpl.
      set (z' := WL (v_id z) (v_l z) (y_id y) (y_r y)).
      set (y1' := with_tab y1 (set_remove E (y_id y1) (y_tab y1) (wkey (hash_builder m) z))).
      assert (HN : WCore (hash_builder m) (left_counter m) (right_counter m) (z' :: A') (y2 :: y1' :: W)).
      { assert (K := core_leave E OK _ _ _ _ _ _ _ H1 (eq_sym QI)).
        eapply core_perm in K; [|reflexivity|apply perm_swap].
        assert (NDL := c_lids _ _ _ _ _ _ H1). simpl in NDL. inversion NDL; subst.
        refine (core_join E OK _ _ _ z' _ _ _ K _ (c_llt _ _ _ _ _ _ H z Hz) eq_refl eq_refl). auto. }
      eexists; exists (z' :: A'), (y2 :: y1' :: W), (left_counter m), (right_counter m). split; [reflexivity|].
      split; [|split; [lia|split; [lia|]]].
      + split; [|split; [exact HN|split; first [reflexivity|assumption]]]. constructor; [first [reflexivity|assumption]| |].
        * assert (K := modify_at _ _ _ _ _ (set_l_rid (y_id y))
                         (modify_at _ _ _ _ _ (set_l_hash (hashR E (hash_builder m) r)) ATL)).
          destruct K as [_ K]. etransitivity; [exact K|]. simpl. rewrite HR. reflexivity.
        * assert (K := modify_at _ _ _ _ _ (pairs_remove E (wkey (hash_builder m) z)) AT1).
          destruct K as [_ K]. etransitivity; [exact K|]. simpl. apply perm_swap.
      + exists (Some (v_key z)), (map v_key A'), (Some (y_key y)), (y_id y).
        split; [apply pick_l; auto|]. split; [eexists; apply pick_r; eauto|].
        split; [split; [reflexivity|]|reflexivity]. simpl.
        apply (Permutation_map y_key) in PB. apply (Permutation_map y_key) in PW. simpl in PB.
        etransitivity; [|symmetry; exact PB]. constructor. symmetry. exact PW.
    - (* left found *)
      assert (Hz : In z A) by (eapply Permutation_in; [symmetry; exact PA|left; auto]).
      destruct (by_pair E OK _ _ _ _ _ _ _ _ T H Hz) as (y1 & B1 & j1 & PB & QI & QV & F1 & AT1).
      rewrite HB in *. simpl. rewrite HL. change (hashL E s (v_l z), v_id z) with (wkey s z).
      unfold left_assign, right_assign, right_insert, incr_right. mrun.
      rewrite F1. simpl. rewrite C2, u64_incr_ok by auto. rewrite HB.
      set (z' := WL (v_id z) (v_l z) rc r).
      set (y1' := with_tab y1 (set_remove E (y_id y1) (y_tab y1) (wkey s z))).
      set (y2 := with_tab (ZR rc r (set_new rc)) (set_insert E rc (set_new rc) (wkey s z))).
      assert (H1 : WCore s lc rc (z :: A') (y1 :: B1)) by (eapply core_perm; eauto).
      assert (HN : WCore s lc (rc + 1) (z' :: A') (y2 :: y1' :: B1)).
      { assert (K := core_leave E OK _ _ _ _ _ _ _ H1 (eq_sym QI)).
        eapply (core_new_right E _ _ _ _ _ r (set_new rc)) in K; [|reflexivity].
        assert (NDL := c_lids _ _ _ _ _ _ H1). simpl in NDL. inversion NDL; subst.
        refine (core_join E OK _ _ _ z' _ _ _ K _ (c_llt _ _ _ _ _ _ H z Hz) eq_refl eq_refl). auto. }
      eexists; exists (z' :: A'), (y2 :: y1' :: B1), lc, (rc + 1). split; [reflexivity|].
      split; [|split; [lia|split; [lia|]]].
      + split; [|split; [exact HN|split; first [reflexivity|assumption]]]. constructor; [first [reflexivity|assumption]| |].
        * assert (K := modify_at _ _ _ _ _ (set_l_rid rc)
                         (modify_at _ _ _ _ _ (set_l_hash (hashR E s r)) ATL)).
          destruct K as [_ K]. exact K.
        * refine (add_r s _ (y1' :: B1) y2 _).
          assert (K := modify_at _ _ _ _ _ (pairs_remove E (wkey s z)) AT1). apply (proj2 K).
      + exists (Some (v_key z)), (map v_key A'), None, rc.
        split; [apply pick_l; auto|]. split; [eexists; apply pick_r_none; eauto|].
        split; [split; [eapply rc_fresh; eauto|]|reflexivity]. simpl. constructor.
        symmetry. apply (Permutation_map y_key) in PB. exact PB.
    - (* right found *)
      rewrite HB in *. simpl. rewrite C1, HR.
      unfold left_assign, right_assign, left_insert, incr_left. mrun.
      simpl. rewrite C1, u64_incr_ok by auto. rewrite HB.
      set (z' := WL lc l (y_id y) (y_r y)).
      set (y2 := with_tab y (set_insert E (y_id y) (y_tab y) (wkey s z'))).
      assert (HN : WCore s (lc + 1) rc (z' :: A) (y2 :: B')).
      { assert (K := core_perm E _ _ _ _ _ _ _ (Permutation_refl A) PB H).
        apply (core_bounds E _ _ _ (lc + 1) rc) in K; try lia.
        refine (core_join E OK _ _ _ z' _ _ _ K (lc_fresh _ _ _ _ _ H) _ eq_refl eq_refl). simpl; lia. }
      eexists; exists (z' :: A), (y2 :: B'), (lc + 1), rc. split; [reflexivity|].
      split; [|split; [lia|split; [lia|]]].
      + split; [|split; [exact HN|split; first [reflexivity|assumption]]]. constructor; [first [reflexivity|assumption]| |].
        * refine (add_l s _ A z' _). apply (t_l _ _ _ _ _ T).
        * assert (K := modify_at _ _ _ _ _ (pairs_insert E (wkey s z')) ATR). apply (proj2 K).
      + exists None, (map v_key A), (Some (y_key y)), (y_id y).
        split; [apply pick_l_none; auto|]. split; [eexists; apply pick_r; eauto|].
        split; [split; [reflexivity|]|reflexivity]. simpl.
        symmetry. apply (Permutation_map y_key) in PB. exact PB.
    - (* none *)
      rewrite HB in *. simpl. rewrite C1, C2.
      unfold left_insert, right_insert, incr_left, incr_right. mrun.
      simpl. rewrite HB, C1, u64_incr_ok by auto. simpl. rewrite C2, u64_incr_ok by auto.
      set (z' := WL lc l rc r).
      set (y2 := with_tab (ZR rc r (set_new rc)) (set_insert E rc (set_new rc) (wkey s z'))).
      assert (HN : WCore s (lc + 1) (rc + 1) (z' :: A) (y2 :: B)).
      { assert (K := core_new_right E _ _ _ _ _ r (set_new rc) H eq_refl).
        apply (core_bounds E _ _ _ (lc + 1) (rc + 1)) in K; try lia.
        refine (core_join E OK _ _ _ z' _ _ _ K (lc_fresh _ _ _ _ _ H) _ eq_refl eq_refl). simpl; lia. }
      eexists; exists (z' :: A), (y2 :: B), (lc + 1), (rc + 1). split; [reflexivity|].
      split; [|split; [lia|split; [lia|]]].
      + split; [|split; [exact HN|split; first [reflexivity|assumption]]]. constructor; [first [reflexivity|assumption]| |].
        * refine (add_l s _ A z' _). apply (t_l _ _ _ _ _ T).
        * refine (add_r s _ B y2 _). apply (t_r _ _ _ _ _ T).
      + exists None, (map v_key A), None, rc.
        split; [apply pick_l_none; auto|]. split; [eexists; apply pick_r_none; eauto|].
        split; [split; [eapply rc_fresh; eauto|]|reflexivity]. reflexivity.
  Qed.
End LaxProofs2.
