(* GroupMap::swap_right and swap_right_remove when new is present already (excluded by
   C50_swap_right_partial, C50_moved_partial and their C51 counterparts): the map then holds two
   right items equal to new. *)
From Coq Require Import List NArith Lia Bool Permutation PeanoNat.
From Verif Require Import Closures Prelude RawTable GroupMap ListFacts TableFacts GroupSpec GroupHistory
  IterFacts GroupProofs GroupProofs2 GroupProofs3 GroupProofs4 GroupProofs5 GroupProofs6
  GroupHistoryProofs GroupProps GroupProps2 SoundTables Concrete GroupDefects.
Import ListNotations.
Open Scope N_scope.

Definition none {T} (l : list T) : bool := match l with [] => true | _ => false end.
Lemma none_perm : forall {T} (l l' : list T), Permutation l l' -> none l = none l'.
Proof.
  intros T l l' P. destruct l, l'; auto.
  - apply Permutation_nil in P. discriminate.
  - symmetry in P. apply Permutation_nil in P. discriminate.
Qed.
Lemma existsb_perm : forall {T} (p : T -> bool) l l', Permutation l l' -> existsb p l = existsb p l'.
Proof.
  intros T p l l' P. induction P; simpl; auto.
  - rewrite IHP. auto.
  - destruct (p x), (p y); auto.
  - congruence.
Qed.

Section Duplicate.
  Context {L R S : Type} (E : env L R S) (OK : lawful E).
  Notation "a =L b" := (eqL E a b = true) (at level 70).
  Notation "a =R b" := (eqR E a b = true) (at level 70).
  Notation Rep := (Rep E).
  Notation Repr := (Repr E).
  Notation slotL := (slotL E).
  Notation slotR := (slotR E).
  Notation pkey := (pkey E).
  Notation pslot := (pslot E).
  Notation zl := (zleft L R).
  Notation zr := (zright R).
  Notation gm := (gmap L R S).
  Let EL := eqL_equiv _ OK.
  Let ER := eqR_equiv _ OK.
  Let LO := lo_ok _ OK.

  (* as Rep, but right items may be equal *)
  Record Dup (s : S) (m : gm) (A : list zl) (C : list zr) : Prop := {
    du_hb : hash_builder m = s;
    du_l : Permutation (slots (left_set m)) (map (slotL s) A);
    du_r : Permutation (slots (right_set m)) (map (slotR s) C);
    du_tab : forall y, In y C ->
      Permutation (slots (y_tab y)) (map (pslot s (y_id y)) (filter (in_group (y_id y)) A));
    du_lids : NoDup (map z_id A);
    du_rids : NoDup (map y_id C);
    du_link : forall z, In z A -> exists y, In y C /\ y_id y = z_g z /\ y_r y = z_r z;
    du_eql : distinct (eqL E) (map z_l A)
  }.

  Lemma du_find_l : forall s m A C q, Dup s m A C ->
    (exists z, In z A /\ q =L z_l z /\ find_left E m q = Some (snd (slotL s z))) \/
    ((forall z, In z A -> eqL E q (z_l z) = false) /\ find_left E m q = None).
  Proof.
    intros s m A C q H. destruct (split_key (eqL E) EL z_l A q (du_eql _ _ _ _ H)) as [(z & A' & P & Q & N)|N].
    - left. exists z. split; [eapply Permutation_in; [symmetry; exact P|left; auto]|]. split; auto.
      unfold find_left. rewrite (du_hb _ _ _ _ H), (hashL_ok _ OK _ _ _ Q).
      eapply t_get_unique with (rest := map (slotL s) A'); [exact LO| |apply (equiv_sym _ EL), Q|].
      + rewrite (du_l _ _ _ _ H). apply (Permutation_map (slotL s) P).
      + intros x Hx. eapply (key_l_other E OK); eauto.
    - right. split; auto. unfold find_left. apply t_get_absent. intros x Hx.
      apply (Permutation_in _ (du_l _ _ _ _ H)) in Hx. eapply (key_l_other E OK); eauto.
  Qed.
  Lemma du_find_r : forall s m A C q, Dup s m A C ->
    (exists y, In y C /\ q =R y_r y /\ find_right E m q = Some (snd (slotR s y))) \/
    ((forall y, In y C -> eqR E q (y_r y) = false) /\ find_right E m q = None).
  Proof.
    intros s m A C q H. unfold find_right, t_get.
    destruct (t_find (lo E) (right_set m) (hashR E (hash_builder m) q) (equivalent_key_right (eqR E) q)) as [i|] eqn:F.
    - left. destruct (t_find_some _ _ _ _ _ F) as (h & e & NE & PE).
      assert (I := nth_error_In _ _ NE). apply (Permutation_in _ (du_r _ _ _ _ H)) in I.
      apply in_map_iff in I as (y & QY & Hy). inversion QY; subst h e.
      exists y. split; auto. split; [apply (equiv_sym _ ER), PE|]. unfold t_entry. rewrite NE. auto.
    - right. split; auto. intros y Hy. destruct (eqR E q (y_r y)) eqn:Q; auto. exfalso.
      assert (X := t_find_none _ LO _ _ _ F (snd (slotR s y))).
      rewrite (equiv_sym _ ER _ _ Q : equivalent_key_right (eqR E) q (snd (slotR s y)) = true) in X.
      discriminate X. eapply Permutation_in; [symmetry; apply (du_r _ _ _ _ H)|].
      rewrite (du_hb _ _ _ _ H), (hashR_ok _ OK _ _ _ Q). apply in_map_iff. exists y. auto.
  Qed.
  Lemma find_right_like : forall (m : gm) q q', q =R q' -> find_right E m q = find_right E m q'.
  Proof.
    intros m q q' Q. unfold find_right, t_get. rewrite (hashR_ok _ OK _ _ _ Q).
    assert (X : t_find (lo E) (right_set m) (hashR E (hash_builder m) q') (equivalent_key_right (eqR E) q) =
                t_find (lo E) (right_set m) (hashR E (hash_builder m) q') (equivalent_key_right (eqR E) q')).
    { unfold t_find. apply find_same. intros i. destruct (nth_error _ i) as [[h e]|]; auto.
      unfold equivalent_key_right. rewrite !(swapR E OK (r_value e)). apply (eqb_replace_l _ ER). auto. }
    rewrite X. auto.
  Qed.

  Lemma du_elems : forall s m A C y, Dup s m A C -> In y C ->
    exists zs, hs_elems (y_tab y) = map (pkey s) zs /\ Permutation zs (filter (in_group (y_id y)) A).
  Proof.
    intros s m A C y H Hy. assert (P := Permutation_map snd (du_tab _ _ _ _ H y Hy)).
    rewrite map_map in P. apply Permutation_map_inv in P as (zs & Q & P). exists zs. split; auto. symmetry; auto.
  Qed.
  Lemma du_left_id : forall s m A C z, Dup s m A C -> In z A ->
    t_get (lo E) (left_set m) (hashL E s (z_l z)) (left_with_left_id (z_id z)) = Some (snd (slotL s z)).
  Proof.
    intros s m A C z H Hz. apply perm_in_cons in Hz as [A' P].
    assert (PL := du_l _ _ _ _ H). rewrite (Permutation_map (slotL s) P) in PL.
    eapply t_get_unique; [exact LO|exact PL|apply N.eqb_refl|].
    intros x Hx. eapply (id_l_other E); [|exact Hx].
    assert (ND := NoDup_perm _ _ (Permutation_map z_id P) (du_lids _ _ _ _ H)). inversion ND; auto.
  Qed.
  Lemma du_right_id : forall s m A C y, Dup s m A C -> In y C ->
    t_get (lo E) (right_set m) (hashR E s (y_r y)) (right_with_right_id (y_id y)) = Some (snd (slotR s y)).
  Proof.
    intros s m A C y H Hy. apply perm_in_cons in Hy as [C' P].
    assert (PL := du_r _ _ _ _ H). rewrite (Permutation_map (slotR s) P) in PL.
    eapply t_get_unique; [exact LO|exact PL|apply N.eqb_refl|].
    intros x Hx. eapply (id_r_other E); [|exact Hx].
    assert (ND := NoDup_perm _ _ (Permutation_map y_id P) (du_rids _ _ _ _ H)). inversion ND; auto.
  Qed.

  (* what a search that has found y answers *)
  Lemma du_seen : forall s m A C y q, Dup s m A C -> In y C -> q =R y_r y ->
    find_right E m q = Some (snd (slotR s y)) ->
    let g := map z_l (filter (in_group (y_id y)) A) in
    (exists it Q, get_left_iter E m q = Some it /\ pair_rest E m it = Done Q /\ Permutation Q g) /\
    is_right_paired E m q = negb (none g) /\
    (forall l, are_paired E m l q = existsb (eqL E l) g).
  Proof.
    intros s m A C y q H Hy Q F g. destruct (du_elems _ _ _ _ _ H Hy) as (zs & QE & PZ).
    assert (I : incl zs A).
    { intros x Hx. apply (Permutation_in _ PZ) in Hx. apply filter_In in Hx. tauto. }
    split; [|split].
    - exists (hs_elems (y_tab y)), (map z_l zs). split; [|split].
      + unfold get_left_iter, get_left_iter_q. fold (find_right E m q). rewrite F. auto.
      + rewrite QE. clear QE PZ. unfold pair_rest. rewrite map_length.
        induction zs as [|z t IH]; simpl; auto.
        erewrite du_left_id by (eauto; apply I; left; auto). simpl.
        rewrite IH; auto. intros x Hx. apply I; right; auto.
      + apply Permutation_map. auto.
    - unfold is_right_paired. rewrite F. cbn [snd GroupProofs.slotR r_pairs]. f_equal.
      unfold set_is_empty, t_len. unfold g.
      rewrite <- (none_perm _ _ (Permutation_map z_l PZ)).
      assert (LN := f_equal (@length _) QE). unfold hs_elems in LN. rewrite !map_length in LN. rewrite LN.
      destruct zs; auto.
    - intros l. unfold are_paired. rewrite F. destruct (du_find_l _ _ _ _ l H) as [(z & Hz & QL & ->)|[N ->]].
      + cbn [snd GroupProofs.slotR GroupProofs.slotL l_hash r_id r_pairs l_id].
        rewrite (du_hb _ _ _ _ H), (hashL_ok _ OK _ _ _ QL), (hashR_ok _ OK _ _ _ Q).
        change (hashL E s (z_l z), z_id z) with (pkey s z).
        assert (SH : set_hashed E (y_id y) (y_tab y)).
        { intros x Hx. apply (Permutation_in _ (du_tab _ _ _ _ H y Hy)) in Hx.
          apply in_map_iff in Hx as (w & <- & _). auto. }
        assert (TK : Permutation (map snd (slots (y_tab y))) (map (pkey s) zs)).
        { change (map snd (slots (y_tab y))) with (hs_elems (y_tab y)). rewrite QE. auto. }
        assert (ONE : forall x, In x A -> l =L z_l x -> x = z).
        { intros x Hx QX. eapply (distinct_map_inj (eqL E) EL z_l); [apply (du_eql _ _ _ _ H)|auto|auto|].
          rewrite <- (eqb_replace_l _ EL _ _ _ QX). auto. }
        destruct (in_group (y_id y) z) eqn:G.
        * assert (z_r z = y_r y) as ->.
          { destruct (du_link _ _ _ _ H z Hz) as (y1 & Hy1 & I1 & <-).
            apply N.eqb_eq in G. f_equal.
            eapply NoDup_map_inj; [apply (du_rids _ _ _ _ H)|auto|auto|congruence]. }
          rewrite N.eqb_refl. cbn [andb].
          assert (SC : set_contains E (y_id y) (y_tab y) (pkey s z) = true).
          { apply (set_contains_iff E OK); auto. eapply Permutation_in; [symmetry; exact TK|].
            apply in_map. eapply Permutation_in; [symmetry; exact PZ|]. apply filter_In; auto. }
          rewrite SC. symmetry. apply existsb_exists. exists (z_l z). split; auto.
          apply in_map, filter_In. auto.
        * assert (SC : set_contains E (y_id y) (y_tab y) (pkey s z) = false).
          { apply (set_contains_false E OK); auto. intros X. apply (Permutation_in _ TK) in X.
            apply in_map_iff in X as (w & K & X). assert (w = z).
            { eapply NoDup_map_inj; [apply (du_lids _ _ _ _ H)|auto|auto|]. inversion K; auto. }
            subst w. apply (Permutation_in _ PZ) in X. apply filter_In in X as [_ X]. congruence. }
          rewrite SC, andb_false_r. symmetry. apply existsb_false. intros a Ha.
          apply in_map_iff in Ha as (w & <- & Hw). apply filter_In in Hw as [Hw GW].
          destruct (eqL E l (z_l w)) eqn:X; auto. apply ONE in X; auto. congruence.
      + symmetry. apply existsb_false. intros a Ha. apply in_map_iff in Ha as (w & <- & Hw).
        apply filter_In in Hw as [Hw _]. auto.
  Qed.
  Lemma du_unseen : forall (m : gm) q, find_right E m q = None ->
    get_left_iter E m q = None /\ is_right_paired E m q = false /\ (forall l, are_paired E m l q = false).
  Proof.
    intros m q F. unfold get_left_iter, get_left_iter_q, is_right_paired, are_paired.
    fold (find_right E m q). rewrite F. split; auto. split; auto. intros l. destruct (find_left E m l); auto.
  Qed.
  Lemma du_unpaired : forall s m A C, Dup s m A C ->
    exists Y, Permutation Y C /\
      right_rest (iter_right m) = Done (map y_r Y) /\
      unpaired_rest (iter_unpaired m) =
        Done (map y_r (filter (fun y => none (filter (in_group (y_id y)) A)) Y)).
  Proof.
    intros s m A C H. assert (P := du_r _ _ _ _ H). apply Permutation_map_inv in P as (Y & Q & P).
    exists Y. split; [symmetry; auto|]. unfold iter_right, right_rest, iter_unpaired, unpaired_rest. rewrite Q.
    assert (I : incl Y C) by (intros x Hx; eapply Permutation_in; [symmetry; exact P|auto]).
    assert (EM : forall y, In y Y -> set_is_empty (y_tab y) = none (filter (in_group (y_id y)) A)).
    { intros y Hy. assert (LN := Permutation_length (du_tab _ _ _ _ H y (I y Hy))). rewrite map_length in LN.
      unfold set_is_empty, t_len. rewrite LN. destruct (filter _ A); auto. }
    clear - EM. split.
    - induction Y as [|y Y IH]; auto. cbn [map length collect right_next]. simpl in *. rewrite IH; auto.
    - rewrite map_length.
      assert (K : forall n Y, (length Y <= n)%nat ->
        (forall y, In y Y -> set_is_empty (y_tab y) = none (filter (in_group (y_id y)) A)) ->
        collect unpaired_next n (map (slotR s) Y) =
          Done (map y_r (filter (fun y => none (filter (in_group (y_id y)) A)) Y))).
      { clear. induction n; intros Y LE EM.
        - destruct Y; [auto|simpl in LE; lia].
        - assert (K : forall Y, (length Y <= Datatypes.S n)%nat ->
            (forall y, In y Y -> set_is_empty (y_tab y) = none (filter (in_group (y_id y)) A)) ->
            match unpaired_next (map (slotR s) Y) with
            | Done (Some r, rest) => exists Y', rest = map (slotR s) Y' /\ (length Y' <= n)%nat /\ incl Y' Y /\
                map y_r (filter (fun y => none (filter (in_group (y_id y)) A)) Y) =
                r :: map y_r (filter (fun y => none (filter (in_group (y_id y)) A)) Y')
            | Done (None, _) => filter (fun y => none (filter (in_group (y_id y)) A)) Y = []
            | Panicked => False
            end).
          { clear. induction Y as [|y Y IH]; intros LE EM; cbn [map unpaired_next]; auto.
            unfold GroupProofs.slotR at 1. cbn [r_pairs r_value]. cbn [filter]. rewrite EM by (left; auto).
            destruct (none (filter (in_group (y_id y)) A)) eqn:X.
            - exists Y. simpl in LE. repeat split; auto; [lia|]. intros x Hx; right; auto.
            - assert (IH' := IH ltac:(simpl in LE; lia) (fun z Hz => EM z (or_intror Hz))).
              destruct (unpaired_next (map (slotR s) Y)) as [[[r|] rest]|]; auto.
              destruct IH' as (Y' & Q1 & Q2 & Q3 & Q4). exists Y'. repeat split; auto.
              intros x Hx; right; auto. }
          specialize (K Y LE EM). cbn [collect].
          destruct (unpaired_next (map (slotR s) Y)) as [[[r|] rest]|]; [|rewrite K; auto|destruct K].
          destruct K as (Y' & -> & Q2 & Q3 & Q4). rewrite IHn; auto. rewrite Q4. auto. }
      apply K; auto.
  Qed.

  Lemma du_left : forall s m A C, Dup s m A C ->
    exists Q, left_rest (iter_left m) = Done Q /\ Permutation Q (map z_l A).
  Proof.
    intros s m A C H. assert (P := du_l _ _ _ _ H). apply Permutation_map_inv in P as (Y & Q & P).
    exists (map z_l Y). split; [|apply Permutation_map; symmetry; auto].
    unfold iter_left, left_rest. rewrite Q. clear. induction Y as [|y Y IH]; auto.
    cbn [map length collect left_next]. simpl in *. rewrite IH; auto.
  Qed.

  (* the left items zs of y now belong to an entry of new, with id rc *)
  Lemma dup_regroup : forall s lc rc m A y B C zs m' new tab t0, Rep s lc rc m A [] (y :: B) ->
    Permutation zs (filter (in_group (y_id y)) A) ->
    hash_builder m' = s ->
    Permutation (slots (left_set m'))
      (map (slotL s) (map (moved rc new) zs ++ filter (fun z => negb (in_group (y_id y) z)) A)) ->
    Permutation (slots (right_set m')) (map (slotR s) (ZR rc new tab :: C)) ->
    Permutation (slots tab) (map (pslot s rc) zs) -> slots t0 = [] ->
    (C = B \/ C = ZR (y_id y) (y_r y) t0 :: B) ->
    Dup s m' (map (moved rc new) zs ++ filter (fun z => negb (in_group (y_id y) z)) A) (ZR rc new tab :: C).
  Proof.
    intros s lc rc m A y B C zs m' new tab t0 H PZ HB PL PR PT T0 HC.
    set (A' := filter (fun z => negb (in_group (y_id y) z)) A) in *.
    assert (PA : Permutation A (zs ++ A')) by (rewrite PZ; apply split_group).
    assert (LT : forall z, In z A -> z_g z < rc).
    { intros z Hz. apply (rep_llt _ _ _ _ _ _ _ _ H z). rewrite app_nil_r. auto. }
    assert (IA : forall z, In z A' -> In z A /\ in_group (y_id y) z = false).
    { intros z Hz. apply filter_In in Hz as [? X]. apply negb_true_iff in X. auto. }
    assert (RL := rep_rlt _ _ _ _ _ _ _ _ H). assert (ND := rep_rids _ _ _ _ _ _ _ _ H).
    cbn [map] in ND. inversion ND as [|? ? ND1 ND2]; subst x l.
    assert (IB : incl B C) by (intros x Hx; destruct HC as [->| ->]; auto; right; auto).
    constructor; auto.
    - intros x [<-|Hx]; cbn [y_id y_tab].
      + rewrite PT, filter_app, filter_all_true, filter_all_false, app_nil_r, map_map.
        * apply Permutation_refl.
        * intros z Hz. apply IA in Hz as [Hz _]. apply LT in Hz. apply N.eqb_neq. lia.
        * intros z Hz. apply in_map_iff in Hz as (w & <- & _). apply N.eqb_refl.
      + assert (G0 : forall i, i < rc -> filter (in_group i) (map (moved rc new) zs) = []).
        { intros i Hi. apply filter_all_false. intros z Hz. apply in_map_iff in Hz as (w & <- & _).
          apply N.eqb_neq. cbn. lia. }
        assert (CA : x = ZR (y_id y) (y_r y) t0 \/ In x B) by (destruct HC as [->| ->]; simpl in Hx; intuition).
        rewrite filter_app. destruct CA as [->|Hb].
        * cbn [y_id y_tab]. rewrite T0, G0 by (apply RL; left; auto). cbn [app].
          rewrite filter_all_false; auto. intros z Hz. apply IA in Hz. tauto.
        * rewrite G0 by (apply RL; right; auto). cbn [app].
          rewrite (rep_tab _ _ _ _ _ _ _ _ H x (or_intror Hb)), app_nil_r. apply Permutation_map.
          rewrite (filter_perm (in_group (y_id x)) _ _ PA), filter_app, filter_all_false; [apply Permutation_refl|].
          intros z Hz. apply (Permutation_in _ PZ) in Hz. apply filter_In in Hz as [_ Hz].
          apply N.eqb_eq in Hz. apply N.eqb_neq. rewrite Hz. intros X. apply ND1. rewrite X. apply in_map. auto.
    - assert (X := rep_lids _ _ _ _ _ _ _ _ H). rewrite app_nil_r in X.
      eapply NoDup_perm; [|exact X]. rewrite (Permutation_map z_id PA), !map_app, map_map. apply Permutation_refl.
    - cbn [map y_id]. constructor.
      + intros X. apply in_map_iff in X as (x & X1 & X2).
        assert (y_id x < rc); [|lia].
        destruct HC as [->| ->]; [|destruct X2 as [<-|X2]]; cbn [y_id]; apply RL; simpl; auto.
      + destruct HC as [->| ->]; auto.
    - intros z Hz. apply in_app_iff in Hz as [Hz|Hz].
      + apply in_map_iff in Hz as (w & <- & _). exists (ZR rc new tab). split; [left; auto|]. auto.
      + apply IA in Hz as [Hz GZ]. destruct (rep_link _ _ _ _ _ _ _ _ H z Hz) as (x & [<-|Hx] & X1 & X2).
        * apply N.eqb_neq in GZ. congruence.
        * exists x. split; [right; auto|auto].
    - apply (distinct_perm (eqL E) EL) with (map z_l A); [|apply (rep_eql _ _ _ _ _ _ _ _ H)].
      rewrite (Permutation_map z_l PA), !map_app, map_map. apply Permutation_refl.
  Qed.

  Definition kept_old (keep : bool) (y : zr) (t0 : table (N * N)) (B : list zr) : list zr :=
    if keep then ZR (y_id y) (y_r y) t0 :: B else B.
  Lemma swap_right_dup : forall s lc rc m A y B old new, Rep s lc rc m A [] (y :: B) ->
    eqR E old (y_r y) = true -> (forall x, In x B -> eqR E old (y_r x) = false) ->
    rc + 1 < two64 -> right_counter m = rc ->
    exists m' zs tab t0, swap_right E old new m = Ret m' tt /\
      Permutation zs (filter (in_group (y_id y)) A) /\
      Dup s m' (map (moved rc new) zs ++ filter (fun z => negb (in_group (y_id y) z)) A)
        (ZR rc new tab :: kept_old true y t0 B) /\ slots t0 = [].
  Proof.
    intros s lc rc m A y B' old new H' Q N BR CR.
    assert (HB := rep_hb _ _ _ _ _ _ _ _ H').
    unfold swap_right, right_assign, right_insert, incr_right. mrun. rewrite HB.
    destruct (find_key_right E OK _ _ _ _ _ _ _ _ _ H' Q N) as (j & FR & AR). rewrite FR.
    cbn [right_set left_set set_right set_left fst snd hash_builder right_counter left_counter
      GroupProofs.slotR r_pairs r_value].
    rewrite CR, HB, u64_incr_ok by auto.
    apply modify_at with (f := set_pairs (t_clear (lo E) (y_tab y))) in AR.
    destruct (tab_elems E _ _ _ _ _ _ _ y H' (or_introl eq_refl)) as (zs & QE & PZ).
    rewrite app_nil_r in PZ. rewrite QE.
    set (A' := filter (fun z => negb (in_group (y_id y) z)) A).
    assert (PA : Permutation A (zs ++ A')) by (rewrite PZ; apply split_group).
    assert (H1 := rep_perm E OK _ _ _ _ _ _ _ _ _ PA (Permutation_refl _) H').
    assert (ND : NoDup (map z_id (zs ++ A'))).
    { eapply NoDup_app_left. rewrite <- map_app. apply (rep_lids _ _ _ _ _ _ _ _ H1). }
    assert (NDz : NoDup (map z_id zs)) by (rewrite map_app in ND; eapply NoDup_app_left; eauto).
    set (tab := set_collect E rc (map (pkey s) zs)).
    assert (PT := set_collect_keys E OK s rc zs NDz). fold tab in PT.
    assert (PT2 := Permutation_map snd PT). rewrite map_map in PT2.
    change (fun x => snd (pslot s rc x)) with (pkey s) in PT2.
    destruct (Permutation_map_inv _ _ PT2) as (zs2 & Q2 & P2).
    change (map snd (slots tab)) with (hs_elems tab) in Q2. rewrite Q2.
    assert (PA2 : Permutation (zs ++ A') (zs2 ++ A')) by (apply Permutation_app_tail; auto).
    match goal with |- context [rehash_pairs E _ _ ?m1] =>
      destruct (rehash_pairs_run E OK s rc new zs2 A' m1) as (lt & RUN & PL) end.
    { reflexivity. }
    { cbn [left_set set_right]. rewrite (rep_l _ _ _ _ _ _ _ _ H1). apply Permutation_map; auto. }
    { eapply NoDup_perm; [apply Permutation_map; exact PA2|auto]. }
    rewrite RUN. eexists. exists zs, tab, (t_clear (lo E) (y_tab y)).
    split; [reflexivity|]. split; [exact PZ|]. split; [|reflexivity].
    eapply dup_regroup with (t0 := t_clear (lo E) (y_tab y)); [exact H'|exact PZ|reflexivity| | |exact PT|reflexivity|right; reflexivity].
    - cbn [left_set set_left]. rewrite PL, !map_app. apply Permutation_app_tail. rewrite !map_map.
      apply Permutation_map. symmetry; auto.
    - cbn [right_set set_right set_left]. rewrite t_insert_perm; [|exact LO|].
      + cbn [kept_old map]. constructor. apply AR.
      + intros x Hx. apply (Permutation_in _ (proj2 AR)) in Hx.
        destruct Hx as [<-|Hx]; auto. apply in_map_iff in Hx as (w & <- & _). auto.
  Qed.
  Lemma swap_right_remove_dup : forall s lc rc m A y B old new, Rep s lc rc m A [] (y :: B) ->
    eqR E old (y_r y) = true -> (forall x, In x B -> eqR E old (y_r x) = false) ->
    rc + 1 < two64 -> right_counter m = rc ->
    exists m' zs tab t0, swap_right_remove E old new m = Ret m' (Some (y_r y)) /\
      Permutation zs (filter (in_group (y_id y)) A) /\
      Dup s m' (map (moved rc new) zs ++ filter (fun z => negb (in_group (y_id y) z)) A)
        (ZR rc new tab :: kept_old false y t0 B) /\ slots t0 = [].
  Proof.
    intros s lc rc m A y B' old new H' Q N BR CR.
    assert (HB := rep_hb _ _ _ _ _ _ _ _ H').
    assert (HQ : hashR E s old = hashR E s (y_r y)) by (apply (hashR_ok _ OK); auto).
    unfold swap_right_remove, right_remove_entry, right_insert, incr_right. mrun.
    rewrite HB, HQ.
    destruct (t_remove_entry_unique _ LO (right_set m) (hashR E s (y_r y))
      (equivalent_key_right (eqR E) old) (snd (slotR s y)) (map (slotR s) B')) as (rt & -> & PR).
    { apply (rep_r _ _ _ _ _ _ _ _ H'). }
    { apply (equiv_sym _ (eqR_equiv E OK)), Q. }
    { intros x Hx. eapply (key_r_other E OK); eauto. }
    cbn [right_set left_set set_right set_left fst snd hash_builder right_counter left_counter
      GroupProofs.slotR r_pairs r_value].
    rewrite CR, HB, u64_incr_ok by auto.
    destruct (tab_elems E _ _ _ _ _ _ _ y H' (or_introl eq_refl)) as (zs & QE & PZ).
    rewrite app_nil_r in PZ. rewrite QE.
    set (A' := filter (fun z => negb (in_group (y_id y) z)) A).
    assert (PA : Permutation A (zs ++ A')) by (rewrite PZ; apply split_group).
    assert (H1 := rep_perm E OK _ _ _ _ _ _ _ _ _ PA (Permutation_refl _) H').
    assert (ND : NoDup (map z_id (zs ++ A'))).
    { eapply NoDup_app_left. rewrite <- map_app. apply (rep_lids _ _ _ _ _ _ _ _ H1). }
    assert (NDz : NoDup (map z_id zs)) by (rewrite map_app in ND; eapply NoDup_app_left; eauto).
    set (tab := set_collect E rc (map (pkey s) zs)).
    assert (PT := set_collect_keys E OK s rc zs NDz). fold tab in PT.
    assert (PT2 := Permutation_map snd PT). rewrite map_map in PT2.
    change (fun x => snd (pslot s rc x)) with (pkey s) in PT2.
    destruct (Permutation_map_inv _ _ PT2) as (zs2 & Q2 & P2).
    change (map snd (slots tab)) with (hs_elems tab) in Q2. rewrite Q2.
    assert (PA2 : Permutation (zs ++ A') (zs2 ++ A')) by (apply Permutation_app_tail; auto).
    match goal with |- context [rehash_pairs E _ _ ?m1] =>
      destruct (rehash_pairs_run E OK s rc new zs2 A' m1) as (lt & RUN & PL) end.
    { reflexivity. }
    { cbn [left_set set_right]. rewrite (rep_l _ _ _ _ _ _ _ _ H1). apply Permutation_map; auto. }
    { eapply NoDup_perm; [apply Permutation_map; exact PA2|auto]. }
    rewrite RUN. eexists. exists zs, tab, (t_clear (lo E) (y_tab y)). split; [reflexivity|].
    split; [exact PZ|]. split; [|reflexivity].
    eapply dup_regroup with (t0 := t_clear (lo E) (y_tab y)); [exact H'|exact PZ|reflexivity| | |exact PT|reflexivity|left; reflexivity].
    - cbn [left_set set_left]. rewrite PL, !map_app. apply Permutation_app_tail. rewrite !map_map.
      apply Permutation_map. symmetry; auto.
    - cbn [right_set set_right set_left]. rewrite t_insert_perm; [cbn [kept_old map]; constructor; exact PR|exact LO|].
      intros x Hx. apply (Permutation_in _ PR) in Hx. apply in_map_iff in Hx as (w & <- & _). auto.
  Qed.

  (* What is observable of m' once new has been put beside an equal right item in exchange for old
     (keep: old stays, without left items).  A search for new finds one of the two: the new one, with
     the left items of old, or the other, with the left items of new. *)
  Definition doubled (keep : bool) (m : gm) (rs : list R) (ps : list (L * R)) (old new : R) (m' : gm) : Prop :=
    let rs' := new :: (if keep then rs else filter (fun b => negb (eqR E old b)) rs) in
    (exists grp, let seen b := if eqR E new b then grp else if eqR E old b then [] else lefts_of E ps b in
       (grp = lefts_of E ps old \/ grp = if eqR E old new then [] else lefts_of E ps new) /\
       (forall b, if contains_right E m' b
          then exists it Q, get_left_iter E m' b = Some it /\ pair_rest E m' it = Done Q /\ Permutation Q (seen b)
          else get_left_iter E m' b = None) /\
       (forall b, is_right_paired E m' b = negb (none (seen b))) /\
       (forall l b, are_paired E m' l b = existsb (eqL E l) (seen b))) /\
    (forall b, contains_right E m' b = contains_right E m b && (keep || negb (eqR E old b))) /\
    (forall l, contains_left E m' l = contains_left E m l) /\
    (forall l, are_paired E m l old = false -> get_right E m' l = get_right E m l) /\
    (exists Q, right_rest (iter_right m') = Done Q /\ Permutation Q rs') /\
    (exists Q, left_rest (iter_left m') = Done Q /\ Permutation Q (map fst ps)) /\
    (exists Q, unpaired_rest (iter_unpaired m') = Done Q /\
       Permutation Q ((if none (lefts_of E ps old) then [new] else []) ++
         filter (fun b => if eqR E old b then keep else none (lefts_of E ps b)) rs)) /\
    len_left m' = length ps /\ len_right m' = length rs'.

  Lemma rep_dup : forall s lc rc m A B, Rep s lc rc m A [] B -> Dup s m A B.
  Proof.
    intros s lc rc m A B H. constructor; try apply H.
    - intros y Hy. rewrite (rep_tab _ _ _ _ _ _ _ _ H y Hy), app_nil_r. auto.
    - assert (X := rep_lids _ _ _ _ _ _ _ _ H). rewrite app_nil_r in X. auto.
  Qed.

  (* the left item the map has for l *)
  Lemma du_get_right : forall s m A C l z, Dup s m A C -> In z A -> l =L z_l z ->
    get_right E m l = option_map r_value (t_get (lo E) (right_set m) (hashR E s (z_r z)) (right_with_right_id (z_rid z))).
  Proof.
    intros s m A C l z H Hz Q. unfold get_right, get_right_q. fold (find_left E m l).
    destruct (du_find_l _ _ _ _ l H) as [(w & Hw & QW & ->)|[N _]].
    - assert (w = z) as ->; auto.
      eapply (distinct_map_inj (eqL E) EL z_l); [apply (du_eql _ _ _ _ H)|auto|auto|].
      rewrite <- (eqb_replace_l _ EL _ _ _ QW). auto.
    - rewrite (N z Hz) in Q. discriminate.
  Qed.
  Lemma du_get_right_own : forall s m A C l z, Dup s m A C -> In z A -> l =L z_l z -> z_rid z = z_g z ->
    get_right E m l = Some (z_r z).
  Proof.
    intros s m A C l z H Hz Q T. rewrite (du_get_right _ _ _ _ _ _ H Hz Q), T.
    destruct (du_link _ _ _ _ H z Hz) as (y & Hy & I & <-). rewrite <- I, (du_right_id _ _ _ _ y H Hy). auto.
  Qed.
  Lemma du_get_right_none : forall s m A C l, Dup s m A C -> (forall z, In z A -> eqL E l (z_l z) = false) ->
    get_right E m l = None.
  Proof.
    intros s m A C l H N. unfold get_right, get_right_q. fold (find_left E m l).
    destruct (du_find_l _ _ _ _ l H) as [(w & Hw & QW & _)|[_ ->]]; auto.
    rewrite (N w Hw) in QW. discriminate.
  Qed.

  Lemma group_lefts : forall s lc rc m A D B y b, Rep s lc rc m A D B -> In y B -> b =R y_r y ->
    map z_l (filter (in_group (y_id y)) A) = lefts_of E (map z_pair A) b.
  Proof.
    intros s lc rc m A D B y b H Hy Q. unfold lefts_of.
    assert (X : forall z, In z A -> in_group (y_id y) z = eqR E b (snd (z_pair z))).
    { intros z Hz. symmetry. exact (is_r_in_group E OK _ _ _ _ _ _ _ y b z H Hy Q Hz). }
    clear H. induction A as [|a A IH]; auto. cbn [map filter]. rewrite <- (X a) by (left; auto).
    destruct (in_group (y_id y) a); cbn [map]; [f_equal|]; apply IH; intros z Hz; apply X; right; auto.
  Qed.
  Lemma none_map : forall {T U} (f : T -> U) l, none (map f l) = none l.
  Proof. intros T U f l. destruct l; auto. Qed.

  Lemma doubled_ok : forall keep s lc rc m A y B rs zs m' old new tab t0,
    Rep s lc rc m A [] (y :: B) -> (forall z, In z A -> z_rid z = z_g z) ->
    old =R y_r y -> (forall x, In x B -> eqR E old (y_r x) = false) ->
    Permutation rs (map y_r (y :: B)) ->
    (exists x, In x (y :: B) /\ new =R y_r x) -> (keep = false -> eqR E old new = false) ->
    Permutation zs (filter (in_group (y_id y)) A) -> slots t0 = [] ->
    Dup s m' (map (moved rc new) zs ++ filter (fun z => negb (in_group (y_id y) z)) A)
      (ZR rc new tab :: kept_old keep y t0 B) ->
    doubled keep m rs (map z_pair A) old new m' /\
    (forall l z, In z A -> l =L z_l z -> in_group (y_id y) z = true ->
       get_right E m' l = option_map r_value (t_get (lo E) (right_set m') (hashR E s new) (right_with_right_id (y_id y)))).
  Proof.
    intros keep s lc rc m A y B rs zs m' old new tab t0 H T2 Q N PRS NEW KN PZ T0 HN.
    assert (HD := rep_dup _ _ _ _ _ _ H).
    set (A' := filter (fun z => negb (in_group (y_id y) z)) A) in *.
    set (A2 := map (moved rc new) zs ++ A') in *.
    set (y0 := ZR (y_id y) (y_r y) t0).
    set (C := ZR rc new tab :: kept_old keep y t0 B) in *.
    assert (PA : Permutation A (zs ++ A')) by (rewrite PZ; apply split_group).
    assert (LT : forall z, In z A -> z_g z < rc).
    { intros z Hz. apply (rep_llt _ _ _ _ _ _ _ _ H z). rewrite app_nil_r. auto. }
    assert (IA : forall z, In z A' -> In z A /\ in_group (y_id y) z = false).
    { intros z Hz. apply filter_In in Hz as [? X]. apply negb_true_iff in X. auto. }
    assert (IZ : forall z, In z zs -> In z A /\ in_group (y_id y) z = true).
    { intros z Hz. apply (Permutation_in _ PZ) in Hz. apply filter_In in Hz. auto. }
    assert (RL := rep_rlt _ _ _ _ _ _ _ _ H). assert (ND := rep_rids _ _ _ _ _ _ _ _ H).
    cbn [map] in ND. inversion ND as [|? ? ND1 ND2]; subst x l.
    assert (CC : forall x, In x C <-> x = ZR rc new tab \/ (keep = true /\ x = y0) \/ In x B).
    { intros x. unfold C, kept_old. destruct keep; simpl; fold y0; intuition; subst; auto; discriminate. }
    (* the groups of m' *)
    assert (G1 : map z_l (filter (in_group rc) A2) = map z_l zs).
    { unfold A2. rewrite filter_app, filter_all_true, filter_all_false, app_nil_r, map_map; auto.
      - intros z Hz. apply IA in Hz as [Hz _]. apply LT in Hz. apply N.eqb_neq. lia.
      - intros z Hz. apply in_map_iff in Hz as (w & <- & _). apply N.eqb_refl. }
    assert (G1' : Permutation (map z_l (filter (in_group rc) A2)) (lefts_of E (map z_pair A) old)).
    { rewrite G1. rewrite <- (group_lefts _ _ _ _ _ _ _ y old H (or_introl eq_refl) Q). apply Permutation_map. auto. }
    assert (G0 : forall i, i < rc -> filter (in_group i) (map (moved rc new) zs) = []).
    { intros i Hi. apply filter_all_false. intros z Hz. apply in_map_iff in Hz as (w & <- & _).
      apply N.eqb_neq. cbn. lia. }
    assert (G2 : filter (in_group (y_id y)) A2 = []).
    { unfold A2. rewrite filter_app, G0 by (apply RL; left; auto). apply filter_all_false. intros z Hz. apply IA in Hz. tauto. }
    assert (G3 : forall x b, In x B -> b =R y_r x ->
      Permutation (map z_l (filter (in_group (y_id x)) A2)) (lefts_of E (map z_pair A) b)).
    { intros x b Hx QB. rewrite <- (group_lefts _ _ _ _ _ _ _ x b H (or_intror Hx) QB). apply Permutation_map.
      unfold A2. rewrite filter_app, G0 by (apply RL; right; auto).
      rewrite (filter_perm (in_group (y_id x)) _ _ PA), filter_app. apply Permutation_app_tail.
      rewrite filter_all_false; auto.
      intros z Hz. apply IZ in Hz as [_ Hz]. apply N.eqb_eq in Hz. apply N.eqb_neq. rewrite Hz. intros X.
      apply ND1. rewrite X. apply in_map. auto. }
    assert (ABS : forall b, (forall x, In x (y :: B) -> eqR E b (y_r x) = false) -> lefts_of E (map z_pair A) b = []).
    { intros b AB. unfold lefts_of. rewrite filter_all_false; auto. intros p Hp. apply in_map_iff in Hp as (z & <- & Hz).
      apply (is_r_absent E _ _ _ _ _ _ _ b z H AB Hz). }
    assert (CR0 : forall b, contains_right E m b = existsb (eqR E b) (map y_r (y :: B))).
    { intros b. unfold contains_right. destruct (du_find_r _ _ _ _ b HD) as [(x & Hx & X & ->)|[X ->]]; cbn [is_some]; symmetry.
      - apply existsb_exists. exists (y_r x). split; auto. apply in_map; auto.
      - apply existsb_false. intros a Ha. apply in_map_iff in Ha as (x & <- & Hx). auto. }
    assert (CR1 : forall b, contains_right E m' b = existsb (eqR E b) (map y_r C)).
    { intros b. unfold contains_right. destruct (du_find_r _ _ _ _ b HN) as [(x & Hx & X & ->)|[X ->]]; cbn [is_some]; symmetry.
      - apply existsb_exists. exists (y_r x). split; auto. apply in_map; auto.
      - apply existsb_false. intros a Ha. apply in_map_iff in Ha as (x & <- & Hx). auto. }
    assert (PL : Permutation (map z_l A2) (map z_l A)).
    { unfold A2. rewrite (Permutation_map z_l PA), !map_app, map_map. apply Permutation_refl. }
    split.
    2:{ intros l z Hz X G. assert (Hw : In z zs) by (eapply Permutation_in; [symmetry; exact PZ|apply filter_In; auto]).
        rewrite (du_get_right _ _ _ _ l (moved rc new z) HN); auto.
        - cbn [moved z_r z_rid]. rewrite (T2 z Hz). apply N.eqb_eq in G. rewrite G. auto.
        - apply in_app_iff. left. apply in_map. auto. }
    unfold doubled. cbv zeta.
    refine (conj _ (conj _ (conj _ (conj _ (conj _ (conj _ (conj _ (conj _ _)))))))).
    - (* which of the two is found *)
      assert (exists yn grp, In yn C /\ new =R y_r yn /\ find_right E m' new = Some (snd (slotR s yn)) /\
        (grp = lefts_of E (map z_pair A) old \/ grp = if eqR E old new then [] else lefts_of E (map z_pair A) new) /\
        Permutation (map z_l (filter (in_group (y_id yn)) A2)) grp) as (yn & grp & IN & QN & FN & GRP & PG).
      { destruct (du_find_r _ _ _ _ new HN) as [(yn & IN & QN & FN)|[NF _]].
        2:{ assert (X := NF (ZR rc new tab) (or_introl eq_refl)). cbn in X. rewrite (equiv_refl _ ER) in X. discriminate. }
        exists yn. assert (I2 := IN). apply CC in I2 as [->|[[K ->]|I2]].
        - exists (lefts_of E (map z_pair A) old). repeat (split; [auto; fail|]). exact G1'.
        - exists []. repeat (split; [auto; fail|]). split; [right|cbn [y0 y_id]; rewrite G2; auto].
          cbn in QN. rewrite (eqb_replace_l _ ER _ _ _ Q), (equiv_sym _ ER _ _ QN). auto.
        - exists (lefts_of E (map z_pair A) new). repeat (split; [auto; fail|]). split; [right|apply G3; auto].
          destruct (eqR E old new) eqn:ON; auto. rewrite <- (eqb_replace_l _ ER _ _ _ ON), (N yn I2) in QN. discriminate. }
      exists grp. split; [exact GRP|].
      set (seen := fun b => if eqR E new b then grp else if eqR E old b then [] else lefts_of E (map z_pair A) b).
      assert (K : forall b, (exists yb, In yb C /\ b =R y_r yb /\ find_right E m' b = Some (snd (slotR s yb)) /\
          Permutation (map z_l (filter (in_group (y_id yb)) A2)) (seen b)) \/
        (find_right E m' b = None /\ seen b = [])).
      { intros b. unfold seen. destruct (eqR E new b) eqn:NB.
        - left. exists yn. split; auto. rewrite <- (eqb_replace_l _ ER _ _ _ NB), <- (find_right_like m' _ _ NB). auto.
        - destruct (du_find_r _ _ _ _ b HN) as [(yb & IB & QB & FB)|[NF FB]].
          + left. exists yb. split; auto. split; auto. split; auto.
            apply CC in IB as [->|[[KE ->]|IB]].
            * cbn in QB. rewrite (equiv_sym _ ER _ _ QB) in NB. discriminate.
            * cbn in QB. rewrite (eqb_replace_l _ ER _ _ _ Q), (equiv_sym _ ER _ _ QB). cbn [y0 y_id]. rewrite G2. auto.
            * destruct (eqR E old b) eqn:OB; [|apply G3; auto].
              rewrite <- (eqb_replace_l _ ER _ _ _ OB), (N yb IB) in QB. discriminate.
          + right. split; auto. destruct (eqR E old b) eqn:OB; auto. apply ABS. intros x [<-|Hx].
            * destruct (eqR E b (y_r y)) eqn:X; auto. rewrite <- OB. symmetry.
              rewrite (eqb_replace_l _ ER _ _ _ Q). apply (equiv_sym _ ER). auto.
            * apply NF. apply CC. auto. }
      split; [|split].
      + intros b. unfold contains_right. destruct (K b) as [(yb & IB & QB & FB & PB)|[FB _]]; rewrite FB; cbn [is_some].
        * destruct (du_seen _ _ _ _ yb b HN IB QB FB) as ((i & P & X1 & X2 & X3) & _).
          exists i, P. split; auto. split; auto. rewrite X3. exact PB.
        * apply du_unseen. auto.
      + intros b. destruct (K b) as [(yb & IB & QB & FB & PB)|[FB SB]].
        * destruct (du_seen _ _ _ _ yb b HN IB QB FB) as (_ & -> & _). f_equal. apply none_perm. exact PB.
        * fold (seen b). rewrite SB. apply du_unseen. auto.
      + intros l b. destruct (K b) as [(yb & IB & QB & FB & PB)|[FB SB]].
        * destruct (du_seen _ _ _ _ yb b HN IB QB FB) as (_ & _ & ->). apply existsb_perm. exact PB.
        * fold (seen b). rewrite SB. apply du_unseen. auto.
    - intros b. rewrite CR0, CR1. apply eq_true_iff_eq. rewrite andb_true_iff, !existsb_exists. split.
      + intros (a & Ha & X). apply in_map_iff in Ha as (x & <- & Hx). apply CC in Hx as [->|[[KE ->]|Hx]].
        * destruct NEW as (x & Hx & QX). cbn in X. split.
          { exists (y_r x). split; [apply in_map; auto|]. rewrite (eqb_replace_l _ ER _ _ _ X). auto. }
          { destruct keep; auto. cbn [orb]. apply negb_true_iff. destruct (eqR E old b) eqn:OB; auto.
            rewrite <- (KN eq_refl). symmetry. rewrite (eqb_replace_l _ ER _ _ _ OB). auto. }
        * split; [|rewrite KE; auto]. exists (y_r y). split; auto. left; auto.
        * split; [exists (y_r x); split; auto; apply in_map; right; auto|]. destruct keep; auto. cbn [orb].
          apply negb_true_iff. destruct (eqR E old b) eqn:OB; auto. rewrite <- (N x Hx). symmetry.
          rewrite (eqb_replace_l _ ER _ _ _ OB). auto.
      + intros [(a & Ha & X) K]. apply in_map_iff in Ha as (x & <- & [<-|Hx]).
        * assert (OB : old =R b) by (rewrite (eqb_replace_l _ ER _ _ _ Q); apply (equiv_sym _ ER); auto).
          rewrite OB in K. destruct keep; [|discriminate].
          exists (y_r y). split; auto. apply in_map_iff. exists y0. split; auto. apply CC. auto.
        * exists (y_r x). split; auto. apply in_map. apply CC. auto.
    - intros l. unfold contains_left.
      destruct (du_find_l _ _ _ _ l HN) as [(w & Hw & QW & ->)|[NW ->]];
        destruct (du_find_l _ _ _ _ l HD) as [(v & Hv & QV & ->)|[NV ->]]; auto; exfalso.
      + apply (in_map z_l) in Hw. apply (Permutation_in _ PL) in Hw. apply in_map_iff in Hw as (v & X & Hv).
        rewrite <- X, (NV v Hv) in QW. discriminate.
      + apply (in_map z_l) in Hv. apply (Permutation_in _ (Permutation_sym PL)) in Hv. apply in_map_iff in Hv as (w & X & Hw).
        rewrite <- X, (NW w Hw) in QV. discriminate.
    - intros l AP. destruct (du_find_l _ _ _ _ l HD) as [(v & Hv & QV & _)|[NV _]].
      + assert (NG : in_group (y_id y) v = false).
        { destruct (in_group (y_id y) v) eqn:G; auto. exfalso.
          destruct (du_find_r _ _ _ _ old HD) as [(x & Hx & QX & FX)|[NX _]].
          - assert (x = y) as -> by (destruct Hx as [<-|Hx]; auto; rewrite (N x Hx) in QX; discriminate).
            destruct (du_seen _ _ _ _ y old HD Hx QX FX) as (_ & _ & X). rewrite X in AP.
            assert (Y : existsb (eqL E l) (map z_l (filter (in_group (y_id y)) A)) = true); [|congruence].
            apply existsb_exists. exists (z_l v). split; auto. apply in_map, filter_In. auto.
          - rewrite (NX y (or_introl eq_refl)) in Q. discriminate. }
        rewrite (du_get_right_own _ _ _ _ l v HD Hv QV (T2 v Hv)).
        apply (du_get_right_own _ _ _ _ l v HN); auto.
        apply in_app_iff. right. apply filter_In. rewrite NG. auto.
      + rewrite (du_get_right_none _ _ _ _ l HD NV). apply (du_get_right_none _ _ _ _ l HN).
        intros w Hw. apply (in_map z_l) in Hw. apply (Permutation_in _ PL) in Hw. apply in_map_iff in Hw as (v & X & Hv).
        rewrite <- X. auto.
    - destruct (du_unpaired _ _ _ _ HN) as (Y & PY & RY & _). exists (map y_r Y). split; auto.
      rewrite (Permutation_map y_r PY). unfold C. cbn [map y_r]. constructor. unfold kept_old. destruct keep.
      + symmetry. exact PRS.
      + rewrite (filter_perm (fun b => negb (eqR E old b)) _ _ PRS). cbn [map filter]. rewrite Q. cbn [negb].
        rewrite filter_all_true; auto. intros a Ha. apply in_map_iff in Ha as (x & <- & Hx). rewrite (N x Hx). auto.
    - destruct (du_left _ _ _ _ HN) as (P & X & PP). exists P. split; auto. rewrite PP, PL, map_map. apply Permutation_refl.
    - destruct (du_unpaired _ _ _ _ HN) as (Y & PY & _ & RY).
      exists (map y_r (filter (fun x => none (filter (in_group (y_id x)) A2)) Y)). split; auto.
      rewrite (Permutation_map y_r (filter_perm (fun x => none (filter (in_group (y_id x)) A2)) _ _ PY)).
      rewrite (filter_perm (fun b => if eqR E old b then keep else none (lefts_of E (map z_pair A) b)) _ _ PRS).
      unfold C. cbn [filter y_id]. rewrite <- (none_perm _ _ G1'), none_map.
      assert (TL : Permutation (map y_r (filter (fun x => none (filter (in_group (y_id x)) A2)) (kept_old keep y t0 B)))
        (filter (fun b => if eqR E old b then keep else none (lefts_of E (map z_pair A) b)) (map y_r (y :: B)))).
      { cbn [map filter]. rewrite Q.
        assert (TB : map y_r (filter (fun x => none (filter (in_group (y_id x)) A2)) B) =
          filter (fun b => if eqR E old b then keep else none (lefts_of E (map z_pair A) b)) (map y_r B)).
        { clear - N G3 ER. induction B as [|x B IH]; auto. cbn [map filter]. rewrite (N x (or_introl eq_refl)).
          rewrite <- (none_perm _ _ (G3 x (y_r x) (or_introl eq_refl) (equiv_refl _ ER _))), none_map.
          rewrite <- IH.
          - destruct (none (filter (in_group (y_id x)) A2)); auto.
          - intros z Hz. apply N. right; auto.
          - intros z b Hz. apply G3. right; auto. }
        unfold kept_old. destruct keep; [|rewrite TB; auto].
        cbn [filter y_id]. rewrite G2. cbn [none map y_r]. rewrite TB. auto. }
      destruct (none (filter (in_group rc) A2)); cbn [map y_r app]; [constructor|]; exact TL.
    - unfold len_left, t_len. rewrite (Permutation_length (du_l _ _ _ _ HN)), !map_length.
      assert (X := Permutation_length PL). rewrite !map_length in X. exact X.
    - unfold len_right, t_len. rewrite (Permutation_length (du_r _ _ _ _ HN)), map_length. unfold C. cbn [length]. f_equal.
      unfold kept_old. destruct keep.
      + rewrite (Permutation_length PRS). cbn [map length]. rewrite map_length. auto.
      + rewrite (Permutation_length (filter_perm (fun b => negb (eqR E old b)) _ _ PRS)). cbn [map filter]. rewrite Q. cbn [negb].
        rewrite filter_all_true, map_length; auto. intros a Ha. apply in_map_iff in Ha as (x & <- & Hx). rewrite (N x Hx). auto.
  Qed.

  (* the map of a reachable state, with the entry of old first *)
  Lemma ready : forall m old new, reachable E 1 m ->
    contains_right E m old = true -> contains_right E m new = true ->
    exists s lc rc A y B rs, holds E m rs (map z_pair A) /\ Rep s lc rc m A [] (y :: B) /\
      (forall z, In z A -> z_rid z = z_g z) /\ old =R y_r y /\
      (forall x, In x B -> eqR E old (y_r x) = false) /\ Permutation rs (map y_r (y :: B)) /\
      (exists x, In x (y :: B) /\ new =R y_r x) /\ rc + 1 < two64 /\ right_counter m = rc /\
      (forall l, are_paired E m l old = true -> exists z, In z A /\ l =L z_l z /\ in_group (y_id y) z = true).
  Proof.
    intros m old new H CO CN. apply (reachable_repr E OK) in H as (s & lc & rc & G & H & B1 & B2).
    apply (GroupProps.view E OK) in H as (rs & ps & V & _ & _ & H).
    assert (HR := H). destruct H as (A & D & B & H & EG & [T1 T2] & CL & CR).
    rewrite (T1 eq_refl) in *. clear D T1. specialize (T2 eq_refl).
    assert (ERS : rs = map y_r B) by (inversion EG; auto).
    assert (EPS : ps = map z_pair A) by (inversion EG; auto).
    destruct (split_r E OK _ _ _ _ _ _ _ old H) as [(y & B' & PB & H2 & Q & HQ & N)|N].
    2:{ rewrite (contains_right_ok E OK _ _ _ _ _ _ old HR), EG, (contains_r_find E), (find_r_none E A B old N) in CO.
        discriminate. }
    exists s, lc, rc, A, y, B', rs. rewrite EPS in V. repeat (split; [auto; fail|]).
    split; [rewrite ERS; apply Permutation_map; exact PB|]. split; [|split; [lia|split; [auto|]]].
    - rewrite (contains_right_ok E OK _ _ _ _ _ _ new HR), EG in CN. unfold s_contains_right in CN. cbn [g_rights] in CN.
      apply existsb_exists in CN as (a & Ha & X). unfold GroupProofs.view in Ha. cbn [g_rights] in Ha.
      apply in_map_iff in Ha as (x & <- & Hx). exists x. split; auto. eapply Permutation_in; [exact PB|auto].
    - intros l AP. destruct (paired_with E OK _ _ _ _ _ _ _ _ _ _ H2 Q N AP) as (w & Hw & X & GW).
      exists w. split; auto.
  Qed.

  (* swap_right with new present already.  found: what the left items of old are told by get_right *)
  Theorem C50_duplicate_partial : forall m old new, reachable E 1 m ->
    contains_right E m old = true -> contains_right E m new = true ->
    exists rs ps m' old0 found, holds E m rs ps /\ In old0 rs /\ old =R old0 /\
      swap_right E old new m = Ret m' tt /\ doubled true m rs ps old new m' /\
      (found = None \/ found = Some old0) /\
      (hashR E (hash_builder m) old = hashR E (hash_builder m) new -> found = Some old0) /\
      (forall l, are_paired E m l old = true -> get_right E m' l = found).
  Proof.
    intros m old new H CO CN.
    destruct (ready m old new H CO CN) as (s & lc & rc & A & y & B & rs & V & HR & T2 & Q & N & PRS & NEW & BR & CR & PW).
    destruct (swap_right_dup _ _ _ _ _ _ _ _ new HR Q N BR CR) as (m' & zs & tab & t0 & RUN & PZ & HN & T0).
    destruct (doubled_ok true _ _ _ _ _ _ _ _ _ _ _ _ _ _ HR T2 Q N PRS NEW (fun X => False_ind _ (diff_true_false X)) PZ T0 HN)
      as [DB GR].
    exists rs, (map z_pair A), m', (y_r y),
      (option_map r_value (t_get (lo E) (right_set m') (hashR E s new) (right_with_right_id (y_id y)))).
    split; [exact V|]. split; [eapply Permutation_in; [symmetry; exact PRS|left; auto]|].
    split; [exact Q|]. split; [exact RUN|]. split; [exact DB|]. split; [|split].
    - unfold t_get. destruct (t_find (lo E) (right_set m') (hashR E s new) (right_with_right_id (y_id y))) as [k|] eqn:FK; auto.
      destruct (t_find_some _ _ _ _ _ FK) as (h0 & e0 & NE & PE). unfold t_entry. rewrite NE.
      right. cbn [option_map]. f_equal. apply nth_error_In in NE.
      eapply Permutation_in in NE; [|apply (du_r _ _ _ _ HN)].
      apply in_map_iff in NE as (x & X1 & X2). inversion X1; subst h0 e0. cbn [r_value].
      unfold right_with_right_id in PE. cbn [r_id] in PE. apply N.eqb_eq in PE.
      assert (x = ZR (y_id y) (y_r y) t0) as ->; auto.
      eapply NoDup_map_inj; [apply (du_rids _ _ _ _ HN)|exact X2|right; left; auto|exact PE].
    - intros HH. rewrite (rep_hb _ _ _ _ _ _ _ _ HR) in HH. rewrite <- HH, (hashR_ok _ OK _ _ _ Q).
      assert (X := du_right_id _ _ _ _ (ZR (y_id y) (y_r y) t0) HN (or_intror (or_introl eq_refl))).
      cbn [y_r y_id] in X. rewrite X. reflexivity.
    - intros l AP. destruct (PW l AP) as (z & Hz & X & G). eapply GR; eauto.
  Qed.

  (* likewise for swap_right_remove; the left items of old lose their right item *)
  Theorem C51_duplicate_partial : forall m old new, reachable E 1 m ->
    contains_right E m old = true -> contains_right E m new = true -> eqR E old new = false ->
    exists rs ps m' old0, holds E m rs ps /\ In old0 rs /\ old =R old0 /\
      swap_right_remove E old new m = Ret m' (Some old0) /\ doubled false m rs ps old new m' /\
      (forall l, are_paired E m l old = true -> get_right E m' l = None).
  Proof.
    intros m old new H CO CN ON.
    destruct (ready m old new H CO CN) as (s & lc & rc & A & y & B & rs & V & HR & T2 & Q & N & PRS & NEW & BR & CR & PW).
    destruct (swap_right_remove_dup _ _ _ _ _ _ _ _ new HR Q N BR CR) as (m' & zs & tab & t0 & RUN & PZ & HN & T0).
    destruct (doubled_ok false _ _ _ _ _ _ _ _ _ _ _ _ _ _ HR T2 Q N PRS NEW (fun _ => ON) PZ T0 HN) as [DB GR].
    exists rs, (map z_pair A), m', (y_r y).
    split; [exact V|]. split; [eapply Permutation_in; [symmetry; exact PRS|left; auto]|].
    split; [exact Q|]. split; [exact RUN|]. split; [exact DB|].
    intros l AP. destruct (PW l AP) as (z & Hz & X & G). rewrite (GR l z Hz X G).
    rewrite (t_get_absent (lo E)); auto. intros x Hx. apply (Permutation_in _ (du_r _ _ _ _ HN)) in Hx.
    assert (NR := rep_rids _ _ _ _ _ _ _ _ HR). cbn [map] in NR. inversion NR as [|? ? N1 N2]; subst.
    assert (YL := rep_rlt _ _ _ _ _ _ _ _ HR y (or_introl eq_refl)).
    destruct Hx as [<-|Hx]; [apply N.eqb_neq; cbn; lia|]. eapply (id_r_other E); [|exact Hx]. exact N1.
  Qed.
End Duplicate.

(* 10 swapped for 30, which is present: 30 is there twice, and what was said of 30 before (5) or of
   10 (7, 1, 8) is out of reach, depending on the table *)
Definition dup_c := after (swap_right env_collide (it' 10) (it' 30) gmc).
Definition dup_s := after (swap_right env_spread (it' 10) (it' 30) gms).
Definition dup_r := after (swap_right_remove env_collide (it' 10) (it' 30) gmc).
Example C50_duplicate_case :
  reachable env_collide 1 gmc /\ contains_right env_collide gmc (it' 10) = true /\
  contains_right env_collide gmc (it' 30) = true /\
  right_rest (iter_right gmc) = Done [it 40; it 10; it 30; it 70; it 90] /\
  right_rest (iter_right dup_c) = Done [it 90; it 70; it 30; it 10; it 40; it' 30] /\
  option_map (pair_rest env_collide dup_c) (get_left_iter env_collide dup_c (it 30)) =
    Some (Done [it 1; it 7; it 8]) /\
  are_paired env_collide dup_c (it 5) (it 30) = false /\ get_right env_collide dup_c (it 5) = Some (it 30) /\
  get_right env_collide dup_c (it 1) = Some (it 10) /\ get_right env_spread dup_s (it 1) = None /\
  unpaired_rest (iter_unpaired dup_c) = Done [it 90; it 70; it 10; it 40].
Proof.
  split; [apply gm1_reachable; [simpl; auto|reflexivity]|]. run_all.
Qed.
Example C51_duplicate_case :
  reachable env_collide 1 gmc /\ contains_right env_collide gmc (it' 10) = true /\
  contains_right env_collide gmc (it' 30) = true /\ eqR env_collide (it' 10) (it' 30) = false /\
  res_value (swap_right_remove env_collide (it' 10) (it' 30) gmc) = Some (Some (it 10)) /\
  right_rest (iter_right dup_r) = Done [it 90; it 70; it 30; it 40; it' 30] /\
  option_map (pair_rest env_collide dup_r) (get_left_iter env_collide dup_r (it 30)) =
    Some (Done [it 1; it 7; it 8]) /\
  get_right env_collide dup_r (it 1) = None /\ get_right env_collide dup_r (it 5) = Some (it 30).
Proof.
  split; [apply gm1_reachable; [simpl; auto|reflexivity]|]. run_all.
Qed.

(* a table searched from the oldest entry on: the present 30 is found, with its own left items *)
Definition lo_late : layout :=
  Layout (fun _ _ hs => seq 0 (length hs)) (fun _ _ xs => rev xs) N.even
         (fun l _ => l + 1) N.odd (fun n => n) (fun l => l) (fun l => l).
Definition env_late : env item item N :=
  Env _ _ _ item_eq item_eq (fun _ _ => 0) (fun _ _ => 0) (fun _ _ => 0) lo_late true.
Lemma lo_late_ok : layout_ok lo_late.
Proof.
  constructor; simpl.
  - intros l h hs i H. apply in_seq. split; [lia|]. apply nth_error_Some. congruence.
  - intros A l xs. symmetry. apply Permutation_rev.
Qed.
Lemma env_late_ok : lawful env_late.
Proof. constructor; simpl; auto using item_eq_equiv, lo_late_ok. Qed.
Definition dup_l := after (swap_right env_late (it' 10) (it' 30) (gm1 env_late)).
Example C50_duplicate_late_case :
  lawful env_late /\ reachable env_late 1 (gm1 env_late) /\
  contains_right env_late (gm1 env_late) (it' 10) = true /\ contains_right env_late (gm1 env_late) (it' 30) = true /\
  omap (@length item) (right_rest (iter_right dup_l)) = Done 6%nat /\
  are_paired env_late dup_l (it 5) (it 30) = true /\ are_paired env_late dup_l (it 1) (it 30) = false /\
  are_paired env_late dup_l (it 1) (it 10) = false /\ get_right env_late dup_l (it 1) = Some (it 10).
Proof.
  split; [apply env_late_ok|]. split.
  - exists 7, 0, 0, g_hist1. split; [|split; [|reflexivity]].
    + assert (X : budget g_hist1 = 13) by reflexivity. rewrite X. unfold two64. lia.
    + unfold g_hist1. cbn [guarded].
      repeat (split; [first [exact I | vm_compute; reflexivity | vm_compute; auto; fail
                          | vm_compute; repeat split; auto; fail
                          | intros _; vm_compute; auto; fail | intros ? ? ? _ _; discriminate]|]); exact I.
  - run_all.
Qed.

Print Assumptions C50_duplicate_partial.
Print Assumptions C51_duplicate_partial.
