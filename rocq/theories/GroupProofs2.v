(* Refinement of GroupMap: how the invariant changes, remove_left, remove_right, remove. *)
From Coq Require Import List NArith Lia Bool Permutation.
From Verif Require Import Prelude RawTable GroupMap GroupSpec ListFacts TableFacts GroupProofs.
Import ListNotations.
Open Scope N_scope.

Lemma u64_incr_ok : forall ck c, c + 1 < two64 -> u64_incr ck c = Some (c + 1).
Proof. intros ck c H. unfold u64_incr. apply N.ltb_lt in H. rewrite H. auto. Qed.

Section Core.
  Context {L R S : Type} (E : env L R S) (OK : lawful E).
  Notation gm := (gmap L R S).
  Notation zl := (zleft L R).
  Notation zr := (zright R).
  Notation Rep := (Rep E).
  Notation Repr := (Repr E).
  Notation slotL := (slotL E).
  Notation slotR := (slotR E).
  Notation pslot := (pslot E).
  Notation pkey := (pkey E).

  Let EL := eqL_equiv _ OK.
  Let ER := eqR_equiv _ OK.
  Let LO := lo_ok _ OK.

  (* the part of the invariant that is not about the two outer tables *)
  Record Core (s : S) (lc rc : N) (A D : list zl) (B : list zr) : Prop := {
    c_tab : forall y, In y B ->
      Permutation (slots (y_tab y)) (map (pslot s (y_id y)) (filter (in_group (y_id y)) (A ++ D)));
    c_lids : NoDup (map z_id (A ++ D));
    c_rids : NoDup (map y_id B);
    c_llt : forall z, In z (A ++ D) -> z_id z < lc /\ z_g z < rc /\ z_rid z < rc;
    c_rlt : forall y, In y B -> y_id y < rc;
    c_link : forall z, In z A -> exists y, In y B /\ y_id y = z_g z /\ y_r y = z_r z;
    c_eql : distinct (eqL E) (map z_l A);
    c_eqr : distinct (eqR E) (map y_r B)
  }.

  Lemma rep_core : forall s lc rc m A D B, Rep s lc rc m A D B -> Core s lc rc A D B.
  Proof. intros s lc rc m A D B H; destruct H; constructor; auto. Qed.
  Lemma core_rep : forall s lc rc m A D B, Core s lc rc A D B -> hash_builder m = s ->
    Permutation (slots (left_set m)) (map (slotL s) A) ->
    Permutation (slots (right_set m)) (map (slotR s) B) -> Rep s lc rc m A D B.
  Proof. intros s lc rc m A D B H; destruct H; constructor; auto. Qed.

  Lemma core_perm : forall s lc rc A D B A' D' B', Permutation (A ++ D) (A' ++ D') ->
    Permutation A A' -> Permutation B B' -> Core s lc rc A D B -> Core s lc rc A' D' B'.
  Proof.
    intros s lc rc A D B A' D' B' PD PA PB H. destruct H. constructor.
    - intros y Hy. rewrite c_tab0 by (eapply Permutation_in; [symmetry|]; eauto).
      apply Permutation_map, filter_perm; auto.
    - eapply NoDup_perm; [apply Permutation_map; exact PD|auto].
    - eapply NoDup_perm; [apply Permutation_map; exact PB|auto].
    - intros z Hz. apply c_llt0. eapply Permutation_in; [symmetry|]; eauto.
    - intros y Hy. apply c_rlt0. eapply Permutation_in; [symmetry|]; eauto.
    - intros z Hz. destruct (c_link0 z) as (y & Hy & Q);
        [eapply Permutation_in; [symmetry|]; eauto|].
      exists y; split; auto. eapply Permutation_in; eauto.
    - eapply distinct_perm; [exact EL|apply Permutation_map; exact PA|auto].
    - eapply distinct_perm; [exact ER|apply Permutation_map; exact PB|auto].
  Qed.

  Lemma core_bounds : forall s lc rc lc' rc' A D B, Core s lc rc A D B -> lc <= lc' -> rc <= rc' ->
    Core s lc' rc' A D B.
  Proof.
    intros s lc rc lc' rc' A D B H H1 H2. destruct H; constructor; auto.
    - intros z Hz. apply c_llt0 in Hz. lia.
    - intros y Hy. apply c_rlt0 in Hy. lia.
  Qed.

  (* live left items become left-overs *)
  Lemma core_kill : forall s lc rc zs A D B, Core s lc rc (zs ++ A) D B -> Core s lc rc A (zs ++ D) B.
  Proof.
    intros s lc rc zs A D B H.
    assert (PD : Permutation ((zs ++ A) ++ D) (A ++ zs ++ D)).
    { rewrite app_assoc. apply Permutation_app_tail, Permutation_app_comm. }
    destruct H. constructor; auto.
    - intros y Hy. rewrite c_tab0 by auto. apply Permutation_map, filter_perm; auto.
    - eapply NoDup_perm; [apply Permutation_map; exact PD|auto].
    - intros z Hz. apply c_llt0. eapply Permutation_in; [symmetry|]; eauto.
    - intros z Hz. apply c_link0. apply in_app_iff; auto.
    - rewrite map_app in c_eql0. apply distinct_app in c_eql0. tauto.
  Qed.
  (* and back *)
  Lemma core_revive : forall s lc rc z A D B, Core s lc rc A (z :: D) B ->
    (exists y, In y B /\ y_id y = z_g z /\ y_r y = z_r z) ->
    (forall x, In x A -> eqL E (z_l z) (z_l x) = false) -> Core s lc rc (z :: A) D B.
  Proof.
    intros s lc rc z A D B H LK N.
    assert (PD : Permutation (A ++ z :: D) ((z :: A) ++ D)).
    { symmetry. apply Permutation_middle. }
    destruct H. constructor; auto.
    - intros y Hy. rewrite c_tab0 by auto. apply Permutation_map, filter_perm; auto.
    - eapply NoDup_perm; [apply Permutation_map; exact PD|auto].
    - intros x Hx. apply c_llt0. eapply Permutation_in; [symmetry|]; eauto.
    - intros x [<-|Hx]; auto.
    - simpl. apply distinct_cons. split; auto.
      intros x Hx. apply in_map_iff in Hx as (w & <- & Hw). auto.
  Qed.
  (* a (hash, id) is taken out of the set it is in *)
  Lemma core_forget : forall s lc rc z A D y B t, Core s lc rc A (z :: D) (y :: B) ->
    z_g z = y_id y ->
    Permutation (slots t) (map (pslot s (y_id y)) (filter (in_group (y_id y)) (A ++ D))) ->
    Core s lc rc A D (ZR (y_id y) (y_r y) t :: B).
  Proof.
    intros s lc rc z A D y B t H G P.
    assert (PD : Permutation (A ++ z :: D) (z :: A ++ D)).
    { symmetry. apply Permutation_middle. }
    destruct H. constructor; auto.
    - intros x [<-|Hx]; auto.
      rewrite (c_tab0 x (or_intror Hx)). apply Permutation_map.
      rewrite (filter_perm _ _ _ PD). simpl.
      replace (in_group (y_id x) z) with false; auto.
      symmetry. apply N.eqb_neq. rewrite G. intro Q. inversion c_rids0; subst.
      apply H1. rewrite Q. apply in_map; auto.
    - apply (NoDup_perm _ _ (Permutation_map z_id PD)) in c_lids0. inversion c_lids0; auto.
    - intros x Hx. apply c_llt0. rewrite in_app_iff in *. simpl. tauto.
    - intros x [<-|Hx]; simpl; [apply (c_rlt0 y); left; auto|apply c_rlt0; right; auto].
    - intros x Hx. destruct (c_link0 x Hx) as (w & [<-|Hw] & Q1 & Q2).
      + eexists; split; [left; reflexivity|]. simpl. auto.
      + exists w. split; [right|]; auto.
  Qed.
  Lemma core_forget_none : forall s lc rc zs A D B, Core s lc rc A (zs ++ D) B ->
    (forall z y, In z zs -> In y B -> z_g z <> y_id y) -> Core s lc rc A D B.
  Proof.
    intros s lc rc zs A D B H N.
    assert (PD : Permutation (A ++ zs ++ D) (zs ++ A ++ D)).
    { rewrite !app_assoc. apply Permutation_app_tail, Permutation_app_comm. }
    destruct H. constructor; auto.
    - intros y Hy. rewrite (c_tab0 y Hy). apply Permutation_map.
      rewrite (filter_perm _ _ _ PD), filter_app. rewrite filter_all_false; auto.
      intros z Hz. apply N.eqb_neq. auto.
    - apply (NoDup_perm _ _ (Permutation_map z_id PD)) in c_lids0.
      clear -c_lids0. rewrite map_app in c_lids0. induction (map z_id zs); simpl in *; auto.
      inversion c_lids0; auto.
    - intros x Hx. apply c_llt0. rewrite !in_app_iff in *. tauto.
  Qed.
  (* a fresh (hash, id) is put into a set *)
  Lemma core_plan : forall s lc rc z A D y B t, Core s lc rc A D (y :: B) ->
    z_g z = y_id y -> ~ In (z_id z) (map z_id (A ++ D)) -> z_id z < lc -> z_rid z < rc ->
    Permutation (slots t) (pslot s (y_id y) z :: slots (y_tab y)) ->
    Core s lc rc A (z :: D) (ZR (y_id y) (y_r y) t :: B).
  Proof.
    intros s lc rc z A D y B t H G F Z1 Z2 P.
    assert (PD : Permutation (A ++ z :: D) (z :: A ++ D)).
    { symmetry. apply Permutation_middle. }
    destruct H. constructor; auto.
    - intros x [<-|Hx]; simpl.
      + rewrite P, (c_tab0 y (or_introl eq_refl)), (filter_perm _ _ _ PD). simpl.
        unfold in_group at 2. rewrite G, N.eqb_refl. simpl. auto.
      + rewrite (c_tab0 x (or_intror Hx)). apply Permutation_map.
        rewrite (filter_perm _ _ _ PD). simpl.
        replace (in_group (y_id x) z) with false; auto.
        symmetry. apply N.eqb_neq. rewrite G. intro Q. inversion c_rids0; subst.
        apply H1. rewrite Q. apply in_map; auto.
    - eapply NoDup_perm; [apply Permutation_map; symmetry; exact PD|]. simpl. constructor; auto.
    - intros x Hx. apply (Permutation_in _ PD) in Hx. destruct Hx as [<-|Hx]; auto.
      rewrite G. repeat split; auto. apply c_rlt0; left; auto.
    - intros x [<-|Hx]; simpl; [apply (c_rlt0 y); left; auto|apply c_rlt0; right; auto].
    - intros x Hx. destruct (c_link0 x Hx) as (w & [<-|Hw] & Q1 & Q2).
      + eexists; split; [left; reflexivity|]. simpl. auto.
      + exists w. split; [right|]; auto.
  Qed.
  Lemma core_new_right : forall s lc rc A D B r t, Core s lc rc A D B -> slots t = [] ->
    (forall x, In x B -> eqR E r (y_r x) = false) -> Core s lc (rc + 1) A D (ZR rc r t :: B).
  Proof.
    intros s lc rc A D B r t H T N. destruct H. constructor; auto.
    - intros y [<-|Hy]; simpl; auto. rewrite T.
      rewrite filter_all_false; auto. intros z Hz. apply N.eqb_neq. apply c_llt0 in Hz. lia.
    - simpl. constructor; auto. intro I. apply in_map_iff in I as (y & Q & I).
      apply c_rlt0 in I. lia.
    - intros z Hz. apply c_llt0 in Hz. lia.
    - intros y [<-|Hy]; simpl; [lia|]. apply c_rlt0 in Hy. lia.
    - intros z Hz. destruct (c_link0 z Hz) as (y & Hy & Q). exists y; split; [right|]; auto.
    - simpl. apply distinct_cons. split; auto.
      intros x Hx. apply in_map_iff in Hx as (w & <- & Hw). auto.
  Qed.
  Lemma core_del_right : forall s lc rc A D y B, Core s lc rc A D (y :: B) ->
    (forall z, In z A -> z_g z <> y_id y) -> Core s lc rc A D B.
  Proof.
    intros s lc rc A D y B H N. destruct H. constructor; auto.
    - intros x Hx. apply c_tab0; right; auto.
    - inversion c_rids0; auto.
    - intros x Hx. apply c_rlt0; right; auto.
    - intros z Hz. destruct (c_link0 z Hz) as (x & [<-|Hx] & Q1 & Q2).
      + exfalso. eapply N; eauto.
      + exists x; auto.
    - simpl in c_eqr0. apply distinct_cons in c_eqr0. tauto.
  Qed.

  (* the set of y without z *)
  Lemma tab_without : forall s lc rc A D z y B, Core s lc rc A (z :: D) (y :: B) ->
    z_g z = y_id y ->
    Permutation (slots (set_remove E (y_id y) (y_tab y) (pkey s z)))
                (map (pslot s (y_id y)) (filter (in_group (y_id y)) (A ++ D))).
  Proof.
    intros s lc rc A D z y B H G.
    assert (PD : Permutation (A ++ z :: D) (z :: A ++ D)).
    { symmetry. apply Permutation_middle. }
    apply set_remove_perm; auto.
    - rewrite (c_tab _ _ _ _ _ _ H y (or_introl eq_refl)).
      rewrite (filter_perm _ _ _ PD). simpl. unfold in_group at 1. rewrite G, N.eqb_refl. auto.
    - rewrite map_map. simpl. intro I. apply in_map_iff in I as (x & Q & I).
      apply filter_In in I as [I _]. assert (ND := c_lids _ _ _ _ _ _ H).
      apply (NoDup_perm _ _ (Permutation_map z_id PD)) in ND. inversion ND; subst.
      apply H2. inversion Q. apply in_map; auto.
  Qed.
  (* the set of y with a new z *)
  Lemma tab_with : forall s lc rc A D z y B, Core s lc rc A D (y :: B) ->
    ~ In (z_id z) (map z_id (A ++ D)) ->
    Permutation (slots (set_insert E (y_id y) (y_tab y) (pkey s z)))
                (pslot s (y_id y) z :: slots (y_tab y)).
  Proof.
    intros s lc rc A D z y B H F. assert (T := c_tab _ _ _ _ _ _ H y (or_introl eq_refl)).
    apply set_insert_perm; auto.
    - intros x Hx. apply (Permutation_in _ T) in Hx. apply in_map_iff in Hx as (w & <- & _). auto.
    - intro I. apply (Permutation_in _ (Permutation_map snd T)) in I. rewrite map_map in I.
      simpl in I. apply in_map_iff in I as (x & Q & I). apply filter_In in I as [I _].
      apply F. inversion Q. apply in_map; auto.
  Qed.

  Lemma core_lid_fresh : forall s lc rc A D B, Core s lc rc A D B -> ~ In lc (map z_id (A ++ D)).
  Proof.
    intros s lc rc A D B H I. apply in_map_iff in I as (z & Q & I).
    apply (c_llt _ _ _ _ _ _ H) in I as [I _]. rewrite Q in I. lia.
  Qed.

  (* the right items without their sets *)
  Definition y_key (y : zr) : N * R := (y_id y, y_r y).
  Lemma y_keys_r : forall (B B' : list zr), Permutation (map y_key B') (map y_key B) ->
    Permutation (map y_r B') (map y_r B).
  Proof.
    intros B B' P. apply (Permutation_map snd) in P. rewrite !map_map in P. exact P.
  Qed.
  Lemma y_keys_in : forall (B B' : list zr) y, Permutation (map y_key B') (map y_key B) ->
    In y B -> exists y', In y' B' /\ y_id y' = y_id y /\ y_r y' = y_r y.
  Proof.
    intros B B' y P Hy. assert (I := in_map y_key _ _ Hy). symmetry in P.
    apply (Permutation_in _ P) in I. apply in_map_iff in I as (y' & Q & I).
    inversion Q. eauto.
  Qed.

  (* the bucket of the right item holding z's (hash, id) *)
  Lemma find_pair_right : forall s lc rc m A D z y B, Rep s lc rc m A D (y :: B) -> In z (A ++ D) ->
    z_g z = y_id y ->
    exists j, t_get_mut E (right_set m) (hashR E s (y_r y)) (right_with_left_pair E (pkey s z))
              = Some (j, snd (slotR s y)) /\
      at_slot (right_set m) j (hashR E s (y_r y)) (snd (slotR s y)) (map (slotR s) B).
  Proof.
    intros s lc rc m A D z y B H Hz G. apply (get_mut_unique E OK).
    - apply (rep_r _ _ _ _ _ _ _ _ H).
    - unfold right_with_left_pair. simpl.
      rewrite (tab_contains E OK _ _ _ _ _ _ _ y z H) by (simpl; auto).
      unfold in_group. rewrite G. apply N.eqb_refl.
    - intros x Hx. apply in_map_iff in Hx as (w & <- & Hw).
      unfold right_with_left_pair. simpl.
      rewrite (tab_contains E OK _ _ _ _ _ _ _ w z H) by (simpl; auto).
      unfold in_group. rewrite G. apply N.eqb_neq. intro Q.
      assert (ND := rep_rids _ _ _ _ _ _ _ _ H). simpl in ND. inversion ND; subst.
      apply H2. rewrite Q. apply in_map; auto.
  Qed.
  Lemma find_key_right : forall s lc rc m A D y B q, Rep s lc rc m A D (y :: B) ->
    eqR E q (y_r y) = true -> (forall x, In x B -> eqR E q (y_r x) = false) ->
    exists j, t_get_mut E (right_set m) (hashR E s q) (equivalent_key_right (eqR E) q)
              = Some (j, snd (slotR s y)) /\
      at_slot (right_set m) j (hashR E s (y_r y)) (snd (slotR s y)) (map (slotR s) B).
  Proof.
    intros s lc rc m A D y B q H Q N. rewrite (hashR_ok _ OK s _ _ Q). apply (get_mut_unique E OK).
    - apply (rep_r _ _ _ _ _ _ _ _ H).
    - apply (equiv_sym _ (eqR_equiv E OK)), Q.
    - intros x Hx. eapply (key_r_other E OK); eauto.
  Qed.
  Lemma find_key_left : forall s lc rc m z A D B q, Rep s lc rc m (z :: A) D B ->
    eqL E q (z_l z) = true -> (forall x, In x A -> eqL E q (z_l x) = false) ->
    exists j, t_get_mut E (left_set m) (hashL E s q) (equivalent_key_left (eqL E) q)
              = Some (j, snd (slotL s z)) /\
      at_slot (left_set m) j (hashL E s (z_l z)) (snd (slotL s z)) (map (slotL s) A).
  Proof.
    intros s lc rc m z A D B q H Q N. rewrite (hashL_ok _ OK s _ _ Q). apply (get_mut_unique E OK).
    - apply (rep_l _ _ _ _ _ _ _ _ H).
    - apply (equiv_sym _ (eqL_equiv E OK)), Q.
    - intros x Hx. eapply (key_l_other E OK); eauto.
  Qed.
  Lemma find_key_left_none : forall s lc rc m A D B q, Rep s lc rc m A D B ->
    (forall x, In x A -> eqL E q (z_l x) = false) ->
    t_get_mut E (left_set m) (hashL E s q) (equivalent_key_left (eqL E) q) = None.
  Proof. intros. apply get_mut_absent. eapply (left_absent E OK); eauto. Qed.
  Lemma find_key_right_none : forall s lc rc m A D B q, Rep s lc rc m A D B ->
    (forall x, In x B -> eqR E q (y_r x) = false) ->
    t_get_mut E (right_set m) (hashR E s q) (equivalent_key_right (eqR E) q) = None.
  Proof. intros. apply get_mut_absent. eapply (right_absent E OK); eauto. Qed.

  (* ---- remove_left ---- *)
  Lemma remove_left_some : forall s lc rc m z A D B q, Rep s lc rc m (z :: A) D B ->
    eqL E q (z_l z) = true -> (forall x, In x A -> eqL E q (z_l x) = false) ->
    exists m' B', remove_left E q m = Ret m' (Some (z_l z)) /\ Rep s lc rc m' A D B' /\
      Permutation (map y_key B') (map y_key B) /\
      left_counter m' = left_counter m /\ right_counter m' = right_counter m.
  Proof.
    intros s lc rc m z A D B q H Q N. assert (HB := rep_hb _ _ _ _ _ _ _ _ H).
    destruct (rep_link _ _ _ _ _ _ _ _ H z (or_introl eq_refl)) as (y & Hy & GI & GR).
    apply perm_in_cons in Hy as [B1 PB].
    assert (H1 := rep_perm E OK _ _ _ _ _ _ _ _ _ (Permutation_refl _) PB H).
    assert (HQ : hashL E s q = hashL E s (z_l z)) by (apply (hashL_ok _ OK); auto).
    unfold remove_left, left_remove_entry. mrun. rewrite HB, HQ.
    destruct (t_remove_entry_unique _ LO (left_set m) (hashL E s (z_l z))
      (equivalent_key_left (eqL E) q) (snd (slotL s z)) (map (slotL s) A)) as (lt & -> & PL).
    { apply (rep_l _ _ _ _ _ _ _ _ H). }
    { apply (equiv_sym _ (eqL_equiv E OK)), Q. }
    { intros x Hx. eapply (key_l_other E OK); eauto. }
    cbn [l_id l_hash l_value snd GroupProofs.slotL right_set set_left].
    assert (C1 : Core s lc rc A (z :: D) (y :: B1)).
    { apply (core_kill s lc rc [z]). simpl. eapply rep_core; eauto. }
    assert (H2 : Rep s lc rc (set_left lt m) A (z :: D) (y :: B1)).
    { apply core_rep; auto. simpl. apply (rep_r _ _ _ _ _ _ _ _ H1). }
    change (hashL E s (z_l z), z_id z) with (pkey s z). rewrite <- GR.
    destruct (find_pair_right _ _ _ _ _ _ z _ _ H2) as (j & F & AT);
      [apply in_app_iff; right; left; auto|auto|].
    cbn [right_set set_left] in F, AT. rewrite F. cbn [fst].
    apply modify_at with (f := pairs_remove E (pkey s z)) in AT.
    eexists. exists (ZR (y_id y) (y_r y) (set_remove E (y_id y) (y_tab y) (pkey s z)) :: B1).
    split; [reflexivity|]. split; [|split; [|split]]; try reflexivity.
    - apply core_rep; auto.
      + eapply core_forget; eauto. eapply tab_without; eauto.
      + simpl. apply AT.
    - simpl. symmetry. exact (Permutation_map y_key PB).
  Qed.
  Lemma remove_left_none : forall s lc rc m A D B q, Rep s lc rc m A D B ->
    (forall x, In x A -> eqL E q (z_l x) = false) -> remove_left E q m = Ret m None.
  Proof.
    intros s lc rc m A D B q H N. unfold remove_left, left_remove_entry. mrun.
    rewrite t_remove_entry_absent; auto. eapply (left_absent E OK); eauto.
  Qed.

  Lemma remove_left_ok : forall b s lc rc m G q, Repr b s lc rc m G ->
    exists m', remove_left E q m = Ret m' (s_remove_left_out (eqL E) G q) /\
      Repr b s lc rc m' (s_remove_left (eqL E) G q).
  Proof.
    intros b s lc rc m G q (A & D & B & H & -> & T & CL & CR).
    unfold s_remove_left_out, s_remove_left.
    destruct (split_l E OK _ _ _ _ _ _ _ q H) as [(z & A' & P & H' & Q & _ & N)|N].
    - destruct (remove_left_some _ _ _ _ _ _ _ _ _ H' Q N) as (m' & B' & -> & H2 & PB & C1 & C2).
      exists m'. erewrite (find_l_some E) by eauto. split; auto.
      apply (repr_same E OK) with (G := view A' B'); auto.
      + split; simpl.
        * apply y_keys_r; auto.
        * symmetry. eapply del_l_some; eauto.
      + exists A', D, B'. split; [auto|split; [auto|split; [|split; congruence]]].
        destruct (tame_perm _ _ _ _ P T) as [T1 T2]. split; auto.
        intros Hb x Hx. apply T2; [auto|right; auto].
    - erewrite remove_left_none by eauto. exists m. rewrite find_l_none by auto. split; auto.
      rewrite del_l_none by auto. exists A, D, B. auto 6.
  Qed.

  (* ---- remove_right ---- *)
  Lemma remove_pairs_run : forall s zs A m, hash_builder m = s ->
    Permutation (slots (left_set m)) (map (slotL s) (zs ++ A)) -> NoDup (map z_id (zs ++ A)) ->
    exists lt, remove_pairs E (map (pkey s) zs) m = Ret (set_left lt m) (map z_l zs) /\
      Permutation (slots lt) (map (slotL s) A).
  Proof.
    induction zs as [|z t IH]; intros A m HB P ND; simpl.
    - exists (left_set m). split; auto. destruct m; auto.
    - unfold left_remove_entry. mrun. simpl in ND. inversion ND; subst.
      destruct (t_remove_entry_unique _ LO (left_set m) (hashL E (hash_builder m) (z_l z))
        (left_with_left_id (z_id z)) (snd (slotL (hash_builder m) z)) (map (slotL (hash_builder m)) (t ++ A)))
        as (lt & -> & PL); auto.
      { apply N.eqb_refl. }
      { intros x Hx. eapply (id_l_other E); eauto. }
      destruct (IH A (set_left lt m) eq_refl PL H2) as (lt' & RUN & PL'). simpl in RUN. rewrite RUN.
      exists lt'. split; auto.
  Qed.

  Lemma collect_set_distinct : forall ls seen, distinct (eqL E) (rev seen ++ ls) ->
    collect_set E seen ls = rev seen ++ ls.
  Proof.
    induction ls as [|x t IH]; intros seen D; simpl.
    - rewrite app_nil_r; auto.
    - replace (existsb (eqL E x) seen) with false.
      + rewrite IH; simpl; rewrite <- app_assoc; auto.
      + symmetry. apply existsb_false. intros w Hw.
        apply distinct_app in D as (_ & D & C).
        apply (eqb_false_sym _ EL). apply C; [rewrite <- in_rev; auto|left; auto].
  Qed.
  Lemma collect_set_id : forall ls, distinct (eqL E) ls -> collect_set E [] ls = ls.
  Proof. intros ls D. apply (collect_set_distinct ls []). auto. Qed.

  (* the members of group i and the others *)
  Lemma split_group : forall i (A : list zl),
    Permutation A (filter (in_group i) A ++ filter (fun z => negb (in_group i z)) A).
  Proof.
    induction A as [|z t IH]; simpl; auto.
    destruct (in_group i z); simpl; auto. apply Permutation_cons_app. auto.
  Qed.

  Lemma core_remove_group : forall s lc rc zs A D y B, Core s lc rc (zs ++ A) D (y :: B) ->
    (forall z, In z zs -> z_g z = y_id y) -> (forall z, In z A -> z_g z <> y_id y) ->
    Core s lc rc A D B.
  Proof.
    intros s lc rc zs A D y B H G N. apply core_kill in H.
    assert (ND := c_rids _ _ _ _ _ _ H). simpl in ND. inversion ND; subst.
    apply core_del_right in H; auto. eapply core_forget_none; eauto.
    intros z x Hz Hx Q. rewrite (G z Hz) in Q. apply H2. rewrite Q. apply in_map; auto.
  Qed.

  (* what both ways of removing a right item do once its entry is found *)
  Lemma remove_group_run : forall s lc rc m A D y B, Rep s lc rc m A D (y :: B) -> cleanZ D (y_id y) ->
    forall rt, Permutation (slots rt) (map (slotR s) B) ->
    exists lt zs, remove_pairs E (hs_elems (y_tab y)) (set_right rt m)
             = Ret (set_left lt (set_right rt m)) (map z_l zs) /\
      Permutation zs (filter (in_group (y_id y)) A) /\ distinct (eqL E) (map z_l zs) /\
      Rep s lc rc (set_left lt (set_right rt m)) (filter (fun z => negb (in_group (y_id y) z)) A) D B.
  Proof.
    intros s lc rc m A D y B H C rt PR.
    destruct (tab_elems E _ _ _ _ _ _ _ y H (or_introl eq_refl)) as (zs & Q & P).
    rewrite clean_filter in P by auto. rewrite Q.
    assert (PA : Permutation A (zs ++ filter (fun z => negb (in_group (y_id y) z)) A)).
    { rewrite P. apply split_group. }
    assert (H' := rep_perm E OK _ _ _ _ _ _ _ _ _ PA (Permutation_refl _) H).
    destruct (remove_pairs_run s zs (filter (fun z => negb (in_group (y_id y) z)) A) (set_right rt m))
      as (lt & RUN & PL).
    { apply (rep_hb _ _ _ _ _ _ _ _ H). }
    { apply (rep_l _ _ _ _ _ _ _ _ H'). }
    { eapply NoDup_app_left. rewrite <- map_app. apply (rep_lids _ _ _ _ _ _ _ _ H'). }
    exists lt, zs. split; auto. split; auto. split.
    - assert (DL := rep_eql _ _ _ _ _ _ _ _ H'). rewrite map_app in DL.
      apply distinct_app in DL. tauto.
    - apply core_rep; auto; [|apply (rep_hb _ _ _ _ _ _ _ _ H)].
      eapply core_remove_group; [apply (rep_core _ _ _ _ _ _ _ H')| |].
      + intros z Hz. apply (Permutation_in _ P) in Hz. apply filter_In in Hz as [_ Hz].
        apply N.eqb_eq; auto.
      + intros z Hz. apply filter_In in Hz as [_ Hz]. apply negb_true_iff, N.eqb_neq in Hz. auto.
  Qed.

  Lemma remove_right_some : forall s lc rc m A D y B q, Rep s lc rc m A D (y :: B) ->
    eqR E q (y_r y) = true -> (forall x, In x B -> eqR E q (y_r x) = false) -> cleanZ D (y_id y) ->
    exists m' ls, remove_right E q m = Ret m' (Some (ls, y_r y)) /\
      Permutation ls (map z_l (filter (in_group (y_id y)) A)) /\
      Rep s lc rc m' (filter (fun z => negb (in_group (y_id y) z)) A) D B /\
      left_counter m' = left_counter m /\ right_counter m' = right_counter m.
  Proof.
    intros s lc rc m A D y B q H Q N C. assert (HB := rep_hb _ _ _ _ _ _ _ _ H).
    unfold remove_right, right_remove_entry. mrun. rewrite HB.
    rewrite (hashR_ok _ OK s _ _ Q).
    destruct (t_remove_entry_unique _ LO (right_set m) (hashR E s (y_r y))
      (equivalent_key_right (eqR E) q) (snd (slotR s y)) (map (slotR s) B)) as (rt & -> & PR).
    { apply (rep_r _ _ _ _ _ _ _ _ H). }
    { apply (equiv_sym _ (eqR_equiv E OK)), Q. }
    { intros x Hx. eapply (key_r_other E OK); eauto. }
    cbn [r_pairs r_value snd GroupProofs.slotR].
    destruct (remove_group_run _ _ _ _ _ _ _ _ H C rt PR) as (lt & zs & -> & P & DL & H').
    rewrite collect_set_id by auto.
    do 2 eexists. split; [reflexivity|]. split; [apply Permutation_map; auto|]. split; auto.
  Qed.
  Lemma remove_right_none : forall s lc rc m A D B q, Rep s lc rc m A D B ->
    (forall x, In x B -> eqR E q (y_r x) = false) -> remove_right E q m = Ret m None.
  Proof.
    intros s lc rc m A D B q H N. unfold remove_right, right_remove_entry. mrun.
    rewrite t_remove_entry_absent; auto. eapply (right_absent E OK); eauto.
  Qed.

  (* the pairs of the other right items *)
  Lemma others_z : forall s lc rc m A D B y q, Rep s lc rc m A D B -> In y B ->
    eqR E q (y_r y) = true ->
    filter (fun p => negb (is_r (eqR E) q p)) (map z_pair A)
      = map z_pair (filter (fun z => negb (in_group (y_id y) z)) A).
  Proof.
    intros s lc rc m A D B y q H Hy Q.
    assert (X : forall A', incl A' A -> filter (fun p => negb (is_r (eqR E) q p)) (map z_pair A')
      = map z_pair (filter (fun z => negb (in_group (y_id y) z)) A')).
    { induction A' as [|z t IH]; simpl; intros I; auto.
      rewrite (is_r_in_group E OK _ _ _ _ _ _ _ y q z H Hy Q) by (apply I; left; auto).
      destruct (in_group (y_id y) z); simpl; [|f_equal]; apply IH; intros x Hx; apply I; right; auto. }
    apply X. intros x Hx; auto.
  Qed.
  Lemma others_absent : forall s lc rc m A D B q, Rep s lc rc m A D B ->
    (forall x, In x B -> eqR E q (y_r x) = false) ->
    filter (fun p => negb (is_r (eqR E) q p)) (map z_pair A) = map z_pair A.
  Proof.
    intros s lc rc m A D B q H N. apply filter_all_true. intros p Hp.
    apply in_map_iff in Hp as (z & <- & Hz). erewrite (is_r_absent E); eauto.
  Qed.

  Lemma remove_right_ok : forall b s lc rc m G q, Repr b s lc rc m G -> clean E m q ->
    exists m' w, remove_right E q m = Ret m' w /\ same_group w (s_remove_right_out (eqR E) G q) /\
      Repr b s lc rc m' (s_remove_right (eqR E) G q).
  Proof.
    intros b s lc rc m G q (A & D & B & H & -> & T & CL & CR) C.
    unfold s_remove_right_out, s_remove_right.
    destruct (split_r E OK _ _ _ _ _ _ _ q H) as [(y & B' & P & H' & Q & _ & N)|N].
    - assert (CZ := clean_z E OK _ _ _ _ _ _ _ _ _ H' Q N C).
      destruct (remove_right_some _ _ _ _ _ _ _ _ _ H' Q N CZ) as (m' & ls & -> & PL & H2 & C1 & C2).
      exists m', (Some (ls, y_r y)). split; auto.
      assert (Hy : In y B) by (eapply Permutation_in; [symmetry; exact P|left; auto]).
      erewrite (find_r_some E) by eauto. split.
      + simpl. split; auto. rewrite (group_z E OK _ _ _ _ _ _ _ _ _ H Hy Q). auto.
      + apply (repr_same E OK) with (G := view (filter (fun z => negb (in_group (y_id y) z)) A) B').
        * split.
          { symmetry. eapply del_r_some; eauto. }
          { simpl. rewrite (others_z _ _ _ _ _ _ _ _ _ H Hy Q). reflexivity. }
        * do 3 eexists. split; [exact H2|]. split; [auto|split; [|split; congruence]].
          destruct T as [T1 T2]. split; auto.
          intros Hb z Hz. apply filter_In in Hz as [Hz _]. auto.
    - erewrite remove_right_none by eauto. exists m, None. split; auto.
      rewrite find_r_none by auto. split; [simpl; auto|].
      rewrite del_r_none by auto. cbn [g_pairs view]. erewrite others_absent by eauto.
      exists A, D, B. auto 6.
  Qed.

  Lemma remove_ok : forall b s lc rc m G l r, Repr b s lc rc m G ->
    (are_paired E m l r = true -> clean E m r) ->
    exists m' w, remove E l r m = Ret m' w /\ same_group w (s_remove_out (eqL E) (eqR E) G l r) /\
      Repr b s lc rc m' (s_remove (eqL E) (eqR E) G l r).
  Proof.
    intros b s lc rc m G l r H C. unfold remove, s_remove, s_remove_out. mrun.
    rewrite <- (are_paired_ok E OK _ _ _ _ _ _ l r H). destruct (are_paired E m l r).
    - apply remove_right_ok; auto.
    - exists m, None. simpl. auto.
  Qed.

  (* ---- clear, clone ---- *)
  Lemma clear_ok : forall b s lc rc m G, Repr b s lc rc m G ->
    exists m', clear E m = Ret m' tt /\ Repr (true, true) s lc rc m' (GC [] []).
  Proof.
    intros b s lc rc m G (A & D & B & H & -> & T & CL & CR). unfold clear. mrun.
    eexists. split; [reflexivity|]. exists [], [], []. split; [|split; auto].
    - apply core_rep; simpl; auto; [|apply (rep_hb _ _ _ _ _ _ _ _ H)].
      constructor; simpl; auto; try constructor; easy.
    - split; auto. split; auto. intros _ z [].
  Qed.
  Lemma clone_same : forall m : gm, clone m = m.
  Proof. destruct m; auto. Qed.
End Core.
