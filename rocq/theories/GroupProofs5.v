(* Refinement of GroupMap: the iterators. *)
From Coq Require Import List NArith Lia Bool Permutation.
From Verif Require Import Prelude RawTable GroupMap GroupSpec ListFacts TableFacts IterFacts
  GroupProofs GroupProofs2.
Import ListNotations.
Open Scope N_scope.

Lemma filter_le : forall {T} (p : T -> bool) l, (length (filter p l) <= length l)%nat.
Proof. induction l; simpl; auto. destruct (p a); simpl; lia. Qed.
Lemma filter_or : forall {T} (p q : T -> bool) l, (forall x, In x l -> p x && q x = false) ->
  Permutation (filter (fun x => p x || q x) l) (filter p l ++ filter q l).
Proof.
  induction l as [|a l IH]; simpl; intros H; auto.
  assert (IH' := IH (fun x Hx => H x (or_intror Hx))).
  specialize (H a (or_introl eq_refl)). destruct (p a), (q a); simpl in *; try discriminate; auto.
  etransitivity; [constructor; exact IH'|]. apply Permutation_middle.
Qed.

Section Iters.
  Context {L R S : Type} (E : env L R S) (OK : lawful E).
  Notation gm := (gmap L R S).
  Notation zl := (zleft L R).
  Notation zr := (zright R).
  Notation Rep := (Rep E).
  Notation Repr := (Repr E).
  Notation slotL := (slotL E).
  Notation slotR := (slotR E).
  Notation pslot := (pslot E).
  Notation pkey := (pkey E).

  Let EL := eqL_equiv _ OK.
  Let ER := eqR_equiv _ OK.
  Let LO := lo_ok _ OK.

  Definition all_linked (m : gm) : Prop := forall l, linked E m l.
  Definition all_clean (m : gm) : Prop := forall r, clean E m r.
  Definition ridsZ (A : list zl) : Prop := forall z, In z A -> z_rid z = z_g z.
  Definition cleansZ (D : list zl) (B : list zr) : Prop := forall y, In y B -> cleanZ D (y_id y).

  Lemma linked_rids : forall s lc rc m A D B, Rep s lc rc m A D B -> all_linked m -> ridsZ A.
  Proof.
    intros s lc rc m A D B H LK z Hz. apply perm_in_cons in Hz as [A' P].
    assert (H' := rep_perm E OK _ _ _ _ _ _ _ _ _ P (Permutation_refl B) H).
    eapply (linked_z E OK); [exact H'|apply equiv_refl; exact EL| |apply LK].
    assert (Q := rep_eql _ _ _ _ _ _ _ _ H'). simpl in Q. apply distinct_cons in Q as [Q _].
    intros x Hx. apply Q. apply in_map; auto.
  Qed.
  Lemma clean_cleans : forall s lc rc m A D B, Rep s lc rc m A D B -> all_clean m -> cleansZ D B.
  Proof.
    intros s lc rc m A D B H CL y Hy. apply perm_in_cons in Hy as [B' P].
    assert (H' := rep_perm E OK _ _ _ _ _ _ _ _ _ (Permutation_refl A) P H).
    eapply (clean_z E OK); [exact H'|apply equiv_refl; exact ER| |apply CL].
    assert (Q := rep_eqr _ _ _ _ _ _ _ _ H'). simpl in Q. apply distinct_cons in Q as [Q _].
    intros x Hx. apply Q. apply in_map; auto.
  Qed.
  Lemma tame_all_linked : forall d s lc rc m G, Repr (d, true) s lc rc m G -> all_linked m.
  Proof.
    intros d s lc rc m G (A & D & B & H & _ & [_ T] & _) l. eapply (tame_linked E OK); eauto.
  Qed.
  Lemma tame_all_clean : forall d s lc rc m G, Repr (true, d) s lc rc m G -> all_clean m.
  Proof.
    intros d s lc rc m G (A & D & B & H & _ & [T _] & _) l. eapply (tame_clean E OK); eauto.
  Qed.

  (* the order of the tables *)
  Lemma order_l : forall s lc rc m A D B, Rep s lc rc m A D B ->
    exists Y, Permutation A Y /\ slots (left_set m) = map (slotL s) Y.
  Proof.
    intros s lc rc m A D B H. assert (P := rep_l _ _ _ _ _ _ _ _ H).
    apply Permutation_map_inv in P as (Y & Q & P). exists Y; split; auto.
  Qed.
  Lemma order_r : forall s lc rc m A D B, Rep s lc rc m A D B ->
    exists Y, Permutation B Y /\ slots (right_set m) = map (slotR s) Y.
  Proof.
    intros s lc rc m A D B H. assert (P := rep_r _ _ _ _ _ _ _ _ H).
    apply Permutation_map_inv in P as (Y & Q & P). exists Y; split; auto.
  Qed.

  (* ---- iter_left, iter_right ---- *)
  Lemma left_steps : forall s, steps_as (@left_next L)
    (fun it l => exists Y : list zl, it = map (slotL s) Y /\ l = map z_l Y).
  Proof.
    intros s it l (Y & -> & ->). destruct Y as [|z Y]; simpl.
    - exists []. split; auto. exists []; auto.
    - eexists; split; [reflexivity|]. exists Y; auto.
  Qed.
  Lemma right_steps : forall s, steps_as (@right_next R)
    (fun it l => exists Y : list zr, it = map (slotR s) Y /\ l = map y_r Y).
  Proof.
    intros s it l (Y & -> & ->). destruct Y as [|z Y]; simpl.
    - exists []. split; auto. exists []; auto.
    - eexists; split; [reflexivity|]. exists Y; auto.
  Qed.
  (* l is still to come from it *)
  Definition shows {I T} (next : I -> outcome (option T * I)) (it : I) (l : list T) : Prop :=
    exists V, steps_as next V /\ V it l.

  Lemma iter_left_ok : forall b s lc rc m G, Repr b s lc rc m G ->
    exists l, shows (@left_next L) (iter_left m) l /\ left_rest (iter_left m) = Done l /\
      length (iter_left m) = length l /\ Permutation l (map fst (g_pairs G)).
  Proof.
    intros b s lc rc m G (A & D & B & H & -> & _). destruct (order_l _ _ _ _ _ _ _ H) as (Y & P & Q).
    exists (map z_l Y). unfold iter_left, left_rest. rewrite Q.
    split; [|split; [|split]].
    - eexists; split; [apply (left_steps s)|]. cbn; eauto 6.
    - eapply collect_as; [apply (left_steps s)|cbn; eauto 6|]. rewrite !map_length. auto.
    - rewrite !map_length; auto.
    - unfold view; simpl. rewrite map_map. symmetry. exact (Permutation_map z_l P).
  Qed.
  Lemma iter_right_ok : forall b s lc rc m G, Repr b s lc rc m G ->
    exists l, shows (@right_next R) (iter_right m) l /\ right_rest (iter_right m) = Done l /\
      length (iter_right m) = length l /\ Permutation l (g_rights G).
  Proof.
    intros b s lc rc m G (A & D & B & H & -> & _). destruct (order_r _ _ _ _ _ _ _ H) as (Y & P & Q).
    exists (map y_r Y). unfold iter_right, right_rest. rewrite Q.
    split; [|split; [|split]].
    - eexists; split; [apply (right_steps s)|]. cbn; eauto 6.
    - eapply collect_as; [apply (right_steps s)|cbn; eauto 6|]. rewrite !map_length. auto.
    - rewrite !map_length; auto.
    - unfold view; simpl. symmetry. exact (Permutation_map y_r P).
  Qed.

  (* ---- iter_paired ---- *)
  Lemma rid_right : forall s lc rc m A D B z, Rep s lc rc m A D B -> ridsZ A -> In z A ->
    exists y, t_get (lo E) (right_set m) (hashR E s (z_r z)) (right_with_right_id (z_rid z))
      = Some (snd (slotR s y)) /\ y_r y = z_r z.
  Proof.
    intros s lc rc m A D B z H RZ Hz. rewrite (RZ z Hz).
    destruct (rep_link _ _ _ _ _ _ _ _ H z Hz) as (y & Hy & I & Q). exists y; split; auto.
    rewrite <- I, <- Q. eapply (get_right_id E OK); eauto.
  Qed.
  Lemma paired_steps : forall s lc rc m A D B, Rep s lc rc m A D B -> ridsZ A ->
    steps_as (paired_next E m)
      (fun it l => exists Y : list zl, incl Y A /\ it = map (slotL s) Y /\ l = map z_pair Y).
  Proof.
    intros s lc rc m A D B H RZ it l (Y & I & -> & ->). destruct Y as [|z Y]; cbn [map].
    - exists []. split; auto. exists []; auto.
    - destruct (rid_right _ _ _ _ _ _ _ z H RZ) as (y & G & Q); [apply I; left; auto|].
      exists (map (slotL s) Y). split.
      + simpl. rewrite G. simpl. rewrite Q. auto.
      + exists Y. split; auto. intros x Hx. apply I; right; auto.
  Qed.
  Lemma iter_paired_z : forall s lc rc m A D B, Rep s lc rc m A D B -> ridsZ A ->
    exists Y, Permutation A Y /\ iter_paired m = map (slotL s) Y /\
      shows (paired_next E m) (iter_paired m) (map z_pair Y) /\
      paired_rest E m (iter_paired m) = Done (map z_pair Y).
  Proof.
    intros s lc rc m A D B H RZ. destruct (order_l _ _ _ _ _ _ _ H) as (Y & P & Q).
    exists Y. unfold iter_paired, paired_rest. rewrite Q.
    assert (I : incl Y A) by (intros x; apply Permutation_in; symmetry; auto).
    repeat split; auto.
    - eexists; split; [apply (paired_steps _ _ _ _ _ _ _ H RZ)|]. cbn; eauto 6.
    - eapply collect_as; [apply (paired_steps _ _ _ _ _ _ _ H RZ)|cbn; eauto 6|].
      rewrite !map_length. auto.
  Qed.
  Lemma iter_paired_ok : forall b s lc rc m G, Repr b s lc rc m G -> all_linked m ->
    exists l, shows (paired_next E m) (iter_paired m) l /\
      paired_rest E m (iter_paired m) = Done l /\ length (iter_paired m) = length l /\
      Permutation l (g_pairs G).
  Proof.
    intros b s lc rc m G (A & D & B & H & -> & _) LK.
    destruct (iter_paired_z _ _ _ _ _ _ _ H (linked_rids _ _ _ _ _ _ _ H LK)) as (Y & P & Q & SH & C).
    exists (map z_pair Y). repeat split; auto.
    - rewrite Q, !map_length; auto.
    - symmetry. exact (Permutation_map z_pair P).
  Qed.

  (* ---- iter_unpaired ---- *)
  Definition bare (A : list zl) (y : zr) : bool := negb (existsb (in_group (y_id y)) A).
  Lemma empty_z : forall s lc rc m A D B y, Rep s lc rc m A D B -> cleansZ D B -> In y B ->
    set_is_empty (y_tab y) = bare A y.
  Proof.
    intros s lc rc m A D B y H CL Hy. unfold set_is_empty, t_len, bare.
    rewrite (Permutation_length (rep_tab _ _ _ _ _ _ _ _ H y Hy)), map_length.
    rewrite clean_filter by (apply CL; auto).
    clear. induction A as [|z A IH]; simpl; auto. destruct (in_group (y_id y) z); simpl; auto.
  Qed.
  Lemma unpaired_steps : forall s lc rc m A D B, Rep s lc rc m A D B -> cleansZ D B ->
    steps_as (@unpaired_next R)
      (fun it l => exists Y : list zr, incl Y B /\ it = map (slotR s) Y /\ l = map y_r (filter (bare A) Y)).
  Proof.
    intros s lc rc m A D B H CL it l (Y & I & -> & ->).
    induction Y as [|y Y IH].
    - simpl. exists []. split; auto. exists []; auto.
    - cbn [map unpaired_next slotR GroupProofs.slotR r_pairs r_value filter].
      rewrite (empty_z _ _ _ _ _ _ _ y H CL) by (apply I; left; auto).
      assert (I' : incl Y B) by (intros x Hx; apply I; right; auto).
      destruct (bare A y); [|apply IH; auto].
      cbn [map]. eexists; split; [reflexivity|]. exists Y; auto.
  Qed.
  Lemma iter_unpaired_z : forall s lc rc m A D B, Rep s lc rc m A D B -> cleansZ D B ->
    exists Y, Permutation B Y /\ iter_unpaired m = map (slotR s) Y /\
      shows (@unpaired_next R) (iter_unpaired m) (map y_r (filter (bare A) Y)) /\
      unpaired_rest (iter_unpaired m) = Done (map y_r (filter (bare A) Y)).
  Proof.
    intros s lc rc m A D B H CL. destruct (order_r _ _ _ _ _ _ _ H) as (Y & P & Q).
    exists Y. unfold iter_unpaired, unpaired_rest. rewrite Q.
    assert (I : incl Y B) by (intros x; apply Permutation_in; symmetry; auto).
    repeat split; auto.
    - eexists; split; [apply (unpaired_steps _ _ _ _ _ _ _ H CL)|]. cbn; eauto 6.
    - eapply collect_as; [apply (unpaired_steps _ _ _ _ _ _ _ H CL)|cbn; eauto 6|].
      rewrite !map_length. apply filter_le.
  Qed.
  Lemma unpaired_z : forall s lc rc m A D B y, Rep s lc rc m A D B -> In y B ->
    s_is_right_paired (eqR E) (view A B) (y_r y) = existsb (in_group (y_id y)) A.
  Proof.
    intros s lc rc m A D B y H Hy. unfold s_is_right_paired, view; simpl.
    assert (X : forall A', incl A' A -> existsb (is_r (eqR E) (y_r y)) (map z_pair A') =
                                       existsb (in_group (y_id y)) A').
    { induction A' as [|z A' IH]; simpl; intros I; auto. f_equal.
      - eapply (is_r_in_group E OK); eauto. + apply equiv_refl; exact ER. + apply I; left; auto.
      - apply IH. intros x Hx; apply I; right; auto. }
    apply X. intros x; auto.
  Qed.
  Lemma unpaired_view : forall s lc rc m A D B, Rep s lc rc m A D B ->
    s_unpaired (eqR E) (view A B) = map y_r (filter (bare A) B).
  Proof.
    intros s lc rc m A D B H. unfold s_unpaired. simpl. rewrite filter_map_comm. f_equal.
    apply filter_ext_in. intros y Hy. unfold bare. f_equal. eapply unpaired_z; eauto.
  Qed.
  Lemma iter_unpaired_ok : forall b s lc rc m G, Repr b s lc rc m G -> all_clean m ->
    exists l, shows (@unpaired_next R) (iter_unpaired m) l /\
      unpaired_rest (iter_unpaired m) = Done l /\ Permutation l (s_unpaired (eqR E) G).
  Proof.
    intros b s lc rc m G (A & D & B & H & -> & _) CL.
    destruct (iter_unpaired_z _ _ _ _ _ _ _ H (clean_cleans _ _ _ _ _ _ _ H CL)) as (Y & P & Q & SH & C).
    eexists; split; [exact SH|]. split; auto.
    erewrite unpaired_view by eauto. apply Permutation_map, filter_perm. symmetry; auto.
  Qed.

  (* ---- get_left_iter ---- *)
  Lemma pair_steps : forall s lc rc m A D B, Rep s lc rc m A D B ->
    steps_as (pair_next E m)
      (fun it l => exists Y : list zl, incl Y A /\ it = map (pkey s) Y /\ l = map z_l Y).
  Proof.
    intros s lc rc m A D B H it l (Y & I & -> & ->). destruct Y as [|z Y]; cbn [map].
    - exists []. split; auto. exists []; auto.
    - exists (map (pkey s) Y). split.
      + simpl. erewrite (get_left_id E OK) by (eauto; apply I; left; auto). auto.
      + exists Y. split; auto. intros x Hx. apply I; right; auto.
  Qed.
  Lemma get_left_iter_steps : forall b s lc rc m G q it, Repr b s lc rc m G -> clean E m q ->
    get_left_iter E m q = Some it ->
    exists l, shows (pair_next E m) it l /\ pair_rest E m it = Done l /\ pair_len it = length l /\
      Permutation l (group (eqR E) G q).
  Proof.
    intros b s lc rc m G q it (A & D & B & H & -> & _) CL GI.
    destruct (split_r E OK _ _ _ _ _ _ _ q H) as [(y & B' & P & H' & Q & _ & N)|N].
    - assert (CZ := clean_z E OK _ _ _ _ _ _ _ _ _ H' Q N CL).
      destruct (get_left_iter_z E OK _ _ _ _ _ _ _ _ _ H' Q N CZ) as (zs & GI' & PZ).
      rewrite GI in GI'. injection GI' as ->.
      assert (I : incl zs A).
      { intros x Hx. apply (Permutation_in _ PZ) in Hx. apply filter_In in Hx; tauto. }
      exists (map z_l zs). split; [|split; [|split]].
      + eexists; split; [apply (pair_steps _ _ _ _ _ _ _ H)|]. cbn; eauto 6.
      + eapply (pair_rest_ok E OK); eauto.
      + unfold pair_len. rewrite !map_length; auto.
      + erewrite (group_z E OK); [|exact H| |exact Q].
        * apply Permutation_map; auto.
        * eapply Permutation_in; [symmetry; exact P|left; auto].
    - exfalso. unfold get_left_iter, get_left_iter_q in GI.
      change (t_get (lo E) (right_set m) (hashR E (hash_builder m) q) (equivalent_key_right (eqR E) q))
        with (find_right E m q) in GI.
      erewrite (find_right_none E) in GI by eauto. discriminate.
  Qed.

  (* ---- iter ---- *)
  (* a right item with its left items in the order of its set *)
  Definition gitems (g : zr * list zl) : list (option L * R) :=
    match snd g with
    | [] => [(None, y_r (fst g))]
    | zs => map (fun z => (Some (z_l z), z_r z)) zs
    end.
  Definition good (A : list zl) (s : S) (g : zr * list zl) : Prop :=
    hs_elems (y_tab (fst g)) = map (pkey s) (snd g) /\
    Permutation (snd g) (filter (in_group (y_id (fst g))) A) /\
    forall z, In z (snd g) -> z_r z = y_r (fst g).
  Lemma iter_steps : forall s lc rc m A D B, Rep s lc rc m A D B -> ridsZ A ->
    steps_as (iter_next E m)
      (fun it l => exists zs gs, incl zs A /\ (forall g, In g gs -> good A s g) /\
         (left_iter it = Some (map (pkey s) zs) \/ left_iter it = None /\ zs = []) /\
         right_iter it = map (slotR s) (map fst gs) /\
         l = map (fun z => (Some (z_l z), z_r z)) zs ++ flat_map gitems gs).
  Proof.
    intros s lc rc m A D B H RZ it l (zs & gs & I & GG & HL & HR & ->).
    destruct zs as [|z zs]; cbn [map app].
    - assert (NX : iter_next E m it = iter_next_right E m (left_iter it) (right_iter it)).
      { unfold iter_next. destruct HL as [->|[-> _]]; auto. }
      rewrite NX, HR. destruct gs as [|g gs]; cbn [map flat_map].
      + eexists; split; [reflexivity|]. exists [], []. refine (conj _ (conj _ (conj _ (conj _ _)))); auto; intros ? [].
      + destruct (GG g (or_introl eq_refl)) as (Q1 & Q2 & Q3).
        destruct g as [y [|z zs]]; cbn [fst snd gitems app map] in *.
        * simpl. rewrite Q1. eexists; split; [reflexivity|]. exists [], gs. simpl.
          refine (conj _ (conj _ (conj _ (conj _ _)))); auto. intros g Hg. apply GG. right; auto.
        * simpl. rewrite Q1. cbn [map GroupProofs.pkey].
          assert (IZ : incl (z :: zs) A).
          { intros x Hx. apply (Permutation_in _ Q2) in Hx. apply filter_In in Hx; tauto. }
          erewrite (get_left_id E OK) by (eauto; apply IZ; left; auto). simpl.
          rewrite <- (Q3 z (or_introl eq_refl)).
          eexists; split; [reflexivity|]. exists zs, gs. simpl. refine (conj _ (conj _ (conj _ (conj _ _)))); auto.
          { intros x Hx. apply IZ; right; auto. }
          { intros g Hg. apply GG. right; auto. }
    - destruct HL as [HL|[_ HL]]; [|discriminate].
      exists (Iter (right_iter it) (Some (map (pkey s) zs))). split.
      + unfold iter_next. rewrite HL. cbn [map pkey GroupProofs.pkey].
        erewrite (get_left_id E OK) by (eauto; apply I; left; auto). cbn [slotL GroupProofs.slotL snd l_hash l_rid l_value].
        destruct (rid_right _ _ _ _ _ _ _ z H RZ) as (y & G & Q); [apply I; left; auto|].
        rewrite G. simpl. rewrite Q. auto.
      + exists zs, gs. simpl. refine (conj _ (conj _ (conj _ (conj _ _)))); auto. intros x Hx; apply I; right; auto.
  Qed.

  Lemma groups_exist : forall s lc rc m A D B, Rep s lc rc m A D B -> cleansZ D B ->
    forall Y, incl Y B -> exists gs, map fst gs = Y /\ forall g, In g gs -> good A s g.
  Proof.
    intros s lc rc m A D B H CL. induction Y as [|y Y IH]; intros I.
    - exists []. split; auto. intros g [].
    - destruct IH as (gs & Q & GG); [intros x Hx; apply I; right; auto|].
      assert (Hy : In y B) by (apply I; left; auto).
      destruct (tab_elems E _ _ _ _ _ _ _ y H Hy) as (zs & Q1 & Q2).
      rewrite clean_filter in Q2 by (apply CL; auto).
      exists ((y, zs) :: gs). split; [simpl; f_equal; auto|].
      intros g [<-|Hg]; auto. split; [|split]; auto. simpl. intros z Hz.
      apply (Permutation_in _ Q2) in Hz. apply filter_In in Hz as [Hz G]. apply N.eqb_eq in G.
      eapply (in_group_r E); eauto.
  Qed.

  Lemma gitems_perm : forall (gs : list (zr * list zl)),
    Permutation (flat_map gitems gs)
      (map (fun z => (Some (z_l z), z_r z)) (flat_map snd gs) ++
       map (fun y => (None, y_r y)) (map fst (filter (fun g => match snd g with [] => true | _ => false end) gs))).
  Proof.
    induction gs as [|[y zs] gs IH]; simpl; auto.
    destruct zs as [|z zs]; unfold gitems at 1; cbn [snd fst map app].
    - rewrite IH. apply Permutation_middle.
    - constructor. rewrite IH. rewrite map_app, <- app_assoc. auto.
  Qed.
  Lemma groups_cover : forall A s (gs : list (zr * list zl)), (forall g, In g gs -> good A s g) ->
    NoDup (map y_id (map fst gs)) ->
    Permutation (flat_map snd gs) (filter (fun z => existsb (fun g => in_group (y_id (fst g)) z) gs) A).
  Proof.
    intros A s. induction gs as [|g gs IH]; simpl; intros GG ND.
    - rewrite filter_all_false; auto.
    - inversion ND; subst. rewrite filter_or.
      + apply Permutation_app; auto. destruct (GG g (or_introl eq_refl)) as (_ & P & _); auto.
      + intros z Hz. apply andb_false_iff.
        destruct (in_group (y_id (fst g)) z) eqn:I; auto. right. apply existsb_false.
        intros g' Hg'. apply N.eqb_neq. intro Q. apply N.eqb_eq in I. apply H1.
        rewrite <- I, Q. apply in_map, in_map; auto.
  Qed.

  Lemma iter_z : forall s lc rc m A D B, Rep s lc rc m A D B -> ridsZ A -> cleansZ D B ->
    exists l, shows (iter_next E m) (iter m) l /\ iter_rest E m (iter m) = Done l /\
      (length l <= iter_bound (iter m))%nat /\
      Permutation l (s_items (eqR E) (view A B)).
  Proof.
    intros s lc rc m A D B H RZ CL. destruct (order_r _ _ _ _ _ _ _ H) as (Y & P & Q).
    assert (I : incl Y B) by (intros x; apply Permutation_in; symmetry; auto).
    destruct (groups_exist _ _ _ _ _ _ _ H CL Y I) as (gs & QY & GG).
    assert (VV : exists zs gs', incl zs A /\ (forall g, In g gs' -> good A s g) /\
         (left_iter (iter m) = Some (map (pkey s) zs) \/ left_iter (iter m) = None /\ zs = []) /\
         right_iter (iter m) = map (slotR s) (map fst gs') /\
         flat_map gitems gs = map (fun z => (Some (z_l z), z_r z)) zs ++ flat_map gitems gs').
    { exists [], gs. refine (conj _ (conj _ (conj _ (conj _ _)))); auto.
      - intros x [].
      - simpl. rewrite Q, QY. auto. }
    assert (LB : (length (flat_map gitems gs) <= iter_bound (iter m))%nat).
    { unfold iter_bound. simpl. rewrite Q, <- QY. clear -GG.
      induction gs as [|g gs IH]; simpl; auto. rewrite app_length.
      assert (X := IH (fun g Hg => GG g (or_intror Hg))).
      destruct (GG g (or_introl eq_refl)) as (Q1 & _ & _).
      assert (X2 : (length (gitems g) <= Datatypes.S (t_len (y_tab (fst g))))%nat).
      { assert (X3 : t_len (y_tab (fst g)) = length (snd g)).
        { rewrite <- (map_length (pkey s)), <- Q1. unfold t_len, hs_elems. rewrite map_length. auto. }
        rewrite X3. unfold gitems. destruct (snd g); simpl; try rewrite map_length; lia. }
      lia. }
    exists (flat_map gitems gs). split; [|split; [|split]]; auto.
    - eexists; split; [apply (iter_steps _ _ _ _ _ _ _ H RZ)|exact VV].
    - eapply collect_as; [apply (iter_steps _ _ _ _ _ _ _ H RZ)|exact VV|auto].
    - rewrite gitems_perm. unfold s_items. erewrite unpaired_view by eauto.
      cbn [g_pairs view GroupProofs.view]. rewrite !map_map.
      assert (NDY : NoDup (map y_id (map fst gs))).
      { rewrite QY. eapply NoDup_perm; [apply Permutation_map; exact P|apply (rep_rids _ _ _ _ _ _ _ _ H)]. }
      apply Permutation_app.
      + rewrite (groups_cover A s gs GG NDY).
        rewrite filter_all_true; [apply Permutation_map; auto|].
        intros z Hz. apply existsb_exists.
        destruct (rep_link _ _ _ _ _ _ _ _ H z Hz) as (y & Hy & Q1 & Q2).
        apply (Permutation_in _ P) in Hy. rewrite <- QY in Hy.
        apply in_map_iff in Hy as (g & Q3 & Hg). exists g. split; auto.
        rewrite Q3. apply N.eqb_eq; auto.
      + rewrite (filter_perm _ _ _ P), <- QY.
        rewrite filter_map_comm, map_map.
        assert (X : filter (fun g : zr * list zl => match snd g with [] => true | _ => false end) gs
                  = filter (fun g => bare A (fst g)) gs).
        { apply filter_ext_in. intros g Hg. destruct (GG g Hg) as (_ & Q2 & _). unfold bare.
          destruct (snd g) as [|z zs].
          - apply Permutation_nil in Q2. symmetry. apply negb_true_iff, existsb_false.
            intros z Hz. destruct (in_group (y_id (fst g)) z) eqn:IG; auto.
            assert (IN : In z (filter (in_group (y_id (fst g))) A)) by (apply filter_In; auto).
            rewrite Q2 in IN. destruct IN.
          - symmetry. apply negb_false_iff, existsb_exists. exists z.
            apply filter_In. eapply Permutation_in; [exact Q2|left; auto]. }
        rewrite X. auto.
  Qed.
  Lemma iter_ok : forall b s lc rc m G, Repr b s lc rc m G -> all_linked m -> all_clean m ->
    exists l, shows (iter_next E m) (iter m) l /\ iter_rest E m (iter m) = Done l /\
      (length l <= iter_bound (iter m))%nat /\ Permutation l (s_items (eqR E) G).
  Proof.
    intros b s lc rc m G (A & D & B & H & -> & _) LK CL.
    apply (iter_z _ _ _ _ _ _ _ H).
    - eapply linked_rids; eauto.
    - eapply clean_cleans; eauto.
  Qed.

  (* ---- PartialEq ---- *)
  Lemma all_items_as : forall m other V, steps_as (iter_next E m) V ->
    forall l fuel it, V it l -> (length l <= fuel)%nat ->
    all_items E m other fuel it = Done (forallb (eq_item E other) l).
  Proof.
    intros m other V ST. induction l as [|a l IH]; intros fuel it HV HF;
      assert (Q := ST _ _ HV); cbn in Q; destruct Q as (it' & E1 & V1).
    - destruct fuel; simpl; rewrite E1; auto.
    - destruct fuel as [|fuel]; [simpl in HF; lia|]. simpl. rewrite E1.
      destruct (eq_item E other a); simpl; auto. apply IH; auto. simpl in HF; lia.
  Qed.
  Definition s_eq_item (G : contents L R) (x : option L * R) : bool :=
    match fst x with
    | Some l => s_are_paired (eqL E) (eqR E) G l (snd x)
    | None => negb (s_is_right_paired (eqR E) G (snd x))
    end.
  Lemma forallb_perm : forall {T} (p : T -> bool) l l', Permutation l l' -> forallb p l = forallb p l'.
  Proof.
    intros T p l l' P. induction P; simpl; auto.
    - rewrite IHP; auto.
    - destruct (p x), (p y); auto.
    - congruence.
  Qed.
  Lemma map_eq_ok : forall b s lc rc m G b' s' lc' rc' m' G', Repr b s lc rc m G ->
    all_linked m -> all_clean m -> Repr b' s' lc' rc' m' G' -> all_clean m' ->
    map_eq E m m' =
      Done (if negb (Nat.eqb (length (g_pairs G)) (length (g_pairs G'))) &&
               negb (Nat.eqb (length (g_rights G)) (length (g_rights G')))
            then false else forallb (s_eq_item G') (s_items (eqR E) G)).
  Proof.
    intros b s lc rc m G b' s' lc' rc' m' G' HR LK CL HR' CL'. unfold map_eq.
    rewrite (len_left_ok E _ _ _ _ _ _ HR), (len_left_ok E _ _ _ _ _ _ HR').
    rewrite (len_right_ok E _ _ _ _ _ _ HR), (len_right_ok E _ _ _ _ _ _ HR').
    destruct (_ && _); auto.
    destruct (iter_ok _ _ _ _ _ _ HR LK CL) as (l & (V & ST & HV) & _ & LB & P).
    rewrite (all_items_as m m' V ST l) by auto. f_equal.
    rewrite <- (forallb_perm _ _ _ P). clear -HR' CL' OK.
    induction l as [|[o r] l IH]; simpl; auto. f_equal; auto.
    unfold eq_item, s_eq_item; simpl. destruct o as [x|].
    - eapply (are_paired_ok E OK); eauto.
    - f_equal. eapply (is_right_paired_ok E OK); eauto.
  Qed.
End Iters.
