(* Refinement of GroupMap: retain_paired, retain_unpaired. *)
From Coq Require Import List NArith Lia Bool Permutation.
From Verif Require Import Prelude RawTable GroupMap GroupSpec ListFacts TableFacts IterFacts Closures
  GroupProofs GroupProofs2 GroupProofs3 GroupProofs5.
Import ListNotations.
Open Scope N_scope.

Section Retain.
  Context {L R S : Type} (E : env L R S) (OK : lawful E).
  Notation gm := (gmap L R S).
  Notation zl := (zleft L R).
  Notation zr := (zright R).
  Notation Rep := (Rep E).
  Notation Repr := (Repr E).
  Notation slotL := (slotL E).
  Notation slotR := (slotR E).
  Notation pslot := (pslot E).
  Notation pkey := (pkey E).

  Let EL := eqL_equiv _ OK.
  Let ER := eqR_equiv _ OK.
  Let LO := lo_ok _ OK.

  Lemma retain_scan_as : forall {X A I U} (f : X -> A -> X * verdict) (next : I -> outcome (option A * I))
      (key : A -> option (N * N)) (V : I -> list A -> Prop) (g : U -> A) (k : U -> N * N),
    steps_as next V -> forall W fuel it x, V it (map g W) -> (length W <= fuel)%nat ->
    (forall u, In u W -> key (g u) = Some (k u)) ->
    retain_scan f next key fuel it x =
      match s_filter (fun x u => f x (g u)) x W with
      | (x', _, _, true) => Panic x'
      | (x', yes, _, false) => Ret x' (map k yes)
      end.
  Proof.
    intros X A I U f next key V g k ST.
    induction W as [|u W IH]; intros fuel it x HV HF HK; assert (Q := ST _ _ HV); cbn [map] in Q.
    - destruct Q as (it' & E1 & _). destruct fuel; simpl; rewrite E1; auto.
    - destruct Q as (it' & E1 & V1). destruct fuel as [|fuel]; [simpl in HF; lia|].
      cbn [retain_scan s_filter]. rewrite E1.
      destruct (f x (g u)) as [x1 [b|]]; auto.
      rewrite (HK u (or_introl eq_refl)).
      rewrite (IH fuel it' x1 V1); [|simpl in HF; lia|intros; apply HK; right; auto].
      destruct (s_filter _ x1 W) as [[[x2 yes] no] [|]]; destruct b; auto.
  Qed.

  (* the two loops that drop *)
  Lemma drop_lefts_ok : forall zs s lc rc m A D B, Rep s lc rc m (zs ++ A) D B ->
    exists m', drop_lefts E (map (pkey s) zs) m = Ret m' tt /\ Rep s lc rc m' A (rev zs ++ D) B /\
      left_counter m' = left_counter m /\ right_counter m' = right_counter m.
  Proof.
    induction zs as [|z zs IH]; intros s lc rc m A D B H; cbn [map].
    - exists m. simpl in *. auto.
    - cbn [drop_lefts GroupProofs.pkey]. unfold left_remove_entry. mrun.
      destruct (t_remove_entry_unique _ LO (left_set m) (hashL E s (z_l z))
        (left_with_left_id (z_id z)) (snd (slotL s z)) (map (slotL s) (zs ++ A))) as (lt & -> & PL).
      { apply (rep_l _ _ _ _ _ _ _ _ H). }
      { apply N.eqb_refl. }
      { intros x Hx. eapply (id_l_other E); [|exact Hx].
        assert (ND := rep_lids _ _ _ _ _ _ _ _ H). simpl in ND. inversion ND; subst.
        intro Hz. apply H2. rewrite (map_app z_id (zs ++ A)). apply in_app_iff; auto. }
      cbn iota beta.
      assert (H1 : Rep s lc rc (set_left lt m) (zs ++ A) (z :: D) B).
      { apply core_rep; auto.
        - apply (core_kill E s lc rc [z]). eapply rep_core; exact H.
        - apply (rep_hb _ _ _ _ _ _ _ _ H).
        - apply (rep_r _ _ _ _ _ _ _ _ H). }
      destruct (IH _ _ _ _ _ _ _ H1) as (m' & Q & H2 & C1 & C2).
      exists m'. rewrite Q. simpl. rewrite <- app_assoc. simpl. auto.
  Qed.
  Definition rkey (s : S) (y : zr) : N * N := (hashR E s (y_r y), y_id y).
  Lemma drop_rights_ok : forall ys s lc rc m A D B, Rep s lc rc m A D (ys ++ B) ->
    cleansZ D (ys ++ B) -> (forall y, In y ys -> bare A y = true) ->
    exists m', drop_rights E (map (rkey s) ys) m = Ret m' tt /\ Rep s lc rc m' A D B /\
      left_counter m' = left_counter m /\ right_counter m' = right_counter m.
  Proof.
    induction ys as [|y ys IH]; intros s lc rc m A D B H CL BA; cbn [map].
    - exists m. simpl in *. auto.
    - cbn [drop_rights rkey]. unfold remove_via_hash_and_id, right_remove_entry. mrun.
      destruct (t_remove_entry_unique _ LO (right_set m) (hashR E s (y_r y))
        (right_with_right_id (y_id y)) (snd (slotR s y)) (map (slotR s) (ys ++ B))) as (rt & -> & PR).
      { apply (rep_r _ _ _ _ _ _ _ _ H). }
      { apply N.eqb_refl. }
      { intros x Hx. eapply (id_r_other E); [|exact Hx].
        assert (ND := rep_rids _ _ _ _ _ _ _ _ H). simpl in ND. inversion ND; auto. }
      cbn [snd GroupProofs.slotR r_pairs r_value].
      assert (Hy : In y ((y :: ys) ++ B)) by (left; auto).
      assert (NG : forall z, In z A -> z_g z <> y_id y).
      { intros z Hz Q. assert (BY := BA y (or_introl eq_refl)). unfold bare in BY.
        apply negb_true_iff in BY. rewrite existsb_false in BY.
        specialize (BY z Hz). apply N.eqb_neq in BY. auto. }
      assert (EM : hs_elems (y_tab y) = []).
      { destruct (tab_elems E _ _ _ _ _ _ _ y H Hy) as (zs & Q1 & Q2).
        rewrite clean_filter in Q2 by (apply CL; auto).
        rewrite filter_all_false in Q2 by (intros z Hz; apply N.eqb_neq; auto).
        apply Permutation_sym, Permutation_nil in Q2. rewrite Q1, Q2. auto. }
      rewrite EM. cbn [remove_pairs].
      assert (H1 : Rep s lc rc (set_right rt m) A D (ys ++ B)).
      { apply core_rep; auto.
        - eapply core_del_right; [eapply rep_core; exact H|exact NG].
        - apply (rep_hb _ _ _ _ _ _ _ _ H).
        - apply (rep_l _ _ _ _ _ _ _ _ H). }
      destruct (IH _ _ _ _ _ _ _ H1) as (m' & Q & H2 & C1 & C2).
      { intros x Hx. apply CL. right; auto. }
      { intros x Hx. apply BA. right; auto. }
      exists m'. mrun. rewrite Q. auto.
  Qed.

  Lemma drop_lefts_right : forall ks m m', drop_lefts E ks m = Ret m' tt -> right_set m' = right_set m.
  Proof.
    induction ks as [|[h i] ks IH]; intros m m' H; cbn [drop_lefts] in H.
    - inversion H; auto.
    - unfold left_remove_entry, bind, getst, ret, set_left in H.
      destruct (t_remove_entry (lo E) (left_set m) h (left_with_left_id i)) as [[t e]|].
      + apply IH in H. rewrite H. auto.
      + apply IH in H. auto.
  Qed.
  Lemma retain_paired_z : forall {X} s lc rc m A D B (f : X -> L * R -> X * verdict) x,
    Rep s lc rc m A D B -> ridsZ A ->
    exists Y, Permutation A Y /\ paired_rest E m (iter_paired m) = Done (map z_pair Y) /\
      match s_filter (fun x u => f x (z_pair u)) x Y with
      | (x', _, _, true) => retain_paired E f (m, x) = Panic (m, x')
      | (x', yes, no, false) => exists m', Permutation A (yes ++ no) /\
          retain_paired E f (m, x) = Ret (m', x') tt /\ Rep s lc rc m' no (rev yes ++ D) B /\
          right_set m' = right_set m /\
          left_counter m' = left_counter m /\ right_counter m' = right_counter m
      end.
  Proof.
    intros X s lc rc m A D B f x H RZ.
    destruct (iter_paired_z E OK _ _ _ _ _ _ _ H RZ) as (Y & P & Q & (V & ST & HV) & CL).
    exists Y. split; auto. split; auto.
    assert (HK : forall z, In z Y -> retain_paired_key E m (z_pair z) = Some (pkey s z)).
    { intros z Hz. assert (Hz' : In z A) by (eapply Permutation_in; [symmetry|]; eauto).
      unfold retain_paired_key. simpl.
      apply perm_in_cons in Hz' as [A' PA].
      assert (H' := rep_perm E OK _ _ _ _ _ _ _ _ _ PA (Permutation_refl B) H).
      assert (X2 : find_left E m (z_l z) = Some (snd (slotL s z))).
      { eapply (find_left_some E OK); [exact H'|apply equiv_refl; exact EL|].
        assert (W := rep_eql _ _ _ _ _ _ _ _ H'). simpl in W. apply distinct_cons in W as [W _].
        intros x0 Hx. apply W. apply in_map; auto. }
      rewrite X2, (rep_hb _ _ _ _ _ _ _ _ H). auto. }
    assert (SC := retain_scan_as f (paired_next E m) (retain_paired_key E m) V z_pair (pkey s) ST
      Y (length (iter_paired m)) (iter_paired m) x HV).
    unfold retain_paired, retain_with. simpl fst. simpl snd.
    rewrite SC; [|rewrite Q, map_length; auto|auto]. clear SC.
    destruct (s_filter (fun x u => f x (z_pair u)) x Y) as [[[x' yes] no] pn] eqn:SF.
    apply s_filter_perm in SF. destruct pn; auto.
    rewrite <- P in SF.
    assert (H1 : Rep s lc rc m (yes ++ no) D B).
    { eapply (rep_perm E OK); [|apply Permutation_refl|exact H]. auto. }
    destruct (drop_lefts_ok _ _ _ _ _ _ _ _ H1) as (m' & Q1 & H2 & D1 & D2).
    exists m'. split; auto. rewrite Q1. split; auto. split; auto. split; auto.
    eapply drop_lefts_right; eauto.
  Qed.
  (* The closure is asked about the pairs in some order P; the pairs answered true go. *)
  Lemma retain_paired_ok : forall {X} b s lc rc m G (f : X -> L * R -> X * verdict) x,
    Repr b s lc rc m G -> all_linked E m ->
    exists P, Permutation P (g_pairs G) /\ paired_rest E m (iter_paired m) = Done P /\
      match s_filter f x P with
      | (x', _, _, true) => retain_paired E f (m, x) = Panic (m, x')
      | (x', yes, others, false) => exists m',
          retain_paired E f (m, x) = Ret (m', x') tt /\
          Repr (fst b && match yes with [] => true | _ => false end, snd b) s lc rc m' (GC (g_rights G) others) /\
          forall r, clean E m r -> (forall p, In p yes -> eqR E r (snd p) = false) -> clean E m' r
      end.
  Proof.
    intros X b s lc rc m G f x (A & D & B & H & -> & T & C1 & C2) LK.
    assert (RZ := linked_rids E OK _ _ _ _ _ _ _ H LK).
    destruct (retain_paired_z _ _ _ _ _ _ _ f x H RZ) as (Y & P & Q & W).
    exists (map z_pair Y). split; [symmetry; exact (Permutation_map z_pair P)|]. split; auto.
    rewrite s_filter_map. clear Q.
    destruct (s_filter (fun x u => f x (z_pair u)) x Y) as [[[x' yes] no] pn] eqn:SF.
    destruct pn; auto. destruct W as (m' & P1 & Q1 & H2 & _ & D1 & D2).
    assert (H1 : Rep s lc rc m (yes ++ no) D B).
    { eapply (rep_perm E OK); [exact P1|apply Permutation_refl|exact H]. }
    exists m'. split; auto. split.
    2:{ intros r CR NY. eapply (clean_of_z E OK); [exact H2|]. intros y Hy QR z Hz ZG.
        apply in_app_or in Hz as [Hz|Hz].
        - apply in_rev in Hz. rewrite <- (in_group_r E _ _ _ _ _ _ _ y z H1 Hy) in QR; auto.
          + specialize (NY (z_pair z) (in_map _ _ _ Hz)). simpl in NY. congruence.
          + apply in_or_app; auto.
        - exact (z_of_clean E OK _ _ _ _ _ _ _ r H CR y Hy QR z Hz ZG). }
    exists no, (rev yes ++ D), B. split; auto.
    split; [reflexivity|]. split; [|split; congruence].
    destruct T as [T1 T2]. split; simpl.
    - intros TB. apply andb_true_iff in TB as [TB TY]. destruct yes; [auto|discriminate].
    - intros TB z Hz. apply T2; auto. eapply Permutation_in; [symmetry; exact P1|].
      apply in_app_iff; auto.
  Qed.

  Lemma retain_unpaired_ok : forall {X} b s lc rc m G (f : X -> R -> X * verdict) x,
    Repr b s lc rc m G -> all_clean E m ->
    exists U, Permutation U (s_unpaired (eqR E) G) /\ unpaired_rest (iter_unpaired m) = Done U /\
      match s_filter f x U with
      | (x', _, _, true) => retain_unpaired E f (m, x) = Panic (m, x')
      | (x', yes, others, false) => exists m' rights,
          retain_unpaired E f (m, x) = Ret (m', x') tt /\
          Permutation (g_rights G) (yes ++ rights) /\
          Repr b s lc rc m' (GC rights (g_pairs G))
      end.
  Proof.
    intros X b s lc rc m G f x (A & D & B & H & -> & T & C1 & C2) CL.
    assert (CZ := clean_cleans E OK _ _ _ _ _ _ _ H CL).
    destruct (iter_unpaired_z E _ _ _ _ _ _ _ H CZ) as (Y & P & Q & (V & ST & HV) & CO).
    exists (map y_r (filter (bare A) Y)). split.
    { erewrite (unpaired_view E OK) by eauto. apply Permutation_map, filter_perm. symmetry; auto. }
    split; auto.
    assert (HK : forall y, In y (filter (bare A) Y) -> retain_unpaired_key E m (y_r y) = Some (rkey s y)).
    { intros y Hy. apply filter_In in Hy as [Hy _].
      assert (Hy' : In y B) by (eapply Permutation_in; [symmetry|]; eauto).
      unfold retain_unpaired_key.
      apply perm_in_cons in Hy' as [B' PB].
      assert (H' := rep_perm E OK _ _ _ _ _ _ _ _ _ (Permutation_refl A) PB H).
      assert (X2 : find_right E m (y_r y) = Some (snd (slotR s y))).
      { eapply (find_right_some E OK); [exact H'|apply equiv_refl; exact ER|].
        assert (W := rep_eqr _ _ _ _ _ _ _ _ H'). simpl in W. apply distinct_cons in W as [W _].
        intros x0 Hx. apply W. apply in_map; auto. }
      rewrite X2, (rep_hb _ _ _ _ _ _ _ _ H). auto. }
    assert (SC := retain_scan_as f (@unpaired_next R) (retain_unpaired_key E m) V y_r (rkey s) ST
      (filter (bare A) Y) (length (iter_unpaired m)) (iter_unpaired m) x HV).
    rewrite s_filter_map. unfold retain_unpaired, retain_with. simpl fst. simpl snd.
    rewrite SC; [|rewrite Q, map_length; apply filter_le|auto]. clear SC.
    destruct (s_filter (fun x u => f x (y_r u)) x (filter (bare A) Y)) as [[[x' yes] no] pn] eqn:SF.
    apply s_filter_perm in SF. destruct pn; auto.
    set (kept := no ++ filter (fun y => negb (bare A y)) Y).
    assert (PB : Permutation B (yes ++ kept)).
    { rewrite P. unfold kept. rewrite app_assoc, <- SF. apply filter_split_perm. }
    assert (H1 : Rep s lc rc m A D (yes ++ kept)).
    { eapply (rep_perm E OK); [apply Permutation_refl| |exact H]. auto. }
    destruct (drop_rights_ok _ _ _ _ _ _ _ _ H1) as (m' & Q1 & H2 & D1 & D2).
    { intros y Hy. apply CZ. eapply Permutation_in; [symmetry; exact PB|auto]. }
    { intros y Hy. assert (IY : In y (filter (bare A) Y)).
      { eapply Permutation_in; [symmetry; exact SF|apply in_app_iff; auto]. }
      apply filter_In in IY. tauto. }
    exists m', (map y_r kept). rewrite Q1. split; auto. split.
    { simpl. rewrite <- map_app. apply Permutation_map; auto. }
    exists A, D, kept. split; auto. split; [reflexivity|]. split; [auto|split; congruence].
  Qed.
End Retain.
