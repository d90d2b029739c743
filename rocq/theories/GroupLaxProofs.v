(* The model meets GroupLax along every history, part 1: invariant, searches, removal. *)
From Coq Require Import List NArith Lia Bool Permutation PeanoNat.
From Verif Require Import Closures Prelude RawTable GroupMap ListFacts TableFacts IterFacts GroupSpec GroupHistory
  GroupProofs GroupProofs2 GroupLax.
From Verif Require CycleMapLaxProofs CycleMapLaxProofs2.
Import ListNotations.
Open Scope N_scope.

(* The sets of (hash, id) depend on the layouts and the hasher of sets only. *)
Definition bare_env {L R S} (E : env L R S) : env unit unit unit :=
  Env unit unit unit (fun _ _ => true) (fun _ _ => true) (fun _ _ => 0) (fun _ _ => 0)
      (hashP E) (lo E) (ovf E).
Lemma bare_ok : forall {L R S} (E : env L R S), layout_ok (lo E) -> lawful (bare_env E).
Proof. intros. constructor; simpl; auto; constructor; auto. Qed.

(* a left item with its id, the id of its right item, and that right item *)
Record wleft (L R : Type) := WL { v_id : N; v_l : L; v_g : N; v_r : R }.
Arguments WL {L R} _ _ _ _. Arguments v_id {L R} _. Arguments v_l {L R} _.
Arguments v_g {L R} _. Arguments v_r {L R} _.

Section LaxProofs.
  Context {L R S : Type} (E : env L R S) (OK : lax E).
  Notation gm := (gmap L R S).
  Notation wl := (wleft L R).
  Notation zr := (zright R).
  Let LO := CycleMapLax.lax_lo _ OK.
  Let BO := bare_ok E LO.
  Notation eL := (eqL E).
  Notation eR := (eqR E).

  Definition wslot (s : S) (z : wl) : N * left_item L :=
    (hashL E s (v_l z), LI (v_l z) (hashR E s (v_r z)) (v_g z) (v_id z)).
  Notation slotR := (slotR E).
  Definition wkey (s : S) (z : wl) : N * N := (hashL E s (v_l z), v_id z).
  Definition wpslot (s : S) (i : N) (z : wl) : N * (N * N) := (hashP E i (wkey s z), wkey s z).
  Definition belongs (i : N) (z : wl) : bool := v_g z =? i.
  Definition y_key (y : zr) : N * R := (y_id y, y_r y).
  Definition v_key (z : wl) : N * L := (v_g z, v_l z).
  Definition tview (A : list wl) (B : list zr) : tagged L R := GT (map y_key B) (map v_key A).

  (* A: left items (and those about to be added); B: right items *)
  Record WCore (s : S) (lc rc : N) (A : list wl) (B : list zr) : Prop := {
    c_tab : forall y, In y B ->
      Permutation (slots (y_tab y)) (map (wpslot s (y_id y)) (filter (belongs (y_id y)) A));
    c_lids : NoDup (map v_id A);
    c_rids : NoDup (map y_id B);
    c_llt : forall z, In z A -> v_id z < lc;
    c_rlt : forall y, In y B -> y_id y < rc;
    c_link : forall z, In z A -> exists y, In y B /\ y_id y = v_g z /\ y_r y = v_r z
  }.
  Record WTabs (s : S) (m : gm) (A : list wl) (B : list zr) : Prop := {
    t_hb : hash_builder m = s;
    t_l : Permutation (slots (left_set m)) (map (wslot s) A);
    t_r : Permutation (slots (right_set m)) (map (slotR s) B)
  }.
  Definition WRep (s : S) (lc rc : N) (m : gm) (A : list wl) (B : list zr) : Prop :=
    WTabs s m A B /\ WCore s lc rc A B /\ left_counter m = lc /\ right_counter m = rc.

  Lemma core_perm : forall s lc rc A B A' B', Permutation A A' -> Permutation B B' ->
    WCore s lc rc A B -> WCore s lc rc A' B'.
  Proof.
    intros s lc rc A B A' B' PA PB H. destruct H. constructor.
    - intros y Hy. etransitivity; [apply c_tab0; eapply Permutation_in; [symmetry|]; eauto|].
      apply Permutation_map, filter_perm; auto.
    - eapply NoDup_perm; [apply Permutation_map; exact PA|auto].
    - eapply NoDup_perm; [apply Permutation_map; exact PB|auto].
    - intros z Hz. apply c_llt0. eapply Permutation_in; [symmetry|]; eauto.
    - intros y Hy. apply c_rlt0. eapply Permutation_in; [symmetry|]; eauto.
    - intros z Hz. destruct (c_link0 z) as (y & Hy & Q);
        [eapply Permutation_in; [symmetry|]; eauto|].
      exists y; split; auto. eapply Permutation_in; eauto.
  Qed.
  Lemma tabs_perm : forall s m A B A' B', Permutation A A' -> Permutation B B' ->
    WTabs s m A B -> WTabs s m A' B'.
  Proof.
    intros s m A B A' B' PA PB H. destruct H. constructor; auto.
    - etransitivity; [eauto|]. apply Permutation_map; auto.
    - etransitivity; [eauto|]. apply Permutation_map; auto.
  Qed.
  Lemma core_bounds : forall s lc rc lc' rc' A B, WCore s lc rc A B -> lc <= lc' -> rc <= rc' ->
    WCore s lc' rc' A B.
  Proof.
    intros s lc rc lc' rc' A B H Hl Hr. destruct H. constructor; auto.
    - intros z Hz. apply c_llt0 in Hz. lia.
    - intros y Hy. apply c_rlt0 in Hy. lia.
  Qed.

  Lemma same_rid : forall s lc rc A B y y', WCore s lc rc A B -> In y B -> In y' B ->
    y_id y = y_id y' -> y = y'.
  Proof. intros. eapply NoDup_map_inj; [apply (c_rids _ _ _ _ _ H)| | |]; auto. Qed.
  Lemma same_lid : forall s lc rc A B z z', WCore s lc rc A B -> In z A -> In z' A ->
    v_id z = v_id z' -> z = z'.
  Proof. intros. eapply NoDup_map_inj; [apply (c_lids _ _ _ _ _ H)| | |]; auto. Qed.

  (* ---- sets ---- *)
  Lemma tab_keys : forall s lc rc A B y, WCore s lc rc A B -> In y B ->
    Permutation (map snd (slots (y_tab y))) (map (wkey s) (filter (belongs (y_id y)) A)).
  Proof.
    intros s lc rc A B y H Hy.
    rewrite (Permutation_map snd (c_tab _ _ _ _ _ H y Hy)). rewrite map_map. reflexivity.
  Qed.
  Lemma tab_hashed : forall s lc rc A B y, WCore s lc rc A B -> In y B -> set_hashed E (y_id y) (y_tab y).
  Proof.
    intros s lc rc A B y H Hy x Hx. apply (Permutation_in _ (c_tab _ _ _ _ _ H y Hy)) in Hx.
    apply in_map_iff in Hx as (z & <- & _). auto.
  Qed.
  Lemma tab_contains : forall s lc rc A B y z, WCore s lc rc A B -> In y B -> In z A ->
    set_contains E (y_id y) (y_tab y) (wkey s z) = belongs (y_id y) z.
  Proof.
    intros s lc rc A B y z H Hy Hz. assert (SH := tab_hashed _ _ _ _ _ _ H Hy).
    assert (TK := tab_keys _ _ _ _ _ _ H Hy).
    destruct (belongs (y_id y) z) eqn:G.
    - apply (set_contains_iff (bare_env E) BO); auto. eapply Permutation_in; [symmetry; exact TK|].
      apply in_map, filter_In; auto.
    - apply (set_contains_false (bare_env E) BO); auto. intro I. apply (Permutation_in _ TK) in I.
      apply in_map_iff in I as (z' & K & I). apply filter_In in I as [I G'].
      assert (z' = z); [|congruence]. eapply same_lid; eauto. inversion K; auto.
  Qed.
  Lemma tab_elems : forall s lc rc A B y, WCore s lc rc A B -> In y B ->
    exists zs, hs_elems (y_tab y) = map (wkey s) zs /\ Permutation zs (filter (belongs (y_id y)) A).
  Proof.
    intros s lc rc A B y H Hy. assert (TK := tab_keys _ _ _ _ _ _ H Hy).
    apply Permutation_map_inv in TK as (zs & Q & P). exists zs. split; auto. symmetry; auto.
  Qed.

  (* ---- what happens to the right items' sets ---- *)
  Definition with_tab (y : zr) t : zr := ZR (y_id y) (y_r y) t.
  Lemma core_leave : forall s lc rc z A y B, WCore s lc rc (z :: A) (y :: B) -> v_g z = y_id y ->
    WCore s lc rc A (with_tab y (set_remove E (y_id y) (y_tab y) (wkey s z)) :: B).
  Proof.
    intros s lc rc z A y B H G. assert (H0 := H). destruct H0.
    simpl in c_lids0, c_rids0. inversion c_lids0; inversion c_rids0; subst.
    constructor; auto; simpl.
    - intros y' [<-|Hy']; simpl.
      + apply (set_remove_perm (bare_env E) BO).
        * etransitivity; [apply c_tab0; left; auto|]. simpl. unfold belongs at 1. rewrite G, N.eqb_refl. auto.
        * rewrite map_map. simpl. intro I. apply in_map_iff in I as (x & K & I).
          apply filter_In in I as [I _]. apply H2. inversion K. apply in_map; auto.
      + etransitivity; [apply c_tab0; right; auto|]. simpl. unfold belongs at 1.
        replace (v_g z =? y_id y') with false; auto. symmetry. apply N.eqb_neq. intro Q.
        apply H6. rewrite <- G, Q. apply in_map; auto.
    - intros x Hx. apply c_llt0; right; auto.
    - intros y' [<-|Hy']; [apply (c_rlt0 y)|apply c_rlt0]; simpl; auto.
    - intros x Hx. destruct (c_link0 x (or_intror Hx)) as (y' & [<-|Hy'] & Q).
      + eexists; split; [left; reflexivity|auto].
      + eauto.
  Qed.
  Lemma core_join : forall s lc rc z A y B, WCore s lc rc A (y :: B) -> ~ In (v_id z) (map v_id A) ->
    v_id z < lc -> v_g z = y_id y -> v_r z = y_r y ->
    WCore s lc rc (z :: A) (with_tab y (set_insert E (y_id y) (y_tab y) (wkey s z)) :: B).
  Proof.
    intros s lc rc z A y B H NI LT G V. assert (H0 := H). destruct H0.
    simpl in c_rids0. inversion c_rids0; subst.
    constructor; simpl; auto.
    - intros y' [<-|Hy']; simpl.
      + unfold belongs at 1. rewrite G, N.eqb_refl. simpl.
        etransitivity; [apply (set_insert_perm (bare_env E) BO)|].
        * apply (tab_hashed _ _ _ _ _ _ H). left; auto.
        * intro I. apply (Permutation_in _ (tab_keys _ _ _ _ _ y H (or_introl eq_refl))) in I.
          apply in_map_iff in I as (x & K & I). apply filter_In in I as [I _].
          apply NI. inversion K. apply in_map; auto.
        * constructor. apply c_tab0; left; auto.
      + unfold belongs at 1. replace (v_g z =? y_id y') with false; [apply c_tab0; right; auto|].
        symmetry. apply N.eqb_neq. intro Q. apply H2. rewrite <- G, Q. apply in_map; auto.
    - constructor; auto.
    - intros x [<-|Hx]; auto.
    - intros y' [<-|Hy']; [apply (c_rlt0 y)|apply c_rlt0]; simpl; auto.
    - intros x [<-|Hx].
      + eexists; split; [left; reflexivity|auto].
      + destruct (c_link0 x Hx) as (y' & [<-|Hy'] & Q); [|eauto].
        eexists; split; [left; reflexivity|auto].
  Qed.
  Lemma core_new_right : forall s lc rc A B r t, WCore s lc rc A B -> slots t = [] ->
    WCore s lc (rc + 1) A (ZR rc r t :: B).
  Proof.
    intros s lc rc A B r t H T. assert (H0 := H). destruct H0. constructor; auto.
    - intros y [<-|Hy]; auto. simpl. rewrite T, filter_all_false; auto.
      intros z Hz. destruct (c_link0 z Hz) as (y & Hy & Q & _). apply c_rlt0 in Hy.
      apply N.eqb_neq. lia.
    - simpl. constructor; auto. intro I. apply in_map_iff in I as (y & Q & Hy).
      apply c_rlt0 in Hy. lia.
    - intros y [<-|Hy]; simpl; [lia|]. apply c_rlt0 in Hy. lia.
    - intros z Hz. destruct (c_link0 z Hz) as (y & Hy & Q). exists y; split; auto. right; auto.
  Qed.
  Lemma core_del_group : forall s lc rc A y B, WCore s lc rc A (y :: B) ->
    WCore s lc rc (filter (fun z => negb (belongs (y_id y) z)) A) B.
  Proof.
    intros s lc rc A y B H. assert (H0 := H). destruct H0. simpl in c_rids0. inversion c_rids0; subst.
    constructor; auto.
    - intros y' Hy'. etransitivity; [apply c_tab0; right; auto|]. rewrite filter_filter.
      apply Permutation_map. erewrite filter_ext_in; [reflexivity|]. intros z Hz. cbv beta.
      unfold belongs. destruct (v_g z =? y_id y') eqn:Q; rewrite ?andb_false_r, ?andb_true_r; auto.
      apply N.eqb_eq in Q. symmetry. apply negb_true_iff, N.eqb_neq. intro Q'.
      match goal with X : ~ In (y_id y) _ |- _ => apply X end.
      rewrite <- Q', Q. apply in_map; auto.
    - clear - c_lids0. induction A as [|z A IH]; simpl; auto. simpl in c_lids0. inversion c_lids0; subst.
      destruct (negb _); simpl; auto. constructor; auto. intro I. apply H1.
      apply in_map_iff in I as (x & Q & I). apply filter_In in I as [I _]. rewrite <- Q. apply in_map; auto.
    - intros z Hz. apply filter_In in Hz as [Hz _]. auto.
    - intros; apply c_rlt0; right; auto.
    - intros z Hz. apply filter_In in Hz as [Hz G]. destruct (c_link0 z Hz) as (y' & [<-|Hy'] & Q & V).
      + unfold belongs in G. rewrite Q, N.eqb_refl in G. discriminate.
      + eauto.
  Qed.

  (* ---- searches ---- *)
  Lemma get_as_mut : forall {T} (t : table T) h p,
    t_get (lo E) t h p = option_map snd (t_get_mut E t h p).
  Proof. intros. apply get_mut_get. Qed.
  Lemma remove_as_mut : forall {T} (t : table T) h p,
    t_remove_entry (lo E) t h p
    = option_map (fun ie => (snd ie, t_remove_at (lo E) t (fst ie))) (t_get_mut E t h p).
  Proof.
    intros. unfold t_remove_entry, t_get_mut. destruct (t_find _ _ _ _) as [i|]; auto.
    destruct (t_entry t i); auto.
  Qed.
  Lemma mut_unique : forall {T} (t : table T) h p e rest, Permutation (slots t) ((h, e) :: rest) ->
    p e = true -> (forall x, In x rest -> p (snd x) = false) ->
    exists i, t_get_mut E t h p = Some (i, e) /\ at_slot t i h e rest.
  Proof. intros T. apply (get_mut_unique (bare_env E) BO). Qed.
  Lemma at_remove : forall {T} (t : table T) i h e rest, at_slot t i h e rest ->
    Permutation (slots (t_remove_at (lo E) t i)) rest.
  Proof. intros T t i h e rest [H P]. eapply t_remove_at_perm; eauto. Qed.

  (* a search for an item, with the hash of the item *)
  Lemma look : forall {T Z} (t : table T) (slot : Z -> N * T) zs h p,
    Permutation (slots t) (map slot zs) -> (forall z, p (snd (slot z)) = true -> h = fst (slot z)) ->
    match t_get_mut E t h p with
    | Some (i, e) => exists z zs', Permutation zs (z :: zs') /\ slot z = (h, e) /\ p e = true /\
        at_slot t i h e (map slot zs')
    | None => forall z, In z zs -> p (snd (slot z)) = false
    end.
  Proof.
    intros T Z t slot zs h p P HP. unfold t_get_mut, t_entry, at_slot.
    destruct (t_find (lo E) t h p) as [i|] eqn:F.
    - apply t_find_some in F as (h' & e & Hn & He). rewrite Hn.
      assert (I := nth_error_In _ _ Hn). apply (Permutation_in _ P) in I.
      apply in_map_iff in I as (z & Q & Hz).
      destruct (perm_in_cons _ _ Hz) as (zs' & P').
      assert (h' = h). { symmetry. specialize (HP z). rewrite Q in HP. apply HP; auto. }
      subst h'. exists z, zs'. split; [|split; [|split; [|split]]]; auto.
      rewrite <- Q. etransitivity; [exact P|]. apply (Permutation_map slot) in P'. auto.
    - intros z Hz. destruct (p (snd (slot z))) eqn:Q; auto.
      assert (Qh := HP _ Q). eapply (t_find_none (lo E) LO) in F.
      + rewrite F in Q. discriminate.
      + eapply Permutation_in; [symmetry; exact P|]. rewrite Qh.
        destruct (slot z) as [h0 e0] eqn:SZ; simpl. rewrite <- SZ. apply in_map; auto.
  Qed.

  Notation find_l m q := (t_get_mut E (left_set m) (hashL E (hash_builder m) q) (equivalent_key_left eL q)).
  Notation find_r m q := (t_get_mut E (right_set m) (hashR E (hash_builder m) q) (equivalent_key_right eR q)).
  Definition hit_l s (m : gm) A q i e : Prop := exists z A', Permutation A (z :: A') /\
    eL (v_l z) q = true /\ hashL E s q = hashL E s (v_l z) /\ e = snd (wslot s z) /\
    at_slot (left_set m) i (hashL E s (v_l z)) e (map (wslot s) A').
  Definition hit_r s (m : gm) B q j e : Prop := exists y B', Permutation B (y :: B') /\
    eR (y_r y) q = true /\ hashR E s q = hashR E s (y_r y) /\ e = snd (slotR s y) /\
    at_slot (right_set m) j (hashR E s (y_r y)) e (map (slotR s) B').
  Lemma look_l : forall s m A B q, WTabs s m A B ->
    match find_l m q with
    | Some (i, e) => hit_l s m A q i e
    | None => forall z, In z A -> eL (v_l z) q = false
    end.
  Proof.
    intros s m A B q H. rewrite (t_hb _ _ _ _ H).
    assert (X := look (left_set m) (wslot s) A (hashL E s q) (equivalent_key_left eL q) (t_l _ _ _ _ H)).
    destruct (t_get_mut _ _ _ _) as [[i e]|].
    - destruct X as (z & A' & P & Q & He & AT).
      { intros z Hz. symmetry. apply (CycleMapLax.lax_l _ OK). exact Hz. }
      unfold wslot in Q. inversion Q. subst e. exists z, A'. rewrite H1. split; [|split; [|split]]; auto.
    - apply X. intros z Hz. symmetry. apply (CycleMapLax.lax_l _ OK). exact Hz.
  Qed.
  Lemma look_r : forall s m A B q, WTabs s m A B ->
    match find_r m q with
    | Some (i, e) => hit_r s m B q i e
    | None => forall y, In y B -> eR (y_r y) q = false
    end.
  Proof.
    intros s m A B q H. rewrite (t_hb _ _ _ _ H).
    assert (X := look (right_set m) (slotR s) B (hashR E s q) (equivalent_key_right eR q) (t_r _ _ _ _ H)).
    destruct (t_get_mut _ _ _ _) as [[i e]|].
    - destruct X as (z & A' & P & Q & He & AT).
      { intros z Hz. symmetry. apply (CycleMapLax.lax_r _ OK). exact Hz. }
      unfold GroupProofs.slotR in Q. inversion Q. subst e. exists z, A'. rewrite H1.
      split; [|split; [|split]]; auto.
    - apply X. intros z Hz. symmetry. apply (CycleMapLax.lax_r _ OK). exact Hz.
  Qed.

  Lemma id_l_other : forall s (A : list wl) i x, ~ In i (map v_id A) ->
    In x (map (wslot s) A) -> left_with_left_id i (snd x) = false.
  Proof.
    intros s A i x H Hx. apply in_map_iff in Hx as (z & <- & Hz).
    unfold left_with_left_id; simpl. apply N.eqb_neq. intros <-. apply H, in_map; auto.
  Qed.
  Lemma id_r_other : forall s (B : list zr) i x, ~ In i (map y_id B) ->
    In x (map (slotR s) B) -> right_with_right_id i (snd x) = false.
  Proof.
    intros s B i x H Hx. apply in_map_iff in Hx as (z & <- & Hz).
    unfold right_with_right_id; simpl. apply N.eqb_neq. intros <-. apply H, in_map; auto.
  Qed.
  (* searches by id *)
  Lemma by_id_r : forall s m A0 y B, WTabs s m A0 (y :: B) -> ~ In (y_id y) (map y_id B) ->
    exists j, t_get_mut E (right_set m) (hashR E s (y_r y)) (right_with_right_id (y_id y))
                = Some (j, snd (slotR s y)) /\
      at_slot (right_set m) j (hashR E s (y_r y)) (snd (slotR s y)) (map (slotR s) B).
  Proof.
    intros s m A0 y B H NI. apply mut_unique.
    - apply (t_r _ _ _ _ H).
    - apply N.eqb_refl.
    - intros x Hx. eapply id_r_other; eauto.
  Qed.
  Lemma get_right_id : forall s m A0 B y, WTabs s m A0 B -> NoDup (map y_id B) -> In y B ->
    t_get (lo E) (right_set m) (hashR E s (y_r y)) (right_with_right_id (y_id y)) = Some (snd (slotR s y)).
  Proof.
    intros s m A0 B y H ND Hy. apply perm_in_cons in Hy as [B' P].
    destruct (by_id_r s m A0 y B') as (j & Q & _).
    - eapply tabs_perm; [reflexivity|exact P|exact H].
    - apply (Permutation_map y_id) in P. apply (NoDup_perm _ _ P) in ND. inversion ND; auto.
    - rewrite get_as_mut, Q. auto.
  Qed.
  Lemma get_left_id : forall s m A B z, WTabs s m A B -> NoDup (map v_id A) -> In z A ->
    t_get (lo E) (left_set m) (hashL E s (v_l z)) (left_with_left_id (v_id z)) = Some (snd (wslot s z)).
  Proof.
    intros s m A B z H ND Hz. apply perm_in_cons in Hz as [A' P].
    eapply t_get_unique; [exact LO| | |].
    - etransitivity; [apply (t_l _ _ _ _ H)|]. apply (Permutation_map (wslot s)) in P. exact P.
    - apply N.eqb_refl.
    - intros x Hx. eapply id_l_other; [|exact Hx].
      apply (Permutation_map v_id) in P. apply (NoDup_perm _ _ P) in ND. inversion ND; auto.
  Qed.

  (* the right item whose set holds the key of z *)
  Lemma by_pair : forall s lc rc m A0 A B z, WTabs s m A0 B -> WCore s lc rc A B -> In z A ->
    exists y B' j, Permutation B (y :: B') /\ y_id y = v_g z /\ y_r y = v_r z /\
      t_get_mut E (right_set m) (hashR E s (v_r z)) (right_with_left_pair E (wkey s z))
        = Some (j, snd (slotR s y)) /\
      at_slot (right_set m) j (hashR E s (y_r y)) (snd (slotR s y)) (map (slotR s) B').
  Proof.
    intros s lc rc m A0 A B z T H Hz. destruct (c_link _ _ _ _ _ H z Hz) as (y & Hy & QI & QR).
    destruct (perm_in_cons _ _ Hy) as (B' & P). exists y, B'.
    destruct (mut_unique (right_set m) (hashR E s (y_r y)) (right_with_left_pair E (wkey s z))
                (snd (slotR s y)) (map (slotR s) B')) as (j & F & AT).
    - etransitivity; [apply (t_r _ _ _ _ T)|]. apply (Permutation_map (slotR s)) in P. exact P.
    - unfold right_with_left_pair; simpl. erewrite tab_contains by eauto.
      apply N.eqb_eq. auto.
    - intros x Hx. apply in_map_iff in Hx as (y' & <- & Hy'). unfold right_with_left_pair; simpl.
      erewrite tab_contains; eauto.
      + apply N.eqb_neq. intro Q. assert (ND := c_rids _ _ _ _ _ H).
        apply (NoDup_perm _ _ (Permutation_map y_id P)) in ND. simpl in ND. inversion ND; subst.
        apply H2. rewrite QI, Q. apply in_map; auto.
      + eapply Permutation_in; [symmetry; exact P|right; auto].
    - exists j. rewrite <- QR. auto.
  Qed.

  (* ---- remove_left ---- *)
  Lemma pairs_remove_slot : forall s y p,
    (hashR E s (y_r y), pairs_remove E p (snd (slotR s y)))
    = slotR s (with_tab y (set_remove E (y_id y) (y_tab y) p)).
  Proof. reflexivity. Qed.
  Lemma pairs_insert_slot : forall s y p,
    (hashR E s (y_r y), pairs_insert E p (snd (slotR s y)))
    = slotR s (with_tab y (set_insert E (y_id y) (y_tab y) p)).
  Proof. reflexivity. Qed.
  Definition same_counters (m m' : gm) : Prop :=
    left_counter m' = left_counter m /\ right_counter m' = right_counter m.

  (* D: left items about to be added *)
  Lemma remove_left_c : forall s lc rc m A D B q, WTabs s m A B -> WCore s lc rc (A ++ D) B ->
    exists m' A' B' o, remove_left E q m = Ret m' (option_map v_l o) /\
      takes (fun z => eL (v_l z) q) A o A' /\
      Permutation (map y_key B') (map y_key B) /\
      WTabs s m' A' B' /\ WCore s lc rc (A' ++ D) B' /\ same_counters m m'.
  Proof.
    intros s lc rc m A D B q T H. unfold remove_left, left_remove_entry. mrun.
    rewrite remove_as_mut. assert (X := look_l _ _ _ _ q T).
    destruct (find_l m q) as [[i e]|]; simpl.
    - destruct X as (z & A' & P & Q & HH & -> & AT). rewrite (t_hb _ _ _ _ T). simpl.
      assert (Hz : In z (A ++ D)).
      { apply in_app_iff. left. eapply Permutation_in; [symmetry; exact P|left; auto]. }
      destruct (by_pair _ _ _ _ _ _ _ _ T H Hz) as (y & B' & j & PB & QI & QR & F & ATR).
      rewrite HH. change (hashL E s (v_l z), v_id z) with (wkey s z). rewrite F.
      unfold right_assign. mrun. simpl.
      assert (H' : WCore s lc rc (z :: A' ++ D) (y :: B')).
      { eapply core_perm; [|exact PB|exact H]. apply (Permutation_app_tail D P). }
      eexists; exists A', (with_tab y (set_remove E (y_id y) (y_tab y) (wkey s z)) :: B'), (Some z).
      split; [reflexivity|]. split; [split; auto|]. split; [|split; [|split]].
      + symmetry. apply (Permutation_map y_key) in PB. exact PB.
      + constructor; simpl.
        * apply (t_hb _ _ _ _ T).
        * eapply at_remove; eauto.
        * apply (modify_at _ _ _ _ _ (pairs_remove E (wkey s z)) ATR).
      + apply core_leave; auto.
      + split; auto.
    - exists m, A, B, None. split; auto. split; [split; auto|]. split; [auto|].
      split; [auto|split; [auto|split; auto]].
  Qed.

  (* ---- remove_right ---- *)
  Lemma remove_pairs_run : forall s zs A m, hash_builder m = s ->
    Permutation (slots (left_set m)) (map (wslot s) (zs ++ A)) -> NoDup (map v_id (zs ++ A)) ->
    exists lt, remove_pairs E (map (wkey s) zs) m = Ret (set_left lt m) (map v_l zs) /\
      Permutation (slots lt) (map (wslot s) A).
  Proof.
    induction zs as [|z t IH]; intros A m HB P ND; simpl.
    - exists (left_set m). split; auto. destruct m; auto.
    - unfold left_remove_entry. mrun. simpl in ND. inversion ND; subst.
      destruct (t_remove_entry_unique _ LO (left_set m) (hashL E (hash_builder m) (v_l z))
        (left_with_left_id (v_id z)) (snd (wslot (hash_builder m) z)) (map (wslot (hash_builder m)) (t ++ A)))
        as (lt & -> & PL); auto.
      { apply N.eqb_refl. }
      { intros x Hx. eapply id_l_other; eauto. }
      destruct (IH A (set_left lt m) eq_refl PL H2) as (lt' & RUN & PL'). simpl in RUN. rewrite RUN.
      exists lt'. split; auto.
  Qed.
  Lemma split_group : forall i (A : list wl),
    Permutation A (filter (belongs i) A ++ filter (fun z => negb (belongs i z)) A).
  Proof.
    induction A as [|z t IH]; simpl; auto.
    destruct (belongs i z); simpl; auto. apply Permutation_cons_app. auto.
  Qed.
  Lemma remove_group_run : forall s lc rc m A y B, WTabs s m A (y :: B) -> WCore s lc rc A (y :: B) ->
    forall rt, Permutation (slots rt) (map (slotR s) B) ->
    exists m' zs, remove_pairs E (hs_elems (y_tab y)) (set_right rt m) = Ret m' (map v_l zs) /\
      Permutation zs (filter (belongs (y_id y)) A) /\
      WTabs s m' (filter (fun z => negb (belongs (y_id y) z)) A) B /\
      WCore s lc rc (filter (fun z => negb (belongs (y_id y) z)) A) B /\ same_counters m m'.
  Proof.
    intros s lc rc m A y B T H rt PR.
    destruct (tab_elems _ _ _ _ _ y H (or_introl eq_refl)) as (zs & Q & P). rewrite Q.
    assert (PA : Permutation A (zs ++ filter (fun z => negb (belongs (y_id y) z)) A)).
    { etransitivity; [apply (split_group (y_id y))|]. apply Permutation_app_tail. symmetry; auto. }
    destruct (remove_pairs_run s zs (filter (fun z => negb (belongs (y_id y) z)) A) (set_right rt m))
      as (lt & RUN & PL).
    { apply (t_hb _ _ _ _ T). }
    { etransitivity; [apply (t_l _ _ _ _ T)|]. apply Permutation_map; auto. }
    { eapply NoDup_perm; [apply Permutation_map; exact PA|apply (c_lids _ _ _ _ _ H)]. }
    eexists; exists zs. split; [exact RUN|]. split; auto. split; [|split; [|split; auto]].
    - constructor; simpl; auto. apply (t_hb _ _ _ _ T).
    - apply core_del_group; auto.
  Qed.

  Lemma gather_set : forall ls seen acc, acc = rev seen -> collect_set E seen ls = gather eL acc ls.
  Proof.
    induction ls as [|l t IH]; intros seen acc ->; simpl; auto.
    rewrite <- (existsb_perm (eL l) _ _ (Permutation_rev seen)).
    destruct (existsb (eL l) seen); apply IH; auto.
  Qed.

  Definition rm_group (A : list wl) (o : option zr) A' (w : option (list L * R)) : Prop :=
    match o with
    | None => A' = A /\ w = None
    | Some y => A' = filter (fun z => negb (belongs (y_id y) z)) A /\
        exists zs, Permutation zs (filter (belongs (y_id y)) A) /\
          w = Some (gather eL [] (map v_l zs), y_r y)
    end.
  Lemma remove_right_c : forall s lc rc m A B q, WTabs s m A B -> WCore s lc rc A B ->
    exists m' A' B' o w, remove_right E q m = Ret m' w /\
      option_map snd (find_r m q) = option_map (fun y => snd (slotR s y)) o /\
      takes (fun y => eR (y_r y) q) B o B' /\ rm_group A o A' w /\
      WTabs s m' A' B' /\ WCore s lc rc A' B' /\ same_counters m m'.
  Proof.
    intros s lc rc m A B q T H. unfold remove_right, right_remove_entry. mrun.
    rewrite remove_as_mut. assert (X := look_r _ _ _ _ q T).
    destruct (find_r m q) as [[i e]|]; simpl.
    - destruct X as (y & B' & P & Q & HH & -> & AT). simpl.
      destruct (remove_group_run s lc rc m A y B') with (rt := t_remove_at (lo E) (right_set m) i)
        as (m' & zs & RUN & PZ & T' & H' & C').
      { eapply tabs_perm; [reflexivity|exact P|exact T]. }
      { eapply core_perm; [reflexivity|exact P|exact H]. }
      { eapply at_remove; eauto. }
      rewrite RUN. eexists m', _, B', (Some y), _. split; [reflexivity|].
      split; [reflexivity|]. split; [split; auto|]. split; [|split; [exact T'|split; auto]].
      split; auto. exists zs. split; auto. f_equal. f_equal. apply gather_set; auto.
    - exists m, A, B, None, None. split; auto. split; auto. split; [split; auto|].
      split; [split; auto|]. split; [auto|split; [auto|split; auto]].
  Qed.
  (* ---- views ---- *)
  Lemma members_view : forall A B i, members (tview A B) i = map v_l (filter (belongs i) A).
  Proof.
    intros. unfold members, tview; simpl. rewrite filter_map_comm, map_map. auto.
  Qed.
  Lemma others_view : forall A i,
    filter (fun p => negb (fst p =? i)) (map v_key A) = map v_key (filter (fun z => negb (belongs i z)) A).
  Proof. intros. rewrite filter_map_comm. auto. Qed.

  Lemma remove_group_view : forall A B o A' B' (w : option (list L * R)) p, takes p B o B' -> rm_group A o A' w ->
    remove_group eL (tview A B) (option_map y_key o) (tview A' B') w.
  Proof.
    intros A B [y|] A' B' w p T G; simpl in *.
    - destruct T as [_ P]. destruct G as [-> (zs & PZ & ->)]. split; [|split].
      + apply (Permutation_map y_key) in P. auto.
      + rewrite others_view. reflexivity.
      + exists (map v_l zs). split; auto. rewrite members_view. apply Permutation_map; auto.
    - destruct G as [-> ->]. destruct T as [_ P]. split; auto. split; simpl; auto.
      apply Permutation_map. symmetry; auto.
  Qed.

  Lemma remove_left_w : forall s lc rc m A B q, WRep s lc rc m A B ->
    exists m' A' B' w, remove_left E q m = Ret m' w /\ WRep s lc rc m' A' B' /\
      lax_remove_left eL (tview A B) q (tview A' B') w.
  Proof.
    intros s lc rc m A B q (T & H & C1 & C2).
    assert (H' : WCore s lc rc (A ++ []) B) by (rewrite app_nil_r; auto).
    destruct (remove_left_c _ _ _ _ _ _ _ q T H') as (m' & A' & B' & o & RUN & TK & PB & T' & H1 & C1' & C2').
    rewrite app_nil_r in H1. exists m', A', B', (option_map v_l o). split; auto.
    split; [split; [|split; [|split]]; congruence || auto|].
    exists (option_map v_key o), (map v_key A'). split; [|split; [|split]]; simpl; auto.
    - apply (CycleMapLaxProofs.takes_map v_key (on eL q) (fun z => eL (v_l z) q)); auto.
    - destruct o; auto.
  Qed.
  Lemma remove_right_w : forall s lc rc m A B q, WRep s lc rc m A B ->
    exists m' A' B' w, remove_right E q m = Ret m' w /\ WRep s lc rc m' A' B' /\
      lax_remove_right eL eR (tview A B) q (tview A' B') w.
  Proof.
    intros s lc rc m A B q (T & H & C1 & C2).
    destruct (remove_right_c _ _ _ _ _ _ q T H) as (m' & A' & B' & o & w & RUN & _ & TK & G & T' & H1 & C1' & C2').
    exists m', A', B', w. split; auto. split; [split; [|split; [|split]]; congruence || auto|].
    exists (option_map y_key o). split.
    - exists (map y_key B').
      apply (CycleMapLaxProofs.takes_map y_key (on eR q) (fun y => eR (y_r y) q)); auto.
    - eapply remove_group_view; eauto.
  Qed.
End LaxProofs.
