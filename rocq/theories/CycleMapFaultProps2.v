(* CycleMap when the Hash of the items panics in a call that has to enlarge a table, or half way
   through a swap: what is left of the map, and how it can be mended (C89-C91). *)
From Coq Require Import List NArith Lia Bool Permutation PeanoNat.
From Verif Require Import Closures Prelude RawTable Optionals CycleMap ListFacts TableFacts SoundTables
  CycleMapSpec CycleMapHistory CycleMapProofs CycleMapProofs2 CycleMapProofs3 CycleMapHistoryProofs
  Concrete CycleMapProps CycleMapProps2 CycleMapAny Capacity CycleMapCapacity
  Faults FaultTables CycleMapFault CycleMapFaultProofs CycleMapDamage CycleMapFaultProps.
Import ListNotations.
Open Scope N_scope.

Section Wrecks.
  Context {L R S : Type}.
  Variable E : env L R S.
  Hypothesis OK : lawful E.
  Notation map := (cmap L R S).
  Notation trip := (N * L * R)%type.
  Notation slotL := (slotL E).
  Notation slotR := (slotR E).
  Notation Dam := (Dam E).
  Let EL := eqL_equiv _ OK.
  Let ER := eqR_equiv _ OK.
  Let LO := lo_ok _ OK.

  (* ---- the words of the theorems: only calls of the map and what they return ---- *)
  (* m holds the pairs B, and besides the left items ls and the right items rs, which have no
     partner: the lookups of all other items are those of B *)
  Record damaged (m : map) (B : list (L * R)) (ls : list L) (rs : list R) : Prop := {
    dg_lefts : exists xs, lefts m xs /\ Permutation xs (ls ++ List.map fst B);
    dg_rights : exists ys, rights m ys /\ Permutation ys (rs ++ List.map snd B);
    dg_contains_left : forall q, contains_left E m q = existsb (eqL E q) ls || s_contains_left (eqL E) B q;
    dg_contains_right : forall q, contains_right E m q = existsb (eqR E q) rs || s_contains_right (eqR E) B q;
    dg_get_right : forall q, existsb (eqL E q) ls = false -> get_right E m q = s_get_right (eqL E) B q;
    dg_get_left : forall q, existsb (eqR E q) rs = false -> get_left E m q = s_get_left (eqR E) B q
  }.
  (* the calls ops all panic; if the panics are caught, the map is then sound and holds B *)
  Definition mended_by (k : N) (m : map) (ops : list (op L R)) (B : list (L * R)) : Prop :=
    exists m', run E m ops = (m', List.map (fun _ => OPanic) ops) /\ behaves_as E k m' B.
  (* the items ls are found, but not their partners *)
  Definition stranded_l (k : N) (m : map) (B : list (L * R)) (ls : list L) : Prop :=
    damaged m B ls [] /\
    (forall q, existsb (eqL E q) ls = true -> get_right E m q = None) /\
    (ls <> [] -> iter_all E m = Panicked) /\
    mended_by k m (List.map RemoveViaLeft ls) B.
  Definition stranded_r (k : N) (m : map) (B : list (L * R)) (rs : list R) : Prop :=
    damaged m B [] rs /\
    (forall q, existsb (eqR E q) rs = true -> get_left E m q = None) /\
    (exists B', contents E m B' /\ Permutation B' B) /\
    mended_by k m (List.map RemoveViaRight rs) B.

  Lemma dam_damaged : forall s c m dl dr Z, Dam s c m dl dr Z ->
    damaged m (List.map zpair Z) (vals dl) (vals dr).
  Proof.
    intros s c m dl dr Z H. constructor.
    - exists (t_values (@value L) (left_set m)). split; [apply lefts_are; auto|].
      rewrite map_map. exact (dam_values_l E _ _ _ _ _ _ H).
    - exists (t_values (@value R) (right_set m)). split; [apply rights_are; auto|].
      rewrite map_map. exact (dam_values_r E _ _ _ _ _ _ H).
    - intros q. eapply dam_contains_l; eauto.
    - intros q. eapply dam_contains_r; eauto.
    - intros q. eapply dam_get_right; eauto.
    - intros q. eapply dam_get_left; eauto.
  Qed.

  (* mending *)
  Lemma dam_behaves : forall s c m Z k, Dam s c m [] [] Z -> c + k < two64 ->
    behaves_as E k m (List.map zpair Z).
  Proof.
    intros s c m Z k H B. apply dam_clean in H. eapply (repr_behaves E OK s c); auto. exists Z. auto.
  Qed.
  Lemma mend_l : forall dl s c m Z k, Dam s c m dl [] Z -> c + k < two64 ->
    mended_by k m (List.map RemoveViaLeft (vals dl)) (List.map zpair Z).
  Proof.
    induction dl as [|x dl IH]; intros s c m Z k H B.
    - exists m. split; auto. eapply dam_behaves; eauto.
    - destruct (dam_remove_l E OK s c m x dl [] Z (value (snd x)) H) as (m1 & Q & H1);
        [apply (equiv_refl _ EL)|intros y []|].
      destruct (IH s c m1 Z k H1 B) as (m' & Q' & H'). exists m'. split; auto.
      cbn [vals List.map run step]. fold (vals dl). rewrite Q. cbn [via]. rewrite Q'. reflexivity.
  Qed.
  Lemma mend_r : forall dr s c m Z k, Dam s c m [] dr Z -> c + k < two64 ->
    mended_by k m (List.map RemoveViaRight (vals dr)) (List.map zpair Z).
  Proof.
    induction dr as [|x dr IH]; intros s c m Z k H B.
    - exists m. split; auto. eapply dam_behaves; eauto.
    - destruct (dam_remove_r E OK s c m x [] dr Z (value (snd x)) H) as (m1 & Q & H1);
        [apply (equiv_refl _ ER)|intros y []|].
      destruct (IH s c m1 Z k H1 B) as (m' & Q' & H'). exists m'. split; auto.
      cbn [vals List.map run step]. fold (vals dr). rewrite Q. cbn [via]. rewrite Q'. reflexivity.
  Qed.
  Lemma in_vals : forall {A} (e : A -> bool) (d : list (N * mapping_pair A)), existsb e (vals d) = true ->
    exists x, In x d /\ e (value (snd x)) = true.
  Proof.
    intros A e d H. apply existsb_exists in H as (a & Ha & Q). apply in_map_iff in Ha as (x & <- & Hx). eauto.
  Qed.
  Lemma dam_stranded_l : forall s c m dl Z k, Dam s c m dl [] Z -> c + k < two64 ->
    stranded_l k m (List.map zpair Z) (vals dl).
  Proof.
    intros s c m dl Z k H B. split; [exact (dam_damaged _ _ _ _ _ _ H)|].
    split; [|split; [|eapply mend_l; eauto]].
    - intros q Q. apply in_vals in Q as (x & Hx & Q).
      eapply (dam_lonely_right E OK); [exact H|exact Hx|exact Q|intros y []].
    - intros ND. destruct dl as [|x dl]; [exfalso; apply ND; reflexivity|].
      eapply (dam_iter E OK); [exact H|left; reflexivity|intros y []].
  Qed.
  (* iteration over the left side only meets whole pairs *)
  Lemma iter_whole : forall m Z it, (forall z, In z Z -> get_right E m (zl z) = Some (zr z)) ->
    (forall x, In x it -> exists z s, In z Z /\ x = slotL s z) ->
    exists P, collect (iter_next E m) (length it) it = Done P /\
      forall s Z', it = List.map (slotL s) Z' -> (forall z, In z Z' -> In z Z) -> P = List.map zpair Z'.
  Proof.
    intros m Z. induction it as [|[h e] it IH]; intros G W.
    - exists []. split; auto. intros s [|z Z'] Q _; [auto|discriminate].
    - destruct IH as (P & Q & HP); auto; [intros; apply W; right; auto|].
      destruct (W _ (or_introl eq_refl)) as (z & s & Hz & Q1). unfold CycleMapProofs.slotL in Q1. inversion Q1; subst h e.
      simpl. rewrite (G z Hz). exists ((zl z, zr z) :: P). rewrite Q. split; auto.
      intros s' [|z' Z'] Q2 I2; [discriminate|]. cbn [List.map] in Q2.
      unfold CycleMapProofs.slotL at 1 in Q2. injection Q2 as _ Q3 _ _ Q4.
      cbn [List.map]. f_equal.
      + assert (G1 := G z Hz). assert (G2 := G z' (I2 z' (or_introl eq_refl))). rewrite Q3 in G1. unfold zpair. congruence.
      + eapply HP; eauto. intros; apply I2; right; auto.
  Qed.
  Lemma dam_iterates : forall s c m dr Z, Dam s c m [] dr Z ->
    exists P, contents E m P /\ Permutation P (List.map zpair Z).
  Proof.
    intros s c m dr Z H. assert (PL := dm_l _ _ _ _ _ _ _ H). simpl in PL.
    apply Permutation_map_inv in PL as (Z' & QZ & PZ).
    destruct (iter_whole m Z (slots (left_set m))) as (P & Q & HP).
    - intros z Hz. rewrite (dam_get_right E OK _ _ _ _ _ _ _ H) by reflexivity.
      destruct (perm_in_cons z Z Hz) as (Z2 & P2).
      unfold s_get_right, find_l. rewrite (find_split _ Z z Z2); auto; [apply (equiv_refl _ EL)|].
      intros x Hx. assert (D := dm_dl _ _ _ _ _ _ _ H). simpl in D.
      eapply (distinct_perm _ EL) in D; [|apply Permutation_map; exact P2]. simpl in D.
      apply distinct_cons in D as [D _]. exact (D _ (in_map zl _ _ Hx)).
    - intros x Hx. rewrite QZ in Hx. apply in_map_iff in Hx as (z & <- & Hz). exists z, s. split; auto.
      eapply Permutation_in; [symmetry; exact PZ|auto].
    - exists P. split; [exact Q|]. rewrite (HP s Z' QZ); [symmetry; apply Permutation_map; auto|].
      intros z Hz. eapply Permutation_in; [symmetry; exact PZ|auto].
  Qed.
  Lemma dam_stranded_r : forall s c m dr Z k, Dam s c m [] dr Z -> c + k < two64 ->
    stranded_r k m (List.map zpair Z) (vals dr).
  Proof.
    intros s c m dr Z k H B. split; [exact (dam_damaged _ _ _ _ _ _ H)|].
    split; [|split; [|eapply mend_r; eauto]].
    - intros q Q. apply in_vals in Q as (x & Hx & Q).
      eapply (dam_lonely_left E OK); [exact H|exact Hx|exact Q|intros y []].
    - eapply dam_iterates; eauto.
  Qed.

  (* losing buckets of one table *)
  Lemma torn_split : forall {A} (f : trip -> N * A) (t t' : table A) d Z, torn t t' -> d = [] ->
    Permutation (slots t) (d ++ List.map f Z) ->
    exists Z1 Z2, Permutation Z (Z1 ++ Z2) /\ Permutation (slots t') (List.map f Z1).
  Proof.
    intros A f t t' d Z (lost & T) -> P. simpl in P. rewrite P in T.
    apply Permutation_map_inv in T as (Z' & Q & PZ).
    symmetry in Q. apply map_eq_app in Q as (Z1 & Z2 & -> & Q1 & Q2).
    exists Z1, Z2. split; auto. rewrite Q1. reflexivity.
  Qed.
  Lemma ids_apart : forall Z Z1 Z2, Permutation Z (Z1 ++ Z2) -> NoDup (List.map (@zid L R) Z) ->
    NoDup (List.map zid Z1) /\ forall x y, In x Z2 -> In y Z1 -> zid x <> zid y.
  Proof.
    intros Z Z1 Z2 P ND. apply (Permutation_map zid) in P. eapply Permutation_NoDup in ND; [|exact P].
    rewrite map_app in ND. clear P. induction Z1 as [|z Z1 IH]; simpl in *; [split; [constructor|intros x y _ []]|].
    inversion ND; subst. destruct IH as [I1 I2]; auto. split.
    - constructor; auto. intros Q. apply H1. apply in_or_app; auto.
    - intros x y Hx [<-|Hy]; auto. intros Q. apply H1. apply in_or_app. right. rewrite <- Q. apply in_map; auto.
  Qed.
  Lemma tear_l : forall s c m dr Z t, Dam s c m [] dr Z -> torn (left_set m) t ->
    exists Z1 Z2, Permutation Z (Z1 ++ Z2) /\ Dam s c (set_left t m) [] (dr ++ List.map (slotR s) Z2) Z1.
  Proof.
    intros s c m dr Z t H T.
    destruct (torn_split _ _ _ _ _ T eq_refl (dm_l _ _ _ _ _ _ _ H)) as (Z1 & Z2 & P & P1).
    exists Z1, Z2. split; auto. destruct (ids_apart _ _ _ P (dm_ids _ _ _ _ _ _ _ H)) as [ND AP].
    assert (IN1 : forall z, In z Z1 -> In z Z).
    { intros z Hz. eapply Permutation_in; [symmetry; exact P|]. apply in_or_app; auto. }
    destruct H. constructor; simpl; auto.
    - rewrite dm_r, P, map_app, <- app_assoc. apply Permutation_app_head. apply Permutation_app_comm.
    - intros x Hx. apply in_app_or in Hx as [Hx|Hx]; auto. apply in_map_iff in Hx as (z & <- & _). reflexivity.
    - eapply distinct_prefix with (b := List.map zl Z2). rewrite <- map_app.
      eapply (distinct_perm _ EL); [|exact dm_dl]. simpl. apply Permutation_map; auto.
    - eapply (distinct_perm _ ER); [|exact dm_dr]. rewrite (vals_slots zr (slotR s)) by reflexivity.
      rewrite P, map_app, <- app_assoc. apply Permutation_app_head. apply Permutation_app_comm.
    - intros x z Hx Hz. apply in_app_or in Hx as [Hx|Hx]; auto.
      apply in_map_iff in Hx as (y & <- & Hy). apply AP; auto.
  Qed.
  Lemma tear_r : forall s c m dl Z t, Dam s c m dl [] Z -> torn (right_set m) t ->
    exists Z1 Z2, Permutation Z (Z1 ++ Z2) /\ Dam s c (set_right t m) (dl ++ List.map (slotL s) Z2) [] Z1.
  Proof.
    intros s c m dl Z t H T.
    destruct (torn_split _ _ _ _ _ T eq_refl (dm_r _ _ _ _ _ _ _ H)) as (Z1 & Z2 & P & P1).
    exists Z1, Z2. split; auto. destruct (ids_apart _ _ _ P (dm_ids _ _ _ _ _ _ _ H)) as [ND AP].
    assert (IN1 : forall z, In z Z1 -> In z Z).
    { intros z Hz. eapply Permutation_in; [symmetry; exact P|]. apply in_or_app; auto. }
    destruct H. constructor; simpl; auto.
    - rewrite dm_l, P, map_app, <- app_assoc. apply Permutation_app_head. apply Permutation_app_comm.
    - intros x Hx. apply in_app_or in Hx as [Hx|Hx]; auto. apply in_map_iff in Hx as (z & <- & _). reflexivity.
    - eapply (distinct_perm _ EL); [|exact dm_dl]. rewrite (vals_slots zl (slotL s)) by reflexivity.
      rewrite P, map_app, <- app_assoc. apply Permutation_app_head. apply Permutation_app_comm.
    - eapply distinct_prefix with (b := List.map zr Z2). rewrite <- map_app.
      eapply (distinct_perm _ ER); [|exact dm_dr]. simpl. apply Permutation_map; auto.
    - intros x z Hx Hz. apply in_app_or in Hx as [Hx|Hx]; auto.
      apply in_map_iff in Hx as (y & <- & Hy). apply AP; auto.
  Qed.
  Lemma rep_dam : forall s c m Z, Rep E s c m Z -> Dam s c m [] [] Z.
  Proof. intros s c m Z []. constructor; simpl; auto; intros x []. Qed.

  Variable F : fault.
  Hypothesis FO : fault_ok F.
  Definition split_pairs (B kept lost : list (L * R)) : Prop := Permutation B (kept ++ lost).

  (* what a panic of user code in insert(l, r) may leave, in a map that held P *)
  Definition insert_wreck (k : N) (m' : map) (P : list (L * R)) (l : L) (r : R) : Prop :=
    (exists P', s_half_insert (eqL E) (eqR E) P l r P' /\ behaves_as E k m' P') \/
    (exists kept lost, split_pairs (del_r (eqR E) (del_l (eqL E) P l) r) kept lost /\
       (stranded_r k m' kept (List.map snd lost) \/ stranded_l k m' kept (l :: List.map fst lost))).
  Lemma half_absent : forall P l r (z : trip) Z, del_r (eqR E) (del_l (eqL E) P l) r = List.map zpair Z -> In z Z ->
    eqL E l (zl z) = false /\ eqR E r (zr z) = false.
  Proof.
    intros P l r z Z HZ Hz. assert (I : In (zpair z) (List.map zpair Z)) by (apply in_map; auto).
    rewrite <- HZ in I. unfold del_r in I. apply filter_In in I as [I I2]. unfold del_l in I.
    apply filter_In in I as [_ I1]. split; apply negb_true_iff; auto.
  Qed.
  Lemma vals_slotL : forall s Z, vals (List.map (slotL s) Z) = List.map fst (List.map (@zpair L R) Z).
  Proof. intros. unfold vals. rewrite !map_map. reflexivity. Qed.
  Lemma vals_slotR : forall s Z, vals (List.map (slotR s) Z) = List.map snd (List.map (@zpair L R) Z).
  Proof. intros. unfold vals. rewrite !map_map. reflexivity. Qed.
  Lemma insert_wrecks : forall s c m P l r m' k, Repr E s c m P -> c + 1 + k < two64 ->
    P_insert E F l r m m' -> insert_wreck k m' P l r.
  Proof.
    intros s c m P l r m' k H B [->|[(a & Q)|(m1 & a & m2 & b & Q1 & Q2 & K)]].
    - left. exists P. split; [left; auto|]. eapply repr_behaves; eauto. lia.
    - destruct (remove_via_left_ok E OK s c m P l H) as (m1 & Q1 & H1). rewrite Q in Q1. inversion Q1; subst.
      left. eexists. split; [right; left; reflexivity|]. eapply repr_behaves; eauto. lia.
    - destruct (remove_via_left_ok E OK s c m P l H) as (m1' & Q1' & H1). rewrite Q1 in Q1'. inversion Q1'; subst.
      destruct (remove_via_right_ok E OK s c _ _ r H1) as (m2' & Q2' & H2). rewrite Q2 in Q2'. inversion Q2'; subst.
      destruct K as [->|(m3 & Q3 & K)].
      { left. eexists. split; [right; right; reflexivity|]. eapply repr_behaves; eauto. lia. }
      right. unfold insert_wreck. destruct H2 as (Z & H2 & HZ).
      assert (AB := fun z => half_absent P l r z Z HZ). rewrite HZ.
      unfold incr_counter, bind, getst, putst in Q3. rewrite (rep_c _ _ _ _ _ H2) in Q3, K.
      rewrite (rep_hb _ _ _ _ _ H2) in K.
      rewrite u64_incr_ok in Q3 by lia. simpl in Q3. inversion Q3; subst m3. clear Q3.
      assert (H3 : Dam s (c + 1) (set_counter (c + 1) m2') [] [] Z).
      { apply rep_dam in H2. destruct H2. constructor; simpl; auto. intros z Hz. specialize (dm_lt z Hz). lia. }
      destruct K as [(t & SP & ->)|(m4 & Q4 & t & SP & ->)].
      + apply (spoilt_torn _ _ FO) in SP. destruct (tear_l _ _ _ _ _ _ H3 SP) as (Z1 & Z2 & PZ & H4).
        exists (List.map zpair Z1), (List.map zpair Z2). split; [unfold split_pairs; rewrite <- map_app; apply Permutation_map; auto|].
        left. simpl in H4. rewrite <- (vals_slotR s). eapply dam_stranded_r; eauto.
      + unfold left_insert, bind, getst, putst in Q4. inversion Q4; subst m4. clear Q4.
        assert (H4 : Dam s (c + 1) (set_left (t_insert (lo E) (left_set (set_counter (c + 1) m2')) (hashL E s l)
                       (MP l (hashR E s r) c) (make_hasher_l E (hash_builder (set_counter (c + 1) m2')))) (set_counter (c + 1) m2'))
                       [(hashL E s l, MP l (hashR E s r) c)] [] Z).
        { destruct H3. constructor; auto.
          - simpl slots. etransitivity; [apply (t_insert_perm _ LO)|].
            + simpl. rewrite (rep_hb _ _ _ _ _ H2). eapply rep_hashed_l; eauto.
            + simpl in *. constructor. exact dm_l.
          - intros x [<-|[]]. reflexivity.
          - simpl. apply distinct_cons. split; [|exact dm_dl]. intros y Hy. apply in_map_iff in Hy as (z & <- & Hz).
            apply AB; auto.
          - intros x z [<-|[]] Hz. simpl. intros ->. assert (X := rep_lt _ _ _ _ _ H2 z Hz). lia. }
        apply (spoilt_torn _ _ FO) in SP. destruct (tear_r _ _ _ _ _ _ H4 SP) as (Z1 & Z2 & PZ & H5).
        exists (List.map zpair Z1), (List.map zpair Z2). split; [unfold split_pairs; rewrite <- map_app; apply Permutation_map; auto|].
        right. rewrite <- (vals_slotL s). exact (dam_stranded_l _ _ _ _ _ _ H5 B).
  Qed.

  (* what a panic in swap_left(old, new) may leave *)
  Definition swap_left_wreck (k : N) (m' : map) (P : list (L * R)) (old new : L) : Prop :=
    let B := s_swap_left_base (eqL E) P old new in
    behaves_as E k m' P \/ behaves_as E k m' B \/
    exists l r, find_l (eqL E) B old = Some (l, r) /\
      ((damaged m' (del_l (eqL E) B old) [l] [r] /\ get_right E m' old = None /\ iter_all E m' = Panicked /\
        (get_left E m' r = None \/ get_left E m' r = Some l) /\
        mended_by k m' [RemoveViaLeft old; RemoveViaRight r] (del_l (eqL E) B old)) \/
       exists kept lost, split_pairs (del_l (eqL E) B old) kept lost /\
         stranded_r k m' kept (r :: List.map snd lost)).
  Definition swap_right_wreck (k : N) (m' : map) (P : list (L * R)) (old new : R) : Prop :=
    let B := s_swap_right_base (eqR E) P old new in
    behaves_as E k m' P \/ behaves_as E k m' B \/
    exists l r, find_r (eqR E) B old = Some (l, r) /\
      ((damaged m' (del_r (eqR E) B old) [l] [r] /\ get_left E m' old = None /\
        (get_right E m' l = None \/ get_right E m' l = Some r) /\
        mended_by k m' [RemoveViaRight old; RemoveViaLeft l] (del_r (eqR E) B old)) \/
       exists kept lost, split_pairs (del_r (eqR E) B old) kept lost /\
         stranded_l k m' kept (l :: List.map fst lost)).

  Lemma swap_left_wrecks : forall s c m P old new m' k, Repr E s c m P -> c + k < two64 ->
    P_swap_left E F old new m m' -> swap_left_wreck k m' P old new.
  Proof.
    intros s c m P old new m' k H B [->|(m1 & a & Q1 & K)]; [left; eapply repr_behaves; eauto|].
    destruct (swap_left_eq_check_ok E OK s c m P old new H) as (m1' & Q1' & H1).
    rewrite (repr_hb E _ _ _ _ H) in Q1, K. rewrite Q1 in Q1'. inversion Q1'; subst m1' a. clear Q1'.
    right. unfold swap_left_wreck. set (BB := s_swap_left_base (eqL E) P old new) in *. clearbody BB.
    destruct K as [->|(lp & i & G & FI & K)]; [left; eapply repr_behaves; eauto|].
    rewrite (repr_hb E _ _ _ _ H1) in *. pose proof H1 as H1r. destruct H1 as (Z & H1 & HZ). subst BB.
    destruct (split_l E OK _ _ _ _ old H1) as [(z & Z' & PZ & H' & Hq & Hh & Hn)|Hn].
    2:{ rewrite t_get_absent in G by (eapply left_absent; eauto). discriminate. }
    erewrite left_get_found in G by eauto. inversion G; subst lp. clear G. cbn [CycleMapProofs.slotL snd phash pid] in FI.
    destruct (t_find_unique (lo E) LO (right_set m1) (hashR E s (zr z))
          (hash_and_id (hashL E s old) (zid z)) _ _ (rep_r _ _ _ _ _ H')) as (i' & Fi & Ni).
    { unfold hash_and_id; simpl. rewrite Hh, !N.eqb_refl; auto. }
    { intros x Hx. eapply hid_r_other; eauto. apply (rep_ids _ _ _ _ _ H'). }
    rewrite Fi in FI. inversion FI; subst i'. clear FI.
    assert (FZ : find_l (eqL E) (List.map zpair Z) old = Some (zl z, zr z)).
    { unfold find_l. rewrite (find_split _ Z z Z'); auto. }
    assert (DEL : Permutation (del_l (eqL E) (List.map zpair Z) old) (List.map zpair Z')).
    { apply (perm_filter_del _ Z z Z'); auto; [simpl; rewrite Hq; auto|intros x Hx; simpl; rewrite Hn; auto]. }
    destruct (Permutation_map_inv _ _ (Permutation_sym (Permutation_sym DEL))) as (Z2 & QD & P2).
    set (hn := hashL E s new) in *. set (x := slotL s z) in *.
    set (y := (hashR E s (zr z), MP (zr z) hn (zid z))).
    assert (HD : Dam s c (repoint_r m1 (snd x) i hn) [x] [y] Z2).
    { eapply (dam_perm E OK s c _ [x] [x] [y] [y] Z' Z2); auto.
      pose proof (rep_ids _ _ _ _ _ H') as NDI. simpl in NDI. inversion NDI as [|? ? NI ND]; subst.
      constructor; simpl.
      - apply (rep_hb _ _ _ _ _ H').
      - apply (rep_c _ _ _ _ _ H').
      - apply (rep_l _ _ _ _ _ H').
      - etransitivity; [exact (t_modify_perm _ _ _ _ _ (fun p => MP (value p) hn (pid p)) Ni (rep_r _ _ _ _ _ H'))|]. reflexivity.
      - auto.
      - intros w Hw. apply (rep_lt _ _ _ _ _ H'). right; auto.
      - intros w [<-|[]]. reflexivity.
      - intros w [<-|[]]. reflexivity.
      - apply (rep_dl _ _ _ _ _ H').
      - apply (rep_dr _ _ _ _ _ H').
      - intros w u [<-|[]] Hu Q. simpl in Q. apply NI. rewrite Q. apply in_map; auto.
      - intros w u [<-|[]] Hu Q. simpl in Q. apply NI. rewrite Q. apply in_map; auto. }
    destruct K as [QM|(m3 & e & Q3 & t & SP & ->)].
    - change (m' = repoint_r m1 (snd x) i hn) in QM. subst m'. destruct (N.eq_dec hn (hashL E s old)) as [HE|HE].
      + left. eapply (repr_behaves E OK s c); auto. exists Z. split; auto.
        apply (rep_tables E); auto. eapply modify_same; [exact Ni|]. cbn. rewrite HE, Hh. reflexivity.
      + right. exists (zl z), (zr z). split; auto. left. rewrite QD.
        assert (AL : alone (fst x) (snd x) [y]).
        { intros w [<-|[]]. unfold hash_and_id. cbn. apply andb_false_iff. right. apply N.eqb_neq. congruence. }
        split; [exact (dam_damaged _ _ _ _ _ _ HD)|].
        split; [eapply (dam_lonely_right E OK); [exact HD|left; reflexivity|exact Hq|exact AL]|].
        split; [eapply (dam_iter E OK); [exact HD|left; reflexivity|exact AL]|].
        split.
        * unfold get_left, get_left_q. rewrite (dm_hb _ _ _ _ _ _ _ HD).
          rewrite (dam_get_r E OK _ _ _ _ _ _ (fst y) (snd y) (zr z) HD); [|eapply (dam_right_in E); [exact HD|left; reflexivity]|apply (equiv_refl _ ER)].
          destruct (t_get _ (left_set _) _ _) as [lp|] eqn:G; [right|left; auto].
          apply t_get_In in G as (h' & IN & PH). eapply Permutation_in in IN; [|apply (dm_l _ _ _ _ _ _ _ HD)].
          destruct IN as [IN|IN]; [unfold x in IN; inversion IN; subst; reflexivity|].
          apply in_map_iff in IN as (w & IN & Hw). inversion IN; subst. unfold hash_and_id in PH.
          apply andb_true_iff in PH as [PH _]. apply N.eqb_eq in PH. cbn in PH.
          exfalso. eapply (dm_il _ _ _ _ _ _ _ HD x w); eauto; [left; auto].
        * destruct (dam_remove_l E OK _ _ _ _ _ _ _ old HD Hq AL) as (m2 & R1 & D1).
          destruct (dam_remove_r E OK _ _ _ _ _ _ _ (zr z) D1) as (m3 & R2 & D2);
            [apply (equiv_refl _ ER)|intros w []|].
          exists m3. split; [|eapply dam_behaves; eauto].
          cbn [run step List.map]. rewrite R1. cbn [via]. rewrite R2. reflexivity.
    - right. exists (zl z), (zr z). split; auto. right. rewrite QD.
      assert (H3 : Dam s c m3 [] [y] Z2).
      { unfold left_remove_entry, bind, getst, putst, ret in Q3. cbn [repoint_r set_right left_set hash_builder] in Q3.
        destruct (t_remove_entry_unique (lo E) LO (left_set m1) (hashL E s old)
          (equivalent_key (eqL E) old) (snd x) (List.map (slotL s) Z')) as (tl & QT & Pl).
        { rewrite Hh. apply (rep_l _ _ _ _ _ H'). }
        { exact Hq. }
        { intros w Hw. apply in_map_iff in Hw as (u & <- & Hu). apply Hn; auto. }
        rewrite QT in Q3. inversion Q3; subst. destruct HD. constructor; simpl in *; auto.
        - rewrite Pl. apply Permutation_map. auto.
        - apply distinct_cons in dm_dl as [_ D]. auto. }
      apply (spoilt_torn _ _ FO) in SP. destruct (tear_l _ _ _ _ _ _ H3 SP) as (Z1 & Z3 & PZ1 & H5).
      exists (List.map zpair Z1), (List.map zpair Z3). split; [unfold split_pairs; rewrite <- map_app; apply Permutation_map; auto|].
      rewrite <- (vals_slotR s). exact (dam_stranded_r _ _ _ _ _ _ H5 B).
  Qed.

  Lemma swap_right_wrecks : forall s c m P old new m' k, Repr E s c m P -> c + k < two64 ->
    P_swap_right E F old new m m' -> swap_right_wreck k m' P old new.
  Proof.
    intros s c m P old new m' k H B [->|(m1 & a & Q1 & K)]; [left; eapply repr_behaves; eauto|].
    destruct (swap_right_eq_check_ok E OK s c m P old new H) as (m1' & Q1' & H1).
    rewrite (repr_hb E _ _ _ _ H) in Q1. rewrite Q1 in Q1'. inversion Q1'; subst m1' a. clear Q1'.
    right. unfold swap_right_wreck. set (BB := s_swap_right_base (eqR E) P old new) in *. clearbody BB.
    destruct K as [->|(rp & i & G & FI & K)]; [left; eapply repr_behaves; eauto|].
    rewrite (repr_hb E _ _ _ _ H1) in *. pose proof H1 as H1r. destruct H1 as (Z & H1 & HZ). subst BB.
    destruct (split_r E OK _ _ _ _ old H1) as [(z & Z' & PZ & H' & Hq & Hh & Hn)|Hn].
    2:{ rewrite t_get_absent in G by (eapply right_absent; eauto). discriminate. }
    erewrite right_get_found in G by eauto. inversion G; subst rp. clear G. cbn [CycleMapProofs.slotR snd phash pid] in FI.
    destruct (t_find_unique (lo E) LO (left_set m1) (hashL E s (zl z))
          (hash_and_id (hashR E s old) (zid z)) _ _ (rep_l _ _ _ _ _ H')) as (i' & Fi & Ni).
    { unfold hash_and_id; simpl. rewrite Hh, !N.eqb_refl; auto. }
    { intros x Hx. eapply hid_l_other; eauto. apply (rep_ids _ _ _ _ _ H'). }
    rewrite Fi in FI. inversion FI; subst i'. clear FI.
    assert (FZ : find_r (eqR E) (List.map zpair Z) old = Some (zl z, zr z)).
    { unfold find_r. rewrite (find_split _ Z z Z'); auto. }
    assert (DEL : Permutation (del_r (eqR E) (List.map zpair Z) old) (List.map zpair Z')).
    { apply (perm_filter_del _ Z z Z'); auto; [simpl; rewrite Hq; auto|intros x Hx; simpl; rewrite Hn; auto]. }
    destruct (Permutation_map_inv _ _ DEL) as (Z2 & QD & P2).
    set (hn := hashR E s new) in *. set (y := slotR s z) in *.
    set (x := (hashL E s (zl z), MP (zl z) hn (zid z))).
    assert (HD : Dam s c (repoint_l m1 (snd y) i hn) [x] [y] Z2).
    { eapply (dam_perm E OK s c _ [x] [x] [y] [y] Z' Z2); auto.
      pose proof (rep_ids _ _ _ _ _ H') as NDI. simpl in NDI. inversion NDI as [|? ? NI ND]; subst.
      constructor; simpl.
      - apply (rep_hb _ _ _ _ _ H').
      - apply (rep_c _ _ _ _ _ H').
      - etransitivity; [exact (t_modify_perm _ _ _ _ _ (fun p => MP (value p) hn (pid p)) Ni (rep_l _ _ _ _ _ H'))|]. reflexivity.
      - apply (rep_r _ _ _ _ _ H').
      - auto.
      - intros w Hw. apply (rep_lt _ _ _ _ _ H'). right; auto.
      - intros w [<-|[]]. reflexivity.
      - intros w [<-|[]]. reflexivity.
      - apply (rep_dl _ _ _ _ _ H').
      - apply (rep_dr _ _ _ _ _ H').
      - intros w u [<-|[]] Hu Q. simpl in Q. apply NI. rewrite Q. apply in_map; auto.
      - intros w u [<-|[]] Hu Q. simpl in Q. apply NI. rewrite Q. apply in_map; auto. }
    destruct K as [QM|(m3 & e & Q3 & t & SP & ->)].
    - change (m' = repoint_l m1 (snd y) i hn) in QM. subst m'. destruct (N.eq_dec hn (hashR E s old)) as [HE|HE].
      + left. eapply (repr_behaves E OK s c); auto. exists Z. split; auto.
        apply (rep_tables E); auto. eapply modify_same; [exact Ni|]. cbn. rewrite HE, Hh. reflexivity.
      + right. exists (zl z), (zr z). split; auto. left. rewrite QD.
        assert (AL : alone (fst y) (snd y) [x]).
        { intros w [<-|[]]. unfold hash_and_id. cbn. apply andb_false_iff. right. apply N.eqb_neq. congruence. }
        split; [exact (dam_damaged _ _ _ _ _ _ HD)|].
        split; [eapply (dam_lonely_left E OK); [exact HD|left; reflexivity|exact Hq|exact AL]|].
        split.
        * unfold get_right, get_right_q. rewrite (dm_hb _ _ _ _ _ _ _ HD).
          rewrite (dam_get_l E OK _ _ _ _ _ _ (fst x) (snd x) (zl z) HD); [|eapply (dam_left_in E); [exact HD|left; reflexivity]|apply (equiv_refl _ EL)].
          destruct (t_get _ (right_set _) _ _) as [rp|] eqn:G; [right|left; auto].
          apply t_get_In in G as (h' & IN & PH). eapply Permutation_in in IN; [|apply (dm_r _ _ _ _ _ _ _ HD)].
          destruct IN as [IN|IN]; [unfold y in IN; inversion IN; subst; reflexivity|].
          apply in_map_iff in IN as (w & IN & Hw). inversion IN; subst. unfold hash_and_id in PH.
          apply andb_true_iff in PH as [PH _]. apply N.eqb_eq in PH. cbn in PH.
          exfalso. eapply (dm_ir _ _ _ _ _ _ _ HD y w); eauto; [left; auto].
        * destruct (dam_remove_r E OK _ _ _ _ _ _ _ old HD Hq AL) as (m2 & R1 & D1).
          destruct (dam_remove_l E OK _ _ _ _ _ _ _ (zl z) D1) as (m3 & R2 & D2);
            [apply (equiv_refl _ EL)|intros w []|].
          exists m3. split; [|eapply dam_behaves; eauto].
          cbn [run step List.map]. rewrite R1. cbn [via]. rewrite R2. reflexivity.
    - right. exists (zl z), (zr z). split; auto. right. rewrite QD.
      assert (H3 : Dam s c m3 [x] [] Z2).
      { unfold right_remove_entry, bind, getst, putst, ret in Q3. cbn [repoint_l set_left right_set hash_builder] in Q3.
        destruct (t_remove_entry_unique (lo E) LO (right_set m1) (hashR E s old)
          (equivalent_key (eqR E) old) (snd y) (List.map (slotR s) Z')) as (tr & QT & Pr).
        { rewrite Hh. apply (rep_r _ _ _ _ _ H'). }
        { exact Hq. }
        { intros w Hw. apply in_map_iff in Hw as (u & <- & Hu). apply Hn; auto. }
        rewrite QT in Q3. inversion Q3; subst. destruct HD. constructor; simpl in *; auto.
        - rewrite Pr. apply Permutation_map. auto.
        - apply distinct_cons in dm_dr as [_ D]. auto. }
      apply (spoilt_torn _ _ FO) in SP. destruct (tear_r _ _ _ _ _ _ H3 SP) as (Z1 & Z3 & PZ1 & H5).
      exists (List.map zpair Z1), (List.map zpair Z3). split; [unfold split_pairs; rewrite <- map_app; apply Permutation_map; auto|].
      rewrite <- (vals_slotL s). exact (dam_stranded_l _ _ _ _ _ _ H5 B).
  Qed.

  (* reserve and try_reserve *)
  Definition reserve_wreck (k : N) (m' : map) (P : list (L * R)) : Prop :=
    exists kept lost, split_pairs P kept lost /\
      (stranded_r k m' kept (List.map snd lost) \/ stranded_l k m' kept (List.map fst lost)).
  Lemma reserve_wrecks : forall s c m P n m' k, Repr E s c m P -> c + k < two64 ->
    P_resize E F (Grow n) m m' -> reserve_wreck k m' P.
  Proof.
    intros s c m P n m' k (Z & H & ->) B [(t & SP & ->)|(t & SP & ->)];
      apply (spoilt_torn _ _ FO) in SP.
    - destruct (tear_l _ _ _ _ _ _ (rep_dam _ _ _ _ H) SP) as (Z1 & Z2 & PZ & H').
      exists (List.map zpair Z1), (List.map zpair Z2). split; [unfold split_pairs; rewrite <- map_app; apply Permutation_map; auto|].
      left. rewrite <- (vals_slotR s). eapply dam_stranded_r; eauto.
    - destruct (tear_r s c (set_left (t_resize (lo E) (left_set m) (Grow n) (make_hasher_l E (hash_builder m))) m) [] Z t) as (Z1 & Z2 & PZ & H').
      + apply rep_dam. refine (rep_tables E s c m Z _ (right_set m) H _ (Permutation_refl _)).
        apply (t_resize_perm _ (lo_ok E OK)). rewrite (rep_hb _ _ _ _ _ H). eapply rep_hashed_l; eauto.
      + exact SP.
      + exists (List.map zpair Z1), (List.map zpair Z2). split; [unfold split_pairs; rewrite <- map_app; apply Permutation_map; auto|].
        right. rewrite <- (vals_slotL s). eapply dam_stranded_l; eauto.
  Qed.
  (* extend: the pairs done before the panic are in, then an insertion is interrupted *)
  Definition extend_wreck (k : N) (m' : map) (P : list (L * R)) (xs : list (L * R)) : Prop :=
    exists dn l r td, xs = dn ++ (l, r) :: td /\
      insert_wreck k m' (s_insert_all (eqL E) (eqR E) P dn) l r.
  Lemma extend_wrecks : forall xs s c m P m' k, Repr E s c m P -> c + N.of_nat (length xs) + k < two64 ->
    P_extend E F xs m m' -> extend_wreck k m' P xs.
  Proof.
    induction xs as [|[l r] xs IH]; simpl; intros s c m P m' k H B K; [destruct K|].
    destruct K as [K|(m1 & d & Q & K)].
    - exists [], l, r, xs. split; auto. eapply insert_wrecks; eauto. simpl. lia.
    - destruct (insert_ok E OK s c m P l r H) as (m1' & Q' & H1); [lia|]. rewrite Q in Q'. inversion Q'; subst m1' d.
      destruct (IH s (c + 1) m1 _ m' k H1) as (dn & a & b & td & -> & HW); [lia|auto|].
      exists ((l, r) :: dn), a, b, td. auto.
  Qed.

  (* ---- C89 ---- *)
  Ltac go H m o w := apply (reachable_view E OK) in H as (s & c & P & V & H & B); exists P; split; auto;
    destruct (u_step_cases E F (lo_ok E OK) m o w) as [Q|(N & m' & Q & KK)]; [left; auto|right];
    split; auto; exists m'; split; auto; cbn [P_step] in KK.

  Theorem C89_insert_partial : forall k m l r w, reachable E k m -> 1 <= k ->
    exists P, contents E m P /\
    (u_step E F m (Insert l r) w = step E m (Insert l r) \/
     (w <> None /\ exists m', u_step E F m (Insert l r) w = (m', OPanic) /\ insert_wreck (k - 1) m' P l r)).
  Proof. intros k m l r w H K. go H m (Insert l r) w. eapply insert_wrecks; eauto. lia. Qed.
  Theorem C89_extend_partial : forall k m xs w, reachable E k m -> N.of_nat (length xs) <= k ->
    exists P, contents E m P /\
    (u_step E F m (Extend xs) w = step E m (Extend xs) \/
     (w <> None /\ exists m', u_step E F m (Extend xs) w = (m', OPanic) /\
        extend_wreck (k - N.of_nat (length xs)) m' P xs)).
  Proof. intros k m xs w H K. go H m (Extend xs) w. eapply extend_wrecks; eauto. lia. Qed.

  (* ---- C90 ---- *)
  Theorem C90_swap_left_partial : forall k m o old new w, reachable E k m ->
    o = SwapLeft old new \/ (exists ex, o = SwapLeftChecked old ex new) ->
    exists P, contents E m P /\
    (u_step E F m o w = step E m o \/
     (w <> None /\ exists m', u_step E F m o w = (m', OPanic) /\ swap_left_wreck k m' P old new)).
  Proof.
    intros k m o old new w H O. go H m o w.
    destruct O as [->|(ex & ->)]; cbn [P_step] in KK; eapply swap_left_wrecks; eauto.
  Qed.
  Theorem C90_swap_right_partial : forall k m o old new w, reachable E k m ->
    o = SwapRight old new \/ (exists ex, o = SwapRightChecked old ex new) ->
    exists P, contents E m P /\
    (u_step E F m o w = step E m o \/
     (w <> None /\ exists m', u_step E F m o w = (m', OPanic) /\ swap_right_wreck k m' P old new)).
  Proof.
    intros k m o old new w H O. go H m o w.
    destruct O as [->|(ex & ->)]; cbn [P_step] in KK; eapply swap_right_wrecks; eauto.
  Qed.
  Theorem C90_swap_left_or_insert_partial : forall k m old new ti w, reachable E k m -> 1 <= k ->
    exists P, contents E m P /\
    (u_step E F m (SwapLeftOrInsert old new ti) w = step E m (SwapLeftOrInsert old new ti) \/
     (w <> None /\ exists m', u_step E F m (SwapLeftOrInsert old new ti) w = (m', OPanic) /\
        (swap_left_wreck (k - 1) m' P old new \/ insert_wreck (k - 1) m' P new ti))).
  Proof.
    intros k m old new ti w H K. go H m (SwapLeftOrInsert old new ti) w.
    destruct KK; [left; eapply swap_left_wrecks|right; eapply insert_wrecks]; eauto; lia.
  Qed.
  Theorem C90_swap_right_or_insert_partial : forall k m old new ti w, reachable E k m -> 1 <= k ->
    exists P, contents E m P /\
    (u_step E F m (SwapRightOrInsert old new ti) w = step E m (SwapRightOrInsert old new ti) \/
     (w <> None /\ exists m', u_step E F m (SwapRightOrInsert old new ti) w = (m', OPanic) /\
        (swap_right_wreck (k - 1) m' P old new \/ insert_wreck (k - 1) m' P ti new))).
  Proof.
    intros k m old new ti w H K. go H m (SwapRightOrInsert old new ti) w.
    destruct KK; [left; eapply swap_right_wrecks|right; eapply insert_wrecks]; eauto; lia.
  Qed.

  (* ---- C91 ---- *)
  Theorem C91_shrink : forall k m o w, reachable E k m -> o = ShrinkToFit \/ (exists n, o = ShrinkTo n) ->
    exists P, contents E m P /\ behaves_as E k (fst (u_step E F m o w)) P.
  Proof.
    intros k m o w H O. apply (reachable_view E OK) in H as (s & c & P & V & H & B). exists P. split; auto.
    destruct (u_step_cases E F (lo_ok E OK) m o w) as [->|(N & m' & -> & KK)].
    - destruct (step_ok E OK s c m P o H) as (P1 & c1 & S1 & H1 & C1).
      + destruct O as [->|(n & ->)]; simpl; lia.
      + assert (P1 = P) by (destruct O as [->|(n & ->)]; inversion S1; auto). subst P1.
        eapply repr_behaves; eauto. destruct O as [->|(n & ->)]; simpl in C1; lia.
    - cbn [fst]. eapply (repr_behaves E OK s c); auto.
      destruct O as [->|(n & ->)]; cbn [P_step] in KK; eapply (shrink_panic E OK); eauto.
  Qed.
  Theorem C91_reserve_partial : forall k m o n w, reachable E k m -> o = Reserve n \/ o = TryReserve n ->
    exists P, contents E m P /\
    (u_step E F m o w = step E m o \/
     (w <> None /\ exists m', u_step E F m o w = (m', OPanic) /\ reserve_wreck k m' P)).
  Proof.
    intros k m o n w H O. go H m o w. destruct O as [->| ->]; cbn [P_step] in KK; eapply reserve_wrecks; eauto.
  Qed.
End Wrecks.

(* ---- the claims without "partial" are false ---- *)
Lemma full_map_reachable : reachable env_room 5 full_map.
Proof. exists 0, 0, 0, [Reserve 2; Insert (it 1) (it 1); Insert (it 2) (it 2)]. split; reflexivity. Qed.

(* insert: the left table has grown, the Hash of an old item panics while the right table
   grows.  No bucket is lost (f_move), yet the new left item has no partner, and iterating over
   the map panics. *)
Theorem C89_insert_refuted : exists (E : env item item N) F m l r w m',
  lawful E /\ fault_ok F /\ lossless F /\ reachable E 5 m /\
  u_step E F m (Insert l r) w = (m', OPanic) /\
  contains_left E m' l = true /\ get_right E m' l = None /\ contains_right E m' r = false /\
  iter_all E m' = Panicked.
Proof.
  exists env_room, f_move, full_map, (it 9), (it 9), (Some 10%nat),
    (fst (u_step env_room f_move full_map (Insert (it 9) (it 9)) (Some 10%nat))).
  split; [exact env_room_ok|]. split; [exact f_move_ok|]. split; [exact f_move_lossless|].
  split; [exact full_map_reachable|]. run_all.
Qed.
(* swap_left: Eq panics while the entry of the old item is taken out; its partner no longer
   belongs to it.  Room in the tables does not help. *)
Theorem C90_swap_refuted : exists (E : env item item N) F m old new w m',
  lawful E /\ fault_ok F /\ lossless F /\ reachable E 5 m /\ room E 1 m /\
  u_step E F m (SwapLeft old new) w = (m', OPanic) /\
  contains_left E m' old = true /\ get_right E m' old = None /\ contains_left E m' new = false /\
  iter_all E m' = Panicked.
Proof.
  exists env_room, f_move, fm, (it 2), (it 9), (Some 7%nat),
    (fst (u_step env_room f_move fm (SwapLeft (it 2) (it 9)) (Some 7%nat))).
  split; [exact env_room_ok|]. split; [exact f_move_ok|]. split; [exact f_move_lossless|].
  split; [exact fm_reachable|]. split; [exact fm_room|]. run_all.
Qed.
(* reserve: buckets of a table rehashed in place are lost *)
Theorem C91_reserve_refuted : exists (E : env item item N) F m n w m' l,
  lawful E /\ fault_ok F /\ reachable E 5 m /\ contains_left E m l = true /\
  u_step E F m (Reserve n) w = (m', OPanic) /\ contains_left E m' l = false.
Proof.
  exists env_room, f_in_place, full_map, 1, (Some 1%nat),
    (fst (u_step env_room f_in_place full_map (Reserve 1) (Some 1%nat))), (it 1).
  split; [exact env_room_ok|]. split; [exact f_in_place_ok|]. split; [exact full_map_reachable|]. run_all.
Qed.

(* ---- cases of the partial theorems ---- *)
Definition after (F : fault) (m : cmap item item N) (o : op item item) (w : nat) : cmap item item N :=
  fst (u_step env_room F m o (Some w)).
(* insert(9, 9), buckets lost in place: one pair is gone from the right table; both left items are
   stranded, and two removals mend the map *)
Example C89_case :
  let m := after f_in_place full_map (Insert (it 9) (it 9)) 11 in
  snd (u_step env_room f_in_place full_map (Insert (it 9) (it 9)) (Some 11%nat)) = OPanic /\
  List.map (contains_left env_room m) [it 9; it 1; it 2] = [true; true; true] /\
  List.map (get_right env_room m) [it 9; it 1; it 2] = [None; None; Some (it 2)] /\
  iter_all env_room m = Panicked /\
  snd (run env_room m [RemoveViaLeft (it 9); RemoveViaLeft (it 1); IterAll; Insert (it 9) (it 9)])
    = [OPanic; OPanic; OPairs [(it 2, it 2)]; OIns Neither].
Proof. run_all. Qed.
(* the first pair fits, the second does not *)
Definition half_map : cmap item item N :=
  fst (run env_room (with_hasher 0 0 0) [Reserve 2; Insert (it 1) (it 1)]).
Example C89_extend_case :
  let o := Extend [(it 2, it 2); (it 9, it 9)] in
  let m := after f_move half_map o 16 in
  snd (u_step env_room f_move half_map o (Some 16%nat)) = OPanic /\
  List.map (get_right env_room m) [it 1; it 2; it 9] = [Some (it 1); Some (it 2); None] /\
  contains_left env_room m (it 9) = true /\ iter_all env_room m = Panicked /\
  snd (run env_room m [RemoveViaLeft (it 9); IterAll]) = [OPanic; OPairs [(it 2, it 2); (it 1, it 1)]].
Proof. run_all. Qed.
(* a torn swap of either side, mended by two removals *)
Example C90_case :
  let m := after f_move full_map (SwapLeft (it 2) (it 9)) 5 in
  let m2 := after f_move full_map (SwapRight (it 2) (it 9)) 6 in
  get_right env_room m (it 2) = None /\ get_left env_room m (it 2) = Some (it 2) /\
  get_right env_room m (it 1) = Some (it 1) /\
  snd (run env_room m [RemoveViaLeft (it 2); RemoveViaRight (it 2); IterAll])
    = [OPanic; OPanic; OPairs [(it 1, it 1)]] /\
  get_left env_room m2 (it 2) = None /\ get_right env_room m2 (it 2) = Some (it 2) /\
  snd (run env_room m2 [RemoveViaRight (it 2); RemoveViaLeft (it 2); IterAll])
    = [OPanic; OPanic; OPairs [(it 1, it 1)]].
Proof. run_all. Qed.
Example C91_case :
  let m := after f_in_place full_map (Reserve 1) 1 in
  let m2 := after f_in_place full_map (Reserve 1) 3 in
  iter_all env_room m = Done [(it 2, it 2)] /\ contains_right env_room m (it 1) = true /\
  snd (run env_room m [RemoveViaRight (it 1); IterAll; ContainsRight (it 1)])
    = [OPanic; OPairs [(it 2, it 2)]; OBool false] /\
  iter_all env_room m2 = Panicked /\ contains_left env_room m2 (it 1) = true /\
  snd (run env_room m2 [RemoveViaLeft (it 1); IterAll]) = [OPanic; OPairs [(it 2, it 2)]] /\
  (* shrink_to_fit keeps everything *)
  snd (u_step env_room f_in_place fm ShrinkToFit (Some 1%nat)) = OPanic /\
  iter_all env_room (after f_in_place fm ShrinkToFit 1) = iter_all env_room fm.
Proof. run_all. Qed.

Print Assumptions C89_insert_partial.
Print Assumptions C89_extend_partial.
Print Assumptions C89_insert_refuted.
Print Assumptions C90_swap_left_partial.
Print Assumptions C90_swap_right_partial.
Print Assumptions C90_swap_left_or_insert_partial.
Print Assumptions C90_swap_right_or_insert_partial.
Print Assumptions C90_swap_refuted.
Print Assumptions C91_shrink.
Print Assumptions C91_reserve_partial.
Print Assumptions C91_reserve_refuted.
