(* CycleMap: what exactly is left when the iterator of drain() is dropped early (the case
   C15_drain_early_drop_partial leaves out), for every map, drop point and item. *)
From Coq Require Import List NArith Lia Bool Permutation PeanoNat.
From Verif Require Import Closures Prelude RawTable Optionals CycleMap ListFacts TableFacts CycleMapSpec
  CycleMapHistory CycleMapProofs CycleMapProofs2 CycleMapProofs3 CycleMapHistoryProofs Concrete
  CycleMapProps CycleMapProps2.
Import ListNotations.
Open Scope N_scope.

Section Defects.
  Context {L R S : Type} (E : env L R S) (OK : lawful E).
  Implicit Types (m : cmap L R S) (l : L) (r : R).
  Notation "a =L b" := (eqL E a b = true) (at level 70).
  Notation "a =R b" := (eqR E a b = true) (at level 70).
  Notation slotR := (slotR E).
  Let EL := eqL_equiv _ OK.
  Let ER := eqR_equiv _ OK.
  Let LO := lo_ok _ OK.

  (* no left items, the right items of W *)
  Record stale (s : S) m (W : list (N * L * R)) : Prop := {
    st_hb : hash_builder m = s;
    st_l : slots (left_set m) = [];
    st_r : Permutation (slots (right_set m)) (map (slotR s) W);
    st_ids : NoDup (map zid W);
    st_dr : distinct (eqR E) (map zr W)
  }.

  Lemma stale_left : forall s m W h p, stale s m W -> t_get (lo E) (left_set m) h p = None.
  Proof. intros s m W h p H. apply t_get_absent. rewrite (st_l _ _ _ H). intros x []. Qed.
  Lemma stale_left_remove : forall s m W h p, stale s m W -> t_remove_entry (lo E) (left_set m) h p = None.
  Proof. intros s m W h p H. apply t_remove_entry_absent. rewrite (st_l _ _ _ H). intros x []. Qed.
  Lemma stale_absent : forall s m W r h, stale s m W -> (forall z, In z W -> eqR E r (zr z) = false) ->
    t_get (lo E) (right_set m) h (equivalent_key (eqR E) r) = None.
  Proof.
    intros s m W r h H N. apply t_get_absent. intros x Hx.
    eapply Permutation_in in Hx; [|apply (st_r _ _ _ H)]. eapply (key_r_other E); eauto.
  Qed.
  Lemma stale_absent_remove : forall s m W r h, stale s m W -> (forall z, In z W -> eqR E r (zr z) = false) ->
    t_remove_entry (lo E) (right_set m) h (equivalent_key (eqR E) r) = None.
  Proof.
    intros s m W r h H N. apply t_remove_entry_absent. intros x Hx.
    eapply Permutation_in in Hx; [|apply (st_r _ _ _ H)]. eapply (key_r_other E); eauto.
  Qed.
  Lemma stale_split : forall s m W r, stale s m W ->
    (exists z W', Permutation W (z :: W') /\ r =R zr z /\ (forall x, In x W' -> eqR E r (zr x) = false)) \/
    (forall z, In z W -> eqR E r (zr z) = false).
  Proof.
    intros s m W r H. destruct (existsb (fun z => eqR E r (zr z)) W) eqn:X.
    - left. apply existsb_exists in X as (z & Hz & Q). apply perm_in_cons in Hz as [W' P].
      exists z, W'. split; auto. split; auto. intros x Hx. rewrite (eqb_replace_l _ ER _ _ _ Q).
      assert (D := st_dr _ _ _ H).
      eapply (distinct_perm _ ER) in D; [|apply Permutation_map; exact P].
      cbn [map] in D. apply distinct_cons in D as [D _]. apply D, in_map. auto.
    - right. intros z Hz. destruct (eqR E r (zr z)) eqn:Y; auto.
      assert (existsb (fun z => eqR E r (zr z)) W = true); [|congruence]. apply existsb_exists; eauto.
  Qed.
  Lemma stale_get : forall s m W z W' r, stale s m W -> Permutation W (z :: W') -> r =R zr z ->
    (forall x, In x W' -> eqR E r (zr x) = false) ->
    t_get (lo E) (right_set m) (hashR E s r) (equivalent_key (eqR E) r) = Some (snd (slotR s z)).
  Proof.
    intros s m W z W' r H P Q N. rewrite (hashR_ok _ OK s _ _ Q).
    eapply (t_get_unique _ LO) with (rest := map (slotR s) W').
    - rewrite (st_r _ _ _ H). apply (Permutation_map (slotR s)) in P. exact P.
    - exact Q.
    - intros x Hx. eapply (key_r_other E); eauto.
  Qed.
  (* removing a stale right item fails after the item is gone *)
  Lemma stale_remove : forall s m W z W' r, stale s m W -> Permutation W (z :: W') -> r =R zr z ->
    (forall x, In x W' -> eqR E r (zr x) = false) ->
    exists m', remove_via_right E r m = Panic m' /\ stale s m' W'.
  Proof.
    intros s m W z W' r H P Q N. unfold remove_via_right, right_remove_entry, left_remove_entry. mrun.
    rewrite (st_hb _ _ _ H), (hashR_ok _ OK s _ _ Q).
    destruct (t_remove_entry_unique _ LO (right_set m) (hashR E s (zr z)) (equivalent_key (eqR E) r)
      (snd (slotR s z)) (map (slotR s) W')) as (t & -> & PT).
    - rewrite (st_r _ _ _ H). apply (Permutation_map (slotR s)) in P. exact P.
    - exact Q.
    - intros x Hx. eapply (key_r_other E); eauto.
    - cbn iota beta. cbn [left_set set_right]. rewrite (stale_left_remove _ _ _ _ _ H). cbn iota beta.
      eexists. split; [reflexivity|].
      assert (ND := st_ids _ _ _ H). eapply NoDup_perm in ND; [|apply Permutation_map; exact P].
      assert (D := st_dr _ _ _ H). eapply (distinct_perm _ ER) in D; [|apply Permutation_map; exact P].
      cbn [map] in ND, D. inversion ND. apply distinct_cons in D as [_ D].
      constructor; auto; apply H.
  Qed.

  (* [drained]: P are the pairs, n of them have been taken when the iterator is dropped.
     The right items of the others stay; they have no partner, and whatever tries to remove
     one panics (and does remove it).  clear() makes the map as good as new. *)
  Theorem C15_stale_rights_partial : forall room m n, reachable E room m ->
    exists P d, contents E m P /\
      drain_nexts E n (drain m) = Ret d (firstn n (map Some P) ++ repeat None (n - length P)) /\
      let m' := drain_end E m d in
      let stale := map snd (skipn n P) in
      (forall r, contains_right E m' r = existsb (eqR E r) stale) /\
      (forall r, get_left E m' r = None) /\ (forall l r, are_paired E m' l r = false) /\
      (forall l, remove_via_left E l m' = Ret m' None) /\
      (forall l r, remove E l r m' = Ret m' None) /\
      map_eq E m' m' = Done true /\ (forall m2, len m2 = 0%nat -> map_eq E m' m2 = Done true) /\
      (* the stale items *)
      (forall r, existsb (eqR E r) stale = true ->
         (exists m'', remove_via_right E r m' = Panic m'' /\ contains_right E m'' r = false) /\
         (forall l, exists m'', insert E l r m' = Panic m'' /\ contains_right E m'' r = false) /\
         (forall new, exists m'', swap_right E r new m' = Panic m'')) /\
      (* the others *)
      (forall r, existsb (eqR E r) stale = false ->
         remove_via_right E r m' = Ret m' None /\
         (forall l, exists m'', insert E l r m' = Ret m'' Neither /\
            are_paired E m'' l r = true /\ len m'' = 1%nat)) /\
      (* afterwards *)
      exists m'', clear E m' = Ret m'' tt /\ forall big, big < two64 -> behaves_as E big m'' [].
  Proof.
    intros room m n H. apply (reachable_view E OK) in H as (s & c & P & V & H & B).
    destruct (repr_ordered E OK _ _ _ _ H) as (Y & RY & EY & OY & PY).
    rewrite (order_view E OK _ _ _ _ H V) in OY.
    destruct (drain_nexts_ok E OK s n Y (drain m)) as (d & HD & DL & DR).
    { apply (rep_ids _ _ _ _ _ RY). }
    { exact EY. }
    { apply (rep_r _ _ _ _ _ RY). }
    set (W := skipn n Y) in *.
    assert (SUB : exists U, Y = U ++ W) by (exists (firstn n Y); symmetry; apply firstn_skipn).
    destruct SUB as (U & EU).
    assert (ST : stale s (drain_end E m d) W).
    { constructor; auto.
      - apply (rep_hb _ _ _ _ _ RY).
      - assert (ND := rep_ids _ _ _ _ _ RY). rewrite EU, map_app in ND. clear - ND.
        induction (map zid U); auto. inversion ND; auto.
      - assert (D := rep_dr _ _ _ _ _ RY). rewrite EU, map_app in D. clear - D.
        induction (map zr U); auto. cbn [app] in D. apply distinct_cons in D as [_ D]. auto. }
    assert (EW : map snd (skipn n P) = map zr W).
    { rewrite OY, skipn_map, map_map. reflexivity. }
    exists P, d. split; [exact V|]. split; [rewrite HD, OY, map_length; auto|]. cbv zeta.
    rewrite EW. assert (CZ : counter (drain_end E m d) = 0) by auto.
    clear HD DL DR EW RY PY. generalize dependent (drain_end E m d). intros m' ST CZ.
    assert (HB := st_hb _ _ _ ST).
    assert (EX : forall r, existsb (eqR E r) (map zr W) = true ->
      exists z W', Permutation W (z :: W') /\ r =R zr z /\ (forall x, In x W' -> eqR E r (zr x) = false)).
    { intros r X. destruct (stale_split _ _ _ r ST) as [Q|Q]; auto.
      apply existsb_exists in X as (b & Hb & X). apply in_map_iff in Hb as (z & <- & Hz).
      rewrite (Q z Hz) in X. discriminate. }
    assert (NX : forall r, existsb (eqR E r) (map zr W) = false -> forall z, In z W -> eqR E r (zr z) = false).
    { intros r X z Hz. destruct (eqR E r (zr z)) eqn:Q; auto.
      assert (existsb (eqR E r) (map zr W) = true); [|congruence].
      apply existsb_exists. exists (zr z). split; auto. apply in_map. auto. }
    assert (GN : forall m2 r W2, stale s m2 W2 -> (forall z, In z W2 -> eqR E r (zr z) = false) ->
      contains_right E m2 r = false).
    { intros m2 r W2 S2 N. unfold contains_right. rewrite (stale_absent _ _ _ _ _ S2 N). auto. }
    assert (RL : forall l, remove_via_left E l m' = Ret m' None).
    { intros l. unfold remove_via_left, left_remove_entry. mrun.
      rewrite (stale_left_remove _ _ _ _ _ ST). auto. }
    assert (AP : forall l r, are_paired E m' l r = false).
    { intros l r. unfold are_paired. rewrite (stale_left _ _ _ _ _ ST). auto. }
    refine (conj _ (conj _ (conj AP (conj RL (conj _ (conj _ (conj _ (conj _ (conj _ _))))))))).
    - intros r. destruct (existsb (eqR E r) (map zr W)) eqn:X.
      + destruct (EX r X) as (z & W' & PW & Q & N). unfold contains_right. rewrite HB.
        rewrite (stale_get _ _ _ _ _ _ ST PW Q N). auto.
      + eapply GN; eauto.
    - intros r. unfold get_left, get_left_q. destruct (t_get _ (right_set m') _ _); auto.
      rewrite (stale_left _ _ _ _ _ ST). auto.
    - intros l r. unfold remove. mrun. rewrite AP. auto.
    - unfold map_eq, len, t_len, iter. rewrite (st_l _ _ _ ST). auto.
    - intros m2 L2. unfold map_eq. rewrite L2. unfold len, t_len, iter. rewrite (st_l _ _ _ ST). auto.
    - intros r X. destruct (EX r X) as (z & W' & PW & Q & N).
      destruct (stale_remove _ _ _ _ _ _ ST PW Q N) as (m2 & RR & S2).
      assert (C2 : contains_right E m2 r = false) by (eapply GN; eauto).
      split; [eauto|]. split.
      + intros l. exists m2. split; auto. unfold insert. unfold bind at 1. rewrite RL.
        unfold bind at 1. rewrite RR. auto.
      + intros new. unfold swap_right. unfold bind at 1, getst at 1. unfold bind at 1.
        destruct (swap_right_eq_check E r new (hashR E (hash_builder m') new) m') as [m3 o|m3] eqn:SC; [|eauto].
        assert (m3 = m').
        { unfold swap_right_eq_check in SC. mrun. destruct (t_get _ (right_set m') _ _) as [e|] eqn:G.
          - destruct (negb (eqR E new r)) eqn:NE; [|inversion SC; auto].
            destruct (existsb (eqR E new) (map zr W)) eqn:XN.
            + destruct (EX new XN) as (z2 & W2 & P2 & Q2 & N2).
              destruct (stale_remove _ _ _ _ _ _ ST P2 Q2 N2) as (m4 & R4 & _). rewrite R4 in SC. discriminate.
            + rewrite (stale_absent _ _ _ _ _ ST (NX new XN)) in G. discriminate.
          - inversion SC; auto. }
        subst m3. mrun. rewrite HB, (stale_get _ _ _ _ _ _ ST PW Q N).
        rewrite t_find_absent; [eauto|]. rewrite (st_l _ _ _ ST). intros x [].
    - intros r X. assert (N := NX r X).
      assert (RR : remove_via_right E r m' = Ret m' None).
      { unfold remove_via_right, right_remove_entry. mrun.
        rewrite (stale_absent_remove _ _ _ _ _ ST N). auto. }
      split; auto. intros l. unfold insert. unfold bind at 1. rewrite RL. unfold bind at 1. rewrite RR.
      unfold incr_counter, left_insert, right_insert. mrun. rewrite CZ, u64_incr_ok by reflexivity.
      eexists. split; [reflexivity|].
      assert (HL : hashed (make_hasher_l E s) (slots (left_set m'))).
      { rewrite (st_l _ _ _ ST). intros x []. }
      assert (HR : hashed (make_hasher_r E s) (slots (right_set m'))).
      { eapply hashed_perm; [symmetry; apply (st_r _ _ _ ST)|].
        intros x Hx. apply in_map_iff in Hx as (z & <- & _). reflexivity. }
      split.
      + unfold are_paired, set_left, set_right, set_counter. cbn -[t_insert]. rewrite HB.
        erewrite (t_get_unique _ LO (t_insert (lo E) (left_set m') _ _ _)).
        2:{ rewrite (t_insert_perm _ LO) by exact HL. rewrite (st_l _ _ _ ST). apply Permutation_refl. }
        2:{ apply (equiv_refl _ EL). }
        2:{ intros x []. }
        erewrite (t_get_unique _ LO (t_insert (lo E) (right_set m') _ _ _)).
        2:{ rewrite (t_insert_perm _ LO) by exact HR. rewrite (st_r _ _ _ ST). apply Permutation_refl. }
        2:{ apply (equiv_refl _ ER). }
        2:{ intros x Hx. eapply (key_r_other E); eauto. }
        cbn [pid phash]. rewrite !N.eqb_refl. auto.
      + unfold len, t_len, set_left, set_right, set_counter. cbn -[t_insert]. rewrite HB.
        rewrite (Permutation_length (t_insert_perm _ LO _ _ _ _ HL)), (st_l _ _ _ ST). auto.
    - eexists. split; [reflexivity|]. intros big LT. eapply (repr_behaves E OK s 0); [|lia].
      exists []. split; auto. constructor; simpl; auto using NoDup_nil, distinct_nil.
      intros ? [].
  Qed.
End Defects.

(* one of the three pairs of m1 is taken, then the iterator is dropped: 20 and 50 stay *)
Definition panics {X} (r : res (cmap item item N) X) : bool :=
  match r with Ret _ _ => false | Panic _ => true end.
Ltac run_all := repeat match goal with |- _ /\ _ => split; [vm_compute; reflexivity|] end; vm_compute; reflexivity.
Example C15_stale_rights_case : reachable env_collide 2 m1 /\ exists d,
  drain_nexts env_collide 1 (drain m1) = Ret d [Some (it 4, it 30)] /\
  contents env_collide m1 P1 /\ map snd (skipn 1 P1) = [it 20; it 50] /\
  contains_right env_collide (drain_end env_collide m1 d) (it' 20) = true /\
  get_left env_collide (drain_end env_collide m1 d) (it 20) = None /\
  panics (remove_via_right env_collide (it' 20) (drain_end env_collide m1 d)) = true /\
  panics (insert env_collide (it 7) (it' 50) (drain_end env_collide m1 d)) = true /\
  panics (swap_right env_collide (it 20) (it 60) (drain_end env_collide m1 d)) = true /\
  res_value (insert env_collide (it 7) (it 30) (drain_end env_collide m1 d)) = Some Neither.
Proof.
  split; [exists 7, 0, 0, hist1; split; vm_compute; reflexivity|].
  eexists. split; [vm_compute; reflexivity|]. run_all.
Qed.
Print Assumptions C15_stale_rights_partial.
