(* Refinement of CycleMap to lists of pairs. *)
From Coq Require Import List NArith Lia Bool Permutation.
From Verif Require Import Prelude RawTable Optionals CycleMap CycleMapSpec ListFacts TableFacts.
Import ListNotations.
Open Scope N_scope.

Ltac mrun := cbv [bind ret getst putst unwrap panic] in *.

Section Proofs.
  Context {L R S : Type} (E : env L R S) (OK : lawful E).
  Notation cm := (cmap L R S).
  Notation trip := (N * L * R)%type.

  Definition zid (z : trip) : N := fst (fst z).
  Definition zl (z : trip) : L := snd (fst z).
  Definition zr (z : trip) : R := snd z.
  Definition zpair (z : trip) : L * R := (zl z, zr z).
  Definition slotL (s : S) (z : trip) : N * mapping_pair L :=
    (hashL E s (zl z), MP (zl z) (hashR E s (zr z)) (zid z)).
  Definition slotR (s : S) (z : trip) : N * mapping_pair R :=
    (hashR E s (zr z), MP (zr z) (hashL E s (zl z)) (zid z)).

  (* both tables are permutations of the same list of (id, left, right) *)
  Record Rep (s : S) (c : N) (m : cm) (Z : list trip) : Prop := {
    rep_hb : hash_builder m = s;
    rep_c : counter m = c;
    rep_l : Permutation (slots (left_set m)) (map (slotL s) Z);
    rep_r : Permutation (slots (right_set m)) (map (slotR s) Z);
    rep_ids : NoDup (map zid Z);
    rep_lt : forall z, In z Z -> zid z < c;
    rep_dl : distinct (eqL E) (map zl Z);
    rep_dr : distinct (eqR E) (map zr Z)
  }.

  Definition Repr s c m (P : list (L * R)) : Prop :=
    exists Z, Rep s c m Z /\ P = map zpair Z.

  Let EL := eqL_equiv _ OK.
  Let ER := eqR_equiv _ OK.
  Let LO := lo_ok _ OK.

  Lemma rep_perm : forall s c m Z Z', Permutation Z Z' -> Rep s c m Z -> Rep s c m Z'.
  Proof.
    intros s c m Z Z' P H. destruct H. constructor; auto.
    - etransitivity; eauto. apply Permutation_map; auto.
    - etransitivity; eauto. apply Permutation_map; auto.
    - eapply NoDup_perm; [apply Permutation_map; exact P|auto].
    - intros. apply rep_lt0. eapply Permutation_in; [symmetry|]; eauto.
    - eapply distinct_perm; [exact EL|apply Permutation_map; exact P|auto].
    - eapply distinct_perm; [exact ER|apply Permutation_map; exact P|auto].
  Qed.

  Lemma repr_perm : forall s c m P P', Permutation P P' -> Repr s c m P -> Repr s c m P'.
  Proof.
    intros s c m P P' HP (Z & H & ->).
    symmetry in HP. apply Permutation_map_inv in HP as (Z' & -> & HP).
    exists Z'; split; auto. eapply rep_perm; eauto.
  Qed.

  Lemma repr_bij : forall s c m P, Repr s c m P -> bijective (eqL E) (eqR E) P.
  Proof.
    intros s c m P (Z & H & ->). split; rewrite map_map.
    - apply (rep_dl _ _ _ _ H).
    - apply (rep_dr _ _ _ _ H).
  Qed.

  Lemma rep_hashed_l : forall s c m Z, Rep s c m Z ->
    hashed (make_hasher_l E s) (slots (left_set m)).
  Proof.
    intros s c m Z H. eapply hashed_perm; [symmetry; apply (rep_l _ _ _ _ H)|].
    intros x Hx. apply in_map_iff in Hx as (z & <- & _). reflexivity.
  Qed.
  Lemma rep_hashed_r : forall s c m Z, Rep s c m Z ->
    hashed (make_hasher_r E s) (slots (right_set m)).
  Proof.
    intros s c m Z H. eapply hashed_perm; [symmetry; apply (rep_r _ _ _ _ H)|].
    intros x Hx. apply in_map_iff in Hx as (z & <- & _). reflexivity.
  Qed.

  (* ---- lookups in the two tables ---- *)
  Lemma key_l_other : forall s Z q x, (forall z, In z Z -> eqL E q (zl z) = false) ->
    In x (map (slotL s) Z) -> equivalent_key (eqL E) q (snd x) = false.
  Proof. intros s Z q x H Hx. apply in_map_iff in Hx as (z & <- & Hz). apply H; auto. Qed.
  Lemma key_r_other : forall s Z q x, (forall z, In z Z -> eqR E q (zr z) = false) ->
    In x (map (slotR s) Z) -> equivalent_key (eqR E) q (snd x) = false.
  Proof. intros s Z q x H Hx. apply in_map_iff in Hx as (z & <- & Hz). apply H; auto. Qed.

  Lemma ids_other : forall z Z, NoDup (map zid (z :: Z)) ->
    forall x, In x Z -> (zid z =? zid x) = false.
  Proof.
    intros z Z H x Hx. apply N.eqb_neq. intro E0.
    exact (NoDup_map_cons_notin _ _ _ H x Hx (eq_sym E0)).
  Qed.

  Lemma hid_l_other : forall s z Z h x, NoDup (map zid (z :: Z)) ->
    In x (map (slotL s) Z) -> hash_and_id h (zid z) (snd x) = false.
  Proof.
    intros s z Z h x H Hx. apply in_map_iff in Hx as (y & <- & Hy).
    unfold hash_and_id; simpl. rewrite (ids_other _ _ H) by auto. auto.
  Qed.
  Lemma hid_r_other : forall s z Z h x, NoDup (map zid (z :: Z)) ->
    In x (map (slotR s) Z) -> hash_and_id h (zid z) (snd x) = false.
  Proof.
    intros s z Z h x H Hx. apply in_map_iff in Hx as (y & <- & Hy).
    unfold hash_and_id; simpl. rewrite (ids_other _ _ H) by auto. auto.
  Qed.
  Lemma id_r_other : forall s z Z x, NoDup (map zid (z :: Z)) ->
    In x (map (slotR s) Z) -> just_id (zid z) (snd x) = false.
  Proof.
    intros s z Z x H Hx. apply in_map_iff in Hx as (y & <- & Hy).
    unfold just_id; simpl. rewrite (ids_other _ _ H) by auto. auto.
  Qed.

  Lemma find_split : forall (p : L * R -> bool) Z z Z', Permutation Z (z :: Z') ->
    p (zpair z) = true -> (forall x, In x Z' -> p (zpair x) = false) ->
    find p (map zpair Z) = Some (zpair z).
  Proof.
    intros p Z z Z' P Hz Hn.
    apply find_perm_unique with (Z' := map zpair Z'); auto.
    - apply Permutation_map with (f := zpair) in P. auto.
    - intros x Hx. apply in_map_iff in Hx as (y & <- & Hy); auto.
  Qed.

  (* borrowed forms of the keys *)
  Definition borrow_ok {Q T} (qhash : S -> Q -> N) (qeq : Q -> T -> bool)
      (hash : S -> T -> N) (eqT : T -> T -> bool) : Prop :=
    (forall s q t, qeq q t = true -> qhash s q = hash s t) /\
    (forall q t t', eqT t t' = true -> qeq q t = qeq q t') /\
    (forall q t t', qeq q t = true -> qeq q t' = true -> eqT t t' = true).

  Lemma get_right_q_spec : forall {Q} (qhash : S -> Q -> N) (qeq : Q -> L -> bool) s c m P q,
    borrow_ok qhash qeq (hashL E) (eqL E) -> Repr s c m P ->
    get_right_q E qhash qeq m q = option_map snd (find (fun p => qeq q (fst p)) P).
  Proof.
    intros Q qhash qeq s c m P q (B1 & B2 & B3) (Z & H & ->).
    unfold get_right_q. rewrite (rep_hb _ _ _ _ H).
    destruct (existsb (fun z => qeq q (zl z)) Z) eqn:X.
    - apply existsb_exists in X as (z & Hz & Hq).
      apply perm_in_cons in Hz as [Z' P].
      assert (HN : forall x, In x Z' -> qeq q (zl x) = false).
      { intros x Hx. destruct (qeq q (zl x)) eqn:Y; auto.
        assert (D := rep_dl _ _ _ _ H). apply (Permutation_map zl) in P.
        apply (distinct_perm _ EL _ _ P) in D. simpl in D. apply distinct_cons in D as [D _].
        rewrite <- (D (zl x)); [symmetry; apply (B3 q); auto|apply in_map; auto]. }
      apply (rep_perm _ _ _ _ _ P) in H. destruct H.
      rewrite (B1 s q (zl z)) by auto.
      erewrite t_get_unique; [|auto|apply rep_l0|exact Hq|].
      2:{ intros x Hx. apply in_map_iff in Hx as (y & <- & Hy). apply HN; auto. }
      simpl. erewrite t_get_unique; [|auto|apply rep_r0| |].
      3:{ intros x Hx. eapply hid_r_other; eauto. }
      2:{ unfold hash_and_id; simpl. rewrite !N.eqb_refl; auto. }
      rewrite (find_split (fun p => qeq q (fst p)) Z z Z'); auto.
    - rewrite existsb_false in X.
      rewrite t_get_absent.
      2:{ intros x Hx. eapply Permutation_in in Hx; [|apply (rep_l _ _ _ _ H)].
          apply in_map_iff in Hx as (y & <- & Hy). apply X; auto. }
      rewrite find_all_false; auto.
      intros x Hx. apply in_map_iff in Hx as (y & <- & Hy). apply X; auto.
  Qed.

  Lemma get_left_q_spec : forall {Q} (qhash : S -> Q -> N) (qeq : Q -> R -> bool) s c m P q,
    borrow_ok qhash qeq (hashR E) (eqR E) -> Repr s c m P ->
    get_left_q E qhash qeq m q = option_map fst (find (fun p => qeq q (snd p)) P).
  Proof.
    intros Q qhash qeq s c m P q (B1 & B2 & B3) (Z & H & ->).
    unfold get_left_q. rewrite (rep_hb _ _ _ _ H).
    destruct (existsb (fun z => qeq q (zr z)) Z) eqn:X.
    - apply existsb_exists in X as (z & Hz & Hq).
      apply perm_in_cons in Hz as [Z' P].
      assert (HN : forall x, In x Z' -> qeq q (zr x) = false).
      { intros x Hx. destruct (qeq q (zr x)) eqn:Y; auto.
        assert (D := rep_dr _ _ _ _ H). apply (Permutation_map zr) in P.
        apply (distinct_perm _ ER _ _ P) in D. simpl in D. apply distinct_cons in D as [D _].
        rewrite <- (D (zr x)); [symmetry; apply (B3 q); auto|apply in_map; auto]. }
      apply (rep_perm _ _ _ _ _ P) in H. destruct H.
      rewrite (B1 s q (zr z)) by auto.
      erewrite t_get_unique; [|auto|apply rep_r0|exact Hq|].
      2:{ intros x Hx. apply in_map_iff in Hx as (y & <- & Hy). apply HN; auto. }
      simpl. erewrite t_get_unique; [|auto|apply rep_l0| |].
      3:{ intros x Hx. eapply hid_l_other; eauto. }
      2:{ unfold hash_and_id; simpl. rewrite !N.eqb_refl; auto. }
      rewrite (find_split (fun p => qeq q (snd p)) Z z Z'); auto.
    - rewrite existsb_false in X.
      rewrite t_get_absent.
      2:{ intros x Hx. eapply Permutation_in in Hx; [|apply (rep_r _ _ _ _ H)].
          apply in_map_iff in Hx as (y & <- & Hy). apply X; auto. }
      rewrite find_all_false; auto.
      intros x Hx. apply in_map_iff in Hx as (y & <- & Hy). apply X; auto.
  Qed.

  Lemma borrow_self_l : borrow_ok (hashL E) (eqL E) (hashL E) (eqL E).
  Proof.
    repeat split.
    - intros; apply hashL_ok; auto.
    - intros; apply eqb_replace_r; auto.
    - intros q t t' A B. rewrite <- (eqb_replace_l _ EL q t t'); auto.
  Qed.
  Lemma borrow_self_r : borrow_ok (hashR E) (eqR E) (hashR E) (eqR E).
  Proof.
    repeat split.
    - intros; apply hashR_ok; auto.
    - intros; apply eqb_replace_r; auto.
    - intros q t t' A B. rewrite <- (eqb_replace_l _ ER q t t'); auto.
  Qed.

  Lemma get_right_spec : forall s c m P l, Repr s c m P ->
    get_right E m l = s_get_right (eqL E) P l.
  Proof. intros. eapply get_right_q_spec; eauto using borrow_self_l. Qed.
  Lemma get_left_spec : forall s c m P r, Repr s c m P ->
    get_left E m r = s_get_left (eqR E) P r.
  Proof. intros. eapply get_left_q_spec; eauto using borrow_self_r. Qed.

  Lemma split_l : forall s c m Z q, Rep s c m Z ->
    (exists z Z', Permutation Z (z :: Z') /\ Rep s c m (z :: Z') /\ eqL E q (zl z) = true /\
                  hashL E s q = hashL E s (zl z) /\
                  forall x, In x Z' -> eqL E q (zl x) = false)
    \/ (forall x, In x Z -> eqL E q (zl x) = false).
  Proof.
    intros s c m Z q H. destruct (split_key (eqL E) EL zl Z q (rep_dl _ _ _ _ H))
      as [(z & Z' & P & Hq & Hn)|Hn]; [left|right; auto].
    exists z, Z'. split; [auto|split]; [|split; [auto|split]]; auto.
    - eapply rep_perm; eauto.
    - apply hashL_ok; auto.
  Qed.
  Lemma split_r : forall s c m Z q, Rep s c m Z ->
    (exists z Z', Permutation Z (z :: Z') /\ Rep s c m (z :: Z') /\ eqR E q (zr z) = true /\
                  hashR E s q = hashR E s (zr z) /\
                  forall x, In x Z' -> eqR E q (zr x) = false)
    \/ (forall x, In x Z -> eqR E q (zr x) = false).
  Proof.
    intros s c m Z q H. destruct (split_key (eqR E) ER zr Z q (rep_dr _ _ _ _ H))
      as [(z & Z' & P & Hq & Hn)|Hn]; [left|right; auto].
    exists z, Z'. split; [auto|split]; [|split; [auto|split]]; auto.
    - eapply rep_perm; eauto.
    - apply hashR_ok; auto.
  Qed.

  Lemma left_get_found : forall s c m z Z q, Rep s c m (z :: Z) -> eqL E q (zl z) = true ->
    (forall x, In x Z -> eqL E q (zl x) = false) ->
    t_get (lo E) (left_set m) (hashL E s q) (equivalent_key (eqL E) q) = Some (snd (slotL s z)).
  Proof.
    intros s c m z Z q H Hq Hn. destruct H.
    rewrite (hashL_ok _ OK s q (zl z)) by auto.
    eapply t_get_unique; [auto|apply rep_l0|exact Hq|].
    intros x Hx. eapply key_l_other; eauto.
  Qed.
  Lemma right_get_found : forall s c m z Z q, Rep s c m (z :: Z) -> eqR E q (zr z) = true ->
    (forall x, In x Z -> eqR E q (zr x) = false) ->
    t_get (lo E) (right_set m) (hashR E s q) (equivalent_key (eqR E) q) = Some (snd (slotR s z)).
  Proof.
    intros s c m z Z q H Hq Hn. destruct H.
    rewrite (hashR_ok _ OK s q (zr z)) by auto.
    eapply t_get_unique; [auto|apply rep_r0|exact Hq|].
    intros x Hx. eapply key_r_other; eauto.
  Qed.
  Lemma left_absent : forall s c m Z q, Rep s c m Z ->
    (forall x, In x Z -> eqL E q (zl x) = false) ->
    forall x, In x (slots (left_set m)) -> equivalent_key (eqL E) q (snd x) = false.
  Proof.
    intros s c m Z q H Hn x Hx. destruct H. eapply key_l_other; eauto.
    eapply Permutation_in; eauto.
  Qed.
  Lemma right_absent : forall s c m Z q, Rep s c m Z ->
    (forall x, In x Z -> eqR E q (zr x) = false) ->
    forall x, In x (slots (right_set m)) -> equivalent_key (eqR E) q (snd x) = false.
  Proof.
    intros s c m Z q H Hn x Hx. destruct H. eapply key_r_other; eauto.
    eapply Permutation_in; eauto.
  Qed.

  (* is some item equal to q present? *)
  Lemma left_get_bool : forall s c m P q, Repr s c m P ->
    match t_get (lo E) (left_set m) (hashL E s q) (equivalent_key (eqL E) q) with
    | Some _ => true | None => false end = s_contains_left (eqL E) P q.
  Proof.
    intros s c m P q (Z & H & ->). unfold s_contains_left.
    destruct (split_l _ _ _ _ q H) as [(z & Z' & P & H' & Hq & _ & Hn)|Hn].
    - erewrite left_get_found by eauto. symmetry. apply existsb_exists.
      exists (zpair z); split; auto. apply in_map.
      eapply Permutation_in; [symmetry; eauto|left; auto].
    - rewrite t_get_absent by (eapply left_absent; eauto).
      symmetry. apply existsb_false. intros x Hx.
      apply in_map_iff in Hx as (y & <- & Hy). apply Hn; auto.
  Qed.
  Lemma right_get_bool : forall s c m P q, Repr s c m P ->
    match t_get (lo E) (right_set m) (hashR E s q) (equivalent_key (eqR E) q) with
    | Some _ => true | None => false end = s_contains_right (eqR E) P q.
  Proof.
    intros s c m P q (Z & H & ->). unfold s_contains_right.
    destruct (split_r _ _ _ _ q H) as [(z & Z' & P & H' & Hq & _ & Hn)|Hn].
    - erewrite right_get_found by eauto. symmetry. apply existsb_exists.
      exists (zpair z); split; auto. apply in_map.
      eapply Permutation_in; [symmetry; eauto|left; auto].
    - rewrite t_get_absent by (eapply right_absent; eauto).
      symmetry. apply existsb_false. intros x Hx.
      apply in_map_iff in Hx as (y & <- & Hy). apply Hn; auto.
  Qed.

  Lemma contains_left_spec : forall s c m P l, Repr s c m P ->
    contains_left E m l = s_contains_left (eqL E) P l.
  Proof.
    intros s c m P l H. unfold contains_left. destruct H as (Z & H & ->).
    rewrite (rep_hb _ _ _ _ H). apply left_get_bool with (c := c). exists Z; auto.
  Qed.
  Lemma contains_right_spec : forall s c m P r, Repr s c m P ->
    contains_right E m r = s_contains_right (eqR E) P r.
  Proof.
    intros s c m P r H. unfold contains_right. destruct H as (Z & H & ->).
    rewrite (rep_hb _ _ _ _ H). apply right_get_bool with (c := c). exists Z; auto.
  Qed.

  Lemma are_paired_spec : forall s c m P l r, Repr s c m P ->
    are_paired E m l r = s_are_paired (eqL E) (eqR E) P l r.
  Proof.
    intros s c m P l r (Z & H & ->). unfold are_paired, s_are_paired.
    rewrite (rep_hb _ _ _ _ H).
    destruct (split_l _ _ _ _ l H) as [(z & Z' & P & H' & Hq & Hh & Hn)|Hn].
    - erewrite left_get_found by eauto.
      rewrite (existsb_perm _ _ _ (Permutation_map zpair P)). simpl.
      rewrite Hq. simpl.
      assert (RST : existsb (fun p => eqL E l (fst p) && eqR E r (snd p)) (map zpair Z') = false).
      { apply existsb_false. intros x Hx. apply in_map_iff in Hx as (y & <- & Hy). simpl.
        rewrite Hn; auto. }
      rewrite RST, orb_false_r.
      destruct (split_r _ _ _ _ r H') as [(w & W & P2 & H2 & Hr & Hhr & Hnr)|Hnr].
      + erewrite right_get_found by eauto. simpl.
        destruct (eqR E r (zr z)) eqn:X.
        * assert (w = z) as ->.
          { assert (IN : In z (w :: W)) by (eapply Permutation_in; [eauto|left; auto]).
            destruct IN as [->|IN]; auto. apply Hnr in IN. congruence. }
          rewrite Hh, Hhr, !N.eqb_refl. auto.
        * assert (zid z =? zid w = false) as ->; auto.
          apply N.eqb_neq. intro EQ.
          assert (IN : In w (z :: Z')) by (eapply Permutation_in; [symmetry; eauto|left; auto]).
          destruct IN as [->|IN]; [congruence|].
          assert (N0 := ids_other z Z' (rep_ids _ _ _ _ H') w IN).
          rewrite EQ, N.eqb_refl in N0; discriminate.
      + rewrite t_get_absent by (eapply right_absent; eauto).
        symmetry. apply Hnr; left; auto.
    - rewrite t_get_absent by (eapply left_absent; eauto).
      symmetry. apply existsb_false. intros x Hx.
      apply in_map_iff in Hx as (y & <- & Hy). simpl. rewrite Hn; auto.
  Qed.

  (* ---- removal of one pair ---- *)
  Lemma rep_tail : forall s c m z Z tl tr, Rep s c m (z :: Z) ->
    Permutation (slots tl) (map (slotL s) Z) -> Permutation (slots tr) (map (slotR s) Z) ->
    Rep s c (CM (hash_builder m) (counter m) tl tr) Z.
  Proof.
    intros s c m z Z tl tr H Pl Pr. destruct H. constructor; simpl in *; auto.
    - inversion rep_ids0; auto.
    - apply distinct_cons in rep_dl0 as [_ ?]; auto.
    - apply distinct_cons in rep_dr0 as [_ ?]; auto.
  Qed.

  Lemma perm_filter_del : forall (p : L * R -> bool) Z z Z', Permutation Z (z :: Z') ->
    p (zpair z) = false -> (forall x, In x Z' -> p (zpair x) = true) ->
    Permutation (filter p (map zpair Z)) (map zpair Z').
  Proof.
    intros p Z z Z' P Hz Hn.
    etransitivity; [apply filter_perm, Permutation_map, P|]. simpl. rewrite Hz.
    rewrite filter_all_true; auto. intros x Hx. apply in_map_iff in Hx as (y & <- & Hy); auto.
  Qed.

  Lemma remove_via_left_ok : forall s c m P l, Repr s c m P ->
    exists m', remove_via_left E l m = Ret m' (find_l (eqL E) P l) /\
               Repr s c m' (del_l (eqL E) P l).
  Proof.
    intros s c m P l (Z & H & ->). unfold remove_via_left, left_remove_entry, right_remove_entry.
    mrun. rewrite (rep_hb _ _ _ _ H). unfold find_l, del_l.
    destruct (split_l _ _ _ _ l H) as [(z & Z' & P & H' & Hq & Hh & Hn)|Hn].
    - rewrite Hh. destruct (t_remove_entry_unique (lo E) LO (left_set m) _
          (equivalent_key (eqL E) l) _ _ (rep_l _ _ _ _ H') Hq) as (tl & -> & Pl).
      { intros x Hx. eapply key_l_other; eauto. }
      simpl.
      destruct (t_remove_entry_unique (lo E) LO (right_set m) (hashR E s (zr z))
          (hash_and_id (hashL E s (zl z)) (zid z)) _ _ (rep_r _ _ _ _ H')) as (tr & -> & Pr).
      { unfold hash_and_id; simpl. rewrite !N.eqb_refl; auto. }
      { intros x Hx. eapply hid_r_other; eauto. apply (rep_ids _ _ _ _ H'). }
      eexists; split.
      + rewrite (find_split _ Z z Z'); auto.
      + eapply repr_perm.
        * symmetry. apply (perm_filter_del _ Z z Z'); auto; simpl.
          -- rewrite Hq; auto.
          -- intros x Hx. rewrite Hn; auto.
        * exists Z'; split; auto. eapply (rep_tail s c m z); eauto.
    - rewrite t_remove_entry_absent by (eapply left_absent; eauto).
      exists m; split.
      + rewrite find_all_false; auto.
        intros x Hx. apply in_map_iff in Hx as (y & <- & Hy); apply Hn; auto.
      + rewrite filter_all_true; [exists Z; auto|].
        intros x Hx. apply in_map_iff in Hx as (y & <- & Hy). simpl. rewrite Hn; auto.
  Qed.

  Lemma remove_via_right_ok : forall s c m P r, Repr s c m P ->
    exists m', remove_via_right E r m = Ret m' (find_r (eqR E) P r) /\
               Repr s c m' (del_r (eqR E) P r).
  Proof.
    intros s c m P r (Z & H & ->). unfold remove_via_right, left_remove_entry, right_remove_entry.
    mrun. rewrite (rep_hb _ _ _ _ H). unfold find_r, del_r.
    destruct (split_r _ _ _ _ r H) as [(z & Z' & P & H' & Hq & Hh & Hn)|Hn].
    - rewrite Hh. destruct (t_remove_entry_unique (lo E) LO (right_set m) _
          (equivalent_key (eqR E) r) _ _ (rep_r _ _ _ _ H') Hq) as (tr & -> & Pr).
      { intros x Hx. eapply key_r_other; eauto. }
      simpl.
      destruct (t_remove_entry_unique (lo E) LO (left_set m) (hashL E s (zl z))
          (hash_and_id (hashR E s (zr z)) (zid z)) _ _ (rep_l _ _ _ _ H')) as (tl & -> & Pl).
      { unfold hash_and_id; simpl. rewrite !N.eqb_refl; auto. }
      { intros x Hx. eapply hid_l_other; eauto. apply (rep_ids _ _ _ _ H'). }
      eexists; split.
      + rewrite (find_split _ Z z Z'); auto.
      + eapply repr_perm.
        * symmetry. apply (perm_filter_del _ Z z Z'); auto; simpl.
          -- rewrite Hq; auto.
          -- intros x Hx. rewrite Hn; auto.
        * exists Z'; split; auto. eapply (rep_tail s c m z); eauto.
    - rewrite t_remove_entry_absent by (eapply right_absent; eauto).
      exists m; split.
      + rewrite find_all_false; auto.
        intros x Hx. apply in_map_iff in Hx as (y & <- & Hy); apply Hn; auto.
      + rewrite filter_all_true; [exists Z; auto|].
        intros x Hx. apply in_map_iff in Hx as (y & <- & Hy). simpl. rewrite Hn; auto.
  Qed.

  (* removal by hashes and id of a pair that is in the map *)
  Lemma remove_via_hashes_rep : forall s c m z Z, Rep s c m (z :: Z) ->
    exists m', remove_via_hashes_and_id E (hashL E s (zl z)) (hashR E s (zr z)) (zid z) m
               = Ret m' (Some (zpair z)) /\ Rep s c m' Z.
  Proof.
    intros s c m z Z H. unfold remove_via_hashes_and_id, left_remove_entry, right_remove_entry. mrun.
    destruct (t_remove_entry_unique (lo E) LO (left_set m) (hashL E s (zl z))
        (hash_and_id (hashR E s (zr z)) (zid z)) _ _ (rep_l _ _ _ _ H)) as (tl & -> & Pl).
    { unfold hash_and_id; simpl. rewrite !N.eqb_refl; auto. }
    { intros x Hx. eapply hid_l_other; eauto. apply (rep_ids _ _ _ _ H). }
    simpl.
    destruct (t_remove_entry_unique (lo E) LO (right_set m) (hashR E s (zr z))
        (hash_and_id (hashL E s (zl z)) (zid z)) _ _ (rep_r _ _ _ _ H)) as (tr & -> & Pr).
    { unfold hash_and_id; simpl. rewrite !N.eqb_refl; auto. }
    { intros x Hx. eapply hid_r_other; eauto. apply (rep_ids _ _ _ _ H). }
    eexists; split; [reflexivity|]. eapply (rep_tail s c m z); eauto.
  Qed.

  Lemma remove_ok : forall s c m P l r, Repr s c m P ->
    exists m', remove E l r m = Ret m' (s_remove_out (eqL E) (eqR E) P l r) /\
               Repr s c m' (s_remove (eqL E) (eqR E) P l r).
  Proof.
    intros s c m P l r H. unfold remove, s_remove, s_remove_out. mrun.
    rewrite (are_paired_spec _ _ _ _ l r H).
    destruct (s_are_paired _ _ P l r); eauto. apply remove_via_left_ok; auto.
  Qed.

  (* ---- insertion of a fresh pair ---- *)
  Lemma add_rep : forall s c m Z l r, Rep s c m Z ->
    (forall z, In z Z -> eqL E l (zl z) = false) ->
    (forall z, In z Z -> eqR E r (zr z) = false) ->
    Rep s (c + 1)
      (CM s (c + 1)
          (t_insert (lo E) (left_set m) (hashL E s l) (MP l (hashR E s r) c) (make_hasher_l E s))
          (t_insert (lo E) (right_set m) (hashR E s r) (MP r (hashL E s l) c) (make_hasher_r E s)))
      ((c, l, r) :: Z).
  Proof.
    intros s c m Z l r H Hl Hr. assert (HL := rep_hashed_l _ _ _ _ H).
    assert (HR := rep_hashed_r _ _ _ _ H). destruct H. constructor; auto; cbn [left_set right_set].
    - etransitivity; [apply t_insert_perm; auto|]. simpl. constructor; auto.
    - etransitivity; [apply t_insert_perm; auto|]. simpl. constructor; auto.
    - simpl. constructor; auto. intro I. apply in_map_iff in I as (z & Hz & Iz).
      apply rep_lt0 in Iz. rewrite Hz in Iz. unfold zid in Iz; simpl in Iz. lia.
    - intros z [<-|Hz]; unfold zid; simpl; [lia|]. apply rep_lt0 in Hz. unfold zid in Hz. lia.
    - simpl. apply distinct_cons; split; auto. intros y Hy.
      apply in_map_iff in Hy as (z & <- & Hz). apply Hl; auto.
    - simpl. apply distinct_cons; split; auto. intros y Hy.
      apply in_map_iff in Hy as (z & <- & Hz). apply Hr; auto.
  Qed.

  Lemma u64_incr_ok : forall ck c, c + 1 < two64 -> u64_incr ck c = Some (c + 1).
  Proof. intros ck c H. unfold u64_incr. apply N.ltb_lt in H. rewrite H. auto. Qed.

  Lemma insert_ok : forall s c m P l r, Repr s c m P -> c + 1 < two64 ->
    exists m', insert E l r m = Ret m' (s_insert_out (eqL E) (eqR E) P l r) /\
               Repr s (c + 1) m' (s_insert (eqL E) (eqR E) P l r).
  Proof.
    intros s c m P l r H Hc. unfold insert.
    destruct (remove_via_left_ok s c m P l H) as (m1 & E1 & H1).
    destruct (remove_via_right_ok s c m1 _ r H1) as (m2 & E2 & H2).
    unfold incr_counter, left_insert, right_insert. mrun. rewrite E1, E2.
    destruct H2 as (Z & H2 & HZ).
    rewrite (rep_c _ _ _ _ H2), (rep_hb _ _ _ _ H2). rewrite u64_incr_ok by auto.
    eexists; split; [reflexivity|]. exists ((c, l, r) :: Z). split.
    - unfold set_right, set_left, set_counter; cbn -[t_insert]. rewrite (rep_hb _ _ _ _ H2).
      apply add_rep; auto.
      + intros z Hz. assert (I : In (zpair z) (map zpair Z)) by (apply in_map; auto).
        rewrite <- HZ in I. unfold del_r in I. apply filter_In in I as [I _].
        unfold del_l in I. apply filter_In in I as [_ I]. apply negb_true_iff in I. auto.
      + intros z Hz. assert (I : In (zpair z) (map zpair Z)) by (apply in_map; auto).
        rewrite <- HZ in I. unfold del_r in I. apply filter_In in I as [_ I].
        apply negb_true_iff in I. auto.
    - unfold s_insert. simpl. f_equal; auto.
  Qed.
End Proofs.
