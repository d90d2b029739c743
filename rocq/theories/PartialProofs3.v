(* Refinement of PartialCycleMap, part 3: insertion, pairing, unpairing. *)
From Coq Require Import List NArith Lia Bool Permutation.
From Verif Require Import Prelude RawTable Optionals PartialCycleMap PartialSpec ListFacts TableFacts
  PartialProofs PartialProofs2.
Import ListNotations.
Open Scope N_scope.

Section Proofs3.
  Context {L R S : Type} (E : env L R S) (OK : lawful E).
  Notation pm := (pmap L R S).
  Notation entry := (optional_pair L R).
  Notation zent := (N * entry)%type.
  Notation Rep := (Rep E).
  Notation Repr := (Repr E).
  Notation slotL := (slotL E).
  Notation slotR := (slotR E).
  Let EL := eqL_equiv _ OK.
  Let ER := eqR_equiv _ OK.
  Let LO := lo_ok _ OK.

  (* ---- insertion ---- *)
  Lemma del_l_no : forall P l (Z : list zent), del_l (eqL E) P l = map snd Z ->
    forall x, In x Z -> has_l (eqL E) l (snd x) = false.
  Proof.
    intros P l Z H x Hx. apply (in_map snd) in Hx. rewrite <- H in Hx.
    apply filter_In in Hx as [_ Hx]. apply negb_true_iff in Hx; auto.
  Qed.
  Lemma del_r_no : forall P r (Z : list zent), del_r (eqR E) P r = map snd Z ->
    forall x, In x Z -> has_r (eqR E) r (snd x) = false.
  Proof.
    intros P l Z H x Hx. apply (in_map snd) in Hx. rewrite <- H in Hx.
    apply filter_In in Hx as [_ Hx]. apply negb_true_iff in Hx; auto.
  Qed.

  Lemma insert_ok : forall s c m P l r, Repr s c m P -> c + 1 < two64 ->
    exists m', insert E l r m = Ret m' (s_insert_out (eqL E) (eqR E) P l r) /\
               Repr s (c + 1) m' (s_insert (eqL E) (eqR E) P l r).
  Proof.
    intros s c m P l r H Hc. unfold insert.
    destruct (remove_via_left_ok E OK s c m P l H) as (m1 & E1 & H1).
    destruct (remove_via_right_ok E OK s c m1 _ r H1) as (m2 & E2 & H2).
    unfold incr_counter, left_insert, right_insert. mrun. rewrite E1, E2.
    destruct H2 as (Z & H2 & HZ).
    rewrite (rep_c _ _ _ _ _ H2), (rep_hb _ _ _ _ _ H2). rewrite u64_incr_ok by auto.
    eexists; split; [reflexivity|]. exists ((c, SomeBoth l r) :: Z). split.
    2:{ unfold s_insert. simpl. f_equal; auto. }
    cbn -[t_insert]. rewrite (rep_hb _ _ _ _ _ H2).
    eapply (rep_rebuild E s c (c + 1) m2 _ [] [(c, SomeBoth l r)] Z H2); try reflexivity; try lia.
    - apply (rep_hb _ _ _ _ _ H2).
    - etransitivity; [apply t_insert_perm; auto; eapply rep_hashed_l; eauto|].
      constructor. apply (rep_l _ _ _ _ _ H2).
    - etransitivity; [apply t_insert_perm; auto; eapply rep_hashed_r; eauto|].
      constructor. apply (rep_r _ _ _ _ _ H2).
    - constructor; auto; constructor.
    - intros i [<-|[]]. right. cbn [fst]. lia.
    - split; [|split]; simpl; try apply distinct_one. intros [|[]]; discriminate.
    - intros a [<-|[]] x Hx. apply (in_map snd) in Hx. rewrite <- HZ in Hx.
      apply filter_In in Hx as [Hx _]. apply filter_In in Hx as [_ Hx]. apply negb_true_iff; auto.
    - intros a [<-|[]]. eapply del_r_no; eauto.
  Qed.

  Lemma insert_left_ok : forall s c m P l, Repr s c m P -> c + 1 < two64 ->
    exists m', insert_left E l m = Ret m' (or_neither (find_l (eqL E) P l)) /\
               Repr s (c + 1) m' (s_insert_left (eqL E) P l).
  Proof.
    intros s c m P l H Hc. unfold insert_left.
    destruct (remove_via_left_ok E OK s c m P l H) as (m1 & E1 & (Z & H1 & HZ)).
    unfold incr_counter, left_insert. mrun. rewrite E1.
    rewrite (rep_c _ _ _ _ _ H1), (rep_hb _ _ _ _ _ H1). rewrite u64_incr_ok by auto.
    eexists; split; [reflexivity|]. exists ((c, SomeLeft l) :: Z). split.
    2:{ unfold s_insert_left. simpl. f_equal; auto. }
    cbn -[t_insert]. rewrite (rep_hb _ _ _ _ _ H1).
    eapply (rep_rebuild E s c (c + 1) m1 _ [] [(c, SomeLeft l)] Z H1); try reflexivity; try lia.
    - apply (rep_hb _ _ _ _ _ H1).
    - etransitivity; [apply t_insert_perm; auto; eapply rep_hashed_l; eauto|].
      constructor. apply (rep_l _ _ _ _ _ H1).
    - apply (rep_r _ _ _ _ _ H1).
    - constructor; auto; constructor.
    - intros i [<-|[]]. right. cbn [fst]. lia.
    - split; [|split]; simpl; [apply distinct_one|apply distinct_nil|]. intros [|[]]; discriminate.
    - intros a [<-|[]]. eapply del_l_no; eauto.
    - intros a [].
  Qed.

  Lemma insert_right_ok : forall s c m P r, Repr s c m P -> c + 1 < two64 ->
    exists m', insert_right E r m = Ret m' (or_neither (find_r (eqR E) P r)) /\
               Repr s (c + 1) m' (s_insert_right (eqR E) P r).
  Proof.
    intros s c m P r H Hc. unfold insert_right.
    destruct (remove_via_right_ok E OK s c m P r H) as (m1 & E1 & (Z & H1 & HZ)).
    unfold incr_counter, right_insert. mrun. rewrite E1.
    rewrite (rep_c _ _ _ _ _ H1), (rep_hb _ _ _ _ _ H1). rewrite u64_incr_ok by auto.
    eexists; split; [reflexivity|]. exists ((c, SomeRight r) :: Z). split.
    2:{ unfold s_insert_right. simpl. f_equal; auto. }
    cbn -[t_insert]. rewrite (rep_hb _ _ _ _ _ H1).
    eapply (rep_rebuild E s c (c + 1) m1 _ [] [(c, SomeRight r)] Z H1); try reflexivity; try lia.
    - apply (rep_hb _ _ _ _ _ H1).
    - apply (rep_l _ _ _ _ _ H1).
    - etransitivity; [apply t_insert_perm; auto; eapply rep_hashed_r; eauto|].
      constructor. apply (rep_r _ _ _ _ _ H1).
    - constructor; auto; constructor.
    - intros i [<-|[]]. right. cbn [fst]. lia.
    - split; [|split]; simpl; [apply distinct_nil|apply distinct_one|]. intros [|[]]; discriminate.
    - intros a [].
    - intros a [<-|[]]. eapply del_r_no; eauto.
  Qed.

  (* ---- where l and r are ---- *)
  Inductive place (s : S) (c : N) (m : pm) (Z : list zent) (l : L) (r : R) : Prop :=
  | PNoL : (forall x, In x Z -> has_l (eqL E) l (snd x) = false) -> place s c m Z l r
  | PNoR : (forall x, In x Z -> has_r (eqR E) r (snd x) = false) -> place s c m Z l r
  | PSame : forall i a b W, Permutation Z ((i, SomeBoth a b) :: W) ->
      Rep s c m ((i, SomeBoth a b) :: W) ->
      eqL E l a = true -> eqR E r b = true ->
      hashL E s l = hashL E s a -> hashR E s r = hashR E s b ->
      (forall x, In x W -> has_l (eqL E) l (snd x) = false) ->
      (forall x, In x W -> has_r (eqR E) r (snd x) = false) -> place s c m Z l r
  | PDiff : forall z w W a b, Permutation Z (z :: w :: W) ->
      Rep s c m ([z; w] ++ W) ->
      op_get_left (snd z) = Some a -> op_get_right (snd w) = Some b ->
      eqL E l a = true -> eqR E r b = true ->
      hashL E s l = hashL E s a -> hashR E s r = hashR E s b ->
      has_r (eqR E) r (snd z) = false -> has_l (eqL E) l (snd w) = false ->
      (forall x, In x W -> has_l (eqL E) l (snd x) = false) ->
      (forall x, In x W -> has_r (eqR E) r (snd x) = false) -> place s c m Z l r.

  Lemma place_ok : forall s c m Z l r, Rep s c m Z -> place s c m Z l r.
  Proof.
    intros s c m Z l r H.
    destruct (split_l E OK _ _ _ _ l H) as [(z & Z' & a & P & H' & Ha & Hq & Hh & Hn)|Hn];
      [|apply PNoL; auto].
    destruct (split_r E OK _ _ _ _ r H') as [(w & W & b & P2 & H2 & Hb & Hr & Hhr & Hnr)|Hnr].
    2:{ apply PNoR. intros x Hx. apply Hnr. eapply Permutation_in; eauto. }
    assert (IN : In z (w :: W)) by (eapply Permutation_in; [eauto|left; auto]).
    destruct IN as [->|IN].
    - destruct z as [i x]; cbn [snd] in *. destruct x; simpl in Ha, Hb; try discriminate.
      inversion Ha; inversion Hb; subst. apply Permutation_cons_inv in P2.
      eapply (PSame _ _ _ _ _ _ i a b Z'); eauto.
      intros x Hx. apply Hnr. eapply Permutation_in; eauto.
    - apply perm_in_cons in IN as [W' PW].
      assert (PZ : Permutation Z' (w :: W')).
      { apply Permutation_cons_inv with (a := z). rewrite P2, PW. constructor. }
      eapply (PDiff _ _ _ _ _ _ z w W' a b); eauto.
      + rewrite P. constructor; auto.
      + eapply (rep_perm E OK); [|exact H']. simpl. constructor; auto.
      + apply Hnr. eapply Permutation_in; [symmetry; eauto|left; auto].
      + apply Hn. eapply Permutation_in; [symmetry; eauto|left; auto].
      + intros x Hx. apply Hn. eapply Permutation_in; [symmetry; eauto|right; auto].
      + intros x Hx. apply Hnr. eapply Permutation_in; [symmetry; eauto|right; auto].
  Qed.

  (* the spec in the four cases *)
  Lemma find_l_same : forall Z i a b W l, Permutation Z ((i, SomeBoth a b) :: W) ->
    eqL E l a = true -> (forall x : zent, In x W -> has_l (eqL E) l (snd x) = false) ->
    find_l (eqL E) (map snd Z) l = Some (SomeBoth a b).
  Proof. intros Z i a b W l P Hl Hn. unfold find_l. rewrite (find_split _ Z _ W P); auto. Qed.
  Lemma find_l_diff : forall Z (z w : zent) W l a, Permutation Z (z :: w :: W) ->
    op_get_left (snd z) = Some a -> eqL E l a = true -> has_l (eqL E) l (snd w) = false ->
    (forall x, In x W -> has_l (eqL E) l (snd x) = false) ->
    find_l (eqL E) (map snd Z) l = Some (snd z).
  Proof.
    intros Z z w W l a P Ha Hl Hw Hn. unfold find_l. rewrite (find_split _ Z z (w :: W) P); auto.
    - eapply has_l_some; eauto.
    - intros x [<-|Hx]; auto.
  Qed.
  Lemma find_r_same : forall Z i a b W r, Permutation Z ((i, SomeBoth a b) :: W) ->
    eqR E r b = true -> (forall x : zent, In x W -> has_r (eqR E) r (snd x) = false) ->
    find_r (eqR E) (map snd Z) r = Some (SomeBoth a b).
  Proof. intros Z i a b W l P Hl Hn. unfold find_r. rewrite (find_split _ Z _ W P); auto. Qed.
  Lemma find_r_diff : forall Z (z w : zent) W r b, Permutation Z (z :: w :: W) ->
    op_get_right (snd w) = Some b -> eqR E r b = true -> has_r (eqR E) r (snd z) = false ->
    (forall x, In x W -> has_r (eqR E) r (snd x) = false) ->
    find_r (eqR E) (map snd Z) r = Some (snd w).
  Proof.
    intros Z z w W l a P Ha Hl Hw Hn. unfold find_r. rewrite (find_split _ Z w (z :: W)); auto.
    - rewrite P. constructor.
    - eapply has_r_some; eauto.
    - intros x [<-|Hx]; auto.
  Qed.
  Lemma del_diff : forall Z (z w : zent) W l r a b, Permutation Z (z :: w :: W) ->
    op_get_left (snd z) = Some a -> eqL E l a = true -> has_l (eqL E) l (snd w) = false ->
    (forall x, In x W -> has_l (eqL E) l (snd x) = false) ->
    op_get_right (snd w) = Some b -> eqR E r b = true ->
    (forall x, In x W -> has_r (eqR E) r (snd x) = false) ->
    Permutation (del_r (eqR E) (del_l (eqL E) (map snd Z) l) r) (map snd W).
  Proof.
    intros Z z w W l r a b P Ha Hl Hw Hn Hb Hr Hnr. unfold del_r, del_l.
    etransitivity; [apply filter_perm, (filter_del _ Z z (w :: W) P)|].
    - eapply has_l_some; eauto.
    - intros x [<-|Hx]; auto.
    - apply (filter_del _ (w :: W) w W); auto. eapply has_r_some; eauto.
  Qed.

  Lemma left_mut_found : forall s c m z Z a q, Rep s c m (z :: Z) -> op_get_left (snd z) = Some a ->
    eqL E q a = true -> (forall x, In x Z -> has_l (eqL E) q (snd x) = false) ->
    exists i, t_get_mut E (left_set m) (hashL E s q) (equivalent_key (eqL E) q)
        = Some (i, MP a (option_map (hashR E s) (op_get_right (snd z))) (fst z)) /\
      at_slot (left_set m) i (hashL E s a)
        (MP a (option_map (hashR E s) (op_get_right (snd z))) (fst z)) (flat_map (slotL s) Z).
  Proof.
    intros s c m z Z a q H Ha Hq Hn. rewrite (hashL_ok _ OK s q a) by auto.
    apply (get_mut_unique E OK); auto.
    - apply (rep_l_cons E _ _ _ _ _ _ H Ha).
    - intros x Hx. eapply key_l_other; eauto.
  Qed.
  Lemma right_mut_found : forall s c m z Z a q, Rep s c m (z :: Z) -> op_get_right (snd z) = Some a ->
    eqR E q a = true -> (forall x, In x Z -> has_r (eqR E) q (snd x) = false) ->
    exists i, t_get_mut E (right_set m) (hashR E s q) (equivalent_key (eqR E) q)
        = Some (i, MP a (option_map (hashL E s) (op_get_left (snd z))) (fst z)) /\
      at_slot (right_set m) i (hashR E s a)
        (MP a (option_map (hashL E s) (op_get_left (snd z))) (fst z)) (flat_map (slotR s) Z).
  Proof.
    intros s c m z Z a q H Ha Hq Hn. rewrite (hashR_ok _ OK s q a) by auto.
    apply (get_mut_unique E OK); auto.
    - apply (rep_r_cons E _ _ _ _ _ _ H Ha).
    - intros x Hx. eapply key_r_other; eauto.
  Qed.
  Lemma left_mut_absent : forall s c m Z q, Rep s c m Z ->
    (forall x, In x Z -> has_l (eqL E) q (snd x) = false) ->
    t_get_mut E (left_set m) (hashL E s q) (equivalent_key (eqL E) q) = None.
  Proof. intros. apply get_mut_absent. eapply left_absent; eauto. Qed.
  Lemma right_mut_absent : forall s c m Z q, Rep s c m Z ->
    (forall x, In x Z -> has_r (eqR E) q (snd x) = false) ->
    t_get_mut E (right_set m) (hashR E s q) (equivalent_key (eqR E) q) = None.
  Proof. intros. apply get_mut_absent. eapply right_absent; eauto. Qed.

  Lemma find_l_no : forall (Z : list zent) l,
    (forall x, In x Z -> has_l (eqL E) l (snd x) = false) -> find_l (eqL E) (map snd Z) l = None.
  Proof. intros. apply find_absent; auto. Qed.
  Lemma find_r_no : forall (Z : list zent) r,
    (forall x, In x Z -> has_r (eqR E) r (snd x) = false) -> find_r (eqR E) (map snd Z) r = None.
  Proof. intros. apply find_absent; auto. Qed.

  Ltac rep_facts H :=
    let IDS := fresh "IDS" in
    assert (IDS := rep_ids _ _ _ _ _ H); apply nodup_two in IDS as (? & ? & ?).

  Definition nowhere (Z : list zent) l r :=
    (forall x, In x Z -> has_l (eqL E) l (snd x) = false) \/
    (forall x, In x Z -> has_r (eqR E) r (snd x) = false).

  (* the two buckets found when l and r are both present *)
  Lemma mut_none : forall {A} s c m Z l r
      (k : nat * mapping_pair L -> nat * mapping_pair R -> A) (d : A), Rep s c m Z ->
    nowhere Z l r ->
    match t_get_mut E (left_set m) (hashL E s l) (equivalent_key (eqL E) l),
          t_get_mut E (right_set m) (hashR E s r) (equivalent_key (eqR E) r) with
    | Some u, Some v => k u v
    | _, _ => d
    end = d.
  Proof.
    intros A s c m Z l r k d H [Hn|Hn].
    - rewrite (left_mut_absent _ _ _ _ _ H Hn). auto.
    - rewrite (right_mut_absent _ _ _ _ _ H Hn). destruct (t_get_mut E (left_set m) _ _); auto.
  Qed.
  Lemma find_none_any : forall {A} Z l r (k : entry -> entry -> A) (d : A), nowhere Z l r ->
    match find_l (eqL E) (map snd Z) l, find_r (eqR E) (map snd Z) r with
    | Some x, Some y => k x y | _, _ => d end = d.
  Proof.
    intros A Z l r k d [Hn|Hn].
    - rewrite find_l_no; auto.
    - rewrite (find_r_no _ r); auto. destruct (find_l _ _ _); auto.
  Qed.

  Lemma rep_repr : forall s c m Z, Rep s c m Z -> Repr s c m (map snd Z).
  Proof. intros; exists Z; auto. Qed.

  Lemma rep_snoc : forall s c m (z w : zent) W, Rep s c m ([z; w] ++ W) -> Rep s c m (w :: z :: W).
  Proof. intros s c m z w W H. eapply (rep_perm E OK); [|exact H]. constructor. Qed.

  Lemma pair_ok : forall s c m P l r, Repr s c m P ->
    exists m', pair E l r m = Ret m' (s_pair_out (eqL E) (eqR E) P l r) /\
               Repr s c m' (s_pair (eqL E) (eqR E) P l r).
  Proof.
    intros s c m P l r (Z & H & ->). unfold pair, s_pair, s_pair_out, left_assign, right_assign.
    mrun. rewrite (rep_hb _ _ _ _ _ H).
    destruct (place_ok s c m Z l r H) as [Hn|Hn|i a b W PZ H2 Hl Hr Hhl Hhr Nl Nr
                                         |z w W a b PZ H2 Ha Hb Hl Hr Hhl Hhr Nzr Nwl Nl Nr].
    - rewrite (left_mut_absent _ _ _ _ _ H Hn), find_l_no by auto. eauto using rep_repr.
    - rewrite (right_mut_absent _ _ _ _ _ H Hn), (find_r_no Z r) by auto.
      exists m. split; [|destruct (find_l _ _ _) as [[]|]; eauto using rep_repr].
      destruct (t_get_mut E (left_set m) _ _) as [[? ?]|], (find_l _ _ _) as [[]|]; auto.
    - destruct (left_mut_found _ _ _ _ _ _ l H2 eq_refl Hl Nl) as (p & -> & _).
      destruct (right_mut_found _ _ _ _ _ _ r H2 eq_refl Hr Nr) as (q & -> & _).
      rewrite (find_l_same Z i a b W) by auto. exists m. simpl; split; auto using rep_repr.
    - destruct (left_mut_found s c m z (w :: W) a l H2 Ha Hl) as (p & -> & Al).
      { intros x [<-|Hx]; auto. }
      destruct (right_mut_found s c m w (z :: W) b r (rep_snoc _ _ _ _ _ _ H2) Hb Hr) as (q & -> & Ar).
      { intros x [<-|Hx]; auto. }
      rewrite (find_l_diff Z z w W l a), (find_r_diff Z z w W r b) by auto.
      assert (PD := del_diff Z z w W l r a b PZ Ha Hl Nwl Nl Hb Hr Nr).
      destruct z as [i x], w as [j y]; cbn [fst snd] in *.
      destruct x as [|a1|b1|a1 b1]; simpl in Ha; inversion Ha; subst a1; clear Ha;
      destruct y as [|a2|b2|a2 b2]; simpl in Hb; inversion Hb; subst b2; clear Hb;
        cbn [option_map op_get_left op_get_right phash pid] in *;
        try (exists m; split; auto using rep_repr; fail).
      eexists; split; [reflexivity|]. rewrite Hhl, Hhr.
      eapply (repr_perm E OK); [constructor; symmetry; exact PD|].
      exists ((i, SomeBoth a b) :: W); split; auto.
      apply (modify_at _ _ _ _ _ (set_hash (Some (hashR E s b)))) in Al as [_ Al].
      apply (modify_at _ _ _ _ _ (set_hash (Some (hashL E s a)))) in Ar.
      apply (modify_at _ _ _ _ _ (set_id i)) in Ar as [_ Ar].
      eapply (rep_rebuild E s c c m _ [_; _] [_]); [exact H2| | | | | | | | | |]; auto.
      + apply (rep_hb _ _ _ _ _ H).
      + apply (rep_c _ _ _ _ _ H).
      + lia.
      + constructor; auto; constructor.
      + intros k [<-|[]]. left; left; auto.
      + split; [|split]; simpl; try apply distinct_one. intros [|[]]; discriminate.
      + intros k [<-|[]]. apply (rep_apart_l E OK _ _ _ _ _ H2). left; auto.
      + intros k [<-|[]]. apply (rep_apart_r E OK _ _ _ _ _ H2). left; auto.
  Qed.
End Proofs3.
