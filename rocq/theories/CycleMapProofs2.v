(* Refinement of CycleMap, part 2: swaps, iterators, equality, bulk and capacity operations. *)
From Coq Require Import List NArith Lia Bool Permutation.
From Verif Require Import Prelude RawTable Optionals CycleMap CycleMapSpec ListFacts TableFacts
  CycleMapProofs.
Import ListNotations.
Open Scope N_scope.

Lemma find_filter : forall {A} (p q : A -> bool) l,
  (forall x, In x l -> p x = true -> q x = true) -> find p (filter q l) = find p l.
Proof.
  induction l; simpl; intros H; auto.
  destruct (q a) eqn:Q; simpl.
  - destruct (p a); auto.
  - destruct (p a) eqn:Pa; auto. rewrite H in Q; auto; discriminate.
Qed.

Lemma find_existsb : forall {A} (p : A -> bool) l,
  existsb p l = match find p l with Some _ => true | None => false end.
Proof. induction l; simpl; auto. destruct (p a); auto. Qed.

Section Proofs2.
  Context {L R S : Type} (E : env L R S) (OK : lawful E).
  Notation cm := (cmap L R S).
  Notation trip := (N * L * R)%type.
  Notation Rep := (Rep E).
  Notation Repr := (Repr E).
  Let EL := eqL_equiv _ OK.
  Let ER := eqR_equiv _ OK.
  Let LO := lo_ok _ OK.

  Lemma repr_hb : forall s c m P, Repr s c m P -> hash_builder m = s.
  Proof. intros s c m P (Z & H & _). apply (rep_hb _ _ _ _ _ H). Qed.
  Lemma repr_c : forall s c m P, Repr s c m P -> counter m = c.
  Proof. intros s c m P (Z & H & _). apply (rep_c _ _ _ _ _ H). Qed.

  (* ---- swap_left ---- *)
  Lemma del_l_absent : forall P l, find_l (eqL E) P l = None -> @del_l L R (eqL E) P l = P.
  Proof.
    intros P l H. apply filter_all_true. intros x Hx. eapply find_none in H; eauto.
    simpl in H. rewrite H; auto.
  Qed.
  Lemma del_r_absent : forall P r, find_r (eqR E) P r = None -> @del_r L R (eqR E) P r = P.
  Proof.
    intros P l H. apply filter_all_true. intros x Hx. eapply find_none in H; eauto.
    simpl in H. rewrite H; auto.
  Qed.

  Lemma swap_left_eq_check_ok : forall s c m P old new, Repr s c m P ->
    exists m', swap_left_eq_check E old new (hashL E s new) m
               = Ret m' (s_swap_left_evict (eqL E) P old new) /\
               Repr s c m' (s_swap_left_base (eqL E) P old new).
  Proof.
    intros s c m P old new H. unfold swap_left_eq_check, s_swap_left_evict, s_swap_left_base. mrun.
    assert (B := left_get_bool E OK s c m P new H).
    unfold s_contains_left in B. rewrite find_existsb in B. fold (find_l (eqL E) P new) in B.
    destruct (t_get _ _ _ _); destruct (eqL E new old); simpl; eauto.
    - apply remove_via_left_ok; auto.
    - destruct (find_l (eqL E) P new) eqn:F; [discriminate|].
      rewrite del_l_absent; eauto.
  Qed.
  Lemma swap_right_eq_check_ok : forall s c m P old new, Repr s c m P ->
    exists m', swap_right_eq_check E old new (hashR E s new) m
               = Ret m' (s_swap_right_evict (eqR E) P old new) /\
               Repr s c m' (s_swap_right_base (eqR E) P old new).
  Proof.
    intros s c m P old new H. unfold swap_right_eq_check, s_swap_right_evict, s_swap_right_base. mrun.
    assert (B := right_get_bool E OK s c m P new H).
    unfold s_contains_right in B. rewrite find_existsb in B. fold (find_r (eqR E) P new) in B.
    destruct (t_get _ _ _ _); destruct (eqR E new old); simpl; eauto.
    - apply remove_via_right_ok; auto.
    - destruct (find_r (eqR E) P new) eqn:F; [discriminate|].
      rewrite del_r_absent; eauto.
  Qed.

  Lemma find_l_base : forall P old new,
    @find_l L R (eqL E) (s_swap_left_base (eqL E) P old new) old = find_l (eqL E) P old.
  Proof.
    intros P old new. unfold s_swap_left_base. destruct (eqL E new old) eqn:X; auto.
    apply find_filter. intros x _ Hx. simpl in *.
    rewrite (eqb_replace_r _ EL _ _ new) in X by eauto. rewrite X; auto.
  Qed.
  Lemma find_r_base : forall P old new,
    @find_r L R (eqR E) (s_swap_right_base (eqR E) P old new) old = find_r (eqR E) P old.
  Proof.
    intros P old new. unfold s_swap_right_base. destruct (eqR E new old) eqn:X; auto.
    apply find_filter. intros x _ Hx. simpl in *.
    rewrite (eqb_replace_r _ ER _ _ new) in X by eauto. rewrite X; auto.
  Qed.

  (* replacing the left item of a pair *)
  Lemma replace_left_rep : forall s c m z Z tl tr new, Rep s c m (z :: Z) ->
    (forall x, In x Z -> eqL E new (zl x) = false) ->
    Permutation (slots tl) (slotL E s (zid z, new, zr z) :: map (slotL E s) Z) ->
    Permutation (slots tr) (slotR E s (zid z, new, zr z) :: map (slotR E s) Z) ->
    Rep s c (CM (hash_builder m) (counter m) tl tr) ((zid z, new, zr z) :: Z).
  Proof.
    intros s c m z Z tl tr new H Hn Pl Pr. destruct H. constructor; auto.
    - intros x [<-|Hx]; [apply (rep_lt z); left; auto|apply rep_lt; right; auto].
    - simpl in *. apply distinct_cons in rep_dl as [A B]. apply distinct_cons; split; auto.
      intros y Hy. apply in_map_iff in Hy as (x & <- & Hx). apply Hn; auto.
  Qed.
  Lemma replace_right_rep : forall s c m z Z tl tr new, Rep s c m (z :: Z) ->
    (forall x, In x Z -> eqR E new (zr x) = false) ->
    Permutation (slots tl) (slotL E s (zid z, zl z, new) :: map (slotL E s) Z) ->
    Permutation (slots tr) (slotR E s (zid z, zl z, new) :: map (slotR E s) Z) ->
    Rep s c (CM (hash_builder m) (counter m) tl tr) ((zid z, zl z, new) :: Z).
  Proof.
    intros s c m z Z tl tr new H Hn Pl Pr. destruct H. constructor; auto.
    - intros x [<-|Hx]; [apply (rep_lt z); left; auto|apply rep_lt; right; auto].
    - simpl in *. apply distinct_cons in rep_dr as [A B]. apply distinct_cons; split; auto.
      intros y Hy. apply in_map_iff in Hy as (x & <- & Hx). apply Hn; auto.
  Qed.

  Lemma swap_left_ok : forall s c m P old new, Repr s c m P ->
    exists m', swap_left E old new m = Ret m' (s_swap_left_out (eqL E) P old new) /\
               Repr s c m' (s_swap_left (eqL E) P old new).
  Proof.
    intros s c m P old new H. unfold swap_left, s_swap_left, s_swap_left_out.
    destruct (swap_left_eq_check_ok s c m P old new H) as (m1 & E1 & H1).
    assert (Hhb := repr_hb _ _ _ _ H). assert (Hhb1 := repr_hb _ _ _ _ H1).
    rewrite <- (find_l_base P old new).
    assert (NB : forall x, In x (s_swap_left_base (eqL E) P old new) ->
                 eqL E old (fst x) = false -> eqL E new (fst x) = false).
    { unfold s_swap_left_base. intros x Hx Ho. destruct (eqL E new old) eqn:X.
      - rewrite (eqb_replace_l _ EL _ _ _ X); auto.
      - apply filter_In in Hx as [_ Hx]. apply negb_true_iff in Hx; auto. }
    set (ev := s_swap_left_evict (eqL E) P old new) in *.
    set (B := s_swap_left_base (eqL E) P old new) in *. clearbody ev B.
    unfold left_remove_entry, left_insert. mrun. rewrite Hhb, E1, Hhb1. clear H.
    destruct H1 as (Z & H & ->).
    destruct (split_l E OK _ _ _ _ old H) as [(z & Z' & PZ & H' & Hq & Hh & Hn)|Hn].
    - erewrite left_get_found by eauto. unfold find_l.
      rewrite (find_split _ Z z Z') by auto. simpl.
      destruct (t_find_unique (lo E) LO (right_set m1) (hashR E s (zr z))
          (hash_and_id (hashL E s old) (zid z)) _ _ (rep_r _ _ _ _ _ H')) as (i & Fi & Ni).
      { unfold hash_and_id; simpl. rewrite Hh, !N.eqb_refl; auto. }
      { intros x Hx. eapply hid_r_other; eauto. apply (rep_ids _ _ _ _ _ H'). }
      rewrite Fi. cbn -[t_modify t_insert t_remove_entry].
      destruct (t_remove_entry_unique (lo E) LO (left_set m1) (hashL E s old)
          (equivalent_key (eqL E) old) (snd (slotL E s z)) (map (slotL E s) Z')) as (tl & -> & Pl).
      { rewrite Hh. apply (rep_l _ _ _ _ _ H'). }
      { exact Hq. }
      { intros x Hx. eapply key_l_other; eauto. }
      eexists; split; [reflexivity|].
      eapply (repr_perm E OK).
      2:{ exists ((zid z, new, zr z) :: Z'). split; [|reflexivity].
          unfold set_left; cbn -[t_modify t_insert].
          apply replace_left_rep; auto.
          - intros x Hx. apply (NB (zpair x)); [|apply Hn; auto]. apply in_map.
            eapply Permutation_in; [symmetry; eauto|right; auto].
          - etransitivity; [apply t_insert_perm; auto|].
            + rewrite Hhb1. eapply hashed_perm; [symmetry; exact Pl|].
              intros x Hx. apply in_map_iff in Hx as (y & <- & _). reflexivity.
            + unfold slotL at 1; simpl. constructor. auto.
          - etransitivity; [eapply t_modify_perm; [exact Ni|apply (rep_r _ _ _ _ _ H')]|].
            reflexivity. }
      simpl. constructor. symmetry. apply (perm_filter_del _ Z z Z'); auto; simpl.
      + rewrite Hq; auto.
      + intros x Hx. rewrite Hn; auto.
    - rewrite t_get_absent by (eapply left_absent; eauto). unfold find_l.
      rewrite find_all_false.
      + eexists; split; eauto. exists Z; auto.
      + intros x Hx. apply in_map_iff in Hx as (y & <- & Hy); apply Hn; auto.
  Qed.

  Lemma swap_right_ok : forall s c m P old new, Repr s c m P ->
    exists m', swap_right E old new m = Ret m' (s_swap_right_out (eqR E) P old new) /\
               Repr s c m' (s_swap_right (eqR E) P old new).
  Proof.
    intros s c m P old new H. unfold swap_right, s_swap_right, s_swap_right_out.
    destruct (swap_right_eq_check_ok s c m P old new H) as (m1 & E1 & H1).
    assert (Hhb := repr_hb _ _ _ _ H). assert (Hhb1 := repr_hb _ _ _ _ H1).
    rewrite <- (find_r_base P old new).
    assert (NB : forall x, In x (s_swap_right_base (eqR E) P old new) ->
                 eqR E old (snd x) = false -> eqR E new (snd x) = false).
    { unfold s_swap_right_base. intros x Hx Ho. destruct (eqR E new old) eqn:X.
      - rewrite (eqb_replace_l _ ER _ _ _ X); auto.
      - apply filter_In in Hx as [_ Hx]. apply negb_true_iff in Hx; auto. }
    set (ev := s_swap_right_evict (eqR E) P old new) in *.
    set (B := s_swap_right_base (eqR E) P old new) in *. clearbody ev B.
    unfold right_remove_entry, right_insert. mrun. rewrite Hhb, E1, Hhb1. clear H.
    destruct H1 as (Z & H & ->).
    destruct (split_r E OK _ _ _ _ old H) as [(z & Z' & PZ & H' & Hq & Hh & Hn)|Hn].
    - erewrite right_get_found by eauto. unfold find_r.
      rewrite (find_split _ Z z Z') by auto. simpl.
      destruct (t_find_unique (lo E) LO (left_set m1) (hashL E s (zl z))
          (hash_and_id (hashR E s old) (zid z)) _ _ (rep_l _ _ _ _ _ H')) as (i & Fi & Ni).
      { unfold hash_and_id; simpl. rewrite Hh, !N.eqb_refl; auto. }
      { intros x Hx. eapply hid_l_other; eauto. apply (rep_ids _ _ _ _ _ H'). }
      rewrite Fi. cbn -[t_modify t_insert t_remove_entry].
      destruct (t_remove_entry_unique (lo E) LO (right_set m1) (hashR E s old)
          (equivalent_key (eqR E) old) (snd (slotR E s z)) (map (slotR E s) Z')) as (tr & -> & Pr).
      { rewrite Hh. apply (rep_r _ _ _ _ _ H'). }
      { exact Hq. }
      { intros x Hx. eapply key_r_other; eauto. }
      eexists; split; [reflexivity|].
      eapply (repr_perm E OK).
      2:{ exists ((zid z, zl z, new) :: Z'). split; [|reflexivity].
          unfold set_right; cbn -[t_modify t_insert].
          apply replace_right_rep; auto.
          - intros x Hx. apply (NB (zpair x)); [|apply Hn; auto]. apply in_map.
            eapply Permutation_in; [symmetry; eauto|right; auto].
          - etransitivity; [eapply t_modify_perm; [exact Ni|apply (rep_l _ _ _ _ _ H')]|].
            reflexivity.
          - etransitivity; [apply t_insert_perm; auto|].
            + rewrite Hhb1. eapply hashed_perm; [symmetry; exact Pr|].
              intros x Hx. apply in_map_iff in Hx as (y & <- & _). reflexivity.
            + unfold slotR at 1; simpl. constructor. auto. }
      simpl. constructor. symmetry. apply (perm_filter_del _ Z z Z'); auto; simpl.
      + rewrite Hq; auto.
      + intros x Hx. rewrite Hn; auto.
    - rewrite t_get_absent by (eapply right_absent; eauto). unfold find_r.
      rewrite find_all_false.
      + eexists; split; eauto. exists Z; auto.
      + intros x Hx. apply in_map_iff in Hx as (y & <- & Hy); apply Hn; auto.
  Qed.

  Lemma swap_left_checked_ok : forall s c m P old ex new, Repr s c m P ->
    exists m', swap_left_checked E old ex new m
      = Ret m' (if s_are_paired (eqL E) (eqR E) P old ex
                then s_swap_left_out (eqL E) P old new else Neither) /\
      Repr s c m' (if s_are_paired (eqL E) (eqR E) P old ex
                   then s_swap_left (eqL E) P old new else P).
  Proof.
    intros s c m P old ex new H. unfold swap_left_checked. mrun.
    rewrite (are_paired_spec E OK _ _ _ _ old ex H).
    destruct (s_are_paired _ _ P old ex); simpl; eauto. apply swap_left_ok; auto.
  Qed.
  Lemma swap_right_checked_ok : forall s c m P old ex new, Repr s c m P ->
    exists m', swap_right_checked E old ex new m
      = Ret m' (if s_are_paired (eqL E) (eqR E) P ex old
                then s_swap_right_out (eqR E) P old new else Neither) /\
      Repr s c m' (if s_are_paired (eqL E) (eqR E) P ex old
                   then s_swap_right (eqR E) P old new else P).
  Proof.
    intros s c m P old ex new H. unfold swap_right_checked. mrun.
    rewrite (are_paired_spec E OK _ _ _ _ ex old H).
    destruct (s_are_paired _ _ P ex old); simpl; eauto. apply swap_right_ok; auto.
  Qed.

  Lemma swap_left_or_insert_ok : forall s c m P old new ti, Repr s c m P -> c + 1 < two64 ->
    exists c' m', c <= c' <= c + 1 /\ swap_left_or_insert E old new ti m
      = Ret m' (if s_contains_left (eqL E) P old then s_swap_left_out (eqL E) P old new
                else op_map_left fst (s_insert_out (eqL E) (eqR E) P new ti)) /\
      Repr s c' m' (if s_contains_left (eqL E) P old then s_swap_left (eqL E) P old new
                   else s_insert (eqL E) (eqR E) P new ti).
  Proof.
    intros s c m P old new ti H Hc. unfold swap_left_or_insert. mrun.
    rewrite (repr_hb _ _ _ _ H).
    assert (B := left_get_bool E OK s c m P old H). rewrite <- B.
    destruct (t_get _ _ _ _).
    - exists c. destruct (swap_left_ok s c m P old new H) as (m' & ? & ?).
      exists m'. repeat split; auto; lia.
    - exists (c + 1). destruct (insert_ok E OK s c m P new ti H Hc) as (m' & -> & ?).
      exists m'. repeat split; auto; lia.
  Qed.

  (* swap_right_or_insert: panics exactly when old is absent and to_insert present *)
  Lemma swap_right_or_insert_ok : forall s c m P old new ti, Repr s c m P -> c + 1 < two64 ->
    exists c' m', c <= c' <= c + 1 /\ swap_right_or_insert E old new ti m
      = (if s_contains_right (eqR E) P old then Ret m' (s_swap_right_out (eqR E) P old new)
         else if s_contains_left (eqL E) P ti then Panic m'
         else Ret m' (match find_r (eqR E) P new with
                      | Some p => SomeRight p | None => Neither end)) /\
      Repr s c' m' (if s_contains_right (eqR E) P old then s_swap_right (eqR E) P old new
                   else s_insert (eqL E) (eqR E) P ti new).
  Proof.
    intros s c m P old new ti H Hc. unfold swap_right_or_insert. mrun.
    rewrite (repr_hb _ _ _ _ H).
    assert (B := right_get_bool E OK s c m P old H). rewrite <- B.
    destruct (t_get _ _ _ _).
    - exists c. destruct (swap_right_ok s c m P old new H) as (m' & ? & ?).
      exists m'. repeat split; auto; lia.
    - exists (c + 1). destruct (insert_ok E OK s c m P ti new H Hc) as (m' & -> & ?).
      exists m'. split; [lia|]. split; auto. unfold s_contains_left. rewrite find_existsb.
      unfold s_insert_out. fold (find_l (eqL E) P ti).
      destruct (find_l (eqL E) P ti) eqn:F; simpl.
      + destruct (find_r _ _ _); auto.
      + rewrite del_l_absent by auto. destruct (find_r _ _ _); auto.
  Qed.

  (* ---- iterators ---- *)
  (* The pairs of the map in iteration order. *)
  Definition order_pairs (m : cm) (it : list (N * mapping_pair L)) : list (L * R) :=
    flat_map (fun x => match get_right E m (value (snd x)) with
                       | Some r => [(value (snd x), r)] | None => [] end) it.

  Lemma rep_get_right : forall s c m Z z, Rep s c m Z -> In z Z ->
    get_right E m (zl z) = Some (zr z).
  Proof.
    intros s c m Z z H Hz.
    rewrite (get_right_spec E OK s c m (map zpair Z)) by (exists Z; auto).
    unfold s_get_right, find_l.
    destruct (perm_in_cons _ _ Hz) as (Z' & P).
    rewrite (find_split _ Z z Z'); auto.
    - apply (equiv_refl _ EL).
    - intros x Hx. simpl. assert (D := rep_dl _ _ _ _ _ H).
      apply (Permutation_map zl) in P. apply (distinct_perm _ EL _ _ P) in D.
      simpl in D. apply distinct_cons in D as [D _]. apply D, in_map; auto.
  Qed.

  Lemma order_pairs_slots : forall s c m Z Y, Rep s c m Z -> incl Y Z ->
    order_pairs m (map (slotL E s) Y) = map zpair Y.
  Proof.
    induction Y as [|y Y IHY]; simpl; intros H HI; auto.
    rewrite (rep_get_right s c m Z y); auto.
    - simpl. f_equal. apply IHY; auto. intros x Hx; apply HI; right; auto.
    - apply HI; left; auto.
  Qed.

  Lemma rep_iter_next : forall s c m Z hl rest, Rep s c m Z ->
    incl (hl :: rest) (slots (left_set m)) ->
    exists z, In z Z /\ hl = slotL E s z /\
      iter_next E m (hl :: rest) = Done (Some (zpair z), rest) /\
      get_right E m (zl z) = Some (zr z).
  Proof.
    intros s c m Z hl rest H I.
    assert (I0 : In hl (map (slotL E s) Z)).
    { eapply Permutation_in; [apply (rep_l _ _ _ _ _ H)|]. apply I; left; auto. }
    apply in_map_iff in I0 as (z & <- & Hz). exists z.
    assert (G := rep_get_right s c m Z z H Hz).
    repeat split; auto. simpl. rewrite G. reflexivity.
  Qed.

  Lemma order_pairs_perm : forall s c m P, Repr s c m P ->
    Permutation (order_pairs m (iter m)) P.
  Proof.
    intros s c m P (Z & H & ->).
    rewrite <- (order_pairs_slots s c m Z Z H (incl_refl _)).
    unfold order_pairs. apply Permutation_flat_map, (rep_l _ _ _ _ _ H).
  Qed.

  (* n calls of next *)
  Lemma iter_nexts_ok : forall s c m P n it, Repr s c m P -> incl it (slots (left_set m)) ->
    nexts (iter_next E m) n it =
      Done (firstn n (map Some (order_pairs m it)) ++
            repeat None (n - length it), skipn n it).
  Proof.
    intros s c m P n it (Z & H & HP) I. revert it I. induction n; intros it I; auto.
    destruct it as [|a it].
    - simpl. destruct n; simpl.
      + auto.
      + specialize (IHn [] I). simpl in IHn. rewrite IHn. simpl. auto.
    - destruct (rep_iter_next s c m Z a it H I) as (z & Hz & -> & EN & G).
      cbn [nexts]. rewrite EN. rewrite IHn by (intros x Hx; apply I; right; auto).
      simpl. rewrite G. simpl. auto.
  Qed.

  Lemma iter_all_order : forall s c m P, Repr s c m P ->
    iter_all E m = Done (order_pairs m (iter m)).
  Proof.
    intros s c m P (Z & H & HP). unfold iter_all.
    assert (G : forall n it, incl it (slots (left_set m)) -> (length it <= n)%nat ->
       collect (iter_next E m) n it = Done (order_pairs m it)).
    { induction n; intros it I Hn.
      - destruct it; simpl in *; [auto|lia].
      - destruct it as [|a it]; [reflexivity|].
        destruct (rep_iter_next s c m Z a it H I) as (z & Hz & -> & EN & G).
        cbn [collect]. rewrite EN. rewrite IHn.
        + simpl. rewrite G. auto.
        + intros x Hx; apply I; right; auto.
        + simpl in Hn; lia. }
    apply G; [apply incl_refl|auto].
  Qed.

  (* a for loop over iter() sees each pair exactly once *)
  Lemma iter_all_ok : forall s c m P, Repr s c m P ->
    exists P', iter_all E m = Done P' /\ Permutation P' P.
  Proof.
    intros. eexists; split; [eapply iter_all_order; eauto|]. eapply order_pairs_perm; eauto.
  Qed.

  Lemma iter_left_ok : forall s c m P, Repr s c m P ->
    Permutation (map (fun x => value (snd x)) (iter_left m)) (map fst P).
  Proof.
    intros s c m P (Z & H & ->). unfold iter_left.
    etransitivity; [apply Permutation_map, (rep_l _ _ _ _ _ H)|]. rewrite !map_map. reflexivity.
  Qed.
  Lemma iter_right_ok : forall s c m P, Repr s c m P ->
    Permutation (map (fun x => value (snd x)) (iter_right m)) (map snd P).
  Proof.
    intros s c m P (Z & H & ->). unfold iter_right.
    etransitivity; [apply Permutation_map, (rep_r _ _ _ _ _ H)|]. rewrite !map_map. reflexivity.
  Qed.
  Lemma single_nexts_ok : forall T n (it : list (N * mapping_pair T)),
    nexts single_next n it =
      Done (firstn n (map (fun x => Some (value (snd x))) it) ++ repeat None (n - length it),
            skipn n it).
  Proof.
    induction n; intros it; auto. destruct it as [|[h a] it].
    - simpl. rewrite IHn. simpl. destruct n; simpl; auto.
    - cbn [nexts single_next]. rewrite IHn. simpl. auto.
  Qed.

  Lemma len_ok : forall s c m P, Repr s c m P -> len m = length P.
  Proof.
    intros s c m P (Z & H & ->). unfold len, t_len.
    rewrite (Permutation_length (rep_l _ _ _ _ _ H)), !map_length. auto.
  Qed.
  Lemma len_right_ok : forall s c m P, Repr s c m P -> t_len (right_set m) = length P.
  Proof.
    intros s c m P (Z & H & ->). unfold t_len.
    rewrite (Permutation_length (rep_r _ _ _ _ _ H)), !map_length. auto.
  Qed.

  (* ---- equality ---- *)
  Lemma map_eq_ok : forall s c m P s' c' m' P', Repr s c m P -> Repr s' c' m' P' ->
    map_eq E m m' = Done (Nat.eqb (length P) (length P') &&
      forallb (fun p => s_are_paired (eqL E) (eqR E) P' (fst p) (snd p)) P).
  Proof.
    intros s c m P s' c' m' P' H H'. unfold map_eq.
    rewrite (len_ok _ _ _ _ H), (len_ok _ _ _ _ H').
    destruct (Nat.eqb (length P) (length P')); simpl; auto.
    rewrite (forallb_perm _ _ _ (Permutation_sym (order_pairs_perm _ _ _ _ H))).
    assert (H0 := H). destruct H0 as (Z & HZ & _).
    assert (G : forall n it, incl it (slots (left_set m)) -> (length it <= n)%nat ->
       all_paired E m m' n it = Done (forallb (fun p => s_are_paired (eqL E) (eqR E) P' (fst p) (snd p))
           (order_pairs m it))).
    { induction n; intros it I Hn.
      - destruct it; simpl in *; [auto|lia].
      - destruct it as [|a it]; [reflexivity|].
        destruct (rep_iter_next s c m Z a it HZ I) as (z & Hz & -> & EN & G).
        cbn [all_paired]. rewrite EN. unfold zpair at 1.
        rewrite (are_paired_spec E OK _ _ _ _ (zl z) (zr z) H').
        simpl order_pairs. rewrite G. simpl.
        destruct (s_are_paired _ _ P' (zl z) (zr z)); simpl; auto.
        apply IHn; [intros x Hx; apply I; right; auto|simpl in Hn; lia]. }
    apply G; [apply incl_refl|auto].
  Qed.

  (* ---- extend ---- *)
  Definition s_extend (P : list (L * R)) (xs : list (L * R)) : list (L * R) :=
    fold_left (fun P x => s_insert (eqL E) (eqR E) P (fst x) (snd x)) xs P.

  Lemma extend_ok : forall xs s c m P, Repr s c m P -> c + N.of_nat (length xs) < two64 ->
    exists m', extend E xs m = Ret m' tt /\
               Repr s (c + N.of_nat (length xs)) m' (s_extend P xs).
  Proof.
    induction xs as [|[l r] xs IH]; intros s c m P H Hc.
    - exists m; split; auto. simpl length. rewrite N.add_0_r. auto.
    - simpl length in *. destruct (insert_ok E OK s c m P l r H) as (m1 & E1 & H1); [lia|].
      destruct (IH s (c + 1) m1 _ H1) as (m2 & E2 & H2); [lia|].
      exists m2. split.
      + cbn [extend]. mrun. rewrite E1. exact E2.
      + replace (c + N.of_nat (Datatypes.S (length xs))) with (c + 1 + N.of_nat (length xs)) by lia.
        exact H2.
  Qed.

  (* ---- clear, capacity ---- *)
  Lemma clear_ok : forall s c m P, Repr s c m P ->
    exists m', clear E m = Ret m' tt /\ Repr s c m' [].
  Proof.
    intros s c m P H. unfold clear. mrun. eexists; split; [reflexivity|].
    exists []; split; auto. constructor; simpl; auto using NoDup_nil.
    - apply (repr_hb _ _ _ _ H).
    - apply (repr_c _ _ _ _ H).
    - intros ? [].
    - apply distinct_nil.
    - apply distinct_nil.
  Qed.

  Lemma rep_tables : forall s c m Z tl tr, Rep s c m Z ->
    Permutation (slots tl) (slots (left_set m)) -> Permutation (slots tr) (slots (right_set m)) ->
    Rep s c (CM (hash_builder m) (counter m) tl tr) Z.
  Proof.
    intros s c m Z tl tr H Pl Pr. destruct H. constructor; auto; simpl.
    - etransitivity; eauto.
    - etransitivity; eauto.
  Qed.

  Lemma resize_both_ok : forall s c m P n, Repr s c m P ->
    exists m', resize_both E n m = Ret m' tt /\ Repr s c m' P.
  Proof.
    intros s c m P n (Z & H & ->). unfold resize_both. mrun. eexists; split; [reflexivity|].
    exists Z; split; auto. unfold set_right, set_left; cbn -[t_resize].
    assert (HL := rep_hashed_l _ _ _ _ _ H). assert (HR := rep_hashed_r _ _ _ _ _ H).
    rewrite <- (rep_hb _ _ _ _ _ H) in HL, HR.
    apply rep_tables; auto using t_resize_perm.
  Qed.
  Lemma shrink_to_fit_ok : forall s c m P, Repr s c m P ->
    exists m', shrink_to_fit E m = Ret m' tt /\ Repr s c m' P.
  Proof.
    intros s c m P (Z & H & ->). unfold shrink_to_fit. mrun. eexists; split; [reflexivity|].
    exists Z; split; auto. unfold set_right, set_left; cbn -[t_resize len].
    assert (HL := rep_hashed_l _ _ _ _ _ H). assert (HR := rep_hashed_r _ _ _ _ _ H).
    rewrite <- (rep_hb _ _ _ _ _ H) in HL, HR.
    apply rep_tables; auto using t_resize_perm.
  Qed.
  Lemma try_reserve_ok : forall s c m P n, Repr s c m P ->
    exists m' b, try_reserve E n m = Ret m' b /\ Repr s c m' P.
  Proof.
    intros s c m P n (Z & H & ->). unfold try_reserve. mrun.
    assert (HL := rep_hashed_l _ _ _ _ _ H). assert (HR := rep_hashed_r _ _ _ _ _ H).
    rewrite <- (rep_hb _ _ _ _ _ H) in HL, HR.
    assert (Pl := t_try_resize_perm (lo E) LO _ n _ HL).
    assert (Pr := t_try_resize_perm (lo E) LO _ n _ HR).
    destruct (t_try_resize (lo E) (left_set m) n _) as [ok tl] eqn:T.
    destruct ok.
    - cbn -[t_try_resize]. destruct (t_try_resize (lo E) (right_set m) n _) as [ok tr] eqn:T2.
      eexists; eexists; split; [reflexivity|]. exists Z; split; auto. apply (rep_tables s c m); [exact H|exact Pl|exact Pr].
    - eexists; eexists; split; [reflexivity|]. exists Z; split; auto.
      apply (rep_tables s c m); [exact H|exact Pl|reflexivity].
  Qed.

  Lemma new_ok : forall s ll lr, Repr s 0 (with_hasher s ll lr) [].
  Proof.
    intros. exists []; split; auto. constructor; simpl; auto using NoDup_nil, distinct_nil.
    intros ? [].
  Qed.
End Proofs2.
